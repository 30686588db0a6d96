(** Vocabulary of C85: clients whose keys nobody else uses, commands whose replies depend on nothing but what is stored. *)
From Verif Require Export SpecParts.

(** A key named in one of the commands. *)
Definition keyed (cs : list command) (key : bytes) : Prop := exists cmd, cmd ∈ cs /\ key ∈ key_args cmd.
(** Client [i] uses no key that another client uses. *)
Definition keeps_apart (i : nat) (css : list (list command)) : Prop :=
  forall j cs ds key, css !! i = Some cs -> css !! j = Some ds -> keyed cs key -> keyed ds key -> j = i.
(** A command without chance, without the order of a map, without the clock.  (GETRANGE: the reference says nothing of a string longer than a Go string can be.) *)
Definition predictable (cmd : command) : Prop :=
  (forall s, In s (any_order ++ ["getrange"; "expire"; "setex"; "ttl"]%string) -> ~ called s cmd) /\
  (called "set" cmd -> forall i o, (3 <= i)%nat -> cmd !! i = Some o -> ~ named o "ex" /\ ~ named o "px").
(** Nothing is stored. *)
Definition bare (M : keyspace) : Prop := forall k, M k = None.
(** The commands and replies of a history. *)
Definition deeds (h : list (Z * command * rdata)) : list (command * rdata) := map (fun e => (e.1.2, e.2)) h.
Section Serving.
Context {P : Setup}.
(** [x] can be reached from the start with [dbs] empty databases, the clock showing times in [T], by clients sending the commands [css]; KEYS, SETNX and SELECT are not among these, and the deadlines given are past all of [T]. *)
Definition serving (T : Z -> Prop) (lim : Z) (dbs : nat) (css : list (list command)) (x : world) : Prop :=
  (exists t, T t) /\ (forall t, T t -> t <= lim) /\ rtc (happens T) (boot 0 (replicate dbs empty_db) (length css)) x /\
  (forall i p, peers x !! i = Some p -> exists cs, css !! i = Some cs /\ asks (concat (given (lnk p))) cs) /\
  each locked css /\ each (far_deadlines T lim) css /\ each (fun cmd => ~ called "select" cmd) css.
(** Nothing moves any more, and no command is in an endless loop. *)
Definition resting (T : Z -> Prop) (x : world) : Prop := now_is x = Running /\ (forall y, ~ wadvance T x y) /\ ~ spins x.
End Serving.
