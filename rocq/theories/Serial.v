(** The reference for C53: goroutines whose lock-protected sections are executed in one go. *)
From Verif Require Export Conc WfCmds.

(** The contents of a database: values and deadlines.  (The key counter, which only KEYS reads, is not protected by the locks.) *)
Record data := mkData { dvals : gmap bytes value; dends : gmap bytes Z }.
Definition data_of (d : db) : data := mkData (dict d) (exps d).
Definition with_cnt (a : data) (n : Z) : db := mkDb (dvals a) (dends a) n.

Section WithParams.
Context {P : Setup}.

(** One access; the key counter may show anything. *)
Definition dprim {A} (T : Z -> Prop) (a : data) (p : prog A) (a' : data) (p' : prog A) : Prop :=
  exists n n', prim T (with_cnt a n) p (with_cnt a' n') p'.
(** [inside T a p b q]: from contents [a], the program [p] running alone gets to [q] without releasing a lock; then the contents are [b]. *)
Inductive inside {A} (T : Z -> Prop) : data -> prog A -> data -> prog A -> Prop :=
| In_refl a p : inside T a p a p
| In_prim a p a1 p1 b q : dprim T a p a1 p1 -> inside T a1 p1 b q -> inside T a p b q
| In_acq a pos m k b q : inside T a k b q -> inside T a (Acq pos m k) b q.
(** Goroutines one of which takes a step: a whole section at once; or one access outside sections, or the release of a further lock.
    Accesses outside sections are the reads that the commands make without holding a lock.
    Such a read may see the contents as they are between sections, or as they are at a point inside the section that another goroutine
    is about to execute. *)
Inductive astep {A} (T : Z -> Prop) : data * list (prog A) -> data * list (prog A) -> Prop :=
| A_section a ps i pos m k b pos' m' k' : ps !! i = Some (Acq pos m k) -> inside T a k b (Rel pos' m' k') ->
    astep T (a, ps) (b, <[i := k']> ps)
| A_release a ps i pos m k : ps !! i = Some (Rel pos m k) -> astep T (a, ps) (a, <[i := k]> ps)
| A_outside a ps i p p' : ps !! i = Some p -> dprim T a p a p' -> astep T (a, ps) (a, <[i := p']> ps)
| A_peek a ps i p p' j pos m k b q : i <> j -> ps !! i = Some p -> ps !! j = Some (Acq pos m k) -> inside T a k b q ->
    dprim T b p b p' -> astep T (a, ps) (a, <[i := p']> ps).

(** KEYS is not among the commands. *)
Definition no_keys (cs : list (list command)) : Prop := forall cmds cmd, cmds ∈ cs -> cmd ∈ cmds -> cmd_is "keys" cmd = false.

(** A concurrent state and a state between sections: each goroutine is where it is there, or inside the section it is about to execute there;
    the contents are the same, except under keys whose exclusive lock is held. *)
Definition corresponds {A} (T : Z -> Prop) (c : conf A) (s : data * list (prog A)) : Prop :=
  length s.2 = length (ths c) /\
  (forall i t, ths c !! i = Some t -> s.2 !! i = Some (tcode t) \/
    exists pos m k b, s.2 !! i = Some (Acq pos m k) /\ inside T s.1 k b (tcode t)) /\
  (forall key, wr (lk c (lockpos key)) = false -> dvals s.1 !! key = dict (cdb c) !! key /\ dends s.1 !! key = exps (cdb c) !! key).
End WithParams.
