(** A command that stands still holds up only those that need its locks: C83. *)
From Verif Require Import HoldupProofs HoldupSched.

(** * C83  Whom a command that never ends holds up *)
Section C83.
Context {P : Setup}.
(** The clients [X] stand still, for whatever reason; nobody else has died or loops.  [L] is a set of locks that the commands of [X]
    do not use, and that the others' commands leave only downwards: a command with a key in [L] has no key with a higher lock outside [L].
    When the others cannot advance any more, those of them that use only locks in [L] have all their replies. *)
Theorem C83_goes_on (T : Z -> Prop) (X : nat -> Prop) (L : N -> Prop) d cs c i cmds :
  (forall j cmds key, X j -> cs !! j = Some cmds -> uses cmds key -> ~ L (lockpos key)) ->
  (forall j cmds cmd k k', ~ X j -> cs !! j = Some cmds -> cmd ∈ cmds -> touched cmd k -> touched cmd k' ->
    L (lockpos k) -> (lockpos k < lockpos k')%N -> L (lockpos k')) ->
  (exists now, T now) -> rtc (cstep T) (clients d cs) c -> (forall j t, ~ X j -> ths c !! j = Some t -> ~ halted t) -> at_rest X T c ->
  ~ X i -> cs !! i = Some cmds -> (forall key, uses cmds key -> L (lockpos key)) -> answered c i cmds.
Proof. exact (fun H1 H2 => goes_on T X L d cs H1 H2 c i cmds). Qed.
(** Clients that share no lock with those that stand still get all their replies. *)
Theorem C83_apart (T : Z -> Prop) (X : nat -> Prop) d cs c i cmds : (exists now, T now) -> rtc (cstep T) (clients d cs) c ->
  (forall j j' cmds cmds' key key', X j -> ~ X j' -> cs !! j = Some cmds -> cs !! j' = Some cmds' -> uses cmds key -> uses cmds' key' ->
    lockpos key <> lockpos key') ->
  (forall j t, ~ X j -> ths c !! j = Some t -> ~ halted t) -> at_rest X T c -> ~ X i -> cs !! i = Some cmds -> answered c i cmds.
Proof. exact (apart T X d cs c i cmds). Qed.
(** They come to rest: the others cannot advance forever. *)
Theorem C83_rests (T : Z -> Prop) (X : nat -> Prop) (c : conf (list rdata)) : Acc (fun c' c => others X T c c') c.
Proof. exact (others_finite X T c). Qed.
End C83.
Print Assumptions C83_goes_on.
Print Assumptions C83_apart.
Print Assumptions C83_rests.

#[local] Existing Instance demo_setup.
Local Open Scope string_scope.
(** An LINSERT of the element that it looks for never ends and keeps the lock of "l" (5).  One MSET has the lock of "u" (0) and waits
    for that of "l"; another waits for that of "l" before it takes that of "s" (6); one client reads "u", another "s" and "f" (7). *)
Definition queue : list (list (list string)) :=
  [[["linsert"; "l"; "AFTER"; "b"; "b"]]; [["mset"; "l"; "1"; "u"; "2"]]; [["get"; "u"]]; [["mset"; "s"; "1"; "l"; "2"]]; [["get"; "s"]; ["set"; "f"; "3"]]].
Definition jam : conf (list rdata) := play 100 [(0, 100); (1, 100); (2, 100); (3, 100); (4, 100)]%nat (race demo queue).
Example C83_example :
  (let X := eq 0%nat in let L := fun p => (5 < p)%N in
   (forall j cmds key, X j -> map (map C) queue !! j = Some cmds -> uses cmds key -> ~ L (lockpos key)) /\
   (forall j cmds cmd k k', ~ X j -> map (map C) queue !! j = Some cmds -> cmd ∈ cmds -> touched cmd k -> touched cmd k' ->
     L (lockpos k) -> (lockpos k < lockpos k')%N -> L (lockpos k')) /\
   rtc (cstep (eq 100)) (race demo queue) jam /\ (forall j t, ~ X j -> ths jam !! j = Some t -> ~ halted t) /\ at_rest X (eq 100) jam /\
   (forall key, uses (map C [["get"; "s"]; ["set"; "f"; "3"]]) key -> L (lockpos key))) /\
  answers jam = [None; None; None; None; Some [bulk "hello"; ok]].
Proof.
  cbn zeta. split; [|vm_compute; reflexivity]. split; [|split; [|split; [|split; [|split]]]].
  - intros j cmds key <- H. injection H as <-. intros Hu HL.
    pose proof (all_args (fun k => negb (5 <? lockpos k)%N) (map C [["linsert"; "l"; "AFTER"; "b"; "b"]]) ltac:(vm_compute; reflexivity) ltac:(vm_compute; reflexivity) key Hu) as E. cbv beta in E. apply N.ltb_lt in HL. rewrite HL in E. discriminate.
  - intros j cmds cmd k k' _ _ _ _ _ HL Hlt. lia.
  - apply play_ok.
  - apply nobody_halted. vm_compute. reflexivity.
  - apply still_rest. vm_compute. reflexivity.
  - intros key Hu. pose proof (all_args (fun k => (5 <? lockpos k)%N) (map C [["get"; "s"]; ["set"; "f"; "3"]]) ltac:(vm_compute; reflexivity) ltac:(vm_compute; reflexivity) key Hu) as E. apply N.ltb_lt in E. exact E.
Qed.
(** The hypothesis on the others' commands is needed: GET of "u", a key that the endless LINSERT does not name and whose lock it does
    not use, is never answered, because MSET holds that lock while it waits for that of "l". *)
Theorem C83_chain_refuted : rtc (cstep (eq 100)) (race demo queue) jam /\ lockpos (B "u") <> lockpos (B "l") /\
  forall c, rtc (cstep (eq 100)) jam c -> answers c !! 2%nat = Some None.
Proof.
  split; [apply play_ok|]. split; [vm_compute; discriminate|]. apply still_answers; vm_compute; reflexivity.
Qed.
Print Assumptions C83_chain_refuted.
