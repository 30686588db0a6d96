(** Values under the hands of a command (C81). *)
From Verif Require Import StableProofs StableSched.

(** * C81  A stored value does not change while a command works on it *)
Section C81.
Context {P : Setup} (T : Z -> Prop) (d : db) (cs : list (list command)) (i j : nat) (key : bytes).
(** From the moment a command fetches a value until it releases a lock or itself updates the value, the value stays what it was. *)
Theorem C81_stable c c' t : no_setnx cs i -> rtc (cstep T) (clients d cs) c -> ths c !! i = Some t -> reads_value key t ->
  rtc (but_for T i (fun t => releases t \/ writes_value key t)) c c' -> dict (cdb c') !! key = dict (cdb c) !! key.
Proof. exact (stable T d cs c c' i t key). Qed.
(** While a command that updates a value works on it (c0 to c2: from fetching or writing it, no lock released meanwhile), nobody else fetches or updates it. *)
Theorem C81_writer_first c0 c1 c2 t0 t2 u : no_setnx cs i -> no_setnx cs j -> i <> j -> rtc (cstep T) (clients d cs) c0 -> ths c0 !! i = Some t0 -> reads_value key t0 \/ writes_value key t0 ->
  rtc (but_for T i releases) c0 c1 -> rtc (but_for T i releases) c1 c2 -> ths c2 !! i = Some t2 -> writes_value key t0 \/ writes_value key t2 ->
  ths c1 !! j = Some u -> ~ reads_value key u /\ ~ writes_value key u.
Proof. exact (writer_first T d cs i j c0 c1 c2 t0 t2 u key). Qed.
(** Whoever fetches a value while another command works on it does not update it. *)
Theorem C81_writer_second c0 c1 c2 t0 t1 t2 : no_setnx cs i -> no_setnx cs j -> i <> j -> rtc (cstep T) (clients d cs) c0 -> ths c0 !! j = Some t0 -> reads_value key t0 \/ writes_value key t0 ->
  rtc (but_for T j releases) c0 c1 -> ths c1 !! i = Some t1 -> reads_value key t1 \/ writes_value key t1 -> rtc (but_for T i releases) c1 c2 -> ths c2 !! i = Some t2 ->
  ~ writes_value key t1 /\ ~ writes_value key t2.
Proof. exact (writer_second T d cs i j c0 c1 c2 t0 t1 t2 key). Qed.
End C81.
Print Assumptions C81_stable.
Print Assumptions C81_writer_first.
Print Assumptions C81_writer_second.

#[local] Existing Instance demo_setup.
Local Open Scope string_scope.
(** Client 0 has fetched the hash h to change it; client 1 comes to read it and has to wait; client 0 gets to its update without having released the lock.
    The other way round, two readers work on h at the same time, and client 0 waits. *)
Definition duel : list (list (list string)) := [[["hset"; "h"; "a"; "9"]]; [["hget"; "h"; "a"]]; [["hlen"; "h"]]].
Definition fetches (k : string) (t : option (thread (list rdata))) : bool := match t with Some (mkT (DGet key _) _) => bool_decide (key = B k) | _ => false end.
Definition updates (k : string) (t : option (thread (list rdata))) : bool := match t with Some (mkT (DMut key _ _) _) => bool_decide (key = B k) | _ => false end.
Definition asks (t : option (thread (list rdata))) : bool := match t with Some (mkT (Acq _ _ _) _) => true | _ => false end.
Example C81_example :
  (exists c0 c1 c2, rtc (cstep (eq 20)) (race demo duel) c0 /\ rtc (but_for (eq 20) 0%nat releases) c0 c1 /\ rtc (but_for (eq 20) 0%nat releases) c1 c2 /\
    fetches "h" (ths c0 !! 0%nat) = true /\ asks (ths c1 !! 1%nat) = true /\ updates "h" (ths c2 !! 0%nat) = true) /\
  (exists c0 c1, rtc (cstep (eq 20)) (race demo duel) c0 /\ rtc (but_for (eq 20) 1%nat releases) c0 c1 /\
    fetches "h" (ths c0 !! 1%nat) = true /\ fetches "h" (ths c1 !! 2%nat) = true /\ asks (ths c1 !! 0%nat) = true) /\
  no_setnx (map (map C) duel) 0 /\ no_setnx (map (map C) duel) 1 /\ no_setnx (map (map C) duel) 2.
Proof.
  split; [|split].
  - exists (play 20 [(0, 3)]%nat (race demo duel)), (but_play 20 0 [(1, 5)]%nat (play 20 [(0, 3)]%nat (race demo duel))), (but_play 20 0 [(0, 1)]%nat (but_play 20 0 [(1, 5)]%nat (play 20 [(0, 3)]%nat (race demo duel)))).
    split; [apply play_ok|]. split; [apply but_play_ok|]. split; [apply but_play_ok|]. (split; [|split]); vm_compute; reflexivity.
  - exists (play 20 [(1, 2)]%nat (race demo duel)), (but_play 20 1 [(2, 2); (0, 5)]%nat (play 20 [(1, 2)]%nat (race demo duel))).
    split; [apply play_ok|]. split; [apply but_play_ok|]. (split; [|split]); vm_compute; reflexivity.
  - repeat split; intros cmds cmd E Hc; vm_compute in E; injection E as <-; repeat (apply elem_of_cons in Hc as [->|Hc]); try (inversion Hc; fail); vm_compute; reflexivity.
Qed.
