(** Concurrent executions: C51, C52. *)
From Verif Require Import ConcProofs Sched.

(** * C51  No deadlock *)
Section C51.
Context {P : Setup}.
(** In every state that any clients can reach, if a client is unfinished then some unfinished client does not wait for a lock. *)
Theorem C51_no_deadlock T d cs c i t : rtc (cstep T) (clients d cs) c -> ths c !! i = Some t -> ~ returned t ->
  exists j t', ths c !! j = Some t' /\ ~ returned t' /\ ~ waits c t'.
Proof. exact (fun R => clients_no_deadlock T d cs c R i t). Qed.
(** A client waits only when the lock would indeed not be granted: when nothing can advance, every client has all its replies,
    or a command has died or is in an endless loop. *)
Theorem C51_finishes (T : Z -> Prop) d cs c now : T now -> rtc (cstep T) (clients d cs) c -> (forall c', ~ advance T c c') ->
  (forall i t, ths c !! i = Some t -> returned t) \/ (exists i t, ths c !! i = Some t /\ (tcode t = Crash \/ tcode t = Hang)).
Proof. exact (fun H R => clients_stuck T d cs c R now H). Qed.
(** No execution advances forever, whatever the schedule. *)
Theorem C51_finite T d cs (f : nat -> conf (list rdata)) : f 0%nat = clients d cs -> ~ (forall n, advance T (f n) (f (S n))).
Proof. exact (fun _ => finite_advance T f). Qed.
End C51.
Print Assumptions C51_no_deadlock.
Print Assumptions C51_finishes.
Print Assumptions C51_finite.

(** * C52  Exclusive access, in terms of executions *)
Section C52.
Context {P : Setup}.
(** Two clients are never about to change the same key, be it its value or its deadline. *)
Theorem C52_one_writer T d cs c i j t t' key : rtc (cstep T) (clients d cs) c -> i <> j -> ths c !! i = Some t -> ths c !! j = Some t' ->
  writes_value key t \/ writes_deadline key t -> ~ (writes_value key t' \/ writes_deadline key t').
Proof. exact (fun R => clients_one_writer T d cs c R i j t t' key). Qed.
(** Unless SETNX is used, no client is about to fetch a value that another is about to change. *)
Theorem C52_no_read_write T d cs c i j t t' key : rtc (cstep T) (clients d cs) c ->
  (forall cmds cmd, cmds ∈ cs -> cmd ∈ cmds -> cmd_is "setnx" cmd = false) ->
  i <> j -> ths c !! i = Some t -> ths c !! j = Some t' -> writes_value key t -> ~ reads_value key t'.
Proof. exact (fun R => clients_no_read_write T d cs c R i j t t' key). Qed.
(** No lock is released that is not held. *)
Theorem C52_no_fatal T d cs c i t : rtc (cstep T) (clients d cs) c -> ths c !! i = Some t -> ~ bad_unlock c t.
Proof. exact (fun R => clients_unlock T d cs c R i t). Qed.
(** When all the clients have their replies, all locks are free. *)
Theorem C52_released T d cs c p : rtc (cstep T) (clients d cs) c -> (forall i t, ths c !! i = Some t -> returned t) -> lk c p = free.
Proof. exact (fun R H => clients_free T d cs c R H p). Qed.
End C52.
Print Assumptions C52_one_writer.
Print Assumptions C52_no_read_write.
Print Assumptions C52_no_fatal.
Print Assumptions C52_released.

#[local] Existing Instance demo_setup.
Local Open Scope string_scope.
(** Three clients with commands on the same keys, in opposite orders: at some point one waits for another; all finish. *)
Definition crowd : list (list (list string)) :=
  [[["mset"; "s"; "1"; "f"; "2"]; ["get"; "s"]]; [["mset"; "f"; "3"; "s"; "4"]]; [["rename"; "s"; "f"]; ["sinterstore"; "s"; "t"; "u"]]].
(** Somebody waits in this state. *)
Definition someone_waits (c : conf (list rdata)) : bool :=
  existsb (fun t => match tcode t with
    | Acq p MR _ => wr (lk c p) || pend (lk c p)
    | Acq p MW _ => if ann t then negb (rd (lk c p) =? 0)%nat else wr (lk c p) || pend (lk c p)
    | _ => false end) (ths c).
Example C51_example :
  (exists c i t, rtc (cstep (eq 100)) (race demo crowd) c /\ ths c !! i = Some t /\ ~ returned t /\ waits c t) /\
  may_end 100 demo crowd [[ok; bulk "1"]; [ok]; [ok; RInt 1]] "s" (eset ["y"] None).
Proof.
  split.
  - assert (R := play_ok 100 [(0, 4); (1, 4); (2, 4)]%nat (race demo crowd)).
    set (c := play 100 _ _) in R.
    assert (H : someone_waits c = true) by (vm_compute; reflexivity). clearbody c.
    unfold someone_waits in H. apply existsb_exists in H as (t & Ht & Hw). apply elem_of_list_In, elem_of_list_lookup in Ht as [i Hi].
    exists c, i, t. split; [exact R|]. split; [exact Hi|]. unfold returned, waits.
    destruct (tcode t) as [ | | | | | | | | | | | | | | |q m k| ]; try discriminate. split; [intros [? ?]; discriminate|].
    destruct m; [|destruct (ann t)]; rewrite ?orb_true_iff, ?negb_true_iff, ?Nat.eqb_neq in Hw; auto.
  - apply (play_ends [(0, 4); (1, 4); (2, 100); (0, 100); (1, 100); (2, 100)]%nat). vm_compute. reflexivity.
Qed.
