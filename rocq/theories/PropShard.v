(** The segmented maps: what Conc.v takes as one step each (C79). *)
From Verif Require Import ShardProofs ShardSched.

(** * C79  Accesses to the segmented maps are atomic *)
Section C79.
Context {P : Setup} (T : Z -> Prop) (D : tables) (d : db) (cs : list (list command)) (s : sconf (list rdata)).
(** Any execution in which Set, Delete, Get and Keys take their locks and make their changes step by step looks, at each moment,
    like an execution in which each is one step. *)
Theorem C79_atomic : tables_of D d -> rtc (mstep T) (sstart D (map client cs)) s -> exists c, rtc (cstep T) (clients d cs) c /\ seen s c.
Proof. exact (shard_atomic T D d cs s). Qed.
(** When every client has its replies, they are those of such an execution, the maps have its contents, and all locks are free. *)
Theorem C79_end : tables_of D d -> rtc (mstep T) (sstart D (map client cs)) s -> (forall i t, sths s !! i = Some t -> sreturned t) ->
  exists c, rtc (cstep T) (clients d cs) c /\ tables_of (tabs s) (cdb c) /\ map tcode (ths c) = map scode (sths s) /\
    (forall p, klk s p = free) /\ (forall g, slk s g = free).
Proof. exact (shard_end T D d cs s). Qed.
(** Two goroutines use the Go map of a segment at the same time only if both read it (else Go ends the process: "concurrent map writes"). *)
Theorem C79_exclusive i j t u g : tables_of D d -> rtc (mstep T) (sstart D (map client cs)) s ->
  i <> j -> sths s !! i = Some t -> sths s !! j = Some u -> in_segment g t -> in_segment g u -> only_reads t /\ only_reads u.
Proof. exact (fun HD R => shard_exclusive T D d cs s HD R i j t u g). Qed.
(** No segment lock is released that is not held. *)
Theorem C79_no_fatal i t : tables_of D d -> rtc (mstep T) (sstart D (map client cs)) s -> sths s !! i = Some t -> ~ bad_exit s t.
Proof. exact (fun HD R => shard_no_bad T D d cs s HD R i t). Qed.
(** The locks of segments and keys together cause no deadlock: when nothing can advance, every client has all its replies, or a command has died or loops for ever. *)
Theorem C79_finishes now : tables_of D d -> rtc (mstep T) (sstart D (map client cs)) s -> T now -> (forall s', ~ sadvance T s s') ->
  (forall i t, sths s !! i = Some t -> sreturned t) \/ (exists i t, sths s !! i = Some t /\ (scode t = Crash \/ scode t = Hang)).
Proof. exact (fun HD R => shard_stuck T D d cs s HD R now). Qed.
(** No execution advances forever, whatever the schedule. *)
Theorem C79_finite (f : nat -> sconf (list rdata)) : f 0%nat = sstart D (map client cs) -> ~ (forall n, sadvance T (f n) (f (S n))).
Proof. exact (fun _ => sadvance_finite T f). Qed.
End C79.
Print Assumptions C79_atomic.
Print Assumptions C79_end.
Print Assumptions C79_exclusive.
Print Assumptions C79_no_fatal.
Print Assumptions C79_finishes.
Print Assumptions C79_finite.

#[local] Existing Instance demo_setup.
Local Open Scope string_scope.
(** The keys a and e are in the same segment and have different locks; b is in another segment. *)
Definition setters (l : list string) : list (list command) := map (fun k => [C ["set"; k; "1"]]) l.
(** The first client is in Set with the key missing; the second is to call Set on the same segment and cannot take a step. *)
Definition one_waits (s : sconf (list rdata)) : bool :=
  match sths s with
  | [mkS (DSet k v _) _ (Some (Adding _)); mkS (DSet k' _ _) _ None] =>
      bool_decide (k = B "a") && bool_decide (v = VStr (Some (B "1"))) && bool_decide (segpos k' = 0%N) && match mstep_f 100 1 s with None => true | Some _ => false end
  | _ => false
  end.
Definition sanswers (s : sconf (list rdata)) : list (option (list rdata)) := map (fun t => match scode t with Ret a => Some a | _ => None end) (sths s).
(** While one SET is inside Set, with the key not stored, another waits for the lock of the segment; each gets its reply.  The counter of keys of the
    map, which each segment changes under its own lock, misses one of two keys that are added at the same time. *)
Example C79_example :
  tables_of (tables_from empty_db) empty_db /\
  (exists s t u, rtc (mstep (eq 100)) (sstart (tables_from empty_db) (map client (setters ["a"; "e"]))) s /\ sths s !! 0%nat = Some t /\ sths s !! 1%nat = Some u /\
    is_adding (B "a") (VStr (Some (B "1"))) t /\ in_segment (Dict, 0%N) t /\ needs (scode u) = Some ((Dict, 0%N), MW) /\ sspot u = None /\ mstep_f 100 1 s = None) /\
  (exists s, rtc (mstep (eq 100)) (sstart (tables_from empty_db) (map client (setters ["a"; "b"]))) s /\ sanswers s = [Some [ok]; Some [ok]] /\
    dt (tabs s) 0%N !! B "a" = Some (VStr (Some (B "1"))) /\ dt (tabs s) 1%N !! B "b" = Some (VStr (Some (B "1"))) /\ ct (tabs s) = 1).
Proof.
  split; [apply tables_from_ok|split].
  - assert (R := splay_ok 100 [(1, 8); (0, 11)]%nat (sstart (tables_from empty_db) (map client (setters ["a"; "e"])))).
    set (s := splay 100 _ _) in R. assert (H : one_waits s = true) by (vm_compute; reflexivity). clearbody s. unfold one_waits in H.
    destruct (sths s) as [|[p b o] [|[q b' o'] [|]]] eqn:E; try discriminate; destruct p; try discriminate; destruct o as [[]|]; try discriminate; destruct q; try discriminate; destruct o'; try discriminate.
    rewrite !andb_true_iff, !bool_decide_eq_true in H. destruct H as [[[H1 H2] H3] H4]. subst. eexists s, _, _. split; [exact R|]. rewrite E. split; [reflexivity|]. split; [reflexivity|].
    split; [eexists _, _; split; reflexivity|]. split; [split; [discriminate|eexists; reflexivity]|]. split; [cbn; rewrite H3; reflexivity|]. split; [reflexivity|]. destruct (mstep_f 100 1 s); [discriminate|reflexivity].
  - assert (R := splay_ok 100 [(0, 12); (1, 12); (0, 100); (1, 100)]%nat (sstart (tables_from empty_db) (map client (setters ["a"; "b"])))).
    set (s := splay 100 _ _) in R.
    assert (H : (bool_decide (sanswers s = [Some [ok]; Some [ok]]) && bool_decide (dt (tabs s) 0%N !! B "a" = Some (VStr (Some (B "1")))) && bool_decide (dt (tabs s) 1%N !! B "b" = Some (VStr (Some (B "1")))) && (ct (tabs s) =? 1)%Z)%bool = true) by (vm_compute; reflexivity).
    clearbody s. rewrite !andb_true_iff, !bool_decide_eq_true, Z.eqb_eq in H. destruct H as [[[H1 H2] H3] H4]. exists s. auto 10.
Qed.
