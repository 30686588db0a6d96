(** Data races (C82). *)
From Verif Require Import RaceProofs RaceSched.

(** * C82  Accesses that conflict are ordered by the locks *)
Section C82.
Context {P : Setup} (T : Z -> Prop) (d : db) (cs : list (list command)) (i j : nat) (n m N : nat).
(** Values: if goroutine i works on a value at time n, goroutine j at a later time m, and one of the two updates it, then in between i gives back the lock of the key and j takes it afterwards,
    one of the two having it exclusively. *)
Theorem C82_values f key : f 0%nat = clients d cs -> execution T f N -> no_setnx cs i -> no_setnx cs j -> i <> j -> (n <= m <= N)%nat ->
  works_on f i key n -> works_on f j key m -> updates_at f i key n \/ updates_at f j key m ->
  exists p q mi mj, (n <= p < q)%nat /\ (q < m)%nat /\ gives i (lockpos key) mi (f p) (f (S p)) /\ takes j (lockpos key) mj (f q) (f (S q)) /\ (mi = MW \/ mj = MW).
Proof. exact (fun F0 FX => races_values T d cs f N F0 FX i j key n m). Qed.
(** Go maps: the same for a segment of one of the maps and the lock of the segment. *)
Theorem C82_tables D f g t u : tables_of D d -> f 0%nat = sstart D (map client cs) -> sexecution T f N -> i <> j -> (n <= m <= N)%nat ->
  sths (f n) !! i = Some t -> in_segment g t -> sths (f m) !! j = Some u -> in_segment g u -> ~ (only_reads t /\ only_reads u) ->
  exists p q mi mj, (n <= p < q)%nat /\ (q < m)%nat /\ leaves i g mi (f p) (f (S p)) /\ enters j g mj (f q) (f (S q)) /\ (mi = MW \/ mj = MW).
Proof. exact (fun HD F0 FX => races_tables T D d cs f N HD F0 FX i j g n m t u). Qed.
End C82.
Print Assumptions C82_values.
Print Assumptions C82_tables.

#[local] Existing Instance demo_setup.
Local Open Scope string_scope.
(** Values: HSET, then HGET; client 0 updates the hash at time 4, client 1 fetches it at time 8. *)
Definition duel : list (list (list string)) := [[["hset"; "h"; "a"; "9"]]; [["hget"; "h"; "a"]]].
Example C82_values_example : exists f, f 0%nat = race demo duel /\ execution (eq 20) f 10 /\ no_setnx (map (map C) duel) 0 /\ no_setnx (map (map C) duel) 1 /\
  works_on f 0 (B "h") 4 /\ updates_at f 0 (B "h") 4 /\ works_on f 1 (B "h") 8.
Proof.
  set (sc := (repeat 0%nat 6 ++ repeat 1%nat 4)%list). exists (at_time 20 sc (race demo duel)). split; [reflexivity|].
  split; [apply (at_time_ok 20 sc); vm_compute; reflexivity|].
  assert (H : forall i, no_setnx (map (map C) duel) i).
  { intros [|[|i]] cmds cmd E Hc; try discriminate E; vm_compute in E; injection E as <-; repeat (apply elem_of_cons in Hc as [->|Hc]); try (inversion Hc; fail); vm_compute; reflexivity. }
  split; [apply H|]. split; [apply H|].
  destruct (mutates_ok (B "h") (ths (at_time 20 sc (race demo duel) 4) !! 0%nat)) as (t & Ht & Hw); [vm_compute; reflexivity|].
  destruct (fetches_ok (B "h") (ths (at_time 20 sc (race demo duel) 8) !! 1%nat)) as (u & Hu & Hr); [vm_compute; reflexivity|].
  split; [exists 4%nat, t; split; [lia|]; split; [exact Ht|]; split; [auto|intros; lia]|]. split; [exists t; auto|].
  exists 8%nat, u. split; [lia|]. split; [exact Hu|]. split; [auto|intros; lia].
Qed.
(** Go maps: the keys a and e are in the same segment; client 0 is in Set at time 12, client 1 at time 32. *)
Definition setters (l : list string) : list (list command) := map (fun k => [C ["set"; k; "1"]]) l.
Example C82_tables_example : exists f t u, tables_of (tables_from empty_db) empty_db /\ f 0%nat = sstart (tables_from empty_db) (map client (setters ["a"; "e"])) /\ sexecution (eq 100) f 40 /\
  sths (f 12%nat) !! 0%nat = Some t /\ in_segment (Dict, 0%N) t /\ sths (f 32%nat) !! 1%nat = Some u /\ in_segment (Dict, 0%N) u /\ ~ (only_reads t /\ only_reads u).
Proof.
  set (sc := (repeat 0%nat 20 ++ repeat 1%nat 20)%list). set (f := sat_time 100 sc (sstart (tables_from empty_db) (map client (setters ["a"; "e"])))).
  destruct (inside_ok (Dict, 0%N) (sths (f 12%nat) !! 0%nat)) as (t & Ht & Hi & Hr); [vm_compute; reflexivity|].
  destruct (inside_ok (Dict, 0%N) (sths (f 32%nat) !! 1%nat)) as (u & Hu & Hj & Hr'); [vm_compute; reflexivity|].
  exists f, t, u. split; [apply tables_from_ok|]. split; [reflexivity|]. split; [apply (sat_time_ok 100 sc); vm_compute; reflexivity|]. tauto.
Qed.
(** The counter of keys is not ordered by any lock: two SETs that add keys of different segments can both be about to write it. *)
Definition writes_counter {A} (t : sthread A) : Prop := exists c p, sspot t = Some (Adding (CntStore c p)).
Theorem C82_counter_refuted : exists s t u, rtc (mstep (eq 100)) (sstart (tables_from empty_db) (map client (setters ["a"; "b"]))) s /\
  sths s !! 0%nat = Some t /\ sths s !! 1%nat = Some u /\ writes_counter t /\ writes_counter u.
Proof.
  assert (R := splay_ok 100 [(0, 12); (1, 12)]%nat (sstart (tables_from empty_db) (map client (setters ["a"; "b"])))).
  set (s := splay 100 _ _) in R. assert (H : counts_b (sths s !! 0%nat) && counts_b (sths s !! 1%nat) = true) by (vm_compute; reflexivity).
  clearbody s. apply andb_true_iff in H as [H1 H2]. apply counts_ok in H1 as (t & Ht & H1). apply counts_ok in H2 as (u & Hu & H2). exists s, t, u. auto.
Qed.
