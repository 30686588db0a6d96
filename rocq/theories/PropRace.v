(** Races: what holds, and what fails: C55-C57. *)
From Verif Require Import RaceMain Sched PropGlob.

(** * C55  Concurrent SETNX *)
Section C55.
Context {P : Setup}.
(** Clients whose commands are SETNX on the missing key [k], or do not touch it: each SETNX answers 0 or 1;
    if there is one, some SETNX answers 1, and in the end the key holds the value of one that answered 1. *)
Theorem C55_some_winner (T : Z -> Prop) k d cs c rss : each (fun cmd => leaves_alone k cmd \/ exists v, setnx_on k cmd v) cs ->
  exps d !! k = None -> dict d !! k = None -> rtc (cstep T) (clients d cs) c -> map tcode (ths c) = map Ret rss ->
  (forall i j cmds cmd v, cs !! i = Some cmds -> cmds !! j = Some cmd -> setnx_on k cmd v ->
     exists rs, rss !! i = Some rs /\ (rs !! j = Some (RInt 0) \/ rs !! j = Some (RInt 1))) /\
  ((exists cmds cmd v, cmds ∈ cs /\ cmd ∈ cmds /\ setnx_on k cmd v) ->
     exists i j cmds cmd v rs, cs !! i = Some cmds /\ cmds !! j = Some cmd /\ setnx_on k cmd v /\
       rss !! i = Some rs /\ rs !! j = Some (RInt 1) /\ dict (cdb c) !! k = Some (VStr v)).
Proof. exact (setnx_wins T k d cs c rss). Qed.
(** If the key is there and has no deadline, every SETNX answers 0. *)
Theorem C55_present_loses (T : Z -> Prop) k d cs c rss i j cmds cmd v : each (fun cmd => leaves_alone k cmd \/ exists v, setnx_on k cmd v) cs ->
  exps d !! k = None -> is_Some (dict d !! k) -> rtc (cstep T) (clients d cs) c -> map tcode (ths c) = map Ret rss ->
  cs !! i = Some cmds -> cmds !! j = Some cmd -> setnx_on k cmd v -> exists rs, rss !! i = Some rs /\ rs !! j = Some (RInt 0).
Proof. exact (setnx_loses T k d cs c rss i j cmds cmd v). Qed.
End C55.
Print Assumptions C55_some_winner.
Print Assumptions C55_present_loses.

(** * C56  Lazy deletion *)
Section C56.
Context {P : Setup}.
(** A key is there and no deadline of it passes before [lim], which is not before any time the clock shows.
    As long as every command leaves the key alone, or removes nothing and sets no deadline before [lim], it stays so. *)
Theorem C56_kept (T : Z -> Prop) lim k d cs c : (forall t, T t -> t <= lim) ->
  each (fun cmd => leaves_alone k cmd \/ removes cmd = false /\ far_deadlines T lim cmd) cs ->
  is_Some (dict d !! k) -> (forall t, exps d !! k = Some t -> lim <= t) ->
  rtc (cstep T) (clients d cs) c -> is_Some (dict (cdb c) !! k) /\ forall t, exps (cdb c) !! k = Some t -> lim <= t.
Proof. intros HT HE H1 H2. exact (clients_keep T k lim HT d cs c HE (conj H1 H2)). Qed.
End C56.
Print Assumptions C56_kept.

(** * C57  KEYS *)
Section C57.
Context {P : Setup}.
(** In an execution in which no step adds a key, a client that sends KEYS does not die, whatever the other clients do.
    (The counter is right at the start; patterns that make the matcher crash, see C22_crash, are left out.) *)
Theorem C57_no_new_keys (T : Z -> Prop) d cs c i cmds t : Z.of_nat (size (dict d)) <= cnt d -> cnt d * 16 <= 2 ^ 48 ->
  rtc (fun c1 c2 : conf (list rdata) => cstep T c1 c2 /\ dom (dict (cdb c2)) ⊆@{gset bytes} dom (dict (cdb c1))) (clients d cs) c ->
  cs !! i = Some cmds -> (forall cmd, cmd ∈ cmds -> exists n p, cmd = [n; p] /\ named n "keys" /\ forall k, glob (str p) k <> GPanic) ->
  ths c !! i = Some t -> tcode t <> Crash.
Proof. exact (keys_safe T d cs c i cmds t). Qed.
End C57.
Print Assumptions C57_no_new_keys.

#[local] Existing Instance demo_setup.
Local Open Scope string_scope.
(** ** C55: both clients are told that they created the key. *)
Theorem C55_two_winners_refuted :
  may_end 100 demo [[["setnx"; "new"; "a"]]; [["setnx"; "new"; "b"]]] [[RInt 1]; [RInt 1]] "new" (estr "a" None).
Proof. apply (play_ends [(0, 2); (1, 100); (0, 100)]%nat). vm_compute. reflexivity. Qed.
Definition setnxs : list (list (list string)) := [[["setnx"; "new"; "a"]; ["get"; "s"]]; [["incr"; "n"]; ["SetNX"; "new"; "b"]]].
Lemma setnxs_ok : each (fun cmd => leaves_alone (B "new") cmd \/ exists v, setnx_on (B "new") cmd v) (map (map C) setnxs).
Proof.
  apply each_Forall. repeat (apply List.Forall_cons || apply List.Forall_nil).
  1,4: (right; eexists; eexists _, _; split; [reflexivity|]; split; vm_compute; reflexivity).
  all: left; split; [|vm_compute; reflexivity]; intros H; vm_compute in H; apply elem_of_list_singleton in H; discriminate.
Qed.
Example C55_example :
  each (fun cmd => leaves_alone (B "new") cmd \/ exists v, setnx_on (B "new") cmd v) (map (map C) setnxs) /\ exps demo !! B "new" = None /\ dict demo !! B "new" = None /\
  may_end 100 demo setnxs [[RInt 0; bulk "hello"]; [RInt 42; RInt 1]] "new" (estr "b" None).
Proof.
  split; [apply setnxs_ok|]. split; [vm_compute; reflexivity|]. split; [vm_compute; reflexivity|].
  apply (play_ends [(1, 100); (0, 100)]%nat). vm_compute. reflexivity.
Qed.
(** ** C56: a value set without deadline is removed by the lazy deletion of the value before it. *)
Theorem C56_fresh_value_deleted_refuted :
  may_end 100 demo [[["get"; "old"]]; [["set"; "old"; "new"]]] [[RBulk None]; [ok]] "old" None.
Proof. apply (play_ends [(0, 2); (1, 100); (0, 100)]%nat). vm_compute. reflexivity. Qed.
Definition users : list (list (list string)) := [[["append"; "n"; "0"]; ["del"; "s"; "h"]]; [["keys"; "*"]; ["expire"; "n"; "500"]; ["get"; "n"]]].
Example C56_example :
  each (fun cmd => leaves_alone (B "n") cmd \/ removes cmd = false /\ far_deadlines (eq 100) 150 cmd) (map (map C) users) /\
  is_Some (dict demo !! B "n") /\ (forall t, exps demo !! B "n" = Some t -> 150 <= t) /\
  may_end 100 demo users [[RInt 3; RInt 2]; [RArr (Some [bulk "u"; bulk "f"; bulk "n"; bulk "s"; bulk "h"; bulk "t"; bulk "l"]); RInt 1; bulk "410"]] "n" (estr "410" (Some 600)).
Proof.
  split; [|split; [|split]].
  - apply each_Forall. repeat (apply List.Forall_cons || apply List.Forall_nil).
    1,3,5: (right; split; [vm_compute; reflexivity|]; match goal with |- far_deadlines _ _ ?c => exact (no_deadline_ok (eq 100) 150 [[c]] ltac:(vm_compute; reflexivity) [c] c ltac:(left) ltac:(left)) end).
    + left. split; [|vm_compute; reflexivity]. intros H. vm_compute in H. repeat (apply elem_of_cons in H as [H|H]; [discriminate|]). apply elem_of_nil in H. exact H.
    + right. split; [vm_compute; reflexivity|]. split; [|intros H; vm_compute in H; discriminate].
      intros _ v E m t Em Et. assert (Ev : v = Some (B "500")) by (clear -E; vm_compute in E |- *; congruence). rewrite Ev in Em. vm_compute in Em.
      assert (m = 500) by (clear -Em; congruence). subst m t. vm_compute. discriminate.
  - apply (bool_decide_eq_true (is_Some (dict demo !! B "n"))). vm_compute. reflexivity.
  - intros t E. vm_compute in E. assert (t = 200) by congruence. subst t. discriminate.
  - apply (play_ends [(1, 3); (0, 4); (1, 100); (0, 100); (1, 100)]%nat). vm_compute. reflexivity.
Qed.
(** ** C57: KEYS dies while another client adds a key. *)
Theorem C57_keys_refuted : may_die 100 demo [[["keys"; "*"]]; [["set"; "new"; "v"]]].
Proof. apply (play_dies [(0, 1); (1, 100); (0, 100)]%nat). vm_compute. reflexivity. Qed.
(** KEYS dies even when nobody else is active, if at some time two clients have added keys concurrently: the key counter has missed one. *)
Theorem C57_counter_refuted : exists c, rtc (cstep (eq 100)) (race demo [[["set"; "na"; "v"]]; [["set"; "nb"; "v"]]]) c /\
  map tcode (ths c) = [Ret [ok]; Ret [ok]] /\ dies 100 (cdb c) ["keys"; "*"].
Proof.
  exists (play 100 [(0, 6); (1, 100); (0, 100)]%nat (race demo [[["set"; "na"; "v"]]; [["set"; "nb"; "v"]]])).
  split; [apply play_ok|]. split; [vm_compute; reflexivity|]. apply run_dies. vm_compute. reflexivity.
Qed.
(** An execution in which KEYS runs while keys are deleted; it lists the key "", which does not exist, twice. *)
Definition fewer_b (c c' : conf (list rdata)) : bool := forallb (fun k => bool_decide (is_Some (dict (cdb c) !! k))) (map_to_list (dict (cdb c'))).*1.
Fixpoint go_fewer (now : Z) (i n : nat) (c : conf (list rdata)) : bool :=
  match n with O => true | S n => match cstep_f now i c with Some c' => fewer_b c c' && go_fewer now i n c' | None => true end end.
Fixpoint play_fewer (now : Z) (sched : list (nat * nat)) (c : conf (list rdata)) : bool :=
  match sched with [] => true | (i, n) :: s => go_fewer now i n c && play_fewer now s (go now i n c) end.
Definition fewer (now : Z) (c1 c2 : conf (list rdata)) : Prop := cstep (eq now) c1 c2 /\ dom (dict (cdb c2)) ⊆@{gset bytes} dom (dict (cdb c1)).
Lemma go_fewer_ok now i n c : go_fewer now i n c = true -> rtc (fewer now) c (go now i n c).
Proof.
  revert c. induction n as [|n IH]; intros c H; cbn in *; [apply rtc_refl|]. destruct (cstep_f now i c) as [c'|] eqn:E; [|apply rtc_refl].
  apply andb_true_iff in H as [H1 H2]. eapply rtc_l; [|apply IH; exact H2]. split; [eapply cstep_f_ok; exact E|].
  intros k [v Hk]%elem_of_dom. unfold fewer_b in H1. rewrite forallb_forall in H1. apply elem_of_dom. eapply bool_decide_eq_true, H1.
  apply elem_of_list_In, elem_of_list_fmap. exists (k, v). split; [reflexivity|]. apply elem_of_map_to_list. exact Hk.
Qed.
Lemma play_fewer_ok now sched c : play_fewer now sched c = true -> rtc (fewer now) c (play now sched c).
Proof.
  revert c. induction sched as [|[i n] s IH]; intros c H; cbn in *; [apply rtc_refl|]. apply andb_true_iff in H as [H1 H2].
  etransitivity; [apply go_fewer_ok; exact H1|apply IH; exact H2].
Qed.
Example C57_example : exists c, rtc (fewer 100) (race demo [[["keys"; "*"]]; [["del"; "s"; "h"]; ["incr"; "f"]]]) c /\
  map tcode (ths c) = [Ret [RArr (Some [bulk "u"; bulk "f"; bulk "n"; bulk "t"; bulk "l"; bulk ""; bulk ""])]; Ret [RInt 2; RInt 8]] /\
  Z.of_nat (size (dict demo)) <= cnt demo /\ cnt demo * 16 <= 2 ^ 48 /\ forall k, glob (B "*") k <> GPanic.
Proof.
  exists (play 100 [(0, 2); (1, 100); (0, 100)]%nat (race demo [[["keys"; "*"]]; [["del"; "s"; "h"]; ["incr"; "f"]]])).
  split; [apply play_fewer_ok; vm_compute; reflexivity|]. split; [vm_compute; reflexivity|].
  split; [vm_compute; discriminate|]. split; [vm_compute; discriminate|].
  intros k H. apply C22_crash in H as (u & v & H). destruct u as [|? [|]]; discriminate.
Qed.
