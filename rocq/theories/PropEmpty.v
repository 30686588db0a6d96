(** Which commands leave an empty hash, list or set behind: C47 (see also PropSet.v). *)
From Verif Require Import FullMain Sched Demo.

(** * C47  No empty containers remain *)
Section C47.
Context {P : Setup}.
(** Every history without the commands of [may_empty]. *)
Theorem C47_histories d : tidy_reachable d -> no_hollow d.
Proof. exact (tidy_full d). Qed.
(** One command outside [may_empty] puts no empty container where there was none; and in such a state
    LTRIM, HRANDFIELD and SRANDMEMBER do not panic (the two latter with counts up to 2^43). *)
Theorem C47_kept (T : Z -> Prop) d cmd out : runs T d (exec_in_db cmd) out -> no_hollow d -> ~ may_empty cmd ->
  (forall r d', out = Done r d' -> no_hollow d') /\ (panic_free cmd \/ calm_when_full cmd -> forall d', out <> Crashes d').
Proof. exact (step_full T d cmd out). Qed.
(** Concurrent clients that use no command of [may_empty]: an empty container exists only while its key is locked exclusively, *)
Theorem C47_concurrent (T : Z -> Prop) d cs c key v : rtc (cstep T) (clients d cs) c -> no_hollow d -> (forall i cmds cmd, cs !! i = Some cmds -> cmd ∈ cmds -> ~ may_empty cmd) ->
  dict (cdb c) !! key = Some v -> hollow v = true -> wr (lk c (lockpos key)) = true.
Proof. exact (clients_hollow T d cs c key v). Qed.
(** there is none once all have returned, *)
Theorem C47_quiescent (T : Z -> Prop) d cs c : rtc (cstep T) (clients d cs) c -> no_hollow d -> (forall i cmds cmd, cs !! i = Some cmds -> cmd ∈ cmds -> ~ may_empty cmd) ->
  (forall i t, ths c !! i = Some t -> exists rs, tcode t = Ret rs) -> no_hollow (cdb c).
Proof. exact (clients_hollow_done T d cs c). Qed.
(** and a client whose commands are [panic_free] or [calm_when_full] never panics. *)
Theorem C47_no_panic (T : Z -> Prop) d cs c i cmds t : rtc (cstep T) (clients d cs) c -> no_hollow d -> (forall i cmds cmd, cs !! i = Some cmds -> cmd ∈ cmds -> ~ may_empty cmd) ->
  cs !! i = Some cmds -> (forall cmd, cmd ∈ cmds -> panic_free cmd \/ calm_when_full cmd) -> ths c !! i = Some t -> tcode t <> Crash.
Proof. exact (clients_full_no_panic T d cs c i cmds t). Qed.
End C47.
Print Assumptions C47_histories.
Print Assumptions C47_kept.
Print Assumptions C47_concurrent.
Print Assumptions C47_quiescent.
Print Assumptions C47_no_panic.

#[local] Existing Instance demo_setup.
Local Open Scope string_scope.
(** Every name in [may_empty] belongs there: the command leaves an empty container on some arguments; the last two with an increment that is no number. *)
Theorem C47_leaves_refuted s : In s ["srem"; "sinterstore"; "sdiffstore"; "sunionstore"; "lmove"; "hincrby"; "hincrbyfloat"] ->
  exists args r key v d', may_empty (C (s :: args)) /\ step 100 demo (C (s :: args)) (Done r d') /\ dict d' !! B key = Some v /\ hollow v = true.
Proof.
  assert (HH : forall s args key, may_empty (C (s :: args)) ->
    match run 100 demo (exec_in_db (C (s :: args))) with Done _ d' => match dict d' !! B key with Some v => hollow v | None => false end | _ => false end = true ->
    exists args r key v d', may_empty (C (s :: args)) /\ step 100 demo (C (s :: args)) (Done r d') /\ dict d' !! B key = Some v /\ hollow v = true).
  { intros s' args key Hm H. pose proof (run_runs 100 demo (exec_in_db (C (s' :: args)))) as R. destruct (run 100 demo (exec_in_db (C (s' :: args)))) as [r d'| |]; try discriminate.
    destruct (dict d' !! B key) as [v|] eqn:E; [|discriminate]. exists args, r, key, v, d'. auto. }
  intros H. cbn [In] in H. repeat destruct H as [<-|H]; [..|destruct H].
  - apply (HH _ ["u"; "y"; "w"] "u"); [left; exists "srem"; split; [cbn; tauto|reflexivity]|vm_compute; reflexivity].
  - apply (HH _ ["new"; "missing"; "t"] "new"); [left; exists "sinterstore"; split; [cbn; tauto|reflexivity]|vm_compute; reflexivity].
  - apply (HH _ ["new"; "t"; "t"] "new"); [left; exists "sdiffstore"; split; [cbn; tauto|reflexivity]|vm_compute; reflexivity].
  - apply (HH _ ["new"; "missing"] "new"); [left; exists "sunionstore"; split; [cbn; tauto|reflexivity]|vm_compute; reflexivity].
  - apply (HH _ ["s"; "new"; "left"; "left"] "new"); [left; exists "lmove"; split; [cbn; tauto|reflexivity]|vm_compute; reflexivity].
  - apply (HH _ ["new"; "f"; "x"] "new"); [right; left; split; [reflexivity|]; eexists; split; [reflexivity|vm_compute; reflexivity]|vm_compute; reflexivity].
  - apply (HH _ ["new"; "f"; "x"] "new"); [right; right; split; [reflexivity|]; eexists; split; [reflexivity|vm_compute; reflexivity]|vm_compute; reflexivity].
Qed.
Print Assumptions C47_leaves_refuted.
(** Two clients empty and refill the same keys, and take random elements; meanwhile a list is empty, under its lock. *)
Definition tidy1 : list (list string) := [["rpush"; "new"; "x"]; ["lpop"; "new"]; ["hincrby"; "n2"; "f"; "5"]; ["hdel"; "n2"; "f"]].
Definition tidy2 : list (list string) := [["ltrim"; "l"; "-1"; "0"]; ["spop"; "u"; "2"]; ["srandmember"; "u"]; ["hrandfield"; "h"]; ["smove"; "t"; "t"; "x"]].
Example C47_example :
  no_hollow demo /\ (forall i cmds cmd, [map C tidy1; map C tidy2] !! i = Some cmds -> cmd ∈ cmds -> ~ may_empty cmd) /\ (forall cmd, cmd ∈ map C tidy2 -> panic_free cmd \/ calm_when_full cmd) /\
  (exists c, rtc (cstep (eq 100)) (race demo [tidy1; tidy2]) c /\ dict (cdb c) !! B "new" = Some (VList []) /\ wr (lk c (lockpos (B "new"))) = true) /\
  (exists c, rtc (cstep (eq 100)) (race demo [tidy1; tidy2]) c /\ tcode <$> (ths c !! 0%nat) = Some (Ret [RInt 1; bulk "x"; RInt 5; RInt 1]) /\
     dict (cdb c) !! B "new" = None /\ dict (cdb c) !! B "n2" = None /\ dict (cdb c) !! B "u" = None).
Proof.
  assert (Hm : forall cmd, In cmd (tidy1 ++ tidy2)%list -> ~ may_empty (C cmd)).
  { intros cmd H. unfold tidy1, tidy2 in H. cbn [In app] in H. repeat destruct H as [<-|H]; [..|destruct H]; (intros [(s & Hs & Hn)|[[Hn (a & Ha & Hb)]|[Hn (a & Ha & Hb)]]]; [cbn [In] in Hs; repeat destruct Hs as [<-|Hs]; [vm_compute in Hn; discriminate Hn..|destruct Hs]|try (vm_compute in Hn; discriminate Hn)..]).
    vm_compute in Ha. injection Ha as <-. vm_compute in Hb. discriminate. }
  assert (Hp : forall (l : list string), (forallb (fun s => negb (bool_decide (to_lower (str (head (C l) ≫= id)) = B s))) panicking && negb (Nat.eqb (length l) 0)) = true -> panic_free (C l)).
  { intros [|n l] H; [discriminate|]. apply andb_true_iff in H as [H _]. left. intros s Hs Hn. rewrite forallb_forall in H. specialize (H s Hs). apply negb_true_iff, bool_decide_eq_false in H. apply H. exact Hn. }
  split; [|split; [|split; [|split]]].
  - intros key v Hv. apply elem_of_map_to_list in Hv. remember (map_to_list (dict demo)) as l eqn:El. vm_compute in El. subst l. repeat (apply elem_of_cons in Hv as [Hv|Hv]; [injection Hv as -> ->; vm_compute; reflexivity|]). inversion Hv.
  - intros i cmds cmd Hi Hc. apply elem_of_list_In in Hc. assert (Hor : cmds = map C tidy1 \/ cmds = map C tidy2) by (destruct i as [|[|i]]; [left|right|discriminate]; injection Hi as <-; reflexivity).
    destruct Hor as [-> | ->]; apply in_map_iff in Hc as (x & <- & Hx); apply Hm; apply in_or_app; auto.
  - intros cmd H. apply elem_of_list_In, in_map_iff in H as (x & <- & Hx). unfold tidy2 in Hx. cbn [In] in Hx. repeat destruct Hx as [<-|Hx]; [..|destruct Hx].
    + right. left. vm_compute. reflexivity.
    + left. apply Hp. vm_compute. reflexivity.
    + right. right. split; [right; vm_compute; reflexivity|]. intros a n Ha. vm_compute in Ha. discriminate.
    + right. right. split; [left; vm_compute; reflexivity|]. intros a n Ha. vm_compute in Ha. discriminate.
    + left. apply Hp. vm_compute. reflexivity.
  - eexists. split; [apply (play_ok 100 [(0, 7)]%nat)|]. split; vm_compute; reflexivity.
  - eexists. split; [apply (play_ok 100 [(0, 9); (1, 300); (0, 300); (1, 300)]%nat)|]. repeat split; vm_compute; reflexivity.
Qed.
