(** A command that has its keys to itself while it is executed: C92. *)
From Verif Require Import AloneProofs StallSched DemoWire.

(** * C92  A command that has its keys to itself while it is executed acts as if it were alone *)
Section C92.
Context {P : Setup}.
(** At [x] the execution of [cmd] on database [j] begins, and at [y] it has returned [r], with no reply to its client in between.  [ks]: the keys of the command, and perhaps others.  If no other client
    sends a command that names one of them, then [r] is a reply of [cmd] executed alone on the database of [x], and the keys hold what that execution leaves under them. *)
Theorem C92_alone (T T' : Z -> Prop) ks sl ds n x y i j p q cmd c c' r b : rtc (happens T) (boot sl ds n) x -> rtc (happens T') x y ->
  peers x !! i = Some p -> performs x j i cmd -> wcores x !! j = Some c -> ths c !! i = Some (mkT (exec_in_db cmd) false) -> about ks cmd ->
  peers y !! i = Some q -> log (lnk q) = log (lnk p) -> (forall i' cmd' k, since x y i' cmd' -> i' <> i -> k ∈ ks -> ~ touched cmd' k) ->
  wcores y !! j = Some c' -> ths c' !! i = Some (mkT (Ret r) b) ->
  exists d', runs T' (cdb c) (exec_in_db cmd) (Done r d') /\ same_on ks d' (cdb c').
Proof. exact (alone_whole T T' ks sl ds n x y i j p q cmd c c' r b). Qed.
End C92.
Print Assumptions C92_alone.

#[local] Existing Instance demo_setup.
Local Open Scope string_scope.
(** Client 0 begins MSET of s and z; in the middle client 1 deletes f; then MSET returns. *)
Definition pair_join : list wact := ([Connect 0; Accept 0; Serve 0; Connect 1; Accept 1; Serve 1; Client 0 (Send (W "*5&$4&mset&$1&s&$1&1&$1&z&$1&2&"))] ++ replicate 11 (Go 0 Read) ++ [Go 0 Pass; Cmd (Beg 0)])%list.
Definition pair_acts : list wact := (Cmd (Run 0 4) :: Client 1 (Send (W "*2&$3&del&$1&f&")) :: replicate 5 (Go 1 Read) ++ [Go 1 Pass; Cmd (Beg 1); Cmd (Run 1 100); Cmd (Rep 1); Cmd (Run 0 100)])%list.
Definition mset_cmd : command := C ["mset"; "s"; "1"; "z"; "2"].
Example C92_example : exists x y p q c c', rtc (happens (eq 100)) (boot 0 [demo] 2) x /\ rtc (happens (eq 100)) x y /\ peers x !! 0%nat = Some p /\ performs x 0 0 mset_cmd /\
  wcores x !! 0%nat = Some c /\ ths c !! 0%nat = Some (mkT (exec_in_db mset_cmd) false) /\ about [B "s"; B "z"] mset_cmd /\ peers y !! 0%nat = Some q /\ log (lnk q) = log (lnk p) /\
  (forall i cmd k, since x y i cmd -> i <> 0%nat -> k ∈ [B "s"; B "z"] -> ~ touched cmd k) /\
  wcores y !! 0%nat = Some c' /\ ths c' !! 0%nat = Some (mkT (Ret (RStr (B "OK"))) false) /\ dict (cdb c') !! B "z" = Some (VStr (Some (B "2"))) /\ dict (cdb c') !! B "f" = None.
Proof.
  run_world 100 pair_join (boot 0 [demo] 2) (fun x => (map (fun c => ths c !! 0%nat) (wcores x), map (fun p => (hnd (lnk p), runs_on p, log (lnk p))) (peers x),
    (fun y => (map (fun c => (ths c !! 0%nat, dict (cdb c) !! B "z", dict (cdb c) !! B "f")) (wcores y), map (fun p => (log (lnk p), handed (lnk p))) (peers y))) <$> wplay 100 pair_acts x)).
  match goal with H : exists y, _ |- _ => destruct H as (x & R & E) end. cbv beta in E. apply pair_equal_spec in E as [E E3]. apply pair_equal_spec in E as [E1 E2].
  apply wplays in E3 as (y & R' & E). cbv beta in E. apply pair_equal_spec in E as [E4 E5].
  destruct (wcores x) as [|c []] eqn:Ec; try discriminate E1. cbn [map] in E1. apply (f_equal (fun l => l !! 0%nat)) in E1. cbn [lookup list_lookup] in E1. apply Some_inj in E1.
  destruct (peers x) as [|p0 [|p1 []]] eqn:Ep; try discriminate E2. cbn [map] in E2. injection E2 as H0 X0 L0 H1 X1 L1.
  destruct (wcores y) as [|c' []] eqn:Ec'; try discriminate E4. cbn [map] in E4. injection E4 as E4 E4z E4f.
  destruct (peers y) as [|q0 [|q1 []]] eqn:Eq; try discriminate E5. cbn [map] in E5. injection E5 as M0 D0 M1 D1.
  exists x, y, p0, q0, c, c'. split; [exact R|]. split; [exact R'|]. rewrite Ec, Ep, Eq, Ec'. split; [reflexivity|]. split; [exists p0; rewrite Ep; auto|]. split; [reflexivity|]. split; [exact E1|].
  split; [|split; [reflexivity|split; [congruence|split; [|split; [reflexivity|split; [exact E4|split; [exact E4z|exact E4f]]]]]]].
  - split; [exists (B "s"); left; apply elem_of_list_In; vm_compute; auto|]. intros k [Ht|Ht]; [exact Ht|vm_compute in Ht; discriminate Ht].
  - intros i cmd k (p & q & Hp & Hq & Hc) Hi Hk Ht. rewrite Ep in Hp. rewrite Eq in Hq. destruct i as [|[|i]]; cbn in Hp, Hq; [congruence| |discriminate Hp]. injection Hp as <-. injection Hq as <-.
    rewrite L1, D1 in Hc. cbn in Hc. apply elem_of_list_singleton in Hc as ->. assert (k = B "f") as ->.
    { destruct Ht as [Ht|Ht]; [|vm_compute in Ht; discriminate Ht]; apply elem_of_list_In in Ht; vm_compute in Ht; destruct Ht as [Ht|[]]; symmetry; exact Ht. }
    apply elem_of_list_In in Hk. vm_compute in Hk. destruct Hk as [Hk|[Hk|[]]]; discriminate Hk.
Qed.
