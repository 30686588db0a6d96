(** Handle has an outcome for all values it may receive. *)
From Verif Require Export ServerProofs.

Section WithParams.
Context {P : Setup}.
Lemma mexec_some m cmd : wf_mgr m -> exists out, mexec (fun _ => True) m cmd out.
Proof.
  intros Hw. destruct (mexec_total m cmd 0 Hw) as [out H]. exists out. assert (G : forall d (p : prog rdata) o, runs (eq 0) d p o -> runs (fun _ : Z => True) d p o) by (intros d p o R; eapply runs_mono; [|exact R]; auto).
  destruct H; econstructor; eauto.
Qed.
Theorem handle_total evs : forall m, wf_mgr m -> exists outs e m', handle m evs outs e m'.
Proof.
  induction evs as [|[d|e] evs IH]; intros m Hw; [eexists _, _, _; apply h_wait| |eexists _, _, _; apply h_err].
  assert (Hd : (exists l, d = RArr l) \/ forall l, d <> RArr l) by (destruct d; eauto; right; discriminate).
  destruct Hd as [[l ->]|Hd]; [|destruct (IH m Hw) as (outs & e & m' & H); eexists _, _, _; eapply h_skip; eauto].
  destruct (to_command (match l with Some l => l | None => [] end)) as [cmd|] eqn:E; [|eexists _, _, _; eapply h_badcmd; eauto].
  destruct (mexec_some m cmd Hw) as [out H]. pose proof (mexec_wf _ _ _ _ Hw H) as Hw1. destruct out as [r m1|m1|m1]; cbn in Hw1; [|eexists _, _, _; eapply h_crash; eauto|eexists _, _, _; eapply h_hang; eauto].
  destruct (reply_bytes r) as [f|] eqn:Ef; [|eexists _, _, _; eapply h_badreply; eauto]. destruct (IH m1 Hw1) as (outs & e & m' & H'). eexists _, _, _. eapply h_cmd; eauto.
Qed.
End WithParams.
