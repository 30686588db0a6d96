(** KEYS with a documented pattern. *)
From Verif Require Export Spec GlobProofs GlobExact KeysKeys.
Lemma keys_pattern {P : Setup} n p ts : named n "keys" -> pattern (str p) ts -> stars_ok ts ->
  implements_on (fun now d => Z.of_nat (size (dict d)) * 16 <= 2 ^ 48) [n; p] (keys_spec (fun k => pat_matches ts k)).
Proof.
  intros Hn Hp Hs now d out HI Hsz Hst.
  destruct (keys_ok n p Hn now d out HI) as (r & d' & S' & H1 & H2 & H3 & H4); auto.
  { split; auto. intros k _. destruct (glob_spec _ _ k Hp Hs) as (b & Hb & _). eauto. }
  exists r, d', S'. split; [auto|]. split; [auto|]. split; [|auto].
  destruct H3 as (H3 & l & H5 & H6 & H7). split; auto. exists l. split; auto. split; auto.
  intros k. rewrite H7. destruct (glob_spec _ _ k Hp Hs) as (b & Hb & Hm). rewrite Hb, <- Hm. split; intros [? ?]; split; auto; congruence.
Qed.
(** KEYS with any pattern. *)
Lemma keys_any_pattern {P : Setup} n p ts e : named n "keys" -> reads_pat (str p) ts e ->
  implements_on (fun now d => Z.of_nat (size (dict d)) * 16 <= 2 ^ 48 /\ forall k, view now d k <> None -> ~ breaks ts e k)
    [n; p] (keys_spec (fun k => accepts ts e k)).
Proof.
  intros Hn Hp now d out HI [Hsz Hb] Hst.
  destruct (keys_ok n p Hn now d out HI) as (r & d' & S' & H1 & H2 & H3 & H4); auto.
  { split; auto. intros k Hk. pose proof (glob_terminates (str p) k). destruct (glob_exact _ _ _ k Hp) as [_ E].
    destruct (glob (str p) k) as [b| |]; [eauto| |congruence]. exfalso. apply (Hb k Hk). apply E. reflexivity. }
  exists r, d', S'. split; [auto|]. split; [auto|]. split; [|auto].
  destruct H3 as (H3 & l & H5 & H6 & H7). split; auto. exists l. split; auto. split; auto.
  intros k. rewrite H7. destruct (glob_exact _ _ _ k Hp) as [E _]. rewrite E. tauto.
Qed.
