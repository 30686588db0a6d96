(** The reference holds: keys. *)
From Verif Require Export RefStrings.

Section WithParams.
Context {P : Setup}.

Lemma ping_meets n args now d : named n "ping" -> Inv d -> meets now d (n :: args) (ref_of "ping" args).
Proof. intros Hn HI. open_ref. destruct args as [|k [|? ?]]; refuse Hn. Qed.
Lemma del_meets n args now d : named n "del" -> Inv d -> meets now d (n :: args) (ref_of "del" args).
Proof.
  intros Hn HI. open_ref. destruct args as [|k ks]; [refuse Hn|]. unfold all_of.
  apply meets_plain; [apply del_ok| |nodl Hn]; auto.
Qed.
Lemma exists_meets n args now d : named n "exists" -> Inv d -> meets now d (n :: args) (ref_of "exists" args).
Proof.
  intros Hn HI. open_ref. destruct args as [|k ks]; [refuse Hn|]. unfold all_of.
  apply meets_plain; [apply exists_ok| |nodl Hn]; auto.
Qed.
Lemma ttl_meets n args now d : named n "ttl" -> Inv d -> meets now d (n :: args) (ref_of "ttl" args).
Proof.
  intros Hn HI. open_ref. destruct args as [|k [|? ?]]; try refuse Hn.
  apply meets_plain; [apply ttl_ok| |nodl Hn]; auto.
Qed.
Lemma type_meets n args now d : named n "type" -> Inv d -> meets now d (n :: args) (ref_of "type" args).
Proof.
  intros Hn HI. open_ref. destruct args as [|k [|? ?]]; try refuse Hn.
  apply meets_plain; [apply type_ok| |nodl Hn]; auto.
Qed.
Lemma persist_meets n args now d : named n "persist" -> Inv d -> meets now d (n :: args) (ref_of "persist" args).
Proof.
  intros Hn HI. open_ref. destruct args as [|k [|? ?]]; try refuse Hn. unfold ref_persist.
  apply meets_gone; auto; intros He.
  { apply meets_say. exec_cmd Hn. unfold persist_key. apply purge_gone; auto. }
  apply meets_onf. exec_cmd Hn. unfold persist_key. apply purge_live; auto. rewrite wp_lock_bare. wps.
  rewrite view_notexpired by auto. split; [|intros; rawsimp; auto]. rawsimp. f_equal.
Qed.
Lemma expire_meets n args now d : named n "expire" -> Inv d -> meets now d (n :: args) (ref_of "expire" args).
Proof.
  intros Hn HI. open_ref. destruct args as [|k [|a [|w [|? ?]]]]; try refuse Hn; unfold ref_expire, int, int_or;
    (destruct (atoi (str a)) as [i|] eqn:Ea;
     [|apply meets_say; exec_cmd Hn; unfold expire_key, expire_run; rewrite Ea; split; auto using sim_refl]).
  - apply meets_onf. exec_cmd Hn. apply oks_done. apply (expire_wp now d k a i ENone); auto.
  - destruct (List.find _ _) as [o|] eqn:Ef.
    + apply find_some in Ef as [_ Ef]. apply bool_decide_eq_true in Ef.
      apply meets_onf. exec_cmd Hn. unfold expire_key. unfold named in Ef. rewrite Ef. apply oks_done. apply (expire_wp now d k a i o); auto.
    + assert (Hw : forall o, ~ named w (expopt_word o)).
      { intros o Ho. apply (find_none _ _ ) with (x := o) in Ef.
        - unfold is_word in Ef. apply bool_decide_eq_false in Ef. auto.
        - destruct o; cbn; auto 6. }
      apply meets_gone; auto; intros He; apply meets_say; exec_cmd Hn; unfold expire_key, expire_run; rewrite Ea, wp_now; cbv zeta.
      * apply purge_gone; auto.
      * apply purge_live; auto. rewrite wp_lock_bare.
        rewrite (unnamed_beq w "nx"), (unnamed_beq w "xx"), (unnamed_beq w "gt"), (unnamed_beq w "lt"), (unnamed_beq w "" : _ -> beq _ [] = false)
          by (apply (Hw ENx) || apply (Hw EXx) || apply (Hw EGt) || apply (Hw ELt) || apply (Hw ENone)).
        split; auto using sim_refl.
Qed.
(** A multi-key command that makes no key linger. *)
Lemma meets_view now d cmd spec : implements cmd spec -> Inv d ->
  wp (eq now) d (exec_in_db cmd) (oks (fun r d' => forall k, lingers now (raw d' k) = true -> lingers now (raw d k) = true)) ->
  meets now d cmd (plain spec).
Proof.
  intros H HI Hw r d' Hst. pose proof (wp_sound _ _ _ _ _ Hst Hw) as Hl. cbn in Hl.
  destruct (H now d (Done r d') HI I Hst) as (r1 & d1 & S' & E & _ & Hs & Hv).
  injection E as <- <-. exists S'. split; [auto|]. intros k. split; [apply Hv; lia|]. intros Hk. left. auto.
Qed.
Lemma rename_meets n args now d : named n "rename" -> Inv d -> meets now d (n :: args) (ref_of "rename" args).
Proof.
  intros Hn HI. open_ref. destruct args as [|a [|b [|? ?]]]; try refuse Hn.
  apply meets_view; [apply rename_ok; auto|auto|]. exec_cmd Hn. unfold rename_key. purge_k.
  assert (Hs : forall k, lingers now (raw d1 k) = true -> lingers now (raw d k) = true) by (intros; eapply lingers_sim; eauto).
  destruct b0; [exact Hs|]. ent; wps; [|exact Hs].
  assert (Hl : lingers now (Some (v, dl)) = false).
  { rewrite <- Hraw. rewrite lingers_expired; auto. }
  match goal with |- context [put ?bb ?vv ?dd] => set (d2 := put bb vv dd) end.
  assert (Hr : forall k, raw d2 k = if decide (k = str b) then Some (v, None) else if decide (k = str a) then None else raw d1 k).
  { intros k. unfold d2. change (edel (str b) (ddel (str b) (edel (str a) (ddel (str a) d1)))) with (purge (str b) (purge (str a) d1)).
    rewrite raw_put, !raw_purge. destruct (decide (k = str b)); auto. unfold purge. rewrite exps_edel. auto. }
  assert (Hdb : dict d2 !! str b = Some v) by apply dict_put.
  destruct dl as [t|]; wps; intros k; [rewrite raw_eset|]; rewrite !Hr; rewrite ?(decide_True (P := str b = str b)) by auto;
    (destruct (decide (k = str b)); [rewrite ?Hl; discriminate|]); (destruct (decide (k = str a)); [discriminate|auto]).
Qed.
Lemma keys_meets n args now d : named n "keys" -> Inv d -> meets now d (n :: args) (ref_of "keys" args).
Proof.
  intros Hn HI. open_ref. destruct args as [|p [|? ?]]; try refuse Hn.
  destruct (pattern_read (str p)) as (ts & e & Hp).
  eapply (meets_impl (fun now d => Z.of_nat (size (dict d)) * 16 <= 2 ^ 48 /\ forall k, view now d k <> None -> ~ breaks ts e k));
    [apply keys_any_pattern; eauto|auto|nodl Hn| |].
  - intros Hnp. split.
    + destruct (Z.le_gt_cases (Z.of_nat (size (dict d)) * 16) (2 ^ 48)); auto. elim Hnp. cbn. do 9 right. split; auto. exists p. split; auto.
    + intros k Hk Hb. elim Hnp. cbn. do 9 right. split; auto. exists p. split; auto. right. eauto 8.
  - intros r S' Hs. exists ts, e. auto.
Qed.
End WithParams.
