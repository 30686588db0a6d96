(** KEYS does not crash while no keys are added. *)
From Verif Require Export Shrink NxProofs.

Section WithParams.
Context {P : Setup}.
Theorem keys_safe (T : Z -> Prop) d cs c i cmds t : Z.of_nat (size (dict d)) <= cnt d -> cnt d * 16 <= 2 ^ 48 ->
  rtc (fun c1 c2 : conf (list rdata) => cstep T c1 c2 /\ dom (dict (cdb c2)) ⊆@{gset bytes} dom (dict (cdb c1))) (clients d cs) c ->
  cs !! i = Some cmds -> (forall cmd, cmd ∈ cmds -> exists n p, cmd = [n; p] /\ named n "keys" /\ forall k, glob (str p) k <> GPanic) ->
  ths c !! i = Some t -> tcode t <> Crash.
Proof.
  intros Hc HM R Hi Hk Ht.
  set (bs := <[i := false]> (replicate (length cs) true)).
  assert (Hlb : length bs = length (ths (clients d cs))) by (unfold bs; cbn; rewrite insert_length, replicate_length, !map_length; reflexivity).
  assert (Hlt : (i < length cs)%nat) by eauto using lookup_lt_Some.
  destruct (nc_rtc T (cnt d) bs _ _ R (replicate (length cs) (Calm None)) Hlb) as (ss & (Hl & Ha & _) & Hl').
  - split; [cbn; rewrite replicate_length, !map_length; reflexivity|].
    assert (Ho : owed (replicate (length cs) (Calm None)) = 0) by (clear; induction (length cs) as [|m IH]; [reflexivity|exact IH]).
    rewrite Ho. split; [|split].
    + intros j t' b s Hj Hb Hs. apply lookup_replicate in Hs as [-> _]. cbn in Hj. rewrite !list_lookup_fmap in Hj.
      destruct (cs !! j) as [cmds'|] eqn:Ej; [|discriminate]. injection Hj as <-. cbn [is_at tcode]. apply nc_client. intros cmd Hcmd.
      unfold bs in Hb. apply list_lookup_insert_Some in Hb as [(-> & <- & _)|(Hne & Hb)].
      * replace cmds' with cmds in Hcmd by congruence. destruct (Hk _ Hcmd) as (n & p & -> & Hn & Hg).
        erewrite (exec_named _ _ _ _ Hn) by reflexivity. apply nc_keys_key; [lia|]. intros k p' [= <-] E. destruct (Hg k E).
      * apply lookup_replicate in Hb as [-> _]. apply nc_exec. lia.
    + intros j s Hs. apply lookup_replicate in Hs as [-> _]. exact I.
    + cbn. rewrite rest_0. lia.
  - destruct (lookup_lt_is_Some_2 ss i ltac:(rewrite Hl, <- Hl'; unfold bs; rewrite insert_length, replicate_length; auto)) as [s Hs].
    assert (Hb : bs !! i = Some false) by (unfold bs; apply list_lookup_insert; rewrite replicate_length; auto).
    specialize (Ha _ _ _ _ Ht Hb Hs). destruct s as [r| |n]; cbn in Ha; intros E; rewrite E in Ha; [inversion Ha; discriminate|destruct Ha as (? & ? & _); discriminate|destruct Ha as (? & ? & _); discriminate].
Qed.
End WithParams.
