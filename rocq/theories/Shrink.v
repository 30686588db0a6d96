(** KEYS beside commands that do not add keys. *)
From Verif Require Export Keeps.
From Verif Require Import CMapProofs.

Section WithParams.
Context {P : Setup} (T : Z -> Prop) (M : Z).

(** The number of keys in the segments from [i] on. *)
Definition rest (d : db) (i : N) : Z := zlen (filter (fun k => (i <= segpos k)%N) (map_to_list (dict d)).*1).
Definition keyset (d : db) : gset bytes := dom (dict d).
Lemma rest_mono d d' i : dom (dict d') ⊆@{gset bytes} dom (dict d) -> rest d' i <= rest d i.
Proof.
  intros H. unfold rest, zlen. apply inj_le, submseteq_length, NoDup_submseteq; [apply stdpp.list.NoDup_filter, NoDup_fst_map_to_list|].
  intros k. rewrite !elem_of_list_filter, !elem_keys. intros [? Hk]. split; [auto|]. apply elem_of_dom in Hk. apply elem_of_dom. set_solver.
Qed.
Lemma rest_0 d : rest d 0 = Z.of_nat (size (dict d)).
Proof.
  unfold rest, zlen, size, map_size. f_equal. rewrite <- (fmap_length fst). f_equal. induction (map_to_list (dict d)).*1; auto.
  rewrite filter_cons, decide_True by lia. congruence.
Qed.
Lemma rest_seg d i l : l ≡ₚ seg_keys d i -> rest d i = zlen l + rest d (i + 1).
Proof.
  intros Hl. unfold rest, zlen. rewrite (Permutation_length Hl). unfold seg_keys. induction (map_to_list (dict d)).*1 as [|k ks IH]; auto.
  rewrite !filter_cons. repeat (case_decide; try lia); cbn [length]; lia.
Qed.

(** [nc b R p]: [b]: it may crash; [R] = Some (i, room): KEYS has come to segment [i], and its array has room for [room] more keys. *)
Inductive nc {A} (b : bool) : option (N * Z) -> prog A -> Prop :=
| N_ret R a : nc b R (Ret a)
| N_crash R : b = true -> nc b R Crash
| N_hang R : nc b R Hang
| N_now R k : (forall t, nc b R (k t)) -> nc b R (Now k)
| N_range R l k : (forall l', nc b R (k l')) -> nc b R (Range l k)
| N_eget R key k : (forall x, nc b R (k x)) -> nc b R (EGet key k)
| N_dget R key k : (forall x, nc b R (k x)) -> nc b R (DGet key k)
| N_dset R key v k : nc b R (k false) -> nc b R (DSet key v k)
| N_dmut R key v k : nc b R k -> nc b R (DMut key v k)
| N_ddel R key k k' : nc b R (k false) -> k true = CntLoad (fun c => CntStore (c - 1) k') -> nc b None k' -> nc b R (DDel key k)
| N_dseg R i k : b = true -> (forall x, nc b None (k x)) -> nc b R (DSeg i k)
| N_fill i room k : (forall l, zlen l <= room -> nc b (Some ((i + 1)%N, room - zlen l)) (k l)) -> nc b (Some (i, room)) (DSeg i k)
| N_cntload R k : (forall c, 0 <= c <= M -> nc b (Some (0%N, c)) (k c)) -> nc b R (CntLoad k)
| N_eset R key t k : nc b R k -> nc b R (ESet key t k)
| N_edel R key k : (forall x, nc b R (k x)) -> nc b R (EDel key k)
| N_acq R pos m k : nc b R k -> nc b R (Acq pos m k)
| N_rel R pos m k : nc b R k -> nc b R (Rel pos m k).
Lemma nc_none {A} b (p : prog A) : nc b None p -> forall R, nc b R p.
Proof.
  intros H. remember None as R0 eqn:E. induction H; subst; intros R'; try (econstructor; eauto; fail). discriminate.
Qed.
Lemma nc_bind {A C} b R (p : prog A) (f : A -> prog C) : nc b R p -> (forall a, nc b None (f a)) -> nc b R (pbind p f).
Proof.
  intros Hp Hf. induction Hp; cbn; try (econstructor; eauto; fail).
  - apply nc_none; auto.
  - eapply N_ddel; [eauto|rewrite H; cbn; reflexivity|eauto].
Qed.

(** The states of a goroutine: about to decrement the counter, about to store the decremented value, or neither. *)
Inductive status := Calm (R : option (N * Z)) | Owes | Stores (n : Z).
Definition fits (d : db) (R : option (N * Z)) : Prop := match R with Some (i, room) => rest d i <= room | None => True end.
Definition is_at {A} (b : bool) (p : prog A) (s : status) : Prop :=
  match s with
  | Calm R => nc b R p
  | Owes => exists k', p = CntLoad (fun c => CntStore (c - 1) k') /\ nc b None k'
  | Stores n => exists k', p = CntStore n k' /\ nc b None k'
  end.
Definition owe (s : status) : Z := match s with Owes => 1 | _ => 0 end.
Definition owed (ss : list status) : Z := foldr (fun s n => owe s + n) 0 ss.
Lemma owed_insert ss i s s' : ss !! i = Some s -> owed (<[i := s']> ss) = owed ss - owe s + owe s'.
Proof. revert i. induction ss as [|x ss IH]; intros [|i] H; simpl in *; try discriminate; [injection H as ->; lia|]. specialize (IH i H). unfold owed in *. lia. Qed.
Lemma owed_nonneg ss : 0 <= owed ss.
Proof. unfold owed. induction ss as [|[] ss IH]; cbn; lia. Qed.

Definition status_ok (c : Z) (d : db) (s : status) : Prop := match s with Calm R => fits d R | Owes => True | Stores n => c <= n <= M end.
Definition count_ok {A} (bs : list bool) (c : conf A) (ss : list status) : Prop :=
  length ss = length (ths c) /\
  (forall i t b s, ths c !! i = Some t -> bs !! i = Some b -> ss !! i = Some s -> is_at b (tcode t) s) /\
  (forall i s, ss !! i = Some s -> status_ok (rest (cdb c) 0 + owed ss) (cdb c) s) /\
  rest (cdb c) 0 + owed ss <= cnt (cdb c) <= M.

Definition no_new {A} (c c' : conf A) : Prop := cstep T c c' /\ dom (dict (cdb c')) ⊆@{gset bytes} dom (dict (cdb c)).

Lemma nc_prim {A} b d (p : prog A) d' p' s ow : prim T d p d' p' -> dom (dict d') ⊆@{gset bytes} dom (dict d) -> is_at b p s -> status_ok (rest d 0 + ow) d s ->
  rest d 0 + ow <= cnt d <= M -> owe s <= ow ->
  exists s', is_at b p' s' /\ status_ok (rest d' 0 + (ow - owe s + owe s')) d' s' /\ rest d' 0 + (ow - owe s + owe s') <= rest d 0 + ow /\
    rest d' 0 + (ow - owe s + owe s') <= cnt d' <= M.
Proof.
  intros H Hd Ha Hs Hc How.
  pose proof (fun i => rest_mono d d' i Hd) as Hm.
  assert (H0 : 0 <= rest d 0) by (unfold rest, zlen; lia).
  assert (Hf : forall R, fits d R -> fits d' R) by (intros [[i r]|]; cbn; auto; specialize (Hm i); lia).
  destruct s as [R| |n].
  - cbn [is_at] in Ha. cbn [status_ok] in Hs. cbn [owe] in How.
    destruct H; inversion Ha; subst;
      try (exists (Calm R); cbn [is_at status_ok owe]; split; [auto; fail|]; split; [apply Hf; exact Hs|]; specialize (Hm 0%N); cbn [cnt] in *; lia).
    + destruct (dict d !! key) as [x|] eqn:E.
      * exists (Calm R). cbn [is_at status_ok owe]. split; [auto|]. split; [apply Hf; exact Hs|]. specialize (Hm 0%N). cbn [cnt] in *. lia.
      * exfalso. cbn in Hd. apply not_elem_of_dom in E. apply E, Hd. rewrite dom_insert. set_solver.
    + destruct (dict d !! key) as [x|] eqn:E.
      * exists Owes. cbn [is_at status_ok owe]. split; [eauto|]. split; [auto|].
        assert (E' : rest d 0 = 1 + rest (mkDb (delete key (dict d)) (exps d) (cnt d)) 0).
        { rewrite !rest_0. cbn [dict]. rewrite map_size_delete, E. assert (size (dict d) <> 0%nat) by (apply map_size_non_empty_iff; intros E'; rewrite E', lookup_empty in E; discriminate). lia. }
        rewrite E' in *. cbn [cnt]. lia.
      * exists (Calm R). cbn [is_at status_ok owe]. split; [auto|]. split; [apply Hf; exact Hs|]. specialize (Hm 0%N). cbn [cnt] in *. lia.
    + exists (Calm None). cbn [is_at status_ok owe fits]. split; [auto|]. split; [auto|lia].
    + cbn [fits] in Hs. rewrite (rest_seg _ _ _ H) in Hs. assert (0 <= rest d (i + 1)) by (unfold rest, zlen; lia).
      exists (Calm (Some ((i + 1)%N, room - zlen l'))). cbn [is_at status_ok owe fits].
      split; [match goal with H : forall l, _ -> nc _ _ _ |- _ => apply H end; lia|]. lia.
    + exists (Calm (Some (0%N, cnt d))). cbn [is_at status_ok owe fits]. split; [match goal with H : forall c, _ -> nc _ _ _ |- _ => apply H end; lia|]. lia.
  - destruct Ha as (k' & -> & Hk). inversion H; subst. exists (Stores (cnt d' - 1)). cbn [is_at status_ok owe] in *. split; [eauto|]. lia.
  - destruct Ha as (k' & -> & Hk). inversion H; subst. exists (Calm None). cbn [is_at status_ok owe fits cnt] in *. split; [auto|]. split; [auto|].
    unfold rest in *. cbn [dict] in *. lia.
Qed.
Lemma owe_owed ss i s : ss !! i = Some s -> owe s <= owed ss.
Proof. revert i. induction ss as [|x ss IH]; intros [|i] H; cbn in *; try discriminate; [injection H as ->; pose proof (owed_nonneg ss) as H; unfold owed in H; lia|]. specialize (IH _ H). unfold owed in IH. destruct x; cbn; lia. Qed.
Lemma nc_step {A} bs (c c' : conf A) ss : length bs = length (ths c) -> no_new c c' -> count_ok bs c ss -> exists ss', count_ok bs c' ss' /\ length bs = length (ths c').
Proof.
  intros Hbs [Hs Hd] (Hl & Ht & Hss & Hc). destruct Hs as [d L ts i p d' p' Hi Hp|d L ts i pos k n Hi HL|d L ts i pos k n Hi HL|d L ts i pos k Hi HL|d L ts i pos k n b0 Hi HL|d L ts i pos k n b0 Hi HL]; cbn in *.
  1: {
    assert (Hlt : (i < length ts)%nat) by eauto using lookup_lt_Some.
    destruct (lookup_lt_is_Some_2 bs i ltac:(lia)) as [b Hb]. destruct (lookup_lt_is_Some_2 ss i ltac:(lia)) as [s Es].
    destruct (nc_prim b _ _ _ _ s (owed ss) Hp Hd (Ht _ _ _ _ Hi Hb Es) (Hss _ _ Es) Hc (owe_owed _ _ _ Es)) as (s' & H1 & H2 & H3 & H4).
    exists (<[i := s']> ss). split; [|rewrite insert_length; auto]. unfold count_ok. cbn. rewrite (owed_insert _ _ _ _ Es), !insert_length.
    split; [auto|]. split; [|split; [|exact H4]].
    - intros j t b1 s1 Hj1 Hj2 Hj3. apply list_lookup_insert_Some in Hj1 as [(-> & <- & _)|(Hne & Hj1)].
      + rewrite list_lookup_insert in Hj3 by lia. injection Hj3 as <-. replace b1 with b by congruence. exact H1.
      + rewrite list_lookup_insert_ne in Hj3 by auto. eauto.
    - intros j s1 Hj. apply list_lookup_insert_Some in Hj as [(-> & <- & _)|(Hne & Hj)]; [exact H2|].
      specialize (Hss _ _ Hj). destruct s1 as [[[j1 r1]|]| |n1]; cbn in *; auto; [|lia]. pose proof (rest_mono _ _ j1 Hd). lia. }
  all: exists ss; split; [|rewrite insert_length; auto]; unfold count_ok; cbn; rewrite insert_length; split; [auto|]; split; [|split; [exact Hss|exact Hc]];
    intros j t b1 s1 Hj1 Hj2 Hj3; apply list_lookup_insert_Some in Hj1 as [(-> & <- & _)|(Hne & Hj1)]; [|eauto]; cbn;
    pose proof (Ht _ _ _ _ Hi Hj2 Hj3) as Ha; cbn in Ha; destruct s1 as [R1| |n1]; cbn in *; [inversion Ha; subst; auto|destruct Ha as (? & ? & _); discriminate|destruct Ha as (? & ? & _); discriminate].
Qed.
Lemma nc_rtc {A} bs (c c' : conf A) : rtc no_new c c' -> forall ss, length bs = length (ths c) -> count_ok bs c ss -> exists ss', count_ok bs c' ss' /\ length bs = length (ths c').
Proof.
  induction 1 as [c|c c1 c' Hs _ IH]; intros ss Hl H; [eauto|]. destruct (nc_step _ _ _ _ Hl Hs H) as (ss1 & H1 & H2). eauto.
Qed.

Section Flag.
Context (b : bool).
Lemma nc_exp_get key : nc b None (exp_get key).
Proof. constructor. intros; constructor. Qed.
Lemma nc_dict_get key : nc b None (dict_get key).
Proof. constructor. intros; constructor. Qed.
Lemma nc_dict_set key v : nc b None (dict_set key v).
Proof. constructor. constructor. Qed.
Lemma nc_dict_del key : nc b None (dict_del key).
Proof. eapply N_ddel; [constructor|reflexivity|constructor]. Qed.
Lemma nc_obj_put key v : nc b None (obj_put key v).
Proof. repeat constructor. Qed.
Lemma nc_delete_expire key : nc b None (delete_expire key).
Proof. constructor. intros; constructor. Qed.
Lemma nc_set_expire key t : nc b None (set_expire key t).
Proof. constructor. intros []; repeat constructor; auto. Qed.
Lemma nc_now : nc b None now_unix.
Proof. constructor. intros; constructor. Qed.
Lemma nc_draw_many n l : b = true -> nc b None (draw_many n l).
Proof. intros Hb. induction n; cbn [draw_many]; [constructor|]. constructor. intros. destruct l'; [constructor; auto|]. apply nc_bind; auto. intros; constructor. Qed.
Lemma nc_random_keys sz l c : b = true -> nc b None (random_keys sz l c).
Proof. intros Hb. unfold random_keys. repeat (match goal with |- nc _ _ (match ?x with _ => _ end) => destruct x end); try constructor; auto using nc_draw_many; intros; constructor. Qed.
Lemma nc_mset_loop l : nc b None (mset_loop l).
Proof.
  induction l as [|[k v] l IH]; cbn [mset_loop]; [constructor|]. apply nc_bind; [apply nc_delete_expire|]. intros _.
  apply nc_bind; [apply nc_dict_set|]. auto.
Qed.
Lemma nc_read_sets m ks acc : nc b None (read_sets m ks acc).
Proof.
  revert acc. induction ks as [|k ks IH]; intros acc; cbn [read_sets]; [constructor|]. apply nc_bind; [apply nc_dict_get|].
  intros [[]|]; auto; constructor.
Qed.
Lemma nc_with_lock {A} m key (p : prog A) : nc b None p -> nc b None (with_lock m key p).
Proof.
  intros Hb. unfold with_lock, lock, unlock. cbn. constructor. apply nc_bind; auto. intros a. cbn. repeat constructor.
Qed.
Lemma nc_with_mlock {A} m ks (p : prog A) : nc b None p -> nc b None (with_mlock m ks p).
Proof.
  intros Hb. unfold with_mlock, mlock, munlock. apply nc_bind; [induction (sorted_locks ks); cbn; constructor; auto|]. intros _.
  apply nc_bind; auto. intros a. apply nc_bind; [induction (sorted_locks ks); cbn; constructor; auto|]. intros; constructor.
Qed.
Lemma nc_dek key : nc b None (delete_expired_key key).
Proof.
  unfold delete_expired_key. apply nc_bind; [constructor; intros [t|]; constructor; intros; constructor|]. intros []; [|constructor].
  apply nc_with_lock, nc_bind; [apply nc_dict_del|]. intros _. apply nc_bind; [apply nc_delete_expire|]. intros; constructor.
Qed.
Lemma nc_exists_loop ks n : nc b None (exists_loop ks n).
Proof.
  revert n. induction ks as [|k ks IH]; intros n; cbn [exists_loop]; [constructor|]. apply nc_bind; [apply nc_dek|]. intros []; auto.
  apply nc_bind; [|auto]. apply nc_with_lock. apply nc_bind; [apply nc_dict_get|]. intros; constructor.
Qed.
Lemma nc_mget_loop ks l : nc b None (mget_loop ks l).
Proof.
  revert l. induction ks as [|k ks IH]; intros l; cbn [mget_loop]; [constructor|]. apply nc_bind; [apply nc_dek|]. intros []; auto.
  apply nc_bind; [|auto]. apply nc_with_lock. apply nc_bind; [apply nc_dict_get|]. intros [[]|]; constructor.
Qed.
Lemma nc_live_keys ks acc : nc b None (live_keys ks acc).
Proof. revert acc. induction ks as [|k ks IH]; intros acc; cbn [live_keys]; [constructor|]. apply nc_bind; [apply nc_dek|]. auto. Qed.
Lemma nc_keys_loop p ks : (forall k, glob p k = GPanic -> b = true) -> nc b None (keys_loop p ks).
Proof.
  intros Hg. induction ks as [|k ks IH]; cbn [keys_loop]; [constructor|]. apply nc_bind; [apply nc_dek|]. intros []; auto.
  destruct (glob p k) as [[]| |] eqn:E; auto; try constructor; eauto. apply nc_bind; auto. intros; constructor.
Qed.
Lemma nc_keys_fill n i c : nc b (Some (i, c)) (keys_fill n i c).
Proof.
  revert i c. induction n as [|n IH]; intros; cbn [keys_fill]; [constructor|].
  apply N_fill. intros l Hl. destruct (Z.ltb_spec c (zlen l)); [lia|]. apply nc_bind; auto. intros; constructor.
Qed.
Hypothesis HM : M * 16 <= 2 ^ 48.
Lemma nc_dict_keys : nc b None dict_keys.
Proof.
  constructor. intros c Hc. replace (make_ok c 16) with true; [apply nc_keys_fill|]. unfold make_ok. symmetry. apply andb_true_iff. rewrite !Z.leb_le. lia.
Qed.
Lemma nc_keys_key cmd : (forall k p, cmd !! 1%nat = Some p -> glob (str p) k = GPanic -> b = true) -> nc b None (keys_key cmd).
Proof.
  intros Hg. unfold keys_key. destruct cmd as [|n [|p [|]]]; try apply N_ret. apply nc_bind; [apply nc_dict_keys|]. intros ks.
  apply nc_bind; [apply nc_keys_loop; intros k; apply Hg; reflexivity|]. intros; constructor.
Qed.
End Flag.
End WithParams.
Section WithParams1.
Context {P : Setup} (M : Z).
Lemma nc_set_pop b s : b = true -> nc M b None (set_pop s).
Proof. intros Hb. unfold set_pop. repeat (match goal with |- nc _ _ _ (match ?x with _ => _ end) => destruct x end); try constructor; auto. intros []; constructor; auto. Qed.
Lemma nc_pop_many b n s : b = true -> nc M b None (pop_many n s).
Proof. intros Hb. revert s. induction n as [|n IH]; intros; cbn [pop_many]; [constructor|]. apply nc_bind; [apply nc_set_pop; auto|]. intros. apply nc_bind; auto. intros; constructor. Qed.
Lemma nc_del_loop b ks n : nc M b None (del_loop ks n).
Proof.
  revert n. induction ks as [|k ks IH]; intros n; cbn [del_loop]; [constructor|]. apply nc_bind; [apply nc_dek|]. intros []; auto.
  apply nc_bind; [|auto]. apply nc_with_lock. apply nc_bind; [apply nc_dict_del|]. intros. apply nc_bind; [apply nc_delete_expire|]. intros; constructor.
Qed.
End WithParams1.

Ltac nc_atom := first [apply nc_exp_get | apply nc_dict_get | apply nc_dict_set | apply nc_dict_del | apply nc_obj_put | apply nc_delete_expire
  | apply nc_draw_many; reflexivity | apply nc_set_pop; reflexivity | apply nc_pop_many; reflexivity | apply nc_random_keys; reflexivity | apply nc_mset_loop | apply nc_read_sets | apply nc_set_expire | apply nc_now
  | apply nc_dek | apply nc_exists_loop | apply nc_del_loop | apply nc_mget_loop | apply nc_live_keys ].
Ltac nc_step1 :=
  match goal with
  | |- nc _ _ _ (Ret _) => apply N_ret
  | |- nc _ _ _ Crash => apply N_crash; reflexivity
  | |- nc _ _ _ Hang => apply N_hang
  | |- nc _ _ _ (Range _ _) => apply N_range; intros ?
  | |- nc _ _ _ (with_lock _ _ _) => apply nc_with_lock
  | |- nc _ _ _ (with_mlock _ _ _) => apply nc_with_mlock
  | |- nc _ _ _ (let '(_, _) := ?x in _) => destruct x
  | |- nc _ _ _ (match ?x with _ => _ end) => destruct x
  | |- nc _ _ _ _ => nc_atom
  | |- nc _ _ _ (pbind _ _) => apply nc_bind; [|intros ?]
  | H : context [nc] |- nc _ _ _ _ => eapply H
  | |- forall _, _ => intros ?
  | |- nc _ _ _ _ => progress cbv zeta beta
  | |- nc _ _ _ _ => progress wf_unf
  end.
Ltac nc_cmd := repeat nc_step1.

Section WithParams2.
Context {P : Setup} (T : Z -> Prop) (M : Z).
Hypothesis HM : M * 16 <= 2 ^ 48.
Definition nc_named (s : string) (ex : command -> prog rdata) : Prop :=
  forall n args, to_lower (str n) = B s -> nc M true None (ex (n :: args)).
Lemma nc_ping : nc_named "ping" ping_keys.
Proof. intros n args Hn; unfold ping_keys; nc_cmd. Qed.
Lemma nc_del : nc_named "del" del_key.
Proof. intros n args Hn; unfold del_key; nc_cmd. Qed.
Lemma nc_exists : nc_named "exists" exists_key.
Proof. intros n args Hn; unfold exists_key; nc_cmd. Qed.
Lemma nc_keys : nc_named "keys" keys_key.
Proof. intros n args Hn. apply nc_keys_key; auto. Qed.
Lemma nc_expire : nc_named "expire" expire_key.
Proof. intros n args Hn; unfold expire_key; nc_cmd. Qed.
Lemma nc_persist : nc_named "persist" persist_key.
Proof. intros n args Hn; unfold persist_key; nc_cmd. Qed.
Lemma nc_ttl : nc_named "ttl" ttl_key.
Proof. intros n args Hn; unfold ttl_key; nc_cmd. Qed.
Lemma nc_rename : nc_named "rename" rename_key.
Proof. intros n args Hn; unfold rename_key; nc_cmd. Qed.
Lemma nc_type : nc_named "type" type_key.
Proof. intros n args Hn; unfold type_key; nc_cmd. Qed.
Lemma nc_set : nc_named "set" set_string.
Proof. intros n args Hn; unfold set_string; nc_cmd. Qed.
Lemma nc_get : nc_named "get" get_string.
Proof. intros n args Hn; unfold get_string; nc_cmd. Qed.
Lemma nc_getrange : nc_named "getrange" getrange_string.
Proof. intros n args Hn; unfold getrange_string; nc_cmd. Qed.
Lemma nc_setrange : nc_named "setrange" setrange_string.
Proof. intros n args Hn; unfold setrange_string; nc_cmd. Qed.
Lemma nc_mget : nc_named "mget" mget_string.
Proof. intros n args Hn; unfold mget_string; nc_cmd. Qed.
Lemma nc_mset : nc_named "mset" mset_string.
Proof. intros n args Hn; unfold mset_string; nc_cmd. Qed.
Lemma nc_setex : nc_named "setex" setex_string.
Proof. intros n args Hn; unfold setex_string; nc_cmd. Qed.
Lemma nc_setnx : nc_named "setnx" setnx_string.
Proof. intros n args Hn; unfold setnx_string; nc_cmd. Qed.
Lemma nc_strlen : nc_named "strlen" strlen_string.
Proof. intros n args Hn; unfold strlen_string; nc_cmd. Qed.
Lemma nc_incr : nc_named "incr" incr_string.
Proof. intros n args Hn; unfold incr_string; nc_cmd. Qed.
Lemma nc_incrby : nc_named "incrby" incrby_string.
Proof. intros n args Hn; unfold incrby_string; nc_cmd. Qed.
Lemma nc_decr : nc_named "decr" decr_string.
Proof. intros n args Hn; unfold decr_string; nc_cmd. Qed.
Lemma nc_decrby : nc_named "decrby" decrby_string.
Proof. intros n args Hn; unfold decrby_string; nc_cmd. Qed.
Lemma nc_incrbyfloat : nc_named "incrbyfloat" incrbyfloat_string.
Proof. intros n args Hn; unfold incrbyfloat_string; nc_cmd. Qed.
Lemma nc_append : nc_named "append" append_string.
Proof. intros n args Hn; unfold append_string; nc_cmd. Qed.
Lemma nc_hdel : nc_named "hdel" hdel_hash.
Proof. intros n args Hn; unfold hdel_hash; nc_cmd. Qed.
Lemma nc_hexists : nc_named "hexists" hexists_hash.
Proof. intros n args Hn; unfold hexists_hash; nc_cmd. Qed.
Lemma nc_hget : nc_named "hget" hget_hash.
Proof. intros n args Hn; unfold hget_hash; nc_cmd. Qed.
Lemma nc_hgetall : nc_named "hgetall" hgetall_hash.
Proof. intros n args Hn; unfold hgetall_hash; nc_cmd. Qed.
Lemma nc_hincrby : nc_named "hincrby" hincrby_hash.
Proof. intros n args Hn; unfold hincrby_hash; nc_cmd. Qed.
Lemma nc_hincrbyfloat : nc_named "hincrbyfloat" hincrbyfloat_hash.
Proof. intros n args Hn; unfold hincrbyfloat_hash; nc_cmd. Qed.
Lemma nc_hkeys : nc_named "hkeys" hkeys_hash.
Proof. intros n args Hn; unfold hkeys_hash; nc_cmd. Qed.
Lemma nc_hlen : nc_named "hlen" hlen_hash.
Proof. intros n args Hn; unfold hlen_hash; nc_cmd. Qed.
Lemma nc_hmget : nc_named "hmget" hmget_hash.
Proof. intros n args Hn; unfold hmget_hash; nc_cmd. Qed.
Lemma nc_hmset : nc_named "hmset" hmset_hash.
Proof. intros n args Hn; unfold hmset_hash, hset_common; nc_cmd. Qed.
Lemma nc_hset : nc_named "hset" hset_hash.
Proof. intros n args Hn; unfold hset_hash, hset_common; nc_cmd. Qed.
Lemma nc_hsetnx : nc_named "hsetnx" hsetnx_hash.
Proof. intros n args Hn; unfold hsetnx_hash; nc_cmd. Qed.
Lemma nc_hvals : nc_named "hvals" hvals_hash.
Proof. intros n args Hn; unfold hvals_hash; nc_cmd. Qed.
Lemma nc_hstrlen : nc_named "hstrlen" hstrlen_hash.
Proof. intros n args Hn; unfold hstrlen_hash; nc_cmd. Qed.
Lemma nc_hrandfield : nc_named "hrandfield" hrandfield_hash.
Proof. intros n args Hn; unfold hrandfield_hash; nc_cmd. Qed.
Lemma nc_lindex : nc_named "lindex" lindex_list.
Proof. intros n args Hn; unfold lindex_list; nc_cmd. Qed.
Lemma nc_linsert : nc_named "linsert" linsert_list.
Proof. intros n args Hn; unfold linsert_list; nc_cmd. Qed.
Lemma nc_llen : nc_named "llen" llen_list.
Proof. intros n args Hn; unfold llen_list; nc_cmd. Qed.
Lemma nc_lmove : nc_named "lmove" lmove_list.
Proof. intros n args Hn; unfold lmove_list; nc_cmd. Qed.
Lemma nc_lpop : nc_named "lpop" lpop_list.
Proof. intros n args Hn; unfold lpop_list, pop_list; nc_cmd. Qed.
Lemma nc_lpos : nc_named "lpos" lpos_list.
Proof. intros n args Hn; unfold lpos_list; nc_cmd. Qed.
Lemma nc_lpush : nc_named "lpush" lpush_list.
Proof. intros n args Hn; unfold lpush_list, push_list; nc_cmd. Qed.
Lemma nc_lpushx : nc_named "lpushx" lpushx_list.
Proof. intros n args Hn; unfold lpushx_list, pushx_list; nc_cmd. Qed.
Lemma nc_lrange : nc_named "lrange" lrange_list.
Proof. intros n args Hn; unfold lrange_list; nc_cmd. Qed.
Lemma nc_lrem : nc_named "lrem" lrem_list.
Proof. intros n args Hn; unfold lrem_list; nc_cmd. Qed.
Lemma nc_lset : nc_named "lset" lset_list.
Proof. intros n args Hn; unfold lset_list; nc_cmd. Qed.
Lemma nc_ltrim : nc_named "ltrim" ltrim_list.
Proof. intros n args Hn; unfold ltrim_list; nc_cmd. Qed.
Lemma nc_rpop : nc_named "rpop" rpop_list.
Proof. intros n args Hn; unfold rpop_list, pop_list; nc_cmd. Qed.
Lemma nc_rpush : nc_named "rpush" rpush_list.
Proof. intros n args Hn; unfold rpush_list, push_list; nc_cmd. Qed.
Lemma nc_rpushx : nc_named "rpushx" rpushx_list.
Proof. intros n args Hn; unfold rpushx_list, pushx_list; nc_cmd. Qed.
Lemma nc_sadd : nc_named "sadd" sadd_set.
Proof. intros n args Hn; unfold sadd_set; nc_cmd. Qed.
Lemma nc_scard : nc_named "scard" scard_set.
Proof. intros n args Hn; unfold scard_set; nc_cmd. Qed.
Lemma nc_sdiff : nc_named "sdiff" sdiff_set.
Proof. intros n args Hn; unfold sdiff_set, setop_set; nc_cmd. Qed.
Lemma nc_sdiffstore : nc_named "sdiffstore" sdiffstore_set.
Proof. intros n args Hn; unfold sdiffstore_set, setopstore_set; nc_cmd. Qed.
Lemma nc_sinter : nc_named "sinter" sinter_set.
Proof. intros n args Hn; unfold sinter_set, setop_set; nc_cmd. Qed.
Lemma nc_sinterstore : nc_named "sinterstore" sinterstore_set.
Proof. intros n args Hn; unfold sinterstore_set, setopstore_set; nc_cmd. Qed.
Lemma nc_sismember : nc_named "sismember" sismember_set.
Proof. intros n args Hn; unfold sismember_set; nc_cmd. Qed.
Lemma nc_smembers : nc_named "smembers" smembers_set.
Proof. intros n args Hn; unfold smembers_set; nc_cmd. Qed.
Lemma nc_smove : nc_named "smove" smove_set.
Proof. intros n args Hn; unfold smove_set; nc_cmd. Qed.
Lemma nc_spop : nc_named "spop" spop_set.
Proof. intros n args Hn; unfold spop_set; nc_cmd. Qed.
Lemma nc_srandmember : nc_named "srandmember" srandmember_set.
Proof. intros n args Hn; unfold srandmember_set; nc_cmd. Qed.
Lemma nc_srem : nc_named "srem" srem_set.
Proof. intros n args Hn; unfold srem_set; nc_cmd. Qed.
Lemma nc_sunion : nc_named "sunion" sunion_set.
Proof. intros n args Hn; unfold sunion_set, setop_set; nc_cmd. Qed.
Lemma nc_sunionstore : nc_named "sunionstore" sunionstore_set.
Proof. intros n args Hn; unfold sunionstore_set, setopstore_set; nc_cmd. Qed.
Theorem nc_exec cmd : nc M true None (exec_in_db cmd).
Proof.
  refine (table_ind (fun cmd p => nc M true None p) _ _ _ cmd); clear cmd.
  - intros. apply N_crash; reflexivity.
  - intros. constructor.
  - unfold cmd_table. repeat (apply List.Forall_cons; [cbn [fst snd]|]); [..|apply List.Forall_nil].
    + exact nc_ping.
    + exact nc_del.
    + exact nc_exists.
    + exact nc_keys.
    + exact nc_expire.
    + exact nc_persist.
    + exact nc_ttl.
    + exact nc_rename.
    + exact nc_type.
    + exact nc_set.
    + exact nc_get.
    + exact nc_getrange.
    + exact nc_setrange.
    + exact nc_mget.
    + exact nc_mset.
    + exact nc_setex.
    + exact nc_setnx.
    + exact nc_strlen.
    + exact nc_incr.
    + exact nc_incrby.
    + exact nc_decr.
    + exact nc_decrby.
    + exact nc_incrbyfloat.
    + exact nc_append.
    + exact nc_hdel.
    + exact nc_hexists.
    + exact nc_hget.
    + exact nc_hgetall.
    + exact nc_hincrby.
    + exact nc_hincrbyfloat.
    + exact nc_hkeys.
    + exact nc_hlen.
    + exact nc_hmget.
    + exact nc_hmset.
    + exact nc_hset.
    + exact nc_hsetnx.
    + exact nc_hvals.
    + exact nc_hstrlen.
    + exact nc_hrandfield.
    + exact nc_lindex.
    + exact nc_linsert.
    + exact nc_llen.
    + exact nc_lmove.
    + exact nc_lpop.
    + exact nc_lpos.
    + exact nc_lpush.
    + exact nc_lpushx.
    + exact nc_lrange.
    + exact nc_lrem.
    + exact nc_lset.
    + exact nc_ltrim.
    + exact nc_rpop.
    + exact nc_rpush.
    + exact nc_rpushx.
    + exact nc_sadd.
    + exact nc_scard.
    + exact nc_sdiff.
    + exact nc_sdiffstore.
    + exact nc_sinter.
    + exact nc_sinterstore.
    + exact nc_sismember.
    + exact nc_smembers.
    + exact nc_smove.
    + exact nc_spop.
    + exact nc_srandmember.
    + exact nc_srem.
    + exact nc_sunion.
    + exact nc_sunionstore.
Qed.
Lemma nc_client b (cmds : list command) acc : (forall cmd, cmd ∈ cmds -> nc M b None (exec_in_db cmd)) -> nc M b None (client_from acc cmds).
Proof.
  revert acc. induction cmds as [|c r IH]; intros acc H; [constructor|].
  change (client_from acc (c :: r)) with (x <- exec_in_db c ;; client_from (acc ++ [x]) r).
  apply nc_bind; [exact (H c ltac:(left))|]. intros x. apply IH. intros cmd Hc. exact (H cmd ltac:(right; exact Hc)).
Qed.
End WithParams2.
