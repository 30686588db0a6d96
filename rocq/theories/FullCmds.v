(** The commands that do not leave an empty container behind. *)
From Verif Require Export Full.

Section WithParams.
Context {P : Setup}.
Notation known := (gmap bytes (option value)).
Definition clean {A : Type} (L : list N) (K : known) (a : A) : Prop := L = [] /\ K = ∅.
Definition calmly {A : Type} (L : list N) (L' : list N) (K : known) (a : A) : Prop := L' = L /\ settled K.
(** A command, from no lock held to no lock held. *)
Definition top {A : Type} (c : bool) (p : prog A) : Prop := full c clean [] ∅ p.
(** The part of it that runs under the locks [L]; with one entry known; with all entries but one not empty. *)
Definition body {A : Type} (c : bool) (L : list N) (p : prog A) : Prop := forall K, settled K -> full c (calmly L) L K p.
Definition knowing {A : Type} (c : bool) (L : list N) (key : bytes) (x : option value) (p : prog A) : Prop := forall K, settled K -> K !! key = Some x -> full c (calmly L) L K p.
Definition owing {A : Type} (c : bool) (L : list N) (key : bytes) (v : value) (p : prog A) : Prop :=
  forall K, settled (delete key K) -> K !! key = Some (Some v) -> full c (calmly L) L K p.

Lemma settled_but K key x : settled (delete key K) -> solid x -> settled (<[key := x]> K).
Proof. intros H1 H2. rewrite <- insert_delete_insert. apply settled_set; auto. Qed.
Lemma settled_sub K key : settled K -> settled (delete key K).
Proof. intros H k x Hx. destruct (decide (key = k)) as [<-|Hn]; [rewrite lookup_delete in Hx; discriminate|rewrite lookup_delete_ne in Hx by auto; eauto]. Qed.
Lemma alter_insert (K : known) key v w : K !! key = Some (Some w) -> alter (fun y => match y with Some _ => Some v | None => None end) key K = <[key := Some v]> K.
Proof.
  intros H. apply map_eq. intros k. destruct (decide (key = k)) as [<-|Hn]; [rewrite lookup_alter, H, lookup_insert; reflexivity|]. rewrite lookup_alter_ne by auto. rewrite lookup_insert_ne by auto. reflexivity.
Qed.
Lemma settled_alter K key v : settled K -> hollow v = false -> settled (alter (fun y : option value => match y with Some _ => Some v | None => None end) key K).
Proof.
  intros H Hv k x Hx. destruct (decide (key = k)) as [<-|Hn]; [|rewrite lookup_alter_ne in Hx by auto; eauto]. rewrite lookup_alter in Hx. destruct (K !! key) as [y|]; [|discriminate]. cbn in Hx. injection Hx as <-.
  destruct y; [apply solid_some; exact Hv|apply solid_none].
Qed.
Variable c : bool.
(** ** Without locks *)
Lemma tp_ret {A : Type} (a : A) : top c (Ret a). Proof. split; reflexivity. Qed.
Lemma tp_crash {A : Type} : c = true -> top c (Crash (A := A)). Proof. intros H. exact H. Qed.
Lemma tp_now {A : Type} k : (forall t, top c (k t)) -> top (A := A) c (Now k). Proof. intros H. exact H. Qed.
Lemma tp_cnt {A : Type} k : (forall t, top c (k t)) -> top (A := A) c (CntLoad k). Proof. intros H. exact H. Qed.
Lemma tp_seg {A : Type} i k : (forall t, top c (k t)) -> top (A := A) c (DSeg i k). Proof. intros H. exact H. Qed.
Lemma tp_bind {A C : Type} (p : prog A) (f : A -> prog C) : top c p -> (forall a, top c (f a)) -> top c (pbind p f).
Proof. intros H Hf. eapply full_bind; [exact H|]. intros L K a [-> ->]. apply Hf. Qed.
Lemma tp_get {A : Type} key (f : option value -> prog A) : (forall x, top c (f x)) -> top c (pbind (dict_get key) f).
Proof. intros H. unfold top. cbn [pbind dict_get full]. intros x _ _. unfold learn. rewrite decide_False by (intros Hi; inversion Hi). apply H. Qed.
Lemma tp_nowu {A : Type} (f : Z -> prog A) : (forall x, top c (f x)) -> top c (pbind now_unix f). Proof. intros H. exact H. Qed.
Lemma tp_lock {A : Type} m key (p : prog A) : body c [lockpos key] p -> top c (with_lock m key p).
Proof.
  intros H. unfold with_lock, top. cbn [pbind lock full]. eapply full_bind; [apply H; apply settled_empty|]. intros L K a [_ HK]. cbn. split; [exact HK|]. split; reflexivity.
Qed.
Lemma full_acq {A : Type} Q m l (p : prog A) : forall L K, full c Q (rev l ++ L) K p -> full c Q L K (acq_all m l ;;; p).
Proof. induction l as [|q l IH]; intros L K H; cbn [acq_all pbind full]; auto. apply IH. cbn in H. rewrite <- app_assoc in H. exact H. Qed.
Lemma tp_mlock {A : Type} m ks (p : prog A) : ks <> [] -> (forall L, (forall k, k ∈ ks -> lockpos k ∈ L) -> body c L p) -> top c (with_mlock m ks p).
Proof.
  intros Hne H. unfold with_mlock, top, mlock. apply full_acq. eapply full_bind.
  - apply H; [|apply settled_empty]. intros k Hk. apply elem_of_app. left. apply elem_of_list_In, in_rev. rewrite rev_involutive. apply elem_of_list_In. apply sorted_locks_elem. auto.
  - intros L K a [_ HK]. unfold munlock. assert (Hs : sorted_locks ks <> []).
    { destruct ks as [|k ks]; [congruence|]. intros E. assert (Hi : lockpos k ∈ sorted_locks (k :: ks)) by (apply sorted_locks_elem; left). rewrite E in Hi. inversion Hi. }
    destruct (sorted_locks ks) as [|q l]; [congruence|]. cbn [rel_all pbind full]. split; [exact HK|]. clear. induction l as [|q l IH]; cbn [rel_all pbind full]; [split; reflexivity|]. split; [apply settled_empty|exact IH].
Qed.
Lemma tp_loop {A : Type} (p : prog A) : top c p -> top c p. Proof. auto. Qed.
(** ** Under locks *)
Variable L : list N.
Lemma bd_ret {A : Type} (a : A) : body c L (Ret a). Proof. intros K HK. split; auto. Qed.
Lemma bd_crash {A : Type} : c = true -> body c L (Crash (A := A)). Proof. intros H K HK. exact H. Qed.
Lemma bd_hang {A : Type} : body c L (Hang (A := A)). Proof. intros K HK. exact I. Qed.
Lemma bd_bind {A C : Type} (p : prog A) (f : A -> prog C) : body c L p -> (forall a, body c L (f a)) -> body c L (pbind p f).
Proof. intros H Hf K HK. eapply full_bind; [apply H; exact HK|]. intros L' K' a [-> HK']. apply Hf. exact HK'. Qed.
Lemma bd_now : body c L now_unix. Proof. intros K HK t. split; auto. Qed.
Lemma bd_range {A : Type} l (k : list bytes -> prog A) : (forall x, Permutation x l -> body c L (k x)) -> body c L (Range l k). Proof. intros H K HK x Hx. apply H; auto. Qed.
Lemma get_full {A : Type} Q K key (f : option value -> prog A) : settled K ->
  (forall x K', settled K' -> (lockpos key ∈ L -> solid x /\ K' !! key = Some x) -> full c Q L K' (f x)) -> full c Q L K (DGet key f).
Proof.
  intros HK H x H1 H2. apply H.
  - unfold learn. destruct (decide (lockpos key ∈ L)) as [Hi|]; [|exact HK]. apply settled_set; [exact HK|]. destruct (K !! key) as [y|] eqn:E; [|auto]. rewrite (H1 y eq_refl). eapply HK; eauto.
  - intros Hi. split; [|unfold learn; rewrite decide_True by auto; apply lookup_insert]. destruct (K !! key) as [y|] eqn:E; [|auto]. rewrite (H1 y eq_refl). eapply HK; eauto.
Qed.
Lemma bd_get key : body c L (dict_get key).
Proof. intros K HK. apply get_full; [exact HK|]. intros x K' HK' _. split; auto. Qed.
Lemma bd_get_bind {A : Type} key (f : option value -> prog A) : lockpos key ∈ L -> (forall x, solid x -> knowing c L key x (f x)) -> body c L (pbind (dict_get key) f).
Proof. intros Hi H K HK. cbn [pbind dict_get]. apply get_full; [exact HK|]. intros x K' HK' H2. destruct (H2 Hi) as [H3 H4]. apply H; auto. Qed.
Lemma kn_body {A : Type} key x (p : prog A) : body c L p -> knowing c L key x p. Proof. intros H K HK _. apply H. exact HK. Qed.
Lemma bd_set_expire key t : body c L (set_expire key t).
Proof. intros K HK. apply get_full; [exact HK|]. intros [x|] K' HK' _; split; auto. Qed.
Lemma bd_set key v : hollow v = false -> body c L (dict_set key v).
Proof. intros Hv K HK. split; [right; exact Hv|]. intros [|]; cbn; [intros _|]; split; auto using settled_learn, solid_some. Qed.
Lemma bd_del key : body c L (dict_del key).
Proof. intros K HK [|]; cbn; [intros _|]; split; auto using settled_learn, solid_none. Qed.
Lemma bd_put key v : hollow v = false -> body c L (obj_put key v).
Proof. intros Hv K HK. split; [right; exact Hv|]. split; auto using settled_alter. Qed.
Lemma bd_exp_get key : body c L (exp_get key). Proof. intros K HK x. split; auto. Qed.
Lemma bd_delete_expire key : body c L (delete_expire key). Proof. intros K HK x. split; auto. Qed.
(** An empty container is created, or the last element taken out. *)
Lemma bd_create {A : Type} key v (p : prog A) : lockpos key ∈ L -> owing c L key v p -> body c L (dict_set key v ;;; p).
Proof.
  intros Hi H K HK. cbn [dict_set pbind full]. split; [left; exact Hi|]. assert (HK' : full c (calmly L) L (learn L K key (Some v)) p).
  { unfold learn. rewrite decide_True by auto. apply H; [|apply lookup_insert]. rewrite delete_insert_delete. apply settled_sub. exact HK. }
  intros [|]; cbn [pbind full]; [intros _|]; exact HK'.
Qed.
Lemma kn_put {A : Type} key w v (p : prog A) : owing c L key v p -> knowing c L key (Some w) (obj_put key v ;;; p).
Proof.
  intros H K HK E. cbn [obj_put pbind full]. split; [left; eauto|]. rewrite (alter_insert _ _ _ _ E). apply H; [|apply lookup_insert]. rewrite delete_insert_delete. apply settled_sub. exact HK.
Qed.
Lemma ow_put {A : Type} key w v (p : prog A) : hollow v = false -> body c L p -> owing c L key w (obj_put key v ;;; p).
Proof. intros Hv H K HK E. cbn [obj_put pbind full]. split; [right; exact Hv|]. rewrite (alter_insert _ _ _ _ E). apply H. apply settled_but; auto using solid_some. Qed.
Lemma ow_body {A : Type} key v (p : prog A) : hollow v = false -> body c L p -> owing c L key v p.
Proof. intros Hv H K HK E. apply H. intros k x Hx. destruct (decide (key = k)) as [<-|Hn]; [rewrite E in Hx; injection Hx as <-; apply solid_some; exact Hv|]. apply (HK k). rewrite lookup_delete_ne by auto. exact Hx. Qed.
Lemma ow_drop {A : Type} key v (b : bool) (p : prog A) : lockpos key ∈ L -> (b = false -> hollow v = false) -> body c L p ->
  owing c L key v ((if b then dict_del key ;;; delete_expire key ;;; Ret tt else Ret tt) ;;; p).
Proof.
  intros Hi Hb H. destruct b; [|cbn [pbind]; apply ow_body; auto]. intros K HK E. cbn [dict_del delete_expire pbind full].
  assert (HK' : full c (calmly L) L (learn L K key None) p).
  { unfold learn. rewrite decide_True by auto. apply H. apply settled_but; auto using solid_none. }
  intros [|]; cbn [pbind full]; intros _; [intros _|]; exact HK'.
Qed.
Lemma kn_know {A : Type} key x (p : prog A) : (solid x -> knowing c L key x p) -> knowing c L key x p.
Proof. intros H K HK E. apply H; auto. eapply HK; eauto. Qed.
End WithParams.

Ltac in_locks := first [assumption | apply elem_of_list_singleton; reflexivity | match goal with H : forall k, _ -> lockpos k ∈ ?L |- lockpos _ ∈ ?L => apply H; repeat first [left|right] end].
Ltac fl_step :=
  match goal with
  | |- top _ (Ret _) => apply tp_ret
  | |- top true Crash => apply tp_crash; reflexivity
  | |- top _ (with_lock _ _ _) => apply tp_lock
  | |- top _ (with_mlock _ _ _) => apply tp_mlock; [discriminate|intros ? ?]
  | |- top _ (pbind (dict_get _) _) => apply tp_get; intros ?
  | |- top _ (pbind now_unix _) => apply tp_nowu; intros ?
  | |- body _ _ (Ret _) => apply bd_ret
  | |- body true _ Crash => apply bd_crash; reflexivity
  | |- body _ _ Hang => apply bd_hang
  | |- body _ _ now_unix => apply bd_now
  | |- body _ _ (Range _ _) => apply bd_range; intros ? ?
  | |- body _ _ (dict_get _) => apply bd_get
  | |- body _ _ (set_expire _ _) => apply bd_set_expire
  | |- body _ _ (dict_set _ _) => apply bd_set; first [reflexivity|idtac]
  | |- body _ _ (dict_del _) => apply bd_del
  | |- body _ _ (obj_put _ _) => apply bd_put; first [reflexivity|idtac]
  | |- body _ _ (exp_get _) => apply bd_exp_get
  | |- body _ _ (delete_expire _) => apply bd_delete_expire
  | H : context [top] |- top _ _ => apply H
  | H : context [body] |- body _ _ _ => apply H
  | |- top _ (let '(_, _) := ?x in _) => destruct x
  | |- body _ _ (let '(_, _) := ?x in _) => destruct x
  | |- top _ (match ?x with _ => _ end) => destruct x
  | |- body _ _ (match ?x with _ => _ end) => destruct x
  | |- top _ (pbind _ _) => apply tp_bind; [|intros ?]
  | |- body _ _ (pbind _ _) => apply bd_bind; [|intros ?]
  | |- forall _, _ => intros ?
  | |- top _ _ => progress cbv zeta beta
  | |- body _ _ _ => progress cbv zeta beta
  end.

Section Cmds.
Context {P : Setup}.
Lemma tp_purge c key : top c (delete_expired_key key).
Proof.
  unfold delete_expired_key. apply tp_bind; [|intros [|]; repeat fl_step]. unfold check_expire. intros [t|]; cbn; [intros n|]; split; reflexivity.
Qed.
End Cmds.
Ltac fl_cmd := repeat first [apply tp_purge | fl_step | progress cm_unf].
Tactic Notation "flc" reference(f) := intros args; unfold f; fl_cmd.
Section Cmds2.
Context {P : Setup}.
Notation nice := (top true).
Lemma fl_del_loop ks : forall n, nice (del_loop ks n).
Proof. induction ks; cbn [del_loop]; intros; fl_cmd. Qed.
Lemma fl_exists_loop ks : forall n, nice (exists_loop ks n).
Proof. induction ks; cbn [exists_loop]; intros; fl_cmd. Qed.
Lemma fl_mget_loop ks : forall n, nice (mget_loop ks n).
Proof. induction ks; cbn [mget_loop]; intros; fl_cmd. Qed.
Lemma fl_mset_loop L ks : body true L (mset_loop ks).
Proof. induction ks as [|[]]; cbn [mset_loop]; intros; fl_cmd. Qed.
Lemma fl_live_keys ks : forall acc, nice (live_keys ks acc).
Proof. induction ks; cbn [live_keys]; intros; fl_cmd. Qed.
Lemma fl_read_sets L m ks : forall acc, body true L (read_sets m ks acc).
Proof. induction ks; cbn [read_sets]; intros; fl_cmd. Qed.
Lemma fl_draw_many L n ks : body true L (draw_many n ks).
Proof. induction n; cbn [draw_many]; fl_cmd. Qed.
Lemma fl_random_keys L sz ks n : body true L (random_keys sz ks n).
Proof. unfold random_keys. fl_cmd. apply fl_draw_many. Qed.
Lemma fl_pop_many c L n : forall s, body c L (pop_many n s).
Proof. induction n; cbn [pop_many]; intros; fl_cmd. Qed.
Lemma fl_keys_fill n : forall i room, nice (keys_fill n i room).
Proof. induction n; cbn [keys_fill]; intros; fl_cmd. intros l. fold (top (A := list bytes) true). change (nice (if room <? zlen l then Crash else r <- keys_fill n (i + 1)%N (room - zlen l);; Ret (l ++ r))). fl_cmd. Qed.
Lemma fl_keys_loop p ks : nice (keys_loop p ks).
Proof. induction ks; cbn [keys_loop]; fl_cmd. exact I. Qed.
Lemma fl_keys : forall cmd, nice (keys_key cmd).
Proof.
  flc keys_key; [|apply fl_keys_loop]. unfold dict_keys. intros x. change (nice (if make_ok x 16 then keys_fill (Pos.to_nat segnum) 0%N x else Crash)). destruct (make_ok x 16); [apply fl_keys_fill|reflexivity].
Qed.
Lemma fl_ping : forall cmd, nice (ping_keys cmd). Proof. flc ping_keys. Qed.
Lemma fl_del : forall cmd, nice (del_key cmd). Proof. flc del_key. apply fl_del_loop. Qed.
Lemma fl_exists : forall cmd, nice (exists_key cmd). Proof. flc exists_key. apply fl_exists_loop. Qed.
Lemma fl_expire : forall cmd, nice (expire_key cmd). Proof. flc expire_key. Qed.
Lemma fl_persist : forall cmd, nice (persist_key cmd). Proof. flc persist_key. Qed.
Lemma fl_ttl : forall cmd, nice (ttl_key cmd). Proof. flc ttl_key. Qed.
Lemma fl_type : forall cmd, nice (type_key cmd). Proof. flc type_key. Qed.
Lemma fl_set : forall cmd, nice (set_string cmd). Proof. flc set_string. Qed.
Lemma fl_get : forall cmd, nice (get_string cmd). Proof. flc get_string. Qed.
Lemma fl_getrange : forall cmd, nice (getrange_string cmd). Proof. flc getrange_string. Qed.
Lemma fl_setrange : forall cmd, nice (setrange_string cmd). Proof. flc setrange_string. Qed.
Lemma fl_mget : forall cmd, nice (mget_string cmd). Proof. flc mget_string. apply fl_mget_loop. Qed.
Lemma fl_mset : forall cmd, nice (mset_string cmd).
Proof. 
  intros cmd. unfold mset_string. destruct cmd as [|? [|k [|v r]]]; try apply tp_ret. destruct (pairs_of (k :: v :: r)) as [ps|] eqn:E; [|apply tp_ret]. apply tp_mlock; [|intros L HL; fl_cmd; apply fl_mset_loop].
  cbn in E. destruct (pairs_of r); [|discriminate]. injection E as <-. discriminate.
Qed.
Lemma fl_setex : forall cmd, nice (setex_string cmd). Proof. flc setex_string. Qed.
Lemma fl_setnx : forall cmd, nice (setnx_string cmd). Proof. flc setnx_string. Qed.
Lemma fl_strlen : forall cmd, nice (strlen_string cmd). Proof. flc strlen_string. Qed.
Lemma fl_incr : forall cmd, nice (incr_string cmd). Proof. flc incr_string. Qed.
Lemma fl_incrby : forall cmd, nice (incrby_string cmd). Proof. flc incrby_string. Qed.
Lemma fl_decr : forall cmd, nice (decr_string cmd). Proof. flc decr_string. Qed.
Lemma fl_decrby : forall cmd, nice (decrby_string cmd). Proof. flc decrby_string. Qed.
Lemma fl_incrbyfloat : forall cmd, nice (incrbyfloat_string cmd). Proof. flc incrbyfloat_string. Qed.
Lemma fl_append : forall cmd, nice (append_string cmd). Proof. flc append_string. Qed.
Lemma fl_hexists : forall cmd, nice (hexists_hash cmd). Proof. flc hexists_hash. Qed.
Lemma fl_hget : forall cmd, nice (hget_hash cmd). Proof. flc hget_hash. Qed.
Lemma fl_hgetall : forall cmd, nice (hgetall_hash cmd). Proof. flc hgetall_hash. Qed.
Lemma fl_hkeys : forall cmd, nice (hkeys_hash cmd). Proof. flc hkeys_hash. Qed.
Lemma fl_hlen : forall cmd, nice (hlen_hash cmd). Proof. flc hlen_hash. Qed.
Lemma fl_hmget : forall cmd, nice (hmget_hash cmd). Proof. flc hmget_hash. Qed.
Lemma fl_hvals : forall cmd, nice (hvals_hash cmd). Proof. flc hvals_hash. Qed.
Lemma fl_hstrlen : forall cmd, nice (hstrlen_hash cmd). Proof. flc hstrlen_hash. Qed.
Lemma fl_hrandfield : forall cmd, nice (hrandfield_hash cmd). Proof. flc hrandfield_hash. all: unfold hrandfield_run; fl_cmd; apply fl_random_keys. Qed.
Lemma fl_lindex : forall cmd, nice (lindex_list cmd). Proof. flc lindex_list. Qed.
Lemma fl_llen : forall cmd, nice (llen_list cmd). Proof. flc llen_list. Qed.
Lemma fl_lpos : forall cmd, nice (lpos_list cmd). Proof. flc lpos_list. Qed.
Lemma fl_lrange : forall cmd, nice (lrange_list cmd). Proof. flc lrange_list. Qed.
Lemma fl_scard : forall cmd, nice (scard_set cmd). Proof. flc scard_set. Qed.
Lemma fl_sismember : forall cmd, nice (sismember_set cmd). Proof. flc sismember_set. Qed.
Lemma fl_smembers : forall cmd, nice (smembers_set cmd). Proof. flc smembers_set. Qed.
Lemma fl_srandmember : forall cmd, nice (srandmember_set cmd). Proof. flc srandmember_set. all: unfold srandmember_run; fl_cmd; apply fl_random_keys. Qed.
End Cmds2.

(** ** The commands that write containers *)
Section Cmds3.
Context {P : Setup}.
Lemma len_hash h : (hash_len h =? 0) = false -> hollow (VHash h) = false.
Proof. intros H. apply Z.eqb_neq in H. cbn. apply bool_decide_eq_false. intros ->. apply H. unfold hash_len. rewrite map_size_empty. reflexivity. Qed.
Lemma len_list l : (zlen l =? 0) = false -> hollow (VList l) = false.
Proof. intros H. apply Z.eqb_neq in H. cbn. apply bool_decide_eq_false. intros ->. apply H. reflexivity. Qed.
Lemma len_set s : (set_len s =? 0) = false -> hollow (VSet s) = false.
Proof. intros H. apply Z.eqb_neq in H. cbn. apply bool_decide_eq_false. intros ->. apply H. unfold set_len. rewrite size_empty. reflexivity. Qed.
Lemma ins_hash (h : hash) f v : hollow (VHash (<[f := v]> h)) = false.
Proof. cbn. apply bool_decide_eq_false. apply insert_non_empty. Qed.
Lemma hset_solid n : forall l h k h', (length l < n)%nat -> hset_all h l = Some (k, h') -> l <> [] \/ h <> ∅ -> h' <> ∅.
Proof.
  induction n as [|n IH]; [lia|]. intros [|a [|b r]] h k h' Hl H Hne; cbn in H; [injection H as <- <-; destruct Hne; congruence|discriminate|].
  destruct (hset_all (<[str a:=b]> h) r) as [[y h2]|] eqn:E; [|discriminate]. injection H as <- <-. eapply IH; [|exact E|right; apply insert_non_empty]. cbn in Hl. lia.
Qed.
Lemma sadd_mono l : forall s, s ⊆ (sadd_all s l).2.
Proof.
  induction l as [|x r IH]; intros s; cbn; [set_solver|]. unfold set_add. destruct (bool_decide (str x ∈ s)) eqn:E.
  - specialize (IH s). destruct (sadd_all s r). exact IH.
  - specialize (IH ({[str x]} ∪ s)). destruct (sadd_all ({[str x]} ∪ s) r). cbn in *. set_solver.
Qed.
Lemma sadd_solid x l s : hollow (VSet (sadd_all s (x :: l)).2) = false.
Proof.
  cbn. apply bool_decide_eq_false. unfold set_add. destruct (bool_decide (str x ∈ s)) eqn:E.
  - apply bool_decide_eq_true in E. pose proof (sadd_mono l s). destruct (sadd_all s l). cbn in *. set_solver.
  - pose proof (sadd_mono l ({[str x]} ∪ s)). destruct (sadd_all ({[str x]} ∪ s) l). cbn in *. set_solver.
Qed.
Ltac rets := repeat fl_step.
Section C.
Variable c : bool.
Notation nice := (top c).
Lemma fl_hdel : forall cmd, nice (hdel_hash cmd).
Proof.
  intros cmd. unfold hdel_hash. destruct cmd as [|? [|k [|f fs]]]; try apply tp_ret. cbv zeta. apply tp_bind; [apply tp_purge|]. intros [|]; [apply tp_ret|]. apply tp_lock. apply bd_get_bind; [in_locks|].
  intros [[]|] Hx; try (apply kn_body; rets; fail). destruct (hdel_all h (f :: fs)) as [n h']. apply kn_put. apply ow_drop; [in_locks|apply len_hash|apply bd_ret].
Qed.
Lemma fl_hset_common : forall cmd f, nice (hset_common cmd f).
Proof.
  intros cmd f. unfold hset_common. destruct cmd as [|n [|k [|x [|y r]]]]; try apply tp_ret. destruct (Nat.odd _) eqn:E; [apply tp_ret|].
  assert (He : Nat.even (length (x :: y :: r)) = true) by (rewrite <- Nat.negb_odd; change (Nat.odd (length (x :: y :: r)) = false) in E; rewrite E; reflexivity).
  cbv zeta. apply tp_bind; [apply tp_purge|]. intros _. apply tp_lock. apply bd_get_bind; [in_locks|].
  assert (HH : forall h, exists m h', hset_all h (x :: y :: r) = Some (m, h') /\ hollow (VHash h') = false).
  { intros h0. pose proof (hset_all_even (S (length (x :: y :: r))) (x :: y :: r) h0 ltac:(lia) He) as Hn. pose proof (hset_solid (S (length (x :: y :: r))) (x :: y :: r) h0) as Hs.
    destruct (hset_all h0 (x :: y :: r)) as [[m h']|]; [|congruence]. exists m, h'. split; [reflexivity|]. apply bool_decide_eq_false. eapply Hs; [lia|reflexivity|left; discriminate]. }
  intros [[]|] Hx; try (apply kn_body; rets; fail).
  - apply kn_body. destruct (HH h) as (m & h' & -> & Hh). rets. exact Hh.
  - apply kn_body. apply bd_create; [in_locks|]. destruct (HH ∅) as (m & h' & -> & Hh). apply ow_put; [exact Hh|]. rets.
Qed.
Lemma fl_hmset : forall cmd, nice (hmset_hash cmd). Proof. intros. apply fl_hset_common. Qed.
Lemma fl_hset : forall cmd, nice (hset_hash cmd). Proof. intros. apply fl_hset_common. Qed.
Lemma fl_hsetnx : forall cmd, nice (hsetnx_hash cmd).
Proof.
  intros cmd. unfold hsetnx_hash. destruct cmd as [|? [|k [|f [|v []]]]]; try apply tp_ret. cbv zeta. apply tp_bind; [apply tp_purge|]. intros _. apply tp_lock. apply bd_bind; [apply bd_get|].
  intros [|]; [apply bd_ret|]. apply bd_create; [in_locks|]. apply ow_put; [apply ins_hash|apply bd_ret].
Qed.
Lemma fl_hincrby : forall cmd, (forall a, cmd !! 3%nat = Some a -> atoi (str a) <> None) -> nice (hincrby_hash cmd).
Proof.
  intros cmd H. unfold hincrby_hash. destruct cmd as [|? [|k [|f [|d []]]]]; try apply tp_ret. cbv zeta. apply tp_bind; [apply tp_purge|]. intros _. apply tp_lock. apply bd_get_bind; [in_locks|].
  specialize (H d eq_refl). destruct (atoi (str d)) as [i|]; [|congruence]. intros [[]|] Hx; try (apply kn_body; rets; fail).
  - apply kn_body. unfold hash_incrby. destruct (hash_get h (str f)) as [s|]; [destruct (atoi s)|]; rets; apply ins_hash.
  - apply kn_body. apply bd_create; [in_locks|]. unfold hash_incrby, hash_get. rewrite lookup_empty. apply ow_put; [apply ins_hash|apply bd_ret].
Qed.
Lemma fl_hincrbyfloat : forall cmd, (forall a, cmd !! 3%nat = Some a -> parse_float (str a) <> None) -> nice (hincrbyfloat_hash cmd).
Proof.
  intros cmd H. unfold hincrbyfloat_hash. destruct cmd as [|? [|k [|f [|d []]]]]; try apply tp_ret. cbv zeta. apply tp_bind; [apply tp_purge|]. intros _. apply tp_lock. apply bd_get_bind; [in_locks|].
  specialize (H d eq_refl). destruct (parse_float (str d)) as [i|]; [|congruence]. intros [[]|] Hx; try (apply kn_body; rets; fail).
  - apply kn_body. unfold hash_incrbyfloat. destruct (hash_get h (str f)) as [s|]; [destruct (parse_float s)|]; rets; apply ins_hash.
  - apply kn_body. apply bd_create; [in_locks|]. unfold hash_incrbyfloat, hash_get. rewrite lookup_empty. apply ow_put; [apply ins_hash|apply bd_ret].
Qed.
Lemma fl_list_update key gone f : (forall l, hollow (VList l) = false -> knowing c [lockpos key] key (Some (VList l)) (f l)) -> nice (list_update key gone f).
Proof. intros H. unfold list_update. apply tp_lock. apply bd_get_bind; [in_locks|]. intros [[]|] Hx; try (apply kn_body; rets; fail). apply H. apply Hx. reflexivity. Qed.
Lemma kn_put_drop {A : Type} key w l (p : prog A) : body c [lockpos key] p -> knowing c [lockpos key] key (Some w) (obj_put key (VList l) ;;; drop_if_empty key l ;;; p).
Proof. intros H. apply kn_put. apply ow_drop; [in_locks|apply len_list|exact H]. Qed.
Lemma fl_linsert : forall cmd, nice (linsert_list cmd).
Proof.
  intros cmd. unfold linsert_list. destruct cmd as [|? [|k [|w [|p [|v []]]]]]; try apply tp_ret. cbv zeta. apply tp_bind; [apply tp_purge|]. intros [|]; [apply tp_ret|]. destruct (_ && _); [apply tp_ret|].
  apply fl_list_update. intros l Hl. apply kn_body.
  assert (HH : forall g : val -> list val, (forall x, g x <> []) -> hollow (VList (concat (map g l))) = false).
  { intros g Hg. cbn in *. apply bool_decide_eq_false. destruct l as [|x l]; [discriminate|]. cbn. intros E. apply app_eq_nil in E as [E _]. exact (Hg _ E). }
  destruct (beq _ (B "before")); unfold list_insert_before, list_insert_after.
  - destruct (existsb _ _); rets. apply HH. intros x. destruct (veq x p); discriminate.
  - destruct (_ && _); rets. apply HH. intros x. destruct (veq x p); discriminate.
Qed.
Lemma fl_pop left : forall cmd, nice (pop_list left cmd).
Proof.
  assert (HR : forall k n, nice (pop_run left k n)).
  { intros k n. unfold pop_run. cbv zeta. apply tp_bind; [apply tp_purge|]. intros [|]; [apply tp_ret|]. destruct n as [n|]; [|apply tp_ret]. apply fl_list_update. intros l Hl. destruct (n =? 1).
    - assert (HE : exists x l', (if left then pop_left l else pop_right l) = Some (x, l')).
      { cbn in Hl. apply bool_decide_eq_false in Hl. destruct left; [destruct l; [congruence|eexists _, _; reflexivity]|]. unfold pop_right. destruct (rev l) eqn:E; [|eexists _, _; reflexivity].
        exfalso. apply Hl. rewrite <- (rev_involutive l), E. reflexivity. }
      destruct HE as (x & l' & ->). apply kn_put_drop. rets.
    - cbv zeta. destruct (if left then _ else _) as [out l']. apply kn_put_drop. rets. }
  intros [|? [|k [|n [|]]]]; cbn [pop_list]; auto using tp_ret.
Qed.
Lemma push_solid left l x xs : hollow (VList (push_all left l (x :: xs))) = false.
Proof. cbn. apply bool_decide_eq_false. unfold push_all. destruct left; cbn; intros E; destruct l; try discriminate; apply (f_equal length) in E; rewrite ?app_length in E; cbn in E; lia. Qed.
Lemma fl_push left : forall cmd, nice (push_list left cmd).
Proof.
  intros cmd. unfold push_list. destruct cmd as [|? [|k [|x xs]]]; try apply tp_ret. cbv zeta. apply tp_bind; [apply tp_purge|]. intros _. apply tp_lock. apply bd_get_bind; [in_locks|].
  intros [[]|] Hx; try (apply kn_body; rets; fail); [apply kn_body; rets; apply push_solid|]. apply kn_body. apply bd_create; [in_locks|]. apply ow_put; [apply push_solid|apply bd_ret].
Qed.
Lemma fl_pushx left : forall cmd, nice (pushx_list left cmd).
Proof.
  intros cmd. unfold pushx_list. destruct cmd as [|? [|k [|x xs]]]; try apply tp_ret. cbv zeta. apply tp_bind; [apply tp_purge|]. intros [|]; [apply tp_ret|]. apply fl_list_update. intros l Hl. apply kn_body. rets. apply push_solid.
Qed.
Lemma fl_lrem : forall cmd, nice (lrem_list cmd).
Proof.
  intros cmd. unfold lrem_list. destruct cmd as [|? [|k [|n [|el []]]]]; try apply tp_ret. cbv zeta. apply tp_bind; [apply tp_purge|]. intros [|]; [apply tp_ret|]. destruct (atoi (str n)); [|apply tp_ret].
  apply fl_list_update. intros l Hl. destruct (list_rem l el z) as [m l']. apply kn_put_drop. rets.
Qed.
(** LTRIM cannot meet the case in which it panics. *)
Lemma fl_ltrim : forall cmd, nice (ltrim_list cmd).
Proof.
  intros cmd. unfold ltrim_list. destruct cmd as [|? [|k [|a [|b []]]]]; try apply tp_ret. cbv zeta. apply tp_bind; [apply tp_purge|]. intros [|]; [apply tp_ret|]. destruct (atoi (str a)); [|apply tp_ret]. destruct (atoi (str b)); [|apply tp_ret].
  apply fl_list_update. intros l Hl. unfold list_trim. destruct (zlen l =? 0) eqn:E; cbn [andb].
  - exfalso. apply Z.eqb_eq in E. cbn in Hl. apply bool_decide_eq_false in Hl. destruct l; [congruence|]. unfold zlen in E. cbn in E. lia.
  - apply kn_put_drop. rets.
Qed.
Lemma fl_rename : forall cmd, nice (rename_key cmd).
Proof.
  intros cmd. unfold rename_key. destruct cmd as [|? [|a [|b []]]]; try apply tp_ret. cbv zeta. apply tp_bind; [apply tp_purge|]. intros [|]; [apply tp_ret|]. apply tp_mlock; [discriminate|]. intros L HL. apply bd_get_bind; [in_locks|].
  intros [w|] Hx; apply kn_body; [|apply bd_ret]. rets. apply Hx. reflexivity.
Qed.
Lemma fl_sadd : forall cmd, nice (sadd_set cmd).
Proof.
  intros cmd. unfold sadd_set. destruct cmd as [|? [|k [|x xs]]]; try apply tp_ret. cbv zeta. apply tp_bind; [apply tp_purge|]. intros _. apply tp_lock. apply bd_get_bind; [in_locks|].
  pose proof (sadd_solid x xs) as Hs. intros [[]|] Hx; try (apply kn_body; rets; fail).
  - apply kn_body. specialize (Hs s). destruct (sadd_all s (x :: xs)). rets. exact Hs.
  - apply kn_body. specialize (Hs ∅). destruct (sadd_all ∅ (x :: xs)). apply bd_create; [in_locks|]. apply ow_put; [exact Hs|apply bd_ret].
Qed.
Lemma fl_spop : forall cmd, nice (spop_set cmd).
Proof.
  assert (HK : forall L K s, full c (fun L' K' _ => L' = L /\ K' = K) L K (set_pop s)).
  { intros L K s. unfold set_pop. cbn [full]. intros [|x l] _; cbn; auto. }
  assert (HM : forall L K n s, full c (fun L' K' _ => L' = L /\ K' = K) L K (pop_many n s)).
  { intros L K n. induction n as [|n IH]; intros s; cbn [pop_many]; [cbn; auto|]. eapply full_bind; [apply HK|]. intros L' K' a [-> ->]. eapply full_bind; [apply IH|]. intros L' K' a' [-> ->]. cbn. auto. }
  assert (HR : forall k n, nice (spop_run k n)).
  { intros k n. unfold spop_run. cbv zeta. apply tp_lock. apply bd_get_bind; [in_locks|]. intros [[]|] Hx; try (apply kn_body; rets; fail). destruct n as [n|]; intros K Hset HKk.
    - eapply full_bind; [apply HM|]. intros L' K' q [-> ->]. revert K Hset HKk. apply kn_put. apply ow_drop; [in_locks|apply len_set|apply bd_ret].
    - eapply full_bind; [apply HK|]. intros L' K' q [-> ->]. revert K Hset HKk. apply kn_put. apply ow_drop; [in_locks|apply len_set|apply bd_ret]. }
  intros cmd. unfold spop_set. destruct cmd as [|? [|k [|n []]]]; try apply tp_ret; (apply tp_bind; [apply tp_purge|]); intros [|]; try apply tp_ret; auto. destruct (atoi _); [|apply tp_ret]. destruct (_ <=? _); [apply tp_ret|auto].
Qed.
End C.
Lemma fl_lset : forall cmd, top true (lset_list cmd).
Proof.
  intros cmd. unfold lset_list. destruct cmd as [|? [|k [|i [|v []]]]]; try apply tp_ret. cbv zeta. apply tp_bind; [apply tp_purge|]. intros [|]; [apply tp_ret|]. destruct (atoi (str i)); [|apply tp_ret].
  apply fl_list_update. intros l Hl. destruct (list_index l z); apply kn_body; rets. cbn in *. apply bool_decide_eq_false. apply bool_decide_eq_false in Hl. intros E. apply Hl. apply (f_equal length) in E. rewrite insert_length in E. destruct l; [auto|discriminate].
Qed.
Lemma fl_setop op : forall cmd, top true (setop_set op cmd).
Proof.
  intros cmd. unfold setop_set. destruct cmd as [|? [|k r]]; try apply tp_ret. apply tp_bind; [apply fl_live_keys|]. intros [|k0 ks]; [|apply tp_mlock; [discriminate|]].
  - unfold with_mlock, mlock, munlock, top. replace (sorted_locks []) with (@nil N) by reflexivity. cbn. reflexivity.
  - intros L HL. fl_cmd. all: apply fl_read_sets.
Qed.
Lemma fl_smove : forall cmd, top true (smove_set cmd).
Proof.
  intros cmd. unfold smove_set. destruct cmd as [|? [|a [|b [|m []]]]]; try apply tp_ret. cbv zeta. apply tp_bind; [apply tp_purge|]. intros [|]; [apply tp_ret|]. apply tp_bind; [apply tp_purge|]. intros [|]; [apply tp_ret|].
  apply tp_mlock; [discriminate|]. intros L HL. assert (Hs : lockpos (str a) ∈ L) by in_locks. assert (Hd : lockpos (str b) ∈ L) by in_locks. apply bd_get_bind; [exact Hs|]. intros [[?|?|?|s]|] Hx; try (apply kn_body; rets; fail).
  set (rest := fun r : rdata => s' <- dict_get (str a) ;; match s' with Some (VSet s') => sdrop_if_empty (str a) s' | _ => Ret tt end ;;; Ret r).
  assert (Hlast : forall r, body true L (rest r)).
  { intros r. unfold rest, sdrop_if_empty. rets. }
  assert (How : forall r s0, owing true L (str a) (VSet s0) (rest r)).
  { intros r s0 K HK E. unfold rest. cbn [dict_get pbind full]. intros x H1 _. rewrite (H1 _ E). unfold learn. rewrite decide_True by exact Hs. rewrite insert_id by exact E. revert K HK E H1. intros K HK E _. revert K HK E. apply ow_drop; [exact Hs|apply len_set|apply bd_ret]. }
  intros K HK E. cbn [pbind dict_get full]. intros dv H1 H2. unfold learn. rewrite decide_True by exact Hd.
  assert (Hsol : solid dv) by (destruct (K !! str b) as [y|] eqn:Eb; [rewrite (H1 y eq_refl); eapply HK; eauto|auto]).
  assert (HK' : settled (<[str b := dv]> K)) by (apply settled_set; auto).
  assert (Ea : <[str b := dv]> K !! str a = Some (Some (VSet s))).
  { destruct (decide (str b = str a)) as [Eq|Hn]; [rewrite Eq in *; rewrite lookup_insert, (H1 _ E); reflexivity|rewrite lookup_insert_ne by auto; exact E]. }
  destruct dv as [[?|?|?|ds]|]; try (cbn [pbind]; apply Hlast; exact HK').
  destruct (bool_decide (str m ∈ s)) eqn:Em; [|cbn [pbind]; apply Hlast; exact HK'].
  cbn [obj_put pbind dict_get full]. split; [left; eauto|]. rewrite (alter_insert _ _ _ _ Ea).
  intros d Hd1 Hd2. unfold learn. rewrite decide_True by exact Hd.
  destruct d as [[?|?|?|ds']|]; try exact eq_refl. cbn [obj_put pbind full].
  assert (Hadd : forall z : gset bytes, hollow (VSet (set_add z (str m)).2) = false).
  { intros z. cbn. apply bool_decide_eq_false. unfold set_add. destruct (bool_decide (str m ∈ z)) eqn:Ez; cbn; [apply bool_decide_eq_true in Ez|]; set_solver. }
  split; [right; apply Hadd|]. rewrite (alter_insert _ _ _ (VSet ds')) by apply lookup_insert. rewrite insert_insert. fold (rest (RInt 1)).
  destruct (decide (str b = str a)) as [Eq|Hn].
  - apply Hlast. rewrite Eq. rewrite !insert_insert. apply settled_set; [exact HK|]. apply solid_some. apply Hadd.
  - apply (How _ (set_rem s (str m)).2).
    + rewrite delete_insert_ne by auto. apply settled_set; [|apply solid_some; apply Hadd]. rewrite delete_insert_delete. apply settled_sub. exact HK'.
    + rewrite lookup_insert_ne by auto. apply lookup_insert.
Qed.
End Cmds3.
