(** Executable schedules of Shard.v, for the concrete executions shown beside C79. *)
From Verif Require Export SpecShard Sched.

Section WithParams.
Context {P : Setup}.
(** One step inside a call. *)
Definition inner_f {A} (D : tables) (p : prog A) (o : spot A) : option (tables * spot A) :=
  match p, o with
  | DGet key k, Entered => Some (D, Exiting (k (dt D (segpos key) !! key)))
  | DSet key v k, Entered => Some (D, match dt D (segpos key) !! key with None => Adding (k true) | Some _ => Replacing end)
  | DSet key v k, Adding (CntLoad kc) => Some (D, Adding (kc (ct D)))
  | DSet key v k, Adding (CntStore c p) => Some (set_ct D c, Adding p)
  | DSet key v k, Adding p => Some (set_dt D key (insert key v), Exiting p)
  | DSet key v k, Replacing => Some (set_dt D key (insert key v), Exiting (k false))
  | DDel key k, Entered => Some (D, match dt D (segpos key) !! key with None => Exiting (k false) | Some _ => Dropping end)
  | DDel key k, Dropping => Some (set_dt D key (delete key), Counting (k true))
  | DDel key k, Counting (CntLoad kc) => Some (D, Counting (kc (ct D)))
  | DDel key k, Counting (CntStore c p) => Some (set_ct D c, Counting p)
  | DDel key k, Counting p => Some (D, Exiting p)
  | DSeg i k, Entered => Some (D, Exiting (k (map_to_list (dt D i)).*1))
  | EGet key k, Entered => Some (D, Exiting (k (et D (segpos key) !! key)))
  | ESet key t k, Entered => Some (set_et D key (insert key t), Exiting k)
  | EDel key k, Entered => Some (D, match et D (segpos key) !! key with None => Exiting (k false) | Some _ => Dropping end)
  | EDel key k, Dropping => Some (set_et D key (delete key), Exiting (k true))
  | _, _ => None
  end.
Definition free_f {A} (now : Z) (D : tables) (p : prog A) : option (tables * prog A) :=
  match p with
  | Now k => Some (D, k now)
  | Range l k => Some (D, k l)
  | CntLoad k => Some (D, k (ct D))
  | CntStore c k => Some (set_ct D c, k)
  | DMut key v k => Some (set_dt D key (alter (fun _ => v) key), k)
  | _ => None
  end.
(** One step of goroutine [i]; None if it cannot take one. *)
Definition mstep_f {A} (now : Z) (i : nat) (s : sconf A) : option (sconf A) :=
  let 'mkSC D L K ts := s in
  t ← ts !! i;
  match t with
  | mkS (Acq p MR k) false None => match L p with mkRw n false false => Some (mkSC D (fupd L p (mkRw (S n) false false)) K (<[i := mkS k false None]> ts)) | _ => None end
  | mkS (Acq p MW k) false None => match L p with mkRw n false false => Some (mkSC D (fupd L p (mkRw n false true)) K (<[i := mkS (Acq p MW k) true None]> ts)) | _ => None end
  | mkS (Acq p MW k) true None => match L p with mkRw 0 false true => Some (mkSC D (fupd L p (mkRw 0 true false)) K (<[i := mkS k false None]> ts)) | _ => None end
  | mkS (Rel p MR k) false None => match L p with mkRw (S n) false b => Some (mkSC D (fupd L p (mkRw n false b)) K (<[i := mkS k false None]> ts)) | _ => None end
  | mkS (Rel p MW k) false None => match L p with mkRw n true b => Some (mkSC D (fupd L p (mkRw n false b)) K (<[i := mkS k false None]> ts)) | _ => None end
  | mkS p false (Some (Exiting q)) =>
    match needs p with
    | Some (g, MR) => match K g with mkRw (S n) false b => Some (mkSC D L (fput K g (mkRw n false b)) (<[i := mkS q false None]> ts)) | _ => None end
    | Some (g, MW) => match K g with mkRw n true b => Some (mkSC D L (fput K g (mkRw n false b)) (<[i := mkS q false None]> ts)) | _ => None end
    | None => None
    end
  | mkS p false (Some o) => '(D', o') ← inner_f D p o; Some (mkSC D' L K (<[i := mkS p false (Some o')]> ts))
  | mkS p b None =>
    match needs p with
    | Some (g, MR) => match b, K g with false, mkRw n false false => Some (mkSC D L (fput K g (mkRw (S n) false false)) (<[i := mkS p false (Some Entered)]> ts)) | _, _ => None end
    | Some (g, MW) =>
      match b, K g with
      | false, mkRw n false false => Some (mkSC D L (fput K g (mkRw n false true)) (<[i := mkS p true None]> ts))
      | true, mkRw 0 false true => Some (mkSC D L (fput K g (mkRw 0 true false)) (<[i := mkS p false (Some Entered)]> ts))
      | _, _ => None
      end
    | None => match b with false => '(D', p') ← free_f now D p; Some (mkSC D' L K (<[i := mkS p' false None]> ts)) | true => None end
    end
  | _ => None
  end.
(** As [play] in Sched.v. *)
Fixpoint sgo {A} (now : Z) (i n : nat) (s : sconf A) : sconf A :=
  match n with O => s | S n => match mstep_f now i s with Some s' => sgo now i n s' | None => s end end.
Definition splay {A} (now : Z) (sched : list (nat * nat)) (s : sconf A) : sconf A := fold_left (fun s '(i, n) => sgo now i n s) sched s.

(** The segments of a database. *)
Definition tables_from (d : db) : tables :=
  mkTab (fun i => filter (fun kv => segpos kv.1 = i) (dict d)) (fun i => filter (fun kv => segpos kv.1 = i) (exps d)) (cnt d).
Lemma filter_own {X} (m : gmap bytes X) key : filter (fun kv => segpos kv.1 = segpos key) m !! key = m !! key.
Proof. rewrite map_filter_lookup. destruct (m !! key); cbn; auto. rewrite option_guard_True; auto. Qed.
Lemma tables_from_ok d : tables_of (tables_from d) d.
Proof.
  split; [|split; [|split]]; cbn; auto; try (intros key; apply filter_own). intros i key [v H]. apply map_filter_lookup_Some in H as [_ H]. exact H.
Qed.

Lemma inner_f_ok {A} D (p : prog A) o D' o' : inner_f D p o = Some (D', o') -> inner D p o D' o'.
Proof.
  destruct p; try discriminate; destruct o; cbn; try discriminate.
  all: try (intros [= <- <-]; constructor; reflexivity).
  all: try (intros [= <- <-]; match goal with |- context [match ?x with _ => _ end] => destruct x eqn:E end; econstructor; eauto; fail).
  all: destruct p; intros [= <- <-]; constructor; reflexivity.
Qed.
Lemma free_f_ok {A} now D (p : prog A) D' p' : free_f now D p = Some (D', p') -> free_step (eq now) D p D' p'.
Proof. destruct p; cbn; try discriminate; intros [= <- <-]; constructor; reflexivity. Qed.
Lemma mstep_f_ok {A} now i (s s' : sconf A) : mstep_f now i s = Some s' -> mstep (eq now) s s'.
Proof.
  destruct s as [D L K ts]. unfold mstep_f. destruct (ts !! i) as [[p b o]|] eqn:E; [|discriminate]. cbn [mbind option_bind].
  assert (Hin : forall o0 x, o = Some o0 -> b = false -> ('(D', o') ← inner_f D p o0; Some (mkSC D' L K (<[i := mkS p false (Some o')]> ts))) = Some x -> mstep (eq now) (mkSC D L K ts) x).
  { intros o0 x -> -> H. destruct (inner_f D p o0) as [[D' o']|] eqn:F; [|discriminate]. injection H as <-. eapply M_inner; [exact E|]. apply inner_f_ok; auto. }
  assert (Hex : forall q x, o = Some (Exiting q) -> b = false -> match needs p with
    | Some (g, MR) => match K g with mkRw (S n) false b => Some (mkSC D L (fput K g (mkRw n false b)) (<[i := mkS q false None]> ts)) | _ => None end
    | Some (g, MW) => match K g with mkRw n true b => Some (mkSC D L (fput K g (mkRw n false b)) (<[i := mkS q false None]> ts)) | _ => None end
    | None => None end = Some x -> mstep (eq now) (mkSC D L K ts) x).
  { intros q x -> -> H. destruct (needs p) as [[g []]|] eqn:F; [| |discriminate].
    - destruct (K g) as [[|n] [] pe] eqn:G; try discriminate. injection H as <-. eapply M_srunlock; eauto.
    - destruct (K g) as [n [] pe] eqn:G; try discriminate. injection H as <-. eapply M_swunlock; eauto. }
  assert (Hseg : forall g m x, o = None -> needs p = Some (g, m) -> match Some (g, m) with
    | Some (g, MR) => match b, K g with false, mkRw n false false => Some (mkSC D L (fput K g (mkRw (S n) false false)) (<[i := mkS p false (Some Entered)]> ts)) | _, _ => None end
    | Some (g, MW) => match b, K g with
      | false, mkRw n false false => Some (mkSC D L (fput K g (mkRw n false true)) (<[i := mkS p true None]> ts))
      | true, mkRw 0 false true => Some (mkSC D L (fput K g (mkRw 0 true false)) (<[i := mkS p false (Some Entered)]> ts)) | _, _ => None end
    | None => None end = Some x -> mstep (eq now) (mkSC D L K ts) x).
  { intros g m x -> F H. destruct m, b; try discriminate; destruct (K g) as [n [] []] eqn:G; try discriminate; try (destruct n; discriminate).
    - injection H as <-. eapply M_srlock; eauto.
    - destruct n; [|discriminate]. injection H as <-. eapply M_swlock; eauto.
    - injection H as <-. eapply M_sannounce; eauto. }
  assert (Hfr : forall x, o = None -> b = false -> ('(D', p') ← free_f now D p; Some (mkSC D' L K (<[i := mkS p' false None]> ts))) = Some x -> mstep (eq now) (mkSC D L K ts) x).
  { intros x -> -> H. destruct (free_f now D p) as [[D' p']|] eqn:F; [|discriminate]. injection H as <-. eapply M_free; [exact E|]. apply free_f_ok; auto. }
  destruct o as [o|].
  - assert (Hgen : match b, o with false, Exiting q => match needs p with
      | Some (g, MR) => match K g with mkRw (S n) false b => Some (mkSC D L (fput K g (mkRw n false b)) (<[i := mkS q false None]> ts)) | _ => None end
      | Some (g, MW) => match K g with mkRw n true b => Some (mkSC D L (fput K g (mkRw n false b)) (<[i := mkS q false None]> ts)) | _ => None end
      | None => None end | false, o => '(D', o') ← inner_f D p o; Some (mkSC D' L K (<[i := mkS p false (Some o')]> ts)) | true, _ => None end = Some s' -> mstep (eq now) (mkSC D L K ts) s').
    { destruct b; [discriminate|]. destruct o; eauto. }
    intros H. apply Hgen. rewrite <- H. destruct p; try destruct m; destruct b, o; reflexivity.
  - intros H. destruct p; try (destruct b; [discriminate|]); try (apply Hfr; [reflexivity|reflexivity|exact H]); try (destruct b; eapply Hseg; [reflexivity|reflexivity|exact H|reflexivity|reflexivity|exact H]); try (eapply Hseg; [reflexivity|reflexivity|exact H]); try discriminate.
    all: destruct m; try destruct b; try discriminate; destruct (L pos) as [[|n] [] []] eqn:F; try discriminate; cbn in H; first [injection H as <-|idtac];
      first [eapply M_rlock; eauto; fail|eapply M_announce; eauto; fail|eapply M_wlock; eauto; fail|eapply M_runlock; eauto; fail|eapply M_wunlock; eauto; fail].
Qed.
Lemma sgo_ok {A} now i n (s : sconf A) : rtc (mstep (eq now)) s (sgo now i n s).
Proof.
  revert s. induction n as [|n IH]; intros s; cbn; [reflexivity|]. destruct (mstep_f now i s) as [s'|] eqn:E; [|reflexivity].
  eapply rtc_l; [eapply mstep_f_ok; exact E|apply IH].
Qed.
Lemma splay_ok {A} now sched (s : sconf A) : rtc (mstep (eq now)) s (splay now sched s).
Proof.
  unfold splay. revert s. induction sched as [|[i n] sched IH]; intros s; cbn; [reflexivity|].
  etransitivity; [apply sgo_ok|apply IH].
Qed.
End WithParams.
