(** Executable executions of one connection, for the examples. *)
From Verif Require Export PipeProofs DemoWire.

Inductive lact := Send (piece : bytes) | End (e : stop) | Read | Pass | Exec (r : rdata) | Close (keep : nat).
Definition lact_f (a : lact) (x : link) : option link :=
  let 'mkLink g u f s p h l d := x in
  if d then None else
  match a with
  | Send piece => match f, s with None, false => Some (mkLink (g ++ [piece]) (u ++ [piece]) f s p h l d) | _, _ => None end
  | End e => match f, s with None, false => Some (mkLink g u (Some e) s p h l d) | _, _ => None end
  | Read => match p with
      | PRead b => match read_next x b with
        | Some (PS_more evs b' rest) => Some (mkLink g rest f s (sending evs (Some b')) h l d)
        | Some (PS_close evs) => Some (mkLink g [] f s (sending evs None) h l d)
        | Some PS_crash => Some (mkLink g u f s p h l true)
        | None => None end
      | _ => None end
  | Pass => match p, h with
      | PSend (ev :: evs) nx, HIdle => match receive ev with
        | Some h' => Some (mkLink g u f s (sending evs nx) h' l d)
        | None => Some (mkLink g u f s (sending evs nx) HIdle l true) end
      | _, _ => None end
  | Exec r => match h with HExec (w :: cmd) => Some (mkLink g u f s p HIdle (l ++ [(w :: cmd, r)]) d) | _ => None end
  | Close keep => match h with HClosing e => Some (mkLink g [take keep (concat u)] f true p (HGone e) l d) | _ => None end
  end.
Fixpoint lplay (acts : list lact) (x : link) : option link :=
  match acts with [] => Some x | a :: r => y ← lact_f a x; lplay r y end.
Lemma lact_ok a x y : lact_f a x = Some y -> goes x y.
Proof.
  destruct x as [g u f s p h l d]. cbn [lact_f]. destruct d; [discriminate|]. destruct a as [piece|e| | |r|keep].
  - destruct f; [discriminate|]. destruct s; [discriminate|]. intros [= <-]. left. constructor. auto.
  - destruct f; [discriminate|]. destruct s; [discriminate|]. intros [= <-]. left. constructor.
  - destruct p as [b| |]; try discriminate. destruct (read_next _ b) as [[evs b' rest|evs|]|] eqn:E; [| | |discriminate]; intros [= <-]; right; [eapply L_read|eapply L_eof|eapply L_crash]; eauto.
  - destruct p as [|[|ev evs] nx|]; try discriminate. destruct h; try discriminate. destruct (receive ev) eqn:E; intros [= <-]; right; [eapply L_pass|eapply L_nil]; eauto.
  - destruct h as [|[|w cmd]| |]; try discriminate. intros [= <-]. right. constructor. discriminate.
  - destruct h as [| |e|]; try discriminate. intros [= <-]. right. apply (L_close _ _ _ [drop keep (concat u)]). cbn. rewrite !app_nil_r. symmetry. apply take_drop.
Qed.
Lemma lplay_ok acts x y : lplay acts x = Some y -> rtc goes x y.
Proof.
  revert x. induction acts as [|a acts IH]; intros x; cbn [lplay]; [intros [= <-]; apply rtc_refl|].
  destruct (lact_f a x) as [x1|] eqn:E; [|discriminate]. cbn. intros H. eapply rtc_l; [eapply lact_ok; eauto|auto].
Qed.
Definition rests_f (x : link) : bool :=
  negb (dead x) && match hnd x with HIdle | HGone _ => true | _ => false end &&
  match par x with
  | PRead b => match read_next x b with None => true | _ => false end
  | PSend _ _ => match hnd x with HIdle => false | _ => true end
  | PGone => true end.
Lemma rests_ok x : rests_f x = true -> rests x.
Proof.
  unfold rests_f. intros [[Hd Hh]%andb_prop Hp]%andb_prop. split; [destruct (dead x); [discriminate|auto]|].
  intros y St; inversion St; subst; cbn [hnd par dead] in *; try discriminate; rewrite H in Hp; discriminate.
Qed.
#[local] Instance rerr_dec : EqDecision rerr.
Proof. solve_decision. Defined.
#[local] Instance hstate_dec : EqDecision hstate.
Proof. solve_decision. Defined.
(** The client and the goroutines act as told; then all rest, the handler has returned because of the error [e], and the parser has not and never will. *)
Definition leaks (acts : list lact) (e : rerr) : Prop :=
  exists x, lplay acts opened = Some x /\ rests x /\ hnd x = HGone e /\ par x <> PGone.
Lemma leaks_ok acts e : (match lplay acts opened with
  | Some x => rests_f x && bool_decide (hnd x = HGone e) && match par x with PGone => false | _ => true end
  | None => false end) = true -> leaks acts e.
Proof.
  unfold leaks. destruct (lplay acts opened) as [x|]; [|discriminate]. intros [[H1 H2%bool_decide_eq_true]%andb_prop H3]%andb_prop.
  exists x. split; auto. split; [apply rests_ok; auto|]. split; auto. destruct (par x); try discriminate.
Qed.
