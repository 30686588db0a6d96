(** Executable schedules, for the concrete executions shown beside the theorems. *)
From Verif Require Export Conc Demo.

Section WithParams.
Context {P : Setup}.

(** One access of a goroutine; the clock shows [now], maps are iterated in the order of [map_to_list]. *)
Definition prim_f {A} (now : Z) (d : db) (p : prog A) : option (db * prog A) :=
  match p with
  | Ret _ | Crash | Acq _ _ _ | Rel _ _ _ => None
  | Hang => Some (d, Hang)
  | Now k => Some (d, k now)
  | Range l k => Some (d, k l)
  | DGet key k => Some (d, k (dict d !! key))
  | DSet key v k => Some (mkDb (<[key := v]> (dict d)) (exps d) (cnt d), k (match dict d !! key with Some _ => false | None => true end))
  | DMut key v k => Some (mkDb (alter (fun _ => v) key (dict d)) (exps d) (cnt d), k)
  | DDel key k => Some (mkDb (delete key (dict d)) (exps d) (cnt d), k (match dict d !! key with Some _ => true | None => false end))
  | DSeg i k => Some (d, k (seg_keys d i))
  | CntLoad k => Some (d, k (cnt d))
  | CntStore c k => Some (mkDb (dict d) (exps d) c, k)
  | EGet key k => Some (d, k (exps d !! key))
  | ESet key t k => Some (mkDb (dict d) (<[key := t]> (exps d)) (cnt d), k)
  | EDel key k => Some (mkDb (dict d) (delete key (exps d)) (cnt d), k (match exps d !! key with Some _ => true | None => false end))
  end.
(** One step of goroutine [i]; None if it cannot take one. *)
Definition cstep_f {A} (now : Z) (i : nat) (c : conf A) : option (conf A) :=
  let 'mkC d L ts := c in
  t ← ts !! i;
  match t with
  | mkT (Acq p MR k) false => match L p with mkRw n false false => Some (mkC d (fupd L p (mkRw (S n) false false)) (<[i := mkT k false]> ts)) | _ => None end
  | mkT (Acq p MW k) false => match L p with mkRw n false false => Some (mkC d (fupd L p (mkRw n false true)) (<[i := mkT (Acq p MW k) true]> ts)) | _ => None end
  | mkT (Acq p MW k) true => match L p with mkRw 0 false true => Some (mkC d (fupd L p (mkRw 0 true false)) (<[i := mkT k false]> ts)) | _ => None end
  | mkT (Rel p MR k) false => match L p with mkRw (S n) false b => Some (mkC d (fupd L p (mkRw n false b)) (<[i := mkT k false]> ts)) | _ => None end
  | mkT (Rel p MW k) false => match L p with mkRw n true b => Some (mkC d (fupd L p (mkRw n false b)) (<[i := mkT k false]> ts)) | _ => None end
  | mkT p false => '(d', p') ← prim_f now d p; Some (mkC d' L (<[i := mkT p' false]> ts))
  | _ => None
  end.
(** A schedule: goroutine [i] takes [n] steps (fewer if it cannot go on), for each pair in turn. *)
Fixpoint go {A} (now : Z) (i n : nat) (c : conf A) : conf A :=
  match n with O => c | S n => match cstep_f now i c with Some c' => go now i n c' | None => c end end.
Definition play {A} (now : Z) (sched : list (nat * nat)) (c : conf A) : conf A :=
  fold_left (fun c '(i, n) => go now i n c) sched c.

Lemma prim_f_ok {A} now d (p : prog A) d' p' : prim_f now d p = Some (d', p') -> prim (eq now) d p d' p'.
Proof. destruct p; cbn; intros H; inversion H; subst; constructor; reflexivity. Qed.
Lemma cstep_f_ok {A} now i (c c' : conf A) : cstep_f now i c = Some c' -> cstep (eq now) c c'.
Proof.
  destruct c as [d L ts]. unfold cstep_f. destruct (ts !! i) as [[p b]|] eqn:E; [|discriminate]. cbn [mbind option_bind].
  assert (Hp : forall x, b = false -> ('(d', p') ← prim_f now d p; Some (mkC d' L (<[i := mkT p' false]> ts))) = Some x -> cstep (eq now) (mkC d L ts) x).
  { intros x -> H. destruct (prim_f now d p) as [[d' p']|] eqn:F; [|discriminate]. injection H as <-. econstructor; [exact E|]. apply prim_f_ok; auto. }
  destruct p; try destruct m; destruct b; try discriminate; intros H; auto.
  all: match goal with E : _ !! _ = Some (mkT (_ ?p _ _) _) |- context [mkC _ ?L _] => destruct (L p) as [[|n] [] []] eqn:F end; try discriminate; injection H as <-;
    first [eapply C_rlock; eauto; fail|eapply C_announce; eauto; fail|eapply C_wlock; eauto; fail|eapply C_runlock; eauto; fail|eapply C_wunlock; eauto; fail].
Qed.
Lemma go_ok {A} now i n (c : conf A) : rtc (cstep (eq now)) c (go now i n c).
Proof.
  revert c. induction n as [|n IH]; intros c; cbn; [reflexivity|]. destruct (cstep_f now i c) as [c'|] eqn:E; [|reflexivity].
  eapply rtc_l; [eapply cstep_f_ok; exact E|apply IH].
Qed.
Lemma play_ok {A} now sched (c : conf A) : rtc (cstep (eq now)) c (play now sched c).
Proof.
  unfold play. revert c. induction sched as [|[i n] sched IH]; intros c; cbn; [reflexivity|].
  etransitivity; [apply go_ok|apply IH].
Qed.
End WithParams.

(** The replies of the goroutines that have returned. *)
Definition answers {A} (c : conf A) : list (option A) := map (fun t => match tcode t with Ret a => Some a | _ => None end) (ths c).
#[local] Existing Instance demo_setup.
(** Clients whose commands are written as words. *)
Definition race (d : db) (cs : list (list (list string))) : conf (list rdata) := clients d (map (map C) cs).
(** [may_end now d cs rs k e]: there is an execution of the clients [cs] on [d], the clock showing [now], after which each client
    has received the replies in [rs] and the database shows [e] under [k]. *)
Definition may_end (now : Z) (d : db) (cs : list (list (list string))) (rs : list (list rdata)) (k : string) (e : entry) : Prop :=
  exists c, rtc (cstep (eq now)) (race d cs) c /\ map tcode (ths c) = map Ret rs /\ view now (cdb c) (B k) = e.
Lemma play_ends sched now d cs rs k e :
  (let c := play now sched (race d cs) in bool_decide (answers c = map Some rs) && bool_decide (view now (cdb c) (B k) = e)) = true ->
  may_end now d cs rs k e.
Proof.
  cbn zeta. intros [H1%bool_decide_eq_true H2%bool_decide_eq_true]%andb_true_iff. exists (play now sched (race d cs)).
  split; [apply play_ok|]. split; auto. revert H1. clear. unfold answers. generalize (ths (play now sched (race d cs))). intros ts. revert rs.
  induction ts as [|[p b] ts IH]; intros [|r rs] H; try discriminate; auto. cbn in *. destruct p; try discriminate. injection H as -> H. f_equal. auto.
Qed.
(** [may_die now d cs]: there is an execution in which a client's command dies. *)
Definition may_die (now : Z) (d : db) (cs : list (list (list string))) : Prop :=
  exists c t, rtc (cstep (eq now)) (race d cs) c /\ t ∈ ths c /\ tcode t = Crash.
Lemma play_dies sched now d cs :
  existsb (fun t => match tcode t with Crash => true | _ => false end) (ths (play now sched (race d cs))) = true -> may_die now d cs.
Proof.
  intros H. apply existsb_exists in H as (t & Ht & Hc). exists (play now sched (race d cs)), t.
  split; [apply play_ok|]. split; [apply elem_of_list_In; auto|]. destruct (tcode t); congruence.
Qed.
