(** Concrete histories for the examples. *)
From Verif Require Export Demo SpecGeneric.
#[local] Existing Instance demo_setup.

Fixpoint play (t : Z) (d : db) (l : list (Z * list string)) : option (list (Z * command * rdata) * db) :=
  match l with
  | [] => Some ([], d)
  | (t1, c) :: r =>
      if t <=? t1 then
        match run t1 d (exec_in_db (C c)) with
        | Done a d1 => match play t1 d1 r with Some (h, d') => Some ((t1, C c, a) :: h, d') | None => None end
        | _ => None
        end
      else None
  end.
Lemma play_hist l : forall t d h d', play t d l = Some (h, d') ->
  hist t d h d' /\ map fst h = map (fun p => (p.1, C p.2)) l.
Proof.
  induction l as [|[t1 c] l IH]; intros t d h d' H; cbn [play] in H.
  - injection H as <- <-. split; [constructor|reflexivity].
  - destruct (Z.leb_spec t t1); [|discriminate]. pose proof (run_runs t1 d (exec_in_db (C c))) as R.
    destruct (run t1 d (exec_in_db (C c))) as [a d1| |]; try discriminate.
    destruct (play t1 d1 l) as [[h1 d1']|] eqn:E; [|discriminate]. injection H as <- <-.
    apply IH in E as [Hh Hm]. split; [econstructor; eauto|]. cbn. f_equal. exact Hm.
Qed.
(** The history [l] can be played from [d], with the replies [rs], and then the command answers [r] at time [u]. *)
Definition plays (t : Z) (d : db) (l : list (Z * list string)) (rs : list rdata)
  (u : Z) (cmd : list string) (r : rdata) (k : string) (e : entry) : Prop :=
  exists h d', hist t d h d' /\ map fst h = map (fun p => (p.1, C p.2)) l /\ map snd h = rs /\ demo_does u d' cmd r k e.
Lemma run_plays t d l rs u cmd r k e :
  match play t d l with
  | Some (h, d') => bool_decide (map snd h = rs) && bool_decide (answer u d' cmd k = Some (r, e))
  | None => false end = true -> plays t d l rs u cmd r k e.
Proof.
  unfold plays. destruct (play t d l) as [[h d']|] eqn:E; [|discriminate]. intros H. apply andb_true_iff in H as [H1 H2].
  apply play_hist in E as [Hh Hm]. exists h, d'. split; auto. split; auto. split; [apply bool_decide_eq_true in H1; auto|].
  apply answer_does; auto.
Qed.
Ltac plays := apply run_plays; vm_compute; reflexivity.
