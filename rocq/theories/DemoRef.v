(** Concrete histories for the examples beside C74. *)
From Verif Require Export RefDet Demo.
#[local] Existing Instance demo_setup.

(** Run the commands one after the other and compare the replies. *)
Fixpoint talk (d : db) (h : list (Z * list string * rdata)) : option db :=
  match h with
  | [] => Some d
  | (now, c, r) :: h' => match run now d (exec_in_db (C c)) with
                         | Done r' d' => if decide (r' = r) then talk d' h' else None
                         | _ => None
                         end
  end.
Definition written_out (h : list (Z * list string * rdata)) : list (Z * command * rdata) := map (fun x => (fst (fst x), C (snd (fst x)), snd x)) h.
Lemma talk_exchange h : forall d d', talk d h = Some d' -> exchange d (written_out h) d'.
Proof.
  induction h as [|[[now c] r] h IH]; cbn [talk written_out map fst snd]; intros d d' H; [injection H as ->; constructor|].
  destruct (run now d (exec_in_db (C c))) as [r' d1| |] eqn:E; try discriminate. destruct (decide (r' = r)) as [->|]; [|discriminate].
  apply (ex_cons d now (C c) r d1); [|apply IH; exact H]. unfold step. rewrite <- E. apply run_runs.
Qed.
Lemma talked h d : match talk d h with Some _ => true | None => false end = true -> exists d', exchange d (written_out h) d'.
Proof. destruct (talk d h) as [d'|] eqn:E; [|discriminate]. eauto using talk_exchange. Qed.
