(** A concrete configuration and a concrete database for the examples beside the theorems. *)
From Verif Require Export Spec Wp.

(** Replies and values can be compared by computation. *)
#[export] Instance rdata_eq_dec : EqDecision rdata.
Proof.
  refine (fix go (x y : rdata) {struct x} : Decision (x = y) :=
    match x, y with
    | RStr a, RStr b => cast_if (decide (a = b))
    | RErr a, RErr b => cast_if (decide (a = b))
    | RInt a, RInt b => cast_if (decide (a = b))
    | RBulk a, RBulk b => cast_if (decide (a = b))
    | RArr None, RArr None => left eq_refl
    | RArr (Some l), RArr (Some m) =>
        cast_if ((fix gol (l m : list rdata) {struct l} : Decision (l = m) :=
          match l, m with
          | [], [] => left eq_refl
          | a :: l', b :: m' => cast_if_and (go a b) (gol l' m')
          | _, _ => right _
          end) l m)
    | RNil, RNil => left eq_refl
    | _, _ => right _
    end); congruence.
Defined.
#[export] Instance value_eq_dec : EqDecision value.
Proof. solve_decision. Defined.

(** Four segments; integers play the part of floating point numbers. *)
Definition demo_setup : Setup :=
  {| segnum := 4; float := Z; parse_float := atoi; add_float := Z.add; fmt_float := fmt_int |}.
#[local] Existing Instance demo_setup.

(** A command written as words. *)
Definition C (l : list string) : command := map (fun s => Some (B s)) l.

(** The database after a list of commands at time [now]; None if one crashes or hangs. *)
Fixpoint after (now : Z) (d : db) (l : list (list string)) : option db :=
  match l with
  | [] => Some d
  | c :: r => match run now d (exec_in_db (C c)) with
              | Done _ d' => after now d' r
              | _ => None
              end
  end.
(** All the replies. *)
Fixpoint replies (now : Z) (d : db) (l : list (list string)) : list (outcome rdata) :=
  match l with
  | [] => []
  | c :: r => match run now d (exec_in_db (C c)) with
              | Done a d' => Done a empty_db :: replies now d' r
              | Crashes _ => [Crashes empty_db]
              | Hangs _ => [Hangs empty_db]
              end
  end.
Definition says (r : rdata) : outcome rdata := Done r empty_db.

Definition demo : db :=
  default empty_db (after 10 empty_db
    [ ["set"; "s"; "hello"]; ["setex"; "n"; "190"; "41"]; ["setex"; "old"; "40"; "gone"];
      ["hset"; "h"; "a"; "1"; "b"; "x"]; ["rpush"; "l"; "a"; "b"; "c"; "b"];
      ["sadd"; "t"; "x"; "y"; "z"]; ["sadd"; "u"; "y"; "w"]; ["mset"; "f"; "7"] ]%string).

(** [demo_does now d cmd r k e]: the command answers [r] and leaves [e] visible under [k]. *)
Definition demo_does (now : Z) (d : db) (cmd : list string) (r : rdata) (k : string) (e : entry) : Prop :=
  exists d', step now d (C cmd) (Done r d') /\ view now d' (B k) = e.
Definition answer (now : Z) (d : db) (cmd : list string) (k : string) : option (rdata * entry) :=
  match run now d (exec_in_db (C cmd)) with
  | Done r d' => Some (r, view now d' (B k))
  | _ => None
  end.
Lemma answer_does now d cmd r k e : bool_decide (answer now d cmd k = Some (r, e)) = true -> demo_does now d cmd r k e.
Proof.
  intros H%bool_decide_eq_true. revert H. unfold answer, demo_does. intros H. pose proof (run_runs now d (exec_in_db (C cmd))) as R.
  destruct (run now d (exec_in_db (C cmd))) as [r0 d'| |]; inversion H; subst. exists d'; split; auto.
Qed.
(** [demo_ends now d cmd out]: the command crashes or hangs. *)
Definition dies (now : Z) (d : db) (cmd : list string) : Prop := exists d', step now d (C cmd) (Crashes d').
Definition hangs (now : Z) (d : db) (cmd : list string) : Prop := exists d', step now d (C cmd) (Hangs d').
Lemma run_dies now d cmd :
  (match run now d (exec_in_db (C cmd)) with Crashes _ => true | _ => false end) = true -> dies now d cmd.
Proof.
  unfold dies. intros H. pose proof (run_runs now d (exec_in_db (C cmd))) as R.
  destruct (run now d (exec_in_db (C cmd))); try discriminate. eauto.
Qed.
Lemma run_hangs now d cmd :
  (match run now d (exec_in_db (C cmd)) with Hangs _ => true | _ => false end) = true -> hangs now d cmd.
Proof.
  unfold hangs. intros H. pose proof (run_runs now d (exec_in_db (C cmd))) as R.
  destruct (run now d (exec_in_db (C cmd))); try discriminate. eauto.
Qed.
Ltac demo := first [apply answer_does | apply run_dies | apply run_hangs]; vm_compute; reflexivity.

(** The example database is well formed. *)
Lemma demo_inv : Inv demo.
Proof.
  split; [|vm_compute; reflexivity].
  assert (H : map_Forall (fun k _ => is_Some (dict demo !! k)) (exps demo)).
  { apply (bool_decide_unpack _). vm_compute. exact I. }
  intros k [t Ht]. exact (H k t Ht).
Qed.

Example demo_shows :
  demo_does 100 demo ["getrange"; "s"; "1"; "3"] (RBulk (Some (B "ell"))) "s" (Some (VStr (Some (B "hello")), None)) /\
  demo_does 100 demo ["hset"; "h"; "a"; "2"] (RInt 0) "h"
    (Some (VHash {[B "a" := Some (B "2"); B "b" := Some (B "x")]}, None)) /\
  demo_does 100 demo ["sadd"; "t"; "a"] (RInt 1) "t" (Some (VSet {[B "a"; B "x"; B "y"; B "z"]}, None)) /\
  demo_does 100 demo ["ttl"; "old"] (RInt (-2)) "old" None.
Proof. repeat split; demo. Qed.

(** Shorthands for the examples. *)
Definition bulk (s : string) : rdata := RBulk (Some (B s)).
Definition estr (s : string) (dl : option Z) : entry := Some (VStr (Some (B s)), dl).
Definition elist (l : list string) (dl : option Z) : entry := Some (VList (map (fun s => Some (B s)) l), dl).
Definition eset (l : list string) (dl : option Z) : entry := Some (VSet (list_to_set (map B l)), dl).
Definition ehash (l : list (string * string)) (dl : option Z) : entry :=
  Some (VHash (list_to_map (map (fun p => (B p.1, Some (B p.2))) l)), dl).

(** After the commands of [l], the command crashes / answers. *)
Definition then_dies (now : Z) (d : db) (l : list (list string)) (cmd : list string) : Prop :=
  exists d', after now d l = Some d' /\ dies now d' cmd.
Definition then_does (now : Z) (d : db) (l : list (list string)) (cmd : list string) (r : rdata) (k : string) (e : entry) : Prop :=
  exists d', after now d l = Some d' /\ demo_does now d' cmd r k e.
Lemma run_then_dies now d l cmd :
  (match after now d l with
   | Some d' => match run now d' (exec_in_db (C cmd)) with Crashes _ => true | _ => false end
   | None => false end) = true -> then_dies now d l cmd.
Proof. unfold then_dies. destruct (after now d l) as [d'|]; [|discriminate]. intros H. exists d'. split; auto. apply run_dies; auto. Qed.
Lemma run_then_does now d l cmd r k e :
  (match after now d l with Some d' => bool_decide (answer now d' cmd k = Some (r, e)) | None => false end) = true ->
  then_does now d l cmd r k e.
Proof. unfold then_does. destruct (after now d l) as [d'|]; [|discriminate]. intros H. exists d'. split; auto. apply answer_does; auto. Qed.
Ltac demo ::= first [apply answer_does | apply run_dies | apply run_hangs | apply run_then_dies | apply run_then_does]; vm_compute; reflexivity.
