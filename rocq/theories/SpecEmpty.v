(** Specification vocabulary: empty containers and the commands that leave them behind. *)
From Verif Require Export Spec Seq.

(** A hash, list or set with nothing in it. *)
Definition hollow (v : value) : bool :=
  match v with VHash h => bool_decide (h = ∅) | VList l => bool_decide (l = []) | VSet s => bool_decide (s = ∅) | VStr _ => false end.
Definition no_hollow (d : db) : Prop := forall key v, dict d !! key = Some v -> hollow v = false.

Section WithParams.
Context {P : Setup}.
(** SREM, SINTERSTORE, SDIFFSTORE, SUNIONSTORE and LMOVE; HINCRBY and HINCRBYFLOAT with an increment that is no number. *)
Definition may_empty (cmd : command) : Prop :=
  match cmd with
  | [] => False
  | n :: _ =>
      (exists s, In s ["srem"; "sinterstore"; "sdiffstore"; "sunionstore"; "lmove"]%string /\ named n s) \/
      (named n "hincrby" /\ exists a, cmd !! 3%nat = Some a /\ atoi (str a) = None) \/
      (named n "hincrbyfloat" /\ exists a, cmd !! 3%nat = Some a /\ parse_float (str a) = None)
  end.
(** Where no container is empty: LTRIM always answers, HRANDFIELD and SRANDMEMBER with a count of absolute value up to 2^43. *)
Definition calm_when_full (cmd : command) : Prop :=
  match cmd with
  | [] => False
  | n :: _ => named n "ltrim" \/
      ((named n "hrandfield" \/ named n "srandmember") /\ forall a c, cmd !! 2%nat = Some a -> atoi (str a) = Some c -> Z.abs c <= 2 ^ 43)
  end.
(** States reached from the empty database without the commands of [may_empty], the clock being arbitrary at every reading. *)
Inductive tidy_reachable : db -> Prop :=
| tidy_init : tidy_reachable empty_db
| tidy_step d cmd r d' : tidy_reachable d -> ~ may_empty cmd -> runs (fun _ => True) d (exec_in_db cmd) (Done r d') -> tidy_reachable d'.
End WithParams.
