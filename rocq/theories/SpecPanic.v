(** Specification vocabulary: commands that cannot panic. *)
From Verif Require Export Spec SpecGlob.

(** The commands that panic on some arguments in some state. *)
Definition panicking : list string :=
  ["keys"; "set"; "setrange"; "hrandfield"; "lindex"; "lset"; "lmove"; "ltrim"; "srandmember"; "sinter"; "sdiff"; "sunion"]%string.
(** Any other command, or: SET whose last option is not EX or PX; LINDEX and LSET with an index above the least integer; SETRANGE with an offset up to 2^48. *)
Definition panic_free (cmd : command) : Prop :=
  match cmd with
  | [] => False
  | n :: _ =>
      (forall s, In s panicking -> ~ named n s) \/
      (named n "set" /\ forall args a, cmd = args ++ [a] -> (3 <= length args)%nat -> to_lower (str a) <> B "ex" /\ to_lower (str a) <> B "px") \/
      ((named n "lindex" \/ named n "lset") /\ forall i, cmd !! 2%nat = Some i -> atoi (str i) <> Some min_int) \/
      (named n "setrange" /\ forall a o, cmd !! 2%nat = Some a -> atoi (str a) = Some o -> o <= 2 ^ 48)
  end.
(** LINSERT can loop for ever. *)
Definition may_loop (cmd : command) : Prop := match cmd with [] => False | n :: _ => named n "linsert" end.

(** ** Exactly when a command panics, one command at a time
    [S] is what is visible in the database ([view now d]); memory that runs out is not counted. *)

(** The options of SET, read from the left as the server does, end in a bare EX or PX. *)
Inductive dangling : list val -> Prop :=
| dg_last a : named a "ex" \/ named a "px" -> dangling [a]
| dg_flag a r : named a "nx" \/ named a "xx" \/ named a "get" \/ named a "keepttl" -> dangling r -> dangling (a :: r)
| dg_ex a v r : named a "ex" -> dangling r -> dangling (a :: v :: r)
| dg_px a v r i : named a "px" -> atoi (str v) = Some i -> dangling r -> dangling (a :: v :: r).
Definition panics_set (args : list val) : Prop := exists k v os, args = k :: v :: os /\ dangling os.
(** SETRANGE has to add more than 2^48 zero bytes. *)
Definition panics_setrange (S : keyspace) (args : list val) : Prop := exists k a v o, args = [k; a; v] /\ atoi (str a) = Some o /\
  (S (str k) = None /\ 2 ^ 48 < o \/ exists s dl, S (str k) = Some (VStr s, dl) /\ 2 ^ 48 < o - zlen (str s)).
(** The least index on a list. *)
Definition panics_index (S : keyspace) (args : list val) : Prop :=
  exists k i r l dl, args = k :: i :: r /\ atoi (str i) = Some min_int /\ S (str k) = Some (VList l, dl).
(** LMOVE from an empty list to a list or a new key. *)
Definition an_end (w : val) : Prop := named w "left" \/ named w "right".
Definition panics_lmove (S : keyspace) (args : list val) : Prop := exists a b wa wb dl, args = [a; b; wa; wb] /\ an_end wa /\ an_end wb /\
  S (str a) = Some (VList [], dl) /\ (S (str b) = None \/ exists l dl', S (str b) = Some (VList l, dl')).
(** LTRIM of an empty list from a negative to a non-negative index. *)
Definition panics_ltrim (S : keyspace) (args : list val) : Prop := exists k a b i j dl, args = [k; a; b] /\
  atoi (str a) = Some i /\ i < 0 /\ atoi (str b) = Some j /\ 0 <= j /\ S (str k) = Some (VList [], dl).
(** HRANDFIELD: one field of an empty hash; a negative count that asks for an array of more than 2^48 bytes. *)
Definition panics_hrandfield (S : keyspace) (args : list val) : Prop := exists k r h dl, args = k :: r /\ S (str k) = Some (VHash h, dl) /\
  (r = [] /\ h = ∅ \/ exists a w i, r = a :: w /\ atoi (str a) = Some i /\ (w = [] \/ exists x, w = [x] /\ named x "withvalues") /\
     (i = 1 /\ h = ∅ \/ i < 0 /\ h <> ∅ /\ 2 ^ 48 < - i * (if decide (w = []) then 16 else 24))).
(** SRANDMEMBER: a member of an empty set; a count, of either sign, that asks for more than 2^48 bytes. *)
Definition panics_srandmember (S : keyspace) (args : list val) : Prop := exists k r s dl, args = k :: r /\ S (str k) = Some (VSet s, dl) /\
  (r = [] /\ s = ∅ \/ exists a i, r = [a] /\ atoi (str a) = Some i /\ 2 ^ 48 < Z.abs i * 16).
(** SINTER, SDIFF, SUNION: every key is named once and its deadline has passed, but it has not been removed yet. *)
Definition lapsed (now : Z) (d : db) (k : bytes) : Prop := exists t, exps d !! k = Some t /\ t < now.
Definition panics_setop (now : Z) (d : db) (args : list val) : Prop :=
  args <> [] /\ NoDup (map str args) /\ Forall (fun k => lapsed now d (str k)) args.
(** KEYS: more than 2^44 keys; or a key on which the matcher panics. *)
Definition panics_keys (now : Z) (d : db) (args : list val) : Prop := exists p, args = [p] /\
  (2 ^ 48 < Z.of_nat (size (dict d)) * 16 \/
   exists k ts e, view now d k <> None /\ reads_pat (str p) ts e /\ breaks ts e k).

Definition panics (now : Z) (d : db) (cmd : command) : Prop :=
  match cmd with
  | [] => True
  | n :: args =>
      named n "set" /\ panics_set args \/
      named n "setrange" /\ panics_setrange (view now d) args \/
      named n "lindex" /\ length args = 2%nat /\ panics_index (view now d) args \/
      named n "lset" /\ length args = 3%nat /\ panics_index (view now d) args \/
      named n "lmove" /\ panics_lmove (view now d) args \/
      named n "ltrim" /\ panics_ltrim (view now d) args \/
      named n "hrandfield" /\ panics_hrandfield (view now d) args \/
      named n "srandmember" /\ panics_srandmember (view now d) args \/
      (named n "sinter" \/ named n "sdiff" \/ named n "sunion") /\ panics_setop now d args \/
      named n "keys" /\ panics_keys now d args
  end.
(** LINSERT loops for ever: it inserts, after a pivot that occurs, an element equal to it. *)
Definition loops_forever (now : Z) (d : db) (cmd : command) : Prop := exists n k w p v l dl x, cmd = [n; k; w; p; v] /\
  named n "linsert" /\ named w "after" /\ view now d (str k) = Some (VList l, dl) /\ x ∈ l /\ str x = str p /\ str v = str p.
