(** The pattern language documented in util/util.go:14-22. *)
From Verif Require Export Bytes.

(** Items of a bracket expression and tokens of a pattern. *)
Inductive item := One (c : ascii) | Span (a b : ascii).
Inductive tok := TAny | TStar | TLit (c : ascii) | TClass (neg : bool) (l : list item).

(** ** What a pattern matches *)
Definition in_item (c : ascii) (i : item) : Prop :=
  match i with One x => c = x | Span a b => (code a <= code c <= code b)%N end.
Definition in_class (c : ascii) (l : list item) : Prop := exists i, In i l /\ in_item c i.
Inductive pat_matches : list tok -> bytes -> Prop :=
| mt_end : pat_matches [] []
| mt_any c ts s : pat_matches ts s -> pat_matches (TAny :: ts) (c :: s)
| mt_lit c ts s : pat_matches ts s -> pat_matches (TLit c :: ts) (c :: s)
| mt_in c l ts s : in_class c l -> pat_matches ts s -> pat_matches (TClass false l :: ts) (c :: s)
| mt_out c l ts s : ~ in_class c l -> pat_matches ts s -> pat_matches (TClass true l :: ts) (c :: s)
| mt_star pre ts s : pat_matches ts s -> pat_matches (TStar :: ts) (pre ++ s).

(** ** How a pattern is written *)
Definition show_item (i : item) : bytes := match i with One c => [c] | Span a b => a :: B "-" ++ [b] end.
Definition show_tok (t : tok) : bytes :=
  match t with
  | TAny => B "?" | TStar => B "*" | TLit c => [c]
  | TClass neg l => B "[" ++ (if neg then B "^" else []) ++ concat (map show_item l) ++ B "]"
  end.
Definition show (ts : list tok) : bytes := concat (map show_tok ts).

(** The first character of an item is neither ']' nor '-'; a span is not empty. *)
Definition item_ok (i : item) : Prop :=
  match i with
  | One c => c <> "]"%char /\ c <> "-"%char
  | Span a b => a <> "]"%char /\ a <> "-"%char /\ (code a <= code b)%N
  end.
(** A bracket expression that is not negated does not begin with '^'. *)
Definition first_ok (neg : bool) (l : list item) : Prop :=
  match neg, l with false, One c :: _ => c <> "^"%char | false, Span a _ :: _ => a <> "^"%char | _, _ => True end.
Definition tok_ok (t : tok) : Prop :=
  match t with
  | TLit c => c <> "?"%char /\ c <> "*"%char /\ c <> "["%char
  | TClass neg l => Forall item_ok l /\ first_ok neg l
  | _ => True
  end.
(** Every run of stars is followed by the end of the pattern or an ordinary character. *)
Fixpoint stars_ok (ts : list tok) : Prop :=
  match ts with
  | [] => True
  | TStar :: r => stars_ok r /\ match r with TAny :: _ | TClass _ _ :: _ => False | _ => True end
  | _ :: r => stars_ok r
  end.
(** [p] is the well-formed pattern with tokens [ts]. *)
Definition pattern (p : bytes) (ts : list tok) : Prop := p = show ts /\ Forall tok_ok ts.

(** ** How the matcher reads any pattern, well-formed or not
    In a bracket expression a dash makes a range from the character before it to the one after it, whatever they are;
    before the first character stands the bracket itself (or the negation sign).  Stars are followed by a character taken
    literally, or by the end.  The pattern may end inside a bracket expression, or there with a dash. *)
Inductive citem := Chr (x : ascii) | To (e : ascii).
Definition show_citem (i : citem) : bytes := match i with Chr x => [x] | To e => B "-" ++ [e] end.
Definition show_citems (l : list citem) : bytes := concat (map show_citem l).
Definition citem_ok (i : citem) : Prop := match i with Chr x => x <> "]"%char /\ x <> "-"%char | To _ => True end.
(** The characters of a bracket expression; [prev] is the character before it. *)
Fixpoint has (prev : ascii) (l : list citem) (c : ascii) : Prop :=
  match l with
  | [] => False
  | Chr x :: r => c = x \/ has x r c
  | To e :: r => (code prev <= code c <= code e)%N \/ has e r c
  end.

Inductive ptok := PAny | PLit (c : ascii) | PStar (q : ascii) | PClass (neg : bool) (l : list citem).
Inductive pend := PFinish | PStars | POpen | PDangling.
Definition opening (neg : bool) : bytes := if neg then B "[^" else B "[".
Definition before_first (neg : bool) : ascii := if neg then "^"%char else "["%char.
(** [b]: what follows the opening bracket; without negation it does not begin with the negation sign. *)
Definition opens (neg : bool) (b : bytes) : Prop := neg = false -> head b <> Some "^"%char.
Inductive reads_pat : bytes -> list ptok -> pend -> Prop :=
| rp_finish : reads_pat [] [] PFinish
| rp_any p ts e : reads_pat p ts e -> reads_pat (B "?" ++ p) (PAny :: ts) e
| rp_lit c p ts e : c <> "?"%char -> c <> "*"%char -> c <> "["%char -> reads_pat p ts e -> reads_pat (c :: p) (PLit c :: ts) e
| rp_stars n : reads_pat (replicate (S n) "*"%char) [] PStars
| rp_star n q p ts e : q <> "*"%char -> reads_pat p ts e -> reads_pat (replicate (S n) "*"%char ++ q :: p) (PStar q :: ts) e
| rp_class neg l p ts e : Forall citem_ok l -> opens neg (show_citems l) -> reads_pat p ts e ->
    reads_pat (opening neg ++ show_citems l ++ B "]" ++ p) (PClass neg l :: ts) e
| rp_open neg l : Forall citem_ok l -> opens neg (show_citems l) -> reads_pat (opening neg ++ show_citems l) [] POpen
| rp_dangling neg l : Forall citem_ok l -> opens neg (show_citems l) -> reads_pat (opening neg ++ show_citems l ++ B "-") [] PDangling.

(** The tokens match the beginning of a string and leave the rest. *)
Inductive eats : list ptok -> bytes -> bytes -> Prop :=
| eats_nil s : eats [] s s
| eats_any c ts s r : eats ts s r -> eats (PAny :: ts) (c :: s) r
| eats_lit c ts s r : eats ts s r -> eats (PLit c :: ts) (c :: s) r
| eats_star q pre ts s r : eats ts s r -> eats (PStar q :: ts) (pre ++ q :: s) r
| eats_class (neg : bool) l c ts s r : (if neg then ~ has (before_first neg) l c else has (before_first neg) l c) ->
    eats ts s r -> eats (PClass neg l :: ts) (c :: s) r.
(** Matching and panicking. *)
Definition accepts (ts : list ptok) (e : pend) (s : bytes) : Prop :=
  e = PFinish /\ eats ts s [] \/ e = PStars /\ exists r, eats ts s r.
Definition breaks (ts : list ptok) (e : pend) (s : bytes) : Prop := e = PDangling /\ exists c r, eats ts s (c :: r).
