(** What the parser makes of any bytes at all, as a grammar: used by C06 and C71. *)
From Verif Require Export Parser SpecWire.

Definition no_lf (s : bytes) : Prop := Forall (fun c => code c <> 10%N) s.
(** A decimal number that an int64 can hold. *)
Definition int_of (s : bytes) (n : Z) : Prop := denotes s n /\ fits64 n.
(** The length in a bulk string's header: nonnegative, and Go can allocate that many bytes and two more. *)
Definition bulk_len (s : bytes) (n : Z) : Prop := denotes s n /\ 0 <= n /\ n + 2 <= 2 ^ 48.

(** The stream is a sequence of pieces: a value, the header of a non-empty array, of an empty one, of a null one, or something wrong. *)
Inductive piece := Elem (d : rdata) | Array (n : Z) | NoElems | NullArr | Wrong (e : rerr).
Inductive piece_of : bytes -> piece -> Prop :=
(** A line that ends in LF alone. *)
| pc_bare l : no_lf l -> l <> [] -> (forall k, l <> k ++ [CR]) -> piece_of (l ++ [LF]) (Wrong EInvalid)
| pc_str l : no_lf l -> piece_of (B "+" ++ l ++ CRLF) (Elem (RStr l))
| pc_err l : no_lf l -> piece_of (B "-" ++ l ++ CRLF) (Elem (RErr l))
| pc_int l n : int_of l n -> piece_of (B ":" ++ l ++ CRLF) (Elem (RInt n))
| pc_noint l : no_lf l -> (forall n, ~ int_of l n) -> piece_of (B ":" ++ l ++ CRLF) (Wrong ESyntax)
| pc_null l : denotes l (-1) -> piece_of (B "$" ++ l ++ CRLF) (Elem (RBulk None))
| pc_bulk l s : bulk_len l (zlen s) -> piece_of (B "$" ++ l ++ CRLF ++ s ++ CRLF) (Elem (RBulk (Some s)))
(** A bulk string that does not end where its header says: so many bytes, and two more, are skipped. *)
| pc_nobulk l n s : bulk_len l n -> zlen s = n + 2 -> (forall k, s <> k ++ CRLF) -> piece_of (B "$" ++ l ++ CRLF ++ s) (Wrong EInvalid)
| pc_nolen l : no_lf l -> (forall n, int_of l n -> n < -1) -> piece_of (B "$" ++ l ++ CRLF) (Wrong ESyntax)
| pc_array l n : int_of l n -> 0 < n -> piece_of (B "*" ++ l ++ CRLF) (Array n)
| pc_empty l : denotes l 0 -> piece_of (B "*" ++ l ++ CRLF) NoElems
| pc_nullarr l : denotes l (-1) -> piece_of (B "*" ++ l ++ CRLF) NullArr
| pc_noarray l : no_lf l -> (forall n, int_of l n -> n < -1) -> piece_of (B "*" ++ l ++ CRLF) (Wrong ESyntax)
(** Any other line counts as a value, a nil interface. *)
| pc_other c l : code c ∉ [10; 36; 42; 43; 45; 58]%N -> no_lf l -> piece_of (c :: l ++ CRLF) (Elem RNil).

(** What follows the last piece: the stream ends, it ends inside a bulk string, or something comes that panics. *)
Inductive remains := Over | Inside | Fatal.
Inductive rest_of : bytes -> remains -> Prop :=
| rs_line l : no_lf l -> rest_of l Over
| rs_header l n : bulk_len l n -> rest_of (B "$" ++ l ++ CRLF) Over
| rs_inside l n s : bulk_len l n -> s <> [] -> zlen s < n + 2 -> rest_of (B "$" ++ l ++ CRLF ++ s) Inside
(** LF alone; an empty line; the header of a bulk string too long to allocate, as soon as it has arrived. *)
| rs_lf s : rest_of (LF :: s) Fatal
| rs_crlf s : rest_of (CRLF ++ s) Fatal
| rs_long l n s : int_of l n -> 2 ^ 48 < n + 2 -> rest_of (B "$" ++ l ++ CRLF ++ s) Fatal.
Inductive reads_as : bytes -> list piece -> remains -> Prop :=
| rd_rest s t : rest_of s t -> reads_as s [] t
| rd_piece p k s ks t : piece_of p k -> reads_as s ks t -> reads_as (p ++ s) (k :: ks) t.

(** The values sent for the pieces, given the array under way: how many elements it shall have, and those it has. *)
Fixpoint values (open : option (Z * list rdata)) (ks : list piece) : list event :=
  match ks with
  | [] => []
  | Elem d :: ks =>
      match open with
      | None => EvData d :: values None ks
      | Some (n, got) => if zlen got + 1 =? n then EvData (RArr (Some (got ++ [d]))) :: values None ks else values (Some (n, got ++ [d])) ks
      end
  | Array n :: ks => values (Some (n, [])) ks
  (** An empty or null array does not become an element of the array under way: it is sent at once, and that array is never completed. *)
  | NoElems :: ks => EvData (RArr (Some [])) :: values (match open with Some (_, got) => Some (0, got) | None => None end) ks
  | NullArr :: ks => EvData (RArr None) :: values (match open with Some (_, got) => Some (0, got) | None => None end) ks
  | Wrong e :: ks => EvErr e :: values None ks
  end.
Definition ending_values (t : remains) : list event := match t with Over => [EvErr EEof] | Inside => [EvErr EUnexpectedEof; EvErr EEof] | Fatal => [] end.
Definition ending_of (t : remains) : ending := match t with Fatal => Crashed | _ => Closed end.

(** The commands among the values, up to the first error: at an error the handler closes the connection. *)
Fixpoint commands (evs : list event) : list command :=
  match evs with
  | EvData (RArr l) :: r => match to_command (default [] l) with Some c => c :: commands r | None => commands r end
  | EvData _ :: r => commands r
  | _ => []
  end.
(** Values on which the handler panics: an empty array, a null array, an array with a nil element. *)
Definition fatal_value (ev : event) : Prop := ev = EvData (RArr None) \/ exists l, ev = EvData (RArr (Some l)) /\ (l = [] \/ RNil ∈ l).
