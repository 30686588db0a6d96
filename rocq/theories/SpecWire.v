(** Specification vocabulary for the wire level: decimal numbers and RESP frames. *)
From Verif Require Export Resp.

(** ** Decimal numbers *)
Definition is_digit (c : ascii) : Prop := (48 <= code c <= 57)%N.
Definition digit_value (c : ascii) : Z := Z.of_N (code c) - 48.
(** The number written by a list of digits. *)
Definition decimal (ds : bytes) : Z := fold_left (fun a c => 10 * a + digit_value c) ds 0.
(** [denotes s n]: [s] is an optional sign followed by at least one digit, and its value is [n]. *)
Definition denotes (s : bytes) (n : Z) : Prop :=
  exists ds, ds <> [] /\ Forall is_digit ds /\
    ((s = ds \/ s = B "+" ++ ds) /\ n = decimal ds \/ s = B "-" ++ ds /\ n = - decimal ds).
Definition fits64 (n : Z) : Prop := - 2 ^ 63 <= n < 2 ^ 63.
(** The usual way to write a number: no plus sign, no leading zeros, zero without a sign. *)
Definition canonical (s : bytes) : Prop :=
  s = B "0" \/ exists c ds, (s = c :: ds \/ s = B "-" ++ c :: ds) /\ Forall is_digit (c :: ds) /\ c <> "0"%char.

(** ** What a client sends *)

(** One argument: a null bulk string or a bulk string.  The length may be written in any way a decimal number
    can ("+3", "003").  Go cannot allocate a buffer of more than 2^48 bytes. *)
Inductive arg_frame : val -> bytes -> Prop :=
| af_null ds : denotes ds (-1) -> arg_frame None (B "$" ++ ds ++ CRLF)
| af_bulk ds s : denotes ds (zlen s) -> zlen s + 2 <= 2 ^ 48 ->
    arg_frame (Some s) (B "$" ++ ds ++ CRLF ++ s ++ CRLF).
(** One command: an array of at least one argument. *)
Inductive cmd_frame : command -> bytes -> Prop :=
| cf_intro ds cmd bs : cmd <> [] -> denotes ds (zlen cmd) -> fits64 (zlen cmd) -> Forall2 arg_frame cmd bs ->
    cmd_frame cmd (B "*" ++ ds ++ CRLF ++ concat bs).
(** A pipeline of commands, and the bytes that carry it. *)
Inductive sends : list command -> bytes -> Prop :=
| sends_nil : sends [] []
| sends_cons c cs f s : cmd_frame c f -> sends cs s -> sends (c :: cs) (f ++ s).

(** [p] is a proper prefix of [s]. *)
Definition cut (p s : bytes) : Prop := exists q, q <> [] /\ s = p ++ q.

(** ** RESP frames *)
Definition no_crlf (s : bytes) : Prop := Forall (fun c => code c <> 13%N /\ code c <> 10%N) s.
Inductive frame : rdata -> bytes -> Prop :=
| fr_str s : no_crlf s -> frame (RStr s) (B "+" ++ s ++ CRLF)
| fr_err s : no_crlf s -> frame (RErr s) (B "-" ++ s ++ CRLF)
| fr_int ds n : denotes ds n -> frame (RInt n) (B ":" ++ ds ++ CRLF)
| fr_null ds : denotes ds (-1) -> frame (RBulk None) (B "$" ++ ds ++ CRLF)
| fr_bulk ds s : denotes ds (zlen s) -> frame (RBulk (Some s)) (B "$" ++ ds ++ CRLF ++ s ++ CRLF)
| fr_nullarr ds : denotes ds (-1) -> frame (RArr None) (B "*" ++ ds ++ CRLF)
| fr_arr ds l b : denotes ds (zlen l) -> frames l b -> frame (RArr (Some l)) (B "*" ++ ds ++ CRLF ++ b)
with frames : list rdata -> bytes -> Prop :=
| frs_nil : frames [] []
| frs_cons d l f s : frame d f -> frames l s -> frames (d :: l) (f ++ s).

(** Reply values that RESP can carry: no nil interface anywhere, no CR or LF in simple strings and errors. *)
Inductive sendable : rdata -> Prop :=
| sd_str s : no_crlf s -> sendable (RStr s)
| sd_err s : no_crlf s -> sendable (RErr s)
| sd_int n : sendable (RInt n)
| sd_bulk v : sendable (RBulk v)
| sd_nullarr : sendable (RArr None)
| sd_arr l : Forall sendable l -> sendable (RArr (Some l)).

(** [decodes s d r]: a RESP decoder reads the value [d] from the front of [s] and leaves [r]. *)
Definition decodes (s : bytes) (d : rdata) (r : bytes) : Prop := exists f, frame d f /\ s = f ++ r.
