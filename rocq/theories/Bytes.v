(** Byte strings and the parts of Go's [strings] and [strconv] packages the
    server relies on.  No proofs here. *)
From Coq Require Export Ascii String ZArith Lia List.
From stdpp Require Export base strings list gmap sorting numbers.
Export ListNotations.
Open Scope Z_scope.
Open Scope list_scope.

(** A Go [string] / non-nil [[]byte] is a sequence of 8-bit bytes. *)
Definition bytes : Type := list ascii.

(** A Go [[]byte] that may be nil: [None] is nil, [Some []] is empty and non-nil. *)
Definition val : Type := option bytes.

(** Go's [string(b)] conversion (nil becomes ""), also used for [len(b)]. *)
Definition str (v : val) : bytes := match v with Some s => s | None => [] end.

(** Literal helper: [B "abc"]. *)
Definition B (s : string) : bytes := list_ascii_of_string s.

Definition code (c : ascii) : N := N_of_ascii c.
Definition CR : ascii := ascii_of_N 13.
Definition LF : ascii := ascii_of_N 10.
Definition CRLF : bytes := [CR; LF].   (* resp/data.go:16 *)

Definition zlen {A} (l : list A) : Z := Z.of_nat (length l).

(** [int]/[int64] are 64-bit two's complement integers (amd64/arm64). *)
Definition max_int : Z := 2 ^ 63 - 1.
Definition min_int : Z := - 2 ^ 63.
Definition wrap64 (z : Z) : Z := (z + 2 ^ 63) mod 2 ^ 64 - 2 ^ 63.
Definition in64 (z : Z) : bool := (min_int <=? z) && (z <=? max_int).

(** Go's [make([]T, n)] / [make([]T, 0, n)] with element size [sz]: run-time panic
    if [n < 0] or [n*sz > maxAlloc] (2^48 on 64-bit Linux, runtime/malloc.go).
    Running out of memory below that limit is not modelled. *)
Definition make_ok (n sz : Z) : bool := (0 <=? n) && (n * sz <=? 2 ^ 48).

(** ** strconv *)

Definition digit (c : ascii) : option Z :=
  let n := Z.of_N (code c) in
  if (48 <=? n) && (n <=? 57) then Some (n - 48) else None.

Inductive perr := ErrSyntax | ErrRange.

Definition max_u64 : Z := 2 ^ 64 - 1.
Definition cutoff : Z := max_u64 / 10 + 1.

(** strconv.ParseUint(s, 10, 64), main loop (strconv/atoi.go). *)
Fixpoint parse_uint_loop (s : bytes) (n : Z) : Z * option perr :=
  match s with
  | [] => (n, None)
  | c :: s' =>
      match digit c with
      | None => (0, Some ErrSyntax)
      | Some d =>
          if cutoff <=? n then (max_u64, Some ErrRange)
          else let n1 := n * 10 + d in
               if max_u64 <? n1 then (max_u64, Some ErrRange)
               else parse_uint_loop s' n1
      end
  end.

Definition parse_uint (s : bytes) : Z * option perr :=
  match s with [] => (0, Some ErrSyntax) | _ => parse_uint_loop s 0 end.

(** Sign handling and range clamping of strconv.ParseInt(s, 10, 64). *)
Definition parse_signed (neg : bool) (s : bytes) : Z * option perr :=
  match parse_uint s with
  | (_, Some ErrSyntax) => (0, Some ErrSyntax)
  | (un, _) =>
      if negb neg && (2 ^ 63 <=? un) then (2 ^ 63 - 1, Some ErrRange)
      else if neg && (2 ^ 63 <? un) then (- 2 ^ 63, Some ErrRange)
      else (if neg then - un else un, None)
  end.

(** strconv.ParseInt(s, 10, 64): value and error; on a range error the value is
    the clamped one, on a syntax error it is 0. *)
Definition parse_int (s : bytes) : Z * option perr :=
  match s with
  | [] => (0, Some ErrSyntax)
  | c :: s' =>
      if (code c =? 43)%N then parse_signed false s'       (* '+' *)
      else if (code c =? 45)%N then parse_signed true s'   (* '-' *)
      else parse_signed false s
  end.

(** strconv.Atoi / ParseInt for callers that only look at the value when there is no error. *)
Definition atoi (s : bytes) : option Z :=
  match parse_int s with (n, None) => Some n | _ => None end.

Definition digit_char (d : N) : ascii := ascii_of_N (48 + d).

Fixpoint fmt_loop (fuel : nat) (n : N) (acc : bytes) : bytes :=
  match fuel with
  | O => acc
  | S f =>
      let acc' := digit_char (n mod 10) :: acc in
      if (n <? 10)%N then acc' else fmt_loop f (n / 10)%N acc'
  end.

Definition fmt_N (n : N) : bytes := fmt_loop (S (N.size_nat n)) n [].

(** strconv.FormatInt(n, 10) / strconv.Itoa / fmt's %d. *)
Definition fmt_int (z : Z) : bytes :=
  if z <? 0 then ascii_of_N 45 :: fmt_N (Z.to_N (- z)) else fmt_N (Z.to_N z).

(** ** strings.ToLower *)

Definition lower_ascii (c : ascii) : ascii :=
  let n := code c in
  if ((65 <=? n) && (n <=? 90))%N then ascii_of_N (n + 32) else c.

(** strings.ToLower.  ASCII letters are lowered; of the non-ASCII runes only
    U+212A (E2 84 AA) and U+0130 (C4 B0) lower to an ASCII character ('k', 'i').
    Simplification: every other non-ASCII byte is left alone, whereas Go may
    rewrite it to other non-ASCII bytes.  The results are only ever compared with
    ASCII keywords (or tested for emptiness), for which both are equivalent. *)
Fixpoint to_lower (s : bytes) : bytes :=
  match s with
  | [] => []
  | c1 :: r1 =>
      match r1 with
      | [] => [lower_ascii c1]
      | c2 :: r2 =>
          if ((code c1 =? 196) && (code c2 =? 176))%N then ascii_of_N 105 :: to_lower r2
          else match r2 with
               | [] => lower_ascii c1 :: to_lower r1
               | c3 :: r3 =>
                   if ((code c1 =? 226) && (code c2 =? 132) && (code c3 =? 170))%N
                   then ascii_of_N 107 :: to_lower r3
                   else lower_ascii c1 :: to_lower r1
               end
      end
  end.

Definition beq (a b : bytes) : bool := bool_decide (a = b).

(** ** hash/fnv: 32-bit FNV-1a, as used by util.Hash (util/util.go:7-12). *)
Definition fnv1a (s : bytes) : N :=
  fold_left (fun h c => (N.lxor h (code c) * 16777619) mod 4294967296)%N s 2166136261%N.
