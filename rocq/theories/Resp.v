(** Model of resp/data.go: reply values and their wire encoding. *)
From Verif Require Export Bytes.

(** The Go interface [RedisData] and its five implementations
    (resp/data.go:19-45).  [RNil] is the nil interface value, which the parser can
    produce (resp/parser.go:156-171 returns a nil [data] for an unknown type byte). *)
Inductive rdata : Type :=
| RStr (s : bytes)                     (* *SimpleString *)
| RErr (s : bytes)                     (* *SimpleError  *)
| RInt (n : Z)                         (* *Integer (int64) *)
| RBulk (v : val)                      (* *BulkString; None = nil data *)
| RArr (l : option (list rdata))       (* *RedisArray; None = nil slice *)
| RNil.                                (* nil RedisData *)

(** ToRedisFormat (resp/data.go:62-64, 85-87, 108-110, 131-136, 164-175).
    Calling it on a nil element panics; [enc] returns [None] for a panic. *)
Fixpoint enc (d : rdata) : option bytes :=
  match d with
  | RStr s => Some (B "+" ++ s ++ CRLF)
  | RErr s => Some (B "-" ++ s ++ CRLF)
  | RInt n => Some (B ":" ++ fmt_int n ++ CRLF)
  | RBulk None => Some (B "$-1" ++ CRLF)
  | RBulk (Some s) => Some (B "$" ++ fmt_int (zlen s) ++ CRLF ++ s ++ CRLF)
  | RArr None => Some (B "*-1" ++ CRLF)
  | RArr (Some l) =>
      let fix encs (l : list rdata) : option bytes :=
        match l with
        | [] => Some []
        | x :: r => match enc x, encs r with
                    | Some a, Some b => Some (a ++ b)
                    | _, _ => None
                    end
        end in
      match encs l with
      | Some b => Some (B "*" ++ fmt_int (zlen l) ++ CRLF ++ b)
      | None => None
      end
  | RNil => None
  end.

(** GetBytesData (resp/data.go:58-60, 81-83, 104-106, 127-129, 156-162);
    outer [None]: nil-interface call panics.  inner value: Go's []byte. *)
Fixpoint bytes_data (d : rdata) : option val :=
  match d with
  | RStr s => Some (Some s)
  | RErr s => Some (Some s)
  | RInt n => Some (Some (fmt_int n))
  | RBulk v => Some v
  | RArr l =>
      let fix go (l : list rdata) : option bytes :=
        match l with
        | [] => Some []
        | x :: r => match bytes_data x, go r with
                    | Some a, Some b => Some (str a ++ b)
                    | _, _ => None
                    end
        end in
      match l with
      | None => Some (Some [])
      | Some l => match go l with Some b => Some (Some b) | None => None end
      end
  | RNil => None
  end.

(** A parsed command: cmd [][]byte. *)
Definition command : Type := list val.

(** RedisArray.ToCommand (resp/data.go:181-187); [None] = panic. *)
Fixpoint to_command (l : list rdata) : option command :=
  match l with
  | [] => Some []
  | x :: r => match bytes_data x, to_command r with
              | Some a, Some b => Some (a :: b)
              | _, _ => None
              end
  end.
