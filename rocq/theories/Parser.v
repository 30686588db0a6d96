(** Model of resp/parser.go: the RESP stream parser. *)
From Verif Require Export Resp.

(** The reader.  [chunks] is the not yet consumed input, cut into the pieces the
    network delivered; after the last piece every read reports io.EOF.
    (bufio.Reader is modelled by its contract: ReadBytes returns the bytes up to and
    including the delimiter, io.ReadFull exactly the requested number.) *)
Definition stream : Type := list bytes.

(** bufio.Reader.ReadBytes('\n'), collecting across chunks.  [None]: io.EOF before the delimiter. *)
Fixpoint split_nl (s : bytes) : option (bytes * bytes) :=
  match s with
  | [] => None
  | c :: r => if (code c =? 10)%N then Some ([c], r)
              else match split_nl r with
                   | Some (a, b) => Some (c :: a, b)
                   | None => None
                   end
  end.

Fixpoint read_bytes (st : stream) : option (bytes * stream) :=
  match st with
  | [] => None
  | ch :: st' =>
      match split_nl ch with
      | Some (a, b) => Some (a, b :: st')
      | None => match read_bytes st' with
                | Some (a, r) => Some (ch ++ a, r)
                | None => None
                end
      end
  end.

(** io.ReadFull(reader, msg) with len(msg) = n: [RF_ok], io.EOF if no byte at all was
    available, io.ErrUnexpectedEOF if the stream ended in the middle. *)
Inductive rf := RF_ok (msg : bytes) (rest : stream) | RF_eof | RF_unexpected.

Fixpoint read_full_acc (st : stream) (n : nat) (acc : bytes) : rf :=
  match n with
  | O => RF_ok acc st
  | _ =>
      match st with
      | [] => match acc with [] => RF_eof | _ => RF_unexpected end
      | ch :: st' =>
          if Nat.leb n (length ch)
          then RF_ok (acc ++ take n ch) (drop n ch :: st')
          else read_full_acc st' (n - length ch) (acc ++ ch)
      end
  end.
Definition read_full (st : stream) (n : nat) : rf := read_full_acc st n [].

(** readBuffer (resp/parser.go:15-21).  [arrayData] is only meaningful while [in_array]. *)
Record rbuf := mkBuf {
  string_len : Z; multi_line : bool;
  array_len : Z; in_array : bool; array_data : list rdata }.
Definition empty_buf : rbuf := mkBuf 0 false 0 false [].

(** io.EOF, io.ErrUnexpectedEOF, the two kinds of protocol error, any other error of the connection (not in this file: Pipe.v). *)
Inductive rerr := EEof | EUnexpectedEof | EInvalid | ESyntax | ENet.

(** Outcome of readline (resp/parser.go:126-150). *)
Inductive rl :=
| RL_ok (msg : bytes) (rest : stream)
| RL_err (e : rerr) (rest : stream)
| RL_crash.                                    (* run-time panic *)

(** last two bytes of a message *)
Definition ends_crlf (msg : bytes) : bool :=
  match rev msg with
  | a :: b :: _ => (code a =? 10)%N && (code b =? 13)%N
  | _ => false
  end.

Definition readline (st : stream) (b : rbuf) : rl :=
  if multi_line b then
    let n := wrap64 (string_len b + 2) in
    if make_ok n 1 then                          (* make([]byte, buf.stringLen+2) *)
      match read_full st (Z.to_nat n) with
      | RF_eof => RL_err EEof []
      | RF_unexpected => RL_err EUnexpectedEof []
      | RF_ok msg rest =>
          if ends_crlf msg then RL_ok msg rest else RL_err EInvalid rest
      end
    else RL_crash
  else
    match read_bytes st with
    | None => RL_err EEof []
    | Some (msg, rest) =>
        match rev msg with
        | _ :: b :: _ => if (code b =? 13)%N then RL_ok msg rest else RL_err EInvalid rest
        | _ => RL_crash                           (* len(msg) = 1: msg[len(msg)-2] is msg[-1] *)
        end
    end.

(** msg[1:len(msg)-2] for a message of length >= 2; panics ([None]) when len(msg) = 2. *)
Definition body (msg : bytes) : option bytes :=
  if Nat.ltb (length msg) 3 then None else Some (take (length msg - 3) (drop 1 msg)).

(** parseSingleLine (resp/parser.go:152-172): outer [None] panic, inner [inr] error. *)
Definition parse_single_line (msg : bytes) : option (rdata + rerr) :=
  match msg, body msg with
  | t :: _, Some d =>
      if (code t =? 43)%N then Some (inl (RStr d))
      else if (code t =? 45)%N then Some (inl (RErr d))
      else if (code t =? 58)%N then
        match parse_int d with
        | (n, None) => Some (inl (RInt n))
        | (_, Some _) => Some (inr ESyntax)
        end
      else Some (inl RNil)
  | _, _ => None
  end.

(** parseBulkStringHeader (resp/parser.go:174-189): [None] = protocol error.
    msg = "$..." has length >= 3 here, so the slice expression cannot panic. *)
Definition parse_bulk_header (msg : bytes) (b : rbuf) : option rbuf :=
  match parse_int (take (length msg - 3) (drop 1 msg)) with
  | (n, None) =>
      if n <? -1 then None
      else Some (mkBuf n (if -1 <? n then true else multi_line b)
                       (array_len b) (in_array b) (array_data b))
  | (_, Some _) => None
  end.

(** parseArrayHeader (resp/parser.go:199-215). *)
Definition parse_array_header (msg : bytes) (b : rbuf) : option rbuf :=
  match parse_int (take (length msg - 3) (drop 1 msg)) with
  | (n, None) =>
      if n <? -1 then None
      else if 0 <? n
           then Some (mkBuf (string_len b) (multi_line b) n true [])
           else Some (mkBuf (string_len b) (multi_line b) n (in_array b) (array_data b))
  | (_, Some _) => None
  end.

(** One value sent on the channel (RedisResp, resp/parser.go:11-14). *)
Inductive event := EvData (d : rdata) | EvErr (e : rerr).

(** Result of one iteration of the loop of [parse] (resp/parser.go:33-123). *)
Inductive pstep_res :=
| PS_more (evs : list event) (b : rbuf) (rest : stream)
| PS_close (evs : list event)
| PS_crash.

(** Delivering a complete element (resp/parser.go:111-122, and 65-75 for null bulk strings). *)
Definition deliver (d : rdata) (b : rbuf) : list event * rbuf :=
  if in_array b then
    let data := array_data b ++ [d] in
    if zlen data =? array_len b
    then ([EvData (RArr (Some data))], mkBuf (string_len b) (multi_line b) 0 false [])
    else ([], mkBuf (string_len b) (multi_line b) (array_len b) true data)
  else ([EvData d], b).

Definition pstep (b : rbuf) (st : stream) : pstep_res :=
  match readline st b with
  | RL_crash => PS_crash
  | RL_err EEof _ => PS_close [EvErr EEof]                       (* :38-42 *)
  | RL_err e rest => PS_more [EvErr e] empty_buf rest             (* :43-46 *)
  | RL_ok msg rest =>
      if multi_line b then                                         (* :49-53 *)
        let b1 := mkBuf 0 false (array_len b) (in_array b) (array_data b) in
        let '(evs, b2) := deliver (RBulk (Some (take (length msg - 2) msg))) b1 in
        PS_more evs b2 rest
      else
        match msg with
        | [] => PS_crash                                           (* msg[0]; unreachable *)
        | t :: _ =>
            if (code t =? 36)%N then                               (* '$' :56-80 *)
              match parse_bulk_header msg b with
              | None => PS_more [EvErr ESyntax] empty_buf rest
              | Some b1 =>
                  if string_len b1 =? -1 then
                    let '(evs, b2) := deliver (RBulk None) b1 in
                    PS_more evs (mkBuf 0 (multi_line b2) (array_len b2) (in_array b2) (array_data b2)) rest
                  else PS_more [] b1 rest
              end
            else if (code t =? 42)%N then                          (* '*' :83-98 *)
              match parse_array_header msg b with
              | None => PS_more [EvErr ESyntax] empty_buf rest
              | Some b1 =>
                  if array_len b1 =? -1
                  then PS_more [EvData (RArr None)]
                         (mkBuf (string_len b1) (multi_line b1) 0 (in_array b1) (array_data b1)) rest
                  else if array_len b1 =? 0
                       then PS_more [EvData (RArr (Some []))] b1 rest
                       else PS_more [] b1 rest
              end
            else
              match parse_single_line msg with                     (* :101 *)
              | None => PS_crash
              | Some (inr e) => PS_more [EvErr e] empty_buf rest    (* :104-109 *)
              | Some (inl d) => let '(evs, b2) := deliver d b in PS_more evs b2 rest
              end
        end
  end.

(** How the parser goroutine ends. *)
Inductive ending := Closed | Crashed | OutOfFuel.

Fixpoint parse_loop (fuel : nat) (b : rbuf) (st : stream) : list event * ending :=
  match fuel with
  | O => ([], OutOfFuel)
  | S f =>
      match pstep b st with
      | PS_crash => ([], Crashed)
      | PS_close evs => (evs, Closed)
      | PS_more evs b' st' => let '(evs', e) := parse_loop f b' st' in (evs ++ evs', e)
      end
  end.

(** ParseStream (resp/parser.go:23-27): everything the parser would send on the
    channel if the receiver kept receiving.  Every iteration that does not stop consumes at least one byte,
    so [length + 1] iterations suffice (proved in ParserProofs.v). *)
Definition parse_stream (st : stream) : list event * ending :=
  parse_loop (S (length (concat st))) empty_buf st.
