(** The wire level: C01-C07. *)
From Verif Require Import NilProofs HandleTotal DemoWire.

(** * C01  Pipelined commands are delivered exactly and in order *)
(** Whatever commands a client sends and however the bytes are cut into pieces, the parser delivers exactly these
    commands, in order, and then the end of the stream.  An argument can be of any length Go can allocate. *)
Theorem C01_pipeline cs st : sends cs (concat st) ->
  parse_stream st = (map (fun c => EvData (RArr (Some (map RBulk c)))) cs ++ [EvErr EEof], Closed).
Proof. exact (pipeline_exact cs st). Qed.
(** What is delivered for a command becomes that command again, argument for argument. *)
Theorem C01_arguments c : to_command (map RBulk c) = Some c.
Proof. exact (cmd_event_command c). Qed.
Print Assumptions C01_pipeline.
Print Assumptions C01_arguments.
(** Two commands, one with an argument containing CR LF, an empty and a null argument. *)
Example C01_example :
  sends [[Some (B "set"); Some (W "a&b"); Some []; None]; [Some (B "PING")]]
    (concat [W "*4&$3&s"; W "et&$4&a&b"; W "&$0&&$-1&*1&$"; W "4&PING&"]).
Proof. sends. Qed.

(** * C02  Network fragmentation is invisible *)
Theorem C02_fragmentation st st' : concat st = concat st' -> parse_stream st = parse_stream st'.
Proof. exact (parse_stream_chunks st st'). Qed.
(** The model's bound on the number of loop iterations is never reached. *)
Theorem C02_never_out_of_fuel st : (parse_stream st).2 <> OutOfFuel.
Proof. exact (parse_stream_ends st). Qed.
Print Assumptions C02_fragmentation.
Print Assumptions C02_never_out_of_fuel.
Example C02_example : concat [W "*1&$4"; W "&PI"; []; W "NG&"] = concat [W "*1&$4&PING&"] /\
  parse_stream [W "*1&$4"; W "&PI"; []; W "NG&"] = ([EvData (RArr (Some [RBulk (Some (B "PING"))])); EvErr EEof], Closed).
Proof. split; reflexivity. Qed.

(** * C03  A truncated stream *)
(** The connection dies after the bytes [p] of the stream [p ++ q].  Let [cs1] be the commands completely contained in
    [p]: exactly these are delivered, followed only by errors. *)
Theorem C03_truncated cs p q st : sends cs (p ++ q) -> concat st = p ->
  exists cs1 cs2 s1 p1, cs = cs1 ++ cs2 /\ sends cs1 s1 /\ p = s1 ++ p1 /\
    (p1 = [] \/ exists c cs3 f, cs2 = c :: cs3 /\ cmd_frame c f /\ cut p1 f) /\
    exists evs, parse_stream st = (map (fun c => EvData (RArr (Some (map RBulk c)))) cs1 ++ evs, Closed) /\
      (evs = [EvErr EEof] \/ evs = [EvErr EUnexpectedEof; EvErr EEof]).
Proof. exact (truncated cs p q st). Qed.
(** The handler executes a prefix of them (all, unless one crashes or hangs) and nothing else. *)
Theorem C03_executed {P : Setup} m cs p q st outs e m' : sends cs (p ++ q) -> concat st = p ->
  Forall (fun c => may_echo c -> crlf_free c) cs -> handle m (parse_stream st).1 outs e m' ->
  exists cs1 cs2 cs3 s1 s2 rs m1, cs = cs1 ++ cs2 ++ cs3 /\ sends (cs1 ++ cs2) s1 /\ p = s1 ++ s2 /\
    (s2 = [] \/ exists c cs4 f, cs3 = c :: cs4 /\ cmd_frame c f /\ cut s2 f) /\
    executes m cs1 rs m1 /\ Forall2 frame rs outs /\
    match cs2 with
    | [] => e = HReturns /\ m' = m1
    | c :: _ => (e = HCrashes /\ mexec (fun _ => True) m1 c (MCrash m')) \/ (e = HHangs /\ mexec (fun _ => True) m1 c (MHang m'))
    end.
Proof. exact (session_cut m cs p q st outs e m'). Qed.
Print Assumptions C03_truncated.
Print Assumptions C03_executed.
Example C03_example :
  sends [[Some (B "PING")]; [Some (B "get"); Some (B "key")]] (W "*1&$4&PING&*2&$3&get&$3&k" ++ W "ey&") /\
  parse_stream [W "*1&$4&PING&*2&$3&get&$3&k"] =
    ([EvData (RArr (Some [RBulk (Some (B "PING"))])); EvErr EUnexpectedEof; EvErr EEof], Closed).
Proof. split; [sends|reflexivity]. Qed.

(** * C04  Reply encoding round-trips *)
(** A reply is encoded as one RESP frame, and however more bytes follow, a decoder reads exactly this reply and leaves
    exactly these bytes. *)
Theorem C04_round_trip d : sendable d -> exists f, enc d = Some f /\ frame d f /\
  forall r d' r', decodes (f ++ r) d' r' <-> d' = d /\ r' = r.
Proof. exact (enc_decodes d). Qed.
(** A sequence of frames can be split in one way only. *)
Theorem C04_unambiguous ds es s : frames ds s -> frames es s -> ds = es.
Proof. intros H1 H2. exact (frames_split ds s H1 es s H2 eq_refl). Qed.
(** The values that have no encoding, on which the program panics, are those with a nil interface inside. *)
Theorem C04_not_encoded d : enc d = None <-> nil_in d.
Proof. exact (enc_none d). Qed.
Print Assumptions C04_round_trip.
Print Assumptions C04_not_encoded.
Print Assumptions C04_unambiguous.
Example C04_example :
  sendable (RArr (Some [RBulk None; RBulk (Some (W "a&b")); RArr None; RInt (-5); RArr (Some []); RErr (B "oops")])) /\
  enc (RArr (Some [RBulk None; RBulk (Some (W "a&b")); RArr None; RInt (-5); RArr (Some []); RErr (B "oops")])) =
    Some (W "*6&$-1&$4&a&b&*-1&:-5&*0&-oops&").
Proof. split; [|reflexivity]. repeat constructor; vm_compute; discriminate. Qed.
Example C04_nil_example : nil_in (RArr (Some [RInt 1; RArr (Some [RNil])])) /\ ~ nil_in (RArr (Some [RInt 1; RBulk None])).
Proof. split; [apply C04_not_encoded; reflexivity|]. intros H. apply C04_not_encoded in H. vm_compute in H. discriminate H. Qed.
(** The fixed replies that the theorems call by name, as the client receives them. *)
Theorem C04_texts :
  reply_bytes ok = Some (W "+OK&") /\ reply_bytes rnil = Some (W "$-1&") /\ reply_bytes RNil = Some (W "-unknown error&") /\
  reply_bytes err_args = Some (W "-wrong number of arguments for command&") /\
  reply_bytes err_int = Some (W "-value is not an integer&") /\ reply_bytes err_float = Some (W "-value is not an float&") /\
  reply_bytes err_wrong_kind = Some (W "-Operation against a key holding the wrong kind of value&") /\
  reply_bytes err_not_string = Some (W "-the value stored at key is not a string&") /\
  reply_bytes err_set_not_string = Some (W "-The value stored at key is not a string&") /\
  reply_bytes err_syntax = Some (W "-syntax error&") /\ reply_bytes err_no_key = Some (W "-no such key&") /\ reply_bytes err_offset = Some (W "-offset is out of range&") /\
  forall name, reply_bytes (unknown_cmd name) = Some (W "-unknown command '" ++ name ++ W "'&").
Proof. repeat (split; [vm_compute; reflexivity|]). intros name. unfold unknown_cmd, reply_bytes, enc. rewrite <- !app_assoc. reflexivity. Qed.
Print Assumptions C04_texts.
(** The exception: a line break in an error text. *)
Theorem C04_crlf_refuted : enc (RErr (W "a&+b")) = Some (W "-a&+b&") /\
  frames [RErr (B "a"); RStr (B "b")] (W "-a&+b&") /\ ~ frame (RErr (W "a&+b")) (W "-a&+b&").
Proof. exact enc_crlf. Qed.

(** * C05  One command, one well-formed reply frame *)
(** Every reply is a value that RESP can carry, unless the command is SET, EXPIRE, LPOS or an unknown name with an
    argument containing CR or LF. *)
Theorem C05_replies {P : Setup} T m cmd r m' : (may_echo cmd -> crlf_free cmd) ->
  mexec T m cmd (MDone r m') -> sendable r.
Proof. exact (mexec_sendable T m cmd r m'). Qed.
(** The replies to a pipeline: one frame per command, in order, up to a command that crashes or hangs. *)
Theorem C05_one_reply_each {P : Setup} m cs st outs e m' : sends cs (concat st) ->
  Forall (fun c => may_echo c -> crlf_free c) cs -> handle m (parse_stream st).1 outs e m' ->
  exists cs1 cs2 rs m1, cs = cs1 ++ cs2 /\ executes m cs1 rs m1 /\ Forall2 frame rs outs /\
    match cs2 with
    | [] => e = HReturns /\ m' = m1
    | c :: _ => (e = HCrashes /\ mexec (fun _ => True) m1 c (MCrash m')) \/ (e = HHangs /\ mexec (fun _ => True) m1 c (MHang m'))
    end.
Proof. exact (session_exact m cs st outs e m'). Qed.
(** There is an outcome for every command and for all values that the parser may send. *)
Theorem C05_outcome {P : Setup} m cmd t : (cur m < length (mdbs m))%nat -> exists out, mexec (eq t) m cmd out.
Proof. exact (mexec_total m cmd t). Qed.
Theorem C05_handled {P : Setup} m evs : (cur m < length (mdbs m))%nat -> exists outs e m', handle m evs outs e m'.
Proof. exact (handle_total evs m). Qed.
Print Assumptions C05_outcome.
Print Assumptions C05_handled.
Print Assumptions C05_replies.
Print Assumptions C05_one_reply_each.
Example C05_example (P := demo_setup) :
  ~ may_echo (C ["get"; "s"]) /\ crlf_free (C ["set"; "s"; "x"; "bogus"]) /\
  mexec (fun _ => True) (mkMgr 0 [demo]) (C ["nope"]) (MDone (RErr (B "unknown command 'nope'")) (mkMgr 0 [demo])).
Proof. exact c05_example. Qed.
(** An unknown command name containing CR LF is answered with two frames. *)
Theorem C05_injection_refuted (P := demo_setup) :
  mexec (fun _ => True) (mkMgr 0 [demo]) [Some (W "x&+OK")] (MDone (RErr (W "unknown command 'x&+OK'")) (mkMgr 0 [demo])) /\
  enc (RErr (W "unknown command 'x&+OK'")) = Some (W "-unknown command 'x&+OK'&") /\
  frames [RErr (B "unknown command 'x"); RStr (B "OK'")] (W "-unknown command 'x&+OK'&").
Proof. exact c05_injection. Qed.
(** So can the options of SET, EXPIRE and LPOS. *)
Theorem C05_options_refuted (P := demo_setup) :
  (frames [RErr (B "Unsupported option x"); RInt 1] (W "-Unsupported option x&:1&") /\
    reply_bytes (RErr (W "Unsupported option x&:1")) = Some (W "-Unsupported option x&:1&")) /\
  answers demo [Some (B "set"); Some (B "s"); Some (B "v"); Some (W "x&:1")] (RErr (W "Unsupported option x&:1")) /\
  answers demo [Some (B "expire"); Some (B "s"); Some (B "9"); Some (W "x&:1")] (RErr (W "Unsupported option x&:1")) /\
  answers demo [Some (B "lpos"); Some (B "l"); Some (B "b"); Some (W "x&:1"); Some (B "1")] (RErr (W "Unsupported option x&:1")).
Proof. exact c05_options. Qed.
Print Assumptions C05_options_refuted.

(** * C06  No client byte stream can crash the server *)
(** Streams of non-empty command arrays: the parser neither crashes nor reports an error before the end. *)
Theorem C06_well_formed cs st : sends cs (concat st) ->
  (parse_stream st).2 = Closed /\ forall e, In (EvErr e) (parse_stream st).1 -> e = EEof.
Proof. exact (no_parser_crash cs st). Qed.
Print Assumptions C06_well_formed.
Example C06_example : sends [C ["get"; "s"]] (concat [W "*2&$3&get&$1&s&"]).
Proof. sends. Qed.
(** Violations: an empty line, a bare newline, a huge length crash the parser; an empty or null array, or a line of
    unknown type inside an array, crash the handler. *)
Theorem C06_parser_refuted :
  (parse_stream [W "&"]).2 = Crashed /\ (parse_stream [[ascii_of_N 10]]).2 = Crashed /\
  (parse_stream [W "$281474976710655&"]).2 = Crashed.
Proof. repeat split; reflexivity. Qed.
Theorem C06_handler_refuted {P : Setup} m d : mdbs m !! cur m = Some d ->
  (exists m', handle m (parse_stream [W "*0&"]).1 [] HCrashes m') /\
  (exists m', handle m (parse_stream [W "*-1&"]).1 [] HCrashes m') /\
  (exists m', handle m (parse_stream [W "*1&hello&"]).1 [] HCrashes m').
Proof. exact (handler_crashes m d). Qed.
Print Assumptions C06_handler_refuted.

(** * C07  Decimal integers *)
Theorem C07_round_trip n : fits64 n -> denotes (fmt_int n) n /\ atoi (fmt_int n) = Some n.
Proof. exact (fmt_atoi n). Qed.
Theorem C07_accepts s n : atoi s = Some n <-> denotes s n /\ fits64 n.
Proof. exact (atoi_iff s n). Qed.
(** Numbers are always written in the usual way. *)
Theorem C07_canonical n : canonical (fmt_int n).
Proof. exact (fmt_int_canonical n). Qed.
Print Assumptions C07_canonical.
Print Assumptions C07_round_trip.
Print Assumptions C07_accepts.
Example C07_example : fits64 (- 2 ^ 63) /\ fmt_int (- 2 ^ 63) = B "-9223372036854775808" /\
  atoi (B "9223372036854775808") = None /\ atoi (B "+007") = Some 7 /\ atoi (B "") = None /\ atoi (B "1 ") = None.
Proof. split; [unfold fits64; lia|]. repeat split; reflexivity. Qed.
