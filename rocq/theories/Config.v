(** Model of config/config.go and of the level filter of logger/logger.go. *)
From Verif Require Export Bytes.

(** Config (config.go:27-35), without the name of the file. *)
Record config := mkConf { host : bytes; port : Z; logdir : bytes; loglevel : bytes; segs : Z; dbnum : Z }.
(** The defaults (config.go:18-25). *)
Definition default_config : config := mkConf (B "127.0.0.1") 6379 (B "./") (B "info") 100 16.

(** unicode.IsSpace at the head of a string: the length of the white space character there, 0 if there is none.
    ASCII white space; and in UTF-8 U+0085, U+00A0, U+1680, U+2000-200A, U+2028, U+2029, U+202F, U+205F, U+3000.
    (A lead byte is never inside another character, so looking at the bytes is enough.) *)
Definition spaces : list bytes := map (map ascii_of_N)
  [[9]; [10]; [11]; [12]; [13]; [32]; [194; 133]; [194; 160]; [225; 154; 128];
   [226; 128; 128]; [226; 128; 129]; [226; 128; 130]; [226; 128; 131]; [226; 128; 132]; [226; 128; 133];
   [226; 128; 134]; [226; 128; 135]; [226; 128; 136]; [226; 128; 137]; [226; 128; 138];
   [226; 128; 168]; [226; 128; 169]; [226; 128; 175]; [226; 129; 159]; [227; 128; 128]]%N.
Definition space_at (s : bytes) : nat :=
  match List.find (fun p => beq (take (length p) s) p) spaces with Some p => length p | None => 0%nat end.

(** strings.Fields: [skip] bytes of a white space character are still to be skipped, [w] is the word being read. *)
Fixpoint fields_from (skip : nat) (w s : bytes) : list bytes :=
  match s with
  | [] => match w with [] => [] | _ => [w] end
  | c :: r =>
      match skip with
      | S k => fields_from k w r
      | O => match space_at s with
             | O => fields_from 0 (w ++ [c]) r
             | S k => match w with [] => fields_from k [] r | _ => w :: fields_from k [] r end
             end
      end
  end.
Definition fields (s : bytes) : list bytes := fields_from 0 [] s.

(** bufio.Reader.ReadString('\n') on what is left of the file: the line with its newline, whether the end of the file was met,
    and what is left after it. *)
Fixpoint read_string (s : bytes) : bytes * bool * bytes :=
  match s with
  | [] => ([], true, [])
  | c :: r => if Ascii.eqb c LF then ([c], false, r) else let '(l, e, r') := read_string r in (c :: l, e, r')
  end.

(** How the loader ends. *)
Inductive cfg_out := CfgOk (c : config) | CfgErr | CfgPanic.

Section Load.
(** net.ParseIP(s) != nil *)
Context (valid_ip : bytes -> bool).

(** The switch (config.go:105-130) on the words of a line that is not blank; argvs[1] panics if there is one word only.
    (On an error the half-changed configuration is discarded by Init, config.go:73-76.) *)
Definition apply_line (c : config) (name : bytes) (args : list bytes) : cfg_out :=
  let n := to_lower name in
  if beq n (B "host") then
    match args with [] => CfgPanic | a :: _ => if valid_ip a then CfgOk (mkConf a (port c) (logdir c) (loglevel c) (segs c) (dbnum c)) else CfgErr end
  else if beq n (B "port") then
    match args with [] => CfgPanic | a :: _ => match atoi a with Some z => CfgOk (mkConf (host c) z (logdir c) (loglevel c) (segs c) (dbnum c)) | None => CfgErr end end
  else if beq n (B "logdir") then
    match args with [] => CfgPanic | a :: _ => CfgOk (mkConf (host c) (port c) a (loglevel c) (segs c) (dbnum c)) end
  else if beq n (B "loglevel") then
    match args with [] => CfgPanic | a :: _ => CfgOk (mkConf (host c) (port c) (logdir c) (to_lower a) (segs c) (dbnum c)) end
  else if beq n (B "segnum") then
    match args with [] => CfgPanic | a :: _ => match atoi a with Some z => CfgOk (mkConf (host c) (port c) (logdir c) (loglevel c) z (dbnum c)) | None => CfgErr end end
  else if beq n (B "dbnum") then
    match args with [] => CfgPanic | a :: _ => match atoi a with Some z => CfgOk (mkConf (host c) (port c) (logdir c) (loglevel c) (segs c) z) | None => CfgErr end end
  else CfgOk c.

(** The loop of ParseConfFile (config.go:93-136): [None] if it takes more than [fuel] rounds.
    The test for the end of the file comes after the [continue] for blank lines.
    [bad]: reading ends in an error other than the end of the file, after the bytes [file]; then the function returns [err]
    (config.go:98), which is the nil of os.Open or of the last Atoi, and what was read of the last line is dropped. *)
Fixpoint load_any (bad : bool) (fuel : nat) (file : bytes) (c : config) : option cfg_out :=
  match fuel with
  | O => None
  | S f =>
      let '(line, eof, rest) := read_string file in
      if eof && bad then Some (CfgOk c) else
      match fields line with
      | [] => load_any bad f rest c
      | name :: args =>
          match apply_line c name args with
          | CfgOk c' => if eof then Some (CfgOk c') else load_any bad f rest c'
          | o => Some o
          end
      end
  end.
(** ... of a file that can be read to its end. *)
Definition load : nat -> bytes -> config -> option cfg_out := load_any false.
End Load.

(** ** logger/logger.go *)
Definition level_table : list bytes := [B "debug"; B "info"; B "warning"; B "panic"; B "error"].
(** The level of a name (logger.go:40-54): INFO if it is none of the table. *)
Fixpoint level_in (t : list bytes) (i : Z) (name : bytes) : Z :=
  match t with [] => 1 | x :: r => if beq x name then i else level_in r (i + 1) name end.
Definition level_of (name : bytes) : Z := level_in level_table 0 name.
(** Debug, Info, Warning, Panic, Error (logger.go:84-137): a message of [level] is written unless [level < logConf.LogLevel]. *)
Definition writes (level conf : Z) : bool := negb (level <? conf).
