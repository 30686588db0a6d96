(** Model of main.go: the command line (flag.Parse on the flags of config/config.go:45-53), config.Init, logger.Init, and server.Start
    up to the moment it serves. *)
From Verif Require Export Startup.

(** ** strconv.ParseInt(s, 0, 64), as flag.IntVar uses it (strconv/atoi.go) *)
(** c | ('x' - 'X') *)
Definition lowered (c : ascii) : N := N.lor (code c) 32.
(** The value of a digit; [None] if [c] is none of the [base]. *)
Definition digit_in (base : Z) (c : ascii) : option Z :=
  let n := code c in
  let d := if ((48 <=? n) && (n <=? 57))%N then Some (Z.of_N n - 48)
           else if ((97 <=? lowered c) && (lowered c <=? 122))%N then Some (Z.of_N (lowered c) - 97 + 10) else None in
  match d with Some d => if d <? base then Some d else None | None => None end.
(** The loop of ParseUint: the value, and whether an underscore was met.  Simplified: overflow is left to the range check at the end
    (both are errors, and the value only grows). *)
Fixpoint digits_from (base : Z) (s : bytes) (n : Z) (us : bool) : option (Z * bool) :=
  match s with
  | [] => Some (n, us)
  | c :: r => if Ascii.eqb c "_" then digits_from base r n true
              else match digit_in base c with Some d => digits_from base r (n * base + d) us | None => None end
  end.
(** underscoreOK: what was seen last. *)
Inductive saw := SawStart | SawDigit | SawUnder | SawOther.
Fixpoint under_loop (hex : bool) (w : saw) (s : bytes) : bool :=
  match s with
  | [] => match w with SawUnder => false | _ => true end
  | c :: r =>
      if ((48 <=? code c) && (code c <=? 57))%N || hex && ((97 <=? lowered c) && (lowered c <=? 102))%N then under_loop hex SawDigit r
      else if Ascii.eqb c "_" then match w with SawDigit => under_loop hex SawUnder r | _ => false end
      else match w with SawUnder => false | _ => under_loop hex SawOther r end
  end.
Definition base_letter (c : ascii) : option Z :=
  if (lowered c =? 98)%N then Some 2 else if (lowered c =? 111)%N then Some 8 else if (lowered c =? 120)%N then Some 16 else None.
Definition under_ok (s : bytes) : bool :=
  let s := match s with c :: r => if Ascii.eqb c "-" || Ascii.eqb c "+" then r else s | [] => s end in
  match s with
  | "0"%char :: x :: r => match base_letter x with Some b => under_loop (b =? 16) SawDigit r | None => under_loop false SawStart s end
  | _ => under_loop false SawStart s
  end.
(** The base and the digits: prefixes need at least one character after them. *)
Definition split_base (s : bytes) : Z * bytes :=
  match s with
  | "0"%char :: r =>
      match r with
      | x :: ((_ :: _) as d) => match base_letter x with Some b => (b, d) | None => (8, r) end
      | _ => (8, r)
      end
  | _ => (10, s)
  end.
Definition uint0 (s : bytes) : option Z :=
  match s with
  | [] => None
  | _ => let '(b, d) := split_base s in
         match digits_from b d 0 false with
         | Some (n, us) => if us && negb (under_ok s) then None else Some n
         | None => None
         end
  end.
Definition flag_int (s : bytes) : option Z :=
  let signed neg t :=
    match uint0 t with
    | Some n => if negb neg && (2 ^ 63 <=? n) || neg && (2 ^ 63 <? n) then None else Some (if neg then - n else n)
    | None => None
    end in
  match s with
  | [] => None
  | c :: r => if Ascii.eqb c "+" then signed false r else if Ascii.eqb c "-" then signed true r else signed false s
  end.

(** ** flag.Parse (flag/flag.go: FlagSet.Parse, parseOne) *)
(** The Config with the name of its file (config.go:27-35). *)
Record opts := mkOpts { cfg_file : bytes; conf_of : config }.
(** config.go:56-63 and the defaults of the flags. *)
Definition default_opts : opts := mkOpts [] default_config.
(** The flags (config.go:45-53). *)
Definition flag_names : list bytes := [B "config"; B "host"; B "port"; B "logdir"; B "loglevel"; B "segnum"; B "dbnum"].
(** flag.Value.Set; [None] is an error. *)
Definition set_flag (o : opts) (name v : bytes) : option opts :=
  let c := conf_of o in
  let with_conf c := Some (mkOpts (cfg_file o) c) in
  if beq name (B "config") then Some (mkOpts v c)
  else if beq name (B "host") then with_conf (mkConf v (port c) (logdir c) (loglevel c) (segs c) (dbnum c))
  else if beq name (B "logdir") then with_conf (mkConf (host c) (port c) v (loglevel c) (segs c) (dbnum c))
  else if beq name (B "loglevel") then with_conf (mkConf (host c) (port c) (logdir c) v (segs c) (dbnum c))
  else match flag_int v with
       | None => None
       | Some z =>
           if beq name (B "port") then with_conf (mkConf (host c) z (logdir c) (loglevel c) (segs c) (dbnum c))
           else if beq name (B "segnum") then with_conf (mkConf (host c) (port c) (logdir c) (loglevel c) z (dbnum c))
           else with_conf (mkConf (host c) (port c) (logdir c) (loglevel c) (segs c) z)
       end.
(** Without the dashes; [None]: the word is not a flag, or is "--", which ends them. *)
Definition strip_dashes (s : bytes) : option bytes :=
  match s with
  | "-"%char :: ("-"%char :: t) => match t with [] => None | _ => Some t end
  | "-"%char :: t => match t with [] => None | _ => Some t end
  | _ => None
  end.
(** The name and, after the first '=' from the second character on, the value. *)
Fixpoint cut_eq (s : bytes) : bytes * option bytes :=
  match s with
  | [] => ([], None)
  | c :: r => if Ascii.eqb c "=" then ([], Some r) else let '(n, v) := cut_eq r in (c :: n, v)
  end.
Definition cut_name (t : bytes) : bytes * option bytes :=
  match t with [] => ([], None) | c :: r => let '(n, v) := cut_eq r in (c :: n, v) end.
(** ExitOnError: an error ends the process with status 2, a request for help with 0. *)
Inductive flag_out := FlagOk (o : opts) | FlagExit (status : Z).
Fixpoint parse_flags (args : list bytes) (o : opts) : flag_out :=
  match args with
  | [] => FlagOk o
  | s :: rest =>
      match strip_dashes s with
      | None => FlagOk o
      | Some t =>
          match t with
          | [] => FlagExit 2
          | c :: _ =>
              if Ascii.eqb c "-" || Ascii.eqb c "=" then FlagExit 2 else
              let '(name, value) := cut_name t in
              if negb (bool_decide (name ∈ flag_names)) then
                if beq name (B "help") || beq name (B "h") then FlagExit 0 else FlagExit 2
              else
                match value with
                | Some v => match set_flag o name v with Some o' => parse_flags rest o' | None => FlagExit 2 end
                | None =>
                    match rest with
                    | [] => FlagExit 2
                    | v :: rest' => match set_flag o name v with Some o' => parse_flags rest' o' | None => FlagExit 2 end
                    end
                end
          end
      end
  end.

(** ** What the operating system answers *)
(** [ip_ok]: net.ParseIP(s) != nil.  [opens]: os.Open of the file: its contents as far as they can be read, and whether reading then
    fails (as for a directory) instead of coming to the end.  [dir_there], [dir_made]: os.Stat and os.Mkdir of the log directory;
    [log_opens]: os.OpenFile of redis.log in it (logger.go:57-68).  [listens]: net.Listen (server.go:17). *)
Record system := mkSys {
  ip_ok : bytes -> bool;
  opens : bytes -> option (bytes * bool);
  dir_there : bytes -> bool; dir_made : bytes -> bool; log_opens : bytes -> bool;
  listens : bytes -> Z -> bool }.

Section Main.
Context (sys : system).

(** config.Init after flag.Parse (config.go:68-81); [None]: not finished after [fuel] lines of the file. *)
Definition init_config (fuel : nat) (o : opts) : option cfg_out :=
  if negb (ip_ok sys (host (conf_of o))) then Some CfgErr
  else match cfg_file o with
       | [] => Some (CfgOk (conf_of o))
       | f => match opens sys f with
              | None => Some CfgErr
              | Some (s, bad) => load_any (ip_ok sys) bad fuel s (conf_of o)
              end
       end.
(** logger.Init (logger.go:39-74). *)
Definition init_logger (c : config) : bool :=
  (dir_there sys (logdir c) || dir_made sys (logdir c)) && log_opens sys (logdir c).
(** NewManager (server/handler.go:20-29): make, NewMemDb for each, dbs[0].  Running out of memory is not modelled. *)
Definition manager_ok (c : config) : bool :=
  make_ok (dbnum c) 8 && negb (dbnum c =? 0) && match new_memdb (segs c) with Some _ => true | None => false end.

Inductive start_out := Exits (status : Z) | Panics | Serves (c : config).
(** main (main.go:20-37). *)
Definition main (fuel : nat) (args : list bytes) : option start_out :=
  match parse_flags args default_opts with
  | FlagExit n => Some (Exits n)
  | FlagOk o =>
      match init_config fuel o with
      | None => None
      | Some CfgPanic => Some Panics
      | Some CfgErr => Some (Exits 1)
      | Some (CfgOk c) =>
          Some (if negb (init_logger c) then Exits 1
                else if negb (listens sys (host c) (port c)) then Exits 1
                else if manager_ok c then Serves c else Panics)
      end
  end.
End Main.
