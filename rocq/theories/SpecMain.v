(** How the process starts. *)
From Verif Require Export Main SpecConfig.

(** ** Integers on the command line: Go's integer literals with a sign *)
(** [c] is the digit [d] of the base [b] (at most 16). *)
Definition is_digit_of (b : Z) (c : ascii) (d : Z) : Prop := 0 <= d < b /\
  (B "0123456789abcdef" !! Z.to_nat d = Some c \/ B "0123456789ABCDEF" !! Z.to_nat d = Some c).
(** Further digits after the number [n], each with an underscore before it or not, give [m]. *)
Inductive further (b : Z) : bytes -> Z -> Z -> Prop :=
| fu_nil n : further b [] n n
| fu_digit c d r n m : is_digit_of b c d -> further b r (n * b + d) m -> further b (c :: r) n m
| fu_under c d r n m : is_digit_of b c d -> further b r (n * b + d) m -> further b ("_"%char :: c :: r) n m.
Inductive literal : bytes -> Z -> Prop :=
| lit_decimal c d r n : is_digit_of 10 c d -> d <> 0 -> further 10 r d n -> literal (c :: r) n
| lit_octal r n : further 8 r 0 n -> literal (B "0" ++ r) n
| lit_prefix x b r n : (x, b) ∈ [(B "0b", 2); (B "0B", 2); (B "0o", 8); (B "0O", 8); (B "0x", 16); (B "0X", 16)] -> r <> [] -> further b r 0 n -> literal (x ++ r) n.
Definition int_word (s : bytes) (z : Z) : Prop := - 2 ^ 63 <= z < 2 ^ 63 /\
  exists t n, literal t n /\ ((s = t \/ s = B "+" ++ t) /\ z = n \/ s = B "-" ++ t /\ z = - n).

(** ** The command line *)
(** [w] is a flag: one or two dashes and the text [t]. *)
Definition dashed (w t : bytes) : Prop := (w = B "-" ++ t \/ w = B "--" ++ t) /\ exists c r, t = c :: r /\ c <> "-"%char /\ c <> "="%char.
(** [w] is not a flag, or ends them. *)
Definition no_flag (w : bytes) : Prop := w = [] \/ w = B "-" \/ w = B "--" \/ exists c r, w = c :: r /\ c <> "-"%char.
(** [w] begins like a flag but is none. *)
Definition misdashed (w : bytes) : Prop := exists c r, (c = "-"%char \/ c = "="%char) /\ (w = B "--" ++ c :: r \/ c = "="%char /\ w = B "-" ++ c :: r).
Definition takes_int (n : bytes) : Prop := n ∈ [B "port"; B "segnum"; B "dbnum"].
Definition known_flag (n : bytes) : Prop := n ∈ [B "config"; B "host"; B "logdir"; B "loglevel"] \/ takes_int n.
Definition fine_value (n v : bytes) : Prop := takes_int n -> exists z, int_word v z.
(** How reading the flags ends: all is well, help is asked for, or there is something wrong. *)
Inductive ending := AllWell | AskedHelp | Wrong.
(** The settings (name and value) that the arguments make, in order, and how it ends. *)
Inductive flags : list bytes -> list (bytes * bytes) -> ending -> Prop :=
| fl_end : flags [] [] AllWell
| fl_stop w r : no_flag w -> flags (w :: r) [] AllWell
| fl_same w n v r kvs e : dashed w (n ++ B "=" ++ v) -> "="%char ∉ n -> known_flag n -> fine_value n v -> flags r kvs e -> flags (w :: r) ((n, v) :: kvs) e
| fl_next w n v r kvs e : dashed w n -> "="%char ∉ n -> known_flag n -> fine_value n v -> flags r kvs e -> flags (w :: v :: r) ((n, v) :: kvs) e
| fl_misdashed w r : misdashed w -> flags (w :: r) [] Wrong
| fl_help w n u r : dashed w (n ++ u) -> "="%char ∉ n -> (u = [] \/ exists v, u = B "=" ++ v) -> n = B "h" \/ n = B "help" -> flags (w :: r) [] AskedHelp
| fl_unknown w n u r : dashed w (n ++ u) -> "="%char ∉ n -> (u = [] \/ exists v, u = B "=" ++ v) -> ~ known_flag n -> n <> B "h" -> n <> B "help" -> flags (w :: r) [] Wrong
| fl_missing w n : dashed w n -> "="%char ∉ n -> known_flag n -> flags [w] [] Wrong
| fl_bad_same w n v r : dashed w (n ++ B "=" ++ v) -> "="%char ∉ n -> takes_int n -> ~ (exists z, int_word v z) -> flags (w :: r) [] Wrong
| fl_bad_next w n v r : dashed w n -> "="%char ∉ n -> takes_int n -> ~ (exists z, int_word v z) -> flags (w :: v :: r) [] Wrong.
(** The last value given for a name. *)
Definition setting (name : string) (kvs : list (bytes * bytes)) : option bytes :=
  list.last (omap (fun kv => if decide (kv.1 = B name) then Some kv.2 else None) kvs).
Definition int_setting (name : string) (kvs : list (bytes * bytes)) (dflt z : Z) : Prop :=
  match setting name kvs with None => z = dflt | Some v => int_word v z end.
(** The configuration the flags make. *)
Definition by_flags (kvs : list (bytes * bytes)) (c : config) : Prop :=
  host c = default (B "127.0.0.1") (setting "host" kvs) /\ logdir c = default (B "./") (setting "logdir" kvs) /\
  loglevel c = default (B "info") (setting "loglevel" kvs) /\
  int_setting "port" kvs 6379 (port c) /\ int_setting "segnum" kvs 100 (segs c) /\ int_setting "dbnum" kvs 16 (dbnum c).

(** ** The configuration file *)
(** What the file makes of the configuration [c]; [broken]: reading it ends in an error; then its last, incomplete line does not count. *)
Inductive file_end := Accepted (c : config) | Rejected | FilePanic | FileLoop.
Inductive file_does (valid_ip : bytes -> bool) (s : bytes) (broken : bool) (c : config) : file_end -> Prop :=
| fd_accepted ls wss c' : lines s ls -> Forall2 words_of (if broken then removelast ls else ls) wss -> Forall (good_line valid_ip) wss ->
    (broken = false -> list.last wss <> Some []) -> configured wss c c' -> file_does valid_ip s broken c (Accepted c')
| fd_loop ls wss : lines s ls -> broken = false -> Forall2 words_of ls wss -> Forall (good_line valid_ip) wss -> list.last wss = Some [] ->
    file_does valid_ip s broken c FileLoop
| fd_rejected ls pre ws post : lines s ls -> Forall2 words_of (if broken then removelast ls else ls) (pre ++ ws :: post) -> Forall (good_line valid_ip) pre ->
    wrong_line valid_ip ws -> file_does valid_ip s broken c Rejected
| fd_panic ls pre ws post : lines s ls -> Forall2 words_of (if broken then removelast ls else ls) (pre ++ ws :: post) -> Forall (good_line valid_ip) pre ->
    bare_line ws -> file_does valid_ip s broken c FilePanic.

(** ** The start *)
Section Start.
Context (sys : system).
(** What happens up to the configuration. *)
Inductive fate_of_config := Configured (c : config) | Stops (status : Z) | ConfigPanics | ConfigLoops.
Inductive configures (args : list bytes) : fate_of_config -> Prop :=
| co_help kvs : flags args kvs AskedHelp -> configures args (Stops 0)
| co_wrong kvs : flags args kvs Wrong -> configures args (Stops 2)
| co_ip kvs c : flags args kvs AllWell -> by_flags kvs c -> ip_ok sys (host c) = false -> configures args (Stops 1)
| co_no_file kvs c : flags args kvs AllWell -> by_flags kvs c -> ip_ok sys (host c) = true -> default [] (setting "config" kvs) = [] -> configures args (Configured c)
| co_not_open kvs c f : flags args kvs AllWell -> by_flags kvs c -> ip_ok sys (host c) = true -> setting "config" kvs = Some f -> f <> [] -> opens sys f = None ->
    configures args (Stops 1)
| co_file kvs c f s broken e : flags args kvs AllWell -> by_flags kvs c -> ip_ok sys (host c) = true -> setting "config" kvs = Some f -> f <> [] -> opens sys f = Some (s, broken) ->
    file_does (ip_ok sys) s broken c e ->
    configures args (match e with Accepted c' => Configured c' | Rejected => Stops 1 | FilePanic => ConfigPanics | FileLoop => ConfigLoops end).
(** With a configuration: the log can be opened, the address can be listened on, the databases can be made.
    (Twice the number of segments is computed in 64 bits, so the lowest numbers come out as acceptable.) *)
Definition logs (c : config) : Prop := (dir_there sys (logdir c) = true \/ dir_made sys (logdir c) = true) /\ log_opens sys (logdir c) = true.
Definition room (c : config) : Prop := 1 <= dbnum c <= 2 ^ 45 /\ (0 <= segs c <= 2 ^ 44 \/ - 2 ^ 63 <= segs c <= - 2 ^ 63 + 2 ^ 44).
End Start.
