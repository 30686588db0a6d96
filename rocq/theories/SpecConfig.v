(** What a configuration file means. *)
From Verif Require Export Config.

(** The lines of a file; the last one is what follows the last newline. *)
Inductive lines : bytes -> list bytes -> Prop :=
| lines_one l : LF ∉ l -> lines l [l]
| lines_more l f ls : LF ∉ l -> lines f ls -> lines (l ++ LF :: f) (l :: ls).

(** The white space characters, by code point: tab to carriage return, space, and those outside ASCII. *)
Definition white_space : list N :=
  [9; 10; 11; 12; 13; 32; 0x85; 0xA0; 0x1680; 0x2000; 0x2001; 0x2002; 0x2003; 0x2004; 0x2005; 0x2006; 0x2007; 0x2008;
   0x2009; 0x200A; 0x2028; 0x2029; 0x202F; 0x205F; 0x3000]%N.
(** UTF-8, up to three bytes. *)
Definition utf8 (n : N) : bytes :=
  map ascii_of_N (if n <? 0x80 then [n] else if n <? 0x800 then [0xC0 + n / 64; 0x80 + n mod 64]
    else [0xE0 + n / 4096; 0x80 + n / 64 mod 64; 0x80 + n mod 64])%N.

(** The words of a line: separated by white space, without white space in them. *)
Definition no_space (w : bytes) : Prop := forall u p v, w = u ++ p ++ v -> p ∉ spaces.
Inductive words_of : bytes -> list bytes -> Prop :=
| words_nil : words_of [] []
| words_space p s ws : p ∈ spaces -> words_of s ws -> words_of (p ++ s) ws
| words_word w s ws : w <> [] -> no_space w -> (s = [] \/ exists p r, s = p ++ r /\ p ∈ spaces) -> words_of s ws -> words_of (w ++ s) (w :: ws).

(** A line (its words) is a directive [name] with argument [a]. *)
Definition directive (name : bytes) (ws : list bytes) : option bytes :=
  match ws with n :: a :: _ => if beq (to_lower n) name then Some a else None | _ => None end.
(** The argument of the last directive [name]. *)
Definition last_arg (name : string) (wss : list (list bytes)) : option bytes := list.last (omap (directive (B name)) wss).

(** Recognised names; those that take an integer. *)
Definition int_names : list bytes := [B "port"; B "segnum"; B "dbnum"].
Definition all_names : list bytes := [B "host"; B "logdir"; B "loglevel"] ++ int_names.
(** A line without fault: blank, or of an unknown name, or with a well-formed argument. *)
Definition good_line (valid_ip : bytes -> bool) (ws : list bytes) : Prop :=
  match ws with
  | [] => True
  | n :: args => to_lower n ∈ all_names -> exists a r, args = a :: r /\
      (to_lower n = B "host" -> valid_ip a = true) /\ (to_lower n ∈ int_names -> is_Some (atoi a))
  end.
(** A recognised name and nothing after it. *)
Definition bare_line (ws : list bytes) : Prop := exists n, ws = [n] /\ to_lower n ∈ all_names.
(** A bad argument. *)
Definition wrong_line (valid_ip : bytes -> bool) (ws : list bytes) : Prop := exists n a r, ws = n :: a :: r /\
  (to_lower n = B "host" /\ valid_ip a = false \/ to_lower n ∈ int_names /\ atoi a = None).

(** The log levels, from the least to the most severe. *)
Definition severities : list bytes := map B ["debug"; "info"; "warning"; "panic"; "error"]%string.

(** The configuration [c'] is [c] changed by the directives. *)
Definition int_field (name : string) (wss : list (list bytes)) (old new : Z) : Prop :=
  match last_arg name wss with None => new = old | Some a => atoi a = Some new end.
Definition configured (wss : list (list bytes)) (c c' : config) : Prop :=
  host c' = default (host c) (last_arg "host" wss) /\ logdir c' = default (logdir c) (last_arg "logdir" wss) /\
  loglevel c' = default (loglevel c) (to_lower <$> last_arg "loglevel" wss) /\
  int_field "port" wss (port c) (port c') /\ int_field "segnum" wss (segs c) (segs c') /\ int_field "dbnum" wss (dbnum c) (dbnum c').
