(** Properties of the string commands: C24-C30. *)
From Verif Require Import GenericFacts DemoHist.

(** * C24  SET options *)
Section C24.
Context {P : Setup}.
Theorem C24_set n k v l os :
  named n "set" -> spells l os -> setopts_ok os -> implements (n :: k :: v :: l) (single (str k) (set_spec os v)).
Proof. exact (set_ok n k v l os). Qed.
(** Contradictory options are a syntax error and change nothing. *)
Theorem C24_contradiction n k v l os :
  named n "set" -> spells l os -> ~ setopts_ok os ->
  implements (n :: k :: v :: l) (single_fun (str k) (fun _ e => (err_syntax, e))).
Proof. exact (set_syntax n k v l os). Qed.
(** So is an option that is not supported (EXAT and PXAT among them). *)
Theorem C24_unsupported n k v l os a rest :
  named n "set" -> spells l os -> to_lower (str a) ∉ map B ["nx"; "xx"; "get"; "ex"; "px"; "keepttl"]%string ->
  implements (n :: k :: v :: l ++ a :: rest) (single (str k) (fun _ e r e' => e' = e /\ exists m, r = RErr m)).
Proof. exact (set_badopt n k v l os a rest). Qed.
End C24.
Print Assumptions C24_set.
Print Assumptions C24_contradiction.
Print Assumptions C24_unsupported.
Example C24_example :
  demo_does 100 demo ["set"; "n"; "v"; "px"; "2500"; "GET"] (bulk "41") "n" (estr "v" (Some 102)) /\
  demo_does 100 demo ["set"; "n"; "v"; "xx"; "keepttl"] ok "n" (estr "v" (Some 200)) /\
  demo_does 100 demo ["set"; "x"; "v"; "Nx"; "eX"; "7"] ok "x" (estr "v" (Some 107)) /\
  demo_does 100 demo ["set"; "x"; "v"; "xx"] (RBulk None) "x" None /\
  demo_does 100 demo ["set"; "n"; "v"; "ex"; "5"; "px"; "2500"] err_syntax "n" (estr "41" (Some 200)) /\
  demo_does 100 demo ["set"; "n"; "v"; "nx"; "exat"; "5"] err_int "n" (estr "41" (Some 200)).
Proof. repeat apply conj; demo. Qed.
(** A conditional SET that stores nothing loses the deadline, or sets a new one. *)
Theorem C24_failed_nx_refuted : view 100 demo (B "n") = estr "41" (Some 200) /\
  demo_does 100 demo ["set"; "n"; "v"; "nx"] (RBulk None) "n" (estr "41" None) /\
  demo_does 100 demo ["set"; "s"; "v"; "nx"; "ex"; "5"] (RBulk None) "s" (estr "hello" (Some 105)).
Proof. split; [vm_compute; reflexivity|]. split; demo. Qed.
(** A dangling EX or PX crashes the server; EX with a bad integer is taken for 0. *)
Theorem C24_dangling_refuted : dies 100 demo ["set"; "s"; "v"; "ex"] /\ dies 100 demo ["set"; "s"; "v"; "px"] /\
  demo_does 100 demo ["set"; "s"; "v"; "ex"; "soon"] ok "s" (estr "v" (Some 100)).
Proof. repeat apply conj; demo. Qed.

(** * C25  GETRANGE *)
Section C25.
Context {P : Setup}.
(** The stored string is assumed to be at most [max_int] bytes long, as every Go string is. *)
Theorem C25_getrange n k a b i j :
  named n "getrange" -> atoi (str a) = Some i -> atoi (str b) = Some j -> j <> max_int ->
  implements_when (str_short (str k)) [n; k; a; b] (single (str k) (getrange_spec i j)).
Proof. exact (getrange_ok n k a b i j). Qed.
Theorem C25_not_an_integer n k a b :
  named n "getrange" -> atoi (str a) = None \/ atoi (str b) = None ->
  implements_when (fun now S => S (str k) <> None) [n; k; a; b] (single_fun (str k) (fun _ e => (err_int, e))).
Proof. exact (getrange_bad n k a b). Qed.
End C25.
Print Assumptions C25_getrange.
Print Assumptions C25_not_an_integer.
Example C25_example :
  str_short (B "s") 100 (view 100 demo) /\
  demo_does 100 demo ["getrange"; "s"; "-3"; "-2"] (bulk "ll") "s" (estr "hello" None) /\
  demo_does 100 demo ["getrange"; "s"; "3"; "99"] (bulk "lo") "s" (estr "hello" None) /\
  demo_does 100 demo ["getrange"; "s"; "-99"; "1"] (bulk "he") "s" (estr "hello" None) /\
  demo_does 100 demo ["getrange"; "s"; "3"; "2"] (bulk "") "s" (estr "hello" None) /\
  demo_does 100 demo ["getrange"; "s"; "x"; "2"] err_int "s" (estr "hello" None).
Proof.
  split; [|repeat apply conj; demo]. intros s dl H. vm_compute in H. injection H as <- <-. vm_compute. discriminate.
Qed.
Theorem C25_max_int_refuted :
  demo_does 100 demo ["getrange"; "s"; "0"; "9223372036854775807"] (bulk "") "s" (estr "hello" None) /\
  demo_does 100 demo ["getrange"; "s"; "0"; "9223372036854775806"] (bulk "hello") "s" (estr "hello" None).
Proof. split; demo. Qed.

(** * C26  SETRANGE *)
Section C26.
Context {P : Setup}.
(** As implemented: what follows the written bytes is dropped.  The gap must be one Go can allocate. *)
Theorem C26_setrange n k a v o :
  named n "setrange" -> atoi (str a) = Some o -> 0 <= o ->
  implements_when (gap_ok (str k) o) [n; k; a; v] (single (str k) (setrange_spec overwrite o (str v))).
Proof. exact (setrange_ok n k a v o). Qed.
(** Whenever the write reaches the end of the value, this is what Redis documents. *)
Theorem C26_overwrite_keep old o v : (length old <= o + length v)%nat -> overwrite_keep old o v = overwrite old o v.
Proof. exact (overwrite_keep_long old o v). Qed.
Theorem C26_bad_offset n k a v :
  named n "setrange" -> (forall o, atoi (str a) = Some o -> o < 0) ->
  implements [n; k; a; v]
    (single_fun (str k) (fun _ e => (if decide (atoi (str a) = None) then err_int else err_offset, e))).
Proof. exact (setrange_bad n k a v). Qed.
End C26.
Print Assumptions C26_setrange.
Print Assumptions C26_overwrite_keep.
Print Assumptions C26_bad_offset.
Example C26_example :
  gap_ok (B "s") 7 100 (view 100 demo) /\
  demo_does 100 demo ["setrange"; "s"; "3"; "p!"] (RInt 5) "s" (estr "help!" None) /\
  demo_does 100 demo ["setrange"; "n"; "4"; "X"] (RInt 5) "n"
    (Some (VStr (Some (B "41" ++ [ascii_of_N 0; ascii_of_N 0] ++ B "X")), Some 200)) /\
  demo_does 100 demo ["setrange"; "s"; "-1"; "X"] err_offset "s" (estr "hello" None).
Proof. split; [vm_compute; discriminate|]. repeat apply conj; demo. Qed.
Theorem C26_keep_refuted : overwrite_keep (B "hello") 1 (B "EY") = B "hEYlo" /\
  demo_does 100 demo ["setrange"; "s"; "1"; "EY"] (RInt 3) "s" (estr "hEY" None).
Proof. split; [vm_compute; reflexivity|demo]. Qed.
(** A huge offset crashes the server. *)
Theorem C26_huge_refuted : dies 100 demo ["setrange"; "s"; "9223372036854775807"; "x"].
Proof. demo. Qed.

(** * C27  APPEND and STRLEN *)
Section C27.
Context {P : Setup}.
Theorem C27_append n k a : named n "append" -> implements [n; k; a] (single (str k) (append_spec a)).
Proof. exact (append_ok n k a). Qed.
Theorem C27_strlen n k : named n "strlen" -> implements [n; k] (single_fun (str k) strlen_spec).
Proof. exact (strlen_ok n k). Qed.
(** In any case it is the sum up to a multiple of 2^64. *)
Theorem C28_modulo z : fits64 (wrap64 z) /\ exists q, wrap64 z = z + q * 2 ^ 64.
Proof. exact (wrap64_spec z). Qed.
(** In any history in which the key is only appended to, the value grows by the pieces in order. *)
Theorem C27_append_history k l x t d s dl d' : appends k l x ->
  Inv d -> view t d k = Some (VStr s, dl) -> holds_until dl (last_time t l) -> hist t d l d' ->
  exists s', view (last_time t l) d' k = Some (VStr s', dl) /\ str s' = str s ++ x.
Proof. exact (fun H => append_history k l x H t d s dl d'). Qed.
End C27.
Print Assumptions C27_append.
Print Assumptions C27_strlen.
Print Assumptions C27_append_history.
Example C27_example (P := demo_setup) :
  plays 100 demo [(100, ["append"; "n"; "a"]); (101, ["del"; "s"]); (105, ["Append"; "n"; "bc"])] [RInt 3; RInt 1; RInt 5]
    110 ["get"; "n"] (bulk "41abc") "n" (estr "41abc" (Some 200)) /\
  demo_does 100 demo ["append"; "n"; "!!"] (RInt 4) "n" (estr "41!!" (Some 200)) /\
  demo_does 100 demo ["append"; "new"; "!!"] (RInt 2) "new" (estr "!!" None) /\
  demo_does 100 demo ["strlen"; "s"] (RInt 5) "s" (estr "hello" None) /\
  appends (B "n") [(100, C ["append"; "n"; "a"], RInt 3); (101, C ["del"; "s"], RInt 1); (105, C ["Append"; "n"; "bc"], RInt 5)]
    (B "a" ++ B "bc" ++ []).
Proof.
  repeat apply conj; try demo; try plays.
  apply (ap_app _ 100 _ (Some (B "n")) (Some (B "a"))); [reflexivity..|]. apply ap_other.
  { left. apply (bool_decide_unpack _). vm_compute. exact I. }
  apply (ap_app _ 105 _ (Some (B "n")) (Some (B "bc"))); [reflexivity..|]. constructor.
Qed.

(** * C28  Counters *)
Section C28.
Context {P : Setup}.
Theorem C28_incr n k : named n "incr" -> implements [n; k] (single_fun (str k) (counter_spec 1 err_int)).
Proof. exact (incr_ok n k). Qed.
Theorem C28_decr n k : named n "decr" -> implements [n; k] (single_fun (str k) (counter_spec (-1) err_int)).
Proof. exact (decr_ok n k). Qed.
Theorem C28_incrby n k a i : named n "incrby" -> atoi (str a) = Some i ->
  implements [n; k; a] (single_fun (str k) (counter_spec i err_int)).
Proof. exact (incrby_ok n k a i). Qed.
Theorem C28_decrby n k a i : named n "decrby" -> atoi (str a) = Some i ->
  implements [n; k; a] (single_fun (str k) (counter_spec (- i) (RErr (B "(error) value is not an integer")))).
Proof. exact (decrby_ok n k a i). Qed.
Theorem C28_bad_increment n k a : named n "incrby" \/ named n "decrby" -> atoi (str a) = None ->
  implements [n; k; a] (single_fun (str k) (fun _ e => (err_int, e))).
Proof. exact (incrby_bad n k a). Qed.
(** The result is exact whenever it fits in 64 bits. *)
Theorem C28_exact z : min_int <= z <= max_int -> wrap64 z = z.
Proof. exact (wrap64_small z). Qed.
(** In any history in which the key is only counted up and down, the value changes by the sum. *)
Theorem C28_counter_history k l z t d s x dl d' : counts k l z ->
  Inv d -> view t d k = Some (VStr s, dl) -> atoi (str s) = Some x -> holds_until dl (last_time t l) ->
  hist t d l d' ->
  exists s', view (last_time t l) d' k = Some (VStr s', dl) /\ atoi (str s') = Some (wrap64 (x + z)).
Proof. exact (fun H => counter_history k l z H t d s x dl d'). Qed.
Theorem C28_incrbyfloat n k a i : named n "incrbyfloat" -> parse_float (str a) = Some i ->
  implements [n; k; a] (single_fun (str k) (incrbyfloat_spec i)).
Proof. exact (incrbyfloat_ok n k a i). Qed.
End C28.
Print Assumptions C28_incr.
Print Assumptions C28_decr.
Print Assumptions C28_incrby.
Print Assumptions C28_decrby.
Print Assumptions C28_bad_increment.
Print Assumptions C28_exact.
Print Assumptions C28_modulo.
Print Assumptions C28_counter_history.
Print Assumptions C28_incrbyfloat.
Example C28_example (P := demo_setup) :
  plays 100 demo [(100, ["incr"; "n"]); (100, ["decrby"; "n"; "2"])] [RInt 42; RInt 40]
    200 ["get"; "n"] (bulk "40") "n" (estr "40" (Some 200)) /\
  demo_does 100 demo ["incr"; "n"] (RInt 42) "n" (estr "42" (Some 200)) /\
  demo_does 100 demo ["decr"; "n"] (RInt 40) "n" (estr "40" (Some 200)) /\
  demo_does 100 demo ["incrby"; "n"; "-50"] (RInt (-9)) "n" (estr "-9" (Some 200)) /\
  demo_does 100 demo ["decrby"; "n"; "50"] (RInt (-9)) "n" (estr "-9" (Some 200)) /\
  demo_does 100 demo ["incr"; "s"] err_int "s" (estr "hello" None) /\
  demo_does 100 demo ["incrby"; "n"; "1x"] err_int "n" (estr "41" (Some 200)) /\
  demo_does 100 demo ["incrbyfloat"; "f"; "5"] (bulk "12") "f" (estr "12" None) /\
  counts (B "n") [(100, C ["incr"; "n"], RInt 42); (100, C ["decrby"; "n"; "2"], RInt 40)] (1 + (- 2 + 0)).
Proof.
  repeat apply conj; try demo; try plays.
  apply (ct_incr _ 100 _ (Some (B "n"))); [reflexivity..|]. apply (ct_decrby _ 100 _ (Some (B "n")) _ 2); [reflexivity..|]. constructor.
Qed.
(** Overflow wraps around; a missing key is not created. *)
Theorem C28_overflow_refuted :
  demo_does 100 demo ["incrby"; "n"; "9223372036854775807"] (RInt (-9223372036854775768)) "n"
    (estr "-9223372036854775768" (Some 200)).
Proof. demo. Qed.
Theorem C28_missing_refuted : demo_does 100 demo ["incr"; "missing"] (RInt 0) "missing" None.
Proof. demo. Qed.

(** * C29  MSET and MGET *)
Section C29.
Context {P : Setup}.
Theorem C29_mset n ps : named n "mset" -> ps <> [] -> implements (n :: flat ps) (mset_spec ps).
Proof. exact (mset_ok n ps). Qed.
Theorem C29_mget n ks : named n "mget" -> ks <> [] ->
  implements_on (fun now d => forall k, k ∈ ks -> unexpired now d (str k)) (n :: ks) (mget_spec ks).
Proof. exact (mget_ok n ks). Qed.
End C29.
Print Assumptions C29_mset.
Print Assumptions C29_mget.
Example C29_example :
  demo_does 100 demo ["mset"; "s"; "1"; "n"; "2"; "s"; "3"] ok "s" (estr "3" None) /\
  demo_does 100 demo ["mset"; "s"; "1"; "n"; "2"; "s"; "3"] ok "n" (estr "2" None) /\
  demo_does 100 demo ["mget"; "s"; "h"; "n"; "missing"; "s"]
    (RArr (Some [bulk "hello"; RBulk None; bulk "41"; RBulk None; bulk "hello"])) "s" (estr "hello" None).
Proof. repeat apply conj; demo. Qed.

(** * C30  SETEX and SETNX *)
Section C30.
Context {P : Setup}.
Theorem C30_setex n k a v i : named n "setex" -> atoi (str a) = Some i ->
  implements [n; k; a; v] (single_fun (str k) (setex_spec i v)).
Proof. exact (setex_ok n k a v i). Qed.
Theorem C30_setnx n k v : named n "setnx" -> implements [n; k; v] (single_fun (str k) (setnx_spec v)).
Proof. exact (setnx_ok n k v). Qed.
End C30.
Print Assumptions C30_setex.
Print Assumptions C30_setnx.
Example C30_example :
  demo_does 100 demo ["setex"; "h"; "5"; "v"] ok "h" (estr "v" (Some 105)) /\
  demo_does 100 demo ["setnx"; "old"; "v"] (RInt 1) "old" (estr "v" None) /\
  demo_does 100 demo ["setnx"; "n"; "v"] (RInt 0) "n" (estr "41" (Some 200)).
Proof. repeat apply conj; demo. Qed.
