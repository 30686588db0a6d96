(** Properties of the hash commands: C31-C34. *)
From Verif Require Import GenericFacts HashProofs Demo.

(** * C31  A hash behaves like a finite map *)
Section C31.
Context {P : Setup}.
(** HSET updates the map and answers the number of new fields. *)
Theorem C31_hset n k ps :
  named n "hset" -> ps <> [] ->
  implements (n :: k :: flat ps) (single (str k) (hset_spec ps RInt)).
Proof. exact (hset_ok n k ps). Qed.
Theorem C31_hmset n k ps :
  named n "hmset" -> ps <> [] ->
  implements (n :: k :: flat ps) (single (str k) (hset_spec ps (fun _ => ok))).
Proof. exact (hmset_ok n k ps). Qed.
(** HDEL removes fields, and the key when none is left. *)
Theorem C31_hdel n k fs :
  named n "hdel" -> fs <> [] ->
  implements (n :: k :: fs) (single (str k) (hdel_spec (map str fs))).
Proof. exact (hdel_ok n k fs). Qed.
Theorem C31_hget n k f :
  named n "hget" ->
  implements [n; k; f] (single (str k) (hash_reads (RBulk None) (fun h r => r = RBulk (field h (str f))))).
Proof. exact (hget_ok n k f). Qed.
Theorem C31_hmget n k fs :
  named n "hmget" -> fs <> [] ->
  implements (n :: k :: fs) (single (str k) (hash_reads (RArr (Some []))
    (fun h r => r = RArr (Some (map (fun f => RBulk (field h (str f))) fs))))).
Proof. exact (hmget_ok n k fs). Qed.
Theorem C31_hexists n k f :
  named n "hexists" ->
  implements [n; k; f] (single (str k) (hash_reads (RInt 0)
    (fun h r => r = RInt (if decide (is_Some (h !! str f)) then 1 else 0)))).
Proof. exact (hexists_ok n k f). Qed.
Theorem C31_hlen n k :
  named n "hlen" ->
  implements [n; k] (single (str k) (hash_reads (RInt 0) (fun h r => r = RInt (Z.of_nat (size h))))).
Proof. exact (hlen_ok n k). Qed.
Theorem C31_hstrlen n k f :
  named n "hstrlen" ->
  implements [n; k; f] (single (str k) (hash_reads (RInt 0) (fun h r => r = RInt (zlen (str (field h (str f))))))).
Proof. exact (hstrlen_ok n k f). Qed.
End C31.
Print Assumptions C31_hset.
Print Assumptions C31_hmset.
Print Assumptions C31_hdel.
Print Assumptions C31_hget.
Print Assumptions C31_hmget.
Print Assumptions C31_hexists.
Print Assumptions C31_hlen.
Print Assumptions C31_hstrlen.
Example C31_example :
  demo_does 100 demo ["hset"; "h"; "c"; "1"; "a"; "2"; "c"; "3"] (RInt 1) "h" (ehash [("a", "2"); ("b", "x"); ("c", "3")] None) /\
  demo_does 100 demo ["hmset"; "new"; "c"; "1"] ok "new" (ehash [("c", "1")] None) /\
  demo_does 100 demo ["hdel"; "h"; "b"; "zz"; "b"] (RInt 1) "h" (ehash [("a", "1")] None) /\
  demo_does 100 demo ["hdel"; "h"; "b"; "a"] (RInt 2) "h" None /\
  demo_does 100 demo ["hget"; "h"; "b"] (bulk "x") "h" (ehash [("a", "1"); ("b", "x")] None) /\
  demo_does 100 demo ["hmget"; "h"; "b"; "zz"; "a"] (RArr (Some [bulk "x"; RBulk None; bulk "1"])) "h" (ehash [("a", "1"); ("b", "x")] None) /\
  demo_does 100 demo ["hexists"; "h"; "b"] (RInt 1) "h" (ehash [("a", "1"); ("b", "x")] None) /\
  demo_does 100 demo ["hlen"; "h"] (RInt 2) "h" (ehash [("a", "1"); ("b", "x")] None) /\
  demo_does 100 demo ["hstrlen"; "h"; "b"] (RInt 1) "h" (ehash [("a", "1"); ("b", "x")] None).
Proof. repeat apply conj; demo. Qed.

(** * C32  Hash enumerations *)
Section C32.
Context {P : Setup}.
Theorem C32_hgetall n k :
  named n "hgetall" ->
  implements [n; k] (single (str k) (hash_reads (RArr (Some []))
    (fun h r => exists l, l ≡ₚ map_to_list h /\
       r = RArr (Some (concat (map (fun p => [RBulk (Some p.1); RBulk p.2]) l)))))).
Proof. exact (hgetall_ok n k). Qed.
Theorem C32_hkeys n k :
  named n "hkeys" ->
  implements [n; k] (single (str k) (hash_reads (RArr (Some []))
    (fun h r => exists l, l ≡ₚ fields h /\ r = RArr (Some (map (fun f => RBulk (Some f)) l))))).
Proof. exact (hkeys_ok n k). Qed.
Theorem C32_hvals n k :
  named n "hvals" ->
  implements [n; k] (single (str k) (hash_reads (RArr (Some []))
    (fun h r => exists l, l ≡ₚ (map_to_list h).*2 /\ r = RArr (Some (map RBulk l))))).
Proof. exact (hvals_ok n k). Qed.
(** The hash must not be empty (a state the server itself can produce, see C47). *)
Theorem C32_hrandfield n k :
  named n "hrandfield" ->
  implements_when (hash_nonempty (str k)) [n; k] (single (str k) (hrandfield_reads 1 false)).
Proof. exact (hrandfield1_ok n k). Qed.
(** A negative count must be one Go can allocate an array for. *)
Theorem C32_hrandfield_count n k a count :
  named n "hrandfield" -> atoi (str a) = Some count ->
  - count * 24 <= 2 ^ 48 ->
  implements_when (fun now S => hash_nonempty (str k) now S \/ (0 <= count /\ count <> 1)) [n; k; a]
    (single (str k) (hrandfield_reads count false)).
Proof. exact (hrandfield2_ok n k a count). Qed.
Theorem C32_hrandfield_withvalues n k a w count :
  named n "hrandfield" -> atoi (str a) = Some count ->
  named w "withvalues" -> - count * 24 <= 2 ^ 48 ->
  implements_when (fun now S => hash_nonempty (str k) now S \/ (0 <= count /\ count <> 1)) [n; k; a; w]
    (single (str k) (hrandfield_reads count true)).
Proof. exact (hrandfield3_ok n k a w count). Qed.
End C32.
Print Assumptions C32_hgetall.
Print Assumptions C32_hkeys.
Print Assumptions C32_hvals.
Print Assumptions C32_hrandfield.
Print Assumptions C32_hrandfield_count.
Print Assumptions C32_hrandfield_withvalues.
Example C32_example :
  hash_nonempty (B "h") 100 (view 100 demo) /\
  demo_does 100 demo ["hgetall"; "h"] (RArr (Some [bulk "b"; bulk "x"; bulk "a"; bulk "1"])) "h" (ehash [("a", "1"); ("b", "x")] None) /\
  demo_does 100 demo ["hkeys"; "h"] (RArr (Some [bulk "b"; bulk "a"])) "h" (ehash [("a", "1"); ("b", "x")] None) /\
  demo_does 100 demo ["hvals"; "h"] (RArr (Some [bulk "x"; bulk "1"])) "h" (ehash [("a", "1"); ("b", "x")] None) /\
  demo_does 100 demo ["hrandfield"; "h"] (bulk "b") "h" (ehash [("a", "1"); ("b", "x")] None) /\
  demo_does 100 demo ["hrandfield"; "h"; "5"] (RArr (Some [bulk "b"; bulk "a"])) "h" (ehash [("a", "1"); ("b", "x")] None) /\
  demo_does 100 demo ["hrandfield"; "h"; "-3"; "withvalues"]
    (RArr (Some [bulk "b"; bulk "x"; bulk "b"; bulk "x"; bulk "b"; bulk "x"])) "h" (ehash [("a", "1"); ("b", "x")] None).
Proof.
  split; [|repeat apply conj; demo]. intros dl H.
  assert (E : bool_decide (view 100 demo (B "h") = Some (VHash ∅, None)) = false) by (vm_compute; reflexivity).
  apply bool_decide_eq_false in E. apply E. rewrite H. f_equal. f_equal.
  assert (E2 : option_map snd (view 100 demo (B "h")) = Some None) by (vm_compute; reflexivity).
  rewrite H in E2. cbn in E2. congruence.
Qed.
(** A huge negative count crashes the server, and so does HRANDFIELD on an empty hash. *)
Theorem C32_huge_refuted : dies 100 demo ["hrandfield"; "h"; "-9223372036854775807"].
Proof. demo. Qed.
Theorem C32_empty_refuted :
  demo_does 100 demo ["hincrby"; "new"; "f"; "x"] err_int "new" (ehash [] None) /\
  then_dies 100 demo [["hincrby"; "new"; "f"; "x"]] ["hrandfield"; "new"].
Proof. split; demo. Qed.

(** * C33  HINCRBY *)
Section C33.
Context {P : Setup}.
(** The sum wraps around; it is exact whenever it fits in 64 bits ([C28_exact]). *)
Theorem C33_hincrby n k f a i :
  named n "hincrby" -> atoi (str a) = Some i ->
  implements [n; k; f; a] (single_fun (str k) (hincrby_spec (str f) i)).
Proof. exact (hincrby_ok n k f a i). Qed.
(** An increment that is not an integer: an error, but a missing key is created empty. *)
Theorem C33_hincrby_not_an_integer n k f a :
  named n "hincrby" -> atoi (str a) = None ->
  implements [n; k; f; a] (single_fun (str k) (hincr_bad_spec err_int)).
Proof. exact (hincrby_bad n k f a). Qed.
Theorem C33_hincrbyfloat n k f a i :
  named n "hincrbyfloat" -> parse_float (str a) = Some i ->
  implements [n; k; f; a] (single_fun (str k) (hincrbyfloat_spec (str f) i)).
Proof. exact (hincrbyfloat_ok n k f a i). Qed.
Theorem C33_hincrbyfloat_not_a_number n k f a :
  named n "hincrbyfloat" -> parse_float (str a) = None ->
  implements [n; k; f; a] (single_fun (str k) (hincr_bad_spec err_float)).
Proof. exact (hincrbyfloat_bad n k f a). Qed.
End C33.
Print Assumptions C33_hincrby.
Print Assumptions C33_hincrby_not_an_integer.
Print Assumptions C33_hincrbyfloat.
Print Assumptions C33_hincrbyfloat_not_a_number.
Example C33_example :
  demo_does 100 demo ["hincrby"; "h"; "a"; "-5"] (RInt (-4)) "h" (ehash [("a", "-4"); ("b", "x")] None) /\
  demo_does 100 demo ["hincrby"; "h"; "c"; "7"] (RInt 7) "h" (ehash [("a", "1"); ("b", "x"); ("c", "7")] None) /\
  demo_does 100 demo ["hincrby"; "new"; "c"; "7"] (RInt 7) "new" (ehash [("c", "7")] None) /\
  demo_does 100 demo ["hincrby"; "h"; "b"; "7"] (RErr (B "hash value is not an integer")) "h" (ehash [("a", "1"); ("b", "x")] None) /\
  demo_does 100 demo ["hincrbyfloat"; "h"; "a"; "7"] (bulk "8") "h" (ehash [("a", "8"); ("b", "x")] None).
Proof. repeat apply conj; demo. Qed.
Theorem C33_bad_increment_refuted : view 100 demo (B "new") = None /\
  demo_does 100 demo ["hincrby"; "new"; "c"; "x"] err_int "new" (ehash [] None).
Proof. split; [vm_compute; reflexivity|demo]. Qed.

(** * C34  HSETNX *)
Section C34.
Context {P : Setup}.
(** As implemented; in particular an existing field is never overwritten. *)
Theorem C34_hsetnx n k f v :
  named n "hsetnx" ->
  implements [n; k; f; v] (single_fun (str k) (hsetnx_spec (str f) v)).
Proof. exact (hsetnx_ok n k f v). Qed.
End C34.
Print Assumptions C34_hsetnx.
Example C34_example :
  demo_does 100 demo ["hsetnx"; "new"; "f"; "v"] (RInt 1) "new" (ehash [("f", "v")] None) /\
  demo_does 100 demo ["hsetnx"; "h"; "a"; "v"] (RInt 0) "h" (ehash [("a", "1"); ("b", "x")] None).
Proof. split; demo. Qed.
(** Redis would set the missing field. *)
Theorem C34_hsetnx_refuted :
  demo_does 100 demo ["hsetnx"; "h"; "c"; "v"] (RInt 0) "h" (ehash [("a", "1"); ("b", "x")] None) /\
  fst (hsetnx_redis (B "c") (Some (B "v")) 100 (view 100 demo (B "h"))) = RInt 1.
Proof. split; [demo|vm_compute; reflexivity]. Qed.
