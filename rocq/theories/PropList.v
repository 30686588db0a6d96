(** Properties of the list commands: C35-C40. *)
From Verif Require Import GenericFacts ListProofs LposProofs Demo.

(** * C35  Push and pop form a deque *)
Section C35.
Context {P : Setup}.
Theorem C35_lpush n k xs :
  named n "lpush" -> xs <> [] ->
  implements (n :: k :: xs) (single_fun (str k) (push_spec true xs)).
Proof. exact (lpush_ok n k xs). Qed.
Theorem C35_rpush n k xs :
  named n "rpush" -> xs <> [] ->
  implements (n :: k :: xs) (single_fun (str k) (push_spec false xs)).
Proof. exact (rpush_ok n k xs). Qed.
(** Only an existing list is pushed to. *)
Theorem C35_lpushx n k xs :
  named n "lpushx" -> xs <> [] ->
  implements (n :: k :: xs) (single_fun (str k) (pushx_spec true xs)).
Proof. exact (lpushx_ok n k xs). Qed.
Theorem C35_rpushx n k xs :
  named n "rpushx" -> xs <> [] ->
  implements (n :: k :: xs) (single_fun (str k) (pushx_spec false xs)).
Proof. exact (rpushx_ok n k xs). Qed.
(** The key of an emptied list is deleted. *)
Theorem C35_lpop n k :
  named n "lpop" -> implements [n; k] (single (str k) (pop_spec true)).
Proof. exact (lpop_ok n k). Qed.
Theorem C35_rpop n k :
  named n "rpop" -> implements [n; k] (single (str k) (pop_spec false)).
Proof. exact (rpop_ok n k). Qed.
(** With count 1 the reply is the element. *)
Theorem C35_lpop_one n k a :
  named n "lpop" -> atoi (str a) = Some 1 ->
  implements [n; k; a] (single (str k) (pop_spec true)).
Proof. exact (lpop1_ok n k a). Qed.
Theorem C35_rpop_one n k a :
  named n "rpop" -> atoi (str a) = Some 1 ->
  implements [n; k; a] (single (str k) (pop_spec false)).
Proof. exact (rpop1_ok n k a). Qed.
Theorem C35_lpop_count n k a c :
  named n "lpop" -> atoi (str a) = Some c -> 1 < c ->
  implements [n; k; a] (single (str k) (popn_spec true c)).
Proof. exact (lpopn_ok n k a c). Qed.
Theorem C35_rpop_count n k a c :
  named n "rpop" -> atoi (str a) = Some c -> 1 < c ->
  implements [n; k; a] (single (str k) (popn_spec false c)).
Proof. exact (rpopn_ok n k a c). Qed.
End C35.
Print Assumptions C35_lpush.
Print Assumptions C35_rpush.
Print Assumptions C35_lpushx.
Print Assumptions C35_rpushx.
Print Assumptions C35_lpop.
Print Assumptions C35_rpop.
Print Assumptions C35_lpop_one.
Print Assumptions C35_rpop_one.
Print Assumptions C35_lpop_count.
Print Assumptions C35_rpop_count.
Example C35_example :
  demo_does 100 demo ["lpush"; "l"; "x"; "y"] (RInt 6) "l" (elist ["y"; "x"; "a"; "b"; "c"; "b"] None) /\
  demo_does 100 demo ["rpush"; "new"; "x"; "y"] (RInt 2) "new" (elist ["x"; "y"] None) /\
  demo_does 100 demo ["lpushx"; "new"; "x"; "y"] (RInt 0) "new" None /\
  demo_does 100 demo ["rpushx"; "l"; "x"] (RInt 5) "l" (elist ["a"; "b"; "c"; "b"; "x"] None) /\
  demo_does 100 demo ["lpop"; "l"] (bulk "a") "l" (elist ["b"; "c"; "b"] None) /\
  demo_does 100 demo ["rpop"; "l"; "1"] (bulk "b") "l" (elist ["a"; "b"; "c"] None) /\
  demo_does 100 demo ["rpop"; "l"; "2"] (RArr (Some [bulk "b"; bulk "c"])) "l" (elist ["a"; "b"] None) /\
  demo_does 100 demo ["lpop"; "l"; "9"] (RArr (Some [bulk "a"; bulk "b"; bulk "c"; bulk "b"])) "l" None.
Proof. repeat apply conj; demo. Qed.

(** * C36  Indexing, ranges and length *)
Section C36.
Context {P : Setup}.
Theorem C36_lrange n k a b i j :
  named n "lrange" -> atoi (str a) = Some i -> atoi (str b) = Some j ->
  implements [n; k; a; b] (single_fun (str k) (lrange_spec i j)).
Proof. exact (lrange_ok n k a b i j). Qed.
Theorem C36_lindex n k a i :
  named n "lindex" -> atoi (str a) = Some i -> i <> min_int ->
  implements [n; k; a] (single_fun (str k) (lindex_spec i)).
Proof. exact (lindex_ok n k a i). Qed.
Theorem C36_llen n k :
  named n "llen" -> implements [n; k] (single_fun (str k) llen_spec).
Proof. exact (llen_ok n k). Qed.
End C36.
Print Assumptions C36_lrange.
Print Assumptions C36_lindex.
Print Assumptions C36_llen.
Example C36_example :
  demo_does 100 demo ["lrange"; "l"; "-3"; "99"] (RArr (Some [bulk "b"; bulk "c"; bulk "b"])) "l" (elist ["a"; "b"; "c"; "b"] None) /\
  demo_does 100 demo ["lrange"; "l"; "2"; "1"] (RArr (Some [])) "l" (elist ["a"; "b"; "c"; "b"] None) /\
  demo_does 100 demo ["lindex"; "l"; "-2"] (bulk "c") "l" (elist ["a"; "b"; "c"; "b"] None) /\
  demo_does 100 demo ["lindex"; "l"; "4"] (RBulk None) "l" (elist ["a"; "b"; "c"; "b"] None) /\
  demo_does 100 demo ["llen"; "l"] (RInt 4) "l" (elist ["a"; "b"; "c"; "b"] None).
Proof. repeat apply conj; demo. Qed.
Theorem C36_lindex_min_refuted : dies 100 demo ["lindex"; "l"; "-9223372036854775808"].
Proof. demo. Qed.

(** * C37  LSET, LTRIM and LREM *)
Section C37.
Context {P : Setup}.
Theorem C37_lset n k a i v :
  named n "lset" -> atoi (str a) = Some i -> i <> min_int ->
  implements [n; k; a; v] (single (str k) (lset_spec i v)).
Proof. exact (lset_ok n k a i v). Qed.
Theorem C37_ltrim n k a b i j :
  named n "ltrim" -> atoi (str a) = Some i -> atoi (str b) = Some j ->
  implements_when (fun now S => list_nonempty (str k) now S \/ 0 <= i \/ j < 0) [n; k; a; b]
    (single_fun (str k) (ltrim_spec i j)).
Proof. exact (ltrim_ok n k a b i j). Qed.
Theorem C37_lrem n k a c v :
  named n "lrem" -> atoi (str a) = Some c -> c <> min_int ->
  implements [n; k; a; v] (single (str k) (lrem_spec c v)).
Proof. exact (lrem_ok n k a c v). Qed.
End C37.
Print Assumptions C37_lset.
Print Assumptions C37_ltrim.
Print Assumptions C37_lrem.
Example C37_example :
  demo_does 100 demo ["lset"; "l"; "-2"; "X"] ok "l" (elist ["a"; "b"; "X"; "b"] None) /\
  demo_does 100 demo ["lset"; "l"; "4"; "X"] (RErr (B "index out of range")) "l" (elist ["a"; "b"; "c"; "b"] None) /\
  demo_does 100 demo ["ltrim"; "l"; "1"; "-2"] ok "l" (elist ["b"; "c"] None) /\
  demo_does 100 demo ["ltrim"; "l"; "7"; "9"] ok "l" None /\
  demo_does 100 demo ["lrem"; "l"; "-1"; "b"] (RInt 1) "l" (elist ["a"; "b"; "c"] None) /\
  demo_does 100 demo ["lrem"; "l"; "0"; "b"] (RInt 2) "l" (elist ["a"; "c"] None).
Proof. repeat apply conj; demo. Qed.
Theorem C37_lset_min_refuted : dies 100 demo ["lset"; "l"; "-9223372036854775808"; "X"].
Proof. demo. Qed.
(** LTRIM on an empty list, which LMOVE can leave behind, can dereference nil. *)
Theorem C37_ltrim_empty_refuted : then_dies 100 demo [["lmove"; "s"; "new"; "left"; "left"]] ["ltrim"; "new"; "-1"; "0"].
Proof. demo. Qed.
(** LREM with the minimum integer removes nothing instead of everything. *)
Theorem C37_lrem_min_refuted :
  demo_does 100 demo ["lrem"; "l"; "-9223372036854775808"; "b"] (RInt 0) "l" (elist ["a"; "b"; "c"; "b"] None).
Proof. demo. Qed.

(** * C38  LINSERT *)
Section C38.
Context {P : Setup}.
(** As implemented: an insertion at every occurrence of the pivot. *)
Theorem C38_before n k w pivot v :
  named n "linsert" -> named w "before" ->
  implements [n; k; w; pivot; v] (single_fun (str k) (linsert_spec true pivot v)).
Proof. exact (linsert_before_ok n k w pivot v). Qed.
Theorem C38_after n k w pivot v :
  named n "linsert" -> named w "after" -> str v <> str pivot ->
  implements [n; k; w; pivot; v] (single_fun (str k) (linsert_spec false pivot v)).
Proof. exact (linsert_after_ok n k w pivot v). Qed.
End C38.
Print Assumptions C38_before.
Print Assumptions C38_after.
Section C38b.
Context {P : Setup}.
(** When the pivot occurs at most once this is what Redis documents. *)
Theorem C38_unique before pivot v now e r e' :
  (forall l dl, e = Some (VList l, dl) -> count_matches pivot l <= 1) ->
  (r, e') = linsert_spec before pivot v now e -> linsert_redis before pivot v now e r e'.
Proof. exact (linsert_unique before pivot v now e r e'). Qed.
End C38b.
Print Assumptions C38_unique.
Example C38_example :
  demo_does 100 demo ["linsert"; "l"; "before"; "c"; "X"] (RInt 5) "l" (elist ["a"; "b"; "X"; "c"; "b"] None) /\
  demo_does 100 demo ["linsert"; "l"; "AFTER"; "c"; "X"] (RInt 5) "l" (elist ["a"; "b"; "c"; "X"; "b"] None) /\
  demo_does 100 demo ["linsert"; "l"; "after"; "zz"; "X"] (RInt (-1)) "l" (elist ["a"; "b"; "c"; "b"] None) /\
  demo_does 100 demo ["linsert"; "new"; "after"; "zz"; "X"] (RInt 0) "new" None.
Proof. repeat apply conj; demo. Qed.
(** Every occurrence of the pivot. *)
Theorem C38_every_refuted :
  demo_does 100 demo ["linsert"; "l"; "before"; "b"; "X"] (RInt 6) "l" (elist ["a"; "X"; "b"; "c"; "X"; "b"] None).
Proof. demo. Qed.
(** Inserting the pivot after itself never ends. *)
Theorem C38_hang_refuted : hangs 100 demo ["linsert"; "l"; "after"; "b"; "b"].
Proof. demo. Qed.

(** * C39  LPOS *)
Section C39.
Context {P : Setup}.
Theorem C39_lpos n k v args os :
  named n "lpos" -> lpos_spells args os ->
  implements (n :: k :: v :: args)
    (single_fun (str k) (lpos_spec v (last_opt rank_of os) (last_opt count_of os) (last_opt maxlen_of os))).
Proof. exact (lpos_ok n k v args os). Qed.
End C39.
Print Assumptions C39_lpos.
Example C39_example :
  demo_does 100 demo ["lpos"; "l"; "b"] (RInt 1) "l" (elist ["a"; "b"; "c"; "b"] None) /\
  demo_does 100 demo ["lpos"; "l"; "b"; "rank"; "-1"; "count"; "0"] (RArr (Some [RInt 3; RInt 1])) "l" (elist ["a"; "b"; "c"; "b"] None) /\
  demo_does 100 demo ["lpos"; "l"; "b"; "RANK"; "2"] (RInt 3) "l" (elist ["a"; "b"; "c"; "b"] None) /\
  demo_does 100 demo ["lpos"; "l"; "b"; "rank"; "2"; "maxlen"; "3"] (RBulk None) "l" (elist ["a"; "b"; "c"; "b"] None) /\
  lpos_spells (C ["rank"; "-1"; "count"; "0"]) [LRank (-1); LCount 0].
Proof.
  repeat apply conj; try demo. repeat (apply lpos_one; [repeat split; try reflexivity; lia|]). constructor.
Qed.

(** * C40  LMOVE *)
Section C40.
Context {P : Setup}.
(** The source list, if any, must not be empty. *)
Theorem C40_lmove n a b wa wb fl tl :
  named n "lmove" -> named wa (end_word fl) -> named wb (end_word tl) ->
  implements_when (list_nonempty (str a)) [n; a; b; wa; wb] (lmove_spec (str a) (str b) fl tl).
Proof. exact (lmove_ok n a b wa wb fl tl). Qed.
End C40.
Print Assumptions C40_lmove.
Example C40_example :
  list_nonempty (B "l") 100 (view 100 demo) /\
  demo_does 100 demo ["lmove"; "l"; "new"; "right"; "left"] (bulk "b") "l" (elist ["a"; "b"; "c"] None) /\
  demo_does 100 demo ["lmove"; "l"; "new"; "right"; "left"] (bulk "b") "new" (elist ["b"] None) /\
  demo_does 100 demo ["lmove"; "l"; "l"; "LEFT"; "right"] (bulk "a") "l" (elist ["b"; "c"; "b"; "a"] None) /\
  demo_does 100 demo ["lmove"; "missing"; "l"; "left"; "right"] (RBulk None) "l" (elist ["a"; "b"; "c"; "b"] None).
Proof.
  split; [|repeat apply conj; demo]. intros dl H. vm_compute in H. discriminate.
Qed.
(** An empty list, left by a failed LMOVE, makes the next LMOVE crash the server. *)
Theorem C40_empty_refuted : then_dies 100 demo [["lmove"; "s"; "new"; "left"; "left"]] ["lmove"; "new"; "l"; "left"; "left"].
Proof. demo. Qed.
