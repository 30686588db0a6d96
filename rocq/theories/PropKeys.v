(** Properties of the key commands and of read-your-writes: C15-C21, C23. *)
From Verif Require Import GenericFacts KeysKeys DemoHist.

(** * C15  EXPIRE and TTL agree with the clock *)
Section C15.
Context {P : Setup}.
(** EXPIRE on a live key at time [t], then any history that leaves the key alone, then TTL at time [u]. *)
Theorem C15_expire_ttl n k a i w t d v dl r d1 l d2 u out :
  Inv d -> view t d (str k) = Some (v, dl) -> named n "expire" -> atoi (str a) = Some i ->
  min_int <= t + i <= max_int -> step t d [n; k; a] (Done r d1) ->
  hist t d1 l d2 -> Forall (fun e => leaves (str k) e.1.2) l -> last_time t l <= u ->
  named w "ttl" -> step u d2 [w; k] out ->
  r = RInt 1 /\
  view u d2 (str k) = (if u <=? t + i then Some (v, Some (t + i)) else None) /\
  exists d3, out = Done (RInt (if u <=? t + i then t + i - u else -2)) d3.
Proof. exact (expire_ttl n k a i w t d v dl r d1 l d2 u out). Qed.
(** TTL on any database. *)
Theorem C15_ttl n k : named n "ttl" -> implements [n; k] (single_fun (str k) ttl_spec).
Proof. exact (ttl_ok n k). Qed.
End C15.
Print Assumptions C15_expire_ttl.
Print Assumptions C15_ttl.
Example C15_example :
  plays 100 demo [(100, ["expire"; "l"; "30"]); (120, ["del"; "s"]); (125, ["llen"; "l"])] [RInt 1; RInt 1; RInt 4]
    130 ["ttl"; "l"] (RInt 0) "l" (elist ["a"; "b"; "c"; "b"] (Some 130)) /\
  plays 100 demo [(100, ["expire"; "l"; "30"]); (120, ["del"; "s"]); (125, ["llen"; "l"])] [RInt 1; RInt 1; RInt 4]
    131 ["ttl"; "l"] (RInt (-2)) "l" None /\
  Inv demo /\ view 100 demo (B "l") <> None /\
  demo_does 100 demo ["expire"; "l"; "30"] (RInt 1) "l"
    (Some (VList [Some (B "a"); Some (B "b"); Some (B "c"); Some (B "b")], Some 130)) /\
  demo_does 100 demo ["ttl"; "n"] (RInt 100) "n" (Some (VStr (Some (B "41")), Some 200)) /\
  demo_does 200 demo ["ttl"; "n"] (RInt 0) "n" (Some (VStr (Some (B "41")), Some 200)) /\
  demo_does 201 demo ["ttl"; "n"] (RInt (-2)) "n" None /\
  demo_does 100 demo ["ttl"; "s"] (RInt (-1)) "s" (Some (VStr (Some (B "hello")), None)).
Proof.
  split; [plays|]. split; [plays|]. split; [exact demo_inv|]. split; [vm_compute; discriminate|]. repeat apply conj; demo.
Qed.

(** * C16  EXPIRE options *)
Section C16.
Context {P : Setup}.
Theorem C16_expire n k a i : named n "expire" -> atoi (str a) = Some i ->
  implements [n; k; a] (single_fun (str k) (expire_spec ENone i)).
Proof. exact (expire3_ok n k a i). Qed.
Theorem C16_expire_option n k a i o w :
  named n "expire" -> atoi (str a) = Some i -> named w (expopt_word o) ->
  implements [n; k; a; w] (single_fun (str k) (expire_spec o i)).
Proof. exact (expire_ok n k a i o w). Qed.
(** An unknown option is an error (or 0 if the key has just expired) and changes nothing. *)
Theorem C16_unknown_option n k a i w :
  named n "expire" -> atoi (str a) = Some i -> to_lower (str w) ∉ map B [""; "nx"; "xx"; "gt"; "lt"]%string ->
  implements [n; k; a; w] (single (str k) (fun _ e r e' => e' = e /\
     (r = RErr (B "Unsupported option " ++ str w) \/ (e = None /\ r = RInt 0)))).
Proof. exact (expire_badopt n k a i w). Qed.
Theorem C16_not_an_integer n k a l : named n "expire" -> atoi (str a) = None -> (length l <= 1)%nat ->
  implements (n :: k :: a :: l) (single_fun (str k) (fun _ e => (err_int, e))).
Proof. exact (expire_badint n k a l). Qed.
End C16.
Print Assumptions C16_expire.
Print Assumptions C16_expire_option.
Print Assumptions C16_unknown_option.
Print Assumptions C16_not_an_integer.
Example C16_example :
  demo_does 100 demo ["EXPIRE"; "n"; "200"; "Gt"] (RInt 1) "n" (Some (VStr (Some (B "41")), Some 300)) /\
  demo_does 100 demo ["expire"; "n"; "50"; "gt"] (RInt 0) "n" (Some (VStr (Some (B "41")), Some 200)) /\
  demo_does 100 demo ["expire"; "n"; "50"; "lt"] (RInt 1) "n" (Some (VStr (Some (B "41")), Some 150)) /\
  demo_does 100 demo ["expire"; "n"; "50"; "nx"] (RInt 0) "n" (Some (VStr (Some (B "41")), Some 200)) /\
  demo_does 100 demo ["expire"; "s"; "50"; "xx"] (RInt 0) "s" (Some (VStr (Some (B "hello")), None)) /\
  demo_does 100 demo ["expire"; "s"; "50"; "zz"] (RErr (B "Unsupported option zz")) "s" (Some (VStr (Some (B "hello")), None)) /\
  demo_does 100 demo ["expire"; "s"; "5x"] err_int "s" (Some (VStr (Some (B "hello")), None)).
Proof. repeat apply conj; demo. Qed.

(** * C17  PERSIST *)
Section C17.
Context {P : Setup}.
(** PERSIST on a live key, then any history that leaves the key alone, then TTL. *)
Theorem C17_persist_forever n k w t d v dl r d1 l d2 u out :
  Inv d -> view t d (str k) = Some (v, dl) -> named n "persist" -> step t d [n; k] (Done r d1) ->
  hist t d1 l d2 -> Forall (fun e => leaves (str k) e.1.2) l -> last_time t l <= u ->
  named w "ttl" -> step u d2 [w; k] out ->
  r = RInt 1 /\ view u d2 (str k) = Some (v, None) /\ exists d3, out = Done (RInt (-1)) d3.
Proof. exact (persist_forever n k w t d v dl r d1 l d2 u out). Qed.
Theorem C17_persist n k : named n "persist" -> implements [n; k] (single (str k) persist_spec).
Proof. exact (persist_ok n k). Qed.
End C17.
Print Assumptions C17_persist_forever.
Print Assumptions C17_persist.
Example C17_example : Inv demo /\
  plays 100 demo [(100, ["persist"; "n"]); (201, ["get"; "n"])] [RInt 1; bulk "41"]
    5000 ["ttl"; "n"] (RInt (-1)) "n" (estr "41" None) /\
  demo_does 100 demo ["persist"; "n"] (RInt 1) "n" (Some (VStr (Some (B "41")), None)).
Proof. split; [exact demo_inv|]. split; [plays|demo]. Qed.
(** It answers 1 also when there was no deadline or no key. *)
Theorem C17_reply_refuted :
  demo_does 100 demo ["persist"; "s"] (RInt 1) "s" (Some (VStr (Some (B "hello")), None)) /\
  demo_does 100 demo ["persist"; "missing"] (RInt 1) "missing" None.
Proof. split; demo. Qed.

(** * C18  DEL and EXISTS *)
Section C18.
Context {P : Setup}.
Theorem C18_del n ks : named n "del" -> ks <> [] -> implements (n :: ks) (del_spec (map str ks)).
Proof. exact (del_ok n ks). Qed.
Theorem C18_exists n ks : named n "exists" -> ks <> [] -> implements (n :: ks) (exists_spec (map str ks)).
Proof. exact (exists_ok n ks). Qed.
End C18.
Print Assumptions C18_del.
Print Assumptions C18_exists.
Example C18_example :
  demo_does 100 demo ["del"; "s"; "old"; "missing"; "s"; "h"] (RInt 2) "h" None /\
  demo_does 100 demo ["exists"; "s"; "old"; "missing"; "s"; "h"] (RInt 3) "s" (Some (VStr (Some (B "hello")), None)).
Proof. split; demo. Qed.

(** * C19  RENAME *)
Section C19.
Context {P : Setup}.
Theorem C19_rename n a b : named n "rename" -> implements [n; a; b] (rename_spec (str a) (str b)).
Proof. exact (rename_ok n a b). Qed.
End C19.
Print Assumptions C19_rename.
Example C19_example :
  demo_does 100 demo ["rename"; "n"; "h"] ok "h" (Some (VStr (Some (B "41")), Some 200)) /\
  demo_does 100 demo ["rename"; "n"; "h"] ok "n" None /\
  demo_does 100 demo ["rename"; "s"; "n"] ok "n" (Some (VStr (Some (B "hello")), None)) /\
  demo_does 100 demo ["rename"; "n"; "n"] ok "n" (Some (VStr (Some (B "41")), Some 200)) /\
  demo_does 100 demo ["rename"; "old"; "s"] err_no_key "s" (Some (VStr (Some (B "hello")), None)).
Proof. repeat apply conj; demo. Qed.

(** * C20  TYPE *)
Section C20.
Context {P : Setup}.
Theorem C20_type n k : named n "type" -> implements [n; k] (single_fun (str k) type_spec).
Proof. exact (type_ok n k). Qed.
End C20.
Print Assumptions C20_type.
Example C20_example :
  demo_does 100 demo ["type"; "h"] (RStr (B "hash")) "s" (Some (VStr (Some (B "hello")), None)) /\
  demo_does 100 demo ["type"; "old"] (RStr (B "none")) "old" None.
Proof. split; demo. Qed.

(** * C21  KEYS *)
Section C21.
Context {P : Setup}.
(** For fewer than 2^44 keys and a pattern whose matching against the live keys does not crash. *)
Theorem C21_keys n p : named n "keys" ->
  implements_on (fun now d => Z.of_nat (size (dict d)) * 16 <= 2 ^ 48 /\
                   forall k, view now d k <> None -> exists b, glob (str p) k = GOk b)
    [n; p] (keys_spec (fun k => glob (str p) k = GOk true)).
Proof. exact (keys_ok n p). Qed.
End C21.
Print Assumptions C21_keys.
Example C21_example :
  demo_does 100 demo ["keys"; "[a-n]"]
     (RArr (Some [RBulk (Some (B "f")); RBulk (Some (B "n")); RBulk (Some (B "h")); RBulk (Some (B "l"))])) "old" None.
Proof. demo. Qed.

(** * C23  Read your writes *)
Section C23.
Context {P : Setup}.
(** SET, then any history that leaves the key alone, then GET. *)
Theorem C23_set_get n k v g t d d1 l d2 u out :
  Inv d -> named n "set" -> step t d [n; k; v] (Done ok d1) ->
  hist t d1 l d2 -> Forall (fun e => leaves (str k) e.1.2) l -> last_time t l <= u ->
  named g "get" -> step u d2 [g; k] out -> exists d3, out = Done (RBulk v) d3.
Proof. exact (set_get n k v g t d d1 l d2 u out). Qed.
End C23.
Print Assumptions C23_set_get.
Example C23_example : Inv demo /\
  plays 100 demo [(100, ["set"; "n"; "new"]); (150, ["set"; "s"; "x"]); (160, ["ttl"; "n"])] [ok; ok; RInt (-1)]
    9999 ["get"; "n"] (bulk "new") "n" (estr "new" None) /\
  leaves (B "n") (C ["set"; "s"; "x"]) /\ leaves (B "n") (C ["ttl"; "n"]).
Proof.
  split; [exact demo_inv|]. split; [plays|]. split.
  - left. apply (bool_decide_unpack _). vm_compute. exact I.
  - right. eexists _, _. split; [reflexivity|]. apply (bool_decide_unpack _). vm_compute. exact I.
Qed.
