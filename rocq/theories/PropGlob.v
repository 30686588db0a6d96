(** Glob patterns: C22. *)
From Verif Require Import Demo GlobKeys.

(** * C22  Glob matching *)
(** Well-formed patterns in which every run of stars is followed by the end or an ordinary character. *)
Theorem C22_glob p ts s : pattern p ts -> stars_ok ts -> exists b, glob p s = GOk b /\ (b = true <-> pat_matches ts s).
Proof. exact (glob_spec p ts s). Qed.
(** On every pattern the matching ends (the model's bound on the recursion is never reached). *)
Theorem C22_terminates p s : glob p s <> GFuel.
Proof. exact (glob_terminates p s). Qed.
(** It can only crash on a pattern that ends in an open bracket expression with a dash at the very end. *)
Theorem C22_crash p s : glob p s = GPanic -> exists u v, p = u ++ B "[" ++ v ++ B "-".
Proof. exact (glob_panics p s). Qed.
(** KEYS with such a pattern: exactly the live keys that match. *)
Theorem C22_keys {P : Setup} n p ts : named n "keys" -> pattern (str p) ts -> stars_ok ts ->
  implements_on (fun now d => Z.of_nat (size (dict d)) * 16 <= 2 ^ 48) [n; p] (keys_spec (fun k => pat_matches ts k)).
Proof. exact (keys_pattern n p ts). Qed.
(** Every pattern, well-formed or not, is read in some way, and that decides what it matches and where it panics. *)
Theorem C22_total p : exists ts e, reads_pat p ts e.
Proof. exact (pattern_read p). Qed.
Theorem C22_exact p ts e s : reads_pat p ts e ->
  (glob p s = GOk true <-> accepts ts e s) /\ (glob p s = GPanic <-> breaks ts e s).
Proof. exact (glob_exact p ts e s). Qed.
Theorem C22_keys_exact {P : Setup} n p ts e : named n "keys" -> reads_pat (str p) ts e ->
  implements_on (fun now d => Z.of_nat (size (dict d)) * 16 <= 2 ^ 48 /\ forall k, view now d k <> None -> ~ breaks ts e k)
    [n; p] (keys_spec (fun k => accepts ts e k)).
Proof. exact (keys_any_pattern n p ts e). Qed.
Print Assumptions C22_total.
Print Assumptions C22_exact.
Print Assumptions C22_keys_exact.
(** In a star's wake a bracket is a character; a dash at the start of a bracket expression ranges from the bracket itself. *)
Example C22_exact_example :
  reads_pat (B "**[b]?") [PStar "["; PLit "b"; PLit "]"; PAny] PFinish /\ accepts [PStar "["; PLit "b"; PLit "]"; PAny] PFinish (B "a[[b]c") /\
  reads_pat (B "[-ax]b[^") [PClass false [To "a"; Chr "x"]; PLit "b"] POpen /\ ~ accepts [PClass false [To "a"; Chr "x"]; PLit "b"] POpen (B "_b") /\
  reads_pat (B "?[x-") [PAny] PDangling /\ breaks [PAny] PDangling (B "ab") /\ ~ breaks [PAny] PDangling (B "a").
Proof.
  split; [apply (rp_star 1 "[" (B "b]?")); [discriminate|]; repeat (constructor; try discriminate)|].
  split; [left; split; [reflexivity|]; apply (eats_star "[" (B "a[") _ (B "b]c")); repeat constructor|].
  split; [apply (rp_class false [To "a"; Chr "x"] (B "b[^")); [repeat constructor; discriminate|discriminate|]; constructor; try discriminate; apply (rp_open true []); [constructor|discriminate]|].
  split; [intros [[? _]|[? _]]; discriminate|].
  split; [apply (rp_any (B "[x-")), (rp_dangling false [Chr "x"]); [repeat constructor; discriminate|discriminate]|].
  split; [split; [reflexivity|]; exists "b"%char, []; repeat constructor|].
  intros [_ (c & r & H)]. inversion H as [|? ? ? ? H'| | |]; subst. inversion H'.
Qed.
Print Assumptions C22_glob.
Print Assumptions C22_terminates.
Print Assumptions C22_crash.
Print Assumptions C22_keys.
Example C22_example :
  pattern (B "h?l**o[^a-cx]*") [TLit "h"; TAny; TLit "l"; TStar; TStar; TLit "o"; TClass true [Span "a" "c"; One "x"]; TStar] /\
  stars_ok [TLit "h"; TAny; TLit "l"; TStar; TStar; TLit "o"; TClass true [Span "a" "c"; One "x"]; TStar] /\
  glob (B "h?l**o[^a-cx]*") (B "hellodddo!") = GOk true /\ glob (B "h?l**o[^a-cx]*") (B "hellox") = GOk false.
Proof.
  repeat apply conj; try reflexivity; try exact I. repeat constructor; try discriminate.
Qed.
(** A star before ? or [ compares them literally. *)
Theorem C22_star_refuted :
  pattern (B "*?") [TStar; TAny] /\ pat_matches [TStar; TAny] (B "a") /\ glob (B "*?") (B "a") = GOk false /\
  pattern (B "*[ab]") [TStar; TClass false [One "a"; One "b"]] /\ pat_matches [TStar; TClass false [One "a"; One "b"]] (B "a") /\
  glob (B "*[ab]") (B "a") = GOk false.
Proof.
  repeat apply conj; try reflexivity; try (repeat constructor; discriminate).
  - apply (mt_star [] [TAny] (B "a")). repeat constructor.
  - apply (mt_star [] _ (B "a")). apply mt_in; [|constructor]. exists (One "a"). split; [left; reflexivity|reflexivity].
Qed.
(** An unfinished range crashes; an empty range matches its first character. *)
Theorem C22_range_refuted :
  glob (B "[a-") (B "x") = GPanic /\
  show [TClass false [Span "z" "a"]] = B "[z-a]" /\ ~ pat_matches [TClass false [Span "z" "a"]] (B "z") /\ glob (B "[z-a]") (B "z") = GOk true.
Proof.
  repeat apply conj; try reflexivity. intros H. inversion H as [| | |c l ts s Hc _ E1 E2| |]; subst.
  destruct Hc as (i & [<-|[]] & Hi). destruct Hi as [_ Hi]. vm_compute in Hi. apply Hi. reflexivity.
Qed.
(** KEYS with an unfinished range kills the server. *)
Theorem C22_keys_refuted : dies 100 demo ["keys"; "[a-"].
Proof. demo. Qed.
