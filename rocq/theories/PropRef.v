(** The reference of all commands: C74. *)
From Verif Require Import DemoRef.

(** * C74  A reference for every command, every argument list and every state *)
Section C74.
Context {P : Setup}.
(** Whatever the command: if it is answered, reply and state are those of the reference (SpecRef.v); if it panics or loops, it is one of the cases of C70. *)
Theorem C74_reference now d cmd out : Inv d -> step now d cmd out ->
  match out with
  | Done r d' => ref_step now (stored d) cmd r (stored d')
  | Crashes _ => panics now d cmd
  | Hangs _ => loops_forever now d cmd
  end.
Proof. exact (ref_exact now d cmd out). Qed.
(** So it is for any sequence of commands at any times. *)
Theorem C74_history d h d' : Inv d -> exchange d h d' -> ref_run (stored d) h (stored d').
Proof. exact (ref_history d h d'). Qed.
(** The reference leaves nothing open: but for the eleven commands whose reply depends on chance or on the order of a map, it determines the reply and all that is visible. *)
Theorem C74_determined now M n args r1 M1 r2 M2 : addressable (fun k => live now (M k)) -> (forall s, In s any_order -> ~ named n s) ->
  ref_step now M (n :: args) r1 M1 -> ref_step now M (n :: args) r2 M2 -> r1 = r2 /\ forall k, live now (M1 k) = live now (M2 k).
Proof. exact (ref_determined now M n args r1 M1 r2 M2). Qed.
(** The names of the reference are the names of the server. *)
Theorem C74_names s : (exists m, In (s, m) reference) <-> (exists a, In (s, a) arity_table).
Proof. exact (reference_table s). Qed.
(** Every command outside C70's cases is answered. *)
Theorem C74_answered now d cmd : Inv d -> ~ panics now d cmd -> ~ loops_forever now d cmd -> exists r d', step now d cmd (Done r d').
Proof. exact (ref_answered now d cmd). Qed.
End C74.
Print Assumptions C74_reference.
Print Assumptions C74_history.
Print Assumptions C74_determined.
Print Assumptions C74_names.
Print Assumptions C74_answered.

#[local] Existing Instance demo_setup.
Local Open Scope string_scope.
(** Of a key whose deadline has passed some commands can tell that it was there, but only once; the least count of LREM removes nothing;
    EX takes a number that is none for 0; LMOVE leaves an empty list behind its error; the STORE commands answer an error and store the empty set. *)
Example C74_example : Inv demo /\ exists d', exchange demo (written_out [
  (100, ["persist"; "old"], RInt 0); (100, ["persist"; "old"], RInt 1);
  (100, ["lrem"; "l"; "-9223372036854775808"; "b"], RInt 0); (100, ["llen"; "l"], RInt 4);
  (100, ["set"; "e"; "v"; "ex"; "soon"], ok); (100, ["ttl"; "e"], RInt 0); (101, ["get"; "e"], RBulk None);
  (101, ["lmove"; "s"; "new"; "left"; "right"], err_wrong_kind); (101, ["llen"; "new"], RInt 0); (101, ["type"; "new"], RStr (B "list"));
  (101, ["sunionstore"; "n"; "t"; "h"], err_wrong_kind); (101, ["type"; "n"], RStr (B "set")); (101, ["scard"; "n"], RInt 0);
  (101, ["lpop"; "l"; "1"; "2"; "3"], RBulk (Some (B "a"))); (101, ["getrange"; "s"; "1"; "9223372036854775807"], RBulk (Some [])) ]) d'.
Proof. split; [exact demo_inv|]. apply talked. vm_compute. reflexivity. Qed.
