(** Clients and operating system are free in how they take the replies. *)
From Verif Require Export FlowProofs Outside.

Section WithParams.
Context {P : Setup}.
Theorem around_free x os i o : now_is x = Running -> os !! i = Some o -> broken o = false ->
  (forall y, outside x y -> around (x, os) (y, os)) /\
  (forall w1 w2, waiting o = w1 ++ w2 -> w1 <> [] -> around (x, os) (x, <[i := mkOut w2 (arrived o ++ w1) false]> os)) /\
  around (x, os) (x, <[i := mkOut [] (arrived o) true]> os).
Proof.
  destruct o as [w a b]. cbn. intros Hr Hi ->. split; [|split].
  - intros y Hy. exact (A_world x y os Hy).
  - intros w1 w2 -> Hn. exact (A_take x os i w1 w2 a Hr Hi Hn).
  - exact (A_break x os i w a Hr Hi).
Qed.
End WithParams.
