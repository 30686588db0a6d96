(** One connection, with its parser and its handler: C64, C65. *)
From Verif Require Import PipeSched.

(** * C64  Commands are executed in order, as soon as they have arrived *)
(** Whatever the client has sent of its commands, and however it, the parser and the handler take turns:
    the commands handed to the executor are the first ones of the client's. *)
Theorem C64_order cs q x : rtc goes opened x -> sends cs (concat (given x) ++ q) -> exists rest, cs = handed x ++ rest.
Proof. exact (pipe_order cs q x). Qed.
(** When the goroutines rest although the client has sent all of [cs], all of [cs] have been executed and answered, without a further byte being needed.
    The handler then waits for the next command, or has returned if the client's stream has ended. *)
Theorem C64_prompt cs x : rtc goes opened x -> sends cs (concat (given x)) -> rests x ->
  map fst (log x) = cs /\ match ended x with None => hnd x = HIdle | Some _ => exists e, hnd x = HGone e end.
Proof. exact (pipe_prompt cs x). Qed.
(** They do come to rest, whatever the client has sent. *)
Theorem C64_finite (f : nat -> link) : rtc goes opened (f 0%nat) -> ~ (forall n, lstep (f n) (f (S n))).
Proof. exact (pipe_finite f). Qed.
Print Assumptions C64_order.
Print Assumptions C64_prompt.
Print Assumptions C64_finite.
(** Two commands in three pieces; the first is answered while the second is incomplete; then the goroutines rest. *)
Example C64_example : exists x, rtc goes opened x /\ sends [C ["get"; "a"]; C ["ping"]] (concat (given x)) /\ rests x /\
  log x = [(C ["get"; "a"], RBulk None); (C ["ping"], RInt 1)] /\ ended x = None.
Proof.
  eexists. split; [apply (lplay_ok [Send (W "*2&$3&ge"); Read; Send (W "t&$1&a&*1"); Read; Read; Read; Read; Pass; Exec (RBulk None); Send (W "&$4&ping&"); Read; Read; Read; Pass; Exec (RInt 1)]); vm_compute; reflexivity|].
  split; [sends|]. split; [apply rests_ok; vm_compute; reflexivity|]. split; reflexivity.
Qed.

(** * C65  No goroutine outlives its connection *)
(** The client sends whole commands and ends its stream in order: both goroutines return. *)
Theorem C65_ends cs x : rtc goes opened x -> sends cs (concat (given x)) -> ended x = Some Ended -> rests x -> hnd x = HGone EEof /\ par x = PGone.
Proof. exact (pipe_ends cs x). Qed.
(** In general: once the handler has returned, the parser has returned if the handler had received io.EOF, and never will if it had received another error. *)
Theorem C65_returned x e : rtc goes opened x -> hnd x = HGone e -> (par x = PGone <-> e = EEof).
Proof. exact (pipe_gone x e). Qed.
Theorem C65_never_returns x e : rtc goes opened x -> hnd x = HGone e -> e <> EEof -> forall y, rtc goes x y -> par y <> PGone.
Proof. exact (pipe_leak x e). Qed.
Print Assumptions C65_ends.
Print Assumptions C65_returned.
Print Assumptions C65_never_returns.
Example C65_example : exists x, rtc goes opened x /\ sends [C ["ping"]] (concat (given x)) /\ ended x = Some Ended /\ rests x /\ hnd x = HGone EEof /\ par x = PGone.
Proof.
  eexists. split; [apply (lplay_ok [Send (W "*1&$4&ping&"); Read; Read; Read; Pass; End Ended; Read; Exec (RInt 1); Pass; Close 0]); vm_compute; reflexivity|].
  split; [sends|]. split; [reflexivity|]. split; [apply rests_ok; vm_compute; reflexivity|]. split; reflexivity.
Qed.
(** Violations: a client that goes away in the middle of an argument, one whose connection is reset, and one that sends a malformed line
    each leave a parser goroutine that waits forever. *)
Theorem C65_leak_refuted : leaks [Send (W "*1&$4&pi"); Read; Read; End Ended; Read; Pass; Close 0; Read] EUnexpectedEof /\
  leaks [End Reset; Read; Pass; Close 0; Read] ENet /\
  leaks [Send (W "*x&"); Read; Pass; Close 0; Read] ESyntax.
Proof. split; [|split]; apply leaks_ok; vm_compute; reflexivity. Qed.
(** Worse, the parser of a closed connection can still end the process: a malformed line and then an empty one. *)
Theorem C65_crash_refuted : exists x y, rtc goes opened x /\ hnd x = HGone ESyntax /\ rtc goes x y /\ dead y = true.
Proof.
  eexists _, _. split; [apply (lplay_ok [Send (W "*x&&"); Read; Pass; Close 2]); vm_compute; reflexivity|]. split; [reflexivity|].
  split; [apply (lplay_ok [Read]); vm_compute; reflexivity|]. reflexivity.
Qed.
Print Assumptions C65_leak_refuted.
Print Assumptions C65_crash_refuted.
