(** What the databases keep in memory: C89. *)
From Verif Require Import MemoryMain StallSched DemoWire.

(** * C89  Only a command that names a key, or KEYS, changes what is stored under it; time alone frees nothing *)
Section C89.
Context {P : Setup}.
(** One step of the process.  A value or deadline appears under a key of database [j] only if a command is in execution there that names the key and is not one of the reading ones. *)
Theorem C89_written T sl ds n x y j c c' k : rtc (happens T) (boot sl ds n) x -> happens T x y -> wcores x !! j = Some c -> wcores y !! j = Some c' ->
  stores (cdb c) (cdb c') k -> exists i cmd, performs x j i cmd /\ k ∈ key_args cmd /\ ~ reading cmd.
Proof. exact (fun R H Hj Hj' => proj1 (mem_changes T sl ds n x y j c c' k R H Hj Hj')). Qed.
(** Anything else, that is a removal, happens only if a command is in execution there that names the key, or KEYS. *)
Theorem C89_removed T sl ds n x y j c c' k : rtc (happens T) (boot sl ds n) x -> happens T x y -> wcores x !! j = Some c -> wcores y !! j = Some c' ->
  differs (cdb c) (cdb c') k -> exists i cmd, performs x j i cmd /\ touched cmd k.
Proof. exact (fun R H Hj Hj' => proj2 (mem_changes T sl ds n x y j c c' k R H Hj Hj')). Qed.
(** An execution from [x] to [y].  What is stored under a key stays, expired or not and whatever the clock shows, unless a command names the key or is KEYS. *)
Theorem C89_stays T sl ds n x y j c c' k : rtc (happens T) (boot sl ds n) x -> rtc (happens T) x y -> wcores x !! j = Some c -> wcores y !! j = Some c' ->
  (forall i cmd, since x y i cmd -> ~ touched cmd k) -> dict (cdb c') !! k = dict (cdb c) !! k /\ exps (cdb c') !! k = exps (cdb c) !! k.
Proof. exact (mem_stays T sl ds n x y j c c' k). Qed.
(** Whatever is stored under a key at [y] and was not at [x], some client has sent a command for it. *)
Theorem C89_origin T sl ds n x y j c c' k : rtc (happens T) (boot sl ds n) x -> rtc (happens T) x y -> wcores x !! j = Some c -> wcores y !! j = Some c' ->
  stores (cdb c) (cdb c') k -> exists i cmd, since x y i cmd /\ k ∈ key_args cmd /\ ~ reading cmd.
Proof. exact (mem_origin T sl ds n x y j c c' k). Qed.
End C89.
Print Assumptions C89_written.
Print Assumptions C89_removed.
Print Assumptions C89_stays.
Print Assumptions C89_origin.

#[local] Existing Instance demo_setup.
Local Open Scope string_scope.
(** The deadline of "old" passed at 50.  At 100 client 0 sets another key. *)
Definition does (i n : nat) (s : string) : list wact :=
  (Client i (Send (W s)) :: replicate n (Go i Read) ++ [Go i Pass; Cmd (Beg i); Cmd (Run i 100); Cmd (Rep i)])%list.
Definition set_acts : list wact := [Connect 0; Accept 0; Serve 0; Connect 1; Accept 1; Serve 1] ++ does 0 7 "*3&$3&set&$1&z&$1&1&".
(** Then client 1 asks for KEYS with a pattern that no key matches. *)
Definition keys_acts : list wact := does 1 5 "*2&$4&keys&$3&zzz&".
Definition held_in (x : world) : list (option value * option Z * option value) := map (fun c => (dict (cdb c) !! B "old", exps (cdb c) !! B "old", dict (cdb c) !! B "z")) (wcores x).
Example C89_example : exists x y, rtc (happens (eq 100)) (boot 0 [demo] 2) x /\ rtc (happens (eq 100)) x y /\
  held_in (boot 0 [demo] 2) = [(Some (VStr (Some (B "gone"))), Some 50, None)] /\
  held_in x = [(Some (VStr (Some (B "gone"))), Some 50, Some (VStr (Some (B "1"))))] /\ map written (peers x) = [W "+OK&"; []] /\
  held_in y = [(None, None, Some (VStr (Some (B "1"))))] /\ map written (peers y) = [W "+OK&"; W "*0&"].
Proof.
  run_world 100 set_acts (boot 0 [demo] 2) (fun x => (held_in x, map written (peers x), (fun y => (held_in y, map written (peers y))) <$> wplay 100 keys_acts x)).
  match goal with H : exists y, _ |- _ => destruct H as (x & R & E) end. cbv beta in E. apply pair_equal_spec in E as [E E3]. apply pair_equal_spec in E as [E1 E2].
  apply wplays in E3 as (y & R' & E). apply pair_equal_spec in E as [E4 E5].
  exists x, y. split; [exact R|]. split; [exact R'|]. split; [vm_compute; reflexivity|]. auto.
Qed.
(** ** What does not hold *)
(** That a key is gone from memory when its deadline has passed, even if the process has nothing else to do. *)
Theorem C89_freed_refuted : exists (x : world) (c : conf rdata), rtc (happens (eq 100)) (boot 0 [demo] 2) x /\ now_is x = Running /\ (forall y, ~ wadvance (eq 100) x y) /\
  wcores x !! 0%nat = Some c /\ exps (cdb c) !! B "old" = Some 50 /\ is_Some (dict (cdb c) !! B "old").
Proof.
  run_world 100 set_acts (boot 0 [demo] 2) (fun x => (now_is x, wstill x, (fun c => (exps (cdb c) !! B "old", dict (cdb c) !! B "old")) <$> wcores x !! 0%nat)).
  match goal with H : exists y, _ |- _ => destruct H as (x & R & E) end. injection E as E1 E2 E3. destruct (wcores x !! 0%nat) as [c|] eqn:Ec; [|discriminate E3]. cbn in E3. injection E3 as E3 E4.
  exists x, c. split; [exact R|]. split; [exact E1|]. split; [intros y; exact (wstill_ok _ _ _ E2)|]. split; [exact Ec|]. split; [exact E3|]. eexists; exact E4.
Qed.
Print Assumptions C89_freed_refuted.
