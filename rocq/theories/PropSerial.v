(** Concurrent executions as executions of one thing at a time: C53, C54. *)
From Verif Require Import CountProofs LinSplit Sched.

(** * C53  Locked sections are serializable, and most commands atomic *)
Section C53.
Context {P : Setup}.
(** Every execution of any commands but KEYS (which takes no lock) is followed step by step by an execution in which each locked section is one step:
    at all times they show the same contents, except under keys locked exclusively. *)
Theorem C53_serializable T d cs (f : nat -> conf (list rdata)) N : no_keys cs -> f 0%nat = clients d cs -> (forall n, (n < N)%nat -> cstep T (f n) (f (S n))) ->
  exists g : nat -> data * list (prog (list rdata)), g 0%nat = (data_of d, map client cs) /\
    (forall n, (n <= N)%nat -> corresponds T (f n) (g n)) /\ (forall n, (n < N)%nat -> rtc (astep T) (g n) (g (S n))).
Proof. exact (clients_path T d cs f N). Qed.
(** So when all clients have their replies, the replies and the contents are those of an execution with atomic sections. *)
Theorem C53_outcome T d cs c : no_keys cs -> rtc (cstep T) (clients d cs) c -> (forall i t, ths c !! i = Some t -> returned t) ->
  rtc (astep T) (data_of d, map client cs) (data_of (cdb c), map tcode (ths c)).
Proof. exact (clients_serial T d cs c). Qed.
(** The commands other than KEYS, SETNX, and DEL, EXISTS and MGET of several keys have one section: while no deadline of a key they name passes,
    the replies and the contents are those of the same commands executed one at a time, each client's in its order. *)
Theorem C53_linearizable (T : Z -> Prop) lim d cs c rss : (exists t, T t) -> (forall t, T t -> t <= lim) ->
  each one_step cs -> each (far_deadlines T lim) cs -> (forall key t, names cs key -> exps d !! key = Some t -> lim <= t) ->
  rtc (cstep T) (clients d cs) c -> map tcode (ths c) = map Ret rss ->
  exists D, rtc (turn T) (d, before cs) (D, served rss) /\ dict D = dict (cdb c) /\ exps D = exps (cdb c).
Proof. exact (linearizable T lim d cs c rss). Qed.
(** DEL, EXISTS and MGET of several keys are as if the client had sent one such command for each key and then added up, or put together, the replies.
    So the same holds for all commands but KEYS and SETNX when these are counted as their pieces. *)
Theorem C53_pieces (T : Z -> Prop) lim d cs c rss : (exists t, T t) -> (forall t, T t -> t <= lim) ->
  each locked cs -> each (far_deadlines T lim) cs -> (forall key t, names cs key -> exps d !! key = Some t -> lim <= t) ->
  rtc (cstep T) (clients d cs) c -> map tcode (ths c) = map Ret rss ->
  exists D pss, rtc (turn T) (d, before (map (flat_map pieces) cs)) (D, served pss) /\ length pss = length cs /\
    (forall i cmds ps rs, cs !! i = Some cmds -> pss !! i = Some ps -> rss !! i = Some rs -> joined cmds ps rs) /\
    dict D = dict (cdb c) /\ exps D = exps (cdb c).
Proof. exact (linearizable_pieces T lim d cs c rss). Qed.
End C53.
Print Assumptions C53_serializable.
Print Assumptions C53_outcome.
Print Assumptions C53_linearizable.
Print Assumptions C53_pieces.

(** * C54  Concurrent increments *)
Section C54.
Context {P : Setup}.
(** Clients that run INCR, DECR, INCRBY and DECRBY on a key that holds the integer [v] and has no deadline: in the end it holds [v] plus all the increments. *)
Theorem C54_counters (T : Z -> Prop) d cs iss c rss k v : counts_at d k v -> Forall2 (Forall2 (increments k)) cs iss ->
  rtc (cstep T) (clients d cs) c -> map tcode (ths c) = map Ret rss -> counts_at (cdb c) k (wrap64 (v + sum_all iss)).
Proof. exact (counters T d cs iss c rss k v). Qed.
(** If all increments are 1, the replies are v+1, v+2, ..., each once. *)
Theorem C54_replies (T : Z -> Prop) d cs c rss k v : counts_at d k v -> each (fun cmd => increments k cmd 1) cs ->
  rtc (cstep T) (clients d cs) c -> map tcode (ths c) = map Ret rss ->
  concat rss ≡ₚ map (fun j => RInt (wrap64 (v + j))) (seqZ 1 (Z.of_nat (length (concat cs)))).
Proof. exact (incr_replies T d cs c rss k v). Qed.
End C54.
Print Assumptions C54_counters.
Print Assumptions C54_replies.

#[local] Existing Instance demo_setup.
Local Open Scope string_scope.
(** Clients with overlapping multi-key commands; a possible outcome. *)
Definition pairs : list (list (list string)) :=
  [[["mset"; "s"; "1"; "f"; "2"]; ["get"; "s"]; ["ttl"; "n"]]; [["rename"; "s"; "f"]; ["set"; "f"; "9"; "nx"]]; [["sinterstore"; "s"; "t"; "u"]; ["incr"; "n"]]].
Example C53_example :
  no_keys (map (map C) pairs) /\ each one_step (map (map C) pairs) /\ each (far_deadlines (eq 100) 100) (map (map C) pairs) /\
  (forall key t, names (map (map C) pairs) key -> exps demo !! key = Some t -> 100 <= t) /\
  may_end 100 demo pairs [[ok; bulk "1"; RInt 100]; [ok; rnil]; [RInt 1; RInt 42]] "f" (estr "1" None).
Proof.
  assert (H : each one_step (map (map C) pairs)) by (apply one_step_ok; vm_compute; reflexivity).
  split; [intros cmds cmd H1 H2; apply (H _ _ H1 H2)|]. split; [exact H|]. split; [apply no_deadline_ok; vm_compute; reflexivity|].
  split; [apply deadlines_ok; vm_compute; reflexivity|].
  apply (play_ends [(0, 4); (1, 4); (0, 9); (1, 20); (0, 100); (2, 100); (1, 100); (2, 100)]%nat). vm_compute. reflexivity.
Qed.
(** MGET of several keys is not atomic: MSET is seen half. *)
Theorem C53_mget_refuted :
  may_end 100 demo [[["mget"; "s"; "f"]]; [["mset"; "s"; "1"; "f"; "2"]]] [[RArr (Some [bulk "hello"; bulk "2"])]; [ok]] "s" (estr "1" None).
Proof. apply (play_ends [(0, 5); (1, 100); (0, 100)]%nat). vm_compute. reflexivity. Qed.
(** The pieces of that MGET, and of a DEL, and replies put together from theirs. *)
Definition several : list (list (list string)) := [[["mget"; "s"; "f"]; ["DEL"; "n"; "f"; "zz"]; ["set"; "n"; "5"; "px"; "9000"]]; [["mset"; "s"; "1"; "f"; "2"]]].
Example C53_pieces_example :
  each locked (map (map C) several) /\ each (far_deadlines (eq 100) 100) (map (map C) several) /\
  (forall key t, names (map (map C) several) key -> exps demo !! key = Some t -> 100 <= t) /\
  map (flat_map pieces) (map (map C) several) = map (map C) [[["mget"; "s"]; ["mget"; "f"]; ["DEL"; "n"]; ["DEL"; "f"]; ["DEL"; "zz"]; ["set"; "n"; "5"; "px"; "9000"]]; [["mset"; "s"; "1"; "f"; "2"]]] /\
  joined (map C [["mget"; "s"; "f"]; ["DEL"; "n"; "f"; "zz"]]) [RArr (Some [bulk "hello"]); RArr (Some [bulk "2"]); RInt 1; RInt 1; RInt 0]
    [RArr (Some [bulk "hello"; bulk "2"]); RInt 2] /\
  may_end 100 demo several [[RArr (Some [bulk "hello"; bulk "2"]); RInt 2; ok]; [ok]] "n" (estr "5" (Some 109)).
Proof.
  split; [intros cmds cmd H1 H2; cbn in H1, H2|].
  { assert (H : forallb (forallb (fun cmd => negb (cmd_is "keys" cmd) && negb (cmd_is "setnx" cmd))) (map (map C) several) = true) by (vm_compute; reflexivity).
    rewrite forallb_forall in H. specialize (H cmds (proj1 (elem_of_list_In _ _) H1)). rewrite forallb_forall in H. specialize (H cmd (proj1 (elem_of_list_In _ _) H2)).
    apply andb_true_iff in H as [Ha Hb]. split; [destruct (cmd_is "keys" cmd)|destruct (cmd_is "setnx" cmd)]; auto; discriminate. }
  split; [apply far_deadlines_ok; vm_compute; reflexivity|]. split; [apply deadlines_ok; vm_compute; reflexivity|]. split; [vm_compute; reflexivity|]. split.
  - apply (joined_cons _ _ [RArr (Some [bulk "hello"]); RArr (Some [bulk "2"])]); [vm_compute; reflexivity|apply (join_list [[bulk "hello"]; [bulk "2"]])|].
    apply (joined_cons _ _ [RInt 1; RInt 1; RInt 0]); [vm_compute; reflexivity|apply (join_sum [1; 1; 0])|apply joined_nil].
  - apply (play_ends [(0, 5); (1, 100); (0, 100)]%nat). vm_compute. reflexivity.
Qed.
(** Neither are DEL and EXISTS. *)
Theorem C53_exists_refuted :
  may_end 100 demo [[["exists"; "s"; "new"]]; [["rename"; "s"; "new"]]] [[RInt 2]; [ok]] "s" None.
Proof. apply (play_ends [(0, 5); (1, 100); (0, 100)]%nat). vm_compute. reflexivity. Qed.

(** Four clients on the counter f, which holds 7. *)
Definition counters4 : list (list (list string)) := [[["incr"; "f"]; ["incr"; "f"]]; [["incr"; "f"]]; [["INCR"; "f"]]; [["Incr"; "f"]]].
Example C54_example :
  counts_at demo (B "f") 7 /\ each (fun cmd => increments (B "f") cmd 1) (map (map C) counters4) /\
  may_end 100 demo counters4 [[RInt 9; RInt 10]; [RInt 8]; [RInt 12]; [RInt 11]] "f" (estr "12" None) /\
  Forall2 (Forall2 (increments (B "f"))) (map (map C) [[["incrby"; "f"; "30"]; ["decr"; "f"]]; [["decrby"; "f"; "40"]]]) [[30; -1]; [-40]] /\
  may_end 100 demo [[["incrby"; "f"; "30"]; ["decr"; "f"]]; [["decrby"; "f"; "40"]]] [[RInt 37; RInt (-4)]; [RInt (-3)]] "f" (estr "-4" None).
Proof.
  split; [exists (Some (B "7")); vm_compute; auto|]. split.
  { apply each_Forall. repeat (apply List.Forall_cons || apply List.Forall_nil); apply inc_incr; vm_compute; reflexivity. }
  split; [apply (play_ends [(0, 1); (1, 100); (0, 8); (3, 1); (2, 3); (0, 100); (3, 100); (2, 100)]%nat); vm_compute; reflexivity|]. split.
  { repeat (apply List.Forall2_cons || apply List.Forall2_nil).
    - apply inc_incrby; vm_compute; reflexivity.
    - apply inc_decr; vm_compute; reflexivity.
    - apply (inc_decrby _ _ _ _ 40); vm_compute; reflexivity. }
  apply (play_ends [(0, 1); (1, 1); (0, 5); (1, 100); (0, 6); (1, 100); (0, 100)]%nat). vm_compute. reflexivity.
Qed.
