(** From the command line to the bytes of the replies: C75, C76. *)
From Verif Require Import DemoWhole MainStart LinMain DemoWire.

(** * C75  End to end *)
Section C75.
Context {P : Setup} (sys : system).
(** The process is started with any command line on any system and comes to serve, with the configuration [c].  [length css] clients send
    it whatever bytes they like, in pieces of any size, at any time; [css] are the commands in these bytes (they are commands with a
    single point of effect whose deadlines are far away, as in C62; the rest of the bytes may be anything).
    Up to every moment [N] of every execution there is one history of these commands, [h N], which a server working by the reference of C74
    goes through from [dbnum c] empty databases; [h] grows in the course of the execution, so that a command is in it when it is
    answered, and not before it is received; each client's part of it are the first of its own commands, in its order; what has been written to the
    client are the encodings of the replies in it, but for the command in execution; and the contents of the databases are those of the reference. *)
Theorem C75_end_to_end args fuel c (T : Z -> Prop) lim css (f : nat -> world) N : main sys fuel args = Some (Serves c) -> (exists t, T t) -> (forall t, T t -> t <= lim) ->
  f 0%nat = boot 0 (replicate (Z.to_nat (dbnum c)) empty_db) (length css) -> (forall n, (n < N)%nat -> happens T (f n) (f (S n))) ->
  (forall i p, peers (f N) !! i = Some p -> exists cs, css !! i = Some cs /\ asks (concat (given (lnk p))) cs) ->
  each one_step css -> each (far_deadlines T lim) css ->
  exists (h : nat -> list deed) st0 st, vacant (Z.to_nat (dbnum c)) st0 /\ h 0%nat = [] /\ (forall n, (n < N)%nat -> exists h', h (S n) = h n ++ h') /\
    srv_run st0 (h N) st /\ holds (f N) st /\ Forall (fun e => T (when e)) (h N) /\
    (forall n i p, (n <= N)%nat -> peers (f n) !! i = Some p -> up_to_date p (by_client i (h n))) /\
    (forall n i cs, (n <= N)%nat -> css !! i = Some cs -> exists rest, cs = map fst (by_client i (h n)) ++ rest).
Proof. intros _. exact (whole T lim (Z.to_nat (dbnum c)) css f N). Qed.
(** When the goroutines have come to rest (as they do, C68) and all clients have connected, each has been sent the replies to all its commands, and nothing else. *)
Theorem C75_all_answered args fuel c (T : Z -> Prop) lim css x : main sys fuel args = Some (Serves c) -> (exists t, T t) -> (forall t, T t -> t <= lim) ->
  rtc (happens T) (boot 0 (replicate (Z.to_nat (dbnum c)) empty_db) (length css)) x -> now_is x = Running -> (forall y, ~ wadvance T x y) -> ~ spins x ->
  (forall i p, peers x !! i = Some p -> stg p <> Away /\ exists cs, css !! i = Some cs /\ asks (concat (given (lnk p))) cs) ->
  each one_step css -> each (far_deadlines T lim) css ->
  exists h st0 st, vacant (Z.to_nat (dbnum c)) st0 /\ srv_run st0 h st /\ holds x st /\ Forall (fun e => T (when e)) h /\
    forall i p cs, peers x !! i = Some p -> css !! i = Some cs -> map fst (by_client i h) = cs /\ replied (by_client i h) (written p).
Proof.
  intros Hm. pose proof (serves_some sys fuel args c Hm). exact (whole_rests T lim (Z.to_nat (dbnum c)) css x ltac:(lia)).
Qed.
(** The bytes determine the commands. *)
Theorem C75_commands s : exists cs, asks s cs /\ forall cs', asks s cs' -> cs' = cs.
Proof. exact (asks_unique s). Qed.
End C75.
Print Assumptions C75_end_to_end.
Print Assumptions C75_all_answered.
Print Assumptions C75_commands.

(** * C76  Commands that do not overlap *)
Section C76.
Context {P : Setup}.
(** Clients send whatever bytes they like, whenever they like; but (so to speak by luck) no handler receives a command while that of another client is without reply.
    Then every command, KEYS, SETNX and those of many keys too, with all its deadlines, gets at the time of its reply the reply of the reference
    of C74 and has its effect; what is written to a client are the encodings of these replies; between commands the contents of the databases are exactly those of the reference. *)
Theorem C76_one_at_a_time dbs k (f : nat -> Z * world) N : (f 0%nat).2 = boot 0 (replicate dbs empty_db) k -> (forall n, (n < N)%nat -> ticks (f n) (f (S n))) ->
  exists (h : nat -> list deed) (st : nat -> store), vacant dbs (st 0%nat) /\ h 0%nat = [] /\
    (forall n, (n < N)%nat -> exists h', h (S n) = h n ++ h' /\ srv_run (st n) h' (st (S n)) /\ Forall (fun e => when e = (f n).1) h') /\
    (forall n i p, (n <= N)%nat -> peers (f n).2 !! i = Some p -> log (lnk p) = by_client i (h n) /\ replied (by_client i (h n)) (written p) /\
       forall cs, asks (concat (given (lnk p))) cs -> exists rest, cs = map fst (by_client i (h n)) ++ rest) /\
    (forall n, (n <= N)%nat -> ~ executing (f n).2 -> st n = (wsel (f n).2, map (fun c => stored (cdb c)) (wcores (f n).2))).
Proof. exact (ticking dbs k f N). Qed.
(** And when the goroutines have come to rest every client that has connected has the replies to all the commands in the bytes it sent. *)
Theorem C76_all_answered dbs k a b : (1 <= dbs)%nat -> a.2 = boot 0 (replicate dbs empty_db) k -> rtc ticks a b -> now_is b.2 = Running -> (forall y, ~ wadvance (fun _ => True) b.2 y) -> ~ spins b.2 ->
  exists h st0 st, vacant dbs st0 /\ srv_run st0 h st /\
    forall i p, peers b.2 !! i = Some p -> stg p <> Away -> exists cs, asks (concat (given (lnk p))) cs /\ map fst (by_client i h) = cs /\ replied (by_client i h) (written p).
Proof. exact (ticking_rests dbs k a b). Qed.
(** No luck is needed if there is one client only. *)
Theorem C76_alone x : (length (peers x) <= 1)%nat -> one_at_a_time x.
Proof. exact (alone_one x). Qed.
End C76.
Print Assumptions C76_one_at_a_time.
Print Assumptions C76_all_answered.
Print Assumptions C76_alone.

#[local] Existing Instance demo_setup.
Local Open Scope string_scope.
(** A system on which everything works. *)
Definition fine_system : system := mkSys (fun _ => true) (fun _ => None) (fun _ => true) (fun _ => false) (fun _ => true) (fun _ _ => true).
Definition two_dbs : config := mkConf (B "127.0.0.1") 6379 (B "./") (B "info") 100 2.
(** Client 0 stores 7 and, after a stray value, selects database 1; client 1 increments, before the SELECT, and then, after it, reads: nil.  Then client 1 sends a line that is no RESP. *)
Definition trio_cmds : list (list command) := [[C ["set"; "f"; "7"]; C ["SELECT"; "1"]]; [C ["incr"; "f"]; C ["get"; "f"]]].
Definition trio_acts : list wact :=
  [Connect 1; Connect 0; Accept 0; Serve 0; Client 0 (Send (W "*3&$3&set&$1&f&$1&7&+st")); Go 0 Read; Accept 1; Serve 1; Go 0 Read; Go 0 Read; Go 0 Read; Go 0 Read; Go 0 Read; Go 0 Read; Go 0 Pass;
   Cmd (Beg 0); Client 1 (Send (W "*2&$4&incr&$1&f&")); Go 1 Read; Go 1 Read; Go 1 Read; Go 1 Read; Go 1 Read; Go 1 Pass; Cmd (Run 0 100); Cmd (Beg 1); Cmd (Run 1 100); Cmd (Rep 0);
   Client 0 (Send (W "ray&*2&$6&SELECT&$1&1&")); Go 0 Read; Go 0 Pass; Go 0 Read; Go 0 Read; Go 0 Read; Go 0 Read; Go 0 Read; Go 0 Pass; Cmd (Sel 0); Cmd (Rep 1);
   Client 1 (Send (W "*2&$3&get&$1&f&*x&")); Go 1 Read; Go 1 Read; Go 1 Read; Go 1 Read; Go 1 Read; Go 1 Pass; Cmd (Beg 1); Cmd (Run 1 100); Cmd (Rep 1); Go 1 Read; Go 1 Pass; Go 1 (Close 0); Go 1 Read].
Example C75_example : main fine_system 9 [B "-dbnum=2"] = Some (Serves two_dbs) /\ each one_step trio_cmds /\ each (far_deadlines (eq 100) 100) trio_cmds /\
  exists x, rtc (happens (eq 100)) (boot 0 (replicate (Z.to_nat (dbnum two_dbs)) empty_db) 2) x /\ now_is x = Running /\ (forall y, ~ wadvance (eq 100) x y) /\ ~ spins x /\
    (forall i p, peers x !! i = Some p -> stg p <> Away /\ exists cs, trio_cmds !! i = Some cs /\ asks (concat (given (lnk p))) cs) /\
    map written (peers x) = [W "+OK&+OK&"; W ":8&$-1&"].
Proof.
  split; [vm_compute; reflexivity|]. split; [apply one_step_ok; vm_compute; reflexivity|]. split; [apply no_deadline_ok; vm_compute; reflexivity|].
  run_world 100 trio_acts (boot 0 (replicate (Z.to_nat (dbnum two_dbs)) empty_db) 2) (fun x => (map (fun p => (concat (given (lnk p)), stg p)) (peers x), map written (peers x), now_is x, wquiet x, map (fun c => map (fun t => match tcode t with Hang => true | _ => false end) (ths c)) (wcores x))).
  match goal with H : exists y, _ |- _ => destruct H as (x & R & [= E1 E2 E3 E4 E5]) end.
  exists x. split; [exact R|]. split; [exact E3|]. split; [intros y [Hy _]; exact (wquiet_ok _ _ _ E4 Hy)|]. split; [|split; [|rewrite E2; vm_compute; reflexivity]].
  - intros (j & c & t & Hj & Ht & Hh). apply (f_equal (fun l => l !! j)) in E5. rewrite list_lookup_fmap, Hj in E5. apply elem_of_list_lookup in Ht as [k Hk]. destruct j as [|[|j]]; [| |discriminate]; injection E5 as E5;
      apply (f_equal (fun l => l !! k)) in E5; rewrite list_lookup_fmap, Hk in E5; cbn in E5; rewrite Hh in E5; repeat (destruct k as [|k]; try discriminate E5).
  - intros i p Hp. apply (in_peers _ _ _ _ _ E1) in Hp. destruct i as [|[|i]]; [| |discriminate]; injection Hp as <- <-; (split; [discriminate|]); eexists; (split; [reflexivity|]); apply asks_parse; vm_compute; reflexivity.
Qed.

(** One client: SET with a deadline at time 100; three seconds later SETNX, which fails, and TTL; at time 106 KEYS and DEL of two keys. *)
Definition reads (n : nat) : list wact := replicate n (Go 0 Read).
Definition does (n : nat) : list wact := (reads n ++ [Go 0 Pass; Cmd (Beg 0); Cmd (Run 0 100); Cmd (Rep 0)])%list.
Definition solo_acts : list (Z * list wact) :=
  [(100, [Connect 0; Accept 0; Serve 0; Client 0 (Send (W "*5&$3&set&$1&a&$1&v&$2&EX&$1&5&"))] ++ does 11);
   (103, [Client 0 (Send (W "*3&$5&setnx&$1&a&$1&w&*2&$3&ttl&$1&a&"))] ++ does 7 ++ does 5);
   (106, [Client 0 (Send (W "*2&$4&keys&$1&*&*3&$3&del&$1&a&$1&b&"))] ++ does 5 ++ does 7)]%list.
Example C76_example : exists t x, rtc ticks (100, boot 0 [empty_db] 1) (t, x) /\ now_is x = Running /\ (forall y, ~ wadvance (fun _ => True) x y) /\
  map (fun p => (stg p, written p)) (peers x) = [(Served, W "+OK&:0&:2&*0&:0&")].
Proof.
  assert (H : (fun x => (map (fun p => (stg p, written p)) (peers x), now_is x, wquiet x)) <$> tplay solo_acts (boot 0 [empty_db] 1) = Some ([(Served, W "+OK&:0&:2&*0&:0&")], Running, true)) by (vm_compute; reflexivity).
  apply (tplays _ _ _ _ 100) in H; [|cbn; lia|apply idle_ok; reflexivity]. destruct H as (t & x & R & [= E1 E2 E3]).
  exists t, x. split; [exact R|]. split; [exact E2|]. split; [intros y [Hy _]; exact (wquiet_ok _ _ _ E3 Hy)|exact E1].
Qed.
