(** Overlapping commands, end to end: C78. *)
From Verif Require Import DemoWhole MainStart LinMain DemoWire PartsProofs.

(** * C78  Overlapping commands of any number of keys *)
Section C78.
Context {P : Setup} (sys : system).
(** As C75, for all commands but KEYS and SETNX: DEL, EXISTS and MGET of several keys too.
    Beside the execution goes one of a server that works by the reference ([serves], SpecParts.v), from [dbnum c] empty databases: each command is executed on
    the database that is selected when it starts, in one go, or, if it is a DEL, EXISTS or MGET, key by key.
    At every moment the contents of the databases are the same; for each client the same commands have been answered, with the same replies, the encodings of which have been written to it;
    the same command is in execution, on the same database; and these are the first of the commands in the bytes that the client sends. *)
Theorem C78_end_to_end args fuel c (T : Z -> Prop) lim css (f : nat -> world) N : main sys fuel args = Some (Serves c) -> (exists t, T t) -> (forall t, T t -> t <= lim) ->
  f 0%nat = boot 0 (replicate (Z.to_nat (dbnum c)) empty_db) (length css) -> (forall n, (n < N)%nat -> happens T (f n) (f (S n))) ->
  (forall i p, peers (f N) !! i = Some p -> exists cs, css !! i = Some cs /\ asks (concat (given (lnk p))) cs) ->
  each locked css -> each (far_deadlines T lim) css ->
  exists g : nat -> counter, clean_slate (Z.to_nat (dbnum c)) (length css) (g 0%nat) /\ (forall n, (n < N)%nat -> rtc (serves T) (g n) (g (S n))) /\
    forall n, (n <= N)%nat -> holds (f n) (g n).1 /\
      forall i p, peers (f n) !! i = Some p -> exists a cs rest, (g n).2 !! i = Some a /\ agrees p a /\
        css !! i = Some cs /\ cs = map fst (paid a) ++ match current a with Some t => [asked_for t] | None => [] end ++ rest.
Proof. intros Hm. pose proof (serves_some sys fuel args c Hm). exact (parts_whole T lim (Z.to_nat (dbnum c)) css f N ltac:(lia)). Qed.
(** When the goroutines have come to rest and all clients have connected, all their commands have been executed so, and each client has been sent the replies, and nothing else. *)
Theorem C78_all_answered args fuel c (T : Z -> Prop) lim css x : main sys fuel args = Some (Serves c) -> (exists t, T t) -> (forall t, T t -> t <= lim) ->
  rtc (happens T) (boot 0 (replicate (Z.to_nat (dbnum c)) empty_db) (length css)) x -> now_is x = Running -> (forall y, ~ wadvance T x y) -> ~ spins x ->
  (forall i p, peers x !! i = Some p -> stg p <> Away /\ exists cs, css !! i = Some cs /\ asks (concat (given (lnk p))) cs) ->
  each locked css -> each (far_deadlines T lim) css ->
  exists z0 z, clean_slate (Z.to_nat (dbnum c)) (length css) z0 /\ rtc (serves T) z0 z /\ holds x z.1 /\
    forall i p cs, peers x !! i = Some p -> css !! i = Some cs -> exists a, z.2 !! i = Some a /\ current a = None /\ map fst (paid a) = cs /\ replied (paid a) (written p).
Proof. intros Hm. pose proof (serves_some sys fuel args c Hm). exact (parts_rests T lim (Z.to_nat (dbnum c)) css x ltac:(lia)). Qed.
(** The replies to the pieces of a command determine its reply. *)
Theorem C78_reply rs r r' : rs <> [] -> joins rs r -> joins rs r' -> r = r'.
Proof. exact (joins_fun rs r r'). Qed.
End C78.
Print Assumptions C78_end_to_end.
Print Assumptions C78_all_answered.
Print Assumptions C78_reply.

#[local] Existing Instance demo_setup.
Local Open Scope string_scope.
Definition sound_system : system := mkSys (fun _ => true) (fun _ => None) (fun _ => true) (fun _ => false) (fun _ => true) (fun _ _ => true).
Definition dual_dbs : config := mkConf (B "127.0.0.1") 6379 (B "./") (B "info") 100 2.
(** Client 0 stores 7 under f and asks for f and g; when f has been read client 1 renames f to g and selects database 1: client 0 gets 7 twice, although never did both keys have a value.
    The DEL of client 1 is in database 1. *)
Definition torn_cmds : list (list command) := [[C ["set"; "f"; "7"]; C ["mget"; "f"; "g"]]; [C ["rename"; "f"; "g"]; C ["SELECT"; "1"]; C ["del"; "f"; "g"]]].
Definition torn_acts : list wact :=
  [Connect 1; Connect 0; Accept 0; Serve 0; Accept 1; Serve 1; Client 0 (Send (W "*3&$3&set&$1&f&$1&7&*3&$4&mget&$1&f&$1&g&")); Go 0 Read; Go 0 Read; Go 0 Read; Go 0 Read; Go 0 Read; Go 0 Read; Go 0 Read; Go 0 Pass;
   Cmd (Beg 0); Cmd (Run 0 100); Cmd (Rep 0); Go 0 Read; Go 0 Read; Go 0 Read; Go 0 Read; Go 0 Read; Go 0 Read; Go 0 Read; Go 0 Pass; Cmd (Beg 0); Cmd (Run 0 5);
   Client 1 (Send (W "*3&$6&rename&$1&f&$1&g&*2&$6&SELECT&$1&1&*3&$3&del&$1&f&$1&g&")); Go 1 Read; Go 1 Read; Go 1 Read; Go 1 Read; Go 1 Read; Go 1 Read; Go 1 Read; Go 1 Pass; Cmd (Beg 1); Cmd (Run 1 100); Cmd (Rep 1);
   Go 1 Read; Go 1 Read; Go 1 Read; Go 1 Read; Go 1 Read; Go 1 Pass; Cmd (Sel 1); Go 1 Read; Go 1 Read; Go 1 Read; Go 1 Read; Go 1 Read; Go 1 Read; Go 1 Read; Go 1 Pass; Cmd (Beg 1); Cmd (Run 1 100); Cmd (Rep 1); Cmd (Run 0 100); Cmd (Rep 0)].
Example C78_example : main sound_system 9 [B "-dbnum=2"] = Some (Serves dual_dbs) /\ each locked torn_cmds /\ each (far_deadlines (eq 100) 100) torn_cmds /\
  exists x, rtc (happens (eq 100)) (boot 0 (replicate (Z.to_nat (dbnum dual_dbs)) empty_db) 2) x /\ now_is x = Running /\ (forall y, ~ wadvance (eq 100) x y) /\ ~ spins x /\
    (forall i p, peers x !! i = Some p -> stg p <> Away /\ exists cs, torn_cmds !! i = Some cs /\ asks (concat (given (lnk p))) cs) /\
    map written (peers x) = [W "+OK&*2&$1&7&$1&7&"; W "+OK&+OK&:0&"].
Proof.
  split; [vm_compute; reflexivity|]. split; [intros cmds cmd H1 H2|].
  { assert (H : forallb (forallb (fun cmd => negb (cmd_is "keys" cmd) && negb (cmd_is "setnx" cmd))) torn_cmds = true) by (vm_compute; reflexivity).
    rewrite forallb_forall in H. specialize (H cmds (proj1 (elem_of_list_In _ _) H1)). rewrite forallb_forall in H. specialize (H cmd (proj1 (elem_of_list_In _ _) H2)).
    apply andb_true_iff in H as [Ha Hb]. split; [destruct (cmd_is "keys" cmd)|destruct (cmd_is "setnx" cmd)]; auto; discriminate. }
  split; [apply no_deadline_ok; vm_compute; reflexivity|].
  run_world 100 torn_acts (boot 0 (replicate (Z.to_nat (dbnum dual_dbs)) empty_db) 2) (fun x => (map (fun p => (concat (given (lnk p)), stg p)) (peers x), map written (peers x), now_is x, wquiet x, map (fun c => map (fun t => match tcode t with Hang => true | _ => false end) (ths c)) (wcores x))).
  match goal with H : exists y, _ |- _ => destruct H as (x & R & [= E1 E2 E3 E4 E5]) end.
  exists x. split; [exact R|]. split; [exact E3|]. split; [intros y [Hy _]; exact (wquiet_ok _ _ _ E4 Hy)|]. split; [|split; [|rewrite E2; vm_compute; reflexivity]].
  - intros (j & c & t & Hj & Ht & Hh). apply (f_equal (fun l => l !! j)) in E5. rewrite list_lookup_fmap, Hj in E5. apply elem_of_list_lookup in Ht as [k Hk]. destruct j as [|[|j]]; [| |discriminate]; injection E5 as E5;
      apply (f_equal (fun l => l !! k)) in E5; rewrite list_lookup_fmap, Hk in E5; cbn in E5; rewrite Hh in E5; repeat (destruct k as [|k]; try discriminate E5).
  - intros i p Hp. apply (in_peers _ _ _ _ _ E1) in Hp. destruct i as [|[|i]]; [| |discriminate]; injection Hp as <- <-; (split; [discriminate|]); eexists; (split; [reflexivity|]); apply asks_parse; vm_compute; reflexivity.
Qed.
