(** Any bytes at all from the clients: C06 (exact form), C64, C68 and C69 for all bytes, C71. *)
From Verif Require Import GramWorld PipeSched WorldSched Demo DemoWire.

(** * C71  What the parser makes of any bytes *)
(** Every byte stream can be read in the grammar of SpecGrammar.v, and then the parser sends the values of its pieces, and ends as the grammar says. *)
Theorem C71_total s : exists ks t, reads_as s ks t.
Proof. exact (grammar_total s). Qed.
Theorem C71_exact st ks t : reads_as (concat st) ks t -> parse_stream st = (values None ks ++ ending_values t, ending_of t).
Proof. exact (grammar_exact st ks t). Qed.
Print Assumptions C71_total.
Print Assumptions C71_exact.

(** * C06  No client byte stream can crash the server: which ones do *)
(** The streams that crash the parser. *)
Theorem C06_exact st : (parse_stream st).2 = Crashed <-> exists ks, reads_as (concat st) ks Fatal.
Proof. exact (grammar_crash st). Qed.
Print Assumptions C06_exact.

(** * C64  Commands are executed in order, as soon as they have arrived: for all bytes *)
Theorem C64_any_order x ks t : rtc goes opened x -> reads_as (concat (given x)) ks t -> exists rest, commands (values None ks) = handed x ++ rest.
Proof. exact (any_order x ks t). Qed.
(** When the goroutines rest, all commands before the first error have been executed; the handler waits for more if there was no error and the stream has not ended. *)
Theorem C64_any_prompt x ks t : rtc goes opened x -> reads_as (concat (given x)) ks t -> rests x ->
  map fst (log x) = commands (values None ks) /\
  (hnd x = HIdle /\ ended x = None /\ t <> Fatal /\ (forall e, EvErr e ∉ values None ks) \/ exists e, hnd x = HGone e /\ (ended x <> None \/ EvErr e ∈ values None ks)).
Proof. exact (any_prompt x ks t). Qed.
Print Assumptions C64_any_order.
Print Assumptions C64_any_prompt.

(** * C68  Every client is served: for all bytes *)
Theorem C68_any_served {P : Setup} (T : Z -> Prop) now sl ds n x : T now -> (sl < length ds)%nat -> rtc (happens T) (boot sl ds n) x -> now_is x = Running -> (forall y, ~ wadvance T x y) ->
  spins x \/ forall i p, peers x !! i = Some p -> stg p <> Away -> stg p = Served /\
    forall ks t, reads_as (concat (given (lnk p))) ks t -> map fst (log (lnk p)) = commands (values None ks) /\ replied (log (lnk p)) (written p) /\
      (hnd (lnk p) = HIdle /\ ended (lnk p) = None /\ t <> Fatal /\ (forall e, EvErr e ∉ values None ks) \/ exists e, hnd (lnk p) = HGone e /\ (ended (lnk p) <> None \/ EvErr e ∈ values None ks)).
Proof. exact (world_any_rests T now sl ds n x). Qed.
Print Assumptions C68_any_served.

(** * C69  How the process ends: for all bytes *)
(** It panics only for one of these reasons: a client's bytes crash the parser, they hold an array on which the handler panics, or a command may panic. *)
Theorem C69_any_no_panic {P : Setup} T sl ds n x : (sl < length ds)%nat -> rtc (happens T) (boot sl ds n) x ->
  (forall i p, peers x !! i = Some p -> exists ks t, reads_as (concat (given (lnk p))) ks t /\ t <> Fatal /\ forall ev, ev ∈ values None ks -> ~ fatal_value ev) ->
  (forall i p cmd, peers x !! i = Some p -> cmd ∈ handed (lnk p) -> panic_free cmd) -> now_is x <> Panicked.
Proof. exact (world_any_no_panic T sl ds n x). Qed.
(** In every state, any client not yet connected can end the process with two bytes. *)
Theorem C69_kill_refuted {P : Setup} T sl ds n x i p : rtc (happens T) (boot sl ds n) x -> now_is x = Running -> peers x !! i = Some p -> stg p = Away ->
  exists y, rtc (happens T) x y /\ now_is y = Panicked /\ exists q, peers y !! i = Some q /\ concat (given (lnk q)) = CRLF.
Proof. exact (world_kill T sl ds n x i p). Qed.
Print Assumptions C69_any_no_panic.
Print Assumptions C69_kill_refuted.

(** ** Examples *)
Local Open Scope string_scope.
Ltac fin_lf := repeat (constructor; [vm_compute; discriminate|]); constructor.
Ltac num l := exists l; split; [discriminate|]; split; [repeat (constructor; [vm_compute; split; discriminate|]); constructor|]; left; split; [left; reflexivity|reflexivity].
Ltac num1 l := exists l; split; [discriminate|]; split; [repeat (constructor; [vm_compute; split; discriminate|]); constructor|]; right; split; reflexivity.
Ltac pc p k := match goal with |- reads_as ?s _ _ => let v := eval vm_compute in (length p) in
  change s with (p ++ drop v s)%list; eapply (rd_piece p k) end.
(** A stray value, a command with a bad bulk string, a bare line, an array with a null array inside, the end inside a bulk string. *)
Definition odd_bytes : bytes := (W "+hi&*2&$1&a&$1&bcd*1&x" ++ [LF] ++ W "*2&$1&a&*-1&$1&b&$5&ab")%list.
Example C71_example : reads_as odd_bytes
    [Elem (RStr (B "hi")); Array 2; Elem (RBulk (Some (B "a"))); Wrong EInvalid; Array 1; Wrong EInvalid; Array 2; Elem (RBulk (Some (B "a"))); NullArr; Elem (RBulk (Some (B "b")))] Inside /\
  parse_stream [odd_bytes] = ([EvData (RStr (B "hi")); EvErr EInvalid; EvErr EInvalid; EvData (RArr None); EvErr EUnexpectedEof; EvErr EEof], Closed).
Proof.
  split; [|vm_compute; reflexivity]. unfold odd_bytes.
  pc (W "+hi&") (Elem (RStr (B "hi"))); [apply (pc_str (B "hi")); fin_lf|].
  pc (W "*2&") (Array 2); [apply (pc_array (B "2") 2); [split; [num (B "2")|split; reflexivity || discriminate]|reflexivity]|].
  pc (W "$1&a&") (Elem (RBulk (Some (B "a")))); [apply (pc_bulk (B "1") (B "a")); split; [num (B "1")|split; vm_compute; discriminate]|].
  pc (W "$1&bcd") (Wrong EInvalid); [apply (pc_nobulk (B "1") 1 (B "bcd")); [split; [num (B "1")|split; vm_compute; discriminate]|reflexivity|]|].
  { intros k E. apply (f_equal (@rev ascii)) in E. rewrite rev_app_distr in E. vm_compute in E. discriminate. }
  pc (W "*1&") (Array 1); [apply (pc_array (B "1") 1); [split; [num (B "1")|split; reflexivity || discriminate]|reflexivity]|].
  pc (B "x" ++ [LF])%list (Wrong EInvalid); [apply (pc_bare (B "x")); [fin_lf|discriminate|]|].
  { intros k E. apply (f_equal (@rev ascii)) in E. rewrite rev_app_distr in E. vm_compute in E. discriminate. }
  pc (W "*2&") (Array 2); [apply (pc_array (B "2") 2); [split; [num (B "2")|split; reflexivity || discriminate]|reflexivity]|].
  pc (W "$1&a&") (Elem (RBulk (Some (B "a")))); [apply (pc_bulk (B "1") (B "a")); split; [num (B "1")|split; vm_compute; discriminate]|].
  pc (W "*-1&") NullArr; [apply (pc_nullarr (B "-1")); num1 (B "1")|].
  pc (W "$1&b&") (Elem (RBulk (Some (B "b")))); [apply (pc_bulk (B "1") (B "b")); split; [num (B "1")|split; vm_compute; discriminate]|].
  apply rd_rest. apply (rs_inside (B "5") 5 (B "ab")); [split; [num (B "5")|split; vm_compute; discriminate]|discriminate|reflexivity].
Qed.
(** Three ways to crash the parser: after a value, an empty line; a line feed; a length that Go cannot allocate. *)
Example C06_exact_example : (exists ks, reads_as (W "+hi&&") ks Fatal) /\ (exists ks, reads_as (W "+hi&" ++ [LF])%list ks Fatal) /\ exists ks, reads_as (W "$281474976710655&") ks Fatal.
Proof.
  split; [|split].
  - eexists. pc (W "+hi&") (Elem (RStr (B "hi"))); [apply (pc_str (B "hi")); fin_lf|]. apply rd_rest. apply (rs_crlf []).
  - eexists. pc (W "+hi&") (Elem (RStr (B "hi"))); [apply (pc_str (B "hi")); fin_lf|]. apply rd_rest. apply (rs_lf []).
  - eexists. apply rd_rest. apply (rs_long (B "281474976710655") 281474976710655 []); [split; [num (B "281474976710655")|split; reflexivity || discriminate]|reflexivity].
Qed.
(** A stray value, a command, a malformed array header: the command has been executed and the connection closed. *)
Example C64_any_example : exists x, rtc goes opened x /\ rests x /\ reads_as (concat (given x)) [Elem (RStr (B "hi")); Array 1; Elem (RBulk (Some (B "ping"))); Wrong ESyntax] Over /\
  log x = [(C ["ping"], RInt 1)] /\ hnd x = HGone ESyntax.
Proof.
  eexists. split; [apply (lplay_ok [Send (W "+hi&*1&$4&pi"); Read; Pass; Read; Read; Send (W "ng&*x&"); Read; Pass; Exec (RInt 1); Read; Pass; Close 0; Read]); vm_compute; reflexivity|].
  split; [apply rests_ok; vm_compute; reflexivity|]. split; [|split; reflexivity]. match goal with |- reads_as ?s _ _ => change s with (W "+hi&*1&$4&ping&*x&") end.
  pc (W "+hi&") (Elem (RStr (B "hi"))); [apply (pc_str (B "hi")); fin_lf|].
  pc (W "*1&") (Array 1); [apply (pc_array (B "1") 1); [split; [num (B "1")|split; reflexivity || discriminate]|reflexivity]|].
  pc (W "$4&ping&") (Elem (RBulk (Some (B "ping")))); [apply (pc_bulk (B "4") (B "ping")); split; [num (B "4")|split; vm_compute; discriminate]|].
  pc (W "*x&") (Wrong ESyntax); [apply (pc_noarray (B "x")); [fin_lf|]|].
  { intros n H. apply int_of_parse in H. vm_compute in H. discriminate. }
  apply rd_rest. constructor. constructor.
Qed.
#[local] Existing Instance demo_setup.
(** Client 0 sends a stray value and a malformed line, client 1 an INCR and then, instead of a command, part of a bulk string: the process goes on. *)
Example C69_any_example : exists x, rtc (happens (eq 100)) (boot 0 [demo; empty_db] 2) x /\ now_is x = Running /\
  (forall i p, peers x !! i = Some p -> exists ks t, reads_as (concat (given (lnk p))) ks t /\ t <> Fatal /\ forall ev, ev ∈ values None ks -> ~ fatal_value ev) /\
  (forall i p cmd, peers x !! i = Some p -> cmd ∈ handed (lnk p) -> panic_free cmd) /\ map written (peers x) = [[]; W ":8&"].
Proof.
  run_world 100 [Connect 0; Connect 1; Accept 1; Serve 1; Accept 0; Serve 0; Client 0 (Send (W "+hi&*x&")); Go 0 Read; Client 1 (Send (W "*2&$4&incr&$1&f&$3&x")); Go 0 Pass; Go 0 Read; Go 0 Pass; Go 0 (Close 0);
      Go 1 Read; Go 1 Read; Go 1 Read; Go 1 Read; Go 1 Read; Go 1 Pass; Cmd (Beg 1); Cmd (Run 1 100); Cmd (Rep 1); Go 1 Read; Client 1 (End Ended); Go 1 Read; Go 1 Pass] (boot 0 [demo; empty_db] 2)
    (fun x => (map (fun p => (concat (given (lnk p)), handed (lnk p))) (peers x), map written (peers x), now_is x)). match goal with H : exists y, _ |- _ => destruct H as (x & R & [= E1 E2 E3]) end.
  exists x. split; [exact R|]. split; [exact E3|]. split; [|split; [|rewrite E2; vm_compute; reflexivity]].
  - intros i p Hp. apply (in_peers _ _ _ _ _ E1) in Hp. destruct i as [|[|i]]; [| |discriminate]; injection Hp as <- _.
    + exists [Elem (RStr (B "hi")); Wrong ESyntax], Over. split; [|split; [discriminate|]].
      * match goal with |- reads_as ?s _ _ => change s with (W "+hi&*x&") end. pc (W "+hi&") (Elem (RStr (B "hi"))); [apply (pc_str (B "hi")); fin_lf|].
        pc (W "*x&") (Wrong ESyntax); [apply (pc_noarray (B "x")); [fin_lf|]|]; [intros n H; apply int_of_parse in H; vm_compute in H; discriminate|]. apply rd_rest. constructor. constructor.
      * intros ev Hev. cbn in Hev. repeat (apply elem_of_cons in Hev as [->|Hev]; [intros [H|(l & H & _)]; discriminate H|]). inversion Hev.
    + exists [Array 2; Elem (RBulk (Some (B "incr"))); Elem (RBulk (Some (B "f")))], Inside. split; [|split; [discriminate|]].
      * match goal with |- reads_as ?s _ _ => change s with (W "*2&$4&incr&$1&f&$3&x") end.
        pc (W "*2&") (Array 2); [apply (pc_array (B "2") 2); [split; [num (B "2")|split; reflexivity || discriminate]|reflexivity]|].
        pc (W "$4&incr&") (Elem (RBulk (Some (B "incr")))); [apply (pc_bulk (B "4") (B "incr")); split; [num (B "4")|split; vm_compute; discriminate]|].
        pc (W "$1&f&") (Elem (RBulk (Some (B "f")))); [apply (pc_bulk (B "1") (B "f")); split; [num (B "1")|split; vm_compute; discriminate]|].
        apply rd_rest. apply (rs_inside (B "3") 3 (B "x")); [split; [num (B "3")|split; vm_compute; discriminate]|discriminate|reflexivity].
      * intros ev Hev. cbn in Hev. apply elem_of_list_singleton in Hev as ->. intros [H|(l & H & Hl)]; [discriminate H|]. injection H as <-. destruct Hl as [Hl|Hl]; [discriminate|]. repeat (apply elem_of_cons in Hl as [Hl|Hl]; [discriminate|]). inversion Hl.
  - intros i p cmd Hp Hc. apply (in_peers _ _ _ _ _ E1) in Hp. destruct i as [|[|i]]; [| |discriminate]; injection Hp as _ Hp; rewrite <- Hp in Hc; [inversion Hc|]. apply elem_of_list_singleton in Hc as ->.
    left; intros s Hs Hn; cbn [In panicking] in Hs; vm_compute in Hn; repeat destruct Hs as [<-|Hs]; try discriminate Hn; destruct Hs.
Qed.
