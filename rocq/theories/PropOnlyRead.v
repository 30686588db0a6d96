(** Keys that are only read, beside commands on other keys: C91. *)
From Verif Require Import OnlyReadGet StallSched DemoWire.

(** * C91  Keys that are only read: every reply about them is that of the command alone, whatever happens to the other keys *)
Section C91.
Context {P : Setup}.
(** [ks]: some keys of database [j], with no deadline or one that does not pass.  At [x] no command on them is in execution, and until [y] only reading commands are sent for them; other keys may be
    written, expire and be removed.  Then the keys hold at [y] what they held at [x]. *)
Theorem C91_stays (T T' : Z -> Prop) ks sl ds n x y j c c' : rtc (happens T) (boot sl ds n) x -> rtc (happens T') x y ->
  wcores x !! j = Some c -> wcores y !! j = Some c' -> lasting T' ks (cdb c) ->
  (forall i cmd k, performs x j i cmd -> k ∈ ks -> ~ touched cmd k) -> (forall i cmd k, since x y i cmd -> k ∈ ks -> touched cmd k -> reading cmd) ->
  same_on ks (cdb c) (cdb c').
Proof. exact (only_read T T' ks sl ds n x y j c c'). Qed.
(** If [j] is the selected database and no SELECT is sent, every reply from [x] to [y] to a command all of whose keys are in [ks] is one that the command gives when it is executed alone on the database of [x]. *)
Theorem C91_answered (T T' : Z -> Prop) ks sl ds n x y j c : rtc (happens T) (boot sl ds n) x -> rtc (happens T') x y ->
  wsel x = j -> wcores x !! j = Some c -> lasting T' ks (cdb c) ->
  (forall j i cmd k, performs x j i cmd -> k ∈ ks -> ~ touched cmd k) -> (forall i cmd, since x y i cmd -> (forall k, k ∈ ks -> touched cmd k -> reading cmd) /\ is_select cmd = false) ->
  forall i p q cmd r, peers x !! i = Some p -> peers y !! i = Some q -> (cmd, r) ∈ drop (length (log (lnk p))) (log (lnk q)) -> about ks cmd ->
  runs T' (cdb c) (exec_in_db cmd) (Done r (cdb c)).
Proof. exact (only_read_answered T T' ks sl ds n x y j c). Qed.
(** In particular GET of a string answers its value, as long as only reading commands are sent for the key. *)
Theorem C91_get (T T' : Z -> Prop) sl ds n x y j c k s : rtc (happens T) (boot sl ds n) x -> rtc (happens T') x y ->
  wsel x = j -> wcores x !! j = Some c -> dict (cdb c) !! str k = Some (VStr s) -> (forall t now, exps (cdb c) !! str k = Some t -> T' now -> now <= t) ->
  (forall j i cmd, performs x j i cmd -> ~ touched cmd (str k)) -> (forall i cmd, since x y i cmd -> (touched cmd (str k) -> reading cmd) /\ is_select cmd = false) ->
  forall i p q m r, peers x !! i = Some p -> peers y !! i = Some q -> named m "get" -> ([m; k], r) ∈ drop (length (log (lnk p))) (log (lnk q)) -> r = RBulk s.
Proof. exact (only_read_get T T' sl ds n x y j c k s). Qed.
End C91.
Print Assumptions C91_stays.
Print Assumptions C91_answered.
Print Assumptions C91_get.

#[local] Existing Instance demo_setup.
Local Open Scope string_scope.
(** Client 0 sends MGET of s and n, client 1 DEL of f and client 2 SET of f; MGET is held up between its two keys while the others are executed. *)
Definition three_join : list wact := [Connect 0; Accept 0; Serve 0; Connect 1; Accept 1; Serve 1; Connect 2; Accept 2; Serve 2].
Definition begins (i n : nat) (s : string) : list wact := (Client i (Send (W s)) :: replicate n (Go i Read) ++ [Go i Pass; Cmd (Beg i)])%list.
Definition mixed_acts : list wact :=
  (begins 0 7 "*3&$4&mget&$1&s&$1&n&" ++ begins 1 5 "*2&$3&del&$1&f&" ++ begins 2 7 "*3&$3&set&$1&f&$1&9&" ++ [Cmd (Run 0 5); Cmd (Run 1 100); Cmd (Run 2 100); Cmd (Run 0 100); Cmd (Rep 1); Cmd (Rep 0); Cmd (Rep 2)])%list.
Example C91_example : exists x y c, rtc (happens (eq 100)) (boot 0 [demo] 3) x /\ rtc (happens (eq 100)) x y /\ wsel x = 0%nat /\ wcores x !! 0%nat = Some c /\ lasting (eq 100) [B "s"; B "n"] (cdb c) /\
  exps (cdb c) !! B "n" = Some 200 /\ (forall j i cmd, ~ performs x j i cmd) /\
  (forall i cmd, since x y i cmd -> (forall k, k ∈ [B "s"; B "n"] -> touched cmd k -> reading cmd) /\ is_select cmd = false) /\ about [B "s"; B "n"] (C ["mget"; "s"; "n"]) /\
  map (fun p => log (lnk p)) (peers y) = [[(C ["mget"; "s"; "n"], RArr (Some [bulk "hello"; bulk "41"]))]; [(C ["del"; "f"], RInt 1)]; [(C ["set"; "f"; "9"], RStr (B "OK"))]] /\
  map written (peers y) = [W "*2&$5&hello&$2&41&"; W ":1&"; W "+OK&"].
Proof.
  run_world 100 three_join (boot 0 [demo] 3) (fun x => (map (fun c => (exps (cdb c) !! B "s", exps (cdb c) !! B "n")) (wcores x), wsel x, map (fun p => (runs_on p, log (lnk p))) (peers x),
    (fun y => (map (fun p => log (lnk p)) (peers y), map written (peers y), map (fun p => handed (lnk p)) (peers y))) <$> wplay 100 mixed_acts x)).
  match goal with H : exists y, _ |- _ => destruct H as (x & R & E) end. cbv beta in E. apply pair_equal_spec in E as [E E3]. apply pair_equal_spec in E as [E E2]. apply pair_equal_spec in E as [E1 Es].
  apply wplays in E3 as (y & R' & E). cbv beta in E. apply pair_equal_spec in E as [E E9]. apply pair_equal_spec in E as [E7 E8].
  destruct (wcores x) as [|c []] eqn:Ec; try discriminate E1. cbn in E1. injection E1 as E1 E1'.
  destruct (peers x) as [|p0 [|p1 [|p2 []]]] eqn:Ep; try discriminate E2. cbn in E2. injection E2 as X0 L0 X1 L1 X2 L2.
  exists x, y, c. split; [exact R|]. split; [exact R'|]. split; [exact Es|]. rewrite Ec. split; [reflexivity|].
  split; [|split; [exact E1'|split; [|split; [|split; [|split]]]]].
  - intros k t now Hk Ht <-. apply elem_of_cons in Hk as [->|Hk]; [pose proof (eq_trans (eq_sym Ht) E1) as F; discriminate F|]. apply elem_of_list_singleton in Hk as ->. pose proof (eq_trans (eq_sym Ht) E1') as F. injection F as ->. lia.
  - intros j i cmd (p & Hp & _ & Hr). rewrite Ep in Hp. destruct i as [|[|[|i]]]; cbn in Hp; try discriminate Hp; injection Hp as <-; congruence.
  - intros i cmd (p & q & Hp & Hq & Hc). rewrite Ep in Hp. clear E7 E8. destruct (peers y) as [|r0 [|r1 [|r2 []]]]; try discriminate E9. cbn [map] in E9. injection E9 as D0 D1 D2.
    assert (N : forall cmd, (cmd = C ["del"; "f"] \/ cmd = C ["set"; "f"; "9"]) -> forall k, k ∈ [B "s"; B "n"] -> touched cmd k -> reading cmd).
    { intros cmd1 H1 k Hk Ht. exfalso. assert (k = B "f") as ->.
      { destruct H1 as [->| ->]; (destruct Ht as [Ht|Ht]; [|vm_compute in Ht; discriminate Ht]); apply elem_of_list_In in Ht; vm_compute in Ht; destruct Ht as [Ht|[]]; symmetry; exact Ht. }
      apply elem_of_list_In in Hk. vm_compute in Hk. destruct Hk as [Hk|[Hk|[]]]; discriminate Hk. }
    destruct i as [|[|[|i]]]; cbn in Hp, Hq; try discriminate Hp; injection Hp as <-; injection Hq as <-; rewrite ?L0, ?L1, ?L2, ?D0, ?D1, ?D2 in Hc; cbn in Hc; apply elem_of_list_singleton in Hc as ->;
      (split; [|vm_compute; reflexivity]).
    + intros k _ _. left. apply elem_of_list_In. vm_compute. auto 10.
    + apply N. left. reflexivity.
    + apply N. right. reflexivity.
  - split; [exists (B "s"); left; apply elem_of_list_In; vm_compute; auto|]. intros k [Ht|Ht]; [exact Ht|vm_compute in Ht; discriminate Ht].
  - exact E7.
  - exact E8.
Qed.
(** The same with GET of n. *)
Definition get_acts : list wact :=
  (begins 0 5 "*2&$3&GET&$1&n&" ++ begins 1 5 "*2&$3&del&$1&f&" ++ [Cmd (Run 0 2); Cmd (Run 1 100); Cmd (Run 0 100); Cmd (Rep 1); Cmd (Rep 0)])%list.
Example C91_get_example : exists x y c, rtc (happens (eq 100)) (boot 0 [demo] 3) x /\ rtc (happens (eq 100)) x y /\ wsel x = 0%nat /\ wcores x !! 0%nat = Some c /\
  dict (cdb c) !! B "n" = Some (VStr (Some (B "41"))) /\ exps (cdb c) !! B "n" = Some 200 /\ (forall j i cmd, ~ performs x j i cmd) /\
  (forall i cmd, since x y i cmd -> (touched cmd (B "n") -> reading cmd) /\ is_select cmd = false) /\
  map (fun p => log (lnk p)) (peers y) = [[(C ["GET"; "n"], bulk "41")]; [(C ["del"; "f"], RInt 1)]; []].
Proof.
  run_world 100 three_join (boot 0 [demo] 3) (fun x => (map (fun c => (dict (cdb c) !! B "n", exps (cdb c) !! B "n")) (wcores x), wsel x, map (fun p => (runs_on p, log (lnk p))) (peers x),
    (fun y => (map (fun p => log (lnk p)) (peers y), map (fun p => handed (lnk p)) (peers y))) <$> wplay 100 get_acts x)).
  match goal with H : exists y, _ |- _ => destruct H as (x & R & E) end. cbv beta in E. apply pair_equal_spec in E as [E E3]. apply pair_equal_spec in E as [E E2]. apply pair_equal_spec in E as [E1 Es].
  apply wplays in E3 as (y & R' & E). cbv beta in E. apply pair_equal_spec in E as [E7 E9].
  destruct (wcores x) as [|c []] eqn:Ec; try discriminate E1. cbn in E1. injection E1 as E1 E1'.
  destruct (peers x) as [|p0 [|p1 [|p2 []]]] eqn:Ep; try discriminate E2. cbn in E2. injection E2 as X0 L0 X1 L1 X2 L2.
  exists x, y, c. split; [exact R|]. split; [exact R'|]. split; [exact Es|]. rewrite Ec. split; [reflexivity|]. split; [exact E1|]. split; [exact E1'|]. split; [|split; [|exact E7]].
  - intros j i cmd (p & Hp & _ & Hr). rewrite Ep in Hp. destruct i as [|[|[|i]]]; cbn in Hp; try discriminate Hp; injection Hp as <-; congruence.
  - intros i cmd (p & q & Hp & Hq & Hc). rewrite Ep in Hp. clear E7. destruct (peers y) as [|r0 [|r1 [|r2 []]]]; try discriminate E9. cbn [map] in E9. injection E9 as D0 D1 D2.
    destruct i as [|[|[|i]]]; cbn in Hp, Hq; try discriminate Hp; injection Hp as <-; injection Hq as <-; rewrite ?L0, ?L1, ?L2, ?D0, ?D1, ?D2 in Hc; cbn in Hc; [| |inversion Hc]; apply elem_of_list_singleton in Hc as ->;
      (split; [|vm_compute; reflexivity]).
    + intros _. left. apply elem_of_list_In. vm_compute. auto 8.
    + intros Ht. exfalso. destruct Ht as [Ht|Ht]; [|vm_compute in Ht; discriminate Ht]. apply elem_of_list_In in Ht. vm_compute in Ht. destruct Ht as [Ht|[]]. discriminate Ht.
Qed.
