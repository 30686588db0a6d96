(** Expired keys beside other commands: C90. *)
From Verif Require Import ExpiredLog MemoryMain StallSched DemoWire.

(** * C90  While only reading commands are sent for an expired key, it is missing for all of them, however they run beside each other *)
Section C90.
Context {P : Setup}.
(** The deadline [t0] of a key has passed at [x], no command on the key is in execution there, and until [y] only reading commands, KEYS included, are sent for it; other keys may
    be written.  Then every command with an entry in [absent_replies] that has been executed on the key answers as if the key were missing. *)
Theorem C90_invisible (T T' : Z -> Prop) sl ds n x y j c c' k t0 i cmd r b : rtc (happens T) (boot sl ds n) x -> rtc (happens T') x y -> (forall now, T' now -> t0 < now) ->
  wcores x !! j = Some c -> wcores y !! j = Some c' -> exps (cdb c) !! k = Some t0 ->
  (forall i cmd, performs x j i cmd -> ~ touched cmd k) -> (forall i cmd, since x y i cmd -> touched cmd k -> reading cmd) ->
  performs y j i cmd -> ths c' !! i = Some (mkT (Ret r) b) -> as_missing k cmd r.
Proof. exact (fun R R' HT Hj Hj' He HN HS => proj2 (expired_invisible T T' sl ds n x y j c c' k t0 R R' HT Hj Hj' He HN HS) i cmd r b). Qed.
(** At every moment the deadline is still there, or both the value and the deadline are gone: a key is never left without the deadline that makes it invisible. *)
Theorem C90_never_revived (T T' : Z -> Prop) sl ds n x y j c c' k t0 : rtc (happens T) (boot sl ds n) x -> rtc (happens T') x y -> (forall now, T' now -> t0 < now) ->
  wcores x !! j = Some c -> wcores y !! j = Some c' -> exps (cdb c) !! k = Some t0 ->
  (forall i cmd, performs x j i cmd -> ~ touched cmd k) -> (forall i cmd, since x y i cmd -> touched cmd k -> reading cmd) ->
  exps (cdb c') !! k = Some t0 \/ exps (cdb c') !! k = None /\ dict (cdb c') !! k = None.
Proof. exact (fun R R' HT Hj Hj' He HN HS => proj1 (expired_invisible T T' sl ds n x y j c c' k t0 R R' HT Hj Hj' He HN HS)). Qed.
(** What the clients are answered.  No command on the key is in execution at [x] on any database, and until [y] no SELECT is sent: then every reply from [x] to [y] to such a command is as if the
    key were missing. *)
Theorem C90_answered (T T' : Z -> Prop) sl ds n x y j c k t0 : rtc (happens T) (boot sl ds n) x -> rtc (happens T') x y -> (forall now, T' now -> t0 < now) ->
  wsel x = j -> wcores x !! j = Some c -> exps (cdb c) !! k = Some t0 ->
  (forall j i cmd, performs x j i cmd -> ~ touched cmd k) -> (forall i cmd, since x y i cmd -> (touched cmd k -> reading cmd) /\ is_select cmd = false) ->
  forall i p q cmd r, peers x !! i = Some p -> peers y !! i = Some q -> (cmd, r) ∈ drop (length (log (lnk p))) (log (lnk q)) -> as_missing k cmd r.
Proof. exact (expired_answered T T' sl ds n x y j c k t0). Qed.
End C90.
Print Assumptions C90_invisible.
Print Assumptions C90_never_revived.
Print Assumptions C90_answered.

#[local] Existing Instance demo_setup.
Local Open Scope string_scope.
(** The deadline of "old" passed at 50.  At 100 client 0 sends GET, client 1 TTL and client 2 SET of another key.  GET is held up in the middle, after it has looked at the deadline.
    Then the three replies are written. *)
Definition joins : list wact := [Connect 0; Accept 0; Serve 0; Connect 1; Accept 1; Serve 1; Connect 2; Accept 2; Serve 2].
Definition asks (i n : nat) (s : string) : list wact := (Client i (Send (W s)) :: replicate n (Go i Read) ++ [Go i Pass; Cmd (Beg i)])%list.
Definition old_acts : list wact :=
  (asks 0 5 "*2&$3&get&$3&old&" ++ asks 1 5 "*2&$3&ttl&$3&old&" ++ asks 2 7 "*3&$3&set&$1&z&$1&1&" ++ [Cmd (Run 0 2); Cmd (Run 2 100); Cmd (Run 1 100); Cmd (Run 0 100)])%list.
Definition reps : list wact := [Cmd (Rep 1); Cmd (Rep 0); Cmd (Rep 2)].
Definition ends (x : world) : list (list (option rdata)) := map (fun c => map (fun t => match tcode t with Ret r => Some r | _ => None end) (ths c)) (wcores x).
Example C90_example : exists x y z c, rtc (happens (eq 100)) (boot 0 [demo] 3) x /\ rtc (happens (eq 100)) x y /\ rtc (happens (eq 100)) y z /\ wsel x = 0%nat /\ wcores x !! 0%nat = Some c /\ exps (cdb c) !! B "old" = Some 50 /\ is_Some (dict (cdb c) !! B "old") /\
  (forall j i cmd, ~ performs x j i cmd) /\ (forall i cmd, since x z i cmd -> (touched cmd (B "old") -> reading cmd) /\ is_select cmd = false) /\
  performs y 0 0 (C ["get"; "old"]) /\ performs y 0 1 (C ["ttl"; "old"]) /\ ends y = [[Some (RBulk None); Some (RInt (-2)); Some (RStr (B "OK"))]] /\
  map (fun p => log (lnk p)) (peers z) = [[(C ["get"; "old"], RBulk None)]; [(C ["ttl"; "old"], RInt (-2))]; [(C ["set"; "z"; "1"], RStr (B "OK"))]] /\ map written (peers z) = [W "$-1&"; W ":-2&"; W "+OK&"].
Proof.
  run_world 100 joins (boot 0 [demo] 3) (fun x => (map (fun c => (exps (cdb c) !! B "old", dict (cdb c) !! B "old")) (wcores x), wsel x, map (fun p => (runs_on p, log (lnk p))) (peers x),
    (fun y => (ends y, map (fun p => (hnd (lnk p), runs_on p)) (peers y), (fun z => (map (fun p => log (lnk p)) (peers z), map written (peers z), map (fun p => handed (lnk p)) (peers z))) <$> wplay 100 reps y)) <$> wplay 100 old_acts x)).
  match goal with H : exists y, _ |- _ => destruct H as (x & R & E) end. cbv beta in E. apply pair_equal_spec in E as [E E3]. apply pair_equal_spec in E as [E E2]. apply pair_equal_spec in E as [E1 Es].
  apply wplays in E3 as (y & R' & E). cbv beta in E. apply pair_equal_spec in E as [E E6]. apply pair_equal_spec in E as [E4 E5].
  apply wplays in E6 as (z & R2 & E). cbv beta in E. apply pair_equal_spec in E as [E E9]. apply pair_equal_spec in E as [E7 E8].
  destruct (wcores x) as [|c []] eqn:Ec; try discriminate E1. cbn in E1. injection E1 as E1 E1'.
  destruct (peers x) as [|p0 [|p1 [|p2 []]]] eqn:Ep; try discriminate E2. cbn in E2. injection E2 as X0 L0 X1 L1 X2 L2.
  destruct (peers y) as [|q0 [|q1 [|q2 []]]] eqn:Eq; try discriminate E5. cbn in E5. injection E5 as H0 Y0 H1 Y1 H2 Y2.
  exists x, y, z, c. split; [exact R|]. split; [exact R'|]. split; [exact R2|]. split; [exact Es|]. rewrite Ec. split; [reflexivity|]. split; [exact E1|]. split; [eexists; exact E1'|].
  split; [|split; [|split; [|split; [|split; [|split]]]]].
  - intros j i cmd (p & Hp & _ & Hr). rewrite Ep in Hp. destruct i as [|[|[|i]]]; cbn in Hp; try discriminate Hp; injection Hp as <-; congruence.
  - intros i cmd (p & q & Hp & Hq & Hc). rewrite Ep in Hp. clear E7 E8. destruct (peers z) as [|r0 [|r1 [|r2 []]]]; try discriminate E9. cbn [map] in E9. injection E9 as D0 D1 D2.
    destruct i as [|[|[|i]]]; cbn in Hp, Hq; try discriminate Hp; injection Hp as <-; injection Hq as <-; rewrite ?L0, ?L1, ?L2, ?D0, ?D1, ?D2 in Hc; cbn in Hc; apply elem_of_list_singleton in Hc as ->;
      (split; [intros Ht|vm_compute; reflexivity]).
    + left. apply elem_of_list_In. vm_compute. auto 8.
    + left. apply elem_of_list_In. vm_compute. auto 8.
    + exfalso. destruct Ht as [Ht|Ht]; [|vm_compute in Ht; discriminate Ht]. apply elem_of_list_In in Ht. vm_compute in Ht. destruct Ht as [Ht|[]]. discriminate Ht.
  - exists q0. rewrite Eq. auto.
  - exists q1. rewrite Eq. auto.
  - exact E4.
  - exact E7.
  - exact E8.
Qed.
