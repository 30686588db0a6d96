(** Several databases and connections: C08 at the server level, C49, C50. *)
From Verif Require Import DemoWire.

(** * C08  Command names, for the whole server *)
Section C08.
Context {P : Setup}.
Theorem C08_server_case T m n1 n2 args out : same_upto_case (str n1) (str n2) ->
  named n1 "select" \/ (exists s a, In (s, a) arity_table /\ named n1 s) ->
  mexec T m (n1 :: args) out <-> mexec T m (n2 :: args) out.
Proof. exact (mexec_case T m n1 n2 args out). Qed.
(** An unknown name: an error reply, no database and no selection changes. *)
Theorem C08_server_unknown T m n args out : (cur m < length (mdbs m))%nat ->
  ~ named n "select" -> (forall s a, In (s, a) arity_table -> ~ named n s) ->
  mexec T m (n :: args) out <-> out = MDone (RErr (B "unknown command '" ++ str n ++ B "'")) m.
Proof. exact (mexec_unknown T m n args out). Qed.
End C08.
Print Assumptions C08_server_case.
Print Assumptions C08_server_unknown.
Example C08_server_example :
  named (Some (B "SeLect")) "select" /\
  session two_dbs [C ["SeLect"; "1"]; C ["flushdb"]; C ["SET"; "k"; "v"]; C ["select"; "0"]; C ["get"; "k"]; C ["SELECT"; "1"]; C ["GET"; "k"]]
    [ok; RErr (B "unknown command 'flushdb'"); ok; ok; RBulk None; ok; RBulk (Some (B "v"))].
Proof. split; [reflexivity|session]. Qed.

(** * C49  SELECT *)
Section C49.
Context {P : Setup}.
(** SELECT i with 0 <= i < N: OK, and i is the selected database.  Nothing else happens. *)
Theorem C49_select m cmd i T out : selects (zlen (mdbs m)) cmd = Some i ->
  mexec T m cmd out <-> out = MDone ok (mkMgr i (mdbs m)).
Proof. exact (mexec_select m cmd i T out). Qed.
(** Any other SELECT is refused and changes nothing. *)
Theorem C49_select_refused m cmd T out : is_select cmd = true -> selects (zlen (mdbs m)) cmd = None ->
  mexec T m cmd out -> exists r, out = MDone r m /\ r <> ok.
Proof. exact (mexec_select_bad m cmd T out). Qed.
(** No command, even one that crashes, changes a database that is not selected. *)
Theorem C49_isolated T m cmd out j : mexec T m cmd out -> j <> cur m ->
  mdbs (match out with MDone _ m' => m' | MCrash m' => m' | MHang m' => m' end) !! j = mdbs m !! j.
Proof. exact (mexec_other T m cmd out j). Qed.
(** A history of commands: every database goes through exactly the commands addressed to it. *)
Theorem C49_history m cs rs m' : executes m cs rs m' -> length (mdbs m') = length (mdbs m) /\
  forall i d, mdbs m !! i = Some d ->
  exists d', mdbs m' !! i = Some d' /\ runs_all d (addressed (zlen (mdbs m)) (cur m) cs i) d'.
Proof. exact (executes_addressed m cs rs m'). Qed.
(** A configuration with n > 0 databases starts with n empty databases, number 0 selected. *)
Theorem C49_start n m : new_manager n = Some m ->
  cur m = 0%nat /\ length (mdbs m) = Z.to_nat n /\ (0 < length (mdbs m))%nat /\ Forall (eq empty_db) (mdbs m).
Proof. exact (new_manager_start n m). Qed.
End C49.
Print Assumptions C49_select.
Print Assumptions C49_select_refused.
Print Assumptions C49_isolated.
Print Assumptions C49_history.
Print Assumptions C49_start.
Example C49_example :
  selects 2 (C ["select"; "1"]) = Some 1%nat /\ selects 2 (C ["select"; "2"]) = None /\ selects 2 (C ["select"; "-1"]) = None /\
  addressed 2 0 [C ["set"; "a"; "1"]; C ["select"; "1"]; C ["select"; "7"]; C ["set"; "b"; "2"]] 1 = [C ["set"; "b"; "2"]] /\
  session two_dbs [C ["set"; "a"; "1"]; C ["select"; "1"]; C ["select"; "7"]; C ["get"; "a"]; C ["select"; "0"]; C ["get"; "a"]]
    [ok; ok; RStr (B "ERR DB index is out of range with maximum 2"); RBulk None; ok; RBulk (Some (B "1"))] /\
  (exists m, new_manager 16 = Some m).
Proof. repeat apply conj; try reflexivity; [session|eexists; reflexivity]. Qed.
(** No database at all: the server does not start. *)
Theorem C49_zero_refuted {P : Setup} : new_manager 0 = None /\ new_manager (-1) = None.
Proof. split; reflexivity. Qed.

(** * C50  SELECT is per connection *)
(** A connection that is alone cannot tell the difference. *)
Theorem C50_alone {P : Setup} m cs rs m' : executes m cs rs m' -> forall i pm, pcur pm i = cur m -> pdbs pm = mdbs m ->
  exists pm', pexecutes pm (map (fun c => (i, c)) cs) rs pm' /\ pcur pm' i = cur m' /\ pdbs pm' = mdbs m'.
Proof. exact (single_connection m cs rs m'). Qed.
Print Assumptions C50_alone.
(** Two connections can: connection 1 does not find what it has just written, because connection 2 sent SELECT. *)
Theorem C50_shared_refuted (P := demo_setup) :
  let story := [(1%nat, C ["set"; "x"; "a"]); (2%nat, C ["select"; "1"]); (1%nat, C ["get"; "x"])] in
  (forall rs m', executes (mkMgr 0 [empty_db; empty_db]) (map snd story) rs m' -> rs = [ok; ok; RBulk None]) /\
  (forall rs pm', pexecutes (mkPm (fun _ => 0%nat) [empty_db; empty_db]) story rs pm' -> rs = [ok; ok; RBulk (Some (B "a"))]) /\
  (exists m', executes (mkMgr 0 [empty_db; empty_db]) (map snd story) [ok; ok; RBulk None] m') /\
  (exists pm', pexecutes (mkPm (fun _ => 0%nat) [empty_db; empty_db]) story [ok; ok; RBulk (Some (B "a"))] pm').
Proof. destruct select_shared as (H1 & H2 & H3 & H4). exact (conj H3 (conj H4 (conj H1 H2))). Qed.
Print Assumptions C50_shared_refuted.
Example C50_example :
  session two_dbs [C ["set"; "x"; "a"]; C ["select"; "1"]; C ["get"; "x"]] [ok; ok; RBulk None].
Proof. session. Qed.
