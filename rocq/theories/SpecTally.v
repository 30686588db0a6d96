(** Specification vocabulary: goroutines that see any value of the counter of a map. *)
From Verif Require Export SpecStale.

Section WithParams.
Context {P : Setup}.
(** The field count of db.dict is incremented and decremented under the lock of one segment only (memdb/concurrentMap.go:45-75) and read by Keys without a lock (memdb/concurrentMap.go:100):
    goroutines on different segments race, and by the memory model of Go a load may give an old value.  So we let it give any number [z], whatever has been stored. *)
Inductive miscounts : world -> world -> Prop :=
| M_count sl cs ps sg j c i k z : cs !! j = Some c -> ths c !! i = Some (mkT (CntLoad k) false) ->
    miscounts (mkW sl cs ps sg Running) (mkW sl (<[j := mkC (cdb c) (lk c) (<[i := mkT (k z) false]> (ths c))]> cs) ps sg Running).
(** An execution with both: old views of the selected database (SpecStale.v) and of the counters. *)
Definition muddles (T : Z -> Prop) (x y : world) : Prop := races T x y \/ miscounts x y.
(** The same but for the counters: the keys, values and deadlines, the locks, the clients and what they have sent and got, the selected database and the fate of the process. *)
Definition same_but_counts (x x' : world) : Prop :=
  wsel x' = wsel x /\ peers x' = peers x /\ signal x' = signal x /\ now_is x' = now_is x /\
  Forall2 (fun c c' => dict (cdb c') = dict (cdb c) /\ exps (cdb c') = exps (cdb c) /\ lk c' = lk c) (wcores x) (wcores x').
(** No client has asked for KEYS so far. *)
Definition no_keys_asked (x : world) : Prop := forall i p cmd, peers x !! i = Some p -> cmd ∈ handed (lnk p) -> cmd_is "keys" cmd = false.
End WithParams.
