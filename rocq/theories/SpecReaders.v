(** Specification vocabulary for C80: commands that only read. *)
From Verif Require Export Conc.

(** The commands that only read, and names that are no command. *)
Definition read_names : list string :=
  ["ping"; "exists"; "keys"; "ttl"; "type"; "get"; "getrange"; "mget"; "strlen"; "hexists"; "hget"; "hgetall"; "hkeys"; "hlen"; "hmget"; "hvals"; "hstrlen"; "hrandfield";
   "lindex"; "llen"; "lpos"; "lrange"; "scard"; "sdiff"; "sinter"; "sismember"; "smembers"; "srandmember"; "sunion"]%string.
Section WithParams.
Context {P : Setup}.
Definition reading (cmd : command) : Prop :=
  match cmd with [] => True | n :: _ => to_lower (str n) ∈ map B read_names \/ lookup_cmd (to_lower (str n)) = None end.
(** While the clock shows values of [T], no deadline in the database passes. *)
Definition none_expires (T : Z -> Prop) (d : db) : Prop := forall key t now, exps d !! key = Some t -> T now -> now <= t.
End WithParams.
(** The next step of the goroutine changes the database, or takes or waits for a lock exclusively. *)
Definition disturbs {A} (t : thread A) : Prop :=
  match tcode t with DSet _ _ _ | DMut _ _ _ | DDel _ _ | CntStore _ _ | ESet _ _ _ | EDel _ _ | Acq _ MW _ => True | _ => False end.
