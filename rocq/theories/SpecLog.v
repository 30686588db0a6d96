(** What the log file contains. *)
From Verif Require Export Log SpecConfig.

(** A line for the call [c]: the level's name, the caller's position, a time, the text. *)
Definition line_for (c : lcall) (l : bytes) : Prop :=
  exists name stamp, severities !! Z.to_nat (level c) = Some name /\ l = B "[" ++ name ++ B "][" ++ position c ++ B "]" ++ stamp ++ text c ++ [LF].
(** The calls that are to be written, with the configured level [conf]. *)
Definition kept (conf : Z) (cs : list lcall) : list lcall := base.filter (fun c => conf <= level c) cs.
(** The calls of goroutine [i] among those of all. *)
Definition mine (i : nat) (order : list (nat * lcall)) : list lcall := map snd (base.filter (fun x => x.1 = i) order).
