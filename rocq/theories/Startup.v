(** Model of the creation of a database from the configuration: the lock table (memdb/locks.go:12-27, memdb/memdb.go:14-20). *)
From Verif Require Export Config CMap.

(** NewLocksManager (locks.go:15-21): the number of locks; [None]: make panics.  NewMemDb asks for 2*SegNum (memdb.go:18). *)
Definition new_locks (segnum : Z) : option Z := let n := wrap64 (2 * segnum) in if make_ok n 8 then Some n else None.
(** GetKeyPos (locks.go:23-27) with [n] locks: [None] is a division by zero. *)
Definition lock_index (n : Z) (key : bytes) : option Z := if n =? 0 then None else Some (Z.rem (Z.of_N (fnv1a (B "@" ++ key ++ B "&"))) n).
(** NewMemDb (memdb.go:14-20): the number of segments of each map and of locks. *)
Definition new_memdb (segnum : Z) : option (Z * Z) := option_map (fun n => (table_size segnum, n)) (new_locks segnum).
