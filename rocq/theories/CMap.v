(** Model of memdb/concurrentMap.go: a map split into segments by the hash of the key.
    One goroutine at a time (the segment mutexes are not modelled here; see Shard.v). *)
From Verif Require Export Prog.

(** MaxSegSize (concurrentMap.go:8). *)
Definition max_seg_size : Z := 2 ^ 32 - 1.

Section CMap.
Context {V : Type}.

(** ConcurrentMap (concurrentMap.go:10-19): one finite map per segment, and the key counter; size is the number of segments. *)
Record cmap := mkCMap { table : list (gmap bytes V); count : Z }.

(** NewConcurrentMap (concurrentMap.go:21-37). *)
Definition table_size (size : Z) : Z := if (size <=? 0) || (max_seg_size <=? size) then max_seg_size else size.
Definition new_cmap (size : Z) : cmap := mkCMap (replicate (Z.to_nat (table_size size)) ∅) 0.

(** getKeyPos (concurrentMap.go:39-42). *)
Definition key_pos (m : cmap) (key : bytes) : Z := Z.of_N (fnv1a key) mod zlen (table m).

(** Indexing the table; [None] is an index out of range. *)
Definition seg_of (m : cmap) (key : bytes) : option (nat * gmap bytes V) :=
  let p := Z.to_nat (key_pos m key) in match table m !! p with Some s => Some (p, s) | None => None end.

(** Set (concurrentMap.go:45-59): [None] is a panic. *)
Definition cm_set (m : cmap) (key : bytes) (v : V) : option (Z * cmap) :=
  match seg_of m key with
  | None => None
  | Some (p, s) =>
      let '(added, c) := match s !! key with None => (1, count m + 1) | Some _ => (0, count m) end in
      Some (added, mkCMap (<[p := <[key := v]> s]> (table m)) c)
  end.

(** Delete (concurrentMap.go:61-75). *)
Definition cm_delete (m : cmap) (key : bytes) : option (Z * cmap) :=
  match seg_of m key with
  | None => None
  | Some (p, s) =>
      match s !! key with
      | Some _ => Some (1, mkCMap (<[p := delete key s]> (table m)) (count m - 1))
      | None => Some (0, m)
      end
  end.

(** Get (concurrentMap.go:77-85). *)
Definition cm_get (m : cmap) (key : bytes) : option (option V) :=
  match seg_of m key with None => None | Some (_, s) => Some (s !! key) end.

(** Size, Count, Clear (concurrentMap.go:87-97). *)
Definition cm_size (m : cmap) : Z := zlen (table m).
Definition cm_count (m : cmap) : Z := count m.
Definition cm_clear (m : cmap) : cmap := new_cmap (zlen (table m)).

(** Keys (concurrentMap.go:100-112): an array of [count] empty strings is filled in; [os] holds, for each segment, its keys
    in the order of the iteration.  [None] is an index out of range (or a negative array size). *)
Fixpoint fill (keys : list bytes) (k : nat) (l : list bytes) : option (list bytes) :=
  match l with
  | [] => Some keys
  | key :: r => if (k <? length keys)%nat then fill (<[k := key]> keys) (S k) r else None
  end.
Definition cm_keys (m : cmap) (os : list (list bytes)) : option (list bytes) :=
  if count m <? 0 then None else fill (replicate (Z.to_nat (count m)) []) 0 (concat os).
End CMap.
Arguments cmap : clear implicits.
