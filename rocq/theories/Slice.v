(** Model of the byte slices that hold string values: backing arrays, and slices that may share them.
    The command model (CmdStrings.v) takes slices for values; this file is about whether that is right. *)
From Verif Require Export Bytes.

(** A slice: array, offset, length.  Its capacity reaches to the end of the array. *)
Record bslice := mkSlice { arr : nat; off : nat; len : nat }.
(** The arrays, at full capacity; the slice stored under each key (db.dict). *)
Record slices := mkSl { mem : gmap nat (list ascii); keyed : gmap bytes bslice }.
(** The bytes a slice shows. *)
Definition shows (m : gmap nat (list ascii)) (s : bslice) : bytes :=
  match m !! arr s with Some a => take (len s) (drop (off s) a) | None => [] end.
(** Writing [v] at position [i] of an array. *)
Definition write_at (a : list ascii) (i : nat) (v : bytes) : bytes := take i a ++ v ++ drop (i + length v) a.

(** append(s, v...): in place if the capacity suffices, else into a new array, of any larger capacity. *)
Inductive appends_to (m : gmap nat (list ascii)) (s : bslice) (v : bytes) : gmap nat (list ascii) -> bslice -> Prop :=
| A_in_place (a : list ascii) : m !! arr s = Some a -> (off s + len s + length v <= length a)%nat ->
    appends_to m s v (<[arr s := write_at a (off s + len s) v]> m) (mkSlice (arr s) (off s) (len s + length v))
| A_new (a : list ascii) b (spare : list ascii) : m !! arr s = Some a -> (length a < off s + len s + length v)%nat -> m !! b = None ->
    appends_to m s v (<[b := shows m s ++ v ++ spare]> m) (mkSlice b 0 (len s + length v)).

(** What the executors do with string values.  [spare]: the capacity beyond the length; for an argument of a command it is the CR LF
    that was read with it (resp/parser.go:126-134,191-197).  Values of lists and hashes are never written in place
    (list_struct.go:204 and hash_struct.go replace them), and set members are strings. *)
Inductive sop :=
| DoStore (k v : bytes)          (* SET, MSET, SETEX, SETNX: db.dict.Set(key, cmd[i]); INCR and the like: a new slice *)
| DoStoreReply (k v : bytes)     (* INCRBYFLOAT: a new slice, stored and returned (memdb/strings.go:580-596) *)
| DoGet (k : bytes)              (* GET, MGET, SET with GET: the stored slice is returned (memdb/strings.go:160-184,291-318) *)
| DoGetRange (k : bytes) (i j : nat)  (* GETRANGE: v[i:j] (memdb/strings.go:186-240) *)
| DoSetRange (k : bytes) (o : nat) (v : bytes)  (* SETRANGE (memdb/strings.go:242-289) *)
| DoAppend (k v : bytes)         (* APPEND (memdb/strings.go:598-625) *)
| DoDel (k : bytes)              (* DEL, expiry *)
| DoRename (k k' : bytes).       (* RENAME *)

(** The second component is the slice handed out as a reply. *)
Inductive sstep : slices -> sop -> option bslice -> slices -> Prop :=
| S_store m ks k v b (spare : list ascii) : m !! b = None ->
    sstep (mkSl m ks) (DoStore k v) None (mkSl (<[b := v ++ spare]> m) (<[k := mkSlice b 0 (length v)]> ks))
| S_store_reply m ks k v b (spare : list ascii) : m !! b = None ->
    sstep (mkSl m ks) (DoStoreReply k v) (Some (mkSlice b 0 (length v))) (mkSl (<[b := v ++ spare]> m) (<[k := mkSlice b 0 (length v)]> ks))
| S_get m ks k : sstep (mkSl m ks) (DoGet k) (ks !! k) (mkSl m ks)
| S_getrange m ks k i j s : ks !! k = Some s -> (i <= j <= len s)%nat ->
    sstep (mkSl m ks) (DoGetRange k i j) (Some (mkSlice (arr s) (off s + i) (j - i))) (mkSl m ks)
(** newVal = oldVal[:offset]; newVal = append(newVal, value...) *)
| S_setrange_in m ks k s o v m' s' : ks !! k = Some s -> (o <= len s)%nat -> appends_to m (mkSlice (arr s) (off s) o) v m' s' ->
    sstep (mkSl m ks) (DoSetRange k o v) None (mkSl m' (<[k := s']> ks))
(** newVal = append(oldVal, zeroes...); newVal = append(newVal, value...) *)
| S_setrange_out m ks k s o v m1 s1 m' s' : ks !! k = Some s -> (len s < o)%nat ->
    appends_to m s (replicate (o - len s) (ascii_of_N 0)) m1 s1 -> appends_to m1 s1 v m' s' ->
    sstep (mkSl m ks) (DoSetRange k o v) None (mkSl m' (<[k := s']> ks))
(** oldVal = make([]byte, 0) *)
| S_setrange_new m ks k o v b m1 s1 m' s' : ks !! k = None -> m !! b = None ->
    appends_to (<[b := []]> m) (mkSlice b 0 0) (replicate o (ascii_of_N 0)) m1 s1 -> appends_to m1 s1 v m' s' ->
    sstep (mkSl m ks) (DoSetRange k o v) None (mkSl m' (<[k := s']> ks))
| S_append m ks k s v m' s' : ks !! k = Some s -> appends_to m s v m' s' ->
    sstep (mkSl m ks) (DoAppend k v) None (mkSl m' (<[k := s']> ks))
| S_append_new m ks k v b (spare : list ascii) : ks !! k = None -> m !! b = None ->
    sstep (mkSl m ks) (DoAppend k v) None (mkSl (<[b := v ++ spare]> m) (<[k := mkSlice b 0 (length v)]> ks))
| S_del m ks k : sstep (mkSl m ks) (DoDel k) None (mkSl m (delete k ks))
| S_rename m ks k k' s : ks !! k = Some s -> k <> k' -> sstep (mkSl m ks) (DoRename k k') None (mkSl m (<[k' := s]> (delete k ks))).

(** A history: the operations, each with the slice it handed out. *)
Inductive slice_run : slices -> list (sop * option bslice) -> slices -> Prop :=
| SR_nil x : slice_run x [] x
| SR_cons x o r y l z : sstep x o r y -> slice_run y l z -> slice_run x ((o, r) :: l) z.
Definition no_slices : slices := mkSl ∅ ∅.
