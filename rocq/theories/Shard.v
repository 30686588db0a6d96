(** Goroutines on a database whose two maps are ConcurrentMaps with their segment locks (memdb/concurrentMap.go).
    In Conc.v an access to a map is one step; here it is the sequence of steps of Set, Delete, Get or Keys: taking the lock of the segment,
    looking the key up, changing the counter, changing the Go map, releasing the lock. *)
From Verif Require Export Conc.

(** The two maps of a MemDb (memdb/memdb.go:8-12).  A segment has a Go map and a sync.RWMutex (concurrentMap.go:16-19). *)
Inductive mapid := Dict | Expires.
Global Instance mapid_eq_dec : EqDecision mapid.
Proof. solve_decision. Defined.
Definition seg : Type := mapid * N.
Definition fput {I X} `{EqDecision I} (f : I -> X) (i : I) (x : X) : I -> X := fun j => if decide (j = i) then x else f j.

(** The Go maps of the segments, and the counter of db.dict (that of db.expires is never read, and left out). *)
Record tables := mkTab { dt : N -> gmap bytes value; et : N -> gmap bytes Z; ct : Z }.

(** Where a goroutine is in a call of Set, Delete, Get or Keys. *)
Inductive spot (A : Type) :=
| Entered                    (* it holds the lock of the segment *)
| Replacing                  (* Set: the key is there *)
| Adding (p : prog A)        (* Set: the key is not there; [p]: the program from here on, beginning with m.count++ *)
| Dropping                   (* Delete: the key is there *)
| Counting (p : prog A)      (* Delete: the key has been deleted; [p] begins with m.count-- *)
| Exiting (p : prog A).      (* the lock is to be released; [p] follows *)
Arguments Entered {A}. Arguments Replacing {A}. Arguments Adding {A}. Arguments Dropping {A}. Arguments Counting {A}. Arguments Exiting {A}.
(** A goroutine: its program (up to the end of the call, if it is in one); whether it has announced itself to the lock it waits for; where it is. *)
Record sthread A := mkS { scode : prog A; sann : bool; sspot : option (spot A) }.
Arguments mkS {A}. Arguments scode {A}. Arguments sann {A}. Arguments sspot {A}.
(** The maps, the locks of the keys, the locks of the segments, the goroutines. *)
Record sconf A := mkSC { tabs : tables; klk : N -> rw; slk : seg -> rw; sths : list (sthread A) }.
Arguments mkSC {A}. Arguments tabs {A}. Arguments klk {A}. Arguments slk {A}. Arguments sths {A}.

Section WithParams.
Context {P : Setup}.

(** The lock a map access takes: RLock in Get, Lock in Set, Delete and Keys (concurrentMap.go:50-51, 65-66, 80-81, 104-109). *)
Definition needs {A} (p : prog A) : option (seg * mode) :=
  match p with
  | DGet key _ => Some ((Dict, segpos key), MR)
  | DSet key _ _ | DDel key _ => Some ((Dict, segpos key), MW)
  | DSeg i _ => Some ((Dict, i), MW)
  | EGet key _ => Some ((Expires, segpos key), MR)
  | ESet key _ _ | EDel key _ => Some ((Expires, segpos key), MW)
  | _ => None
  end.
Definition counting {A} (p : prog A) : bool := match p with CntLoad _ | CntStore _ _ => true | _ => false end.
Definition set_dt (D : tables) (key : bytes) (f : gmap bytes value -> gmap bytes value) : tables := mkTab (fput (dt D) (segpos key) (f (dt D (segpos key)))) (et D) (ct D).
Definition set_et (D : tables) (key : bytes) (f : gmap bytes Z -> gmap bytes Z) : tables := mkTab (dt D) (fput (et D) (segpos key) (f (et D (segpos key)))) (ct D).
Definition set_ct (D : tables) (c : Z) : tables := mkTab (dt D) (et D) c.

(** A step inside a call, the lock being held.  m.count++ is a read and a write (other goroutines may hold the locks of other segments). *)
Inductive inner {A} : tables -> prog A -> spot A -> tables -> spot A -> Prop :=
(* Get (concurrentMap.go:77-85) *)
| I_get D key k : inner D (DGet key k) Entered D (Exiting (k (dt D (segpos key) !! key)))
(* Set (concurrentMap.go:45-59) *)
| I_new D key v k : dt D (segpos key) !! key = None -> inner D (DSet key v k) Entered D (Adding (k true))
| I_load D key v k kc : inner D (DSet key v k) (Adding (CntLoad kc)) D (Adding (kc (ct D)))
| I_store D key v k c p : inner D (DSet key v k) (Adding (CntStore c p)) (set_ct D c) (Adding p)
| I_add D key v k p : counting p = false -> inner D (DSet key v k) (Adding p) (set_dt D key (insert key v)) (Exiting p)
| I_old D key v k x : dt D (segpos key) !! key = Some x -> inner D (DSet key v k) Entered D Replacing
| I_replace D key v k : inner D (DSet key v k) Replacing (set_dt D key (insert key v)) (Exiting (k false))
(* Delete (concurrentMap.go:61-75) *)
| I_none D key k : dt D (segpos key) !! key = None -> inner D (DDel key k) Entered D (Exiting (k false))
| I_some D key k x : dt D (segpos key) !! key = Some x -> inner D (DDel key k) Entered D Dropping
| I_drop D key k : inner D (DDel key k) Dropping (set_dt D key (delete key)) (Counting (k true))
| I_cload D key k kc : inner D (DDel key k) (Counting (CntLoad kc)) D (Counting (kc (ct D)))
| I_cstore D key k c p : inner D (DDel key k) (Counting (CntStore c p)) (set_ct D c) (Counting p)
| I_counted D key k p : counting p = false -> inner D (DDel key k) (Counting p) D (Exiting p)
(* one round of the loop of Keys (concurrentMap.go:103-110) *)
| I_seg D i k l : Permutation l (map_to_list (dt D i)).*1 -> inner D (DSeg i k) Entered D (Exiting (k l))
(* the same on db.expires *)
| I_eget D key k : inner D (EGet key k) Entered D (Exiting (k (et D (segpos key) !! key)))
| I_eset D key t k : inner D (ESet key t k) Entered (set_et D key (insert key t)) (Exiting k)
| I_enone D key k : et D (segpos key) !! key = None -> inner D (EDel key k) Entered D (Exiting (k false))
| I_esome D key k x : et D (segpos key) !! key = Some x -> inner D (EDel key k) Entered D Dropping
| I_edrop D key k : inner D (EDel key k) Dropping (set_et D key (delete key)) (Exiting (k true)).

(** A step without a segment lock: not on a map; the reading of the counter in Keys (concurrentMap.go:101); or on an object that is stored, through a pointer to it. *)
Inductive free_step {A} (T : Z -> Prop) : tables -> prog A -> tables -> prog A -> Prop :=
| F_hang D : free_step T D Hang D Hang
| F_now D k t : T t -> free_step T D (Now k) D (k t)
| F_range D l k l' : Permutation l' l -> free_step T D (Range l k) D (k l')
| F_load D k : free_step T D (CntLoad k) D (k (ct D))
| F_store D c k : free_step T D (CntStore c k) (set_ct D c) k
| F_mut D key v k : free_step T D (DMut key v k) (set_dt D key (alter (fun _ => v) key)) k
| F_ptr D key k x : dt D (segpos key) !! key = Some x -> free_step T D (DGet key k) D (k (Some x)).

(** One step of one goroutine. *)
Inductive mstep {A} (T : Z -> Prop) : sconf A -> sconf A -> Prop :=
| M_free D L S ts i p D' p' : ts !! i = Some (mkS p false None) -> free_step T D p D' p' ->
    mstep T (mkSC D L S ts) (mkSC D' L S (<[i := mkS p' false None]> ts))
(* the locks of the keys, as in Conc.v *)
| M_rlock D L S ts i pos k n : ts !! i = Some (mkS (Acq pos MR k) false None) -> L pos = mkRw n false false ->
    mstep T (mkSC D L S ts) (mkSC D (fupd L pos (mkRw (Datatypes.S n) false false)) S (<[i := mkS k false None]> ts))
| M_announce D L S ts i pos k n : ts !! i = Some (mkS (Acq pos MW k) false None) -> L pos = mkRw n false false ->
    mstep T (mkSC D L S ts) (mkSC D (fupd L pos (mkRw n false true)) S (<[i := mkS (Acq pos MW k) true None]> ts))
| M_wlock D L S ts i pos k : ts !! i = Some (mkS (Acq pos MW k) true None) -> L pos = mkRw 0 false true ->
    mstep T (mkSC D L S ts) (mkSC D (fupd L pos (mkRw 0 true false)) S (<[i := mkS k false None]> ts))
| M_runlock D L S ts i pos k n b : ts !! i = Some (mkS (Rel pos MR k) false None) -> L pos = mkRw (Datatypes.S n) false b ->
    mstep T (mkSC D L S ts) (mkSC D (fupd L pos (mkRw n false b)) S (<[i := mkS k false None]> ts))
| M_wunlock D L S ts i pos k n b : ts !! i = Some (mkS (Rel pos MW k) false None) -> L pos = mkRw n true b ->
    mstep T (mkSC D L S ts) (mkSC D (fupd L pos (mkRw n false b)) S (<[i := mkS k false None]> ts))
(* the locks of the segments *)
| M_srlock D L S ts i p s n : ts !! i = Some (mkS p false None) -> needs p = Some (s, MR) -> S s = mkRw n false false ->
    mstep T (mkSC D L S ts) (mkSC D L (fput S s (mkRw (Datatypes.S n) false false)) (<[i := mkS p false (Some Entered)]> ts))
| M_sannounce D L S ts i p s n : ts !! i = Some (mkS p false None) -> needs p = Some (s, MW) -> S s = mkRw n false false ->
    mstep T (mkSC D L S ts) (mkSC D L (fput S s (mkRw n false true)) (<[i := mkS p true None]> ts))
| M_swlock D L S ts i p s : ts !! i = Some (mkS p true None) -> needs p = Some (s, MW) -> S s = mkRw 0 false true ->
    mstep T (mkSC D L S ts) (mkSC D L (fput S s (mkRw 0 true false)) (<[i := mkS p false (Some Entered)]> ts))
| M_srunlock D L S ts i p s q n b : ts !! i = Some (mkS p false (Some (Exiting q))) -> needs p = Some (s, MR) -> S s = mkRw (Datatypes.S n) false b ->
    mstep T (mkSC D L S ts) (mkSC D L (fput S s (mkRw n false b)) (<[i := mkS q false None]> ts))
| M_swunlock D L S ts i p s q n b : ts !! i = Some (mkS p false (Some (Exiting q))) -> needs p = Some (s, MW) -> S s = mkRw n true b ->
    mstep T (mkSC D L S ts) (mkSC D L (fput S s (mkRw n false b)) (<[i := mkS q false None]> ts))
(* inside a call *)
| M_inner D L S ts i p o D' o' : ts !! i = Some (mkS p false (Some o)) -> inner D p o D' o' ->
    mstep T (mkSC D L S ts) (mkSC D' L S (<[i := mkS p false (Some o')]> ts)).

(** All the clients start; all locks are free. *)
Definition sstart {A} (D : tables) (ps : list (prog A)) : sconf A := mkSC D (fun _ => free) (fun _ => free) (map (fun p => mkS p false None) ps).
End WithParams.
