(** Sequential execution: one command at a time on one database. *)
From Verif Require Export Table.

(** MemDb (memdb/memdb.go:8-12): dict, expires, and dict's key counter.
    The maps are unsegmented here; CMap.v relates them to the segmented maps. *)
Record db := mkDb { dict : gmap bytes value; exps : gmap bytes Z; cnt : Z }.
Definition empty_db : db := mkDb ∅ ∅ 0.

(** How an execution of an executor ends. *)
Inductive outcome (A : Type) :=
| Done (a : A) (d : db)
| Crashes (d : db)
| Hangs (d : db).
Arguments Done {A}. Arguments Crashes {A}. Arguments Hangs {A}.

Section WithParams.
Context {P : Setup}.

(** Keys of segment i. *)
Definition seg_keys (d : db) (i : N) : list bytes :=
  filter (fun k => segpos k = i) (map_to_list (dict d)).*1.

(** [runs T d p out]: starting in [d] with no other command running, [p] can end with [out];
    [T] is the set of values the clock may show.  Map iteration may use any order, differing each time. *)
Inductive runs {A} (T : Z -> Prop) : db -> prog A -> outcome A -> Prop :=
| R_Ret d a : runs T d (Ret a) (Done a d)
| R_Crash d : runs T d Crash (Crashes d)
| R_Hang d : runs T d Hang (Hangs d)
| R_Now d k t out : T t -> runs T d (k t) out -> runs T d (Now k) out
| R_Range d l k l' out : Permutation l' l -> runs T d (k l') out -> runs T d (Range l k) out
| R_DGet d key k out : runs T d (k (dict d !! key)) out -> runs T d (DGet key k) out
| R_DSet d key v k out :
    runs T (mkDb (<[key := v]> (dict d)) (exps d) (cnt d))
         (k (match dict d !! key with Some _ => false | None => true end)) out ->
    runs T d (DSet key v k) out
| R_DMut d key v k out :
    runs T (mkDb (alter (fun _ => v) key (dict d)) (exps d) (cnt d)) k out ->
    runs T d (DMut key v k) out
| R_DDel d key k out :
    runs T (mkDb (delete key (dict d)) (exps d) (cnt d))
         (k (match dict d !! key with Some _ => true | None => false end)) out ->
    runs T d (DDel key k) out
| R_DSeg d i k l' out : Permutation l' (seg_keys d i) -> runs T d (k l') out -> runs T d (DSeg i k) out
| R_CntLoad d k out : runs T d (k (cnt d)) out -> runs T d (CntLoad k) out
| R_CntStore d c k out : runs T (mkDb (dict d) (exps d) c) k out -> runs T d (CntStore c k) out
| R_EGet d key k out : runs T d (k (exps d !! key)) out -> runs T d (EGet key k) out
| R_ESet d key t k out :
    runs T (mkDb (dict d) (<[key := t]> (exps d)) (cnt d)) k out -> runs T d (ESet key t k) out
| R_EDel d key k out :
    runs T (mkDb (dict d) (delete key (exps d)) (cnt d))
         (k (match exps d !! key with Some _ => true | None => false end)) out ->
    runs T d (EDel key k) out
| R_Acq d pos m k out : runs T d k out -> runs T d (Acq pos m k) out   (* uncontended; see Conc.v *)
| R_Rel d pos m k out : runs T d k out -> runs T d (Rel pos m k) out.

(** The executable instance: the clock always shows [now], maps are iterated in the
    order of [map_to_list]. *)
Fixpoint run {A} (now : Z) (d : db) (p : prog A) : outcome A :=
  match p with
  | Ret a => Done a d
  | Crash => Crashes d
  | Hang => Hangs d
  | Now k => run now d (k now)
  | Range l k => run now d (k l)
  | DGet key k => run now d (k (dict d !! key))
  | DSet key v k =>
      run now (mkDb (<[key := v]> (dict d)) (exps d) (cnt d))
          (k (match dict d !! key with Some _ => false | None => true end))
  | DMut key v k =>
      run now (mkDb (alter (fun _ => v) key (dict d)) (exps d) (cnt d)) k
  | DDel key k =>
      run now (mkDb (delete key (dict d)) (exps d) (cnt d))
          (k (match dict d !! key with Some _ => true | None => false end))
  | DSeg n k => run now d (k (seg_keys d n))
  | CntLoad k => run now d (k (cnt d))
  | CntStore c k => run now (mkDb (dict d) (exps d) c) k
  | EGet key k => run now d (k (exps d !! key))
  | ESet key t k => run now (mkDb (dict d) (<[key := t]> (exps d)) (cnt d)) k
  | EDel key k =>
      run now (mkDb (dict d) (delete key (exps d)) (cnt d))
          (k (match exps d !! key with Some _ => true | None => false end))
  | Acq _ _ k => run now d k
  | Rel _ _ k => run now d k
  end.

(** One command at a clock reading (the second does not change while it runs). *)
Definition step (now : Z) (d : db) (cmd : command) (out : outcome rdata) : Prop :=
  runs (eq now) d (exec_in_db cmd) out.

(** States reachable from the empty database by commands that return, the clock being
    arbitrary at every reading. *)
Inductive reachable : db -> Prop :=
| reach_init : reachable empty_db
| reach_step d cmd r d' :
    reachable d -> runs (fun _ => True) d (exec_in_db cmd) (Done r d') -> reachable d'.

End WithParams.
