(** What it means for a segmented map to behave like one finite map. *)
From Verif Require Export CMap.

Section SpecCMap.
Context {V : Type}.

(** Operations and their results. *)
Inductive cop := CSet (k : bytes) (v : V) | CGet (k : bytes) | CDelete (k : bytes) | CCount | CClear
  | CKeys (os : list (list bytes)).
Inductive cres := CNum (n : Z) | CVal (v : option V) | CUnit | CList (l : list bytes).

(** The method of the segmented map; [None] is a panic. *)
Definition ccall (m : cmap V) (o : cop) : option (cres * cmap V) :=
  match o with
  | CSet k v => match cm_set m k v with Some (n, m') => Some (CNum n, m') | None => None end
  | CGet k => match cm_get m k with Some v => Some (CVal v, m) | None => None end
  | CDelete k => match cm_delete m k with Some (n, m') => Some (CNum n, m') | None => None end
  | CCount => Some (CNum (cm_count m), m)
  | CClear => Some (CUnit, cm_clear m)
  | CKeys os => match cm_keys m os with Some l => Some (CList l, m) | None => None end
  end.
(** An iteration over the table visits each key of each segment once, in any order. *)
Definition legal (m : cmap V) (o : cop) : Prop :=
  match o with
  | CKeys os => Forall2 (fun (l : list bytes) (s : gmap bytes V) => Permutation l (map_to_list s).*1) os (table m)
  | _ => True
  end.

(** The same on one finite map. *)
Definition map_op (f : gmap bytes V) (o : cop) (r : cres) (f' : gmap bytes V) : Prop :=
  match o with
  | CSet k v => r = CNum (match f !! k with None => 1 | Some _ => 0 end) /\ f' = <[k := v]> f
  | CGet k => r = CVal (f !! k) /\ f' = f
  | CDelete k => r = CNum (match f !! k with None => 0 | Some _ => 1 end) /\ f' = delete k f
  | CCount => r = CNum (Z.of_nat (size f)) /\ f' = f
  | CClear => r = CUnit /\ f' = ∅
  | CKeys _ => f' = f /\ exists l, r = CList l /\ NoDup l /\ forall k, k ∈ l <-> is_Some (f !! k)
  end.

(** All the operations, one after the other. *)
Inductive ccalls : cmap V -> list cop -> option (list cres * cmap V) -> Prop :=
| cc_nil m : ccalls m [] (Some ([], m))
| cc_panic m o os : legal m o -> ccall m o = None -> ccalls m (o :: os) None
| cc_cons m o os r m1 out : legal m o -> ccall m o = Some (r, m1) -> ccalls m1 os out ->
    ccalls m (o :: os) (match out with Some (rs, m2) => Some (r :: rs, m2) | None => None end).
Inductive map_ops : gmap bytes V -> list cop -> list cres -> gmap bytes V -> Prop :=
| mo_nil f : map_ops f [] [] f
| mo_cons f o os r rs f1 f2 : map_op f o r f1 -> map_ops f1 os rs f2 -> map_ops f (o :: os) (r :: rs) f2.

(** [m] holds the map [f]: each key is looked up in its own segment only. *)
Definition holds (m : cmap V) (f : gmap bytes V) : Prop :=
  0 < zlen (table m) < 2 ^ 32 /\ count m = Z.of_nat (size f) /\
  forall i s, table m !! i = Some s ->
    forall k, s !! k = if decide (Z.to_nat (key_pos m k) = i) then f !! k else None.
End SpecCMap.
Arguments cop : clear implicits.
Arguments cres : clear implicits.
