(** C48: the segmented map (memdb/concurrentMap.go) behaves like one finite map. *)
From Verif Require Export CMapProofs Seq.

(** Every history of a new map, whatever the requested size: no operation panics, and the results are those of one finite map. *)
Theorem C48_histories {V} (size : Z) (os : list (cop V)) out : ccalls (new_cmap size) os out ->
  exists rs m f, out = Some (rs, m) /\ map_ops ∅ os rs f /\ holds m f.
Proof. exact (cmap_histories size os out). Qed.
(** One operation on any map in a good state. *)
Theorem C48_operation {V} (m : cmap V) f o : holds m f -> legal m o ->
  exists r m' f', ccall m o = Some (r, m') /\ map_op f o r f' /\ holds m' f'.
Proof. exact (ccall_ok m f o). Qed.
(** The keys of segment [i] are those the model of KEYS (Seq.v) visits when it scans segment [i]. *)
Theorem C48_segments {P : Setup} (m : cmap value) (d : db) i s : holds m (dict d) -> zlen (table m) = Zpos segnum ->
  table m !! i = Some s -> forall k, k ∈ seg_keys d (N.of_nat i) <-> is_Some (s !! k).
Proof. exact (segment_seg_keys m d i s). Qed.
Print Assumptions C48_histories.
Print Assumptions C48_operation.
Print Assumptions C48_segments.

Definition cm_demo : list (cop Z) :=
  [CSet (B "a") 1; CSet (B "b") 2; CSet (B "a") 3; CSet (B "c") 4; CDelete (B "b"); CDelete (B "b"); CGet (B "a"); CGet (B "b"); CCount;
   CKeys [[]; [B "a"]; [B "c"]]].
Example C48_example : exists m, ccalls (new_cmap 3) cm_demo
  (Some ([CNum 1; CNum 1; CNum 0; CNum 1; CNum 1; CNum 0; CVal (Some 3); CVal None; CNum 2; CList [B "a"; B "c"]], m)).
Proof.
  unfold cm_demo. eexists.
  Ltac one := match goal with |- ccalls ?m (?o :: ?os) (Some (?r :: ?rs, ?x)) =>
    refine (cc_cons m o os r _ (Some (rs, x)) _ _ _); [|vm_compute; reflexivity|] end.
  one; [exact I|]. one; [exact I|]. one; [exact I|]. one; [exact I|]. one; [exact I|]. one; [exact I|]. one; [exact I|]. one; [exact I|]. one; [exact I|].
  one; [|apply cc_nil]. vm_compute. repeat constructor.
Qed.
