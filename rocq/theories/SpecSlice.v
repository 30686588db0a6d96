(** Specification: string values as plain byte strings. *)
From Verif Require Export Slice Spec.

(** What the operations do to values. *)
Definition vapply (o : sop) (c : gmap bytes bytes) : gmap bytes bytes :=
  match o with
  | DoStore k v | DoStoreReply k v => <[k := v]> c
  | DoGet _ | DoGetRange _ _ _ => c
  | DoSetRange k o v => <[k := overwrite (default [] (c !! k)) o v]> c
  | DoAppend k v => <[k := default [] (c !! k) ++ v]> c
  | DoDel k => delete k c
  | DoRename k k' => match c !! k with Some v => <[k' := v]> (delete k c) | None => c end
  end.
(** What they hand out. *)
Definition vreply (o : sop) (c : gmap bytes bytes) : option bytes :=
  match o with
  | DoStoreReply k v => Some v
  | DoGet k => c !! k
  | DoGetRange k i j => v ← c !! k; Some (take (j - i) (drop i v))
  | _ => None
  end.
Definition vrun (l : list sop) (c : gmap bytes bytes) : gmap bytes bytes := fold_left (fun c o => vapply o c) l c.
(** The contents shown by the slices. *)
Definition contents (x : slices) : gmap bytes bytes := shows (mem x) <$> keyed x.
(** The operation is a SETRANGE that starts inside the value. *)
Definition writes_inside (o : sop) (c : gmap bytes bytes) : Prop :=
  match o with DoSetRange k i _ => exists v, c !! k = Some v /\ (i < length v)%nat | _ => False end.
(** The key of a GETRANGE or RENAME is there, and the range is one of its value; all other operations make sense at any time. *)
Definition sensible (o : sop) (c : gmap bytes bytes) : Prop :=
  match o with
  | DoGetRange k i j => exists v, c !! k = Some v /\ (i <= j <= length v)%nat
  | DoRename k k' => c !! k <> None /\ k <> k'
  | _ => True
  end.
