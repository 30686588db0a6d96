(** Specification vocabulary for C79: the accesses to the segmented maps look as if each were one step. *)
From Verif Require Export Shard.

Section WithParams.
Context {P : Setup}.
(** The tables hold the contents of the database: every key is in the segment of its hash. *)
Definition tables_of (D : tables) (d : db) : Prop :=
  (forall key, dt D (segpos key) !! key = dict d !! key) /\ (forall key, et D (segpos key) !! key = exps d !! key) /\ ct D = cnt d /\
  (forall i key, is_Some (dt D i !! key) -> segpos key = i).
(** What a goroutine is about to do, as seen from outside: a call that has not had its effect is still to be made. *)
Definition as_seen {A} (t : sthread A) : thread A :=
  mkT (match sspot t with Some (Adding p) | Some (Counting p) | Some (Exiting p) => p | _ => scode t end)
      (match scode t with Acq _ _ _ => sann t | _ => false end).
(** The goroutine is in a call of Set that has found the key missing and not yet stored it. *)
Definition is_adding {A} (key : bytes) (v : value) (t : sthread A) : Prop := exists k p, scode t = DSet key v k /\ sspot t = Some (Adding p).
(** [c] is what is seen of [s]: the same locks of keys, goroutines, deadlines and counter; the same values, but those that are just being added are there already. *)
Record seen {A} (s : sconf A) (c : conf A) : Prop := mkSeen {
  n_locks : lk c = klk s;
  n_ths : ths c = map as_seen (sths s);
  n_exps : forall key, exps (cdb c) !! key = et (tabs s) (segpos key) !! key;
  n_cnt : cnt (cdb c) = ct (tabs s);
  n_dict : forall key, dict (cdb c) !! key = dt (tabs s) (segpos key) !! key \/
    exists i t v, sths s !! i = Some t /\ is_adding key v t /\ dict (cdb c) !! key = Some v /\ dt (tabs s) (segpos key) !! key = None }.
(** The goroutine is in a call of Set, Delete, Get or Keys that uses the Go map of segment [s]; it only reads it (Get, Keys). *)
Definition uses_map {A} (p : prog A) : option seg :=
  match p with
  | DGet key _ | DSet key _ _ | DDel key _ => Some (Dict, segpos key)
  | DSeg i _ => Some (Dict, i)
  | EGet key _ | ESet key _ _ | EDel key _ => Some (Expires, segpos key)
  | _ => None
  end.
Definition in_segment {A} (s : seg) (t : sthread A) : Prop := sspot t <> None /\ uses_map (scode t) = Some s.
Definition only_reads {A} (t : sthread A) : Prop := match scode t with DGet _ _ | EGet _ _ | DSeg _ _ => True | _ => False end.
(** Some goroutine advances. *)
Definition sadvance {A} (T : Z -> Prop) (s s' : sconf A) : Prop := mstep T s s' /\ sths s' <> sths s.
Definition sreturned {A} (t : sthread A) : Prop := exists a, scode t = Ret a.
(** It is about to release a segment lock in a mode in which nobody holds it. *)
Definition bad_exit {A} (s : sconf A) (t : sthread A) : Prop :=
  exists g m, sspot t <> None /\ needs (scode t) = Some (g, m) /\ match m with MR => rd (slk s g) = 0%nat | MW => wr (slk s g) = false end.
End WithParams.
