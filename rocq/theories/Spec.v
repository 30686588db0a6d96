(** What a client can observe of a database, and how a command's effect is specified. *)
From Verif Require Export Seq.

(** A visible entry: the value and, if the key has one, its deadline in Unix seconds. *)
Definition entry : Type := option (value * option Z).

(** An entry seen at time [t]: gone once the clock has passed the deadline. *)
Definition live (t : Z) (e : entry) : entry :=
  match e with
  | Some (v, Some dl) => if dl <? t then None else e
  | _ => e
  end.

(** What the database shows for a key at time [t]. *)
Definition view (t : Z) (d : db) (k : bytes) : entry :=
  live t (match dict d !! k with Some v => Some (v, exps d !! k) | None => None end).

(** A keyspace: an entry for every possible key. *)
Definition keyspace : Type := bytes -> entry.

(** Invariant of quiescent databases: deadlines only for existing keys, and the
    counter of dict is right.  Proved of every reachable state (theorem C13). *)
Definition Inv (d : db) : Prop :=
  (forall k, is_Some (exps d !! k) -> is_Some (dict d !! k)) /\ cnt d = Z.of_nat (size (dict d)).

(** A command is the array the client sends; its name in any letter case. *)
Definition named (n : val) (s : string) : Prop := to_lower (str n) = B s.

Section WithParams.
Context {P : Setup}.

(** [implements_on pre cmd spec]: run at any time [now] on any well-formed database satisfying
    [pre], [cmd] always returns (no crash, no endless loop), whatever order maps are iterated in,
    and the reply [r] and the keyspace [S'] it leaves satisfy [spec now S r S'], [S] being the
    keyspace visible before; [S'] describes what is visible at every later time. *)
Definition implements_on (pre : Z -> db -> Prop) (cmd : command)
    (spec : Z -> keyspace -> rdata -> keyspace -> Prop) : Prop :=
  forall now d out, Inv d -> pre now d -> step now d cmd out ->
    exists r d' S', out = Done r d' /\ Inv d' /\ spec now (view now d) r S' /\
      forall t k, now <= t -> view t d' k = live t (S' k).
(** The same with a precondition on the visible keyspace. *)
Definition implements_when (pre : Z -> keyspace -> Prop) : command ->
    (Z -> keyspace -> rdata -> keyspace -> Prop) -> Prop :=
  implements_on (fun now d => pre now (view now d)).
Definition implements : command -> (Z -> keyspace -> rdata -> keyspace -> Prop) -> Prop :=
  implements_when (fun _ _ => True).

End WithParams.

(** The keyspace is unchanged. *)
Definition same (S S' : keyspace) : Prop := forall k, S' k = S k.
(** Only the entry of [k] changes, to [e]. *)
Definition upd (S S' : keyspace) (k : bytes) (e : entry) : Prop :=
  S' k = e /\ forall k', k' <> k -> S' k' = S k'.

(** A specification that reads and changes only the entry of key [k]. *)
Definition single (k : bytes) (F : Z -> entry -> rdata -> entry -> Prop)
  (now : Z) (S : keyspace) (r : rdata) (S' : keyspace) : Prop :=
  exists e, F now (S k) r e /\ upd S S' k e.
(** The same, as a function from the old entry to the reply and the new entry. *)
Definition single_fun (k : bytes) (f : Z -> entry -> rdata * entry) :=
  single k (fun now e r e' => (r, e') = f now e).

(** No deadline of [k] has passed (a key that has expired but has not been collected yet is
    invisible, but a few commands treat it differently from a key that never existed). *)
Definition unexpired (now : Z) (d : db) (k : bytes) : Prop :=
  forall t, exps d !! k = Some t -> now <= t.

(** ** Index arithmetic shared by strings and lists *)

(** The elements whose position satisfies [p]. *)
Fixpoint pick_from {A} (i : Z) (p : Z -> bool) (l : list A) : list A :=
  match l with
  | [] => []
  | x :: r => if p i then x :: pick_from (i + 1) p r else pick_from (i + 1) p r
  end.
Definition pick {A} (p : Z -> bool) (l : list A) : list A := pick_from 0 p l.
(** A negative index counts from the end. *)
Definition from_end (len i : Z) : Z := if i <? 0 then len + i else i.
(** The elements between two inclusive indices. *)
Definition slice {A} (l : list A) (a b : Z) : list A :=
  pick (fun i => (from_end (zlen l) a <=? i) && (i <=? from_end (zlen l) b)) l.

(** ** Kinds of values *)
Inductive kind := KStr | KHash | KList | KSet.
Definition kind_of (v : value) : kind :=
  match v with VStr _ => KStr | VHash _ => KHash | VList _ => KList | VSet _ => KSet end.

(** ** Strings *)

(** A string command: what it does on a missing key, on a string, and its reply on another type. *)
Definition on_str (missing : rdata * entry) (f : val -> option Z -> rdata * entry) (wrong : rdata)
  (e : entry) : rdata * entry :=
  match e with
  | None => missing
  | Some (VStr s, dl) => f s dl
  | Some _ => (wrong, e)
  end.

Definition get_spec (_ : Z) (e : entry) : rdata * entry :=
  on_str (RBulk None, None) (fun s dl => (RBulk s, e)) err_not_string e.
Definition strlen_spec (_ : Z) (e : entry) : rdata * entry :=
  on_str (RInt 0, None) (fun s dl => (RInt (zlen (str s)), e))
    (RErr (B "ERR the value stored at key is not a string")) e.

(** GETRANGE: a stored null string may answer null or empty. *)
Definition getrange_spec (a b : Z) (_ : Z) (e : entry) (r : rdata) (e' : entry) : Prop :=
  e' = e /\
  match e with
  | None => r = RBulk (Some [])
  | Some (VStr (Some s), _) => r = RBulk (Some (slice s a b))
  | Some (VStr None, _) => r = RBulk (Some []) \/ r = RBulk None
  | Some _ => r = err_not_string
  end.

(** The contents after writing [v] at offset [o] as this server does it. *)
Definition overwrite (old : bytes) (o : nat) (v : bytes) : bytes :=
  take o (old ++ replicate (o - length old) (ascii_of_N 0)) ++ v.
(** The contents after writing [v] at offset [o] as Redis documents it: bytes past the end of [v] stay. *)
Definition overwrite_keep (old : bytes) (o : nat) (v : bytes) : bytes :=
  overwrite old o v ++ drop (o + length v) old.

(** SETRANGE, given how contents are overwritten. *)
Definition setrange_spec (ow : bytes -> nat -> bytes -> bytes) (o : Z) (v : bytes)
  (_ : Z) (e : entry) (r : rdata) (e' : entry) : Prop :=
  let store (old : bytes) (dl : option Z) :=
    exists nv, e' = Some (VStr nv, dl) /\ str nv = ow old (Z.to_nat o) v /\
               r = RInt (zlen (str nv)) in
  match e with
  | None => store [] None
  | Some (VStr s, dl) => store (str s) dl
  | Some _ => r = err_not_string /\ e' = e
  end.

(** APPEND. *)
Definition append_spec (a : val) (_ : Z) (e : entry) (r : rdata) (e' : entry) : Prop :=
  match e with
  | None => e' = Some (VStr a, None) /\ r = RInt (zlen (str a))
  | Some (VStr s, dl) =>
      exists nv, e' = Some (VStr nv, dl) /\ str nv = str s ++ str a /\ r = RInt (zlen (str nv))
  | Some _ => r = err_not_string /\ e' = e
  end.

(** INCR, DECR, INCRBY, DECRBY: add [n].  A missing key answers 0 and stays missing. *)
Definition counter_spec (n : Z) (bad : rdata) (_ : Z) (e : entry) : rdata * entry :=
  on_str (RInt 0, None)
    (fun s dl => match atoi (str s) with
                 | Some x => (RInt (wrap64 (x + n)), Some (VStr (Some (fmt_int (wrap64 (x + n)))), dl))
                 | None => (bad, e)
                 end) err_not_string e.

Section Float.
Context {P : Setup}.
Definition incrbyfloat_spec (i : float) (_ : Z) (e : entry) : rdata * entry :=
  on_str (RBulk (Some (fmt_float i)), Some (VStr (Some (fmt_float i)), None))
    (fun s dl => match parse_float (str s) with
                 | Some x => (RBulk (Some (fmt_float (add_float x i))),
                              Some (VStr (Some (fmt_float (add_float x i))), dl))
                 | None => (err_float, e)
                 end) err_not_string e.
End Float.

Definition setex_spec (n : Z) (v : val) (now : Z) (_ : entry) : rdata * entry :=
  (ok, Some (VStr v, Some (wrap64 (now + n)))).
Definition setnx_spec (v : val) (_ : Z) (e : entry) : rdata * entry :=
  match e with
  | None => (RInt 1, Some (VStr v, None))
  | Some _ => (RInt 0, e)
  end.

(** SET options. *)
Inductive setopt := ONx | OXx | OGet | OEx (n : Z) | OPx (n : Z) | OKeep.
Global Instance setopt_eq_dec : EqDecision setopt.
Proof. solve_decision. Defined.
(** How a client spells a list of options: keywords in any letter case, integers in decimal. *)
Inductive spells : list val -> list setopt -> Prop :=
| Sp_nil : spells [] []
| Sp_nx a l os : named a "nx" -> spells l os -> spells (a :: l) (ONx :: os)
| Sp_xx a l os : named a "xx" -> spells l os -> spells (a :: l) (OXx :: os)
| Sp_get a l os : named a "get" -> spells l os -> spells (a :: l) (OGet :: os)
| Sp_keep a l os : named a "keepttl" -> spells l os -> spells (a :: l) (OKeep :: os)
| Sp_ex a m n l os : named a "ex" -> atoi (str m) = Some n -> spells l os -> spells (a :: m :: l) (OEx n :: os)
| Sp_px a m n l os : named a "px" -> atoi (str m) = Some n -> spells l os -> spells (a :: m :: l) (OPx n :: os).

Definition is_expiry_opt (o : setopt) : bool :=
  match o with OEx _ | OPx _ | OKeep => true | _ => false end.
(** At most one of EX, PX and KEEPTTL; not both NX and XX. *)
Definition setopts_ok (os : list setopt) : Prop :=
  (length (List.filter is_expiry_opt os) <= 1)%nat /\ ~ (ONx ∈ os /\ OXx ∈ os).
(** The deadline SET gives to the key. *)
Definition set_deadline (os : list setopt) (now : Z) (old : option Z) (new : option Z) : Prop :=
  (forall n, OEx n ∈ os -> new = Some (wrap64 (now + n))) /\
  (forall n, OPx n ∈ os -> new = Some (wrap64 (now + Z.quot n 1000))) /\
  (OKeep ∈ os -> new = old) /\
  (List.filter is_expiry_opt os = [] -> new = None).

(** SET: [e] is the old entry, [v] the value. *)
Definition set_spec (os : list setopt) (v : val) (now : Z) (e : entry) (r : rdata) (e' : entry) : Prop :=
  match e with
  | None =>
      (* missing key: stored unless XX is given *)
      if decide (OXx ∈ os) then e' = None /\ r = RBulk None
      else exists dl', e' = Some (VStr v, dl') /\ set_deadline os now None dl' /\
           r = (if decide (OGet ∈ os) then RBulk None else ok)
  | Some (VStr old, dl) =>
      (* stored unless NX is given; the deadline is changed in any case *)
      exists dl', e' = Some (VStr (if decide (ONx ∈ os) then old else v), dl') /\
        set_deadline os now dl dl' /\
        r = (if decide (OGet ∈ os) then RBulk old
             else if decide (ONx ∈ os) then RBulk None else ok)
  | Some _ => e' = e /\ r = RErr (B "The value stored at key is not a string")
  end.

(** MSET: the last value given for a key wins, deadlines are cleared, other keys are unchanged. *)
Definition flat {A} (l : list (A * A)) : list A := concat (map (fun p => [p.1; p.2]) l).
Definition mset_spec (ps : list (val * val)) (_ : Z) (S : keyspace) (r : rdata) (S' : keyspace) : Prop :=
  r = ok /\
  (forall l1 k v l2, ps = l1 ++ (k, v) :: l2 -> str k ∉ map (fun p => str p.1) l2 ->
     S' (str k) = Some (VStr v, None)) /\
  (forall k, k ∉ map (fun p => str p.1) ps -> S' k = S k).

(** MGET. *)
Definition mget_one (S : keyspace) (k : val) : rdata :=
  match S (str k) with Some (VStr s, _) => RBulk s | _ => RBulk None end.
Definition mget_spec (ks : list val) (_ : Z) (S : keyspace) (r : rdata) (S' : keyspace) : Prop :=
  r = RArr (Some (map (mget_one S) ks)) /\ same S S'.

(** ** Keys *)
Definition ttl_spec (now : Z) (e : entry) : rdata * entry :=
  match e with
  | None => (RInt (-2), e)
  | Some (_, None) => (RInt (-1), e)
  | Some (_, Some t) => (RInt (wrap64 (t - now)), e)
  end.
Definition type_spec (_ : Z) (e : entry) : rdata * entry :=
  (RStr (B match e with
           | None => "none"
           | Some (v, _) => match kind_of v with
                            | KStr => "string" | KHash => "hash" | KList => "list" | KSet => "set"
                            end
           end), e).

(** EXPIRE options. *)
Inductive expopt := ENone | ENx | EXx | EGt | ELt.
Definition expopt_word (o : expopt) : string :=
  match o with ENone => "" | ENx => "nx" | EXx => "xx" | EGt => "gt" | ELt => "lt" end.
(** Is the new deadline [t] allowed by the option, given the present deadline? *)
Definition expire_allowed (o : expopt) (dl : option Z) (t : Z) : bool :=
  match o, dl with
  | ENone, _ => true
  | ENx, None => true
  | EXx, Some _ => true
  | EGt, Some t0 => t0 <? t
  | ELt, Some t0 => t <? t0
  | _, _ => false
  end.
Definition expire_spec (o : expopt) (n : Z) (now : Z) (e : entry) : rdata * entry :=
  match e with
  | Some (v, dl) =>
      if expire_allowed o dl (wrap64 (now + n))
      then (RInt 1, Some (v, Some (wrap64 (now + n)))) else (RInt 0, e)
  | None => (RInt 0, None)
  end.
(** PERSIST: what a missing key answers depends on whether it was collected before. *)
Definition persist_spec (_ : Z) (e : entry) (r : rdata) (e' : entry) : Prop :=
  match e with
  | Some (v, dl) => r = RInt 1 /\ e' = Some (v, None)
  | None => e' = None /\ (r = RInt 0 \/ r = RInt 1)
  end.

(** RENAME. *)
Definition rename_spec (a b : bytes) (_ : Z) (S : keyspace) (r : rdata) (S' : keyspace) : Prop :=
  match S a with
  | None => r = err_no_key /\ same S S'
  | Some e => r = ok /\ S' b = Some e /\ (a <> b -> S' a = None) /\
              forall k, k <> a -> k <> b -> S' k = S k
  end.

(** DEL counts distinct live keys, EXISTS counts arguments. *)
Definition del_spec (ks : list bytes) (_ : Z) (S : keyspace) (r : rdata) (S' : keyspace) : Prop :=
  r = RInt (Z.of_nat (size (filter (fun k => S k <> None) (list_to_set ks : gset bytes)))) /\
  (forall k, k ∈ ks -> S' k = None) /\ (forall k, k ∉ ks -> S' k = S k).
Definition exists_spec (ks : list bytes) (_ : Z) (S : keyspace) (r : rdata) (S' : keyspace) : Prop :=
  r = RInt (Z.of_nat (length (filter (fun k => S k <> None) ks))) /\ same S S'.

(** KEYS, for a matching predicate on keys. *)
Definition keys_spec (matches : bytes -> Prop) (_ : Z) (S : keyspace) (r : rdata) (S' : keyspace) : Prop :=
  same S S' /\
  exists l, r = RArr (Some (map (fun k => RBulk (Some k)) l)) /\ NoDup l /\
    forall k, k ∈ l <-> S k <> None /\ matches k.

(** ** Hashes *)

(** A read-only hash command: [missing] is its reply for a missing key, [f h r] relates a hash to
    its possible replies. *)
Definition hash_reads (missing : rdata) (f : gmap bytes val -> rdata -> Prop)
  (_ : Z) (e : entry) (r : rdata) (e' : entry) : Prop :=
  e' = e /\
  match e with
  | None => r = missing
  | Some (VHash h, _) => f h r
  | Some _ => r = err_wrong_kind
  end.
(** The value of a field: null if absent. *)
Definition field (h : gmap bytes val) (f : bytes) : val :=
  match h !! f with Some v => v | None => None end.

(** The last value given for a field in a list of field/value arguments. *)
Fixpoint last_val (ps : list (val * val)) (f : bytes) : option val :=
  match ps with
  | [] => None
  | (k, v) :: r => match last_val r f with
                   | Some x => Some x
                   | None => if decide (str k = f) then Some v else None
                   end
  end.
(** HSET / HMSET: [reply] turns the number of new fields into the reply. *)
Definition hset_spec (ps : list (val * val)) (reply : Z -> rdata)
  (_ : Z) (e : entry) (r : rdata) (e' : entry) : Prop :=
  let set_in (h : gmap bytes val) (dl : option Z) :=
    exists h', e' = Some (VHash h', dl) /\
      (forall f, h' !! f = match last_val ps f with Some v => Some v | None => h !! f end) /\
      r = reply (Z.of_nat (size h') - Z.of_nat (size h)) in
  match e with
  | None => set_in ∅ None
  | Some (VHash h, dl) => set_in h dl
  | Some _ => r = err_wrong_kind /\ e' = e
  end.
Definition hdel_spec (fs : list bytes) (_ : Z) (e : entry) (r : rdata) (e' : entry) : Prop :=
  match e with
  | None => r = RInt 0 /\ e' = None
  | Some (VHash h, dl) =>
      exists h', (forall f, h' !! f = if decide (f ∈ fs) then None else h !! f) /\
        r = RInt (Z.of_nat (size h) - Z.of_nat (size h')) /\
        e' = (if decide (h' = ∅) then None else Some (VHash h', dl))
  | Some _ => r = err_wrong_kind /\ e' = e
  end.
(** HINCRBY: a missing field counts as 0. *)
Definition hincrby_spec (f : bytes) (i : Z) (_ : Z) (e : entry) : rdata * entry :=
  let add (h : gmap bytes val) (dl : option Z) :=
    match (match field h f with None => Some 0 | Some s => atoi s end) with
    | Some n => (RInt (wrap64 (n + i)), Some (VHash (<[f := Some (fmt_int (wrap64 (n + i)))]> h), dl))
    | None => (RErr (B "hash value is not an integer"), e)
    end in
  match e with
  | None => add ∅ None
  | Some (VHash h, dl) => add h dl
  | Some _ => (err_wrong_kind, e)
  end.
Section Float2.
Context {P : Setup}.
Definition hincrbyfloat_spec (f : bytes) (i : float) (_ : Z) (e : entry) : rdata * entry :=
  let add (h : gmap bytes val) (dl : option Z) :=
    match (match field h f with
           | None => Some i
           | Some s => match parse_float s with Some x => Some (add_float x i) | None => None end
           end) with
    | Some x => (RBulk (Some (fmt_float x)), Some (VHash (<[f := Some (fmt_float x)]> h), dl))
    | None => (RErr (B "hash value is not an float"), e)
    end in
  match e with
  | None => add ∅ None
  | Some (VHash h, dl) => add h dl
  | Some _ => (err_wrong_kind, e)
  end.
End Float2.
(** HINCRBY and HINCRBYFLOAT with an increment that is not a number: the key is created empty. *)
Definition hincr_bad_spec (msg : rdata) (_ : Z) (e : entry) : rdata * entry :=
  match e with
  | None => (msg, Some (VHash ∅, None))
  | Some (VHash _, _) => (msg, e)
  | Some _ => (err_wrong_kind, e)
  end.
(** HSETNX as implemented: it refuses whenever the key exists. *)
Definition hsetnx_spec (f : bytes) (v : val) (_ : Z) (e : entry) : rdata * entry :=
  match e with
  | None => (RInt 1, Some (VHash {[f := v]}, None))
  | Some _ => (RInt 0, e)
  end.
(** HSETNX as documented by Redis. *)
Definition hsetnx_redis (f : bytes) (v : val) (_ : Z) (e : entry) : rdata * entry :=
  match e with
  | None => (RInt 1, Some (VHash {[f := v]}, None))
  | Some (VHash h, dl) =>
      match h !! f with
      | Some _ => (RInt 0, e)
      | None => (RInt 1, Some (VHash (<[f := v]> h), dl))
      end
  | Some _ => (err_wrong_kind, e)
  end.

(** A sample of [count] elements of [pool]: for a non-negative count, distinct elements, as many as there
    are up to [count]; for a negative count, [-count] elements, repetitions allowed. *)
Definition sample (pool : list bytes) (count : Z) (l : list bytes) : Prop :=
  (forall x, x ∈ l -> x ∈ pool) /\
  if count <? 0 then zlen l = - count else NoDup l /\ zlen l = Z.min count (zlen pool).
Definition fields (h : gmap bytes val) : list bytes := (map_to_list h).*1.
Definition with_values (h : gmap bytes val) (l : list bytes) : list rdata :=
  concat (map (fun f => [RBulk (Some f); RBulk (field h f)]) l).

(** ** Lists *)

Definition on_list (missing : rdata * entry) (f : list val -> option Z -> rdata * entry)
  (e : entry) : rdata * entry :=
  match e with
  | None => missing
  | Some (VList l, dl) => f l dl
  | Some _ => (err_wrong_kind, e)
  end.
(** The key of an emptied list is deleted. *)
Definition keep_list (l : list val) (dl : option Z) : entry :=
  match l with [] => None | _ => Some (VList l, dl) end.
(** [x] at the left or right end of [l]. *)
Definition at_end (left : bool) (x : val) (l : list val) : list val := if left then x :: l else l ++ [x].
(** Pushing the elements of [xs] one by one. *)
Definition pushed (left : bool) (xs l : list val) : list val := fold_left (fun l x => at_end left x l) xs l.

Definition push_spec (left : bool) (xs : list val) (_ : Z) (e : entry) : rdata * entry :=
  on_list (RInt (zlen (pushed left xs [])), Some (VList (pushed left xs []), None))
    (fun l dl => (RInt (zlen (pushed left xs l)), Some (VList (pushed left xs l), dl))) e.
Definition pushx_spec (left : bool) (xs : list val) (_ : Z) (e : entry) : rdata * entry :=
  on_list (RInt 0, None)
    (fun l dl => (RInt (zlen (pushed left xs l)), Some (VList (pushed left xs l), dl))) e.
(** LPOP / RPOP of one element. *)
Definition pop_spec (left : bool) (_ : Z) (e : entry) (r : rdata) (e' : entry) : Prop :=
  match e with
  | None => r = RBulk None /\ e' = None
  | Some (VList l, dl) =>
      (l = [] /\ r = RBulk None /\ e' = None) \/
      exists x l', l = at_end left x l' /\ r = RBulk x /\ e' = keep_list l' dl
  | Some _ => r = err_wrong_kind /\ e' = e
  end.
(** LPOP / RPOP of up to [c] elements; they come out in popping order. *)
Definition popn_spec (left : bool) (c : Z) (_ : Z) (e : entry) (r : rdata) (e' : entry) : Prop :=
  match e with
  | None => r = RBulk None /\ e' = None
  | Some (VList l, dl) =>
      exists out l', l = (if left then out ++ l' else l' ++ rev out) /\ zlen out = Z.min c (zlen l) /\
        r = RArr (Some (map RBulk out)) /\ e' = keep_list l' dl
  | Some _ => r = err_wrong_kind /\ e' = e
  end.
(** A command that answers [r] and changes nothing. *)
Definition always (r0 : rdata) (_ : Z) (e : entry) : rdata * entry := (r0, e).

(** The element at an index, negative indices counting from the end. *)
Definition at_index {A} (l : list A) (i : Z) : option A :=
  if from_end (zlen l) i <? 0 then None else l !! Z.to_nat (from_end (zlen l) i).
Definition llen_spec (_ : Z) (e : entry) : rdata * entry :=
  on_list (RInt 0, None) (fun l _ => (RInt (zlen l), e)) e.
Definition lindex_spec (i : Z) (_ : Z) (e : entry) : rdata * entry :=
  on_list (RBulk None, None)
    (fun l _ => (RBulk (match at_index l i with Some v => v | None => None end), e)) e.
Definition lrange_spec (a b : Z) (_ : Z) (e : entry) : rdata * entry :=
  on_list (RArr None, None) (fun l _ => (RArr (Some (map RBulk (slice l a b))), e)) e.
Definition ltrim_spec (a b : Z) (_ : Z) (e : entry) : rdata * entry :=
  on_list (err_no_key, None) (fun l dl => (ok, keep_list (slice l a b) dl)) e.
Definition lset_spec (i : Z) (v : val) (_ : Z) (e : entry) (r : rdata) (e' : entry) : Prop :=
  match e with
  | None => r = err_no_key /\ e' = None
  | Some (VList l, dl) =>
      match at_index l i with
      | None => r = RErr (B "index out of range") /\ e' = e
      | Some _ => r = ok /\ exists l', e' = Some (VList l', dl) /\ length l' = length l /\
          forall j, l' !! j = if decide (Z.of_nat j = from_end (zlen l) i) then Some v else l !! j
      end
  | Some _ => r = err_wrong_kind /\ e' = e
  end.

(** Elements are compared as byte strings. *)
Definition matches (v x : val) : bool := bool_decide (str x = str v).
Definition count_matches (v : val) (l : list val) : Z := zlen (List.filter (matches v) l).
Definition without (v : val) (l : list val) : list val := List.filter (fun x => negb (matches v x)) l.
(** LREM: remove the first [c] matches, the last [-c], or all. *)
Definition lrem_result (c : Z) (v : val) (l l' : list val) : Prop :=
  if c =? 0 then l' = without v l
  else exists l1 l2, l = l1 ++ l2 /\
    if 0 <? c then l' = without v l1 ++ l2 /\ count_matches v l1 = Z.min c (count_matches v l)
    else l' = l1 ++ without v l2 /\ count_matches v l2 = Z.min (- c) (count_matches v l).
Definition lrem_spec (c : Z) (v : val) (_ : Z) (e : entry) (r : rdata) (e' : entry) : Prop :=
  match e with
  | None => r = RInt 0 /\ e' = None
  | Some (VList l, dl) =>
      exists l', lrem_result c v l l' /\ r = RInt (zlen l - zlen l') /\ e' = keep_list l' dl
  | Some _ => r = err_wrong_kind /\ e' = e
  end.

(** LINSERT as implemented: next to every occurrence of the pivot. *)
Definition linsert_spec (before : bool) (pivot v : val) (_ : Z) (e : entry) : rdata * entry :=
  on_list (RInt 0, None)
    (fun l dl =>
       if count_matches pivot l =? 0 then (RInt (-1), e)
       else
         let l' := flat_map (fun x => if matches pivot x then (if before then [v; x] else [x; v]) else [x]) l in
         (RInt (zlen l'), Some (VList l', dl))) e.
(** LINSERT as documented by Redis: next to the first occurrence. *)
Definition linsert_redis (before : bool) (pivot v : val) (_ : Z) (e : entry) (r : rdata) (e' : entry) : Prop :=
  match e with
  | None => r = RInt 0 /\ e' = None
  | Some (VList l, dl) =>
      (count_matches pivot l = 0 /\ r = RInt (-1) /\ e' = e) \/
      exists l1 x l2, l = l1 ++ x :: l2 /\ count_matches pivot l1 = 0 /\ matches pivot x = true /\
        r = RInt (zlen l + 1) /\
        e' = Some (VList (l1 ++ (if before then [v; x] else [x; v]) ++ l2), dl)
  | Some _ => r = err_wrong_kind /\ e' = e
  end.

(** LPOS: the positions found, in scan order. *)
Definition positions {A} (l : list A) : list (Z * A) := zip (seqZ 0 (zlen l)) l.
Definition lpos_found (l : list val) (v : val) (rank : Z) (maxlen : option Z) : list Z :=
  let scanned := if rank <? 0 then rev (positions l) else positions l in
  let compared := match maxlen with
                  | None | Some 0 => scanned
                  | Some m => take (Z.to_nat m) scanned
                  end in
  drop (Z.to_nat (Z.abs rank - 1)) (map fst (List.filter (fun p => matches v (snd p)) compared)).
Definition lpos_reply (found : list Z) (count : option Z) : rdata :=
  match count, found with
  | _, [] => RBulk None
  | None, p :: _ => RInt p
  | Some 0, _ => RArr (Some (map RInt found))
  | Some c, _ => RArr (Some (map RInt (take (Z.to_nat c) found)))
  end.
Definition lpos_spec (v : val) (rank count maxlen : option Z) (_ : Z) (e : entry) : rdata * entry :=
  on_list (RBulk None, None)
    (fun l _ => (lpos_reply (lpos_found l v (match rank with Some r => r | None => 1 end) maxlen) count, e)) e.

(** LMOVE: two keys, equal or not. *)
Definition lmove_spec (a b : bytes) (from_left to_left : bool)
  (_ : Z) (S : keyspace) (r : rdata) (S' : keyspace) : Prop :=
  match S a with
  | None => r = RBulk None /\ same S S'
  | Some (VList l, da) =>
      match S b with
      | Some (VHash _, _) | Some (VSet _, _) | Some (VStr _, _) => r = err_wrong_kind /\ same S S'
      | eb =>
          exists x l', l = at_end from_left x l' /\ r = RBulk x /\
            if decide (a = b) then upd S S' a (Some (VList (at_end to_left x l'), da))
            else
              S' a = keep_list l' da /\
              S' b = (match eb with
                      | Some (VList m, db) => Some (VList (at_end to_left x m), db)
                      | _ => Some (VList [x], None)
                      end) /\
              forall k, k <> a -> k <> b -> S' k = S k
      end
  | Some _ => r = err_wrong_kind /\ (S b <> None -> same S S')
  end.

(** ** Sets *)
Definition keep_set (s : gset bytes) (dl : option Z) : entry :=
  if decide (s = ∅) then None else Some (VSet s, dl).
Definition on_set (missing : rdata * entry) (f : gset bytes -> option Z -> rdata * entry)
  (e : entry) : rdata * entry :=
  match e with
  | None => missing
  | Some (VSet s, dl) => f s dl
  | Some _ => (err_wrong_kind, e)
  end.
Definition card (s : gset bytes) : Z := Z.of_nat (size s).
Definition args_set (xs : list val) : gset bytes := list_to_set (map str xs).
Definition sadd_spec (xs : list val) (_ : Z) (e : entry) : rdata * entry :=
  on_set (RInt (card (args_set xs)), Some (VSet (args_set xs), None))
    (fun s dl => (RInt (card (s ∪ args_set xs) - card s), Some (VSet (s ∪ args_set xs), dl))) e.
(** SREM as implemented: the key stays even if the set becomes empty. *)
Definition srem_spec (xs : list val) (_ : Z) (e : entry) : rdata * entry :=
  on_set (RInt 0, None)
    (fun s dl => (RInt (card s - card (s ∖ args_set xs)), Some (VSet (s ∖ args_set xs), dl))) e.
Definition scard_spec (_ : Z) (e : entry) : rdata * entry :=
  on_set (RInt 0, None) (fun s _ => (RInt (card s), e)) e.
Definition sismember_spec (x : bytes) (_ : Z) (e : entry) : rdata * entry :=
  on_set (RInt 0, None) (fun s _ => (RInt (if decide (x ∈ s) then 1 else 0), e)) e.
(** A reply that lists the elements of [s], each once; the null array if there is none. *)
Definition lists_set (s : gset bytes) (r : rdata) : Prop :=
  exists l, NoDup l /\ (forall x, x ∈ l <-> x ∈ s) /\
    r = match l with [] => RArr None | _ => RArr (Some (map (fun x => RBulk (Some x)) l)) end.
Definition smembers_spec (_ : Z) (e : entry) (r : rdata) (e' : entry) : Prop :=
  e' = e /\
  match e with
  | None => r = RArr None
  | Some (VSet s, _) => lists_set s r
  | Some _ => r = err_wrong_kind
  end.
(** The empty byte string is answered as null by SPOP and SRANDMEMBER without count. *)
Definition bulk_nonempty (x : bytes) : rdata := match x with [] => RBulk None | _ => RBulk (Some x) end.
Definition spop_spec (_ : Z) (e : entry) (r : rdata) (e' : entry) : Prop :=
  match e with
  | None => r = RBulk None /\ e' = None
  | Some (VSet s, dl) =>
      (s = ∅ /\ r = RBulk None /\ e' = None) \/
      exists x, x ∈ s /\ r = bulk_nonempty x /\ e' = keep_set (s ∖ {[x]}) dl
  | Some _ => r = err_wrong_kind /\ e' = e
  end.
Definition spopn_spec (c : Z) (_ : Z) (e : entry) (r : rdata) (e' : entry) : Prop :=
  match e with
  | None => r = RBulk None /\ e' = None
  | Some (VSet s, dl) =>
      exists l, NoDup l /\ (forall x, x ∈ l -> x ∈ s) /\ zlen l = Z.min c (card s) /\
        r = RArr (Some (map (fun x => RBulk (Some x)) l)) /\
        e' = keep_set (s ∖ list_to_set l) dl
  | Some _ => r = err_wrong_kind /\ e' = e
  end.
Definition srandmember_spec (_ : Z) (e : entry) (r : rdata) (e' : entry) : Prop :=
  e' = e /\
  match e with
  | None => r = RBulk None
  | Some (VSet s, _) => exists x, x ∈ s /\ r = bulk_nonempty x
  | Some _ => r = err_wrong_kind
  end.
Definition srandmembern_spec (c : Z) (_ : Z) (e : entry) (r : rdata) (e' : entry) : Prop :=
  e' = e /\
  match e with
  | None => r = RBulk None
  | Some (VSet s, _) => exists l, sample (elements s) c l /\ r = RArr (Some (map (fun x => RBulk (Some x)) l))
  | Some _ => r = err_wrong_kind
  end.

(** Set algebra.  An operand: missing keys count as empty, other types are an error. *)
Definition operand (e : entry) : option (gset bytes) :=
  match e with
  | None => Some ∅
  | Some (VSet s, _) => Some s
  | Some _ => None
  end.
Definition in_result (op : setop) (x : bytes) (s0 : gset bytes) (ss : list (gset bytes)) : Prop :=
  match op with
  | OpUnion => exists s, s ∈ s0 :: ss /\ x ∈ s
  | OpInter => forall s, s ∈ s0 :: ss -> x ∈ s
  | OpDiff => x ∈ s0 /\ forall s, s ∈ ss -> x ∉ s
  end.
(** SUNION, SINTER, SDIFF. *)
Definition setop_spec (op : setop) (k : bytes) (ks : list bytes)
  (_ : Z) (S : keyspace) (r : rdata) (S' : keyspace) : Prop :=
  same S S' /\
  match operand (S k), mapM (fun k => operand (S k)) ks with
  | Some s0, Some ss => exists s, (forall x, x ∈ s <-> in_result op x s0 ss) /\ lists_set s r
  | _, _ => r = err_wrong_kind
  end.
(** SUNIONSTORE, SINTERSTORE, SDIFFSTORE when all operands are sets or missing. *)
Definition setopstore_spec (op : setop) (dest k : bytes) (ks : list bytes)
  (_ : Z) (S : keyspace) (r : rdata) (S' : keyspace) : Prop :=
  match operand (S k), mapM (fun k => operand (S k)) ks with
  | Some s0, Some ss => exists s, (forall x, x ∈ s <-> in_result op x s0 ss) /\
      r = RInt (card s) /\ upd S S' dest (Some (VSet s, None))
  | _, _ => r = err_wrong_kind
  end.

(** SMOVE. *)
Definition smove_spec (a b x : bytes) (_ : Z) (S : keyspace) (r : rdata) (S' : keyspace) : Prop :=
  let unchanged s := same S S' \/ (s = ∅ /\ upd S S' a None) in
  match S a with
  | None => r = RInt 0 /\ same S S'
  | Some (VSet s, da) =>
      match S b with
      | None => r = RInt 0 /\ unchanged s
      | Some (VSet t, db) =>
          if decide (x ∈ s) then
            r = RInt 1 /\
            if decide (a = b) then same S S'
            else S' a = keep_set (s ∖ {[x]}) da /\ S' b = Some (VSet (t ∪ {[x]}), db) /\
              forall k, k <> a -> k <> b -> S' k = S k
          else r = RInt 0 /\ unchanged s
      | Some _ => r = err_wrong_kind /\ unchanged s
      end
  | Some _ => (r = err_wrong_kind \/ r = RInt 0) /\ same S S'
  end.

(** LPOS options as the client spells them; of a repeated option the last one counts. *)
Inductive lposopt := LRank (r : Z) | LCount (c : Z) | LMaxlen (m : Z).
Inductive lpos_spells : list val -> list lposopt -> Prop :=
| lpos_none : lpos_spells [] []
| lpos_one w a o args os :
    match o with
    | LRank r => named w "rank" /\ atoi (str a) = Some r /\ r <> 0
    | LCount c => named w "count" /\ atoi (str a) = Some c /\ 0 <= c
    | LMaxlen m => named w "maxlen" /\ atoi (str a) = Some m /\ 0 <= m
    end -> lpos_spells args os -> lpos_spells (w :: a :: args) (o :: os).
Definition last_opt (f : lposopt -> option Z) (os : list lposopt) : option Z :=
  fold_left (fun acc o => match f o with Some x => Some x | None => acc end) os None.
Definition rank_of (o : lposopt) := match o with LRank r => Some r | _ => None end.
Definition count_of (o : lposopt) := match o with LCount r => Some r | _ => None end.
Definition maxlen_of (o : lposopt) := match o with LMaxlen r => Some r | _ => None end.

(** ** Preconditions and spellings used in the theorems *)
(** The stored string is no longer than a Go string can be. *)
Definition str_short (k : bytes) (_ : Z) (S : keyspace) : Prop :=
  forall s dl, S k = Some (VStr s, dl) -> zlen (str s) <= max_int.
(** The gap to be zero-filled is one Go can allocate. *)
Definition gap_ok (k : bytes) (o : Z) (_ : Z) (S : keyspace) : Prop :=
  o - match S k with Some (VStr s, _) => zlen (str s) | _ => 0 end <= 2 ^ 48.
(** The hash at [k], if any, is not empty. *)
Definition hash_nonempty (k : bytes) (_ : Z) (S : keyspace) : Prop :=
  forall dl, S k <> Some (VHash ∅, dl).
(** HRANDFIELD key [count [WITHVALUES]]. *)
Definition hrandfield_reads (count : Z) (wv : bool) :=
  hash_reads (RBulk None) (fun h r => exists l, sample (fields h) count l /\
          r = (if count =? 1 then match l with f :: _ => RBulk (Some f) | [] => RBulk None end
               else RArr (Some (if wv then with_values h l else map (fun f => RBulk (Some f)) l)))).
(** How the ends of a list are spelled. *)
Definition end_word (left : bool) : string := if left then "left" else "right".
(** The source list, if any, is not empty. *)
Definition list_nonempty (k : bytes) (_ : Z) (S : keyspace) : Prop := forall dl, S k <> Some (VList [], dl).
(** The set at [k], if any, is not empty. *)
Definition set_nonempty (k : bytes) (_ : Z) (S : keyspace) : Prop := forall dl, S k <> Some (VSet ∅, dl).
(** The names of the set algebra commands. *)
Definition setop_word (op : setop) : string := match op with OpUnion => "sunion" | OpInter => "sinter" | OpDiff => "sdiff" end.
(** A missing operand other than the first is skipped, which matters for the intersection only. *)
Definition present (op : setop) (S : keyspace) (ks : list bytes) : Prop :=
  op = OpInter -> forall k, k ∈ ks -> S k <> None.
Definition setopstore_word (op : setop) : string :=
  match op with OpUnion => "sunionstore" | OpInter => "sinterstore" | OpDiff => "sdiffstore" end.
(** The operand keys are unexpired, none holds another type; for the intersection all but the first exist. *)
Definition store_pre (op : setop) (k : val) (ks : list val) (now : Z) (d : db) : Prop :=
  (forall x, x ∈ k :: ks -> unexpired now d (str x) /\ operand (view now d (str x)) <> None) /\
  present op (view now d) (map str ks).

(** ** Which arguments are keys *)
Inductive keykind := KNone | KFirst | KTwo | KAll | KAlternate.
Global Instance keykind_eq_dec : EqDecision keykind.
Proof. solve_decision. Defined.
Definition keykind_of (name : bytes) : keykind :=
  if decide (name ∈ map B ["ping"; "keys"]%string) then KNone
  else if decide (name ∈ map B ["rename"; "lmove"; "smove"]%string) then KTwo
  else if decide (name ∈ map B ["del"; "exists"; "mget"; "sinter"; "sunion"; "sdiff";
                                "sinterstore"; "sunionstore"; "sdiffstore"]%string) then KAll
  else if decide (name = B "mset") then KAlternate
  else KFirst.
Fixpoint alternate {A} (l : list A) : list A :=
  match l with x :: _ :: r => x :: alternate r | [x] => [x] | [] => [] end.
(** The keys a command names. *)
Definition key_args (cmd : command) : list bytes :=
  match cmd with
  | [] => []
  | n :: args =>
      map str match keykind_of (to_lower (str n)) with
              | KNone => []
              | KFirst => take 1 args
              | KTwo => take 2 args
              | KAll => args
              | KAlternate => alternate args
              end
  end.
