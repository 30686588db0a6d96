(** The reference: for every command name and every list of arguments, what the server answers and what it leaves.

    The state is a keyspace in which a key whose deadline has passed may linger until it is collected.  A lingering key
    is invisible, but a few commands tell it from a key that does not exist; [gone] below says which keys linger. *)
From Verif Require Export Spec SpecGlob SpecWire SpecGeneric.

(** What is stored for a key, whether its deadline has passed or not. *)
Definition stored (d : db) (k : bytes) : entry :=
  match dict d !! k with Some v => Some (v, exps d !! k) | None => None end.
(** A key that lingers. *)
Definition lingers (now : Z) (e : entry) : bool :=
  match e with Some (_, Some dl) => dl <? now | _ => false end.

(** The meaning of a command: time, visible keyspace, lingering keys, reply, keyspace left. *)
Definition meaning : Type := Z -> keyspace -> (bytes -> bool) -> rdata -> keyspace -> Prop.
(** Answer [r0] and change nothing. *)
Definition say (r0 : rdata) : meaning := fun now S gone r S' => r = r0 /\ same S S'.
(** A specification of Spec.v that does not look at lingering keys. *)
Definition plain (spec : Z -> keyspace -> rdata -> keyspace -> Prop) : meaning := fun now S gone r S' => spec now S r S'.
Definition on (k : val) (F : Z -> entry -> rdata -> entry -> Prop) : meaning := plain (single (str k) F).
Definition onf (k : val) (f : Z -> entry -> rdata * entry) : meaning := plain (single_fun (str k) f).
(** Answer [r0] if [k] lingers. *)
Definition if_gone (k : val) (r0 : rdata) (m : meaning) : meaning := fun now S gone r S' =>
  if gone (str k) then say r0 now S gone r S' else m now S gone r S'.
(** Read an integer argument; [bad] is the error for anything else. *)
Definition int_or (bad : rdata) (a : val) (m : Z -> meaning) : meaning :=
  match atoi (str a) with Some i => m i | None => say bad end.
Definition int (a : val) (m : Z -> meaning) : meaning := int_or err_int a m.
Definition both_ints (a b : val) (m : Z -> Z -> meaning) : meaning := int a (fun i => int b (fun j => m i j)).
(** Is the word written [s], in any letter case? *)
Global Instance named_dec w s : Decision (named w s).
Proof. unfold named. apply _. Defined.
Definition is_word (w : val) (s : string) : bool := bool_decide (named w s).
(** The keys that are looked at: of a lingering key the first mention is dropped. *)
Fixpoint kept_keys (gone : bytes -> bool) (ks : list val) : list val :=
  match ks with
  | [] => []
  | k :: r => if gone (str k) then kept_keys (fun x => gone x && negb (bool_decide (x = str k))) r else k :: kept_keys gone r
  end.
Fixpoint in_pairs (l : list val) : option (list (val * val)) :=
  match l with
  | [] => Some []
  | k :: v :: r => match in_pairs r with Some ps => Some ((k, v) :: ps) | None => None end
  | [_] => None
  end.

(** ** Keys *)
Definition ref_expire (k a w : val) : meaning := int a (fun i =>
  match List.find (fun o => is_word w (expopt_word o)) [ENone; ENx; EXx; EGt; ELt] with
  | Some o => onf k (expire_spec o i)
  | None => if_gone k (RInt 0) (say (RErr (B "Unsupported option " ++ str w)))
  end).
Definition ref_persist (k : val) : meaning := if_gone k (RInt 0)
  (onf k (fun _ e => (RInt 1, match e with Some (v, _) => Some (v, None) | None => None end))).
(** KEYS with any pattern (see SpecGlob.v). *)
Definition ref_keys (p : val) : meaning := fun now S gone r S' =>
  exists ts e, reads_pat (str p) ts e /\ keys_spec (fun k => accepts ts e k) now S r S'.

(** ** Strings *)
(** The seconds EX is taken to mean: a number that does not fit is clamped, anything else is 0. *)
Definition signed (sign : bytes) (s ds rest : bytes) : Prop := s = sign ++ ds ++ rest /\ Forall is_digit ds.
Definition too_high (s : bytes) : Prop := exists ds rest, (signed [] s ds rest \/ signed (B "+") s ds rest) /\
  (2 ^ 64 <= decimal ds \/ rest = [] /\ 2 ^ 63 <= decimal ds).
Definition too_low (s : bytes) : Prop := exists ds rest, signed (B "-") s ds rest /\
  (2 ^ 64 <= decimal ds \/ rest = [] /\ 2 ^ 63 < decimal ds).
Inductive seconds : bytes -> Z -> Prop :=
| sec_number s z : denotes s z -> fits64 z -> seconds s z
| sec_high s : too_high s -> seconds s max_int
| sec_low s : too_low s -> seconds s min_int
| sec_junk s : (forall z, ~ denotes s z) -> ~ too_high s -> ~ too_low s -> seconds s 0.
(** The options of SET, read from the left; [Some e]: the error [e] is answered. *)
Inductive reads_set : list val -> list setopt -> option rdata -> Prop :=
| rs_nil : reads_set [] [] None
| rs_nx a l os e : named a "nx" -> reads_set l os e -> reads_set (a :: l) (ONx :: os) e
| rs_xx a l os e : named a "xx" -> reads_set l os e -> reads_set (a :: l) (OXx :: os) e
| rs_get a l os e : named a "get" -> reads_set l os e -> reads_set (a :: l) (OGet :: os) e
| rs_keep a l os e : named a "keepttl" -> reads_set l os e -> reads_set (a :: l) (OKeep :: os) e
| rs_ex a m n l os e : named a "ex" -> seconds (str m) n -> reads_set l os e -> reads_set (a :: m :: l) (OEx n :: os) e
| rs_px a m n l os e : named a "px" -> atoi (str m) = Some n -> reads_set l os e -> reads_set (a :: m :: l) (OPx n :: os) e
| rs_px_bad a m l : named a "px" -> atoi (str m) = None -> reads_set (a :: m :: l) [] (Some err_int)
| rs_at a l : named a "exat" \/ named a "pxat" -> reads_set (a :: l) [] (Some err_int)
| rs_unknown a l : (forall s, In s ["nx"; "xx"; "get"; "ex"; "px"; "keepttl"; "exat"; "pxat"]%string -> ~ named a s) ->
    reads_set (a :: l) [] (Some (RErr (B "Unsupported option " ++ str a))).
Definition ref_set (k v : val) (l : list val) : meaning := fun now S gone r S' => exists os e, reads_set l os e /\
  match e with
  | Some r0 => say r0 now S gone r S'
  | None => setopts_ok os /\ on k (set_spec os v) now S gone r S' \/ ~ setopts_ok os /\ say err_syntax now S gone r S'
  end.
(** GETRANGE to the largest index gives nothing; a null string may give null.  No claim about a string longer than a Go
    string can be. *)
Definition ref_getrange_at (i j : Z) (_ : Z) (e : entry) (r : rdata) (e' : entry) : Prop := e' = e /\
  match e with
  | None => r = RBulk (Some [])
  | Some (VStr (Some s), _) => zlen s <= max_int -> r = RBulk (Some (if j =? max_int then [] else slice s i j))
  | Some (VStr None, _) => r = RBulk (if (i <? 0) && (-1 <=? j) && (j <? max_int) then None else Some [])
  | Some _ => r = err_not_string
  end.
(** Bytes written to a string: the null string stays null only if nothing is written. *)
Definition rewritten (old : val) (s : bytes) : val := match old, s with None, [] => None | _, _ => Some s end.
Definition ref_setrange_at (o : Z) (v : bytes) (_ : Z) (e : entry) : rdata * entry :=
  let store (old : val) (dl : option Z) :=
    let s := overwrite (str old) (Z.to_nat o) v in (RInt (zlen s), Some (VStr (rewritten old s), dl)) in
  on_str (store (Some []) None) store err_not_string e.
Definition ref_append (a : val) (_ : Z) (e : entry) : rdata * entry :=
  on_str (RInt (zlen (str a)), Some (VStr a, None))
    (fun s dl => (RInt (zlen (str s ++ str a)), Some (VStr (rewritten s (str s ++ str a)), dl))) err_not_string e.
Definition ref_mget (ks : list val) : meaning := fun now S gone r S' => mget_spec (kept_keys gone ks) now S r S'.

(** ** Hashes *)
Section Hash.
Context {P : Setup}.
(** A number of an empty pool is none at all. *)
Definition draws (pool : list bytes) (count : Z) (l : list bytes) : Prop := if decide (pool = []) then l = [] else sample pool count l.
Definition ref_random (count : Z) (wv : bool) := hash_reads (RBulk None) (fun h r => exists l, draws (fields h) count l /\
  r = (if count =? 1 then match l with f :: _ => RBulk (Some f) | [] => RBulk None end
       else RArr (Some (if wv then with_values h l else map (fun f => RBulk (Some f)) l)))).

(** ** Lists *)
Definition direction (w : val) : option bool := if is_word w "left" then Some true else if is_word w "right" then Some false else None.
(** LMOVE: from a key that is not a list to a missing one, the empty list is created; an empty source is removed on the
    way to the error. *)
Definition ref_lmove_at (a b : bytes) (from_left to_left : bool) (now : Z) (S : keyspace) (r : rdata) (S' : keyspace) : Prop :=
  match S a with
  | None => r = RBulk None /\ same S S'
  | Some (VList l, da) =>
      match S b with
      | Some (VHash _, _) | Some (VSet _, _) | Some (VStr _, _) => r = err_wrong_kind /\ upd S S' a (keep_list l da)
      | _ => lmove_spec a b from_left to_left now S r S'
      end
  | Some _ => r = err_wrong_kind /\
      match S b with None => upd S S' b (Some (VList [], None)) | Some _ => same S S' end
  end.
Definition ref_pop (left : bool) (args : list val) : meaning :=
  match args with
  | [] => say err_args
  | [k; a] => if_gone k (RBulk None)
      match atoi (str a) with
      | Some c => if c =? 1 then on k (pop_spec left)
                  else if 0 <? c then on k (popn_spec left c)
                  else say (RErr (B "value is out of range, must be positive"))
      | None => say (RErr (B "value is out of range, must be positive"))
      end
  | k :: _ => on k (pop_spec left)
  end.
(** The options of LPOS, read from the left. *)
Definition err_rank_zero : rdata := RErr (B "RANK can't be zero: use 1 to start from the first match, 2 from the second ... or use negative to start from the end of the list").
Inductive reads_lpos : list val -> list lposopt -> option rdata -> Prop :=
| rl_nil : reads_lpos [] [] None
| rl_one w a o l os e :
    match o with
    | LRank r => named w "rank" /\ atoi (str a) = Some r /\ r <> 0
    | LCount c => named w "count" /\ atoi (str a) = Some c /\ 0 <= c
    | LMaxlen m => named w "maxlen" /\ atoi (str a) = Some m /\ 0 <= m
    end -> reads_lpos l os e -> reads_lpos (w :: a :: l) (o :: os) e
| rl_bad w a l : named w "rank" \/ named w "count" \/ named w "maxlen" -> atoi (str a) = None -> reads_lpos (w :: a :: l) [] (Some err_int)
| rl_rank w a l : named w "rank" -> atoi (str a) = Some 0 -> reads_lpos (w :: a :: l) [] (Some err_rank_zero)
| rl_count w a l c : named w "count" -> atoi (str a) = Some c -> c < 0 -> reads_lpos (w :: a :: l) [] (Some (RErr (B "COUNT can't be negative")))
| rl_maxlen w a l c : named w "maxlen" -> atoi (str a) = Some c -> c < 0 -> reads_lpos (w :: a :: l) [] (Some (RErr (B "MAXLEN can't be negative")))
| rl_unknown w a l : ~ named w "rank" -> ~ named w "count" -> ~ named w "maxlen" ->
    reads_lpos (w :: a :: l) [] (Some (RErr (B "Unsupported option " ++ str w))).
Definition ref_lpos (k v : val) (l : list val) : meaning := fun now S gone r S' =>
  if Nat.odd (length l) then say err_args now S gone r S'
  else if_gone k (RBulk None) (fun now S gone r S' => exists os e, reads_lpos l os e /\
    match e with
    | Some r0 => say r0 now S gone r S'
    | None => onf k (lpos_spec v (last_opt rank_of os) (last_opt count_of os) (last_opt maxlen_of os)) now S gone r S'
    end) now S gone r S'.
(** LREM with the least count removes nothing. *)
Definition ref_lrem (c : Z) (v : val) (now : Z) (e : entry) (r : rdata) (e' : entry) : Prop :=
  if c =? min_int then (r, e') = on_list (RInt 0, None) (fun l dl => (RInt 0, keep_list l dl)) e else lrem_spec c v now e r e'.

(** ** Sets *)
Definition ref_setop (op : setop) (args : list val) : meaning := fun now S gone r S' =>
  match args with
  | [] => say err_args now S gone r S'
  | _ => match map str (kept_keys gone args) with
         | k :: ks => setop_spec op k ks now S r S'
         | [] => False                                   (* a panic, see SpecPanic.v *)
         end
  end.
(** The STORE variants: a missing operand other than the first is skipped; if one has another type, an error is answered but
    the destination is emptied all the same. *)
Definition ref_store_at (op : setop) (dest k : bytes) (ks : list bytes) (now : Z) (S : keyspace) (r : rdata) (S' : keyspace) : Prop :=
  match operand (S k) with
  | None => r = err_wrong_kind /\ same S S'
  | Some s0 => match mapM (fun k => operand (S k)) (filter (fun k => S k <> None) ks) with
               | Some ss => exists s, (forall x, x ∈ s <-> in_result op x s0 ss) /\ r = RInt (card s) /\ upd S S' dest (Some (VSet s, None))
               | None => r = err_wrong_kind /\ upd S S' dest (Some (VSet ∅, None))
               end
  end.
Definition ref_store (op : setop) (args : list val) : meaning := fun now S gone r S' =>
  match args with
  | dest :: k :: ks => match map str (kept_keys (fun x => gone x && negb (bool_decide (x = str dest))) (k :: ks)) with
                       | k :: ks => ref_store_at op (str dest) k ks now S r S'
                       | [] => say (RInt 0) now S gone r S'
                       end
  | _ => say err_args now S gone r S'
  end.
(** SMOVE: an empty source is removed. *)
Definition ref_smove_at (a b x : bytes) (now : Z) (S : keyspace) (r : rdata) (S' : keyspace) : Prop :=
  match S a with
  | None => r = RInt 0 /\ same S S'
  | Some (VSet s, da) =>
      match S b with
      | Some (VSet t, db) =>
          if decide (x ∈ s) then
            r = RInt 1 /\
            if decide (a = b) then same S S'
            else S' a = keep_set (s ∖ {[x]}) da /\ S' b = Some (VSet (t ∪ {[x]}), db) /\ forall k, k <> a -> k <> b -> S' k = S k
          else r = RInt 0 /\ upd S S' a (keep_set s da)
      | None => r = RInt 0 /\ upd S S' a (keep_set s da)
      | Some _ => r = err_wrong_kind /\ upd S S' a (keep_set s da)
      end
  | Some _ => r = err_wrong_kind /\ same S S'
  end.
Definition ref_srandmember (c : Z) (_ : Z) (e : entry) (r : rdata) (e' : entry) : Prop := e' = e /\
  match e with
  | None => r = RBulk None
  | Some (VSet s, _) => exists l, draws (elements s) c l /\ r = RArr (Some (map (fun x => RBulk (Some x)) l))
  | Some _ => r = err_wrong_kind
  end.

(** ** All commands *)
Definition all_of (args : list val) (m : list val -> meaning) : meaning := match args with [] => say err_args | _ => m args end.
Definition hset_args (k : val) (l : list val) (reply : Z -> rdata) : meaning :=
  match in_pairs l with Some (p :: ps) => on k (hset_spec (p :: ps) reply) | _ => say err_args end.
Definition field_of (k f : val) (missing : rdata) (g : val -> rdata) : meaning :=
  on k (hash_reads missing (fun h r => r = g (field h (str f)))).
Definition hash_of (k : val) (missing : rdata) (R : gmap bytes val -> rdata -> Prop) : meaning := on k (hash_reads missing R).


Definition reference : list (string * (list val -> meaning)) := [
  ("ping"%string, fun args => match args with [] => say (RStr (B "PONG")) | [v] => say (RBulk v) | _ => say err_args end);
  ("del"%string, fun args => all_of args (fun ks => plain (del_spec (map str ks))));
  ("exists"%string, fun args => all_of args (fun ks => plain (exists_spec (map str ks))));
  ("keys"%string, fun args => match args with [p] => ref_keys p | _ => say err_args end);
  ("expire"%string, fun args => match args with
     | [k; a] => int a (fun i => onf k (expire_spec ENone i))
     | [k; a; w] => ref_expire k a w
     | _ => say err_args end);
  ("persist"%string, fun args => match args with [k] => ref_persist k | _ => say err_args end);
  ("ttl"%string, fun args => match args with [k] => onf k ttl_spec | _ => say err_args end);
  ("rename"%string, fun args => match args with [a; b] => plain (rename_spec (str a) (str b)) | _ => say err_args end);
  ("type"%string, fun args => match args with [k] => onf k type_spec | _ => say err_args end);

  ("set"%string, fun args => match args with k :: v :: l => ref_set k v l | _ => say err_args end);
  ("get"%string, fun args => match args with [k] => onf k get_spec | _ => say err_args end);
  ("getrange"%string, fun args => match args with
     | [k; a; b] => if_gone k (RBulk (Some [])) (both_ints a b (fun i j => on k (ref_getrange_at i j)))
     | _ => say err_args end);
  ("setrange"%string, fun args => match args with
     | [k; a; v] => int a (fun o => if (o <? 0)%Z then say err_offset else onf k (ref_setrange_at o (str v)))
     | _ => say err_args end);
  ("mget"%string, fun args => all_of args ref_mget);
  ("mset"%string, fun args => match in_pairs args with Some (p :: ps) => plain (mset_spec (p :: ps)) | _ => say err_args end);
  ("setex"%string, fun args => match args with [k; a; v] => int a (fun i => onf k (setex_spec i v)) | _ => say err_args end);
  ("setnx"%string, fun args => match args with [k; v] => onf k (setnx_spec v) | _ => say err_args end);
  ("strlen"%string, fun args => match args with [k] => onf k strlen_spec | _ => say err_args end);
  ("incr"%string, fun args => match args with [k] => onf k (counter_spec 1 err_int) | _ => say err_args end);
  ("incrby"%string, fun args => match args with [k; a] => int a (fun i => onf k (counter_spec i err_int)) | _ => say err_args end);
  ("decr"%string, fun args => match args with [k] => onf k (counter_spec (-1) err_int) | _ => say err_args end);
  ("decrby"%string, fun args => match args with
     | [k; a] => int a (fun i => onf k (counter_spec (- i) (RErr (B "(error) value is not an integer"))))
     | _ => say err_args end);
  ("incrbyfloat"%string, fun args => match args with
     | [k; a] => match parse_float (str a) with Some x => onf k (incrbyfloat_spec x) | None => say err_float end
     | _ => say err_args end);
  ("append"%string, fun args => match args with [k; a] => onf k (ref_append a) | _ => say err_args end);

  ("hdel"%string, fun args => match args with k :: f :: fs => on k (hdel_spec (map str (f :: fs))) | _ => say err_args end);
  ("hexists"%string, fun args => match args with
     | [k; f] => hash_of k (RInt 0) (fun h r => r = RInt (if decide (is_Some (h !! str f)) then 1 else 0))
     | _ => say err_args end);
  ("hget"%string, fun args => match args with [k; f] => field_of k f (RBulk None) RBulk | _ => say err_args end);
  ("hgetall"%string, fun args => match args with
     | [k] => hash_of k (RArr (Some [])) (fun h r => exists l, l ≡ₚ map_to_list h /\
                r = RArr (Some (concat (map (fun p => [RBulk (Some p.1); RBulk p.2]) l))))
     | _ => say err_args end);
  ("hincrby"%string, fun args => match args with
     | [k; f; a] => match atoi (str a) with Some i => onf k (hincrby_spec (str f) i) | None => onf k (hincr_bad_spec err_int) end
     | _ => say err_args end);
  ("hincrbyfloat"%string, fun args => match args with
     | [k; f; a] => match parse_float (str a) with Some x => onf k (hincrbyfloat_spec (str f) x) | None => onf k (hincr_bad_spec err_float) end
     | _ => say err_args end);
  ("hkeys"%string, fun args => match args with
     | [k] => hash_of k (RArr (Some [])) (fun h r => exists l, l ≡ₚ fields h /\ r = RArr (Some (map (fun f => RBulk (Some f)) l)))
     | _ => say err_args end);
  ("hlen"%string, fun args => match args with [k] => hash_of k (RInt 0) (fun h r => r = RInt (Z.of_nat (size h))) | _ => say err_args end);
  ("hmget"%string, fun args => match args with
     | k :: f :: fs => hash_of k (RArr (Some [])) (fun h r => r = RArr (Some (map (fun x => RBulk (field h (str x))) (f :: fs))))
     | _ => say err_args end);
  ("hmset"%string, fun args => match args with k :: l => hset_args k l (fun _ => ok) | _ => say err_args end);
  ("hset"%string, fun args => match args with k :: l => hset_args k l RInt | _ => say err_args end);
  ("hsetnx"%string, fun args => match args with [k; f; v] => onf k (hsetnx_spec (str f) v) | _ => say err_args end);
  ("hvals"%string, fun args => match args with
     | [k] => hash_of k (RArr (Some [])) (fun h r => exists l, l ≡ₚ (map_to_list h).*2 /\ r = RArr (Some (map RBulk l)))
     | _ => say err_args end);
  ("hstrlen"%string, fun args => match args with [k; f] => field_of k f (RInt 0) (fun v => RInt (zlen (str v))) | _ => say err_args end);
  ("hrandfield"%string, fun args => match args with
     | [k] => on k (ref_random 1 false)
     | [k; a] => if_gone k (RBulk None) (int a (fun c => on k (ref_random c false)))
     | [k; a; w] => if_gone k (RBulk None) (int a (fun c => if is_word w "withvalues" then on k (ref_random c true) else say err_syntax))
     | _ => say err_args end);

  ("lindex"%string, fun args => match args with [k; a] => if_gone k (RBulk None) (int a (fun i => onf k (lindex_spec i))) | _ => say err_args end);
  ("linsert"%string, fun args => match args with
     | [k; w; p; v] => if_gone k (RInt 0)
         (if is_word w "before" then onf k (linsert_spec true p v) else if is_word w "after" then onf k (linsert_spec false p v) else say err_syntax)
     | _ => say err_args end);
  ("llen"%string, fun args => match args with [k] => onf k llen_spec | _ => say err_args end);
  ("lmove"%string, fun args => match args with
     | [a; b; wa; wb] => if_gone a (RBulk None)
         match direction wa, direction wb with
         | Some fl, Some tl => plain (ref_lmove_at (str a) (str b) fl tl)
         | _, _ => say err_syntax
         end
     | _ => say err_args end);
  ("lpop"%string, ref_pop true);
  ("lpos"%string, fun args => match args with k :: v :: l => ref_lpos k v l | _ => say err_args end);
  ("lpush"%string, fun args => match args with k :: x :: xs => onf k (push_spec true (x :: xs)) | _ => say err_args end);
  ("lpushx"%string, fun args => match args with k :: x :: xs => onf k (pushx_spec true (x :: xs)) | _ => say err_args end);
  ("lrange"%string, fun args => match args with
     | [k; a; b] => if_gone k (RArr None) (both_ints a b (fun i j => onf k (lrange_spec i j)))
     | _ => say err_args end);
  ("lrem"%string, fun args => match args with [k; a; v] => if_gone k (RInt 0) (int a (fun c => on k (ref_lrem c v))) | _ => say err_args end);
  ("lset"%string, fun args => match args with [k; a; v] => if_gone k err_no_key (int a (fun i => on k (lset_spec i v))) | _ => say err_args end);
  ("ltrim"%string, fun args => match args with
     | [k; a; b] => if_gone k err_no_key (both_ints a b (fun i j => onf k (ltrim_spec i j)))
     | _ => say err_args end);
  ("rpop"%string, ref_pop false);
  ("rpush"%string, fun args => match args with k :: x :: xs => onf k (push_spec false (x :: xs)) | _ => say err_args end);
  ("rpushx"%string, fun args => match args with k :: x :: xs => onf k (pushx_spec false (x :: xs)) | _ => say err_args end);

  ("sadd"%string, fun args => match args with k :: x :: xs => onf k (sadd_spec (x :: xs)) | _ => say err_args end);
  ("scard"%string, fun args => match args with [k] => onf k scard_spec | _ => say err_args end);
  ("sdiff"%string, ref_setop OpDiff); ("sdiffstore"%string, ref_store OpDiff);
  ("sinter"%string, ref_setop OpInter); ("sinterstore"%string, ref_store OpInter);
  ("sismember"%string, fun args => match args with [k; x] => onf k (sismember_spec (str x)) | _ => say err_args end);
  ("smembers"%string, fun args => match args with [k] => on k smembers_spec | _ => say err_args end);
  ("smove"%string, fun args => match args with
     | [a; b; x] => if_gone a (RInt 0) (if_gone b (RInt 0) (plain (ref_smove_at (str a) (str b) (str x))))
     | _ => say err_args end);
  ("spop"%string, fun args => match args with
     | [k] => on k spop_spec
     | [k; a] => if_gone k (RBulk None) (int a (fun c => if 0 <? c then on k (spopn_spec c) else say (RErr (B "value must be positive"))))
     | _ => say err_args end);
  ("srandmember"%string, fun args => match args with
     | [k] => on k srandmember_spec
     | [k; a] => if_gone k (RBulk None) (int a (fun c => if c =? 0 then say (RBulk None) else on k (ref_srandmember c)))
     | _ => say err_args end);
  ("srem"%string, fun args => match args with k :: x :: xs => onf k (srem_spec (x :: xs)) | _ => say err_args end);
  ("sunion"%string, ref_setop OpUnion); ("sunionstore"%string, ref_store OpUnion) ].

(** A command whose name is not in the table is refused. *)
Definition answers (cmd : command) : meaning := fun now S gone r S' =>
  match cmd with
  | [] => False                                          (* a panic *)
  | n :: args =>
      (exists s m, In (s, m) reference /\ named n s /\ m args now S gone r S') \/
      (forall s m, In (s, m) reference -> ~ named n s) /\ say (RErr (B "unknown command '" ++ str n ++ B "'")) now S gone r S'
  end.
(** One step of the reference machine.  [M'] is what the command leaves, except that keys whose deadline has passed may have been collected; nothing else begins to linger. *)
Definition ref_step (now : Z) (M : keyspace) (cmd : command) (r : rdata) (M' : keyspace) : Prop :=
  exists S', answers cmd now (fun k => live now (M k)) (fun k => lingers now (M k)) r S' /\
    forall k, live now (M' k) = live now (S' k) /\ (lingers now (M' k) = true -> lingers now (M k) = true \/ lingers now (S' k) = true).
(** The commands whose reply depends on chance or on the order in which a map is iterated. *)
Definition any_order : list string :=
  ["keys"; "hgetall"; "hkeys"; "hvals"; "hrandfield"; "smembers"; "sdiff"; "sinter"; "sunion"; "spop"; "srandmember"]%string.
(** No string is longer than a Go string can be. *)
Definition addressable (S : keyspace) : Prop := forall k s dl, S k = Some (VStr (Some s), dl) -> zlen s <= max_int.
(** A history: commands, each at its time and with its reply. *)
Inductive ref_run : keyspace -> list (Z * command * rdata) -> keyspace -> Prop :=
| rr_nil M : ref_run M [] M
| rr_cons M now cmd r M1 h M' : ref_step now M cmd r M1 -> ref_run M1 h M' -> ref_run M ((now, cmd, r) :: h) M'.
(** The same of the program. *)
Inductive exchange : db -> list (Z * command * rdata) -> db -> Prop :=
| ex_nil d : exchange d [] d
| ex_cons d now cmd r d1 h d' : step now d cmd (Done r d1) -> exchange d1 h d' -> exchange d ((now, cmd, r) :: h) d'.
End Hash.
