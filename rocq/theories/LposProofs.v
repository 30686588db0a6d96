(** Proofs about LPOS and LMOVE (memdb/list.go). *)
From Verif Require Import WpTac StringsProofs ListProofs.

(** The nodes still to visit with their positions. *)
Fixpoint walk (pos d : Z) (nodes : list val) : list (Z * val) :=
  match nodes with [] => [] | x :: r => (pos + d, x) :: walk (pos + d) d r end.
Lemma walk_app pos d l1 l2 : walk pos d (l1 ++ l2) = walk pos d l1 ++ walk (pos + d * zlen l1) d l2.
Proof.
  revert pos. induction l1 as [|x l1 IH]; intros pos; cbn [walk app].
  - unfold zlen; simpl. f_equal; lia.
  - rewrite IH. do 3 f_equal. unfold zlen; simpl; lia.
Qed.
Lemma walk_length pos d l : length (walk pos d l) = length l.
Proof. revert pos. induction l; intros; simpl; auto. Qed.
Lemma positions_walk_aux (l : list val) i : zip (seqZ i (zlen l)) l = walk (i - 1) 1 l.
Proof.
  revert i. induction l as [|x l IH]; intros i; [destruct (seqZ i (zlen []));reflexivity|].
  rewrite zlen_cons. rewrite seqZ_cons by (unfold zlen; lia). cbn [zip_with walk]. f_equal.
  - f_equal; lia.
  - replace (Z.pred (zlen l + 1)) with (zlen l) by lia. rewrite IH. f_equal; lia.
Qed.
Lemma positions_walk (l : list val) : positions l = walk (-1) 1 l.
Proof. apply positions_walk_aux. Qed.
Lemma positions_rev (l : list val) : rev (positions l) = walk (zlen l) (-1) (rev l).
Proof.
  rewrite positions_walk. induction l as [|x l IH] using rev_ind; [reflexivity|].
  rewrite walk_app, !rev_app_distr. cbn [walk rev app]. rewrite zlen_app.
  replace (zlen [x]) with 1 by reflexivity.
  f_equal; [f_equal; lia|]. rewrite IH. f_equal. lia.
Qed.

Definition hits (v : val) (w : list (Z * val)) : list Z := map fst (List.filter (fun p => matches v (snd p)) w).
Lemma hits_app v w1 w2 : hits v (w1 ++ w2) = hits v w1 ++ hits v w2.
Proof. unfold hits. rewrite List.filter_app, map_app. auto. Qed.
Lemma hits_cons v p x w : hits v ((p, x) :: w) = if matches v x then p :: hits v w else hits v w.
Proof. unfold hits. cbn [List.filter snd]. destruct (matches v x); auto. Qed.
Lemma veq_sym a b : veq a b = matches a b.
Proof. unfold veq, matches, beq. apply bool_decide_ext. split; auto. Qed.

Definition limit (ml : option Z) (w : list (Z * val)) : list (Z * val) :=
  match ml with None => w | Some m => take (Z.to_nat m) w end.

(** The RANK loop. *)
Lemma rank_walk_spec v d nodes : d = 1 \/ d = -1 -> forall pos rk ml, 1 <= rk -> (forall m, ml = Some m -> 1 <= m) ->
  (exists n1 x n2, nodes = n1 ++ x :: n2 /\ matches v x = true /\
     zlen (hits v (walk pos d n1)) = rk - 1 /\ (forall m, ml = Some m -> zlen n1 + 1 <= m) /\
     rank_walk v nodes pos d (d * rk) ml =
       Some (pos + d * zlen n1 + d, 0, match ml with Some m => Some (m - zlen n1 - 1) | None => None end))
  \/ (zlen (hits v (limit ml (walk pos d nodes))) < rk /\
      match rank_walk v nodes pos d (d * rk) ml with None => True | Some (_, r, _) => r <> 0 end).
Proof.
  intros Hd. induction nodes as [|x nodes IH]; intros pos rk ml Hrk Hml.
  - right. split; [|simpl; auto]. destruct ml; cbn; [rewrite take_nil|]; unfold zlen; simpl; lia.
  - cbn [rank_walk]. rewrite veq_sym.
    set (rank := if matches v x then d * rk - d else d * rk).
    destruct (Z.eqb_spec rank 0) as [Hr0|Hr0].
    + (* found *)
      assert (Hx : matches v x = true /\ rk = 1).
      { unfold rank in Hr0. destruct (matches v x); [|destruct Hd; subst d; lia]. split; auto. destruct Hd; subst d; lia. }
      destruct Hx as [Hx ->]. left. exists [], x, nodes. split; auto. split; auto. split; auto. split.
      { intros m Hm. specialize (Hml m Hm). unfold zlen; simpl. lia. }
      rewrite Hr0. replace (pos + d * zlen [] + d) with (pos + d) by (unfold zlen; simpl; lia).
      destruct ml as [m|].
      * replace (m - zlen [] - 1) with (m - 1) by (unfold zlen; simpl; lia).
        destruct (m - 1 =? 0); auto.
      * auto.
    + set (rk' := if matches v x then rk - 1 else rk).
      assert (Hrank : rank = d * rk') by (unfold rank, rk'; destruct (matches v x); lia).
      assert (Hrk' : 1 <= rk').
      { destruct Hd; subst d; unfold rk' in *; destruct (matches v x); lia. }
      assert (Hhx : forall w, zlen (hits v ((pos + d, x) :: w)) = zlen (hits v w) + (rk - rk')).
      { intros w. rewrite hits_cons. unfold rk'. destruct (matches v x); rewrite ?zlen_cons; lia. }
      rewrite Hrank. destruct ml as [m|].
      * destruct (Z.eqb_spec (m - 1) 0).
        -- right. split.
           ++ replace m with 1 by lia. cbn [limit walk]. change (Z.to_nat 1) with 1%nat. rewrite firstn_cons. rewrite Hhx.
              rewrite take_0. unfold hits, zlen; simpl. lia.
           ++ rewrite <- Hrank. auto.
        -- assert (1 <= m) by auto.
           destruct (IH (pos + d) rk' (Some (m - 1))) as [(n1 & y & n2 & -> & Hy & Hh & Hm & ->)|[H1 H2]]; auto.
           { intros ? [= <-]. lia. }
           ++ left. exists (x :: n1), y, n2. split; auto. split; auto.
              split; [cbn [walk]; rewrite Hhx; lia|]. specialize (Hm _ eq_refl). split.
              { intros ? [= <-]. rewrite zlen_cons. lia. }
              rewrite zlen_cons. do 3 f_equal; [lia|f_equal; lia].
           ++ right. split; auto. cbn [limit walk] in *. replace (Z.to_nat m) with (S (Z.to_nat (m - 1))) by lia.
              rewrite firstn_cons. rewrite Hhx. lia.
      * destruct (IH (pos + d) rk' None) as [(n1 & y & n2 & -> & Hy & Hh & Hm & ->)|[H1 H2]]; auto; try discriminate.
        -- left. exists (x :: n1), y, n2. split; auto. split; auto.
           split; [cbn [walk]; rewrite Hhx; lia|]. split; [discriminate|].
           rewrite zlen_cons. do 3 f_equal; lia.
        -- right. split; auto. cbn [limit walk] in *. rewrite Hhx. lia.
Qed.

(** The COUNT loop. *)
Lemma count_walk_spec v d nodes : forall pos c ml, 1 <= c -> (forall m, ml = Some m -> 0 <= m) ->
  count_walk v nodes (pos + d) d c ml =
  map RInt (take (Z.to_nat c) (hits v (limit (match ml with Some m => Some (m + 1) | None => None end) (walk pos d nodes)))).
Proof.
  induction nodes as [|x nodes IH]; intros pos c ml Hc Hml.
  - destruct ml; cbn; [rewrite take_nil|]; cbn; rewrite take_nil; auto.
  - cbn [count_walk]. rewrite veq_sym.
    assert (Hl : limit (match ml with Some m => Some (m + 1) | None => None end) (walk pos d (x :: nodes)) =
            (pos + d, x) :: limit ml (walk (pos + d) d nodes)).
    { destruct ml as [m|]; auto. specialize (Hml m eq_refl). cbn [limit walk].
      replace (Z.to_nat (m + 1)) with (S (Z.to_nat m)) by lia. rewrite firstn_cons. auto. }
    rewrite Hl, hits_cons. clear Hl. destruct (matches v x); cbn [andb].
    + replace (Z.to_nat c) with (S (Z.to_nat (c - 1))) by lia. rewrite firstn_cons. cbn [map].
      destruct (Z.eqb_spec (c - 1) 0) as [E|E].
      * rewrite E. cbn. rewrite take_0. auto.
      * destruct ml as [m|].
        -- specialize (Hml m eq_refl). destruct (Z.leb_spec m 0).
           ++ replace m with 0 by lia. cbn. rewrite take_0. cbn. rewrite take_nil. auto.
           ++ cbn [app]. f_equal. rewrite (IH (pos + d) (c - 1) (Some (m - 1))) by (try lia; intros ? [= <-]; lia).
              replace (m - 1 + 1) with m by lia. auto.
        -- cbn [app]. f_equal. rewrite (IH (pos + d) (c - 1) None) by (try lia; discriminate). auto.
    + destruct ml as [m|].
      * specialize (Hml m eq_refl). destruct (Z.leb_spec m 0).
        -- replace m with 0 by lia. cbn. rewrite take_0. cbn. rewrite take_nil. auto.
        -- cbn [app]. rewrite (IH (pos + d) c (Some (m - 1))) by (try lia; intros ? [= <-]; lia).
           replace (m - 1 + 1) with m by lia. auto.
      * cbn [app]. rewrite (IH (pos + d) c None) by (try lia; discriminate). auto.
Qed.
Lemma first_walk_spec v nodes : forall pos ml, (forall m, ml = Some m -> 0 <= m) ->
  first_walk v nodes (pos + 1) ml =
  match hits v (limit (match ml with Some m => Some (m + 1) | None => None end) (walk pos 1 nodes)) with
  | [] => rnil | p :: _ => RInt p end.
Proof.
  induction nodes as [|x nodes IH]; intros pos ml Hml.
  - destruct ml; cbn; [rewrite take_nil|]; auto.
  - cbn [first_walk]. rewrite veq_sym.
    assert (Hl : limit (match ml with Some m => Some (m + 1) | None => None end) (walk pos 1 (x :: nodes)) =
            (pos + 1, x) :: limit ml (walk (pos + 1) 1 nodes)).
    { destruct ml as [m|]; auto. specialize (Hml m eq_refl). cbn [limit walk].
      replace (Z.to_nat (m + 1)) with (S (Z.to_nat m)) by lia. rewrite firstn_cons. auto. }
    rewrite Hl, hits_cons. clear Hl. destruct (matches v x); auto.
    destruct ml as [m|].
    + specialize (Hml m eq_refl). destruct (Z.leb_spec m 0).
      * replace m with 0 by lia. cbn. rewrite take_0. auto.
      * rewrite (IH (pos + 1) (Some (m - 1))) by (intros ? [= <-]; lia).
        replace (m - 1 + 1) with m by lia. auto.
    + rewrite (IH (pos + 1) None) by discriminate. auto.
Qed.
Lemma list_pos_spec v l : forall pos, 0 <= pos ->
  (if list_pos l v pos =? -1 then rnil else RInt (list_pos l v pos)) =
  match hits v (walk (pos - 1) 1 l) with [] => rnil | p :: _ => RInt p end.
Proof.
  induction l as [|x l IH]; intros pos Hp; auto. cbn [list_pos walk]. rewrite hits_cons, veq_matches.
  replace (pos - 1 + 1) with pos by lia.
  destruct (matches v x).
  - replace (pos =? -1) with false by (symmetry; apply Z.eqb_neq; lia). auto.
  - rewrite IH by lia. replace (pos + 1 - 1) with pos by lia. auto.
Qed.

Lemma limit_le ml w : zlen (limit ml w) <= zlen w.
Proof. destruct ml; cbn; unfold zlen; rewrite ?take_length; lia. Qed.
Lemma hits_le v w : zlen (hits v w) <= zlen w.
Proof.
  induction w as [|[p x] w IH]; [unfold zlen; simpl; lia|]. rewrite hits_cons, zlen_cons.
  destruct (matches v x); rewrite ?zlen_cons; lia.
Qed.

Lemma lpos_count_reply found c (l : list val) : l <> [] -> 0 <= c -> zlen found <= zlen l ->
  match map RInt (take (Z.to_nat (if c =? 0 then zlen l else c)) found) with
  | [] => rnil | res => RArr (Some res) end = lpos_reply found (Some c).
Proof.
  intros Hl Hc Hf. destruct (Z.eqb_spec c 0) as [->|Hc0].
  - rewrite take_ge by (unfold zlen in *; lia). destruct found; auto.
  - destruct found as [|p found].
    + rewrite take_nil. unfold lpos_reply. destruct c; auto.
    + replace (Z.to_nat c) with (S (Z.to_nat (c - 1))) by lia. rewrite firstn_cons. cbn [map].
      destruct c; try lia. unfold lpos_reply.
      replace (Z.to_nat (Z.pos p0)) with (S (Z.to_nat (Z.pos p0 - 1))) by lia. rewrite firstn_cons. auto.
Qed.

Lemma lpos_run_spec l v rank count maxlen :
  (forall r, rank = Some r -> r <> 0) -> (forall c, count = Some c -> 0 <= c) ->
  (forall m, maxlen = Some m -> 0 <= m) ->
  lpos_run l v (mkLpos rank count maxlen) =
  lpos_reply (lpos_found l v (match rank with Some r => r | None => 1 end) maxlen) count.
Proof.
  intros Hrank Hcount Hml.
  destruct (decide (rank = None /\ count = None /\ maxlen = None)) as [(-> & -> & ->)|Hopt].
  { unfold lpos_run. cbn [p_rank p_count p_maxlen]. rewrite (list_pos_spec v l 0) by lia.
    unfold lpos_found, lpos_reply. cbn [Z.ltb]. rewrite positions_walk.
    change (map fst (List.filter (fun p => matches v (snd p)) (walk (-1) 1 l))) with (hits v (walk (-1) 1 l)).
    change (Z.to_nat (Z.abs 1 - 1)) with 0%nat. rewrite drop_0. auto. }
  set (mlv := match maxlen with Some m => Some (if m =? 0 then zlen l else m) | None => None end).
  set (cntv := match count with Some c => Some (if c =? 0 then zlen l else c) | None => None end).
  destruct l as [|x0 l0].
  { (* empty list *)
    assert (Hf : lpos_found [] v (match rank with Some r => r | None => 1 end) maxlen = []).
    { unfold lpos_found. change (positions []) with (@nil (Z * val)). cbn [rev]. destruct (_ <? 0), maxlen as [[]|]; rewrite ?take_nil; cbn [List.filter map]; apply drop_nil. }
    rewrite Hf. unfold lpos_run. cbn [p_rank p_count p_maxlen].
    destruct rank as [r|], count as [c|], maxlen as [m|]; try (exfalso; tauto);
      try (destruct (0 <? r)); cbn; auto; try (destruct c; auto). }
  set (l := x0 :: l0) in *.
  assert (Hlne : l <> []) by discriminate.
  assert (Hlpos : 1 <= zlen l) by (unfold l; rewrite zlen_cons; pose proof (zlen_nonneg l0); lia).
  assert (Hmlv : forall m, mlv = Some m -> 1 <= m).
  { unfold mlv. intros m. destruct maxlen as [m0|]; [|discriminate]. specialize (Hml _ eq_refl).
    destruct (Z.eqb_spec m0 0); intros [= <-]; lia. }
  (* the specification in terms of walks *)
  assert (Hfound : forall r, lpos_found l v r maxlen = drop (Z.to_nat (Z.abs r - 1))
     (hits v (limit mlv (if r <? 0 then walk (zlen l) (-1) (rev l) else walk (-1) 1 l)))).
  { intros r. unfold lpos_found. rewrite positions_rev, positions_walk.
    set (w := if r <? 0 then _ else _). fold (hits v) .
    assert (Hw : length w = length l).
    { unfold w. destruct (r <? 0); rewrite walk_length, ?rev_length; auto. }
    assert (E : match maxlen with None | Some 0 => w | Some m => take (Z.to_nat m) w end = limit mlv w).
    { unfold mlv. destruct maxlen as [m|]; auto. destruct (Z.eqb_spec m 0) as [->|].
      - cbn [limit]. rewrite take_ge; auto. unfold zlen. lia.
      - destruct m; auto; lia. }
    rewrite <- E. unfold hits. destruct maxlen as [[]|]; auto. }
  (* the start position *)
  set (r := match rank with Some r => r | None => 1 end).
  set (d := if r <? 0 then -1 else 1).
  set (pos0 := if r <? 0 then zlen l else -1).
  set (nodes := if r <? 0 then rev l else l).
  assert (Hr0 : r <> 0) by (unfold r; destruct rank; [auto|lia]).
  assert (Hd : d = 1 \/ d = -1) by (unfold d; destruct (r <? 0); auto).
  assert (Hdr : r = d * Z.abs r) by (unfold d; destruct (Z.ltb_spec r 0); lia).
  assert (HW : (if r <? 0 then walk (zlen l) (-1) (rev l) else walk (-1) 1 l) = walk pos0 d nodes).
  { unfold pos0, d, nodes. destruct (r <? 0); auto. }
  fold r. rewrite Hfound, HW. clear Hfound HW.
  assert (Hnl : zlen nodes = zlen l) by (unfold nodes; destruct (r <? 0); unfold zlen; rewrite ?rev_length; auto).
  (* found at nodes n1 ++ x :: n2 *)
  assert (Hmain : forall n1 x n2, nodes = n1 ++ x :: n2 -> matches v x = true ->
     zlen (hits v (walk pos0 d n1)) = Z.abs r - 1 -> (forall m, mlv = Some m -> zlen n1 + 1 <= m) ->
     match cntv with
     | Some c =>
       match count_walk v (if r <? 0 then rev (take (S (Z.to_nat (pos0 + d * zlen n1 + d))) l)
                           else drop (Z.to_nat (pos0 + d * zlen n1 + d)) l)
               (pos0 + d * zlen n1 + d) d c (match mlv with Some m => Some (m - zlen n1 - 1) | None => None end) with
       | [] => rnil | res => RArr (Some res) end
     | None => first_walk v (drop (Z.to_nat (pos0 + d * zlen n1 + d)) l) (pos0 + d * zlen n1 + d)
                 (match mlv with Some m => Some (m - zlen n1 - 1) | None => None end)
     end = lpos_reply (drop (Z.to_nat (Z.abs r - 1)) (hits v (limit mlv (walk pos0 d nodes)))) count).
  { intros n1 x n2 En Hx Hh Hm.
    set (ml := match mlv with Some m => Some (m - zlen n1 - 1) | None => None end).
    assert (Hml0 : forall m, ml = Some m -> 0 <= m).
    { unfold ml. intros m. destruct mlv as [m0|]; [|discriminate]. specialize (Hm _ eq_refl). intros [= <-]. lia. }
    assert (Hlim : limit mlv (walk pos0 d nodes) =
       walk pos0 d n1 ++ limit (match ml with Some m => Some (m + 1) | None => None end) (walk (pos0 + d * zlen n1) d (x :: n2))).
    { rewrite En, walk_app. unfold ml. destruct mlv as [m0|]; auto. specialize (Hm _ eq_refl). cbn [limit].
      rewrite take_app_ge by (rewrite walk_length; unfold zlen in *; lia).
      rewrite walk_length. f_equal. f_equal. unfold zlen in *. lia. }
    assert (Hn2 : Z.of_nat (length l) = Z.of_nat (length n1) + 1 + Z.of_nat (length n2)).
    { unfold zlen in Hnl. rewrite <- Hnl, En, app_length. simpl. lia. }
    rewrite Hlim, hits_app, drop_app_alt by (unfold zlen in *; lia).
    assert (Hsuf : (if r <? 0 then rev (take (S (Z.to_nat (pos0 + d * zlen n1 + d))) l)
                           else drop (Z.to_nat (pos0 + d * zlen n1 + d)) l) = x :: n2).
    { unfold pos0, d, nodes in *. destruct (r <? 0).
      - assert (El : l = (rev n2 ++ [x]) ++ rev n1).
        { rewrite <- (rev_involutive l), En, rev_app_distr. reflexivity. }
        rewrite El at 2. rewrite take_app_alt.
        + rewrite rev_app_distr, rev_involutive. auto.
        + rewrite app_length, rev_length. simpl. unfold zlen. lia.
      - rewrite En at 1. apply drop_app_alt. unfold zlen. lia. }
    set (found := hits v (limit (match ml with Some m => Some (m + 1) | None => None end)
                    (walk (pos0 + d * zlen n1) d (x :: n2)))).
    assert (Hfl : zlen found <= zlen l).
    { unfold found. etransitivity; [apply hits_le|]. etransitivity; [apply limit_le|].
      unfold zlen in *. rewrite walk_length. change (length (x :: n2)) with (S (length n2)). lia. }
    assert (Hhd : exists f', found = (pos0 + d * zlen n1 + d) :: f').
    { unfold found. destruct ml as [m|].
      - specialize (Hml0 _ eq_refl). cbn [limit walk]. replace (Z.to_nat (m + 1)) with (S (Z.to_nat m)) by lia.
        rewrite firstn_cons, hits_cons, Hx. eauto.
      - cbn [limit walk]. rewrite hits_cons, Hx. eauto. }
    unfold cntv. destruct count as [c|].
    - rewrite Hsuf, count_walk_spec; auto.
      + apply lpos_count_reply; auto.
      + specialize (Hcount _ eq_refl). destruct (Z.eqb_spec c 0); lia.
    - destruct Hhd as [f' ->]. cbn [lpos_reply].
      destruct (lookup_lt_is_Some_2 l (Z.to_nat (pos0 + d * zlen n1 + d))) as [y Hy].
      { unfold pos0, d, zlen in *. destruct (r <? 0); lia. }
      assert (Hyx : y = x).
      { unfold pos0, d, nodes in *. destruct (r <? 0).
        - assert (El : l = rev n2 ++ x :: rev n1).
          { rewrite <- (rev_involutive l), En, rev_app_distr. cbn [rev]. rewrite <- app_assoc. reflexivity. }
          rewrite El in Hy at 2. rewrite lookup_app_r in Hy by (rewrite rev_length; unfold zlen in *; lia).
          replace (Z.to_nat (zlen l + -1 * zlen n1 + -1) - length (rev n2))%nat with 0%nat in Hy.
          + simpl in Hy. congruence.
          + rewrite rev_length; unfold zlen in *; lia.
        - rewrite En in Hy. rewrite lookup_app_r in Hy by (unfold zlen; lia).
          replace (Z.to_nat (-1 + 1 * zlen n1 + 1) - length n1)%nat with 0%nat in Hy by (unfold zlen; lia).
          simpl in Hy. congruence. }
      rewrite (drop_S _ _ _ Hy). cbn [first_walk]. rewrite veq_sym, Hyx, Hx. auto. }
  (* not found *)
  assert (Hnone : zlen (hits v (limit mlv (walk pos0 d nodes))) < Z.abs r ->
     lpos_reply (drop (Z.to_nat (Z.abs r - 1)) (hits v (limit mlv (walk pos0 d nodes)))) count = rnil).
  { intros Hlt. rewrite drop_ge by (unfold zlen in *; lia). unfold lpos_reply. destruct count as [[]|]; auto. }
  assert (Hrun : lpos_run l v (mkLpos rank count maxlen) =
      match (match rank with
        | Some r => if 0 <? r then (rank_walk v l (-1) 1 r mlv, false)
            else (rank_walk v (rev l) (zlen l) (-1) r mlv, true)
        | None => (Some (0, 0, match mlv with Some m => Some (m - 1) | None => None end), false)
        end) with (start, reverse) =>
      match start with
      | None => rnil
      | Some (pos, rank, ml) =>
          if negb (rank =? 0) then rnil
          else
            match cntv with
            | Some c =>
                let nodes := if (reverse : bool) then rev (take (S (Z.to_nat pos)) l) else drop (Z.to_nat pos) l in
                match count_walk v nodes pos (if reverse then -1 else 1) c ml with
                | [] => rnil
                | res => RArr (Some res)
                end
            | None => first_walk v (drop (Z.to_nat pos) l) pos ml
            end
      end end).
  { unfold lpos_run. cbn [p_rank p_count p_maxlen]. fold mlv cntv. unfold l at 1.
    destruct rank, count, maxlen; try reflexivity. exfalso; tauto. }
  rewrite Hrun. clear Hrun. destruct rank as [r'|].
  - cbn in r. subst r. cbv beta iota.
    assert (E : (if 0 <? r' then (rank_walk v l (-1) 1 r' mlv, false)
       else (rank_walk v (rev l) (zlen l) (-1) r' mlv, true)) =
       (rank_walk v nodes pos0 d (d * Z.abs r') mlv, r' <? 0)).
    { unfold nodes, pos0, d. destruct (Z.ltb_spec r' 0), (Z.ltb_spec 0 r'); try lia; f_equal; f_equal; lia. }
    rewrite E. clear E.
    destruct (rank_walk_spec v d nodes Hd pos0 (Z.abs r') mlv) as [(n1 & x & n2 & En & Hx & Hh & Hm & ->)|[H1 H2]];
      auto; try lia.
    + cbn [negb Z.eqb]. rewrite <- (Hmain n1 x n2); auto.
    + rewrite Hnone by auto. destruct (rank_walk _ _ _ _ _ _) as [[[p rk] ml]|]; auto.
      replace (rk =? 0) with false by (symmetry; apply Z.eqb_neq; auto). auto.
  - cbn in r. subst r. cbv beta iota. cbn [negb Z.eqb]. cbn in d, pos0, nodes. subst d pos0 nodes.
    change (Z.to_nat (Z.abs 1 - 1)) with 0%nat. rewrite drop_0. change (Z.to_nat 0) with 0%nat. rewrite drop_0.
    set (ml := match mlv with Some m => Some (m - 1) | None => None end).
    assert (Hml' : match ml with Some m => Some (m + 1) | None => None end = mlv).
    { unfold ml. destruct mlv; auto. f_equal; lia. }
    assert (Hml0 : forall m, ml = Some m -> 0 <= m).
    { unfold ml. intros m. destruct mlv as [m0|]; [|discriminate]. specialize (Hmlv _ eq_refl). intros [= <-]. lia. }
    unfold cntv. destruct count as [c|].
    + change 0 with (-1 + 1) at 1. rewrite count_walk_spec; auto.
      * rewrite Hml'. apply lpos_count_reply; auto.
        etransitivity; [apply hits_le|]. etransitivity; [apply limit_le|].
        unfold zlen. rewrite walk_length. lia.
      * specialize (Hcount _ eq_refl). destruct (Z.eqb_spec c 0); lia.
    + change 0 with (-1 + 1) at 1. rewrite first_walk_spec by auto. rewrite Hml'. unfold lpos_reply. auto.
Qed.

Section WithParams.
Context {P : Setup}.

Definition opts_of (os : list lposopt) (o : lposopts) : lposopts :=
  fold_left (fun o x => match x with
    | LRank r => mkLpos (Some r) (p_count o) (p_maxlen o)
    | LCount c => mkLpos (p_rank o) (Some c) (p_maxlen o)
    | LMaxlen m => mkLpos (p_rank o) (p_count o) (Some m) end) os o.
Lemma lpos_opts_spells args os : lpos_spells args os -> forall o, lpos_opts args o = inl (opts_of os o).
Proof.
  induction 1 as [|w a x args os Hx Hs IH]; intros o; auto.
  cbn [lpos_opts]. destruct x; destruct Hx as (Hw & Ha & Hp); unfold named in Hw; rewrite Hw, Ha; beqs.
  - replace (r =? 0) with false by (symmetry; apply Z.eqb_neq; auto). apply IH.
  - replace (c <? 0) with false by (symmetry; apply Z.ltb_ge; auto). apply IH.
  - replace (m <? 0) with false by (symmetry; apply Z.ltb_ge; auto). apply IH.
Qed.
Lemma opts_of_last os : opts_of os (mkLpos None None None) =
  mkLpos (last_opt rank_of os) (last_opt count_of os) (last_opt maxlen_of os).
Proof.
  unfold last_opt. generalize (@None Z) at 1 4 as a. generalize (@None Z) at 1 3 as b. generalize (@None Z) at 1 2 as c.
  unfold opts_of. induction os as [|o os IH]; intros c b a; auto. cbn [fold_left].
  destruct o; cbn [rank_of count_of maxlen_of p_rank p_count p_maxlen]; apply IH.
Qed.
Lemma spells_range args os : lpos_spells args os ->
  (forall r, last_opt rank_of os = Some r -> r <> 0) /\
  (forall r, last_opt count_of os = Some r -> 0 <= r) /\
  (forall r, last_opt maxlen_of os = Some r -> 0 <= r).
Proof.
  intros H. unfold last_opt.
  assert (G : forall (f : lposopt -> option Z) (Pz : Z -> Prop) acc,
     (forall o r, o ∈ os -> f o = Some r -> Pz r) -> (forall r, acc = Some r -> Pz r) ->
     forall r, fold_left (fun acc o => match f o with Some x => Some x | None => acc end) os acc = Some r -> Pz r).
  { clear H. intros f Pz. induction os as [|o os IH]; intros acc H1 H2; auto. cbn [fold_left].
    apply IH; [intros; eapply H1; eauto; right; auto|]. destruct (f o) eqn:E; auto.
    intros r [= <-]. apply (H1 o); auto. left. }
  assert (Ho : forall o, o ∈ os -> match o with LRank r => r <> 0 | LCount c => 0 <= c | LMaxlen m => 0 <= m end).
  { clear G. induction H as [|w a x args os Hx Hs IH]; [set_solver|]. intros o [->|Hin]%elem_of_cons; [|exact (IH o Hin)].
    destruct x; tauto. }
  split; [|split]; apply G; try discriminate; intros o r Hin; specialize (Ho o Hin); destruct o; cbn; congruence.
Qed.
Lemma spells_even args os : lpos_spells args os -> Nat.even (length args) = true.
Proof. induction 1; auto. Qed.

Lemma lpos_ok n k v args os : named n "lpos" -> lpos_spells args os ->
  implements (n :: k :: v :: args)
    (single_fun (str k) (lpos_spec v (last_opt rank_of os) (last_opt count_of os) (last_opt maxlen_of os))).
Proof.
  intros Hn Hs. apply impl_single_fun. intros now d HI _.
  rewrite (exec_named _ _ _ lpos_list Hn) by reflexivity. unfold lpos_list. cbv zeta.
  replace (Nat.even (length (n :: k :: v :: args))) with false.
  2:{ symmetry. pose proof (spells_even _ _ Hs) as He. cbn [length].
      rewrite Nat.even_succ, Nat.odd_succ, Nat.even_succ, <- Nat.negb_even, He. auto. }
  unfold lpos_spec. purge_k. destruct b.
  - rewrite (Hb eq_refl) in *. wps. fin.
  - rewrite (lpos_opts_spells _ _ Hs), opts_of_last. unfold list_read.
    ent; wps; [destruct v0|]; wps; try (fin; fail). cbn [on_list].
    destruct (spells_range _ _ Hs) as (H1 & H2 & H3). rewrite lpos_run_spec by auto. fin.
Qed.

(** ** LMOVE *)
Lemma live_as now d k v dl v' : view now d k = Some (v, dl) -> live now (Some (v', dl)) = Some (v', dl).
Proof.
  rewrite view_raw. unfold live. destruct (raw d k) as [[x [t|]]|]; try congruence.
  - destruct (t <? now) eqn:E; [congruence|]. intros [= -> <-]. rewrite E. auto.
  - intros [= -> <-]. auto.
Qed.
Lemma live_keep now d k v dl l : view now d k = Some (v, dl) -> live now (keep_list l dl) = keep_list l dl.
Proof. intros H. destruct l; auto. eapply live_as; eauto. Qed.

(** Two purges in a row. *)
Lemma wp_purge2 {C} now d a b (f : bool -> prog C) Q (g : bool -> prog C) :
  Inv d ->
  (forall d1, Inv d1 -> sim now d1 d -> view now d a = None -> wp (eq now) d1 (g true) Q) ->
  (forall d2 e2, Inv d2 -> sim now d2 d -> raw d2 a = view now d a -> raw d2 b = view now d b ->
     (e2 = true -> view now d b = None) ->
     wp (eq now) d2 (f e2) Q) ->
  (g false = pbind (delete_expired_key b) f) ->
  wp (eq now) d (pbind (delete_expired_key a) g) Q.
Proof.
  intros HI H1 H2 Hg. apply wp_purge_sim; auto. intros d1 e1 HI1 Hs1 He1 Hr1 Hb1 Hf1. destruct e1; auto.
  rewrite Hg. apply wp_purge_sim; auto. intros d2 e2 HI2 Hs2 He2 Hr2 Hb2 Hf2.
  assert (Hs : sim now d2 d) by (eapply sim_trans; eauto).
  assert (Hvb : view now d1 b = view now d b) by (apply (sim_view now); auto; lia).
  apply H2; auto.
  - destruct (decide (a = b)) as [->|Hab]; [congruence|]. rewrite Hf2 by auto. auto.
  - congruence.
  - intros. rewrite <- Hvb. auto.
Qed.


Lemma pop_end (left : bool) (l : list val) : (if left then pop_left l else pop_right l) = None /\ l = [] \/
     exists x l', (if left then pop_left l else pop_right l) = Some (x, l') /\ l = at_end left x l'.
Proof.
  destruct left; unfold pop_left, pop_right, at_end.
  - destruct l as [|x l]; eauto 6.
  - destruct (rev l) as [|x r] eqn:E.
    + left. split; auto. rewrite <- (rev_involutive l), E. auto.
    + right. exists x, (rev r). split; auto. rewrite <- (rev_involutive l), E. auto.
Qed.
Lemma push_end (left : bool) x l : (if left then push_left x l else push_right x l) = at_end left x l.
Proof. destruct left; auto. Qed.
Lemma at_end_ne left x l : at_end left x l <> [].
Proof. destruct left; simpl; [discriminate|]. destruct l; discriminate. Qed.

Lemma drop_if_empty_wp2 now d k l v dl (f : unit -> prog rdata) Q :
  Inv d -> raw d k = Some (v, dl) ->
  (forall d', Inv d' -> (raw d' k = if zlen l =? 0 then None else Some (v, dl)) ->
     (forall k', k' <> k -> raw d' k' = raw d k') ->
     wp (eq now) d' (f tt) Q) ->
  wp (eq now) d (pbind (drop_if_empty k l) f) Q.
Proof.
  intros HI Hr H. pose proof (raw_dict _ _ _ Hr) as HD. pose proof (raw_exps _ _ _ HI Hr) as HE. cbn in HD, HE.
  unfold drop_if_empty. destruct (zlen l =? 0); wps.
  - apply H; auto with inv.
    + rawsimp. auto.
    + intros; rawsimp; auto.
  - apply H; auto.
Qed.


Lemma lmove_ok n a b wa wb fl tl : named n "lmove" -> named wa (end_word fl) -> named wb (end_word tl) ->
  implements_when (list_nonempty (str a)) [n; a; b; wa; wb] (lmove_spec (str a) (str b) fl tl).
Proof.
  intros Hn Hwa Hwb. unfold named in Hwa, Hwb. apply impl_multi. intros now d HI Hpre. exec_cmd Hn.
  unfold lmove_list. cbv zeta. rewrite Hwa, Hwb.
  eapply (wp_purge2 now d (str a) (str b)); [assumption| | |reflexivity]; cbv beta iota.
  { intros d1 HI1 Hs1 Hv. wps. eexists _, _. split; [reflexivity|]. split; auto.
    unfold lmove_spec. rewrite Hv. split; auto. intros k. apply (sim_view now); auto; lia. }
  intros d2 e2 HI2 Hs Hra Hrb _. clear e2.
  assert (Hsame : same (view now d) (view now d2)) by (intros k; apply (sim_view now); auto; lia).
  assert (Hw : forall fl : bool, beq (B (end_word fl)) (B "left") = fl /\ (beq (B (end_word fl)) (B "right")) = negb fl)
    by (intros []; split; reflexivity).
  rewrite !(proj1 (Hw fl)), !(proj1 (Hw tl)), !(proj2 (Hw fl)), !(proj2 (Hw tl)).
  replace (negb fl && negb (negb fl) || negb tl && negb (negb tl)) with false by (destruct fl, tl; auto).
  set (A := str a) in *. set (Bk := str b) in *.
  pose proof (raw_dict _ _ _ Hra) as HDa. pose proof (raw_exps _ _ _ HI2 Hra) as HEa.
  pose proof (raw_dict _ _ _ Hrb) as HDb. pose proof (raw_exps _ _ _ HI2 Hrb) as HEb.
  unfold lmove_spec. destruct (view now d A) as [[va da]|] eqn:Hva.
  2:{ wps. eexists _, _. split; [reflexivity|]. split; auto. }
  destruct va as [s|h|l|s].
  1,2,4: wps; destruct (view now d Bk) as [[vb db0]|] eqn:Hvb; wps; eexists _, _;
      (split; [reflexivity|]); (split; [auto with inv|]); (split; [reflexivity|]); intros Hne; [assumption|congruence].
  destruct (pop_end fl l) as [[_ ->]|(x & l' & Hpop & ->)]; [elim (Hpre da); auto|].
  set (l0 := at_end fl x l') in *.
  wps. destruct (decide (A = Bk)) as [E|E].
  - (* same key *)
    clear HDb HEb Hrb. rewrite <- E. rewrite Hva. wps. rewrite Hpop. wps.
    rewrite push_end. wps. eapply drop_if_empty_wp2; [auto with inv|rawsimp; reflexivity|].
    intros d' HI' Hr' Hf'. wps. eexists _, _. split; [reflexivity|]. split; auto.
    exists x, l'. split; auto. split; auto.
    replace (zlen (at_end tl x l') =? 0) with false in Hr'.
    2:{ symmetry. apply Z.eqb_neq. pose proof (at_end_ne tl x l'). destruct (at_end tl x l'); [congruence|].
        unfold zlen; simpl; lia. }
    split.
    + rewrite view_raw, Hr'. eapply live_as; eauto.
    + intros k Hk. rewrite view_raw, Hf' by auto. rawsimp. rewrite <- view_raw. apply Hsame.
  - assert (E' : Bk <> A) by auto.
    destruct (view now d Bk) as [[vb db0]|] eqn:Hvb.
    + destruct vb as [s|h|m|s].
      1,2,4: wps; eapply drop_if_empty_wp2; [assumption|eassumption|]; intros d' HI' Hr' Hf'; wps; eexists _, _;
        (split; [reflexivity|]); (split; [auto|]); (split; [reflexivity|]); intros k;
        replace (zlen l0 =? 0) with false in Hr'
          by (symmetry; apply Z.eqb_neq; pose proof (at_end_ne fl x l'); unfold l0;
              destruct (at_end fl x l'); [congruence|]; unfold zlen; simpl; lia);
        destruct (decide (k = A)) as [->|Hk]; [rewrite view_raw, Hr', <- Hra, <- view_raw; apply Hsame|
          rewrite view_raw, Hf', <- view_raw by auto; apply Hsame].
      wps. rewrite Hpop. wps. rewrite push_end. wps.
      eapply drop_if_empty_wp2; [auto with inv|rawsimp; reflexivity|].
      intros d' HI' Hr' Hf'. wps. eexists _, _. split; [reflexivity|]. split; auto.
      exists x, l'. split; auto. split; auto.
      assert (Hk : raw d' A = keep_list l' da) by (rewrite Hr'; destruct l'; reflexivity).
      clear Hr'. rename Hk into Hr'. split; [|split].
      * rewrite view_raw, Hr'. eapply live_keep; eauto.
      * rewrite view_raw, Hf' by auto. rawsimp. eapply live_as; eauto.
      * intros k Hka Hkb. rewrite view_raw, Hf' by auto. rawsimp. rewrite <- view_raw. apply Hsame.
    + wps. rewrite Hpop. wps. rewrite push_end. wps.
      eapply drop_if_empty_wp2; [auto 10 with inv|rawsimp; reflexivity|].
      intros d' HI' Hr' Hf'. wps. eexists _, _. split; [reflexivity|]. split; auto.
      exists x, l'. split; auto. split; auto.
      assert (Hk : raw d' A = keep_list l' da) by (rewrite Hr'; destruct l'; reflexivity).
      clear Hr'. rename Hk into Hr'. split; [|split].
      * rewrite view_raw, Hr'. eapply live_keep; eauto.
      * rewrite view_raw, Hf' by auto. rawsimp. destruct tl; auto.
      * intros k Hka Hkb. rewrite view_raw, Hf' by auto. rawsimp. rewrite <- view_raw. apply Hsame.
Qed.

End WithParams.
