(** Proofs of the property theorems about the elements of a sparse row and their iterators. *)
From Coq Require Import ZArith.
From Verif Require Import Base ListFacts Csr SparseModel SparseSpec SparseFacts SparseSeq CsrDataModel CsrData
  RowModel RowFacts SparseInsert PropSparseLemmas PropRowLemmas ElementModel.

(** The iterator at position [k] of the arrays. *)
Definition at_position (k : nat) : eiter := mkIter (At k) (At k).

Lemma p_eqb_eq p q : p_eqb p q = true <-> p = q.
Proof.
  destruct p as [|a], q as [|b]; cbn; try (split; congruence).
  rewrite Nat.eqb_eq. split; congruence.
Qed.

Lemma e_eqb_eq x y : e_eqb x y = true <-> x = y.
Proof.
  destruct x as [a b], y as [c d]. unfold e_eqb. cbn [e_col e_val]. rewrite Bool.andb_true_iff, !p_eqb_eq.
  split; [intros []; congruence|intros E; injection E; auto].
Qed.

Lemma e_neb_at a b : e_neb (at_position a) (at_position b) = negb (a =? b).
Proof. unfold e_neb, e_eqb, at_position. cbn. rewrite Bool.andb_diag. reflexivity. Qed.

Section Loops.
  Context {V : Type}.
  Implicit Types m : smat V.

  Lemma inc_at m k : length (vals m) = length (cidx m) -> k < length (cidx m) ->
    e_inc m (at_position k) = Ok (at_position (S k)).
  Proof.
    intros E H. unfold e_inc, at_position. cbn [e_col e_val p_inc]. rewrite E.
    destruct (Nat.ltb_spec k (length (cidx m))); [reflexivity|lia].
  Qed.

  Lemma note_at m k acc : length (vals m) = length (cidx m) -> k < length (cidx m) ->
    exists j v, nth_error (cidx m) k = Some j /\ nth_error (vals m) k = Some v /\
      note m (e_star (at_position k)) acc = Ok (m, acc ++ [(j, v)]).
  Proof.
    intros E H.
    destruct (nth_error (cidx m) k) as [j|] eqn:Ej; [|apply nth_error_None in Ej; lia].
    destruct (nth_error (vals m) k) as [v|] eqn:Ev; [|apply nth_error_None in Ev; lia].
    exists j, v. repeat split. unfold note, l_column, l_value, e_star, at_position. cbn [e_col e_val l_col l_val p_read].
    unfold vget. rewrite Ej, Ev. reflexivity.
  Qed.

  Lemma firstn_skipn_cons {A} (l : list A) a n x : nth_error l a = Some x ->
    firstn (S n) (skipn a l) = x :: firstn n (skipn (S a) l).
  Proof.
    revert a. induction l as [|y l IH]; intros [|a] E; try discriminate.
    - injection E as ->. reflexivity.
    - apply (IH a E).
  Qed.

  Lemma slice_cons {A} (l : list A) a b x : a < b -> nth_error l a = Some x -> slice l a b = x :: slice l (S a) b.
  Proof.
    intros H E. unfold slice. replace (b - a) with (S (b - S a)) by lia. apply firstn_skipn_cons, E.
  Qed.

  Lemma slice_snoc {A} (l : list A) a b x : a <= b -> nth_error l b = Some x ->
    slice l a (S b) = slice l a b ++ [x].
  Proof.
    intros H E. assert (Hb : b < length l) by (apply nth_error_Some; congruence).
    remember (b - a) as n eqn:En. revert a H En. induction n; intros a H En.
    - assert (a = b) by lia. subst a. rewrite (slice_cons l b (S b) x) by (auto; lia).
      unfold slice. rewrite !Nat.sub_diag. reflexivity.
    - destruct (nth_error l a) as [y|] eqn:Ey; [|apply nth_error_None in Ey; lia].
      rewrite (slice_cons l a (S b) y), (slice_cons l a b y) by (auto; lia).
      rewrite (IHn (S a)) by lia. reflexivity.
  Qed.

  Lemma slice_nil {A} (l : list A) a : slice l a a = [].
  Proof. unfold slice. rewrite Nat.sub_diag. reflexivity. Qed.

  Lemma forward_notes m b fuel a acc : length (vals m) = length (cidx m) -> a <= b -> b <= length (cidx m) ->
    b - a < fuel ->
    e_forward fuel note (at_position b) m (at_position a) acc =
    Ok (m, acc ++ combine (slice (cidx m) a b) (slice (vals m) a b)).
  Proof.
    intros E. revert a acc. induction fuel as [|fuel IH]; intros a acc H1 H2 Hf; [lia|].
    cbn [e_forward]. rewrite e_neb_at. destruct (Nat.eqb_spec a b) as [->|Hab]; cbn [negb].
    - rewrite !slice_nil. cbn. rewrite app_nil_r. reflexivity.
    - destruct (note_at m a acc E) as (j & v & Ej & Ev & ->); [lia|]. cbn [bind fst snd].
      rewrite inc_at by (auto; lia). cbn [bind]. rewrite IH by lia.
      rewrite (slice_cons _ a b j), (slice_cons _ a b v) by (auto; lia).
      cbn [combine]. rewrite <- app_assoc. reflexivity.
  Qed.

  Lemma combine_snoc {A B} (l : list A) (l' : list B) x y : length l = length l' ->
    combine (l ++ [x]) (l' ++ [y]) = combine l l' ++ [(x, y)].
  Proof.
    revert l'. induction l as [|a l IH]; intros [|b l'] H; try discriminate; [reflexivity|].
    cbn. rewrite IH by (cbn in H; lia). reflexivity.
  Qed.

  Lemma backward_notes m a fuel b acc : length (vals m) = length (cidx m) -> a <= b -> b <= length (cidx m) ->
    b - a < fuel ->
    e_backward fuel note (at_position a) m (at_position b) acc =
    Ok (m, acc ++ rev (combine (slice (cidx m) a b) (slice (vals m) a b))).
  Proof.
    intros E. revert b acc. induction fuel as [|fuel IH]; intros b acc H1 H2 Hf; [lia|].
    cbn [e_backward]. rewrite e_neb_at. destruct (Nat.eqb_spec b a) as [->|Hab]; cbn [negb].
    - rewrite !slice_nil. cbn. rewrite app_nil_r. reflexivity.
    - destruct b as [|b]; [lia|]. unfold e_dec at 1. cbn [at_position e_col e_val p_dec bind].
      change (mkIter (At b) (At b)) with (at_position b).
      destruct (note_at m b acc E) as (j & v & Ej & Ev & ->); [lia|]. cbn [bind fst snd].
      rewrite IH by lia.
      rewrite (slice_snoc _ a b j), (slice_snoc _ a b v) by (auto; lia).
      rewrite combine_snoc by (rewrite !slice_length by lia; reflexivity).
      rewrite rev_app_distr. rewrite <- app_assoc. reflexivity.
  Qed.

  Lemma forward_change f b fuel m a : length (vals m) = length (cidx m) -> a <= b -> b <= length (cidx m) ->
    b - a < fuel ->
    exists m', e_forward fuel (change f) (at_position b) m (at_position a) tt = Ok (m', tt) /\
      rnz m' = rnz m /\ cidx m' = cidx m /\ csize m' = csize m /\ length (vals m') = length (vals m) /\
      forall k, nth_error (vals m') k =
        (if (a <=? k) && (k <? b) then
           match nth_error (cidx m) k, nth_error (vals m) k with
           | Some j, Some v => Some (f j v)
           | _, _ => None
           end
         else nth_error (vals m) k).
  Proof.
    revert m a. induction fuel as [|fuel IH]; intros m a E H1 H2 Hf; [lia|].
    cbn [e_forward]. rewrite e_neb_at. destruct (Nat.eqb_spec a b) as [->|Hab]; cbn [negb].
    - exists m. repeat split; auto. intros k.
      destruct (Nat.leb_spec b k), (Nat.ltb_spec k b); try lia; reflexivity.
    - assert (Ha : a < length (cidx m)) by lia.
      destruct (nth_error (cidx m) a) as [j|] eqn:Ej; [|apply nth_error_None in Ej; lia].
      destruct (nth_error (vals m) a) as [v|] eqn:Ev; [|apply nth_error_None in Ev; lia].
      set (m1 := mkS (rnz m) (cidx m) (upd (vals m) a (f j v)) (csize m)).
      assert (Ec : change f m (e_star (at_position a)) tt = Ok (m1, tt)).
      { unfold change, l_column, l_value, l_assign, e_star, at_position.
        cbn [e_col e_val l_col l_val p_read p_write]. unfold vget, vset. rewrite Ej, Ev. cbn [bind].
        destruct (Nat.ltb_spec a (length (vals m))); [reflexivity|lia]. }
      rewrite Ec. cbn [bind fst snd].
      assert (El : length (vals m1) = length (vals m)) by (cbn; apply upd_length; lia).
      rewrite inc_at by (rewrite ?El; auto). cbn [bind].
      destruct (IH m1 (S a)) as (m' & E' & R1 & R2 & R3 & R4 & R5);
        [rewrite El; exact E|lia|exact H2|lia|].
      exists m'. rewrite E'. repeat split; try assumption; [lia|].
      intros k. rewrite R5. cbn [m1 cidx vals]. rewrite nth_error_upd by lia.
      destruct (Nat.leb_spec (S a) k), (Nat.ltb_spec k b), (Nat.leb_spec a k), (Nat.eqb_spec k a); cbn [andb];
        try lia; try reflexivity; try (destruct (Nat.eqb_spec a k); [lia|]; reflexivity).
      subst k. rewrite Ej, Ev. reflexivity.
  Qed.
End Loops.

Section Rows.
  Context {V : Type}.
  Implicit Types m : smat V.

  Lemma srepr_vals_length m rs : srepr m rs -> length (vals m) = length (cidx m).
  Proof. intros (_ & -> & ->). rewrite !map_length. reflexivity. Qed.

  Lemma row_bounds m rs i : srepr m rs -> i < length rs ->
    start rs i <= start rs (i + 1) /\ start rs (i + 1) <= length (cidx m).
  Proof.
    intros H Hi. pose proof (srepr_vrange_c _ _ _ H Hi) as R. unfold vrange in R.
    destruct (Nat.leb_spec (start rs i) (start rs (i + 1)));
      destruct (Nat.leb_spec (start rs (i + 1)) (length (cidx m))); cbn in R; try discriminate. auto.
  Qed.

  Lemma notes_elements m i r : swf m -> i < s_rows m -> w_new m i = Ok r ->
    row_notes false m r = w_elements m r /\
    row_notes_back false m r = (do l <- w_elements m r; Ok (rev l)).
  Proof.
    intros (rs & H & Hok) Hi Hr. rewrite (srepr_rows _ _ H) in Hi.
    rewrite (w_new_ok m rs i H Hi) in Hr. injection Hr as <-.
    destruct (row_bounds m rs i H Hi) as [B1 B2]. pose proof (srepr_vals_length m rs H) as E.
    assert (Ew : w_elements m (mkRow i (start rs i) (start rs (i + 1))) =
      Ok (combine (slice (cidx m) (start rs i) (start rs (i + 1))) (slice (vals m) (start rs i) (start rs (i + 1))))).
    { unfold w_elements, w_columns, w_values, vrange. cbn [w_begin w_end]. rewrite E.
      destruct (Nat.leb_spec (start rs i) (start rs (i + 1)));
        destruct (Nat.leb_spec (start rs (i + 1)) (length (cidx m))); try lia. reflexivity. }
    rewrite Ew. unfold row_notes, row_notes_back, w_first, w_last, span_begin, span_end.
    cbn [w_begin w_end andb bind]. fold (at_position (start rs i)). fold (at_position (start rs (i + 1))).
    rewrite forward_notes, backward_notes by lia. split; reflexivity.
  Qed.

  Lemma visits m i : swf m -> i < s_rows m ->
    exists r l, w_new m i = Ok r /\ row_notes false m r = Ok l /\ row_notes_back false m r = Ok (rev l) /\
      StronglySorted lt (map fst l) /\ (forall j v, In (j, v) l <-> stored m i j v).
  Proof.
    intros Hm Hi. destruct (row_view V true m i Hm Hi) as (r & l & Hr & _ & _ & He & Hs & Hin & _).
    exists r, l. destruct (notes_elements m i r Hm Hi Hr) as [-> ->]. rewrite He. auto.
  Qed.

  Fixpoint refill (rs : list (list (nat * V))) (vs : list V) : list (list (nat * V)) :=
    match rs with
    | [] => []
    | r :: rs => combine (map fst r) (firstn (length r) vs) :: refill rs (skipn (length r) vs)
    end.

  Lemma combine_fst {A B} (l : list A) (l' : list B) : length l = length l' -> map fst (combine l l') = l.
  Proof.
    revert l'. induction l as [|a l IH]; intros [|b l'] H; try discriminate; [reflexivity|].
    cbn. rewrite IH by (cbn in H; lia). reflexivity.
  Qed.

  Lemma combine_snd {A B} (l : list A) (l' : list B) : length l = length l' -> map snd (combine l l') = l'.
  Proof.
    revert l'. induction l as [|a l IH]; intros [|b l'] H; try discriminate; [reflexivity|].
    cbn. rewrite IH by (cbn in H; lia). reflexivity.
  Qed.

  Lemma refill_fst rs vs : length vs = length (concat rs) -> map (map fst) (refill rs vs) = map (map fst) rs.
  Proof.
    revert vs. induction rs as [|r rs IH]; intros vs H; [reflexivity|].
    cbn [concat] in H. rewrite app_length in H. cbn [refill map]. f_equal.
    - apply combine_fst. rewrite map_length, firstn_length. lia.
    - apply IH. rewrite skipn_length. lia.
  Qed.

  Lemma refill_snd rs vs : length vs = length (concat rs) -> map snd (concat (refill rs vs)) = vs.
  Proof.
    revert vs. induction rs as [|r rs IH]; intros vs H.
    - destruct vs; [reflexivity|discriminate].
    - cbn [concat] in H. rewrite app_length in H. cbn [refill concat]. rewrite map_app, IH by (rewrite skipn_length; lia).
      rewrite combine_snd by (rewrite map_length, firstn_length; lia). apply firstn_skipn.
  Qed.

  Lemma psum_lengths a (rs rs' : list (list (nat * V))) : map (map fst) rs = map (map fst) rs' -> psum a rs = psum a rs'.
  Proof.
    revert a rs'. induction rs as [|r rs IH]; intros a [|r' rs'] H; try discriminate; [reflexivity|].
    cbn in H. injection H as H1 H2. cbn [psum].
    assert (E : length r = length r') by (rewrite <- (map_length fst r), H1; apply map_length).
    rewrite E. f_equal. apply IH, H2.
  Qed.

  Lemma swf_values m (vs : list V) : swf m -> length vs = length (vals m) -> swf (mkS (rnz m) (cidx m) vs (csize m)).
  Proof.
    intros (rs & (H1 & H2 & H3) & Hok) Hl.
    assert (Hv : length vs = length (concat rs)) by (rewrite Hl, H3; apply map_length).
    pose proof (refill_fst rs vs Hv) as Ef.
    assert (En : length (refill rs vs) = length rs)
      by (rewrite <- (map_length (map fst)), Ef; apply map_length).
    exists (refill rs vs). split; [split; [|split]|]; cbn [rnz cidx vals csize].
    - destruct H1 as [H1|[H1 ->]]; [left|right; auto]. rewrite H1. symmetry. apply psum_lengths, Ef.
    - rewrite H2, !concat_map, Ef. reflexivity.
    - symmetry. apply refill_snd, Hv.
    - intros i Hi. rewrite En in Hi.
      assert (E : map fst (nth i (refill rs vs) []) = map fst (nth i rs [])).
      { rewrite <- (map_nth (map fst) (refill rs vs) []), Ef. apply (map_nth (map fst)). }
      destruct (Hok i Hi) as [S1 S2]. rewrite E. split; [exact S1|].
      exact S2.
  Qed.

  Lemma changes f m i : swf m -> i < s_rows m ->
    exists r m', w_new m i = Ok r /\ row_change false f m r = Ok m' /\ swf m' /\
      rnz m' = rnz m /\ cidx m' = cidx m /\ csize m' = csize m /\
      (forall a j w, stored m' a j w <->
         exists v, stored m a j v /\ w = if a =? i then f j v else v).
  Proof.
    intros Hm Hi0. pose proof Hm as (rs & H & Hok). pose proof Hi0 as Hi. rewrite (srepr_rows _ _ H) in Hi.
    destruct (row_bounds m rs i H Hi) as [B1 B2]. pose proof (srepr_vals_length m rs H) as E.
    destruct (forward_change f (start rs (i + 1)) (S (length (cidx m))) m (start rs i) E B1 B2)
      as (m' & E' & R1 & R2 & R3 & R4 & R5); [lia|].
    exists (mkRow i (start rs i) (start rs (i + 1))), m'. split; [apply w_new_ok; auto|].
    split; [|split; [|split; [exact R1|split; [exact R2|split; [exact R3|]]]]].
    - unfold row_change, w_first, w_last, span_begin, span_end. cbn [w_begin w_end andb bind].
      fold (at_position (start rs i)). fold (at_position (start rs (i + 1))). rewrite E'. reflexivity.
    - pose proof (swf_values m (vals m') Hm R4) as Hs. destruct m' as [a b c d]. cbn [rnz cidx vals csize] in *.
      subst. exact Hs.
    - intros a j w. unfold stored. assert (Er : s_rows m' = s_rows m) by (unfold s_rows; rewrite R1; reflexivity).
      rewrite Er, R1, R2.
      assert (Hpos : forall k, a < s_rows m -> nth a (rnz m) 0 <= k < nth (a + 1) (rnz m) 0 ->
        (start rs i <=? k) && (k <? start rs (i + 1)) = (a =? i)).
      { intros k Ha Hk. rewrite (srepr_rows _ _ H) in Ha.
        rewrite (srepr_nth m rs a a H Ha), (srepr_nth m rs a (a + 1) H Ha) in Hk by lia.
        destruct (Nat.eqb_spec a i) as [->|Hne].
        - destruct (Nat.leb_spec (start rs i) k), (Nat.ltb_spec k (start rs (i + 1))); try lia; reflexivity.
        - destruct (Nat.leb_spec (start rs i) k), (Nat.ltb_spec k (start rs (i + 1))); try reflexivity. exfalso.
          destruct (Nat.lt_total a i) as [L|[L|L]]; [|lia|].
          + pose proof (start_mono rs (a + 1) i). lia.
          + pose proof (start_mono rs (i + 1) a). lia. }
      split.
      + intros (Ha & k & Hk & Ej & Ew). rewrite R5, (Hpos k Ha Hk), Ej in Ew.
        destruct (nth_error (vals m) k) as [v|] eqn:Ev; [|destruct (a =? i); discriminate].
        exists v. split; [split; [exact Ha|exists k; auto]|]. destruct (a =? i); congruence.
      + intros (v & (Ha & k & Hk & Ej & Ev) & ->). split; [exact Ha|]. exists k. split; [exact Hk|].
        split; [exact Ej|]. rewrite R5, (Hpos k Ha Hk), Ej, Ev. destruct (a =? i); reflexivity.
  Qed.

  Lemma strict_end m i r : w_new m i = Ok r -> w_last true r = Undef /\ row_notes true m r = Undef.
  Proof.
    intros _. split; [reflexivity|]. unfold row_notes, w_first, span_begin, w_last, span_end.
    destruct (true && (w_end r <=? w_begin r)); reflexivity.
  Qed.
End Rows.

(** Steps. *)
Lemma steps V (m : smat V) x y : length (vals m) = length (cidx m) ->
  e_inc m x = Ok y -> e_dec y = Ok x /\ x <> y /\ e_neb x y = true /\
    e_inc_post m x = Ok (x, y) /\ e_dec_post y = Ok (y, x).
Proof.
  intros E H. unfold e_inc in H. destruct x as [[|a] [|b]]; cbn [e_col e_val p_inc bind] in H; try discriminate.
  - destruct (a <? length (cidx m)); discriminate.
  - destruct (a <? length (cidx m)) eqn:Ea, (b <? length (vals m)) eqn:Eb; try discriminate.
    cbn [bind] in H. injection H as <-. split; [reflexivity|]. split; [intros K; injection K; lia|].
    split.
    + unfold e_neb, e_eqb. cbn [e_col e_val p_eqb]. destruct (Nat.eqb_spec a (S a)); [lia|reflexivity].
    + unfold e_inc_post, e_dec_post, e_inc. cbn [e_col e_val p_inc]. rewrite Ea, Eb. split; reflexivity.
Qed.

Lemma steps_back V (m : smat V) x y k : k <= length (cidx m) -> length (vals m) = length (cidx m) ->
  x = at_position k -> e_dec x = Ok y -> e_inc m y = Ok x.
Proof.
  intros Hk E -> H. destruct k as [|k]; [discriminate|]. unfold e_dec, at_position in H.
  cbn [e_col e_val p_dec bind] in H. injection H as <-. apply (inc_at m k E). lia.
Qed.

Lemma equality (x y : eiter) :
  (e_eqb x y = true <-> x = y) /\ (e_neb x y = true <-> x <> y) /\
  l_eqb (e_star x) (e_star y) = e_eqb x y /\ l_neb (e_star x) (e_star y) = e_neb x y.
Proof.
  split; [apply e_eqb_eq|]. split; [|split; reflexivity].
  unfold e_neb. rewrite Bool.negb_true_iff. pose proof (e_eqb_eq x y) as K.
  destruct (e_eqb x y); split; intros; try discriminate; auto; [exfalso; apply H, K, eq_refl|].
  intros ->. destruct K as [_ K]. discriminate (K eq_refl).
Qed.

Lemma default_iterator V (m : smat V) :
  e_eqb e_default e_default = true /\ e_star e_default = l_default /\
  l_value m l_default = Undef /\ l_column m l_default = Undef /\
  (forall v, l_assign m l_default v = Undef) /\ e_inc m e_default = Undef /\ e_dec e_default = Undef.
Proof. repeat split. Qed.

(** An element holds two pointers; nothing requires them to be at one position. *)
Lemma reads V (m : smat V) (p q : nat) :
  (forall j, nth_error (cidx m) p = Some j -> l_column m (mkElement (At p) (At q)) = Ok j) /\
  (forall v, nth_error (vals m) q = Some v -> l_value m (mkElement (At p) (At q)) = Ok v) /\
  (length (cidx m) <= p -> l_column m (mkElement (At p) (At q)) = Undef) /\
  (length (vals m) <= q -> l_value m (mkElement (At p) (At q)) = Undef).
Proof.
  unfold l_column, l_value. cbn [l_col l_val p_read]. unfold vget.
  split; [intros j ->; reflexivity|]. split; [intros v ->; reflexivity|].
  split; intro H; apply nth_error_None in H; rewrite H; reflexivity.
Qed.

Lemma assign V (m : smat V) (c : ptr) k v : k < length (vals m) ->
  exists m', l_assign m (mkElement c (At k)) v = Ok m' /\ l_value m' (mkElement c (At k)) = Ok v /\
    l_column m' (mkElement c (At k)) = l_column m (mkElement c (At k)) /\
    (forall i, i <> k -> nth_error (vals m') i = nth_error (vals m) i) /\ length (vals m') = length (vals m) /\
    rnz m' = rnz m /\ cidx m' = cidx m /\ csize m' = csize m.
Proof.
  intros Hk. unfold l_assign, l_value, l_column. cbn [l_val l_col p_write p_read]. rewrite vset_lt by exact Hk. cbn [bind].
  eexists. split; [reflexivity|]. cbn [vals cidx rnz csize]. unfold vget.
  rewrite !nth_error_upd by exact Hk. rewrite Nat.eqb_refl. split; [reflexivity|]. split; [reflexivity|].
  split; [|split; [apply upd_length, Hk|auto]].
  intros i Hi. rewrite nth_error_upd by exact Hk. destruct (Nat.eqb_spec i k); [contradiction|reflexivity].
Qed.
