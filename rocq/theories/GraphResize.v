(** resize, C03 and C04. *)
From Verif Require Import Base ListFacts Csr GraphModel GraphSpec GraphFacts GraphInsert.

(** Row level counterpart of shrinking. *)
Definition cut (n : nat) (r : list nat) : list nat := filter (fun x => x <? n) r.
Definition shrink (n : nat) (rs : list (list nat)) : list (list nat) := map (cut n) (firstn n rs).

(** Rows with the first [i] already cut. *)
Definition mixed (n i : nat) (rs : list (list nat)) : list (list nat) :=
  map (cut n) (firstn i rs) ++ skipn i rs.

Lemma mixed_length n i rs : length (mixed n i rs) = length rs.
Proof. unfold mixed. rewrite app_length, map_length, firstn_length, skipn_length. lia. Qed.

Lemma nth_mixed n i rs k : k < length rs ->
  nth k (mixed n i rs) [] = if k <? i then cut n (nth k rs []) else nth k rs [].
Proof.
  intro Hk. apply nth_error_nth. unfold mixed.
  rewrite nth_error_app, map_length, firstn_length, nth_error_map', nth_error_firstn, nth_error_skipn.
  destruct (Nat.ltb_spec k (Nat.min i (length rs))), (Nat.ltb_spec k i); try lia.
  - rewrite (nth_error_nth_lt rs k []) by auto. reflexivity.
  - replace (i + (k - Nat.min i (length rs))) with k by lia. apply nth_error_nth_lt. auto.
Qed.

Lemma mixed_S n i rs : i < length rs ->
  mixed n (i + 1) rs = upd (mixed n i rs) i (cut n (nth i (mixed n i rs) [])).
Proof.
  intro Hi. apply rows_ext.
  - rewrite upd_length, !mixed_length; auto. rewrite mixed_length; auto.
  - rewrite mixed_length. intros k Hk. rewrite nth_upd by (rewrite mixed_length; auto).
    rewrite !nth_mixed by auto.
    destruct (Nat.eqb_spec k i), (Nat.ltb_spec k (i+1)), (Nat.ltb_spec k i), (Nat.ltb_spec i i);
      subst; try lia; reflexivity.
Qed.

Lemma start_mixed_le n i rs k : k <= length rs -> start (mixed n i rs) k <= start rs k.
Proof.
  induction k as [|k IH]; intro Hk; [rewrite !start_0; lia|].
  rewrite !start_S by (rewrite ?mixed_length; lia). rewrite nth_mixed by lia.
  specialize (IH ltac:(lia)).
  destruct (k <? i); [|lia]. unfold cut.
  pose proof (filter_length_le (fun x => x <? n) (nth k rs [])). lia.
Qed.

Lemma start_mixed_after n i rs k : i <= k -> k <= length rs ->
  start rs k - start (mixed n i rs) k = start rs i - start (mixed n i rs) i.
Proof.
  intros Hik Hk. induction k as [|k IH].
  - replace i with 0 by lia. reflexivity.
  - destruct (Nat.eq_dec i (S k)) as [->|]; auto.
    rewrite !start_S by (rewrite ?mixed_length; lia). rewrite nth_mixed by lia.
    destruct (Nat.ltb_spec k i); [lia|]. specialize (IH ltac:(lia) ltac:(lia)).
    pose proof (start_mixed_le n i rs k ltac:(lia)). lia.
Qed.

(** State at the head of iteration [i]. *)
Definition shrink_inv (n : nat) (rs : list (list nat)) (i : nat) (s : graph * nat) : Prop :=
  adj (fst s) = concat (mixed n i rs) /\
  length (off (fst s)) = S (length rs) /\
  (forall k, k <= length rs ->
     nth_error (off (fst s)) k =
     Some (if k <=? i + 1 then start (mixed n i rs) k else start rs k)) /\
  snd s = start rs i - start (mixed n i rs) i.

Lemma shrink_step n rs i s :
  (forall k, k < length rs -> ascending (nth k rs [])) ->
  i < length rs -> shrink_inv n rs i s ->
  (i + 1 < length rs ->
     exists s', forall strict, resize_step strict n i s = Ok s' /\ shrink_inv n rs (i + 1) s') /\
  (i + 1 = length rs ->
     resize_step true n i s = Undef /\
     exists s', resize_step false n i s = Ok s' /\ shrink_inv n rs (i + 1) s').
Proof.
  intros Hasc Hi (Ha & Hl & Ho & Hc). destruct s as [g carry]. cbn [fst snd] in *.
  pose proof (mixed_length n i rs) as Hml.
  set (ms := mixed n i rs) in *.
  assert (Hrow : nth i ms [] = nth i rs []).
  { unfold ms. rewrite nth_mixed by auto. destruct (Nat.ltb_spec i i); [lia|auto]. }
  destruct (adjacency_iter_ok g ms i Ha ltac:(lia)) as [E1 E2].
  { rewrite Ho by lia. destruct (Nat.leb_spec i (i+1)); [auto|lia]. }
  { rewrite Ho by lia. destruct (Nat.leb_spec (i+1) (i+1)); [auto|lia]. }
  (* the state before the last subtraction *)
  set (cur := length (nth i rs []) - length (cut n (nth i rs []))).
  assert (Hcut : firstn (lbound (nth i ms []) n) (nth i ms []) = cut n (nth i ms [])).
  { rewrite Hrow. apply firstn_lbound_filter, Hasc, Hi. }
  assert (Hlb : lbound (nth i ms []) n = length (cut n (nth i ms []))).
  { rewrite <- Hcut, firstn_length. pose proof (lbound_le (nth i ms []) n). lia. }
  assert (Hcl : length (cut n (nth i rs [])) <= length (nth i rs [])) by apply filter_length_le.
  assert (Hs1 : start ms (i + 1) = start ms i + length (nth i ms [])) by (apply start_S'; lia).
  assert (HsR : start rs (i + 1) = start rs i + length (nth i rs [])) by (apply start_S'; lia).
  assert (Hms : mixed n (i + 1) rs = upd ms i (cut n (nth i ms []))) by (apply mixed_S; auto).
  assert (Hst' : forall k, start (mixed n (i+1) rs) k =
             if k <=? i then start ms k else start ms k - cur).
  { intro k. rewrite Hms, start_upd by lia. rewrite Hrow. unfold cur.
    destruct (Nat.leb_spec k i); auto.
    assert (start ms (i + 1) <= start ms k) by (apply start_mono; lia). rewrite Hrow in Hs1. lia. }
  assert (Hmid : exists off1 adj1,
     (if start ms i + lbound (nth i ms []) n =? start ms (i + 1) then Ok (g, carry)
      else
        do adj' <- verase (adj g) (start ms i + lbound (nth i ms []) n) (start ms (i + 1));
        do off' <- vsub (off g) (i + 1) (start ms (i + 1) - (start ms i + lbound (nth i ms []) n));
        Ok (mkG adj' off', carry + (start ms (i + 1) - (start ms i + lbound (nth i ms []) n))))
     = Ok (mkG adj1 off1, carry + cur) /\
     adj1 = concat (mixed n (i + 1) rs) /\
     length off1 = S (length rs) /\
     forall k, k <= length rs -> nth_error off1 k =
       Some (if k <=? i + 1 then start (mixed n (i + 1) rs) k else start rs k)).
  { destruct (Nat.eqb_spec (start ms i + lbound (nth i ms []) n) (start ms (i + 1))) as [Eq|Ne].
    - assert (Hcur : cur = 0) by (unfold cur; rewrite <- Hrow; lia).
      exists (off g), (adj g). rewrite Hcur, Nat.add_0_r.
      split; [destruct g; reflexivity|]. split; [|split].
      + rewrite Hms, Ha. rewrite <- Hcut, firstn_all2 by lia.
        rewrite upd_id; auto. apply nth_error_nth_lt. lia.
      + auto.
      + intros k Hk. rewrite Ho by auto. rewrite Hst', Hcur, Nat.sub_0_r.
        destruct (k <=? i); destruct (k <=? i + 1); reflexivity.
    - assert (Hcur : start ms (i + 1) - (start ms i + lbound (nth i ms []) n) = cur).
      { unfold cur. rewrite <- Hrow. lia. }
      rewrite Hcur. rewrite Ha, Hs1, erase_row; try lia.
      2:{ rewrite Hlb, Hrow. auto. }
      cbn [bind]. unfold vsub, vget. rewrite Ho by lia.
      destruct (Nat.leb_spec (i+1) (i+1)); [|lia]. cbn [bind].
      assert (cur <= start ms (i+1)) by (unfold cur; rewrite <- Hrow; lia).
      destruct (Nat.leb_spec cur (start ms (i+1))); [|lia].
      rewrite vset_lt by lia. cbn [bind].
      eexists; eexists; split; [reflexivity|]. split; [|split].
      + rewrite Hcut, skipn_all2, app_nil_r by lia. rewrite Hms. reflexivity.
      + rewrite upd_length; lia.
      + intros k Hk. rewrite nth_error_upd by lia. rewrite Hst'.
        destruct (Nat.eqb_spec k (i+1)).
        * subst k. destruct (Nat.leb_spec (i+1) (i+1)), (Nat.leb_spec (i+1) i); try lia. reflexivity.
        * rewrite Ho by auto.
          destruct (Nat.leb_spec k (i+1)), (Nat.leb_spec k i); try lia; reflexivity. }
  destruct Hmid as (off1 & adj1 & Emid & Hadj1 & Hlo1 & Ho1).
  assert (Hunf : forall strict, resize_step strict n i (g, carry) =
     if i + 2 <? length off1
     then do off' <- vsub off1 (i + 2) (carry + cur); Ok (mkG adj1 off', carry + cur)
     else if strict then Undef else Ok (mkG adj1 off1, carry + cur)).
  { intro strict. unfold resize_step. rewrite E1. cbn [bind]. rewrite E2.
    rewrite Emid. cbn [bind adj off]. reflexivity. }
  assert (Hle : forall k, k <= length rs -> start (mixed n (i+1) rs) k <= start rs k)
    by (intros; apply start_mixed_le; auto).
  assert (Hcarry : carry + cur = start rs (i + 1) - start (mixed n (i + 1) rs) (i + 1)).
  { rewrite Hst'. destruct (Nat.leb_spec (i+1) i); [lia|].
    assert (start ms i <= start rs i) by (apply start_mixed_le; lia).
    rewrite Hs1, HsR, Hrow. unfold cur. lia. }
  split.
  - intro Hlt.
    pose proof (start_mixed_after n (i+1) rs (i+2) ltac:(lia) ltac:(lia)) as Haft.
    pose proof (Hle (i+2) ltac:(lia)).
    exists (mkG adj1 (upd off1 (i+2) (start (mixed n (i+1) rs) (i+2))), carry + cur).
    intro strict. split.
    + rewrite Hunf. destruct (Nat.ltb_spec (i+2) (length off1)); [|lia].
      unfold vsub, vget. rewrite Ho1 by lia.
      destruct (Nat.leb_spec (i+2) (i+1)); [lia|]. cbn [bind].
      destruct (Nat.leb_spec (carry+cur) (start rs (i+2))); [|lia].
      rewrite vset_lt by lia. cbn [bind].
      replace (start rs (i + 2) - (carry + cur)) with (start (mixed n (i+1) rs) (i+2)) by lia.
      reflexivity.
    + split; [|split; [|split]]; cbn [fst snd adj off]; auto.
      * rewrite upd_length; lia.
      * intros k Hk. rewrite nth_error_upd by lia.
        destruct (Nat.eqb_spec k (i+2)).
        -- subst k. destruct (Nat.leb_spec (i+2) (i+1+1)); [auto|lia].
        -- rewrite Ho1 by auto.
           destruct (Nat.leb_spec k (i+1)), (Nat.leb_spec k (i+1+1)); try lia; reflexivity.
  - intro Heq. split.
    + rewrite Hunf. destruct (Nat.ltb_spec (i+2) (length off1)); [lia|reflexivity].
    + eexists. split.
      * rewrite Hunf. destruct (Nat.ltb_spec (i+2) (length off1)); [lia|reflexivity].
      * split; [|split; [|split]]; cbn [fst snd adj off]; auto.
        intros k Hk. rewrite Ho1 by auto.
        destruct (Nat.leb_spec k (i+1)), (Nat.leb_spec k (i+1+1)); try lia; reflexivity.
Qed.

Lemma mixed_0 n rs : mixed n 0 rs = rs.
Proof. reflexivity. Qed.

Lemma mixed_all n rs : mixed n (length rs) rs = map (cut n) rs.
Proof. unfold mixed. rewrite firstn_all, skipn_all, app_nil_r. reflexivity. Qed.

Lemma resize_shrink_init d g rs n : repr g rs -> rows_ok d rs -> n <= length rs ->
  exists g1, repr g1 (firstn n rs) /\ size_vertex g1 = n /\ off g1 = psum 0 (firstn n rs) /\
    forall strict, resize strict g n = do s <- FOR n (resize_step strict n) (g1, 0); Ok (fst s).
Proof.
  intros H Hr Hn. unfold resize. rewrite (repr_size _ _ H).
  destruct (Nat.ltb_spec (length rs) n); [lia|].
  assert (Ho : vresize (off g) (n + 1) 0 = psum 0 (firstn n rs)).
  { apply psum_ext.
    - rewrite vresize_length, firstn_length. lia.
    - rewrite firstn_length. intros i Hi.
      rewrite nth_error_vresize, start_firstn by lia.
      destruct (Nat.ltb_spec i (n+1)); [|lia].
      destruct H as [[Ho Ha]|[-> ->]].
      + rewrite Ho, psum_length, nth_error_psum.
        destruct (Nat.ltb_spec i (S (length rs))), (Nat.leb_spec i (length rs)); try lia. reflexivity.
      + simpl in Hn. replace i with 0 by lia. reflexivity. }
  rewrite Ho.
  assert (Hb : vback (psum 0 (firstn n rs)) = Ok (start rs n)).
  { rewrite vback_Ok with (d := 0) by (destruct (firstn n rs); discriminate).
    f_equal. apply nth_error_nth. rewrite psum_length, nth_error_psum, firstn_length.
    destruct (Nat.leb_spec (S (Nat.min n (length rs)) - 1) (Nat.min n (length rs))); [|lia].
    rewrite start_firstn by lia. simpl. do 2 f_equal. lia. }
  rewrite Hb. cbn [bind].
  assert (Ha : vresize (adj g) (start rs n) 0 = concat (firstn n rs)).
  { unfold vresize. rewrite (repr_adj _ _ H). pose proof (start_le rs n).
    replace (start rs n - length (concat rs)) with 0 by lia. simpl. rewrite app_nil_r.
    apply firstn_start. }
  rewrite Ha. exists (mkG (concat (firstn n rs)) (psum 0 (firstn n rs))).
  assert (Hrep : repr (mkG (concat (firstn n rs)) (psum 0 (firstn n rs))) (firstn n rs)) by (left; auto).
  pose proof (repr_size _ _ Hrep) as Hs. rewrite firstn_length, Nat.min_l in Hs by lia.
  split; [|split; [|split]]; auto. intro strict. rewrite Hs. reflexivity.
Qed.

Lemma resize_shrink d g rs n : repr g rs -> rows_ok d rs -> n <= length rs ->
  (exists g', resize false g n = Ok g' /\ repr g' (shrink n rs)) /\
  (n = 0 -> exists g', resize true g n = Ok g' /\ repr g' (shrink n rs)) /\
  (0 < n -> resize true g n = Undef).
Proof.
  intros H Hr Hn. destruct (resize_shrink_init d g rs n H Hr Hn) as (g1 & Hg1 & Hs1 & Ho1 & Hres).
  assert (Hlf : length (firstn n rs) = n) by (rewrite firstn_length; lia).
  assert (Hasc : forall k, k < length (firstn n rs) -> ascending (nth k (firstn n rs) [])).
  { intros k Hk. rewrite Hlf in Hk.
    replace (nth k (firstn n rs) []) with (nth k rs []); [apply Hr; lia|].
    symmetry. apply nth_error_nth. rewrite nth_error_firstn.
    destruct (Nat.ltb_spec k n); [|lia]. apply nth_error_nth_lt. lia. }
  assert (Hinit : shrink_inv n (firstn n rs) 0 (g1, 0)).
  { split; [|split; [|split]]; cbn [fst snd].
    - rewrite mixed_0. apply repr_adj, Hg1.
    - rewrite Ho1. apply psum_length.
    - intros k Hk. rewrite Ho1, nth_error_psum, mixed_0. rewrite Hlf in *.
      destruct (Nat.leb_spec k n); [|lia]. destruct (k <=? 0+1); reflexivity.
    - rewrite !start_0. reflexivity. }
  assert (Hdone : forall s, shrink_inv n (firstn n rs) n s -> repr (fst s) (shrink n rs)).
  { intros s (Ha & Hl & Ho & _). left. unfold shrink. rewrite <- mixed_all, Hlf. split; auto.
    apply psum_ext.
    - rewrite mixed_length. auto.
    - rewrite mixed_length, Hlf in *. intros i Hi. rewrite Ho by auto.
      destruct (Nat.leb_spec i (n+1)); [reflexivity|lia]. }
  split; [|split].
  - destruct (FOR_inv (shrink_inv n (firstn n rs)) n (resize_step false n) (g1, 0) Hinit)
      as (s' & E & Hs').
    { intros i s Hi Hinv. destruct (shrink_step n (firstn n rs) i s Hasc ltac:(lia) Hinv) as [H1 H2].
      destruct (Nat.eq_dec (i + 1) n).
      - destruct H2 as (_ & s' & E & Hs'); [lia|]. eauto.
      - destruct H1 as (s' & Hs'); [lia|]. destruct (Hs' false). eauto. }
    exists (fst s'). rewrite Hres, E. split; [reflexivity|]. auto.
  - intros ->. exists g1. rewrite Hres. split; [reflexivity|].
    exact (Hdone (g1, 0) Hinit).
  - intro Hpos. rewrite Hres. replace n with ((n - 1) + 1) at 1 by lia. rewrite FOR_S.
    destruct (FOR_inv (shrink_inv n (firstn n rs)) (n-1) (resize_step true n) (g1, 0) Hinit)
      as (s' & E & Hs').
    { intros i s Hi Hinv. destruct (shrink_step n (firstn n rs) i s Hasc ltac:(lia) Hinv) as [H1 _].
      destruct H1 as (s' & Hs'); [lia|]. destruct (Hs' true). eauto. }
    rewrite E. cbn [bind].
    destruct (shrink_step n (firstn n rs) (n-1) s' Hasc ltac:(lia) Hs') as [_ H2].
    destruct H2 as [E2 _]; [lia|]. rewrite E2. reflexivity.
Qed.

Lemma shrink_length n rs : n <= length rs -> length (shrink n rs) = n.
Proof. intro H. unfold shrink. rewrite map_length, firstn_length. lia. Qed.

Lemma nth_shrink n rs i : i < n -> n <= length rs -> nth i (shrink n rs) [] = cut n (nth i rs []).
Proof.
  intros Hi Hn. unfold shrink. change (@nil nat) with (cut n []) at 1. rewrite map_nth. f_equal.
  apply nth_error_nth. rewrite nth_error_firstn. destruct (Nat.ltb_spec i n); [|lia].
  apply nth_error_nth_lt. lia.
Qed.

Lemma shrink_ok d n rs : rows_ok d rs -> n <= length rs -> rows_ok d (shrink n rs).
Proof.
  intros H Hn i Hi. rewrite shrink_length in * by auto. rewrite nth_shrink by auto.
  destruct (H i ltac:(lia)) as (Ha & Hb & Hs). unfold cut. split; [|split].
  - apply ascending_filter, Ha.
  - intros j Hj. apply filter_In in Hj as [Hj Hlt]. apply Nat.ltb_lt in Hlt.
    split; [auto|]. apply Hb, Hj.
  - intros Hd j Hj. apply filter_In in Hj as [Hj Hlt]. apply Nat.ltb_lt in Hlt.
    rewrite nth_shrink by auto. apply filter_In. split; auto. apply Nat.ltb_lt. auto.
Qed.

Lemma resize_spec d g n : well_formed d g ->
  exists g', resize false g n = Ok g' /\ well_formed d g' /\ size_vertex g' = n /\
    forall u v, edge g' u v <-> edge g u v /\ u < n /\ v < n.
Proof.
  intros (rs & H & Hr). destruct (Nat.lt_ge_cases (length rs) n) as [Hlt|Hge].
  - destruct (resize_grow false g rs n H Hlt) as (g' & E & Hg'). exists g'.
    split; [|split; [|split]]; auto.
    + exists (grow rs n). split; auto. apply rows_ok_grow, Hr.
    + rewrite (repr_size _ _ Hg'), grow_length. lia.
    + intros u v. rewrite (repr_edge _ _ u v Hg'), (repr_edge _ _ u v H), nth_grow.
      split; [|tauto]. intro Hin. split; auto.
      pose proof (In_nth_nil _ _ _ Hin) as Hu. destruct (Hr u Hu) as (_ & Hb & _).
      destruct (Hb v Hin). lia.
  - destruct (resize_shrink d g rs n H Hr Hge) as ((g' & E & Hg') & _). exists g'.
    split; [|split; [|split]]; auto.
    + exists (shrink n rs). split; auto. apply shrink_ok; auto.
    + rewrite (repr_size _ _ Hg'), shrink_length; auto.
    + intros u v. rewrite (repr_edge _ _ u v Hg'), (repr_edge _ _ u v H).
      destruct (Nat.lt_ge_cases u n) as [Hu|Hu].
      * rewrite nth_shrink by auto. unfold cut. rewrite filter_In, Nat.ltb_lt. tauto.
      * rewrite nth_overflow by (rewrite shrink_length; auto). simpl. lia.
Qed.

(** The stray subscript is reached exactly when 1 <= n <= size_vertex(). *)
Lemma resize_strict d g n : well_formed d g ->
  (0 < n <= size_vertex g -> resize true g n = Undef) /\
  (n = 0 \/ size_vertex g < n -> resize true g n = resize false g n).
Proof.
  intros (rs & H & Hr). rewrite (repr_size _ _ H). split.
  - intros Hn. apply (resize_shrink d g rs n H Hr); lia.
  - intros [->|Hn].
    + destruct (resize_shrink_init d g rs 0 H Hr ltac:(lia)) as (g1 & _ & _ & _ & E).
      rewrite !E. reflexivity.
    + unfold resize. rewrite (repr_size _ _ H). destruct (Nat.ltb_spec (length rs) n); [auto|lia].
Qed.
