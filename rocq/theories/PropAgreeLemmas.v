(** Sparse and dense arithmetic agree, C109. *)
From Coq Require Import Ring_theory Ring Sorted SpecFloat ZArith.
From Verif Require Import Base ListFacts Csr DenseModel DenseFacts DenseOps SparseModel SparseSpec SparseFacts SparseUpdate
  SparseInsert SparseSeq SparseArith SparseMul PropSparseLemmas PropDenseLemmas WalkModel PropWalkLemmas ScalarModel FloatFacts.

(** The dense matrix [d] has the shape of the sparse matrix [m] and its values up to [R], where the places of which
    nothing is stored are read as zero. *)
Definition alike {V} (R : V -> V -> Prop) (vzero : V) (m : smat V) (d : list (list V)) : Prop :=
  exists g, is_mat (s_rows m) (csize m) d g /\
    forall i j, i < s_rows m -> j < csize m ->
      (forall v, stored m i j v -> R v (g i j)) /\ ((forall v, ~ stored m i j v) -> R vzero (g i j)).

(** Vectors of the same length with the same values up to [R]. *)
Definition valike {V} (R : V -> V -> Prop) (x y : list V) : Prop :=
  length x = length y /\ forall i a b, nth_error x i = Some a -> nth_error y i = Some b -> R a b.

(** All elements satisfy [P]. *)
Definition entries {V} (P : V -> Prop) (d : list (list V)) : Prop :=
  forall i j row v, nth_error d i = Some row -> nth_error row j = Some v -> P v.

(** The same number: equal, or both a zero. *)
Definition same_number (x y : f64) : Prop := x = y \/ exists s t, x = S754_zero s /\ y = S754_zero t.

Lemma swf_scale {V} (m : smat V) f : swf m -> swf (s_scale m f).
Proof.
  intros (rs & (Hz & Hci & Hv) & Hok). exists (map (map (fun p => (fst p, f (snd p)))) rs). split; [split; [|split]|].
  - destruct Hz as [Hz|[Hz ->]]; [left|right; auto]. cbn [s_scale rnz]. rewrite Hz. symmetry. apply psum_map_map.
  - cbn [s_scale cidx]. rewrite Hci, <- concat_map, map_map. reflexivity.
  - cbn [s_scale vals]. rewrite Hv, <- concat_map, !map_map. reflexivity.
  - intros i Hi. rewrite nth_map_map, map_map. cbn [fst s_scale csize]. rewrite map_length in Hi. apply Hok, Hi.
Qed.

Section Agree.
  Context {V : Type}.
  Variables (R : V -> V -> Prop) (good : V -> Prop) (vzero : V) (vadd vsub vmul : V -> V -> V) (vopp : V -> V).
  Hypotheses (Rr : forall a, R a a) (Rs : forall a b, R a b -> R b a) (Rt : forall a b c, R a b -> R b c -> R a c).
  Hypotheses (Ha : forall a b c d, R a b -> R c d -> R (vadd a c) (vadd b d))
    (Hz : forall a, R (vadd a vzero) a) (Hl : forall a, R (vadd vzero a) a).

  Lemma fold_R l a b : R a b -> R (fold_left vadd l a) (fold_left vadd l b).
  Proof using Ha Rr. revert a b. induction l as [|x l IH]; intros a b H; cbn [fold_left]; [exact H|]. apply IH, Ha; [exact H|apply Rr]. Qed.

  Lemma sorted_snoc (es : list (nat * V)) n : StronglySorted lt (map fst es) ->
    (forall k v, In (k, v) es -> k < S n) ->
    (forall k v, In (k, v) es -> k < n) \/
    exists es' v, es = es' ++ [(n, v)] /\ StronglySorted lt (map fst es') /\ forall k v, In (k, v) es' -> k < n.
  Proof using.
    destruct es as [|e0 es0] using rev_ind; [left; intros k v []|]. clear IHes0. destruct e0 as [k0 v0].
    rewrite map_app. cbn [map fst]. intros Hs Hb.
    assert (Hlast : StronglySorted lt (map fst es0) /\ forall k, In k (map fst es0) -> k < k0).
    { clear Hb. induction (map fst es0) as [|a l IH]; [split; [constructor|intros k []]|].
      cbn [app] in Hs. inversion Hs as [|? ? Hs' Hf]; subst. destruct (IH Hs') as [I1 I2].
      rewrite Forall_app in Hf. destruct Hf as [Hf1 Hf2]. split; [constructor; auto|].
      intros k [<-|Hk]; [|auto]. inversion Hf2; auto. }
    destruct Hlast as [L1 L2].
    assert (k0 < S n) by (apply (Hb k0 v0), in_or_app; right; left; reflexivity).
    destruct (Nat.eq_dec k0 n) as [->|Hne].
    - right. exists es0, v0. split; [reflexivity|]. split; [exact L1|]. intros k v Hk. apply L2.
      apply (in_map fst) in Hk. exact Hk.
    - left. intros k v Hk. apply in_app_or in Hk as [Hk|[E|[]]].
      + apply (in_map fst) in Hk. apply L2 in Hk. cbn [fst] in Hk. lia.
      + injection E as <- <-. lia.
  Qed.

  (** Summing the terms that are there, in ascending order, is summing over all places. *)
  Lemma sorted_sum n (es : list (nat * V)) f : StronglySorted lt (map fst es) ->
    (forall k v, In (k, v) es -> k < n /\ R v (f k)) ->
    (forall k, k < n -> ~ In k (map fst es) -> R vzero (f k)) ->
    R (fold_left vadd (map snd es) vzero) (asum vzero vadd n f).
  Proof using Ha Hz Rr Rs Rt.
    revert es. induction n as [|n IH]; intros es Hs Hin Hout.
    - destruct es as [|[k v] es]; [apply Rr|]. destruct (Hin k v (or_introl eq_refl)) as [Hk _]. lia.
    - destruct (sorted_snoc es n Hs (fun k v H => proj1 (Hin k v H))) as [Hb|(es' & v & -> & Hs' & Hb)].
      + cbn [asum]. assert (Hn : ~ In n (map fst es)).
        { intro Hi. apply in_map_iff in Hi as ([k v] & E & Hi). cbn [fst] in E. subst k. apply Hb in Hi. lia. }
        apply Rt with (vadd (asum vzero vadd n f) vzero); [|apply Ha; [apply Rr|apply Hout; auto; lia]].
        apply Rt with (asum vzero vadd n f); [|apply Rs, Hz]. apply IH; [exact Hs| |intros k Hk; apply Hout; lia].
        intros k v Hk. split; [eapply Hb; eauto|apply (Hin k v Hk)].
      + cbn [asum]. rewrite map_app, fold_left_app. cbn [map snd fold_left]. apply Ha.
        * apply IH; [exact Hs'| |].
          -- intros k w Hk. split; [eapply Hb; eauto|]. apply (Hin k w). apply in_or_app. left; exact Hk.
          -- intros k Hk Hn. apply Hout; [lia|]. rewrite map_app, in_app_iff. cbn [map fst].
             intros [H|[H|[]]]; [exact (Hn H)|lia].
        * apply (Hin n v). apply in_or_app. right. left. reflexivity.
  Qed.

  (** Addition. *)
  Lemma agree_plus vo M dbg stray m o d e : swf m -> swf o -> s_rows m = s_rows o -> csize m = csize o ->
    alike R vzero m d -> alike R vzero o e ->
    exists m' d', s_plus vzero vadd vo M dbg stray m o = Ok m' /\ m_plus vzero vadd dbg (0, 0) (0, 0) d e = Ok d' /\
      swf m' /\ alike R vzero m' d'.
  Proof using Ha Hl Hz Rr Rs Rt.
    intros Hm Ho Er Ec (g & Hd & Hg) (h & He & Hh). rewrite <- Er, <- Ec in He, Hh.
    destruct (plus_ok vzero vadd vo M dbg stray m o Hm Ho Er Ec) as (m' & E & _ & Hw & Er' & Ec' & Hs).
    destruct (m_op_ok vzero dbg vadd (0, 0) (0, 0) _ _ d g e h Hd He (or_introl eq_refl) (or_introl eq_refl))
      as (d' & E' & Hd').
    exists m', d'. split; [exact E|]. split; [exact E'|]. split; [exact Hw|].
    exists (fun i j => vadd (g i j) (h i j)). rewrite Er', Ec'. split; [exact Hd'|].
    intros i j Hi Hj. destruct (Hg i j Hi Hj) as [G1 G2], (Hh i j Hi Hj) as [H1 H2]. split.
    - intros v Hv. apply Hs in Hv as [[Hv Hn]|[[Hv Hn]|(a & b & Hva & Hvb & ->)]].
      + apply Rt with (vadd v vzero); [apply Rs, Hz|]. apply Ha; auto.
      + apply Rt with (vadd vzero v); [apply Rs, Hl|]. apply Ha; auto.
      + apply Ha; auto.
    - intros Hn. apply Rt with (vadd vzero vzero); [apply Rs, Hz|].
      destruct (stored_dec m i j Hm) as [[a Sa]|Na], (stored_dec o i j Ho) as [[b Sb]|Nb].
      + exfalso. apply (Hn (vadd a b)), Hs. eauto 8.
      + exfalso. apply (Hn a), Hs. auto.
      + exfalso. apply (Hn b), Hs. auto.
      + apply Ha; auto.
  Qed.

  (** Subtraction. *)
  Lemma agree_minus M dbg stray m o d e :
    (forall a b, R (vsub a b) (vadd a (vopp b))) -> (forall a b, R a b -> R (vopp a) (vopp b)) ->
    R (vopp vzero) vzero ->
    swf m -> swf o -> s_rows m = s_rows o -> csize m = csize o -> alike R vzero m d -> alike R vzero o e ->
    exists m' d', s_minus vzero vadd vopp M dbg stray m o = Ok m' /\ m_minus vzero vsub dbg (0, 0) (0, 0) d e = Ok d' /\
      swf m' /\ alike R vzero m' d'.
  Proof using Ha Hl Hz Rr Rs Rt.
    intros Hsub Hopp Ho0 Hm Ho Er Ec (g & Hd & Hg) (h & He & Hh). rewrite <- Er, <- Ec in He, Hh.
    destruct (minus_ok vzero vadd vopp M dbg stray m o Hm Ho Er Ec) as (m' & E & _ & Hw & Er' & Ec' & Hs).
    destruct (m_op_ok vzero dbg vsub (0, 0) (0, 0) _ _ d g e h Hd He (or_introl eq_refl) (or_introl eq_refl))
      as (d' & E' & Hd').
    exists m', d'. split; [exact E|]. split; [exact E'|]. split; [exact Hw|].
    exists (fun i j => vsub (g i j) (h i j)). rewrite Er', Ec'. split; [exact Hd'|].
    intros i j Hi Hj. destruct (Hg i j Hi Hj) as [G1 G2], (Hh i j Hi Hj) as [H1 H2].
    assert (Hopp0 : (forall w, ~ stored o i j w) -> R vzero (vopp (h i j))).
    { intros Hn. apply Rt with (vopp vzero); [apply Rs, Ho0|apply Hopp; auto]. }
    split.
    - intros v Hv. refine (Rt _ _ _ _ (Rs _ _ (Hsub _ _))).
      apply Hs in Hv as [[Hv Hn]|[(b & Hv & Hn & ->)|(a & b & Hva & Hvb & ->)]].
      + apply Rt with (vadd v vzero); [apply Rs, Hz|]. apply Ha; auto.
      + apply Rt with (vadd vzero (vopp b)); [apply Rs, Hl|]. apply Ha; auto.
      + apply Ha; auto.
    - intros Hn. refine (Rt _ _ _ _ (Rs _ _ (Hsub _ _))). apply Rt with (vadd vzero vzero); [apply Rs, Hz|].
      destruct (stored_dec m i j Hm) as [[a Sa]|Na], (stored_dec o i j Ho) as [[b Sb]|Nb].
      + exfalso. apply (Hn (vadd a (vopp b))), Hs. eauto 8.
      + exfalso. apply (Hn a), Hs. auto.
      + exfalso. apply (Hn (vopp b)), Hs. eauto 6.
      + apply Ha; auto.
  Qed.

  Hypotheses (Hm : forall a b c d, R a b -> R c d -> R (vmul a c) (vmul b d))
    (Hm0 : forall a, good a -> R (vmul a vzero) vzero) (H0m : forall a, good a -> R (vmul vzero a) vzero).

  Lemma entries_at (P : V -> Prop) r c d g : is_mat r c d g -> entries P d -> forall i j, i < r -> j < c -> P (g i j).
  Proof using.
    intros [_ H] HP i j Hi Hj. destruct (H i Hi) as (row & E & _ & Hrow). exact (HP i j row (g i j) E (Hrow j Hj)).
  Qed.

  (** The matrix vector product. *)
  Lemma agree_vec dbg stray junk m d x y : swf m -> csize m = s_rows m -> alike R vzero m d ->
    valike R x y -> length x = csize m -> (forall v, In v y -> good v) ->
    exists u w, s_mat_vec vzero vadd vmul dbg stray m x = Ok u /\ m_vec vzero vadd vmul dbg junk 0 0 d y = Ok w /\
      length u = s_rows m /\ valike R u w.
  Proof using Ha Hz Hm H0m Rr Rs Rt.
    intros Hw Hsq (g & Hd & Hg) [El Hxy] Elx Hgood.
    assert (Hy : is_vec (csize m) y (fun i => nth i y vzero)).
    { split; [congruence|]. intros i Hi. apply nth_error_nth'. lia. }
    assert (HR : s_rows m = 0 -> csize m = 0) by lia.
    destruct (mat_vec_square vzero vadd vmul dbg junk 0 0 _ _ d g y _ Hd HR Hy (or_introl eq_refl)
                (or_introl eq_refl) (or_introl (eq_sym Hsq))) as (w & Ew & Hlw & Hvw).
    destruct (mat_vec_spec vzero vadd vmul dbg stray m x Hw Elx) as (u & Eu & Hlu & Hu).
    exists u, w. split; [exact Eu|]. split; [exact Ew|]. split; [exact Hlu|]. split; [congruence|].
    intros i a b Hua Hwb. assert (Hi : i < s_rows m) by (rewrite <- Hlu; eapply nth_error_lt_Some; eauto).
    rewrite Hvw in Hwb by auto. injection Hwb as <-. destruct (Hu i Hi) as (es & Hs & Hin & Eu').
    rewrite Hua in Eu'. injection Eu' as ->.
    set (ts := map (fun e => (fst e, vmul (snd e) (nth (fst e) x vzero))) es).
    assert (Ef : map fst ts = map fst es) by (unfold ts; rewrite map_map; reflexivity).
    assert (Eq : forall s, fold_left (fun s e => vadd s (vmul (snd e) (nth (fst e) x vzero))) es s =
                  fold_left vadd (map snd ts) s).
    { unfold ts. clear. induction es as [|e es IH]; intro s; cbn [fold_left map snd]; auto. }
    rewrite Eq. apply sorted_sum.
    - rewrite Ef. exact Hs.
    - intros k v Hk. unfold ts in Hk. apply in_map_iff in Hk as ([k' a] & Ek & Hk). cbn [fst snd] in Ek.
      injection Ek as <- <-. apply Hin in Hk. pose proof (stored_bounds _ _ _ _ Hw Hk) as [_ Hkc].
      split; [exact Hkc|]. apply Hm; [apply (Hg i k' Hi Hkc), Hk|].
      apply (Hxy k'); apply nth_error_nth'; lia.
    - intros k Hk Hn. rewrite Ef in Hn. apply Rs. eapply Rt.
      + apply Hm; [apply Rs|apply Rr]. apply (proj2 (Hg i k Hi Hk)). intros v Hv. apply Hn.
        apply in_map_iff. exists (k, v). split; [reflexivity|apply Hin, Hv].
      + apply H0m, Hgood, nth_In. lia.
  Qed.

  (** The matrix product. *)
  Lemma agree_times M dbg stray m o d e : swf m -> swf o -> csize m = s_rows o ->
    (s_rows m = 0 -> csize m = 0) -> (s_rows o = 0 -> csize o = 0) ->
    alike R vzero m d -> alike R vzero o e -> entries good d -> entries good e ->
    exists m' d', s_times vzero vadd vmul M dbg stray m o = Ok m' /\
      m_times vzero vadd vmul dbg (0, 0) (0, 0) d e = Ok d' /\ swf m' /\ alike R vzero m' d'.
  Proof using Ha Hl Hz Hm Hm0 H0m Rr Rs Rt.
    intros Hw Ho Ed Z1 Z2 (g & Hd & Hg) (h & He & Hh) Gd Ge. rewrite <- Ed in He, Hh.
    destruct (mul_spec vzero vadd vmul M dbg stray m o Hw Ho Ed) as (m' & E & Hw' & Er & Ec & Hs).
    destruct (m_times_ok vzero vadd vmul dbg (0, 0) (0, 0) _ _ _ d g e h Hd Z1 He ltac:(rewrite Ed; exact Z2)
                (or_introl eq_refl) (or_introl eq_refl) (or_introl eq_refl)) as (d' & E' & Hd').
    exists m', d'. split; [exact E|]. split; [exact E'|]. split; [exact Hw'|].
    eexists. rewrite Er, Ec. split; [exact Hd'|]. cbn beta. intros i j Hi Hj.
    destruct (Hs i j) as (ts & Hss & Hin & Hst).
    set (f := fun l => vmul (g i l) (h l j)).
    set (us := map (fun t => (fst t, vmul (fst (snd t)) (snd (snd t)))) ts).
    assert (Ef : map fst us = map fst ts) by (unfold us; rewrite map_map; reflexivity).
    assert (En : map snd us = map (fun t => vmul (fst (snd t)) (snd (snd t))) ts)
      by (unfold us; rewrite map_map; reflexivity).
    assert (Hsum : R (fold_left vadd (map snd us) vzero) (asum vzero vadd (csize m) f)).
    { apply sorted_sum.
      - rewrite Ef. exact Hss.
      - intros k v Hk. unfold us in Hk. apply in_map_iff in Hk as ([k' [a b]] & Ek & Hk). cbn [fst snd] in Ek.
        injection Ek as <- <-. apply Hin in Hk as [Sa Sb].
        pose proof (stored_bounds _ _ _ _ Hw Sa) as [_ Hk]. split; [exact Hk|].
        apply Hm; [apply (Hg i k' Hi Hk), Sa|apply (Hh k' j Hk Hj), Sb].
      - intros k Hk Hn. rewrite Ef in Hn. apply Rs. unfold f.
        destruct (stored_dec m i k Hw) as [[a Sa]|Na]; [destruct (stored_dec o k j Ho) as [[b Sb]|Nb]|].
        + exfalso. apply Hn, in_map_iff. exists (k, (a, b)). split; [reflexivity|apply Hin; auto].
        + eapply Rt; [apply Hm; [apply Rr|apply Rs, (proj2 (Hh k j Hk Hj)), Nb]|].
          apply Hm0. exact (entries_at good _ _ _ _ Hd Gd i k Hi Hk).
        + eapply Rt; [apply Hm; [apply Rs, (proj2 (Hg i k Hi Hk)), Na|apply Rr]|].
          apply H0m. exact (entries_at good _ _ _ _ He Ge k j Hk Hj). }
    split.
    - intros v Hv. apply Hst in Hv as (t & r & Et & ->). refine (Rt _ _ _ _ Hsum). rewrite En, Et.
      cbn [fold_left]. apply fold_R, Rs, Hl.
    - intros Hn. refine (Rt _ _ _ _ Hsum). rewrite En.
      destruct (map (fun t => vmul (fst (snd t)) (snd (snd t))) ts) as [|t r] eqn:Et; [apply Rr|].
      exfalso. apply (Hn (fold_left vadd r t)), Hst. eauto.
  Qed.

  (** Scaling. *)
  Lemma agree_scale m d s : swf m -> alike R vzero m d -> good s ->
    exists m' d', s_scale_by vmul m (Ext s) = Ok m' /\ m_times_scalar vmul s d = Ok d' /\ swf m' /\ alike R vzero m' d'.
  Proof using Hm H0m Rr Rs Rt.
    intros Hw (g & Hd & Hg) Hs.
    destruct (scale_ext vmul m s Hw) as (m' & E & Hst).
    destruct (m_scale_ext vmul _ _ d g s Hd) as (d' & E' & Hd').
    exists m', d'. split; [exact E|]. split; [exact E'|].
    assert (Em : m' = s_scale m (fun w => vmul w s)).
    { unfold s_scale_by in E.
      destruct (v_scale_ext vmul (length (vals m)) (vals m) (fun i => nth i (vals m) s) s) as (u & Eu & Hlu & Hu).
      { split; [reflexivity|]. intros i Hi. apply nth_error_nth'. auto. }
      rewrite Eu in E. cbn [bind] in E. injection E as <-. unfold s_scale. f_equal.
      apply nth_error_ext. intro k. rewrite nth_error_map. destruct (Nat.lt_ge_cases k (length (vals m))) as [Hk|Hk].
      - rewrite Hu, (nth_error_nth' _ s Hk) by auto. reflexivity.
      - rewrite (proj2 (nth_error_None _ _) Hk). cbn. apply nth_error_None. lia. }
    subst m'. split; [apply swf_scale, Hw|].
    - exists (fun i j => vmul (g i j) s). split; [exact Hd'|]. intros i j Hi Hj.
      change (i < s_rows m) in Hi. cbn [csize] in Hj. destruct (Hg i j Hi Hj) as [G1 G2]. split.
      + intros v Hv. apply Hst in Hv as (w & Hv & ->). apply Hm; auto.
      + intros Hn. apply Rs. eapply Rt; [apply Hm; [apply Rs, G2|apply Rr]|apply H0m, Hs].
        intros w Hv. apply (Hn (vmul w s)), Hst. eauto.
  Qed.
End Agree.

(** Exact arithmetic. *)
Lemma agree_exact {V} (vzero vone : V) vadd vmul M dbg stray : semi_ring_theory vzero vone vadd vmul eq ->
  (forall vopp (m o : smat V) d e, swf m -> swf o -> s_rows m = s_rows o -> csize m = csize o ->
     alike eq vzero m d -> alike eq vzero o e ->
     exists m' d', s_plus vzero vadd vopp M dbg stray m o = Ok m' /\ m_plus vzero vadd dbg (0, 0) (0, 0) d e = Ok d' /\
       swf m' /\ alike eq vzero m' d') /\
  (forall (m o : smat V) d e, swf m -> swf o -> csize m = s_rows o ->
     (s_rows m = 0 -> csize m = 0) -> (s_rows o = 0 -> csize o = 0) -> alike eq vzero m d -> alike eq vzero o e ->
     exists m' d', s_times vzero vadd vmul M dbg stray m o = Ok m' /\
       m_times vzero vadd vmul dbg (0, 0) (0, 0) d e = Ok d' /\ swf m' /\ alike eq vzero m' d') /\
  (forall junk (m : smat V) d x, swf m -> csize m = s_rows m -> length x = csize m -> alike eq vzero m d ->
     exists y, s_mat_vec vzero vadd vmul dbg stray m x = Ok y /\ m_vec vzero vadd vmul dbg junk 0 0 d x = Ok y) /\
  (forall (m : smat V) d s, swf m -> alike eq vzero m d ->
     exists m' d', s_scale_by vmul m (Ext s) = Ok m' /\ m_times_scalar vmul s d = Ok d' /\ swf m' /\ alike eq vzero m' d').
Proof.
  intros SR.
  assert (Hz : forall a, vadd a vzero = a) by (intro a; rewrite (SRadd_comm SR); apply (SRadd_0_l SR)).
  assert (H0 : forall a, vmul vzero a = vzero) by apply (SRmul_0_l SR).
  assert (H1 : forall a, vmul a vzero = vzero) by (intro a; rewrite (SRmul_comm SR); apply H0).
  assert (Ha : forall f : V -> V -> V, forall a b c d : V, a = b -> c = d -> f a c = f b d) by (intros; congruence).
  split; [|split; [|split]].
  - intros vopp m o d e. apply (agree_plus eq vzero vadd); auto; [intros; congruence|apply (SRadd_0_l SR)].
  - intros m o d e Hm Ho E Z1 Z2 Hd He.
    apply (agree_times eq (fun _ => True) vzero vadd vmul); auto; try (intros; congruence); try apply (SRadd_0_l SR);
      intros ? ? ? ? _ _; exact I.
  - intros junk m d x Hm Hsq Hl Hd.
    destruct (agree_vec eq (fun _ => True) vzero vadd vmul) with (dbg := dbg) (stray := stray) (junk := junk) (m := m) (d := d)
      (x := x) (y := x) as (u & w & Eu & Ew & _ & Hlw & Huw); auto; try (intros; congruence).
    { split; [reflexivity|]. intros; congruence. }
    exists u. split; [exact Eu|]. rewrite Ew. f_equal. symmetry. apply nth_error_ext. intro i.
    destruct (Nat.lt_ge_cases i (length u)) as [Hi|Hi].
    + destruct (nth_error u i) as [a|] eqn:Ea; [|apply nth_error_None in Ea; lia].
      destruct (nth_error w i) as [b|] eqn:Eb; [|apply nth_error_None in Eb; lia]. f_equal. eauto.
    + rewrite !(proj2 (nth_error_None _ _)) by lia. reflexivity.
  - intros m d s Hm Hd. apply (agree_scale eq (fun _ => True) vzero vmul); auto; intros; congruence.
Qed.

Lemma agree_exact_minus {V} (vzero vone : V) vadd vmul vsub vopp M dbg stray (m o : smat V) d e :
  ring_theory vzero vone vadd vmul vsub vopp eq ->
  swf m -> swf o -> s_rows m = s_rows o -> csize m = csize o -> alike eq vzero m d -> alike eq vzero o e ->
  exists m' d', s_minus vzero vadd vopp M dbg stray m o = Ok m' /\ m_minus vzero vsub dbg (0, 0) (0, 0) d e = Ok d' /\
    swf m' /\ alike eq vzero m' d'.
Proof.
  intros RT. assert (Hz : forall a, vadd a vzero = a) by (intro a; rewrite (Radd_comm RT); apply (Radd_0_l RT)).
  apply (agree_minus eq vzero vadd vsub vopp); auto; try (intros; congruence).
  - apply (Radd_0_l RT).
  - apply (Rsub_def RT).
  - rewrite <- (Radd_0_l RT (vopp vzero)). apply (Ropp_def RT).
Qed.

(** Double precision. *)
Lemma same_refl a : same_number a a. Proof. left; reflexivity. Qed.

Lemma same_sym a b : same_number a b -> same_number b a.
Proof. intros [->|(s & t & -> & ->)]; [left; reflexivity|right; eauto]. Qed.

Lemma same_trans a b c : same_number a b -> same_number b c -> same_number a c.
Proof.
  intros [->|(s & t & -> & ->)] [<-|(s' & t' & E & ->)]; try (left; reflexivity); right; eauto.
Qed.

Lemma same_zero s t : same_number (S754_zero s) (S754_zero t).
Proof. right; eauto. Qed.

Lemma same_add a b c d : same_number a b -> same_number c d -> same_number (SFadd 53 1024 a c) (SFadd 53 1024 b d).
Proof.
  intros [<-|(s & t & -> & ->)] [<-|(s' & t' & -> & ->)]; [left; reflexivity|..].
  - destruct a as [sa|sa| |sa ma ea]; cbn [SFadd]; try (left; reflexivity).
    destruct (Bool.eqb sa s'), (Bool.eqb sa t'); apply same_zero.
  - destruct c as [sa|sa| |sa ma ea]; cbn [SFadd]; try (left; reflexivity).
    destruct (Bool.eqb s sa), (Bool.eqb t sa); apply same_zero.
  - cbn [SFadd]. destruct (Bool.eqb s s'), (Bool.eqb t t'); apply same_zero.
Qed.

Lemma same_add_zero_r a : same_number (SFadd 53 1024 a (S754_zero false)) a.
Proof.
  destruct a as [sa|sa| |sa ma ea]; cbn [SFadd]; try (left; reflexivity). destruct (Bool.eqb sa false); apply same_zero.
Qed.

Lemma same_add_zero_l a : same_number (SFadd 53 1024 (S754_zero false) a) a.
Proof.
  destruct a as [sa|sa| |sa ma ea]; cbn [SFadd]; try (left; reflexivity). destruct (Bool.eqb false sa); apply same_zero.
Qed.

Lemma same_mul a b c d : same_number a b -> same_number c d -> same_number (SFmul 53 1024 a c) (SFmul 53 1024 b d).
Proof.
  intros [<-|(s & t & -> & ->)] [<-|(s' & t' & -> & ->)]; [left; reflexivity|..].
  - destruct a as [sa|sa| |sa ma ea]; cbn [SFmul]; try (left; reflexivity); apply same_zero.
  - destruct c as [sa|sa| |sa ma ea]; cbn [SFmul]; try (left; reflexivity); apply same_zero.
  - cbn [SFmul]. apply same_zero.
Qed.

Lemma same_mul_zero_r a : f_finite a = true -> same_number (SFmul 53 1024 a (S754_zero false)) (S754_zero false).
Proof. destruct a as [sa|sa| |sa ma ea]; cbn [SFmul f_finite]; intro H; try discriminate; apply same_zero. Qed.

Lemma same_mul_zero_l a : f_finite a = true -> same_number (SFmul 53 1024 (S754_zero false) a) (S754_zero false).
Proof. destruct a as [sa|sa| |sa ma ea]; cbn [SFmul f_finite]; intro H; try discriminate; apply same_zero. Qed.

Lemma same_sub a b : same_number (SFsub 53 1024 a b) (SFadd 53 1024 a (SFopp b)).
Proof.
  destruct a as [sa|sa| |sa ma ea], b as [sb|sb| |sb mb eb]; cbn [SFsub SFadd SFopp]; try (left; reflexivity).
  left. f_equal. destruct sb; reflexivity.
Qed.

Lemma same_opp a b : same_number a b -> same_number (SFopp a) (SFopp b).
Proof. intros [<-|(s & t & -> & ->)]; [left; reflexivity|apply same_zero]. Qed.

Notation fz := (S754_zero false).
Notation fa := (SFadd 53 1024).
Notation fm := (SFmul 53 1024).

Lemma agree_double M dbg stray :
  (forall vopp (m o : smat f64) d e, swf m -> swf o -> s_rows m = s_rows o -> csize m = csize o ->
     alike same_number fz m d -> alike same_number fz o e ->
     exists m' d', s_plus fz fa vopp M dbg stray m o = Ok m' /\ m_plus fz fa dbg (0, 0) (0, 0) d e = Ok d' /\
       swf m' /\ alike same_number fz m' d') /\
  (forall (m o : smat f64) d e, swf m -> swf o -> s_rows m = s_rows o -> csize m = csize o ->
     alike same_number fz m d -> alike same_number fz o e ->
     exists m' d', s_minus fz fa SFopp M dbg stray m o = Ok m' /\
       m_minus fz (SFsub 53 1024) dbg (0, 0) (0, 0) d e = Ok d' /\ swf m' /\ alike same_number fz m' d') /\
  (forall (m o : smat f64) d e, swf m -> swf o -> csize m = s_rows o ->
     (s_rows m = 0 -> csize m = 0) -> (s_rows o = 0 -> csize o = 0) ->
     alike same_number fz m d -> alike same_number fz o e ->
     entries (fun v => f_finite v = true) d -> entries (fun v => f_finite v = true) e ->
     exists m' d', s_times fz fa fm M dbg stray m o = Ok m' /\
       m_times fz fa fm dbg (0, 0) (0, 0) d e = Ok d' /\ swf m' /\ alike same_number fz m' d') /\
  (forall junk (m : smat f64) d x y, swf m -> csize m = s_rows m -> length x = csize m ->
     alike same_number fz m d -> valike same_number x y -> (forall v, In v y -> f_finite v = true) ->
     exists u w, s_mat_vec fz fa fm dbg stray m x = Ok u /\ m_vec fz fa fm dbg junk 0 0 d y = Ok w /\
       length u = s_rows m /\ valike same_number u w) /\
  (forall (m : smat f64) d s, swf m -> alike same_number fz m d -> f_finite s = true ->
     exists m' d', s_scale_by fm m (Ext s) = Ok m' /\ m_times_scalar fm s d = Ok d' /\ swf m' /\
       alike same_number fz m' d').
Proof.
  pose proof same_refl as Q1. pose proof same_sym as Q2. pose proof same_trans as Q3. pose proof same_add as Q4.
  pose proof same_add_zero_r as Q5. pose proof same_add_zero_l as Q6. pose proof same_mul as Q7.
  pose proof same_mul_zero_r as Q8. pose proof same_mul_zero_l as Q9.
  split; [|split; [|split; [|split]]].
  - intros vopp m o d e. exact (agree_plus same_number fz fa Q1 Q2 Q3 Q4 Q5 Q6 vopp M dbg stray m o d e).
  - intros m o d e. exact (agree_minus same_number fz fa (SFsub 53 1024) SFopp Q1 Q2 Q3 Q4 Q5 Q6 M dbg stray m o d e
                             same_sub same_opp (same_zero _ _)).
  - intros m o d e. exact (agree_times same_number (fun v => f_finite v = true) fz fa fm Q1 Q2 Q3 Q4 Q5 Q6 Q7 Q8 Q9
                             M dbg stray m o d e).
  - intros junk m d x y Hm Hsq Hl Hd Hv Hf.
    exact (agree_vec same_number (fun v => f_finite v = true) fz fa fm Q1 Q2 Q3 Q4 Q5 Q7 Q9 dbg stray junk m d x y
             Hm Hsq Hd Hv Hl Hf).
  - intros m d s. exact (agree_scale same_number (fun v => f_finite v = true) fz fm Q1 Q2 Q3 Q7 Q9 m d s).
Qed.

(** Every matrix has a dense form. *)
Lemma alike_exists {V} (vzero : V) (m : smat V) : swf m -> exists d, alike eq vzero m d.
Proof.
  intros (rs & H & Hok). assert (Hw : swf m) by (exists rs; auto).
  set (look := fun i j => match find (fun p => fst p =? j) (nth i rs []) with Some p => snd p | None => vzero end).
  exists (map (fun i => map (look i) (seq 0 (csize m))) (seq 0 (s_rows m))), look. split.
  - split; [rewrite map_length, seq_length; reflexivity|]. intros i Hi. eexists. split.
    + rewrite nth_error_map, (nth_error_nth' _ 0) by (rewrite seq_length; auto). rewrite seq_nth by auto. reflexivity.
    + split; [rewrite map_length, seq_length; reflexivity|]. intros j Hj.
      rewrite nth_error_map, (nth_error_nth' _ 0) by (rewrite seq_length; auto). rewrite seq_nth by auto. reflexivity.
  - intros i j Hi _. rewrite (srepr_rows _ _ H) in Hi. unfold look.
    destruct (find (fun p => fst p =? j) (nth i rs [])) as [[k w]|] eqn:Ef.
    + apply find_some in Ef as [Hin Hk]. cbn [fst snd] in *. apply Nat.eqb_eq in Hk. subst k. split.
      * intros v Hv. apply (stored_unique m i j v w Hw Hv). apply (srepr_stored _ _ _ _ _ H), Hin.
      * intros Hn. exfalso. apply (Hn w), (srepr_stored _ _ _ _ _ H), Hin.
    + split; [|reflexivity]. intros v Hv. apply (srepr_stored _ _ _ _ _ H) in Hv.
      apply (find_none _ _ Ef) in Hv. cbn [fst] in Hv. rewrite Nat.eqb_refl in Hv. discriminate.
Qed.

(** Zeros of different sign. *)
Lemma zero_sign : exists (m o : smat f64) d e m',
  swf m /\ swf o /\ alike eq fz m d /\ alike eq fz o e /\
  (forall M dbg stray, s_plus fz fa SFopp M dbg stray m o = Ok m') /\ stored m' 0 0 (S754_zero true) /\
  forall dbg, m_plus fz fa dbg (0, 0) (0, 0) d e = Ok [[S754_zero false]].
Proof.
  exists (mkS [0; 1] [0] [S754_zero true] 1), (mkS [0; 0] [] [] 1), [[S754_zero true]], [[S754_zero false]],
    (mkS [0; 1] [0] [S754_zero true] 1).
  assert (W1 : swf (mkS [0; 1] [0] [S754_zero true] 1)).
  { exists [[(0, S754_zero true)]]. split; [split; [left|split]; reflexivity|]. intros [|i] Hi; cbn in Hi; [|lia].
    split; [constructor; constructor|]. intros k [<-|[]]. cbn. lia. }
  assert (W2 : swf (mkS [0; 0] [] ([] : list f64) 1)).
  { exists [[]]. split; [split; [left|split]; reflexivity|]. intros [|i] Hi; cbn in Hi; [|lia].
    split; [constructor|]. intros k []. }
  assert (S1 : stored (mkS [0; 1] [0] [S754_zero true] 1) 0 0 (S754_zero true)).
  { split; [cbn; lia|]. exists 0. cbn. repeat split; auto. }
  split; [exact W1|]. split; [exact W2|]. split; [|split; [|split; [|split; [exact S1|]]]].
  - exists (fun _ _ => S754_zero true). split.
    + split; [reflexivity|]. intros [|i] Hi; cbn in Hi; [|lia]. eexists. split; [reflexivity|].
      split; [reflexivity|]. intros [|j] Hj; cbn in Hj; [reflexivity|lia].
    + intros [|i] [|j] Hi Hj; cbn in Hi, Hj; try lia. split.
      * intros v (_ & k & Hk & _ & Hv). cbn in Hk, Hv. assert (k = 0) as -> by lia. cbn in Hv. congruence.
      * intros Hn. exfalso. exact (Hn _ S1).
  - exists (fun _ _ => S754_zero false). split.
    + split; [reflexivity|]. intros [|i] Hi; cbn in Hi; [|lia]. eexists. split; [reflexivity|].
      split; [reflexivity|]. intros [|j] Hj; cbn in Hj; [reflexivity|lia].
    + intros i j Hi Hj. split; [|reflexivity]. intros v (_ & k & _ & _ & Hv). cbn in Hv. destruct k; discriminate.
  - intros M dbg stray. destruct dbg; reflexivity.
  - intros dbg. destruct dbg; reflexivity.
Qed.

(** An infinite component of the vector: the dense product multiplies it by the zeros. *)
Lemma infinite_vec : exists (m : smat f64) d x,
  swf m /\ csize m = s_rows m /\ length x = csize m /\ alike eq fz m d /\
  (forall dbg stray, s_mat_vec fz fa fm dbg stray m x = Ok [S754_zero false; S754_infinity false]) /\
  forall dbg junk, m_vec fz fa fm dbg junk 0 0 d x = Ok [S754_nan; S754_nan].
Proof.
  exists (mkS [0; 0; 1] [1] [f_of_Z 1] 2), [[fz; fz]; [fz; f_of_Z 1]], [S754_infinity false; S754_infinity false].
  assert (S1 : stored (mkS [0; 0; 1] [1] [f_of_Z 1] 2) 1 1 (f_of_Z 1)).
  { split; [cbn; lia|]. exists 0. split; [cbn; lia|]. split; reflexivity. }
  split; [|split; [reflexivity|split; [reflexivity|split; [|split]]]].
  - exists [[]; [(1, f_of_Z 1)]]. split; [split; [left|split]; reflexivity|].
    intros [|[|i]] Hi; cbn in Hi; try lia; (split; [repeat constructor|]); intros k Hk; cbn in Hk; [tauto|].
    destruct Hk as [<-|[]]. cbn. lia.
  - exists (fun i j => if (i =? 1) && (j =? 1) then f_of_Z 1 else fz). split.
    + split; [reflexivity|]. intros [|[|i]] Hi; cbn in Hi; try lia; eexists; (split; [reflexivity|]);
        (split; [reflexivity|]); intros [|[|j]] Hj; cbn in Hj; try lia; reflexivity.
    + intros i j Hi Hj. split.
      * intros v (_ & k & Hk & Hc & Hv). destruct k as [|k]; [|destruct k; discriminate Hv].
        cbn [cidx nth_error] in Hc. injection Hc as <-. cbn [vals nth_error] in Hv. injection Hv as <-.
        destruct i as [|[|i]]; cbn in Hk, Hi; try lia. reflexivity.
      * intros Hn. destruct (Nat.eqb_spec i 1) as [->|]; [|reflexivity].
        destruct (Nat.eqb_spec j 1) as [->|]; [|reflexivity]. exfalso. exact (Hn _ S1).
  - intros dbg stray. destruct dbg; vm_compute; reflexivity.
  - intros dbg junk. destruct dbg; vm_compute; reflexivity.
Qed.

(** The matrices of the examples. *)
Lemma ex_alike : alike eq 0%Z ex_mat [[1; 0; 2]; [0; 3; 0]; [4; 0; 0]]%Z.
Proof.
  exists (fun i j => nth j (nth i [[1; 0; 2]; [0; 3; 0]; [4; 0; 0]]%Z []) 0%Z). split.
  - split; [reflexivity|]. intros [|[|[|i]]] Hi; cbn in Hi; try lia; eexists; (split; [reflexivity|]);
      (split; [reflexivity|]); intros [|[|[|j]]] Hj; cbn in Hj; try lia; reflexivity.
  - intros i j Hi Hj. split.
    + intros v (_ & k & Hk & Hc & Hv). destruct i as [|[|[|i]]]; cbn in Hi; try lia; cbn in Hk;
        destruct k as [|[|[|[|k]]]]; try lia; cbn in Hc, Hv; injection Hc as <-; injection Hv as <-; reflexivity.
    + intros Hn. destruct i as [|[|[|i]]]; cbn in Hi; try lia; destruct j as [|[|[|j]]]; cbn in Hj; try lia; try reflexivity;
        exfalso.
      * apply (Hn 1%Z). split; [cbn; lia|]. exists 0. cbn. repeat split; auto; lia.
      * apply (Hn 2%Z). split; [cbn; lia|]. exists 1. cbn. repeat split; auto; lia.
      * apply (Hn 3%Z). split; [cbn; lia|]. exists 2. cbn. repeat split; auto; lia.
      * apply (Hn 4%Z). split; [cbn; lia|]. exists 3. cbn. repeat split; auto; lia.
Qed.

Lemma ex_double :
  let m := mkS [0; 2; 3] [0; 1; 1] [f_of_Z 1; f_of_Z (-2); f_of_Z 3] 2 in
  let d := [[f_of_Z 1; f_of_Z (-2)]; [fz; f_of_Z 3]] in
  swf m /\ alike same_number fz m d /\ entries (fun v => f_finite v = true) d /\
  s_times fz fa fm 100 true None m m = Ok (mkS [0; 2; 3] [0; 1; 1] [f_of_Z 1; f_of_Z (-8); f_of_Z 9] 2) /\
  m_times fz fa fm true (0, 0) (0, 0) d d = Ok [[f_of_Z 1; f_of_Z (-8)]; [fz; f_of_Z 9]].
Proof.
  intros m d. split; [|split; [|split; [|split]]].
  - exists [[(0, f_of_Z 1); (1, f_of_Z (-2))]; [(1, f_of_Z 3)]]. split; [split; [left|split]; reflexivity|].
    intros [|[|i]] Hi; cbn in Hi; try lia; (split; [repeat constructor|]); intros k Hk; cbn in Hk; cbn; lia.
  - exists (fun i j => nth j (nth i d []) fz). split.
    + split; [reflexivity|]. intros [|[|i]] Hi; cbn in Hi; try lia; eexists; (split; [reflexivity|]);
        (split; [reflexivity|]); intros [|[|j]] Hj; cbn in Hj; try lia; reflexivity.
    + intros i j Hi Hj. split.
      * intros v (_ & k & Hk & Hc & Hv). left. destruct i as [|[|i]]; cbn in Hi; try lia; cbn in Hk;
          destruct k as [|[|[|k]]]; try lia; cbn in Hc, Hv; injection Hc as <-; injection Hv as <-; reflexivity.
      * intros Hn. left. destruct i as [|[|i]]; cbn in Hi; try lia; destruct j as [|[|j]]; cbn in Hj; try lia; try reflexivity;
          exfalso.
        -- apply (Hn (f_of_Z 1)). split; [cbn; lia|]. exists 0. cbn. repeat split; auto; lia.
        -- apply (Hn (f_of_Z (-2))). split; [cbn; lia|]. exists 1. cbn. repeat split; auto; lia.
        -- apply (Hn (f_of_Z 3)). split; [cbn; lia|]. exists 2. cbn. repeat split; auto; lia.
  - intros [|[|[|i]]] [|[|[|j]]] row v Hr Hv; cbn in Hr; try discriminate; injection Hr as <-; cbn in Hv;
      try discriminate; injection Hv as <-; reflexivity.
  - vm_compute. reflexivity.
  - vm_compute. reflexivity.
Qed.
