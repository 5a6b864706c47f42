(** Laws of matrix algebra for the sparse operators over a commutative semi ring, C96. *)
From Coq Require Import Ring_theory Ring.
From Verif Require Import Base ListFacts Csr DenseFacts SparseModel SparseSpec SparseFacts SparseUpdate SparseInsert SparseSeq
  SparseArith SparseMul PropSparseLemmas PropIterLemmas.

(** The same matrix: equal sizes, and equal in every field when there is a row (without rows the offset array may
    be empty or hold one zero). *)
Definition same_matrix {V} (m1 m2 : smat V) : Prop :=
  s_rows m1 = s_rows m2 /\ csize m1 = csize m2 /\ (0 < s_rows m1 -> m1 = m2).

Lemma ascending_pairs {V} (l1 l2 : list (nat * V)) : ascending (map fst l1) -> ascending (map fst l2) ->
  (forall x, In x l1 <-> In x l2) -> l1 = l2.
Proof.
  revert l2. induction l1 as [|[k v] l1 IH]; intros [|[k' v'] l2] H1 H2 H; [reflexivity|..].
  - exfalso. apply (proj2 (H (k', v'))). left; reflexivity.
  - exfalso. apply (proj1 (H (k, v))). left; reflexivity.
  - cbn [map fst] in H1, H2. apply ascending_cons in H1 as [A1 F1], H2 as [A2 F2]. rewrite Forall_forall in F1, F2.
    assert (L : forall x, In x l1 -> k < fst x) by (intros x Hx; apply F1, in_map, Hx).
    assert (L' : forall x, In x l2 -> k' < fst x) by (intros x Hx; apply F2, in_map, Hx).
    assert (Ek : (k, v) = (k', v')).
    { destruct (proj1 (H (k, v)) (or_introl eq_refl)) as [E|E]; [congruence|].
      destruct (proj2 (H (k', v')) (or_introl eq_refl)) as [E'|E']; [congruence|].
      specialize (L _ E'). specialize (L' _ E). cbn [fst] in *. lia. }
    f_equal; [exact Ek|]. injection Ek as <- <-. apply IH; auto. intro x. split; intro Hx.
    + destruct (proj1 (H x) (or_intror Hx)) as [<-|E]; [|exact E]. specialize (L _ Hx). cbn in L. lia.
    + destruct (proj2 (H x) (or_intror Hx)) as [<-|E]; [|exact E]. specialize (L' _ Hx). cbn in L'. lia.
Qed.

Lemma stored_same {V} (m1 m2 : smat V) : swf m1 -> swf m2 -> s_rows m1 = s_rows m2 -> csize m1 = csize m2 ->
  (forall i j v, stored m1 i j v <-> stored m2 i j v) -> same_matrix m1 m2.
Proof.
  intros (rs1 & R1 & O1) (rs2 & R2 & O2) Er Ec Hs. split; [exact Er|]. split; [exact Ec|]. intro Hpos.
  assert (El : length rs1 = length rs2) by (rewrite <- (srepr_rows _ _ R1), <- (srepr_rows _ _ R2); exact Er).
  assert (Hl : 0 < length rs1) by (rewrite <- (srepr_rows _ _ R1); exact Hpos).
  assert (E : rs1 = rs2).
  { apply (nth_ext _ _ [] []); [exact El|]. intros i Hi. apply ascending_pairs.
    - apply O1, Hi.
    - apply O2. lia.
    - intros [j v]. rewrite <- (srepr_stored _ _ i j v R1), <- (srepr_stored _ _ i j v R2). apply Hs. }
  subst rs2. destruct R1 as ([P1|[_ N1]] & C1 & V1); [|subst; cbn in Hl; lia].
  destruct R2 as ([P2|[_ N2]] & C2 & V2); [|subst; cbn in Hl; lia].
  destruct m1 as [r1 c1 v1 s1], m2 as [r2 c2 v2 s2]. cbn in *. congruence.
Qed.

Lemma represents_exists {V} (z : V) (m : smat V) : swf m -> exists f, represents z m f.
Proof.
  intros (rs & R & Ok). exists (fun i j => lookup z (nth i rs []) j). apply represents_rows; auto.
Qed.

Section Algebra.
  Context {V : Type}.
  Variables (vzero vone : V) (vadd vmul : V -> V -> V) (vopp : V -> V).
  Variables (M : nat) (dbg : bool) (stray : option nat).
  Hypothesis SR : semi_ring_theory vzero vone vadd vmul eq.
  Add Ring sr : SR.
  Notation "0" := vzero. Infix "+" := vadd. Infix "*" := vmul.
  Notation sum := (big_sum vzero vadd).
  Implicit Types (m o p : smat V).

  Definition has m i j : Prop := exists v, stored m i j v.

  Lemma sum_ext n f g : (forall k, (k < n)%nat -> f k = g k) -> sum n f = sum n g.
  Proof using. induction n as [|n IH]; intro H; [reflexivity|]. cbn [big_sum]. rewrite IH, H by (auto with arith). reflexivity. Qed.

  Lemma sum_zero n : sum n (fun _ => 0) = 0.
  Proof using SR. induction n as [|n IH]; [reflexivity|]. cbn [big_sum]. rewrite IH. ring. Qed.

  Lemma sum_plus n f g : sum n (fun k => f k + g k) = sum n f + sum n g.
  Proof using SR. induction n as [|n IH]; cbn [big_sum]; [ring|]. rewrite IH. ring. Qed.

  Lemma sum_left n c f : c * sum n f = sum n (fun k => c * f k).
  Proof using SR. induction n as [|n IH]; cbn [big_sum]; [ring|]. rewrite <- IH. ring. Qed.

  Lemma sum_right n c f : sum n f * c = sum n (fun k => f k * c).
  Proof using SR. induction n as [|n IH]; cbn [big_sum]; [ring|]. rewrite <- IH. ring. Qed.

  Lemma sum_swap n k f : sum n (fun i => sum k (f i)) = sum k (fun j => sum n (fun i => f i j)).
  Proof using SR.
    induction n as [|n IH]; cbn [big_sum].
    - induction k as [|k IH]; [reflexivity|]. cbn [big_sum]. rewrite <- IH. ring.
    - rewrite IH, <- sum_plus. reflexivity.
  Qed.

  (** Equal patterns and equal values make equal matrices. *)
  Lemma same_of m1 m2 f : swf m1 -> swf m2 -> s_rows m1 = s_rows m2 -> csize m1 = csize m2 ->
    represents 0 m1 f -> represents 0 m2 f -> (forall i j, has m1 i j <-> has m2 i j) -> same_matrix m1 m2.
  Proof using.
    intros W1 W2 Er Ec R1 R2 H. apply stored_same; auto. intros i j v. split; intro Hv.
    - destruct (proj1 (H i j) (ex_intro _ v Hv)) as (w & Hw).
      rewrite <- (proj1 (R1 i j) v Hv), (proj1 (R2 i j) w Hw). exact Hw.
    - destruct (proj2 (H i j) (ex_intro _ v Hv)) as (w & Hw).
      rewrite <- (proj1 (R2 i j) v Hv), (proj1 (R1 i j) w Hw). exact Hw.
  Qed.

  Lemma times_full m o f g : swf m -> swf o -> csize m = s_rows o -> represents 0 m f -> represents 0 o g ->
    exists m', s_times 0 vadd vmul M dbg stray m o = Ok m' /\ swf m' /\ s_rows m' = s_rows m /\ csize m' = csize o /\
      represents 0 m' (fun i j => sum (csize m) (fun k => f i k * g k j)) /\
      forall i j, has m' i j <-> exists k, has m i k /\ has o k j.
  Proof using SR.
    intros Wm Wo Hc Hf Hg. destruct (mul_spec 0 vadd vmul M dbg stray m o Wm Wo Hc) as (m' & E & W & Er & Ec & H).
    destruct (mul_ring 0 vadd vmul M dbg stray vone m o f g SR Wm Wo Hc Hf Hg) as (m'' & E' & R).
    rewrite E in E'. injection E' as <-. exists m'. split; [exact E|]. split; [exact W|]. split; [exact Er|].
    split; [exact Ec|]. split; [exact R|]. intros i j. destruct (H i j) as (ts & _ & Ht & Hv). split.
    - intros (v & Hs). apply Hv in Hs as (t & r & Et & _). destruct ts as [|[k [a b]] ts]; [discriminate|].
      destruct (proj1 (Ht k a b) (or_introl eq_refl)) as [Ha Hb]. exists k. split; [exists a|exists b]; assumption.
    - intros (k & (a & Ha) & (b & Hb)). pose proof (proj2 (Ht k a b) (conj Ha Hb)) as Hin.
      destruct ts as [|t ts]; [destruct Hin|]. eexists. apply Hv. cbn [map]. eexists. eexists. split; reflexivity.
  Qed.

  Lemma plus_full m o f g : swf m -> swf o -> s_rows m = s_rows o -> csize m = csize o ->
    represents 0 m f -> represents 0 o g ->
    exists m', s_plus 0 vadd vopp M dbg stray m o = Ok m' /\ swf m' /\ s_rows m' = s_rows m /\ csize m' = csize m /\
      represents 0 m' (fun i j => f i j + g i j) /\ forall i j, has m' i j <-> has m i j \/ has o i j.
  Proof using SR.
    intros Wm Wo Hr Hc Hf Hg. destruct (plus_ok 0 vadd vopp M dbg stray m o Wm Wo Hr Hc) as (m' & E & _ & W & Er & Ec & H).
    exists m'. split; [exact E|]. split; [exact W|]. split; [exact Er|]. split; [exact Ec|].
    assert (P : forall i j, has m' i j <-> has m i j \/ has o i j).
    { intros i j. split.
      - intros (v & Hv). apply H in Hv as [[Hv _]|[[Hv _]|(a & b & Ha & _)]]; [left|right|left]; eexists; eassumption.
      - destruct (stored_dec m i j Wm) as [(a & Ha)|Na], (stored_dec o i j Wo) as [(b & Hb)|Nb]; intro Hm.
        + exists (a + b). apply H. right. right. exists a, b. auto.
        + exists a. apply H. left. auto.
        + exists b. apply H. right. left. auto.
        + destruct Hm as [(v & Hv)|(v & Hv)]; [destruct (Na v Hv)|destruct (Nb v Hv)]. }
    split; [|exact P]. intros i j. split.
    - intros v Hv. apply H in Hv as [[Hv Hn]|[[Hv Hn]|(a & b & Ha & Hb & ->)]].
      + rewrite (proj1 (Hf i j) v Hv), (proj2 (Hg i j) Hn). ring.
      + rewrite (proj1 (Hg i j) v Hv), (proj2 (Hf i j) Hn). ring.
      + rewrite (proj1 (Hf i j) a Ha), (proj1 (Hg i j) b Hb). reflexivity.
    - intro Hn. assert (N : ~ has m' i j) by (intros (v & Hv); exact (Hn v Hv)). rewrite P in N.
      rewrite (proj2 (Hf i j)), (proj2 (Hg i j)).
      + ring.
      + intros v Hv. apply N. right. exists v. exact Hv.
      + intros v Hv. apply N. left. exists v. exact Hv.
  Qed.

  Lemma vec_full m f x : swf m -> represents 0 m f -> length x = csize m ->
    exists y, s_mat_vec 0 vadd vmul dbg stray m x = Ok y /\ length y = s_rows m /\
      forall i, (i < s_rows m)%nat -> nth i y 0 = sum (csize m) (fun j => f i j * nth j x 0).
  Proof using SR.
    intros W Hf Hx. destruct (mat_vec_spec 0 vadd vmul dbg stray m x W Hx) as (y & E & Hl & H). exists y.
    split; [exact E|]. split; [exact Hl|]. intros i Hi. destruct (H i Hi) as (es & Hs & Hin & Hy).
    rewrite (nth_error_nth y i 0 Hy).
    set (us := map (fun e : nat * V => (fst e, snd e * nth (fst e) x 0)) es).
    assert (Hfst : map fst us = map fst es) by (unfold us; rewrite map_map; reflexivity).
    transitivity (fold_left vadd (map snd us) 0).
    { unfold us. rewrite map_map. cbn [snd]. clear. generalize 0 at 2 4. induction es as [|e es IH]; intro s; [reflexivity|].
      cbn [fold_left map]. apply IH. }
    symmetry. apply (big_sum_terms 0 vadd vmul vone); auto.
    - rewrite Hfst. exact Hs.
    - intros k Hk. rewrite Hfst in Hk. apply in_map_iff in Hk as ([k' a] & <- & Hk). apply Hin in Hk.
      apply stored_bounds in Hk; auto. cbn [fst]. apply Hk.
    - intros k v Hk. apply in_map_iff in Hk as ([k' a] & Ek & Hk). cbn [fst snd] in Ek. injection Ek as <- <-.
      apply Hin in Hk. rewrite (proj1 (Hf i k') a Hk). reflexivity.
    - intros k _ Hk. rewrite Hfst in Hk. rewrite (proj2 (Hf i k)); [ring|].
      intros v Hv. apply Hk. apply in_map_iff. exists (k, v). split; [reflexivity|apply Hin, Hv].
  Qed.

  (* ---------------------------------------------------------------- the laws *)
  Lemma times_assoc m o p : swf m -> swf o -> swf p -> csize m = s_rows o -> csize o = s_rows p ->
    exists mo op l r, s_times 0 vadd vmul M dbg stray m o = Ok mo /\ s_times 0 vadd vmul M dbg stray o p = Ok op /\
      s_times 0 vadd vmul M dbg stray mo p = Ok l /\ s_times 0 vadd vmul M dbg stray m op = Ok r /\ same_matrix l r.
  Proof using SR.
    intros Wm Wo Wp C1 C2. destruct (represents_exists 0 m Wm) as (f & Hf), (represents_exists 0 o Wo) as (g & Hg),
      (represents_exists 0 p Wp) as (h & Hh).
    destruct (times_full m o f g) as (mo & E1 & W1 & R1 & K1 & F1 & P1); auto.
    destruct (times_full o p g h) as (op & E2 & W2 & R2 & K2 & F2 & P2); auto.
    destruct (times_full mo p _ h W1 Wp ltac:(congruence) F1 Hh) as (l & E3 & W3 & R3 & K3 & F3 & P3).
    destruct (times_full m op f _ Wm W2 ltac:(congruence) Hf F2) as (r & E4 & W4 & R4 & K4 & F4 & P4).
    exists mo, op, l, r. do 4 (split; [assumption|]).
    assert (F4' : represents 0 r (fun i j => sum (csize mo) (fun k => sum (csize m) (fun k0 => f i k0 * g k0 k) * h k j))).
    { assert (X : forall i j, sum (csize mo) (fun k => sum (csize m) (fun k0 => f i k0 * g k0 k) * h k j) =
                              sum (csize m) (fun k => f i k * sum (csize o) (fun k0 => g k k0 * h k0 j))).
      { intros i j. rewrite K1.
        rewrite (sum_ext _ _ (fun k => sum (csize m) (fun k0 => f i k0 * g k0 k * h k j))) by (intros; apply sum_right).
        rewrite sum_swap. apply sum_ext. intros k _. rewrite sum_left. apply sum_ext. intros; ring. }
      intros i j. rewrite X. exact (F4 i j). }
    refine (same_of l r _ W3 W4 ltac:(congruence) ltac:(congruence) F3 _ _); [exact F4'|].
    intros i j. rewrite P3, P4. split.
    - intros (k & Hk & Hp). apply P1 in Hk as (k' & Ha & Hb). exists k'. split; [exact Ha|]. apply P2. exists k. auto.
    - intros (k & Ha & Hk). apply P2 in Hk as (k' & Hb & Hp). exists k'. split; [|exact Hp]. apply P1. exists k. auto.
  Qed.

  Lemma times_plus m o p : swf m -> swf o -> swf p -> csize m = s_rows o -> s_rows o = s_rows p -> csize o = csize p ->
    exists op mo mp l r, s_plus 0 vadd vopp M dbg stray o p = Ok op /\ s_times 0 vadd vmul M dbg stray m o = Ok mo /\
      s_times 0 vadd vmul M dbg stray m p = Ok mp /\ s_times 0 vadd vmul M dbg stray m op = Ok l /\
      s_plus 0 vadd vopp M dbg stray mo mp = Ok r /\ same_matrix l r.
  Proof using SR.
    intros Wm Wo Wp C1 C2 C3. destruct (represents_exists 0 m Wm) as (f & Hf), (represents_exists 0 o Wo) as (g & Hg),
      (represents_exists 0 p Wp) as (h & Hh).
    destruct (plus_full o p g h) as (op & E1 & W1 & R1 & K1 & F1 & P1); auto.
    destruct (times_full m o f g) as (mo & E2 & W2 & R2 & K2 & F2 & P2); auto.
    destruct (times_full m p f h) as (mp & E3 & W3 & R3 & K3 & F3 & P3); auto; [congruence|].
    destruct (times_full m op f _ Wm W1 ltac:(congruence) Hf F1) as (l & E4 & W4 & R4 & K4 & F4 & P4).
    destruct (plus_full mo mp _ _ W2 W3 ltac:(congruence) ltac:(congruence) F2 F3) as (r & E5 & W5 & R5 & K5 & F5 & P5).
    exists op, mo, mp, l, r. do 5 (split; [assumption|]).
    refine (same_of l r _ W4 W5 ltac:(congruence) ltac:(congruence) F4 _ _); [ |].
    - intros i j. cbv beta. rewrite (sum_ext _ _ (fun k => f i k * g k j + f i k * h k j)) by (intros; ring).
      rewrite sum_plus. exact (F5 i j).
    - intros i j. rewrite P4, P5, P2, P3. split.
      + intros (k & Ha & Hb). apply P1 in Hb as [Hb|Hb]; [left|right]; exists k; auto.
      + intros [(k & Ha & Hb)|(k & Ha & Hb)]; exists k; (split; [exact Ha|apply P1; auto]).
  Qed.

  Lemma plus_times m o p : swf m -> swf o -> swf p -> s_rows m = s_rows o -> csize m = csize o -> csize m = s_rows p ->
    exists mo mp op l r, s_plus 0 vadd vopp M dbg stray m o = Ok mo /\ s_times 0 vadd vmul M dbg stray m p = Ok mp /\
      s_times 0 vadd vmul M dbg stray o p = Ok op /\ s_times 0 vadd vmul M dbg stray mo p = Ok l /\
      s_plus 0 vadd vopp M dbg stray mp op = Ok r /\ same_matrix l r.
  Proof using SR.
    intros Wm Wo Wp C1 C2 C3. destruct (represents_exists 0 m Wm) as (f & Hf), (represents_exists 0 o Wo) as (g & Hg),
      (represents_exists 0 p Wp) as (h & Hh).
    destruct (plus_full m o f g) as (mo & E1 & W1 & R1 & K1 & F1 & P1); auto.
    destruct (times_full m p f h) as (mp & E2 & W2 & R2 & K2 & F2 & P2); auto.
    destruct (times_full o p g h) as (op & E3 & W3 & R3 & K3 & F3 & P3); auto; [congruence|].
    destruct (times_full mo p _ h W1 Wp ltac:(congruence) F1 Hh) as (l & E4 & W4 & R4 & K4 & F4 & P4).
    destruct (plus_full mp op _ _ W2 W3 ltac:(congruence) ltac:(congruence) F2 F3) as (r & E5 & W5 & R5 & K5 & F5 & P5).
    exists mo, mp, op, l, r. do 5 (split; [assumption|]).
    refine (same_of l r _ W4 W5 ltac:(congruence) ltac:(congruence) F4 _ _); [ |].
    - intros i j. cbv beta. rewrite (sum_ext _ _ (fun k => f i k * h k j + g i k * h k j)) by (intros; ring).
      rewrite sum_plus, K1. pose proof (F5 i j) as X. cbv beta in X. rewrite <- C2 in X. exact X.
    - intros i j. rewrite P4, P5, P2, P3. split.
      + intros (k & Ha & Hb). apply P1 in Ha as [Ha|Ha]; [left|right]; exists k; auto.
      + intros [(k & Ha & Hb)|(k & Ha & Hb)]; exists k; (split; [apply P1; auto|exact Hb]).
  Qed.

  Lemma plus_comm m o : swf m -> swf o -> s_rows m = s_rows o -> csize m = csize o ->
    exists l r, s_plus 0 vadd vopp M dbg stray m o = Ok l /\ s_plus 0 vadd vopp M dbg stray o m = Ok r /\ same_matrix l r.
  Proof using SR.
    intros Wm Wo C1 C2. destruct (represents_exists 0 m Wm) as (f & Hf), (represents_exists 0 o Wo) as (g & Hg).
    destruct (plus_full m o f g) as (l & E1 & W1 & R1 & K1 & F1 & P1); auto.
    destruct (plus_full o m g f) as (r & E2 & W2 & R2 & K2 & F2 & P2); auto.
    exists l, r. do 2 (split; [assumption|]). refine (same_of l r _ W1 W2 ltac:(congruence) ltac:(congruence) F1 _ _); [ |].
    - intros i j. pose proof (F2 i j) as X. cbv beta in *. rewrite (SRadd_comm SR). exact X.
    - intros i j. rewrite P1, P2. tauto.
  Qed.

  Lemma plus_assoc m o p : swf m -> swf o -> swf p -> s_rows m = s_rows o -> s_rows o = s_rows p -> csize m = csize o ->
    csize o = csize p ->
    exists mo op l r, s_plus 0 vadd vopp M dbg stray m o = Ok mo /\ s_plus 0 vadd vopp M dbg stray o p = Ok op /\
      s_plus 0 vadd vopp M dbg stray mo p = Ok l /\ s_plus 0 vadd vopp M dbg stray m op = Ok r /\ same_matrix l r.
  Proof using SR.
    intros Wm Wo Wp C1 C2 C3 C4. destruct (represents_exists 0 m Wm) as (f & Hf), (represents_exists 0 o Wo) as (g & Hg),
      (represents_exists 0 p Wp) as (h & Hh).
    destruct (plus_full m o f g) as (mo & E1 & W1 & R1 & K1 & F1 & P1); auto.
    destruct (plus_full o p g h) as (op & E2 & W2 & R2 & K2 & F2 & P2); auto.
    destruct (plus_full mo p _ h W1 Wp ltac:(congruence) ltac:(congruence) F1 Hh) as (l & E3 & W3 & R3 & K3 & F3 & P3).
    destruct (plus_full m op f _ Wm W2 ltac:(congruence) ltac:(congruence) Hf F2) as (r & E4 & W4 & R4 & K4 & F4 & P4).
    exists mo, op, l, r. do 4 (split; [assumption|]). refine (same_of l r _ W3 W4 ltac:(congruence) ltac:(congruence) F3 _ _); [ |].
    - intros i j. pose proof (F4 i j) as X. cbv beta in *. rewrite <- (SRadd_assoc SR). exact X.
    - intros i j. rewrite P3, P4, P1, P2. tauto.
  Qed.

  Lemma times_vec m o x : swf m -> swf o -> csize m = s_rows o -> length x = csize o ->
    exists mo ox y, s_times 0 vadd vmul M dbg stray m o = Ok mo /\ s_mat_vec 0 vadd vmul dbg stray o x = Ok ox /\
      s_mat_vec 0 vadd vmul dbg stray mo x = Ok y /\ s_mat_vec 0 vadd vmul dbg stray m ox = Ok y.
  Proof using SR.
    intros Wm Wo C Hx. destruct (represents_exists 0 m Wm) as (f & Hf), (represents_exists 0 o Wo) as (g & Hg).
    destruct (times_full m o f g) as (mo & E1 & W1 & R1 & K1 & F1 & P1); auto.
    destruct (vec_full o g x Wo Hg Hx) as (ox & E2 & L2 & V2).
    destruct (vec_full mo _ x W1 F1 ltac:(congruence)) as (y & E3 & L3 & V3).
    destruct (vec_full m f ox Wm Hf ltac:(congruence)) as (y' & E4 & L4 & V4).
    exists mo, ox, y. do 3 (split; [assumption|]). rewrite E4. f_equal. apply (nth_ext _ _ 0 0); [congruence|].
    intros i Hi. rewrite L4 in Hi. rewrite V3, V4 by congruence. symmetry. rewrite K1.
    rewrite (sum_ext _ _ (fun j => sum (csize m) (fun k => f i k * g k j * nth j x 0))) by (intros; apply sum_right).
    rewrite sum_swap. apply sum_ext. intros k Hk. rewrite V2 by congruence. rewrite sum_left. apply sum_ext. intros; ring.
  Qed.

  Lemma plus_vec m o x : swf m -> swf o -> s_rows m = s_rows o -> csize m = csize o -> length x = csize o ->
    exists mo mx ox y, s_plus 0 vadd vopp M dbg stray m o = Ok mo /\ s_mat_vec 0 vadd vmul dbg stray m x = Ok mx /\
      s_mat_vec 0 vadd vmul dbg stray o x = Ok ox /\ s_mat_vec 0 vadd vmul dbg stray mo x = Ok y /\
      length y = s_rows m /\ forall i, (i < s_rows m)%nat -> nth i y 0 = nth i mx 0 + nth i ox 0.
  Proof using SR.
    intros Wm Wo C1 C2 Hx. destruct (represents_exists 0 m Wm) as (f & Hf), (represents_exists 0 o Wo) as (g & Hg).
    destruct (plus_full m o f g) as (mo & E1 & W1 & R1 & K1 & F1 & P1); auto.
    destruct (vec_full m f x Wm Hf ltac:(congruence)) as (mx & E2 & L2 & V2).
    destruct (vec_full o g x Wo Hg Hx) as (ox & E3 & L3 & V3).
    destruct (vec_full mo _ x W1 F1 ltac:(congruence)) as (y & E4 & L4 & V4).
    exists mo, mx, ox, y. do 4 (split; [assumption|]). split; [congruence|]. intros i Hi.
    rewrite V4, V2, V3 by congruence. rewrite K1, <- C2, <- sum_plus. apply sum_ext. intros; ring.
  Qed.
End Algebra.
