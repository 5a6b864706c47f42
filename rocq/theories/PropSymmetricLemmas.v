(** Proofs of the property theorems about when the iterations on symmetric matrices converge. *)
From Coq Require Import ZArith Reals Lra Lia Psatz.
From Verif Require Import Base ListFacts DenseModel DenseFacts ScalarModel GeometryReal SparseModel SparseSpec
  LuModel LuReal PropLuLemmas IterModel IterFacts IterLoop IterField IterReal PropIterLemmas Energy PropEnergyLemmas
  EnergyDrift SymmetricJacobi.
Local Open Scope nat_scope.

(** The iterates of [step] from [s] converge to [xs]. *)
Definition approaches (n : nat) (step : list R * list R -> res (list R * list R)) (s : list R * list R)
    (xs : nat -> R) : Prop :=
  forall eps, (0 < eps)%R -> exists K, forall k, K <= k -> exists x' w' f', times step k s = Ok (x', w') /\
    is_vec n x' f' /\ forall i, i < n -> (Rabs (f' i - xs i) < eps)%R.

Section Symmetric.
  Variables (dbg : bool) (stray : option nat) (n : nat) (a : smat R) (A : nat -> nat -> R) (b : list R) (h : nat -> R).
  Hypothesis Ha : sparse_square 0%R n a A.
  Hypothesis Hb : is_vec n b h.
  Hypothesis Hs : symmetric n A.
  Hypothesis Hd : forall i, i < n -> (0 < A i i)%R.
  Variable xs : nat -> R.
  Hypothesis Hx : solves rops n A xs h.

  Lemma relaxed_error f i : i < n -> (relaxed rops n A h 1 i f - xs i = jstep n A (fun j => f j - xs j) i)%R.
  Proof using Hd Hx.
    intro Hi. specialize (Hd i Hi). pose proof (Hx i Hi) as E. cbn [rops sc_zero sc_add sc_mul] in E.
    unfold jstep, correction. rewrite (error_row n A h xs Hx f i Hi).
    unfold relaxed. cbn [rops sc_zero sc_one sc_add sc_mul sc_sub sc_div].
    assert (F : (rsum n (fun j => A i j * f j) = rsum n (fun j => if j =? i then 0 else A i j * f j) + A i i * f i)%R).
    { apply (sum_split rops Ropp Rinv R_field n i (fun j => (A i j * f j)%R) Hi). }
    rewrite F. set (o := rsum n _). field. lra.
  Qed.

  Lemma jacobi_form x u f : is_vec n x f -> length u = n ->
    exists x' z, jacobi_step rops dbg stray a b (x, u) = Ok (x', x) /\ is_vec n x' z /\
      forall i, i < n -> (z i - xs i = jstep n A (fun j => f j - xs j) i)%R.
  Proof using Ha Hb Hd Hx.
    intros Hf Hu. destruct (field_rows rops Ropp Rinv dbg stray R_field n a A b h Ha Hb) as (rs & d & Hro & Hv).
    { intros i Hi. specialize (Hd i Hi). cbn [rops sc_zero]. lra. }
    destruct (jacobi_sweep_ok rops dbg stray n a b rs d h x u f (sc_one rops) Hro Hf Hu) as (x' & E & Hx').
    exists x', (fun i => relaxed rops n A h 1%R i f). unfold jacobi_step. cbn [fst snd]. rewrite E. cbn [bind].
    split; [reflexivity|]. split; [|intros; apply relaxed_error; auto].
    apply (is_vec_ext _ _ _ _ Hx'). intros i Hi. apply Hv, Hi.
  Qed.

  Lemma jacobi_energy x u f : is_vec n x f -> length u = n ->
    exists x' f', jacobi_step rops dbg stray a b (x, u) = Ok (x', x) /\ is_vec n x' f' /\
      (energy n A (fun i => f' i - xs i) =
       energy n A (fun i => f i - xs i) - energy n (mirrored A) (fun i => f' i - f i))%R.
  Proof using Ha Hb Hs Hd Hx.
    intros Hf Hu. destruct (jacobi_form x u f Hf Hu) as (x' & z & E & Hx' & Hz). exists x', z.
    split; [exact E|]. split; [exact Hx'|].
    rewrite (energy_ext n A _ _ Hz), (jstep_energy n A Hs Hd). apply (f_equal (Rminus _)).
    set (c := correction n A (fun j => (f j - xs j)%R)).
    transitivity (energy n (mirrored A) (fun i => - 1 * c i)%R).
    - unfold energy. apply asum_ext. intros i Hi.
      rewrite (asum_ext _ _ n (fun j => mirrored A i j * (- 1 * c j))%R (fun j => - 1 * (mirrored A i j * c j))%R)
        by (intros; ring). rewrite rsum_scale. ring.
    - apply energy_ext. intros i Hi. specialize (Hz i Hi). unfold jstep in Hz. fold c in Hz. lra.
  Qed.

  Lemma jacobi_times k x u f : is_vec n x f -> length u = n ->
    exists x' u' z, times (jacobi_step rops dbg stray a b) k (x, u) = Ok (x', u') /\ is_vec n x' z /\ length u' = n /\
      forall i, i < n -> (z i - xs i = jsteps n A k (fun j => f j - xs j) i)%R.
  Proof using Ha Hb Hd Hx.
    intros Hf Hu. induction k as [|k (x1 & u1 & z1 & E1 & V1 & L1 & Z1)]; cbn [times].
    - exists x, u, f. split; [reflexivity|]. split; [exact Hf|]. split; [exact Hu|]. reflexivity.
    - rewrite E1. cbn [bind]. destruct (jacobi_form x1 u1 z1 V1 L1) as (x2 & z2 & E2 & V2 & Z2).
      exists x2, x1, z2. split; [exact E2|]. split; [exact V2|]. split; [apply V1|]. intros i Hi. rewrite Z2 by auto.
      cbn [jsteps]. unfold jstep, correction. rewrite Z1 by auto. f_equal. f_equal. apply asum_ext. intros j Hj.
      rewrite Z1 by auto. reflexivity.
  Qed.

  Lemma jacobi_rate : positive_definite n A -> positive_definite n (mirrored A) -> exists q, (0 <= q < 1)%R /\
    forall k x u f, is_vec n x f -> length u = n ->
      exists x' u' f', times (jacobi_step rops dbg stray a b) k (x, u) = Ok (x', u') /\ is_vec n x' f' /\
        (energy n A (fun i => f' i - xs i) <= q ^ k * energy n A (fun i => f i - xs i))%R.
  Proof using Ha Hb Hs Hd Hx.
    intros Hp Hm. destruct (jstep_rate n A Hs Hd Hp Hm) as (q & Hq & H). exists q. split; [exact Hq|].
    intros k x u f Hf Hu. destruct (jacobi_times k x u f Hf Hu) as (x' & u' & z & E & V & _ & Z).
    exists x', u', z. split; [exact E|]. split; [exact V|]. rewrite (energy_ext n A _ _ Z). clear E Z.
    set (e := fun j => (f j - xs j)%R). induction k as [|k IH]; [cbn; lra|]. cbn [jsteps pow].
    apply Rle_trans with (1 := H _). rewrite Rmult_assoc. apply Rmult_le_compat_l; [lra|exact IH].
  Qed.

  Lemma jacobi_away x u f : is_vec n x f -> length u = n -> (exists i, i < n /\ f i <> xs i) ->
    (energy n A (fun i => f i - xs i) <= 0 \/ energy n (mirrored A) (fun i => f i - xs i) <= 0)%R ->
    (0 < weighted n A (fun i => f i - xs i))%R /\
    forall k, exists x' u' f', times (jacobi_step rops dbg stray a b) k (x, u) = Ok (x', u') /\ is_vec n x' f' /\
      (weighted n A (fun i => f i - xs i) <= weighted n A (fun i => f' i - xs i))%R.
  Proof using Ha Hb Hs Hd Hx.
    intros Hf Hu (j & Hj & Hne) H. set (e := fun i => (f i - xs i)%R) in *.
    assert (He : exists i, i < n /\ e i <> 0%R) by (exists j; split; [auto|unfold e; lra]).
    split; [apply (weighted_pos n A Hd e He)|].
    intro k. destruct (jacobi_times k x u f Hf Hu) as (x' & u' & z & E & V & _ & Z).
    exists x', u', z. split; [exact E|]. split; [exact V|].
    apply Rle_trans with (1 := never_smaller n A Hs Hd e He H k). right. unfold weighted. apply asum_ext.
    intros i Hi. rewrite Z by auto. reflexivity.
  Qed.

  Lemma jacobi_exactly :
    (forall x u, length x = n -> length u = n -> approaches n (jacobi_step rops dbg stray a b) (x, u) xs) <->
    positive_definite n A /\ positive_definite n (mirrored A).
  Proof using Ha Hb Hs Hd Hx.
    split.
    - intro H. assert (K : forall e, (exists i, i < n /\ e i <> 0%R) ->
        ~ (energy n A e <= 0 \/ energy n (mirrored A) e <= 0)%R).
      { intros e (i0 & Hi0 & Hne) Hle.
        set (x := map (fun i => (xs i + e i)%R) (seq 0 n)).
        assert (Hl : length x = n) by (unfold x; rewrite map_length, seq_length; reflexivity).
        assert (Hv : is_vec n x (fun i => xs i + e i)%R).
        { split; [exact Hl|]. intros i Hi. unfold x.
          rewrite nth_error_map, (nth_error_nth' _ 0) by (rewrite seq_length; exact Hi). rewrite seq_nth by exact Hi. reflexivity. }
        assert (Ee : forall i, i < n -> e i = (xs i + e i - xs i)%R) by (intros; lra).
        destruct (jacobi_away x x (fun i => xs i + e i)%R Hv Hl) as [Hw Haw].
        { exists i0. split; [auto|lra]. }
        { rewrite !(energy_ext n _ _ _ Ee) in Hle. exact Hle. }
        destruct (weighted_small n A Hd _ Hw) as (eps & He & Hsm).
        destruct (H x x Hl Hl eps He) as (K & HK). destruct (HK K (le_n K)) as (x1 & w1 & f1 & E1 & V1 & B1).
        destruct (Haw K) as (x2 & u2 & f2 & E2 & V2 & B2). rewrite E1 in E2. injection E2 as <- <-.
        specialize (Hsm (fun i => (f1 i - xs i)%R) B1).
        assert (Ew : weighted n A (fun i => f1 i - xs i)%R = weighted n A (fun i => f2 i - xs i)%R).
        { apply asum_ext. intros i Hi. rewrite (is_vec_inj n x1 f1 f2 V1 V2 i Hi). reflexivity. }
        lra. }
      split; intros e He; specialize (K e He); destruct (Rlt_le_dec 0 (energy n A e)); auto; try tauto;
        destruct (Rlt_le_dec 0 (energy n (mirrored A) e)); auto; tauto.
    - intros [Hp Hm] x u Hl Hu eps He. destruct (jacobi_rate Hp Hm) as (q & Hq & Hr).
      assert (Hv : is_vec n x (fun i => nth i x 0%R)) by (rewrite <- Hl; apply is_vec_self).
      destruct (coercive n A Hs Hp) as (l & Hl0 & Hco).
      destruct (geometric_small n A q (energy n A (fun i => nth i x 0 - xs i)%R) Hs Hp Hq) with (eps := eps) as (K & HK); auto.
      { eapply Rle_trans; [|apply Hco]. apply Rmult_le_pos; [lra|apply rsum_sq_nonneg]. }
      exists K. intros k Hk. destruct (Hr k x u _ Hv Hu) as (x' & u' & f' & E & V & B).
      exists x', u', f'. split; [exact E|]. split; [exact V|]. apply (HK k Hk _ B).
  Qed.

  (** Sweeps in place *)
  Section Place.
    Variables (w : R) (step : list R * list R -> res (list R * list R)).
    Hypothesis Hw : (0 < w < 2)%R.
    Hypothesis Hst : forall x u, step (x, u) = (do x' <- forward_sweep rops dbg stray a None x b w; Ok (x', u)).

    Lemma place_falls k x u f : is_vec n x f -> exists x' f', times step k (x, u) = Ok (x', u) /\ is_vec n x' f' /\
      (energy n A (fun i => f' i - xs i) <= energy n A (fun i => f i - xs i))%R.
    Proof using Ha Hb Hs Hd Hx Hw Hst.
      intro Hf. induction k as [|k (x1 & f1 & E1 & V1 & B1)]; cbn [times].
      - exists x, f. split; [reflexivity|]. split; [exact Hf|lra].
      - rewrite E1. cbn [bind]. rewrite Hst.
        destruct (energy_decreases dbg stray n a A b h Ha Hb Hs xs x1 f1 w Hd Hw Hx V1) as (x2 & f2 & -> & V2 & B2 & _).
        cbn [bind]. exists x2, f2. split; [reflexivity|]. split; [exact V2|lra].
    Qed.

    Lemma place_fixed k x u f : is_vec n x f -> solves rops n A f h -> times step k (x, u) = Ok (x, u).
    Proof using Ha Hb Hd Hw Hst.
      intros Hf Hsol. induction k as [|k IH]; cbn [times]; [reflexivity|]. rewrite IH. cbn [bind]. rewrite Hst.
      assert (E : forward_sweep rops dbg stray a None x b w = Ok x).
      { apply (seidel_fixed rops Ropp Rinv dbg stray R_field n a A b h x f w Ha Hb Hf).
        - intros i Hi. specialize (Hd i Hi). cbn [rops sc_zero]. lra.
        - cbn [rops sc_zero]. lra.
        - exact Hsol. }
      rewrite E. reflexivity.
    Qed.

    Lemma times_first k s s1 : step s = Ok s1 -> times step (S k) s = times step k s1.
    Proof using Type.
      intro E. induction k as [|k IH]; [cbn [times bind]; exact E|].
      change (times step (S (S k)) s) with (bind (times step (S k) s) step). rewrite IH. reflexivity.
    Qed.

    Lemma place_exactly : (forall x u, length x = n -> approaches n step (x, u) xs) <-> positive_definite n A.
    Proof using Ha Hb Hs Hd Hx Hw Hst.
      split.
      - intros H e He. destruct (Rlt_le_dec 0 (energy n A e)) as [|Hle]; auto. exfalso.
        destruct He as (i0 & Hi0 & Hne).
        set (x := map (fun i => (xs i + e i)%R) (seq 0 n)).
        assert (Hl : length x = n) by (unfold x; rewrite map_length, seq_length; reflexivity).
        assert (Hv : is_vec n x (fun i => xs i + e i)%R).
        { split; [exact Hl|]. intros i Hi. unfold x.
          rewrite nth_error_map, (nth_error_nth' _ 0) by (rewrite seq_length; exact Hi). rewrite seq_nth by exact Hi. reflexivity. }
        rewrite (energy_ext n A e (fun i => xs i + e i - xs i)%R) in Hle by (intros; lra).
        destruct (energy_decreases dbg stray n a A b h Ha Hb Hs xs x _ w Hd Hw Hx Hv) as (x1 & f1 & E1 & V1 & B1 & B2).
        destruct (Req_dec (energy n A (fun i => f1 i - xs i)%R) (energy n A (fun i => xs i + e i - xs i)%R)) as [Eq|Nq].
        + specialize (B2 Eq). specialize (H x [] Hl).
          assert (Hpos : (0 < Rabs (e i0))%R) by (apply Rabs_pos_lt; exact Hne).
          destruct (H _ Hpos) as (K & HK). destruct (HK K (le_n K)) as (x2 & w2 & f2 & E2 & V2 & B3).
          rewrite (place_fixed K x [] _ Hv B2) in E2. injection E2 as <- <-. specialize (B3 i0 Hi0).
          rewrite (is_vec_inj n x f2 _ V2 Hv i0 Hi0) in B3.
          replace (xs i0 + e i0 - xs i0)%R with (e i0) in B3 by ring. lra.
        + assert (Hneg : (energy n A (fun i => f1 i - xs i) < 0)%R) by lra.
          destruct (energy_small n A (- energy n A (fun i => f1 i - xs i))%R ltac:(lra)) as (eps & He & Hsm).
          destruct (H x [] Hl eps He) as (K & HK). destruct (HK (S K) ltac:(lia)) as (x2 & w2 & f2 & E2 & V2 & B3).
          rewrite (times_first K (x, []) (x1, [])) in E2 by (rewrite Hst, E1; reflexivity).
          destruct (place_falls K x1 [] f1 V1) as (x3 & f3 & E3 & V3 & B4). rewrite E3 in E2. injection E2 as <- <-.
          specialize (Hsm (fun i => (f2 i - xs i)%R) B3).
          rewrite (energy_ext n A (fun i => f2 i - xs i)%R (fun i => f3 i - xs i)%R) in Hsm
            by (intros i Hi; rewrite (is_vec_inj n x3 f2 f3 V2 V3 i Hi); reflexivity).
          lra.
      - intros Hp x u Hl eps He.
        destruct (sweep_rate dbg stray n a A b h Ha Hb Hs w Hp Hw) as (q & Hq & Hr).
        assert (Hv : is_vec n x (fun i => nth i x 0%R)) by (rewrite <- Hl; apply is_vec_self).
        destruct (coercive n A Hs Hp) as (l & Hl0 & Hco).
        destruct (geometric_small n A q (energy n A (fun i => nth i x 0 - xs i)%R) Hs Hp Hq) with (eps := eps) as (K & HK); auto.
        { eapply Rle_trans; [|apply Hco]. apply Rmult_le_pos; [lra|apply rsum_sq_nonneg]. }
        exists K. intros k Hk.
        assert (G : exists x' f', times step k (x, u) = Ok (x', u) /\ is_vec n x' f' /\
          (energy n A (fun i => f' i - xs i) <= q ^ k * energy n A (fun i => nth i x 0 - xs i))%R).
        { clear Hk. induction k as [|k (y & g & E1 & V1 & B1)]; cbn [times].
          - exists x, (fun i => nth i x 0%R). split; [reflexivity|]. split; [exact Hv|]. cbn [pow]. lra.
          - rewrite E1. cbn [bind]. rewrite Hst. destruct (Hr xs y g Hx V1) as (y2 & g2 & -> & V2 & B2). cbn [bind].
            exists y2, g2. split; [reflexivity|]. split; [exact V2|]. apply Rle_trans with (1 := B2). cbn [pow].
            rewrite Rmult_assoc. apply Rmult_le_compat_l; [lra|exact B1]. }
        destruct G as (x' & f' & E & V & B). exists x', u, f'. split; [exact E|]. split; [exact V|].
        apply (HK k Hk _ B).
    Qed.
  End Place.

  Lemma seidel_exactly :
    (forall x u, length x = n -> approaches n (gauss_seidel_step rops dbg stray a b) (x, u) xs) <-> positive_definite n A.
  Proof using Ha Hb Hs Hd Hx. apply (place_exactly 1%R); [lra|reflexivity]. Qed.

  Lemma sor_exactly :
    (forall x u, length x = n -> approaches n (sor_step rops dbg stray a b) (x, u) xs) <-> positive_definite n A.
  Proof using Ha Hb Hs Hd Hx. apply (place_exactly (3 / 2)%R); [lra|reflexivity]. Qed.

  Lemma jacobi_implies :
    (forall x u, length x = n -> length u = n -> approaches n (jacobi_step rops dbg stray a b) (x, u) xs) ->
    (forall x u, length x = n -> approaches n (gauss_seidel_step rops dbg stray a b) (x, u) xs) /\
    (forall x u, length x = n -> approaches n (sor_step rops dbg stray a b) (x, u) xs).
  Proof using Ha Hb Hs Hd Hx.
    intro H. apply jacobi_exactly in H. destruct H as [Hp _]. split; [apply seidel_exactly|apply sor_exactly]; exact Hp.
  Qed.
End Symmetric.

(** ** A positive definite matrix on which Jacobi does not converge *)

(** 5 on the diagonal and 4 elsewhere. *)
Definition close_rows : list (list (nat * R)) :=
  [[(0, 5%R); (1, 4%R); (2, 4%R)]; [(0, 4%R); (1, 5%R); (2, 4%R)]; [(0, 4%R); (1, 4%R); (2, 5%R)]].
Definition close : smat R := mkS [0; 3; 6; 9] [0; 1; 2; 0; 1; 2; 0; 1; 2] [5; 4; 4; 4; 5; 4; 4; 4; 5]%R 3.
Definition close_entry (i j : nat) : R := lookup 0%R (nth i close_rows []) j.

Lemma close_repr : srepr close close_rows /\ srows_ok 3 close_rows.
Proof.
  split.
  - split; [left; reflexivity|]. split; reflexivity.
  - intros [|[|[|i]]] Hi; cbn in Hi; try lia; cbn; (split; [repeat constructor|]); intros j [<-|[<-|[<-|[]]]]; lia.
Qed.

Lemma close_square : sparse_square 0%R 3 close close_entry.
Proof.
  destruct close_repr as [H1 H2]. split; [exists close_rows; auto|]. split; [reflexivity|].
  split; [reflexivity|]. apply represents_rows; auto.
Qed.

Lemma close_symmetric : symmetric 3 close_entry.
Proof. intros [|[|[|i]]] [|[|[|j]]] Hi Hj; try lia; reflexivity. Qed.

Lemma close_diagonal i : i < 3 -> (0 < close_entry i i)%R.
Proof. destruct i as [|[|[|i]]]; intro; try lia; cbn; lra. Qed.

Lemma close_positive : positive_definite 3 close_entry.
Proof.
  intros e (i & Hi & He).
  assert (E : energy 3 close_entry e = (e 0%nat * e 0%nat + e 1%nat * e 1%nat + e 2%nat * e 2%nat + 4 * ((e 0%nat + e 1%nat + e 2%nat) * (e 0%nat + e 1%nat + e 2%nat)))%R)
    by (unfold energy; cbn; ring).
  rewrite E. pose proof (Rle_0_sqr (e 0%nat + e 1%nat + e 2%nat)). pose proof (Rle_0_sqr (e 0%nat)). pose proof (Rle_0_sqr (e 1%nat)).
  pose proof (Rle_0_sqr (e 2%nat)). pose proof (Rlt_0_sqr _ He) as H5. unfold Rsqr in *.
  destruct i as [|[|[|i]]]; try lia; lra.
Qed.

Lemma close_mirrored : energy 3 (mirrored close_entry) (fun _ => 1%R) = (- 9)%R.
Proof. unfold energy. cbn. ring. Qed.

Lemma close_solves : solves rops 3 close_entry (fun _ => 1%R) (fun _ => 13%R).
Proof. intros [|[|[|i]]] Hi; try lia; cbn; ring. Qed.

Lemma close_splits : forall dbg stray, let b := [13; 13; 13]%R in
  (forall x u, length x = 3 -> approaches 3 (gauss_seidel_step rops dbg stray close b) (x, u) (fun _ => 1%R)) /\
  (forall x u, length x = 3 -> approaches 3 (sor_step rops dbg stray close b) (x, u) (fun _ => 1%R)) /\
  ~ approaches 3 (jacobi_step rops dbg stray close b) ([0; 0; 0]%R, [0; 0; 0]%R) (fun _ => 1%R).
Proof.
  intros dbg stray b. assert (Hb : is_vec 3 b (fun _ => 13%R)).
  { split; [reflexivity|]. intros [|[|[|i]]] Hi; try lia; reflexivity. }
  pose proof close_square as Q. pose proof close_symmetric as Y. pose proof close_diagonal as D. pose proof close_solves as L.
  split; [|split].
  - apply (seidel_exactly dbg stray 3 close close_entry b _ Q Hb Y D _ L). apply close_positive.
  - apply (sor_exactly dbg stray 3 close close_entry b _ Q Hb Y D _ L). apply close_positive.
  - intro H. assert (Hv : is_vec 3 [0; 0; 0]%R (fun _ => 0%R)).
    { split; [reflexivity|]. intros [|[|[|i]]] Hi; try lia; reflexivity. }
    destruct (jacobi_away dbg stray 3 close close_entry b _ Q Hb Y D _ L [0; 0; 0]%R [0; 0; 0]%R _ Hv eq_refl) as [W K].
    + exists 0. split; [lia|lra].
    + right. replace (energy 3 (mirrored close_entry) (fun _ => 0 - 1)%R) with (- 9)%R; [lra|]. unfold energy. cbn. ring.
    + destruct (weighted_small 3 close_entry D _ W) as (eps & He & Hsm). destruct (H eps He) as (k & Hk).
      destruct (Hk k (le_n k)) as (x1 & w1 & f1 & E1 & V1 & B1). destruct (K k) as (x2 & u2 & f2 & E2 & V2 & B2).
      rewrite E1 in E2. injection E2 as <- <-. specialize (Hsm (fun i => (f1 i - 1)%R) B1).
      assert (Ew : weighted 3 close_entry (fun i => f1 i - 1)%R = weighted 3 close_entry (fun i => f2 i - 1)%R).
      { apply asum_ext. intros i Hi. rewrite (is_vec_inj 3 x1 f1 f2 V1 V2 i Hi). reflexivity. }
      lra.
Qed.
