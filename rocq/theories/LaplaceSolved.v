(** The solution of the equations the class Laplace_2D makes, on any number of nodes. *)
From Coq Require Import ZArith Reals Lra Lia List Psatz.
From Verif Require Import Base ListFacts DenseModel DenseFacts ScalarModel GeometryReal SparseModel SparseSpec LuModel LuReal IterModel IterLoop IterField IterReal
  PropIterLemmas PropRelaxLemmas PropSuccessLemmas PropChainLemmas FloatFacts PropGridLemmas GridWhole SourceModel SourceError SourceSolved LaplaceModel LaplaceFacts LaplaceReal StopReal.
Import ListNotations.
Local Open Scope R_scope.

Section Solved.
  Variable N : nat.
  Hypothesis HN : (9 <= N)%nat.
  Notation n := (Nat.sqrt N).
  Notation h := (spacing n).

  Lemma place p q : (p < n)%nat -> ((q * n + p) mod n = p /\ (q * n + p) / n = q)%nat.
  Proof using HN.
    intro Hp. split; [rewrite Nat.add_comm, Nat.mod_add by lia; apply Nat.mod_small; lia|rewrite Nat.div_add_l by lia; rewrite Nat.div_small by lia; lia].
  Qed.

  Lemma place_mod p q : (p < n)%nat -> ((q * n + p) mod n = p)%nat.
  Proof using HN. intro Hp. apply place, Hp. Qed.

  (** A node inside and its neighbours. *)
  Lemma inner i : (i < N)%nat -> ~ rim N n i -> exists p q, (i = q * n + p /\ 1 <= p /\ p + 1 < n /\ 1 <= q /\ q <= n /\ i + n < N /\
    i - 1 = q * n + (p - 1) /\ i + 1 = q * n + (p + 1) /\ i - n = (q - 1) * n + p /\ i + n = (q + 1) * n + p)%nat.
  Proof using HN.
    intros Hi B. destruct (side N HN) as (H3 & Hs). set (n := Nat.sqrt N) in *. clearbody n.
    assert (P : forall p q, (p < n)%nat -> ((q * n + p) mod n = p)%nat).
    { intros p q Hp. rewrite Nat.add_comm, Nat.mod_add by lia. apply Nat.mod_small. lia. }
    pose proof (Nat.div_mod i n ltac:(lia)) as D. pose proof (Nat.mod_upper_bound i n ltac:(lia)) as U. unfold rim in B.
    set (p := (i mod n)%nat) in *. set (q := (i / n)%nat) in *.
    assert (B2 : (p + 1 <> n)%nat). { intro F. apply B. right; left. replace (i + 1)%nat with ((q + 1) * n + 0)%nat by nia. apply P. lia. }
    assert (B3 : (n <= i)%nat) by lia. assert (B4 : (i + n < N)%nat) by lia.
    assert (Q1 : (1 <= q)%nat) by (destruct q; [lia|lia]). assert (Q2 : (q <= n)%nat) by nia.
    exists p, q. repeat split; try lia; nia.
  Qed.

  Lemma rim_minimum (e : nat -> R) : (forall i, (i < N)%nat -> rim N n i -> 0 <= e i) ->
    (forall i, (i < N)%nat -> ~ rim N n i -> 0 <= 4 * e i - e (i - 1)%nat - e (i + 1)%nat - e (i - n)%nat - e (i + n)%nat) -> forall i, (i < N)%nat -> 0 <= e i.
  Proof using HN.
    intros Hb Hin i0 Hi0. destruct (Rle_lt_dec 0 (e i0)) as [|L]; [assumption|exfalso]. destruct (side N HN) as (H3 & Hs).
    set (w := fun i : nat => INR (i mod n) * (INR n - 1 - INR (i mod n)) / 2).
    assert (Hw : forall i, 0 <= w i).
    { intro i. unfold w. pose proof (Nat.mod_upper_bound i n ltac:(lia)) as U. set (x := (i mod n)%nat) in *. pose proof (pos_INR x).
      assert (INR x <= INR n - 1) by (pose proof (le_INR (x + 1) n ltac:(lia)) as HI; rewrite plus_INR in HI; cbn [INR] in HI; lra). nra. }
    set (eps := - e i0 / (2 * (w i0 + 1))). pose proof (Hw i0) as W0.
    assert (He : 0 < eps) by (apply Rmult_lt_0_compat; [lra|apply Rinv_0_lt_compat; lra]).
    set (z := fun i => e i + eps * w i).
    assert (Z0 : z i0 < 0). { unfold z. assert (E : eps * (2 * (w i0 + 1)) = - e i0) by (unfold eps; field; lra). nra. }
    destruct (largest N (fun i => - z i) ltac:(lia)) as (m & Hm & Hl).
    assert (K : forall i, (i < N)%nat -> z m <= z i) by (intros i Hi; specialize (Hl i Hi); lra).
    pose proof (K i0 Hi0) as Km. assert (D : rim N n m \/ ~ rim N n m) by (unfold rim; lia). destruct D as [B|B].
    - pose proof (Hb m Hm B). pose proof (Hw m). unfold z in *. nra.
    - pose proof (Hin m Hm B) as Q. destruct (inner m Hm B) as (p & q & Em & P1 & P2 & Q1 & Q2 & E0 & E1 & E2 & E3 & E4).
      pose proof (K (m - 1)%nat ltac:(lia)) as K1. pose proof (K (m + 1)%nat ltac:(lia)) as K2.
      pose proof (K (m - n)%nat ltac:(lia)) as K3. pose proof (K (m + n)%nat ltac:(lia)) as K4. unfold z in K1, K2, K3, K4.
      assert (W : w m = INR p * (INR n - 1 - INR p) / 2 /\ w (m - n)%nat = w m /\ w (m + n)%nat = w m /\ w (m - 1)%nat + w (m + 1)%nat = 2 * w m - 1).
      { unfold w. rewrite E1, E2, E3, E4, Em. rewrite !place_mod by lia. rewrite minus_INR, plus_INR by lia. cbn [INR]. repeat split; lra. }
      destruct W as (_ & W1 & W2 & W3). rewrite W1 in K3. rewrite W2 in K4.
      assert (eps * (w (m - 1)%nat + w (m + 1)%nat) = eps * (2 * w m - 1)) by (rewrite W3; reflexivity). lra.
  Qed.

  Lemma five_points_error u : five_points N u -> forall i, (i < N)%nat ->
    let s := INR (i mod n) * h in let t := INR (i / n) * h in let e := u i - true_u s t in
    - (45 / 8) * (h ^ 2 * (s * (1 - s) / 2)) <= e <= h ^ 2 * (s * (1 - s) / 2) /\ - (45 / 64) * h ^ 2 <= e <= h ^ 2 / 8.
  Proof using HN.
    intro Hu. destruct (side N HN) as (H3 & Hs). destruct (spacing_pos n H3) as (Hh & Eh).
    set (er := fun i => u i - true_u (INR (i mod n) * h) (INR (i / n) * h)).
    assert (Hb : forall i, (i < N)%nat -> rim N n i -> er i = 0).
    { intros i Hi B. unfold er. rewrite (proj1 (Hu i Hi) B). ring. }
    assert (Hin : forall i, (i < N)%nat -> ~ rim N n i -> - (45 / 8) * h ^ 4 <= 4 * er i - er (i - 1)%nat - er (i + 1)%nat - er (i - n)%nat - er (i + n)%nat <= h ^ 4).
    { intros i Hi B. destruct (proj2 (Hu i Hi) B) as (dp & dq & P & Q & E).
      rewrite (second_unique _ _ _ _ P (true_xx _ _)), (second_unique _ _ _ _ Q (true_yy _ _)) in E. clear dp dq P Q.
      apply (f_equal (fun v => v * h ^ 2)) in E. unfold Rdiv in E. rewrite Rmult_assoc, Rinv_l, Rmult_1_r in E by (apply pow_nonzero; lra).
      destruct (inner i Hi B) as (p & q & Em & P1 & P2 & Q1 & Q2 & E0 & E1 & E2 & E3 & E4).
      assert (A0 : (i mod n = p /\ i / n = q)%nat) by (rewrite Em; apply place; lia). destruct A0 as (A0 & A0').
      assert (A1 : ((i - 1) mod n = p - 1 /\ (i - 1) / n = q)%nat) by (rewrite E1; apply place; lia). destruct A1 as (A1 & A1').
      assert (A2 : ((i + 1) mod n = p + 1 /\ (i + 1) / n = q)%nat) by (rewrite E2; apply place; lia). destruct A2 as (A2 & A2').
      assert (A3 : ((i - n) mod n = p /\ (i - n) / n = q - 1)%nat) by (rewrite E3; apply place; lia). destruct A3 as (A3 & A3').
      assert (A4 : ((i + n) mod n = p /\ (i + n) / n = q + 1)%nat) by (rewrite E4; apply place; lia). destruct A4 as (A4 & A4').
      unfold er. rewrite A0, A0', A1, A1', A2, A2', A3, A3', A4, A4'. rewrite A0, A0' in E.
      rewrite !minus_INR, !plus_INR by lia. cbn [INR]. pose proof (node_range n p H3 ltac:(lia)) as Rs.
      assert (Rt : 0 <= INR q * h <= 3 / 2).
      { pose proof (pos_INR q). pose proof (le_INR q n Q2). split; [apply Rmult_le_pos; lra|]. apply Rle_trans with (INR n * h); [apply Rmult_le_compat_r; lra|lra]. }
      set (s := INR p * h) in *. set (t := INR q * h) in *.
      replace ((INR p - 1) * h) with (s - h) by (unfold s; ring). replace ((INR p + 1) * h) with (s + h) by (unfold s; ring).
      replace ((INR q - 1) * h) with (t - h) by (unfold t; ring). replace ((INR q + 1) * h) with (t + h) by (unfold t; ring).
      match type of E with ?l = _ => match goal with |- _ <= ?g <= _ => replace g with (l
        - (4 * true_u s t - true_u (s - h) t - true_u (s + h) t - true_u s (t - h) - true_u s (t + h))) by ring end end.
      rewrite E. match goal with |- _ <= ?g <= _ => replace g with (2 * h ^ 4 * (s ^ 2 * (1 - s ^ 2) + t ^ 2 * (1 - t ^ 2))) by (unfold true_u; ring) end.
      assert (Q4 : 0 < h ^ 4) by (apply pow_lt; lra). pose proof (bump s Rs) as Qs.
      assert (Qt : - (45 / 16) <= t ^ 2 * (1 - t ^ 2) <= / 4).
      { assert (V : 0 <= t ^ 2 <= 9 / 4) by (split; [apply pow2_ge_0|replace (9 / 4) with ((3 / 2) ^ 2) by field; apply pow_incr, Rt]).
        set (v := t ^ 2) in *. pose proof (pow2_ge_0 (v - / 2)). split; [|lra].
        assert (0 <= (9 / 4 - v) * (v + 5 / 4)) by (apply Rmult_le_pos; lra). lra. }
      split; nra. }
    set (cap := fun i : nat => h ^ 2 * (INR (i mod n) * h * (1 - INR (i mod n) * h) / 2)).
    assert (Hcap : forall i, 0 <= cap i).
    { intro i. unfold cap. pose proof (node_range n (i mod n) H3 ltac:(apply Nat.mod_upper_bound; lia)) as Rk. apply Rmult_le_pos; [apply pow2_ge_0|nra]. }
    assert (Hstep : forall i, (i < N)%nat -> ~ rim N n i -> 4 * cap i - cap (i - 1)%nat - cap (i + 1)%nat - cap (i - n)%nat - cap (i + n)%nat = h ^ 4).
    { intros i Hi B. destruct (inner i Hi B) as (p & q & Em & P1 & P2 & Q1 & Q2 & E0 & E1 & E2 & E3 & E4).
      unfold cap. rewrite E1, E2, E3, E4, Em. rewrite !place_mod by lia. rewrite minus_INR, plus_INR by lia. cbn [INR]. field. }
    assert (Hup : forall i, (i < N)%nat -> 0 <= cap i - er i).
    { apply (rim_minimum (fun i => cap i - er i)).
      - intros i Hi B. rewrite (Hb i Hi B). pose proof (Hcap i). lra.
      - intros i Hi B. pose proof (Hin i Hi B). pose proof (Hstep i Hi B). lra. }
    assert (Hlow : forall i, (i < N)%nat -> 0 <= er i + 45 / 8 * cap i).
    { apply (rim_minimum (fun i => er i + 45 / 8 * cap i)).
      - intros i Hi B. rewrite (Hb i Hi B). pose proof (Hcap i). lra.
      - intros i Hi B. pose proof (Hin i Hi B). pose proof (Hstep i Hi B). lra. }
    intros i Hi. cbv zeta. change (u i - true_u (INR (i mod n) * h) (INR (i / n) * h)) with (er i).
    pose proof (Hup i Hi) as H1. pose proof (Hlow i Hi) as H2. change (h ^ 2 * (INR (i mod n) * h * (1 - INR (i mod n) * h) / 2)) with (cap i).
    assert (C8 : cap i <= h ^ 2 / 8) by (unfold cap; pose proof (pow2_ge_0 (INR (i mod n) * h - / 2)); pose proof (pow2_ge_0 h); nra).
    repeat split; lra.
  Qed.

  (** Dominance. *)
  Lemma l_chained : chained N (l_full N).
  Proof using HN.
    destruct (side N HN) as (H3 & Hs). destruct (spacing_pos n H3) as (Hh & _). assert (Hc : 0 < / h ^ 2) by (apply Rinv_0_lt_compat, pow_lt; lra).
    assert (Hn : (n <= N)%nat) by (apply Nat.sqrt_le_lin; lia).
    assert (D : forall i, (i < N)%nat -> l_full N i i = if l_boundary N n i then 1 else 4 * / h ^ 2).
    { intros i Hi. unfold l_full, laid. rewrite (proj2 (Nat.ltb_lt i N) Hi), Nat.eqb_refl, (l_inverse_is N HN). destruct (l_boundary N n i); reflexivity. }
    assert (Neg : forall i j, (i < N)%nat -> j <> i -> l_full N i j <= 0).
    { intros i j Hi Hj. unfold l_full, laid. rewrite (proj2 (Nat.ltb_lt i N) Hi), (proj2 (Nat.eqb_neq j i) Hj), (l_inverse_is N HN).
      destruct (l_boundary N n i); [lra|]. destruct (_ || _)%bool; [cbn [rops sc_mul sc_of_Z]; lra|lra]. }
    assert (Ins : forall i, l_boundary N n i = false -> (n <= i /\ i + n < N)%nat).
    { intros i B. unfold l_boundary in B. apply Bool.orb_false_elim in B as (B & B4). apply Bool.orb_false_elim in B as (_ & B3). apply Nat.ltb_ge in B3. apply Nat.leb_gt in B4. lia. }
    assert (Off : forall i, (i < N)%nat -> off_diagonal N (l_full N) i = if l_boundary N n i then 0 else 4 * / h ^ 2).
    { intros i Hi.
      assert (E : off_diagonal N (l_full N) i = rsum N (fun j => l_full N i j * (if (j =? i)%nat then 1 else -1)) - (if l_boundary N n i then 1 else 4 * / h ^ 2)).
      { pose proof (D i Hi) as Di. unfold off_diagonal.
        rewrite (asum_ext _ _ N (fun j => l_full N i j * (if (j =? i)%nat then 1 else -1))
          (fun j => (if (j =? i)%nat then 0 else Rabs (l_full N i j)) + (if (i =? j)%nat then l_full N i i else 0))).
        - rewrite rsum_plus, rsum_single. rewrite (proj2 (Nat.ltb_lt i N) Hi), Di. lra.
        - intros j Hj. rewrite (Nat.eqb_sym i j). destruct (Nat.eqb_spec j i) as [->|Hne]; [ring|]. rewrite Rabs_left1 by (apply Neg; auto). ring. }
      rewrite E, (l_rows N HN _ _ Hi). destruct (l_boundary N n i) eqn:B.
      - rewrite Nat.eqb_refl. lra.
      - destruct (Ins i B) as (I1 & I2). rewrite Nat.eqb_refl.
        destruct (Nat.eqb_spec (i - 1) i) as [F1|F1]; [lia|]. destruct (Nat.eqb_spec (i + 1) i) as [F2|F2]; [lia|]. destruct (Nat.eqb_spec (i - n) i) as [F3|F3]; [lia|].
        destruct (Nat.eqb_spec (i + n) i) as [F4|F4]; [lia|]. ring. }
    split.
    - intros i Hi. rewrite (D i Hi), (Off i Hi). destruct (l_boundary N n i); rewrite Rabs_pos_eq by lra; split; lra.
    - assert (K : forall k i, (i < N)%nat -> (i <= k)%nat -> exists m, chain N (l_full N) m i).
      { induction k as [|k IH]; intros i Hi Hk.
        - exists 0%nat. apply chain_0; [exact Hi|]. replace i with 0%nat in * by lia. rewrite (D _ Hi), (Off _ Hi).
          assert (B : l_boundary N n 0 = true) by (apply rim_test; [exact Hn|]; right; right; left; lia). rewrite B, Rabs_pos_eq; lra.
        - destruct (l_boundary N n i) eqn:B.
          + exists 0%nat. apply chain_0; [exact Hi|]. rewrite (D _ Hi), (Off _ Hi), B, Rabs_pos_eq; lra.
          + destruct (Ins i B) as (I1 & I2). destruct (IH (i - 1)%nat ltac:(lia) ltac:(lia)) as (m & C). exists (S m).
            apply (chain_S N _ m i (i - 1)%nat); [exact Hi|lia| |exact C].
            unfold l_full, laid. rewrite (proj2 (Nat.ltb_lt i N) Hi), B, (l_inverse_is N HN). destruct (Nat.eqb_spec (i - 1) i) as [F|F]; [lia|].
            replace (i - 1 + 1 =? i)%nat with true by (symmetry; apply Nat.eqb_eq; lia). cbn [orb rops sc_mul sc_of_Z]. lra. }
      intros i Hi. apply (K i i Hi). lia.
  Qed.
End Solved.

(** All of it together, for a sparse matrix. *)
Lemma laplace_solved M dbg stray N a A0 b x : (9 <= N)%nat -> sparse_square 0 N a A0 -> length b = N -> length x = N ->
  exists a' A b' g us, (exists x', construct_sparse rops M dbg stray a b x = Ok (a', b', x')) /\ sparse_square 0 N a' A /\ is_vec N b' g /\
  five_points N us /\ (forall vs, five_points N vs -> forall i, (i < N)%nat -> vs i = us i) /\
  forall y, length y = N ->
    (forall eps, 0 < eps -> exists K, forall k, (K <= k)%nat ->
      (forall w, length w = N -> exists y' w' f, times (jacobi_step rops dbg stray a' b') k (y, w) = Ok (y', w') /\ is_vec N y' f /\ near N f us eps) /\
      (exists y' f, times (gauss_seidel_step rops dbg stray a' b') k (y, []) = Ok (y', []) /\ is_vec N y' f /\ near N f us eps)) /\
    forall tol, 0 < tol ->
      (forall working, solver_stops M N A g tol (jacobi_step rops dbg stray a' b' (y, vresize working N 0))
         (fun lim fuel => do r <- jacobi_solve rops M dbg stray fuel lim working a' y b'; Ok (fst (fst r), snd r))) /\
      solver_stops M N A g tol (gauss_seidel_step rops dbg stray a' b' (y, [])) (fun lim fuel => gauss_seidel_solve rops M dbg stray fuel lim a' y b').
Proof.
  intros HN Ha Lb Lx. destruct (sparse_filled M dbg stray N a A0 b x HN Ha Lb Lx) as (a' & b' & x' & E & Ha' & Hb & _).
  pose proof (l_chained N HN) as Hc. destruct (chained_converges dbg stray N a' (l_full N) b' (given rops N) Ha' Hb Hc) as (us & Hs & Hu & H).
  exists a', (l_full N), b', (given rops N), us. split; [exists x'; exact E|]. split; [exact Ha'|]. split; [exact Hb|]. split; [apply (l_equations N HN us); exact Hs|].
  split; [intros vs Hv; apply Hu; exact (proj2 (l_equations N HN vs) Hv)|]. intros y Ly. split; [exact (H y Ly)|].
  intros tol Ht. apply (chained_stops M dbg stray N a' (l_full N) b' (given rops N) y tol ltac:(lia) Ha' Hb Hc Ly Ht).
Qed.
