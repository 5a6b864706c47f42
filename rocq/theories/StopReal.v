(** The iterative solvers stop in exact arithmetic. *)
From Coq Require Import ZArith Reals Lra Lia List Psatz.
From Verif Require Import Base ListFacts DenseModel DenseFacts ScalarModel GeometryReal GraphModel SparseModel SparseSpec SparseSeq LuModel LuReal LuSuccess FloatError FloatUnit
  PropLuLemmas IterModel IterFacts IterLoop IterField IterReal PropIterLemmas Energy EnergyDrift PropEnergyLemmas PropRelaxLemmas PropSuccessLemmas PropChainLemmas
  SourceModel SourceFacts SourceError SourceSolved Prescribed PrescribedRate.
Import ListNotations.
Local Open Scope nat_scope.

(** By how much the equation [i] is not satisfied. *)
Definition off_by (n : nat) (A : nat -> nat -> R) (h f : nat -> R) (i : nat) : R := Rabs (h i - rsum n (fun j => A i j * f j)%R).

Section Ends.
  Context {V : Type}.
  Variables (O : sops V) (M : nat) (dbg : bool) (stray : option nat).

  (** When the tolerance is met after [K] executions the loop ends by then. *)
  Lemma loop_by (Q : list V * list V -> Prop) step lim a b fuel s K :
    (forall t, Q t -> exists t1 r, step t = Ok t1 /\ Q t1 /\ compute_residual O dbg stray a (fst t1) b = Ok r) -> Q s -> K <= M ->
    (forall t cd, data_at O M dbg stray step a b s K t cd -> is_converged O lim cd = true) -> K < fuel ->
    exists t cd k, solve_loop O M dbg stray step fuel lim a b s (conv_default O) = Ok (t, cd) /\ k <= K /\
      data_at O M dbg stray step a b s k t cd /\ is_converged O lim cd = true /\ Q t.
  Proof using.
    intros Hs HQ HK HC Hf.
    assert (G : forall m fuel k t cd, K = k + m -> m < fuel -> Q t -> data_at O M dbg stray step a b s k t cd ->
       exists t' cd' k', solve_loop O M dbg stray step fuel lim a b t cd = Ok (t', cd') /\ k' <= K /\
         data_at O M dbg stray step a b s k' t' cd' /\ is_converged O lim cd' = true /\ Q t').
    { clear fuel Hf. induction m as [|m IH]; intros fuel k t cd Ek Hf Ht Hd; (destruct fuel as [|fuel]; [lia|]); cbn [solve_loop].
      - assert (Ek' : k = K) by lia. subst k. rewrite (HC t cd Hd). exists t, cd, K. split; [reflexivity|]. split; [lia|]. split; [exact Hd|]. split; [apply HC with t, Hd|exact Ht].
      - destruct (is_converged O lim cd) eqn:E; [exists t, cd, k; split; [reflexivity|]; split; [lia|auto]|].
        destruct (Hs t Ht) as (t1 & r & E1 & Q1 & Er). rewrite E1. cbn [bind].
        destruct (update O M dbg stray a (fst t1) b cd) as [cd1| | |] eqn:Eu; [|unfold update in Eu; rewrite Er in Eu; discriminate..].
        cbn [bind]. apply (IH fuel (k + 1) t1 cd1); try lia; auto. eapply data_at_step; eauto. }
    apply (G K fuel 0 s (conv_default O)); auto. apply data_at_0.
  Qed.

  Lemma sweep_row_length a (x : option (list V)) b w i u u' : sweep_row O dbg stray a x b w i u = Ok u' -> length u' = length u.
  Proof using.
    unfold sweep_row. intro H. repeat match type of H with bind ?m _ = _ => destruct m; cbn [bind] in H; try discriminate end.
    destruct (Nat.lt_ge_cases i (length u)) as [L|L]; [|rewrite vset_ge in H by exact L; discriminate].
    rewrite vset_lt in H by exact L. injection H as <-. apply upd_length; exact L.
  Qed.

  Lemma forM_length {B} (l : list B) (f : B -> list V -> res (list V)) : (forall e u u', f e u = Ok u' -> length u' = length u) ->
    forall u u', forM l f u = Ok u' -> length u' = length u.
  Proof using.
    intro Hf. induction l as [|e l IH]; intros u u' H; cbn [forM] in H; [congruence|]. destruct (f e u) as [v| | |] eqn:E; cbn [bind] in H; try discriminate.
    rewrite (IH v u' H). apply (Hf e), E.
  Qed.

  Lemma sweep_length a (x : option (list V)) u b w u' : forward_sweep O dbg stray a x u b w = Ok u' -> length u' = length u.
  Proof using. unfold forward_sweep, FOR. apply forM_length. intros. eapply sweep_row_length; eauto. Qed.
End Ends.

Local Open Scope R_scope.
Lemma quot_le x y t : 0 < y -> x / y <= t -> x <= t * y.
Proof. intros Hy H. apply (Rmult_le_compat_r y) in H; [|lra]. unfold Rdiv in H. rewrite (Rmult_assoc x), Rinv_l, Rmult_1_r in H by lra. exact H. Qed.
Lemma quot_lt x y t : 0 < y -> t < x / y -> t * y < x.
Proof. intros Hy H. apply (Rmult_lt_compat_r y) in H; [|lra]. unfold Rdiv in H. rewrite (Rmult_assoc x), Rinv_l, Rmult_1_r in H by lra. exact H. Qed.

Section Generic.
  Variables (M : nat) (dbg : bool) (stray : option nat) (n : nat) (a : smat R) (A : nat -> nat -> R) (b : list R) (h xs : nat -> R).
  Hypothesis Hn : (0 < n)%nat.
  Hypothesis Ha : sparse_square 0 n a A.
  Hypothesis Hb : is_vec n b h.
  Hypothesis Hx : forall i, (i < n)%nat -> rsum n (fun j => A i j * xs j) = h i.
  Variable step : list R * list R -> res (list R * list R).
  Variable sized : list R * list R -> Prop.
  Hypothesis Hlen : forall t, sized t -> length (fst t) = n.
  Hypothesis Hstep : forall t t1, sized t -> step t = Ok t1 -> sized t1.
  Variable s : list R * list R.
  Hypothesis Hs : sized s.
  Hypothesis Hconv : forall eps, 0 < eps -> exists K, forall k, (K <= k)%nat ->
    exists x w f, times step k s = Ok (x, w) /\ is_vec n x f /\ near n f xs eps.

  Lemma times_prefix k : exists t, times step k s = Ok t /\ sized t.
  Proof using Hn Hs Hstep Hconv.
    destruct (Hconv 1 ltac:(lra)) as (K & HK). destruct (HK (K + k)%nat ltac:(lia)) as (x & w & f & E & _).
    assert (P : forall m, exists t, times step k s = Ok t \/ forall r, times step (m + k) s <> Ok r).
    { induction m as [|m IH]; cbn [Nat.add times].
      - destruct (times step k s) as [t| | |]; [exists t; auto|exists s; right; discriminate..].
      - destruct IH as (t & [Q|Q]); [exists t; auto|]. exists t. right. intro r. destruct (times step (m + k) s) as [q| | |]; cbn [bind]; try discriminate. exfalso. apply (Q q). reflexivity. }
    destruct (P K) as (t & [Q|Q]); [|exfalso; apply (Q _ E)]. exists t. split; [exact Q|]. clear E P HK. revert t Q. induction k as [|k IH]; cbn [times]; intros t Q.
    - injection Q as <-. exact Hs.
    - destruct (times step k s) as [q| | |]; cbn [bind] in Q; try discriminate. apply (Hstep q); [apply IH; reflexivity|exact Q].
  Qed.

  Lemma vec_of t : sized t -> is_vec n (fst t) (fun i => nth i (fst t) 0).
  Proof using Hlen. intro H. rewrite <- (Hlen t H). apply is_vec_self. Qed.

  Let B : R := rsum n (fun i => rsum n (fun j => Rabs (A i j))).

  Lemma near_residual f eps : near n f xs eps -> forall i, (i < n)%nat -> off_by n A h f i <= B * eps.
  Proof using Hx Hn.
    intros Hf i Hi. unfold off_by. rewrite <- (Hx i Hi), <- rsum_minus. assert (E0 : 0 <= eps) by (specialize (Hf 0%nat Hn); pose proof (Rabs_pos (f 0%nat - xs 0%nat)); lra).
    apply Rle_trans with (1 := rsum_abs _ _). apply Rle_trans with (rsum n (fun j => eps * Rabs (A i j))).
    - apply rsum_le. intros j Hj. replace (A i j * xs j - A i j * f j) with (- (A i j * (f j - xs j))) by ring. rewrite Rabs_Ropp, Rabs_mult, Rmult_comm.
      apply Rmult_le_compat_r; [apply Rabs_pos|]. left. apply Hf, Hj.
    - rewrite rsum_scale, Rmult_comm. apply Rmult_le_compat_r; [exact E0|]. apply (rsum_member n (fun i => rsum n (fun j => Rabs (A i j))) i Hi).
      intros j Hj. apply rsum_nonneg. intros. apply Rabs_pos.
  Qed.

  (** The solver stops, and what its result satisfies then. *)
  Lemma stops tol : 0 < tol ->
    (forall t f, step s = Ok t -> is_vec n (fst t) f -> exists i, (i < n)%nat /\ 0 < off_by n A h f i) ->
    exists K, forall lim fuel, tolerance lim = tol -> (Nat.max K (min_iterations lim) <= M)%nat -> (Nat.max K (min_iterations lim) < fuel)%nat ->
      exists t cd f, solve_loop rops M dbg stray step fuel lim a b s (conv_default rops) = Ok (t, cd) /\ is_vec n (fst t) f /\ sized t /\
        (cd_iteration cd <= Nat.max K (min_iterations lim))%nat /\
        ((1 <= cd_iteration cd <= max_iteration lim)%nat -> exists t1 f1, step s = Ok t1 /\ is_vec n (fst t1) f1 /\
           sqrt (rsum n (fun i => off_by n A h f i ^ 2)) <= tol * sqrt (rsum n (fun i => off_by n A h f1 i ^ 2)) /\
           forall m, (forall i, (i < n)%nat -> off_by n A h f1 i <= m) -> forall i, (i < n)%nat -> off_by n A h f i <= 10 * tol * m).
  Proof using Hn Ha Hb Hx Hlen Hstep Hs Hconv.
    intros Ht Hfirst. destruct (times_prefix 1) as (t1 & E1 & S1). pose proof (vec_of t1 S1) as V1. set (f1 := fun i => nth i (fst t1) 0) in *.
    assert (E1' : step s = Ok t1) by exact E1.
    destruct (residual_real dbg stray n a A b h (fst t1) f1 Ha Hb V1 Hn) as (r1 & m1 & R1 & Er1 & Hm1 & (i1 & Hi1 & Em1)).
    destruct (Hfirst t1 f1 E1' V1) as (i0 & Hi0 & P0). assert (N0 : 0 < INR n) by (apply lt_0_INR, Hn).
    assert (Pm : 0 < m1) by (apply Rlt_le_trans with (1 := P0), Hm1, Hi0).
    assert (Sq : forall f, rsum n (fun i => (h i - rsum n (fun j => A i j * f j)) ^ 2) = rsum n (fun i => off_by n A h f i ^ 2)).
    { intro f. apply asum_ext. intros i Hi. unfold off_by. rewrite pow2_abs. reflexivity. }
    assert (Sn : forall f, 0 <= rsum n (fun i => off_by n A h f i ^ 2)) by (intro f; apply rsum_nonneg; intros; apply pow2_ge_0).
    assert (S1p : 0 < rsum n (fun i => off_by n A h f1 i ^ 2)).
    { apply Rlt_le_trans with (off_by n A h f1 i0 ^ 2); [apply pow_lt, P0|]. apply (rsum_member n (fun i => off_by n A h f1 i ^ 2) i0 Hi0). intros; apply pow2_ge_0. }
    assert (Pr : 0 < r1) by (rewrite Er1, Sq; apply sqrt_lt_R0, Rdiv_lt_0_compat; auto).
    assert (B0 : 0 <= B) by (apply rsum_nonneg; intros; apply rsum_nonneg; intros; apply Rabs_pos).
    set (e := tol * Rmin r1 m1 / (B + 1)). assert (Pmin : 0 < Rmin r1 m1) by (apply Rmin_glb_lt; auto).
    assert (He : 0 < e) by (apply Rdiv_lt_0_compat; [apply Rmult_lt_0_compat; auto|lra]).
    assert (Be : B * e <= tol * Rmin r1 m1).
    { unfold e. replace (B * (tol * Rmin r1 m1 / (B + 1))) with (tol * Rmin r1 m1 * (B / (B + 1))) by (field; lra). rewrite <- (Rmult_1_r (tol * Rmin r1 m1)) at 2.
      apply Rmult_le_compat_l; [left; apply Rmult_lt_0_compat; auto|]. apply (Rmult_le_reg_r (B + 1)); [lra|]. unfold Rdiv. rewrite Rmult_assoc, Rinv_l by lra. lra. }
    destruct (Hconv e He) as (K & HK). exists (Nat.max K 1). intros lim fuel Etol HM Hf. set (K' := Nat.max (Nat.max K 1) (min_iterations lim)) in *.
    destruct (loop_by rops M dbg stray (fun t => sized t /\ exists k, times step k s = Ok t) step lim a b fuel s K') as (t & cd & k & El & Hk & Hd & Hc & St & _).
    - intros t (St & k & Ek). destruct (times_prefix (S k)) as (t2 & E2 & S2). pose proof E2 as E3. cbn [times] in E3. rewrite Ek in E3. cbn [bind] in E3.
      destruct (residual_real dbg stray n a A b h (fst t2) _ Ha Hb (vec_of t2 S2) Hn) as (r & m & R & _). exists t2, (r, m).
      split; [exact E3|]. split; [|exact R]. split; [exact S2|exists (S k); exact E2].
    - split; [exact Hs|exists 0%nat; reflexivity].
    - exact HM.
    - intros t cd (Et & _ & Hd). destruct (Hd HM) as (Ei & _ & Hp). destruct Hp as (t1' & r & r1' & F1 & F2 & F3 & _ & _ & Q1 & _ & _ & Q2); [lia|].
      rewrite E1 in F1. injection F1 as <-. rewrite R1 in F3. injection F3 as <-. cbn [fst snd] in Q1, Q2.
      destruct (HK K' ltac:(lia)) as (x & w & f & Ef & Vf & Nf). rewrite Et in Ef. injection Ef as ->. cbn [fst] in F2.
      destruct (residual_real dbg stray n a A b h x f Ha Hb Vf Hn) as (r0 & m0 & R0 & Er0 & _ & (j & Hj & Em0)). rewrite F2 in R0. injection R0 as ->. cbn [fst snd] in Q1, Q2.
      pose proof (near_residual f e Nf) as Hres. pose proof (Rmin_l r1 m1) as L1. pose proof (Rmin_r r1 m1) as L2.
      assert (G1 : r0 <= tol * Rmin r1 m1).
      { rewrite Er0, Sq. rewrite <- (sqrt_pow2 (tol * Rmin r1 m1)) by (left; apply Rmult_lt_0_compat; auto). apply sqrt_le_1_alt.
        apply (Rmult_le_reg_r (INR n)); [exact N0|]. unfold Rdiv. rewrite Rmult_assoc, Rinv_l, Rmult_1_r by lra.
        apply Rle_trans with (rsum n (fun _ => (tol * Rmin r1 m1) ^ 2)); [|rewrite rsum_const; lra].
        apply rsum_le. intros i Hi. apply pow_incr. split; [apply Rabs_pos|]. apply Rle_trans with (1 := Hres i Hi), Be. }
      assert (G2 : m0 <= tol * Rmin r1 m1) by (rewrite Em0; apply Rle_trans with (1 := Hres j Hj), Be).
      unfold is_converged. rewrite Ei, Q1, Q2, Etol. destruct (Nat.ltb_spec K' (min_iterations lim)); [lia|].
      destruct (max_iteration lim <? K')%nat; [reflexivity|]. cbn [rops sc_lt sc_mul sc_div sc_of_Z].
      destruct (Rltb tol (r0 / r1)) eqn:U1.
      { exfalso. apply Rltb_true in U1. apply (quot_lt _ _ _ Pr) in U1.
        assert (tol * Rmin r1 m1 <= tol * r1) by (apply Rmult_le_compat_l; lra). lra. }
      destruct (Rltb (10 * tol) (m0 / m1)) eqn:U2; [|reflexivity].
      exfalso. apply Rltb_true in U2. apply (quot_lt _ _ _ Pm) in U2.
      assert (tol * Rmin r1 m1 <= tol * m1) by (apply Rmult_le_compat_l; lra). assert (0 < tol * m1) by (apply Rmult_lt_0_compat; auto). lra.
    - exact Hf.
    - pose proof (vec_of t St) as Vt. set (f := fun i => nth i (fst t) 0) in *. exists t, cd, f. split; [exact El|]. split; [exact Vt|]. split; [exact St|].
      destruct Hd as (Et & _ & Hd). destruct (Hd ltac:(lia)) as (Ei & _ & Hp). rewrite Ei. split; [exact Hk|]. intros (K1 & K2).
      exists t1, f1. split; [exact E1'|]. split; [exact V1|].
      destruct Hp as (t1' & r & r1' & F1 & F2 & F3 & _ & _ & Q1 & _ & _ & Q2); [lia|].
      rewrite E1 in F1. injection F1 as <-. rewrite R1 in F3. injection F3 as <-. cbn [fst snd] in Q1, Q2.
      destruct (residual_real dbg stray n a A b h (fst t) f Ha Hb Vt Hn) as (r0 & m0 & R0 & Er0 & Hm0 & _). rewrite F2 in R0. injection R0 as ->. cbn [fst snd] in Q1, Q2.
      unfold is_converged in Hc. rewrite Ei, Q1, Q2, Etol in Hc. destruct (k <? min_iterations lim)%nat; [discriminate|].
      destruct (Nat.ltb_spec (max_iteration lim) k); [lia|]. cbn [rops sc_lt sc_mul sc_div sc_of_Z] in Hc.
      destruct (Rltb tol (r0 / r1)) eqn:U1; [discriminate|]. destruct (Rltb (10 * tol) (m0 / m1)) eqn:U2; [discriminate|].
      apply Rltb_false in U1, U2.
      assert (G1 : r0 <= tol * r1).
      { apply (quot_le _ _ _ Pr), U1. }
      assert (G2 : m0 <= 10 * tol * m1).
      { apply (quot_le _ _ _ Pm), U2. }
      split.
      + rewrite Er0, Er1, !Sq in G1. rewrite !sqrt_div in G1 by auto. apply (Rmult_le_reg_r (/ sqrt (INR n))); [apply Rinv_0_lt_compat, sqrt_lt_R0, N0|].
        unfold Rdiv in G1. rewrite Rmult_assoc. exact G1.
      + intros m Hm i Hi. apply Rle_trans with (1 := Hm0 i Hi). apply Rle_trans with (1 := G2). apply Rmult_le_compat_l; [lra|]. rewrite Em1. apply Hm, Hi1.
  Qed.
End Generic.

(** The residuals of [f] are below those of [f1] by the tolerance: in the mean, and ten times the tolerance in each equation. *)
Definition reduced (n : nat) (A : nat -> nat -> R) (h : nat -> R) (tol : R) (f1 f : nat -> R) : Prop :=
  sqrt (rsum n (fun i => off_by n A h f i ^ 2)) <= tol * sqrt (rsum n (fun i => off_by n A h f1 i ^ 2)) /\
  forall m, (forall i, (i < n)%nat -> off_by n A h f1 i <= m) -> forall i, (i < n)%nat -> off_by n A h f i <= 10 * tol * m.

(** A solver whose first sweep gives [first]: it is done after a number of sweeps that does not depend on the largest number
    allowed, and unless it is stopped by that its result has small residuals. *)
Definition solver_stops (M n : nat) (A : nat -> nat -> R) (h : nat -> R) (tol : R) (first : res (list R * list R))
    (solve : limits R -> nat -> res (list R * conv_data R)) : Prop :=
  (forall x1 w1 f1, first = Ok (x1, w1) -> is_vec n x1 f1 -> exists i, (i < n)%nat /\ 0 < off_by n A h f1 i) ->
  exists K, forall lim fuel, tolerance lim = tol -> (Nat.max K (min_iterations lim) <= M)%nat -> (Nat.max K (min_iterations lim) < fuel)%nat ->
    exists x' cd f, solve lim fuel = Ok (x', cd) /\ is_vec n x' f /\ (cd_iteration cd <= Nat.max K (min_iterations lim))%nat /\
      ((1 <= cd_iteration cd <= max_iteration lim)%nat -> exists x1 w1 f1, first = Ok (x1, w1) /\ is_vec n x1 f1 /\ reduced n A h tol f1 f).

Section Instances.
  Variables (M : nat) (dbg : bool) (stray : option nat) (n : nat) (a : smat R) (A : nat -> nat -> R) (b : list R) (h xs : nat -> R).
  Hypothesis Hn : (0 < n)%nat.
  Hypothesis Ha : sparse_square 0 n a A.
  Hypothesis Hb : is_vec n b h.
  Hypothesis Hx : forall i, (i < n)%nat -> rsum n (fun j => A i j * xs j) = h i.
  Variables (x : list R) (tol : R).
  Hypothesis Lx : length x = n.
  Hypothesis Ht : 0 < tol.

  Lemma sweep_stops (step : list R * list R -> res (list R * list R)) w :
    (forall y u, step (y, u) = do y' <- forward_sweep rops dbg stray a None y b w; Ok (y', u)) ->
    (forall eps, 0 < eps -> exists K, forall k, (K <= k)%nat ->
       exists x' f, times step k (x, []) = Ok (x', []) /\ is_vec n x' f /\ near n f xs eps) ->
    solver_stops M n A h tol (step (x, []))
      (fun lim fuel => do r <- solve_loop rops M dbg stray step fuel lim a b (x, []) (conv_default rops); Ok (fst (fst r), snd r)).
  Proof using Hn Ha Hb Hx Lx Ht.
    intros Hst Hc Hfirst.
    destruct (stops M dbg stray n a A b h xs Hn Ha Hb Hx step (fun t => length (fst t) = n)) with (s := (x, @nil R)) (tol := tol) as (K & HK); auto.
    - intros (y & u) t1 Ly E. rewrite Hst in E. cbn [fst] in Ly. destruct (forward_sweep rops dbg stray a None y b w) as [y'| | |] eqn:Es; cbn [bind] in E; try discriminate.
      injection E as <-. cbn [fst]. rewrite <- Ly. eapply sweep_length; eauto.
    - intros eps He. destruct (Hc eps He) as (K & HK). exists K. intros k Hk. destruct (HK k Hk) as (x' & f & E & V & N). exists x', [], f. auto.
    - intros (x1 & w1) f E V. apply (Hfirst x1 w1 f); auto.
    - exists K. intros lim fuel H1 H2 H3. destruct (HK lim fuel H1 H2 H3) as (t & cd & f & E & V & _ & Hk & G). exists (fst t), cd, f. rewrite E. cbn [bind fst snd].
      split; [reflexivity|]. split; [exact V|]. split; [exact Hk|]. intro Q. destruct (G Q) as ((x1 & w1) & f1 & E1 & V1 & R1). exists x1, w1, f1. auto.
  Qed.

  Lemma jacobi_stops working :
    (forall eps, 0 < eps -> exists K, forall k, (K <= k)%nat -> forall u, length u = n ->
       exists x' w' f, times (jacobi_step rops dbg stray a b) k (x, u) = Ok (x', w') /\ is_vec n x' f /\ near n f xs eps) ->
    solver_stops M n A h tol (jacobi_step rops dbg stray a b (x, vresize working n 0))
      (fun lim fuel => do r <- jacobi_solve rops M dbg stray fuel lim working a x b; Ok (fst (fst r), snd r)).
  Proof using Hn Ha Hb Hx Lx Ht.
    intros Hc Hfirst. assert (Lu : length (vresize working n 0) = n) by apply vresize_length.
    assert (Er : s_rows a = n) by apply Ha. unfold jacobi_solve. rewrite Er. cbn [rops sc_zero]. fold rops.
    destruct (stops M dbg stray n a A b h xs Hn Ha Hb Hx (jacobi_step rops dbg stray a b) (fun t => length (fst t) = n /\ length (snd t) = n))
      with (s := (x, vresize working n 0)) (tol := tol) as (K & HK); auto.
    - tauto.
    - intros (y & u) t1 (Ly & Lw) E. unfold jacobi_step in E. cbn [fst snd] in *. destruct (forward_sweep rops dbg stray a (Some y) u b (sc_one rops)) as [u'| | |] eqn:Es; cbn [bind] in E; try discriminate.
      injection E as <-. cbn [fst snd]. split; [|exact Ly]. rewrite <- Lw. eapply sweep_length; eauto.
    - intros eps He. destruct (Hc eps He) as (K & HK). exists K. intros k Hk. apply (HK k Hk). exact Lu.
    - intros (x1 & w1) f E V. apply (Hfirst x1 w1 f); auto.
    - exists K. intros lim fuel H1 H2 H3. destruct (HK lim fuel H1 H2 H3) as (t & cd & f & E & V & _ & Hk & G). exists (fst t), cd, f. rewrite E. cbn [bind fst snd].
      split; [reflexivity|]. split; [exact V|]. split; [exact Hk|]. intro Q. destruct (G Q) as ((x1 & w1) & f1 & E1 & V1 & R1). exists x1, w1, f1. auto.
  Qed.
End Instances.

Lemma geometric_near C q eps : 0 <= C -> 0 <= q < 1 -> 0 < eps -> exists K, forall k, (K <= k)%nat -> C * q ^ k < eps.
Proof.
  intros HC Hq He. assert (P : 0 < eps / (C + 1)) by (apply Rdiv_lt_0_compat; lra).
  destruct (pow_lt_1_zero q ltac:(rewrite Rabs_pos_eq; lra) _ P) as (K & HK). exists K. intros k Hk. specialize (HK k Hk).
  assert (Q : 0 <= q ^ k) by (apply pow_le; lra). rewrite Rabs_pos_eq in HK by exact Q. apply (Rmult_lt_compat_r (C + 1)) in HK; [|lra].
  unfold Rdiv in HK. rewrite Rmult_assoc, Rinv_l, Rmult_1_r in HK by lra. nra.
Qed.

Lemma prescribed_stops M dbg stray n a A b h d x tol : (0 < n)%nat -> sparse_square 0 n a A -> is_vec n b h -> prescribed n d A ->
  symmetric n (free_part d A) -> positive_definite n (free_part d A) -> length x = n -> 0 < tol ->
  solver_stops M n A h tol (gauss_seidel_step rops dbg stray a b (x, [])) (fun lim fuel => gauss_seidel_solve rops M dbg stray fuel lim a x b) /\
  forall w, solver_stops M n A h tol (sor_step rops dbg stray a b (x, [])) (fun lim fuel => sor_solve rops M dbg stray fuel lim w a x b).
Proof.
  intros Hn Ha Hb Hd Hs Hp Lx Ht. destruct (prescribed_rate dbg stray n a A b h d Ha Hb Hd Hs Hp) as (xs & q & Hq & Hx & _ & H).
  destruct (H x Lx) as (C & HC & G). split.
  - apply (sweep_stops M dbg stray n a A b h xs Hn Ha Hb Hx x tol Lx Ht (gauss_seidel_step rops dbg stray a b) 1); [reflexivity|].
    intros eps He. destruct (geometric_near C q eps HC Hq He) as (K & HK). exists K. intros k Hk. destruct (G k) as ((x' & f & E & V & N) & _).
    exists x', f. split; [exact E|]. split; [exact V|]. intros i Hi. apply Rle_lt_trans with (1 := N i Hi), HK, Hk.
  - intros w. apply (sweep_stops M dbg stray n a A b h xs Hn Ha Hb Hx x tol Lx Ht (sor_step rops dbg stray a b) (sor_factor rops)); [reflexivity|].
    intros eps He. destruct (geometric_near C q eps HC Hq He) as (K & HK). exists K. intros k Hk. destruct (G k) as (_ & (x' & f & E & V & N)).
    exists x', f. split; [exact E|]. split; [exact V|]. intros i Hi. apply Rle_lt_trans with (1 := N i Hi), HK, Hk.
Qed.

Lemma chained_stops M dbg stray n a A b h x tol : (0 < n)%nat -> sparse_square 0 n a A -> is_vec n b h -> chained n A -> length x = n -> 0 < tol ->
  (forall working, solver_stops M n A h tol (jacobi_step rops dbg stray a b (x, vresize working n 0))
     (fun lim fuel => do r <- jacobi_solve rops M dbg stray fuel lim working a x b; Ok (fst (fst r), snd r))) /\
  solver_stops M n A h tol (gauss_seidel_step rops dbg stray a b (x, [])) (fun lim fuel => gauss_seidel_solve rops M dbg stray fuel lim a x b).
Proof.
  intros Hn Ha Hb Hc Lx Ht. destruct (chained_converges dbg stray n a A b h Ha Hb Hc) as (xs & Hx & _ & H). split.
  - intro working. apply (jacobi_stops M dbg stray n a A b h xs Hn Ha Hb Hx x tol Lx Ht). intros eps He. destruct (H x Lx eps He) as (K & HK). exists K. intros k Hk. apply (HK k Hk).
  - apply (sweep_stops M dbg stray n a A b h xs Hn Ha Hb Hx x tol Lx Ht (gauss_seidel_step rops dbg stray a b) 1); [reflexivity|].
    intros eps He. destruct (H x Lx eps He) as (K & HK). exists K. intros k Hk. apply (HK k Hk).
Qed.

(** All three on the problem with a source. *)
Lemma source_stops M dbg stray n b x tol : (3 <= n)%nat -> length x = (n * n)%nat -> 0 < tol -> let N := (n * n)%nat in
  exists a A b' g, run_ops 0 M dbg stray (source_matrix rops n) s_default = Ok a /\ sparse_square 0 N a A /\ source_b rops n b = Ok b' /\ is_vec N b' g /\
  (forall working, solver_stops M N A g tol (jacobi_step rops dbg stray a b' (x, vresize working N 0))
     (fun lim fuel => do r <- jacobi_solve rops M dbg stray fuel lim working a x b'; Ok (fst (fst r), snd r))) /\
  solver_stops M N A g tol (gauss_seidel_step rops dbg stray a b' (x, [])) (fun lim fuel => gauss_seidel_solve rops M dbg stray fuel lim a x b') /\
  forall w, solver_stops M N A g tol (sor_step rops dbg stray a b' (x, [])) (fun lim fuel => sor_solve rops M dbg stray fuel lim w a x b').
Proof.
  intros Hn Lx Ht N. destruct (source_runs n Hn M dbg stray) as (a & Ea & Ha). destruct (b_filled n Hn b) as (b' & Eb & Hb).
  assert (N0 : (0 < N)%nat) by (unfold N; nia). destruct (source_free n Hn) as (Fs & Fp). exists a, (source_full n), b', (given_b n). repeat (split; [assumption|]).
  destruct (chained_stops M dbg stray N a _ b' _ x tol N0 Ha Hb (source_chained n Hn) Lx Ht) as (J & G).
  destruct (prescribed_stops M dbg stray N a _ b' _ (on_boundary n) x tol N0 Ha Hb (source_prescribed n) Fs Fp Lx Ht) as (_ & S). auto.
Qed.
