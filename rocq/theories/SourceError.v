(** The Laplace problem with a source: its solution and the error of the five point equations. *)
From Coq Require Import ZArith Reals Lra Lia List Psatz.
From Verif Require Import Base ListFacts DenseModel DenseFacts ScalarModel GeometryReal GraphModel GraphSpec SparseModel SparseSpec SparseFacts
  SparseSeq LuModel LuReal LuFacts IterModel IterLoop IterField IterReal FloatFacts PropIterLemmas PropRelaxLemmas PropSuccessLemmas PropChainLemmas GridSetup PropGridLemmas GridWhole SourceModel SourceFacts.
Import ListNotations.
Local Open Scope R_scope.

(** The function the test calls the analytical solution. *)
Definition true_u (x y : R) : R := (x ^ 2 - x ^ 4) * (y ^ 4 - y ^ 2).

(** [d] is the second derivative of [f] at [x]. *)
Definition second (f : R -> R) (x d : R) : Prop := exists f', (forall t, derivable_pt_lim f t (f' t)) /\ derivable_pt_lim f' x d.

(** The distance of the nodes, and the boundary of the square. *)
Definition spacing (n : nat) : R := / (INR n - 1).
Definition edge_of (n x y : nat) : Prop := x = 0%nat \/ y = 0%nat \/ (x + 1)%nat = n \/ (y + 1)%nat = n.

(** The five point equations of minus Laplace of [true_u], with its values on the boundary. *)
Definition discretised (n : nat) (u : nat -> R) : Prop := forall x y, (x < n)%nat -> (y < n)%nat ->
  let h := spacing n in let i := (y * n + x)%nat in
  (edge_of n x y -> u i = true_u (INR x * h) (INR y * h)) /\
  (~ edge_of n x y -> exists p q, second (fun t => true_u t (INR y * h)) (INR x * h) p /\ second (true_u (INR x * h)) (INR y * h) q /\
     (4 * u i - u (i - 1)%nat - u (i + 1)%nat - u (i - n)%nat - u (i + n)%nat) / h ^ 2 = - (p + q)).

Lemma quartic_second a b x : second (fun t => a * t ^ 2 + b * t ^ 4) x (2 * a + 12 * b * x ^ 2).
Proof.
  exists (fun t => 2 * a * t + 4 * b * t ^ 3). split.
  - intro t. replace (2 * a * t + 4 * b * t ^ 3) with (a * (INR 2 * t ^ 1) + b * (INR 4 * t ^ 3)) by (cbn [INR]; ring).
    apply (derivable_pt_lim_plus (fun t => a * t ^ 2) (fun t => b * t ^ 4)).
    + apply (derivable_pt_lim_scal (fun t => t ^ 2) a t), (derivable_pt_lim_pow t 2).
    + apply (derivable_pt_lim_scal (fun t => t ^ 4) b t), (derivable_pt_lim_pow t 4).
  - replace (2 * a + 12 * b * x ^ 2) with (2 * a * 1 + 4 * b * (INR 3 * x ^ 2)) by (cbn [INR]; ring).
    apply (derivable_pt_lim_plus (fun t => 2 * a * t) (fun t => 4 * b * t ^ 3)).
    + apply (derivable_pt_lim_scal (fun t => t) (2 * a) x), derivable_pt_lim_id.
    + apply (derivable_pt_lim_scal (fun t => t ^ 3) (4 * b) x), (derivable_pt_lim_pow x 3).
Qed.

Lemma second_ext f g x d : (forall t, f t = g t) -> second f x d -> second g x d.
Proof.
  intros E (f' & H1 & H2). exists f'. split; [|exact H2]. intros t e He. destruct (H1 t e He) as (delta & Hd). exists delta.
  intros h Hh Hl. rewrite <- !E. apply Hd; auto.
Qed.

Lemma second_unique f x d d' : second f x d -> second f x d' -> d = d'.
Proof.
  intros (f' & H1 & H2) (g' & K1 & K2). assert (E : forall t, g' t = f' t) by (intro t; apply (uniqueness_limite f t); auto).
  apply (uniqueness_limite f' x); [exact H2|]. intros e He. destruct (K2 e He) as (delta & Hd). exists delta. intros h Hh Hl. rewrite <- !E. apply Hd; auto.
Qed.

Lemma true_xx x y : second (fun t => true_u t y) x ((2 - 12 * x ^ 2) * (y ^ 4 - y ^ 2)).
Proof.
  apply (second_ext (fun t => (y ^ 4 - y ^ 2) * t ^ 2 + - (y ^ 4 - y ^ 2) * t ^ 4)); [intro t; unfold true_u; ring|].
  replace ((2 - 12 * x ^ 2) * (y ^ 4 - y ^ 2)) with (2 * (y ^ 4 - y ^ 2) + 12 * - (y ^ 4 - y ^ 2) * x ^ 2) by ring. apply quartic_second.
Qed.
Lemma true_yy x y : second (true_u x) y ((x ^ 2 - x ^ 4) * (12 * y ^ 2 - 2)).
Proof.
  apply (second_ext (fun t => - (x ^ 2 - x ^ 4) * t ^ 2 + (x ^ 2 - x ^ 4) * t ^ 4)); [intro t; unfold true_u; ring|].
  replace ((x ^ 2 - x ^ 4) * (12 * y ^ 2 - 2)) with (2 * - (x ^ 2 - x ^ 4) + 12 * (x ^ 2 - x ^ 4) * y ^ 2) by ring. apply quartic_second.
Qed.

(** What is below zero nowhere on the boundary, and is pulled up inside, is nowhere below zero. *)
Lemma minimum_principle n (e : nat -> nat -> R) : (3 <= n)%nat ->
  (forall x y, (x < n)%nat -> (y < n)%nat -> edge_of n x y -> 0 <= e x y) ->
  (forall x y, (x < n)%nat -> (y < n)%nat -> ~ edge_of n x y -> 0 <= 4 * e x y - e (x - 1)%nat y - e (x + 1)%nat y - e x (y - 1)%nat - e x (y + 1)%nat) ->
  forall x y, (x < n)%nat -> (y < n)%nat -> 0 <= e x y.
Proof.
  intros Hn Hb Hi x0 y0 Hx0 Hy0. destruct (Rle_lt_dec 0 (e x0 y0)) as [|L]; [assumption|exfalso].
  set (w := fun x : nat => INR x * (INR n - 1 - INR x) / 2).
  assert (Hw : forall x, (x < n)%nat -> 0 <= w x).
  { intros x Hx. unfold w. pose proof (pos_INR x). assert (INR x <= INR n - 1) by (pose proof (le_INR (x + 1) n ltac:(lia)) as HI; rewrite plus_INR in HI; cbn [INR] in HI; lra). nra. }
  set (eps := - e x0 y0 / (2 * (w x0 + 1))). pose proof (Hw x0 Hx0) as W0.
  assert (He : 0 < eps) by (apply Rmult_lt_0_compat; [lra|apply Rinv_0_lt_compat; lra]).
  set (z := fun x y => e x y + eps * w x).
  assert (Z0 : z x0 y0 < 0).
  { unfold z. assert (E : eps * (2 * (w x0 + 1)) = - e x0 y0) by (unfold eps; field; lra). nra. }
  destruct (largest (n * n) (fun i => - z (i mod n)%nat (i / n)%nat) ltac:(nia)) as (m & Hm & Hl).
  assert (Hx : (m mod n < n)%nat) by (apply Nat.mod_upper_bound; lia). assert (Hy : (m / n < n)%nat) by (apply Nat.div_lt_upper_bound; lia).
  set (x := (m mod n)%nat) in *. set (y := (m / n)%nat) in *.
  assert (K : forall a b, (a < n)%nat -> (b < n)%nat -> z x y <= z a b).
  { intros a b Ha Hbb. specialize (Hl (b * n + a)%nat ltac:(nia)).
    assert (E1 : ((b * n + a) mod n = a)%nat) by (rewrite Nat.add_comm, Nat.mod_add by lia; apply Nat.mod_small; lia).
    assert (E2 : ((b * n + a) / n = b)%nat) by (rewrite Nat.div_add_l by lia; rewrite Nat.div_small by lia; lia). rewrite E1, E2 in Hl. lra. }
  pose proof (K x0 y0 Hx0 Hy0) as Km.
  assert (D : edge_of n x y \/ ~ edge_of n x y) by (unfold edge_of; lia). destruct D as [B|B].
  - pose proof (Hb x y Hx Hy B). pose proof (Hw x Hx). unfold z in *. nra.
  - pose proof (Hi x y Hx Hy B) as Q. assert (B' : (1 <= x /\ 1 <= y /\ x + 1 < n /\ y + 1 < n)%nat) by (unfold edge_of in B; lia).
    pose proof (K (x - 1)%nat y ltac:(lia) Hy) as K1. pose proof (K (x + 1)%nat y ltac:(lia) Hy) as K2.
    pose proof (K x (y - 1)%nat Hx ltac:(lia)) as K3. pose proof (K x (y + 1)%nat Hx ltac:(lia)) as K4. unfold z in K1, K2, K3, K4.
    assert (Ww : w (x - 1)%nat + w (x + 1)%nat = 2 * w x - 1).
    { unfold w. rewrite minus_INR, plus_INR by lia. cbn [INR]. lra. }
    assert (eps * (w (x - 1)%nat + w (x + 1)%nat) = eps * (2 * w x - 1)) by (rewrite Ww; reflexivity). lra.
Qed.

Lemma spacing_pos n : (3 <= n)%nat -> 0 < spacing n <= / 2 /\ spacing n * (INR n - 1) = 1.
Proof.
  intro Hn. pose proof (le_INR 3 n Hn) as H. cbn [INR] in H. unfold spacing. split; [split|].
  - apply Rinv_0_lt_compat. lra.
  - apply Rinv_le_contravar; lra.
  - field. lra.
Qed.

Lemma node_range n x : (3 <= n)%nat -> (x < n)%nat -> 0 <= INR x * spacing n <= 1.
Proof.
  intros Hn Hx. destruct (spacing_pos n Hn) as (Hp & E). pose proof (pos_INR x).
  assert (INR x <= INR n - 1) by (pose proof (le_INR (x + 1) n ltac:(lia)) as HI; rewrite plus_INR in HI; cbn [INR] in HI; lra). nra.
Qed.

Lemma bump s : 0 <= s <= 1 -> 0 <= s ^ 2 * (1 - s ^ 2) <= / 4.
Proof.
  intro H. assert (Q : 0 <= s ^ 2 <= 1) by (split; [apply pow2_ge_0|rewrite <- (pow1 2); apply pow_incr, H]).
  set (q := s ^ 2) in *. split; [apply Rmult_le_pos; lra|]. pose proof (pow2_ge_0 (q - / 2)). lra.
Qed.

(** The error: never negative, and of second order. *)
Lemma source_error n u : (3 <= n)%nat -> discretised n u -> forall x y, (x < n)%nat -> (y < n)%nat ->
  let h := spacing n in let s := INR x * h in let t := INR y * h in
  let e := u (y * n + x)%nat - true_u s t in 0 <= e /\ e <= h ^ 2 * (s * (1 - s) / 2) /\ e <= h ^ 2 * (t * (1 - t) / 2) /\ e <= h ^ 2 / 8.
Proof.
  intros Hn Hu. set (h := spacing n). destruct (spacing_pos n Hn) as (Hh & Eh). fold h in Hh, Eh.
  set (er := fun x y => u (y * n + x)%nat - true_u (INR x * h) (INR y * h)).
  assert (Hb : forall x y, (x < n)%nat -> (y < n)%nat -> edge_of n x y -> er x y = 0).
  { intros x y Hx Hy B. unfold er. rewrite (proj1 (Hu x y Hx Hy) B). fold h. ring. }
  assert (Hin : forall x y, (x < n)%nat -> (y < n)%nat -> ~ edge_of n x y ->
    0 <= 4 * er x y - er (x - 1)%nat y - er (x + 1)%nat y - er x (y - 1)%nat - er x (y + 1)%nat <= h ^ 4).
  { intros x y Hx Hy B. destruct (proj2 (Hu x y Hx Hy) B) as (p & q & P & Q & E). fold h in P, Q, E.
    rewrite (second_unique _ _ _ _ P (true_xx _ _)), (second_unique _ _ _ _ Q (true_yy _ _)) in E. clear p q P Q.
    assert (B' : (1 <= x /\ 1 <= y /\ x + 1 < n /\ y + 1 < n)%nat) by (unfold edge_of in B; lia).
    apply (f_equal (fun v => v * h ^ 2)) in E. unfold Rdiv in E. rewrite Rmult_assoc, Rinv_l, Rmult_1_r in E by (apply pow_nonzero; lra).
    unfold er. replace (y * n + (x - 1))%nat with (y * n + x - 1)%nat by lia. replace (y * n + (x + 1))%nat with (y * n + x + 1)%nat by lia.
    replace ((y - 1) * n + x)%nat with (y * n + x - n)%nat by nia. replace ((y + 1) * n + x)%nat with (y * n + x + n)%nat by nia.
    rewrite !minus_INR, !plus_INR by lia. cbn [INR]. pose proof (node_range n x Hn Hx) as Rs. pose proof (node_range n y Hn Hy) as Rt. fold h in Rs, Rt.
    set (s := INR x * h) in *. set (t := INR y * h) in *.
    replace ((INR x - 1) * h) with (s - h) by (unfold s; ring). replace ((INR x + 1) * h) with (s + h) by (unfold s; ring).
    replace ((INR y - 1) * h) with (t - h) by (unfold t; ring). replace ((INR y + 1) * h) with (t + h) by (unfold t; ring).
    match type of E with ?l = _ => match goal with |- 0 <= ?g <= _ => replace g with (l
      - (4 * true_u s t - true_u (s - h) t - true_u (s + h) t - true_u s (t - h) - true_u s (t + h))) by ring end end.
    rewrite E. match goal with |- 0 <= ?g <= _ => replace g with (2 * h ^ 4 * (s ^ 2 * (1 - s ^ 2) + t ^ 2 * (1 - t ^ 2))) by (unfold true_u; ring) end.
    assert (Q4 : 0 < h ^ 4) by (apply pow_lt; lra).
    pose proof (bump s Rs) as Qs. pose proof (bump t Rt) as Qt.
    split; nra. }
  assert (Hlow : forall x y, (x < n)%nat -> (y < n)%nat -> 0 <= er x y).
  { apply minimum_principle; [exact Hn| |].
    - intros x y Hx Hy B. rewrite (Hb x y Hx Hy B). lra.
    - intros x y Hx Hy B. apply (Hin x y Hx Hy B). }
  set (cap := fun k : nat => h ^ 2 * (INR k * h * (1 - INR k * h) / 2)).
  assert (Hcap : forall k, (k < n)%nat -> 0 <= cap k).
  { intros k Hk. unfold cap. pose proof (node_range n k Hn Hk) as Rk. fold h in Rk. apply Rmult_le_pos; [apply pow2_ge_0|nra]. }
  assert (Hstep : forall k, (1 <= k)%nat -> 2 * cap k - cap (k - 1)%nat - cap (k + 1)%nat = h ^ 4).
  { intros k Hk. unfold cap. rewrite minus_INR, plus_INR by lia. cbn [INR]. field. }
  assert (Hup : forall x y, (x < n)%nat -> (y < n)%nat -> 0 <= cap x - er x y).
  { apply (minimum_principle n (fun x y => cap x - er x y)); [exact Hn| |].
    - intros x y Hx Hy B. rewrite (Hb x y Hx Hy B). pose proof (Hcap x Hx). lra.
    - intros x y Hx Hy B. pose proof (Hin x y Hx Hy B). pose proof (Hstep x ltac:(unfold edge_of in B; lia)). lra. }
  assert (Hup' : forall x y, (x < n)%nat -> (y < n)%nat -> 0 <= cap y - er x y).
  { apply (minimum_principle n (fun x y => cap y - er x y)); [exact Hn| |].
    - intros x y Hx Hy B. rewrite (Hb x y Hx Hy B). pose proof (Hcap y Hy). lra.
    - intros x y Hx Hy B. pose proof (Hin x y Hx Hy B). pose proof (Hstep y ltac:(unfold edge_of in B; lia)). lra. }
  intros x y Hx Hy. cbv zeta. fold h. change (u (y * n + x)%nat - true_u (INR x * h) (INR y * h)) with (er x y).
  pose proof (Hlow x y Hx Hy). pose proof (Hup x y Hx Hy) as H1. pose proof (Hup' x y Hx Hy). split; [assumption|]. split; [unfold cap in *; lra|].
  split; [unfold cap in *; lra|]. unfold cap in H1. pose proof (pow2_ge_0 (INR x * h - / 2)). pose proof (pow2_ge_0 h). nra.
Qed.
