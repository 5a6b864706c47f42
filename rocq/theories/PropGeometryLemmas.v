(** The statements of C48 and C67 - C69 put together, and examples for C49. *)
From Coq Require Import ZArith Reals Lra SpecFloat.
From Verif Require Import Base ListFacts DenseModel DenseFacts ScalarModel GeometryModel GeometryReal GeometryNorm.

Local Open Scope R_scope.

Lemma projection_split dbg junk n0 n1 n v f w g : is_vec n v f -> is_vec n w g -> vtyped n0 v -> vtyped n1 w ->
  (exists i, (i < n)%nat /\ g i <> 0) ->
  exists t o ft fo,
    projection_tangent rops dbg junk pow rroot n0 n1 v w = Ok t /\
    projection_orthogonal rops dbg junk pow rroot n0 n1 v w = Ok o /\
    is_vec n t ft /\ is_vec n o fo /\
    (forall i, ft i + fo i = f i) /\ (exists c, forall i, ft i = c * g i) /\
    (rsum n (fun i => g i * g i) = 1 -> rsum n (fun i => fo i * g i) = 0).
Proof.
  intros Hv Hw T0 T1 Hn.
  destruct (tangent_ok dbg junk n0 n1 n v f w g Hv Hw T0 T1 (or_introl Hn)) as (t & Et & Ht).
  destruct (orthogonal_ok dbg junk n0 n1 n v f w g Hv Hw T0 T1 (or_introl Hn)) as (o & Eo & Ho).
  exists t, o. do 2 eexists. split; [exact Et|]. split; [exact Eo|]. split; [exact Ht|]. split; [exact Ho|].
  split; [intro i; ring|]. split; [eexists; intro i; reflexivity|]. intro E.
  set (d := rsum n (fun j => f j * g j)).
  rewrite (asum_ext _ _ _ _ (fun i => f i * g i - d * (g i * g i))) by (intros; ring).
  rewrite rsum_minus, rsum_scale, E. fold d. ring.
Qed.

Lemma cross_product_3 dbg junk n0 n1 v f w g : is_vec 3 v f -> is_vec 3 w g -> vtyped n0 v -> vtyped n1 w ->
  exists x y h,
    cross_product rops dbg junk n0 n1 v w = Ok x /\ cross_product rops dbg junk n1 n0 w v = Ok y /\
    is_vec 3 x h /\ is_vec 3 y (fun i => - h i) /\
    rsum 3 (fun i => h i * f i) = 0 /\ rsum 3 (fun i => h i * g i) = 0 /\
    rsum 3 (fun i => h i * h i) + rsum 3 (fun i => f i * g i) * rsum 3 (fun i => f i * g i) =
      rsum 3 (fun i => f i * f i) * rsum 3 (fun i => g i * g i) /\
    0 <= f 0%nat * (g 1%nat * h 2%nat - g 2%nat * h 1%nat) + f 1%nat * (g 2%nat * h 0%nat - g 0%nat * h 2%nat)
         + f 2%nat * (g 0%nat * h 1%nat - g 1%nat * h 0%nat).
Proof.
  intros Hv Hw T0 T1.
  pose proof (cross3_ok dbg junk n0 n1 v f w g Hv Hw T0 T1) as E1.
  pose proof (cross3_ok dbg junk n1 n0 w g v f Hw Hv T1 T0) as E2.
  set (l := [f 1%nat * g 2%nat - f 2%nat * g 1%nat; f 2%nat * g 0%nat - f 0%nat * g 2%nat;
             f 0%nat * g 1%nat - f 1%nat * g 0%nat]) in *.
  do 2 eexists. exists (fun i => nth i l 0). split; [exact E1|]. split; [exact E2|].
  split; [split; [reflexivity|]; intros i Hi; destruct i as [|[|[|i]]]; [reflexivity..|lia]|].
  split; [split; [reflexivity|]; intros i Hi; destruct i as [|[|[|i]]]; try lia; cbn; f_equal; ring|].
  cbn. split; [ring|]. split; [ring|]. split; [ring|].
  set (a := f 0%nat). set (b := f 1%nat). set (c := f 2%nat).
  set (p := g 0%nat). set (q := g 1%nat). set (r := g 2%nat).
  match goal with |- 0 <= ?e =>
    replace e with ((b * r - c * q) * (b * r - c * q) + (c * p - a * r) * (c * p - a * r)
                    + (a * q - b * p) * (a * q - b * p)) by ring end.
  pose proof (Rle_0_sqr (b * r - c * q)). pose proof (Rle_0_sqr (c * p - a * r)).
  pose proof (Rle_0_sqr (a * q - b * p)). unfold Rsqr in *. lra.
Qed.

(** A two dimensional dynamic vector: the third component of the product of the embedded vectors. *)
Lemma cross_product_2 dbg junk v f w g : is_vec 2 v f -> is_vec 2 w g ->
  exists z, cross_product rops dbg junk 0 0 v w = Ok [0; 0; z] /\
    cross_product rops dbg junk 0 0 w v = Ok [0; 0; - z] /\
    z * z + rsum 2 (fun i => f i * g i) * rsum 2 (fun i => f i * g i) =
      rsum 2 (fun i => f i * f i) * rsum 2 (fun i => g i * g i) /\
    (f 0%nat = 1 -> f 1%nat = 0 -> z = g 1%nat).
Proof.
  intros Hv Hw. rewrite (cross2_ok dbg junk v f w g Hv Hw), (cross2_ok dbg junk w g v f Hw Hv).
  eexists. split; [reflexivity|]. split; [do 4 f_equal; ring|]. cbn. split; [ring|].
  intros -> ->. ring.
Qed.

Lemma angle_all dbg n v f w g : is_vec n v f -> is_vec n w g -> (n = 2 \/ n = 3)%nat ->
  exists t, angle rops dbg pow rroot acos PI true v w = Ok t /\
    angle rops dbg pow rroot acos PI true w v = Ok t /\ 0 <= t <= PI /\
    angle rops dbg pow rroot acos PI false v w = Ok (t / (PI / 180)) /\
    ((exists i, (i < n)%nat /\ f i <> 0) -> (exists i, (i < n)%nat /\ g i <> 0) ->
     rsum n (fun i => f i * g i) =
       cos t * (sqrt (rsum n (fun i => f i * f i)) * sqrt (rsum n (fun i => g i * g i)))).
Proof.
  intros Hv Hw Hn. destruct (angle_ok dbg n v f w g Hv Hw Hn) as (t & E1 & E2 & B & E3).
  exists t. repeat (split; [assumption|]). intros Nf Ng.
  destruct (angle_cos dbg n v f w g Hv Hw Hn Nf Ng) as (t' & E & H). congruence.
Qed.

Lemma norm_laws p n : (0 < n)%nat ->
  (forall v f, is_vec n v f -> exists N, lp_norm rops pow rroot p v = Ok N /\ 0 <= N /\
     (N = 0 <-> forall i, (i < n)%nat -> f i = 0)) /\
  (forall c v f w, is_vec n v f -> is_vec n w (fun i => c * f i) ->
     exists N, lp_norm rops pow rroot p v = Ok N /\ lp_norm rops pow rroot p w = Ok (Rabs c * N)) /\
  (forall v f w g x, is_vec n v f -> is_vec n w g -> is_vec n x (fun i => f i + g i) ->
     exists N L K, lp_norm rops pow rroot p v = Ok N /\ lp_norm rops pow rroot p w = Ok L /\
       lp_norm rops pow rroot p x = Ok K /\ K <= N + L).
Proof.
  intro Hn. split; [|split].
  - intros v f H. destruct (norm_spec p n v f H (fun _ => Hn)) as (N & E & S). exists N.
    split; auto. split; [apply (p_norm_nonneg _ _ _ _ S)|apply (p_norm_zero _ _ _ _ S)].
  - intros c v f w H H'. destruct (norm_spec p n v f H (fun _ => Hn)) as (N & E & S).
    destruct (norm_spec p n w _ H' (fun _ => Hn)) as (L & E' & S'). exists N. split; auto. rewrite E'. f_equal.
    apply (p_norm_unique p n (fun i => c * f i)); auto. apply p_norm_scale, S.
  - intros v f w g x H H' H''. destruct (norm_spec p n v f H (fun _ => Hn)) as (N & E & S).
    destruct (norm_spec p n w _ H' (fun _ => Hn)) as (L & E' & S').
    destruct (norm_spec p n x _ H'' (fun _ => Hn)) as (K & E'' & S''). exists N, L, K.
    repeat (split; [assumption|]). apply (p_norm_triangle p n f g); auto.
Qed.

(** *** Double precision *)

(** x is a number and neither a zero nor an infinity. *)
Definition finite_nonzero (x : f64) : Prop := match x with S754_finite _ _ _ => True | _ => False end.
Definition is_zero (x : f64) : Prop := match x with S754_zero _ => True | _ => False end.

(** lp_norm of power 2 uses no power or root function, any may be given. *)
Definition f_unit := unit_vector fops (fun x _ => x) (fun _ x => x).

Lemma unit_underflow : forall m e, (m, e) = (4503599627370496%positive, (-652)%Z) ->
  exists u, f_unit [S754_finite false m e] = Ok [u] /\ is_zero u.
Proof. intros m e H. injection H as -> ->. eexists. vm_compute. split; [reflexivity|exact I]. Qed.

Lemma unit_overflow : exists u, f_unit [S754_finite false 4503599627370496 548] = Ok [u] /\ is_zero u.
Proof. eexists. vm_compute. split; [reflexivity|exact I]. Qed.
