(** The direct solver over a field, C52. *)
From Coq Require Import ZArith Field_theory Field Ring.
From Verif Require Import Base ListFacts DenseModel DenseFacts ScalarModel LuModel LuFacts.

Section LuField.
  Context {S : Type}.
  Variables (O : sops S) (opp inv : S -> S).
  Notation "0" := (sc_zero O). Notation "1" := (sc_one O).
  Notation "x + y" := (sc_add O x y). Notation "x * y" := (sc_mul O x y).
  Notation "x - y" := (sc_sub O x y). Notation "x / y" := (sc_div O x y).
  Hypothesis Fth : field_theory 0 1 (sc_add O) (sc_mul O) (sc_sub O) opp (sc_div O) inv eq.
  Add Field SField : Fth.
  Notation sum := (asum 0 (sc_add O)).
  Implicit Types (A g : nat -> nat -> S) (f h z y : nat -> S).

  Lemma sum_plus n f h : sum n (fun i => f i + h i) = sum n f + sum n h.
  Proof using Fth. induction n as [|n IH]; cbn [asum]; [ring|]. rewrite IH. ring. Qed.

  Lemma sum_scale c n f : sum n (fun i => c * f i) = c * sum n f.
  Proof using Fth. induction n as [|n IH]; cbn [asum]; [ring|]. rewrite IH. ring. Qed.

  Lemma sum_zero n f : (forall i, (i < n)%nat -> f i = 0) -> sum n f = 0.
  Proof using Fth.
    induction n as [|n IH]; intro H; cbn [asum]; auto. rewrite IH, H by (intros; try apply H; lia). ring.
  Qed.

  Lemma sum_exchange n k (F : nat -> nat -> S) :
    sum n (fun i => sum k (fun j => F i j)) = sum k (fun j => sum n (fun i => F i j)).
  Proof using Fth.
    induction n as [|n IH]; cbn [asum]; [symmetry; apply sum_zero; auto|]. rewrite IH, <- sum_plus. reflexivity.
  Qed.

  Lemma sum_app n k f : sum (n + k)%nat f = sum n f + sum k (fun i => f (n + i)%nat).
  Proof using Fth.
    induction k as [|k IH]; cbn [asum]; [rewrite Nat.add_0_r; ring|].
    rewrite Nat.add_succ_r. cbn [asum]. rewrite IH. ring.
  Qed.

  Lemma sum_min a b f : sum (Nat.min a (b + 1)) f = sum a (fun m => if m <=? b then f m else 0).
  Proof using Fth.
    destruct (Nat.le_gt_cases a (b + 1)) as [H|H].
    - rewrite Nat.min_l by auto. apply asum_ext. intros i Hi. destruct (Nat.leb_spec i b); [auto|lia].
    - rewrite Nat.min_r by lia. replace a with ((b + 1) + (a - (b + 1)))%nat at 1 by lia. rewrite (sum_app (b + 1) (a - (b + 1))).
      rewrite (sum_zero (a - (b + 1))).
      + rewrite (asum_ext _ _ _ (fun m => if m <=? b then f m else 0) f); [ring|].
        intros i Hi. destruct (Nat.leb_spec i b); [auto|lia].
      + intros i Hi. destruct (Nat.leb_spec (b + 1 + i) b); [lia|auto].
  Qed.

  Lemma rdiff_sum e n f : rdiff O e n f = e - sum n f.
  Proof using Fth. induction n as [|n IH]; cbn [rdiff asum]; [ring|]. rewrite IH. ring. Qed.

  (** The relation between the matrix, the row order and the partially factorised matrix. *)
  Definition lu_inv n A (k : nat) (s : nat -> nat) g : Prop :=
    (forall a b, a < n -> b < n ->
       A (s a) b = sum (Nat.min (Nat.min a k) (b + 1)) (fun m => g a m * g m b)
                   + (if Nat.min a k <=? b then g a b else 0)) /\
    (forall m, m < k -> g m m <> 0) /\
    (forall a, a < n -> s a < n) /\
    (forall r, r < n -> exists a, a < n /\ s a = r).

  Lemma lu_inv_0 n A : lu_inv n A 0 (fun k => k) A.
  Proof using Fth.
    split; [|split; [intros; lia|split; [auto|eauto]]].
    intros a b Ha Hb. rewrite Nat.min_0_r. cbn [Nat.min asum Nat.leb]. ring.
  Qed.

  Lemma lu_inv_step n A i j s g : i <= j < n -> lu_inv n A i s g -> g j i <> 0 ->
    lu_inv n A (i + 1) (fun k => s (transpose i j k))
      (fun r c => if i <? r then elim_row O (fun a b => g (transpose i j a) b) i r c else g (transpose i j r) c).
  Proof using Fth.
    intros Hij (HA & Hd & Hs & Hr) Hp.
    set (g' := fun a b => g (transpose i j a) b).
    assert (Tb : forall m, m < i -> transpose i j m = m) by (intros; apply transpose_below; lia).
    (* the invariant after the exchange *)
    assert (HA' : forall a b, a < n -> b < n ->
       A (s (transpose i j a)) b = sum (Nat.min (Nat.min a i) (b + 1)) (fun m => g' a m * g' m b)
                   + (if Nat.min a i <=? b then g' a b else 0)).
    { intros a b Ha Hb. rewrite HA by (auto; apply transpose_lt; lia).
      assert (M : Nat.min (transpose i j a) i = Nat.min a i).
      { unfold transpose. destruct (Nat.eqb_spec a i), (Nat.eqb_spec a j); lia. }
      rewrite M. f_equal. apply asum_ext. intros m Hm. unfold g'. rewrite (Tb m) by lia. reflexivity. }
    assert (Hp' : g' i i <> 0). { unfold g', transpose. rewrite Nat.eqb_refl. exact Hp. }
    split; [|split; [|split]].
    - intros a b Ha Hb. rewrite HA' by auto. destruct (Nat.ltb_spec i a) as [Hia|Hia].
      + rewrite (Nat.min_r a i), (Nat.min_r a (i + 1)) by lia.
        assert (Lo : forall m, m < i -> (if i <? a then elim_row O g' i a m else g' a m) = g' a m).
        { intros m Hm. destruct (Nat.ltb_spec i a); auto. unfold elim_row. destruct (Nat.ltb_spec m i); [auto|lia]. }
        assert (Up : forall m, m <= i -> (if i <? m then elim_row O g' i m b else g' m b) = g' m b).
        { intros m Hm. destruct (Nat.ltb_spec i m); [lia|auto]. }
        fold g'. destruct (lt_eq_lt_dec b i) as [[Hbi| ->]|Hbi].
        * rewrite !Nat.min_r by lia. destruct (Nat.leb_spec i b); [lia|]. destruct (Nat.leb_spec (i + 1) b); [lia|].
          f_equal. apply asum_ext. intros m Hm.
          unfold elim_row. destruct (Nat.ltb_spec m i); [|lia]. destruct (Nat.ltb_spec i m); [lia|auto].
        * rewrite (Nat.min_l i), Nat.min_id by lia. rewrite Nat.add_1_r. cbn [asum].
          destruct (Nat.leb_spec i i); [|lia]. destruct (Nat.leb_spec (Datatypes.S i) i); [lia|].
          rewrite (asum_ext _ _ _ (fun m => (elim_row O g' i a m * _)) (fun m => g' a m * g' m i)).
          -- unfold elim_row at 1. destruct (Nat.ltb_spec i i); [lia|]. rewrite Nat.eqb_refl.
             change (g (transpose i j i) i) with (g' i i). field. exact Hp'.
          -- intros m Hm. unfold elim_row. destruct (Nat.ltb_spec m i); [|lia].
             destruct (Nat.ltb_spec i m); [lia|auto].
        * rewrite !Nat.min_l by lia. rewrite Nat.add_1_r. cbn [asum].
          destruct (Nat.leb_spec i b); [|lia]. destruct (Nat.leb_spec (Datatypes.S i) b); [|lia].
          rewrite (asum_ext _ _ _ (fun m => (elim_row O g' i a m * _)) (fun m => g' a m * g' m b)).
          -- unfold elim_row. destruct (Nat.ltb_spec i i); [lia|]. rewrite Nat.eqb_refl.
             destruct (Nat.ltb_spec b i); [lia|]. destruct (Nat.eqb_spec b i); [lia|].
             change (g (transpose i j i) b) with (g' i b). ring.
          -- intros m Hm. unfold elim_row. destruct (Nat.ltb_spec m i); [|lia].
             destruct (Nat.ltb_spec i m); [lia|auto].
      + rewrite (Nat.min_l a i), (Nat.min_l a (i + 1)) by lia. f_equal.
        apply asum_ext. intros m Hm. destruct (Nat.ltb_spec i m); [lia|reflexivity].
    - intros m Hm. destruct (Nat.ltb_spec i m); [lia|]. change (g' m m <> 0).
      destruct (Nat.eq_dec m i) as [->|]; auto. unfold g'. rewrite Tb by lia. apply Hd. lia.
    - intros a Ha. apply Hs, transpose_lt; lia.
    - intros r Hlt. destruct (Hr r Hlt) as (a & Ha & <-). exists (transpose i j a).
      split; [apply transpose_lt; lia|]. rewrite transpose_invol. reflexivity.
  Qed.

  (** The upper triangle. *)
  Definition upper g m b : S := if m <=? b then g m b else 0.

  Lemma lu_row n A s g a f : lu_inv n A n s g -> a < n ->
    sum n (fun b => A (s a) b * f b) =
    sum a (fun m => g a m * sum n (fun b => upper g m b * f b)) + sum n (fun b => upper g a b * f b).
  Proof using Fth.
    intros (HA & _) Ha.
    rewrite (asum_ext _ _ _ _ (fun b => sum a (fun m => g a m * (upper g m b * f b)) + upper g a b * f b)).
    - rewrite sum_plus, sum_exchange. f_equal. apply asum_ext. intros m _. apply sum_scale.
    - intros b Hb. rewrite HA by auto. rewrite (Nat.min_l a n), sum_min by lia. unfold upper.
      transitivity (f b * sum a (fun m => if m <=? b then g a m * g m b else 0) + (if a <=? b then g a b else 0) * f b);
        [ring|]. f_equal. rewrite <- sum_scale. apply asum_ext. intros m _. destruct (m <=? b); ring.
  Qed.

  Lemma upper_sum n g i f : i < n ->
    sum n (fun b => upper g i b * f b) =
    g i i * f i + sum (n - (i + 1)) (fun k => g i (i + 1 + k)%nat * f (i + 1 + k)%nat).
  Proof using Fth.
    intro Hi. replace n with (i + (1 + (n - (i + 1))))%nat at 1 by lia. rewrite sum_app.
    rewrite sum_zero, sum_app.
    - cbn [asum]. unfold upper. rewrite Nat.add_0_r. destruct (Nat.leb_spec i i); [|lia].
      rewrite (asum_ext _ _ _ _ (fun k => g i (i + 1 + k)%nat * f (i + 1 + k)%nat)); [ring|].
      intros k Hk. rewrite Nat.add_assoc. destruct (Nat.leb_spec i (i + 1 + k)); [auto|lia].
    - intros b Hb. unfold upper. destruct (Nat.leb_spec i b); [lia|ring].
  Qed.

  (** The result of the two substitutions solves the system. *)
  Lemma lu_solution n A s g B y z : lu_inv n A n s g ->
    (forall i, i < n -> y i = rdiff O (B (s i)) i (fun j => g i j * y j)) ->
    (forall i, i < n -> z i = rdiff O (y i) (n - (i + 1)) (fun k => g i (i + 1 + k)%nat * z (i + 1 + k)%nat) / g i i) ->
    forall r, r < n -> sum n (fun j => A r j * z j) = B r.
  Proof using Fth.
    intros HI Hy Hz r Hr. pose proof HI as (_ & Hd & _ & Hsur). destruct (Hsur r Hr) as (a & Ha & <-).
    assert (Hu : forall i, i < n -> sum n (fun b => upper g i b * z b) = y i).
    { intros i Hi. rewrite upper_sum by auto. rewrite (Hz i) at 1 by auto. rewrite rdiff_sum. field. auto. }
    rewrite (lu_row n A s g a z HI Ha), Hu by auto.
    rewrite (asum_ext _ _ _ _ (fun m => g a m * y m)) by (intros m Hm; rewrite Hu by lia; reflexivity).
    rewrite (Hy a) at 1 by auto. rewrite rdiff_sum. ring.
  Qed.

  Lemma S_cancel (a b c : S) : a + b = a + c -> b = c.
  Proof using Fth. intro E. transitivity ((a + b) - a); [ring|]. rewrite E. ring. Qed.

  Lemma S_mul_cancel (a b c : S) : a <> 0 -> a * b = a * c -> b = c.
  Proof using Fth. intros Ha E. transitivity ((a * b) / a); [field; auto|]. rewrite E. field. auto. Qed.

  (** A system with a factorisation has no more than one solution. *)
  Lemma lu_unique n A s g z w : lu_inv n A n s g ->
    (forall r, r < n -> sum n (fun j => A r j * z j) = sum n (fun j => A r j * w j)) ->
    forall i, i < n -> z i = w i.
  Proof using Fth.
    intros HI HE. pose proof HI as (_ & Hd & Hs & _).
    assert (Hu : forall a, a < n -> sum n (fun b => upper g a b * z b) = sum n (fun b => upper g a b * w b)).
    { induction a as [a IH] using lt_wf_ind. intro Ha. pose proof (HE (s a) (Hs a Ha)) as E.
      rewrite !(lu_row n A s g a _ HI Ha) in E. eapply S_cancel. rewrite E. f_equal.
      apply asum_ext. intros m Hm. rewrite IH by lia. reflexivity. }
    assert (G : forall d i, (i + d)%nat = n -> forall k, i <= k < n -> z k = w k).
    { induction d as [|d IH]; intros i Hi k Hk; [lia|].
      destruct (Nat.eq_dec k i) as [->|]; [|apply (IH (Datatypes.S i)); lia].
      pose proof (Hu i ltac:(lia)) as E. rewrite !upper_sum in E by lia.
      apply (S_mul_cancel (g i i)); [apply Hd; lia|].
      set (T := sum (n - (i + 1)) (fun k => g i (i + 1 + k)%nat * w (i + 1 + k)%nat)) in *.
      rewrite (asum_ext _ _ _ (fun k => g i (i + 1 + k)%nat * z (i + 1 + k)%nat)
                 (fun k => g i (i + 1 + k)%nat * w (i + 1 + k)%nat)) in E.
      - fold T in E. apply (S_cancel T). transitivity (g i i * z i + T); [ring|]. rewrite E. ring.
      - intros t Ht. rewrite (IH (Datatypes.S i)) by lia. reflexivity. }
    intros i Hi. apply (G (n - i)%nat i); lia.
  Qed.

  (** A tolerance that refuses 0. *)
  Definition refuses_zero (tol : S) : Prop := sc_lt O (sc_abs O 0) tol = true.

  Lemma factorise_solves dbg pivot n st a A st' : tol_default O dbg -> refuses_zero (lu_tolerance st) ->
    is_mat n n a A -> factorise O dbg pivot st a = Ok (st', true) ->
    forall x b B, is_vec n (other_of x b) B -> (b = None -> pivot = false) ->
    exists x' z, lu_solve O dbg pivot st' x b =
        Ok (x', mkConv true 1 (sc_max O) (sc_max O) (sc_max O) (sc_max O) (sc_max O) (sc_max O)) /\
      is_vec n x' z /\
      (forall i, i < n -> sum n (fun j => A i j * z j) = B i) /\
      (forall w, (forall i, i < n -> sum n (fun j => A i j * w j) = B i) -> forall i, i < n -> w i = z i).
  Proof using Fth.
    intros T Hz Ha E x b B Hb Hal.
    destruct (factorise_inv O dbg pivot n st a A (lu_inv n A) (fun _ _ _ => True) T Ha
      (fun _ _ _ _ _ _ _ => I) (lu_inv_0 n A)) as
      (st1 & ok & E1 & Ef & _ & s & g & Hm & Hp & Hid & HI).
    { intros i j s g Hij _ _ HI Hlt. apply lu_inv_step; auto. intro E0. rewrite E0 in Hlt.
      unfold refuses_zero in Hz. congruence. }
    rewrite E in E1. injection E1 as <- <-. specialize (HI eq_refl).
    destruct (solve_ok O dbg pivot n st' g s x b B Ef Hm Hp Hid) as (x' & y & z & E2 & Hx & Hy & Hzz); auto.
    { apply HI. }
    exists x', z. split; auto. split; auto.
    assert (Sol := lu_solution n A s g B y z HI Hy Hzz). split; auto.
    intros w Hw. apply (lu_unique n A s g w z HI). intros r Hr. rewrite Hw, Sol by auto. reflexivity.
  Qed.
End LuField.
