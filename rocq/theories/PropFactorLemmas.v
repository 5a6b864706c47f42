(** What the factors of the direct solver are and which matrices it refuses, C134. *)
From Coq Require Import ZArith Field_theory Field Ring Permutation Reals Lra.
From Verif Require Import Base ListFacts DenseModel DenseFacts ScalarModel GeometryReal LuModel LuFacts LuField LuReal PropLuLemmas
  PropLuAlgebraLemmas Determinant.
Local Open Scope nat_scope.

(** The row of the matrix that is row [i] of the factors. *)
Definition order {S} (pivot : bool) (st : lu_state S) (i : nat) : nat := if pivot then nth i (lu_pivots st) 0 else i.

(** The factors: [lower] is the part below the diagonal with ones on it, [LuField.upper] the rest. *)
Definition lower {S} (O : sops S) (g : nat -> nat -> S) (a m : nat) : S :=
  if m <? a then g a m else if m =? a then sc_one O else sc_zero O.

Definition unit_lower {S} (O : sops S) (n : nat) (L : nat -> nat -> S) : Prop :=
  (forall i, i < n -> L i i = sc_one O) /\ (forall i j, i < j < n -> L i j = sc_zero O).
Definition upper_triangle {S} (O : sops S) (n : nat) (U : nat -> nat -> S) : Prop :=
  forall i j, j < i < n -> U i j = sc_zero O.

Section Cases.
  Context {S : Type}.
  Variables (O : sops S) (dbg pivot : bool).
  Implicit Types (m : list (list S)) (st : lu_state S) (g A : nat -> nat -> S).

  (** factorise with the invariant at the round that refuses. *)
  Lemma factorise_cases n st a A (Inv : nat -> (nat -> nat) -> (nat -> nat -> S) -> Prop)
      (Pick : (nat -> nat -> S) -> nat -> nat -> Prop) :
    (pivot = true -> tol_default O dbg) -> is_mat n n a A ->
    (forall m g i j, is_mat n n m g -> i < n -> lu_search O dbg m i = Ok j -> Pick g i j) ->
    Inv 0 (fun k => k) A ->
    (forall i j s g, i <= j < n -> (pivot = false -> j = i) -> (pivot = true -> Pick g i j) -> Inv i s g ->
       sc_lt O (sc_abs O (g j i)) (lu_tolerance st) = false ->
       Inv (i + 1) (fun k => s (transpose i j k))
         (fun r c => if i <? r then elim_row O (fun a b => g (transpose i j a) b) i r c
                     else g (transpose i j r) c)) ->
    exists st' ok, factorise O dbg pivot st a = Ok (st', ok) /\ lu_tolerance st' = lu_tolerance st /\
      exists s g, is_mat n n (lu_matrix st') g /\ (pivot = true -> is_vec n (lu_pivots st') s) /\
        (pivot = false -> forall k, s k = k) /\
        (ok = true -> Inv n s g) /\
        (ok = false -> exists i j s g, i <= j < n /\ (pivot = false -> j = i) /\ (pivot = true -> Pick g i j) /\ Inv i s g /\
           sc_lt O (sc_abs O (g j i)) (lu_tolerance st) = true).
  Proof using.
    intros T Ha HP H0 Hstep. unfold factorise. rewrite (is_mat_rows _ _ _ _ Ha).
    destruct (FOR_inv (fun i (r : bool * list (list S) * list nat) => let '(go, m, p) := r in
        exists s g, is_mat n n m g /\ (pivot = true -> is_vec n p s) /\ (pivot = false -> forall k, s k = k) /\
          (go = true -> Inv i s g) /\
          (go = false -> exists i j s g, i <= j < n /\ (pivot = false -> j = i) /\ (pivot = true -> Pick g i j) /\ Inv i s g /\
             sc_lt O (sc_abs O (g j i)) (lu_tolerance st) = true))
      n (lu_round O dbg pivot (lu_tolerance st)) (true, a, if pivot then seq 0 (m_cols a) else lu_pivots st))
      as (r & E & H).
    - exists (fun k => k), A. split; auto. split; [|split; [auto|split; [auto|discriminate]]]. intros ->.
      rewrite (shape_cols _ _ _ _ Ha) by auto. split; [apply seq_length|]. intros i Hi.
      rewrite (nth_error_nth' _ 0) by (rewrite seq_length; auto). rewrite seq_nth by auto. reflexivity.
    - intros i [[go m] p] Hi (s & g & Hm & Hp & Hid & HI & HF). unfold lu_round. destruct go.
      + assert (PO : exists k m' p', lu_pivot O dbg pivot m p i = Ok (m', p') /\ i <= k < n /\
          is_mat n n m' (fun a b => g (transpose i k a) b) /\
          (pivot = true -> is_vec n p' (fun a => s (transpose i k a))) /\
          (pivot = false -> k = i) /\ (pivot = true -> lu_search O dbg m i = Ok k)).
        { destruct pivot eqn:Ep; [apply pivot_ok; auto|]. exists i, m, p. split; [reflexivity|]. split; auto.
          split; [|split; [discriminate|split; [auto|discriminate]]].
          apply (is_mat_ext _ _ _ _ _ Hm). intros. unfold transpose. destruct (Nat.eqb_spec i0 i); subst; auto. }
        destruct PO as (k & m1 & p1 & E1 & Hk & Hm1 & Hp1 & Hki & Hse).
        rewrite E1. cbn [bind]. rewrite (is_mat_get _ _ _ _ _ _ Hm1) by lia. cbn [bind].
        assert (Ti : transpose i k i = k) by (unfold transpose; rewrite Nat.eqb_refl; auto). rewrite Ti.
        destruct (sc_lt O (sc_abs O (g k i)) (lu_tolerance st)) eqn:El.
        * eexists. split; [reflexivity|]. exists (fun a => s (transpose i k a)). eexists. split; [exact Hm1|].
          split; auto. split; [|split; [discriminate|]].
          -- intros Hf a0. rewrite Hid, (Hki Hf) by auto. unfold transpose. destruct (Nat.eqb_spec a0 i); auto.
          -- intros _. exists i, k, s, g. split; auto. split; auto. split; [|auto]. intro Ht. apply (HP m g i k); auto.
        * destruct (eliminate_ok O n m1 _ i Hm1 Hi) as (m2 & -> & Hm2). cbn [bind].
          eexists. split; [reflexivity|]. do 2 eexists. split; [exact Hm2|]. split; [exact Hp1|]. split; [|split; [|discriminate]].
          -- intros Hf a0. rewrite Hid, (Hki Hf) by auto. unfold transpose. destruct (Nat.eqb_spec a0 i); auto.
          -- intros _. apply Hstep; auto. intro Ht. apply (HP m g i k); auto.
      + eexists. split; [reflexivity|]. exists s, g. split; auto. split; auto. split; auto. split; [discriminate|auto].
    - rewrite E. destruct r as [[ok m] p]. cbn [bind].
      destruct H as (s & g & Hm & Hp & Hid & HI). do 2 eexists. split; [reflexivity|]. cbn. split; auto.
      exists s, g. auto.
  Qed.

  (** The matrix after [k] rounds without pivoting. *)
  Fixpoint rounds (k : nat) A : nat -> nat -> S :=
    match k with
    | 0 => A
    | Datatypes.S k => fun r c => if k <? r then elim_row O (rounds k A) k r c else rounds k A r c
    end.

  Lemma rounds_later A r c : forall k d, r <= k -> rounds (k + d) A r c = rounds k A r c.
  Proof using.
    clear. intros k d Hr. induction d as [|d IH]; [rewrite Nat.add_0_r; reflexivity|].
    rewrite Nat.add_succ_r. cbn [rounds]. destruct (Nat.ltb_spec (k + d) r); [lia|]. exact IH.
  Qed.

  Lemma transpose_same i a : transpose i i a = a.
  Proof using. unfold transpose. destruct (Nat.eqb_spec a i); auto. Qed.

  (** Without pivoting, for scalars without any laws: what is accepted and the result. *)
  Lemma unpivoted n st a A : pivot = false -> is_mat n n a A ->
    exists st' ok, factorise O dbg pivot st a = Ok (st', ok) /\
      (ok = true -> is_mat n n (lu_matrix st') (rounds n A) /\
         forall i, i < n -> sc_lt O (sc_abs O (rounds i A i i)) (lu_tolerance st) = false) /\
      (ok = false -> exists i, i < n /\ sc_lt O (sc_abs O (rounds i A i i)) (lu_tolerance st) = true).
  Proof using.
    intros Hp Ha.
    destruct (factorise_cases n st a A (fun k _ g => (forall r c, r < n -> c < n -> g r c = rounds k A r c) /\
        forall i, i < k -> sc_lt O (sc_abs O (rounds i A i i)) (lu_tolerance st) = false) (fun _ _ _ => True))
      as (st' & ok & E & _ & s & g & Hm & _ & _ & HT & HF); auto.
    - rewrite Hp. discriminate.
    - split; [reflexivity|intros; lia].
    - intros i j s g Hij Hj _ [HI Hd] Hlt. rewrite (Hj Hp) in *. rewrite HI in Hlt by lia. split.
      + intros r c Hr Hc. rewrite Nat.add_1_r. cbn [rounds]. unfold elim_row. rewrite !transpose_same.
        rewrite !HI by lia. reflexivity.
      + intros k Hk. destruct (Nat.eq_dec k i) as [->|]; auto. apply Hd. lia.
    - exists st', ok. split; auto. split.
      + intro Hok. destruct (HT Hok) as [HI Hd]. split; auto. apply (is_mat_ext _ _ _ _ _ Hm). auto.
      + intro Hok. destruct (HF Hok) as (i & j & s' & g' & Hij & Hj & _ & [HI _] & Hlt). rewrite (Hj Hp) in *.
        exists i. split; [lia|]. rewrite <- HI by lia. exact Hlt.
  Qed.
End Cases.

(** The factors of a leading block are the leading blocks of the factors. *)
Lemma leading {S} (O : sops S) dbg n k st a a' A st1 : is_mat n n a A -> k <= n -> is_mat k k a' A ->
  factorise O dbg false st a = Ok (st1, true) ->
  exists st2 g, factorise O dbg false st a' = Ok (st2, true) /\ is_mat n n (lu_matrix st1) g /\ is_mat k k (lu_matrix st2) g.
Proof.
  intros Ha Hk Ha' E.
  destruct (unpivoted O dbg false n st a A eq_refl Ha) as (x & ok & E1 & HT & _). rewrite E in E1. injection E1 as <- <-.
  destruct (HT eq_refl) as [Hm Hd].
  destruct (unpivoted O dbg false k st a' A eq_refl Ha') as (st2 & [] & E2 & HT2 & HF2).
  - destruct (HT2 eq_refl) as [Hm2 _]. exists st2, (rounds O n A). split; auto. split; auto.
    apply (is_mat_ext _ _ _ _ _ Hm2). intros r c Hr Hc. replace n with (k + (n - k)) by lia.
    symmetry. apply rounds_later. lia.
  - destruct (HF2 eq_refl) as (i & Hi & Hlt). rewrite Hd in Hlt by lia. discriminate.
Qed.

Section Factors.
  Context {S : Type}.
  Variables (O : sops S) (opp inv : S -> S).
  Notation "0" := (sc_zero O). Notation "1" := (sc_one O).
  Notation "x + y" := (sc_add O x y). Notation "x * y" := (sc_mul O x y).
  Notation "x - y" := (sc_sub O x y). Notation "x / y" := (sc_div O x y).
  Notation "- x" := (opp x).
  Hypothesis Fth : field_theory 0 1 (sc_add O) (sc_mul O) (sc_sub O) opp (sc_div O) inv eq.
  Add Field FField : Fth.
  Notation sum := (asum 0 (sc_add O)).
  Notation det := (det O). Notation prod := (prod O).
  Notation upper := (upper O). Notation lower := (lower O).
  Variables (dbg : bool) (n : nat).
  Hypothesis HT : tol_default O dbg.
  Implicit Types (A L U g : nat -> nat -> S).

  Lemma is_vec_order st s : is_vec n (lu_pivots st) s -> forall i, (i < n)%nat -> @order S true st i = s i.
  Proof using.
    clear. intros [_ H] i Hi. unfold order. apply nth_error_nth. auto.
  Qed.

  Lemma lu_inv_order A k s s' g : (forall i, (i < n)%nat -> s' i = s i) -> lu_inv O n A k s g -> lu_inv O n A k s' g.
  Proof using.
    clear. intros Hs (H1 & H2 & H3 & H4). split; [|split; [auto|split]].
    - intros a b Ha Hb. rewrite Hs by auto. auto.
    - intros a Ha. rewrite Hs by auto. auto.
    - intros r Hr. destruct (H4 r Hr) as (a & Ha & <-). exists a. auto.
  Qed.

  (** The rows with [k] rounds done: zero below the diagonal in the first [k] columns. *)
  Definition cut (k : nat) g (a b : nat) : S := if b <? Nat.min a k then 0 else g a b.

  Lemma cut_step k j g m : (k < m)%nat -> g k k <> 0 ->
    j = k ->
    det m (cut (k + 1) (fun r c => if k <? r then elim_row O g k r c else g r c)) = det m (cut k g).
  Proof using Fth.
    intros Hk Hp _. rewrite <- (det_eliminate O opp inv Fth m (cut k g) k (fun a => g a k / g k k) Hk).
    apply det_ext. intros a b Ha Hb. unfold cut, elim_row.
    destruct (Nat.ltb_spec k a).
    - rewrite !Nat.min_r by lia. destruct (Nat.ltb_spec b k), (Nat.ltb_spec b (k + 1)); try lia.
      + ring.
      + assert (b = k) as -> by lia. field. exact Hp.
      + destruct (Nat.eqb_spec b k); [lia|]. reflexivity.
    - rewrite !Nat.min_l by lia. reflexivity.
  Qed.

  Lemma cut_swap k j g : (k <= j < n)%nat ->
    (det n (cut k (fun a b => g (transpose k j a) b)) = if j =? k then det n (cut k g) else - det n (cut k g)).
  Proof using Fth.
    intro Hj. destruct (Nat.eqb_spec j k) as [->|Hne].
    - apply det_ext. intros a b _ _. unfold cut. rewrite transpose_same. reflexivity.
    - rewrite <- (det_swap O opp inv Fth n (cut k g) k j) by lia. apply det_ext. intros a b _ _. unfold cut.
      replace (Nat.min (transpose k j a) k) with (Nat.min a k); [reflexivity|].
      unfold transpose. destruct (Nat.eqb_spec a k), (Nat.eqb_spec a j); lia.
  Qed.

  Lemma full_factor pivot st a A : factor_of O dbg n pivot st a A ->
    exists g, is_mat n n (lu_matrix st) g /\ lu_inv O n A n (order pivot st) g /\
      det n (fun i j => A (order pivot st i) j) = prod n (fun i => g i i) /\
      (det n A = prod n (fun i => g i i) \/ det n A = - prod n (fun i => g i i)) /\
      (pivot = false -> forall k, (k <= n)%nat -> det k A = prod k (fun i => g i i)).
  Proof using Fth HT.
    intros (Ha & st0 & Hz & E).
    destruct (factorise_inv O dbg pivot n st0 a A (fun k s g => lu_inv O n A k s g /\
        det n (fun i j => A (s i) j) = det n (cut k g) /\
        (det n A = det n (cut k g) \/ det n A = - det n (cut k g)) /\
        (pivot = false -> forall m, (m <= n)%nat -> det m A = det m (cut k g))) (fun _ _ _ => True))
      as (st1 & ok & E1 & _ & _ & s & g & Hm & Hp & Hi & HI); auto.
    - split; [apply (lu_inv_0 O opp inv Fth)|].
      assert (forall m, det m A = det m (cut 0 A)) as D.
      { intro m. apply det_ext. intros x y _ _. unfold cut. rewrite Nat.min_0_r. reflexivity. }
      split; [apply D|]. split; auto.
    - intros i j s g Hij Hj _ (HI & HD & HS & HM) Hlt.
      assert (Hp : g j i <> 0). { intro Z. rewrite Z in Hlt. unfold refuses_zero in Hz. congruence. }
      assert (Hp' : g (transpose i j i) i <> 0) by (unfold transpose; rewrite Nat.eqb_refl; exact Hp).
      split; [apply (lu_inv_step O opp inv Fth); auto|].
      rewrite (cut_step i i (fun a b => g (transpose i j a) b) n ltac:(lia) Hp' eq_refl).
      rewrite cut_swap by lia. split; [|split].
      + destruct (Nat.eqb_spec j i) as [->|Hne].
        * rewrite <- HD. apply det_ext. intros. rewrite transpose_same. reflexivity.
        * rewrite <- HD. rewrite <- (det_swap O opp inv Fth n (fun x y => A (s x) y) i j) by lia. reflexivity.
      + destruct (j =? i); auto. destruct HS as [-> | ->]; [right; ring|left; ring].
      + intros Hf m Hmn. rewrite (Hj Hf) in *. destruct (Nat.lt_ge_cases i m) as [Him|Him].
        * rewrite (cut_step i i (fun a b => g (transpose i i a) b) m Him); [|rewrite transpose_same; auto|auto].
          rewrite HM by auto. apply det_ext. intros x y _ _. unfold cut. rewrite transpose_same. reflexivity.
        * rewrite HM by auto. apply det_ext. intros x y Hx Hy. unfold cut.
          destruct (Nat.ltb_spec i x); [lia|]. rewrite transpose_same, !Nat.min_l by lia. reflexivity.
    - rewrite E in E1. injection E1 as <- <-. destruct (HI eq_refl) as (H1 & H2 & H3 & H4).
      assert (C : forall m, (m <= n)%nat -> det m (cut n g) = prod m (fun i => g i i)).
      { intros m Hmn. rewrite (det_upper O opp inv Fth).
        - apply prod_ext. intros i Hi'. unfold cut. rewrite Nat.min_l by lia. rewrite Nat.ltb_irrefl. reflexivity.
        - intros x y Hxy. unfold cut. rewrite Nat.min_l by lia. destruct (Nat.ltb_spec y x); [auto|lia]. }
      assert (HO : forall i, (i < n)%nat -> order pivot st i = s i).
      { intros i Hi'. destruct pivot; [apply is_vec_order; auto|]. cbn. symmetry. apply Hi. reflexivity. }
      exists g. split; auto. split; [apply (lu_inv_order A n s); auto|]. rewrite <- !C by lia. split; [|split; auto].
      + rewrite <- H2. apply det_ext. intros i j Hi' _. rewrite HO by auto. reflexivity.
      + intros Hf k Hk. rewrite <- C by auto. apply H4; auto.
  Qed.

  Lemma sum_first k f : (k < n)%nat -> (forall m, (k < m < n)%nat -> f m = 0) -> sum n f = sum k f + f k.
  Proof using Fth.
    intros Hk H. replace n with (k + (1 + (n - (k + 1))))%nat by lia.
    rewrite (LuField.sum_app O opp inv Fth), (LuField.sum_app O opp inv Fth 1).
    rewrite (LuField.sum_zero O opp inv Fth (n - (k + 1))) by (intros; apply H; lia).
    cbn [asum]. rewrite Nat.add_0_r. ring.
  Qed.

  Lemma factor_product A s g : lu_inv O n A n s g -> forall i j, (i < n)%nat -> (j < n)%nat ->
    A (s i) j = sum n (fun m => lower g i m * upper g m j).
  Proof using Fth.
    intros (HA & _) i j Hi Hj. rewrite HA by auto. rewrite (Nat.min_l i n) by lia.
    rewrite (sum_first i); [|auto|].
    2:{ intros m Hm. unfold PropFactorLemmas.lower. destruct (Nat.ltb_spec m i); [lia|]. destruct (Nat.eqb_spec m i); [lia|]. ring. }
    rewrite (sum_min O opp inv Fth). f_equal.
    - apply asum_ext. intros m Hm. unfold PropFactorLemmas.lower, LuField.upper. destruct (Nat.ltb_spec m i); [|lia].
      destruct (m <=? j); ring.
    - unfold PropFactorLemmas.lower, LuField.upper. rewrite Nat.ltb_irrefl, Nat.eqb_refl. destruct (i <=? j); ring.
  Qed.

  Lemma product pivot st a A : factor_of O dbg n pivot st a A ->
    exists g, is_mat n n (lu_matrix st) g /\ Permutation (map (order pivot st) (seq 0%nat n)) (seq 0%nat n) /\
      (forall i, (i < n)%nat -> g i i <> 0) /\
      (forall i j, (i < n)%nat -> (j < n)%nat -> A (order pivot st i) j = sum n (fun m => lower g i m * upper g m j)).
  Proof using Fth HT.
    intro H. destruct (full_factor pivot st a A H) as (g & Hm & HI & _). exists g. split; auto.
    split; [|split; [apply HI|apply factor_product; auto]].
    destruct HI as (_ & _ & Hs & Hr). symmetry. apply NoDup_Permutation_bis.
    - apply seq_NoDup.
    - rewrite map_length. lia.
    - intros r Hin. apply in_seq in Hin. destruct (Hr r ltac:(lia)) as (x & Hx & <-). apply in_map, in_seq. lia.
  Qed.

  (** There is only one pair of factors. *)
  Lemma unique_factors A s g L U : lu_inv O n A n s g -> unit_lower O n L -> upper_triangle O n U ->
    (forall i j, (i < n)%nat -> (j < n)%nat -> A (s i) j = sum n (fun m => L i m * U m j)) ->
    forall i j, (i < n)%nat -> (j < n)%nat -> L i j = lower g i j /\ U i j = upper g i j.
  Proof using Fth.
    intros HI [L1 L0] U0 HP. pose proof HI as (_ & Hd & _). pose proof (factor_product A s g HI) as HG.
    assert (LL : forall i m, (i < m)%nat -> lower g i m = 0).
    { intros i m Hm. unfold PropFactorLemmas.lower. destruct (Nat.ltb_spec m i); [lia|]. destruct (Nat.eqb_spec m i); [lia|auto]. }
    assert (L2 : forall i, lower g i i = 1).
    { intro i. unfold PropFactorLemmas.lower. rewrite Nat.ltb_irrefl, Nat.eqb_refl. auto. }
    assert (UU : forall i m, (m < i)%nat -> upper g i m = 0).
    { intros i m Hm. unfold LuField.upper. destruct (Nat.leb_spec i m); [lia|auto]. }
    assert (K : forall k, (k < n)%nat -> (forall j, (j < n)%nat -> U k j = upper g k j) /\ (forall i, (i < n)%nat -> L i k = lower g i k)).
    { induction k as [k IH] using lt_wf_ind. intro Hk.
      assert (UK : forall j, (j < n)%nat -> U k j = upper g k j).
      { intros j Hj. pose proof (HP k j Hk Hj) as E. rewrite (HG k j Hk Hj) in E.
        rewrite (sum_first k (fun m => lower g k m * upper g m j)) in E
          by (auto; intros m Hm; rewrite LL by lia; ring).
        rewrite (sum_first k (fun m => L k m * U m j)) in E by (auto; intros m Hm; rewrite L0 by lia; ring).
        rewrite L1, L2 in E by auto.
        rewrite (asum_ext _ _ _ (fun m => L k m * U m j) (fun m => lower g k m * upper g m j)) in E.
        - apply (S_cancel O opp inv Fth) in E. transitivity (1 * U k j); [ring|]. rewrite <- E. ring.
        - intros m Hm. destruct (IH m Hm ltac:(lia)) as [-> ->]; auto. }
      split; auto. intros i Hi. destruct (Nat.lt_ge_cases i k) as [Hik|Hik]; [rewrite LL, L0 by lia; auto|].
      pose proof (HP i k Hi Hk) as E. rewrite (HG i k Hi Hk) in E.
      rewrite (sum_first k (fun m => lower g i m * upper g m k)) in E by (auto; intros m Hm; rewrite UU by lia; ring).
      rewrite (sum_first k (fun m => L i m * U m k)) in E by (auto; intros m Hm; rewrite U0 by lia; ring).
      rewrite (asum_ext _ _ _ (fun m => L i m * U m k) (fun m => lower g i m * upper g m k)) in E
        by (intros m Hm; destruct (IH m Hm ltac:(lia)) as [-> ->]; auto).
      apply (S_cancel O opp inv Fth) in E. rewrite UK in E by auto.
      apply (S_mul_cancel O opp inv Fth (upper g k k)).
      - unfold LuField.upper. rewrite Nat.leb_refl. apply Hd. lia.
      - transitivity (L i k * upper g k k); [ring|]. rewrite <- E. ring. }
    intros i j Hi Hj. split; [apply K; auto|apply K; auto].
  Qed.

  Lemma unique pivot st a A g L U : factor_of O dbg n pivot st a A -> is_mat n n (lu_matrix st) g ->
    unit_lower O n L -> upper_triangle O n U ->
    (forall i j, (i < n)%nat -> (j < n)%nat -> A (order pivot st i) j = sum n (fun m => L i m * U m j)) ->
    forall i j, (i < n)%nat -> (j < n)%nat -> L i j = lower g i j /\ U i j = upper g i j.
  Proof using Fth HT.
    intros H Hg HL HU HP i j Hi Hj. destruct (full_factor pivot st a A H) as (g' & Hm & HI & _).
    destruct (unique_factors A _ g' L U HI HL HU HP i j Hi Hj) as [-> ->].
    assert (EG : forall x y, (x < n)%nat -> (y < n)%nat -> g' x y = g x y).
    { intros x y Hx Hy. pose proof (is_mat_get _ _ _ _ x y Hm Hx Hy) as E1.
      rewrite (is_mat_get _ _ _ _ x y Hg Hx Hy) in E1. congruence. }
    unfold PropFactorLemmas.lower, LuField.upper. rewrite EG by auto. auto.
  Qed.

  (** Symmetric matrices: the upper factor is the transposed lower one, its rows scaled by the pivots. *)
  Lemma symmetric_factors st a A g : factor_of O dbg n false st a A -> is_mat n n (lu_matrix st) g ->
    (forall i j, (i < n)%nat -> (j < n)%nat -> A i j = A j i) ->
    forall i j, (i < j < n)%nat -> g i j = g i i * g j i.
  Proof using Fth HT.
    intros H Hg HS i j Hij. destruct (full_factor false st a A H) as (g' & Hm & HI & _).
    assert (EG : forall x y, (x < n)%nat -> (y < n)%nat -> g x y = g' x y).
    { intros x y Hx Hy. pose proof (is_mat_get _ _ _ _ x y Hm Hx Hy) as E1.
      rewrite (is_mat_get _ _ _ _ x y Hg Hx Hy) in E1. congruence. }
    rewrite !EG by lia. clear g Hg EG. pose proof HI as (_ & Hd & _).
    destruct (unique false st a A g') with (1 := H) (2 := Hm)
      (L := fun r c => upper g' c r / g' c c) (U := fun r c => g' r r * lower g' c r) (i := i) (j := j) as [_ E]; try lia.
    - split.
      + intros k Hk. unfold LuField.upper. rewrite Nat.leb_refl. field. auto.
      + intros r c Hrc. unfold LuField.upper. destruct (Nat.leb_spec c r); [lia|]. field. apply Hd. lia.
    - intros r c Hrc. unfold PropFactorLemmas.lower. destruct (Nat.ltb_spec r c); [lia|]. destruct (Nat.eqb_spec r c); [lia|]. ring.
    - intros r c Hr Hc. cbn [order]. rewrite HS by auto. etransitivity; [exact (factor_product A _ g' HI c r Hc Hr)|].
      apply asum_ext. intros m Hm'. field. auto.
    - unfold PropFactorLemmas.lower, LuField.upper in E. destruct (Nat.ltb_spec i j); [|lia]. destruct (Nat.leb_spec i j); [|lia].
      symmetry. exact E.
  Qed.

  (** Triangular matrices. *)
  Lemma upper_factors st a A g : factor_of O dbg n false st a A -> is_mat n n (lu_matrix st) g ->
    upper_triangle O n A -> forall i j, (i < n)%nat -> (j < n)%nat -> g i j = A i j.
  Proof using Fth HT.
    intros H Hg HA i j Hi Hj.
    destruct (unique false st a A g (fun r c => if r =? c then 1 else 0) A H Hg) with (i := i) (j := j) as [EL EU]; auto.
    - split; intros; [rewrite Nat.eqb_refl; auto|]. destruct (Nat.eqb_spec i0 j0); [lia|auto].
    - intros r c Hr Hc. cbn [order]. rewrite (sum_first r).
      + rewrite Nat.eqb_refl, (LuField.sum_zero O opp inv Fth); [ring|]. intros m Hm. destruct (Nat.eqb_spec r m); [lia|ring].
      + auto.
      + intros m Hm. destruct (Nat.eqb_spec r m); [lia|ring].
    - unfold PropFactorLemmas.lower, LuField.upper in *. destruct (Nat.leb_spec i j); [auto|].
      destruct (Nat.ltb_spec j i); [|lia]. destruct (Nat.eqb_spec i j); [lia|]. rewrite <- EL. symmetry. apply HA. lia.
  Qed.

  Lemma lower_factors st a A g : factor_of O dbg n false st a A -> is_mat n n (lu_matrix st) g ->
    (forall i j, (i < j < n)%nat -> A i j = 0) ->
    forall i j, (i < n)%nat -> (j < n)%nat ->
      g i j = if i <? j then 0 else if i =? j then A i i else A i j / A j j.
  Proof using Fth HT.
    intros H Hg HA.
    assert (D : forall i, (i < n)%nat -> A i i <> 0).
    { destruct (full_factor false st a A H) as (g' & Hm & HI & _). intros i. induction i as [i IH] using lt_wf_ind. intros Hi Z.
      pose proof HI as (_ & Hd & _). pose proof (factor_product A _ g' HI) as HP.
      assert (UZ : forall r c, (r < c)%nat -> (c < n)%nat -> upper g' r c = 0).
      { induction r as [r IHr] using lt_wf_ind. intros c Hrc Hc. pose proof (HP r c ltac:(lia) Hc) as E. cbn [order] in E.
        rewrite HA in E by lia. rewrite (sum_first r) in E.
        - rewrite (LuField.sum_zero O opp inv Fth) in E.
          + unfold PropFactorLemmas.lower in E. rewrite Nat.ltb_irrefl, Nat.eqb_refl in E.
            transitivity (0 + 1 * upper g' r c); [ring|]. symmetry. exact E.
          + intros m Hmr. rewrite (IHr m Hmr c) by lia. ring.
        - lia.
        - intros m Hmr. unfold PropFactorLemmas.lower. destruct (Nat.ltb_spec m r); [lia|]. destruct (Nat.eqb_spec m r); [lia|]. ring. }
      pose proof (HP i i Hi Hi) as E. cbn [order] in E. rewrite Z in E. rewrite (sum_first i) in E.
      - rewrite (LuField.sum_zero O opp inv Fth) in E.
        + unfold PropFactorLemmas.lower, LuField.upper in E. rewrite Nat.ltb_irrefl, Nat.eqb_refl, Nat.leb_refl in E.
          apply (Hd i Hi). transitivity (0 + 1 * g' i i); [ring|]. symmetry. exact E.
        + intros m Hmi. rewrite (UZ m i Hmi Hi). ring.
      - auto.
      - intros m Hmr. unfold PropFactorLemmas.lower. destruct (Nat.ltb_spec m i); [lia|]. destruct (Nat.eqb_spec m i); [lia|]. ring. }
    intros i j Hi Hj.
    destruct (unique false st a A g (fun r c => A r c / A c c) (fun r c => if r =? c then A r r else 0) H Hg)
      with (i := i) (j := j) as [EL EU]; auto.
    - split; intros; [field; auto|]. rewrite HA by lia. field. apply D. lia.
    - intros r c Hrc. destruct (Nat.eqb_spec r c); [lia|auto].
    - intros r c Hr Hc. cbn [order]. rewrite (sum_first c).
      + rewrite Nat.eqb_refl, (LuField.sum_zero O opp inv Fth); [field; auto|]. intros m Hm. destruct (Nat.eqb_spec m c); [lia|ring].
      + auto.
      + intros m Hm. destruct (Nat.eqb_spec m c); [lia|ring].
    - unfold PropFactorLemmas.lower, LuField.upper in *. destruct (Nat.ltb_spec i j), (Nat.eqb_spec i j), (Nat.leb_spec i j), (Nat.ltb_spec j i);
        try lia; auto.
  Qed.

  Lemma sum_kron k i (v : S) : (i < k)%nat -> sum k (fun b => if b =? i then v else 0) = v.
  Proof using Fth.
    intro Hi. induction k as [|k IH]; [lia|]. cbn [asum]. destruct (Nat.eq_dec i k) as [->|Hne].
    - rewrite Nat.eqb_refl, (LuField.sum_zero O opp inv Fth); [ring|]. intros m Hm. destruct (Nat.eqb_spec m k); [lia|auto].
    - rewrite IH by lia. destruct (Nat.eqb_spec k i); [lia|]. ring.
  Qed.

  (** A system with a triangular matrix. *)
  Lemma kernel_exists g (h : nat -> S) k : (forall m, (m < k)%nat -> g m m <> 0) ->
    exists w : nat -> S, forall m, (m < k)%nat -> sum k (fun b => upper g m b * w b) = h m.
  Proof using Fth.
    intro Hd. assert (G : forall t, (t <= k)%nat -> exists w : nat -> S, forall m, (k - t <= m < k)%nat ->
      sum k (fun b => upper g m b * w b) = h m).
    { induction t as [|t IH]; intro Ht; [exists h; intros; lia|]. destruct (IH ltac:(lia)) as (w & Hw).
      set (i := (k - Datatypes.S t)%nat). set (r := sum k (fun b => upper g i b * (if b =? i then 0 else w b))).
      exists (fun b => if b =? i then (h i - r) / g i i else w b). intros m Hm. destruct (Nat.eq_dec m i) as [->|Hne].
      - rewrite (asum_ext _ _ _ _ (fun b => upper g i b * (if b =? i then 0 else w b) +
          (if b =? i then h i - r else 0))).
        + rewrite (LuField.sum_plus O opp inv Fth). fold r.
          rewrite (sum_kron k i (h i - r)) by lia. ring.
        + intros b Hb. destruct (Nat.eqb_spec b i) as [->|]; [|ring]. unfold LuField.upper. rewrite Nat.leb_refl. field.
          apply Hd. lia.
      - rewrite <- (Hw m) by lia. apply asum_ext. intros b Hb. destruct (Nat.eqb_spec b i) as [->|]; auto.
        unfold LuField.upper. destruct (Nat.leb_spec m i); [lia|]. ring. }
    destruct (G k (le_n k)) as (w & Hw). exists w. intros m Hm. apply Hw. lia.
  Qed.

  (** After [k] rounds there is a vector with a one in place [k] which the matrix maps to the rest of column [k]. *)
  Lemma column_vector A k s g : (k < n)%nat -> lu_inv O n A k s g ->
    exists w : nat -> S, w k = 1 /\ (forall b, (k < b)%nat -> w b = 0) /\
      forall a, (a < n)%nat -> sum n (fun b => A (s a) b * w b) = if a <? k then 0 else g a k.
  Proof using Fth.
    intros Hk (HA & Hd & _).
    destruct (kernel_exists g (fun m => - upper g m k) k Hd) as (w0 & Hw0).
    set (w := fun b => if b <? k then w0 b else if b =? k then 1 else 0).
    assert (Wk : w k = 1) by (unfold w; rewrite Nat.ltb_irrefl, Nat.eqb_refl; auto).
    assert (Wl : forall b, (b < k)%nat -> w b = w0 b) by (intros b Hb; unfold w; destruct (Nat.ltb_spec b k); [auto|lia]).
    assert (Wg : forall b, (k < b)%nat -> w b = 0).
    { intros b Hb. unfold w. destruct (Nat.ltb_spec b k); [lia|]. destruct (Nat.eqb_spec b k); [lia|auto]. }
    assert (HU : forall m, (m < k)%nat -> sum (Datatypes.S k) (fun b => upper g m b * w b) = 0).
    { intros m Hm. cbn [asum]. rewrite Wk. rewrite (asum_ext _ _ _ _ (fun b => upper g m b * w0 b)).
      - rewrite Hw0 by auto. ring.
      - intros b Hb. rewrite Wl by auto. auto. }
    exists w. split; auto. split; auto. intros a Ha.
    transitivity (sum (Datatypes.S k) (fun b => A (s a) b * w b)).
    { cbn [asum]. apply sum_first; auto. intros m Hm. rewrite Wg by lia. ring. }
    rewrite (asum_ext _ _ _ _ (fun b => sum (Nat.min a k) (fun m => g a m * (upper g m b * w b)) +
      (if Nat.min a k <=? b then g a b else 0) * w b)).
    - rewrite (LuField.sum_plus O opp inv Fth), (sum_exchange O opp inv Fth).
      rewrite (LuField.sum_zero O opp inv Fth (Nat.min a k)).
      2:{ intros m Hm. rewrite (LuField.sum_scale O opp inv Fth), HU by lia. ring. }
      destruct (Nat.ltb_spec a k).
      + rewrite Nat.min_l by lia. transitivity (sum (Datatypes.S k) (fun b => upper g a b * w b)); [unfold LuField.upper; ring|apply HU; auto].
      + rewrite Nat.min_r by lia. cbn [asum]. rewrite (LuField.sum_zero O opp inv Fth), Nat.leb_refl, Wk; [ring|].
        intros b Hb. destruct (Nat.leb_spec k b); [lia|ring].
    - intros b Hb. rewrite HA by lia. rewrite (sum_min O opp inv Fth). unfold LuField.upper.
      transitivity (w b * sum (Nat.min a k) (fun m => if m <=? b then g a m * g m b else 0) + (if Nat.min a k <=? b then g a b else 0) * w b);
        [ring|]. f_equal. rewrite <- (LuField.sum_scale O opp inv Fth). apply asum_ext. intros m _. destruct (m <=? b); ring.
  Qed.

  Lemma determinant pivot st a A g : factor_of O dbg n pivot st a A -> is_mat n n (lu_matrix st) g ->
    det n (fun i j => A (order pivot st i) j) = prod n (fun i => g i i) /\
    (det n A = prod n (fun i => g i i) \/ det n A = - prod n (fun i => g i i)).
  Proof using Fth HT.
    intros H Hg. destruct (full_factor pivot st a A H) as (g' & Hm & _ & D & S' & _).
    rewrite (prod_ext O n (fun i => g i i) (fun i => g' i i)); [auto|]. intros i Hi.
    pose proof (is_mat_get _ _ _ _ i i Hm Hi Hi) as E1. rewrite (is_mat_get _ _ _ _ i i Hg Hi Hi) in E1. congruence.
  Qed.

  Lemma minors st a A g : factor_of O dbg n false st a A -> is_mat n n (lu_matrix st) g ->
    forall k, (k <= n)%nat -> det k A = prod k (fun i => g i i).
  Proof using Fth HT.
    intros H Hg k Hk. destruct (full_factor false st a A H) as (g' & Hm & _ & _ & _ & D). rewrite D by auto.
    apply prod_ext. intros i Hi. assert (Hi' : (i < n)%nat) by lia.
    pose proof (is_mat_get _ _ _ _ i i Hm Hi' Hi') as E1. rewrite (is_mat_get _ _ _ _ i i Hg Hi' Hi') in E1. congruence.
  Qed.
End Factors.

Local Open Scope R_scope.

Lemma prod_bound n (f : nat -> R) t : 0 < t -> (forall i, (i < n)%nat -> t <= Rabs (f i)) -> t ^ n <= Rabs (prod rops n f).
Proof.
  intros Ht H. induction n as [|n IH]; unfold prod in *; cbn [asum rops sc_one sc_mul pow].
  - rewrite Rabs_R1. lra.
  - fold rops. rewrite Rabs_mult, Rmult_comm. apply Rmult_le_compat.
    + apply pow_le. lra.
    + lra.
    + apply IH. intros. apply H. lia.
    + apply H. lia.
Qed.

Lemma prod_pos n (f : nat -> R) t : 0 < t -> (forall i, (i < n)%nat -> t <= Rabs (f i)) -> 0 < Rabs (prod rops n f).
Proof. intros Ht H. pose proof (prod_bound n f t Ht H). pose proof (pow_lt t n Ht). lra. Qed.

(** Without pivoting: the leading minors decide. *)
Lemma minors_decide dbg n st a A : is_mat n n a A -> 0 < lu_tolerance st ->
  exists st' ok, factorise rops dbg false st a = Ok (st', ok) /\
    (ok = true <-> forall k, (k < n)%nat -> lu_tolerance st * Rabs (det rops k A) <= Rabs (det rops (k + 1) A)).
Proof.
  intros Ha Ht. set (t := lu_tolerance st) in *.
  destruct (factorise_cases rops dbg false n st a A (fun k _ g =>
      (forall m, (m <= n)%nat -> det rops m A = det rops m (cut rops k g)) /\
      forall i, (i < k)%nat -> t <= Rabs (g i i)) (fun _ _ _ => True))
    as (st' & ok & E & _ & s & g & Hm & _ & _ & HTr & HF); auto; try discriminate.
  - split; [|intros; lia]. intros m _. apply det_ext. intros x y _ _. unfold cut. rewrite Nat.min_0_r. reflexivity.
  - intros i j s g Hij Hj _ [HD Hp] Hlt. rewrite (Hj eq_refl) in *. apply Rltb_false in Hlt. fold t in Hlt. split.
    + intros m Hm. destruct (Nat.lt_ge_cases i m) as [Him|Him].
      * rewrite (cut_step rops Ropp Rinv R_field i i (fun a b => g (transpose i i a) b) m Him); [|rewrite transpose_same|auto].
        -- rewrite HD by auto. apply det_ext. intros x y _ _. unfold cut. rewrite transpose_same. reflexivity.
        -- intro Z. cbn [rops sc_abs sc_zero] in *. rewrite Z, Rabs_R0 in Hlt. lra.
      * rewrite HD by auto. apply det_ext. intros x y Hx Hy. unfold cut.
        destruct (Nat.ltb_spec i x); [lia|]. rewrite transpose_same, !Nat.min_l by lia. reflexivity.
    + intros k Hk. destruct (Nat.ltb_spec i k); [lia|]. rewrite transpose_same.
      destruct (Nat.eq_dec k i) as [->|]; [exact Hlt|apply Hp; lia].
  - exists st', ok. split; auto.
    assert (C : forall k (h : nat -> nat -> R) m, (m <= k + 1)%nat -> det rops m (cut rops k h) = prod rops m (fun i => h i i)).
    { intros k h m Hmk. rewrite (det_upper rops Ropp Rinv R_field).
      - apply prod_ext. intros i Hi. unfold cut. destruct (Nat.ltb_spec i (Nat.min i k)); [lia|auto].
      - intros x y Hxy. unfold cut. destruct (Nat.ltb_spec y (Nat.min x k)); [auto|lia]. }
    destruct ok.
    + split; auto. intros _ k Hk. destruct (HTr eq_refl) as [HD Hp].
      rewrite !HD, !C by lia. rewrite Nat.add_1_r. unfold prod. cbn [asum rops sc_one sc_mul]. rewrite Rabs_mult.
      rewrite Rmult_comm. apply Rmult_le_compat_l; [apply Rabs_pos|]. apply Hp. lia.
    + split; [discriminate|]. intro H. exfalso. destruct (HF eq_refl) as (i & j & s' & g' & Hij & Hj & _ & [HD Hp] & Hlt).
      rewrite (Hj eq_refl) in *. apply Rltb_true in Hlt. cbn [rops sc_abs] in Hlt. fold t in Hlt.
      specialize (H i ltac:(lia)). rewrite !HD, !C in H by lia. rewrite Nat.add_1_r in H.
      pose proof (prod_pos i (fun i => g' i i) t Ht Hp) as HP.
      change (prod rops (S i) (fun i => g' i i)) with (prod rops i (fun i => g' i i) * g' i i) in H.
      rewrite Rabs_mult in H. nra.
Qed.

Lemma accepted_determinant dbg pivot n st a A st' : is_mat n n a A -> 0 < lu_tolerance st ->
  factorise rops dbg pivot st a = Ok (st', true) -> lu_tolerance st ^ n <= Rabs (det rops n A).
Proof.
  intros Ha Ht E.
  assert (F : factor_of rops dbg n pivot st' a A).
  { split; auto. exists st. split; auto. apply R_refuses_zero. exact Ht. }
  destruct (factorise_inv rops dbg pivot n st a A (fun k _ g => forall i, (i < k)%nat -> lu_tolerance st <= Rabs (g i i))
    (fun _ _ _ => True) (R_tol_default dbg) Ha) as (st1 & ok & E1 & _ & _ & s & g & Hm & _ & _ & HI); auto.
  - intros; lia.
  - intros i j s g Hij _ _ HI Hlt k Hk. apply Rltb_false in Hlt. cbn [rops sc_abs] in Hlt.
    destruct (Nat.ltb_spec i k); [lia|]. unfold transpose. destruct (Nat.eqb_spec k i) as [->|]; auto.
    destruct (Nat.eqb_spec k j); [lia|]. apply HI. lia.
  - rewrite E in E1. injection E1 as <- <-.
    destruct (determinant rops Ropp Rinv R_field dbg n (R_tol_default dbg) pivot st' a A g F Hm) as [_ [D|D]]; rewrite D.
    + apply prod_bound; auto.
    + rewrite Rabs_Ropp. apply prod_bound; auto.
Qed.

(** What a refusal means. *)
Definition refusal_bound (t : R) : R := t * (1025 / 1024) + / 2 ^ 46.

Lemma near_le_bound e m t : 0 <= e -> 0 <= m -> m < t -> near_le e m -> e < refusal_bound t.
Proof.
  intros He Hm Hmt H. unfold refusal_bound.
  assert (P36 : / 2 ^ 36 = 1 / 68719476736) by (replace (2 ^ 36) with 68719476736 by ring; field).
  assert (P46 : 0 < / 2 ^ 46) by (apply Rinv_0_lt_compat, pow_lt; lra).
  unfold near_le in H. rewrite P36 in H. destruct H as [H|[H|H]]; lra.
Qed.

Lemma refused_nearly_singular dbg n st a A st' : is_mat n n a A -> 0 < lu_tolerance st ->
  factorise rops dbg true st a = Ok (st', false) ->
  exists w k, (k < n)%nat /\ w k = 1 /\
    forall r, (r < n)%nat -> Rabs (rsum n (fun j => A r j * w j)) < refusal_bound (lu_tolerance st).
Proof.
  intros Ha Ht E.
  destruct (factorise_cases rops dbg true n st a A (lu_inv rops n A) (best_pivot n))
    as (st1 & ok & E1 & _ & s & g & Hm & _ & _ & _ & HF); auto.
  - intros _. apply R_tol_default.
  - intros m g i j. apply search_best.
  - apply (lu_inv_0 rops Ropp Rinv R_field).
  - intros i j s g Hij _ _ HI Hlt. apply (lu_inv_step rops Ropp Rinv R_field); auto.
    intro Z. apply Rltb_false in Hlt. cbn [rops sc_abs sc_zero] in *. rewrite Z, Rabs_R0 in Hlt. lra.
  - rewrite E in E1. injection E1 as <- <-. destruct (HF eq_refl) as (i & j & s' & g' & Hij & _ & HP & HI & Hlt).
    specialize (HP eq_refl). apply Rltb_true in Hlt. cbn [rops sc_abs] in Hlt.
    destruct (column_vector rops Ropp Rinv R_field n A i s' g' ltac:(lia) HI) as (w & Hw1 & _ & Hw).
    exists w, i. split; [lia|]. split; [exact Hw1|]. intros r Hr. destruct HI as (_ & _ & _ & Hs).
    destruct (Hs r Hr) as (x & Hx & <-). unfold rsum. cbn [rops sc_zero sc_add sc_mul] in Hw. rewrite Hw by auto.
    destruct (Nat.ltb_spec x i).
    + rewrite Rabs_R0. unfold refusal_bound. assert (0 < / 2 ^ 46) by (apply Rinv_0_lt_compat, pow_lt; lra). lra.
    + apply (near_le_bound _ (Rabs (g' j i))); [apply Rabs_pos|apply Rabs_pos|auto|]. apply HP. lia.
Qed.

Lemma regular_accepted dbg n st a A : is_mat n n a A -> 0 < lu_tolerance st ->
  (forall w k, (k < n)%nat -> w k = 1 -> exists r, (r < n)%nat /\
     refusal_bound (lu_tolerance st) <= Rabs (rsum n (fun j => A r j * w j))) ->
  exists st', factorise rops dbg true st a = Ok (st', true).
Proof.
  intros Ha Ht H. destruct (factorise_total rops dbg true n st a A (R_tol_default dbg) Ha) as (st' & [] & E & _); [eauto|].
  exfalso. destruct (refused_nearly_singular dbg n st a A st' Ha Ht E) as (w & k & Hk & Hw & HR).
  destruct (H w k Hk Hw) as (r & Hr & Hb). specialize (HR r Hr). lra.
Qed.

(** Without pivoting a leading block is nearly singular. *)
Lemma unpivoted_refused dbg n st a A st' : is_mat n n a A -> 0 < lu_tolerance st ->
  factorise rops dbg false st a = Ok (st', false) ->
  exists w k, (k < n)%nat /\ w k = 1 /\ (forall j, (k < j)%nat -> w j = 0) /\
    (forall r, (r < k)%nat -> rsum n (fun j => A r j * w j) = 0) /\
    Rabs (rsum n (fun j => A k j * w j)) < lu_tolerance st.
Proof.
  intros Ha Ht E.
  destruct (factorise_cases rops dbg false n st a A (fun k s g => lu_inv rops n A k s g /\ forall x, s x = x) (fun _ _ _ => True))
    as (st1 & ok & E1 & _ & s & g & Hm & _ & _ & _ & HF); auto; try discriminate.
  - split; auto. apply (lu_inv_0 rops Ropp Rinv R_field).
  - intros i j s g Hij Hj _ [HI Hs] Hlt. rewrite (Hj eq_refl) in *. split.
    + apply (lu_inv_step rops Ropp Rinv R_field); auto.
      intro Z. apply Rltb_false in Hlt. cbn [rops sc_abs sc_zero] in *. rewrite Z, Rabs_R0 in Hlt. lra.
    + intro x. rewrite transpose_same. auto.
  - rewrite E in E1. injection E1 as <- <-. destruct (HF eq_refl) as (i & j & s' & g' & Hij & Hj & _ & [HI Hs] & Hlt).
    rewrite (Hj eq_refl) in *. apply Rltb_true in Hlt. cbn [rops sc_abs] in Hlt.
    destruct (column_vector rops Ropp Rinv R_field n A i s' g' ltac:(lia) HI) as (w & Hw1 & Hw0 & Hw).
    cbn [rops sc_zero sc_add sc_mul] in Hw. exists w, i. split; [lia|]. split; [exact Hw1|]. split; [exact Hw0|]. split.
    + intros r Hr. rewrite <- (Hs r). unfold rsum. rewrite Hw by lia. destruct (Nat.ltb_spec r i); [auto|lia].
    + specialize (Hw i ltac:(lia)). rewrite (Hs i), Nat.ltb_irrefl in Hw.
      match goal with |- Rabs ?x < _ => replace x with (g' i i); [exact Hlt] end.
Qed.
