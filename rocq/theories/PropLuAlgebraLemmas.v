(** Proofs of the property theorems about the direct solver and the arithmetic of dense vectors and matrices. *)
From Coq Require Import ZArith Field.
From Verif Require Import Base ListFacts DenseModel DenseFacts ScalarModel DenseOps LuModel LuFacts LuField PropDenseLemmas PropLuLemmas.
Local Open Scope nat_scope.

(** What a solve that ends normally reports. *)
Definition solved {S} (O : sops S) : conv_data S :=
  mkConv true 1 (sc_max O) (sc_max O) (sc_max O) (sc_max O) (sc_max O) (sc_max O).

Section Algebra.
  Context {S : Type} (O : sops S) (opp inv : S -> S).
  Hypothesis FT : field_theory (sc_zero O) (sc_one O) (sc_add O) (sc_mul O) (sc_sub O) opp (sc_div O) inv eq.
  Add Field FF : FT.
  Notation sum := (asum (sc_zero O) (sc_add O)).
  Notation "a *f b" := (sc_mul O a b) (at level 40, left associativity).
  Notation "a +f b" := (sc_add O a b) (at level 50, left associativity).

  Lemma sum_plus n f g : sum n (fun i => f i +f g i) = sum n f +f sum n g.
  Proof using FT. induction n as [|n IH]; cbn [asum]; [ring|]. rewrite IH. ring. Qed.

  Lemma sum_scale n f s : sum n (fun i => f i *f s) = sum n f *f s.
  Proof using FT. induction n as [|n IH]; cbn [asum]; [ring|]. rewrite IH. ring. Qed.

  Lemma sum_swap n k f : sum n (fun i => sum k (fun j => f i j)) = sum k (fun j => sum n (fun i => f i j)).
  Proof using FT.
    induction n as [|n IH]; cbn [asum].
    - induction k as [|k IHk]; cbn [asum]; [reflexivity|]. rewrite <- IHk. ring.
    - rewrite IH, sum_plus. reflexivity.
  Qed.

  Variables (dbg : bool) (n : nat).
  Hypothesis HT : tol_default O dbg.

  (** [st] comes from a successful factorisation of the matrix [a] with the elements [A]. *)
  Definition factor_of (pivot : bool) (st : lu_state S) (a : list (list S)) (A : nat -> nat -> S) : Prop :=
    is_mat n n a A /\ exists st0, refuses_zero O (lu_tolerance st0) /\ factorise O dbg pivot st0 a = Ok (st, true).

  Lemma factor_solves pivot st a A x b B : factor_of pivot st a A -> is_vec n b B ->
    exists x' z, lu_solve O dbg pivot st x (Some b) = Ok (x', solved O) /\ is_vec n x' z /\
      (forall i, i < n -> sum n (fun j => A i j *f z j) = B i) /\
      (forall w, (forall i, i < n -> sum n (fun j => A i j *f w j) = B i) -> forall i, i < n -> w i = z i).
  Proof using FT HT.
    intros (Ha & st0 & Hz & Hf) Hb.
    apply (factorise_solves O opp inv FT dbg pivot n st0 a A st HT Hz Ha Hf x (Some b) B Hb). discriminate.
  Qed.

  Lemma solve_is pivot st a A x b B w W : factor_of pivot st a A -> is_vec n b B -> is_vec n w W ->
    (forall i, i < n -> sum n (fun j => A i j *f W j) = B i) -> lu_solve O dbg pivot st x (Some b) = Ok (w, solved O).
  Proof using FT HT.
    intros Hf Hb Hw HW. destruct (factor_solves pivot st a A x b B Hf Hb) as (x' & z & E & Hz & _ & U).
    rewrite E. rewrite (is_vec_eq n x' w z W Hz Hw); [reflexivity|]. intros i Hi. symmetry. apply U; auto.
  Qed.

  Lemma undoes_product pivot st a A junk r t x w W : factor_of pivot st a A -> is_vec n w W -> r = 0 \/ r = n -> vtyped t w ->
    exists b, m_vec (sc_zero O) (sc_add O) (sc_mul O) dbg junk r t a w = Ok b /\
      lu_solve O dbg pivot st x (Some b) = Ok (w, solved O).
  Proof using FT HT.
    intros Hf Hw Hr Ht.
    destruct (mat_vec_square (sc_zero O) (sc_add O) (sc_mul O) dbg junk r t n n a A w W) as (b & E & Hb); auto;
      [apply Hf|].
    exists b. split; [exact E|]. eapply solve_is; eauto.
  Qed.

  Lemma product_undoes pivot st a A junk r t x b : factor_of pivot st a A -> length b = n -> r = 0 \/ r = n -> t = 0 \/ t = n ->
    exists w, lu_solve O dbg pivot st x (Some b) = Ok (w, solved O) /\ length w = n /\
      m_vec (sc_zero O) (sc_add O) (sc_mul O) dbg junk r t a w = Ok b.
  Proof using FT HT.
    intros Hf Hb Hr Ht.
    assert (Hb' : is_vec n b (fun i => nth i b (sc_zero O))) by (rewrite <- Hb; apply is_vec_self).
    destruct (factor_solves pivot st a A x b _ Hf Hb') as (w & z & E & Hz & Hs & _).
    exists w. split; [exact E|]. split; [apply Hz|].
    destruct (mat_vec_square (sc_zero O) (sc_add O) (sc_mul O) dbg junk r t n n a A w z) as (b' & E' & Hb''); auto;
      [apply Hf|unfold vtyped; rewrite (proj1 Hz); lia|].
    rewrite E'. f_equal. eapply is_vec_eq; [exact Hb''|exact Hb'|exact Hs].
  Qed.

  Lemma pivoting_irrelevant st st' a A x x' b : factor_of true st a A -> factor_of false st' a A -> length b = n ->
    exists w, lu_solve O dbg true st x (Some b) = Ok (w, solved O) /\
      lu_solve O dbg false st' x' (Some b) = Ok (w, solved O).
  Proof using FT HT.
    intros Hf Hf' Hb.
    assert (Hb' : is_vec n b (fun i => nth i b (sc_zero O))) by (rewrite <- Hb; apply is_vec_self).
    destruct (factor_solves true st a A x b _ Hf Hb') as (w & z & E & Hz & Hs & _).
    exists w. split; [exact E|]. eapply solve_is; eauto.
  Qed.

  Lemma linear pivot st a A junk n0 n1 x b c s : factor_of pivot st a A -> length b = n -> length c = n ->
    n0 = 0 \/ n0 = n -> n1 = 0 \/ n1 = n ->
    exists y z bc yz sb sy,
      lu_solve O dbg pivot st x (Some b) = Ok (y, solved O) /\ lu_solve O dbg pivot st x (Some c) = Ok (z, solved O) /\
      v_plus (sc_zero O) (sc_add O) dbg junk n0 n1 b c = Ok bc /\ v_plus (sc_zero O) (sc_add O) dbg junk n0 n1 y z = Ok yz /\
      lu_solve O dbg pivot st x (Some bc) = Ok (yz, solved O) /\
      v_times (sc_mul O) s b = Ok sb /\ v_times (sc_mul O) s y = Ok sy /\
      lu_solve O dbg pivot st x (Some sb) = Ok (sy, solved O).
  Proof using FT HT.
    intros Hf Hb Hc H0 H1.
    assert (Hb' : is_vec n b (fun i => nth i b (sc_zero O))) by (rewrite <- Hb; apply is_vec_self).
    assert (Hc' : is_vec n c (fun i => nth i c (sc_zero O))) by (rewrite <- Hc; apply is_vec_self).
    destruct (factor_solves pivot st a A x b _ Hf Hb') as (y & Y & Ey & Hy & Sy & _).
    destruct (factor_solves pivot st a A x c _ Hf Hc') as (z & Z & Ez & Hz & Sz & _).
    assert (T : forall k (v : list S) f, k = 0 \/ k = n -> is_vec n v f -> vtyped k v).
    { intros k v f Hk [Hv _]. unfold vtyped. rewrite Hv. destruct Hk; auto. }
    destruct (vector_elementwise (sc_zero O) (sc_add O) (sc_sub O) (sc_mul O) (sc_div O) dbg junk n0 n1 n b _ c _ s Hb' Hc'
      (T _ _ _ H0 Hb') (T _ _ _ H1 Hc')) as (_ & _ & _ & _ & (bc & Ebc & Hbc) & _ & (sb & Esb & Hsb) & _).
    destruct (vector_elementwise (sc_zero O) (sc_add O) (sc_sub O) (sc_mul O) (sc_div O) dbg junk n0 n1 n y Y z Z s Hy Hz
      (T _ _ _ H0 Hy) (T _ _ _ H1 Hz)) as (_ & _ & _ & _ & (yz & Eyz & Hyz) & _ & (sy & Esy & Hsy) & _).
    exists y, z, bc, yz, sb, sy. do 4 (split; [assumption|]). split; [|split; [assumption|split; [assumption|]]].
    - eapply solve_is; [exact Hf|exact Hbc|exact Hyz|]. intros i Hi. cbv beta. rewrite <- Sy, <- Sz by auto.
      rewrite <- sum_plus. apply asum_ext. intros j _. ring.
    - eapply solve_is; [exact Hf|exact Hsb|exact Hsy|]. intros i Hi. cbv beta. rewrite <- Sy by auto.
      rewrite <- sum_scale. apply asum_ext. intros j _. ring.
  Qed.

  Lemma product_solves p1 p2 p3 st1 st2 st3 a A c C p P s0 s1 x b :
    factor_of p1 st1 a A -> factor_of p2 st2 c C -> mtyped s0 n n -> mtyped s1 n n ->
    m_times (sc_zero O) (sc_add O) (sc_mul O) dbg s0 s1 a c = Ok p -> factor_of p3 st3 p P -> length b = n ->
    exists y z, lu_solve O dbg p1 st1 x (Some b) = Ok (y, solved O) /\ lu_solve O dbg p2 st2 x (Some y) = Ok (z, solved O) /\
      lu_solve O dbg p3 st3 x (Some b) = Ok (z, solved O).
  Proof using FT HT.
    intros Ha Hc T0 T1 Ep Hp Hb.
    assert (Hb' : is_vec n b (fun i => nth i b (sc_zero O))) by (rewrite <- Hb; apply is_vec_self).
    destruct (factor_solves p1 st1 a A x b _ Ha Hb') as (y & Y & Ey & Hy & Sy & _).
    destruct (factor_solves p2 st2 c C x y _ Hc Hy) as (z & Z & Ez & Hz & Sz & _).
    destruct (m_times_ok (sc_zero O) (sc_add O) (sc_mul O) dbg s0 s1 n n n a A c C) as (p' & E' & Hp');
      [apply Ha|auto|apply Hc|auto|exact T0|exact T1| |].
    { destruct T0 as [->|(_ & _)]; auto. }
    rewrite Ep in E'. injection E' as <-.
    exists y, z. split; [exact Ey|]. split; [exact Ez|].
    assert (Hp2 : factor_of p3 st3 p (fun i j => sum n (fun l => A i l *f C l j))) by (split; [exact Hp'|apply Hp]).
    eapply solve_is; [exact Hp2|exact Hb'|exact Hz|]. intros i Hi. cbv beta.
    rewrite <- Sy by auto.
    transitivity (sum n (fun j => sum n (fun l => A i l *f C l j *f Z j))).
    { apply asum_ext. intros j Hj. symmetry. apply sum_scale. }
    rewrite sum_swap. apply asum_ext. intros l Hl. rewrite <- Sz by auto.
    transitivity (sum n (fun j => C l j *f Z j *f A i l)).
    { apply asum_ext. intros j _. ring. }
    rewrite sum_scale. ring.
  Qed.
End Algebra.
