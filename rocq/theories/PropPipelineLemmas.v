(** Renumbering, solving and reading back: lemmas for C133. *)
From Coq Require Import ZArith Reals Lra Lia Field QArith Qcanon.
From Verif Require Import Base ListFacts PermFacts GraphModel GraphSpec DenseModel DenseFacts ScalarModel GeometryReal LuModel LuFacts LuField
  LuReal TraversalModel ReorderModel Ordering OrderingSpec Envelope Energy PropGraphLemmas PropReorderLemmas PropLuLemmas
  IterField IterReal PropIterLemmas PropComposeLemmas PropNumberingLemmas PropLuAlgebraLemmas PropFillLemmas PropTreeLemmas PropSuccessLemmas
  PropRelaxLemmas PropChainLemmas Bfs GraphFacts.
Close Scope Q_scope. Close Scope Qc_scope. Open Scope nat_scope.

(** Equation [i] is equation [r i] of the other system, unknown [j] its unknown [p j]. *)
Definition rearranged {V : Type} (n : nat) (r p : list nat) (A A' : nat -> nat -> V) : Prop :=
  forall i j, i < n -> j < n -> A' (nth i r 0) (nth j p 0) = A i j.

Section Field.
  Context {S : Type}.
  Variables (O : sops S) (opp inv : S -> S).
  Hypothesis Fth : field_theory (sc_zero O) (sc_one O) (sc_add O) (sc_mul O) (sc_sub O) opp (sc_div O) inv eq.
  Notation sum := (asum (sc_zero O) (sc_add O)).

  Lemma rearranged_row n r p A A' B B' z i : is_perm n r -> is_perm n p -> rearranged n r p A A' -> renumbered n r B B' -> i < n ->
    (sum n (fun j => sc_mul O (A' (nth i r 0) j) (z j)) = B' (nth i r 0) <->
     sum n (fun j => sc_mul O (A i j) (z (nth j p 0))) = B i).
  Proof using Fth.
    intros Hr Hp HA HB Hi. rewrite (HB i Hi).
    rewrite <- (sum_perm O opp inv Fth n p (fun j => sc_mul O (A' (nth i r 0) j) (z j)) Hp).
    rewrite (asum_ext _ _ n (fun j => sc_mul O (A' (nth i r 0) (nth j p 0)) (z (nth j p 0)))
      (fun j => sc_mul O (A i j) (z (nth j p 0)))); [reflexivity|]. intros j Hj. rewrite (HA i j Hi Hj). reflexivity.
  Qed.

  (** The solution of the rearranged system, read at the new numbers, is the solution of the system. *)
  Lemma rearranged_solved dbg n pivot st a' A A' r p : tol_default O dbg -> is_perm n r -> is_perm n p -> rearranged n r p A A' ->
    factor_of O dbg n pivot st a' A' -> forall b' B B' x, is_vec n b' B' -> renumbered n r B B' ->
    exists x' z, lu_solve O dbg pivot st x (Some b') = Ok (x', solved O) /\ is_vec n x' z /\
      solves O n A (fun i => z (nth i p 0)) B /\
      forall w, solves O n A w B -> forall i, i < n -> w i = z (nth i p 0).
  Proof using Fth.
    intros T Hr Hp HA Hf b' B B' x Hb HB.
    destruct (factor_solves O opp inv Fth dbg n T pivot st a' A' x b' B' Hf Hb) as (x' & z & E & Hx & Hs & Hu).
    exists x', z. split; auto. split; auto. split.
    - intros i Hi. apply (rearranged_row n r p A A' B B' z i); auto. apply Hs. apply (perm_bound n r); auto.
    - intros w Hw i Hi. specialize (Hu (fun k => w (pos k p))).
      rewrite <- (Hu) with (i := nth i p 0).
      + rewrite (perm_pos_nth n p i Hp Hi). reflexivity.
      + intros k Hk. destruct (perm_onto n r k Hr Hk) as (i' & Hi' & <-).
        apply (rearranged_row n r p A A' B B' (fun k => w (pos k p)) i'); auto.
        rewrite <- (Hw i' Hi'). apply asum_ext. intros j Hj. rewrite (perm_pos_nth n p j Hp Hj). reflexivity.
      + apply (perm_bound n p); auto.
  Qed.
End Field.

(* ------------------------------------------------------------------ positive definite matrices *)
Section Real.
  Local Open Scope R_scope.

  Lemma rsum_perm n p (F : nat -> R) : is_perm n p -> rsum n (fun i => F (nth i p 0%nat)) = rsum n F.
  Proof. exact (sum_perm rops Ropp Rinv R_field n p F). Qed.

  Lemma energy_renumber n p A A' e : is_perm n p -> renumbered_matrix n p A A' ->
    energy n A' e = energy n A (fun i => e (nth i p 0%nat)).
  Proof.
    intros Hp HA. unfold energy. rewrite <- (rsum_perm n p _ Hp). apply asum_ext. intros i Hi. f_equal.
    rewrite <- (rsum_perm n p _ Hp). apply asum_ext. intros j Hj. rewrite (HA i j Hi Hj). reflexivity.
  Qed.

  Lemma symmetric_renumber n p A A' : is_perm n p -> renumbered_matrix n p A A' -> symmetric n A -> symmetric n A'.
  Proof.
    intros Hp HA Hs i j Hi Hj. destruct (perm_onto n p i Hp Hi) as (u & Hu & <-). destruct (perm_onto n p j Hp Hj) as (v & Hv & <-).
    rewrite !HA by auto. apply Hs; auto.
  Qed.

  Lemma definite_renumber n p A A' l : is_perm n p -> renumbered_matrix n p A A' ->
    (forall e, l * rsum n (fun i => e i * e i) <= energy n A e) -> forall e, l * rsum n (fun i => e i * e i) <= energy n A' e.
  Proof.
    intros Hp HA H e. rewrite (energy_renumber n p A A' e Hp HA). rewrite <- (rsum_perm n p (fun i => e i * e i) Hp).
    apply (H (fun i => e (nth i p 0%nat))).
  Qed.

  (** What a user of the direct solver gets from the renumbered system. *)
  Definition read_back dbg n p (A : nat -> nat -> R) st' : Prop :=
    forall b' B B' x, is_vec n b' B' -> renumbered n p B B' ->
    exists x' d z, lu_solve rops dbg false st' x (Some b') = Ok (x', d) /\ cd_converged d = true /\ is_vec n x' z /\
      solves rops n A (fun i => z (nth i p 0%nat)) B /\ forall w, solves rops n A w B -> forall i, (i < n)%nat -> w i = z (nth i p 0%nat).

  Lemma definite_read_back dbg n p st a' A A' l : is_perm n p -> renumbered_matrix n p A A' -> is_mat n n a' A' ->
    0 < lu_tolerance st <= l -> symmetric n A -> (forall e, l * rsum n (fun i => e i * e i) <= energy n A e) ->
    exists st' g, factorise rops dbg false st a' = Ok (st', true) /\ is_mat n n (lu_matrix st') g /\
      (forall i, (i < n)%nat -> l <= g i i) /\ read_back dbg n p A st'.
  Proof.
    intros Hp HA Ha Ht Hs He.
    destruct (definite_solved dbg n st a' A' l Ha Ht (symmetric_renumber n p A A' Hp HA Hs) (definite_renumber n p A A' l Hp HA He))
      as (st' & g & E & Hall & Hg & Hgi).
    exists st', g. split; auto. split; auto. split; auto. intros b' B B' x Hb HB.
    destruct (Hall x b' B' Hb) as (x' & d & z & E1 & Hc & Hx & Hsol & Hu). exists x', d, z. do 3 (split; auto). split.
    - intros i Hi. apply (rearranged_row rops Ropp Rinv R_field n p p A A' B B' z i); auto. apply Hsol, (perm_bound n p); auto.
    - intros w Hw i Hi. rewrite <- (Hu (fun k => w (pos k p))).
      + rewrite (perm_pos_nth n p i Hp Hi). reflexivity.
      + intros k Hk. destruct (perm_onto n p k Hp Hk) as (i' & Hi' & <-).
        apply (rearranged_row rops Ropp Rinv R_field n p p A A' B B' (fun k => w (pos k p)) i'); auto.
        rewrite <- (Hw i' Hi'). apply asum_ext. intros j Hj. rewrite (perm_pos_nth n p j Hp Hj). reflexivity.
      + apply (perm_bound n p); auto.
  Qed.

  (** Any connected graph. *)
  Lemma graph_pipeline dbg sortf M g s D w A l st : well_formed false g -> sorts_by_second sortf -> (size_vertex g <= M)%nat ->
    (s < size_vertex g)%nat -> (forall v, (v < size_vertex g)%nat -> dist (edge g) s v (D v)) ->
    (forall u v, edge g u v -> (D u <= D v)%nat -> (two_levels (size_vertex g) D (D u) (D v) <= w)%nat) ->
    (forall u v, (u < size_vertex g)%nat -> (v < size_vertex g)%nat -> u <> v -> ~ edge g u v -> A u v = 0) ->
    symmetric (size_vertex g) A ->
    (forall e, l * rsum (size_vertex g) (fun i => e i * e i) <= energy (size_vertex g) A e) -> 0 < lu_tolerance st <= l ->
    exists p, cuthill_mckee sortf M dbg g s = Ok p /\ is_perm (size_vertex g) p /\
    forall a' A', is_mat (size_vertex g) (size_vertex g) a' A' -> renumbered_matrix (size_vertex g) p A A' ->
    exists st' F, factorise rops dbg false st a' = Ok (st', true) /\ is_mat (size_vertex g) (size_vertex g) (lu_matrix st') F /\
      (forall i, (i < size_vertex g)%nat -> l <= F i i) /\
      (forall i j, (i < size_vertex g)%nat -> (j < size_vertex g)%nat -> i <> j -> (i + w <= j)%nat \/ (j + w <= i)%nat -> F i j = 0) /\
      read_back dbg (size_vertex g) p A st'.
  Proof.
    intros Hw Hso HM Hs HD Hlev Hpat Hsym He Ht.
    assert (Hc : connected g).
    { intros u v Hu Hv. destruct (HD u Hu) as [H1 _]. destruct (HD v Hv) as [H2 _]. exists (D u + D v)%nat.
      eapply walk_trans; eauto. apply walk_sym; auto. intros x y. apply edge_sym; auto. }
    destruct (cmk_spec sortf M dbg g s Hw Hso HM Hs Hc) as (p & Ep & Hlo). exists p. split; auto.
    assert (Hp : is_perm (size_vertex g) p) by apply Hlo. split; auto. intros a' A' Ha HA.
    destruct (definite_read_back dbg (size_vertex g) p st a' A A' l Hp HA Ha Ht Hsym He) as (st' & F & E & HF & Hd & Hrb).
    exists st', F. split; auto. split; auto. split; auto. split; auto.
    destruct (fill_band rops Ropp Rinv R_field dbg sortf M g s D w (R_tol_default dbg) st a' A' st' p Hw Hso HM Hs HD Hlev Ep Ha) as (F' & HF' & Hband); auto.
    - intros u v Hu Hv Hne Hnd. rewrite HA by auto. apply Hpat; auto.
    - intros i j Hi Hj Hne Hij. transitivity (F' i j); [|exact (Hband i j Hi Hj Hne Hij)].
      destruct HF as [_ HF]. destruct HF' as [_ HF']. destruct (HF i Hi) as (row & Er & Hr). destruct (HF' i Hi) as (row' & Er' & Hr').
      rewrite Er in Er'. injection Er' as <-. apply (is_vec_inj _ row _ _ Hr Hr' j Hj).
  Qed.

  (** The grid of the generator with 4 on the diagonal and -1 for the edges. *)
  Lemma grid_definite dbg n g A : (2 <= n)%nat -> create_graph_structured dbg false n = Ok g -> stencil g 4 A ->
    symmetric (n * n) A /\ forall e, 16 / (INR n + 1) ^ 2 * rsum (n * n) (fun i => e i * e i) <= energy (n * n) A e.
  Proof.
    intros Hn Hg H. destruct (grid_facts dbg n g Hn Hg) as (Hwf & Hsz & _).
    assert (Hs : symmetric (n * n) A) by (rewrite <- Hsz; eapply stencil_symmetric; eauto).
    assert (Hd : forall i, (i < n * n)%nat -> A i i = 4).
    { intros i Hi. rewrite <- Hsz in Hi. destruct (H i i Hi Hi) as (E & _). apply E. reflexivity. }
    split; auto. intro e.
    destruct (scaled_definite (n * n) A _ (slowness n) (grid_scaled dbg n g A Hn Hg H)) as (Hb & _); auto.
    - apply slowness_range. lia.
    - intros i Hi. rewrite Hd by auto. lra.
    - specialize (Hb e). eapply Rle_trans; [|exact Hb]. right. unfold slowness.
      rewrite (asum_ext _ _ (n * n) (fun i => A i i * (e i * e i)) (fun i => 4 * (e i * e i))) by (intros i Hi; rewrite Hd by auto; reflexivity).
      rewrite rsum_scale. assert (0 < INR n + 1) by (pose proof (pos_INR n); lra). field. lra.
  Qed.

  Lemma grid_pipeline dbg n g A sortf M s st : (2 <= n)%nat -> create_graph_structured dbg false n = Ok g -> stencil g 4 A ->
    sorts_by_second sortf -> (n * n <= M)%nat -> (s < n * n)%nat -> 0 < lu_tolerance st <= 16 / (INR n + 1) ^ 2 ->
    exists c p, pseudo_peripheral_vertex M dbg g s = Ok c /\ cuthill_mckee sortf M dbg g c = Ok p /\ is_perm (n * n) p /\
    forall a' A', is_mat (n * n) (n * n) a' A' -> renumbered_matrix (n * n) p A A' ->
    exists st' F, factorise rops dbg false st a' = Ok (st', true) /\ is_mat (n * n) (n * n) (lu_matrix st') F /\
      (forall i, (i < n * n)%nat -> 16 / (INR n + 1) ^ 2 <= F i i) /\
      (forall i j, (i < n * n)%nat -> (j < n * n)%nat -> (i + (2 * n - 1) <= j)%nat \/ (j + (2 * n - 1) <= i)%nat -> F i j = 0) /\
      read_back dbg (n * n) p A st'.
  Proof.
    intros Hn Hg H Hso HM Hs Ht. destruct (grid_definite dbg n g A Hn Hg H) as (Hsym & He).
    destruct (grid_facts dbg n g Hn Hg) as (Hwf & Hsz & Hed). destruct (grid_corner dbg n g Hn Hg M s HM Hs) as (c & Ec & Hc).
    destruct (graph_pipeline dbg sortf M g c (city n c) (2 * n - 1) A (16 / (INR n + 1) ^ 2) st Hwf Hso) as (p & Ep & Hp & Hall); rewrite ?Hsz; auto.
    - apply Hc.
    - intros v Hv. apply (grid_dist dbg); auto. apply Hc.
    - intros u v Huv Hle. apply two_levels_size; auto. intros Eq. apply Hed in Huv as (Hu & Hv & H1). unfold city, gap in *. lia.
    - intros u v Hu Hv Hne Hnd. rewrite <- Hsz in Hu, Hv. apply (H u v Hu Hv); auto.
    - exists c, p. rewrite Hsz in *. do 3 (split; auto). intros a' A' Ha HA.
      destruct (Hall a' A' Ha HA) as (st' & F & E & HF & Hd & Hband & Hrb). exists st', F. do 3 (split; auto). split; auto.
      intros i j Hi Hj Hij. apply Hband; auto. lia.
  Qed.

  (** Room for the grid in the tolerance of a new solver. *)
  Lemma default_room n : (n < 2 ^ 25)%nat -> 0 < lu_tolerance (lu_default rops) <= 16 / (INR n + 1) ^ 2.
  Proof.
    intro H. rewrite default_tolerance. assert (P : 0 < 2 ^ 46) by (apply pow_lt; lra). split; [apply Rinv_0_lt_compat; auto|].
    assert (B : INR n + 1 <= 2 ^ 25).
    { rewrite <- S_INR. replace (2 ^ 25) with (INR (2 ^ 25)).
      - apply le_INR. lia.
      - rewrite pow_INR. reflexivity. }
    pose proof (pos_INR n) as N. assert (Q : (INR n + 1) ^ 2 <= 2 ^ 50).
    { replace (2 ^ 50) with ((2 ^ 25) ^ 2) by (rewrite <- pow_mult; reflexivity). apply pow_incr. lra. }
    apply (Rmult_le_reg_r ((INR n + 1) ^ 2)); [apply pow_lt; lra|].
    apply (Rmult_le_reg_l (2 ^ 46)); auto. 
    replace (2 ^ 46 * (/ 2 ^ 46 * (INR n + 1) ^ 2)) with ((INR n + 1) ^ 2) by (field; lra).
    replace (2 ^ 46 * (16 / (INR n + 1) ^ 2 * (INR n + 1) ^ 2)) with (2 ^ 50); [exact Q|].
    replace (2 ^ 50) with (2 ^ 46 * 2 ^ 4) by (rewrite <- pow_add; reflexivity). field. lra.
  Qed.
End Real.

Lemma refusal_depends :
  rearranged 2 [1; 0] [1; 0] (fun i j => nth j (nth i [[q 0; q 1]; [q 1; q 1]] []) (q 0))
    (fun i j => nth j (nth i [[q 1; q 1]; [q 1; q 0]] []) (q 0)) /\
  (exists st, factorise qops true false (lu_default qops) [[q 0; q 1]; [q 1; q 1]] = Ok (st, false)) /\
  (exists st, factorise qops true false (lu_default qops) [[q 1; q 1]; [q 1; q 0]] = Ok (st, true)).
Proof.
  split; [|split].
  - intros [|[|i]] [|[|j]] Hi Hj; try lia; reflexivity.
  - eexists. vm_compute. reflexivity.
  - eexists. vm_compute. reflexivity.
Qed.
