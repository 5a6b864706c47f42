(** Sweeps, residuals and loops of the iterative solvers, for any scalars. *)
From Coq Require Import ZArith Ring_theory.
From Verif Require Import Base ListFacts Csr DenseModel DenseFacts ScalarModel SparseModel SparseSpec SparseFacts
  SparseSeq SparseMul LuModel LuFacts IterModel.

(** [a] is an [n] by [n] matrix of a sparse system with the constant vector [b], its diagonal is stored. *)
Definition square_system {S : Type} (n : nat) (a : smat S) (b : list S) : Prop :=
  swf a /\ s_rows a = n /\ csize a = n /\ length b = n /\ forall i, i < n -> exists d, stored a i i d.

Section Facts.
  Context {S : Type}.
  Variables (O : sops S) (M : nat) (dbg : bool) (stray : option nat).
  Implicit Types (a : smat S) (es : list (nat * S)) (rs : list (list (nat * S))).

  (* ---------------------------------------------------------------- rows *)
  Definition full_sum es (f : nat -> S) (s : S) : S :=
    fold_left (fun s e => sc_add O s (sc_mul O (snd e) (f (fst e)))) es s.

  Definition off_sum (i : nat) es (f : nat -> S) (s : S) : S :=
    fold_left (fun s e => if fst e =? i then s else sc_add O s (sc_mul O (snd e) (f (fst e)))) es s.

  Definition new_value (w d bi o xi : S) : S :=
    sc_add O (sc_div O (sc_mul O w (sc_sub O bi o)) d) (sc_mul O (sc_sub O (sc_one O) w) xi).

  Lemma full_loop n es x f s : is_vec n x f -> (forall j, In j (map fst es) -> j < n) ->
    forM es (fun e s => do xj <- vget x (fst e); Ok (sc_add O s (sc_mul O (snd e) xj))) s = Ok (full_sum es f s).
  Proof using.
    intro Hx. revert s; induction es as [|e es IH]; intros s H; [reflexivity|]. cbn [forM].
    rewrite (is_vec_get _ _ _ _ Hx) by (apply H; simpl; auto). cbn [bind]. apply IH.
    intros j Hj. apply H. simpl; auto.
  Qed.

  Lemma off_loop n i es x f s : is_vec n x f -> (forall j, In j (map fst es) -> j < n) ->
    forM es (fun e s => if fst e =? i then Ok s
               else do xj <- vget x (fst e); Ok (sc_add O s (sc_mul O (snd e) xj))) s = Ok (off_sum i es f s).
  Proof using.
    intro Hx. revert s; induction es as [|e es IH]; intros s H; [reflexivity|]. cbn [forM].
    assert (H' : forall j, In j (map fst es) -> j < n) by (intros j Hj; apply H; simpl; auto).
    unfold off_sum. cbn [fold_left]. destruct (fst e =? i); cbn [bind]; [apply IH, H'|].
    rewrite (is_vec_get _ _ _ _ Hx) by (apply H; simpl; auto). cbn [bind]. apply IH, H'.
  Qed.

  Lemma off_sum_ext n i es f g s : (forall j, In j (map fst es) -> j < n) -> (forall j, j < n -> f j = g j) ->
    off_sum i es f s = off_sum i es g s.
  Proof using.
    intros H E. revert s H; induction es as [|e es IH]; intros s H; [reflexivity|]. unfold off_sum. cbn [fold_left].
    assert (H' : forall j, In j (map fst es) -> j < n) by (intros j Hj; apply H; simpl; auto).
    destruct (fst e =? i); [apply IH, H'|]. rewrite E by (apply H; simpl; auto). apply IH, H'.
  Qed.

  Lemma full_sum_ext n es f g s : (forall j, In j (map fst es) -> j < n) -> (forall j, j < n -> f j = g j) ->
    full_sum es f s = full_sum es g s.
  Proof using.
    intros H E. revert s H; induction es as [|e es IH]; intros s H; [reflexivity|]. unfold full_sum. cbn [fold_left].
    rewrite E by (apply H; simpl; auto). apply IH. intros j Hj. apply H. simpl; auto.
  Qed.

  (** The rows and the diagonal of a system. *)
  Record rows_of n a b rs (d h : nat -> S) : Prop := {
    ro_repr : srepr a rs;
    ro_len : length rs = n;
    ro_rows : s_rows a = n;
    ro_cols : forall i j, i < n -> In j (map fst (nth i rs [])) -> j < n;
    ro_diag : forall i, i < n -> s_subscript_const dbg stray a i i = Ok (d i);
    ro_b : is_vec n b h
  }.
  Arguments ro_repr {n a b rs d h}. Arguments ro_len {n a b rs d h}. Arguments ro_rows {n a b rs d h}.
  Arguments ro_cols {n a b rs d h}. Arguments ro_diag {n a b rs d h}. Arguments ro_b {n a b rs d h}.

  Lemma row_check_ok a i : i < s_rows a -> row_check dbg a i = Ok tt.
  Proof using. intro H. apply assert_ok, Nat.ltb_lt, H. Qed.

  Lemma sweep_row_ok n a b rs d h x u f w i : rows_of n a b rs d h -> is_vec n (other_of u x) f ->
    i < n -> sweep_row O dbg stray a x b w i u =
      vset u i (new_value w (d i) (h i) (off_sum i (nth i rs []) f (sc_zero O)) (f i)).
  Proof using.
    intros H Hx Hi. unfold sweep_row. rewrite row_check_ok by (rewrite (ro_rows H); auto). cbn [bind].
    rewrite (row_entries_ok _ _ rs) by (try apply (ro_repr H); rewrite (ro_len H); auto).
    cbn [bind]. rewrite (off_loop n i _ _ f) by (auto; try exact (fun j => ro_cols H i j Hi)). cbn [bind].
    rewrite (is_vec_get _ _ _ _ (ro_b H) Hi). cbn [bind].
    rewrite (ro_diag H i Hi). cbn [bind]. rewrite (is_vec_get _ _ _ _ Hx Hi). reflexivity.
  Qed.

  (** The value given to component [i] by a sweep reading [f]. *)
  Definition swept rs (d h : nat -> S) (w : S) (i : nat) (f : nat -> S) : S :=
    new_value w (d i) (h i) (off_sum i (nth i rs []) f (sc_zero O)) (f i).

  Lemma swept_ext n a b rs d h w i f g : rows_of n a b rs d h -> i < n -> (forall j, j < n -> f j = g j) ->
    swept rs d h w i f = swept rs d h w i g.
  Proof using.
    intros H Hi E. unfold swept. rewrite E by auto.
    rewrite (off_sum_ext n _ _ f g); auto. exact (fun j => ro_cols H i j Hi).
  Qed.

  (** A sweep into another vector. *)
  Lemma jacobi_sweep_ok n a b rs d h x u f w : rows_of n a b rs d h -> is_vec n x f -> length u = n ->
    exists u', forward_sweep O dbg stray a (Some x) u b w = Ok u' /\ is_vec n u' (fun i => swept rs d h w i f).
  Proof using.
    intros H Hx Hu. unfold forward_sweep. rewrite (ro_rows H).
    apply (write_loop n u (fun i => nth i u (sc_zero O))); [rewrite <- Hu; apply is_vec_self|].
    intros i v Hi Hv. rewrite (sweep_row_ok n a b rs d h (Some x) v f w i); auto.
  Qed.

  (** A sweep in place, ascending. *)
  Lemma seidel_sweep_ok n a b rs d h x f w : rows_of n a b rs d h -> is_vec n x f ->
    exists x' z, forward_sweep O dbg stray a None x b w = Ok x' /\ is_vec n x' z /\
      forall i, i < n -> z i = swept rs d h w i (fun j => if j <? i then z j else f j).
  Proof using.
    intros H Hx. unfold forward_sweep. rewrite (ro_rows H).
    destruct (FOR_inv (fun i u => exists z, is_vec n u z /\ (forall k, i <= k < n -> z k = f k) /\
        forall k, k < i -> z k = swept rs d h w k (fun j => if j <? k then z j else f j))
        n (sweep_row O dbg stray a None b w) x) as (x' & E & z & Hz & _ & Hv).
    - exists f. split; auto. split; intros; [reflexivity|lia].
    - intros i u Hi (z & Hu & Hr & Hd).
      rewrite (sweep_row_ok n a b rs d h None u z w i) by auto.
      set (v := new_value _ _ _ _ _).
      destruct (is_vec_set n u z i v Hu Hi) as (u' & E & Hu').
      exists u'. split; auto. exists (fun j => if j =? i then v else z j). split; auto. split.
      + intros k Hk. destruct (Nat.eqb_spec k i); [lia|]. apply Hr. lia.
      + intros k Hk. destruct (Nat.eqb_spec k i) as [->|Hne].
        * change v with (swept rs d h w i z). apply (swept_ext n a b); auto.
          intros j Hj. destruct (Nat.ltb_spec j i); [destruct (Nat.eqb_spec j i); [lia|auto]|apply Hr; lia].
        * rewrite Hd by lia. apply (swept_ext n a b); auto; [lia|].
          intros j Hj. destruct (Nat.ltb_spec j k); auto. destruct (Nat.eqb_spec j i); [lia|auto].
    - exists x', z. auto.
  Qed.

  (** A sweep in place, descending. *)
  Lemma seidel_back_ok n a b rs d h x f w : rows_of n a b rs d h -> is_vec n x f ->
    exists x' z, backward_sweep O dbg stray a None x b w = Ok x' /\ is_vec n x' z /\
      forall i, i < n -> z i = swept rs d h w i (fun j => if i <? j then z j else f j).
  Proof using.
    intros H Hx. unfold backward_sweep. rewrite (ro_rows H).
    destruct (forM_rev_inv (fun i u => exists z, is_vec n u z /\ (forall k, k < i -> z k = f k) /\
        forall k, i <= k < n -> z k = swept rs d h w k (fun j => if k <? j then z j else f j))
        n (sweep_row O dbg stray a None b w) x) as (x' & E & z & Hz & _ & Hv).
    - exists f. split; auto. split; intros; [reflexivity|lia].
    - intros i u Hi (z & Hu & Hr & Hd).
      rewrite (sweep_row_ok n a b rs d h None u z w i) by auto.
      set (v := new_value _ _ _ _ _).
      destruct (is_vec_set n u z i v Hu Hi) as (u' & E & Hu').
      exists u'. split; auto. exists (fun j => if j =? i then v else z j). split; auto. split.
      + intros k Hk. destruct (Nat.eqb_spec k i); [lia|]. apply Hr. lia.
      + intros k Hk. destruct (Nat.eqb_spec k i) as [->|Hne].
        * change v with (swept rs d h w i z). apply (swept_ext n a b); auto.
          intros j Hj. destruct (Nat.ltb_spec i j); [destruct (Nat.eqb_spec j i); [lia|auto]|apply Hr; lia].
        * rewrite Hd by lia. apply (swept_ext n a b); auto; [lia|].
          intros j Hj. destruct (Nat.ltb_spec k j); auto. destruct (Nat.eqb_spec j i); [lia|auto].
    - exists x', z. split; auto. split; auto. intros i Hi. apply Hv. lia.
  Qed.

  (** A descending sweep into another vector. *)
  Lemma jacobi_back_ok n a b rs d h x u f w : rows_of n a b rs d h -> is_vec n x f -> length u = n ->
    exists u', backward_sweep O dbg stray a (Some x) u b w = Ok u' /\ is_vec n u' (fun i => swept rs d h w i f).
  Proof using.
    intros H Hx Hu. unfold backward_sweep. rewrite (ro_rows H).
    destruct (forM_rev_inv (fun i u => exists z, is_vec n u z /\
        forall k, i <= k < n -> z k = swept rs d h w k f)
        n (sweep_row O dbg stray a (Some x) b w) u) as (u' & E & z & Hz & Hv).
    - exists (fun i => nth i u (sc_zero O)). split; [rewrite <- Hu; apply is_vec_self|]. intros; lia.
    - intros i v Hi (z & Hv & Hd).
      rewrite (sweep_row_ok n a b rs d h (Some x) v f w i) by auto.
      destruct (is_vec_set n v z i (swept rs d h w i f) Hv Hi) as (v' & E & Hv').
      exists v'. split; [exact E|]. exists (fun j => if j =? i then swept rs d h w i f else z j). split; auto.
      intros k Hk. destruct (Nat.eqb_spec k i) as [->|Hne]; auto. apply Hd. lia.
    - exists u'. split; auto. apply (is_vec_ext _ _ _ _ Hz). intros i Hi. apply Hv. lia.
  Qed.

  (* ---------------------------------------------------------------- residuals *)
  Definition row_square es (bi : S) (f : nat -> S) : S :=
    sc_mul O (sc_sub O (full_sum es f (sc_zero O)) bi) (sc_sub O (full_sum es f (sc_zero O)) bi).

  (** The largest of the squares, in the order of the loop. *)
  Fixpoint fold_max (n : nat) (f : nat -> S) : S :=
    match n with
    | 0 => sc_zero O
    | Datatypes.S k => std_max O (fold_max k f) (f k)
    end.

  Lemma residual_ok n a b rs h x f : srepr a rs -> srows_ok n rs -> length rs = n -> is_vec n b h ->
    is_vec n x f -> csize a = n -> (dbg = true -> n <> 0) ->
    compute_residual O dbg stray a x b =
      Ok (sc_sqrt O (sc_div O (asum (sc_zero O) (sc_add O) n (fun i => row_square (nth i rs []) (h i) f))
                              (sc_of_Z O (Z.of_nat n))),
          sc_sqrt O (fold_max n (fun i => row_square (nth i rs []) (h i) f))).
  Proof using.
    intros Hs Ho L Hb Hx Hc Hn. unfold compute_residual.
    assert (Hr : s_rows a = n) by (rewrite (srepr_rows _ _ Hs); exact L).
    rewrite Hr, (proj1 Hx), Hc, (proj1 Hb), Nat.eqb_refl.
    assert (E : ASSERT_DEBUG dbg (negb (n =? 0) && negb (n =? 0)) = Ok tt).
    { apply assert_ok'. intro D. destruct (Nat.eqb_spec n 0); [destruct (Hn D); auto|reflexivity]. }
    rewrite E, (assert_ok dbg true eq_refl). cbn [bind].
    set (F := fun i => row_square (nth i rs []) (h i) f).
    destruct (FOR_inv (fun i s => s = (asum (sc_zero O) (sc_add O) i F, fold_max i F)) n
      (residual_row O dbg stray a x b) (sc_zero O, sc_zero O)) as (s & E1 & ->); [reflexivity| |rewrite E1; reflexivity].
    intros i s Hi ->. eexists. split.
    - unfold residual_row. rewrite row_check_ok by (rewrite Hr; auto). cbn [bind].
      rewrite (row_entries_ok _ _ rs) by (auto; rewrite L; auto).
      cbn [bind]. rewrite (full_loop n _ _ f) by (auto; apply Ho; lia). cbn [bind].
      rewrite (is_vec_get _ _ _ _ Hb Hi). reflexivity.
    - replace (i + 1) with (Datatypes.S i) by lia. reflexivity.
  Qed.

  (* ---------------------------------------------------------------- systems *)
  Lemma system_rows n a b : square_system n a b ->
    exists rs d, rows_of n a b rs d (fun i => nth i b (sc_zero O)) /\ srows_ok n rs /\
      forall i, i < n -> stored a i i (d i).
  Proof using.
    intros (Hw & Hr & Hc & Hb & Hd). pose proof Hw as (rs & Hs & Ho).
    assert (Hex : exists d, forall i, i < n -> stored a i i (d i)).
    { exists (fun i => match find (fun e => fst e =? i) (nth i rs []) with Some e => snd e | None => sc_zero O end).
      intros i Hi. destruct (Hd i Hi) as (v & Hv). apply (srepr_stored _ _ _ _ _ Hs) in Hv.
      destruct (find _ _) as [[j w]|] eqn:E.
      - apply find_some in E as [E1 E2]. cbn [fst snd] in *. apply Nat.eqb_eq in E2 as ->.
        apply (srepr_stored _ _ _ _ _ Hs), E1.
      - apply (find_none _ _ E) in Hv. cbn [fst] in Hv. rewrite Nat.eqb_refl in Hv. discriminate. }
    destruct Hex as (d & Hd'). exists rs, d. split; [|split; [rewrite <- Hc; exact Ho|exact Hd']].
    assert (L : length rs = n) by (rewrite <- Hr; symmetry; apply srepr_rows, Hs).
    constructor; auto.
    - intros i j Hi Hj. rewrite <- Hc. apply (Ho i); auto. lia.
    - intros i Hi. apply subscript_const_stored; auto.
    - rewrite <- Hb. apply is_vec_self.
  Qed.
End Facts.

(** The sums over an exact semiring. *)
Section Ring.
  Context {S : Type}.
  Variables (O : sops S).
  Hypothesis SR : semi_ring_theory (sc_zero O) (sc_one O) (sc_add O) (sc_mul O) eq.
  Notation sum := (asum (sc_zero O) (sc_add O)).

  Lemma asum_big n (f : nat -> S) : sum n f = big_sum (sc_zero O) (sc_add O) n f.
  Proof using. induction n as [|n IH]; cbn [asum big_sum]; congruence. Qed.

  Lemma off_filter i es (f : nat -> S) s : off_sum O i es f s =
    fold_left (sc_add O) (map snd (map (fun e => (fst e, sc_mul O (snd e) (f (fst e))))
                                       (filter (fun e => negb (fst e =? i)) es))) s.
  Proof using.
    revert s; induction es as [|e es IH]; intro s; [reflexivity|]. unfold off_sum. cbn [fold_left filter].
    destruct (fst e =? i); cbn [negb map fold_left]; apply IH.
  Qed.

  Lemma full_map es (f : nat -> S) s : full_sum O es f s =
    fold_left (sc_add O) (map snd (map (fun e => (fst e, sc_mul O (snd e) (f (fst e)))) es)) s.
  Proof using. revert s; induction es as [|e es IH]; intro s; [reflexivity|]. apply IH. Qed.

  Lemma StronglySorted_filter (p : nat * S -> bool) es :
    StronglySorted lt (map fst es) -> StronglySorted lt (map fst (filter p es)).
  Proof using.
    induction es as [|e es IH]; intro H; [constructor|]. cbn [map] in H. apply StronglySorted_inv in H as [H1 H2].
    cbn [filter]. destruct (p e); [|apply IH, H1]. cbn [map]. constructor; [apply IH, H1|].
    rewrite Forall_forall in *. intros j Hj. apply H2. apply in_map_iff in Hj as (e' & <- & Hj).
    apply in_map. apply filter_In in Hj. tauto.
  Qed.

  Lemma row_sums n a rs (A : nat -> nat -> S) i (f : nat -> S) : srepr a rs -> srows_ok n rs -> length rs = n -> i < n ->
    represents (sc_zero O) a A ->
    full_sum O (nth i rs []) f (sc_zero O) = sum n (fun j => sc_mul O (A i j) (f j)) /\
    off_sum O i (nth i rs []) f (sc_zero O) =
      sum n (fun j => if j =? i then sc_zero O else sc_mul O (A i j) (f j)).
  Proof using SR.
    intros Hs Ho L Hi HA. destruct (Ho i) as [Hasc Hlt]; [lia|].
    assert (Hin : forall j v, In (j, v) (nth i rs []) -> A i j = v).
    { intros j v Hv. apply (proj1 (HA i j)), (srepr_stored _ _ _ _ _ Hs), Hv. }
    assert (Hout : forall j, ~ In j (map fst (nth i rs [])) -> A i j = sc_zero O).
    { intros j Hj. apply (proj2 (HA i j)). intros v Hv. apply Hj. apply (srepr_stored _ _ _ _ _ Hs) in Hv.
      apply (in_map fst) in Hv. exact Hv. }
    rewrite full_map, off_filter, !asum_big. split; symmetry.
    - apply (big_sum_terms _ _ (sc_mul O) (sc_one O)); auto.
      + rewrite map_map. exact Hasc.
      + rewrite map_map. exact Hlt.
      + intros k v Hk. apply in_map_iff in Hk as ([j e] & E & Hk). cbn [fst snd] in E. injection E as <- <-.
        rewrite (Hin _ _ Hk). reflexivity.
      + rewrite map_map. cbn [fst]. intros k _ Hk. rewrite Hout by exact Hk. apply (SRmul_0_l SR).
    - apply (big_sum_terms _ _ (sc_mul O) (sc_one O)); auto.
      + rewrite map_map. apply StronglySorted_filter, Hasc.
      + rewrite map_map. intros k Hk. apply Hlt. apply in_map_iff in Hk as (e & <- & Hk).
        cbn [fst]. apply in_map. apply filter_In in Hk. tauto.
      + intros k v Hk. apply in_map_iff in Hk as ([j e] & E & Hk). cbn [fst snd] in E. injection E as <- <-.
        apply filter_In in Hk as [Hk Hn]. cbn [fst] in Hn. apply negb_true_iff in Hn. rewrite Hn.
        rewrite (Hin _ _ Hk). reflexivity.
      + rewrite map_map. cbn [fst]. intros k _ Hk. destruct (Nat.eqb_spec k i) as [->|Hne]; auto.
        rewrite Hout; [apply (SRmul_0_l SR)|]. intro Hk'. apply Hk. apply in_map_iff in Hk' as (e & <- & Hk').
        apply in_map. apply filter_In. split; auto. apply negb_true_iff, Nat.eqb_neq, Hne.
  Qed.
End Ring.
