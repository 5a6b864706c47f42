(** Solver objects that are used again, C108. *)
From Verif Require Import Base ListFacts ScalarModel DenseModel DenseFacts DenseOps SparseModel LuModel IterModel SolverObjectModel.

(** What the caller of solve sees: the solution vector and the convergence data. *)
Definition seen {S} (r : res (solver S * list S * conv_data S)) : res (list S * conv_data S) :=
  do r <- r; Ok (snd (fst r), snd r).

(** The last call of factorise. *)
Fixpoint last_factorise {S} (cs : list (scall S)) : list (scall S) :=
  match cs with
  | [] => []
  | c :: r => match last_factorise r with
              | [] => match c with SFactorise _ => [c] | _ => [] end
              | l => l
              end
  end.

Lemma forM_keeps {A T} (P : T -> Prop) (l : list A) (f : A -> T -> res T) s s' :
  forM l f s = Ok s' -> (forall a t t', P t -> f a t = Ok t' -> P t') -> P s -> P s'.
Proof.
  intros E H. revert s E. induction l as [|a l IH]; cbn [forM]; intros s E Hs.
  - injection E as <-. exact Hs.
  - destruct (f a s) as [t| | |] eqn:Et; try discriminate. exact (IH t E (H a s t Hs Et)).
Qed.

Section Object.
  Context {S : Type}.
  Variables (O : sops S) (M : nat) (dbg : bool) (stray : option nat).
  Implicit Types (a : smat S) (x u w : list S).

  (** A sweep from one vector to another depends on the size of the second only. *)
  Lemma sweep_row_other a x b om i u w : length u = length w ->
    match sweep_row O dbg stray a (Some x) b om i u, sweep_row O dbg stray a (Some x) b om i w with
    | Ok u', Ok w' => exists v, i < length u /\ u' = upd u i v /\ w' = upd w i v
    | r, r' => r = r'
    end.
  Proof using.
    intro L. unfold sweep_row. cbn [other_of].
    destruct (row_check dbg a i); cbn [bind]; auto.
    destruct (row_entries stray a i) as [es| | |]; cbn [bind]; auto.
    destruct (forM es _ _) as [offs| | |]; cbn [bind]; auto.
    destruct (vget b i) as [bi| | |]; cbn [bind]; auto.
    destruct (s_subscript_const dbg stray a i i) as [d| | |]; cbn [bind]; auto.
    destruct (vget x i) as [xi| | |]; cbn [bind]; auto.
    unfold vset. rewrite <- L. destruct (Nat.ltb_spec i (length u)); auto.
    eexists. split; [auto|]. split; reflexivity.
  Qed.

  Definition agree_to (k : nat) u w : Prop := length u = length w /\ forall i, i < k -> nth_error u i = nth_error w i.

  Lemma forM_agree a x b om k n u w : agree_to k u w ->
    match forM (seq k n) (sweep_row O dbg stray a (Some x) b om) u, forM (seq k n) (sweep_row O dbg stray a (Some x) b om) w with
    | Ok u', Ok w' => agree_to (k + n) u' w' /\ length u' = length u
    | r, r' => r = r'
    end.
  Proof using.
    revert k u w. induction n as [|n IH]; intros k u w A; cbn [seq forM].
    - rewrite Nat.add_0_r. auto.
    - destruct A as [L A]. pose proof (sweep_row_other a x b om k u w L) as R.
      destruct (sweep_row O dbg stray a (Some x) b om k u) as [u1| | |],
               (sweep_row O dbg stray a (Some x) b om k w) as [w1| | |]; cbn [bind]; try discriminate R; auto.
      destruct R as (v & Hk & -> & ->).
      assert (A1 : agree_to (Datatypes.S k) (upd u k v) (upd w k v)).
      { split; [rewrite !upd_length by lia; exact L|]. intros i Hi. rewrite !nth_error_upd by lia.
        destruct (Nat.eqb_spec i k); auto. apply A. lia. }
      specialize (IH (Datatypes.S k) _ _ A1).
      destruct (forM (seq (Datatypes.S k) n) _ (upd u k v)) as [u2| | |],
               (forM (seq (Datatypes.S k) n) _ (upd w k v)) as [w2| | |]; auto.
      replace (k + Datatypes.S n) with (Datatypes.S k + n) by lia. destruct IH as [IH L2]. split; auto.
      rewrite L2. apply upd_length. lia.
  Qed.

  Lemma sweep_agree a x b om u w : length u = s_rows a -> length w = s_rows a ->
    forward_sweep O dbg stray a (Some x) u b om = forward_sweep O dbg stray a (Some x) w b om.
  Proof using.
    intros Lu Lw. unfold forward_sweep, FOR.
    assert (A : agree_to 0 u w) by (split; [congruence|intros; lia]).
    pose proof (forM_agree a x b om 0 (s_rows a) u w A) as R.
    destruct (forM _ _ u) as [u'| | |], (forM _ _ w) as [w'| | |]; auto.
    destruct R as [[L R] Lu']. f_equal. apply nth_error_ext_len; auto. intros i Hi. apply R. lia.
  Qed.

  Lemma vresize_length {A} (l : list A) n d : length (vresize l n d) = n.
  Proof using. unfold vresize. rewrite app_length, firstn_length, repeat_length. lia. Qed.

  Lemma jacobi_agree fuel lim u w a x b :
    (do r <- jacobi_solve O M dbg stray fuel lim u a x b; Ok (fst (fst r), snd r)) =
    (do r <- jacobi_solve O M dbg stray fuel lim w a x b; Ok (fst (fst r), snd r)).
  Proof using.
    unfold jacobi_solve. destruct fuel as [|fuel]; cbn [solve_loop]; auto.
    destruct (is_converged O lim (conv_default O)); [reflexivity|].
    unfold jacobi_step at 1 3. cbn [fst snd].
    rewrite (sweep_agree a x b (sc_one O) (vresize u (s_rows a) (sc_zero O)) (vresize w (s_rows a) (sc_zero O)))
      by apply vresize_length. reflexivity.
  Qed.

  (** Two solvers of which callers cannot tell the difference. *)
  Definition alike (s t : solver S) : Prop :=
    s = t \/ exists lim u w, s = SolverJacobi lim u /\ t = SolverJacobi lim w.

  Lemma alike_sparse fuel s t a x b : alike s t ->
    seen (solve_sparse O M dbg stray fuel s a x b) = seen (solve_sparse O M dbg stray fuel t a x b).
  Proof using.
    intros [->|(lim & u & w & -> & ->)]; auto. unfold solve_sparse. cbn [solver_index get_jacobi].
    pose proof (jacobi_agree fuel lim u w a x b) as E. unfold seen.
    destruct (jacobi_solve O M dbg stray fuel lim u a x b) as [[[x1 w1] d1]| | |],
             (jacobi_solve O M dbg stray fuel lim w a x b) as [[[x2 w2] d2]| | |]; cbn [bind fst snd] in *; congruence.
  Qed.

  Lemma alike_dense s t x b : alike s t -> seen (solve_dense O dbg s x b) = seen (solve_dense O dbg t x b).
  Proof using. intros [->|(lim & u & w & -> & ->)]; reflexivity. Qed.

  Lemma alike_factorise s t m : alike s t ->
    (do r <- solver_factorise O dbg s m; Ok (snd r)) = (do r <- solver_factorise O dbg t m; Ok (snd r)).
  Proof using. intros [->|(lim & u & w & -> & ->)]; reflexivity. Qed.

  (** *** What a history leaves behind *)

  Definition same_kind (s t : solver S) : Prop :=
    match s, t with
    | SolverLU p, SolverLU q => lu_tolerance p = lu_tolerance q /\ lu_pivots p = lu_pivots q
    | SolverLUP p, SolverLUP q => lu_tolerance p = lu_tolerance q
    | SolverJacobi l _, SolverJacobi l' _ => l = l'
    | SolverGaussSeidel l, SolverGaussSeidel l' => l = l'
    | SolverSor l r, SolverSor l' r' => l = l' /\ r = r'
    | SolverNull, SolverNull => True
    | _, _ => False
    end.

  Lemma same_kind_refl s : same_kind s s.
  Proof using. destruct s; cbn; auto. Qed.

  Lemma same_kind_trans s t r : same_kind s t -> same_kind t r -> same_kind s r.
  Proof using. destruct s, t, r; cbn; intuition congruence. Qed.

  Lemma same_kind_sym s t : same_kind s t -> same_kind t s.
  Proof using. destruct s, t; cbn; intuition congruence. Qed.

  Lemma alike_kind s t : alike s t -> same_kind s t.
  Proof using. intros [->|(lim & u & w & -> & ->)]; [apply same_kind_refl|reflexivity]. Qed.

  Lemma solve_sparse_state fuel s a x b r : solve_sparse O M dbg stray fuel s a x b = Ok r -> alike s (fst (fst r)).
  Proof using.
    unfold solve_sparse. destruct s as [st|st|lim w|lim|lim rel|]; cbn; try discriminate.
    - destruct (jacobi_solve _ _ _ _ _ _ _ _ _ _) as [q| | |]; cbn; try discriminate. injection 1 as <-. right. cbn. eauto.
    - destruct (gauss_seidel_solve _ _ _ _ _ _ _ _ _) as [q| | |]; cbn; try discriminate. injection 1 as <-. left. reflexivity.
    - destruct (sor_solve _ _ _ _ _ _ _ _ _ _) as [q| | |]; cbn; try discriminate. injection 1 as <-. left. reflexivity.
  Qed.

  Lemma solve_dense_state s x b r : solve_dense O dbg s x b = Ok r -> alike s (fst (fst r)).
  Proof using.
    unfold solve_dense. destruct s as [st|st|lim w|lim|lim rel|]; cbn; try discriminate.
    - destruct (lu_solve _ _ _ _ _ _) as [q| | |]; cbn; try discriminate. injection 1 as <-. left. reflexivity.
    - destruct (lu_solve _ _ _ _ _ _) as [q| | |]; cbn; try discriminate. injection 1 as <-. left. reflexivity.
  Qed.

  (** Without pivoting the pivots are passed on. *)
  Lemma rounds_no_pivot tol n g m p g' m' p' :
    FOR n (lu_round O dbg false tol) (g, m, p) = Ok (g', m', p') -> p' = p.
  Proof using.
    intro E. apply (forM_keeps (fun s => snd s = p) _ _ _ _) in E; auto.
    intros i [[go q] r] s' Hr. cbn [snd] in Hr. subst r. unfold lu_round. destruct go.
    - unfold lu_pivot. cbn [bind]. destruct (mget q i i) as [d| | |]; cbn [bind]; try discriminate.
      destruct (sc_lt O (sc_abs O d) tol); [injection 1 as <-; reflexivity|].
      destruct (lu_eliminate O q i) as [q'| | |]; cbn [bind]; try discriminate. injection 1 as <-. reflexivity.
    - injection 1 as <-. reflexivity.
  Qed.

  Lemma factorise_kind s m r : solver_factorise O dbg s m = Ok r -> same_kind s (fst r).
  Proof using.
    unfold solver_factorise. destruct s as [st|st|lim w|lim|lim rel|]; try discriminate.
    - unfold factorise. destruct (FOR _ _ _) as [[[g m'] p]| | |] eqn:E; cbn [bind]; try discriminate.
      injection 1 as <-. cbn. split; auto. symmetry. exact (rounds_no_pivot _ _ _ _ _ _ _ _ E).
    - unfold factorise. destruct (FOR _ _ _) as [[[g m'] p]| | |] eqn:E; cbn [bind]; try discriminate.
      injection 1 as <-. cbn. auto.
  Qed.

  (** factorise takes the tolerance from the old object and nothing else. *)
  Lemma factorise_same s t m : same_kind s t -> solver_factorise O dbg s m = solver_factorise O dbg t m.
  Proof using.
    destruct s as [p|p|lim w|lim|lim rel|], t as [q|q|lim' w'|lim'|lim' rel'|]; cbn; try tauto.
    - intros [E1 E2]. unfold factorise. rewrite E1, E2. reflexivity.
    - intros E1. unfold factorise. rewrite E1. reflexivity.
  Qed.

  Lemma alike_trans s t r : alike s t -> alike t r -> alike s r.
  Proof using.
    intros [->|(l & u & w & -> & ->)] H; auto.
    destruct H as [<-|(l' & u' & w' & E & ->)]; [right; eauto|]. injection E as -> ->. right. eauto.
  Qed.

  Lemma step_cases c s s' : solver_step O M dbg stray c s = Ok s' ->
    match c with SFactorise m => solver_step O M dbg stray (SFactorise m) s = Ok s' | _ => alike s s' end /\ same_kind s s'.
  Proof using.
    intro E. destruct c as [fuel a x b|x b|m].
    - cbn [solver_step] in E. destruct (solve_sparse O M dbg stray fuel s a x b) as [r| | |] eqn:E1; try discriminate.
      injection E as <-. pose proof (solve_sparse_state _ _ _ _ _ _ E1) as A. split; auto. apply alike_kind, A.
    - cbn [solver_step] in E. destruct (solve_dense O dbg s x b) as [r| | |] eqn:E1; try discriminate.
      injection E as <-. pose proof (solve_dense_state _ _ _ _ E1) as A. split; auto. apply alike_kind, A.
    - split; auto. cbn [solver_step] in E. destruct (solver_factorise O dbg s m) as [r| | |] eqn:E1; try discriminate.
      injection E as <-. exact (factorise_kind _ _ _ E1).
  Qed.

  Lemma step_factorise_same s t m : same_kind s t ->
    solver_step O M dbg stray (SFactorise m) s = solver_step O M dbg stray (SFactorise m) t.
  Proof using. intro K. cbn [solver_step]. rewrite (factorise_same _ _ m K). reflexivity. Qed.

  Lemma last_factorise_shape (cs : list (scall S)) : last_factorise cs = [] \/ exists m, last_factorise cs = [SFactorise m].
  Proof using.
    induction cs as [|c cs IH]; cbn [last_factorise]; auto.
    destruct IH as [->|(m & ->)]; [|right; eauto]. destruct c; eauto.
  Qed.

  Lemma history cs s0 s : solver_run O M dbg stray cs s0 = Ok s ->
    exists t, solver_run O M dbg stray (last_factorise cs) s0 = Ok t /\ alike s t /\ same_kind s0 s.
  Proof using.
    unfold solver_run. revert s0. induction cs as [|c cs IH]; intro s0; cbn [forM].
    - intro E. exists s0. split; auto. injection E as <-. split; [left; reflexivity|apply same_kind_refl].
    - destruct (solver_step O M dbg stray c s0) as [s1| | |] eqn:E1; cbn [bind]; try discriminate.
      intro E. destruct (IH s1 E) as (t & Et & At & K). destruct (step_cases _ _ _ E1) as [Hc K1].
      assert (K0 : same_kind s0 s) by exact (same_kind_trans _ _ _ K1 K).
      cbn [last_factorise]. destruct (last_factorise_shape cs) as [En|(m & En)]; rewrite En in *.
      + cbn [forM] in Et. injection Et as <-.
        destruct c as [fuel a x b|x b|m].
        * exists s0. split; [reflexivity|]. split; auto. apply (alike_trans _ _ _ At).
          destruct Hc as [->|(l & u & w & -> & ->)]; [left; reflexivity|right; eauto].
        * exists s0. split; [reflexivity|]. split; auto. apply (alike_trans _ _ _ At).
          destruct Hc as [->|(l & u & w & -> & ->)]; [left; reflexivity|right; eauto].
        * exists s1. split; [|split; auto]. cbn [forM]. rewrite Hc. reflexivity.
      + exists t. split; [|split; auto]. cbn [forM] in *. rewrite <- (step_factorise_same _ _ m K1) in Et. exact Et.
  Qed.

  Lemma reuse cs c s0 s : build_solver O c = Ok s0 -> solver_run O M dbg stray cs s0 = Ok s ->
    exists t, solver_run O M dbg stray (last_factorise cs) s0 = Ok t /\
      (forall fuel a x b, seen (solve_sparse O M dbg stray fuel s a x b) = seen (solve_sparse O M dbg stray fuel t a x b)) /\
      (forall x b, seen (solve_dense O dbg s x b) = seen (solve_dense O dbg t x b)) /\
      (forall m, (do r <- solver_factorise O dbg s m; Ok (snd r)) = (do r <- solver_factorise O dbg s0 m; Ok (snd r))).
  Proof using.
    intros _ E. destruct (history cs s0 s E) as (t & Et & A & K). exists t. split; auto.
    split; [intros; apply alike_sparse, A|]. split; [intros; apply alike_dense, A|].
    intro m. rewrite (factorise_same _ _ m (same_kind_sym _ _ K)). reflexivity.
  Qed.

  (** *** The interface of Solver alone *)

  Definition no_factorise (cs : list (scall S)) : Prop := forall m, ~ In (SFactorise m) cs.

  Lemma no_factorise_last cs : no_factorise cs -> last_factorise cs = [].
  Proof using.
    induction cs as [|c cs IH]; intro H; cbn [last_factorise]; auto.
    rewrite IH by (intros m Hm; apply (H m); right; exact Hm).
    destruct c as [| |m]; auto. exfalso. apply (H m). left. reflexivity.
  Qed.

  Lemma never_factorised cs c s0 s : cf_type c = lower_upper_factorisation -> build_solver O c = Ok s0 ->
    no_factorise cs -> solver_run O M dbg stray cs s0 = Ok s ->
    forall x b, (dbg = true /\ b <> [] -> solve_dense O dbg s x (Some b) = Abort) /\
                (dbg = false \/ b = [] -> solve_dense O dbg s x (Some b) = Ok (s, x, conv_default O)).
  Proof using.
    intros Hc Hb Hn E x b. destruct (history cs s0 s E) as (t & Et & A & _).
    rewrite (no_factorise_last cs Hn) in Et. injection Et as <-.
    assert (E0 : exists st, (s = SolverLU st \/ s = SolverLUP st) /\ lu_matrix st = [] /\ lu_factorised st = false).
    { unfold build_solver in Hb. rewrite Hc in Hb. destruct (cf_pivot c); cbn in Hb; injection Hb as <-;
        destruct A as [->|(l & u & w & _ & E1)]; try discriminate E1; eexists; (split; [eauto|]); split; reflexivity. }
    destruct E0 as (st & Hs & Hm & Hf). split.
    - intros [Hd Hb0]. assert (L : length b =? 0 = false) by (destruct b; [contradiction|reflexivity]).
      destruct Hs as [-> | ->]; unfold solve_dense; cbn [solver_index get_lu get_lup]; unfold lu_solve; cbn [other_of];
        rewrite Hm; cbn [m_rows length]; rewrite L, Hd; reflexivity.
    - intros Hd. assert (L : ASSERT_DEBUG dbg (length b =? 0) = Ok tt) by (destruct Hd as [-> | ->]; [|destruct dbg]; reflexivity).
      destruct Hs as [-> | ->]; unfold solve_dense; cbn [solver_index get_lu get_lup]; unfold lu_solve; cbn [other_of];
        rewrite Hm; cbn [m_rows length]; rewrite L, Hf; reflexivity.
  Qed.

  (** *** The initial value of a direct solve *)

  Lemma inner_agree (st : lu_state S) i x y : i < length x -> agree_to (i + 1) x y ->
    match FOR i (fun j x => do v <- vget x i; do l <- mget (lu_matrix st) i j; do z <- vget x j;
                            vset x i (sc_sub O v (sc_mul O l z))) x,
          FOR i (fun j x => do v <- vget x i; do l <- mget (lu_matrix st) i j; do z <- vget x j;
                            vset x i (sc_sub O v (sc_mul O l z))) y with
    | Ok x', Ok y' => agree_to (i + 1) x' y' /\ length x' = length x
    | r, r' => r = r'
    end.
  Proof using.
    intros Hi. unfold FOR.
    assert (G : forall n k x y, k + n <= i -> i < length x -> agree_to (i + 1) x y ->
      match forM (seq k n) (fun j x => do v <- vget x i; do l <- mget (lu_matrix st) i j; do z <- vget x j;
                            vset x i (sc_sub O v (sc_mul O l z))) x,
            forM (seq k n) (fun j x => do v <- vget x i; do l <- mget (lu_matrix st) i j; do z <- vget x j;
                            vset x i (sc_sub O v (sc_mul O l z))) y with
      | Ok x', Ok y' => agree_to (i + 1) x' y' /\ length x' = length x
      | r, r' => r = r'
      end).
    { clear x y Hi. induction n as [|n IH]; intros k x y Hk Hi A; cbn [seq forM]; auto.
      pose proof A as [L H].
      assert (Gy : forall j, j < i + 1 -> vget y j = vget x j) by (intros j Hj; unfold vget; rewrite (H j Hj); reflexivity).
      rewrite (Gy i), (Gy k) by lia.
      destruct (vget x i) as [v| | |]; cbn [bind]; auto.
      destruct (mget (lu_matrix st) i k) as [l| | |]; cbn [bind]; auto.
      destruct (vget x k) as [z| | |]; cbn [bind]; auto.
      rewrite !vset_lt by lia. cbn [bind].
      assert (A1 : agree_to (i + 1) (upd x i (sc_sub O v (sc_mul O l z))) (upd y i (sc_sub O v (sc_mul O l z)))).
      { split; [rewrite !upd_length by lia; exact L|]. intros a Ha. rewrite !nth_error_upd by lia.
        destruct (a =? i); auto. }
      assert (Hi1 : i < length (upd x i (sc_sub O v (sc_mul O l z)))) by (rewrite upd_length; lia).
      specialize (IH (k + 1) _ _ ltac:(lia) Hi1 A1).
      replace (Datatypes.S k) with (k + 1) by lia.
      destruct (forM _ _ (upd x i _)), (forM _ _ (upd y i _)); auto. destruct IH as [A2 L2]. split; auto.
      rewrite L2. apply upd_length. lia. }
    intro A. exact (G i 0 x y ltac:(lia) Hi A).
  Qed.

  Lemma forward_agree pivot (st : lu_state S) b x y : length x = length y -> length x = m_rows (lu_matrix st) ->
    lu_forward O pivot st (Some b) x = lu_forward O pivot st (Some b) y.
  Proof using.
    intros L Lx. unfold lu_forward, FOR at 1 3. cbn [other_of].
    set (f := fun i x => _).
    assert (G : forall n k x y, k + n <= length x -> agree_to k x y ->
      match forM (seq k n) f x, forM (seq k n) f y with
      | Ok x', Ok y' => agree_to (k + n) x' y' /\ length x' = length x
      | r, r' => r = r'
      end).
    { clear x y L Lx. induction n as [|n IH]; intros k x y Hk A; cbn [seq forM].
      - rewrite Nat.add_0_r. auto.
      - pose proof A as [L H]. 
        assert (Ef : forall z, f k z =
                  do q <- (if pivot then vget (lu_pivots st) k else Ok k); do e <- vget b q; do z <- vset z k e;
                  FOR k (fun j x => do v <- vget x k; do l <- mget (lu_matrix st) k j; do y <- vget x j;
                                    vset x k (sc_sub O v (sc_mul O l y))) z) by reflexivity.
        rewrite !Ef. clear Ef.
        destruct (if pivot then vget (lu_pivots st) k else Ok k) as [q| | |]; cbn [bind]; auto.
        destruct (vget b q) as [e| | |]; cbn [bind]; auto. rewrite !vset_lt by lia. cbn [bind].
        assert (A1 : agree_to (k + 1) (upd x k e) (upd y k e)).
        { split; [rewrite !upd_length by lia; exact L|]. intros i Hi. rewrite !nth_error_upd by lia.
          destruct (Nat.eqb_spec i k); auto. apply H. lia. }
        pose proof (inner_agree st k (upd x k e) (upd y k e) ltac:(rewrite upd_length; lia) A1) as R.
        destruct (FOR k _ (upd x k e)) as [x1| | |], (FOR k _ (upd y k e)) as [y1| | |]; cbn [bind]; try discriminate R; auto.
        destruct R as [A2 L2]. rewrite upd_length in L2 by lia.
        replace (Datatypes.S k) with (k + 1) by lia.
        specialize (IH (k + 1) x1 y1 ltac:(lia) A2).
        destruct (forM (seq (k + 1) n) f x1), (forM (seq (k + 1) n) f y1); auto.
        replace (k + Datatypes.S n) with (k + 1 + n) by lia. destruct IH as [A3 L3]. split; auto. congruence. }
    assert (A : agree_to 0 x y) by (split; [exact L|intros; lia]).
    specialize (G (m_rows (lu_matrix st)) 0 x y ltac:(lia) A).
    destruct (forM _ f x) as [x'| | |], (forM _ f y) as [y'| | |]; auto.
    destruct G as [[L1 G] L2]. f_equal. apply nth_error_ext_len; auto. intros i Hi. apply G. lia.
  Qed.

  Lemma initial_value pivot (st : lu_state S) b x y :
    lu_factorised st = true -> length b = m_rows (lu_matrix st) ->
    lu_solve O dbg pivot st x (Some b) = lu_solve O dbg pivot st y (Some b).
  Proof using.
    intros Hf Lb. unfold lu_solve. cbn [other_of]. rewrite Hf.
    rewrite (forward_agree pivot st b (vresize x (length b) (sc_zero O)) (vresize y (length b) (sc_zero O)));
      rewrite ?vresize_length; auto.
  Qed.
End Object.
