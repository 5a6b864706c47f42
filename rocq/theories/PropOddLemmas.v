(** Solving with related data, C119. *)
From Coq Require Import SpecFloat ZArith Reals Lra.
From Verif Require Import Base ListFacts DenseModel ScalarModel FloatFacts SparseModel LuModel IterModel GeometryReal PropAgreeLemmas
  PropGeoFloatLemmas.
Local Open Scope nat_scope.

(** Both calls fail in the same way, or both return and the results are related. *)
Definition both {A B} (Q : A -> B -> Prop) (r : res A) (r' : res B) : Prop :=
  match r, r' with
  | Ok a, Ok b => Q a b
  | Abort, Abort | Undef, Undef | Diverge, Diverge => True
  | _, _ => False
  end.

Lemma both_bind {A A' B B'} (Q : A -> A' -> Prop) (P : B -> B' -> Prop) r r' f f' :
  both Q r r' -> (forall a a', Q a a' -> both P (f a) (f' a')) -> both P (do a <- r; f a) (do a <- r'; f' a).
Proof. destruct r, r'; cbn; intros H Hf; try contradiction; auto. Qed.

Lemma both_same {A} (r : res A) : both eq r r.
Proof. destruct r; cbn; auto. Qed.

Lemma both_forM {A A' S S'} (L : A -> A' -> Prop) (Q : S -> S' -> Prop) l l' f f' s s' : Forall2 L l l' -> Q s s' ->
  (forall a a' s s', L a a' -> Q s s' -> both Q (f a s) (f' a' s')) -> both Q (forM l f s) (forM l' f' s').
Proof.
  intros Hl; revert s s'. induction Hl as [|a a' l l' Ha Hl IH]; intros s s' Hs Hf; [exact Hs|].
  cbn [forM]. apply (both_bind Q); [apply Hf; auto|]. intros t t' Ht. apply IH; auto.
Qed.

Lemma Forall2_same {A} (l : list A) : Forall2 eq l l.
Proof. induction l; constructor; auto. Qed.

Lemma both_for {A S S'} (Q : S -> S' -> Prop) (l : list A) f f' s s' : Q s s' ->
  (forall a s s', Q s s' -> both Q (f a s) (f' a s')) -> both Q (forM l f s) (forM l f' s').
Proof. intros Hs Hf. apply (both_forM eq); auto using Forall2_same. intros a a' t t' <- Ht. apply Hf, Ht. Qed.

Lemma both_vget {A B} (Q : A -> B -> Prop) l l' i : Forall2 Q l l' -> both Q (vget l i) (vget l' i).
Proof.
  intros H. revert i. induction H as [|a b l l' Hab H IH]; intros [|i]; cbn; auto. apply IH.
Qed.

Lemma related_length {A B} (Q : A -> B -> Prop) l l' : Forall2 Q l l' -> length l = length l'.
Proof. intros H. induction H; cbn; auto. Qed.

Lemma Forall2_firstn {A B} (Q : A -> B -> Prop) l l' n : Forall2 Q l l' -> Forall2 Q (firstn n l) (firstn n l').
Proof. intros H. revert n. induction H; intros [|n]; cbn; constructor; auto. Qed.

Lemma Forall2_skipn {A B} (Q : A -> B -> Prop) l l' n : Forall2 Q l l' -> Forall2 Q (skipn n l) (skipn n l').
Proof. intros H. revert n. induction H; intros [|n]; cbn; auto. Qed.

Lemma Forall2_repeat {A B} (Q : A -> B -> Prop) a b n : Q a b -> Forall2 Q (repeat a n) (repeat b n).
Proof. intros H. induction n; cbn; constructor; auto. Qed.

Lemma both_vset {A B} (Q : A -> B -> Prop) l l' i x x' : Forall2 Q l l' -> Q x x' -> both (Forall2 Q) (vset l i x) (vset l' i x').
Proof.
  intros H Hx. unfold vset. rewrite <- (related_length _ _ _ H). destruct (_ <? _); [|exact I]. cbn [both]. unfold upd.
  apply Forall2_app; [apply Forall2_firstn, H|constructor; [exact Hx|apply Forall2_skipn, H]].
Qed.

Lemma related_resize {A B} (Q : A -> B -> Prop) l l' n d d' : Forall2 Q l l' -> Q d d' -> Forall2 Q (vresize l n d) (vresize l' n d').
Proof.
  intros H Hd. unfold vresize. rewrite <- (related_length _ _ _ H).
  apply Forall2_app; [apply Forall2_firstn, H|apply Forall2_repeat, Hd].
Qed.

Lemma both_vrange {A B} (Q : A -> B -> Prop) l l' i j : Forall2 Q l l' -> both (Forall2 Q) (vrange l i j) (vrange l' i j).
Proof.
  intros H. unfold vrange. rewrite <- (related_length _ _ _ H). destruct (_ && _); [|exact I]. cbn [both].
  apply Forall2_firstn, Forall2_skipn, H.
Qed.

Lemma related_combine {A B C} (Q : A -> B -> Prop) (l : list C) v v' : Forall2 Q v v' ->
  Forall2 (fun e e' => fst e = fst e' /\ Q (snd e) (snd e')) (combine l v) (combine l v').
Proof. intros H. revert l. induction H; intros [|c cs]; cbn; constructor; cbn; auto. Qed.

(** The same shape and stored places, with related values. *)
Definition same_shape {S} (A : S -> S -> Prop) (m m' : smat S) : Prop :=
  rnz m = rnz m' /\ cidx m = cidx m' /\ csize m = csize m' /\ Forall2 A (vals m) (vals m').

Section Related.
  Context {S : Type}.
  Variables (O : sops S) (M : nat) (dbg : bool) (stray : option nat).
  (** [A] relates the entries of the matrices, [X] the unknowns, [B] the right-hand sides and [P] the squares of residuals. *)
  Variables A X B P : S -> S -> Prop.
  Hypotheses (B0 : B (sc_zero O) (sc_zero O)) (X0 : X (sc_zero O) (sc_zero O))
    (BA : forall a a' b b', B a a' -> B b b' -> B (sc_add O a b) (sc_add O a' b'))
    (BS : forall a a' b b', B a a' -> B b b' -> B (sc_sub O a b) (sc_sub O a' b'))
    (AX : forall a a' x x', A a a' -> X x x' -> B (sc_mul O a x) (sc_mul O a' x'))
    (BW : forall w b b', B b b' -> B (sc_mul O w b) (sc_mul O w b'))
    (XW : forall w b b', X b b' -> X (sc_mul O w b) (sc_mul O w b'))
    (XA : forall a a' b b', X a a' -> X b b' -> X (sc_add O a b) (sc_add O a' b'))
    (BD : forall a a' b b', A a a' -> B b b' -> X (sc_div O b a) (sc_div O b' a')).
  Hypotheses (P0 : P (sc_zero O) (sc_zero O)) (PQ : forall b b', B b b' -> P (sc_mul O b b) (sc_mul O b' b'))
    (PA : forall a a' b b', P a a' -> P b b' -> P (sc_add O a b) (sc_add O a' b'))
    (PM : forall a a' b b', P a a' -> P b b' -> P (std_max O a b) (std_max O a' b')).
  (** [N] relates the norms. *)
  Variable N : S -> S -> Prop.
  Hypotheses (NP : forall n a a', P a a' -> N (sc_sqrt O (sc_div O a (sc_of_Z O (Z.of_nat n))))
                                              (sc_sqrt O (sc_div O a' (sc_of_Z O (Z.of_nat n)))))
    (NS : forall a a', P a a' -> N (sc_sqrt O a) (sc_sqrt O a'))
    (ND : forall a a' b b', N a a' -> N b b' -> sc_div O a b = sc_div O a' b').

  (** The same course: iteration counts and normalised residuals are equal. *)
  Definition same_course (c c' : conv_data S) : Prop :=
    cd_converged c = cd_converged c' /\ cd_iteration c = cd_iteration c' /\
    cd_residual_normalised c = cd_residual_normalised c' /\ cd_residual_max_normalised c = cd_residual_max_normalised c' /\
    ((cd_iteration c = 0 /\ c = c') \/
     (N (cd_residual c) (cd_residual c') /\ N (cd_residual_max c) (cd_residual_max c') /\
      N (cd_residual_0 c) (cd_residual_0 c') /\ N (cd_residual_max_0 c) (cd_residual_max_0 c'))).

  Lemma shape_split m m' : same_shape A m m' -> m' = mkS (rnz m) (cidx m) (vals m') (csize m) /\ Forall2 A (vals m) (vals m').
  Proof. intros (H1 & H2 & H3 & H4). split; [|exact H4]. rewrite H1, H2, H3. destruct m'; reflexivity. Qed.

  Lemma shape_rows m m' : same_shape A m m' -> s_rows m = s_rows m'.
  Proof. intros (H & _). unfold s_rows. rewrite H. reflexivity. Qed.

  Lemma shape_check m m' i : same_shape A m m' -> row_check dbg m i = row_check dbg m' i.
  Proof. intros H. unfold row_check. rewrite (shape_rows _ _ H). reflexivity. Qed.

  Lemma shape_entries m m' i : same_shape A m m' ->
    both (Forall2 (fun e e' => fst e = fst e' /\ A (snd e) (snd e'))) (row_entries stray m i) (row_entries stray m' i).
  Proof.
    intros H. apply shape_split in H as (E & H). rewrite E. clear E. generalize dependent (vals m'). intros v H.
    unfold row_entries. apply (both_bind eq); [apply both_same|]. intros b ? <-.
    apply (both_bind eq); [apply both_same|]. intros e ? <-. cbn [cidx vals].
    apply (both_bind eq); [apply both_same|]. intros cs ? <-.
    apply (both_bind (Forall2 A)); [apply both_vrange, H|]. intros vs vs' Hv. apply related_combine, Hv.
  Qed.

  Lemma shape_const m m' i j : same_shape A m m' ->
    both A (s_subscript_const dbg stray m i j) (s_subscript_const dbg stray m' i j).
  Proof.
    intros H. apply shape_split in H as (E & H). rewrite E. clear E. generalize dependent (vals m'). intros v H.
    unfold s_subscript_const. apply (both_bind eq); [apply both_same|]. intros ? _ _.
    apply (both_bind eq); [apply both_same|]. intros ? _ _.
    apply (both_bind eq); [apply both_same|]. intros it ? <-. unfold deref. cbn [vals]. apply both_vget, H.
  Qed.

  Lemma related_sweep_row m m' x x' b b' w i u u' : same_shape A m m' ->
    match x, x' with Some y, Some y' => Forall2 X y y' | None, None => True | _, _ => False end -> Forall2 B b b' -> Forall2 X u u' ->
    both (Forall2 X) (sweep_row O dbg stray m x b w i u) (sweep_row O dbg stray m' x' b' w i u').
  Proof using B0 BA BS AX BW XW XA BD.
    intros Hm Hx Hb Hu. assert (Hy : Forall2 X (other_of u x) (other_of u' x')).
    { destruct x, x'; cbn; try contradiction; auto. }
    unfold sweep_row. rewrite (shape_check m m' i Hm). apply (both_bind eq); [apply both_same|]. intros ? _ _.
    apply (both_bind _ _ _ _ _ _ (shape_entries m m' i Hm)). intros es es' He.
    apply (both_bind B).
    { apply (both_forM (fun e e' => fst e = fst e' /\ A (snd e) (snd e'))); auto. intros [j v] [j' v'] s s' [Ej Hv] Hs. cbn in Ej, Hv. subst j'.
      cbn [fst snd]. destruct (j =? i); [exact Hs|]. apply (both_bind X); [apply both_vget, Hy|]. intros y y' Hyy. cbn. auto. }
    intros o o' Ho. apply (both_bind B); [apply both_vget, Hb|]. intros c c' Hc.
    apply (both_bind A); [apply shape_const, Hm|]. intros d d' Hd.
    apply (both_bind X); [apply both_vget, Hy|]. intros y y' Hyy. apply both_vset; auto.
  Qed.

  Lemma related_sweep m m' x x' b b' w u u' : same_shape A m m' ->
    match x, x' with Some y, Some y' => Forall2 X y y' | None, None => True | _, _ => False end -> Forall2 B b b' -> Forall2 X u u' ->
    both (Forall2 X) (forward_sweep O dbg stray m x u b w) (forward_sweep O dbg stray m' x' u' b' w).
  Proof using B0 BA BS AX BW XW XA BD.
    intros Hm Hx Hb Hu. unfold forward_sweep, FOR. rewrite (shape_rows m m' Hm). apply both_for; [exact Hu|].
    intros i v v' Hv. apply related_sweep_row; auto.
  Qed.

  Lemma related_residual m m' x x' b b' : same_shape A m m' -> Forall2 X x x' -> Forall2 B b b' ->
    both (fun r r' => N (fst r) (fst r') /\ N (snd r) (snd r')) (compute_residual O dbg stray m x b) (compute_residual O dbg stray m' x' b').
  Proof using B0 BA BS AX P0 PQ PA PM NP NS.
    intros Hm Hx Hb. unfold compute_residual. rewrite <- (related_length _ _ _ Hx), <- (related_length _ _ _ Hb), <- (shape_rows m m' Hm).
    replace (csize m') with (csize m) by apply Hm.
    do 3 (apply (both_bind eq); [apply both_same|intros ? _ _]).
    apply (both_bind (fun s s' => P (fst s) (fst s') /\ P (snd s) (snd s'))).
    - apply both_for; [cbn; auto|]. intros i s s' [H1 H2]. unfold residual_row.
      rewrite (shape_check m m' i Hm). apply (both_bind eq); [apply both_same|]. intros ? _ _.
      apply (both_bind _ _ _ _ _ _ (shape_entries m m' i Hm)). intros es es' He.
      apply (both_bind B).
      { apply (both_forM (fun e e' => fst e = fst e' /\ A (snd e) (snd e'))); auto. intros [j v] [j' v'] t t' [Ej Hv] Ht. cbn in Ej, Hv. subst j'.
        cbn [fst snd]. apply (both_bind X); [apply both_vget, Hx|]. intros y y' Hyy. cbn. auto. }
      intros o o' Ho. apply (both_bind B); [apply both_vget, Hb|]. intros c c' Hc. cbn. auto.
    - intros s s' [H1 H2]. cbn. auto.
  Qed.

  Lemma related_update m m' x x' b b' c c' : same_shape A m m' -> Forall2 X x x' -> Forall2 B b b' -> same_course c c' ->
    both same_course (update O M dbg stray m x b c) (update O M dbg stray m' x' b' c').
  Proof using B0 BA BS AX P0 PQ PA PM NP NS ND.
    intros Hm Hx Hb (H1 & H2 & H3 & H4 & H5). unfold update.
    apply (both_bind _ _ _ _ _ _ (related_residual m m' x x' b b' Hm Hx Hb)). intros r r' [N1 N2]. rewrite <- H2.
    cbn. unfold same_course. cbn [cd_converged cd_iteration cd_residual_normalised cd_residual_max_normalised cd_residual_0 cd_residual_max_0
      cd_residual cd_residual_max].
    destruct (Nat.eqb_spec (cd_iteration c) 0) as [E|E].
    - repeat split; auto 8.
    - destruct H5 as [[H5 _]|(_ & _ & H5 & H6)]; [contradiction|]. repeat split; auto 8.
  Qed.

  Lemma related_loop step step' m m' b b' lim : same_shape A m m' -> Forall2 B b b' ->
    (forall s s', Forall2 X (fst s) (fst s') /\ Forall2 X (snd s) (snd s') ->
      both (fun t t' => Forall2 X (fst t) (fst t') /\ Forall2 X (snd t) (snd t')) (step s) (step' s')) ->
    forall fuel s s' c c', Forall2 X (fst s) (fst s') /\ Forall2 X (snd s) (snd s') -> same_course c c' ->
    both (fun t t' => (Forall2 X (fst (fst t)) (fst (fst t')) /\ Forall2 X (snd (fst t)) (snd (fst t'))) /\ same_course (snd t) (snd t'))
      (solve_loop O M dbg stray step fuel lim m b s c) (solve_loop O M dbg stray step' fuel lim m' b' s' c').
  Proof using B0 BA BS AX P0 PQ PA PM NP NS ND.
    intros Hm Hb Hstep. induction fuel as [|fuel IH]; intros s s' c c' Hs Hc; [exact I|]. cbn [solve_loop].
    assert (E : is_converged O lim c = is_converged O lim c').
    { destruct Hc as (H1 & H2 & H3 & H4 & _). unfold is_converged. rewrite H2, H3, H4. reflexivity. }
    rewrite <- E. destruct (is_converged O lim c); [cbn; auto|].
    apply (both_bind _ _ _ _ _ _ (Hstep s s' Hs)). intros t t' Ht.
    apply (both_bind same_course); [apply related_update; tauto|]. intros d d' Hd. apply IH; auto.
  Qed.

  Lemma course_default : same_course (conv_default O) (conv_default O).
  Proof. repeat split; auto. Qed.

  (** The results of two solves: related unknowns and the same course. *)
  Definition same_run (t t' : list S * conv_data S) : Prop := Forall2 X (fst t) (fst t') /\ same_course (snd t) (snd t').

  Lemma related_jacobi fuel lim w w' m m' x x' b b' : same_shape A m m' -> Forall2 X w w' -> Forall2 X x x' -> Forall2 B b b' ->
    both (fun t t' => Forall2 X (snd (fst t)) (snd (fst t')) /\ same_run (fst (fst t), snd t) (fst (fst t'), snd t'))
      (jacobi_solve O M dbg stray fuel lim w m x b) (jacobi_solve O M dbg stray fuel lim w' m' x' b').
  Proof using B0 X0 BA BS AX BW XW XA BD P0 PQ PA PM NP NS ND.
    intros Hm Hw Hx Hb. unfold jacobi_solve.
    pose proof (related_loop (jacobi_step O dbg stray m b) (jacobi_step O dbg stray m' b') m m' b b' lim Hm Hb) as H.
    refine (_ (H _ fuel (x, vresize w (s_rows m) (sc_zero O)) (x', vresize w' (s_rows m') (sc_zero O)) _ _ _ course_default)).
    - destruct (solve_loop _ _ _ _ _ _ _ _ _ _ _), (solve_loop _ _ _ _ _ _ _ _ _ _ _); cbn; auto. intros ((H1 & H2) & H3).
      unfold same_run. auto.
    - intros s s' [H1 H2]. unfold jacobi_step. apply (both_bind (Forall2 X)); [apply related_sweep; auto|]. intros u u' Hu. cbn. auto.
    - cbn. split; [exact Hx|]. rewrite (shape_rows m m' Hm). apply related_resize; auto.
  Qed.

  Lemma related_in_place w fuel lim m m' x x' b b' : same_shape A m m' -> Forall2 X x x' -> Forall2 B b b' ->
    both same_run
      (do r <- solve_loop O M dbg stray (fun s => do x <- forward_sweep O dbg stray m None (fst s) b w; Ok (x, snd s)) fuel lim m b (x, [])
         (conv_default O); Ok (fst (fst r), snd r))
      (do r <- solve_loop O M dbg stray (fun s => do x <- forward_sweep O dbg stray m' None (fst s) b' w; Ok (x, snd s)) fuel lim m' b'
         (x', []) (conv_default O); Ok (fst (fst r), snd r)).
  Proof using B0 BA BS AX BW XW XA BD P0 PQ PA PM NP NS ND.
    intros Hm Hx Hb. eapply both_bind.
    - apply related_loop; [exact Hm|exact Hb| |cbn; split; [exact Hx|constructor]|exact course_default].
      intros s s' [H1 H2]. apply (both_bind (Forall2 X)); [apply related_sweep; auto|]. intros u u' Hu. cbn. auto.
    - intros t t' ((H1 & H2) & H3). cbn. split; auto.
  Qed.

  Lemma related_gauss_seidel fuel lim m m' x x' b b' : same_shape A m m' -> Forall2 X x x' -> Forall2 B b b' ->
    both same_run (gauss_seidel_solve O M dbg stray fuel lim m x b) (gauss_seidel_solve O M dbg stray fuel lim m' x' b').
  Proof using B0 BA BS AX BW XW XA BD P0 PQ PA PM NP NS ND. intros Hm Hx Hb. apply (related_in_place (sc_one O)); auto. Qed.

  Lemma related_sor fuel lim w m m' x x' b b' : same_shape A m m' -> Forall2 X x x' -> Forall2 B b b' ->
    both same_run (sor_solve O M dbg stray fuel lim w m x b) (sor_solve O M dbg stray fuel lim w m' x' b').
  Proof using B0 BA BS AX BW XW XA BD P0 PQ PA PM NP NS ND. intros Hm Hx Hb. apply (related_in_place (sor_factor O)); auto. Qed.
End Related.

Section RelatedLu.
  Context {S : Type}.
  Variables (O : sops S) (dbg pivot : bool) (R : S -> S -> Prop).
  Hypotheses (R0 : R (sc_zero O) (sc_zero O))
    (RS : forall a a' b b', R a a' -> R b b' -> R (sc_sub O a b) (sc_sub O a' b'))
    (RM : forall w b b', R b b' -> R (sc_mul O w b) (sc_mul O w b'))
    (RD : forall a b b', R b b' -> R (sc_div O b a) (sc_div O b' a)).

  Lemma related_lu st x x' b b' : Forall2 R x x' ->
    match b, b' with Some y, Some y' => Forall2 R y y' | None, None => True | _, _ => False end ->
    both (fun t t' => Forall2 R (fst t) (fst t') /\ snd t = snd t') (lu_solve O dbg pivot st x b) (lu_solve O dbg pivot st x' b').
  Proof using R0 RS RM RD.
    intros Hx Hb. assert (Hy : forall u u', Forall2 R u u' -> Forall2 R (other_of u b) (other_of u' b')).
    { intros u u' Hu. destruct b, b'; cbn; try contradiction; auto. }
    unfold lu_solve. rewrite <- (related_length _ _ _ (Hy x x' Hx)). apply (both_bind eq); [apply both_same|]. intros ? _ _.
    destruct (lu_factorised st); [|cbn; auto].
    apply (both_bind (Forall2 R)).
    - unfold lu_forward, FOR. apply both_for; [apply related_resize; auto|]. intros i u u' Hu.
      apply (both_bind eq); [apply both_same|]. intros k ? <-.
      apply (both_bind R); [apply both_vget, Hy, Hu|]. intros e e' He.
      apply (both_bind (Forall2 R)); [apply both_vset; auto|]. clear u u' Hu. intros u u' Hu.
      apply both_for; [exact Hu|]. clear u u' Hu. intros j u u' Hu.
      apply (both_bind R); [apply both_vget, Hu|]. intros v v' Hv.
      apply (both_bind eq); [apply both_same|]. intros l ? <-.
      apply (both_bind R); [apply both_vget, Hu|]. intros y y' Hyy. apply both_vset; auto.
    - intros u u' Hu. apply (both_bind (Forall2 R)).
      + unfold lu_backward. apply both_for; [exact Hu|]. clear u u' Hu. intros i u u' Hu.
        apply (both_bind (Forall2 R)).
        * apply both_for; [exact Hu|]. clear u u' Hu. intros j u u' Hu.
          apply (both_bind R); [apply both_vget, Hu|]. intros v v' Hv.
          apply (both_bind eq); [apply both_same|]. intros l ? <-.
          apply (both_bind R); [apply both_vget, Hu|]. intros y y' Hyy. apply both_vset; auto.
        * clear u u' Hu. intros u u' Hu. apply (both_bind R); [apply both_vget, Hu|]. intros v v' Hv.
          apply (both_bind eq); [apply both_same|]. intros d ? <-. apply both_vset; auto.
      + intros t t' Ht. cbn. auto.
  Qed.
End RelatedLu.

(* ------------------------------------------------------------------ doubles *)
(** [x] with its sign changed when [s]; the same number, or the opposite number when [s], up to the sign of zeros. *)
Definition turned (s : bool) (x : f64) : f64 := if s then SFopp x else x.
Definition near (s : bool) (x y : f64) : Prop := y = turned s x \/ exists p q, x = S754_zero p /\ y = S754_zero q.

Lemma near_same x y : near false x y <-> same_number x y.
Proof. unfold near, same_number, turned. split; intros [H|H]; auto. Qed.

Lemma round_aux_opp s m e l : SpecFloat.binary_round_aux 53 1024 (negb s) m e l = SFopp (SpecFloat.binary_round_aux 53 1024 s m e l).
Proof.
  unfold SpecFloat.binary_round_aux. destruct (shr_fexp _ _ _ _ _) as [mrs e'].
  destruct (shr_fexp _ _ _ _ _) as [mrs' e'']. destruct (shr_m mrs'); [reflexivity| |reflexivity].
  destruct (_ <=? _)%Z; reflexivity.
Qed.

Lemma mul_opp_r a b : SFmul 53 1024 a (SFopp b) = SFopp (SFmul 53 1024 a b).
Proof.
  destruct a as [s|s| |s m e], b as [s'|s'| |s' m' e']; cbn [SFmul SFopp]; try reflexivity;
    rewrite <- ?Bool.negb_xorb_r; try reflexivity.
  apply round_aux_opp.
Qed.

Lemma mul_opp_l a b : SFmul 53 1024 (SFopp a) b = SFopp (SFmul 53 1024 a b).
Proof. rewrite mul_comm_float, mul_opp_r, mul_comm_float. reflexivity. Qed.

Lemma div_opp_r a b : SFdiv 53 1024 a (SFopp b) = SFopp (SFdiv 53 1024 a b).
Proof.
  destruct a as [s|s| |s m e], b as [s'|s'| |s' m' e']; cbn [SFdiv SFopp]; try reflexivity;
    rewrite <- ?Bool.negb_xorb_r; try reflexivity.
  destruct (SFdiv_core_binary _ _ _ _ _ _) as [[q e''] l]. apply round_aux_opp.
Qed.

Lemma div_opp_l a b : SFdiv 53 1024 (SFopp a) b = SFopp (SFdiv 53 1024 a b).
Proof.
  destruct a as [s|s| |s m e], b as [s'|s'| |s' m' e']; cbn [SFdiv SFopp]; try reflexivity;
    rewrite <- ?Bool.negb_xorb_l; try reflexivity.
  destruct (SFdiv_core_binary _ _ _ _ _ _) as [[q e''] l]. apply round_aux_opp.
Qed.

Lemma opp_opp a : SFopp (SFopp a) = a.
Proof. destruct a; cbn; rewrite ?Bool.negb_involutive; reflexivity. Qed.

Lemma near_refl s x y : y = turned s x -> near s x y.
Proof. left. assumption. Qed.

Lemma near_trans_same s x y z : near s x y -> same_number y z -> near s x z.
Proof.
  intros [->|(p & q & -> & ->)] [H|(p' & q' & H & ->)].
  - left. auto.
  - right. destruct s; cbn in H; [|subst; eauto]. destruct x; try discriminate. eauto.
  - subst. right. eauto.
  - right. eauto.
Qed.

Lemma add_turned s a b : near s (SFadd 53 1024 a b) (SFadd 53 1024 (turned s a) (turned s b)).
Proof.
  destruct s; [|left; reflexivity]. cbn [turned].
  destruct a as [s|s| |s m e], b as [s'|s'| |s' m' e']; cbn [SFadd SFopp]; try (left; reflexivity).
  - right. destruct s, s'; cbn; eauto.
  - left. destruct s, s'; reflexivity.
  - set (u := fst (shl_align m e (Z.min e e'))). set (v := fst (shl_align m' e' (Z.min e e'))).
    assert (E : forall w k, cond_Zopp (negb k) (Z.pos w) = (- cond_Zopp k (Z.pos w))%Z) by (intros w k; destruct k; reflexivity).
    rewrite !E. rewrite <- Z.opp_add_distr. set (z := (cond_Zopp s (Z.pos u) + cond_Zopp s' (Z.pos v))%Z).
    destruct (normalize_opp z (Z.min e e')) as [H|H]; [left; symmetry; exact H|]. rewrite H. right. cbn. eauto.
Qed.

Lemma near_add s a a' b b' : near s a a' -> near s b b' -> near s (SFadd 53 1024 a b) (SFadd 53 1024 a' b').
Proof.
  intros Ha Hb. apply (near_trans_same _ _ (SFadd 53 1024 (turned s a) (turned s b))); [apply add_turned|].
  apply same_add.
  - destruct Ha as [->|(p & q & -> & ->)]; [apply same_refl|]. destruct s; apply same_zero.
  - destruct Hb as [->|(p & q & -> & ->)]; [apply same_refl|]. destruct s; apply same_zero.
Qed.

Lemma near_opp s a b : near s a b -> near s (SFopp a) (SFopp b).
Proof. intros [->|(p & q & -> & ->)]; [left; destruct s; reflexivity|right; cbn; eauto]. Qed.

Lemma near_same_trans s x y z : same_number x y -> near s y z -> near s x z.
Proof.
  intros [->|(p & q & -> & ->)] H; [exact H|]. right. destruct H as [->|(p' & q' & H1 & ->)]; [destruct s; cbn; eauto|eauto].
Qed.

Lemma near_sub s a a' b b' : near s a a' -> near s b b' -> near s (SFsub 53 1024 a b) (SFsub 53 1024 a' b').
Proof.
  intros Ha Hb. apply (near_trans_same _ _ (SFadd 53 1024 a' (SFopp b'))); [|apply same_sym, same_sub].
  eapply near_same_trans; [apply same_sub|]. apply near_add; [exact Ha|apply near_opp, Hb].
Qed.

Lemma near_mul s t a x x' : near t x x' -> near (xorb s t) (SFmul 53 1024 a x) (SFmul 53 1024 (turned s a) x').
Proof.
  intros [->|(p & q & -> & ->)].
  - left. destruct s, t; cbn [turned xorb]; rewrite ?mul_opp_l, ?mul_opp_r, ?opp_opp; reflexivity.
  - destruct a as [k|k| |k m e]; [right; destruct s; cbn; eauto| | |right; destruct s; cbn; eauto];
      left; destruct s, t; reflexivity.
Qed.

Lemma near_div s t a b b' : near (xorb s t) b b' -> near t (SFdiv 53 1024 b a) (SFdiv 53 1024 b' (turned s a)).
Proof.
  intros [->|(p & q & -> & ->)].
  - left. destruct s, t; cbn [turned xorb]; rewrite ?div_opp_l, ?div_opp_r, ?opp_opp; reflexivity.
  - destruct a as [k|k| |k m e]; [|right; destruct s; cbn; eauto| |right; destruct s; cbn; eauto];
      left; destruct s, t; reflexivity.
Qed.

Lemma near_times t w x x' : near t x x' -> near t (SFmul 53 1024 w x) (SFmul 53 1024 w x').
Proof. intros H. pose proof (near_mul false t w x x' H) as H'. rewrite Bool.xorb_false_l in H'. exact H'. Qed.

Lemma near_over t a b b' : near t b b' -> near t (SFdiv 53 1024 b a) (SFdiv 53 1024 b' a).
Proof. intros H. apply (near_div false t a). rewrite Bool.xorb_false_l. exact H. Qed.

Lemma near_square s b b' : near s b b' -> SFmul 53 1024 b b = SFmul 53 1024 b' b'.
Proof.
  intros [->|(p & q & -> & ->)]; [|destruct p, q; reflexivity].
  destruct s; cbn [turned]; [|reflexivity]. rewrite mul_opp_l, mul_opp_r, opp_opp. reflexivity.
Qed.

Lemma near_zero s : near s (sc_zero fops) (sc_zero fops).
Proof. right. cbn. eauto. Qed.

Section Doubles.
  Variables (M : nat) (dbg : bool) (stray : option nat) (s t : bool).
  (** The matrix with its signs changed when [s], the unknowns when [t]. *)
  Definition turned_matrix (m : smat f64) : smat f64 := mkS (rnz m) (cidx m) (map (turned s) (vals m)) (csize m).

  Lemma turned_shape m : same_shape (fun a a' => a' = turned s a) m (turned_matrix m).
  Proof. repeat split. cbn. induction (vals m); constructor; auto. Qed.

  Lemma course_eq {S} (c c' : conv_data S) : same_course eq c c' -> c = c'.
  Proof.
    intros (H1 & H2 & H3 & H4 & [[_ H]|(H5 & H6 & H7 & H8)]); [exact H|]. destruct c, c'; cbn in *; congruence.
  Qed.

  (** The unknowns agree up to the signs [t] and the signs of zeros, the convergence data are equal. *)
  Definition near_run (r r' : list f64 * conv_data f64) : Prop := Forall2 (near t) (fst r) (fst r') /\ snd r = snd r'.

  Lemma run_near r r' : same_run (near t) eq r r' -> near_run r r'.
  Proof. intros [H1 H2]. split; [exact H1|apply course_eq, H2]. Qed.

  Let L0 := near_zero (xorb s t).
  Let L1 := near_zero t.
  Let L2 := near_add (xorb s t).
  Let L3 := near_sub (xorb s t).
  Let L4 : forall a a' x x', a' = turned s a -> near t x x' -> near (xorb s t) (SFmul 53 1024 a x) (SFmul 53 1024 a' x').
  Proof. intros a a' x x' -> H. apply near_mul, H. Qed.
  Let L5 : forall w b b', near (xorb s t) b b' -> near (xorb s t) (SFmul 53 1024 w b) (SFmul 53 1024 w b').
  Proof. intros w b b' H. apply near_times, H. Qed.
  Let L6 : forall w b b', near t b b' -> near t (SFmul 53 1024 w b) (SFmul 53 1024 w b').
  Proof. intros w b b' H. apply near_times, H. Qed.
  Let L7 := near_add t.
  Let L8 : forall a a' b b', a' = turned s a -> near (xorb s t) b b' -> near t (SFdiv 53 1024 b a) (SFdiv 53 1024 b' a').
  Proof. intros a a' b b' -> H. apply near_div, H. Qed.
  Let L9 := near_square (xorb s t).

  Lemma both_weaken {A B} (Q Q' : A -> B -> Prop) r r' : (forall a b, Q a b -> Q' a b) -> both Q r r' -> both Q' r r'.
  Proof. destruct r, r'; cbn; auto. Qed.

  Lemma near_gauss_seidel fuel lim m x x' b b' : Forall2 (near t) x x' -> Forall2 (near (xorb s t)) b b' ->
    both near_run (gauss_seidel_solve fops M dbg stray fuel lim m x b)
      (gauss_seidel_solve fops M dbg stray fuel lim (turned_matrix m) x' b').
  Proof.
    intros Hx Hb. apply (both_weaken _ _ _ _ run_near).
    apply (related_gauss_seidel fops M dbg stray (fun a a' => a' = turned s a) (near t) (near (xorb s t)) eq L0 L2 L3 L4 L5 L6 L7 L8) with (N := eq);
      auto using turned_shape; congruence.
  Qed.

  Lemma near_sor fuel lim w m x x' b b' : Forall2 (near t) x x' -> Forall2 (near (xorb s t)) b b' ->
    both near_run (sor_solve fops M dbg stray fuel lim w m x b)
      (sor_solve fops M dbg stray fuel lim w (turned_matrix m) x' b').
  Proof.
    intros Hx Hb. apply (both_weaken _ _ _ _ run_near).
    apply (related_sor fops M dbg stray (fun a a' => a' = turned s a) (near t) (near (xorb s t)) eq L0 L2 L3 L4 L5 L6 L7 L8) with (N := eq);
      auto using turned_shape; congruence.
  Qed.

  Lemma near_jacobi fuel lim w w' m x x' b b' : Forall2 (near t) w w' -> Forall2 (near t) x x' -> Forall2 (near (xorb s t)) b b' ->
    both (fun r r' => Forall2 (near t) (snd (fst r)) (snd (fst r')) /\ near_run (fst (fst r), snd r) (fst (fst r'), snd r'))
      (jacobi_solve fops M dbg stray fuel lim w m x b) (jacobi_solve fops M dbg stray fuel lim w' (turned_matrix m) x' b').
  Proof.
    intros Hw Hx Hb.
    eapply both_weaken; [|apply (related_jacobi fops M dbg stray (fun a a' => a' = turned s a) (near t) (near (xorb s t)) eq L0 L1 L2 L3 L4 L5 L6 L7 L8) with (N := eq);
      auto using turned_shape; congruence].
    intros r r' [H1 H2]. split; [exact H1|]. apply run_near, H2.
  Qed.
End Doubles.

Lemma near_lu dbg pivot t st x x' b b' : Forall2 (near t) x x' ->
  match b, b' with Some y, Some y' => Forall2 (near t) y y' | None, None => True | _, _ => False end ->
  both (near_run t) (lu_solve fops dbg pivot st x b) (lu_solve fops dbg pivot st x' b').
Proof.
  intros Hx Hb. apply (related_lu fops dbg pivot (near t)); auto.
  - apply near_zero.
  - intros. apply near_sub; auto.
  - intros w c c' H. apply near_times, H.
  - intros a c c' H. apply near_over, H.
Qed.

(* ------------------------------------------------------------------ reals *)
Section Reals.
  Local Open Scope R_scope.
  Variables (M : nat) (dbg : bool) (stray : option nat) (al xi : R).
  Hypotheses (Hal : al <> 0) (Hxi : xi <> 0).
  Let k := al * xi.
  Let sc (c : R) (x y : R) : Prop := y = c * x.

  Lemma sqrt_square_mul c a : sqrt (c * c * a) = Rabs c * sqrt a.
  Proof.
    destruct (Rle_or_lt 0 a) as [H|H].
    - rewrite sqrt_mult_alt by (apply Rle_0_sqr). fold (Rsqr c). rewrite sqrt_Rsqr_abs. reflexivity.
    - rewrite !sqrt_neg_0; [ring|lra|]. assert (0 <= c * c) by apply Rle_0_sqr. nra.
  Qed.

  Lemma scale_max c a b : 0 < c -> std_max rops (c * a) (c * b) = c * std_max rops a b.
  Proof.
    intros Hc. unfold std_max. cbn [sc_lt rops]. unfold Rltb.
    destruct (Rlt_dec (c * a) (c * b)) as [H|H], (Rlt_dec a b) as [H'|H']; try reflexivity; exfalso.
    - apply H'. apply (Rmult_lt_reg_l c); auto.
    - apply H. apply Rmult_lt_compat_l; auto.
  Qed.

  Definition scaled_matrix (m : smat R) : smat R := mkS (rnz m) (cidx m) (map (Rmult al) (vals m)) (csize m).

  Lemma scaled_shape m : same_shape (sc al) m (scaled_matrix m).
  Proof. repeat split. cbn. unfold sc. induction (vals m); constructor; auto. Qed.

  (** The same course of the solves: counts and normalised residuals agree, the residuals are scaled. *)
  Definition scaled_run (r r' : list R * conv_data R) : Prop :=
    fst r' = map (Rmult xi) (fst r) /\ cd_iteration (snd r') = cd_iteration (snd r) /\
    cd_residual_normalised (snd r') = cd_residual_normalised (snd r) /\
    cd_residual_max_normalised (snd r') = cd_residual_max_normalised (snd r).

  Lemma scaled_list c x y : Forall2 (sc c) x y <-> y = map (Rmult c) x.
  Proof.
    unfold sc. split.
    - intros H. induction H; cbn; congruence.
    - intros ->. induction x; constructor; auto.
  Qed.

  Lemma run_scaled r r' : same_run (sc xi) (sc (Rabs k)) r r' -> scaled_run r r'.
  Proof. intros [H1 (_ & H2 & H3 & H4 & _)]. repeat split; auto. apply scaled_list, H1. Qed.

  Lemma k_pos : 0 < k * k.
  Proof. unfold k. assert (0 < Rsqr (al * xi)) by (apply Rsqr_pos_lt, Rmult_integral_contrapositive; auto). exact H. Qed.

  Lemma k_abs : Rabs k <> 0.
  Proof. apply Rabs_no_R0. unfold k. apply Rmult_integral_contrapositive; auto. Qed.

  Ltac law := unfold sc, k; cbn [sc_zero sc_add sc_sub sc_mul sc_div rops]; intros; subst; unfold Rdiv; rewrite ?Rinv_mult; try ring.

  Let L0 : sc k (sc_zero rops) (sc_zero rops). Proof. law. Qed.
  Let L1 : sc xi (sc_zero rops) (sc_zero rops). Proof. law. Qed.
  Let L2 : forall a a' b b', sc k a a' -> sc k b b' -> sc k (sc_add rops a b) (sc_add rops a' b'). Proof. law. Qed.
  Let L3 : forall a a' b b', sc k a a' -> sc k b b' -> sc k (sc_sub rops a b) (sc_sub rops a' b'). Proof. law. Qed.
  Let L4 : forall a a' x x', sc al a a' -> sc xi x x' -> sc k (sc_mul rops a x) (sc_mul rops a' x'). Proof. law. Qed.
  Let L5 : forall w b b', sc k b b' -> sc k (sc_mul rops w b) (sc_mul rops w b'). Proof. law. Qed.
  Let L6 : forall w b b', sc xi b b' -> sc xi (sc_mul rops w b) (sc_mul rops w b'). Proof. law. Qed.
  Let L7 : forall a a' b b', sc xi a a' -> sc xi b b' -> sc xi (sc_add rops a b) (sc_add rops a' b'). Proof. law. Qed.
  Let L8 : forall a a' b b', sc al a a' -> sc k b b' -> sc xi (sc_div rops b a) (sc_div rops b' a').
  Proof. law. transitivity (xi * b * / a * (al * / al)); [ring|]. rewrite Rinv_r by auto. ring. Qed.
  Let P0 : sc (k * k) (sc_zero rops) (sc_zero rops). Proof. law. Qed.
  Let P1 : forall b b', sc k b b' -> sc (k * k) (sc_mul rops b b) (sc_mul rops b' b'). Proof. law. Qed.
  Let P2 : forall a a' b b', sc (k * k) a a' -> sc (k * k) b b' -> sc (k * k) (sc_add rops a b) (sc_add rops a' b'). Proof. law. Qed.
  Let P3 : forall a a' b b', sc (k * k) a a' -> sc (k * k) b b' -> sc (k * k) (std_max rops a b) (std_max rops a' b').
  Proof. unfold sc. intros a a' b b' -> ->. apply scale_max, k_pos. Qed.
  Let N1 : forall n a a', sc (k * k) a a' -> sc (Rabs k) (sc_sqrt rops (sc_div rops a (sc_of_Z rops (Z.of_nat n))))
                                              (sc_sqrt rops (sc_div rops a' (sc_of_Z rops (Z.of_nat n)))).
  Proof.
    unfold sc. intros n a a' ->. cbn [sc_sqrt sc_div sc_of_Z rops]. rewrite <- sqrt_square_mul. f_equal. unfold Rdiv. ring.
  Qed.
  Let N2 : forall a a', sc (k * k) a a' -> sc (Rabs k) (sc_sqrt rops a) (sc_sqrt rops a').
  Proof. unfold sc. intros a a' ->. cbn [sc_sqrt rops]. apply sqrt_square_mul. Qed.
  Let N3 : forall a a' b b', sc (Rabs k) a a' -> sc (Rabs k) b b' -> sc_div rops a b = sc_div rops a' b'.
  Proof.
    unfold sc. intros a a' b b' -> ->. cbn [sc_div rops]. unfold Rdiv. rewrite Rinv_mult.
    transitivity (a * / b * (Rabs k * / Rabs k)); [rewrite Rinv_r by apply k_abs; ring|ring].
  Qed.

  Lemma scaled_gauss_seidel fuel lim m x b :
    both scaled_run (gauss_seidel_solve rops M dbg stray fuel lim m x b)
      (gauss_seidel_solve rops M dbg stray fuel lim (scaled_matrix m) (map (Rmult xi) x) (map (Rmult (al * xi)) b)).
  Proof.
    apply (both_weaken _ _ _ _ run_scaled).
    apply (related_gauss_seidel rops M dbg stray (sc al) (sc xi) (sc k) (sc (k * k)) L0 L2 L3 L4 L5 L6 L7 L8 P0 P1 P2 P3 (sc (Rabs k)) N1 N2 N3);
      [apply scaled_shape|apply scaled_list; reflexivity|apply scaled_list; reflexivity].
  Qed.

  Lemma scaled_sor fuel lim w m x b :
    both scaled_run (sor_solve rops M dbg stray fuel lim w m x b)
      (sor_solve rops M dbg stray fuel lim w (scaled_matrix m) (map (Rmult xi) x) (map (Rmult (al * xi)) b)).
  Proof.
    apply (both_weaken _ _ _ _ run_scaled).
    apply (related_sor rops M dbg stray (sc al) (sc xi) (sc k) (sc (k * k)) L0 L2 L3 L4 L5 L6 L7 L8 P0 P1 P2 P3 (sc (Rabs k)) N1 N2 N3);
      [apply scaled_shape|apply scaled_list; reflexivity|apply scaled_list; reflexivity].
  Qed.

  Lemma scaled_jacobi fuel lim w m x b :
    both (fun r r' => snd (fst r') = map (Rmult xi) (snd (fst r)) /\ scaled_run (fst (fst r), snd r) (fst (fst r'), snd r'))
      (jacobi_solve rops M dbg stray fuel lim w m x b)
      (jacobi_solve rops M dbg stray fuel lim (map (Rmult xi) w) (scaled_matrix m) (map (Rmult xi) x) (map (Rmult (al * xi)) b)).
  Proof.
    eapply both_weaken; [|apply (related_jacobi rops M dbg stray (sc al) (sc xi) (sc k) (sc (k * k)) L0 L1 L2 L3 L4 L5 L6 L7 L8 P0 P1 P2 P3 (sc (Rabs k)) N1 N2 N3);
      [apply scaled_shape|apply scaled_list; reflexivity..]].
    intros r r' [H1 H2]. split; [apply scaled_list, H1|apply run_scaled, H2].
  Qed.
End Reals.

Lemma scaled_lu dbg pivot (c : R) st x b :
  both (fun r r' => fst r' = map (Rmult c) (fst r) /\ snd r = snd r') (lu_solve rops dbg pivot st x (Some b))
    (lu_solve rops dbg pivot st (map (Rmult c) x) (Some (map (Rmult c) b))).
Proof.
  eapply both_weaken; [|apply (related_lu rops dbg pivot (fun a a' => a' = (c * a)%R))].
  - intros r r' [H1 H2]. split; [apply scaled_list, H1|exact H2].
  - cbn. ring.
  - cbn. intros; subst; ring.
  - cbn. intros; subst; ring.
  - cbn. intros; subst. unfold Rdiv. ring.
  - apply scaled_list; reflexivity.
  - apply scaled_list; reflexivity.
Qed.

(* ------------------------------------------------------------------ solver objects *)
(** The same solver, with the signs of the working vector changed. *)
Definition near_solver (t : bool) (v v' : solver f64) : Prop :=
  match v, v' with
  | SolverJacobi lim w, SolverJacobi lim' w' => lim = lim' /\ Forall2 (near t) w w'
  | _, _ => v = v'
  end.

Lemma near_solver_refl t v : (forall lim w, v <> SolverJacobi lim w) -> near_solver t v v.
Proof. intros H. destruct v as [| |lim w| | |]; cbn; auto. exfalso. eapply H; eauto. Qed.

Lemma near_sparse M dbg stray s t fuel v v' m x x' b b' : near_solver t v v' -> Forall2 (near t) x x' ->
  Forall2 (near (xorb s t)) b b' ->
  both (fun r r' => near_solver t (fst (fst r)) (fst (fst r')) /\ near_run t (snd (fst r), snd r) (snd (fst r'), snd r'))
    (solve_sparse fops M dbg stray fuel v m x b) (solve_sparse fops M dbg stray fuel v' (turned_matrix s m) x' b').
Proof.
  intros Hv Hx Hb.
  assert (E : solver_index v = solver_index v') by (destruct v, v'; cbn in *; try discriminate; reflexivity).
  unfold solve_sparse. rewrite <- E. destruct v as [st|st|lim w|lim|lim w|]; cbn [solver_index]; try exact I.
  - destruct v'; cbn in E; try discriminate. exact I.
  - destruct v'; cbn in E; try discriminate. exact I.
  - destruct v' as [| |lim' w'| | |]; cbn in E; try discriminate. destruct Hv as [<- Hw]. cbn [get_jacobi].
    eapply both_bind; [apply (near_jacobi M dbg stray s t fuel lim w w' m x x' b b' Hw Hx Hb)|].
    intros r r' [H1 H2]. cbn. auto.
  - destruct v' as [| | |lim'| |]; cbn in E; try discriminate. assert (lim' = lim) by (cbn in Hv; congruence). subst lim'. cbn [get_gauss_seidel].
    eapply both_bind; [apply (near_gauss_seidel M dbg stray s t fuel lim m x x' b b' Hx Hb)|].
    intros [y c] [y' c'] H. cbn. auto.
  - destruct v' as [| | | |lim' w'|]; cbn in E; try discriminate. assert (lim' = lim /\ w' = w) as [-> ->] by (cbn in Hv; split; congruence). cbn [get_sor].
    eapply both_bind; [apply (near_sor M dbg stray s t fuel lim w m x x' b b' Hx Hb)|].
    intros [y c] [y' c'] H. cbn. auto.
Qed.

Lemma near_dense dbg t v x x' b b' : Forall2 (near t) x x' ->
  match b, b' with Some y, Some y' => Forall2 (near t) y y' | None, None => True | _, _ => False end ->
  both (fun r r' => fst (fst r) = fst (fst r') /\ near_run t (snd (fst r), snd r) (snd (fst r'), snd r'))
    (solve_dense fops dbg v x b) (solve_dense fops dbg v x' b').
Proof.
  intros Hx Hb. unfold solve_dense. destruct v as [st|st|lim w|lim|lim w|]; cbn [solver_index]; try exact I; cbn [get_lu get_lup].
  - eapply both_bind; [apply (near_lu dbg false t st x x' b b' Hx Hb)|]. intros [y c] [y' c'] H. cbn. auto.
  - eapply both_bind; [apply (near_lu dbg true t st x x' b b' Hx Hb)|]. intros [y c] [y' c'] H. cbn. auto.
Qed.
