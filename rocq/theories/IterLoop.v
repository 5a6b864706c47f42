(** The loop of the iterative solvers: number of sweeps, stopping, success. *)
From Coq Require Import ZArith.
From Verif Require Import Base ListFacts DenseModel DenseFacts ScalarModel SparseModel SparseSpec LuModel LuFacts
  IterModel IterFacts.

(** [k] executions of [step]. *)
Fixpoint times {T : Type} (step : T -> res T) (k : nat) (s : T) : res T :=
  match k with
  | 0 => Ok s
  | S k => do s <- times step k s; step s
  end.

Lemma nodiv_bind {A B} (m : res A) (k : A -> res B) : m <> Diverge -> (forall x, k x <> Diverge) ->
  (do x <- m; k x) <> Diverge.
Proof. intros Hm Hk. destruct m; cbn [bind]; auto; discriminate. Qed.

Lemma nodiv_forM {A T} (l : list A) (f : A -> T -> res T) s : (forall a s, f a s <> Diverge) -> forM l f s <> Diverge.
Proof. intro H. revert s; induction l as [|a l IH]; intro s; cbn [forM]; [discriminate|]. apply nodiv_bind; auto. Qed.

Lemma nodiv_vget {A} (l : list A) i : vget l i <> Diverge.
Proof. unfold vget. destruct (nth_error l i); discriminate. Qed.
Lemma nodiv_vset {A} (l : list A) i x : vset l i x <> Diverge.
Proof. unfold vset. destruct (i <? length l); discriminate. Qed.
Lemma nodiv_vrange {A} (l : list A) b e : vrange l b e <> Diverge.
Proof. unfold vrange. destruct (_ && _); discriminate. Qed.
Lemma nodiv_assert dbg b : ASSERT_DEBUG dbg b <> Diverge.
Proof. destruct dbg, b; discriminate. Qed.

Ltac nodiv1 := first
  [ discriminate | apply nodiv_vget | apply nodiv_vset | apply nodiv_vrange | apply nodiv_assert
  | apply nodiv_forM; intros | apply nodiv_bind; [|intros] ].
Ltac nodiv := repeat nodiv1.

Section Loop.
  Context {S : Type}.
  Variables (O : sops S) (M : nat) (dbg : bool) (stray : option nat).
  Implicit Types (a : smat S) (x b : list S) (cd : conv_data S) (lim : limits S) (s : list S * list S).
  Notation loop := (solve_loop O M dbg stray).
  Notation upd_cd := (update O M dbg stray).
  Notation residual := (compute_residual O dbg stray).

  Lemma row_entries_nodiv a i : row_entries stray a i <> Diverge.
  Proof using.
    unfold row_entries, row_begin, row_end. nodiv. destruct (i + 1 <? length (rnz a)); nodiv.
    destruct stray; discriminate.
  Qed.

  Lemma find_nodiv a i j : s_find stray a i j <> Diverge.
  Proof using.
    unfold s_find, row_end. destruct (i <? s_rows a); nodiv.
    destruct (s_rows a + 1 <? length (rnz a)); nodiv. destruct stray; discriminate.
  Qed.

  Lemma subscript_const_nodiv a i j : s_subscript_const dbg stray a i j <> Diverge.
  Proof using.
    unfold s_subscript_const, row_check, s_contains, deref. nodiv.
    - destruct dbg; [|discriminate]. nodiv.
      + apply find_nodiv.
      + destruct (fst x0 =? i); nodiv. unfold row_end.
        destruct (i + 1 <? length (rnz a)); nodiv. destruct stray; discriminate.
      + destruct x0; discriminate.
    - apply find_nodiv.
  Qed.

  Lemma sweep_row_nodiv a (x : option (list S)) b w i u : sweep_row O dbg stray a x b w i u <> Diverge.
  Proof using.
    unfold sweep_row, row_check.
    repeat first [apply row_entries_nodiv | apply subscript_const_nodiv | progress nodiv1].
    destruct (fst a0 =? i); nodiv.
  Qed.

  Lemma residual_nodiv a x b : residual a x b <> Diverge.
  Proof using.
    unfold compute_residual, FOR, residual_row, row_check.
    repeat first [apply row_entries_nodiv | progress nodiv1].
  Qed.

  Lemma sweep_nodiv a (x : option (list S)) u b w : forward_sweep O dbg stray a x u b w <> Diverge.
  Proof using. unfold forward_sweep, FOR. apply nodiv_forM. intros. apply sweep_row_nodiv. Qed.

  (* ---------------------------------------------------------------- invariants *)
  Lemma loop_invariant (P : nat -> list S * list S -> conv_data S -> Prop) step lim a b fuel k s cd s' cd' :
    P k s cd ->
    (forall k s cd s1 cd1, P k s cd -> is_converged O lim cd = false -> step s = Ok s1 ->
       upd_cd a (fst s1) b cd = Ok cd1 -> P (k + 1) s1 cd1) ->
    loop step fuel lim a b s cd = Ok (s', cd') ->
    exists k', k <= k' /\ P k' s' cd' /\ is_converged O lim cd' = true.
  Proof using.
    intros HP Hs. revert k s cd HP; induction fuel as [|fuel IH]; intros k s cd HP; cbn [solve_loop]; [discriminate|].
    destruct (is_converged O lim cd) eqn:E.
    - intro H. injection H as <- <-. exists k. auto.
    - destruct (step s) as [s1| | |] eqn:E1; cbn [bind]; try discriminate.
      destruct (upd_cd a (fst s1) b cd) as [cd1| | |] eqn:E2; cbn [bind]; try discriminate.
      intro H. destruct (IH (k + 1) s1 cd1 (Hs k s cd s1 cd1 HP E E1 E2) H) as (k' & Hk & HP' & Hc).
      exists k'. split; [lia|auto].
  Qed.

  (** The convergence data after [k] sweeps from [s0]. *)
  Definition data_at step a b s0 (k : nat) s cd : Prop :=
    times step k s0 = Ok s /\ cd_converged cd = false /\
    (k <= M -> cd_iteration cd = k /\ (k = 0 -> cd = conv_default O) /\
      (0 < k -> exists s1 r r1, times step 1 s0 = Ok s1 /\
         residual a (fst s) b = Ok r /\ residual a (fst s1) b = Ok r1 /\
         cd_residual cd = fst r /\ cd_residual_0 cd = fst r1 /\ cd_residual_normalised cd = sc_div O (fst r) (fst r1) /\
         cd_residual_max cd = snd r /\ cd_residual_max_0 cd = snd r1 /\
         cd_residual_max_normalised cd = sc_div O (snd r) (snd r1))).

  Lemma data_at_0 step a b s0 : data_at step a b s0 0 s0 (conv_default O).
  Proof using. split; [reflexivity|]. split; [reflexivity|]. intros _. split; [reflexivity|]. split; [auto|lia]. Qed.

  Lemma times_S {T} (step : T -> res T) k t : times step (k + 1) t = do t <- times step k t; step t.
  Proof using. clear M O dbg stray. replace (k + 1) with (Datatypes.S k) by lia. reflexivity. Qed.

  Lemma data_at_step step a b s0 k s cd s1 cd1 : data_at step a b s0 k s cd -> step s = Ok s1 ->
    upd_cd a (fst s1) b cd = Ok cd1 -> data_at step a b s0 (k + 1) s1 cd1.
  Proof using.
    intros (Ht & Hc & Hd) Es Eu. assert (Et : times step (k + 1) s0 = Ok s1) by (rewrite times_S, Ht; exact Es).
    unfold update in Eu. destruct (residual a (fst s1) b) as [r| | |] eqn:Er; cbn [bind] in Eu; try discriminate.
    injection Eu as <-. split; [exact Et|]. split; [exact Hc|]. intro Hk.
    destruct Hd as (Hi & H0 & Hp); [lia|]. cbn [cd_iteration]. rewrite Hi.
    destruct (Nat.eqb_spec k M); [lia|]. split; [reflexivity|]. split; [lia|]. intros _.
    destruct (Nat.eqb_spec k 0) as [->|Hne].
    - exists s1, r, r. cbn. auto 10.
    - destruct Hp as (t1 & q & r1 & E1 & E2 & E3 & _ & H4 & _ & _ & H5 & _); [lia|].
      exists t1, r, r1. cbn. rewrite H4, H5. auto 10.
  Qed.

  (** Every result of the loop. *)
  Lemma loop_result step lim a b fuel s s' cd' : loop step fuel lim a b s (conv_default O) = Ok (s', cd') ->
    exists k, data_at step a b s k s' cd' /\ is_converged O lim cd' = true.
  Proof using.
    intro H. destruct (loop_invariant (data_at step a b s) step lim a b fuel 0 s (conv_default O) s' cd') as (k & _ & R);
      auto using data_at_0.
    - intros. eapply data_at_step; eauto.
    - exists k. exact R.
  Qed.

  Lemma not_converged_bound lim cd : is_converged O lim cd = false ->
    cd_iteration cd < Nat.max (min_iterations lim) (max_iteration lim + 1).
  Proof using.
    unfold is_converged. destruct (Nat.ltb_spec (cd_iteration cd) (min_iterations lim)); [lia|].
    destruct (Nat.ltb_spec (max_iteration lim) (cd_iteration cd)); [discriminate|lia].
  Qed.

  (** The number of sweeps. *)
  Lemma loop_bound step lim a b fuel s s' cd' : min_iterations lim <= M -> max_iteration lim < M ->
    loop step fuel lim a b s (conv_default O) = Ok (s', cd') ->
    exists k, k <= Nat.max (min_iterations lim) (max_iteration lim + 1) /\ cd_iteration cd' = k /\
      data_at step a b s k s' cd' /\ is_converged O lim cd' = true.
  Proof using.
    intros Hmin Hmax H.
    destruct (loop_invariant (fun k t cd => data_at step a b s k t cd /\
        k <= Nat.max (min_iterations lim) (max_iteration lim + 1)) step lim a b fuel 0 s (conv_default O) s' cd')
      as (k & _ & [R B] & C); auto.
    - split; [apply data_at_0|lia].
    - intros k t cd t1 cd1 [R B] N Es Eu. split; [eapply data_at_step; eauto|].
      apply not_converged_bound in N. destruct R as (_ & _ & R). destruct R as (<- & _); lia.
    - exists k. split; auto. split; auto. destruct R as (_ & _ & R). apply R. lia.
  Qed.

  (** The loop ends. *)
  Lemma loop_ends step lim a b fuel s : (forall s, step s <> Diverge) ->
    min_iterations lim <= M -> max_iteration lim < M ->
    Nat.max (min_iterations lim) (max_iteration lim + 1) < fuel ->
    loop step fuel lim a b s (conv_default O) <> Diverge.
  Proof using.
    intros Hs Hmin Hmax Hf. set (B := Nat.max _ _) in *.
    assert (G : forall fuel s cd, cd_iteration cd <= B -> B < cd_iteration cd + fuel ->
              loop step fuel lim a b s cd <> Diverge).
    { clear fuel s Hf. induction fuel as [|fuel IH]; intros s cd Hb Hf; cbn [solve_loop]; [lia|].
      destruct (is_converged O lim cd) eqn:E; [discriminate|]. apply not_converged_bound in E. fold B in E.
      specialize (Hs s). destruct (step s) as [s1| | |]; cbn [bind]; auto; try discriminate.
      pose proof (residual_nodiv a (fst s1) b) as Hr. unfold update.
      destruct (residual a (fst s1) b) as [r| | |]; cbn [bind]; auto; try discriminate.
      destruct (Nat.eqb_spec (cd_iteration cd) M); [lia|]. apply IH; cbn [cd_iteration]; lia. }
    apply G; cbn [conv_default cd_iteration]; lia.
  Qed.

  (** The loop succeeds when its body does. *)
  Lemma loop_ok (Q : list S * list S -> Prop) step lim a b fuel s :
    (forall s, Q s -> exists s1 r, step s = Ok s1 /\ Q s1 /\ residual a (fst s1) b = Ok r) ->
    min_iterations lim <= M -> max_iteration lim < M ->
    Nat.max (min_iterations lim) (max_iteration lim + 1) < fuel -> Q s ->
    exists s' cd', loop step fuel lim a b s (conv_default O) = Ok (s', cd') /\ Q s'.
  Proof using.
    intros Hs Hmin Hmax Hf HQ. set (B := Nat.max _ _) in *.
    assert (G : forall fuel s cd, cd_iteration cd <= B -> B < cd_iteration cd + fuel -> Q s ->
              exists s' cd', loop step fuel lim a b s cd = Ok (s', cd') /\ Q s').
    { clear fuel s Hf HQ. induction fuel as [|fuel IH]; intros s cd Hb Hf HQ; cbn [solve_loop]; [lia|].
      destruct (is_converged O lim cd) eqn:E; [eauto|]. apply not_converged_bound in E. fold B in E.
      destruct (Hs s HQ) as (s1 & r & -> & HQ1 & Er). cbn [bind]. unfold update. rewrite Er. cbn [bind].
      destruct (Nat.eqb_spec (cd_iteration cd) M); [lia|]. apply IH; cbn [cd_iteration]; auto; lia. }
    apply G; cbn [conv_default cd_iteration]; auto; lia.
  Qed.

  (** The steps of the three solvers on a square system. *)
  Definition sized n s : Prop := length (fst s) = n /\ length (snd s) = n.

  Lemma jacobi_step_ok n a b s : square_system n a b -> sized n s -> (dbg = true -> n <> 0) ->
    exists s1 r, jacobi_step O dbg stray a b s = Ok s1 /\ sized n s1 /\ residual a (fst s1) b = Ok r.
  Proof using.
    intros Hsys [L1 L2] Hn. destruct (system_rows O dbg stray n a b Hsys) as (rs & d & Hro & Hso & _).
    assert (Hx : is_vec n (fst s) (fun i => nth i (fst s) (sc_zero O))) by (rewrite <- L1; apply is_vec_self).
    destruct (jacobi_sweep_ok O dbg stray n a b rs d _ (fst s) (snd s) _ (sc_one O) Hro Hx L2) as (u & E & Hu).
    unfold jacobi_step. rewrite E. cbn [bind]. eexists. eexists. split; [reflexivity|].
    split; [split; [apply Hu|exact L1]|]. apply (residual_ok O dbg stray n a b rs _ _ _ (ro_repr _ _ _ _ _ _ _ _ Hro) Hso
      (ro_len _ _ _ _ _ _ _ _ Hro) (ro_b _ _ _ _ _ _ _ _ Hro) Hu); auto. apply Hsys.
  Qed.

  Lemma seidel_step_ok n a b w s : square_system n a b -> length (fst s) = n -> (dbg = true -> n <> 0) ->
    exists s1 r, (do x <- forward_sweep O dbg stray a None (fst s) b w; Ok (x, snd s)) = Ok s1 /\
      length (fst s1) = n /\ residual a (fst s1) b = Ok r.
  Proof using.
    intros Hsys L1 Hn. destruct (system_rows O dbg stray n a b Hsys) as (rs & d & Hro & Hso & _).
    assert (Hx : is_vec n (fst s) (fun i => nth i (fst s) (sc_zero O))) by (rewrite <- L1; apply is_vec_self).
    destruct (seidel_sweep_ok O dbg stray n a b rs d _ (fst s) _ w Hro Hx) as (u & z & E & Hu & _).
    rewrite E. cbn [bind]. eexists. eexists. split; [reflexivity|].
    split; [apply Hu|]. apply (residual_ok O dbg stray n a b rs _ _ _ (ro_repr _ _ _ _ _ _ _ _ Hro) Hso
      (ro_len _ _ _ _ _ _ _ _ Hro) (ro_b _ _ _ _ _ _ _ _ Hro) Hu); auto. apply Hsys.
  Qed.
End Loop.
