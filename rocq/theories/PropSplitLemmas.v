(** The sweeps as splittings of the matrix: lemmas for C132. *)
From Coq Require Import ZArith Reals Lra Field Lia QArith Qcanon.
From Verif Require Import Base ListFacts DenseModel DenseFacts ScalarModel GeometryReal SparseModel SparseSpec SparseFacts
  LuModel LuFacts LuField LuReal IterModel IterFacts IterLoop IterField IterReal PropLuLemmas PropIterLemmas PropOddLemmas.
Close Scope Q_scope. Close Scope Qc_scope. Open Scope nat_scope.

(** One sweep, descending when [back], into the vector [u] when [other]: solver_fixed_point.cpp 29-53. *)
Definition sweep {S} (O : sops S) (dbg : bool) (stray : option nat) (back other : bool) (a : smat S) (u x b : list S) (w : S) :
    res (list S) :=
  (if back then backward_sweep O dbg stray else forward_sweep O dbg stray) a (if other then Some x else None) (if other then u else x) b w.

(** Row [i] of the sweep already finds the new value of component [j]. *)
Definition renewed (back other : bool) (i j : nat) : bool := negb other && (if back then i <? j else j <? i).

(** The three fixed point solvers and the bodies of their loops: solver_fixed_point.cpp 69-70, 89, 111. *)
Inductive method := Jacobi | Seidel | Sor.

Definition step_of {S} (O : sops S) (dbg : bool) (stray : option nat) (m : method) :
    smat S -> list S -> list S * list S -> res (list S * list S) :=
  match m with Jacobi => jacobi_step O dbg stray | Seidel => gauss_seidel_step O dbg stray | Sor => sor_step O dbg stray end.

(** The vector after [k] sweeps of a solver from the vector [x] with the working vector [u]. *)
Definition iterate {S} (O : sops S) (dbg : bool) (stray : option nat) (m : method) (k : nat) (a : smat S) (u x b : list S) :
    res (list S) :=
  do s <- times (step_of O dbg stray m a b) k (x, u); Ok (fst s).

(** The solve_system functions without the working vector. *)
Definition run_method {S} (O : sops S) (M : nat) (dbg : bool) (stray : option nat) (m : method) (fuel : nat) (lim : limits S)
    (a : smat S) (u x b : list S) : res (list S * conv_data S) :=
  match m with
  | Jacobi => do r <- jacobi_solve O M dbg stray fuel lim u a x b; Ok (fst (fst r), snd r)
  | Seidel => gauss_seidel_solve O M dbg stray fuel lim a x b
  | Sor => sor_solve O M dbg stray fuel lim (sc_one O) a x b
  end.

Section Split.
  Context {S : Type}.
  Variables (O : sops S) (opp inv : S -> S) (dbg : bool) (stray : option nat).
  Notation "0" := (sc_zero O). Notation "1" := (sc_one O).
  Notation "x + y" := (sc_add O x y). Notation "x * y" := (sc_mul O x y).
  Notation "x - y" := (sc_sub O x y). Notation "x / y" := (sc_div O x y).
  Hypothesis Fth : field_theory 0 1 (sc_add O) (sc_mul O) (sc_sub O) opp (sc_div O) inv eq.
  Add Field SField3 : Fth.
  Notation sum := (asum 0 (sc_add O)).
  Notation mix back other z f i := (fun j => if renewed back other i j then z j else f j).

  (** The equations of the new values [z]: the parts of the matrix that meet new values stand on the left. *)
  Definition splitting n (A : nat -> nat -> S) (h : nat -> S) (w : S) (new : nat -> nat -> bool) (f z : nat -> S) : Prop :=
    forall i, (i < n)%nat ->
      A i i * z i + w * sum n (fun j => if new i j then A i j * z j else 0) =
      w * (h i - sum n (fun j => if (j =? i) || new i j then 0 else A i j * f j)) + (1 - w) * (A i i * f i).

  Lemma sum_zero n : sum n (fun _ => 0) = 0.
  Proof using Fth. induction n as [|n IH]; cbn [asum]; [reflexivity|]. rewrite IH. ring. Qed.

  Lemma sum_lin n c e (F G : nat -> S) : sum n (fun j => c * F j + e * G j) = c * sum n F + e * sum n G.
  Proof using Fth. induction n as [|n IH]; cbn [asum]; [ring|]. rewrite IH. ring. Qed.

  Lemma sum_plus n (F G : nat -> S) : sum n (fun j => F j + G j) = sum n F + sum n G.
  Proof using Fth. induction n as [|n IH]; cbn [asum]; [ring|]. rewrite IH. ring. Qed.

  (** What a sweep does: every new value from the newest values. *)
  Lemma sweep_ok n a A b h back other u x f w : sparse_square 0 n a A -> is_vec n b h -> is_vec n x f -> length u = n ->
    (forall i, (i < n)%nat -> A i i <> 0) ->
    exists x' z, sweep O dbg stray back other a u x b w = Ok x' /\ is_vec n x' z /\
      forall i, (i < n)%nat -> z i = relaxed O n A h w i (mix back other z f i).
  Proof using Fth.
    intros Ha Hb Hx Hu Hd. destruct (field_rows O opp inv dbg stray Fth n a A b h Ha Hb Hd) as (rs & d & Hro & Hv).
    unfold sweep, renewed. destruct back, other; cbn [negb andb].
    - destruct (jacobi_back_ok O dbg stray n a b rs d h x u f w Hro Hx Hu) as (x' & E & Hx'). eexists. eexists.
      split; [exact E|]. split; [exact Hx'|]. cbn beta. intros i Hi. apply Hv, Hi.
    - destruct (seidel_back_ok O dbg stray n a b rs d h x f w Hro Hx) as (x' & z & E & Hx' & Hz). exists x', z.
      split; [exact E|]. split; [exact Hx'|]. intros i Hi. rewrite <- Hv by auto. apply Hz, Hi.
    - destruct (jacobi_sweep_ok O dbg stray n a b rs d h x u f w Hro Hx Hu) as (x' & E & Hx'). eexists. eexists.
      split; [exact E|]. split; [exact Hx'|]. cbn beta. intros i Hi. apply Hv, Hi.
    - destruct (seidel_sweep_ok O dbg stray n a b rs d h x f w Hro Hx) as (x' & z & E & Hx' & Hz). exists x', z.
      split; [exact E|]. split; [exact Hx'|]. intros i Hi. rewrite <- Hv by auto. apply Hz, Hi.
  Qed.

  (** The new values are determined, also when the two sides are built from different data. *)
  Lemma mix_unique n back other (f z z' : nat -> S) (G : nat -> (nat -> S) -> S) :
    (forall i p q, (i < n)%nat -> (forall j, (j < n)%nat -> p j = q j) -> G i p = G i q) ->
    (forall i, (i < n)%nat -> z i = G i (mix back other z f i)) ->
    (forall i, (i < n)%nat -> z' i = G i (mix back other z' f i)) ->
    forall i, (i < n)%nat -> z i = z' i.
  Proof using.
    intros HG Hz Hz' i Hi. remember (if back then n - i else i)%nat as r eqn:Er. revert i Hi Er.
    induction r as [r IH] using lt_wf_ind. intros i Hi Er. rewrite Hz, Hz' by auto. apply HG; auto. intros j Hj.
    unfold renewed. destruct other; cbn [negb andb]; [reflexivity|]. destruct back.
    - destruct (Nat.ltb_spec i j); [|reflexivity]. apply (IH (n - j)%nat); lia.
    - destruct (Nat.ltb_spec j i); [|reflexivity]. apply (IH j); lia.
  Qed.

  Lemma sweep_value n a A b h back other u x f w x' g : sparse_square 0 n a A -> is_vec n b h -> is_vec n x f -> length u = n ->
    (forall i, (i < n)%nat -> A i i <> 0) ->
    sweep O dbg stray back other a u x b w = Ok x' -> 
    (forall i, (i < n)%nat -> g i = relaxed O n A h w i (mix back other g f i)) -> is_vec n x' g.
  Proof using Fth.
    intros Ha Hb Hx Hu Hd E Hg.
    destruct (sweep_ok n a A b h back other u x f w Ha Hb Hx Hu Hd) as (y & z & E' & Hy & Hz).
    rewrite E' in E. injection E as <-. apply (is_vec_ext _ _ _ _ Hy).
    apply (mix_unique n back other f z g (relaxed O n A h w)); auto. intros i p q Hi Hpq. apply relaxed_ext; auto.
  Qed.

  Lemma relaxed_splitting n A h w back other f z i : (i < n)%nat -> A i i <> 0 ->
    (z i = relaxed O n A h w i (mix back other z f i) <->
     A i i * z i + w * sum n (fun j => if renewed back other i j then A i j * z j else 0) =
     w * (h i - sum n (fun j => if (j =? i) || renewed back other i j then 0 else A i j * f j)) + (1 - w) * (A i i * f i)).
  Proof using Fth.
    intros Hi Hd. unfold relaxed.
    assert (Ei : renewed back other i i = false).
    { unfold renewed. destruct other, back; cbn [negb andb]; auto; apply Nat.ltb_irrefl. }
    rewrite Ei. set (s1 := sum n (fun j => if renewed back other i j then _ else _)).
    set (s2 := sum n (fun j => if (j =? i) || _ then _ else _)).
    replace (sum n _) with (s1 + s2).
    2:{ unfold s1, s2. rewrite <- sum_plus. apply asum_ext. intros j Hj. destruct (Nat.eqb_spec j i) as [->|Hne]; cbn [orb].
        - rewrite Ei. ring.
        - destruct (renewed back other i j); ring. }
    split; intro E.
    - rewrite E. field. exact Hd.
    - transitivity ((A i i * z i + w * s1 - w * s1) / A i i); [field; exact Hd|]. rewrite E. field. exact Hd.
  Qed.

  Lemma sweep_splitting n a A b h back other u x f w : sparse_square 0 n a A -> is_vec n b h -> is_vec n x f -> length u = n ->
    (forall i, (i < n)%nat -> A i i <> 0) ->
    exists x' z, sweep O dbg stray back other a u x b w = Ok x' /\ is_vec n x' z /\
      splitting n A h w (renewed back other) f z /\
      forall z', splitting n A h w (renewed back other) f z' -> forall i, (i < n)%nat -> z' i = z i.
  Proof using Fth.
    intros Ha Hb Hx Hu Hd. destruct (sweep_ok n a A b h back other u x f w Ha Hb Hx Hu Hd) as (x' & z & E & Hx' & Hz).
    exists x', z. split; auto. split; auto. split.
    - intros i Hi. apply relaxed_splitting; auto.
    - intros z' Hz'. apply (mix_unique n back other f z' z (relaxed O n A h w)); auto.
      + intros i p q Hi Hpq. apply relaxed_ext; auto.
      + intros i Hi. apply relaxed_splitting; auto.
  Qed.

  (** A combination of two systems with the same matrix. *)
  Lemma relaxed_lin n A h k w i f g c e p : (i < n)%nat -> A i i <> 0 -> (forall j, (j < n)%nat -> p j = c * f j + e * g j) ->
    relaxed O n A (fun i => c * h i + e * k i) w i p = c * relaxed O n A h w i f + e * relaxed O n A k w i g.
  Proof using Fth.
    intros Hi Hd Hp. unfold relaxed. rewrite Hp by auto.
    replace (sum n (fun j => if j =? i then 0 else A i j * p j)) with
      (c * sum n (fun j => if j =? i then 0 else A i j * f j) + e * sum n (fun j => if j =? i then 0 else A i j * g j)).
    - field. exact Hd.
    - rewrite <- sum_lin. apply asum_ext. intros j Hj. destruct (j =? i); [ring|]. rewrite Hp by auto. ring.
  Qed.

  Lemma sweep_lin n a A b h b' k b'' back other u u' u'' x f y g t w c e : sparse_square 0 n a A ->
    (forall i, (i < n)%nat -> A i i <> 0) -> is_vec n b h -> is_vec n b' k -> is_vec n b'' (fun i => c * h i + e * k i) ->
    is_vec n x f -> is_vec n y g -> is_vec n t (fun i => c * f i + e * g i) -> length u = n -> length u' = n -> length u'' = n ->
    exists x' f' y' g' t', sweep O dbg stray back other a u x b w = Ok x' /\ sweep O dbg stray back other a u' y b' w = Ok y' /\
      sweep O dbg stray back other a u'' t b'' w = Ok t' /\ is_vec n x' f' /\ is_vec n y' g' /\
      is_vec n t' (fun i => c * f' i + e * g' i).
  Proof using Fth.
    intros Ha Hd Hb Hb' Hb'' Hx Hy Ht Hu Hu' Hu''.
    destruct (sweep_ok n a A b h back other u x f w Ha Hb Hx Hu Hd) as (x' & f' & E & Hx' & Hf).
    destruct (sweep_ok n a A b' k back other u' y g w Ha Hb' Hy Hu' Hd) as (y' & g' & E' & Hy' & Hg).
    destruct (sweep_ok n a A b'' _ back other u'' t _ w Ha Hb'' Ht Hu'' Hd) as (t' & z & E'' & Ht' & Hz).
    exists x', f', y', g', t'. do 5 (split; auto).
    apply (sweep_value n a A b'' _ back other u'' t _ w t' _ Ha Hb'' Ht Hu'' Hd E'').
    intros i Hi. rewrite (relaxed_lin n A h k w i (mix back other f' f i) (mix back other g' g i) c e).
    - rewrite <- Hf, <- Hg by auto. reflexivity.
    - auto.
    - auto.
    - intros j Hj. destruct (renewed back other i j); reflexivity.
  Qed.

  (** Equations multiplied by [r], unknowns divided by [c]. *)
  Lemma sweep_scaled n a A a' A' b h b' h' r c back other u u' x f x' f' w :
    sparse_square 0 n a A -> sparse_square 0 n a' A' -> is_vec n b h -> is_vec n b' h' -> is_vec n x f -> is_vec n x' f' ->
    length u = n -> length u' = n -> (forall i, (i < n)%nat -> A i i <> 0 /\ r i <> 0 /\ c i <> 0) ->
    (forall i j, (i < n)%nat -> (j < n)%nat -> A' i j = r i * A i j * c j) -> (forall i, (i < n)%nat -> h' i = r i * h i) ->
    (forall i, (i < n)%nat -> f i = c i * f' i) ->
    exists y z y' z', sweep O dbg stray back other a u x b w = Ok y /\ sweep O dbg stray back other a' u' x' b' w = Ok y' /\
      is_vec n y z /\ is_vec n y' z' /\ forall i, (i < n)%nat -> z i = c i * z' i.
  Proof using Fth.
    intros Ha Ha' Hb Hb' Hx Hx' Hu Hu' Hd HA Hh Hf.
    assert (Hd' : forall i, (i < n)%nat -> A' i i <> 0).
    { intros i Hi E. destruct (Hd i Hi) as (D1 & D2 & D3). rewrite HA in E by auto.
      assert (E2 : r i * (A i i * c i) = 0) by (rewrite <- E; ring). apply (mul_zero O opp inv Fth) in E2; auto.
      apply (mul_zero O opp inv Fth) in E2; auto. }
    destruct (sweep_ok n a A b h back other u x f w Ha Hb Hx Hu (fun i H => proj1 (Hd i H))) as (y & z & E & Hy & Hz).
    destruct (sweep_ok n a' A' b' h' back other u' x' f' w Ha' Hb' Hx' Hu' Hd') as (y' & z' & E' & Hy' & Hz').
    exists y, z, y', z'. do 4 (split; auto).
    apply (mix_unique n back other f z (fun i => c i * z' i) (relaxed O n A h w)); auto.
    - intros i p q Hi Hpq. apply relaxed_ext; auto.
    - intros i Hi. rewrite (Hz' i Hi) at 1. destruct (Hd i Hi) as (D1 & D2 & D3). unfold relaxed.
      assert (Ei : renewed back other i i = false).
      { unfold renewed. destruct other, back; cbn [negb andb]; auto; apply Nat.ltb_irrefl. }
      rewrite Ei, HA, Hh, Hf by auto.
      set (s := sum n (fun j => if j =? i then 0 else A i j * (if renewed back other i j then c j * z' j else f j))).
      replace (sum n _) with (r i * s); [field; auto|]. unfold s. clear s.
      transitivity (r i * sum n (fun j => if j =? i then 0 else A i j * (if renewed back other i j then c j * z' j else f j)) + 0 * 0); [ring|].
      transitivity (sum n (fun j => r i * (if j =? i then 0 else A i j * (if renewed back other i j then c j * z' j else f j)) +
        0 * (fun _ => 0) j)).
      + rewrite (sum_lin n (r i) 0 _ (fun _ => 0)). ring.
      + apply asum_ext. intros j Hj. destruct (j =? i); [ring|]. rewrite HA by auto. destruct (renewed back other i j); [ring|].
        rewrite Hf by auto. ring.
  Qed.

  (* ---------------------------------------------------------------- the loops *)
  Definition other_of_method (m : method) : bool := match m with Jacobi => true | _ => false end.
  Definition factor_of (m : method) : S := match m with Sor => sor_factor O | _ => 1 end.

  Lemma step_sweep m a b x u : step_of O dbg stray m a b (x, u) =
    (do x' <- sweep O dbg stray false (other_of_method m) a u x b (factor_of m);
     Ok (x', if other_of_method m then x else u)).
  Proof using. destruct m; reflexivity. Qed.

  Lemma steps_lin m n a A b h b' k b'' c e : sparse_square 0 n a A -> (forall i, (i < n)%nat -> A i i <> 0) ->
    is_vec n b h -> is_vec n b' k -> is_vec n b'' (fun i => c * h i + e * k i) ->
    forall x f y g t u u' u'', is_vec n x f -> is_vec n y g -> is_vec n t (fun i => c * f i + e * g i) ->
    length u = n -> length u' = n -> length u'' = n ->
    forall q, exists x' f' y' g' t' v v' v'',
      times (step_of O dbg stray m a b) q (x, u) = Ok (x', v) /\ times (step_of O dbg stray m a b') q (y, u') = Ok (y', v') /\
      times (step_of O dbg stray m a b'') q (t, u'') = Ok (t', v'') /\
      is_vec n x' f' /\ is_vec n y' g' /\ is_vec n t' (fun i => c * f' i + e * g' i) /\
      length v = n /\ length v' = n /\ length v'' = n.
  Proof using Fth.
    intros Ha Hd Hb Hb' Hb'' x f y g t u u' u'' Hx Hy Ht Hu Hu' Hu''. induction q as [|q IH].
    - exists x, f, y, g, t, u, u', u''. cbn [times]. do 8 (split; auto).
    - destruct IH as (x1 & f1 & y1 & g1 & t1 & v & v' & v'' & E & E' & E'' & H1 & H2 & H3 & L & L' & L'').
      cbn [times]. rewrite E, E', E''. cbn [bind].
      destruct (sweep_lin n a A b h b' k b'' false (other_of_method m) v v' v'' x1 f1 y1 g1 t1 (factor_of m) c e
        Ha Hd Hb Hb' Hb'' H1 H2 H3 L L' L'') as (x2 & f2 & y2 & g2 & t2 & Q & Q' & Q'' & H4 & H5 & H6).
      rewrite !step_sweep, Q, Q', Q''. cbn [bind].
      exists x2, f2, y2, g2, t2. eexists. eexists. eexists. split; [reflexivity|]. split; [reflexivity|]. split; [reflexivity|].
      do 3 (split; auto). destruct (other_of_method m); auto. split; [apply H1|]. split; [apply H2|apply H3].
  Qed.

  Lemma iterate_lin m n a A b h b' k b'' c e : sparse_square 0 n a A -> (forall i, (i < n)%nat -> A i i <> 0) ->
    is_vec n b h -> is_vec n b' k -> is_vec n b'' (fun i => c * h i + e * k i) ->
    forall x f y g t u u' u'', is_vec n x f -> is_vec n y g -> is_vec n t (fun i => c * f i + e * g i) ->
    length u = n -> length u' = n -> length u'' = n ->
    forall q, exists x' f' y' g' t', iterate O dbg stray m q a u x b = Ok x' /\ iterate O dbg stray m q a u' y b' = Ok y' /\
      iterate O dbg stray m q a u'' t b'' = Ok t' /\ is_vec n x' f' /\ is_vec n y' g' /\
      is_vec n t' (fun i => c * f' i + e * g' i).
  Proof using Fth.
    intros Ha Hd Hb Hb' Hb'' x f y g t u u' u'' Hx Hy Ht Hu Hu' Hu'' q.
    destruct (steps_lin m n a A b h b' k b'' c e Ha Hd Hb Hb' Hb'' x f y g t u u' u'' Hx Hy Ht Hu Hu' Hu'' q)
      as (x' & f' & y' & g' & t' & v & v' & v'' & E & E' & E'' & H1 & H2 & H3 & _).
    exists x', f', y', g', t'. unfold iterate. rewrite E, E', E''. cbn [bind fst]. auto 10.
  Qed.

  (** A solution stays where it is. *)
  Lemma sweep_solution n a A b h back other u x f w : sparse_square 0 n a A -> is_vec n b h -> is_vec n x f -> length u = n ->
    (forall i, (i < n)%nat -> A i i <> 0) -> solves O n A f h -> sweep O dbg stray back other a u x b w = Ok x.
  Proof using Fth.
    intros Ha Hb Hx Hu Hd Hs. destruct (sweep_ok n a A b h back other u x f w Ha Hb Hx Hu Hd) as (x' & z & E & Hx' & Hz).
    rewrite E. f_equal. apply (is_vec_eq n _ _ _ _ Hx' Hx).
    apply (mix_unique n back other f z f (relaxed O n A h w)); auto.
    - intros i p q Hi Hpq. apply relaxed_ext; auto.
    - intros i Hi. rewrite (relaxed_ext O n A h w i _ f Hi); [|intros j Hj; destruct (renewed back other i j); reflexivity].
      unfold relaxed. rewrite <- (Hs i Hi), (sum_split O opp inv Fth n i (fun j => A i j * f j) Hi). field. apply Hd, Hi.
  Qed.

  (** Start and constant vector moved by a vector and its product. *)
  Lemma sweep_shift n a A b h b' d back other u u' x f x' w : sparse_square 0 n a A -> (forall i, (i < n)%nat -> A i i <> 0) ->
    is_vec n b h -> is_vec n b' (fun i => h i + sum n (fun j => A i j * d j)) ->
    is_vec n x f -> is_vec n x' (fun i => f i + d i) -> length u = n -> length u' = n ->
    exists y z y', sweep O dbg stray back other a u x b w = Ok y /\ sweep O dbg stray back other a u' x' b' w = Ok y' /\
      is_vec n y z /\ is_vec n y' (fun i => z i + d i).
  Proof using Fth.
    intros Ha Hd Hb Hb' Hx Hx' Hu Hu'.
    assert (Hk : is_vec n (map (fun i => sum n (fun j => A i j * d j)) (seq 0%nat n)) (fun i => sum n (fun j => A i j * d j)))
      by apply is_vec_map.
    assert (Hdv : is_vec n (map d (seq 0%nat n)) d) by apply is_vec_map.
    destruct (sweep_lin n a A b h _ _ b' back other u u u' x f (map d (seq 0%nat n)) d x' w 1 1 Ha Hd Hb Hk) as
      (y & z & y2 & g & y' & E & E2 & E' & Hy & Hy2 & Hy'); auto.
    - apply (is_vec_ext _ _ _ _ Hb'). intros. ring.
    - apply (is_vec_ext _ _ _ _ Hx'). intros. ring.
    - rewrite (sweep_solution n a A _ _ back other u _ d w Ha Hk Hdv Hu Hd) in E2 by (intros i Hi; reflexivity).
      injection E2 as <-. exists y, z, y'. do 3 (split; auto). apply (is_vec_ext _ _ _ _ Hy'). intros i Hi.
      rewrite (is_vec_inj n _ _ _ Hdv Hy2 i Hi). ring.
  Qed.

  Lemma fold_max_ext n (F G : nat -> S) : (forall i, (i < n)%nat -> F i = G i) -> fold_max O n F = fold_max O n G.
  Proof using. induction n as [|n IH]; intro H; cbn [fold_max]; [reflexivity|]. rewrite IH, H by auto. reflexivity. Qed.

  Lemma residual_shift n a A b h b' d x f x' : sparse_square 0 n a A ->
    is_vec n b h -> is_vec n b' (fun i => h i + sum n (fun j => A i j * d j)) ->
    is_vec n x f -> is_vec n x' (fun i => f i + d i) ->
    compute_residual O dbg stray a x' b' = compute_residual O dbg stray a x b.
  Proof using Fth.
    intros (Hw & Hr & Hc & HA) Hb Hb' Hx Hx'. destruct (Nat.eq_dec n 0) as [->|Hn'].
    { assert (b = []) as -> by (apply length_zero_iff_nil, Hb). assert (b' = []) as -> by (apply length_zero_iff_nil, Hb').
      assert (x = []) as -> by (apply length_zero_iff_nil, Hx). assert (x' = []) as -> by (apply length_zero_iff_nil, Hx').
      reflexivity. }
    assert (Hn : dbg = true -> n <> 0%nat) by auto. destruct Hw as (rs & Hs & Ho). rewrite Hc in Ho.
    assert (L : length rs = n) by (rewrite <- Hr; symmetry; apply srepr_rows, Hs).
    rewrite (residual_ok O dbg stray n a b rs h x f Hs Ho L Hb Hx Hc Hn).
    rewrite (residual_ok O dbg stray n a b' rs _ x' _ Hs Ho L Hb' Hx' Hc Hn).
    assert (E : forall i, (i < n)%nat -> row_square O (nth i rs []) (h i + sum n (fun j => A i j * d j)) (fun i => f i + d i) =
      row_square O (nth i rs []) (h i) f).
    { intros i Hi. unfold row_square.
      rewrite !(proj1 (row_sums O (semi_ring O opp inv Fth) n a rs A i _ Hs Ho L Hi HA)).
      replace (sum n (fun j => A i j * (f j + d j))) with (sum n (fun j => A i j * f j) + sum n (fun j => A i j * d j)).
      - ring.
      - rewrite <- sum_plus. apply asum_ext. intros. ring. }
    rewrite (asum_ext _ _ n _ _ E), (fold_max_ext n _ _ E). reflexivity.
  Qed.

  Definition moved n (d : nat -> S) (r r' : list S * conv_data S) : Prop :=
    snd r' = snd r /\ exists z, is_vec n (fst r) z /\ is_vec n (fst r') (fun i => z i + d i).

  Lemma loop_shift M m n a A b h b' d lim : sparse_square 0 n a A -> (forall i, (i < n)%nat -> A i i <> 0) ->
    is_vec n b h -> is_vec n b' (fun i => h i + sum n (fun j => A i j * d j)) ->
    forall fuel x f x' u u' cd, is_vec n x f -> is_vec n x' (fun i => f i + d i) ->
    (other_of_method m = true -> length u = n /\ length u' = n) ->
    both (fun r r' => moved n d (fst (fst r), snd r) (fst (fst r'), snd r'))
      (solve_loop O M dbg stray (step_of O dbg stray m a b) fuel lim a b (x, u) cd)
      (solve_loop O M dbg stray (step_of O dbg stray m a b') fuel lim a b' (x', u') cd).
  Proof using Fth.
    intros Ha Hd Hb Hb'. induction fuel as [|fuel IH]; intros x f x' u u' cd Hx Hx' Hu; cbn [solve_loop]; [exact I|].
    destruct (is_converged O lim cd).
    - cbn. split; auto. exists f. auto.
    - rewrite !step_sweep.
      assert (Es : exists y z y', sweep O dbg stray false (other_of_method m) a u x b (factor_of m) = Ok y /\
        sweep O dbg stray false (other_of_method m) a u' x' b' (factor_of m) = Ok y' /\ is_vec n y z /\ is_vec n y' (fun i => z i + d i)).
      { destruct (other_of_method m) eqn:Em.
        - destruct (Hu eq_refl) as [Hl Hl']. apply (sweep_shift n a A b h b' d false true u u' x f x'); auto.
        - assert (Z : length (repeat 0 n) = n) by apply repeat_length.
          destruct (sweep_shift n a A b h b' d false false (repeat 0 n) (repeat 0 n) x f x' (factor_of m)) as (y & z & y' & H); auto.
          exists y, z, y'. exact H. }
      destruct Es as (y & z & y' & -> & -> & Hy & Hy'). cbn [bind fst].
      unfold update. rewrite (residual_shift n a A b h b' d y z y' Ha Hb Hb' Hy Hy').
      destruct (compute_residual O dbg stray a y b) as [r| | |]; cbn [bind]; try exact I. apply (IH y z y'); auto.
      intro Em. rewrite Em. split; [apply Hx|apply Hx'].
  Qed.

  Lemma solve_shift M m n a A b h b' d lim fuel x f x' u u' : sparse_square 0 n a A -> (forall i, (i < n)%nat -> A i i <> 0) ->
    is_vec n b h -> is_vec n b' (fun i => h i + sum n (fun j => A i j * d j)) ->
    is_vec n x f -> is_vec n x' (fun i => f i + d i) ->
    both (moved n d) (run_method O M dbg stray m fuel lim a u x b) (run_method O M dbg stray m fuel lim a u' x' b').
  Proof using Fth.
    intros Ha Hd Hb Hb' Hx Hx'.
    assert (Hr : s_rows a = n) by apply Ha.
      destruct m; unfold run_method, jacobi_solve, gauss_seidel_solve, sor_solve.
      + pose proof (loop_shift M Jacobi n a A b h b' d lim Ha Hd Hb Hb' fuel x f x' (vresize u (s_rows a) 0) (vresize u' (s_rows a) 0)
          (conv_default O) Hx Hx') as L. specialize (L (fun _ => conj (eq_trans (vresize_length _ _ _) Hr) (eq_trans (vresize_length _ _ _) Hr))).
        cbn [step_of] in L. destruct (solve_loop _ _ _ _ _ _ _ _ b _ _); destruct (solve_loop _ _ _ _ _ _ _ _ b' _ _); exact L.
      + pose proof (loop_shift M Seidel n a A b h b' d lim Ha Hd Hb Hb' fuel x f x' [] []
          (conv_default O) Hx Hx' (fun H => False_ind _ (diff_false_true H))) as L. cbn [step_of] in L.
        destruct (solve_loop _ _ _ _ _ _ _ _ b _ _); destruct (solve_loop _ _ _ _ _ _ _ _ b' _ _); exact L.
      + pose proof (loop_shift M Sor n a A b h b' d lim Ha Hd Hb Hb' fuel x f x' [] []
          (conv_default O) Hx Hx' (fun H => False_ind _ (diff_false_true H))) as L. cbn [step_of] in L.
        destruct (solve_loop _ _ _ _ _ _ _ _ b _ _); destruct (solve_loop _ _ _ _ _ _ _ _ b' _ _); exact L.
  Qed.
End Split.

(* ------------------------------------------------------------------ convergence over the reals *)
Section Real.
  Variables (dbg : bool) (stray : option nat).
  Local Open Scope R_scope.

  (** The iterates of a solver from [x] tend to [xs]. *)
  Definition tends m n a (b x : list R) (xs : nat -> R) : Prop :=
    forall eps, 0 < eps -> exists K, forall k, (K <= k)%nat -> forall u, length u = n ->
      exists y g, iterate rops dbg stray m k a u x b = Ok y /\ is_vec n y g /\ forall i, (i < n)%nat -> Rabs (g i - xs i) < eps.

  Lemma tends_lin m n a A b h b' k b'' c e x f y g t xs ys : sparse_square 0 n a A -> (forall i, (i < n)%nat -> A i i <> 0) ->
    is_vec n b h -> is_vec n b' k -> is_vec n b'' (fun i => c * h i + e * k i) ->
    is_vec n x f -> is_vec n y g -> is_vec n t (fun i => c * f i + e * g i) ->
    tends m n a b x xs -> tends m n a b' y ys -> tends m n a b'' t (fun i => c * xs i + e * ys i).
  Proof.
    intros Ha Hd Hb Hb' Hb'' Hx Hy Ht Cx Cy eps He.
    set (s := Rabs c + Rabs e + 1). assert (Hs : 0 < s) by (unfold s; pose proof (Rabs_pos c); pose proof (Rabs_pos e); lra).
    assert (He' : 0 < eps / s) by (apply Rdiv_lt_0_compat; auto).
    destruct (Cx _ He') as (K1 & H1). destruct (Cy _ He') as (K2 & H2). exists (Nat.max K1 K2). intros q Hq u Hu.
    destruct (H1 q ltac:(lia) u Hu) as (x1 & f1 & E1 & V1 & B1). destruct (H2 q ltac:(lia) u Hu) as (y1 & g1 & E2 & V2 & B2).
    destruct (iterate_lin rops Ropp Rinv dbg stray R_field m n a A b h b' k b'' c e Ha Hd Hb Hb' Hb'' x f y g t u u u Hx Hy Ht Hu Hu Hu q)
      as (x2 & f2 & y2 & g2 & t2 & Q1 & Q2 & Q3 & W1 & W2 & W3).
    rewrite E1 in Q1. injection Q1 as <-. rewrite E2 in Q2. injection Q2 as <-.
    exists t2, (fun i => c * f2 i + e * g2 i). split; auto. split; [exact W3|]. intros i Hi.
    rewrite <- (is_vec_inj n _ _ _ V1 W1 i Hi), <- (is_vec_inj n _ _ _ V2 W2 i Hi).
    specialize (B1 i Hi). specialize (B2 i Hi).
    replace (c * f1 i + e * g1 i - (c * xs i + e * ys i)) with (c * (f1 i - xs i) + e * (g1 i - ys i)) by ring.
    eapply Rle_lt_trans; [apply Rabs_triang|]. rewrite !Rabs_mult.
    replace eps with (s * (eps / s)) by (field; lra). unfold s at 1.
    pose proof (Rmult_le_compat_l (Rabs c) _ _ (Rabs_pos c) (Rlt_le _ _ B1)).
    pose proof (Rmult_le_compat_l (Rabs e) _ _ (Rabs_pos e) (Rlt_le _ _ B2)). nra.
  Qed.

  Lemma iterate_solution m n a A b h u x f k : sparse_square 0 n a A -> (forall i, (i < n)%nat -> A i i <> 0) ->
    is_vec n b h -> is_vec n x f -> length u = n -> solves rops n A f h -> iterate rops dbg stray m k a u x b = Ok x.
  Proof.
    intros Ha Hd Hb Hx Hu Hs. unfold iterate.
    assert (E : exists v, times (step_of rops dbg stray m a b) k (x, u) = Ok (x, v) /\ length v = n).
    { induction k as [|k (v & E & Hv)]; [exists u; auto|]. cbn [times]. rewrite E. cbn [bind]. rewrite step_sweep.
      rewrite (sweep_solution rops Ropp Rinv dbg stray R_field n a A b h _ _ v x f _ Ha Hb Hx Hv Hd Hs). cbn [bind].
      eexists. split; [reflexivity|]. destruct (other_of_method m); auto. apply Hx. }
    destruct E as (v & -> & _). reflexivity.
  Qed.

  Lemma tends_solution m n a A b h x f : sparse_square 0 n a A -> (forall i, (i < n)%nat -> A i i <> 0) ->
    is_vec n b h -> is_vec n x f -> solves rops n A f h -> tends m n a b x f.
  Proof.
    intros Ha Hd Hb Hx Hs eps He. exists 0%nat. intros k _ u Hu. exists x, f.
    split; [apply (iterate_solution m n a A b h u x f k); auto|]. split; auto. intros i Hi.
    replace (f i - f i) with 0 by ring. rewrite Rabs_R0. exact He.
  Qed.

  Lemma tends_ext m n a b x xs ys : (forall i, (i < n)%nat -> xs i = ys i) -> tends m n a b x xs -> tends m n a b x ys.
  Proof.
    intros E C eps He. destruct (C eps He) as (K & H). exists K. intros k Hk u Hu.
    destruct (H k Hk u Hu) as (y & g & E1 & V & B). exists y, g. split; auto. split; auto. intros i Hi. rewrite <- E; auto.
  Qed.

  Definition zeros n : list R := repeat 0 n.

  Lemma zeros_vec n : is_vec n (zeros n) (fun _ => 0).
  Proof. split; [apply repeat_length|]. intros i Hi. apply nth_error_repeat, Hi. Qed.

  (** The constant vector does not decide about convergence. *)
  Lemma tends_rhs m n a A b h x f e xs : sparse_square 0 n a A -> (forall i, (i < n)%nat -> A i i <> 0) ->
    is_vec n b h -> is_vec n x f -> solves rops n A xs h -> is_vec n e (fun i => f i - xs i) ->
    (tends m n a b x xs <-> tends m n a (zeros n) e (fun _ => 0)).
  Proof.
    intros Ha Hd Hb Hx Hs He.
    assert (Hv : is_vec n (map xs (seq 0%nat n)) xs) by apply is_vec_map.
    assert (C : tends m n a b (map xs (seq 0%nat n)) xs) by (apply (tends_solution m n a A b h); auto).
    split; intro H.
    - apply (tends_ext m n a _ _ (fun i => 1 * xs i + -1 * xs i)); [intros; ring|].
      apply (tends_lin m n a A b h b h (zeros n) 1 (-1) x f (map xs (seq 0%nat n)) xs e xs xs Ha Hd Hb Hb); auto.
      + apply (is_vec_ext _ _ _ _ (zeros_vec n)). intros. ring.
      + apply (is_vec_ext _ _ _ _ He). intros. ring.
    - apply (tends_ext m n a _ _ (fun i => 1 * 0 + 1 * xs i)); [intros; ring|].
      apply (tends_lin m n a A (zeros n) (fun _ => 0) b h b 1 1 e (fun i => f i - xs i) (map xs (seq 0%nat n)) xs x (fun _ => 0) xs Ha Hd (zeros_vec n) Hb); auto.
      + apply (is_vec_ext _ _ _ _ Hb). intros. ring.
      + apply (is_vec_ext _ _ _ _ Hx). intros. ring.
  Qed.

  Definition unit_vector n (k : nat) : list R := map (fun i => if i =? k then 1 else 0) (seq 0%nat n).

  (** Convergence from the unit vectors is convergence from everywhere. *)
  Lemma tends_units m n a A : sparse_square 0 n a A -> (forall i, (i < n)%nat -> A i i <> 0) ->
    (forall k, (k < n)%nat -> tends m n a (zeros n) (unit_vector n k) (fun _ => 0)) ->
    forall b h x xs, is_vec n b h -> length x = n -> solves rops n A xs h ->
      tends m n a b x xs /\ forall ys, solves rops n A ys h -> forall i, (i < n)%nat -> ys i = xs i.
  Proof.
    intros Ha Hd Hk.
    assert (Hall : forall e g, is_vec n e g -> tends m n a (zeros n) e (fun _ => 0)).
    { assert (Hp : forall q, (q <= n)%nat -> forall e g, is_vec n e g -> (forall i, (q <= i < n)%nat -> g i = 0) ->
        tends m n a (zeros n) e (fun _ => 0)).
      { induction q as [|q IH]; intros Hq e g He Hz.
        - apply (tends_solution m n a A (zeros n) (fun _ => 0)); auto using zeros_vec.
          + apply (is_vec_ext _ _ _ _ He). intros. apply Hz. lia.
          + intros i Hi. cbn [rops sc_zero sc_add sc_mul]. rewrite (asum_ext _ _ n _ (fun _ => 0)) by (intros; ring).
            apply (sum_zero rops Ropp Rinv R_field).
        - apply (tends_ext m n a _ _ (fun i => 1 * 0 + g q * 0)); [intros; ring|].
          apply (tends_lin m n a A (zeros n) (fun _ => 0) (zeros n) (fun _ => 0) (zeros n) 1 (g q)
            (map (fun i => if (i <? q)%nat then g i else 0) (seq 0%nat n)) (fun i => if (i <? q)%nat then g i else 0)
            (unit_vector n q) (fun i => if (i =? q)%nat then 1 else 0) e); auto using zeros_vec.
          + apply (is_vec_ext _ _ _ _ (zeros_vec n)). intros. ring.
          + apply is_vec_map.
          + apply is_vec_map.
          + apply (is_vec_ext _ _ _ _ He). intros i Hi. destruct (Nat.ltb_spec i q), (Nat.eqb_spec i q); try lia; subst; try ring.
            rewrite (Hz i) by lia. ring.
          + apply (IH ltac:(lia) _ (fun i => if (i <? q)%nat then g i else 0)); [apply is_vec_map|].
            intros i Hi. destruct (Nat.ltb_spec i q); [lia|reflexivity]. }
      intros e g He. apply (Hp n ltac:(lia) e g He). intros. lia. }
    intros b h x xs Hb Lx Hs.
    assert (Ht : forall x f, is_vec n x f -> tends m n a b x xs).
    { intros y f Hy. apply (tends_rhs m n a A b h y f (map (fun i => f i - xs i) (seq 0%nat n)) xs); auto using is_vec_map.
      apply (Hall _ (fun i => f i - xs i)), is_vec_map. }
    split.
    - apply (Ht x (fun i => nth i x 0)). rewrite <- Lx. apply is_vec_self.
    - intros ys Hys i Hi.
      assert (Hv : is_vec n (map ys (seq 0%nat n)) ys) by apply is_vec_map.
      destruct (Req_dec (ys i) (xs i)) as [E|E]; auto. exfalso.
      destruct (Ht _ _ Hv (Rabs (ys i - xs i))) as (K & H); [apply Rabs_pos_lt; lra|].
      destruct (H K ltac:(lia) (repeat 0 n) (repeat_length _ _)) as (y & g & E1 & V & B).
      rewrite (iterate_solution m n a A b h _ _ ys K) in E1; auto using repeat_length. injection E1 as <-.
      specialize (B i Hi). rewrite <- (is_vec_inj n _ _ _ Hv V i Hi) in B. lra.
  Qed.
End Real.

(* ------------------------------------------------------------------ examples *)
(** Dominant systems are an instance of convergence from the unit vectors. *)
Lemma dominant_units dbg stray n a A k : sparse_square 0%R n a A -> dominant n A -> k < n ->
  tends dbg stray Jacobi n a (zeros n) (unit_vector n k) (fun _ => 0%R).
Proof.
  intros Ha HD Hk eps He.
  destruct (dominant_converges dbg stray n a A (zeros n) (fun _ => 0%R) Ha (zeros_vec n) HD) as (xs & Hs & Hu & Hc).
  assert (E : forall i, i < n -> xs i = 0%R).
  { intros i Hi. symmetry. apply (Hu (fun _ => 0%R)); auto. intros j Hj. cbn [rops sc_zero sc_add sc_mul].
    rewrite (asum_ext _ _ n _ (fun _ => 0%R)) by (intros; ring). apply (sum_zero rops Ropp Rinv R_field). }
  destruct (Hc (unit_vector n k) ltac:(unfold unit_vector; rewrite map_length, seq_length; reflexivity) eps He) as (K & H).
  exists K. intros j Hj u Lu. destruct (proj1 (H j Hj) u Lu) as (x' & w' & f' & E' & V & B). exists x', f'.
  unfold iterate. cbn [step_of]. rewrite E'. cbn [bind fst]. split; auto. split; auto.
  intros i Hi. rewrite <- (E i Hi). apply B, Hi.
Qed.

Lemma two_dominant : dominant 2 (fun i j => lookup 0%R (nth i (two_rows 4 1 2 3)%R []) j).
Proof.
  intros [|[|i]] Hi; try lia; cbn [two_rows nth lookup asum Nat.eqb fst snd rsum]; unfold rsum; cbn;
  rewrite ?(Rabs_right 4), ?(Rabs_right 3), ?(Rabs_right 2), ?(Rabs_right 1) by lra; lra.
Qed.
