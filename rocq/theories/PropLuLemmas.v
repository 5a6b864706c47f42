(** Call histories of the direct solver, aliasing, shapes and NaN: C53, C70 - C74. *)
From Coq Require Import ZArith Reals Lra Field QArith Qcanon SpecFloat.
From Verif Require Import Base ListFacts DenseModel DenseFacts ScalarModel GeometryReal LuModel LuFacts LuField LuReal.
Local Open Scope nat_scope.

Section History.
  Context {S : Type}.
  Variables (O : sops S) (dbg pivot : bool).

  (** The public calls on a solver object. *)
  Inductive lu_call : Type :=
  | CInit (type_ok config_pivot : bool) (tol : S)
  | CFactorise (a : list (list S))
  | CSolve (x : list S) (b : option (list S)).

  (** Runs the calls on a new object. The second component is what the last call of factorise returned. *)
  Fixpoint run (calls : list lu_call) (st : lu_state S) (last : option bool) : res (lu_state S * option bool) :=
    match calls with
    | [] => Ok (st, last)
    | CInit t p tol :: r => do st <- lu_initialise pivot st t p tol; run r st last
    | CFactorise a :: r => do sb <- factorise O dbg pivot st a; run r (fst sb) (Some (snd sb))
    | CSolve x b :: r => do _ <- lu_solve O dbg pivot st x b; run r st last
    end.

  Lemma factorise_flag st a st' ok : factorise O dbg pivot st a = Ok (st', ok) -> lu_factorised st' = ok.
  Proof using.
    unfold factorise. destruct (FOR _ _ _) as [[[o m] p]| | |]; try discriminate. cbn [bind].
    intro H. injection H as <- <-. reflexivity.
  Qed.

  Lemma run_flag calls : forall st last st' last',
    (lu_factorised st = true <-> last = Some true) -> run calls st last = Ok (st', last') ->
    (lu_factorised st' = true <-> last' = Some true).
  Proof using.
    induction calls as [|[t p tol|a|x b] calls IH]; intros st last st' last' H E; cbn [run] in E.
    - injection E as <- <-. exact H.
    - unfold lu_initialise in E. destruct t, (Bool.eqb p pivot); cbn in E; try discriminate.
      apply (IH _ last _ _) in E; auto.
    - destruct (factorise O dbg pivot st a) as [[s ok]| | |] eqn:F; try discriminate. cbn [bind fst snd] in E.
      apply (IH _ _ _ _) in E; auto. rewrite (factorise_flag _ _ _ _ F). destruct ok; split; congruence.
    - destruct (lu_solve O dbg pivot st x b); try discriminate. cbn [bind] in E. apply (IH _ _ _ _ H E).
  Qed.

  Lemma unfactorised calls st last : run calls (lu_default O) None = Ok (st, last) -> last <> Some true ->
    forall x b, length (other_of x b) = m_rows (lu_matrix st) \/ dbg = false ->
    lu_solve O dbg pivot st x b = Ok (x, conv_default O).
  Proof using.
    intros E Hl x b Hs. assert (F : lu_factorised st = false).
    { assert (P : lu_factorised (lu_default O) = true <-> @None bool = Some true) by (cbn; split; discriminate).
      pose proof (run_flag calls _ _ _ _ P E) as [H _].
      destruct (lu_factorised st); auto. exfalso. apply Hl. auto. }
    unfold lu_solve. rewrite F. rewrite assert_ok'; [reflexivity|].
    intro D. destruct Hs as [->|]; [apply Nat.eqb_refl|congruence].
  Qed.

  (** The other direction: after a successful factorisation convergence is claimed. *)
  Lemma factorised_claims calls st last : run calls (lu_default O) None = Ok (st, last) -> last = Some true ->
    forall x b x' d, lu_solve O dbg pivot st x b = Ok (x', d) -> cd_converged d = true /\ cd_iteration d = 1.
  Proof using.
    intros E Hl x b x' d. assert (F : lu_factorised st = true).
    { assert (P : lu_factorised (lu_default O) = true <-> @None bool = Some true) by (cbn; split; discriminate).
      pose proof (run_flag calls _ _ _ _ P E) as [_ H]. auto. }
    unfold lu_solve. rewrite F. destruct (ASSERT_DEBUG _ _); try discriminate. cbn [bind].
    destruct (lu_forward _ _ _ _ _); try discriminate. cbn [bind].
    destruct (lu_backward _ _ _); try discriminate. cbn [bind]. intro H. injection H as <- <-. auto.
  Qed.

  (** A matrix with more columns than rows: the pivot search leaves the matrix. *)
  Lemma wide_undef st a r c A : tol_default O dbg -> is_mat r c a A -> 0 < r < c ->
    factorise O dbg true st a = Undef.
  Proof using.
    clear pivot. intros T Ha Hr. unfold factorise. rewrite (is_mat_rows _ _ _ _ Ha).
    assert (E : forall p, lu_round O dbg true (lu_tolerance st) 0 (true, a, p) = Undef).
    { intro p. unfold lu_round, lu_pivot, lu_search. rewrite (is_mat_cols _ _ _ _ Ha) by lia.
      rewrite Nat.sub_0_r. replace c with (r + Datatypes.S (c - r - 1)) by lia.
      rewrite seq_app, forM_app.
      match goal with |- context[forM (seq 0 r) ?F ?s] =>
        destruct (forM_seq_inv (fun _ _ => True) 0 r F s) as (s' & Es & _); auto end.
      - intros i s Hi _. rewrite (is_mat_get _ _ _ _ _ _ Ha) by lia. cbn [bind].
        destruct (nearly_total O dbg (sc_abs O (A i 0)) (fst s) T) as (gt & ->). cbn [bind]. eauto.
      - rewrite Es. cbn [bind seq forM Nat.add].
        assert (Eg : mget a r 0 = Undef).
        { unfold mget. rewrite vget_ge; [reflexivity|]. rewrite (proj1 Ha). auto. }
        rewrite Eg. reflexivity. }
    destruct r as [|r]; [lia|]. unfold FOR. cbn [seq forM]. rewrite E. reflexivity.
  Qed.
End History.

(** *** Over the rationals, for examples *)

Definition Qcltb (x y : Qc) : bool := negb (Qle_bool y x).
Definition qops : sops Qc := mkOps Qc (Q2Qc 0) (Q2Qc 1) Qcplus Qcminus Qcmult Qcdiv
  (fun x => if Qcltb x (Q2Qc 0) then Qcopp x else x) (fun x => x) Qcltb
  (fun x y => Qle_bool x y) (fun x y => Qeq_bool x y) (fun x => Qeq_bool x 0)
  (fun z => Q2Qc (inject_Z z)) (Q2Qc (1 # 4503599627370496)) (Q2Qc (inject_Z (2 ^ 1024 - 2 ^ 971))).

Lemma qops_field : field_theory (sc_zero qops) (sc_one qops) (sc_add qops) (sc_mul qops) (sc_sub qops)
  Qcopp (sc_div qops) Qcinv eq.
Proof. exact Qcft. Qed.

Lemma qops_tol dbg : tol_default qops dbg.
Proof. intros _. split; vm_compute; reflexivity. Qed.

(** *** Over the reals *)

Lemma factorise_solves_R dbg pivot n st a A st' : (0 < lu_tolerance st)%R ->
  is_mat n n a A -> factorise rops dbg pivot st a = Ok (st', true) ->
  forall x b B, is_vec n b B ->
  exists x' d z, lu_solve rops dbg pivot st' x (Some b) = Ok (x', d) /\ cd_converged d = true /\
    is_vec n x' z /\
    (forall i, i < n -> rsum n (fun j => A i j * z j)%R = B i) /\
    (forall w, (forall i, i < n -> rsum n (fun j => A i j * w j)%R = B i) -> forall i, i < n -> w i = z i).
Proof.
  intros Ht Ha E x b B Hb.
  destruct (factorise_solves rops Ropp Rinv R_field dbg pivot n st a A st' (R_tol_default dbg)
    (R_refuses_zero _ Ht) Ha E x (Some b) B Hb) as (x' & z & Es & Hx & HS & HU); [discriminate|].
  exists x'. eexists. exists z. split; [exact Es|]. auto.
Qed.

(** In place without pivoting. *)
Lemma in_place_R dbg n st a A st' : (0 < lu_tolerance st)%R ->
  is_mat n n a A -> factorise rops dbg false st a = Ok (st', true) ->
  forall x B, is_vec n x B ->
  exists x' d z, lu_solve rops dbg false st' x None = Ok (x', d) /\ cd_converged d = true /\
    is_vec n x' z /\ (forall i, i < n -> rsum n (fun j => A i j * z j)%R = B i).
Proof.
  intros Ht Ha E x B Hb.
  destruct (factorise_solves rops Ropp Rinv R_field dbg false n st a A st' (R_tol_default dbg)
    (R_refuses_zero _ Ht) Ha E x None B Hb) as (x' & z & Es & Hx & HS & HU); [reflexivity|].
  exists x'. eexists. exists z. split; [exact Es|]. auto.
Qed.

(** In place with pivoting: the permuted entries are overwritten before they are read. *)
Definition q (z : Z) : Qc := Q2Qc (inject_Z z).

Lemma in_place_pivot_wrong : exists st',
  factorise qops true true (lu_default qops) [[q 0; q 1]; [q 1; q 0]] = Ok (st', true) /\
  lu_solve qops true true st' [] (Some [q 1; q 2]) =
    Ok ([q 2; q 1], mkConv true 1 (sc_max qops) (sc_max qops) (sc_max qops) (sc_max qops) (sc_max qops) (sc_max qops)) /\
  lu_solve qops true true st' [q 1; q 2] None =
    Ok ([q 2; q 2], mkConv true 1 (sc_max qops) (sc_max qops) (sc_max qops) (sc_max qops) (sc_max qops) (sc_max qops)).
Proof. eexists. vm_compute. split; [reflexivity|]. split; reflexivity. Qed.

(** A regular matrix that is refused because its element is below the tolerance. *)
Lemma small_refused dbg pivot (t : R) : (0 < t < / 2 ^ 46)%R ->
  exists st', factorise rops dbg pivot (lu_default rops) [[t]] = Ok (st', false).
Proof.
  intro Ht.
  assert (Ha : is_mat 1 1 [[t]] (fun _ _ => t)).
  { split; [reflexivity|]. intros i Hi. exists [t]. split; [destruct i; [reflexivity|lia]|].
    split; [reflexivity|]. intros j Hj. destruct j; [reflexivity|lia]. }
  unfold factorise. cbn [m_rows m_cols length lu_default lu_pivots]. unfold FOR. cbn [seq forM]. unfold lu_round.
  destruct (pivot_ok rops dbg pivot 1 [[t]] _ (if pivot then [0] else []) (fun _ => 0) 0
              (R_tol_default dbg) Ha) as (k & m' & p' & E & Hk & Hm & _).
  - intros ->. split; [reflexivity|]. intros i Hi. destruct i; [reflexivity|lia].
  - lia.
  - rewrite E. cbn [bind]. rewrite (is_mat_get _ _ _ _ _ _ Hm) by lia. cbn [bind].
    assert (L : sc_lt rops (sc_abs rops t) (lu_tolerance (lu_default rops)) = true).
    { apply Rltb_true. cbn [rops sc_abs]. rewrite Rabs_pos_eq by lra.
      unfold lu_default. cbn [lu_tolerance]. unfold default_absolute. cbn [rops sc_mul sc_of_Z sc_eps].
      replace (64 * / 2 ^ 52)%R with (/ 2 ^ 46)%R; [lra|].
      rewrite two52. replace (2 ^ 46)%R with 70368744177664%R by ring. field. }
    cbn [lu_default] in *. rewrite L. cbn [bind]. eauto.
Qed.

(** A regular matrix refused without pivoting. *)
Lemma no_pivot_refused : exists st',
  factorise qops true false (lu_default qops) [[q 0; q 1]; [q 1; q 0]] = Ok (st', false).
Proof. eexists. vm_compute. reflexivity. Qed.

(** More rows than columns. *)
Lemma tall_undef : factorise qops true false (lu_default qops) [[q 1]; [q 1]] = Undef.
Proof. vm_compute. reflexivity. Qed.

(** NaN passes the check of the pivots. *)
Lemma nan_accepted : exists st' d,
  factorise fops true true (lu_default fops) [[S754_nan]] = Ok (st', true) /\
  lu_solve fops true true st' [] (Some [f_of_Z 1]) = Ok ([S754_nan], d) /\ cd_converged d = true.
Proof. do 2 eexists. split; [vm_compute; reflexivity|]. split; [vm_compute; reflexivity|vm_compute; reflexivity]. Qed.

(** A finite regular system with an infinite solution: 2^-45 is accepted as pivot, 2^1000 / 2^-45 overflows. *)
Lemma overflow_accepted : exists st' d,
  factorise fops true true (lu_default fops) [[S754_finite false 4503599627370496 (-97)]] = Ok (st', true) /\
  lu_solve fops true true st' [] (Some [S754_finite false 4503599627370496 948]) = Ok ([S754_infinity false], d) /\
  cd_converged d = true.
Proof. do 2 eexists. split; [vm_compute; reflexivity|]. split; [vm_compute; reflexivity|vm_compute; reflexivity]. Qed.
