(** The iterative solvers and the choice of a solver: lemmas and examples for C54 to C61 and C75 to C78. *)
From Coq Require Import ZArith Reals Lra Field Lia SpecFloat QArith Qcanon.
From Verif Require Import Base ListFacts Csr DenseModel DenseFacts ScalarModel GeometryReal SparseModel SparseSpec
  SparseFacts SparseMul LuModel LuFacts LuField LuReal PropLuLemmas IterModel IterFacts IterLoop IterField IterReal.
Close Scope Q_scope. Close Scope Qc_scope. Open Scope nat_scope.

(** [x] solves the system of the matrix [A] and the constant vector [h]. *)
Definition solves {S : Type} (O : sops S) (n : nat) (A : nat -> nat -> S) (x h : nat -> S) : Prop :=
  forall i, i < n -> asum (sc_zero O) (sc_add O) n (fun j => sc_mul O (A i j) (x j)) = h i.

(* ------------------------------------------------------------------ C54 *)
Lemma sweeps_fixed {S} (O : sops S) opp inv dbg stray :
  field_theory (sc_zero O) (sc_one O) (sc_add O) (sc_mul O) (sc_sub O) opp (sc_div O) inv eq ->
  forall n a A b h x f w, sparse_square (sc_zero O) n a A -> is_vec n b h -> is_vec n x f ->
    (forall i, i < n -> A i i <> sc_zero O) -> w <> sc_zero O ->
    (forall u, length u = n -> (forward_sweep O dbg stray a (Some x) u b w = Ok x <-> solves O n A f h)) /\
    (forward_sweep O dbg stray a None x b w = Ok x <-> solves O n A f h) /\
    (forall u, length u = n -> (backward_sweep O dbg stray a (Some x) u b w = Ok x <-> solves O n A f h)) /\
    (backward_sweep O dbg stray a None x b w = Ok x <-> solves O n A f h).
Proof.
  intros F n a A b h x f w Ha Hb Hx Hd Hw. split; [|split; [|split]].
  - intros u Hu. apply (jacobi_fixed O opp inv); auto.
  - apply (seidel_fixed O opp inv); auto.
  - intros u Hu. rewrite (jacobi_back_same O opp inv dbg stray F n a A b h); auto; [|apply Hx].
    apply (jacobi_fixed O opp inv); auto.
  - apply (seidel_back_fixed O opp inv); auto.
Qed.

(* ------------------------------------------------------------------ C55, C57, C75: runs of the solvers *)
Section Runs.
  Context {S : Type}.
  Variables (O : sops S) (M : nat) (dbg : bool) (stray : option nat).
  Implicit Types (a : smat S) (x b w : list S) (cd : conv_data S) (lim : limits S).

  (** The documented number of sweeps, and the one of the code. *)
  Definition sweep_limit lim : nat := Nat.max (min_iterations lim) (max_iteration lim).
  Definition sweep_bound lim : nat := Nat.max (min_iterations lim) (max_iteration lim + 1).

  Lemma jacobi_step_nodiv a b s : jacobi_step O dbg stray a b s <> Diverge.
  Proof using. unfold jacobi_step. apply nodiv_bind; [apply sweep_nodiv|discriminate]. Qed.
  Lemma seidel_step_nodiv a b s : gauss_seidel_step O dbg stray a b s <> Diverge.
  Proof using. unfold gauss_seidel_step. apply nodiv_bind; [apply sweep_nodiv|discriminate]. Qed.
  Lemma sor_step_nodiv a b s : sor_step O dbg stray a b s <> Diverge.
  Proof using. unfold sor_step. apply nodiv_bind; [apply sweep_nodiv|discriminate]. Qed.

  Lemma solves_end lim a x b w fuel : min_iterations lim <= M -> max_iteration lim < M -> sweep_bound lim < fuel ->
    jacobi_solve O M dbg stray fuel lim w a x b <> Diverge /\
    gauss_seidel_solve O M dbg stray fuel lim a x b <> Diverge /\
    forall rho, sor_solve O M dbg stray fuel lim rho a x b <> Diverge.
  Proof using.
    intros H1 H2 H3. split; [|split].
    - apply loop_ends; auto. apply jacobi_step_nodiv.
    - apply nodiv_bind; [|discriminate]. apply loop_ends; auto. apply seidel_step_nodiv.
    - intro rho. apply nodiv_bind; [|discriminate]. apply loop_ends; auto. apply sor_step_nodiv.
  Qed.

  Lemma gauss_seidel_Ok fuel lim a x b x' cd : gauss_seidel_solve O M dbg stray fuel lim a x b = Ok (x', cd) ->
    exists w, solve_loop O M dbg stray (gauss_seidel_step O dbg stray a b) fuel lim a b (x, []) (conv_default O) = Ok (x', w, cd).
  Proof using.
    unfold gauss_seidel_solve. destruct (solve_loop _ _ _ _ _ _ _ _ _ _ _) as [[[y w] c]| | |]; cbn [bind]; try discriminate.
    intro E. injection E as <- <-. exists w. reflexivity.
  Qed.
  Lemma sor_Ok fuel lim rho a x b x' cd : sor_solve O M dbg stray fuel lim rho a x b = Ok (x', cd) ->
    exists w, solve_loop O M dbg stray (sor_step O dbg stray a b) fuel lim a b (x, []) (conv_default O) = Ok (x', w, cd).
  Proof using.
    unfold sor_solve. destruct (solve_loop _ _ _ _ _ _ _ _ _ _ _) as [[[y w] c]| | |]; cbn [bind]; try discriminate.
    intro E. injection E as <- <-. exists w. reflexivity.
  Qed.

  (** A successful run: [run step a b lim s s' cd]. *)
  Inductive run a b lim : list S * list S -> (list S * list S -> res (list S * list S)) -> list S -> conv_data S -> Prop :=
  | run_jacobi fuel w x x' w' cd : jacobi_solve O M dbg stray fuel lim w a x b = Ok (x', w', cd) ->
      run a b lim (x, vresize w (s_rows a) (sc_zero O)) (jacobi_step O dbg stray a b) x' cd
  | run_seidel fuel x x' cd : gauss_seidel_solve O M dbg stray fuel lim a x b = Ok (x', cd) ->
      run a b lim (x, []) (gauss_seidel_step O dbg stray a b) x' cd
  | run_sor fuel rho x x' cd : sor_solve O M dbg stray fuel lim rho a x b = Ok (x', cd) ->
      run a b lim (x, []) (sor_step O dbg stray a b) x' cd.

  Lemma run_loop a b lim s step x' cd : run a b lim s step x' cd ->
    exists fuel w', solve_loop O M dbg stray step fuel lim a b s (conv_default O) = Ok (x', w', cd).
  Proof using.
    intros [fuel w x y w' c H|fuel x y c H|fuel rho x y c H].
    - exists fuel, w'. exact H.
    - apply gauss_seidel_Ok in H as (w & H). eauto.
    - apply sor_Ok in H as (w & H). eauto.
  Qed.

  Lemma run_bound a b lim s step x' cd : run a b lim s step x' cd -> min_iterations lim <= M -> max_iteration lim < M ->
    cd_iteration cd <= sweep_bound lim /\ exists w', times step (cd_iteration cd) s = Ok (x', w').
  Proof using.
    intros H H1 H2. apply run_loop in H as (fuel & w' & H). apply loop_bound in H as (k & Hk & <- & (Ht & _) & _); auto.
    split; auto. exists w'. exact Ht.
  Qed.

  Lemma run_never_converged a b lim s step x' cd : run a b lim s step x' cd -> cd_converged cd = false.
  Proof using.
    intro H. apply run_loop in H as (fuel & w' & H). apply loop_result in H as (k & (_ & Hc & _) & _). exact Hc.
  Qed.

  Lemma run_stop a b lim s step x' cd : run a b lim s step x' cd -> max_iteration lim <= M ->
    exists k w', times step k s = Ok (x', w') /\
      (1 <= k <= max_iteration lim ->
        cd_iteration cd = k /\ min_iterations lim <= k /\
        exists x1 w1 r rm r1 rm1, times step 1 s = Ok (x1, w1) /\
          compute_residual O dbg stray a x' b = Ok (r, rm) /\ compute_residual O dbg stray a x1 b = Ok (r1, rm1) /\
          cd_residual_normalised cd = sc_div O r r1 /\ cd_residual_max_normalised cd = sc_div O rm rm1 /\
          sc_lt O (tolerance lim) (sc_div O r r1) = false /\
          sc_lt O (sc_mul O (sc_of_Z O 10) (tolerance lim)) (sc_div O rm rm1) = false).
  Proof using.
    intros H HM. apply run_loop in H as (fuel & w' & H). apply loop_result in H as (k & (Ht & _ & Hd) & Hc).
    exists k, w'. split; [exact Ht|]. intros [Hk1 Hk2]. destruct Hd as (Hi & _ & Hp); [lia|].
    destruct Hp as ([x1 w1] & [r rm] & [r1 rm1] & E1 & E2 & E3 & _ & _ & N1 & _ & _ & N2); [lia|]. cbn [fst snd] in *.
    split; [exact Hi|]. unfold is_converged in Hc. rewrite Hi, N1, N2 in Hc.
    destruct (Nat.ltb_spec k (min_iterations lim)); [discriminate|].
    destruct (Nat.ltb_spec (max_iteration lim) k); [lia|].
    destruct (sc_lt O (tolerance lim) (sc_div O r r1)) eqn:Q1; [discriminate|].
    destruct (sc_lt O (sc_mul O (sc_of_Z O 10) (tolerance lim)) (sc_div O rm rm1)) eqn:Q2; [discriminate|].
    split; [auto|]. exists x1, w1, r, rm, r1, rm1. auto 10.
  Qed.

  Lemma vresize_length' w n (d : S) : length (vresize w n d) = n.
  Proof using.
    clear M O dbg stray. unfold vresize. rewrite app_length, firstn_length, repeat_length. lia.
  Qed.

  Lemma square_solve n lim a x b w fuel : square_system n a b -> length x = n -> (dbg = true -> n <> 0) ->
    min_iterations lim <= M -> max_iteration lim < M -> sweep_bound lim < fuel ->
    (exists x' w' cd, jacobi_solve O M dbg stray fuel lim w a x b = Ok (x', w', cd) /\ length x' = n) /\
    (exists x' cd, gauss_seidel_solve O M dbg stray fuel lim a x b = Ok (x', cd) /\ length x' = n) /\
    (forall rho, exists x' cd, sor_solve O M dbg stray fuel lim rho a x b = Ok (x', cd) /\ length x' = n).
  Proof using.
    intros Hs Hx Hn H1 H2 H3. split; [|split].
    - destruct (loop_ok O M dbg stray (sized n) (jacobi_step O dbg stray a b) lim a b fuel
        (x, vresize w (s_rows a) (sc_zero O))) as ([x' w'] & cd & E & [L _]); auto.
      + intros s Q. apply jacobi_step_ok; auto.
      + split; [exact Hx|]. cbn [snd]. rewrite vresize_length'. apply Hs.
      + exists x', w', cd. split; [exact E|exact L].
    - destruct (loop_ok O M dbg stray (fun s => length (fst s) = n) (gauss_seidel_step O dbg stray a b) lim a b fuel
        (x, [])) as ([x' w'] & cd & E & L); auto.
      + intros s Q. apply (seidel_step_ok O dbg stray n a b (sc_one O) s); auto.
      + exists x', cd. unfold gauss_seidel_solve. rewrite E. split; [reflexivity|exact L].
    - intro rho. destruct (loop_ok O M dbg stray (fun s => length (fst s) = n) (sor_step O dbg stray a b) lim a b fuel
        (x, [])) as ([x' w'] & cd & E & L); auto.
      + intros s Q. apply (seidel_step_ok O dbg stray n a b (sor_factor O) s); auto.
      + exists x', cd. unfold sor_solve. rewrite E. split; [reflexivity|exact L].
  Qed.

  Lemma solve_run a b lim step s0 s cd : forall fuel fuel', fuel <= fuel' ->
    solve_loop O M dbg stray step fuel lim a b s0 cd = Ok s -> solve_loop O M dbg stray step fuel' lim a b s0 cd = Ok s.
  Proof using.
    intros fuel. revert s0 cd; induction fuel as [|fuel IH]; intros s0 cd fuel' Hf; cbn [solve_loop]; [discriminate|].
    destruct fuel' as [|fuel']; [lia|]. cbn [solve_loop]. destruct (is_converged O lim cd); auto.
    destruct (step s0) as [s1| | |]; cbn [bind]; try discriminate.
    destruct (update O M dbg stray a (fst s1) b cd) as [c1| | |]; cbn [bind]; try discriminate. apply IH. lia.
  Qed.
End Runs.

Lemma run_stop_real M dbg stray a b lim s step x' cd : run rops M dbg stray a b lim s step x' cd -> max_iteration lim <= M ->
  exists k w', times step k s = Ok (x', w') /\
    (1 <= k <= max_iteration lim ->
      min_iterations lim <= k /\
      exists x1 w1 r rm r1 rm1, times step 1 s = Ok (x1, w1) /\
        compute_residual rops dbg stray a x' b = Ok (r, rm) /\ compute_residual rops dbg stray a x1 b = Ok (r1, rm1) /\
        (r / r1 <= tolerance lim)%R /\ (rm / rm1 <= 10 * tolerance lim)%R).
Proof.
  intros H HM. destruct (run_stop _ _ _ _ _ _ _ _ _ _ _ H HM) as (k & w' & Ht & Hk). exists k, w'. split; auto.
  intro Hb. destruct (Hk Hb) as (_ & Hm & x1 & w1 & r & rm & r1 & rm1 & E1 & E2 & E3 & _ & _ & Q1 & Q2).
  split; auto. exists x1, w1, r, rm, r1, rm1. apply Rltb_false in Q1. apply Rltb_false in Q2. auto.
Qed.

(* ------------------------------------------------------------------ concrete systems *)
(** The matrix held by the rows. *)
Definition lookup {S : Type} (zero : S) (es : list (nat * S)) (j : nat) : S :=
  match find (fun e => fst e =? j) es with Some e => snd e | None => zero end.

Lemma represents_rows {S} (zero : S) a rs : srepr a rs -> srows_ok (csize a) rs ->
  represents zero a (fun i j => lookup zero (nth i rs []) j).
Proof.
  intros Hs Ho i j. unfold lookup. split.
  - intros v Hv. apply (srepr_stored _ _ _ _ _ Hs) in Hv. pose proof (In_nth_rows _ _ _ Hv) as Hi.
    destruct (find _ _) as [[k w]|] eqn:E.
    + apply find_some in E as [E1 E2]. cbn [fst snd] in *. apply Nat.eqb_eq in E2 as ->.
      apply (row_unique (nth i rs []) j); auto. apply Ho, Hi.
    + apply (find_none _ _ E) in Hv. cbn [fst] in Hv. rewrite Nat.eqb_refl in Hv. discriminate.
  - intros Hn. destruct (find _ _) as [[k w]|] eqn:E; auto.
    apply find_some in E as [E1 E2]. cbn [fst] in *. apply Nat.eqb_eq in E2 as ->.
    destruct (Hn w). apply (srepr_stored _ _ _ _ _ Hs), E1.
Qed.

(** A 2 by 2 system with all entries stored. *)
Definition two {S : Type} (p q r s : S) : smat S := mkS [0; 2; 4] [0; 1; 0; 1] [p; q; r; s] 2.
Definition two_rows {S : Type} (p q r s : S) : list (list (nat * S)) := [[(0, p); (1, q)]; [(0, r); (1, s)]].

Lemma two_repr {S} (p q r s : S) : srepr (two p q r s) (two_rows p q r s) /\ srows_ok 2 (two_rows p q r s).
Proof.
  split.
  - split; [left; reflexivity|]. split; reflexivity.
  - intros [|[|i]] Hi; cbn in Hi; try lia; cbn; (split; [repeat constructor|]); intros j [<-|[<-|[]]]; lia.
Qed.

Lemma two_square {S} (zero p q r s : S) :
  sparse_square zero 2 (two p q r s) (fun i j => lookup zero (nth i (two_rows p q r s) []) j).
Proof.
  destruct (two_repr p q r s) as [H1 H2]. split; [exists (two_rows p q r s); auto|]. split; [reflexivity|].
  split; [reflexivity|]. apply represents_rows; auto.
Qed.

Lemma two_system {S} (p q r s b0 b1 : S) : square_system 2 (two p q r s) [b0; b1].
Proof.
  destruct (two_repr p q r s) as [H1 H2]. split; [exists (two_rows p q r s); auto|]. split; [reflexivity|].
  split; [reflexivity|]. split; [reflexivity|]. intros [|[|i]] Hi; try lia.
  - exists p. split; [cbn; lia|]. exists 0. cbn. repeat split; lia.
  - exists s. split; [cbn; lia|]. exists 3. cbn. repeat split; lia.
Qed.

Definition f_half : f64 := SFdiv 53 1024 (f_of_Z 1) (f_of_Z 2).

(** x + y / 2 = .. with the tolerance one half: each Jacobi sweep halves the residual. *)
Definition fz (z : Z) : f64 := f_of_Z z.
Definition ex_sys : smat f64 := two (fz 2) (fz 1) (fz 1) (fz 2).
Definition ex_b : list f64 := [fz 1; fz 1].
Definition ex_x0 : list f64 := [fz 0; fz 0].

(* ------------------------------------------------------------------ C55: witnesses *)
(** One sweep although no iteration is allowed. *)
Lemma one_sweep_too_many M dbg stray : 0 < M -> exists (x' : list f64) w' cd,
  jacobi_solve fops M dbg stray 5 (mkLimits 0 0 f_half) [] ex_sys ex_x0 ex_b = Ok (x', w', cd) /\
  sweep_limit (mkLimits 0 0 f_half) = 0 /\ cd_iteration cd = 1 /\ x' <> ex_x0.
Proof.
  intro HM. destruct M as [|M]; [lia|]. destruct dbg, stray; eexists; eexists; eexists;
  (split; [vm_compute; reflexivity|]); split; try reflexivity; (split; [reflexivity|discriminate]).
Qed.

(** A rotation by a quarter turn; the residual stays the same. *)
Definition rot_sys : smat f64 := two (fz 1) (fz (-1)) (fz 1) (fz 1).
Definition rot_b : list f64 := [fz 0; fz 0].
Definition rot_state (x : list f64) : Prop :=
  x = [fz 1; fz 0] \/ x = [fz 0; fz (-1)] \/ x = [fz (-1); fz 0] \/ x = [fz 0; fz 1].

Lemma rot_step dbg stray x u0 u1 : rot_state x ->
  exists x', jacobi_step fops dbg stray rot_sys rot_b (x, [u0; u1]) = Ok (x', x) /\ rot_state x' /\
    compute_residual fops dbg stray rot_sys x' rot_b = Ok (fz 1, fz 1).
Proof.
  intros [->|[->|[->| ->]]]; destruct dbg, stray; eexists; (split; [vm_compute; reflexivity|]);
    (split; [unfold rot_state; vm_compute; tauto|vm_compute; reflexivity]).
Qed.

Lemma rot_two x : rot_state x -> exists u0 u1, x = [u0; u1].
Proof. intros [->|[->|[->| ->]]]; eauto. Qed.

Lemma rot_loop M dbg stray fuel x u0 u1 cd : rot_state x -> cd_iteration cd <= M ->
  (cd_iteration cd = 0 \/ cd_residual_0 cd = fz 1 /\ cd_residual_max_0 cd = fz 1) ->
  (cd_residual_normalised cd = fz 1 \/ cd_residual_normalised cd = sc_max fops) ->
  solve_loop fops M dbg stray (jacobi_step fops dbg stray rot_sys rot_b) fuel (mkLimits 0 M f_half) rot_sys rot_b
    (x, [u0; u1]) cd = Diverge.
Proof.
  revert x u0 u1 cd; induction fuel as [|fuel IH]; intros x u0 u1 cd Hx Hi H0 Hn; [reflexivity|]. cbn [solve_loop].
  assert (E : is_converged fops (mkLimits 0 M f_half) cd = false).
  { unfold is_converged. cbn [min_iterations max_iteration tolerance].
    destruct (Nat.ltb_spec (cd_iteration cd) 0); [reflexivity|]. destruct (Nat.ltb_spec M (cd_iteration cd)); [lia|].
    destruct Hn as [-> | ->]; reflexivity. }
  rewrite E. destruct (rot_step dbg stray x u0 u1 Hx) as (x' & -> & Hx' & Er). cbn [bind fst].
  unfold update. rewrite Er. cbn [bind fst snd]. destruct (rot_two x Hx) as (v0 & v1 & ->). apply IH; auto.
  - cbn [cd_iteration]. destruct (Nat.eqb_spec (cd_iteration cd) M); lia.
  - right. cbn [cd_residual_0 cd_residual_max_0]. destruct (Nat.eqb_spec (cd_iteration cd) 0); [auto|].
    destruct H0 as [H0|[-> ->]]; [lia|auto].
  - left. cbn [cd_residual_normalised]. destruct (Nat.eqb_spec (cd_iteration cd) 0); [reflexivity|].
    destruct H0 as [H0|[-> _]]; [lia|reflexivity].
Qed.

Lemma never_ends M dbg stray fuel :
  jacobi_solve fops M dbg stray fuel (mkLimits 0 M f_half) [] rot_sys [fz 1; fz 0] rot_b = Diverge.
Proof.
  unfold jacobi_solve. apply rot_loop.
  - left. reflexivity.
  - cbn; lia.
  - left. reflexivity.
  - right. reflexivity.
Qed.

(* ------------------------------------------------------------------ C56, C76, C77: witnesses *)
Lemma converged_not_reported M dbg stray : 9 < M -> exists (x' : list f64) w' cd,
  jacobi_solve fops M dbg stray 20 (mkLimits 0 9 f_half) [] ex_sys ex_x0 ex_b = Ok (x', w', cd) /\
  cd_iteration cd = 2 /\ sc_le fops (cd_residual_normalised cd) f_half = true /\ cd_converged cd = false.
Proof.
  intro HM. destruct M as [|[|M]]; try lia. destruct dbg, stray; eexists; eexists; eexists;
  (split; [vm_compute; reflexivity|]); repeat split.
Qed.

Lemma normalised_after_first M dbg stray : 1 < M -> exists (x' : list f64) w' cd r0 rm0,
  jacobi_solve fops M dbg stray 20 (mkLimits 0 0 f_half) [] ex_sys ex_x0 ex_b = Ok (x', w', cd) /\
  compute_residual fops dbg stray ex_sys ex_x0 ex_b = Ok (r0, rm0) /\
  sc_eq fops (cd_residual_0 cd) r0 = false /\ sc_eq fops (cd_residual_normalised cd) (sc_div fops (cd_residual cd) r0) = false.
Proof.
  intro HM. destruct M as [|[|M]]; try lia. destruct dbg, stray; eexists; eexists; eexists; eexists; eexists;
  (split; [vm_compute; reflexivity|]); (split; [vm_compute; reflexivity|]); repeat split.
Qed.

Definition huge : f64 := S754_finite false 1 1000.

Lemma overflow_stops M dbg stray : 100 < M -> exists (x' : list f64) w' cd,
  jacobi_solve fops M dbg stray 200 (mkLimits 0 99 f_half) [] (two (fz 1) huge huge (fz 1)) ex_x0 [fz 1; fz 0] = Ok (x', w', cd) /\
  cd_iteration cd = 1 /\ cd_residual cd = S754_infinity false /\ cd_residual_normalised cd = S754_nan.
Proof.
  intro HM. destruct M as [|[|M]]; try lia. destruct dbg, stray; eexists; eexists; eexists;
  (split; [vm_compute; reflexivity|]); repeat split.
Qed.

Lemma first_normalised {S} (O : sops S) M dbg stray a b lim s step x' cd :
  run O M dbg stray a b lim s step x' cd -> max_iteration lim < M -> min_iterations lim <= M -> 1 <= cd_iteration cd ->
  exists x1 w1 rm1, times step 1 s = Ok (x1, w1) /\ compute_residual O dbg stray a x1 b = Ok (cd_residual_0 cd, rm1) /\
    rm1 = cd_residual_max_0 cd /\ cd_residual_normalised cd = sc_div O (cd_residual cd) (cd_residual_0 cd).
Proof.
  intros H H1 H2 Hk. apply run_loop in H as (fuel & w' & H). apply loop_bound in H as (k & Hb & Ei & (_ & _ & Hd) & _); auto.
  destruct Hd as (_ & _ & Hp); [lia|].
  destruct Hp as ([x1 w1] & [r rm] & [r1 rm1] & E1 & E2 & E3 & N0 & N1 & N2 & _ & N3 & _); [lia|]. cbn [fst snd] in *.
  exists x1, w1, rm1. rewrite N1, N2, N3, N0. auto.
Qed.

(* ------------------------------------------------------------------ C58 *)
Lemma sor_ignores {S} (O : sops S) M dbg stray fuel lim rho rho' a x b :
  sor_solve O M dbg stray fuel lim rho a x b = sor_solve O M dbg stray fuel lim rho' a x b.
Proof. reflexivity. Qed.

Lemma sor_not_seidel M dbg stray : 1 < M -> exists (x1 x2 : list f64) cd1 cd2,
  sor_solve fops M dbg stray 5 (mkLimits 0 0 f_half) (fz 1) ex_sys ex_x0 ex_b = Ok (x1, cd1) /\
  gauss_seidel_solve fops M dbg stray 5 (mkLimits 0 0 f_half) ex_sys ex_x0 ex_b = Ok (x2, cd2) /\
  Forall2 (fun p q => sc_eq fops p q = false) x1 x2.
Proof.
  intro HM. destruct M as [|[|M]]; try lia. destruct dbg, stray; eexists; eexists; eexists; eexists;
  (split; [vm_compute; reflexivity|]); (split; [vm_compute; reflexivity|]); repeat constructor.
Qed.

(* ------------------------------------------------------------------ C60 *)
Section Dominant.
  Variables (M : nat) (dbg : bool) (stray : option nat) (n : nat) (a : smat R) (A : nat -> nat -> R) (b : list R) (h : nat -> R).
  Hypothesis Ha : sparse_square 0%R n a A.
  Hypothesis Hb : is_vec n b h.

  Lemma sweeps_contract q xs x f e : dominance n A q -> solves rops n A xs h -> is_vec n x f ->
    (forall i, i < n -> (Rabs (f i - xs i) <= e)%R) ->
    (forall u, length u = n -> exists x' f', forward_sweep rops dbg stray a (Some x) u b 1%R = Ok x' /\ is_vec n x' f' /\
       forall i, i < n -> (Rabs (f' i - xs i) <= q * e)%R) /\
    (exists x' f', forward_sweep rops dbg stray a None x b 1%R = Ok x' /\ is_vec n x' f' /\
       forall i, i < n -> (Rabs (f' i - xs i) <= q * e)%R).
  Proof using Ha Hb.
    intros Hd Hs Hx He. split.
    - intros u Hu. apply (jacobi_contract dbg stray n a A b h xs q Ha Hb Hd Hs x u f e); auto.
    - apply (seidel_contract dbg stray n a A b h xs q Ha Hb Hd Hs x f e); auto.
  Qed.

  Lemma solve_contracts q xs x f e lim fuel : dominance n A q -> solves rops n A xs h -> is_vec n x f ->
    (forall i, i < n -> (Rabs (f i - xs i) <= e)%R) -> min_iterations lim <= M -> max_iteration lim < M ->
    (forall w x' w' cd, jacobi_solve rops M dbg stray fuel lim w a x b = Ok (x', w', cd) ->
       exists f', is_vec n x' f' /\ forall i, i < n -> (Rabs (f' i - xs i) <= q ^ cd_iteration cd * e)%R) /\
    (forall x' cd, gauss_seidel_solve rops M dbg stray fuel lim a x b = Ok (x', cd) ->
       exists f', is_vec n x' f' /\ forall i, i < n -> (Rabs (f' i - xs i) <= q ^ cd_iteration cd * e)%R).
  Proof using Ha Hb.
    intros Hd Hs Hx He H1 H2. split.
    - intros w x' w' cd H. apply loop_bound in H as (k & _ & -> & (Ht & _) & _); auto.
      destruct (jacobi_times dbg stray n a A b h xs q Ha Hb Hd Hs k x (vresize w (s_rows a) (sc_zero rops)) f e)
        as (y & v & f' & E & Hy & _ & Hf); auto.
      { rewrite vresize_length'. apply Ha. }
      rewrite E in Ht. injection Ht as <- <-. eauto.
    - intros x' cd H. apply gauss_seidel_Ok in H as (w & H). apply loop_bound in H as (k & _ & -> & (Ht & _) & _); auto.
      destruct (seidel_times dbg stray n a A b h xs q Ha Hb Hd Hs k x [] f e) as (y & f' & E & Hy & Hf); auto.
      rewrite E in Ht. injection Ht as <- _. eauto.
  Qed.

  (** The iterates converge to the only solution. *)
  Lemma dominant_converges : dominant n A -> exists xs, solves rops n A xs h /\
    (forall ys, solves rops n A ys h -> forall i, i < n -> ys i = xs i) /\
    forall x, length x = n -> forall eps, (0 < eps)%R -> exists K, forall k, K <= k ->
      (forall w, length w = n -> exists x' w' f', times (jacobi_step rops dbg stray a b) k (x, w) = Ok (x', w') /\
         is_vec n x' f' /\ forall i, i < n -> (Rabs (f' i - xs i) < eps)%R) /\
      (exists x' f', times (gauss_seidel_step rops dbg stray a b) k (x, []) = Ok (x', []) /\
         is_vec n x' f' /\ forall i, i < n -> (Rabs (f' i - xs i) < eps)%R).
  Proof using Ha Hb.
    intro Hdom. destruct (dominant_factor n A Hdom) as (q & Hd).
    destruct (solution_exists n A h q Hd) as (xs & Hs). exists xs. split; [exact Hs|]. split.
    - intros ys Hy i Hi.
      destruct (bounded_family n (fun i => (ys i - xs i)%R)) as (D & HD0 & HD).
      assert (G : forall k, forall j, j < n -> (Rabs (ys j - xs j) <= q ^ k * D)%R).
      { induction k as [|k IH]; intros j Hj; [rewrite pow_O, Rmult_1_l; auto|].
        rewrite <- (solution_fixed n A h ys q Hd Hy j Hj), <- (solution_fixed n A h xs q Hd Hs j Hj).
        cbn [pow]. rewrite Rmult_assoc. apply contract; auto. apply Rmult_le_pos; auto. apply pow_le. apply Hd. }
      destruct (Req_dec (ys i) (xs i)) as [E|E]; [exact E|exfalso].
      assert (Hp : (0 < Rabs (ys i - xs i))%R) by (apply Rabs_pos_lt; lra).
      destruct (pow_small n A q Hd (Rabs (ys i - xs i) / (D + 1))) as (N & HN); [apply Rdiv_lt_0_compat; lra|].
      specialize (HN N (Nat.le_refl N)). specialize (G N i Hi).
      apply (Rmult_lt_compat_r (D + 1)) in HN; [|lra]. unfold Rdiv in HN. rewrite Rmult_assoc, Rinv_l, Rmult_1_r in HN by lra.
      assert ((0 <= q ^ N)%R) by (apply pow_le, Hd). nra.
    - intros x Hx eps He. assert (Hv : is_vec n x (fun i => nth i x 0%R)) by (rewrite <- Hx; apply is_vec_self).
      destruct (bounded_family n (fun i => (nth i x 0 - xs i)%R)) as (D & HD0 & HD).
      destruct (pow_small n A q Hd (eps / (D + 1))) as (K & HK); [apply Rdiv_lt_0_compat; lra|].
      exists K. intros k Hk. assert (Hlt : (q ^ k * D < eps)%R).
      { specialize (HK k Hk). apply (Rmult_lt_compat_r (D + 1)) in HK; [|lra].
        unfold Rdiv in HK. rewrite Rmult_assoc, Rinv_l, Rmult_1_r in HK by lra.
        assert ((0 <= q ^ k)%R) by (apply pow_le, Hd). nra. }
      split.
      + intros w Hw. destruct (jacobi_times dbg stray n a A b h xs q Ha Hb Hd Hs k x w _ D Hv Hw HD)
          as (x' & w' & f' & E & H' & _ & Hf). exists x', w', f'. split; [exact E|]. split; [exact H'|].
        intros i Hi. apply Rle_lt_trans with (2 := Hlt). auto.
      + destruct (seidel_times dbg stray n a A b h xs q Ha Hb Hd Hs k x [] _ D Hv HD)
          as (x' & f' & E & H' & Hf). exists x', f'. split; [exact E|]. split; [exact H'|].
        intros i Hi. apply Rle_lt_trans with (2 := Hlt). auto.
  Qed.
End Dominant.

(* ------------------------------------------------------------------ C61, C78 *)
(** What kind of solver an object holds. *)
Definition kind_of {S : Type} (s : solver S) : option (solver_type * bool) :=
  match s with
  | SolverLU _ => Some (lower_upper_factorisation, false)
  | SolverLUP _ => Some (lower_upper_factorisation, true)
  | SolverJacobi _ _ => Some (jacobi, false)
  | SolverGaussSeidel _ => Some (gauss_seidel, false)
  | SolverSor _ _ => Some (successive_over_relaxation, false)
  | SolverNull => None
  end.

Lemma dispatch {S} (O : sops S) M dbg stray (c : config S) :
  (cf_type c = unknown -> build_solver O c = Abort) /\
  (cf_type c <> unknown -> exists s, build_solver O c = Ok s /\
     kind_of s = Some (cf_type c, match cf_type c with lower_upper_factorisation => cf_pivot c | _ => false end) /\
     (forall st, s = SolverLU st \/ s = SolverLUP st -> lu_tolerance st = cf_factor_tolerance c /\ lu_factorised st = false) /\
     (forall lim, (exists w, s = SolverJacobi lim w) \/ s = SolverGaussSeidel lim \/ (exists w, s = SolverSor lim w) ->
        min_iterations lim = cf_minimum_iterations c /\ max_iteration lim = cf_maximum_iterations c /\
        tolerance lim = cf_convergence_tolerance c) /\
     (forall lim w, s = SolverSor lim w -> w = cf_relaxation c)) /\
  (forall fuel a x b,
     (forall st, solve_sparse O M dbg stray fuel (SolverLU st) a x b = Abort /\
                 solve_sparse O M dbg stray fuel (SolverLUP st) a x b = Abort) /\
     solve_sparse O M dbg stray fuel SolverNull a x b = Abort /\
     (forall lim w, solve_sparse O M dbg stray fuel (SolverJacobi lim w) a x b =
        do r <- jacobi_solve O M dbg stray fuel lim w a x b; Ok (SolverJacobi lim (snd (fst r)), fst (fst r), snd r)) /\
     (forall lim, solve_sparse O M dbg stray fuel (SolverGaussSeidel lim) a x b =
        do r <- gauss_seidel_solve O M dbg stray fuel lim a x b; Ok (SolverGaussSeidel lim, fst r, snd r)) /\
     (forall lim w, solve_sparse O M dbg stray fuel (SolverSor lim w) a x b =
        do r <- sor_solve O M dbg stray fuel lim w a x b; Ok (SolverSor lim w, fst r, snd r))) /\
  (forall x b,
     (forall lim w, solve_dense O dbg (SolverJacobi lim w) x b = Abort) /\
     (forall lim, solve_dense O dbg (SolverGaussSeidel lim) x b = Abort) /\
     (forall lim w, solve_dense O dbg (SolverSor lim w) x b = Abort) /\
     solve_dense O dbg SolverNull x b = Abort /\
     (forall st, solve_dense O dbg (SolverLU st) x b =
        do r <- lu_solve O dbg false st x b; Ok (SolverLU st, fst r, snd r)) /\
     (forall st, solve_dense O dbg (SolverLUP st) x b =
        do r <- lu_solve O dbg true st x b; Ok (SolverLUP st, fst r, snd r))).
Proof.
  split; [|split; [|split]].
  - unfold build_solver. intros ->. reflexivity.
  - intro H. unfold build_solver. destruct (cf_type c) eqn:E; try (now contradiction H);
      [destruct (cf_pivot c) eqn:Ep|..]; (eexists; split; [reflexivity|]); (split; [reflexivity|]); split; [|split| |split| |split| |split| |split].
    all: try (intros ? [K|K]; first [discriminate K|injection K as <-; split; reflexivity]).
    all: try (intros ? [(? & K)|[K|(? & K)]]; first [discriminate K|injection K as <- ?; auto|injection K as <-; auto]).
    all: intros ? ? K; first [discriminate K|injection K as <- <-; reflexivity].
  - intros fuel a x b. repeat split.
  - intros x b. repeat split.
Qed.

Lemma config_defaults : let c := config_default fops in
  cf_type c = unknown /\ cf_pivot c = true /\ cf_factor_tolerance c = S754_finite false (2 ^ 52) (-52 - 36) /\
  cf_minimum_iterations c = 0 /\ cf_maximum_iterations c = 0 /\ cf_convergence_tolerance c = S754_zero false /\
  cf_relaxation c = S754_finite false (3 * 2 ^ 51) (-52) /\
  forall pivot st, let d := lu_get_config fops pivot st in
    cf_minimum_iterations d = 0 /\ cf_maximum_iterations d = 0 /\ cf_convergence_tolerance d = S754_zero false /\
    cf_relaxation d = cf_relaxation c.
Proof.
  cbv zeta. split; [reflexivity|]. split; [reflexivity|]. split; [vm_compute; reflexivity|].
  split; [reflexivity|]. split; [reflexivity|]. split; [reflexivity|]. split; [vm_compute; reflexivity|].
  intros pivot st. repeat split.
Qed.

Lemma config_round_trip {S} (O : sops S) (c : config S) : cf_type c = lower_upper_factorisation ->
  exists st, build_solver O c = Ok (if cf_pivot c then SolverLUP st else SolverLU st) /\
    cf_type (lu_get_config O (cf_pivot c) st) = cf_type c /\ cf_pivot (lu_get_config O (cf_pivot c) st) = cf_pivot c /\
    cf_factor_tolerance (lu_get_config O (cf_pivot c) st) = cf_factor_tolerance c.
Proof.
  intro E. unfold build_solver. rewrite E. destruct (cf_pivot c) eqn:Ep; eexists; (split; [reflexivity|]); repeat split.
Qed.
