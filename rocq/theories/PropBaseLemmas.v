(** Lemmas behind C95. *)
From Coq Require Import SpecFloat.
From Verif Require Import Base DenseModel ScalarModel SparseModel LuModel IterModel PropIterLemmas BaseSolverModel.

Lemma base_vectors {S} (O : sops S) M dbg stray :
  (forall fuel lim w a x b y r, base_jacobi O M dbg stray fuel lim w a x b = Ok (y, r) <->
     (exists cd, jacobi_solve O M dbg stray fuel lim w a x b = Ok (y, cd)) /\ r = Dangling) /\
  (forall fuel lim a x b y r, base_gauss_seidel O M dbg stray fuel lim a x b = Ok (y, r) <->
     (exists cd, gauss_seidel_solve O M dbg stray fuel lim a x b = Ok (y, cd)) /\ r = Dangling) /\
  (forall fuel lim rho a x b y r, base_sor O M dbg stray fuel lim rho a x b = Ok (y, r) <->
     (exists cd, sor_solve O M dbg stray fuel lim rho a x b = Ok (y, cd)) /\ r = Dangling) /\
  (forall pivot st x b y r, base_lu O dbg pivot st x b = Ok (y, r) <->
     (exists cd, lu_solve O dbg pivot st x b = Ok (y, cd)) /\ r = Dangling).
Proof.
  assert (G : forall A B (e : res (A * B)) (y : A) (r : reference B),
    (do p <- e; Ok (fst p, return_temporary (snd p))) = Ok (y, r) <-> (exists cd, e = Ok (y, cd)) /\ r = Dangling).
  { intros A B e y r. destruct e as [[u c]| | |]; cbn [bind]; split; intro H;
      try discriminate; try (destruct H as ((cd & H) & _); discriminate).
    - injection H as <- <-. split; [exists c; reflexivity|reflexivity].
    - destruct H as ((cd & H) & ->). injection H as <- _. reflexivity. }
  split; [|split; [|split]]; intros; apply G.
Qed.

Lemma base_data {S} (O : sops S) M dbg stray :
  (forall fuel lim w a x b y r, base_jacobi O M dbg stray fuel lim w a x b = Ok (y, r) -> read r = Undef) /\
  (forall fuel lim a x b y r, base_gauss_seidel O M dbg stray fuel lim a x b = Ok (y, r) -> read r = Undef) /\
  (forall fuel lim rho a x b y r, base_sor O M dbg stray fuel lim rho a x b = Ok (y, r) -> read r = Undef) /\
  (forall pivot st x b y r, base_lu O dbg pivot st x b = Ok (y, r) -> read r = Undef).
Proof.
  destruct (base_vectors O M dbg stray) as (H1 & H2 & H3 & H4).
  split; [|split; [|split]]; intros.
  - apply H1 in H as [_ ->]. reflexivity.
  - apply H2 in H as [_ ->]. reflexivity.
  - apply H3 in H as [_ ->]. reflexivity.
  - apply H4 in H as [_ ->]. reflexivity.
Qed.

Lemma base_example : exists y r, base_gauss_seidel fops 100 true None 20 (mkLimits 3 9 f_half) ex_sys ex_x0 ex_b = Ok (y, r) /\
  length y = 2.
Proof. eexists. eexists. split; [vm_compute; reflexivity|reflexivity]. Qed.
