(** Witnesses used by PropTraversal.v. *)
From Verif Require Import Base ListFacts Csr GraphModel GraphSpec GraphFacts TraversalModel Bfs
  TraversalFacts Expansion Peripheral Eccentricity PropGraphLemmas.

Ltac wf_rows rs := apply (of_rows_well_formed _ rs); apply rows_okb_ok; reflexivity.

(** Decision procedure for concrete edges. *)
Definition edgeb (g : graph) (u v : nat) : bool :=
  (u <? size_vertex g) && existsb (Nat.eqb v) (row g u).

Lemma edgeb_ok g u v : edgeb g u v = true <-> edge g u v.
Proof.
  unfold edgeb, edge. rewrite andb_true_iff, Nat.ltb_lt, existsb_exists. split.
  - intros [H1 (x & H2 & H3)]. apply Nat.eqb_eq in H3. subst. auto.
  - intros [H1 H2]. split; auto. exists v. split; auto. apply Nat.eqb_refl.
Qed.

Lemma traversal_one_vertex : exists g,
  well_formed false g /\ size_vertex g = 1 /\ forall M, 1 <= M -> level_traversal M true g 0 M = Abort.
Proof.
  exists (mkG [] [0; 0]). assert (Hw : well_formed false (mkG [] [0; 0])) by (wf_rows [@nil nat]).
  split; auto. split; [reflexivity|]. intros M HM. apply (level_traversal_one M false); auto.
Qed.

(** Sharp version: with assertions the only refused call is the one vertex graph. *)
Lemma traversal_accepts M dbg d g s : well_formed d g -> size_vertex g <= M -> s < size_vertex g ->
  (level_traversal M dbg g s M = Abort <-> dbg = true /\ size_vertex g = 1).
Proof.
  intros Hw HM Hs. split.
  - intro H. destruct dbg.
    + split; auto. destruct (Nat.eq_dec (size_vertex g) 1) as [|Hn]; auto.
      destruct (level_traversal_spec M true d g s Hw HM Hs) as (L & E & _); [lia|]. congruence.
    + destruct (level_traversal_spec M false d g s Hw HM Hs) as (L & E & _); [discriminate|]. congruence.
  - intros [-> Hn]. assert (s = 0) by lia. subst s. apply (level_traversal_one M d); auto. lia.
Qed.

(** Two separate edges, one seed: no assertion fires. *)
Lemma expansion_disconnected_witness : exists g seeds v,
  well_formed false g /\ v < size_vertex g /\ (forall s, In s seeds -> ~ reachable (edge g) s v) /\
  level_expansion 100 true g seeds = Ok [0; 0; 100; 100].
Proof.
  exists (mkG [1; 0; 3; 2] [0; 1; 2; 3; 4]), [0], 2.
  split; [wf_rows [[1]; [0]; [3]; [2]]|]. split; [cbn; lia|]. split; [|reflexivity].
  intros s [<-|[]] (k & Hk).
  assert (G : forall k u v, walk (edge (mkG [1; 0; 3; 2] [0; 1; 2; 3; 4])) k u v -> u < 2 -> v < 2).
  { clear. intros k u v H. induction H as [u|k u v w H IH He]; intro Hu; auto. specialize (IH Hu).
    apply edgeb_ok in He. destruct v as [|[|v]]; [| |lia].
    - destruct w as [|[|w]]; auto. exfalso. destruct w as [|[|w]]; discriminate.
    - destruct w as [|[|w]]; auto. exfalso. destruct w as [|[|w]]; discriminate. }
  specialize (G _ _ _ Hk). lia.
Qed.

Lemma expansion_never_aborts M dbg d g seeds :
  well_formed d g -> size_vertex g <= M -> length seeds <= M -> seeds <> [] ->
  (forall s, In s seeds -> s < size_vertex g) -> exists C, level_expansion M dbg g seeds = Ok C.
Proof.
  intros H1 H2 H3 H4 H5. destruct (level_expansion_spec M dbg d g seeds H1 H2 H3 H4 H5) as (C & E & _).
  eauto.
Qed.

(** Path 0 - 2 - 1. *)
Definition path021 : graph := mkG [2; 2; 0; 1] [0; 1; 2; 4].

Lemma path021_wf : well_formed false path021.
Proof. wf_rows [[2]; [2]; [0; 1]]. Qed.

Lemma path021_dist : dist (edge path021) 1 0 2.
Proof.
  split.
  - apply (walk_S _ 1 1 2 0); [apply (walk_S _ 0 1 1 2); [apply walk_0|]|]; apply edgeb_ok; reflexivity.
  - intros m H. destruct m as [|[|m]]; [inversion H| |lia].
    inversion H as [|? ? u ? Hu He]; subst. inversion Hu; subst. apply edgeb_ok in He. discriminate.
Qed.

Lemma eccentricity_lenient_wrong : exists T,
  eccentricity_graph true 100 true path021 [] = Ok T /\
  dist (edge path021) 1 0 2 /\ nth 0 (nth 1 T []) 0 = 100.
Proof. eexists. split; [reflexivity|]. split; [apply path021_dist|reflexivity]. Qed.

Lemma eccentricity_defined M dbg g ecc : well_formed false g -> size_vertex g <= M ->
  (eccentricity_graph false M dbg g ecc = Undef <-> exists u v, edge g u v).
Proof.
  intros Hw HM. split; [|apply eccentricity_graph_undef; auto].
  intro H. destruct (bounded_dec (fun u => exists v, v < size_vertex g /\ edge g u v) (size_vertex g))
    as [(u & _ & v & _ & He)|Hno].
  - intro u. apply bounded_dec. intro v. apply edge_dec.
  - eauto.
  - destruct (eccentricity_graph_edgeless M dbg false g ecc Hw HM) as (T & E & _); [|congruence].
    intros u v He. pose proof (edge_bounds false g u v Hw He). apply Hno. exists u. split; [tauto|].
    exists v. tauto.
Qed.

Lemma path4_connected : connected (mkG [1; 0; 2; 1; 3; 2] [0; 1; 3; 5; 6]).
Proof.
  set (g := mkG _ _).
  assert (E : forall u, u < 3 -> edge g u (u + 1)).
  { intros u Hu. apply edgeb_ok. do 3 (destruct u as [|u]; [reflexivity|]). lia. }
  assert (F : forall v u, u <= v -> v < 4 -> reachable (edge g) u v).
  { induction v as [|v IH]; intros u Hu Hv.
    - assert (u = 0) by lia. subst. exists 0. apply walk_0.
    - destruct (Nat.eq_dec u (S v)) as [->|Hne]; [exists 0; apply walk_0|].
      destruct (IH u ltac:(lia) ltac:(lia)) as (k & Hk). exists (S k). eapply walk_S; eauto.
      rewrite <- Nat.add_1_r. apply E. lia. }
  intros u v Hu Hv. change (size_vertex g) with 4 in *.
  destruct (Nat.le_gt_cases u v); [apply F; auto|].
  destruct (F u v ltac:(lia) Hu) as (k & Hk). exists k. apply walk_sym; auto.
  intros a b Hab. apply edge_sym; auto. apply path4_well_formed.
Qed.
