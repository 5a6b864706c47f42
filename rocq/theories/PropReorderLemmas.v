(** Witnesses used by PropReorder.v. *)
From Verif Require Import Base ListFacts Csr GraphModel GraphSpec GraphFacts PermFacts TraversalModel
  Bfs TraversalFacts Peripheral ReorderModel Ordering OrderingSpec Colouring PropGraphLemmas
  PropTraversalLemmas Envelope GraphReorder GraphSeq.

(** Insertion sort by second component, an instance of the sorting routine. *)
Fixpoint pair_insert (x : nat * nat) (l : list (nat * nat)) : list (nat * nat) :=
  match l with
  | [] => [x]
  | y :: r => if snd x <=? snd y then x :: l else y :: pair_insert x r
  end.

Definition pair_sort (l : list (nat * nat)) : list (nat * nat) := fold_right pair_insert [] l.

Lemma pair_insert_perm x l : Permutation (pair_insert x l) (x :: l).
Proof.
  induction l as [|y l IH]; cbn; auto. destruct (snd x <=? snd y); auto.
  rewrite IH. apply perm_swap.
Qed.

Lemma pair_insert_sorted x l : StronglySorted (fun a b => snd a <= snd b) l ->
  StronglySorted (fun a b => snd a <= snd b) (pair_insert x l).
Proof.
  induction 1 as [|y l H IH HF]; cbn.
  - repeat constructor.
  - destruct (Nat.leb_spec (snd x) (snd y)) as [Hc|Hc].
    + constructor; [constructor; auto|]. constructor; auto.
      rewrite Forall_forall in *. intros z Hz. specialize (HF z Hz). cbn in HF. lia.
    + constructor; auto. rewrite Forall_forall in *. intros z Hz.
      apply (Permutation_in _ (pair_insert_perm x l)) in Hz. destruct Hz as [<-|Hz]; auto. lia.
Qed.

Lemma pair_sort_sorts : sorts_by_second pair_sort.
Proof.
  intro l. induction l as [|x l [IH1 IH2]]; cbn; [split; constructor|]. split.
  - rewrite pair_insert_perm. constructor. exact IH1.
  - apply pair_insert_sorted. exact IH2.
Qed.

Lemma one_vertex_connected : connected (mkG [] [0; 0]).
Proof.
  intros u v Hu Hv. change (u < 1) in Hu. change (v < 1) in Hv. replace u with 0 by lia.
  replace v with 0 by lia. exists 0. constructor.
Qed.

Lemma cmk_default_refused : exists g, well_formed false g /\ connected g /\ size_vertex g = 1 /\
  forall sortf M, 1 <= M -> cuthill_mckee sortf M true g M = Abort.
Proof.
  exists (mkG [] [0; 0]). assert (Hw : well_formed false (mkG [] [0; 0])) by (wf_rows [@nil nat]).
  split; auto. split; [apply one_vertex_connected|]. split; auto.
  intros. apply (cmk_one sortf M false); auto.
Qed.

Lemma cmk_default_accepts sortf M dbg g : well_formed false g -> sorts_by_second sortf ->
  size_vertex g <= M -> 0 < size_vertex g -> connected g ->
  (cuthill_mckee sortf M dbg g M = Abort <-> dbg = true /\ size_vertex g = 1).
Proof.
  intros Hw Hs HM H0 Hc. split.
  - intro H. destruct (Nat.eq_dec (size_vertex g) 1) as [E|E]; [destruct dbg; auto|].
    + destruct (cmk_default_spec sortf M false g Hw Hs HM H0 Hc) as (s & p & Ep & _); congruence.
    + destruct (cmk_default_spec sortf M dbg g Hw Hs HM H0 Hc) as (s & p & Ep & _); [lia|congruence].
  - intros [-> H]. apply (cmk_one sortf M false); auto. lia.
Qed.

Lemma edgeless_greedy_witness : exists g, well_formed false g /\
  greedy_multicolouring true g = Ok [0; 0] /\ ~ is_perm (size_vertex g) [0; 0].
Proof.
  exists (mkG [] [0; 0; 0]). split; [wf_rows [@nil nat; @nil nat]|]. split; [reflexivity|].
  intro H. pose proof (perm_inj _ _ 0 1 H) as Hi. cbn in Hi. specialize (Hi ltac:(lia) ltac:(lia) eq_refl).
  discriminate.
Qed.

Lemma path4_is_path : is_path (mkG [1; 0; 2; 1; 3; 2] [0; 1; 3; 5; 6]).
Proof.
  intros u v. set (g := mkG _ _). rewrite <- edgeb_ok. change (size_vertex g) with 4. split.
  - intro H. assert (Hu : u < 4).
    { apply edgeb_ok in H. apply H. }
    do 4 (destruct u as [|u]; [do 4 (destruct v as [|v]; [first [lia|discriminate]|]);
      exfalso; revert H; clear; intro H; apply edgeb_ok in H; destruct H as [_ H]; cbn in H; lia|]). lia.
  - intros (Hu & Hv & H).
    do 4 (destruct u as [|u]; [do 4 (destruct v as [|v]; [first [reflexivity|lia]|]); lia|]). lia.
Qed.

(** ** Profile and bandwidth *)
Lemma reversed_edges g h1 h2 p q : well_formed false g -> is_perm (size_vertex g) p ->
  (forall v, v < size_vertex g -> nth v q 0 = size_vertex g - 1 - nth v p 0) ->
  (forall u v, u < size_vertex g -> v < size_vertex g -> (edge h1 (nth u p 0) (nth v p 0) <-> edge g u v)) ->
  (forall u v, u < size_vertex g -> v < size_vertex g -> (edge h2 (nth u q 0) (nth v q 0) <-> edge g u v)) ->
  forall u v, u < size_vertex g -> v < size_vertex g ->
    (edge h2 (size_vertex g - 1 - u) (size_vertex g - 1 - v) <-> edge h1 u v).
Proof.
  intros Hw Hp Hq H1 H2 u v Hu Hv. destruct (perm_pos _ p u Hp Hu) as [Hu' Eu].
  destruct (perm_pos _ p v Hp Hv) as [Hv' Ev].
  rewrite <- Eu, <- Ev, <- !Hq by auto. rewrite H1, H2 by auto. reflexivity.
Qed.

Lemma reverse_profile sortf M dbg g s : well_formed false g -> sorts_by_second sortf ->
  size_vertex g <= M -> s < size_vertex g -> connected g ->
  exists p q h1 h2, cuthill_mckee sortf M dbg g s = Ok p /\ cuthill_mckee_reverse sortf M dbg g s = Ok q /\
    reorder dbg g p = Ok (h1, g) /\ reorder dbg g q = Ok (h2, g) /\ profile h2 <= profile h1.
Proof.
  intros Hw Hso HM Hs Hc. destruct (cmk_reverse_start sortf M dbg g s Hw Hso HM Hs Hc) as (p & q & Ep & Eq & Hq & _ & Hpq).
  destruct (cmk_spec sortf M dbg g s Hw Hso HM Hs Hc) as (p' & Ep' & Hlo). rewrite Ep in Ep'. injection Ep' as <-.
  pose proof (lo_perm _ _ _ _ Hlo) as Hp.
  destruct (reorder_spec dbg false g p Hw Hp) as (h1 & E1 & Hw1 & Hn1 & _ & He1 & _).
  destruct (reorder_spec dbg false g q Hw Hq) as (h2 & E2 & Hw2 & Hn2 & _ & He2 & _).
  exists p, q, h1, h2. do 4 (split; [assumption|]). apply profile_reverse.
  - congruence.
  - rewrite Hn1. eapply reversed_edges; eauto.
  - intros u v. apply edge_sym; auto.
  - intros u v He. destruct (edge_bounds false h2 u v Hw2 He) as (? & ? & _). auto.
  - intros u v Huv Hv. rewrite Hn1 in Hv. apply (lowest_mono g h1 (fun v => length (row g v)) s p); auto.
Qed.

Lemma level_order_band g key s p D u v : well_formed false g -> level_order g key s p ->
  (forall v, v < size_vertex g -> dist (edge g) s v (D v)) -> edge g u v -> D u <= D v ->
  nth v p 0 - nth u p 0 < two_levels (size_vertex g) D (D u) (D v).
Proof. intros Hw Hp HD He Hle. apply (band g key s p); auto. Qed.

Lemma cmk_band sortf M dbg g s D : well_formed false g -> sorts_by_second sortf ->
  size_vertex g <= M -> s < size_vertex g -> (forall v, v < size_vertex g -> dist (edge g) s v (D v)) ->
  exists p, cuthill_mckee sortf M dbg g s = Ok p /\
    forall u v, edge g u v -> D u <= D v ->
      nth u p 0 - nth v p 0 < two_levels (size_vertex g) D (D u) (D v) /\
      nth v p 0 - nth u p 0 < two_levels (size_vertex g) D (D u) (D v).
Proof.
  intros Hw Hso HM Hs HD.
  assert (Hc : connected g).
  { intros u v Hu Hv. destruct (HD u Hu) as [H1 _]. destruct (HD v Hv) as [H2 _]. exists (D u + D v).
    eapply walk_trans; eauto. apply walk_sym; auto. intros x y. apply edge_sym; auto. }
  destruct (cmk_spec sortf M dbg g s Hw Hso HM Hs Hc) as (p & Ep & Hlo). exists p. split; auto.
  intros u v He Hle. destruct (edge_bounds false g u v Hw He) as (Hu & Hv & Hne).
  split; [|eapply level_order_band; eauto].
  destruct (Nat.eq_dec (D u) (D v)) as [E|E].
  - rewrite E. rewrite <- E at 1. replace (two_levels (size_vertex g) D (D u) (D v)) with
      (two_levels (size_vertex g) D (D v) (D u)) by (rewrite E; reflexivity).
    apply (level_order_band g _ s p D v u Hw Hlo HD); [apply edge_sym; auto|lia].
  - pose proof (lo_level _ _ _ _ Hlo u v _ _ Hu Hv (HD u Hu) (HD v Hv) ltac:(lia)).
    pose proof (level_order_band g _ s p D u v Hw Hlo HD He Hle). lia.
Qed.

(** Vertex 0 joined to 1, 2 and 3. *)
Definition star4 : graph := mkG [1; 2; 3; 0; 0; 0] [0; 3; 4; 5; 6].

Lemma star4_well_formed : well_formed false star4.
Proof. apply (of_rows_well_formed false [[1; 2; 3]; [0]; [0]; [0]]). apply rows_okb_ok. reflexivity. Qed.

Lemma star4_dist v : v < size_vertex star4 -> dist (edge star4) 1 v (nth v [1; 0; 2; 2] 0).
Proof.
  intros Hv. change (v < 4) in Hv.
  assert (E10 : edge star4 1 0) by (apply edgeb_ok; reflexivity).
  assert (Hone : forall w, edge star4 1 w -> w = 0).
  { intros w [_ Hw]. cbn in Hw. intuition. }
  assert (Hw1 : walk (edge star4) 1 1 0) by (eapply walk_S; [apply walk_0|exact E10]).
  destruct v as [|[|[|[|v]]]]; cbn [nth]; [| | | |lia].
  - split; [exact Hw1|]. intros m Hm. destruct m; [inversion Hm|lia].
  - split; [apply walk_0|]. intros m _. lia.
  - split; [eapply walk_S; [exact Hw1|apply edgeb_ok; reflexivity]|].
    intros m Hm. destruct m as [|[|m]]; [inversion Hm| |lia].
    inversion Hm as [|? ? y ? Hy He]; subst. inversion Hy; subst. apply Hone in He. discriminate.
  - split; [eapply walk_S; [exact Hw1|apply edgeb_ok; reflexivity]|].
    intros m Hm. destruct m as [|[|m]]; [inversion Hm| |lia].
    inversion Hm as [|? ? y ? Hy He]; subst. inversion Hy; subst. apply Hone in He. discriminate.
Qed.

Lemma star4_connected : connected star4.
Proof.
  intros u v Hu Hv. destruct (star4_dist u Hu) as [H1 _]. destruct (star4_dist v Hv) as [H2 _].
  eexists. eapply walk_trans; eauto. apply walk_sym; eauto. intros x y. apply edge_sym, star4_well_formed.
Qed.
