(** Witnesses and consequences used by PropSubgraph.v. *)
From Verif Require Import Base ListFacts Csr GraphModel GraphSpec GraphFacts GraphInsert GraphResize
  GraphErase PermFacts GraphReorder TraversalModel Bfs TraversalFacts OrderingSpec PropGraphLemmas
  PropTraversalLemmas SubgraphModel SubgraphFacts SubgraphLevels SubgraphUpdate SubgraphNew.

(* ------------------------------------------------------------------ C25, C26 *)
Lemma new_induced h M dbg g part :
  well_formed false g -> size_vertex g <= M -> 0 < size_vertex g ->
  size_vertex g <= length (adj g) -> ascending part -> (forall v, In v part -> v < size_vertex g) ->
  exists s, subgraph_new h M dbg g part 0 = Ok s /\ well_formed false (s_graph s) /\
    sub_size s = length part /\
    (forall i, i < length part -> local_global dbg s i = Ok (nth i part 0)) /\
    (forall i j, i < length part -> j < length part ->
       (edge (s_graph s) i j <-> edge g (nth i part 0) (nth j part 0))).
Proof.
  intros Hw HM Hn Ha Hasc Hb.
  assert (E : exists s, subgraph_new h M dbg g part 0 = Ok s /\ sub_ok g (fun x => In x part) 0 s /\ s_lg s = part).
  { destruct (subgraph_new_ok h M dbg g part Hw HM Hasc Hb 0) as (s & E & _ & Hs); auto; [lia|..].
    { intros v Hv. specialize (Hb v Hv). lia. }
    exists s. split; auto. split; auto.
    destruct (subgraph_new_unfold h M dbg g part Hw Hasc Hb 0) as (gl & _ & E1).
    rewrite E1 in E. apply bind_Ok in E as (G & _ & E). injection E as <-. reflexivity. }
  destruct E as (s & E & Hs & Hlg). exists s. split; auto. split; [apply Hs|].
  split; [unfold sub_size; rewrite (so_size _ _ _ _ Hs), Hlg; auto|]. split.
  - intros i Hi. rewrite (local_global_spec dbg _ _ _ _ _ Hs) by (rewrite Hlg; auto). rewrite Hlg. auto.
  - intros i j Hi Hj. apply (so_edge _ _ _ _ Hs); rewrite Hlg; apply nth_error_nth_lt; auto.
Qed.

Lemma new_undefined h M dbg g part :
  well_formed false g -> size_vertex g <= M -> 0 < M ->
  ascending part -> (forall v, In v part -> v < size_vertex g) ->
  (subgraph_new h M dbg g part 0 = Undef <->
   off g = [] \/ exists v, In v part /\ length (adj g) <= v).
Proof.
  intros Hw HM HM0 Hasc Hb. split; [|intro H; apply subgraph_new_undefined; auto].
  intro E. destruct (subgraph_new_unfold h M dbg g part Hw Hasc Hb 0) as (gl & Hgl & E1).
  rewrite E1 in E. cbn [Nat.eqb] in E.
  destruct (erase_if M (fun v => nth v gl M =? M) g) eqn:Ee; try discriminate.
  apply (erase_if_undefined M false) in Ee as [H|(v & H1 & H2 & H3)]; auto.
  right. exists v. split; auto.
  apply (inverse_del (size_vertex g) M part gl v HM (part_len M g part HM Hasc Hb) Hgl H1); auto.
Qed.

Lemma new_any_order h M dbg g part :
  well_formed false g -> size_vertex g <= M -> 0 < size_vertex g ->
  size_vertex g <= length (adj g) -> NoDup part -> (forall v, In v part -> v < size_vertex g) ->
  exists s, subgraph_new h M dbg g part 0 = Ok s /\ sub_size s = length part /\
    (forall i, i < length part -> local_global dbg s i = Ok (nth i part 0)) /\
    (forall i j, i < length part -> j < length part ->
       (edge (s_graph s) i j <-> edge g (nth i (sort_nat part) 0) (nth j (sort_nat part) 0))).
Proof.
  intros Hw HM Hn Ha Hnd Hb. set (n := size_vertex g) in *.
  destruct (ctor_loop n M part Hnd Hb) as (gl & El & Hgl).
  assert (Hpl : length part <= n).
  { rewrite <- (seq_length n 0). apply NoDup_incl_length; auto.
    intros v Hv. apply in_seq. specialize (Hb v Hv). lia. }
  set (del := fun v => nth v gl M =? M).
  assert (Hdel : forall v, v < n -> (del v = false <-> In v part))
    by (intros v Hv; apply (inverse_del n M part gl v HM Hpl Hgl Hv)).
  destruct (erase_if_spec M false del g Hw) as (G & E & G1 & G2 & G3).
  { intro Ho. unfold n, size_vertex in Hn. rewrite Ho in Hn. lia. }
  { intros i Hi _. fold n in Hi. lia. }
  assert (Hk : kept del n = sort_nat part).
  { apply ascending_ext.
    - apply ascending_filter, ascending_seq.
    - apply sort_nat_ascending; auto.
    - intro v. rewrite In_sort_nat. unfold kept. rewrite filter_In, in_seq, negb_true_iff. split.
      + intros [H1 H2]. apply Hdel; [lia|auto].
      + intro H. pose proof (Hb v H). split; [lia|]. apply Hdel; auto. }
  assert (Hs : subgraph_new h M dbg g part 0 = Ok (mkS (hash_value h g) G part [])).
  { unfold subgraph_new. fold n. rewrite (ctor_checks dbg n part Hnd Hb). cbn [bind].
    rewrite graph_hash_value by auto. cbn [bind]. rewrite El. cbn [bind fst]. fold del.
    rewrite E. reflexivity. }
  assert (Hsz : size_vertex G = length part).
  { rewrite G2, <- (sort_nat_length part), <- Hk. reflexivity. }
  eexists. split; [exact Hs|]. unfold sub_size, local_global. cbn [s_graph s_lg].
  split; auto. split.
  - intros i Hi. unfold sub_size. cbn [s_graph]. rewrite Hsz.
    destruct (Nat.ltb_spec i (length part)); [|lia]. rewrite ASSERT_DEBUG_true. cbn [bind].
    apply vget_lt; auto.
  - assert (Hr : forall i, i < length part -> exists v, nth i (sort_nat part) 0 = v /\ v < n /\
              del v = false /\ rank del v = i).
    { intros i Hi. exists (nth i (sort_nat part) 0). split; auto.
      assert (Hin : In (nth i (sort_nat part) 0) part)
        by (apply In_sort_nat, nth_In; rewrite sort_nat_length; auto).
      assert (Hv := Hb _ Hin). assert (Hd := proj2 (Hdel _ Hv) Hin). split; auto. split; auto.
      pose proof (kept_nth del n _ Hv Hd) as Hkn. rewrite Hk in Hkn.
      apply (proj1 (NoDup_nth_error (sort_nat part)) (ascending_NoDup _ (sort_nat_ascending _ Hnd))).
      - eapply nth_error_lt_Some; eauto.
      - rewrite Hkn. symmetry. apply nth_error_nth_lt. rewrite sort_nat_length. auto. }
    intros i j Hi Hj. destruct (Hr i Hi) as (u & Eu & U1 & U2 & U3). destruct (Hr j Hj) as (v & Ev & V1 & V2 & V3).
    rewrite Eu, Ev, <- U3, <- V3. apply G3; auto.
Qed.

(** Path 0 - 1 - 2 - 3 and the list 2, 0, 1. *)
Definition path4' : graph := mkG [1; 0; 2; 1; 3; 2] [0; 1; 3; 5; 6].

Lemma path4'_wf : well_formed false path4'.
Proof. wf_rows [[1]; [0; 2]; [1; 3]; [2]]. Qed.

Lemma new_order_refuted : exists g part, well_formed false g /\ size_vertex g <= length (adj g) /\
  NoDup part /\ (forall v, In v part -> v < size_vertex g) /\
  forall h dbg, exists s, subgraph_new h 100 dbg g part 0 = Ok s /\
    local_global dbg s 0 = Ok 2 /\ local_global dbg s 1 = Ok 0 /\
    edge (s_graph s) 0 1 /\ ~ edge g 2 0.
Proof.
  assert (Hn : NoDup [2; 0; 1]) by (repeat constructor; cbn; intuition lia).
  assert (Hb : forall v, In v [2; 0; 1] -> v < size_vertex path4') by (cbn; intuition lia).
  exists path4', [2; 0; 1]. split; [apply path4'_wf|]. split; [cbn; lia|].
  split; auto. split; auto. intros h dbg.
  destruct (new_any_order h 100 dbg path4' [2; 0; 1] path4'_wf) as (s & E & Hsz & Hl & He); auto; try (cbn; lia).
  exists s. split; auto.
  split; [rewrite Hl by (cbn; lia); reflexivity|]. split; [rewrite Hl by (cbn; lia); reflexivity|]. split.
  - apply He; try (cbn; lia). change (edge path4' 0 1). apply edgeb_ok. reflexivity.
  - intro H. apply edgeb_ok in H. discriminate.
Qed.

(* ------------------------------------------------------------------ C27 *)
(** Subgraphs obtained from one parent and primary partition by the members; the number is the level
    count requested last. *)
Inductive sub_state (h : nat -> nat) (M : nat) (dbg : bool) (g : graph) (part : list nat)
    : nat -> subgraph -> Prop :=
| state_new k s : k < M -> subgraph_new h M dbg g part k = Ok s -> sub_state h M dbg g part k s
| state_update k0 k s s' gl gl' : sub_state h M dbg g part k0 s -> k < M ->
    update_levels h M dbg g k s gl = Ok (s', gl') -> sub_state h M dbg g part k s'
| state_reorder k s s' o p : sub_state h M dbg g part k s -> is_perm (sub_size s) p ->
    sub_reorder dbg s p = Ok (s', o) -> sub_state h M dbg g part k s'.

(** The subgraph of [g] induced by the vertices within distance [k] of [part], with the distances as
    levels; only the public members are mentioned. *)
Record halo (dbg : bool) (g : graph) (part : list nat) (k : nat) (s : subgraph) : Prop := {
  halo_wf : well_formed false (s_graph s);
  halo_onto : forall v, (exists i, i < sub_size s /\ local_global dbg s i = Ok v) <->
    exists j, dist_from (edge g) (fun x => In x part) v j /\ j <= k;
  halo_global : forall i, i < sub_size s -> exists v, local_global dbg s i = Ok v;
  halo_inj : forall i j v, i < sub_size s -> j < sub_size s ->
    local_global dbg s i = Ok v -> local_global dbg s j = Ok v -> i = j;
  halo_edge : forall i j u v, i < sub_size s -> j < sub_size s ->
    local_global dbg s i = Ok u -> local_global dbg s j = Ok v ->
    (edge (s_graph s) i j <-> edge g u v);
  halo_level : forall i v, i < sub_size s -> local_global dbg s i = Ok v ->
    exists j, vertex_level dbg s i = Ok j /\ dist_from (edge g) (fun x => In x part) v j;
  halo_local : forall i v, i < sub_size s -> local_global dbg s i = Ok v ->
    exists b, is_local dbg s i = Ok b /\ (b = true <-> In v part) }.

Lemma sub_ok_halo dbg g part k s : sub_ok g (fun x => In x part) k s -> halo dbg g part k s.
Proof.
  intro Hs. pose proof (so_size _ _ _ _ Hs) as Hsz.
  assert (Hg : forall i v, i < sub_size s -> local_global dbg s i = Ok v -> nth_error (s_lg s) i = Some v).
  { intros i v Hi H. unfold sub_size in Hi. rewrite Hsz in Hi.
    rewrite (local_global_spec dbg _ _ _ _ _ Hs Hi) in H. injection H as <-. apply nth_error_nth_lt; auto. }
  assert (Hg' : forall i v, nth_error (s_lg s) i = Some v -> i < sub_size s /\ local_global dbg s i = Ok v).
  { intros i v H. pose proof (nth_error_lt_Some _ _ _ H) as Hi. unfold sub_size. rewrite Hsz. split; auto.
    rewrite (local_global_spec dbg _ _ _ _ _ Hs Hi). f_equal. apply nth_error_nth; auto. }
  constructor.
  - apply Hs.
  - intro v. rewrite <- (so_in _ _ _ _ Hs). split.
    + intros (i & Hi & H). eapply nth_error_In; eauto.
    + intro H. apply In_nth_error in H as (i & Hi). exists i. auto.
  - intros i Hi. unfold sub_size in Hi. rewrite Hsz in Hi. exists (nth i (s_lg s) 0).
    eapply local_global_spec; eauto.
  - intros i j v Hi Hj H1 H2. apply Hg in H1, H2; auto.
    apply (proj1 (NoDup_nth_error _) (so_nodup _ _ _ _ Hs)); [|congruence]. eapply nth_error_lt_Some; eauto.
  - intros i j u v Hi Hj H1 H2. apply (so_edge _ _ _ _ Hs); auto.
  - intros i v Hi H. exists (level_of s i). split; [|apply (so_level _ _ _ _ Hs); auto].
    eapply vertex_level_spec; eauto. rewrite <- Hsz. exact Hi.
  - intros i v Hi H. apply Hg in H; auto. exists (level_of s i =? 0). split.
    + eapply is_local_spec; eauto. rewrite <- Hsz. exact Hi.
    + pose proof (so_level _ _ _ _ Hs i v H) as Hl. rewrite Nat.eqb_eq. split.
      * intro E. rewrite E in Hl. apply (within_0 g part v). exact Hl.
      * intro Hin. apply (within_0 g part v) in Hin. eapply dist_from_functional; eauto.
Qed.

Lemma sub_state_ok h M dbg g part k s :
  well_formed false g -> 0 < size_vertex g -> size_vertex g <= M -> ascending part ->
  (forall v, In v part -> v < size_vertex g) ->
  sub_state h M dbg g part k s ->
  s_hash s = hash_value h g /\ sub_ok g (fun x => In x part) k s.
Proof.
  intros Hw Hn HM Ha Hb H. induction H as [k s Hk E|k0 k s s' gl gl' H [IH1 IH2] Hk E|k s s' o p H [IH1 IH2] Hp E].
  - eapply subgraph_new_sound; eauto.
  - destruct (update_levels_sound h M dbg g part k0 k s gl Hw Hn HM Hb IH2) with (2 := Hk) (3 := E)
      as (R1 & R2 & _).
    + rewrite IH1. apply graph_hash_value; auto.
    + split; auto. congruence.
  - destruct (sub_reorder_keeps dbg g _ k s s' o p IH2 Hp E). split; auto. congruence.
Qed.

Lemma sub_state_halo h M dbg g part k s :
  well_formed false g -> 0 < size_vertex g -> size_vertex g <= M -> ascending part ->
  (forall v, In v part -> v < size_vertex g) ->
  sub_state h M dbg g part k s -> halo dbg g part k s.
Proof. intros. apply sub_ok_halo. eapply sub_state_ok; eauto. Qed.

Lemma sub_state_unique h M dbg g part k s1 s2 :
  well_formed false g -> 0 < size_vertex g -> size_vertex g <= M -> ascending part ->
  (forall v, In v part -> v < size_vertex g) ->
  sub_state h M dbg g part k s1 -> sub_state h M dbg g part k s2 ->
  Permutation (s_lg s1) (s_lg s2).
Proof.
  intros Hw Hn HM Ha Hb H1 H2.
  destruct (sub_state_ok h M dbg g part k s1 Hw Hn HM Ha Hb H1) as [_ K1].
  destruct (sub_state_ok h M dbg g part k s2 Hw Hn HM Ha Hb H2) as [_ K2].
  apply NoDup_Permutation; [apply K1|apply K2|].
  intro v. rewrite (so_in _ _ _ _ K1), (so_in _ _ _ _ K2). tauto.
Qed.

Lemma update_total h M dbg g part k0 k s gl :
  well_formed false g -> 0 < size_vertex g -> size_vertex g <= M -> ascending part ->
  (forall v, In v part -> v < size_vertex g) ->
  sub_state h M dbg g part k0 s -> k < M ->
  let c := list_max (s_level s) in
  ((exists s' gl', update_levels h M dbg g k s gl = Ok (s', gl')) /\
     ((c < k /\ (dbg = true -> 0 < sub_size s -> c + 1 < size_vertex g)) \/
      (k <= c /\ forall i l, i < sub_size s -> vertex_level dbg s i = Ok l -> l <= k ->
                   i < length (adj (s_graph s))))) \/
  (update_levels h M dbg g k s gl = Abort /\
     c < k /\ dbg = true /\ 0 < sub_size s /\ size_vertex g <= c + 1) \/
  (update_levels h M dbg g k s gl = Undef /\
     k <= c /\ exists i l, i < sub_size s /\ vertex_level dbg s i = Ok l /\ l <= k /\
                 length (adj (s_graph s)) <= i).
Proof.
  intros Hw Hn HM Ha Hb Hst Hk c.
  destruct (sub_state_ok h M dbg g part k0 s Hw Hn HM Ha Hb Hst) as [Eh Hs].
  assert (Hh : graph_hash dbg false h g = Ok (s_hash s)) by (rewrite Eh; apply graph_hash_value; auto).
  pose proof (so_size _ _ _ _ Hs) as Hsz.
  assert (Hne : s_lg s <> [] <-> 0 < sub_size s).
  { unfold sub_size. rewrite Hsz. destruct (s_lg s); cbn; split; intro; try congruence; lia. }
  destruct (update_fine_dec h dbg g k s Hh) as [H|[(H1 & H2 & H3 & H4)|(H1 & i & H2 & H3 & H4)]].
  - left. split.
    + destruct (update_levels_ok h M dbg g part k0 k s gl Hw Hn HM Hb Hs Hh Hk H) as (s' & gl' & E & _). eauto.
    + destruct H as [[H1 H2]|[H1 H2]].
      * left. split; auto. intros Hd H0. apply H2; auto. apply Hne; auto.
      * right. split; auto. intros i l Hi Hl Hlk. unfold sub_size in Hi. rewrite Hsz in Hi.
        rewrite (vertex_level_spec dbg _ _ _ _ _ Hs Hi) in Hl. injection Hl as <-. auto.
  - right. left. split; [|rewrite <- Hne; auto].
    eapply (update_levels_aborts h M dbg g part k0 k s gl); eauto.
  - right. right. split; [eapply (update_levels_undefined h M dbg g part k0 k s gl); eauto|].
    split; auto. exists i, (level_of s i). unfold sub_size. rewrite Hsz. split; auto.
    split; [eapply vertex_level_spec; eauto|]. auto.
Qed.

(** A parent in which no call fails: in debug builds levels never reach the last vertex. *)
Lemma update_returns h M dbg g part k0 k s gl :
  well_formed false g -> 0 < size_vertex g -> size_vertex g <= M -> ascending part ->
  (forall v, In v part -> v < size_vertex g) ->
  sub_state h M dbg g part k0 s -> k < M ->
  (dbg = true -> list_max (s_level s) + 1 < size_vertex g) ->
  sub_size s <= length (adj (s_graph s)) ->
  exists s' gl', update_levels h M dbg g k s gl = Ok (s', gl') /\ halo dbg g part k s'.
Proof.
  intros Hw Hn HM Ha Hb Hst Hk Hd Hadj.
  destruct (update_total h M dbg g part k0 k s gl Hw Hn HM Ha Hb Hst Hk)
    as [[(s' & gl' & E) _]|[(_ & H1 & H2 & H3 & H4)|(_ & H1 & i & l & H2 & H3 & H4 & H5)]].
  - exists s', gl'. split; auto. eapply sub_state_halo; eauto. eapply state_update; eauto.
  - specialize (Hd H2). lia.
  - lia.
Qed.

Definition path3' : graph := mkG [1; 0; 2; 1] [0; 1; 3; 4].

Lemma path3'_wf : well_formed false path3'.
Proof. wf_rows [[1]; [0; 2]; [1]]. Qed.

Lemma path3'_connected : connected path3'.
Proof.
  assert (E01 : edge path3' 0 1) by (apply edgeb_ok; reflexivity).
  assert (E12 : edge path3' 1 2) by (apply edgeb_ok; reflexivity).
  assert (E10 : edge path3' 1 0) by (apply edgeb_ok; reflexivity).
  assert (E21 : edge path3' 2 1) by (apply edgeb_ok; reflexivity).
  intros u v Hu Hv. change (size_vertex path3') with 3 in *.
  destruct u as [|[|[|u]]]; [| | |lia]; destruct v as [|[|[|v]]]; try lia.
  all: try (exists 0; constructor; fail).
  all: try (exists 1; apply walk_1; auto; fail).
  all: exists 2; eapply walk_S; [apply walk_1|]; eauto.
Qed.

Lemma path3'_pos : 0 < size_vertex path3'. Proof. cbv. lia. Qed.
Lemma path3'_le : size_vertex path3' <= 100. Proof. change (3 <= 100). lia. Qed.
Lemma one0_asc : ascending [0]. Proof. repeat constructor. Qed.
Lemma one0_lt v : In v [0] -> v < size_vertex path3'. Proof. intros [<-|[]]. apply path3'_pos. Qed.

(** Partition {0} of the path 0 - 1 - 2. *)
Definition path3_sub0 H := mkS H (mkG [] [0; 0]) [0] [].
Definition path3_sub2 H := mkS H path3' [0; 1; 2] [0; 1; 2].

Lemma path3_new0 h dbg : subgraph_new h 100 dbg path3' [0] 0 = Ok (path3_sub0 (hash_value h path3')).
Proof.
  pose proof (graph_hash_value dbg h path3' path3'_wf) as Eh.
  remember (hash_value h path3') as H eqn:X. clear X.
  unfold subgraph_new. rewrite Eh. destruct dbg; vm_compute; reflexivity.
Qed.

Lemma path3_new2 h dbg : subgraph_new h 100 dbg path3' [0] 2 = Ok (path3_sub2 (hash_value h path3')).
Proof.
  pose proof (graph_hash_value dbg h path3' path3'_wf) as Eh.
  remember (hash_value h path3') as H eqn:X. clear X.
  transitivity (do r <- update_levels h 100 dbg path3' 2 (path3_sub0 H) (Some [0; 100; 100]); Ok (fst r)).
  - unfold subgraph_new. rewrite Eh.
    destruct dbg; cbn [bind]; remember (update_levels h) as ul; vm_compute; reflexivity.
  - unfold update_levels. rewrite Eh. cbn [bind path3_sub0 s_hash]. rewrite Nat.eqb_refl.
    destruct dbg; vm_compute; reflexivity.
Qed.

Lemma update_abort_witness : exists g part, well_formed false g /\ connected g /\ ascending part /\
  (forall v, In v part -> v < size_vertex g) /\
  forall h, exists s, subgraph_new h 100 true g part 2 = Ok s /\
    forall gl, update_levels h 100 true g 3 s gl = Abort.
Proof.
  exists path3', [0]. split; [apply path3'_wf|]. split; [apply path3'_connected|].
  split; [repeat constructor|]. split; [intros v [<-|[]]; cbn; lia|].
  intro h. pose proof (path3_new2 h true) as E.
  destruct (subgraph_new_sound h 100 true path3' [0] path3'_wf path3'_le one0_asc one0_lt 2 _
    ltac:(lia) E) as [Eh Hs].
  exists (path3_sub2 (hash_value h path3')). split; [exact E|]. intro gl.
  refine (update_levels_aborts h 100 true path3' [0] 2 3 _ gl path3'_wf path3'_pos path3'_le one0_lt Hs
    _ _ _ _ _ _).
  - rewrite Eh. apply graph_hash_value, path3'_wf.
  - lia.
  - cbv. lia.
  - reflexivity.
  - discriminate.
  - cbv. lia.
Qed.

Lemma update_undef_witness : exists g part, well_formed false g /\ connected g /\ ascending part /\
  (forall v, In v part -> v < size_vertex g) /\
  forall h dbg, exists s, subgraph_new h 100 dbg g part 0 = Ok s /\
    forall gl, update_levels h 100 dbg g 0 s gl = Undef.
Proof.
  exists path3', [0]. split; [apply path3'_wf|]. split; [apply path3'_connected|].
  split; [repeat constructor|]. split; [intros v [<-|[]]; cbn; lia|]. intros h dbg.
  pose proof (path3_new0 h dbg) as E.
  destruct (subgraph_new_sound h 100 dbg path3' [0] path3'_wf path3'_le one0_asc one0_lt 0 _
    ltac:(lia) E) as [Eh Hs].
  exists (path3_sub0 (hash_value h path3')). split; [exact E|]. intro gl.
  refine (update_levels_undefined h 100 dbg path3' [0] 0 0 _ gl path3'_pos path3'_le Hs _ _ 0 _ _ _ _).
  - rewrite Eh. apply graph_hash_value, path3'_wf.
  - lia.
  - cbv. lia.
  - cbv. lia.
  - cbv. lia.
  - cbv. lia.
Qed.

(* ------------------------------------------------------------------ C28 *)
Lemma sub_reorder_laws dbg g part k s p :
  sub_ok g (fun x => In x part) k s -> is_perm (sub_size s) p ->
  exists s' o, sub_reorder dbg s p = Ok (s', o) /\ halo dbg g part k s' /\ s_hash s' = s_hash s /\
    sub_size s' = sub_size s /\
    (forall i, i < sub_size s ->
       local_global dbg s' (nth i p 0) = local_global dbg s i /\
       vertex_level dbg s' (nth i p 0) = vertex_level dbg s i) /\
    (forall i j, i < sub_size s -> j < sub_size s ->
       (edge (s_graph s') (nth i p 0) (nth j p 0) <-> edge (s_graph s) i j)) /\
    s_graph o = s_graph s /\ s_lg o = s_lg s /\ s_level o = s_level s.
Proof.
  intros Hs Hp. pose proof (so_size _ _ _ _ Hs) as Hsz.
  destruct (sub_reorder_spec dbg s p (so_wf _ _ _ _ Hs) Hsz (so_len _ _ _ _ Hs) Hp)
    as (s' & E & R1 & R2 & R3 & R4 & R5 & R6 & R7).
  destruct (sub_reorder_keeps dbg g _ k s s' _ p Hs Hp E) as [Hk _].
  eexists s', _. split; [exact E|]. split; [apply sub_ok_halo; auto|]. split; auto.
  split; [unfold sub_size; rewrite R3; auto|]. cbn [s_graph s_lg s_level].
  unfold sub_size in *. rewrite Hsz in *.
  split; [|split; auto].
  intros i Hi. destruct (R6 i Hi) as [L1 L2]. pose proof (perm_nth_lt _ p i Hp Hi) as Hb.
  rewrite (local_global_spec dbg _ _ _ _ _ Hs Hi), (vertex_level_spec dbg _ _ _ _ _ Hs Hi).
  rewrite (local_global_spec dbg _ _ _ _ _ Hk), (vertex_level_spec dbg _ _ _ _ _ Hk) by (rewrite R4; auto).
  rewrite L1, L2. auto.
Qed.

Definition sub_reorder_correct (h : nat -> nat) (M : nat) (dbg : bool) (g : graph) (part : list nat)
    (k : nat) (s : subgraph) (p : list nat) : Prop :=
  exists s' o, sub_reorder dbg s p = Ok (s', o) /\ halo dbg g part k s' /\
    sub_size s' = sub_size s /\ is_parent h dbg s' g = Ok true /\
    (forall i, i < sub_size s ->
       local_global dbg s' (nth i p 0) = local_global dbg s i /\
       vertex_level dbg s' (nth i p 0) = vertex_level dbg s i) /\
    (forall i j, i < sub_size s -> j < sub_size s ->
       (edge (s_graph s') (nth i p 0) (nth j p 0) <-> edge (s_graph s) i j)) /\
    s_graph o = s_graph s /\ s_lg o = s_lg s /\ s_level o = s_level s.

Lemma is_parent_self h M dbg g part k s :
  well_formed false g -> 0 < size_vertex g -> size_vertex g <= M -> ascending part ->
  (forall v, In v part -> v < size_vertex g) ->
  sub_state h M dbg g part k s -> is_parent h dbg s g = Ok true.
Proof.
  intros Hw Hn HM Ha Hb H. destruct (sub_state_ok h M dbg g part k s Hw Hn HM Ha Hb H) as [E _].
  unfold is_parent. rewrite graph_hash_value, E by auto. cbn [bind]. rewrite Nat.eqb_refl. auto.
Qed.

Lemma sub_reorder_state h M dbg g part k s p :
  well_formed false g -> 0 < size_vertex g -> size_vertex g <= M -> ascending part ->
  (forall v, In v part -> v < size_vertex g) ->
  sub_state h M dbg g part k s -> is_perm (sub_size s) p ->
  sub_reorder_correct h M dbg g part k s p.
Proof.
  intros Hw Hn HM Ha Hb H Hp. destruct (sub_state_ok h M dbg g part k s Hw Hn HM Ha Hb H) as [E Hs].
  destruct (sub_reorder_laws dbg g part k s p Hs Hp) as (s' & o & E1 & R1 & R2 & R3 & R4 & R5 & R6).
  exists s', o. repeat (split; auto).
  eapply is_parent_self; eauto. eapply state_reorder; eauto.
Qed.

(** With h the identity the hash of the path 0 - 1 - 2 is 3 xor 2 = 1. *)
Lemma sub_reorder_returned_refuted :
  exists g part s p s' o, well_formed false g /\ connected g /\ ascending part /\
    (forall v, In v part -> v < size_vertex g) /\
    subgraph_new (fun x => x) 100 false g part 2 = Ok s /\ is_perm (sub_size s) p /\
    sub_reorder false s p = Ok (s', o) /\
    is_parent (fun x => x) false s g = Ok true /\ is_parent (fun x => x) false o g = Ok false.
Proof.
  exists path3', [0], (path3_sub2 1), [0; 1; 2]. eexists _, _.
  split; [apply path3'_wf|]. split; [apply path3'_connected|].
  split; [apply one0_asc|]. split; [apply one0_lt|].
  split; [exact (path3_new2 (fun x => x) false)|].
  split; [apply Permutation_refl|]. split; [vm_compute; reflexivity|].
  split; vm_compute; reflexivity.
Qed.

(* ------------------------------------------------------------------ C29 *)
(** The paths 0 - 1 - 2 - 3 and 0 - 2 - 1 - 3. *)
Definition path0213 : graph := mkG [2; 2; 3; 0; 1; 1] [0; 1; 3; 5; 6].

Lemma path0213_wf : well_formed false path0213.
Proof. wf_rows [[2]; [2; 3]; [0; 1]; [1]]. Qed.

Lemma is_parent_refuted : exists g1 g2 part, well_formed false g1 /\ well_formed false g2 /\
  size_vertex g1 = size_vertex g2 /\ edge g1 0 1 /\ ~ edge g2 0 1 /\
  forall h dbg, exists s, subgraph_new h 100 dbg g1 part 0 = Ok s /\
    is_parent h dbg s g1 = Ok true /\ is_parent h dbg s g2 = Ok true.
Proof.
  exists path4', path0213, [0; 1]. split; [apply path4'_wf|]. split; [apply path0213_wf|].
  split; [reflexivity|]. split; [apply edgeb_ok; reflexivity|].
  split; [intro H; apply edgeb_ok in H; discriminate|]. intros h dbg.
  assert (Hasc : ascending [0; 1]) by (repeat constructor).
  assert (Hb : forall v, In v [0; 1] -> v < size_vertex path4') by (cbn; intuition lia).
  assert (HM : size_vertex path4' <= 100) by (change (4 <= 100); lia).
  destruct (subgraph_new_ok h 100 dbg path4' [0; 1] path4'_wf HM Hasc Hb 0) as (s & E & Eh & _).
  { lia. } { cbv; lia. } { cbn. intuition lia. }
  exists s. split; auto. unfold is_parent.
  rewrite (graph_hash_value dbg h _ path4'_wf), (graph_hash_value dbg h _ path0213_wf), Eh. cbn [bind].
  change (hash_value h path0213) with (hash_value h path4').
  rewrite Nat.eqb_refl. auto.
Qed.

Lemma is_parent_hash h dbg s g : well_formed false g ->
  exists b, is_parent h dbg s g = Ok b.
Proof. intro Hw. unfold is_parent. rewrite graph_hash_value by auto. cbn [bind]. eauto. Qed.

(** What the hash does separate: with injective hashing of sizes, graphs whose vertex and edge counts
    and first and last degrees agree except for one. *)
Lemma is_parent_counts h M dbg g g2 part k s :
  (forall x y, h x = h y -> x = y) ->
  well_formed false g -> 0 < size_vertex g -> size_vertex g <= M -> ascending part ->
  (forall v, In v part -> v < size_vertex g) -> sub_state h M dbg g part k s ->
  well_formed false g2 -> 0 < size_vertex g2 ->
  size_edge false g2 = size_edge false g ->
  length (row g2 0) = length (row g 0) ->
  length (row g2 (size_vertex g2 - 1)) = length (row g (size_vertex g - 1)) ->
  size_vertex g2 <> size_vertex g -> is_parent h dbg s g2 = Ok false.
Proof.
  intros Hh Hw Hn HM Ha Hb H Hw2 Hn2 H1 H2 H3 H4.
  destruct (sub_state_ok h M dbg g part k s Hw Hn HM Ha Hb H) as [E _].
  unfold is_parent. rewrite graph_hash_value, E by auto. cbn [bind]. f_equal. apply Nat.eqb_neq.
  unfold hash_value. destruct (Nat.eqb_spec (size_vertex g2) 0); [lia|].
  destruct (Nat.eqb_spec (size_vertex g) 0); [lia|]. rewrite H1, H2, H3. intro X. apply H4. apply Hh.
  rewrite !Nat.lxor_0_l in X.
  apply (f_equal (fun z => Nat.lxor z (h (length (row g (size_vertex g - 1)))))) in X.
  rewrite !Nat.lxor_assoc, Nat.lxor_nilpotent, !Nat.lxor_0_r in X.
  rewrite <- !Nat.lxor_assoc in X.
  apply (f_equal (fun z => Nat.lxor z (h (length (row g 0))))) in X.
  rewrite !Nat.lxor_assoc, Nat.lxor_nilpotent, !Nat.lxor_0_r in X.
  apply (f_equal (fun z => Nat.lxor z (h (size_edge false g)))) in X.
  rewrite !Nat.lxor_assoc, Nat.lxor_nilpotent, !Nat.lxor_0_r in X. auto.
Qed.

(* ------------------------------------------------------------------ C63 *)
Lemma update_map h M dbg g part k0 k s gl0 s' gl' :
  well_formed false g -> 0 < size_vertex g -> size_vertex g <= M -> ascending part ->
  (forall v, In v part -> v < size_vertex g) ->
  sub_state h M dbg g part k0 s -> k < M ->
  update_levels h M dbg g k s (Some gl0) = Ok (s', gl') ->
  exists m, gl' = Some m /\ length m = size_vertex g /\
    (forall i v, i < sub_size s' -> local_global dbg s' i = Ok v -> nth_error m v = Some i) /\
    (forall v, v < size_vertex g -> (forall i, i < sub_size s' -> local_global dbg s' i <> Ok v) ->
       nth_error m v = Some M).
Proof.
  intros Hw Hn HM Ha Hb H Hk E. destruct (sub_state_ok h M dbg g part k0 s Hw Hn HM Ha Hb H) as [Eh Hs].
  assert (Hh : graph_hash dbg false h g = Ok (s_hash s)) by (rewrite Eh; apply graph_hash_value; auto).
  destruct (update_levels_sound h M dbg g part k0 k s _ Hw Hn HM Hb Hs Hh Hk _ _ E) as (_ & K & m & Em & M1 & M2 & M3).
  exists m. split; auto. split; auto. pose proof (so_size _ _ _ _ K) as Hsz. unfold sub_size. rewrite Hsz. split.
  - intros i v Hi Hv. rewrite (local_global_spec dbg _ _ _ _ _ K Hi) in Hv. injection Hv as <-.
    apply M2. apply nth_error_nth_lt; auto.
  - intros v Hv Hno. apply M3; auto. intro Hin. apply In_nth_error in Hin as (i & Hi).
    pose proof (nth_error_lt_Some _ _ _ Hi) as Hil. apply (Hno i Hil).
    rewrite (local_global_spec dbg _ _ _ _ _ K Hil). f_equal. apply nth_error_nth; auto.
Qed.

(* ------------------------------------------------------------------ C64 *)
Lemma sub_at_cases dbg s i : well_formed false (s_graph s) -> off (s_graph s) <> [] ->
  (i < sub_size s -> sub_at dbg s i = Ok (row (s_graph s) i)) /\
  (sub_size s <= i -> sub_at dbg s i = if dbg then Abort else Undef).
Proof.
  intros Hw Ho. unfold sub_size, sub_at. split; intro Hi.
  - apply (subscript_row dbg false); auto.
  - unfold subscript. destruct (Nat.ltb_spec i (size_vertex (s_graph s))); [lia|].
    destruct dbg; cbn [ASSERT_DEBUG ASSERT bind]; auto.
    unfold adjacency_iter. rewrite (vget_ge (off (s_graph s)) (i + 1)).
    + unfold vget. destruct (nth_error (off (s_graph s)) i); reflexivity.
    + unfold size_vertex in Hi. destruct (off (s_graph s)); [congruence|]. cbn [length] in *. lia.
Qed.

(* ------------------------------------------------------------------ C65 *)
(** Members of a subgraph below [n], whatever its history. *)
Lemma sub_resize_shrink h dbg g part k s n s' :
  well_formed false g -> 0 < size_vertex g -> sub_ok g (fun x => In x part) k s -> n <= sub_size s ->
  sub_resize h false dbg s n = Ok s' ->
  s_hash s' = s_hash s /\ sub_size s' = n /\ well_formed false (s_graph s') /\
  (forall i, i < n -> local_global dbg s' i = local_global dbg s i /\
                      vertex_level dbg s' i = vertex_level dbg s i) /\
  (forall i j, i < n -> j < n -> (edge (s_graph s') i j <-> edge (s_graph s) i j)).
Proof.
  intros Hw Hn Hs Hle E. pose proof (so_size _ _ _ _ Hs) as Hsz. unfold sub_resize in E.
  destruct (Nat.ltb_spec (sub_size s) n) as [|_]; [lia|]. cbn [bind] in E.
  destruct (resize_spec false (s_graph s) n (so_wf _ _ _ _ Hs)) as (G & EG & G1 & G2 & G3).
  rewrite EG in E. cbn [bind] in E. injection E as <-. unfold sub_size in *. cbn [s_hash s_graph].
  split; auto. split; auto. split; auto. split.
  - intros i Hi. assert (Hi2 : i < length (s_lg s)) by lia.
    rewrite (local_global_spec dbg _ _ _ _ _ Hs Hi2), (vertex_level_spec dbg _ _ _ _ _ Hs Hi2).
    unfold local_global, vertex_level, sub_size, level_of. cbn [s_graph s_lg s_level]. rewrite G2.
    destruct (Nat.ltb_spec i n); [|lia]. rewrite ASSERT_DEBUG_true. cbn [bind].
    assert (V : forall l, i < length l -> vget (vresize l n 0) i = Ok (nth i l 0)).
    { intros l Hl. unfold vget, vresize.
      rewrite nth_error_app1 by (rewrite firstn_length; lia).
      rewrite <- (firstn_skipn n l) at 2. rewrite app_nth1 by (rewrite firstn_length; lia).
      rewrite (nth_error_nth_lt (firstn n l) i 0) by (rewrite firstn_length; lia). reflexivity. }
    split; [apply V; auto|].
    destruct (so_len _ _ _ _ Hs) as [Hz|Hz]; [rewrite Hz; reflexivity|].
    destruct (s_level s) as [|x l] eqn:El; [cbn in Hz; lia|]. cbn [is_nil].
    destruct (is_nil (vresize (x :: l) n 0)) eqn:En.
    + exfalso. destruct n; [lia|]. cbn in En. discriminate.
    + apply V. rewrite Hz. auto.
  - intros i j Hi Hj. rewrite G3. tauto.
Qed.

Definition shrunk (dbg : bool) (s s' : subgraph) (n : nat) : Prop :=
  sub_size s' = n /\ well_formed false (s_graph s') /\
  (forall i, i < n -> local_global dbg s' i = local_global dbg s i /\
                      vertex_level dbg s' i = vertex_level dbg s i) /\
  (forall i j, i < n -> j < n -> (edge (s_graph s') i j <-> edge (s_graph s) i j)).

Lemma sub_resize_state h M dbg g part k s n :
  well_formed false g -> 0 < size_vertex g -> size_vertex g <= M -> ascending part ->
  (forall v, In v part -> v < size_vertex g) ->
  sub_state h M dbg g part k s -> n <= sub_size s ->
  exists s', sub_resize h false dbg s n = Ok s' /\ is_parent h dbg s' g = Ok true /\ shrunk dbg s s' n.
Proof.
  intros Hw Hn HM Ha Hb H Hle. destruct (sub_state_ok h M dbg g part k s Hw Hn HM Ha Hb H) as [E Hs].
  assert (X : exists s', sub_resize h false dbg s n = Ok s').
  { unfold sub_resize. destruct (Nat.ltb_spec (sub_size s) n) as [|_]; [lia|]. cbn [bind].
    destruct (resize_spec false (s_graph s) n (so_wf _ _ _ _ Hs)) as (G & EG & _).
    rewrite EG. cbn [bind]. eauto. }
  destruct X as (s' & Es). exists s'. split; auto.
  destruct (sub_resize_shrink h dbg g part k s n s' Hw Hn Hs Hle Es) as (R1 & R2).
  split; [|exact R2]. unfold is_parent. rewrite graph_hash_value by auto. cbn [bind].
  rewrite R1, E, Nat.eqb_refl. auto.
Qed.

Lemma sub_resize_grow h dbg s n : well_formed false (s_graph s) -> sub_size s < n ->
  exists s', sub_resize h false dbg s n = Ok s' /\ sub_size s' = n /\ s_hash s' = 0 /\
    (forall i j, edge (s_graph s') i j <-> edge (s_graph s) i j).
Proof.
  intros Hw Hlt. unfold sub_resize. destruct (Nat.ltb_spec (sub_size s) n) as [_|]; [|lia].
  destruct (resize_spec false (s_graph s) n Hw) as (G & EG & G1 & G2 & G3).
  rewrite EG. cbn. eexists. split; [reflexivity|]. unfold sub_size in *. cbn. split; auto. split; auto.
  intros i j. rewrite G3. split; [tauto|]. intro H. split; auto.
  destruct (edge_bounds false _ _ _ Hw H) as (Hi & Hj & _). lia.
Qed.

Lemma sub_at_refuted : exists s i, well_formed false (s_graph s) /\ sub_size s <= i /\ sub_at false s i = Undef.
Proof. exists (path3_sub2 1), 3. split; [apply path3'_wf|]. split; [cbv; lia|reflexivity]. Qed.
