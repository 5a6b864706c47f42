(** Construction, reordering and parent check of Adjacency_Subgraph. *)
From Verif Require Import Base ListFacts Csr GraphModel GraphSpec GraphFacts GraphInsert GraphErase
  PermFacts GraphReorder TraversalModel Bfs TraversalFacts OrderingSpec SubgraphModel SubgraphFacts
  SubgraphLevels SubgraphUpdate.

(* ------------------------------------------------------------------ hash *)
(** Value of the hash of a graph, for any [h : std::hash<std::size_t>]. *)
Definition hash_value (h : nat -> nat) (g : graph) : nat :=
  if size_vertex g =? 0 then 0
  else Nat.lxor (Nat.lxor (Nat.lxor (Nat.lxor 0 (h (size_vertex g))) (h (size_edge false g)))
                          (h (length (row g 0)))) (h (length (row g (size_vertex g - 1)))).

Lemma graph_hash_value dbg h g : well_formed false g -> graph_hash dbg false h g = Ok (hash_value h g).
Proof.
  intro Hw. unfold graph_hash, hash_value, g_empty, g_front, g_back.
  assert (E : length (off g) <? 2 = (size_vertex g =? 0)).
  { unfold size_vertex. destruct (off g) as [|x [|y l]]; cbn [length]; auto. }
  unfold g_empty. rewrite E. destruct (Nat.eqb_spec (size_vertex g) 0) as [H0|H0]; auto.
  cbn [negb]. rewrite ASSERT_DEBUG_true. cbn [bind].
  rewrite !(subscript_row dbg false) by (auto; lia). cbn [bind]. reflexivity.
Qed.

(* ------------------------------------------------------------------ constructor *)
Lemma unique_copy_id l : NoDup l -> unique_copy l = l.
Proof.
  induction 1 as [|x l Hx Hl IH]; auto. cbn [unique_copy]. destruct l as [|y l]; auto.
  destruct (Nat.eqb_spec x y) as [->|]; [exfalso; apply Hx; left; auto|]. rewrite IH. auto.
Qed.

Lemma ctor_checks (dbg : bool) n part : NoDup part -> (forall v, In v part -> v < n) ->
  (if dbg then
     bind (ASSERT (length (unique_copy part) =? length part)) (fun _ : unit =>
     bind (ASSERT (length part <=? n)) (fun _ : unit =>
     ASSERT (negb (existsb (fun v => n <=? v) part))))
   else Ok tt) = Ok tt.
Proof.
  intros Hn Hb. destruct dbg; auto. rewrite unique_copy_id, Nat.eqb_refl by auto. cbn [ASSERT bind].
  assert (Hl : length part <= n).
  { rewrite <- (seq_length n 0). apply NoDup_incl_length; auto. intros v Hv. apply in_seq.
    specialize (Hb v Hv). lia. }
  destruct (Nat.leb_spec (length part) n); [|lia]. cbn [ASSERT bind].
  destruct (existsb (fun v => n <=? v) part) eqn:E; auto.
  apply existsb_exists in E as (v & Hv & Hv'). apply Nat.leb_le in Hv'. specialize (Hb v Hv). lia.
Qed.

Lemma ctor_loop n M part : NoDup part -> (forall v, In v part -> v < n) ->
  exists gl, forM part (fun v s => let '(gl, i) := s in do gl' <- vset gl v i; Ok (gl', i + 1))
                  (repeat M n, 0) = Ok (gl, length part) /\ inverse_map n M part gl.
Proof.
  intros Hnd Hb.
  destruct (forM_inv (fun l (s : list nat * nat) => snd s = length l /\ inverse_map n M l (fst s)) part
    (fun v s => let '(gl, i) := s in do gl' <- vset gl v i; Ok (gl', i + 1)) (repeat M n, 0))
    as ((gl & i) & E & H1 & H2).
  - split; auto. cbn [fst]. split; [apply repeat_length|]. split.
    + intros i v H. destruct i; discriminate.
    + intros v Hv _. rewrite nth_error_repeat'. destruct (Nat.ltb_spec v n); [auto|lia].
  - intros l1 v l2 (gl & i) El (H1 & H2 & H3 & H4). cbn [fst snd] in *. subst i.
    assert (Hv : v < n) by (apply Hb; rewrite El; apply in_or_app; right; left; auto).
    assert (Hvl : ~ In v l1).
    { intro H. rewrite El in Hnd. apply NoDup_remove_2 in Hnd. apply Hnd, in_or_app. auto. }
    rewrite vset_lt by lia. cbn [bind]. eexists. split; [reflexivity|]. cbn [fst snd].
    split; [rewrite app_length; cbn; lia|]. split; [rewrite upd_length; lia|]. split.
    + intros j w Hj. rewrite nth_error_upd by lia. rewrite nth_error_app in Hj.
      destruct (Nat.ltb_spec j (length l1)) as [Hc|Hc].
      * destruct (Nat.eqb_spec w v) as [->|]; auto. exfalso. apply Hvl. eapply nth_error_In; eauto.
      * destruct (j - length l1) as [|m] eqn:Em; [|destruct m; discriminate].
        cbn in Hj. injection Hj as <-. rewrite Nat.eqb_refl. f_equal. lia.
    + intros w Hw Hn. rewrite nth_error_upd by lia. destruct (Nat.eqb_spec w v) as [->|].
      * exfalso. apply Hn, in_or_app. right. left. auto.
      * apply H4; auto. intro H. apply Hn, in_or_app. auto.
  - exists gl. cbn [fst snd] in *. subst i. auto.
Qed.

Lemma inverse_del n M part gl v : n <= M -> length part <= n -> inverse_map n M part gl -> v < n ->
  ((nth v gl M =? M) = false <-> In v part).
Proof.
  intros HM Hl (H1 & H2 & H3) Hv. rewrite Nat.eqb_neq. split.
  - intro H. destruct (in_dec Nat.eq_dec v part) as [|Hn]; auto. exfalso. apply H.
    apply nth_error_nth. auto.
  - intros H. apply In_nth_error in H as (i & Hi). rewrite (nth_error_nth gl v M (H2 i v Hi)).
    pose proof (nth_error_lt_Some _ _ _ Hi). lia.
Qed.

Section New.
  Variables (h : nat -> nat) (M : nat) (dbg : bool) (g : graph) (part : list nat).
  Let n := size_vertex g.
  Hypothesis Hw : well_formed false g.
  Hypothesis HM : n <= M.
  Hypothesis Hasc : ascending part.
  Hypothesis Hb : forall v, In v part -> v < n.

  Lemma part_len : length part <= n.
  Proof.
    rewrite <- (seq_length n 0). apply NoDup_incl_length; [apply ascending_NoDup; auto|].
    intros v Hv. apply in_seq. specialize (Hb v Hv). lia.
  Qed.

  Lemma subgraph_new_unfold extra : exists gl, inverse_map n M part gl /\
    subgraph_new h M dbg g part extra =
      do G <- erase_if M (fun v => nth v gl M =? M) g;
      if extra =? 0 then Ok (mkS (hash_value h g) G part [])
      else do r <- update_levels h M dbg g extra (mkS (hash_value h g) G part []) (Some gl); Ok (fst r).
  Proof.
    destruct (ctor_loop n M part (ascending_NoDup _ Hasc) Hb) as (gl & E & Hgl).
    exists gl. split; auto. unfold subgraph_new. fold n.
    rewrite (ctor_checks dbg n part (ascending_NoDup _ Hasc) Hb). cbn [bind].
    rewrite graph_hash_value by auto. cbn [bind]. rewrite E. reflexivity.
  Qed.

  Lemma base_ok gl G : inverse_map n M part gl ->
    erase_if M (fun v => nth v gl M =? M) g = Ok G ->
    sub_ok g (fun x => In x part) 0 (mkS (hash_value h g) G part []).
  Proof.
    intros Hgl E. set (del := fun v => nth v gl M =? M) in *.
    assert (Hdel : forall v, v < n -> (del v = false <-> In v part))
      by (intros v Hv; apply (inverse_del n M part gl v HM part_len Hgl Hv)).
    assert (Hoff : off g <> []).
    { intro H. assert (Hu : erase_if M del g = Undef) by (apply (erase_if_undefined M false); auto).
      congruence. }
    assert (Hadj : forall i, i < n -> del i = false -> i < length (adj g)).
    { intros i Hi Hd. destruct (Nat.lt_ge_cases i (length (adj g))) as [|Hc]; auto.
      assert (Hu : erase_if M del g = Undef).
      { apply (erase_if_undefined M false); auto. right. exists i. auto. }
      congruence. }
    destruct (erase_if_spec M false del g Hw Hoff Hadj) as (G' & E' & G1 & G2 & G3).
    rewrite E' in E. injection E as ->.
    assert (Hk : kept del n = part).
    { apply ascending_ext; auto.
      - apply ascending_filter, ascending_seq.
      - intro v. unfold kept. rewrite filter_In, in_seq, negb_true_iff. split.
        + intros [H1 H2]. apply Hdel; [lia|auto].
        + intro H. pose proof (Hb v H). split; [lia|]. apply Hdel; auto. }
    assert (Hrank : forall i v, nth_error part i = Some v -> v < n /\ del v = false /\ rank del v = i).
    { intros i v Hi. assert (Hin : In v part) by (eapply nth_error_In; eauto).
      assert (Hv := Hb v Hin). assert (Hd : del v = false) by (apply Hdel; auto).
      split; auto. split; auto. pose proof (kept_nth del n v Hv Hd) as Hr. rewrite Hk in Hr.
      apply (proj1 (NoDup_nth_error part) (ascending_NoDup _ Hasc)); [|congruence].
      eapply nth_error_lt_Some; eauto. }
    constructor; cbn [s_graph s_lg s_level]; auto.
    - eapply erase_if_off; eauto.
    - rewrite G2. rewrite <- Hk. reflexivity.
    - apply ascending_NoDup; auto.
    - intro v. split.
      + intro H. exists 0. split; [apply within_0; auto|lia].
      + intros (j & Hj & Hj0). replace j with 0 in Hj by lia. apply (within_0 g part v). exact Hj.
    - intros i j u v Hi Hj. destruct (Hrank i u Hi) as (U1 & U2 & U3).
      destruct (Hrank j v Hj) as (V1 & V2 & V3). rewrite <- U3, <- V3. apply G3; auto.
    - intros i v Hi. cbn. apply within_0. eapply nth_error_In; eauto.
  Qed.

  Lemma subgraph_new_undefined extra :
    (off g = [] \/ exists v, In v part /\ length (adj g) <= v) ->
    subgraph_new h M dbg g part extra = Undef.
  Proof.
    intro H. destruct (subgraph_new_unfold extra) as (gl & Hgl & E). rewrite E.
    assert (Hu : erase_if M (fun v => nth v gl M =? M) g = Undef).
    { apply (erase_if_undefined M false); auto. destruct H as [H|(v & Hv & Hl)]; auto. right.
      exists v. split; [apply Hb; auto|]. split; auto.
      apply (inverse_del n M part gl v HM part_len Hgl); auto. }
    rewrite Hu. reflexivity.
  Qed.

  Lemma subgraph_new_sound extra s : extra < M ->
    subgraph_new h M dbg g part extra = Ok s ->
    s_hash s = hash_value h g /\ sub_ok g (fun x => In x part) extra s.
  Proof.
    intros He E. destruct (subgraph_new_unfold extra) as (gl & Hgl & E1). rewrite E1 in E.
    apply bind_Ok in E as (G & EG & E). pose proof (base_ok gl G Hgl EG) as H0.
    destruct (Nat.eqb_spec extra 0) as [->|Hx].
    - injection E as <-. auto.
    - apply bind_Ok in E as ((s' & gl') & EU & E). injection E as <-. cbn [fst].
      assert (Hn : 0 < n \/ n = 0) by lia. destruct Hn as [Hn|Hn].
      + destruct (update_levels_sound h M dbg g part 0 extra _ (Some gl) Hw Hn HM Hb H0) with (2 := He) (3 := EU)
          as (R1 & R2 & _); auto. cbn. apply graph_hash_value; auto.
      + (* an empty parent: nothing to add *)
        assert (Hp : part = []).
        { destruct part as [|v p] eqn:Ep; auto. specialize (Hb v ltac:(left; auto)). lia. }
        rewrite (update_levels_unfold h M dbg g extra _ (Some gl)) in EU
          by (cbn [s_hash]; apply graph_hash_value; auto).
        unfold top_level in EU. cbn [s_level list_max fold_right] in EU.
        destruct (Nat.ltb_spec 0 extra); [|lia]. apply bind_Ok in EU as ((s1 & gl1) & EA & EU).
        cbn [fst snd] in EU. injection EU as <- _.
        unfold add_levels, filled, sub_size in EA. cbn [s_graph s_lg s_level s_hash is_nil] in EA.
        pose proof (so_size _ _ _ _ H0) as Hsz. cbn [s_graph s_lg] in Hsz. rewrite Hp in Hsz. cbn in Hsz.
        fold n in EA. rewrite Hsz, Hn in EA. cbn [repeat FOR forM seq bind] in EA.
        apply bind_Ok in EA as (L & EL & EA). unfold level_traversal_queue in EL.
        apply bind_Ok in EL as (? & _ & EL). apply bind_Ok in EL as (? & _ & EL).
        apply bind_Ok in EL as (? & _ & EL). apply bind_Ok in EL as (L2 & EL2 & EL).
        cbn [bfs_loop length Nat.add map] in EL2. injection EL2 as <-. cbn [map] in EL. injection EL as <-.
        cbn [length FOR forM seq bind] in EA. injection EA as <- _.
        split; auto. rewrite Hp in *. destruct H0 as [K1 K2 K3 K4 K5 K6 K7 K8].
        constructor; cbn [s_graph s_lg s_level] in *; auto.
        intro v. rewrite K5. split; intros (j & [(z & [] & _) _] & _).
  Qed.

  Lemma one_vertex_no_adj : n = 1 -> adj g = [].
  Proof.
    intro Hn. destruct (proj1 (well_formed_rows false g) Hw) as [Hr Hok]. rewrite (repr_adj _ _ Hr).
    pose proof (rows_length g) as Hrl. fold n in Hrl. rewrite Hn in Hrl.
    destruct (rows g) as [|r [|r2 rs]] eqn:Er; try discriminate. cbn. rewrite app_nil_r.
    destruct r as [|x r]; auto. destruct (Hok 0 ltac:(cbn; lia)) as (_ & Hbd & _).
    destruct (Hbd x) as [H1 H2]; [left; auto|]. cbn in H1. lia.
  Qed.

  Lemma subgraph_new_ok extra : extra < M -> 0 < n ->
    (forall v, In v part -> v < length (adj g)) ->
    exists s, subgraph_new h M dbg g part extra = Ok s /\
      s_hash s = hash_value h g /\ sub_ok g (fun x => In x part) extra s.
  Proof.
    intros He Hn Ha.
    assert (Ho : off g <> []) by (intro Ho; unfold n, size_vertex in Hn; rewrite Ho in Hn; lia).
    destruct (subgraph_new_unfold extra) as (gl & Hgl & E1).
    assert (EG : exists G, erase_if M (fun v => nth v gl M =? M) g = Ok G).
    { destruct (erase_if_spec M false (fun v => nth v gl M =? M) g Hw Ho) as (G & EG & _); [|eauto].
      intros i Hi Hd. apply Ha. apply (inverse_del n M part gl i HM part_len Hgl Hi). auto. }
    destruct EG as (G & EG). pose proof (base_ok gl G Hgl EG) as H0.
    assert (Hok : exists s, subgraph_new h M dbg g part extra = Ok s).
    { rewrite E1, EG. cbn [bind]. destruct (Nat.eqb_spec extra 0) as [->|Hx0]; [eauto|].
      destruct (update_levels_ok h M dbg g part 0 extra _ (Some gl) Hw Hn HM Hb H0) as (s' & gl' & EU & _); auto.
      - cbn. apply graph_hash_value; auto.
      - left. unfold top_level. cbn. split; [lia|]. intros _ Hne. fold n.
        destruct (Nat.eq_dec n 1) as [E|E]; [|lia]. exfalso. pose proof (one_vertex_no_adj E) as Hadj.
        destruct part as [|v p]; [congruence|]. specialize (Ha v (or_introl eq_refl)).
        rewrite Hadj in Ha. cbn in Ha. lia.
      - rewrite EU. cbn [bind]. eauto. }
    destruct Hok as (s & Es). exists s. split; auto. eapply subgraph_new_sound; eauto.
  Qed.

End New.

(* ------------------------------------------------------------------ accessors *)
Lemma local_global_spec dbg g src k s i : sub_ok g src k s -> i < length (s_lg s) ->
  local_global dbg s i = Ok (nth i (s_lg s) 0).
Proof.
  intros Hs Hi. unfold local_global, sub_size. rewrite (so_size _ _ _ _ Hs).
  destruct (Nat.ltb_spec i (length (s_lg s))); [|lia]. rewrite ASSERT_DEBUG_true. cbn [bind].
  apply vget_lt; auto.
Qed.

Lemma vertex_level_spec dbg g src k s i : sub_ok g src k s -> i < length (s_lg s) ->
  vertex_level dbg s i = Ok (level_of s i).
Proof.
  intros Hs Hi. unfold vertex_level, level_of, sub_size. rewrite (so_size _ _ _ _ Hs).
  destruct (Nat.ltb_spec i (length (s_lg s))); [|lia]. rewrite ASSERT_DEBUG_true. cbn [bind].
  destruct (so_len _ _ _ _ Hs) as [Hz|Hz].
  - rewrite Hz. reflexivity.
  - destruct (s_level s) eqn:E; [reflexivity|]. cbn [is_nil]. apply vget_lt. lia.
Qed.

Lemma is_local_spec dbg g src k s i : sub_ok g src k s -> i < length (s_lg s) ->
  is_local dbg s i = Ok (level_of s i =? 0).
Proof.
  intros Hs Hi. unfold is_local, level_of, sub_size. rewrite (so_size _ _ _ _ Hs).
  destruct (Nat.ltb_spec i (length (s_lg s))); [|lia]. rewrite ASSERT_DEBUG_true. cbn [bind].
  destruct (so_len _ _ _ _ Hs) as [Hz|Hz].
  - rewrite Hz. reflexivity.
  - destruct (s_level s) eqn:E; [reflexivity|]. cbn [is_nil].
    rewrite (vget_lt (n :: l) i 0) by lia. reflexivity.
Qed.

(* ------------------------------------------------------------------ reorder *)
Lemma perm_nth_lt n p i : is_perm n p -> i < n -> nth i p 0 < n.
Proof.
  intros Hp Hi. assert (Hl : length p = n) by (apply Permutation_length in Hp; rewrite seq_length in Hp; auto).
  assert (H : In (nth i p 0) p) by (apply nth_In; lia).
  apply (Permutation_in _ Hp) in H. apply in_seq in H. lia.
Qed.

Lemma perm_nth_inj n p i j : is_perm n p -> i < n -> j < n -> nth i p 0 = nth j p 0 -> i = j.
Proof.
  intros Hp Hi Hj E. assert (Hl : length p = n) by (apply Permutation_length in Hp; rewrite seq_length in Hp; auto).
  assert (Hn : NoDup p) by (eapply Permutation_NoDup; [apply Permutation_sym; exact Hp|apply seq_NoDup]).
  apply (proj1 (NoDup_nth p 0) Hn); auto; lia.
Qed.

Lemma perm_nth_onto n p x : is_perm n p -> x < n -> exists i, i < n /\ nth i p 0 = x.
Proof.
  intros Hp Hx. assert (Hl : length p = n) by (apply Permutation_length in Hp; rewrite seq_length in Hp; auto).
  assert (H : In x p) by (apply (Permutation_in _ (Permutation_sym Hp)); apply in_seq; lia).
  apply (In_nth _ _ 0) in H as (i & Hi & E). exists i. split; auto. lia.
Qed.

Lemma reorder_empty_off dbg g p g' o : size_vertex g = 0 -> off g <> [] ->
  reorder dbg g p = Ok (g', o) -> off g' <> [].
Proof.
  intros H0 Ho E. unfold reorder in E. rewrite H0 in E.
  apply bind_Ok in E as (? & _ & E). apply bind_Ok in E as (? & _ & E).
  assert (Ee : g_empty g = true).
  { unfold g_empty, size_vertex in *. destruct (off g) as [|a [|b l]]; auto. cbn in H0. lia. }
  rewrite Ee in E. cbn [bind FOR forM seq] in E. injection E as <- _. cbn [off].
  destruct (off g); [congruence|discriminate].
Qed.

(** Everything the reorder member does, for a subgraph whose vectors have matching lengths. *)
Lemma sub_reorder_spec dbg s p :
  well_formed false (s_graph s) -> size_vertex (s_graph s) = length (s_lg s) ->
  s_level s = [] \/ length (s_level s) = length (s_lg s) ->
  is_perm (size_vertex (s_graph s)) p ->
  exists s', sub_reorder dbg s p = Ok (s', mkS 0 (s_graph s) (s_lg s) (s_level s)) /\
    s_hash s' = s_hash s /\ well_formed false (s_graph s') /\
    size_vertex (s_graph s') = size_vertex (s_graph s) /\ length (s_lg s') = length (s_lg s) /\
    length (s_level s') = length (s_level s) /\
    (forall i, i < length (s_lg s) ->
       nth (nth i p 0) (s_lg s') 0 = nth i (s_lg s) 0 /\
       level_of s' (nth i p 0) = level_of s i) /\
    (forall i j, i < length (s_lg s) -> j < length (s_lg s) ->
       (edge (s_graph s') (nth i p 0) (nth j p 0) <-> edge (s_graph s) i j)).
Proof.
  intros Hw Hsz Hlen Hp. unfold sub_reorder.
  destruct (reorder_spec dbg false (s_graph s) p Hw Hp) as (G & E & G1 & G2 & _ & G3 & _).
  rewrite E. cbn [bind fst snd]. rewrite G2. set (n := size_vertex (s_graph s)) in *.
  assert (Hpl : length p = n) by (apply Permutation_length in Hp; rewrite seq_length in Hp; auto).
  rewrite Hpl.
  set (nilb := is_nil (s_level s)).
  assert (Hlv : nilb = false -> length (s_level s) = n).
  { intro H. destruct Hlen as [H0|H0]; [unfold nilb in H; rewrite H0 in H; discriminate|]. lia. }
  destruct (FOR_inv (fun k (x : list nat * list nat) =>
      let '(lg, lv) := x in
      length lg = n /\ length lv = (if nilb then 0 else n) /\
      (forall i, i < k -> nth (nth i p 0) lg 0 = nth i (s_lg s) 0) /\
      (nilb = false -> forall i, i < k -> nth (nth i p 0) lv 0 = nth i (s_level s) 0)) n
    (fun i x => let '(lg, lv) := x in
       do q <- vget p i;
       do v <- vget (s_lg s) i;
       do lg' <- vset lg q v;
       if nilb then Ok (lg', lv)
       else do l <- vget (s_level s) i; do lv' <- vset lv q l; Ok (lg', lv'))
    (repeat 0 n, if nilb then [] else repeat 0 n)) as ((lg & lv) & EF & H).
  - rewrite repeat_length. split; auto. split; [destruct nilb; auto; apply repeat_length|].
    split; intros; lia.
  - intros k (lg & lv) Hk (H1 & H2 & H3 & H4).
    rewrite (vget_lt p k 0) by lia. cbn [bind]. rewrite (vget_lt (s_lg s) k 0) by lia. cbn [bind].
    pose proof (perm_nth_lt n p k Hp Hk) as Hpk. rewrite vset_lt by lia. cbn [bind].
    assert (Hlg : forall i, i < k + 1 -> nth (nth i p 0) (upd lg (nth k p 0) (nth k (s_lg s) 0)) 0 = nth i (s_lg s) 0).
    { intros i Hi. rewrite nth_upd by lia. destruct (Nat.eqb_spec (nth i p 0) (nth k p 0)) as [Ei|Ei].
      - rewrite (perm_nth_inj n p i k) by (auto; lia). auto.
      - apply H3. destruct (Nat.eq_dec i k) as [->|]; [congruence|lia]. }
    destruct nilb eqn:En.
    + eexists. split; [reflexivity|]. cbv beta iota. split; [rewrite upd_length; lia|].
      split; auto. split; auto. discriminate.
    + specialize (Hlv eq_refl). rewrite (vget_lt (s_level s) k 0) by lia. cbn [bind].
      rewrite vset_lt by lia. cbn [bind]. eexists. split; [reflexivity|]. cbv beta iota.
      split; [rewrite upd_length; lia|]. split; [rewrite upd_length; lia|]. split; auto.
      intros _ i Hi. rewrite nth_upd by lia. destruct (Nat.eqb_spec (nth i p 0) (nth k p 0)) as [Ei|Ei].
      * rewrite (perm_nth_inj n p i k) by (auto; lia). auto.
      * apply H4; auto. destruct (Nat.eq_dec i k) as [->|]; [congruence|lia].
  - destruct H as (H1 & H2 & H3 & H4). rewrite EF. cbn [bind fst snd].
    eexists. split; [reflexivity|]. cbn [s_hash s_graph s_lg s_level].
    split; auto. split; auto. split; auto. split; [lia|]. split.
    { rewrite H2. unfold nilb in *. destruct (s_level s) eqn:El; auto. cbn [is_nil]. rewrite Hlv; auto. }
    split.
    + intros i Hi. split; [apply H3; lia|]. unfold level_of. cbn [s_level].
      fold nilb. destruct nilb eqn:En.
      * destruct lv; [reflexivity|discriminate].
      * specialize (Hlv eq_refl). destruct lv as [|x lv]; [cbn in H2; lia|]. cbn [is_nil].
        apply H4; auto. lia.
    + intros i j Hi Hj. apply G3; lia.
Qed.

Lemma sub_reorder_keeps dbg g src k s s' o p : sub_ok g src k s -> is_perm (sub_size s) p ->
  sub_reorder dbg s p = Ok (s', o) -> sub_ok g src k s' /\ s_hash s' = s_hash s.
Proof.
  intros Hs Hp E. pose proof (so_size _ _ _ _ Hs) as Hsz. unfold sub_size in Hp.
  destruct (sub_reorder_spec dbg s p (so_wf _ _ _ _ Hs) Hsz (so_len _ _ _ _ Hs) Hp)
    as (s1 & E1 & R1 & R2 & R3 & R4 & R5 & R6 & R7).
  rewrite E1 in E. injection E as <- <-. rewrite Hsz in *. split; auto.
  assert (Hpre : forall a v, nth_error (s_lg s1) a = Some v ->
            exists i, i < length (s_lg s) /\ a = nth i p 0 /\ nth_error (s_lg s) i = Some v).
  { intros a v Ha. pose proof (nth_error_lt_Some _ _ _ Ha) as Hal. rewrite R4 in Hal.
    destruct (perm_nth_onto _ _ _ Hp Hal) as (i & Hi & <-). exists i. split; auto. split; auto.
    rewrite (nth_error_nth_lt _ i 0) by auto. rewrite <- (proj1 (R6 i Hi)).
    f_equal. apply nth_error_nth. auto. }
  constructor; auto.
  - intro Ho. destruct (s_lg s) eqn:El.
    + assert (Hs0 : size_vertex (s_graph s) = 0) by (rewrite Hsz; reflexivity).
      unfold sub_reorder in E1. apply bind_Ok in E1 as ((G & G') & Er & E1).
      apply bind_Ok in E1 as (x & _ & E1). injection E1 as E1 _. rewrite <- E1 in Ho.
      exact (reorder_empty_off dbg (s_graph s) p G G' Hs0 (so_off _ _ _ _ Hs) Er Ho).
    + unfold size_vertex in R3. rewrite Ho in R3. cbn in R3. discriminate.
  - rewrite R3, R4. auto.
  - apply NoDup_nth_error. intros a b Ha Hab. rewrite (nth_error_nth_lt _ a 0 Ha) in Hab. symmetry in Hab.
    pose proof (nth_error_nth_lt _ a 0 Ha) as Ha'.
    destruct (Hpre _ _ Ha') as (i & Hi & -> & Hi'). destruct (Hpre _ _ Hab) as (j & Hj & -> & Hj').
    f_equal. apply (proj1 (NoDup_nth_error _) (so_nodup _ _ _ _ Hs)); auto. congruence.
  - intro v. rewrite <- (so_in _ _ _ _ Hs). split.
    + intro H. apply In_nth_error in H as (a & Ha). destruct (Hpre _ _ Ha) as (i & _ & _ & Hi).
      eapply nth_error_In; eauto.
    + intro H. apply In_nth_error in H as (i & Hi). pose proof (nth_error_lt_Some _ _ _ Hi) as Hil.
      rewrite <- (nth_error_nth _ _ 0 Hi), <- (proj1 (R6 i Hil)). apply nth_In. rewrite R4.
      eapply perm_nth_lt; eauto.
  - intros a b u v Ha Hb. destruct (Hpre _ _ Ha) as (i & Hi & -> & Hi').
    destruct (Hpre _ _ Hb) as (j & Hj & -> & Hj'). rewrite R7 by auto. apply (so_edge _ _ _ _ Hs); auto.
  - rewrite R4. destruct (so_len _ _ _ _ Hs) as [H|H].
    + left. rewrite H in R5. apply length_zero_iff_nil. auto.
    + right. lia.
  - intros a v Ha. destruct (Hpre _ _ Ha) as (i & Hi & -> & Hi'). rewrite (proj2 (R6 i Hi)).
    apply (so_level _ _ _ _ Hs); auto.
Qed.
