(** Specification of add_levels, remove_levels and update_levels. *)
From Verif Require Import Base ListFacts Csr GraphModel GraphSpec GraphFacts GraphInsert GraphErase
  TraversalModel Bfs TraversalFacts OrderingSpec SubgraphModel SubgraphFacts.

Definition within (g : graph) (part : list nat) (v k : nat) : Prop :=
  dist_from (edge g) (fun x => In x part) v k.

Lemma walk_1_inv (E : nat -> nat -> Prop) u v : walk E 1 u v -> E u v.
Proof. intro H. inversion H as [|? ? x ? W1 W2]; subst. inversion W1; subst. auto. Qed.

Lemma within_edge d g part v k w : well_formed d g -> within g part v k -> edge g v w ->
  exists j, within g part w j /\ j <= k + 1.
Proof.
  intros Hw [(s & Hs & Hwk) _] He.
  destruct (dist_from_exists d g part s w (S k) Hw Hs) as (j & Hj & Hd).
  - eapply walk_S; eauto.
  - exists j. split; auto. lia.
Qed.

Lemma within_lt d g part v k : well_formed d g -> (forall s, In s part -> s < size_vertex g) ->
  within g part v k -> k < size_vertex g.
Proof. intros Hw Hp H. eapply (dist_from_lt d g _ v k Hw); [|exact H]. auto. Qed.

Lemma within_bound d g part v k : well_formed d g -> (forall s, In s part -> s < size_vertex g) ->
  within g part v k -> v < size_vertex g.
Proof. intros Hw Hp [(s & Hs & Hwk) _]. eapply walk_bound; eauto. Qed.

Lemma within_0 g part v : within g part v 0 <-> In v part.
Proof.
  split.
  - intros [(s & Hs & Hwk) _]. inversion Hwk; subst; auto.
  - intro H. split; [exists v; split; auto; apply walk_0|]. intros; lia.
Qed.

(** Level list of matching length. *)
Definition full (s : subgraph) : Prop := length (s_level s) = length (s_lg s).

Lemma full_level s i : full s -> i < length (s_lg s) -> level_of s i = nth i (s_level s) 0.
Proof.
  unfold full, level_of, is_nil. intros Hf Hi. destruct (s_level s); auto. destruct i; auto.
Qed.

Section Add.
  Variables (M : nat) (dbg : bool) (g : graph) (part : list nat) (c k : nat) (s : subgraph).
  Let n := size_vertex g.
  Let src := fun x => In x part.
  Hypothesis Hw : well_formed false g.
  Hypothesis Hn : 0 < n.
  Hypothesis HM : n <= M.
  Hypothesis Hpart : forall x, In x part -> x < n.
  Hypothesis Hs : sub_ok g src c s.
  Hypothesis Hf : full s.
  Hypothesis Hck : c < k.
  Hypothesis HkM : k < M.

  Lemma member_level i v : nth_error (s_lg s) i = Some v -> within g part v (nth i (s_level s) 0).
  Proof.
    intro H. rewrite <- full_level; auto; [|eapply nth_error_lt_Some; eauto].
    apply (so_level _ _ _ _ Hs); auto.
  Qed.

  Lemma member_iff v : In v (s_lg s) <-> exists j, within g part v j /\ j <= c.
  Proof. apply (so_in _ _ _ _ Hs). Qed.

  Lemma member_lt v : In v (s_lg s) -> v < n.
  Proof. intro H. apply member_iff in H as (j & H & _). eapply within_bound; eauto. Qed.

  Lemma loaded_lev L :
    length L = n ->
    (forall i v, nth_error (s_lg s) i = Some v -> nth_error L v = Some (nth i (s_level s) 0)) ->
    (forall v, v < n -> ~ In v (s_lg s) -> nth_error L v = Some M) ->
    forall v j, lev M 0 L v = Some j <-> within g part v j /\ j <= c.
  Proof.
    intros HL H1 H2 v j. destruct (in_dec Nat.eq_dec v (s_lg s)) as [Hin|Hin].
    - assert (Hv := member_lt v Hin). apply In_nth_error in Hin as (i & Hi).
      pose proof (member_level i v Hi) as Hl. pose proof (H1 i v Hi) as E.
      pose proof (within_lt false g part v _ Hw Hpart Hl) as Hlt. fold n in Hlt.
      unfold lev. rewrite (nth_error_nth L v M E).
      destruct (Nat.eqb_spec (nth i (s_level s) 0) M); [lia|]. rewrite Nat.sub_0_r.
      assert (Hin : In v (s_lg s)) by (eapply nth_error_In; eauto).
      apply member_iff in Hin as (m & Hm & Hmc).
      pose proof (dist_from_functional _ _ _ _ _ Hl Hm) as Em. split.
      + intro H. injection H as <-. split; auto. lia.
      + intros [H _]. f_equal. eapply dist_from_functional; eauto.
    - split.
      + intro H. assert (Hv : v < n) by (eapply (lev_lt M g); eauto; auto).
        unfold lev in H. rewrite (nth_error_nth L v M (H2 v Hv Hin)), Nat.eqb_refl in H. discriminate.
      + intros [H Hj]. exfalso. apply Hin, member_iff. eauto.
  Qed.

  Lemma loaded_inv L Q cap : c <= cap ->
    length L = n ->
    (forall v j, lev M 0 L v = Some j <-> within g part v j /\ j <= c) ->
    (forall v, In v Q <-> exists i, nth_error (s_lg s) i = Some v /\ nth i (s_level s) 0 = c) ->
    inv g M 0 cap src L Q.
  Proof.
    intros Hcap HL Hlev HQ.
    assert (HQ' : forall v, In v Q <-> within g part v c).
    { intro v. rewrite HQ. split.
      - intros (i & Hi & Ei). rewrite <- Ei. apply member_level; auto.
      - intro H. assert (Hin : In v (s_lg s)) by (apply member_iff; eauto).
        apply In_nth_error in Hin as (i & Hi). exists i. split; auto.
        eapply dist_from_functional; [apply member_level; eauto|exact H]. }
    assert (HQl : forall v, In v Q -> lev M 0 L v = Some c).
    { intros v Hv. apply Hlev. split; auto. apply HQ'; auto. }
    constructor.
    - constructor.
      + exact HL.
      + intros v j H. apply Hlev in H as [[H _] _]. exact H.
      + intros v j H. apply Hlev in H as [_ H]. lia.
      + intros v j H. apply Hlev in H as [H Hj].
        destruct (dist_from_prefix _ _ _ _ j H ltac:(lia)) as (u & Hu & _).
        exists u. apply Hlev. split; auto. lia.
      + intros x Hx. exists 0. split; auto. apply Hlev. split; [apply within_0; auto|lia].
    - intros v Hv. exists c. auto.
    - assert (G : forall q, (forall v, In v q -> In v Q) ->
               StronglySorted (fun a b => levn M 0 L a <= levn M 0 L b) q).
      { induction q as [|a q IH]; intro Hq; constructor; [apply IH; intros; apply Hq; simpl; auto|].
        apply Forall_forall. intros b Hb.
        rewrite !(lev_levn M 0 L _ c); auto; apply HQl, Hq; simpl; auto. }
      apply G. auto.
    - intros v j h Q' -> H. apply Hlev in H as [_ H].
      rewrite (lev_levn M 0 L h c); [lia|]. apply HQl. simpl; auto.
    - intros v j w H Hnq Hj He. apply Hlev in H as [H Hjc].
      assert (j <> c) by (intros ->; apply Hnq, HQ'; auto).
      destruct (within_edge false g part v j w Hw H He) as (m & Hm & Hmj).
      exists m. split; auto. apply Hlev. split; auto. lia.
  Qed.

  Lemma add_levels_ok :
    (dbg = true -> forall l, In l (s_level s) -> l + 1 < n) ->
    exists s' gl, add_levels M dbg g k c s = Ok (s', gl) /\
      s_hash s' = s_hash s /\ sub_ok g src k s' /\ full s' /\ inverse_map n M (s_lg s') gl /\
      exists N, s_lg s' = s_lg s ++ N /\ ascending N.
  Proof.
    intro Hdbg. unfold add_levels. unfold sub_size. rewrite (so_size _ _ _ _ Hs). fold n.
    destruct (load_ok n M c (s_lg s) (s_level s) (so_nodup _ _ _ _ Hs) member_lt Hf)
      as (Q & L & gl & E & Hgl & HL & L1 & L2 & HQ).
    rewrite E. cbn [bind].
    pose proof (loaded_lev L HL L1 L2) as Hlev.
    assert (Ecap : end_cap M n k = k) by (unfold end_cap; destruct (Nat.eqb_spec k M); lia).
    assert (I : inv g M 0 (end_cap M n k) src L Q) by (rewrite Ecap; apply loaded_inv; auto; lia).
    destruct (level_traversal_queue_spec M dbg false g src Q L k Hw HM Hn I) as (L' & E' & HL' & Hr).
    { intros Hd v j H. apply Hlev in H as [H Hj].
      assert (Hin : In v (s_lg s)) by (apply member_iff; eauto).
      apply In_nth_error in Hin as (i & Hi). pose proof (member_level i v Hi) as Hl.
      rewrite (dist_from_functional _ _ _ _ _ H Hl). apply Hdbg; auto. apply nth_In.
      rewrite Hf. eapply nth_error_lt_Some; eauto. }
    fold n in Ecap, HL', Hr. rewrite Ecap in Hr. rewrite E'. cbn [bind].
    assert (HL'v : forall v, v < n -> is_new c k (nth v L' 0) = true <-> exists j, within g part v j /\ c < j <= k).
    { intros v Hv. unfold is_new. rewrite andb_true_iff, Nat.ltb_lt, Nat.leb_le.
      assert (E0 : nth v L' 0 = nth v L' M) by (apply nth_indep; lia). rewrite E0. split.
      - intros [H1 H2]. exists (nth v L' M). split; [|lia].
        assert (Hv' : lev M 0 L' v = Some (nth v L' M)).
        { unfold lev. destruct (Nat.eqb_spec (nth v L' M) M); [lia|]. f_equal. lia. }
        apply Hr in Hv'. apply Hv'.
      - intros (j & H & Hj). assert (Hv' : lev M 0 L' v = Some j) by (apply Hr; split; auto; lia).
        pose proof (lev_val M g M 0 (or_intror (conj eq_refl eq_refl)) HM _ _ _ Hv') as Ev. lia. }
    assert (Hlevv : forall v j, v < n -> is_new c k (nth v L' 0) = true -> within g part v j -> nth v L' 0 = j).
    { intros v j Hv H Hj. apply HL'v in H as (m & Hm & Hmk); auto.
      pose proof (dist_from_functional _ _ _ _ _ Hj Hm). subst m.
      assert (Hv' : lev M 0 L' v = Some j) by (apply Hr; split; auto; lia).
      pose proof (lev_val M g M 0 (or_intror (conj eq_refl eq_refl)) HM _ _ _ Hv') as Ev.
      rewrite (nth_indep L' 0 M) by lia. lia. }
    assert (Hnn : forall v, v < n -> is_new c k (nth v L' 0) = true -> ~ In v (s_lg s)).
    { intros v Hv H Hin. apply HL'v in H as (j & H & Hj); auto. apply member_iff in Hin as (m & Hm & Hmc).
      pose proof (dist_from_functional _ _ _ _ _ H Hm). lia. }
    destruct (append_ok n M c k L' (s_lg s) (s_level s) gl HL' Hgl Hnn) as (gl' & E2 & Hgl').
    rewrite E2. cbn [bind].
    set (N := news c k L' n) in *. set (lg' := s_lg s ++ N) in *.
    assert (HN : forall v, In v N <-> v < n /\ is_new c k (nth v L' 0) = true) by (intro; apply In_news).
    assert (HNa : ascending N) by (apply ascending_filter, ascending_seq).
    assert (Hnd : NoDup lg').
    { apply NoDup_app_intro; [apply Hs|apply ascending_NoDup; auto|].
      intros x H1 H2. apply HN in H2 as [H2 H3]. eapply Hnn; eauto. }
    assert (Hb : forall v, In v lg' -> v < n).
    { intros v Hv. apply in_app_or in Hv as [Hv|Hv]; [apply member_lt; auto|]. apply HN in Hv. tauto. }
    assert (Hin' : forall v, In v lg' <-> exists j, within g part v j /\ j <= k).
    { intro v. unfold lg'. rewrite in_app_iff, member_iff, HN. split.
      - intros [(j & H & Hj)|[Hv H]]; [exists j; split; auto; lia|].
        apply HL'v in H as (j & H & Hj); auto. exists j. split; auto. lia.
      - intros (j & H & Hj). destruct (Nat.le_gt_cases j c); [eauto|]. right.
        assert (Hv : v < n) by exact (within_bound false g part v j Hw Hpart H). split; auto. apply HL'v; auto.
        exists j. split; auto. }
    destruct (connect_ok M dbg g L' gl' lg' c k (s_graph s) Hw HL' Hgl' Hnd Hb HM)
      as (G & E3 & G1 & G2 & G3 & G4 & G5 & G6).
    { intros v Hv H. apply in_or_app. right. apply HN. auto. }
    { apply Hs. }
    { rewrite (so_size _ _ _ _ Hs). unfold lg'. rewrite app_length. lia. }
    { apply Hs. }
    rewrite E3. cbn [bind].
    (* every new vertex has a neighbour one level lower *)
    assert (Hlow : forall v, v < n -> is_new c k (nth v L' 0) = true -> exists a, edge g v a /\ In a lg').
    { intros v Hv H. apply HL'v in H as (j & H & Hj); auto.
      destruct (dist_from_prefix _ _ _ _ (j - 1) H ltac:(lia)) as (u & Hu & Hwk).
      replace (j - (j - 1)) with 1 in Hwk by lia. apply walk_1_inv in Hwk.
      exists u. split; [apply edge_sym; auto|]. apply Hin'.
      exists (j - 1). split; auto. lia. }
    assert (Hsz : size_vertex G = length lg').
    { apply Nat.le_antisymm; auto. destruct (Nat.le_gt_cases (length lg') (size_vertex G)) as [|Hlt]; auto.
      exfalso. rewrite (so_size _ _ _ _ Hs) in G3.
      assert (Hlast : size_vertex G < length lg') by lia.
      pose proof (nth_error_nth_lt lg' (size_vertex G) 0 Hlast) as Ev.
      set (v := nth (size_vertex G) lg' 0) in *.
      assert (HvN : In v N).
      { unfold lg' in Ev. rewrite nth_error_app2 in Ev by lia. eapply nth_error_In; eauto. }
      apply HN in HvN as [Hv1 Hv2].
      pose proof (G6 v (size_vertex G) Hv1 Hv2 Ev (Hlow v Hv1 Hv2)). lia. }
    eexists _, gl'. split; [reflexivity|]. cbn [s_hash s_lg s_level s_graph]. split; auto.
    split; [|split; [|split; [auto|exists N; auto]]].
    2:{ unfold full. cbn [s_level s_lg]. unfold lg'. rewrite !app_length, map_length, Hf. auto. }
    constructor; cbn [s_hash s_lg s_level s_graph]; auto.
    - intros i j u v Hi Hj. rewrite G5.
      assert (Hil := nth_error_lt_Some _ _ _ Hi). assert (Hjl := nth_error_lt_Some _ _ _ Hj).
      split.
      + intros [H|(v' & a & Hv' & Hnew & He & Hl)].
        * destruct (edge_bounds false _ _ _ (so_wf _ _ _ _ Hs) H) as (B1 & B2 & _).
          rewrite (so_size _ _ _ _ Hs) in B1, B2. unfold lg' in Hi, Hj.
          rewrite nth_error_app1 in Hi, Hj by auto.
          apply (so_edge _ _ _ _ Hs i j u v Hi Hj). auto.
        * destruct Hl as [[X1 X2]|[X1 X2]].
          -- replace u with v' by congruence. replace v with a by congruence. auto.
          -- replace u with a by congruence. replace v with v' by congruence. apply edge_sym; auto.
      + intro He. unfold lg' in Hi, Hj.
        destruct (Nat.lt_ge_cases i (length (s_lg s))) as [Hci|Hci].
        * destruct (Nat.lt_ge_cases j (length (s_lg s))) as [Hcj|Hcj].
          -- left. rewrite nth_error_app1 in Hi, Hj by auto. apply (so_edge _ _ _ _ Hs i j u v Hi Hj). auto.
          -- right. exists v, u. assert (HvN : In v N).
             { rewrite nth_error_app2 in Hj by lia. eapply nth_error_In; eauto. }
             apply HN in HvN as [H1 H2]. split; auto. split; auto. split; [apply edge_sym; auto|]. auto.
        * right. exists u, v. assert (HuN : In u N).
          { rewrite nth_error_app2 in Hi by lia. eapply nth_error_In; eauto. }
          apply HN in HuN as [H1 H2]. split; auto. split; auto. split; auto.
    - right. unfold lg'. rewrite !app_length, map_length, Hf. auto.
    - intros i v Hi. assert (Hil := nth_error_lt_Some _ _ _ Hi).
      rewrite full_level; cbn [s_hash s_lg s_level s_graph]; auto.
      2:{ unfold full. cbn [s_level s_lg]. unfold lg'. rewrite !app_length, map_length, Hf. auto. }
      unfold lg' in Hi. destruct (Nat.lt_ge_cases i (length (s_lg s))) as [Hci|Hci].
      + rewrite app_nth1 by (rewrite Hf; auto). rewrite nth_error_app1 in Hi by auto. apply member_level; auto.
      + rewrite app_nth2 by (rewrite Hf; auto). rewrite nth_error_app2 in Hi by auto. rewrite Hf.
        assert (HvN : In v N) by (eapply nth_error_In; eauto). apply HN in HvN as [H1 H2].
        pose proof H2 as H3. apply HL'v in H3 as (m & Hm & Hmk); auto.
        erewrite (nth_error_nth (map _ N)); [|rewrite nth_error_map', Hi; reflexivity].
        rewrite (Hlevv v m H1 H2 Hm). auto.
  Qed.
End Add.
