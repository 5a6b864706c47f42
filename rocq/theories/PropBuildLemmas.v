(** Lemmas behind C93. *)
From Verif Require Import Base ListFacts Csr GraphModel GraphSpec GraphFacts PermFacts GraphInsert GraphErase TraversalModel
  Bfs TraversalFacts SubgraphModel SubgraphFacts SubgraphNew PropTraversalLemmas PropSubgraphLemmas.

Lemma list_graph dbg d es : es <> [] -> (forall e, In e es -> fst e <> snd e) ->
  exists g, graph_of_list dbg d es = Ok g /\ well_formed d g /\
    (forall u v, edge g u v <-> mem_edge d (u, v) es = true) /\
    size_edge d g = length (distinct_edges d es) /\ size_vertex g = vertex_bound es.
Proof.
  intros Hne He. destruct (insert_all_spec dbg d es He) as (g & bs & E & Hwf & Hedge & _ & _ & H3 & H4).
  exists g. split; [|split; [exact Hwf|split; [exact Hedge|split; [apply size_edge_mul; auto|exact H4]]]].
  unfold graph_of_list. rewrite insert_all_forM, E. destruct es; [contradiction|reflexivity].
Qed.

Lemma list_graph_empty dbg d : graph_of_list dbg d [] = Undef.
Proof. reflexivity. Qed.

(* ------------------------------------------------------------------ the subgraph constructor *)
Definition adjacent_twin (l : list nat) : Prop := exists i v, nth_error l i = Some v /\ nth_error l (S i) = Some v.

Lemma unique_copy_le l : length (unique_copy l) <= length l.
Proof.
  induction l as [|x l IH]; [auto|]. cbn [unique_copy]. destruct l as [|y l]; [auto|].
  destruct (x =? y); cbn [length] in *; lia.
Qed.

Lemma unique_copy_twin l : adjacent_twin l <-> length (unique_copy l) <> length l.
Proof.
  induction l as [|x l IH].
  - split; [intros ([|i] & v & H & _); discriminate|intro H; contradiction].
  - destruct l as [|y l].
    + split; [intros ([|[|i]] & v & _ & H); discriminate|intro H; contradiction].
    + pose proof (unique_copy_le (y :: l)) as L. cbn [unique_copy] in *. destruct (Nat.eqb_spec x y) as [->|Hxy].
      * split; [intros _; cbn [length] in *; lia|]. intros _. exists 0, y. split; reflexivity.
      * split.
        -- intros ([|i] & v & H1 & H2); [cbn in H1, H2; congruence|].
           assert (H : adjacent_twin (y :: l)) by (exists i, v; split; assumption). apply IH in H. cbn [length] in *. lia.
        -- intro H. cbn [length] in H. assert (H' : adjacent_twin (y :: l)) by (apply IH; cbn [length] in *; lia).
           destruct H' as (i & v & H1 & H2). exists (S i), v. split; assumption.
Qed.

Lemma new_aborts h M g part extra : 
  adjacent_twin part \/ size_vertex g < length part \/ (exists v, In v part /\ size_vertex g <= v) ->
  subgraph_new h M true g part extra = Abort.
Proof.
  intro H. unfold subgraph_new.
  destruct (Nat.eqb_spec (length (unique_copy part)) (length part)) as [E|E]; cbn [ASSERT bind]; [|reflexivity].
  destruct (Nat.leb_spec (length part) (size_vertex g)) as [L|L]; cbn [ASSERT bind]; [|reflexivity].
  destruct H as [H|[H|(v & Hv & Hn)]]; [apply unique_copy_twin in H; contradiction|lia|].
  assert (X : existsb (fun v => size_vertex g <=? v) part = true).
  { apply existsb_exists. exists v. split; [exact Hv|apply Nat.leb_le, Hn]. }
  rewrite X. reflexivity.
Qed.

(** The table after the loop of the constructor, for any list of vertices. *)
Lemma ctor_table n M part : (forall v, In v part -> v < n) ->
  exists gl, forM part (fun v s => let '(gl, i) := s in do gl' <- vset gl v i; Ok (gl', i + 1))
                  (repeat M n, 0) = Ok (gl, length part) /\ length gl = n /\
    (forall v, In v part -> exists i, i < length part /\ nth_error gl v = Some i) /\
    (forall v, v < n -> ~ In v part -> nth_error gl v = Some M).
Proof.
  intro Hb.
  destruct (forM_inv (fun l (s : list nat * nat) => snd s = length l /\ length (fst s) = n /\
      (forall v, In v l -> exists i, i < length l /\ nth_error (fst s) v = Some i) /\
      (forall v, v < n -> ~ In v l -> nth_error (fst s) v = Some M)) part
    (fun v s => let '(gl, i) := s in do gl' <- vset gl v i; Ok (gl', i + 1)) (repeat M n, 0))
    as ((gl & i) & E & H1 & H2 & H3 & H4).
  - split; [reflexivity|]. cbn [fst]. split; [apply repeat_length|]. split; [intros v []|].
    intros v Hv _. rewrite nth_error_repeat'. destruct (Nat.ltb_spec v n); [auto|lia].
  - intros l1 v l2 (gl & i) El (H1 & H2 & H3 & H4). cbn [fst snd] in *. subst i.
    assert (Hv : v < n) by (apply Hb; rewrite El; apply in_or_app; right; left; auto).
    rewrite vset_lt by lia. cbn [bind]. eexists. split; [reflexivity|]. cbn [fst snd].
    rewrite app_length, upd_length by lia. cbn [length]. split; [lia|]. split; [lia|]. split.
    + intros w Hw. rewrite nth_error_upd by lia. destruct (Nat.eqb_spec w v) as [->|Hwv].
      * exists (length l1). split; [lia|reflexivity].
      * apply in_app_or in Hw as [Hw|[Hw|[]]]; [|congruence]. destruct (H3 w Hw) as (i & Hi & Ei). exists i. split; [lia|exact Ei].
    + intros w Hw Hn. rewrite nth_error_upd by lia. destruct (Nat.eqb_spec w v) as [->|].
      * exfalso. apply Hn, in_or_app. right. left. auto.
      * apply H4; auto. intro H. apply Hn, in_or_app. auto.
  - exists gl. cbn [fst snd] in *. subst i. auto.
Qed.

Lemma ctor_beyond n M part : (exists v, In v part /\ n <= v) ->
  forM part (fun v s => let '(gl, i) := s in do gl' <- vset gl v i; Ok (gl', i + 1)) (repeat M n, 0) = Undef.
Proof.
  intros (v & Hv & Hn). assert (H : forall gl i, length gl = n ->
    forM part (fun v s => let '(gl, i) := s in do gl' <- vset gl v i; Ok (gl', i + 1)) (gl, i) = Undef).
  { revert Hv. induction part as [|w l IH]; intros Hv gl i Hl; [destruct Hv|]. cbn [forM].
    destruct (Nat.lt_ge_cases w (length gl)) as [L|L].
    - rewrite vset_lt by exact L. cbn [bind]. apply IH.
      + destruct Hv as [->|Hv]; [lia|exact Hv].
      + rewrite upd_length by exact L. exact Hl.
    - unfold vset. destruct (Nat.ltb_spec w (length gl)); [lia|]. reflexivity. }
  apply H, repeat_length.
Qed.

Lemma new_beyond h M g part extra : well_formed false g -> (exists v, In v part /\ size_vertex g <= v) ->
  subgraph_new h M false g part extra = Undef.
Proof.
  intros Hw Hv. unfold subgraph_new. cbn [bind]. rewrite graph_hash_value by exact Hw. cbn [bind].
  rewrite ctor_beyond by exact Hv. reflexivity.
Qed.

Lemma rank_count del n l : NoDup l -> (forall v, In v l <-> v < n /\ del v = false) -> rank del n = length l.
Proof.
  intros Hn Hl. unfold rank.
  assert (Hf : forall v, In v (filter (fun j => negb (del j)) (seq 0 n)) <-> In v l).
  { intro v. rewrite filter_In, in_seq, Hl, Bool.negb_true_iff. intuition lia. }
  apply Nat.le_antisymm; apply NoDup_incl_length; auto.
  - apply NoDup_filter, seq_NoDup.
  - intros v Hv. apply Hf, Hv.
  - intros v Hv. apply Hf, Hv.
Qed.

(** What the constructor does with a list that passes the checks, twins apart from each other included. *)
Lemma new_any h M (dbg : bool) g part : well_formed false g -> size_vertex g <= M -> 0 < size_vertex g ->
  size_vertex g <= length (adj g) -> (forall v, In v part -> v < size_vertex g) -> length part <= size_vertex g ->
  (dbg = true -> ~ adjacent_twin part) ->
  exists s, subgraph_new h M dbg g part 0 = Ok s /\ s_lg s = part /\ sub_size s = length (nodup Nat.eq_dec part).
Proof.
  intros Hw HM Hpos Hadj Hb Hlen Htw. set (n := size_vertex g) in *.
  destruct (ctor_table n M part Hb) as (gl & E & Hl & Hin & Hout).
  set (del := fun v => nth v gl M =? M).
  assert (Hdel : forall v, v < n -> (del v = false <-> In v part)).
  { intros v Hv. unfold del. rewrite Nat.eqb_neq. split.
    - intro H. destruct (in_dec Nat.eq_dec v part) as [|Hno]; [assumption|]. exfalso. apply H.
      apply nth_error_nth. apply Hout; assumption.
    - intro H. destruct (Hin v H) as (i & Hi & Ei). rewrite (nth_error_nth gl v M Ei). lia. }
  assert (Hoff : off g <> []).
  { intro H. unfold n, size_vertex, g_empty in Hpos. rewrite H in Hpos. cbn in Hpos. lia. }
  destruct (erase_if_spec M false del g Hw Hoff) as (G & EG & _ & HG & _).
  { intros i Hi _. fold n in Hi. lia. }
  exists (mkS (hash_value h g) G part []). split; [|split; [reflexivity|]].
  - unfold subgraph_new. fold n.
    assert (C : (if dbg then
       bind (ASSERT (length (unique_copy part) =? length part)) (fun _ : unit =>
       bind (ASSERT (length part <=? n)) (fun _ : unit =>
       ASSERT (negb (existsb (fun v => n <=? v) part))))
       else Ok tt) = Ok tt).
    { destruct dbg; [|reflexivity].
      destruct (Nat.eqb_spec (length (unique_copy part)) (length part)) as [_|Hne].
      2:{ exfalso. apply (Htw eq_refl), unique_copy_twin, Hne. }
      cbn [ASSERT bind]. destruct (Nat.leb_spec (length part) n); [|lia]. cbn [ASSERT bind].
      destruct (existsb (fun v => n <=? v) part) eqn:X; [|reflexivity].
      apply existsb_exists in X as (v & Hv & Hv'). apply Nat.leb_le in Hv'. specialize (Hb v Hv). lia. }
    rewrite C. cbn [bind]. rewrite graph_hash_value by exact Hw. cbn [bind]. rewrite E. cbn [bind fst].
    change ((do G0 <- erase_if M del g; Ok (mkS (hash_value h g) G0 part [])) = Ok (mkS (hash_value h g) G part [])).
    rewrite EG. reflexivity.
  - unfold sub_size. cbn [s_graph]. rewrite HG. apply rank_count; [apply NoDup_nodup|].
    intro v. rewrite nodup_In. fold n. split; [|intros [H1 H2]; apply Hdel; assumption].
    intro H. split; [apply Hb, H|]. apply Hdel; auto.
Qed.

Lemma new_checks h M (dbg : bool) g part : well_formed false g -> size_vertex g <= M -> 0 < size_vertex g ->
  size_vertex g <= length (adj g) ->
  ((exists v, In v part /\ size_vertex g <= v) -> subgraph_new h M dbg g part 0 = if dbg then Abort else Undef) /\
  (adjacent_twin part \/ size_vertex g < length part -> subgraph_new h M true g part 0 = Abort) /\
  ((forall v, In v part -> v < size_vertex g) -> length part <= size_vertex g -> (dbg = true -> ~ adjacent_twin part) ->
   exists s, subgraph_new h M dbg g part 0 = Ok s /\ s_lg s = part /\ sub_size s = length (nodup Nat.eq_dec part)).
Proof.
  intros Hw HM Hpos Hadj. split; [|split].
  - intro H. destruct dbg; [apply new_aborts; auto|apply new_beyond; auto].
  - intro H. apply new_aborts. destruct H; auto.
  - intros Hb Hl Ht. apply new_any; auto.
Qed.

Lemma twins_accepted : exists g part, well_formed false g /\ size_vertex g <= length (adj g) /\ ~ NoDup part /\
  forall h, exists s, subgraph_new h 100 true g part 0 = Ok s /\ sub_size s = 2 /\ length (s_lg s) = 3.
Proof.
  exists path4', [0; 1; 0]. split; [apply path4'_wf|]. split; [cbn; lia|]. split.
  - intro H. inversion H as [|x l Hx _]. apply Hx. right. left. reflexivity.
  - intro h. destruct (new_any h 100 true path4' [0; 1; 0] path4'_wf) as (s & E & H1 & H2).
    + change (4 <= 100). lia.
    + change (0 < 4). lia.
    + change (4 <= 6). lia.
    + intros v Hv. change (v < 4). destruct Hv as [<-|[<-|[<-|[]]]]; lia.
    + change (3 <= 4). lia.
    + intros _ ([|[|[|i]]] & v & Ha & Hb); cbn in Ha, Hb; try congruence.
    + exists s. rewrite H1. split; [exact E|]. split; [exact H2|reflexivity].
Qed.

(* ------------------------------------------------------------------ clear and the example graphs *)
(** The drawings in generator.hpp 103-110 and 122-134, every line read from one of its ends. *)
Definition drawn_hybrid : list (nat * nat) :=
  [(0, 1); (1, 2); (0, 3); (1, 4); (2, 5); (3, 4); (4, 5); (3, 6); (4, 6); (4, 7); (5, 7); (6, 7)].

Definition drawn_saad : list (nat * nat) :=
  [(5, 14); (5, 13); (14, 13); (14, 3); (14, 11); (13, 11); (13, 4); (3, 11); (11, 4); (3, 12); (11, 12); (11, 10); (4, 10);
   (4, 9); (12, 10); (10, 9); (12, 1); (10, 1); (10, 7); (9, 7); (9, 2); (1, 7); (7, 2); (1, 8); (7, 8); (7, 6); (2, 6);
   (8, 6); (8, 0); (6, 0)].

(** [g] has the vertices below [n] and the edges [es] in both directions. *)
Definition is_drawing (n : nat) (es : list (nat * nat)) (g : graph) : Prop :=
  well_formed false g /\ size_vertex g = n /\ size_edge false g = length es /\
  forall u v, edge g u v <-> In (u, v) es \/ In (v, u) es.

Lemma same_edge_cases a b c d : same_edge false (a, b) (c, d) = true <-> (a = c /\ b = d) \/ (a = d /\ b = c).
Proof.
  unfold same_edge. cbn [fst snd negb]. rewrite orb_true_iff, !andb_true_iff, !Nat.eqb_eq. intuition.
Qed.

Lemma mem_edge_either u v es : mem_edge false (u, v) es = true <-> In (u, v) es \/ In (v, u) es.
Proof.
  unfold mem_edge. rewrite existsb_exists. split.
  - intros ([a b] & Hin & H). apply same_edge_cases in H as [[-> ->]|[-> ->]]; auto.
  - intros [H|H]; eexists; (split; [exact H|]); apply same_edge_cases; auto.
Qed.

Lemma covers_either es fs : forallb (fun e => existsb (same_edge false e) fs) es = true ->
  forall u v, In (u, v) es \/ In (v, u) es -> In (u, v) fs \/ In (v, u) fs.
Proof.
  intros H u v. rewrite forallb_forall in H.
  assert (X : forall a b, In (a, b) es -> In (a, b) fs \/ In (b, a) fs).
  { intros a b Hin. specialize (H _ Hin). apply existsb_exists in H as ([c d] & Hf & H).
    apply same_edge_cases in H as [[-> ->]|[-> ->]]; auto. }
  intros [K|K]; apply X in K; tauto.
Qed.

Lemma drawing dbg n es fs : es <> [] -> forallb (fun e => negb (fst e =? snd e)) es = true ->
  forallb (fun e => existsb (same_edge false e) fs) es = true -> forallb (fun e => existsb (same_edge false e) es) fs = true ->
  length (distinct_edges false es) = length fs -> vertex_bound es = n ->
  exists g, graph_of_list dbg false es = Ok g /\ is_drawing n fs g.
Proof.
  intros Hne Hl H1 H2 H3 H4. destruct (list_graph dbg false es Hne) as (g & E & W & He & Hs & Hv).
  { intros e Hin Hx. rewrite forallb_forall in Hl. specialize (Hl e Hin). rewrite Hx, Nat.eqb_refl in Hl. discriminate. }
  exists g. split; [exact E|]. split; [exact W|]. split; [congruence|]. split; [congruence|].
  intros u v. rewrite He, mem_edge_either. split; apply covers_either; assumption.
Qed.

Lemma example_graphs dbg :
  (exists g, create_graph_hybrid dbg = Ok g /\ is_drawing 8 drawn_hybrid g) /\
  (exists g, create_graph_saad dbg = Ok g /\ is_drawing 15 drawn_saad g).
Proof. split; apply drawing; try discriminate; vm_compute; reflexivity. Qed.

Lemma cleared h dbg s : exists s', sub_clear h dbg s = Ok s' /\ sub_size s' = 0 /\ s_lg s' = [] /\ s_level s' = [] /\
  is_parent h dbg s' graph_default = Ok true /\ s' = subgraph_default.
Proof. eexists. repeat split; reflexivity. Qed.
