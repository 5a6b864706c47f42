(** The iteration of multinode_level_set_expansion: centres and nearest parts (C97). *)
From Verif Require Import Base ListFacts Csr GraphModel GraphSpec GraphFacts GraphInsert GraphErase
  TraversalModel Bfs TraversalFacts Expansion Peripheral Eccentricity OrderingSpec SubgraphModel SubgraphFacts
  SubgraphLevels SubgraphUpdate SubgraphNew PartitionModel Bisection Multinode PropPartitionLemmas.

(** Table entry of two vertices; the table has the lower triangle only. *)
Definition entry (T : list (list nat)) (u v : nat) : nat := nth (Nat.min u v) (nth (Nat.max u v) T []) 0.

(** Largest entry of [v] with the other vertices of [l]. *)
Definition radius (T : list (list nat)) (l : list nat) (v : nat) : nat :=
  list_max (map (entry T v) (filter (fun w => negb (w =? v)) l)).

(** The first vertex of smallest radius. *)
Definition centre (T : list (list nat)) (l : list nat) (v : nat) : Prop :=
  In v l /\ forall w, In w l -> radius T l v <= radius T l w /\ (w < v -> radius T l v < radius T l w).

(** Every vertex is in the part of a nearest seed. *)
Definition nearest_parts (g : graph) (seeds : list nat) (parts : list (list nat)) : Prop :=
  length parts = length seeds /\ splits (size_vertex g) parts /\ Forall ascending parts /\
  forall c v, In v (nth c parts []) -> exists k, dist (edge g) (nth c seeds 0) v k /\
    forall s m, In s seeds -> walk (edge g) m s v -> k <= m.

Definition improve (g : graph) (T : list (list nat)) (parts parts' : list (list nat)) : Prop :=
  exists seeds, Forall2 (centre T) parts seeds /\ nearest_parts g seeds parts'.

Inductive improved (g : graph) (T : list (list nat)) : nat -> list (list nat) -> list (list nat) -> Prop :=
| improved_0 parts : improved g T 0 parts parts
| improved_S k p q r : improve g T p q -> improved g T k q r -> improved g T (S k) p r.

Lemma ecc_get_entry n M T u v : table_ok n M T -> u < n -> v < n -> ecc_get T u v = Ok (entry T u v) /\ entry T u v < M.
Proof.
  intros HT Hu Hv. destruct (ecc_get_ok n M T u v HT Hu Hv) as (x & E & Hx). pose proof E as E0.
  assert (X : entry T u v = x); [|rewrite X; auto]. revert E. unfold ecc_get, entry.
  destruct (Nat.ltb_spec u v) as [H|H].
  - rewrite (Nat.min_l u v), (Nat.max_r u v) by lia. intro E. destruct HT as [Hl _].
    rewrite (vget_lt T v []) in E by lia. cbn [bind] in E. apply vget_Ok in E. apply (nth_error_nth _ _ 0 E).
  - rewrite (Nat.min_r u v), (Nat.max_l u v) by lia. intro E. destruct HT as [Hl _].
    rewrite (vget_lt T u []) in E by lia. cbn [bind] in E. apply vget_Ok in E. apply (nth_error_nth _ _ 0 E).
Qed.

Lemma firstn_S_nth (l : list nat) k d : k < length l -> firstn (S k) l = firstn k l ++ [nth k l d].
Proof.
  revert k. induction l as [|a l IH]; intros k Hk; [cbn in Hk; lia|]. destruct k; [reflexivity|].
  cbn [firstn nth app]. rewrite <- IH by (cbn in Hk; lia). reflexivity.
Qed.

Lemma ascending_nth l i j : ascending l -> i < j -> j < length l -> nth i l 0 < nth j l 0.
Proof.
  revert i j. induction l as [|a l IH]; intros i j Ha Hij Hj; [cbn in Hj; lia|].
  apply ascending_cons in Ha as [Ha Hf]. rewrite Forall_forall in Hf. cbn in Hj.
  destruct j as [|j]; [lia|]. destruct i as [|i]; cbn [nth].
  - apply Hf, nth_In. lia.
  - apply IH; auto; lia.
Qed.

Lemma filter_nth (l : list nat) i : NoDup l -> i < length l -> forall k, k <= length l ->
  filter (fun w => negb (w =? nth i l 0)) (firstn k l) =
  map (fun j => nth j l 0) (filter (fun j => negb (i =? j)) (seq 0 k)).
Proof.
  intros Hnd Hi. induction k as [|k IH]; intro Hk; [reflexivity|].
  rewrite (firstn_S_nth l k 0) by lia. rewrite seq_S, !filter_app, map_app, IH by lia. f_equal. cbn [filter Nat.add].
  destruct (Nat.eqb_spec i k) as [->|Hne].
  - rewrite Nat.eqb_refl. reflexivity.
  - destruct (Nat.eqb_spec (nth k l 0) (nth i l 0)) as [E|_]; [|reflexivity].
    exfalso. apply Hne. symmetry. apply (proj1 (NoDup_nth l 0) Hnd); auto; lia.
Qed.

Lemma local_ecc_radius h M dbg g T s i : part_ok h g s -> table_ok (size_vertex g) M T -> i < length (s_lg s) ->
  local_ecc dbg T s i = Ok (radius T (s_lg s) (nth i (s_lg s) 0)).
Proof.
  intros Hp HT Hi. pose proof (part_size h g s Hp) as Hsz. pose proof Hp as (Ha & Hb & _ & Hs).
  set (l := s_lg s) in *.
  assert (Hnd : NoDup l) by (apply ascending_NoDup; exact Ha).
  assert (Hnb : forall j, j < length l -> nth j l 0 < size_vertex g) by (intros j Hj; apply Hb, nth_In; auto).
  unfold local_ecc. rewrite Hsz. fold l.
  destruct (FOR_inv (fun k e => e = list_max (map (entry T (nth i l 0)) (filter (fun w => negb (w =? nth i l 0)) (firstn k l))))
    (length l) (fun i1 e => if i =? i1 then Ok e
      else do u <- local_global dbg s i; do v <- local_global dbg s i1; do x <- ecc_get T u v; Ok (Nat.max x e)) 0)
    as (e & E & H).
  - reflexivity.
  - intros j e Hj ->. rewrite Nat.add_1_r, !filter_nth by (auto; lia). rewrite seq_S, filter_app, map_app, map_app. rewrite list_max_app.
    cbn [Nat.add filter]. destruct (Nat.eqb_spec i j) as [->|Hne].
    + eexists. split; [reflexivity|]. cbn. lia.
    + rewrite !(local_global_spec dbg g _ 0 s _ Hs) by auto. cbn [bind]. fold l.
      destruct (ecc_get_entry (size_vertex g) M T (nth i l 0) (nth j l 0) HT) as [X _]; auto.
      rewrite X. cbn [bind negb]. eexists. split; [reflexivity|]. cbn [map list_max fold_right]. cbn. lia.
  - rewrite E. f_equal. rewrite H, firstn_all. reflexivity.
Qed.

Lemma radius_lt n M T l v : table_ok n M T -> v < n -> (forall w, In w l -> w < n) -> radius T l v < M.
Proof.
  intros HT Hv Hl. assert (HM : 0 < M) by (destruct (ecc_get_entry n M T v v HT Hv Hv); lia).
  unfold radius. induction l as [|w l IH]; cbn; [exact HM|]. destruct (Nat.eqb_spec w v); cbn [negb].
  - apply IH. intros; apply Hl; right; auto.
  - cbn. destruct (ecc_get_entry n M T v w HT Hv (Hl w (or_introl eq_refl))) as [_ X].
    assert (Y : list_max (map (entry T v) (filter (fun w0 => negb (w0 =? v)) l)) < M) by (apply IH; intros; apply Hl; right; auto).
    unfold list_max in Y. lia.
Qed.

Lemma find_seed_centre h M dbg g T s : part_ok h g s -> table_ok (size_vertex g) M T -> s_lg s <> [] ->
  exists v, find_seed M dbg T s = Ok v /\ centre T (s_lg s) v.
Proof.
  intros Hp HT Hne. pose proof (part_size h g s Hp) as Hsz. pose proof Hp as (Ha & Hb & _ & Hs).
  set (l := s_lg s) in *. unfold find_seed. rewrite Hsz. fold l.
  assert (HR : forall i, i < length l -> radius T l (nth i l 0) < M)
    by (intros i Hi; apply (radius_lt (size_vertex g)); auto; apply Hb, nth_In; auto).
  destruct (FOR_inv (fun k (x : nat * nat) => (k = 0 /\ x = (M, M)) \/
      exists i, i < k /\ i < length l /\ x = (nth i l 0, radius T l (nth i l 0)) /\
        forall j, j < k -> radius T l (nth i l 0) <= radius T l (nth j l 0) /\
                           (j < i -> radius T l (nth i l 0) < radius T l (nth j l 0)))
    (length l) (fun i0 x => let '(seed, mn) := x in
      do e <- local_ecc dbg T s i0;
      if e <? mn then do v <- local_global dbg s i0; Ok (v, e) else Ok (seed, mn)) (M, M))
    as ([sd mn] & E & H).
  - left. auto.
  - intros i [sd mn] Hi H. rewrite (local_ecc_radius h M dbg g T s i Hp HT Hi). cbn [bind]. fold l.
    rewrite (local_global_spec dbg g _ 0 s i Hs) by auto. cbn [bind]. fold l. rewrite Nat.add_1_r.
    destruct H as [[-> X]|(i0 & H1 & H2 & X & H3)]; injection X as -> ->.
    + destruct (Nat.ltb_spec (radius T l (nth 0 l 0)) M) as [Hlt|Hge]; [|specialize (HR 0 Hi); lia].
      eexists. split; [reflexivity|]. right. exists 0. do 3 (split; auto). intros j Hj. assert (j = 0) by lia. subst. lia.
    + destruct (Nat.ltb_spec (radius T l (nth i l 0)) (radius T l (nth i0 l 0))) as [Hlt|Hge];
        eexists; (split; [reflexivity|]); right.
      * exists i. do 3 (split; auto). intros j Hj. destruct (Nat.eq_dec j i) as [->|Hji]; [lia|].
        specialize (H3 j ltac:(lia)). lia.
      * exists i0. split; [lia|]. split; auto. split; auto. intros j Hj. destruct (Nat.eq_dec j i) as [->|Hji]; [lia|].
        apply H3. lia.
  - rewrite E. cbn [bind fst]. destruct H as [[H _]|(i & H1 & _ & X & H3)].
    { destruct l; [congruence|discriminate]. }
    injection X as -> ->. eexists. split; [reflexivity|]. split; [apply nth_In; auto|].
    intros w Hw. apply (In_nth _ _ 0) in Hw as (j & Hj & <-). specialize (H3 j Hj). split; [apply H3|].
    intro Hlt. apply H3. destruct (Nat.lt_ge_cases j i) as [|Hge]; auto.
    destruct (Nat.eq_dec i j) as [->|Hij]; [lia|].
    pose proof (ascending_nth l i j Ha ltac:(lia) Hj). lia.
Qed.

Section Centres.
  Variables (h : nat -> nat) (M : nat) (dbg : bool) (g : graph) (T : list (list nat)).
  Let n := size_vertex g.
  Hypothesis Hw : well_formed false g.
  Hypothesis HM : n <= M.
  Hypothesis Hn : 0 < n.
  Hypothesis Hadj : n <= length (adj g).
  Hypothesis Hconn : connected g.
  Hypothesis HT : table_ok n M T.

  Lemma seeds_centre ss : disjoint_ok h g ss ->
    exists seed, mapM (find_seed M dbg T) ss = Ok seed /\ Forall2 (centre T) (map s_lg ss) seed.
  Proof.
    intros (HF & HN & HD). rewrite Forall_forall in HF, HN.
    destruct (mapM_Forall2 (find_seed M dbg T) (fun s v => centre T (s_lg s) v) ss) as (seed & E & H2).
    { intros s Hs. apply (find_seed_centre h M dbg g T s); auto. }
    exists seed. split; auto. clear - H2. induction H2; cbn; constructor; auto.
  Qed.

  Lemma new_lists vs : (forall l, In l vs -> ascending l /\ forall v, In v l -> v < n) -> forall ss,
    mapM (fun l => subgraph_new h M dbg g l 0) vs = Ok ss -> map s_lg ss = vs.
  Proof.
    induction vs as [|l vs IH]; intros Hl ss E; cbn in E.
    - injection E as <-. reflexivity.
    - destruct (Hl l (or_introl eq_refl)) as [H1 H2].
      destruct (new_part (fun _ => 0) h M dbg g Hw HM Hn Hadj (Nat.lt_le_trans _ _ _ Hn HM) l H1 H2) as (s & Es & El & _).
      rewrite Es in E. cbn [bind] in E.
      destruct (mapM _ vs) as [ss'| | |] eqn:E'; try discriminate. cbn [bind] in E. injection E as <-. cbn [map].
      rewrite El, (IH (fun l Hin => Hl l (or_intror Hin)) ss' eq_refl). reflexivity.
  Qed.

  Lemma step_improves ss seed : disjoint_ok h g ss -> ss <> [] -> mapM (find_seed M dbg T) ss = Ok seed ->
    exists colors vs ss', level_expansion M dbg g seed = Ok colors /\ collect (length ss) colors = Ok vs /\
      mapM (fun l => subgraph_new h M dbg g l 0) vs = Ok ss' /\ partition_ok h g (length ss) ss' /\
      nearest_parts g seed (map s_lg ss').
  Proof.
    intros Hd Hne E. destruct (multinode_step h M dbg g T Hw HM Hn Hadj Hconn HT ss seed Hd Hne E)
      as (C & vs & ss' & R1 & R2 & R3 & R4).
    exists C, vs, ss'. do 4 (split; [assumption|]).
    destruct (seeds_ok h M dbg g T HM Hn Hadj HT ss Hd) as (seed' & E' & S1 & S2 & S3 & _). rewrite E in E'. injection E' as <-.
    assert (Hl0 : 0 < length ss) by (destruct ss; [congruence|cbn; lia]).
    assert (Hle : length ss <= n) by exact (disjoint_length h M g HM Hn Hadj ss Hd).
    destruct (level_expansion_spec M dbg false g seed Hw HM) as (C' & EC & HCl & HC); auto.
    { lia. } { destruct seed; [cbn in S1; lia|discriminate]. }
    rewrite R1 in EC. injection EC as <-. fold n in HCl, HC.
    assert (Hcol : forall v, v < n -> exists c, nth_error C v = Some c /\ c < length ss /\
      exists k, dist (edge g) (nth c seed 0) v k /\ forall s j, In s seed -> walk (edge g) j s v -> k <= j).
    { intros v Hv. destruct (nth_error C v) as [c|] eqn:Ev.
      - exists c. split; auto. destruct (HC v Hv c Ev) as [[H1 H2]|[_ H1]]; [rewrite <- S1; auto|].
        exfalso. assert (Hs0 : In (nth 0 seed 0) seed) by (apply nth_In; lia).
        apply (H1 _ Hs0). apply Hconn; auto.
      - exfalso. apply nth_error_None in Ev. lia. }
    destruct (collect_ok (length ss) C) as (vs' & Ev & Hvl & Hvn & Hvp).
    { intros c Hc. apply In_nth_error in Hc as (v & Hv). pose proof (nth_error_lt_Some _ _ _ Hv) as Hvlt.
      destruct (Hcol v) as (c' & Ec & H & _); [lia|]. congruence. }
    rewrite R2 in Ev. injection Ev as <-. rewrite HCl in Hvn, Hvp.
    assert (Em : map s_lg ss' = vs).
    { apply new_lists; auto. intros l Hl. apply (In_nth _ _ []) in Hl as (c & Hc & <-). rewrite Hvn by lia.
      split; [apply ascending_filter, ascending_seq|]. intros v Hv. apply filter_In in Hv as [Hv _].
      apply in_seq in Hv. lia. }
    rewrite Em. split; [congruence|]. split; [apply splits_perm; exact Hvp|]. split.
    - apply Forall_forall. intros l Hl. apply (In_nth _ _ []) in Hl as (c & Hc & <-). rewrite Hvn by lia.
      apply ascending_filter, ascending_seq.
    - intros c v Hv. destruct (Nat.lt_ge_cases c (length ss)) as [Hc|Hc].
      + rewrite Hvn in Hv by auto. apply filter_In in Hv as [Hv Hcv]. apply in_seq in Hv. apply Nat.eqb_eq in Hcv.
        destruct (Hcol v) as (c' & Ec & _ & X); [lia|]. rewrite (nth_error_nth C v 0 Ec) in Hcv. subst c'. exact X.
      + rewrite nth_overflow in Hv by lia. destruct Hv.
  Qed.

  Lemma loop_improves iters : forall previous m ss, 0 < m -> partition_ok h g m ss ->
    nearest_parts g previous (map s_lg ss) ->
    exists ss' k, multinode_loop iters h M dbg g T previous ss = Ok ss' /\ partition_ok h g m ss' /\ k <= iters /\
      improved g T k (map s_lg ss) (map s_lg ss') /\ (k < iters -> improve g T (map s_lg ss') (map s_lg ss')).
  Proof.
    induction iters as [|i IH]; intros previous m ss Hm Hs Hp; cbn [multinode_loop].
    - exists ss, 0. do 3 (split; auto). split; [constructor|lia].
    - pose proof (partition_disjoint h g m ss Hs) as Hd. destruct (seeds_centre ss Hd) as (seed & E & Hc).
      rewrite E. cbn [bind]. destruct (list_eq_dec Nat.eq_dec previous seed) as [->|_].
      { exists ss, 0. do 2 (split; auto). split; [lia|]. split; [constructor|]. intros _. exists seed. auto. }
      assert (Hne : ss <> []) by (destruct Hs as [Hs _]; destruct ss; [cbn in Hs; lia|discriminate]).
      destruct (step_improves ss seed Hd Hne E) as (C & vs & ss' & R1 & R2 & R3 & R4 & R5).
      rewrite R1. cbn [bind]. rewrite R2. cbn [bind]. rewrite R3. cbn [bind].
      destruct (IH seed m ss' Hm) as (r & k & E1 & E2 & E3 & E4 & E5); auto.
      { destruct Hs as [<- _]. exact R4. }
      exists r, (S k). split; auto. split; auto. split; [lia|]. split.
      + econstructor; [|exact E4]. exists seed. auto.
      + intro. apply E5. lia.
  Qed.

  Lemma first_improves iters ss : disjoint_ok h g ss -> 1 < length ss ->
    exists ss' k, multinode_loop (S iters) h M dbg g T (repeat 0 (length ss)) ss = Ok ss' /\
      partition_ok h g (length ss) ss' /\ 0 < k <= S iters /\
      improved g T k (map s_lg ss) (map s_lg ss') /\ (k < S iters -> improve g T (map s_lg ss') (map s_lg ss')).
  Proof.
    intros Hd Hl. cbn [multinode_loop]. destruct (seeds_ok h M dbg g T HM Hn Hadj HT ss Hd) as (seed & E & Hsl & Hnd & _).
    destruct (seeds_centre ss Hd) as (seed' & E' & Hc). rewrite E in E'. injection E' as <-.
    rewrite E. cbn [bind]. destruct (list_eq_dec Nat.eq_dec (repeat 0 (length ss)) seed) as [Eq|_].
    { exfalso. rewrite <- Eq in Hnd. destruct ss as [|a [|b ss]]; cbn in Hl, Hnd; try lia.
      inversion Hnd as [|? ? H _]. apply H. left. auto. }
    assert (Hne : ss <> []) by (destruct ss; [cbn in Hl; lia|discriminate]).
    destruct (step_improves ss seed Hd Hne E) as (C & vs & ss' & R1 & R2 & R3 & R4 & R5).
    rewrite R1. cbn [bind]. rewrite R2. cbn [bind]. rewrite R3. cbn [bind].
    destruct (loop_improves iters seed (length ss) ss') as (r & k & E1 & E2 & E3 & E4 & E5); auto; [lia|].
    exists r, (S k). split; auto. split; auto. split; [lia|]. split.
    - econstructor; [|exact E4]. exists seed. auto.
    - intro. apply E5. lia.
  Qed.
End Centres.

Lemma multinode_improves h M dbg g T iters parts ss :
  well_formed false g -> size_vertex g <= M -> 0 < size_vertex g -> size_vertex g <= length (adj g) ->
  connected g -> table_ok (size_vertex g) M T ->
  Forall2 (fun l s => ascending l /\ l <> [] /\ (forall v, In v l -> v < size_vertex g) /\
                      subgraph_new h M dbg g l 0 = Ok s) parts ss ->
  NoDup (concat parts) -> 1 < length ss ->
  exists ss' parts' k, multinode_loop (S iters) h M dbg g T (repeat 0 (length ss)) ss = Ok ss' /\
    Forall2 (induced_by dbg g) parts' ss' /\ 0 < k <= S iters /\ improved g T k parts parts' /\
    (k < S iters -> improve g T parts' parts').
Proof.
  intros Hw HM Hn Ha Hc HT H2 HN Hl.
  assert (Em : map s_lg ss = parts).
  { clear HN Hl. induction H2 as [|l s ls ss (H1 & _ & H3 & H4) _ IH]; cbn; auto.
    destruct (new_part (fun _ => 0) h M dbg g Hw HM Hn Ha (Nat.lt_le_trans _ _ _ Hn HM) l H1 H3) as (s' & E & El & Hp).
    rewrite E in H4. injection H4 as <-. congruence. }
  destruct (first_improves h M dbg g T Hw HM Hn Ha Hc HT iters ss) as (ss' & k & E & (H3 & H4 & H5 & H6) & Hk & Hi & Hf); auto.
  { exact (disjoint_built h M dbg g parts ss Hw HM Hn Ha H2 HN). }
  exists ss', (map s_lg ss'), k. rewrite <- Em. split; auto. split; [eapply Forall2_map_lg; eauto|]. auto.
Qed.

(* ------------------------------------------------------------------ the checks *)
Lemma multinode_no_parts h M dbg lenient g iters : multinode_level_set_expansion lenient h M dbg g iters [] = Abort.
Proof. reflexivity. Qed.

Lemma parents_no h dbg g ss : (forall s, In s ss -> exists b, is_parent h dbg s g = Ok b) ->
  (exists s, In s ss /\ is_parent h dbg s g = Ok false) ->
  forM ss (fun s (b : bool) => if b then is_parent h dbg s g else Ok false) true = Ok false.
Proof.
  assert (F : forall ss, forM ss (fun s (b : bool) => if b then is_parent h dbg s g else Ok false) false = Ok false)
    by (induction ss0 as [|s ss0 IH]; cbn; auto).
  induction ss as [|s ss IH]; intros H (s0 & Hin & Hf); [destruct Hin|]. cbn.
  destruct (H s (or_introl eq_refl)) as ([] & E); rewrite E; cbn [bind]; [|apply F].
  destruct Hin as [->|Hin]; [congruence|]. apply IH; [|exists s0; auto]. intros x Hx. apply H. right; auto.
Qed.

Lemma multinode_strangers h M dbg lenient g iters ss : well_formed false g ->
  (exists s, In s ss /\ is_parent h dbg s g = Ok false) ->
  multinode_level_set_expansion lenient h M dbg g iters ss = Abort.
Proof.
  intros Hw H. unfold multinode_level_set_expansion. destruct ss as [|s ss]; [destruct H as (? & [] & _)|].
  cbn [is_nil negb ASSERT bind]. rewrite (parents_no h dbg g (s :: ss)); auto.
  intros x _. unfold is_parent. rewrite graph_hash_value by auto. cbn [bind]. eexists; reflexivity.
Qed.
