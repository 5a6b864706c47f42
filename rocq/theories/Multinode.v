(** multinode_level_set_expansion. *)
From Verif Require Import Base ListFacts Csr GraphModel GraphSpec GraphFacts GraphInsert GraphErase
  TraversalModel Bfs TraversalFacts Expansion Peripheral Eccentricity OrderingSpec SubgraphModel SubgraphFacts
  SubgraphLevels SubgraphUpdate SubgraphNew PartitionModel Bisection.

(* ------------------------------------------------------------------ undefined behaviour *)
Lemma all_parents h dbg g ss : (forall s, In s ss -> is_parent h dbg s g = Ok true) ->
  forM ss (fun s (b : bool) => if b then is_parent h dbg s g else Ok false) true = Ok true.
Proof.
  induction ss as [|s ss IH]; intro H; cbn; auto.
  rewrite H by (left; auto). cbn. apply IH. intros x Hx. apply H. right. auto.
Qed.

Lemma multinode_undefined h M dbg g iters ss :
  well_formed false g -> size_vertex g <= M -> (exists u v, edge g u v) ->
  1 < length ss -> (forall s, In s ss -> is_parent h dbg s g = Ok true) ->
  multinode_level_set_expansion false h M dbg g iters ss = Undef.
Proof.
  intros Hw HM He Hl Hp. unfold multinode_level_set_expansion.
  destruct ss as [|s ss]; [cbn in Hl; lia|]. cbn [is_nil negb ASSERT bind].
  rewrite (all_parents h dbg g (s :: ss) Hp). cbn [bind ASSERT].
  destruct (Nat.eqb_spec (length (s :: ss)) 1); [lia|].
  rewrite eccentricity_graph_undef by auto. reflexivity.
Qed.

(* ------------------------------------------------------------------ loops *)
Lemma mapM_Forall2 {A B} (f : A -> res B) (R : A -> B -> Prop) l :
  (forall a, In a l -> exists b, f a = Ok b /\ R a b) -> exists bs, mapM f l = Ok bs /\ Forall2 R l bs.
Proof.
  induction l as [|a l IH]; intro H; cbn.
  - exists []. auto.
  - destruct (H a) as (b & E & Hb); [left; auto|]. destruct IH as (bs & E2 & Hbs).
    { intros x Hx. apply H. right. auto. }
    exists (b :: bs). rewrite E. cbn. rewrite E2. cbn. auto.
Qed.

(** Table of numbers below [M] for all ordered pairs of vertices. *)
Definition table_ok (n M : nat) (T : list (list nat)) : Prop :=
  length T = n /\ forall u v, v <= u -> u < n -> exists x, nth_error (nth u T []) v = Some x /\ x < M.

Lemma ecc_get_ok n M T u v : table_ok n M T -> u < n -> v < n -> exists x, ecc_get T u v = Ok x /\ x < M.
Proof.
  intros [Hl HT] Hu Hv. unfold ecc_get.
  assert (G : forall a b, b <= a -> a < n -> exists x, bind (vget T a) (fun r => vget r b) = Ok x /\ x < M).
  { intros a b Hba Ha. destruct (HT a b Hba Ha) as (x & E & Hx). exists x. split; auto.
    rewrite (vget_lt T a []) by lia. cbn [bind]. apply vget_Ok. auto. }
  destruct (Nat.ltb_spec u v); apply G; lia.
Qed.

Lemma find_seed_ok h M dbg g T s : part_ok h g s -> table_ok (size_vertex g) M T ->
  s_lg s <> [] -> exists v, find_seed M dbg T s = Ok v /\ In v (s_lg s).
Proof.
  intros Hp HT Hne. pose proof (part_size h g s Hp) as Hsz. pose proof Hp as (Ha & Hb & _ & Hs).
  assert (Hnb : forall i, i < length (s_lg s) -> nth i (s_lg s) 0 < size_vertex g)
    by (intros i Hi; apply Hb, nth_In; auto).
  assert (HM0 : 0 < M).
  { destruct (s_lg s) as [|v l] eqn:E; [congruence|]. specialize (Hb v ltac:(left; auto)).
    destruct HT as [_ HT]. destruct (HT v v (le_n _) Hb) as (x & _ & Hx). lia. }
  assert (He : forall i0, i0 < length (s_lg s) -> exists e, local_ecc dbg T s i0 = Ok e /\ e < M).
  { intros i0 Hi0. unfold local_ecc. rewrite Hsz.
    destruct (FOR_inv (fun _ e => e < M) (length (s_lg s)) (fun i1 e =>
      if i0 =? i1 then Ok e
      else do u <- local_global dbg s i0; do v <- local_global dbg s i1; do x <- ecc_get T u v;
           Ok (Nat.max x e)) 0) as (e & E & H); auto; [|exists e; auto].
    intros i1 e Hi1 H. destruct (i0 =? i1); [exists e; auto|].
    rewrite !(local_global_spec dbg g _ 0 s _ Hs) by auto. cbn [bind].
    destruct (ecc_get_ok _ M T (nth i0 (s_lg s) 0) (nth i1 (s_lg s) 0) HT) as (x & E & Hx); auto.
    rewrite E. cbn [bind]. exists (Nat.max x e). split; auto. lia. }
  unfold find_seed. rewrite Hsz.
  destruct (FOR_inv (fun k (x : nat * nat) => (k = 0 /\ x = (M, M)) \/ In (fst x) (s_lg s))
    (length (s_lg s)) (fun i0 x => let '(seed, mn) := x in
      do e <- local_ecc dbg T s i0;
      if e <? mn then do v <- local_global dbg s i0; Ok (v, e) else Ok (seed, mn)) (M, M))
    as ([sd mn] & E & H); auto.
  - intros i [sd mn] Hi H. destruct (He i Hi) as (e & E & Hlt). rewrite E. cbn [bind].
    rewrite (local_global_spec dbg g _ 0 s i Hs) by auto. cbn [bind].
    destruct (Nat.ltb_spec e mn) as [Hc|Hc]; eexists; (split; [reflexivity|]); right; cbn [fst].
    + apply nth_In; auto.
    + destruct H as [[-> H]|H]; auto. injection H as -> ->. lia.
  - rewrite E. cbn [bind fst]. exists sd. split; auto. destruct H as [[H _]|H]; auto.
    destruct (s_lg s); [congruence|discriminate].
Qed.

Lemma collect_ok m colors : (forall c, In c colors -> c < m) ->
  exists vs, collect m colors = Ok vs /\ length vs = m /\
    (forall c, c < m -> nth c vs [] = filter (fun v => nth v colors 0 =? c) (seq 0 (length colors))) /\
    Permutation (concat vs) (seq 0 (length colors)).
Proof.
  intro Hc. unfold collect.
  destruct (FOR_inv (fun k vs => length vs = m /\
      (forall c, c < m -> nth c vs [] = filter (fun v => nth v colors 0 =? c) (seq 0 k)) /\
      Permutation (concat vs) (seq 0 k)) (length colors)
    (fun i vs => do c <- vget colors i; do l <- vget vs c; vset vs c (l ++ [i])) (repeat [] m))
    as (vs & E & H).
  - split; [apply repeat_length|]. split.
    + intros c Hcm. cbn. rewrite nth_repeat. auto.
    + assert (E0 : forall k, concat (repeat (@nil nat) k) = []) by (induction k; auto). rewrite E0. auto.
  - intros i vs Hi (H1 & H2 & H3). rewrite (vget_lt colors i 0) by auto. cbn [bind].
    set (c := nth i colors 0). assert (Hcm : c < m) by (apply Hc, nth_In; auto).
    rewrite (vget_lt vs c []) by lia. cbn [bind]. rewrite vset_lt by lia.
    eexists. split; [reflexivity|]. split; [rewrite upd_length; lia|]. rewrite Nat.add_1_r. split.
    + intros c' Hc'. rewrite nth_upd by lia. rewrite seq_S, filter_app. cbn [filter Nat.add]. fold c.
      destruct (Nat.eqb_spec c' c) as [->|Hcc].
      * rewrite Nat.eqb_refl. rewrite H2 by auto. auto.
      * rewrite H2 by auto. destruct (Nat.eqb_spec c c'); [congruence|]. rewrite app_nil_r. auto.
    + rewrite seq_S. cbn [Nat.add].
      assert (Hx : nth_error vs c = Some (nth c vs [])) by (apply nth_error_nth_lt; lia).
      apply nth_error_split in Hx as (l1 & l2 & El & Ek). set (x := nth c vs []) in *.
      rewrite <- Ek. rewrite El in H3 |- *. rewrite upd_split. rewrite concat_app in *. cbn [concat] in *.
      rewrite <- H3. rewrite <- !app_assoc. apply Permutation_app_head, Permutation_app_head.
      apply Permutation_app_comm.
  - exists vs. destruct H as (H1 & H2 & H3). auto.
Qed.

Lemma NoDup_app_inv {A} (l1 l2 : list A) : NoDup (l1 ++ l2) ->
  NoDup l1 /\ NoDup l2 /\ forall x, In x l1 -> In x l2 -> False.
Proof.
  induction l1 as [|a l1 IH]; cbn; intro H; [split; [constructor|split; auto]|].
  inversion H as [|? ? Ha Hr]; subst. destruct (IH Hr) as (H1 & H2 & H3). split.
  - constructor; auto. intro Hin. apply Ha, in_app_iff. auto.
  - split; auto. intros x [<-|Hx] Hx2; [|eauto]. apply Ha, in_app_iff. auto.
Qed.

Lemma NoDup_concat_nth (ls : list (list nat)) i j v : NoDup (concat ls) ->
  In v (nth i ls []) -> In v (nth j ls []) -> i = j.
Proof.
  revert i j. induction ls as [|l ls IH]; intros i j Hnd Hi Hj.
  - destruct i; destruct Hi.
  - cbn in Hnd. apply NoDup_app_inv in Hnd as (H1 & H2 & H3).
    assert (Hc : forall k, In v (nth k ls []) -> In v (concat ls)).
    { intros k Hk. apply in_concat. exists (nth k ls []). split; auto.
      destruct (Nat.lt_ge_cases k (length ls)); [apply nth_In; auto|].
      rewrite nth_overflow in Hk by auto. destruct Hk. }
    destruct i as [|i], j as [|j]; cbn in *; auto.
    + exfalso. apply (H3 v); eauto.
    + exfalso. apply (H3 v); eauto.
Qed.

Section Multi.
  Variables (h : nat -> nat) (M : nat) (dbg : bool) (g : graph) (T : list (list nat)).
  Let n := size_vertex g.
  Hypothesis Hw : well_formed false g.
  Hypothesis HM : n <= M.
  Hypothesis Hn : 0 < n.
  Hypothesis Hadj : n <= length (adj g).
  Hypothesis Hconn : connected g.
  Hypothesis HT : table_ok n M T.

  (** Disjoint non-empty subgraphs. *)
  Definition disjoint_ok (ss : list subgraph) : Prop :=
    Forall (part_ok h g) ss /\ Forall (fun s => s_lg s <> []) ss /\ NoDup (concat (map s_lg ss)).

  Lemma disjoint_length ss : disjoint_ok ss -> length ss <= n.
  Proof.
    intros (HF & HN & HD).
    assert (H1 : length (concat (map s_lg ss)) <= n).
    { rewrite <- (seq_length n 0). apply NoDup_incl_length; auto.
      intros v Hv. apply in_concat in Hv as (l & Hl & Hv). apply in_map_iff in Hl as (s & <- & Hs).
      rewrite Forall_forall in HF. destruct (HF s Hs) as (_ & Hb & _). specialize (Hb v Hv).
      apply in_seq. fold n in Hb. lia. }
    assert (H2 : length ss <= length (concat (map s_lg ss))); [|lia].
    clear - HN. induction HN as [|s ss Hs HN IH]; cbn; [lia|]. rewrite app_length.
    destruct (s_lg s); [congruence|]. cbn. lia.
  Qed.

  Lemma seeds_ok ss : disjoint_ok ss ->
    exists seed, mapM (find_seed M dbg T) ss = Ok seed /\ length seed = length ss /\ NoDup seed /\
      (forall v, In v seed -> v < n) /\
      (forall c, c < length ss -> In (nth c seed 0) (nth c (map s_lg ss) [])).
  Proof.
    intros (HF & HN & HD). rewrite Forall_forall in HF, HN.
    destruct (mapM_Forall2 (find_seed M dbg T) (fun s v => In v (s_lg s)) ss) as (seed & E & H2).
    { intros s Hs. apply (find_seed_ok h M dbg g T s); auto. }
    exists seed. split; auto.
    assert (Hl : length seed = length ss) by (clear - H2; induction H2; cbn; congruence).
    assert (Hin : forall c, c < length ss -> In (nth c seed 0) (nth c (map s_lg ss) [])).
    { clear - H2. induction H2 as [|s v ss seed Hs H IH]; cbn; [lia|].
      intros c Hc. destruct c; auto. apply IH. lia. }
    split; auto. split; [|split; auto].
    - apply (NoDup_nth seed 0). intros i j Hi Hj E'. apply (NoDup_concat_nth (map s_lg ss) i j (nth i seed 0) HD).
      + apply Hin. lia.
      + rewrite E'. apply Hin. lia.
    - intros v Hv. apply (In_nth _ _ 0) in Hv as (c & Hc & <-). rewrite Hl in Hc. specialize (Hin c Hc).
      rewrite (nth_indep _ [] (s_lg subgraph_default)) in Hin by (rewrite map_length; auto).
      rewrite map_nth in Hin.
      destruct (HF (nth c ss subgraph_default) (nth_In _ _ Hc)) as (_ & Hb & _). apply Hb. auto.
  Qed.

  Lemma rebuild_ok seed m : length seed = m -> 0 < m -> m <= n -> NoDup seed -> (forall v, In v seed -> v < n) ->
    exists colors vs ss', level_expansion M dbg g seed = Ok colors /\ collect m colors = Ok vs /\
      mapM (fun l => subgraph_new h M dbg g l 0) vs = Ok ss' /\ length ss' = m /\
      Forall (part_ok h g) ss' /\ Forall (fun s => s_lg s <> []) ss' /\
      Permutation (concat (map s_lg ss')) (seq 0 n).
  Proof.
    intros Hl Hm Hmn Hnd Hb.
    destruct (level_expansion_spec M dbg false g seed Hw HM) as (C & EC & HCl & HC); auto.
    { lia. } { destruct seed; [cbn in Hl; lia|discriminate]. }
    assert (Hcol : forall v, v < n -> exists c, nth_error C v = Some c /\ c < m /\
      exists k, dist (edge g) (nth c seed 0) v k /\ forall s j, In s seed -> walk (edge g) j s v -> k <= j).
    { intros v Hv. destruct (nth_error C v) as [c|] eqn:E.
      - exists c. split; auto. destruct (HC v Hv c E) as [[H1 H2]|[_ H1]]; [rewrite <- Hl; auto|].
        exfalso. assert (Hs0 : In (nth 0 seed 0) seed) by (apply nth_In; lia).
        apply (H1 _ Hs0). apply Hconn; auto.
      - exfalso. apply nth_error_None in E. fold n in HCl. lia. }
    destruct (collect_ok m C) as (vs & Ev & Hvl & Hvn & Hvp).
    { intros c Hc. apply In_nth_error in Hc as (v & Hv).
      pose proof (nth_error_lt_Some _ _ _ Hv) as Hvlt. fold n in HCl.
      destruct (Hcol v) as (c' & E & H & _); [lia|]. congruence. }
    rewrite HCl in Hvn, Hvp. fold n in Hvn, Hvp.
    assert (Hvin : forall l, In l vs -> ascending l /\ (forall v, In v l -> v < n) /\ l <> []).
    { intros l Hlin. apply (In_nth _ _ []) in Hlin as (c & Hc & <-). rewrite Hvl in Hc. rewrite Hvn by auto.
      split; [apply ascending_filter, ascending_seq|]. split.
      - intros v Hv. apply filter_In in Hv as [Hv _]. apply in_seq in Hv. lia.
      - intro E. assert (Hs : In (nth c seed 0) seed) by (apply nth_In; lia).
        assert (Hin : In (nth c seed 0) (filter (fun v => nth v C 0 =? c) (seq 0 n))).
        { apply filter_In. split; [apply in_seq; specialize (Hb _ Hs); lia|].
          destruct (Hcol (nth c seed 0) (Hb _ Hs)) as (c' & Ec & Hc' & k & [Hk1 _] & Hk2).
          rewrite (nth_error_nth C _ 0 Ec). apply Nat.eqb_eq.
          specialize (Hk2 _ 0 Hs (walk_0 _ _)). assert (k = 0) by lia. subst k.
          apply (proj1 (NoDup_nth seed 0) Hnd); [lia|lia|]. inversion Hk1; auto. }
        rewrite E in Hin. destruct Hin. }
    destruct (mapM_Forall2 (fun l => subgraph_new h M dbg g l 0)
      (fun l s => s_lg s = l /\ part_ok h g s) vs) as (ss' & Es & H2).
    { intros l Hlin. destruct (Hvin l Hlin) as (H1 & H2 & _).
      exact (new_part (fun _ => 0) h M dbg g Hw HM Hn Hadj (Nat.lt_le_trans _ _ _ Hn HM) l H1 H2). }
    exists C, vs, ss'. split; auto. split; auto. split; auto.
    assert (Em : map s_lg ss' = vs).
    { clear - H2. induction H2 as [|l s vs ss [H _] _ IH]; cbn; auto. f_equal; auto. }
    split; [rewrite <- Hvl, <- Em, map_length; auto|]. split; [|split].
    - clear - H2. induction H2 as [|l s vs ss [_ H] _ IH]; constructor; auto.
    - apply Forall_forall. intros s Hs. apply Hvin. rewrite <- Em. apply in_map. auto.
    - rewrite Em. auto.
  Qed.

  Definition partition_ok (m : nat) (ss : list subgraph) : Prop :=
    length ss = m /\ Forall (part_ok h g) ss /\ Forall (fun s => s_lg s <> []) ss /\
    Permutation (concat (map s_lg ss)) (seq 0 n).

  Lemma partition_disjoint m ss : partition_ok m ss -> disjoint_ok ss.
  Proof.
    intros (_ & H1 & H2 & H3). split; auto. split; auto.
    eapply Permutation_NoDup; [apply Permutation_sym; exact H3|apply seq_NoDup].
  Qed.

  Lemma multinode_step ss seed : disjoint_ok ss -> ss <> [] ->
    mapM (find_seed M dbg T) ss = Ok seed ->
    exists colors vs ss', level_expansion M dbg g seed = Ok colors /\ collect (length ss) colors = Ok vs /\
      mapM (fun l => subgraph_new h M dbg g l 0) vs = Ok ss' /\ partition_ok (length ss) ss'.
  Proof.
    intros Hs Hne E. destruct (seeds_ok ss Hs) as (seed' & E' & H1 & H2 & H3 & _).
    rewrite E in E'. injection E' as <-.
    destruct (rebuild_ok seed (length ss)) as (C & vs & ss' & R1 & R2 & R3 & R4 & R5 & R6 & R7); auto.
    - destruct ss; [congruence|cbn; lia].
    - apply disjoint_length. auto.
    - exists C, vs, ss'. repeat (split; auto).
  Qed.

  Lemma multinode_loop_partition iters : forall previous m ss, 0 < m -> partition_ok m ss ->
    exists ss', multinode_loop iters h M dbg g T previous ss = Ok ss' /\ partition_ok m ss'.
  Proof.
    induction iters as [|k IH]; intros previous m ss Hm Hs; cbn [multinode_loop].
    - exists ss. auto.
    - pose proof (partition_disjoint m ss Hs) as Hd. destruct (seeds_ok ss Hd) as (seed & E & _).
      rewrite E. cbn [bind]. destruct (list_eq_dec Nat.eq_dec previous seed); [exists ss; auto|].
      assert (Hne : ss <> []) by (destruct Hs as [Hs _]; destruct ss; [cbn in Hs; lia|discriminate]).
      destruct (multinode_step ss seed Hd Hne E) as (C & vs & ss' & R1 & R2 & R3 & R4).
      rewrite R1. cbn [bind]. rewrite R2. cbn [bind]. rewrite R3. cbn [bind].
      apply IH; auto. destruct Hs as [<- _]. auto.
  Qed.

  Lemma multinode_loop_first iters ss : disjoint_ok ss -> 1 < length ss ->
    exists ss', multinode_loop (S iters) h M dbg g T (repeat 0 (length ss)) ss = Ok ss' /\
      partition_ok (length ss) ss'.
  Proof.
    intros Hd Hl. cbn [multinode_loop]. destruct (seeds_ok ss Hd) as (seed & E & Hsl & Hnd & _).
    rewrite E. cbn [bind]. destruct (list_eq_dec Nat.eq_dec (repeat 0 (length ss)) seed) as [Eq|_].
    { exfalso. rewrite <- Eq in Hnd. destruct ss as [|a [|b ss]]; cbn in Hl, Hnd; try lia.
      inversion Hnd as [|? ? H _]. apply H. left. auto. }
    assert (Hne : ss <> []) by (destruct ss; [cbn in Hl; lia|discriminate]).
    destruct (multinode_step ss seed Hd Hne E) as (C & vs & ss' & R1 & R2 & R3 & R4).
    rewrite R1. cbn [bind]. rewrite R2. cbn [bind]. rewrite R3. cbn [bind].
    apply multinode_loop_partition; auto. lia.
  Qed.
End Multi.
