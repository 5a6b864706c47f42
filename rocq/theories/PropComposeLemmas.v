(** Proofs of the property theorems about sequences of graph operations. *)
From Verif Require Import Base ListFacts Csr GraphModel GraphSpec GraphFacts PermFacts GraphInsert GraphResize GraphErase GraphReorder
  GraphSeq GraphGen PropGraphLemmas TraversalModel TraversalFacts SubgraphModel Bisection PropSubgraphLemmas PropBuildLemmas.

(** The permutation that renumbers by [p] and then by [q]. *)
Definition compose (p q : list nat) : list nat := map (fun i => nth i q 0) p.

Lemma compose_nth n p q u : is_perm n p -> u < n -> nth u (compose p q) 0 = nth (nth u p 0) q 0.
Proof.
  intros Hp Hu. unfold compose. rewrite (nth_indep _ 0 (nth 0 q 0)) by (rewrite map_length, (perm_length _ _ Hp); exact Hu).
  apply (map_nth (fun i => nth i q 0)).
Qed.

Lemma map_nth_seq (q : list nat) : map (fun i => nth i q 0) (seq 0 (length q)) = q.
Proof.
  apply (nth_ext _ _ 0 0); rewrite map_length, seq_length; [reflexivity|]. intros i Hi.
  rewrite (nth_indep _ 0 (nth 0 q 0)) by (rewrite map_length, seq_length; exact Hi).
  rewrite (map_nth (fun i => nth i q 0)), seq_nth by exact Hi. reflexivity.
Qed.

Lemma compose_perm n p q : is_perm n p -> is_perm n q -> is_perm n (compose p q).
Proof.
  intros Hp Hq. unfold is_perm, compose in *. eapply perm_trans; [apply Permutation_map, Hp|].
  rewrite <- (perm_length n q Hq), map_nth_seq. rewrite (perm_length n q Hq). exact Hq.
Qed.

Lemma perm_onto n p w : is_perm n p -> w < n -> exists u, u < n /\ nth u p 0 = w.
Proof. intros Hp Hw. exists (pos w p). apply (perm_pos n p w Hp Hw). Qed.

Lemma reorder_compose dbg d g p q : well_formed d g -> 0 < size_vertex g ->
  is_perm (size_vertex g) p -> is_perm (size_vertex g) q ->
  exists h k, reorder dbg g p = Ok (h, g) /\ reorder dbg h q = Ok (k, h) /\
    reorder dbg g (compose p q) = Ok (k, g).
Proof.
  intros Hw Hn Hp Hq. pose proof (compose_perm _ p q Hp Hq) as Hc.
  destruct (reorder_spec dbg d g p Hw Hp) as (h & E & Hwh & Hs & _ & He & _).
  destruct (reorder_spec dbg d h q Hwh) as (k & E' & Hwk & Hs' & _ & He' & _); [rewrite Hs; exact Hq|].
  destruct (reorder_spec dbg d g (compose p q) Hw Hc) as (k' & E'' & Hwk' & Hs'' & _ & He'' & _).
  exists h, k. split; [exact E|]. split; [exact E'|]. rewrite E''. do 2 f_equal.
  apply (well_formed_ext d); auto; [lia| |lia].
  rewrite Hs in *.
  assert (K : forall a b, a < size_vertex g -> b < size_vertex g -> (edge k' a b <-> edge k a b)).
  { intros a b Ha Hb. destruct (perm_onto _ _ a Hc Ha) as (u & Hu & <-). destruct (perm_onto _ _ b Hc Hb) as (v & Hv & <-).
    rewrite He'' by auto. rewrite !(compose_nth _ p q _ Hp) by auto.
    rewrite He' by (apply (perm_bound _ p _ Hp); auto). rewrite He by auto. reflexivity. }
  intros a b. split; intros Hab.
  - destruct (edge_bounds d k' a b Hwk' Hab) as (A & B & _). apply K; auto; lia.
  - destruct (edge_bounds d k a b Hwk Hab) as (A & B & _). apply K; auto; lia.
Qed.

(* ------------------------------------------------------------------ distances *)
Section Distances.
  Variables (d : bool) (g h : graph) (p : list nat).
  Hypotheses (Hw : well_formed d g) (Hwh : well_formed d h) (Hs : size_vertex h = size_vertex g) (Hp : is_perm (size_vertex g) p).
  Hypothesis He : forall u v, u < size_vertex g -> v < size_vertex g -> (edge h (nth u p 0) (nth v p 0) <-> edge g u v).

  Lemma walk_to k u v : u < size_vertex g -> walk (edge g) k u v -> v < size_vertex g /\ walk (edge h) k (nth u p 0) (nth v p 0).
  Proof using Hw He.
    intros Hu W. induction W as [u|k u v w W IH E]; [split; [auto|constructor]|].
    destruct (IH Hu) as [Hv W']. destruct (edge_bounds d g v w Hw E) as (_ & B & _). split; [exact B|].
    eapply walk_S; [exact W'|]. apply He; auto.
  Qed.

  Lemma walk_from k a b : a < size_vertex g -> walk (edge h) k a b ->
    forall u, u < size_vertex g -> nth u p 0 = a -> exists v, v < size_vertex g /\ nth v p 0 = b /\ walk (edge g) k u v.
  Proof using Hwh Hs Hp He.
    intros Ha W. induction W as [a|k a b c W IH E]; intros u Hu Eu; [exists u; repeat split; auto; constructor|].
    destruct (IH Ha u Hu Eu) as (v & Hv & Ev & W').
    destruct (edge_bounds d h b c Hwh E) as (_ & B & _). rewrite Hs in B.
    destruct (perm_onto _ _ c Hp B) as (w & Hw' & Ew). exists w. repeat split; auto.
    eapply walk_S; [exact W'|]. apply He; auto. rewrite Ev, Ew. exact E.
  Qed.

  Lemma walk_iff k u v : u < size_vertex g -> v < size_vertex g ->
    (walk (edge h) k (nth u p 0) (nth v p 0) <-> walk (edge g) k u v).
  Proof using Hw Hwh Hs Hp He.
    intros Hu Hv. split; intros W.
    - destruct (walk_from k _ _ (perm_bound _ p u Hp Hu) W u Hu eq_refl) as (v' & Hv' & Ev & W').
      rewrite (perm_inj _ p v' v Hp Hv' Hv Ev) in W'. exact W'.
    - apply (walk_to k u v Hu W).
  Qed.

  Lemma dist_iff k u v : u < size_vertex g -> v < size_vertex g ->
    (dist (edge h) (nth u p 0) (nth v p 0) k <-> dist (edge g) u v k).
  Proof using Hw Hwh Hs Hp He.
    intros Hu Hv. unfold dist. rewrite (walk_iff k u v Hu Hv). split; intros [W L]; (split; [exact W|]); intros m Wm; apply L;
      apply (walk_iff m u v Hu Hv), Wm.
  Qed.
End Distances.

Lemma reorder_distances M dbg d g p s : well_formed d g -> size_vertex g <= M -> s < size_vertex g -> (dbg = true -> 1 < size_vertex g) ->
  is_perm (size_vertex g) p ->
  exists h L L', reorder dbg g p = Ok (h, g) /\ level_traversal M dbg g s M = Ok L /\ level_traversal M dbg h (nth s p 0) M = Ok L' /\
    forall v, v < size_vertex g -> nth_error L' (nth v p 0) = nth_error L v.
Proof.
  intros Hw HM Hs Hd Hp. destruct (reorder_spec dbg d g p Hw Hp) as (h & E & Hwh & Hsz & _ & He & _).
  destruct (level_traversal_spec M dbg d g s Hw HM Hs Hd) as (L & EL & Len & HL).
  destruct (level_traversal_spec M dbg d h (nth s p 0) Hwh) as (L' & EL' & Len' & HL'); rewrite ?Hsz; auto.
  { apply (perm_bound _ p s Hp Hs). }
  exists h, L, L'. repeat split; auto. intros v Hv.
  destruct (nth_error L v) as [k|] eqn:Ek; [|apply nth_error_None in Ek; lia].
  apply HL'; [rewrite Hsz; apply (perm_bound _ p v Hp Hv)|]. apply (HL v Hv) in Ek as [D|[-> D]].
  - left. apply (dist_iff d g h p Hw Hwh Hsz Hp He); auto.
  - right. split; [reflexivity|]. intros [m W]. apply D. exists m. apply (walk_iff d g h p Hw Hwh Hsz Hp He m s v Hs Hv), W.
Qed.

(* ------------------------------------------------------------------ the order of insertion *)
Lemma vertex_bound_le es n : (forall e, In e es -> fst e < n /\ snd e < n) -> vertex_bound es <= n.
Proof.
  unfold vertex_bound. induction es as [|e es IH]; intros H; cbn [fold_right]; [lia|].
  destruct (H e (or_introl eq_refl)). specialize (IH (fun e' h => H e' (or_intror h))). lia.
Qed.

Lemma vertex_bound_In es e : In e es -> fst e < vertex_bound es /\ snd e < vertex_bound es.
Proof.
  unfold vertex_bound. induction es as [|a es IH]; intros H; [destruct H|]. cbn [fold_right].
  destruct H as [->|H]; [|specialize (IH H)]; lia.
Qed.

Lemma same_edge_refl d e : same_edge d e e = true.
Proof. unfold same_edge. rewrite !Nat.eqb_refl. reflexivity. Qed.

Lemma bound_mem d es es' : (forall u v, mem_edge d (u, v) es = true -> mem_edge d (u, v) es' = true) -> vertex_bound es <= vertex_bound es'.
Proof.
  intros H. apply vertex_bound_le. intros [a b] He.
  assert (K : mem_edge d (a, b) es = true) by (apply mem_edge_true; exists (a, b); split; [exact He|apply same_edge_refl]).
  apply H, mem_edge_true in K as ([x y] & Hx & Hs). apply vertex_bound_In in Hx. unfold same_edge in Hs. cbn [fst snd] in *.
  apply Bool.orb_true_iff in Hs as [Hs|Hs]; repeat (apply Bool.andb_true_iff in Hs as [Hs ?]);
    repeat match goal with H : (_ =? _) = true |- _ => apply Nat.eqb_eq in H end; subst; tauto.
Qed.

Lemma order_irrelevant dbg d es es' : es <> [] -> (forall e, In e es -> fst e <> snd e) -> (forall e, In e es' -> fst e <> snd e) ->
  (forall u v, mem_edge d (u, v) es = mem_edge d (u, v) es') ->
  exists g, graph_of_list dbg d es = Ok g /\ graph_of_list dbg d es' = Ok g.
Proof.
  intros Hne H H' Hm.
  assert (Hne' : es' <> []).
  { intros ->. destruct es as [|[a b] es]; [contradiction|]. specialize (Hm a b). cbn [mem_edge existsb] in Hm.
    rewrite same_edge_refl in Hm. discriminate. }
  destruct (list_graph dbg d es Hne H) as (g & E & Hw & He & _ & Hb).
  destruct (list_graph dbg d es' Hne' H') as (g' & E' & Hw' & He' & _ & Hb').
  exists g. split; [exact E|]. rewrite E'. f_equal.
  assert (B : vertex_bound es = vertex_bound es').
  { apply Nat.le_antisymm; apply (bound_mem d); intros u v; rewrite Hm; auto. }
  apply (well_formed_ext d); auto; [congruence| |].
  - intros u v. rewrite He, He', Hm. reflexivity.
  - rewrite Hb'. destruct es' as [|e es']; [contradiction|].
    destruct (vertex_bound_In (e :: es') e (or_introl eq_refl)). lia.
Qed.

Lemma insert_commute dbg d g e f : well_formed d g -> fst e <> snd e -> fst f <> snd f ->
  exists a b h x y x' y', insert dbg d g e = Ok (a, x) /\ insert dbg d a f = Ok (h, y) /\
    insert dbg d g f = Ok (b, y') /\ insert dbg d b e = Ok (h, x').
Proof.
  intros Hw He Hf.
  destruct (insert_spec dbg d g e Hw He) as (a & x & Ea & Wa & _ & _ & Ha & _ & Sa).
  destruct (insert_spec dbg d a f Wa Hf) as (h & y & Eh & Wh & _ & _ & Hh & _ & Sh).
  destruct (insert_spec dbg d g f Hw Hf) as (b & y' & Eb & Wb & _ & _ & Hb & _ & Sb).
  destruct (insert_spec dbg d b e Wb He) as (k & x' & Ek & Wk & _ & _ & Hk & _ & Sk).
  exists a, b, h, x, y, x', y'. repeat split; auto. rewrite Ek. do 2 f_equal.
  apply (well_formed_ext d); auto; [lia| |lia].
  intros u v. rewrite Hk, Hb, Hh, Ha. tauto.
Qed.

Lemma same_edge_map d n p u v e : is_perm n p -> u < n -> v < n -> fst e < n -> snd e < n ->
  same_edge d (nth u p 0, nth v p 0) (nth (fst e) p 0, nth (snd e) p 0) = same_edge d (u, v) e.
Proof.
  intros Hp Hu Hv H1 H2. unfold same_edge. cbn [fst snd].
  assert (K : forall a b, a < n -> b < n -> (nth a p 0 =? nth b p 0) = (a =? b)).
  { intros a b A B. destruct (Nat.eqb_spec a b) as [->|N]; [apply Nat.eqb_refl|]. apply Nat.eqb_neq.
    intros E. apply N, (perm_inj n p a b Hp A B E). }
  rewrite !K by auto. reflexivity.
Qed.

Lemma insert_reorder dbg d g p e : well_formed d g -> is_perm (size_vertex g) p -> fst e <> snd e ->
  fst e < size_vertex g -> snd e < size_vertex g ->
  exists a b h x, insert dbg d g e = Ok (a, x) /\ reorder dbg a p = Ok (h, a) /\
    reorder dbg g p = Ok (b, g) /\ insert dbg d b (nth (fst e) p 0, nth (snd e) p 0) = Ok (h, x).
Proof.
  intros Hw Hp Hne H1 H2.
  destruct (insert_spec dbg d g e Hw Hne) as (a & x & Ea & Wa & Bx & _ & Ha & _ & Sa).
  assert (Hs : size_vertex a = size_vertex g) by lia.
  destruct (reorder_spec dbg d a p Wa) as (h & Eh & Wh & Sh & _ & Hh & _); [rewrite Hs; exact Hp|].
  destruct (reorder_spec dbg d g p Hw Hp) as (b & Eb & Wb & Sb & _ & Hb & _).
  pose proof (perm_bound _ p (fst e) Hp H1) as P1. pose proof (perm_bound _ p (snd e) Hp H2) as P2.
  destruct (insert_spec dbg d b (nth (fst e) p 0, nth (snd e) p 0) Wb) as (k & y & Ek & Wk & By & _ & Hk & _ & Sk).
  { cbn [fst snd]. intros E. apply Hne, (perm_inj _ p _ _ Hp H1 H2 E). }
  cbn [fst snd] in *.
  exists a, b, h, x. repeat split; auto. rewrite Ek.
  assert (y = x) as ->.
  { rewrite Hb in By by auto. destruct x, y; auto; exfalso.
    - assert (true = false) by (apply Bx, By; reflexivity). discriminate.
    - assert (true = false) by (apply By, Bx; reflexivity). discriminate. }
  do 2 f_equal. apply (well_formed_ext d); auto; [lia| |lia].
  assert (K : forall i j, i < size_vertex g -> j < size_vertex g -> (edge k i j <-> edge h i j)).
  { intros i j Hi Hj. destruct (perm_onto _ _ i Hp Hi) as (u & Hu & <-). destruct (perm_onto _ _ j Hp Hj) as (v & Hv & <-).
    rewrite Hk, Hb, Hh, Ha by lia. rewrite (same_edge_map d _ p u v e Hp) by auto. reflexivity. }
  intros i j. split; intros Hij.
  - destruct (edge_bounds d k i j Wk Hij) as (A & B & _). apply K; auto; lia.
  - destruct (edge_bounds d h i j Wh Hij) as (A & B & _). apply K; auto; lia.
Qed.

(* ------------------------------------------------------------------ erase_if *)
Lemma erase_if_inv M d del g g' : well_formed d g -> erase_if M del g = Ok g' ->
  well_formed d g' /\ size_vertex g' = rank del (size_vertex g) /\
    (forall u v, u < size_vertex g -> v < size_vertex g -> del u = false -> del v = false ->
       (edge g' (rank del u) (rank del v) <-> edge g u v)).
Proof.
  intros Hw E.
  assert (D : erase_if M del g <> Undef) by congruence.
  assert (Ho : off g <> []) by (intros Ho; apply D, (erase_if_undefined M d del g Hw); auto).
  destruct (erase_if_spec M d del g Hw Ho) as (g'' & E' & R); [|rewrite E in E'; injection E' as <-; exact R].
  intros i Hi Hd. destruct (Nat.lt_ge_cases i (length (adj g))) as [L|L]; [exact L|].
  exfalso. apply D, (erase_if_undefined M d del g Hw). right. exists i. auto.
Qed.

Lemma rank_compose del1 del2 u : rank (fun u => del1 u || del2 (rank del1 u)) u = rank del2 (rank del1 u).
Proof.
  induction u as [|u IH]; [reflexivity|]. rewrite !rank_S, IH. destruct (del1 u); cbn [orb]; [rewrite !Nat.add_0_r; reflexivity|].
  rewrite Nat.add_1_r, rank_S. reflexivity.
Qed.

(** Two graphs that are numbered by the ranks of the vertices that remain. *)
Lemma ranked_eq d g del k k' : well_formed d k -> well_formed d k' ->
  size_vertex k = rank del (size_vertex g) -> size_vertex k' = rank del (size_vertex g) -> 0 < rank del (size_vertex g) ->
  (forall u v, u < size_vertex g -> v < size_vertex g -> del u = false -> del v = false ->
     (edge k (rank del u) (rank del v) <-> edge k' (rank del u) (rank del v))) -> k = k'.
Proof.
  intros Hk Hk' S S' Hp H. apply (well_formed_ext d); auto; [congruence| |lia].
  assert (K : forall a b, a < rank del (size_vertex g) -> b < rank del (size_vertex g) -> (edge k a b <-> edge k' a b)).
  { intros a b Ha Hb. destruct (rank_surj del _ a Ha) as (u & Hu & Du & <-). destruct (rank_surj del _ b Hb) as (v & Hv & Dv & <-).
    apply H; auto. }
  intros a b. split; intros Hab.
  - destruct (edge_bounds d k a b Hk Hab) as (A & B & _). apply K; auto; lia.
  - destruct (edge_bounds d k' a b Hk' Hab) as (A & B & _). apply K; auto; lia.
Qed.

Lemma erase_twice M d g del1 del2 g1 g2 : well_formed d g ->
  erase_if M del1 g = Ok g1 -> erase_if M del2 g1 = Ok g2 -> 0 < size_vertex g2 ->
  erase_if M (fun u => del1 u || del2 (rank del1 u)) g = Ok g2.
Proof.
  intros Hw E1 E2 Hp.
  destruct (erase_if_inv M d del1 g g1 Hw E1) as (W1 & S1 & H1).
  destruct (erase_if_inv M d del2 g1 g2 W1 E2) as (W2 & S2 & H2).
  assert (D : erase_if M del1 g <> Undef) by congruence.
  destruct (erase_if_spec M d (fun u => del1 u || del2 (rank del1 u)) g Hw) as (g3 & E3 & W3 & S3 & H3).
  { intros Ho. apply D, (erase_if_undefined M d del1 g Hw). auto. }
  { intros i Hi Di. apply Bool.orb_false_iff in Di as [Di _].
    destruct (Nat.lt_ge_cases i (length (adj g))) as [L|L]; [exact L|].
    exfalso. apply D, (erase_if_undefined M d del1 g Hw). right. exists i. auto. }
  rewrite E3. f_equal. symmetry.
  apply (ranked_eq d g (fun u => del1 u || del2 (rank del1 u))); auto.
  - rewrite rank_compose, <- S1. exact S2.
  - rewrite rank_compose, <- S1. congruence.
  - intros u v Hu Hv Du Dv. rewrite H3 by auto. rewrite !rank_compose.
    apply Bool.orb_false_iff in Du as [Du1 Du2]. apply Bool.orb_false_iff in Dv as [Dv1 Dv2].
    rewrite H2 by (auto; rewrite S1; apply rank_lt; auto). apply H1; auto.
Qed.

Lemma rank_below n u : u <= n -> rank (fun i => n <=? i) u = u.
Proof.
  induction u as [|u IH]; intros Hu; [reflexivity|]. rewrite rank_S, IH by lia.
  destruct (Nat.leb_spec n u); lia.
Qed.

Lemma rank_above n u : n <= u -> rank (fun i => n <=? i) u = n.
Proof.
  intros Hu. induction Hu as [|u Hu IH]; [apply rank_below; auto|]. rewrite rank_S, IH.
  destruct (Nat.leb_spec n u); lia.
Qed.

Lemma erase_resize M d g n g' : well_formed d g -> 0 < n <= size_vertex g -> erase_if M (fun i => n <=? i) g = Ok g' ->
  resize false g n = Ok g'.
Proof.
  intros Hw Hn E. destruct (erase_if_inv M d _ g g' Hw E) as (W & S & H).
  destruct (resize_spec d g n Hw) as (k & Ek & Wk & Sk & Hk). rewrite Ek. f_equal.
  rewrite rank_above in S by lia.
  apply (ranked_eq d g (fun i => n <=? i)); rewrite ?rank_above by lia; auto; [lia|].
  intros u v Hu Hv Du Dv. rewrite H by auto. apply Nat.leb_gt in Du. apply Nat.leb_gt in Dv.
  rewrite !rank_below by lia. rewrite Hk. tauto.
Qed.

(* ------------------------------------------------------------------ subgraphs *)
(** The graph of a subgraph. *)
Definition graph_of (r : res subgraph) : res graph := bind r (fun s => Ok (s_graph s)).

(** The vertices that remain. *)
Definition kept (del : nat -> bool) (n : nat) : list nat := filter (fun i => negb (del i)) (seq 0 n).

Lemma kept_nth del n u : u < n -> del u = false -> nth (rank del u) (kept del n) 0 = u.
Proof.
  intros Hu Du. unfold kept. replace n with (u + (1 + (n - u - 1))) by lia.
  rewrite seq_app, seq_app, !filter_app. cbn [seq Nat.add filter]. rewrite Du. cbn [negb app].
  rewrite app_nth2; unfold rank; [|lia]. rewrite Nat.sub_diag. reflexivity.
Qed.

Lemma erase_subgraph h M dbg del g g' : well_formed false g -> size_vertex g <= M -> size_vertex g <= length (adj g) ->
  erase_if M del g = Ok g' -> 0 < size_vertex g' ->
  exists s, subgraph_new h M dbg g (kept del (size_vertex g)) 0 = Ok s /\ s_graph s = g'.
Proof.
  intros Hw HM Ha E Hp. destruct (erase_if_inv M false del g g' Hw E) as (W & S & H).
  assert (L : length (kept del (size_vertex g)) = rank del (size_vertex g)) by reflexivity.
  destruct (new_induced h M dbg g (kept del (size_vertex g)) Hw HM) as (s & Es & Ws & Ss & _ & Hs); auto.
  - rewrite S in Hp. destruct (size_vertex g); [cbn in Hp|]; lia.
  - apply ascending_filter, ascending_seq.
  - intros v Hv. apply filter_In in Hv as [Hv _]. apply in_seq in Hv. lia.
  - exists s. split; [exact Es|]. unfold sub_size in Ss.
    apply (ranked_eq false g del); auto.
    + rewrite <- S. exact Hp.
    + intros u v Hu Hv Du Dv. rewrite H, Hs by (auto; rewrite L; apply rank_lt; auto).
      rewrite !kept_nth by auto. reflexivity.
Qed.

Lemma nested h M dbg g part part2 : well_formed false g -> size_vertex g <= M -> size_vertex g <= length (adj g) ->
  ascending part -> (forall v, In v part -> v < size_vertex g) ->
  ascending part2 -> (forall v, In v part2 -> v < length part) -> part2 <> [] ->
  exists s s', subgraph_new h M dbg g part 0 = Ok s /\ subgraph_new h M dbg g (map (fun i => nth i part 0) part2) 0 = Ok s' /\
    (size_vertex (s_graph s) <= length (adj (s_graph s)) ->
     exists s2, subgraph_new h M dbg (s_graph s) part2 0 = Ok s2 /\ s_graph s2 = s_graph s').
Proof.
  intros Hw HM Ha A1 B1 A2 B2 Hne.
  assert (Hn : 0 < size_vertex g).
  { destruct part2 as [|x part2]; [contradiction|]. specialize (B2 x (or_introl eq_refl)).
    destruct part as [|y part]; [cbn in B2; lia|]. specialize (B1 y (or_introl eq_refl)). lia. }
  set (part3 := map (fun i => nth i part 0) part2).
  assert (A3 : ascending part3).
  { apply ascending_map_nth; auto. }
  assert (B3 : forall v, In v part3 -> v < size_vertex g).
  { intros v Hv. apply in_map_iff in Hv as (z & <- & Hz). apply B1, nth_In, B2, Hz. }
  destruct (new_induced h M dbg g part Hw HM Hn Ha A1 B1) as (s & Es & Ws & Ss & _ & Hs).
  destruct (new_induced h M dbg g part3 Hw HM Hn Ha A3 B3) as (s' & Es' & Ws' & Ss' & _ & Hs').
  exists s, s'. split; [exact Es|]. split; [exact Es'|]. intros Hadj. unfold sub_size in *.
  destruct (new_induced h M dbg (s_graph s) part2 Ws) as (s2 & Es2 & Ws2 & Ss2 & _ & Hs2); auto.
  - rewrite Ss. rewrite <- (map_length (fun x => x) part). rewrite map_id.
    assert (length part <= size_vertex g); [|lia]. 
    rewrite <- (seq_length (size_vertex g) 0). apply NoDup_incl_length; [apply ascending_NoDup, A1|].
    intros x Hx. apply in_seq. specialize (B1 x Hx). lia.
  - rewrite Ss. destruct part2 as [|x part2]; [contradiction|]. specialize (B2 x (or_introl eq_refl)). lia.
  - intros v Hv. rewrite Ss. auto.
  - exists s2. split; [exact Es2|]. assert (L : length part3 = length part2) by apply map_length.
    unfold sub_size in Ss2. apply (well_formed_ext false); auto; [congruence| |].
    + assert (K : forall a b, a < length part2 -> b < length part2 -> (edge (s_graph s2) a b <-> edge (s_graph s') a b)).
      { intros a b Hx Hy. rewrite Hs2, Hs' by (auto; lia).
        rewrite Hs by (apply B2, nth_In; assumption).
        unfold part3.
        rewrite !(nth_indep (map _ part2) 0 (nth 0 part 0)) by (rewrite map_length; assumption).
        rewrite !(map_nth (fun i => nth i part 0)). reflexivity. }
      intros a b. split; intros Hab.
      * destruct (edge_bounds false _ a b Ws2 Hab) as (X & Y & _). apply K; auto; lia.
      * destruct (edge_bounds false _ a b Ws' Hab) as (X & Y & _). apply K; auto; lia.
    + rewrite Ss2. destruct part2; [contradiction|cbn; lia].
Qed.

Lemma path3_wf : well_formed false (mkG [1; 0; 2; 1] [0; 1; 3; 4]).
Proof.
  destruct (list_graph false false [(0, 1); (1, 2)]) as (g & E & W & _); [discriminate| |].
  - intros e H. cbn in H. destruct H as [<-|[<-|[]]]; discriminate.
  - vm_compute in E. injection E as <-. exact W.
Qed.

Lemma erase_twice_refuted : exists (M : nat) (g : graph) (del1 del2 : nat -> bool) (g1 g2 : graph),
  well_formed false g /\ erase_if M del1 g = Ok g1 /\ erase_if M del2 g1 = Undef /\
  erase_if M (fun u => del1 u || del2 (rank del1 u)) g = Ok g2 /\ size_vertex g2 = 1.
Proof.
  exists 100, (mkG [1; 0; 2; 1] [0; 1; 3; 4]), (fun i => i =? 1), (fun i => i =? 0), (mkG [] [0; 0; 0]), (mkG [] [0; 0]).
  split; [apply path3_wf|]. repeat split; vm_compute; reflexivity.
Qed.
