(** Generators, C30 and C31. *)
From Verif Require Import Base ListFacts Csr GraphModel GraphSpec GraphFacts GraphInsert.

Lemma forM_map {A B S} (h : A -> B) (f : B -> S -> res S) l s :
  forM (map h l) f s = forM l (fun a => f (h a)) s.
Proof. revert s; induction l as [|a l IH]; intro s; simpl; auto. destruct (f (h a) s); simpl; auto. Qed.

Lemma forM_flat_map {A B S} (h : A -> list B) (f : B -> S -> res S) l s :
  forM (flat_map h l) f s = forM l (fun a => forM (h a) f) s.
Proof.
  revert s; induction l as [|a l IH]; intro s; simpl; auto.
  rewrite forM_app. destruct (forM (h a) f s); simpl; auto.
Qed.

Lemma forM_ext {A S} (f1 f2 : A -> S -> res S) l s :
  (forall a s, In a l -> f1 a s = f2 a s) -> forM l f1 s = forM l f2 s.
Proof.
  revert s; induction l as [|a l IH]; intros s H; simpl; auto.
  rewrite H by (simpl; auto). destruct (f2 a s); simpl; auto. apply IH. intros; apply H; simpl; auto.
Qed.

(* ------------------------------------------------------------------ counting distinct edges *)
Definition norm (d : bool) (e : nat * nat) : nat * nat := if d then e else order_edge_vertex e.

Lemma same_edge_norm d e f : same_edge d e f = true <-> norm d e = norm d f.
Proof.
  destruct e as [a b], f as [c x]. rewrite same_edge_true.
  unfold norm, order_edge_vertex. destruct d; cbn [fst snd].
  - split; [intros [[-> ->]|[]]; congruence|intro H; injection H; auto].
  - destruct (Nat.ltb_spec a b), (Nat.ltb_spec c x); split;
      try (intros [[-> ->]|(_ & -> & ->)]; try f_equal; lia);
      intro E; injection E; intros; subst; auto; try (left; split; lia); right; split; auto; lia.
Qed.

Lemma mem_edge_norm d e es : mem_edge d e es = true <-> In (norm d e) (map (norm d) es).
Proof.
  rewrite mem_edge_true, in_map_iff. split; intros (f & H1 & H2).
  - exists f. split; auto. symmetry. apply same_edge_norm; auto.
  - exists f. split; auto. apply same_edge_norm; auto.
Qed.

Lemma distinct_edges_NoDup d es : NoDup (map (norm d) (distinct_edges d es)).
Proof.
  induction es as [|e es IH] using rev_ind; [constructor|].
  rewrite distinct_edges_snoc. destruct (mem_edge d e (distinct_edges d es)) eqn:E; auto.
  rewrite map_app. simpl. apply NoDup_app_snoc; auto.
  intro H. apply mem_edge_norm in H. congruence.
Qed.

Lemma distinct_edges_count d es es' :
  NoDup (map (norm d) es') ->
  (forall e, mem_edge d e es = mem_edge d e es') ->
  length (distinct_edges d es) = length es'.
Proof.
  intros Hn He. rewrite <- (map_length (norm d)), <- (map_length (norm d) es').
  apply Permutation_length, NoDup_Permutation; auto using distinct_edges_NoDup.
  intro x. split; intro Hx; apply in_map_iff in Hx as (e & <- & Hin);
    apply mem_edge_norm.
  - rewrite <- He, <- mem_distinct. apply mem_edge_norm, in_map; auto.
  - rewrite mem_distinct, He. apply mem_edge_norm, in_map; auto.
Qed.

(* ------------------------------------------------------------------ line *)
Definition line_edges (k : nat) : list (nat * nat) := map (fun i => (i, i + 1)) (seq 0 k).

Lemma vertex_bound_cons e es :
  vertex_bound (e :: es) = Nat.max (Nat.max (fst e) (snd e) + 1) (vertex_bound es).
Proof. reflexivity. Qed.

Lemma vertex_bound_le es b : (forall e, In e es -> fst e < b /\ snd e < b) -> vertex_bound es <= b.
Proof.
  intro H. induction es as [|e es IH]; [unfold vertex_bound; simpl; lia|].
  rewrite vertex_bound_cons.
  destruct (H e); [simpl; auto|]. assert (vertex_bound es <= b) by (apply IH; intros; apply H; simpl; auto).
  lia.
Qed.

Lemma vertex_bound_ge es e : In e es -> fst e < vertex_bound es /\ snd e < vertex_bound es.
Proof.
  induction es as [|f es IH]; [intros []|]. rewrite vertex_bound_cons. intros [->|H].
  - lia.
  - specialize (IH H). lia.
Qed.

Lemma line_run dbg d k :
  FOR k (fun i g => do r <- insert dbg d g (i, i + 1); Ok (fst r)) graph_default =
  do r <- insert_all dbg d (line_edges k) graph_default; Ok (fst r).
Proof.
  rewrite <- insert_all_forM. unfold line_edges. rewrite forM_map. reflexivity.
Qed.

Lemma line_spec dbg d k : 0 < k ->
  exists g, FOR k (fun i g => do r <- insert dbg d g (i, i + 1); Ok (fst r)) graph_default = Ok g /\
    well_formed d g /\ size_vertex g = k + 1 /\ size_edge d g = k /\
    forall u v, edge g u v <->
      (u < k + 1 /\ v < k + 1 /\ (v = u + 1 \/ (d = false /\ u = v + 1))).
Proof.
  intro Hk.
  destruct (insert_all_spec dbg d (line_edges k)) as (g & bs & E & Hwf & He & _ & _ & Hadj & Hsz).
  { intros e H. apply in_map_iff in H as (i & <- & _). simpl. lia. }
  exists g. rewrite line_run, E. split; [reflexivity|]. split; [auto|].
  split; [|split].
  - rewrite Hsz. apply Nat.le_antisymm.
    + apply vertex_bound_le. intros e H. apply in_map_iff in H as (i & <- & Hi). apply in_seq in Hi. simpl. lia.
    + pose proof (vertex_bound_ge (line_edges k) (k - 1, k - 1 + 1)) as H. simpl in H.
      assert (In (k - 1, k - 1 + 1) (line_edges k)); [|intuition lia].
      unfold line_edges. apply in_map_iff. exists (k-1). split; auto. apply in_seq. lia.
  - apply size_edge_mul. rewrite Hadj. f_equal.
    rewrite (distinct_edges_count d (line_edges k) (line_edges k)); auto.
    + unfold line_edges. rewrite map_length, seq_length. reflexivity.
    + unfold line_edges. rewrite map_map. apply NoDup_map_inj; [|apply seq_NoDup].
      intros x y _ _. unfold norm, order_edge_vertex. cbn [fst snd].
      destruct (Nat.ltb_spec x (x+1)), (Nat.ltb_spec y (y+1)); try lia.
      destruct d; congruence.
  - intros u v. rewrite He, mem_edge_true. split.
    + intros ((a & b) & Hin & Hs). apply in_map_iff in Hin as (i & Ei & Hi). injection Ei as <- <-.
      apply in_seq in Hi. apply same_edge_true in Hs. intuition lia.
    + intros (Hu & Hv & [->|[Hd ->]]).
      * exists (u, u + 1). split; [|apply same_edge_refl].
        apply in_map_iff. exists u. split; auto. apply in_seq. lia.
      * exists (v, v + 1). split; [|apply same_edge_true; auto].
        apply in_map_iff. exists v. split; auto. apply in_seq. lia.
Qed.

(* ------------------------------------------------------------------ grid *)
Definition opt (c : bool) (e : nat * nat) : list (nat * nat) := if c then [e] else [].

Definition cell_edges (d : bool) (n iy ix : nat) : list (nat * nat) :=
  let v := iy * n + ix in
  opt (negb d && negb (ix =? 0)) (v - 1, v) ++
  opt (negb (ix =? n - 1)) (v, v + 1) ++
  opt (negb d && negb (iy =? 0)) (v - n, v) ++
  opt (iy <? n - 1) (v, v + n).

Definition grid_edges (d : bool) (n : nat) : list (nat * nat) :=
  flat_map (fun iy => flat_map (cell_edges d n iy) (seq 0 n)) (seq 0 n).

Lemma forM_opt dbg d c e g :
  forM (opt c e) (fun e g => do r <- insert dbg d g e; Ok (fst r)) g =
  if c then (do r <- insert dbg d g e; Ok (fst r)) else Ok g.
Proof.
  destruct c; [|reflexivity]. cbn [opt forM].
  destruct (insert dbg d g e) as [[]| | |]; reflexivity.
Qed.

Lemma grid_run dbg d n :
  create_graph_structured dbg d n =
  do r <- insert_all dbg d (grid_edges d n) graph_default; Ok (fst r).
Proof.
  rewrite <- insert_all_forM. unfold create_graph_structured, grid_edges, FOR.
  rewrite forM_flat_map. apply forM_ext. intros iy g _.
  rewrite forM_flat_map. apply forM_ext. intros ix g' _.
  unfold cell_edges. rewrite !forM_app.
  assert (Hb : forall (m1 m2 : res graph) k1 k2, m1 = m2 -> (forall g, k1 g = k2 g) ->
            bind m1 k1 = bind (B := graph) m2 k2).
  { intros m1 m2 k1 k2 -> H. destruct m2; simpl; auto. }
  apply Hb; [symmetry; apply forM_opt|]. intro g1. rewrite forM_app.
  apply Hb; [symmetry; apply forM_opt|]. intro g2. rewrite forM_app.
  apply Hb; [symmetry; apply forM_opt|]. intro g3.
  symmetry; apply forM_opt.
Qed.

Definition h_edges (n : nat) : list (nat * nat) :=
  map (fun c => (fst c * n + snd c, fst c * n + snd c + 1)) (list_prod (seq 0 n) (seq 0 (n - 1))).
Definition v_edges (n : nat) : list (nat * nat) :=
  map (fun c => (fst c * n + snd c, fst c * n + snd c + n)) (list_prod (seq 0 (n - 1)) (seq 0 n)).

Lemma In_opt c e f : In f (opt c e) <-> c = true /\ f = e.
Proof. destruct c; simpl; intuition congruence. Qed.

Lemma In_h_edges n e : In e (h_edges n) <-> exists y x, y < n /\ x + 1 < n /\ e = (y * n + x, y * n + x + 1).
Proof.
  unfold h_edges. rewrite in_map_iff. split.
  - intros ((y & x) & <- & Hin). apply in_prod_iff in Hin as [H1 H2].
    apply in_seq in H1, H2. exists y, x. simpl. split; [lia|split; [lia|auto]].
  - intros (y & x & Hy & Hx & ->). exists (y, x). split; auto.
    apply in_prod; apply in_seq; lia.
Qed.

Lemma In_v_edges n e : In e (v_edges n) <-> exists y x, y + 1 < n /\ x < n /\ e = (y * n + x, y * n + x + n).
Proof.
  unfold v_edges. rewrite in_map_iff. split.
  - intros ((y & x) & <- & Hin). apply in_prod_iff in Hin as [H1 H2].
    apply in_seq in H1, H2. exists y, x. simpl. split; [lia|split; [lia|auto]].
  - intros (y & x & Hy & Hx & ->). exists (y, x). split; auto.
    apply in_prod; apply in_seq; lia.
Qed.

Lemma grid_edges_In d n e : In e (grid_edges d n) <-> In e (h_edges n ++ v_edges n).
Proof.
  unfold grid_edges. rewrite in_flat_map, in_app_iff, In_h_edges, In_v_edges. split.
  - intros (iy & Hy & H). apply in_seq in Hy. apply in_flat_map in H as (ix & Hx & H).
    apply in_seq in Hx. unfold cell_edges in H. rewrite !in_app_iff, !In_opt in H.
    destruct H as [[Hc ->]|[[Hc ->]|[[Hc ->]|[Hc ->]]]].
    + apply andb_true_iff in Hc as [_ Hc]. apply negb_true_iff, Nat.eqb_neq in Hc.
      left. exists iy, (ix - 1). split; [lia|split; [lia|]]. f_equal; lia.
    + apply negb_true_iff, Nat.eqb_neq in Hc. left. exists iy, ix. split; [lia|split; [lia|auto]].
    + apply andb_true_iff in Hc as [_ Hc]. apply negb_true_iff, Nat.eqb_neq in Hc.
      right. exists (iy - 1), ix. split; [lia|split; [lia|]].
      assert (Hiy : iy * n = (iy - 1) * n + n) by (destruct iy; [lia|]; simpl; rewrite Nat.sub_0_r; lia).
      revert Hiy. generalize (iy * n), ((iy - 1) * n). intros p q ->. f_equal; lia.
    + apply Nat.ltb_lt in Hc. right. exists iy, ix. split; [lia|split; [lia|auto]].
  - intros [(y & x & Hy & Hx & ->)|(y & x & Hy & Hx & ->)].
    + exists y. split; [apply in_seq; lia|]. apply in_flat_map. exists x.
      split; [apply in_seq; lia|]. unfold cell_edges. rewrite !in_app_iff, !In_opt.
      right. left. split; auto. apply negb_true_iff, Nat.eqb_neq. lia.
    + exists y. split; [apply in_seq; lia|]. apply in_flat_map. exists x.
      split; [apply in_seq; lia|]. unfold cell_edges. rewrite !in_app_iff, !In_opt.
      right. right. right. split; auto. apply Nat.ltb_lt. lia.
Qed.

Lemma point_inj n y1 x1 y2 x2 : x1 < n -> x2 < n -> y1 * n + x1 = y2 * n + x2 -> y1 = y2 /\ x1 = x2.
Proof.
  intros H1 H2 E. assert (y1 = y2); [|subst; lia].
  destruct (Nat.lt_trichotomy y1 y2) as [H|[H|H]]; auto; exfalso; nia.
Qed.

Lemma norm_up d a b : a < b -> norm d (a, b) = (a, b).
Proof.
  intro H. unfold norm, order_edge_vertex. cbn [fst snd].
  destruct (Nat.ltb_spec a b); [destruct d; auto|lia].
Qed.

Lemma NoDup_list_prod {A B} (l1 : list A) (l2 : list B) : NoDup l1 -> NoDup l2 -> NoDup (list_prod l1 l2).
Proof.
  intros H1 H2. induction H1 as [|a l1 Ha H1 IH]; simpl; [constructor|].
  apply NoDup_app_intro; auto.
  - apply NoDup_map_inj; auto. congruence.
  - intros (x & y) Hx Hy. apply in_map_iff in Hx as (b & E & _). injection E as <- <-.
    apply in_prod_iff in Hy as [Hy _]. contradiction.
Qed.

Lemma grid_NoDup d n : NoDup (map (norm d) (h_edges n ++ v_edges n)).
Proof.
  apply NoDup_map_inj.
  - intros e f He Hf E.
    assert (Hup : forall h, In h (h_edges n ++ v_edges n) -> norm d h = h).
    { intros h Hh. apply in_app_iff in Hh as [Hh|Hh].
      - apply In_h_edges in Hh as (y & x & Hy & Hx & ->). apply norm_up. lia.
      - apply In_v_edges in Hh as (y & x & Hy & Hx & ->). apply norm_up. lia. }
    rewrite (Hup e He), (Hup f Hf) in E. auto.
  - apply NoDup_app_intro.
    + unfold h_edges. apply NoDup_map_inj.
      * intros (y1 & x1) (y2 & x2) H1 H2 E. apply in_prod_iff in H1 as [_ H1], H2 as [_ H2].
        apply in_seq in H1, H2. cbn [fst snd] in E. injection E as E _.
        apply point_inj in E as [-> ->]; auto; lia.
      * apply NoDup_list_prod; apply seq_NoDup.
    + unfold v_edges. apply NoDup_map_inj.
      * intros (y1 & x1) (y2 & x2) H1 H2 E. apply in_prod_iff in H1 as [_ H1], H2 as [_ H2].
        apply in_seq in H1, H2. cbn [fst snd] in E. injection E as E _.
        apply point_inj in E as [-> ->]; auto; lia.
      * apply NoDup_list_prod; apply seq_NoDup.
    + intros e H1 H2. apply In_h_edges in H1 as (y1 & x1 & Hy1 & Hx1 & ->).
      apply In_v_edges in H2 as (y2 & x2 & Hy2 & Hx2 & E). injection E as E1 E2. lia.
Qed.

Lemma mem_edge_ext d es1 es2 : (forall e, In e es1 <-> In e es2) ->
  forall e, mem_edge d e es1 = mem_edge d e es2.
Proof.
  intros H e. apply eq_true_iff_eq. rewrite !mem_edge_true.
  split; intros (f & Hf & Hs); exists f; split; auto; apply H; auto.
Qed.

Lemma grid_spec dbg d n : n <> 1 ->
  exists g, create_graph_structured dbg d n = Ok g /\ well_formed d g /\
    size_vertex g = n * n /\ size_edge d g = 2 * n * (n - 1) /\
    forall x1 y1 x2 y2, x1 < n -> y1 < n -> x2 < n -> y2 < n ->
      (edge g (y1 * n + x1) (y2 * n + x2) <->
       (y1 = y2 /\ x2 = x1 + 1) \/ (x1 = x2 /\ y2 = y1 + 1) \/
       (d = false /\ ((y1 = y2 /\ x1 = x2 + 1) \/ (x1 = x2 /\ y1 = y2 + 1)))).
Proof.
  intro Hn1.
  assert (Hin : forall e, In e (grid_edges d n) -> fst e < snd e /\ snd e < n * n).
  { intros e H. apply grid_edges_In, in_app_iff in H as [H|H].
    - apply In_h_edges in H as (y & x & Hy & Hx & ->). simpl. split; [lia|]. nia.
    - apply In_v_edges in H as (y & x & Hy & Hx & ->). simpl. split; [lia|]. nia. }
  destruct (insert_all_spec dbg d (grid_edges d n)) as (g & bs & E & Hwf & He & _ & _ & Hadj & Hsz).
  { intros e H. apply Hin in H. lia. }
  exists g. rewrite grid_run, E. split; [reflexivity|]. split; [auto|]. split; [|split].
  - rewrite Hsz. apply Nat.le_antisymm.
    + apply vertex_bound_le. intros e H. apply Hin in H. lia.
    + destruct n as [|[|m]]; [simpl; lia|congruence|]. set (n := S (S m)) in *.
      assert (H : In ((n - 1) * n + (n - 2), (n - 1) * n + (n - 2) + 1) (grid_edges d n)).
      { apply grid_edges_In, in_app_iff. left. apply In_h_edges. exists (n-1), (n-2).
        unfold n. split; [lia|split; [lia|auto]]. }
      apply vertex_bound_ge in H as [_ H]. cbn [snd] in H. unfold n in *. nia.
  - apply size_edge_mul. rewrite Hadj. f_equal.
    rewrite (distinct_edges_count d _ (h_edges n ++ v_edges n)).
    + rewrite app_length. unfold h_edges, v_edges. rewrite !map_length, !prod_length, !seq_length. lia.
    + apply grid_NoDup.
    + apply mem_edge_ext. apply grid_edges_In.
  - intros x1 y1 x2 y2 Hx1 Hy1 Hx2 Hy2. rewrite He, mem_edge_true. split.
    + intros ((a & b) & Hf & Hs). apply grid_edges_In, in_app_iff in Hf. apply same_edge_true in Hs.
      destruct Hf as [Hf|Hf].
      * apply In_h_edges in Hf as (y & x & Hy & Hx & Ef). injection Ef as -> ->.
        destruct Hs as [[E1 E2]|(Hd & E1 & E2)].
        -- apply point_inj in E1 as [-> ->]; [|lia|lia].
           assert (E2' : y2 * n + x2 = y * n + (x + 1)) by lia.
           apply point_inj in E2' as [-> ->]; lia.
        -- apply point_inj in E2 as [-> ->]; [|lia|lia].
           assert (E1' : y1 * n + x1 = y * n + (x + 1)) by lia.
           apply point_inj in E1' as [-> ->]; try lia. intuition lia.
      * apply In_v_edges in Hf as (y & x & Hy & Hx & Ef). injection Ef as -> ->.
        destruct Hs as [[E1 E2]|(Hd & E1 & E2)].
        -- apply point_inj in E1 as [-> ->]; [|lia|lia].
           assert (E2' : y2 * n + x2 = (y + 1) * n + x) by lia.
           apply point_inj in E2' as [-> ->]; lia.
        -- apply point_inj in E2 as [-> ->]; [|lia|lia].
           assert (E1' : y1 * n + x1 = (y + 1) * n + x) by lia.
           apply point_inj in E1' as [-> ->]; try lia. intuition lia.
    + intros [[-> ->]|[[-> ->]|(Hd & [[-> ->]|[-> ->]])]].
      * exists (y2 * n + x1, y2 * n + x1 + 1). split.
        -- apply grid_edges_In, in_app_iff. left. apply In_h_edges. exists y2, x1.
           split; [lia|split; [lia|auto]].
        -- apply same_edge_true. left. lia.
      * exists (y1 * n + x2, y1 * n + x2 + n). split.
        -- apply grid_edges_In, in_app_iff. right. apply In_v_edges. exists y1, x2.
           split; [lia|split; [lia|auto]].
        -- apply same_edge_true. left. lia.
      * exists (y2 * n + x2, y2 * n + x2 + 1). split.
        -- apply grid_edges_In, in_app_iff. left. apply In_h_edges. exists y2, x2.
           split; [lia|split; [lia|auto]].
        -- apply same_edge_true. right. split; [auto|lia].
      * exists (y2 * n + x2, y2 * n + x2 + n). split.
        -- apply grid_edges_In, in_app_iff. right. apply In_v_edges. exists y2, x2.
           split; [lia|split; [lia|auto]].
        -- apply same_edge_true. right. split; [auto|lia].
Qed.

Lemma grid_one dbg d : create_graph_structured dbg d 1 = Ok graph_default.
Proof. destruct d; reflexivity. Qed.
