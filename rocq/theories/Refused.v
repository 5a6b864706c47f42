(** Calls which break a stated precondition: what a debug build refuses, and what a release build makes of them. *)
From Coq Require Import ZArith SpecFloat.
From Verif Require Import Base ListFacts Csr GraphModel GraphSpec GraphFacts GraphInsert TraversalModel ReorderModel SubgraphModel SpanModel
  SparseModel SparseSpec SparseFacts SparseSeq DenseModel ScalarModel GeometryModel IterModel LuModel IntModel SingleModel SingleOps.

(** ** Graphs *)
Lemma contains_refused dbg g e : contains dbg g e = Abort <-> dbg = true /\ fst e = snd e.
Proof.
  unfold contains. destruct (Nat.eqb_spec (fst e) (snd e)) as [E|E].
  - destruct dbg; cbn [ASSERT_DEBUG ASSERT negb bind]; [tauto|]. split; [|intros [? _]; discriminate].
    intro H. exfalso. destruct (g_empty g); [discriminate|]. destruct (size_vertex g <=? _); [discriminate|].
    unfold subscript, ASSERT_DEBUG, adjacency_iter, vget in H. cbn [bind] in H.
    destruct (nth_error (off g) (fst e)); cbn [bind] in H; [|discriminate].
    destruct (nth_error (off g) (fst e + 1)); cbn [bind] in H; [|discriminate].
    destruct (_ && _); cbn [bind] in H; [|discriminate]. destruct (nth_error _ _) in H; discriminate.
  - split; [|intros [_ ?]; contradiction]. intro H. exfalso.
    replace (ASSERT_DEBUG dbg (negb false)) with (Ok tt) in H by (destruct dbg; reflexivity). cbn [bind] in H.
    destruct (g_empty g); [discriminate|]. destruct (Nat.leb_spec (size_vertex g) (Nat.max (fst e) (snd e))) as [L|L]; [discriminate|].
    unfold subscript in H. destruct (Nat.ltb_spec (fst e) (size_vertex g)); [|lia].
    replace (ASSERT_DEBUG dbg true) with (Ok tt) in H by (destruct dbg; reflexivity). unfold adjacency_iter, vget in H. cbn [bind] in H.
    destruct (nth_error (off g) (fst e)); cbn [bind] in H; [|discriminate].
    destruct (nth_error (off g) (fst e + 1)); cbn [bind] in H; [|discriminate].
    destruct (_ && _); cbn [bind] in H; [|discriminate]. destruct (nth_error _ _) in H; discriminate.
Qed.

Lemma contains_self d g v : well_formed d g -> contains false g (v, v) = Ok false.
Proof.
  intros (rs & H & Hr). unfold contains. cbn [fst snd ASSERT_DEBUG bind]. rewrite (g_empty_repr _ _ H). destruct rs as [|r0 rs0] eqn:Q; [reflexivity|].
  rewrite <- Q in *. rewrite (repr_size _ _ H), Nat.max_id. destruct (Nat.leb_spec (length rs) v) as [L|L]; [reflexivity|].
  rewrite (subscript_ok false _ _ _ H L). cbn [bind]. destruct (Hr v L) as (A & B & _). pose proof (lbound_nth _ v A) as P.
  destruct (nth_error (nth v rs []) (lbound (nth v rs []) v)) as [x|] eqn:E; [|reflexivity]. f_equal. apply Nat.eqb_neq. intros ->.
  destruct P as [P _]. destruct (B v (P eq_refl)). congruence.
Qed.

Definition self_rows (d : bool) (v : nat) (rs : list (list nat)) : list (list nat) :=
  let rs1 := grow rs (v + 1) in upd rs1 v (if d then ins v (nth v rs1 []) else ins v (ins v (nth v rs1 []))).

Lemma insert_self_repr d g rs v : repr g rs -> rows_ok d rs -> exists g', insert false d g (v, v) = Ok (g', true) /\ repr g' (self_rows d v rs).
Proof.
  intros H Hr. unfold insert. rewrite (contains_self d g v) by (exists rs; auto). cbn [ASSERT_DEBUG bind].
  replace (if d then (v, v) else order_edge_vertex (v, v)) with (v, v) by (unfold order_edge_vertex; cbn [fst snd]; rewrite Nat.ltb_irrefl; destruct d; reflexivity).
  rewrite (repr_size _ _ H), Nat.max_id.
  assert (Hg1 : exists g1, (if length rs <=? v then resize true g (v + 1) else Ok g) = Ok g1 /\ repr g1 (grow rs (v + 1)) /\ off g1 = psum 0 (grow rs (v + 1))).
  { destruct (Nat.leb_spec (length rs) v) as [Hm|Hm].
    - destruct (resize_grow true g rs (v + 1) H ltac:(lia)) as (g1 & E & Hg1). exists g1. split; [auto|split; auto].
      destruct Hg1 as [[? ?]|[_ E2]]; auto. pose proof (grow_length rs (v + 1)) as Hl. rewrite E2 in Hl. simpl in Hl. lia.
    - exists g. split; auto. unfold grow. replace (v + 1 - length rs) with 0 by lia. simpl. rewrite app_nil_r. split; auto.
      destruct H as [[? ?]|[_ ->]]; auto. simpl in Hm. lia. }
  destruct Hg1 as (g1 & E1 & Hg1 & Ho1). rewrite E1. cbn [bind]. unfold self_rows.
  set (rs1 := grow rs (v + 1)) in *. assert (Hl1 : length rs1 = Nat.max (length rs) (v + 1)) by apply grow_length.
  assert (Hv : v < length rs1) by lia. assert (Hne1 : rs1 <> []) by (intro E; rewrite E in Hv; simpl in Hv; lia).
  rewrite (insert_val_ok g1 rs1 v v); [|apply repr_adj; auto|auto|apply repr_off; auto; lia|apply repr_off; auto; lia].
  cbn [bind off adj]. set (rs2 := upd rs1 v (ins v (nth v rs1 []))).
  assert (Hl2 : length rs2 = length rs1) by (apply upd_length; auto).
  assert (Hst2 : forall i, start rs2 i = if i <=? v then start rs1 i else start rs1 i + 1).
  { intro i. unfold rs2. rewrite start_upd by auto. rewrite ins_length. destruct (Nat.leb_spec i v); auto.
    assert (L : start rs1 (S v) <= start rs1 i) by (apply start_mono; lia). rewrite start_S in L by auto. lia. }
  assert (Hlo : length (off g1) = S (length rs1)) by (rewrite Ho1; apply psum_length).
  assert (Hoff : forall i, nth_error (off g1) i = if i <=? length rs1 then Some (start rs1 i) else None) by (intro i; rewrite Ho1, nth_error_psum; reflexivity).
  destruct d.
  - destruct (vadd_range_Ok (off g1) (v+1) (length (off g1)) 1) as (o2 & E2 & Hlo2 & Ho2); [lia|lia|].
    rewrite E2. cbn [bind]. eexists; split; [reflexivity|]. left. cbn [off adj]. split; auto.
    apply psum_ext; [unfold rs2 in *; lia|]. intros i Hi. fold rs2. rewrite Ho2, Hoff, Hst2. fold rs2 in Hi.
    destruct (Nat.leb_spec i (length rs1)); [|lia]. cbn [option_map].
    destruct (Nat.leb_spec (v+1) i), (Nat.ltb_spec i (length (off g1))), (Nat.leb_spec i v); try lia; reflexivity.
  - destruct (vadd_range_Ok (off g1) (v+1) (v+2) 1) as (o2 & E2 & Hlo2 & Ho2); [lia|lia|]. rewrite E2. cbn [bind].
    rewrite (insert_val_ok (mkG (concat rs2) o2) rs2 v v); cbn [off adj]; auto; try lia.
    2:{ rewrite Ho2, Hoff, Hst2. destruct (Nat.leb_spec v (length rs1)); [|lia]. cbn [option_map].
        destruct (Nat.leb_spec (v+1) v), (Nat.ltb_spec v (v+2)), (Nat.leb_spec v v); try lia. reflexivity. }
    2:{ rewrite Ho2, Hoff, Hst2. destruct (Nat.leb_spec (v+1) (length rs1)); [|lia]. cbn [option_map].
        destruct (Nat.leb_spec (v+1) (v+1)), (Nat.ltb_spec (v+1) (v+2)), (Nat.leb_spec (v+1) v); try lia. reflexivity. }
    cbn [bind off adj]. destruct (vadd_range_Ok o2 (v+1) (v+2) 1) as (o5 & E5 & Hlo5 & Ho5); [lia|lia|]. rewrite E5. cbn [bind].
    destruct (vadd_range_Ok o5 (v+2) (length o5) 2) as (o6 & E6 & Hlo6 & Ho6); [lia|lia|]. rewrite E6. cbn [bind].
    assert (Q : upd rs2 v (ins v (nth v rs2 [])) = upd rs1 v (ins v (ins v (nth v rs1 [])))).
    { assert (N : nth v rs2 [] = ins v (nth v rs1 [])) by (unfold rs2; rewrite nth_upd, Nat.eqb_refl by auto; reflexivity). rewrite N.
      apply nth_ext with (d := []) (d' := []); [rewrite !upd_length; lia|]. intros i Hi. unfold rs2. rewrite !nth_upd by (rewrite ?upd_length; lia).
      destruct (i =? v); reflexivity. }
    eexists; split; [reflexivity|]. left. cbn [off adj]. rewrite Q. split; auto.
    apply psum_ext; [rewrite upd_length; lia|]. rewrite upd_length by auto. intros i Hi.
    rewrite start_upd by auto. rewrite !ins_length, Ho6, Ho5, Ho2, Hoff.
    destruct (Nat.leb_spec i (length rs1)); [|lia]. cbn [option_map].
    destruct (Nat.leb_spec i v).
    + f_equal. destruct (Nat.leb_spec (v+1) i), (Nat.ltb_spec i (v+2)), (Nat.leb_spec (v+2) i), (Nat.ltb_spec i (length o5)); try lia; cbn [andb]; lia.
    + assert (Hsv : start rs1 (S v) <= start rs1 i) by (apply start_mono; lia). rewrite start_S in Hsv by auto.
      f_equal. destruct (Nat.leb_spec (v+1) i), (Nat.ltb_spec i (v+2)), (Nat.leb_spec (v+2) i), (Nat.ltb_spec i (length o5)); try lia; cbn [andb]; lia.
Qed.

Lemma count_ins w r x : count_occ Nat.eq_dec (ins w r) x = (if x =? w then 1 else 0) + count_occ Nat.eq_dec r x.
Proof.
  unfold ins, list_insert. rewrite count_occ_app. cbn [count_occ]. rewrite <- (firstn_skipn (lbound r w) r) at 3. rewrite count_occ_app.
  destruct (Nat.eq_dec w x), (Nat.eqb_spec x w); try congruence; lia.
Qed.

Lemma insert_self d g v : well_formed d g -> exists g', insert false d g (v, v) = Ok (g', true) /\
  size_vertex g' = Nat.max (size_vertex g) (v + 1) /\
  (forall x, count_occ Nat.eq_dec (row g' v) x = (if x =? v then (if d then 1 else 2) else 0) + count_occ Nat.eq_dec (row g v) x) /\
  (forall u, u <> v -> u < size_vertex g' -> row g' u = if u <? size_vertex g then row g u else []) /\ ~ well_formed d g'.
Proof.
  intros (rs & H & Hr). destruct (insert_self_repr d g rs v H Hr) as (g' & E & H'). exists g'. split; [exact E|].
  assert (L : length (self_rows d v rs) = Nat.max (length rs) (v + 1)) by (unfold self_rows; rewrite upd_length; rewrite grow_length; lia).
  assert (Lv : v < length (grow rs (v + 1))) by (rewrite grow_length; lia).
  assert (N : nth v (self_rows d v rs) [] = if d then ins v (nth v rs []) else ins v (ins v (nth v rs []))).
  { unfold self_rows. rewrite nth_upd, Nat.eqb_refl, nth_grow by auto. reflexivity. }
  assert (R : row g' v = if d then ins v (nth v rs []) else ins v (ins v (nth v rs []))) by (rewrite (repr_row _ _ v H') by lia; exact N).
  assert (Z : nth v rs [] = row g v \/ nth v rs [] = [] /\ row g v = []).
  { destruct (Nat.lt_ge_cases v (length rs)) as [C|C]; [left; symmetry; apply repr_row; auto|]. right. split; [apply nth_overflow; auto|].
    unfold row. destruct H as [[Ho Ha]|[-> ->]]; [|unfold graph_default; cbn [adj off]; destruct v; reflexivity].
    rewrite (nth_overflow (off g) (n := v + 1)) by (rewrite Ho, psum_length; lia). unfold slice. cbn [Nat.sub]. apply firstn_O. }
  split; [rewrite (repr_size _ _ H'), (repr_size _ _ H); exact L|]. split; [|split].
  - intro x. rewrite R. destruct Z as [<-|[-> ->]]; destruct d; rewrite !count_ins; destruct (x =? v); lia.
  - intros u Hu Lu. rewrite (repr_size _ _ H') in Lu. rewrite (repr_row _ _ u H' Lu), (repr_size _ _ H). unfold self_rows. rewrite nth_upd by auto.
    destruct (Nat.eqb_spec u v); [contradiction|]. rewrite nth_grow. destruct (Nat.ltb_spec u (length rs)); [symmetry; apply repr_row; auto|].
    apply nth_overflow; auto.
  - intros (qs & Hq & Hok). assert (Q : qs = self_rows d v rs) by (rewrite <- (repr_rows _ _ H'), <- (repr_rows _ _ Hq); reflexivity). subst qs.
    destruct (Hok v ltac:(lia)) as (_ & B & _). rewrite N in B. destruct (B v) as [_ ?]; [|congruence].
    destruct d; rewrite !In_ins; auto.
Qed.

Lemma insert_refused dbg d g e : well_formed d g -> (insert dbg d g e = Abort <-> dbg = true /\ fst e = snd e).
Proof.
  intro W. destruct (Nat.eq_dec (fst e) (snd e)) as [E|E].
  - destruct dbg.
    + split; [tauto|]. intros _. unfold insert. rewrite E, Nat.eqb_refl. reflexivity.
    + split; [|intros [? _]; discriminate]. intro H. destruct e as [u v]. cbn [fst snd] in E. subst v.
      destruct (insert_self d g u W) as (g' & Q & _). rewrite Q in H. discriminate.
  - split; [|intros [_ ?]; contradiction]. intro H. destruct (insert_spec dbg d g e W E) as (g' & b & Q & _). rewrite Q in H. discriminate.
Qed.

Lemma vset_refused {A} (l : list A) i x : length l <= i -> vset l i x = Undef.
Proof. intro L. unfold vset. destruct (Nat.ltb_spec i (length l)); [lia|reflexivity]. Qed.
Lemma vget_refused {A} (l : list A) i : length l <= i -> vget l i = Undef.
Proof. intro L. unfold vget. apply nth_error_None in L. rewrite L. reflexivity. Qed.
Lemma vget_at {A} (l : list A) i d : i < length l -> vget l i = Ok (nth i l d).
Proof. intro L. apply vget_Ok, nth_error_nth'. exact L. Qed.
Lemma size_off g : length (off g) <= size_vertex g + 1.
Proof. unfold size_vertex. destruct (off g); cbn [length]; lia. Qed.
Lemma degree_past dbg g i : size_vertex g <= i -> degree dbg g i = if dbg then Abort else Undef.
Proof.
  intro L. unfold degree. destruct (Nat.ltb_spec i (size_vertex g)); [lia|]. destruct dbg; [reflexivity|]. cbn [ASSERT_DEBUG bind].
  pose proof (size_off g). rewrite vget_refused by lia. reflexivity.
Qed.
Lemma row_write_past dbg g i k w : size_vertex g <= i -> row_write dbg g i k w = if dbg then Abort else Undef.
Proof.
  intro L. unfold row_write. destruct (Nat.ltb_spec i (size_vertex g)); [lia|]. destruct dbg; [reflexivity|]. cbn [ASSERT_DEBUG bind].
  pose proof (size_off g). unfold adjacency_iter. rewrite (vget_refused _ (i + 1)) by lia. destruct (vget (off g) i) eqn:E; try reflexivity.
  all: unfold vget in E; destruct (nth_error (off g) i); discriminate.
Qed.
Lemma empty_size g : g_empty g = true <-> size_vertex g = 0.
Proof. unfold g_empty, size_vertex. destruct (off g) as [|a [|b l]]; cbn [length]; rewrite Nat.ltb_lt; lia. Qed.
Lemma start_empty g s : s < size_vertex g -> g_empty g = false.
Proof. intro L. destruct (g_empty g) eqn:E; [apply empty_size in E; lia|reflexivity]. Qed.
Lemma nonempty_size g : size_vertex g <> 0 -> g_empty g = false.
Proof. intro L. destruct (g_empty g) eqn:E; [apply empty_size in E; lia|reflexivity]. Qed.
Ltac fails := repeat match goal with
  | |- context [?a =? ?b] => destruct (Nat.eqb_spec a b); try lia
  | |- context [?a <? ?b] => destruct (Nat.ltb_spec a b); try lia
  | |- context [?a <=? ?b] => destruct (Nat.leb_spec a b); try lia end; try reflexivity.

(** Traversals: a start outside the graph. *)
Lemma start_refused M dbg g s e : size_vertex g <= s ->
  level_traversal M dbg g s e = (if dbg then Abort else Undef) /\ pseudo_peripheral_vertex M dbg g s = (if dbg then Abort else Undef) /\
  (forall D, eccentricity_vertex false M true g s D e = Abort) /\
  (size_vertex g <> 0 -> breadth_first M dbg g s = if dbg then Abort else Undef) /\
  (size_vertex g <> 0 -> s <> M -> forall sortf, cuthill_mckee sortf M dbg g s = if dbg then Abort else Undef).
Proof.
  intro L. split; [|split; [|split; [|split]]].
  - unfold level_traversal. destruct dbg.
    + destruct (g_empty g); [reflexivity|]. cbn [ASSERT_DEBUG ASSERT negb bind]. fails.
    + cbn [ASSERT_DEBUG bind]. rewrite vset_refused by (rewrite repeat_length; lia). reflexivity.
  - unfold pseudo_peripheral_vertex. destruct dbg.
    + destruct (g_empty g); [reflexivity|]. cbn [ASSERT_DEBUG ASSERT negb bind]. fails.
    + cbn [ASSERT_DEBUG bind]. rewrite degree_past by lia. reflexivity.
  - intro D. unfold eccentricity_vertex. destruct (g_empty g); [reflexivity|]. cbn [ASSERT_DEBUG ASSERT negb bind]. fails.
  - intro N. unfold breadth_first. rewrite (nonempty_size g N). destruct dbg; cbn [ASSERT_DEBUG ASSERT bind].
    + fails.
    + rewrite vset_refused by (rewrite repeat_length; lia). reflexivity.
  - intros N NM sortf. unfold cuthill_mckee. rewrite (nonempty_size g N). destruct (Nat.eqb_spec s M); [contradiction|]. destruct dbg; cbn [ASSERT_DEBUG ASSERT bind].
    + fails.
    + rewrite vset_refused by (rewrite repeat_length; lia). reflexivity.
Qed.

Lemma empty_refused M g : size_vertex g = 0 ->
  (forall s e, level_traversal M true g s e = Abort) /\ (forall Q L e, level_traversal_queue M true g Q L e = Abort) /\
  (forall seeds, level_expansion M true g seeds = Abort) /\ (forall s, pseudo_peripheral_vertex M true g s = Abort) /\
  (forall s D e, eccentricity_vertex false M true g s D e = Abort).
Proof.
  intro Z. apply empty_size in Z. repeat split; intros; unfold level_traversal, level_traversal_queue, level_expansion, pseudo_peripheral_vertex, eccentricity_vertex;
    rewrite Z; reflexivity.
Qed.

Lemma levels_refused M g Q L e : length L <> size_vertex g -> level_traversal_queue M true g Q L e = Abort.
Proof. intro N. unfold level_traversal_queue. destruct (g_empty g); [reflexivity|]. cbn [ASSERT_DEBUG ASSERT negb bind]. fails. Qed.

Lemma fold_max l x : x <= fold_left Nat.max l x /\ forall v, In v l -> v <= fold_left Nat.max l x.
Proof.
  revert x. induction l as [|y l IH]; intro x; cbn [fold_left]; [split; [lia|intros v []]|]. destruct (IH (Nat.max x y)) as [A B].
  split; [lia|]. intros v [<-|I]; [lia|auto].
Qed.

Lemma seeds_refused M dbg g seeds : size_vertex g <> 0 -> (exists s, In s seeds /\ size_vertex g <= s) ->
  level_expansion M dbg g seeds = if dbg then Abort else Undef.
Proof.
  intros N (s & I & L). unfold level_expansion. destruct dbg.
  - rewrite (nonempty_size g N). cbn [ASSERT_DEBUG ASSERT negb bind]. destruct seeds as [|x r]; [destruct I|]. cbn [negb ASSERT bind vmax].
    destruct (fold_max r x) as [A B]. assert (s <= fold_left Nat.max r x) by (destruct I as [<-|I]; [exact A|auto]). fails.
  - cbn [ASSERT_DEBUG bind].
    set (F := fun (i : nat) (s : list nat * list (list nat)) => let '(C, qs) := s in do x <- vget seeds i; do q <- vget qs i; do qs' <- vset qs i (q ++ [x]); do C' <- vset C x i; Ok (C', qs')).
    assert (K : forall k, k <= length seeds -> FOR k F (repeat M (size_vertex g), repeat [] (length seeds)) = Undef \/
      (forall i, i < k -> nth i seeds 0 < size_vertex g) /\ exists C qs, FOR k F (repeat M (size_vertex g), repeat [] (length seeds)) = Ok (C, qs) /\
        length C = size_vertex g /\ length qs = length seeds).
    { induction k as [|k IH]; intro Hk; [right; split; [intros; lia|]; do 2 eexists; split; [reflexivity|]; rewrite !repeat_length; auto|].
      rewrite <- Nat.add_1_r, FOR_S. destruct (IH ltac:(lia)) as [->|(B & C & qs & -> & LC & LQ)]; [left; reflexivity|]. cbn [bind]. unfold F at 1 2.
      rewrite (vget_at seeds k 0) by lia. cbn [bind]. rewrite (vget_at qs k []) by lia. cbn [bind]. rewrite (vset_lt qs) by lia.
      cbn [bind]. destruct (Nat.lt_ge_cases (nth k seeds 0) (length C)) as [C1|C1].
      - right. rewrite (vset_lt C) by lia. split; [|do 2 eexists; split; [reflexivity|]; rewrite !upd_length by lia; lia].
        intros i Hi. destruct (Nat.eq_dec i k) as [->|]; [lia|apply B; lia].
      - left. rewrite vset_refused by lia. reflexivity. }
    destruct (K (length seeds) (Nat.le_refl _)) as [->|(B & _)]; [reflexivity|]. exfalso. apply In_nth with (d := 0) in I. destruct I as (i & Hi & <-).
    specialize (B i Hi). lia.
Qed.

Lemma no_seeds M g : size_vertex g <> 0 -> level_expansion M true g [] = Abort /\ level_expansion M false g [] = Ok (repeat M (size_vertex g)).
Proof.
  intro N. split; unfold level_expansion; [rewrite (nonempty_size g N); reflexivity|]. cbn [ASSERT_DEBUG bind length repeat]. unfold FOR. cbn [seq forM bind].
  rewrite Nat.add_comm. reflexivity.
Qed.

Lemma stop_refused M g s D e : s < size_vertex g -> e < s \/ (size_vertex g < e /\ e <> M) -> eccentricity_vertex false M true g s D e = Abort.
Proof. intros L H. unfold eccentricity_vertex. rewrite (start_empty g s L). cbn [ASSERT_DEBUG ASSERT negb bind]. fails. Qed.

(** Rows handed out for writing by an empty graph. *)
Lemma writes_refused dbg g k w : size_vertex g = 0 ->
  front_write dbg g k w = (if dbg then Abort else Undef) /\ back_write dbg g k w = (if dbg then Abort else Undef).
Proof.
  intro Z. pose proof (proj2 (empty_size g) Z) as E. split; unfold front_write, back_write; rewrite E; destruct dbg; try reflexivity.
  - cbn [ASSERT_DEBUG bind]. apply (row_write_past false); lia.
  - cbn [ASSERT_DEBUG bind]. rewrite Z. reflexivity.
Qed.

(** Members of a subgraph, asked about a vertex it does not have. *)
Lemma members_refused s i : sub_size s <= i -> length (s_lg s) = sub_size s -> s_level s = [] \/ length (s_level s) = sub_size s ->
  local_global true s i = Abort /\ vertex_level true s i = Abort /\ is_local true s i = Abort /\ local_global false s i = Undef /\
  (s_level s = [] -> vertex_level false s i = Ok 0 /\ is_local false s i = Ok true) /\
  (s_level s <> [] -> vertex_level false s i = Undef /\ is_local false s i = Undef).
Proof.
  intros L E H. unfold local_global, vertex_level, is_local. destruct (Nat.ltb_spec i (sub_size s)); [lia|]. cbn [ASSERT_DEBUG ASSERT bind].
  split; [reflexivity|]. split; [reflexivity|]. split; [reflexivity|]. split; [apply vget_refused; lia|]. split.
  - intros ->. split; reflexivity.
  - intro N. destruct H as [?|H]; [contradiction|]. destruct (s_level s) eqn:Q; [contradiction|]. cbn [is_nil]. rewrite <- Q in *.
    rewrite vget_refused by lia. split; reflexivity.
Qed.

(** ** Sparse matrices *)
Section Sparse.
  Context {V : Type}.
  Variables (vzero : V) (vadd vmul : V -> V -> V) (vopp : V -> V) (M : nat) (stray : option nat).
  Lemma row_refused (m : smat V) i j v : s_rows m <= i ->
    s_subscript vzero M true stray m i j = Abort /\ s_subscript_assign vzero M true stray m i j v = Abort /\
    s_subscript_add vzero vadd M true stray m i j v = Abort /\ s_subscript_const true stray m i j = Abort.
  Proof.
    intro L. assert (E : row_check true m i = Abort) by (unfold row_check; cbn [ASSERT_DEBUG]; destruct (Nat.ltb_spec i (s_rows m)); [lia|reflexivity]).
    unfold s_subscript_add, s_subscript_assign, s_subscript_const, s_subscript. rewrite E. repeat split; reflexivity.
  Qed.
  Lemma entry_refused (m : smat V) i j : swf m -> i < s_rows m ->
    (s_subscript_const true stray m i j = Abort <-> forall v, ~ stored m i j v) /\ forall dbg v, stored m i j v -> s_subscript_const dbg stray m i j = Ok v.
  Proof.
    intros W L. assert (E : forall dbg, row_check dbg m i = Ok tt) by (intros []; unfold row_check; cbn [ASSERT_DEBUG ASSERT]; destruct (Nat.ltb_spec i (s_rows m)); [reflexivity|lia|reflexivity|lia]).
    assert (G : forall dbg v, stored m i j v -> s_subscript_const dbg stray m i j = Ok v).
    { intros dbg v Hs. unfold s_subscript_const. rewrite E. cbn [bind]. destruct (find_stored stray m i j v W Hs) as (p & -> & _ & _ & _ & D).
      destruct dbg; [|cbn [bind]; exact D]. destruct (contains_stored stray m i j W L) as (b & -> & Hb). cbn [bind]. destruct b; [cbn [ASSERT bind]; exact D|].
      exfalso. assert (false = true) by (apply Hb; exists v; exact Hs). discriminate. }
    split; [|exact G]. destruct (contains_stored stray m i j W L) as (b & Eb & Hb). split.
    - intros H v Hs. rewrite (G true v Hs) in H. discriminate.
    - intro N. unfold s_subscript_const. rewrite E. cbn [bind]. rewrite Eb. destruct b; [|reflexivity]. exfalso. destruct (proj1 Hb eq_refl) as [v Hv]. exact (N v Hv).
  Qed.
  Lemma sums_refused (m o : smat V) : s_rows m <> s_rows o \/ csize m <> csize o ->
    s_add_assign vzero vadd vopp M true stray m o = Abort /\ s_sub_assign vzero vadd vopp M true stray m o = Abort /\
    s_plus vzero vadd vopp M true stray m o = Abort /\ s_minus vzero vadd vopp M true stray m o = Abort.
  Proof.
    intro H. assert (E : (s_rows m =? s_rows o) && (csize m =? csize o) = false) by (apply Bool.andb_false_iff; rewrite !Nat.eqb_neq; exact H).
    unfold s_minus, s_plus, s_add_assign, s_sub_assign, s_arith. rewrite E. repeat split; reflexivity.
  Qed.
  Lemma products_refused (m : smat V) :
    (forall o, csize m <> s_rows o -> s_mul_assign vzero vadd vmul M true stray m o = Abort /\ s_times vzero vadd vmul M true stray m o = Abort) /\
    forall x, csize m <> length x -> s_mat_vec vzero vadd vmul true stray m x = Abort.
  Proof.
    split.
    - intros o H. apply Nat.eqb_neq in H. unfold s_times, s_mul_assign. rewrite H. split; reflexivity.
    - intros x H. apply Nat.eqb_neq in H. unfold s_mat_vec. rewrite H. reflexivity.
  Qed.
End Sparse.

(** ** Vectors, comparisons and solvers *)
Section Scalars.
  Context {A : Type}.
  Variable O : sops A.
  Lemma size_refused (v w : list A) : length v <> length w \/ (length v <> 2 /\ length v <> 3) -> size_2_or_3 true v w = Abort.
  Proof.
    intro H. unfold size_2_or_3. cbn [ASSERT_DEBUG]. destruct (Nat.eqb_spec (length v) (length w)); [|reflexivity]. cbn [ASSERT bind].
    destruct (Nat.eqb_spec (length v) 2), (Nat.eqb_spec (length v) 3); try reflexivity; exfalso; lia.
  Qed.
  Lemma angles_refused junk power root arccos pi radians n0 n1 (v w : list A) : length v <> length w \/ (length v <> 2 /\ length v <> 3) ->
    angle O true power root arccos pi radians v w = Abort /\ cross_product O true junk n0 n1 v w = Abort.
  Proof. intro H. unfold angle, cross_product. rewrite (size_refused v w H). split; reflexivity. Qed.
  Lemma projections_refused junk power root n0 n1 (v w : list A) : length v <> length w ->
    projection_tangent O true junk power root n0 n1 v w = Abort /\ projection_orthogonal O true junk power root n0 n1 v w = Abort.
  Proof.
    intro H. apply Nat.eqb_neq in H. unfold projection_orthogonal, projection_tangent. rewrite H. split; [|reflexivity].
    cbn [lp_norm bind]. destruct (negb _); reflexivity.
  Qed.
  Lemma onto_zero_refused junk power root n0 n1 (v w : list A) l : lp_norm O power root 2 w = Ok l -> sc_eq O l (sc_zero O) = true ->
    projection_tangent O true junk power root n0 n1 v w = Abort.
  Proof. intros E Z. unfold projection_tangent. rewrite E. cbn [bind]. rewrite Z. reflexivity. Qed.
  Lemma tolerance_refused dbg a b rel abs :
    (is_nearly_equal O dbg a b rel abs = Abort <-> dbg = true /\ (sc_le O (sc_eps O) rel = false \/ sc_le O rel (sc_one O) = false)) /\
    (is_nearly_greater_equal O dbg a b rel abs = Abort <-> sc_lt O b a = false /\ is_nearly_equal O dbg a b rel abs = Abort) /\
    (is_nearly_less_equal O dbg a b rel abs = Abort <-> sc_lt O a b = false /\ is_nearly_equal O dbg a b rel abs = Abort) /\
    (is_nearly_greater O dbg a b rel abs = Abort <-> sc_lt O a b = false /\ is_nearly_equal O dbg a b rel abs = Abort) /\
    (is_nearly_less O dbg a b rel abs = Abort <-> sc_lt O b a = false /\ is_nearly_equal O dbg a b rel abs = Abort).
  Proof.
    unfold is_nearly_greater, is_nearly_less, is_nearly_greater_equal, is_nearly_less_equal. split.
    - unfold is_nearly_equal. destruct dbg; cbn [ASSERT_DEBUG bind].
      + destruct (sc_le O (sc_eps O) rel); cbn [ASSERT bind]; [|tauto]. destruct (sc_le O rel (sc_one O)); cbn [ASSERT bind]; [|tauto].
        destruct (sc_eq O a b); split; try discriminate; intros (_ & [|]); discriminate.
      + destruct (sc_eq O a b); split; try discriminate; intros (? & _); discriminate.
    - destruct (is_nearly_equal O dbg a b rel abs) as [r| | |]; destruct (sc_lt O b a), (sc_lt O a b); cbn [bind]; repeat split; try discriminate; intuition discriminate.
  Qed.
  Lemma residual_refused stray (m : smat A) x b : x = [] \/ b = [] \/ s_rows m <> length x \/ csize m <> length b -> compute_residual O true stray m x b = Abort.
  Proof.
    intro H. unfold compute_residual. cbn [ASSERT_DEBUG].
    destruct (Nat.eqb_spec (length x) 0), (Nat.eqb_spec (length b) 0); try reflexivity. cbn [negb andb ASSERT bind].
    destruct (Nat.eqb_spec (s_rows m) (length x)); [|reflexivity]. cbn [ASSERT bind]. destruct (Nat.eqb_spec (csize m) (length b)); [|reflexivity].
    exfalso. destruct H as [->|[->|[H|H]]]; cbn [length] in *; congruence.
  Qed.
  Lemma lu_refused pivot (st : lu_state A) :
    (forall x b, length b <> m_rows (lu_matrix st) -> lu_solve O true pivot st x (Some b) = Abort) /\
    (forall x, length x <> m_rows (lu_matrix st) -> lu_solve O true pivot st x None = Abort) /\
    forall ok p tol, (lu_initialise pivot st ok p tol = Abort <-> ok = false \/ p <> pivot).
  Proof.
    split; [|split].
    - intros x b H. apply Nat.eqb_neq in H. unfold lu_solve. cbn [other_of]. rewrite H. reflexivity.
    - intros x H. apply Nat.eqb_neq in H. unfold lu_solve. cbn [other_of]. rewrite H. reflexivity.
    - intros ok p tol. unfold lu_initialise. destruct ok, p, pivot; cbn [ASSERT bind Bool.eqb]; split; try discriminate; try tauto; intuition discriminate.
  Qed.
End Scalars.

Lemma integers_refused t arccos pi radians v w : length v <> length w \/ (length v <> 2 /\ length v <> 3) ->
  i_angle t true arccos pi radians v w = Abort.
Proof.
  intro H. unfold i_angle. cbn [ASSERT_DEBUG]. destruct (Nat.eqb_spec (length v) (length w)); [|reflexivity]. cbn [ASSERT bind].
  destruct (Nat.eqb_spec (length v) 2), (Nat.eqb_spec (length v) 3); try reflexivity; exfalso; lia.
Qed.

Lemma floats_refused junk :
  (forall arccos pi radians v w n0 n1, length v <> length w \/ (length v <> 2 /\ length v <> 3) ->
     s_angle true arccos pi radians v w = Abort /\ s_cross true junk n0 n1 v w = Abort) /\
  (forall s n m v, m_cols m <> length v -> sm_vec true junk s n m v = Abort) /\
  (forall s0 s1 m o, m_cols m <> m_rows o -> sm_times true s0 s1 m o = Abort) /\
  (forall op s0 s1 m o, m_rows m <> m_rows o \/ m_cols m <> m_cols o -> sm_op true op s0 s1 m o = Abort).
Proof.
  split; [|split; [|split]].
  - intros arccos pi radians v w n0 n1 H. unfold s_angle, s_cross. rewrite (size_refused v w H). split; reflexivity.
  - intros s n m v H. apply Nat.eqb_neq in H. unfold sm_vec. rewrite H. reflexivity.
  - intros s0 s1 m o H. apply Nat.eqb_neq in H. unfold sm_times. rewrite H. reflexivity.
  - intros op s0 s1 m o H. unfold sm_op, same_size. destruct (Nat.eqb_spec (m_rows m) (m_rows o)), (Nat.eqb_spec (m_cols m) (m_cols o)); try reflexivity. exfalso. lia.
Qed.
