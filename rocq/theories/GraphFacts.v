(** Refinement of the flat graph operations to operations on rows. *)
From Verif Require Import Base ListFacts Csr GraphModel GraphSpec.

(* ------------------------------------------------------------------ representation *)
Lemma repr_size g rs : repr g rs -> size_vertex g = length rs.
Proof.
  intros [[Ho Ha]|[-> ->]]; [|reflexivity].
  unfold size_vertex. pose proof (psum_length 0 rs) as H. rewrite <- Ho in H.
  destruct (off g); [discriminate|]. rewrite H. lia.
Qed.

Lemma repr_adj g rs : repr g rs -> adj g = concat rs.
Proof. intros [[Ho Ha]|[-> ->]]; auto. Qed.

Lemma repr_off g rs i : repr g rs -> rs <> [] -> i <= length rs ->
  nth_error (off g) i = Some (start rs i).
Proof.
  intros [[Ho Ha]|[-> ->]] Hn Hi; [|congruence].
  rewrite Ho, nth_error_psum. destruct (Nat.leb_spec i (length rs)); [reflexivity|lia].
Qed.

Lemma repr_row g rs i : repr g rs -> i < length rs -> row g i = nth i rs [].
Proof.
  intros H Hi. unfold row.
  assert (rs <> []) by (intros ->; simpl in Hi; lia).
  rewrite (repr_adj _ _ H).
  rewrite (nth_error_nth _ _ 0 (repr_off g rs i H H0 ltac:(lia))).
  rewrite (nth_error_nth _ _ 0 (repr_off g rs (i+1) H H0 ltac:(lia))).
  rewrite Nat.add_1_r. apply slice_row, Hi.
Qed.

Lemma repr_rows g rs : repr g rs -> rows g = rs.
Proof.
  intro H. unfold rows. rewrite (repr_size _ _ H).
  apply nth_error_ext_len; rewrite map_length, seq_length; auto.
  intros i Hi. rewrite nth_error_map', nth_error_seq.
  destruct (Nat.ltb_spec i (length rs)); [|lia]. simpl.
  rewrite (repr_row _ _ _ H) by auto. symmetry. apply nth_error_nth_lt. auto.
Qed.

Lemma well_formed_rows d g : well_formed d g <-> repr g (rows g) /\ rows_ok d (rows g).
Proof.
  split.
  - intros (rs & H & Hr). rewrite (repr_rows _ _ H). auto.
  - intros [H Hr]. exists (rows g). auto.
Qed.

Lemma rows_length g : length (rows g) = size_vertex g.
Proof. unfold rows. rewrite map_length, seq_length. reflexivity. Qed.

Lemma repr_edge g rs u v : repr g rs -> (edge g u v <-> In v (nth u rs [])).
Proof.
  intro H. unfold edge. rewrite (repr_size _ _ H). split.
  - intros [Hu Hin]. rewrite (repr_row _ _ _ H) in Hin; auto.
  - intro Hin. pose proof (In_nth_nil _ _ _ Hin). split; auto.
    rewrite (repr_row _ _ _ H); auto.
Qed.

Lemma edge_bounds d g u v : well_formed d g -> edge g u v ->
  u < size_vertex g /\ v < size_vertex g /\ u <> v.
Proof.
  intros (rs & H & Hr) He. rewrite (repr_size _ _ H).
  apply (repr_edge _ _ _ _ H) in He. pose proof (In_nth_nil _ _ _ He) as Hu.
  destruct (Hr u Hu) as (_ & Hb & _). destruct (Hb v He). auto.
Qed.

Lemma edge_sym g u v : well_formed false g -> edge g u v -> edge g v u.
Proof.
  intros (rs & H & Hr) He.
  apply (repr_edge _ _ _ _ H) in He. apply (repr_edge _ _ _ _ H).
  pose proof (In_nth_nil _ _ _ He) as Hu.
  destruct (Hr u Hu) as (_ & _ & Hs). apply Hs; auto.
Qed.

Lemma g_empty_repr g rs : repr g rs -> g_empty g = match rs with [] => true | _ => false end.
Proof.
  intros [[Ho Ha]|[-> ->]]; [|reflexivity].
  unfold g_empty. rewrite Ho, psum_length. destruct rs; reflexivity.
Qed.

(* ------------------------------------------------------------------ reading *)
Lemma adjacency_iter_ok g rs i :
  adj g = concat rs -> i < length rs ->
  nth_error (off g) i = Some (start rs i) ->
  nth_error (off g) (i + 1) = Some (start rs (i + 1)) ->
  adjacency_iter g i = Ok (start rs i, start rs (i + 1)) /\
  slice (adj g) (start rs i) (start rs (i + 1)) = nth i rs [].
Proof.
  intros Ha Hi H1 H2. unfold adjacency_iter, vget. rewrite H1, H2. simpl.
  rewrite Ha. split.
  - pose proof (start_mono rs i (i+1)). pose proof (start_le rs (i+1)).
    destruct (Nat.leb_spec (start rs i) (start rs (i+1))),
      (Nat.leb_spec (start rs (i+1)) (length (concat rs))); try lia. reflexivity.
  - rewrite Nat.add_1_r. apply slice_row; auto.
Qed.

Lemma adjacency_iter_repr g rs i : repr g rs -> i < length rs ->
  adjacency_iter g i = Ok (start rs i, start rs (i + 1)) /\
  slice (adj g) (start rs i) (start rs (i + 1)) = nth i rs [].
Proof.
  intros H Hi. assert (rs <> []) by (intros ->; simpl in Hi; lia).
  apply adjacency_iter_ok; auto.
  - apply repr_adj; auto.
  - apply repr_off; auto; lia.
  - apply repr_off; auto; lia.
Qed.

Lemma subscript_ok dbg g rs i : repr g rs -> i < length rs -> subscript dbg g i = Ok (nth i rs []).
Proof.
  intros H Hi. unfold subscript. rewrite (repr_size _ _ H).
  destruct (Nat.ltb_spec i (length rs)); [|lia].
  destruct (adjacency_iter_repr _ _ _ H Hi) as [E1 E2].
  replace (ASSERT_DEBUG dbg true) with (Ok tt) by (destruct dbg; reflexivity).
  simpl. rewrite E1. simpl. rewrite E2. reflexivity.
Qed.

Lemma degree_ok dbg g rs i : repr g rs -> i < length rs -> degree dbg g i = Ok (length (nth i rs [])).
Proof.
  intros H Hi. unfold degree. rewrite (repr_size _ _ H).
  destruct (Nat.ltb_spec i (length rs)); [|lia].
  replace (ASSERT_DEBUG dbg true) with (Ok tt) by (destruct dbg; reflexivity).
  assert (rs <> []) by (intros ->; simpl in Hi; lia).
  simpl. unfold vget. rewrite !(repr_off _ _ _ H) by (auto; lia). simpl.
  rewrite start_S' by auto. f_equal; lia.
Qed.

Lemma contains_ok dbg d g rs u v : repr g rs -> rows_ok d rs -> u <> v ->
  exists b, contains dbg g (u, v) = Ok b /\ (b = true <-> In v (nth u rs [])).
Proof.
  intros H Hr Huv. unfold contains. cbn [fst snd].
  replace (ASSERT_DEBUG dbg (negb (u =? v))) with (Ok tt)
    by (destruct (Nat.eqb_spec u v); [congruence|destruct dbg; reflexivity]).
  cbn [bind]. rewrite (g_empty_repr _ _ H).
  destruct rs as [|r0 rs0] eqn:Ers.
  - exists false. split; auto. split; [discriminate|]. destruct u; intros [].
  - rewrite <- Ers in *. assert (Hne : rs <> []) by congruence. clear Ers.
    rewrite (repr_size _ _ H).
    destruct (Nat.leb_spec (length rs) (Nat.max u v)) as [Hm|Hm].
    + exists false. split; auto. split; [discriminate|]. intro Hin.
      pose proof (In_nth_nil _ _ _ Hin) as Hu. destruct (Hr u Hu) as (_ & Hb & _).
      destruct (Hb v Hin). lia.
    + assert (Hu : u < length rs) by lia.
      rewrite (subscript_ok dbg _ _ _ H Hu). cbn [bind].
      destruct (Hr u Hu) as (Ha & _ & _).
      pose proof (lbound_nth _ v Ha) as Hl.
      destruct (nth_error (nth u rs []) (lbound (nth u rs []) v)) as [x|].
      * exists (x =? v). split; auto. rewrite Nat.eqb_eq. rewrite <- Hl.
        split; congruence.
      * exists false. split; auto. rewrite <- Hl. split; congruence.
Qed.

(* ------------------------------------------------------------------ growing *)
Definition grow (rs : list (list nat)) (n : nat) : list (list nat) :=
  rs ++ repeat [] (n - length rs).

Lemma grow_length rs n : length (grow rs n) = Nat.max (length rs) n.
Proof. unfold grow. rewrite app_length, repeat_length. lia. Qed.

Lemma nth_grow rs n i : nth i (grow rs n) [] = nth i rs [].
Proof.
  unfold grow. destruct (Nat.lt_ge_cases i (length rs)).
  - apply app_nth1; auto.
  - rewrite app_nth2, (nth_overflow rs) by lia.
    apply nth_repeat.
Qed.

Lemma concat_repeat_nil n : concat (repeat (@nil nat) n) = [].
Proof. induction n; simpl; auto. Qed.

Lemma concat_grow rs n : concat (grow rs n) = concat rs.
Proof. unfold grow. rewrite concat_app, concat_repeat_nil, app_nil_r. reflexivity. Qed.

Lemma start_grow rs n i : start (grow rs n) i = if i <=? length rs then start rs i else length (concat rs).
Proof.
  destruct (Nat.leb_spec i (length rs)).
  - unfold grow. apply start_app_l; auto.
  - unfold start, grow. rewrite firstn_app, concat_app, app_length.
    rewrite firstn_all2 by lia.
    assert (E : concat (firstn (i - length rs) (repeat (@nil nat) (n - length rs))) = []).
    { generalize (i - length rs) (n - length rs). intros a b. revert a.
      induction b; intros [|a]; simpl; auto. }
    rewrite E. simpl. lia.
Qed.

Lemma rows_ok_grow d rs n : rows_ok d rs -> rows_ok d (grow rs n).
Proof.
  intros H i Hi. rewrite grow_length in *. rewrite nth_grow.
  destruct (Nat.lt_ge_cases i (length rs)) as [Hl|Hl].
  - destruct (H i Hl) as (Ha & Hb & Hs). split; [|split]; auto.
    + intros j Hj. destruct (Hb j Hj). split; auto. lia.
    + intros Hd j Hj. rewrite nth_grow. auto.
  - rewrite nth_overflow by lia. split; [constructor|split].
    + intros j [].
    + intros _ j [].
Qed.

Lemma resize_grow strict g rs n : repr g rs -> length rs < n ->
  exists g', resize strict g n = Ok g' /\ repr g' (grow rs n).
Proof.
  intros H Hn. unfold resize. rewrite (repr_size _ _ H).
  destruct (Nat.ltb_spec (length rs) n); [|lia].
  destruct H as [[Ho Ha]|[-> ->]].
  - pose proof (psum_length 0 rs) as Hl. rewrite <- Ho in Hl.
    assert (Hb : vback (off g) = Ok (length (concat rs))).
    { destruct (off g) as [|o os] eqn:E; [discriminate|]. rewrite <- E in *.
      rewrite vback_Ok with (d := 0) by congruence. f_equal.
      apply nth_error_nth. rewrite Ho, nth_error_psum, psum_length.
      replace (S (length rs) - 1) with (length rs) by lia.
      rewrite Nat.leb_refl. rewrite start_all by lia. reflexivity. }
    replace (match off g with [] => Ok 0 | _ :: _ => vback (off g) end) with (vback (off g))
      by (destruct (off g); [discriminate|reflexivity]).
    rewrite Hb. simpl. eexists; split; [reflexivity|]. left. simpl. split.
    + apply psum_ext.
      * rewrite vresize_length, grow_length. lia.
      * intros i Hi. rewrite grow_length in Hi.
        rewrite nth_error_vresize, Ho, psum_length, nth_error_psum, start_grow.
        destruct (Nat.ltb_spec i (n+1)); [|lia].
        destruct (Nat.ltb_spec i (S (length rs))), (Nat.leb_spec i (length rs)); try lia; auto.
    + rewrite concat_grow. auto.
  - simpl. eexists; split; [reflexivity|]. left. simpl. split.
    + apply psum_ext.
      * rewrite vresize_length, grow_length. simpl. lia.
      * intros i Hi. rewrite grow_length in Hi. simpl in Hi.
        rewrite nth_error_vresize, start_grow. simpl.
        destruct (Nat.ltb_spec i (n+1)); [|lia]. destruct i; reflexivity.
    + rewrite concat_grow. reflexivity.
Qed.

(* ------------------------------------------------------------------ insertion *)
Definition ins (w : nat) (r : list nat) : list nat := list_insert r (lbound r w) w.

Lemma insert_val_ok g rs i w :
  adj g = concat rs -> i < length rs ->
  nth_error (off g) i = Some (start rs i) ->
  nth_error (off g) (i + 1) = Some (start rs (i + 1)) ->
  insert_vertex_adjacent_list g i w = Ok (mkG (concat (upd rs i (ins w (nth i rs [])))) (off g)).
Proof.
  intros Ha Hi H1 H2. unfold insert_vertex_adjacent_list.
  destruct (adjacency_iter_ok g rs i Ha Hi H1 H2) as [E1 E2].
  rewrite E1. cbn [bind]. rewrite E2.
  pose proof (lbound_le (nth i rs []) w).
  pose proof (start_le rs (i+1)). rewrite start_S' in H0 by auto.
  unfold vinsert. rewrite Ha.
  destruct (Nat.leb_spec (start rs i + lbound (nth i rs []) w) (length (concat rs))); [|lia].
  cbn [bind]. rewrite insert_row by auto. reflexivity.
Qed.

(** Row level counterpart of insert for u < v (undirected) or u <> v (directed). *)
Definition ins_rows (d : bool) (u v : nat) (rs : list (list nat)) : list (list nat) :=
  let rs1 := grow rs (Nat.max u v + 1) in
  let rs2 := upd rs1 u (ins v (nth u rs1 [])) in
  if d then rs2 else upd rs2 v (ins u (nth v rs2 [])).

Lemma ins_rows_length d u v rs : length (ins_rows d u v rs) = Nat.max (length rs) (Nat.max u v + 1).
Proof.
  unfold ins_rows.
  assert (Hg := grow_length rs (Nat.max u v + 1)).
  destruct d; rewrite ?upd_length; rewrite ?upd_length; lia.
Qed.

Lemma ins_length w r : length (ins w r) = length r + 1.
Proof. unfold ins. rewrite list_insert_length. lia. Qed.

Lemma nth_ins_rows d u v rs i : u <> v ->
  nth i (ins_rows d u v rs) [] =
  if i =? u then ins v (nth u rs [])
  else if negb d && (i =? v) then ins u (nth v rs []) else nth i rs [].
Proof.
  intro Huv. unfold ins_rows.
  assert (Hg := grow_length rs (Nat.max u v + 1)).
  destruct d; cbn [negb andb].
  - rewrite nth_upd by lia. rewrite !nth_grow. destruct (i =? u); auto.
  - rewrite nth_upd by (rewrite upd_length; lia).
    rewrite !nth_upd by lia. rewrite !nth_grow.
    destruct (Nat.eqb_spec i v), (Nat.eqb_spec i u), (Nat.eqb_spec v u); try congruence; auto.
Qed.

Lemma insert_flat_ok dbg d g rs e :
  repr g rs -> rows_ok d rs -> fst e <> snd e ->
  contains dbg g e = Ok false ->
  let '(u, v) := if d then e else order_edge_vertex e in
  exists g', insert dbg d g e = Ok (g', true) /\ repr g' (ins_rows d u v rs).
Proof.
  intros H Hr Hne Hc.
  destruct e as [a b]. cbn [fst snd] in Hne. unfold insert. cbn [fst snd].
  replace (ASSERT_DEBUG dbg (negb (a =? b))) with (Ok tt)
    by (destruct (Nat.eqb_spec a b); [congruence|destruct dbg; reflexivity]).
  cbn [bind]. rewrite Hc. cbn [bind].
  destruct (if d then (a, b) else order_edge_vertex (a, b)) as [u v] eqn:Euv.
  assert (Huv : u <> v /\ (d = false -> u < v)).
  { destruct d.
    - injection Euv as <- <-. split; [auto|discriminate].
    - unfold order_edge_vertex in Euv. cbn [fst snd] in Euv.
      destruct (Nat.ltb_spec a b); injection Euv as <- <-; split; auto; intros; lia. }
  destruct Huv as [Huv Hlt].
  rewrite (repr_size _ _ H).
  (* the graph after the optional resize *)
  assert (Hg1 : exists g1,
            (if length rs <=? Nat.max u v then resize true g (Nat.max u v + 1) else Ok g) = Ok g1 /\
            repr g1 (grow rs (Nat.max u v + 1)) /\
            off g1 = psum 0 (grow rs (Nat.max u v + 1))).
  { destruct (Nat.leb_spec (length rs) (Nat.max u v)) as [Hm|Hm].
    - destruct (resize_grow true g rs (Nat.max u v + 1) H ltac:(lia)) as (g1 & E & Hg1).
      exists g1. split; [auto|split; auto].
      destruct Hg1 as [[? ?]|[_ E2]]; auto.
      pose proof (grow_length rs (Nat.max u v + 1)) as Hl. rewrite E2 in Hl. simpl in Hl. lia.
    - exists g. split; auto. unfold grow. replace (Nat.max u v + 1 - length rs) with 0 by lia.
      simpl. rewrite app_nil_r. split; auto.
      destruct H as [[? ?]|[_ ->]]; auto. simpl in Hm. lia. }
  destruct Hg1 as (g1 & E1 & Hg1 & Ho1). rewrite E1. cbn [bind].
  unfold ins_rows.
  set (rs1 := grow rs (Nat.max u v + 1)) in *.
  assert (Hl1 : length rs1 = Nat.max (length rs) (Nat.max u v + 1)) by apply grow_length.
  assert (Hu1 : u < length rs1) by lia. assert (Hv1 : v < length rs1) by lia.
  assert (Hne1 : rs1 <> []) by (intro E; rewrite E in Hu1; simpl in Hu1; lia).
  rewrite (insert_val_ok g1 rs1 u v);
    [|apply repr_adj; auto|auto|apply repr_off; auto; lia|apply repr_off; auto; lia].
  cbn [bind off adj]. set (rs2 := upd rs1 u (ins v (nth u rs1 []))).
  assert (Hl2 : length rs2 = length rs1) by (apply upd_length; auto).
  assert (Hst2 : forall i, start rs2 i = if i <=? u then start rs1 i else start rs1 i + 1).
  { intro i. unfold rs2. rewrite start_upd by auto. rewrite ins_length.
    destruct (Nat.leb_spec i u); auto.
    assert (start rs1 (S u) <= start rs1 i) by (apply start_mono; lia).
    rewrite start_S in H1 by auto. lia. }
  assert (Hlo : length (off g1) = S (length rs1)) by (rewrite Ho1; apply psum_length).
  assert (Hoff : forall i, nth_error (off g1) i =
                   if i <=? length rs1 then Some (start rs1 i) else None)
    by (intro i; rewrite Ho1, nth_error_psum; reflexivity).
  destruct d.
  - (* directed *)
    destruct (vadd_range_Ok (off g1) (u+1) (length (off g1)) 1) as (o2 & E2 & Hlo2 & Ho2); [lia|lia|].
    rewrite E2. cbn [bind]. eexists; split; [reflexivity|].
    left. cbn [off adj]. split; auto.
    apply psum_ext; [lia|]. intros i Hi. rewrite Ho2, Hoff, Hst2.
    destruct (Nat.leb_spec i (length rs1)); [|lia]. cbn [option_map].
    destruct (Nat.leb_spec (u+1) i), (Nat.ltb_spec i (length (off g1))), (Nat.leb_spec i u);
      try lia; reflexivity.
  - (* undirected *)
    specialize (Hlt eq_refl).
    destruct (vadd_range_Ok (off g1) (u+1) (v+2) 1) as (o2 & E2 & Hlo2 & Ho2); [lia|lia|].
    rewrite E2. cbn [bind].
    rewrite (insert_val_ok (mkG (concat rs2) o2) rs2 v u); cbn [off adj]; auto; try lia.
    2:{ rewrite Ho2, Hoff, Hst2. destruct (Nat.leb_spec v (length rs1)); [|lia]. cbn [option_map].
        destruct (Nat.leb_spec (u+1) v), (Nat.ltb_spec v (v+2)), (Nat.leb_spec v u); try lia.
        reflexivity. }
    2:{ rewrite Ho2, Hoff, Hst2. destruct (Nat.leb_spec (v+1) (length rs1)); [|lia]. cbn [option_map].
        destruct (Nat.leb_spec (u+1) (v+1)), (Nat.ltb_spec (v+1) (v+2)), (Nat.leb_spec (v+1) u);
          try lia. reflexivity. }
    cbn [bind off adj].
    destruct (vadd_range_Ok o2 (v+1) (v+2) 1) as (o5 & E5 & Hlo5 & Ho5); [lia|lia|].
    rewrite E5. cbn [bind].
    destruct (vadd_range_Ok o5 (v+2) (length o5) 2) as (o6 & E6 & Hlo6 & Ho6); [lia|lia|].
    rewrite E6. cbn [bind]. eexists; split; [reflexivity|].
    left. cbn [off adj]. split; auto.
    assert (Hv2 : v < length rs2) by lia.
    apply psum_ext; [rewrite upd_length; lia|]. rewrite upd_length by auto. intros i Hi.
    rewrite start_upd by auto. rewrite ins_length, Ho6, Ho5, Ho2, Hoff, Hst2.
    destruct (Nat.leb_spec i (length rs1)); [|lia]. cbn [option_map].
    assert (Hnv : nth v rs2 [] = nth v rs1 []).
    { unfold rs2. rewrite nth_upd by auto. destruct (Nat.eqb_spec v u); [lia|auto]. }
    rewrite Hnv.
    destruct (Nat.leb_spec i v).
    + f_equal. destruct (Nat.leb_spec (u+1) i), (Nat.ltb_spec i (v+2)), (Nat.leb_spec (v+1) i),
        (Nat.leb_spec (v+2) i), (Nat.ltb_spec i (length o5)), (Nat.leb_spec i u); try lia; cbn [andb]; lia.
    + assert (Hsv : start rs1 (S v) <= start rs1 i) by (apply start_mono; lia).
      rewrite start_S in Hsv by auto.
      f_equal. destruct (Nat.leb_spec (u+1) i), (Nat.ltb_spec i (v+2)), (Nat.leb_spec (v+1) i),
        (Nat.leb_spec (v+2) i), (Nat.ltb_spec i (length o5)), (Nat.leb_spec i u); try lia; cbn [andb]; lia.
Qed.

(** Row level insertion keeps the invariant and adds exactly the edge. *)
Lemma In_ins w r x : In x (ins w r) <-> x = w \/ In x r.
Proof. apply In_list_insert. Qed.

Lemma ins_rows_In d u v rs i j : u <> v ->
  In j (nth i (ins_rows d u v rs) []) <->
  In j (nth i rs []) \/ (i = u /\ j = v) \/ (d = false /\ i = v /\ j = u).
Proof.
  intro Huv. rewrite nth_ins_rows by auto.
  destruct (Nat.eqb_spec i u) as [->|Hi].
  - rewrite In_ins. intuition auto; subst; try congruence.
  - destruct d; cbn [negb andb].
    + intuition auto; try congruence.
    + destruct (Nat.eqb_spec i v) as [->|Hi'].
      * rewrite In_ins. intuition auto; congruence.
      * intuition auto; congruence.
Qed.

Lemma ins_rows_ok d u v rs :
  u <> v -> rows_ok d rs -> ~ In v (nth u rs []) -> rows_ok d (ins_rows d u v rs).
Proof.
  intros Huv H Hn i Hi. pose proof (ins_rows_length d u v rs) as Hl.
  assert (Hasc : forall k, ascending (nth k rs [])).
  { intro k. destruct (Nat.lt_ge_cases k (length rs)) as [Hk|Hk].
    - apply H; auto.
    - rewrite nth_overflow by auto. constructor. }
  split; [|split].
  - rewrite nth_ins_rows by auto.
    destruct (Nat.eqb_spec i u); [apply lbound_insert_ascending; auto; apply Hasc|].
    destruct d; cbn [negb andb]; [apply Hasc|].
    destruct (Nat.eqb_spec i v); [|apply Hasc].
    apply lbound_insert_ascending; [apply Hasc|].
    intro Hin. pose proof (In_nth_nil _ _ _ Hin) as Hv.
    destruct (H v Hv) as (_ & _ & Hs). apply Hn. apply Hs; auto.
  - intros j Hj. apply ins_rows_In in Hj as [Hj|[[-> ->]|(_ & -> & ->)]]; auto; try lia.
    pose proof (In_nth_nil _ _ _ Hj) as Hi'. destruct (H i Hi') as (_ & Hb & _).
    destruct (Hb j Hj). split; [lia|auto].
  - intros -> j Hj. apply ins_rows_In in Hj as [Hj|[[-> ->]|(_ & -> & ->)]]; auto;
      apply ins_rows_In; auto.
    left. pose proof (In_nth_nil _ _ _ Hj) as Hi'. destruct (H i Hi') as (_ & _ & Hs). auto.
Qed.

(** Number of stored adjacency entries. *)
Lemma concat_upd_length (rs : list (list nat)) i r : i < length rs ->
  length (concat (upd rs i r)) + length (nth i rs []) = length (concat rs) + length r.
Proof.
  intro H. rewrite <- !(start_all _ (length rs)) by (rewrite ?upd_length; auto).
  rewrite start_upd by auto. destruct (Nat.leb_spec (length rs) i); [lia|].
  assert (start rs (S i) <= start rs (length rs)) by (apply start_mono; lia).
  rewrite start_S in H1 by auto. lia.
Qed.

Lemma ins_rows_entries d u v rs : u <> v ->
  length (concat (ins_rows d u v rs)) = length (concat rs) + (if d then 1 else 2).
Proof.
  intro Huv. unfold ins_rows.
  set (rs1 := grow rs (Nat.max u v + 1)).
  assert (Hl1 : length rs1 = Nat.max (length rs) (Nat.max u v + 1)) by apply grow_length.
  assert (Hc : length (concat rs1) = length (concat rs)) by (unfold rs1; rewrite concat_grow; auto).
  pose proof (concat_upd_length rs1 u (ins v (nth u rs1 [])) ltac:(lia)) as H1.
  rewrite ins_length in H1.
  destruct d; [lia|].
  set (rs2 := upd rs1 u (ins v (nth u rs1 []))) in *.
  assert (Hl2 : length rs2 = length rs1) by (apply upd_length; lia).
  pose proof (concat_upd_length rs2 v (ins u (nth v rs2 [])) ltac:(lia)) as H2.
  rewrite ins_length in H2. lia.
Qed.
