(** Lemmas behind the theorems of PropSpan.v. *)
From Verif Require Import Base ListFacts Csr GraphModel GraphSpec GraphFacts PermFacts TraversalModel Bfs TraversalFacts
  SubgraphModel SubgraphNew SubgraphLevels StorageModel SpanModel PropTraversalLemmas PropSubgraphLemmas PropStorageLemmas.

(** The offsets delimit the rows in the list of adjacent vertices; nothing is said about the entries. *)
Definition laid_out (g : graph) : Prop := exists rs, repr g rs.

Lemma upd_concat {A} (rs : list (list A)) i k x : i < length rs -> k < length (nth i rs []) ->
  upd (concat rs) (start rs i + k) x = concat (upd rs i (upd (nth i rs []) k x)).
Proof.
  intros Hi Hk. pose proof (start_S rs i Hi) as Es. pose proof (start_le rs (S i)) as Hle.
  rewrite concat_upd by auto.
  set (r := nth i rs []) in *. set (l := concat rs) in *. set (a := start rs i) in *.
  assert (Er : r = firstn (length r) (skipn a l)).
  { unfold r, l, a. rewrite <- (slice_row rs i Hi) at 1. unfold slice. f_equal. rewrite Es. subst a r. lia. }
  apply nth_error_ext. intro j.
  assert (Hal : a + k < length l) by lia.
  rewrite nth_error_upd by exact Hal.
  rewrite !nth_error_app, firstn_length, upd_length, nth_error_upd, nth_error_firstn, nth_error_skipn by auto.
  rewrite Nat.min_l by lia. rewrite Es.
  destruct (Nat.ltb_spec j a).
  - destruct (Nat.eqb_spec (a + k) j); [lia|]. destruct (Nat.eqb_spec j (a + k)); [lia|].
    repeat match goal with |- context [?x <? ?y] => destruct (Nat.ltb_spec x y); try lia end; auto.
  - destruct (Nat.ltb_spec (j - a) (length r)).
    + assert (Ej : nth_error r (j - a) = nth_error l j).
      { rewrite Er, nth_error_firstn, nth_error_skipn. destruct (Nat.ltb_spec (j - a) (length r)); [|lia].
        f_equal. lia. }
      rewrite Ej.
      destruct (Nat.eqb_spec j (a + k)), (Nat.eqb_spec (j - a) k); try lia; auto.
      all: repeat match goal with |- context [?x <? ?y] => destruct (Nat.ltb_spec x y); try lia end; auto.
    + destruct (Nat.eqb_spec j (a + k)); [lia|].
      replace (a + length r + (j - a - length r)) with j by lia.
      repeat match goal with |- context [?x <? ?y] => destruct (Nat.ltb_spec x y); try lia end; auto.
Qed.

Lemma repr_write dbg g rs i k w : repr g rs -> i < length rs -> k < length (nth i rs []) ->
  exists g', row_write dbg g i k w = Ok g' /\ repr g' (upd rs i (upd (nth i rs []) k w)) /\
    length (adj g') = length (adj g).
Proof.
  intros H Hi Hk. unfold row_write. rewrite (repr_size _ _ H).
  destruct (Nat.ltb_spec i (length rs)); [|lia].
  replace (ASSERT_DEBUG dbg true) with (Ok tt) by (destruct dbg; reflexivity).
  destruct (adjacency_iter_repr _ _ _ H Hi) as [E1 _]. cbn [bind]. rewrite E1. cbn [bind fst snd].
  pose proof (start_S' rs i Hi) as Es. pose proof (start_le rs (i + 1)) as Hle.
  destruct (Nat.ltb_spec k (start rs (i + 1) - start rs i)); [|lia].
  rewrite (repr_adj _ _ H), vset_lt by lia. cbn [bind]. eexists. split; [reflexivity|]. cbn [adj].
  rewrite upd_concat by auto. split.
  - left. cbn [adj off]. split; [|reflexivity].
    destruct H as [[Ho _]|[_ ->]]; [|cbn in Hi; lia]. rewrite Ho.
    apply psum_ext; [rewrite psum_length, upd_length by auto; reflexivity|].
    intros j Hj. rewrite upd_length in Hj by auto. rewrite nth_error_psum.
    destruct (Nat.leb_spec j (length rs)); [|lia]. f_equal. f_equal.
    rewrite start_upd, upd_length by auto. destruct (Nat.leb_spec j i); auto.
    pose proof (start_mono rs (S i) j ltac:(lia)). rewrite start_S in * by auto. lia.
  - rewrite <- upd_concat, upd_length by (auto; lia). reflexivity.
Qed.

Lemma row_changed dbg g i k w : laid_out g -> i < size_vertex g -> k < length (row g i) ->
  exists g', row_write dbg g i k w = Ok g' /\ laid_out g' /\
    size_vertex g' = size_vertex g /\ (forall d, size_edge d g' = size_edge d g) /\
    (forall j, nth_error (row g' i) j = if j =? k then Some w else nth_error (row g i) j) /\
    (forall j, j < size_vertex g -> j <> i -> row g' j = row g j).
Proof.
  intros [rs H] Hi Hk. rewrite (repr_size _ _ H) in Hi. rewrite (repr_row _ _ _ H Hi) in Hk.
  destruct (repr_write dbg g rs i k w H Hi Hk) as (g' & E & H' & Hl). exists g'. split; auto.
  split; [exists (upd rs i (upd (nth i rs []) k w)); auto|].
  split; [rewrite (repr_size _ _ H), (repr_size _ _ H'), upd_length; auto|].
  split; [intro d; unfold size_edge; rewrite Hl; reflexivity|].
  assert (Hlen : length (upd rs i (upd (nth i rs []) k w)) = length rs) by (apply upd_length; auto).
  split.
  - intro j. rewrite (repr_row _ _ i H') by lia. rewrite nth_upd, Nat.eqb_refl, nth_error_upd by auto.
    rewrite (repr_row _ _ i H) by auto. reflexivity.
  - intros j Hj N. rewrite (repr_size _ _ H) in Hj. rewrite (repr_row _ _ j H') by lia.
    rewrite nth_upd by auto. destruct (Nat.eqb_spec j i); [congruence|]. symmetry. apply repr_row; auto.
Qed.

Lemma row_outside dbg g i k w : laid_out g ->
  (i < size_vertex g -> length (row g i) <= k -> row_write dbg g i k w = Undef) /\
  (size_vertex g <= i -> row_write dbg g i k w = if dbg then Abort else Undef).
Proof.
  intros [rs H]. split.
  - intros Hi Hk. rewrite (repr_size _ _ H) in Hi. rewrite (repr_row _ _ _ H Hi) in Hk.
    unfold row_write. rewrite (repr_size _ _ H). destruct (Nat.ltb_spec i (length rs)); [|lia].
    replace (ASSERT_DEBUG dbg true) with (Ok tt) by (destruct dbg; reflexivity).
    destruct (adjacency_iter_repr _ _ _ H Hi) as [E1 _]. cbn [bind]. rewrite E1. cbn [bind fst snd].
    pose proof (start_S' rs i Hi) as Es.
    destruct (Nat.ltb_spec k (start rs (i + 1) - start rs i)); [lia|reflexivity].
  - intro Hi. unfold row_write. destruct (Nat.ltb_spec i (size_vertex g)); [lia|]. destruct dbg; [reflexivity|].
    cbn [ASSERT_DEBUG bind]. unfold adjacency_iter.
    assert (Ho : length (off g) <= i + 1).
    { unfold size_vertex in Hi. destruct (off g); cbn [length] in *; lia. }
    rewrite (vget_ge (off g) (i + 1)) by auto.
    destruct (vget (off g) i) eqn:E; unfold vget in E; destruct (nth_error (off g) i); try discriminate; reflexivity.
Qed.

Lemma write_inv dbg g i k w g' : laid_out g -> row_write dbg g i k w = Ok g' ->
  i < size_vertex g /\ k < length (row g i).
Proof.
  intros L E. destruct (row_outside dbg g i k w L) as [A B].
  destruct (Nat.lt_ge_cases i (size_vertex g)) as [Hi|Hi].
  - split; auto. destruct (Nat.lt_ge_cases k (length (row g i))) as [|Hk]; auto. rewrite A in E by auto. discriminate.
  - rewrite B in E by auto. destruct dbg; discriminate.
Qed.

Lemma row_both dbg g k w : laid_out g -> 0 < size_vertex g ->
  front_write dbg g k w = row_write dbg g 0 k w /\ back_write dbg g k w = row_write dbg g (size_vertex g - 1) k w.
Proof.
  intros [rs H] Hn. unfold front_write, back_write. rewrite (g_empty_repr _ _ H).
  assert (E : size_vertex g <> 0) by lia. rewrite (repr_size _ _ H) in Hn.
  destruct rs; [cbn in Hn; lia|]. apply Nat.eqb_neq in E. rewrite E. destruct dbg; split; reflexivity.
Qed.

Lemma wf_laid_out d g : well_formed d g -> laid_out g.
Proof. intros (rs & H & _). exists rs; auto. Qed.

Lemma ascending_iff l : ascending l <-> forall i j, i < j -> j < length l -> nth i l 0 < nth j l 0.
Proof.
  induction l as [|x l IH].
  - split; [intros _ i j _ Hj; cbn in Hj; lia|intros; apply ascending_nil].
  - rewrite ascending_cons, IH, Forall_forall. split.
    + intros [H1 H2] [|i] [|j] Hij Hj; cbn [length nth] in *; try lia.
      * apply H2, nth_In. lia.
      * apply H1; lia.
    + intro H. split.
      * intros i j Hij Hj. apply (H (S i) (S j)); cbn [length]; lia.
      * intros y Hy. destruct (In_nth _ _ 0 Hy) as (j & Hj & <-). apply (H 0 (S j)); cbn [length]; lia.
Qed.

Lemma ascending_upd l k w : ascending l -> k < length l ->
  (ascending (upd l k w) <-> (0 < k -> nth (k - 1) l 0 < w) /\ (k + 1 < length l -> w < nth (k + 1) l 0)).
Proof.
  intros Ha Hk. rewrite ascending_iff in Ha. rewrite ascending_iff, upd_length by auto. split.
  - intro H. split; intro Hp.
    + specialize (H (k - 1) k ltac:(lia) ltac:(lia)). rewrite !nth_upd, Nat.eqb_refl in H by auto.
      destruct (Nat.eqb_spec (k - 1) k); [lia|auto].
    + specialize (H k (k + 1) ltac:(lia) ltac:(lia)). rewrite !nth_upd, Nat.eqb_refl in H by auto.
      destruct (Nat.eqb_spec (k + 1) k); [lia|auto].
  - intros [H1 H2] i j Hij Hj. rewrite !nth_upd by auto.
    destruct (Nat.eqb_spec i k) as [->|Ni], (Nat.eqb_spec j k) as [->|Nj]; try lia.
    + destruct (Nat.eq_dec j (k + 1)) as [->|]; [apply H2; lia|].
      specialize (Ha (k + 1) j ltac:(lia) Hj). specialize (H2 ltac:(lia)). lia.
    + destruct (Nat.eq_dec i (k - 1)) as [->|]; [apply H1; lia|].
      specialize (Ha i (k - 1) ltac:(lia) ltac:(lia)). specialize (H1 ltac:(lia)). lia.
    + auto.
Qed.

Lemma In_upd {A} (l : list A) k w x : k < length l -> In x (upd l k w) -> x = w \/ In x l.
Proof.
  intros Hk H. apply In_nth_error in H as (j & Hj). rewrite nth_error_upd in Hj by auto.
  destruct (j =? k); [left; congruence|right; eapply nth_error_In; eauto].
Qed.

Lemma In_upd_new {A} (l : list A) k w : k < length l -> In w (upd l k w).
Proof. intro Hk. apply nth_error_In with k. rewrite nth_error_upd, Nat.eqb_refl by auto. reflexivity. Qed.

Lemma In_upd_other l k w x : ascending l -> k < length l -> x <> nth k l 0 -> In x l -> In x (upd l k w).
Proof.
  intros Ha Hk N H. apply In_nth_error in H as (j & Hj). apply nth_error_In with j. rewrite nth_error_upd by auto.
  destruct (Nat.eqb_spec j k) as [->|]; auto. exfalso. apply N. symmetry. apply nth_error_nth; auto.
Qed.

Lemma directed_write dbg g i k w g' : well_formed true g -> row_write dbg g i k w = Ok g' ->
  (well_formed true g' <-> w < size_vertex g /\ w <> i /\
     (0 < k -> nth (k - 1) (row g i) 0 < w) /\ (k + 1 < length (row g i) -> w < nth (k + 1) (row g i) 0)).
Proof.
  intros W E. destruct (write_inv _ _ _ _ _ _ (wf_laid_out _ _ W) E) as [Hi Hk].
  destruct W as (rs & H & Hr). rewrite (repr_size _ _ H) in Hi |- *. rewrite (repr_row _ _ _ H Hi) in Hk |- *.
  destruct (repr_write dbg g rs i k w H Hi Hk) as (g2 & E2 & H' & _).
  rewrite E in E2. injection E2 as <-.
  destruct (Hr i Hi) as (Ha & Hb & _).
  assert (Hlen : length (upd rs i (upd (nth i rs []) k w)) = length rs) by (apply upd_length; auto).
  rewrite <- (ascending_upd _ k w Ha Hk). split.
  - intros (rs2 & Hr2 & Hk2). assert (rs2 = upd rs i (upd (nth i rs []) k w)) as ->.
    { rewrite <- (repr_rows _ _ Hr2), <- (repr_rows _ _ H'). reflexivity. }
    destruct (Hk2 i ltac:(lia)) as (A & B & _). rewrite nth_upd, Nat.eqb_refl in A, B by auto.
    destruct (B w (In_upd_new _ _ _ Hk)). rewrite Hlen in *. auto.
  - intros (Hw & Nw & A). exists (upd rs i (upd (nth i rs []) k w)). split; auto.
    intros j Hj. rewrite Hlen in Hj |- *. rewrite nth_upd by auto. destruct (Nat.eqb_spec j i) as [->|N].
    + split; auto. split; [|discriminate]. intros x Hx. destruct (In_upd _ _ _ _ Hk Hx) as [->|Hx']; auto.
    + destruct (Hr j Hj) as (A1 & A2 & _). split; auto. split; [exact A2|discriminate].
Qed.

Lemma directed_of_undirected g : well_formed false g -> well_formed true g.
Proof.
  intros (rs & H & Hr). exists rs. split; auto. intros i Hi. destruct (Hr i Hi) as (A & B & _).
  repeat split; auto; try discriminate; apply B; auto.
Qed.

Lemma undirected_write dbg g i k w g' : well_formed false g -> row_write dbg g i k w = Ok g' ->
  (well_formed false g' <-> nth k (row g i) 0 = w).
Proof.
  intros W E. destruct (write_inv _ _ _ _ _ _ (wf_laid_out _ _ W) E) as [Hi Hk].
  pose proof W as W0. destruct W as (rs & H & Hr). rewrite (repr_size _ _ H) in Hi. rewrite (repr_row _ _ _ H Hi) in Hk |- *.
  destruct (repr_write dbg g rs i k w H Hi Hk) as (g2 & E2 & H' & _).
  rewrite E in E2. injection E2 as <-.
  destruct (Hr i Hi) as (Ha & Hb & Hs).
  assert (Hlen : length (upd rs i (upd (nth i rs []) k w)) = length rs) by (apply upd_length; auto).
  split.
  - intros (rs2 & Hr2 & Hk2). assert (rs2 = upd rs i (upd (nth i rs []) k w)) as ->.
    { rewrite <- (repr_rows _ _ Hr2), <- (repr_rows _ _ H'). reflexivity. }
    destruct (Hk2 i ltac:(lia)) as (A & B & C). rewrite nth_upd, Nat.eqb_refl in A, B, C by auto.
    specialize (C eq_refl w (In_upd_new _ _ _ Hk)). destruct (B w (In_upd_new _ _ _ Hk)) as [Bw Nw]. rewrite Hlen in Bw.
    rewrite nth_upd in C by auto. destruct (Nat.eqb_spec w i); [congruence|].
    destruct (Hr w Bw) as (_ & _ & Sw). specialize (Sw eq_refl i C).
    destruct (Nat.eq_dec (nth k (nth i rs []) 0) w) as [|N]; auto. exfalso.
    destruct (In_nth _ _ 0 Sw) as (j & Hj & Ej).
    assert (j <> k) by congruence. rewrite ascending_iff, upd_length in A by auto.
    destruct (Nat.lt_ge_cases j k) as [L|L].
    + specialize (A j k L Hk). rewrite !nth_upd, Nat.eqb_refl in A by auto.
      destruct (Nat.eqb_spec j k); lia.
    + specialize (A k j ltac:(lia) Hj). rewrite !nth_upd, Nat.eqb_refl in A by auto.
      destruct (Nat.eqb_spec j k); lia.
  - intros <-. assert (g' = g) as ->; auto.
    assert (Er : upd rs i (upd (nth i rs []) k (nth k (nth i rs []) 0)) = rs).
    { rewrite (upd_id _ k) by (apply nth_error_nth_lt; auto). apply upd_id, nth_error_nth_lt; auto. }
    rewrite Er in H'. clear - H H' Hi. destruct g, g'. destruct H as [[A B]|[_ ->]]; [|cbn in Hi; lia].
    destruct H' as [[A' B']|[_ ->]]; [|cbn in Hi; lia]. cbn in *. congruence.
Qed.

Lemma one_sided dbg g i k w g' : well_formed false g -> row_write dbg g i k w = Ok g' -> well_formed true g' ->
  let o := nth k (row g i) 0 in o <> w ->
  contains dbg g' (i, w) = Ok true /\ contains dbg g' (w, i) = Ok false /\
  contains dbg g' (i, o) = Ok false /\ contains dbg g' (o, i) = Ok true.
Proof.
  intros W E W' o N. destruct (write_inv _ _ _ _ _ _ (wf_laid_out _ _ W) E) as [Hi Hk].
  pose proof W as W0. destruct W as (rs & H & Hr). subst o. rewrite (repr_size _ _ H) in Hi. rewrite (repr_row _ _ _ H Hi) in Hk, N |- *.
  destruct (repr_write dbg g rs i k w H Hi Hk) as (g2 & E2 & H' & _).
  rewrite E in E2. injection E2 as <-.
  destruct (Hr i Hi) as (Ha & Hb & Hs). specialize (Hs eq_refl).
  set (o := nth k (nth i rs []) 0) in *.
  assert (Ho : In o (nth i rs [])) by (apply nth_In; auto).
  assert (Hlen : length (upd rs i (upd (nth i rs []) k w)) = length rs) by (apply upd_length; auto).
  destruct W' as (rs2 & Hr2 & Hk2). assert (rs2 = upd rs i (upd (nth i rs []) k w)) as ->.
  { rewrite <- (repr_rows _ _ Hr2), <- (repr_rows _ _ H'). reflexivity. }
  destruct (Hk2 i ltac:(lia)) as (A & B & _). rewrite nth_upd, Nat.eqb_refl in A, B by auto.
  destruct (B w (In_upd_new _ _ _ Hk)) as [Bw Nw]. rewrite Hlen in Bw.
  destruct (Hb o Ho) as [Bo No].
  assert (Hnw : ~ In w (nth i rs [])).
  { intro Hw. destruct (In_nth _ _ 0 Hw) as (j & Hj & Ej).
    assert (j <> k) by (intros ->; auto). rewrite ascending_iff, upd_length in A by auto.
    destruct (Nat.lt_ge_cases j k) as [L|L].
    - specialize (A j k L Hk). rewrite !nth_upd, Nat.eqb_refl in A by auto.
      destruct (Nat.eqb_spec j k); lia.
    - specialize (A k j ltac:(lia) Hj). rewrite !nth_upd, Nat.eqb_refl in A by auto.
      destruct (Nat.eqb_spec j k); lia. }
  assert (Hno : ~ In o (upd (nth i rs []) k w)).
  { intro Hin. apply In_nth_error in Hin as (j & Hj). rewrite nth_error_upd in Hj by auto.
    destruct (Nat.eqb_spec j k); [congruence|].
    apply n. apply (proj1 (NoDup_nth_error _) (ascending_NoDup _ Ha)); [eapply nth_error_lt_Some; eauto|].
    rewrite Hj. symmetry. apply nth_error_nth_lt; auto. }
  assert (C : forall u v, u <> v -> contains dbg g' (u, v) =
    Ok (if in_dec Nat.eq_dec v (nth u (upd rs i (upd (nth i rs []) k w)) []) then true else false)).
  { intros u v Nuv. destruct (contains_ok dbg true g' _ u v H' Hk2 Nuv) as (b & -> & Hbb). f_equal.
    destruct (in_dec Nat.eq_dec v _) as [I|I]; destruct b; try reflexivity; exfalso; intuition. }
  rewrite !C by auto. rewrite !nth_upd, Nat.eqb_refl by auto.
  destruct (Nat.eqb_spec w i); [congruence|]. destruct (Nat.eqb_spec o i); [congruence|].
  repeat split; f_equal.
  - destruct (in_dec Nat.eq_dec w _) as [|X]; auto. destruct X. apply In_upd_new; auto.
  - destruct (in_dec Nat.eq_dec i _) as [X|]; auto. destruct (Hr w Bw) as (_ & _ & Sw).
    destruct Hnw. apply (Sw eq_refl); auto.
  - destruct (in_dec Nat.eq_dec o _) as [X|]; [contradiction|reflexivity].
  - destruct (in_dec Nat.eq_dec i _) as [|X]; [reflexivity|]. destruct X. apply Hs; auto.
Qed.

Lemma many_writes dbg ws : forall g g', laid_out g -> row_writes dbg ws g = Ok g' ->
  laid_out g' /\ size_vertex g' = size_vertex g /\ (forall d, size_edge d g' = size_edge d g) /\
  (forall i, i < size_vertex g -> degree dbg g' i = degree dbg g i).
Proof.
  unfold row_writes. induction ws as [|[[i k] w] ws IH]; intros g g' L E.
  - injection E as <-. auto.
  - cbn [forM fst snd] in E. apply bind_Ok in E as (g1 & E1 & E2).
    destruct (write_inv _ _ _ _ _ _ L E1) as [Hi Hk].
    destruct (row_changed dbg g i k w L Hi Hk) as (g2 & E3 & L2 & S1 & S2 & R1 & R2).
    rewrite E1 in E3. injection E3 as <-.
    destruct (IH g1 g' L2 E2) as (A & B & C & D). split; auto. split; [congruence|].
    split; [intro d; rewrite C; auto|]. intros j Hj. rewrite D by lia.
    destruct L as [rs H], L2 as [rs1 H1].
    assert (Hl : length rs = size_vertex g) by (symmetry; apply repr_size; auto).
    assert (Hl1 : length rs1 = size_vertex g) by (rewrite <- S1; symmetry; apply repr_size; auto).
    rewrite (degree_ok dbg _ _ _ H), (degree_ok dbg _ _ _ H1) by lia. f_equal.
    rewrite <- (repr_row _ _ _ H), <- (repr_row _ _ _ H1) by lia.
    destruct (Nat.eq_dec j i) as [->|N]; [|rewrite R2; auto].
    assert (nth_error_length : forall l1 l2 : list nat, (forall n, nth_error l1 n = None <-> nth_error l2 n = None) -> length l1 = length l2).
    { intros l1 l2 Hn. destruct (Nat.lt_trichotomy (length l1) (length l2)) as [X|[X|X]]; auto; exfalso.
      - assert (Y : nth_error l1 (length l1) = None) by (apply nth_error_None; lia). apply Hn, nth_error_None in Y. lia.
      - assert (Y : nth_error l2 (length l2) = None) by (apply nth_error_None; lia). apply Hn, nth_error_None in Y. lia. }
    apply nth_error_length. intro n. rewrite R1. destruct (Nat.eqb_spec n k) as [->|]; [|tauto].
    split; [discriminate|]. intro X. apply nth_error_None in X. lia.
Qed.

(* ------------------------------------------------------------------ subgraphs *)
Lemma sub_write_members h dbg s i k w s' : sub_write dbg s i k w = Ok s' -> laid_out (s_graph s) ->
  row_write dbg (s_graph s) i k w = Ok (s_graph s') /\ sub_size s' = sub_size s /\
  (forall g, is_parent h dbg s' g = is_parent h dbg s g) /\
  (forall j, local_global dbg s' j = local_global dbg s j /\ vertex_level dbg s' j = vertex_level dbg s j /\
             is_local dbg s' j = is_local dbg s j).
Proof.
  intros E L. unfold sub_write in E. apply bind_Ok in E as (g' & E1 & E2). injection E2 as <-. cbn [s_graph].
  destruct (write_inv _ _ _ _ _ _ L E1) as [Hi Hk].
  destruct (row_changed dbg _ i k w L Hi Hk) as (g2 & E3 & _ & S1 & _). rewrite E1 in E3. injection E3 as <-.
  split; auto. split; [exact S1|]. split; [reflexivity|].
  intro j. unfold local_global, vertex_level, is_local, sub_size. cbn [s_graph s_lg s_level]. rewrite S1. auto.
Qed.

Lemma sub_write_stale h M dbg g part n s i k w s' :
  well_formed false g -> 0 < size_vertex g -> size_vertex g <= M -> ascending part ->
  (forall v, In v part -> v < size_vertex g) -> sub_state h M dbg g part n s ->
  sub_write dbg s i k w = Ok s' -> nth k (row (s_graph s) i) 0 <> w ->
  is_parent h dbg s' g = Ok true /\ ~ halo dbg g part n s'.
Proof.
  intros Hw Hn HM Ha Hb Hs E N. pose proof (sub_state_halo h M dbg g part n s Hw Hn HM Ha Hb Hs) as Hh.
  pose proof (halo_wf _ _ _ _ _ Hh) as Wf.
  destruct (sub_write_members h dbg s i k w s' E (wf_laid_out _ _ Wf)) as (E1 & _ & P & _).
  split.
  - rewrite P. unfold is_parent. destruct (sub_state_ok h M dbg g part n s Hw Hn HM Ha Hb Hs) as [-> _].
    rewrite (graph_hash_value dbg h g) by auto. cbn [bind]. rewrite Nat.eqb_refl. reflexivity.
  - intro Hh'. apply N. apply (undirected_write dbg _ i k w _ Wf E1). apply (halo_wf _ _ _ _ _ Hh').
Qed.

Lemma sub_lookup dbg g part n s i j u v : halo dbg g part n s -> i < sub_size s -> j < sub_size s -> i <> j ->
  local_global dbg s i = Ok u -> local_global dbg s j = Ok v ->
  exists b, sub_contains dbg s (i, j) = Ok b /\ (b = true <-> edge g u v).
Proof.
  intros H Hi Hj N Hu Hv. destruct (halo_wf _ _ _ _ _ H) as (rs & Hr & Ho).
  destruct (contains_ok dbg false _ rs i j Hr Ho N) as (b & E & Hb). exists b. split; auto.
  rewrite Hb, <- (repr_edge _ _ _ _ Hr). apply (halo_edge _ _ _ _ _ H); auto.
Qed.

(** The neighbours of a vertex of the parent that are in the subgraph. *)
Definition kept_neighbours (g : graph) (part : list nat) (n v : nat) (l : list nat) : Prop :=
  NoDup l /\ forall x, In x l <-> edge g v x /\ exists j, dist_from (edge g) (fun y => In y part) x j /\ j <= n.

Lemma sub_degree_kept dbg g part n s i v : well_formed false g -> halo dbg g part n s -> i < sub_size s ->
  local_global dbg s i = Ok v ->
  exists l, kept_neighbours g part n v l /\ sub_degree dbg s i = Ok (length l).
Proof.
  intros Wg H Hi Hv. destruct (halo_wf _ _ _ _ _ H) as (rs & Hr & Ho).
  assert (Hil : i < length rs) by (rewrite <- (repr_size _ _ Hr); exact Hi).
  destruct (Ho i Hil) as (Ha & Hb & _).
  set (f j := match local_global dbg s j with Ok x => x | _ => 0 end).
  assert (Hf : forall j, j < sub_size s -> local_global dbg s j = Ok (f j)).
  { intros j Hj. destruct (halo_global _ _ _ _ _ H j Hj) as (x & Ex). unfold f. rewrite Ex. reflexivity. }
  assert (Hlt : forall j, In j (nth i rs []) -> j < sub_size s).
  { intros j Hj. destruct (Hb j Hj). unfold sub_size. rewrite (repr_size _ _ Hr). auto. }
  exists (map f (nth i rs [])). split.
  - split.
    + apply NoDup_map_inj; [|apply ascending_NoDup, Ha].
      intros a b Hia Hib E. apply (halo_inj _ _ _ _ _ H) with (v := f a); auto. rewrite E. auto.
    + intro x. rewrite in_map_iff. split.
      * intros (j & <- & Hj). split.
        -- apply (halo_edge _ _ _ _ _ H i j); auto. apply (repr_edge _ _ _ _ Hr); auto.
        -- apply (halo_onto _ _ _ _ _ H). exists j. auto.
      * intros [He Hd]. apply (halo_onto _ _ _ _ _ H) in Hd as (j & Hj & Ej). exists j.
        split; [unfold f; rewrite Ej; reflexivity|].
        apply (repr_edge _ _ i j Hr). apply (halo_edge _ _ _ _ _ H i j v x); auto.
  - unfold sub_degree. rewrite (degree_ok dbg _ _ _ Hr Hil), map_length. reflexivity.
Qed.

Lemma sub_degree_parent dbg g part n s i v : well_formed false g -> halo dbg g part n s -> i < sub_size s ->
  local_global dbg s i = Ok v -> v < size_vertex g ->
  exists a b, sub_degree dbg s i = Ok a /\ degree dbg g v = Ok b /\ a <= b /\
    (a = b <-> forall x, edge g v x -> exists j, j < sub_size s /\ local_global dbg s j = Ok x).
Proof.
  intros Wg H Hi Hv Hvn. destruct (sub_degree_kept dbg g part n s i v Wg H Hi Hv) as (l & [Nl Hl] & E).
  pose proof Wg as (rs & Hr & Ho). assert (Hvl : v < length rs) by (rewrite <- (repr_size _ _ Hr); auto).
  destruct (Ho v Hvl) as (Ha & _ & _).
  exists (length l), (length (nth v rs [])). split; auto. split; [apply degree_ok; auto|].
  assert (Hin : incl l (nth v rs [])).
  { intros x Hx. apply Hl in Hx as [Hx _]. apply (repr_edge _ _ _ _ Hr); auto. }
  split; [apply NoDup_incl_length; auto|]. split.
  - intros El x Hx. apply (halo_onto _ _ _ _ _ H). apply Hl.
    assert (I2 : incl (nth v rs []) l) by (apply NoDup_length_incl; auto; lia).
    apply I2. apply (repr_edge _ _ _ _ Hr); auto.
  - intro Hall. apply Nat.le_antisymm; [apply NoDup_incl_length; auto|].
    apply NoDup_incl_length; [apply ascending_NoDup; auto|].
    intros x Hx. apply (repr_edge _ _ _ _ Hr) in Hx. apply Hl. split; auto. apply (halo_onto _ _ _ _ _ H). auto.
Qed.

Lemma sub_degree_inner dbg g part n s i v l : well_formed false g -> halo dbg g part n s -> i < sub_size s ->
  local_global dbg s i = Ok v -> v < size_vertex g -> vertex_level dbg s i = Ok l -> l < n ->
  sub_degree dbg s i = degree dbg g v.
Proof.
  intros Wg H Hi Hv Hvn Hl Hln. destruct (sub_degree_parent dbg g part n s i v Wg H Hi Hv Hvn) as (a & b & -> & -> & _ & Hab).
  f_equal. apply Hab. intros x Hx. apply (halo_onto _ _ _ _ _ H).
  destruct (halo_level _ _ _ _ _ H i v Hi Hv) as (l' & El & Hd). rewrite Hl in El. injection El as <-.
  destruct (within_edge false g _ v l x Wg Hd Hx) as (j & Hj & Hjl). exists j. split; auto. lia.
Qed.

Lemma sub_ends dbg s : laid_out (s_graph s) ->
  (sub_empty s = true <-> sub_size s = 0) /\ sub_sizes s = (sub_size s, sub_size_edge s) /\
  2 * sub_size_edge s <= length (concat (rows (s_graph s))) <= 2 * sub_size_edge s + 1 /\
  (0 < sub_size s -> sub_front dbg s = Ok (row (s_graph s) 0) /\ sub_back dbg s = Ok (row (s_graph s) (sub_size s - 1))) /\
  (forall i, i < sub_size s -> sub_at dbg s i = Ok (row (s_graph s) i) /\ sub_degree dbg s i = Ok (length (row (s_graph s) i))).
Proof.
  intros [rs H]. unfold sub_empty, sub_sizes, sub_size_edge, sub_front, sub_back, g_front, g_back, sub_at, sub_degree, sub_size.
  rewrite (g_empty_repr _ _ H), (repr_rows _ _ H).
  assert (Hn : size_vertex (s_graph s) = length rs) by (apply repr_size; auto).
  split; [rewrite Hn; destruct rs; cbn; split; congruence|]. split; [reflexivity|].
  split.
  { unfold size_edge. rewrite (repr_adj _ _ H). pose proof (Nat.div_mod (length (concat rs)) 2 ltac:(lia)) as D.
    pose proof (Nat.mod_upper_bound (length (concat rs)) 2 ltac:(lia)). lia. }
  split.
  - intro Hp. rewrite Hn in *. destruct rs as [|r rs]; [cbn in Hp; lia|].
    destruct (Nat.eqb_spec (length (r :: rs)) 0); [cbn in *; lia|].
    replace (ASSERT_DEBUG dbg (negb false)) with (Ok tt) by (destruct dbg; reflexivity). cbn [bind].
    rewrite !(subscript_ok dbg _ _ _ H), !(repr_row _ _ _ H) by lia. auto.
  - intros i Hi. rewrite Hn in Hi. rewrite (subscript_ok dbg _ _ _ H), (degree_ok dbg _ _ _ H), (repr_row _ _ _ H) by auto. auto.
Qed.

Lemma sub_exchange s o : sub_swap s o = (o, s).
Proof. destruct s as [a [b c] d e], o as [a' [b' c'] d' e']. reflexivity. Qed.

Lemma sub_trimmed oa oo ol ov x : sub_roomy x ->
  let y := ss_shrink oa oo ol ov x in
  sub_roomy y /\ ss_sub y = ss_sub x /\ sg_graph (ss_graph y) = sg_graph (ss_graph x) /\
  (let '(c1, c2, c3, c4) := ss_capacity x in let '(d1, d2, d3, d4) := ss_capacity y in
   d1 <= c1 /\ d2 <= c2 /\ d3 <= c3 /\ d4 <= c4) /\
  (oa = true -> oo = true -> ol = true -> ov = true ->
   ss_capacity y = (size_vertex (sg_graph (ss_graph x)), size_edge false (sg_graph (ss_graph x)),
                    length (s_lg (ss_sub x)), length (s_level (ss_sub x)))).
Proof.
  intros ((R1 & R2) & Rl & Rv) y.
  assert (S : forall o n t, n <= sto_cap t -> n <= sto_cap (v_shrink o n t) <= sto_cap t /\ (o = true -> sto_cap (v_shrink o n t) = n)).
  { intros o n t Hn. unfold v_shrink. destruct o; cbn [andb]; [|split; [lia|discriminate]].
    destruct (Nat.ltb_spec n (sto_cap t)); cbn [sto_cap]; lia. }
  destruct (S oa _ _ R1) as [A1 A2], (S oo _ _ R2) as [B1 B2], (S ol _ _ Rl) as [C1 C2], (S ov _ _ Rv) as [D1 D2].
  split; [subst y; unfold sub_roomy, roomy, ss_shrink, sg_shrink; cbn [ss_graph ss_sub ss_lg ss_lev sg_graph sg_adj sg_off]; lia|].
  split; [reflexivity|]. split; [reflexivity|].
  subst y. unfold ss_capacity, sg_capacity, ss_shrink, sg_shrink. cbn [ss_graph ss_sub ss_lg ss_lev sg_graph sg_adj sg_off fst snd negb].
  split.
  - split; [|split; [apply Nat.div_le_mono; lia|lia]].
    destruct (Nat.eqb_spec (sto_cap (v_shrink oo (length (off (sg_graph (ss_graph x)))) (sg_off (ss_graph x)))) 0);
      destruct (Nat.eqb_spec (sto_cap (sg_off (ss_graph x))) 0); lia.
  - intros -> -> -> ->. rewrite A2, B2, C2, D2 by auto. unfold size_edge. f_equal. f_equal. f_equal.
    unfold size_vertex. destruct (off (sg_graph (ss_graph x))); reflexivity.
Qed.
