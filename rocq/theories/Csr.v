(** Compressed rows: how a list of rows is laid out as one flat list with offsets.
    These are specification level notions (the representation relation), used for the graph
    (include/graph/adjacency_graph.hpp) and for the sparse matrices. *)
From Verif Require Import Base ListFacts.

Section Csr.
  Context {A : Type}.
  Implicit Types (rs : list (list A)) (r : list A).

  (** Offsets of consecutive rows, starting at [a]. *)
  Fixpoint psum (a : nat) rs : list nat :=
    match rs with
    | [] => [a]
    | r :: t => a :: psum (a + length r) t
    end.

  (** Position of the first element of row [i]. *)
  Definition start rs (i : nat) : nat := length (concat (firstn i rs)).

  Lemma psum_length a rs : length (psum a rs) = S (length rs).
  Proof. revert a; induction rs; intro; simpl; auto. Qed.

  Lemma start_0 rs : start rs 0 = 0.
  Proof. reflexivity. Qed.

  Lemma start_cons_S r rs i : start (r :: rs) (S i) = length r + start rs i.
  Proof. unfold start. simpl. rewrite app_length. reflexivity. Qed.

  Lemma nth_error_psum a rs i :
    nth_error (psum a rs) i = if i <=? length rs then Some (a + start rs i) else None.
  Proof.
    revert a i; induction rs as [|r rs IH]; intros a [|i]; cbn [psum nth_error length].
    - rewrite start_0, Nat.add_0_r. reflexivity.
    - destruct i; reflexivity.
    - rewrite start_0, Nat.add_0_r. reflexivity.
    - rewrite IH, start_cons_S.
      destruct (Nat.leb_spec i (length rs)), (Nat.leb_spec (S i) (S (length rs))); try lia; auto.
      f_equal; lia.
  Qed.

  Lemma start_S rs i : i < length rs -> start rs (S i) = start rs i + length (nth i rs []).
  Proof.
    revert i; induction rs as [|r rs IH]; intros [|i] H; simpl in H; try lia.
    - rewrite start_cons_S, !start_0. simpl. lia.
    - rewrite !start_cons_S, IH by lia. simpl. lia.
  Qed.

  Lemma start_S' rs i : i < length rs -> start rs (i + 1) = start rs i + length (nth i rs []).
  Proof. intro H. rewrite Nat.add_1_r. apply start_S, H. Qed.

  Lemma start_all rs i : length rs <= i -> start rs i = length (concat rs).
  Proof. intro H. unfold start. rewrite firstn_all2; auto. Qed.

  Lemma start_mono rs i j : i <= j -> start rs i <= start rs j.
  Proof.
    revert i j; induction rs as [|r rs IH]; intros i j H.
    - unfold start. rewrite !firstn_nil. simpl. lia.
    - destruct i as [|i], j as [|j]; rewrite ?start_0, ?start_cons_S; try lia.
      specialize (IH i j). lia.
  Qed.

  Lemma start_le rs i : start rs i <= length (concat rs).
  Proof.
    rewrite <- (start_all rs (Nat.max i (length rs))) by lia. apply start_mono. lia.
  Qed.

  Lemma firstn_start rs i : firstn (start rs i) (concat rs) = concat (firstn i rs).
  Proof.
    unfold start. rewrite <- (firstn_skipn i rs) at 2. rewrite concat_app, firstn_app.
    rewrite Nat.sub_diag, firstn_all. simpl. apply app_nil_r.
  Qed.

  Lemma skipn_start rs i : skipn (start rs i) (concat rs) = concat (skipn i rs).
  Proof.
    unfold start. rewrite <- (firstn_skipn i rs) at 2. rewrite concat_app, skipn_app.
    rewrite Nat.sub_diag, skipn_all. reflexivity.
  Qed.

  Lemma skipn_row rs i : i < length rs -> skipn i rs = nth i rs [] :: skipn (S i) rs.
  Proof.
    revert i; induction rs as [|r rs IH]; intros [|i] H; simpl in *; try lia; auto.
    apply IH. lia.
  Qed.

  Lemma slice_row rs i :
    i < length rs -> slice (concat rs) (start rs i) (start rs (S i)) = nth i rs [].
  Proof.
    intro H. unfold slice. rewrite skipn_start, start_S, skipn_row by auto.
    rewrite Nat.add_comm, Nat.add_sub. simpl.
    rewrite firstn_app, Nat.sub_diag, firstn_all. simpl. apply app_nil_r.
  Qed.

  Lemma vrange_row rs i :
    i < length rs -> vrange (concat rs) (start rs i) (start rs (i + 1)) = Ok (nth i rs []).
  Proof.
    intro H. unfold vrange. rewrite Nat.add_1_r.
    assert (H1 := start_mono rs i (S i)). assert (H2 := start_le rs (S i)).
    destruct (Nat.leb_spec (start rs i) (start rs (S i))),
      (Nat.leb_spec (start rs (S i)) (length (concat rs))); try lia.
    simpl. rewrite slice_row; auto.
  Qed.

  Lemma concat_upd rs i r :
    i < length rs ->
    concat (upd rs i r) = firstn (start rs i) (concat rs) ++ r ++ skipn (start rs (S i)) (concat rs).
  Proof.
    intro H. rewrite firstn_start, skipn_start. unfold upd.
    rewrite concat_app. reflexivity.
  Qed.

  Lemma start_upd rs i r j :
    i < length rs ->
    start (upd rs i r) j = if j <=? i then start rs j
                           else start rs j - length (nth i rs []) + length r.
  Proof.
    revert i j; induction rs as [|r0 rs IH]; intros i j H; simpl in H; [lia|].
    destruct i as [|i].
    - change (upd (r0 :: rs) 0 r) with (r :: rs). destruct j as [|j]; [reflexivity|].
      rewrite !start_cons_S. cbn [Nat.leb nth]. lia.
    - change (upd (r0 :: rs) (S i) r) with (r0 :: upd rs i r).
      destruct j as [|j]; [reflexivity|].
      rewrite !start_cons_S, IH by lia. cbn [nth Nat.leb].
      destruct (Nat.leb_spec j i); auto.
      assert (start rs (S i) <= start rs j) by (apply start_mono; lia).
      rewrite start_S in H1 by lia. lia.
  Qed.

  (** Inserting in the flat list at the [k]-th place of row [i] inserts in that row. *)
  Lemma insert_row rs i k x :
    i < length rs -> k <= length (nth i rs []) ->
    list_insert (concat rs) (start rs i + k) x = concat (upd rs i (list_insert (nth i rs []) k x)).
  Proof.
    intros Hi Hk. unfold list_insert.
    pose proof (firstn_skipn i rs) as E. rewrite (skipn_row rs i Hi) in E.
    remember (nth i rs []) as r eqn:Er. remember (skipn (S i) rs) as t eqn:Et.
    unfold upd. rewrite <- Et.
    rewrite concat_app. cbn [concat].
    assert (Ec : concat rs = concat (firstn i rs) ++ r ++ concat t).
    { rewrite <- E at 1. rewrite concat_app. reflexivity. }
    rewrite Ec. unfold start.
    rewrite firstn_app_2, firstn_app.
    replace (k - length r) with 0 by lia. rewrite firstn_O, app_nil_r.
    rewrite skipn_app, (skipn_all2 (concat (firstn i rs))) by lia.
    replace (length (concat (firstn i rs)) + k - length (concat (firstn i rs))) with k by lia.
    rewrite skipn_app. replace (k - length r) with 0 by lia.
    cbn [app skipn]. rewrite <- !app_assoc. reflexivity.
  Qed.

  (** Erasing the flat positions [k, m) of row [i] erases them from that row. *)
  Lemma erase_row rs i k m :
    i < length rs -> k <= m -> m <= length (nth i rs []) ->
    verase (concat rs) (start rs i + k) (start rs i + m) =
    Ok (concat (upd rs i (firstn k (nth i rs []) ++ skipn m (nth i rs [])))).
  Proof.
    intros Hi Hkm Hm. unfold verase.
    assert (start rs i + m <= length (concat rs)).
    { pose proof (start_le rs (S i)) as Hle. rewrite start_S in Hle by auto. lia. }
    destruct (Nat.leb_spec (start rs i + k) (start rs i + m)),
      (Nat.leb_spec (start rs i + m) (length (concat rs))); try lia. cbn [andb]. f_equal.
    pose proof (firstn_skipn i rs) as E. rewrite (skipn_row rs i Hi) in E.
    remember (nth i rs []) as r eqn:Er. remember (skipn (S i) rs) as t eqn:Et.
    unfold upd. rewrite <- Et.
    rewrite concat_app. cbn [concat].
    assert (Ec : concat rs = concat (firstn i rs) ++ r ++ concat t).
    { rewrite <- E at 1. rewrite concat_app. reflexivity. }
    rewrite Ec. unfold start.
    rewrite firstn_app_2, firstn_app.
    replace (k - length r) with 0 by lia. rewrite firstn_O, app_nil_r.
    rewrite skipn_app, (skipn_all2 (concat (firstn i rs))) by lia.
    replace (length (concat (firstn i rs)) + m - length (concat (firstn i rs))) with m by lia.
    rewrite skipn_app. replace (m - length r) with 0 by lia.
    cbn [app skipn]. rewrite <- !app_assoc. reflexivity.
  Qed.

  Lemma psum_ext a rs l :
    length l = S (length rs) ->
    (forall i, i <= length rs -> nth_error l i = Some (a + start rs i)) -> l = psum a rs.
  Proof.
    intros Hl H. apply nth_error_ext_len; rewrite ?psum_length; auto.
    intros i Hi. rewrite nth_error_psum.
    destruct (Nat.leb_spec i (length rs)); [apply H; lia|lia].
  Qed.

  Lemma vget_psum rs i : i <= length rs -> vget (psum 0 rs) i = Ok (start rs i).
  Proof.
    intro H. apply vget_Ok. rewrite nth_error_psum.
    destruct (Nat.leb_spec i (length rs)); [reflexivity|lia].
  Qed.

  Lemma start_app_l rs1 rs2 i : i <= length rs1 -> start (rs1 ++ rs2) i = start rs1 i.
  Proof.
    intro H. unfold start. rewrite firstn_app. replace (i - length rs1) with 0 by lia.
    rewrite firstn_O, app_nil_r. reflexivity.
  Qed.

  Lemma start_firstn rs n i : i <= n -> start (firstn n rs) i = start rs i.
  Proof. intro H. unfold start. rewrite firstn_firstn, Nat.min_l by lia. reflexivity. Qed.
End Csr.

(** Facts relating row lists with equal row lengths, possibly of different element types. *)
Lemma start_same {A B} (r1 : list (list A)) (r2 : list (list B)) i :
  length r1 = length r2 ->
  (forall k, k < length r1 -> length (nth k r1 []) = length (nth k r2 [])) ->
  start r1 i = start r2 i.
Proof.
  revert r2 i; induction r1 as [|a r1 IH]; intros [|b r2] i Hl H; simpl in Hl; try lia.
  - unfold start. rewrite !firstn_nil. reflexivity.
  - destruct i as [|i]; [reflexivity|]. rewrite !start_cons_S. f_equal.
    + apply (H 0). simpl; lia.
    + apply IH; [lia|]. intros k Hk. apply (H (S k)). simpl; lia.
Qed.

Lemma rows_ext {A} (rs1 rs2 : list (list A)) :
  length rs1 = length rs2 -> (forall i, i < length rs1 -> nth i rs1 [] = nth i rs2 []) -> rs1 = rs2.
Proof.
  intros Hl H. apply nth_error_ext_len; auto. intros i Hi.
  rewrite !(nth_error_nth_lt _ _ []) by lia. f_equal. auto.
Qed.

Lemma nth_map_seq {A} (f : nat -> list A) n i : i < n -> nth i (map f (seq 0 n)) [] = f i.
Proof.
  intro H. apply nth_error_nth. rewrite nth_error_map', nth_error_seq.
  destruct (Nat.ltb_spec i n); [reflexivity|lia].
Qed.

Lemma vwrite_row {A} (rs : list (list A)) i r :
  i < length rs -> length r = length (nth i rs []) ->
  vwrite (concat rs) (start rs i) r = Ok (concat (upd rs i r)).
Proof.
  intros Hi Hl. unfold vwrite. pose proof (start_le rs (S i)) as Hle.
  rewrite start_S in Hle by auto.
  destruct (Nat.leb_spec (start rs i + length r) (length (concat rs))); [|lia].
  rewrite concat_upd by auto. rewrite start_S, Hl by auto. reflexivity.
Qed.
