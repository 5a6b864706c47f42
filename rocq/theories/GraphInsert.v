(** Insertion sequences, C01. *)
From Verif Require Import Base ListFacts Csr GraphModel GraphSpec GraphFacts.

Lemma same_edge_true d a b c e :
  same_edge d (a, b) (c, e) = true <-> (a = c /\ b = e) \/ (d = false /\ a = e /\ b = c).
Proof.
  unfold same_edge. cbn [fst snd].
  destruct d, (Nat.eqb_spec a c), (Nat.eqb_spec b e), (Nat.eqb_spec a e), (Nat.eqb_spec b c);
    simpl; intuition congruence.
Qed.

Lemma same_edge_refl d e : same_edge d e e = true.
Proof. destruct e. apply same_edge_true. auto. Qed.

Lemma same_edge_sym d e f : same_edge d e f = same_edge d f e.
Proof.
  destruct e as [a b], f as [c x].
  apply eq_true_iff_eq. rewrite !same_edge_true. intuition congruence.
Qed.

Lemma same_edge_trans d e f h : same_edge d e f = true -> same_edge d f h = true -> same_edge d e h = true.
Proof.
  destruct e as [a b], f as [c x], h as [y z]. rewrite !same_edge_true. intuition congruence.
Qed.

Lemma mem_edge_true d e es : mem_edge d e es = true <-> exists f, In f es /\ same_edge d e f = true.
Proof. apply existsb_exists. Qed.

Lemma mem_edge_app d e l1 l2 : mem_edge d e (l1 ++ l2) = mem_edge d e l1 || mem_edge d e l2.
Proof. apply existsb_app. Qed.

Lemma distinct_edges_snoc d es e :
  distinct_edges d (es ++ [e]) =
  if mem_edge d e (distinct_edges d es) then distinct_edges d es else distinct_edges d es ++ [e].
Proof. unfold distinct_edges. rewrite fold_left_app. reflexivity. Qed.

Lemma mem_distinct d es e : mem_edge d e (distinct_edges d es) = mem_edge d e es.
Proof.
  revert e. induction es as [|f es IH] using rev_ind; intro e; auto.
  rewrite distinct_edges_snoc, mem_edge_app. rewrite (IH f).
  destruct (mem_edge d f es) eqn:Ef.
  - rewrite IH. destruct (mem_edge d e es) eqn:Ee; auto. simpl. rewrite orb_false_r.
    destruct (same_edge d e f) eqn:Es; auto.
    apply mem_edge_true in Ef as (h & Hh & Hs).
    assert (mem_edge d e es = true).
    { apply mem_edge_true. exists h. split; auto. eapply same_edge_trans; eauto. }
    congruence.
  - rewrite mem_edge_app, IH. reflexivity.
Qed.

(* ------------------------------------------------------------------ one insertion *)
Lemma contains_edge dbg d g u v : well_formed d g -> u <> v ->
  exists b, contains dbg g (u, v) = Ok b /\ (b = true <-> edge g u v).
Proof.
  intros (rs & H & Hr) Huv.
  destruct (contains_ok dbg d g rs u v H Hr Huv) as (b & E & Hb).
  exists b. split; auto. rewrite Hb. symmetry. apply repr_edge; auto.
Qed.

Lemma insert_spec dbg d g e : well_formed d g -> fst e <> snd e ->
  exists g' b, insert dbg d g e = Ok (g', b) /\ well_formed d g' /\
    (b = false <-> edge g (fst e) (snd e)) /\
    (b = false -> g' = g) /\
    (forall u v, edge g' u v <-> edge g u v \/ same_edge d (u, v) e = true) /\
    length (adj g') = length (adj g) + (if b then if d then 1 else 2 else 0) /\
    size_vertex g' = Nat.max (size_vertex g) (Nat.max (fst e) (snd e) + 1).
Proof.
  intros Hwf Hne. pose proof Hwf as (rs & H & Hr).
  destruct e as [a b]. cbn [fst snd] in Hne |- *.
  destruct (contains_edge dbg d g a b Hwf Hne) as (c & Ec & Hc).
  destruct c.
  - exists g, false. assert (Ha : edge g a b) by (apply Hc; auto).
    pose proof (edge_bounds d g a b Hwf Ha).
    split; [|split; [|split; [|split; [|split; [|split]]]]]; auto; try tauto; try lia.
    + unfold insert. cbn [fst snd]. rewrite Ec.
      replace (ASSERT_DEBUG dbg (negb (a =? b))) with (Ok tt)
        by (destruct (Nat.eqb_spec a b); [congruence|destruct dbg; reflexivity]).
      reflexivity.
    + intros u v. rewrite same_edge_true. split; [tauto|].
      intros [?|[[-> ->]|(Hd & -> & ->)]]; auto. subst d. apply edge_sym; auto.
  - pose proof (insert_flat_ok dbg d g rs (a, b) H Hr Hne Ec) as Hi.
    destruct (if d then (a, b) else order_edge_vertex (a, b)) as [u v] eqn:Euv.
    destruct Hi as (g' & Ei & Hg').
    assert (Huv : (u = a /\ v = b) \/ (d = false /\ u = b /\ v = a)).
    { destruct d; [injection Euv; auto|].
      unfold order_edge_vertex in Euv. cbn [fst snd] in Euv.
      destruct (a <? b); injection Euv; intros; subst; auto. }
    assert (Hn : u <> v) by (destruct Huv as [[-> ->]|(_ & -> & ->)]; auto).
    assert (Hnin : ~ In v (nth u rs [])).
    { intro Hin. apply (repr_edge g rs) in Hin; auto.
      assert (edge g a b); [|intuition congruence].
      destruct Huv as [[-> ->]|(-> & -> & ->)]; auto. apply edge_sym; auto. }
    exists g', true.
    split; [|split; [|split; [|split; [|split; [|split]]]]]; auto.
    + exists (ins_rows d u v rs). split; auto. apply ins_rows_ok; auto.
    + split; [discriminate|]. intro He. apply Hc in He. discriminate.
    + discriminate.
    + intros x y. rewrite (repr_edge g' _ x y Hg'), (repr_edge g rs x y H), ins_rows_In by auto.
      rewrite same_edge_true.
      destruct Huv as [[-> ->]|(-> & -> & ->)]; intuition auto.
    + rewrite (repr_adj _ _ Hg'), (repr_adj _ _ H), ins_rows_entries by auto. reflexivity.
    + rewrite (repr_size _ _ Hg'), (repr_size _ _ H), ins_rows_length.
      destruct Huv as [[-> ->]|(-> & -> & ->)]; lia.
Qed.

Lemma well_formed_default d : well_formed d graph_default.
Proof. exists []. split; [right; auto|]. intros i Hi. simpl in Hi. lia. Qed.

(* ------------------------------------------------------------------ sequences *)
Lemma insert_all_app dbg d l1 l2 g :
  insert_all dbg d (l1 ++ l2) g =
  do r <- insert_all dbg d l1 g;
  do r' <- insert_all dbg d l2 (fst r);
  Ok (fst r', snd r ++ snd r').
Proof.
  revert g; induction l1 as [|e l1 IH]; intro g; cbn [app insert_all bind fst snd].
  - destruct (insert_all dbg d l2 g) as [[]| | |]; reflexivity.
  - destruct (insert dbg d g e) as [[g1 b]| | |]; auto. cbn [bind fst snd].
    rewrite IH. destruct (insert_all dbg d l1 g1) as [[g2 bs]| | |]; auto. cbn [bind fst snd].
    destruct (insert_all dbg d l2 g2) as [[g3 bs']| | |]; auto.
Qed.

Lemma vertex_bound_snoc es e :
  vertex_bound (es ++ [e]) = Nat.max (vertex_bound es) (Nat.max (fst e) (snd e) + 1).
Proof.
  unfold vertex_bound. induction es as [|f es IH]; cbn [app fold_right].
  - lia.
  - rewrite IH. lia.
Qed.

Lemma insert_all_spec dbg d es : (forall e, In e es -> fst e <> snd e) ->
  exists g bs, insert_all dbg d es graph_default = Ok (g, bs) /\
    well_formed d g /\
    (forall u v, edge g u v <-> mem_edge d (u, v) es = true) /\
    length bs = length es /\
    (forall k e, nth_error es k = Some e -> nth_error bs k = Some (negb (mem_edge d e (firstn k es)))) /\
    length (adj g) = (if d then 1 else 2) * length (distinct_edges d es) /\
    size_vertex g = vertex_bound es.
Proof.
  induction es as [|e es IH] using rev_ind; intro Hne.
  - exists graph_default, []. cbn [insert_all].
    split; [|split; [|split; [|split; [|split; [|split]]]]]; auto.
    + apply well_formed_default.
    + intros u v. split; [|discriminate]. intros [Hu _]. change (u < 0) in Hu. lia.
    + intros [|k] e H; discriminate.
  - destruct IH as (g & bs & Ei & Hwf & He & Hlb & Hb & Hadj & Hsz).
    { intros f Hf. apply Hne, in_or_app. auto. }
    destruct (insert_spec dbg d g e Hwf) as (g' & b & Ei' & Hwf' & Hb' & _ & He' & Hadj' & Hsz').
    { apply Hne, in_or_app. simpl; auto. }
    assert (Hbm : b = negb (mem_edge d e es)).
    { destruct e as [x y]. cbn [fst snd] in Hb'. rewrite He in Hb'.
      destruct b, (mem_edge d (x, y) es); simpl; auto; intuition congruence. }
    exists g', (bs ++ [b]).
    split; [|split; [|split; [|split; [|split; [|split]]]]]; auto.
    + rewrite insert_all_app, Ei. cbn [bind fst snd insert_all]. rewrite Ei'. reflexivity.
    + intros u v. rewrite He', He, mem_edge_app, orb_true_iff. simpl. rewrite orb_false_r. tauto.
    + rewrite !app_length, Hlb. reflexivity.
    + intros k f Hk. rewrite nth_error_app in Hk. rewrite nth_error_app. rewrite Hlb.
      rewrite firstn_app.
      destruct (Nat.ltb_spec k (length es)).
      * replace (k - length es) with 0 by lia. rewrite firstn_O, app_nil_r. apply Hb; auto.
      * destruct (k - length es) as [|m] eqn:Em; [|destruct m; discriminate].
        cbn [nth_error] in *. injection Hk as ->. rewrite firstn_O, app_nil_r, firstn_all2 by lia.
        rewrite Hbm. reflexivity.
    + rewrite Hadj', Hadj, distinct_edges_snoc, mem_distinct, Hbm.
      destruct (mem_edge d e es), d; rewrite ?app_length; simpl; lia.
    + rewrite Hsz', Hsz, vertex_bound_snoc. reflexivity.
Qed.

Lemma size_edge_mul (d : bool) g (k : nat) : length (adj g) = (if d then 1 else 2) * k -> size_edge d g = k.
Proof.
  intro H. unfold size_edge. rewrite H. destruct d; [lia|].
  rewrite Nat.mul_comm. apply Nat.div_mul. lia.
Qed.

Lemma contains_bool dbg d g u v (b : bool) : well_formed d g -> u <> v -> (edge g u v <-> b = true) ->
  contains dbg g (u, v) = Ok b.
Proof.
  intros Hwf Huv Hb. destruct (contains_edge dbg d g u v Hwf Huv) as (c & E & Hc).
  rewrite E. f_equal. destruct b, c; intuition congruence.
Qed.

Lemma insert_sequence dbg d es : (forall e, In e es -> fst e <> snd e) ->
  exists g bs, insert_all dbg d es graph_default = Ok (g, bs) /\
    (forall u v, u <> v -> contains dbg g (u, v) = Ok (mem_edge d (u, v) es)) /\
    length bs = length es /\
    (forall k e, nth_error es k = Some e -> nth_error bs k = Some (negb (mem_edge d e (firstn k es)))) /\
    size_edge d g = length (distinct_edges d es) /\
    size_vertex g = vertex_bound es.
Proof.
  intro Hne. destruct (insert_all_spec dbg d es Hne) as (g & bs & E & Hwf & He & H1 & H2 & H3 & H4).
  exists g, bs. split; [auto|split; [|split; [|split; [|split]]]]; auto.
  - intros u v Huv. eapply contains_bool; eauto.
  - apply size_edge_mul; auto.
Qed.

Lemma insert_all_forM dbg d es g :
  forM es (fun e g => do r <- insert dbg d g e; Ok (fst r)) g =
  do r <- insert_all dbg d es g; Ok (fst r).
Proof.
  revert g; induction es as [|e es IH]; intro g; cbn [forM insert_all]; auto.
  destruct (insert dbg d g e) as [[g1 b]| | |]; auto. cbn [bind fst snd].
  rewrite IH. destruct (insert_all dbg d es g1) as [[]| | |]; auto.
Qed.
