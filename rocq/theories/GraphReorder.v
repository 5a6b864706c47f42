(** reorder, C07 and C08. *)
From Verif Require Import Base ListFacts Csr GraphModel GraphSpec GraphFacts PermFacts GraphInsert.

Section Reorder.
  Variable g : graph.
  Variable rs : list (list nat).
  Variable p : list nat.
  Hypothesis Hrep : repr g rs.
  Let n := length rs.
  Hypothesis Hp : is_perm n p.
  Hypothesis Hb : forall i j, In j (nth i rs []) -> j < n.

  Definition newrow (i : nat) : list nat := sort_nat (map (fun v => nth v p 0) (nth i rs [])).
  Definition nrs : list (list nat) := map (fun k => newrow (pos k p)) (seq 0 n).

  Lemma newrow_length i : length (newrow i) = length (nth i rs []).
  Proof. unfold newrow. rewrite sort_nat_length, map_length. reflexivity. Qed.

  Lemma nrs_length : length nrs = n.
  Proof. unfold nrs. rewrite map_length, seq_length. reflexivity. Qed.

  Lemma nth_nrs k : k < n -> nth k nrs [] = newrow (pos k p).
  Proof. intro H. unfold nrs. apply (nth_map_seq (fun k => newrow (pos k p))); auto. Qed.

  Lemma nth_nrs_perm i : i < n -> nth (nth i p 0) nrs [] = newrow i.
  Proof.
    intro H. rewrite nth_nrs by (apply perm_bound; auto). rewrite (perm_pos_nth n) by auto. auto.
  Qed.

  Lemma vget_p i : i < n -> vget p i = Ok (nth i p 0).
  Proof. intro H. apply vget_lt. rewrite (perm_length n p Hp). auto. Qed.

  Lemma vget_off i : rs <> [] -> i <= n -> vget (off g) i = Ok (start rs i).
  Proof. intros Hn Hi. unfold vget. rewrite (repr_off g rs i Hrep Hn Hi). reflexivity. Qed.

  (** Row lengths of the new graph. *)
  Lemma degrees_loop : rs <> [] ->
    exists o, FOR n (fun i o =>
        do q <- vget p i;
        do e <- vget (off g) (i + 1);
        do b <- vget (off g) i;
        vset o (q + 1) (e - b)) (upd (repeat 0 (S n)) 0 0) = Ok o /\
      length o = S n /\ nth_error o 0 = Some 0 /\
      forall k, k < n -> nth_error o (k + 1) = Some (length (nth k nrs [])).
  Proof.
    intro Hne.
    destruct (FOR_inv (fun i (o : list nat) => length o = S n /\ nth_error o 0 = Some 0 /\
        forall j, j < i -> nth_error o (nth j p 0 + 1) = Some (length (nth j rs [])))
      n (fun i o => do q <- vget p i; do e <- vget (off g) (i + 1); do b <- vget (off g) i;
        vset o (q + 1) (e - b)) (upd (repeat 0 (S n)) 0 0)) as (o & E & Hl & H0 & Ho).
    - split; [|split].
      + rewrite upd_length; rewrite repeat_length; lia.
      + reflexivity.
      + intros j Hj. lia.
    - intros i o Hi (Hl & H0 & Ho).
      rewrite vget_p, !vget_off by (auto; lia). cbn [bind].
      pose proof (perm_bound n p i Hp Hi) as Hq.
      rewrite vset_lt by lia. eexists; split; [reflexivity|].
      split; [|split].
      + rewrite upd_length; lia.
      + rewrite nth_error_upd by lia. destruct (Nat.eqb_spec 0 (nth i p 0 + 1)); [lia|auto].
      + intros j Hj. rewrite nth_error_upd by lia.
        destruct (Nat.eqb_spec (nth j p 0 + 1) (nth i p 0 + 1)) as [Eq|Ne].
        * assert (j = i) by (apply (perm_inj n p); auto; lia). subst j.
          rewrite start_S' by auto. f_equal. lia.
        * apply Ho. destruct (Nat.eq_dec j i); [subst; congruence|lia].
    - exists o. split; [auto|split; [|split]]; auto.
      intros k Hk. rewrite nth_nrs, newrow_length by auto.
      destruct (perm_pos n p k Hp Hk) as [H1 H2]. rewrite <- H2 at 1. apply Ho; auto.
  Qed.

  Lemma prefix_loop o : length o = S n -> nth_error o 0 = Some 0 ->
    (forall k, k < n -> nth_error o (k + 1) = Some (length (nth k nrs []))) ->
    FOR n (fun i o => do x <- vget o (i + 1); do y <- vget o i; vset o (i + 1) (x + y)) o
    = Ok (psum 0 nrs).
  Proof.
    intros Hl H0 Ho.
    destruct (FOR_inv (fun i (o : list nat) => length o = S n /\
        forall k, k <= n -> nth_error o k =
          Some (if k <=? i then start nrs k else length (nth (k - 1) nrs [])))
      n (fun i o => do x <- vget o (i + 1); do y <- vget o i; vset o (i + 1) (x + y)) o)
      as (o' & E & Hl' & Ho').
    - split; auto. intros k Hk. destruct k as [|k].
      + rewrite H0. reflexivity.
      + destruct (Nat.leb_spec (S k) 0); [lia|].
        replace (S k - 1) with k by lia. replace (S k) with (k + 1) by lia. apply Ho. lia.
    - intros i o1 Hi (Hl1 & Ho1). unfold vget. rewrite !Ho1 by lia.
      destruct (Nat.leb_spec (i+1) i); [lia|]. destruct (Nat.leb_spec i i); [|lia].
      cbn [bind]. rewrite vset_lt by lia. eexists; split; [reflexivity|]. split.
      + rewrite upd_length; lia.
      + intros k Hk. rewrite nth_error_upd by lia. destruct (Nat.eqb_spec k (i+1)).
        * subst k. destruct (Nat.leb_spec (i+1) (i+1)); [|lia].
          rewrite (start_S' nrs i) by (rewrite nrs_length; auto).
          rewrite Nat.add_sub. f_equal. lia.
        * rewrite Ho1 by auto. destruct (Nat.leb_spec k i), (Nat.leb_spec k (i+1)); try lia; auto.
    - rewrite E. f_equal. apply psum_ext.
      + rewrite nrs_length. auto.
      + rewrite nrs_length. intros i Hi. rewrite Ho' by auto.
        destruct (Nat.leb_spec i n); [reflexivity|lia].
  Qed.

  (** Rows with the lengths of the new graph. *)
  Definition same_shape (hs : list (list nat)) : Prop :=
    length hs = n /\ forall k, k < n -> length (nth k hs []) = length (nth k nrs []).

  Lemma same_shape_start hs i : same_shape hs -> start hs i = start nrs i.
  Proof. intros [H1 H2]. apply start_same; [rewrite nrs_length; auto|]. rewrite H1. auto. Qed.

  Lemma same_shape_upd hs k r : same_shape hs -> k < n -> length r = length (nth k nrs []) ->
    same_shape (upd hs k r).
  Proof.
    intros [H1 H2] Hk Hr. split.
    - rewrite upd_length; lia.
    - intros j Hj. rewrite nth_upd by lia. destruct (Nat.eqb_spec j k); subst; auto.
  Qed.

  Lemma total_length : length (concat nrs) = length (concat rs).
  Proof.
    assert (Hperm : Permutation (map (fun i => nth i rs []) (seq 0 n))
                                (map (fun k => nth (pos k p) rs []) (seq 0 n))).
    { rewrite <- (map_map (fun k => pos k p) (fun i => nth i rs [])). apply Permutation_map.
      pose proof (invert_perm n p Hp) as Hi. unfold invert in Hi. rewrite (perm_length n p Hp) in Hi.
      apply Permutation_sym, Hi. }
    assert (Hlen : forall l : list (list nat), length (concat l) = fold_left Nat.add (map (@length nat) l) 0).
    { induction l as [|x l IH]; simpl; auto. rewrite app_length, vsum_acc, IH. lia. }
    assert (E1 : rs = map (fun i => nth i rs []) (seq 0 n)).
    { apply rows_ext; [rewrite map_length, seq_length; auto|].
      intros i Hi. rewrite (nth_map_seq (fun i => nth i rs [])); auto. }
    assert (E2 : map (@length nat) nrs = map (@length nat) (map (fun k => nth (pos k p) rs []) (seq 0 n))).
    { unfold nrs. rewrite !map_map. apply map_ext. intro k. apply newrow_length. }
    rewrite !Hlen, E2. transitivity (fold_left Nat.add (map (@length nat) (map (fun i => nth i rs []) (seq 0 n))) 0).
    - symmetry. apply vsum_perm. apply Permutation_map. auto.
    - rewrite <- E1. reflexivity.
  Qed.

  Lemma populate_loop : rs <> [] ->
    FOR n (reorder_step g p) (mkG (repeat 0 (length (adj g))) (psum 0 nrs))
    = Ok (mkG (concat nrs) (psum 0 nrs)).
  Proof.
    intro Hne.
    set (zero := map (fun k => repeat 0 (length (nth k nrs []))) (seq 0 n)).
    assert (Hz : same_shape zero).
    { split; [unfold zero; rewrite map_length, seq_length; auto|].
      intros k Hk. unfold zero. rewrite (nth_map_seq (fun k => repeat 0 (length (nth k nrs [])))) by auto.
      apply repeat_length. }
    assert (Hzc : repeat 0 (length (adj g)) = concat zero).
    { rewrite (repr_adj _ _ Hrep), <- total_length.
      assert (Hlz : length (concat zero) = length (concat nrs)).
      { rewrite <- !(start_all _ n) by (rewrite ?nrs_length; destruct Hz; auto; lia).
        apply same_shape_start, Hz. }
      apply nth_error_ext_len; [rewrite repeat_length; auto|].
      rewrite repeat_length. intros i Hi. rewrite nth_error_repeat'.
      destruct (Nat.ltb_spec i (length (concat nrs))); [|lia].
      destruct (nth_error (concat zero) i) as [x|] eqn:E.
      - apply nth_error_In in E. apply in_concat in E as (l & Hl & Hx).
        unfold zero in Hl. apply in_map_iff in Hl as (k & <- & _).
        apply repeat_spec in Hx. subst; auto.
      - apply nth_error_None in E. lia. }
    rewrite Hzc.
    destruct (FOR_inv (fun i (h : graph) => off h = psum 0 nrs /\
        exists hs, same_shape hs /\ adj h = concat hs /\
          forall j, j < i -> nth (nth j p 0) hs [] = newrow j)
      n (reorder_step g p) (mkG (concat zero) (psum 0 nrs))) as (h & E & Ho & hs & Hs & Ha & Hd).
    - split; [reflexivity|]. exists zero. split; [auto|split; [reflexivity|]]. intros j Hj. lia.
    - intros i h Hi (Ho & hs & Hs & Ha & Hd). unfold reorder_step.
      rewrite vget_p by auto. cbn [bind].
      destruct (adjacency_iter_repr g rs i Hrep Hi) as [E1 E2].
      rewrite E1. cbn [bind fst snd]. rewrite E2.
      rewrite (mapM_Ok _ (fun v => nth v p 0)).
      2:{ intros v Hv. apply vget_p. eapply Hb; eauto. }
      cbn [bind]. pose proof (perm_bound n p i Hp Hi) as Hq. set (q := nth i p 0) in *.
      destruct Hs as [Hs1 Hs2]. assert (Hs : same_shape hs) by (split; auto).
      rewrite Ho, vget_psum by (rewrite nrs_length; lia). cbn [bind].
      rewrite Ha. rewrite <- (same_shape_start hs q Hs).
      set (r := map (fun v => nth v p 0) (nth i rs [])).
      assert (Hlr : length r = length (nth q nrs [])).
      { unfold q. rewrite nth_nrs_perm, newrow_length by auto. apply map_length. }
      rewrite vwrite_row; [|lia|rewrite Hs2; auto]. cbn [bind].
      assert (Hs' : same_shape (upd hs q r)) by (apply same_shape_upd; auto).
      destruct (adjacency_iter_ok (mkG (concat (upd hs q r)) (psum 0 nrs)) (upd hs q r) q) as [E3 E4];
        cbn [adj off]; auto.
      { destruct Hs'. lia. }
      { rewrite nth_error_psum, nrs_length. destruct (Nat.leb_spec q n); [|lia].
        rewrite (same_shape_start (upd hs q r)) by auto. reflexivity. }
      { rewrite nth_error_psum, nrs_length. destruct (Nat.leb_spec (q+1) n); [|lia].
        rewrite (same_shape_start (upd hs q r)) by auto. reflexivity. }
      rewrite E3. cbn [bind fst snd]. cbn [adj] in E4. rewrite E4.
      rewrite nth_upd by lia. rewrite Nat.eqb_refl.
      rewrite vwrite_row; [|destruct Hs'; lia|].
      2:{ rewrite sort_nat_length, nth_upd by lia. rewrite Nat.eqb_refl. auto. }
      cbn [bind]. eexists; split; [reflexivity|]. cbn [off adj]. split; auto.
      exists (upd (upd hs q r) q (sort_nat r)). split; [|split; [reflexivity|]].
      + apply same_shape_upd; auto. rewrite sort_nat_length. auto.
      + intros j Hj. rewrite nth_upd by (destruct Hs'; lia).
        destruct (Nat.eqb_spec (nth j p 0) q) as [Eq|Ne].
        * assert (j = i) by (apply (perm_inj n p); auto; lia). subst j. reflexivity.
        * rewrite nth_upd by lia. destruct (Nat.eqb_spec (nth j p 0) q); [congruence|].
          apply Hd. destruct (Nat.eq_dec j i); [subst; unfold q in *; congruence|lia].
    - rewrite E. destruct h as [ha ho]. cbn [adj off] in *. subst. do 3 f_equal.
      destruct Hs as [Hs1 Hs2]. apply rows_ext; [rewrite nrs_length; auto|].
      rewrite Hs1. intros k Hk. destruct (perm_pos n p k Hp Hk) as [H1 H2].
      rewrite nth_nrs by auto. rewrite <- H2 at 1. auto.
  Qed.

  Lemma reorder_flat dbg : exists h, reorder dbg g p = Ok (h, g) /\ repr h nrs.
  Proof.
    unfold reorder. rewrite (repr_size _ _ Hrep). fold n.
    rewrite (perm_length n p Hp), Nat.eqb_refl.
    replace (2 * vsum p =? (n - 1) * n) with true.
    2:{ symmetry. apply Nat.eqb_eq. unfold vsum. rewrite (vsum_perm p _ Hp). apply vsum_seq. }
    replace (ASSERT_DEBUG dbg true) with (Ok tt) by (destruct dbg; reflexivity). cbn [bind].
    rewrite (g_empty_repr _ _ Hrep).
    assert (Hdec : rs = [] \/ rs <> []) by (destruct rs; [auto|right; discriminate]).
    destruct Hdec as [Ers|Hne].
    - replace (match rs with [] => true | _ :: _ => false end) with true by (rewrite Ers; reflexivity).
      cbn [bind]. assert (En : n = 0) by (unfold n; rewrite Ers; reflexivity). rewrite En. cbn [FOR seq forM bind].
      eexists; split; [reflexivity|].
      assert (Enrs : nrs = []) by (unfold nrs; rewrite En; reflexivity). rewrite Enrs.
      destruct Hrep as [[Ho Ha]|[-> _]].
      + left. cbn [adj off]. rewrite Ho, Ha, Ers. split; reflexivity.
      + right. split; reflexivity.
    - replace (match rs with [] => true | _ :: _ => false end) with false by (destruct rs; congruence).
      assert (Hlo : length (off g) = S n).
      { destruct Hrep as [[Ho _]|[_ E]]; [|congruence]. rewrite Ho. apply psum_length. }
      rewrite Hlo. rewrite vset_lt by (rewrite repeat_length; lia). cbn [bind].
      destruct (degrees_loop Hne) as (o & E & Hl & H0 & Ho). rewrite E. cbn [bind].
      rewrite (prefix_loop o Hl H0 Ho). cbn [bind].
      rewrite (populate_loop Hne). cbn [bind].
      eexists; split; [reflexivity|]. left. split; reflexivity.
  Qed.

  Lemma In_newrow i x : In x (newrow i) <-> exists v, In v (nth i rs []) /\ nth v p 0 = x.
  Proof.
    unfold newrow. rewrite In_sort_nat, in_map_iff. split; intros (v & H1 & H2); eauto.
  Qed.

  Lemma nrs_ok d : rows_ok d rs -> rows_ok d nrs.
  Proof.
    intros H k Hk. rewrite nrs_length in Hk |- *. rewrite nth_nrs by auto.
    destruct (perm_pos n p k Hp Hk) as [H1 H2]. set (i := pos k p) in *.
    destruct (H i H1) as (Ha & Hbb & Hs). split; [|split].
    - apply sort_nat_ascending. apply NoDup_map_inj.
      + intros x y Hx Hy E. eapply (perm_inj n p); eauto.
      + apply ascending_NoDup, Ha.
    - intros j Hj. apply In_newrow in Hj as (v & Hv & <-). destruct (Hbb v Hv) as [Hvn Hvi].
      split; [apply perm_bound; auto|]. intro E. apply Hvi. apply (perm_inj n p); auto. congruence.
    - intros Hd j Hj. apply In_newrow in Hj as (v & Hv & <-). destruct (Hbb v Hv) as [Hvn Hvi].
      rewrite nth_nrs_perm by auto. apply In_newrow. exists i. split; [|auto]. apply Hs; auto.
  Qed.

  Lemma nrs_edge i j : i < n -> j < n ->
    (In (nth j p 0) (nth (nth i p 0) nrs []) <-> In j (nth i rs [])).
  Proof.
    intros Hi Hj. rewrite nth_nrs_perm by auto. rewrite In_newrow. split.
    - intros (v & Hv & E). assert (v = j); [|subst; auto].
      apply (perm_inj n p); auto. eapply Hb; eauto.
    - intro H. eauto.
  Qed.
End Reorder.

Lemma rows_ok_bound d rs : rows_ok d rs -> forall i j, In j (nth i rs []) -> j < length rs.
Proof.
  intros H i j Hin. pose proof (In_nth_nil _ _ _ Hin) as Hi. apply (H i Hi). auto.
Qed.

Lemma reorder_spec dbg d g p : well_formed d g -> is_perm (size_vertex g) p ->
  exists h, reorder dbg g p = Ok (h, g) /\ well_formed d h /\
    size_vertex h = size_vertex g /\ length (adj h) = length (adj g) /\
    (forall u v, u < size_vertex g -> v < size_vertex g ->
       (edge h (nth u p 0) (nth v p 0) <-> edge g u v)) /\
    (forall u, u < size_vertex g -> degree dbg h (nth u p 0) = degree dbg g u).
Proof.
  intros (rs & H & Hr) Hp. rewrite (repr_size _ _ H) in *.
  pose proof (rows_ok_bound d rs Hr) as Hb.
  destruct (reorder_flat g rs p H Hp Hb dbg) as (h & E & Hh). exists h.
  split; [auto|split; [|split; [|split; [|split]]]].
  - exists (nrs rs p). split; auto. apply nrs_ok; auto.
  - rewrite (repr_size _ _ Hh), nrs_length. reflexivity.
  - rewrite (repr_adj _ _ Hh), (repr_adj _ _ H). apply total_length; auto.
  - intros u v Hu Hv. rewrite (repr_edge _ _ _ _ Hh), (repr_edge _ _ _ _ H). apply nrs_edge; auto.
  - intros u Hu. rewrite (degree_ok dbg h (nrs rs p)), (degree_ok dbg g rs); auto.
    + rewrite nth_nrs_perm, newrow_length; auto.
    + rewrite nrs_length. apply perm_bound; auto.
Qed.

(** Two well formed graphs with the same vertices and edges are the same object, up to the
    representation of the graph without vertices. *)
Lemma well_formed_ext d g h : well_formed d g -> well_formed d h ->
  size_vertex g = size_vertex h -> (forall u v, edge g u v <-> edge h u v) ->
  size_vertex g <> 0 -> g = h.
Proof.
  intros (rs & H & Hr) (hs & Hh & Hhr) Hs He Hne.
  assert (rs = hs).
  { rewrite (repr_size _ _ H), (repr_size _ _ Hh) in Hs. apply rows_ext; auto.
    intros i Hi. apply ascending_ext.
    - apply Hr; auto.
    - apply Hhr; lia.
    - intro x. rewrite <- (repr_edge _ _ _ _ H), <- (repr_edge _ _ _ _ Hh). auto. }
  subst hs. rewrite (repr_size _ _ H) in Hne.
  destruct H as [[H1 H2]|[_ ->]]; [|simpl in Hne; congruence].
  destruct Hh as [[H3 H4]|[_ ->]]; [|simpl in Hne; congruence].
  destruct g, h; cbn in *; congruence.
Qed.

Lemma reorder_inverse dbg d g p q : well_formed d g -> is_perm (size_vertex g) p ->
  length q = size_vertex g ->
  (forall i, i < size_vertex g -> nth (nth i p 0) q 0 = i) ->
  exists h, reorder dbg g p = Ok (h, g) /\ reorder dbg h q = Ok (g, h).
Proof.
  intros Hwf Hp Hlq Hq.
  destruct (reorder_spec dbg d g p Hwf Hp) as (h & E & Hwh & Hsz & Hadj & Hed & _).
  assert (Hq' : q = invert p) by (eapply invert_unique; eauto). subst q.
  pose proof (invert_perm _ _ Hp) as Hip.
  destruct (reorder_spec dbg d h (invert p) Hwh) as (g' & E' & Hwg' & Hsz' & Hadj' & Hed' & _).
  { rewrite Hsz. auto. }
  exists h. split; auto. rewrite E'. do 2 f_equal.
  destruct (Nat.eq_dec (size_vertex g) 0) as [Hz|Hz].
  - (* no vertices: the arrays keep their lengths *)
    destruct Hwf as (rs & H & Hr). rewrite (repr_size _ _ H) in Hz.
    destruct rs; [|discriminate].
    assert (Hh : h = g).
    { unfold reorder in E. rewrite (repr_size _ _ H) in E. simpl length in E.
      rewrite (g_empty_repr _ _ H) in E.
      destruct (ASSERT_DEBUG dbg (length p =? 0)); try discriminate. cbn [bind] in E.
      destruct (ASSERT_DEBUG dbg (2 * vsum p =? (0 - 1) * 0)); try discriminate. cbn [bind] in E.
      injection E as <-. destruct H as [[Ho Ha]|[-> _]]; [|reflexivity].
      destruct g as [ga go]. cbn [adj off] in *. subst. reflexivity. }
    subst h.
    unfold reorder in E'. rewrite (repr_size _ _ H) in E'. simpl length in E'.
    rewrite (g_empty_repr _ _ H) in E'.
    destruct (ASSERT_DEBUG dbg (length (invert p) =? 0)); try discriminate. cbn [bind] in E'.
    destruct (ASSERT_DEBUG dbg (2 * vsum (invert p) =? (0 - 1) * 0)); try discriminate. cbn [bind] in E'.
    injection E' as <-. destruct H as [[Ho Ha]|[-> _]]; [|reflexivity].
    destruct g as [ga go]. cbn [adj off] in *. subst. reflexivity.
  - apply (well_formed_ext d); auto; try congruence.
    intros u v. set (n := size_vertex g) in *.
    assert (Hcase : forall x y, x < n -> y < n -> (edge g' x y <-> edge g x y)).
    { intros x y Hx Hy.
      pose proof (perm_bound n p x Hp Hx) as Hbx. pose proof (perm_bound n p y Hp Hy) as Hby.
      pose proof (Hed' (nth x p 0) (nth y p 0) ltac:(lia) ltac:(lia)) as H1.
      rewrite !(invert_nth n) in H1 by auto. rewrite H1. apply Hed; auto. }
    split; intro He.
    + pose proof (edge_bounds _ _ _ _ Hwg' He). apply Hcase; auto; lia.
    + pose proof (edge_bounds _ _ _ _ Hwf He). apply Hcase; auto; fold n in H; lia.
Qed.
