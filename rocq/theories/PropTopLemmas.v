(** Proofs behind C130. *)
From Verif Require Import Base ListFacts Csr GraphModel GraphSpec GraphFacts GraphInsert SparseModel SparseSpec SparseFacts SparseUpdate
  SparseInsert SparseSeq TopModel.
From Coq Require Import List Lia Arith Bool.
Import ListNotations.

Lemma up_next M x : x < M -> up M x = x + 1.
Proof. intro H. unfold up. destruct (Nat.eqb_spec x M); [lia|reflexivity]. Qed.
Lemma up_top M : up M M = 0.
Proof. unfold up. rewrite Nat.eqb_refl. reflexivity. Qed.

Lemma resize_agrees M strict g n : n < M -> resize_top M strict g n = resize strict g n.
Proof. intro H. unfold resize_top, resize. rewrite up_next by auto. reflexivity. Qed.

Lemma insert_agrees M dbg d g u v : Nat.max u v + 1 < M -> insert_top M dbg d g (u, v) = insert dbg d g (u, v).
Proof.
  intro H. unfold insert_top, insert.
  assert (Ho : exists a b, (if d then (u, v) else order_edge_vertex (u, v)) = (a, b) /\ Nat.max a b = Nat.max u v).
  { destruct d; [eauto|]. unfold order_edge_vertex. cbn [fst snd]. destruct (u <? v); eexists; eexists; split; [reflexivity| |reflexivity|]; lia. }
  destruct Ho as (a & b & E & Hm). rewrite E.
  rewrite (up_next M (Nat.max a b)), (up_next M a), (up_next M b), (up_next M (b + 1)) by lia.
  rewrite resize_agrees by lia. replace (b + 1 + 1) with (b + 2) by lia. reflexivity.
Qed.

Lemma resize_at_top M strict g : size_vertex g < M -> resize_top M strict g M = Ok (mkG (adj g) []).
Proof.
  intro H. unfold resize_top. destruct (Nat.ltb_spec (size_vertex g) M); [|lia]. rewrite up_top.
  assert (Hb : exists x, (match off g with [] => Ok 0 | _ => vback (off g) end) = Ok x).
  { destruct (off g) as [|o os] eqn:E; [eauto|]. unfold vback, vget.
    destruct (nth_error (o :: os) (length (o :: os) - 1)) eqn:En; [eauto|].
    apply nth_error_None in En. cbn [length] in En. lia. }
  destruct Hb as (x & ->). cbn [bind]. reflexivity.
Qed.

Lemma top_not_well_formed d g : adj g <> [] -> ~ well_formed d (mkG (adj g) []).
Proof.
  intros H (rs & [[Ho _]|[E _]] & _).
  - destruct rs; discriminate.
  - unfold graph_default in E. injection E as E. auto.
Qed.

Lemma resize_to_none M strict g d : 0 < M -> well_formed d g -> resize_top M strict g 0 = Ok (mkG [] [0]).
Proof.
  intros HM (rs & Hr & _). unfold resize_top. destruct (Nat.ltb_spec (size_vertex g) 0); [lia|].
  rewrite up_next by auto. cbn [Nat.add].
  assert (E : vresize (off g) 1 0 = [0]).
  { destruct Hr as [[Ho _]|[-> _]]; [rewrite Ho|reflexivity]. destruct rs; reflexivity. }
  rewrite E. cbn. unfold vresize. cbn. reflexivity.
Qed.

Lemma insert_erases M strict g d : 0 < M -> well_formed d g -> resize_top M strict g (up M M) = Ok (mkG [] [0]).
Proof. rewrite up_top. exact (resize_to_none M strict g d). Qed.

Lemma resize_top_facts M strict g : size_vertex g < M ->
  resize_top M strict g M = Ok (mkG (adj g) []) /\ size_vertex (mkG (adj g) []) = 0 /\
  (adj g <> [] -> forall d, ~ well_formed d (mkG (adj g) [])).
Proof.
  intro H. split; [exact (resize_at_top M strict g H)|]. split; [reflexivity|]. intros Ha d. exact (top_not_well_formed d g Ha).
Qed.

(** The list of a vertex when there are no vertices. *)
Lemma list_of_none g u v : length (off g) <= 1 -> insert_vertex_adjacent_list g u v = Undef.
Proof.
  intro H. unfold insert_vertex_adjacent_list, adjacency_iter, vget.
  replace (nth_error (off g) (u + 1)) with (@None nat) by (symmetry; apply nth_error_None; lia).
  destruct (nth_error (off g) u); reflexivity.
Qed.

Lemma insert_at_top M dbg d g u v : 0 < M -> well_formed d g -> u <> v -> size_vertex g <= Nat.max u v ->
  Nat.max u v = M \/ Nat.max u v + 1 = M -> insert_top M dbg d g (u, v) = Undef.
Proof.
  intros HM Hw Huv Hs Hm. unfold insert_top. cbn [fst snd].
  assert (Hd : ASSERT_DEBUG dbg (negb (u =? v)) = Ok tt).
  { destruct (Nat.eqb_spec u v); [contradiction|]. destruct dbg; reflexivity. }
  rewrite Hd. cbn [bind].
  assert (Hc : contains dbg g (u, v) = Ok false).
  { unfold contains. cbn [fst snd]. rewrite Hd. cbn [bind]. destruct (g_empty g); [reflexivity|].
    destruct (Nat.leb_spec (size_vertex g) (Nat.max u v)); [reflexivity|lia]. }
  rewrite Hc. cbn [bind].
  assert (Ho : exists a b, (if d then (u, v) else order_edge_vertex (u, v)) = (a, b) /\ Nat.max a b = Nat.max u v).
  { destruct d; [eauto|]. unfold order_edge_vertex. cbn [fst snd]. destruct (u <? v); eexists; eexists; split; [reflexivity| |reflexivity|]; lia. }
  destruct Ho as (a & b & E & Hab). rewrite E, Hab.
  destruct (Nat.leb_spec (size_vertex g) (Nat.max u v)); [|lia].
  assert (Hr : exists g1, resize_top M true g (up M (Nat.max u v)) = Ok g1 /\ length (off g1) <= 1).
  { destruct Hm as [Hm|Hm].
    - rewrite Hm, up_top, (resize_to_none M true g d) by auto. eexists. split; [reflexivity|]. simpl. lia.
    - rewrite up_next by lia. rewrite Hm, resize_at_top by lia. eexists. split; [reflexivity|]. simpl. lia. }
  destruct Hr as (g1 & -> & Hl). cbn [bind]. rewrite list_of_none by auto. reflexivity.
Qed.

Section SparseTopFacts.
  Context {V : Type}.
  Variables (vzero : V) (M : nat) (dbg : bool) (stray : option nat).
  Implicit Types (m : smat V).

  Lemma s_resize_agrees m r c : r < M -> s_resize_top vzero M m r c = s_resize vzero M m r c.
  Proof. intro H. unfold s_resize_top, s_resize. rewrite up_next by auto. reflexivity. Qed.

  Lemma s_resize_at_top m c : s_rows m < M -> csize m <= c -> s_resize_top vzero M m M c = Ok (mkS [] (cidx m) (vals m) c).
  Proof.
    intros H Hc. unfold s_resize_top. destruct (Nat.ltb_spec M (s_rows m)); [lia|]. cbn [bind].
    assert (Hb : exists x, (match rnz m with [] => Ok 0 | _ => vback (rnz m) end) = Ok x).
    { destruct (rnz m) as [|o os] eqn:E; [eauto|]. unfold vback, vget.
      destruct (nth_error (o :: os) (length (o :: os) - 1)) eqn:En; [eauto|].
      apply nth_error_None in En. cbn [length] in En. lia. }
    destruct Hb as (x & ->). cbn [bind csize]. rewrite up_top. destruct (Nat.ltb_spec c (csize m)); [lia|]. reflexivity.
  Qed.

  Lemma top_no_invariant m c : cidx m <> [] -> ~ csr_invariant (mkS [] (cidx m) (vals m) c).
  Proof. intros H [[(_ & Hc & _)|(Hr & _)] _]; cbn in *; contradiction. Qed.

  Lemma shape_top_none c : s_rows (shape_top (V := V) M M c) = 0.
  Proof. unfold s_rows, shape_top. cbn [rnz]. rewrite up_top. reflexivity. Qed.

  Lemma shape_below r c : r < M -> s_rows (shape_top (V := V) M r c) = r /\ csize (shape_top (V := V) M r c) = c.
  Proof.
    intro H. unfold s_rows, shape_top. cbn [rnz csize]. rewrite up_next by auto. split; [|reflexivity].
    destruct (repeat 0 (r + 1)) eqn:E; rewrite <- ?E, ?repeat_length; [|lia].
    apply (f_equal (@length nat)) in E. rewrite repeat_length in E. simpl in E. lia.
  Qed.

  Lemma s_insert_agrees m i j v : swf m -> s_rows m < M -> i + 1 < M -> j < M ->
    s_insert_top vzero M dbg stray m i j v = s_insert vzero M dbg stray m i j v.
  Proof.
    intros (rs & H & Hok) Hr Hi Hj. unfold s_insert_top, s_insert.
    rewrite (up_next M i), (up_next M j) by lia. rewrite s_resize_agrees by lia.
    destruct (if s_rows m <=? i then s_resize vzero M m (i + 1) (csize m) else Ok m) as [m1| | |] eqn:E1; try reflexivity.
    cbn [bind].
    assert (Hm1 : exists rs1, srepr m1 rs1 /\ i < s_rows m1 < M).
    { destruct (Nat.leb_spec (s_rows m) i).
      - destruct (s_resize_ok vzero M m rs (i + 1) (csize m) H) as (m' & E & Hr' & _). rewrite E in E1. injection E1 as <-.
        eexists. split; [exact Hr'|]. rewrite (srepr_rows _ _ Hr'), resize_rows_length. lia.
      - injection E1 as <-. exists rs. split; auto. }
    destruct Hm1 as (rs1 & Hr1 & Hi1). rewrite s_resize_agrees by lia.
    destruct (if csize m1 <=? j then s_resize vzero M m1 (s_rows m1) (j + 1) else Ok m1) as [m2| | |] eqn:E2; try reflexivity.
    cbn [bind].
    assert (Hi2 : i < s_rows m2).
    { destruct (csize m1 <=? j).
      - destruct (s_resize_ok vzero M m1 rs1 (s_rows m1) (j + 1) Hr1) as (m' & E & Hr' & _). rewrite E in E2. injection E2 as <-.
        rewrite (srepr_rows _ _ Hr'), resize_rows_length. lia.
      - injection E2 as <-. lia. }
    assert (Hre : row_end_top M stray m2 i = row_end stray m2 i).
    { unfold row_end_top, row_end. rewrite up_next by lia. reflexivity. }
    rewrite Hre.
    assert (Hl : forall it, s_lower_bound stray m2 i j = Ok it -> fst it = i).
    { intros it E. unfold s_lower_bound in E. destruct (Nat.ltb_spec i (s_rows m2)); [|lia].
      destruct (vget (rnz m2) i) as [b| | |]; try discriminate. cbn [bind] in E.
      destruct (vget (rnz m2) (i + 1)) as [e| | |]; try discriminate. cbn [bind] in E.
      destruct (vrange (cidx m2) b e); try discriminate. cbn [bind] in E. injection E as <-. reflexivity. }
    destruct (s_lower_bound stray m2 i j) as [it| | |]; try reflexivity. cbn [bind].
    rewrite (up_next M (fst it)) by (rewrite (Hl it eq_refl); lia). reflexivity.
  Qed.

  Lemma no_rows_nothing m p q x : s_rows m = 0 -> ~ stored m p q x.
  Proof. intros H [Hp _]. lia. Qed.

  Lemma rows_le_length m : s_rows m <= length (rnz m).
  Proof. unfold s_rows. destruct (rnz m); simpl; lia. Qed.

  (** The matrix as it is after the two resizes of an insert at one of the two last rows. *)
  Lemma top_row_resized m i j : 0 < M -> swf m -> s_rows m <= i -> i = M \/ i + 1 = M ->
    exists m2, (do m1 <- (if s_rows m <=? i then s_resize_top vzero M m (up M i) (csize m) else Ok m);
                if csize m1 <=? j then s_resize_top vzero M m1 (s_rows m1) (up M j) else Ok m1) = Ok m2 /\
               length (rnz m2) <= 1 /\ (i = M -> rnz m2 = [0] /\ cidx m2 = [] /\ vals m2 = []).
  Proof.
    intros HM (rs & H & Hok) Hs Hi. destruct (Nat.leb_spec (s_rows m) i); [|lia].
    assert (H1 : exists m1, s_resize_top vzero M m (up M i) (csize m) = Ok m1 /\ s_rows m1 = 0 /\ length (rnz m1) <= 1 /\
               (i = M -> srepr m1 [] /\ rnz m1 = [0])).
    { destruct Hi as [->|Hi].
      - rewrite up_top, s_resize_agrees by auto. destruct (s_resize_ok vzero M m rs 0 (csize m) H) as (m1 & E & Hr & _ & Hn).
        exists m1. split; [exact E|]. unfold resize_rows in Hr. destruct (Nat.ltb_spec (csize m) (csize m)); [lia|].
        cbn in Hr. split; [exact (srepr_rows _ _ Hr)|]. assert (E0 : rnz m1 = [0]).
        { destruct Hr as [[Hr|[Hr _]] _]; [exact Hr|contradiction]. }
        rewrite E0. split; [simpl; lia|]. intros _. split; [exact Hr|reflexivity].
      - rewrite up_next, Hi by lia. unfold s_resize_top. destruct (Nat.ltb_spec M (s_rows m)); [lia|]. cbn [bind].
        assert (Hb : exists x, (match rnz m with [] => Ok 0 | _ => vback (rnz m) end) = Ok x).
        { destruct (rnz m) as [|o os] eqn:E; [eauto|]. unfold vback, vget.
          destruct (nth_error (o :: os) (length (o :: os) - 1)) eqn:En; [eauto|].
          apply nth_error_None in En. cbn [length] in En. lia. }
        destruct Hb as (x & ->). cbn [bind csize]. rewrite up_top. destruct (Nat.ltb_spec (csize m) (csize m)); [lia|]. cbn [bind].
        eexists. split; [reflexivity|]. cbn. split; [reflexivity|]. split; [lia|]. intro; lia. }
    destruct H1 as (m1 & -> & Hr1 & Hl1 & H1). cbn [bind].
    destruct (csize m1 <=? j); [|exists m1; split; [reflexivity|]; split; [auto|]; intro E; destruct (H1 E) as [Hr Hz];
      destruct Hr as (_ & Hc & Hv); cbn in Hc, Hv; auto].
    rewrite Hr1. unfold s_resize_top. rewrite Hr1. destruct (Nat.ltb_spec 0 0); [lia|]. cbn [bind].
    assert (Hb : exists x, (match rnz m1 with [] => Ok 0 | _ => vback (rnz m1) end) = Ok x /\ (i = M -> x = 0)).
    { destruct (rnz m1) as [|o [|o' os]] eqn:E; [eauto| |simpl in Hl1; lia].
      exists o. split; [reflexivity|]. intro Ei. destruct (H1 Ei) as [_ Ez]. injection Ez as ->. reflexivity. }
    destruct Hb as (x & -> & Hx). cbn [bind csize rnz cidx vals]. rewrite (up_next M 0) by auto. cbn [Nat.add].
    assert (Hlen : length (vresize (rnz m1) 1 x) = 1) by (rewrite vresize_length; reflexivity).
    assert (Hz : s_rows (mkS (vresize (rnz m1) 1 x) (cidx m1) (vals m1) (csize m1)) = 0).
    { unfold s_rows. cbn [rnz]. destruct (vresize (rnz m1) 1 x); [reflexivity|]. lia. }
    rewrite Hz. unfold FOR. cbn [seq forM bind fst].
    destruct (up M j <? csize m1); cbn [bind fst rnz cidx vals]; eexists; (split; [reflexivity|]); cbn [rnz cidx vals]; (split; [rewrite Hlen; lia|]);
      intro Ei; destruct (H1 Ei) as [(_ & Hc & Hv) Hz1]; cbn in Hc, Hv; rewrite Hz1, (Hx Ei); auto.
  Qed.

  Lemma s_insert_top_row m i j v : 0 < M -> swf m -> s_rows m <= i -> i = M \/ i + 1 = M ->
    (stray = None -> s_insert_top vzero M dbg stray m i j v = Undef) /\
    (dbg = true -> s_insert_top vzero M dbg stray m i j v = Undef \/ s_insert_top vzero M dbg stray m i j v = Abort) /\
    (forall m' it b, s_insert_top vzero M dbg stray m i j v = Ok (m', it, b) -> forall p q x, ~ stored m' p q x).
  Proof.
    intros HM Hw Hs Hi. destruct (top_row_resized m i j HM Hw Hs Hi) as (m2 & E & Hl & Hz).
    assert (Hr0 : s_rows m2 = 0).
    { unfold s_rows. destruct (rnz m2) as [|o [|o' os]]; simpl in *; lia. }
    assert (E' : s_insert_top vzero M dbg stray m i j v =
      (do it <- s_lower_bound stray m2 i j;
       do _ <- row_check dbg m2 i;
       do e <- row_end_top M stray m2 i;
       do new <- (if eit_eqb it e then Ok true
                  else do c <- i_column m2 it; Ok (negb (c =? j)));
       if new then
         do z <- vadd_range (rnz m2) (up M (fst it)) (length (rnz m2)) 1;
         do ci <- vinsert (cidx m2) (snd it) j;
         do vs <- vinsert (vals m2) (snd it) v;
         Ok (mkS z ci vs (csize m2), (i, snd it), true)
       else Ok (m2, it, false))).
    { unfold s_insert_top. destruct (if s_rows m <=? i then s_resize_top vzero M m (up M i) (csize m) else Ok m) as [m1| | |]; try discriminate.
      cbn [bind] in E |- *. rewrite E. reflexivity. }
    rewrite E'. clear E'. unfold s_lower_bound. rewrite Hr0. destruct (Nat.ltb_spec i 0); [lia|].
    unfold row_end. destruct (Nat.ltb_spec (0 + 1) (length (rnz m2))); [lia|].
    unfold row_check. rewrite Hr0. destruct (Nat.ltb_spec i 0); [lia|].
    split; [intros ->; reflexivity|]. split; [intros ->; destruct stray; [right|left]; reflexivity|].
    intros m' it b. destruct stray as [x|]; [|discriminate]. cbn [bind]. destruct dbg; [discriminate|]. cbn [ASSERT_DEBUG bind].
    destruct (row_end_top M (Some x) m2 i) as [e| | |]; try discriminate. cbn [bind fst snd].
    destruct (if eit_eqb (0, x) e then Ok true else do c <- i_column m2 (0, x); Ok (negb (c =? j))) as [nw| | |]; try discriminate.
    cbn [bind]. destruct nw.
    - unfold vadd_range. rewrite up_next by auto. destruct ((0 + 1 <=? length (rnz m2)) && (length (rnz m2) <=? length (rnz m2))); [|discriminate].
      cbn [bind]. destruct (vinsert (cidx m2) x j) as [ci| | |]; try discriminate. cbn [bind].
      destruct (vinsert (vals m2) x v) as [vs| | |]; try discriminate. cbn [bind]. intro Eq. injection Eq as <- _ _.
      intros p q y. apply no_rows_nothing. unfold s_rows. cbn [rnz].
      match goal with |- match ?l with _ => _ end = 0 => assert (Hlen : length l <= 1) end.
      { unfold slice. rewrite !app_length, map_length. repeat (rewrite ?firstn_length, ?skipn_length).
        destruct (rnz m2); simpl in *; lia. }
      match goal with |- match ?l with _ => _ end = 0 => destruct l as [|? [|? ?]]; simpl in *; lia end.
    - intro Eq. injection Eq as <- _ _. intros p q y. apply no_rows_nothing. exact Hr0.
  Qed.

  (** The first of the two resizes has dropped every entry when the row is the largest index. *)
  Lemma s_resize_wrapped m c : 0 < M -> swf m -> exists m', s_resize_top vzero M m (up M M) c = Ok m' /\ cidx m' = [] /\ vals m' = [].
  Proof.
    intros HM (rs & H & _). rewrite up_top, s_resize_agrees by auto.
    destruct (s_resize_ok vzero M m rs 0 c H) as (m' & E & Hr & _). exists m'. split; [exact E|].
    unfold resize_rows in Hr. cbn [firstn map Nat.sub repeat] in Hr.
    assert (Hn : (if c <? csize m then [] else []) ++ [] = @nil (list (nat * V))) by (destruct (c <? csize m); reflexivity).
    rewrite Hn in Hr. destruct Hr as (_ & Hc & Hv). auto.
  Qed.

  Lemma s_insert_top_column m i v : 0 < M -> swf m -> s_rows m < M -> i < s_rows m -> csize m <= M ->
    exists m' it, s_insert_top vzero M dbg stray m i M v = Ok (m', it, true) /\ csize m' = 0 /\ s_rows m' = s_rows m /\
      (forall p q x, stored m' p q x <-> stored m p q x \/ p = i /\ q = M /\ x = v) /\ ~ swf m'.
  Proof.
    intros HM (rs & H & Hok) Hr Hi Hc. unfold s_insert_top.
    destruct (Nat.leb_spec (s_rows m) i); [lia|]. cbn [bind]. destruct (Nat.leb_spec (csize m) M); [|lia].
    rewrite up_top, s_resize_agrees by auto.
    destruct (s_resize_ok vzero M m rs (s_rows m) 0 H) as (m2 & E2 & Hr2 & Hc2 & _). rewrite E2. cbn [bind].
    assert (Hrows : resize_rows M (csize m) (s_rows m) 0 rs = rs).
    { unfold resize_rows. rewrite (srepr_rows _ _ H), Nat.sub_diag, firstn_all. cbn [repeat dec_wrap]. rewrite app_nil_r.
      destruct (0 <? csize m); [|reflexivity]. rewrite <- (map_id rs) at 2. apply map_ext_in. intros r Hin. apply cutw_all.
      intros j Hj. destruct (In_nth _ _ [] Hin) as (k & Hk & Ek). destruct (Hok k Hk) as [_ Hb]. rewrite Ek in Hb. specialize (Hb j Hj). lia. }
    rewrite Hrows in Hr2.
    (* the rest of insert is that of a matrix with room for the column *)
    set (mw := mkS (rnz m2) (cidx m2) (vals m2) (M + 1)).
    assert (Hw : srepr mw rs) by exact Hr2.
    assert (Hwok : srows_ok (csize mw) rs) by (apply srows_ok_weaken with (csize m); [exact Hok|simpl; lia]).
    assert (Hrw : s_rows mw = s_rows m) by (rewrite (srepr_rows _ _ Hw), (srepr_rows _ _ H); reflexivity).
    destruct (s_insert_ok vzero M dbg stray mw rs i M v Hw Hwok) as (m' & b & E & Hcs & Hb).
    assert (Hno : ~ In M (map fst (nth i rs []))).
    { intro Hin. rewrite (srepr_rows _ _ H) in Hi. destruct (Hok i Hi) as [_ Hbd]. specialize (Hbd M Hin). lia. }
    destruct b; [|destruct Hb as [Hin _]; contradiction]. destruct Hb as [_ Hb].
    set (it := (i, start rs i + lbound (map fst (nth i rs [])) M)) in *.
    assert (Hi' : i < length rs) by (rewrite <- (srepr_rows _ _ H); exact Hi).
    unfold s_insert in E. rewrite Hrw in E. destruct (Nat.leb_spec (s_rows m) i); [lia|]. cbn [bind] in E.
    destruct (Nat.leb_spec (csize mw) M) as [Hx|_]; [simpl in Hx; lia|]. cbn [bind] in E.
    assert (Hlb : s_lower_bound stray m2 i M = s_lower_bound stray mw i M) by reflexivity.
    assert (Hrc : row_check dbg m2 i = row_check dbg mw i) by reflexivity.
    assert (Hre : row_end_top M stray m2 i = row_end stray mw i).
    { unfold row_end_top, row_end. rewrite up_next by lia. reflexivity. }
    rewrite Hlb, Hrc, Hre.
    rewrite (s_lower_bound_ok stray _ _ _ _ Hw Hi') in E |- *. cbn [bind] in E |- *. fold it in E |- *.
    rewrite (row_check_ok dbg _ _ _ Hw Hi') in E |- *. cbn [bind] in E |- *.
    destruct (row_end stray mw i) as [e| | |]; try discriminate. cbn [bind] in E |- *.
    change (i_column m2 it) with (i_column mw it).
    destruct (if eit_eqb it e then Ok true else do c <- i_column mw it; Ok (negb (c =? M))) as [nw| | |]; try discriminate.
    cbn [bind] in E |- *. destruct nw; [|discriminate].
    change (fst it) with i in E |- *. rewrite up_next by lia. cbn [mw rnz cidx vals csize] in E.
    destruct (vadd_range (rnz m2) (i + 1) (length (rnz m2)) 1) as [z| | |]; try discriminate. cbn [bind] in E |- *.
    destruct (vinsert (cidx m2) (snd it) M) as [ci| | |]; try discriminate. cbn [bind] in E |- *.
    destruct (vinsert (vals m2) (snd it) v) as [vs| | |]; try discriminate. cbn [bind] in E |- *.
    injection E as Em.
    exists (mkS z ci vs (csize m2)), (i, snd it). split; [reflexivity|]. split; [exact Hc2|].
    assert (Hst : forall p q x, stored (mkS z ci vs (csize m2)) p q x <-> stored m' p q x).
    { rewrite <- Em. intros p q x. unfold stored. cbn. tauto. }
    assert (Hall : forall p q x, stored (mkS z ci vs (csize m2)) p q x <-> stored m p q x \/ p = i /\ q = M /\ x = v).
    { intros p q x. rewrite Hst, (srepr_stored _ _ _ _ _ Hb), (srepr_stored _ _ _ _ _ H), (insert_rows_stored _ _ _ _ _ _ _ Hok Hno).
      split; [intros [[-> Ex]|Hin]; [right; injection Ex as -> ->; auto|auto]|intros [Hin|(-> & -> & ->)]; auto]. }
    split; [|split; [exact Hall|]].
    - change (s_rows (mkS z ci vs (csize m2))) with (s_rows (mkS z ci vs (M + 1))). rewrite Em.
      rewrite (srepr_rows _ _ Hb), insert_rows_length, (srepr_rows _ _ H). lia.
    - intros (rs' & Hr' & Hok'). assert (Hs : stored (mkS z ci vs (csize m2)) i M v) by (apply Hall; auto).
      apply (srepr_stored _ _ _ _ _ Hr') in Hs. pose proof (In_nth_rows _ _ _ Hs) as Hlt. destruct (Hok' i Hlt) as [_ Hbd].
      apply (in_map fst) in Hs. specialize (Hbd _ Hs). cbn [csize] in Hbd. lia.
  Qed.

  Lemma matrix_below m i j v r c : swf m -> s_rows m < M -> i + 1 < M -> j < M -> r < M ->
    s_insert_top vzero M dbg stray m i j v = s_insert vzero M dbg stray m i j v /\
    s_resize_top vzero M m r c = s_resize vzero M m r c /\
    s_rows (shape_top (V := V) M r c) = r.
  Proof.
    intros Hw Hm Hi Hj Hr. split; [exact (s_insert_agrees m i j v Hw Hm Hi Hj)|]. split; [exact (s_resize_agrees m r c Hr)|].
    exact (proj1 (shape_below r c Hr)).
  Qed.

  Lemma shape_top_facts m c : s_rows m < M -> csize m <= c ->
    s_rows (shape_top (V := V) M M c) = 0 /\
    s_resize_top vzero M m M c = Ok (mkS [] (cidx m) (vals m) c) /\
    (cidx m <> [] -> ~ csr_invariant (mkS [] (cidx m) (vals m) c)).
  Proof.
    intros H Hc. split; [apply shape_top_none|]. split; [exact (s_resize_at_top m c H Hc)|]. exact (top_no_invariant m c).
  Qed.
End SparseTopFacts.
