(** Lemmas behind C105. *)
From Coq Require Import ZArith.
From Verif Require Import Base ListFacts Csr SparseModel SparseSpec SparseFacts SparseSeq SparseInsert CsrDataModel CsrData
  PropSparseLemmas PropCsrDataLemmas AliasModel.

(** The reference is not one to the number of columns. *)
Definition stable (r : iref) : Prop := r <> RColumns.

Section Alias.
  Context {V : Type}.
  Variables (vzero : V) (M : nat).
  Implicit Types (m : smat V).

  Lemma grow_resize m r c : s_rows m <= r -> csize m <= c -> forall m', s_resize vzero M m r c = Ok m' ->
    cidx m' = cidx m /\ vals m' = vals m /\ csize m' = c.
  Proof using.
    intros Hr Hc m'. unfold s_resize. destruct (Nat.ltb_spec r (s_rows m)); [lia|]. cbn [bind].
    destruct (match rnz m with [] => Ok 0 | _ => vback (rnz m) end) as [d| | |]; cbn [bind]; try discriminate.
    cbn [csize]. destruct (Nat.ltb_spec c (csize m)); [lia|]. cbn [bind]. intro E. injection E as <-. cbn. auto.
  Qed.

  Lemma iread_same r m m' : stable r -> cidx m' = cidx m -> iread r m' = iread r m.
  Proof using. unfold iread. intros H E. destruct r; [reflexivity|congruence|rewrite E; reflexivity]. Qed.
  Lemma iread_same_columns r m m' : csize m' = csize m -> cidx m' = cidx m -> iread r m' = iread r m.
  Proof using. unfold iread. intros H E. destruct r; rewrite ?H, ?E; reflexivity. Qed.
  Lemma vread_same (r : vref V) m m' : vals m' = vals m -> vread r m' = vread r m.
  Proof using. unfold vread. intros E. destruct r; [|rewrite E]; reflexivity. Qed.

  Lemma grown_rows m i m1 : (if s_rows m <=? i then s_resize vzero M m (i + 1) (csize m) else Ok m) = Ok m1 ->
    cidx m1 = cidx m /\ vals m1 = vals m /\ csize m1 = csize m.
  Proof using.
    destruct (Nat.leb_spec (s_rows m) i); intro E; [|injection E as <-; auto].
    apply (grow_resize m (i + 1) (csize m)); auto; lia.
  Qed.

  Lemma grown_columns m j m1 : (if csize m <=? j then s_resize vzero M m (s_rows m) (j + 1) else Ok m) = Ok m1 ->
    cidx m1 = cidx m /\ vals m1 = vals m /\ (j < csize m -> csize m1 = csize m).
  Proof using.
    destruct (Nat.leb_spec (csize m) j); intro E; [|injection E as <-; auto].
    destruct (grow_resize m (s_rows m) (j + 1) ltac:(lia) ltac:(lia) m1 E) as (-> & -> & ->). repeat split. lia.
  Qed.

  Lemma csr_insert_ref m ri rj rv i j v : iread ri m = Ok i -> iread rj m = Ok j -> vread rv m = Ok v ->
    stable ri /\ stable rj \/ j < csize m -> c_insert_ref vzero M m ri rj rv = c_insert vzero M m i j v.
  Proof using.
    intros Ei Ej Ev Hs. unfold c_insert_ref, c_insert. rewrite Ei. cbn [bind].
    change (c_size_row m) with (s_rows m). change (c_size_column m) with (csize m). change (c_resize vzero M) with (s_resize vzero M).
    destruct (if s_rows m <=? i then s_resize vzero M m (i + 1) (csize m) else Ok m) as [m1| | |] eqn:E1; cbn [bind]; try reflexivity.
    apply grown_rows in E1 as (C1 & V1 & Z1). rewrite (iread_same_columns rj m m1 Z1 C1), Ej. cbn [bind].
    change (c_size_row m1) with (s_rows m1). change (c_size_column m1) with (csize m1).
    destruct (if csize m1 <=? j then s_resize vzero M m1 (s_rows m1) (j + 1) else Ok m1) as [m2| | |] eqn:E2; cbn [bind]; try reflexivity.
    apply grown_columns in E2 as (C2 & V2 & Z2).
    assert (Hm : forall r k, stable r \/ j < csize m -> iread r m = Ok k -> iread r m2 = Ok k).
    { intros r k [H|H] <-; [apply iread_same; [exact H|congruence]|apply iread_same_columns; [rewrite Z2; lia|congruence]]. }
    rewrite (Hm ri i), (Hm rj j) by (auto; tauto). cbn [bind].
    rewrite (vread_same rv m m2) by congruence. rewrite Ev. cbn [bind].
    destruct (c_lower_bound m2 i j) as [it| | |]; cbn [bind]; try reflexivity.
  Qed.

  (** Appending a column with the member columns as the index. *)
  Lemma columns_insert m i rv v : swf m -> vread rv m = Ok v ->
    exists m' it, c_insert_ref vzero M m (RVal i) RColumns rv = Ok (m', it, true) /\
      csize m' = csize m + 1 /\ stored m' i (csize m + 1) v /\ ~ stored m' i (csize m) v /\ ~ swf m'.
  Proof using.
    intros Hw Ev. pose proof Hw as (rs & H & Hok).
    destruct (s_insert_ok vzero M false None m rs i (csize m + 1) v H Hok) as (m'' & b & E & Ec & Hb).
    assert (Hn : ~ In (csize m + 1) (map fst (nth i rs []))).
    { intro Hin. destruct (Nat.lt_ge_cases i (length rs)) as [Hi|Hi].
      - apply Hok in Hin; [lia|exact Hi].
      - rewrite nth_overflow in Hin by exact Hi. destruct Hin. }
    destruct b; [|destruct Hb; contradiction]. destruct Hb as [_ Hr].
    rewrite <- c_insert_eq in E by exact Hw.
    assert (R : c_insert_ref vzero M m (RVal i) RColumns rv =
      Ok (mkS (rnz m'') (cidx m'') (vals m'') (csize m + 1), (i, start rs i + lbound (map fst (nth i rs [])) (csize m + 1)), true)).
    { revert E. unfold c_insert_ref, c_insert. cbn [iread bind].
      change (c_size_row m) with (s_rows m). change (c_size_column m) with (csize m). change (c_resize vzero M) with (s_resize vzero M).
      destruct (if s_rows m <=? i then s_resize vzero M m (i + 1) (csize m) else Ok m) as [m1| | |] eqn:E1; cbn [bind]; try discriminate.
      apply grown_rows in E1 as (C1 & V1 & Z1).
      change (c_size_row m1) with (s_rows m1). change (c_size_column m1) with (csize m1). rewrite Z1.
      rewrite (proj2 (Nat.leb_le (csize m) (csize m + 1))), Nat.leb_refl by lia.
      unfold s_resize. rewrite Nat.ltb_irrefl. cbn [bind].
      destruct (match rnz m1 with [] => Ok 0 | _ => vback (rnz m1) end) as [d| | |]; cbn [bind]; try discriminate.
      cbn [csize]. rewrite Z1. rewrite (proj2 (Nat.ltb_ge (csize m + 1 + 1) (csize m))), (proj2 (Nat.ltb_ge (csize m + 1) (csize m))) by lia.
      cbn [bind iread csize rnz cidx vals].
      rewrite (vread_same rv m) by (cbn [vals]; congruence). rewrite Ev. cbn [bind].
      unfold c_lower_bound, c_size_row. cbn [rnz cidx vals csize].
      intro E.
      match type of E with bind ?x _ = _ => destruct x as [it| | |]; cbn [bind] in E |- *; try discriminate E end.
      match type of E with bind ?x _ = _ => destruct x as [f| | |]; cbn [bind] in E |- *; try discriminate E end.
      destruct f; [discriminate E|].
      match type of E with bind ?x _ = _ => destruct x as [z| | |]; cbn [bind] in E |- *; try discriminate E end.
      match type of E with bind ?x _ = _ => destruct x as [ci| | |]; cbn [bind] in E |- *; try discriminate E end.
      match type of E with bind ?x _ = _ => destruct x as [vs| | |]; cbn [bind] in E |- *; try discriminate E end.
      injection E as <- Hi. cbn [rnz cidx vals]. rewrite Hi. reflexivity. }
    set (m' := mkS (rnz m'') (cidx m'') (vals m'') (csize m + 1)) in R.
    assert (Hr' : srepr m' (insert_rows i (csize m + 1) v rs)) by exact Hr.
    assert (St : stored m' i (csize m + 1) v).
    { apply (srepr_stored _ _ _ _ _ Hr'). apply (insert_rows_stored (csize m) i (csize m + 1) v rs i _ Hok Hn). auto. }
    exists m', (i, start rs i + lbound (map fst (nth i rs [])) (csize m + 1)). split; [exact R|]. split; [reflexivity|]. split; [exact St|]. split.
    - intro S'. apply (srepr_stored _ _ _ _ _ Hr') in S'.
      apply (insert_rows_stored (csize m) i (csize m + 1) v rs i _ Hok Hn) in S'. destruct S' as [[_ S']|S'].
      + injection S'. lia.
      + destruct (Nat.lt_ge_cases i (length rs)) as [Hi|Hi].
        * apply (in_map fst) in S'. apply Hok in S'; [cbn in S'; lia|exact Hi].
        * rewrite nth_overflow in S' by exact Hi. destruct S'.
    - intros (rs' & Hr2 & Hok2). apply (srepr_stored _ _ _ _ _ Hr2) in St.
      destruct (Nat.lt_ge_cases i (length rs')) as [Hi|Hi].
      + apply (in_map fst) in St. apply Hok2 in St; [cbn in St; lia|exact Hi].
      + rewrite nth_overflow in St by exact Hi. destruct St.
  Qed.

  (** Matrix_Sparse::insert *)
  Lemma insert_ref_gen dbg stray moved m ri rj rv i j v : iread ri m = Ok i -> iread rj m = Ok j -> vread rv m = Ok v ->
    stable ri /\ stable rj \/ j < csize m ->
    s_insert_ref vzero M dbg stray moved m ri rj rv =
    (do r <- s_insert vzero M dbg stray m i j v;
     let '(m', it, b) := r in
     if b then do r <- (match ri with RColumn _ => if moved then Undef else iread ri m' | _ => Ok i end); Ok (m', (r, snd it), true)
     else Ok (m', it, b)).
  Proof using.
    intros Ei Ej Ev Hs. unfold s_insert_ref, s_insert. rewrite Ei. cbn [bind].
    destruct (if s_rows m <=? i then s_resize vzero M m (i + 1) (csize m) else Ok m) as [m1| | |] eqn:E1; cbn [bind]; try reflexivity.
    apply grown_rows in E1 as (C1 & V1 & Z1). rewrite (iread_same_columns rj m m1 Z1 C1), Ej. cbn [bind].
    destruct (if csize m1 <=? j then s_resize vzero M m1 (s_rows m1) (j + 1) else Ok m1) as [m2| | |] eqn:E2; cbn [bind]; try reflexivity.
    apply grown_columns in E2 as (C2 & V2 & Z2).
    assert (Hm : forall r k, stable r \/ j < csize m -> iread r m = Ok k -> iread r m2 = Ok k).
    { intros r k [H|H] <-; [apply iread_same; [exact H|congruence]|apply iread_same_columns; [rewrite Z2; lia|congruence]]. }
    pose proof (Hm ri i ltac:(tauto) Ei) as Ri. rewrite Ri, (Hm rj j) by (auto; tauto). cbn [bind].
    rewrite (vread_same rv m m2) by congruence. rewrite Ev. cbn [bind].
    destruct (s_lower_bound stray m2 i j) as [it| | |]; cbn [bind]; try reflexivity.
    destruct (row_check dbg m2 i); cbn [bind]; try reflexivity.
    destruct (row_end stray m2 i) as [e| | |]; cbn [bind]; try reflexivity.
    match goal with |- bind ?x _ = _ => destruct x as [new| | |] end; cbn [bind]; try reflexivity.
    destruct new; cbn [bind]; [|reflexivity].
    destruct (vadd_range (rnz m2) (fst it + 1) (length (rnz m2)) 1) as [z| | |]; cbn [bind]; try reflexivity.
    destruct (vinsert (cidx m2) (snd it) j) as [ci| | |]; cbn [bind]; try reflexivity.
    destruct (vinsert (vals m2) (snd it) v) as [vs| | |]; cbn [bind]; try reflexivity.
    destruct ri as [k| |p]; cbn [iread bind csize snd fst] in *; try reflexivity.
    - injection Ei as ->. reflexivity.
    - injection Ri as ->. reflexivity.
  Qed.

  (** The column indices of the result of an insertion. *)
  Lemma insert_columns dbg stray m i j v m' it : swf m -> s_insert vzero M dbg stray m i j v = Ok (m', it, true) ->
    fst it = i /\ snd it <= length (cidx m) /\ cidx m' = list_insert (cidx m) (snd it) j.
  Proof using.
    intros (rs & H & Hok). unfold s_insert.
    destruct (if s_rows m <=? i then s_resize vzero M m (i + 1) (csize m) else Ok m) as [m1| | |] eqn:E1; cbn [bind]; try discriminate.
    apply grown_rows in E1 as (C1 & V1 & Z1).
    destruct (if csize m1 <=? j then s_resize vzero M m1 (s_rows m1) (j + 1) else Ok m1) as [m2| | |] eqn:E2; cbn [bind]; try discriminate.
    apply grown_columns in E2 as (C2 & V2 & Z2). rewrite C1 in C2. rewrite <- C2.
    destruct (s_lower_bound stray m2 i j) as [lb| | |]; cbn [bind]; try discriminate.
    destruct (row_check dbg m2 i); cbn [bind]; try discriminate.
    destruct (row_end stray m2 i) as [e| | |]; cbn [bind]; try discriminate.
    match goal with |- bind ?x _ = _ -> _ => destruct x as [new| | |] end; cbn [bind]; try discriminate.
    destruct new; cbn [bind]; [|discriminate].
    destruct (vadd_range (rnz m2) (fst lb + 1) (length (rnz m2)) 1) as [z| | |]; cbn [bind]; try discriminate.
    unfold vinsert at 1. destruct (Nat.leb_spec (snd lb) (length (cidx m2))) as [Hl|Hl]; cbn [bind]; try discriminate.
    destruct (vinsert (vals m2) (snd lb) v) as [vs| | |]; cbn [bind]; try discriminate.
    intro E. injection E as <- <-. cbn [fst snd cidx]. auto.
  Qed.

  Lemma insert_ref dbg stray m ri rj rv i j v : swf m ->
    iread ri m = Ok i -> iread rj m = Ok j -> vread rv m = Ok v -> stable ri /\ stable rj \/ j < csize m ->
    exists m' q b, s_insert vzero M dbg stray m i j v = Ok (m', (i, q), b) /\
      ((forall p, ri <> RColumn p) \/ b = false -> forall moved, s_insert_ref vzero M dbg stray moved m ri rj rv = Ok (m', (i, q), b)) /\
      (forall p, ri = RColumn p -> b = true ->
        s_insert_ref vzero M dbg stray true m ri rj rv = Undef /\
        exists r, s_insert_ref vzero M dbg stray false m ri rj rv = Ok (m', (r, q), true) /\
          nth_error (cidx m') p = Some r /\ (p < q -> r = i)).
  Proof using.
    intros Hw Ei Ej Ev Hs. pose proof Hw as (rs & H & Hok).
    destruct (s_insert_ok vzero M dbg stray m rs i j v H Hok) as (m' & b & E & _ & _).
    set (q := start rs i + lbound (map fst (nth i rs [])) j) in *.
    exists m', q, b. split; [exact E|]. split.
    - intros Hc moved. rewrite (insert_ref_gen dbg stray moved m ri rj rv i j v) by assumption. rewrite E. cbn [bind snd].
      destruct b; [|reflexivity]. destruct ri as [k| |p]; cbn [bind]; try reflexivity.
      destruct Hc as [Hc|Hc]; [exfalso; apply (Hc p); reflexivity|discriminate].
    - intros p -> ->. rewrite !(insert_ref_gen dbg stray _ m (RColumn p) rj rv i j v) by assumption. rewrite E. cbn [bind snd].
      split; [reflexivity|].
      destruct (insert_columns dbg stray m i j v m' (i, q) Hw E) as (_ & Hq & C). cbn [snd] in Hq, C.
      cbn [iread] in Ei |- *. unfold vget in Ei |- *.
      destruct (nth_error (cidx m) p) as [x|] eqn:Ep; [|discriminate]. injection Ei as ->.
      assert (Lp : p < length (cidx m)) by (apply nth_error_Some; congruence).
      assert (Ll : length (cidx m') = S (length (cidx m))).
      { rewrite C. unfold list_insert. rewrite app_length. cbn [length]. rewrite firstn_length, skipn_length. lia. }
      destruct (nth_error (cidx m') p) as [r|] eqn:Er; [|exfalso; apply nth_error_None in Er; lia].
      exists r. split; [reflexivity|]. split; [reflexivity|]. intro Hpq.
      rewrite C in Er. unfold list_insert in Er. rewrite nth_error_app1 in Er by (rewrite firstn_length; lia).
      rewrite nth_error_firstn in Er. destruct (Nat.ltb_spec p q); [|lia]. congruence.
  Qed.

  Lemma insert_or_assign_ref dbg stray moved m ri rj rv i j v : swf m ->
    iread ri m = Ok i -> iread rj m = Ok j -> vread rv m = Ok v -> stable ri /\ stable rj \/ j < csize m ->
    (forall p, ri <> RColumn p) \/ (exists w, stored m i j w) ->
    s_insert_or_assign_ref vzero M dbg stray moved m ri rj rv = s_insert_or_assign vzero M dbg stray m i j v.
  Proof using.
    intros Hw Ei Ej Ev Hs Hc. pose proof Hw as (rs & H & Hok).
    destruct (s_insert_ok vzero M dbg stray m rs i j v H Hok) as (m0 & b0 & E0 & _ & Hb0).
    destruct (insert_ref dbg stray m ri rj rv i j v Hw Ei Ej Ev Hs) as (m' & q & b & E & A & _).
    rewrite E in E0. injection E0 as <- _ <-.
    assert (Hc' : (forall p, ri <> RColumn p) \/ b = false).
    { destruct Hc as [Hc|(w & Hc)]; [left; exact Hc|right]. destruct b; [exfalso|reflexivity].
      destruct Hb0 as [Hn _]. apply Hn. apply (srepr_stored _ _ _ _ _ H) in Hc. apply (in_map fst) in Hc. exact Hc. }
    unfold s_insert_or_assign_ref, s_insert_or_assign. rewrite (A Hc' moved), E. cbn [bind].
    destruct b; [reflexivity|]. destruct Hb0 as [_ ->]. rewrite Ev. reflexivity.
  Qed.

  (** resize *)
  (** The element of the column indices referred to is not discarded with rows that are removed. *)
  Definition kept m r (ref : iref) : Prop := forall p, ref = RColumn p -> s_rows m <= r \/ p < nth r (rnz m) 0.

  Lemma resize_ref m rr rc r c : swf m -> iread rr m = Ok r -> iread rc m = Ok c -> kept m r rr -> kept m r rc ->
    (forall p, rc = RColumn p -> csize m <= c) ->
    s_resize_ref vzero M m rr rc = s_resize vzero M m r c.
  Proof using.
    intros Hw Er Ec Kr Kc Hg. unfold s_resize_ref, s_resize. rewrite Er. cbn [bind].
    assert (S : forall n ref k (vs : list V), r < s_rows m -> vget (rnz m) r = Ok n -> kept m r ref -> iread ref m = Ok k ->
      iread ref (mkS (rnz m) (vresize (cidx m) n 0) vs (csize m)) = Ok k).
    { intros n ref k vs Hr En K E. destruct ref as [x| |p]; cbn [iread csize cidx] in *; auto.
      destruct (K p eq_refl) as [L|L]; [lia|].
      unfold vget in En. destruct (nth_error (rnz m) r) as [n'|] eqn:En'; [|discriminate]. injection En as ->.
      rewrite (nth_error_nth _ _ 0 En') in L.
      unfold vget in E |- *. destruct (nth_error (cidx m) p) as [x|] eqn:Ex; [|discriminate].
      assert (Lp : p < length (cidx m)) by (apply nth_error_Some; congruence).
      unfold vresize. rewrite nth_error_app1 by (rewrite firstn_length; lia).
      rewrite nth_error_firstn. destruct (Nat.ltb_spec p n); [|lia]. rewrite Ex. exact E. }
    assert (T : forall m1, (if r <? s_rows m then
                do n <- vget (rnz m) r;
                Ok (mkS (rnz m) (vresize (cidx m) n 0) (vresize (vals m) n vzero) (csize m))
              else Ok m) = Ok m1 -> csize m1 = csize m /\ iread rr m1 = Ok r /\ iread rc m1 = Ok c).
    { intros m1. destruct (Nat.ltb_spec r (s_rows m)) as [Hr|Hr].
      - destruct (vget (rnz m) r) as [n| | |] eqn:En; cbn [bind]; try discriminate. intro E. injection E as <-. split; [reflexivity|].
        split; apply S; auto.
      - intro E. injection E as <-. auto. }
    replace (if r <? s_rows m then
                do n <- vget (rnz m) r;
                do r <- iread rr (mkS (rnz m) (vresize (cidx m) n 0) (vals m) (csize m));
                do k <- vget (rnz m) r;
                Ok (mkS (rnz m) (cidx (mkS (rnz m) (vresize (cidx m) n 0) (vals m) (csize m))) (vresize (vals m) k vzero) (csize m))
              else Ok m)
    with (if r <? s_rows m then
                do n <- vget (rnz m) r;
                Ok (mkS (rnz m) (vresize (cidx m) n 0) (vresize (vals m) n vzero) (csize m))
              else Ok m).
    2:{ destruct (Nat.ltb_spec r (s_rows m)) as [Hr|Hr]; [|reflexivity].
        destruct (vget (rnz m) r) as [n| | |] eqn:En; cbn [bind]; try reflexivity.
        rewrite (S n rr r (vals m) Hr eq_refl Kr Er). cbn [bind]. rewrite En. reflexivity. }
    destruct (if r <? s_rows m then _ else _) as [m1| | |]; cbn [bind]; try reflexivity.
    destruct (T m1 eq_refl) as (Z1 & R1 & C1). rewrite R1. cbn [bind].
    destruct (match rnz m1 with [] => Ok 0 | _ => vback (rnz m1) end) as [d| | |]; cbn [bind]; try reflexivity.
    set (m2 := mkS (vresize (rnz m1) (r + 1) d) (cidx m1) (vals m1) (csize m1)).
    assert (C2 : iread rc m2 = Ok c) by exact C1. rewrite C2. cbn [bind].
    destruct (Nat.ltb_spec c (csize m2)) as [Hc|Hc].
    - assert (Rv : rc = RVal c).
      { destruct rc as [k| |p].
        - cbn in Ec. injection Ec as ->. reflexivity.
        - cbn in C2. injection C2 as <-. unfold m2 in Hc. cbn in Hc. lia.
        - pose proof (Hg p eq_refl). cbn [csize m2] in Hc. lia. }
      subst rc. replace (FOR (s_rows m2) (resize_step_ref M (RVal c)) (m2, 0)) with (FOR (s_rows m2) (resize_col_step M c) (m2, 0)).
      2:{ apply FOR_ext. intros. reflexivity. }
      destruct (FOR (s_rows m2) (resize_col_step M c) (m2, 0)) as [s| | |]; reflexivity.
    - cbn [bind]. rewrite C2. reflexivity.
  Qed.
End Alias.

Lemma low_insert : let low := mkS [0; 0; 1] [0] [5%Z] 2 in swf low /\ iread (RColumn 0) low = Ok 0 /\
  s_insert 0%Z 100 false None low 0 1 7%Z = Ok (mkS [0; 1; 2] [1; 0] [7; 5]%Z 2, (0, 0), true) /\
  s_insert_ref 0%Z 100 false None false low (RColumn 0) (RVal 1) (VVal 7%Z) = Ok (mkS [0; 1; 2] [1; 0] [7; 5]%Z 2, (1, 0), true) /\
  s_insert_ref 0%Z 100 false None true low (RColumn 0) (RVal 1) (VVal 7%Z) = Undef.
Proof.
  cbv zeta. split; [|repeat split].
  exists [[]; [(0, 5%Z)]]. split; [split; [left; reflexivity|split; reflexivity]|].
  intros i Hi. cbn in Hi. destruct i as [|[|i]]; [| |lia]; (split; [repeat constructor|]; cbn; intros; lia).
Qed.

Lemma crossed_resize : let crossed := mkS [0; 1; 2] [1; 0] [5; 6]%Z 3 in swf crossed /\ iread (RColumn 0) crossed = Ok 1 /\
  s_resize 0%Z 100 crossed 2 1 = Ok (mkS [0; 0; 1] [0] [6%Z] 1) /\
  s_resize_ref 0%Z 100 crossed (RVal 2) (RColumn 0) = Ok (mkS [0; 0; 1] [0] [6%Z] 0) /\
  ~ swf (mkS [0; 0; 1] [0] [6%Z] 0).
Proof.
  cbv zeta. split; [|split; [|split; [|split]]]; try reflexivity.
  - exists [[(1, 5%Z)]; [(0, 6%Z)]]. split; [split; [left; reflexivity|split; reflexivity]|].
    intros i Hi. cbn in Hi. destruct i as [|[|i]]; [| |lia]; (split; [repeat constructor|]; cbn; intros; lia).
  - intros (rs & H & Hok).
    assert (St : stored (mkS [0; 0; 1] [0] [6%Z] 0) 1 0 6%Z) by (split; [cbn; lia|exists 0; cbn; repeat split; lia]).
    apply (srepr_stored _ _ _ _ _ H) in St.
    destruct (Nat.lt_ge_cases 1 (length rs)) as [Hi|Hi].
    + apply (in_map fst) in St. apply Hok in St; [cbn in St; lia|exact Hi].
    + rewrite nth_overflow in St by exact Hi. destruct St.
Qed.

Lemma references {V : Type} : forall (m : smat V),
  iread RColumns m = Ok (csize m) /\
  (forall p c, iread (RColumn p) m = Ok c <-> nth_error (cidx m) p = Some c) /\
  (forall p v, vread (VOwn p) m = Ok v <-> nth_error (vals m) p = Some v) /\
  (forall k, iread (RVal k) m = Ok k) /\ (forall v, vread (VVal v) m = Ok v).
Proof.
  intros m. repeat split; intros H; cbn in *; try reflexivity; unfold vget in *.
  - destruct (nth_error (cidx m) p); congruence.
  - now rewrite H.
  - destruct (nth_error (vals m) p); congruence.
  - now rewrite H.
Qed.
