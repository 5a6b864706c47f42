(** Insertion, assignment and erasure in a sparse matrix, on rows and on stored entries. *)
From Verif Require Import Base ListFacts Csr SparseModel SparseSpec SparseFacts SparseUpdate.

Section Insert.
  Context {V : Type}.
  Implicit Types (m : smat V) (rs : list (list (nat * V))) (r : list (nat * V)).

  Definition grow (n : nat) rs : list (list (nat * V)) := rs ++ repeat [] (n - length rs).
  Definition ins_row (r : list (nat * V)) (j : nat) (v : V) := list_insert r (lbound (map fst r) j) (j, v).
  Definition insert_rows (i j : nat) (v : V) rs := upd (grow (i + 1) rs) i (ins_row (nth i rs []) j v).
  Definition set_rows (i j : nat) (v : V) rs :=
    upd rs i (upd (nth i rs []) (lbound (map fst (nth i rs [])) j) (j, v)).
  Definition erase_rows (i j : nat) rs :=
    let k := lbound (map fst (nth i rs [])) j in
    upd rs i (firstn k (nth i rs []) ++ skipn (k + 1) (nth i rs [])).

  Lemma grow_length n rs : length (grow n rs) = Nat.max (length rs) n.
  Proof. unfold grow. rewrite app_length, repeat_length. lia. Qed.

  Lemma nth_repeat_nil {A} n i : nth i (repeat (@nil A) n) [] = [].
  Proof. revert i; induction n; intros [|i]; simpl; auto. Qed.

  Lemma grow_nth n rs i : nth i (grow n rs) [] = nth i rs [].
  Proof.
    unfold grow. destruct (Nat.lt_ge_cases i (length rs)).
    - apply app_nth1; auto.
    - rewrite app_nth2, nth_repeat_nil, nth_overflow by auto. reflexivity.
  Qed.

  Lemma grow_start n rs i : start (grow n rs) i = start rs i.
  Proof.
    unfold start, grow. rewrite firstn_app, concat_app, app_length.
    replace (length (concat (firstn (i - length rs) (repeat [] (n - length rs))))) with 0; [lia|].
    generalize (i - length rs), (n - length rs). intros a b. revert a; induction b; intros [|a]; simpl; auto.
  Qed.

  Lemma in_ins_row r j v x : In x (ins_row r j v) <-> x = (j, v) \/ In x r.
  Proof. apply In_list_insert. Qed.

  Lemma map_fst_ins_row r j v : map fst (ins_row r j v) = list_insert (map fst r) (lbound (map fst r) j) j.
  Proof. unfold ins_row, list_insert. rewrite map_app. cbn [map fst]. rewrite firstn_map, skipn_map. reflexivity. Qed.

  Lemma nth_upd_rows rs i x k : i < length rs -> nth k (upd rs i x) [] = if k =? i then x else nth k rs [].
  Proof. intro H. apply nth_upd. auto. Qed.

  Lemma insert_rows_nth i j v rs k :
    nth k (insert_rows i j v rs) [] = if k =? i then ins_row (nth i rs []) j v else nth k rs [].
  Proof.
    unfold insert_rows. rewrite nth_upd by (rewrite grow_length; lia). rewrite grow_nth. reflexivity.
  Qed.

  Lemma insert_rows_length i j v rs : length (insert_rows i j v rs) = Nat.max (length rs) (i + 1).
  Proof. unfold insert_rows. rewrite upd_length; rewrite grow_length; lia. Qed.

  Lemma insert_rows_ok c i j v rs : srows_ok c rs -> ~ In j (map fst (nth i rs [])) ->
    srows_ok (Nat.max c (j + 1)) (insert_rows i j v rs).
  Proof.
    intros Hok Hn k Hk. rewrite insert_rows_nth.
    assert (Hrow : forall k, ascending (map fst (nth k rs [])) /\ forall j, In j (map fst (nth k rs [])) -> j < c).
    { intro k'. destruct (Nat.lt_ge_cases k' (length rs)) as [H|H]; [apply Hok, H|].
      rewrite nth_overflow by auto. split; [constructor|intros ? []]. }
    destruct (Nat.eqb_spec k i) as [->|Hki].
    - rewrite map_fst_ins_row. split.
      + apply lbound_insert_ascending; auto. apply Hrow.
      + intros x Hx. apply In_list_insert in Hx as [->|Hx]; [lia|]. apply Hrow in Hx. lia.
    - split; [apply Hrow|]. intros x Hx. apply Hrow in Hx. lia.
  Qed.

  Lemma row_facts c rs i : srows_ok c rs ->
    ascending (map fst (nth i rs [])) /\ forall j, In j (map fst (nth i rs [])) -> j < c.
  Proof.
    intros Hok. destruct (Nat.lt_ge_cases i (length rs)) as [H|H]; [apply Hok, H|].
    rewrite nth_overflow by auto. split; [constructor|intros ? []].
  Qed.

  Lemma srows_ok_weaken c c' rs : srows_ok c rs -> c <= c' -> srows_ok c' rs.
  Proof.
    intros H Hc i Hi. destruct (H i Hi) as [Ha Hb]. split; auto.
    intros j Hj. apply Hb in Hj. lia.
  Qed.

  Lemma grow_ok c n rs : srows_ok c rs -> srows_ok c (grow n rs).
  Proof. intros H i Hi. rewrite grow_nth. apply row_facts, H. Qed.

  Lemma lbound_lt_In l j : ascending l -> In j l -> lbound l j < length l /\ nth_error l (lbound l j) = Some j.
  Proof.
    intros Ha Hin. apply (lbound_nth l j Ha) in Hin. split; auto. eapply nth_error_lt_Some; eauto.
  Qed.

  Lemma lbound_entry r j v : ascending (map fst r) -> In (j, v) r ->
    nth_error r (lbound (map fst r) j) = Some (j, v).
  Proof.
    intros Ha Hin. destruct (lbound_lt_In (map fst r) j Ha) as [Hlt Hn].
    { apply (in_map fst) in Hin. exact Hin. }
    rewrite nth_error_map' in Hn. destruct (nth_error r (lbound (map fst r) j)) as [[a b]|] eqn:E; [|discriminate].
    simpl in Hn. injection Hn as ->. f_equal. f_equal.
    eapply row_unique; eauto. eapply nth_error_In; eauto.
  Qed.

  Variables (vzero : V) (M : nat) (dbg : bool) (stray : option nat).

  Lemma row_check_ok m rs i : srepr m rs -> i < length rs -> row_check dbg m i = Ok tt.
  Proof.
    intros H Hi. unfold row_check. rewrite (srepr_rows _ _ H).
    destruct (Nat.ltb_spec i (length rs)); [|lia]. destruct dbg; reflexivity.
  Qed.

  (** Testing whether the lower bound designates an entry in column [j]. *)
  Lemma lower_test m rs i j : srepr m rs -> srows_ok (csize m) rs -> i < length rs ->
    (if eit_eqb (i, start rs i + lbound (map fst (nth i rs [])) j) (i, start rs (i + 1)) then Ok true
     else do c <- i_column m (i, start rs i + lbound (map fst (nth i rs [])) j); Ok (negb (c =? j)))
    = Ok (if in_dec Nat.eq_dec j (map fst (nth i rs [])) then false else true).
  Proof.
    intros H Hok Hi. destruct (Hok i Hi) as [Ha _].
    rewrite eit_eqb_pos, start_S' by auto.
    set (r := nth i rs []) in *. set (k := lbound (map fst r) j).
    pose proof (lbound_le (map fst r) j) as Hle. rewrite map_length in Hle. fold k in Hle.
    destruct (in_dec Nat.eq_dec j (map fst r)) as [Hin|Hn].
    - destruct (lbound_lt_In _ _ Ha Hin) as [Hlt Hnth]. rewrite map_length in Hlt. fold k in Hlt, Hnth.
      destruct (Nat.eqb_spec (start rs i + k) (start rs i + length r)); [lia|].
      unfold i_column, vget. cbn [snd]. rewrite (srepr_cidx_nth m rs) by auto.
      fold r. rewrite nth_error_map' in Hnth. rewrite Hnth. cbn [bind]. rewrite Nat.eqb_refl. reflexivity.
    - destruct (Nat.eqb_spec (start rs i + k) (start rs i + length r)) as [E|E]; [reflexivity|].
      unfold i_column, vget. cbn [snd]. rewrite (srepr_cidx_nth m rs) by (auto; fold r; lia).
      fold r. destruct (nth_error r k) as [[a b]|] eqn:Ek.
      + cbn [option_map fst bind]. destruct (Nat.eqb_spec a j) as [->|]; auto.
        exfalso. apply Hn. apply nth_error_In, (in_map fst) in Ek. exact Ek.
      + apply nth_error_None in Ek. lia.
  Qed.

  Lemma s_insert_ok m rs i j v : srepr m rs -> srows_ok (csize m) rs ->
    exists m' b,
      s_insert vzero M dbg stray m i j v =
        Ok (m', (i, start rs i + lbound (map fst (nth i rs [])) j), b) /\
      csize m' = Nat.max (csize m) (j + 1) /\
      (if b then ~ In j (map fst (nth i rs [])) /\ srepr m' (insert_rows i j v rs)
       else In j (map fst (nth i rs [])) /\ m' = m).
  Proof.
    intros H Hok. unfold s_insert.
    assert (H1 : exists m1, (if s_rows m <=? i then s_resize vzero M m (i + 1) (csize m) else Ok m) = Ok m1 /\
              srepr m1 (grow (i + 1) rs) /\ csize m1 = csize m /\ (i < length rs -> m1 = m)).
    { rewrite (srepr_rows _ _ H). destruct (Nat.leb_spec (length rs) i) as [Hle|Hlt].
      - destruct (s_resize_ok vzero M m rs (i + 1) (csize m) H) as (m1 & E & Hr & Hc & _).
        exists m1. split; auto. split; [|split; auto; lia].
        unfold resize_rows in Hr. destruct (Nat.ltb_spec (csize m) (csize m)); [lia|].
        rewrite firstn_all2 in Hr by lia. exact Hr.
      - exists m. split; auto. split; auto. unfold grow.
        replace (i + 1 - length rs) with 0 by lia. cbn [repeat]. rewrite app_nil_r. auto. }
    destruct H1 as (m1 & E1 & Hm1 & Hc1 & Hs1). rewrite E1. cbn [bind].
    assert (H2 : exists m2, (if csize m1 <=? j then s_resize vzero M m1 (s_rows m1) (j + 1) else Ok m1) = Ok m2 /\
              srepr m2 (grow (i + 1) rs) /\ csize m2 = Nat.max (csize m) (j + 1) /\
              (i < length rs -> j < csize m -> m2 = m)).
    { rewrite Hc1. destruct (Nat.leb_spec (csize m) j) as [Hle|Hlt].
      - destruct (s_resize_ok vzero M m1 _ (s_rows m1) (j + 1) Hm1) as (m2 & E & Hr & Hc & _).
        exists m2. split; auto. split; [|split; [lia|lia]].
        rewrite (srepr_rows _ _ Hm1) in Hr. unfold resize_rows in Hr. rewrite Hc1 in Hr.
        destruct (Nat.ltb_spec (j + 1) (csize m)); [lia|].
        rewrite firstn_all, Nat.sub_diag in Hr. cbn [repeat] in Hr. rewrite app_nil_r in Hr. exact Hr.
      - exists m1. split; auto. split; auto. split; [lia|auto]. }
    destruct H2 as (m2 & E2 & Hm2 & Hc2 & Hs2). rewrite E2. cbn [bind].
    set (gs := grow (i + 1) rs) in *.
    assert (Hgi : i < length gs) by (unfold gs; rewrite grow_length; lia).
    assert (Hrow : nth i gs [] = nth i rs []) by apply grow_nth.
    assert (Hst : start gs i = start rs i) by apply grow_start.
    assert (Hokg : srows_ok (csize m2) gs).
    { apply srows_ok_weaken with (csize m); [apply grow_ok; auto|lia]. }
    rewrite (s_lower_bound_ok stray _ _ _ _ Hm2 Hgi). cbn [bind].
    rewrite (row_check_ok _ _ _ Hm2 Hgi). cbn [bind].
    rewrite (row_end_ok stray _ _ _ Hm2 Hgi). cbn [bind].
    rewrite (lower_test _ _ _ _ Hm2 Hokg Hgi). cbn [bind fst snd].
    rewrite Hrow. destruct (in_dec Nat.eq_dec j (map fst (nth i rs []))) as [Hin|Hn].
    - destruct (row_facts _ _ i Hok) as [_ Hb]. specialize (Hb _ Hin).
      assert (Hi : i < length rs).
      { destruct (Nat.lt_ge_cases i (length rs)) as [?|Hge]; auto.
        rewrite nth_overflow in Hin by auto. destruct Hin. }
      exists m2, false. rewrite Hst. split; auto.
    - assert (Hk : lbound (map fst (nth i rs [])) j <= length (nth i gs [])).
      { rewrite Hrow, <- (map_length fst). apply lbound_le. }
      rewrite (srepr_rnz_pos _ _ _ Hm2 Hgi).
      destruct (vadd_range_Ok (psum 0 gs) (i + 1) (length (psum 0 gs)) 1) as (z & Ez & Hzl & Hz);
        [rewrite psum_length; lia|lia|].
      rewrite Ez. cbn [bind]. destruct Hm2 as (_ & Hcc & Hvv). rewrite Hcc, Hvv.
      pose proof (vinsert_map_row fst gs i _ (j, v) Hgi Hk) as Ei. cbn [fst] in Ei. rewrite Ei.
      pose proof (vinsert_map_row snd gs i _ (j, v) Hgi Hk) as Ev. cbn [snd] in Ev. cbn [bind]. rewrite Ev.
      cbn [bind].
      eexists; exists true. rewrite Hst. split; [reflexivity|]. cbn [csize]. split; [auto|].
      split; [auto|]. rewrite Hrow. fold (ins_row (nth i rs []) j v). fold gs.
      split; [left|cbn [cidx vals]; auto]. cbn [rnz].
      apply (psum_upd_add gs i _ 1); auto.
      + rewrite Hrow. unfold ins_row. rewrite list_insert_length. lia.
      + rewrite Hzl, psum_length. reflexivity.
      + intro k. rewrite Hz. rewrite nth_error_psum.
        destruct (Nat.leb_spec k (length gs)); [|reflexivity]. cbn [option_map].
        rewrite psum_length. destruct (Nat.ltb_spec k (S (length gs))); [|lia].
        rewrite andb_true_r. reflexivity.
  Qed.

  Lemma assign_ok m rs i k j w v : srepr m rs -> i < length rs -> nth_error (nth i rs []) k = Some (j, w) ->
    exists m', assign m (i, start rs i + k) v = Ok m' /\ csize m' = csize m /\
      srepr m' (upd rs i (upd (nth i rs []) k (j, v))).
  Proof.
    intros H Hi Hk. unfold assign. cbn [snd]. pose proof H as (_ & Hc & Hv). rewrite Hv.
    destruct (vset_map_row rs i k v j w Hi Hk) as [E1 E2]. rewrite E1. cbn [bind].
    eexists. split; [reflexivity|]. split; [reflexivity|].
    split; [left|split; [|reflexivity]]; cbn [rnz cidx].
    - rewrite (srepr_rnz_pos _ _ _ H Hi). apply psum_ext.
      + rewrite psum_length, upd_length; auto.
      + rewrite upd_length by auto. intros k' Hk'. rewrite nth_error_psum, start_upd by auto.
        destruct (Nat.leb_spec k' (length rs)); [|lia]. f_equal. cbn [Nat.add].
        rewrite upd_length by (eapply nth_error_lt_Some; eauto).
        destruct (Nat.leb_spec k' i); auto.
        assert (start rs (S i) <= start rs k') by (apply start_mono; lia).
        rewrite start_S in H2 by auto. lia.
    - rewrite Hc, E2. reflexivity.
  Qed.

  Lemma set_rows_ok c i j v w rs : srows_ok c rs -> In (j, w) (nth i rs []) -> srows_ok c (set_rows i j v rs).
  Proof.
    intros Hok Hin k Hk. pose proof (In_nth_rows _ _ _ Hin) as Hi. unfold set_rows in *.
    rewrite upd_length in Hk by auto. rewrite nth_upd by auto.
    destruct (Nat.eqb_spec k i) as [->|]; [|apply Hok, Hk].
    rewrite upd_map. cbn [fst]. destruct (Hok i Hi) as [Ha Hb].
    rewrite upd_id; auto.
    apply lbound_lt_In; auto. apply (in_map fst) in Hin. exact Hin.
  Qed.

  Lemma in_upd {A} (l : list A) k x y d : k < length l -> NoDup l -> nth_error l k = Some d ->
    (In y (upd l k x) <-> y = x \/ (In y l /\ y <> d)).
  Proof.
    intros Hk Hn Hd. apply nth_error_split in Hd as (l1 & l2 & -> & <-). rewrite upd_split.
    rewrite !in_app_iff. cbn [In]. apply NoDup_remove in Hn as [Hn Hni]. rewrite in_app_iff in Hni.
    split.
    - intros [H|[H|H]]; auto; right; split; auto; intros ->; apply Hni; auto.
    - intros [->|[[H|[H|H]] Hne]]; auto. congruence.
  Qed.

  Lemma NoDup_row r : ascending (map fst r) -> NoDup r.
  Proof. intro Ha. apply ascending_NoDup in Ha. apply NoDup_map_inv in Ha. exact Ha. Qed.

  Lemma set_rows_In c i j v w rs k x : srows_ok c rs -> In (j, w) (nth i rs []) ->
    (In x (nth k (set_rows i j v rs) []) <->
     (k = i /\ x = (j, v)) \/ (In x (nth k rs []) /\ ~ (k = i /\ fst x = j))).
  Proof.
    intros Hok Hin. pose proof (In_nth_rows _ _ _ Hin) as Hi. destruct (Hok i Hi) as [Ha _].
    unfold set_rows. rewrite nth_upd by auto.
    destruct (Nat.eqb_spec k i) as [->|Hki]; [|intuition congruence].
    pose proof (lbound_entry _ _ _ Ha Hin) as Hk.
    rewrite (in_upd _ _ _ _ (j, w)) by (eauto using NoDup_row, nth_error_lt_Some).
    destruct x as [a b]. cbn [fst]. split.
    - intros [->|[Hx Hne]]; auto. right. split; auto. intros [_ ->]. apply Hne. f_equal.
      eapply row_unique; eauto.
    - intros [[_ ->]|[Hx Hne]]; auto. right. split; auto. intro E. injection E as -> ->. tauto.
  Qed.

  Lemma s_insert_or_assign_ok m rs i j v : srepr m rs -> srows_ok (csize m) rs ->
    exists m' b,
      s_insert_or_assign vzero M dbg stray m i j v =
        Ok (m', (i, start rs i + lbound (map fst (nth i rs [])) j), b) /\
      csize m' = Nat.max (csize m) (j + 1) /\
      (if b then ~ In j (map fst (nth i rs [])) /\ srepr m' (insert_rows i j v rs)
       else In j (map fst (nth i rs [])) /\ srepr m' (set_rows i j v rs)).
  Proof.
    intros H Hok. unfold s_insert_or_assign.
    destruct (s_insert_ok m rs i j v H Hok) as (m1 & b & E & Hc & Hb). rewrite E. cbn [bind].
    destruct b.
    - exists m1, true. auto.
    - destruct Hb as [Hin ->]. apply in_map_fst_ex in Hin as [w Hw].
      pose proof (In_nth_rows _ _ _ Hw) as Hi.
      destruct (Hok i Hi) as [Ha _]. pose proof (lbound_entry _ _ _ Ha Hw) as Hk.
      destruct (assign_ok m rs i _ j w v H Hi Hk) as (m2 & E2 & Hc2 & Hr2).
      rewrite E2. cbn [bind]. exists m2, false. split; [reflexivity|]. split; [lia|].
      split; auto. apply in_map_fst_ex. eauto.
  Qed.

  Lemma s_subscript_ok m rs i j : srepr m rs -> srows_ok (csize m) rs -> i < length rs ->
    exists m', s_subscript vzero M dbg stray m i j =
                 Ok (m', (i, start rs i + lbound (map fst (nth i rs [])) j)) /\
      ((In j (map fst (nth i rs [])) /\ m' = m) \/
       (~ In j (map fst (nth i rs [])) /\ csize m' = Nat.max (csize m) (j + 1) /\
        srepr m' (insert_rows i j vzero rs))).
  Proof.
    intros H Hok Hi. unfold s_subscript. rewrite (row_check_ok _ _ _ H Hi). cbn [bind].
    rewrite (s_lower_bound_ok stray _ _ _ _ H Hi). cbn [bind].
    rewrite (row_end_ok stray _ _ _ H Hi). cbn [bind].
    rewrite (lower_test _ _ _ _ H Hok Hi). cbn [bind].
    destruct (in_dec Nat.eq_dec j (map fst (nth i rs []))) as [Hin|Hn].
    - exists m. auto.
    - destruct (s_insert_ok m rs i j vzero H Hok) as (m1 & b & E & Hc & Hb). rewrite E. cbn [bind fst snd].
      exists m1. split; auto. destruct b; [|tauto]. right. tauto.
  Qed.

  Lemma upd_ins_row r j v w : upd (ins_row r j v) (lbound (map fst r) j) (j, w) = ins_row r j w.
  Proof.
    unfold ins_row, list_insert. pose proof (lbound_le (map fst r) j) as H. rewrite map_length in H.
    revert H. generalize (lbound (map fst r) j). intros k H.
    pose proof (upd_split (firstn k r) (skipn k r) (j, v) (j, w)) as E.
    rewrite firstn_length, Nat.min_l in E by lia. exact E.
  Qed.

  Lemma nth_error_ins_row r j v : nth_error (ins_row r j v) (lbound (map fst r) j) = Some (j, v).
  Proof.
    unfold ins_row, list_insert. pose proof (lbound_le (map fst r) j) as H. rewrite map_length in H.
    rewrite nth_error_app, firstn_length, Nat.min_l by lia.
    destruct (Nat.ltb_spec (lbound (map fst r) j) (lbound (map fst r) j)); [lia|].
    rewrite Nat.sub_diag. reflexivity.
  Qed.

  Lemma start_insert_rows i j v rs : start (insert_rows i j v rs) i = start rs i.
  Proof.
    unfold insert_rows. rewrite start_upd by (rewrite grow_length; lia).
    destruct (Nat.leb_spec i i); [|lia]. apply grow_start.
  Qed.

  Lemma upd_upd {A} (l : list A) i x y : i < length l -> upd (upd l i x) i y = upd l i y.
  Proof.
    intro H. apply nth_error_ext. intro k.
    rewrite !nth_error_upd by (rewrite ?upd_length; auto). destruct (k =? i); reflexivity.
  Qed.

  (** Writing through the reference returned by the subscript operator. *)
  Lemma s_subscript_write_ok m rs i j v m' it :
    srepr m rs -> srows_ok (csize m) rs -> i < length rs ->
    s_subscript vzero M dbg stray m i j = Ok (m', it) ->
    exists m'', assign m' it v = Ok m'' /\ csize m'' = Nat.max (csize m) (j + 1) /\
      ((In j (map fst (nth i rs [])) /\ srepr m'' (set_rows i j v rs)) \/
       (~ In j (map fst (nth i rs [])) /\ srepr m'' (insert_rows i j v rs))).
  Proof.
    intros H Hok Hi E. destruct (s_subscript_ok m rs i j H Hok Hi) as (m1 & E1 & Hc).
    rewrite E1 in E. injection E as <- <-. destruct (Hok i Hi) as [Ha Hb].
    destruct Hc as [[Hin ->]|(Hn & Hcs & Hr)].
    - pose proof Hin as Hin'. apply in_map_fst_ex in Hin as [w Hw].
      pose proof (lbound_entry _ _ _ Ha Hw) as Hk.
      destruct (assign_ok m rs i _ j w v H Hi Hk) as (m2 & E2 & Hc2 & Hr2).
      exists m2. split; auto. specialize (Hb _ Hin'). split; [lia|]. left. auto.
    - assert (Hi' : i < length (insert_rows i j vzero rs)) by (rewrite insert_rows_length; lia).
      assert (Hk : nth_error (nth i (insert_rows i j vzero rs) []) (lbound (map fst (nth i rs [])) j) =
                   Some (j, vzero)).
      { rewrite insert_rows_nth, Nat.eqb_refl. apply nth_error_ins_row. }
      destruct (assign_ok m1 _ i _ j vzero v Hr Hi' Hk) as (m2 & E2 & Hc2 & Hr2).
      rewrite start_insert_rows in E2. exists m2. split; auto. split; [lia|]. right. split; auto.
      rewrite insert_rows_nth, Nat.eqb_refl, upd_ins_row in Hr2.
      unfold insert_rows in Hr2 at 1. rewrite upd_upd in Hr2 by (rewrite grow_length; lia). exact Hr2.
  Qed.

  (* ---------------------------------------------------------------- erase *)
  Lemma s_erase_ok m rs i j v : srepr m rs -> srows_ok (csize m) rs -> In (j, v) (nth i rs []) ->
    (dbg = true -> stray <> None) ->
    exists m', s_erase dbg stray m (i, start rs i + lbound (map fst (nth i rs [])) j) =
                 Ok (m', (i, start rs i + lbound (map fst (nth i rs [])) j)) /\
      csize m' = csize m /\ srepr m' (erase_rows i j rs).
  Proof.
    intros H Hok Hin Hst. pose proof (In_nth_rows _ _ _ Hin) as Hi. destruct (Hok i Hi) as [Ha _].
    set (k := lbound (map fst (nth i rs [])) j).
    pose proof (lbound_entry _ _ _ Ha Hin) as Hk. fold k in Hk.
    pose proof (nth_error_lt_Some _ _ _ Hk) as Hlt.
    unfold s_erase.
    assert (Hchk : (if dbg then do b <- erase_check dbg stray m (i, start rs i + k); ASSERT b else Ok tt) = Ok tt).
    { destruct dbg eqn:Ed; auto. unfold erase_check.
      rewrite (row_end_past stray m rs H). destruct stray as [x|]; [|exfalso; apply Hst; auto].
      cbn [bind]. unfold eit_eqb at 1. cbn [fst snd].
      destruct (Nat.eqb_spec i (length rs)); [lia|]. cbn [andb].
      unfold row_check, ASSERT_DEBUG. rewrite (srepr_rows _ _ H).
      destruct (Nat.ltb_spec i (length rs)); [|lia]. cbn [ASSERT bind].
      rewrite (row_end_ok _ _ _ _ H Hi). cbn [bind]. rewrite eit_eqb_pos, start_S' by auto.
      destruct (Nat.eqb_spec (start rs i + k) (start rs i + length (nth i rs []))); [lia|].
      unfold i_column, vget. cbn [snd]. rewrite (srepr_cidx_nth m rs) by auto. rewrite Hk.
      cbn [option_map fst bind].
      destruct (s_contains_ok (Some x) m rs i j H Hi) as (b & Eb & Hb). rewrite Eb. cbn [bind].
      assert (b = true) as ->; [|reflexivity]. apply Hb. apply (in_map fst) in Hin. exact Hin. }
    rewrite Hchk. cbn [bind fst snd].
    assert (Hlen : S (length (firstn k (nth i rs []) ++ skipn (k + 1) (nth i rs []))) = length (nth i rs [])).
    { rewrite app_length, firstn_length, skipn_length. lia. }
    rewrite (srepr_rnz_pos _ _ _ H Hi), (vdec_from_psum _ _ _ Hi Hlen). cbn [bind].
    pose proof H as (_ & Hc & Hv). rewrite Hc, Hv.
    rewrite <- !Nat.add_assoc. rewrite !verase_map_row by (auto; lia). cbn [bind].
    eexists. split; [reflexivity|]. split; [reflexivity|]. apply srepr_mk.
  Qed.

  Lemma erase_rows_In c i j v rs k x : srows_ok c rs -> In (j, v) (nth i rs []) ->
    (In x (nth k (erase_rows i j rs) []) <-> In x (nth k rs []) /\ ~ (k = i /\ fst x = j)).
  Proof.
    intros Hok Hin. pose proof (In_nth_rows _ _ _ Hin) as Hi. destruct (Hok i Hi) as [Ha _].
    unfold erase_rows. rewrite nth_upd by auto.
    destruct (Nat.eqb_spec k i) as [->|Hki]; [|intuition congruence].
    pose proof (lbound_entry _ _ _ Ha Hin) as Hk. set (n := lbound (map fst (nth i rs [])) j) in *.
    apply nth_error_split in Hk as (l1 & l2 & E & Hl). pose proof (NoDup_row _ Ha) as Hnd.
    rewrite E in *. rewrite <- Hl.
    rewrite firstn_app, firstn_all, Nat.sub_diag, firstn_O, app_nil_r.
    rewrite skipn_app, skipn_all2 by lia. replace (length l1 + 1 - length l1) with 1 by lia.
    cbn [skipn app]. rewrite !in_app_iff. cbn [In].
    apply NoDup_remove in Hnd as [_ Hni]. rewrite in_app_iff in Hni.
    assert (Hu : forall y, In y (l1 ++ (j, v) :: l2) -> fst y = j -> y = (j, v)).
    { intros [a b] Hy Ef. cbn [fst] in Ef. subst a. f_equal. eapply row_unique; eauto. }
    split.
    - intro Hx. split; [tauto|]. intros [_ Ef]. apply Hni. rewrite <- (Hu x); auto.
      apply in_app_iff. simpl. tauto.
    - intros [[Hx|[Hx|Hx]] Hne]; auto. exfalso. apply Hne. subst x. auto.
  Qed.

  Lemma ascending_remove l k : ascending l -> ascending (firstn k l ++ skipn (k + 1) l).
  Proof.
    intro Ha. destruct (Nat.lt_ge_cases k (length l)) as [H|H].
    - destruct (nth_error l k) as [x|] eqn:E; [|apply nth_error_None in E; lia].
      apply nth_error_split in E as (l1 & l2 & -> & <-).
      rewrite firstn_app, firstn_all, Nat.sub_diag, firstn_O, app_nil_r.
      rewrite skipn_app, skipn_all2 by lia. replace (length l1 + 1 - length l1) with 1 by lia.
      cbn [skipn app]. apply ascending_app in Ha as (H1 & H2 & H3).
      apply ascending_cons in H2 as [H2 _]. apply ascending_app. split; auto. split; auto.
      intros; apply H3; simpl; auto.
    - rewrite firstn_all2, skipn_all2, app_nil_r by lia. auto.
  Qed.

  Lemma erase_rows_ok c i j v rs : srows_ok c rs -> In (j, v) (nth i rs []) -> srows_ok c (erase_rows i j rs).
  Proof.
    intros Hok Hin k Hk. split.
    - pose proof (In_nth_rows _ _ _ Hin) as Hi. unfold erase_rows in *. rewrite nth_upd by auto.
      rewrite upd_length in Hk by auto. destruct (Nat.eqb_spec k i) as [->|]; [|apply Hok, Hk].
      rewrite map_app, <- firstn_map, <- skipn_map. apply ascending_remove, Hok, Hi.
    - intros x Hx. apply in_map_iff in Hx as (y & <- & Hy).
      apply (erase_rows_In c i j v rs k y Hok Hin) in Hy as [Hy _].
      apply (row_facts c rs k Hok). apply in_map. exact Hy.
  Qed.
End Insert.
