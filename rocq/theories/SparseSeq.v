(** Sequences of operations on a sparse matrix against finite maps, C32, C33. *)
From Verif Require Import Base ListFacts Csr SparseModel SparseSpec SparseFacts SparseUpdate SparseInsert.

Section Seq.
  Context {V : Type}.
  Implicit Types (m : smat V) (rs : list (list (nat * V))) (a : amat V).
  Variables (vzero : V) (M : nat) (dbg : bool) (stray : option nat).

  Lemma swf_default : swf (@s_default V).
  Proof.
    exists []. split; [|intros i Hi; simpl in Hi; lia]. split; [right; auto|]. split; reflexivity.
  Qed.

  Lemma holds_default : holds (@s_default V) amat_default.
  Proof.
    split; [reflexivity|]. split; [reflexivity|]. intros i j v. split; [|discriminate].
    intros [Hi _]. unfold s_rows in Hi. simpl in Hi. lia.
  Qed.

  (* ---------------------------------------------------------------- reading *)
  Lemma in_row_dec rs i j : (exists v, In (j, v) (nth i rs [])) \/ ~ In j (map fst (nth i rs [])).
  Proof.
    destruct (in_dec Nat.eq_dec j (map fst (nth i rs []))) as [H|H]; auto.
    left. apply in_map_fst_ex. exact H.
  Qed.

  Lemma find_stored m i j v : swf m -> stored m i j v ->
    exists p, s_find stray m i j = Ok (i, p) /\ s_lower_bound stray m i j = Ok (i, p) /\
      nth i (rnz m) 0 <= p < nth (i + 1) (rnz m) 0 /\
      i_column m (i, p) = Ok j /\ deref m (i, p) = Ok v.
  Proof.
    intros (rs & H & Hok) Hs. apply (srepr_stored _ _ _ _ _ H) in Hs.
    pose proof (In_nth_rows _ _ _ Hs) as Hi. destruct (Hok i Hi) as [Ha _].
    pose proof (lbound_entry _ _ _ Ha Hs) as Hk. pose proof (nth_error_lt_Some _ _ _ Hk) as Hlt.
    exists (start rs i + lbound (map fst (nth i rs [])) j).
    rewrite (s_find_ok _ _ _ _ _ H Hi), (s_lower_bound_ok _ _ _ _ _ H Hi).
    rewrite vfind_lbound by (auto; apply (in_map fst) in Hs; exact Hs).
    split; [auto|]. split; [auto|].
    rewrite !(srepr_nth m rs i) by (auto; lia). rewrite start_S' by auto. split; [lia|].
    unfold i_column, deref, vget. cbn [snd].
    rewrite (srepr_cidx_nth m rs), (srepr_vals_nth m rs), Hk by auto. auto.
  Qed.

  Lemma find_missing m i j : swf m -> i < s_rows m -> (forall v, ~ stored m i j v) ->
    s_find stray m i j = row_end stray m i /\ exists p, row_end stray m i = Ok (i, p).
  Proof.
    intros (rs & H & Hok) Hi Hn. rewrite (srepr_rows _ _ H) in Hi.
    rewrite (s_find_ok _ _ _ _ _ H Hi), (row_end_ok _ _ _ _ H Hi). split; [|eauto].
    rewrite vfind_notIn, map_length, start_S'; auto.
    intro Hin. apply in_map_fst_ex in Hin as [v Hv]. apply (Hn v), (srepr_stored _ _ _ _ _ H), Hv.
  Qed.

  Lemma contains_stored m i j : swf m -> i < s_rows m ->
    exists b, s_contains stray m i j = Ok b /\ (b = true <-> exists v, stored m i j v).
  Proof.
    intros (rs & H & Hok) Hi. rewrite (srepr_rows _ _ H) in Hi.
    destruct (s_contains_ok stray m rs i j H Hi) as (b & E & Hb). exists b. split; auto.
    rewrite Hb, in_map_fst_ex. split; intros [v Hv]; exists v; apply (srepr_stored _ _ _ _ _ H); auto.
  Qed.

  Lemma lower_bound_spec m i j : swf m -> i < s_rows m ->
    exists p, s_lower_bound stray m i j = Ok (i, p) /\
      nth i (rnz m) 0 <= p <= nth (i + 1) (rnz m) 0 /\
      (forall k, nth i (rnz m) 0 <= k < p -> nth k (cidx m) 0 < j) /\
      (forall k, p <= k < nth (i + 1) (rnz m) 0 -> j <= nth k (cidx m) 0).
  Proof.
    intros (rs & H & Hok) Hi. rewrite (srepr_rows _ _ H) in Hi. destruct (Hok i Hi) as [Ha _].
    rewrite (s_lower_bound_ok _ _ _ _ _ H Hi). eexists. split; [reflexivity|].
    rewrite !(srepr_nth m rs i) by (auto; lia). rewrite start_S' by auto.
    pose proof (lbound_le (map fst (nth i rs [])) j) as Hle. rewrite map_length in Hle.
    split; [lia|].
    assert (Hn : forall k, k < length (nth i rs []) ->
              nth_error (cidx m) (start rs i + k) = nth_error (map fst (nth i rs [])) k).
    { intros k Hk. rewrite (srepr_cidx_nth m rs), nth_error_map' by auto. reflexivity. }
    set (cs := map fst (nth i rs [])) in *. split; intros k Hk.
    - specialize (Hn (k - start rs i) ltac:(lia)).
      replace (start rs i + (k - start rs i)) with k in Hn by lia.
      rewrite (nth_error_nth_lt cs _ 0) in Hn by (unfold cs; rewrite map_length; lia).
      rewrite (nth_error_nth _ _ 0 Hn). apply (lbound_firstn cs j).
      apply nth_error_In with (k - start rs i). rewrite nth_error_firstn.
      destruct (Nat.ltb_spec (k - start rs i) (lbound cs j)); [|lia].
      apply nth_error_nth_lt. unfold cs. rewrite map_length. lia.
    - specialize (Hn (k - start rs i) ltac:(lia)).
      replace (start rs i + (k - start rs i)) with k in Hn by lia.
      rewrite (nth_error_nth_lt cs _ 0) in Hn by (unfold cs; rewrite map_length; lia).
      rewrite (nth_error_nth _ _ 0 Hn). apply (lbound_skipn cs j); auto.
      apply nth_error_In with (k - start rs i - lbound cs j). rewrite nth_error_skipn.
      replace (lbound cs j + (k - start rs i - lbound cs j)) with (k - start rs i) by lia.
      apply nth_error_nth_lt. unfold cs. rewrite map_length. lia.
  Qed.

  Lemma subscript_const_stored m i j v : swf m -> stored m i j v ->
    s_subscript_const dbg stray m i j = Ok v.
  Proof.
    intros Hw Hs. pose proof (stored_bounds _ _ _ _ Hw Hs) as [Hi _].
    destruct (find_stored m i j v Hw Hs) as (p & E & _ & _ & _ & Ed).
    unfold s_subscript_const, row_check, ASSERT_DEBUG.
    destruct (Nat.ltb_spec i (s_rows m)); [|lia].
    destruct (contains_stored m i j Hw Hi) as (b & Eb & Hb).
    assert (b = true) as -> by (apply Hb; eauto).
    destruct dbg; cbn [ASSERT bind]; rewrite ?Eb; cbn [ASSERT bind]; rewrite E; exact Ed.
  Qed.

  Lemma subscript_const_missing m i j : swf m -> i < s_rows m -> (forall v, ~ stored m i j v) ->
    s_subscript_const true stray m i j = Abort.
  Proof.
    intros Hw Hi Hn. unfold s_subscript_const, row_check, ASSERT_DEBUG.
    destruct (Nat.ltb_spec i (s_rows m)); [|lia]. cbn [ASSERT bind].
    destruct (contains_stored m i j Hw Hi) as (b & Eb & Hb). rewrite Eb. cbn [bind].
    destruct b; [|reflexivity]. destruct Hb as [Hb _]. destruct (Hb eq_refl) as [v Hv].
    exfalso. eapply Hn; eauto.
  Qed.

  Lemma row_entries_spec m i : swf m -> i < s_rows m ->
    exists es, row_entries stray m i = Ok es /\ StronglySorted lt (map fst es) /\
      (forall j v, In (j, v) es <-> stored m i j v).
  Proof.
    intros (rs & H & Hok) Hi. rewrite (srepr_rows _ _ H) in Hi.
    exists (nth i rs []). rewrite (row_entries_ok _ _ _ _ H Hi). split; [auto|]. split; [apply Hok, Hi|].
    intros j v. symmetry. apply srepr_stored, H.
  Qed.

  (* ---------------------------------------------------------------- one operation *)
  Lemma insert_rows_stored c i j v rs k x : srows_ok c rs -> ~ In j (map fst (nth i rs [])) ->
    (In x (nth k (insert_rows i j v rs) []) <-> (k = i /\ x = (j, v)) \/ In x (nth k rs [])).
  Proof.
    intros Hok Hn. rewrite insert_rows_nth. destruct (Nat.eqb_spec k i) as [->|Hki].
    - rewrite in_ins_row. tauto.
    - tauto.
  Qed.

  Lemma repeat_In_nil {A} n (x : list A) : In x (repeat [] n) -> x = [].
  Proof. apply repeat_spec. Qed.

  Lemma resize_rows_nth c0 r c rs k :
    nth k (resize_rows M c0 r c rs) [] =
    if k <? r then (if c <? c0 then cutw (dec_wrap M c) (nth k rs []) else nth k rs []) else [].
  Proof.
    unfold resize_rows.
    assert (Hgen : forall (f : list (nat * V) -> list (nat * V)), f [] = [] ->
      nth k (map f (firstn r rs) ++ repeat [] (r - length rs)) [] = if k <? r then f (nth k rs []) else []).
    { intros f Hf. destruct (Nat.ltb_spec k r) as [Hlt|Hge].
      - destruct (Nat.lt_ge_cases k (length rs)) as [Hk|Hk].
        + apply nth_error_nth. rewrite nth_error_app, map_length, firstn_length.
          destruct (Nat.ltb_spec k (Nat.min r (length rs))); [|lia].
          rewrite nth_error_map', nth_error_firstn. destruct (Nat.ltb_spec k r); [|lia].
          rewrite (nth_error_nth_lt rs k []) by auto. reflexivity.
        + rewrite (nth_overflow rs) by auto. rewrite Hf.
          rewrite app_nth2 by (rewrite map_length, firstn_length; lia). apply nth_repeat_nil.
      - apply nth_overflow. rewrite app_length, map_length, firstn_length, repeat_length. lia. }
    destruct (c <? c0).
    - apply Hgen. reflexivity.
    - rewrite <- (Hgen (fun x => x) eq_refl). rewrite map_id. reflexivity.
  Qed.

  Lemma resize_rows_length c0 r c rs : length (resize_rows M c0 r c rs) = r.
  Proof.
    unfold resize_rows. rewrite app_length, repeat_length.
    destruct (c <? c0); rewrite ?map_length, firstn_length; lia.
  Qed.

  Lemma resize_rows_ok c0 r c rs : srows_ok c0 rs -> (c0 = 0 \/ 0 < c) -> srows_ok c (resize_rows M c0 r c rs).
  Proof.
    intros Hok Hc k Hk. rewrite resize_rows_nth. destruct (row_facts c0 rs k Hok) as [Ha Hb].
    destruct (k <? r); [|split; [constructor|intros ? []]].
    destruct (Nat.ltb_spec c c0) as [Hlt|Hge].
    - split.
      + unfold cutw. rewrite <- firstn_map.
        rewrite <- (firstn_skipn (ubound (map fst (nth k rs [])) (dec_wrap M c)) (map fst (nth k rs []))) in Ha.
        apply ascending_app in Ha as (Ha & _). exact Ha.
      + intros j Hj. rewrite cutw_keep in Hj by (auto; lia). apply in_map_iff in Hj as (x & <- & Hx).
        unfold keep_cols in Hx. apply filter_In in Hx as [_ Hx]. apply Nat.ltb_lt in Hx. exact Hx.
    - split; auto. intros j Hj. apply Hb in Hj. lia.
  Qed.

  Lemma resize_rows_In c0 r c rs k x : srows_ok c0 rs -> (c0 = 0 \/ 0 < c) ->
    (In x (nth k (resize_rows M c0 r c rs) []) <-> k < r /\ In x (nth k rs []) /\ fst x < c).
  Proof.
    intros Hok Hc. rewrite resize_rows_nth. destruct (row_facts c0 rs k Hok) as [Ha Hb].
    destruct (Nat.ltb_spec k r) as [Hk|Hk]; [|simpl; split; [tauto|lia]].
    destruct (Nat.ltb_spec c c0) as [Hlt|Hge].
    - rewrite cutw_keep by (auto; lia). unfold keep_cols. rewrite filter_In, Nat.ltb_lt. tauto.
    - split; [|tauto]. intro Hx. split; auto. split; auto.
      specialize (Hb (fst x) (in_map fst _ _ Hx)). lia.
  Qed.

  Lemma holds_intro m rs a : srepr m rs -> length rs = arows a -> csize m = acols a ->
    (forall i j v, In (j, v) (nth i rs []) <-> aget a i j = Some v) -> holds m a.
  Proof.
    intros H Hr Hc Hs. split; [rewrite (srepr_rows _ _ H); auto|]. split; auto.
    intros i j v. rewrite (srepr_stored _ _ _ _ _ H). apply Hs.
  Qed.

  Lemma aupd_spec (f : nat -> nat -> option V) i j x i' j' :
    aupd f i j x i' j' = if (i' =? i) && (j' =? j) then x else f i' j'.
  Proof. reflexivity. Qed.

  Lemma eqb_pair_spec i j i' j' : reflect (i' = i /\ j' = j) ((i' =? i) && (j' =? j)).
  Proof.
    destruct (Nat.eqb_spec i' i), (Nat.eqb_spec j' j); simpl; constructor; tauto.
  Qed.

  Lemma run_op_ok o m a : swf m -> holds m a -> apre o a ->
    (forall i j, o = OErase i j -> dbg = true -> stray <> None) ->
    exists m', run_op vzero M dbg stray o m = Ok m' /\ swf m' /\ holds m' (aop o a).
  Proof.
    intros (rs & H & Hok) (Hr & Hc & Hs) Hp Hst. rewrite (srepr_rows _ _ H) in Hr.
    assert (Hin : forall i j v, In (j, v) (nth i rs []) <-> aget a i j = Some v).
    { intros. rewrite <- Hs. symmetry. apply srepr_stored, H. }
    assert (Hnone : forall i j, ~ In j (map fst (nth i rs [])) <-> aget a i j = None).
    { intros i j. rewrite in_map_fst_ex. destruct (aget a i j) as [w|] eqn:E.
      - split; [|discriminate]. intro Hn. exfalso. apply Hn. exists w. apply Hin. auto.
      - split; auto. intros _ [w Hw]. apply Hin in Hw. congruence. }
    assert (Hins : forall i j v m', csize m' = Nat.max (csize m) (j + 1) ->
      ~ In j (map fst (nth i rs [])) -> srepr m' (insert_rows i j v rs) ->
      swf m' /\ holds m' (mkA (Nat.max (arows a) (i + 1)) (Nat.max (acols a) (j + 1))
                              (aupd (aget a) i j (Some v)))).
    { intros i j v m' Hc' Hn H'. split.
      - exists (insert_rows i j v rs). split; auto. rewrite Hc'. apply insert_rows_ok; auto.
      - apply (holds_intro m' _ _ H'); cbn [arows acols aget].
        + rewrite insert_rows_length. lia.
        + lia.
        + intros i' j' v'. rewrite (insert_rows_stored (csize m)) by auto. rewrite aupd_spec.
          destruct (eqb_pair_spec i j i' j') as [[-> ->]|Hne].
          * split; [|intro E; injection E as ->; auto].
            intros [[_ E]|Hx]; [congruence|]. exfalso. apply Hn. apply (in_map fst) in Hx. exact Hx.
          * rewrite <- Hin. split; auto. intros [[-> E]|Hx]; auto. exfalso. injection E; intros; subst; tauto. }
    assert (Hset : forall i j v w m', csize m' = csize m ->
      In (j, w) (nth i rs []) -> srepr m' (set_rows i j v rs) ->
      swf m' /\ holds m' (mkA (arows a) (acols a) (aupd (aget a) i j (Some v))) /\
      i < arows a /\ j < acols a).
    { intros i j v w m' Hc' Hw H'. pose proof (In_nth_rows _ _ _ Hw) as Hi.
      destruct (row_facts _ _ i Hok) as [_ Hb]. specialize (Hb j (in_map fst _ _ Hw)).
      split; [|split; [|split; lia]].
      - exists (set_rows i j v rs). split; auto. rewrite Hc'. eapply set_rows_ok; eauto.
      - apply (holds_intro m' _ _ H'); cbn [arows acols aget]; try lia.
        + unfold set_rows. rewrite upd_length; auto.
        + intros i' j' v'. rewrite (set_rows_In (csize m) i j v w) by auto. rewrite aupd_spec. cbn [fst].
          destruct (eqb_pair_spec i j i' j') as [[-> ->]|Hne].
          * split; [|intro E; injection E as ->; auto]. intros [[_ E]|Hx]; [congruence|tauto].
          * rewrite <- Hin. split; [|tauto]. intros [[-> E]|Hx]; [injection E; intros; subst; tauto|tauto]. }
    destruct o as [i j v|i j v|i j v|i j|r c| |f]; cbn [run_op aop apre] in *.
    - destruct (s_insert_ok vzero M dbg stray m rs i j v H Hok) as (m' & b & E & Hc' & Hb).
      rewrite E. cbn [bind fst]. exists m'. split; auto. destruct b.
      + destruct Hb as [Hn H']. destruct (Hins i j v m' Hc' Hn H') as [Hw Hh]. split; auto.
        apply Hnone in Hn. rewrite Hn. exact Hh.
      + destruct Hb as [Hx ->]. split; [exists rs; auto|].
        apply in_map_fst_ex in Hx as [w Hw]. pose proof (In_nth_rows _ _ _ Hw) as Hi.
        pose proof Hw as Hg. apply Hin in Hg. rewrite Hg.
        apply (holds_intro m rs _ H); cbn [arows acols aget]; auto; lia.
    - destruct (s_insert_or_assign_ok vzero M dbg stray m rs i j v H Hok) as (m' & b & E & Hc' & Hb).
      rewrite E. cbn [bind fst]. exists m'. split; auto. destruct b.
      + destruct Hb as [Hn H']. apply (Hins i j v m' Hc' Hn H').
      + destruct Hb as [Hx H']. apply in_map_fst_ex in Hx as [w Hw].
        destruct (row_facts _ _ i Hok) as [_ Hbd]. specialize (Hbd j (in_map fst _ _ Hw)).
        destruct (Hset i j v w m' ltac:(simpl in *; lia) Hw H') as (Hw' & Hh & Hi & Hj). split; auto.
        rewrite !Nat.max_l by lia. exact Hh.
    - assert (Hi : i < length rs) by lia. unfold s_subscript_assign.
      destruct (s_subscript_ok vzero M dbg stray m rs i j H Hok Hi) as (m1 & E1 & _).
      rewrite E1. cbn [bind fst snd].
      destruct (s_subscript_write_ok vzero M dbg stray m rs i j v m1 _ H Hok Hi E1) as (m' & E & Hc' & Hb).
      exists m'. split; auto. destruct Hb as [[Hx H']|[Hn H']].
      + apply in_map_fst_ex in Hx as [w Hw].
        destruct (row_facts _ _ i Hok) as [_ Hbd]. specialize (Hbd j (in_map fst _ _ Hw)).
        destruct (Hset i j v w m' ltac:(simpl in *; lia) Hw H') as (Hw' & Hh & _ & Hj). split; auto.
        rewrite Nat.max_l by lia. exact Hh.
      + destruct (Hins i j v m' Hc' Hn H') as [Hw Hh]. split; auto.
        rewrite (Nat.max_l (arows a)) in Hh by lia. exact Hh.
    - destruct (aget a i j) as [v|] eqn:Eg; [|congruence]. apply Hin in Eg.
      pose proof (In_nth_rows _ _ _ Eg) as Hi. destruct (Hok i Hi) as [Ha _].
      rewrite (s_find_ok _ _ _ _ _ H Hi). rewrite vfind_lbound by (auto; apply (in_map fst) in Eg; exact Eg).
      cbn [bind]. destruct (s_erase_ok dbg stray m rs i j v H Hok Eg (Hst i j eq_refl)) as (m' & E & Hc' & H').
      rewrite E. cbn [bind fst]. exists m'. split; auto. split.
      + exists (erase_rows i j rs). split; auto. rewrite Hc'. eapply erase_rows_ok; eauto.
      + apply (holds_intro m' _ _ H'); cbn [arows acols aget]; try lia.
        * unfold erase_rows. rewrite upd_length; auto.
        * intros i' j' v'. rewrite (erase_rows_In (csize m) i j v) by auto. rewrite aupd_spec. cbn [fst].
          destruct (eqb_pair_spec i j i' j') as [[-> ->]|Hne]; [split; [tauto|discriminate]|].
          rewrite <- Hin. tauto.
    - destruct (s_resize_ok vzero M m rs r c H) as (m' & E & H' & Hc' & _).
      rewrite E. exists m'. split; auto. rewrite <- Hc in Hp. split.
      + eexists. split; eauto. rewrite Hc'. apply resize_rows_ok; auto.
      + apply (holds_intro m' _ _ H'); cbn [arows acols aget]; auto using resize_rows_length.
        intros i' j' v'. rewrite resize_rows_In by auto. cbn [fst].
        destruct (Nat.ltb_spec i' r), (Nat.ltb_spec j' c); cbn [andb];
          rewrite ?Hin; intuition (try congruence; try lia).
    - eexists. split; [reflexivity|]. split; [apply swf_default|apply holds_default].
    - eexists. split; [reflexivity|].
      set (rs' := map (map (fun p => (fst p, f (snd p)))) rs).
      assert (H' : srepr (s_scale m f) rs').
      { destruct H as (Hz & Hci & Hv). split; [|split].
        - destruct Hz as [Hz|[Hz ->]]; [left|right; auto]. cbn [s_scale rnz]. rewrite Hz.
          unfold rs'. symmetry. apply psum_map_map.
        - cbn [s_scale cidx]. rewrite Hci. unfold rs'. rewrite <- concat_map, map_map. reflexivity.
        - cbn [s_scale vals]. rewrite Hv. unfold rs'. rewrite <- concat_map, !map_map. reflexivity. }
      assert (Hnth : forall i, nth i rs' [] = map (fun p => (fst p, f (snd p))) (nth i rs [])).
      { intro i. unfold rs'. apply nth_map_map. }
      split.
      + exists rs'. split; auto. intros i Hi. rewrite Hnth, map_map. cbn [fst s_scale csize].
        unfold rs' in Hi. rewrite map_length in Hi. apply Hok, Hi.
      + apply (holds_intro _ _ _ H'); cbn [arows acols aget]; auto.
        * unfold rs'. rewrite map_length. auto.
        * intros i j v. rewrite Hnth, in_map_iff. split.
          -- intros ([x y] & E & Hx). cbn [fst snd] in E. injection E as -> <-.
             apply Hin in Hx. rewrite Hx. reflexivity.
          -- intro E. destruct (aget a i j) as [w|] eqn:Eg; [|discriminate].
             simpl in E. injection E as <-. exists (j, w). split; auto. apply Hin. auto.
  Qed.

  Lemma run_ops_ok os m a : swf m -> holds m a -> apres os a ->
    (forall i j, In (OErase i j) os -> dbg = true -> stray <> None) ->
    exists m', run_ops vzero M dbg stray os m = Ok m' /\ swf m' /\ holds m' (aops os a).
  Proof.
    revert m a; induction os as [|o os IH]; intros m a Hw Hh Hp Hst; cbn [run_ops aops apres] in *.
    - exists m. auto.
    - destruct Hp as [Hp Hps]. destruct (run_op_ok o m a Hw Hh Hp) as (m1 & E & Hw1 & Hh1).
      { intros i j -> Hd. apply (Hst i j); simpl; auto. }
      rewrite E. cbn [bind]. apply IH; auto. intros i j Hin. apply (Hst i j). simpl; auto.
  Qed.

  (* ---------------------------------------------------------------- number of entries *)
  Fixpoint coords (b : nat) rs : list (nat * nat) :=
    match rs with
    | [] => []
    | r :: t => map (fun x => (b, fst x)) r ++ coords (S b) t
    end.

  Lemma coords_length b rs : length (coords b rs) = length (concat rs).
  Proof.
    revert b; induction rs as [|r rs IH]; intro b; cbn [coords concat]; auto.
    rewrite !app_length, map_length, IH. reflexivity.
  Qed.

  Lemma coords_In b rs i j : In (i, j) (coords b rs) <-> b <= i /\ In j (map fst (nth (i - b) rs [])).
  Proof.
    revert b; induction rs as [|r rs IH]; intro b; cbn [coords].
    - destruct (i - b); simpl; tauto.
    - rewrite in_app_iff, IH, in_map_iff. split.
      + intros [([x y] & E & Hx)|[Hle Hx]].
        * cbn [fst] in E. injection E as <- <-. rewrite Nat.sub_diag. cbn [nth]. split; auto.
          apply (in_map fst) in Hx. exact Hx.
        * split; [lia|]. replace (i - b) with (S (i - S b)) by lia. exact Hx.
      + intros [Hle Hx]. destruct (Nat.eq_dec i b) as [->|Hn].
        * left. rewrite Nat.sub_diag in Hx. cbn [nth] in Hx. apply in_map_fst_ex in Hx as [v Hv].
          exists (j, v). auto.
        * right. split; [lia|]. replace (i - b) with (S (i - S b)) in Hx by lia. exact Hx.
  Qed.

  Lemma coords_NoDup b rs : (forall i, i < length rs -> ascending (map fst (nth i rs []))) -> NoDup (coords b rs).
  Proof.
    revert b; induction rs as [|r rs IH]; intros b H; cbn [coords]; [constructor|].
    apply NoDup_app_intro.
    - specialize (H 0 ltac:(simpl; lia)). cbn [nth] in H. apply ascending_NoDup in H.
      rewrite <- (map_map fst (fun x => (b, x))). apply FinFun.Injective_map_NoDup; auto.
      intros x y E. congruence.
    - apply IH. intros i Hi. apply (H (S i)). simpl; lia.
    - intros [x y] Hx Hy. apply in_map_iff in Hx as (? & E & _). injection E as <- <-.
      apply coords_In in Hy. lia.
  Qed.

  Lemma nnz_count m a : swf m -> holds m a -> s_nnz m = acount a.
  Proof.
    intros (rs & H & Hok) (Hr & Hc & Hs). rewrite (srepr_rows _ _ H) in Hr.
    unfold s_nnz, acount. destruct H as (Hz & Hci & Hv). rewrite Hci, map_length, <- (coords_length 0).
    apply Permutation_length. apply NoDup_Permutation.
    - apply coords_NoDup. intros i Hi. apply Hok, Hi.
    - apply NoDup_filter. clear.
      assert (G : forall l1 l2 : list nat, NoDup l1 -> NoDup l2 -> NoDup (list_prod l1 l2)).
      { induction l1 as [|x l1 IH]; intros l2 H1 H2; cbn [list_prod]; [constructor|].
        inversion H1; subst. apply NoDup_app_intro.
        - apply FinFun.Injective_map_NoDup; auto. intros y z E. congruence.
        - apply IH; auto.
        - intros [y z] Hy Hz. apply in_map_iff in Hy as (? & E & _). injection E as <- <-.
          apply in_prod_iff in Hz. tauto. }
      apply G; apply seq_NoDup.
    - intros [i j]. rewrite coords_In, Nat.sub_0_r, filter_In, in_prod_iff, !in_seq, in_map_fst_ex. cbn [fst snd].
      assert (Hrep : srepr m rs) by (split; auto).
      split.
      + intros [_ [v Hin]]. pose proof (In_nth_rows _ _ _ Hin) as Hi.
        destruct (row_facts _ _ i Hok) as [_ Hb]. specialize (Hb j (in_map fst _ _ Hin)).
        apply (srepr_stored _ _ _ _ _ Hrep), Hs in Hin. rewrite Hin. split; auto. lia.
      + intros [_ Hg]. split; [lia|]. destruct (aget a i j) as [v|] eqn:E; [|discriminate].
        exists v. apply (srepr_stored _ _ _ _ _ Hrep), Hs, E.
  Qed.

  (* ---------------------------------------------------------------- the invariant on the arrays *)
  Lemma swf_csr_invariant m : swf m -> csr_invariant m.
  Proof.
    intros (rs & H & Hok). unfold csr_invariant. rewrite (srepr_rows _ _ H).
    split; [|split; [|split]].
    - destruct H as ([Hz|[Hz ->]] & Hc & Hv); [right|left; auto].
      rewrite Hz, Hc, map_length. split; [|split].
      + destruct rs; discriminate.
      + destruct rs; reflexivity.
      + assert (G : forall b : nat, last (psum b rs) 0 = b + length (concat rs)).
        { clear. induction rs as [|r rs IH]; intro b; cbn [psum concat].
          - simpl. lia.
          - rewrite app_length, Nat.add_assoc, <- IH. cbn [last]. destruct rs; reflexivity. }
        apply G.
    - destruct H as (_ & Hc & Hv). rewrite Hc, Hv, !map_length. reflexivity.
    - intros i Hi. rewrite !(srepr_nth m rs i) by (auto; lia). apply start_mono. lia.
    - intros i k Hi. rewrite !(srepr_nth m rs i) by (auto; lia). rewrite start_S' by auto. intro Hk.
      destruct (Hok i Hi) as [Ha Hb].
      assert (Hn : forall q, start rs i <= q < start rs i + length (nth i rs []) ->
        nth q (cidx m) 0 = nth (q - start rs i) (map fst (nth i rs [])) 0).
      { intros q Hq. apply nth_error_nth.
        replace q with (start rs i + (q - start rs i)) at 1 by lia.
        rewrite (srepr_cidx_nth m rs) by (auto; lia). rewrite <- nth_error_map'.
        apply nth_error_nth_lt. rewrite map_length. lia. }
      rewrite (Hn k Hk). split.
      + apply Hb, nth_In. rewrite map_length. lia.
      + intro Hk1. rewrite (Hn (k + 1)) by lia.
        set (cs := map fst (nth i rs [])) in *.
        assert (Hl : length cs = length (nth i rs [])) by apply map_length.
        replace (k + 1 - start rs i) with (S (k - start rs i)) by lia.
        assert (Hlt : S (k - start rs i) < length cs) by lia.
        revert Ha Hlt. generalize (k - start rs i). clear. intros n Ha Hlt.
        revert n Hlt. induction cs as [|x cs IH]; intros n Hlt; [simpl in Hlt; lia|].
        apply ascending_cons in Ha as [Ha Hf]. rewrite Forall_forall in Hf. destruct n as [|n].
        * cbn [nth]. apply Hf, nth_In. simpl in Hlt. lia.
        * cbn [nth]. apply IH; auto. simpl in Hlt. lia.
  Qed.

End Seq.
