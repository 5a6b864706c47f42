(** Rows of a CSR_Data object: reading and assigning through a row object. *)
From Verif Require Import Base ListFacts Csr SparseModel SparseSpec SparseFacts SparseUpdate SparseInsert
  SparseSeq CsrDataModel CsrData RowModel.

Section RowProofs.
  Context {V : Type}.
  Variables (vzero : V) (M : nat) (dbg : bool).
  Implicit Types (m : smat V) (rs : list (list (nat * V))) (r : row).

  (** [r] is the view of row [i] of [m]. *)
  Lemma w_new_ok m rs i : srepr m rs -> i < length rs ->
    w_new m i = Ok (mkRow i (start rs i) (start rs (i + 1))).
  Proof.
    intros H Hi. unfold w_new. rewrite (srepr_vget _ _ _ H Hi), (srepr_vget' _ _ _ H Hi). cbn [bind].
    rewrite (srepr_vrange_c _ _ _ H Hi), (srepr_vrange_v _ _ _ H Hi). reflexivity.
  Qed.

  Lemma w_new_past m rs i : srepr m rs -> length rs <= i -> w_new m i = Undef.
  Proof.
    intros [[H|[H ->]] _] Hi; unfold w_new.
    - assert (E : vget (rnz m) (i + 1) = Undef).
      { unfold vget. rewrite H, nth_error_psum. destruct (Nat.leb_spec (i + 1) (length rs)); [lia|reflexivity]. }
      rewrite E. unfold vget. destruct (nth_error (rnz m) i); reflexivity.
    - rewrite H. unfold vget. destruct i; reflexivity.
  Qed.

  Section View.
    Variables (m : smat V) (rs : list (list (nat * V))) (i : nat) (r : row).
    Hypotheses (H : srepr m rs) (Hok : srows_ok (csize m) rs) (Hi : i < length rs) (Hr : w_new m i = Ok r).

    Lemma view_eq : r = mkRow i (start rs i) (start rs (i + 1)).
    Proof. rewrite (w_new_ok m rs i H Hi) in Hr. injection Hr as <-. reflexivity. Qed.

    Lemma columns_eq : w_columns m r = Ok (map fst (nth i rs [])).
    Proof. rewrite view_eq. unfold w_columns. cbn [w_begin w_end]. apply srepr_vrange_c; auto. Qed.

    Lemma values_eq : w_values m r = Ok (map snd (nth i rs [])).
    Proof. rewrite view_eq. unfold w_values. cbn [w_begin w_end]. apply srepr_vrange_v; auto. Qed.

    Lemma elements_eq : w_elements m r = Ok (nth i rs []).
    Proof.
      unfold w_elements. rewrite columns_eq, values_eq. cbn [bind]. rewrite combine_map_fst_snd. reflexivity.
    Qed.

    Lemma index_eq : w_index m r = i.
    Proof. rewrite view_eq. reflexivity. Qed.

    Lemma size_eq : w_size_non_zero m r = Ok (length (nth i rs [])).
    Proof.
      rewrite view_eq. unfold w_size_non_zero. cbn [w_row].
      rewrite (srepr_vget _ _ _ H Hi), (srepr_vget' _ _ _ H Hi). cbn [bind]. rewrite start_S' by auto.
      f_equal. lia.
    Qed.

    Lemma found j v : In (j, v) (nth i rs []) ->
      vfind (map fst (nth i rs [])) j < length (map fst (nth i rs [])) /\
      nth_error (nth i rs []) (vfind (map fst (nth i rs [])) j) = Some (j, v).
    Proof.
      intros Hin. destruct (Hok i Hi) as [Ha _].
      assert (Hj : In j (map fst (nth i rs []))) by (apply (in_map fst) in Hin; exact Hin).
      split; [apply vfind_In, Hj|]. rewrite vfind_lbound by auto. apply lbound_entry; auto.
    Qed.

    Lemma at_stored j v : stored m i j v -> w_at m r j = Ok v /\ w_read dbg m r j = Ok v.
    Proof.
      intros Hs. apply (srepr_stored _ _ _ _ _ H) in Hs. destruct (found j v Hs) as [Hlt Hn].
      unfold w_at, w_read. rewrite columns_eq, values_eq. cbn [bind].
      destruct (Nat.eqb_spec (vfind (map fst (nth i rs [])) j) (length (map fst (nth i rs [])))); [lia|].
      assert (E : vget (map snd (nth i rs [])) (vfind (map fst (nth i rs [])) j) = Ok v).
      { apply vget_Ok. rewrite nth_error_map', Hn. reflexivity. }
      cbn [negb ASSERT bind]. unfold ASSERT_DEBUG. destruct dbg; cbn [ASSERT bind]; auto.
    Qed.

    Lemma at_missing j : (forall v, ~ stored m i j v) ->
      w_at m r j = Abort /\ w_read dbg m r j = if dbg then Abort else Undef.
    Proof.
      intros Hs. assert (Hn : ~ In j (map fst (nth i rs []))).
      { rewrite in_map_fst_ex. intros [v Hv]. apply (Hs v). apply (srepr_stored _ _ _ _ _ H), Hv. }
      apply vfind_notIn in Hn. unfold w_at, w_read. rewrite columns_eq, values_eq. cbn [bind]. rewrite Hn, Nat.eqb_refl.
      cbn [negb ASSERT bind]. split; [reflexivity|]. unfold ASSERT_DEBUG. destruct dbg; [reflexivity|]. cbn [bind].
      unfold vget. rewrite map_length, (proj2 (nth_error_None _ _)) by (rewrite map_length; lia). reflexivity.
    Qed.
  End View.

  (** One assignment. *)
  Lemma assign_one m i r j v : swf m -> w_new m i = Ok r ->
    exists m' r', w_assign vzero M m r j v = Ok (m', r') /\ swf m' /\ w_new m' i = Ok r' /\
      s_rows m' = s_rows m /\ csize m' = Nat.max (csize m) (j + 1) /\
      (forall i' j' w, stored m' i' j' w <-> (i' = i /\ j' = j /\ w = v) \/ (stored m i' j' w /\ ~ (i' = i /\ j' = j))) /\
      ((exists w, stored m i j w) -> forall k, w_new m' k = w_new m k).
  Proof.
    intros Hw Hr. pose proof Hw as (rs & H & Hok).
    destruct (Nat.lt_ge_cases i (length rs)) as [Hi|Hi]; [|rewrite (w_new_past m rs i H Hi) in Hr; discriminate].
    unfold w_assign. rewrite (index_eq m rs i r H Hi Hr).
    assert (E0 : c_insert_or_assign vzero M m i j v = s_insert_or_assign vzero M false None m i j v).
    { unfold c_insert_or_assign, s_insert_or_assign. rewrite c_insert_eq by auto.
      destruct (s_insert _ _ _ _ _ _ _ _) as [[[m' it] b]| | |]; try reflexivity.
      cbn [bind]. destruct b; try reflexivity. unfold assign. destruct (vset _ _ _); reflexivity. }
    rewrite E0. clear E0.
    destruct (s_insert_or_assign_ok vzero M false None m rs i j v H Hok) as (m' & b & E & Hc & Hb).
    rewrite E. cbn [bind fst].
    assert (Hkey : exists rs', srepr m' rs' /\ length rs' = length rs /\ srows_ok (csize m') rs' /\
      (forall k x, In x (nth k rs' []) <-> (k = i /\ x = (j, v)) \/ (In x (nth k rs []) /\ ~ (k = i /\ fst x = j))) /\
      (In j (map fst (nth i rs [])) -> forall k, start rs' k = start rs k)).
    { destruct b.
      - destruct Hb as [Hni Hm']. exists (insert_rows i j v rs). split; auto. rewrite insert_rows_length.
        split; [lia|]. split; [rewrite Hc; apply insert_rows_ok; auto|]. split; [|tauto]. intros k x.
        rewrite (insert_rows_stored (csize m)) by auto. split; [|tauto].
        intros [Hx|Hx]; auto. right. split; auto. intros [-> Hj]. apply Hni. rewrite <- Hj. apply in_map, Hx.
      - destruct Hb as [Hin Hm']. exists (set_rows i j v rs). split; auto.
        pose proof Hin as Hin'. apply in_map_fst_ex in Hin as [w Hw'].
        split; [unfold set_rows; apply upd_length; auto|].
        split; [rewrite Hc; apply srows_ok_weaken with (csize m); [eapply set_rows_ok; eauto|lia]|].
        split; [intros k x; eapply set_rows_In; eauto|]. intros _ k. unfold set_rows. rewrite start_upd by auto.
        destruct (Nat.leb_spec k i); auto. destruct (Hok i Hi) as [Ha _].
        rewrite upd_length by (destruct (lbound_lt_In _ _ Ha Hin') as [Hlt _]; rewrite map_length in Hlt; lia).
        assert (start rs (S i) <= start rs k) by (apply start_mono; lia). rewrite start_S in H1 by auto. lia. }
    destruct Hkey as (rs' & H' & Hl' & Hok' & Hin' & Hst).
    exists m', (mkRow i (start rs' i) (start rs' (i + 1))).
    rewrite (w_new_ok m' rs' i H') by lia. cbn [bind]. split; [reflexivity|].
    split; [exists rs'; auto|]. split; [reflexivity|].
    split; [rewrite (srepr_rows _ _ H'), (srepr_rows _ _ H); auto|]. split; [exact Hc|]. split.
    - intros i' j' w. rewrite (srepr_stored _ _ _ _ _ H'), (srepr_stored _ _ _ _ _ H), Hin'. cbn [fst].
      split; (intros [Hx|Hx]; [left|right; exact Hx]).
      + destruct Hx as [-> Hx]. injection Hx as -> ->. auto.
      + destruct Hx as (-> & -> & ->). auto.
    - intros [w Hs] k. apply (srepr_stored _ _ _ _ _ H) in Hs. apply (in_map fst) in Hs. cbn [fst] in Hs.
      destruct (Nat.lt_ge_cases k (length rs)) as [Hk|Hk].
      + rewrite (w_new_ok m' rs'), (w_new_ok m rs), !Hst by (auto; lia). reflexivity.
      + rewrite (w_new_past m' rs'), (w_new_past m rs) by (auto; lia). reflexivity.
  Qed.
End RowProofs.
