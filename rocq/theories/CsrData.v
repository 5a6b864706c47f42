(** CSR_Data acts like the sparse matrix, C43. *)
From Verif Require Import Base ListFacts Csr SparseModel SparseSpec SparseFacts SparseUpdate SparseInsert
  SparseSeq CsrDataModel PropSparseLemmas.

(** The operations of client code and what they mean for the finite map. *)
Inductive cop (V : Type) :=
| CInsert (i j : nat) (v : V)
| CAssign (i j : nat) (v : V)
| CResize (r c : nat).
Arguments CInsert {V} _ _ _.
Arguments CAssign {V} _ _ _.
Arguments CResize {V} _ _.

Definition as_sop {V} (o : cop V) : sop V :=
  match o with
  | CInsert i j v => OInsert i j v
  | CAssign i j v => OAssign i j v
  | CResize r c => OResize r c
  end.

Definition run_cop {V} (vzero : V) (M : nat) (o : cop V) (m : smat V) : res (smat V) :=
  match o with
  | CInsert i j v => do r <- c_insert vzero M m i j v; Ok (fst (fst r))
  | CAssign i j v => do r <- c_insert_or_assign vzero M m i j v; Ok (fst (fst r))
  | CResize r c => c_resize vzero M m r c
  end.

Fixpoint run_cops {V} (vzero : V) (M : nat) (os : list (cop V)) (m : smat V) : res (smat V) :=
  match os with
  | [] => Ok m
  | o :: r => do m' <- run_cop vzero M o m; run_cops vzero M r m'
  end.

Section CsrDataProofs.
  Context {V : Type}.
  Variables (vzero : V) (M : nat).
  Implicit Types (m : smat V) (rs : list (list (nat * V))).

  Lemma c_resize_eq m r c : c_resize vzero M m r c = s_resize vzero M m r c.
  Proof. reflexivity. Qed.

  Lemma c_lower_bound_ok m rs i j : srepr m rs -> i < length rs ->
    c_lower_bound m i j =
      Ok (if lbound (map fst (nth i rs [])) j =? length (nth i rs []) then i + 1 else i,
          start rs i + lbound (map fst (nth i rs [])) j).
  Proof.
    intros H Hi. unfold c_lower_bound. change (c_size_row m) with (s_rows m).
    rewrite (srepr_rows _ _ H). destruct (Nat.ltb_spec i (length rs)); [|lia].
    rewrite (srepr_vget _ _ _ H Hi), (srepr_vget' _ _ _ H Hi). cbn [bind].
    rewrite (srepr_vrange_c _ _ _ H Hi). cbn [bind]. rewrite start_S' by auto.
    set (q := lbound _ _). destruct (Nat.eqb_spec q (length (nth i rs []))), 
      (Nat.eqb_spec (start rs i + q) (start rs i + length (nth i rs []))); try lia; reflexivity.
  Qed.

  (** c_insert returns what the insert of the sparse matrix returns. *)
  Lemma c_insert_eq m i j v : swf m -> c_insert vzero M m i j v = s_insert vzero M false None m i j v.
  Proof.
    intros (rs & H & Hok). unfold c_insert, s_insert.
    change (c_size_row m) with (s_rows m). change (c_size_column m) with (csize m). change (c_resize vzero M) with (s_resize vzero M).
    assert (H1 : exists m1 rs1, (if s_rows m <=? i then s_resize vzero M m (i + 1) (csize m) else Ok m) = Ok m1 /\
      srepr m1 rs1 /\ i < length rs1).
    { destruct (Nat.leb_spec (s_rows m) i) as [Hle|Hlt].
      - destruct (s_resize_ok vzero M m rs (i + 1) (csize m) H) as (m1 & E & H1 & _). exists m1. eexists.
        split; auto. split; [exact H1|]. rewrite resize_rows_length. lia.
      - exists m, rs. rewrite (srepr_rows _ _ H) in Hlt. auto. }
    destruct H1 as (m1 & rs1 & E1 & H1 & Hi1). rewrite E1. cbn [bind]. clear E1.
    change (c_size_row m1) with (s_rows m1). change (c_size_column m1) with (csize m1).
    assert (H2 : exists m2 rs2, (if csize m1 <=? j then s_resize vzero M m1 (s_rows m1) (j + 1) else Ok m1) = Ok m2 /\
      srepr m2 rs2 /\ i < length rs2).
    { destruct (Nat.leb_spec (csize m1) j) as [Hle|Hlt].
      - destruct (s_resize_ok vzero M m1 rs1 (s_rows m1) (j + 1) H1) as (m2 & E & H2 & _). exists m2. eexists.
        split; auto. split; [exact H2|]. rewrite resize_rows_length, (srepr_rows _ _ H1). lia.
      - exists m1, rs1. auto. }
    destruct H2 as (m2 & rs2 & E2 & H2 & Hi2). rewrite E2. cbn [bind]. clear E2.
    rewrite (c_lower_bound_ok m2 rs2) by auto. rewrite (s_lower_bound_ok None m2 rs2) by auto.
    cbn [bind fst snd]. unfold row_check, ASSERT_DEBUG. cbn [bind].
    rewrite (row_end_ok None m2 rs2) by auto. cbn [bind]. rewrite eit_eqb_pos, start_S' by auto.
    set (q := lbound _ _). destruct (Nat.eqb_spec q (length (nth i rs2 []))) as [Hq|Hq].
    - destruct (Nat.eqb_spec (i + 1) i); [lia|]. cbn [bind].
      rewrite Hq, Nat.eqb_refl. cbn [bind]. reflexivity.
    - rewrite Nat.eqb_refl. destruct (Nat.eqb_spec (start rs2 i + q) (start rs2 i + length (nth i rs2 []))); [lia|].
      unfold i_column. cbn [snd]. destruct (vget (cidx m2) (start rs2 i + q)) as [c| | |]; cbn [bind]; auto.
      destruct (c =? j); reflexivity.
  Qed.

  Lemma run_cop_eq o m : swf m -> run_cop vzero M o m = run_op vzero M false None (as_sop o) m.
  Proof.
    intros Hw. destruct o as [i j v|i j v|r c]; cbn [run_cop run_op as_sop].
    - rewrite c_insert_eq by auto. reflexivity.
    - unfold c_insert_or_assign, s_insert_or_assign. rewrite c_insert_eq by auto.
      destruct (s_insert _ _ _ _ _ _ _ _) as [[[m' it] b]| | |]; try reflexivity.
      cbn [bind]. destruct b; try reflexivity. unfold assign. destruct (vset _ _ _); reflexivity.
    - reflexivity.
  Qed.

  Lemma run_cops_ok os : forall m a, swf m -> holds m a -> apres (map as_sop os) a ->
    exists m', run_cops vzero M os m = Ok m' /\ swf m' /\ holds m' (aops (map as_sop os) a).
  Proof.
    induction os as [|o os IH]; intros m a Hw Hh Hp; cbn [run_cops map aops apres] in *.
    - exists m. auto.
    - destruct Hp as [Hp Hps]. rewrite run_cop_eq by auto.
      destruct (run_op_ok vzero M false None (as_sop o) m a Hw Hh Hp) as (m1 & E & Hw1 & Hh1); [discriminate|].
      rewrite E. cbn [bind]. apply IH; auto.
  Qed.

  Lemma csr_data os : apres (map as_sop os) amat_default ->
    exists m, run_cops vzero M os s_default = Ok m /\ csr_invariant m /\
      holds m (aops (map as_sop os) amat_default) /\
      c_size_row m = arows (aops (map as_sop os) amat_default) /\
      c_size_column m = acols (aops (map as_sop os) amat_default) /\
      c_size_non_zero m = acount (aops (map as_sop os) amat_default).
  Proof.
    intros Hp. destruct (run_cops_ok os s_default amat_default swf_default holds_default Hp) as (m & E & Hw & Hh).
    exists m. split; auto. split; [apply swf_csr_invariant; auto|]. split; auto.
    pose proof Hh as (Hr & Hc & _). split; [exact Hr|]. split; [exact Hc|]. apply nnz_count; auto.
  Qed.

  (** The iterator and flag returned by the two insertions. *)
  Lemma csr_insert_result m i j v : swf m ->
    exists m' it b, c_insert vzero M m i j v = Ok (m', it, b) /\
      c_i_row m' it = i /\ nth_error (cidx m') (snd it) = Some j /\
      (b = false <-> exists w, stored m i j w) /\
      (forall w, stored m i j w -> nth_error (vals m') (snd it) = Some w) /\
      (b = true -> nth_error (vals m') (snd it) = Some v).
  Proof.
    intros Hw. rewrite c_insert_eq by auto. destruct Hw as (rs & H & Hok).
    destruct (s_insert_ok vzero M false None m rs i j v H Hok) as (m' & b & E & Hc & Hb).
    exists m'. eexists; exists b. split; [exact E|]. split; [reflexivity|]. cbn [snd].
    destruct b.
    - destruct Hb as [Hn H'].
      assert (Hns : forall w, ~ stored m i j w).
      { intros w Hs. apply Hn. apply (srepr_stored _ _ _ _ _ H) in Hs. apply (in_map fst) in Hs. exact Hs. }
      set (q := lbound (map fst (nth i rs [])) j).
      assert (Hi' : i < length (insert_rows i j v rs)) by (rewrite insert_rows_length; lia).
      assert (Hrow : nth_error (nth i (insert_rows i j v rs) []) q = Some (j, v)).
      { rewrite insert_rows_nth, Nat.eqb_refl. unfold ins_row, list_insert. rewrite nth_error_app.
        assert (Hq : length (firstn q (nth i rs [])) = q).
        { rewrite firstn_length. pose proof (lbound_le (map fst (nth i rs [])) j) as Hle. rewrite map_length in Hle. fold q in Hle. lia. }
        fold q. rewrite Hq. destruct (Nat.ltb_spec q q); [lia|]. rewrite Nat.sub_diag. reflexivity. }
      assert (Hst : start rs i = start (insert_rows i j v rs) i) by (symmetry; apply start_insert_rows).
      rewrite Hst. rewrite (srepr_cidx_nth m' _ i q H' Hi' (nth_error_lt_Some _ _ _ Hrow)).
      rewrite (srepr_vals_nth m' _ i q H' Hi' (nth_error_lt_Some _ _ _ Hrow)), Hrow. cbn [option_map fst snd].
      split; auto. split; [split; [discriminate|intros [w Hs]; exfalso; eapply Hns; eauto]|].
      split; [intros w Hs; exfalso; eapply Hns; eauto|auto].
    - destruct Hb as [Hin ->]. pose proof Hin as Hin0. apply in_map_fst_ex in Hin as [w Hin].
      pose proof (In_nth_rows _ _ _ Hin) as Hi. destruct (Hok i Hi) as [Ha _].
      pose proof (lbound_entry _ _ _ Ha Hin) as Hk. pose proof (nth_error_lt_Some _ _ _ Hk) as Hlt.
      rewrite (srepr_cidx_nth m _ i _ H Hi Hlt), (srepr_vals_nth m _ i _ H Hi Hlt), Hk. cbn [option_map fst snd].
      assert (Hs : stored m i j w) by (apply (srepr_stored _ _ _ _ _ H); auto).
      split; auto. split; [split; eauto|]. split; [|discriminate].
      intros w' Hs'. f_equal. eapply stored_unique; eauto. exists rs. auto.
  Qed.

  Lemma csr_lower_bound m i j : swf m ->
    (s_rows m <= i -> c_lower_bound m i j = Ok (length (rnz m), length (cidx m))) /\
    (i < s_rows m -> exists it, c_lower_bound m i j = Ok it /\
       nth i (rnz m) 0 <= snd it <= nth (i + 1) (rnz m) 0 /\
       fst it = (if snd it <? nth (i + 1) (rnz m) 0 then i else i + 1) /\
       (forall k, nth i (rnz m) 0 <= k < snd it -> nth k (cidx m) 0 < j) /\
       (forall k, snd it <= k < nth (i + 1) (rnz m) 0 -> j <= nth k (cidx m) 0)).
  Proof.
    intros Hw. split.
    - intros Hi. unfold c_lower_bound. change (c_size_row m) with (s_rows m).
      destruct (Nat.ltb_spec i (s_rows m)); [lia|reflexivity].
    - intros Hi. destruct (lower_bound_spec None m i j Hw Hi) as (p & E & Hp & H1 & H2).
      destruct Hw as (rs & H & Hok). pose proof Hi as Hi0. rewrite (srepr_rows _ _ H) in Hi0.
      rewrite (s_lower_bound_ok _ _ _ _ _ H Hi0) in E. injection E as E.
      rewrite (c_lower_bound_ok m rs i j H Hi0). eexists. split; [reflexivity|]. cbn [fst snd]. rewrite E.
      split; auto. split; [|auto].
      rewrite (srepr_nth m rs i (i + 1)) by (auto; lia). rewrite start_S' by auto.
      destruct (Nat.eqb_spec (lbound (map fst (nth i rs [])) j) (length (nth i rs []))),
        (Nat.ltb_spec p (start rs i + length (nth i rs []))); auto; try lia.
      pose proof (lbound_le (map fst (nth i rs [])) j) as Hle. rewrite map_length in Hle. lia.
  Qed.
End CsrDataProofs.
