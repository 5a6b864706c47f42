(** Proofs about loops over sparse matrices (C100) and scaling by an own element (C47). *)
From Coq Require Import ZArith.
From Verif Require Import Base ListFacts Csr SparseModel SparseSpec SparseFacts SparseInsert SparseSeq DenseModel
  DenseFacts WalkModel.

Section Loops.
  Context {V S : Type}.
  Variable stray : option nat.
  Implicit Types (m : smat V) (rs : list (list (nat * V))) (s : smat V * S).

  Lemma row_loop_inv (body : nat -> smat V * S -> res (smat V * S)) (J : nat -> smat V * S -> Prop) e :
    (forall i s, i < e -> J i s -> exists s', body i s = Ok s' /\ J (i + 1) s') ->
    forall n i fuel s, n = e - i -> i <= e -> n < fuel -> J i s ->
    exists s', row_loop fuel body s i e = Ok s' /\ J e s'.
  Proof.
    intro Hb. induction n as [|n IH]; intros i [|f] s Hn Hi Hf HJ; try lia; cbn [row_loop].
    - assert (i = e) as -> by lia. rewrite Nat.eqb_refl. eauto.
    - destruct (Nat.eqb_spec i e); [lia|]. destruct (Hb i s ltac:(lia) HJ) as (s' & E & HJ'). rewrite E. cbn [bind].
      change (fst (r_incr i)) with (i + 1). apply IH; auto; lia.
  Qed.

  Lemma for_rows_inv (body : nat -> smat V * S -> res (smat V * S)) (J : nat -> smat V * S -> Prop) s :
    J 0 s -> (forall i s', i < s_rows (fst s) -> J i s' -> exists s2, body i s' = Ok s2 /\ J (i + 1) s2) ->
    exists s', for_rows body s = Ok s' /\ J (s_rows (fst s)) s'.
  Proof. intros H0 Hb. unfold for_rows. eapply row_loop_inv; eauto; lia. Qed.

  (** [I k s]: [k] entries of row [i] have been visited. *)
  Lemma elem_loop_inv (body : eit -> smat V * S -> res (smat V * S)) rs i (I : nat -> smat V * S -> Prop) :
    i < length rs ->
    (forall k s, I k s -> row_end stray (fst s) i = Ok (i, start rs (i + 1))) ->
    (forall k s, k < length (nth i rs []) -> I k s -> exists s', body (i, start rs i + k) s = Ok s' /\ I (k + 1) s') ->
    forall n k fuel s, n = length (nth i rs []) - k -> k <= length (nth i rs []) -> n < fuel -> I k s ->
    exists s', elem_loop stray fuel i body s (i, start rs i + k) = Ok s' /\ I (length (nth i rs [])) s'.
  Proof.
    intros Hi He Hb. induction n as [|n IH]; intros k [|f] s Hn Hk Hf HI; try lia; cbn [elem_loop];
      rewrite (He k s HI); cbn [bind]; rewrite eit_eqb_pos, start_S' by auto.
    - assert (k = length (nth i rs [])) as -> by lia. rewrite Nat.eqb_refl. eauto.
    - destruct (Nat.eqb_spec (start rs i + k) (start rs i + length (nth i rs []))); [lia|].
      destruct (Hb k s ltac:(lia) HI) as (s' & E & HI'). rewrite E. cbn [bind].
      unfold e_incr. cbn [fst snd]. rewrite <- Nat.add_assoc. apply IH; auto; lia.
  Qed.

  Lemma row_le_nnz m rs i : srepr m rs -> i < length rs -> length (nth i rs []) <= s_nnz m.
  Proof.
    intros (_ & Hv & _) Hi. unfold s_nnz. rewrite Hv, map_length.
    pose proof (start_S rs i Hi) as Hs.
    assert (start rs (Datatypes.S i) <= length (concat rs)).
    { unfold start. rewrite <- (firstn_skipn (Datatypes.S i) rs) at 2. rewrite concat_app, app_length. lia. }
    lia.
  Qed.

  Lemma for_iter_inv (body : eit -> smat V * S -> res (smat V * S)) rs i (I : nat -> smat V * S -> Prop) s :
    srepr (fst s) rs -> i < length rs -> I 0 s ->
    (forall k s, I k s -> row_end stray (fst s) i = Ok (i, start rs (i + 1))) ->
    (forall k s, k < length (nth i rs []) -> I k s -> exists s', body (i, start rs i + k) s = Ok s' /\ I (k + 1) s') ->
    exists s', for_iter stray body i s = Ok s' /\ I (length (nth i rs [])) s'.
  Proof.
    intros H Hi HI He Hb. unfold for_iter. rewrite (row_begin_ok _ _ _ H Hi). cbn [bind].
    replace (i, start rs i) with (i, start rs i + 0) by (rewrite Nat.add_0_r; reflexivity).
    eapply elem_loop_inv with (n := length (nth i rs [])); eauto; try lia.
    pose proof (row_le_nnz _ _ _ H Hi). lia.
  Qed.

  Lemma back_loop_inv (body : eit -> smat V * S -> res (smat V * S)) rs i (I : nat -> smat V * S -> Prop) :
    i < length rs ->
    (forall k s, I k s -> row_begin (fst s) i = Ok (i, start rs i)) ->
    (forall k s, k < length (nth i rs []) -> I (k + 1) s -> exists s', body (i, start rs i + k) s = Ok s' /\ I k s') ->
    forall k fuel s, k <= length (nth i rs []) -> k < fuel -> I k s ->
    exists s', back_loop fuel i body s (i, start rs i + k) = Ok s' /\ I 0 s'.
  Proof.
    intros Hi He Hb. induction k as [|k IH]; intros [|f] s Hk Hf HI; try lia; cbn [back_loop];
      rewrite (He _ s HI); cbn [bind]; rewrite eit_eqb_pos.
    - rewrite Nat.add_0_r, Nat.eqb_refl. eauto.
    - destruct (Nat.eqb_spec (start rs i + Datatypes.S k) (start rs i)); [lia|].
      unfold e_decr. cbn [fst snd]. replace (start rs i + Datatypes.S k - 1) with (start rs i + k) by lia.
      destruct (Hb k s ltac:(lia) ltac:(rewrite Nat.add_1_r; exact HI)) as (s' & E & HI'). rewrite E. cbn [bind].
      apply IH; auto; lia.
  Qed.
End Loops.

(** All entries, row by row. *)
Fixpoint all_from {V} (b : nat) (rs : list (list (nat * V))) : list (nat * nat * V) :=
  match rs with
  | [] => []
  | r :: rs' => map (fun x => (b, fst x, snd x)) r ++ all_from (b + 1) rs'
  end.

Section Visits.
  Context {V : Type}.
  Variable stray : option nat.
  Implicit Types (m : smat V) (rs : list (list (nat * V))).

  Lemma all_from_app b rs ss : all_from b (rs ++ ss) = all_from b rs ++ all_from (b + length rs) ss.
  Proof.
    revert b; induction rs as [|r rs IH]; intro b; cbn [all_from app length]; [rewrite Nat.add_0_r; reflexivity|].
    rewrite IH, app_assoc. do 2 f_equal. lia.
  Qed.

  Lemma all_from_length b rs : length (all_from b rs) = length (concat rs).
  Proof.
    revert b; induction rs as [|r rs IH]; intro b; cbn [all_from concat]; auto.
    rewrite !app_length, map_length, IH. reflexivity.
  Qed.

  Lemma all_from_In b rs i j (v : V) : In (i, j, v) (all_from b rs) <-> b <= i /\ In (j, v) (nth (i - b) rs []).
  Proof.
    revert b; induction rs as [|r rs IH]; intro b; cbn [all_from].
    - split; [intros []|intros [_ H]; destruct (i - b); destruct H].
    - rewrite in_app_iff, IH, in_map_iff. split.
      + intros [([j' v'] & E & H)|[Hb H]].
        * cbn [fst snd] in E. injection E as <- <- <-. rewrite Nat.sub_diag. split; [lia|exact H].
        * split; [lia|]. replace (i - b) with (S (i - (b + 1))) by lia. exact H.
      + intros [Hb H]. destruct (Nat.eq_dec i b) as [->|].
        * rewrite Nat.sub_diag in H. left. exists (j, v). auto.
        * right. split; [lia|]. replace (i - b) with (S (i - (b + 1))) in H by lia. exact H.
  Qed.

  (** Earlier in row-major order. *)
  Definition before (a b : nat * nat * V) : Prop :=
    fst (fst a) < fst (fst b) \/ (fst (fst a) = fst (fst b) /\ snd (fst a) < snd (fst b)).

  Lemma all_from_sorted c b rs : srows_ok c rs -> StronglySorted before (all_from b rs).
  Proof.
    intro Hok. assert (Ha : Forall (fun r => StronglySorted lt (map fst r)) rs).
    { apply Forall_forall. intros r Hr. apply In_nth_error in Hr as [k Hk].
      pose proof (nth_error_lt_Some _ _ _ Hk) as Hl. destruct (Hok k Hl) as [Hs _].
      apply (nth_error_nth _ _ []) in Hk. rewrite Hk in Hs. exact Hs. }
    clear Hok. revert b. induction Ha as [|r rs Hr Ha IH]; intro b; cbn [all_from]; [constructor|].
    assert (Hrest : forall x, In x (all_from (b + 1) rs) -> b + 1 <= fst (fst x)).
    { intros [[i j] v] Hx. apply all_from_In in Hx. exact (proj1 Hx). }
    specialize (IH (b + 1)). revert IH Hrest. generalize (all_from (b + 1) rs) as t. intros t IH Hrest.
    induction r as [|[j v] r IHr]; cbn [map app]; auto. cbn [map] in Hr.
    apply StronglySorted_inv in Hr as [Hr Hall]. constructor; [apply IHr, Hr|].
    apply Forall_app. split.
    - apply Forall_forall. intros x Hx. apply in_map_iff in Hx as ([j' v'] & <- & Hin). right. cbn [fst snd].
      split; [reflexivity|]. rewrite Forall_forall in Hall. apply Hall. apply (in_map fst) in Hin. exact Hin.
    - apply Forall_forall. intros x Hx. left. cbn [fst]. specialize (Hrest x Hx). lia.
  Qed.

  Lemma note_ok m rs i k jv (l : list (nat * nat * V)) : srepr m rs -> i < length rs ->
    nth_error (nth i rs []) k = Some jv ->
    note (i, start rs i + k) (m, l) = Ok (m, l ++ [(i, fst jv, snd jv)]).
  Proof.
    intros H Hi Hk. pose proof (nth_error_lt_Some _ _ _ Hk) as Hl. unfold note, i_column, deref, vget. cbn [fst snd].
    rewrite (srepr_cidx_nth m rs i k H Hi Hl), (srepr_vals_nth m rs i k H Hi Hl), Hk. reflexivity.
  Qed.

  Lemma firstn_next {A} (l : list A) k x : nth_error l k = Some x -> firstn (k + 1) l = firstn k l ++ [x].
  Proof.
    revert k; induction l as [|a l IH]; intros [|k] H; try discriminate; cbn in *; [congruence|].
    rewrite (IH k H). reflexivity.
  Qed.

  Lemma for_iter_note m rs i (l : list (nat * nat * V)) : srepr m rs -> i < length rs ->
    for_iter stray note i (m, l) = Ok (m, l ++ map (fun x => (i, fst x, snd x)) (nth i rs [])).
  Proof.
    intros H Hi.
    destruct (for_iter_inv stray note rs i
      (fun k s => s = (m, l ++ map (fun x => (i, fst x, snd x)) (firstn k (nth i rs [])))) (m, l)) as (s' & E & Hs); auto.
    - cbn [firstn map]. rewrite app_nil_r. reflexivity.
    - intros k s ->. apply (row_end_ok stray m rs i H Hi).
    - intros k s Hk ->. destruct (nth_error (nth i rs []) k) as [jv|] eqn:Ek; [|apply nth_error_None in Ek; lia].
      rewrite (note_ok m rs i k jv _ H Hi Ek). eexists. split; [reflexivity|].
      rewrite (firstn_next _ _ _ Ek), map_app, app_assoc. reflexivity.
    - rewrite E, Hs, firstn_all. reflexivity.
  Qed.

  Lemma walk_note m rs : srepr m rs -> walk stray note (m, []) = Ok (m, all_from 0 rs).
  Proof.
    intro H. unfold walk.
    destruct (for_rows_inv (for_iter stray note) (fun i s => s = (m, all_from 0 (firstn i rs))) (m, []))
      as (s' & E & Hs); [reflexivity| |].
    - cbn [fst]. rewrite (srepr_rows _ _ H). intros i s Hi ->. rewrite (for_iter_note m rs i _ H Hi).
      eexists. split; [reflexivity|]. f_equal.
      rewrite (firstn_next rs i (nth i rs [])) by (apply nth_error_nth'; lia).
      rewrite all_from_app. cbn [all_from]. rewrite app_nil_r, firstn_length, Nat.min_l by lia. reflexivity.
    - rewrite E, Hs. cbn [fst]. rewrite (srepr_rows _ _ H), firstn_all. reflexivity.
  Qed.

  Lemma visits m : swf m ->
    exists l, walk stray note (m, []) = Ok (m, l) /\ StronglySorted before l /\
      (forall i j v, In (i, j, v) l <-> stored m i j v) /\ length l = s_nnz m.
  Proof.
    intros (rs & H & Hok). exists (all_from 0 rs). rewrite (walk_note m rs H). split; [reflexivity|].
    split; [apply (all_from_sorted (csize m)), Hok|]. split.
    - intros i j v. rewrite all_from_In, (srepr_stored _ _ _ _ _ H), Nat.sub_0_r. intuition lia.
    - destruct H as (_ & Hv & _). unfold s_nnz. rewrite all_from_length, Hv, map_length. reflexivity.
  Qed.

  Lemma row_visits m i : swf m -> i < s_rows m ->
    exists l, for_iter stray note i (m, []) = Ok (m, l) /\ StronglySorted before l /\
      (forall i' j v, In (i', j, v) l <-> i' = i /\ stored m i j v) /\
      for_back stray note i (m, []) = Ok (m, rev l).
  Proof.
    intros (rs & H & Hok) Hi. rewrite (srepr_rows _ _ H) in Hi.
    pose proof (for_iter_note m rs i [] H Hi) as E. cbn [app] in E.
    exists (map (fun x => (i, fst x, snd x)) (nth i rs [])). split; [exact E|]. split; [|split].
    - pose proof (all_from_sorted (csize m) i [nth i rs []]) as Hs. cbn [all_from] in Hs. rewrite app_nil_r in Hs.
      apply Hs. intros k Hk. cbn [length] in Hk. destruct k as [|k]; [|lia]. cbn [nth]. apply Hok, Hi.
    - intros i' j v. rewrite in_map_iff, (srepr_stored _ _ _ _ _ H). split.
      + intros ([j' v'] & E' & Hin). cbn [fst snd] in E'. injection E' as <- <- <-. auto.
      + intros [-> Hin]. exists (j, v). auto.
    - unfold for_back. cbn [fst]. rewrite (row_end_ok stray m rs i H Hi). cbn [bind]. rewrite start_S' by auto.
      destruct (back_loop_inv note rs i
        (fun k s => s = (m, rev (map (fun x => (i, fst x, snd x)) (skipn k (nth i rs []))))) Hi) with
        (k := length (nth i rs [])) (fuel := s_nnz m + 1) (s := (m, @nil (nat * nat * V))) as (s' & E' & Hs).
      + intros k s ->. apply (row_begin_ok m rs i H Hi).
      + intros k s Hk ->. destruct (nth_error (nth i rs []) k) as [jv|] eqn:Ek; [|apply nth_error_None in Ek; lia].
        rewrite (note_ok m rs i k jv _ H Hi Ek). eexists. split; [reflexivity|].
        assert (Esk : skipn k (nth i rs []) = jv :: skipn (k + 1) (nth i rs [])).
        { revert Ek. generalize (nth i rs []) as r. clear. induction k as [|k IH]; intros [|a r] Ek; try discriminate.
          - cbn in Ek. injection Ek as ->. reflexivity.
          - cbn [nth_error skipn Nat.add] in *. apply IH, Ek. }
        rewrite Esk. reflexivity.
      + lia.
      + pose proof (row_le_nnz m rs i H Hi). lia.
      + rewrite skipn_all. reflexivity.
      + rewrite E', Hs. reflexivity.
  Qed.

  Lemma row_entries_loop m i (S : Type) (g : nat -> V -> S -> res S) s : swf m -> i < s_rows m ->
    for_iter stray (fun it st => do c <- i_column (fst st) it; do v <- deref (fst st) it;
                                 do x <- g c v (snd st); Ok (fst st, x)) i (m, s) =
    do es <- row_entries stray m i;
    do x <- forM es (fun cv st => g (fst cv) (snd cv) st) s;
    Ok (m, x).
  Proof.
    intros (rs & H & Hok) Hi. rewrite (srepr_rows _ _ H) in Hi. rewrite (row_entries_ok stray m rs i H Hi). cbn [bind].
    unfold for_iter. cbn [fst]. rewrite (row_begin_ok _ _ _ H Hi). cbn [bind].
    pose proof (row_le_nnz m rs i H Hi) as Hf.
    set (body := fun it st => _).
    assert (Hl : forall n k fuel s, n = length (nth i rs []) - k -> k <= length (nth i rs []) -> n < fuel ->
      elem_loop stray fuel i body (m, s) (i, start rs i + k) =
      do x <- forM (skipn k (nth i rs [])) (fun cv st => g (fst cv) (snd cv) st) s; Ok (m, x)).
    { induction n as [|n IH]; intros k [|f] s0 Hn Hk Hlt; try lia; cbn [elem_loop fst];
        rewrite (row_end_ok stray m rs i H Hi); cbn [bind]; rewrite eit_eqb_pos, start_S' by auto.
      - assert (k = length (nth i rs [])) as -> by lia. rewrite Nat.eqb_refl, skipn_all. reflexivity.
      - destruct (Nat.eqb_spec (start rs i + k) (start rs i + length (nth i rs []))); [lia|].
        destruct (nth_error (nth i rs []) k) as [jv|] eqn:Ek; [|apply nth_error_None in Ek; lia].
        assert (Esk : skipn k (nth i rs []) = jv :: skipn (k + 1) (nth i rs [])).
        { revert Ek. generalize (nth i rs []) as r. clear. induction k as [|k IH]; intros [|a r] Ek; try discriminate.
          - cbn in Ek. injection Ek as ->. reflexivity.
          - cbn [nth_error skipn Nat.add] in *. apply IH, Ek. }
        rewrite Esk. cbn [forM]. unfold body at 1. unfold i_column, deref, vget. cbn [fst snd].
        rewrite (srepr_cidx_nth m rs i k H Hi), (srepr_vals_nth m rs i k H Hi), Ek by lia. cbn [option_map bind].
        destruct (g (fst jv) (snd jv) s0) as [s1| | |]; cbn [bind]; try reflexivity.
        unfold e_incr. cbn [fst snd]. rewrite <- Nat.add_assoc. apply IH; lia. }
    replace (i, start rs i) with (i, start rs i + 0) by (rewrite Nat.add_0_r; reflexivity).
    rewrite (Hl (length (nth i rs []))); [reflexivity|lia|lia|lia].
  Qed.
End Visits.

Section Change.
  Context {V : Type}.
  Variable stray : option nat.
  Variable f : nat -> nat -> V -> V.
  Implicit Types (m : smat V) (rs ss : list (list (nat * V))).

  Definition chg (i : nat) (r : list (nat * V)) : list (nat * V) := map (fun x => (fst x, f i (fst x) (snd x))) r.

  Lemma start_lengths rs ss i : length rs = length ss ->
    (forall k, length (nth k rs []) = length (nth k ss [])) -> i <= length rs -> start rs i = start ss i.
  Proof.
    intros Hl Hk. induction i as [|i IH]; intro Hi; [rewrite !start_0; reflexivity|].
    rewrite !start_S by lia. rewrite IH, Hk by lia. reflexivity.
  Qed.

  Lemma for_iter_change m rs i : srepr m rs -> i < length rs ->
    exists m', for_iter stray (change f) i (m, tt) = Ok (m', tt) /\ csize m' = csize m /\
      srepr m' (upd rs i (chg i (nth i rs []))).
  Proof.
    intros H Hi. set (row := nth i rs []).
    set (part := fun k => chg i (firstn k row) ++ skipn k row).
    assert (Hpl : forall k, length (part k) = length row).
    { intro k. unfold part, chg. rewrite app_length, map_length, <- app_length, firstn_skipn. reflexivity. }
    assert (Hst : forall k j, j <= length rs -> start (upd rs i (part k)) j = start rs j).
    { intros k j Hj. apply start_lengths; [apply upd_length; auto| |rewrite upd_length; auto].
      intro q. rewrite nth_upd by auto. destruct (Nat.eqb_spec q i) as [->|]; [apply Hpl|reflexivity]. }
    assert (Hlen : forall k, length (upd rs i (part k)) = length rs) by (intro; apply upd_length; auto).
    destruct (for_iter_inv stray (change f) rs i
      (fun k s => csize (fst s) = csize m /\ srepr (fst s) (upd rs i (part k))) (m, tt)) as ([m' []] & E & Hc & Hr); auto.
    - split; [reflexivity|]. cbn [fst]. unfold part. cbn [firstn skipn chg map app].
      replace (upd rs i row) with rs; [exact H|]. apply nth_error_ext. intro k. rewrite nth_error_upd by auto.
      destruct (Nat.eqb_spec k i) as [->|]; [|reflexivity]. apply nth_error_nth'. auto.
    - intros k s [_ Hs]. rewrite (row_end_ok stray _ _ i Hs) by (rewrite Hlen; auto). rewrite Hst by lia. reflexivity.
    - fold row. intros k [m1 []] Hk [Hc1 Hs]. cbn [fst] in Hc1, Hs.
      destruct (nth_error row k) as [[j v]|] eqn:Ek; [|apply nth_error_None in Ek; lia].
      assert (Hn : nth i (upd rs i (part k)) [] = part k) by (rewrite nth_upd, Nat.eqb_refl by auto; reflexivity).
      assert (Ep : nth_error (part k) k = Some (j, v)).
      { unfold part, chg. rewrite nth_error_app2; rewrite map_length, firstn_length, Nat.min_l by lia; [|lia].
        rewrite Nat.sub_diag. rewrite <- Ek. clear. revert k. generalize row as r0. induction r0 as [|a r IH]; intros [|k]; auto.
        cbn [skipn nth_error]. apply IH. }
      assert (Hk' : k < length (nth i (upd rs i (part k)) [])) by (rewrite Hn, Hpl; exact Hk).
      assert (Hi' : i < length (upd rs i (part k))) by (rewrite Hlen; exact Hi).
      pose proof (srepr_cidx_nth _ _ i k Hs Hi' Hk') as Ec. pose proof (srepr_vals_nth _ _ i k Hs Hi' Hk') as Ev.
      rewrite Hst, Hn, Ep in Ec, Ev by lia. cbn [option_map fst snd] in Ec, Ev.
      destruct (assign_ok m1 _ i k j v (f i j v) Hs Hi' ltac:(rewrite Hn; exact Ep)) as (m2 & E2 & Hc2 & Hr2).
      rewrite Hst in E2 by lia.
      unfold change, i_column, deref, vget. cbn [fst snd]. rewrite Ec, Ev. cbn [bind]. rewrite E2. cbn [bind].
      eexists. split; [reflexivity|]. split; [cbn [fst]; congruence|]. cbn [fst].
      rewrite upd_upd, Hn in Hr2 by auto. replace (part (k + 1)) with (upd (part k) k (j, f i j v)); [exact Hr2|].
      apply nth_error_ext. intro q. rewrite nth_error_upd by (rewrite Hpl; auto).
      assert (Hq : forall p, nth_error (part p) q =
        if q <? p then option_map (fun x => (fst x, f i (fst x) (snd x))) (nth_error row q) else nth_error row q).
      { intro p. unfold part, chg. transitivity (if q <? p then
          option_map (fun x => (fst x, f i (fst x) (snd x))) (nth_error (firstn p row ++ skipn p row) q)
          else nth_error (firstn p row ++ skipn p row) q); [|rewrite firstn_skipn; reflexivity].
        destruct (Nat.ltb_spec q p).
        - destruct (Nat.lt_ge_cases q (length row)) as [Hlq|Hlq].
          + rewrite !nth_error_app1 by (rewrite ?map_length, firstn_length; lia). apply nth_error_map'.
          + rewrite (proj2 (nth_error_None (map _ _ ++ _) q));
              [|rewrite app_length, map_length, <- app_length, firstn_skipn; exact Hlq].
            rewrite (proj2 (nth_error_None _ q)) by (rewrite firstn_skipn; exact Hlq). reflexivity.
        - destruct (Nat.lt_ge_cases p (length row)) as [Hlp|Hlp].
          + rewrite !nth_error_app2 by (rewrite ?map_length, firstn_length; lia). rewrite map_length. reflexivity.
          + rewrite !(proj2 (nth_error_None _ q)); [reflexivity|rewrite firstn_skipn; lia|].
            rewrite app_length, map_length, <- app_length, firstn_skipn. lia. }
      rewrite !Hq. destruct (Nat.eqb_spec q k) as [->|].
      + destruct (Nat.ltb_spec k (k + 1)); [|lia]. rewrite Ek. reflexivity.
      + destruct (Nat.ltb_spec q k), (Nat.ltb_spec q (k + 1)); try lia; reflexivity.
    - exists m'. split; [exact E|]. split; [exact Hc|]. cbn [fst] in Hr. fold row in Hr.
      unfold part in Hr. rewrite firstn_all, skipn_all, app_nil_r in Hr. exact Hr.
  Qed.

  Lemma walk_change m : swf m ->
    exists m', walk stray (change f) (m, tt) = Ok (m', tt) /\ swf m' /\ s_rows m' = s_rows m /\ csize m' = csize m /\
      forall i j v, stored m' i j v <-> exists w, stored m i j w /\ v = f i j w.
  Proof.
    intros (rs & H & Hok). unfold walk.
    destruct (for_rows_inv (for_iter stray (change f)) (fun i s => csize (fst s) = csize m /\ exists ss,
      srepr (fst s) ss /\ length ss = length rs /\
      forall k, nth k ss [] = if k <? i then chg k (nth k rs []) else nth k rs []) (m, tt))
      as ([m' []] & E & Hc & ss & Hr & Hl & Hn).
    - split; [reflexivity|]. exists rs. split; [exact H|]. split; [reflexivity|]. intro k. reflexivity.
    - cbn [fst]. rewrite (srepr_rows _ _ H). intros i [m1 []] Hi (Hc & ss & Hr & Hl & Hn). cbn [fst] in Hc, Hr.
      destruct (for_iter_change m1 ss i Hr ltac:(lia)) as (m2 & E2 & Hc2 & Hr2). rewrite E2.
      eexists. split; [reflexivity|]. cbn [fst]. split; [congruence|]. eexists. split; [exact Hr2|].
      split; [rewrite upd_length by lia; exact Hl|]. intro k. rewrite nth_upd by lia. rewrite !Hn.
      destruct (Nat.eqb_spec k i) as [->|].
      + destruct (Nat.ltb_spec i i), (Nat.ltb_spec i (i + 1)); try lia. reflexivity.
      + destruct (Nat.ltb_spec k i), (Nat.ltb_spec k (i + 1)); try lia; reflexivity.
    - cbn [fst] in Hc, Hr, Hn. rewrite (srepr_rows _ _ H) in Hn.
      assert (Hn' : forall k, nth k ss [] = chg k (nth k rs [])).
      { intro k. rewrite Hn. destruct (Nat.ltb_spec k (length rs)); [reflexivity|].
        rewrite nth_overflow by auto. reflexivity. }
      exists m'. split; [exact E|]. split.
      { exists ss. split; [exact Hr|]. intros k Hk. rewrite Hl in Hk. specialize (Hok k Hk). rewrite Hn', Hc.
        unfold chg. rewrite map_map. cbn [fst]. exact Hok. }
      split; [rewrite (srepr_rows _ _ H), (srepr_rows _ _ Hr); exact Hl|]. split; [exact Hc|].
      intros i j v. rewrite (srepr_stored _ _ _ _ _ Hr), Hn'. unfold chg. rewrite in_map_iff. split.
      + intros ([j' w] & E' & Hin). cbn [fst snd] in E'. injection E' as <- <-. exists w.
        rewrite (srepr_stored _ _ _ _ _ H). auto.
      + intros (w & Hs & ->). rewrite (srepr_stored _ _ _ _ _ H) in Hs. exists (j, w). auto.
  Qed.
End Change.

(** Position [k] of the arrays holds the entry at row [p] and column [q]. *)
Definition at_position {V} (m : smat V) (p q k : nat) : Prop :=
  p < s_rows m /\ nth p (rnz m) 0 <= k < nth (p + 1) (rnz m) 0 /\ nth_error (cidx m) k = Some q.

Section Scale.
  Context {V : Type}.
  Variable op : V -> V -> V.
  Implicit Types (m : smat V).

  Lemma at_order m p q k i j l : swf m -> at_position m p q k -> at_position m i j l ->
    (l <= k <-> i < p \/ (i = p /\ j <= q)).
  Proof.
    intros (rs & H & Hok) (Hp & Hk & Eq) (Hi & Hl & Ej). rewrite (srepr_rows _ _ H) in Hp, Hi.
    rewrite !(srepr_nth m rs p) in Hk by (auto; lia). rewrite !(srepr_nth m rs i) in Hl by (auto; lia).
    destruct (lt_eq_lt_dec i p) as [[Hip|<-]|Hpi].
    - pose proof (start_mono rs (i + 1) p ltac:(lia)). split; [left; auto|]. intros _. lia.
    - rewrite start_S' in Hk, Hl by auto. destruct (Hok i Hi) as [Ha _].
      replace k with (start rs i + (k - start rs i)) in Eq by lia.
      replace l with (start rs i + (l - start rs i)) in Ej by lia.
      rewrite (srepr_cidx_nth m rs) in Eq, Ej by (auto; lia). rewrite <- nth_error_map' in Eq, Ej.
      assert (Hm : forall a b x y, a < b -> nth_error (map fst (nth i rs [])) a = Some x ->
                     nth_error (map fst (nth i rs [])) b = Some y -> x < y).
      { revert Ha. generalize (map fst (nth i rs [])) as r. clear. intros r Ha.
        induction Ha as [|z r Hr IH Hall]; intros [|a] [|b] x y Hab Ea Eb; try discriminate; try lia.
        - cbn in Ea, Eb. injection Ea as ->. rewrite Forall_forall in Hall. apply Hall. eapply nth_error_In; eauto.
        - cbn in Ea, Eb. apply (IH a b); auto; lia. }
      split; intro C.
      + right. split; [reflexivity|]. destruct (Nat.eq_dec l k) as [->|]; [rewrite Eq in Ej; injection Ej as ->; lia|].
        specialize (Hm (l - start rs i) (k - start rs i) j q ltac:(lia) Ej Eq). lia.
      + destruct (Nat.le_gt_cases l k); auto.
        specialize (Hm (k - start rs i) (l - start rs i) q j ltac:(lia) Eq Ej). lia.
    - pose proof (start_mono rs (p + 1) i ltac:(lia)). split; [lia|]. intros [|[]]; lia.
  Qed.

  Lemma stored_at m i j v : stored m i j v <-> exists k, at_position m i j k /\ nth_error (vals m) k = Some v.
  Proof.
    unfold stored, at_position. split.
    - intros (Hi & k & Hk & Hc & Hv). exists k. auto.
    - intros (k & (Hi & Hk & Hc) & Hv). split; [exact Hi|]. exists k. auto.
  Qed.

  Lemma swf_lengths m : swf m -> length (cidx m) = length (vals m).
  Proof. intros (rs & (_ & -> & ->) & _). rewrite !map_length. reflexivity. Qed.

  Lemma new_vals m (vs : list V) i j v : (stored (mkS (rnz m) (cidx m) vs (csize m)) i j v <->
    exists k, at_position m i j k /\ nth_error vs k = Some v).
  Proof. apply (stored_at (mkS (rnz m) (cidx m) vs (csize m))). Qed.

  Lemma scale_ext m x : swf m ->
    exists m', s_scale_by op m (Ext x) = Ok m' /\
      forall i j v, stored m' i j v <-> exists w, stored m i j w /\ v = op w x.
  Proof.
    intros Hm. unfold s_scale_by.
    destruct (v_scale_ext op (length (vals m)) (vals m) (fun i => nth i (vals m) x) x) as (u & E & Hl & Hu).
    { split; [reflexivity|]. intros i Hi. apply nth_error_nth'. auto. }
    rewrite E. cbn [bind]. eexists. split; [reflexivity|]. intros i j v. rewrite new_vals. split.
    - intros (k & Hk & Ev). pose proof (nth_error_lt_Some _ _ _ Ev) as Hlt. rewrite Hl in Hlt. rewrite Hu in Ev by auto.
      injection Ev as <-. exists (nth k (vals m) x). split; [|reflexivity]. apply stored_at. exists k.
      split; [exact Hk|]. apply nth_error_nth'. auto.
    - intros (w & Hs & ->). apply stored_at in Hs as (k & Hk & Ev). exists k. split; [exact Hk|].
      pose proof (nth_error_lt_Some _ _ _ Ev) as Hlt. rewrite Hu by auto. rewrite (nth_error_nth _ _ x Ev). reflexivity.
  Qed.

  Lemma scale_own m p q x k : swf m -> stored m p q x -> at_position m p q k ->
    exists m', s_scale_by op m (Own k) = Ok m' /\
      forall i j v, stored m' i j v <-> exists w, stored m i j w /\
        v = op w (if (i <? p) || ((i =? p) && (j <=? q)) then x else op x x).
  Proof.
    intros Hm Hx Hk. unfold s_scale_by.
    assert (Hkl : k < length (vals m)).
    { rewrite <- (swf_lengths m Hm). destruct Hk as (_ & _ & E). eapply nth_error_lt_Some; eauto. }
    assert (Ek : nth k (vals m) x = x).
    { apply (stored_unique m p q); auto. apply stored_at. exists k. split; [exact Hk|]. apply nth_error_nth'. auto. }
    destruct (v_scale_own op (length (vals m)) (vals m) (fun i => nth i (vals m) x) k) as (u & E & Hl & Hu); auto.
    { split; [reflexivity|]. intros i Hi. apply nth_error_nth'. auto. }
    cbn beta in Hu. rewrite Ek in Hu. rewrite E. cbn [bind]. eexists. split; [reflexivity|].
    assert (Hc : forall i j l, at_position m i j l ->
      (if l <=? k then x else op x x) = if (i <? p) || ((i =? p) && (j <=? q)) then x else op x x).
    { intros i j l Hp. pose proof (at_order m p q k i j l Hm Hk Hp) as Ho.
      destruct (Nat.leb_spec l k) as [Hlk|Hlk], (Nat.ltb_spec i p), (Nat.eqb_spec i p), (Nat.leb_spec j q);
        cbn [orb andb]; auto; exfalso; intuition lia. }
    intros i j v. rewrite new_vals. split.
    - intros (l & Hp & Ev). pose proof (nth_error_lt_Some _ _ _ Ev) as Hlt. rewrite Hl in Hlt. rewrite Hu in Ev by auto.
      injection Ev as <-. exists (nth l (vals m) x). rewrite (Hc i j l Hp). split; [|reflexivity]. apply stored_at.
      exists l. split; [exact Hp|]. apply nth_error_nth'. auto.
    - intros (w & Hs & ->). apply stored_at in Hs as (l & Hp & Ev). exists l. split; [exact Hp|].
      pose proof (nth_error_lt_Some _ _ _ Ev) as Hlt. rewrite Hu by auto. rewrite (nth_error_nth _ _ x Ev), (Hc i j l Hp).
      reflexivity.
  Qed.
End Scale.

Lemma scale_sparse {V} (op : V -> V -> V) (m : smat V) (s : sref V) x : swf m ->
  s = Ext x \/
  (exists p q k, s = Own k /\ at_position m p q k /\ stored m p q x /\
                 forall i j v, stored m i j v -> i < p \/ (i = p /\ j <= q)) ->
  exists m', s_scale_by op m s = Ok m' /\
    forall i j v, stored m' i j v <-> exists w, stored m i j w /\ v = op w x.
Proof.
  intros Hm [->|(p & q & k & -> & Hk & Hx & Hlast)]; [exact (scale_ext op m x Hm)|].
  destruct (scale_own op m p q x k Hm Hx Hk) as (m' & E & Hs). exists m'. split; [exact E|].
  assert (Hc : forall i j w, stored m i j w -> (i <? p) || ((i =? p) && (j <=? q)) = true).
  { intros i j w Hw. destruct (Hlast i j w Hw) as [Hi|[-> Hj]].
    - apply orb_true_intro. left. apply Nat.ltb_lt, Hi.
    - apply orb_true_intro. right. rewrite Nat.eqb_refl. apply Nat.leb_le, Hj. }
  intros i j v. rewrite Hs. split; intros (w & Hw & ->); exists w; split; auto; rewrite (Hc i j w Hw); reflexivity.
Qed.

Lemma subscripts {V} stray (m : smat V) i : swf m -> i < s_rows m ->
  exists b e es, row_begin m i = Ok b /\ row_end stray m i = Ok e /\ row_entries stray m i = Ok es /\
    e_distance e b = length es /\ fst b = i /\
    (forall n j v, nth_error es n = Some (j, v) -> e_at m b n = Ok v /\ i_column m (fst b, snd b + n) = Ok j) /\
    (forall n, r_at i n = i + n).
Proof.
  intros (rs & H & Hok) Hi. rewrite (srepr_rows _ _ H) in Hi.
  rewrite (row_begin_ok m rs i H Hi), (row_end_ok stray m rs i H Hi), (row_entries_ok stray m rs i H Hi).
  do 3 eexists. do 3 (split; [reflexivity|]). split; [unfold e_distance; cbn [snd]; rewrite start_S' by auto; lia|].
  split; [reflexivity|]. split; [|reflexivity]. intros n j v En. pose proof (nth_error_lt_Some _ _ _ En) as Hl.
  unfold e_at, deref, i_column, vget. cbn [fst snd].
  rewrite (srepr_cidx_nth m rs i n H Hi Hl), (srepr_vals_nth m rs i n H Hi Hl), En. split; reflexivity.
Qed.

Lemma scale_own_witness : exists (m m' : smat Z), swf m /\ stored m 0 0 2%Z /\ at_position m 0 0 0 /\
  s_scale_by Z.mul m (Own 0) = Ok m' /\ stored m 1 1 3%Z /\ stored m' 1 1 12%Z /\ ~ stored m' 1 1 6%Z.
Proof.
  exists (mkS [0; 1; 2] [0; 1] [2; 3]%Z 2), (mkS [0; 1; 2] [0; 1] [4; 12]%Z 2).
  assert (Hr : srepr (mkS [0; 1; 2] [0; 1] [2; 3]%Z 2) [[(0, 2%Z)]; [(1, 3%Z)]]) by (split; [left|split]; reflexivity).
  assert (Hr' : srepr (mkS [0; 1; 2] [0; 1] [4; 12]%Z 2) [[(0, 4%Z)]; [(1, 12%Z)]]) by (split; [left|split]; reflexivity).
  split.
  { exists [[(0, 2%Z)]; [(1, 3%Z)]]. split; [exact Hr|]. intros [|[|k]] Hk; cbn in *; try lia;
      (split; [repeat constructor|intros j [<-|[]]; lia]). }
  split; [apply (srepr_stored _ _ _ _ _ Hr); cbn; auto|].
  split; [repeat split; cbn; lia|]. split; [reflexivity|].
  split; [apply (srepr_stored _ _ _ _ _ Hr); cbn; auto|].
  split; [apply (srepr_stored _ _ _ _ _ Hr'); cbn; auto|].
  rewrite (srepr_stored _ _ _ _ _ Hr'). cbn. intros [E|[]]. discriminate.
Qed.
