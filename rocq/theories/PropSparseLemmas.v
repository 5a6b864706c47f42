(** Proofs of the property theorems about sparse matrices (C32 to C42, C66) and the example values. *)
From Coq Require Import ZArith Ring_theory ZArithRing.
From Verif Require Import Base ListFacts Csr SparseModel SparseSpec SparseFacts SparseUpdate SparseInsert
  SparseSeq SparseArith SparseMul SparseCtor.

Lemma lbound_below l v n x : n < lbound l v -> nth_error l n = Some x -> x < v.
Proof.
  intros Hn E. apply (lbound_firstn l v). apply nth_error_In with n. rewrite nth_error_firstn.
  destruct (Nat.ltb_spec n (lbound l v)); [exact E|lia].
Qed.

Lemma lbound_at l v x : nth_error l (lbound l v) = Some x -> v <= x.
Proof.
  induction l as [|y l IH]; cbn [lbound]; [discriminate|].
  destruct (Nat.ltb_spec y v); cbn [nth_error]; auto. intro E. injection E as <-. auto.
Qed.

Lemma ascending_nth l n k x y : ascending l -> nth_error l n = Some x -> nth_error l k = Some y -> n < k -> x < y.
Proof.
  revert n k. induction l as [|z l IH]; intros n k Ha E1 E2 Hn; [destruct n; discriminate|].
  apply ascending_cons in Ha as [Ha Hf]. rewrite Forall_forall in Hf.
  destruct k as [|k]; [lia|]. cbn [nth_error] in E2. destruct n as [|n]; cbn [nth_error] in E1.
  - injection E1 as <-. apply Hf. eapply nth_error_In; eauto.
  - eapply IH; eauto. lia.
Qed.

Section PropSparse.
  Context {V : Type}.
  Variables (vzero : V) (vadd vmul : V -> V -> V) (vopp : V -> V).
  Variables (M : nat) (dbg : bool) (stray : option nat).
  Implicit Types (m o : smat V) (a : amat V).

  (** What the read operations report about a matrix holding [a]. *)
  Definition reads m a : Prop :=
    s_nnz m = acount a /\
    (forall i j v, aget a i j = Some v ->
       s_contains stray m i j = Ok true /\ s_subscript_const dbg stray m i j = Ok v /\
       exists it, s_find stray m i j = Ok it /\ s_lower_bound stray m i j = Ok it /\
         fst it = i /\ i_column m it = Ok j /\ deref m it = Ok v) /\
    (forall i j, i < arows a -> aget a i j = None ->
       s_contains stray m i j = Ok false /\ (dbg = true -> s_subscript_const dbg stray m i j = Abort) /\
       exists it, s_find stray m i j = Ok it /\ row_end stray m i = Ok it) /\
    (forall i j, i < arows a -> exists it e, s_lower_bound stray m i j = Ok it /\ row_end stray m i = Ok e /\
       fst it = i /\
       ((it = e /\ forall j', j <= j' -> aget a i j' = None) \/
        (exists j' v, j <= j' /\ i_column m it = Ok j' /\ deref m it = Ok v /\ aget a i j' = Some v /\
           forall k, j <= k < j' -> aget a i k = None))).

  Lemma reads_ok m a : swf m -> holds m a -> reads m a.
  Proof using. clear vadd vmul vopp.
    intros Hw Hh. pose proof Hh as (Hr & Hc & Hs).
    assert (Hnone : forall i j, aget a i j = None -> forall v, ~ stored m i j v).
    { intros i j E v Hv. apply Hs in Hv. congruence. }
    split; [apply nnz_count; auto|]. split; [|split].
    - intros i j v E. apply Hs in E as Hst. pose proof (stored_bounds _ _ _ _ Hw Hst) as [Hi _].
      destruct (contains_stored stray m i j Hw Hi) as (b & Eb & Hb).
      assert (b = true) as -> by (apply Hb; eauto). split; auto.
      split; [apply subscript_const_stored; auto|].
      destruct (find_stored stray m i j v Hw Hst) as (p & E1 & E2 & _ & E3 & E4).
      exists (i, p). auto 6.
    - intros i j Hi E. rewrite <- Hr in Hi. specialize (Hnone i j E).
      destruct (contains_stored stray m i j Hw Hi) as (b & Eb & Hb).
      assert (b = false) as ->.
      { destruct b; auto. destruct Hb as [Hb _]. destruct (Hb eq_refl) as [v Hv]. exfalso. eapply Hnone; eauto. }
      split; auto. split.
      + intros Ed. rewrite Ed. apply subscript_const_missing; auto.
      + destruct (find_missing stray m i j Hw Hi Hnone) as (E1 & p & E2). exists (i, p).
        rewrite E1. auto.
    - intros i j Hi. rewrite <- Hr in Hi. destruct Hw as (rs & H & Hok).
      pose proof Hi as Hi0. rewrite (srepr_rows _ _ H) in Hi.
      rewrite (s_lower_bound_ok _ _ _ _ _ H Hi), (row_end_ok _ _ _ _ H Hi).
      destruct (Hok i Hi) as [Ha _].
      assert (Hst : forall j v, aget a i j = Some v <-> In (j, v) (nth i rs [])).
      { intros. rewrite <- Hs. apply srepr_stored, H. }
      set (q := lbound (map fst (nth i rs [])) j).
      exists (i, start rs i + q), (i, start rs (i + 1)). split; auto. split; auto. split; auto.
      assert (Hlow : forall k v, In (k, v) (nth i rs []) -> j <= k ->
                exists n, q <= n < length (nth i rs []) /\ nth_error (nth i rs []) n = Some (k, v)).
      { intros k v Hin Hk. apply In_nth_error in Hin as (n & Hn). exists n. split; auto.
        split; [|apply nth_error_lt_Some in Hn; exact Hn].
        destruct (Nat.lt_ge_cases n q) as [Hlt|]; auto. exfalso.
        assert (Hnc : nth_error (map fst (nth i rs [])) n = Some k) by (rewrite nth_error_map', Hn; reflexivity).
        pose proof (lbound_below _ _ _ _ Hlt Hnc). lia. }
      destruct (nth_error (nth i rs []) q) as [[j' v]|] eqn:Eq.
      + right. exists j', v. pose proof (nth_error_lt_Some _ _ _ Eq) as Hq.
        assert (Hjj : j <= j').
        { assert (Hnc : nth_error (map fst (nth i rs [])) q = Some j') by (rewrite nth_error_map', Eq; reflexivity).
          eapply lbound_at; eauto. }
        split; auto. unfold i_column, deref, vget. cbn [snd].
        rewrite (srepr_cidx_nth m rs), (srepr_vals_nth m rs), Eq by auto. cbn [option_map fst snd].
        split; auto. split; auto. split; [apply Hst; eapply nth_error_In; eauto|].
        intros k Hk. destruct (aget a i k) as [w|] eqn:Ek; auto. exfalso.
        apply Hst in Ek. destruct (Hlow k w Ek ltac:(lia)) as (n & Hn & En).
        assert (Hle : j' <= k); [|lia].
        destruct (Nat.eq_dec n q) as [->|Hne]; [rewrite Eq in En; injection En as -> _; lia|].
        assert (E1 : nth_error (map fst (nth i rs [])) q = Some j') by (rewrite nth_error_map', Eq; reflexivity).
        assert (E2 : nth_error (map fst (nth i rs [])) n = Some k) by (rewrite nth_error_map', En; reflexivity).
        pose proof (ascending_nth _ _ _ _ _ Ha E1 E2 ltac:(lia)). lia.
      + left. apply nth_error_None in Eq. pose proof (lbound_le (map fst (nth i rs [])) j) as Hle.
        rewrite map_length in Hle. fold q in Hle. rewrite start_S' by auto. split; [f_equal; lia|].
        intros j' Hj'. destruct (aget a i j') as [w|] eqn:Ek; auto. exfalso.
        apply Hst in Ek. destruct (Hlow j' w Ek Hj') as (n & Hn & _). lia.
  Qed.

  Lemma finite_map os : apres os amat_default ->
    (forall i j, In (OErase i j) os -> dbg = true -> stray <> None) ->
    exists m, run_ops vzero M dbg stray os s_default = Ok m /\ holds m (aops os amat_default) /\
      reads m (aops os amat_default).
  Proof using. clear vadd vmul vopp.
    intros Hp He. destruct (run_ops_ok vzero M dbg stray os s_default amat_default swf_default holds_default Hp He)
      as (m & E & Hw & Hh).
    exists m. split; auto. split; auto. apply reads_ok; auto.
  Qed.

  Lemma storage os : apres os amat_default ->
    (forall i j, In (OErase i j) os -> dbg = true -> stray <> None) ->
    exists m, run_ops vzero M dbg stray os s_default = Ok m /\ csr_invariant m /\
      forall i, i < s_rows m -> exists es, row_entries stray m i = Ok es /\ StronglySorted lt (map fst es) /\
        (forall j, In j (map fst es) -> j < csize m) /\ forall j v, In (j, v) es <-> stored m i j v.
  Proof using. clear vadd vmul vopp.
    intros Hp He. destruct (run_ops_ok vzero M dbg stray os s_default amat_default swf_default holds_default Hp He)
      as (m & E & Hw & Hh).
    exists m. split; auto. split; [apply swf_csr_invariant; auto|].
    intros i Hi. destruct (row_entries_spec stray m i Hw Hi) as (es & Ee & Ha & Hin).
    exists es. split; auto. split; auto. split; auto.
    intros j Hj. apply in_map_fst_ex in Hj as [v Hv]. apply Hin in Hv.
    apply stored_bounds in Hv; tauto.
  Qed.

  Lemma erase_debug m it : swf m -> s_erase true None m it = Undef.
  Proof using. clear vadd vmul vopp.
    intros (rs & H & _). unfold s_erase, erase_check. rewrite (row_end_past None m rs H). reflexivity.
  Qed.

  (** C34 *)
  Lemma at_cases m i j : swf m ->
    (forall v, stored m i j v -> s_at stray m i j = Ok v) /\
    (s_rows m <= i \/ csize m <= j -> s_at stray m i j = Abort) /\
    (i < s_rows m -> j < csize m -> (forall v, ~ stored m i j v) ->
       ((exists j' v, j < j' /\ stored m i j' v) -> s_at stray m i j = Abort) /\
       ((forall j' v, j < j' -> ~ stored m i j' v) ->
          s_at stray m i j =
            match nth_error (cidx m) (nth (i + 1) (rnz m) 0), nth_error (vals m) (nth (i + 1) (rnz m) 0) with
            | Some c, Some v => if j =? c then Ok v else Abort
            | _, _ => Undef
            end)).
  Proof using. clear vadd vmul vopp.
    intros Hw. unfold s_at. split; [|split].
    - intros v Hst. destruct (stored_bounds _ _ _ _ Hw Hst) as [Hi Hj].
      destruct (find_stored stray m i j v Hw Hst) as (p & _ & E & _ & Ec & Ed).
      destruct (Nat.ltb_spec i (s_rows m)), (Nat.ltb_spec j (csize m)); try lia. cbn [ASSERT bind].
      rewrite E. cbn [bind]. rewrite Ec. cbn [bind]. rewrite Nat.eqb_refl. exact Ed.
    - intros H. destruct (Nat.ltb_spec i (s_rows m)); cbn [ASSERT bind]; auto.
      destruct (Nat.ltb_spec j (csize m)); cbn [ASSERT bind]; auto. lia.
    - intros Hi Hj Hn. destruct (Nat.ltb_spec i (s_rows m)), (Nat.ltb_spec j (csize m)); try lia. clear H H0. cbn [ASSERT bind].
      destruct Hw as (rs & H & Hok). pose proof Hi as Hi0. rewrite (srepr_rows _ _ H) in Hi0.
      destruct (Hok i Hi0) as [Ha _].
      rewrite (s_lower_bound_ok _ _ _ _ _ H Hi0). cbn [bind]. set (q := lbound (map fst (nth i rs [])) j).
      pose proof (lbound_le (map fst (nth i rs [])) j) as Hle. rewrite map_length in Hle. fold q in Hle.
      split.
      + intros (j' & v & Hlt & Hst). apply (srepr_stored _ _ _ _ _ H) in Hst.
        apply In_nth_error in Hst as (n & En).
        assert (Hqn : q <= n).
        { destruct (Nat.lt_ge_cases n q) as [Hnq|]; auto.
          assert (Hnc : nth_error (map fst (nth i rs [])) n = Some j') by (rewrite nth_error_map', En; reflexivity).
          pose proof (lbound_below _ _ _ _ Hnq Hnc). lia. }
        pose proof (nth_error_lt_Some _ _ _ En) as Hnl.
        destruct (nth_error (nth i rs []) q) as [[c w]|] eqn:Eq; [|apply nth_error_None in Eq; lia].
        unfold i_column, vget. cbn [snd]. rewrite (srepr_cidx_nth m rs), Eq by (auto; lia).
        cbn [option_map fst bind].
        destruct (Nat.eqb_spec j c) as [<-|]; cbn [ASSERT bind]; auto.
        exfalso. apply (Hn w), (srepr_stored _ _ _ _ _ H). eapply nth_error_In; eauto.
      + intros Hall. assert (Hq : q = length (nth i rs [])).
        { destruct (Nat.eq_dec q (length (nth i rs []))) as [|Hne]; auto. exfalso.
          destruct (nth_error (nth i rs []) q) as [[c w]|] eqn:Eq; [|apply nth_error_None in Eq; lia].
          assert (Hc : j <= c).
          { assert (Hnc : nth_error (map fst (nth i rs [])) q = Some c) by (rewrite nth_error_map', Eq; reflexivity).
            eapply lbound_at; eauto. }
          apply nth_error_In in Eq. apply (srepr_stored _ _ _ _ _ H) in Eq.
          destruct (Nat.eq_dec j c) as [<-|]; [eapply Hn; eauto|]. eapply (Hall c w); eauto. lia. }
        rewrite Hq, <- start_S' by auto. rewrite (srepr_nth m rs i) by (auto; lia).
        unfold i_column, deref, vget. cbn [snd].
        destruct (nth_error (cidx m) (start rs (i + 1))) as [c|] eqn:Ec; cbn [bind]; auto.
        destruct (nth_error (vals m) (start rs (i + 1))) as [w|] eqn:Ev.
        * destruct (j =? c); reflexivity.
        * destruct H as (_ & Hc & Hv). apply nth_error_lt_Some in Ec. apply nth_error_None in Ev.
          rewrite Hc, map_length in Ec. rewrite Hv, map_length in Ev. lia.
  Qed.

  (** C35 *)
  Lemma resize_drops m r c : swf m -> csize m = 0 \/ 0 < c ->
    exists m', s_resize vzero M m r c = Ok m' /\ swf m' /\ s_rows m' = r /\ csize m' = c /\
      forall i j v, stored m' i j v <-> stored m i j v /\ i < r /\ j < c.
  Proof using. clear vadd vmul vopp.
    intros (rs & H & Hok) Hc. destruct (s_resize_ok vzero M m rs r c H) as (m' & E & H' & Hc' & _).
    exists m'. split; auto. split; [|split; [|split; auto]].
    - eexists. split; [exact H'|]. rewrite Hc'. apply resize_rows_ok; auto.
    - rewrite (srepr_rows _ _ H'). apply resize_rows_length.
    - intros i j v. rewrite (srepr_stored _ _ _ _ _ H'), (srepr_stored _ _ _ _ _ H).
      rewrite resize_rows_In by auto. cbn [fst]. tauto.
  Qed.

  Lemma resize_keeps m r : swf m -> 0 < csize m -> csize m <= M ->
    exists m', s_resize vzero M m r 0 = Ok m' /\ csize m' = 0 /\
      forall i j v, stored m' i j v <-> stored m i j v /\ i < r.
  Proof using. clear vadd vmul vopp.
    intros (rs & H & Hok) Hc HM. destruct (s_resize_ok vzero M m rs r 0 H) as (m' & E & H' & Hc' & _).
    exists m'. split; auto. split; auto.
    intros i j v. rewrite (srepr_stored _ _ _ _ _ H'), (srepr_stored _ _ _ _ _ H).
    rewrite resize_rows_nth. destruct (Nat.ltb_spec i r) as [Hi|Hi]; [|simpl; split; [tauto|lia]].
    destruct (Nat.ltb_spec 0 (csize m)); [|lia]. cbn [dec_wrap]. rewrite cutw_all; [tauto|].
    intros k Hk. destruct (row_facts _ _ i Hok) as [_ Hb]. specialize (Hb k Hk). lia.
  Qed.

  (** C36 *)
  Lemma lookups m i j : swf m -> i < s_rows m ->
    (exists it, s_find stray m i j = Ok it) /\ (exists it, s_lower_bound stray m i j = Ok it) /\
    (exists b, s_contains stray m i j = Ok b /\ (b = true <-> exists v, stored m i j v)).
  Proof using. clear vadd vmul vopp.
    intros Hw Hi. split; [|split; [|apply contains_stored; auto]].
    - destruct Hw as (rs & H & _). rewrite (srepr_rows _ _ H) in Hi. rewrite (s_find_ok _ _ _ _ _ H Hi). eauto.
    - destruct Hw as (rs & H & _). rewrite (srepr_rows _ _ H) in Hi. rewrite (s_lower_bound_ok _ _ _ _ _ H Hi). eauto.
  Qed.

  Lemma lookups_past m i j x : swf m -> s_rows m <= i -> stray = Some x ->
    s_find stray m i j = Ok (s_rows m, x) /\ s_lower_bound stray m i j = Ok (s_rows m, x) /\
    s_contains stray m i j = Ok false.
  Proof using. clear vadd vmul vopp.
    intros (rs & H & _) Hi Hs. rewrite (srepr_rows _ _ H) in Hi |- *.
    rewrite (s_find_past _ _ _ _ _ H Hi), (s_lower_bound_past _ _ _ _ _ H Hi), (s_contains_past _ _ _ _ _ x H Hi Hs).
    rewrite Hs. auto.
  Qed.

  Lemma lookups_undefined m i j : swf m -> s_rows m <= i ->
    s_find None m i j = Undef /\ s_lower_bound None m i j = Undef /\ s_contains None m i j = Undef.
  Proof using. clear vadd vmul vopp.
    intros (rs & H & _) Hi. rewrite (srepr_rows _ _ H) in Hi.
    unfold s_contains. rewrite (s_find_past None _ _ _ _ H Hi), (s_lower_bound_past None _ _ _ _ H Hi). auto.
  Qed.

  (** C38 *)
  Lemma plus_ok m o : swf m -> swf o -> s_rows m = s_rows o -> csize m = csize o ->
    exists m', s_plus vzero vadd vopp M dbg stray m o = Ok m' /\
      s_add_assign vzero vadd vopp M dbg stray m o = Ok m' /\ swf m' /\
      s_rows m' = s_rows m /\ csize m' = csize m /\
      (forall i j v, stored m' i j v <->
         (stored m i j v /\ (forall w, ~ stored o i j w)) \/
         (stored o i j v /\ (forall w, ~ stored m i j w)) \/
         (exists a b : V, stored m i j a /\ stored o i j b /\ v = vadd a b)).
  Proof using.
    intros Hw Hwo Hr Hc. destruct (add_spec vzero vadd vadd vopp M dbg stray true m o Hw Hwo Hr Hc)
      as (m' & E & Hw' & Hr' & Hc' & Hs).
    exists m'. unfold s_plus, s_add_assign.
    replace (ASSERT_DEBUG dbg _) with (Ok tt) by (rewrite Hr, Hc, !Nat.eqb_refl; destruct dbg; reflexivity).
    cbn [bind]. split; [exact E|]. split; [exact E|]. split; auto. split; auto. split; auto.
    intros i j v. rewrite Hs. cbn [sgn]. split.
    - intros [H|[(b & Hb & Hn & ->)|H]]; auto.
    - intros [H|[[Hb Hn]|H]]; auto. right; left. exists v. auto.
  Qed.

  Lemma minus_ok m o : swf m -> swf o -> s_rows m = s_rows o -> csize m = csize o ->
    exists m', s_minus vzero vadd vopp M dbg stray m o = Ok m' /\
      s_sub_assign vzero vadd vopp M dbg stray m o = Ok m' /\ swf m' /\
      s_rows m' = s_rows m /\ csize m' = csize m /\
      (forall i j v, stored m' i j v <->
         (stored m i j v /\ (forall w, ~ stored o i j w)) \/
         (exists b, stored o i j b /\ (forall w, ~ stored m i j w) /\ v = vopp b) \/
         (exists a b : V, stored m i j a /\ stored o i j b /\ v = vadd a (vopp b))).
  Proof using.
    intros Hw Hwo Hr Hc. destruct (add_spec vzero vadd vadd vopp M dbg stray false m o Hw Hwo Hr Hc)
      as (m' & E & Hw' & Hr' & Hc' & Hs).
    exists m'. unfold s_minus, s_sub_assign. split; [exact E|]. split; [exact E|]. auto.
  Qed.

  Lemma self_ok m : swf m ->
    (exists m', s_add_self vzero vadd vopp M dbg stray m = Ok m' /\ swf m' /\
      s_rows m' = s_rows m /\ csize m' = csize m /\
      (forall i j v, stored m' i j v <-> exists a : V, stored m i j a /\ v = vadd a a)) /\
    (exists m', s_sub_self vzero vadd vopp M dbg stray m = Ok m' /\ swf m' /\
      s_rows m' = s_rows m /\ csize m' = csize m /\
      (forall i j v, stored m' i j v <-> exists a : V, stored m i j a /\ v = vadd a (vopp a))).
  Proof using.
    intros Hw. split; [apply (add_self_spec vzero vadd vopp M dbg stray true m Hw)|
                       apply (add_self_spec vzero vadd vopp M dbg stray false m Hw)].
  Qed.

  (** C66 *)
  Lemma data_null m : swf m -> 0 < s_nnz m -> s_data m = Ok (None, None, None).
  Proof using. clear vadd vmul vopp.
    intros _ H. unfold s_data. destruct (s_nnz m) eqn:E; [lia|]. rewrite andb_false_r. reflexivity.
  Qed.

  (** What a matrix without rows answers. *)
  Lemma data_empty m : swf m ->
    (s_empty m = true <-> s_rows m = 0) /\
    (s_rows m = 0 -> s_data m = Ok (Some (rnz m), None, None) /\ (rnz m = [] \/ rnz m = [0])) /\
    (s_data m = Undef <-> 0 < s_rows m /\ s_nnz m = 0).
  Proof using.
    intro W. assert (E : s_empty m = true <-> s_rows m = 0).
    { unfold s_empty, s_rows. rewrite Nat.ltb_lt. destruct (rnz m) as [|x [|y l]]; cbn [length]; split; intro H; lia. }
    split; [exact E|]. split.
    - intro Z. assert (N : s_nnz m = 0 /\ (rnz m = [] \/ rnz m = [0])).
      { apply swf_csr_invariant in W. destruct W as [[(A & B & _)|(A & B & C)] _].
        - unfold s_nnz. rewrite B. auto.
        - unfold s_rows in Z. unfold s_nnz. destruct (rnz m) as [|x [|y l]]; cbn in *; [congruence| |lia]. subst x. auto. }
      destruct N as [N R]. unfold s_data. rewrite (proj2 E Z), N. auto.
    - unfold s_data. destruct (s_empty m) eqn:Em; destruct (Nat.eqb_spec (s_nnz m) 0) as [Hz|Hz]; cbn [negb andb].
      + split; [discriminate|]. intros [H _]. apply proj1 in E. rewrite E in H by reflexivity. lia.
      + split; [discriminate|]. intros [_ H]. lia.
      + split; [intros _|reflexivity]. split; [|exact Hz]. destruct (s_rows m) eqn:Er; [|lia]. destruct E as [_ E]. discriminate (E eq_refl).
      + split; [discriminate|]. intros [_ H]. lia.
  Qed.

  Lemma data_undefined m : 0 < s_rows m -> s_nnz m = 0 -> s_data m = Undef.
  Proof using. clear vadd vmul vopp.
    intros Hr Hz. unfold s_data. rewrite Hz. replace (s_empty m) with false; [reflexivity|].
    unfold s_empty, s_rows in *. destruct (rnz m) as [|x [|y l]]; simpl in *; try lia; auto.
  Qed.
End PropSparse.

(* ------------------------------------------------------------------ example values *)
(** [1 0 2; 0 3 0; 4 0 0] *)
Definition ex_ops : list (sop Z) :=
  [OInsert 2 0 4%Z; OInsert 0 2 9%Z; OAssign 0 2 2%Z; OInsert 0 0 1%Z; OInsert 1 1 3%Z; OInsert 1 2 7%Z;
   OErase 1 2; OResize 5 4; OSubscript 4 3 8%Z; OResize 3 3].

Definition ex_mat : smat Z := mkS [0; 2; 3; 4] [0; 2; 1; 0] [1; 2; 3; 4]%Z 3.

Lemma ex_run : run_ops 0%Z 100 false None ex_ops s_default = Ok ex_mat.
Proof. vm_compute. reflexivity. Qed.

Lemma ex_pre : apres ex_ops amat_default.
Proof. repeat split; cbn; try lia; try discriminate; auto; right; lia. Qed.

Lemma ex_swf : swf ex_mat.
Proof.
  destruct (run_ops_ok 0%Z 100 false None ex_ops s_default amat_default swf_default holds_default ex_pre)
    as (m & E & Hw & _); [discriminate|].
  rewrite ex_run in E. injection E as <-. exact Hw.
Qed.

Definition insertion_by (key : nat -> nat) (l : list nat) : list nat :=
  fold_right (fun x => fix ins l := match l with
                                    | [] => [x]
                                    | y :: r => if key x <=? key y then x :: l else y :: ins r
                                    end) [] l.

Lemma insertion_sorts : sorts insertion_by.
Proof.
  intros key l.
  set (ins := fun x : nat => fix ins l := match l with
                                    | [] => [x]
                                    | y :: r => if key x <=? key y then x :: l else y :: ins r
                                    end).
  assert (Hp : forall x l, Permutation (ins x l) (x :: l)).
  { intros x. induction l0 as [|y l0 IH]; simpl; auto. destruct (key x <=? key y); auto.
    rewrite IH. apply perm_swap. }
  assert (Hs : forall x l, StronglySorted (fun a b => key a <= key b) l ->
                StronglySorted (fun a b => key a <= key b) (ins x l)).
  { intros x. induction l0 as [|y l0 IH]; intro H; simpl.
    - constructor; constructor.
    - inversion H as [|? ? H1 H2]; subst. destruct (Nat.leb_spec (key x) (key y)).
      + constructor; auto. constructor; auto. eapply Forall_impl; [|exact H2]. cbn. intros; lia.
      + constructor; auto. apply Forall_forall. intros z Hz. apply (Permutation_in _ (Hp x l0)) in Hz.
        destruct Hz as [<-|Hz]; [lia|]. rewrite Forall_forall in H2. auto. }
  change (insertion_by key l) with (fold_right ins [] l). split.
  - induction l as [|x l IH]; simpl; auto. rewrite Hp, IH. reflexivity.
  - induction l as [|x l IH]; simpl; [constructor|]. apply Hs, IH.
Qed.

Lemma ex_represents : represents 0%Z ex_mat
  (fun i j => match i, j with 0, 0 => 1%Z | 0, 2 => 2%Z | 1, 1 => 3%Z | 2, 0 => 4%Z | _, _ => 0%Z end).
Proof.
  destruct ex_swf as (rs & H & Hok).
  assert (Hst : forall i j v, stored ex_mat i j v <-> In (j, v) (nth i [[(0, 1%Z); (2, 2%Z)]; [(1, 3%Z)]; [(0, 4%Z)]] [])).
  { intros i j v. apply srepr_stored. split; [left; reflexivity|split; reflexivity]. }
  intros i j. split.
  - intros v Hv. apply Hst in Hv.
    destruct i as [|[|[|i]]]; simpl in Hv; try (destruct i; destruct Hv);
      repeat (destruct Hv as [Hv|Hv]; [injection Hv as <- <-; reflexivity|]); destruct Hv.
  - intros Hn.
    assert (Hn' : forall v, ~ In (j, v) (nth i [[(0, 1%Z); (2, 2%Z)]; [(1, 3%Z)]; [(0, 4%Z)]] [])).
    { intros v Hv. apply (Hn v), Hst, Hv. }
    destruct i as [|[|[|i]]]; [| | |reflexivity].
    + destruct j as [|[|[|j]]]; auto; exfalso; [apply (Hn' 1%Z)|apply (Hn' 2%Z)]; simpl; auto.
    + destruct j as [|[|j]]; auto; exfalso. apply (Hn' 3%Z); simpl; auto.
    + destruct j as [|j]; auto; exfalso. apply (Hn' 4%Z); simpl; auto.
Qed.

Lemma Z_semi_ring : semi_ring_theory 0%Z 1%Z Z.add Z.mul eq.
Proof. constructor; intros; ring. Qed.

Lemma at_wrong : exists m : smat Z, swf m /\ (forall v, ~ stored m 0 1 v) /\
  (forall stray, s_at stray m 0 1 = Ok 7%Z) /\ stored m 1 1 7%Z.
Proof.
  exists (mkS [0; 1; 2] [0; 1] [5; 7]%Z 2).
  assert (H : srepr (mkS [0; 1; 2] [0; 1] [5; 7]%Z 2) [[(0, 5%Z)]; [(1, 7%Z)]]).
  { split; [left; reflexivity|split; reflexivity]. }
  split; [|split; [|split]].
  - eexists. split; [exact H|]. intros [|[|i]] Hi; simpl in Hi; try lia; simpl;
      (split; [repeat constructor|intros j [<-|[]]; lia]).
  - intros v Hv. apply (srepr_stored _ _ _ _ _ H) in Hv. simpl in Hv. destruct Hv as [E|[]]. discriminate.
  - reflexivity.
  - apply (srepr_stored _ _ _ _ _ H). simpl; auto.
Qed.

Lemma at_undefined : exists m : smat Z, swf m /\ 0 < s_rows m /\ 1 < csize m /\ (forall v, ~ stored m 0 1 v) /\
  forall stray, s_at stray m 0 1 = Undef.
Proof.
  exists (mkS [0; 1] [0] [5]%Z 2).
  assert (H : srepr (mkS [0; 1] [0] [5]%Z 2) [[(0, 5%Z)]]).
  { split; [left; reflexivity|split; reflexivity]. }
  split; [|split; [|split; [|split]]].
  - eexists. split; [exact H|]. intros [|i] Hi; simpl in Hi; try lia; simpl;
      (split; [repeat constructor|intros j [<-|[]]; lia]).
  - cbn; lia.
  - cbn; lia.
  - intros v Hv. apply (srepr_stored _ _ _ _ _ H) in Hv. simpl in Hv. destruct Hv as [E|[]]. discriminate.
  - reflexivity.
Qed.

Lemma resize_zero_keeps : exists (m m' : smat Z), swf m /\ s_resize 0%Z 100 m 3 0 = Ok m' /\
  csize m' = 0 /\ stored m' 0 2 2%Z.
Proof.
  destruct (resize_keeps 0%Z 100 ex_mat 3 ex_swf) as (m' & E & Hc & Hs); [cbn; lia|cbn; lia|].
  exists ex_mat, m'. split; [exact ex_swf|]. split; auto. split; auto. apply Hs. split; [|lia].
  split; [cbn; lia|]. exists 1. split; [cbn; lia|]. auto.
Qed.

Lemma mul_self_differs : exists (m m1 m2 : smat Z), swf m /\ csize m = s_rows m /\
  (forall M dbg stray, s_mul_self 0%Z Z.add Z.mul M dbg stray m = Ok m1 /\
                       s_times 0%Z Z.add Z.mul M dbg stray m m = Ok m2) /\
  stored m2 0 0 9%Z /\ (forall i j v, ~ stored m1 i j v).
Proof.
  exists ex_mat, (mkS [0; 0; 0; 0] [] [] 3), (mkS [0; 2; 3; 5] [0; 2; 1; 0; 2] [9; 2; 9; 4; 8]%Z 3).
  split; [exact ex_swf|]. split; [reflexivity|]. split.
  - intros M dbg stray. split; destruct dbg; vm_compute; reflexivity.
  - split.
    + split; [cbn; lia|]. exists 0. split; [cbn; lia|]. auto.
    + intros i j v (Hi & k & Hk & E & _). cbn [cidx] in E. destruct k; discriminate.
Qed.

Lemma element_plus : forall it n, 0 < n ->
  snd (e_plus it n) <> (fst it, snd it + n) /\ fst (e_plus_assign it n) <> (fst it, snd it + n) /\
  fst (e_minus_assign (fst it, snd it + n) n) <> it.
Proof.
  intros [i p] n Hn. cbn. split; [|split]; intro E; injection E as E; lia.
Qed.

Lemma row_plus : forall i n, 0 < n -> fst (r_plus i n) <> i /\ fst (r_minus (i + n) n) <> i + n.
Proof. intros i n Hn. cbn. lia. Qed.

Lemma iterators :
  (forall it, snd (e_incr it) = (fst it, snd it + 1) /\ fst (e_incr it) = snd (e_incr it) /\
              fst (e_post_incr it) = (fst it, snd it + 1) /\ snd (e_post_incr it) = it /\
              fst (e_decr (fst (e_incr it))) = it) /\
  (forall i, fst (r_incr i) = i + 1 /\ snd (r_incr i) = i + 1 /\ fst (r_decr (i + 1)) = i /\ snd (r_decr (i + 1)) = i) /\
  (forall i n, fst (r_plus_assign i n) = i + n /\ snd (r_plus_assign i n) = i + n /\
               fst (r_minus_assign (i + n) n) = i /\ snd (r_minus_assign (i + n) n) = i /\
               snd (r_plus i n) = i + n /\ snd (r_minus (i + n) n) = i).
Proof.
  split; [|split].
  - intros [i p]. cbn. rewrite Nat.add_sub. auto 6.
  - intros i. cbn. rewrite Nat.add_sub. auto.
  - intros i n. cbn. rewrite Nat.add_sub. auto 7.
Qed.

(** A constructed shape, and erasing at an end. *)
Section Shape.
  Context {V : Type}.
  Implicit Types m : smat V.
  Lemma psum_empty a n : psum a (repeat (@nil (nat * V)) n) = repeat a (n + 1).
  Proof.
    revert a. induction n as [|n IH]; intro a; [reflexivity|]. cbn [repeat psum Nat.add length].
    rewrite Nat.add_0_r, IH. reflexivity.
  Qed.

  Lemma shape_ok r c : swf (@s_shape V r c) /\ s_rows (@s_shape V r c) = r /\ csize (@s_shape V r c) = c /\
    s_nnz (@s_shape V r c) = 0 /\ (forall i j v, ~ stored (@s_shape V r c) i j v).
  Proof.
    assert (C : concat (repeat (@nil (nat * V)) r) = []) by (induction r; auto).
    assert (H : srepr (@s_shape V r c) (repeat [] r)).
    { split; [left; cbn [rnz s_shape]; symmetry; apply psum_empty|]. rewrite C. split; reflexivity. }
    assert (N : forall i, nth i (repeat (@nil (nat * V)) r) [] = []).
    { intros i. destruct (Nat.lt_ge_cases i r); [apply nth_repeat|apply nth_overflow; rewrite repeat_length; auto]. }
    split; [|split; [|split; [reflexivity|split]]].
    - exists (repeat [] r). split; [exact H|]. intros i _. rewrite N. split; [constructor|intros j []].
    - rewrite (srepr_rows _ _ H). apply repeat_length.
    - reflexivity.
    - intros i j v (_ & k & _ & E & _). destruct k; discriminate.
  Qed.

  Lemma erase_ends m x : swf m ->
    s_erase true (Some x) m (s_rows m, x) = Abort /\
    (forall i, i < s_rows m -> s_erase true (Some x) m (i, nth (i + 1) (rnz m) 0) = Abort).
  Proof.
    intros (rs & H & _). unfold s_erase, erase_check. rewrite (row_end_past (Some x) m rs H). cbn [bind].
    rewrite (srepr_rows _ _ H). split.
    - unfold eit_eqb. cbn [fst snd]. rewrite !Nat.eqb_refl. reflexivity.
    - intros i Hi. unfold eit_eqb at 1. cbn [fst snd]. destruct (Nat.eqb_spec i (length rs)); [lia|]. cbn [andb].
      unfold row_check. rewrite (srepr_rows _ _ H). destruct (Nat.ltb_spec i (length rs)); [|lia].
      cbn [ASSERT_DEBUG ASSERT bind]. rewrite (row_end_ok (Some x) m rs i H Hi). cbn [bind].
      rewrite (srepr_nth m rs i (i + 1) H Hi) by lia. unfold eit_eqb. cbn [fst snd]. rewrite !Nat.eqb_refl. reflexivity.
  Qed.
End Shape.
