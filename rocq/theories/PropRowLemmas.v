(** Proofs of the property theorems about rows of CSR_Data. *)
From Coq Require Import ZArith.
From Verif Require Import Base ListFacts Csr SparseModel SparseSpec SparseFacts SparseSeq CsrDataModel CsrData
  RowModel RowFacts SparseInsert PropSparseLemmas.

(** The last value a sequence of assignments gives to column [j]. *)
Fixpoint last_assigned {V} (l : list (nat * V)) (j : nat) : option V :=
  match l with
  | [] => None
  | (j', v) :: l => match last_assigned l j with
                    | Some w => Some w
                    | None => if j' =? j then Some v else None
                    end
  end.

Lemma row_view : forall V dbg (m : smat V) i, swf m -> i < s_rows m ->
  exists r l, w_new m i = Ok r /\ w_index m r = i /\ w_size m r = csize m /\
    w_elements m r = Ok l /\ StronglySorted lt (map fst l) /\
    (forall j v, In (j, v) l <-> stored m i j v) /\ w_size_non_zero m r = Ok (length l) /\
    (forall j v, stored m i j v -> w_at m r j = Ok v /\ w_read dbg m r j = Ok v) /\
    (forall j, (forall v, ~ stored m i j v) -> w_at m r j = Abort).
Proof.
  intros V dbg m i (rs & H & Hok) Hi. rewrite (srepr_rows _ _ H) in Hi.
  exists (mkRow i (start rs i) (start rs (i + 1))), (nth i rs []).
  pose proof (w_new_ok m rs i H Hi) as Hr. split; [exact Hr|].
  split; [eapply index_eq; eauto|]. split; [reflexivity|]. split; [eapply elements_eq; eauto|].
  split; [apply (Hok i Hi)|]. split; [intros j v; symmetry; apply srepr_stored, H|].
  split; [eapply size_eq; eauto|]. split; [intros; eapply at_stored; eauto|].
  intros j Hj. eapply (at_missing dbg); eauto.
Qed.

Lemma row_offsets : forall V (m : smat V) i, swf m -> i < s_rows m ->
  exists r rows, w_new m i = Ok r /\ length rows = i + 1 /\
    (forall k, k <= i -> exists rk, w_new m k = Ok rk /\ w_elements m rk = Ok (nth k rows [])) /\
    w_offset m r = Ok (length (concat rows)).
Proof.
  intros V m i (rs & H & Hok) Hi. rewrite (srepr_rows _ _ H) in Hi.
  exists (mkRow i (start rs i) (start rs (i + 1))), (firstn (i + 1) rs).
  split; [apply (w_new_ok m rs i H Hi)|]. split; [rewrite firstn_length; lia|]. split.
  - intros k Hk. assert (Hk' : k < length rs) by lia. eexists. split; [apply (w_new_ok m rs k H Hk')|].
    replace (nth k (firstn (i + 1) rs) []) with (nth k rs []).
    + eapply elements_eq; eauto. apply (w_new_ok m rs k H Hk').
    + rewrite <- (firstn_skipn (i + 1) rs) at 1. apply app_nth1. rewrite firstn_length. lia.
  - unfold w_offset. cbn [w_row]. apply (srepr_vget' _ _ _ H Hi).
Qed.

Lemma row_past : forall V (m : smat V) i, swf m -> s_rows m <= i -> w_new m i = Undef.
Proof.
  intros V m i (rs & H & Hok) Hi. rewrite (srepr_rows _ _ H) in Hi. eapply w_new_past; eauto.
Qed.

Lemma new_in_range V (m : smat V) i r : swf m -> w_new m i = Ok r -> i < s_rows m.
Proof.
  intros Hw Hr. destruct (Nat.lt_ge_cases i (s_rows m)) as [|Hi]; auto.
  rewrite (row_past V m i Hw Hi) in Hr. discriminate.
Qed.

Lemma sorted_rows_eq V (l l' : list (nat * V)) : StronglySorted lt (map fst l) -> StronglySorted lt (map fst l') ->
  (forall j v, In (j, v) l' <-> In (j, v) l) -> l' = l.
Proof.
  revert l'. induction l as [|[j v] l IH]; intros [|[j' v'] l'] Hs Hs' He; auto.
  - destruct (proj1 (He j' v')); simpl; auto.
  - destruct (proj2 (He j v)); simpl; auto.
  - cbn [map fst] in *. inversion Hs as [|? ? Hl Hf]; subst. inversion Hs' as [|? ? Hl' Hf']; subst.
    rewrite Forall_forall in Hf, Hf'.
    assert (Hlt : forall k w, In (k, w) l -> j < k) by (intros k w Hk; apply Hf, (in_map fst _ _ Hk)).
    assert (Hlt' : forall k w, In (k, w) l' -> j' < k) by (intros k w Hk; apply Hf', (in_map fst _ _ Hk)).
    assert (E : (j', v') = (j, v)).
    { destruct (proj1 (He j' v') (or_introl eq_refl)) as [E|E]; [auto|].
      destruct (proj2 (He j v) (or_introl eq_refl)) as [E'|E']; [auto|].
      apply Hlt in E. apply Hlt' in E'. lia. }
    rewrite E. injection E as -> ->. f_equal. apply IH; auto. intros k w. split; intros Hk.
    + destruct (proj1 (He k w) (or_intror Hk)) as [E|E]; [|auto]. injection E as <- <-. apply Hlt' in Hk. lia.
    + destruct (proj2 (He k w) (or_intror Hk)) as [E|E]; [|auto]. injection E as <- <-. apply Hlt in Hk. lia.
Qed.

Lemma stored_dec V (m : smat V) i j : swf m -> (exists v, stored m i j v) \/ (forall v, ~ stored m i j v).
Proof.
  intros (rs & H & Hok). destruct (in_dec Nat.eq_dec j (map fst (nth i rs []))) as [Hin|Hin].
  - left. apply in_map_fst_ex in Hin as [v Hv]. exists v. apply (srepr_stored _ _ _ _ _ H), Hv.
  - right. intros v Hv. apply Hin. apply (srepr_stored _ _ _ _ _ H) in Hv. apply (in_map fst) in Hv. exact Hv.
Qed.

Lemma row_assigns : forall V (vzero : V) M l (m : smat V) i r, swf m -> w_new m i = Ok r ->
  exists m' r', w_assigns vzero M l m r = Ok (m', r') /\ csr_invariant m' /\ swf m' /\
    w_new m' i = Ok r' /\ s_rows m' = s_rows m /\
    csize m' = fold_left Nat.max (map (fun x => fst x + 1) l) (csize m) /\
    (forall i' j w, i' <> i -> (stored m' i' j w <-> stored m i' j w)) /\
    (forall j w, stored m' i j w <->
       last_assigned l j = Some w \/ last_assigned l j = None /\ stored m i j w).
Proof.
  intros V vzero M l. induction l as [|[j v] l IH]; intros m i r Hw Hr; cbn [w_assigns last_assigned map fold_left fst].
  - exists m, r. split; [reflexivity|]. split; [apply swf_csr_invariant, Hw|]. split; [exact Hw|].
    split; [exact Hr|]. split; [reflexivity|]. split; [reflexivity|]. split; [tauto|].
    intros j w. split; [auto|intros [|[_ ]]]; [discriminate|auto].
  - destruct (assign_one vzero M m i r j v Hw Hr) as (m1 & r1 & E & Hw1 & Hr1 & Hs1 & Hc1 & Hst1 & _).
    rewrite E. cbn [bind fst snd].
    destruct (IH m1 i r1 Hw1 Hr1) as (m' & r' & E' & Hinv & Hw' & Hr' & Hs' & Hc' & Ho & Hi).
    exists m', r'. split; [exact E'|]. split; [exact Hinv|]. split; [exact Hw'|]. split; [exact Hr'|].
    split; [congruence|]. split; [rewrite Hc', Hc1; reflexivity|]. split.
    + intros i' j' w Hne. rewrite (Ho i' j' w Hne), Hst1. split; [intros [[? _]|[? _]]; [congruence|auto]|].
      intros Hx. right. split; auto. intros [? _]; congruence.
    + intros j' w. rewrite Hi, Hst1. destruct (last_assigned l j') as [u|].
      * split; (intros [Hx|[Hx _]]; [auto|discriminate]).
      * destruct (Nat.eqb_spec j j') as [->|Hne].
        -- split.
           ++ intros [Hx|[_ [(_ & _ & ->)|[_ Hx]]]]; [discriminate|auto|destruct Hx; auto].
           ++ intros [Hx|[Hx _]]; [injection Hx as <-; auto 10|discriminate].
        -- split.
           ++ intros [Hx|[_ [(_ & Hx & _)|[Hx _]]]]; [discriminate|congruence|auto].
           ++ intros [Hx|[_ Hx]]; [discriminate|]. right. split; auto. right. split; auto.
              intros [_ He]; congruence.
Qed.

Lemma row_others_differ : exists (m m' : smat Z) r1 r1' r2, swf m /\
  w_new m 0 = Ok r1 /\ w_new m 1 = Ok r2 /\ w_assign 0%Z 100 m r1 1 7%Z = Ok (m', r1') /\ swf m' /\
  w_elements m r2 = Ok [(1, 3%Z)] /\ stored m' 1 1 3%Z /\ w_elements m' r2 = Ok [(2, 2%Z)].
Proof.
  exists ex_mat, (mkS [0; 3; 4; 5] [0; 1; 2; 1; 0] [1; 7; 2; 3; 4]%Z 3), (mkRow 0 0 2), (mkRow 0 0 3), (mkRow 1 2 3).
  split; [exact ex_swf|]. split; [reflexivity|]. split; [reflexivity|]. split; [reflexivity|]. split; [|split; [reflexivity|]].
  - destruct (assign_one 0%Z 100 ex_mat 0 (mkRow 0 0 2) 1 7%Z ex_swf eq_refl) as (m' & r' & E & Hw & _).
    vm_compute in E. injection E as <- <-. exact Hw.
  - split; [|reflexivity]. split; [cbn; lia|]. exists 3. split; [cbn; lia|]. auto.
Qed.

Lemma row_overwrite : forall V (vzero : V) M (m : smat V) i r j v, swf m -> w_new m i = Ok r ->
  (exists w, stored m i j w) ->
  exists m', w_assign vzero M m r j v = Ok (m', r) /\ w_at_assign m r j v = Ok m' /\ swf m' /\
    (forall k, w_new m' k = w_new m k) /\
    (forall k r', w_new m k = Ok r' -> k <> i -> w_elements m' r' = w_elements m r') /\
    (forall j' w, stored m' i j' w <-> (j' = j /\ w = v) \/ (stored m i j' w /\ j' <> j)).
Proof.
  intros V vzero M m i r j v Hw Hr Hex.
  destruct (assign_one vzero M m i r j v Hw Hr) as (m' & r' & E & Hw' & Hr' & Hs' & Hc' & Hst & Hrow).
  specialize (Hrow Hex). assert (r' = r) as -> by (rewrite Hrow, Hr in Hr'; injection Hr' as ->; reflexivity).
  exists m'. split; [exact E|]. split.
  - revert E. unfold w_assign, w_at_assign. pose proof Hw as (rs & H & Hok).
    pose proof (new_in_range V m i r Hw Hr) as Hi. rewrite (srepr_rows _ _ H) in Hi.
    rewrite (index_eq m rs i r H Hi Hr). unfold c_insert_or_assign. rewrite c_insert_eq by auto.
    destruct Hex as [w Hws]. destruct (at_stored true m rs i r H Hok Hi Hr j w Hws) as [-> _].
    rewrite (columns_eq m rs i r H Hi Hr). cbn [bind].
    apply (srepr_stored _ _ _ _ _ H) in Hws. pose proof Hws as Hin. apply (in_map fst) in Hin. cbn [fst] in Hin.
    destruct (s_insert_ok vzero M false None m rs i j v H Hok) as (m1 & b & E1 & _ & Hb).
    destruct b; [destruct Hb; tauto|]. destruct Hb as [_ ->]. rewrite E1. cbn [bind fst snd].
    rewrite (view_eq m rs i r H Hi Hr). cbn [w_begin].
    destruct (Hok i Hi) as [Ha _]. rewrite vfind_lbound by auto.
    destruct (vset _ _ _); cbn [bind fst]; [|discriminate..].
    match goal with |- context [do _ <- ?x; _] => destruct x end; cbn [bind]; [|discriminate..]. intros E. inversion E. reflexivity.
  - split; [exact Hw'|]. split; [exact Hrow|]. split.
    + intros k r0 Hk Hne. pose proof (new_in_range V m k r0 Hw Hk) as Hkl.
      destruct (row_view V true m k Hw Hkl) as (r1 & l1 & E1 & _ & _ & El1 & Hs1 & Hl1 & _).
      rewrite Hk in E1. injection E1 as <-.
      destruct (row_view V true m' k Hw') as (r2 & l2 & E2 & _ & _ & El2 & Hs2 & Hl2 & _); [lia|].
      rewrite Hrow, Hk in E2. injection E2 as <-. rewrite El1, El2. f_equal.
      apply sorted_rows_eq; auto. intros j' w. rewrite Hl1, Hl2, Hst.
      split; [intros [[? _]|[? _]]; [congruence|auto]|]. intros Hx. right. split; auto. intros [? _]; congruence.
    + intros j' w. rewrite Hst. split.
      * intros [(_ & Hx)|[Hx Hy]]; [auto|]. right. split; auto.
      * intros [Hx|[Hx Hy]]; [auto|]. right. split; auto. intros [_ ?]; auto.
Qed.

Lemma row_read : forall V dbg (m : smat V) i r j, swf m -> w_new m i = Ok r ->
  (w_read dbg m r j = Abort <-> dbg = true /\ forall v, ~ stored m i j v) /\
  (w_read dbg m r j = Undef <-> dbg = false /\ forall v, ~ stored m i j v) /\
  (forall v, w_read dbg m r j = Ok v <-> stored m i j v).
Proof.
  intros V dbg m i r j Hw Hr. pose proof (new_in_range V m i r Hw Hr) as Hi. pose proof Hw as (rs & H & Hok).
  rewrite (srepr_rows _ _ H) in Hi. destruct (stored_dec V m i j Hw) as [[v Hv]|Hn].
  - destruct (at_stored dbg m rs i r H Hok Hi Hr j v Hv) as [_ ->].
    split; [split; [discriminate|intros [_ Hx]; destruct (Hx v Hv)]|].
    split; [split; [discriminate|intros [_ Hx]; destruct (Hx v Hv)]|].
    intros u. split; [intros E; injection E as <-; exact Hv|].
    intros Hu. f_equal. eapply stored_unique; eauto.
  - destruct (at_missing dbg m rs i r H Hi Hr j Hn) as [_ ->]. destruct dbg.
    + split; [tauto|]. split; [split; [discriminate|intros [? _]; discriminate]|].
      intros v. split; [discriminate|]. intros Hv. destruct (Hn v Hv).
    + split; [split; [discriminate|intros [? _]; discriminate]|]. split; [tauto|].
      intros v. split; [discriminate|]. intros Hv. destruct (Hn v Hv).
Qed.

Lemma row_read_release : exists (m : smat Z) r, swf m /\ w_new m 0 = Ok r /\ (forall v, ~ stored m 0 1 v) /\
  w_read false m r 1 = Undef.
Proof.
  exists ex_mat, (mkRow 0 0 2). split; [exact ex_swf|]. split; [reflexivity|].
  assert (E : w_read false ex_mat (mkRow 0 0 2) 1 = Undef) by reflexivity. split; [|exact E].
  intros v Hv. destruct (row_read Z false ex_mat 0 (mkRow 0 0 2) 1 ex_swf eq_refl) as (_ & _ & Hx).
  apply Hx in Hv. rewrite E in Hv. discriminate.
Qed.
