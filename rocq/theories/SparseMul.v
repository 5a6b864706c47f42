(** Product of sparse matrices, C39, C40. *)
From Coq Require Import Ring_theory.
From Verif Require Import Base ListFacts Csr SparseModel SparseSpec SparseFacts SparseUpdate SparseInsert SparseSeq.

Lemma holds_ext {V} (m : smat V) a b : holds m a -> arows a = arows b -> acols a = acols b ->
  (forall i j, aget a i j = aget b i j) -> holds m b.
Proof.
  intros (Hr & Hc & Hs) Er Ec E. split; [congruence|]. split; [congruence|].
  intros i j v. rewrite Hs, E. reflexivity.
Qed.

Lemma filter_column {V} (l : list (nat * V)) j : ascending (map fst l) ->
  filter (fun f => fst f =? j) l = [] \/ exists v, filter (fun f => fst f =? j) l = [(j, v)].
Proof.
  induction l as [|[k v] l IH]; cbn [map fst filter]; intro H; auto.
  apply ascending_cons in H as [Ha Hf]. destruct (Nat.eqb_spec k j) as [->|Hne]; auto.
  right. exists v. f_equal. apply filter_none. intros [k w] Hw. cbn [fst].
  rewrite Forall_forall in Hf. specialize (Hf k (in_map fst _ _ Hw)). apply Nat.eqb_neq. lia.
Qed.

Section Mul.
  Context {V : Type}.
  Variables (vzero : V) (vadd vmul : V -> V -> V).
  Variables (M : nat) (dbg : bool) (stray : option nat).
  Implicit Types (m o : smat V) (rs : list (list (nat * V))).

  Definition accum (x : option V) (t : V) : option V :=
    Some (match x with Some y => vadd y t | None => t end).

  Lemma accumulate_ok R C g m i j x : swf m -> holds m (mkA R C g) -> i < R -> j < C ->
    exists m', mul_accumulate vzero vadd M dbg stray i j x m = Ok m' /\ swf m' /\
      holds m' (mkA R C (aupd g i j (accum (g i j) x))).
  Proof.
    intros Hw Hh Hi Hj. pose proof Hh as (Hr & Hc & Hs). cbn [arows acols aget] in Hr, Hc, Hs.
    unfold mul_accumulate.
    destruct (contains_stored stray m i j Hw ltac:(lia)) as (b & Eb & Hb). rewrite Eb. cbn [bind].
    destruct b.
    - destruct Hb as [Hb _]. destruct (Hb eq_refl) as [w Hst]. clear Hb.
      pose proof (proj1 (Hs i j w) Hst) as Hg. rewrite Hg. unfold accum.
      destruct Hw as (rs & H & Hok).
      pose proof (proj1 (srepr_stored _ _ _ _ _ H) Hst) as Hin.
      pose proof (In_nth_rows _ _ _ Hin) as Hil. destruct (Hok i Hil) as [Ha _].
      pose proof (lbound_entry _ _ _ Ha Hin) as Hk.
      pose proof (nth_error_lt_Some _ _ _ Hk) as Hlt.
      unfold s_subscript_add.
      destruct (s_subscript_ok vzero M dbg stray m rs i j H Hok Hil) as (m1 & E1 & Hc1).
      rewrite E1. cbn [bind fst snd].
      destruct Hc1 as [[Hin1 ->]|[Hn _]]; [|exfalso; apply Hn; apply (in_map fst) in Hin; exact Hin].
      unfold deref. cbn [snd]. unfold vget. rewrite (srepr_vals_nth m rs) by auto.
      rewrite Hk. cbn [option_map snd bind].
      destruct (s_subscript_write_ok vzero M dbg stray m rs i j (vadd w x) _ _ H Hok Hil E1)
        as (m2 & E2 & Hc2 & Hr2).
      exists m2. split; auto. destruct Hr2 as [[_ Hr2]|[Hn _]]; [|tauto].
      assert (Hcs : csize m2 = csize m) by lia.
      split.
      + exists (set_rows i j (vadd w x) rs). split; auto. rewrite Hcs. eapply set_rows_ok; eauto.
      + apply (holds_intro m2 (set_rows i j (vadd w x) rs)); auto.
        * unfold set_rows. rewrite upd_length by auto. rewrite <- (srepr_rows _ _ H). auto.
        * cbn [acols]. lia.
        * intros i' j' v. cbn [aget]. rewrite (set_rows_In (csize m) _ _ _ w) by auto. cbn [fst].
          rewrite aupd_spec. rewrite <- (srepr_stored _ _ _ _ _ H), Hs.
          destruct (eqb_pair_spec i j i' j') as [[-> ->]|Hne].
          -- split; [intros [[_ E]|[_ Hx]]; [congruence|tauto]|intro E; left; split; congruence].
          -- split; [intros [[? E]|[Hx _]]; [exfalso; apply Hne; split; congruence|auto]|].
             intro E. right. auto.
    - destruct (run_op_ok vzero M dbg stray (OInsert i j x) m (mkA R C g) Hw Hh I) as (m' & E & Hw' & Hh');
        [intros; discriminate|].
      exists m'. cbn [run_op] in E. split; [exact E|]. split; auto.
      assert (Hg : g i j = None).
      { destruct (g i j) as [w|] eqn:Eg; auto. exfalso. destruct Hb as [_ Hb].
        enough (false = true) by discriminate. apply Hb. exists w. apply Hs, Eg. }
      rewrite Hg. cbn [aop aget] in Hh'. rewrite Hg in Hh'.
      apply (holds_ext _ _ _ Hh'); cbn [arows acols aget accum]; auto; lia.
  Qed.

  (** The terms added to column [j], in order, for the entries [es] of a row of the left operand. *)
  Definition terms (row : nat -> list (nat * V)) (es : list (nat * V)) (j : nat) : list (nat * (V * V)) :=
    flat_map (fun e => map (fun f => (fst e, (snd e, snd f)))
                           (filter (fun f => fst f =? j) (row (fst e)))) es.

  Definition term (t : nat * (V * V)) : V := vmul (fst (snd t)) (snd (snd t)).

  Lemma inner_ok R C i k (a : V) (os : list (nat * V)) : i < R -> (forall j, In j (map fst os) -> j < C) ->
    forall m g, swf m -> holds m (mkA R C g) ->
    exists m', forM os (fun f m => mul_accumulate vzero vadd M dbg stray i (fst f) (vmul a (snd f)) m) m = Ok m' /\
      swf m' /\
      holds m' (mkA R C (fun r j => if r =? i
        then fold_left accum (map term (map (fun f => (k, (a, snd f))) (filter (fun f => fst f =? j) os))) (g r j)
        else g r j)).
  Proof.
    intros Hi. induction os as [|[j0 b] os IH]; intros Hj m g Hw Hh; cbn [forM filter].
    - exists m. split; auto. split; auto. apply (holds_ext _ _ _ Hh); auto.
      intros r j. cbn [aget]. destruct (r =? i); reflexivity.
    - cbn [fst snd].
      destruct (accumulate_ok R C g m i j0 (vmul a b) Hw Hh Hi) as (m1 & E1 & Hw1 & Hh1);
        [apply Hj; simpl; auto|].
      rewrite E1. cbn [bind].
      destruct (IH ltac:(intros; apply Hj; simpl; auto) m1 _ Hw1 Hh1) as (m' & E & Hw' & Hh').
      exists m'. split; auto. split; auto. apply (holds_ext _ _ _ Hh'); auto.
      intros r j. cbn [aget fst]. destruct (Nat.eqb_spec r i) as [->|Hne].
      + rewrite aupd_spec, Nat.eqb_refl. cbn [andb]. rewrite (Nat.eqb_sym j0 j).
        destruct (Nat.eqb_spec j j0) as [->|Hnj]; reflexivity.
      + rewrite aupd_spec. destruct (Nat.eqb_spec r i); [lia|]. reflexivity.
  Qed.

  Lemma middle_ok R C i o os (es : list (nat * V)) : i < R -> srepr o os -> srows_ok C os ->
    (forall k, In k (map fst es) -> k < length os) ->
    forall m g, swf m -> holds m (mkA R C g) ->
    exists m',
      forM es (fun e m => do fs <- row_entries stray o (fst e);
                 forM fs (fun f m => mul_accumulate vzero vadd M dbg stray i (fst f) (vmul (snd e) (snd f)) m) m) m = Ok m' /\
      swf m' /\
      holds m' (mkA R C (fun r j => if r =? i
        then fold_left accum (map term (terms (fun k => nth k os []) es j)) (g r j) else g r j)).
  Proof.
    intros Hi Ho Hoko. induction es as [|[k a] es IH]; intros Hk m g Hw Hh; cbn [forM terms flat_map].
    - exists m. split; auto. split; auto. apply (holds_ext _ _ _ Hh); auto.
      intros r j. cbn [aget]. destruct (r =? i); reflexivity.
    - cbn [fst snd]. assert (Hkl : k < length os) by (apply Hk; simpl; auto).
      rewrite (row_entries_ok _ _ _ _ Ho Hkl). cbn [bind].
      destruct (inner_ok R C i k a (nth k os []) Hi (proj2 (Hoko k Hkl)) m g Hw Hh) as (m1 & E1 & Hw1 & Hh1).
      rewrite E1. cbn [bind].
      destruct (IH ltac:(intros; apply Hk; simpl; auto) m1 _ Hw1 Hh1) as (m' & E & Hw' & Hh').
      exists m'. split; auto. split; auto. apply (holds_ext _ _ _ Hh'); auto.
      intros r j. cbn [aget fst]. destruct (Nat.eqb_spec r i) as [->|Hne]; auto.
      rewrite map_app, fold_left_app. reflexivity.
  Qed.

  Lemma loops_ok C copy cs o os m : srepr copy cs -> srows_ok (csize copy) cs ->
    srepr o os -> srows_ok C os -> csize copy = length os ->
    swf m -> holds m (mkA (length cs) C (fun _ _ => None)) ->
    exists m', mul_loops vzero vadd vmul M dbg stray copy (fun _ => o) m = Ok m' /\ swf m' /\
      holds m' (mkA (length cs) C (fun r j =>
        fold_left accum (map term (terms (fun k => nth k os []) (nth r cs []) j)) None)).
  Proof.
    intros Hcp Hokc Ho Hoko Hcs Hw Hh. unfold mul_loops. rewrite (srepr_rows _ _ Hcp).
    destruct (FOR_inv (fun i s => swf s /\ holds s (mkA (length cs) C (fun r j =>
        if r <? i then fold_left accum (map term (terms (fun k => nth k os []) (nth r cs []) j)) None else None)))
      (length cs)
      (fun i m => do es <- row_entries stray copy i;
           forM es (fun e m =>
             do fs <- row_entries stray o (fst e);
             forM fs (fun f m => mul_accumulate vzero vadd M dbg stray i (fst f) (vmul (snd e) (snd f)) m) m) m) m)
      as (m' & E & Hw' & Hh').
    - split; auto.
    - intros i s Hi [Hws Hhs]. rewrite (row_entries_ok _ _ _ _ Hcp Hi). cbn [bind].
      destruct (middle_ok (length cs) C i o os (nth i cs []) Hi Ho Hoko) with (m := s) (2 := Hws) (3 := Hhs)
        as (m' & E & Hw' & Hh').
      { intros k Hk. rewrite <- Hcs. apply (Hokc i Hi), Hk. }
      exists m'. split; auto. split; auto. apply (holds_ext _ _ _ Hh'); auto.
      intros r j. cbn [aget]. destruct (Nat.eqb_spec r i) as [->|Hne].
      + destruct (Nat.ltb_spec i i), (Nat.ltb_spec i (i + 1)); try lia. reflexivity.
      + destruct (Nat.ltb_spec r i), (Nat.ltb_spec r (i + 1)); try lia; reflexivity.
    - exists m'. split; auto. split; auto. apply (holds_ext _ _ _ Hh'); auto.
      intros r j. cbn [aget]. destruct (Nat.ltb_spec r (length cs)); auto.
      rewrite nth_overflow by auto. reflexivity.
  Qed.

  Lemma terms_sorted (row : nat -> list (nat * V)) es j : ascending (map fst es) ->
    (forall k, In k (map fst es) -> ascending (map fst (row k))) ->
    ascending (map fst (terms row es j)) /\
    (forall k, In k (map fst (terms row es j)) -> In k (map fst es)).
  Proof.
    induction es as [|[k a] es IH]; intros Ha Hr; cbn [terms flat_map fst snd].
    - split; [constructor|auto].
    - cbn [map fst] in Ha. apply ascending_cons in Ha as [Ha Hf].
      destruct (IH Ha ltac:(intros; apply Hr; simpl; auto)) as [I1 I2]. fold (terms row es j).
      destruct (filter_column (row k) j ltac:(apply Hr; simpl; auto)) as [E|[v E]]; rewrite E; cbn [map app fst In].
      + split; auto.
      + split; [|intros k' [->|Hk]; auto]. apply ascending_cons. split; auto.
        rewrite Forall_forall in *. auto.
  Qed.

  Lemma terms_In (row : nat -> list (nat * V)) es j k a b :
    In (k, (a, b)) (terms row es j) <-> In (k, a) es /\ In (j, b) (row k).
  Proof.
    unfold terms. rewrite in_flat_map. split.
    - intros ([k' a'] & He & Hf). apply in_map_iff in Hf as ([j' b'] & E & Hf).
      apply filter_In in Hf as [Hf Hj]. cbn [fst snd] in *. apply Nat.eqb_eq in Hj as ->.
      injection E as -> -> ->. auto.
    - intros [He Hf]. exists (k, a). split; auto. apply in_map_iff. exists (j, b). split; auto.
      apply filter_In. split; auto. apply Nat.eqb_refl.
  Qed.

  Lemma fold_accum (ts : list V) v : fold_left accum ts None = Some v <->
    exists t r, ts = t :: r /\ v = fold_left vadd r t.
  Proof.
    assert (G : forall (r : list V) y, fold_left accum r (Some y) = Some (fold_left vadd r y)).
    { induction r as [|t r IH]; intro y; auto. cbn [fold_left accum]. apply IH. }
    destruct ts as [|t r]; cbn [fold_left].
    - split; [discriminate|]. intros (? & ? & ? & _). discriminate.
    - change (accum None t) with (Some t). rewrite G. split.
      + intro E. injection E as <-. eauto.
      + intros (t' & r' & E & ->). injection E as <- <-. reflexivity.
  Qed.

  Lemma mul_spec m o : swf m -> swf o -> csize m = s_rows o ->
    exists m', s_times vzero vadd vmul M dbg stray m o = Ok m' /\ swf m' /\
      s_rows m' = s_rows m /\ csize m' = csize o /\
      forall i j, exists ts : list (nat * (V * V)),
        StronglySorted lt (map fst ts) /\
        (forall k a b, In (k, (a, b)) ts <-> stored m i k a /\ stored o k j b) /\
        (forall v, stored m' i j v <->
           exists t r, map (fun t => vmul (fst (snd t)) (snd (snd t))) ts = t :: r /\
                       v = fold_left vadd r t).
  Proof.
    intros (cs & H & Hok) (os & Ho & Hoko) Hc. unfold s_times, s_mul_assign.
    rewrite Hc, Nat.eqb_refl.
    replace (ASSERT_DEBUG dbg true) with (Ok tt) by (destruct dbg; reflexivity). cbn [bind].
    destruct (run_op_ok vzero M dbg stray (OResize (s_rows m) (csize o)) s_default amat_default
                swf_default holds_default) as (fr & E & Hw & Hh); [left; reflexivity|discriminate|].
    cbn [run_op] in E. rewrite E. cbn [bind]. unfold s_swap. destruct fr as [z ci vs c].
    cbn [rnz cidx vals csize].
    destruct m as [mz mci mvs mc]. cbn [rnz cidx vals csize] in *.
    destruct (loops_ok (csize o) (mkS mz mci mvs mc) cs o os (mkS z ci vs c)) as (m' & E' & Hw' & Hh'); auto.
    { cbn [csize]. rewrite Hc. apply srepr_rows, Ho. }
    { apply (holds_ext _ _ _ Hh); auto.
      - cbn [arows aop]. apply srepr_rows, H.
      - intros i j. cbn [aget aop amat_default]. destruct (_ && _); reflexivity. }
    exists m'. split; auto. split; auto. destruct Hh' as (Hr & Hcc & Hs).
    cbn [arows acols aget] in *. split; [rewrite Hr; symmetry; apply srepr_rows, H|]. split; auto.
    intros i j. exists (terms (fun k => nth k os []) (nth i cs []) j).
    destruct (row_facts _ _ i Hok) as [Ha _].
    split; [|split].
    - apply terms_sorted; auto. intros k _. destruct (row_facts _ _ k Hoko) as [Hb _]. exact Hb.
    - intros k a b. rewrite terms_In, (srepr_stored _ _ _ _ _ H), (srepr_stored _ _ _ _ _ Ho). reflexivity.
    - intros v. rewrite Hs. apply fold_accum.
  Qed.

  (* ---------------------------------------------------------------- over a ring *)
  (** Sum over a range of indices. *)
  Fixpoint big_sum (n : nat) (f : nat -> V) : V :=
    match n with
    | 0 => vzero
    | S n' => vadd (big_sum n' f) (f n')
    end.

  (** The matrix as a function: the stored value, zero elsewhere. *)
  Definition represents m (f : nat -> nat -> V) : Prop :=
    forall i j, (forall v, stored m i j v -> f i j = v) /\ ((forall v, ~ stored m i j v) -> f i j = vzero).

  Lemma stored_dec m i j : swf m -> (exists v, stored m i j v) \/ (forall v, ~ stored m i j v).
  Proof.
    intros (rs & H & _). destruct (in_row_dec rs i j) as [[v Hv]|Hn].
    - left. exists v. apply (srepr_stored _ _ _ _ _ H), Hv.
    - right. intros v Hv. apply Hn. apply (srepr_stored _ _ _ _ _ H) in Hv.
      apply (in_map fst) in Hv. exact Hv.
  Qed.

  Lemma big_sum_terms (vone : V) n F (ts : list (nat * V)) :
    semi_ring_theory vzero vone vadd vmul eq ->
    ascending (map fst ts) -> (forall k, In k (map fst ts) -> k < n) ->
    (forall k v, In (k, v) ts -> F k = v) -> (forall k, k < n -> ~ In k (map fst ts) -> F k = vzero) ->
    big_sum n F = fold_left vadd (map snd ts) vzero.
  Proof.
    intros SR. revert ts. induction n as [|n IH]; intros ts Ha Hb H1 H2; cbn [big_sum].
    - destruct ts as [|[k v] ts]; [reflexivity|]. specialize (Hb k (or_introl eq_refl)). lia.
    - destruct (in_dec Nat.eq_dec n (map fst ts)) as [Hin|Hn].
      + destruct ts as [|x0 ts0]; [destruct Hin|]. set (ts := x0 :: ts0) in *.
        destruct (exists_last (l := ts) ltac:(discriminate)) as (l & [k v] & E).
        rewrite E in *. clear E ts x0 ts0. rewrite map_app in Ha, Hb, Hin, H2. cbn [map fst] in Ha, Hb, Hin, H2.
        apply ascending_app in Ha as (Ha & _ & Hlt).
        assert (k = n) as ->.
        { specialize (Hb k ltac:(apply in_app_iff; simpl; auto)) as Hk.
          apply in_app_iff in Hin as [Hin|[->|[]]]; auto.
          specialize (Hlt n k Hin (or_introl eq_refl)). lia. }
        rewrite map_app, fold_left_app. cbn [map fold_left snd].
        rewrite (H1 n v) by (apply in_app_iff; simpl; auto). f_equal.
        apply IH; auto.
        * intros k Hk. apply (Hlt k n Hk). simpl; auto.
        * intros k w Hk. apply H1. apply in_app_iff; auto.
        * intros k Hk Hnk. apply H2; [lia|]. rewrite in_app_iff. intros [Hx|[->|[]]]; [auto|lia].
      + rewrite (H2 n) by (auto; lia). rewrite (SRadd_comm SR), (SRadd_0_l SR).
        apply IH; auto.
        intros k Hk. specialize (Hb k Hk). assert (k <> n) by (intros ->; auto). lia.
  Qed.

  Lemma mul_ring (vone : V) m o f g : semi_ring_theory vzero vone vadd vmul eq ->
    swf m -> swf o -> csize m = s_rows o -> represents m f -> represents o g ->
    exists m', s_times vzero vadd vmul M dbg stray m o = Ok m' /\
      represents m' (fun i j => big_sum (csize m) (fun k => vmul (f i k) (g k j))).
  Proof.
    intros SR Hw Hwo Hc Hf Hg.
    destruct (mul_spec m o Hw Hwo Hc) as (m' & E & Hw' & _ & _ & H). exists m'. split; auto.
    intros i j. destruct (H i j) as (ts & Ha & Hin & Hst).
    set (us := map (fun t : nat * (V * V) => (fst t, vmul (fst (snd t)) (snd (snd t)))) ts).
    assert (Hfst : map fst us = map fst ts) by (unfold us; rewrite map_map; reflexivity).
    assert (Hsnd : map snd us = map (fun t => vmul (fst (snd t)) (snd (snd t))) ts)
      by (unfold us; rewrite map_map; reflexivity).
    assert (Hsum : big_sum (csize m) (fun k => vmul (f i k) (g k j)) = fold_left vadd (map snd us) vzero).
    { apply (big_sum_terms vone); auto.
      - rewrite Hfst. exact Ha.
      - intros k Hk. rewrite Hfst in Hk. apply in_map_iff in Hk as ([k' [a b]] & <- & Hk).
        apply Hin in Hk as [Hk _]. apply stored_bounds in Hk; auto. cbn [fst]. tauto.
      - intros k v Hk. apply in_map_iff in Hk as ([k' [a b]] & Ek & Hk). cbn [fst snd] in Ek.
        injection Ek as <- <-. apply Hin in Hk as [H1 H2].
        rewrite (proj1 (Hf i k') a H1), (proj1 (Hg k' j) b H2). reflexivity.
      - intros k _ Hk. rewrite Hfst in Hk.
        destruct (stored_dec m i k Hw) as [[a Hsa]|Hna].
        + destruct (stored_dec o k j Hwo) as [[b Hsb]|Hnb].
          * exfalso. apply Hk. apply in_map_iff. exists (k, (a, b)). split; auto. apply Hin. auto.
          * rewrite (proj2 (Hg k j) Hnb), (SRmul_comm SR). apply (SRmul_0_l SR).
        + rewrite (proj2 (Hf i k) Hna). apply (SRmul_0_l SR). }
    rewrite Hsum, Hsnd. split.
    - intros v Hv. apply Hst in Hv as (t & r & Er & ->). rewrite Er. cbn [fold_left].
      rewrite (SRadd_0_l SR). reflexivity.
    - intros Hn. destruct (map (fun t => vmul (fst (snd t)) (snd (snd t))) ts) as [|t r] eqn:Et; [reflexivity|].
      exfalso. apply (Hn (fold_left vadd r t)), Hst. eauto.
  Qed.

  (* ---------------------------------------------------------------- the aliased case *)
  Lemma loops_self_ok copy cs m R C : srepr copy cs -> srows_ok (csize copy) cs ->
    swf m -> holds m (mkA R C (fun _ _ => None)) -> csize copy = R ->
    mul_loops vzero vadd vmul M dbg stray copy (fun m => m) m = Ok m.
  Proof.
    intros Hcp Hokc Hw Hh Hcs. unfold mul_loops. rewrite (srepr_rows _ _ Hcp).
    match goal with |- FOR ?n ?f m = _ => destruct (FOR_inv (fun _ s => s = m) n f m) as (m' & E & ->) end; auto.
    intros i s Hi ->. rewrite (row_entries_ok _ _ _ _ Hcp Hi). cbn [bind]. exists m. split; auto.
    assert (G : forall es, (forall k, In k (map fst es) -> k < R) ->
      forM es (fun e m0 => do os <- row_entries stray m0 (fst e);
         forM os (fun f m1 => mul_accumulate vzero vadd M dbg stray i (fst f) (vmul (snd e) (snd f)) m1) m0) m = Ok m).
    { induction es as [|[k a] es IH]; intro Hk; cbn [forM fst snd]; auto.
      destruct Hh as (Hr & _ & Hs). cbn [arows aget] in Hr, Hs.
      destruct (row_entries_spec stray m k Hw) as (fs & E & _ & Hin).
      { rewrite Hr. apply Hk. simpl; auto. }
      rewrite E. cbn [bind].
      assert (fs = []) as ->.
      { destruct fs as [|[j v] fs]; auto. exfalso. specialize (proj1 (Hin j v) (or_introl eq_refl)) as Hx.
        apply Hs in Hx. discriminate. }
      cbn [forM bind]. apply IH. intros k' Hk'. apply Hk. simpl; auto. }
    apply G. intros k Hk. rewrite <- Hcs. apply (Hokc i Hi), Hk.
  Qed.

  (** A matrix that is not square. *)
  Lemma mul_self_shape m : csize m <> s_rows m -> dbg = true -> s_mul_self vzero vadd vmul M dbg stray m = Abort.
  Proof using. intros N ->. unfold s_mul_self. rewrite (proj2 (Nat.eqb_neq _ _) N). reflexivity. Qed.

  Lemma mul_self_zero m : swf m -> csize m = s_rows m ->
    exists m', s_mul_self vzero vadd vmul M dbg stray m = Ok m' /\ s_rows m' = s_rows m /\
      csize m' = csize m /\ forall i j v, ~ stored m' i j v.
  Proof.
    intros (cs & H & Hok) Hc. unfold s_mul_self. rewrite Hc, Nat.eqb_refl.
    replace (ASSERT_DEBUG dbg true) with (Ok tt) by (destruct dbg; reflexivity). cbn [bind].
    destruct (run_op_ok vzero M dbg stray (OResize (s_rows m) (s_rows m)) s_default amat_default
                swf_default holds_default) as (fr & E & Hw & Hh); [left; reflexivity|discriminate|].
    cbn [run_op] in E. rewrite E. cbn [bind]. unfold s_swap. destruct fr as [z ci vs c].
    cbn [rnz cidx vals csize]. destruct m as [mz mci mvs mc]. cbn [rnz cidx vals csize] in *.
    pose proof Hh as (Hr & Hcc & Hs). cbn [aop arows acols aget] in Hr, Hcc, Hs.
    rewrite (loops_self_ok (mkS mz mci mvs mc) cs (mkS z ci vs c) (s_rows (mkS mz mci mvs mc)) mc); auto.
    - exists (mkS z ci vs c). split; auto. split; [rewrite Hr; auto|]. split; [rewrite Hcc; auto|].
      intros i j v Hx. apply Hs in Hx. destruct (_ && _); discriminate.
    - rewrite <- Hc in Hh. apply (holds_ext _ _ _ Hh); auto.
      intros i j. cbn [aget aop amat_default]. destruct (_ && _); reflexivity.
  Qed.
End Mul.
