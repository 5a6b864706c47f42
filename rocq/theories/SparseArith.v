(** Addition, subtraction and matrix vector product of sparse matrices, C38, C41. *)
From Verif Require Import Base ListFacts Csr SparseModel SparseSpec SparseFacts SparseUpdate SparseInsert SparseSeq.

Lemma grow_id {V} n (rs : list (list (nat * V))) : n <= length rs -> grow n rs = rs.
Proof. intro H. unfold grow. replace (n - length rs) with 0 by lia. cbn [repeat]. apply app_nil_r. Qed.

Lemma lbound_app_eq l1 l2 j : (forall x, In x l1 -> x < j) -> (forall x, In x l2 -> j <= x) ->
  lbound (l1 ++ l2) j = length l1.
Proof.
  induction l1 as [|x l1 IH]; cbn [app lbound length]; intros H1 H2.
  - destruct l2 as [|y l2]; auto. cbn [lbound]. specialize (H2 y (or_introl eq_refl)).
    destruct (Nat.ltb_spec y j); [lia|auto].
  - specialize (H1 x (or_introl eq_refl)) as Hx. destruct (Nat.ltb_spec x j); [|lia].
    rewrite IH; auto. intros y Hy. apply H1. simpl; auto.
Qed.

Lemma srepr_upd_id {V} (m : smat V) rs i r : srepr m rs -> i < length rs -> nth i rs [] = r ->
  srepr m (upd rs i r).
Proof. intros H Hi E. rewrite upd_id; auto. rewrite <- E. apply nth_error_nth_lt, Hi. Qed.

Section Arith.
  Context {V : Type}.
  Variables (vzero : V) (vadd vmul : V -> V -> V) (vopp : V -> V).
  Variables (M : nat) (dbg : bool) (stray : option nat).
  Implicit Types (m o : smat V) (rs : list (list (nat * V))) (A B P Q : list (nat * V)).

  Definition sgn (is_add : bool) (x : V) : V := if is_add then x else vopp x.

  Fixpoint merge (is_add : bool) A : list (nat * V) -> list (nat * V) :=
    fix merge_b B :=
      match A, B with
      | _, [] => A
      | [], b :: B' => (fst b, sgn is_add (snd b)) :: merge_b B'
      | a :: A', b :: B' =>
          match fst a ?= fst b with
          | Gt => (fst b, sgn is_add (snd b)) :: merge_b B'
          | Lt => a :: merge is_add A' B
          | Eq => (fst a, vadd (snd a) (sgn is_add (snd b))) :: merge is_add A' B'
          end
      end.

  Lemma merge_nil_r is_add A : merge is_add A [] = A.
  Proof. destruct A; reflexivity. Qed.

  Lemma merge_nil_l is_add b B :
    merge is_add [] (b :: B) = (fst b, sgn is_add (snd b)) :: merge is_add [] B.
  Proof. reflexivity. Qed.

  Lemma merge_cons is_add a A b B :
    merge is_add (a :: A) (b :: B) =
    match fst a ?= fst b with
    | Gt => (fst b, sgn is_add (snd b)) :: merge is_add (a :: A) B
    | Lt => a :: merge is_add A (b :: B)
    | Eq => (fst a, vadd (snd a) (sgn is_add (snd b))) :: merge is_add A B
    end.
  Proof. reflexivity. Qed.

  Lemma merge_fst is_add A B j :
    In j (map fst (merge is_add A B)) <-> In j (map fst A) \/ In j (map fst B).
  Proof.
    revert B; induction A as [|[ja a] A IHA]; intro B.
    - induction B as [|[jb b] B IHB]; [simpl; tauto|].
      rewrite merge_nil_l. cbn [map fst In]. rewrite IHB. simpl. tauto.
    - induction B as [|[jb b] B IHB]; [rewrite merge_nil_r; simpl; tauto|].
      rewrite merge_cons. cbn [fst snd]. destruct (Nat.compare_spec ja jb) as [->|Hlt|Hgt].
      + cbn [map fst In]. rewrite IHA. tauto.
      + cbn [map fst In]. rewrite IHA. cbn [map fst In]. tauto.
      + cbn [map fst In]. rewrite IHB. cbn [map fst In]. tauto.
  Qed.

  Lemma merge_ascending is_add A B : ascending (map fst A) -> ascending (map fst B) ->
    ascending (map fst (merge is_add A B)).
  Proof.
    revert B; induction A as [|[ja a] A IHA]; intros B HA HB.
    - induction B as [|[jb b] B IHB]; [constructor|].
      rewrite merge_nil_l. cbn [map fst snd] in *. apply ascending_cons in HB as [HB Hf].
      apply ascending_cons. split; auto. rewrite Forall_forall in *. intros x Hx.
      apply merge_fst in Hx as [[]|Hx]. auto.
    - induction B as [|[jb b] B IHB]; [rewrite merge_nil_r; auto|].
      rewrite merge_cons. cbn [map fst snd] in *. pose proof HA as HA0. pose proof HB as HB0.
      apply ascending_cons in HA0 as [HA' HfA]. apply ascending_cons in HB0 as [HB' HfB].
      rewrite Forall_forall in HfA, HfB.
      destruct (Nat.compare_spec ja jb) as [->|Hlt|Hgt]; cbn [map fst]; apply ascending_cons;
        (split; [auto|]); apply Forall_forall; intros x Hx; apply merge_fst in Hx; cbn [map fst In] in Hx.
      + destruct Hx; auto.
      + destruct Hx as [Hx|[<-|Hx]]; auto. specialize (HfB x Hx). lia.
      + destruct Hx as [[<-|Hx]|Hx]; auto. specialize (HfA x Hx). lia.
  Qed.

  Lemma not_in_greater A j : (forall x, In x (map fst A) -> j < x) -> forall v, ~ In (j, v) A.
  Proof. intros H v Hin. specialize (H j (in_map fst _ _ Hin)). lia. Qed.

  Lemma merge_In is_add A B j v : ascending (map fst A) -> ascending (map fst B) ->
    (In (j, v) (merge is_add A B) <->
     (In (j, v) A /\ ~ In j (map fst B)) \/
     (exists b, In (j, b) B /\ ~ In j (map fst A) /\ v = sgn is_add b) \/
     (exists a b, In (j, a) A /\ In (j, b) B /\ v = vadd a (sgn is_add b))).
  Proof.
    revert B; induction A as [|[ja a] A IHA]; intros B HA HB.
    - induction B as [|[jb b] B IHB].
      { simpl. split; [tauto|]. intros [[[] _]|[(? & [] & _)|(? & ? & [] & _)]]. }
      rewrite merge_nil_l. cbn [map fst snd] in *. apply ascending_cons in HB as [HB Hf].
      cbn [In]. rewrite (IHB HB). split.
      + intros [E|[[[] _]|[(b' & Hb & _ & ->)|(? & ? & [] & _)]]].
        * injection E as -> <-. right; left. exists b. auto.
        * right; left. exists b'. auto.
      + intros [[[] _]|[(b' & [E|Hb] & _ & ->)|(? & ? & [] & _)]].
        * injection E as -> ->. auto.
        * right; right; left. exists b'. simpl. auto.
    - induction B as [|[jb b] B IHB].
      { rewrite merge_nil_r. cbn [map In]. split; [intro H; left; split; auto|].
        intros [[H _]|[(? & [] & _)|(? & ? & _ & [] & _)]]. exact H. }
      rewrite merge_cons. cbn [map fst snd] in *. pose proof HA as HA0. pose proof HB as HB0.
      apply ascending_cons in HA0 as [HA' HfA]. apply ascending_cons in HB0 as [HB' HfB].
      rewrite Forall_forall in HfA, HfB.
      destruct (Nat.compare_spec ja jb) as [->|Hlt|Hgt]; cbn [In].
      + rewrite (IHA B HA' HB').
        pose proof (not_in_greater A jb HfA) as NA. pose proof (not_in_greater B jb HfB) as NB.
        split.
        * intros [E|[[H Hn]|[(b' & Hb & Hn & ->)|(a' & b' & Ha & Hb & ->)]]].
          -- injection E as -> <-. right; right. exists a, b. auto.
          -- left. split; auto. intros [<-|Hx]; [eapply NA; eauto|auto].
          -- right; left. exists b'. split; auto. split; auto. intros [<-|Hx]; [eapply NB; eauto|auto].
          -- right; right. exists a', b'. auto.
        * intros [[[E|H] Hn]|[(b' & [E|Hb] & Hn & ->)|(a' & b' & [Ea|Ha] & [Eb|Hb] & ->)]].
          -- exfalso. apply Hn. injection E as -> ->. auto.
          -- right; left. tauto.
          -- exfalso. apply Hn. injection E as -> ->. auto.
          -- right; right; left. exists b'. tauto.
          -- injection Ea as -> ->. injection Eb as ->. auto.
          -- injection Ea as -> ->. exfalso; eapply NB; eauto.
          -- injection Eb as -> ->. exfalso; eapply NA; eauto.
          -- right; right; right. exists a', b'. auto.
      + rewrite (IHA ((jb, b) :: B) HA' HB). cbn [map fst In].
        assert (NB : forall w, ~ In (ja, w) ((jb, b) :: B)).
        { apply not_in_greater. cbn [map fst In]. intros x [<-|Hx]; auto. specialize (HfB x Hx). lia. }
        cbn [In] in NB. split.
        * intros [E|[[H Hn]|[(b' & Hb & Hn & ->)|(a' & b' & Ha & Hb & ->)]]].
          -- injection E as -> ->. left. split; auto. intros [<-|Hx]; [lia|].
             apply in_map_fst_ex in Hx as [w Hw]. eapply NB; eauto.
          -- left. auto.
          -- right; left. exists b'. split; auto. split; auto. intros [<-|Hx]; [|auto]. eapply NB; eauto.
          -- right; right. exists a', b'. auto.
        * intros [[[E|H] Hn]|[(b' & Hb & Hn & ->)|(a' & b' & [Ea|Ha] & Hb & ->)]]; auto.
          -- right; right; left. exists b'. tauto.
          -- injection Ea as -> ->. exfalso; eapply NB; eauto.
          -- right; right; right. exists a', b'. auto.
      + rewrite (IHB HB'). cbn [map fst In].
        assert (NA : forall w, ~ In (jb, w) ((ja, a) :: A)).
        { apply not_in_greater. cbn [map fst In]. intros x [<-|Hx]; auto. specialize (HfA x Hx). lia. }
        assert (NA' : ~ (ja = jb \/ In jb (map fst A))).
        { intros [Hx|Hx]; [lia|]. specialize (HfA _ Hx). lia. }
        cbn [In] in NA. split.
        * intros [E|[[H Hn]|[(b' & Hb & Hn & ->)|(a' & b' & Ha & Hb & ->)]]].
          -- injection E as -> <-. right; left. exists b. auto.
          -- left. split; auto. intros [<-|Hx]; [|auto]. eapply NA; eauto.
          -- right; left. exists b'. auto.
          -- right; right. exists a', b'. auto.
        * intros [[H Hn]|[(b' & [E|Hb] & Hn & ->)|(a' & b' & Ha & [E|Hb] & ->)]].
          -- right; left. tauto.
          -- injection E as -> ->. auto.
          -- right; right; left. exists b'. tauto.
          -- injection E as -> ->. exfalso; eapply NA; eauto.
          -- right; right; right. exists a', b'. auto.
  Qed.

  Lemma position_entry m rs i P x A : srepr m rs -> i < length rs -> nth i rs [] = P ++ x :: A ->
    nth_error (cidx m) (start rs i + length P) = Some (fst x) /\
    nth_error (vals m) (start rs i + length P) = Some (snd x).
  Proof.
    intros H Hi E. assert (Hl : length P < length (nth i rs [])) by (rewrite E, app_length; simpl; lia).
    rewrite (srepr_cidx_nth m rs), (srepr_vals_nth m rs) by auto. rewrite E.
    rewrite nth_error_app. destruct (Nat.ltb_spec (length P) (length P)); [lia|].
    rewrite Nat.sub_diag. auto.
  Qed.

  Lemma at_end rs i P A : i < length rs -> nth i rs [] = P ++ A ->
    eit_eqb (i, start rs i + length P) (i, start rs (i + 1)) = match A with [] => true | _ => false end.
  Proof.
    intros Hi E. rewrite eit_eqb_pos, start_S' by auto. rewrite E, app_length.
    destruct A as [|a A].
    - rewrite Nat.add_0_r. apply Nat.eqb_refl.
    - apply Nat.eqb_neq. simpl. lia.
  Qed.

  Lemma arith_row_ok is_add o os i : srepr o os -> i < length os ->
    forall fuel m ms P A Q B,
      srepr m ms -> srows_ok (csize m) ms -> i < length ms ->
      nth i ms [] = P ++ A -> nth i os [] = Q ++ B ->
      ascending (map fst B) ->
      (forall x y, In x P -> In y B -> fst x < fst y) ->
      (forall y, In y B -> fst y < csize m) ->
      length A + length B < fuel ->
      exists m', arith_row vzero vadd vopp M dbg stray is_add (fun _ => o) fuel i m
                   (i, start ms i + length P) (i, start os i + length Q) = Ok m' /\
        csize m' = csize m /\ srepr m' (upd ms i (P ++ merge is_add A B)).
  Proof.
    intros Ho Hio. induction fuel as [|fuel IH]; intros m ms P A Q B H Hok Hi HA HB HaB HPB Hcol Hf; [lia|].
    cbn [arith_row]. rewrite (row_end_ok _ _ _ _ Ho Hio). cbn [bind]. rewrite (at_end os i Q B) by auto.
    destruct B as [|[jb b] B].
    { rewrite merge_nil_r. exists m. split; auto. split; auto. apply srepr_upd_id; auto. }
    rewrite (row_end_ok _ _ _ _ H Hi). cbn [bind].
    destruct (position_entry o os i Q (jb, b) B Ho Hio HB) as [Hcb Hvb]. cbn [fst snd] in Hcb, Hvb.
    unfold i_column, deref. cbn [fst snd]. unfold vget at 1. rewrite Hcb. cbn [bind].
    rewrite (at_end ms i P A) by auto.
    assert (HaB' : ascending (map fst B) /\ forall y, In y B -> jb < fst y).
    { cbn [map fst] in HaB. apply ascending_cons in HaB as [Ha Hf']. split; auto.
      rewrite Forall_forall in Hf'. intros y Hy. apply Hf', in_map, Hy. }
    destruct HaB' as [HaB' HjB].
    assert (HPj : forall x, In x P -> fst x < jb) by (intros x Hx; apply (HPB x (jb, b)); simpl; auto).
    assert (Hnext : nth i os [] = (Q ++ [(jb, b)]) ++ B) by (rewrite <- app_assoc; exact HB).
    assert (Hlq : start os i + length Q + 1 = start os i + length (Q ++ [(jb, b)])) by (rewrite app_length; simpl; lia).
    assert (Hjc : jb < csize m) by (apply (Hcol (jb, b)); simpl; auto).
    destruct (Hok i Hi) as [Hasc Hbd]. rewrite HA, map_app in Hasc. apply ascending_app in Hasc as (HaP & HaA & HPA).
    (* the insertion, shared by the two situations in which the column is missing *)
    assert (Hinsert : (forall x, In x A -> jb < fst x) ->
      exists m', (do x <- vget (vals o) (start os i + length Q);
                  do r <- s_insert vzero M dbg stray m i jb (if is_add then x else vopp x);
                  let '(m1, it', _) := r in
                  arith_row vzero vadd vopp M dbg stray is_add (fun _ => o) fuel i m1
                    (fst it', snd it' + 1) (i, start os i + length Q + 1)) = Ok m' /\
        csize m' = csize m /\
        srepr m' (upd ms i (P ++ (jb, sgn is_add b) :: merge is_add A B))).
    { intro HjA. unfold vget at 1. rewrite Hvb. cbn [bind]. fold (sgn is_add b).
      destruct (s_insert_ok vzero M dbg stray m ms i jb (sgn is_add b) H Hok) as (m1 & nb & E & Hc1 & Hb1).
      rewrite E. cbn [bind fst snd].
      assert (Hn : ~ In jb (map fst (nth i ms []))).
      { rewrite HA, map_app, in_app_iff, !in_map_iff. intros [(x & Ex & Hx)|(x & Ex & Hx)].
        - specialize (HPj x Hx). lia.
        - specialize (HjA x Hx). lia. }
      destruct nb; [|tauto]. destruct Hb1 as [_ H1].
      assert (Hlb : lbound (map fst (nth i ms [])) jb = length P).
      { rewrite HA, map_app, lbound_app_eq; [apply map_length| |].
        - intros x Hx. apply in_map_iff in Hx as (y & <- & Hy). auto.
        - intros x Hx. apply in_map_iff in Hx as (y & <- & Hy). specialize (HjA y Hy). lia. }
      rewrite Hlb. cbn [fst snd].
      assert (Eins : insert_rows i jb (sgn is_add b) ms = upd ms i ((P ++ [(jb, sgn is_add b)]) ++ A)).
      { unfold insert_rows. rewrite grow_id by lia. f_equal. unfold ins_row. rewrite Hlb, HA.
        unfold list_insert. rewrite firstn_app, firstn_all, Nat.sub_diag, firstn_O, app_nil_r.
        rewrite skipn_app, skipn_all, Nat.sub_diag. cbn [skipn app]. rewrite <- app_assoc. reflexivity. }
      set (ms1 := insert_rows i jb (sgn is_add b) ms) in *.
      assert (Hst1 : start ms1 i = start ms i) by apply start_insert_rows.
      assert (Hlen1 : length ms1 = length ms) by (rewrite Eins; apply upd_length; auto).
      assert (Hcs : csize m1 = csize m) by lia.
      destruct (IH m1 ms1 (P ++ [(jb, sgn is_add b)]) A (Q ++ [(jb, b)]) B) as (m' & E' & Hc' & H'); auto.
      - rewrite Hc1. apply insert_rows_ok; auto.
      - lia.
      - rewrite Eins, nth_upd, Nat.eqb_refl by auto. reflexivity.
      - intros x y Hx Hy. apply in_app_iff in Hx as [Hx|[<-|[]]].
        + apply HPB; simpl; auto.
        + cbn [fst]. auto.
      - intros y Hy. rewrite Hcs. apply Hcol. simpl; auto.
      - simpl in Hf. lia.
      - exists m'. rewrite Hst1, app_length in E'. cbn [length] in E'.
        rewrite Nat.add_assoc in E'. rewrite <- Hlq in E'.
        split; [exact E'|]. split; [lia|]. rewrite Eins, upd_upd in H' by auto.
        rewrite <- app_assoc in H'. exact H'. }
    destruct A as [|[ja a] A].
    - cbn [bind]. rewrite merge_nil_l. cbn [fst snd]. apply Hinsert. intros x [].
    - destruct (position_entry m ms i P (ja, a) A H Hi HA) as [Hca Hva]. cbn [fst snd] in Hca, Hva.
      unfold vget at 1. rewrite Hca. cbn [bind]. rewrite merge_cons. cbn [fst snd].
      assert (HjaA : forall x, In x A -> ja < fst x).
      { cbn [map fst] in HaA. apply ascending_cons in HaA as [_ Hf']. rewrite Forall_forall in Hf'.
        intros y Hy. apply Hf', in_map, Hy. }
      destruct (Nat.compare_spec ja jb) as [->|Hlt|Hgt].
      + (* both hold the column *)
        unfold vget at 1. rewrite Hvb. cbn [bind]. unfold vget at 1. rewrite Hva. cbn [bind].
        fold (sgn is_add b).
        assert (Hk : nth_error (nth i ms []) (length P) = Some (jb, a)).
        { rewrite HA, nth_error_app. destruct (Nat.ltb_spec (length P) (length P)); [lia|].
          rewrite Nat.sub_diag. reflexivity. }
        destruct (assign_ok m ms i (length P) jb a (vadd a (sgn is_add b)) H Hi Hk) as (m1 & E1 & Hc1 & H1).
        rewrite E1. cbn [bind].
        rewrite HA, upd_split in H1. set (ab := vadd a (sgn is_add b)) in *.
        set (ms1 := upd ms i (P ++ (jb, ab) :: A)) in *.
        assert (Hlen1 : length ms1 = length ms) by (apply upd_length; auto).
        assert (Hst1 : start ms1 i = start ms i).
        { unfold ms1. rewrite start_upd by auto. destruct (Nat.leb_spec i i); [auto|lia]. }
        assert (Hrow1 : nth i ms1 [] = P ++ (jb, ab) :: A).
        { unfold ms1. rewrite nth_upd, Nat.eqb_refl by auto. reflexivity. }
        destruct (IH m1 ms1 (P ++ [(jb, ab)]) A (Q ++ [(jb, b)]) B) as (m' & E' & Hc' & H'); auto.
        * intros k Hk'. rewrite Hlen1 in Hk'. unfold ms1. rewrite nth_upd by auto.
          destruct (Nat.eqb_spec k i) as [->|]; [|rewrite Hc1; apply Hok; auto].
          specialize (Hok i Hi). rewrite HA, map_app in Hok. cbn [map fst] in Hok.
          rewrite map_app. cbn [map fst]. rewrite Hc1. exact Hok.
        * lia.
        * rewrite Hrow1, <- app_assoc. reflexivity.
        * intros x y Hx Hy. apply in_app_iff in Hx as [Hx|[<-|[]]].
          -- apply HPB; simpl; auto.
          -- cbn [fst]. auto.
        * intros y Hy. rewrite Hc1. apply Hcol. simpl; auto.
        * simpl in Hf. lia.
        * exists m'. rewrite Hst1, app_length in E'. cbn [length] in E'. rewrite Nat.add_assoc in E'.
          rewrite <- Hlq in E'. split; [exact E'|]. split; [lia|].
          unfold ms1 in H'. rewrite upd_upd in H' by auto. rewrite <- app_assoc in H'. exact H'.
      + (* advance in this matrix *)
        destruct (IH m ms (P ++ [(ja, a)]) A Q ((jb, b) :: B)) as (m' & E' & Hc' & H'); auto.
        * rewrite <- app_assoc. exact HA.
        * intros x y Hx Hy. apply in_app_iff in Hx as [Hx|[<-|[]]]; [auto|]. cbn [fst].
          destruct Hy as [<-|Hy]; cbn [fst]; auto. specialize (HjB y Hy). lia.
        * simpl in Hf |- *. lia.
        * exists m'. rewrite app_length in E'. cbn [length] in E'. rewrite Nat.add_assoc in E'.
          split; [exact E'|]. split; auto. rewrite <- app_assoc in H'. exact H'.
      + apply Hinsert. intros x [<-|Hx]; cbn [fst]; auto. specialize (HjaA x Hx). lia.
  Qed.

  (** Rows of the result of matrix_arithmetic. *)
  Lemma s_arith_ok is_add m o ms os : srepr m ms -> srows_ok (csize m) ms ->
    srepr o os -> srows_ok (csize o) os -> length ms = length os -> csize m = csize o ->
    exists m' rs', s_arith vzero vadd vopp M dbg stray is_add (fun _ => o) m = Ok m' /\
      csize m' = csize m /\ srepr m' rs' /\ length rs' = length ms /\
      (forall i, i < length ms -> nth i rs' [] = merge is_add (nth i ms []) (nth i os [])).
  Proof.
    intros H Hok Ho Hoko Hl Hc. unfold s_arith.
    replace ((s_rows m =? s_rows o) && (csize m =? csize o)) with true
      by (rewrite (srepr_rows _ _ H), (srepr_rows _ _ Ho), Hl, Hc, !Nat.eqb_refl; reflexivity).
    rewrite (srepr_rows _ _ Ho).
    replace (ASSERT_DEBUG dbg true) with (Ok tt) by (destruct dbg; reflexivity). cbn [bind].
    destruct (FOR_inv (fun i s => exists rs', csize s = csize m /\ srepr s rs' /\ length rs' = length ms /\
                forall k, k < length ms -> nth k rs' [] =
                  if k <? i then merge is_add (nth k ms []) (nth k os []) else nth k ms [])
              (length os)
              (fun i s => do it <- row_begin s i; do io <- row_begin o i;
                 arith_row vzero vadd vopp M dbg stray is_add (fun _ => o) (s_nnz s + s_nnz o + 1) i s it io) m)
      as (m' & E & rs' & Hc' & H' & Hl' & Hn').
    - exists ms. split; auto.
    - intros i s Hi (rs' & Hcs & Hs & Hls & Hns).
      assert (Hi1 : i < length rs') by lia. assert (Him : i < length ms) by lia.
      rewrite (row_begin_ok _ _ _ Hs Hi1), (row_begin_ok _ _ _ Ho Hi). cbn [bind].
      assert (Hrow : nth i rs' [] = nth i ms []).
      { rewrite Hns by lia. destruct (Nat.ltb_spec i i); [lia|auto]. }
      assert (Hsi : s_nnz s = length (concat rs')) by (destruct Hs as (_ & E & _); unfold s_nnz; rewrite E, map_length; auto).
      assert (Hoi : s_nnz o = length (concat os)) by (destruct Ho as (_ & E & _); unfold s_nnz; rewrite E, map_length; auto).
      pose proof (start_le rs' (S i)) as L1. rewrite start_S in L1 by auto.
      pose proof (start_le os (S i)) as L2. rewrite start_S in L2 by auto.
      destruct (Hoko i Hi) as [HaO HbO].
      (* the row being processed is untouched and ascending; the processed rows are not needed *)
      assert (Hgoal : exists s', arith_row vzero vadd vopp M dbg stray is_add (fun _ => o)
                  (s_nnz s + s_nnz o + 1) i s (i, start rs' i + 0) (i, start os i + 0) = Ok s' /\
                csize s' = csize s /\ srepr s' (upd rs' i (merge is_add (nth i ms []) (nth i os [])))).
      { apply (arith_row_ok is_add o os i Ho Hi (s_nnz s + s_nnz o + 1) s rs' [] (nth i ms []) [] (nth i os [])); auto.
        - intros k Hk. rewrite Hns by lia. rewrite Hcs. destruct (Nat.ltb_spec k i); [|apply Hok; lia].
          split; [apply merge_ascending; [apply Hok|apply Hoko]; lia|].
          intros j Hj. apply merge_fst in Hj as [Hj|Hj].
          + apply (Hok k); auto. lia.
          + rewrite Hc. apply (Hoko k); auto. lia.
        - intros x y [].
        - intros y Hy. rewrite Hcs, Hc. apply HbO, in_map, Hy.
        - rewrite Hrow in L1. lia. }
      rewrite !Nat.add_0_r in Hgoal. destruct Hgoal as (s' & E & Hc' & H').
      exists s'. split; auto. eexists. split; [lia|]. split; [exact H'|].
      rewrite upd_length by auto. split; auto. intros k Hk. rewrite nth_upd by auto.
      destruct (Nat.eqb_spec k i) as [->|Hne].
      + destruct (Nat.ltb_spec i (i + 1)); [auto|lia].
      + rewrite Hns by auto. destruct (Nat.ltb_spec k i), (Nat.ltb_spec k (i + 1)); try lia; auto.
    - exists m', rs'. split; auto. split; auto. split; auto. split; auto.
      intros i Hi. rewrite Hn' by auto. destruct (Nat.ltb_spec i (length os)); [auto|lia].
  Qed.

  Lemma add_spec is_add m o : swf m -> swf o -> s_rows m = s_rows o -> csize m = csize o ->
    exists m', s_arith vzero vadd vopp M dbg stray is_add (fun _ => o) m = Ok m' /\ swf m' /\
      s_rows m' = s_rows m /\ csize m' = csize m /\
      (forall i j v, stored m' i j v <->
         (stored m i j v /\ (forall w, ~ stored o i j w)) \/
         (exists b, stored o i j b /\ (forall w, ~ stored m i j w) /\ v = sgn is_add b) \/
         (exists a b, stored m i j a /\ stored o i j b /\ v = vadd a (sgn is_add b))).
  Proof.
    intros (ms & H & Hok) (os & Ho & Hoko) Hr Hc.
    rewrite (srepr_rows _ _ H), (srepr_rows _ _ Ho) in Hr.
    destruct (s_arith_ok is_add m o ms os H Hok Ho Hoko Hr Hc) as (m' & rs' & E & Hc' & H' & Hl' & Hn).
    exists m'. split; auto. split; [|split; [|split]]; auto.
    - exists rs'. split; auto. intros i Hi. rewrite Hl' in Hi. rewrite Hn by auto. rewrite Hc'. split.
      + apply merge_ascending; [apply Hok; auto|apply Hoko; lia].
      + intros j Hj. apply merge_fst in Hj as [Hj|Hj].
        * apply (Hok i); auto.
        * rewrite Hc. apply (Hoko i); auto. lia.
    - rewrite (srepr_rows _ _ H), (srepr_rows _ _ H'). auto.
    - intros i j v. rewrite (srepr_stored _ _ _ _ _ H').
      assert (Em : forall w, stored m i j w <-> In (j, w) (nth i ms [])) by (intro; apply srepr_stored, H).
      assert (Eo : forall w, stored o i j w <-> In (j, w) (nth i os [])) by (intro; apply srepr_stored, Ho).
      destruct (Nat.lt_ge_cases i (length ms)) as [Hi|Hi].
      + rewrite Hn by auto. rewrite merge_In by (first [apply Hok; auto|apply Hoko; lia]).
        rewrite !in_map_fst_ex. rewrite Em. split.
        * intros [[H1 H2]|[(b & H1 & H2 & ->)|(a & b & H1 & H2 & ->)]].
          -- left. split; auto. intros w Hw. apply H2. exists w. apply Eo, Hw.
          -- right; left. exists b. split; [apply Eo, H1|]. split; auto. intros w Hw. apply H2.
             apply in_map_fst_ex. exists w. apply Em, Hw.
          -- right; right. exists a, b. split; [apply Em, H1|]. split; [apply Eo, H2|auto].
        * intros [[H1 H2]|[(b & H1 & H2 & ->)|(a & b & H1 & H2 & ->)]].
          -- left. split; auto. intros [w Hw]. apply (H2 w), Eo, Hw.
          -- right; left. exists b. split; [apply Eo, H1|]. split; auto. intros Hx. apply in_map_fst_ex in Hx as [w Hw].
             apply (H2 w), Em, Hw.
          -- right; right. exists a, b. split; [apply Em, H1|]. split; [apply Eo, H2|auto].
      + rewrite nth_overflow by lia. split; [intros []|].
        intros [[[Hx _] _]|[(b & [Hx _] & _)|(a & b & [Hx _] & _)]];
          rewrite ?(srepr_rows _ _ H), ?(srepr_rows _ _ Ho) in Hx; lia.
  Qed.

  (* ---------------------------------------------------------------- the aliased case *)
  Lemma arith_row_self is_add i :
    forall fuel m ms P A,
      srepr m ms -> i < length ms -> nth i ms [] = P ++ A -> length A < fuel ->
      exists m', arith_row vzero vadd vopp M dbg stray is_add (fun m => m) fuel i m
                   (i, start ms i + length P) (i, start ms i + length P) = Ok m' /\
        csize m' = csize m /\
        srepr m' (upd ms i (P ++ map (fun x => (fst x, vadd (snd x) (sgn is_add (snd x)))) A)).
  Proof.
    induction fuel as [|fuel IH]; intros m ms P A H Hi HA Hf; [lia|].
    cbn [arith_row]. rewrite (row_end_ok _ _ _ _ H Hi). cbn [bind]. rewrite (at_end ms i P A) by auto.
    destruct A as [|[ja a] A].
    { exists m. split; auto. split; auto. apply srepr_upd_id; auto. }
    destruct (position_entry m ms i P (ja, a) A H Hi HA) as [Hca Hva]. cbn [fst snd] in Hca, Hva.
    unfold i_column, deref, vget. cbn [fst snd]. rewrite Hca, Hva. cbn [bind].
    rewrite Nat.compare_refl. cbn [bind]. fold (sgn is_add a).
    assert (Hk : nth_error (nth i ms []) (length P) = Some (ja, a)).
    { rewrite HA, nth_error_app. destruct (Nat.ltb_spec (length P) (length P)); [lia|].
      rewrite Nat.sub_diag. reflexivity. }
    set (ab := vadd a (sgn is_add a)).
    destruct (assign_ok m ms i (length P) ja a ab H Hi Hk) as (m1 & E1 & Hc1 & H1).
    rewrite E1. cbn [bind]. rewrite HA, upd_split in H1.
    set (ms1 := upd ms i (P ++ (ja, ab) :: A)) in *.
    assert (Hlen1 : length ms1 = length ms) by (apply upd_length; auto).
    assert (Hst1 : start ms1 i = start ms i).
    { unfold ms1. rewrite start_upd by auto. destruct (Nat.leb_spec i i); [auto|lia]. }
    destruct (IH m1 ms1 (P ++ [(ja, ab)]) A) as (m' & E' & Hc' & H'); auto.
    - lia.
    - unfold ms1. rewrite nth_upd, Nat.eqb_refl, <- app_assoc by auto. reflexivity.
    - simpl in Hf. lia.
    - exists m'. rewrite Hst1, app_length in E'. cbn [length] in E'. rewrite Nat.add_assoc in E'.
      split; [exact E'|]. split; [lia|]. unfold ms1 in H'. rewrite upd_upd in H' by auto.
      rewrite <- app_assoc in H'. exact H'.
  Qed.

  Lemma s_arith_self_ok is_add m ms : srepr m ms -> 
    exists m' rs', s_arith vzero vadd vopp M dbg stray is_add (fun m => m) m = Ok m' /\
      csize m' = csize m /\ srepr m' rs' /\ length rs' = length ms /\
      (forall i, i < length ms -> nth i rs' [] =
         map (fun x => (fst x, vadd (snd x) (sgn is_add (snd x)))) (nth i ms [])).
  Proof.
    intros H. unfold s_arith. rewrite !Nat.eqb_refl. cbn [andb].
    replace (ASSERT_DEBUG dbg true) with (Ok tt) by (destruct dbg; reflexivity). cbn [bind].
    rewrite (srepr_rows _ _ H).
    set (f := fun x : nat * V => (fst x, vadd (snd x) (sgn is_add (snd x)))).
    destruct (FOR_inv (fun i s => exists rs', csize s = csize m /\ srepr s rs' /\ length rs' = length ms /\
                forall k, k < length ms -> nth k rs' [] =
                  if k <? i then map f (nth k ms []) else nth k ms [])
              (length ms)
              (fun i s => do it <- row_begin s i; do io <- row_begin s i;
                 arith_row vzero vadd vopp M dbg stray is_add (fun m => m) (s_nnz s + s_nnz s + 1) i s it io) m)
      as (m' & E & rs' & Hc' & H' & Hl' & Hn').
    - exists ms. split; auto.
    - intros i s Hi (rs' & Hcs & Hs & Hls & Hns).
      assert (Hi1 : i < length rs') by lia.
      rewrite (row_begin_ok _ _ _ Hs Hi1). cbn [bind].
      assert (Hsi : s_nnz s = length (concat rs')) by (destruct Hs as (_ & E & _); unfold s_nnz; rewrite E, map_length; auto).
      pose proof (start_le rs' (S i)) as L1. rewrite start_S in L1 by auto.
      destruct (arith_row_self is_add i (s_nnz s + s_nnz s + 1) s rs' [] (nth i rs' [])) as (s' & E & Hc' & H'); auto.
      { lia. }
      cbn [length app] in E, H'. rewrite Nat.add_0_r in E. exists s'. split; auto.
      eexists. split; [lia|]. split; [exact H'|]. rewrite upd_length by auto. split; auto.
      intros k Hk. rewrite nth_upd by auto. destruct (Nat.eqb_spec k i) as [->|Hne].
      + rewrite Hns by auto. destruct (Nat.ltb_spec i (i + 1)), (Nat.ltb_spec i i); try lia. reflexivity.
      + rewrite Hns by auto. destruct (Nat.ltb_spec k i), (Nat.ltb_spec k (i + 1)); try lia; auto.
    - exists m', rs'. split; auto. split; auto. split; auto. split; auto.
      intros i Hi. rewrite Hn' by auto. destruct (Nat.ltb_spec i (length ms)); [auto|lia].
  Qed.

  Lemma add_self_spec is_add m : swf m ->
    exists m', s_arith vzero vadd vopp M dbg stray is_add (fun m => m) m = Ok m' /\ swf m' /\
      s_rows m' = s_rows m /\ csize m' = csize m /\
      (forall i j v, stored m' i j v <-> exists a, stored m i j a /\ v = vadd a (sgn is_add a)).
  Proof.
    intros (ms & H & Hok).
    destruct (s_arith_self_ok is_add m ms H) as (m' & rs' & E & Hc' & H' & Hl' & Hn).
    exists m'. split; auto. split; [|split; [|split]]; auto.
    - exists rs'. split; auto. intros i Hi. rewrite Hl' in Hi. rewrite Hn by auto.
      rewrite map_map. cbn [fst]. rewrite Hc'. apply Hok, Hi.
    - rewrite (srepr_rows _ _ H), (srepr_rows _ _ H'). auto.
    - intros i j v. rewrite (srepr_stored _ _ _ _ _ H').
      destruct (Nat.lt_ge_cases i (length ms)) as [Hi|Hi].
      + rewrite Hn by auto. rewrite in_map_iff. split.
        * intros ([x y] & Ex & Hx). cbn [fst snd] in Ex. injection Ex as -> <-.
          exists y. split; auto. apply (srepr_stored _ _ _ _ _ H), Hx.
        * intros (a & Ha & ->). exists (j, a). split; auto. apply (srepr_stored _ _ _ _ _ H), Ha.
      + rewrite nth_overflow by lia. split; [intros []|]. intros (a & [Hx _] & _).
        rewrite (srepr_rows _ _ H) in Hx. lia.
  Qed.

  (* ---------------------------------------------------------------- matrix vector product *)
  Lemma row_sum_ok es (x : list V) s : (forall j, In j (map fst es) -> j < length x) ->
    forM es (fun e s => do xj <- vget x (fst e); Ok (vadd s (vmul (snd e) xj))) s =
    Ok (fold_left (fun s e => vadd s (vmul (snd e) (nth (fst e) x vzero))) es s).
  Proof.
    revert s; induction es as [|[j a] es IH]; intros s H; [reflexivity|].
    cbn [forM fst snd fold_left]. rewrite (vget_lt x j vzero) by (apply H; simpl; auto). cbn [bind].
    apply IH. intros k Hk. apply H. simpl; auto.
  Qed.

  Lemma mat_vec_spec m x : swf m -> length x = csize m ->
    exists y, s_mat_vec vzero vadd vmul dbg stray m x = Ok y /\ length y = s_rows m /\
      forall i, i < s_rows m -> exists es, StronglySorted lt (map fst es) /\
        (forall j v, In (j, v) es <-> stored m i j v) /\
        nth_error y i = Some (fold_left (fun s e => vadd s (vmul (snd e) (nth (fst e) x vzero))) es vzero).
  Proof.
    intros (rs & H & Hok) Hx. unfold s_mat_vec. rewrite Hx, Nat.eqb_refl.
    replace (ASSERT_DEBUG dbg true) with (Ok tt) by (destruct dbg; reflexivity). cbn [bind].
    rewrite (srepr_rows _ _ H).
    rewrite (mapM_Ok _ (fun i => fold_left (fun s e => vadd s (vmul (snd e) (nth (fst e) x vzero))) (nth i rs []) vzero)).
    - eexists. split; [reflexivity|]. rewrite map_length, seq_length. split; auto.
      intros i Hi. exists (nth i rs []). split; [apply Hok, Hi|]. split.
      + intros. symmetry. apply srepr_stored, H.
      + rewrite nth_error_map', nth_error_seq. destruct (Nat.ltb_spec i (length rs)); [reflexivity|lia].
    - intros i Hi. apply in_seq in Hi. rewrite (row_entries_ok _ _ _ _ H) by lia. cbn [bind].
      apply row_sum_ok. intros j Hj. rewrite Hx. apply (Hok i); auto. lia.
  Qed.
End Arith.
