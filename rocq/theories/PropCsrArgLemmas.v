(** Proofs behind C137. *)
From Coq Require Import ZArith List Lia Arith Bool.
From Verif Require Import Base ListFacts Csr SparseModel SparseSpec SparseFacts SparseUpdate SparseInsert SparseSeq CsrDataModel CsrData
  MacroModel PropMacroLemmas CsrIntModel PropCsrIntLemmas CsrArgModel.
Import ListNotations.

Section Types.
  Variables (t a : ity).
  Hypothesis Ht : (32 <= i_bits t)%Z.
  Hypothesis Ha : (32 <= i_bits a)%Z.

  Lemma wide_promoted u : (32 <= i_bits u)%Z -> promoted u = u.
  Proof. intro H. unfold promoted. destruct (Z.ltb_spec (i_bits u) 32); [lia|reflexivity]. Qed.

  Lemma common_either : common a t = a \/ common a t = t.
  Proof using Ht Ha.
    unfold common. rewrite !wide_promoted by auto. destruct (Bool.eqb _ _); [destruct (_ <? _)%Z; auto|].
    destruct (i_signed a); destruct (_ <=? _)%Z; auto.
  Qed.

  Lemma common_wide : (1 <= i_bits (common a t))%Z.
  Proof using Ht Ha. destruct common_either as [->| ->]; lia. Qed.

  Lemma common_sym : common a t = common t a.
  Proof using Ht Ha.
    unfold common. rewrite !wide_promoted by auto. destruct a as [sa ba], t as [st bt]. cbn [i_signed i_bits].
    destruct sa, st; cbn [Bool.eqb]; try reflexivity.
    - destruct (Z.ltb_spec ba bt), (Z.ltb_spec bt ba); try lia; try reflexivity. f_equal. lia.
    - destruct (Z.ltb_spec ba bt), (Z.ltb_spec bt ba); try lia; try reflexivity. f_equal. lia.
  Qed.

  Lemma common_max : (i_max a <= i_max (common a t) /\ i_max t <= i_max (common a t))%Z.
  Proof using Ht Ha.
    unfold common. rewrite !wide_promoted by auto. destruct a as [sa ba], t as [st bt]. cbn [i_signed i_bits] in *.
    assert (P : forall x y, (0 <= x <= y -> 2 ^ x <= 2 ^ y)%Z) by (intros; apply Z.pow_le_mono_r; lia).
    destruct sa, st; cbn [Bool.eqb i_bits].
    - destruct (Z.ltb_spec ba bt); unfold i_max; cbn [i_signed i_bits]; split; try lia.
      + specialize (P (ba - 1) (bt - 1))%Z. lia.
      + specialize (P (bt - 1) (ba - 1))%Z. lia.
    - destruct (Z.leb_spec ba bt); unfold i_max; cbn [i_signed i_bits]; split; try lia.
      + specialize (P (ba - 1) bt)%Z. lia.
      + specialize (P bt (ba - 1))%Z. lia.
    - destruct (Z.leb_spec bt ba); unfold i_max; cbn [i_signed i_bits]; split; try lia.
      + specialize (P (bt - 1) ba)%Z. lia.
      + specialize (P ba (bt - 1))%Z. lia.
    - destruct (Z.ltb_spec ba bt); unfold i_max; cbn [i_signed i_bits]; split; try lia.
      + specialize (P ba bt)%Z. lia.
      + specialize (P bt ba)%Z. lia.
  Qed.

  Lemma common_conv x : (0 <= x)%Z -> (x <= i_max a \/ x <= i_max t)%Z -> conv (common a t) x = x.
  Proof using Ht Ha. intros H0 H. apply conv_pos; [apply common_wide|]. pose proof common_max. lia. Qed.

  Lemma less_at x y : (0 <= x <= i_max a)%Z -> (0 <= y <= i_max t)%Z -> less a t x y = (x <? y)%Z.
  Proof using Ht Ha. intros Hx Hy. unfold less. rewrite !common_conv by lia. reflexivity. Qed.

  Lemma less_ta x y : (0 <= x <= i_max t)%Z -> (0 <= y <= i_max a)%Z -> less t a x y = (x <? y)%Z.
  Proof using Ht Ha. intros Hx Hy. unfold less. rewrite <- common_sym, !common_conv by lia. reflexivity. Qed.

  Lemma differ_ta x y : (0 <= x <= i_max t)%Z -> (0 <= y <= i_max a)%Z -> negb (differ t a x y) = (x =? y)%Z.
  Proof using Ht Ha. intros Hx Hy. unfold differ. rewrite <- common_sym, !common_conv by lia. apply negb_involutive. Qed.

  (** The value that upper_bound is given when no columns are asked for. *)
  Definition cut0 : Z := conv (common a t) (conv a (-1)).

  Lemma t_res_m1 : t_res a (0 - 1)%Z = Ok (conv a (-1)).
  Proof using Ha.
    unfold t_res. change (0 - 1)%Z with (-1)%Z. destruct (i_signed a) eqn:Es; [|reflexivity]. cbn [andb].
    assert (i_min a <= -1)%Z by (unfold i_min; rewrite Es; assert (0 < 2 ^ (i_bits a - 1))%Z by (apply Z.pow_pos_nonneg; lia); lia).
    pose proof (sg_le a). destruct (Z.leb_spec (i_min a) (-1)), (Z.leb_spec (-1) (i_max a)); try lia. reflexivity.
  Qed.

  Lemma y_ubound_val l v w : (forall x, In x l -> less a t v x = (w <? x)%Z) -> y_ubound t a l v = z_ubound l w.
  Proof.
    induction l as [|x l IH]; intro H; cbn [y_ubound z_ubound]; [reflexivity|]. rewrite H by (cbn; auto).
    rewrite IH by (intros; apply H; cbn; auto). destruct (Z.ltb_spec w x), (Z.leb_spec x w); try lia; reflexivity.
  Qed.

  Lemma y_lbound_val l v : (0 <= v <= i_max a)%Z -> (forall x, In x l -> (0 <= x <= i_max t)%Z) -> y_lbound t a l v = z_lbound l v.
  Proof using Ht Ha.
    intros Hv. induction l as [|x l IH]; intro H; cbn [y_lbound z_lbound]; [reflexivity|]. rewrite less_ta by (auto; apply H; cbn; auto).
    rewrite IH by (intros; apply H; cbn; auto). reflexivity.
  Qed.
End Types.

Lemma verase_In {A} (l : list A) p e r x : verase l p e = Ok r -> In x r -> In x l.
Proof.
  unfold verase. destruct ((p <=? e) && (e <=? length l)); [|discriminate]. intro H. injection H as <-. intro Hx. apply in_app_or in Hx.
  destruct Hx as [Hx|Hx].
  - rewrite <- (firstn_skipn p l). apply in_or_app. auto.
  - rewrite <- (firstn_skipn e l). apply in_or_app. auto.
Qed.
Lemma vrange_In {A} (l : list A) p e r x : vrange l p e = Ok r -> In x r -> In x l.
Proof.
  unfold vrange. destruct ((p <=? e) && (e <=? length l)); [|discriminate]. intro H. injection H as <-. unfold slice. intro Hx.
  rewrite <- (firstn_skipn p l). apply in_or_app. right. rewrite <- (firstn_skipn (e - p) (skipn p l)). apply in_or_app. auto.
Qed.

(** The column indices are values of the type that are not negative. *)
Definition cols_in {V} (t : ity) (m : zmat V) : Prop := forall x, In x (zcol m) -> (0 <= x < zcols m)%Z.

Section ArgFacts.
  Context {V : Type}.
  Variables (vzero : V) (t a : ity) (dbg : bool).
  Hypothesis Ht : (32 <= i_bits t)%Z.
  Hypothesis Ha : (32 <= i_bits a)%Z.

  (** One step of the column loop, when the value given to upper_bound decides as [c' - 1] does in [t]. *)
  Lemma y_step_z c c1 c' i (m : zmat V) loss (P : Z -> Prop) :
    t_res a (c - 1)%Z = Ok c1 -> t_res t (c' - 1)%Z = Ok (c' - 1)%Z ->
    (forall x, P x -> less a t c1 x = (c' - 1 <? x)%Z) -> (forall x, In x (zcol m) -> P x) ->
    y_resize_step t a c i (m, loss) = z_resize_step t c' i (m, loss) /\
    (forall m' loss', z_resize_step t c' i (m, loss) = Ok (m', loss') -> forall x, In x (zcol m') -> P x).
  Proof.
    intros E1 E2 Hl Hm. unfold y_resize_step, z_resize_step. rewrite E1, E2. cbn [bind].
    destruct (vget (zoff m) (i + 1)) as [e0| | |]; cbn [bind]; try (split; [reflexivity|discriminate]).
    destruct (t_res t (e0 - loss)) as [e1| | |]; cbn [bind]; try (split; [reflexivity|discriminate]).
    destruct (at_pos (conv (sg t) e1)) as [e| | |]; cbn [bind]; try (split; [reflexivity|discriminate]).
    destruct (vget (zoff m) i) as [b0| | |]; cbn [bind]; try (split; [reflexivity|discriminate]).
    destruct (at_pos (conv (sg t) b0)) as [b| | |]; cbn [bind]; try (split; [reflexivity|discriminate]).
    destruct (vrange (zcol m) b e) as [r| | |] eqn:Er; cbn [bind]; try (split; [reflexivity|discriminate]).
    rewrite (y_ubound_val t a r c1 (c' - 1)) by (intros x Hx; apply Hl, Hm, (vrange_In _ _ _ _ _ Er Hx)).
    split; [reflexivity|]. intros m' loss'. destruct (b + z_ubound r (c' - 1) =? e).
    - cbn [bind]. destruct (vget (zoff m) (i + 1)) as [x| | |]; cbn [bind]; try discriminate.
      destruct (t_res t (x - loss)) as [y| | |]; cbn [bind]; try discriminate.
      destruct (vset (zoff m) (i + 1) y) as [z| | |]; cbn [bind]; try discriminate. intro E. injection E as <- <-. exact Hm.
    - destruct (verase (zcol m) (b + z_ubound r (c' - 1)) e) as [ci| | |] eqn:Ec; cbn [bind]; try discriminate.
      destruct (verase (zval m) (b + z_ubound r (c' - 1)) e) as [vs| | |]; cbn [bind]; try discriminate. cbn [zoff zcol].
      destruct (vget (zoff m) (i + 1)) as [x| | |]; cbn [bind]; try discriminate.
      destruct (t_res t (x - _)) as [y| | |]; cbn [bind]; try discriminate.
      destruct (vset (zoff m) (i + 1) y) as [z| | |]; cbn [bind]; try discriminate. intro E. injection E as <- <-. cbn [zcol].
      intros x' Hx'. apply Hm. exact (verase_In _ _ _ _ _ Ec Hx').
  Qed.

  Lemma y_loop_z c c1 c' l (P : Z -> Prop) : t_res a (c - 1)%Z = Ok c1 -> t_res t (c' - 1)%Z = Ok (c' - 1)%Z ->
    (forall x, P x -> less a t c1 x = (c' - 1 <? x)%Z) -> forall (m : zmat V) loss, (forall x, In x (zcol m) -> P x) ->
    forM l (y_resize_step t a c) (m, loss) = forM l (z_resize_step t c') (m, loss).
  Proof.
    intros E1 E2 Hl. induction l as [|i l IH]; intros m loss Hm; [reflexivity|]. cbn [forM].
    destruct (y_step_z c c1 c' i m loss P E1 E2 Hl Hm) as [-> Hn].
    destruct (z_resize_step t c' i (m, loss)) as [[m' loss']| | |]; cbn [bind]; try reflexivity. apply IH. exact (Hn _ _ eq_refl).
  Qed.

  Lemma y_rows_z (m : zmat V) r : (0 <= r)%Z -> (r + 1 <= i_max t)%Z -> (r + 1 <= i_max a)%Z -> (0 <= z_rows t m)%Z ->
    y_resize_rows vzero t a m r = z_resize_rows vzero t m r.
  Proof using Ht Ha.
    intros Hr Hrt Hra Hz. unfold y_resize_rows, z_resize_rows.
    assert (Hzt : (z_rows t m <= i_max t)%Z) by (unfold z_rows; apply conv_range; lia).
    rewrite less_at by lia. rewrite !t_res_ok by lia. reflexivity.
  Qed.

  Lemma z_rows_cols (m : zmat V) r m2 : z_resize_rows vzero t m r = Ok m2 -> zcols m2 = zcols m /\
    forall x, In x (zcol m2) -> In x (zcol m) \/ x = 0%Z.
  Proof.
    unfold z_resize_rows. intro E.
    assert (H1 : forall m1, (if (r <? z_rows t m)%Z then
                do k <- at_pos r; do n0 <- vget (zoff m) k; do n <- new_size n0;
                Ok (mkZ (zoff m) (vresize (zcol m) n 0%Z) (vresize (zval m) n vzero) (zcols m))
              else Ok m) = Ok m1 -> zcols m1 = zcols m /\ forall x, In x (zcol m1) -> In x (zcol m) \/ x = 0%Z).
    { intros m1. destruct (r <? z_rows t m)%Z; [|intro E1; injection E1 as <-; auto].
      destruct (at_pos r) as [k| | |]; cbn [bind]; try discriminate. destruct (vget (zoff m) k) as [n0| | |]; cbn [bind]; try discriminate.
      destruct (new_size n0) as [n| | |]; cbn [bind]; try discriminate. intro E1. injection E1 as <-. cbn [zcols zcol]. split; [reflexivity|].
      intros x Hx. exact (vresize_In _ _ _ _ Hx). }
    destruct (if (r <? z_rows t m)%Z then _ else _) as [m1| | |]; try discriminate. specialize (H1 m1 eq_refl). cbn [bind] in E.
    destruct (t_res t (r + 1)) as [r1| | |]; cbn [bind] in E; try discriminate.
    destruct (match zoff m1 with [] => _ | _ => _ end) as [d| | |]; cbn [bind] in E; try discriminate.
    destruct (new_size r1) as [n1| | |]; cbn [bind] in E; try discriminate. injection E as <-. exact H1.
  Qed.

  Lemma z_rows_nonneg (m : smat V) : (Z.of_nat (length (rnz m)) <= i_max t)%Z -> (0 <= z_rows t (zof m))%Z.
  Proof using Ht. intro H. rewrite z_rows_of by (auto; lia). lia. Qed.

  (** resize, as long as everything fits into both types. *)
  Lemma y_resize_z (m : smat V) r c : (Z.of_nat (length (rnz m)) <= i_max t)%Z -> (forall x, In x (cidx m) -> (Z.of_nat x <= i_max t)%Z) ->
    (Z.of_nat (csize m) <= i_max t)%Z -> (Z.of_nat r + 1 <= i_max t)%Z -> (Z.of_nat r + 1 <= i_max a)%Z ->
    (Z.of_nat c <= i_max t)%Z -> (Z.of_nat c <= i_max a)%Z -> (c < csize m -> 0 < c) ->
    y_resize vzero t a dbg (zof m) (Z.of_nat r) (Z.of_nat c) = z_resize vzero t dbg (zof m) (Z.of_nat r) (Z.of_nat c).
  Proof using Ht Ha.
    intros Hl Hx Hcs Hrt Hra Hct Hca Hc. unfold y_resize, z_resize. rewrite !assert_nat. cbn [bind].
    rewrite y_rows_z by (try lia; apply z_rows_nonneg; auto).
    destruct (z_resize_rows vzero t (zof m) (Z.of_nat r)) as [m2| | |] eqn:E2; cbn [bind]; try reflexivity.
    destruct (z_rows_cols _ _ _ E2) as [Ec2 Hin]. unfold z_columns. rewrite Ec2. change (zcols (zof m)) with (Z.of_nat (csize m)).
    rewrite less_at by lia. rewrite (conv_pos t) by lia.
    destruct (Z.ltb_spec (Z.of_nat c) (Z.of_nat (csize m))) as [Hlt|]; [|reflexivity].
    unfold FOR. rewrite (y_loop_z (Z.of_nat c) (Z.of_nat c - 1) (Z.of_nat c) _ (fun x => 0 <= x <= i_max t)%Z); [reflexivity| | | |].
    - apply t_res_ok; lia.
    - apply t_res_ok; lia.
    - intros x Hx'. apply less_at; auto; lia.
    - intros x Hx'. destruct (Hin x Hx') as [Hx''| ->]; [|pose proof (sg_le t); lia].
      apply in_map_iff in Hx''. destruct Hx'' as (k & <- & Hk). specialize (Hx k Hk). lia.
  Qed.

  Lemma y_lower_bound_z (m : smat V) i j : (Z.of_nat (length (rnz m)) <= i_max t)%Z -> (forall x, In x (cidx m) -> (Z.of_nat x <= i_max t)%Z) ->
    (Z.of_nat i + 1 <= i_max a)%Z -> (Z.of_nat j <= i_max a)%Z ->
    y_lower_bound t a dbg (zof m) (Z.of_nat i) (Z.of_nat j) = z_lower_bound t dbg (zof m) (Z.of_nat i) (Z.of_nat j).
  Proof using Ht Ha.
    intros Hl Hx Hi Hj. unfold y_lower_bound, z_lower_bound. rewrite !assert_nat. cbn [bind].
    assert (Hz : (0 <= z_rows t (zof m) <= i_max t)%Z) by (split; [apply z_rows_nonneg; auto|unfold z_rows; apply conv_range; lia]).
    rewrite less_at by lia. destruct (Z.of_nat i <? z_rows t (zof m))%Z; [|reflexivity]. rewrite at_pos_nat. cbn [bind].
    destruct (vget (zoff (zof m)) i) as [b0| | |]; cbn [bind]; try reflexivity.
    destruct (at_pos b0) as [b| | |]; cbn [bind]; try reflexivity. rewrite t_res_ok by lia. cbn [bind].
    replace (Z.of_nat i + 1)%Z with (Z.of_nat (i + 1)) by lia. rewrite at_pos_nat. cbn [bind].
    destruct (vget (zoff (zof m)) (i + 1)) as [e0| | |]; cbn [bind]; try reflexivity.
    destruct (at_pos e0) as [e| | |]; cbn [bind]; try reflexivity.
    destruct (vrange (zcol (zof m)) b e) as [r| | |] eqn:Er; cbn [bind]; try reflexivity.
    rewrite (y_lbound_val t a Ht Ha r (Z.of_nat j)); [reflexivity|lia|]. intros x Hx'. pose proof (vrange_In _ _ _ _ _ Er Hx') as Hin.
    change (zcol (zof m)) with (map Z.of_nat (cidx m)) in Hin. apply in_map_iff in Hin. destruct Hin as (k & <- & Hk). specialize (Hx k Hk). lia.
  Qed.

  Lemma swf_cols (m : smat V) : swf m -> forall x, In x (cidx m) -> x < csize m.
  Proof.
    intros (rs & H & Hok) x Hx. destruct H as (_ & Hc & _). rewrite Hc in Hx. apply in_map_iff in Hx. destruct Hx as ([q v] & <- & Hq).
    apply in_concat in Hq. destruct Hq as (g & Hg & Hq). destruct (In_nth _ _ [] Hg) as (k & Hk & Ek). destruct (Hok k Hk) as [_ Hbd].
    rewrite Ek in Hbd. apply Hbd. apply (in_map fst) in Hq. exact Hq.
  Qed.

  Lemma y_insert_z (m : smat V) i j v : room t m -> swf m -> (Z.of_nat (csize m) <= i_max t)%Z ->
    (Z.of_nat i + 2 <= i_max t)%Z -> (Z.of_nat j + 1 <= i_max t)%Z -> (Z.of_nat i + 2 <= i_max a)%Z -> (Z.of_nat j + 1 <= i_max a)%Z ->
    (s_rows m <= i -> (Z.of_nat (csize m) <= i_max a)%Z) -> (csize m <= j -> (Z.of_nat (s_rows m) + 1 <= i_max a)%Z) ->
    y_insert vzero t a dbg (zof m) (Z.of_nat i) (Z.of_nat j) v = z_insert vzero t dbg (zof m) (Z.of_nat i) (Z.of_nat j) v.
  Proof using Ht Ha.
    intros Hr Hw Hcs Hit Hjt Hia Hja Hca Hra. pose proof (swf_cols m Hw) as Hcol. destruct Hw as (rs & H & Hok).
    unfold y_insert, z_insert. rewrite !assert_nat. cbn [bind].
    assert (Hb : (1 <= i_bits t)%Z) by lia.
    rewrite (z_rows_of t Hb m (proj1 Hr)). change (z_columns (zof m)) with (Z.of_nat (csize m)).
    assert (Hsr : (Z.of_nat (s_rows m) <= i_max t)%Z) by (rewrite <- (z_rows_of t Hb m (proj1 Hr)); unfold z_rows; apply conv_range; lia).
    rewrite less_at by lia.
    assert (H1 : exists m1 rs1,
      (if (Z.of_nat i <? Z.of_nat (s_rows m))%Z then Ok (zof m)
       else do i1 <- t_res a (Z.of_nat i + 1)%Z; y_resize vzero t a dbg (zof m) i1 (conv a (Z.of_nat (csize m)))) = Ok (zof m1) /\
      (if (Z.of_nat (s_rows m) <=? Z.of_nat i)%Z then do i1 <- t_res t (Z.of_nat i + 1)%Z; z_resize vzero t dbg (zof m) i1 (Z.of_nat (csize m))
       else Ok (zof m)) = Ok (zof m1) /\ room t m1 /\ csize m1 = csize m /\ srepr m1 rs1 /\ concat rs1 = concat rs /\
      (s_rows m1 = s_rows m \/ s_rows m1 = i + 1)).
    { destruct (Z.ltb_spec (Z.of_nat i) (Z.of_nat (s_rows m))), (Z.leb_spec (Z.of_nat (s_rows m)) (Z.of_nat i)) as [Hle|]; try lia; [exists m, rs; auto 9|].
      destruct (s_resize_ok vzero 0 m rs (i + 1) (csize m) H) as (m1 & E1 & H1 & Hc1 & _).
      destruct (resize_of vzero t dbg 0 Hb m (i + 1) (csize m) m1) as [Ez Hr1]; auto; try lia.
      rewrite !t_res_ok by lia. cbn [bind]. replace (Z.of_nat i + 1)%Z with (Z.of_nat (i + 1)) by lia.
      assert (Hca' : (Z.of_nat (csize m) <= i_max a)%Z) by (apply Hca; lia).
      rewrite (conv_pos a) by lia. rewrite y_resize_z; try lia; [|apply Hr|intros x Hx; specialize (Hcol x Hx); lia].
      exists m1, (resize_rows 0 (csize m) (i + 1) (csize m) rs). split; [exact Ez|]. split; [exact Ez|]. split; [exact Hr1|]. split; [exact Hc1|].
      split; [exact H1|]. rewrite (srepr_rows _ _ H) in Hle. split.
      - unfold resize_rows. destruct (Nat.ltb_spec (csize m) (csize m)); [lia|].
        rewrite firstn_all2 by lia. rewrite concat_app, concat_repeat_nil, app_nil_r. reflexivity.
      - right. rewrite (srepr_rows _ _ H1). unfold resize_rows. destruct (Nat.ltb_spec (csize m) (csize m)); [lia|].
        rewrite app_length, firstn_length, repeat_length. lia. }
    destruct H1 as (m1 & rs1 & Ey1 & Ez1 & Hr1 & Hc1 & Hm1 & Hcc1 & Hs1). rewrite Ey1, Ez1. cbn [bind]. clear Ey1 Ez1.
    change (z_columns (zof m1)) with (Z.of_nat (csize m1)). rewrite z_rows_of by (auto; apply Hr1).
    assert (Hci1 : cidx m1 = cidx m) by (destruct Hm1 as (_ & -> & _), H as (_ & -> & _); rewrite Hcc1; reflexivity).
    rewrite less_at by lia.
    assert (H2 : exists m2 rs2,
      (if (Z.of_nat j <? Z.of_nat (csize m1))%Z then Ok (zof m1)
       else do j1 <- t_res a (Z.of_nat j + 1)%Z; y_resize vzero t a dbg (zof m1) (conv a (Z.of_nat (s_rows m1))) j1) = Ok (zof m2) /\
      (if (Z.of_nat (csize m1) <=? Z.of_nat j)%Z then do j1 <- t_res t (Z.of_nat j + 1)%Z; z_resize vzero t dbg (zof m1) (Z.of_nat (s_rows m1)) j1
       else Ok (zof m1)) = Ok (zof m2) /\ room t m2 /\ srepr m2 rs2 /\ concat rs2 = concat rs).
    { destruct (Z.ltb_spec (Z.of_nat j) (Z.of_nat (csize m1))), (Z.leb_spec (Z.of_nat (csize m1)) (Z.of_nat j)) as [Hle|]; try lia; [exists m1, rs1; auto 9|].
      destruct (s_resize_ok vzero 0 m1 rs1 (s_rows m1) (j + 1) Hm1) as (m2 & E2 & H2 & Hc2 & _).
      assert (Hst : (Z.of_nat (s_rows m1) + 1 <= i_max t)%Z).
      { destruct Hr1 as [Hl1 _]. unfold s_rows. pose proof (sg_le t Hb). destruct (rnz m1); cbn [length] in *; lia. }
      assert (Hsa : (Z.of_nat (s_rows m1) + 1 <= i_max a)%Z).
      { destruct Hs1 as [->| ->]; [apply Hra; lia|lia]. }
      destruct (resize_of vzero t dbg 0 Hb m1 (s_rows m1) (j + 1) m2) as [Ez Hr2]; auto; try lia.
      rewrite !t_res_ok by lia. cbn [bind]. rewrite (conv_pos a) by lia. replace (Z.of_nat j + 1)%Z with (Z.of_nat (j + 1)) by lia.
      rewrite y_resize_z; try lia; [|apply Hr1|rewrite Hci1; intros x Hx; specialize (Hcol x Hx); lia].
      exists m2, (resize_rows 0 (csize m1) (s_rows m1) (j + 1) rs1). split; [exact Ez|]. split; [exact Ez|]. split; [exact Hr2|]. split; [exact H2|].
      unfold resize_rows. destruct (Nat.ltb_spec (j + 1) (csize m1)); [lia|]. rewrite (srepr_rows _ _ Hm1).
      rewrite firstn_all, Nat.sub_diag. cbn [repeat]. rewrite app_nil_r. exact Hcc1. }
    destruct H2 as (m2 & rs2 & Ey2 & Ez2 & Hr2 & Hm2 & Hcc2). rewrite Ey2, Ez2. cbn [bind]. clear Ey2 Ez2.
    assert (Hci2 : cidx m2 = cidx m) by (destruct Hm2 as (_ & -> & _), H as (_ & -> & _); rewrite Hcc2; reflexivity).
    rewrite at_pos_nat. cbn [bind].
    rewrite y_lower_bound_z; try lia; [|apply Hr2|rewrite Hci2; intros x Hx; specialize (Hcol x Hx); lia].
    destruct (if i <=? length (zoff (zof m2)) then Ok tt else Undef) as [[]| | |]; cbn [bind]; try reflexivity.
    destruct (z_lower_bound t dbg (zof m2) (Z.of_nat i) (Z.of_nat j)) as [it| | |]; cbn [bind]; try reflexivity.
    rewrite (conv_pos t) by lia.
    assert (Hf : (if fst it =? i then do c <- vget (zcol (zof m2)) (snd it); Ok (negb (differ t a c (Z.of_nat j))) else Ok false) =
                 (if fst it =? i then do c <- vget (zcol (zof m2)) (snd it); Ok (c =? Z.of_nat j)%Z else Ok false)).
    { destruct (fst it =? i); [|reflexivity]. destruct (vget (zcol (zof m2)) (snd it)) as [c| | |] eqn:Ec; cbn [bind]; try reflexivity.
      apply vget_In in Ec. change (zcol (zof m2)) with (map Z.of_nat (cidx m2)) in Ec. rewrite Hci2 in Ec.
      apply in_map_iff in Ec. destruct Ec as (k & <- & Hk). specialize (Hcol k Hk). rewrite differ_ta by (auto; lia). reflexivity. }
    rewrite Hf. reflexivity.
  Qed.

  (** Into a row that is new the number of columns is cast: the insertion continues in the matrix of that size. *)
  Lemma y_insert_grown (m m1 : smat V) i j v c1 : room t m -> s_rows m <= i -> (Z.of_nat i + 2 <= i_max t)%Z -> (Z.of_nat i + 2 <= i_max a)%Z ->
    conv a (Z.of_nat (csize m)) = Z.of_nat c1 -> y_resize vzero t a dbg (zof m) (Z.of_nat (i + 1)) (Z.of_nat c1) = Ok (zof m1) ->
    room t m1 -> i < s_rows m1 ->
    y_insert vzero t a dbg (zof m) (Z.of_nat i) (Z.of_nat j) v = y_insert vzero t a dbg (zof m1) (Z.of_nat i) (Z.of_nat j) v.
  Proof using Ht Ha.
    intros Hr Hi Hit Hia Ec Ey Hr1 Hi1. unfold y_insert. rewrite !assert_nat. cbn [bind].
    assert (Hb : (1 <= i_bits t)%Z) by lia. rewrite (z_rows_of t Hb m (proj1 Hr)), (z_rows_of t Hb m1 (proj1 Hr1)).
    assert (Hsr1 : (Z.of_nat (s_rows m1) <= i_max t)%Z) by (rewrite <- (z_rows_of t Hb m1 (proj1 Hr1)); unfold z_rows; apply conv_range; lia).
    rewrite !less_at by lia. destruct (Z.ltb_spec (Z.of_nat i) (Z.of_nat (s_rows m))); [lia|].
    destruct (Z.ltb_spec (Z.of_nat i) (Z.of_nat (s_rows m1))); [|lia]. rewrite t_res_ok by lia. cbn [bind].
    change (z_columns (zof m)) with (Z.of_nat (csize m)). rewrite Ec. replace (Z.of_nat i + 1)%Z with (Z.of_nat (i + 1)) by lia. rewrite Ey. cbn [bind]. reflexivity.
  Qed.
  (** When the value given to upper_bound is negative, the loop to no columns erases row after row. *)
  Lemma y_none_loop (gs : list (list (nat * V))) k i loss : (cut0 t a < 0)%Z ->
    (forall x, In x (map fst (concat gs)) -> (Z.of_nat x <= i_max t)%Z) ->
    (Z.of_nat (loss + length (concat gs)) <= i_max (sg t))%Z ->
    forM (seq i (length gs)) (y_resize_step t a 0%Z)
      (mkZ (repeat 0%Z i ++ 0%Z :: map Z.of_nat (tl (psum loss gs))) (map Z.of_nat (map fst (concat gs))) (map snd (concat gs)) k, Z.of_nat loss) =
    Ok (mkZ (repeat 0%Z (i + length gs + 1)) [] [] k, Z.of_nat (loss + length (concat gs))).
  Proof using Ht Ha.
    intros Hcut. assert (Hb : (1 <= i_bits t)%Z) by lia. pose proof (sg_le t Hb) as Hsg. revert i loss.
    induction gs as [|g gs IH]; intros i loss Hx Hl.
    - cbn [length seq forM concat map tl psum]. rewrite Nat.add_0_r. do 3 f_equal; [|lia].
      replace (i + 1) with (S i) by lia. cbn [repeat]. rewrite repeat_cons. reflexivity.
    - cbn [length seq forM]. cbn [concat] in Hl |- *. rewrite app_length in Hl.
      assert (Hp : tl (psum loss (g :: gs)) = (loss + length g) :: tl (psum (loss + length g) gs)).
      { cbn [psum tl]. destruct gs; reflexivity. }
      rewrite Hp. cbn [map]. rewrite !map_app.
      unfold y_resize_step at 1.
      assert (G1 : forall x y z (r : list Z), vget (repeat x i ++ y :: z :: r) (i + 1) = Ok z).
      { intros. unfold vget. rewrite nth_error_app2 by (rewrite repeat_length; lia). rewrite repeat_length.
        replace (i + 1 - i) with 1 by lia. reflexivity. }
      assert (G0 : forall x y z (r : list Z), vget (repeat x i ++ y :: z :: r) i = Ok y).
      { intros. unfold vget. rewrite nth_error_app2 by (rewrite repeat_length; lia). rewrite repeat_length, Nat.sub_diag. reflexivity. }
      cbn [zoff zcol zval zcols]. rewrite G1. cbn [bind]. replace (Z.of_nat (loss + length g) - Z.of_nat loss)%Z with (Z.of_nat (length g)) by lia.
      rewrite t_res_ok by (auto; lia). cbn [bind]. rewrite (conv_pos (sg t)) by (auto; lia). rewrite at_pos_nat. cbn [bind].
      rewrite G0. cbn [bind]. rewrite (conv_pos (sg t) 0) by (auto; lia). change (at_pos 0) with (Ok 0). cbn [bind].
      rewrite t_res_m1 by auto. cbn [bind].
      assert (Hv : vrange (map Z.of_nat (map fst g) ++ map Z.of_nat (map fst (concat gs))) 0 (length g) = Ok (map Z.of_nat (map fst g))).
      { unfold vrange. rewrite app_length, !map_length. destruct (Nat.leb_spec (length g) (length g + length (concat gs))); [|lia].
        cbn [Nat.leb andb]. unfold slice. rewrite Nat.sub_0_r. cbn [skipn]. rewrite firstn_app, !map_length, Nat.sub_diag. cbn [firstn].
        rewrite app_nil_r. rewrite firstn_all2 by (rewrite !map_length; lia). reflexivity. }
      rewrite Hv. cbn [bind].
      assert (Hu : y_ubound t a (map Z.of_nat (map fst g)) (conv a (-1)) = 0).
      { destruct g as [|[q w] g]; [reflexivity|]. cbn [map fst y_ubound]. unfold less. fold (cut0 t a).
        rewrite common_conv by (auto; try lia; right; apply Hx; cbn [concat app map fst]; left; reflexivity).
        destruct (Z.ltb_spec (cut0 t a) (Z.of_nat q)); [reflexivity|lia]. }
      rewrite Hu, Nat.add_0_r.
      assert (Hmid : (if 0 =? length g
         then Ok (mkZ (repeat 0%Z i ++ 0%Z :: Z.of_nat (loss + length g) :: map Z.of_nat (tl (psum (loss + length g) gs)))
                   (map Z.of_nat (map fst g) ++ map Z.of_nat (map fst (concat gs))) (map snd g ++ map snd (concat gs)) k, Z.of_nat loss)
         else do ci <- verase (map Z.of_nat (map fst g) ++ map Z.of_nat (map fst (concat gs))) 0 (length g);
              do vs <- verase (map snd g ++ map snd (concat gs)) 0 (length g);
              Ok (mkZ (repeat 0%Z i ++ 0%Z :: Z.of_nat (loss + length g) :: map Z.of_nat (tl (psum (loss + length g) gs))) ci vs k,
                  conv t (Z.of_nat loss + (Z.of_nat (length g) - Z.of_nat 0))%Z)) =
         Ok (mkZ (repeat 0%Z i ++ 0%Z :: Z.of_nat (loss + length g) :: map Z.of_nat (tl (psum (loss + length g) gs)))
               (map Z.of_nat (map fst (concat gs))) (map snd (concat gs)) k, Z.of_nat (loss + length g))).
      { destruct (Nat.eqb_spec 0 (length g)) as [E|E].
        - destruct g; [|discriminate]. cbn [map app length]. rewrite Nat.add_0_r. reflexivity.
        - assert (Hve : forall {A} (u w : list A), verase (u ++ w) 0 (length u) = Ok w).
          { intros A u w. unfold verase. rewrite app_length. destruct (Nat.leb_spec (length u) (length u + length w)); [|lia].
            cbn [Nat.leb andb firstn app]. rewrite skipn_app, skipn_all, Nat.sub_diag. reflexivity. }
          pose proof (Hve Z (map Z.of_nat (map fst g)) (map Z.of_nat (map fst (concat gs)))) as V1. rewrite !map_length in V1. rewrite V1.
          pose proof (Hve V (map snd g) (map snd (concat gs))) as V2. rewrite map_length in V2. cbn [bind]. rewrite V2. cbn [bind].
          rewrite conv_pos by (auto; lia). do 3 f_equal. lia. }
      rewrite Hmid. cbn [bind zoff zcol zval zcols]. rewrite G1. cbn [bind]. rewrite Z.sub_diag, t_res_ok by (auto; lia).
      cbn [bind].
      assert (Hset : vset (repeat 0%Z i ++ 0%Z :: Z.of_nat (loss + length g) :: map Z.of_nat (tl (psum (loss + length g) gs))) (i + 1) 0%Z =
        Ok (repeat 0%Z (S i) ++ 0%Z :: map Z.of_nat (tl (psum (loss + length g) gs)))).
      { unfold vset. rewrite app_length, repeat_length. cbn [length]. destruct (Nat.ltb_spec (i + 1) (i + S (S (length (map Z.of_nat (tl (psum (loss + length g) gs))))))); [|lia].
        f_equal. unfold upd. rewrite firstn_app, repeat_length. replace (i + 1 - i) with 1 by lia. rewrite firstn_all2 by (rewrite repeat_length; lia).
        cbn [firstn]. replace (S (i + 1)) with (i + 2) by lia. rewrite skipn_app, repeat_length. replace (i + 2 - i) with 2 by lia.
        rewrite skipn_all2 by (rewrite repeat_length; lia). cbn [skipn app repeat]. rewrite (app_comm_cons (repeat 0%Z i)), repeat_cons, <- !app_assoc. reflexivity. }
      rewrite Hset. cbn [bind]. rewrite IH; [|intros x Hx'; apply Hx; cbn [concat]; rewrite map_app; apply in_or_app; auto|lia]. do 3 f_equal; [f_equal; lia|rewrite app_length; lia].
  Qed.

  Lemma c_step_cut N i s : c_resize_step (V := V) N 0 i s = c_resize_step N (S N) i s.
  Proof. reflexivity. Qed.

  Lemma forM_same {S} (f g : nat -> S -> res S) l s : (forall i s, f i s = g i s) -> forM l f s = forM l g s.
  Proof. intro E. revert s. induction l as [|i l IH]; intro s; [reflexivity|]. cbn [forM]. rewrite E. destruct (g i s); cbn [bind]; auto. Qed.

  Lemma cut0_m1 : (cut0 t a < 0)%Z -> cut0 t a = (-1)%Z.
  Proof using Ht Ha.
    intro H. unfold cut0 in *. assert (Hs : i_signed (common a t) = true).
    { destruct (i_signed (common a t)) eqn:E; [reflexivity|]. exfalso.
      pose proof (conv_range (common a t) (conv a (-1)) (common_wide t a Ht Ha)) as [H1 _]. unfold i_min in H1. rewrite E in H1. lia. }
    destruct (i_signed a) eqn:Ea.
    - assert (Hm : forall u, (32 <= i_bits u)%Z -> i_signed u = true -> conv u (-1) = (-1)%Z).
      { intros u Hu E. apply conv_fits; [lia|]. unfold fits, i_min, i_max. rewrite E.
        assert (0 < 2 ^ (i_bits u - 1))%Z by (apply Z.pow_pos_nonneg; lia). lia. }
      rewrite (Hm a) by auto. apply Hm; auto. destruct (common_either t a Ht Ha) as [->| ->]; auto.
    - assert (Hpos : (0 <= conv a (-1) <= i_max a)%Z).
      { pose proof (conv_range a (-1)) as [H1 H2]; [lia|]. unfold i_min in H1. rewrite Ea in H1. lia. }
      rewrite common_conv in H by (auto; lia). lia.
  Qed.

  Lemma arg_no_columns (m : smat V) r : swf m -> room t m -> (Z.of_nat (csize m) <= i_max t)%Z ->
    (Z.of_nat r + 1 <= i_max t)%Z -> (Z.of_nat r + 1 <= i_max a)%Z ->
    exists m', y_resize vzero t a dbg (zof m) (Z.of_nat r) 0%Z = Ok (zof m') /\ csize m' = 0 /\ s_rows m' = r /\
      forall p q x, stored m' p q x <-> stored m p q x /\ p < r /\ (Z.of_nat q <= cut0 t a)%Z.
  Proof using Ht Ha.
    intros Hw Hroom Hcs Hrt Hra. pose proof (swf_cols m Hw) as Hcol. destruct Hw as (rs & H & Hok). destruct Hroom as [Hl Hr].
    assert (Hb : (1 <= i_bits t)%Z) by lia. pose proof (sg_le t Hb) as Hsg.
    destruct (s_resize_ok vzero 0 m rs r (csize m) H) as (m2 & E2 & H2 & Hc2 & Hn2).
    destruct (rows_of vzero t 0 Hb m r m2 Hrt Hl E2) as (Ez & Hl2 & Hin).
    assert (Hr2 : room t m2).
    { split; [exact Hl2|]. intros x Hx. destruct (Hin x Hx) as [Hx'| ->]; [auto|]. lia. }
    set (gs := resize_rows 0 (csize m) r (csize m) rs) in *.
    assert (Hg : length gs = r) by apply resize_rows_length.
    assert (Hsr : s_rows m2 = r) by (rewrite (srepr_rows _ _ H2); exact Hg).
    assert (Hgn : forall k, nth k gs [] = if k <? r then nth k rs [] else []).
    { intro k. unfold gs. rewrite resize_rows_nth, Nat.ltb_irrefl. reflexivity. }
    assert (Hxs : forall x, In x (map fst (concat gs)) -> x < csize m).
    { intros x Hx. apply in_map_iff in Hx. destruct Hx as ([q w] & <- & Hq). apply in_concat in Hq. destruct Hq as (g & Hg' & Hq).
      destruct (In_nth _ _ [] Hg') as (k & Hk & Ek). rewrite Hgn in Ek. destruct (k <? r); [|subst g; destruct Hq].
      destruct (row_facts _ _ k Hok) as [_ Hbd]. rewrite Ek in Hbd. apply Hbd. apply (in_map fst) in Hq. exact Hq. }
    assert (Ha0 : ASSERT_DEBUG dbg (0 <=? 0)%Z = Ok tt) by (destruct dbg; reflexivity).
    unfold y_resize. rewrite assert_nat, Ha0. cbn [bind]. rewrite y_rows_z by (try lia; apply z_rows_nonneg; auto). rewrite Ez. cbn [bind].
    change (z_columns (zof m2)) with (Z.of_nat (csize m2)). rewrite (z_rows_of t Hb m2 Hl2), Nat2Z.id, Hsr. rewrite Hc2.
    rewrite less_at by (auto; pose proof (sg_le a); lia). rewrite (conv_pos t 0) by (auto; lia).
    destruct (Z.ltb_spec 0 (Z.of_nat (csize m))) as [Hpos|Hz].
    2:{ cbn [bind]. exists (mkS (rnz m2) (cidx m2) (vals m2) 0). split; [reflexivity|]. split; [reflexivity|]. split; [exact Hsr|].
        intros p q x. rewrite (srepr_stored _ _ p q x (srepr_csize _ _ 0 H2)), (srepr_stored _ _ _ _ _ H), Hgn.
        destruct (row_facts _ _ p Hok) as [_ Hbd]. split.
        - destruct (p <? r); [|intros []]. intro Hx. apply (in_map fst) in Hx. specialize (Hbd _ Hx). lia.
        - intros [Hx _]. apply (in_map fst) in Hx. specialize (Hbd _ Hx). lia. }
    destruct (Z.lt_ge_cases (cut0 t a) 0) as [Hneg|Hge].
    - assert (Hrn : rnz m2 = psum 0 gs) by (destruct H2 as [[H2|[H2 _]] _]; [exact H2|contradiction]).
      destruct H2 as (_ & Hci & Hva).
      assert (Hloop := y_none_loop gs (Z.of_nat (csize m)) 0 0 Hneg).
      assert (Hst : zof m2 = mkZ (repeat 0%Z 0 ++ 0%Z :: map Z.of_nat (tl (psum 0 gs))) (map Z.of_nat (map fst (concat gs))) (map snd (concat gs)) (Z.of_nat (csize m))).
      { unfold zof. rewrite Hrn, Hci, Hva, Hc2. f_equal. destruct gs; reflexivity. }
      rewrite <- Hst in Hloop. unfold FOR. rewrite Hg in Hloop. change (Z.of_nat 0) with 0%Z in Hloop. rewrite Hloop.
      + cbn [bind fst zoff zcol zval]. exists (mkS (repeat 0 (r + 1)) [] [] 0). split; [|split; [reflexivity|split]].
        * unfold zof. cbn [rnz cidx vals csize map]. f_equal. f_equal. cbn [Nat.add]. generalize (r + 1) as n. intro n. induction n; cbn; congruence.
        * unfold s_rows. cbn [rnz]. replace (r + 1) with (S r) by lia. cbn [repeat length]. rewrite repeat_length. lia.
        * intros p q x. split; [|intros (_ & _ & Hq); lia]. intros (_ & k & _ & Hk & _). destruct k; discriminate.
      + intros x Hx. specialize (Hxs x Hx). lia.
      + assert (Hlast : In (length (concat gs)) (rnz m2)).
        { rewrite Hrn. apply nth_error_In with (length gs). rewrite nth_error_psum, Nat.leb_refl, start_all by lia. reflexivity. }
        destruct Hr2 as [_ Hr2]. specialize (Hr2 _ Hlast). lia.
    - set (N := Z.to_nat (Z.min (cut0 t a) (i_max t - 1))).
      assert (HN : (Z.of_nat N = Z.min (cut0 t a) (i_max t - 1))%Z) by (unfold N; rewrite Z2Nat.id; lia).
      destruct (s_resize_ok vzero N m rs r 0 H) as (m' & E' & H' & Hc' & _).
      assert (Hform : (do m3 <- (if 0 <? csize m2 then do s <- FOR (s_rows m2) (c_resize_step N 0) (m2, 0); Ok (fst s) else Ok m2);
         Ok (mkS (rnz m3) (cidx m3) (vals m3) 0)) = Ok m').
      { rewrite <- E'. change (s_resize vzero N) with (c_resize vzero N). change (s_resize vzero 0) with (c_resize vzero 0) in E2.
        unfold c_resize in *.
        destruct (if r <? c_size_row m then do n <- vget (rnz m) r; Ok (mkS (rnz m) (vresize (cidx m) n 0) (vresize (vals m) n vzero) (csize m))
                else Ok m) as [m1| | |] eqn:E1; try discriminate. cbn [bind] in *.
        assert (Ec1 : csize m1 = csize m).
        { destruct (r <? c_size_row m); [|injection E1 as <-; reflexivity]. destruct (vget (rnz m) r); try discriminate. injection E1 as <-. reflexivity. }
        destruct (match rnz m1 with [] => Ok 0 | _ => vback (rnz m1) end) as [d| | |]; try discriminate. cbn [bind] in *.
        unfold c_size_column in *. cbn [csize] in *. rewrite Ec1 in E2 |- *. rewrite Nat.ltb_irrefl in E2. cbn [bind rnz cidx vals] in E2.
        injection E2 as <-. reflexivity. }
      rewrite Hc2 in Hform. destruct (Nat.ltb_spec 0 (csize m)); [|lia]. rewrite Hsr in Hform. unfold FOR in Hform |- *.
      rewrite (forM_same _ _ _ _ (c_step_cut N)) in Hform.
      destruct (forM (seq 0 r) (c_resize_step N (S N)) (m2, 0)) as [s| | |] eqn:El; try discriminate. cbn [bind] in Hform. injection Hform as Hm'.
      destruct (loop_of t N Hb (S N) (seq 0 r) m2 0 s) as [E4 _]; auto; try lia.
      { left. lia. }
      rewrite (y_loop_z 0%Z (conv a (-1)) (Z.of_nat (S N)) _ (fun x => 0 <= x < i_max t)%Z).
      + change 0%Z with (Z.of_nat 0) at 1. rewrite E4. cbn [bind fst]. exists m'. split; [rewrite <- Hm'; reflexivity|]. split; [exact Hc'|].
        split; [rewrite (srepr_rows _ _ H'); apply resize_rows_length|].
        intros p q x. rewrite (srepr_stored _ _ _ _ _ H'), (srepr_stored _ _ _ _ _ H), resize_rows_nth.
        destruct (Nat.ltb_spec 0 (csize m)); [|lia]. cbn [dec_wrap]. destruct (row_facts _ _ p Hok) as [Hasc Hbd].
        destruct (Nat.ltb_spec p r) as [Hp|Hp]; [|split; [intros []|lia]]. rewrite cutw_filter by auto. rewrite filter_In, Nat.leb_le. cbn [fst].
        split; [intros [Hx Hq]|intros (Hx & _ & Hq)]; (split; [exact Hx|]); [split; [exact Hp|lia]|].
        apply (in_map fst) in Hx. specialize (Hbd _ Hx). cbn [fst] in Hbd. lia.
      + apply t_res_m1; auto.
      + apply t_res_ok; lia.
      + intros x Hx. unfold less. fold (cut0 t a). rewrite common_conv by (auto; lia).
        destruct (Z.ltb_spec (cut0 t a) x), (Z.ltb_spec (Z.of_nat (S N) - 1) x); auto; lia.
      + intros x Hx. change (zcol (zof m2)) with (map Z.of_nat (cidx m2)) in Hx. apply in_map_iff in Hx. destruct Hx as (k & <- & Hk).
        destruct H2 as (_ & Hci & _). rewrite Hci in Hk. specialize (Hxs k Hk). lia.
  Qed.
End ArgFacts.

(** ** What the theorems state *)
Section ArgTheorems.
  Context {V : Type}.
  Variables (vzero : V) (t a : ity) (dbg : bool).
  Hypothesis Ht : (32 <= i_bits t)%Z.
  Hypothesis Ha : (32 <= i_bits a)%Z.

  Lemma arg_resize M (m : smat V) r c m' : swf m -> room t m -> (Z.of_nat (csize m) <= i_max t)%Z ->
    (Z.of_nat r + 1 <= i_max t)%Z -> (Z.of_nat r + 1 <= i_max a)%Z -> (Z.of_nat c <= i_max t)%Z -> (Z.of_nat c <= i_max a)%Z -> 0 < c ->
    c_resize vzero M m r c = Ok m' -> y_resize vzero t a dbg (zof m) (Z.of_nat r) (Z.of_nat c) = Ok (zof m') /\ room t m'.
  Proof using Ht Ha.
    intros Hw Hr Hcs Hrt Hra Hct Hca Hc E. pose proof (swf_cols m Hw) as Hcol.
    rewrite y_resize_z; auto; [|apply Hr|intros x Hx; specialize (Hcol x Hx); lia].
    apply (resize_of vzero t dbg M ltac:(lia) m r c m'); auto. intros _. left. exact Hc.
  Qed.

  Lemma arg_insert M (m : smat V) i j v m' it b : swf m -> room t m -> (Z.of_nat (csize m) <= i_max t)%Z ->
    (Z.of_nat i + 2 <= i_max t)%Z -> (Z.of_nat j + 1 <= i_max t)%Z -> (Z.of_nat i + 2 <= i_max a)%Z -> (Z.of_nat j + 1 <= i_max a)%Z ->
    (s_rows m <= i -> (Z.of_nat (csize m) <= i_max a)%Z) -> (csize m <= j -> (Z.of_nat (s_rows m) + 1 <= i_max a)%Z) ->
    (Z.of_nat (length (cidx m)) < i_max (sg t))%Z -> c_insert vzero M m i j v = Ok (m', it, b) ->
    y_insert vzero t a dbg (zof m) (Z.of_nat i) (Z.of_nat j) v = Ok (zof m', it, b).
  Proof using Ht Ha.
    intros Hw Hr Hcs Hit Hjt Hia Hja Hca Hra Hn E. rewrite y_insert_z by auto. apply (insert_of vzero t dbg M ltac:(lia) m i j v m' it b); auto; lia.
  Qed.

  Lemma arg_lower_bound (m : smat V) i j it : swf m -> (Z.of_nat (length (rnz m)) <= i_max t)%Z -> (Z.of_nat (csize m) <= i_max t)%Z ->
    (Z.of_nat i + 1 <= i_max a)%Z -> (Z.of_nat j <= i_max a)%Z -> c_lower_bound m i j = Ok it ->
    y_lower_bound t a dbg (zof m) (Z.of_nat i) (Z.of_nat j) = Ok it.
  Proof using Ht Ha.
    intros Hw Hl Hcs Hi Hj E. pose proof (swf_cols m Hw) as Hcol.
    rewrite y_lower_bound_z; auto; [|intros x Hx; specialize (Hcol x Hx); lia]. apply lower_bound_of; auto; lia.
  Qed.

  Lemma arg_insert_or_assign M (m : smat V) i j v m' it b : swf m -> room t m -> (Z.of_nat (csize m) <= i_max t)%Z ->
    (Z.of_nat i + 2 <= i_max t)%Z -> (Z.of_nat j + 1 <= i_max t)%Z -> (Z.of_nat i + 2 <= i_max a)%Z -> (Z.of_nat j + 1 <= i_max a)%Z ->
    (s_rows m <= i -> (Z.of_nat (csize m) <= i_max a)%Z) -> (csize m <= j -> (Z.of_nat (s_rows m) + 1 <= i_max a)%Z) ->
    (Z.of_nat (length (cidx m)) < i_max (sg t))%Z -> c_insert_or_assign vzero M m i j v = Ok (m', it, b) ->
    y_insert_or_assign vzero t a dbg (zof m) (Z.of_nat i) (Z.of_nat j) v = Ok (zof m', it, b).
  Proof using Ht Ha.
    intros Hw Hr Hcs Hit Hjt Hia Hja Hca Hra Hn E. unfold c_insert_or_assign in E. unfold y_insert_or_assign.
    destruct (c_insert vzero M m i j v) as [[[m1 it1] b1]| | |] eqn:E1; try discriminate. cbn [bind] in E.
    rewrite (arg_insert M m i j v m1 it1 b1) by auto. cbn [bind]. destruct b1; [injection E as <- <- <-; reflexivity|].
    change (zval (zof m1)) with (vals m1). destruct (vset (vals m1) (snd it1) v) as [vs| | |]; try discriminate. cbn [bind] in E |- *.
    injection E as <- <- <-. reflexivity.
  Qed.

  (** The rest of an insertion into a row that exists and a column that exists. *)
  Lemma insert_inside (m1 : smat V) i j v : swf m1 -> room t m1 -> (Z.of_nat (csize m1) <= i_max t)%Z -> i < s_rows m1 -> j < csize m1 ->
    (Z.of_nat i + 2 <= i_max t)%Z -> (Z.of_nat i + 2 <= i_max a)%Z -> (Z.of_nat j + 1 <= i_max a)%Z ->
    (Z.of_nat (length (cidx m1)) < i_max (sg t))%Z ->
    (forall x, ~ stored m1 i j x) ->
    exists m' it, y_insert vzero t a dbg (zof m1) (Z.of_nat i) (Z.of_nat j) v = Ok (zof m', it, true) /\ csize m' = csize m1 /\
      s_rows m' = s_rows m1 /\ forall p q x, stored m' p q x <-> stored m1 p q x \/ p = i /\ q = j /\ x = v.
  Proof using Ht Ha.
    intros Hw Hr Hcs Hi Hj Hit Hia Hja Hn Hno. pose proof Hw as (rs & H & Hok).
    destruct (s_insert_ok vzero 0 false None m1 rs i j v H Hok) as (m' & b & E & Hc & Hb).
    rewrite <- c_insert_eq in E by exact Hw. destruct b.
    - destruct Hb as [Hnin Hs]. exists m'. eexists. split; [apply (arg_insert 0 m1 i j v); [..|exact E]; auto; lia|]. split; [lia|].
      split; [rewrite (srepr_rows _ _ Hs), insert_rows_length; rewrite (srepr_rows _ _ H) in *; lia|].
      intros p q x. rewrite (srepr_stored _ _ _ _ _ Hs), (srepr_stored _ _ _ _ _ H), (insert_rows_stored (csize m1)) by auto.
      split; [intros [[-> Eq]|Hx]; [injection Eq as -> ->|]; auto|]. intros [Hx|(-> & -> & ->)]; auto.
    - destruct Hb as [Hin _]. exfalso. apply in_map_iff in Hin. destruct Hin as ([q w] & Eq & Hq). cbn in Eq. subst q.
      apply (Hno w). apply (srepr_stored _ _ _ _ _ H). exact Hq.
  Qed.

  Lemma length_resized M (m m1 : smat V) r c : swf m -> 0 < c -> c_resize vzero M m r c = Ok m1 ->
    swf m1 /\ csize m1 = c /\ s_rows m1 = r /\ length (cidx m1) <= length (cidx m) /\
    forall p q x, stored m1 p q x <-> stored m p q x /\ p < r /\ q < c.
  Proof.
    intros (rs & H & Hok) Hc E. change (c_resize vzero M) with (s_resize vzero M) in E.
    destruct (s_resize_ok vzero M m rs r c H) as (m1' & E1 & H1 & Hc1 & _). rewrite E1 in E. injection E as ->.
    split; [|split; [exact Hc1|split; [rewrite (srepr_rows _ _ H1); apply resize_rows_length|split]]].
    - exists (resize_rows M (csize m) r c rs). split; [exact H1|]. rewrite Hc1. apply resize_rows_ok; auto.
    - destruct H1 as (_ & -> & _), H as (_ & -> & _). rewrite !map_length. unfold resize_rows. rewrite concat_app, concat_repeat_nil, app_nil_r.
      assert (Hf : length (concat (firstn r rs)) <= length (concat rs)).
      { rewrite <- (firstn_skipn r rs) at 2. rewrite concat_app, app_length. lia. }
      destruct (c <? csize m); [|exact Hf]. etransitivity; [|exact Hf]. generalize (firstn r rs) as l. intro l. clear.
      induction l as [|g l IH]; [reflexivity|]. cbn [map concat]. rewrite !app_length. pose proof (cutw_length (dec_wrap M c) g). lia.
    - intros p q x. rewrite (srepr_stored _ _ _ _ _ H1), (srepr_stored _ _ _ _ _ H), (resize_rows_In M) by auto. cbn [fst]. tauto.
  Qed.

  Lemma arg_truncated (m : smat V) i j v c1 : swf m -> room t m -> (Z.of_nat (csize m) <= i_max t)%Z ->
    (Z.of_nat i + 2 <= i_max t)%Z -> (Z.of_nat i + 2 <= i_max a)%Z -> (Z.of_nat (length (cidx m)) < i_max (sg t))%Z ->
    s_rows m <= i -> conv a (Z.of_nat (csize m)) = Z.of_nat c1 -> c1 < csize m -> j < c1 ->
    exists m' it, y_insert vzero t a dbg (zof m) (Z.of_nat i) (Z.of_nat j) v = Ok (zof m', it, true) /\
      csize m' = c1 /\ forall p q x, stored m' p q x <-> stored m p q x /\ q < c1 \/ p = i /\ q = j /\ x = v.
  Proof using Ht Ha.
    intros Hw Hr Hcs Hit Hia Hn Hi Ec Hlt Hj.
    assert (Hca : (Z.of_nat c1 <= i_max a)%Z) by (rewrite <- Ec; apply conv_range; lia).
    pose proof Hw as (rs & H & Hok). destruct (s_resize_ok vzero 0 m rs (i + 1) c1 H) as (m1 & E1 & _).
    change (s_resize vzero 0) with (c_resize vzero 0) in E1.
    destruct (arg_resize 0 m (i + 1) c1 m1) as [Ey Hr1]; auto; try lia.
    destruct (length_resized 0 m m1 (i + 1) c1) as (Hw1 & Hc1 & Hs1 & Hl1 & Hst1); auto; [lia|].
    rewrite (y_insert_grown vzero t a dbg Ht Ha m m1 i j v c1) by (auto; lia).
    destruct (insert_inside m1 i j v) as (m' & it & E & Hc' & Hs' & Hst'); auto; try lia.
    { intros x Hx. apply Hst1 in Hx. destruct Hx as [[Hx _] _]. lia. }
    exists m', it. split; [exact E|]. split; [lia|]. intros p q x. rewrite Hst', Hst1.
    split; [intros [(Hx & _ & Hq)|Hx]; auto|]. intros [[Hx Hq]|Hx]; auto. left. split; [exact Hx|]. split; [|exact Hq].
    destruct Hx as [Hp _]. lia.
  Qed.

  (** The same cast of the number of rows, when the column is new. *)
  Lemma arg_rows_truncated (m : smat V) i j v r1 : swf m -> room t m -> (Z.of_nat (csize m) <= i_max t)%Z ->
    (Z.of_nat i + 2 <= i_max t)%Z -> (Z.of_nat j + 1 <= i_max t)%Z -> (Z.of_nat i + 2 <= i_max a)%Z -> (Z.of_nat j + 1 <= i_max a)%Z ->
    (Z.of_nat (length (cidx m)) < i_max (sg t))%Z -> csize m <= j -> conv a (Z.of_nat (s_rows m)) = Z.of_nat r1 ->
    (Z.of_nat r1 + 1 <= i_max a)%Z -> r1 < s_rows m -> i < r1 ->
    exists m' it, y_insert vzero t a dbg (zof m) (Z.of_nat i) (Z.of_nat j) v = Ok (zof m', it, true) /\
      s_rows m' = r1 /\ forall p q x, stored m' p q x <-> stored m p q x /\ p < r1 \/ p = i /\ q = j /\ x = v.
  Proof using Ht Ha.
    intros Hw Hr Hcs Hit Hjt Hia Hja Hn Hj Ec Hra Hlt Hi.
    assert (Hb : (1 <= i_bits t)%Z) by lia.
    assert (Hst : (Z.of_nat (s_rows m) <= i_max t)%Z) by (rewrite <- (z_rows_of t Hb m (proj1 Hr)); unfold z_rows; apply conv_range; lia).
    pose proof (swf_cols m Hw) as Hcol.
    pose proof Hw as (rs & H & Hok). destruct (s_resize_ok vzero 0 m rs r1 (j + 1) H) as (m1 & E1 & _).
    change (s_resize vzero 0) with (c_resize vzero 0) in E1.
    destruct (arg_resize 0 m r1 (j + 1) m1) as [Ey Hr1]; auto; try lia.
    destruct (length_resized 0 m m1 r1 (j + 1)) as (Hw1 & Hc1 & Hs1 & Hl1 & Hst1); auto; [lia|].
    assert (Heq : y_insert vzero t a dbg (zof m) (Z.of_nat i) (Z.of_nat j) v = y_insert vzero t a dbg (zof m1) (Z.of_nat i) (Z.of_nat j) v).
    { unfold y_insert. rewrite !assert_nat. cbn [bind]. rewrite (z_rows_of t Hb m (proj1 Hr)), (z_rows_of t Hb m1 (proj1 Hr1)).
      rewrite !less_at by lia. destruct (Z.ltb_spec (Z.of_nat i) (Z.of_nat (s_rows m))); [|lia].
      destruct (Z.ltb_spec (Z.of_nat i) (Z.of_nat (s_rows m1))); [|lia]. cbn [bind].
      change (z_columns (zof m)) with (Z.of_nat (csize m)). change (z_columns (zof m1)) with (Z.of_nat (csize m1)).
      rewrite (z_rows_of t Hb m (proj1 Hr)). rewrite !less_at by lia. destruct (Z.ltb_spec (Z.of_nat j) (Z.of_nat (csize m))); [lia|].
      destruct (Z.ltb_spec (Z.of_nat j) (Z.of_nat (csize m1))); [|lia]. rewrite t_res_ok by lia. cbn [bind].
      rewrite Ec. replace (Z.of_nat j + 1)%Z with (Z.of_nat (j + 1)) by lia. rewrite Ey. cbn [bind]. reflexivity. }
    rewrite Heq.
    assert (Hout : forall p q x, stored m p q x -> q < csize m).
    { intros p q x Hx. apply (srepr_stored _ _ _ _ _ H) in Hx. apply (in_map fst) in Hx. destruct (row_facts _ _ p Hok) as [_ Hbd].
      exact (Hbd _ Hx). }
    destruct (insert_inside m1 i j v) as (m' & it & E & Hc' & Hs' & Hst'); auto; try lia.
    { intros x Hx. apply Hst1 in Hx. destruct Hx as [Hx _]. specialize (Hout _ _ _ Hx). lia. }
    exists m', it. split; [exact E|]. split; [lia|]. intros p q x. rewrite Hst', Hst1.
    split; [intros [(Hx & Hp & _)|Hx]; auto|]. intros [[Hx Hp]|Hx]; auto. left. split; [exact Hx|]. split; [exact Hp|].
    specialize (Hout _ _ _ Hx). lia.
  Qed.

  (** When the cast gives a negative number, the debug build stops. *)
  Lemma arg_wrapped_debug (m : smat V) i j v : room t m -> (Z.of_nat i + 1 <= i_max a)%Z ->
    s_rows m <= i -> (conv a (Z.of_nat (csize m)) < 0)%Z -> y_insert vzero t a true (zof m) (Z.of_nat i) (Z.of_nat j) v = Abort.
  Proof using Ht Ha.
    intros Hr Hia Hi Hneg. unfold y_insert. rewrite !(assert_nat true). cbn [bind]. assert (Hb : (1 <= i_bits t)%Z) by lia.
    rewrite (z_rows_of t Hb m (proj1 Hr)).
    assert (Hst : (Z.of_nat (s_rows m) <= i_max t)%Z) by (rewrite <- (z_rows_of t Hb m (proj1 Hr)); unfold z_rows; apply conv_range; lia).
    rewrite less_at by lia. destruct (Z.ltb_spec (Z.of_nat i) (Z.of_nat (s_rows m))); [lia|]. rewrite t_res_ok by lia. cbn [bind].
    unfold y_resize. destruct (Z.leb_spec 0 (Z.of_nat i + 1)); [|lia]. change (z_columns (zof m)) with (Z.of_nat (csize m)).
    destruct (Z.leb_spec 0 (conv a (Z.of_nat (csize m)))); [lia|]. reflexivity.
  Qed.

  (** Negative arguments that are compared in an unsigned type. *)
  Lemma arg_negative_debug (m : zmat V) i j v : (i < 0 \/ j < 0)%Z ->
    y_insert vzero t a true m i j v = Abort /\ y_resize vzero t a true m i j = Abort /\ y_lower_bound t a true m i j = Abort.
  Proof.
    intro H. assert (Hk : forall {A} (k : res A), (do _ <- ASSERT_DEBUG true (0 <=? i)%Z; do _ <- ASSERT_DEBUG true (0 <=? j)%Z; k) = Abort).
    { intros A k. cbn [ASSERT_DEBUG]. destruct (Z.leb_spec 0 i); [|reflexivity]. destruct (Z.leb_spec 0 j); [lia|reflexivity]. }
    split; [|split]; apply Hk.
  Qed.

  Lemma neg_big i : i_signed (common a t) = false -> fits a i -> (i < 0)%Z -> (i_max (sg t) < conv (common a t) i)%Z.
  Proof using Ht Ha.
    intros Hs [Hi1 Hi2] Hneg. assert (Hsa : i_signed a = true).
    { destruct (i_signed a) eqn:E; [reflexivity|]. unfold i_min in Hi1. rewrite E in Hi1. lia. }
    assert (Hct : common a t = t /\ i_signed t = false /\ (i_bits a <= i_bits t)%Z).
    { unfold common in Hs |- *. rewrite !wide_promoted in Hs by auto. rewrite !wide_promoted by auto. clear Hi1 Hi2. destruct a as [sa ba], t as [st bt]. cbn [i_signed i_bits] in *. subst sa.
      destruct st; cbn [Bool.eqb] in *.
      - destruct (ba <? bt)%Z; cbn in Hs; discriminate.
      - cbn in Hs |- *. destruct (ba <=? bt)%Z eqn:E; cbn in Hs; [|discriminate]. apply Z.leb_le in E. auto. }
    destruct Hct as (-> & Hst & Hbits). unfold i_min in Hi1. rewrite Hsa in Hi1.
    assert (Hp : (2 ^ i_bits t = 2 * 2 ^ (i_bits t - 1))%Z) by (replace (i_bits t) with (Z.succ (i_bits t - 1)) at 1 by lia; apply Z.pow_succ_r; lia).
    assert (Hle : (2 ^ (i_bits a - 1) <= 2 ^ (i_bits t - 1))%Z) by (apply Z.pow_le_mono_r; lia).
    unfold conv, i_min, i_max, sg. rewrite Hst. cbn [i_signed i_bits]. rewrite <- (Z.mod_add _ 1) by lia. rewrite Z.mod_small by lia. lia.
  Qed.

  Lemma neg_not_less (m : zmat V) i : i_signed (common a t) = false -> fits a i -> (i < 0)%Z ->
    (0 <= z_rows t m <= i_max (sg t))%Z -> less a t i (z_rows t m) = false.
  Proof using Ht Ha.
    intros Hs Hf Hneg Hz. pose proof (neg_big i Hs Hf Hneg). pose proof (sg_le t). unfold less. rewrite (common_conv t a Ht Ha (z_rows t m)) by lia.
    apply Z.ltb_ge. lia.
  Qed.

  Lemma arg_negative_row_found (m : zmat V) i j : i_signed (common a t) = false -> fits a i -> (i < 0)%Z ->
    (0 <= z_rows t m <= i_max (sg t))%Z -> y_lower_bound t a false m i j = Ok (length (zoff m), length (zcol m)).
  Proof using Ht Ha. intros Hs Hf Hneg Hz. unfold y_lower_bound. cbn [ASSERT_DEBUG bind]. rewrite neg_not_less by auto. reflexivity. Qed.

  Lemma arg_negative_rows (m : smat V) r c : i_signed (common a t) = false -> fits a r -> (r < 0)%Z ->
    (Z.of_nat (length (rnz m)) <= i_max (sg t))%Z -> csize m <= c -> (Z.of_nat c <= i_max t)%Z -> (Z.of_nat c <= i_max a)%Z ->
    y_resize vzero t a false (zof m) r (Z.of_nat c) =
      if (r =? -1)%Z then Ok (mkZ [] (map Z.of_nat (cidx m)) (vals m) (Z.of_nat c)) else Abort.
  Proof using Ht Ha.
    intros Hs Hf Hneg Hl Hc Hct Hca. assert (Hb : (1 <= i_bits t)%Z) by lia. pose proof (sg_le t Hb) as Hsg.
    assert (Hz : (0 <= z_rows t (zof m) <= i_max (sg t))%Z).
    { rewrite z_rows_of by (auto; lia). unfold s_rows. destruct (rnz m); cbn [length] in *; lia. }
    unfold y_resize, y_resize_rows. cbn [ASSERT_DEBUG bind]. rewrite neg_not_less by auto. cbn [bind].
    assert (Er : t_res a (r + 1) = Ok (r + 1)%Z).
    { destruct Hf as [H1 H2]. pose proof (sg_le a ltac:(lia)). unfold t_res. rewrite conv_fits by (try lia; split; lia).
      destruct (Z.leb_spec (i_min a) (r + 1)), (Z.leb_spec (r + 1) (i_max a)); try lia. cbn. rewrite andb_false_r. reflexivity. }
    rewrite Er. cbn [bind].
    assert (Ed : exists d, (match zoff (zof m) with [] => Ok 0%Z | _ => vback (zoff (zof m)) end) = Ok d).
    { destruct (zoff (zof m)) as [|o l]; [eexists; reflexivity|]. unfold vback, vget.
      destruct (nth_error (o :: l) (length (o :: l) - 1)) as [d|] eqn:E; [exists d; reflexivity|]. apply nth_error_None in E. cbn [length] in E. lia. }
    destruct Ed as (d & ->). cbn [bind]. unfold new_size. destruct (Z.eqb_spec r (-1)) as [->|Hne].
    - cbn [Z.add Z.ltb Z.compare Z.to_nat Z.pos_sub bind]. unfold z_columns. cbn [zcols]. change (zcols (zof m)) with (Z.of_nat (csize m)).
      rewrite less_at by lia. destruct (Z.ltb_spec (Z.of_nat c) (Z.of_nat (csize m))); [lia|]. cbn [bind zoff zcol zval].
      rewrite conv_pos by lia. unfold vresize. cbn [firstn app]. rewrite Nat.sub_0_l. reflexivity.
    - destruct (Z.ltb_spec (r + 1) 0); [reflexivity|lia].
  Qed.
  (** The last row that a signed type of the arguments can name: row + 1 overflows. *)
  Lemma arg_last_row (m : smat V) j it : i_signed a = true -> (Z.of_nat (length (rnz m)) <= i_max t)%Z -> (i_max a < Z.of_nat (s_rows m))%Z ->
    c_lower_bound m (Z.to_nat (i_max a)) j = Ok it ->
    y_lower_bound t a dbg (zof m) (i_max a) (Z.of_nat j) = Undef.
  Proof using Ht Ha.
    intros Hs Hl Hr E. assert (Hpos : (0 <= i_max a)%Z) by (pose proof (sg_le a); lia). unfold y_lower_bound.
    rewrite (assert_nat dbg j). rewrite <- (Z2Nat.id (i_max a)) at 1 by exact Hpos. rewrite (assert_nat dbg). cbn [bind].
    rewrite (z_rows_of t ltac:(lia) m Hl).
    assert (Hst : (Z.of_nat (s_rows m) <= i_max t)%Z) by (rewrite <- (z_rows_of t ltac:(lia) m Hl); unfold z_rows; apply conv_range; lia).
    rewrite less_at by lia. destruct (Z.ltb_spec (i_max a) (Z.of_nat (s_rows m))); [|lia].
    unfold at_pos at 1. destruct (Z.ltb_spec (i_max a) 0); [lia|]. cbn [bind]. unfold c_lower_bound in E. change (c_size_row m) with (s_rows m) in E.
    destruct (Nat.ltb_spec (Z.to_nat (i_max a)) (s_rows m)); [|lia].
    destruct (vget (rnz m) (Z.to_nat (i_max a))) as [b| | |] eqn:Eb; try discriminate. change (zoff (zof m)) with (map Z.of_nat (rnz m)).
    rewrite (vget_map Z.of_nat _ _ _ Eb). cbn [bind]. rewrite at_pos_nat. cbn [bind]. unfold t_res. rewrite Hs.
    destruct (Z.leb_spec (i_max a + 1) (i_max a)); [lia|]. rewrite andb_false_r. reflexivity.
  Qed.

  Lemma no_columns_none (m : smat V) r : i_signed t = true -> i_signed a = true -> swf m -> room t m -> (Z.of_nat (csize m) <= i_max t)%Z ->
    (Z.of_nat r + 1 <= i_max t)%Z -> (Z.of_nat r + 1 <= i_max a)%Z ->
    exists m', y_resize vzero t a dbg (zof m) (Z.of_nat r) 0%Z = Ok (zof m') /\ csize m' = 0 /\ s_rows m' = r /\ forall p q x, ~ stored m' p q x.
  Proof using Ht Ha.
    intros Hst Hsa Hw Hr Hcs Hrt Hra. destruct (arg_no_columns vzero t a dbg Ht Ha m r Hw Hr Hcs Hrt Hra) as (m' & E & Hc & Hs & Hst').
    exists m'. split; [exact E|]. split; [exact Hc|]. split; [exact Hs|]. intros p q x Hx. apply Hst' in Hx. destruct Hx as (_ & _ & Hq).
    assert (Hm : forall u, (32 <= i_bits u)%Z -> i_signed u = true -> conv u (-1) = (-1)%Z).
    { intros u Hu Eu. apply conv_fits; [lia|]. unfold fits, i_min, i_max. rewrite Eu.
      assert (0 < 2 ^ (i_bits u - 1))%Z by (apply Z.pow_pos_nonneg; lia). lia. }
    unfold cut0 in Hq. rewrite (Hm a) in Hq by auto.
    destruct (common_either t a Ht Ha) as [Ec|Ec]; rewrite Ec, Hm in Hq by auto; lia.
  Qed.

  Lemma no_columns_all (m : smat V) r : i_signed t = false /\ (i_bits a <= i_bits t)%Z \/ i_signed a = false ->
    swf m -> room t m -> (Z.of_nat (csize m) <= i_max t)%Z -> (Z.of_nat (csize m) <= i_max a)%Z ->
    (Z.of_nat r + 1 <= i_max t)%Z -> (Z.of_nat r + 1 <= i_max a)%Z ->
    exists m', y_resize vzero t a dbg (zof m) (Z.of_nat r) 0%Z = Ok (zof m') /\ csize m' = 0 /\
      forall p q x, stored m' p q x <-> stored m p q x /\ p < r.
  Proof using Ht Ha.
    intros Hty Hw Hr Hcs Hca Hrt Hra. destruct (arg_no_columns vzero t a dbg Ht Ha m r Hw Hr Hcs Hrt Hra) as (m' & E & Hc & Hs & Hst').
    exists m'. split; [exact E|]. split; [exact Hc|]. intros p q x. rewrite Hst'. split; [tauto|]. intros [Hx Hp]. split; [exact Hx|]. split; [exact Hp|].
    destruct Hw as (rs & H & Hok). apply (srepr_stored _ _ _ _ _ H) in Hx. apply (in_map fst) in Hx. destruct (row_facts _ _ p Hok) as [_ Hbd].
    specialize (Hbd _ Hx). cbn [fst] in Hbd.
    assert (Hwrap : forall u, (32 <= i_bits u)%Z -> i_signed u = false -> conv u (-1) = i_max u).
    { intros u Hu Eu. unfold conv, i_min, i_max. rewrite Eu. assert (0 < 2 ^ i_bits u)%Z by (apply Z.pow_pos_nonneg; lia).
      rewrite <- (Z.mod_add _ 1) by lia. rewrite Z.mod_small by lia. lia. }
    unfold cut0. destruct (i_signed a) eqn:Ea.
    - destruct Hty as [[Et Hbits]|]; [|discriminate].
      assert (Hm : conv a (-1) = (-1)%Z).
      { apply conv_fits; [lia|]. unfold fits, i_min, i_max. rewrite Ea. assert (0 < 2 ^ (i_bits a - 1))%Z by (apply Z.pow_pos_nonneg; lia). lia. }
      assert (Hct : common a t = t).
      { unfold common. rewrite !wide_promoted by auto. rewrite Ea, Et. cbn [Bool.eqb]. destruct (Z.leb_spec (i_bits a) (i_bits t)); [reflexivity|lia]. }
      rewrite Hm, Hct, Hwrap by auto. lia.
    - rewrite Hwrap by auto. rewrite common_conv by (auto; pose proof (sg_le a); lia). lia.
  Qed.
End ArgTheorems.

(** ** Arguments of the index type itself *)
(** Every number held by the matrix is a value of the type. *)
Definition fit_mat {V} (t : ity) (m : zmat V) : Prop := fits t (zcols m) /\ forall x, In x (zcol m) -> fits t x.

Section SameType.
  Context {V : Type}.
  Variables (vzero : V) (t : ity) (dbg : bool).
  Hypothesis Ht : (32 <= i_bits t)%Z.
  Implicit Types (m : zmat V).

  Lemma less_tt x y : fits t x -> fits t y -> less t t x y = (x <? y)%Z.
  Proof using Ht. intros Hx Hy. apply less_val; rewrite common_same, wide_promoted by auto; auto. lia. Qed.
  Lemma t_res_fits x y : t_res t x = Ok y -> fits t y.
  Proof using Ht. unfold t_res. destruct (_ && _); [discriminate|]. intro E. injection E as <-. apply conv_range. lia. Qed.
  Lemma rows_fit m : fits t (z_rows t m).
  Proof using Ht. apply conv_range. lia. Qed.
  Lemma zero_fits : fits t 0.
  Proof using Ht. pose proof (sg_le t). pose proof (min_le t). split; lia. Qed.

  Lemma ubound_tt l v : fits t v -> (forall x, In x l -> fits t x) -> y_ubound t t l v = z_ubound l v.
  Proof using Ht. intros Hv Hl. apply y_ubound_val. intros x Hx. apply less_tt; auto. Qed.
  Lemma lbound_tt l v : fits t v -> (forall x, In x l -> fits t x) -> y_lbound t t l v = z_lbound l v.
  Proof using Ht.
    intros Hv. induction l as [|x l IH]; intro H; cbn [y_lbound z_lbound]; [reflexivity|]. rewrite less_tt by (auto; apply H; cbn; auto).
    rewrite IH by (intros; apply H; cbn; auto). reflexivity.
  Qed.

  Lemma step_tt c i m loss : (forall x, In x (zcol m) -> fits t x) ->
    y_resize_step t t c i (m, loss) = z_resize_step t c i (m, loss) /\
    (forall m' loss', z_resize_step t c i (m, loss) = Ok (m', loss') -> zcols m' = zcols m /\ forall x, In x (zcol m') -> fits t x).
  Proof using Ht.
    intro Hm. unfold y_resize_step, z_resize_step.
    destruct (vget (zoff m) (i + 1)) as [e0| | |]; cbn [bind]; try (split; [reflexivity|discriminate]).
    destruct (t_res t (e0 - loss)) as [e1| | |]; cbn [bind]; try (split; [reflexivity|discriminate]).
    destruct (at_pos (conv (sg t) e1)) as [e| | |]; cbn [bind]; try (split; [reflexivity|discriminate]).
    destruct (vget (zoff m) i) as [b0| | |]; cbn [bind]; try (split; [reflexivity|discriminate]).
    destruct (at_pos (conv (sg t) b0)) as [b| | |]; cbn [bind]; try (split; [reflexivity|discriminate]).
    destruct (t_res t (c - 1)) as [c1| | |] eqn:Ec; cbn [bind]; try (split; [reflexivity|discriminate]).
    destruct (vrange (zcol m) b e) as [r| | |] eqn:Er; cbn [bind]; try (split; [reflexivity|discriminate]).
    rewrite ubound_tt; [|exact (t_res_fits _ _ Ec)|intros x Hx; apply Hm, (vrange_In _ _ _ _ _ Er Hx)].
    split; [reflexivity|]. intros m' loss'. destruct (b + z_ubound r c1 =? e).
    - cbn [bind]. destruct (vget (zoff m) (i + 1)) as [x| | |]; cbn [bind]; try discriminate.
      destruct (t_res t (x - loss)) as [y| | |]; cbn [bind]; try discriminate.
      destruct (vset (zoff m) (i + 1) y) as [z| | |]; cbn [bind]; try discriminate. intro E. injection E as <- <-. cbn [zcol zcols]. auto.
    - destruct (verase (zcol m) (b + z_ubound r c1) e) as [ci| | |] eqn:Ev; cbn [bind]; try discriminate.
      destruct (verase (zval m) (b + z_ubound r c1) e) as [vs| | |]; cbn [bind]; try discriminate. cbn [zoff zcol].
      destruct (vget (zoff m) (i + 1)) as [x| | |]; cbn [bind]; try discriminate.
      destruct (t_res t (x - _)) as [y| | |]; cbn [bind]; try discriminate.
      destruct (vset (zoff m) (i + 1) y) as [z| | |]; cbn [bind]; try discriminate. intro E. injection E as <- <-. cbn [zcol zcols].
      split; [reflexivity|]. intros x' Hx'. apply Hm. exact (verase_In _ _ _ _ _ Ev Hx').
  Qed.

  Lemma loop_tt c l : forall m loss, (forall x, In x (zcol m) -> fits t x) ->
    forM l (y_resize_step t t c) (m, loss) = forM l (z_resize_step t c) (m, loss) /\
    (forall m' loss', forM l (z_resize_step t c) (m, loss) = Ok (m', loss') -> forall x, In x (zcol m') -> fits t x).
  Proof using Ht.
    induction l as [|i l IH]; intros m loss Hm.
    - split; [reflexivity|]. cbn [forM]. intros m' loss' E. injection E as <- <-. exact Hm.
    - cbn [forM]. destruct (step_tt c i m loss Hm) as [-> Hn].
      destruct (z_resize_step t c i (m, loss)) as [[m' loss']| | |]; cbn [bind]; try (split; [reflexivity|discriminate]).
      apply IH. exact (proj2 (Hn _ _ eq_refl)).
  Qed.

  Lemma rows_tt m r : fits t r -> y_resize_rows vzero t t m r = z_resize_rows vzero t m r.
  Proof using Ht. intro Hr. unfold y_resize_rows, z_resize_rows. rewrite less_tt by (auto; apply rows_fit). reflexivity. Qed.

  Lemma resize_tt m r c : fit_mat t m -> fits t r -> fits t c ->
    y_resize vzero t t dbg m r c = z_resize vzero t dbg m r c /\ (forall m', z_resize vzero t dbg m r c = Ok m' -> fit_mat t m').
  Proof using Ht.
    intros [Hcs Hm] Hr Hc. unfold y_resize, z_resize. rewrite rows_tt by exact Hr.
    destruct (ASSERT_DEBUG dbg (0 <=? r)%Z); cbn [bind]; try (split; [reflexivity|discriminate]).
    destruct (ASSERT_DEBUG dbg (0 <=? c)%Z); cbn [bind]; try (split; [reflexivity|discriminate]).
    destruct (z_resize_rows vzero t m r) as [m2| | |] eqn:E2; cbn [bind]; try (split; [reflexivity|discriminate]).
    destruct (z_rows_cols vzero t _ _ _ E2) as [Ec2 Hin].
    assert (Hm2 : forall x, In x (zcol m2) -> fits t x).
    { intros x Hx. destruct (Hin x Hx) as [Hx'| ->]; [auto|apply zero_fits]. }
    unfold z_columns. rewrite less_tt by (auto; rewrite Ec2; exact Hcs). rewrite conv_fits by (try lia; exact Hc).
    destruct (c <? zcols m2)%Z.
    - unfold FOR. destruct (loop_tt c (seq 0 (Z.to_nat (z_rows t m2))) m2 0%Z Hm2) as [-> Hn].
      destruct (forM _ (z_resize_step t c) (m2, 0%Z)) as [[m3 l3]| | |]; cbn [bind fst]; try (split; [reflexivity|discriminate]).
      split; [reflexivity|]. intros m' E. injection E as <-. split; [exact Hc|]. exact (Hn _ _ eq_refl).
    - cbn [bind]. split; [reflexivity|]. intros m' E. injection E as <-. split; [exact Hc|exact Hm2].
  Qed.

  Lemma lower_bound_tt m i j : fit_mat t m -> fits t i -> fits t j -> y_lower_bound t t dbg m i j = z_lower_bound t dbg m i j.
  Proof using Ht.
    intros [Hcs Hm] Hi Hj. unfold y_lower_bound, z_lower_bound. rewrite less_tt by (auto; apply rows_fit).
    destruct (Z.ltb_spec i (z_rows t m)) as [Hlt|]; [|reflexivity].
    destruct (ASSERT_DEBUG dbg (0 <=? i)%Z); cbn [bind]; try reflexivity. destruct (ASSERT_DEBUG dbg (0 <=? j)%Z); cbn [bind]; try reflexivity.
    unfold at_pos at 1 5. destruct (Z.ltb_spec i 0) as [|Hge]; [reflexivity|]. cbn [bind].
    assert (Hs : t_res t (i + 1) = Ok (i + 1)%Z) by (apply t_res_ok; pose proof (rows_fit m) as [_ Hr]; lia).
    rewrite Hs. cbn [bind].
    assert (Hp : at_pos (i + 1) = Ok (Z.to_nat i + 1)) by (unfold at_pos; destruct (Z.ltb_spec (i + 1) 0); [lia|f_equal; lia]).
    rewrite Hp. cbn [bind].
    destruct (vget (zoff m) (Z.to_nat i)) as [b0| | |]; cbn [bind]; try reflexivity.
    destruct (at_pos b0) as [b| | |]; cbn [bind]; try reflexivity.
    destruct (vget (zoff m) (Z.to_nat i + 1)) as [e0| | |]; cbn [bind]; try reflexivity.
    destruct (at_pos e0) as [e| | |]; cbn [bind]; try reflexivity.
    destruct (vrange (zcol m) b e) as [r| | |] eqn:Er; cbn [bind]; try reflexivity.
    rewrite lbound_tt; [reflexivity|exact Hj|]. intros x Hx. apply Hm, (vrange_In _ _ _ _ _ Er Hx).
  Qed.

  Lemma insert_tt m i j v : fit_mat t m -> fits t i -> fits t j -> y_insert vzero t t dbg m i j v = z_insert vzero t dbg m i j v.
  Proof using Ht.
    intros Hm Hi Hj. unfold y_insert, z_insert.
    destruct (ASSERT_DEBUG dbg (0 <=? i)%Z); cbn [bind]; try reflexivity. destruct (ASSERT_DEBUG dbg (0 <=? j)%Z); cbn [bind]; try reflexivity.
    rewrite (less_tt i) by (auto; apply rows_fit).
    assert (E1 : (if (i <? z_rows t m)%Z then Ok m else do i1 <- t_res t (i + 1)%Z; y_resize vzero t t dbg m i1 (conv t (z_columns m))) =
      (if (z_rows t m <=? i)%Z then do i1 <- t_res t (i + 1)%Z; z_resize vzero t dbg m i1 (z_columns m) else Ok m) /\
      forall m1, (if (z_rows t m <=? i)%Z then do i1 <- t_res t (i + 1)%Z; z_resize vzero t dbg m i1 (z_columns m) else Ok m) = Ok m1 -> fit_mat t m1).
    { destruct (Z.ltb_spec i (z_rows t m)), (Z.leb_spec (z_rows t m) i); try lia.
      - split; [reflexivity|]. intros m1 E. injection E as <-. exact Hm.
      - destruct (t_res t (i + 1)) as [i1| | |] eqn:Ei; cbn [bind]; try (split; [reflexivity|discriminate]).
        rewrite conv_fits by (try lia; exact (proj1 Hm)). apply resize_tt; [exact Hm|exact (t_res_fits _ _ Ei)|exact (proj1 Hm)]. }
    destruct E1 as [-> Hf1].
    destruct (if (z_rows t m <=? i)%Z then _ else _) as [m1| | |]; cbn [bind]; try reflexivity. specialize (Hf1 m1 eq_refl).
    unfold z_columns. rewrite (less_tt j) by (auto; exact (proj1 Hf1)).
    assert (E2 : (if (j <? zcols m1)%Z then Ok m1 else do j1 <- t_res t (j + 1)%Z; y_resize vzero t t dbg m1 (conv t (z_rows t m1)) j1) =
      (if (zcols m1 <=? j)%Z then do j1 <- t_res t (j + 1)%Z; z_resize vzero t dbg m1 (z_rows t m1) j1 else Ok m1) /\
      forall m2, (if (zcols m1 <=? j)%Z then do j1 <- t_res t (j + 1)%Z; z_resize vzero t dbg m1 (z_rows t m1) j1 else Ok m1) = Ok m2 -> fit_mat t m2).
    { destruct (Z.ltb_spec j (zcols m1)), (Z.leb_spec (zcols m1) j); try lia.
      - split; [reflexivity|]. intros m2 E. injection E as <-. exact Hf1.
      - destruct (t_res t (j + 1)) as [j1| | |] eqn:Ej; cbn [bind]; try (split; [reflexivity|discriminate]).
        rewrite conv_fits by (try lia; apply rows_fit). apply resize_tt; [exact Hf1|apply rows_fit|exact (t_res_fits _ _ Ej)]. }
    destruct E2 as [-> Hf2].
    destruct (if (zcols m1 <=? j)%Z then _ else _) as [m2| | |]; cbn [bind]; try reflexivity. specialize (Hf2 m2 eq_refl).
    rewrite lower_bound_tt by auto. rewrite (conv_fits t j) by (try lia; exact Hj).
    destruct (at_pos i) as [k| | |]; cbn [bind]; try reflexivity.
    destruct (if k <=? length (zoff m2) then Ok tt else Undef) as [[]| | |]; cbn [bind]; try reflexivity.
    destruct (z_lower_bound t dbg m2 i j) as [it| | |]; cbn [bind]; try reflexivity.
    assert (Hd : (if fst it =? k then do c <- vget (zcol m2) (snd it); Ok (negb (differ t t c j)) else Ok false) =
                 (if fst it =? k then do c <- vget (zcol m2) (snd it); Ok (c =? j)%Z else Ok false)).
    { destruct (fst it =? k); [|reflexivity]. destruct (vget (zcol m2) (snd it)) as [c| | |] eqn:Ec; cbn [bind]; try reflexivity.
      apply vget_In in Ec. rewrite differ_val; rewrite ?common_same, ?wide_promoted by auto; try lia; auto; [|exact (proj2 Hf2 _ Ec)].
      rewrite negb_involutive. reflexivity. }
    rewrite Hd. reflexivity.
  Qed.
End SameType.

Lemma same_type {V} (vzero : V) t dbg : (32 <= i_bits t)%Z -> forall (m : zmat V) i j v, fit_mat t m -> fits t i -> fits t j ->
  y_resize vzero t t dbg m i j = z_resize vzero t dbg m i j /\
  y_lower_bound t t dbg m i j = z_lower_bound t dbg m i j /\
  y_insert vzero t t dbg m i j v = z_insert vzero t dbg m i j v.
Proof.
  intros Ht m i j v Hm Hi Hj. split; [exact (proj1 (resize_tt vzero t dbg Ht m i j Hm Hi Hj))|].
  split; [exact (lower_bound_tt t dbg Ht m i j Hm Hi Hj)|exact (insert_tt vzero t dbg Ht m i j v Hm Hi Hj)].
Qed.
