(** Proofs behind C131. *)
From Coq Require Import ZArith List Lia Arith Bool.
From Verif Require Import Base ListFacts Csr SparseModel SparseSpec SparseFacts SparseUpdate SparseInsert SparseSeq CsrDataModel CsrData
  MacroModel PropMacroLemmas CsrIntModel.
Import ListNotations.

(** The same data with indices of another type. *)
Definition zof {V} (m : smat V) : zmat V := mkZ (map Z.of_nat (rnz m)) (map Z.of_nat (cidx m)) (vals m) (Z.of_nat (csize m)).

(** The rows can be counted in [t] and the positions in the signed type of its width. *)
Definition room {V} (t : ity) (m : smat V) : Prop :=
  (Z.of_nat (length (rnz m)) <= i_max t)%Z /\ (forall x, In x (rnz m) -> (Z.of_nat x <= i_max (sg t))%Z).

Lemma sg_le t : (1 <= i_bits t)%Z -> (0 <= i_max (sg t) <= i_max t)%Z.
Proof.
  intro Hb. unfold i_max, sg. cbn [i_signed i_bits]. destruct (i_signed t); [split; [|lia]|split].
  - assert (0 < 2 ^ (i_bits t - 1))%Z by (apply Z.pow_pos_nonneg; lia). lia.
  - assert (0 < 2 ^ (i_bits t - 1))%Z by (apply Z.pow_pos_nonneg; lia). lia.
  - assert (2 ^ (i_bits t - 1) <= 2 ^ i_bits t)%Z by (apply Z.pow_le_mono_r; lia). lia.
Qed.

Lemma min_le t : (1 <= i_bits t)%Z -> (i_min t <= 0)%Z.
Proof. intro Hb. unfold i_min. destruct (i_signed t); [|lia]. assert (0 < 2 ^ (i_bits t - 1))%Z by (apply Z.pow_pos_nonneg; lia). lia. Qed.

Lemma conv_pos t x : (1 <= i_bits t)%Z -> (0 <= x <= i_max t)%Z -> conv t x = x.
Proof. intros Hb Hx. apply conv_fits; auto. pose proof (min_le t Hb). split; lia. Qed.

Lemma t_res_ok t x : (1 <= i_bits t)%Z -> (0 <= x <= i_max t)%Z -> t_res t x = Ok x.
Proof.
  intros Hb Hx. unfold t_res. rewrite conv_pos by auto. pose proof (min_le t Hb).
  destruct (Z.leb_spec (i_min t) x), (Z.leb_spec x (i_max t)); try lia. cbn. rewrite andb_false_r. reflexivity.
Qed.

Lemma at_pos_nat n : at_pos (Z.of_nat n) = Ok n.
Proof. unfold at_pos. destruct (Z.ltb_spec (Z.of_nat n) 0); [lia|]. rewrite Nat2Z.id. reflexivity. Qed.
Lemma new_size_nat n : new_size (Z.of_nat n) = Ok n.
Proof. unfold new_size. destruct (Z.ltb_spec (Z.of_nat n) 0); [lia|]. rewrite Nat2Z.id. reflexivity. Qed.

Section MapFacts.
  Context {A B : Type} (f : A -> B).
  Lemma vget_map l i x : vget l i = Ok x -> vget (map f l) i = Ok (f x).
  Proof. unfold vget. rewrite nth_error_map. destruct (nth_error l i); [|discriminate]. intro H. injection H as <-. reflexivity. Qed.
  Lemma slice_map l a b : slice (map f l) a b = map f (slice l a b).
  Proof. unfold slice. rewrite skipn_map, firstn_map. reflexivity. Qed.
  Lemma vrange_map l a b r : vrange l a b = Ok r -> vrange (map f l) a b = Ok (map f r).
  Proof. unfold vrange. rewrite map_length, slice_map. destruct ((a <=? b) && (b <=? length l)); [|discriminate]. intro H. injection H as <-. reflexivity. Qed.
  Lemma verase_map l a b r : verase l a b = Ok r -> verase (map f l) a b = Ok (map f r).
  Proof.
    unfold verase. rewrite map_length. destruct ((a <=? b) && (b <=? length l)); [|discriminate]. intro H. injection H as <-.
    rewrite map_app, firstn_map, skipn_map. reflexivity.
  Qed.
  Lemma vresize_map l n d : vresize (map f l) n (f d) = map f (vresize l n d).
  Proof. unfold vresize. rewrite map_app, map_length, firstn_map. f_equal. induction (n - length l); cbn; f_equal; auto. Qed.
  Lemma vback_map l x : vback l = Ok x -> vback (map f l) = Ok (f x).
  Proof. unfold vback. destruct l as [|a l]; [discriminate|]. intro H. rewrite <- (map_length f) in H. apply (vget_map _ _ _ H). Qed.
  Lemma vset_map l i x r : vset l i x = Ok r -> vset (map f l) i (f x) = Ok (map f r).
  Proof.
    unfold vset. rewrite map_length. destruct (i <? length l); [|discriminate]. intro H. injection H as <-.
    unfold upd. rewrite map_app, firstn_map. cbn [map]. rewrite skipn_map. reflexivity.
  Qed.
  Lemma vinsert_map l k x r : vinsert l k x = Ok r -> vinsert (map f l) k (f x) = Ok (map f r).
  Proof.
    unfold vinsert. rewrite map_length. destruct (k <=? length l); [|discriminate]. intro H. injection H as <-.
    unfold list_insert. rewrite map_app, firstn_map. cbn [map]. rewrite skipn_map. reflexivity.
  Qed.
End MapFacts.

Lemma z_lbound_nat l v : z_lbound (map Z.of_nat l) (Z.of_nat v) = lbound l v.
Proof.
  induction l as [|x l IH]; cbn [map z_lbound lbound]; auto. rewrite IH. destruct (Z.ltb_spec (Z.of_nat x) (Z.of_nat v)), (Nat.ltb_spec x v); auto; lia.
Qed.
Lemma z_ubound_nat l v : z_ubound (map Z.of_nat l) (Z.of_nat v) = ubound l v.
Proof.
  induction l as [|x l IH]; cbn [map z_ubound ubound]; auto. rewrite IH. destruct (Z.leb_spec (Z.of_nat x) (Z.of_nat v)), (Nat.leb_spec x v); auto; lia.
Qed.
Lemma ubound_le l v : ubound l v <= length l.
Proof. induction l; cbn; [lia|]. destruct (a <=? v); lia. Qed.

Lemma upd_In {A} (l : list A) i x y : In y (upd l i x) -> y = x \/ In y l.
Proof.
  unfold upd. intro H. apply in_app_or in H. destruct H as [H|[->|H]]; auto; right.
  - rewrite <- (firstn_skipn i l). apply in_or_app. auto.
  - rewrite <- (firstn_skipn (S i) l). apply in_or_app. auto.
Qed.
Lemma vget_In {A} (l : list A) i x : vget l i = Ok x -> In x l.
Proof. unfold vget. destruct (nth_error l i) eqn:E; [|discriminate]. intro H. injection H as <-. eapply nth_error_In; eauto. Qed.
Lemma vresize_In {A} (l : list A) n d x : In x (vresize l n d) -> In x l \/ x = d.
Proof.
  unfold vresize. intro H. apply in_app_or in H. destruct H as [H|H].
  - left. rewrite <- (firstn_skipn n l). apply in_or_app. auto.
  - right. apply repeat_spec in H. auto.
Qed.

Lemma back_of l d : (match l with [] => Ok 0 | _ => vback l end) = Ok d ->
  (match map Z.of_nat l with [] => Ok 0%Z | _ => vback (map Z.of_nat l) end) = Ok (Z.of_nat d) /\ (In d l \/ d = 0).
Proof.
  destruct l as [|o l]; [intro H; injection H as <-; auto|]. intro H. split.
  - exact (vback_map Z.of_nat (o :: l) d H).
  - left. exact (vget_In _ _ _ H).
Qed.

Section CsrIntFacts.
  Context {V : Type}.
  Variables (vzero : V) (t : ity) (dbg : bool) (M : nat).
  Hypothesis Hb : (1 <= i_bits t)%Z.
  Implicit Types (m : smat V).

  Lemma z_rows_of m : (Z.of_nat (length (rnz m)) <= i_max t)%Z -> z_rows t (zof m) = Z.of_nat (s_rows m).
  Proof using Hb.
    intro H. unfold z_rows, s_rows, zof. cbn [zoff]. destruct (rnz m) as [|o l] eqn:E.
    - cbn. apply conv_pos; auto. pose proof (sg_le t Hb). lia.
    - cbn [map]. rewrite <- E in *. change (Z.of_nat o :: map Z.of_nat l) with (map Z.of_nat (o :: l)). rewrite <- E, map_length.
      rewrite conv_pos; auto; rewrite E in *; cbn [length] in *; lia.
  Qed.

  (** The column that upper_bound is asked for. *)
  Definition cut_ok (c : nat) : Prop := 0 < c \/ i_signed t = false /\ Z.of_nat M = i_max t.

  Lemma last_column c : cut_ok c -> (Z.of_nat c <= i_max t)%Z -> t_res t (Z.of_nat c - 1)%Z = Ok (Z.of_nat (dec_wrap M c)).
  Proof using Hb.
    intros [H|[Hs HM]] Hc.
    - destruct c as [|c]; [lia|]. cbn [dec_wrap]. replace (Z.of_nat (S c) - 1)%Z with (Z.of_nat c) by lia. apply t_res_ok; auto. lia.
    - destruct c as [|c].
      + cbn [dec_wrap]. rewrite HM. unfold t_res. rewrite Hs. cbn [andb]. f_equal. unfold conv, i_min. rewrite Hs.
        unfold i_max. rewrite Hs. change (Z.of_nat 0 - 1 - 0)%Z with (-1)%Z. rewrite Z.add_0_r.
        assert (0 < 2 ^ i_bits t)%Z by (apply Z.pow_pos_nonneg; lia).
        rewrite <- (Z.mod_add (-1) 1) by lia. rewrite Z.mod_small; lia.
      + cbn [dec_wrap]. replace (Z.of_nat (S c) - 1)%Z with (Z.of_nat c) by lia. apply t_res_ok; auto. lia.
  Qed.

  Lemma step_of c i m loss s : cut_ok c -> (Z.of_nat c <= i_max t)%Z -> room t m -> (Z.of_nat loss <= i_max (sg t))%Z ->
    c_resize_step M c i (m, loss) = Ok s ->
    z_resize_step t (Z.of_nat c) i (zof m, Z.of_nat loss) = Ok (zof (fst s), Z.of_nat (snd s)) /\ room t (fst s) /\
    (Z.of_nat (snd s) <= i_max (sg t))%Z.
  Proof using Hb.
    intros Hc Hct [Hl Hr] Hloss E. unfold c_resize_step in E. unfold z_resize_step.
    pose proof (sg_le t Hb) as Hsg.
    destruct (vget (rnz m) (i + 1)) as [e0| | |] eqn:Ee; try discriminate. cbn [bind] in E.
    change (zoff (zof m)) with (map Z.of_nat (rnz m)). rewrite (vget_map Z.of_nat _ _ _ Ee). cbn [bind].
    destruct (Nat.ltb_spec e0 loss) as [|Hle]; [discriminate|].
    pose proof (Hr _ (vget_In _ _ _ Ee)) as He0.
    rewrite t_res_ok by (auto; lia). cbn [bind]. replace (Z.of_nat e0 - Z.of_nat loss)%Z with (Z.of_nat (e0 - loss)) by lia.
    rewrite (conv_pos (sg t)) by (auto; lia). rewrite at_pos_nat. cbn [bind].
    destruct (vget (rnz m) i) as [b| | |] eqn:Eb; try discriminate. cbn [bind] in E.
    rewrite (vget_map Z.of_nat _ _ _ Eb). cbn [bind]. pose proof (Hr _ (vget_In _ _ _ Eb)) as Hb0.
    rewrite (conv_pos (sg t)) by (auto; lia). rewrite at_pos_nat. cbn [bind].
    rewrite last_column by auto. cbn [bind].
    destruct (vrange (cidx m) b (e0 - loss)) as [r| | |] eqn:Er; try discriminate. cbn [bind] in E.
    change (zcol (zof m)) with (map Z.of_nat (cidx m)). rewrite (vrange_map Z.of_nat _ _ _ _ Er). cbn [bind].
    rewrite z_ubound_nat. set (p := b + ubound r (dec_wrap M c)) in *.
    assert (Hp : p <= e0 - loss).
    { unfold vrange in Er. destruct (Nat.leb_spec b (e0 - loss)); [|discriminate].
      destruct (Nat.leb_spec (e0 - loss) (length (cidx m))); [|discriminate]. cbn in Er. injection Er as <-.
      unfold p. pose proof (ubound_le (slice (cidx m) b (e0 - loss)) (dec_wrap M c)) as Hu.
      unfold slice in *. rewrite firstn_length, skipn_length in Hu. lia. }
    assert (Hmid : exists ci vs loss', (if p =? e0 - loss then Ok (m, loss)
                else
                  do ci <- verase (cidx m) p (e0 - loss);
                  do vs <- verase (vals m) p (e0 - loss);
                  Ok (mkS (rnz m) ci vs (csize m), loss + (e0 - loss - p))) = Ok (mkS (rnz m) ci vs (csize m), loss') /\
       (if p =? e0 - loss then Ok (zof m, Z.of_nat loss)
              else
                do ci <- verase (map Z.of_nat (cidx m)) p (e0 - loss);
                do vs <- verase (zval (zof m)) p (e0 - loss);
                Ok (mkZ (map Z.of_nat (rnz m)) ci vs (zcols (zof m)), conv t (Z.of_nat loss + (Z.of_nat (e0 - loss) - Z.of_nat p))%Z)) =
       Ok (zof (mkS (rnz m) ci vs (csize m)), Z.of_nat loss') /\ loss' <= e0).
    { destruct (p =? e0 - loss).
      - exists (cidx m), (vals m), loss. destruct m. auto.
      - destruct (verase (cidx m) p (e0 - loss)) as [ci| | |] eqn:E1; try discriminate. cbn [bind] in E |- *.
        destruct (verase (vals m) p (e0 - loss)) as [vs| | |] eqn:E2; try discriminate. cbn [bind] in E |- *.
        exists ci, vs, (loss + (e0 - loss - p)). split; [reflexivity|]. split; [|lia].
        rewrite (verase_map Z.of_nat _ _ _ _ E1). cbn [bind]. change (zval (zof m)) with (vals m). rewrite E2. cbn [bind].
        unfold zof. cbn [rnz cidx vals csize zcols]. rewrite conv_pos by (auto; lia). do 3 f_equal. lia. }
    destruct Hmid as (ci & vs & loss' & Em & Ez & Hl'). rewrite Em in E. rewrite Ez. cbn [bind] in E |- *. clear Em Ez.
    change (zoff (zof (mkS (rnz m) ci vs (csize m)))) with (map Z.of_nat (rnz m)). cbn [rnz] in E.
    unfold vsub in E. rewrite Ee in E. cbn [bind] in E. rewrite (vget_map Z.of_nat _ _ _ Ee). cbn [bind].
    destruct (Nat.leb_spec loss' e0); [|lia]. rewrite t_res_ok by (auto; lia). cbn [bind].
    replace (Z.of_nat e0 - Z.of_nat loss')%Z with (Z.of_nat (e0 - loss')) by lia.
    destruct (vset (rnz m) (i + 1) (e0 - loss')) as [z| | |] eqn:Ev; try discriminate. cbn [bind] in E.
    rewrite (vset_map Z.of_nat _ _ _ _ Ev). cbn [bind]. injection E as <-. cbn [fst snd]. split; [reflexivity|].
    unfold vset in Ev. destruct (Nat.ltb_spec (i + 1) (length (rnz m))); [|discriminate]. injection Ev as <-.
    split; [split|lia]; cbn [rnz].
    - rewrite upd_length by auto. exact Hl.
    - intros x Hx. destruct (upd_In _ _ _ _ Hx) as [->|Hx']; [lia|auto].
  Qed.

  Lemma loop_of c l m loss s : cut_ok c -> (Z.of_nat c <= i_max t)%Z -> room t m -> (Z.of_nat loss <= i_max (sg t))%Z ->
    forM l (c_resize_step M c) (m, loss) = Ok s ->
    forM l (z_resize_step t (Z.of_nat c)) (zof m, Z.of_nat loss) = Ok (zof (fst s), Z.of_nat (snd s)) /\ room t (fst s).
  Proof using Hb.
    intros Hc Hct. revert m loss. induction l as [|i l IH]; intros m loss Hr Hloss E.
    - cbn in E |- *. injection E as <-. auto.
    - cbn [forM] in E |- *. destruct (c_resize_step M c i (m, loss)) as [[m1 loss1]| | |] eqn:E1; try discriminate. cbn [bind] in E.
      destruct (step_of c i m loss _ Hc Hct Hr Hloss E1) as (E2 & Hr1 & Hl1). rewrite E2. cbn [bind fst snd] in *. apply IH; auto.
  Qed.

  Lemma assert_nat n : ASSERT_DEBUG dbg (0 <=? Z.of_nat n)%Z = Ok tt.
  Proof. destruct (Z.leb_spec 0 (Z.of_nat n)); [|lia]. destruct dbg; reflexivity. Qed.

  (** The part of resize on rows, from the nat model asked for the columns there are. *)
  Lemma rows_of m r m2 : (Z.of_nat r + 1 <= i_max t)%Z -> (Z.of_nat (length (rnz m)) <= i_max t)%Z ->
    c_resize vzero M m r (csize m) = Ok m2 ->
    z_resize_rows vzero t (zof m) (Z.of_nat r) = Ok (zof m2) /\ (Z.of_nat (length (rnz m2)) <= i_max t)%Z /\
    (forall x, In x (rnz m2) -> In x (rnz m) \/ x = 0).
  Proof using Hb.
    intros Hrt Hl E. unfold z_resize_rows. rewrite z_rows_of by auto. unfold c_resize in E. change (c_size_row m) with (s_rows m) in E.
    assert (H1 : exists m1, (if r <? s_rows m then
                do n <- vget (rnz m) r;
                Ok (mkS (rnz m) (vresize (cidx m) n 0) (vresize (vals m) n vzero) (csize m))
              else Ok m) = Ok m1 /\ rnz m1 = rnz m /\ csize m1 = csize m /\
              (if (Z.of_nat r <? Z.of_nat (s_rows m))%Z then
                do k <- at_pos (Z.of_nat r);
                do n0 <- vget (zoff (zof m)) k;
                do n <- new_size n0;
                Ok (mkZ (zoff (zof m)) (vresize (zcol (zof m)) n 0%Z) (vresize (zval (zof m)) n vzero) (zcols (zof m)))
              else Ok (zof m)) = Ok (zof m1)).
    { destruct (Z.ltb_spec (Z.of_nat r) (Z.of_nat (s_rows m))), (Nat.ltb_spec r (s_rows m)); try lia; [|exists m; auto].
      destruct (vget (rnz m) r) as [n| | |] eqn:En; try discriminate. cbn [bind] in E |- *. eexists. split; [reflexivity|].
      split; [reflexivity|]. split; [reflexivity|]. rewrite at_pos_nat. cbn [bind]. change (zoff (zof m)) with (map Z.of_nat (rnz m)).
      rewrite (vget_map Z.of_nat _ _ _ En). cbn [bind]. rewrite new_size_nat. cbn [bind]. unfold zof. cbn [zcol zval zcols rnz cidx vals csize].
      change 0%Z with (Z.of_nat 0). rewrite vresize_map. reflexivity. }
    destruct H1 as (m1 & E1 & Er1 & Ec1 & Ez1). rewrite E1 in E. rewrite Ez1. cbn [bind] in E |- *. clear E1 Ez1.
    rewrite t_res_ok by (auto; lia). cbn [bind].
    destruct (match rnz m1 with [] => Ok 0 | _ => vback (rnz m1) end) as [d| | |] eqn:Ed; try discriminate. cbn [bind] in E.
    destruct (back_of _ _ Ed) as [Edz Hd]. change (zoff (zof m1)) with (map Z.of_nat (rnz m1)). rewrite Edz. cbn [bind].
    replace (Z.of_nat r + 1)%Z with (Z.of_nat (r + 1)) in * by lia. rewrite new_size_nat. cbn [bind].
    unfold c_size_column in E. cbn [csize] in E. rewrite Ec1 in E. destruct (Nat.ltb_spec (csize m) (csize m)); [lia|].
    cbn [bind] in E. injection E as <-. cbn [rnz].
    split; [|split].
    - unfold zof. cbn [zcol zval zcols rnz cidx vals csize]. rewrite vresize_map, Ec1. reflexivity.
    - rewrite vresize_length. lia.
    - intros x Hx. rewrite <- Er1. destruct (vresize_In _ _ _ _ Hx) as [Hx'| ->]; auto.
  Qed.

  Lemma resize_of m r c m' : (c < csize m -> cut_ok c) -> (Z.of_nat c <= i_max t)%Z -> (Z.of_nat r + 1 <= i_max t)%Z -> room t m ->
    c_resize vzero M m r c = Ok m' -> z_resize vzero t dbg (zof m) (Z.of_nat r) (Z.of_nat c) = Ok (zof m') /\ room t m'.
  Proof using Hb.
    intros Hc Hct Hrt [Hl Hr] E. unfold z_resize. rewrite !assert_nat. cbn [bind].
    assert (Hrows : exists m2, c_resize vzero M m r (csize m) = Ok m2 /\ csize m2 = csize m /\
      (do m3 <- (if c <? csize m2 then do s <- FOR (s_rows m2) (c_resize_step M c) (m2, 0); Ok (fst s) else Ok m2);
       Ok (mkS (rnz m3) (cidx m3) (vals m3) c)) = Ok m').
    { unfold c_resize in *.
      destruct (if r <? c_size_row m then do n <- vget (rnz m) r; Ok (mkS (rnz m) (vresize (cidx m) n 0) (vresize (vals m) n vzero) (csize m))
                else Ok m) as [m1| | |] eqn:E1; try discriminate. cbn [bind] in *.
      assert (Ec1 : csize m1 = csize m).
      { destruct (r <? c_size_row m); [|injection E1 as <-; reflexivity]. destruct (vget (rnz m) r); try discriminate. injection E1 as <-. reflexivity. }
      destruct (match rnz m1 with [] => Ok 0 | _ => vback (rnz m1) end) as [d| | |]; try discriminate. cbn [bind] in *.
      unfold c_size_column in *. cbn [csize] in *. rewrite Ec1 in *. rewrite Nat.ltb_irrefl. cbn [bind rnz cidx vals]. eexists. split; [reflexivity|].
      cbn [csize]. split; [reflexivity|]. exact E. }
    destruct Hrows as (m2 & E2 & Hc2 & E3). destruct (rows_of m r m2 Hrt Hl E2) as (Ez & Hl2 & Hin). rewrite Ez. cbn [bind].
    assert (Hr2 : room t m2).
    { split; [exact Hl2|]. intros x Hx. destruct (Hin x Hx) as [Hx'| ->]; [auto|]. pose proof (sg_le t Hb). lia. }
    change (z_columns (zof m2)) with (Z.of_nat (csize m2)). rewrite z_rows_of by exact Hl2. rewrite Nat2Z.id.
    destruct (Z.ltb_spec (Z.of_nat c) (Z.of_nat (csize m2))), (Nat.ltb_spec c (csize m2)); try lia.
    - unfold FOR in *. destruct (forM (seq 0 (s_rows m2)) (c_resize_step M c) (m2, 0)) as [s| | |] eqn:El; try discriminate. cbn [bind] in E3.
      injection E3 as <-. assert (Hc' : cut_ok c) by (apply Hc; rewrite <- Hc2; auto).
      destruct (loop_of c (seq 0 (s_rows m2)) m2 0 s Hc' Hct Hr2) as [E4 Hr3]; auto.
      { pose proof (sg_le t Hb). lia. }
      change (Z.of_nat 0) with 0%Z in E4. rewrite E4. cbn [bind fst]. split; [reflexivity|]. exact Hr3.
    - cbn [bind] in E3 |- *. injection E3 as <-. split; [reflexivity|]. exact Hr2.
  Qed.

  Lemma lower_bound_of m i j it : (Z.of_nat (length (rnz m)) <= i_max t)%Z -> c_lower_bound m i j = Ok it ->
    z_lower_bound t dbg (zof m) (Z.of_nat i) (Z.of_nat j) = Ok it.
  Proof using Hb.
    intros Hl E. unfold z_lower_bound.
    assert (Ha : forall n, ASSERT_DEBUG dbg (0 <=? Z.of_nat n)%Z = Ok tt).
    { intro n. destruct (Z.leb_spec 0 (Z.of_nat n)); [|lia]. destruct dbg; reflexivity. }
    rewrite !Ha. cbn [bind]. rewrite z_rows_of by auto. unfold c_lower_bound in E. change (c_size_row m) with (s_rows m) in E.
    destruct (Z.ltb_spec (Z.of_nat i) (Z.of_nat (s_rows m))), (Nat.ltb_spec i (s_rows m)); try lia.
    - rewrite at_pos_nat. cbn [bind]. change (zoff (zof m)) with (map Z.of_nat (rnz m)). change (zcol (zof m)) with (map Z.of_nat (cidx m)).
      destruct (vget (rnz m) i) as [b| | |] eqn:Eb; try discriminate. cbn [bind] in E. rewrite (vget_map Z.of_nat _ _ _ Eb). cbn [bind].
      rewrite at_pos_nat. cbn [bind].
      destruct (vget (rnz m) (i + 1)) as [e| | |] eqn:Ee; try discriminate. cbn [bind] in E. rewrite (vget_map Z.of_nat _ _ _ Ee). cbn [bind].
      rewrite at_pos_nat. cbn [bind].
      destruct (vrange (cidx m) b e) as [r| | |] eqn:Er; try discriminate. cbn [bind] in E. rewrite (vrange_map Z.of_nat _ _ _ _ Er). cbn [bind].
      rewrite z_lbound_nat. exact E.
    - unfold zof. cbn [zoff zcol]. rewrite !map_length. exact E.
  Qed.

  Lemma count_up l : (forall x, In x l -> (Z.of_nat x + 1 <= i_max t)%Z) ->
    mapM (fun x => t_res t (x + 1)%Z) (map Z.of_nat l) = Ok (map Z.of_nat (map (fun x => x + 1) l)).
  Proof using Hb.
    induction l as [|x l IH]; intro H; cbn; [reflexivity|]. rewrite t_res_ok by (auto; specialize (H x (or_introl eq_refl)); lia).
    cbn [bind]. rewrite IH by (intros y Hy; apply H; cbn; auto). cbn [bind]. do 2 f_equal. lia.
  Qed.

  Lemma insert_of m i j v m' it b : room t m -> (Z.of_nat (csize m) <= i_max t)%Z ->
    (Z.of_nat i + 2 <= i_max t)%Z -> (Z.of_nat j + 1 <= i_max t)%Z -> (Z.of_nat (length (cidx m)) < i_max (sg t))%Z ->
    swf m -> c_insert vzero M m i j v = Ok (m', it, b) ->
    z_insert vzero t dbg (zof m) (Z.of_nat i) (Z.of_nat j) v = Ok (zof m', it, b).
  Proof using Hb.
    intros Hr Hcs Hi Hj Hn (rs & H & Hok) E. unfold z_insert.
    assert (Ha : forall n, ASSERT_DEBUG dbg (0 <=? Z.of_nat n)%Z = Ok tt).
    { intro n. destruct (Z.leb_spec 0 (Z.of_nat n)); [|lia]. destruct dbg; reflexivity. }
    rewrite !Ha. cbn [bind]. unfold c_insert in E. change (c_size_row m) with (s_rows m) in E. change (c_size_column m) with (csize m) in E.
    rewrite z_rows_of by apply Hr. change (z_columns (zof m)) with (Z.of_nat (csize m)).
    assert (H1 : exists m1 rs1, (if s_rows m <=? i then c_resize vzero M m (i + 1) (csize m) else Ok m) = Ok m1 /\
      (if (Z.of_nat (s_rows m) <=? Z.of_nat i)%Z then do i1 <- t_res t (Z.of_nat i + 1)%Z; z_resize vzero t dbg (zof m) i1 (Z.of_nat (csize m))
       else Ok (zof m)) = Ok (zof m1) /\ room t m1 /\ csize m1 = csize m /\ srepr m1 rs1 /\ concat rs1 = concat rs).
    { destruct (Z.leb_spec (Z.of_nat (s_rows m)) (Z.of_nat i)), (Nat.leb_spec (s_rows m) i) as [Hle|]; try lia; [|exists m, rs; auto 8].
      change (c_resize vzero M) with (s_resize vzero M).
      destruct (s_resize_ok vzero M m rs (i + 1) (csize m) H) as (m1 & E1 & H1 & Hc1 & _).
      destruct (resize_of m (i + 1) (csize m) m1) as [Ez Hr1]; auto; try lia.
      exists m1, (resize_rows M (csize m) (i + 1) (csize m) rs). split; [exact E1|]. rewrite t_res_ok by (auto; lia). cbn [bind].
      replace (Z.of_nat i + 1)%Z with (Z.of_nat (i + 1)) by lia. split; [exact Ez|]. split; [exact Hr1|]. split; [exact Hc1|]. split; [exact H1|].
      unfold resize_rows. destruct (Nat.ltb_spec (csize m) (csize m)); [lia|]. rewrite (srepr_rows _ _ H) in Hle.
      rewrite firstn_all2 by lia. rewrite concat_app, concat_repeat_nil, app_nil_r. reflexivity. }
    destruct H1 as (m1 & rs1 & E1 & Ez1 & Hr1 & Hc1 & Hm1 & Hcc1). rewrite E1 in E. rewrite Ez1. cbn [bind] in E |- *. clear E1 Ez1.
    change (c_size_row m1) with (s_rows m1) in E. change (c_size_column m1) with (csize m1) in E.
    change (z_columns (zof m1)) with (Z.of_nat (csize m1)). rewrite z_rows_of by apply Hr1.
    assert (H2 : exists m2 rs2, (if csize m1 <=? j then c_resize vzero M m1 (s_rows m1) (j + 1) else Ok m1) = Ok m2 /\
      (if (Z.of_nat (csize m1) <=? Z.of_nat j)%Z then do j1 <- t_res t (Z.of_nat j + 1)%Z; z_resize vzero t dbg (zof m1) (Z.of_nat (s_rows m1)) j1
       else Ok (zof m1)) = Ok (zof m2) /\ room t m2 /\ srepr m2 rs2 /\ concat rs2 = concat rs).
    { destruct (Z.leb_spec (Z.of_nat (csize m1)) (Z.of_nat j)), (Nat.leb_spec (csize m1) j) as [Hle|]; try lia; [|exists m1, rs1; auto 8].
      change (c_resize vzero M) with (s_resize vzero M).
      destruct (s_resize_ok vzero M m1 rs1 (s_rows m1) (j + 1) Hm1) as (m2 & E2 & H2 & Hc2 & _).
      assert (Hsr : (Z.of_nat (s_rows m1) + 1 <= i_max t)%Z).
      { destruct Hr1 as [Hl1 _]. unfold s_rows. pose proof (sg_le t Hb). destruct (rnz m1); cbn [length] in *; lia. }
      destruct (resize_of m1 (s_rows m1) (j + 1) m2) as [Ez Hr2]; auto; try lia.
      exists m2, (resize_rows M (csize m1) (s_rows m1) (j + 1) rs1). split; [exact E2|]. rewrite t_res_ok by (auto; lia). cbn [bind].
      replace (Z.of_nat j + 1)%Z with (Z.of_nat (j + 1)) by lia. split; [exact Ez|]. split; [exact Hr2|]. split; [exact H2|].
      unfold resize_rows. destruct (Nat.ltb_spec (j + 1) (csize m1)); [lia|]. rewrite (srepr_rows _ _ Hm1).
      rewrite firstn_all, Nat.sub_diag. cbn [repeat]. rewrite app_nil_r. exact Hcc1. }
    destruct H2 as (m2 & rs2 & E2 & Ez2 & Hr2 & Hm2 & Hcc2). rewrite E2 in E. rewrite Ez2. cbn [bind] in E |- *. clear E2 Ez2.
    rewrite at_pos_nat. cbn [bind].
    assert (Hlen : length (zoff (zof m2)) = length (rnz m2)) by apply map_length. rewrite Hlen.
    destruct (c_lower_bound m2 i j) as [it2| | |] eqn:El; try discriminate. cbn [bind] in E.
    rewrite (lower_bound_of m2 i j it2 (proj1 Hr2) El).
    assert (Hf : forall fnd, (if fst it2 =? i then do c <- vget (cidx m2) (snd it2); Ok (c =? j) else Ok false) = Ok fnd ->
      (if fst it2 =? i then do c <- vget (zcol (zof m2)) (snd it2); Ok (c =? Z.of_nat j)%Z else Ok false) = Ok fnd).
    { intros fnd. destruct (fst it2 =? i); [|auto]. destruct (vget (cidx m2) (snd it2)) as [c| | |] eqn:Ec; try discriminate.
      cbn [bind]. change (zcol (zof m2)) with (map Z.of_nat (cidx m2)). rewrite (vget_map Z.of_nat _ _ _ Ec). cbn [bind].
      intro Eq. injection Eq as <-. f_equal. destruct (Z.eqb_spec (Z.of_nat c) (Z.of_nat j)), (Nat.eqb_spec c j); auto; lia. }
    assert (Hil : i + 1 <= length (rnz m2) -> (i <=? length (rnz m2)) = true) by (intro; apply Nat.leb_le; lia).
    destruct (if fst it2 =? i then do c <- vget (cidx m2) (snd it2); Ok (c =? j) else Ok false) as [fnd| | |] eqn:Ef; try discriminate.
    cbn [bind] in E. specialize (Hf fnd eq_refl).
    destruct fnd.
    - assert (Hlt : i + 1 <= length (rnz m2)).
      { destruct (Nat.eqb_spec (fst it2) i) as [Ei|]; [|discriminate]. unfold c_lower_bound in El. change (c_size_row m2) with (s_rows m2) in El.
        destruct (Nat.ltb_spec i (s_rows m2)) as [Hlt|Hge].
        - unfold s_rows in Hlt. destruct (rnz m2); cbn [length] in *; lia.
        - injection El as El. rewrite <- El in Ef, Ei. cbn [fst snd] in *. unfold vget in Ef.
          replace (nth_error (cidx m2) (length (cidx m2))) with (@None nat) in Ef by (symmetry; apply nth_error_None; lia). discriminate. }
      rewrite (Hil Hlt). cbn [bind]. rewrite Hf. cbn [bind]. injection E as <- <- <-. reflexivity.
    - unfold vadd_range in E. destruct (Nat.leb_spec (i + 1) (length (rnz m2))) as [Hlt|]; [|discriminate].
      rewrite Nat.leb_refl in E. cbn [andb bind] in E.
      rewrite (Hil Hlt). cbn [bind]. rewrite Hf. cbn [bind].
      destruct (vinsert (cidx m2) (snd it2) j) as [ci| | |] eqn:Ei; try discriminate. cbn [bind] in E.
      destruct (vinsert (vals m2) (snd it2) v) as [vs| | |] eqn:Ev; try discriminate. cbn [bind] in E. injection E as <- <- <-.
      change (zoff (zof m2)) with (map Z.of_nat (rnz m2)). change (zcol (zof m2)) with (map Z.of_nat (cidx m2)).
      change (zval (zof m2)) with (vals m2). rewrite skipn_map, firstn_map.
      rewrite count_up.
      2:{ intros x Hx. assert (Hin : In x (rnz m2)) by (rewrite <- (firstn_skipn (i + 1) (rnz m2)); apply in_or_app; auto).
          assert (Hx' : x <= length (cidx m2)).
          { destruct Hm2 as ([Hz|[Hz _]] & Hcx & _); [|rewrite Hz in Hin; destruct Hin].
            rewrite Hcx, map_length. rewrite Hz in Hin. apply In_nth_error in Hin. destruct Hin as (k & Hk). rewrite nth_error_psum in Hk.
            destruct (k <=? length rs2); [|discriminate]. injection Hk as <-. apply start_le. }
          assert (Hsame : length (cidx m2) = length (cidx m)).
          { destruct Hm2 as (_ & -> & _). destruct H as (_ & -> & _). rewrite !map_length, Hcc2. reflexivity. }
          pose proof (sg_le t Hb). lia. }
      cbn [bind]. rewrite (vinsert_map Z.of_nat _ _ _ _ Ei). cbn [bind]. rewrite Ev. cbn [bind].
      do 3 f_equal. unfold zof. cbn [rnz cidx vals csize zcols]. f_equal.
      rewrite <- map_app. f_equal. f_equal. unfold slice. rewrite firstn_all2 by (rewrite skipn_length; lia).
      rewrite skipn_all, app_nil_r. reflexivity.
  Qed.
End CsrIntFacts.

Lemma nth_first {A} (l : list A) n i d : i < n -> nth i (firstn n l) d = nth i l d.
Proof. revert n i. induction l as [|x l IH]; intros [|n] [|i] H; cbn; auto; try lia. apply IH. lia. Qed.
Lemma last_at {A} (l : list A) d : last l d = nth (length l - 1) l d.
Proof.
  induction l as [|x l IH]; [reflexivity|]. destruct l as [|y l]; [reflexivity|]. change (last (x :: y :: l) d) with (last (y :: l) d).
  rewrite IH. cbn [length]. replace (S (S (length l)) - 1) with (S (S (length l) - 1)) by lia. reflexivity.
Qed.

Lemma z_ubound_below l x : (x < 0)%Z -> z_ubound (map Z.of_nat l) x = 0.
Proof. intro H. destruct l as [|y l]; cbn [map z_ubound]; auto. destruct (Z.leb_spec (Z.of_nat y) x); [lia|reflexivity]. Qed.
Lemma z_lbound_below l x : (x < 0)%Z -> z_lbound (map Z.of_nat l) x = 0.
Proof. intro H. destruct l as [|y l]; cbn [map z_lbound]; auto. destruct (Z.ltb_spec (Z.of_nat y) x); [lia|reflexivity]. Qed.

Section CsrIntTypes.
  Context {V : Type}.
  Variables (vzero : V) (t : ity) (dbg : bool).
  Implicit Types (m : smat V).

  Lemma minus_one : (1 <= i_bits t)%Z -> i_signed t = true -> t_res t (0 - 1)%Z = Ok (-1)%Z.
  Proof.
    intros Hb Hs. assert (Hm : (i_min t <= -1)%Z).
    { unfold i_min. rewrite Hs. assert (0 < 2 ^ (i_bits t - 1))%Z by (apply Z.pow_pos_nonneg; lia). lia. }
    pose proof (sg_le t Hb). change (0 - 1)%Z with (-1)%Z. unfold t_res. rewrite conv_fits by (auto; split; lia).
    destruct (Z.leb_spec (i_min t) (-1)), (Z.leb_spec (-1) (i_max t)); try lia. cbn. rewrite andb_false_r. reflexivity.
  Qed.

  (** With a signed type the loop to no columns erases row after row. *)
  Lemma none_loop (gs : list (list (nat * V))) k i loss : (1 <= i_bits t)%Z -> i_signed t = true ->
    (Z.of_nat (loss + length (concat gs)) <= i_max t)%Z ->
    forM (seq i (length gs)) (z_resize_step t 0%Z)
      (mkZ (repeat 0%Z i ++ 0%Z :: map Z.of_nat (tl (psum loss gs))) (map Z.of_nat (map fst (concat gs))) (map snd (concat gs)) k, Z.of_nat loss) =
    Ok (mkZ (repeat 0%Z (i + length gs + 1)) [] [] k, Z.of_nat (loss + length (concat gs))).
  Proof.
    intros Hb Hs. revert i loss. induction gs as [|g gs IH]; intros i loss Hl.
    - cbn [length seq forM concat map tl psum]. rewrite Nat.add_0_r. do 3 f_equal; [|lia].
      replace (i + 1) with (S i) by lia. cbn [repeat]. rewrite repeat_cons. reflexivity.
    - cbn [length seq forM]. cbn [concat] in Hl |- *. rewrite app_length in Hl.
      assert (Hsg : i_max (sg t) = i_max t) by (unfold i_max, sg; rewrite Hs; reflexivity).
      assert (Hp : tl (psum loss (g :: gs)) = (loss + length g) :: tl (psum (loss + length g) gs)).
      { cbn [psum tl]. destruct gs; reflexivity. }
      rewrite Hp. cbn [map]. rewrite !map_app.
      unfold z_resize_step at 1.
      assert (G1 : forall x y z (r : list Z), vget (repeat x i ++ y :: z :: r) (i + 1) = Ok z).
      { intros. unfold vget. rewrite nth_error_app2 by (rewrite repeat_length; lia). rewrite repeat_length.
        replace (i + 1 - i) with 1 by lia. reflexivity. }
      assert (G0 : forall x y z (r : list Z), vget (repeat x i ++ y :: z :: r) i = Ok y).
      { intros. unfold vget. rewrite nth_error_app2 by (rewrite repeat_length; lia). rewrite repeat_length, Nat.sub_diag. reflexivity. }
      cbn [zoff zcol zval zcols]. rewrite G1. cbn [bind]. replace (Z.of_nat (loss + length g) - Z.of_nat loss)%Z with (Z.of_nat (length g)) by lia.
      rewrite t_res_ok by (auto; lia). cbn [bind]. rewrite (conv_pos (sg t)) by (auto; lia). rewrite at_pos_nat. cbn [bind].
      rewrite G0. cbn [bind]. rewrite (conv_pos (sg t) 0) by (auto; lia). change (at_pos 0) with (Ok 0). cbn [bind].
      rewrite minus_one by auto. cbn [bind].
      assert (Hv : vrange (map Z.of_nat (map fst g) ++ map Z.of_nat (map fst (concat gs))) 0 (length g) = Ok (map Z.of_nat (map fst g))).
      { unfold vrange. rewrite app_length, !map_length. destruct (Nat.leb_spec (length g) (length g + length (concat gs))); [|lia].
        cbn [Nat.leb andb]. unfold slice. rewrite Nat.sub_0_r. cbn [skipn]. rewrite firstn_app, !map_length, Nat.sub_diag. cbn [firstn].
        rewrite app_nil_r. rewrite firstn_all2 by (rewrite !map_length; lia). reflexivity. }
      rewrite Hv. cbn [bind]. rewrite z_ubound_below by lia. cbn [Nat.add].
      assert (Hmid : (if 0 =? length g
         then Ok (mkZ (repeat 0%Z i ++ 0%Z :: Z.of_nat (loss + length g) :: map Z.of_nat (tl (psum (loss + length g) gs)))
                   (map Z.of_nat (map fst g) ++ map Z.of_nat (map fst (concat gs))) (map snd g ++ map snd (concat gs)) k, Z.of_nat loss)
         else do ci <- verase (map Z.of_nat (map fst g) ++ map Z.of_nat (map fst (concat gs))) 0 (length g);
              do vs <- verase (map snd g ++ map snd (concat gs)) 0 (length g);
              Ok (mkZ (repeat 0%Z i ++ 0%Z :: Z.of_nat (loss + length g) :: map Z.of_nat (tl (psum (loss + length g) gs))) ci vs k,
                  conv t (Z.of_nat loss + (Z.of_nat (length g) - Z.of_nat 0))%Z)) =
         Ok (mkZ (repeat 0%Z i ++ 0%Z :: Z.of_nat (loss + length g) :: map Z.of_nat (tl (psum (loss + length g) gs)))
               (map Z.of_nat (map fst (concat gs))) (map snd (concat gs)) k, Z.of_nat (loss + length g))).
      { destruct (Nat.eqb_spec 0 (length g)) as [E|E].
        - destruct g; [|discriminate]. cbn [map app length]. rewrite Nat.add_0_r. reflexivity.
        - assert (Hve : forall {A} (a b : list A), verase (a ++ b) 0 (length a) = Ok b).
          { intros A a b. unfold verase. rewrite app_length. destruct (Nat.leb_spec (length a) (length a + length b)); [|lia].
            cbn [Nat.leb andb firstn app]. rewrite skipn_app, skipn_all, Nat.sub_diag. reflexivity. }
          pose proof (Hve Z (map Z.of_nat (map fst g)) (map Z.of_nat (map fst (concat gs)))) as V1. rewrite !map_length in V1. rewrite V1.
          pose proof (Hve V (map snd g) (map snd (concat gs))) as V2. rewrite map_length in V2. cbn [bind]. rewrite V2. cbn [bind].
          rewrite conv_pos by (auto; lia). do 3 f_equal. lia. }
      rewrite Hmid. cbn [bind zoff zcol zval zcols]. rewrite G1. cbn [bind]. rewrite Z.sub_diag, t_res_ok by (auto; pose proof (sg_le t Hb); lia).
      cbn [bind].
      assert (Hset : vset (repeat 0%Z i ++ 0%Z :: Z.of_nat (loss + length g) :: map Z.of_nat (tl (psum (loss + length g) gs))) (i + 1) 0%Z =
        Ok (repeat 0%Z (S i) ++ 0%Z :: map Z.of_nat (tl (psum (loss + length g) gs)))).
      { unfold vset. rewrite app_length, repeat_length. cbn [length]. destruct (Nat.ltb_spec (i + 1) (i + S (S (length (map Z.of_nat (tl (psum (loss + length g) gs))))))); [|lia].
        f_equal. unfold upd. rewrite firstn_app, repeat_length. replace (i + 1 - i) with 1 by lia. rewrite firstn_all2 by (rewrite repeat_length; lia).
        cbn [firstn]. replace (S (i + 1)) with (i + 2) by lia. rewrite skipn_app, repeat_length. replace (i + 2 - i) with 2 by lia.
        rewrite skipn_all2 by (rewrite repeat_length; lia). cbn [skipn app repeat]. rewrite (app_comm_cons (repeat 0%Z i)), repeat_cons, <- !app_assoc. reflexivity. }
      rewrite Hset. cbn [bind]. rewrite IH by lia. do 3 f_equal; [f_equal; lia|rewrite app_length; lia].
  Qed.

  Lemma resize_none_signed m r : (1 <= i_bits t)%Z -> i_signed t = true -> swf m -> room t m -> (Z.of_nat r + 1 <= i_max t)%Z ->
    z_resize vzero t dbg (zof m) (Z.of_nat r) 0%Z = Ok (mkZ (repeat 0%Z (r + 1)) [] [] 0%Z).
  Proof.
    intros Hb Hs (rs & H & Hok) [Hl Hr] Hrt. destruct (s_resize_ok vzero 0 m rs r (csize m) H) as (m2 & E2 & H2 & Hc2 & Hn2).
    destruct (rows_of vzero t 0 Hb m r m2 Hrt Hl E2) as (Ez & Hl2 & Hin).
    unfold resize_rows in H2. destruct (Nat.ltb_spec (csize m) (csize m)); [lia|].
    set (gs := firstn r rs ++ repeat [] (r - length rs)) in *.
    assert (Hg : length gs = r) by (unfold gs; rewrite app_length, repeat_length, firstn_length; lia).
    assert (Hrn : rnz m2 = psum 0 gs) by (destruct H2 as [[H2|[H2 _]] _]; [exact H2|contradiction]).
    unfold z_resize. rewrite assert_nat. assert (Ha0 : ASSERT_DEBUG dbg (0 <=? 0)%Z = Ok tt) by (destruct dbg; reflexivity).
    rewrite Ha0. cbn [bind]. rewrite Ez. cbn [bind].
    change (z_columns (zof m2)) with (Z.of_nat (csize m2)).
    assert (Hsr : s_rows m2 = r) by (rewrite (srepr_rows _ _ H2); exact Hg).
    rewrite (z_rows_of t Hb m2 Hl2), Nat2Z.id, Hsr.
    destruct H2 as (_ & Hci & Hva).
    destruct (Z.ltb_spec 0 (Z.of_nat (csize m2))) as [Hpos|Hz].
    - assert (Hloop := none_loop gs (Z.of_nat (csize m2)) 0 0 Hb Hs).
      assert (Hst : zof m2 = mkZ (repeat 0%Z 0 ++ 0%Z :: map Z.of_nat (tl (psum 0 gs))) (map Z.of_nat (map fst (concat gs))) (map snd (concat gs)) (Z.of_nat (csize m2))).
      { unfold zof. rewrite Hrn, Hci, Hva. f_equal. destruct gs; reflexivity. }
      rewrite <- Hst in Hloop. unfold FOR. rewrite Hg in Hloop. change (Z.of_nat 0) with 0%Z in Hloop. rewrite Hloop; [reflexivity|].
      assert (Hlast : In (length (concat gs)) (rnz m2)).
      { rewrite Hrn. apply nth_error_In with (length gs). rewrite nth_error_psum, Nat.leb_refl, start_all by lia. reflexivity. }
      destruct (Hin _ Hlast) as [Hx|Hx]; [specialize (Hr _ Hx)|]; pose proof (sg_le t Hb); lia.
    - cbn [bind]. assert (He : forall g, In g gs -> g = []).
      { intros g Hg'. unfold gs in Hg'. apply in_app_or in Hg'. destruct Hg' as [Hg'|Hg']; [|apply repeat_spec in Hg'; exact Hg'].
        assert (Hin' : In g rs) by (rewrite <- (firstn_skipn r rs); apply in_or_app; auto).
        destruct (In_nth _ _ [] Hin') as (k & Hk & Ek). destruct (Hok k Hk) as [_ Hbd]. rewrite Ek in Hbd.
        destruct g as [|[a b] g]; [reflexivity|]. specialize (Hbd a (or_introl eq_refl)). lia. }
      assert (Hgs : gs = repeat [] r).
      { rewrite <- Hg. clear - He. induction gs as [|g gs IH]; [reflexivity|]. cbn [length repeat].
        rewrite (He g) by (cbn; auto). rewrite <- IH by (intros x Hx; apply He; cbn; auto). reflexivity. }
      unfold zof. cbn [zoff zcol zval]. rewrite Hrn, Hci, Hva, Hgs, concat_repeat_nil. cbn [map]. f_equal. f_equal.
      clear. induction r as [|r IH]; [reflexivity|]. cbn [repeat psum map Nat.add length]. f_equal. exact IH.
  Qed.

  (** With an unsigned type nothing is erased. *)
  Lemma resize_none_unsigned m r : (1 <= i_bits t)%Z -> i_signed t = false -> swf m -> room t m -> (Z.of_nat r + 1 <= i_max t)%Z ->
    (Z.of_nat (csize m) <= i_max t)%Z ->
    exists m', z_resize vzero t dbg (zof m) (Z.of_nat r) 0%Z = Ok (zof m') /\ csize m' = 0 /\
      forall p q x, stored m' p q x <-> stored m p q x /\ p < r.
  Proof.
    intros Hb Hs (rs & H & Hok) Hroom Hrt Hcs. set (M := Z.to_nat (i_max t)). pose proof (sg_le t Hb) as Hsg.
    destruct (s_resize_ok vzero M m rs r 0 H) as (m' & E & Hr' & Hc' & _).
    destruct (resize_of vzero t dbg M Hb m r 0 m') as [Ez _]; auto; try lia.
    { intros _. right. split; [exact Hs|]. unfold M. lia. }
    exists m'. split; [exact Ez|]. split; [exact Hc'|]. intros p q x.
    rewrite (srepr_stored _ _ _ _ _ Hr'), (srepr_stored _ _ _ _ _ H). unfold resize_rows. cbn [dec_wrap].
    assert (Hall : forall l, incl l rs -> map (cutw M) l = l).
    { intros l Hl. rewrite <- (map_id l) at 2. apply map_ext_in. intros g Hg. apply cutw_all. intros j Hj.
      destruct (In_nth _ _ [] (Hl _ Hg)) as (k & Hk & Ek). destruct (Hok k Hk) as [_ Hbd]. rewrite Ek in Hbd. specialize (Hbd j Hj).
      unfold M. lia. }
    assert (Hf : (if 0 <? csize m then map (cutw M) (firstn r rs) else firstn r rs) = firstn r rs).
    { destruct (0 <? csize m); [|reflexivity]. apply Hall. intros g Hg. rewrite <- (firstn_skipn r rs). apply in_or_app. auto. }
    rewrite Hf. destruct (Nat.lt_ge_cases p r) as [Hp|Hp].
    - assert (En : nth p (firstn r rs ++ repeat [] (r - length rs)) [] = nth p rs []).
      { destruct (Nat.lt_ge_cases p (length rs)) as [Hlt|Hge].
        - rewrite app_nth1 by (rewrite firstn_length; lia). apply nth_first. exact Hp.
        - rewrite app_nth2 by (rewrite firstn_length; lia). rewrite nth_repeat, nth_overflow by auto. reflexivity. }
      rewrite En. tauto.
    - rewrite nth_overflow by (rewrite app_length, repeat_length, firstn_length; lia). split; [intros []|]. intros [_ Hlt]. lia.
  Qed.

  (** Negative arguments. *)
  Lemma negative_debug (zm : zmat V) i j v : (i < 0 \/ j < 0)%Z ->
    z_insert vzero t true zm i j v = Abort /\ z_resize vzero t true zm i j = Abort /\ z_lower_bound t true zm i j = Abort.
  Proof.
    intro H. assert (Ha : forall {A} (k : res A), (do _ <- ASSERT_DEBUG true (0 <=? i)%Z; do _ <- ASSERT_DEBUG true (0 <=? j)%Z; k) = Abort).
    { intros A k. cbn [ASSERT_DEBUG]. destruct (Z.leb_spec 0 i); [|reflexivity]. destruct (Z.leb_spec 0 j); [lia|reflexivity]. }
    split; [|split]; apply Ha.
  Qed.

  Lemma negative_offset (zm : zmat V) r c : (0 <= r < z_rows t zm)%Z -> (nth (Z.to_nat r) (zoff zm) 0 < 0)%Z ->
    z_resize vzero t dbg zm r c = Abort.
  Proof.
    intros Hr Hx. unfold z_resize, z_resize_rows. destruct (Z.ltb_spec r (z_rows t zm)); [|lia]. unfold at_pos.
    destruct (Z.ltb_spec r 0); [lia|]. cbn [bind]. unfold vget. destruct (nth_error (zoff zm) (Z.to_nat r)) as [x|] eqn:E.
    - rewrite (nth_error_nth _ _ _ E) in Hx. cbn [bind]. unfold new_size. destruct (Z.ltb_spec x 0); [|lia]. cbn [bind].
      unfold ASSERT_DEBUG. destruct dbg; [|reflexivity]. destruct (0 <=? r)%Z, (0 <=? c)%Z; reflexivity.
    - apply nth_error_None in E. rewrite nth_overflow in Hx by auto. lia.
  Qed.

  Lemma negative_row m i j v : (1 <= i_bits t)%Z -> (Z.of_nat (length (rnz m)) <= i_max t)%Z -> (i < 0)%Z -> (j < Z.of_nat (csize m))%Z ->
    z_insert vzero t false (zof m) i j v = Undef.
  Proof.
    intros Hb Hl Hi Hj. unfold z_insert. cbn [ASSERT_DEBUG bind]. rewrite (z_rows_of t Hb m Hl).
    destruct (Z.leb_spec (Z.of_nat (s_rows m)) i); [lia|]. cbn [bind]. change (z_columns (zof m)) with (Z.of_nat (csize m)).
    destruct (Z.leb_spec (Z.of_nat (csize m)) j); [lia|]. cbn [bind]. unfold at_pos. destruct (Z.ltb_spec i 0); [reflexivity|lia].
  Qed.

  Lemma negative_column m i j v : (1 <= i_bits t)%Z -> swf m -> (Z.of_nat (length (rnz m)) <= i_max t)%Z ->
    (Z.of_nat (length (cidx m)) < i_max t)%Z -> i < s_rows m -> (j < 0)%Z ->
    exists m' : zmat V, z_insert vzero t false (zof m) (Z.of_nat i) j v = Ok (m', (i, nth i (rnz m) 0), true) /\
      zcol m' = list_insert (map Z.of_nat (cidx m)) (nth i (rnz m) 0) j /\ zcols m' = Z.of_nat (csize m).
  Proof.
    intros Hb (rs & H & Hok) Hl Hn Hi Hj. assert (Hi' : i < length rs) by (rewrite <- (srepr_rows _ _ H); exact Hi).
    unfold z_insert. cbn [ASSERT_DEBUG bind]. rewrite (z_rows_of t Hb m Hl).
    destruct (Z.leb_spec (Z.of_nat (s_rows m)) (Z.of_nat i)); [lia|]. cbn [bind]. change (z_columns (zof m)) with (Z.of_nat (csize m)).
    destruct (Z.leb_spec (Z.of_nat (csize m)) j); [lia|]. cbn [bind]. rewrite at_pos_nat. cbn [bind].
    change (zoff (zof m)) with (map Z.of_nat (rnz m)). rewrite map_length.
    assert (Hlen : s_rows m + 1 <= length (rnz m)) by (unfold s_rows in *; destruct (rnz m); cbn [length] in *; lia).
    destruct (Nat.leb_spec i (length (rnz m))); [|lia]. cbn [bind].
    unfold z_lower_bound. cbn [ASSERT_DEBUG bind]. rewrite (z_rows_of t Hb m Hl).
    destruct (Z.ltb_spec (Z.of_nat i) (Z.of_nat (s_rows m))); [|lia]. rewrite at_pos_nat. cbn [bind].
    change (zoff (zof m)) with (map Z.of_nat (rnz m)). change (zcol (zof m)) with (map Z.of_nat (cidx m)). change (zval (zof m)) with (vals m).
    change (zcols (zof m)) with (Z.of_nat (csize m)).
    rewrite (vget_map Z.of_nat _ _ _ (srepr_vget _ _ _ H Hi')). cbn [bind]. rewrite at_pos_nat. cbn [bind].
    rewrite (vget_map Z.of_nat _ _ _ (srepr_vget' _ _ _ H Hi')). cbn [bind]. rewrite at_pos_nat. cbn [bind].
    rewrite (vrange_map Z.of_nat _ _ _ _ (srepr_vrange_c _ _ _ H Hi')). cbn [bind]. rewrite z_lbound_below by auto. rewrite Nat.add_0_r.
    assert (Hs0 : nth i (rnz m) 0 = start rs i).
    { pose proof (srepr_vget _ _ _ H Hi') as Hg. unfold vget in Hg. destruct (nth_error (rnz m) i) eqn:En; [|discriminate].
      injection Hg as <-. apply nth_error_nth. exact En. }
    rewrite Hs0. cbn [fst snd].
    assert (Hfound : (if (if start rs i =? start rs (i + 1) then i + 1 else i) =? i
      then do c <- vget (map Z.of_nat (cidx m)) (start rs i); Ok (c =? j)%Z else Ok false) = Ok false).
    { destruct (Nat.eqb_spec (start rs i) (start rs (i + 1))) as [E|E].
      - destruct (Nat.eqb_spec (i + 1) i); [lia|reflexivity].
      - rewrite Nat.eqb_refl. rewrite start_S' in E by auto.
        assert (Hlt : start rs i < length (cidx m)).
        { destruct H as (_ & -> & _). rewrite map_length. pose proof (start_le rs (i + 1)) as Hle. rewrite start_S' in Hle by auto. lia. }
        unfold vget. rewrite nth_error_map. destruct (nth_error (cidx m) (start rs i)) as [c|] eqn:Ec; [|apply nth_error_None in Ec; lia].
        cbn [option_map bind]. destruct (Z.eqb_spec (Z.of_nat c) j); [lia|reflexivity]. }
    rewrite Hfound. cbn [bind]. rewrite skipn_map, firstn_map.
    rewrite (count_up t Hb).
    2:{ intros x Hx. assert (Hin : In x (rnz m)) by (rewrite <- (firstn_skipn (i + 1) (rnz m)); apply in_or_app; auto).
        assert (Hx' : x <= length (cidx m)).
        { destruct H as ([Hz|[Hz _]] & Hcx & _); [|rewrite Hz in Hin; destruct Hin].
          rewrite Hcx, map_length. rewrite Hz in Hin. apply In_nth_error in Hin. destruct Hin as (k & Hk). rewrite nth_error_psum in Hk.
          destruct (k <=? length rs); [|discriminate]. injection Hk as <-. apply start_le. }
        lia. }
    cbn [bind]. assert (Hp : start rs i <= length (concat rs)) by apply start_le.
    assert (Hci : length (cidx m) = length (concat rs)) by (destruct H as (_ & -> & _); apply map_length).
    assert (Hva : length (vals m) = length (concat rs)) by (destruct H as (_ & _ & ->); apply map_length).
    unfold vinsert. rewrite map_length, Hci, Hva. destruct (Nat.leb_spec (start rs i) (length (concat rs))); [|lia]. cbn [bind].
    eexists. split; [reflexivity|]. cbn [zcol zcols]. auto.
  Qed.

  (** One entry more than the type can count. *)
  Lemma mapM_undef (f : Z -> res Z) l x : (forall y, In y l -> f y = Undef \/ exists z, f y = Ok z) -> In x l -> f x = Undef -> mapM f l = Undef.
  Proof.
    intros Hf Hx E. induction l as [|y l IH]; [destruct Hx|]. cbn [mapM]. destruct (Hf y (or_introl eq_refl)) as [->|[z Hz]].
    - reflexivity.
    - destruct Hx as [->|Hx]; [congruence|]. rewrite Hz. cbn [bind]. rewrite IH; auto. intros w Hw. apply Hf. cbn. auto.
  Qed.

  Lemma mapM_total (f : Z -> Z) l : mapM (fun x => Ok (f x)) l = Ok (map f l).
  Proof. induction l as [|x l IH]; [reflexivity|]. cbn [mapM map bind]. rewrite IH. reflexivity. Qed.

  Lemma insert_too_many m i j v : (1 <= i_bits t)%Z -> swf m -> (Z.of_nat (length (rnz m)) <= i_max t)%Z ->
    i < s_rows m -> j < csize m -> (forall x, ~ stored m i j x) -> Z.of_nat (length (cidx m)) = i_max t ->
    (i_signed t = true -> z_insert vzero t dbg (zof m) (Z.of_nat i) (Z.of_nat j) v = Undef) /\
    (i_signed t = false -> exists (m' : zmat V) it, z_insert vzero t dbg (zof m) (Z.of_nat i) (Z.of_nat j) v = Ok (m', it, true) /\
       last (zoff m') 1%Z = 0%Z /\ Z.of_nat (length (zcol m')) = (i_max t + 1)%Z).
  Proof.
    intros Hb (rs & H & Hok) Hl Hi Hj Hno Hn. assert (Hi' : i < length rs) by (rewrite <- (srepr_rows _ _ H); exact Hi).
    assert (Hnin : ~ In j (map fst (nth i rs []))).
    { intro Hin. apply in_map_iff in Hin. destruct Hin as ([a x] & Ea & Hx). cbn in Ea. subst a. apply (Hno x). apply (srepr_stored _ _ _ _ _ H). exact Hx. }
    pose proof (c_lower_bound_ok m rs i j H Hi') as Hlb.
    set (k := lbound (map fst (nth i rs [])) j) in *.
    assert (Hk : k <= length (nth i rs [])) by (unfold k; rewrite <- (map_length fst); apply lbound_le).
    unfold z_insert. rewrite !assert_nat. cbn [bind]. rewrite (z_rows_of t Hb m Hl).
    destruct (Z.leb_spec (Z.of_nat (s_rows m)) (Z.of_nat i)); [lia|]. cbn [bind]. change (z_columns (zof m)) with (Z.of_nat (csize m)).
    destruct (Z.leb_spec (Z.of_nat (csize m)) (Z.of_nat j)); [lia|]. cbn [bind]. rewrite at_pos_nat. cbn [bind].
    change (zoff (zof m)) with (map Z.of_nat (rnz m)). rewrite map_length.
    assert (Hlen : s_rows m + 1 = length (rnz m)) by (unfold s_rows in *; destruct (rnz m); cbn [length] in *; lia).
    destruct (Nat.leb_spec i (length (rnz m))); [|lia]. cbn [bind].
    rewrite (lower_bound_of t dbg Hb m i j _ Hl Hlb). cbn [bind fst snd].
    change (zcol (zof m)) with (map Z.of_nat (cidx m)). change (zval (zof m)) with (vals m).
    assert (Hfound : (if (if k =? length (nth i rs []) then i + 1 else i) =? i
      then do c <- vget (map Z.of_nat (cidx m)) (start rs i + k); Ok (c =? Z.of_nat j)%Z else Ok false) = Ok false).
    { destruct (Nat.eqb_spec k (length (nth i rs []))) as [E|E].
      - destruct (Nat.eqb_spec (i + 1) i); [lia|reflexivity].
      - rewrite Nat.eqb_refl. unfold vget. rewrite nth_error_map, (srepr_cidx_nth m rs) by (auto; lia).
        destruct (nth_error (nth i rs []) k) as [[a b]|] eqn:Ek; [|apply nth_error_None in Ek; lia].
        cbn [option_map bind fst]. destruct (Z.eqb_spec (Z.of_nat a) (Z.of_nat j)) as [Ea|]; [|reflexivity].
        exfalso. apply Hnin. apply nth_error_In in Ek. apply (in_map fst) in Ek. cbn in Ek. replace j with a by lia. exact Ek. }
    rewrite Hfound. cbn [bind]. rewrite skipn_map, firstn_map.
    assert (Hrn : rnz m = psum 0 rs) by (destruct H as [[Hz|[_ ->]] _]; [exact Hz|cbn in Hi'; lia]).
    assert (Hlast : nth_error (rnz m) (length rs) = Some (length (cidx m))).
    { rewrite Hrn, nth_error_psum, Nat.leb_refl, start_all by lia. destruct H as (_ & -> & _). rewrite map_length. reflexivity. }
    assert (Hin : In (length (cidx m)) (skipn (i + 1) (rnz m))).
    { apply nth_error_In with (length rs - (i + 1)). rewrite nth_error_skipn. replace (i + 1 + (length rs - (i + 1))) with (length rs) by lia. exact Hlast. }
    split; intro Hs.
    - rewrite (mapM_undef _ _ (i_max t)); [reflexivity| | |].
      + intros y Hy. unfold t_res. destruct (i_signed t && negb ((i_min t <=? y + 1) && (y + 1 <=? i_max t))%Z); eauto.
      + rewrite <- Hn. apply in_map. exact Hin.
      + unfold t_res. rewrite Hs. destruct (Z.leb_spec (i_max t + 1) (i_max t)); [lia|]. rewrite andb_false_r. reflexivity.
    - assert (Hm : mapM (fun x => t_res t (x + 1)%Z) (map Z.of_nat (skipn (i + 1) (rnz m))) =
        Ok (map (fun x => conv t (x + 1)%Z) (map Z.of_nat (skipn (i + 1) (rnz m))))).
      { rewrite <- mapM_total. unfold t_res. rewrite Hs. reflexivity. }
      rewrite Hm. cbn [bind].
      assert (Hp : start rs i + k <= length (concat rs)).
      { pose proof (start_le rs (i + 1)) as Hle. rewrite start_S' in Hle by auto. lia. }
      assert (Hci : length (cidx m) = length (concat rs)) by (destruct H as (_ & -> & _); apply map_length).
      assert (Hva : length (vals m) = length (concat rs)) by (destruct H as (_ & _ & ->); apply map_length).
      unfold vinsert. rewrite map_length, Hci, Hva. destruct (Nat.leb_spec (start rs i + k) (length (concat rs))); [|lia]. cbn [bind].
      eexists. eexists. split; [reflexivity|]. cbn [zoff zcol]. split.
      + assert (Hsk : skipn (i + 1) (rnz m) = removelast (skipn (i + 1) (rnz m)) ++ [length (cidx m)]).
        { assert (Hne : skipn (i + 1) (rnz m) <> []) by (intro E0; rewrite E0 in Hin; destruct Hin).
          rewrite (app_removelast_last 0 Hne) at 1. f_equal. f_equal.
          rewrite last_at, skipn_length, <- Hlen, (srepr_rows _ _ H). apply nth_error_nth. rewrite nth_error_skipn.
          replace (i + 1 + (length rs + 1 - (i + 1) - 1)) with (length rs) by lia. exact Hlast. }
        rewrite Hsk, !map_app. cbn [map]. rewrite app_assoc, last_last. rewrite Hn. unfold conv, i_min, i_max. rewrite Hs.
        replace (2 ^ i_bits t - 1 + 1 - 0)%Z with (2 ^ i_bits t)%Z by lia. rewrite Z.mod_same; [reflexivity|].
        assert (0 < 2 ^ i_bits t)%Z by (apply Z.pow_pos_nonneg; lia). lia.
      + unfold list_insert. rewrite app_length. cbn [length]. rewrite firstn_length, skipn_length, map_length. lia.
  Qed.

  (** More than half of an unsigned type. *)
  Lemma resize_half m r c : (1 <= i_bits t)%Z -> i_signed t = false -> swf m -> (Z.of_nat (length (rnz m)) <= i_max t)%Z ->
    0 < s_rows m -> s_rows m <= r -> (Z.of_nat r + 1 <= i_max t)%Z -> c < csize m ->
    (i_max (sg t) < Z.of_nat (nth 1 (rnz m) 0%nat) <= i_max t)%Z ->
    z_resize vzero t dbg (zof m) (Z.of_nat r) (Z.of_nat c) = Undef.
  Proof.
    intros Hb Hs (rs & H & Hok) Hl Hpos Hr Hrt Hc Hx.
    destruct (s_resize_ok vzero 0 m rs r (csize m) H) as (m2 & E2 & H2 & Hc2 & Hn2).
    destruct (rows_of vzero t 0 Hb m r m2 Hrt Hl E2) as (Ez & Hl2 & Hin).
    unfold resize_rows in H2. destruct (Nat.ltb_spec (csize m) (csize m)); [lia|].
    rewrite (srepr_rows _ _ H) in *.
    unfold z_resize. rewrite !assert_nat. cbn [bind]. rewrite Ez. cbn [bind].
    change (z_columns (zof m2)) with (Z.of_nat (csize m2)). rewrite (z_rows_of t Hb m2 Hl2), Nat2Z.id.
    destruct (Z.ltb_spec (Z.of_nat c) (Z.of_nat (csize m2))); [|lia].
    rewrite firstn_all2 in H2 by lia.
    assert (Hsr : s_rows m2 = r) by (rewrite (srepr_rows _ _ H2), app_length, repeat_length; lia). rewrite Hsr.
    destruct r as [|r]; [lia|]. unfold FOR. cbn [seq forM]. unfold z_resize_step at 1.
    destruct rs as [|g rs]; [cbn in Hpos; lia|].
    assert (Hrn : rnz m = psum 0 (g :: rs)) by (destruct H as [[Hz|[_ Hz]] _]; [exact Hz|discriminate]).
    assert (Hrn2 : rnz m2 = psum 0 ((g :: rs) ++ repeat [] (S r - length (g :: rs)))) by (destruct H2 as [[Hz|[Hz _]] _]; [exact Hz|contradiction]).
    assert (Hg : nth 1 (rnz m) 0 = length g) by (rewrite Hrn; cbn; destruct rs; reflexivity).
    rewrite Hg in Hx.
    assert (Hv : vget (zoff (zof m2)) (0 + 1) = Ok (Z.of_nat (length g))).
    { change (zoff (zof m2)) with (map Z.of_nat (rnz m2)). apply vget_map. rewrite Hrn2. cbn [app psum Nat.add].
      destruct (rs ++ repeat [] (S r - length (g :: rs))); reflexivity. }
    rewrite Hv. cbn [bind]. rewrite Z.sub_0_r. pose proof (sg_le t Hb). rewrite t_res_ok by (auto; lia). cbn [bind].
    assert (Hneg : (conv (sg t) (Z.of_nat (length g)) < 0)%Z).
    { unfold conv, i_min, i_max, sg in *. cbn [i_signed i_bits] in *. rewrite Hs in *.
      assert (Hp : (2 ^ i_bits t = 2 * 2 ^ (i_bits t - 1))%Z) by (replace (i_bits t) with (Z.succ (i_bits t - 1)) at 1 by lia; apply Z.pow_succ_r; lia).
      rewrite <- (Z.mod_add _ (-1)) by lia. rewrite Z.mod_small by lia. lia. }
    unfold at_pos. destruct (Z.ltb_spec (conv (sg t) (Z.of_nat (length g))) 0); [reflexivity|lia].
  Qed.
End CsrIntTypes.

Lemma resize_same {V} (vzero : V) t dbg M m r c m' : (1 <= i_bits t)%Z -> room t m ->
  (0 < c \/ i_signed t = false /\ Z.of_nat M = i_max t) -> (Z.of_nat c <= i_max t)%Z -> (Z.of_nat r + 1 <= i_max t)%Z ->
  c_resize vzero M m r c = Ok m' -> z_resize vzero t dbg (zof m) (Z.of_nat r) (Z.of_nat c) = Ok (zof m') /\ room t m'.
Proof. intros Hb Hr Hc Hct Hrt E. exact (resize_of vzero t dbg M Hb m r c m' (fun _ => Hc) Hct Hrt Hr E). Qed.

Lemma insert_same {V} (vzero : V) t dbg M m i j v m' it b : (1 <= i_bits t)%Z -> room t m -> swf m ->
  (Z.of_nat (csize m) <= i_max t)%Z -> (Z.of_nat i + 2 <= i_max t)%Z -> (Z.of_nat j + 1 <= i_max t)%Z ->
  (Z.of_nat (length (cidx m)) < i_max (sg t))%Z -> c_insert vzero M m i j v = Ok (m', it, b) ->
  z_insert vzero t dbg (zof m) (Z.of_nat i) (Z.of_nat j) v = Ok (zof m', it, b).
Proof. intros Hb Hr Hw Hc Hi Hj Hn E. exact (insert_of vzero t dbg M Hb m i j v m' it b Hr Hc Hi Hj Hn Hw E). Qed.

Lemma lower_bound_same {V} t dbg (m : smat V) i j it : (1 <= i_bits t)%Z -> (Z.of_nat (length (rnz m)) <= i_max t)%Z ->
  c_lower_bound m i j = Ok it -> z_lower_bound t dbg (zof m) (Z.of_nat i) (Z.of_nat j) = Ok it.
Proof. intros Hb Hl E. exact (lower_bound_of t dbg Hb m i j it Hl E). Qed.

(** The sizes a matrix reports. *)
Lemma sizes_same {V} t (m : smat V) : (1 <= i_bits t)%Z -> (Z.of_nat (length (rnz m)) <= i_max t)%Z ->
  (Z.of_nat (length (cidx m)) <= i_max t)%Z ->
  z_rows t (zof m) = Z.of_nat (s_rows m) /\ z_columns (zof m) = Z.of_nat (csize m) /\ z_non_zero t (zof m) = Z.of_nat (length (cidx m)).
Proof.
  intros Hb Hr Hc. split; [apply z_rows_of; auto|]. split; [reflexivity|]. unfold z_non_zero, zof. cbn [zcol]. rewrite map_length.
  apply conv_pos; [exact Hb|lia].
Qed.

Lemma sizes_wrong {V} t (m : zmat V) : (1 <= i_bits t)%Z -> Z.of_nat (length (zcol m)) = (i_max t + 1)%Z ->
  z_non_zero t m = i_min t.
Proof.
  intros Hb H. unfold z_non_zero. rewrite H. unfold conv, i_max, i_min.
  assert (Hp : (2 ^ i_bits t = 2 * 2 ^ (i_bits t - 1))%Z) by (replace (i_bits t) with (Z.succ (i_bits t - 1)) at 1 by lia; apply Z.pow_succ_r; lia).
  assert (0 < 2 ^ (i_bits t - 1))%Z by (apply Z.pow_pos_nonneg; lia).
  destruct (i_signed t); rewrite <- (Z.mod_add _ (-1)) by lia; rewrite Z.mod_small by lia; lia.
Qed.
