(** Row level effect of the modifying members of the sparse matrix. *)
From Verif Require Import Base ListFacts Csr SparseModel SparseSpec SparseFacts.

Section Update.
  Context {V : Type}.
  Implicit Types (m : smat V) (rs : list (list (nat * V))) (r : list (nat * V)).

  (* ---------------------------------------------------------------- erasing and inserting in a row *)
  Lemma srepr_mk rs c : srepr (mkS (psum 0 rs) (map fst (concat rs)) (map snd (concat rs)) c) rs.
  Proof. split; [left; reflexivity|]. split; reflexivity. Qed.

  Lemma verase_map_row {B} (f : nat * V -> B) rs i k n :
    i < length rs -> k <= n -> n <= length (nth i rs []) ->
    verase (map f (concat rs)) (start rs i + k) (start rs i + n) =
    Ok (map f (concat (upd rs i (firstn k (nth i rs []) ++ skipn n (nth i rs []))))).
  Proof.
    intros Hi Hk Hn. rewrite !concat_map, <- (start_map_map f rs).
    rewrite erase_row; rewrite ?map_length, ?nth_map_map, ?map_length; auto.
    rewrite upd_map, map_app, firstn_map, skipn_map. reflexivity.
  Qed.

  Lemma vinsert_map_row {B} (f : nat * V -> B) rs i k x :
    i < length rs -> k <= length (nth i rs []) ->
    vinsert (map f (concat rs)) (start rs i + k) (f x) =
    Ok (map f (concat (upd rs i (list_insert (nth i rs []) k x)))).
  Proof.
    intros Hi Hk. unfold vinsert. rewrite map_length.
    pose proof (start_le rs (S i)) as Hle. rewrite start_S in Hle by auto.
    destruct (Nat.leb_spec (start rs i + k) (length (concat rs))); [|lia].
    rewrite <- insert_row by auto. unfold list_insert. rewrite map_app. cbn [map].
    rewrite firstn_map, skipn_map. reflexivity.
  Qed.

  Lemma vset_map_row rs i k x a b :
    i < length rs -> nth_error (nth i rs []) k = Some (a, b) ->
    vset (map snd (concat rs)) (start rs i + k) x =
    Ok (map snd (concat (upd rs i (upd (nth i rs []) k (a, x : V))))) /\
    map fst (concat (upd rs i (upd (nth i rs []) k (a, x)))) = map fst (concat rs).
  Proof.
    intros Hi Hk. pose proof (nth_error_lt_Some _ _ _ Hk) as Hlt.
    pose proof (start_le rs (S i)) as Hle. rewrite start_S in Hle by auto.
    assert (E : concat (upd rs i (upd (nth i rs []) k (a, x))) =
                upd (concat rs) (start rs i + k) (a, x)).
    { apply nth_error_split in Hk as (l1 & l2 & Er & Hl). rewrite Er, <- Hl, upd_split.
      pose proof (firstn_skipn i rs) as E. rewrite (skipn_row rs i Hi), Er in E.
      unfold upd at 1. rewrite <- E at 3. rewrite !concat_app. cbn [concat].
      rewrite <- !app_assoc. cbn [app]. rewrite !app_assoc.
      replace (start rs i + length l1) with (length (concat (firstn i rs) ++ l1))
        by (rewrite app_length; reflexivity).
      rewrite upd_split. reflexivity. }
    rewrite E. split.
    - rewrite vset_lt by (rewrite map_length; lia). rewrite upd_map. reflexivity.
    - rewrite upd_map. apply upd_id. rewrite nth_error_map', concat_nth_error, Hk by auto. reflexivity.
  Qed.

  Lemma psum_upd_add rs i r' n z :
    i < length rs -> length r' = length (nth i rs []) + n ->
    length z = S (length rs) ->
    (forall k, nth_error z k = option_map (fun x => if i + 1 <=? k then x + n else x) (nth_error (psum 0 rs) k)) ->
    z = psum 0 (upd rs i r').
  Proof.
    intros Hi Hl Hz H. apply psum_ext.
    - rewrite upd_length by auto. auto.
    - rewrite upd_length by auto. intros k Hk. rewrite H, nth_error_psum, start_upd by auto.
      destruct (Nat.leb_spec k (length rs)); [|lia]. cbn [option_map Nat.add].
      destruct (Nat.leb_spec (i + 1) k), (Nat.leb_spec k i); try lia; auto.
      assert (start rs (S i) <= start rs k) by (apply start_mono; lia).
      rewrite start_S in H3 by auto. f_equal. lia.
  Qed.

  Lemma vdec_from_psum rs i r' :
    i < length rs -> S (length r') = length (nth i rs []) ->
    vdec_from (psum 0 rs) (i + 1) = Ok (psum 0 (upd rs i r')).
  Proof.
    intros Hi Hl. unfold vdec_from.
    assert (Hall : forallb (fun x => 1 <=? x) (skipn (i + 1) (psum 0 rs)) = true).
    { apply forallb_forall. intros x Hx. apply In_nth_error in Hx as [k Hk].
      rewrite nth_error_skipn, nth_error_psum in Hk.
      destruct (Nat.leb_spec (i + 1 + k) (length rs)); [|discriminate]. injection Hk as <-.
      assert (start rs (S i) <= start rs (i + 1 + k)) by (apply start_mono; lia).
      rewrite start_S in H0 by auto. apply Nat.leb_le. lia. }
    rewrite Hall. f_equal. apply psum_ext.
    - rewrite app_length, map_length, firstn_length, skipn_length, psum_length, upd_length by auto. lia.
    - rewrite upd_length by auto. intros k Hk.
      rewrite nth_error_app, firstn_length, psum_length, nth_error_firstn, nth_error_map',
        nth_error_skipn, !nth_error_psum, start_upd by auto.
      replace (Nat.min (i + 1) (S (length rs))) with (i + 1) by lia.
      destruct (Nat.leb_spec k (length rs)); [|lia].
      destruct (Nat.ltb_spec k (i + 1)), (Nat.leb_spec k i); try lia; auto.
      replace (i + 1 + (k - (i + 1))) with k by lia.
      destruct (Nat.leb_spec k (length rs)); [|lia]. cbn [option_map Nat.add].
      assert (start rs (S i) <= start rs k) by (apply start_mono; lia).
      rewrite start_S in H3 by auto. f_equal. lia.
  Qed.

  (* ---------------------------------------------------------------- resize *)
  Definition cutw (w : nat) (r : list (nat * V)) : list (nat * V) := firstn (ubound (map fst r) w) r.

  Definition keep_cols (c : nat) (r : list (nat * V)) : list (nat * V) := filter (fun p => fst p <? c) r.

  Lemma cutw_filter r v : ascending (map fst r) -> cutw v r = filter (fun p => fst p <=? v) r.
  Proof.
    unfold cutw.
    induction r as [|[a b] r IH]; cbn [map ubound fst firstn filter]; auto. intro Ha.
    apply ascending_cons in Ha as [Ha Hf]. destruct (Nat.leb_spec a v).
    - cbn [firstn]. rewrite IH; auto.
    - cbn [firstn]. rewrite Forall_forall in Hf. symmetry. apply filter_none.
      intros p Hp. apply Nat.leb_gt. specialize (Hf (fst p) (in_map fst _ _ Hp)). lia.
  Qed.

  Lemma cutw_keep M c r : ascending (map fst r) -> 0 < c -> cutw (dec_wrap M c) r = keep_cols c r.
  Proof.
    intros Ha Hc. rewrite cutw_filter by auto. unfold keep_cols. apply filter_ext. intro p.
    destruct c as [|c]; [lia|]. unfold dec_wrap.
    destruct (Nat.leb_spec (fst p) c), (Nat.ltb_spec (fst p) (S c)); auto; lia.
  Qed.

  Lemma cutw_all w r : (forall j, In j (map fst r) -> j <= w) -> cutw w r = r.
  Proof.
    unfold cutw. intro H. apply firstn_all2.
    induction r as [|[a b] r IH]; cbn [map ubound length fst]; auto. cbn [map fst] in H.
    destruct (Nat.leb_spec a w).
    - cbn [length]. apply le_n_S, IH. intros j Hj. apply H. simpl; auto.
    - specialize (H a (or_introl eq_refl)). lia.
  Qed.

  Definition cmixed (w i : nat) rs : list (list (nat * V)) := map (cutw w) (firstn i rs) ++ skipn i rs.

  Lemma cmixed_length w i rs : length (cmixed w i rs) = length rs.
  Proof. unfold cmixed. rewrite app_length, map_length, firstn_length, skipn_length. lia. Qed.

  Lemma nth_error_cmixed w i rs k :
    nth_error (cmixed w i rs) k = option_map (fun r => if k <? i then cutw w r else r) (nth_error rs k).
  Proof.
    unfold cmixed. rewrite nth_error_app, map_length, firstn_length, nth_error_map', nth_error_firstn,
      nth_error_skipn.
    destruct (Nat.ltb_spec k i), (Nat.ltb_spec k (Nat.min i (length rs))); try lia; auto.
    - rewrite (nth_error_None_ge rs k) by lia. apply nth_error_None_ge. lia.
    - destruct (Nat.le_gt_cases i (length rs)).
      + replace (i + (k - Nat.min i (length rs))) with k by lia. destruct (nth_error rs k); auto.
      + rewrite !nth_error_None_ge by lia. reflexivity.
  Qed.

  Lemma cmixed_nth w i rs k : nth k (cmixed w i rs) [] = if k <? i then cutw w (nth k rs []) else nth k rs [].
  Proof.
    destruct (Nat.lt_ge_cases k (length rs)).
    - apply nth_error_nth. rewrite nth_error_cmixed, (nth_error_nth_lt _ _ []) by auto. reflexivity.
    - rewrite !nth_overflow by (rewrite ?cmixed_length; auto). destruct (k <? i); reflexivity.
  Qed.

  Lemma cmixed_S w i rs : i < length rs ->
    cmixed w (S i) rs = upd (cmixed w i rs) i (cutw w (nth i rs [])).
  Proof.
    intro Hi. apply nth_error_ext. intro k.
    rewrite nth_error_upd by (rewrite cmixed_length; auto). rewrite !nth_error_cmixed.
    destruct (Nat.eqb_spec k i) as [->|Hn].
    - rewrite (nth_error_nth_lt rs i []) by auto. cbn [option_map].
      destruct (Nat.ltb_spec i (S i)); [reflexivity|lia].
    - destruct (Nat.ltb_spec k (S i)), (Nat.ltb_spec k i); try lia; reflexivity.
  Qed.

  Lemma cutw_length w r : length (cutw w r) <= length r.
  Proof. unfold cutw. rewrite firstn_length. lia. Qed.

  Variables (vzero : V) (M : nat) (dbg : bool) (stray : option nat).

  Definition col_inv (c : nat) rs (i : nat) (s : smat V * nat) : Prop :=
    let ms := cmixed (dec_wrap M c) i rs in
    cidx (fst s) = map fst (concat ms) /\ vals (fst s) = map snd (concat ms) /\
    length (rnz (fst s)) = S (length rs) /\
    (forall k, k <= length rs ->
       nth_error (rnz (fst s)) k = Some (if k <=? i then start ms k else start rs k)) /\
    start ms i + snd s = start rs i.

  Lemma resize_col_step_ok c rs i s :
    i < length rs -> col_inv c rs i s ->
    exists s', resize_col_step M c i s = Ok s' /\ col_inv c rs (S i) s'.
  Proof.
    intros Hi (Hc & Hv & Hl & Hz & Hs). destruct s as [m loss]. cbn [fst snd] in *.
    set (w := dec_wrap M c) in *. set (ms := cmixed w i rs) in *.
    assert (Hml : length ms = length rs) by apply cmixed_length.
    assert (Hrow : nth i ms [] = nth i rs []).
    { unfold ms. rewrite cmixed_nth. destruct (Nat.ltb_spec i i); [lia|auto]. }
    assert (HsR : start rs (i + 1) = start rs i + length (nth i rs [])) by (apply start_S'; auto).
    assert (HsM : start ms (i + 1) = start ms i + length (nth i rs [])).
    { rewrite start_S', Hrow by lia. reflexivity. }
    assert (Hnext : cmixed w (S i) rs = upd ms i (cutw w (nth i rs []))) by (apply cmixed_S; auto).
    assert (Hst' : forall k, start (cmixed w (S i) rs) k =
      if k <=? i then start ms k else start ms k - length (nth i rs []) + length (cutw w (nth i rs []))).
    { intro k. rewrite Hnext, start_upd, Hrow by lia. reflexivity. }
    pose proof (cutw_length w (nth i rs [])) as Hcl.
    assert (Hub : ubound (map fst (nth i rs [])) w = length (cutw w (nth i rs []))).
    { unfold cutw. rewrite firstn_length. pose proof (ubound_le (map fst (nth i rs [])) w) as Hu.
      rewrite map_length in Hu. lia. }
    unfold resize_col_step. unfold vget at 1. rewrite Hz by lia.
    destruct (Nat.leb_spec (i + 1) i); [lia|]. cbn [bind].
    destruct (Nat.ltb_spec (start rs (i + 1)) loss); [lia|].
    unfold vget at 1. rewrite Hz by lia. destruct (Nat.leb_spec i i); [|lia]. cbn [bind].
    replace (start rs (i + 1) - loss) with (start ms (i + 1)) by lia.
    assert (Hvr : vrange (cidx m) (start ms i) (start ms (i + 1)) = Ok (map fst (nth i rs []))).
    { rewrite Hc, concat_map, <- !(start_map_map fst ms).
      rewrite vrange_row by (rewrite map_length; lia). rewrite nth_map_map, Hrow. reflexivity. }
    rewrite Hvr. cbn [bind]. fold w. rewrite Hub.
    assert (Hmid : exists ci vs,
      (if start ms i + length (cutw w (nth i rs [])) =? start ms (i + 1) then Ok (m, loss)
       else
         do ci <- verase (cidx m) (start ms i + length (cutw w (nth i rs []))) (start ms (i + 1));
         do vs <- verase (vals m) (start ms i + length (cutw w (nth i rs []))) (start ms (i + 1));
         Ok (mkS (rnz m) ci vs (csize m),
             loss + (start ms (i + 1) - (start ms i + length (cutw w (nth i rs []))))))
      = Ok (mkS (rnz m) ci vs (csize m), loss + (length (nth i rs []) - length (cutw w (nth i rs [])))) /\
      ci = map fst (concat (cmixed w (S i) rs)) /\ vs = map snd (concat (cmixed w (S i) rs))).
    { destruct (Nat.eqb_spec (start ms i + length (cutw w (nth i rs []))) (start ms (i + 1))) as [E|E].
      - assert (Hlen : length (cutw w (nth i rs [])) = length (nth i rs [])) by lia.
        assert (Hcut : cutw w (nth i rs []) = nth i rs []).
        { unfold cutw in Hlen |- *. rewrite firstn_length in Hlen.
          apply firstn_all2. lia. }
        exists (cidx m), (vals m). rewrite Hlen, Nat.sub_diag, Nat.add_0_r.
        split; [destruct m; reflexivity|].
        rewrite Hnext, Hcut, upd_id; auto.
        rewrite <- Hrow. apply nth_error_nth_lt. lia.
      - rewrite Hc, Hv, HsM.
        rewrite !verase_map_row by (rewrite ?Hrow; lia). cbn [bind].
        eexists; eexists. split; [f_equal; f_equal; lia|].
        rewrite Hnext, Hrow, skipn_all, app_nil_r.
        replace (firstn (length (cutw w (nth i rs []))) (nth i rs [])) with (cutw w (nth i rs []))
          by (rewrite <- Hub; reflexivity). auto. }
    destruct Hmid as (ci & vs & E & Eci & Evs). rewrite E. cbn [bind rnz cidx vals csize].
    unfold vsub. unfold vget. rewrite Hz by lia. destruct (Nat.leb_spec (i + 1) i); [lia|]. cbn [bind].
    destruct (Nat.leb_spec (loss + (length (nth i rs []) - length (cutw w (nth i rs [])))) (start rs (i + 1)));
      [|lia].
    rewrite vset_lt by lia. cbn [bind]. eexists. split; [reflexivity|].
    unfold col_inv. cbn [fst snd rnz cidx vals]. fold w.
    split; [auto|]. split; [auto|]. split; [rewrite upd_length; lia|]. split.
    - intros k Hk. rewrite nth_error_upd by lia. rewrite Hst'.
      destruct (Nat.eqb_spec k (i + 1)) as [->|Hn].
      + destruct (Nat.leb_spec (i + 1) (S i)), (Nat.leb_spec (i + 1) i); try lia. f_equal. lia.
      + rewrite Hz by auto. destruct (Nat.leb_spec k i), (Nat.leb_spec k (S i)); try lia; reflexivity.
    - rewrite Hst'. destruct (Nat.leb_spec (S i) i); [lia|]. rewrite <- Nat.add_1_r. lia.
  Qed.

  (** The rows after resize(r, c), when the number of columns is [c0]. *)
  Definition resize_rows (c0 r c : nat) rs : list (list (nat * V)) :=
    (if c <? c0 then map (cutw (dec_wrap M c)) (firstn r rs) else firstn r rs)
    ++ repeat [] (r - length rs).

  Lemma srepr_csize m rs c : srepr m rs -> srepr (mkS (rnz m) (cidx m) (vals m) c) rs.
  Proof. intro H. exact H. Qed.

  Lemma map_cutw_repeat w n : map (cutw w) (repeat [] n) = repeat [] n.
  Proof. induction n; simpl; f_equal; auto. Qed.

  Lemma concat_repeat_nil {A} n : concat (repeat (@nil A) n) = [].
  Proof. induction n; simpl; auto. Qed.

  Lemma s_resize_ok m rs (r c : nat) : srepr m rs ->
    exists m', s_resize vzero M m r c = Ok m' /\ srepr m' (resize_rows (csize m) r c rs) /\
      csize m' = c /\ rnz m' <> [].
  Proof.
    intro H. unfold s_resize.
    pose proof (srepr_rows _ _ H) as Hr.
    (* rows *)
    set (rs1 := firstn r rs).
    assert (H1 : exists m1,
      (if r <? s_rows m then
         do n <- vget (rnz m) r;
         Ok (mkS (rnz m) (vresize (cidx m) n 0) (vresize (vals m) n vzero) (csize m))
       else Ok m) = Ok m1 /\ rnz m1 = rnz m /\ csize m1 = csize m /\
      cidx m1 = map fst (concat rs1) /\ vals m1 = map snd (concat rs1)).
    { destruct (Nat.ltb_spec r (s_rows m)) as [Hlt|Hge].
      - rewrite (srepr_vget _ _ _ H) by lia. cbn [bind]. eexists. split; [reflexivity|].
        cbn [rnz csize cidx vals]. split; [auto|]. split; [auto|].
        destruct H as (_ & Hc & Hv). pose proof (start_le rs r) as Hle.
        unfold vresize. rewrite Hc, Hv, !map_length.
        replace (start rs r - length (concat rs)) with 0 by lia. cbn [repeat]. rewrite !app_nil_r.
        rewrite !firstn_map, firstn_start. auto.
      - exists m. destruct H as (_ & Hc & Hv). unfold rs1. rewrite firstn_all2 by lia. auto 6. }
    destruct H1 as (m1 & E1 & Hz1 & Hcs1 & Hc1 & Hv1). rewrite E1. cbn [bind]. clear E1.
    rewrite Hz1.
    (* offsets *)
    set (rs2 := rs1 ++ repeat [] (r - length rs)).
    assert (Hlen2 : length rs2 = r).
    { unfold rs2, rs1. rewrite app_length, firstn_length, repeat_length. lia. }
    assert (Hcc : concat rs2 = concat rs1).
    { unfold rs2. rewrite concat_app, concat_repeat_nil, app_nil_r. reflexivity. }
    assert (Hz2 : exists d, (match rnz m with [] => Ok 0 | _ => vback (rnz m) end) = Ok d /\
                            vresize (rnz m) (r + 1) d = psum 0 rs2).
    { destruct H as ([Hz|[Hz Hn]] & _).
      - exists (length (concat rs)). split.
        + destruct (rnz m) eqn:E; [exfalso; destruct rs; discriminate|]. rewrite <- E in *.
          rewrite (vback_Ok _ 0) by congruence. f_equal. rewrite Hz, psum_length.
          apply nth_error_nth. rewrite nth_error_psum.
          destruct (Nat.leb_spec (S (length rs) - 1) (length rs)); [|lia].
          cbn [Nat.add]. f_equal. apply start_all. lia.
        + apply psum_ext; [rewrite vresize_length; lia|]. intros k Hk.
          rewrite Hz, nth_error_vresize, psum_length, nth_error_psum.
          destruct (Nat.ltb_spec k (r + 1)); [|lia]. cbn [Nat.add].
          destruct (Nat.ltb_spec k (S (length rs))), (Nat.leb_spec k (length rs)); try lia; f_equal.
          * unfold rs2, rs1. destruct (Nat.le_gt_cases k (length (firstn r rs))).
            -- rewrite start_app_l by auto. rewrite start_firstn by lia. reflexivity.
            -- rewrite firstn_length in *. lia.
          * unfold start. rewrite <- Hcc in *. unfold rs2. rewrite firstn_app, concat_app.
            unfold rs1. rewrite firstn_length.
            rewrite (firstn_all2 (n := k)) by (rewrite firstn_length; lia).
            rewrite (firstn_all2 (n := r)) by lia.
            replace (concat (firstn (k - Nat.min r (length rs)) (repeat [] (r - length rs)))) with (@nil (nat * V)).
            2:{ generalize (k - Nat.min r (length rs)), (r - length rs). intros a b.
                revert a; induction b; intros [|a]; simpl; auto. }
            rewrite app_nil_r. reflexivity.
      - exists 0. rewrite Hz. split; [reflexivity|]. subst rs.
        unfold rs2, rs1. rewrite firstn_nil. cbn [app length]. rewrite Nat.sub_0_r.
        apply psum_ext; [rewrite vresize_length, repeat_length; lia|].
        intros k Hk. rewrite repeat_length in Hk. rewrite nth_error_vresize. cbn [length].
        destruct (Nat.ltb_spec k (r + 1)); [|lia]. destruct (Nat.ltb_spec k 0); [lia|].
        f_equal. unfold start. cbn [Nat.add].
        replace (concat (firstn k (repeat [] r))) with (@nil (nat * V)); [reflexivity|].
        clear. revert k; induction r; intros [|k]; simpl; auto. }
    destruct Hz2 as (dd & Ed & Ez). rewrite Ed. cbn [bind]. rewrite Ez, Hcs1. cbn [csize].
    rewrite Hc1, Hv1, <- Hcc. set (m2 := mkS (psum 0 rs2) (map fst (concat rs2)) (map snd (concat rs2)) (csize m)).
    assert (Hm2 : srepr m2 rs2) by apply srepr_mk.
    unfold resize_rows. fold rs1.
    destruct (Nat.ltb_spec c (csize m)) as [Hlt|Hge].
    - rewrite (srepr_rows _ _ Hm2).
      destruct (FOR_inv (fun i s => col_inv c rs2 i s) (length rs2) (resize_col_step M c) (m2, 0)) as (s & Es & Hinv).
      + unfold col_inv, cmixed. cbn [fst snd firstn map app skipn].
        split; [reflexivity|]. split; [reflexivity|]. split; [apply psum_length|]. split; [|lia].
        intros k Hk. unfold m2. cbn [rnz]. rewrite nth_error_psum.
        destruct (Nat.leb_spec k (length rs2)); [|lia]. destruct (k <=? 0); reflexivity.
      + intros i s Hi Hs. rewrite Nat.add_1_r. apply resize_col_step_ok; auto.
      + rewrite Es. cbn [bind]. eexists. split; [reflexivity|]. cbn [rnz cidx vals csize].
        destruct Hinv as (Hic & Hiv & Hil & Hiz & _).
        assert (Ems : cmixed (dec_wrap M c) (length rs2) rs2 =
                      map (cutw (dec_wrap M c)) rs1 ++ repeat [] (r - length rs)).
        { unfold cmixed. rewrite firstn_all, skipn_all, app_nil_r. unfold rs2.
          rewrite map_app, map_cutw_repeat. reflexivity. }
        assert (Hzz : rnz (fst s) = psum 0 (cmixed (dec_wrap M c) (length rs2) rs2)).
        { apply psum_ext; rewrite cmixed_length; auto. intros k Hk. rewrite Hiz by auto.
          destruct (Nat.leb_spec k (length rs2)); [reflexivity|lia]. }
        rewrite <- Ems. split; [|split; [reflexivity|]].
        * split; [left; exact Hzz|]. split; auto.
        * rewrite Hzz. intro E0. apply (f_equal (@length nat)) in E0. rewrite psum_length in E0. discriminate.
    - cbn [bind]. eexists. split; [reflexivity|]. cbn [csize rnz]. split; [|split; [reflexivity|]].
      + apply srepr_mk.
      + unfold m2. cbn [rnz]. intro E0. apply (f_equal (@length nat)) in E0.
        rewrite psum_length in E0. discriminate.
  Qed.
End Update.
