(** The constructor from offsets, columns and values, C37. *)
From Verif Require Import Base ListFacts Csr SparseModel SparseSpec SparseFacts SparseUpdate SparseInsert SparseSeq.

(** The arrays describe a matrix with [c] columns. *)
Definition describes {V} (nz idx : list nat) (vs : list V) (c : nat) : Prop :=
  nth 0 nz 0 = 0 /\
  (forall i, i + 1 < length nz -> nth i nz 0 <= nth (i + 1) nz 0) /\
  last nz 0 = length idx /\ length idx = length vs /\
  (forall i k, i + 1 < length nz -> nth i nz 0 <= k < nth (i + 1) nz 0 -> nth k idx 0 < c) /\
  (forall i k l, i + 1 < length nz -> nth i nz 0 <= k < nth (i + 1) nz 0 ->
     nth i nz 0 <= l < nth (i + 1) nz 0 -> nth k idx 0 = nth l idx 0 -> k = l).

(** [srt] sorts positions by a key (std::sort; the order of equal keys is left open). *)
Definition sorts (srt : (nat -> nat) -> list nat -> list nat) : Prop :=
  forall key l, Permutation (srt key l) l /\ StronglySorted (fun a b => key a <= key b) (srt key l).

Lemma FOR_abort {S} (P : nat -> S -> Prop) (good : nat -> Prop) n (f : nat -> S -> res S) s :
  P 0 s ->
  (forall i s, i < n -> P i s -> (good i /\ exists s', f i s = Ok s' /\ P (i + 1) s') \/ (~ good i /\ f i s = Abort)) ->
  ((forall i, i < n -> good i) /\ exists s', FOR n f s = Ok s' /\ P n s') \/
  ((exists i, i < n /\ ~ good i) /\ FOR n f s = Abort).
Proof.
  intros H0 Hstep. unfold FOR.
  assert (G : forall m a s, a + m = n -> P a s ->
            ((forall i, a <= i < n -> good i) /\ exists s', forM (seq a m) f s = Ok s' /\ P n s') \/
            ((exists i, i < n /\ ~ good i) /\ forM (seq a m) f s = Abort)).
  { induction m as [|m IH]; intros a t Ha Ht; simpl.
    - left. split; [intros; lia|]. exists t. split; auto. replace n with a by lia. exact Ht.
    - destruct (Hstep a t) as [[Hg (t' & E & Ht')]|[Hb E]]; [lia|auto| |].
      + rewrite E. simpl. rewrite Nat.add_1_r in Ht'.
        destruct (IH (Datatypes.S a) t') as [[G1 G2]|G2]; [lia|auto| |].
        * left. split; auto. intros i Hi. destruct (Nat.eq_dec i a) as [->|]; auto. apply G1. lia.
        * right. exact G2.
      + right. rewrite E. split; [exists a; split; [lia|auto]|reflexivity]. }
  destruct (G n 0 s eq_refl H0) as [[G1 G2]|G2]; auto. left. split; auto. intros. apply G1. lia.
Qed.

(** Cutting a list at offsets. *)
Fixpoint cuts {A} (a : nat) (nz : list nat) (l : list A) : list (list A) :=
  match nz with
  | [] => []
  | b :: r => firstn (b - a) l :: cuts b r (skipn (b - a) l)
  end.

Lemma cuts_psum {A} nz : forall a (l : list A), is_sorted (a :: nz) = true -> last (a :: nz) 0 <= a + length l ->
  psum a (cuts a nz l) = a :: nz.
Proof.
  induction nz as [|b nz IH]; intros a l Hs Hl; cbn [cuts psum]; auto.
  assert (Hab : a <= b /\ is_sorted (b :: nz) = true).
  { cbn [is_sorted] in Hs. apply andb_true_iff in Hs as [Hab Hs]. apply Nat.leb_le in Hab. auto. }
  destruct Hab as [Hab Hs'].
  assert (Hb : b <= last (b :: nz) 0).
  { clear -Hs'. revert b Hs'. induction nz as [|x nz IH]; intros b Hs; [simpl; lia|].
    cbn [is_sorted] in Hs. apply andb_true_iff in Hs as [Hbx Hs]. apply Nat.leb_le in Hbx.
    specialize (IH x Hs). cbn [last] in *. destruct nz; lia. }
  change (last (a :: b :: nz) 0) with (last (b :: nz) 0) in Hl.
  rewrite firstn_length. replace (a + Nat.min (b - a) (length l)) with b by lia.
  f_equal. apply IH; auto. rewrite skipn_length. lia.
Qed.

Lemma cuts_concat {A} nz : forall a (l : list A), is_sorted (a :: nz) = true -> last (a :: nz) 0 = a + length l ->
  concat (cuts a nz l) = l.
Proof.
  induction nz as [|b nz IH]; intros a l Hs Hl; cbn [cuts concat].
  - simpl in Hl. destruct l; simpl in Hl; [auto|lia].
  - assert (Hab : a <= b /\ is_sorted (b :: nz) = true).
    { cbn [is_sorted] in Hs. apply andb_true_iff in Hs as [Hab Hs]. apply Nat.leb_le in Hab. auto. }
    destruct Hab as [Hab Hs'].
    assert (Hb : b <= last (b :: nz) 0).
    { clear -Hs'. revert b Hs'. induction nz as [|x nz IH]; intros b Hs; [simpl; lia|].
      cbn [is_sorted] in Hs. apply andb_true_iff in Hs as [Hbx Hs]. apply Nat.leb_le in Hbx.
      specialize (IH x Hs). cbn [last] in *. destruct nz; lia. }
    change (last (a :: b :: nz) 0) with (last (b :: nz) 0) in Hl.
    rewrite IH; [apply firstn_skipn|auto|]. rewrite skipn_length. lia.
Qed.

Lemma cuts_length {A} nz : forall a (l : list A), length (cuts a nz l) = length nz.
Proof. induction nz as [|b nz IH]; intros a l; simpl; auto. Qed.

Lemma is_sorted_spec l : is_sorted l = true <-> (forall i, i + 1 < length l -> nth i l 0 <= nth (i + 1) l 0).
Proof.
  induction l as [|x l IH]; [split; [simpl; intros; lia|reflexivity]|].
  destruct l as [|y l]; [split; [simpl; intros; lia|reflexivity]|].
  change (is_sorted (x :: y :: l)) with ((x <=? y) && is_sorted (y :: l)).
  rewrite andb_true_iff, Nat.leb_le, IH. split.
  - intros [Hxy H] i Hi. destruct i as [|i]; [exact Hxy|]. apply (H i). simpl in *. lia.
  - intro H. split; [apply (H 0); simpl; lia|]. intros i Hi. apply (H (S i)). simpl in *. lia.
Qed.

Lemma no_adjacent_spec l : StronglySorted le l -> (no_adjacent l = true <-> StronglySorted lt l).
Proof.
  induction l as [|x l IH]; intro Hs; [split; [constructor|reflexivity]|].
  inversion Hs as [|? ? Hs' Hf]; subst.
  destruct l as [|y l]; [split; [intros _; constructor; constructor|reflexivity]|].
  change (no_adjacent (x :: y :: l)) with (negb (x =? y) && no_adjacent (y :: l)).
  rewrite andb_true_iff, negb_true_iff, Nat.eqb_neq, (IH Hs').
  inversion Hf as [|? ? Hxy _]; subst. split.
  - intros [Hn Ha]. constructor; auto. inversion Ha as [|? ? Ha' Hfa]; subst.
    constructor; [lia|]. eapply Forall_impl; [|exact Hfa]. cbn. intros; lia.
  - intros Ha. inversion Ha as [|? ? Ha' Hfa]; subst. inversion Hfa; subst. split; [lia|auto].
Qed.

Lemma sorted_le_NoDup l : StronglySorted le l -> NoDup l -> StronglySorted lt l.
Proof.
  induction 1 as [|x l Hs IH Hf]; intro Hn; constructor; inversion Hn; subst; auto.
  rewrite Forall_forall in *. intros y Hy. specialize (Hf y Hy). assert (x <> y) by (intros ->; auto). lia.
Qed.

Lemma sorted_key_map key l : StronglySorted (fun a b : nat => key a <= key b) l -> StronglySorted le (map key l).
Proof.
  induction 1 as [|x l Hs IH Hf]; cbn [map]; constructor; auto. apply Forall_map. exact Hf.
Qed.

Section Ctor.
  Context {V : Type}.
  Implicit Types (m : smat V) (rs : list (list (nat * V))).

  Definition row_good (c : nat) (r : list (nat * V)) : Prop :=
    NoDup (map fst r) /\ forall j, In j (map fst r) -> j < c.

  Lemma map_nth_seq {A} (d : A) l : map (fun k => nth k l d) (seq 0 (length l)) = l.
  Proof.
    apply nth_error_ext_len; rewrite map_length, seq_length; auto.
    intros i Hi. rewrite nth_error_map', nth_error_seq. destruct (Nat.ltb_spec i (length l)); [|lia].
    cbn [option_map]. rewrite Nat.add_0_l. symmetry. apply nth_error_nth_lt. auto.
  Qed.

  Lemma srepr_upd_same m rs i r : srepr m rs -> i < length rs -> length r = length (nth i rs []) ->
    srepr (mkS (rnz m) (map fst (concat (upd rs i r))) (map snd (concat (upd rs i r))) (csize m)) (upd rs i r).
  Proof.
    intros H Hi Hl. split; [left|split; reflexivity]. cbn [rnz]. rewrite (srepr_rnz_pos _ _ _ H Hi).
    apply psum_ext.
    - rewrite psum_length, upd_length; auto.
    - rewrite upd_length by auto. intros k Hk. rewrite nth_error_psum.
      destruct (Nat.leb_spec k (length rs)); [|lia]. f_equal.
      rewrite start_upd by auto. destruct (Nat.leb_spec k i); auto.
      pose proof (start_mono rs (i + 1) k ltac:(lia)) as Hm. rewrite start_S' in Hm by auto. lia.
  Qed.

  Lemma ctor_row_ok srt m rs i : sorts srt -> srepr m rs -> i < length rs ->
    (row_good (csize m) (nth i rs []) /\
     exists m' r, ctor_row srt i m = Ok m' /\ csize m' = csize m /\ srepr m' (upd rs i r) /\
       Permutation r (nth i rs []) /\ ascending (map fst r)) \/
    (~ row_good (csize m) (nth i rs []) /\ ctor_row srt i m = Abort).
  Proof.
    intros Hsrt H Hi. unfold ctor_row.
    rewrite (srepr_vget _ _ _ H Hi), (srepr_vget' _ _ _ H Hi). cbn [bind].
    pose proof (start_S' rs i Hi) as Hst. set (row := nth i rs []) in *.
    destruct (Nat.ltb_spec (start rs (i + 1)) (start rs i)) as [Hx|_]; [lia|].
    rewrite (srepr_vrange_c _ _ _ H Hi), (srepr_vrange_v _ _ _ H Hi). cbn [bind]. fold row.
    replace (start rs (i + 1) - start rs i) with (length row) by lia.
    set (key := fun k => nth k (map fst row) 0).
    destruct (Hsrt key (seq 0 (length row))) as [Hp Hs]. set (org := srt key (seq 0 (length row))) in *.
    assert (Horg : forall k, In k org -> k < length row).
    { intros k Hk. apply (Permutation_in _ Hp) in Hk. apply in_seq in Hk. lia. }
    assert (Hrow : row = [] \/ exists d : nat * V, True) by (clear; destruct row as [|d r0]; eauto).
    destruct Hrow as [Erow|[d _]].
    { (* empty row *)
      assert (org = []) as Eo. { apply Permutation_nil. apply Permutation_sym. rewrite Erow in Hp. exact Hp. }
      rewrite Eo. cbn [mapM bind forallb ASSERT no_adjacent map length].
      left. rewrite Erow. split; [split; [constructor|intros ? []]|].
      assert (Ev : forall A (l : list A) p, p <= length l -> vwrite l p [] = Ok l).
      { intros A l p Hp'. unfold vwrite. cbn [length]. rewrite Nat.add_0_r.
        destruct (Nat.leb_spec p (length l)); [|lia]. cbn [app]. rewrite firstn_skipn. reflexivity. }
      pose proof (start_le rs i) as Hle. destruct H as (Hz & Hc & Hv).
      rewrite !Ev by (rewrite ?Hc, ?Hv, map_length; auto). cbn [bind].
      exists (mkS (rnz m) (cidx m) (vals m) (csize m)), []. split; auto. split; auto.
      rewrite upd_id by (rewrite <- Erow; apply nth_error_nth_lt; auto).
      split; [split; auto|]. split; [constructor|constructor]. }
    set (r := map (fun k => nth k row d) org).
    assert (Hr : Permutation r row).
    { apply Permutation_trans with (map (fun k => nth k row d) (seq 0 (length row))).
      - apply Permutation_map. exact Hp.
      - rewrite map_nth_seq. apply Permutation_refl. }
    assert (Hkey : forall k, In k org -> key k = fst (nth k row d)).
    { intros k Hk. unfold key. rewrite (nth_indep _ 0 (fst d)) by (rewrite map_length; auto). apply map_nth. }
    rewrite (mapM_Ok (vget (map snd row)) (fun k => snd (nth k row d)) org).
    2:{ intros k Hk. rewrite (vget_lt _ k (snd d)) by (rewrite map_length; auto). rewrite map_nth. reflexivity. }
    rewrite (mapM_Ok (vget (map fst row)) (fun k => fst (nth k row d)) org).
    2:{ intros k Hk. rewrite (vget_lt _ k (fst d)) by (rewrite map_length; auto). rewrite map_nth. reflexivity. }
    cbn [bind].
    replace (map (fun k => snd (nth k row d)) org) with (map snd r) by (unfold r; rewrite map_map; auto).
    replace (map (fun k => fst (nth k row d)) org) with (map fst r) by (unfold r; rewrite map_map; auto).
    assert (Hle : StronglySorted le (map fst r)).
    { replace (map fst r) with (map key org); [apply sorted_key_map, Hs|].
      unfold r. rewrite map_map. apply map_ext_in. exact Hkey. }
    pose proof (Permutation_map fst Hr) as Hpf.
    destruct (forallb (fun c => c <? csize m) (map fst r)) eqn:Eb; cbn [ASSERT bind].
    2:{ right. split; auto. intros [_ Hb].
        assert (forallb (fun c => c <? csize m) (map fst r) = true); [|congruence].
        apply forallb_forall. intros j Hj. apply Nat.ltb_lt, Hb. eapply Permutation_in; eauto. }
    destruct (no_adjacent (map fst r)) eqn:Ea; cbn [ASSERT bind].
    2:{ right. split; auto. intros [Hn _].
        assert (no_adjacent (map fst r) = true); [|congruence].
        apply no_adjacent_spec; auto. apply sorted_le_NoDup; auto.
        apply (Permutation_NoDup (Permutation_sym Hpf)), Hn. }
    apply no_adjacent_spec in Ea; auto.
    left. split.
    { split.
      - apply (Permutation_NoDup Hpf). apply ascending_NoDup, Ea.
      - intros j Hj. rewrite forallb_forall in Eb. apply Nat.ltb_lt, Eb.
        eapply Permutation_in; [apply Permutation_sym|]; eauto. }
    assert (Hlr : length r = length row) by (apply Permutation_length, Hr).
    rewrite (srepr_vals _ _ H), (srepr_cidx _ _ H).
    assert (E1 : vwrite (concat (map (map snd) rs)) (start rs i) (map snd r) =
                 Ok (concat (upd (map (map snd) rs) i (map snd r)))).
    { rewrite <- (start_map_map snd rs i). apply vwrite_row; rewrite ?nth_map_map, !map_length; auto. }
    assert (E2 : vwrite (concat (map (map fst) rs)) (start rs i) (map fst r) =
                 Ok (concat (upd (map (map fst) rs) i (map fst r)))).
    { rewrite <- (start_map_map fst rs i). apply vwrite_row; rewrite ?nth_map_map, !map_length; auto. }
    rewrite E1, E2.
    cbn [bind]. exists (mkS (rnz m) (map fst (concat (upd rs i r))) (map snd (concat (upd rs i r))) (csize m)), r.
    rewrite !concat_map, !upd_map.
    split; auto. split; auto. split; [|split; auto].
    rewrite <- !upd_map, <- !concat_map. apply srepr_upd_same; auto.
  Qed.

  Lemma nth_of_error {A} (l1 l2 : list A) a b d : nth_error l1 a = nth_error l2 b -> nth a l1 d = nth b l2 d.
  Proof.
    intro E. destruct (nth_error l2 b) as [x|] eqn:E2.
    - rewrite (nth_error_nth _ _ _ E), (nth_error_nth _ _ _ E2). reflexivity.
    - apply nth_error_None in E, E2. rewrite !nth_overflow by auto. reflexivity.
  Qed.

  Lemma last_nth (l : list nat) d : last l d = nth (length l - 1) l d.
  Proof.
    induction l as [|x l IH]; auto. destruct l as [|y l]; auto.
    change (last (x :: y :: l) d) with (last (y :: l) d). rewrite IH. simpl. rewrite Nat.sub_0_r. reflexivity.
  Qed.

  Lemma ctor_main srt nz idx (vs : list V) c : sorts srt -> nz <> [] ->
    (describes nz idx vs c /\
     exists m, s_ctor srt nz idx vs c = Ok m /\ swf m /\ s_rows m = length nz - 1 /\ csize m = c /\
       forall i j v, stored m i j v <->
         i + 1 < length nz /\ exists k, nth i nz 0 <= k < nth (i + 1) nz 0 /\
           nth_error idx k = Some j /\ nth_error vs k = Some v) \/
    (~ describes nz idx vs c /\ s_ctor srt nz idx vs c = Abort).
  Proof.
    intros Hsrt Hne. unfold s_ctor, describes.
    rewrite (vget_lt nz 0 0) by (destruct nz; [congruence|simpl; lia]). cbn [bind].
    destruct (Nat.eqb_spec (nth 0 nz 0) 0) as [H0|H0]; cbn [ASSERT bind]; [|right; split; [tauto|auto]].
    rewrite (vback_Ok nz 0), <- last_nth by auto. cbn [bind].
    destruct (Nat.eqb_spec (last nz 0) (length idx)) as [Hl|Hl]; cbn [ASSERT bind]; [|right; split; [tauto|auto]].
    destruct (is_sorted nz) eqn:Es; cbn [ASSERT bind].
    2:{ right. split; auto. intros (_ & Hs & _). apply is_sorted_spec in Hs. congruence. }
    destruct (Nat.eqb_spec (length idx) (length vs)) as [Hlv|Hlv]; cbn [ASSERT bind]; [|right; split; [tauto|auto]].
    pose proof (proj1 (is_sorted_spec nz) Es) as Hs.
    destruct nz as [|z nz]; [congruence|]. cbn [nth] in H0. subst z.
    set (l := combine idx vs).
    assert (Hll : length l = length idx) by (unfold l; rewrite combine_length; lia).
    set (rs := cuts 0 nz l).
    assert (Hps : psum 0 rs = 0 :: nz) by (apply cuts_psum; auto; lia).
    assert (Hcc : concat rs = l) by (apply cuts_concat; auto; lia).
    assert (Hlen : length rs = length nz) by apply cuts_length.
    assert (H : srepr (mkS (0 :: nz) idx vs c) rs).
    { split; [left; auto|]. cbn [cidx vals]. rewrite Hcc. unfold l.
      assert (Hcf : forall (a : list nat) (b : list V), length a = length b ->
                map fst (combine a b) = a /\ map snd (combine a b) = b).
      { induction a as [|x a IH]; intros [|y b] E; try discriminate; auto.
        injection E as E. destruct (IH b E) as [E1 E2]. simpl. rewrite E1, E2. auto. }
      destruct (Hcf idx vs Hlv) as [E1 E2]. auto. }
    replace (length (0 :: nz) - 1) with (length rs) by (simpl; lia).
    assert (Hgood : (forall i, i < length rs -> row_good c (nth i rs [])) <->
      (forall i k, i + 1 < length (0 :: nz) -> nth i (0 :: nz) 0 <= k < nth (i + 1) (0 :: nz) 0 -> nth k idx 0 < c) /\
      (forall i k l, i + 1 < length (0 :: nz) -> nth i (0 :: nz) 0 <= k < nth (i + 1) (0 :: nz) 0 ->
         nth i (0 :: nz) 0 <= l < nth (i + 1) (0 :: nz) 0 -> nth k idx 0 = nth l idx 0 -> k = l)).
    { assert (Hrow : forall i, i < length rs -> forall q, q < length (nth i rs []) ->
                nth (start rs i + q) idx 0 = nth q (map fst (nth i rs [])) 0).
      { intros i Hi q Hq. apply nth_of_error.
        change idx with (cidx (mkS (0 :: nz) idx vs c)). rewrite (srepr_cidx_nth _ rs i q H Hi Hq).
        rewrite nth_error_map'. reflexivity. }
      assert (Hnz : forall i, i <= length rs -> nth i (0 :: nz) 0 = start rs i).
      { intros i Hi. rewrite <- Hps. apply nth_error_nth. rewrite nth_error_psum.
        destruct (Nat.leb_spec i (length rs)); [reflexivity|lia]. }
      assert (Hl1 : length (0 :: nz) = length rs + 1) by (simpl; lia). rewrite Hl1.
      split.
      - intros Hg. split.
        + intros i k Hi Hk. rewrite !Hnz in Hk by lia. rewrite start_S' in Hk by lia.
          destruct (Hg i ltac:(lia)) as [_ Hb]. apply Hb.
          replace k with (start rs i + (k - start rs i)) by lia. rewrite Hrow by lia.
          apply nth_In. rewrite map_length. lia.
        + intros i k k' Hi Hk Hk' E. rewrite !Hnz in Hk, Hk' by lia. rewrite start_S' in Hk, Hk' by lia.
          destruct (Hg i ltac:(lia)) as [Hn _].
          replace k with (start rs i + (k - start rs i)) in E by lia.
          replace k' with (start rs i + (k' - start rs i)) in E by lia.
          rewrite !Hrow in E by lia. rewrite NoDup_nth in Hn. apply Hn in E; rewrite ?map_length; lia.
      - intros [Hb Hn] i Hi. split.
        + apply (NoDup_nth _ 0). rewrite map_length. intros k k' Hk Hk' E.
          rewrite <- !Hrow in E by auto. apply (Hn i) in E; rewrite ?Hnz, ?start_S' by lia; lia.
        + intros j Hj. apply (In_nth _ _ 0) in Hj as (q & Hq & <-). rewrite map_length in Hq.
          rewrite <- Hrow by auto. apply (Hb i); rewrite ?Hnz, ?start_S' by lia; lia. }
    destruct (FOR_abort (fun i s => csize s = c /\ exists rs', srepr s rs' /\ length rs' = length rs /\
         forall k, k < length rs -> if k <? i then Permutation (nth k rs' []) (nth k rs []) /\ ascending (map fst (nth k rs' []))
                                    else nth k rs' [] = nth k rs [])
       (fun i => row_good c (nth i rs [])) (length rs) (ctor_row srt) (mkS (0 :: nz) idx vs c))
      as [[Hg (m' & E & Hc & rs' & H' & Hl' & Hn')]|[(i & Hi & Hb) E]].
    - split; auto. exists rs. split; auto. split; auto. intros k _. destruct (Nat.ltb_spec k 0); [lia|reflexivity].
    - intros i s Hi (Hcs & rs' & Hsr & Hl' & Hn').
      destruct (ctor_row_ok srt s rs' i Hsrt Hsr ltac:(lia)) as [[Hg (m' & r & E & Hc & Hr & Hp & Ha)]|[Hb E]].
      + left. specialize (Hn' i Hi) as Hi'. destruct (Nat.ltb_spec i i); [lia|]. rewrite Hi', Hcs in *.
        split; auto. exists m'. split; auto. split; [congruence|]. eexists. split; [exact Hr|].
        rewrite upd_length by lia. split; auto. intros k Hk. rewrite nth_upd by lia.
        destruct (Nat.eqb_spec k i) as [->|Hki].
        * destruct (Nat.ltb_spec i (i + 1)); [|lia]. auto.
        * specialize (Hn' k Hk). destruct (Nat.ltb_spec k i), (Nat.ltb_spec k (i + 1)); try lia; auto.
      + right. specialize (Hn' i Hi). destruct (Nat.ltb_spec i i); [lia|]. rewrite Hn', Hcs in Hb. auto.
    - left. apply Hgood in Hg as Hg'. destruct Hg' as [G1 G2].
      split; [split; [reflexivity|]; auto|].
      assert (Hn : forall k, k < length rs -> Permutation (nth k rs' []) (nth k rs []) /\ ascending (map fst (nth k rs' []))).
      { intros k Hk. specialize (Hn' k Hk). destruct (Nat.ltb_spec k (length rs)); [auto|lia]. }
      exists m'. split; auto. split; [|split; [|split; auto]].
      + exists rs'. split; auto. intros i Hi. rewrite Hl' in Hi. destruct (Hn i Hi) as [Hp Ha]. split; auto.
        intros j Hj. rewrite Hc. apply (Hg i Hi). eapply Permutation_in; [apply Permutation_map, Hp|exact Hj].
      + rewrite (srepr_rows _ _ H'). simpl. lia.
      + intros i j v. rewrite (srepr_stored _ _ _ _ _ H').
        transitivity (stored (mkS (0 :: nz) idx vs c) i j v).
        * rewrite (srepr_stored _ _ _ _ _ H).
          destruct (Nat.lt_ge_cases i (length rs)) as [Hi|Hi]; [|rewrite !nth_overflow by lia; tauto].
          destruct (Hn i Hi) as [Hp _]. split; apply Permutation_in; auto. apply Permutation_sym; auto.
        * unfold stored. cbn [cidx vals rnz]. rewrite (srepr_rows _ _ H).
          replace (i + 1 < length (0 :: nz)) with (i + 1 < S (length nz)) by reflexivity.
          rewrite Hlen. split; intros [Hi Hk]; (split; [lia|auto]).
    - right. split; auto. intros (_ & _ & _ & _ & G1 & G2).
      apply Hb. apply Hgood; auto.
  Qed.
End Ctor.
