(** Refinement of the flat sparse matrix operations to rows of (column, value) pairs. *)
From Verif Require Import Base ListFacts Csr SparseModel SparseSpec.

Lemma vfind_le l v : vfind l v <= length l.
Proof. induction l as [|x l IH]; simpl; [lia|]. destruct (x =? v); simpl; lia. Qed.

Lemma vfind_In l v : In v l -> vfind l v < length l /\ nth_error l (vfind l v) = Some v.
Proof.
  induction l as [|x l IH]; simpl; [tauto|]. destruct (Nat.eqb_spec x v) as [->|Hn].
  - split; [lia|reflexivity].
  - intros [?|Hin]; [congruence|]. destruct (IH Hin). split; [lia|assumption].
Qed.

Lemma vfind_notIn l v : ~ In v l -> vfind l v = length l.
Proof.
  induction l as [|x l IH]; simpl; auto. intro H. destruct (Nat.eqb_spec x v) as [->|Hn].
  - exfalso. auto.
  - rewrite IH; auto.
Qed.

Lemma vfind_lbound l v : ascending l -> In v l -> vfind l v = lbound l v.
Proof.
  induction l as [|x l IH]; simpl; [tauto|]. intros Ha Hin. apply ascending_cons in Ha as [Ha Hf].
  rewrite Forall_forall in Hf.
  destruct (Nat.eqb_spec x v) as [->|Hn].
  - destruct (Nat.ltb_spec v v); [lia|reflexivity].
  - destruct Hin as [?|Hin]; [congruence|]. specialize (Hf _ Hin).
    destruct (Nat.ltb_spec x v); [|lia]. rewrite IH; auto.
Qed.

Lemma eit_eqb_true a b : eit_eqb a b = true <-> a = b.
Proof.
  destruct a as [x y], b as [z w]. unfold eit_eqb. cbn [fst snd].
  rewrite andb_true_iff, !Nat.eqb_eq. split; [intros [-> ->]; auto|intro H; injection H; auto].
Qed.

Lemma eit_eqb_pos i p q : eit_eqb (i, p) (i, q) = (p =? q).
Proof. unfold eit_eqb. cbn [fst snd]. rewrite Nat.eqb_refl. reflexivity. Qed.

Section Facts.
  Context {V : Type}.
  Implicit Types (m : smat V) (rs : list (list (nat * V))) (r : list (nat * V)).

  Lemma psum_map_map {B} (f : nat * V -> B) a rs : psum a (map (map f) rs) = psum a rs.
  Proof.
    revert a; induction rs as [|x rs IH]; intro a; cbn [map psum]; auto.
    rewrite map_length, IH. reflexivity.
  Qed.

  Lemma start_map_map {B} (f : nat * V -> B) rs i : start (map (map f) rs) i = start rs i.
  Proof.
    unfold start. rewrite firstn_map, <- concat_map, map_length. reflexivity.
  Qed.

  Lemma nth_map_map {B} (f : nat * V -> B) rs i : nth i (map (map f) rs) [] = map f (nth i rs []).
  Proof. change (@nil B) with (map f []). apply map_nth. Qed.

  Lemma upd_map {A B} (f : A -> B) l i x : map f (upd l i x) = upd (map f l) i (f x).
  Proof. unfold upd. rewrite map_app. cbn [map]. rewrite firstn_map, skipn_map. reflexivity. Qed.

  Lemma srepr_rows m rs : srepr m rs -> s_rows m = length rs.
  Proof.
    intros ([H|[H ->]] & _); unfold s_rows; [|rewrite H; reflexivity].
    pose proof (psum_length 0 rs) as Hl. rewrite <- H in Hl.
    destruct (rnz m); [discriminate|]. rewrite Hl. lia.
  Qed.

  Lemma srepr_rnz_pos m rs i : srepr m rs -> i < length rs -> rnz m = psum 0 rs.
  Proof. intros ([H|[H ->]] & _) Hi; auto. simpl in Hi. lia. Qed.

  Lemma srepr_rnz_length m rs : srepr m rs -> rs <> [] -> length (rnz m) = S (length rs).
  Proof. intros ([H|[H ->]] & _) Hn; [rewrite H; apply psum_length|congruence]. Qed.

  Lemma srepr_vget m rs i : srepr m rs -> i < length rs -> vget (rnz m) i = Ok (start rs i).
  Proof. intros H Hi. rewrite (srepr_rnz_pos _ _ _ H Hi). apply vget_psum. lia. Qed.

  Lemma srepr_vget' m rs i : srepr m rs -> i < length rs -> vget (rnz m) (i + 1) = Ok (start rs (i + 1)).
  Proof. intros H Hi. rewrite (srepr_rnz_pos _ _ _ H Hi). apply vget_psum. lia. Qed.

  Lemma srepr_nth m rs i k : srepr m rs -> i < length rs -> k <= length rs -> nth k (rnz m) 0 = start rs k.
  Proof.
    intros H Hi Hk. rewrite (srepr_rnz_pos _ _ _ H Hi). apply nth_error_nth. rewrite nth_error_psum.
    destruct (Nat.leb_spec k (length rs)); [reflexivity|lia].
  Qed.

  Lemma srepr_cidx m rs : srepr m rs -> cidx m = concat (map (map fst) rs).
  Proof. intros (_ & H & _). rewrite H. apply concat_map. Qed.

  Lemma srepr_vals m rs : srepr m rs -> vals m = concat (map (map snd) rs).
  Proof. intros (_ & _ & H). rewrite H. apply concat_map. Qed.

  Lemma srepr_vrange_c m rs i : srepr m rs -> i < length rs ->
    vrange (cidx m) (start rs i) (start rs (i + 1)) = Ok (map fst (nth i rs [])).
  Proof.
    intros H Hi. rewrite (srepr_cidx _ _ H), <- !(start_map_map fst rs).
    rewrite vrange_row by (rewrite map_length; auto). rewrite nth_map_map. reflexivity.
  Qed.

  Lemma srepr_vrange_v m rs i : srepr m rs -> i < length rs ->
    vrange (vals m) (start rs i) (start rs (i + 1)) = Ok (map snd (nth i rs [])).
  Proof.
    intros H Hi. rewrite (srepr_vals _ _ H), <- !(start_map_map snd rs).
    rewrite vrange_row by (rewrite map_length; auto). rewrite nth_map_map. reflexivity.
  Qed.

  Lemma concat_nth_error {A} (rs : list (list A)) i k : i < length rs -> k < length (nth i rs []) ->
    nth_error (concat rs) (start rs i + k) = nth_error (nth i rs []) k.
  Proof.
    intros Hi Hk. pose proof (slice_row rs i Hi) as Hs. unfold slice in Hs.
    transitivity (nth_error (firstn (start rs (S i) - start rs i) (skipn (start rs i) (concat rs))) k);
      [|rewrite Hs; reflexivity].
    rewrite nth_error_firstn, nth_error_skipn, start_S by auto.
    destruct (Nat.ltb_spec k (start rs i + length (nth i rs []) - start rs i)); [reflexivity|lia].
  Qed.

  Lemma srepr_cidx_nth m rs i k : srepr m rs -> i < length rs -> k < length (nth i rs []) ->
    nth_error (cidx m) (start rs i + k) = option_map fst (nth_error (nth i rs []) k).
  Proof.
    intros (_ & H & _) Hi Hk. rewrite H, nth_error_map', concat_nth_error by auto. reflexivity.
  Qed.

  Lemma srepr_vals_nth m rs i k : srepr m rs -> i < length rs -> k < length (nth i rs []) ->
    nth_error (vals m) (start rs i + k) = option_map snd (nth_error (nth i rs []) k).
  Proof.
    intros (_ & _ & H) Hi Hk. rewrite H, nth_error_map', concat_nth_error by auto. reflexivity.
  Qed.

  Lemma In_nth_rows rs i (x : nat * V) : In x (nth i rs []) -> i < length rs.
  Proof.
    intro H. destruct (Nat.lt_ge_cases i (length rs)); auto. rewrite nth_overflow in H by auto.
    destruct H.
  Qed.

  Lemma srepr_stored m rs i j v : srepr m rs -> (stored m i j v <-> In (j, v) (nth i rs [])).
  Proof.
    intro H. unfold stored. rewrite (srepr_rows _ _ H). split.
    - intros (Hi & k & Hk & Hc & Hv).
      rewrite !(srepr_nth m rs i) in Hk by (auto; lia). rewrite start_S' in Hk by auto.
      replace k with (start rs i + (k - start rs i)) in Hc, Hv by lia.
      rewrite (srepr_cidx_nth m rs) in Hc by (auto; lia).
      rewrite (srepr_vals_nth m rs) in Hv by (auto; lia).
      destruct (nth_error (nth i rs []) (k - start rs i)) as [[a b]|] eqn:E; [|discriminate].
      simpl in Hc, Hv. injection Hc as ->. injection Hv as ->. eapply nth_error_In; eauto.
    - intro Hin. pose proof (In_nth_rows _ _ _ Hin) as Hi. split; auto.
      apply In_nth_error in Hin as [k Hk]. pose proof (nth_error_lt_Some _ _ _ Hk) as Hlt.
      exists (start rs i + k). rewrite !(srepr_nth m rs i) by (auto; lia).
      rewrite start_S' by auto. split; [lia|].
      rewrite (srepr_cidx_nth m rs), (srepr_vals_nth m rs), Hk by auto. auto.
  Qed.

  Lemma row_unique r j v w : ascending (map fst r) -> In (j, v) r -> In (j, w) r -> v = w.
  Proof.
    intros Ha H1 H2. apply ascending_NoDup in Ha.
    apply In_nth_error in H1 as [k Hk], H2 as [l Hl].
    assert (k = l).
    { eapply NoDup_nth_error in Ha; [exact Ha| |].
      - rewrite map_length. eapply nth_error_lt_Some; eauto.
      - rewrite !nth_error_map', Hk, Hl. reflexivity. }
    congruence.
  Qed.

  Lemma stored_unique m i j v w : swf m -> stored m i j v -> stored m i j w -> v = w.
  Proof.
    intros (rs & H & Hok). rewrite !(srepr_stored _ _ _ _ _ H). intros H1 H2.
    pose proof (In_nth_rows _ _ _ H1) as Hi. destruct (Hok i Hi) as [Ha _].
    eapply row_unique; eauto.
  Qed.

  Lemma stored_bounds m i j v : swf m -> stored m i j v -> i < s_rows m /\ j < csize m.
  Proof.
    intros (rs & H & Hok) Hs. split; [apply Hs|]. apply (srepr_stored _ _ _ _ _ H) in Hs.
    pose proof (In_nth_rows _ _ _ Hs) as Hi. destruct (Hok i Hi) as [_ Hb].
    apply Hb. apply (in_map fst) in Hs. exact Hs.
  Qed.

  Lemma in_map_fst_ex r j : In j (map fst r) <-> exists v : V, In (j, v) r.
  Proof.
    rewrite in_map_iff. split.
    - intros ((a & v) & <- & H). exists v. exact H.
    - intros (v & H). exists (j, v). auto.
  Qed.

  (* ---------------------------------------------------------------- reading *)
  Variables (stray : option nat).

  Lemma row_end_ok m rs i : srepr m rs -> i < length rs -> row_end stray m i = Ok (i, start rs (i + 1)).
  Proof.
    intros H Hi. unfold row_end. rewrite (srepr_rnz_length _ _ H) by (intros ->; simpl in Hi; lia).
    destruct (Nat.ltb_spec (i + 1) (S (length rs))); [|lia].
    rewrite (srepr_vget' _ _ _ H Hi). reflexivity.
  Qed.

  Lemma row_end_past m rs : srepr m rs ->
    row_end stray m (s_rows m) = match stray with Some x => Ok (length rs, x) | None => Undef end.
  Proof.
    intros H. rewrite (srepr_rows _ _ H). unfold row_end.
    assert (Hl : length (rnz m) <= length rs + 1).
    { destruct H as ([H|[H ->]] & _); rewrite H, ?psum_length; simpl; lia. }
    destruct (Nat.ltb_spec (length rs + 1) (length (rnz m))); [lia|]. reflexivity.
  Qed.

  Lemma row_begin_ok m rs i : srepr m rs -> i < length rs -> row_begin m i = Ok (i, start rs i).
  Proof. intros H Hi. unfold row_begin. rewrite (srepr_vget _ _ _ H Hi). reflexivity. Qed.

  Lemma combine_map_fst_snd (r : list (nat * V)) : combine (map fst r) (map snd r) = r.
  Proof. induction r as [|[a b] r IH]; simpl; congruence. Qed.

  Lemma row_entries_ok m rs i : srepr m rs -> i < length rs -> row_entries stray m i = Ok (nth i rs []).
  Proof.
    intros H Hi. unfold row_entries. rewrite (row_begin_ok _ _ _ H Hi), (row_end_ok _ _ _ H Hi).
    cbn [bind fst snd]. rewrite (srepr_vrange_c _ _ _ H Hi), (srepr_vrange_v _ _ _ H Hi).
    cbn [bind]. rewrite combine_map_fst_snd. reflexivity.
  Qed.

  Lemma s_find_ok m rs i j : srepr m rs -> i < length rs ->
    s_find stray m i j = Ok (i, start rs i + vfind (map fst (nth i rs [])) j).
  Proof.
    intros H Hi. unfold s_find. rewrite (srepr_rows _ _ H).
    destruct (Nat.ltb_spec i (length rs)); [|lia].
    rewrite (srepr_vget _ _ _ H Hi), (srepr_vget' _ _ _ H Hi). cbn [bind].
    rewrite (srepr_vrange_c _ _ _ H Hi). reflexivity.
  Qed.

  Lemma s_find_past m rs i j : srepr m rs -> length rs <= i ->
    s_find stray m i j = match stray with Some x => Ok (length rs, x) | None => Undef end.
  Proof.
    intros H Hi. unfold s_find. rewrite <- (row_end_past m rs H). rewrite (srepr_rows _ _ H).
    destruct (Nat.ltb_spec i (length rs)); [lia|]. reflexivity.
  Qed.

  Lemma s_lower_bound_ok m rs i j : srepr m rs -> i < length rs ->
    s_lower_bound stray m i j = Ok (i, start rs i + lbound (map fst (nth i rs [])) j).
  Proof.
    intros H Hi. unfold s_lower_bound. rewrite (srepr_rows _ _ H).
    destruct (Nat.ltb_spec i (length rs)); [|lia].
    rewrite (srepr_vget _ _ _ H Hi), (srepr_vget' _ _ _ H Hi). cbn [bind].
    rewrite (srepr_vrange_c _ _ _ H Hi). reflexivity.
  Qed.

  Lemma s_lower_bound_past m rs i j : srepr m rs -> length rs <= i ->
    s_lower_bound stray m i j = match stray with Some x => Ok (length rs, x) | None => Undef end.
  Proof.
    intros H Hi. unfold s_lower_bound. rewrite <- (row_end_past m rs H). rewrite (srepr_rows _ _ H).
    destruct (Nat.ltb_spec i (length rs)); [lia|]. reflexivity.
  Qed.

  Lemma s_contains_ok m rs i j : srepr m rs -> i < length rs ->
    exists b, s_contains stray m i j = Ok b /\ (b = true <-> In j (map fst (nth i rs []))).
  Proof.
    intros H Hi. unfold s_contains. rewrite (s_find_ok _ _ _ _ H Hi). cbn [bind fst].
    rewrite Nat.eqb_refl, (row_end_ok _ _ _ H Hi). cbn [bind].
    eexists. split; [reflexivity|]. rewrite eit_eqb_pos, start_S' by auto.
    rewrite <- (map_length fst). destruct (in_dec Nat.eq_dec j (map fst (nth i rs []))) as [Hin|Hn].
    - destruct (vfind_In _ _ Hin) as [Hlt _].
      split; auto. intros _. apply negb_true_iff, Nat.eqb_neq. lia.
    - rewrite (vfind_notIn _ _ Hn), Nat.eqb_refl. simpl. split; [discriminate|tauto].
  Qed.

  Lemma s_contains_past m rs i j x : srepr m rs -> length rs <= i -> stray = Some x ->
    s_contains stray m i j = Ok false.
  Proof.
    intros H Hi Hs. unfold s_contains. rewrite (s_find_past _ _ _ _ H Hi), Hs. cbn [bind fst].
    destruct (Nat.eqb_spec (length rs) i) as [<-|Hn]; auto.
    pose proof (row_end_past m rs H) as He. rewrite (srepr_rows _ _ H), Hs in He. rewrite He.
    cbn [bind]. rewrite eit_eqb_pos, Nat.eqb_refl. reflexivity.
  Qed.
End Facts.
