(** General facts about the list operations of [Base]. *)
From Verif Require Import Base.

(* ---------------------------------------------------------------------- nth_error *)
Lemma nth_error_ext {A} (l1 l2 : list A) :
  (forall i, nth_error l1 i = nth_error l2 i) -> l1 = l2.
Proof.
  revert l2; induction l1 as [|x l1 IH]; intros [|y l2] H; auto.
  - specialize (H 0); discriminate.
  - specialize (H 0); discriminate.
  - f_equal.
    + specialize (H 0); simpl in H; congruence.
    + apply IH; intro i; exact (H (S i)).
Qed.

Lemma nth_error_ext_len {A} (l1 l2 : list A) :
  length l1 = length l2 ->
  (forall i, i < length l1 -> nth_error l1 i = nth_error l2 i) -> l1 = l2.
Proof.
  intros Hl H; apply nth_error_ext; intro i.
  destruct (Nat.lt_ge_cases i (length l1)) as [Hi|Hi].
  - auto.
  - transitivity (@None A); [|symmetry]; apply nth_error_None; lia.
Qed.

Lemma nth_error_lt_Some {A} (l : list A) i x : nth_error l i = Some x -> i < length l.
Proof. intro H; apply nth_error_Some; congruence. Qed.

Lemma nth_error_nth_lt {A} (l : list A) i d : i < length l -> nth_error l i = Some (nth i l d).
Proof. intro H; apply nth_error_nth'; assumption. Qed.

Lemma nth_error_firstn {A} (l : list A) n i :
  nth_error (firstn n l) i = if i <? n then nth_error l i else None.
Proof.
  revert n i; induction l as [|x l IH]; intros [|n] [|i]; simpl; auto.
  - destruct (_ <? _); reflexivity.
  - rewrite IH. reflexivity.
Qed.

Lemma nth_error_skipn {A} (l : list A) n i :
  nth_error (skipn n l) i = nth_error l (n + i).
Proof.
  revert n; induction l as [|x l IH]; intros [|n]; simpl; auto.
  destruct i; reflexivity.
Qed.

Lemma nth_error_app {A} (l1 l2 : list A) i :
  nth_error (l1 ++ l2) i = if i <? length l1 then nth_error l1 i else nth_error l2 (i - length l1).
Proof.
  destruct (Nat.ltb_spec i (length l1)) as [H|H].
  - apply nth_error_app1; lia.
  - apply nth_error_app2; lia.
Qed.

Lemma nth_error_map' {A B} (f : A -> B) l i :
  nth_error (map f l) i = option_map f (nth_error l i).
Proof. apply nth_error_map. Qed.

Lemma nth_error_seq a n i :
  nth_error (seq a n) i = if i <? n then Some (a + i) else None.
Proof.
  revert a i; induction n as [|n IH]; intros a i; cbn [seq].
  - destruct i; reflexivity.
  - destruct i as [|i]; cbn [nth_error].
    + rewrite Nat.add_0_r. reflexivity.
    + rewrite IH. destruct (Nat.ltb_spec i n), (Nat.ltb_spec (S i) (S n)); try lia; auto.
      f_equal; lia.
Qed.

Lemma nth_error_repeat' {A} (x : A) n i :
  nth_error (repeat x n) i = if i <? n then Some x else None.
Proof.
  revert i; induction n as [|n IH]; intros [|i]; simpl; auto.
  rewrite IH. reflexivity.
Qed.

Lemma nth_error_None_ge {A} (l : list A) i : length l <= i -> nth_error l i = None.
Proof. apply nth_error_None. Qed.

(* ---------------------------------------------------------------------- upd *)
Lemma upd_length {A} (l : list A) i x : i < length l -> length (upd l i x) = length l.
Proof.
  intro H; unfold upd; rewrite app_length, firstn_length; cbn [length]; rewrite skipn_length; lia.
Qed.

Lemma nth_error_upd {A} (l : list A) i x j :
  i < length l ->
  nth_error (upd l i x) j = if j =? i then Some x else nth_error l j.
Proof.
  intro H; unfold upd; rewrite nth_error_app, firstn_length, nth_error_firstn.
  rewrite Nat.min_l by lia.
  destruct (Nat.ltb_spec j i), (Nat.eqb_spec j i); try lia; auto.
  - subst. rewrite Nat.sub_diag. reflexivity.
  - destruct (j - i) as [|k] eqn:E; [lia|]. cbn [nth_error].
    rewrite nth_error_skipn. f_equal; lia.
Qed.

Lemma nth_upd {A} (l : list A) i x j d :
  i < length l -> nth j (upd l i x) d = if j =? i then x else nth j l d.
Proof.
  intro H.
  pose proof (nth_error_upd l i x j H) as E.
  destruct (Nat.eqb_spec j i) as [->|N].
  - apply nth_error_nth; exact E.
  - destruct (nth_error l j) eqn:F.
    + rewrite (nth_error_nth _ _ d E), (nth_error_nth _ _ d F); reflexivity.
    + apply nth_error_None in F.
      rewrite !nth_overflow; auto. rewrite upd_length; auto.
Qed.

Lemma upd_split {A} (l1 l2 : list A) x y : upd (l1 ++ x :: l2) (length l1) y = l1 ++ y :: l2.
Proof. induction l1 as [|a l1 IH]; unfold upd in *; simpl in *; congruence. Qed.

Lemma upd_id {A} (l : list A) i x : nth_error l i = Some x -> upd l i x = l.
Proof.
  intro H. assert (Hi := nth_error_lt_Some _ _ _ H).
  apply nth_error_ext; intro j; rewrite nth_error_upd by auto.
  destruct (Nat.eqb_spec j i); subst; auto.
Qed.

Lemma vget_Ok {A} (l : list A) i x : vget l i = Ok x <-> nth_error l i = Some x.
Proof.
  unfold vget. destruct (nth_error l i); split; intro H; try congruence.
Qed.

Lemma vget_lt {A} (l : list A) i d : i < length l -> vget l i = Ok (nth i l d).
Proof. intro H. apply vget_Ok, nth_error_nth_lt, H. Qed.

Lemma vset_lt {A} (l : list A) i x : i < length l -> vset l i x = Ok (upd l i x).
Proof.
  intro H. unfold vset. destruct (Nat.ltb_spec i (length l)); [reflexivity|lia].
Qed.

Lemma vset_ge {A} (l : list A) i x : length l <= i -> vset l i x = Undef.
Proof.
  intro H. unfold vset. destruct (Nat.ltb_spec i (length l)); [lia|reflexivity].
Qed.

Lemma vget_ge {A} (l : list A) i : length l <= i -> vget l i = Undef.
Proof. intro H. unfold vget. rewrite nth_error_None_ge; auto. Qed.

(* ---------------------------------------------------------------------- insertion *)
Lemma list_insert_length {A} (l : list A) k x : length (list_insert l k x) = S (length l).
Proof.
  unfold list_insert. rewrite app_length, firstn_length; simpl; rewrite skipn_length; lia.
Qed.

Lemma In_list_insert {A} (l : list A) k x y : In y (list_insert l k x) <-> y = x \/ In y l.
Proof.
  unfold list_insert. rewrite in_app_iff; simpl.
  rewrite <- (firstn_skipn k l) at 3. rewrite in_app_iff. intuition auto.
Qed.

Lemma list_insert_perm {A} (l : list A) k x : Permutation (x :: l) (list_insert l k x).
Proof.
  unfold list_insert. rewrite <- (firstn_skipn k l) at 1.
  apply Permutation_middle.
Qed.

(* ---------------------------------------------------------------------- lower bound *)
Lemma lbound_le l v : lbound l v <= length l.
Proof. induction l as [|x l IH]; simpl; [lia|]. destruct (x <? v); simpl; lia. Qed.

Lemma ubound_le l v : ubound l v <= length l.
Proof. induction l as [|x l IH]; simpl; [lia|]. destruct (x <=? v); simpl; lia. Qed.

Definition ascending (l : list nat) : Prop := StronglySorted lt l.

Lemma ascending_nil : ascending [].
Proof. constructor. Qed.

Lemma ascending_cons x l : ascending (x :: l) <-> ascending l /\ Forall (lt x) l.
Proof.
  split; intro H.
  - inversion H; subst; auto.
  - destruct H; constructor; auto.
Qed.

Lemma ascending_app l1 l2 :
  ascending (l1 ++ l2) <->
  ascending l1 /\ ascending l2 /\ (forall x y, In x l1 -> In y l2 -> x < y).
Proof.
  induction l1 as [|a l1 IH]; simpl.
  - split; intro H; [repeat split; auto using ascending_nil|]; try tauto.
  - rewrite !ascending_cons, IH, !Forall_forall. split.
    + intros [(H1 & H2 & H3) H4]. repeat split; auto.
      * intros x Hx. apply H4, in_app_iff; auto.
      * intros x y [->|Hx] Hy; auto. apply H4, in_app_iff; auto.
    + intros ([H1 H4] & H2 & H3). repeat split; auto.
      intros x Hx. apply in_app_iff in Hx as [Hx|Hx]; auto.
Qed.

Lemma ascending_NoDup l : ascending l -> NoDup l.
Proof.
  induction l as [|x l IH]; intro H; constructor.
  - apply ascending_cons in H as [_ H]. rewrite Forall_forall in H.
    intro Hx. specialize (H _ Hx). lia.
  - apply IH. apply ascending_cons in H. tauto.
Qed.

Lemma lbound_firstn l v x : In x (firstn (lbound l v) l) -> x < v.
Proof.
  induction l as [|a l IH]; simpl; [tauto|].
  destruct (Nat.ltb_spec a v); simpl; [|tauto].
  intros [->|Hx]; auto.
Qed.

Lemma lbound_skipn l v x : ascending l -> In x (skipn (lbound l v) l) -> v <= x.
Proof.
  induction l as [|a l IH]; simpl; [tauto|]. intros Ha.
  apply ascending_cons in Ha as [Ha Hf]. rewrite Forall_forall in Hf.
  destruct (Nat.ltb_spec a v) as [|Hav]; simpl; [auto|].
  intros [->|Hx]; auto. specialize (Hf _ Hx). lia.
Qed.

Lemma lbound_nth l v : ascending l ->
  (nth_error l (lbound l v) = Some v <-> In v l).
Proof.
  intro Ha. split; intro H.
  - eapply nth_error_In; eauto.
  - induction l as [|a l IH]; simpl in *; [tauto|].
    apply ascending_cons in Ha as [Ha Hf]. rewrite Forall_forall in Hf.
    destruct (Nat.ltb_spec a v) as [Hav|Hav]; simpl.
    + apply IH; auto. destruct H; [lia|auto].
    + destruct H as [->|H]; auto. specialize (Hf _ H). lia.
Qed.

Lemma ubound_firstn l v x : In x (firstn (ubound l v) l) -> x <= v.
Proof.
  induction l as [|a l IH]; simpl; [tauto|].
  destruct (Nat.leb_spec a v); simpl; [|tauto].
  intros [->|Hx]; auto.
Qed.

Lemma ubound_skipn l v x : ascending l -> In x (skipn (ubound l v) l) -> v < x.
Proof.
  induction l as [|a l IH]; simpl; [tauto|]. intros Ha.
  apply ascending_cons in Ha as [Ha Hf]. rewrite Forall_forall in Hf.
  destruct (Nat.leb_spec a v) as [|Hav]; simpl; [auto|].
  intros [->|Hx]; auto. specialize (Hf _ Hx). lia.
Qed.

Lemma lbound_insert_ascending l v :
  ascending l -> ~ In v l -> ascending (list_insert l (lbound l v) v).
Proof.
  intros Ha Hn. unfold list_insert.
  rewrite <- (firstn_skipn (lbound l v) l) in Ha.
  pose proof Ha as Ha'. apply ascending_app in Ha as (H1 & H2 & H3).
  apply ascending_app. repeat split; auto.
  - apply ascending_cons. split; auto. apply Forall_forall. intros x Hx.
    assert (v <= x).
    { rewrite firstn_skipn in Ha'. eapply lbound_skipn; eauto. }
    assert (In x l) by (rewrite <- (firstn_skipn (lbound l v) l); apply in_app_iff; auto).
    assert (x <> v) by congruence. lia.
  - intros x y Hx [<-|Hy]; auto. eapply lbound_firstn; eauto.
Qed.

(** On an ascending list the elements below [v] are exactly a prefix. *)
Lemma firstn_lbound_filter l v :
  ascending l -> firstn (lbound l v) l = filter (fun x => x <? v) l.
Proof.
  induction l as [|a l IH]; simpl; auto. intro Ha.
  apply ascending_cons in Ha as [Ha Hf]. rewrite Forall_forall in Hf.
  destruct (Nat.ltb_spec a v) as [Hav|Hav]; simpl.
  - f_equal; auto.
  - symmetry. clear IH Ha. induction l as [|b l IHl]; simpl; auto.
    destruct (Nat.ltb_spec b v).
    + assert (a < b) by (apply Hf; simpl; auto). lia.
    + apply IHl. intros x Hx. apply Hf. simpl; auto.
Qed.

Lemma firstn_ubound_filter l v :
  ascending l -> firstn (ubound l v) l = filter (fun x => x <=? v) l.
Proof.
  induction l as [|a l IH]; simpl; auto. intro Ha.
  apply ascending_cons in Ha as [Ha Hf]. rewrite Forall_forall in Hf.
  destruct (Nat.leb_spec a v) as [Hav|Hav]; simpl.
  - f_equal; auto.
  - symmetry. clear IH Ha. induction l as [|b l IHl]; simpl; auto.
    destruct (Nat.leb_spec b v).
    + assert (a < b) by (apply Hf; simpl; auto). lia.
    + apply IHl. intros x Hx. apply Hf. simpl; auto.
Qed.

Lemma ascending_filter p l : ascending l -> ascending (filter p l).
Proof.
  induction l as [|a l IH]; simpl; auto. intro H.
  apply ascending_cons in H as [H Hf]. destruct (p a); auto.
  apply ascending_cons; split; auto. rewrite Forall_forall in *.
  intros x Hx. apply filter_In in Hx. apply Hf; tauto.
Qed.

Lemma ascending_map f l :
  (forall x y, In x l -> In y l -> x < y -> f x < f y) -> ascending l -> ascending (map f l).
Proof.
  induction l as [|a l IH]; simpl; intros Hf Ha; auto using ascending_nil.
  apply ascending_cons in Ha as [Ha Hl]. rewrite Forall_forall in Hl.
  apply ascending_cons; split.
  - apply IH; auto.
  - apply Forall_forall. intros y Hy. apply in_map_iff in Hy as (x & <- & Hx).
    apply Hf; auto.
Qed.

Lemma ascending_seq a n : ascending (seq a n).
Proof.
  revert a; induction n as [|n IH]; intro a; simpl; [apply ascending_nil|].
  apply ascending_cons; split; auto.
  apply Forall_forall. intros x Hx. apply in_seq in Hx. lia.
Qed.

(** Two ascending lists with the same members are equal. *)
Lemma ascending_ext l1 l2 :
  ascending l1 -> ascending l2 -> (forall x, In x l1 <-> In x l2) -> l1 = l2.
Proof.
  revert l2; induction l1 as [|a l1 IH]; intros [|b l2] H1 H2 He; auto.
  - specialize (He b); simpl in He; tauto.
  - specialize (He a); simpl in He; tauto.
  - apply ascending_cons in H1 as [H1 F1]. apply ascending_cons in H2 as [H2 F2].
    rewrite Forall_forall in F1, F2.
    assert (a = b).
    { pose proof (proj1 (He a)) as Ea. pose proof (proj2 (He b)) as Eb. simpl in Ea, Eb.
      destruct (Ea (or_introl eq_refl)) as [->|Hab]; auto.
      destruct (Eb (or_introl eq_refl)) as [->|Hba]; auto.
      specialize (F1 _ Hba). specialize (F2 _ Hab). lia. }
    subst b. f_equal. apply IH; auto.
    intro x. split; intro Hx.
    + pose proof (proj1 (He x) (or_intror Hx)) as [->|]; auto.
      specialize (F1 _ Hx). lia.
    + pose proof (proj2 (He x) (or_intror Hx)) as [->|]; auto.
      specialize (F2 _ Hx). lia.
Qed.

(* ---------------------------------------------------------------------- sort *)
Lemma sort_insert_perm x l : Permutation (x :: l) (sort_insert x l).
Proof.
  induction l as [|y l IH]; simpl; auto.
  destruct (x <=? y); auto.
  eapply perm_trans; [apply perm_swap|]. constructor; exact IH.
Qed.

Lemma sort_nat_perm l : Permutation l (sort_nat l).
Proof.
  induction l as [|x l IH]; simpl; auto.
  eapply perm_trans; [|apply sort_insert_perm]. constructor; exact IH.
Qed.

Lemma sort_insert_sorted x l : StronglySorted le l -> StronglySorted le (sort_insert x l).
Proof.
  induction l as [|y l IH]; simpl; intro H.
  - repeat constructor.
  - inversion H as [|? ? Hs Hf]; subst. rewrite Forall_forall in Hf.
    destruct (Nat.leb_spec x y) as [Hxy|Hxy].
    + constructor; auto. constructor; auto.
      apply Forall_forall. intros z Hz. specialize (Hf _ Hz). lia.
    + constructor; auto. apply Forall_forall. intros z Hz.
      apply (Permutation_in _ (Permutation_sym (sort_insert_perm x l))) in Hz.
      destruct Hz as [->|Hz]; [lia|auto].
Qed.

Lemma sort_nat_sorted l : StronglySorted le (sort_nat l).
Proof. induction l; simpl; [constructor|apply sort_insert_sorted; auto]. Qed.

Lemma sort_nat_ascending l : NoDup l -> ascending (sort_nat l).
Proof.
  intro Hn. pose proof (sort_nat_sorted l) as Hs.
  assert (Hd : NoDup (sort_nat l)) by (eapply Permutation_NoDup; [apply sort_nat_perm|auto]).
  induction Hs as [|x m Hm IH Hf]; [constructor|].
  inversion Hd as [|? ? Hx Hd']; subst. constructor; [apply IH; auto|].
  apply Forall_forall. rewrite Forall_forall in Hf. intros y Hy. specialize (Hf _ Hy).
  assert (x <> y) by congruence. lia.
Qed.

Lemma In_sort_nat x l : In x (sort_nat l) <-> In x l.
Proof.
  split; apply Permutation_in; [apply Permutation_sym|]; apply sort_nat_perm.
Qed.

Lemma sort_nat_length l : length (sort_nat l) = length l.
Proof. symmetry. apply Permutation_length, sort_nat_perm. Qed.

(* ---------------------------------------------------------------------- loops *)
Lemma forM_app {A S} (l1 l2 : list A) (f : A -> S -> res S) s :
  forM (l1 ++ l2) f s = do s' <- forM l1 f s; forM l2 f s'.
Proof.
  revert s; induction l1 as [|a l1 IH]; intro s; simpl; auto.
  destruct (f a s); simpl; auto.
Qed.

Lemma bind_Ok {A B} (m : res A) (k : A -> res B) b :
  bind m k = Ok b <-> exists a, m = Ok a /\ k a = Ok b.
Proof.
  destruct m; simpl; split; intro H; try discriminate; eauto;
    destruct H as (? & E & ?); try discriminate. congruence.
Qed.

(** Invariant rule for FOR. *)
Lemma FOR_inv {S} (P : nat -> S -> Prop) n (f : nat -> S -> res S) s :
  P 0 s ->
  (forall i s, i < n -> P i s -> exists s', f i s = Ok s' /\ P (i + 1) s') ->
  exists s', FOR n f s = Ok s' /\ P n s'.
Proof.
  intros H0 Hstep. unfold FOR.
  assert (G : forall m a s, a + m = n -> P a s ->
            exists s', forM (seq a m) f s = Ok s' /\ P n s').
  { induction m as [|m IH]; intros a t Ha Ht; simpl.
    - exists t. split; auto. replace n with a by lia. exact Ht.
    - destruct (Hstep a t) as (t' & E & Ht'); [lia|auto|].
      rewrite E. simpl. apply IH; [lia|]. replace (Datatypes.S a) with (a + 1) by lia. exact Ht'. }
  apply G; auto.
Qed.

Lemma FOR_ext {S} n (f g : nat -> S -> res S) s :
  (forall i s, i < n -> f i s = g i s) -> FOR n f s = FOR n g s.
Proof.
  intro H. unfold FOR.
  assert (G : forall l s, (forall i, In i l -> i < n) -> forM l f s = forM l g s).
  { induction l as [|i l IH]; intros t Hl; simpl; auto.
    rewrite H by (apply Hl; simpl; auto).
    destruct (g i t); simpl; auto. apply IH. intros j Hj. apply Hl. simpl; auto. }
  apply G. intros i Hi. apply in_seq in Hi. lia.
Qed.

Lemma FOR_S {S} n (f : nat -> S -> res S) s :
  FOR (n + 1) f s = do s' <- FOR n f s; f n s'.
Proof.
  unfold FOR. replace (n + 1) with (Datatypes.S n) by lia.
  rewrite seq_S, forM_app. simpl.
  destruct (forM (seq 0 n) f s); simpl; auto. destruct (f n a); auto.
Qed.

Lemma forM_inv {A S} (P : list A -> S -> Prop) (l : list A) (f : A -> S -> res S) s :
  P [] s ->
  (forall l1 a l2 s, l = l1 ++ a :: l2 -> P l1 s -> exists s', f a s = Ok s' /\ P (l1 ++ [a]) s') ->
  exists s', forM l f s = Ok s' /\ P l s'.
Proof.
  intros H0 Hstep.
  assert (G : forall l2 l1 s, l = l1 ++ l2 -> P l1 s -> exists s', forM l2 f s = Ok s' /\ P l s').
  { induction l2 as [|a l2 IH]; intros l1 t E Ht; simpl.
    - exists t. split; auto. rewrite app_nil_r in E. subst; auto.
    - destruct (Hstep l1 a l2 t E Ht) as (t' & Et & Ht'). rewrite Et. simpl.
      apply (IH (l1 ++ [a])); auto. rewrite <- app_assoc. exact E. }
  apply (G l []); auto.
Qed.

Lemma mapM_Ok {A B} (f : A -> res B) (g : A -> B) l :
  (forall a, In a l -> f a = Ok (g a)) -> mapM f l = Ok (map g l).
Proof.
  induction l as [|a l IH]; simpl; intro H; auto.
  rewrite H by auto. simpl. rewrite IH by auto. reflexivity.
Qed.

(* ---------------------------------------------------------------------- misc *)
Lemma slice_length {A} (l : list A) a b : a <= b -> b <= length l -> length (slice l a b) = b - a.
Proof. intros. unfold slice. rewrite firstn_length, skipn_length. lia. Qed.

Lemma nth_error_slice {A} (l : list A) a b i :
  nth_error (slice l a b) i = if i <? b - a then nth_error l (a + i) else None.
Proof. unfold slice. rewrite nth_error_firstn, nth_error_skipn. reflexivity. Qed.

Lemma vresize_length {A} (l : list A) n d : length (vresize l n d) = n.
Proof. unfold vresize. rewrite app_length, firstn_length, repeat_length. lia. Qed.

Lemma nth_error_vresize {A} (l : list A) n d i :
  nth_error (vresize l n d) i =
  if i <? n then (if i <? length l then nth_error l i else Some d) else None.
Proof.
  unfold vresize. rewrite nth_error_app, firstn_length, nth_error_firstn, nth_error_repeat'.
  destruct (Nat.ltb_spec i (Nat.min n (length l))), (Nat.ltb_spec i n), (Nat.ltb_spec i (length l));
    try lia; auto.
  - destruct (Nat.ltb_spec (i - Nat.min n (length l)) (n - length l)); try lia; auto.
  - destruct (Nat.ltb_spec (i - Nat.min n (length l)) (n - length l)); try lia; auto.
  - destruct (Nat.ltb_spec (i - Nat.min n (length l)) (n - length l)); try lia; auto.
Qed.

Lemma vadd_range_Ok l b e k :
  b <= e -> e <= length l ->
  exists l', vadd_range l b e k = Ok l' /\ length l' = length l /\
    forall i, nth_error l' i =
              option_map (fun x => if (b <=? i) && (i <? e) then x + k else x) (nth_error l i).
Proof.
  intros Hb He. unfold vadd_range.
  destruct (Nat.leb_spec b e), (Nat.leb_spec e (length l)); try lia. simpl.
  eexists; split; [reflexivity|]. split.
  - rewrite !app_length, firstn_length, map_length, slice_length, skipn_length by lia. lia.
  - intro i.
    rewrite nth_error_app, firstn_length, nth_error_firstn, Nat.min_l by lia.
    rewrite nth_error_app, map_length, slice_length, nth_error_map', nth_error_slice,
      nth_error_skipn by lia.
    destruct (Nat.ltb_spec i b).
    + destruct (Nat.leb_spec b i); try lia. simpl. destruct (nth_error l i); auto.
    + destruct (Nat.leb_spec b i); try lia. simpl.
      destruct (Nat.ltb_spec (i - b) (e - b)), (Nat.ltb_spec i e); try lia.
      * replace (b + (i - b)) with i by lia. reflexivity.
      * replace (e + (i - b - (e - b))) with i by lia. destruct (nth_error l i); auto.
Qed.

Lemma last_app_cons {A} (l : list A) x d : last (l ++ [x]) d = x.
Proof. apply last_last. Qed.

Lemma vback_Ok {A} (l : list A) d : l <> [] -> vback l = Ok (nth (length l - 1) l d).
Proof.
  intro H. unfold vback. destruct l as [|a l]; [congruence|].
  apply vget_lt. simpl; lia.
Qed.

Lemma filter_none {A} (p : A -> bool) l : (forall x, In x l -> p x = false) -> filter p l = [].
Proof.
  induction l as [|a l IH]; simpl; intro H; auto.
  rewrite H by auto. auto.
Qed.

Lemma filter_all {A} (p : A -> bool) l : (forall x, In x l -> p x = true) -> filter p l = l.
Proof.
  induction l as [|a l IH]; simpl; intro H; auto.
  rewrite H by auto. f_equal; auto.
Qed.

Lemma In_nth_nil {A} (ls : list (list A)) i x : In x (nth i ls []) -> i < length ls.
Proof.
  intro H. destruct (Nat.lt_ge_cases i (length ls)); auto.
  rewrite nth_overflow in H by lia. destruct H.
Qed.

Lemma filter_length_le {A} (p : A -> bool) l : length (filter p l) <= length l.
Proof. induction l as [|a l IH]; simpl; [lia|]. destruct (p a); simpl; lia. Qed.

Lemma NoDup_map_inj {A B} (f : A -> B) l :
  (forall x y, In x l -> In y l -> f x = f y -> x = y) -> NoDup l -> NoDup (map f l).
Proof.
  intros Hf Hn. induction Hn as [|a l Ha Hn IH]; simpl; constructor.
  - intro Hin. apply in_map_iff in Hin as (x & E & Hx). apply Ha.
    assert (x = a) by (apply Hf; simpl; auto). congruence.
  - apply IH. intros x y Hx Hy. apply Hf; simpl; auto.
Qed.

Lemma NoDup_app_intro {A} (l1 l2 : list A) :
  NoDup l1 -> NoDup l2 -> (forall x, In x l1 -> In x l2 -> False) -> NoDup (l1 ++ l2).
Proof.
  intros H1 H2 H. induction H1 as [|a l1 Ha H1 IH]; simpl; auto. constructor.
  - rewrite in_app_iff. intros [Hx|Hx]; [auto|]. apply (H a); simpl; auto.
  - apply IH. intros x Hx Hy. apply (H x); simpl; auto.
Qed.

Lemma NoDup_app_snoc {A} (l : list A) x : NoDup l -> ~ In x l -> NoDup (l ++ [x]).
Proof.
  intros H Hx. apply NoDup_app_intro; auto.
  - repeat constructor. intros [].
  - intros y Hy [->|[]]. auto.
Qed.
