(** erase_if, C05 and C06. *)
From Verif Require Import Base ListFacts Csr GraphModel GraphSpec GraphFacts GraphInsert.

(* ------------------------------------------------------------------ rank *)
Lemma rank_S del i : rank del (S i) = rank del i + (if del i then 0 else 1).
Proof.
  unfold rank. rewrite seq_S, filter_app, app_length. simpl.
  destruct (del i); reflexivity.
Qed.

Lemma rank_mono del i j : i <= j -> rank del i <= rank del j.
Proof. induction 1; [lia|]. rewrite rank_S. lia. Qed.

Lemma rank_lt del i j : del i = false -> i < j -> rank del i < rank del j.
Proof.
  intros Hi Hij. pose proof (rank_mono del (S i) j ltac:(lia)) as H. rewrite rank_S, Hi in H. lia.
Qed.

Lemma rank_inj del i j : del i = false -> del j = false -> rank del i = rank del j -> i = j.
Proof.
  intros Hi Hj E. destruct (Nat.lt_trichotomy i j) as [H|[H|H]]; auto.
  - pose proof (rank_lt del i j Hi H). lia.
  - pose proof (rank_lt del j i Hj H). lia.
Qed.

Lemma rank_surj del n k : k < rank del n -> exists i, i < n /\ del i = false /\ rank del i = k.
Proof.
  induction n as [|n IH]; intro H; [unfold rank in H; simpl in H; lia|].
  rewrite rank_S in H. destruct (Nat.lt_ge_cases k (rank del n)) as [Hk|Hk].
  - destruct (IH Hk) as (i & Hi & Hd & Hr). exists i. auto.
  - exists n. destruct (del n) eqn:E; [lia|]. split; [lia|split; auto; lia].
Qed.

(** The kept vertices in order. *)
Definition kept (del : nat -> bool) (n : nat) : list nat := filter (fun j => negb (del j)) (seq 0 n).

Lemma kept_nth del n i : i < n -> del i = false -> nth_error (kept del n) (rank del i) = Some i.
Proof.
  intros Hi Hd. unfold kept, rank.
  replace n with (i + S (n - i - 1)) by lia.
  rewrite seq_app, filter_app, nth_error_app2 by lia.
  rewrite Nat.sub_diag. simpl. rewrite Hd. reflexivity.
Qed.

(* ------------------------------------------------------------------ removal *)
Fixpoint rem {A} (fl : list bool) (l : list A) : list A :=
  match fl, l with
  | b :: fl', x :: l' => if b then rem fl' l' else x :: rem fl' l'
  | _, _ => []
  end.

Lemma rem_app {A} f1 f2 (l1 l2 : list A) : length f1 = length l1 ->
  rem (f1 ++ f2) (l1 ++ l2) = rem f1 l1 ++ rem f2 l2.
Proof.
  revert l1; induction f1 as [|b f1 IH]; intros [|x l1] H; simpl in *; try lia; auto.
  rewrite IH by lia. destruct b; reflexivity.
Qed.

Lemma rem_concat {A} (fs : list (list bool)) (ls : list (list A)) :
  length fs = length ls ->
  (forall k, k < length fs -> length (nth k fs []) = length (nth k ls [])) ->
  rem (concat fs) (concat ls) = concat (map (fun p => rem (fst p) (snd p)) (combine fs ls)).
Proof.
  revert ls; induction fs as [|f fs IH]; intros [|l ls] Hl H; simpl in *; try lia; auto.
  rewrite rem_app by (apply (H 0); lia). f_equal. apply IH; [lia|].
  intros k Hk. apply (H (S k)). lia.
Qed.

Lemma rem_map {A} (p : A -> bool) l : rem (map p l) l = filter (fun x => negb (p x)) l.
Proof. induction l as [|x l IH]; simpl; auto. rewrite IH. destruct (p x); reflexivity. Qed.

Lemma rem_true {A} (l : list A) : rem (repeat true (length l)) l = [].
Proof. induction l; simpl; auto. Qed.

Lemma remove_at_rem {A} (fl : list bool) (l : list A) pre :
  length fl = length l ->
  remove_at (fun k => nth k (pre ++ fl) false) (length pre) l = rem fl l.
Proof.
  revert fl pre; induction l as [|x l IH]; intros [|b fl] pre H; simpl in H; try lia; auto.
  simpl. rewrite app_nth2, Nat.sub_diag by lia. simpl.
  specialize (IH fl (pre ++ [b]) ltac:(lia)). rewrite app_length in IH. simpl in IH.
  rewrite Nat.add_1_r, <- app_assoc in IH. simpl in IH. rewrite IH. reflexivity.
Qed.

Lemma remove_at_psum {A} del n (rs : list (list A)) k a :
  k + length rs = n ->
  (forall i, i < length rs -> del (k + i) = true -> nth i rs [] = []) ->
  remove_at (fun j => if j <? n then del j else false) k (psum a rs) =
  psum a (map (fun i => nth (i - k) rs []) (filter (fun j => negb (del j)) (seq k (length rs)))).
Proof.
  revert k a; induction rs as [|r rs IH]; intros k a Hn Hd; simpl in Hn.
  - simpl. destruct (Nat.ltb_spec k n); [lia|reflexivity].
  - cbn [psum remove_at length seq filter]. destruct (Nat.ltb_spec k n); [|lia].
    rewrite (IH (S k) (a + length r)); [|lia|].
    2:{ intros i Hi Hdi. apply (Hd (S i)); [simpl; lia|].
        replace (k + S i) with (S k + i) by lia. auto. }
    assert (Hext : map (fun i => nth (i - S k) rs []) (filter (fun j => negb (del j)) (seq (S k) (length rs))) =
                   map (fun i => nth (i - k) (r :: rs) []) (filter (fun j => negb (del j)) (seq (S k) (length rs)))).
    { apply map_ext_in. intros i Hi. apply filter_In in Hi as [Hi _]. apply in_seq in Hi.
      replace (i - k) with (S (i - S k)) by lia. reflexivity. }
    rewrite Hext. destruct (del k) eqn:E; cbn [negb].
    + assert (Hr : r = []) by (apply (Hd 0); [simpl; lia|rewrite Nat.add_0_r; auto]).
      subst r. simpl length. rewrite Nat.add_0_r. reflexivity.
    + cbn [map psum]. rewrite Nat.sub_diag. reflexivity.
Qed.

Lemma concat_if_nil {A} (p : nat -> bool) (f : nat -> list A) l :
  concat (map (fun i => if p i then [] else f i) l) =
  concat (map f (filter (fun i => negb (p i)) l)).
Proof.
  induction l as [|x l IH]; simpl; auto. destruct (p x); simpl; rewrite IH; reflexivity.
Qed.

(* ------------------------------------------------------------------ rows *)
Section Erase.
  Variable M : nat.
  Variable del : nat -> bool.
  Variable g : graph.
  Variable rs : list (list nat).
  Hypothesis Hrep : off g = psum 0 rs /\ adj g = concat rs.
  Let n := length rs.
  Let keep (j : nat) : bool := negb (del j).

  Definition krow (i : nat) : list nat := filter (fun j => negb (del j)) (nth i rs []).
  Definition krs : list (list nat) := map (fun i => if del i then [] else krow i) (seq 0 n).
  Definition erased : list (list nat) := map (fun i => map (rank del) (krow i)) (kept del n).
  Definition flag (i : nat) : list bool :=
    if del i then repeat true (length (nth i rs [])) else map del (nth i rs []).
  Definition flags (m : nat) : list (list bool) :=
    map (fun k => if k <? m then flag k else repeat false (length (nth k rs []))) (seq 0 n).

  Lemma krs_length : length krs = n.
  Proof. unfold krs. rewrite map_length, seq_length. reflexivity. Qed.

  Lemma nth_krs i : i < n -> nth i krs [] = if del i then [] else krow i.
  Proof. intro H. unfold krs. apply (nth_map_seq (fun i => if del i then [] else krow i)); auto. Qed.

  Lemma flag_length i : length (flag i) = length (nth i rs []).
  Proof. unfold flag. destruct (del i); rewrite ?repeat_length, ?map_length; auto. Qed.

  Lemma flags_length m : length (flags m) = n.
  Proof. unfold flags. rewrite map_length, seq_length. reflexivity. Qed.

  Lemma nth_flags m i : i < n ->
    nth i (flags m) [] = if i <? m then flag i else repeat false (length (nth i rs [])).
  Proof.
    intro H. unfold flags.
    apply (nth_map_seq (fun k => if k <? m then flag k else repeat false (length (nth k rs [])))); auto.
  Qed.

  Lemma nth_flags_length m i : i < n -> length (nth i (flags m) []) = length (nth i rs []).
  Proof.
    intro H. rewrite nth_flags by auto. destruct (i <? m); [apply flag_length|apply repeat_length].
  Qed.

  Lemma start_flags m i : start (flags m) i = start rs i.
  Proof.
    apply start_same; [apply flags_length|]. rewrite flags_length.
    intros k Hk. apply nth_flags_length; auto.
  Qed.

  Lemma concat_flags_0 : concat (flags 0) = repeat false (length (concat rs)).
  Proof.
    apply nth_error_ext_len.
    - rewrite repeat_length. rewrite <- !(start_all _ n) by (rewrite ?flags_length; auto).
      apply start_flags.
    - intros i Hi. apply nth_error_Some in Hi as Hi'.
      destruct (nth_error (concat (flags 0)) i) as [b|] eqn:E; [|congruence].
      assert (b = false).
      { apply nth_error_In in E. apply in_concat in E as (l & Hl & Hb).
        unfold flags in Hl. apply in_map_iff in Hl as (k & <- & _). simpl in Hb.
        apply repeat_spec in Hb. auto. }
      subst b. symmetry. rewrite nth_error_repeat'.
      replace (length (concat rs)) with (length (concat (flags 0))).
      + destruct (Nat.ltb_spec i (length (concat (flags 0)))); [auto|lia].
      + rewrite <- !(start_all _ n) by (rewrite ?flags_length; auto). apply start_flags.
  Qed.

  Lemma flags_S m : m < n -> flags (m + 1) = upd (flags m) m (flag m).
  Proof.
    intro H. apply rows_ext.
    - rewrite upd_length; rewrite !flags_length; auto.
    - rewrite flags_length. intros i Hi.
      rewrite nth_upd by (rewrite flags_length; auto). rewrite !nth_flags by auto.
      destruct (Nat.eqb_spec i m), (Nat.ltb_spec i (m+1)), (Nat.ltb_spec i m); subst; try lia; auto.
  Qed.

  Lemma krow_le i : i < n -> length (nth i krs []) <= length (nth i rs []).
  Proof.
    intro H. rewrite nth_krs by auto. destruct (del i); simpl; [lia|]. apply filter_length_le.
  Qed.

  Lemma start_krs_le i : i <= n -> start krs i <= start rs i.
  Proof.
    induction i as [|i IH]; intro H; [rewrite !start_0; lia|].
    rewrite !start_S by (rewrite ?krs_length; unfold n in *; lia).
    pose proof (krow_le i ltac:(lia)). specialize (IH ltac:(lia)). lia.
  Qed.

  Definition erase_inv (i : nat) (s : erase_state) : Prop :=
    length (e_off s) = S n /\
    (forall k, k <= n -> nth_error (e_off s) k = Some (if k <? i then start krs k else start rs k)) /\
    e_removed s = start rs i - start krs i /\
    e_next s = rank del i /\
    e_delete s = concat (flags i) /\
    length (e_index s) = length (concat rs) /\
    (forall k, k < i -> del k = false -> nth_error (e_index s) k = Some (rank del k)).

  Definition guard (m : nat) : Prop := forall k, k < m -> del k = false -> k < length (concat rs).

  Lemma filter_count (l : list nat) : length (filter del l) + length (filter keep l) = length l.
  Proof. unfold keep. induction l as [|x l IH]; simpl; auto. destruct (del x); simpl; lia. Qed.

  Lemma erase_step_ok i s : i < n -> erase_inv i s ->
    (guard (i + 1) -> exists s', erase_step del (adj g) i s = Ok s' /\ erase_inv (i + 1) s') /\
    (~ guard (i + 1) -> guard i -> erase_step del (adj g) i s = Undef).
  Proof.
    intros Hi (Hlo & Ho & Hrm & Hnx & Hde & Hli & Hix).
    destruct Hrep as [Hoff Hadj]. unfold erase_step.
    destruct (adjacency_iter_ok (mkG (adj g) (e_off s)) rs i) as [E1 E2]; cbn [adj off]; auto.
    { rewrite Ho by lia. destruct (Nat.ltb_spec i i); [lia|auto]. }
    { rewrite Ho by lia. destruct (Nat.ltb_spec (i+1) i); [lia|auto]. }
    rewrite E1. cbn [bind]. cbn [adj] in E2.
    pose proof (start_krs_le i ltac:(lia)) as Hle.
    unfold vsub, vget. rewrite Ho by lia. destruct (Nat.ltb_spec i i); [lia|]. cbn [bind].
    destruct (Nat.leb_spec (e_removed s) (start rs i)); [|lia].
    rewrite vset_lt by lia. cbn [bind].
    assert (Hw : forall fl, length fl = length (nth i rs []) ->
        vwrite (e_delete s) (start rs i) fl = Ok (concat (upd (flags i) i fl))).
    { intros fl Hfl. rewrite Hde. rewrite <- (start_flags i i). apply vwrite_row.
      - rewrite flags_length. auto.
      - rewrite nth_flags_length; auto. }
    assert (Hoff' : forall k, k <= n ->
        nth_error (upd (e_off s) i (start rs i - e_removed s)) k =
        Some (if k <? i + 1 then start krs k else start rs k)).
    { intros k Hk. rewrite nth_error_upd by lia. destruct (Nat.eqb_spec k i).
      - subst k. destruct (Nat.ltb_spec i (i+1)); [|lia]. f_equal. lia.
      - rewrite Ho by auto.
        destruct (Nat.ltb_spec k i), (Nat.ltb_spec k (i+1)); try lia; auto. }
    assert (Hsr : start rs (i+1) = start rs i + length (nth i rs [])) by (apply start_S'; auto).
    assert (Hsk : start krs (i+1) = start krs i + length (nth i krs []))
      by (apply start_S'; rewrite krs_length; auto).
    rewrite nth_krs in Hsk by auto.
    destruct (del i) eqn:Edel; cbn [negb].
    - split.
      + intros _. rewrite Hsr, Nat.add_comm, Nat.add_sub.
        rewrite Hw by apply repeat_length. cbn [bind].
        eexists; split; [reflexivity|].
        split; [|split; [|split; [|split; [|split; [|split]]]]];
          cbn [e_off e_removed e_next e_delete e_index]; auto.
        * rewrite upd_length; lia.
        * simpl in Hsk. lia.
        * rewrite Nat.add_1_r, rank_S, Edel. lia.
        * rewrite flags_S by auto. unfold flag. rewrite Edel. reflexivity.
        * intros k Hk Hd. apply Hix; auto. destruct (Nat.eq_dec k i); [congruence|lia].
      + intros Hng Hgi. exfalso. apply Hng. intros k Hk Hd. apply Hgi; auto.
        destruct (Nat.eq_dec k i); [congruence|lia].
    - split.
      + intros Hg. assert (Hii : i < length (concat rs)) by (apply Hg; [lia|auto]).
        rewrite vset_lt by lia. cbn [bind]. rewrite E2.
        rewrite Hw by apply map_length. cbn [bind].
        eexists; split; [reflexivity|].
        split; [|split; [|split; [|split; [|split; [|split]]]]];
          cbn [e_off e_removed e_next e_delete e_index]; auto.
        * rewrite upd_length; lia.
        * pose proof (filter_count (nth i rs [])) as Hfc. unfold krow in Hsk. unfold keep in Hfc. lia.
        * rewrite (Nat.add_1_r i), rank_S, Edel. lia.
        * rewrite flags_S by auto. unfold flag. rewrite Edel. reflexivity.
        * rewrite upd_length; lia.
        * intros k Hk Hd. rewrite nth_error_upd by lia.
          destruct (Nat.eqb_spec k i); [subst; rewrite Hnx; auto|]. apply Hix; auto. lia.
      + intros Hng Hgi. rewrite vset_ge; [reflexivity|]. rewrite Hli.
        destruct (Nat.lt_ge_cases i (length (concat rs))); [|auto].
        exfalso. apply Hng. intros k Hk Hd. destruct (Nat.eq_dec k i); [subst; auto|].
        apply Hgi; auto. lia.
  Qed.

  Lemma guard_dec m : guard m \/ ~ guard m.
  Proof.
    induction m as [|m IH]; [left; intros k Hk; lia|].
    destruct IH as [IH|IH].
    - destruct (del m) eqn:E.
      + left. intros k Hk Hd. destruct (Nat.eq_dec k m); [congruence|]. apply IH; [lia|auto].
      + destruct (Nat.lt_ge_cases m (length (concat rs))) as [Hm|Hm].
        * left. intros k Hk Hd. destruct (Nat.eq_dec k m); [subst; auto|]. apply IH; [lia|auto].
        * right. intro H. specialize (H m ltac:(lia) E). lia.
    - right. intro H. apply IH. intros k Hk Hd. apply H; auto.
  Qed.

  Let init : erase_state :=
    mkE (off g) 0 0 (repeat false (length (adj g))) (repeat M (length (adj g))).

  Lemma erase_inv_init : erase_inv 0 init.
  Proof.
    destruct Hrep as [Ho Ha]. unfold init.
    split; [|split; [|split; [|split; [|split; [|split]]]]];
      cbn [e_off e_removed e_next e_delete e_index].
    - rewrite Ho. apply psum_length.
    - intros k Hk. rewrite Ho, nth_error_psum. destruct (Nat.leb_spec k (length rs)); [auto|].
      unfold n in Hk. lia.
    - reflexivity.
    - reflexivity.
    - rewrite Ha. symmetry. apply concat_flags_0.
    - rewrite repeat_length, Ha. reflexivity.
    - intros k Hk. lia.
  Qed.

  Lemma erase_loop m : m <= n ->
    (guard m -> exists s, FOR m (erase_step del (adj g)) init = Ok s /\ erase_inv m s) /\
    (~ guard m -> FOR m (erase_step del (adj g)) init = Undef).
  Proof.
    induction m as [|m IH]; intro Hm.
    - split.
      + intros _. exists init. split; [reflexivity|apply erase_inv_init].
      + intro H. exfalso. apply H. intros k Hk. lia.
    - destruct (IH ltac:(lia)) as [IH1 IH2]. replace (S m) with (m + 1) by lia. rewrite FOR_S.
      destruct (guard_dec m) as [Hg|Hg].
      + destruct (IH1 Hg) as (s & E & Hs). rewrite E. cbn [bind].
        destruct (erase_step_ok m s ltac:(lia) Hs) as [H1 H2]. split; auto.
      + rewrite (IH2 Hg). split; [|auto]. intro H. exfalso. apply Hg.
        intros k Hk Hd. apply H; auto. lia.
  Qed.

  Lemma erased_length : length erased = rank del n.
  Proof. unfold erased. rewrite map_length. reflexivity. Qed.

  Lemma nth_erased i : i < n -> del i = false ->
    nth (rank del i) erased [] = map (rank del) (krow i).
  Proof.
    intros Hi Hd. apply nth_error_nth. unfold erased.
    rewrite nth_error_map', kept_nth by auto. reflexivity.
  Qed.

  Lemma erase_if_flat : (forall i, i < n -> forall j, In j (nth i rs []) -> j < n) ->
    (guard n -> exists g', erase_if M del g = Ok g' /\ repr g' erased) /\
    (~ guard n -> erase_if M del g = Undef).
  Proof.
    intro Hb. destruct Hrep as [Hoff Hadj].
    assert (Hrp : repr g rs) by (left; auto).
    unfold erase_if. rewrite (repr_size _ _ Hrp). fold n.
    destruct (erase_loop n ltac:(lia)) as [H1 H2]. split.
    2:{ intro Hng. fold init. rewrite (H2 Hng). reflexivity. }
    intro Hg. destruct (H1 Hg) as (s & E & Hlo & Ho & Hrm & Hnx & Hde & Hli & Hix).
    fold init. rewrite E. cbn [bind].
    rewrite (vback_Ok (e_off s) 0) by (intro E0; rewrite E0 in Hlo; discriminate).
    cbn [bind]. rewrite Hlo. replace (S n - 1) with n by lia.
    pose proof (start_krs_le n ltac:(lia)) as Hle.
    unfold vsub, vget. rewrite Ho by lia. destruct (Nat.ltb_spec n n); [lia|]. cbn [bind].
    destruct (Nat.leb_spec (e_removed s) (start rs n)); [|lia].
    rewrite vset_lt by lia. cbn [bind].
    assert (Hoff1 : upd (e_off s) n (start rs n - e_removed s) = psum 0 krs).
    { apply psum_ext.
      - rewrite upd_length, krs_length; lia.
      - rewrite krs_length. intros i Hi. rewrite nth_error_upd by lia.
        destruct (Nat.eqb_spec i n); [subst i; simpl; f_equal; lia|].
        rewrite Ho by auto. destruct (Nat.ltb_spec i n); [reflexivity|lia]. }
    rewrite Hoff1.
    assert (Hadj1 : remove_at (fun k => nth k (e_delete s) false) 0 (adj g) = concat krs).
    { rewrite Hde, Hadj.
      transitivity (rem (concat (flags n)) (concat rs));
        [apply (remove_at_rem (concat (flags n)) (concat rs) [])|].
      2: rewrite rem_concat by (rewrite flags_length; auto using nth_flags_length).
      - rewrite <- !(start_all _ n) by (rewrite ?flags_length; auto). apply start_flags.
      - f_equal. apply rows_ext.
          * rewrite map_length, combine_length, flags_length, krs_length. unfold n. lia.
          * rewrite map_length, combine_length, flags_length. intros i Hi.
            assert (Hin : i < n) by (unfold n in *; lia).
            change (@nil nat) with (rem (@nil bool) (@nil nat)) at 1.
            replace (rem (@nil bool) (@nil nat)) with ((fun p => rem (fst p) (snd p)) (@nil bool, @nil nat)) by reflexivity.
            rewrite (map_nth (fun p => rem (fst p) (snd p))).
            rewrite combine_nth by (rewrite flags_length; reflexivity). cbn [fst snd].
            rewrite nth_flags, nth_krs by auto. destruct (Nat.ltb_spec i n); [|lia].
            unfold flag. destruct (del i); [apply rem_true|apply rem_map]. }
    rewrite Hadj1.
    assert (Hkin : forall x, In x (concat krs) -> x < n /\ del x = false).
    { intros x Hx. apply in_concat in Hx as (l & Hl & Hx). unfold krs in Hl.
      apply in_map_iff in Hl as (i & <- & Hi). apply in_seq in Hi.
      destruct (del i); [destruct Hx|]. unfold krow in Hx. apply filter_In in Hx as [Hx Hd].
      split; [eapply (Hb i); [lia|eauto]|]. destruct (del x); auto; discriminate. }
    rewrite (mapM_Ok _ (rank del)).
    2:{ intros x Hx. destruct (Hkin x Hx). rewrite Hix by auto. reflexivity. }
    cbn [bind].
    assert (Hcon : map (rank del) (concat krs) = concat erased).
    { unfold krs. rewrite concat_if_nil. rewrite concat_map, map_map. unfold erased, kept. reflexivity. }
    rewrite Hcon.
    assert (Hoff2 : remove_at (fun k => if k <? n then del k else false) 0 (psum 0 krs) = psum 0 erased).
    { rewrite remove_at_psum.
      - rewrite krs_length. fold (kept del n).
        assert (Hlen : forall i, length (nth i (map (fun i => nth (i - 0) krs []) (kept del n)) []) =
                                 length (nth i erased [])).
        { intro i. destruct (nth_error (kept del n) i) as [k|] eqn:Ek.
          - assert (Hk : k < n /\ del k = false).
            { apply nth_error_In in Ek. apply filter_In in Ek as [Hk Hd]. apply in_seq in Hk.
              split; [lia|]. destruct (del k); [discriminate|auto]. }
            rewrite (nth_error_nth (map (fun i => nth (i - 0) krs []) (kept del n)) i []
                       (x := nth (k - 0) krs [])) by (rewrite nth_error_map', Ek; reflexivity).
            rewrite (nth_error_nth erased i [] (x := map (rank del) (krow k)))
              by (unfold erased; rewrite nth_error_map', Ek; reflexivity).
            rewrite Nat.sub_0_r, nth_krs by tauto. destruct Hk as [_ ->]. rewrite map_length. auto.
          - apply nth_error_None in Ek.
            rewrite !nth_overflow; auto; unfold erased; rewrite map_length; auto. }
        apply psum_ext.
        + rewrite psum_length. unfold erased. rewrite !map_length. reflexivity.
        + intros i Hi. rewrite nth_error_psum.
          assert (Hl2 : length (map (fun i => nth (i - 0) krs []) (kept del n)) = length erased)
            by (unfold erased; rewrite !map_length; reflexivity).
          rewrite Hl2. destruct (Nat.leb_spec i (length erased)); [|lia].
          f_equal. apply start_same; auto.
      - rewrite krs_length. reflexivity.
      - rewrite krs_length. intros i Hi Hd. rewrite nth_krs by auto. simpl in Hd. rewrite Hd. reflexivity. }
    rewrite Hoff2.
    rewrite (vback_Ok _ 0) by (destruct erased; discriminate). cbn [bind].
    assert (Hlast : nth (length (psum 0 erased) - 1) (psum 0 erased) 0 = length (concat erased)).
    { apply nth_error_nth. rewrite psum_length, nth_error_psum.
      destruct (Nat.leb_spec (S (length erased) - 1) (length erased)); [|lia].
      rewrite start_all by lia. reflexivity. }
    rewrite Hlast, Nat.eqb_refl. cbn [ASSERT bind].
    eexists; split; [reflexivity|]. left. auto.
  Qed.

  Lemma erased_ok d : rows_ok d rs -> rows_ok d erased.
  Proof.
    intros H k Hk. rewrite erased_length in *.
    destruct (rank_surj del n k Hk) as (i & Hi & Hd & <-).
    rewrite nth_erased by auto. destruct (H i Hi) as (Ha & Hb & Hs).
    assert (Hkr : forall j, In j (krow i) <-> In j (nth i rs []) /\ del j = false).
    { intro j. unfold krow. rewrite filter_In. destruct (del j); simpl; intuition congruence. }
    split; [|split].
    - apply ascending_map; [|apply ascending_filter, Ha].
      intros x y Hx Hy Hxy. apply Hkr in Hx. apply rank_lt; tauto.
    - intros j Hj. apply in_map_iff in Hj as (x & <- & Hx). apply Hkr in Hx as [Hx Hdx].
      destruct (Hb x Hx) as [Hxn Hxi]. fold n in Hxn. split.
      + apply rank_lt; auto.
      + intro E. apply Hxi. apply rank_inj with del; auto.
    - intros Hd' j Hj. apply in_map_iff in Hj as (x & <- & Hx). apply Hkr in Hx as [Hx Hdx].
      destruct (Hb x Hx) as [Hxn Hxi]. fold n in Hxn.
      rewrite nth_erased by auto. apply in_map. apply filter_In. split.
      + apply Hs; auto.
      + rewrite Hd. reflexivity.
  Qed.
End Erase.

Lemma erase_if_spec M d del g : well_formed d g -> off g <> [] ->
  (forall i, i < size_vertex g -> del i = false -> i < length (adj g)) ->
  exists g', erase_if M del g = Ok g' /\ well_formed d g' /\
    size_vertex g' = rank del (size_vertex g) /\
    (forall u v, u < size_vertex g -> v < size_vertex g -> del u = false -> del v = false ->
       (edge g' (rank del u) (rank del v) <-> edge g u v)).
Proof.
  intros (rs & H & Hr) Hne Hg.
  assert (Hrep : off g = psum 0 rs /\ adj g = concat rs).
  { destruct H as [H|[-> _]]; auto. exfalso. apply Hne. reflexivity. }
  rewrite (repr_size _ _ H) in *.
  destruct (erase_if_flat M del g rs Hrep) as [H1 _].
  { intros i Hi j Hj. apply (Hr i Hi). auto. }
  destruct H1 as (g' & E & Hg').
  { intros k Hk Hd. rewrite <- (repr_adj _ _ H). auto. }
  exists g'. split; [auto|split; [|split]].
  - exists (erased del rs). split; auto. eapply erased_ok; eauto.
  - rewrite (repr_size _ _ Hg'), erased_length. reflexivity.
  - intros u v Hu Hv Hdu Hdv.
    rewrite (repr_edge _ _ _ _ Hg'), (repr_edge _ _ _ _ H), nth_erased by auto.
    unfold krow. split.
    + intro Hin. apply in_map_iff in Hin as (x & E' & Hx). apply filter_In in Hx as [Hx Hdx].
      assert (x = v); [|subst; auto]. apply rank_inj with del; auto.
      destruct (del x); [discriminate|auto].
    + intro Hin. apply in_map. apply filter_In. rewrite Hdv. auto.
Qed.

(** Exactly when the call is undefined. *)
Lemma erase_if_undefined M d del g : well_formed d g ->
  (erase_if M del g = Undef <->
   off g = [] \/ exists i, i < size_vertex g /\ del i = false /\ length (adj g) <= i).
Proof.
  intro Hwf. split.
  - intro E. destruct (off g) as [|o os] eqn:Eo; [auto|]. right.
    assert (Hdec : (forall i, i < size_vertex g -> del i = false -> i < length (adj g)) \/
      exists i, i < size_vertex g /\ del i = false /\ length (adj g) <= i).
    { generalize (size_vertex g). intro n. induction n as [|n IH]; [left; intros; lia|].
      destruct IH as [IH|(i & Hi & Hd & Hl)]; [|right; exists i; auto].
      destruct (del n) eqn:En.
      - left. intros i Hi Hd. destruct (Nat.eq_dec i n); [congruence|]. apply IH; [lia|auto].
      - destruct (Nat.lt_ge_cases n (length (adj g))).
        + left. intros i Hi Hd. destruct (Nat.eq_dec i n); [subst; auto|]. apply IH; [lia|auto].
        + right. exists n. auto. }
    destruct Hdec as [Hg|Hg]; auto.
    destruct (erase_if_spec M d del g Hwf) as (g' & E' & _); [congruence|auto|congruence].
  - destruct Hwf as (rs & H & Hr).
    intros [E|(i & Hi & Hd & Hl)].
    + destruct H as [[Ho _]|[-> _]]; [|reflexivity]. rewrite Ho in E. destruct rs; discriminate.
    + assert (Hrep : off g = psum 0 rs /\ adj g = concat rs).
      { destruct H as [H|[-> ->]]; auto. change (i < 0) in Hi. lia. }
      rewrite (repr_size _ _ H) in Hi.
      destruct (erase_if_flat M del g rs Hrep) as [_ H2].
      { intros k Hk j Hj. apply (Hr k Hk). auto. }
      apply H2. intro Hg. specialize (Hg i Hi Hd). rewrite (repr_adj _ _ H) in Hl. lia.
Qed.
