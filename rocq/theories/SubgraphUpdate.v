(** Specification of remove_levels and update_levels. *)
From Verif Require Import Base ListFacts Csr GraphModel GraphSpec GraphFacts GraphInsert GraphErase
  TraversalModel Bfs TraversalFacts OrderingSpec SubgraphModel SubgraphFacts SubgraphLevels.

(* ------------------------------------------------------------------ removal by position *)
Lemma remove_at_map {A} del (l : list A) d k :
  remove_at del k l = map (fun i => nth (i - k) l d) (filter (fun j => negb (del j)) (seq k (length l))).
Proof.
  revert k; induction l as [|x l IH]; intro k; auto.
  cbn [remove_at length seq filter]. rewrite (IH (S k)).
  assert (E : map (fun i => nth (i - S k) l d) (filter (fun j => negb (del j)) (seq (S k) (length l))) =
              map (fun i => nth (i - k) (x :: l) d) (filter (fun j => negb (del j)) (seq (S k) (length l)))).
  { apply map_ext_in. intros i Hi. apply filter_In in Hi as [Hi _]. apply in_seq in Hi.
    replace (i - k) with (S (i - S k)) by lia. reflexivity. }
  rewrite E. destruct (del k); cbn [negb]; auto. cbn [map]. rewrite Nat.sub_diag. reflexivity.
Qed.

Lemma remove_at_kept {A} del (l : list A) d :
  remove_at del 0 l = map (fun i => nth i l d) (kept del (length l)).
Proof.
  rewrite (remove_at_map del l d 0). apply map_ext. intro i. rewrite Nat.sub_0_r. reflexivity.
Qed.

Lemma remove_at_length {A} del (l : list A) : length (remove_at del 0 l) = rank del (length l).
Proof.
  destruct l as [|x l]; [reflexivity|].
  rewrite (remove_at_kept del _ x), map_length. reflexivity.
Qed.

Lemma remove_at_nth {A} del (l : list A) i x : nth_error l i = Some x -> del i = false ->
  nth_error (remove_at del 0 l) (rank del i) = Some x.
Proof.
  intros Hi Hd. assert (Hl := nth_error_lt_Some _ _ _ Hi).
  rewrite (remove_at_kept del l x), nth_error_map', (kept_nth del _ i) by auto. cbn.
  f_equal. apply nth_error_nth; auto.
Qed.

Lemma remove_at_nth_inv {A} del (l : list A) j x : nth_error (remove_at del 0 l) j = Some x ->
  exists i, nth_error l i = Some x /\ del i = false /\ j = rank del i.
Proof.
  intro H. assert (Hj := nth_error_lt_Some _ _ _ H). rewrite remove_at_length in Hj.
  apply rank_surj in Hj as (i & Hi & Hd & <-). exists i. split; auto.
  rewrite (nth_error_nth_lt l i x Hi).
  rewrite (remove_at_nth del l i (nth i l x)) in H; auto. apply nth_error_nth_lt; auto.
Qed.

Lemma filter_map {A B} (f : A -> B) p l : filter p (map f l) = map f (filter (fun x => p (f x)) l).
Proof. induction l as [|a l IH]; cbn; auto. rewrite IH. destruct (p (f a)); reflexivity. Qed.

Lemma map_nth_seq {A} (l : list A) d : map (fun i => nth i l d) (seq 0 (length l)) = l.
Proof.
  apply nth_error_ext_len; [rewrite map_length, seq_length; auto|].
  rewrite map_length, seq_length. intros i Hi. rewrite nth_error_map', nth_error_seq.
  destruct (Nat.ltb_spec i (length l)); [|lia]. cbn. symmetry. apply nth_error_nth_lt; auto.
Qed.

Lemma filter_remove_at p (l : list nat) :
  filter (fun x => negb (p x)) l = remove_at (fun v => p (nth v l 0)) 0 l.
Proof.
  rewrite (remove_at_kept _ l 0). rewrite <- (map_nth_seq l 0) at 1. rewrite filter_map. reflexivity.
Qed.

Lemma erase_if_off M del g g' : erase_if M del g = Ok g' -> off g' <> [].
Proof.
  unfold erase_if. intro H.
  repeat match goal with
  | H : bind ?m _ = Ok _ |- _ => apply bind_Ok in H as (? & ? & H)
  end.
  injection H as <-. cbn [off]. intro E. rewrite E in *. discriminate.
Qed.

(* ------------------------------------------------------------------ inverse map loop *)
Lemma inverse_loop dbg n M s : size_vertex (s_graph s) = length (s_lg s) -> NoDup (s_lg s) ->
  (forall v, In v (s_lg s) -> v < n) ->
  exists gl, FOR (sub_size s) (fun i gl => do v <- local_global dbg s i; vset gl v i) (repeat M n) = Ok gl /\
    inverse_map n M (s_lg s) gl.
Proof.
  intros Hs Hnd Hb. unfold sub_size. rewrite Hs.
  destruct (FOR_inv (fun k gl => length gl = n /\
     (forall i v, i < k -> nth_error (s_lg s) i = Some v -> nth_error gl v = Some i) /\
     (forall v, v < n -> (forall i, i < k -> nth_error (s_lg s) i <> Some v) -> nth_error gl v = Some M))
     (length (s_lg s)) (fun i gl => do v <- local_global dbg s i; vset gl v i) (repeat M n))
    as (gl & E & H1 & H2 & H3).
  - rewrite repeat_length. split; auto. split; [intros; lia|]. intros v Hv _.
    rewrite nth_error_repeat'. destruct (Nat.ltb_spec v n); [auto|lia].
  - intros k gl Hk (H1 & H2 & H3). unfold local_global, sub_size. rewrite Hs.
    destruct (Nat.ltb_spec k (length (s_lg s))); [|lia]. rewrite ASSERT_DEBUG_true. cbn [bind].
    rewrite (vget_lt _ k 0) by auto. cbn [bind]. set (v := nth k (s_lg s) 0).
    assert (Ev : nth_error (s_lg s) k = Some v) by (apply nth_error_nth_lt; auto).
    assert (Hv : v < n) by (apply Hb; eapply nth_error_In; eauto).
    rewrite vset_lt by lia. eexists. split; [reflexivity|].
    assert (Hinj : forall i, i < k -> nth_error (s_lg s) i <> Some v).
    { intros i Hi Hq. rewrite <- Ev in Hq. apply NoDup_nth_error in Hq; auto; lia. }
    split; [rewrite upd_length; lia|]. split.
    + intros i w Hi Hw. rewrite nth_error_upd by lia. destruct (Nat.eq_dec i k) as [->|Hne].
      * assert (w = v) by congruence. subst w. rewrite Nat.eqb_refl. auto.
      * destruct (Nat.eqb_spec w v) as [->|].
        -- exfalso. eapply Hinj; [|eauto]. lia.
        -- apply H2; auto. lia.
    + intros w Hw Hno. rewrite nth_error_upd by lia. destruct (Nat.eqb_spec w v) as [->|].
      * exfalso. eapply Hno; [|eauto]. lia.
      * apply H3; auto. intros i Hi. apply Hno. lia.
  - exists gl. split; auto. split; auto. split.
    + intros i v Hi. eapply H2; eauto. eapply nth_error_lt_Some; eauto.
    + intros v Hv Hn. apply H3; auto. intros i _ Hq. apply Hn. eapply nth_error_In; eauto.
Qed.

(** Content of the caller's vector after a call. *)
Definition map_returned (n M : nat) (lg : list nat) (gl gl' : option (list nat)) : Prop :=
  match gl with
  | None => gl' = None
  | Some _ => exists m, gl' = Some m /\ inverse_map n M lg m
  end.

Section Remove.
  Variables (M : nat) (dbg : bool) (g : graph) (part : list nat) (c k : nat) (s : subgraph).
  Let n := size_vertex g.
  Let src := fun x => In x part.
  Hypothesis Hw : well_formed false g.
  Hypothesis Hpart : forall x, In x part -> x < n.
  Hypothesis Hs : sub_ok g src c s.
  Hypothesis Hf : full s.
  Hypothesis Hck : k <= c.

  Lemma remove_levels_ok gl :
    (forall i, i < length (s_lg s) -> nth i (s_level s) 0 <= k -> i < length (adj (s_graph s))) ->
    exists s' gl', remove_levels M dbg g k s gl = Ok (s', gl') /\
      s_hash s' = s_hash s /\ sub_ok g src k s' /\ map_returned n M (s_lg s') gl gl' /\
      s_lg s' = remove_at (fun v => k <? nth v (s_level s) 0) 0 (s_lg s).
  Proof.
    intro Hg. unfold remove_levels. set (del := fun v => k <? nth v (s_level s) 0).
    pose proof (so_size _ _ _ _ Hs) as Hsz.
    destruct (erase_if_spec M false del (s_graph s)) as (G & E & G1 & G2 & G3).
    { apply Hs. } { apply Hs. }
    { rewrite Hsz. intros i Hi Hd. apply Hg; auto. apply Nat.ltb_ge; auto. }
    rewrite E. cbn [bind]. rewrite Hsz in *.
    set (lv' := if k =? 0 then [] else filter (fun l => negb (k <? l)) (s_level s)).
    set (s' := mkS (s_hash s) G (remove_at del 0 (s_lg s)) lv').
    assert (Hlev : forall i v, nth_error (s_lg s) i = Some v -> del i = false ->
              level_of s' (rank del i) = nth i (s_level s) 0).
    { intros i v Hi Hd. assert (Hil := nth_error_lt_Some _ _ _ Hi).
      unfold level_of. cbn [s_level s']. unfold lv'. pose proof Hd as Hd'. unfold del in Hd'.
      apply Nat.ltb_ge in Hd'. destruct (Nat.eqb_spec k 0) as [->|Hk0].
      - cbn. lia.
      - rewrite (filter_remove_at (fun l => k <? l)). fold del.
        assert (En : nth_error (remove_at del 0 (s_level s)) (rank del i) = Some (nth i (s_level s) 0)).
        { apply remove_at_nth; auto. apply nth_error_nth_lt. rewrite Hf. auto. }
        destruct (remove_at del 0 (s_level s)) eqn:Er.
        + destruct (rank del i); discriminate.
        + cbn [is_nil]. apply nth_error_nth. auto. }
    assert (Hmem : forall i v, nth_error (s_lg s) i = Some v ->
              within g part v (nth i (s_level s) 0)).
    { intros i v Hi. rewrite <- full_level; auto; [|eapply nth_error_lt_Some; eauto].
      apply (so_level _ _ _ _ Hs); auto. }
    assert (Hok : sub_ok g src k s').
    { constructor; cbn [s_graph s_lg s']; auto.
      - eapply erase_if_off; eauto.
      - rewrite G2, remove_at_length. auto.
      - apply NoDup_nth_error. intros a b Ha Hab.
        destruct (nth_error (remove_at del 0 (s_lg s)) a) as [x|] eqn:Ea; [|apply nth_error_None in Ea; lia].
        symmetry in Hab. apply remove_at_nth_inv in Ea as (i & Hi & _ & ->).
        apply remove_at_nth_inv in Hab as (j & Hj & _ & ->).
        f_equal. apply (proj1 (NoDup_nth_error (s_lg s)) (so_nodup _ _ _ _ Hs)); [|congruence].
        eapply nth_error_lt_Some; eauto.
      - intro v. split.
        + intro H. apply In_nth_error in H as (j & Hj).
          apply remove_at_nth_inv in Hj as (i & Hi & Hd & _).
          exists (nth i (s_level s) 0). split; [apply Hmem; auto|]. apply Nat.ltb_ge. auto.
        + intros (j & Hj & Hjk).
          assert (Hin : In v (s_lg s)) by (apply (so_in _ _ _ _ Hs); exists j; split; auto; lia).
          apply In_nth_error in Hin as (i & Hi).
          eapply nth_error_In, remove_at_nth; eauto. apply Nat.ltb_ge.
          rewrite (dist_from_functional _ _ _ _ _ (Hmem i v Hi) Hj). auto.
      - intros a b u v Ha Hb. apply remove_at_nth_inv in Ha as (i & Hi & Hdi & ->).
        apply remove_at_nth_inv in Hb as (j & Hj & Hdj & ->).
        assert (Hil := nth_error_lt_Some _ _ _ Hi). assert (Hjl := nth_error_lt_Some _ _ _ Hj).
        rewrite G3 by auto. apply (so_edge _ _ _ _ Hs); auto.
      - change (s_level s') with lv'. unfold lv'. destruct (k =? 0); auto. right.
        rewrite (filter_remove_at (fun l => k <? l)), !remove_at_length, Hf. auto.
      - intros a v Ha. apply remove_at_nth_inv in Ha as (i & Hi & Hdi & ->).
        rewrite (Hlev i v Hi Hdi). apply Hmem; auto. }
    assert (Hb : forall v, In v (s_lg s') -> v < n).
    { intros v Hv. apply (so_in _ _ _ _ Hok) in Hv as (j & Hj & _).
      exact (within_bound false g part v j Hw Hpart Hj). }
    destruct gl as [gl|].
    - destruct (inverse_loop dbg n M s' (so_size _ _ _ _ Hok) (so_nodup _ _ _ _ Hok) Hb) as (m & Em & Hm).
      fold n. rewrite Em. cbn [bind]. eexists _, _. split; [reflexivity|]. split; auto. split; auto.
      split; auto. exists m. auto.
    - eexists _, _. split; [reflexivity|]. split; auto. split; auto. split; auto. reflexivity.
  Qed.

  Lemma remove_levels_undefined gl i :
    i < length (s_lg s) -> nth i (s_level s) 0 <= k -> length (adj (s_graph s)) <= i ->
    remove_levels M dbg g k s gl = Undef.
  Proof.
    intros Hi Hl Ha. unfold remove_levels.
    assert (E : erase_if M (fun v => k <? nth v (s_level s) 0) (s_graph s) = Undef).
    { apply (erase_if_undefined M false); [apply Hs|]. right. exists i.
      rewrite (so_size _ _ _ _ Hs). split; auto. split; auto. apply Nat.ltb_ge; auto. }
    rewrite E. reflexivity.
  Qed.
End Remove.

(* ------------------------------------------------------------------ add_levels in debug builds *)
Lemma add_levels_abort M g part c k s l :
  well_formed false g -> 0 < size_vertex g -> size_vertex g <= M ->
  (forall x, In x part -> x < size_vertex g) ->
  sub_ok g (fun x => In x part) c s -> full s -> In l (s_level s) -> size_vertex g <= l + 1 ->
  add_levels M true g k c s = Abort.
Proof.
  intros Hw Hn HM Hpart Hs Hf Hin Hl. unfold add_levels, sub_size. rewrite (so_size _ _ _ _ Hs).
  assert (Hb : forall v, In v (s_lg s) -> v < size_vertex g).
  { intros v Hv. apply (so_in _ _ _ _ Hs) in Hv as (j & Hj & _).
    exact (within_bound false g part v j Hw Hpart Hj). }
  destruct (load_ok (size_vertex g) M c (s_lg s) (s_level s) (so_nodup _ _ _ _ Hs) Hb Hf)
    as (Q & L & gl & E & _ & HL & L1 & _ & _).
  rewrite E. cbn [bind]. unfold level_traversal_queue.
  rewrite (size_pos_nonempty false g) by auto. cbn [negb ASSERT_DEBUG ASSERT bind].
  rewrite HL, Nat.eqb_refl. cbn [ASSERT bind].
  apply (In_nth _ _ 0) in Hin as (i & Hi & El). rewrite Hf in Hi.
  pose proof (nth_error_nth_lt (s_lg s) i 0 Hi) as Ev. set (v := nth i (s_lg s) 0) in *.
  pose proof (L1 i v Ev) as ELv. rewrite El in ELv.
  assert (HlM : l < M).
  { assert (Hd : within g part v l).
    { rewrite <- El, <- full_level by auto. apply (so_level _ _ _ _ Hs); auto. }
    pose proof (within_lt false g part v l Hw Hpart Hd). lia. }
  destruct (vmax_spec (map (wrap_inc M) L)) as (m & Em & _ & Hm).
  { intro H. apply map_eq_nil in H. subst L. simpl in HL. lia. }
  rewrite Em. cbn [bind].
  assert (Hlm : l + 1 <= m).
  { apply Hm. apply in_map_iff. exists l. split; [|eapply nth_error_In; eauto].
    unfold wrap_inc. destruct (Nat.eqb_spec l M); [lia|auto]. }
  destruct (Nat.ltb_spec m (size_vertex g)); [lia|]. reflexivity.
Qed.

(* ------------------------------------------------------------------ update_levels *)
(** Greatest level stored. *)
Definition top_level (s : subgraph) : nat := list_max (s_level s).

Definition filled (s : subgraph) : subgraph :=
  mkS (s_hash s) (s_graph s) (s_lg s)
      (if is_nil (s_level s) then repeat 0 (sub_size s) else s_level s).

Lemma vmax_list_max l : l <> [] -> vmax l = Ok (list_max l).
Proof.
  intro H. destruct (vmax_spec l H) as (m & E & Hin & Hm). rewrite E. f_equal.
  apply Nat.le_antisymm.
  - pose proof (proj1 (list_max_le l (list_max l)) (le_n _)) as F. rewrite Forall_forall in F. auto.
  - apply list_max_le. apply Forall_forall. auto.
Qed.

Lemma filled_ok g part k s : sub_ok g (fun x => In x part) k s ->
  full (filled s) /\ sub_ok g (fun x => In x part) (top_level s) (filled s) /\
  (forall i, level_of (filled s) i = level_of s i) /\ list_max (s_level (filled s)) = top_level s.
Proof.
  intro Hs.
  assert (Hf : full (filled s)).
  { unfold full, filled. cbn [s_level s_lg]. destruct (s_level s) as [|x l] eqn:El; cbn [is_nil].
    - rewrite repeat_length. apply (so_size _ _ _ _ Hs).
    - destruct (so_len _ _ _ _ Hs) as [H|H]; rewrite El in H; [discriminate|auto]. }
  assert (Hlev : forall i, level_of (filled s) i = level_of s i).
  { intro i. unfold level_of, filled. cbn [s_level]. destruct (s_level s) as [|x l]; cbn [is_nil]; auto.
    destruct (sub_size s) as [|m]; cbn [repeat is_nil]; auto.
    change (nth i (repeat 0 (S m)) 0 = 0). destruct (nth_in_or_default i (repeat 0 (S m)) 0) as [H|H]; auto.
    apply repeat_spec in H. auto. }
  assert (Htop : forall i v, nth_error (s_lg s) i = Some v -> level_of s i <= top_level s).
  { intros i v Hi. unfold level_of, top_level. destruct (s_level s) as [|x l] eqn:El; cbn [is_nil]; [lia|].
    rewrite <- El. pose proof (proj1 (list_max_le (s_level s) (list_max (s_level s))) (le_n _)) as F.
    rewrite Forall_forall in F. apply F, nth_In.
    destruct (so_len _ _ _ _ Hs) as [H|H]; [congruence|]. rewrite H. eapply nth_error_lt_Some; eauto. }
  split; auto. split; [|split; auto].
  - constructor; [apply Hs|apply Hs|apply Hs|apply Hs| |apply Hs| | ].
    + intro v. cbn [s_lg filled]. split.
      * intro H. apply In_nth_error in H as (i & Hi). exists (level_of s i).
        split; [apply (so_level _ _ _ _ Hs); auto|]. eapply Htop; eauto.
      * intros (j & Hj & Hjt). destruct (Nat.le_gt_cases j k) as [Hjk|Hjk].
        -- apply (so_in _ _ _ _ Hs). eauto.
        -- (* a member at the top level would have to exist *)
           destruct (s_level s) as [|x l] eqn:El.
           ++ unfold top_level in Hjt. rewrite El in Hjt. cbn in Hjt. lia.
           ++ assert (Hmax : In (list_max (s_level s)) (s_level s)).
              { destruct (vmax_spec (s_level s)) as (m & Em & Hin & _); [congruence|].
                rewrite vmax_list_max in Em by congruence. injection Em as <-. auto. }
              apply (In_nth _ _ 0) in Hmax as (i & Hi & Ei).
              destruct (so_len _ _ _ _ Hs) as [H|H]; [congruence|]. rewrite H in Hi.
              pose proof (nth_error_nth_lt (s_lg s) i 0 Hi) as Ev.
              pose proof (so_level _ _ _ _ Hs i _ Ev) as Hl.
              assert (Hin : In (nth i (s_lg s) 0) (s_lg s)) by (apply nth_In; auto).
              apply (so_in _ _ _ _ Hs) in Hin as (m & Hm & Hmk).
              pose proof (dist_from_functional _ _ _ _ _ Hl Hm) as Em.
              assert (Elv : level_of s i = list_max (s_level s)).
              { unfold level_of. rewrite El. cbn [is_nil]. rewrite <- El. auto. }
              unfold top_level in Hjt. lia.
    + right. exact Hf.
    + intros i v Hi. rewrite Hlev. apply (so_level _ _ _ _ Hs); auto.
  - unfold top_level, filled. cbn [s_level]. destruct (s_level s) as [|x l]; cbn [is_nil]; auto.
    induction (sub_size s); cbn in *; auto.
Qed.

Section Update.
  Variables (h : nat -> nat) (M : nat) (dbg : bool) (g : graph) (part : list nat) (k0 k : nat)
    (s : subgraph) (gl : option (list nat)).
  Let n := size_vertex g.
  Let src := fun x => In x part.
  Hypothesis Hw : well_formed false g.
  Hypothesis Hn : 0 < n.
  Hypothesis HM : n <= M.
  Hypothesis Hpart : forall x, In x part -> x < n.
  Hypothesis Hs : sub_ok g src k0 s.
  Hypothesis Hh : graph_hash dbg false h g = Ok (s_hash s).
  Hypothesis HkM : k < M.

  Lemma update_levels_unfold : update_levels h M dbg g k s gl =
    if top_level s <? k then
      do r <- add_levels M dbg g k (top_level s) (filled s);
      Ok (fst r, match gl with None => None | Some _ => Some (snd r) end)
    else remove_levels M dbg g k (filled s) gl.
  Proof.
    unfold update_levels. rewrite Hh. cbn [bind]. rewrite Nat.eqb_refl. cbn [ASSERT bind].
    fold (filled s). assert (E : (if is_nil (s_level s) then Ok 0 else vmax (s_level s)) = Ok (top_level s)).
    { unfold top_level. destruct (s_level s) as [|x l] eqn:El; [reflexivity|]. cbn [is_nil].
      apply vmax_list_max. discriminate. }
    rewrite E. reflexivity.
  Qed.

  Lemma filled_member_level i : i < length (s_lg s) -> nth i (s_level (filled s)) 0 = level_of s i.
  Proof.
    intro Hi. destruct (filled_ok g part k0 s Hs) as (Hf & _ & Hl & _).
    rewrite <- Hl. symmetry. apply full_level; auto.
  Qed.

  (** The calls that return. *)
  Definition update_fine : Prop :=
    (top_level s < k /\ (dbg = true -> s_lg s <> [] -> top_level s + 1 < n)) \/
    (k <= top_level s /\
     forall i, i < length (s_lg s) -> level_of s i <= k -> i < length (adj (s_graph s))).

  Lemma update_levels_ok : update_fine ->
    exists s' gl', update_levels h M dbg g k s gl = Ok (s', gl') /\
      s_hash s' = s_hash s /\ sub_ok g src k s' /\ map_returned n M (s_lg s') gl gl' /\
      (top_level s < k -> exists N, s_lg s' = s_lg s ++ N /\ ascending N) /\
      (k <= top_level s -> s_lg s' = remove_at (fun i => k <? level_of s i) 0 (s_lg s)).
  Proof.
    intro Hfine. rewrite update_levels_unfold.
    destruct (filled_ok g part k0 s Hs) as (Hf & Hok & Hl & Hmax).
    destruct (Nat.ltb_spec (top_level s) k) as [Hc|Hc].
    - destruct Hfine as [[_ Hd]|[Hd _]]; [|lia].
      destruct (add_levels_ok M dbg g part (top_level s) k (filled s) Hw Hn HM Hpart Hok Hf Hc HkM)
        as (s' & m & E & H1 & H2 & H3 & H4 & H5).
      { intros Hdbg l Hin. fold n.
        assert (s_lg s <> []).
        { intro E. unfold full, filled in Hf. cbn [s_level s_lg] in Hf. rewrite E in Hf. cbn in Hf.
          apply length_zero_iff_nil in Hf. unfold filled in Hin. cbn [s_level] in Hin.
          rewrite Hf in Hin. destruct Hin. }
        specialize (Hd Hdbg H). pose proof (proj1 (list_max_le _ _) (Nat.eq_le_incl _ _ Hmax)) as F.
        rewrite Forall_forall in F. specialize (F l Hin). lia. }
      rewrite E. cbn [bind fst snd].
      eexists _, _. split; [reflexivity|]. split; auto. split; auto. split.
      + unfold map_returned. destruct gl; eauto.
      + split; auto. lia.
    - destruct Hfine as [[Hd _]|[_ Hd]]; [lia|].
      destruct (remove_levels_ok M dbg g part (top_level s) k (filled s) Hw Hpart Hok Hf Hc gl)
        as (s' & m & E & H1 & H2 & H3 & H4).
      { intros i Hi Hle. cbn [s_lg filled s_graph] in *. rewrite filled_member_level in Hle; auto. }
      rewrite E. eexists _, _. split; [reflexivity|]. split; auto. split; auto. split; auto.
      split; [lia|]. intros _. rewrite H4. cbn [s_lg filled].
      destruct (s_lg s) as [|x l] eqn:Elg; [reflexivity|]. rewrite <- Elg.
      rewrite !(remove_at_kept _ (s_lg s) 0). f_equal. unfold kept. apply filter_ext_in.
      intros i Hi. apply in_seq in Hi. rewrite filled_member_level by lia. reflexivity.
  Qed.

  Lemma update_levels_aborts : top_level s < k -> dbg = true -> s_lg s <> [] -> n <= top_level s + 1 ->
    update_levels h M dbg g k s gl = Abort.
  Proof.
    intros Hc Hd Hne Ht. rewrite update_levels_unfold.
    destruct (filled_ok g part k0 s Hs) as (Hf & Hok & Hl & Hmax).
    destruct (Nat.ltb_spec (top_level s) k); [|lia]. rewrite Hd.
    assert (Hin : In (top_level s) (s_level (filled s))).
    { assert (Hnn : s_level (filled s) <> []).
      { intro E. unfold full in Hf. rewrite E in Hf. cbn in Hf. apply Hne.
        apply length_zero_iff_nil. auto. }
      destruct (vmax_spec _ Hnn) as (m & Em & Hin & _). rewrite vmax_list_max in Em by auto.
      assert (Em2 : list_max (s_level (filled s)) = m) by congruence. rewrite Hmax in Em2. rewrite Em2. exact Hin. }
    rewrite (add_levels_abort M g part (top_level s) k (filled s) (top_level s)) by (auto; fold n; auto).
    reflexivity.
  Qed.

  Lemma update_levels_undefined i : k <= top_level s ->
    i < length (s_lg s) -> level_of s i <= k -> length (adj (s_graph s)) <= i ->
    update_levels h M dbg g k s gl = Undef.
  Proof.
    intros Hc Hi Hle Ha. rewrite update_levels_unfold.
    destruct (filled_ok g part k0 s Hs) as (Hf & Hok & Hl & Hmax).
    destruct (Nat.ltb_spec (top_level s) k); [lia|].
    eapply remove_levels_undefined; eauto. rewrite filled_member_level; auto.
  Qed.

  (** Every call returns, stops at an assertion or is undefined, and which of the three is known. *)
  Lemma update_fine_dec : update_fine \/
    (top_level s < k /\ dbg = true /\ s_lg s <> [] /\ n <= top_level s + 1) \/
    (k <= top_level s /\ exists i, i < length (s_lg s) /\ level_of s i <= k /\ length (adj (s_graph s)) <= i).
  Proof.
    unfold update_fine. destruct (Nat.lt_ge_cases (top_level s) k) as [Hc|Hc].
    - destruct dbg.
      + destruct (s_lg s) eqn:E; [left; left; split; auto; congruence|].
        destruct (Nat.lt_ge_cases (top_level s + 1) n).
        * left. left. auto.
        * right. left. split; auto. split; auto. split; [discriminate|auto].
      + left. left. split; auto. discriminate.
    - destruct (bounded_dec (fun i => level_of s i <= k /\ length (adj (s_graph s)) <= i) (length (s_lg s)))
        as [H|H].
      + intro i. destruct (le_dec (level_of s i) k), (le_dec (length (adj (s_graph s))) i); tauto.
      + right. right. split; auto.
      + left. right. split; auto. intros i Hi Hl.
        destruct (Nat.lt_ge_cases i (length (adj (s_graph s)))); auto. exfalso. apply H. eauto.
  Qed.

  Lemma update_levels_sound s' gl' : update_levels h M dbg g k s gl = Ok (s', gl') ->
    s_hash s' = s_hash s /\ sub_ok g src k s' /\ map_returned n M (s_lg s') gl gl'.
  Proof.
    intro E. destruct update_fine_dec as [H|[(H1 & H2 & H3 & H4)|(H1 & i & H2 & H3 & H4)]].
    - destruct (update_levels_ok H) as (s1 & gl1 & E1 & R1 & R2 & R3 & _).
      rewrite E1 in E. injection E as <- <-. auto.
    - rewrite update_levels_aborts in E by auto. discriminate.
    - rewrite (update_levels_undefined i) in E by auto. discriminate.
  Qed.
End Update.
