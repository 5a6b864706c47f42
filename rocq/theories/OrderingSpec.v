(** Specifications of breadth_first, cuthill_mckee and cuthill_mckee_reverse. *)
From Verif Require Import Base ListFacts Csr GraphModel GraphSpec GraphFacts PermFacts TraversalModel
  Bfs TraversalFacts Peripheral ReorderModel Ordering.

Lemma subscript_row dbg d g v : well_formed d g -> v < size_vertex g ->
  subscript dbg g v = Ok (row g v).
Proof.
  intros (rs & H & _) Hv. rewrite (repr_size _ _ H) in Hv.
  rewrite (subscript_ok dbg g rs), (repr_row g rs) by auto. reflexivity.
Qed.

Lemma row_ascending d g v : well_formed d g -> v < size_vertex g -> ascending (row g v).
Proof.
  intros (rs & H & Hr) Hv. rewrite (repr_size _ _ H) in Hv. rewrite (repr_row g rs) by auto.
  apply Hr; auto.
Qed.

Lemma row_edge g v w : v < size_vertex g -> (In w (row g v) <-> edge g v w).
Proof. unfold edge. tauto. Qed.

Definition unvisited (V : list bool) (v : nat) : bool := negb (nth v V false).

Lemma visited_app V V' l v w : v < length V -> length V' = length V -> ~ In v l ->
  (forall w, w < length V -> nth w V' false = nth w V false || existsb (Nat.eqb w) l) ->
  nth v V' false = nth v V false /\
  (nth v V false = true -> w < length V ->
     nth w V' false = nth w V false || existsb (Nat.eqb w) (l ++ [v])) /\
  (w < length V -> nth w (upd V' v true) false = nth w V false || existsb (Nat.eqb w) (l ++ [v])).
Proof.
  intros Hv Hl Hn H. rewrite (H v Hv).
  assert (E : existsb (Nat.eqb v) l = false).
  { destruct (existsb (Nat.eqb v) l) eqn:E; auto. apply existsb_exists in E as (x & Hx & Hq).
    apply Nat.eqb_eq in Hq. subst. tauto. }
  rewrite E, orb_false_r. split; auto. rewrite existsb_app. cbn. rewrite orb_false_r. split.
  - intros Ht Hw. rewrite (H w Hw). destruct (Nat.eqb_spec w v) as [->|]; [|rewrite orb_false_r; auto].
    rewrite Ht. reflexivity.
  - intro Hw. rewrite nth_upd by lia. destruct (Nat.eqb_spec w v); rewrite ?orb_true_r; auto.
    rewrite (H w Hw), orb_false_r. reflexivity.
Qed.

Lemma bf_next_ok dbg d g x V Q : well_formed d g -> x < size_vertex g -> length V = size_vertex g ->
  exists V', bf_next dbg g x V Q = Ok (V', Q ++ filter (unvisited V) (row g x)) /\
    length V' = size_vertex g /\
    forall w, w < size_vertex g -> nth w V' false = nth w V false || existsb (Nat.eqb w) (row g x).
Proof.
  intros Hw Hx HV. unfold bf_next. rewrite (subscript_row dbg d) by auto. cbn [bind].
  pose proof (ascending_NoDup _ (row_ascending d g x Hw Hx)) as Hnd.
  destruct (forM_inv (fun l (s : list bool * list nat) =>
      length (fst s) = size_vertex g /\ snd s = Q ++ filter (unvisited V) l /\
      forall w, w < size_vertex g -> nth w (fst s) false = nth w V false || existsb (Nat.eqb w) l)
    (row g x) (fun v s => let '(V, Q) := s in
       do b <- vget V v;
       if b : bool then Ok (V, Q) else do V' <- vset V v true; Ok (V', Q ++ [v])) (V, Q))
    as ((V' & Q') & E & H1 & H2 & H3).
  - cbn. split; auto. rewrite app_nil_r. split; auto. intros. rewrite orb_false_r. auto.
  - intros l1 v l2 (V1 & Q1) El (I1 & I2 & I3). cbn [fst snd] in *.
    assert (Hv : v < size_vertex g).
    { apply (edge_bounds d g x v Hw). apply row_edge; auto. rewrite El. apply in_or_app; right; left; auto. }
    assert (Hn : ~ In v l1).
    { rewrite El in Hnd. apply NoDup_remove_2 in Hnd. intro. apply Hnd, in_or_app. auto. }
    rewrite (vget_lt V1 v false) by lia. cbn [bind].
    assert (VA := fun w => visited_app V V1 l1 v w ltac:(lia) ltac:(lia) Hn
                    ltac:(intros; apply I3; lia)).
    assert (Ev : nth v V1 false = nth v V false) by apply (VA 0).
    rewrite Ev. destruct (nth v V false) eqn:Eb.
    + exists (V1, Q1). split; auto. split; auto. split.
      * cbn [snd]. rewrite I2, filter_app. cbn [filter].
        replace (unvisited V v) with false by (unfold unvisited; rewrite Eb; reflexivity).
        rewrite app_nil_r. reflexivity.
      * intros w Hw'. apply (VA w); auto; lia.
    + rewrite vset_lt by lia. cbn [bind]. eexists. split; [reflexivity|]. cbn [fst snd].
      split; [rewrite upd_length; lia|]. split.
      * rewrite I2, filter_app, <- app_assoc. cbn [filter].
        replace (unvisited V v) with true by (unfold unvisited; rewrite Eb; reflexivity). reflexivity.
      * intros w Hw'. apply (VA w); lia.
  - exists V'. rewrite E. cbn [fst snd] in *. subst Q'. auto.
Qed.

Lemma existsb_In w l : existsb (Nat.eqb w) l = true <-> In w l.
Proof.
  rewrite existsb_exists. split; [intros (x & H1 & H2); apply Nat.eqb_eq in H2; subst; auto|].
  intro. exists w. split; auto. apply Nat.eqb_refl.
Qed.

Lemma sorted_nth {A} (R : A -> A -> Prop) l : StronglySorted R l ->
  forall i j u v, i < j -> nth_error l i = Some u -> nth_error l j = Some v -> R u v.
Proof.
  induction 1 as [|x l H IH HF]; intros i j u v Hij Hi Hj; [destruct i; discriminate|].
  destruct j as [|j]; [lia|]. cbn in Hj. destruct i as [|i]; cbn in Hi.
  - injection Hi as <-. rewrite Forall_forall in HF. apply HF. eapply nth_error_In; eauto.
  - apply (IH i j); auto. lia.
Qed.

Lemma in_unvisited d g x V w : well_formed d g -> x < size_vertex g ->
  (In w (filter (unvisited V) (row g x)) <-> edge g x w /\ nth w V false = false).
Proof.
  intros Hw Hx. rewrite filter_In, row_edge by auto. unfold unvisited.
  destruct (nth w V false); intuition discriminate.
Qed.

Lemma bf_next_spec dbg d g : well_formed d g -> next_spec g (fun v => v) (bf_next dbg g).
Proof.
  intros Hw x V Q Hx HV. destruct (bf_next_ok dbg d g x V Q Hw Hx HV) as (V' & E & H1 & H2).
  exists V', (filter (unvisited V) (row g x)). split; auto. split; auto.
  pose proof (ascending_filter (unvisited V) _ (row_ascending d g x Hw Hx)) as Ha.
  split; [apply ascending_NoDup; auto|]. split; [intro; eapply in_unvisited; eauto|]. split.
  - intros w Hw'. rewrite H2, orb_true_iff, existsb_In, row_edge by auto. tauto.
  - intros i j u v Hij Hi Hj. apply Nat.lt_le_incl. eapply (sorted_nth lt); eauto.
Qed.

(** A correct sorting routine for the comparison of second components. *)
Definition sorts_by_second (sortf : list (nat * nat) -> list (nat * nat)) : Prop :=
  forall l, Permutation (sortf l) l /\ StronglySorted (fun a b => snd a <= snd b) (sortf l).

Lemma StronglySorted_map {A B} (f : A -> B) (R : B -> B -> Prop) l :
  StronglySorted (fun a b => R (f a) (f b)) l -> StronglySorted R (map f l).
Proof.
  induction 1 as [|x l H IH HF]; cbn; constructor; auto.
  rewrite Forall_forall in *. intros y Hy. apply in_map_iff in Hy as (z & <- & Hz). auto.
Qed.

Lemma cmk_next_ok sortf dbg d g x V Q : well_formed d g -> x < size_vertex g ->
  length V = size_vertex g -> sorts_by_second sortf ->
  exists V' new, cmk_next sortf dbg g x V Q = Ok (V', Q ++ new) /\
    length V' = size_vertex g /\
    (forall w, w < size_vertex g -> nth w V' false = nth w V false || existsb (Nat.eqb w) (row g x)) /\
    Permutation new (filter (unvisited V) (row g x)) /\
    StronglySorted (fun a b => length (row g a) <= length (row g b)) new.
Proof.
  intros Hw Hx HV Hsort. unfold cmk_next. rewrite (subscript_row dbg d) by auto. cbn [bind].
  pose proof (ascending_NoDup _ (row_ascending d g x Hw Hx)) as Hnd.
  set (pr := fun v => (v, length (row g v))).
  destruct (forM_inv (fun l (s : list bool * list (nat * nat)) =>
      length (fst s) = size_vertex g /\ snd s = map pr (filter (unvisited V) l) /\
      forall w, w < size_vertex g -> nth w (fst s) false = nth w V false || existsb (Nat.eqb w) l)
    (row g x) (fun v s => let '(V, A) := s in
       do b <- vget V v;
       if b : bool then Ok (V, A)
       else do V' <- vset V v true; do k <- degree dbg g v; Ok (V', A ++ [(v, k)])) (V, []))
    as ((V' & A) & E & H1 & H2 & H3).
  - cbn. split; auto. split; auto. intros. rewrite orb_false_r. auto.
  - intros l1 v l2 (V1 & Q1) El (I1 & I2 & I3). cbn [fst snd] in *.
    assert (Hv : v < size_vertex g).
    { apply (edge_bounds d g x v Hw). apply row_edge; auto. rewrite El. apply in_or_app; right; left; auto. }
    assert (Hn : ~ In v l1).
    { rewrite El in Hnd. apply NoDup_remove_2 in Hnd. intro. apply Hnd, in_or_app. auto. }
    rewrite (vget_lt V1 v false) by lia. cbn [bind].
    assert (VA := fun w => visited_app V V1 l1 v w ltac:(lia) ltac:(lia) Hn
                    ltac:(intros; apply I3; lia)).
    assert (Ev : nth v V1 false = nth v V false) by apply (VA 0).
    rewrite Ev. destruct (nth v V false) eqn:Eb.
    + exists (V1, Q1). split; auto. split; auto. split.
      * cbn [snd]. rewrite I2, filter_app. cbn [filter].
        replace (unvisited V v) with false by (unfold unvisited; rewrite Eb; reflexivity).
        rewrite app_nil_r. reflexivity.
      * intros w Hw'. apply (VA w); auto; lia.
    + rewrite vset_lt by lia. cbn [bind]. rewrite (degree_row dbg d) by auto. cbn [bind].
      eexists. split; [reflexivity|]. cbn [fst snd].
      split; [rewrite upd_length; lia|]. split.
      * rewrite I2, filter_app, map_app. cbn [filter].
        replace (unvisited V v) with true by (unfold unvisited; rewrite Eb; reflexivity). reflexivity.
      * intros w Hw'. apply (VA w); lia.
  - rewrite E. cbn [bind fst snd] in *. exists V', (map fst (sortf A)). split.
    + destruct A; auto. destruct (Hsort []) as [Hp _]. apply Permutation_sym, Permutation_nil in Hp.
      rewrite Hp. cbn. rewrite app_nil_r. reflexivity.
    + split; auto. split; auto. destruct (Hsort A) as [Hp Hs]. split.
      * rewrite Hp, H2, map_map. cbn. rewrite map_id. reflexivity.
      * apply StronglySorted_map.
        assert (Hall : forall a, In a (sortf A) -> snd a = length (row g (fst a))).
        { intros a Ha. apply (Permutation_in _ Hp) in Ha. rewrite H2 in Ha.
          apply in_map_iff in Ha as (v & <- & _). reflexivity. }
        clear - Hs Hall. induction Hs as [|a l H IH HF]; constructor.
        -- apply IH. intros b Hb. apply Hall. right; auto.
        -- rewrite Forall_forall in *. intros b Hb. rewrite <- !Hall; simpl; auto.
Qed.

Lemma cmk_next_spec sortf dbg d g : well_formed d g -> sorts_by_second sortf ->
  next_spec g (fun v => length (row g v)) (cmk_next sortf dbg g).
Proof.
  intros Hw Hs x V Q Hx HV.
  destruct (cmk_next_ok sortf dbg d g x V Q Hw Hx HV Hs) as (V' & new & E & H1 & H2 & H3 & H4).
  exists V', new. split; auto. split; auto.
  pose proof (ascending_filter (unvisited V) _ (row_ascending d g x Hw Hx)) as Ha.
  split; [eapply Permutation_NoDup; [apply Permutation_sym; eauto|apply ascending_NoDup; auto]|].
  split; [|split].
  - intro w. rewrite <- (in_unvisited d) by auto.
    split; apply Permutation_in; auto. apply Permutation_sym; auto.
  - intros w Hw'. rewrite H2, orb_true_iff, existsb_In, row_edge by auto. tauto.
  - intros i j u v Hij Hi Hj. eapply (sorted_nth _ _ H4); eauto.
Qed.

Lemma breadth_first_total M dbg d g s : well_formed d g -> s < size_vertex g ->
  exists p, (breadth_first M dbg g s = Ok p /\ (forall v, v < size_vertex g -> reachable (edge g) s v) /\
             level_order g (fun v => v) s p) \/
            (breadth_first M dbg g s = Abort /\ exists v, v < size_vertex g /\ ~ reachable (edge g) s v).
Proof.
  intros Hw Hs. unfold breadth_first. rewrite (size_pos_nonempty d) by (auto; lia).
  replace (s <? size_vertex g) with true by (symmetry; apply Nat.ltb_lt; auto).
  rewrite ASSERT_DEBUG_true. cbn [bind]. rewrite vset_lt by (rewrite repeat_length; auto). cbn [bind].
  destruct (order_total d g s (fun v => v) Hw Hs (bf_next dbg g) (bf_next_spec dbg d g Hw) M)
    as (p & k & E & Hk & Hp). rewrite E. cbn [bind fst snd]. exists p.
  destruct (Nat.eqb_spec k (size_vertex g)) as [Hq|Hq]; [left|right]; cbn; split; auto.
  - split; auto. apply Hk; auto.
  - destruct (bounded_dec (fun v => ~ reachable (edge g) s v) (size_vertex g)) as [H|H]; auto.
    + intro v. destruct (reachable_dec d g s v Hw Hs); auto.
    + exfalso. apply Hq, Hk. intros v Hv. destruct (reachable_dec d g s v Hw Hs); auto.
      exfalso. apply H. eauto.
Qed.

Lemma breadth_first_spec M dbg g s : well_formed false g -> s < size_vertex g -> connected g ->
  exists p, breadth_first M dbg g s = Ok p /\ level_order g (fun v => v) s p.
Proof.
  intros Hw Hs Hc. destruct (breadth_first_total M dbg false g s Hw Hs) as (p & [(H1 & _ & H2)|(_ & v & Hv & H)]).
  - eauto.
  - exfalso. apply H, Hc; auto.
Qed.

Lemma breadth_first_abort M dbg g s : well_formed false g -> s < size_vertex g ->
  ~ connected g -> breadth_first M dbg g s = Abort.
Proof.
  intros Hw Hs Hc. destruct (breadth_first_total M dbg false g s Hw Hs) as (p & [(_ & H & _)|(H & _)]); auto.
  exfalso. apply Hc. intros u v Hu Hv. destruct (H u Hu) as (a & Ha). destruct (H v Hv) as (b & Hb).
  exists (a + b). eapply walk_trans; eauto. apply walk_sym; auto. intros x y. apply edge_sym; auto.
Qed.

(** *** cuthill_mckee *)

Lemma cmk_total sortf M dbg d g s : well_formed d g -> sorts_by_second sortf -> s < size_vertex g ->
  size_vertex g <= M ->
  exists p, (cuthill_mckee sortf M dbg g s = Ok p /\
             (forall v, v < size_vertex g -> reachable (edge g) s v) /\
             level_order g (fun v => length (row g v)) s p) \/
            (cuthill_mckee sortf M dbg g s = Abort /\ exists v, v < size_vertex g /\ ~ reachable (edge g) s v).
Proof.
  intros Hw Hso Hs HM. unfold cuthill_mckee. rewrite (size_pos_nonempty d) by (auto; lia).
  replace (s <? size_vertex g) with true by (symmetry; apply Nat.ltb_lt; auto).
  rewrite ASSERT_DEBUG_true. cbn [bind]. destruct (Nat.eqb_spec s M) as [Heq|_]; [lia|]. cbn [bind].
  rewrite vset_lt by (rewrite repeat_length; auto). cbn [bind].
  destruct (order_total d g s (fun v => length (row g v)) Hw Hs (cmk_next sortf dbg g)
              (cmk_next_spec sortf dbg d g Hw Hso) M)
    as (p & k & E & Hk & Hp). rewrite E. cbn [bind fst snd]. exists p.
  destruct (Nat.eqb_spec k (size_vertex g)) as [Hq|Hq]; [left|right]; cbn; split; auto.
  - split; auto. apply Hk; auto.
  - destruct (bounded_dec (fun v => ~ reachable (edge g) s v) (size_vertex g)) as [H|H]; auto.
    + intro v. destruct (reachable_dec d g s v Hw Hs); auto.
    + exfalso. apply Hq, Hk. intros v Hv. destruct (reachable_dec d g s v Hw Hs); auto.
      exfalso. apply H. eauto.
Qed.

Lemma cmk_spec sortf M dbg g s : well_formed false g -> sorts_by_second sortf ->
  size_vertex g <= M -> s < size_vertex g -> connected g ->
  exists p, cuthill_mckee sortf M dbg g s = Ok p /\ level_order g (fun v => length (row g v)) s p.
Proof.
  intros Hw Hso HM Hs Hc.
  destruct (cmk_total sortf M dbg false g s Hw Hso Hs HM) as (p & [(H1 & _ & H2)|(_ & v & Hv & H)]).
  - eauto.
  - exfalso. apply H, Hc; auto.
Qed.

Lemma cmk_abort sortf M dbg g s : well_formed false g -> sorts_by_second sortf ->
  size_vertex g <= M -> s < size_vertex g -> ~ connected g ->
  cuthill_mckee sortf M dbg g s = Abort.
Proof.
  intros Hw Hso HM Hs Hc.
  destruct (cmk_total sortf M dbg false g s Hw Hso Hs HM) as (p & [(_ & H & _)|(H & _)]); auto.
  exfalso. apply Hc. intros u v Hu Hv. destruct (H u Hu) as (a & Ha). destruct (H v Hv) as (b & Hb).
  exists (a + b). eapply walk_trans; eauto. apply walk_sym; auto. intros x y. apply edge_sym; auto.
Qed.

Lemma row_length_lt d g v : well_formed d g -> v < size_vertex g -> length (row g v) < size_vertex g.
Proof.
  intros Hw Hv. pose proof (row_ascending d g v Hw Hv) as Ha. apply ascending_NoDup in Ha.
  assert (Hn : ~ In v (row g v)).
  { intro H. apply row_edge in H; auto. apply (edge_bounds d g v v Hw H). auto. }
  assert (H : length (v :: row g v) <= length (seq 0 (size_vertex g))).
  { apply NoDup_incl_length; [constructor; auto|]. intros x [<-|Hx]; apply in_seq; [lia|].
    apply row_edge in Hx; auto. destruct (edge_bounds d g v x Hw Hx) as (_ & Hb & _). lia. }
  rewrite seq_length in H. cbn in H. lia.
Qed.

(** The first vertex of minimum degree. *)
Definition first_minimum (g : graph) (s : nat) : Prop :=
  s < size_vertex g /\ (forall v, v < size_vertex g -> length (row g s) <= length (row g v)) /\
  forall v, v < s -> length (row g s) < length (row g v).

Lemma cmk_start_ok M dbg d g : well_formed d g -> 0 < size_vertex g -> size_vertex g <= M ->
  (dbg = true -> forall v, v < size_vertex g -> row g v <> []) ->
  exists s, cmk_start M dbg g = Ok s /\ first_minimum g s.
Proof.
  intros Hw H0 HM Hz. unfold cmk_start.
  destruct (FOR_inv (fun k (s : nat * nat) =>
      (k = 0 -> s = (M, M)) /\
      (0 < k -> fst s < k /\ snd s = length (row g (fst s)) /\
         (forall v, v < k -> snd s <= length (row g v)) /\
         (forall v, v < fst s -> snd s < length (row g v))))
    (size_vertex g) (fun i s =>
    let '(start, minimum) := s in
    do k <- degree dbg g i;
    if k <? minimum then do _ <- ASSERT_DEBUG dbg (negb (k =? 0)); Ok (i, k)
    else Ok (start, minimum)) (M, M)) as ((st & mn) & E & _ & H).
  - split; auto. lia.
  - intros i (st & mn) Hi [I0 I1]. cbn [fst snd] in *. rewrite (degree_row dbg d) by auto. cbn [bind].
    pose proof (row_length_lt d g i Hw Hi) as Hlt.
    assert (Ha : forall b, ASSERT_DEBUG dbg (negb (length (row g i) =? 0)) = Ok b <-> b = tt).
    { intro b. destruct b. split; auto. intros _. destruct dbg; auto.
      destruct (Nat.eqb_spec (length (row g i)) 0) as [Hq|]; auto.
      exfalso. apply (Hz eq_refl i Hi). destruct (row g i); auto; discriminate. }
    rewrite (proj2 (Ha tt) eq_refl). cbn [bind].
    destruct (Nat.ltb_spec (length (row g i)) mn) as [Hc|Hc].
    + eexists. split; [reflexivity|]. split; [lia|]. intros _. cbn [fst snd].
      split; [lia|]. split; auto. destruct i as [|i].
      * split; [|lia]. intros v Hv. replace v with 0 by lia. auto.
      * destruct I1 as (J1 & J2 & J3 & J4); [lia|]. split.
        -- intros v Hv. destruct (Nat.eq_dec v (S i)) as [->|]; auto.
           specialize (J3 v ltac:(lia)). lia.
        -- intros v Hv. specialize (J3 v ltac:(lia)). lia.
    + eexists. split; [reflexivity|]. split; [lia|]. intros _. cbn [fst snd].
      destruct i as [|i].
      * specialize (I0 eq_refl). injection I0 as -> ->. lia.
      * destruct I1 as (J1 & J2 & J3 & J4); [lia|]. split; [lia|]. split; auto. split; auto.
        intros v Hv. destruct (Nat.eq_dec v (S i)) as [->|]; auto. apply J3. lia.
  - rewrite E. cbn [bind fst snd] in *. destruct (H H0) as (J1 & J2 & J3 & J4).
    destruct (Nat.eqb_spec st M) as [Hq|_]; [lia|]. cbn. exists st. split; auto.
    split; auto. rewrite <- J2. auto.
Qed.

Lemma cmk_default_start sortf M dbg d g s : well_formed d g -> 0 < size_vertex g -> size_vertex g <= M ->
  cmk_start M dbg g = Ok s -> s < size_vertex g ->
  cuthill_mckee sortf M dbg g M = cuthill_mckee sortf M dbg g s.
Proof.
  intros Hw H0 HM Hs Hlt. unfold cuthill_mckee. rewrite (size_pos_nonempty d) by auto.
  replace (s <? size_vertex g) with true by (symmetry; apply Nat.ltb_lt; auto).
  rewrite Nat.eqb_refl, orb_true_r, ASSERT_DEBUG_true. cbn [orb].
  rewrite ASSERT_DEBUG_true. cbn [bind]. rewrite Hs. destruct (Nat.eqb_spec s M); [lia|]. reflexivity.
Qed.

Lemma connected_degree g v : well_formed false g -> connected g -> 1 < size_vertex g ->
  v < size_vertex g -> row g v <> [].
Proof.
  intros Hw Hc H1 Hv E.
  assert (Hex : exists w, w <> v /\ w < size_vertex g)
    by (exists (if v =? 0 then 1 else 0); destruct (Nat.eqb_spec v 0); lia).
  destruct Hex as (w & Hwv).
  destruct (Hc w v) as (k & Hk); [tauto|auto|]. destruct k as [|k]; inversion Hk as [|? ? u ? Hu He]; subst; [tauto|].
  apply edge_sym in He; auto. destruct He as [_ He]. rewrite E in He. destruct He.
Qed.

Lemma cmk_default_spec sortf M dbg g : well_formed false g -> sorts_by_second sortf ->
  size_vertex g <= M -> 0 < size_vertex g -> connected g -> (dbg = true -> 1 < size_vertex g) ->
  exists s p, cuthill_mckee sortf M dbg g M = Ok p /\ first_minimum g s /\
    level_order g (fun v => length (row g v)) s p.
Proof.
  intros Hw Hso HM H0 Hc Hd.
  destruct (cmk_start_ok M dbg false g Hw H0 HM) as (s & E & Hm).
  { intros. apply connected_degree; auto. }
  destruct (cmk_spec sortf M dbg g s) as (p & Ep & Hp); auto; [apply Hm|].
  exists s, p. rewrite (cmk_default_start sortf M dbg false g s) by (auto; apply Hm). auto.
Qed.

(** The one vertex graph is connected but refused with the default start in a debug build. *)
Lemma cmk_one sortf M d g : well_formed d g -> size_vertex g = 1 -> 1 <= M ->
  cuthill_mckee sortf M true g M = Abort.
Proof.
  intros Hw H1 HM. unfold cuthill_mckee. rewrite (size_pos_nonempty d) by (auto; lia).
  rewrite Nat.eqb_refl, orb_true_r, ASSERT_DEBUG_true. cbn [bind]. unfold cmk_start. rewrite H1.
  unfold FOR. cbn [seq forM]. rewrite (degree_row true d) by (auto; lia). cbn [bind].
  pose proof (row_length_lt d g 0 Hw ltac:(lia)).
  assert (E : length (row g 0) = 0) by lia. rewrite E.
  destruct (Nat.ltb_spec 0 M); [|lia]. reflexivity.
Qed.

(** *** cuthill_mckee_reverse *)
Lemma cmk_reverse_spec sortf M dbg g s p : cuthill_mckee sortf M dbg g s = Ok p ->
  is_perm (size_vertex g) p ->
  exists q, cuthill_mckee_reverse sortf M dbg g s = Ok q /\ is_perm (size_vertex g) q /\
    forall v, v < size_vertex g -> nth v q 0 + nth v p 0 + 1 = size_vertex g.
Proof.
  intros E Hp. unfold cuthill_mckee_reverse. rewrite E. cbn [bind].
  pose proof (perm_length _ _ Hp) as Hl. set (n := size_vertex g) in *.
  assert (Hq : forall v, v < n -> nth v (map (fun t => length p - t - 1) p) 0 + nth v p 0 + 1 = n).
  { intros v Hv. pose proof (perm_bound n p v Hp Hv).
    rewrite (nth_indep _ 0 (length p - 0 - 1)) by (rewrite map_length; lia).
    rewrite (map_nth (fun t => length p - t - 1)). lia. }
  eexists. split; [reflexivity|]. split; auto.
  apply perm_intro_nth; [rewrite map_length; auto| |].
  - intros i Hi. specialize (Hq i Hi). lia.
  - intros i j Hi Hj H. pose proof (Hq i Hi). pose proof (Hq j Hj).
    apply (perm_inj n p); auto. lia.
Qed.

Lemma cmk_reverse_start sortf M dbg g s : well_formed false g -> sorts_by_second sortf ->
  size_vertex g <= M -> s < size_vertex g -> connected g ->
  exists p q, cuthill_mckee sortf M dbg g s = Ok p /\ cuthill_mckee_reverse sortf M dbg g s = Ok q /\
    is_perm (size_vertex g) q /\ nth s q 0 = size_vertex g - 1 /\
    forall v, v < size_vertex g -> nth v q 0 = size_vertex g - 1 - nth v p 0.
Proof.
  intros Hw Hso HM Hs Hc. destruct (cmk_spec sortf M dbg g s) as (p & E & Hp); auto.
  destruct (cmk_reverse_spec sortf M dbg g s p E (lo_perm _ _ _ _ Hp)) as (q & Eq & H1 & H2).
  exists p, q. split; auto. split; auto. split; auto. pose proof (lo_start _ _ _ _ Hp). split.
  - specialize (H2 s Hs). lia.
  - intros v Hv. specialize (H2 v Hv). lia.
Qed.
