(** pseudo_peripheral_vertex terminates at a vertex of locally greatest distance. *)
From Verif Require Import Base ListFacts Csr GraphModel GraphSpec GraphFacts TraversalModel Bfs
  TraversalFacts.

Lemma degree_row dbg d g v : well_formed d g -> v < size_vertex g ->
  degree dbg g v = Ok (length (row g v)).
Proof.
  intros (rs & H & _) Hv. rewrite (repr_size _ _ H) in Hv.
  rewrite (degree_ok dbg g rs) by auto. rewrite (repr_row g rs) by auto. reflexivity.
Qed.

Lemma row_length d g v : well_formed d g -> v < size_vertex g -> length (row g v) <= size_vertex g.
Proof.
  intros (rs & H & Hr) Hv. rewrite (repr_size _ _ H) in *. rewrite (repr_row g rs) by auto.
  destruct (Hr v Hv) as (Ha & Hb & _). apply ascending_NoDup in Ha.
  rewrite <- (seq_length (length rs) 0). apply NoDup_incl_length; auto.
  intros x Hx. apply in_seq. destruct (Hb x Hx). lia.
Qed.

Section Peripheral.
  Variables (M : nat) (dbg d : bool) (g : graph).
  Let n := size_vertex g.
  Let deg v := length (row g v).
  Hypothesis Hwf : well_formed d g.
  Hypothesis HM : n <= M.
  Hypothesis Hn : 1 < n.

  Lemma peripheral_inner D node0 maxd0 : length D = n -> node0 < n ->
    exists node maxd found,
      FOR n (peripheral_step dbg g D) (node0, maxd0, true) = Ok (node, maxd, found) /\ node < n /\
      if found : bool then node = node0 /\ maxd = maxd0 /\
        (forall i, i < n -> nth i D 0 <= maxd /\ (nth i D 0 = maxd -> deg node <= deg i))
      else nth node D 0 = maxd /\ (forall i, i < n -> nth i D 0 <= maxd) /\
        (maxd0 < maxd \/ (maxd = maxd0 /\ deg node < deg node0)).
  Proof.
    intros HD H0.
    destruct (FOR_inv (fun k s => let '(node, maxd, found) := s in node < n /\
      if found : bool then node = node0 /\ maxd = maxd0 /\
        (forall i, i < k -> nth i D 0 <= maxd /\ (nth i D 0 = maxd -> deg node <= deg i))
      else nth node D 0 = maxd /\ (forall i, i < k -> nth i D 0 <= maxd) /\
        (maxd0 < maxd \/ (maxd = maxd0 /\ deg node < deg node0)))
      n (peripheral_step dbg g D) (node0, maxd0, true)) as (((node & maxd) & found) & E & P1 & P2).
    - split; auto. split; auto. split; auto. intros; lia.
    - intros i ((node & maxd) & found) Hi (P1 & P2). unfold peripheral_step.
      rewrite (vget_lt D i 0) by lia. cbn [bind].
      destruct (Nat.ltb_spec maxd (nth i D 0)) as [H|H].
      + eexists. split; [reflexivity|]. cbv beta iota. split; auto. split; auto. split.
        * intros j Hj. destruct (Nat.eq_dec j i) as [->|]; [lia|].
          destruct found; destruct P2 as (P2 & P3 & P4).
          -- subst. specialize (P4 j ltac:(lia)). lia.
          -- specialize (P3 j ltac:(lia)). lia.
        * left. destruct found; destruct P2 as (P2 & P3 & P4); lia.
      + rewrite (degree_row dbg d g i) by auto. rewrite (degree_row dbg d g node) by auto.
        cbn [bind]. change (length (row g i)) with (deg i). change (length (row g node)) with (deg node).
        destruct (Nat.eqb_spec (nth i D 0) maxd) as [E|E].
        * destruct (Nat.ltb_spec (deg i) (deg node)) as [Hd|Hd].
          -- eexists. split; [reflexivity|]. cbv beta iota. split; auto. split; auto. rewrite E.
             destruct found; destruct P2 as (P2 & P3 & P4).
             ++ split; [|right; subst; split; auto; lia].
                intros j Hj. destruct (Nat.eq_dec j i) as [->|]; [lia|]. apply P4. lia.
             ++ split; [|lia]. intros j Hj. destruct (Nat.eq_dec j i) as [->|]; [lia|]. apply P3. lia.
          -- eexists. split; [reflexivity|]. cbv beta iota. split; auto.
             destruct found; destruct P2 as (P2 & P3 & P4); split; auto; split; auto.
             ++ intros j Hj. destruct (Nat.eq_dec j i) as [->|]; [lia|]. apply P4. lia.
             ++ intros j Hj. destruct (Nat.eq_dec j i) as [->|]; [lia|]. apply P3. lia.
        * eexists. split; [reflexivity|]. cbv beta iota. split; auto.
          destruct found; destruct P2 as (P2 & P3 & P4); split; auto; split; auto.
          -- intros j Hj. destruct (Nat.eq_dec j i) as [->|]; [lia|]. apply P4. lia.
          -- intros j Hj. destruct (Nat.eq_dec j i) as [->|]; [lia|]. apply P3. lia.
    - exists node, maxd, found. auto.
  Qed.

  (** Distances as the level vector reports them: [M] when there is no walk. *)
  Definition level (u v k : nat) : Prop :=
    dist (edge g) u v k \/ (k = M /\ ~ reachable (edge g) u v).

  Lemma level_bound u v k : u < n -> level u v k -> k < n \/ k = M.
  Proof. intros Hu [H|[-> _]]; auto. left. eapply dist_lt; eauto. Qed.

  Definition code (k : nat) : nat := if k <? n then k else n.

  Lemma peripheral_loop_ok fuel node maxd :
    node < n -> (maxd < n \/ maxd = M) -> (n - code maxd) * (n + 1) + deg node < fuel ->
    exists p top, peripheral_loop fuel M dbg g node maxd = Ok p /\ p < n /\ maxd <= top /\
      (forall v k, v < n -> level node v k -> k <= top) /\
      (forall v k, v < n -> level p v k -> k <= top /\ (k = top -> deg p <= deg v)) /\
      ((p = node /\ top = maxd) \/ exists q, q < n /\ level q p top).
  Proof.
    revert node maxd. induction fuel as [|fuel IH]; intros node maxd H1 H2 H3; [lia|].
    cbn [peripheral_loop].
    destruct (level_traversal_spec M dbg d g node Hwf HM H1) as (L & E & HL & HLv); [auto|].
    rewrite E. cbn [bind]. fold n. fold n in HL, HLv.
    destruct (peripheral_inner L node maxd HL H1) as (node' & maxd' & found & E' & Hn' & Hf).
    rewrite E'. cbn [bind].
    assert (Hlev : forall v k, v < n -> (level node v k <-> nth v L 0 = k)).
    { intros v k Hv. unfold level. rewrite <- (HLv v Hv).
      rewrite (nth_error_nth_lt L v 0) by lia. split; congruence. }
    destruct found.
    - destruct Hf as (-> & -> & Hf). exists node, maxd. split; [auto|]. split; [auto|]. split; [auto|].
      split; [|split; [|auto]].
      + intros v k Hv Hk. apply (Hlev v k Hv) in Hk. subst k. apply Hf. auto.
      + intros v k Hv Hk. apply (Hlev v k Hv) in Hk. subst k. apply Hf. auto.
    - destruct Hf as (Hf1 & Hf2 & Hf3).
      assert (Hl' : level node node' maxd') by (apply Hlev; auto).
      pose proof (level_bound _ _ _ H1 Hl') as Hb.
      destruct (IH node' maxd') as (p & top & E2 & Hp & Ht & Ha & Hz & Hq); auto.
      { assert (deg node' <= n) by (eapply row_length; eauto).
        unfold code in *.
        destruct Hf3 as [Hf3|[-> Hf3]]; [|lia].
        destruct (Nat.ltb_spec maxd n), (Nat.ltb_spec maxd' n); try lia; nia. }
      exists p, top. split; auto. split; auto. split; [lia|]. split; [|split; auto].
      + intros v k Hv Hk. apply (Hlev v k Hv) in Hk. subst k. specialize (Hf2 v Hv). lia.
      + destruct Hq as [[-> ->]|Hq]; [|auto]. right. exists node. auto.
  Qed.
End Peripheral.

Lemma pseudo_peripheral_terminates M dbg d g s :
  well_formed d g -> size_vertex g <= M -> s < size_vertex g ->
  exists p, pseudo_peripheral_vertex M dbg g s = Ok p /\ p < size_vertex g.
Proof.
  intros Hw HM Hs. unfold pseudo_peripheral_vertex.
  rewrite (size_pos_nonempty d g) by (auto; lia). cbn [negb]. rewrite ASSERT_DEBUG_true. cbn [bind].
  destruct (Nat.ltb_spec s (size_vertex g)); [|lia]. rewrite ASSERT_DEBUG_true. cbn [bind].
  rewrite (degree_row dbg d g s) by auto. cbn [bind].
  destruct (Nat.eqb_spec (length (row g s)) 0) as [E|E]; [exists s; auto|].
  assert (Hn : 1 < size_vertex g).
  { destruct (row g s) as [|v r] eqn:Er; [simpl in E; lia|].
    assert (He : edge g s v) by (split; auto; rewrite Er; simpl; auto).
    apply (edge_bounds d) in He; auto. lia. }
  destruct (peripheral_loop_ok M dbg d g Hw HM Hn
    ((size_vertex g + 1) * (size_vertex g + 1) + 1) s 0 Hs) as (p & top & Ep & Hp & _); auto.
  - left. lia.
  - pose proof (row_length d g s Hw Hs). unfold code.
    destruct (Nat.ltb_spec 0 (size_vertex g)); nia.
  - exists p. auto.
Qed.

Lemma pseudo_peripheral_spec M dbg g s :
  well_formed false g -> size_vertex g <= M -> s < size_vertex g ->
  1 < size_vertex g -> connected g ->
  exists p k q, pseudo_peripheral_vertex M dbg g s = Ok p /\
    p < size_vertex g /\ q < size_vertex g /\ dist (edge g) p q k /\
    (forall v m, v < size_vertex g -> dist (edge g) p v m -> m <= k) /\
    (forall v m, v < size_vertex g -> dist (edge g) s v m -> m <= k) /\
    (forall v, v < size_vertex g -> dist (edge g) p v k -> length (row g p) <= length (row g v)).
Proof.
  intros Hw HM Hs Hn Hcon. unfold pseudo_peripheral_vertex.
  rewrite (size_pos_nonempty false g) by (auto; lia). cbn [negb]. rewrite ASSERT_DEBUG_true. cbn [bind].
  destruct (Nat.ltb_spec s (size_vertex g)); [|lia]. rewrite ASSERT_DEBUG_true. cbn [bind].
  rewrite (degree_row dbg false g s) by auto. cbn [bind].
  assert (Hsn : exists v, v < size_vertex g /\ dist (edge g) s v 1).
  { set (t := if s =? 0 then 1 else 0).
    assert (Ht : t < size_vertex g /\ t <> s) by (unfold t; destruct (Nat.eqb_spec s 0); lia).
    destruct (Hcon s t Hs (proj1 Ht)) as (m & Hm).
    destruct m as [|m]; [inversion Hm; lia|].
    change (S m) with (1 + m) in Hm. apply walk_split in Hm as (v & Hv & _).
    exists v. inversion Hv as [|? ? u ? Hu He]; subst. inversion Hu; subst.
    pose proof (edge_bounds false g _ _ Hw He) as (_ & Hvn & Hne).
    split; auto. split; auto. intros m' Hm'. destruct m'; [inversion Hm'; congruence|lia]. }
  destruct (Nat.eqb_spec (length (row g s)) 0) as [E|E].
  { destruct Hsn as (v & _ & Hv & _). inversion Hv as [|? ? u ? Hu [_ He]]; subst.
    inversion Hu; subst. destruct (row g u); [destruct He|simpl in E; lia]. }
  destruct (peripheral_loop_ok M dbg false g Hw HM Hn
    ((size_vertex g + 1) * (size_vertex g + 1) + 1) s 0 Hs) as (p & top & Ep & Hp & _ & Hls & Hlp & Hq); auto.
  - left. lia.
  - pose proof (row_length false g s Hw Hs). unfold code.
    destruct (Nat.ltb_spec 0 (size_vertex g)); nia.
  - destruct Hsn as (v & Hv & Hsv).
    assert (Htop : 1 <= top) by (apply (Hls v 1 Hv); left; auto).
    destruct Hq as [[_ ->]|(q & Hq & Hqp)]; [lia|].
    assert (Hd : dist (edge g) q p top).
    { destruct Hqp as [Hd|[_ Hd]]; auto. exfalso. apply Hd. apply Hcon; auto. }
    exists p, top, q. split; auto. split; auto. split; auto. split.
    + apply dist_sym; auto. intros a b Hab. apply edge_sym; auto.
    + split; [|split].
      * intros w m Hw' Hm. apply (Hlp w _ Hw' (or_introl Hm)); auto.
      * intros w m Hw' Hm. apply (Hls w _ Hw' (or_introl Hm)).
      * intros w Hw' Hm. apply (Hlp w _ Hw' (or_introl Hm)); auto.
Qed.
