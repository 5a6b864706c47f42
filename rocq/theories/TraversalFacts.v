(** level_traversal and eccentricity_vertex_breadth_first compute distances. *)
From Verif Require Import Base ListFacts Csr GraphModel GraphSpec GraphFacts TraversalModel Bfs.

Lemma nth_map_default {A B} (f : A -> B) l i da db : f da = db -> nth i (map f l) db = f (nth i l da).
Proof. intros <-. apply map_nth. Qed.

Lemma wrap_inc_M M : wrap_inc M M = 0.
Proof. unfold wrap_inc. rewrite Nat.eqb_refl. reflexivity. Qed.

Lemma wrap_dec_0 M : wrap_dec M 0 = M.
Proof. reflexivity. Qed.

Lemma lev_roll M L v : lev 0 1 (map (wrap_inc M) L) v = lev M 0 L v.
Proof.
  unfold lev. rewrite (nth_map_default _ _ _ M 0) by apply wrap_inc_M.
  unfold wrap_inc. destruct (Nat.eqb_spec (nth v L M) M) as [E|E]; [reflexivity|].
  destruct (Nat.eqb_spec (nth v L M + 1) 0); [lia|]. f_equal. lia.
Qed.

Lemma lev_unroll M L v : (forall k, lev 0 1 L v = Some k -> k < M) ->
  lev M 0 (map (wrap_dec M) L) v = lev 0 1 L v.
Proof.
  unfold lev. rewrite (nth_map_default _ _ _ 0 M) by apply wrap_dec_0. unfold wrap_dec.
  destruct (Nat.eqb_spec (nth v L 0) 0) as [E|E]; intro H.
  - rewrite Nat.eqb_refl. reflexivity.
  - specialize (H _ eq_refl). destruct (Nat.eqb_spec (nth v L 0 - 1) M); [lia|]. f_equal. lia.
Qed.

Lemma vmax_lt l m : l <> [] -> (forall x, In x l -> x < m) -> exists k, vmax l = Ok k /\ k < m.
Proof.
  intros Hl H. destruct l as [|a l]; [congruence|]. exists (fold_left Nat.max l a). split; auto.
  assert (G : forall l a, a < m -> (forall x, In x l -> x < m) -> fold_left Nat.max l a < m).
  { clear. induction l as [|b l IH]; intros a Ha H; simpl; auto.
    apply IH; [|intros; apply H; simpl; auto]. specialize (H b ltac:(simpl; auto)). lia. }
  apply G; [apply H; simpl; auto|intros; apply H; simpl; auto].
Qed.

Lemma vmax_spec l : l <> [] -> exists k, vmax l = Ok k /\ In k l /\ forall x, In x l -> x <= k.
Proof.
  intros Hl. destruct l as [|a l]; [congruence|]. exists (fold_left Nat.max l a). split; auto.
  clear Hl. revert a. induction l as [|b l IH]; intro a; cbn [fold_left].
  - split; [simpl; auto|]. intros x [<-|[]]. auto.
  - destruct (IH (Nat.max a b)) as [H1 H2]. split.
    + destruct H1 as [H1|H1]; [|simpl; auto]. rewrite <- H1.
      destruct (Nat.max_spec a b) as [[_ ->]|[_ ->]]; simpl; auto.
    + intros x Hx. pose proof (H2 (Nat.max a b) ltac:(simpl; auto)).
      destruct Hx as [<-|[<-|Hx]]; try lia. apply H2. simpl; auto.
Qed.

Lemma size_pos_nonempty d g : well_formed d g -> 0 < size_vertex g -> g_empty g = false.
Proof.
  intros (rs & H & _) Hn. rewrite (g_empty_repr _ _ H). rewrite (repr_size _ _ H) in Hn.
  destruct rs; [simpl in Hn; lia|auto].
Qed.

Lemma ASSERT_DEBUG_true dbg : ASSERT_DEBUG dbg true = Ok tt.
Proof. destruct dbg; reflexivity. Qed.

Definition end_cap (M n e : nat) : nat := if e =? M then n else e.

Lemma core_roll M g cap src L : core g M 0 cap src L <-> core g 0 1 cap src (map (wrap_inc M) L).
Proof.
  split; intros [H1 H2 H3 H4 H5]; constructor;
    repeat (setoid_rewrite lev_roll || setoid_rewrite lev_roll in H2
            || setoid_rewrite lev_roll in H3
            || setoid_rewrite lev_roll in H4 || setoid_rewrite lev_roll in H5);
    rewrite ?map_length in *; auto.
Qed.

Lemma levn_roll M g cap src L v k : core g M 0 cap src L -> lev M 0 L v = Some k ->
  levn 0 1 (map (wrap_inc M) L) v = levn M 0 L v.
Proof.
  intros _ H. rewrite (lev_levn M 0 L v k) by auto. apply lev_levn. rewrite lev_roll. auto.
Qed.

Lemma level_traversal_queue_spec M dbg d g src Q L e :
  well_formed d g -> size_vertex g <= M -> 0 < size_vertex g ->
  inv g M 0 (end_cap M (size_vertex g) e) src L Q ->
  (dbg = true -> forall v k, lev M 0 L v = Some k -> k + 1 < size_vertex g) ->
  exists L', level_traversal_queue M dbg g Q L e = Ok L' /\ length L' = size_vertex g /\
    forall v k, lev M 0 L' v = Some k <->
      dist_from (edge g) src v k /\ k <= end_cap M (size_vertex g) e.
Proof.
  intros Hwf HM Hn I Hdbg. unfold level_traversal_queue.
  set (n := size_vertex g) in *. set (cap := end_cap M n e) in *.
  pose proof (i_core _ _ _ _ _ _ _ I) as Hc. pose proof (c_len _ _ _ _ _ _ Hc) as HL. fold n in HL.
  assert (Hnb : (0 = 0 /\ 1 = 1) \/ (0 = M /\ 1 = 0)) by auto.
  rewrite (size_pos_nonempty d g) by auto. cbn [negb]. rewrite ASSERT_DEBUG_true. cbn [bind].
  rewrite HL, Nat.eqb_refl, ASSERT_DEBUG_true. cbn [bind].
  assert (E : (if dbg then do m <- vmax (map (wrap_inc M) L); ASSERT (m <? n) else Ok tt) = Ok tt).
  { destruct dbg; auto. destruct (vmax_lt (map (wrap_inc M) L) n) as (m & -> & Hm).
    - intro E. apply map_eq_nil in E. subst L. simpl in HL. lia.
    - intros x Hx. apply in_map_iff in Hx as (y & <- & Hy).
      apply (In_nth _ _ M) in Hy as (v & Hv & Hy). unfold wrap_inc.
      destruct (Nat.eqb_spec y M) as [Ey|Ey]; [lia|].
      specialize (Hdbg eq_refl v y). unfold lev in Hdbg. rewrite Hy in Hdbg.
      destruct (Nat.eqb_spec y M); [congruence|]. rewrite Nat.sub_0_r in Hdbg. auto.
    - cbn [bind]. destruct (Nat.ltb_spec m n); [reflexivity|lia]. }
  rewrite E. cbn [bind].
  set (stop := fun (L : list nat) front => do lf <- vget L front; Ok (lf =? wrap_inc M e)).
  destruct (bfs_loop_ok M dbg d g 0 1 cap stop src Hwf Hnb HM)
    with (fuel := length Q + n) (L := map (wrap_inc M) L) (Q := Q) as (L2 & E2 & I2).
  - intros L0 v k HL0 Hlev Hk Hkc. unfold stop.
    pose proof (lev_lt M g 0 1 Hnb HM L0 v k HL0 Hlev) as Hv.
    rewrite (vget_lt L0 v 0) by lia. cbn [bind].
    rewrite (lev_val M g 0 1 Hnb HM _ _ _ Hlev).
    f_equal. unfold wrap_inc, cap, end_cap in *. destruct (Nat.eqb_spec e M) as [->|He].
    + destruct (Nat.eqb_spec (k + 1) 0), (Nat.leb_spec n k); auto; lia.
    + destruct (Nat.eqb_spec (k + 1) (e + 1)), (Nat.leb_spec e k); auto; lia.
  - destruct I as [_ Iq Is It Icl]. constructor.
    + apply core_roll. auto.
    + setoid_rewrite lev_roll. auto.
    + eapply sorted_ext; [|exact Is]. intros v Hv. cbn beta. symmetry.
      destruct (Iq v Hv) as (k & Hk). eapply levn_roll; eauto.
    + intros v k h Q' -> H. rewrite lev_roll in H.
      destruct (Iq h) as (m & Hm); [simpl; auto|].
      rewrite (levn_roll M g cap src L h m) by auto. eapply It; eauto.
    + setoid_rewrite lev_roll. auto.
  - pose proof (count_le 0 (map (wrap_inc M) L)). rewrite map_length in *. lia.
  - rewrite E2. cbn [bind].
    pose proof (i_core _ _ _ _ _ _ _ I2) as Hc2.
    exists (map (wrap_dec M) L2). rewrite map_length. split; [reflexivity|].
    split; [apply Hc2|]. intros v k. rewrite lev_unroll.
    + apply (inv_final M g 0 1 cap src Hnb HM L2 I2).
    + intros j Hj. pose proof (core_lt M g 0 1 cap src Hnb HM L2 v j Hc2 Hj) as Hlt. fold n in Hlt. lia.
Qed.

(** Walks are decidable, hence a shortest one exists whenever there is one. *)
Lemma bounded_dec (P : nat -> Prop) n : (forall v, {P v} + {~ P v}) ->
  {exists v, v < n /\ P v} + {~ exists v, v < n /\ P v}.
Proof.
  intro Hd. induction n as [|n [IH|IH]].
  - right. intros (v & Hv & _). lia.
  - left. destruct IH as (v & Hv & H). exists v. split; auto.
  - destruct (Hd n) as [H|H].
    + left. exists n. auto.
    + right. intros (v & Hv & Hp). destruct (Nat.eq_dec v n) as [->|Hne]; [auto|].
      apply IH. exists v. split; auto. lia.
Qed.

Lemma edge_dec g u v : {edge g u v} + {~ edge g u v}.
Proof.
  unfold edge. destruct (lt_dec u (size_vertex g)); [|right; tauto].
  destruct (in_dec Nat.eq_dec v (row g u)); [left; auto|right; tauto].
Qed.

Lemma walk_dec d g : well_formed d g -> forall k u w, {walk (edge g) k u w} + {~ walk (edge g) k u w}.
Proof.
  intros Hw k. induction k as [|k IH]; intros u w.
  - destruct (Nat.eq_dec u w) as [->|Hne]; [left; apply walk_0|].
    right. intro H. inversion H. congruence.
  - destruct (bounded_dec (fun v => walk (edge g) k u v /\ edge g v w) (size_vertex g)) as [H|H].
    + intro v. destruct (IH u v); [|right; tauto]. destruct (edge_dec g v w); [left; auto|right; tauto].
    + left. destruct H as (v & _ & H1 & H2). eapply walk_S; eauto.
    + right. intro H'. inversion H' as [|? ? v ? H1 H2]; subst. apply H. exists v.
      split; auto. apply H2.
Qed.

Lemma nat_min (P : nat -> Prop) : (forall k, {P k} + {~ P k}) -> forall m, P m ->
  exists k, k <= m /\ P k /\ forall j, P j -> k <= j.
Proof.
  intros Hd m. induction m as [m IH] using (well_founded_induction lt_wf). intro Hm.
  destruct (bounded_dec P m Hd) as [(j & Hj & H)|H].
  - destruct (IH j Hj H) as (k & Hk & Hk'). exists k. split; [lia|auto].
  - exists m. split; auto. split; auto. intros j Hj.
    destruct (Nat.le_gt_cases m j); auto. exfalso. apply H. eauto.
Qed.

Lemma exists_in_dec (P : nat -> Prop) (l : list nat) : (forall v, {P v} + {~ P v}) ->
  {exists v, In v l /\ P v} + {~ exists v, In v l /\ P v}.
Proof.
  intro Hd. destruct (existsb (fun v => if Hd v then true else false) l) eqn:E.
  - left. apply existsb_exists in E as (v & Hv & H). exists v. destruct (Hd v); auto; discriminate.
  - right. intros (v & Hv & H). assert (existsb (fun v => if Hd v then true else false) l = true).
    { apply existsb_exists. exists v. destruct (Hd v); auto; tauto. } congruence.
Qed.

Lemma dist_from_exists d g src s v m : well_formed d g -> In s src -> walk (edge g) m s v ->
  exists k, k <= m /\ dist_from (edge g) (fun x => In x src) v k.
Proof.
  intros Hw Hs Hm.
  destruct (nat_min (fun k => exists s, In s src /\ walk (edge g) k s v)) with (m := m)
    as (k & Hk & Hk1 & Hk2); eauto.
  - intro k. apply exists_in_dec. intro x. eapply walk_dec; eauto.
  - exists k. split; auto. split; auto. intros s' m' H1 H2. apply Hk2. eauto.
Qed.

Lemma dist_exists d g u v m : well_formed d g -> walk (edge g) m u v ->
  exists k, k <= m /\ dist (edge g) u v k.
Proof.
  intros Hw Hm. destruct (nat_min (fun k => walk (edge g) k u v)) with (m := m)
    as (k & Hk & Hk1 & Hk2); auto.
  - intro k. eapply walk_dec; eauto.
  - exists k. split; auto. split; auto.
Qed.

(** Reachability is decidable: a shortest walk has fewer edges than there are vertices. *)
Lemma reachable_dec d g u v : well_formed d g -> u < size_vertex g ->
  {reachable (edge g) u v} + {~ reachable (edge g) u v}.
Proof.
  intros Hw Hu.
  destruct (bounded_dec (fun k => walk (edge g) k u v) (size_vertex g)) as [H|H].
  - intro k. eapply walk_dec; eauto.
  - left. destruct H as (k & _ & H). exists k. auto.
  - right. intros (m & Hm). destruct (dist_exists d g u v m Hw Hm) as (k & _ & Hk).
    apply H. exists k. split; [eapply dist_lt; eauto|apply Hk].
Qed.

Lemma lev_nth_error M L v : v < length L ->
  forall k, nth_error L v = Some k <-> lev M 0 L v = Some k \/ (k = M /\ lev M 0 L v = None).
Proof.
  intros Hv k. unfold lev. rewrite (nth_error_nth_lt L v M Hv).
  destruct (Nat.eqb_spec (nth v L M) M) as [E|E]; rewrite ?Nat.sub_0_r.
  - rewrite E. split.
    + intro H. injection H as <-. auto.
    + intros [H|[-> _]]; [discriminate|auto].
  - split; [intro H; auto|]. intros [H|[_ H]]; [auto|discriminate].
Qed.

Lemma lev_nil M g cap src L v : core g M 0 cap src L -> size_vertex g <= v -> lev M 0 L v = None.
Proof.
  intros Hc Hv. unfold lev. rewrite nth_overflow by (rewrite (c_len _ _ _ _ _ _ Hc); auto).
  rewrite Nat.eqb_refl. auto.
Qed.

(** Initial state of a search: some vertices at level 0, all others without a level. *)
Lemma inv_init M g cap Q L :
  size_vertex g <= M -> 0 < size_vertex g -> length L = size_vertex g ->
  (forall v, In v Q -> v < size_vertex g) ->
  (forall v, v < size_vertex g -> nth_error L v = Some (if in_dec Nat.eq_dec v Q then 0 else M)) ->
  inv g M 0 cap (fun v => In v Q) L Q /\ forall v k, lev M 0 L v = Some k -> k = 0.
Proof.
  intros HM Hn HL HQ HLv.
  assert (Hlev : forall v, lev M 0 L v = if in_dec Nat.eq_dec v Q then Some 0 else None).
  { intro v. unfold lev. destruct (Nat.lt_ge_cases v (size_vertex g)) as [Hv|Hv].
    - rewrite (nth_error_nth L v M (HLv v Hv)). destruct (in_dec Nat.eq_dec v Q).
      + destruct (Nat.eqb_spec 0 M); [lia|auto].
      + rewrite Nat.eqb_refl. auto.
    - rewrite nth_overflow, Nat.eqb_refl by lia. destruct (in_dec Nat.eq_dec v Q) as [H|H]; auto.
      apply HQ in H. lia. }
  assert (H0 : forall v k, lev M 0 L v = Some k -> k = 0 /\ In v Q).
  { intros v k. rewrite Hlev. destruct (in_dec Nat.eq_dec v Q); [|discriminate].
    intro H. injection H as <-. auto. }
  assert (Hs : forall v, In v Q -> lev M 0 L v = Some 0).
  { intros v Hv. rewrite Hlev. destruct (in_dec Nat.eq_dec v Q); tauto. }
  split; [|intros v k H; apply H0 in H; tauto]. constructor.
  - constructor; auto.
    + intros v k H. apply H0 in H as [-> H]. exists v. split; auto. apply walk_0.
    + intros v k H. apply H0 in H as [-> H]. lia.
    + intros v k H. apply H0 in H as [H _]. discriminate.
    + intros s H. exists 0. auto.
  - intros v Hv. eauto.
  - assert (G : forall q, (forall v, In v q -> In v Q) ->
               StronglySorted (fun a b => levn M 0 L a <= levn M 0 L b) q).
    { induction q as [|a q IH]; intro Hq; constructor; [apply IH; intros; apply Hq; simpl; auto|].
      apply Forall_forall. intros b Hb. rewrite !(lev_levn M 0 L _ 0); auto; apply Hs, Hq; simpl; auto. }
    apply G. auto.
  - intros v k h Q' _ H. apply H0 in H as [-> _]. lia.
  - intros v k w H1 H2. apply H0 in H1. tauto.
Qed.

Lemma level_traversal_multi M dbg d g Q L e :
  well_formed d g -> size_vertex g <= M -> 0 < size_vertex g -> (dbg = true -> 1 < size_vertex g) ->
  e <= M -> length L = size_vertex g -> (forall v, In v Q -> v < size_vertex g) ->
  (forall v, v < size_vertex g -> nth_error L v = Some (if in_dec Nat.eq_dec v Q then 0 else M)) ->
  exists L', level_traversal_queue M dbg g Q L e = Ok L' /\ length L' = size_vertex g /\
    forall v, v < size_vertex g -> forall k, nth_error L' v = Some k <->
      (dist_from (edge g) (fun x => In x Q) v k /\ k <= e) \/
      (k = M /\ forall s m, In s Q -> walk (edge g) m s v -> e < m).
Proof.
  intros Hw HM Hn Hdbg He HL HQ HLv.
  destruct (inv_init M g (end_cap M (size_vertex g) e) Q L HM Hn HL HQ HLv) as [I I0].
  destruct (level_traversal_queue_spec M dbg d g _ Q L e Hw HM Hn I) as (L' & E & HL' & Hr).
  { intros Hd v k H. apply I0 in H. specialize (Hdbg Hd). lia. }
  exists L'. split; auto. split; auto. intros v Hv k. rewrite (lev_nth_error M) by lia.
  assert (Hcap : forall k, dist_from (edge g) (fun x => In x Q) v k ->
             (k <= end_cap M (size_vertex g) e <-> k <= e)).
  { intros j Hj. pose proof (dist_from_lt d g _ v j Hw HQ Hj). unfold end_cap.
    destruct (Nat.eqb_spec e M); lia. }
  rewrite Hr. split.
  - intros [[H1 H2]|[-> H]].
    + left. split; auto. apply Hcap; auto.
    + right. split; auto. intros s m Hs Hm. destruct (Nat.le_gt_cases m e) as [Hme|Hme]; auto.
      destruct (dist_from_exists d g Q s v m Hw Hs Hm) as (j & Hj & Hjd).
      assert (lev M 0 L' v = Some j).
      { apply Hr. split; auto. apply Hcap; auto. lia. } congruence.
  - intros [[H1 H2]|[-> H]].
    + left. split; auto. apply Hcap; auto.
    + right. split; auto. destruct (lev M 0 L' v) as [j|] eqn:Ej; auto. exfalso.
      apply Hr in Ej as [Ej Hj]. pose proof (proj1 (Hcap j Ej) Hj) as Hje.
      destruct Ej as [(s & Hs & Hm) _]. specialize (H s j Hs Hm). lia.
Qed.

Lemma repeat_upd_nth {A} (x y : A) n s v : s < n -> v < n ->
  nth_error (upd (repeat x n) s y) v = Some (if v =? s then y else x).
Proof.
  intros Hs Hv. rewrite nth_error_upd by (rewrite repeat_length; auto).
  rewrite nth_error_repeat', (Nat.eqb_sym v s).
  destruct (Nat.eqb_spec s v); auto. destruct (Nat.ltb_spec v n); auto; lia.
Qed.

Lemma level_traversal_spec M dbg d g s :
  well_formed d g -> size_vertex g <= M -> s < size_vertex g -> (dbg = true -> 1 < size_vertex g) ->
  exists L, level_traversal M dbg g s M = Ok L /\ length L = size_vertex g /\
    forall v, v < size_vertex g -> forall k, nth_error L v = Some k <->
      dist (edge g) s v k \/ (k = M /\ ~ reachable (edge g) s v).
Proof.
  intros Hw HM Hs Hdbg. unfold level_traversal.
  rewrite (size_pos_nonempty d g) by (auto; lia). cbn [negb]. rewrite ASSERT_DEBUG_true. cbn [bind].
  destruct (Nat.ltb_spec s (size_vertex g)); [|lia]. rewrite ASSERT_DEBUG_true. cbn [bind].
  rewrite vset_lt by (rewrite repeat_length; auto). cbn [bind].
  destruct (level_traversal_multi M dbg d g [s] (upd (repeat M (size_vertex g)) s 0) M)
    as (L & E & HL & HLv); auto.
  - lia.
  - rewrite upd_length, repeat_length; rewrite ?repeat_length; auto.
  - intros v [<-|[]]. auto.
  - intros v Hv. rewrite repeat_upd_nth by auto.
    destruct (in_dec Nat.eq_dec v [s]) as [[->|[]]|Hn]; [rewrite Nat.eqb_refl; auto|].
    destruct (Nat.eqb_spec v s) as [->|]; auto. exfalso. apply Hn. simpl; auto.
  - exists L. split; auto. split; auto. intros v Hv k. rewrite (HLv v Hv k).
    assert (Hsd : dist_from (edge g) (fun x => In x [s]) v k <-> dist (edge g) s v k).
    { rewrite <- dist_from_single. split; intros [(s' & Hs' & H1) H2].
      - destruct Hs' as [<-|[]]. split; [eauto|]. intros s' m <-. apply H2. simpl; auto.
      - subst s'. split; [exists s; simpl; auto|]. intros s' m [<-|[]]. apply H2; auto. }
    rewrite Hsd. split.
    + intros [[H1 H2]|[-> H1]]; [auto|]. right. split; auto. intros (m & Hm).
      destruct (dist_exists d g s v m Hw Hm) as (j & Hj & Hjd).
      pose proof (dist_lt d g s v j Hw Hs Hjd).
      specialize (H1 s j ltac:(simpl; auto) (proj1 Hjd)). lia.
    + intros [H1|[-> H1]].
      * left. split; auto. pose proof (dist_lt d g s v k Hw Hs H1). lia.
      * right. split; auto. intros s' m [<-|[]] Hm. exfalso. apply H1. exists m; auto.
Qed.

(** A start vertex of a one vertex graph trips the assertion on the greatest level. *)
Lemma level_traversal_one M d g : well_formed d g -> size_vertex g = 1 -> 1 <= M ->
  level_traversal M true g 0 M = Abort.
Proof.
  intros Hw Hn HM. unfold level_traversal.
  rewrite (size_pos_nonempty d g) by (auto; lia). cbn [negb ASSERT_DEBUG ASSERT bind].
  rewrite Hn. cbn [Nat.ltb Nat.leb ASSERT bind repeat vset length Nat.ltb Nat.leb].
  unfold level_traversal_queue. rewrite (size_pos_nonempty d g) by (auto; lia).
  rewrite Hn. unfold upd. cbn [firstn skipn app length Nat.eqb negb ASSERT_DEBUG ASSERT bind map].
  unfold wrap_inc at 1. destruct (Nat.eqb_spec 0 M); [lia|]. cbn. reflexivity.
Qed.

(** eccentricity_vertex_breadth_first without a stop index. *)
Lemma eccentricity_vertex_spec M dbg d g s dist0 :
  well_formed d g -> size_vertex g <= M -> s < size_vertex g ->
  exists L, eccentricity_vertex false M dbg g s dist0 M = Ok L /\ length L = size_vertex g /\
    forall v, v < size_vertex g -> forall k, nth_error L v = Some k <->
      dist (edge g) s v k \/ (k = M /\ ~ reachable (edge g) s v).
Proof.
  intros Hw HM Hs. unfold eccentricity_vertex. set (n := size_vertex g) in *.
  rewrite (size_pos_nonempty d g) by (auto; fold n; lia). cbn [negb]. rewrite ASSERT_DEBUG_true. cbn [bind].
  destruct (Nat.ltb_spec s n); [|lia]. rewrite ASSERT_DEBUG_true. cbn [bind].
  destruct (Nat.leb_spec s M); [|lia]. rewrite ASSERT_DEBUG_true. cbn [bind].
  rewrite Nat.eqb_refl. cbn [orb]. rewrite ASSERT_DEBUG_true. cbn [bind].
  destruct (Nat.leb_spec n M); [|lia]. cbn [orb].
  assert (ED : vresize (repeat M (length dist0)) n M = repeat M n).
  { apply nth_error_ext_len; rewrite vresize_length, ?repeat_length; auto.
    intros i Hi. rewrite nth_error_vresize, !nth_error_repeat', repeat_length.
    destruct (Nat.ltb_spec i n); [|lia]. destruct (i <? length dist0); auto. }
  rewrite ED, vset_lt by (rewrite repeat_length; auto). cbn [bind].
  rewrite upd_length, repeat_length by (rewrite repeat_length; auto).
  set (L1 := upd (repeat M n) s 0).
  assert (HL1 : length L1 = n) by (unfold L1; rewrite upd_length, repeat_length; rewrite ?repeat_length; auto).
  assert (Hnb : (M = 0 /\ 0 = 1) \/ (M = M /\ 0 = 0)) by auto.
  destruct (inv_init M g n [s] L1) as [I I0]; auto.
  - fold n; lia.
  - intros v [<-|[]]. auto.
  - intros v Hv. unfold L1. rewrite repeat_upd_nth by auto.
    destruct (in_dec Nat.eq_dec v [s]) as [[->|[]]|Hn]; [rewrite Nat.eqb_refl; auto|].
    destruct (Nat.eqb_spec v s) as [->|]; auto. exfalso. apply Hn. simpl; auto.
  - destruct (bfs_loop_ok M dbg d g M 0 n (fun _ front => Ok (M <=? front))
      (fun v => In v [s]) Hw Hnb HM) with (fuel := 1 + n) (L := L1) (Q := [s]) as (L2 & E2 & I2).
    + intros L0 v k HL0 Hlev Hk _. pose proof (lev_lt M g M 0 Hnb HM L0 v k HL0 Hlev) as Hv.
      fold n in Hv, Hk. destruct (Nat.leb_spec M v), (Nat.leb_spec n k); auto; lia.
    + exact I.
    + pose proof (count_le M L1). simpl. lia.
    + exists L2. pose proof (i_core _ _ _ _ _ _ _ I2) as Hc2.
      pose proof (c_len _ _ _ _ _ _ Hc2) as HL2. split; [exact E2|]. split; [auto|].
      intros v Hv k. rewrite (lev_nth_error M) by (rewrite HL2; auto).
      pose proof (inv_final M g M 0 n (fun v => In v [s]) Hnb HM L2 I2 v) as Hr.
      assert (Hsd : forall k, dist_from (edge g) (fun x => In x [s]) v k <-> dist (edge g) s v k).
      { intro j. rewrite <- dist_from_single. split; intros [(s' & Hs' & K1) K2].
        - destruct Hs' as [<-|[]]. split; [eauto|]. intros s' m <-. apply K2. simpl; auto.
        - subst s'. split; [exists s; simpl; auto|]. intros s' m [<-|[]]. apply K2; auto. }
      rewrite Hr, Hsd. split.
      * intros [[H1' H2]|[-> H1']]; [auto|]. right. split; auto. intros (m & Hm).
        destruct (dist_exists d g s v m Hw Hm) as (j & Hj & Hjd).
        pose proof (dist_lt d g s v j Hw Hs Hjd) as Hlt. fold n in Hlt.
        assert (lev M 0 L2 v = Some j) by (apply Hr; rewrite Hsd; split; auto; lia). congruence.
      * intros [H1'|[-> H1']].
        -- left. split; auto. pose proof (dist_lt d g s v k Hw Hs H1') as Hlt. fold n in Hlt. lia.
        -- right. split; auto. destruct (lev M 0 L2 v) as [j|] eqn:Ej; auto. exfalso. apply H1'.
           destruct (proj1 (Hr j) eq_refl) as [Ej' _]. apply Hsd in Ej'. exists j. apply Ej'.
Qed.
