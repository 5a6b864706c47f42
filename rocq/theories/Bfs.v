(** Breadth first search: the queue loop of TraversalModel.v computes exact distances. *)
From Verif Require Import Base ListFacts Csr GraphModel GraphSpec GraphFacts TraversalModel.

Lemma walk_trans (E : nat -> nat -> Prop) k m u v w : walk E k u v -> walk E m v w -> walk E (k + m) u w.
Proof.
  intros H1 H2. induction H2 as [v|m v x w H2 IH Hxw]; [rewrite Nat.add_0_r; auto|].
  rewrite Nat.add_succ_r. eapply walk_S; eauto.
Qed.

Lemma walk_1 (E : nat -> nat -> Prop) u v : E u v -> walk E 1 u v.
Proof. intro H. eapply walk_S; [apply walk_0|auto]. Qed.

Lemma walk_cons (E : nat -> nat -> Prop) k u v w : E u v -> walk E k v w -> walk E (S k) u w.
Proof. intros H1 H2. apply (walk_trans E 1 k u v w); auto using walk_1. Qed.

Lemma walk_sym (E : nat -> nat -> Prop) : (forall u v, E u v -> E v u) ->
  forall k u v, walk E k u v -> walk E k v u.
Proof.
  intros HE k u v H. induction H as [u|k u v w H IH Hvw]; [apply walk_0|].
  eapply walk_cons; eauto.
Qed.

Lemma walk_split (E : nat -> nat -> Prop) k m u w : walk E (k + m) u w -> exists v, walk E k u v /\ walk E m v w.
Proof.
  revert w. induction m as [|m IH]; intros w H.
  - exists w. rewrite Nat.add_0_r in H. split; auto using walk_0.
  - rewrite Nat.add_succ_r in H. inversion H as [|? ? v ? H1 H2]; subst.
    destruct (IH _ H1) as (x & Hx1 & Hx2). exists x. split; auto. eapply walk_S; eauto.
Qed.

Lemma walk_bound d g k u v : well_formed d g -> u < size_vertex g -> walk (edge g) k u v ->
  v < size_vertex g.
Proof.
  intros Hw Hu H. destruct H as [u|k u v w H Hvw]; auto.
  apply (edge_bounds d) in Hvw; tauto.
Qed.

Lemma dist_functional (E : nat -> nat -> Prop) u v k m : dist E u v k -> dist E u v m -> k = m.
Proof. intros [H1 H2] [H3 H4]. specialize (H2 _ H3). specialize (H4 _ H1). lia. Qed.

Lemma dist_from_functional (E : nat -> nat -> Prop) src v k m : dist_from E src v k -> dist_from E src v m -> k = m.
Proof.
  intros [(s & Hs & H1) H2] [(s' & Hs' & H3) H4].
  specialize (H2 _ _ Hs' H3). specialize (H4 _ _ Hs H1). lia.
Qed.

Lemma dist_from_single (E : nat -> nat -> Prop) u v k : dist_from E (eq u) v k <-> dist E u v k.
Proof.
  split.
  - intros [(s & <- & H1) H2]. split; auto. intros m Hm. apply (H2 u m); auto.
  - intros [H1 H2]. split; [exists u; auto|]. intros s m <- H. auto.
Qed.

Lemma dist_sym (E : nat -> nat -> Prop) u v k : (forall a b, E a b -> E b a) -> dist E u v k -> dist E v u k.
Proof.
  intros HE [H1 H2]. split; [apply walk_sym; auto|].
  intros m H. apply H2. apply walk_sym; auto.
Qed.

(** Every prefix of a shortest walk is shortest. *)
Lemma dist_from_prefix (E : nat -> nat -> Prop) src v k j : dist_from E src v k -> j <= k ->
  exists u, dist_from E src u j /\ walk E (k - j) u v.
Proof.
  intros [(s & Hs & H) Hmin] Hj. replace k with (j + (k - j)) in H by lia.
  apply walk_split in H as (u & H1 & H2). exists u. split; auto. split; [eauto|].
  intros s' m Hs' Hm. specialize (Hmin s' (m + (k - j)) Hs' (walk_trans _ _ _ _ _ _ Hm H2)). lia.
Qed.

(** A functional assignment of all the numbers 0 .. k to vertices below n forces k < n. *)
Lemma pigeon (P : nat -> nat -> Prop) n k :
  (forall v i j, P v i -> P v j -> i = j) ->
  (forall j, j <= k -> exists v, v < n /\ P v j) -> k < n.
Proof.
  intros Hf Hex.
  assert (G : forall m, m <= k + 1 -> exists vs, length vs = m /\
             forall i, i < m -> nth i vs 0 < n /\ P (nth i vs 0) i).
  { induction m as [|m IH]; intro Hm; [exists []; split; auto; intros; lia|].
    destruct (IH ltac:(lia)) as (vs & Hl & Hv). destruct (Hex m ltac:(lia)) as (v & Hvn & Hp).
    exists (vs ++ [v]). rewrite app_length, Hl. split; [simpl; lia|]. intros i Hi.
    destruct (Nat.eq_dec i m) as [->|Hne].
    - rewrite app_nth2 by lia. rewrite Hl, Nat.sub_diag. auto.
    - rewrite app_nth1 by lia. apply Hv. lia. }
  destruct (G (k + 1) ltac:(lia)) as (vs & Hl & Hv).
  assert (Hn : NoDup vs).
  { apply (NoDup_nth vs 0). intros i j Hi Hj E. rewrite Hl in *.
    destruct (Hv i Hi) as [_ H1]. destruct (Hv j Hj) as [_ H2]. rewrite E in H1. eauto. }
  assert (Hi : incl vs (seq 0 n)).
  { intros x Hx. apply (In_nth _ _ 0) in Hx as (i & Hi & <-). rewrite Hl in Hi.
    apply in_seq. destruct (Hv i Hi). lia. }
  pose proof (NoDup_incl_length Hn Hi) as H. rewrite seq_length in H. lia.
Qed.

Lemma dist_from_lt d g (src : nat -> Prop) v k : well_formed d g -> (forall s, src s -> s < size_vertex g) ->
  dist_from (edge g) src v k -> k < size_vertex g.
Proof.
  intros Hw Hs H. apply (pigeon (fun u j => dist_from (edge g) src u j)).
  - intros u i j. apply dist_from_functional.
  - intros j Hj. destruct (dist_from_prefix _ _ _ _ _ H Hj) as (u & Hu & _). exists u. split; auto.
    destruct Hu as [(s & Hss & Hu) _]. eapply walk_bound; eauto.
Qed.

Lemma dist_lt d g u v k : well_formed d g -> u < size_vertex g ->
  dist (edge g) u v k -> k < size_vertex g.
Proof.
  intros Hw Hu H. apply dist_from_single in H. eapply dist_from_lt; eauto. intros s <-. auto.
Qed.

(** Number of entries equal to [x]. *)
Definition count (x : nat) (l : list nat) : nat := length (filter (Nat.eqb x) l).

Lemma count_le x l : count x l <= length l.
Proof. apply filter_length_le. Qed.

Lemma skipn_cons {A} (l : list A) i d : i < length l -> skipn i l = nth i l d :: skipn (S i) l.
Proof.
  revert i. induction l as [|a l IH]; intros [|i] Hi; simpl in *; auto; try lia.
  apply IH. lia.
Qed.

Lemma count_upd x l i y : i < length l -> nth i l 0 = x -> y <> x ->
  count x (upd l i y) + 1 = count x l.
Proof.
  intros Hi Hx Hy. unfold count, upd.
  transitivity (length (filter (Nat.eqb x) (firstn i l ++ skipn i l))); [|rewrite firstn_skipn; auto].
  rewrite (skipn_cons l i 0 Hi), Hx, !filter_app, !app_length. cbn [filter].
  rewrite Nat.eqb_refl. destruct (Nat.eqb_spec x y); [congruence|]. cbn [length]. lia.
Qed.

Lemma row_ok dbg d g h : well_formed d g -> h < size_vertex g ->
  exists r, subscript dbg g h = Ok r /\ forall w, In w r <-> edge g h w.
Proof.
  intros (rs & Hr & Hok) Hh. pose proof (repr_size _ _ Hr) as Hsz.
  exists (nth h rs []). split; [apply subscript_ok; auto; lia|].
  intro w. symmetry. apply repr_edge; auto.
Qed.

Section BFS.
  Variables (M : nat) (dbg d : bool) (g : graph) (none base cap : nat).
  Variable stop : list nat -> nat -> res bool.
  Variable src : nat -> Prop.
  Let n := size_vertex g.

  Hypothesis Hwf : well_formed d g.
  Hypothesis Hnone : (none = 0 /\ base = 1) \/ (none = M /\ base = 0).
  Hypothesis HM : n <= M.

  (** Level stored for [v]. *)
  Definition lev (L : list nat) (v : nat) : option nat :=
    let x := nth v L none in if x =? none then None else Some (x - base).

  Definition levn (L : list nat) (v : nat) : nat := nth v L none - base.

  Hypothesis Hstop : forall L v k, length L = n -> lev L v = Some k -> k < n -> k <= cap ->
    stop L v = Ok (cap <=? k).

  Lemma lev_lt L v k : length L = n -> lev L v = Some k -> v < n.
  Proof.
    unfold lev. intros HL H. destruct (Nat.lt_ge_cases v n); auto.
    rewrite nth_overflow in H by lia. rewrite Nat.eqb_refl in H. discriminate.
  Qed.

  Lemma lev_levn L v k : lev L v = Some k -> levn L v = k.
  Proof. unfold lev, levn. destruct (_ =? _); congruence. Qed.

  Lemma lev_val L v k : lev L v = Some k -> nth v L none = k + base.
  Proof.
    unfold lev. destruct (Nat.eqb_spec (nth v L none) none) as [E|E]; [discriminate|].
    intro H. injection H as <-. lia.
  Qed.

  Lemma lev_upd L v k w : v < length L -> k < n ->
    lev (upd L v (k + base)) w = if w =? v then Some k else lev L w.
  Proof.
    intros Hv Hk. unfold lev. rewrite nth_upd by auto. rewrite (Nat.eqb_sym w v).
    destruct (Nat.eqb_spec v w) as [->|Hne]; auto.
    destruct (Nat.eqb_spec (k + base) none); [lia|]. f_equal. lia.
  Qed.

  (** The common part of the invariant. *)
  Record core (L : list nat) : Prop := {
    c_len : length L = n;
    c_walk : forall v k, lev L v = Some k -> exists s, src s /\ walk (edge g) k s v;
    c_cap : forall v k, lev L v = Some k -> k <= cap;
    c_gap : forall v k, lev L v = Some (S k) -> exists u, lev L u = Some k;
    c_src : forall s, src s -> exists k, lev L s = Some k /\ k = 0 }.

  Record inv (L Q : list nat) : Prop := {
    i_core : core L;
    i_queue : forall v, In v Q -> exists k, lev L v = Some k;
    i_sorted : StronglySorted (fun a b => levn L a <= levn L b) Q;
    i_top : forall v k h Q', Q = h :: Q' -> lev L v = Some k -> k <= levn L h + 1;
    i_closed : forall v k w, lev L v = Some k -> ~ In v Q -> k < cap -> edge g v w ->
                 exists j, lev L w = Some j /\ j <= k + 1 }.

  Lemma core_down L : core L -> forall t v k, lev L v = Some k -> forall j, j <= k -> k - j = t ->
    exists u, u < n /\ lev L u = Some j.
  Proof.
    intro Hc. induction t as [|t IH]; intros v k H j Hj Ht.
    - exists v. replace j with k by lia. split; auto. eapply lev_lt; eauto. apply Hc.
    - destruct k as [|k]; [lia|]. destruct (c_gap L Hc _ _ H) as (u & Hu).
      apply (IH u k Hu); lia.
  Qed.

  Lemma core_lt L v k : core L -> lev L v = Some k -> k < n.
  Proof.
    intros Hc H. apply (pigeon (fun u j => lev L u = Some j)).
    - intros; congruence.
    - intros j Hj. eapply core_down; eauto.
  Qed.

  (** Inner loop over the neighbours of [h]. *)
  Record inner (h a : nat) (L0 : list nat) (l1 : list nat) (L Q : list nat) : Prop := {
    n_core : core L;
    n_h : lev L h = Some a;
    n_cap : a < cap;
    n_queue : forall v, In v Q -> exists k, lev L v = Some k /\ a <= k;
    n_sorted : StronglySorted (fun a b => levn L a <= levn L b) Q;
    n_top : forall v k, lev L v = Some k -> k <= a + 1;
    n_closed : forall v k w, lev L v = Some k -> v <> h -> ~ In v Q -> k < cap -> edge g v w ->
                 exists j, lev L w = Some j /\ j <= k + 1;
    n_done : forall w, In w l1 -> exists j, lev L w = Some j }.

  Lemma sorted_ext (f f' : nat -> nat) Q : (forall v, In v Q -> f v = f' v) ->
    StronglySorted (fun a b => f a <= f b) Q -> StronglySorted (fun a b => f' a <= f' b) Q.
  Proof.
    intros He Hs. induction Hs as [|x Q Hs IH Hf]; constructor.
    - apply IH. intros; apply He; simpl; auto.
    - rewrite Forall_forall in *. intros y Hy. rewrite <- !He by (simpl; auto). auto.
  Qed.

  Lemma sorted_snoc (f : nat -> nat) Q x : StronglySorted (fun a b => f a <= f b) Q ->
    (forall y, In y Q -> f y <= f x) -> StronglySorted (fun a b => f a <= f b) (Q ++ [x]).
  Proof.
    intros Hs Hx. induction Hs as [|y Q Hs IH Hf]; simpl; constructor.
    - constructor.
    - constructor.
    - apply IH. intros; apply Hx; simpl; auto.
    - rewrite Forall_forall in *. intros z Hz. apply in_app_iff in Hz as [Hz|[<-|[]]]; auto.
      apply Hx. simpl; auto.
  Qed.

  Lemma visit_ok h a L0 l1 L Q w :
    inner h a L0 l1 L Q -> edge g h w ->
    exists L' Q', bfs_visit M none h w (L, Q) = Ok (L', Q') /\ inner h a L0 (l1 ++ [w]) L' Q' /\
      length Q' + count none L' = length Q + count none L.
  Proof.
    intros I Hw. destruct I as [Hc Hh Hca Hq Hs Ht Hcl Hd].
    assert (HL := c_len _ Hc).
    assert (Hwn : w < n) by (apply (edge_bounds d) in Hw; tauto).
    assert (Hhn : h < n) by (eapply lev_lt; eauto).
    unfold bfs_visit. rewrite (vget_lt L w none) by lia. cbn [bind].
    destruct (Nat.eqb_spec (nth w L none) none) as [E|E].
    - assert (Hwnone : lev L w = None) by (unfold lev; rewrite E, Nat.eqb_refl; auto).
      assert (Hne : w <> h) by congruence.
      rewrite (vget_lt L h none) by lia. cbn [bind].
      rewrite vset_lt by lia. cbn [bind].
      (* the new level is a + 1 < n *)
      assert (Han : a + 1 < n).
      { apply (pigeon (fun u j => lev L u = Some j \/ (lev L u = None /\ u = w /\ j = a + 1))).
        - intros v i j [H1|(H1 & H1' & H1'')] [H2|(H2 & H2' & H2'')]; congruence.
        - intros j Hj. destruct (Nat.eq_dec j (a + 1)) as [->|Hj'].
          + exists w. split; auto.
          + destruct (core_down L Hc _ _ _ Hh j ltac:(lia) eq_refl) as (u & Hu & Hu'). exists u. auto. }
      rewrite (lev_val _ _ _ Hh).
      replace (wrap_inc M (a + base)) with (a + 1 + base).
      2:{ unfold wrap_inc. destruct (Nat.eqb_spec (a + base) M); lia. }
      set (L' := upd L w (a + 1 + base)).
      assert (Hlev : forall v, lev L' v = if v =? w then Some (a + 1) else lev L v)
        by (intro v; apply lev_upd; lia).
      assert (Hold : forall v k, lev L v = Some k -> lev L' v = Some k).
      { intros v k H. rewrite Hlev. destruct (Nat.eqb_spec v w); [congruence|auto]. }
      assert (Hnew : lev L' w = Some (a + 1)) by (rewrite Hlev, Nat.eqb_refl; auto).
      assert (Hqn : forall v, In v Q -> levn L' v = levn L v).
      { intros v Hv. destruct (Hq v Hv) as (k & H & _).
        rewrite (lev_levn _ _ _ H). apply lev_levn, Hold, H. }
      exists L', (Q ++ [w]). split; [reflexivity|]. split.
      + constructor.
        * constructor.
          -- unfold L'. rewrite upd_length by lia. apply Hc.
          -- intros v k. rewrite Hlev. destruct (Nat.eqb_spec v w) as [->|]; [|apply Hc].
             intro H. injection H as <-. destruct (c_walk _ Hc _ _ Hh) as (s & Hs' & Hk).
             exists s. split; auto. rewrite Nat.add_1_r. eapply walk_S; eauto.
          -- intros v k. rewrite Hlev. destruct (Nat.eqb_spec v w) as [->|]; [|apply Hc].
             intro H. injection H as <-. lia.
          -- intros v k. rewrite Hlev. destruct (Nat.eqb_spec v w) as [->|].
             ++ intro H. injection H as H. exists h. replace k with a by lia. auto.
             ++ intro H. destruct (c_gap _ Hc _ _ H) as (u & Hu). exists u. auto.
          -- intros s H. destruct (c_src _ Hc _ H) as (k & Hk & ->). exists 0. auto.
        * auto.
        * auto.
        * intros v Hv. apply in_app_iff in Hv as [Hv|[<-|[]]].
          -- destruct (Hq v Hv) as (k & H & Hk). exists k. auto.
          -- exists (a + 1). split; auto. lia.
        * apply sorted_snoc.
          -- eapply sorted_ext; [|exact Hs]. intros v Hv. symmetry. auto.
          -- intros y Hy. rewrite (lev_levn _ _ _ Hnew), Hqn by auto.
             destruct (Hq y Hy) as (k & H & _). rewrite (lev_levn _ _ _ H). eauto.
        * intros v k. rewrite Hlev. destruct (Nat.eqb_spec v w); [|apply Ht].
          intro H. injection H as <-. lia.
        * intros v k x. rewrite Hlev. destruct (Nat.eqb_spec v w) as [->|Hvw].
          -- intros _ _ H. exfalso. apply H. apply in_app_iff. simpl; auto.
          -- intros H1 H2 H3 H4 H5.
             destruct (Hcl v k x H1 H2) as (j & Hj & Hjk); auto.
             { intro Hv. apply H3, in_app_iff. auto. }
             exists j. auto.
        * intros x Hx. apply in_app_iff in Hx as [Hx|[<-|[]]]; [|eauto].
          destruct (Hd x Hx) as (j & Hj). eauto.
      + rewrite app_length. simpl. unfold L'.
        rewrite <- (count_upd none L w (a + 1 + base)); try lia.
        transitivity (nth w L none); [apply nth_indep; lia|exact E].
    - exists L, Q. split; [reflexivity|]. split; [|reflexivity].
      constructor; auto. intros x Hx. apply in_app_iff in Hx as [Hx|[<-|[]]]; auto.
      unfold lev. destruct (Nat.eqb_spec (nth w L none) none); [congruence|eauto].
  Qed.

  Lemma bfs_loop_ok fuel L Q :
    inv L Q -> length Q + count none L <= fuel ->
    exists L', bfs_loop fuel M dbg g none stop L Q = Ok L' /\ inv L' [].
  Proof.
    revert L Q. induction fuel as [|fuel IH]; intros L Q I Hf.
    - destruct Q as [|h Q]; [|simpl in Hf; lia]. exists L. auto.
    - destruct Q as [|h Q]; [exists L; auto|]. cbn [bfs_loop].
      destruct I as [Hc Hq Hs Ht Hcl].
      destruct (Hq h) as (a & Ha); [simpl; auto|].
      assert (Han : a < n) by (eapply core_lt; eauto).
      assert (Hhn : h < n) by (eapply lev_lt; eauto; apply Hc).
      rewrite (Hstop L h a (c_len _ Hc) Ha Han (c_cap _ Hc _ _ Ha)). cbn [bind].
      inversion Hs as [|? ? Hs' Hhd]; subst. rewrite Forall_forall in Hhd.
      assert (Hla : levn L h = a) by (apply lev_levn; auto).
      assert (Htop : forall v k, lev L v = Some k -> k <= a + 1).
      { intros v k H. rewrite <- Hla. eapply Ht; eauto. }
      destruct (Nat.leb_spec cap a) as [Hca|Hca].
      + apply IH; [|simpl in Hf; lia]. constructor; auto.
        * intros v Hv. apply Hq. simpl; auto.
        * intros v k h' Q' -> H. specialize (Htop v k H). specialize (Hhd h' ltac:(simpl; auto)). lia.
        * intros v k w H1 H2 H3 H4. destruct (Nat.eq_dec v h) as [->|Hvh].
          -- assert (k = a) by congruence. lia.
          -- apply (Hcl v k w); auto. simpl. intros [->|?]; tauto.
      + destruct (row_ok dbg d g h Hwf Hhn) as (r & Hr & Hre). rewrite Hr. cbn [bind].
        assert (I0 : inner h a L [] L Q).
        { constructor; auto.
          - intros v Hv. destruct (Hq v) as (k & Hk); [simpl; auto|]. exists k. split; auto.
            specialize (Hhd v Hv). rewrite (lev_levn _ _ _ Hk) in Hhd. lia.
          - intros v k w H1 H2 H3 H4. apply (Hcl v k w); auto. simpl. intros [->|?]; tauto.
          - intros w []. }
        destruct (forM_inv (fun l1 s => inner h a L l1 (fst s) (snd s) /\
                    length (snd s) + count none (fst s) = length Q + count none L)
                    r (bfs_visit M none h) (L, Q)) as ((L' & Q') & HE & I' & Hcnt).
        { split; auto. }
        { intros l1 w l2 [L1 Q1] Hlr [Hi Hcnt]. cbn [fst snd] in *.
          destruct (visit_ok h a L l1 L1 Q1 w Hi) as (L2 & Q2 & E2 & I2 & Hc2).
          - apply Hre. rewrite Hlr. apply in_app_iff. simpl; auto.
          - exists (L2, Q2). cbn [fst snd]. split; [exact E2|]. split; [exact I2|lia]. }
        rewrite HE. cbn [bind fst snd] in *.
        destruct I' as [Jc Jh Jca Jq Js Jt Jcl Jd].
        apply IH; [|simpl in Hf; lia]. constructor; auto.
        * intros v Hv. destruct (Jq v Hv) as (k & Hk & _). eauto.
        * intros v k h' Q'' -> H. specialize (Jt v k H). destruct (Jq h') as (m & Hm & Ham); [simpl; auto|].
          rewrite (lev_levn _ _ _ Hm). lia.
        * intros v k w H1 H2 H3 H4. destruct (Nat.eq_dec v h) as [->|Hvh].
          -- assert (k = a) by congruence. subst k. apply Hre in H4.
             destruct (Jd w H4) as (j & Hj). exists j. split; auto. eapply Jt; eauto.
          -- apply (Jcl v k w); auto.
  Qed.

  Lemma inv_final L : inv L [] -> forall v k,
    lev L v = Some k <-> dist_from (edge g) src v k /\ k <= cap.
  Proof.
    intros [Hc _ _ _ Hcl].
    assert (G : forall m s v, walk (edge g) m s v -> src s -> m <= cap ->
              exists j, lev L v = Some j /\ j <= m).
    { intros m s v H. induction H as [u|m u v w H IH Hvw]; intros Hs Hm.
      - destruct (c_src _ Hc _ Hs) as (k & Hk & ->). exists 0. auto.
      - destruct (IH Hs ltac:(lia)) as (j & Hj & Hjm).
        destruct (Hcl v j w Hj) as (j' & Hj' & Hjj); auto; [lia|]. exists j'. split; auto. lia. }
    intros v k. split.
    - intro H. split; [|eapply c_cap; eauto]. split; [eapply c_walk; eauto|].
      intros s m Hs Hm. destruct (Nat.le_gt_cases m cap) as [Hmc|Hmc].
      + destruct (G m s v Hm Hs Hmc) as (j & Hj & Hjm). congruence.
      + pose proof (c_cap _ Hc _ _ H). lia.
    - intros [[(s & Hs & Hk) Hmin] Hkc]. destruct (G k s v Hk Hs Hkc) as (j & Hj & Hjk).
      destruct (c_walk _ Hc _ _ Hj) as (s' & Hs' & Hj').
      specialize (Hmin s' j Hs' Hj'). replace k with j by lia. auto.
  Qed.
End BFS.
