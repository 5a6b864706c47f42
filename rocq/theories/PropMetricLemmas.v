(** Proofs of the property theorems about levels as distances. *)
From Verif Require Import Base ListFacts Csr GraphModel GraphSpec GraphFacts PermFacts GraphInsert GraphErase
  PropGraphLemmas TraversalModel TraversalFacts Bfs Peripheral PropTraversalLemmas PropComposeLemmas PropGraph.

(** The level of vertex [v] in a traversal from [s]. *)
Definition level (M : nat) (dbg : bool) (g : graph) (s v k : nat) : Prop :=
  exists L, level_traversal M dbg g s M = Ok L /\ nth_error L v = Some k.

Section Levels.
  Variables (M : nat) (dbg d : bool) (g : graph).
  Hypotheses (Hw : well_formed d g) (HM : size_vertex g <= M) (Hd : dbg = true -> 1 < size_vertex g).

  Lemma level_iff s v k : s < size_vertex g -> v < size_vertex g ->
    (level M dbg g s v k <-> dist (edge g) s v k \/ (k = M /\ ~ reachable (edge g) s v)).
  Proof using Hw HM Hd.
    intros Hs Hv. destruct (level_traversal_spec M dbg d g s Hw HM Hs Hd) as (L & E & _ & H). unfold level. rewrite E. split.
    - intros (L' & E' & K). injection E' as <-. apply (H v Hv), K.
    - intro K. exists L. split; [reflexivity|]. apply (H v Hv), K.
  Qed.

  Lemma level_total s v : s < size_vertex g -> v < size_vertex g -> exists k, level M dbg g s v k /\ k <= M.
  Proof using Hw HM Hd.
    intros Hs Hv. destruct (level_traversal_spec M dbg d g s Hw HM Hs Hd) as (L & E & HL & H).
    destruct (nth_error L v) as [k|] eqn:K; [|apply nth_error_None in K; lia].
    exists k. split; [exists L; auto|]. destruct (proj1 (H v Hv k) K) as [D|[-> _]]; [|lia].
    pose proof (dist_lt d g s v k Hw Hs D). lia.
  Qed.

  Lemma level_functional s v k m : level M dbg g s v k -> level M dbg g s v m -> k = m.
  Proof using. intros (L & E & H) (L' & E' & H'). rewrite E in E'. injection E' as <-. congruence. Qed.

  Lemma level_reached s v k : s < size_vertex g -> v < size_vertex g -> level M dbg g s v k -> (k < M <-> reachable (edge g) s v).
  Proof using Hw HM Hd.
    intros Hs Hv H. apply level_iff in H as [D|[-> N]]; auto.
    - pose proof (dist_lt d g s v k Hw Hs D). split; [intros _; exists k; apply D|lia].
    - split; [lia|contradiction].
  Qed.

  Lemma level_dist s v k : s < size_vertex g -> v < size_vertex g -> level M dbg g s v k -> k < M -> dist (edge g) s v k.
  Proof using Hw HM Hd. intros Hs Hv H Hk. apply level_iff in H as [D|[-> N]]; auto. lia. Qed.

  Lemma level_walk s v k m : s < size_vertex g -> v < size_vertex g -> level M dbg g s v k -> walk (edge g) m s v -> k <= m.
  Proof using Hw HM Hd.
    intros Hs Hv H W. apply level_iff in H as [D|[-> N]]; auto; [apply D, W|]. destruct N. exists m. exact W.
  Qed.

  Lemma level_zero s v : s < size_vertex g -> v < size_vertex g -> (level M dbg g s v 0 <-> v = s).
  Proof using Hw HM Hd.
    intros Hs Hv. split.
    - intro H. apply level_dist in H as [W _]; auto; [|lia]. inversion W; auto.
    - intros ->. apply level_iff; auto. left. split; [constructor|intros; lia].
  Qed.

  Lemma level_triangle u v w a b c : u < size_vertex g -> v < size_vertex g -> w < size_vertex g ->
    level M dbg g u v a -> level M dbg g v w b -> level M dbg g u w c -> a < M -> b < M -> c <= a + b.
  Proof using Hw HM Hd.
    intros Hu Hv Hw' A B C La Lb. apply level_dist in A as [A _]; auto. apply level_dist in B as [B _]; auto.
    apply (level_walk u w c (a + b)); auto. eapply walk_trans; eauto.
  Qed.

  Lemma level_edge s u v a b : s < size_vertex g -> edge g u v -> level M dbg g s u a -> level M dbg g s v b -> a < M -> b <= a + 1.
  Proof using Hw HM Hd.
    intros Hs E A B La. destruct (edge_bounds d g u v Hw E) as (Hu & Hv & _). apply level_dist in A as [A _]; auto.
    apply (level_walk s v b (a + 1)); auto. eapply walk_trans; [exact A|]. apply walk_1, E.
  Qed.

  Lemma level_sources Q L e L' : length L = size_vertex g -> 0 < size_vertex g -> e <= M -> Q <> [] -> (forall v, In v Q -> v < size_vertex g) ->
    (forall v, v < size_vertex g -> nth_error L v = Some (if in_dec Nat.eq_dec v Q then 0 else M)) ->
    level_traversal_queue M dbg g Q L e = Ok L' ->
    forall v, v < size_vertex g -> exists s k, In s Q /\ level M dbg g s v k /\
      (forall s' k', In s' Q -> level M dbg g s' v k' -> k <= k') /\
      nth_error L' v = Some (if k <=? e then k else M).
  Proof using Hw HM Hd.
    intros HL Hn He HQ Hb HL0 E v Hv.
    destruct (level_traversal_multi M dbg d g Q L e Hw HM Hn Hd He HL Hb HL0) as (L1 & E1 & _ & H). rewrite E in E1. injection E1 as <-.
    assert (Hmin : exists s k, In s Q /\ level M dbg g s v k /\ forall s' k', In s' Q -> level M dbg g s' v k' -> k <= k').
    { clear H E HL0. induction Q as [|q Q IH]; [congruence|]. destruct (level_total q v (Hb q (or_introl eq_refl)) Hv) as (k & Hk & _).
      destruct Q as [|q' Q].
      - exists q, k. split; [left; reflexivity|]. split; [exact Hk|]. intros s' k' [<-|[]] H'. rewrite (level_functional _ _ _ _ Hk H'). lia.
      - destruct IH as (s & m & Hs & Hm & Hmin); [discriminate|intros x Hx; apply Hb; right; exact Hx|].
        destruct (Nat.le_gt_cases k m) as [C|C].
        + exists q, k. split; [left; reflexivity|]. split; [exact Hk|]. intros s' k' [<-|Hs'] H'.
          * rewrite (level_functional _ _ _ _ Hk H'). lia.
          * pose proof (Hmin s' k' Hs' H'). lia.
        + exists s, m. split; [right; exact Hs|]. split; [exact Hm|]. intros s' k' [<-|Hs'] H'.
          * rewrite <- (level_functional _ _ _ _ Hk H'). lia.
          * apply (Hmin s'); auto. }
    destruct Hmin as (s & k & Hs & Hk & Hmin). exists s, k. split; [exact Hs|]. split; [exact Hk|]. split; [exact Hmin|].
    apply (H v Hv). destruct (Nat.leb_spec k e) as [C|C].
    - apply level_iff in Hk as [D|[-> N]]; auto.
      + left. split; [|exact C]. split; [exists s; split; [exact Hs|apply D]|]. intros s' m Hs' W.
        destruct (level_total s' v (Hb s' Hs') Hv) as (k' & Hk' & _). apply Nat.le_trans with k'; [apply (Hmin s' k'); auto|].
        apply (level_walk s' v); auto.
      + right. split; [reflexivity|]. intros s' m Hs' W.
        destruct (level_total s' v (Hb s' Hs') Hv) as (k' & Hk' & Lk'). pose proof (Hmin s' k' Hs' Hk').
        assert (k' < M) by (apply (level_reached s' v); auto; exists m; exact W). lia.
    - right. split; [reflexivity|]. intros s' m Hs' W.
      destruct (level_total s' v (Hb s' Hs') Hv) as (k' & Hk' & _). pose proof (Hmin s' k' Hs' Hk').
      pose proof (level_walk s' v k' m (Hb s' Hs') Hv Hk' W). lia.
  Qed.
End Levels.

Lemma level_symmetric M dbg g u v k : well_formed false g -> size_vertex g <= M -> (dbg = true -> 1 < size_vertex g) ->
  u < size_vertex g -> v < size_vertex g -> level M dbg g u v k -> level M dbg g v u k.
Proof.
  intros Hw HM Hd Hu Hv H. pose proof (fun u v => edge_sym g u v Hw) as Hs. apply (level_iff M dbg false g Hw HM Hd) in H; auto.
  apply (level_iff M dbg false g Hw HM Hd); auto. destruct H as [D|[-> N]].
  - left. apply dist_sym; auto.
  - right. split; [reflexivity|]. intros (m & W). apply N. exists m. apply walk_sym; auto.
Qed.

(* ------------------------------------------------------------------ a new edge *)
Lemma walk_new (d : bool) (E F : nat -> nat -> Prop) a b :
  (forall u v, F u v <-> E u v \/ same_edge d (u, v) (a, b) = true) ->
  forall k s v, walk F k s v ->
    (exists m, m <= k /\ walk E m s v) \/
    (exists i j, walk E i s a /\ walk E j b v /\ i + 1 + j <= k) \/
    (d = false /\ exists i j, walk E i s b /\ walk E j a v /\ i + 1 + j <= k).
Proof.
  intros H k s v W. induction W as [s|k s v w W IH Hvw]; [left; exists 0; split; [lia|constructor]|].
  apply H in Hvw as [Hvw|Hvw].
  - destruct IH as [(m & L & W1)|[(i & j & W1 & W2 & L)|(Ed & i & j & W1 & W2 & L)]].
    + left. exists (S m). split; [lia|]. eapply walk_S; eauto.
    + right. left. exists i, (S j). split; [auto|]. split; [eapply walk_S; eauto|lia].
    + right. right. split; [auto|]. exists i, (S j). split; [auto|]. split; [eapply walk_S; eauto|lia].
  - unfold same_edge in Hvw. cbn [fst snd] in Hvw. apply orb_prop in Hvw as [Hvw|Hvw].
    + apply andb_prop in Hvw as [H1 H2]. apply Nat.eqb_eq in H1, H2. subst v w.
      destruct IH as [(m & L & W1)|[(i & j & W1 & W2 & L)|(Ed & i & j & W1 & W2 & L)]].
      * right. left. exists m, 0. split; [exact W1|]. split; [constructor|lia].
      * right. left. exists i, 0. split; [exact W1|]. split; [constructor|lia].
      * left. exists i. split; [lia|exact W1].
    + apply andb_prop in Hvw as [H1 H2]. apply andb_prop in H1 as [H0 H1]. apply Nat.eqb_eq in H1, H2. subst v w.
      assert (Ed : d = false) by (destruct d; [discriminate|reflexivity]).
      destruct IH as [(m & L & W1)|[(i & j & W1 & W2 & L)|(_ & i & j & W1 & W2 & L)]].
      * right. right. split; [exact Ed|]. exists m, 0. split; [exact W1|]. split; [constructor|lia].
      * left. exists i. split; [lia|exact W1].
      * right. right. split; [exact Ed|]. exists i, 0. split; [exact W1|]. split; [constructor|lia].
Qed.

Lemma walk_mono (E F : nat -> nat -> Prop) : (forall u v, E u v -> F u v) -> forall k s v, walk E k s v -> walk F k s v.
Proof. intros H k s v W. induction W; econstructor; eauto. Qed.

Lemma level_insert M dbg d g a b s v x sa bv sb av : well_formed d g -> size_vertex g <= M -> (dbg = true -> 1 < size_vertex g) ->
  a <> b -> a < size_vertex g -> b < size_vertex g -> s < size_vertex g -> v < size_vertex g ->
  level M dbg g s v x -> level M dbg g s a sa -> level M dbg g b v bv -> level M dbg g s b sb -> level M dbg g a v av ->
  exists h fresh, insert dbg d g (a, b) = Ok (h, fresh) /\ size_vertex h = size_vertex g /\
    level M dbg h s v (Nat.min x (if d then sa + 1 + bv else Nat.min (sa + 1 + bv) (sb + 1 + av))).
Proof.
  intros Hw HM Hd Hab Ha Hb Hs Hv X SA BV SB AV.
  destruct (insert_spec dbg d g (a, b) Hw Hab) as (h & f & E & Hwh & _ & _ & He & _ & Sz). cbn [fst snd] in Sz.
  assert (Sh : size_vertex h = size_vertex g) by lia. exists h, f. split; [exact E|]. split; [exact Sh|].
  destruct (level_total M dbg d h Hwh ltac:(lia) ltac:(intro; rewrite Sh; auto) s v ltac:(lia) ltac:(lia)) as (y & Y & LY).
  destruct (level_total M dbg d g Hw HM Hd s v Hs Hv) as (x' & X' & LX). rewrite <- (level_functional _ _ _ _ _ _ _ X X') in LX. clear x' X'.
  assert (HMh : size_vertex h <= M) by lia. assert (Hdh : dbg = true -> 1 < size_vertex h) by (intro; rewrite Sh; auto).
  assert (up : forall m, walk (edge h) m s v -> y <= m) by (intros m W; apply (level_walk M dbg d h Hwh HMh Hdh s v); auto; lia).
  assert (Fab : edge h a b) by (apply He; right; unfold same_edge; cbn [fst snd]; rewrite !Nat.eqb_refl; reflexivity).
  assert (mono : forall k p q, walk (edge g) k p q -> walk (edge h) k p q) by (apply walk_mono; intros p q Hpq; apply He; left; exact Hpq).
  assert (B1 : y <= x).
  { destruct (Nat.lt_ge_cases x M) as [C|C]; [|lia]. apply up, mono, (level_dist M dbg d g Hw HM Hd s v x); auto. }
  assert (B2 : y <= sa + 1 + bv).
  { destruct (Nat.lt_ge_cases sa M) as [C|C]; [|lia]. destruct (Nat.lt_ge_cases bv M) as [C'|C']; [|lia]. apply up.
    apply walk_trans with b; [apply walk_trans with a|]; [|apply walk_1, Fab|]; apply mono;
      [apply (level_dist M dbg d g Hw HM Hd s a)|apply (level_dist M dbg d g Hw HM Hd b v)]; auto. }
  assert (B3 : d = false -> y <= sb + 1 + av).
  { intro Ed. destruct (Nat.lt_ge_cases sb M) as [C|C]; [|lia]. destruct (Nat.lt_ge_cases av M) as [C'|C']; [|lia]. apply up.
    apply walk_trans with a; [apply walk_trans with b|]; [| |]; [apply mono, (level_dist M dbg d g Hw HM Hd s b); auto| |
      apply mono, (level_dist M dbg d g Hw HM Hd a v); auto].
    apply walk_1. rewrite Ed in Hwh. apply (edge_sym h a b Hwh), Fab. }
  assert (low : y < M -> x <= y \/ sa + 1 + bv <= y \/ (d = false /\ sb + 1 + av <= y)).
  { intro C. destruct (level_dist M dbg d h Hwh HMh Hdh s v y ltac:(lia) ltac:(lia) Y C) as [W _].
    destruct (walk_new d (edge g) (edge h) a b He y s v W) as [(m & L & W1)|[(i & j & W1 & W2 & L)|(Ed & i & j & W1 & W2 & L)]].
    - left. pose proof (level_walk M dbg d g Hw HM Hd s v x m Hs Hv X W1). lia.
    - right. left. pose proof (level_walk M dbg d g Hw HM Hd s a sa i Hs Ha SA W1). pose proof (level_walk M dbg d g Hw HM Hd b v bv j Hb Hv BV W2). lia.
    - right. right. pose proof (level_walk M dbg d g Hw HM Hd s b sb i Hs Hb SB W1). pose proof (level_walk M dbg d g Hw HM Hd a v av j Ha Hv AV W2). split; [exact Ed|lia]. }
  replace (Nat.min x _) with y; [exact Y|]. destruct (Nat.lt_ge_cases y M) as [C|C].
  - destruct d; [|specialize (B3 eq_refl)]; destruct (low C) as [L|[L|[Ed L]]]; try discriminate; lia.
  - destruct d; [|specialize (B3 eq_refl)]; lia.
Qed.

(* ------------------------------------------------------------------ vertices removed *)
Lemma walk_back d del g g' : well_formed d g -> well_formed d g' -> size_vertex g' = rank del (size_vertex g) ->
  (forall u v, u < size_vertex g -> v < size_vertex g -> del u = false -> del v = false ->
     (edge g' (rank del u) (rank del v) <-> edge g u v)) ->
  forall k x y, walk (edge g') k x y -> forall u, u < size_vertex g -> del u = false -> rank del u = x ->
    exists v, v < size_vertex g /\ del v = false /\ rank del v = y /\ walk (edge g) k u v.
Proof.
  intros Hw Hw' Hs He k x y W. induction W as [x|k x y z W IH Hyz]; intros u Hu Du Eu.
  - exists u. repeat split; auto. constructor.
  - destruct (IH u Hu Du Eu) as (v & Hv & Dv & Ev & Wv). destruct (edge_bounds d g' y z Hw' Hyz) as (_ & Hz & _). rewrite Hs in Hz.
    destruct (rank_surj del _ z Hz) as (w & Hw1 & Dw & Ew). exists w. repeat split; auto. eapply walk_S; [exact Wv|].
    apply He; auto. rewrite Ev, Ew. exact Hyz.
Qed.

Lemma level_erase M dbg d del g g' u v a b : well_formed d g -> size_vertex g <= M ->
  (dbg = true -> 1 < size_vertex g') -> erase_if M del g = Ok g' ->
  u < size_vertex g -> v < size_vertex g -> del u = false -> del v = false ->
  level M dbg g u v a -> level M dbg g' (rank del u) (rank del v) b -> a <= b.
Proof.
  intros Hw HM Hd E Hu Hv Du Dv A B.
  destruct (erase_if_inv M d del g g' Hw E) as (Hw' & Hs & He).
  assert (Hr : forall w, w < size_vertex g -> del w = false -> rank del w < size_vertex g').
  { intros w Hw1 Dw. rewrite Hs. apply rank_lt; auto. }
  assert (Hle : size_vertex g' <= size_vertex g).
  { rewrite Hs. unfold rank. rewrite <- (seq_length (size_vertex g) 0) at 2. apply filter_length_le. }
  assert (HM' : size_vertex g' <= M) by lia. assert (Hd' : dbg = true -> 1 < size_vertex g) by (intro; specialize (Hd H); lia).
  destruct (Nat.lt_ge_cases b M) as [C|C].
  - destruct (level_dist M dbg d g' Hw' HM' Hd _ _ b (Hr u Hu Du) (Hr v Hv Dv) B C) as [W _].
    destruct (walk_back d del g g' Hw Hw' Hs He b _ _ W u Hu Du eq_refl) as (v' & _ & Dv' & Ev & Wv).
    rewrite (rank_inj del v' v Dv' Dv Ev) in Wv. apply (level_walk M dbg d g Hw HM Hd' u v); auto.
  - destruct (level_total M dbg d g Hw HM Hd' u v Hu Hv) as (a' & A' & L). rewrite (level_functional _ _ _ _ _ _ _ A A'). lia.
Qed.

(* ------------------------------------------------------------------ the diameter *)
Lemma pseudo_two M dbg g s : well_formed false g -> size_vertex g <= M -> s < size_vertex g -> 1 < size_vertex g -> connected g ->
  exists p q k, pseudo_peripheral_vertex M dbg g s = Ok p /\ p < size_vertex g /\ q < size_vertex g /\ level M dbg g p q k /\
    (forall v m, v < size_vertex g -> level M dbg g p v m -> m <= k) /\
    (forall v m, v < size_vertex g -> level M dbg g s v m -> m <= k) /\
    (forall u v m, u < size_vertex g -> v < size_vertex g -> level M dbg g u v m -> m <= 2 * k).
Proof.
  intros Hw HM Hs Hn Hc. destruct (pseudo_peripheral_spec M dbg g s Hw HM Hs Hn Hc) as (p & k & q & E & Hp & Hq & D & H1 & H2 & _).
  assert (Hd : dbg = true -> 1 < size_vertex g) by auto.
  assert (K : forall u v m, u < size_vertex g -> v < size_vertex g -> level M dbg g u v m -> dist (edge g) u v m).
  { intros u v m Hu Hv H. apply (level_dist M dbg false g Hw HM Hd u v m Hu Hv H).
    apply (level_reached M dbg false g Hw HM Hd u v m Hu Hv H). apply Hc; auto. }
  exists p, q, k. split; [exact E|]. split; [exact Hp|]. split; [exact Hq|].
  split; [apply (level_iff M dbg false g Hw HM Hd); auto|].
  split; [intros v m Hv H; apply (H1 v); auto|]. split; [intros v m Hv H; apply (H2 v); auto|].
  intros u v m Hu Hv H.
  destruct (level_total M dbg false g Hw HM Hd p u Hp Hu) as (a & A & _).
  destruct (level_total M dbg false g Hw HM Hd p v Hp Hv) as (b & B & _).
  pose proof (H1 u a Hu (K _ _ _ Hp Hu A)). pose proof (H1 v b Hv (K _ _ _ Hp Hv B)).
  apply (level_symmetric M dbg g p u a Hw HM Hd Hp Hu) in A.
  assert (a < M) by (apply (level_reached M dbg false g Hw HM Hd u p a Hu Hp A), Hc; auto).
  assert (b < M) by (apply (level_reached M dbg false g Hw HM Hd p v b Hp Hv B), Hc; auto).
  pose proof (level_triangle M dbg false g Hw HM Hd u p v a b m Hu Hp Hv A B H). lia.
Qed.

(** Six vertices: 0-1, 0-5, 1-2, 1-4, 2-3, 2-4, 3-5. *)
Definition six : graph := mkG [1; 5; 0; 2; 4; 1; 3; 4; 2; 5; 1; 2; 0; 3] [0; 2; 5; 8; 10; 12; 14].

Lemma not_peripheral : well_formed false six /\ connected six /\ forall dbg,
  pseudo_peripheral_vertex 100 dbg six 0 = Ok 3 /\ level_traversal 100 dbg six 3 100 = Ok [2; 2; 1; 0; 2; 1] /\
  level_traversal 100 dbg six 4 100 = Ok [2; 1; 1; 2; 0; 3].
Proof.
  assert (Hw : well_formed false six).
  { apply (of_rows_well_formed false [[1; 5]; [0; 2; 4]; [1; 3; 4]; [2; 5]; [1; 2]; [0; 3]]). apply rows_okb_ok. reflexivity. }
  split; [exact Hw|]. split; [|intros []; repeat split; vm_compute; reflexivity].
  assert (HM : size_vertex six <= 100) by (cbn; lia).
  assert (R : forall v, v < 6 -> reachable (edge six) 0 v).
  { intros v Hv. assert (D : false = true -> 1 < size_vertex six) by discriminate.
    assert (K : exists k, level 100 false six 0 v k /\ k < 100).
    { unfold level. do 6 (destruct v as [|v]; [eexists; split; [eexists; split; [vm_compute; reflexivity|reflexivity]|lia]|]). lia. }
    destruct K as (k & K & Lk). apply (level_reached 100 false false six Hw HM D 0 v k) in K; auto; [|cbn; lia]. apply K, Lk. }
  intros u v Hu Hv. change (size_vertex six) with 6 in *. destruct (R u Hu) as (a & A), (R v Hv) as (b & B).
  exists (a + b). eapply walk_trans; [|exact B]. apply walk_sym; [|exact A]. intros x y. apply edge_sym, Hw.
Qed.

(** The path of four vertices, from its second one and from its last. *)
Lemma path4_levels : level 100 true path4 1 3 2 /\ level 100 true path4 3 1 2 /\ level 100 true path4 3 0 3 /\
  level 100 true path4 1 0 1 /\ level 100 true path4 0 0 0 /\ level 100 true path4 0 3 3 /\ level 100 true path4 3 3 0.
Proof. repeat split; (eexists; split; [vm_compute; reflexivity|reflexivity]). Qed.
