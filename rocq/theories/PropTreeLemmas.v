(** Proofs of the property theorems about traversals of trees, lines and grids. *)
From Coq Require Import ZArith Field.
From Verif Require Import Base ListFacts Csr GraphModel GraphSpec GraphFacts GraphGen TraversalModel Bfs TraversalFacts Peripheral
  ReorderModel PermFacts Ordering OrderingSpec Envelope PropGraphLemmas PropReorderLemmas DenseModel DenseFacts ScalarModel LuModel
  LuFacts PropFillLemmas.
Local Open Scope nat_scope.

Lemma dist_eq (E : nat -> nat -> Prop) u v a b : dist E u v a -> dist E u v b -> a = b.
Proof. intros [H1 H2] [H3 H4]. specialize (H2 _ H3). specialize (H4 _ H1). lia. Qed.

(* ------------------------------------------------------------------ the first two traversals *)
Lemma pseudo_two_sweeps M dbg g s :
  well_formed false g -> size_vertex g <= M -> s < size_vertex g -> 1 < size_vertex g -> connected g ->
  exists p1 e p q k, pseudo_peripheral_vertex M dbg g s = Ok p /\ p1 < size_vertex g /\ p < size_vertex g /\ q < size_vertex g /\
    dist (edge g) s p1 e /\ (forall v m, v < size_vertex g -> dist (edge g) s v m -> m <= e) /\
    dist (edge g) p q k /\ (forall v m, v < size_vertex g -> dist (edge g) p v m -> m <= k) /\
    (forall v m, v < size_vertex g -> dist (edge g) p1 v m -> m <= k).
Proof.
  intros Hw HM Hs Hn Hcon. unfold pseudo_peripheral_vertex.
  rewrite (size_pos_nonempty false g) by (auto; lia). cbn [negb]. rewrite ASSERT_DEBUG_true. cbn [bind].
  destruct (Nat.ltb_spec s (size_vertex g)); [|lia]. rewrite ASSERT_DEBUG_true. cbn [bind].
  rewrite (degree_row dbg false g s) by auto. cbn [bind].
  assert (Hsn : exists v, v < size_vertex g /\ dist (edge g) s v 1).
  { set (t := if s =? 0 then 1 else 0).
    assert (Ht : t < size_vertex g /\ t <> s) by (unfold t; destruct (Nat.eqb_spec s 0); lia).
    destruct (Hcon s t Hs (proj1 Ht)) as (m & Hm).
    destruct m as [|m]; [inversion Hm; lia|].
    change (S m) with (1 + m) in Hm. apply walk_split in Hm as (v & Hv & _).
    exists v. inversion Hv as [|? ? u ? Hu He]; subst. inversion Hu; subst.
    pose proof (edge_bounds false g _ _ Hw He) as (_ & Hvn & Hne).
    split; auto. split; auto. intros m' Hm'. destruct m'; [inversion Hm'; congruence|lia]. }
  destruct (Nat.eqb_spec (length (row g s)) 0) as [E|E].
  { destruct Hsn as (v & _ & Hv & _). inversion Hv as [|? ? u ? Hu [_ He]]; subst.
    inversion Hu; subst. destruct (row g u); [destruct He|simpl in E; lia]. }
  replace ((size_vertex g + 1) * (size_vertex g + 1) + 1) with (S ((size_vertex g + 1) * (size_vertex g + 1))) by lia.
  cbn [peripheral_loop].
  destruct (level_traversal_spec M dbg false g s Hw HM Hs) as (L & EL & HL & HLv); [intros; exact Hn|]. rewrite EL. cbn [bind].
  destruct (peripheral_inner M dbg false g Hw HM Hn L s 0 HL Hs) as (p1 & e & found & E' & Hp1 & Hf). rewrite E'. cbn [bind].
  assert (Hlev : forall v k, v < size_vertex g -> dist (edge g) s v k -> nth v L 0 = k).
  { intros v k Hv Hk. pose proof (proj2 (HLv v Hv k) (or_introl Hk)) as Hx. apply (nth_error_nth _ _ 0) in Hx. exact Hx. }
  assert (Hlev' : forall v, v < size_vertex g -> dist (edge g) s v (nth v L 0)).
  { intros v Hv. destruct (proj1 (HLv v Hv (nth v L 0))) as [Hd|[_ Hd]]; [apply nth_error_nth_lt; lia|exact Hd|].
    exfalso. apply Hd, Hcon; auto. }
  destruct found.
  { destruct Hf as (-> & -> & Hf). destruct Hsn as (v & Hv & Hd). specialize (proj1 (Hf v Hv)) as Hle. rewrite (Hlev v 1 Hv Hd) in Hle. lia. }
  destruct Hf as (He & Hmax & _).
  assert (Hd1 : dist (edge g) s p1 e) by (rewrite <- He; auto).
  assert (He1 : 1 <= e). { destruct Hsn as (v & Hv & Hd). specialize (Hmax v Hv). rewrite (Hlev v 1 Hv Hd) in Hmax. exact Hmax. }
  pose proof (dist_lt false g s p1 e Hw Hs Hd1) as Hen.
  destruct (peripheral_loop_ok M dbg false g Hw HM Hn ((size_vertex g + 1) * (size_vertex g + 1)) p1 e Hp1)
    as (p & top & Ep & Hp & Hle & Hl1 & Hlp & Hq); [left; exact Hen| |].
  { pose proof (row_length false g p1 Hw Hp1). unfold code. destruct (Nat.ltb_spec e (size_vertex g)); nia. }
  assert (Hq' : exists q, q < size_vertex g /\ dist (edge g) q p top).
  { destruct Hq as [[-> ->]|(q & Hq & [Hd|[_ Hd]])]; [exists s; auto|exists q; auto|exfalso; apply Hd, Hcon; auto]. }
  destruct Hq' as (q & Hqn & Hqp). exists p1, e, p, q, top. rewrite Ep.
  split; [reflexivity|]. split; [exact Hp1|]. split; [exact Hp|]. split; [exact Hqn|]. split; [exact Hd1|]. split; [|split; [|split]].
  - intros v m Hv Hm. rewrite <- (Hlev v m Hv Hm). apply Hmax, Hv.
  - apply dist_sym; auto. intros a b. apply edge_sym, Hw.
  - intros v m Hv Hm. apply (Hlp v m Hv (or_introl Hm)).
  - intros v m Hv Hm. apply (Hl1 v m Hv (or_introl Hm)).
Qed.

(* ------------------------------------------------------------------ trees *)
(** A connected graph with one edge less than vertices. *)
Definition tree (g : graph) : Prop := connected g /\ size_edge false g = size_vertex g - 1 /\ 0 < size_vertex g.

Section Tree.
  Variable g : graph.
  Hypothesis Hw : well_formed false g.
  Let n := size_vertex g.

  Definition pairs : list (nat * nat) := flat_map (fun v => map (pair v) (row g v)) (seq 0 n).

  Lemma pairs_in e : In e pairs <-> edge g (fst e) (snd e).
  Proof using.
    unfold pairs, edge. rewrite in_flat_map. split.
    - intros (v & Hv & He). apply in_map_iff in He as (w & <- & Hin). apply in_seq in Hv. cbn. split; [unfold n in *; lia|exact Hin].
    - intros [H1 H2]. exists (fst e). split; [apply in_seq; unfold n; lia|]. apply in_map_iff. exists (snd e). destruct e; auto.
  Qed.

  Lemma pairs_NoDup : NoDup pairs.
  Proof using Hw.
    unfold pairs. destruct Hw as (rs & Hr & Hok).
    assert (H : forall l, NoDup l -> (forall v, In v l -> v < n) -> NoDup (flat_map (fun v => map (pair v) (row g v)) l)).
    { induction l as [|v l IH]; intros Hnd Hl; [constructor|]. cbn [flat_map]. inversion_clear Hnd as [|? ? Hni Hnd'].
      apply NoDup_app_intro.
      - apply FinFun.Injective_map_NoDup; [intros a b H; congruence|].
        assert (Hv : v < length rs) by (rewrite <- (repr_size _ _ Hr); apply Hl; left; reflexivity).
        rewrite (repr_row g rs) by auto. apply ascending_NoDup, Hok, Hv.
      - apply IH; auto. intros; apply Hl; right; auto.
      - intros e He He'. apply in_map_iff in He as (w & <- & _). apply in_flat_map in He' as (u & Hu & He').
        apply in_map_iff in He' as (w' & E & _). congruence. }
    apply H; [apply seq_NoDup|]. intros v Hv. apply in_seq in Hv. lia.
  Qed.

  Lemma pairs_length : length pairs = length (adj g).
  Proof using Hw.
    destruct Hw as (rs & Hr & _). unfold pairs. rewrite (repr_adj _ _ Hr). rewrite <- (repr_rows _ _ Hr). unfold rows. fold n.
    rewrite <- flat_map_concat_map. generalize (seq 0 n). intros l. induction l as [|v l IH]; [reflexivity|].
    cbn [flat_map]. rewrite !app_length, map_length. lia.
  Qed.

  Hypothesis Hcon : connected g.
  Hypothesis Hsize : size_edge false g = n - 1.
  Hypothesis Hn : 0 < n.
  (** The distances from vertex 0. *)
  Variable D : nat -> nat.
  Hypothesis HD : forall v, v < n -> dist (edge g) 0 v (D v).

  Definition ord (v : nat) : nat := D v * n + v.

  Lemma ord_inj u v : u < n -> v < n -> ord u = ord v -> u = v.
  Proof using. clear Hsize Hn HD Hcon Hw. unfold ord. intros Hu Hv E. assert (D u = D v) by nia. nia. Qed.

  Lemma ord_zero : ord 0 = 0.
  Proof using Hw Hsize Hn HD.
    unfold ord. assert (D 0 = 0); [|lia]. apply (dist_eq (edge g) 0 0); [apply HD, Hn|]. split; [apply walk_0|intros; lia].
  Qed.

  Lemma ord_pos v : v < n -> v <> 0 -> 0 < ord v.
  Proof using. clear Hsize Hn HD Hcon Hw. unfold ord. lia. Qed.

  (** Vertices next to [v] on the way to 0. *)
  Lemma has_lower v : v < n -> v <> 0 -> exists w, edge g v w /\ ord w < ord v.
  Proof using Hw Hsize Hn HD.
    intros Hv H0. pose proof (HD v Hv) as [Hwk Hmin]. destruct (D v) as [|k] eqn:Ek; [inversion Hwk; lia|].
    inversion Hwk as [|? ? u ? Hu Hed]; subst. exists u. split; [apply edge_sym; auto|].
    pose proof (edge_bounds false g u v Hw Hed) as (Hun & _ & _). fold n in Hun.
    assert (D u <= k) by (apply (HD u Hun), Hu). unfold ord. rewrite Ek. nia.
  Qed.

  Definition lower_pairs := filter (fun e => ord (snd e) <? ord (fst e)) (pairs).
  Definition upper_pairs := filter (fun e => ord (fst e) <? ord (snd e)) (pairs).

  Lemma lower_length : length lower_pairs = n - 1.
  Proof using Hw Hsize Hn HD.
    assert (Hs : forall P Q : nat * nat -> bool, (forall e, In e pairs -> Q e = negb (P e)) ->
      length (filter P pairs) + length (filter Q pairs) = length pairs).
    { intros P Q. generalize pairs. intros l. induction l as [|e l IH]; intros H; [reflexivity|]. cbn [filter].
      rewrite (H e) by (left; reflexivity). specialize (IH (fun e He => H e (or_intror He))). destruct (P e); cbn [negb length]; lia. }
    assert (Hsum : length lower_pairs + length upper_pairs = length pairs).
    { apply Hs. intros e He. apply pairs_in in He. apply (edge_bounds false g _ _ Hw) in He as (H1 & H2 & Hne).
      destruct (Nat.ltb_spec (ord (fst e)) (ord (snd e))), (Nat.ltb_spec (ord (snd e)) (ord (fst e))); try reflexivity; try lia.
      exfalso. apply Hne, ord_inj; auto. lia. }
    pose (swap := fun e : nat * nat => (snd e, fst e)).
    assert (Hsw : forall l, NoDup l -> NoDup (map swap l)).
    { intros l. apply FinFun.Injective_map_NoDup. intros [a b] [c d]. unfold swap. cbn. congruence. }
    assert (H1 : length lower_pairs <= length upper_pairs).
    { rewrite <- (map_length swap). apply NoDup_incl_length; [apply Hsw, NoDup_filter, pairs_NoDup|].
      intros e He. apply in_map_iff in He as ([a b] & <- & He). apply filter_In in He as [He Hl]. apply filter_In. cbn [swap fst snd] in *.
      split; [|exact Hl]. apply pairs_in. apply pairs_in in He. apply edge_sym; auto. }
    assert (H2 : length upper_pairs <= length lower_pairs).
    { rewrite <- (map_length swap). apply NoDup_incl_length; [apply Hsw, NoDup_filter, pairs_NoDup|].
      intros e He. apply in_map_iff in He as ([a b] & <- & He). apply filter_In in He as [He Hl]. apply filter_In. cbn [swap fst snd] in *.
      split; [|exact Hl]. apply pairs_in. apply pairs_in in He. apply edge_sym; auto. }
    rewrite pairs_length in Hsum. unfold size_edge in Hsize.
    assert (length (adj g) = 2 * length lower_pairs) by lia. rewrite H in Hsize.
    rewrite Nat.mul_comm, Nat.div_mul in Hsize by lia. exact Hsize.
  Qed.

  Definition par (v : nat) : nat := hd 0 (filter (fun w => ord w <? ord v) (row g v)).

  Lemma par_ok v : v < n -> v <> 0 -> edge g v (par v) /\ ord (par v) < ord v.
  Proof using Hw Hsize Hn HD.
    intros Hv H0. destruct (has_lower v Hv H0) as (w & Hed & Hlt).
    assert (Hin : In w (filter (fun w => ord w <? ord v) (row g v))) by (apply filter_In; split; [apply Hed|apply Nat.ltb_lt, Hlt]).
    unfold par. destruct (filter _ _) as [|u l] eqn:E; [destruct Hin|]. cbn [hd].
    assert (Hu : In u (filter (fun w => ord w <? ord v) (row g v))) by (rewrite E; left; reflexivity).
    apply filter_In in Hu as [Hu Hl]. apply Nat.ltb_lt in Hl. split; [split; auto|exact Hl].
  Qed.

  Lemma par_unique v w : v < n -> v <> 0 -> edge g v w -> ord w < ord v -> w = par v.
  Proof using Hw Hsize Hn HD.
    intros Hv H0 Hed Hlt. destruct (Nat.eq_dec w (par v)) as [|Hne]; [assumption|exfalso].
    assert (Hl : length ((v, w) :: map (fun u => (u, par u)) (seq 1 (n - 1))) <= length lower_pairs).
    { apply NoDup_incl_length.
      - constructor.
        + intros Hin. apply in_map_iff in Hin as (u & E & _). injection E as -> E. auto.
        + apply (NoDup_map_inv fst). rewrite map_map. cbn [fst]. rewrite map_id. apply seq_NoDup.
      - intros e [<-|He].
        + apply filter_In. split; [apply pairs_in; exact Hed|apply Nat.ltb_lt; exact Hlt].
        + apply in_map_iff in He as (u & <- & Hu). apply in_seq in Hu. destruct (par_ok u) as [P1 P2]; [lia|lia|].
          apply filter_In. split; [apply pairs_in; exact P1|apply Nat.ltb_lt; exact P2]. }
    rewrite lower_length in Hl. cbn [length] in Hl. rewrite map_length, seq_length in Hl. lia.
  Qed.

  Lemma edge_par a b : edge g a b -> (a <> 0 /\ b = par a /\ ord b < ord a) \/ (b <> 0 /\ a = par b /\ ord a < ord b).
  Proof using Hw Hsize Hn HD.
    intros He. pose proof (edge_bounds false g a b Hw He) as (Ha & Hb & Hne). fold n in Ha, Hb.
    destruct (Nat.lt_trichotomy (ord a) (ord b)) as [H|[H|H]].
    - right. assert (b <> 0) by (intros ->; rewrite ord_zero in H; lia). split; [auto|]. split; [|exact H].
      apply par_unique; auto. apply edge_sym; auto.
    - exfalso. apply Hne, ord_inj; auto.
    - left. assert (a <> 0) by (intros ->; rewrite ord_zero in H; lia). split; [auto|]. split; [|exact H].
      apply par_unique; auto.
  Qed.

  (** [v] lies on the way from [u] to 0. *)
  Inductive anc (v : nat) : nat -> Prop :=
  | anc_refl : anc v v
  | anc_step u : u < n -> u <> 0 -> anc v (par u) -> anc v u.

  Lemma anc_ord v u : anc v u -> ord v <= ord u.
  Proof using Hw Hsize Hn HD. intros H. induction H as [|u Hu H0 _ IH]; [lia|]. pose proof (par_ok u Hu H0). lia. Qed.

  Lemma anc_dec v u : u < n -> anc v u \/ ~ anc v u.
  Proof using Hw Hsize Hn HD.
    remember (ord u) as k eqn:Ek. revert u Ek. induction k as [k IH] using lt_wf_ind. intros u -> Hu.
    destruct (Nat.eq_dec u v) as [->|Hne]; [left; apply anc_refl|].
    destruct (Nat.eq_dec u 0) as [->|H0]; [right; intros H; inversion H; congruence|].
    destruct (par_ok u Hu H0) as [P1 P2]. pose proof (edge_bounds false g _ _ Hw P1) as (_ & Hp & _).
    destruct (IH (ord (par u)) P2 (par u) eq_refl Hp) as [H|H]; [left; apply anc_step; auto|].
    right. intros H'. inversion H'; [congruence|contradiction].
  Qed.

  Lemma leave v k a x : anc v a -> a < n -> walk (edge g) k a x -> ~ anc v x -> exists m, m < k /\ walk (edge g) m (par v) x.
  Proof using Hw Hsize Hn HD.
    intros Ha Han H. induction H as [a|k a y x H IH He]; intros Hx; [contradiction|].
    pose proof (edge_bounds false g y x Hw He) as (Hyn & Hxn & _).
    destruct (anc_dec v y Hyn) as [Hy|Hy].
    - destruct (edge_par y x He) as [(Hy0 & -> & Hlt)|(Hx0 & -> & Hlt)].
      + inversion Hy as [E|u Hu H0 Hup]; [|contradiction]. exists 0. split; [lia|]. subst. apply walk_0.
      + exfalso. apply Hx, anc_step; auto.
    - destruct (IH Ha Han Hy) as (m & Hm & Hwk). exists (S m). split; [lia|]. apply (walk_S _ m _ y); auto.
  Qed.

  Variable delta : nat -> nat -> nat.
  Hypothesis Hdelta : forall u v, u < n -> v < n -> dist (edge g) u v (delta u v).

  Lemma delta_par v x : v < n -> x < n -> ord x < ord v -> delta v x = 1 + delta (par v) x.
  Proof using Hw Hsize Hn HD Hdelta.
    intros Hv Hx Hlt. assert (H0 : v <> 0) by (intros ->; rewrite ord_zero in Hlt; lia).
    destruct (par_ok v Hv H0) as [P1 P2]. pose proof (edge_bounds false g _ _ Hw P1) as (_ & Hp & _).
    destruct (Hdelta v x Hv Hx) as [W Hmin]. destruct (Hdelta (par v) x Hp Hx) as [W' Hmin'].
    apply Nat.le_antisymm.
    - apply Hmin. apply (walk_trans _ 1 _ _ (par v)); [|exact W']. apply (walk_S _ 0 _ v); [apply walk_0|exact P1].
    - destruct (leave v (delta v x) v x (anc_refl v) Hv W) as (m & Hm & Hwk).
      + intros H. apply anc_ord in H. lia.
      + specialize (Hmin' m Hwk). lia.
  Qed.

  Lemma delta_sym u v : u < n -> v < n -> delta u v = delta v u.
  Proof using Hw Hsize Hn HD Hdelta. intros Hu Hv. apply (dist_eq (edge g) u v); [apply Hdelta; auto|]. apply dist_sym; [intros a b; apply edge_sym, Hw|apply Hdelta; auto]. Qed.

  Lemma delta_self u : u < n -> delta u u = 0.
  Proof using Hw Hsize Hn HD Hdelta. intros Hu. apply (dist_eq (edge g) u u); [apply Hdelta; auto|]. split; [apply walk_0|intros; lia]. Qed.

  Lemma delta_triangle u v w : u < n -> v < n -> w < n -> delta u w <= delta u v + delta v w.
  Proof using Hw Hsize Hn HD Hdelta.
    intros Hu Hv Hx. apply (Hdelta u w Hu Hx). apply (walk_trans _ _ _ _ v); apply Hdelta; auto.
  Qed.

  (** Of the three ways to pair four vertices of a tree the two largest sums of distances are equal. *)
  Lemma four_point k : forall w x y z, w < n -> x < n -> y < n -> z < n -> ord w + ord x + ord y + ord z <= k ->
    delta w x + delta y z <= Nat.max (delta w y + delta x z) (delta w z + delta x y).
  Proof using Hw Hsize Hn HD Hdelta.
    induction k as [k IH] using lt_wf_ind. intros w x y z Hw' Hx Hy Hz Hk.
    assert (Hpar : forall v, v < n -> v <> 0 -> par v < n /\ ord (par v) < ord v).
    { intros v Hv H0. destruct (par_ok v Hv H0) as [P1 P2]. pose proof (edge_bounds false g _ _ Hw P1) as (_ & Hp & _). auto. }
    assert (Hnz : forall u v, ord u < ord v -> v <> 0) by (intros u v H ->; rewrite ord_zero in H; lia).
    destruct (Nat.eq_dec w x) as [->|N1].
    { rewrite (delta_self x) by auto. pose proof (delta_triangle y x z Hy Hx Hz). rewrite (delta_sym y x) in H by auto. lia. }
    destruct (Nat.eq_dec y z) as [->|N2].
    { rewrite (delta_self z) by auto. pose proof (delta_triangle w z x Hw' Hz Hx). rewrite (delta_sym z x) in H by auto. lia. }
    destruct (Nat.eq_dec w y) as [->|N3].
    { pose proof (delta_sym y x Hy Hx). lia. }
    destruct (Nat.eq_dec w z) as [->|N4].
    { pose proof (delta_sym z x Hz Hx). pose proof (delta_sym z y Hz Hy). lia. }
    destruct (Nat.eq_dec x y) as [->|N5].
    { lia. }
    destruct (Nat.eq_dec x z) as [->|N6].
    { pose proof (delta_sym y z Hy Hz). lia. }
    assert (I1 : ord w <> ord x) by (intros E; apply N1, ord_inj; auto).
    assert (I2 : ord y <> ord z) by (intros E; apply N2, ord_inj; auto).
    assert (I3 : ord w <> ord y) by (intros E; apply N3, ord_inj; auto).
    assert (I4 : ord w <> ord z) by (intros E; apply N4, ord_inj; auto).
    assert (I5 : ord x <> ord y) by (intros E; apply N5, ord_inj; auto).
    assert (I6 : ord x <> ord z) by (intros E; apply N6, ord_inj; auto).
    assert (Hmx : (ord x < ord w /\ ord y < ord w /\ ord z < ord w) \/ (ord w < ord x /\ ord y < ord x /\ ord z < ord x) \/
      (ord w < ord y /\ ord x < ord y /\ ord z < ord y) \/ (ord w < ord z /\ ord x < ord z /\ ord y < ord z)) by lia.
    destruct Hmx as [(A1 & A2 & A3)|[(A1 & A2 & A3)|[(A1 & A2 & A3)|(A1 & A2 & A3)]]].
    - destruct (Hpar w Hw' (Hnz _ _ A1)) as [B1 B2]. rewrite !(delta_par w) by auto.
      assert (Hlt : ord (par w) + ord x + ord y + ord z < k) by lia. specialize (IH _ Hlt (par w) x y z B1 Hx Hy Hz (le_n _)). lia.
    - destruct (Hpar x Hx (Hnz _ _ A1)) as [B1 B2]. rewrite (delta_sym w x) by auto. rewrite !(delta_par x) by auto.
      assert (Hlt : ord w + ord (par x) + ord y + ord z < k) by lia. specialize (IH _ Hlt w (par x) y z Hw' B1 Hy Hz (le_n _)).
      rewrite (delta_sym (par x) w) by auto. lia.
    - destruct (Hpar y Hy (Hnz _ _ A1)) as [B1 B2]. rewrite (delta_sym w y), (delta_sym x y) by auto. rewrite !(delta_par y) by auto.
      assert (Hlt : ord w + ord x + ord (par y) + ord z < k) by lia. specialize (IH _ Hlt w x (par y) z Hw' Hx B1 Hz (le_n _)).
      rewrite (delta_sym (par y) w), (delta_sym (par y) x) by auto. lia.
    - destruct (Hpar z Hz (Hnz _ _ A1)) as [B1 B2]. rewrite (delta_sym y z), (delta_sym x z), (delta_sym w z) by auto. rewrite !(delta_par z) by auto.
      assert (Hlt : ord w + ord x + ord y + ord (par z) < k) by lia. specialize (IH _ Hlt w x y (par z) Hw' Hx Hy B1 (le_n _)).
      rewrite (delta_sym (par z) w), (delta_sym (par z) x), (delta_sym (par z) y) by auto. lia.
  Qed.
End Tree.

(** All distances of a connected graph. *)
Lemma all_distances g : well_formed false g -> connected g -> 0 < size_vertex g ->
  exists delta, forall u v, u < size_vertex g -> v < size_vertex g -> dist (edge g) u v (delta u v).
Proof.
  intros Hw Hcon Hn. set (n := size_vertex g).
  exists (fun u v => nth v (match level_traversal n false g u n with Ok L => L | _ => [] end) 0). intros u v Hu Hv.
  destruct (level_traversal_spec n false false g u Hw ltac:(fold n; lia) Hu ltac:(discriminate)) as (L & -> & HL & H).
  destruct (proj1 (H v Hv (nth v L 0))) as [Hd|[_ Hd]]; [apply nth_error_nth_lt; lia|exact Hd|]. exfalso. apply Hd, Hcon; auto.
Qed.

Lemma tree_four_point g w x y z a b c d e f : well_formed false g -> tree g ->
  w < size_vertex g -> x < size_vertex g -> y < size_vertex g -> z < size_vertex g ->
  dist (edge g) w x a -> dist (edge g) y z b -> dist (edge g) w y c -> dist (edge g) x z d ->
  dist (edge g) w z e -> dist (edge g) x y f -> a + b <= Nat.max (c + d) (e + f).
Proof.
  intros Hw (Hcon & Hs & Hn) H1 H2 H3 H4 Da Db Dc Dd De Df. destruct (all_distances g Hw Hcon Hn) as (delta & HD).
  pose proof (four_point g Hw Hs Hn (delta 0) (fun v Hv => HD 0 v Hn Hv) delta HD _ w x y z H1 H2 H3 H4 (le_n _)) as H.
  rewrite (dist_eq _ _ _ _ _ (HD w x H1 H2) Da), (dist_eq _ _ _ _ _ (HD y z H3 H4) Db), (dist_eq _ _ _ _ _ (HD w y H1 H3) Dc),
    (dist_eq _ _ _ _ _ (HD x z H2 H4) Dd), (dist_eq _ _ _ _ _ (HD w z H1 H4) De), (dist_eq _ _ _ _ _ (HD x y H2 H3) Df) in H. exact H.
Qed.

(** The search for a peripheral vertex finds the diameter of a tree. *)
Lemma tree_diameter M dbg g s : well_formed false g -> tree g -> size_vertex g <= M -> s < size_vertex g ->
  1 < size_vertex g ->
  exists p q k, pseudo_peripheral_vertex M dbg g s = Ok p /\ p < size_vertex g /\ q < size_vertex g /\ dist (edge g) p q k /\
    forall u v m, u < size_vertex g -> v < size_vertex g -> dist (edge g) u v m -> m <= k.
Proof.
  intros Hw Ht HM Hs Hn. pose proof Ht as (Hcon & _ & H0).
  destruct (pseudo_two_sweeps M dbg g s Hw HM Hs Hn Hcon) as (p1 & e & p & q & k & Ep & Hp1 & Hp & Hq & Hd1 & Hfar & Hpq & Hecc & Hecc1).
  exists p, q, k. split; [exact Ep|]. split; [exact Hp|]. split; [exact Hq|]. split; [exact Hpq|]. intros u v m Hu Hv Hm.
  destruct (all_distances g Hw Hcon H0) as (delta & HD).
  pose proof (tree_four_point g u v s p1 m e _ _ _ _ Hw Ht Hu Hv Hs Hp1 Hm Hd1
    (HD u s Hu Hs) (HD v p1 Hv Hp1) (HD u p1 Hu Hp1) (HD v s Hv Hs)) as H.
  assert (Hsym : forall a b d, dist (edge g) a b d -> dist (edge g) b a d) by (intros a b d; apply dist_sym; intros ? ?; apply edge_sym, Hw).
  pose proof (Hfar u _ Hu (Hsym _ _ _ (HD u s Hu Hs))). pose proof (Hfar v _ Hv (Hsym _ _ _ (HD v s Hv Hs))).
  pose proof (Hecc1 u _ Hu (Hsym _ _ _ (HD u p1 Hu Hp1))). pose proof (Hecc1 v _ Hv (Hsym _ _ _ (HD v p1 Hv Hp1))). lia.
Qed.

(* ------------------------------------------------------------------ distances by a potential *)
Lemma lipschitz (E : nat -> nat -> Prop) (f : nat -> nat) : (forall a b, E a b -> f b <= f a + 1) ->
  forall k u v, walk E k u v -> f v <= f u + k.
Proof. intros H k u v Hw. induction Hw as [|k u v w _ IH He]; [lia|]. specialize (H v w He). lia. Qed.

Lemma dist_intro (E : nat -> nat -> Prop) (f : nat -> nat) u v : (forall a b, E a b -> f b <= f a + 1) -> f u = 0 -> walk E (f v) u v -> dist E u v (f v).
Proof. intros H H0 Hw. split; [exact Hw|]. intros m Hm. pose proof (lipschitz E f H m u v Hm). lia. Qed.

Lemma levels_of M dbg g s D : well_formed false g -> size_vertex g <= M -> s < size_vertex g -> 1 < size_vertex g ->
  (forall v, v < size_vertex g -> dist (edge g) s v (D v)) ->
  level_traversal M dbg g s M = Ok (map D (seq 0 (size_vertex g))).
Proof.
  intros Hw HM Hs Hn HD. destruct (level_traversal_spec M dbg false g s Hw HM Hs) as (L & -> & HL & H); [intros; exact Hn|].
  f_equal. apply nth_error_ext_len; [rewrite map_length, seq_length; exact HL|]. intros i Hi. rewrite HL in Hi.
  rewrite (proj2 (H i Hi (D i)) (or_introl (HD i Hi))). rewrite nth_error_map', nth_error_seq.
  destruct (Nat.ltb_spec i (size_vertex g)); [reflexivity|lia].
Qed.

Lemma distances_connected g s D : well_formed false g -> (forall v, v < size_vertex g -> dist (edge g) s v (D v)) -> connected g.
Proof.
  intros Hw HD u v Hu Hv. destruct (HD u Hu) as [H1 _]. destruct (HD v Hv) as [H2 _]. exists (D u + D v).
  eapply walk_trans; [|exact H2]. apply walk_sym; auto. intros x y. apply edge_sym; auto.
Qed.

(** The distance between two numbers. *)
Definition gap (a b : nat) : nat := (a - b) + (b - a).

(* ------------------------------------------------------------------ lines *)
Section Line.
  Variables (M : nat) (dbg : bool) (n : nat) (g : graph).
  Hypothesis Hn : 2 <= n.
  Hypothesis Hg : create_graph_line M dbg false n = Ok g.

  Lemma line_facts : well_formed false g /\ size_vertex g = n /\ size_edge false g = n - 1 /\
    forall u v, edge g u v <-> u < n /\ v < n /\ (v = u + 1 \/ u = v + 1).
  Proof using Hn Hg.
    destruct (create_line_spec M dbg false n Hn) as (g' & E & Hw & Hs & He & Hed). rewrite Hg in E. injection E as <-.
    split; [exact Hw|]. split; [exact Hs|]. split; [exact He|]. intros u v. rewrite Hed. intuition.
  Qed.

  Lemma line_walk k : forall u, u + k < n -> walk (edge g) k u (u + k).
  Proof using Hn Hg.
    destruct line_facts as (_ & _ & _ & He). induction k as [|k IH]; intros u H; [rewrite Nat.add_0_r; apply walk_0|].
    apply (walk_S _ k u (u + k)); [apply IH; lia|]. apply He. lia.
  Qed.

  Lemma line_dist u v : u < n -> v < n -> dist (edge g) u v (gap u v).
  Proof using Hn Hg.
    intros Hu Hv. destruct line_facts as (Hw & _ & _ & He). apply (dist_intro _ (gap u)).
    - intros a b Hab. apply He in Hab. unfold gap. lia.
    - unfold gap. lia.
    - unfold gap. destruct (Nat.le_ge_cases u v) as [H|H].
      + replace (u - v + (v - u)) with (v - u) by lia. replace v with (u + (v - u)) at 2 by lia. apply line_walk. lia.
      + apply walk_sym; [intros a b; apply edge_sym, Hw|].
        replace (u - v + (v - u)) with (u - v) by lia. replace u with (v + (u - v)) at 2 by lia. apply line_walk. lia.
  Qed.

  Lemma line_connected : connected g.
  Proof using Hn Hg.
    intros u v Hu Hv. destruct line_facts as (_ & Hs & _). rewrite Hs in *. exists (gap u v). apply line_dist; auto.
  Qed.

  Lemma line_tree : tree g.
  Proof using Hn Hg. destruct line_facts as (_ & Hs & He & _). split; [exact line_connected|]. rewrite Hs. split; [exact He|lia]. Qed.

  Lemma line_levels s : n <= M -> s < n -> level_traversal M dbg g s M = Ok (map (gap s) (seq 0 n)).
  Proof using Hn Hg.
    intros HM Hs. destruct line_facts as (Hw & Hsz & _). rewrite <- Hsz. apply levels_of; rewrite ?Hsz; auto.
    intros v Hv. apply line_dist; auto.
  Qed.

  Lemma line_end s : n <= M -> s < n -> exists p, pseudo_peripheral_vertex M dbg g s = Ok p /\ (p = 0 \/ p = n - 1).
  Proof using Hn Hg.
    intros HM Hs. destruct line_facts as (Hw & Hsz & _).
    destruct (tree_diameter M dbg g s Hw line_tree) as (p & q & k & Ep & Hp & Hq & Hd & Hmax); rewrite ?Hsz in *; auto.
    exists p. split; [exact Ep|]. pose proof (Hmax 0 (n - 1) (gap 0 (n - 1)) ltac:(lia) ltac:(lia) (line_dist 0 (n - 1) ltac:(lia) ltac:(lia))).
    pose proof (dist_eq _ _ _ _ _ Hd (line_dist p q Hp Hq)). unfold gap in *. lia.
  Qed.

  Lemma perm_monotone (p : list nat) : is_perm n p -> (forall u v, u < v -> v < n -> nth u p 0 < nth v p 0) -> p = seq 0 n.
  Proof using.
    clear Hn Hg. intros Hp H.
    assert (Hlow : forall u, u < n -> u <= nth u p 0).
    { induction u as [|u IH]; intros Hu; [lia|]. specialize (IH ltac:(lia)). specialize (H u (S u) ltac:(lia) Hu). lia. }
    assert (Hup : forall k u, u + k = n - 1 -> u < n -> nth u p 0 <= u).
    { induction k as [|k IH]; intros u Hk Hu; pose proof (perm_bound n p u Hp Hu); [lia|].
      specialize (IH (S u) ltac:(lia) ltac:(lia)). specialize (H u (S u) ltac:(lia) ltac:(lia)). lia. }
    apply (nth_ext _ _ 0 0); [rewrite seq_length; apply (perm_length n p Hp)|]. intros i Hi. rewrite (perm_length n p Hp) in Hi.
    rewrite seq_nth by exact Hi. specialize (Hlow i Hi). specialize (Hup (n - 1 - i) i ltac:(lia) Hi). lia.
  Qed.

  Lemma perm_antitone (p : list nat) : is_perm n p -> (forall u v, u < v -> v < n -> nth v p 0 < nth u p 0) -> p = rev (seq 0 n).
  Proof using.
    clear Hn Hg. intros Hp H. rewrite <- (rev_involutive p). f_equal. apply perm_monotone.
    - unfold is_perm in *. eapply perm_trans; [|exact Hp]. apply Permutation_sym, Permutation_rev.
    - intros u v Huv Hv. pose proof (perm_length n p Hp) as Hl. rewrite !rev_nth by lia. apply H; lia.
  Qed.

  Lemma line_cuthill_mckee sortf : sorts_by_second sortf -> n <= M -> n <> M ->
    cuthill_mckee sortf M dbg g 0 = Ok (seq 0 n) /\ cuthill_mckee sortf M dbg g (n - 1) = Ok (rev (seq 0 n)) /\
    cuthill_mckee sortf M dbg g M = Ok (seq 0 n).
  Proof using Hn Hg.
    intros Hso HM HnM. destruct line_facts as (Hw & Hsz & _ & He).
    assert (H0 : forall p, level_order g (fun v => length (row g v)) 0 p -> p = seq 0 n).
    { intros p [Hp _ Hl _]. rewrite Hsz in *. apply perm_monotone; [exact Hp|]. intros u v Huv Hv.
      apply (Hl u v _ _ ltac:(lia) Hv (line_dist 0 u ltac:(lia) ltac:(lia)) (line_dist 0 v ltac:(lia) Hv)). unfold gap. lia. }
    split; [|split].
    - destruct (cmk_spec sortf M dbg g 0 Hw Hso) as (p & -> & Hlo); [lia|lia|exact line_connected|]. rewrite (H0 p Hlo). reflexivity.
    - destruct (cmk_spec sortf M dbg g (n - 1) Hw Hso) as (p & -> & [Hp _ Hl _]); [lia|lia|exact line_connected|]. f_equal.
      rewrite Hsz in *. apply perm_antitone; [exact Hp|]. intros u v Huv Hv.
      apply (Hl v u _ _ Hv ltac:(lia) (line_dist (n - 1) v ltac:(lia) ltac:(lia)) (line_dist (n - 1) u ltac:(lia) ltac:(lia))). unfold gap. lia.
    - destruct (cmk_default_spec sortf M dbg g Hw Hso) as (s & p & -> & Hmin & Hlo); [lia|lia|exact line_connected|lia|].
      assert (s = 0).
      { destruct Hmin as (Hs & Hm & Hf). destruct s as [|s]; [reflexivity|exfalso]. specialize (Hf 0 ltac:(lia)).
        assert (Hin0 : edge g 0 1) by (apply He; lia).
        assert (E0 : row g 0 = [1]).
        { destruct Hw as (rs & Hr & Hok). pose proof (repr_size _ _ Hr) as Hlr. destruct (Hok 0 ltac:(lia)) as (Hasc & _ & _).
          rewrite (repr_row g rs) in * by (auto; lia). pose proof (ascending_NoDup _ Hasc) as Hnd.
          assert (Hall : forall x, In x (nth 0 rs []) -> x = 1).
          { intros x Hx. assert (Hed : edge g 0 x) by (split; [lia|rewrite (repr_row g rs) by (auto; lia); exact Hx]). apply He in Hed. lia. }
          destruct (nth 0 rs []) as [|a [|b l]] eqn:En.
          - destruct Hin0 as [_ Hin0]. rewrite (repr_row g rs) in Hin0 by (auto; lia). rewrite En in Hin0. destruct Hin0.
          - rewrite (Hall a) by (left; reflexivity). reflexivity.
          - exfalso. assert (a = 1) by (apply Hall; left; reflexivity). assert (b = 1) by (apply Hall; right; left; reflexivity). subst.
            inversion Hnd as [|? ? Hni _]. apply Hni. left. reflexivity. }
        rewrite E0 in Hf. cbn [length] in Hf. assert (He1 : edge g (S s) s) by (apply He; lia). destruct He1 as [_ He1].
        destruct (row g (S s)) as [|x l]; [destruct He1|cbn in Hf; lia]. }
      subst s. rewrite (H0 p Hlo). reflexivity.
  Qed.
End Line.

(* ------------------------------------------------------------------ grids *)
Section Grid.
  Variables (dbg : bool) (n : nat) (g : graph).
  Hypothesis Hn : 2 <= n.
  Hypothesis Hg : create_graph_structured dbg false n = Ok g.

  (** The distance in a grid: along the rows and along the columns. *)
  Definition city (u v : nat) : nat := gap (u mod n) (v mod n) + gap (u / n) (v / n).

  Lemma grid_facts : well_formed false g /\ size_vertex g = n * n /\
    forall u v, edge g u v <-> u < n * n /\ v < n * n /\ city u v = 1.
  Proof using Hn Hg.
    destruct (grid_spec dbg false n ltac:(lia)) as (g' & E & Hw & Hs & _ & Hed). rewrite Hg in E. injection E as <-.
    split; [exact Hw|]. split; [exact Hs|]. intros u v.
    assert (Hc : forall w, w < n * n -> w mod n < n /\ w / n < n /\ w = w / n * n + w mod n).
    { intros w H. split; [apply Nat.mod_upper_bound; lia|]. split; [apply Nat.div_lt_upper_bound; lia|].
      rewrite (Nat.div_mod w n) at 1 by lia. lia. }
    assert (Hiff : u < n * n -> v < n * n -> (edge g u v <-> city u v = 1)).
    { intros Hu Hv. destruct (Hc u Hu) as (H1 & H2 & H3). destruct (Hc v Hv) as (H4 & H5 & H6).
      rewrite H3 at 1. rewrite H6 at 1. rewrite Hed by auto. unfold city, gap. lia. }
    split.
    - intros He. pose proof (edge_bounds false g u v Hw He) as (Hu & Hv & _). rewrite Hs in *. split; [exact Hu|]. split; [exact Hv|]. apply Hiff; auto.
    - intros (Hu & Hv & H). apply Hiff; auto.
  Qed.

  Lemma point x y : x < n -> y < n -> y * n + x < n * n /\ (y * n + x) mod n = x /\ (y * n + x) / n = y.
  Proof using Hn.
    clear Hg. intros Hx Hy. split; [nia|]. split.
    - rewrite Nat.add_comm, Nat.mod_add by lia. apply Nat.mod_small, Hx.
    - rewrite Nat.add_comm, Nat.div_add by lia. rewrite Nat.div_small by exact Hx. reflexivity.
  Qed.

  Lemma coordinates v : v < n * n -> v mod n < n /\ v / n < n /\ v = v / n * n + v mod n.
  Proof using Hn.
    clear Hg. intros H. split; [apply Nat.mod_upper_bound; lia|]. split; [apply Nat.div_lt_upper_bound; lia|].
    rewrite (Nat.div_mod v n) at 1 by lia. lia.
  Qed.

  Lemma row_walk y k : forall x, x + k < n -> y < n -> walk (edge g) k (y * n + x) (y * n + (x + k)).
  Proof using Hn Hg.
    destruct grid_facts as (_ & _ & He). induction k as [|k IH]; intros x H Hy; [rewrite Nat.add_0_r; apply walk_0|].
    apply (walk_S _ k _ (y * n + (x + k))); [apply IH; lia|]. apply He.
    destruct (point (x + k) y ltac:(lia) Hy) as (P1 & P2 & P3). destruct (point (x + S k) y H Hy) as (P4 & P5 & P6).
    split; [exact P1|]. split; [exact P4|]. unfold city. rewrite P2, P3, P5, P6. unfold gap. lia.
  Qed.

  Lemma column_walk x k : forall y, y + k < n -> x < n -> walk (edge g) k (y * n + x) ((y + k) * n + x).
  Proof using Hn Hg.
    destruct grid_facts as (_ & _ & He). induction k as [|k IH]; intros y H Hx; [rewrite Nat.add_0_r; apply walk_0|].
    apply (walk_S _ k _ ((y + k) * n + x)); [apply IH; lia|]. apply He.
    destruct (point x (y + k) Hx ltac:(lia)) as (P1 & P2 & P3). destruct (point x (y + S k) Hx H) as (P4 & P5 & P6).
    split; [exact P1|]. split; [exact P4|]. unfold city. rewrite P2, P3, P5, P6. unfold gap. lia.
  Qed.

  Lemma row_walk2 x x' y : x < n -> x' < n -> y < n -> walk (edge g) (gap x x') (y * n + x) (y * n + x').
  Proof using Hn Hg.
    intros Hx Hx' Hy. destruct grid_facts as (Hw & _). unfold gap. destruct (Nat.le_ge_cases x x') as [H|H].
    - replace (x - x' + (x' - x)) with (x' - x) by lia. pose proof (row_walk y (x' - x) x ltac:(lia) Hy) as W.
      replace (x + (x' - x)) with x' in W by lia. exact W.
    - replace (x - x' + (x' - x)) with (x - x') by lia. pose proof (row_walk y (x - x') x' ltac:(lia) Hy) as W.
      replace (x' + (x - x')) with x in W by lia. apply walk_sym; [intros a b; apply edge_sym, Hw|exact W].
  Qed.

  Lemma column_walk2 y y' x : y < n -> y' < n -> x < n -> walk (edge g) (gap y y') (y * n + x) (y' * n + x).
  Proof using Hn Hg.
    intros Hy Hy' Hx. destruct grid_facts as (Hw & _). unfold gap. destruct (Nat.le_ge_cases y y') as [H|H].
    - replace (y - y' + (y' - y)) with (y' - y) by lia. pose proof (column_walk x (y' - y) y ltac:(lia) Hx) as W.
      replace (y + (y' - y)) with y' in W by lia. exact W.
    - replace (y - y' + (y' - y)) with (y - y') by lia. pose proof (column_walk x (y - y') y' ltac:(lia) Hx) as W.
      replace (y' + (y - y')) with y in W by lia. apply walk_sym; [intros a b; apply edge_sym, Hw|exact W].
  Qed.

  Lemma grid_dist u v : u < n * n -> v < n * n -> dist (edge g) u v (city u v).
  Proof using Hn Hg.
    intros Hu Hv. destruct grid_facts as (Hw & _ & He). apply (dist_intro _ (city u)).
    - intros a b Hab. apply He in Hab as (_ & _ & H). unfold city, gap in *. lia.
    - unfold city, gap. lia.
    - destruct (coordinates u Hu) as (H1 & H2 & H3). destruct (coordinates v Hv) as (H4 & H5 & H6).
      pose proof (row_walk2 (u mod n) (v mod n) (u / n) H1 H4 H2) as W1. rewrite <- H3 in W1.
      pose proof (column_walk2 (u / n) (v / n) (v mod n) H2 H5 H4) as W2. rewrite <- H6 in W2.
      apply (walk_trans _ _ _ _ _ _ W1 W2).
  Qed.

  Lemma grid_connected : connected g.
  Proof using Hn Hg. intros u v Hu Hv. destruct grid_facts as (_ & Hs & _). rewrite Hs in *. exists (city u v). apply grid_dist; auto. Qed.

  Lemma grid_levels M s : n * n <= M -> s < n * n -> level_traversal M dbg g s M = Ok (map (city s) (seq 0 (n * n))).
  Proof using Hn Hg.
    intros HM Hs. destruct grid_facts as (Hw & Hsz & _). rewrite <- Hsz. apply levels_of; rewrite ?Hsz; auto; [nia|].
    intros v Hv. apply grid_dist; auto.
  Qed.

  Definition corner (v : nat) : Prop := v < n * n /\ (v mod n = 0 \/ v mod n = n - 1) /\ (v / n = 0 \/ v / n = n - 1).

  Lemma far_corner s p : s < n * n -> p < n * n -> (forall v, v < n * n -> city s v <= city s p) -> corner p.
  Proof using Hn.
    clear Hg. intros Hs Hp H. destruct (coordinates s Hs) as (S1 & S2 & _). destruct (coordinates p Hp) as (P1 & P2 & _).
    split; [exact Hp|]. split.
    - destruct (point 0 (p / n) ltac:(lia) P2) as (Q1 & Q2 & Q3). destruct (point (n - 1) (p / n) ltac:(lia) P2) as (R1 & R2 & R3).
      pose proof (H _ Q1) as HQ. pose proof (H _ R1) as HR. unfold city in HQ, HR. rewrite Q2, Q3 in HQ. rewrite R2, R3 in HR. unfold gap in *. lia.
    - destruct (point (p mod n) 0 P1 ltac:(lia)) as (Q1 & Q2 & Q3). destruct (point (p mod n) (n - 1) P1 ltac:(lia)) as (R1 & R2 & R3).
      pose proof (H _ Q1) as HQ. pose proof (H _ R1) as HR. unfold city in HQ, HR. rewrite Q2, Q3 in HQ. rewrite R2, R3 in HR. unfold gap in *. lia.
  Qed.

  Lemma grid_corner M s : n * n <= M -> s < n * n -> exists p, pseudo_peripheral_vertex M dbg g s = Ok p /\ corner p.
  Proof using Hn Hg.
    intros HM Hs. destruct grid_facts as (Hw & Hsz & _).
    destruct (pseudo_two_sweeps M dbg g s Hw) as (p1 & e & p & q & k & Ep & Hp1 & Hp & Hq & Hd1 & Hfar & Hpq & Hecc & Hecc1);
      rewrite ?Hsz in *; auto; [nia|exact grid_connected|].
    exists p. split; [exact Ep|].
    assert (Hc1 : corner p1).
    { apply (far_corner s); auto. intros v Hv. rewrite <- (dist_eq _ _ _ _ _ Hd1 (grid_dist s p1 Hs Hp1)). apply (Hfar v); auto. apply grid_dist; auto. }
    destruct Hc1 as (_ & Hx & Hy). destruct (coordinates p1 Hp1) as (X1 & Y1 & _).
    destruct (point (n - 1 - p1 mod n) (n - 1 - p1 / n) ltac:(lia) ltac:(lia)) as (Q1 & Q2 & Q3).
    pose proof (Hecc1 _ _ Q1 (grid_dist p1 _ Hp1 Q1)) as Hk. unfold city in Hk. rewrite Q2, Q3 in Hk.
    pose proof (dist_eq _ _ _ _ _ Hpq (grid_dist p q Hp Hq)) as Hk'. destruct (coordinates p Hp) as (X2 & Y2 & _). destruct (coordinates q Hq) as (X3 & Y3 & _).
    split; [exact Hp|]. unfold city, gap in *. lia.
  Qed.

  Definition on_level (c a : nat) : list nat := filter (fun w => city c w =? a) (seq 0 (n * n)).

  Lemma level_count c a lo : corner c -> (forall w, w < n * n -> city c w = a -> lo <= gap (c mod n) (w mod n) < lo + (if a =? n - 1 then n else n - 1)) ->
    length (on_level c a) <= if a =? n - 1 then n else n - 1.
  Proof using Hn.
    clear Hg. intros (Hc & Hx & Hy) H.
    rewrite <- (map_length (fun w => gap (c mod n) (w mod n))). rewrite <- (seq_length (if a =? n - 1 then n else n - 1) lo).
    apply NoDup_incl_length.
    - unfold on_level. assert (Hnd : NoDup (filter (fun w => city c w =? a) (seq 0 (n * n)))) by apply NoDup_filter, seq_NoDup.
      assert (Hin : forall w, In w (filter (fun w => city c w =? a) (seq 0 (n * n))) -> w < n * n /\ city c w = a).
      { intros w Hw. apply filter_In in Hw as [Hw He]. apply in_seq in Hw. apply Nat.eqb_eq in He. split; [lia|exact He]. }
      revert Hnd Hin. generalize (filter (fun w => city c w =? a) (seq 0 (n * n))). intros l Hnd Hin.
      induction Hnd as [|w l Hni Hnd IH]; cbn [map]; constructor.
      + intros Hin'. apply in_map_iff in Hin' as (u & E & Hu). assert (u = w); [|congruence].
        destruct (Hin u (or_intror Hu)) as [Hun Eu]. destruct (Hin w (or_introl eq_refl)) as [Hwn Ew].
        destruct (coordinates u Hun) as (X1 & Y1 & Z1). destruct (coordinates w Hwn) as (X2 & Y2 & Z2).
        destruct (coordinates c Hc) as (X3 & Y3 & _). unfold city in Eu, Ew.
        assert (u mod n = w mod n) by (unfold gap in E; lia). assert (u / n = w / n) by (unfold gap in *; lia). congruence.
      + apply IH. intros; apply Hin; right; auto.
    - intros x Hx'. apply in_map_iff in Hx' as (w & <- & Hw). apply filter_In in Hw as [Hw He]. apply in_seq in Hw. apply Nat.eqb_eq in He.
      apply in_seq. apply H; auto. lia.
  Qed.

  Lemma level_size c a : corner c -> length (on_level c a) <= if a =? n - 1 then n else n - 1.
  Proof using Hn.
    clear Hg. intros Hc. pose proof Hc as (Hcn & Hx & Hy). destruct (coordinates c Hcn) as (X3 & Y3 & _).
    apply (level_count c a (if n - 1 <? a then 1 else 0) Hc). intros w Hw E. destruct (coordinates w Hw) as (X1 & Y1 & _).
    unfold city in E. unfold gap in *. destruct (Nat.eqb_spec a (n - 1)), (Nat.ltb_spec (n - 1) a); lia.
  Qed.

  Lemma two_levels_size c a b : corner c -> a <> b -> two_levels (n * n) (city c) a b <= 2 * n - 1.
  Proof using Hn.
    clear Hg. intros Hc Hab. assert (H : two_levels (n * n) (city c) a b <= length (on_level c a) + length (on_level c b)).
    { unfold two_levels, on_level. generalize (seq 0 (n * n)). intros l. induction l as [|w l IH]; [cbn; lia|]. cbn [filter].
      destruct (city c w =? a), (city c w =? b); cbn [orb length]; lia. }
    pose proof (level_size c a Hc). pose proof (level_size c b Hc).
    destruct (Nat.eqb_spec a (n - 1)), (Nat.eqb_spec b (n - 1)); lia.
  Qed.

  (** From any vertex to a corner, and from the corner through the grid. *)
  Lemma grid_band sortf M s : sorts_by_second sortf -> n * n <= M -> s < n * n ->
    exists c p, pseudo_peripheral_vertex M dbg g s = Ok c /\ corner c /\ cuthill_mckee sortf M dbg g c = Ok p /\
      forall u v, edge g u v -> gap (nth u p 0) (nth v p 0) < 2 * n - 1.
  Proof using Hn Hg.
    intros Hso HM Hs. destruct grid_facts as (Hw & Hsz & He). destruct (grid_corner M s HM Hs) as (c & Ec & Hc).
    destruct (cmk_band sortf M dbg g c (city c) Hw Hso) as (p & Ep & Hb); rewrite ?Hsz; auto; [apply Hc|intros v Hv; apply grid_dist; auto; apply Hc|].
    exists c, p. split; [exact Ec|]. split; [exact Hc|]. split; [exact Ep|].
    assert (Hstep : forall u v, edge g u v -> city c u <> city c v).
    { intros u v Huv E. apply He in Huv as (Hu & Hv & H). unfold city in *. unfold gap in *. lia. }
    intros u v Huv. rewrite Hsz in Hb. destruct (Nat.le_ge_cases (city c u) (city c v)) as [H|H].
    - destruct (Hb u v Huv H) as [B1 B2]. pose proof (two_levels_size c _ _ Hc (Hstep u v Huv)). unfold gap. lia.
    - apply (edge_sym g u v Hw) in Huv. destruct (Hb v u Huv H) as [B1 B2]. pose proof (two_levels_size c _ _ Hc (Hstep v u Huv)). unfold gap. lia.
  Qed.
End Grid.

(** The factors of a matrix on a grid, numbered from a corner. *)
Lemma grid_factors {S} (O : sops S) (opp inv : S -> S) :
  field_theory (sc_zero O) (sc_one O) (sc_add O) (sc_mul O) (sc_sub O) opp (sc_div O) inv eq ->
  forall dbg, tol_default O dbg -> forall sortf M n g c p st a A st', 2 <= n -> n * n <= M -> sorts_by_second sortf ->
  create_graph_structured dbg false n = Ok g -> corner n c -> cuthill_mckee sortf M dbg g c = Ok p ->
  is_mat (n * n) (n * n) a A ->
  (forall u v, u < n * n -> v < n * n -> 2 <= city n u v -> A (nth u p 0) (nth v p 0) = sc_zero O) ->
  factorise O dbg false st a = Ok (st', true) ->
  exists F, is_mat (n * n) (n * n) (lu_matrix st') F /\
    forall i j, i < n * n -> j < n * n -> i + (2 * n - 1) <= j \/ j + (2 * n - 1) <= i -> F i j = sc_zero O.
Proof.
  intros FT dbg T sortf M n g c p st a A st' Hn HM Hso Hg Hc Ep Ha HA E.
  destruct (grid_facts dbg n g Hn Hg) as (Hw & Hsz & He).
  destruct (fill_band O opp inv FT dbg sortf M g c (city n c) (2 * n - 1) T st a A st' p Hw Hso) as (F & HF & H); rewrite ?Hsz; auto.
  - apply Hc.
  - intros v Hv. apply (grid_dist dbg); auto. apply Hc.
  - intros u v Huv Hle. apply two_levels_size; auto. intros Eq. apply He in Huv as (Hu & Hv & H1). unfold city, gap in *. lia.
  - intros u v Hu Hv Hne Hned. apply HA; auto. destruct (Nat.le_gt_cases 2 (city n u v)) as [H|H]; [exact H|exfalso].
    destruct (Nat.eq_dec (city n u v) 1) as [H1|H1]; [apply Hned, He; auto|]. apply Hne.
    destruct (coordinates n Hn u Hu) as (_ & _ & ->). destruct (coordinates n Hn v Hv) as (_ & _ & ->).
    assert (u mod n = v mod n) by (unfold city, gap in *; lia). assert (u / n = v / n) by (unfold city, gap in *; lia). congruence.
  - exists F. rewrite Hsz in *. split; [exact HF|]. intros i j Hi Hj Hd. apply H; auto. lia.
Qed.

(** The three by three grid. *)
Definition grid3 : graph := match create_graph_structured true false 3 with Ok g => g | _ => mkG [] [] end.

(** A tree of five vertices. *)
Lemma tree5 : let g := mkG [1; 0; 2; 3; 1; 1; 4; 3] [0; 1; 4; 5; 7; 8] in well_formed false g /\ tree g.
Proof.
  intros g. assert (Hw : well_formed false g).
  { apply (of_rows_well_formed false [[1]; [0; 2; 3]; [1]; [1; 4]; [3]]). apply rows_okb_ok. reflexivity. }
  split; [exact Hw|]. split; [|split; [reflexivity|cbn; lia]].
  assert (R : forall v, v < 5 -> reachable (edge g) 1 v).
  { intros v Hv. destruct v as [|[|[|[|[|v]]]]]; [..|lia].
    - exists 1. eapply walk_S; [apply walk_0|split; [cbn; lia|vm_compute; tauto]].
    - exists 0. apply walk_0.
    - exists 1. eapply walk_S; [apply walk_0|split; [cbn; lia|vm_compute; tauto]].
    - exists 1. eapply walk_S; [apply walk_0|split; [cbn; lia|vm_compute; tauto]].
    - exists 2. apply (walk_S _ 1 1 3 4); [eapply walk_S; [apply walk_0|]|]; (split; [cbn; lia|vm_compute; tauto]). }
  intros u v Hu Hv. destruct (R u Hu) as (a & Ha). destruct (R v Hv) as (b & Hb). exists (a + b).
  eapply walk_trans; [|exact Hb]. apply walk_sym; auto. intros x y. apply edge_sym; auto.
Qed.
