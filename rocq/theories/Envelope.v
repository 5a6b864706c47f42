(** Profile and bandwidth of level orderings. *)
From Verif Require Import Base ListFacts Csr GraphModel GraphSpec GraphFacts PermFacts TraversalModel
  Bfs TraversalFacts Peripheral ReorderModel Ordering OrderingSpec PropGraphLemmas.

(** The least number among a vertex and its neighbours. *)
Definition lowest (g : graph) (v : nat) : nat := fold_right Nat.min v (row g v).

(** The profile (size of the lower envelope) of a graph. *)
Definition profile (g : graph) : nat := list_sum (map (fun v => v - lowest g v) (seq 0 (size_vertex g))).

(** Number of vertices in the levels [a] and [b] of a level function. *)
Definition two_levels (n : nat) (D : nat -> nat) (a b : nat) : nat :=
  length (filter (fun w => (D w =? a) || (D w =? b)) (seq 0 n)).

Definition nsum (n : nat) (f : nat -> nat) : nat := list_sum (map f (seq 0 n)).

Lemma nsum_S n f : nsum (S n) f = nsum n f + f n.
Proof. unfold nsum. rewrite seq_S, map_app, list_sum_app. cbn. lia. Qed.

Lemma nsum_le n f g : (forall i, i < n -> f i <= g i) -> nsum n f <= nsum n g.
Proof.
  induction n as [|n IH]; intros H; [cbn; lia|]. rewrite !nsum_S.
  specialize (H n ltac:(lia)) as H1. assert (nsum n f <= nsum n g) by (apply IH; auto). lia.
Qed.

Lemma nsum_ext n f g : (forall i, i < n -> f i = g i) -> nsum n f = nsum n g.
Proof.
  intros H. assert (nsum n f <= nsum n g) by (apply nsum_le; intros; rewrite H; auto).
  assert (nsum n g <= nsum n f) by (apply nsum_le; intros; rewrite H; auto). lia.
Qed.

Lemma nsum_add n f g : nsum n (fun i => f i + g i) = nsum n f + nsum n g.
Proof. induction n as [|n IH]; [reflexivity|]. rewrite !nsum_S, IH. lia. Qed.

Lemma nsum_zero n : nsum n (fun _ => 0) = 0.
Proof. induction n as [|n IH]; [reflexivity|]. rewrite nsum_S, IH. lia. Qed.

Lemma nsum_swap n m f : nsum n (fun i => nsum m (f i)) = nsum m (fun j => nsum n (fun i => f i j)).
Proof.
  induction n as [|n IH]; [cbn; rewrite nsum_zero; reflexivity|].
  rewrite nsum_S, IH, <- nsum_add. apply nsum_ext. intros j _. rewrite nsum_S. reflexivity.
Qed.

Lemma nsum_shift n f : nsum (S n) f = f 0 + nsum n (fun i => f (S i)).
Proof. induction n as [|n IH]; [cbn; lia|]. rewrite nsum_S, IH, nsum_S. lia. Qed.

Lemma nsum_rev n f : nsum n f = nsum n (fun i => f (n - 1 - i)).
Proof.
  induction n as [|n IH]; [reflexivity|]. rewrite nsum_shift with (f := fun i => f (S n - 1 - i)), nsum_S, IH.
  rewrite Nat.sub_0_r. replace (S n - 1) with n by lia. rewrite Nat.add_comm. f_equal.
  apply nsum_ext. intros i Hi. f_equal. lia.
Qed.

Definition between (a b j : nat) : nat := if (a <=? j) && (j <? b) then 1 else 0.

Lemma nsum_between n a b : b <= n -> nsum n (between a b) = b - a.
Proof.
  revert b. induction n as [|n IH]; intros b Hb; [cbn; lia|]. rewrite nsum_S.
  destruct (Nat.eq_dec b (S n)) as [->|Hne].
  - assert (E : nsum n (between a (S n)) = n - a).
    { rewrite <- (IH n) by lia. apply nsum_ext. intros i Hi. unfold between.
      destruct (Nat.ltb_spec i (S n)), (Nat.ltb_spec i n); try lia; reflexivity. }
    rewrite E. unfold between. destruct (Nat.leb_spec a n), (Nat.ltb_spec n (S n)); cbn [andb]; lia.
  - rewrite IH by lia. unfold between. destruct (Nat.ltb_spec n b); [lia|]. rewrite andb_false_r. lia.
Qed.

Lemma fold_min_le l x : fold_right Nat.min x l <= x /\ forall y, In y l -> fold_right Nat.min x l <= y.
Proof.
  induction l as [|z l [IH1 IH2]]; cbn; [split; [auto|tauto]|]. split; [lia|].
  intros y [->|Hy]; [lia|]. specialize (IH2 y Hy). lia.
Qed.

Lemma fold_min_in l x : fold_right Nat.min x l = x \/ In (fold_right Nat.min x l) l.
Proof.
  induction l as [|z l IH]; cbn; auto.
  destruct (Nat.min_spec z (fold_right Nat.min x l)) as [[_ E]|[_ E]]; rewrite E; auto. destruct IH; auto.
Qed.

Lemma lowest_le g v : lowest g v <= v.
Proof. exact (proj1 (fold_min_le (row g v) v)). Qed.

Lemma lowest_edge g v w : edge g v w -> lowest g v <= w.
Proof. intros [_ H]. apply (proj2 (fold_min_le (row g v) v)), H. Qed.

Lemma lowest_in g v : v < size_vertex g -> lowest g v = v \/ edge g v (lowest g v).
Proof. intros Hv. destruct (fold_min_in (row g v) v) as [H|H]; [left; exact H|right; split; auto]. Qed.

Lemma profile_nsum g : profile g = nsum (size_vertex g) (fun v => nsum (size_vertex g) (between (lowest g v) v)).
Proof.
  unfold profile. apply nsum_ext. intros v Hv. rewrite nsum_between by lia. reflexivity.
Qed.

(** Reversing a numbering whose lowest neighbours ascend does not increase the profile. *)
Lemma profile_reverse g h : size_vertex h = size_vertex g ->
  (forall u v, u < size_vertex g -> v < size_vertex g ->
     (edge h (size_vertex g - 1 - u) (size_vertex g - 1 - v) <-> edge g u v)) ->
  (forall u v, edge g u v -> edge g v u) ->
  (forall u v, edge h u v -> u < size_vertex h /\ v < size_vertex h) ->
  (forall u v, u <= v -> v < size_vertex g -> lowest g u <= lowest g v) ->
  profile h <= profile g.
Proof.
  intros Hn He Hsym Hb Hm. rewrite !profile_nsum, Hn. set (n := size_vertex g) in *.
  rewrite (nsum_rev n (fun v => nsum n (between (lowest g v) v))).
  rewrite (nsum_ext n (fun i => nsum n (between (lowest g (n - 1 - i)) (n - 1 - i)))
             (fun i => nsum n (fun j => between (lowest g (n - 1 - i)) (n - 1 - i) (n - 1 - j))))
    by (intros; apply nsum_rev).
  rewrite nsum_swap. apply nsum_le. intros j Hj. apply nsum_le. intros i Hi.
  unfold between. destruct (Nat.leb_spec (lowest h i) j) as [H1|]; [|rewrite ?andb_false_r; apply Nat.le_0_l].
  destruct (Nat.ltb_spec j i) as [H2|]; [|rewrite ?andb_false_r; apply Nat.le_0_l]. cbn [andb].
  destruct (lowest_in h i ltac:(lia)) as [E|E]; [lia|]. set (w := lowest h i) in *.
  assert (E' : edge g (n - 1 - i) (n - 1 - w)).
  { apply He; [lia|lia|]. replace (n - 1 - (n - 1 - i)) with i by lia.
    replace (n - 1 - (n - 1 - w)) with w by lia. exact E. }
  assert (lowest g (n - 1 - j) <= lowest g (n - 1 - w)) by (apply Hm; lia).
  assert (lowest g (n - 1 - w) <= n - 1 - i) by (apply lowest_edge, Hsym, E').
  destruct (Nat.leb_spec (lowest g (n - 1 - j)) (n - 1 - i)); [|lia].
  destruct (Nat.ltb_spec (n - 1 - i) (n - 1 - j)); [|lia]. cbn. lia.
Qed.

Section LevelOrder.
  Variables (g h : graph) (key : nat -> nat) (s : nat) (p : list nat).
  Hypotheses (Hw : well_formed false g) (Hc : connected g) (Hs : s < size_vertex g)
    (Hp : level_order g key s p) (Hsize : size_vertex h = size_vertex g) (Hwh : well_formed false h)
    (Hedge : forall u v, u < size_vertex g -> v < size_vertex g ->
       (edge h (nth u p 0) (nth v p 0) <-> edge g u v)).
  Let n := size_vertex g.

  Lemma pos_of k : k < n -> exists u, u < n /\ nth u p 0 = k.
  Proof. intros Hk. destruct (perm_pos n p k (lo_perm _ _ _ _ Hp) Hk). eauto. Qed.

  (** Vertices other than the start have a neighbour numbered before them. *)
  Lemma dist_ex v : v < n -> exists a, dist (edge g) s v a.
  Proof.
    intros Hv. destruct (Hc s v Hs Hv) as (m & Hm). destruct (dist_exists false g s v m Hw Hm) as (k & _ & Hk). eauto.
  Qed.

  Lemma has_earlier v : v < n -> v <> s -> exists w, edge g w v /\ nth w p 0 < nth v p 0.
  Proof.
    intros Hv Hne. destruct (dist_ex v Hv) as (a & Ha). destruct Ha as [Hwk Hmin].
    destruct a as [|a]; inversion Hwk as [|? ? w ? Hwa He]; subst; [congruence|].
    exists w. split; auto. assert (Hwn : w < n) by apply (edge_bounds false g w v Hw He).
    destruct (dist_ex w Hwn) as (b & Hb). apply (lo_level _ _ _ _ Hp w v b (S a)); auto.
    - split; auto.
    - destruct Hb as [_ Hb]. specialize (Hb a Hwa). lia.
  Qed.

  Lemma first_lowest v : v < n -> v <> s -> first_neighbour g p v (lowest h (nth v p 0)).
  Proof.
    intros Hv Hne. pose proof (perm_bound n p v (lo_perm _ _ _ _ Hp) Hv) as Hb.
    assert (Hle : forall w, edge g w v -> lowest h (nth v p 0) <= nth w p 0).
    { intros w He. apply lowest_edge. apply edge_sym in He; auto.
      apply Hedge; auto. apply (edge_bounds false g v w Hw He). }
    split; [|exact Hle]. destruct (has_earlier v Hv Hne) as (w & He & Hlt).
    destruct (lowest_in h (nth v p 0)) as [E|E]; [unfold n in *; lia|specialize (Hle w He); lia|].
    set (k := lowest h (nth v p 0)) in *. assert (Hk : k < n).
    { destruct (edge_bounds false h _ _ Hwh E). unfold n in *. lia. }
    destruct (pos_of k Hk) as (u & Hu & Eu). exists u. split; auto. apply edge_sym; auto.
    rewrite <- Eu in E. apply Hedge in E; auto.
  Qed.

  Lemma lowest_mono i j : i <= j -> j < n -> lowest h i <= lowest h j.
  Proof.
    intros Hij Hj. destruct (Nat.eq_dec i j) as [->|Hne]; auto.
    destruct (pos_of i ltac:(lia)) as (u & Hu & Eu). destruct (pos_of j Hj) as (v & Hv & Ev).
    assert (v <> s) by (intros ->; rewrite (lo_start _ _ _ _ Hp) in Ev; lia).
    destruct (Nat.eq_dec u s) as [->|Hus].
    { rewrite (lo_start _ _ _ _ Hp) in Eu. subst i. pose proof (lowest_le h 0). lia. }
    pose proof (first_lowest u Hu Hus) as F1. pose proof (first_lowest v Hv ltac:(auto)) as F2.
    rewrite Eu in F1. rewrite Ev in F2. destruct (Nat.le_gt_cases (lowest h i) (lowest h j)); auto.
    exfalso. pose proof (lo_first _ _ _ _ Hp v u _ _ Hv Hu ltac:(auto) Hus F2 F1 ltac:(auto)). lia.
  Qed.

  (** Neighbours are at most two level sizes apart. *)
  Lemma band D u v : (forall v, v < n -> dist (edge g) s v (D v)) -> edge g u v -> D u <= D v ->
    nth v p 0 - nth u p 0 < two_levels n D (D u) (D v).
  Proof using Hw Hp.
    clear Hc Hs Hsize Hedge Hwh. intros HD He Hle. destruct (edge_bounds false g u v Hw He) as (Hu & Hv & _).
    fold n in Hu, Hv. assert (Hp' := lo_perm _ _ _ _ Hp).
    pose proof (HD u Hu) as Du. pose proof (HD v Hv) as Dv.
    assert (D v <= S (D u)) by (apply Dv; econstructor; [apply Du|exact He]).
    set (a := nth u p 0) in *. set (b := nth v p 0) in *.
    assert (Hone : 0 < two_levels n D (D u) (D v)).
    { unfold two_levels. assert (Hin : In u (filter (fun w => (D w =? D u) || (D w =? D v)) (seq 0 n))).
      { apply filter_In. split; [apply in_seq; lia|]. rewrite Nat.eqb_refl. reflexivity. }
      destruct (filter _ _); [destruct Hin|cbn; lia]. }
    destruct (Nat.le_gt_cases b a) as [Hba|Hab]; [lia|].
    pose proof (perm_bound n p v Hp' Hv) as Hbn. fold b in Hbn.
    assert (Hsub : length (map (fun k => pos k p) (seq a (S b - a))) <= two_levels n D (D u) (D v)).
    { apply NoDup_incl_length.
      - apply NoDup_map_inj; [|apply seq_NoDup]. intros x y Hx Hy E.
        apply in_seq in Hx. apply in_seq in Hy.
        destruct (perm_pos n p x Hp' ltac:(lia)) as [_ <-]. rewrite E. apply (perm_pos n p y Hp'). lia.
      - intros w Hin. apply in_map_iff in Hin as (k & <- & Hk). apply in_seq in Hk.
        destruct (perm_pos n p k Hp' ltac:(lia)) as [Hkn Hkp]. set (w := pos k p) in *.
        apply filter_In. split; [apply in_seq; lia|].
        assert (D u <= D w).
        { destruct (Nat.le_gt_cases (D u) (D w)) as [|Hlt]; auto.
          pose proof (lo_level _ _ _ _ Hp w u _ _ Hkn Hu (HD w Hkn) Du Hlt). fold a in H0. lia. }
        assert (D w <= D v).
        { destruct (Nat.le_gt_cases (D w) (D v)) as [|Hlt]; auto.
          pose proof (lo_level _ _ _ _ Hp v w _ _ Hv Hkn Dv (HD w Hkn) Hlt). fold b in H1. lia. }
        apply orb_true_iff. rewrite !Nat.eqb_eq. lia. }
    rewrite map_length, seq_length in Hsub. lia.
  Qed.
End LevelOrder.
