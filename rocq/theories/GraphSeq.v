(** The invariant along sequences of calls, C02. *)
From Verif Require Import Base ListFacts Csr GraphModel GraphSpec GraphFacts PermFacts
  GraphInsert GraphResize GraphErase GraphReorder.

Lemma reachable_well_formed M strict dbg d g : reachable_graph M strict dbg d g -> well_formed d g.
Proof.
  induction 1 as [|g g' b e Hg IH He E|g g' n Hg IH E|g g' del Hg IH E|g g' h p Hg IH Hp E|g Hg IH].
  - apply well_formed_default.
  - destruct (insert_spec dbg d g e IH He) as (g1 & b1 & E1 & Hw & _). congruence.
  - destruct (resize_spec d g n IH) as (g1 & E1 & Hw & _).
    destruct strict; [|congruence].
    destruct (resize_strict d g n IH) as [H1 H2].
    destruct (Nat.lt_ge_cases (size_vertex g) n) as [Hn|Hn].
    + rewrite H2 in E by auto. congruence.
    + destruct n as [|n]; [rewrite H2 in E by auto; congruence|].
      rewrite H1 in E by lia. discriminate.
  - assert (Hdec : erase_if M del g <> Undef) by congruence.
    pose proof (erase_if_undefined M d del g IH) as Hu.
    destruct (erase_if_spec M d del g IH) as (g1 & E1 & Hw & _); [| |congruence].
    + intro E0. apply Hdec, Hu. auto.
    + intros i Hi Hd. destruct (Nat.lt_ge_cases i (length (adj g))); auto.
      exfalso. apply Hdec, Hu. eauto.
  - destruct (reorder_spec dbg d g p IH Hp) as (h1 & E1 & Hw & _). congruence.
  - apply well_formed_default.
Qed.

(* ------------------------------------------------------------------ handshake *)
Fixpoint sumn (n : nat) (f : nat -> nat) : nat :=
  match n with 0 => 0 | S m => sumn m f + f m end.

Lemma sumn_ext n f h : (forall i, i < n -> f i = h i) -> sumn n f = sumn n h.
Proof. induction n; simpl; auto. intro H. rewrite IHn, H; auto. Qed.

Lemma sumn_add n f h : sumn n (fun i => f i + h i) = sumn n f + sumn n h.
Proof. induction n; simpl; auto. rewrite IHn. lia. Qed.

Lemma sumn_zero n f : (forall i, i < n -> f i = 0) -> sumn n f = 0.
Proof. induction n; simpl; auto. intro H. rewrite IHn, H; auto. Qed.

Lemma sumn_sym_even n (b : nat -> nat -> nat) :
  (forall i j, i < n -> j < n -> b i j = b j i) -> (forall i, i < n -> b i i = 0) ->
  exists k, sumn n (fun i => sumn n (b i)) = 2 * k.
Proof.
  induction n as [|n IH]; intros Hs Hd; [exists 0; reflexivity|].
  destruct IH as [k Hk]; auto. simpl. rewrite sumn_add, Hk, (Hd n) by lia.
  rewrite (sumn_ext n (fun i => b i n) (b n)) by auto. exists (k + sumn n (b n)). lia.
Qed.

Definition ind (l : list nat) (j : nat) : nat := if existsb (Nat.eqb j) l then 1 else 0.

Lemma ind_In l j : ind l j = 1 <-> In j l.
Proof.
  unfold ind. destruct (existsb (Nat.eqb j) l) eqn:E.
  - split; auto. intros _. apply existsb_exists in E as (x & Hx & Ex).
    apply Nat.eqb_eq in Ex. subst; auto.
  - split; [discriminate|]. intro H. assert (existsb (Nat.eqb j) l = true); [|congruence].
    apply existsb_exists. exists j. split; auto. apply Nat.eqb_refl.
Qed.

Lemma ind_01 l j : ind l j = 0 \/ ind l j = 1.
Proof. unfold ind. destruct (existsb _ _); auto. Qed.

Lemma ind_cons x l j : ~ In x l -> ind (x :: l) j = (if j =? x then 1 else 0) + ind l j.
Proof.
  intro H. unfold ind. simpl. destruct (Nat.eqb_spec j x) as [->|]; simpl; auto.
  destruct (existsb (Nat.eqb x) l) eqn:E; auto.
  apply existsb_exists in E as (y & Hy & Ey). apply Nat.eqb_eq in Ey. subst. contradiction.
Qed.

Lemma sumn_single n x : x < n -> sumn n (fun j => if j =? x then 1 else 0) = 1.
Proof.
  induction n as [|n IH]; intro H; [lia|]. simpl. destruct (Nat.eqb_spec n x) as [->|Hn].
  - rewrite sumn_zero; auto. intros i Hi. destruct (Nat.eqb_spec i x); [lia|auto].
  - rewrite IH by lia. lia.
Qed.

Lemma length_sumn l n : NoDup l -> (forall x, In x l -> x < n) -> length l = sumn n (ind l).
Proof.
  induction 1 as [|x l Hx Hn IH]; intro Hb.
  - rewrite sumn_zero; auto.
  - rewrite (sumn_ext n _ (fun j => (if j =? x then 1 else 0) + ind l j)) by (intros; apply ind_cons; auto).
    rewrite sumn_add, sumn_single by (apply Hb; simpl; auto). simpl. rewrite IH; auto.
    intros y Hy. apply Hb. simpl; auto.
Qed.

Lemma length_concat_sumn (rs : list (list nat)) :
  length (concat rs) = sumn (length rs) (fun i => length (nth i rs [])).
Proof.
  induction rs as [|r rs IH] using rev_ind; auto.
  rewrite concat_app, !app_length. simpl. rewrite app_nil_r, Nat.add_1_r. simpl.
  rewrite app_nth2, Nat.sub_diag by lia. simpl. rewrite IH. f_equal.
  apply sumn_ext. intros i Hi. rewrite app_nth1; auto.
Qed.

Lemma handshake rs : rows_ok false rs -> exists k, length (concat rs) = 2 * k.
Proof.
  intro H. rewrite length_concat_sumn.
  rewrite (sumn_ext _ _ (fun i => sumn (length rs) (ind (nth i rs [])))).
  2:{ intros i Hi. apply length_sumn.
      - apply ascending_NoDup. apply H; auto.
      - intros x Hx. apply (H i Hi). auto. }
  apply sumn_sym_even.
  - intros i j Hi Hj. destruct (H i Hi) as (_ & _ & H1). destruct (H j Hj) as (_ & _ & H2).
    destruct (ind_01 (nth i rs []) j) as [E1|E1], (ind_01 (nth j rs []) i) as [E2|E2]; try congruence.
    + apply ind_In in E2. apply H2 in E2; auto. apply ind_In in E2. congruence.
    + apply ind_In in E1. apply H1 in E1; auto. apply ind_In in E1. congruence.
  - intros i Hi. destruct (H i Hi) as (_ & H1 & _).
    destruct (ind_01 (nth i rs []) i) as [E1|E1]; auto.
    apply ind_In in E1. destruct (H1 i E1). congruence.
Qed.

Lemma size_edge_entries d g : well_formed d g -> length (adj g) = (if d then 1 else 2) * size_edge d g.
Proof.
  intros (rs & H & Hr). unfold size_edge. destruct d; [lia|].
  rewrite (repr_adj _ _ H). destruct (handshake rs Hr) as [k ->].
  rewrite (Nat.mul_comm 2 k), Nat.div_mul; lia.
Qed.

Lemma sumn_vsum (f : nat -> nat) n : vsum (map f (seq 0 n)) = sumn n f.
Proof.
  unfold vsum. induction n as [|n IH]; auto.
  rewrite seq_S, map_app, fold_left_app, IH. reflexivity.
Qed.

Lemma graph_invariant dbg d g : well_formed d g ->
  (forall u, u < size_vertex g ->
     exists r, subscript dbg g u = Ok r /\ degree dbg g u = Ok (length r) /\
       StronglySorted lt r /\ (forall v, In v r <-> edge g u v) /\
       (forall v, In v r -> v < size_vertex g /\ v <> u)) /\
  (d = false -> forall u v, edge g u v -> edge g v u) /\
  (exists ds, mapM (degree dbg g) (seq 0 (size_vertex g)) = Ok ds /\
     vsum ds = (if d then 1 else 2) * size_edge d g).
Proof.
  intro Hwf. pose proof Hwf as (rs & H & Hr). rewrite (repr_size _ _ H). split; [|split].
  - intros u Hu. exists (nth u rs []). destruct (Hr u Hu) as (Ha & Hb & _).
    split; [|split; [|split; [|split]]]; auto.
    + apply subscript_ok; auto.
    + apply degree_ok; auto.
    + intro v. symmetry. apply repr_edge; auto.
  - intros -> u v. apply edge_sym; auto.
  - exists (map (fun i => length (nth i rs [])) (seq 0 (length rs))). split.
    + apply mapM_Ok. intros i Hi. apply in_seq in Hi. apply degree_ok; auto. lia.
    + rewrite sumn_vsum, <- length_concat_sumn, <- (repr_adj _ _ H). apply size_edge_entries; auto.
Qed.
