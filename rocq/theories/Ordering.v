(** breadth_first and cuthill_mckee number vertices level by level. *)
From Verif Require Import Base ListFacts Csr GraphModel GraphSpec GraphFacts PermFacts TraversalModel
  Bfs TraversalFacts Peripheral ReorderModel.

(** Least number given to a neighbour of [u]. *)
Definition first_neighbour (g : graph) (p : list nat) (u a : nat) : Prop :=
  (exists w, edge g w u /\ nth w p 0 = a) /\ forall w, edge g w u -> a <= nth w p 0.

(** [p] numbers all vertices from [s] by distance; vertices other than [s] are numbered by their
    first numbered neighbour, ties by [key]. *)
Record level_order (g : graph) (key : nat -> nat) (s : nat) (p : list nat) : Prop := {
  lo_perm : is_perm (size_vertex g) p;
  lo_start : nth s p 0 = 0;
  lo_level : forall u v a b, u < size_vertex g -> v < size_vertex g ->
    dist (edge g) s u a -> dist (edge g) s v b -> a < b -> nth u p 0 < nth v p 0;
  lo_first : forall u v a b, u < size_vertex g -> v < size_vertex g -> u <> s -> v <> s ->
    first_neighbour g p u a -> first_neighbour g p v b ->
    a < b \/ (a = b /\ key u < key v) -> nth u p 0 < nth v p 0 }.

Section Order.
  Variables (d : bool) (g : graph) (s : nat) (key : nat -> nat).
  Let n := size_vertex g.
  Hypothesis Hwf : well_formed d g.
  Hypothesis Hs : s < n.
  Variable next : nat -> list bool -> list nat -> res (list bool * list nat).

  (** What the body of the loop does: marks the neighbours and appends the new ones. *)
  Definition next_spec : Prop := forall x V Q, x < n -> length V = n ->
    exists V' new, next x V Q = Ok (V', Q ++ new) /\ length V' = n /\ NoDup new /\
      (forall w, In w new <-> edge g x w /\ nth w V false = false) /\
      (forall w, w < n -> nth w V' false = true <-> nth w V false = true \/ edge g x w) /\
      (forall i j u v, i < j -> nth_error new i = Some u -> nth_error new j = Some v -> key u <= key v).

  Hypothesis Hnext : next_spec.

  Definition par (P : list nat) (w a : nat) : Prop :=
    (exists x, nth_error P a = Some x /\ edge g x w) /\
    forall i x, i < a -> nth_error P i = Some x -> ~ edge g x w.

  Lemma par_functional P w a b : par P w a -> par P w b -> a = b.
  Proof.
    intros [(x & H1 & H2) H3] [(y & H4 & H5) H6].
    destruct (Nat.lt_trichotomy a b) as [H|[H|H]]; auto; exfalso; firstorder.
  Qed.

  Lemma par_app P x w a : par P w a -> par (P ++ [x]) w a.
  Proof.
    intros [(y & H1 & H2) H3]. pose proof (nth_error_lt_Some _ _ _ H1) as Hl. split.
    - exists y. split; auto. rewrite nth_error_app1; auto.
    - intros i z Hi Hz. rewrite nth_error_app1 in Hz by lia. eauto.
  Qed.

  Record oinv (perm : list nat) (ni : nat) (V : list bool) (P Q : list nat) : Prop := {
    o_ni : ni = length P;
    o_perm : length perm = n;
    o_V : length V = n;
    o_nodup : NoDup (P ++ Q);
    o_bound : forall v, In v (P ++ Q) -> v < n;
    o_visited : forall v, v < n -> (nth v V false = true <-> In v (P ++ Q));
    o_head : nth_error (P ++ Q) 0 = Some s;
    o_closed : forall v w, In v P -> edge g v w -> In w (P ++ Q);
    o_number : forall i v, nth_error P i = Some v -> nth_error perm v = Some i;
    o_reach : forall v, In v (P ++ Q) -> reachable (edge g) s v;
    o_level : forall i j u v a b, i <= j -> nth_error (P ++ Q) i = Some u ->
      nth_error (P ++ Q) j = Some v -> dist (edge g) s u a -> dist (edge g) s v b -> a <= b;
    o_near : forall q u a b, nth_error Q 0 = Some u -> In q Q ->
      dist (edge g) s u a -> dist (edge g) s q b -> b <= a + 1;
    o_par : forall i w, 0 < i -> nth_error (P ++ Q) i = Some w -> exists a, par P w a;
    o_key : forall i j u v a b, 0 < i -> i < j -> nth_error (P ++ Q) i = Some u ->
      nth_error (P ++ Q) j = Some v -> par P u a -> par P v b ->
      a < b \/ (a = b /\ key u <= key v) }.

  Lemma front_walk P Q : In s (P ++ Q) -> (forall v w, In v P -> edge g v w -> In w (P ++ Q)) ->
    forall m w, walk (edge g) m s w -> ~ In w (P ++ Q) ->
    exists u k, In u Q /\ walk (edge g) k s u /\ k + 1 <= m.
  Proof.
    intros Hin Hcl m. induction m as [|m IH]; intros w H Hw; inversion H as [|? ? v ? Hv He]; subst.
    - tauto.
    - destruct (in_dec Nat.eq_dec v (P ++ Q)) as [Hi|Hi].
      + apply in_app_or in Hi as [Hi|Hi]; [exfalso; eauto|]. exists v, m. split; auto. split; auto. lia.
      + destruct (IH v Hv Hi) as (u & k & H1 & H2 & H3). exists u, k. split; [auto|split; [auto|lia]].
  Qed.

  Lemma o_step perm ni V P x Q : oinv perm ni V P (x :: Q) ->
    exists perm' V' new, vset perm x ni = Ok perm' /\ next x V Q = Ok (V', Q ++ new) /\
      oinv perm' (ni + 1) V' (P ++ [x]) (Q ++ new).
  Proof.
    intros [Hni Hp HV Hnd Hb Hvis Hhd Hcl Hnum Hre Hlv Hnear Hpar Hkey].
    assert (Hx : x < n) by (apply Hb, in_or_app; right; left; auto).
    destruct (Hnext x V Q Hx HV) as (V' & new & E & HV' & Hnnd & Hnew & Hvis' & Hsort).
    exists (upd perm x ni), V', new. rewrite vset_lt by lia. split; auto. split; auto.
    assert (EA : (P ++ [x]) ++ Q ++ new = (P ++ x :: Q) ++ new)
      by (rewrite <- !app_assoc; reflexivity).
    set (A := P ++ x :: Q) in *.
    assert (HxA : In x A) by (apply in_or_app; right; left; auto).
    assert (Hnew' : forall w, In w new <-> edge g x w /\ ~ In w A).
    { intro w. rewrite Hnew. split; intros [H1 H2]; split; auto;
        pose proof (edge_bounds d g x w Hwf H1) as [_ [Hw _]].
      - rewrite <- Hvis by auto. congruence.
      - destruct (nth w V false) eqn:EV; auto. apply Hvis in EV; auto. tauto. }
    assert (HxP : nth_error A (length P) = Some x).
    { unfold A. rewrite nth_error_app2 by lia. rewrite Nat.sub_diag. reflexivity. }
    assert (HsA : In s A) by (eapply nth_error_In; eauto).
    destruct (Hre x HxA) as (m & Hm). destruct (dist_exists d g s x m Hwf Hm) as (a & _ & Ha).
    assert (Hbelow : forall y b, In y A -> dist (edge g) s y b -> b <= a + 1).
    { intros y b Hy Hd. apply In_nth_error in Hy as (i & Hi).
      destruct (Nat.le_gt_cases i (length P)) as [Hc|Hc].
      - specialize (Hlv i (length P) y x b a Hc Hi HxP Hd Ha). lia.
      - apply (Hnear y x a b); auto. unfold A in Hi. rewrite nth_error_app2 in Hi by lia.
        eapply nth_error_In; eauto. }
    assert (Hlast : forall y b, In y Q -> dist (edge g) s y b -> a <= b).
    { intros y b Hy Hd. apply In_nth_error in Hy as (i & Hi).
      apply (Hlv (length P) (length P + S i) x y a b); auto; [lia|].
      unfold A. rewrite nth_error_app2 by lia. replace (length P + S i - length P) with (S i) by lia.
      exact Hi. }
    assert (Hfresh : forall w b, In w new -> dist (edge g) s w b -> b = a + 1).
    { intros w b Hw Hd. apply Hnew' in Hw as [He Hw].
      assert (b <= a + 1).
      { rewrite Nat.add_1_r. apply Hd. eapply walk_S; [apply Ha|auto]. }
      destruct (front_walk P (x :: Q) HsA Hcl b w (proj1 Hd) Hw) as (u & k & Hu & Hk & Hle).
      destruct (dist_exists d g s u k Hwf Hk) as (c & Hc & Hdc).
      assert (a <= c).
      { destruct Hu as [<-|Hu]; [|eauto]. rewrite (dist_functional _ _ _ _ _ Ha Hdc). auto. }
      lia. }
    assert (Hedge : forall w, In w new -> w < n).
    { intros w Hw. apply Hnew' in Hw as [He _]. apply (edge_bounds d g x w Hwf He). }
    assert (HnoP : forall w i y, In w new -> nth_error P i = Some y -> ~ edge g y w).
    { intros w i y Hw Hi He. apply Hnew' in Hw as [_ Hw]. apply Hw, (Hcl y w); auto.
      eapply nth_error_In; eauto. }
    assert (HparN : forall w, In w new -> par (P ++ [x]) w (length P)).
    { intros w Hw. split.
      - exists x. split; [rewrite nth_error_app2, Nat.sub_diag by lia; reflexivity|]. apply Hnew'; auto.
      - intros i y Hi Hy. rewrite nth_error_app1 in Hy by auto. eauto. }
    assert (Hpos : forall i w, nth_error (A ++ new) i = Some w ->
              (nth_error A i = Some w /\ i < length A) \/
              (length A <= i /\ nth_error new (i - length A) = Some w)).
    { intros i w H. destruct (Nat.lt_ge_cases i (length A)) as [Hc|Hc].
      - rewrite nth_error_app1 in H by auto. auto.
      - rewrite nth_error_app2 in H by auto. auto. }
    constructor.
    - rewrite app_length. cbn. lia.
    - rewrite upd_length; lia.
    - auto.
    - rewrite EA. apply NoDup_app_intro; auto. intros y H1 H2. apply Hnew' in H2. tauto.
    - rewrite EA. intros v Hv. apply in_app_or in Hv as [Hv|Hv]; auto.
    - rewrite EA. intros v Hv. rewrite Hvis', Hvis, in_app_iff by auto. rewrite Hnew'.
      destruct (in_dec Nat.eq_dec v A); tauto.
    - rewrite EA. rewrite nth_error_app1; auto. apply nth_error_Some. rewrite Hhd. discriminate.
    - rewrite EA. intros v w Hv He. apply in_app_or in Hv as [Hv|[<-|[]]]; apply in_or_app.
      + left. eauto.
      + destruct (in_dec Nat.eq_dec w A); auto. right. apply Hnew'; auto.
    - intros i v Hi.
      assert (Hne : forall j, nth_error P j = Some x -> False).
      { intros j Hj. apply nth_error_In in Hj. apply NoDup_remove_2 in Hnd. apply Hnd.
        apply in_or_app; auto. }
      destruct (Nat.lt_ge_cases i (length P)) as [Hc|Hc].
      + rewrite nth_error_app1 in Hi by auto. rewrite nth_error_upd by lia.
        destruct (Nat.eqb_spec v x) as [->|Hv]; [exfalso; eauto|]. auto.
      + rewrite nth_error_app2 in Hi by auto. destruct (i - length P) as [|k] eqn:Ek.
        * cbn in Hi. injection Hi as <-. rewrite nth_error_upd by lia.
          rewrite Nat.eqb_refl. f_equal. lia.
        * cbn in Hi. destruct k; discriminate.
    - rewrite EA. intros v Hv. apply in_app_or in Hv as [Hv|Hv]; auto.
      apply Hnew' in Hv as [He _]. exists (S m). eapply walk_S; eauto.
    - rewrite EA. intros i j u v b c Hij Hi Hj Hu Hv.
      apply Hpos in Hi as [[Hi Hli]|[Hli Hi]]; apply Hpos in Hj as [[Hj Hlj]|[Hlj Hj]].
      + apply (Hlv i j u v b c); auto.
      + rewrite (Hfresh v c); eauto using nth_error_In.
      + lia.
      + rewrite (Hfresh v c), (Hfresh u b); eauto using nth_error_In.
    - intros q u b c Hu Hq Hdu Hdq.
      assert (c <= a + 1).
      { apply in_app_or in Hq as [Hq|Hq]; [|rewrite (Hfresh q c); auto].
        apply (Hbelow q); auto. apply in_or_app; right; right; auto. }
      assert (a <= b); [|lia].
      apply nth_error_In in Hu. apply in_app_or in Hu as [Hu|Hu]; [eauto|rewrite (Hfresh u b); auto; lia].
    - rewrite EA. intros i w Hi Hw. apply Hpos in Hw as [[Hw _]|[_ Hw]].
      + destruct (Hpar i w Hi Hw) as (b & Hb'). exists b. apply par_app; auto.
      + exists (length P). apply HparN. eapply nth_error_In; eauto.
    - rewrite EA. intros i j u v b c H0 Hij Hi Hj Hu Hv.
      apply Hpos in Hi as [[Hi Hli]|[Hli Hi]]; apply Hpos in Hj as [[Hj Hlj]|[Hlj Hj]].
      + destruct (Hpar i u H0 Hi) as (b' & Hb'). destruct (Hpar j v ltac:(lia) Hj) as (c' & Hc').
        rewrite (par_functional _ _ _ _ Hu (par_app _ x _ _ Hb')).
        rewrite (par_functional _ _ _ _ Hv (par_app _ x _ _ Hc')). eapply Hkey; [| |exact Hi|exact Hj| |]; auto.
      + destruct (Hpar i u H0 Hi) as (b' & Hb').
        rewrite (par_functional _ _ _ _ Hu (par_app _ x _ _ Hb')).
        rewrite (par_functional _ _ _ _ Hv (HparN v (nth_error_In _ _ Hj))).
        destruct Hb' as [(y & Hy & _) _]. apply nth_error_lt_Some in Hy. auto.
      + lia.
      + right. rewrite (par_functional _ _ _ _ Hu (HparN u (nth_error_In _ _ Hi))).
        rewrite (par_functional _ _ _ _ Hv (HparN v (nth_error_In _ _ Hj))). split; auto.
        eapply Hsort; [|exact Hi|exact Hj]. lia.
  Qed.

  Lemma order_loop_ok : forall fuel perm ni V P Q,
    oinv perm ni V P Q -> n <= fuel + length P ->
    exists perm' V' P', order_loop fuel next perm ni V Q = Ok (perm', length P') /\
      oinv perm' (length P') V' P' [].
  Proof.
    induction fuel as [|fuel IH]; intros perm ni V P Q Hi Hf.
    - destruct Q as [|x Q].
      + exists perm, V, P. pose proof (o_ni _ _ _ _ _ Hi) as En. subst ni. split; auto.
      + exfalso. pose proof (o_nodup _ _ _ _ _ Hi) as Hnd.
        assert (length (P ++ x :: Q) <= length (seq 0 n)).
        { apply NoDup_incl_length; auto. intros v Hv. apply in_seq.
          pose proof (o_bound _ _ _ _ _ Hi v Hv). lia. }
        rewrite app_length, seq_length in H. cbn in H. lia.
    - destruct Q as [|x Q].
      + exists perm, V, P. pose proof (o_ni _ _ _ _ _ Hi) as En. subst ni. split; auto.
      + destruct (o_step _ _ _ _ _ _ Hi) as (perm' & V' & new & E1 & E2 & Hi').
        cbn [order_loop]. rewrite E1. cbn [bind]. rewrite E2. cbn [bind fst snd].
        apply (IH _ _ _ (P ++ [x])); auto. rewrite app_length. cbn. lia.
  Qed.

  Lemma oinv_init perm : length perm = n ->
    oinv perm 0 (upd (repeat false n) s true) [] [s].
  Proof.
    intro Hp. constructor; cbn [app]; auto.
    - rewrite upd_length; rewrite repeat_length; auto.
    - repeat constructor; auto.
    - intros v [<-|[]]; auto.
    - intros v Hv. rewrite nth_upd by (rewrite repeat_length; auto).
      destruct (Nat.eqb_spec v s) as [->|Hne].
      + split; auto. left; auto.
      + rewrite nth_repeat. split; [discriminate|]. intros [H|[]]. congruence.
    - intros v w [].
    - intros i v H. destruct i; discriminate.
    - intros v [<-|[]]. exists 0. constructor.
    - intros i j u v a b _ Hi Hj Hu Hv. assert (u = s) by (destruct i as [|[]]; cbn in Hi; congruence).
      assert (v = s) by (destruct j as [|[]]; cbn in Hj; congruence). subst.
      rewrite (dist_functional _ _ _ _ _ Hu Hv). auto.
    - intros q u a b Hu [<-|[]] Ha Hb. cbn in Hu. injection Hu as <-.
      rewrite (dist_functional _ _ _ _ _ Ha Hb). lia.
    - intros i w Hi H. destruct i as [|[]]; cbn in H; [lia|discriminate|discriminate].
    - intros i j u v a b Hi Hij H1 H2. destruct i as [|[]]; cbn in H1; [lia|discriminate|discriminate].
  Qed.

  Lemma o_final_reach perm V P v : oinv perm (length P) V P [] ->
    (In v P <-> reachable (edge g) s v).
  Proof.
    intros Hi. destruct Hi as [_ _ _ _ _ _ Hhd Hcl _ Hre _ _ _ _]. rewrite app_nil_r in *.
    split; auto. intros (k & Hk). clear Hre. revert v Hk.
    induction k as [|k IH]; intros v H; inversion H as [|? ? u ? Hu He]; subst.
    - eapply nth_error_In; eauto.
    - eapply Hcl; eauto.
  Qed.

  Lemma o_final_count perm V P : oinv perm (length P) V P [] ->
    (length P = n <-> forall v, v < n -> reachable (edge g) s v).
  Proof.
    intro Hi. pose proof (o_nodup _ _ _ _ _ Hi) as Hnd. pose proof (o_bound _ _ _ _ _ Hi) as Hb.
    rewrite app_nil_r in *. split.
    - intros Hl v Hv. apply (o_final_reach _ _ _ v Hi).
      assert (Hincl : incl (seq 0 n) P).
      { apply NoDup_length_incl; auto; [rewrite seq_length; lia|].
        intros x Hx. apply in_seq. specialize (Hb x Hx). lia. }
      apply Hincl, in_seq. lia.
    - intro Hall. apply Nat.le_antisymm.
      + rewrite <- (seq_length n 0). apply NoDup_incl_length; auto.
        intros x Hx. apply in_seq. specialize (Hb x Hx). lia.
      + rewrite <- (seq_length n 0) at 1. apply NoDup_incl_length; [apply seq_NoDup|].
        intros x Hx. apply in_seq in Hx. apply (o_final_reach _ _ _ x Hi). apply Hall. lia.
  Qed.

  Lemma o_final perm V P : oinv perm (length P) V P [] -> length P = n -> level_order g key s perm.
  Proof.
    intros Hi Hl.
    assert (HP : forall v, v < n -> exists i, nth_error P i = Some v).
    { intros v Hv. apply In_nth_error. apply (o_final_reach _ _ _ v Hi).
      apply (o_final_count _ _ _ Hi); auto. }
    destruct Hi as [_ Hp _ Hnd Hb _ Hhd Hcl Hnum Hre Hlv _ Hpar Hkey]. rewrite app_nil_r in *.
    assert (Hnth : forall i v, nth_error P i = Some v -> nth v perm 0 = i).
    { intros i v H. apply Hnum in H. apply nth_error_nth; auto. }
    assert (Hlt : forall i v, nth_error P i = Some v -> i < n).
    { intros i v H. apply nth_error_lt_Some in H. lia. }
    assert (Hinj : forall i j v, nth_error P i = Some v -> nth_error P j = Some v -> i = j).
    { intros i j v H1 H2. apply Hnth in H1. apply Hnth in H2. congruence. }
    assert (Hfirst : forall u a, u < n -> first_neighbour g perm u a -> par P u a).
    { intros u a Hu [(w & Hw & Ea) Hmin]. split.
      - destruct (HP w) as (i & Hi); [apply (edge_bounds d g w u Hwf Hw)|]. exists w. split; auto.
        rewrite <- Ea, (Hnth i w Hi). auto.
      - intros i x Hia Hx He. apply Hmin in He. rewrite (Hnth i x Hx) in He. lia. }
    constructor.
    - apply perm_intro_nth; auto.
      + intros i Hi. destruct (HP i Hi) as (k & Hk). rewrite (Hnth k i Hk). eauto.
      + intros i j Hi Hj E. destruct (HP i Hi) as (a & Ha). destruct (HP j Hj) as (b & Hb').
        rewrite (Hnth a i Ha), (Hnth b j Hb') in E. congruence.
    - apply Hnth. auto.
    - intros u v a b Hu Hv Ha Hb' Hab. destruct (HP u Hu) as (i & Hi). destruct (HP v Hv) as (j & Hj).
      rewrite (Hnth i u Hi), (Hnth j v Hj).
      destruct (Nat.le_gt_cases j i) as [Hc|Hc]; auto.
      specialize (Hlv j i v u b a Hc Hj Hi Hb' Ha). lia.
    - intros u v a b Hu Hv Hus Hvs Ha Hb' Hab.
      apply Hfirst in Ha; auto. apply Hfirst in Hb'; auto.
      destruct (HP u Hu) as (i & Hi). destruct (HP v Hv) as (j & Hj).
      rewrite (Hnth i u Hi), (Hnth j v Hj).
      assert (0 < i) by (destruct i; [congruence|lia]). assert (0 < j) by (destruct j; [congruence|lia]).
      destruct (Nat.lt_trichotomy i j) as [Hc|[Hc|Hc]]; auto; exfalso.
      + subst j. assert (u = v) by congruence. subst v.
        rewrite (par_functional _ _ _ _ Ha Hb') in Hab. lia.
      + destruct (Hkey j i v u b a); auto; lia.
  Qed.

  (** The whole ordering: either every vertex is numbered, or some vertex was never reached. *)
  Lemma order_total M :
    exists perm k, order_loop n next (repeat M n) 0 (upd (repeat false n) s true) [s] = Ok (perm, k) /\
      (k = n <-> forall v, v < n -> reachable (edge g) s v) /\
      (k = n -> level_order g key s perm).
  Proof.
    destruct (order_loop_ok n (repeat M n) 0 (upd (repeat false n) s true) [] [s])
      as (perm & V & P & E & Hi).
    - apply oinv_init. apply repeat_length.
    - cbn. lia.
    - exists perm, (length P). split; auto. split; [eapply o_final_count; eauto|].
      intro. eapply o_final; eauto.
  Qed.
End Order.
