(** level_expansion colours every vertex by a nearest seed. *)
From Verif Require Import Base ListFacts Csr GraphModel GraphSpec GraphFacts TraversalModel Bfs
  TraversalFacts.

(** Edges of [g] between members of [A]. *)
Definition edge_inside (g : graph) (A : nat -> Prop) (u v : nat) : Prop := edge g u v /\ A u /\ A v.

Lemma walk_impl (E F : nat -> nat -> Prop) k u v : (forall a b, E a b -> F a b) -> walk E k u v -> walk F k u v.
Proof. intros H W. induction W; [apply walk_0|eapply walk_S; eauto]. Qed.

Lemma edge_inside_impl g (A B : nat -> Prop) u v : (forall x, A x -> B x) -> edge_inside g A u v -> edge_inside g B u v.
Proof. intros H (H1 & H2 & H3). split; auto. Qed.

Section Expansion.
  Variables (M : nat) (dbg d : bool) (g : graph) (seeds : list nat).
  Let n := size_vertex g.
  Hypothesis Hwf : well_formed d g.
  Hypothesis HM : n <= M.
  Hypothesis HMs : length seeds <= M.
  Hypothesis Hseeds : forall s, In s seeds -> s < n.

  Definition col (C : list nat) (v : nat) : option nat := lev M 0 C v.

  Definition near (v k : nat) : Prop := dist_from (edge g) (fun s => In s seeds) v k.

  Record ci (a b : nat) (C : list nat) : Prop := {
    e_len : length C = n;
    e_col : forall v c, col C v = Some c -> c < length seeds /\
              exists k, k <= b /\ walk (edge_inside g (fun x => col C x = Some c)) k (nth c seeds 0) v /\ near v k;
    e_all : forall s m v, In s seeds -> walk (edge g) m s v -> m <= a -> col C v <> None }.

  Lemma col_upd C v c w : v < length C -> c < length seeds ->
    col (upd C v c) w = if w =? v then Some c else col C w.
  Proof.
    intros Hv Hc. unfold col, lev. rewrite nth_upd by auto. rewrite (Nat.eqb_sym w v).
    destruct (Nat.eqb_spec v w) as [->|Hne]; auto.
    destruct (Nat.eqb_spec c M); [lia|]. f_equal. lia.
  Qed.

  Lemma col_vget C v c : v < length C -> col C v = Some c -> vget C v = Ok c.
  Proof.
    intros Hv H. rewrite (vget_lt C v M) by auto. unfold col, lev in H.
    destruct (nth v C M =? M); [discriminate|]. injection H as <-. f_equal. lia.
  Qed.

  Lemma near_walk_lt v k : near v k -> v < n.
  Proof. intros [(s & Hs & H) _]. eapply walk_bound; eauto. Qed.

  (** One step of the inner loop. *)
  Lemma expand_visit_ok t f w C new :
    ci t (t + 1) C -> near f t -> edge g f w ->
    exists C' new', expand_visit M f w (C, new) = Ok (C', new') /\ ci t (t + 1) C' /\
      (forall v c, col C v = Some c -> col C' v = Some c) /\ col C' w <> None /\
      (forall v, In v new' <-> In v new \/ (col C v = None /\ col C' v <> None)) /\
      (forall v, col C v = None -> col C' v <> None -> near v (t + 1)).
  Proof.
    intros Hc Hf Hw. pose proof (e_len _ _ _ Hc) as HL.
    assert (Hwn : w < n) by (apply (edge_bounds d) in Hw; tauto).
    assert (Hfn : f < n) by (eapply near_walk_lt; eauto).
    unfold expand_visit. rewrite (vget_lt C w M) by lia. cbn [bind].
    destruct (Nat.eqb_spec (nth w C M) M) as [E|E].
    - assert (Hwnone : col C w = None) by (unfold col, lev; rewrite E, Nat.eqb_refl; auto).
      destruct Hf as [(s & Hs & Hfw) Hmin].
      destruct (col C f) as [c|] eqn:Ec.
      2:{ exfalso. eapply (e_all _ _ _ Hc s t f); eauto. }
      destruct (e_col _ _ _ Hc _ _ Ec) as (Hcs & k & Hk & Hkw & Hkn).
      assert (k = t).
      { eapply dist_from_functional; [exact Hkn|]. split; eauto. }
      subst k.
      rewrite (col_vget C f c) by (auto; lia). cbn [bind].
      rewrite vset_lt by lia. cbn [bind].
      assert (Hcol : forall v, col (upd C w c) v = if v =? w then Some c else col C v)
        by (intro v; apply col_upd; lia).
      assert (Hnw : near w (t + 1)).
      { split.
        - exists s. split; auto. rewrite Nat.add_1_r. eapply walk_S; eauto.
        - intros s' m Hs' Hm. destruct (Nat.le_gt_cases m t); [|lia].
          exfalso. eapply (e_all _ _ _ Hc s' m w); eauto. }
      exists (upd C w c), (new ++ [w]). split; [reflexivity|]. split; [|split; [|split; [|split]]].
      + constructor.
        * rewrite upd_length; auto. lia.
        * assert (Hup : forall c' k v, walk (edge_inside g (fun x => col C x = Some c')) k (nth c' seeds 0) v ->
            walk (edge_inside g (fun x => col (upd C w c) x = Some c')) k (nth c' seeds 0) v).
          { intros c' k v. apply walk_impl. intros a b. apply edge_inside_impl. intros x Hx. rewrite Hcol.
            destruct (Nat.eqb_spec x w); [congruence|auto]. }
          intros v c'. rewrite Hcol. destruct (Nat.eqb_spec v w) as [->|Hne].
          2:{ intro H. destruct (e_col _ _ _ Hc v c' H) as (H1 & k & H2 & H3 & H4). split; auto. exists k. auto. }
          intro H. injection H as <-. split; auto. exists (t + 1). split; auto. split; auto.
          rewrite Nat.add_1_r. eapply walk_S; [apply Hup; eauto|]. split; auto. rewrite !Hcol, Nat.eqb_refl.
          destruct (Nat.eqb_spec f w); auto.
        * intros s' m v H1 H2 H3. rewrite Hcol. destruct (Nat.eqb_spec v w); [discriminate|].
          eapply (e_all _ _ _ Hc); eauto.
      + intros v c' H. rewrite Hcol. destruct (Nat.eqb_spec v w); [congruence|auto].
      + rewrite Hcol, Nat.eqb_refl. discriminate.
      + intro v. rewrite in_app_iff, Hcol. destruct (Nat.eqb_spec v w) as [->|Hne].
        * split; intro H; [right; split; [auto|discriminate]|right; simpl; auto].
        * split; [intros [H|[H|[]]]; [auto|congruence]|intros [H|[H1 H2]]; [auto|congruence]].
      + intros v H1 H2. rewrite Hcol in H2. destruct (Nat.eqb_spec v w) as [->|]; [auto|congruence].
    - exists C, new. split; [reflexivity|]. split; [auto|]. split; [auto|]. split.
      + unfold col, lev. destruct (Nat.eqb_spec (nth w C M) M); [congruence|discriminate].
      + split; [|intros v H1 H2; congruence]. intro v. split; [auto|]. intros [H|[H1 H2]]; [auto|congruence].
  Qed.

  (** Relation between the colours before and after some work of round [t]. *)
  Record grown (t : nat) (C0 C1 : list nat) (new : list nat) : Prop := {
    g_ci : ci t (t + 1) C1;
    g_keep : forall v c, col C0 v = Some c -> col C1 v = Some c;
    g_new : forall v, In v new <-> col C0 v = None /\ col C1 v <> None;
    g_near : forall v, In v new -> near v (t + 1) }.

  Lemma grown_refl t C : ci t (t + 1) C -> grown t C C [].
  Proof.
    intro H. constructor; auto; [|intros v []]. intro v. split; [intros []|intros [H1 H2]; congruence].
  Qed.

  Lemma drain_ok t q C :
    ci t (t + 1) C -> (forall f, In f q -> near f t) ->
    exists C' new, expand_drain M dbg g q C = Ok (C', new) /\ grown t C C' new /\
      forall f w, In f q -> edge g f w -> col C' w <> None.
  Proof.
    intros Hc Hq. unfold expand_drain.
    destruct (forM_inv (fun l1 s => grown t C (fst s) (snd s) /\
        forall f w, In f l1 -> edge g f w -> col (fst s) w <> None) q
      (fun front s => do r <- subscript dbg g front; forM r (expand_visit M front) s) (C, []))
      as ((C' & new) & E & H1 & H2).
    - split; [apply grown_refl; auto|]. intros f w [].
    - intros q1 f q2 [C1 new1] Eq [G Hd]. cbn [fst snd] in *.
      assert (Hf : near f t) by (apply Hq; rewrite Eq; apply in_app_iff; simpl; auto).
      pose proof (near_walk_lt _ _ Hf) as Hfn.
      destruct (row_ok dbg d g f Hwf Hfn) as (r & Hr & Hre). rewrite Hr. cbn [bind].
      destruct (forM_inv (fun l1 s => grown t C (fst s) (snd s) /\
          (forall v c, col C1 v = Some c -> col (fst s) v = Some c) /\
          forall w, In w l1 -> col (fst s) w <> None) r (expand_visit M f) (C1, new1))
        as ((C2 & new2) & E2 & G2 & K2 & D2).
      + split; [auto|]. split; [auto|]. intros w [].
      + intros l1 w l2 [C2 new2] Er (G2 & K2 & D2). cbn [fst snd] in *.
        destruct (expand_visit_ok t f w C2 new2 (g_ci _ _ _ _ G2) Hf) as
          (C3 & new3 & E3 & I3 & K3 & W3 & N3 & R3).
        { apply Hre. rewrite Er. apply in_app_iff. simpl; auto. }
        exists (C3, new3). cbn [fst snd]. split; [exact E3|].
        assert (K3' : forall v, col C2 v <> None -> col C3 v <> None).
        { intros v H. destruct (col C2 v) as [c|] eqn:Ec; [|congruence].
          rewrite (K3 _ _ Ec). discriminate. }
        split; [|split].
        * constructor; auto.
          -- intros v c H. apply K3. eapply g_keep; eauto.
          -- intro v. rewrite N3, (g_new _ _ _ _ G2). split.
             ++ intros [[H1 H2]|[H1 H2]]; split; auto.
                destruct (col C v) as [c|] eqn:Ec; [|auto].
                rewrite (g_keep _ _ _ _ G2 _ _ Ec) in H1. discriminate.
             ++ intros [H1 H2]. destruct (col C2 v) eqn:Ec; [left; split; auto; discriminate|auto].
          -- intros v Hv. apply N3 in Hv as [Hv|[H1 H2]]; [eapply g_near; eauto|auto].
        * intros v c H. auto.
        * intros x Hx. apply in_app_iff in Hx as [Hx|[<-|[]]]; auto.
      + exists (C2, new2). cbn [fst snd] in *. split; [exact E2|]. split; [auto|].
        intros f' w Hf' Hw. apply in_app_iff in Hf' as [Hf'|[<-|[]]].
        * specialize (Hd f' w Hf' Hw). destruct (col C1 w) as [c|] eqn:Ec; [|congruence].
          rewrite (K2 _ _ Ec). discriminate.
        * apply D2. apply Hre. auto.
    - exists C', new. cbn [fst snd] in *. split; [exact E|]. auto.
  Qed.

  (** State at the start of round [t]. *)
  Record rinv (t : nat) (C : list nat) (qs : list (list nat)) : Prop := {
    r_ci : ci t t C;
    r_q : forall v, (exists q, In q qs /\ In v q) <-> near v t;
    r_len : length qs = length seeds }.

  Lemma ci_weaken t C : ci t t C -> ci t (t + 1) C.
  Proof.
    intros [H1 H2 H3]. constructor; auto. intros v c H. destruct (H2 v c H) as (Hc & k & Hk & K).
    split; auto. exists k. split; [lia|auto].
  Qed.

  Lemma idx_cover m t i : i < m -> exists j, j < m /\ (if t mod 2 =? 0 then j else m - j - 1) = i.
  Proof.
    intro Hi. destruct (t mod 2 =? 0); [exists i; auto|]. exists (m - i - 1). lia.
  Qed.

  Lemma round_ok t C qs : rinv t C qs ->
    exists C' qs', expand_round M dbg g t (C, qs) = Ok (C', qs') /\ rinv (t + 1) C' qs'.
  Proof.
    intros [Hc Hq Hl]. unfold expand_round. cbn [snd].
    set (m := length qs).
    set (idx := fun i => if t mod 2 =? 0 then i else m - i - 1).
    assert (Hinj : forall i j, i < m -> j < m -> idx i = idx j -> i = j).
    { intros i j Hi Hj. unfold idx. destruct (t mod 2 =? 0); lia. }
    assert (Hb : forall i, i < m -> idx i < m).
    { intros i Hi. unfold idx. destruct (t mod 2 =? 0); lia. }
    destruct (FOR_inv (fun k s => let '(C1, qs1) := s in
        length qs1 = m /\ ci t (t + 1) C1 /\
        (forall v c, col C v = Some c -> col C1 v = Some c) /\
        (forall i, k <= i < m -> nth (idx i) qs1 [] = nth (idx i) qs []) /\
        (forall v, (exists i, i < k /\ In v (nth (idx i) qs1 [])) <->
                   (col C v = None /\ col C1 v <> None)) /\
        (forall i v, i < k -> In v (nth (idx i) qs1 []) -> near v (t + 1)) /\
        (forall i f w, i < k -> In f (nth (idx i) qs []) -> edge g f w -> col C1 w <> None))
      m (fun i s => let '(C, qs) := s in
           let k := if t mod 2 =? 0 then i else m - i - 1 in
           do q <- vget qs k;
           do r <- expand_drain M dbg g q C;
           do qs' <- vset qs k (snd r);
           Ok (fst r, qs')) (C, qs)) as ((C' & qs') & E & Hl' & I' & K' & _ & N' & R' & D').
    - split; [auto|]. split; [apply ci_weaken; auto|]. split; [auto|]. split; [auto|].
      split; [|split; intros; lia]. intro v. split; [intros (i & Hi & _); lia|].
      intros [H1 H2]; congruence.
    - intros i [C1 qs1] Hi (Hl1 & I1 & K1 & U1 & N1 & R1 & D1). cbv zeta.
      change (if t mod 2 =? 0 then i else m - i - 1) with (idx i).
      pose proof (Hb i Hi) as Hbi.
      rewrite (vget_lt qs1 (idx i) []) by lia. cbn [bind].
      rewrite (U1 i) by lia.
      destruct (drain_ok t (nth (idx i) qs []) C1 I1) as (C2 & new & E2 & G2 & D2).
      { intros f Hf. apply Hq. exists (nth (idx i) qs []). split; auto. apply nth_In. auto. }
      rewrite E2. cbn [bind snd fst]. rewrite vset_lt by lia. cbn [bind].
      assert (Hnth : forall j, j < m -> nth (idx j) (upd qs1 (idx i) new) [] =
                if j =? i then new else nth (idx j) qs1 []).
      { intros j Hj. rewrite nth_upd by lia.
        destruct (Nat.eqb_spec j i) as [->|Hne]; [rewrite Nat.eqb_refl; auto|].
        destruct (Nat.eqb_spec (idx j) (idx i)) as [Eij|]; auto. exfalso. apply Hne.
        apply Hinj; auto. }
      assert (K2 : forall v, col C1 v <> None -> col C2 v <> None).
      { intros v H. destruct (col C1 v) as [c|] eqn:Ec; [|congruence].
        rewrite (g_keep _ _ _ _ G2 _ _ Ec). discriminate. }
      eexists. split; [reflexivity|]. split; [|split; [|split; [|split; [|split; [|split]]]]].
      + rewrite upd_length; auto. lia.
      + apply G2.
      + intros v c H. apply (g_keep _ _ _ _ G2). auto.
      + intros j Hj. rewrite Hnth by lia. destruct (Nat.eqb_spec j i); [lia|]. apply U1. lia.
      + intro v. split.
        * intros (j & Hj & Hv). rewrite Hnth in Hv by lia.
          destruct (Nat.eqb_spec j i) as [->|Hne].
          -- apply (g_new _ _ _ _ G2) in Hv as [H1 H2]. split; auto.
             destruct (col C v) as [c|] eqn:Ec; auto. rewrite (K1 _ _ Ec) in H1. discriminate.
          -- assert (col C v = None /\ col C1 v <> None) as [H1 H2]
               by (apply N1; exists j; split; [lia|auto]). auto.
        * intros [H1 H2]. destruct (col C1 v) as [c|] eqn:Ec.
          -- destruct (proj2 (N1 v)) as (j & Hj & Hv); [split; [auto|congruence]|].
             exists j. split; [lia|]. rewrite Hnth by lia. destruct (Nat.eqb_spec j i); [lia|auto].
          -- exists i. split; [lia|]. rewrite Hnth, Nat.eqb_refl by lia.
             apply (g_new _ _ _ _ G2). auto.
      + intros j v Hj Hv. rewrite Hnth in Hv by lia. destruct (Nat.eqb_spec j i) as [->|Hne].
        * eapply g_near; eauto.
        * eapply (R1 j); [lia|auto].
      + intros j f w Hj Hf Hw. destruct (Nat.eq_dec j i) as [->|Hne].
        * eapply D2; eauto.
        * apply K2. eapply (D1 j); [lia|exact Hf|auto].
    - exists C', qs'. split; [exact E|].
      assert (Hall : forall s k v, In s seeds -> walk (edge g) k s v -> k <= t + 1 -> col C' v <> None).
      { intros s k v Hs Hk Hkt. destruct (Nat.eq_dec k (t + 1)) as [->|Hne].
        2:{ eapply (e_all _ _ _ I'); eauto. lia. }
        rewrite Nat.add_1_r in Hk. inversion Hk as [|? ? f ? H1 H2]; subst.
        destruct (col C f) as [c|] eqn:Ec.
        2:{ exfalso. eapply (e_all _ _ _ Hc s t f); eauto. }
        destruct (e_col _ _ _ Hc _ _ Ec) as (_ & k & Hkt' & _ & Hkn).
        destruct (Nat.eq_dec k t) as [->|Hne].
        - apply Hq in Hkn as (q & Hin & Hfq). apply (In_nth _ _ []) in Hin as (i & Hi & Eq).
          destruct (idx_cover m t i Hi) as (j & Hj & Ej). fold (idx j) in Ej.
          apply (D' j f v); auto. rewrite Ej, Eq. auto.
        - destruct Hkn as [(s' & Hs' & Hk') _].
          apply (e_all _ _ _ I' s' (S k) v Hs'); [eapply walk_S; eauto|lia]. }
      constructor.
      + constructor.
        * apply I'.
        * intros v c H. exact (e_col _ _ _ I' v c H).
        * exact Hall.
      + intro v. split.
        * intros (q & Hin & Hv). apply (In_nth _ _ []) in Hin as (i & Hi & Eq).
          destruct (idx_cover m t i ltac:(lia)) as (j & Hj & Ej). fold (idx j) in Ej.
          eapply (R' j); auto. rewrite Ej, Eq. auto.
        * intro Hv. destruct (proj2 (N' v)) as (j & Hj & Hin).
          -- split.
             ++ destruct (col C v) as [c|] eqn:Ec; auto.
                destruct (e_col _ _ _ Hc _ _ Ec) as (_ & k & Hk & _ & Hkn).
                pose proof (dist_from_functional _ _ _ _ _ Hv Hkn). lia.
             ++ destruct Hv as [(s & Hs & Hk) _]. eapply Hall; eauto.
          -- exists (nth (idx j) qs' []). split; auto. apply nth_In. rewrite Hl'. apply Hb. auto.
      + lia.
  Qed.

  Lemma expand_loop_ok fuel t C qs : rinv t C qs -> n + 1 <= fuel + t -> 0 < fuel ->
    exists C', expand_loop fuel M dbg g t (C, qs) = Ok C' /\ length C' = n /\
      (forall v c, col C' v = Some c -> c < length seeds /\
          exists k, walk (edge_inside g (fun x => col C' x = Some c)) k (nth c seeds 0) v /\ near v k) /\
      (forall s m v, In s seeds -> walk (edge g) m s v -> col C' v <> None).
  Proof.
    revert t C qs. induction fuel as [|fuel IH]; intros t C qs R Hf Hp; [lia|].
    cbn [expand_loop snd fst].
    destruct (existsb queue_nonempty qs) eqn:Ex.
    - destruct (round_ok t C qs R) as (C' & qs' & E & R'). rewrite E. cbn [bind].
      apply existsb_exists in Ex as (q & Hq & Hne).
      assert (Ht : t < n).
      { destruct q as [|v q]; [discriminate|]. eapply (dist_from_lt d g (fun s => In s seeds) v); eauto.
        apply (r_q _ _ _ R). exists (v :: q). split; simpl; auto. }
      fold n. destruct (Nat.ltb_spec t n); [|lia]. cbn [ASSERT bind].
      apply IH; auto; lia.
    - exists C. split; auto. destruct R as [Hc Hq Hl]. split; [apply Hc|]. split.
      + intros v c H. destruct (e_col _ _ _ Hc _ _ H) as (Hcs & k & _ & Hk). split; eauto.
      + intros s m v Hs Hm. destruct (dist_from_exists d g seeds s v m Hwf Hs Hm) as (k & Hk & Hd).
        destruct (Nat.le_gt_cases k t) as [Hkt|Hkt].
        * destruct Hd as [(s' & Hs' & Hk') _]. eapply (e_all _ _ _ Hc); eauto.
        * destruct (dist_from_prefix _ _ _ _ t Hd) as (u & Hu & _); [lia|].
          apply Hq in Hu as (q & Hin & Hu).
          assert (existsb queue_nonempty qs = true).
          { apply existsb_exists. exists q. split; auto. destruct q; [destruct Hu|auto]. } congruence.
  Qed.
End Expansion.

Lemma level_expansion_inside M dbg d g seeds :
  well_formed d g -> size_vertex g <= M -> length seeds <= M -> seeds <> [] ->
  (forall s, In s seeds -> s < size_vertex g) ->
  exists C, level_expansion M dbg g seeds = Ok C /\ length C = size_vertex g /\
    forall v, v < size_vertex g -> forall c, nth_error C v = Some c ->
      (c < length seeds /\ exists k, walk (edge_inside g (fun x => nth_error C x = Some c)) k (nth c seeds 0) v /\
         dist (edge g) (nth c seeds 0) v k /\
         forall s m, In s seeds -> walk (edge g) m s v -> k <= m) \/
      (c = M /\ forall s, In s seeds -> ~ reachable (edge g) s v).
Proof.
  intros Hw HM HMs Hne Hs. set (n := size_vertex g) in *. unfold level_expansion.
  assert (Hn : 0 < n).
  { destruct seeds as [|s seeds]; [congruence|]. specialize (Hs s ltac:(simpl; auto)). lia. }
  rewrite (size_pos_nonempty d g) by auto. cbn [negb]. rewrite ASSERT_DEBUG_true. cbn [bind].
  replace (negb match seeds with [] => true | _ => false end) with true by (destruct seeds; [congruence|reflexivity]).
  rewrite ASSERT_DEBUG_true. cbn [bind].
  assert (E : (if dbg then do m <- vmax seeds; ASSERT (m <? n) else Ok tt) = Ok tt).
  { destruct dbg; auto. destruct (vmax_lt seeds n Hne Hs) as (m & -> & Hm). cbn [bind].
    destruct (Nat.ltb_spec m n); [reflexivity|lia]. }
  fold n. rewrite E. cbn [bind].
  destruct (FOR_inv (fun k s => let '(C, qs) := s in
      length C = n /\ length qs = length seeds /\
      (forall v c, col M C v = Some c -> c < k /\ nth c seeds 0 = v) /\
      (forall i, i < k -> col M C (nth i seeds 0) <> None) /\
      (forall i, i < length seeds -> nth i qs [] = if i <? k then [nth i seeds 0] else []))
    (length seeds) (fun i s =>
            let '(C, qs) := s in
            do x <- vget seeds i;
            do q <- vget qs i;
            do qs' <- vset qs i (q ++ [x]);
            do C' <- vset C x i;
            Ok (C', qs')) (repeat M n, repeat [] (length seeds)))
    as ((C & qs) & E1 & HC & Hq & Hcol & Hcov & Hqs).
  - rewrite !repeat_length. split; auto. split; auto. split; [|split; [intros; lia|]].
    + intros v c. unfold col, lev.
      replace (nth v (repeat M n) M) with M by (rewrite nth_repeat; auto).
      rewrite Nat.eqb_refl. discriminate.
    + intros i Hi. rewrite nth_repeat. auto.
  - intros i [C qs] Hi (HC & Hq & Hcol & Hcov & Hqs).
    rewrite (vget_lt seeds i 0) by auto. cbn [bind]. set (x := nth i seeds 0).
    assert (Hx : x < n) by (apply Hs, nth_In; auto).
    rewrite (vget_lt qs i []) by lia. cbn [bind]. rewrite Hqs by auto.
    destruct (Nat.ltb_spec i i) as [?|_]; [lia|]. cbn [app].
    rewrite vset_lt by lia. cbn [bind]. rewrite vset_lt by lia. cbn [bind].
    assert (Hc' : forall v, col M (upd C x i) v = if v =? x then Some i else col M C v).
    { intro v. eapply (col_upd M g seeds); eauto; lia. }
    eexists. split; [reflexivity|]. cbv beta iota. rewrite (upd_length C), (upd_length qs) by lia. split; auto. split; auto.
    split; [|split].
    + intros v c. rewrite Hc'. destruct (Nat.eqb_spec v x) as [->|Hvx].
      * intro H. injection H as <-. split; [lia|auto].
      * intro H. apply Hcol in H as [H1 H2]. split; [lia|auto].
    + intros j Hj. rewrite Hc'. destruct (Nat.eqb_spec (nth j seeds 0) x); [discriminate|].
      apply Hcov. destruct (Nat.eq_dec j i) as [->|]; [unfold x in *; congruence|lia].
    + intros j Hj. rewrite nth_upd by lia. destruct (Nat.eqb_spec j i) as [->|Hij].
      * destruct (Nat.ltb_spec i (i + 1)); [auto|lia].
      * rewrite Hqs by auto. destruct (Nat.ltb_spec j i), (Nat.ltb_spec j (i + 1)); auto; lia.
  - rewrite E1. cbn [bind].
    assert (R : rinv M g seeds 0 C qs).
    { constructor; auto.
      - constructor; auto.
        + intros v c H. apply Hcol in H as [H1 H2]. split; auto. exists 0. rewrite H2.
          split; auto. split; [apply walk_0|]. split; [|intros; lia].
          exists v. split; [|apply walk_0]. rewrite <- H2. apply nth_In; auto.
        + intros s m v H1 H2 H3. assert (m = 0) by lia. subst m.
          inversion H2; subst. apply (In_nth _ _ 0) in H1 as (i & Hi & <-). apply Hcov; auto.
      - intro v. split.
        + intros (q & Hin & Hv). apply (In_nth _ _ []) in Hin as (i & Hi & <-).
          rewrite Hqs in Hv by lia. destruct (Nat.ltb_spec i (length seeds)); [|lia].
          destruct Hv as [<-|[]]. split; [|intros; lia].
          exists (nth i seeds 0). split; [apply nth_In; auto|apply walk_0].
        + intros [(s & H1 & H2) _]. inversion H2; subst.
          apply (In_nth _ _ 0) in H1 as (i & Hi & <-). exists (nth i qs []).
          split; [apply nth_In; lia|]. rewrite Hqs by auto.
          destruct (Nat.ltb_spec i (length seeds)); [simpl; auto|lia]. }
    destruct (expand_loop_ok M dbg d g seeds Hw HM HMs Hs (n + 2) 0 C qs R)
      as (C' & E2 & HC' & Hc1 & Hc2); [fold n; lia|lia|].
    exists C'. split; auto. split; auto. intros v Hv c Hc.
    apply (lev_nth_error M) in Hc; [|fold n in HC'; lia].
    destruct Hc as [Hc|[-> Hc]].
    + left. destruct (Hc1 v c Hc) as (H1 & k & H2 & H3). split; auto. exists k.
      assert (In (nth c seeds 0) seeds) by (apply nth_In; auto).
      split.
      { revert H2. apply walk_impl. intros a b. apply edge_inside_impl. intros x Hx.
        unfold col, lev in Hx. destruct (Nat.eqb_spec (nth x C' M) M) as [|Hne']; [discriminate|].
        injection Hx as Hx. rewrite Nat.sub_0_r in Hx. rewrite <- Hx. apply nth_error_nth_lt.
        destruct (Nat.lt_ge_cases x (length C')); auto. rewrite nth_overflow in Hne' by auto. congruence. }
      assert (Hk : walk (edge g) k (nth c seeds 0) v) by (revert H2; apply walk_impl; intros a b []; auto).
      split; [split; auto; intros m Hm; apply H3 in Hm; auto|].
      intros s m Hs' Hm. eapply H3; eauto.
    + right. split; auto. intros s Hs' (m & Hm). apply (Hc2 s m v Hs' Hm). auto.
Qed.

Lemma level_expansion_spec M dbg d g seeds :
  well_formed d g -> size_vertex g <= M -> length seeds <= M -> seeds <> [] ->
  (forall s, In s seeds -> s < size_vertex g) ->
  exists C, level_expansion M dbg g seeds = Ok C /\ length C = size_vertex g /\
    forall v, v < size_vertex g -> forall c, nth_error C v = Some c ->
      (c < length seeds /\ exists k, dist (edge g) (nth c seeds 0) v k /\
         forall s m, In s seeds -> walk (edge g) m s v -> k <= m) \/
      (c = M /\ forall s, In s seeds -> ~ reachable (edge g) s v).
Proof.
  intros Hw HM HMs Hne Hs. destruct (level_expansion_inside M dbg d g seeds Hw HM HMs Hne Hs) as (C & E & Hl & H).
  exists C. split; auto. split; auto. intros v Hv c Hc. destruct (H v Hv c Hc) as [(H1 & k & _ & H2)|H1]; eauto.
Qed.
