(** greedy_multicolouring. *)
From Verif Require Import Base ListFacts Csr GraphModel GraphSpec GraphFacts PermFacts
  Bfs TraversalFacts Peripheral ReorderModel Ordering OrderingSpec.

(** The search of reorder.cpp 196-204 returns the least colour above the smallest colour of [ac]
    that does not occur in [ac]. *)
Lemma next_colour_cons c e r : next_colour (c :: e :: r) =
  if negb (c =? e) && negb (c + 1 =? e) then c + 1 else next_colour (e :: r).
Proof. reflexivity. Qed.

Lemma next_colour_spec r : forall c, StronglySorted le (c :: r) ->
  let k := next_colour (c :: r) in
  c < k /\ ~ In k (c :: r) /\ forall j, c <= j -> j < k -> In j (c :: r).
Proof.
  induction r as [|e r IH]; intros c Hs k; subst k.
  - cbn. split; [lia|]. split; [intros [H|[]]; lia|]. intros. left. lia.
  - inversion Hs as [|? ? Hs' HF]; subst. rewrite next_colour_cons.
    inversion HF as [|? ? Hce HF']; subst. inversion Hs' as [|? ? _ HFe]; subst.
    destruct (Nat.eqb_spec c e) as [->|Hne]; cbn [negb andb].
    + destruct (IH e Hs') as (H1 & H2 & H3). split; auto. split.
      * intros [H|H]; [lia|auto].
      * intros j Hj Hjk. right. auto.
    + destruct (Nat.eqb_spec (c + 1) e) as [<-|Hne']; cbn [negb].
      * destruct (IH (c + 1) Hs') as (H1 & H2 & H3). split; [lia|]. split.
        -- intros [H|H]; [lia|auto].
        -- intros j Hj Hjk. destruct (Nat.eq_dec j c) as [->|]; [left; auto|right]. apply H3; auto. lia.
      * split; [lia|]. split.
        -- intros [H|[H|H]]; [lia|lia|]. rewrite Forall_forall in HFe. specialize (HFe _ H). lia.
        -- intros j Hj Hjk. left. lia.
Qed.

(** Colour of the vertex [v] relative to the colours of its lower numbered neighbours. *)
Definition colour_rule (g : graph) (c : nat -> nat) (v : nat) : Prop :=
  ((forall w, w < v -> ~ edge g v w) /\ c v = 1) \/
  (exists m, m < v /\ edge g v m /\ (forall w, w < v -> edge g v w -> c m <= c w) /\
     c m < c v /\ (forall w, w < v -> edge g v w -> c w <> c v) /\
     forall j, c m <= j -> j < c v -> exists w, w < v /\ edge g v w /\ c w = j).

Lemma colour_rule_ext g c c' v : (forall w, w <= v -> c w = c' w) -> colour_rule g c v -> colour_rule g c' v.
Proof.
  intros E [[H1 H2]|(m & Hm & He & Hmin & Hlt & Hne & Hall)].
  - left. split; auto. rewrite <- E; auto.
  - right. exists m. split; auto. split; auto. rewrite <- !E by lia. split.
    { intros w Hw Hew. rewrite <- E by lia. auto. }
    split; auto. split.
    { intros w Hw Hew. rewrite <- E by lia. auto. }
    intros j Hj Hjk. destruct (Hall j Hj Hjk) as (w & Hw & Hew & Ec). exists w.
    rewrite <- E by lia. auto.
Qed.

Record cinv (g : graph) (i : nat) (col : list nat) (mx : nat) : Prop := {
  ci_len : length col = size_vertex g;
  ci_zero : forall v, i <= v -> nth v col 0 = 0;
  ci_pos : forall v, v < i -> 1 <= nth v col 0;
  ci_rule : forall v, v < i -> colour_rule g (fun w => nth w col 0) v;
  ci_max : forall v, v < i -> nth v col 0 = 1 \/ nth v col 0 <= mx;
  ci_edge : (exists u v, u < v /\ v < i /\ edge g v u) <-> 1 <= mx }.

Lemma colour_step_ok dbg d g i col mx : well_formed d g -> i < size_vertex g -> cinv g i col mx ->
  exists col' mx', colour_step dbg g i (col, mx) = Ok (col', mx') /\ cinv g (i + 1) col' mx'.
Proof.
  intros Hw Hi [Hl Hz Hp Hr Hm Hedge]. unfold colour_step.
  rewrite (subscript_row dbg d) by auto. cbn [bind].
  rewrite (mapM_Ok _ (fun v => nth v col 0)).
  2:{ intros a Ha. apply row_edge in Ha; auto. apply vget_lt.
      destruct (edge_bounds d g i a Hw Ha) as (_ & Hb & _). lia. }
  cbn [bind]. set (cs := filter _ _). set (ac := sort_nat cs).
  assert (Hcs : forall x, In x ac <-> exists w, w < i /\ edge g i w /\ nth w col 0 = x).
  { intro x. unfold ac, cs. rewrite In_sort_nat, filter_In, in_map_iff. split.
    - intros [(w & Ew & Hin) Hx]. exists w. apply row_edge in Hin; auto. split; auto.
      destruct (Nat.lt_ge_cases w i) as [|Hc]; auto. rewrite (Hz w Hc) in Ew. subst x. discriminate.
    - intros (w & Hwi & He & Ew). split.
      + exists w. split; auto. apply row_edge; auto.
      + specialize (Hp w Hwi). destruct x; auto; lia. }
  pose proof (sort_nat_sorted cs) as Hs. fold ac in Hs.
  assert (Hsame : forall k v, v <> i -> nth v (upd col i k) 0 = nth v col 0).
  { intros k v Hv. rewrite nth_upd by lia. destruct (Nat.eqb_spec v i); congruence. }
  assert (Hself : forall k, nth i (upd col i k) 0 = k).
  { intro k. rewrite nth_upd by lia. rewrite Nat.eqb_refl. auto. }
  assert (Hold : forall k v, v < i -> colour_rule g (fun w => nth w (upd col i k) 0) v).
  { intros k v Hv. eapply colour_rule_ext; [|apply Hr; auto]. intros w Hwv. cbn. rewrite Hsame; auto; lia. }
  destruct ac as [|c r] eqn:Eac.
  - rewrite vset_lt by lia. cbn [bind]. do 2 eexists. split; [reflexivity|].
    assert (Hno : forall w, w < i -> ~ edge g i w).
    { intros w Hwi He. apply (proj2 (Hcs (nth w col 0))). eauto. }
    constructor.
    + rewrite upd_length; lia.
    + intros v Hv. rewrite Hsame by lia. apply Hz. lia.
    + intros v Hv. destruct (Nat.eq_dec v i) as [->|]; [rewrite Hself; lia|]. rewrite Hsame by auto.
      apply Hp. lia.
    + intros v Hv. destruct (Nat.eq_dec v i) as [->|]; [|apply Hold; lia]. left. split; auto.
    + intros v Hv. destruct (Nat.eq_dec v i) as [->|]; [rewrite Hself; auto|]. rewrite Hsame by auto.
      apply Hm. lia.
    + rewrite <- Hedge. split; intros (u & v & H1 & H2 & H3); exists u, v; split; auto; split; auto; [|lia].
      destruct (Nat.eq_dec v i) as [->|]; [|lia]. exfalso. eapply Hno; eauto.
  - destruct (next_colour_spec r c Hs) as (K1 & K2 & K3). set (k := next_colour (c :: r)) in *.
    rewrite vset_lt by lia. cbn [bind]. do 2 eexists. split; [reflexivity|].
    destruct (proj1 (Hcs c)) as (m & Hmi & Hem & Ecm); [left; auto|].
    assert (Hmin : forall x, In x (c :: r) -> c <= x).
    { inversion Hs as [|? ? _ HF]; subst. rewrite Forall_forall in HF.
      intros x [<-|Hx]; auto. }
    constructor.
    + rewrite upd_length; lia.
    + intros v Hv. rewrite Hsame by lia. apply Hz. lia.
    + intros v Hv. destruct (Nat.eq_dec v i) as [->|]; [rewrite Hself; lia|]. rewrite Hsame by auto.
      apply Hp. lia.
    + intros v Hv. destruct (Nat.eq_dec v i) as [->|]; [|apply Hold; lia].
      right. exists m. split; auto. split; auto. rewrite Hself, (Hsame k m), Ecm by lia. split.
      { intros w Hwi He. rewrite Hsame by lia. apply Hmin, Hcs. eauto. }
      split; auto. split.
      { intros w Hwi He Eq. rewrite Hsame in Eq by lia. apply K2. rewrite <- Eq. apply Hcs. eauto. }
      intros j Hj Hjk. destruct (proj1 (Hcs j) (K3 j Hj Hjk)) as (w & Hwi & He & Ew).
      exists w. rewrite Hsame by lia. auto.
    + intros v Hv. destruct (Nat.eq_dec v i) as [->|]; [rewrite Hself; lia|]. rewrite Hsame by auto.
      destruct (Hm v); lia.
    + split; [lia|]. intros _. exists m, i. split; auto. split; [lia|auto].
Qed.

Lemma greedy_colours_ok dbg d g : well_formed d g ->
  exists col mx, greedy_colours dbg g = Ok (col, mx) /\ cinv g (size_vertex g) col mx.
Proof.
  intro Hw. unfold greedy_colours.
  destruct (FOR_inv (fun i (s : list nat * nat) => cinv g i (fst s) (snd s)) (size_vertex g)
              (colour_step dbg g) (repeat 0 (size_vertex g), 0)) as ((col & mx) & E & H).
  - constructor; cbn [fst snd]; try (intros; lia).
    + apply repeat_length.
    + intros. apply nth_repeat.
    + split; [intros (u & v & H1 & H2 & _); lia|lia].
  - intros i (col & mx) Hi Hc. cbn [fst snd] in Hc.
    destruct (colour_step_ok dbg d g i col mx Hw Hi Hc) as (col' & mx' & E & H). eauto.
  - exists col, mx. auto.
Qed.

(** Order by colour, ties by index. *)
Definition colour_lt (c : nat -> nat) (u v : nat) : Prop := c u < c v \/ (c u = c v /\ u < v).

Section Permutation.
  Variables (col : list nat).
  Let n := length col.
  Let c v := nth v col 0.

  Record pinv (k m : nat) (perm : list nat) (ni : nat) (P : list nat) : Prop := {
    pi_len : length perm = n;
    pi_ni : ni = length P;
    pi_in : forall w, In w P <-> w < n /\ (c w < k \/ (c w = k /\ w < m));
    pi_sorted : StronglySorted (colour_lt c) P;
    pi_num : forall i w, nth_error P i = Some w -> nth_error perm w = Some i }.

  Lemma sorted_snoc {A} (R : A -> A -> Prop) l x :
    StronglySorted R l -> (forall y, In y l -> R y x) -> StronglySorted R (l ++ [x]).
  Proof.
    induction 1 as [|y l H IH HF]; intro Hx; cbn.
    - repeat constructor.
    - constructor.
      + apply IH. intros z Hz. apply Hx. right; auto.
      + apply Forall_app. split; auto. constructor; [|constructor]. apply Hx. left; auto.
  Qed.

  Lemma inner_ok k perm ni P : pinv k 0 perm ni P ->
    exists perm' ni' P', FOR n (fun v s => let '(perm, new_index) := s in
      do cv <- vget col v;
      if cv =? k then do perm' <- vset perm v new_index; Ok (perm', new_index + 1)
      else Ok (perm, new_index)) (perm, ni) = Ok (perm', ni') /\ pinv (k + 1) 0 perm' ni' P'.
  Proof.
    intro H0.
    destruct (FOR_inv (fun m (s : list nat * nat) => exists P, pinv k m (fst s) (snd s) P) n
      (fun v s => let '(perm, new_index) := s in
      do cv <- vget col v;
      if cv =? k then do perm' <- vset perm v new_index; Ok (perm', new_index + 1)
      else Ok (perm, new_index)) (perm, ni)) as ((perm' & ni') & E & P' & H).
    - exists P. exact H0.
    - intros m (pm & nx) Hm (R & [Hlen Hni Hin Hso Hnum]). cbn [fst snd] in *. fold n in Hm.
      rewrite (vget_lt col m 0) by (exact Hm). cbn [bind]. fold (c m).
      destruct (Nat.eqb_spec (c m) k) as [Ek|Ek].
      + rewrite vset_lt by lia. cbn [bind]. eexists. split; [reflexivity|]. cbn [fst snd].
        assert (Hfresh : ~ In m R) by (rewrite Hin; lia).
        exists (R ++ [m]). constructor.
        * rewrite upd_length; lia.
        * rewrite app_length. cbn. lia.
        * intro w. rewrite in_app_iff, Hin. cbn [In].
          split; [intros [H|[<-|[]]]|]; [lia|lia|]. intros [H1 H2].
          destruct (Nat.eq_dec w m) as [->|]; [right; left; auto|left]. split; auto. lia.
        * apply sorted_snoc; auto. intros y Hy. apply Hin in Hy. unfold colour_lt. lia.
        * intros i w Hi. rewrite nth_error_upd by lia.
          destruct (Nat.lt_ge_cases i (length R)) as [Hc|Hc].
          -- rewrite nth_error_app1 in Hi by auto. destruct (Nat.eqb_spec w m) as [->|]; auto.
             exfalso. apply Hfresh. eapply nth_error_In; eauto.
          -- rewrite nth_error_app2 in Hi by auto. destruct (i - length R) as [|j] eqn:Ej.
             ++ cbn in Hi. injection Hi as <-. rewrite Nat.eqb_refl. f_equal. lia.
             ++ destruct j; discriminate.
      + eexists. split; [reflexivity|]. exists R. constructor; auto.
        intro w. rewrite Hin. split; intros [H1 H2]; split; auto; [lia|].
        destruct (Nat.eq_dec w m) as [->|]; lia.
    - exists perm', ni', P'. split; auto. destruct H as [Hlen Hni Hin Hso Hnum].
      constructor; auto. intro w. rewrite Hin. split; intros [H1 H2]; split; auto; lia.
  Qed.

  Lemma colour_permutation_ok mx : (forall v, v < n -> c v <= mx) ->
    exists p, colour_permutation col mx n = Ok p /\ is_perm n p /\
      forall u v, u < n -> v < n -> colour_lt c u v -> nth u p 0 < nth v p 0.
  Proof.
    intro Hmx. unfold colour_permutation.
    destruct (FOR_inv (fun k (s : list nat * nat) => exists P, pinv k 0 (fst s) (snd s) P) (mx + 1)
      (fun c s => FOR (length col) (fun v s => let '(perm, new_index) := s in
        do cv <- vget col v;
        if cv =? c then do perm' <- vset perm v new_index; Ok (perm', new_index + 1)
        else Ok (perm, new_index)) s) (repeat 0 n, 0)) as ((perm & ni) & E & P & H).
    - exists []. cbn [fst snd]. constructor; auto.
      + apply repeat_length.
      + intro w. cbn. lia.
      + constructor.
      + intros i w Hi. destruct i; discriminate.
    - intros k (pm & nx) Hk (P & HP). cbn [fst snd] in HP.
      destruct (inner_ok k pm nx P HP) as (pm' & nx' & P' & E & HP'). eauto.
    - rewrite E. cbn [bind fst snd] in *. exists perm. split; auto.
      destruct H as [Hlen Hni Hin Hso Hnum].
      assert (HP : forall v, v < n -> exists i, nth_error P i = Some v).
      { intros v Hv. apply In_nth_error, Hin. split; auto. specialize (Hmx v Hv). lia. }
      assert (Hnth : forall i v, nth_error P i = Some v -> nth v perm 0 = i).
      { intros i v Hi. apply Hnum in Hi. apply nth_error_nth; auto. }
      assert (Hmono : forall u v, u < n -> v < n -> colour_lt c u v -> nth u perm 0 < nth v perm 0).
      { intros u v Hu Hv Huv. destruct (HP u Hu) as (i & Hi). destruct (HP v Hv) as (j & Hj).
        rewrite (Hnth i u Hi), (Hnth j v Hj). destruct (Nat.lt_trichotomy i j) as [Hc|[Hc|Hc]]; auto.
        - subst j. assert (u = v) by congruence. subst. unfold colour_lt in Huv. lia.
        - pose proof (sorted_nth _ _ Hso j i v u Hc Hj Hi). unfold colour_lt in *. lia. }
      split; auto. apply perm_intro_nth; auto.
      + intros i Hi. destruct (HP i Hi) as (j & Hj). rewrite (Hnth j i Hj).
        assert (Hlt : length P <= n).
        { rewrite <- (seq_length n 0). apply NoDup_incl_length.
          - assert (Hnd : forall l, StronglySorted (colour_lt c) l -> NoDup l).
            { induction 1 as [|y l Hl IH HF]; constructor; auto. intro Hy. rewrite Forall_forall in HF.
              specialize (HF y Hy). unfold colour_lt in HF. lia. }
            auto.
          - intros w Hw. apply Hin in Hw. apply in_seq. lia. }
        apply nth_error_lt_Some in Hj. lia.
      + intros i j Hi Hj Hij.
        destruct (Nat.lt_trichotomy (c i) (c j)) as [Hc|[Hc|Hc]].
        * assert (colour_lt c i j) by (left; auto). specialize (Hmono i j Hi Hj H). lia.
        * destruct (Nat.lt_trichotomy i j) as [Hd|[Hd|Hd]]; auto.
          -- assert (H : colour_lt c i j) by (right; auto). specialize (Hmono i j Hi Hj H). lia.
          -- assert (H : colour_lt c j i) by (right; auto). specialize (Hmono j i Hj Hi H). lia.
        * assert (H : colour_lt c j i) by (left; auto). specialize (Hmono j i Hj Hi H). lia.
  Qed.
End Permutation.

Lemma rule_proper g c : well_formed false g -> (forall v, v < size_vertex g -> colour_rule g c v) ->
  forall u v, edge g u v -> c u <> c v.
Proof.
  intros Hw Hr.
  assert (G : forall u v, edge g v u -> u < v -> c u <> c v).
  { intros u v He Huv. destruct (edge_bounds false g v u Hw He) as (Hv & _ & _).
    destruct (Hr v Hv) as [[H _]|(m & _ & _ & _ & _ & H & _)]; [exfalso; eapply H; eauto|eauto]. }
  intros u v He. destruct (edge_bounds false g u v Hw He) as (_ & _ & Hne).
  destruct (Nat.lt_trichotomy u v) as [Hc|[Hc|Hc]]; [|congruence|].
  - apply G; auto. apply edge_sym; auto.
  - intro E. symmetry in E. revert E. apply G; auto.
Qed.

Lemma greedy_spec dbg g : well_formed false g -> (exists u v, edge g u v) ->
  exists p c, greedy_multicolouring dbg g = Ok p /\ is_perm (size_vertex g) p /\
    (forall v, v < size_vertex g -> 1 <= c v) /\
    (forall u v, edge g u v -> c u <> c v) /\
    (forall u v, u < size_vertex g -> v < size_vertex g -> colour_lt c u v -> nth u p 0 < nth v p 0) /\
    (forall v, v < size_vertex g -> colour_rule g c v).
Proof.
  intros Hw (a & b & Hab). destruct (edge_bounds false g a b Hw Hab) as (Ha & Hb & Hne).
  unfold greedy_multicolouring. rewrite (size_pos_nonempty false) by (auto; lia).
  destruct (greedy_colours_ok dbg false g Hw) as (col & mx & E & [Hl Hz Hp Hr Hm He]).
  rewrite E. cbn [bind fst snd].
  assert (Hmx : 1 <= mx).
  { apply He. destruct (Nat.lt_trichotomy a b) as [Hc|[Hc|Hc]]; [|congruence|].
    - exists a, b. split; auto. split; auto. apply edge_sym; auto.
    - exists b, a. auto. }
  destruct (colour_permutation_ok col mx) as (p & Ep & Hperm & Hmono).
  { intros v Hv. rewrite Hl in Hv. destruct (Hm v Hv); lia. }
  rewrite Hl in *. exists p, (fun v => nth v col 0). split; auto. split; auto. split; auto.
  split; [|split; auto]. apply rule_proper; auto.
Qed.

Lemma greedy_edgeless dbg d g : well_formed d g -> (forall u v, ~ edge g u v) ->
  greedy_multicolouring dbg g = Ok (repeat 0 (size_vertex g)).
Proof.
  intros Hw Hno. unfold greedy_multicolouring. destruct (g_empty g) eqn:Ee.
  { assert (size_vertex g = 0).
    { destruct Hw as (rs & H & _). rewrite (g_empty_repr g rs H) in Ee. rewrite (repr_size g rs H).
      destruct rs; auto; discriminate. }
    rewrite H. reflexivity. }
  destruct (greedy_colours_ok dbg d g Hw) as (col & mx & E & [Hl Hz Hp Hr Hm He]).
  rewrite E. cbn [bind fst snd].
  assert (mx = 0).
  { destruct mx; auto. destruct (proj2 He) as (u & v & _ & _ & H); [lia|]. exfalso. eapply Hno; eauto. }
  subst mx. unfold colour_permutation. rewrite FOR_S. unfold FOR at 1. cbn [seq forM bind].
  destruct (FOR_inv (fun _ (s : list nat * nat) => s = (repeat 0 (size_vertex g), 0)) (length col)
    (fun v s => let '(perm, new_index) := s in
       do cv <- vget col v;
       if cv =? 0 then do perm' <- vset perm v new_index; Ok (perm', new_index + 1)
       else Ok (perm, new_index)) (repeat 0 (size_vertex g), 0)) as (s & Es & ->); auto.
  - intros i s Hi ->. rewrite (vget_lt col i 0) by auto. cbn [bind].
    assert (1 <= nth i col 0) by (apply Hp; lia).
    destruct (Nat.eqb_spec (nth i col 0) 0); [lia|]. eauto.
  - rewrite Es. reflexivity.
Qed.

Lemma greedy_perm_iff dbg g : well_formed false g ->
  exists p, greedy_multicolouring dbg g = Ok p /\
    (is_perm (size_vertex g) p <-> size_vertex g <= 1 \/ exists u v, edge g u v).
Proof.
  intro Hw.
  destruct (bounded_dec (fun u => exists v, v < size_vertex g /\ edge g u v) (size_vertex g))
    as [(u & Hu & v & Hv & He)|Hno].
  - intro u. apply bounded_dec. intro v. apply edge_dec.
  - destruct (greedy_spec dbg g Hw) as (p & c & E & Hp & _); eauto.
    exists p. split; auto. split; eauto.
  - assert (Hno' : forall u v, ~ edge g u v).
    { intros u v He. destruct (edge_bounds false g u v Hw He) as (H1 & H2 & _). apply Hno. eauto. }
    exists (repeat 0 (size_vertex g)). split; [eapply greedy_edgeless; eauto|]. split.
    + intro Hp. left. destruct (Nat.le_gt_cases (size_vertex g) 1) as [|Hc]; auto.
      pose proof (perm_inj _ _ 0 1 Hp ltac:(lia) ltac:(lia)) as H. rewrite !nth_repeat in H.
      specialize (H eq_refl). discriminate.
    + intros [H|(u & v & He)]; [|exfalso; eapply Hno'; eauto].
      destruct (size_vertex g) as [|[|]] eqn:En; [apply Permutation_refl|apply Permutation_refl|lia].
Qed.

(** On a path every vertex gets a colour of its own. *)
Definition is_path (g : graph) : Prop :=
  forall u v, edge g u v <-> u < size_vertex g /\ v < size_vertex g /\ (u = v + 1 \/ v = u + 1).

Lemma path_colour g c : is_path g -> (forall v, v < size_vertex g -> colour_rule g c v) ->
  forall v, v < size_vertex g -> c v = v + 1.
Proof.
  intros Hpath Hr. induction v as [|v IH]; intro Hv.
  - destruct (Hr 0 Hv) as [[_ H]|(m & H & _)]; lia.
  - specialize (IH ltac:(lia)).
    destruct (Hr (S v) Hv) as [[H _]|(m & Hm & He & Hmin & Hlt & Hne & Hall)].
    + exfalso. apply (H v); [lia|]. apply Hpath. lia.
    + apply Hpath in He. assert (m = v) by lia. subst m.
      destruct (Nat.eq_dec (c (S v)) (c v + 1)) as [|Hd]; [lia|].
      destruct (Hall (c v + 1)) as (w & Hw & Hew & Ew); [lia|lia|].
      apply Hpath in Hew. assert (w = v) by lia. subst w. lia.
Qed.

Lemma greedy_path dbg g : well_formed false g -> is_path g -> 2 <= size_vertex g ->
  exists p, greedy_multicolouring dbg g = Ok p /\
    forall c, (forall u v, edge g u v -> c u <> c v) ->
      (forall u v, u < size_vertex g -> v < size_vertex g -> c u < c v -> nth u p 0 < nth v p 0) ->
      NoDup (map c (seq 0 (size_vertex g))).
Proof.
  intros Hw Hpath Hn.
  destruct (greedy_spec dbg g Hw) as (p & c0 & E & Hp & _ & _ & Hmono & Hr).
  { exists 0, 1. apply Hpath. lia. }
  exists p. split; auto. intros c Hc Hcm.
  pose proof (path_colour g c0 Hpath Hr) as Hc0.
  assert (Hup : forall v, v + 1 < size_vertex g -> c v < c (v + 1)).
  { intros v Hv. assert (c v <> c (v + 1)) by (apply Hc, Hpath; lia).
    destruct (Nat.lt_ge_cases (c v) (c (v + 1))) as [|Hge]; auto.
    assert (nth (v + 1) p 0 < nth v p 0) by (apply Hcm; lia).
    assert (nth v p 0 < nth (v + 1) p 0); [|lia].
    apply Hmono; [lia|lia|]. left. rewrite !Hc0; lia. }
  assert (Hlt : forall u v, u < v -> v < size_vertex g -> c u < c v).
  { intros u v Huv. induction Huv as [|v Huv IH]; intro Hv.
    - rewrite <- Nat.add_1_r. apply Hup. lia.
    - specialize (IH ltac:(lia)). specialize (Hup v ltac:(lia)). rewrite Nat.add_1_r in Hup. lia. }
  apply NoDup_map_inj; [|apply seq_NoDup].
  intros u v Hu Hv Eq. apply in_seq in Hu. apply in_seq in Hv.
  destruct (Nat.lt_trichotomy u v) as [H|[H|H]]; auto.
  - specialize (Hlt u v H). lia.
  - specialize (Hlt v u H). lia.
Qed.
