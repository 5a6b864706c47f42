(** Proofs of the property theorems about the zeros of the factors. *)
From Coq Require Import ZArith Reals Lra Field SpecFloat QArith Qcanon.
From Verif Require Import Base ListFacts Csr GraphModel GraphSpec GraphFacts DenseModel DenseFacts ScalarModel GeometryReal LuModel LuFacts
  LuField LuReal LuFloat FloatFacts PropFloatLemmas PermFacts TraversalModel Bfs ReorderModel Ordering OrderingSpec Envelope PropReorderLemmas PropComposeLemmas PropLuLemmas.
Local Open Scope nat_scope.

(* ------------------------------------------------------------------ any scalars with a notion of zero *)
Section Zeros.
  Context {S : Type} (O : sops S) (zero good : S -> Prop).
  Hypothesis sub_l : forall x l u, zero x -> zero l -> good u -> zero (sc_sub O x (sc_mul O l u)).
  Hypothesis sub_r : forall x l u, zero x -> good l -> zero u -> zero (sc_sub O x (sc_mul O l u)).
  Hypothesis quot : forall x d, zero x -> good (sc_div O x d) -> zero (sc_div O x d).
  Variables (n : nat) (A g : nat -> nat -> S).
  Hypothesis HG : forall a b, a < n -> b < n -> good (g a b).

  Lemma rdiff_zero e m (l u : nat -> S) : zero e ->
    (forall k, k < m -> zero (l k) /\ good (u k) \/ good (l k) /\ zero (u k)) ->
    zero (rdiff O e m (fun k => sc_mul O (l k) (u k))).
  Proof using sub_l sub_r.
    intros He. induction m as [|m IH]; intros H; cbn [rdiff]; [exact He|].
    assert (I : zero (rdiff O e m (fun k => sc_mul O (l k) (u k)))) by (apply IH; intros; apply H; lia).
    destruct (H m ltac:(lia)) as [[? ?]|[? ?]]; auto.
  Qed.

  Lemma profile_kept (lo hi : nat -> nat) : dool O n A n (fun k => k) g ->
    (forall a b, a < n -> b < n -> b < lo a \/ a < hi b -> zero (A a b)) ->
    forall a b, a < n -> b < n -> b < lo a \/ a < hi b -> zero (g a b).
  Proof using sub_l sub_r quot HG.
    intros (HA & _ & _) HZ.
    assert (K : forall t a b, a + b < t -> a < n -> b < n -> b < lo a \/ a < hi b -> zero (g a b)).
    { induction t as [|t IH]; intros a b Ht Ha Hb Hz; [lia|].
      assert (V : zero (rdiff O (A a b) (Nat.min (Nat.min a n) b) (fun m => sc_mul O (g a m) (g m b)))).
      { apply rdiff_zero; [apply HZ; auto|]. intros k Hk. destruct Hz as [Hz|Hz].
        - left. split; [apply IH; lia|apply HG; lia].
        - right. split; [apply HG; lia|apply IH; lia]. }
      pose proof (HA a b Ha Hb) as E. pose proof (HG a b Ha Hb) as G. rewrite E in G |- *. unfold dool_entry in *.
      destruct (b <? Nat.min a n); auto. }
    intros a b. apply (K (Datatypes.S (a + b))). lia.
  Qed.
End Zeros.

(* ------------------------------------------------------------------ fields *)
Section FieldZeros.
  Context {S : Type} (O : sops S) (opp inv : S -> S).
  Hypothesis FT : field_theory (sc_zero O) (sc_one O) (sc_add O) (sc_mul O) (sc_sub O) opp (sc_div O) inv eq.
  Add Field FF : FT.
  Notation z := (sc_zero O).

  Lemma zero_quot d : sc_div O z d = z.
  Proof using FT. rewrite (Fdiv_def FT). ring. Qed.

  Lemma profile_field dbg n : tol_default O dbg -> forall st a A st' (lo hi : nat -> nat),
    is_mat n n a A -> factorise O dbg false st a = Ok (st', true) ->
    (forall i j, i < n -> j < n -> j < lo i \/ i < hi j -> A i j = z) ->
    exists g, is_mat n n (lu_matrix st') g /\ forall i j, i < n -> j < n -> j < lo i \/ i < hi j -> g i j = z.
  Proof using FT.
    intros T st a A st' lo hi Ha E HZ.
    destruct (factorise_dool O dbg false n st a A st' T Ha E) as (s & g & _ & Hm & _ & Hs & HA & _).
    exists g. split; [exact Hm|].
    apply (profile_kept O (fun x => x = z) (fun _ => True)) with (A := A); auto.
    - intros x l u -> -> _. ring.
    - intros x l u -> _ ->. ring.
    - intros x d -> _. apply zero_quot.
    - split; [|split; eauto]. intros i j Hi Hj. rewrite (HA i j Hi Hj). apply dool_entry_ext; auto.
  Qed.

  (* ---------------------------------------------------------------- pivoting *)
  Variables (dbg : bool) (n p q : nat).
  Hypothesis HS : forall m (g : nat -> nat -> S) i j, is_mat n n m g -> i < n -> lu_search O dbg m i = Ok j -> j = i \/ g j i <> z.

  Definition band_inv (A : nat -> nat -> S) (i : nat) (s : nat -> nat) (g : nat -> nat -> S) : Prop :=
    (forall a b, i + p <= a -> a < n -> b < n -> g a b = A a b) /\
    (forall a b, i <= a -> a < n -> a < i + p -> b < n -> i + p + q <= b -> g a b = z) /\
    (forall a b, a < i -> a < n -> b < n -> a + p + q < b -> g a b = z) /\
    (forall c, c < i -> exists l, length l <= p /\ forall a, c < a -> a < n -> g a c <> z -> In a l).

  Lemma band_0 A : (forall i j, i < n -> j < n -> i + q < j \/ j + p < i -> A i j = z) -> band_inv A 0 (fun k => k) A.
  Proof using.
    intros HA. split; [auto|]. split; [intros; apply HA; auto; lia|]. split; [intros; lia|]. intros; lia.
  Qed.

  Lemma band_step A i j s g : (forall i j, i < n -> j < n -> i + q < j \/ j + p < i -> A i j = z) ->
    i <= j < n -> j = i \/ g j i <> z -> band_inv A i s g ->
    band_inv A (i + 1) (fun k => s (transpose i j k))
      (fun r c => if i <? r then elim_row O (fun a b => g (transpose i j a) b) i r c else g (transpose i j r) c).
  Proof using FT.
    intros HA Hij Hp (I1 & I2 & I3 & I4).
    assert (Hj : j <= i + p).
    { destruct Hp as [->|Hp]; [lia|]. destruct (Nat.le_gt_cases j (i + p)) as [L|L]; [exact L|]. exfalso. apply Hp.
      rewrite I1 by lia. apply HA; lia. }
    assert (Tfix : forall a, i + p < a -> transpose i j a = a).
    { intros a H. unfold transpose. destruct (Nat.eqb_spec a i); [lia|]. destruct (Nat.eqb_spec a j); [lia|reflexivity]. }
    assert (Tin : forall a, i <= a <= i + p -> i <= transpose i j a <= i + p).
    { intros a H. unfold transpose. destruct (a =? i), (a =? j); lia. }
    set (g' := fun a b => g (transpose i j a) b).
    (* rows i to i + p end before column i + p + q + 1 *)
    assert (Z1 : forall a b, i <= a <= i + p -> a < n -> b < n -> i + p + q < b -> g' a b = z).
    { intros a b H1 H2 H3 H4. unfold g'. pose proof (Tin a H1) as H5. pose proof (transpose_lt i j a n ltac:(lia) ltac:(lia) H2) as H6.
      destruct (Nat.eq_dec (transpose i j a) (i + p)) as [E|N].
      - rewrite I1 by lia. apply HA; lia.
      - apply I2; lia. }
    assert (Z2 : forall a b, i + p < a -> a < n -> b < n -> g' a b = A a b).
    { intros a b H1 H2 H3. unfold g'. rewrite Tfix by lia. apply I1; lia. }
    assert (Z3 : forall a, i + p < a -> a < n -> g' a i = z).
    { intros a H1 H2. rewrite Z2 by lia. apply HA; lia. }
    split; [|split; [|split]].
    - intros a b H1 H2 H3. destruct (Nat.ltb_spec i a); [|lia]. unfold elim_row. fold (g' a b) (g' a i).
      rewrite (Z3 a) by lia. rewrite <- (Z2 a b) by lia. change (g (transpose i j i)) with (g' i).
      destruct (Nat.ltb_spec b i); [reflexivity|]. destruct (Nat.eqb_spec b i) as [->|]; [rewrite (Z3 a) by lia; apply zero_quot|].
      rewrite zero_quot. ring.
    - intros a b H1 H2 H3 H4 H5. destruct (Nat.ltb_spec i a); [|lia]. unfold elim_row. fold (g' a b) (g' a i).
      change (g (transpose i j i)) with (g' i).
      destruct (Nat.ltb_spec b i); [lia|]. destruct (Nat.eqb_spec b i); [lia|]. rewrite (Z1 a b), (Z1 i b) by lia. ring.
    - intros a b H1 H2 H3 H4. destruct (Nat.ltb_spec i a); [lia|]. destruct (Nat.eq_dec a i) as [->|N].
      + apply Z1; lia.
      + rewrite transpose_below by lia. apply I3; lia.
    - intros c Hc. destruct (Nat.eq_dec c i) as [->|N].
      + exists (seq (i + 1) p). split; [rewrite seq_length; lia|]. intros a H1 H2 H3. apply in_seq.
        destruct (Nat.le_gt_cases a (i + p)) as [L|L]; [lia|]. exfalso. apply H3. destruct (Nat.ltb_spec i a); [|lia].
        unfold elim_row. rewrite Nat.ltb_irrefl, Nat.eqb_refl. fold (g' a i). rewrite (Z3 a) by lia. apply zero_quot.
      + destruct (I4 c ltac:(lia)) as (l & Hl & Hin). exists (map (transpose i j) l). split; [rewrite map_length; exact Hl|].
        intros a H1 H2 H3. rewrite <- (transpose_invol i j a). apply in_map, Hin.
        * unfold transpose. destruct (a =? i), (a =? j); lia.
        * apply transpose_lt; lia.
        * intros E. apply H3. destruct (i <? a); [|exact E]. unfold elim_row. destruct (Nat.ltb_spec c i); [exact E|lia].
  Qed.

  Lemma band_pivot : tol_default O dbg -> forall st a A st',
    is_mat n n a A -> factorise O dbg true st a = Ok (st', true) ->
    (forall i j, i < n -> j < n -> i + q < j \/ j + p < i -> A i j = z) ->
    exists g, is_mat n n (lu_matrix st') g /\ (forall i j, i < n -> j < n -> i + p + q < j -> g i j = z) /\
      forall c, c < n -> exists l, length l <= p /\ forall i, c < i -> i < n -> g i c <> z -> In i l.
  Proof using FT HS.
    intros T st a A st' Ha E HA.
    destruct (factorise_inv O dbg true n st a A (band_inv A) (fun g i j => j = i \/ g j i <> z) T Ha HS (band_0 A HA))
      as (st1 & ok & E1 & _ & _ & s & g & Hm & _ & _ & HI).
    { intros i j s g Hij _ Hp HI _. apply band_step; auto. }
    rewrite E in E1. injection E1 as <- <-. destruct (HI eq_refl) as (_ & _ & H1 & H2).
    exists g. split; [exact Hm|]. split; [intros; apply H1; auto; lia|exact H2].
  Qed.
End FieldZeros.

(* ------------------------------------------------------------------ the search over the reals *)
Lemma search_nonzero dbg n m (g : nat -> nat -> R) i j : is_mat n n m g -> i < n ->
  lu_search rops dbg m i = Ok j -> j = i \/ g j i <> 0%R.
Proof.
  intros Hm Hi. unfold lu_search. rewrite (is_mat_cols _ _ _ _ Hm) by lia.
  match goal with |- context[forM (seq i (n - i)) ?F _] =>
    destruct (forM_seq_inv (fun _ (s : R * nat) => (0 <= fst s)%R /\ (snd s = i \/ g (snd s) i <> 0%R)) i (n - i) F (sc_zero rops, i))
      as (r & E & H) end.
  - cbn [fst snd rops sc_zero]. split; [lra|auto].
  - intros k [mx im] Hk (Hmx & Hs). cbn [fst snd] in *.
    rewrite (is_mat_get _ _ _ _ _ _ Hm) by lia. cbn [bind].
    destruct (nearly_total rops dbg (sc_abs rops (g k i)) mx (R_tol_default dbg)) as (gt & Eg). rewrite Eg. cbn [bind].
    cbn [rops sc_abs] in Eg. fold rops in Eg. eexists. split; [reflexivity|]. cbn [rops sc_abs].
    destruct gt; cbn [fst snd]; [|auto]. apply nearly_greater_gt in Eg. split; [apply Rabs_pos|]. right. intros E0.
    rewrite E0, Rabs_R0 in Eg. lra.
  - rewrite E. cbn [bind]. intro Ej. injection Ej as <-. apply H.
Qed.

Lemma band_pivot_R dbg n p q st a (A : nat -> nat -> R) st' : is_mat n n a A -> factorise rops dbg true st a = Ok (st', true) ->
  (forall i j, i < n -> j < n -> i + q < j \/ j + p < i -> A i j = 0%R) ->
  exists g, is_mat n n (lu_matrix st') g /\ (forall i j, i < n -> j < n -> i + p + q < j -> g i j = 0%R) /\
    forall c, c < n -> exists l, length l <= p /\ forall i, c < i -> i < n -> g i c <> 0%R -> In i l.
Proof.
  apply (band_pivot rops Ropp Rinv R_field dbg n p q (search_nonzero dbg n) (R_tol_default dbg)).
Qed.

(* ------------------------------------------------------------------ doubles *)
Definition f_zero (x : f64) : Prop := exists s, x = S754_zero s.

Lemma f_zero_sub_l x l u : f_zero x -> f_zero l -> f_finite u = true -> f_zero (SFsub 53 1024 x (SFmul 53 1024 l u)).
Proof.
  intros [s ->] [t ->] H. destruct u as [r| | |r m e]; try discriminate; cbn [SFmul SFsub]; destruct s, (xorb t r); eexists; reflexivity.
Qed.

Lemma f_zero_sub_r x l u : f_zero x -> f_finite l = true -> f_zero u -> f_zero (SFsub 53 1024 x (SFmul 53 1024 l u)).
Proof.
  intros [s ->] H [t ->]. destruct l as [r| | |r m e]; try discriminate; cbn [SFmul SFsub]; destruct s, (xorb r t); eexists; reflexivity.
Qed.

Lemma f_zero_quot x d : f_zero x -> f_finite (SFdiv 53 1024 x d) = true -> f_zero (SFdiv 53 1024 x d).
Proof.
  intros [s ->]. destruct d as [r|r| |r m e]; cbn [SFdiv f_finite]; try discriminate; intros _; eexists; reflexivity.
Qed.

Lemma profile_double dbg n st a (A : nat -> nat -> f64) st' g (lo hi : nat -> nat) :
  is_mat n n a A -> factorise fops dbg false st a = Ok (st', true) -> is_mat n n (lu_matrix st') g ->
  (forall i j, i < n -> j < n -> f_finite (g i j) = true) ->
  (forall i j, i < n -> j < n -> j < lo i \/ i < hi j -> f_zero (A i j)) ->
  forall i j, i < n -> j < n -> j < lo i \/ i < hi j -> f_zero (g i j).
Proof.
  intros Ha E Hm HF HZ.
  destruct (factorise_dool fops dbg false n st a A st' (F_tol_default dbg) Ha E) as (s & g' & _ & Hm' & _ & Hs & HA & _).
  assert (EQ : forall i j, i < n -> j < n -> g' i j = g i j).
  { intros i j Hi Hj. pose proof (is_mat_get _ _ _ _ i j Hm Hi Hj) as E1. rewrite (is_mat_get _ _ _ _ i j Hm' Hi Hj) in E1. congruence. }
  intros i j Hi Hj Hz. rewrite <- EQ by auto. revert i j Hi Hj Hz.
  apply (profile_kept fops f_zero (fun x => f_finite x = true)) with (A := A); auto.
  - exact f_zero_sub_l.
  - exact f_zero_sub_r.
  - exact f_zero_quot.
  - intros a0 b Ha0 Hb. rewrite EQ by auto. auto.
  - split; [|split; eauto]. intros i j Hi Hj. rewrite (HA i j Hi Hj). apply dool_entry_ext; auto.
Qed.

(* ------------------------------------------------------------------ graphs *)
Definition envelope (g : graph) : list (nat * nat) :=
  flat_map (fun v => map (pair v) (seq (lowest g v) (v - lowest g v))) (seq 0 (size_vertex g)).

Lemma envelope_length g : length (envelope g) = profile g.
Proof.
  unfold envelope, profile. induction (seq 0 (size_vertex g)) as [|v l IH]; [reflexivity|].
  cbn [flat_map map list_sum fold_right]. rewrite app_length, IH, map_length, seq_length. reflexivity.
Qed.

Lemma in_envelope g a b : a < size_vertex g -> lowest g a <= b < a -> In (a, b) (envelope g).
Proof.
  intros Ha Hb. apply in_flat_map. exists a. split; [apply in_seq; lia|]. apply in_map, in_seq. lia.
Qed.

Section Pattern.
  Context {S : Type} (O : sops S) (opp inv : S -> S).
  Hypothesis FT : field_theory (sc_zero O) (sc_one O) (sc_add O) (sc_mul O) (sc_sub O) opp (sc_div O) inv eq.
  Notation z := (sc_zero O).

  Lemma fill_profile dbg h : tol_default O dbg -> forall st a A st', well_formed false h ->
    is_mat (size_vertex h) (size_vertex h) a A ->
    (forall i j, i < size_vertex h -> j < size_vertex h -> i <> j -> ~ edge h i j -> A i j = z) ->
    factorise O dbg false st a = Ok (st', true) ->
    exists g, is_mat (size_vertex h) (size_vertex h) (lu_matrix st') g /\
      forall l, NoDup l -> (forall e, In e l -> snd e < fst e < size_vertex h /\ (g (fst e) (snd e) <> z \/ g (snd e) (fst e) <> z)) ->
        length l <= profile h.
  Proof using FT.
    intros T st a A st' Hw Ha HA E.
    destruct (profile_field O opp inv FT dbg (size_vertex h) T st a A st' (lowest h) (lowest h) Ha E) as (g & Hm & Hg).
    { intros i j Hi Hj Hz. apply HA; auto.
      - intros <-. pose proof (lowest_le h i). lia.
      - intros He. pose proof (lowest_edge h i j He). pose proof (lowest_edge h j i (edge_sym h i j Hw He)). lia. }
    exists g. split; [exact Hm|]. intros l Hn Hl. rewrite <- envelope_length. apply NoDup_incl_length; [exact Hn|].
    intros [i j] He. destruct (Hl _ He) as [Hb Hnz]. cbn [fst snd] in *. apply in_envelope; [lia|].
    destruct (Nat.le_gt_cases (lowest h i) j) as [L|L]; [lia|]. exfalso.
    destruct Hnz as [N|N]; apply N, Hg; lia.
  Qed.

  Lemma fill_band dbg sortf M g s D w : tol_default O dbg -> forall st a A st' p, well_formed false g -> sorts_by_second sortf ->
    size_vertex g <= M -> s < size_vertex g -> (forall v, v < size_vertex g -> dist (edge g) s v (D v)) ->
    (forall u v, edge g u v -> D u <= D v -> two_levels (size_vertex g) D (D u) (D v) <= w) ->
    cuthill_mckee sortf M dbg g s = Ok p ->
    is_mat (size_vertex g) (size_vertex g) a A ->
    (forall u v, u < size_vertex g -> v < size_vertex g -> u <> v -> ~ edge g u v -> A (nth u p 0) (nth v p 0) = z) ->
    factorise O dbg false st a = Ok (st', true) ->
    exists F, is_mat (size_vertex g) (size_vertex g) (lu_matrix st') F /\
      forall i j, i < size_vertex g -> j < size_vertex g -> i <> j -> i + w <= j \/ j + w <= i -> F i j = z.
  Proof using FT.
    intros T st a A st' p Hw Hso HM Hs HD Hlev Ep Ha HA E.
    assert (Hc : connected g).
    { intros u v Hu Hv. destruct (HD u Hu) as [H1 _]. destruct (HD v Hv) as [H2 _]. exists (D u + D v).
      eapply walk_trans; eauto. apply walk_sym; auto. intros x y. apply edge_sym; auto. }
    destruct (cmk_spec sortf M dbg g s Hw Hso HM Hs Hc) as (p' & Ep' & Hlo). rewrite Ep in Ep'. injection Ep' as <-.
    assert (Hp : is_perm (size_vertex g) p) by apply Hlo.
    destruct (cmk_band sortf M dbg g s D Hw Hso HM Hs HD) as (p' & Ep' & Hb). rewrite Ep in Ep'. injection Ep' as <-.
    destruct (profile_field O opp inv FT dbg (size_vertex g) T st a A st' (fun i => if w =? 0 then i else i + 1 - w)
      (fun i => if w =? 0 then i else i + 1 - w) Ha E) as (F & Hm & Hg).
    { intros i j Hi Hj Hz. destruct (perm_onto _ _ i Hp Hi) as (u & Hu & <-). destruct (perm_onto _ _ j Hp Hj) as (v & Hv & <-).
      apply HA; auto.
      - intros <-. destruct (w =? 0) eqn:Ew; [apply Nat.eqb_eq in Ew|apply Nat.eqb_neq in Ew]; lia.
      - intros He. assert (K : nth u p 0 - nth v p 0 < w /\ nth v p 0 - nth u p 0 < w).
        { destruct (Nat.le_ge_cases (D u) (D v)) as [L|L].
          - specialize (Hlev u v He L). destruct (Hb u v He L). lia.
          - pose proof (edge_sym g u v Hw He) as He'. specialize (Hlev v u He' L). destruct (Hb v u He' L). lia. }
        destruct (Nat.eqb_spec w 0); lia. }
    exists F. split; [exact Hm|]. intros i j Hi Hj Hne Hz. apply Hg; auto. destruct (Nat.eqb_spec w 0); lia.
  Qed.
End Pattern.

Lemma pivoting_fills : exists st',
  factorise qops true true (lu_default qops) [[q 1; q 1; q 0]; [q 2; q 1; q 1]; [q 0; q 1; q 1]] = Ok (st', true) /\
  map (map this) (lu_matrix st') = [[inject_Z 2; inject_Z 1; inject_Z 1]; [inject_Z 0; inject_Z 1; inject_Z 1]; [1 # 2; 1 # 2; -1 # 1]]%Q.
Proof. eexists. split; vm_compute; reflexivity. Qed.
