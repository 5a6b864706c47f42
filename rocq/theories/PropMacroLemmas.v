(** Lemmas behind C101 and C102. *)
From Coq Require Import String Ascii ZArith.
From Verif Require Import Base ListFacts TextModel TextFacts MacroModel.
Local Open Scope Z_scope.

(** a, a + 1, ..., b - 1 and a, a - 1, ..., b + 1. *)
Definition ups (a b : Z) : list Z := map (fun k => a + Z.of_nat k) (seq 0 (Z.to_nat (b - a))).
Definition downs (a b : Z) : list Z := map (fun k => a - Z.of_nat k) (seq 0 (Z.to_nat (a - b))).

(** The values of a type with at least two bits. *)
Definition fits (t : ity) (x : Z) : Prop := i_min t <= x <= i_max t.

Lemma ups_cons a b : a < b -> ups a b = a :: ups (a + 1) b.
Proof.
  intro H. unfold ups. replace (Z.to_nat (b - a)) with (S (Z.to_nat (b - (a + 1)))) by lia. cbn [seq map].
  f_equal; [lia|]. rewrite <- seq_shift, map_map. apply map_ext. intro k. lia.
Qed.

Lemma ups_nil a b : b <= a -> ups a b = [].
Proof. intro H. unfold ups. replace (Z.to_nat (b - a)) with 0%nat by lia. reflexivity. Qed.

Lemma downs_cons a b : b < a -> downs a b = a :: downs (a - 1) b.
Proof.
  intro H. unfold downs. replace (Z.to_nat (a - b)) with (S (Z.to_nat (a - 1 - b))) by lia. cbn [seq map].
  f_equal; [lia|]. rewrite <- seq_shift, map_map. apply map_ext. intro k. lia.
Qed.

Lemma downs_nil a b : a <= b -> downs a b = [].
Proof. intro H. unfold downs. replace (Z.to_nat (a - b)) with 0%nat by lia. reflexivity. Qed.

Lemma in_ups a b x : In x (ups a b) <-> a <= x < b.
Proof.
  unfold ups. rewrite in_map_iff. split.
  - intros (k & <- & Hk). apply in_seq in Hk. lia.
  - intro H. exists (Z.to_nat (x - a)). split; [lia|]. apply in_seq. lia.
Qed.

Lemma in_downs a b x : In x (downs a b) <-> b < x <= a.
Proof.
  unfold downs. rewrite in_map_iff. split.
  - intros (k & <- & Hk). apply in_seq in Hk. lia.
  - intro H. exists (Z.to_nat (a - x)). split; [lia|]. apply in_seq. lia.
Qed.

Lemma width t : 1 <= i_bits t -> i_max t - i_min t + 1 = 2 ^ i_bits t.
Proof.
  intro H. unfold i_max, i_min. destruct (i_signed t); [|lia].
  replace (i_bits t) with (Z.succ (i_bits t - 1)) at 3 by lia. rewrite Z.pow_succ_r by lia. lia.
Qed.

Lemma conv_fits t x : 1 <= i_bits t -> fits t x -> conv t x = x.
Proof.
  intros Hb [H1 H2]. unfold conv. pose proof (width t Hb). rewrite Z.mod_small by lia. lia.
Qed.

Lemma conv_range t x : 1 <= i_bits t -> fits t (conv t x).
Proof.
  intro Hb. unfold conv, fits. pose proof (width t Hb).
  pose proof (Z.mod_pos_bound (x - i_min t) (2 ^ i_bits t)). pose proof (Z.pow_pos_nonneg 2 (i_bits t)). lia.
Qed.

Lemma pow_mono a b : 0 <= a <= b -> 2 ^ a <= 2 ^ b.
Proof. intro H. apply Z.pow_le_mono_r; lia. Qed.

Lemma promoted_fits t x : 1 <= i_bits t -> fits t x -> fits (promoted t) x.
Proof.
  intros Hb [H1 H2]. unfold promoted. destruct (i_bits t <? 32) eqn:E; [|split; auto].
  apply Z.ltb_lt in E. unfold fits, i_min, i_max in *. cbn [i_signed i_bits int_t].
  pose proof (pow_mono (i_bits t) 31). pose proof (pow_mono (i_bits t - 1) 31).
  pose proof (Z.pow_pos_nonneg 2 (i_bits t - 1)).
  destruct (i_signed t); change (2 ^ (32 - 1)) with (2 ^ 31); lia.
Qed.

Lemma promoted_bits t : 1 <= i_bits t -> 1 <= i_bits (promoted t).
Proof. unfold promoted. destruct (_ <? _); cbn; lia. Qed.

Lemma common_same t : common t t = promoted t.
Proof. unfold common. rewrite eqb_reflx, Z.ltb_irrefl. reflexivity. Qed.

Lemma common_bits a b : 1 <= i_bits a -> 1 <= i_bits b -> 1 <= i_bits (common a b).
Proof.
  intros Ha Hb. apply promoted_bits in Ha, Hb. unfold common. destruct (Bool.eqb _ _); [destruct (_ <? _); auto|].
  destruct (i_signed (promoted a)); destruct (_ <=? _); auto.
Qed.

Lemma step_ok t d i : 1 <= i_bits t -> fits t (i + d) -> step t d i = Ok (i + d).
Proof.
  intros Hb H. unfold step. pose proof (promoted_fits t (i + d) Hb H) as [H1 H2].
  apply Z.leb_le in H1, H2. rewrite H1, H2. cbn [negb andb]. rewrite andb_false_r. rewrite conv_fits by auto. reflexivity.
Qed.

Lemma less_val ta tb a b : 1 <= i_bits (common ta tb) -> fits (common ta tb) a -> fits (common ta tb) b ->
  less ta tb a b = (a <? b).
Proof. intros Hb Ha Hc. unfold less. rewrite !conv_fits by auto. reflexivity. Qed.

Lemma differ_val ta tb a b : 1 <= i_bits (common ta tb) -> fits (common ta tb) a -> fits (common ta tb) b ->
  differ ta tb a b = negb (a =? b).
Proof. intros Hb Ha Hc. unfold differ. rewrite !conv_fits by auto. reflexivity. Qed.

Section L.
  Context {S : Type}.
  Variable body : Z -> S -> res S.

  Lemma index_loop_ok t n : 1 <= i_bits t -> fits t n ->
    forall fuel i s, fits t i -> (Z.to_nat (n - i) < fuel)%nat ->
    index_loop body fuel t n i s = forM (ups i n) body s.
  Proof using.
    intros Hb Hn. induction fuel as [|f IH]; intros i s Hi Hf; [lia|]. cbn [index_loop].
    rewrite less_val; rewrite ?common_same; auto using promoted_bits, promoted_fits.
    destruct (i <? n) eqn:E; [apply Z.ltb_lt in E|apply Z.ltb_ge in E; rewrite ups_nil by lia; reflexivity].
    rewrite ups_cons by lia. cbn [forM]. destruct (body i s) as [s'| | |]; try reflexivity. cbn [bind].
    assert (F : fits t (i + 1)) by (destruct Hi, Hn; split; lia).
    rewrite step_ok by auto. cbn [bind]. apply IH; auto. lia.
  Qed.

  Lemma for_index_ok t n fuel s : 1 <= i_bits t -> fits t n -> (Z.to_nat n < fuel)%nat ->
    for_index body fuel t n s = forM (ups 0 n) body s.
  Proof using.
    intros Hb Hn Hf. unfold for_index.
    assert (F : fits t 0).
    { unfold fits, i_min, i_max. pose proof (Z.pow_pos_nonneg 2 (i_bits t - 1)). pose proof (Z.pow_pos_nonneg 2 (i_bits t)).
      destruct (i_signed t); lia. }
    rewrite conv_fits by auto. apply index_loop_ok; auto. rewrite Z.sub_0_r. exact Hf.
  Qed.

  Lemma range_up ta tb a b : 1 <= i_bits ta -> 1 <= i_bits (common ta tb) -> less ta tb a b = true ->
    fits (common ta tb) a -> fits (common ta tb) b -> fits ta a -> fits ta b ->
    forall fuel i s, a <= i <= b -> (Z.to_nat (b - i) < fuel)%nat ->
    range_loop body fuel ta tb a b i s = forM (ups i b) body s.
  Proof using.
    intros Ba Bc L Ca Cb Fa Fb. induction fuel as [|f IH]; intros i s Hi Hf; [lia|]. cbn [range_loop].
    rewrite differ_val by (auto; destruct Ca, Cb; split; lia). rewrite L.
    destruct (i =? b) eqn:E; [apply Z.eqb_eq in E; subst; rewrite ups_nil by lia; reflexivity|apply Z.eqb_neq in E].
    cbn [negb]. rewrite ups_cons by lia. cbn [forM]. destruct (body i s) as [s'| | |]; try reflexivity. cbn [bind].
    rewrite step_ok by (auto; destruct Fa, Fb; split; lia). cbn [bind]. apply IH; lia.
  Qed.

  Lemma range_down ta tb a b : 1 <= i_bits ta -> 1 <= i_bits (common ta tb) -> less ta tb a b = false ->
    fits (common ta tb) a -> fits (common ta tb) b -> fits ta a -> fits ta b ->
    forall fuel i s, b <= i <= a -> (Z.to_nat (i - b) < fuel)%nat ->
    range_loop body fuel ta tb a b i s = forM (downs i b) body s.
  Proof using.
    intros Ba Bc L Ca Cb Fa Fb. induction fuel as [|f IH]; intros i s Hi Hf; [lia|]. cbn [range_loop].
    rewrite differ_val by (auto; destruct Ca, Cb; split; lia). rewrite L.
    destruct (i =? b) eqn:E; [apply Z.eqb_eq in E; subst; rewrite downs_nil by lia; reflexivity|apply Z.eqb_neq in E].
    cbn [negb]. rewrite downs_cons by lia. cbn [forM]. destruct (body i s) as [s'| | |]; try reflexivity. cbn [bind].
    rewrite step_ok by (auto; destruct Fa, Fb; split; lia). cbn [bind].
    replace (i + -1) with (i - 1) by lia. apply IH; lia.
  Qed.

  Lemma for_range_ok ta tb a b fuel s : 1 <= i_bits ta -> 1 <= i_bits tb ->
    fits (common ta tb) a -> fits (common ta tb) b -> fits ta a -> fits ta b -> (Z.to_nat (Z.abs (b - a)) < fuel)%nat ->
    for_range body fuel ta tb a b s = forM (if a <? b then ups a b else downs a b) body s.
  Proof using.
    intros Ba Bb Ca Cb Fa Fb Hf. unfold for_range. pose proof (common_bits ta tb Ba Bb) as Bc.
    pose proof (less_val ta tb a b Bc Ca Cb) as L. destruct (a <? b) eqn:E.
    - apply Z.ltb_lt in E. apply range_up; auto; lia.
    - apply Z.ltb_ge in E. apply range_down; auto; lia.
  Qed.

  Lemma for_range_same t a b fuel s : 1 <= i_bits t -> fits t a -> fits t b -> (Z.to_nat (Z.abs (b - a)) < fuel)%nat ->
    for_range body fuel t t a b s = forM (if a <? b then ups a b else downs a b) body s.
  Proof using.
    intros Hb Ha Hc Hf. apply for_range_ok; rewrite ?common_same; auto using promoted_fits.
  Qed.

  (** Bodies that always go on. *)
  Variable go : forall i s, exists s', body i s = Ok s'.

  Lemma int_overflow n fuel s : 2 ^ 31 <= n <= i_max size_t -> 2 ^ 31 <= Z.of_nat fuel ->
    for_range body fuel int_t size_t 0 n s = Undef.
  Proof using go.
    intros Hn. unfold for_range. change (i_max size_t) with (2 ^ 64 - 1) in Hn.
    assert (L : less int_t size_t 0 n = true).
    { rewrite less_val; [apply Z.ltb_lt; lia|cbn; lia|split; cbn; lia|split; cbn; lia]. }
    assert (G : forall fuel i s, 0 <= i < 2 ^ 31 -> 2 ^ 31 - i <= Z.of_nat fuel ->
              range_loop body fuel int_t size_t 0 n i s = Undef).
    { clear fuel s. induction fuel as [|f IH]; intros i s Hi Hf; [lia|]. cbn [range_loop].
      rewrite differ_val by (try (cbn; lia); split; cbn; lia).
      replace (i =? n) with false by (symmetry; apply Z.eqb_neq; lia). cbn [negb].
      destruct (go i s) as [s' ->]. cbn [bind]. rewrite L. cbv iota.
      destruct (Z.eq_dec i (2 ^ 31 - 1)) as [->|Ne]; [reflexivity|].
      rewrite step_ok by (cbn; try lia; split; cbn; lia). cbn [bind]. apply IH; lia. }
    intro Hf. apply G; lia.
  Qed.

  (** The end may have any type wider than int. *)
  Lemma int_overflow_wide tb n fuel s : 32 < i_bits tb -> 2 ^ 31 <= n <= i_max tb -> 2 ^ 31 <= Z.of_nat fuel ->
    for_range body fuel int_t tb 0 n s = Undef.
  Proof using go.
    intros Hb Hn. unfold for_range.
    assert (CM : common int_t tb = tb).
    { unfold common. replace (promoted tb) with tb by (unfold promoted; replace (i_bits tb <? 32) with false by (symmetry; apply Z.ltb_ge; lia); reflexivity).
      change (promoted int_t) with int_t. change (i_signed int_t) with true. change (i_bits int_t) with 32. destruct (i_signed tb); cbn [Bool.eqb].
      - replace (32 <? i_bits tb) with true by (symmetry; apply Z.ltb_lt; lia). reflexivity.
      - change (i_bits int_t) with 32. replace (32 <=? i_bits tb) with true by (symmetry; apply Z.leb_le; lia). reflexivity. }
    assert (I0 : i_min tb <= 0) by (unfold i_min; destruct (i_signed tb); [pose proof (Z.pow_nonneg 2 (i_bits tb - 1) ltac:(lia)); lia|lia]).
    assert (L : less int_t tb 0 n = true).
    { rewrite less_val; rewrite ?CM; [apply Z.ltb_lt; lia|lia|split; lia|split; lia]. }
    assert (G : forall fuel i s, 0 <= i < 2 ^ 31 -> 2 ^ 31 - i <= Z.of_nat fuel ->
              range_loop body fuel int_t tb 0 n i s = Undef).
    { clear fuel s. induction fuel as [|f IH]; intros i s Hi Hf; [lia|]. cbn [range_loop].
      rewrite differ_val by (rewrite ?CM; try lia; split; lia).
      replace (i =? n) with false by (symmetry; apply Z.eqb_neq; lia). cbn [negb].
      destruct (go i s) as [s' ->]. cbn [bind]. rewrite L. cbv iota.
      destruct (Z.eq_dec i (2 ^ 31 - 1)) as [->|Ne]; [reflexivity|].
      rewrite step_ok by (cbn; try lia; split; cbn; lia). cbn [bind]. apply IH; lia. }
    intro Hf. apply G; lia.
  Qed.

  Lemma int_negative a n fuel s : - 2 ^ 31 <= a < 0 -> 0 <= n < 2 ^ 64 - 2 ^ 31 -> 2 ^ 31 <= Z.of_nat fuel ->
    for_range body fuel int_t size_t a n s = Undef.
  Proof using go.
    intros Ha Hn. unfold for_range.
    assert (C : forall i, - 2 ^ 31 <= i < 0 -> conv size_t i = 2 ^ 64 + i).
    { intros i Hi. unfold conv. change (i_min size_t) with 0. change (i_bits size_t) with 64.
      rewrite Z.sub_0_r, Z.add_0_r. symmetry. apply Z.mod_unique with (q := -1); lia. }
    assert (N : conv size_t n = n) by (apply conv_fits; [cbn; lia|split; cbn; lia]).
    assert (L : less int_t size_t a n = false).
    { unfold less. change (common int_t size_t) with size_t. rewrite C, N by lia. apply Z.ltb_ge. lia. }
    assert (G : forall fuel i s, - 2 ^ 31 <= i <= a -> i + 2 ^ 31 < Z.of_nat fuel ->
              range_loop body fuel int_t size_t a n i s = Undef).
    { clear fuel s. induction fuel as [|f IH]; intros i s Hi Hf; [lia|]. cbn [range_loop].
      unfold differ. change (common int_t size_t) with size_t. rewrite C, N by lia.
      replace (2 ^ 64 + i =? n) with false by (symmetry; apply Z.eqb_neq; lia). cbn [negb].
      destruct (go i s) as [s' ->]. cbn [bind]. rewrite L. cbv iota.
      destruct (Z.eq_dec i (- 2 ^ 31)) as [->|Ne]; [reflexivity|].
      rewrite step_ok by (cbn; try lia; split; cbn; lia). cbn [bind]. apply IH; lia. }
    intro Hf. apply G; lia.
  Qed.

  Lemma narrow t n : i_signed t = false -> 1 <= i_bits t <= 16 -> 2 ^ i_bits t <= n <= i_max size_t ->
    forall fuel s, for_range body fuel t size_t 0 n s = Diverge.
  Proof using go.
    intros St Hb Hn. unfold for_range. change (i_max size_t) with (2 ^ 64 - 1) in Hn.
    assert (CM : common t size_t = size_t).
    { unfold common, promoted. replace (i_bits t <? 32) with true by (symmetry; apply Z.ltb_lt; lia). reflexivity. }
    assert (P16 : 2 ^ i_bits t <= 2 ^ 16) by (apply pow_mono; lia). change (2 ^ 16) with 65536 in P16.
    assert (Fi : forall i, fits t i <-> 0 <= i < 2 ^ i_bits t).
    { intro i. unfold fits, i_min, i_max. rewrite St. lia. }
    assert (G : forall fuel i s, fits t i -> range_loop body fuel t size_t 0 n i s = Diverge).
    { induction fuel as [|f IH]; intros i s Hi; [reflexivity|]. cbn [range_loop].
      apply Fi in Hi. rewrite differ_val by (rewrite CM; try (cbn; lia); split; cbn; lia).
      replace (i =? n) with false by (symmetry; apply Z.eqb_neq; lia). cbn [negb].
      destruct (go i s) as [s' ->]. cbn [bind].
      replace (less t size_t 0 n) with true.
      2:{ symmetry. rewrite less_val by (rewrite CM; try (cbn; lia); split; cbn; lia). apply Z.ltb_lt. lia. }
      unfold step, promoted. replace (i_bits t <? 32) with true by (symmetry; apply Z.ltb_lt; lia).
      replace ((i_min int_t <=? i + 1) && (i + 1 <=? i_max int_t)) with true.
      2:{ symmetry. apply andb_true_iff. split; apply Z.leb_le; cbn; lia. }
      cbn [negb andb]. rewrite andb_false_r. cbn [bind]. apply IH, conv_range. lia. }
    intros fuel s. apply G, Fi. lia.
  Qed.
End L.

(** Down to zero with an unsigned index: the end -1 becomes the largest value and the loop runs upwards. *)
Lemma down_to_zero {S} (body : Z -> S -> res S) a fuel s : 0 <= a <= i_max size_t ->
  2 ^ 64 <= Z.of_nat fuel ->
  for_range body fuel size_t int_t a (-1) s = forM (ups a (2 ^ 64 - 1)) body s.
Proof.
  intros Ha Hf. change (i_max size_t) with (2 ^ 64 - 1) in Ha.
  assert (E : forall fuel i s, range_loop body fuel size_t int_t a (-1) i s =
                               range_loop body fuel size_t size_t a (2 ^ 64 - 1) i s).
  { clear. induction fuel as [|f IH]; intros i s; [reflexivity|]. cbn [range_loop].
    unfold differ, less. change (common size_t int_t) with size_t. change (common size_t size_t) with size_t.
    replace (conv size_t (-1)) with (conv size_t (2 ^ 64 - 1)) by reflexivity.
    destruct (negb _); [|reflexivity]. destruct (body i s); cbn [bind]; auto. destruct (step _ _ _); cbn [bind]; auto. }
  unfold for_range at 1. rewrite E.
  assert (F : fits size_t a /\ fits size_t (2 ^ 64 - 1)) by (unfold fits; cbn; lia).
  pose proof (for_range_same body size_t a (2 ^ 64 - 1) fuel s) as G. unfold for_range in G. rewrite G;
    [|cbn; lia|apply F|apply F|lia].
  destruct (a <? 2 ^ 64 - 1) eqn:L; [reflexivity|apply Z.ltb_ge in L]. rewrite ups_nil, downs_nil by lia. reflexivity.
Qed.

(** The row counter of compute_residual. *)
Lemma residual_counter {S} (body : Z -> S -> res S) n fuel s : 0 <= n < 2 ^ 31 -> (Z.to_nat n < fuel)%nat ->
  int_loop body fuel size_t n 0 s = forM (ups 0 n) body s.
Proof.
  intros Hn Hf. assert (G : forall fuel i s, 0 <= i <= n -> (Z.to_nat (n - i) < fuel)%nat ->
    int_loop body fuel size_t n i s = forM (ups i n) body s).
  { clear fuel s Hf. induction fuel as [|f IH]; intros i s Hi Hf; [lia|]. cbn [int_loop].
    rewrite less_val by (try (cbn; lia); split; cbn; lia).
    destruct (i <? n) eqn:E; [apply Z.ltb_lt in E|apply Z.ltb_ge in E; rewrite ups_nil by lia; reflexivity].
    rewrite ups_cons by lia. cbn [forM]. destruct (body i s) as [s'| | |]; try reflexivity. cbn [bind].
    rewrite step_ok by (try (cbn; lia); split; cbn; lia). cbn [bind]. apply IH; lia. }
  apply G; lia.
Qed.

Lemma residual_overflow {S} (body : Z -> S -> res S) n fuel s : (forall i s, exists s', body i s = Ok s') ->
  2 ^ 31 <= n <= i_max size_t -> 2 ^ 31 <= Z.of_nat fuel -> int_loop body fuel size_t n 0 s = Undef.
Proof.
  intros go Hn Hf. change (i_max size_t) with (2 ^ 64 - 1) in Hn.
  assert (G : forall fuel i s, 0 <= i < 2 ^ 31 -> 2 ^ 31 - i <= Z.of_nat fuel ->
            int_loop body fuel size_t n i s = Undef).
  { clear fuel s Hf. induction fuel as [|f IH]; intros i s Hi Hf; [lia|]. cbn [int_loop].
    rewrite less_val by (try (cbn; lia); split; cbn; lia).
    replace (i <? n) with true by (symmetry; apply Z.ltb_lt; lia).
    destruct (go i s) as [s' ->]. cbn [bind].
    destruct (Z.eq_dec i (2 ^ 31 - 1)) as [->|Ne]; [reflexivity|].
    rewrite step_ok by (cbn; try lia; split; cbn; lia). cbn [bind]. apply IH; lia. }
  apply G; lia.
Qed.

(** FOR of Base.v is the loop with the type std::size_t. *)
Lemma for_base {S} (f : nat -> S -> res S) n fuel s : Z.of_nat n <= i_max size_t -> (n < fuel)%nat ->
  for_index (fun i => f (Z.to_nat i)) fuel size_t (Z.of_nat n) s = FOR n f s.
Proof.
  intros Hn Hf. rewrite for_index_ok; [|cbn; lia|split; [cbn; lia|exact Hn]|lia].
  unfold FOR, ups. rewrite Z.sub_0_r, Nat2Z.id. clear.
  assert (G : forall k a s, forM (map (fun j => 0 + Z.of_nat j) (seq a k)) (fun i => f (Z.to_nat i)) s =
                        forM (seq a k) f s).
  { induction k as [|k IH]; intros a s0; [reflexivity|]. cbn [seq map forM]. rewrite Z.add_0_l, Nat2Z.id.
    destruct (f a s0); cbn [bind]; auto. }
  apply G.
Qed.

Local Open Scope nat_scope.

(** Console text. *)
Definition tag (l : level) : text :=
  match l with
  | Error => chars "[Error|" | Warning => chars "[Warn |" | Info => chars "[Info |" | _ => chars "[Debug|"
  end.
Definition named (l : level) : Prop := match l with Other _ => False | _ => True end.

(** [b] is the part of a path after its last slash. *)
Definition base_name (file b : text) : Prop :=
  ~ In "/"%char b /\ (file = b \/ exists d, file = d ++ chars "/" ++ b).

Lemma find_last_spec M c t : length t <= M ->
  (find_last M c t = M /\ ~ In c t) \/
  (exists a b, t = a ++ c :: b /\ ~ In c b /\ find_last M c t = length a /\ length a < M).
Proof.
  induction t as [|x r IH]; intro H; [left; split; auto|]. cbn [length] in H. cbn [find_last].
  destruct IH as [[E N]|(a & b & E & N & F & L)]; [lia|..].
  - rewrite E, Nat.eqb_refl. destruct (Ascii.eqb x c) eqn:X.
    + apply Ascii.eqb_eq in X. subst. right. exists [], r. cbn. repeat split; auto. lia.
    + apply Ascii.eqb_neq in X. left. split; auto. intros [<-|Hi]; auto.
  - right. exists (x :: a), b. subst r. rewrite F. rewrite app_length in H. cbn [length] in H.
    replace (length a =? M) with false by (symmetry; apply Nat.eqb_neq; lia). cbn [length app].
    repeat split; auto; lia.
Qed.

Lemma substr_base M file : length file <= M ->
  exists b, substr M file (find_last M "/" file + 1) = Ok b /\ base_name file b.
Proof.
  intro H. destruct (find_last_spec M "/" file H) as [[E N]|(a & b & E & N & F & L)].
  - exists file. unfold substr. rewrite E, Nat.eqb_refl. cbn. split; [reflexivity|]. split; auto.
  - exists b. unfold substr. rewrite F. replace (length a + 1 =? M + 1) with false by (symmetry; apply Nat.eqb_neq; lia).
    subst file. rewrite app_length. cbn [length].
    replace (length a + 1 <=? length a + S (length b)) with true by (symmetry; apply Nat.leb_le; lia).
    split; [|split; auto; right; exists a; reflexivity]. f_equal.
    rewrite skipn_app, skipn_all2 by lia. replace (length a + 1 - length a) with 1 by lia. reflexivity.
Qed.

Lemma format_ok M l file line : named l -> length file <= M ->
  exists b, base_name file b /\
  console_format M l file line = Ok (tag l ++ b ++ chars "::" ++ decimal line ++ chars "]: ").
Proof.
  intros Hl H. destruct (substr_base M file H) as (b & E & B). exists b. split; auto. unfold console_format.
  rewrite E. cbn [bind]. destruct l; [reflexivity..|contradiction].
Qed.

Lemma base_name_unique file b1 b2 : base_name file b1 -> base_name file b2 -> b1 = b2.
Proof.
  intros [N1 H1] [N2 H2].
  assert (K : forall b d, ~ In "/"%char b -> b = d ++ chars "/" ++ b2 -> False).
  { intros b d N ->. apply N, in_or_app. right. left. reflexivity. }
  assert (K' : forall d, b2 = d ++ chars "/" ++ b1 -> False).
  { intros d ->. apply N2, in_or_app. right. left. reflexivity. }
  destruct H1 as [->|[d1 ->]], H2 as [H2|[d2 H2]]; auto.
  - exfalso. eauto.
  - exfalso. symmetry in H2. eauto.
  - apply (f_equal (@rev _)) in H2. rewrite !rev_app_distr, <- !app_assoc in H2. cbn [chars list_ascii_of_string rev app] in H2.
    apply cut in H2 as [H2 _]; [|intro Hi; apply in_rev in Hi; auto..].
    apply (f_equal (@rev _)) in H2. rewrite !rev_involutive in H2. exact H2.
Qed.

Lemma app_inv_len {A} (a b x y : list A) : length a = length b -> a ++ x = b ++ y -> a = b /\ x = y.
Proof.
  revert b. induction a as [|u a IH]; intros [|v b] L H; try discriminate; [auto|].
  cbn in L, H. injection L as L. injection H as -> H. destruct (IH b L H) as [-> ->]. auto.
Qed.

Lemma tag_length l : length (tag l) = 7. Proof. destruct l; reflexivity. Qed.
Lemma tag_inj l1 l2 : named l1 -> named l2 -> tag l1 = tag l2 -> l1 = l2.
Proof. destruct l1, l2; cbn; intros; auto; try contradiction; discriminate. Qed.

Lemma format_inj M l1 f1 n1 l2 f2 n2 t : named l1 -> named l2 -> length f1 <= M -> length f2 <= M ->
  console_format M l1 f1 n1 = Ok t -> console_format M l2 f2 n2 = Ok t ->
  l1 = l2 /\ n1 = n2 /\ exists b, base_name f1 b /\ base_name f2 b.
Proof.
  intros L1 L2 M1 M2 H1 H2. destruct (format_ok M l1 f1 n1 L1 M1) as (b1 & B1 & E1).
  destruct (format_ok M l2 f2 n2 L2 M2) as (b2 & B2 & E2). rewrite E1 in H1. rewrite E2 in H2.
  injection H1 as <-. injection H2 as H2. 
  assert (T : tag l2 = tag l1 /\ b2 ++ chars "::" ++ decimal n2 ++ chars "]: " = b1 ++ chars "::" ++ decimal n1 ++ chars "]: ").
  { apply app_inv_len in H2; [exact H2|]. rewrite !tag_length. reflexivity. }
  destruct T as [T R]. split; [symmetry; apply tag_inj; auto|].
  apply (f_equal (@rev _)) in R. rewrite !rev_app_distr, <- !app_assoc in R. apply app_inv_head in R.
  change (rev (chars "::")) with (":"%char :: chars ":") in R. cbn [app] in R.
  apply cut in R as [R1 R2]; [|intro Hi; apply in_rev in Hi; revert Hi; apply decimal_free; reflexivity..].
  apply (f_equal (@rev _)) in R1. rewrite !rev_involutive in R1. apply decimal_inj in R1.
  cbn in R2. injection R2 as R2. apply (f_equal (@rev _)) in R2. rewrite !rev_involutive in R2. subst b2.
  split; [auto|]. exists b1. auto.
Qed.

(** What one message adds to the two streams. *)
Lemma report_ok M dbg l file line msg c : named l -> length file <= M ->
  exists b, base_name file b /\
  let t := newline ++ tag l ++ b ++ chars "::" ++ decimal line ++ chars "]: " ++ msg in
  report M dbg l file line msg c =
  Ok match l with
     | Error => mkC (c_out c) (c_err c ++ t ++ newline)
     | Debug => if dbg then mkC (c_out c ++ t) (c_err c) else c
     | _ => mkC (c_out c ++ t) (c_err c)
     end.
Proof.
  intros Hl H. destruct (format_ok M l file line Hl H) as (b & B & E). exists b. split; auto. cbv zeta.
  unfold report. destruct l; try contradiction; cbn [tag] in *; rewrite ?E; cbn [bind]; rewrite <- ?app_assoc; try reflexivity.
  destruct dbg; [cbn [bind]|reflexivity]. rewrite <- ?app_assoc. reflexivity.
Qed.

Lemma format_other M n file line : length file <= M -> console_format M (Other n) file line = Abort.
Proof. intro H. unfold console_format. destruct (substr_base M file H) as (b & -> & _). reflexivity. Qed.
