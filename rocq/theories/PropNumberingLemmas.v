(** Proofs of the property theorems about sweeps and the numbering of the equations. *)
From Coq Require Import ZArith Field QArith Qcanon.
From Verif Require Import Base ListFacts Csr GraphModel GraphSpec GraphFacts PermFacts DenseModel DenseFacts ScalarModel SparseModel SparseSpec SparseFacts
  LuModel LuFacts IterModel IterFacts IterLoop IterField ReorderModel Colouring PropComposeLemmas PropLuLemmas PropIterLemmas.
Local Open Scope nat_scope.

(* ------------------------------------------------------------------ rows of one colour *)
Section Colours.
  Context {S : Type}.
  Variables (O : sops S) (dbg : bool) (stray : option nat).

  Lemma off_sum_local i (es : list (nat * S)) f g s : (forall j, In j (map fst es) -> j <> i -> f j = g j) ->
    off_sum O i es f s = off_sum O i es g s.
  Proof using.
    revert s. induction es as [|e es IH]; intros s E; [reflexivity|]. unfold off_sum. cbn [fold_left].
    assert (E' : forall j, In j (map fst es) -> j <> i -> f j = g j) by (intros; apply E; simpl; auto).
    destruct (Nat.eqb_spec (fst e) i) as [|N]; [apply IH, E'|]. rewrite (E (fst e)) by (simpl; auto). apply IH, E'.
  Qed.

  Section Order.
    Variables (n : nat) (a : smat S) (b : list S) (rs : list (list (nat * S))) (d h f : nat -> S) (w : S) (c : nat -> nat).
    Hypothesis HR : rows_of dbg stray n a b rs d h.
    Hypothesis HC : forall i j, i < n -> In j (map fst (nth i rs [])) -> j <> i -> c i <> c j.

    Definition by_colour (z : nat -> S) (k : nat) : Prop :=
      z k = swept O rs d h w k (fun j => if c j <? c k then z j else f j).

    Lemma order_run l : forall pre u z, is_perm n (pre ++ l) ->
      (forall i j, In i pre -> In j l -> c i <= c j) -> StronglySorted (fun i j => c i <= c j) l ->
      is_vec n u z -> (forall k, k < n -> ~ In k pre -> z k = f k) -> (forall k, In k pre -> by_colour z k) ->
      exists x' z', forM l (sweep_row O dbg stray a None b w) u = Ok x' /\ is_vec n x' z' /\ forall k, k < n -> by_colour z' k.
    Proof using HR HC.
      induction l as [|i l IH]; intros pre u z Hp Hle Hso Hu Hkeep Hdone.
      - exists u, z. split; [reflexivity|]. split; [exact Hu|]. intros k Hk. apply Hdone.
        rewrite app_nil_r in Hp. apply (Permutation_in k (Permutation_sym Hp)). apply in_seq. lia.
      - assert (Hi : i < n).
        { assert (In i (seq 0 n)) by (apply (Permutation_in i Hp), in_or_app; right; left; reflexivity). rewrite in_seq in *. lia. }
        assert (Hnd : NoDup (pre ++ i :: l)) by (apply (Permutation_NoDup (Permutation_sym Hp)), seq_NoDup).
        assert (Hni : ~ In i pre) by (intros Hin; apply NoDup_remove_2 in Hnd; apply Hnd, in_or_app; auto).
        apply StronglySorted_inv in Hso as [Hso Hall]. rewrite Forall_forall in Hall.
        cbn [forM]. rewrite (sweep_row_ok O dbg stray n a b rs d h None u z w i HR) by (auto; exact Hu).
        fold (swept O rs d h w i z).
        destruct (is_vec_set n u z i (swept O rs d h w i z) Hu Hi) as (u1 & E1 & Hu1). rewrite E1. cbn [bind].
        apply (IH (pre ++ [i]) u1 (fun j => if j =? i then swept O rs d h w i z else z j)).
        + rewrite <- app_assoc. exact Hp.
        + intros k j Hk Hj. apply in_app_or in Hk as [Hk|[<-|[]]]; [apply Hle; simpl; auto|apply Hall, Hj].
        + exact Hso.
        + exact Hu1.
        + intros k Hk Hn. destruct (Nat.eqb_spec k i) as [->|]; [exfalso; apply Hn, in_or_app; simpl; auto|].
          apply Hkeep; auto. intros Hin. apply Hn, in_or_app; auto.
        + assert (Hbelow : forall j, j < n -> c j < c i -> In j pre).
          { intros j Hj Hc. assert (Hin : In j (pre ++ i :: l)) by (apply (Permutation_in j (Permutation_sym Hp)), in_seq; lia).
            apply in_app_or in Hin as [Hin|[<-|Hin]]; [exact Hin|lia|]. specialize (Hall j Hin). lia. }
          intros k Hk. unfold by_colour. apply in_app_or in Hk as [Hk|[<-|[]]].
          * destruct (Nat.eqb_spec k i) as [->|Hne]; [contradiction|]. rewrite (Hdone k Hk).
            unfold swept. f_equal.
            -- apply off_sum_local. intros j Hj _. destruct (Nat.eqb_spec j i) as [->|]; [|reflexivity].
               destruct (Nat.ltb_spec (c i) (c k)); [|reflexivity]. specialize (Hle k i Hk (or_introl eq_refl)). lia.
            -- rewrite !Nat.ltb_irrefl. reflexivity.
          * rewrite Nat.eqb_refl. unfold swept. f_equal.
            -- apply off_sum_local. intros j Hj Hne. assert (Hjn : j < n) by (apply (ro_cols dbg stray n a b rs d h HR i j Hi Hj)).
               destruct (Nat.ltb_spec (c j) (c i)) as [Hlt|Hge].
               ++ destruct (Nat.eqb_spec j i); [contradiction|reflexivity].
               ++ apply Hkeep; auto. intros Hin. specialize (Hle j i Hin (or_introl eq_refl)). specialize (HC i j Hi Hj Hne). lia.
            -- rewrite Nat.ltb_irrefl. apply Hkeep; auto.
    Qed.

    Lemma by_colour_unique z z' : (forall k, k < n -> by_colour z k) -> (forall k, k < n -> by_colour z' k) ->
      forall k, k < n -> z k = z' k.
    Proof using HR.
      intros H H'. assert (K : forall t k, c k < t -> k < n -> z k = z' k).
      { induction t as [|t IH]; intros k Ht Hk; [lia|]. rewrite (H k Hk), (H' k Hk).
        unfold swept. f_equal.
        - apply off_sum_local. intros j Hj _. assert (Hjn : j < n) by (apply (ro_cols dbg stray n a b rs d h HR k j Hk Hj)).
          destruct (Nat.ltb_spec (c j) (c k)); [apply IH; auto; lia|reflexivity].
        - rewrite !Nat.ltb_irrefl. reflexivity. }
      intros k. apply (K (Datatypes.S (c k))). lia.
    Qed.
  End Order.

  Lemma colour_order n a b x w c l l' : square_system n a b -> length x = n ->
    (forall i j v, i < n -> stored a i j v -> j <> i -> c i <> c j) ->
    is_perm n l -> is_perm n l' ->
    StronglySorted (fun i j => c i <= c j) l -> StronglySorted (fun i j => c i <= c j) l' ->
    exists x', forM l (sweep_row O dbg stray a None b w) x = Ok x' /\ forM l' (sweep_row O dbg stray a None b w) x = Ok x' /\
      length x' = n.
  Proof using.
    intros Hs Hx HC Hp Hp' Hso Hso'. destruct (system_rows O dbg stray n a b Hs) as (rs & d & HR & _ & _).
    assert (HC' : forall i j, i < n -> In j (map fst (nth i rs [])) -> j <> i -> c i <> c j).
    { intros i j Hi Hj Hne. apply in_map_iff in Hj as ([j0 v] & <- & Hj). apply (HC i j0 v Hi); [|exact Hne].
      apply (srepr_stored _ rs); [apply (ro_repr _ _ _ _ _ _ _ _ HR)|exact Hj]. }
    assert (Hv : is_vec n x (fun i => nth i x (sc_zero O))) by (rewrite <- Hx; apply is_vec_self).
    destruct (order_run n a b rs d (fun i => nth i b (sc_zero O)) (fun i => nth i x (sc_zero O)) w c HR HC' l [] x (fun i => nth i x (sc_zero O)) Hp) as (x1 & z1 & E1 & V1 & H1); auto; [intros ? ? []|intros ? []|].
    destruct (order_run n a b rs d (fun i => nth i b (sc_zero O)) (fun i => nth i x (sc_zero O)) w c HR HC' l' [] x (fun i => nth i x (sc_zero O)) Hp') as (x2 & z2 & E2 & V2 & H2); auto; [intros ? ? []|intros ? []|].
    exists x1. split; [exact E1|]. split; [|apply V1]. rewrite E2. f_equal. apply (is_vec_eq n _ _ _ _ V2 V1).
    apply (by_colour_unique n a b rs d (fun i => nth i b (sc_zero O)) (fun i => nth i x (sc_zero O)) w c HR); auto.
  Qed.

  Lemma seq_sorted (c : nat -> nat) k n : (forall i j, k <= i -> i < j -> j < k + n -> c i <= c j) ->
    StronglySorted (fun i j => c i <= c j) (seq k n).
  Proof using.
    clear. revert k. induction n as [|n IH]; intros k H; cbn [seq]; constructor.
    - apply IH. intros i j H1 H2 H3. apply H; lia.
    - apply Forall_forall. intros j Hj. apply in_seq in Hj. apply H; lia.
  Qed.

  Lemma greedy_sweep g p : well_formed false g -> greedy_multicolouring dbg g = Ok p -> (exists u v, edge g u v) ->
    exists c, (forall u v, edge g u v -> c u <> c v) /\ (forall v, v < size_vertex g -> colour_rule g c v) /\
    forall a b x w, square_system (size_vertex g) a b -> length x = size_vertex g ->
      (forall u v e, u < size_vertex g -> v < size_vertex g -> stored a (nth u p 0) (nth v p 0) e -> u = v \/ edge g u v) ->
      forall l, is_perm (size_vertex g) l -> StronglySorted (fun u v => c u <= c v) l ->
        forM (map (fun u => nth u p 0) l) (sweep_row O dbg stray a None b w) x = forward_sweep O dbg stray a None x b w.
  Proof using.
    intros Hw Ep He. destruct (greedy_spec dbg g Hw He) as (p' & c & Ep' & Hp & _ & Hc & Hord & Hrule).
    rewrite Ep in Ep'. injection Ep' as <-. exists c. split; [exact Hc|]. split; [exact Hrule|]. intros a b x w Hs Hx Hpat l Hl Hso.
    set (n := size_vertex g) in *.
    set (c' := fun i => c (pos i p)).
    assert (Hpos : forall u, u < n -> pos (nth u p 0) p = u).
    { intros u Hu. apply (perm_inj n p); auto; [apply (perm_pos n p _ Hp), (perm_bound n p u Hp Hu)|].
      apply (perm_pos n p _ Hp), (perm_bound n p u Hp Hu). }
    destruct (colour_order n a b x w c' (map (fun u => nth u p 0) l) (seq 0 n) Hs Hx) as (x' & E & E' & _).
    - intros i j v Hi Hst Hne. destruct Hs as (Hswf & Hr & Hcs & _).
      assert (Hj : j < n).
      { destruct Hswf as (rs & Hrs & Hok). pose proof (proj1 (srepr_stored _ _ _ _ _ Hrs) Hst) as Hin.
        destruct (Hok i) as [_ Hlt]; [rewrite (srepr_rows _ _ Hrs) in Hr; lia|]. rewrite Hcs in Hlt. apply Hlt. apply (in_map fst) in Hin. exact Hin. }
      destruct (perm_onto _ _ i Hp Hi) as (u & Hu & <-). destruct (perm_onto _ _ j Hp Hj) as (v' & Hv & <-).
      unfold c'. rewrite !Hpos by auto. destruct (Hpat u v' v Hu Hv Hst) as [->|Hed]; [contradiction|]. apply Hc, Hed.
    - apply (compose_perm n l p Hl Hp).
    - apply Permutation_refl.
    - assert (Hb : forall u, In u l -> u < n) by (intros u Hu; apply (Permutation_in u Hl), in_seq in Hu; lia).
      clear Hl. induction Hso as [|u l Hso IH Hall]; cbn [map]; constructor.
      + apply IH. intros; apply Hb; simpl; auto.
      + rewrite Forall_forall in *. intros j Hj. apply in_map_iff in Hj as (v & <- & Hv). unfold c'.
        rewrite !Hpos by (apply Hb; simpl; auto). auto.
    - apply seq_sorted. intros i j _ Hij Hj. cbn [Nat.add] in Hj. unfold c'.
      destruct (perm_onto _ _ i Hp ltac:(lia)) as (u & Hu & Eu). destruct (perm_onto _ _ j Hp ltac:(lia)) as (v & Hv & Ev).
      rewrite <- Eu, <- Ev, !Hpos by auto. destruct (Nat.le_gt_cases (c u) (c v)) as [L|L]; [exact L|].
      assert (nth v p 0 < nth u p 0) by (apply Hord; auto; left; exact L). lia.
    - unfold forward_sweep, FOR. destruct Hs as (_ & -> & _). rewrite E, E'. reflexivity.
  Qed.
End Colours.

(* ------------------------------------------------------------------ renumbered systems *)
(** Equation and unknown [i] of one system are equation and unknown [p i] of the other. *)
Definition renumbered {V : Type} (n : nat) (p : list nat) (f f' : nat -> V) : Prop :=
  forall i, i < n -> f' (nth i p 0) = f i.

Definition renumbered_matrix {V : Type} (n : nat) (p : list nat) (A A' : nat -> nat -> V) : Prop :=
  forall i j, i < n -> j < n -> A' (nth i p 0) (nth j p 0) = A i j.

Section Renumber.
  Context {S : Type}.
  Variables (O : sops S) (opp inv : S -> S) (dbg : bool) (stray : option nat).
  Notation "0" := (sc_zero O). Notation "1" := (sc_one O).
  Notation "x + y" := (sc_add O x y). Notation "x * y" := (sc_mul O x y).
  Notation "x - y" := (sc_sub O x y). Notation "x / y" := (sc_div O x y).
  Hypothesis Fth : field_theory 0 1 (sc_add O) (sc_mul O) (sc_sub O) opp (sc_div O) inv eq.
  Add Field SField117 : Fth.
  Notation sum := (asum 0 (sc_add O)).

  Lemma sum_list n (F : nat -> S) : sum n F = fold_right (sc_add O) 0 (map F (seq 0%nat n)).
  Proof using Fth.
    induction n as [|n IH]; [reflexivity|]. rewrite seq_S, map_app. cbn [asum Nat.add map]. rewrite IH.
    generalize (map F (seq 0%nat n)). intros l. induction l as [|y l IHl]; cbn [fold_right app]; [ring|].
    rewrite <- IHl. ring.
  Qed.

  Lemma sum_perm n p (F : nat -> S) : is_perm n p -> sum n (fun i => F (nth i p 0%nat)) = sum n F.
  Proof using Fth.
    intros Hp. rewrite !sum_list. rewrite <- (map_map (fun i => nth i p 0%nat) F).
    rewrite <- (perm_length n p Hp) at 1. rewrite map_nth_seq. apply (Permutation_map F) in Hp. revert Hp.
    generalize (map F p) (map F (seq 0%nat n)). intros l l' Hp.
    induction Hp; cbn [fold_right]; [reflexivity|congruence|ring|congruence].
  Qed.

  Lemma relaxed_renumber n p A A' h h' w i f f' : is_perm n p -> (i < n)%nat ->
    renumbered_matrix n p A A' -> renumbered n p h h' -> renumbered n p f f' ->
    relaxed O n A' h' w (nth i p 0%nat) f' = relaxed O n A h w i f.
  Proof using Fth.
    intros Hp Hi HA Hh Hf. unfold relaxed. rewrite (HA i i Hi Hi), (Hh i Hi), (Hf i Hi).
    rewrite <- (sum_perm n p _ Hp). do 4 f_equal. apply asum_ext. intros j Hj.
    rewrite (HA i j Hi Hj), (Hf j Hj).
    destruct (Nat.eqb_spec (nth j p 0%nat) (nth i p 0%nat)) as [E|E].
    - apply (perm_inj n p) in E; auto. rewrite E, Nat.eqb_refl. reflexivity.
    - destruct (Nat.eqb_spec j i) as [->|]; [contradiction|reflexivity].
  Qed.

  Lemma renumbered_back n p (f f' : nat -> S) : is_perm n p -> renumbered n p f f' ->
    forall k, (k < n)%nat -> f' k = f (pos k p).
  Proof using. intros Hp H k Hk. destruct (perm_pos n p k Hp Hk) as [H1 H2]. rewrite <- (H _ H1), H2. reflexivity. Qed.

  (** The rows of the one system in any order, the rows of the other in the corresponding order. *)
  Lemma rows_renumber n p a A a' A' b h b' h' w : is_perm n p ->
    sparse_square 0 n a A -> sparse_square 0 n a' A' -> is_vec n b h -> is_vec n b' h' ->
    (forall i, (i < n)%nat -> A i i <> 0) -> renumbered_matrix n p A A' -> renumbered n p h h' ->
    forall l x f x' f', Forall (fun i => (i < n)%nat) l -> is_vec n x f -> is_vec n x' f' -> renumbered n p f f' ->
    exists y z y' z', forM l (sweep_row O dbg stray a None b w) x = Ok y /\
      forM (map (fun i => nth i p 0%nat) l) (sweep_row O dbg stray a' None b' w) x' = Ok y' /\
      is_vec n y z /\ is_vec n y' z' /\ renumbered n p z z'.
  Proof using Fth.
    intros Hp Ha Ha' Hb Hb' Hd HA Hh.
    assert (Hd' : forall i, (i < n)%nat -> A' i i <> 0).
    { intros i Hi. destruct (perm_onto n p i Hp Hi) as (u & Hu & <-). rewrite (HA u u Hu Hu). auto. }
    destruct (field_rows O opp inv dbg stray Fth n a A b h Ha Hb Hd) as (rs & d & HR & Hv).
    destruct (field_rows O opp inv dbg stray Fth n a' A' b' h' Ha' Hb' Hd') as (rs' & d' & HR' & Hv').
    induction l as [|i l IH]; intros x f x' f' Hl Hx Hx' Hf; [exists x, f, x', f'; auto|].
    inversion_clear Hl as [|? ? Hi Hl']. cbn [forM map].
    rewrite (sweep_row_ok O dbg stray n a b rs d h None x f w i HR Hx Hi).
    pose proof (perm_bound n p i Hp Hi) as Hi'.
    rewrite (sweep_row_ok O dbg stray n a' b' rs' d' h' None x' f' w (nth i p 0%nat) HR' Hx' Hi').
    fold (swept O rs d h w i f). fold (swept O rs' d' h' w (nth i p 0%nat) f').
    rewrite Hv, Hv' by auto. rewrite (relaxed_renumber n p A A' h h' w i f f') by auto.
    set (t := relaxed O n A h w i f).
    destruct (is_vec_set n x f i t Hx Hi) as (u & E & Hu). destruct (is_vec_set n x' f' (nth i p 0%nat) t Hx' Hi') as (u' & E' & Hu').
    rewrite E, E'. cbn [bind]. apply (IH u _ u' _ Hl' Hu Hu'). intros j Hj.
    destruct (Nat.eqb_spec (nth j p 0%nat) (nth i p 0%nat)) as [Q|Q].
    - apply (perm_inj n p) in Q; auto. rewrite Q, Nat.eqb_refl. reflexivity.
    - destruct (Nat.eqb_spec j i) as [->|]; [contradiction|]. apply Hf, Hj.
  Qed.

  (** A step of the Jacobi solver, any number of times. *)
  Lemma jacobi_renumber n p a A a' A' b h b' h' : is_perm n p ->
    sparse_square 0 n a A -> sparse_square 0 n a' A' -> is_vec n b h -> is_vec n b' h' ->
    (forall i, (i < n)%nat -> A i i <> 0) -> renumbered_matrix n p A A' -> renumbered n p h h' ->
    forall x f x' f' u u', is_vec n x f -> is_vec n x' f' -> renumbered n p f f' -> length u = n -> length u' = n ->
    forall k, exists y z y' z' t t', times (jacobi_step O dbg stray a b) k (x, u) = Ok (y, t) /\
      times (jacobi_step O dbg stray a' b') k (x', u') = Ok (y', t') /\
      is_vec n y z /\ is_vec n y' z' /\ renumbered n p z z' /\ length t = n /\ length t' = n.
  Proof using Fth.
    intros Hp Ha Ha' Hb Hb' Hd HA Hh x f x' f' u u' Hx Hx' Hf Hu Hu'.
    assert (Hd' : forall i, (i < n)%nat -> A' i i <> 0).
    { intros i Hi. destruct (perm_onto n p i Hp Hi) as (v & Hv & <-). rewrite (HA v v Hv Hv). auto. }
    destruct (field_rows O opp inv dbg stray Fth n a A b h Ha Hb Hd) as (rs & d & HR & Hv).
    destruct (field_rows O opp inv dbg stray Fth n a' A' b' h' Ha' Hb' Hd') as (rs' & d' & HR' & Hv').
    induction k as [|k IH]; [exists x, f, x', f', u, u'; cbn [times]; auto 10|].
    destruct IH as (y & z & y' & z' & t & t' & E & E' & Vy & Vy' & Hz & Ht & Ht'). cbn [times]. rewrite E, E'. cbn [bind].
    unfold jacobi_step. cbn [fst snd].
    destruct (jacobi_sweep_ok O dbg stray n a b rs d h y t z 1 HR Vy Ht) as (v & -> & Vv).
    destruct (jacobi_sweep_ok O dbg stray n a' b' rs' d' h' y' t' z' 1 HR' Vy' Ht') as (v' & -> & Vv'). cbn [bind].
    exists v, (fun i => swept O rs d h 1 i z), v', (fun i => swept O rs' d' h' 1 i z'), y, y'.
    split; [reflexivity|]. split; [reflexivity|]. split; [exact Vv|]. split; [exact Vv'|].
    split; [|split; [apply Vy|apply Vy']]. intros i Hi. rewrite Hv, Hv' by (auto; apply (perm_bound n p i Hp Hi)).
    apply relaxed_renumber; auto.
  Qed.

  Lemma map_inverse n p : is_perm n p -> map (fun i => nth i p 0%nat) (map (fun k => pos k p) (seq 0%nat n)) = seq 0%nat n.
  Proof using.
    clear. intros Hp. rewrite map_map. rewrite <- (map_id (seq 0%nat n)) at 2. apply map_ext_in. intros k Hk.
    apply in_seq in Hk. apply (perm_pos n p k Hp). lia.
  Qed.

  (** A sweep in place of the renumbered system visits the rows of the first one in the order of their new numbers. *)
  Lemma seidel_renumber n p a A a' A' b h b' h' w x f x' f' : is_perm n p ->
    sparse_square 0 n a A -> sparse_square 0 n a' A' -> is_vec n b h -> is_vec n b' h' ->
    (forall i, (i < n)%nat -> A i i <> 0) -> renumbered_matrix n p A A' -> renumbered n p h h' ->
    is_vec n x f -> is_vec n x' f' -> renumbered n p f f' ->
    exists y z y' z' l, is_perm n l /\ (forall k, (k < n)%nat -> nth (nth k l 0%nat) p 0%nat = k) /\
      forM l (sweep_row O dbg stray a None b w) x = Ok y /\
      forward_sweep O dbg stray a' None x' b' w = Ok y' /\
      is_vec n y z /\ is_vec n y' z' /\ renumbered n p z z'.
  Proof using Fth.
    intros Hp Ha Ha' Hb Hb' Hd HA Hh Hx Hx' Hf.
    set (l := map (fun k => pos k p) (seq 0%nat n)).
    assert (Hln : forall k, (k < n)%nat -> nth k l 0%nat = pos k p).
    { intros k Hk. unfold l. rewrite (nth_indep _ _ (pos 0%nat p)) by (rewrite map_length, seq_length; exact Hk).
      rewrite (map_nth (fun k => pos k p)), seq_nth by exact Hk. reflexivity. }
    assert (Hl : is_perm n l).
    { apply perm_intro; [unfold l; rewrite map_length, seq_length; reflexivity| |].
      - apply (NoDup_map_inv (fun i => nth i p 0%nat)). unfold l. rewrite (map_inverse n p Hp). apply seq_NoDup.
      - intros k Hk. unfold l in Hk. apply in_map_iff in Hk as (j & <- & Hj). apply in_seq in Hj. apply (perm_pos n p j Hp). lia. }
    destruct (rows_renumber n p a A a' A' b h b' h' w Hp Ha Ha' Hb Hb' Hd HA Hh l x f x' f') as (y & z & y' & z' & E & E' & Vy & Vy' & Hz); auto.
    { apply Forall_forall. intros k Hk. apply (Permutation_in k Hl), in_seq in Hk. lia. }
    exists y, z, y', z', l. split; [exact Hl|]. split; [intros k Hk; rewrite Hln by exact Hk; apply (perm_pos n p k Hp Hk)|].
    split; [exact E|]. split; [|auto]. unfold l in E'. rewrite (map_inverse n p Hp) in E'.
    unfold forward_sweep, FOR. destruct Ha' as (_ & -> & _). exact E'.
  Qed.

  (** The descending sweep is the ascending one of the mirrored system. *)
  Lemma seidel_mirror n a A a' A' b h b' h' w x f x' f' :
    sparse_square 0 n a A -> sparse_square 0 n a' A' -> is_vec n b h -> is_vec n b' h' ->
    (forall i, (i < n)%nat -> A i i <> 0) ->
    (forall i j, (i < n)%nat -> (j < n)%nat -> A' i j = A (n - 1 - i)%nat (n - 1 - j)%nat) ->
    (forall i, (i < n)%nat -> h' i = h (n - 1 - i)%nat) ->
    is_vec n x f -> is_vec n x' f' -> (forall i, (i < n)%nat -> f' i = f (n - 1 - i)%nat) ->
    exists y, backward_sweep O dbg stray a None x b w = Ok y /\ forward_sweep O dbg stray a' None x' b' w = Ok (rev y).
  Proof using Fth.
    intros Ha Ha' Hb Hb' Hd HA Hh Hx Hx' Hf. set (p := rev (seq 0%nat n)).
    assert (Hp : is_perm n p) by (apply Permutation_sym, Permutation_rev).
    assert (Hpn : forall i, (i < n)%nat -> nth i p 0%nat = (n - 1 - i)%nat).
    { intros i Hi. unfold p. rewrite rev_nth by (rewrite seq_length; exact Hi). rewrite seq_length, seq_nth by lia. lia. }
    assert (Hm : forall i, (i < n)%nat -> (n - 1 - (n - 1 - i) = i)%nat) by (intros; lia).
    destruct (rows_renumber n p a A a' A' b h b' h' w Hp Ha Ha' Hb Hb' Hd) with (l := rev (seq 0%nat n)) (x := x) (f := f) (x' := x') (f' := f')
      as (y & z & y' & z' & E & E' & Vy & Vy' & Hz); auto.
    - intros i j Hi Hj. rewrite !Hpn by auto. rewrite HA by lia. rewrite !Hm by auto. reflexivity.
    - intros i Hi. rewrite Hpn by auto. rewrite Hh by lia. rewrite Hm by auto. reflexivity.
    - apply Forall_forall. intros k Hk. rewrite <- in_rev in Hk. apply in_seq in Hk. lia.
    - intros i Hi. rewrite Hpn by auto. rewrite Hf by lia. rewrite Hm by auto. reflexivity.
    - exists y. split.
      + unfold backward_sweep. destruct Ha as (_ & -> & _). exact E.
      + unfold forward_sweep, FOR. destruct Ha' as (_ & -> & _).
        replace (seq 0%nat n) with (map (fun i => nth i p 0%nat) (rev (seq 0%nat n))).
        * rewrite E'. f_equal. apply (is_vec_eq n _ _ z' (fun i => z (n - 1 - i)%nat) Vy').
          -- destruct Vy as [Ly Vy]. split; [rewrite rev_length; exact Ly|]. intros i Hi.
             rewrite (nth_error_nth' (rev y) 0) by (rewrite rev_length; lia). rewrite rev_nth by lia.
             rewrite <- (nth_error_nth' y 0) by lia. rewrite Ly. replace (n - Datatypes.S i)%nat with (n - 1 - i)%nat by lia. apply Vy. lia.
          -- intros i Hi. rewrite <- (Hz (n - 1 - i)%nat) by lia. rewrite Hpn by lia. rewrite Hm by auto. reflexivity.
        * rewrite map_rev. transitivity (rev (map (fun i => n - 1 - i)%nat (seq 0%nat n))).
          -- f_equal. apply map_ext_in. intros k Hk. apply in_seq in Hk. apply Hpn. lia.
          -- change (map (fun i => (n - 1 - i)%nat) (seq 0%nat n)) with (map (fun i => (n - 1 - i)%nat) (seq 0%nat n)).
             assert (EQ : p = map (fun i => (n - 1 - i)%nat) (seq 0%nat n)).
             { transitivity (map (fun i => nth i p 0%nat) (seq 0%nat n)).
               - rewrite <- (perm_length n p Hp). symmetry. apply map_nth_seq.
               - apply map_ext_in. intros k Hk. apply in_seq in Hk. apply Hpn. lia. }
             rewrite <- EQ. apply rev_involutive.
  Qed.
End Renumber.

(* ------------------------------------------------------------------ examples *)
(** Unknowns 0 and 1 both coupled to 2 only. *)
Definition vee : smat f64 := mkS [0; 2; 4; 7] [0; 2; 1; 2; 0; 1; 2] [fz 4; fz 1; fz 5; fz 1; fz 1; fz 2; fz 3] 3.

Lemma vee_system : square_system 3 vee [fz 1; fz 2; fz 3].
Proof.
  split.
  - exists [[(0, fz 4); (2, fz 1)]; [(1, fz 5); (2, fz 1)]; [(0, fz 1); (1, fz 2); (2, fz 3)]]. split.
    + split; [left; reflexivity|]. split; reflexivity.
    + intros [|[|[|i]]] Hi; cbn in Hi; try lia; cbn; (split; [repeat constructor|]); intros j Hj;
        repeat destruct Hj as [<-|Hj]; try lia; destruct Hj.
  - split; [reflexivity|]. split; [reflexivity|]. split; [reflexivity|]. intros [|[|[|i]]] Hi; try lia.
    + exists (fz 4). split; [cbn; lia|]. exists 0. split; [cbn; lia|]. split; reflexivity.
    + exists (fz 5). split; [cbn; lia|]. exists 2. split; [cbn; lia|]. split; reflexivity.
    + exists (fz 3). split; [cbn; lia|]. exists 6. split; [cbn; lia|]. split; reflexivity.
Qed.

Lemma vee_stored i j v : stored vee i j v -> j = i \/ (i < 2 /\ j = 2) \/ (i = 2 /\ j < 2).
Proof.
  intros (Hi & k & Hk & Hc & _). change (s_rows vee) with 3 in Hi.
  destruct i as [|[|[|i]]]; [| | |lia]; cbn in Hk;
    do 7 (destruct k as [|k]; [first [lia|injection Hc as <-; lia]|]); lia.
Qed.

(** The two numberings of a system of two equations: x + y = 1, x + 2 y = 1 from (0, 0). *)
Lemma q_run (r : res (list Qc)) (l : list Q) : match r with Ok z => map this z = l | _ => False end ->
  exists z, r = Ok z /\ map this z = l.
Proof. destruct r; intros H; try destruct H. eauto. Qed.

Lemma seidel_numbering_matters :
  let A := fun i j => lookup (q 0) (nth i (two_rows (q 1) (q 1) (q 1) (q 2)) []) j in
  let A' := fun i j => lookup (q 0) (nth i (two_rows (q 2) (q 1) (q 1) (q 1)) []) j in
  renumbered_matrix 2 [1; 0] A A' /\
  (exists z, forward_sweep qops true None (two (q 1) (q 1) (q 1) (q 2)) None [q 0; q 0] [q 1; q 1] (q 1) = Ok z /\
     map this z = [1 # 1; 0 # 1]%Q) /\
  (exists z, forward_sweep qops true None (two (q 2) (q 1) (q 1) (q 1)) None [q 0; q 0] [q 1; q 1] (q 1) = Ok z /\
     map this z = [1 # 2; 1 # 2]%Q).
Proof.
  cbv zeta. split; [|split].
  - intros [|[|i]] [|[|j]] Hi Hj; try lia; reflexivity.
  - apply q_run. vm_compute. reflexivity.
  - apply q_run. vm_compute. reflexivity.
Qed.
