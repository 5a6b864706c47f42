(** The loops of the direct solver, for scalars without any laws. *)
From Coq Require Import ZArith.
From Verif Require Import Base ListFacts DenseModel DenseFacts ScalarModel LuModel.

Lemma forM_seq_inv {T} (P : nat -> T -> Prop) lo len (f : nat -> T -> res T) s :
  P lo s ->
  (forall i s, lo <= i < lo + len -> P i s -> exists s', f i s = Ok s' /\ P (i + 1) s') ->
  exists s', forM (seq lo len) f s = Ok s' /\ P (lo + len) s'.
Proof.
  revert lo s. induction len as [|len IH]; intros lo s H0 Hs; cbn [seq forM].
  - exists s. rewrite Nat.add_0_r. auto.
  - destruct (Hs lo s ltac:(lia) H0) as (s1 & -> & H1). cbn [bind].
    rewrite Nat.add_1_r in H1.
    destruct (IH (S lo) s1 H1) as (s2 & E & H2); [intros; apply Hs; auto; lia|].
    exists s2. split; auto. replace (lo + S len) with (S lo + len) by lia. exact H2.
Qed.

(** The same downwards. *)
Lemma forM_rev_inv {T} (P : nat -> T -> Prop) n (f : nat -> T -> res T) s :
  P n s ->
  (forall i s, i < n -> P (S i) s -> exists s', f i s = Ok s' /\ P i s') ->
  exists s', forM (rev (seq 0 n)) f s = Ok s' /\ P 0 s'.
Proof.
  revert s. induction n as [|n IH]; intros s H0 Hs; [exists s; auto|].
  rewrite seq_S, rev_app_distr. cbn [rev app forM Nat.add].
  destruct (Hs n s ltac:(lia) H0) as (s1 & -> & H1). cbn [bind]. apply IH; auto.
Qed.

(** Transposition of two rows. *)
Definition transpose (i j k : nat) : nat := if k =? i then j else if k =? j then i else k.

Lemma transpose_lt i j k n : i < n -> j < n -> k < n -> transpose i j k < n.
Proof. unfold transpose. destruct (k =? i), (k =? j); auto. Qed.

Lemma transpose_invol i j k : transpose i j (transpose i j k) = k.
Proof.
  unfold transpose. destruct (Nat.eqb_spec k i) as [->|].
  - rewrite Nat.eqb_refl. destruct (Nat.eqb_spec j i); auto.
  - destruct (Nat.eqb_spec k j) as [->|]; [rewrite Nat.eqb_refl; auto|].
    destruct (Nat.eqb_spec k i); [lia|]. destruct (Nat.eqb_spec k j); [lia|auto].
Qed.

Lemma transpose_below i j k : k < i -> k < j -> transpose i j k = k.
Proof. unfold transpose. intros. destruct (Nat.eqb_spec k i); [lia|]. destruct (Nat.eqb_spec k j); [lia|auto]. Qed.

Lemma vswap_nth {A} (l : list A) i j : i < length l -> j < length l ->
  exists l', vswap l i j = Ok l' /\ length l' = length l /\
    forall k, nth_error l' k = nth_error l (transpose i j k).
Proof.
  intros Hi Hj. unfold vswap.
  destruct (nth_error l i) as [x|] eqn:Ex; [|apply nth_error_None in Ex; lia].
  destruct (nth_error l j) as [y|] eqn:Ey; [|apply nth_error_None in Ey; lia].
  rewrite (proj2 (vget_Ok _ _ _) Ex), (proj2 (vget_Ok _ _ _) Ey). cbn [bind]. rewrite (vset_lt l i y) by auto. cbn [bind].
  rewrite vset_lt by (rewrite upd_length; auto). eexists. split; [reflexivity|].
  split; [rewrite !upd_length; rewrite ?upd_length; auto|].
  intro k. rewrite nth_error_upd by (rewrite upd_length; auto). unfold transpose.
  destruct (Nat.eqb_spec k j) as [->|Hkj].
  - destruct (Nat.eqb_spec j i) as [->|]; auto.
  - rewrite nth_error_upd by auto. destruct (Nat.eqb_spec k i); auto.
Qed.

Lemma vswap_vec {A} n (l : list A) f i j : is_vec n l f -> i < n -> j < n ->
  exists l', vswap l i j = Ok l' /\ is_vec n l' (fun k => f (transpose i j k)).
Proof.
  intros [L H] Hi Hj. destruct (vswap_nth l i j) as (l' & E & L' & H'); try lia.
  exists l'. split; auto. split; [lia|]. intros k Hk. rewrite H'. apply H, transpose_lt; auto.
Qed.

Lemma vswap_mat {A} n c (m : list (list A)) g i j : is_mat n c m g -> i < n -> j < n ->
  exists m', vswap m i j = Ok m' /\ is_mat n c m' (fun a b => g (transpose i j a) b).
Proof.
  intros [L H] Hi Hj. destruct (vswap_nth m i j) as (m' & E & L' & H'); try lia.
  exists m'. split; auto. split; [lia|]. intros k Hk. rewrite H'. apply H, transpose_lt; auto.
Qed.

Section Facts.
  Context {S : Type}.
  Variables (O : sops S) (dbg pivot : bool).
  Implicit Types (m : list (list S)) (st : lu_state S) (g A : nat -> nat -> S).

  (** The default tolerances pass the assertions of is_nearly_equal. *)
  Definition tol_default : Prop := dbg = true ->
    sc_le O (sc_eps O) (default_relative O) = true /\ sc_le O (default_relative O) (sc_one O) = true.

  Lemma nearly_total u v : tol_default ->
    exists r, is_nearly_greater O dbg u v (default_relative O) (default_absolute O) = Ok r.
  Proof using.
    intro T. unfold is_nearly_greater, is_nearly_less_equal, is_nearly_equal.
    rewrite !assert_ok' by (intro D; apply T; exact D). cbn [bind].
    destruct (sc_lt O u v), (sc_eq O u v); eexists; reflexivity.
  Qed.

  Lemma search_ok n m g i : tol_default -> is_mat n n m g -> i < n ->
    exists k, lu_search O dbg m i = Ok k /\ i <= k < n.
  Proof using.
    clear pivot. intros T Hm Hi. unfold lu_search. rewrite (is_mat_cols _ _ _ _ Hm) by lia.
    destruct (forM_seq_inv (fun _ (s : S * nat) => i <= snd s < n) i (n - i)
      (fun i_sweep (s : S * nat) =>
         do e <- mget m i_sweep i;
         do gt <- is_nearly_greater O dbg (sc_abs O e) (fst s) (default_relative O) (default_absolute O);
         Ok (if gt then (sc_abs O e, i_sweep) else s)) (sc_zero O, i)) as (r & E & H).
    - cbn. lia.
    - intros k s Hk Hs. rewrite (is_mat_get _ _ _ _ _ _ Hm) by lia. cbn [bind].
      destruct (nearly_total (sc_abs O (g k i)) (fst s) T) as (r & ->). cbn [bind].
      eexists. split; [reflexivity|]. destruct r; cbn; lia.
    - rewrite E. cbn [bind]. eauto.
  Qed.

  (** One step of pivoting exchanges row [i] with a row below. *)
  Lemma pivot_ok n m g p s i : tol_default -> is_mat n n m g -> (pivot = true -> is_vec n p s) -> i < n ->
    exists k m' p', lu_pivot O dbg pivot m p i = Ok (m', p') /\ i <= k < n /\
      is_mat n n m' (fun a b => g (transpose i k a) b) /\
      (pivot = true -> is_vec n p' (fun a => s (transpose i k a))) /\
      (pivot = false -> k = i) /\ (pivot = true -> lu_search O dbg m i = Ok k).
  Proof using.
    intros T Hm Hp Hi. unfold lu_pivot. destruct pivot.
    - destruct (search_ok n m g i T Hm Hi) as (k & Es & Hk). rewrite Es. cbn [bind]. exists k.
      assert (Tid : forall a, transpose i i a = a).
      { intro a. unfold transpose. destruct (Nat.eqb_spec a i); auto. }
      destruct (Nat.eqb_spec k i) as [->|Hne].
      + do 2 eexists. split; [reflexivity|]. split; auto. split; [|split; [|split; [discriminate|auto]]].
        * apply (is_mat_ext _ _ _ _ _ Hm). intros. rewrite Tid. reflexivity.
        * intro. apply (is_vec_ext _ _ _ _ (Hp eq_refl)). intros. rewrite Tid. reflexivity.
      + destruct (vswap_vec n p s i k (Hp eq_refl)) as (p' & -> & Hp'); try lia. cbn [bind].
        destruct (vswap_mat n n m g i k Hm) as (m' & -> & Hm'); try lia. cbn [bind].
        do 2 eexists. split; [reflexivity|]. split; auto. split; auto. split; auto. split; [discriminate|auto].
    - exists i. do 2 eexists. split; [reflexivity|]. split; auto.
      split; [|split; [discriminate|split; [auto|discriminate]]].
      apply (is_mat_ext _ _ _ _ _ Hm). intros. unfold transpose. destruct (Nat.eqb_spec i0 i); subst; auto.
  Qed.

  (** The row operation. *)
  Definition elim_row g (i a b : nat) : S :=
    if b <? i then g a b
    else if b =? i then sc_div O (g a i) (g i i)
    else sc_sub O (g a b) (sc_mul O (sc_div O (g a i) (g i i)) (g i b)).

  Lemma eliminate_row_ok n m g i s : is_mat n n m g -> i < s < n ->
    exists m', lu_eliminate_row O m i s = Ok m' /\
      is_mat n n m' (fun a b => if a =? s then elim_row g i a b else g a b).
  Proof using.
    clear dbg pivot. intros Hm Hs. unfold lu_eliminate_row.
    rewrite !(is_mat_get _ _ _ _ _ _ Hm) by lia. cbn [bind].
    set (q := sc_div O (g s i) (g i i)).
    destruct (is_mat_set n n m g s i q Hm) as (m1 & -> & Hm1); try lia. cbn [bind].
    rewrite (is_mat_cols _ _ _ _ Hm1) by lia.
    destruct (forM_seq_inv (fun j m' => is_mat n n m' (fun a b =>
        if a =? s then (if b <? i then g a b else if b =? i then q
                        else if b <? j then sc_sub O (g a b) (sc_mul O q (g i b)) else g a b) else g a b))
      (i + 1) (n - (i + 1)) (fun j m =>
      do v <- mget m s j;
      do l <- mget m s i;
      do u <- mget m i j;
      mset m s j (sc_sub O v (sc_mul O l u))) m1) as (m2 & E & H2).
    - apply (is_mat_ext _ _ _ _ _ Hm1). intros a b Ha Hb. destruct (Nat.eqb_spec a s) as [->|]; cbn [andb]; auto.
      destruct (Nat.ltb_spec b i), (Nat.eqb_spec b i), (Nat.ltb_spec b (i + 1)); auto; lia.
    - intros j m' Hj H'. rewrite !(is_mat_get _ _ _ _ _ _ H') by lia. cbn [bind].
      rewrite !Nat.eqb_refl. destruct (Nat.eqb_spec i s); [lia|].
      destruct (Nat.ltb_spec j i); [lia|]. destruct (Nat.eqb_spec j i); [lia|].
      destruct (Nat.ltb_spec j j); [lia|]. destruct (Nat.ltb_spec i i); [lia|].
      destruct (is_mat_set n n m' _ s j (sc_sub O (g s j) (sc_mul O q (g i j))) H') as (m3 & E3 & H3); try lia.
      exists m3. split; [exact E3|]. apply (is_mat_ext _ _ _ _ _ H3). intros a b Ha Hb.
      destruct (Nat.eqb_spec a s) as [->|]; cbn [andb]; auto.
      destruct (Nat.eqb_spec b j) as [->|].
      + destruct (Nat.ltb_spec j i); [lia|]. destruct (Nat.eqb_spec j i); [lia|].
        destruct (Nat.ltb_spec j (j + 1)); [auto|lia].
      + destruct (Nat.ltb_spec b j), (Nat.ltb_spec b (j + 1)); auto; lia.
    - exists m2. split; [exact E|]. apply (is_mat_ext _ _ _ _ _ H2). intros a b Ha Hb.
      destruct (Nat.eqb_spec a s) as [->|]; auto. unfold elim_row. fold q.
      destruct (Nat.ltb_spec b i), (Nat.eqb_spec b i), (Nat.ltb_spec b (i + 1 + (n - (i + 1)))); auto; lia.
  Qed.

  Lemma eliminate_ok n m g i : is_mat n n m g -> i < n ->
    exists m', lu_eliminate O m i = Ok m' /\
      is_mat n n m' (fun a b => if i <? a then elim_row g i a b else g a b).
  Proof using.
    clear dbg pivot. intros Hm Hi. unfold lu_eliminate. rewrite (is_mat_rows _ _ _ _ Hm).
    destruct (forM_seq_inv (fun s m' => is_mat n n m' (fun a b =>
        if (i <? a) && (a <? s) then elim_row g i a b else g a b))
      (i + 1) (n - (i + 1)) (fun s m => lu_eliminate_row O m i s) m) as (m' & E & H).
    - apply (is_mat_ext _ _ _ _ _ Hm). intros a b _ _.
      destruct (Nat.ltb_spec i a), (Nat.ltb_spec a (i + 1)); auto; lia.
    - intros s m' Hs H'. destruct (eliminate_row_ok n m' _ i s H') as (m2 & E2 & H2); [lia|].
      exists m2. split; auto. apply (is_mat_ext _ _ _ _ _ H2). intros a b _ _. unfold elim_row.
      destruct (Nat.ltb_spec i i); [lia|]. cbn [andb].
      destruct (Nat.eqb_spec a s) as [->|].
      + destruct (Nat.ltb_spec s s); [lia|]. rewrite andb_false_r.
        destruct (Nat.ltb_spec i s), (Nat.ltb_spec s (s + 1)); auto; lia.
      + destruct (Nat.ltb_spec i a), (Nat.ltb_spec a s), (Nat.ltb_spec a (s + 1)); auto; lia.
    - exists m'. split; [exact E|]. apply (is_mat_ext _ _ _ _ _ H). intros a b Ha _.
      destruct (Nat.ltb_spec i a), (Nat.ltb_spec a (i + 1 + (n - (i + 1)))); auto; lia.
  Qed.

  (** factorise, for an arbitrary relation [Inv k s g] between the number of rounds done, the row order and
      the matrix, and a property [Pick g i j] of the row [j] the search picks for row [i]. *)
  Lemma factorise_inv n st a A (Inv : nat -> (nat -> nat) -> (nat -> nat -> S) -> Prop)
      (Pick : (nat -> nat -> S) -> nat -> nat -> Prop) :
    tol_default -> is_mat n n a A ->
    (forall m g i j, is_mat n n m g -> i < n -> lu_search O dbg m i = Ok j -> Pick g i j) ->
    Inv 0 (fun k => k) A ->
    (forall i j s g, i <= j < n -> (pivot = false -> j = i) -> (pivot = true -> Pick g i j) -> Inv i s g ->
       sc_lt O (sc_abs O (g j i)) (lu_tolerance st) = false ->
       Inv (i + 1) (fun k => s (transpose i j k))
         (fun r c => if i <? r then elim_row (fun a b => g (transpose i j a) b) i r c
                     else g (transpose i j r) c)) ->
    exists st' ok, factorise O dbg pivot st a = Ok (st', ok) /\ lu_factorised st' = ok /\
      lu_tolerance st' = lu_tolerance st /\
      exists s g, is_mat n n (lu_matrix st') g /\ (pivot = true -> is_vec n (lu_pivots st') s) /\
        (pivot = false -> forall k, s k = k) /\
        (ok = true -> Inv n s g).
  Proof using.
    intros T Ha HP H0 Hstep. unfold factorise. rewrite (is_mat_rows _ _ _ _ Ha).
    destruct (FOR_inv (fun i (r : bool * list (list S) * list nat) => let '(go, m, p) := r in
        exists s g, is_mat n n m g /\ (pivot = true -> is_vec n p s) /\ (pivot = false -> forall k, s k = k) /\
          (go = true -> Inv i s g))
      n (lu_round O dbg pivot (lu_tolerance st)) (true, a, if pivot then seq 0 (m_cols a) else lu_pivots st))
      as (r & E & H).
    - exists (fun k => k), A. split; auto. split; [|split; auto]. intros ->.
      rewrite (shape_cols _ _ _ _ Ha) by auto. split; [apply seq_length|]. intros i Hi.
      rewrite (nth_error_nth' _ 0) by (rewrite seq_length; auto). rewrite seq_nth by auto. reflexivity.
    - intros i [[go m] p] Hi (s & g & Hm & Hp & Hid & HI). unfold lu_round. destruct go.
      + destruct (pivot_ok n m g p s i T Hm Hp Hi) as (k & m1 & p1 & E1 & Hk & Hm1 & Hp1 & Hki & Hse).
        rewrite E1. cbn [bind]. rewrite (is_mat_get _ _ _ _ _ _ Hm1) by lia. cbn [bind].
        assert (Ti : transpose i k i = k) by (unfold transpose; rewrite Nat.eqb_refl; auto). rewrite Ti.
        destruct (sc_lt O (sc_abs O (g k i)) (lu_tolerance st)) eqn:El.
        * eexists. split; [reflexivity|]. exists (fun a => s (transpose i k a)). eexists. split; [exact Hm1|].
          split; auto. split; [|discriminate]. intros Hf a0. rewrite Hid, (Hki Hf) by auto.
          unfold transpose. destruct (Nat.eqb_spec a0 i); auto.
        * destruct (eliminate_ok n m1 _ i Hm1 Hi) as (m2 & -> & Hm2). cbn [bind].
          eexists. split; [reflexivity|]. do 2 eexists. split; [exact Hm2|]. split; [exact Hp1|]. split.
          -- intros Hf a0. rewrite Hid, (Hki Hf) by auto. unfold transpose. destruct (Nat.eqb_spec a0 i); auto.
          -- intros _. apply Hstep; auto. intro Ht. apply (HP m g i k); auto.
      + eexists. split; [reflexivity|]. exists s, g. repeat (split; auto). discriminate.
    - rewrite E. destruct r as [[ok m] p]. cbn [bind].
      destruct H as (s & g & Hm & Hp & Hid & HI). do 2 eexists. split; [reflexivity|]. cbn. split; auto.
      split; auto. exists s, g. auto.
  Qed.

  (** factorise never fails. *)
  Lemma factorise_total n st a A : tol_default -> is_mat n n a A ->
    exists st' ok, factorise O dbg pivot st a = Ok (st', ok) /\ lu_factorised st' = ok.
  Proof using.
    intros T Ha. destruct (factorise_inv n st a A (fun _ _ _ => True) (fun _ _ _ => True) T Ha)
      as (st' & ok & E & E' & _); eauto.
  Qed.

  (** Running difference: b - f 0 - f 1 ... - f (n - 1). *)
  Fixpoint rdiff (e : S) (n : nat) (f : nat -> S) : S :=
    match n with
    | 0 => e
    | Datatypes.S n => sc_sub O (rdiff e n f) (f n)
    end.

  Lemma rdiff_ext e n f h : (forall i, i < n -> f i = h i) -> rdiff e n f = rdiff e n h.
  Proof using.
    clear dbg pivot. induction n as [|n IH]; intro H; cbn [rdiff]; auto.
    rewrite IH, H by (intros; try apply H; lia). reflexivity.
  Qed.

  (** Forward substitution: the solution satisfies the triangular system. *)
  Lemma forward_ok n st g s (b : option (list S)) x0 x B : is_mat n n (lu_matrix st) g ->
    (pivot = true -> is_vec n (lu_pivots st) s) -> (pivot = false -> forall k, s k = k) ->
    (forall k, k < n -> s k < n) ->
    is_vec n x x0 ->
    match b with Some b => is_vec n b B | None => pivot = false /\ forall i, i < n -> B i = x0 i end ->
    exists x' y, lu_forward O pivot st b x = Ok x' /\ is_vec n x' y /\
      forall i, i < n -> y i = rdiff (B (s i)) i (fun j => sc_mul O (g i j) (y j)).
  Proof using.
    intros Hm Hp Hid Hs Hx Hb. unfold lu_forward. rewrite (is_mat_rows _ _ _ _ Hm).
    match goal with |- context[FOR n ?F x] =>
      destruct (FOR_inv (fun i x => exists y, is_vec n x y /\
        (forall k, i <= k -> y k = x0 k) /\
        forall k, k < i -> y k = rdiff (B (s k)) k (fun j => sc_mul O (g k j) (y j))) n F x) as (x' & E & H)
    end.
    - exists x0. split; auto. split; auto. intros; lia.
    - intros i u Hi (y & Hu & Hrest & Hy).
      assert (Ek : (if pivot then vget (lu_pivots st) i else Ok i) = Ok (s i)).
      { destruct pivot; [rewrite (is_vec_get _ _ _ _ (Hp eq_refl) Hi); auto|rewrite Hid; auto]. }
      rewrite Ek. cbn [bind].
      assert (Eb : vget (other_of u b) (s i) = Ok (B (s i))).
      { destruct b as [b|]; cbn [other_of].
        - apply (is_vec_get _ _ _ _ Hb). auto.
        - destruct Hb as [Hf Hb]. rewrite (is_vec_get _ _ _ _ Hu) by auto. rewrite Hid by auto.
          rewrite Hb, Hrest by auto. reflexivity. }
      rewrite Eb. cbn [bind].
      destruct (is_vec_set n u y i (B (s i)) Hu Hi) as (u1 & -> & Hu1). cbn [bind].
      destruct (FOR_inv (fun j x => is_vec n x (fun k => if k =? i
            then rdiff (B (s i)) j (fun j => sc_mul O (g i j) (y j)) else y k)) i
        (fun j x => do v <- vget x i; do l <- mget (lu_matrix st) i j; do y <- vget x j;
           vset x i (sc_sub O v (sc_mul O l y))) u1) as (u2 & E2 & Hu2).
      + exact Hu1.
      + intros j w Hj Hw. rewrite !(is_vec_get _ _ _ _ Hw), (is_mat_get _ _ _ _ _ _ Hm) by lia. cbn [bind].
        rewrite Nat.eqb_refl. destruct (Nat.eqb_spec j i); [lia|].
        destruct (is_vec_set n w _ i (sc_sub O (rdiff (B (s i)) j (fun j => sc_mul O (g i j) (y j)))
                    (sc_mul O (g i j) (y j))) Hw Hi) as (w' & E' & Hw').
        exists w'. split; auto. apply (is_vec_ext _ _ _ _ Hw'). intros k Hk.
        destruct (Nat.eqb_spec k i); auto. rewrite Nat.add_1_r. reflexivity.
      + exists u2. split; [exact E2|]. eexists. split; [exact Hu2|]. split.
        * intros k Hk. cbn. destruct (Nat.eqb_spec k i); [lia|]. apply Hrest. lia.
        * intros k Hk. cbn. destruct (Nat.eqb_spec k i) as [->|].
          -- apply rdiff_ext. intros j Hj. destruct (Nat.eqb_spec j i); [lia|auto].
          -- rewrite Hy by lia. apply rdiff_ext. intros j Hj. destruct (Nat.eqb_spec j i); [lia|auto].
    - destruct H as (y & Hx' & _ & Hy). exists x', y. auto.
  Qed.

  (** Backward substitution. *)
  Lemma backward_ok n st g x y : is_mat n n (lu_matrix st) g -> is_vec n x y ->
    exists x' z, lu_backward O st x = Ok x' /\ is_vec n x' z /\
      forall i, i < n ->
        z i = sc_div O (rdiff (y i) (n - (i + 1)) (fun k => sc_mul O (g i (i + 1 + k)) (z (i + 1 + k)))) (g i i).
  Proof using.
    clear dbg pivot. intros Hm Hx. unfold lu_backward. rewrite (is_mat_rows _ _ _ _ Hm).
    match goal with |- context[forM (rev (seq 0 n)) ?F x] =>
      destruct (forM_rev_inv (fun i x => exists z, is_vec n x z /\ (forall k, k < i -> z k = y k) /\
        forall k, i <= k < n ->
          z k = sc_div O (rdiff (y k) (n - (k + 1)) (fun t => sc_mul O (g k (k + 1 + t)) (z (k + 1 + t)))) (g k k))
        n F x) as (x' & E & H)
    end.
    - exists y. split; auto. split; auto. intros; lia.
    - intros i u Hi (z & Hu & Hrest & Hz).
      rewrite (is_mat_cols _ _ _ _ Hm) by lia.
      destruct (forM_seq_inv (fun j x => is_vec n x (fun k => if k =? i
            then rdiff (y i) (j - (i + 1)) (fun t => sc_mul O (g i (i + 1 + t)) (z (i + 1 + t))) else z k))
        (i + 1) (n - (i + 1)) (fun j x => do v <- vget x i; do u <- mget (lu_matrix st) i j; do y <- vget x j;
           vset x i (sc_sub O v (sc_mul O u y))) u) as (u2 & E2 & Hu2).
      + rewrite Nat.sub_diag. apply (is_vec_ext _ _ _ _ Hu). intros k Hk.
        destruct (Nat.eqb_spec k i) as [->|]; auto. apply Hrest. lia.
      + intros j w Hj Hw. rewrite !(is_vec_get _ _ _ _ Hw), (is_mat_get _ _ _ _ _ _ Hm) by lia. cbn [bind].
        rewrite Nat.eqb_refl. destruct (Nat.eqb_spec j i); [lia|].
        match goal with |- context[vset w i ?v] => destruct (is_vec_set n w _ i v Hw Hi) as (w' & E' & Hw') end.
        exists w'. split; [exact E'|]. apply (is_vec_ext _ _ _ _ Hw'). intros k Hk.
        destruct (Nat.eqb_spec k i); auto. replace (j + 1 - (i + 1)) with (Datatypes.S (j - (i + 1))) by lia.
        cbn [rdiff]. replace (i + 1 + (j - (i + 1))) with j by lia. reflexivity.
      + rewrite E2. cbn [bind]. rewrite (is_vec_get _ _ _ _ Hu2), (is_mat_get _ _ _ _ _ _ Hm) by lia. cbn [bind].
        rewrite Nat.eqb_refl.
        match goal with |- context[vset u2 i ?v] =>
          destruct (is_vec_set n u2 _ i v Hu2 Hi) as (u3 & E3 & Hu3) end.
        exists u3. split; [exact E3|]. eexists. split; [exact Hu3|]. split.
        * intros k Hk. cbn. destruct (Nat.eqb_spec k i); [lia|]. apply Hrest. lia.
        * intros k Hk. cbn. destruct (Nat.eqb_spec k i) as [->|].
          -- f_equal. replace (i + 1 + (n - (i + 1)) - (i + 1)) with (n - (i + 1)) by lia.
             apply rdiff_ext. intros t Ht. destruct (Nat.eqb_spec (i + 1 + t) i); [lia|auto].
          -- rewrite Hz by lia. f_equal. apply rdiff_ext. intros t Ht.
             destruct (Nat.eqb_spec (k + 1 + t) i); [lia|auto].
    - destruct H as (z & Hx' & _ & Hz). exists x', z. split; auto. split; auto. intros i Hi. apply Hz. lia.
  Qed.

  Lemma is_vec_vresize_any n x (d : S) : exists x0, is_vec n (vresize x n d) x0.
  Proof using.
    clear dbg pivot O. exists (fun i => nth i (vresize x n d) d).
    assert (L : length (vresize x n d) = n).
    { unfold vresize. rewrite app_length, firstn_length, repeat_length. lia. }
    rewrite <- L at 1. apply is_vec_self.
  Qed.

  (** Both substitutions. *)
  Lemma solve_ok n st g s x b B : lu_factorised st = true -> is_mat n n (lu_matrix st) g ->
    (pivot = true -> is_vec n (lu_pivots st) s) -> (pivot = false -> forall k, s k = k) ->
    (forall k, k < n -> s k < n) -> is_vec n (other_of x b) B -> (b = None -> pivot = false) ->
    exists x' y z, lu_solve O dbg pivot st x b =
        Ok (x', mkConv true 1 (sc_max O) (sc_max O) (sc_max O) (sc_max O) (sc_max O) (sc_max O)) /\
      is_vec n x' z /\
      (forall i, i < n -> y i = rdiff (B (s i)) i (fun j => sc_mul O (g i j) (y j))) /\
      (forall i, i < n ->
        z i = sc_div O (rdiff (y i) (n - (i + 1)) (fun k => sc_mul O (g i (i + 1 + k)) (z (i + 1 + k)))) (g i i)).
  Proof using.
    intros Hf Hm Hp Hid Hs Hb Hal. unfold lu_solve. rewrite (is_mat_rows _ _ _ _ Hm), (proj1 Hb).
    rewrite (assert_ok dbg _ (Nat.eqb_refl n)). cbn [bind]. rewrite Hf.
    assert (Hx : exists x0, is_vec n (vresize x n (sc_zero O)) x0 /\ (b = None -> forall i, i < n -> B i = x0 i)).
    { destruct b as [b|].
      - destruct (is_vec_vresize_any n x (sc_zero O)) as (x0 & H). exists x0. split; auto. discriminate.
      - cbn in Hb. exists B. split; auto. unfold vresize. rewrite firstn_all2 by (rewrite (proj1 Hb); auto).
        rewrite (proj1 Hb), Nat.sub_diag. cbn [repeat]. rewrite app_nil_r. exact Hb. }
    destruct Hx as (x0 & Hx & HB).
    destruct (forward_ok n st g s b x0 (vresize x n (sc_zero O)) B Hm Hp Hid Hs Hx) as (x1 & y & E1 & H1 & Hy).
    { destruct b as [b|]; auto. }
    rewrite E1. cbn [bind]. destruct (backward_ok n st g x1 y Hm H1) as (x2 & z & E2 & H2 & Hz).
    rewrite E2. cbn [bind]. exists x2, y, z. auto.
  Qed.
End Facts.
