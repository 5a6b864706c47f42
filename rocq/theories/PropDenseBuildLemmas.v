(** Constructors and resizing of dense vectors and matrices, C107. *)
From Coq Require Import ZArith.
From Verif Require Import Base ListFacts DenseModel DenseFacts DenseOps PropDenseLemmas.

(** A loop that aborts at step [k]. *)
Lemma FOR_abort {S} (P : nat -> S -> Prop) n k (f : nat -> S -> res S) s :
  k < n -> P 0 s ->
  (forall i s, i < k -> P i s -> exists s', f i s = Ok s' /\ P (i + 1) s') ->
  (forall s, P k s -> f k s = Abort) ->
  FOR n f s = Abort.
Proof.
  intros Hk H0 Hs Hf. unfold FOR. replace n with (k + (1 + (n - k - 1))) by lia.
  rewrite !seq_app, forM_app. destruct (FOR_inv P k f s H0 Hs) as (s' & E & Hp). unfold FOR in E.
  rewrite E. cbn [bind seq app Nat.add forM]. rewrite (Hf s' Hp). reflexivity.
Qed.

Lemma first_where (b : nat -> bool) n : (forall i, i < n -> b i = true) \/
  exists k, k < n /\ b k = false /\ forall i, i < k -> b i = true.
Proof.
  induction n as [|n [IH|(k & Hk & H)]].
  - left. lia.
  - destruct (b n) eqn:E.
    + left. intros i Hi. destruct (Nat.eq_dec i n) as [->|]; auto. apply IH. lia.
    + right. exists n. auto.
  - right. exists k. split; [lia|exact H].
Qed.

Section Build.
  Context {V : Type}.
  Variables (vzero : V).
  Implicit Types (v : list V) (m : list (list V)).

  Lemma vresize_vec v f n k : is_vec n v f -> is_vec k (vresize v k vzero) (fun i => if i <? n then f i else vzero).
  Proof using.
    intros [L H]. split.
    - unfold vresize. rewrite app_length, firstn_length, repeat_length. lia.
    - intros i Hi. rewrite nth_error_vresize, L. destruct (Nat.ltb_spec i k); [|lia].
      destruct (Nat.ltb_spec i n); auto.
  Qed.

  Lemma vector_default n : is_vec n (v_default vzero n) (fun _ => vzero).
  Proof using. split; [apply repeat_length|]. intros i Hi. apply nth_error_repeat, Hi. Qed.

  Lemma matrix_default s : is_mat (fst s) (snd s) (m_default vzero s) (fun _ _ => vzero).
  Proof using. apply repeat_mat. Qed.

  Lemma vector_from_list dbg junk n (l : list V) :
    (n = 0 \/ length l = n -> v_list vzero dbg junk n l = Ok l) /\
    (0 < n -> length l <> n -> v_list vzero true junk n l = Abort) /\
    (0 < n -> length l <= n -> gives (v_list vzero false junk n l) n (fun i => nth i l (junk i))) /\
    (0 < n -> n < length l -> v_list vzero false junk n l = Undef).
  Proof using.
    split; [|split; [|split]].
    - intros [->|H]; [apply v_list_dynamic|]. destruct n as [|n].
      + apply v_list_dynamic.
      + apply v_list_static; auto. lia.
    - intros Hn H. unfold v_list. destruct (Nat.eqb_spec n 0); [lia|]. apply Nat.eqb_neq in H. rewrite H. reflexivity.
    - intros Hn H. unfold v_list. destruct (Nat.eqb_spec n 0); [lia|]. cbn [ASSERT_DEBUG bind].
      unfold vwrite. rewrite map_length, seq_length, Nat.add_0_l.
      destruct (Nat.leb_spec (length l) n); [|lia]. eexists. split; [reflexivity|]. cbn [firstn app].
      split.
      + rewrite app_length, skipn_length, map_length, seq_length. lia.
      + intros i Hi. rewrite nth_error_app. destruct (Nat.ltb_spec i (length l)) as [Hl|Hl].
        * apply nth_error_nth_lt, Hl.
        * rewrite nth_error_skipn. replace (length l + (i - length l)) with i by lia.
          rewrite (nth_overflow l) by auto. apply (is_vec_map junk n), Hi.
    - intros Hn H. unfold v_list. destruct (Nat.eqb_spec n 0); [lia|]. cbn [ASSERT_DEBUG bind].
      unfold vwrite. rewrite map_length, seq_length, Nat.add_0_l.
      destruct (Nat.leb_spec (length l) n); [lia|reflexivity].
  Qed.

  Lemma vector_from_lambda dbg junk n (F : nat -> res V) h size :
    (forall i, F i = Ok (h i)) ->
    (n = 0 \/ size = n -> gives (v_lambda vzero dbg junk n F size) size h) /\
    (0 < n -> size <> n -> v_lambda vzero true junk n F size = Abort) /\
    (0 < n -> gives (v_lambda vzero false junk n F size) n h).
  Proof using.
    intro HF. split; [|split].
    - intro H. apply v_lambda_ok; [lia|]. intros; apply HF.
    - intros Hn H. unfold v_lambda. destruct (Nat.eqb_spec n 0); [lia|]. apply Nat.eqb_neq in H. rewrite H. reflexivity.
    - intros Hn. unfold v_lambda. destruct (Nat.eqb_spec n 0); [lia|]. cbn [ASSERT_DEBUG bind].
      apply (v_fill_ok n _ junk); [apply is_vec_map|]. intros; apply HF.
  Qed.

  (** The rows are copied one after the other; a debug build stops at the first that differs in length. *)
  Lemma m_list_release l : m_list vzero false (0, 0) l = Ok l.
  Proof using.
    unfold m_list. cbn [fst Nat.eqb].
    destruct (FOR_inv (fun i m => length m = length l /\ forall a, a < i -> nth_error m a = nth_error l a)
                (length l)
                (fun i m => do row <- vget l i; do _ <- ASSERT_DEBUG false (length row =? m_cols l); vset m i row)
                (vresize [] (length l) [])) as (m & E & Hm & He).
    - split; [|intros; lia]. unfold vresize. rewrite firstn_nil. cbn [length app].
      rewrite repeat_length. lia.
    - intros i m Hi [Hm He]. destruct (nth_error l i) as [row|] eqn:Er; [|apply nth_error_None in Er; lia]. unfold vget. rewrite Er.
      cbn [bind ASSERT_DEBUG]. rewrite vset_lt by lia. eexists. split; [reflexivity|].
      rewrite upd_length by lia. split; auto. intros a Ha. rewrite nth_error_upd by lia.
      destruct (Nat.eqb_spec a i) as [->|]; [auto|apply He; lia].
    - rewrite E. f_equal. apply nth_error_ext_len; auto. intros a Ha. apply He. lia.
  Qed.

  Lemma m_list_ragged l i row0 row : nth_error l 0 = Some row0 -> nth_error l i = Some row ->
    length row <> length row0 -> m_list vzero true (0, 0) l = Abort.
  Proof using.
    intros H0 Hi Hne. assert (Hc : m_cols l = length row0) by (destruct l; [discriminate|]; injection H0 as ->; reflexivity).
    pose proof (nth_error_lt_Some _ _ _ Hi) as Hlt.
    destruct (first_where (fun a => length (nth a l []) =? m_cols l) (length l)) as [Ha|(k & Hk & Hf & Hb)].
    - specialize (Ha i Hlt). cbn beta in Ha. rewrite (nth_error_nth _ _ _ Hi), Hc in Ha. apply Nat.eqb_eq in Ha. lia.
    - unfold m_list. cbn [fst Nat.eqb].
      apply (FOR_abort (fun _ m => length m = length l) (length l) k); auto.
      + unfold vresize. rewrite firstn_nil. cbn [length app]. rewrite repeat_length. lia.
      + intros a m Ha Hm. unfold vget. rewrite (nth_error_nth_lt l a []) by lia. cbn [bind].
        rewrite (Hb a Ha). cbn [ASSERT_DEBUG ASSERT bind]. rewrite vset_lt by lia. eexists. split; [reflexivity|].
        rewrite upd_length by lia. exact Hm.
      + intros m Hm. unfold vget. rewrite (nth_error_nth_lt l k []) by lia. cbn [bind]. rewrite Hf. reflexivity.
  Qed.

  (** Any number of rows of the right length is accepted by a static matrix. *)
  Lemma m_list_static dbg r c k l g : 0 < r -> is_mat k c l g ->
    (k <= r -> mgives (m_list vzero dbg (r, c) l) r c (fun i j => if i <? k then g i j else vzero)) /\
    (r < k -> m_list vzero dbg (r, c) l = Undef).
  Proof using.
    intros Hr [L Hl]. unfold m_list. cbn [fst]. destruct (Nat.eqb_spec r 0); [lia|].
    destruct (matrix_default (r, c)) as [Ld Hd]. cbn [fst snd] in Ld, Hd.
    unfold vwrite. rewrite Ld, L, Nat.add_0_l. split; intro Hk; destruct (Nat.leb_spec k r); try lia; auto.
    eexists. split; [reflexivity|]. cbn [firstn app]. split.
    - rewrite app_length, skipn_length. lia.
    - intros i Hi. rewrite nth_error_app, L. destruct (Nat.ltb_spec i k) as [Hik|Hik].
      + apply Hl, Hik.
      + rewrite nth_error_skipn. replace (k + (i - k)) with i by lia. exact (Hd i Hi).
  Qed.

  Lemma matrix_from_list dbg l r c g : is_mat r c l g -> forall s, s = (0, 0) \/ (s = (r, c) /\ 0 < r) ->
    m_list vzero dbg s l = Ok l.
  Proof using.
    intros Hl s [->|[-> Hr]]; [exact (m_list_dynamic vzero dbg l r c g Hl)|].
    destruct (m_list_static dbg r c r l g Hr Hl) as [H _]. destruct (H (le_n r)) as (u & E & Hu). rewrite E. f_equal.
    apply nth_error_ext_len; [rewrite (proj1 Hu), (proj1 Hl); reflexivity|]. intros a Ha. rewrite (proj1 Hu) in Ha.
    destruct (proj2 Hu a Ha) as (x & Ex & Hx), (proj2 Hl a Ha) as (y & Ey & Hy). rewrite Ex, Ey. f_equal.
    apply (is_vec_eq c x y _ _ Hx Hy). intros b Hb. cbn beta. destruct (Nat.ltb_spec a r); [reflexivity|lia].
  Qed.

  (** The loops of the lambda constructor over the first [r'] rows and [c'] columns. *)
  Lemma fill_corner r c r' c' m g h (F : nat -> nat -> res V) : is_mat r c m g -> r' <= r -> c' <= c ->
    (forall i j, F i j = Ok (h i j)) ->
    mgives (FOR r' (fun i m => FOR c' (fun j m => do x <- F i j; mset m i j x) m) m) r c
           (fun i j => if (i <? r') && (j <? c') then h i j else g i j).
  Proof using.
    intros Hm Hr Hc HF.
    assert (Row : forall i u f, i < r -> is_mat r c u f ->
              exists u', FOR c' (fun j m => do x <- F i j; mset m i j x) u = Ok u' /\
                is_mat r c u' (fun a b => if (a =? i) && (b <? c') then h i b else f a b)).
    { intros i u f Hi Hu.
      apply (FOR_inv (fun j u' => is_mat r c u' (fun a b => if (a =? i) && (b <? j) then h i b else f a b))).
      - apply (is_mat_ext _ _ _ _ _ Hu). intros a b _ _. rewrite andb_false_r. reflexivity.
      - intros j w Hj Hw. rewrite HF. cbn [bind].
        destruct (is_mat_set _ _ _ _ i j (h i j) Hw Hi ltac:(lia)) as (w' & E & Hw'). exists w'. split; auto.
        apply (is_mat_ext _ _ _ _ _ Hw'). intros a b _ _. cbn beta.
        destruct (Nat.eqb_spec a i) as [->|]; cbn [andb]; auto.
        destruct (Nat.eqb_spec b j) as [->|].
        + destruct (Nat.ltb_spec j (j + 1)); [reflexivity|lia].
        + destruct (Nat.ltb_spec b j), (Nat.ltb_spec b (j + 1)); auto; lia. }
    apply (FOR_inv (fun i u => is_mat r c u (fun a b => if (a <? i) && (b <? c') then h a b else g a b))).
    - apply (is_mat_ext _ _ _ _ _ Hm). intros a b _ _. reflexivity.
    - intros i u Hi Hu. destruct (Row i u _ ltac:(lia) Hu) as (u' & E & Hu'). exists u'. split; auto.
      apply (is_mat_ext _ _ _ _ _ Hu'). intros a b _ _. cbn beta.
      destruct (Nat.eqb_spec a i) as [->|]; cbn [andb].
      + destruct (Nat.ltb_spec i (i + 1)); [|lia]. destruct (Nat.ltb_spec i i); [lia|]. reflexivity.
      + destruct (Nat.ltb_spec a i), (Nat.ltb_spec a (i + 1)); auto; lia.
  Qed.

  Lemma mset_row_out r c m g i j x : is_mat r c m g -> r <= i -> mset m i j x = Undef.
  Proof using.
    intros [L _] Hi. unfold mset, vget. rewrite (proj2 (nth_error_None m i)) by lia. reflexivity.
  Qed.

  Lemma mset_col_out r c m g i j x : is_mat r c m g -> i < r -> c <= j -> mset m i j x = Undef.
  Proof using.
    intros Hm Hi Hj. destruct (is_mat_row _ _ _ _ i Hm Hi) as (row & E & Hr). unfold mset. rewrite E. cbn [bind].
    unfold vset at 1. rewrite (proj1 Hr). destruct (Nat.ltb_spec j c); [lia|reflexivity].
  Qed.

  Lemma matrix_from_lambda dbg s (F : nat -> nat -> res V) h r c : (forall i j, F i j = Ok (h i j)) ->
    (mtyped s r c -> mgives (m_lambda vzero dbg s F r c) r c h) /\
    (0 < fst s -> s <> (r, c) -> m_lambda vzero true s F r c = Abort) /\
    (0 < fst s -> r <= fst s -> c <= snd s ->
       mgives (m_lambda vzero false s F r c) (fst s) (snd s)
              (fun i j => if (i <? r) && (j <? c) then h i j else vzero)) /\
    (0 < fst s -> 0 < r -> 0 < c -> fst s < r \/ snd s < c -> m_lambda vzero false s F r c = Undef).
  Proof using.
    intro HF. split; [|split; [|split]].
    - intro Hs. apply m_lambda_ok; auto.
    - intros Hs Hne. unfold m_lambda. destruct (Nat.eqb_spec (fst s) 0); [lia|].
      replace ((r =? fst s) && (c =? snd s)) with false; [reflexivity|]. symmetry.
      destruct (Nat.eqb_spec r (fst s)) as [->|]; auto. destruct (Nat.eqb_spec c (snd s)) as [->|]; auto.
      exfalso. apply Hne. destruct s; reflexivity.
    - intros Hs Hr Hc. unfold m_lambda. destruct (Nat.eqb_spec (fst s) 0); [lia|]. cbn [ASSERT_DEBUG bind].
      apply (fill_corner _ _ r c _ (fun _ _ => vzero) h F); auto. apply matrix_default.
    - intros Hs Hr Hc Hb. unfold m_lambda. destruct (Nat.eqb_spec (fst s) 0); [lia|]. cbn [ASSERT_DEBUG bind].
      pose proof (matrix_default s) as Hd.
      destruct (Nat.lt_ge_cases (snd s) c) as [Hsc|Hsc].
      + apply (FOR_undef (fun _ m => m = m_default vzero s) r 0); auto; [lia|].
        intros m ->.
        apply (FOR_undef (fun j u => exists g, is_mat (fst s) (snd s) u g) c (snd s)); auto.
        * eauto.
        * intros j u Hj (g & Hu). rewrite HF. cbn [bind].
          destruct (is_mat_set _ _ _ _ 0 j (h 0 j) Hu Hs Hj) as (u' & E & Hu'). eauto.
        * intros u (g & Hu). rewrite HF. cbn [bind]. apply (mset_col_out _ _ _ _ _ _ _ Hu); auto.
      + apply (FOR_undef (fun i u => exists g, is_mat (fst s) (snd s) u g) r (fst s)); [lia|eauto| |].
        * intros i u Hi (g & Hu).
          apply (FOR_inv (fun _ u => exists g, is_mat (fst s) (snd s) u g)); [eauto|].
          intros j w Hj (g' & Hw). rewrite HF. cbn [bind].
          destruct (is_mat_set _ _ _ _ i j (h i j) Hw Hi ltac:(lia)) as (u' & E & Hu'). eauto.
        * intros u (g & Hu). apply (FOR_undef (fun _ w => w = u) c 0); auto; [lia|].
          intros w ->. rewrite HF. cbn [bind]. apply (mset_row_out _ _ _ _ _ _ _ Hu). lia.
  Qed.

  Lemma matrix_resize m g r c r' c' : is_mat r c m g ->
    is_mat r' c' (m_resize vzero m r' c') (fun i j => if (i <? r) && (j <? c) then g i j else vzero).
  Proof using.
    intros [L H]. unfold m_resize. split.
    - rewrite map_length. unfold vresize. rewrite app_length, firstn_length, repeat_length. lia.
    - intros i Hi. rewrite nth_error_map, nth_error_vresize, L. destruct (Nat.ltb_spec i r'); [|lia].
      destruct (Nat.ltb_spec i r) as [Hir|Hir].
      + destruct (H i Hir) as (row & E & Hrow). rewrite E. eexists. split; [reflexivity|]. apply (vresize_vec _ _ c), Hrow.
      + eexists. split; [reflexivity|]. apply (vresize_vec [] (fun _ => vzero) 0). split; auto. intros j Hj; lia.
  Qed.

  Lemma rows_resized m g r c r' : is_mat r c m g ->
    length (m_resize_rows m r') = r' /\
    forall i, i < r' -> exists row, nth_error (m_resize_rows m r') i = Some row /\
      (i < r -> is_vec c row (g i)) /\ (r <= i -> row = []).
  Proof using.
    intros [L H]. unfold m_resize_rows. split.
    - unfold vresize. rewrite app_length, firstn_length, repeat_length. lia.
    - intros i Hi. rewrite nth_error_vresize, L. destruct (Nat.ltb_spec i r'); [|lia].
      destruct (Nat.ltb_spec i r) as [Hir|Hir].
      + destruct (H i Hir) as (row & E & Hrow). rewrite E. exists row. split; auto. split; [auto|lia].
      + exists []. split; auto. split; [lia|auto].
  Qed.

  (** Growing the number of rows alone leaves a matrix that reports its old number of columns and whose sum
      with itself reads elements that are not there. *)
  Lemma rows_grown vadd dbg m g r c r' : is_mat r c m g -> 0 < r -> 0 < c -> r < r' ->
    m_rows (m_resize_rows m r') = r' /\ m_cols (m_resize_rows m r') = c /\
    m_plus vzero vadd dbg (0, 0) (0, 0) (m_resize_rows m r') (m_resize_rows m r') = Undef.
  Proof using.
    intros Hm Hr Hc Hlt. destruct (rows_resized m g r c r' Hm) as [L R]. split; [exact L|].
    assert (C : m_cols (m_resize_rows m r') = c).
    { destruct (R 0 ltac:(lia)) as (row & E & Hrow & _). specialize (Hrow Hr).
      destruct (m_resize_rows m r') as [|x l]; [discriminate|]. injection E as ->. apply Hrow. }
    split; [exact C|]. unfold m_plus, m_op.
    replace (same_size _ _) with true by (unfold same_size; rewrite !Nat.eqb_refl; reflexivity).
    rewrite assert_ok by reflexivity. cbn [bind]. unfold m_rows. rewrite L, C.
    unfold m_lambda, m_promote. cbn [fst Nat.eqb].
    apply (FOR_undef (fun _ u => length u = r') r' r); auto.
    - unfold vresize. rewrite firstn_nil. cbn [length app]. rewrite repeat_length. lia.
    - intros i u Hi Hu. destruct (R i ltac:(lia)) as (row & E & Hrow & _). specialize (Hrow Hi).
      destruct (nth_error u i) as [x|] eqn:Ex; [|apply nth_error_None in Ex; lia].
      unfold vget at 1. rewrite Ex. cbn [bind]. rewrite vset_lt by lia. cbn [bind].
      destruct (row_writes (upd u i (vresize x c vzero)) i c (vresize x c vzero)
                  (fun j => if j <? length x then nth j x vzero else vzero) (fun j => vadd (g i j) (g i j))
                  (fun j => do a <- mget (m_resize_rows m r') i j; do b <- mget (m_resize_rows m r') i j; Ok (vadd a b)))
        as (row' & E' & _).
      + rewrite nth_error_upd, Nat.eqb_refl by lia. reflexivity.
      + apply (vresize_vec x (fun j => nth j x vzero) (length x)), is_vec_self.
      + intros j Hj. unfold mget, vget at 1. rewrite E. cbn [bind]. rewrite (is_vec_get _ _ _ _ Hrow Hj). cbn [bind].
        unfold vget at 1. rewrite E. cbn [bind]. rewrite (is_vec_get _ _ _ _ Hrow Hj). reflexivity.
      + exists (upd (upd u i (vresize x c vzero)) i row'). split; [exact E'|]. rewrite !upd_length; rewrite ?upd_length; lia.
    - intros u Hu. destruct (R r ltac:(lia)) as (row & E & _ & Hnil). rewrite (Hnil (le_n r)) in E.
      destruct (nth_error u r) as [x|] eqn:Ex; [|apply nth_error_None in Ex; lia].
      unfold vget at 1. rewrite Ex. cbn [bind]. rewrite vset_lt by lia. cbn [bind].
      apply (FOR_undef (fun _ w => w = upd u r (vresize x c vzero)) c 0); auto; [lia|].
      intros w ->. unfold mget, vget at 1. rewrite E. reflexivity.
  Qed.
End Build.

Lemma result_type :
  (forall n0 n1, n0 = 0 \/ n1 = 0 \/ n0 = n1 -> promote n0 n1 = Nat.max n0 n1) /\
  (forall r0 c0 r1 c1, (r0 = 0 -> c0 = 0) -> (r1 = 0 -> c1 = 0) -> r0 = 0 \/ r1 = 0 \/ (r0 = r1 /\ c0 = c1) ->
     m_promote (r0, c0) (r1, c1) = (Nat.max r0 r1, Nat.max c0 c1)) /\
  (forall r0 c0 r1 c1, 0 < r0 -> 0 < r1 -> m_demote (r0, c0) (r1, c1) = (r0, c1)) /\
  (forall r0 c0 r1 c1, r0 = 0 \/ r1 = 0 -> m_demote (r0, c0) (r1, c1) = (0, 0)).
Proof.
  split; [|split; [|split]].
  - intros n0 n1 H. unfold promote. destruct (Nat.eqb_spec n0 0); lia.
  - intros r0 c0 r1 c1 H0 H1 H. unfold m_promote. cbn [fst].
    destruct (Nat.eqb_spec r0 0); f_equal; try lia.
  - intros r0 c0 r1 c1 H0 H1. unfold m_demote. cbn [fst snd].
    destruct (Nat.eqb_spec r0 0), (Nat.eqb_spec r1 0); try lia. reflexivity.
  - intros r0 c0 r1 c1 H. unfold m_demote. cbn [fst snd].
    destruct (Nat.eqb_spec r0 0), (Nat.eqb_spec r1 0); try lia; reflexivity.
Qed.
