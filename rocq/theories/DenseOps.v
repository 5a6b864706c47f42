(** Operators of dense matrices, C44 - C47. *)
From Verif Require Import Base ListFacts DenseModel DenseFacts.

(** A loop that runs into undefined behaviour at step [k]. *)
Lemma FOR_undef {S} (P : nat -> S -> Prop) n k (f : nat -> S -> res S) s :
  k < n -> P 0 s ->
  (forall i s, i < k -> P i s -> exists s', f i s = Ok s' /\ P (i + 1) s') ->
  (forall s, P k s -> f k s = Undef) ->
  FOR n f s = Undef.
Proof.
  intros Hk H0 Hs Hf. unfold FOR. replace n with (k + (1 + (n - k - 1))) by lia.
  rewrite !seq_app, forM_app. destruct (FOR_inv P k f s H0 Hs) as (s' & E & Hp). unfold FOR in E.
  rewrite E. cbn [bind seq app Nat.add forM]. rewrite (Hf s' Hp). reflexivity.
Qed.

(** Writing the elements of row [i] one after the other. *)
Lemma row_writes {V} (m : list (list V)) i c row (f h : nat -> V) (F : nat -> res V) :
  nth_error m i = Some row -> is_vec c row f -> (forall j, j < c -> F j = Ok (h j)) ->
  exists row', FOR c (fun j m => do x <- F j; mset m i j x) m = Ok (upd m i row') /\ is_vec c row' h.
Proof.
  intros Hm Hr HF. pose proof (nth_error_lt_Some _ _ _ Hm) as Hlt.
  destruct (FOR_inv (fun j m' => exists row', m' = upd m i row' /\
                       is_vec c row' (fun b => if b <? j then h b else f b)) c
              (fun j m => do x <- F j; mset m i j x) m) as (m' & E & (row' & -> & Hr')).
  - exists row. split; [symmetry; apply upd_id, Hm|]. apply (is_vec_ext _ _ _ _ Hr). reflexivity.
  - intros j m' Hj (row' & -> & Hr'). rewrite HF by auto. cbn [bind]. unfold mset, vget.
    rewrite nth_error_upd, Nat.eqb_refl by auto. cbn [bind].
    destruct (is_vec_set _ _ _ j (h j) Hr' Hj) as (row2 & E2 & Hr2). rewrite E2. cbn [bind].
    rewrite vset_lt by (rewrite upd_length; auto). eexists. split; [reflexivity|].
    exists row2. split.
    + apply nth_error_ext. intro a. rewrite !nth_error_upd by (rewrite ?upd_length; auto).
      destruct (a =? i); reflexivity.
    + apply (is_vec_ext _ _ _ _ Hr2). intros b _. cbn beta.
      destruct (Nat.eqb_spec b j) as [->|].
      * destruct (Nat.ltb_spec j (j + 1)); [reflexivity|lia].
      * destruct (Nat.ltb_spec b j), (Nat.ltb_spec b (j + 1)); auto; lia.
  - exists row'. split; auto. apply (is_vec_ext _ _ _ _ Hr'). intros b Hb.
    destruct (Nat.ltb_spec b c); [reflexivity|lia].
Qed.

Lemma same_size_spec {V} r c (m o : list (list V)) g h : is_mat r c m g -> is_mat r c o h -> same_size m o = true.
Proof.
  intros Hm Ho. unfold same_size. rewrite (is_mat_rows _ _ _ _ Hm), (is_mat_rows _ _ _ _ Ho), Nat.eqb_refl.
  cbn [andb]. apply Nat.eqb_eq. destruct r as [|r].
  - destruct Hm as [Hm _], Ho as [Ho _]. destruct m, o; try discriminate. reflexivity.
  - rewrite (is_mat_cols _ _ _ _ Hm), (is_mat_cols _ _ _ _ Ho) by lia. reflexivity.
Qed.

Lemma same_size_false {V} r c r' c' (m o : list (list V)) g h : is_mat r c m g -> is_mat r' c' o h ->
  r <> r' \/ (0 < r /\ c <> c') -> same_size m o = false.
Proof.
  intros Hm Ho H. unfold same_size. rewrite (is_mat_rows _ _ _ _ Hm), (is_mat_rows _ _ _ _ Ho).
  destruct (Nat.eqb_spec r r') as [<-|]; cbn [andb]; auto.
  destruct H as [H|[Hr H]]; [lia|].
  rewrite (is_mat_cols _ _ _ _ Hm), (is_mat_cols _ _ _ _ Ho) by lia. apply Nat.eqb_neq, H.
Qed.

Section Ops.
  Context {V : Type}.
  Variables (vzero : V) (dbg : bool) (junk : nat -> V).
  Implicit Types (m o : list (list V)).

  Lemma repeat_mat r c : is_mat r c (repeat (repeat vzero c) r) (fun _ _ => vzero).
  Proof using.
    apply is_mat_repeat. split; [apply repeat_length|]. intros i Hi. apply nth_error_repeat, Hi.
  Qed.

  Lemma m_resize_nil r c : is_mat r c (m_resize vzero [] r c) (fun _ _ => vzero).
  Proof using.
    unfold m_resize, vresize. rewrite firstn_nil. cbn [length app]. rewrite Nat.sub_0_r.
    replace (map _ (repeat [] r)) with (repeat (repeat vzero c) r); [apply repeat_mat|].
    induction r as [|r IH]; cbn [repeat map]; auto. rewrite <- IH. rewrite firstn_nil. cbn [length app].
    rewrite Nat.sub_0_r. reflexivity.
  Qed.

  (** Matrix_Dense(list) of rows of equal length is the matrix with these rows. *)
  Lemma m_list_dynamic l r c g : is_mat r c l g -> m_list vzero dbg (0, 0) l = Ok l.
  Proof using.
    intros Hl. unfold m_list. cbn [fst Nat.eqb].
    destruct (FOR_inv (fun i m => length m = length l /\ forall a, a < i -> nth_error m a = nth_error l a)
                (length l)
                (fun i m => do row <- vget l i; do _ <- ASSERT_DEBUG dbg (length row =? m_cols l); vset m i row)
                (vresize [] (length l) [])) as (m & E & Hm & He).
    - split; [|intros; lia]. unfold vresize. rewrite firstn_nil. cbn [length app].
      rewrite repeat_length. lia.
    - intros i m Hi [Hm He]. assert (Hr : i < r) by (rewrite (proj1 Hl) in Hi; auto).
      destruct (is_mat_row _ _ _ _ i Hl Hr) as (row & Er & Hrow). rewrite Er. cbn [bind].
      rewrite assert_ok; [|rewrite (proj1 Hrow), (is_mat_cols _ _ _ _ Hl) by lia; apply Nat.eqb_refl].
      cbn [bind]. rewrite vset_lt by lia. eexists. split; [reflexivity|].
      rewrite upd_length by lia. split; auto. intros a Ha. rewrite nth_error_upd by lia.
      destruct (Nat.eqb_spec a i) as [->|]; [symmetry; apply vget_Ok, Er|apply He; lia].
    - rewrite E. f_equal. apply nth_error_ext_len; auto. intros a Ha. apply He. lia.
  Qed.

  Lemma m_lambda_ok s r c (F : nat -> nat -> res V) h : mtyped s r c ->
    (forall i j, i < r -> j < c -> F i j = Ok (h i j)) ->
    exists u, m_lambda vzero dbg s F r c = Ok u /\ is_mat r c u h.
  Proof using.
    intros Hs HF. unfold m_lambda. destruct Hs as [->|(-> & Hr & Hc)]; cbn [fst snd].
    - cbn [Nat.eqb].
      destruct (FOR_inv (fun i m => length m = r /\ forall a, a < r -> exists row, nth_error m a = Some row /\
                  (a < i -> is_vec c row (h a)) /\ (i <= a -> row = [])) r
        (fun i m => do row <- vget m i; do m <- vset m i (vresize row c vzero);
                    FOR c (fun j m => do x <- F i j; mset m i j x) m)
        (vresize [] r [])) as (u & E & Hl & Hu).
      + unfold vresize. rewrite firstn_nil. cbn [length app]. rewrite repeat_length. split; [lia|].
        intros a Ha. exists []. split; [apply nth_error_repeat; lia|]. split; [lia|auto].
      + intros i m Hi [Hl Hm]. destruct (Hm i Hi) as (row & E & _ & Hn). rewrite (Hn (le_n i)) in E.
        unfold vget. rewrite E. cbn [bind]. rewrite vset_lt by lia. cbn [bind].
        destruct (row_writes (upd m i (vresize [] c vzero)) i c (vresize [] c vzero) (fun _ => vzero) (h i)
                    (fun j => F i j)) as (row' & E' & Hr').
        * rewrite nth_error_upd, Nat.eqb_refl by lia. reflexivity.
        * split; [unfold vresize; rewrite firstn_nil; cbn [length app]; rewrite repeat_length; lia|].
          intros b Hb. rewrite nth_error_vresize. destruct (Nat.ltb_spec b c); [|lia]. cbn [length].
          destruct (Nat.ltb_spec b 0); [lia|reflexivity].
        * intros j Hj. apply HF; auto.
        * eexists. split; [exact E'|].
          assert (Hu1 : length (upd m i (vresize [] c vzero)) = r) by (rewrite upd_length; lia).
          split; [rewrite upd_length; lia|]. intros a Ha.
          rewrite !nth_error_upd by lia. destruct (Nat.eqb_spec a i) as [->|Hne].
          -- exists row'. split; auto. split; [auto|lia].
          -- destruct (Hm a Ha) as (rw & Ea & H1 & H2). exists rw. split; auto. split; intro; [apply H1|apply H2]; lia.
      + exists u. split; auto. split; auto. intros a Ha. destruct (Hu a Ha) as (row & Ea & H1 & _).
        exists row. auto.
    - destruct (Nat.eqb_spec r 0); [lia|]. rewrite !Nat.eqb_refl, assert_ok by reflexivity. cbn [bind].
      apply (mat_write_loop r c _ (fun _ _ => vzero) h (fun i j m => do x <- F i j; mset m i j x)).
      + apply repeat_mat.
      + intros i j u Hi Hj _. rewrite HF by auto. reflexivity.
  Qed.

  Variable op : V -> V -> V.

  Lemma m_scale_loop r c m g h s : is_mat r c m g ->
    (forall i j u, i < r -> j < c ->
       is_mat r c u (fun a b => if (a <? i) || ((a =? i) && (b <? j)) then h a b else g a b) ->
       exists y, mread s u = Ok y /\ h i j = op (g i j) y) ->
    exists u, m_scale op m s = Ok u /\ is_mat r c u h.
  Proof using.
    clear vzero dbg junk. intros Hm Hs. unfold m_scale. rewrite (proj1 Hm).
    apply (mat_loop r c m g h); auto. intros i u Hi Hu.
    destruct (is_mat_row _ _ _ _ i Hu Hi) as (row & Er & Hrow). rewrite Er. cbn [bind].
    rewrite (proj1 Hrow). apply (mat_row_loop r c u _ i (h i)); auto. intros j w Hj Hw.
    assert (Hw' : is_mat r c w (fun a b => if (a <? i) || ((a =? i) && (b <? j)) then h a b else g a b)).
    { apply (is_mat_ext _ _ _ _ _ Hw). intros a b _ _. cbn beta.
      destruct (Nat.eqb_spec a i) as [->|]; cbn [andb].
      + destruct (Nat.ltb_spec i i); [lia|]. reflexivity.
      + rewrite orb_false_r. reflexivity. }
    rewrite (is_mat_get _ _ _ _ i j Hw' Hi Hj). cbn [bind].
    destruct (Hs i j w Hi Hj Hw') as (y & Ey & Eh). rewrite Ey. cbn [bind].
    replace ((i <? i) || (i =? i) && (j <? j)) with false
      by (rewrite Nat.ltb_irrefl, Nat.ltb_irrefl, andb_false_r; reflexivity).
    rewrite <- Eh.
    destruct (is_mat_set _ _ _ _ i j (h i j) Hw Hi Hj) as (u' & E & Hu'). exists u'. split; auto.
    apply (is_mat_ext _ _ _ _ _ Hu'). intros a b _ _. cbn beta.
    destruct (Nat.eqb_spec a i) as [->|]; cbn [andb]; auto.
    destruct (Nat.eqb_spec b j) as [->|].
    + rewrite Nat.leb_refl. reflexivity.
    + destruct (Nat.ltb_spec b j), (Nat.leb_spec b j); auto; lia.
  Qed.

  Lemma m_scale_ext r c m g x : is_mat r c m g ->
    exists u, m_scale op m (MExt x) = Ok u /\ is_mat r c u (fun i j => op (g i j) x).
  Proof using.
    intros Hm. apply (m_scale_loop r c m g); auto. intros i j u _ _ _. exists x. auto.
  Qed.

  (** Elements up to [(p, q)] see the old value of the reference, those after it the scaled one. *)
  Lemma m_scale_own r c m g p q : is_mat r c m g -> p < r -> q < c ->
    exists u, m_scale op m (MOwn p q) = Ok u /\
      is_mat r c u (fun i j => op (g i j) (if (i <? p) || ((i =? p) && (j <=? q)) then g p q
                                           else op (g p q) (g p q))).
  Proof using.
    clear vzero dbg junk. intros Hm Hp Hq. apply (m_scale_loop r c m g); auto. intros i j u Hi Hj Hu.
    cbn [mread]. rewrite (is_mat_get _ _ _ _ p q Hu Hp Hq). eexists. split; [reflexivity|].
    rewrite Nat.ltb_irrefl, Nat.eqb_refl, Nat.leb_refl. cbn [orb andb]. f_equal.
    destruct (Nat.ltb_spec p i), (Nat.ltb_spec i p), (Nat.eqb_spec p i), (Nat.eqb_spec i p),
      (Nat.ltb_spec q j), (Nat.leb_spec j q); cbn; auto; lia.
  Qed.

  Lemma m_op_assign_ok r c m g o h : is_mat r c m g -> is_mat r c o h ->
    exists u, m_op_assign dbg op m (Some o) = Ok u /\ is_mat r c u (fun i j => op (g i j) (h i j)).
  Proof using.
    clear vzero junk. intros Hm Ho. unfold m_op_assign. cbn [other_of].
    rewrite (assert_ok dbg _ (same_size_spec _ _ _ _ _ _ Hm Ho)). cbn [bind]. rewrite (proj1 Hm).
    apply (mat_loop r c m g); auto. intros i u Hi Hu.
    destruct (is_mat_row _ _ _ _ i Hu Hi) as (row & Er & Hrow). rewrite Er. cbn [bind].
    destruct (is_mat_row _ _ _ _ i Ho Hi) as (w & Ew & Hw). rewrite Ew. cbn [bind].
    rewrite Nat.ltb_irrefl in Hrow.
    destruct (v_op_assign_ok op dbg _ _ _ _ _ Hrow Hw) as (row' & Er' & Hrow'). rewrite Er'. cbn [bind].
    exact (is_mat_set_row _ _ _ _ i row' _ Hu Hi Hrow').
  Qed.

  Lemma m_op_assign_self r c m g : is_mat r c m g ->
    exists u, m_op_assign dbg op m None = Ok u /\ is_mat r c u (fun i j => op (g i j) (g i j)).
  Proof using.
    clear vzero junk. intros Hm. unfold m_op_assign. cbn [other_of].
    rewrite (assert_ok dbg _ (same_size_spec _ _ _ _ _ _ Hm Hm)). cbn [bind]. rewrite (proj1 Hm).
    apply (mat_loop r c m g); auto. intros i u Hi Hu.
    destruct (is_mat_row _ _ _ _ i Hu Hi) as (row & Er & Hrow). rewrite Er. cbn [bind].
    rewrite Nat.ltb_irrefl in Hrow.
    destruct (v_op_assign_self op dbg _ _ _ Hrow) as (row' & Er' & Hrow'). rewrite Er'. cbn [bind].
    exact (is_mat_set_row _ _ _ _ i row' _ Hu Hi Hrow').
  Qed.

  Lemma m_promote_typed s0 s1 r c : mtyped s0 r c -> mtyped s1 r c -> mtyped (m_promote s0 s1) r c.
  Proof using. intros H0 H1. unfold m_promote. destruct (fst s0 =? 0); auto. Qed.

  Lemma m_op_ok s0 s1 r c m g o h : is_mat r c m g -> is_mat r c o h -> mtyped s0 r c -> mtyped s1 r c ->
    exists u, m_op vzero dbg op s0 s1 m o = Ok u /\ is_mat r c u (fun i j => op (g i j) (h i j)).
  Proof using.
    intros Hm Ho H0 H1. unfold m_op. rewrite (assert_ok dbg _ (same_size_spec _ _ _ _ _ _ Hm Ho)). cbn [bind].
    rewrite (is_mat_rows _ _ _ _ Hm). destruct r as [|r].
    - assert (m_cols m = 0) as -> by (destruct Hm as [Hm _]; destruct m; [reflexivity|discriminate]).
      assert (m_promote s0 s1 = (0, 0)) as ->.
      { unfold m_promote, mtyped in *. destruct H0 as [->|(-> & ? & _)]; [|lia].
        destruct H1 as [->|(-> & ? & _)]; [reflexivity|lia]. }
      eexists. split; [reflexivity|]. apply is_mat_nil.
    - rewrite (is_mat_cols _ _ _ _ Hm) by lia.
      apply m_lambda_ok; [apply m_promote_typed; auto|].
      intros i j Hi Hj. rewrite (is_mat_get _ _ _ _ i j Hm Hi Hj), (is_mat_get _ _ _ _ i j Ho Hi Hj). reflexivity.
  Qed.
End Ops.

Section Products.
  Context {V : Type}.
  Variables (vzero : V) (vadd vmul : V -> V -> V) (dbg : bool) (junk : nat -> V).
  Implicit Types (m o : list (list V)).

  Lemma mul_loops_ok r k c copy a o b m : is_mat r k copy a -> is_mat k c o b ->
    is_mat r c m (fun _ _ => vzero) ->
    exists u, m_mul_loops vzero vadd vmul copy (Some o) m = Ok u /\
      is_mat r c u (fun i j => asum vzero vadd k (fun l => vmul (a i l) (b l j))).
  Proof using.
    clear dbg junk. intros Hc Ho Hm. unfold m_mul_loops. cbn [other_of].
    rewrite (is_mat_rows _ _ _ _ Hm), (is_mat_rows _ _ _ _ Ho).
    apply (mat_loop r c m (fun _ _ => vzero)); auto. intros i u Hi Hu.
    set (S := fun l j => asum vzero vadd l (fun l => vmul (a i l) (b l j))).
    set (G := fun (p q : nat) => if p <? i then asum vzero vadd k (fun l => vmul (a p l) (b l q)) else vzero).
    change (is_mat r c u G) in Hu.
    destruct (FOR_inv (fun l w => is_mat r c w (fun p q => if p =? i then S l q else G p q)) k
                (fun l m => FOR (m_cols m) (fun j m =>
                   do m <- (if l =? 0 then mset m i j vzero else Ok m);
                   do x <- mget m i j; do a <- mget copy i l; do b <- mget o l j;
                   mset m i j (vadd x (vmul a b))) m) u) as (w & E & Hw).
    - apply (is_mat_ext _ _ _ _ _ Hu). intros p q _ _. cbn beta.
      destruct (Nat.eqb_spec p i) as [->|]; auto. unfold G. rewrite Nat.ltb_irrefl. reflexivity.
    - intros l w Hl Hw. rewrite (is_mat_cols _ _ _ _ Hw) by lia.
      destruct (mat_row_loop r c w _ i (S (l + 1)) (fun j m =>
                   do m <- (if l =? 0 then mset m i j vzero else Ok m);
                   do x <- mget m i j; do a <- mget copy i l; do b <- mget o l j;
                   mset m i j (vadd x (vmul a b))) Hw Hi) as (w' & E' & Hw').
      + intros j x Hj Hx.
        assert (Hx' : exists x', (if l =? 0 then mset x i j vzero else Ok x) = Ok x' /\
          is_mat r c x' (fun p q => if (p =? i) && (q <? j) then S (l + 1) q
                                    else if p =? i then S l q else G p q)).
        { destruct (Nat.eqb_spec l 0) as [->|]; [|exists x; auto].
          destruct (is_mat_set _ _ _ _ i j vzero Hx Hi Hj) as (x' & Ex & Hx'). exists x'. split; auto.
          apply (is_mat_ext _ _ _ _ _ Hx'). intros p q _ _. cbn beta.
          destruct (Nat.eqb_spec p i) as [->|]; cbn [andb]; auto.
          destruct (Nat.eqb_spec q j) as [->|]; auto.
          destruct (Nat.ltb_spec j j); [lia|reflexivity]. }
        destruct Hx' as (x' & Ex & Hx'). rewrite Ex. cbn [bind].
        rewrite (is_mat_get _ _ _ _ i j Hx' Hi Hj). cbn [bind].
        rewrite (is_mat_get _ _ _ _ i l Hc Hi Hl). cbn [bind].
        rewrite (is_mat_get _ _ _ _ l j Ho Hl Hj). cbn [bind].
        rewrite Nat.eqb_refl, Nat.ltb_irrefl. cbn [andb].
        destruct (is_mat_set _ _ _ _ i j (vadd (S l j) (vmul (a i l) (b l j))) Hx' Hi Hj) as (y & Ey & Hy).
        exists y. split; auto. apply (is_mat_ext _ _ _ _ _ Hy). intros p q _ _. cbn beta.
        destruct (Nat.eqb_spec p i) as [->|]; cbn [andb]; auto.
        destruct (Nat.eqb_spec q j) as [->|].
        * rewrite Nat.leb_refl. unfold S. rewrite Nat.add_1_r. reflexivity.
        * destruct (Nat.ltb_spec q j), (Nat.leb_spec q j); auto; lia.
      + exists w'. split; auto. apply (is_mat_ext _ _ _ _ _ Hw'). intros p q _ _. cbn beta.
        destruct (p =? i); reflexivity.
    - exists w. split; auto.
  Qed.

  (** The product of static matrices works when both are of the same square shape. *)
  Lemma m_mul_assign_ok s r k c m a o b : is_mat r k m a -> (r = 0 -> k = 0) -> is_mat k c o b -> (k = 0 -> c = 0) ->
    s = (0, 0) \/ (s = (r, k) /\ r = k /\ k = c /\ 0 < c) ->
    exists u, m_mul_assign vzero vadd vmul dbg s m (Some o) = Ok u /\
      is_mat r c u (fun i j => asum vzero vadd k (fun l => vmul (a i l) (b l j))).
  Proof using.
    clear junk. intros Hm Hr Ho Hk Hs. unfold m_mul_assign. cbn [other_of].
    rewrite (is_mat_rows _ _ _ _ Hm), (shape_cols _ _ _ _ Hm), (is_mat_rows _ _ _ _ Ho),
      (shape_cols _ _ _ _ Ho) by auto.
    destruct Hs as [->|(-> & -> & -> & Hc)]; cbn [fst Nat.eqb].
    - rewrite (assert_ok dbg _ (Nat.eqb_refl k)). cbn [bind].
      apply mul_loops_ok; auto. apply m_resize_nil.
    - destruct (Nat.eqb_spec c 0); [lia|].
      rewrite (assert_ok dbg _ (same_size_spec _ _ _ _ _ _ Hm Ho)). cbn [bind].
      apply mul_loops_ok; auto. apply repeat_mat.
  Qed.

  Lemma m_times_ok s0 s1 r k c m a o b : is_mat r k m a -> (r = 0 -> k = 0) -> is_mat k c o b -> (k = 0 -> c = 0) ->
    mtyped s0 r k -> mtyped s1 k c -> (s0 = (0, 0) \/ s1 = (0, 0) \/ (r = k /\ k = c)) ->
    exists u, m_times vzero vadd vmul dbg s0 s1 m o = Ok u /\
      is_mat r c u (fun i j => asum vzero vadd k (fun l => vmul (a i l) (b l j))).
  Proof using.
    intros Hm Hr Ho Hk T0 T1 Hs. unfold m_times.
    rewrite (shape_cols _ _ _ _ Hm), (is_mat_rows _ _ _ _ Ho), (is_mat_rows _ _ _ _ Hm) by auto.
    rewrite (assert_ok dbg _ (Nat.eqb_refl k)). cbn [bind].
    assert (Hd : m_demote s0 s1 = (0, 0) \/ (m_demote s0 s1 = (r, k) /\ r = k /\ k = c /\ 0 < c)).
    { unfold m_demote, mtyped in *. destruct T0 as [->|(-> & _ & _)]; [left; reflexivity|].
      destruct T1 as [->|(-> & _ & ?)]; [left; cbn [fst]; rewrite orb_true_r; reflexivity|].
      cbn [fst snd]. destruct (Nat.eqb_spec r 0), (Nat.eqb_spec k 0); auto.
      right. cbn [orb]. assert (r = k /\ k = c) as [<- <-] by (destruct Hs as [Hs|[Hs|Hs]]; [congruence|congruence|auto]).
      auto. }
    destruct (m_lambda_ok vzero dbg (m_demote s0 s1) r k (fun i j => mget m i j) a) as (t & Et & Ht).
    - destruct Hd as [->|(-> & -> & -> & ?)]; [left; auto|right; auto].
    - intros i j Hi Hj. apply (is_mat_get _ _ _ _ i j Hm Hi Hj).
    - rewrite Et. cbn [bind]. apply m_mul_assign_ok; auto.
  Qed.

  (** Two static matrices that are not square of the same size are refused with assertions enabled. *)
  Lemma m_times_static_abort r k c m a o b : dbg = true -> is_mat r k m a -> is_mat k c o b -> 0 < r -> 0 < k ->
    ~ (r = k /\ k = c) ->
    m_times vzero vadd vmul dbg (r, k) (k, c) m o = Abort.
  Proof using.
    intros Hd Hm Ho Hr Hk Hne. unfold m_times.
    rewrite (is_mat_cols _ _ _ _ Hm), (is_mat_rows _ _ _ _ Ho), (is_mat_rows _ _ _ _ Hm) by auto.
    rewrite (assert_ok dbg _ (Nat.eqb_refl k)). cbn [bind].
    unfold m_demote. cbn [fst snd].
    destruct (Nat.eqb_spec r 0) as [|_]; [lia|]. destruct (Nat.eqb_spec k 0) as [|_]; [lia|]. cbn [orb].
    destruct (Nat.eq_dec k c) as [<-|Hkc].
    - destruct (m_lambda_ok vzero dbg (r, k) r k (fun i j => mget m i j) a) as (t & Et & Ht).
      + right. auto.
      + intros i j Hi Hj. apply (is_mat_get _ _ _ _ i j Hm Hi Hj).
      + rewrite Et. cbn [bind]. unfold m_mul_assign. cbn [fst other_of].
        destruct (Nat.eqb_spec r 0) as [|_]; [lia|].
        rewrite (same_size_false r k k k t o a b); auto. rewrite Hd. reflexivity.
    - unfold m_lambda. cbn [fst snd]. destruct (Nat.eqb_spec r 0) as [|_]; [lia|].
      destruct (Nat.eqb_spec k c); [contradiction|]. rewrite andb_false_r, Hd. reflexivity.
  Qed.

  (** [A *= A]: the argument has been emptied before it is read. *)
  Lemma m_mul_self_zero s n m a : is_mat n n m a -> mtyped s n n ->
    (forall x, vadd vzero (vmul x vzero) = vzero) ->
    exists u, m_mul_assign vzero vadd vmul dbg s m None = Ok u /\ is_mat n n u (fun _ _ => vzero).
  Proof using.
    clear junk. intros Hm Hs Hz.
    assert (L : forall w, is_mat n n w (fun _ _ => vzero) ->
              exists u, m_mul_loops vzero vadd vmul m None w = Ok u /\ is_mat n n u (fun _ _ => vzero)).
    { intros w Hw. unfold m_mul_loops. cbn [other_of]. rewrite (is_mat_rows _ _ _ _ Hw).
      apply (FOR_inv (fun _ u => is_mat n n u (fun _ _ => vzero)) n); auto. clear w Hw.
      intros i w Hi Hw. rewrite (is_mat_rows _ _ _ _ Hw).
      apply (FOR_inv (fun _ u => is_mat n n u (fun _ _ => vzero)) n); auto. clear w Hw.
      intros k w Hk Hw. rewrite (is_mat_cols _ _ _ _ Hw) by lia.
      apply (FOR_inv (fun _ u => is_mat n n u (fun _ _ => vzero)) n); auto. clear w Hw.
      intros j w Hj Hw.
      assert (Hx : exists x, (if k =? 0 then mset w i j vzero else Ok w) = Ok x /\ is_mat n n x (fun _ _ => vzero)).
      { destruct (k =? 0); [|exists w; auto].
        destruct (is_mat_set _ _ _ _ i j vzero Hw Hi Hj) as (x & Ex & Hx). exists x. split; auto.
        apply (is_mat_ext _ _ _ _ _ Hx). intros p q _ _. destruct (_ && _); reflexivity. }
      destruct Hx as (x & Ex & Hx). rewrite Ex. cbn [bind].
      rewrite (is_mat_get _ _ _ _ i j Hx Hi Hj). cbn [bind].
      rewrite (is_mat_get _ _ _ _ i k Hm Hi Hk). cbn [bind].
      rewrite (is_mat_get _ _ _ _ k j Hx Hk Hj). cbn [bind]. rewrite Hz.
      destruct (is_mat_set _ _ _ _ i j vzero Hx Hi Hj) as (y & Ey & Hy). exists y. split; auto.
      apply (is_mat_ext _ _ _ _ _ Hy). intros p q _ _. destruct (_ && _); reflexivity. }
    unfold m_mul_assign. cbn [other_of]. rewrite (is_mat_rows _ _ _ _ Hm).
    assert (Ec : m_cols m = n).
    { destruct n; [destruct Hm as [Hm _]; destruct m; [reflexivity|discriminate]|].
      apply (is_mat_cols _ _ _ _ Hm). lia. }
    rewrite Ec. destruct Hs as [->|(-> & Hn & _)]; cbn [fst Nat.eqb].
    - rewrite (assert_ok dbg _ (Nat.eqb_refl n)). cbn [bind]. apply L, m_resize_nil.
    - destruct (Nat.eqb_spec n 0); [lia|].
      rewrite (assert_ok dbg _ (same_size_spec _ _ _ _ _ _ Hm Hm)). cbn [bind]. apply L, repeat_mat.
  Qed.

  (** Number of components operator*(matrix, vector) computes. *)
  Lemma m_vec_ok r n R C m g v f L : is_mat R C m g -> is_vec C v f -> (R = 0 -> C = 0) ->
    (promote r n = 0 /\ L = C) \/ (0 < promote r n /\ L = promote r n /\ (dbg = true -> L = C)) ->
    L <= R ->
    exists u, m_vec vzero vadd vmul dbg junk r n m v = Ok u /\
      is_vec L u (fun i => asum vzero vadd C (fun j => vmul (g i j) (f j))).
  Proof using.
    intros Hm Hv HR HL Hle. unfold m_vec. rewrite (shape_cols _ _ _ _ Hm), (proj1 Hv) by auto.
    rewrite (assert_ok dbg _ (Nat.eqb_refl C)). cbn [bind]. unfold v_lambda.
    set (F := fun i => do row <- vget m i; dot vzero vadd vmul dbg row v).
    assert (HF : forall i, i < L -> F i = Ok (asum vzero vadd C (fun j => vmul (g i j) (f j)))).
    { intros i Hi. unfold F. destruct (is_mat_row _ _ _ _ i Hm ltac:(lia)) as (row & Er & Hrow). rewrite Er.
      cbn [bind]. apply dot_ok; auto. }
    destruct HL as [[E0 ->]|(Hp & EL & Hd)].
    - rewrite E0. cbn [Nat.eqb]. apply (v_fill_ok _ _ (fun _ => vzero)); auto. split; [apply repeat_length|].
      intros i Hi. apply nth_error_repeat, Hi.
    - destruct (Nat.eqb_spec (promote r n) 0); [lia|].
      rewrite assert_ok' by (intro; apply Nat.eqb_eq; rewrite <- EL; symmetry; auto).
      cbn [bind]. rewrite <- EL.
      apply (v_fill_ok _ _ junk); auto. apply is_vec_map.
  Qed.

  (** More columns than rows in a dynamic matrix: a row that does not exist is read. *)
  Lemma m_vec_undef R C m g v f : is_mat R C m g -> is_vec C v f -> 0 < R -> R < C ->
    m_vec vzero vadd vmul dbg junk 0 0 m v = Undef.
  Proof using.
    intros Hm Hv HR Hlt. unfold m_vec. rewrite (is_mat_cols _ _ _ _ Hm), (proj1 Hv) by auto.
    rewrite (assert_ok dbg _ (Nat.eqb_refl C)). cbn [bind promote Nat.eqb]. unfold v_lambda, v_fill.
    cbn [Nat.eqb]. rewrite repeat_length.
    apply (FOR_undef (fun _ u => length u = C) C R).
    - auto.
    - apply repeat_length.
    - intros i u Hi Hu. destruct (is_mat_row _ _ _ _ i Hm Hi) as (row & Er & Hrow). rewrite Er. cbn [bind].
      rewrite (dot_ok vzero vadd vmul dbg _ _ _ _ _ Hrow Hv). cbn [bind].
      rewrite vset_lt by lia. eexists. split; [reflexivity|]. rewrite upd_length; lia.
    - intros u _. rewrite (vget_ge m R); [reflexivity|]. rewrite (proj1 Hm). lia.
  Qed.

  (** A static matrix that is not square is refused when assertions are enabled. *)
  Lemma m_vec_abort n R C m g v f : dbg = true -> is_mat R C m g -> is_vec C v f -> 0 < R -> R <> C ->
    m_vec vzero vadd vmul dbg junk R n m v = Abort.
  Proof using.
    intros -> Hm Hv HR Hne. unfold m_vec. rewrite (is_mat_cols _ _ _ _ Hm), (proj1 Hv) by auto.
    rewrite Nat.eqb_refl. cbn [ASSERT_DEBUG ASSERT bind]. unfold v_lambda, promote.
    destruct (Nat.eqb_spec R 0); [lia|]. destruct (Nat.eqb_spec R 0); [lia|].
    destruct (Nat.eqb_spec C R); [lia|]. reflexivity.
  Qed.
End Products.
