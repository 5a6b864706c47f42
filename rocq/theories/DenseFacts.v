(** Element-wise behaviour of dense vectors and matrices. *)
From Verif Require Import Base ListFacts DenseModel.

(** [v] has the [n] components [f 0 .. f (n - 1)]. *)
Definition is_vec {V : Type} (n : nat) (v : list V) (f : nat -> V) : Prop :=
  length v = n /\ forall i, i < n -> nth_error v i = Some (f i).

(** [m] is the [r] by [c] matrix with elements [g i j]. *)
Definition is_mat {V : Type} (r c : nat) (m : list (list V)) (g : nat -> nat -> V) : Prop :=
  length m = r /\ forall i, i < r -> exists row, nth_error m i = Some row /\ is_vec c row (g i).

(** A static vector has as many elements as its template size. *)
Definition vtyped {V : Type} (n : nat) (v : list V) : Prop := n = 0 \/ length v = n.

(** The template sizes of a matrix are both 0 (dynamic) or are its dimensions. *)
Definition mtyped (s : nat * nat) (r c : nat) : Prop :=
  s = (0, 0) \/ (s = (r, c) /\ 0 < r /\ 0 < c).

(** Sum of [f 0 .. f (n - 1)] in ascending order. *)
Fixpoint asum {V : Type} (vzero : V) (vadd : V -> V -> V) (n : nat) (f : nat -> V) : V :=
  match n with
  | 0 => vzero
  | S k => vadd (asum vzero vadd k f) (f k)
  end.

Lemma asum_ext {V} (z : V) a n f g : (forall i, i < n -> f i = g i) -> asum z a n f = asum z a n g.
Proof.
  induction n as [|n IH]; intro H; cbn [asum]; auto. rewrite IH by (intros; apply H; lia).
  rewrite (H n) by lia. reflexivity.
Qed.

Section Vec.
  Context {V : Type}.
  Implicit Types (v w : list V) (f g h : nat -> V).

  Lemma is_vec_get n v f i : is_vec n v f -> i < n -> vget v i = Ok (f i).
  Proof. intros [_ H] Hi. apply vget_Ok, H, Hi. Qed.

  Lemma is_vec_ext n v f g : is_vec n v f -> (forall i, i < n -> f i = g i) -> is_vec n v g.
  Proof. intros [L H] E. split; auto. intros i Hi. rewrite <- E by auto. auto. Qed.

  Lemma is_vec_set n v f i x : is_vec n v f -> i < n ->
    exists v', vset v i x = Ok v' /\ is_vec n v' (fun j => if j =? i then x else f j).
  Proof.
    intros [L H] Hi. exists (upd v i x). split; [apply vset_lt; lia|]. split.
    - rewrite upd_length; lia.
    - intros j Hj. rewrite nth_error_upd by lia. destruct (j =? i); auto.
  Qed.

  Lemma is_vec_self v (d : V) : is_vec (length v) v (fun i => nth i v d).
  Proof. split; auto. intros i Hi. apply nth_error_nth_lt, Hi. Qed.

  Lemma is_vec_map (f : nat -> V) n : is_vec n (map f (seq 0 n)) f.
  Proof.
    split; [rewrite map_length, seq_length; auto|]. intros i Hi.
    rewrite nth_error_map. rewrite (nth_error_nth' _ 0) by (rewrite seq_length; auto).
    rewrite seq_nth by auto. reflexivity.
  Qed.

  Lemma is_vec_eq n v w f g : is_vec n v f -> is_vec n w g -> (forall i, i < n -> f i = g i) -> v = w.
  Proof.
    intros [Lv Hv] [Lw Hw] E. apply nth_error_ext. intro i.
    destruct (Nat.lt_ge_cases i n) as [Hi|Hi].
    - rewrite Hv, Hw, E by auto. reflexivity.
    - rewrite (proj2 (nth_error_None v i)), (proj2 (nth_error_None w i)) by lia. reflexivity.
  Qed.

  (** A loop writing element [i] in iteration [i]. *)
  Lemma write_loop n v f h (step : nat -> list V -> res (list V)) : is_vec n v f ->
    (forall i u, i < n -> is_vec n u (fun j => if j <? i then h j else f j) -> step i u = vset u i (h i)) ->
    exists u, FOR n step v = Ok u /\ is_vec n u h.
  Proof.
    intros Hv Hs.
    destruct (FOR_inv (fun i u => is_vec n u (fun j => if j <? i then h j else f j)) n step v)
      as (u & E & Hu).
    - apply (is_vec_ext _ _ _ _ Hv). intros j _. reflexivity.
    - intros i u Hi Hu. rewrite (Hs i u Hi Hu).
      destruct (is_vec_set _ _ _ i (h i) Hu Hi) as (u' & E & Hu'). exists u'. split; auto.
      apply (is_vec_ext _ _ _ _ Hu'). intros j _. cbn beta.
      destruct (Nat.eqb_spec j i) as [->|Hne].
      + destruct (Nat.ltb_spec i (i + 1)); [reflexivity|lia].
      + destruct (Nat.ltb_spec j i), (Nat.ltb_spec j (i + 1)); auto; lia.
    - exists u. split; auto. apply (is_vec_ext _ _ _ _ Hu). intros j Hj.
      destruct (Nat.ltb_spec j n); [reflexivity|lia].
  Qed.
End Vec.

Section VecOps.
  Context {V : Type}.
  Variables (vzero : V) (vadd vmul : V -> V -> V) (op : V -> V -> V) (dbg : bool) (junk : nat -> V).
  Implicit Types (v w : list V) (f g h : nat -> V).

  Lemma v_list_dynamic l : v_list vzero dbg junk 0 l = Ok l.
  Proof using.
    unfold v_list. cbn [Nat.eqb]. unfold vwrite, vresize. cbn [length app firstn].
    rewrite firstn_nil, app_nil_l, Nat.sub_0_r, repeat_length, Nat.add_0_l, Nat.leb_refl.
    f_equal. rewrite skipn_all2, app_nil_r by (rewrite repeat_length; auto). reflexivity.
  Qed.

  Lemma v_list_static n l : 0 < n -> length l = n -> v_list vzero dbg junk n l = Ok l.
  Proof using.
    clear op vadd vmul. intros Hn Hl. unfold v_list. destruct (Nat.eqb_spec n 0); [lia|]. rewrite Hl, Nat.eqb_refl.
    assert (E : ASSERT_DEBUG dbg true = Ok tt) by (destruct dbg; reflexivity). rewrite E. cbn [bind].
    unfold vwrite. rewrite map_length, seq_length, Nat.add_0_l, Hl, Nat.leb_refl. cbn [firstn app].
    rewrite skipn_all2, app_nil_r by (rewrite map_length, seq_length; auto). reflexivity.
  Qed.

  Lemma assert_ok (b : bool) : b = true -> ASSERT_DEBUG dbg b = Ok tt.
  Proof using. intros ->. destruct dbg; reflexivity. Qed.

  Lemma assert_ok' (b : bool) : (dbg = true -> b = true) -> ASSERT_DEBUG dbg b = Ok tt.
  Proof using. destruct dbg; intro H; [rewrite H|]; reflexivity. Qed.

  Lemma v_fill_ok n v f (F : nat -> res V) h : is_vec n v f -> (forall i, i < n -> F i = Ok (h i)) ->
    exists u, v_fill F v = Ok u /\ is_vec n u h.
  Proof using.
    intros Hv HF. unfold v_fill. rewrite (proj1 Hv). apply (write_loop n v f h); auto.
    intros i u Hi _. rewrite HF by auto. reflexivity.
  Qed.

  Lemma v_lambda_ok n (F : nat -> res V) size h : n = 0 \/ n = size ->
    (forall i, i < size -> F i = Ok (h i)) ->
    exists u, v_lambda vzero dbg junk n F size = Ok u /\ is_vec size u h.
  Proof using.
    clear op vadd vmul. intros Hn HF. unfold v_lambda. destruct (Nat.eqb_spec n 0) as [->|H0].
    - apply (v_fill_ok _ _ (fun _ => vzero)); auto. split; [apply repeat_length|].
      intros i Hi. apply nth_error_repeat, Hi.
    - assert (n = size) as -> by tauto. rewrite (assert_ok _ (Nat.eqb_refl size)). cbn [bind].
      apply (v_fill_ok _ _ junk); auto. apply is_vec_map.
  Qed.

  Lemma v_scale_ext n v f s : is_vec n v f ->
    exists u, v_scale op v (Ext s) = Ok u /\ is_vec n u (fun i => op (f i) s).
  Proof using.
    intros Hv. unfold v_scale. rewrite (proj1 Hv). apply (write_loop n v f); auto.
    intros i u Hi Hu. cbn [sread bind]. rewrite (is_vec_get _ _ _ _ Hu Hi). cbn [bind].
    destruct (Nat.ltb_spec i i); [lia|reflexivity].
  Qed.

  (** Scaling by a reference to component [k]: the components up to [k] see the old value, those after
      [k] the scaled one. *)
  Lemma v_scale_own n v f k : is_vec n v f -> k < n ->
    exists u, v_scale op v (Own k) = Ok u /\
      is_vec n u (fun i => op (f i) (if i <=? k then f k else op (f k) (f k))).
  Proof using.
    intros Hv Hk. unfold v_scale. rewrite (proj1 Hv).
    apply (write_loop n v f (fun i => op (f i) (if i <=? k then f k else op (f k) (f k)))); auto.
    intros i u Hi Hu. cbn [sread bind]. rewrite (is_vec_get _ _ _ _ Hu Hi). cbn [bind].
    rewrite (is_vec_get _ _ _ _ Hu Hk). cbn [bind]. destruct (Nat.ltb_spec i i); [lia|].
    rewrite Nat.leb_refl.
    destruct (Nat.ltb_spec k i), (Nat.leb_spec i k); auto; lia.
  Qed.

  Lemma v_op_assign_ok n v f w g : is_vec n v f -> is_vec n w g ->
    exists u, v_op_assign dbg op v (Some w) = Ok u /\ is_vec n u (fun i => op (f i) (g i)).
  Proof using.
    intros Hv Hw. unfold v_op_assign. cbn [other_of]. rewrite (proj1 Hv), (proj1 Hw).
    rewrite (assert_ok _ (Nat.eqb_refl n)). cbn [bind]. apply (write_loop n v f); auto.
    intros i u Hi Hu. rewrite (is_vec_get _ _ _ _ Hu Hi). cbn [bind].
    rewrite (is_vec_get _ _ _ _ Hw Hi). cbn [bind].
    destruct (Nat.ltb_spec i i); [lia|reflexivity].
  Qed.

  Lemma v_op_assign_self n v f : is_vec n v f ->
    exists u, v_op_assign dbg op v None = Ok u /\ is_vec n u (fun i => op (f i) (f i)).
  Proof using.
    intros Hv. unfold v_op_assign. cbn [other_of]. rewrite (proj1 Hv).
    rewrite (assert_ok _ (Nat.eqb_refl n)). cbn [bind]. apply (write_loop n v f); auto.
    intros i u Hi Hu. rewrite (is_vec_get _ _ _ _ Hu Hi). cbn [bind].
    destruct (Nat.ltb_spec i i); [lia|reflexivity].
  Qed.

  Lemma v_op_ok n0 n1 n v f w g : is_vec n v f -> is_vec n w g -> vtyped n0 v -> vtyped n1 w ->
    exists u, v_op vzero dbg junk op n0 n1 v w = Ok u /\ is_vec n u (fun i => op (f i) (g i)).
  Proof using.
    clear vadd vmul. intros Hv Hw H0 H1. unfold v_op. rewrite (proj1 Hv), (proj1 Hw).
    rewrite (assert_ok _ (Nat.eqb_refl n)). cbn [bind]. unfold vtyped in *.
    rewrite (proj1 Hv) in H0. rewrite (proj1 Hw) in H1.
    apply v_lambda_ok.
    - unfold promote. destruct (Nat.eqb_spec n0 0); lia.
    - intros i Hi. rewrite (is_vec_get _ _ _ _ Hv Hi), (is_vec_get _ _ _ _ Hw Hi). reflexivity.
  Qed.

  Lemma dot_ok n v f w g : is_vec n v f -> is_vec n w g ->
    dot vzero vadd vmul dbg v w = Ok (asum vzero vadd n (fun i => vmul (f i) (g i))).
  Proof using.
    intros Hv Hw. unfold dot. rewrite (proj1 Hv), (proj1 Hw).
    rewrite (assert_ok _ (Nat.eqb_refl n)). cbn [bind].
    destruct (FOR_inv (fun i s => s = asum vzero vadd i (fun i => vmul (f i) (g i))) n
                (fun i s => do x <- vget v i; do y <- vget w i; Ok (vadd s (vmul x y))) vzero)
      as (s & E & Es).
    - reflexivity.
    - intros i s Hi ->. rewrite (is_vec_get _ _ _ _ Hv Hi), (is_vec_get _ _ _ _ Hw Hi). cbn [bind].
      eexists. split; [reflexivity|]. rewrite Nat.add_1_r. reflexivity.
    - rewrite E, Es. reflexivity.
  Qed.
End VecOps.

Section Mat.
  Context {V : Type}.
  Implicit Types (m o : list (list V)) (f g h : nat -> nat -> V).

  Lemma is_mat_row r c m g i : is_mat r c m g -> i < r ->
    exists row, vget m i = Ok row /\ is_vec c row (g i).
  Proof. intros [_ H] Hi. destruct (H i Hi) as (row & E & Hr). exists row. split; auto. apply vget_Ok, E. Qed.

  Lemma is_mat_get r c m g i j : is_mat r c m g -> i < r -> j < c -> mget m i j = Ok (g i j).
  Proof.
    intros H Hi Hj. destruct (is_mat_row _ _ _ _ _ H Hi) as (row & E & Hr).
    unfold mget. rewrite E. cbn [bind]. exact (is_vec_get _ _ _ _ Hr Hj).
  Qed.

  Lemma is_mat_ext r c m g h : is_mat r c m g -> (forall i j, i < r -> j < c -> g i j = h i j) ->
    is_mat r c m h.
  Proof.
    intros [L H] E. split; auto. intros i Hi. destruct (H i Hi) as (row & En & Hr). exists row. split; auto.
    apply (is_vec_ext _ _ _ _ Hr). auto.
  Qed.

  Lemma is_mat_set_row r c m g i (row : list V) (h : nat -> V) : is_mat r c m g -> i < r -> is_vec c row h ->
    exists m', vset m i row = Ok m' /\ is_mat r c m' (fun a b => if a =? i then h b else g a b).
  Proof.
    intros [L H] Hi Hrow. exists (upd m i row). split; [apply vset_lt; lia|]. split.
    - rewrite upd_length; lia.
    - intros a Ha. rewrite nth_error_upd by lia. destruct (Nat.eqb_spec a i) as [->|Hne].
      + exists row. auto.
      + apply H, Ha.
  Qed.

  Lemma is_mat_set r c m g i j x : is_mat r c m g -> i < r -> j < c ->
    exists m', mset m i j x = Ok m' /\
      is_mat r c m' (fun a b => if (a =? i) && (b =? j) then x else g a b).
  Proof.
    intros H Hi Hj. destruct (is_mat_row _ _ _ _ _ H Hi) as (row & E & Hr).
    destruct (is_vec_set _ _ _ j x Hr Hj) as (row' & E' & Hr').
    destruct (is_mat_set_row _ _ _ _ i row' _ H Hi Hr') as (m' & Em & Hm').
    exists m'. unfold mset. rewrite E. cbn [bind]. rewrite E'. cbn [bind]. split; auto.
    apply (is_mat_ext _ _ _ _ _ Hm'). intros a b _ _. cbn beta.
    destruct (Nat.eqb_spec a i) as [->|]; reflexivity.
  Qed.

  Lemma is_mat_rows r c m g : is_mat r c m g -> m_rows m = r.
  Proof. intros [L _]. exact L. Qed.

  Lemma is_mat_cols r c m g : is_mat r c m g -> 0 < r -> m_cols m = c.
  Proof.
    intros [L H] Hr. destruct (H 0 Hr) as (row & E & Hv). destruct m as [|x m]; cbn in E; [discriminate|].
    injection E as ->. exact (proj1 Hv).
  Qed.

  (** The number of columns a matrix reports. *)
  Lemma shape_cols r c m g : is_mat r c m g -> (r = 0 -> c = 0) -> m_cols m = c.
  Proof.
    intros Hm H0. destruct r as [|r].
    - rewrite H0 by auto. destruct Hm as [Hm _]. destruct m; [reflexivity|discriminate].
    - apply (is_mat_cols _ _ _ _ Hm). lia.
  Qed.

  Lemma is_mat_repeat r c (x : list V) (h : nat -> V) : is_vec c x h -> is_mat r c (repeat x r) (fun _ => h).
  Proof.
    intro H. split; [apply repeat_length|]. intros i Hi. exists x. split; auto. apply nth_error_repeat, Hi.
  Qed.

  Lemma is_mat_nil c g : is_mat 0 c [] g.
  Proof. split; auto. intros; lia. Qed.

  (** A loop over the columns of row [i]. *)
  Lemma mat_row_loop r c m g i (h : nat -> V) (step : nat -> list (list V) -> res (list (list V))) :
    is_mat r c m g -> i < r ->
    (forall j u, j < c -> is_mat r c u (fun a b => if (a =? i) && (b <? j) then h b else g a b) ->
       exists u', step j u = Ok u' /\ is_mat r c u' (fun a b => if (a =? i) && (b <=? j) then h b else g a b)) ->
    exists u, FOR c step m = Ok u /\ is_mat r c u (fun a b => if a =? i then h b else g a b).
  Proof.
    intros Hm Hi Hs.
    destruct (FOR_inv (fun j u => is_mat r c u (fun a b => if (a =? i) && (b <? j) then h b else g a b))
                c step m) as (u & E & Hu).
    - apply (is_mat_ext _ _ _ _ _ Hm). intros a b _ _. rewrite andb_false_r. reflexivity.
    - intros j u Hj Hu. destruct (Hs j u Hj Hu) as (u' & E & Hu'). exists u'. split; auto.
      apply (is_mat_ext _ _ _ _ _ Hu'). intros a b _ _.
      replace (b <? j + 1) with (b <=? j); auto.
      destruct (Nat.leb_spec b j), (Nat.ltb_spec b (j + 1)); auto; lia.
    - exists u. split; auto. apply (is_mat_ext _ _ _ _ _ Hu). intros a b _ Hb.
      destruct (Nat.ltb_spec b c); [|lia]. rewrite andb_true_r. reflexivity.
  Qed.

  (** A loop over the rows. *)
  Lemma mat_loop r c m g h (step : nat -> list (list V) -> res (list (list V))) :
    is_mat r c m g ->
    (forall i u, i < r -> is_mat r c u (fun a b => if a <? i then h a b else g a b) ->
       exists u', step i u = Ok u' /\
         is_mat r c u' (fun a b => if a =? i then h i b else if a <? i then h a b else g a b)) ->
    exists u, FOR r step m = Ok u /\ is_mat r c u h.
  Proof.
    intros Hm Hs.
    destruct (FOR_inv (fun i u => is_mat r c u (fun a b => if a <? i then h a b else g a b))
                r step m) as (u & E & Hu).
    - apply (is_mat_ext _ _ _ _ _ Hm). reflexivity.
    - intros i u Hi Hu. destruct (Hs i u Hi Hu) as (u' & E & Hu'). exists u'. split; auto.
      apply (is_mat_ext _ _ _ _ _ Hu'). intros a b _ _.
      destruct (Nat.eqb_spec a i) as [->|].
      + destruct (Nat.ltb_spec i (i + 1)); [reflexivity|lia].
      + destruct (Nat.ltb_spec a i), (Nat.ltb_spec a (i + 1)); auto; lia.
    - exists u. split; auto. apply (is_mat_ext _ _ _ _ _ Hu). intros a b Ha _.
      destruct (Nat.ltb_spec a r); [reflexivity|lia].
  Qed.

  (** A loop over all elements in which step [(i, j)] writes element [(i, j)]. *)
  Lemma mat_write_loop r c m g h (step : nat -> nat -> list (list V) -> res (list (list V))) :
    is_mat r c m g ->
    (forall i j u, i < r -> j < c ->
       is_mat r c u (fun a b => if (a <? i) || ((a =? i) && (b <? j)) then h a b else g a b) ->
       step i j u = mset u i j (h i j)) ->
    exists u, FOR r (fun i => FOR c (step i)) m = Ok u /\ is_mat r c u h.
  Proof.
    intros Hm Hs. apply (mat_loop r c m g h); auto. intros i u Hi Hu.
    apply (mat_row_loop r c u _ i (h i)); auto. intros j w Hj Hw.
    rewrite (Hs i j w Hi Hj).
    - destruct (is_mat_set _ _ _ _ i j (h i j) Hw Hi Hj) as (u' & E & Hu'). exists u'. split; auto.
      apply (is_mat_ext _ _ _ _ _ Hu'). intros a b _ _. cbn beta.
      destruct (Nat.eqb_spec a i) as [->|]; cbn [andb]; auto.
      destruct (Nat.eqb_spec b j) as [->|].
      + rewrite Nat.leb_refl. reflexivity.
      + destruct (Nat.ltb_spec b j), (Nat.leb_spec b j); auto; lia.
    - apply (is_mat_ext _ _ _ _ _ Hw). intros a b _ _. cbn beta.
      destruct (Nat.eqb_spec a i) as [->|]; cbn [andb].
      + destruct (Nat.ltb_spec i i); [lia|]. reflexivity.
      + rewrite orb_false_r. reflexivity.
  Qed.
End Mat.
