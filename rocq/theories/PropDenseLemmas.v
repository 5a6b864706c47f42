(** Statements of C44 - C47 put together. *)
From Coq Require Import ZArith.
From Verif Require Import Base ListFacts DenseModel DenseFacts DenseOps.

(** The computation ends normally with the vector of components [h]. *)
Definition gives {V} (x : res (list V)) (n : nat) (h : nat -> V) : Prop :=
  exists u, x = Ok u /\ is_vec n u h.

(** The computation ends normally with the matrix of elements [h]. *)
Definition mgives {V} (x : res (list (list V))) (r c : nat) (h : nat -> nat -> V) : Prop :=
  exists u, x = Ok u /\ is_mat r c u h.

Lemma vector_elementwise {V} (vzero : V) (vadd vsub vmul vdiv : V -> V -> V) dbg junk n0 n1 n v f w g s :
  is_vec n v f -> is_vec n w g -> vtyped n0 v -> vtyped n1 w ->
  gives (v_add_assign vadd dbg v (Some w)) n (fun i => vadd (f i) (g i)) /\
  gives (v_sub_assign vsub dbg v (Some w)) n (fun i => vsub (f i) (g i)) /\
  gives (v_add_assign vadd dbg v None) n (fun i => vadd (f i) (f i)) /\
  gives (v_sub_assign vsub dbg v None) n (fun i => vsub (f i) (f i)) /\
  gives (v_plus vzero vadd dbg junk n0 n1 v w) n (fun i => vadd (f i) (g i)) /\
  gives (v_minus vzero vsub dbg junk n0 n1 v w) n (fun i => vsub (f i) (g i)) /\
  gives (v_times vmul s v) n (fun i => vmul (f i) s) /\
  gives (v_over vdiv v s) n (fun i => vdiv (f i) s).
Proof.
  intros Hv Hw T0 T1.
  split; [exact (v_op_assign_ok vadd dbg n v f w g Hv Hw)|].
  split; [exact (v_op_assign_ok vsub dbg n v f w g Hv Hw)|].
  split; [exact (v_op_assign_self vadd dbg n v f Hv)|].
  split; [exact (v_op_assign_self vsub dbg n v f Hv)|].
  split; [exact (v_op_ok vzero vadd dbg junk n0 n1 n v f w g Hv Hw T0 T1)|].
  split; [exact (v_op_ok vzero vsub dbg junk n0 n1 n v f w g Hv Hw T0 T1)|].
  split; [exact (v_scale_ext vmul n v f s Hv)|exact (v_scale_ext vdiv n v f s Hv)].
Qed.

Lemma vector_mismatch {V} (vzero : V) (vadd vsub : V -> V -> V) junk n0 n1 v w :
  length v <> length w ->
  v_add_assign vadd true v (Some w) = Abort /\
  v_sub_assign vsub true v (Some w) = Abort /\
  v_plus vzero vadd true junk n0 n1 v w = Abort /\
  v_minus vzero vsub true junk n0 n1 v w = Abort.
Proof.
  intro H. apply Nat.eqb_neq in H.
  unfold v_add_assign, v_sub_assign, v_plus, v_minus, v_op_assign, v_op. cbn [other_of].
  rewrite H. repeat split.
Qed.

Lemma matrix_elementwise {V} (vzero : V) (vadd vsub vmul vdiv : V -> V -> V) dbg s0 s1 r c m f o g s :
  is_mat r c m f -> is_mat r c o g -> mtyped s0 r c -> mtyped s1 r c ->
  mgives (m_add_assign vadd dbg m (Some o)) r c (fun i j => vadd (f i j) (g i j)) /\
  mgives (m_sub_assign vsub dbg m (Some o)) r c (fun i j => vsub (f i j) (g i j)) /\
  mgives (m_add_assign vadd dbg m None) r c (fun i j => vadd (f i j) (f i j)) /\
  mgives (m_sub_assign vsub dbg m None) r c (fun i j => vsub (f i j) (f i j)) /\
  mgives (m_plus vzero vadd dbg s0 s1 m o) r c (fun i j => vadd (f i j) (g i j)) /\
  mgives (m_minus vzero vsub dbg s0 s1 m o) r c (fun i j => vsub (f i j) (g i j)) /\
  mgives (m_times_scalar vmul s m) r c (fun i j => vmul (f i j) s) /\
  mgives (m_over_scalar vdiv m s) r c (fun i j => vdiv (f i j) s).
Proof.
  intros Hm Ho T0 T1.
  split; [exact (m_op_assign_ok dbg vadd r c m f o g Hm Ho)|].
  split; [exact (m_op_assign_ok dbg vsub r c m f o g Hm Ho)|].
  split; [exact (m_op_assign_self dbg vadd r c m f Hm)|].
  split; [exact (m_op_assign_self dbg vsub r c m f Hm)|].
  split; [exact (m_op_ok vzero dbg vadd s0 s1 r c m f o g Hm Ho T0 T1)|].
  split; [exact (m_op_ok vzero dbg vsub s0 s1 r c m f o g Hm Ho T0 T1)|].
  split; [exact (m_scale_ext vmul r c m f s Hm)|exact (m_scale_ext vdiv r c m f s Hm)].
Qed.

Lemma matrix_mismatch {V} (vzero : V) (vadd vsub : V -> V -> V) s0 s1 r c r' c' m f o g :
  is_mat r c m f -> is_mat r' c' o g -> r <> r' \/ (0 < r /\ c <> c') ->
  m_add_assign vadd true m (Some o) = Abort /\
  m_sub_assign vsub true m (Some o) = Abort /\
  m_plus vzero vadd true s0 s1 m o = Abort /\
  m_minus vzero vsub true s0 s1 m o = Abort.
Proof.
  intros Hm Ho H.
  unfold m_add_assign, m_sub_assign, m_plus, m_minus, m_op_assign, m_op. cbn [other_of].
  rewrite (same_size_false _ _ _ _ _ _ _ _ Hm Ho H). repeat split.
Qed.

Lemma mat_vec_square {V} (vzero : V) (vadd vmul : V -> V -> V) dbg junk r n R C m g v f :
  is_mat R C m g -> (R = 0 -> C = 0) -> is_vec C v f -> r = 0 \/ r = R -> vtyped n v ->
  R = C \/ (dbg = false /\ 0 < r) ->
  gives (m_vec vzero vadd vmul dbg junk r n m v) R
        (fun i => asum vzero vadd C (fun j => vmul (g i j) (f j))).
Proof.
  intros Hm HR Hv Hr Hn Hs. unfold vtyped in Hn. rewrite (proj1 Hv) in Hn.
  apply (m_vec_ok vzero vadd vmul dbg junk r n R C m g v f R); auto. unfold promote.
  destruct (Nat.eqb_spec r 0) as [E0|]; destruct Hs as [<-|[-> Hr0]]; lia.
Qed.

Lemma mat_vec_tall {V} (vzero : V) (vadd vmul : V -> V -> V) dbg junk R C m g v f :
  is_mat R C m g -> is_vec C v f -> 0 < C -> C < R ->
  gives (m_vec vzero vadd vmul dbg junk 0 0 m v) C
        (fun i => asum vzero vadd C (fun j => vmul (g i j) (f j))).
Proof.
  intros Hm Hv HC Hlt. apply (m_vec_ok vzero vadd vmul dbg junk 0 0 R C m g v f C); auto; try lia.
Qed.

Lemma scale_vector {V} (op : V -> V -> V) n v f (s : sref V) x : is_vec n v f ->
  s = Ext x \/ (0 < n /\ s = Own (n - 1) /\ x = f (n - 1)) ->
  gives (v_scale op v s) n (fun i => op (f i) x).
Proof.
  intros Hv [->|(Hn & -> & ->)]; [exact (v_scale_ext op n v f x Hv)|].
  destruct (v_scale_own op n v f (n - 1) Hv ltac:(lia)) as (u & E & Hu). exists u. split; auto.
  apply (is_vec_ext _ _ _ _ Hu). intros i Hi. destruct (Nat.leb_spec i (n - 1)); [reflexivity|lia].
Qed.

Lemma scale_matrix {V} (op : V -> V -> V) r c m f (s : mref V) x : is_mat r c m f ->
  s = MExt x \/ (0 < r /\ 0 < c /\ s = MOwn (r - 1) (c - 1) /\ x = f (r - 1) (c - 1)) ->
  mgives (m_scale op m s) r c (fun i j => op (f i j) x).
Proof.
  intros Hm [->|(Hr & Hc & -> & ->)]; [exact (m_scale_ext op r c m f x Hm)|].
  destruct (m_scale_own op r c m f (r - 1) (c - 1) Hm ltac:(lia) ltac:(lia)) as (u & E & Hu).
  exists u. split; auto. apply (is_mat_ext _ _ _ _ _ Hu). intros i j Hi Hj.
  destruct (Nat.ltb_spec i (r - 1)), (Nat.eqb_spec i (r - 1)), (Nat.leb_spec j (c - 1)); cbn; auto; lia.
Qed.

(** Building the witnesses of the examples. *)
Lemma is_vec_list {V} (d : V) (l : list V) : is_vec (length l) l (fun i => nth i l d).
Proof. apply is_vec_self. Qed.

Lemma is_mat_list {V} (d : V) c (l : list (list V)) : Forall (fun r => length r = c) l ->
  is_mat (length l) c l (fun i j => nth j (nth i l []) d).
Proof.
  intro H. split; auto. intros i Hi. exists (nth i l []). split; [apply nth_error_nth_lt, Hi|].
  rewrite Forall_forall in H. rewrite <- (H (nth i l [])) by (apply nth_In; auto). apply is_vec_self.
Qed.

Lemma alias_witness : exists u, m_mul_assign 0%Z Z.add Z.mul true (0, 0) [[1%Z]] None = Ok u /\
  forall w, m_times 0%Z Z.add Z.mul true (0, 0) (0, 0) [[1%Z]] [[1%Z]] = Ok w -> u <> w.
Proof. eexists. split; [reflexivity|]. vm_compute. intros w E. injection E as <-. discriminate. Qed.

Lemma scale_witness : v_mul_assign Z.mul [2%Z; 3%Z] (Own 0) = Ok [4%Z; 12%Z].
Proof. reflexivity. Qed.
