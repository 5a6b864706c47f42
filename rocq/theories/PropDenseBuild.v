(** Property C107: constructors and resizing of dense vectors and matrices. [is_vec] and [is_mat] give the
    components of a vector and a matrix, [gives] and [mgives] those of the result of a run; [mtyped] says that
    the template sizes are 0 or the sizes of the object. *)
From Coq Require Import ZArith.
From Verif Require Import Base ListFacts DenseModel DenseFacts DenseOps PropDenseLemmas PropDenseBuildLemmas.

Theorem C107_default : forall {V} (vzero : V) n s,
  is_vec n (v_default vzero n) (fun _ => vzero) /\
  is_mat (fst s) (snd s) (m_default vzero s) (fun _ _ => vzero).
Proof. exact (fun V z n s => conj (@vector_default V z n) (@matrix_default V z s)). Qed.
Print Assumptions C107_default.

(** A static vector needs a list of its own size: a debug build stops otherwise, a release build leaves the
    rest of the vector uninitialised or writes beyond it. *)
Theorem C107_vector_list : forall {V} (vzero : V) dbg junk n (l : list V),
  (n = 0 \/ length l = n -> v_list vzero dbg junk n l = Ok l) /\
  (0 < n -> length l <> n -> v_list vzero true junk n l = Abort) /\
  (0 < n -> length l <= n -> gives (v_list vzero false junk n l) n (fun i => nth i l (junk i))) /\
  (0 < n -> n < length l -> v_list vzero false junk n l = Undef).
Proof. exact @vector_from_list. Qed.
Print Assumptions C107_vector_list.

(** A release build evaluates the lambda for every component of a static vector, whatever size is asked for. *)
Theorem C107_vector_lambda : forall {V} (vzero : V) dbg junk n (F : nat -> res V) h size,
  (forall i, F i = Ok (h i)) ->
  (n = 0 \/ size = n -> gives (v_lambda vzero dbg junk n F size) size h) /\
  (0 < n -> size <> n -> v_lambda vzero true junk n F size = Abort) /\
  (0 < n -> gives (v_lambda vzero false junk n F size) n h).
Proof. exact @vector_from_lambda. Qed.
Print Assumptions C107_vector_lambda.

Theorem C107_matrix_list : forall {V} (vzero : V) dbg l r c g, is_mat r c l g ->
  forall s, s = (0, 0) \/ (s = (r, c) /\ 0 < r) -> m_list vzero dbg s l = Ok l.
Proof. exact @matrix_from_list. Qed.
Print Assumptions C107_matrix_list.

(** Rows of different lengths: a debug build of the dynamic matrix stops. *)
Theorem C107_ragged : forall {V} (vzero : V) l i row0 row,
  nth_error l 0 = Some row0 -> nth_error l i = Some row -> length row <> length row0 ->
  m_list vzero true (0, 0) l = Abort.
Proof. exact @m_list_ragged. Qed.
Print Assumptions C107_ragged.

(** A release build keeps them as they are. *)
Theorem C107_ragged_release : forall {V} (vzero : V) l, m_list vzero false (0, 0) l = Ok l.
Proof. exact @m_list_release. Qed.
Print Assumptions C107_ragged_release.

(** "list and matrix must be of the same dimensions" is not checked for a static matrix in any build: missing
    rows are zero, and surplus rows are written beyond the matrix. *)
Theorem C107_static_rows_refuted : forall {V} (vzero : V) dbg r c k l g, 0 < r -> is_mat k c l g ->
  (k <= r -> mgives (m_list vzero dbg (r, c) l) r c (fun i j => if i <? k then g i j else vzero)) /\
  (r < k -> m_list vzero dbg (r, c) l = Undef).
Proof. exact @m_list_static. Qed.
Print Assumptions C107_static_rows_refuted.

Theorem C107_matrix_lambda : forall {V} (vzero : V) dbg s (F : nat -> nat -> res V) h r c,
  (forall i j, F i j = Ok (h i j)) ->
  (mtyped s r c -> mgives (m_lambda vzero dbg s F r c) r c h) /\
  (0 < fst s -> s <> (r, c) -> m_lambda vzero true s F r c = Abort) /\
  (0 < fst s -> r <= fst s -> c <= snd s ->
     mgives (m_lambda vzero false s F r c) (fst s) (snd s)
            (fun i j => if (i <? r) && (j <? c) then h i j else vzero)) /\
  (0 < fst s -> 0 < r -> 0 < c -> fst s < r \/ snd s < c -> m_lambda vzero false s F r c = Undef).
Proof. exact @matrix_from_lambda. Qed.
Print Assumptions C107_matrix_lambda.

(** resize(rows, columns) keeps the elements that are still inside and fills up with zeros. *)
Theorem C107_resize : forall {V} (vzero : V) m g r c r' c', is_mat r c m g ->
  is_mat r' c' (m_resize vzero m r' c') (fun i j => if (i <? r) && (j <? c) then g i j else vzero).
Proof. exact @matrix_resize. Qed.
Print Assumptions C107_resize.

(** resize(rows), inherited from the vector of rows, adds empty rows. *)
Theorem C107_resize_rows : forall {V} m (g : nat -> nat -> V) r c r', is_mat r c m g ->
  length (m_resize_rows m r') = r' /\
  forall i, i < r' -> exists row, nth_error (m_resize_rows m r') i = Some row /\
    (i < r -> is_vec c row (g i)) /\ (r <= i -> row = []).
Proof. exact @rows_resized. Qed.
Print Assumptions C107_resize_rows.

(** The matrix it leaves reports the old number of columns for all rows, so that the sum of two such matrices
    passes the check of the sizes and reads elements that do not exist. *)
Theorem C107_resize_rows_refuted : forall {V} (vzero : V) vadd dbg m g r c r',
  is_mat r c m g -> 0 < r -> 0 < c -> r < r' ->
  m_rows (m_resize_rows m r') = r' /\ m_cols (m_resize_rows m r') = c /\
  m_plus vzero vadd dbg (0, 0) (0, 0) (m_resize_rows m r') (m_resize_rows m r') = Undef.
Proof. exact @rows_grown. Qed.
Print Assumptions C107_resize_rows_refuted.

Definition ex_junk : nat -> Z := fun i => Z.of_nat (100 + i).
Definition ex_two : nat -> nat -> Z := fun i j => Z.of_nat (10 * i + j).
Definition ex_mat : list (list Z) := [[0; 1; 2]; [10; 11; 12]]%Z.

Lemma ex_is : is_mat 2 3 ex_mat ex_two.
Proof.
  split; [reflexivity|]. intros [|[|i]] Hi; [| |lia]; eexists; (split; [reflexivity|]);
    (split; [reflexivity|]); intros [|[|[|j]]] Hj; try lia; reflexivity.
Qed.

(** Template sizes of results (0 stands for dynamic): a sum has the size of an operand with a fixed one, and is dynamic
    when both are; a product is fixed only when both operands are. *)
Theorem C107_result_type :
  (forall n0 n1, n0 = 0 \/ n1 = 0 \/ n0 = n1 -> promote n0 n1 = Nat.max n0 n1) /\
  (forall r0 c0 r1 c1, (r0 = 0 -> c0 = 0) -> (r1 = 0 -> c1 = 0) -> r0 = 0 \/ r1 = 0 \/ (r0 = r1 /\ c0 = c1) ->
     m_promote (r0, c0) (r1, c1) = (Nat.max r0 r1, Nat.max c0 c1)) /\
  (forall r0 c0 r1 c1, 0 < r0 -> 0 < r1 -> m_demote (r0, c0) (r1, c1) = (r0, c1)) /\
  (forall r0 c0 r1 c1, r0 = 0 \/ r1 = 0 -> m_demote (r0, c0) (r1, c1) = (0, 0)).
Proof. exact result_type. Qed.
Print Assumptions C107_result_type.

Example C107_result_type_ex : promote 0 3 = 3 /\ m_promote (0, 0) (2, 3) = (2, 3) /\ m_promote (2, 3) (0, 0) = (2, 3) /\
  m_demote (2, 3) (3, 4) = (2, 4) /\ m_demote (2, 3) (0, 0) = (0, 0).
Proof. repeat split. Qed.

Example C107_default_ex :
  v_default 0%Z 3 = [0; 0; 0]%Z /\ m_default 0%Z (2, 3) = [[0; 0; 0]; [0; 0; 0]]%Z.
Proof. split; reflexivity. Qed.

Example C107_vector_list_ex :
  v_list 0%Z true ex_junk 0 [4; 5]%Z = Ok [4; 5]%Z /\
  v_list 0%Z true ex_junk 2 [4; 5]%Z = Ok [4; 5]%Z /\
  v_list 0%Z true ex_junk 3 [4; 5]%Z = Abort /\
  v_list 0%Z false ex_junk 3 [4; 5]%Z = Ok [4; 5; 102]%Z /\
  v_list 0%Z false ex_junk 1 [4; 5]%Z = Undef.
Proof. repeat split. Qed.

Example C107_vector_lambda_ex :
  v_lambda 0%Z true ex_junk 0 (fun i => Ok (Z.of_nat (7 + i))) 2 = Ok [7; 8]%Z /\
  v_lambda 0%Z true ex_junk 3 (fun i => Ok (Z.of_nat (7 + i))) 2 = Abort /\
  v_lambda 0%Z false ex_junk 3 (fun i => Ok (Z.of_nat (7 + i))) 2 = Ok [7; 8; 9]%Z.
Proof. repeat split. Qed.

Example C107_matrix_list_ex :
  is_mat 2 3 ex_mat ex_two /\ m_list 0%Z true (0, 0) ex_mat = Ok ex_mat /\ m_list 0%Z true (2, 3) ex_mat = Ok ex_mat.
Proof. split; [exact ex_is|]. split; reflexivity. Qed.

Example C107_ragged_ex :
  m_list 0%Z true (0, 0) [[1; 2]; [3; 4]; [5]]%Z = Abort /\
  m_list 0%Z false (0, 0) [[1; 2]; [3; 4]; [5]]%Z = Ok [[1; 2]; [3; 4]; [5]]%Z.
Proof. split; reflexivity. Qed.

Example C107_static_rows_ex :
  m_list 0%Z true (3, 3) ex_mat = Ok [[0; 1; 2]; [10; 11; 12]; [0; 0; 0]]%Z /\
  m_list 0%Z true (1, 3) ex_mat = Undef.
Proof. split; reflexivity. Qed.

Example C107_matrix_lambda_ex :
  let F i j := Ok (ex_two i j) in
  m_lambda 0%Z true (0, 0) F 2 3 = Ok ex_mat /\
  m_lambda 0%Z true (2, 3) F 2 3 = Ok ex_mat /\
  m_lambda 0%Z true (3, 4) F 2 3 = Abort /\
  m_lambda 0%Z false (3, 4) F 2 3 = Ok [[0; 1; 2; 0]; [10; 11; 12; 0]; [0; 0; 0; 0]]%Z /\
  m_lambda 0%Z false (1, 3) F 2 3 = Undef.
Proof. repeat split. Qed.

Example C107_resize_ex :
  m_resize 0%Z ex_mat 3 2 = [[0; 1]; [10; 11]; [0; 0]]%Z /\
  m_resize_rows ex_mat 3 = [[0; 1; 2]; [10; 11; 12]; []]%Z /\
  m_plus 0%Z Z.add true (0, 0) (0, 0) (m_resize_rows ex_mat 3) (m_resize_rows ex_mat 3) = Undef.
Proof. repeat split. Qed.
