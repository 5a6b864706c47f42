(** Sparse and dense arithmetic agree, C109. *)
From Coq Require Import Ring_theory ZArith SpecFloat.
From Verif Require Import Base DenseModel DenseFacts SparseModel SparseSpec SparseFacts WalkModel ScalarModel FloatFacts
  PropSparseLemmas PropAgreeLemmas.

Local Notation fz := (S754_zero false).
Local Notation fa := (SFadd 53 1024).
Local Notation fm := (SFmul 53 1024).

(** Over every commutative semi ring: the sparse and the dense operator succeed together and give the same matrix. *)
Theorem C109_exact : forall {V} (vzero vone : V) vadd vmul M dbg stray, semi_ring_theory vzero vone vadd vmul eq ->
  (forall vopp (m o : smat V) d e, swf m -> swf o -> s_rows m = s_rows o -> csize m = csize o ->
     alike eq vzero m d -> alike eq vzero o e ->
     exists m' d', s_plus vzero vadd vopp M dbg stray m o = Ok m' /\ m_plus vzero vadd dbg (0, 0) (0, 0) d e = Ok d' /\
       swf m' /\ alike eq vzero m' d') /\
  (forall (m o : smat V) d e, swf m -> swf o -> csize m = s_rows o ->
     (s_rows m = 0 -> csize m = 0) -> (s_rows o = 0 -> csize o = 0) -> alike eq vzero m d -> alike eq vzero o e ->
     exists m' d', s_times vzero vadd vmul M dbg stray m o = Ok m' /\
       m_times vzero vadd vmul dbg (0, 0) (0, 0) d e = Ok d' /\ swf m' /\ alike eq vzero m' d') /\
  (forall junk (m : smat V) d x, swf m -> csize m = s_rows m -> length x = csize m -> alike eq vzero m d ->
     exists y, s_mat_vec vzero vadd vmul dbg stray m x = Ok y /\ m_vec vzero vadd vmul dbg junk 0 0 d x = Ok y) /\
  (forall (m : smat V) d s, swf m -> alike eq vzero m d ->
     exists m' d', s_scale_by vmul m (Ext s) = Ok m' /\ m_times_scalar vmul s d = Ok d' /\ swf m' /\ alike eq vzero m' d').
Proof. exact @agree_exact. Qed.
Print Assumptions C109_exact.

Theorem C109_exact_minus : forall {V} (vzero vone : V) vadd vmul vsub vopp M dbg stray (m o : smat V) d e,
  ring_theory vzero vone vadd vmul vsub vopp eq ->
  swf m -> swf o -> s_rows m = s_rows o -> csize m = csize o -> alike eq vzero m d -> alike eq vzero o e ->
  exists m' d', s_minus vzero vadd vopp M dbg stray m o = Ok m' /\ m_minus vzero vsub dbg (0, 0) (0, 0) d e = Ok d' /\
    swf m' /\ alike eq vzero m' d'.
Proof. exact @agree_exact_minus. Qed.
Print Assumptions C109_exact_minus.

(** Every sparse matrix has a dense form. *)
Theorem C109_exists : forall {V} (vzero : V) (m : smat V), swf m -> exists d, alike eq vzero m d.
Proof. exact @alike_exists. Qed.
Print Assumptions C109_exists.

(** Full statement: in double precision the sparse and the dense operator give equal matrices for all operands. That
    is false twice, see below. Proved: the results are the same numbers (equal, or both a zero); sums and differences
    need nothing else, products need finite factors. The partial sums may overflow. *)
Theorem C109_double_partial : forall M dbg stray,
  (forall vopp (m o : smat f64) d e, swf m -> swf o -> s_rows m = s_rows o -> csize m = csize o ->
     alike same_number fz m d -> alike same_number fz o e ->
     exists m' d', s_plus fz fa vopp M dbg stray m o = Ok m' /\ m_plus fz fa dbg (0, 0) (0, 0) d e = Ok d' /\
       swf m' /\ alike same_number fz m' d') /\
  (forall (m o : smat f64) d e, swf m -> swf o -> s_rows m = s_rows o -> csize m = csize o ->
     alike same_number fz m d -> alike same_number fz o e ->
     exists m' d', s_minus fz fa SFopp M dbg stray m o = Ok m' /\
       m_minus fz (SFsub 53 1024) dbg (0, 0) (0, 0) d e = Ok d' /\ swf m' /\ alike same_number fz m' d') /\
  (forall (m o : smat f64) d e, swf m -> swf o -> csize m = s_rows o ->
     (s_rows m = 0 -> csize m = 0) -> (s_rows o = 0 -> csize o = 0) ->
     alike same_number fz m d -> alike same_number fz o e ->
     entries (fun v => f_finite v = true) d -> entries (fun v => f_finite v = true) e ->
     exists m' d', s_times fz fa fm M dbg stray m o = Ok m' /\
       m_times fz fa fm dbg (0, 0) (0, 0) d e = Ok d' /\ swf m' /\ alike same_number fz m' d') /\
  (forall junk (m : smat f64) d x y, swf m -> csize m = s_rows m -> length x = csize m ->
     alike same_number fz m d -> valike same_number x y -> (forall v, In v y -> f_finite v = true) ->
     exists u w, s_mat_vec fz fa fm dbg stray m x = Ok u /\ m_vec fz fa fm dbg junk 0 0 d y = Ok w /\
       length u = s_rows m /\ valike same_number u w) /\
  (forall (m : smat f64) d s, swf m -> alike same_number fz m d -> f_finite s = true ->
     exists m' d', s_scale_by fm m (Ext s) = Ok m' /\ m_times_scalar fm s d = Ok d' /\ swf m' /\
       alike same_number fz m' d').
Proof. exact agree_double. Qed.
Print Assumptions C109_double_partial.

(** The sign of a zero differs: what is not stored is not added. *)
Theorem C109_zero_sign_refuted : exists (m o : smat f64) d e m',
  swf m /\ swf o /\ alike eq fz m d /\ alike eq fz o e /\
  (forall M dbg stray, s_plus fz fa SFopp M dbg stray m o = Ok m') /\ stored m' 0 0 (S754_zero true) /\
  forall dbg, m_plus fz fa dbg (0, 0) (0, 0) d e = Ok [[S754_zero false]].
Proof. exact zero_sign. Qed.
Print Assumptions C109_zero_sign_refuted.

(** An infinite component: the dense product multiplies it by the zeros, the sparse one does not. *)
Theorem C109_infinite_refuted : exists (m : smat f64) d x,
  swf m /\ csize m = s_rows m /\ length x = csize m /\ alike eq fz m d /\
  (forall dbg stray, s_mat_vec fz fa fm dbg stray m x = Ok [S754_zero false; S754_infinity false]) /\
  forall dbg junk, m_vec fz fa fm dbg junk 0 0 d x = Ok [S754_nan; S754_nan].
Proof. exact infinite_vec. Qed.
Print Assumptions C109_infinite_refuted.

Example C109_hypotheses : swf ex_mat /\ csize ex_mat = s_rows ex_mat /\ semi_ring_theory 0%Z 1%Z Z.add Z.mul eq /\
  alike eq 0%Z ex_mat [[1; 0; 2]; [0; 3; 0]; [4; 0; 0]]%Z /\
  s_times 0%Z Z.add Z.mul 100 true None ex_mat ex_mat = Ok (mkS [0; 2; 3; 5] [0; 2; 1; 0; 2] [9; 2; 9; 4; 8]%Z 3) /\
  m_times 0%Z Z.add Z.mul true (0, 0) (0, 0) [[1; 0; 2]; [0; 3; 0]; [4; 0; 0]]%Z [[1; 0; 2]; [0; 3; 0]; [4; 0; 0]]%Z =
    Ok [[9; 0; 2]; [0; 9; 0]; [4; 0; 8]]%Z.
Proof.
  split; [exact ex_swf|]. split; [reflexivity|]. split; [exact Z_semi_ring|]. split; [exact ex_alike|]. split; reflexivity.
Qed.

Example C109_double_hypotheses :
  let m := mkS [0; 2; 3] [0; 1; 1] [f_of_Z 1; f_of_Z (-2); f_of_Z 3] 2 in
  let d := [[f_of_Z 1; f_of_Z (-2)]; [fz; f_of_Z 3]] in
  swf m /\ alike same_number fz m d /\ entries (fun v => f_finite v = true) d /\
  s_times fz fa fm 100 true None m m = Ok (mkS [0; 2; 3] [0; 1; 1] [f_of_Z 1; f_of_Z (-8); f_of_Z 9] 2) /\
  m_times fz fa fm true (0, 0) (0, 0) d d = Ok [[f_of_Z 1; f_of_Z (-8)]; [fz; f_of_Z 9]].
Proof. exact ex_double. Qed.
