(** Witness for C96: addition of sparse matrices of doubles. *)
From Coq Require Import ZArith.
From Verif Require Import Base SparseModel SparseSpec SparseFacts ScalarModel PropIterLemmas SparseAlgebra.

Definition one_entry {V} (v : V) : smat V := mkS [0; 1] [0] [v] 1.

Lemma one_entry_wf {V} (v : V) : swf (one_entry v).
Proof.
  exists [[(0, v)]]. split.
  - split; [left; reflexivity|]. split; reflexivity.
  - intros [|i] Hi; [|cbn in Hi; lia]. cbn. split; [repeat constructor|]. intros j [<-|[]]. lia.
Qed.

Lemma doubles_assoc : forall vopp M dbg stray, exists a b c l r mo op,
  swf a /\ swf b /\ swf c /\
  s_plus (sc_zero fops) (sc_add fops) vopp M dbg stray a b = Ok mo /\
  s_plus (sc_zero fops) (sc_add fops) vopp M dbg stray b c = Ok op /\
  s_plus (sc_zero fops) (sc_add fops) vopp M dbg stray mo c = Ok l /\
  s_plus (sc_zero fops) (sc_add fops) vopp M dbg stray a op = Ok r /\ ~ same_matrix l r.
Proof.
  intros vopp M dbg stray. exists (one_entry (fz (2 ^ 53)%Z)), (one_entry (fz 1)), (one_entry (fz 1)),
    (one_entry (fz (2 ^ 53)%Z)), (one_entry (fz (2 ^ 53 + 2)%Z)), (one_entry (fz (2 ^ 53)%Z)), (one_entry (fz 2)).
  do 3 (split; [apply one_entry_wf|]).
  do 4 (split; [destruct dbg; vm_compute; reflexivity|]).
  intros (_ & _ & H). specialize (H ltac:(cbn; lia)). apply (f_equal (fun m => nth 0 (vals m) (fz 0))) in H.
  vm_compute in H. discriminate.
Qed.
