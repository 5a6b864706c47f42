(** Witnesses and small combinations used by PropGraph.v. *)
From Verif Require Import Base ListFacts Csr GraphModel GraphSpec GraphFacts PermFacts
  GraphInsert GraphResize GraphErase GraphReorder GraphSeq GraphGen.

Lemma reachable_invariant M strict dbg d g :
  reachable_graph M strict dbg d g ->
  (forall u, u < size_vertex g ->
     exists r, subscript dbg g u = Ok r /\ degree dbg g u = Ok (length r) /\
       StronglySorted lt r /\ (forall v, In v r <-> edge g u v) /\
       (forall v, In v r -> v < size_vertex g /\ v <> u)) /\
  (d = false -> forall u v, edge g u v -> edge g v u) /\
  (exists ds, mapM (degree dbg g) (seq 0 (size_vertex g)) = Ok ds /\
     vsum ds = (if d then 1 else 2) * size_edge d g).
Proof. intro H. apply graph_invariant. eapply reachable_well_formed; eauto. Qed.

(** A concrete graph given by its rows is well formed. *)
Lemma of_rows_well_formed d rs : rows_ok d rs -> well_formed d (mkG (concat rs) (psum 0 rs)).
Proof. intro H. exists rs. split; auto. left. auto. Qed.

(** Decision procedure for [rows_ok]. *)
Definition ascendingb (l : list nat) : bool :=
  (fix go l := match l with x :: (y :: _) as t => (x <? y) && go t | _ => true end) l.

Lemma ascendingb_ok l : ascendingb l = true -> ascending l.
Proof.
  induction l as [|x [|y l] IH]; intro H.
  - constructor.
  - repeat constructor.
  - change ((x <? y) && ascendingb (y :: l) = true) in H.
    apply andb_true_iff in H as [H1 H2]. apply Nat.ltb_lt in H1. specialize (IH H2).
    apply ascending_cons. split; auto. constructor; auto.
    apply ascending_cons in IH as [_ IH]. eapply Forall_impl; [|exact IH]. simpl. lia.
Qed.

Definition rows_okb (d : bool) (rs : list (list nat)) : bool :=
  forallb (fun i =>
    ascendingb (nth i rs []) &&
    forallb (fun j => (j <? length rs) && negb (j =? i) &&
                      (d || existsb (Nat.eqb i) (nth j rs []))) (nth i rs []))
    (seq 0 (length rs)).

Lemma rows_okb_ok d rs : rows_okb d rs = true -> rows_ok d rs.
Proof.
  intros H i Hi. unfold rows_okb in H. rewrite forallb_forall in H.
  specialize (H i ltac:(apply in_seq; lia)). apply andb_true_iff in H as [H1 H2].
  rewrite forallb_forall in H2.
  split; [apply ascendingb_ok, H1|split].
  - intros j Hj. specialize (H2 j Hj). apply andb_true_iff in H2 as [H2 _].
    apply andb_true_iff in H2 as [H2 H3]. apply Nat.ltb_lt in H2.
    apply negb_true_iff, Nat.eqb_neq in H3. auto.
  - intros -> j Hj. specialize (H2 j Hj). apply andb_true_iff in H2 as [_ H2]. simpl in H2.
    apply existsb_exists in H2 as (x & Hx & E). apply Nat.eqb_eq in E. subst; auto.
Qed.

Lemma path4_well_formed : well_formed false (mkG [1; 0; 2; 1; 3; 2] [0; 1; 3; 5; 6]).
Proof.
  apply (of_rows_well_formed false [[1]; [0; 2]; [1; 3]; [2]]). apply rows_okb_ok. reflexivity.
Qed.

Lemma reachable_example : exists g,
  reachable_graph 100 false true false g /\ size_vertex g = 3 /\ size_edge false g = 2.
Proof.
  eexists. split.
  - eapply (reach_reorder _ _ _ _ (mkG [1; 0; 2; 1] [0; 1; 3; 4]) _ _ [2; 0; 1]).
    + eapply (reach_erase_if _ _ _ _ (mkG [1; 0; 2; 1; 3; 2] [0; 1; 3; 5; 6]) _ (fun i => i =? 0)).
      * eapply (reach_resize _ _ _ _ (mkG [1; 0; 2; 1; 3; 2; 4; 3] [0; 1; 3; 5; 7; 8]) _ 4).
        -- eapply (reach_insert _ _ _ _ (mkG [1; 0; 2; 1; 3; 2] [0; 1; 3; 5; 6]) _ _ (4, 3));
             [|discriminate|reflexivity].
           eapply (reach_insert _ _ _ _ (mkG [1; 0; 2; 1] [0; 1; 3; 4]) _ _ (3, 2));
             [|discriminate|reflexivity].
           eapply (reach_insert _ _ _ _ (mkG [1; 0] [0; 1; 2]) _ _ (1, 2));
             [|discriminate|reflexivity].
           eapply (reach_insert _ _ _ _ graph_default _ _ (0, 1)); [constructor|discriminate|reflexivity].
        -- reflexivity.
      * reflexivity.
    + apply perm_intro; [reflexivity|repeat constructor; simpl; intuition discriminate|].
      intros x Hx. simpl in Hx. change (x < 3). intuition lia.
    + reflexivity.
  - split; reflexivity.
Qed.

Lemma resize_undefined_witness : exists d g n, well_formed d g /\ resize true g n = Undef.
Proof.
  exists false, (mkG [1; 0; 2; 1; 3; 2] [0; 1; 3; 5; 6]), 2.
  split; [apply path4_well_formed|reflexivity].
Qed.

Lemma erase_if_undefined_witness : exists d g del,
  well_formed d g /\ size_vertex g = 3 /\ forall M, erase_if M del g = Undef.
Proof.
  exists false, (mkG [1; 0] [0; 1; 2; 2]), (fun i => i =? 0).
  split; [|split; [reflexivity|intro M; reflexivity]].
  apply (of_rows_well_formed false [[1]; [0]; []]). apply rows_okb_ok. reflexivity.
Qed.

Lemma reorder_accepts_witness : exists g p h,
  well_formed false g /\ length p = size_vertex g /\ ~ is_perm (size_vertex g) p /\
  reorder true g p = Ok h /\ ~ well_formed false (fst h).
Proof.
  exists (mkG [1; 0; 2; 1; 3; 2] [0; 1; 3; 5; 6]), [0; 0; 3; 3],
    (mkG [0; 3; 3; 3; 0; 0] [0; 2; 2; 2; 3], mkG [1; 0; 2; 1; 3; 2] [0; 1; 3; 5; 6]).
  split; [apply path4_well_formed|]. split; [reflexivity|]. split; [|split; [vm_compute; reflexivity|]].
  - intro H. pose proof (perm_NoDup _ _ H) as Hn. inversion Hn as [|? ? Hx]. apply Hx. simpl. auto.
  - cbn [fst]. intros (rs & H & Hr).
    pose proof (repr_adj _ _ H) as Ha. pose proof (repr_size _ _ H) as Hs.
    pose proof (repr_rows _ _ H) as Hrows. vm_compute in Hrows. subst rs.
    cbn in Ha. discriminate.
Qed.

Lemma reorder_rejects g p :
  (length p <> size_vertex g \/ 2 * vsum p <> (size_vertex g - 1) * size_vertex g) ->
  reorder true g p = Abort.
Proof.
  intro H. unfold reorder. cbn [ASSERT_DEBUG].
  destruct (Nat.eqb_spec (length p) (size_vertex g)) as [E|E]; [|reflexivity]. cbn [ASSERT bind].
  destruct (Nat.eqb_spec (2 * vsum p) ((size_vertex g - 1) * size_vertex g)) as [E'|E']; [|reflexivity].
  tauto.
Qed.

Lemma create_line_spec M dbg d n : 2 <= n ->
  exists g, create_graph_line M dbg d n = Ok g /\ well_formed d g /\
    size_vertex g = n /\ size_edge d g = n - 1 /\
    forall u v, edge g u v <->
      u < n /\ v < n /\ (v = u + 1 \/ (d = false /\ u = v + 1)).
Proof.
  intro Hn. destruct (line_spec dbg d (n - 1) ltac:(lia)) as (g & E & Hw & Hs & He & Hc).
  exists g. unfold create_graph_line. destruct (Nat.eqb_spec n 0); [lia|].
  rewrite Nat.sub_add in Hs, Hc by lia. auto.
Qed.

Lemma create_line_small M dbg d :
  (exists g, create_graph_line M dbg d 1 = Ok g /\ size_vertex g = 0) /\
  (0 < M -> exists g, create_graph_line M dbg d 0 = Ok g /\ size_vertex g = M + 1).
Proof.
  split.
  - exists graph_default. split; reflexivity.
  - intro HM. destruct (line_spec dbg d M HM) as (g & E & _ & Hs & _). exists g. auto.
Qed.
