(** Level updates of Adjacency_Subgraph. *)
From Verif Require Import Base ListFacts Csr GraphModel GraphSpec GraphFacts GraphInsert GraphErase
  TraversalModel Bfs TraversalFacts OrderingSpec SubgraphModel.

(** Level of a local vertex as reported by vertex_level. *)
Definition level_of (s : subgraph) (i : nat) : nat :=
  if is_nil (s_level s) then 0 else nth i (s_level s) 0.

(** [s] is the subgraph of [g] induced by the vertices within distance [k] of the set [src]. *)
Record sub_ok (g : graph) (src : nat -> Prop) (k : nat) (s : subgraph) : Prop := {
  so_wf : well_formed false (s_graph s);
  so_off : off (s_graph s) <> [];
  so_size : size_vertex (s_graph s) = length (s_lg s);
  so_nodup : NoDup (s_lg s);
  so_in : forall v, In v (s_lg s) <-> exists j, dist_from (edge g) src v j /\ j <= k;
  so_edge : forall i j u v, nth_error (s_lg s) i = Some u -> nth_error (s_lg s) j = Some v ->
    (edge (s_graph s) i j <-> edge g u v);
  so_len : s_level s = [] \/ length (s_level s) = length (s_lg s);
  so_level : forall i v, nth_error (s_lg s) i = Some v -> dist_from (edge g) src v (level_of s i) }.

(** [gl] is the inverse of the list [lg], [M] elsewhere. *)
Definition inverse_map (n M : nat) (lg gl : list nat) : Prop :=
  length gl = n /\
  (forall i v, nth_error lg i = Some v -> nth_error gl v = Some i) /\
  (forall v, v < n -> ~ In v lg -> nth_error gl v = Some M).

(* ------------------------------------------------------------------ loading loop *)
Lemma load_ok n M c lg lv : NoDup lg -> (forall v, In v lg -> v < n) -> length lv = length lg ->
  exists Q L gl, FOR (length lg) (load_step lg lv c) ([], repeat M n, repeat M n) = Ok (Q, L, gl) /\
    inverse_map n M lg gl /\ length L = n /\
    (forall i v, nth_error lg i = Some v -> nth_error L v = Some (nth i lv 0)) /\
    (forall v, v < n -> ~ In v lg -> nth_error L v = Some M) /\
    (forall v, In v Q <-> exists i, nth_error lg i = Some v /\ nth i lv 0 = c).
Proof.
  intros Hnd Hb Hlv.
  destruct (FOR_inv (fun k (s : list nat * list nat * list nat) =>
     let '(Q, L, gl) := s in
     length gl = n /\ length L = n /\
     (forall i v, i < k -> nth_error lg i = Some v ->
        nth_error gl v = Some i /\ nth_error L v = Some (nth i lv 0)) /\
     (forall v, v < n -> (forall i, i < k -> nth_error lg i <> Some v) ->
        nth_error gl v = Some M /\ nth_error L v = Some M) /\
     (forall v, In v Q <-> exists i, i < k /\ nth_error lg i = Some v /\ nth i lv 0 = c))
     (length lg) (load_step lg lv c) ([], repeat M n, repeat M n)) as (((Q & L) & gl) & E & H).
  - rewrite !repeat_length. split; auto. split; auto. split; [intros; lia|]. split.
    + intros v Hv _. rewrite nth_error_repeat'. destruct (Nat.ltb_spec v n); [auto|lia].
    + intro v. split; [intros []|intros (i & Hi & _); lia].
  - intros k ((Q & L) & gl) Hk (H1 & H2 & H3 & H4 & H5). unfold load_step.
    rewrite (vget_lt lv k 0) by lia. cbn [bind]. rewrite (vget_lt lg k 0) by lia. cbn [bind].
    set (v := nth k lg 0). set (l := nth k lv 0).
    assert (Ev : nth_error lg k = Some v) by (apply nth_error_nth_lt; auto).
    assert (Hv : v < n) by (apply Hb; eapply nth_error_In; eauto).
    rewrite !vset_lt by lia. cbn [bind].
    eexists. split; [reflexivity|]. cbn beta iota. split; [rewrite upd_length; lia|].
    split; [rewrite upd_length; lia|].
    assert (Hinj : forall i, i < k -> nth_error lg i <> Some v).
    { intros i Hi Hq. rewrite <- Ev in Hq. apply NoDup_nth_error in Hq; auto; lia. }
    split; [|split].
    + intros i w Hi Hw. rewrite !nth_error_upd by lia.
      destruct (Nat.eq_dec i k) as [->|Hne].
      * assert (w = v) by congruence. subst w. rewrite Nat.eqb_refl. auto.
      * destruct (Nat.eqb_spec w v) as [->|].
        -- exfalso. eapply Hinj; [|eauto]. lia.
        -- apply H3; auto. lia.
    + intros w Hw Hno. rewrite !nth_error_upd by lia. destruct (Nat.eqb_spec w v) as [->|].
      * exfalso. eapply Hno; [|eauto]. lia.
      * apply H4; auto. intros i Hi. apply Hno. lia.
    + intro w. destruct (Nat.eqb_spec l c) as [El|El].
      * rewrite in_app_iff, H5. cbn [In]. split.
        -- intros [(i & Hi & Hi')|[<-|[]]]; [exists i; split; [lia|auto]|]. exists k. split; [lia|auto].
        -- intros (i & Hi & Hw & Hc). destruct (Nat.eq_dec i k) as [->|].
           ++ right. left. congruence.
           ++ left. exists i. split; [lia|auto].
      * rewrite H5. split.
        -- intros (i & Hi & Hi'). exists i. split; [lia|auto].
        -- intros (i & Hi & Hw & Hc). exists i. split; auto.
           destruct (Nat.eq_dec i k) as [->|]; [unfold l in El; congruence|lia].
  - exists Q, L, gl. split; auto. destruct H as (H1 & H2 & H3 & H4 & H5).
    assert (Hno : forall v, ~ In v lg -> forall i, i < length lg -> nth_error lg i <> Some v).
    { intros v Hv i _ Hq. apply Hv. eapply nth_error_In; eauto. }
    split; [split; [auto|split]|].
    + intros i v Hi. eapply H3; eauto. eapply nth_error_lt_Some; eauto.
    + intros v Hv Hn. apply H4; auto.
    + split; auto. split; [|split].
      * intros i v Hi. eapply H3; eauto. eapply nth_error_lt_Some; eauto.
      * intros v Hv Hn. apply H4; auto.
      * intro v. rewrite H5. split; intros (i & Hi); exists i; [tauto|].
        split; auto. eapply nth_error_lt_Some. apply Hi.
Qed.

(* ------------------------------------------------------------------ appending loop *)
Definition news (c k : nat) (L : list nat) (n : nat) : list nat :=
  filter (fun i => is_new c k (nth i L 0)) (seq 0 n).

Lemma news_S c k L n : news c k L (n + 1) = news c k L n ++ (if is_new c k (nth n L 0) then [n] else []).
Proof.
  unfold news. rewrite Nat.add_1_r, seq_S, filter_app. cbn [filter Nat.add].
  destruct (is_new c k (nth n L 0)); reflexivity.
Qed.

Lemma In_news c k L n v : In v (news c k L n) <-> v < n /\ is_new c k (nth v L 0) = true.
Proof.
  unfold news. rewrite filter_In, in_seq. split; intros [H1 H2]; split; auto; lia.
Qed.

Lemma append_ok n M c k L lg lv gl : length L = n -> inverse_map n M lg gl ->
  (forall v, v < n -> is_new c k (nth v L 0) = true -> ~ In v lg) ->
  exists gl', FOR (length L) (append_step L c k) (lg, lv, gl) =
      Ok (lg ++ news c k L n, lv ++ map (fun v => nth v L 0) (news c k L n), gl') /\
    inverse_map n M (lg ++ news c k L n) gl'.
Proof.
  intros HL Hgl Hnew.
  destruct (FOR_inv (fun i (s : list nat * list nat * list nat) =>
     let '(lg', lv', gl') := s in
     lg' = lg ++ news c k L i /\ lv' = lv ++ map (fun v => nth v L 0) (news c k L i) /\
     inverse_map n M lg' gl') (length L) (append_step L c k) (lg, lv, gl)) as (((lg' & lv') & gl') & E & H).
  - unfold news. cbn. rewrite !app_nil_r. auto.
  - intros i ((lg' & lv') & gl') Hi (-> & -> & (G1 & G2 & G3)). unfold append_step.
    rewrite (vget_lt L i 0) by auto. cbn [bind]. rewrite news_S.
    destruct (is_new c k (nth i L 0)) eqn:En.
    + rewrite vset_lt by lia. cbn [bind]. eexists. split; [reflexivity|]. cbn beta iota.
      rewrite map_app, !app_assoc. split; auto. split; auto.
      assert (Hfresh : ~ In i (lg ++ news c k L i)).
      { intro H. apply in_app_or in H as [H|H]; [apply (Hnew i); auto; lia|].
        apply In_news in H. lia. }
      split; [rewrite upd_length; lia|]. split.
      * intros j v Hj. rewrite nth_error_upd by lia.
        destruct (Nat.lt_ge_cases j (length (lg ++ news c k L i))) as [Hc|Hc].
        -- rewrite nth_error_app1 in Hj by auto. destruct (Nat.eqb_spec v i) as [->|]; auto.
           exfalso. apply Hfresh. eapply nth_error_In; eauto.
        -- rewrite nth_error_app2 in Hj by auto. destruct (j - length (lg ++ news c k L i)) as [|m] eqn:Em.
           ++ cbn in Hj. injection Hj as <-. rewrite Nat.eqb_refl. f_equal. lia.
           ++ destruct m; discriminate.
      * intros v Hv Hn. rewrite nth_error_upd by lia. destruct (Nat.eqb_spec v i) as [->|].
        -- exfalso. apply Hn, in_or_app. right. left. auto.
        -- apply G3; auto. intro H. apply Hn, in_or_app. auto.
    + eexists. split; [reflexivity|]. cbn beta iota. rewrite app_nil_r. split; auto. split; auto.
      split; auto.
  - rewrite HL in *. destruct H as (-> & -> & H). eauto.
Qed.

(* ------------------------------------------------------------------ connecting loop *)
Section Connect.
  Variables (M : nat) (dbg : bool) (g : graph) (L gl lg : list nat) (c k : nat) (G0 : graph).
  Let n := size_vertex g.
  Hypothesis Hw : well_formed false g.
  Hypothesis HL : length L = n.
  Hypothesis Hgl : inverse_map n M lg gl.
  Hypothesis Hnd : NoDup lg.
  Hypothesis Hlgn : forall v, In v lg -> v < n.
  Hypothesis HM : n <= M.
  Hypothesis Hnew : forall v, v < n -> is_new c k (nth v L 0) = true -> In v lg.
  Hypothesis HG0 : well_formed false G0.
  Hypothesis HG0s : size_vertex G0 <= length lg.
  Hypothesis HG0o : off G0 <> [].

  (** Edge between two local indices contributed by the global pair [v], [a]. *)
  Definition link (v a x y : nat) : Prop :=
    edge g v a /\ ((nth_error lg x = Some v /\ nth_error lg y = Some a) \/
                   (nth_error lg x = Some a /\ nth_error lg y = Some v)).

  Lemma lg_len : length lg <= n.
  Proof.
    rewrite <- (seq_length n 0). apply NoDup_incl_length; auto. intros v Hv. apply in_seq.
    specialize (Hlgn v Hv). lia.
  Qed.

  Lemma connect_row v iv G : is_new c k (nth v L 0) = true -> nth_error lg iv = Some v ->
    well_formed false G -> off G <> [] -> size_vertex G <= length lg ->
    exists G', forM (row g v) (fun a G =>
        do ia <- vget gl a;
        if negb (ia =? M) then do x <- insert dbg false G (iv, ia); Ok (fst x) else Ok G) G = Ok G' /\
      well_formed false G' /\ off G' <> [] /\ size_vertex G <= size_vertex G' /\
      size_vertex G' <= length lg /\
      (forall x y, edge G' x y <-> edge G x y \/ exists a, link v a x y) /\
      ((exists a, edge g v a /\ In a lg) -> iv < size_vertex G').
  Proof.
    intros Hn Hiv HwG HoG HsG. destruct Hgl as (L1 & L2 & L3).
    assert (Hv : v < n) by (apply Hlgn; eapply nth_error_In; eauto).
    destruct (forM_inv (fun l G' =>
       well_formed false G' /\ off G' <> [] /\ size_vertex G <= size_vertex G' /\
       size_vertex G' <= length lg /\
       (forall x y, edge G' x y <-> edge G x y \/ exists a, In a l /\ link v a x y) /\
       ((exists a, In a l /\ In a lg) -> iv < size_vertex G')) (row g v)
      (fun a G =>
        do ia <- vget gl a;
        if negb (ia =? M) then do x <- insert dbg false G (iv, ia); Ok (fst x) else Ok G) G)
      as (G' & E & H1 & H2 & H3 & H4 & H5 & H6).
    - split; auto. split; auto. split; auto. split; auto. split.
      + intros x y. split; auto. intros [H|(a & [] & _)]. auto.
      + intros (a & [] & _).
    - intros l1 a l2 G1 El (I1 & I2 & I3 & I4 & I5 & I6).
      assert (Ha : edge g v a) by (apply row_edge; auto; rewrite El; apply in_or_app; right; left; auto).
      destruct (edge_bounds false g v a Hw Ha) as (_ & Han & Hva). fold n in Han.
      destruct (in_dec Nat.eq_dec a lg) as [Hin|Hin].
      + apply In_nth_error in Hin as (ia & Hia).
        pose proof (nth_error_lt_Some _ _ _ Hia) as Hial. pose proof (nth_error_lt_Some _ _ _ Hiv) as Hivl.
        rewrite (proj2 (vget_Ok gl a ia)) by auto. cbn [bind].
        pose proof lg_len as Hll. destruct (Nat.eqb_spec ia M); [lia|]. cbn [negb].
        assert (Hne : iv <> ia) by congruence.
        destruct (insert_spec dbg false G1 (iv, ia) I1 Hne) as (G2 & b & E2 & J1 & _ & J3 & J4 & _ & J6).
        cbn [fst snd] in *. rewrite E2. cbn [bind fst]. exists G2. split; auto. split; auto.
        split. { intro Ho. unfold size_vertex in J6. rewrite Ho in J6. destruct (off G1); lia. }
        split; [lia|]. split; [lia|]. split; [|intros _; lia].
        intros x y. rewrite J4, I5. unfold same_edge. cbn [fst snd negb andb].
        rewrite orb_true_iff, !andb_true_iff, !Nat.eqb_eq. split.
        * intros [[H|(a' & H & Hl)]|[[-> ->]|[-> ->]]].
          -- auto.
          -- right. exists a'. split; auto. apply in_or_app; auto.
          -- right. exists a. split; [apply in_or_app; right; left; auto|]. split; auto.
          -- right. exists a. split; [apply in_or_app; right; left; auto|]. split; auto.
        * intros [H|(a' & H & Hl)]; auto. apply in_app_or in H as [H|[<-|[]]]; [left; right; eauto|].
          right. destruct Hl as [_ [[Hx Hy]|[Hx Hy]]]; [left|right]; split;
            apply (NoDup_nth_error lg); auto; try congruence; eapply nth_error_lt_Some; eauto.
      + rewrite (proj2 (vget_Ok gl a M)) by auto. cbn [bind]. rewrite Nat.eqb_refl. cbn [negb].
        exists G1. split; auto. split; auto. split; auto. split; auto. split; auto. split.
        * intros x y. rewrite I5. split; (intros [H|(a' & H & Hl)]; [auto|]; right; exists a'; split; auto).
          -- apply in_or_app; auto.
          -- apply in_app_or in H as [H|[<-|[]]]; auto. exfalso. apply Hin.
             destruct Hl as [_ [[_ H]|[H _]]]; eapply nth_error_In; eauto.
        * intros (a' & H & Hl). apply in_app_or in H as [H|[<-|[]]]; [eauto|tauto].
    - exists G'. split; auto. split; auto. split; auto. split; auto. split; auto. split.
      + intros x y. rewrite H5. split; (intros [H|(a & H)]; [auto|]; right; exists a); [tauto|].
        split; auto. apply row_edge; auto. apply H.
      + intros (a & Ha & Hin). apply H6. exists a. split; auto. apply row_edge; auto.
  Qed.

  Lemma connect_ok : exists G', FOR (length L) (connect_step M dbg g L gl c k) G0 = Ok G' /\
    well_formed false G' /\ off G' <> [] /\ size_vertex G0 <= size_vertex G' /\
    size_vertex G' <= length lg /\
    (forall x y, edge G' x y <-> edge G0 x y \/
       exists v a, v < n /\ is_new c k (nth v L 0) = true /\ link v a x y) /\
    (forall v iv, v < n -> is_new c k (nth v L 0) = true -> nth_error lg iv = Some v ->
       (exists a, edge g v a /\ In a lg) -> iv < size_vertex G').
  Proof.
    destruct (FOR_inv (fun i G' =>
      well_formed false G' /\ off G' <> [] /\ size_vertex G0 <= size_vertex G' /\
      size_vertex G' <= length lg /\
      (forall x y, edge G' x y <-> edge G0 x y \/
         exists v a, v < i /\ is_new c k (nth v L 0) = true /\ link v a x y) /\
      (forall v iv, v < i -> is_new c k (nth v L 0) = true -> nth_error lg iv = Some v ->
         (exists a, edge g v a /\ In a lg) -> iv < size_vertex G'))
      (length L) (connect_step M dbg g L gl c k) G0) as (G' & E & H).
    - split; auto. split; auto. split; auto. split; auto. split; [|intros; lia].
      intros x y. split; auto. intros [H|(v & a & H & _)]; auto. lia.
    - intros i G Hi (I1 & I2 & I3 & I4 & I5 & I6). unfold connect_step.
      rewrite (vget_lt L i 0) by auto. cbn [bind].
      destruct (is_new c k (nth i L 0)) eqn:En.
      + assert (Hin : In i lg) by (apply Hnew; auto; lia). apply In_nth_error in Hin as (iv & Hiv).
        destruct Hgl as (L1 & L2 & L3). rewrite (proj2 (vget_Ok gl i iv)) by auto. cbn [bind].
        rewrite (subscript_row dbg false) by (auto; fold n; lia). cbn [bind].
        destruct (connect_row i iv G En Hiv I1 I2 I4) as (G' & E & J1 & J2 & J3 & J4 & J5 & J6).
        exists G'. split; auto. split; auto. split; auto. split; [lia|]. split; auto. split.
        * intros x y. rewrite J5, I5. split.
          -- intros [[H|(v & a & H & H')]|(a & H)]; auto.
             ++ right. exists v, a. split; [lia|auto].
             ++ right. exists i, a. split; [lia|auto].
          -- intros [H|(v & a & H & Hn & Hl)]; auto. destruct (Nat.eq_dec v i) as [->|].
             ++ right. eauto.
             ++ left. right. exists v, a. split; [lia|auto].
        * intros v jv Hv Hn Hjv Ha. destruct (Nat.eq_dec v i) as [->|].
          -- assert (jv = iv).
             { apply (NoDup_nth_error lg); auto; [eapply nth_error_lt_Some; eauto|congruence]. }
             subst jv. auto.
          -- specialize (I6 v jv ltac:(lia) Hn Hjv Ha). lia.
      + exists G. split; auto. split; auto. split; auto. split; auto. split; auto. split.
        * intros x y. rewrite I5. split; (intros [H|(v & a & H & Hn & Hl)]; [auto|]; right; exists v, a).
          -- split; [lia|auto].
          -- split; auto. destruct (Nat.eq_dec v i) as [->|]; [congruence|lia].
        * intros v jv Hv Hn. destruct (Nat.eq_dec v i) as [->|]; [congruence|]. apply I6; auto. lia.
    - exists G'. rewrite HL in *. auto.
  Qed.
End Connect.
