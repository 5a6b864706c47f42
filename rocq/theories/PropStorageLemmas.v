(** Lemmas behind C99. *)
From Verif Require Import Base ListFacts Csr GraphModel GraphSpec GraphFacts GraphInsert GraphSeq SubgraphModel SparseModel SparseSpec SparseFacts
  SparseInsert StorageModel.

(** The replacement array is large enough. *)
Definition grows (grow : nat -> nat -> nat) : Prop := forall c n, n <= grow c n.

(** Every array holds the elements of its vector. *)
Definition roomy (x : sgraph) : Prop :=
  length (adj (sg_graph x)) <= sto_cap (sg_adj x) /\ length (off (sg_graph x)) <= sto_cap (sg_off x).

Definition sub_roomy (x : ssub) : Prop :=
  roomy (ss_graph x) /\ length (s_lg (ss_sub x)) <= sto_cap (ss_lg x) /\ length (s_level (ss_sub x)) <= sto_cap (ss_lev x).

Definition mat_roomy {V} (x : smatrix (V := V)) : Prop :=
  length (rnz (sm_matrix x)) <= sto_cap (sm_rnz x) /\ length (cidx (sm_matrix x)) <= sto_cap (sm_col x) /\
  length (vals (sm_matrix x)) <= sto_cap (sm_val x).

(** From [l] to [l'] elements: the array is the old one or a new one, and the latter only when it had to be. *)
Definition tracks (s s' : store) (l l' : nat) : Prop :=
  l <= l' /\ l' <= sto_cap s' /\ (s' = s \/ sto_block s < sto_block s' /\ sto_cap s < l').

Lemma tracks_refl s l : l <= sto_cap s -> tracks s s l l.
Proof. repeat split; auto. Qed.

Lemma tracks_trans s s' s'' l l' l'' : tracks s s' l l' -> tracks s' s'' l' l'' -> tracks s s'' l l''.
Proof.
  intros (A & B & C) (D & E & F). split; [lia|]. split; auto.
  destruct C as [->|[C1 C2]], F as [->|[F1 F2]]; auto; right; split; lia.
Qed.

Lemma tracks_fit grow s l n : grows grow -> l <= n -> l <= sto_cap s -> tracks s (fit grow n s) l n.
Proof.
  intros G H Hs. unfold fit. destruct (Nat.leb_spec n (sto_cap s)).
  - repeat split; auto.
  - split; auto. cbn [sto_cap sto_block]. split; [apply G|right; split; lia].
Qed.

Lemma tracks_block s s' l l' : tracks s s' l l' -> (sto_block s' = sto_block s <-> l' <= sto_cap s).
Proof. intros (A & B & [->|[C D]]); split; intro; auto; lia. Qed.

Lemma reserve_ok grow vmax n s : grows grow -> n <= vmax -> exists s', v_reserve grow vmax n s = Ok s' /\
  n <= sto_cap s' /\ sto_cap s <= sto_cap s' /\ (n <= sto_cap s -> s' = s).
Proof.
  intros G H. unfold v_reserve. destruct (Nat.ltb_spec vmax n); [lia|]. exists (fit grow n s). split; auto.
  unfold fit. destruct (Nat.leb_spec n (sto_cap s)); cbn [sto_cap]; [auto|]. specialize (G (sto_cap s) n).
  split; [lia|]. split; [lia|]. intro. lia.
Qed.

Lemma wrap_small M n : n <= M -> wrap M n = n.
Proof. intro H. apply Nat.mod_small. lia. Qed.

Definition factor (d : bool) : nat := if d then 1 else 2.

Lemma half_le a c : 2 * a <= c -> a <= c / 2.
Proof. intro H. apply Nat.div_le_lower_bound; lia. Qed.

Lemma cap_vertices c n : n + 1 <= c -> n <= if c =? 0 then 0 else c - 1.
Proof. destruct (Nat.eqb_spec c 0); lia. Qed.

Lemma cap_edges (d : bool) c n : n * (if negb d then 2 else 1) <= c -> n <= if negb d then c / 2 else c.
Proof. destruct d; cbn [negb]; intro H; [lia|apply half_le; lia]. Qed.

Lemma reserve_room grow M vmax d x nv ne : grows grow -> roomy x -> nv < M -> factor d * ne <= M ->
  nv + 1 <= vmax -> factor d * ne <= vmax ->
  exists y, sg_reserve grow M vmax d x nv ne = Ok y /\ sg_graph y = sg_graph x /\ roomy y /\
    nv <= fst (sg_capacity d y) /\ ne <= snd (sg_capacity d y) /\
    fst (sg_capacity d x) <= fst (sg_capacity d y) /\ snd (sg_capacity d x) <= snd (sg_capacity d y) /\
    (nv < fst (sg_capacity d x) \/ nv = fst (sg_capacity d x) /\ sto_cap (sg_off x) <> 0 -> sg_off y = sg_off x) /\
    (ne <= snd (sg_capacity d x) -> sg_adj y = sg_adj x).
Proof.
  intros G [R1 R2] Hv He Hv' He'. unfold sg_reserve.
  assert (E1 : ne * (if negb d then 2 else 1) = factor d * ne) by (destruct d; cbn [negb factor]; lia).
  rewrite !wrap_small by lia.
  destruct (reserve_ok grow vmax (nv + 1) (sg_off x) G Hv') as (so & E & O1 & O2 & O3). rewrite E. cbn [bind].
  rewrite E1. destruct (reserve_ok grow vmax (factor d * ne) (sg_adj x) G He') as (sa & E' & A1 & A2 & A3). rewrite E'. cbn [bind].
  eexists. split; [reflexivity|]. cbn [sg_graph]. split; auto. split; [split; cbn [sg_graph sg_adj sg_off]; lia|].
  unfold sg_capacity. cbn [sg_adj sg_off fst snd].
  split; [apply cap_vertices; lia|]. split; [apply cap_edges; rewrite E1; lia|].
  split. { destruct (Nat.eqb_spec (sto_cap (sg_off x)) 0), (Nat.eqb_spec (sto_cap so) 0); lia. }
  split. { destruct d; cbn [negb]; [lia|]. apply Nat.div_le_mono; lia. }
  split.
  - intro H. apply O3. destruct (Nat.eqb_spec (sto_cap (sg_off x)) 0); lia.
  - intro H. apply A3. destruct d; cbn [negb factor] in *; [lia|].
    pose proof (Nat.mul_div_le (sto_cap (sg_adj x)) 2). lia.
Qed.

(** Twice the requested number of edges is computed modulo 2^64. *)
Lemma reserve_wraps grow k vmax x nv : let M := 2 * k + 1 in grows grow -> nv < M -> nv + 1 <= vmax ->
  exists y, sg_reserve grow M vmax false x nv (k + 1) = Ok y /\ sg_adj y = sg_adj x.
Proof.
  intros M G Hv Hv'. unfold sg_reserve.
  rewrite (wrap_small M (nv + 1)) by lia.
  destruct (reserve_ok grow vmax (nv + 1) (sg_off x) G Hv') as (so & E & _). rewrite E. cbn [bind].
  assert (Z : wrap M ((k + 1) * (if negb false then 2 else 1)) = 0).
  { unfold wrap. cbn [negb]. replace ((k + 1) * 2) with (1 * (M + 1)) by (unfold M; lia). apply Nat.mod_mul. unfold M. lia. }
  rewrite Z. destruct (reserve_ok grow vmax 0 (sg_adj x) G ltac:(lia)) as (sa & E' & _ & _ & A). rewrite E'. cbn [bind].
  eexists. split; [reflexivity|]. cbn [sg_adj]. apply A. lia.
Qed.

Lemma sizes_fit d x : well_formed d (sg_graph x) -> roomy x ->
  size_vertex (sg_graph x) <= fst (sg_capacity d x) /\ size_edge d (sg_graph x) <= snd (sg_capacity d x).
Proof.
  intros W [R1 R2]. unfold sg_capacity. cbn [fst snd]. split.
  - unfold size_vertex. destruct (off (sg_graph x)) eqn:E; [lia|]. rewrite <- E in *. apply cap_vertices.
    rewrite E in R2 |- *. cbn [length] in *. lia.
  - unfold size_edge. destruct d; cbn [negb]; [lia|]. apply Nat.div_le_mono; lia.
Qed.

Lemma off_length d g : well_formed d g -> off g <> [] -> length (off g) = size_vertex g + 1.
Proof. intros _ H. unfold size_vertex. destruct (off g); [contradiction|]. cbn [length]. lia. Qed.

Lemma insert_step grow dbg d x e : grows grow -> well_formed d (sg_graph x) -> roomy x -> fst e <> snd e ->
  exists y b, sg_insert grow dbg d x e = Ok (y, b) /\ insert dbg d (sg_graph x) e = Ok (sg_graph y, b) /\
    well_formed d (sg_graph y) /\ 0 < size_vertex (sg_graph y) /\
    tracks (sg_adj x) (sg_adj y) (length (adj (sg_graph x))) (length (adj (sg_graph y))) /\
    tracks (sg_off x) (sg_off y) (length (off (sg_graph x))) (length (off (sg_graph y))).
Proof.
  intros G W [R1 R2] He. destruct (insert_spec dbg d (sg_graph x) e W He) as (g' & b & E & W' & _ & Hf & _ & Ha & Hs).
  unfold sg_insert. rewrite E. cbn [bind]. destruct b.
  - eexists _, true. split; [reflexivity|]. cbn [sg_graph sg_adj sg_off]. split; auto. split; auto. split; [lia|].
    assert (N : off g' <> []). { intro N. unfold size_vertex in Hs. rewrite N in Hs. destruct (off (sg_graph x)); lia. }
    split.
    + rewrite Ha. destruct d.
      * apply tracks_fit; auto; lia.
      * replace (length (adj (sg_graph x)) + 2) with (length (adj (sg_graph x)) + 1 + 1) by lia.
        assert (T : tracks (sg_adj x) (fit grow (length (adj (sg_graph x)) + 1) (sg_adj x)) (length (adj (sg_graph x))) (length (adj (sg_graph x)) + 1)).
        { apply tracks_fit; auto; lia. }
        eapply tracks_trans; [exact T|]. apply tracks_fit; auto; [lia|]. apply T.
    + rewrite (off_length d g' W' N), Hs. destruct (Nat.leb_spec (size_vertex (sg_graph x)) (Nat.max (fst e) (snd e))) as [L|L].
      * rewrite (Nat.max_r (size_vertex (sg_graph x))) by lia. apply tracks_fit; auto. unfold size_vertex in L. destruct (off (sg_graph x)); cbn [length] in *; lia.
      * rewrite (Nat.max_l (size_vertex (sg_graph x))) by lia. assert (X : off (sg_graph x) <> []).
        { intro X. unfold size_vertex in L. rewrite X in L. lia. }
        rewrite <- (off_length d (sg_graph x) W X). apply tracks_refl. exact R2.
  - pose proof (Hf eq_refl) as Eg. subst g'. exists (mkSG (sg_graph x) (sg_adj x) (sg_off x)), false. split; [reflexivity|].
    cbn [sg_graph sg_adj sg_off]. split; [reflexivity|]. split; auto. split; [lia|]. split; apply tracks_refl; auto.
Qed.

Lemma insert_steps grow dbg d es x : grows grow -> well_formed d (sg_graph x) -> roomy x ->
  (forall e, In e es -> fst e <> snd e) ->
  exists y bs, sg_insert_all grow dbg d es x = Ok y /\ insert_all dbg d es (sg_graph x) = Ok (sg_graph y, bs) /\
    well_formed d (sg_graph y) /\ roomy y /\ (es = [] \/ 0 < size_vertex (sg_graph y)) /\ (es = [] -> y = x) /\
    tracks (sg_adj x) (sg_adj y) (length (adj (sg_graph x))) (length (adj (sg_graph y))) /\
    tracks (sg_off x) (sg_off y) (length (off (sg_graph x))) (length (off (sg_graph y))).
Proof.
  intros G. revert x. induction es as [|e es IH]; intros x W R He.
  - exists x, []. cbn [sg_insert_all insert_all]. destruct R as [R1 R2].
    split; auto. split; auto. split; auto. split; [split; auto|]. split; auto. split; auto. split; apply tracks_refl; auto.
  - destruct (insert_step grow dbg d x e G W R (He e (or_introl eq_refl))) as (x' & b & E & E' & W' & P & Ta & To).
    assert (R' : roomy x') by (split; [apply Ta|apply To]).
    destruct (IH x' W' R' (fun e' H => He e' (or_intror H))) as (y & bs & F & F' & Wy & Ry & Py & Ny & Ta' & To').
    exists y, (b :: bs). cbn [sg_insert_all insert_all]. rewrite E, E'. cbn [bind fst]. rewrite F, F'. cbn [bind].
    split; auto. split; auto. split; auto. split; auto. split.
    { right. destruct Py as [->|Py]; auto. rewrite (Ny eq_refl). exact P. }
    split; [discriminate|]. split; eapply tracks_trans; eauto.
Qed.

Lemma insert_in_place grow dbg d es x : grows grow -> well_formed d (sg_graph x) -> roomy x ->
  (forall e, In e es -> fst e <> snd e) ->
  exists y bs, sg_insert_all grow dbg d es x = Ok y /\ insert_all dbg d es (sg_graph x) = Ok (sg_graph y, bs) /\ roomy y /\
    (sto_block (sg_off y) = sto_block (sg_off x) <-> size_vertex (sg_graph y) <= fst (sg_capacity d x)) /\
    (sto_block (sg_adj y) = sto_block (sg_adj x) <-> size_edge d (sg_graph y) <= snd (sg_capacity d x)).
Proof.
  intros G W R He. destruct (insert_steps grow dbg d es x G W R He) as (y & bs & E & E' & Wy & Ry & Py & Ny & Ta & To).
  exists y, bs. split; auto. split; auto. split; auto. split.
  - rewrite (tracks_block _ _ _ _ To). unfold sg_capacity. cbn [fst]. destruct es as [|e es].
    + rewrite (Ny eq_refl). destruct (sizes_fit d x W R) as [S _]. unfold sg_capacity in S. cbn [fst] in S.
      split; intro; auto. apply R.
    + destruct Py as [Py|Py]; [discriminate|].
      assert (N : off (sg_graph y) <> []). { intro N. unfold size_vertex in Py. rewrite N in Py. lia. }
      rewrite (off_length d _ Wy N). destruct (Nat.eqb_spec (sto_cap (sg_off x)) 0); lia.
  - rewrite (tracks_block _ _ _ _ Ta), (size_edge_entries d _ Wy). unfold sg_capacity. cbn [snd].
    destruct d; cbn [negb]; [lia|]. split; intro H; [apply half_le; lia|].
    pose proof (Nat.mul_div_le (sto_cap (sg_adj x)) 2). lia.
Qed.

Lemma data_pointers x y : sto_block (sg_adj y) = sto_block (sg_adj x) -> sto_block (sg_off y) = sto_block (sg_off x) ->
  adj (sg_graph x) <> [] -> g_empty (sg_graph x) = false -> adj (sg_graph y) <> [] -> g_empty (sg_graph y) = false ->
  sg_data y = sg_data x.
Proof.
  intros Ea Eo Hx Nx Hy Ny. unfold sg_data. rewrite Nx, Ny, Ea, Eo.
  destruct (adj (sg_graph x)); [contradiction|]. destruct (adj (sg_graph y)); [contradiction|reflexivity].
Qed.

Lemma swap_exchanges x y : sg_swap x y = (y, x).
Proof. destruct x as [[] ? ?], y as [[] ? ?]. reflexivity. Qed.

Lemma shrink_keeps oa oo x : roomy x -> roomy (sg_shrink oa oo x) /\ sg_graph (sg_shrink oa oo x) = sg_graph x /\
  (oa = true -> sto_cap (sg_adj (sg_shrink oa oo x)) = length (adj (sg_graph x))) /\
  (oo = true -> sto_cap (sg_off (sg_shrink oa oo x)) = length (off (sg_graph x))).
Proof.
  intros [R1 R2]. unfold roomy, sg_shrink, v_shrink. cbn [sg_graph sg_adj sg_off].
  destruct oa, oo; cbn [andb];
    destruct (Nat.ltb_spec (length (adj (sg_graph x))) (sto_cap (sg_adj x)));
    destruct (Nat.ltb_spec (length (off (sg_graph x))) (sto_cap (sg_off x))); cbn [sto_cap];
    repeat split; auto; try discriminate; intros; lia.
Qed.

(* ------------------------------------------------------------------ the constructor *)
Lemma edge_key_le d e : edge_key d e <= Nat.max (fst e) (snd e).
Proof. unfold edge_key, order_edge_vertex. destruct d; cbn [negb]; [lia|]. destruct (Nat.ltb_spec (fst e) (snd e)); cbn [snd]; lia. Qed.

Lemma max_edge_In d best es : max_edge d best es = best \/ In (max_edge d best es) es.
Proof.
  revert best. induction es as [|e es IH]; intro best; cbn [max_edge]; auto.
  destruct (IH (if edge_key d best <? edge_key d e then e else best)) as [E|H].
  - rewrite E. destruct (_ <? _); [right; left; auto|left; auto].
  - right. right. exact H.
Qed.

Lemma vertex_bound_ge es e : In e es -> Nat.max (fst e) (snd e) + 1 <= vertex_bound es.
Proof.
  induction es as [|a es IH]; intro H; [destruct H|]. unfold vertex_bound in *. cbn [fold_right] in *.
  destruct H as [->|H]; [|specialize (IH H)]; lia.
Qed.

Lemma distinct_le d es : length (distinct_edges d es) <= length es.
Proof.
  unfold distinct_edges. assert (H : forall l acc, length (fold_left (fun acc e => if mem_edge d e acc then acc else acc ++ [e]) l acc) <= length acc + length l).
  { induction l as [|a l IH]; intro acc; cbn [fold_left length]; [lia|]. specialize (IH (if mem_edge d a acc then acc else acc ++ [a])).
    destruct (mem_edge d a acc); rewrite ?app_length in IH; cbn [length] in IH; lia. }
  apply (H es []).
Qed.

Lemma list_moves grow M vmax dbg d es : grows grow -> (forall n, grow 0 n = n) -> es <> [] ->
  (forall e, In e es -> fst e <> snd e /\ fst e < M /\ snd e < M) -> factor d * length es <= M ->
  M <= vmax ->
  exists x y bs, sg_of_list grow M vmax dbg d es = Ok (x, y) /\ insert_all dbg d es graph_default = Ok (sg_graph y, bs) /\
    sto_block (sg_off y) <> sto_block (sg_off x) /\ sto_block (sg_adj y) = sto_block (sg_adj x).
Proof.
  intros G Gz Hne He Hl Hv. destruct es as [|e es]; [contradiction|]. cbn [sg_of_list].
  set (m := max_edge d e es).
  assert (Hm : In m (e :: es)) by (unfold m; destruct (max_edge_In d e es) as [->|H]; [left; auto|right; auto]).
  destruct (He m Hm) as (Hm1 & Hm2 & Hm3).
  set (k := if negb d then Nat.max (fst m) (snd m) else fst m).
  assert (Hk : k < M) by (unfold k; destruct d; cbn [negb]; lia).
  unfold sg_reserve. cbn [sg_default sg_off sg_adj sg_graph]. rewrite (wrap_small M (k + 1)) by lia.
  assert (E1 : length (e :: es) * (if negb d then 2 else 1) = factor d * length (e :: es)) by (destruct d; cbn [negb factor]; lia).
  rewrite E1, (wrap_small M (factor d * _)) by lia.
  unfold v_reserve. destruct (Nat.ltb_spec vmax (k + 1)); [lia|]. cbn [bind].
  destruct (Nat.ltb_spec vmax (factor d * length (e :: es))); [lia|]. cbn [bind].
  set (x := mkSG graph_default (fit grow (factor d * length (e :: es)) (mkStore 0 0)) (fit grow (k + 1) (mkStore 0 0))).
  assert (R : roomy x) by (split; cbn [x sg_graph graph_default adj off length]; lia).
  assert (He' : forall a, In a (e :: es) -> fst a <> snd a) by (intros a Ha; apply He, Ha).
  destruct (insert_in_place grow dbg d (e :: es) x G (well_formed_default d) R He') as (y & bs & E & E' & _ & Ho & Ha).
  rewrite E. cbn [bind]. exists x, y, bs. split; auto. split; auto.
  destruct (insert_sequence dbg d (e :: es) He') as (g & bs' & F & _ & _ & _ & Se & Sv).
  cbn [x sg_graph] in E'. rewrite F in E'. injection E' as Eg Eb. rewrite <- Eg in *. split.
  - rewrite Ho. rewrite Sv. unfold sg_capacity. cbn [x sg_off fst]. unfold fit. cbn [sto_cap].
    destruct (Nat.leb_spec (k + 1) 0); [lia|]. cbn [sto_cap]. rewrite Gz.
    destruct (Nat.eqb_spec (k + 1) 0); [lia|]. pose proof (vertex_bound_ge (e :: es) m Hm) as B.
    assert (k <= Nat.max (fst m) (snd m)) by (unfold k; destruct d; cbn [negb]; lia). lia.
  - apply Ha. rewrite Se. unfold sg_capacity. cbn [x sg_adj snd]. apply cap_edges. rewrite (Nat.mul_comm _ (if negb d then 2 else 1)).
    apply Nat.le_trans with (factor d * length (e :: es)).
    + assert (length (distinct_edges d (e :: es)) <= length (e :: es)) by apply distinct_le.
      destruct d; cbn [negb factor]; lia.
    + unfold fit. cbn [sto_cap]. destruct (Nat.leb_spec (factor d * length (e :: es)) 0); cbn [sto_cap]; [lia|]. apply G.
Qed.

Lemma max_edge_best d best es : edge_key d best <= edge_key d (max_edge d best es).
Proof.
  revert best. induction es as [|a es IH]; intros best; cbn [max_edge]; [lia|].
  destruct (Nat.ltb_spec (edge_key d best) (edge_key d a)); [specialize (IH a); lia|apply IH].
Qed.

Lemma max_edge_max d best es e : In e (best :: es) -> edge_key d e <= edge_key d (max_edge d best es).
Proof.
  revert best. induction es as [|a es IH]; intros best [->|H]; try (apply max_edge_best); [destruct H|].
  cbn [max_edge]. destruct H as [->|H]; [|apply IH; right; exact H].
  destruct (Nat.ltb_spec (edge_key d best) (edge_key d e)); [apply max_edge_best|].
  pose proof (max_edge_best d best es). lia.
Qed.

Lemma list_hint grow M vmax dbg d es x y : (forall n, grow 0 n = n) ->
  (forall e, In e es -> fst e < M /\ snd e < M) -> sg_of_list grow M vmax dbg d es = Ok (x, y) ->
  (d = false -> sto_cap (sg_off x) = vertex_bound es) /\
  (d = true -> exists e, In e es /\ (forall e', In e' es -> snd e' <= snd e) /\ sto_cap (sg_off x) = fst e + 1).
Proof.
  intros Gz He. destruct es as [|e es]; [discriminate|]. cbn [sg_of_list].
  set (m := max_edge d e es).
  assert (Hm : In m (e :: es)) by (unfold m; destruct (max_edge_In d e es) as [->|H]; [left; auto|right; auto]).
  destruct (He m Hm) as (Hm2 & Hm3).
  set (k := if negb d then Nat.max (fst m) (snd m) else fst m).
  assert (Hk : k < M) by (unfold k; destruct d; cbn [negb]; lia).
  unfold sg_reserve. rewrite (wrap_small M (k + 1)) by lia.
  destruct (v_reserve grow vmax (k + 1) (sg_off sg_default)) as [so| | |] eqn:Eo; try discriminate. cbn [bind].
  destruct (v_reserve grow vmax _ (sg_adj sg_default)) as [sa| | |]; try discriminate. cbn [bind].
  destruct (sg_insert_all _ _ _ _ _) as [z| | |]; try discriminate. cbn [bind]. intros E. injection E as <- <-.
  cbn [sg_off].
  assert (Hc : sto_cap so = k + 1).
  { unfold v_reserve in Eo. destruct (vmax <? k + 1); [discriminate|]. injection Eo as <-.
    unfold fit. cbn [sg_default sg_off sto_cap]. destruct (Nat.leb_spec (k + 1) 0); [lia|]. cbn [sto_cap]. apply Gz. }
  rewrite Hc. split; intros ->.
  - unfold k. cbn [negb]. apply Nat.le_antisymm; [apply vertex_bound_ge, Hm|].
    assert (K : forall e', edge_key false e' = Nat.max (fst e') (snd e')).
    { intros e'. unfold edge_key, order_edge_vertex. cbn [negb]. destruct (Nat.ltb_spec (fst e') (snd e')); cbn [snd]; lia. }
    assert (B : forall l, (forall e', In e' l -> Nat.max (fst e') (snd e') <= Nat.max (fst m) (snd m)) ->
      vertex_bound l <= Nat.max (fst m) (snd m) + 1).
    { unfold vertex_bound. induction l as [|a l IH]; intros Hl; cbn [fold_right]; [lia|].
      pose proof (Hl a (or_introl eq_refl)). specialize (IH (fun e' h => Hl e' (or_intror h))). lia. }
    apply B. intros e' H'. rewrite <- !K. apply max_edge_max, H'.
  - exists m. split; [exact Hm|]. split; [|reflexivity]. intros e' H'. apply (max_edge_max true e es e' H').
Qed.

(* ------------------------------------------------------------------ subgraphs *)
Lemma sub_reserve_room grow M vmax x nv ne : grows grow -> sub_roomy x -> nv < M -> 2 * ne <= M -> nv + 1 <= vmax -> 2 * ne <= vmax ->
  exists y, ss_reserve grow M vmax x nv ne = Ok y /\ ss_sub y = ss_sub x /\ sg_graph (ss_graph y) = sg_graph (ss_graph x) /\ sub_roomy y /\
    let '(c1, c2, c3, c4) := ss_capacity y in nv <= c1 /\ ne <= c2 /\ nv <= c3 /\ nv <= c4.
Proof.
  intros G (R & Rl & Rv) H1 H2 H3 H4. unfold ss_reserve.
  destruct (reserve_room grow M vmax false (ss_graph x) nv ne G R H1 H2 H3 H4) as (g & E & Eg & Rg & A & B & _).
  rewrite E. cbn [bind].
  destruct (reserve_ok grow vmax nv (ss_lg x) G ltac:(lia)) as (l & El & L1 & L2 & _). rewrite El. cbn [bind].
  destruct (reserve_ok grow vmax nv (ss_lev x) G ltac:(lia)) as (v & Ev & V1 & V2 & _). rewrite Ev. cbn [bind].
  eexists. split; [reflexivity|]. cbn [ss_sub ss_graph]. split; auto. split; auto. split.
  - split; [exact Rg|]. cbn [ss_sub ss_lg ss_lev]. lia.
  - unfold ss_capacity. cbn [ss_graph ss_lg ss_lev]. auto.
Qed.

(* ------------------------------------------------------------------ matrices *)
Section Matrix.
  Context {V : Type}.
  Variables (vzero : V) (stray : option nat) (M : nat) (dbg : bool).

  Lemma concat_upd_len (rs : list (list (nat * V))) i r : i < length rs ->
    length (concat (upd rs i r)) + length (nth i rs []) = length (concat rs) + length r.
  Proof using.
    revert i. induction rs as [|a rs IH]; intros i Hi; [cbn in Hi; lia|]. destruct i as [|i].
    - unfold upd. cbn [firstn skipn app concat nth]. rewrite !app_length. lia.
    - specialize (IH i ltac:(cbn in Hi; lia)). unfold upd in *. cbn [firstn skipn app concat nth] in *. rewrite !app_length. lia.
  Qed.

  Lemma insert_rows_count i j v (rs : list (list (nat * V))) : length (concat (insert_rows i j v rs)) = length (concat rs) + 1.
  Proof using.
    assert (L : i < length (SparseInsert.grow (i + 1) rs)) by (rewrite grow_length; lia).
    pose proof (concat_upd_len (SparseInsert.grow (i + 1) rs) i (ins_row (nth i rs []) j v) L) as H.
    assert (C : forall k, length (concat (repeat (@nil (nat * V)) k)) = 0) by (induction k; auto).
    rewrite grow_nth in H. unfold SparseInsert.grow at 2 in H. rewrite concat_app, app_length, C in H. unfold insert_rows.
    assert (Li : length (ins_row (nth i rs []) j v) = length (nth i rs []) + 1).
    { unfold ins_row, list_insert. rewrite app_length. cbn [length]. rewrite firstn_length, skipn_length.
      pose proof (lbound_le (map fst (nth i rs [])) j) as B. rewrite map_length in B. lia. }
    lia.
  Qed.

  Lemma mat_insert_step grow (x : smatrix (V := V)) i j v : grows grow -> swf (sm_matrix x) -> mat_roomy x ->
    exists y b it, sm_insert grow M vzero stray dbg x i j v = Ok (y, b) /\
      s_insert vzero M dbg stray (sm_matrix x) i j v = Ok (sm_matrix y, it, b) /\ swf (sm_matrix y) /\ i < s_rows (sm_matrix y) /\
      tracks (sm_rnz x) (sm_rnz y) (length (rnz (sm_matrix x))) (length (rnz (sm_matrix y))) /\
      tracks (sm_col x) (sm_col y) (length (cidx (sm_matrix x))) (length (cidx (sm_matrix y))) /\
      tracks (sm_val x) (sm_val y) (length (vals (sm_matrix x))) (length (vals (sm_matrix y))).
  Proof using.
    intros G (rs & Hr & Hok) (R1 & R2 & R3). destruct (s_insert_ok vzero M dbg stray (sm_matrix x) rs i j v Hr Hok) as (m' & b & E & Hc & Hb).
    unfold sm_insert. rewrite E. cbn [bind].
    destruct b.
    - destruct Hb as [Hn Hr']. eexists _, true, _. split; [reflexivity|]. split; [reflexivity|]. cbn [sm_matrix sm_rnz sm_col sm_val].
      assert (Hok' : srows_ok (csize m') (insert_rows i j v rs)) by (rewrite Hc; apply insert_rows_ok; auto).
      split; [exists (insert_rows i j v rs); auto|].
      assert (Lr : length (insert_rows i j v rs) = Nat.max (length rs) (i + 1)) by apply insert_rows_length.
      split; [rewrite (srepr_rows _ _ Hr'); lia|]. split; [|split].
      + assert (Ln : length (rnz m') = Nat.max (length rs) (i + 1) + 1).
        { rewrite (srepr_rnz_length _ _ Hr'); [lia|]. intro N. rewrite N in Lr. cbn in Lr. lia. }
        rewrite Ln, (srepr_rows _ _ Hr).
        assert (Lx : length (rnz (sm_matrix x)) = length rs + 1 \/ rs = [] /\ length (rnz (sm_matrix x)) = 0).
        { destruct Hr as ([H|[H ->]] & _); [left; rewrite H, psum_length; lia|right; rewrite H; auto]. }
        assert (T1 : tracks (sm_rnz x) (if length rs <=? i then fit grow (i + 1 + 1) (sm_rnz x) else sm_rnz x)
                       (length (rnz (sm_matrix x))) (Nat.max (length rs) (i + 1) + 1)).
        { destruct (Nat.leb_spec (length rs) i) as [L|L].
          - rewrite (Nat.max_r (length rs)) by lia. apply tracks_fit; auto. lia.
          - rewrite (Nat.max_l (length rs)) by lia. destruct Lx as [Lx|[Nx _]]; [|subst rs; cbn in L; lia].
            rewrite <- Lx. apply tracks_refl; auto. }
        destruct (csize (sm_matrix x) <=? j); auto. eapply tracks_trans; [exact T1|]. apply tracks_fit; auto. apply T1.
      + destruct Hr as (_ & Ec & _), Hr' as (_ & Ec' & _). rewrite Ec', map_length, insert_rows_count, <- (map_length fst), <- Ec.
        apply tracks_fit; auto; lia.
      + destruct Hr as (_ & _ & Ev), Hr' as (_ & _ & Ev'). rewrite Ev', map_length, insert_rows_count, <- (map_length snd), <- Ev.
        apply tracks_fit; auto; lia.
    - destruct Hb as [Hi Em]. subst m'. eexists _, false, _. split; [reflexivity|]. split; [reflexivity|]. cbn [sm_matrix sm_rnz sm_col sm_val].
      split; [exists rs; auto|].
      assert (Li : i < length rs).
      { destruct (Nat.lt_ge_cases i (length rs)) as [L|L]; auto. rewrite nth_overflow in Hi by auto. destruct Hi. }
      assert (Lj : j < csize (sm_matrix x)) by (apply (proj2 (Hok i Li)); auto).
      rewrite (srepr_rows _ _ Hr). split; auto.
      destruct (Nat.leb_spec (length rs) i); [lia|]. destruct (Nat.leb_spec (csize (sm_matrix x)) j); [lia|].
      split; [|split]; apply tracks_refl; auto.
  Qed.

  Fixpoint inserts (es : list (nat * nat * V)) (m : smat V) : res (smat V) :=
    match es with
    | [] => Ok m
    | (i, j, v) :: es' => do r <- s_insert vzero M dbg stray m i j v; inserts es' (fst (fst r))
    end.

  Lemma mat_insert_steps grow es (x : smatrix (V := V)) : grows grow -> swf (sm_matrix x) -> mat_roomy x ->
    exists y, sm_insert_all grow M vzero stray dbg es x = Ok y /\ inserts es (sm_matrix x) = Ok (sm_matrix y) /\
      swf (sm_matrix y) /\ mat_roomy y /\ (es = [] \/ 0 < s_rows (sm_matrix y)) /\ (es = [] -> y = x) /\
      tracks (sm_rnz x) (sm_rnz y) (length (rnz (sm_matrix x))) (length (rnz (sm_matrix y))) /\
      tracks (sm_col x) (sm_col y) (length (cidx (sm_matrix x))) (length (cidx (sm_matrix y))) /\
      tracks (sm_val x) (sm_val y) (length (vals (sm_matrix x))) (length (vals (sm_matrix y))).
  Proof using.
    intros G. revert x. induction es as [|[[i j] v] es IH]; intros x W R.
    - exists x. cbn [sm_insert_all inserts]. pose proof R as (R1 & R2 & R3). split; auto. split; auto. split; auto. split; auto.
      split; auto. split; auto. split; [|split]; apply tracks_refl; auto.
    - destruct (mat_insert_step grow x i j v G W R) as (x' & b & it & E & E' & W' & P & T1 & T2 & T3).
      assert (R' : mat_roomy x') by (split; [apply T1|split; [apply T2|apply T3]]).
      destruct (IH x' W' R') as (y & F & F' & Wy & Ry & Py & Ny & U1 & U2 & U3). exists y.
      cbn [sm_insert_all inserts]. rewrite E, E'. cbn [bind fst]. split; auto. split; auto. split; auto. split; auto. split.
      { right. destruct Py as [->|Py]; auto. rewrite (Ny eq_refl). lia. }
      split; [discriminate|]. split; [|split]; eapply tracks_trans; eauto.
  Qed.

  Lemma mat_in_place grow es (x : smatrix (V := V)) : grows grow -> swf (sm_matrix x) -> mat_roomy x -> es <> [] ->
    exists y, sm_insert_all grow M vzero stray dbg es x = Ok y /\ inserts es (sm_matrix x) = Ok (sm_matrix y) /\ mat_roomy y /\
      (sto_block (sm_rnz y) = sto_block (sm_rnz x) <-> s_rows (sm_matrix y) + 1 <= fst (sm_capacity x)) /\
      (sto_block (sm_col y) = sto_block (sm_col x) <-> s_nnz (sm_matrix y) <= snd (sm_capacity x)) /\
      (sto_block (sm_val y) = sto_block (sm_val x) <-> s_nnz (sm_matrix y) <= sto_cap (sm_val x)).
  Proof using.
    intros G W R Hne. destruct (mat_insert_steps grow es x G W R) as (y & E & E' & Wy & Ry & Py & _ & T1 & T2 & T3).
    exists y. split; auto. split; auto. split; auto. unfold sm_capacity. cbn [fst snd].
    destruct Py as [->|Py]; [contradiction|]. destruct Wy as (rs & Hr & _).
    split; [|split].
    - rewrite (tracks_block _ _ _ _ T1), (srepr_rnz_length _ rs Hr), (srepr_rows _ _ Hr); [lia|].
      intros ->. rewrite (srepr_rows _ _ Hr) in Py. cbn in Py. lia.
    - rewrite (tracks_block _ _ _ _ T2). reflexivity.
    - rewrite (tracks_block _ _ _ _ T3). unfold s_nnz. destruct Hr as (_ & Ec & Ev). rewrite Ec, Ev, !map_length. reflexivity.
  Qed.

  Lemma mat_reserve_room grow vmax (x : smatrix (V := V)) r nz : grows grow -> mat_roomy x -> r < M -> r + 1 <= vmax -> nz <= vmax ->
    exists y, sm_reserve grow M vmax x r nz = Ok y /\ sm_matrix y = sm_matrix x /\ mat_roomy y /\
      r + 1 <= fst (sm_capacity y) /\ nz <= snd (sm_capacity y) /\ nz <= sto_cap (sm_val y).
  Proof using.
    intros G (R1 & R2 & R3) H1 H2 H3. unfold sm_reserve. rewrite wrap_small by lia.
    destruct (reserve_ok grow vmax (r + 1) (sm_rnz x) G H2) as (a & Ea & A1 & A2 & _). rewrite Ea. cbn [bind].
    destruct (reserve_ok grow vmax nz (sm_col x) G H3) as (b & Eb & B1 & B2 & _). rewrite Eb. cbn [bind].
    destruct (reserve_ok grow vmax nz (sm_val x) G H3) as (c & Ec & C1 & C2 & _). rewrite Ec. cbn [bind].
    eexists. split; [reflexivity|]. unfold mat_roomy, sm_capacity. cbn [sm_matrix sm_rnz sm_col sm_val fst snd]. split; auto. repeat split; lia.
  Qed.
End Matrix.

(* ------------------------------------------------------------------ reserve, then insert *)
Lemma reserved_inserts grow M vmax dbg d x nv ne es : grows grow -> well_formed d (sg_graph x) -> roomy x -> nv < M ->
  factor d * ne <= M -> nv + 1 <= vmax -> factor d * ne <= vmax -> (forall e, In e es -> fst e <> snd e) ->
  exists y z bs, sg_reserve grow M vmax d x nv ne = Ok y /\ sg_insert_all grow dbg d es y = Ok z /\
    insert_all dbg d es (sg_graph x) = Ok (sg_graph z, bs) /\
    (size_vertex (sg_graph z) <= nv -> sto_block (sg_off z) = sto_block (sg_off y)) /\
    (size_edge d (sg_graph z) <= ne -> sto_block (sg_adj z) = sto_block (sg_adj y)).
Proof.
  intros G W R H1 H2 H3 H4 He.
  destruct (reserve_room grow M vmax d x nv ne G R H1 H2 H3 H4) as (y & E & Eg & Ry & A & B & _).
  destruct (insert_in_place grow dbg d es y G) as (z & bs & F & F' & _ & P & Q); auto; [rewrite Eg; auto|].
  rewrite Eg in F'. exists y, z, bs. split; auto. split; auto. split; auto. split; intro.
  - apply P. lia.
  - apply Q. lia.
Qed.

Lemma reserve_wraps_room grow k vmax x nv : grows grow -> nv < 2 * k + 1 -> nv + 1 <= vmax -> snd (sg_capacity false x) <= k ->
  exists y, sg_reserve grow (2 * k + 1) vmax false x nv (k + 1) = Ok y /\ snd (sg_capacity false y) < k + 1.
Proof.
  intros G H1 H2 H3. destruct (reserve_wraps grow k vmax x nv G H1 H2) as (y & E & A). exists y. split; auto.
  unfold sg_capacity in *. cbn [snd] in *. rewrite A. lia.
Qed.

Lemma mat_reserved_inserts {V} (vzero : V) stray M dbg grow vmax (x : smatrix (V := V)) r nz es : grows grow ->
  swf (sm_matrix x) -> mat_roomy x -> r < M -> r + 1 <= vmax -> nz <= vmax ->
  exists y z, sm_reserve grow M vmax x r nz = Ok y /\ sm_insert_all grow M vzero stray dbg es y = Ok z /\
    inserts vzero stray M dbg es (sm_matrix x) = Ok (sm_matrix z) /\
    (s_rows (sm_matrix z) <= r -> sto_block (sm_rnz z) = sto_block (sm_rnz y)) /\
    (s_nnz (sm_matrix z) <= nz -> sto_block (sm_col z) = sto_block (sm_col y) /\ sto_block (sm_val z) = sto_block (sm_val y)).
Proof.
  intros G W R H1 H2 H3. destruct (mat_reserve_room M grow vmax x r nz G R H1 H2 H3) as (y & E & Em & Ry & A & B & C).
  destruct es as [|e es].
  - exists y, y. cbn [sm_insert_all inserts]. rewrite Em. repeat split; auto.
  - destruct (mat_in_place vzero stray M dbg grow (e :: es) y G) as (z & F & F' & _ & P1 & P2 & P3); auto; [rewrite Em; auto|discriminate|].
    rewrite Em in F'. exists y, z. split; auto. split; auto. split; auto. split; intro.
    + apply P1. lia.
    + split; [apply P2|apply P3]; lia.
Qed.

(** data() by cases. *)
Lemma data_cases x : let g := sg_graph x in
  (size_vertex g = 0 -> sg_data x = (None, None)) /\
  (size_vertex g <> 0 -> adj g = [] -> sg_data x = (None, Some (sto_block (sg_off x)))) /\
  (size_vertex g <> 0 -> adj g <> [] -> sg_data x = (Some (sto_block (sg_adj x)), Some (sto_block (sg_off x)))).
Proof.
  cbv zeta. unfold sg_data, g_empty, size_vertex. destruct (off (sg_graph x)) as [|o [|p r]]; cbn; repeat split; intros; auto; try lia.
  - rewrite H0. reflexivity.
  - destruct (adj (sg_graph x)); [congruence|reflexivity].
Qed.

Lemma sub_data_cases x :
  fst (fst (ss_data x)) = sg_data (ss_graph x) /\
  (snd (fst (ss_data x)) = None <-> s_lg (ss_sub x) = []) /\ (snd (ss_data x) = None <-> s_level (ss_sub x) = []) /\
  (s_lg (ss_sub x) <> [] -> snd (fst (ss_data x)) = Some (sto_block (ss_lg x))) /\
  (s_level (ss_sub x) <> [] -> snd (ss_data x) = Some (sto_block (ss_lev x))).
Proof.
  unfold ss_data. cbn [fst snd]. destruct (sg_data (ss_graph x)), (s_lg (ss_sub x)), (s_level (ss_sub x)); cbn.
  all: repeat split; try congruence.
Qed.
