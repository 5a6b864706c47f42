(** eccentricity_graph reads past the end of its distance vectors on every graph with an edge. *)
From Verif Require Import Base ListFacts Csr GraphModel GraphSpec GraphFacts TraversalModel Bfs
  TraversalFacts.

Lemma forM_undef {A S} (P : S -> Prop) (l : list A) (f : A -> S -> res S) a0 s :
  (forall a s, In a l -> P s -> f a s = Undef \/ exists s', f a s = Ok s' /\ P s') ->
  In a0 l -> (forall s, P s -> f a0 s = Undef) -> P s -> forM l f s = Undef.
Proof.
  revert s. induction l as [|a l IH]; intros s Hok Hin Hu Hs; [destruct Hin|]. cbn [forM].
  destruct (Hok a s ltac:(simpl; auto) Hs) as [->|(s' & E & Hs')]; [reflexivity|].
  destruct Hin as [->|Hin]; [rewrite (Hu s Hs); reflexivity|].
  rewrite E. cbn [bind]. apply IH; auto. intros b t Hb. apply Hok. simpl; auto.
Qed.

Lemma forM_total {A S} (P : S -> Prop) (l : list A) (f : A -> S -> res S) s :
  (forall a s, In a l -> P s -> f a s = Undef \/ exists s', f a s = Ok s' /\ P s') -> P s ->
  forM l f s = Undef \/ exists s', forM l f s = Ok s' /\ P s'.
Proof.
  revert s. induction l as [|a l IH]; intros s Hok Hs; cbn [forM]; [eauto|].
  destruct (Hok a s ltac:(simpl; auto) Hs) as [->|(s' & E & Hs')]; [auto|].
  rewrite E. cbn [bind]. apply IH; auto. intros b t Hb. apply Hok. simpl; auto.
Qed.

(** Stored levels are smaller than the number of vertices that have one. *)
Definition small (M : nat) (L : list nat) : Prop :=
  forall v, v < length L -> nth v L 0 <> M -> nth v L 0 + 1 + count M L <= length L.

Lemma count_pos x l i : i < length l -> nth i l 0 = x -> 0 < count x l.
Proof.
  intros Hi Hx. unfold count. assert (In x (filter (Nat.eqb x) l)).
  { apply filter_In. split; [rewrite <- Hx; apply nth_In; auto|apply Nat.eqb_refl]. }
  destruct (filter (Nat.eqb x) l); [destruct H|simpl; lia].
Qed.

Lemma visit_total M f v L Q : length L <= M -> f < length L -> small M L ->
  bfs_visit M M f v (L, Q) = Undef \/
  (v < length L /\
   exists L' Q', bfs_visit M M f v (L, Q) = Ok (L', Q') /\ length L' = length L /\ small M L' /\
    length Q' + count M L' = length Q + count M L /\
    (forall w, In w Q' -> In w Q \/ w < length L)).
Proof.
  intros HM Hf Hsm. unfold bfs_visit.
  destruct (Nat.lt_ge_cases v (length L)) as [Hv|Hv]; [|rewrite vget_ge by auto; auto].
  right. split; auto. rewrite (vget_lt L v 0) by auto. cbn [bind].
  destruct (Nat.eqb_spec (nth v L 0) M) as [E|E].
  2:{ exists L, Q. split; [reflexivity|]. split; [reflexivity|]. split; [exact Hsm|].
      split; [reflexivity|auto]. }
  rewrite (vget_lt L f 0) by auto. cbn [bind]. rewrite vset_lt by auto. cbn [bind].
  set (x := wrap_inc M (nth f L 0)).
  pose proof (count_pos M L v Hv E) as Hpos. pose proof (count_le M L) as Hcl.
  assert (Hx : x + count M L <= length L /\ x <> M).
  { unfold x, wrap_inc. destruct (Nat.eqb_spec (nth f L 0) M) as [Ef|Ef]; [lia|].
    specialize (Hsm f Hf Ef). lia. }
  pose proof (count_upd M L v x Hv E (proj2 Hx)) as Hcu.
  eexists _, _. split; [reflexivity|]. rewrite upd_length by auto. split; auto. split; [|split].
  - intros w Hw Hne. rewrite upd_length in * by auto. rewrite nth_upd in * by auto.
    destruct (w =? v); [lia|]. specialize (Hsm w Hw Hne). lia.
  - rewrite app_length. simpl. lia.
  - intros w Hw. apply in_app_iff in Hw as [Hw|[<-|[]]]; auto.
Qed.

Lemma loop_total M dbg d g b fuel L Q :
  well_formed d g -> length L <= size_vertex g -> length L <= M -> small M L ->
  (forall v, In v Q -> v < length L) -> length Q + count M L <= fuel ->
  bfs_loop fuel M dbg g M (fun _ f => Ok (b f)) L Q = Undef \/
  exists L', bfs_loop fuel M dbg g M (fun _ f => Ok (b f)) L Q = Ok L' /\ length L' = length L.
Proof.
  intros Hw. revert L Q. induction fuel as [|fuel IH]; intros L Q HL HM Hsm HQ Hf.
  - destruct Q; [|simpl in Hf; lia]. right. exists L. auto.
  - destruct Q as [|h Q]; [right; exists L; auto|]. cbn [bfs_loop bind].
    assert (Hh : h < length L) by (apply HQ; simpl; auto).
    destruct (b h).
    + apply IH; auto; [intros; apply HQ; simpl; auto|simpl in Hf; lia].
    + destruct (row_ok dbg d g h Hw ltac:(lia)) as (r & Hr & _). rewrite Hr. cbn [bind].
      destruct (forM_total (fun s => length (fst s) = length L /\ small M (fst s) /\
          length (snd s) + count M (fst s) = length Q + count M L /\
          forall w, In w (snd s) -> w < length L) r (bfs_visit M M h) (L, Q))
        as [->|((L' & Q') & E & H1 & H2 & H3 & H4)].
      * intros v [L1 Q1] _ (H1 & H2 & H3 & H4). cbn [fst snd] in *.
        destruct (visit_total M h v L1 Q1) as [->|(_ & L2 & Q2 & E & K1 & K2 & K3 & K4)];
          try lia; auto.
        right. exists (L2, Q2). cbn [fst snd]. split; auto. split; [lia|]. split; auto. split; [lia|].
        intros w Hw'. apply K4 in Hw' as [Hw'|Hw']; [auto|lia].
      * cbn [fst snd]. split; auto. split; auto. split; auto. intros w Hw'. apply HQ. simpl; auto.
      * left. reflexivity.
      * rewrite E. cbn [bind fst snd] in *. rewrite <- H1. apply IH; auto; try lia.
        -- intros w Hw'. rewrite H1. auto.
        -- simpl in Hf. lia.
Qed.

Lemma nth_fresh M n s v : s < n -> v < n ->
  nth v (upd (repeat M n) s 0) 0 = if v =? s then 0 else M.
Proof.
  intros Hs Hv. rewrite nth_upd by (rewrite repeat_length; auto).
  destruct (v =? s); auto.
  rewrite (nth_indep _ 0 M) by (rewrite repeat_length; auto). apply nth_repeat.
Qed.

Lemma count_fresh M n s : s < n -> 0 < M -> count M (upd (repeat M n) s 0) + 1 = n.
Proof.
  intros Hs HM. rewrite count_upd.
  - unfold count. rewrite filter_all, repeat_length; auto.
    intros x Hx. apply repeat_spec in Hx. subst. apply Nat.eqb_refl.
  - rewrite repeat_length. auto.
  - rewrite (nth_indep _ 0 M) by (rewrite repeat_length; auto). apply nth_repeat.
  - lia.
Qed.

Lemma vresize_repeat {A} (x : A) m n : vresize (repeat x m) n x = repeat x n.
Proof.
  apply nth_error_ext_len; rewrite vresize_length, ?repeat_length; auto.
  intros i Hi. rewrite nth_error_vresize, !nth_error_repeat', repeat_length.
  destruct (Nat.ltb_spec i n); [|lia]. destruct (i <? m); auto.
Qed.

(** The body of eccentricity_vertex_breadth_first as called by eccentricity_graph. *)
Lemma eccentricity_vertex_stop M dbg d g s dist0 : well_formed d g -> s < size_vertex g ->
  eccentricity_vertex false M dbg g s dist0 (s + 1) =
  bfs_loop (1 + (s + 1)) M dbg g M (fun _ front => Ok (s + 1 <=? front))
    (upd (repeat M (s + 1)) s 0) [s].
Proof.
  intros Hw Hs. unfold eccentricity_vertex.
  rewrite (size_pos_nonempty d g) by (auto; lia). cbn [negb]. rewrite ASSERT_DEBUG_true. cbn [bind].
  destruct (Nat.ltb_spec s (size_vertex g)); [|lia]. rewrite ASSERT_DEBUG_true. cbn [bind].
  destruct (Nat.leb_spec s (s + 1)); [|lia]. rewrite ASSERT_DEBUG_true. cbn [bind].
  destruct (Nat.leb_spec (s + 1) (size_vertex g)); [|lia]. rewrite orb_true_r, ASSERT_DEBUG_true. cbn [bind].
  rewrite orb_false_r.
  replace (if size_vertex g <=? s + 1 then size_vertex g else s + 1) with (s + 1)
    by (destruct (Nat.leb_spec (size_vertex g) (s + 1)); lia).
  rewrite vresize_repeat, vset_lt by (rewrite repeat_length; lia). cbn [bind].
  rewrite upd_length, repeat_length by (rewrite repeat_length; lia). reflexivity.
Qed.

Lemma fresh_small M n s : s < n -> 0 < M -> small M (upd (repeat M n) s 0).
Proof.
  intros Hs HM v Hv Hne. pose proof (count_fresh M n s Hs HM) as Hc.
  assert (HL : length (upd (repeat M n) s 0) = n)
    by (rewrite upd_length, repeat_length; rewrite ?repeat_length; auto).
  rewrite HL in *. rewrite nth_fresh in * by auto. destruct (v =? s); [lia|congruence].
Qed.

Lemma eccentricity_vertex_total M dbg d g s dist0 : well_formed d g -> s < size_vertex g ->
  size_vertex g <= M ->
  eccentricity_vertex false M dbg g s dist0 (s + 1) = Undef \/
  exists D, eccentricity_vertex false M dbg g s dist0 (s + 1) = Ok D.
Proof.
  intros Hw Hs HM. rewrite (eccentricity_vertex_stop M dbg d) by auto.
  assert (HL : length (upd (repeat M (s + 1)) s 0) = s + 1)
    by (rewrite upd_length, repeat_length; rewrite ?repeat_length; lia).
  destruct (loop_total M dbg d g (fun f => s + 1 <=? f) (1 + (s + 1)) (upd (repeat M (s + 1)) s 0) [s])
    as [E|(L' & E & _)]; auto; try (rewrite HL; lia).
  - apply fresh_small; lia.
  - rewrite HL. intros v [<-|[]]. lia.
  - pose proof (count_fresh M (s + 1) s). simpl. lia.
  - right. exists L'. auto.
Qed.

Lemma eccentricity_vertex_undef M dbg d g s v dist0 : well_formed d g -> edge g s v -> s < v ->
  size_vertex g <= M -> eccentricity_vertex false M dbg g s dist0 (s + 1) = Undef.
Proof.
  intros Hw He Hsv HM. pose proof (edge_bounds d g s v Hw He) as (Hs & Hv & _).
  rewrite (eccentricity_vertex_stop M dbg d) by auto.
  assert (HL : length (upd (repeat M (s + 1)) s 0) = s + 1)
    by (rewrite upd_length, repeat_length; rewrite ?repeat_length; lia).
  cbn [Nat.add bfs_loop bind].
  destruct (Nat.leb_spec (s + 1) s); [lia|].
  destruct (row_ok dbg d g s Hw Hs) as (r & Hr & Hre). rewrite Hr. cbn [bind].
  rewrite (forM_undef (fun q => length (fst q) = s + 1 /\ small M (fst q)) r (bfs_visit M M s) v);
    [reflexivity| | | |].
  - intros w [L1 Q1] Hw1 (H1 & H2). cbn [fst snd] in *.
    destruct (visit_total M s w L1 Q1) as [->|(_ & L2 & Q2 & E & K1 & K2 & K3 & K4)];
      try lia; auto.
    right. exists (L2, Q2). cbn [fst snd]. split; auto. split; [lia|auto].
  - apply Hre. auto.
  - intros [L1 Q1] (H1 & H2). cbn [fst snd] in *. unfold bfs_visit.
    rewrite vget_ge by lia. reflexivity.
  - cbn [fst]. split; auto. apply fresh_small; lia.
Qed.

Lemma eccentricity_graph_undef M dbg g ecc : well_formed false g -> size_vertex g <= M ->
  (exists u v, edge g u v) -> eccentricity_graph false M dbg g ecc = Undef.
Proof.
  intros Hw HM (u & v & He). set (n := size_vertex g) in *.
  assert (exists s t, edge g s t /\ s < t) as (s & t & Hst & Hlt).
  { pose proof (edge_bounds false g u v Hw He) as (_ & _ & Hne).
    destruct (Nat.lt_ge_cases u v); [eauto|]. exists v, u. split; [apply edge_sym; auto|lia]. }
  pose proof (edge_bounds false g s t Hw Hst) as (Hs & Ht & _). fold n in Hs, Ht.
  unfold eccentricity_graph, FOR. fold n.
  apply (forM_undef (fun e : list (list nat) => length e = n)) with (a0 := n - s - 1).
  - intros i e Hi Hl. apply in_seq in Hi.
    rewrite (vget_lt e (n - i - 1) []) by lia. cbn [bind].
    destruct (eccentricity_vertex_total M dbg false g (n - i - 1) (nth (n - i - 1) e []) Hw)
      as [->|(D & ->)]; try (fold n; lia); auto.
    cbn [bind]. rewrite vset_lt by lia. right. eexists. split; [reflexivity|].
    rewrite upd_length; lia.
  - apply in_seq. lia.
  - intros e Hl. replace (n - (n - s - 1) - 1) with s by lia.
    rewrite (vget_lt e s []) by lia. cbn [bind].
    rewrite (eccentricity_vertex_undef M dbg false g s t) by auto. reflexivity.
  - apply vresize_length.
Qed.

(** Without edges the table is right. *)
Lemma eccentricity_graph_edgeless M dbg d g ecc : well_formed d g -> size_vertex g <= M ->
  (forall u v, ~ edge g u v) ->
  exists T, eccentricity_graph false M dbg g ecc = Ok T /\ length T = size_vertex g /\
    forall u v, v <= u -> u < size_vertex g ->
      nth_error (nth u T []) v = Some (if v =? u then 0 else M).
Proof.
  intros Hw HM Hno. set (n := size_vertex g) in *. unfold eccentricity_graph. fold n.
  destruct (FOR_inv (fun k (T : list (list nat)) => length T = n /\
      forall u, n - k <= u < n -> nth u T [] = upd (repeat M (u + 1)) u 0) n
    (fun i ecc => let start := n - i - 1 in
      do dist <- vget ecc start;
      do dist' <- eccentricity_vertex false M dbg g start dist (start + 1);
      vset ecc start dist') (vresize ecc n [])) as (T & E & HT & HTu).
  - split; [apply vresize_length|]. intros; lia.
  - intros i T Hi (HT & HTu). cbv zeta. set (s := n - i - 1).
    assert (Hs : s < n) by (unfold s; lia).
    rewrite (vget_lt T s []) by lia. cbn [bind].
    rewrite (eccentricity_vertex_stop M dbg d) by auto.
    assert (EL : bfs_loop (1 + (s + 1)) M dbg g M (fun _ front => Ok (s + 1 <=? front))
              (upd (repeat M (s + 1)) s 0) [s] = Ok (upd (repeat M (s + 1)) s 0)).
    { cbn [Nat.add bfs_loop bind]. destruct (Nat.leb_spec (s + 1) s); [lia|].
      destruct (row_ok dbg d g s Hw Hs) as (r & Hr & Hre). rewrite Hr. cbn [bind].
      destruct r as [|w r]; [|exfalso; apply (Hno s w), Hre; simpl; auto].
      cbn [forM bind fst snd]. destruct (s + 1); reflexivity. }
    rewrite EL. cbn [bind]. rewrite vset_lt by lia. eexists. split; [reflexivity|].
    rewrite upd_length by lia. split; auto. intros u Hu. rewrite nth_upd by lia.
    destruct (Nat.eqb_spec u s) as [->|Hne]; auto. apply HTu. lia.
  - exists T. split; auto. split; auto. intros u v Hvu Hu. rewrite HTu by lia.
    rewrite repeat_upd_nth by lia. reflexivity.
Qed.
