(** What the stream operators of the graphs write, and that it determines the graph. *)
From Coq Require Import String Ascii DecimalString DecimalNat.
From Verif Require Import Base ListFacts Csr GraphModel GraphSpec GraphFacts GraphSeq SubgraphModel TextModel.

(** Lines (or numbers) separated by a mark. *)
Fixpoint join (sep : text) (l : list text) : text :=
  match l with
  | [] => []
  | x :: r => match r with [] => x | _ => x ++ sep ++ join sep r end
  end.

(** One line: the neighbours separated by ", ", or a full stop. *)
Definition line (r : list nat) : text :=
  if is_nil r then chars "." else join (chars ", ") (map decimal r).

Definition lines (g : graph) : list text := map line (rows g).

(** The line that describes the parent vertex and level of a vertex. *)
Definition entry (i a l : nat) : text :=
  decimal i ++ chars " -> " ++ decimal a ++ chars " (" ++ decimal l ++ chars ")".

Lemma decimal_inj n m : decimal n = decimal m -> n = m.
Proof.
  unfold decimal, chars. intro H.
  apply (f_equal string_of_list_ascii) in H. rewrite !string_of_list_ascii_of_string in H.
  apply (f_equal NilEmpty.uint_of_string) in H. rewrite !NilEmpty.usu in H.
  injection H as H. apply Unsigned.to_uint_inj, H.
Qed.

Definition is_digit (c : ascii) : bool :=
  (48 <=? nat_of_ascii c) && (nat_of_ascii c <=? 57).

Lemma string_of_uint_digits d : forallb is_digit (chars (NilEmpty.string_of_uint d)) = true.
Proof. induction d; [reflexivity|..]; cbn; exact IHd. Qed.

Lemma decimal_digits n c : In c (decimal n) -> is_digit c = true.
Proof.
  intro H. pose proof (string_of_uint_digits (Nat.to_uint n)) as F. rewrite forallb_forall in F.
  apply F, H.
Qed.

Lemma to_uint_not_nil n : Nat.to_uint n <> Decimal.Nil.
Proof.
  intro H. pose proof (Unsigned.to_of (Nat.to_uint n)) as E.
  rewrite Unsigned.of_to in E. rewrite H in E. discriminate.
Qed.

Lemma decimal_not_nil n : decimal n <> [].
Proof.
  unfold decimal. pose proof (to_uint_not_nil n) as H. destruct (Nat.to_uint n); [congruence|..]; discriminate.
Qed.

Lemma decimal_free n c : is_digit c = false -> ~ In c (decimal n).
Proof. intros H Hi. apply decimal_digits in Hi. congruence. Qed.

(** Two texts cut at the first occurrence of a character. *)
Lemma cut (c : ascii) (x y u v : text) : ~ In c x -> ~ In c y -> x ++ c :: u = y ++ c :: v -> x = y /\ u = v.
Proof.
  revert y. induction x as [|a x IH]; intros [|b y] Hx Hy H; cbn in H.
  - injection H as H. auto.
  - injection H as H1 H2. subst. exfalso. apply Hy. left; auto.
  - injection H as H1 H2. subst. exfalso. apply Hx. left; auto.
  - injection H as H1 H2. subst b.
    destruct (IH y) as [-> ->]; auto; intro; [apply Hx|apply Hy]; right; auto.
Qed.

Lemma join_cons sep x y r : join sep (x :: y :: r) = x ++ sep ++ join sep (y :: r).
Proof. reflexivity. Qed.

Lemma join_inj c s l1 l2 :
  (forall x, In x l1 -> ~ In c x) -> (forall x, In x l2 -> ~ In c x) -> l1 <> [] -> l2 <> [] ->
  join (c :: s) l1 = join (c :: s) l2 -> l1 = l2.
Proof.
  revert l2. induction l1 as [|x l1 IH]; intros [|y l2] H1 H2 N1 N2 H; try congruence.
  destruct l1 as [|x' l1], l2 as [|y' l2].
  - cbn in H. congruence.
  - exfalso. rewrite join_cons in H. cbn [join app] in H.
    apply (H1 x); [left; auto|]. rewrite H. apply in_or_app. right. left; auto.
  - exfalso. rewrite join_cons in H. cbn [join app] in H.
    apply (H2 y); [left; auto|]. rewrite <- H. apply in_or_app. right. left; auto.
  - rewrite !join_cons in H. cbn [app] in H.
    apply cut in H as [-> H]; [|apply H1; left; auto|apply H2; left; auto].
    apply app_inv_head in H. f_equal. apply IH; [| |discriminate|discriminate|exact H].
    + intros z Hz. apply H1. right; auto.
    + intros z Hz. apply H2. right; auto.
Qed.

Lemma join_snoc sep l x : l <> [] -> join sep (l ++ [x]) = join sep l ++ sep ++ x.
Proof.
  induction l as [|y l IH]; intro H; [congruence|]. destruct l as [|z l]; [reflexivity|].
  change ((y :: z :: l) ++ [x]) with (y :: z :: (l ++ [x])). rewrite join_cons.
  change (z :: l ++ [x]) with ((z :: l) ++ [x]). rewrite IH by congruence.
  rewrite join_cons, !app_assoc. reflexivity.
Qed.

Lemma join_free sep l c : ~ In c sep -> (forall x, In x l -> ~ In c x) -> ~ In c (join sep l).
Proof.
  intros Hs. induction l as [|x l IH]; intros H; [intros []|].
  destruct l as [|y l]; [apply H; left; auto|]. rewrite join_cons. intro Hi.
  apply in_app_or in Hi as [Hi|Hi]; [exact (H x (or_introl eq_refl) Hi)|].
  apply in_app_or in Hi as [Hi|Hi]; [auto|]. revert Hi. apply IH. intros z Hz. apply H. right; auto.
Qed.

(** The row loop writes the line. *)
Lemma vback_snoc {A} (l : list A) x : vback (l ++ [x]) = Ok x.
Proof.
  rewrite (vback_Ok _ x) by (destruct l; discriminate). rewrite app_length. cbn [length].
  rewrite app_nth2 by lia. replace (length l + 1 - 1 - length l) with 0 by lia. reflexivity.
Qed.

Lemma firstn_snoc {A} (l : list A) n d : n < length l -> firstn (n + 1) l = firstn n l ++ [nth n l d].
Proof.
  rewrite Nat.add_1_r.
  revert n. induction l as [|x l IH]; intros [|n] H; simpl in H; try lia; [reflexivity|].
  cbn [firstn nth app]. rewrite <- IH by lia. reflexivity.
Qed.

Lemma write_row_ok r o : NoDup r -> write_row r o = Ok (o ++ line r).
Proof.
  intro Hn. unfold write_row, line.
  destruct r as [|x0 r0] eqn:Er; [reflexivity|]. rewrite <- Er in *. 
  replace (is_nil r) with false by (subst; reflexivity).
  assert (exists p b, r = p ++ [b]) as (p & b & E).
  { exists (removelast r), (last r 0). apply app_removelast_last. congruence. }
  assert (forall q t, r = p ++ [b] -> (forall v, In v q -> In v p) ->
    forM q (fun v o => do b <- vback r; Ok (o ++ decimal v ++ (if negb (v =? b) then chars ", " else []))) t =
    Ok (t ++ concat (map (fun v => decimal v ++ chars ", ") q))) as F.
  { intros q t Ep. revert t. induction q as [|v q IH]; intros t Hq; [cbn; rewrite app_nil_r; auto|].
    cbn [forM]. rewrite Ep at 1. rewrite vback_snoc. cbn [bind].
    replace (v =? b) with false.
    2:{ symmetry. apply Nat.eqb_neq. intros ->. rewrite Ep in Hn. apply NoDup_remove_2 in Hn.
        rewrite app_nil_r in Hn. apply Hn, Hq. left; auto. }
    cbn [negb]. rewrite IH by (intros w Hw; apply Hq; right; auto).
    cbn [map concat]. rewrite <- !app_assoc. reflexivity. }
  rewrite E at 1. rewrite forM_app, (F p o E) by auto. cbn [bind forM]. rewrite E at 1.
  rewrite vback_snoc. cbn [bind]. rewrite Nat.eqb_refl. cbn [negb bind]. f_equal.
  rewrite E, map_app. cbn [map]. clear.
  rewrite app_nil_r, <- app_assoc. f_equal.
  induction p as [|v p IH]; [reflexivity|]. cbn [map concat app]. rewrite <- app_assoc, IH.
  destruct (map decimal p ++ [decimal b]) eqn:E; [destruct p; discriminate|].
  rewrite join_cons, <- app_assoc. reflexivity.
Qed.

Lemma write_graph_ok dbg d g o : well_formed d g -> write_graph dbg g o = Ok (o ++ join newline (lines g)).
Proof.
  intros (rs & H & Hr). unfold write_graph, lines. rewrite (repr_rows _ _ H), (repr_size _ _ H).
  assert (forall n, n <= length rs ->
    FOR n (fun i o => let o := if negb (i =? 0) then o ++ newline else o in
            do r <- subscript dbg g i; write_row r o) o =
    Ok (o ++ join newline (map line (firstn n rs)))) as F.
  { induction n as [|n IH]; intro Hl; [cbn; rewrite app_nil_r; auto|].
    rewrite <- (Nat.add_1_r n) in *. rewrite FOR_S, IH by lia. cbn [bind]. rewrite (subscript_ok dbg g rs n H) by lia. cbn [bind].
    rewrite write_row_ok by (apply ascending_NoDup, Hr; lia). f_equal.
    rewrite (firstn_snoc rs n []) by lia. rewrite map_app. cbn [map].
    destruct (Nat.eqb_spec n 0) as [->|E]; cbn [negb]; [cbn; rewrite app_nil_r; reflexivity|].
    rewrite join_snoc; [rewrite <- !app_assoc; reflexivity|].
    destruct n; [congruence|]. destruct rs; [simpl in Hl; lia|discriminate]. }
  rewrite F, firstn_all by lia. reflexivity.
Qed.

Lemma write_subgraph_ok dbg s o lg lv : well_formed false (s_graph s) ->
  (forall i, i < sub_size s -> local_global dbg s i = Ok (lg i) /\ vertex_level dbg s i = Ok (lv i)) ->
  write_subgraph dbg s o =
  Ok (o ++ join newline (lines (s_graph s) ++ map (fun i => entry i (lg i) (lv i)) (seq 0 (sub_size s)))).
Proof.
  intros Hwf Hs. unfold write_subgraph. rewrite (write_graph_ok dbg false) by auto. cbn [bind].
  destruct (Nat.eq_dec (sub_size s) 0) as [E|E].
  { rewrite E. cbn. rewrite app_nil_r. reflexivity. }
  assert (lines (s_graph s) <> []) as Hn.
  { unfold lines, rows. intro H. apply map_eq_nil, map_eq_nil in H.
    unfold sub_size in E. destruct (size_vertex (s_graph s)); [congruence|discriminate]. }
  match goal with |- FOR _ ?f _ = _ => set (step := f) end.
  assert (forall n, n <= sub_size s -> FOR n step (o ++ join newline (lines (s_graph s))) =
    Ok (o ++ join newline (lines (s_graph s) ++ map (fun i => entry i (lg i) (lv i)) (seq 0 n)))) as F.
  { induction n as [|n IH]; intro Hl; [cbn [seq map]; rewrite app_nil_r; reflexivity|].
    rewrite <- (Nat.add_1_r n) in *. rewrite FOR_S, IH by lia. cbn [bind]. unfold step at 1. destruct (Hs n ltac:(lia)) as [-> ->]. cbn [bind].
    rewrite Nat.add_1_r, seq_S, map_app. cbn [map Nat.add].
    rewrite (app_assoc (lines (s_graph s))), join_snoc; [unfold entry; rewrite <- !app_assoc; reflexivity|].
    intro H. apply app_eq_nil in H as [H _]. auto. }
  apply F. lia.
Qed.

(** *** What is written determines the graph. *)
Lemma comma_char : chars ", " = (","%char) :: chars " ". Proof. reflexivity. Qed.

Lemma line_inj r1 r2 : line r1 = line r2 -> r1 = r2.
Proof.
  unfold line. destruct r1 as [|x r1], r2 as [|y r2]; cbn [is_nil]; intro H; auto.
  - exfalso. cbn [map] in H. destruct (decimal y) as [|c t] eqn:E; [apply (decimal_not_nil _ E)|].
    assert (is_digit c = true) as Hc by (apply (decimal_digits y); rewrite E; left; auto).
    cbn [join] in H. destruct (map decimal r2); cbn in H; injection H as H; subst c; discriminate Hc.
  - exfalso. cbn [map] in H. destruct (decimal x) as [|c t] eqn:E; [apply (decimal_not_nil _ E)|].
    assert (is_digit c = true) as Hc by (apply (decimal_digits x); rewrite E; left; auto).
    cbn [join] in H. destruct (map decimal r1); cbn in H; injection H as H; subst c; discriminate Hc.
  - rewrite comma_char in H. apply join_inj in H; try discriminate.
    + revert H. generalize (x :: r1) as a, (y :: r2) as b. clear. induction a as [|u a IH]; intros [|v b] H;
        try discriminate; auto. cbn in H. injection H as H1 H2. apply decimal_inj in H1. f_equal; auto.
    + intros t Ht. apply in_map_iff in Ht as (n & <- & _). apply decimal_free. reflexivity.
    + intros t Ht. apply in_map_iff in Ht as (n & <- & _). apply decimal_free. reflexivity.
Qed.

Lemma line_free r : ~ In "010"%char (line r).
Proof.
  unfold line. destruct (is_nil r); [cbn; intuition discriminate|].
  apply join_free; [cbn; intuition discriminate|].
  intros t Ht. apply in_map_iff in Ht as (n & <- & _). apply decimal_free. reflexivity.
Qed.

Lemma entry_free i a l : ~ In "010"%char (entry i a l).
Proof.
  unfold entry. intro H.
  repeat (apply in_app_or in H as [H|H]);
    solve [revert H; apply decimal_free; reflexivity | cbn in H; intuition discriminate].
Qed.

Lemma map_line_inj a b : map line a = map line b -> a = b.
Proof.
  revert b. induction a as [|u a IH]; intros [|v b] H; try discriminate; auto.
  cbn in H. injection H as H1 H2. apply line_inj in H1. f_equal; auto.
Qed.

Lemma line_not_nil r : line r <> [].
Proof.
  unfold line. destruct r as [|x r]; cbn [is_nil]; [discriminate|]. cbn [map join].
  intro H. destruct (map decimal r); [apply (decimal_not_nil _ H)|].
  apply app_eq_nil in H as [H _]. apply (decimal_not_nil _ H).
Qed.

Lemma join_nil sep l : (forall x, In x l -> x <> []) -> join sep l = [] -> l = [].
Proof.
  destruct l as [|x l]; auto. intros Hx H. exfalso. cbn [join] in H.
  destruct l; [apply (Hx x); [left|]; auto|]. apply app_eq_nil in H as [H _]. apply (Hx x); [left|]; auto.
Qed.

Lemma entry_not_nil i a l : entry i a l <> [].
Proof. unfold entry. intro H. apply app_eq_nil in H as [H _]. apply (decimal_not_nil _ H). Qed.

Lemma lines_inj l1 l2 :
  (forall x, In x l1 -> ~ In "010"%char x /\ x <> []) -> (forall x, In x l2 -> ~ In "010"%char x /\ x <> []) ->
  join newline l1 = join newline l2 -> l1 = l2.
Proof.
  intros H1 H2 H. destruct l1 as [|x l1].
  - symmetry. symmetry in H. apply join_nil in H; auto. intros y Hy. apply H2, Hy.
  - destruct l2 as [|y l2]; [apply join_nil in H; auto; intros z Hz; apply H1, Hz|].
    unfold newline in H. apply join_inj in H; auto; try discriminate; intros z Hz; [apply H1|apply H2]; auto.
Qed.

Lemma rows_same_edges d g1 g2 : well_formed d g1 -> well_formed d g2 -> rows g1 = rows g2 ->
  size_vertex g1 = size_vertex g2 /\ forall u v, edge g1 u v <-> edge g2 u v.
Proof.
  intros (r1 & R1 & _) (r2 & R2 & _) H. rewrite (repr_rows _ _ R1), (repr_rows _ _ R2) in H. subst r2.
  split; [rewrite (repr_size _ _ R1), (repr_size _ _ R2); auto|].
  intros u v. rewrite (repr_edge _ _ u v R1), (repr_edge _ _ u v R2). reflexivity.
Qed.

Lemma write_graph_inj dbg d g1 g2 : well_formed d g1 -> well_formed d g2 ->
  write_graph dbg g1 [] = write_graph dbg g2 [] ->
  size_vertex g1 = size_vertex g2 /\ forall u v, edge g1 u v <-> edge g2 u v.
Proof.
  intros W1 W2 H. rewrite (write_graph_ok dbg d) in H by auto. rewrite (write_graph_ok dbg d) in H by auto.
  injection H as H. apply lines_inj in H.
  - apply (rows_same_edges d); auto. apply map_line_inj, H.
  - intros x Hx. apply in_map_iff in Hx as (r & <- & _). split; [apply line_free|apply line_not_nil].
  - intros x Hx. apply in_map_iff in Hx as (r & <- & _). split; [apply line_free|apply line_not_nil].
Qed.

Lemma entry_inj i a l a' l' : entry i a l = entry i a' l' -> a = a' /\ l = l'.
Proof.
  unfold entry. intro H. apply app_inv_head, app_inv_head in H.
  change (chars " (") with (" "%char :: chars "(") in H. cbn [app] in H.
  apply cut in H as [Ha H]; [|apply decimal_free; reflexivity|apply decimal_free; reflexivity].
  apply app_inv_head in H. change (chars ")") with [")"%char] in H.
  apply cut in H as [Hl _]; [|apply decimal_free; reflexivity|apply decimal_free; reflexivity].
  split; apply decimal_inj; auto.
Qed.

Lemma write_subgraph_inj dbg s1 s2 : well_formed false (s_graph s1) -> well_formed false (s_graph s2) ->
  (forall s i, s = s1 \/ s = s2 -> i < sub_size s ->
     exists a l, local_global dbg s i = Ok a /\ vertex_level dbg s i = Ok l) ->
  write_subgraph dbg s1 [] = write_subgraph dbg s2 [] ->
  sub_size s1 = sub_size s2 /\ (forall u v, edge (s_graph s1) u v <-> edge (s_graph s2) u v) /\
  (forall i, i < sub_size s1 -> local_global dbg s1 i = local_global dbg s2 i /\
                                vertex_level dbg s1 i = vertex_level dbg s2 i).
Proof.
  intros W1 W2 Hok.
  set (val := fun (x : res nat) => match x with Ok n => n | _ => 0 end).
  set (lg s i := val (local_global dbg s i)). set (lv s i := val (vertex_level dbg s i)).
  assert (forall s, s = s1 \/ s = s2 -> forall i, i < sub_size s ->
    local_global dbg s i = Ok (lg s i) /\ vertex_level dbg s i = Ok (lv s i)) as Hv.
  { intros s Hs i Hi. destruct (Hok s i Hs Hi) as (a & l & Ha & Hl).
    unfold lg, lv. rewrite Ha, Hl. auto. }
  rewrite (write_subgraph_ok dbg s1 [] (lg s1) (lv s1)) by auto.
  rewrite (write_subgraph_ok dbg s2 [] (lg s2) (lv s2)) by auto.
  intro H. injection H as H.
  assert (forall s x, In x (lines (s_graph s) ++ map (fun i => entry i (lg s i) (lv s i)) (seq 0 (sub_size s))) ->
    ~ In "010"%char x /\ x <> []) as Hfree.
  { intros s x Hx. apply in_app_or in Hx as [Hx|Hx]; apply in_map_iff in Hx as (r & <- & _).
    - split; [apply line_free|apply line_not_nil].
    - split; [apply entry_free|apply entry_not_nil]. }
  apply lines_inj in H; [|apply Hfree|apply Hfree].
  assert (forall s, length (lines (s_graph s)) = sub_size s) as Hlen.
  { intro s. unfold lines, rows. rewrite !map_length, seq_length. reflexivity. }
  pose proof (f_equal (@length text) H) as Hl. rewrite !app_length, !map_length, !seq_length, !Hlen in Hl.
  assert (sub_size s1 = sub_size s2) as Es by lia.
  apply app_eq_app in H.
  assert (lines (s_graph s1) = lines (s_graph s2) /\
    map (fun i => entry i (lg s1 i) (lv s1 i)) (seq 0 (sub_size s1)) =
    map (fun i => entry i (lg s2 i) (lv s2 i)) (seq 0 (sub_size s2))) as [E1 E2].
  { destruct H as (t & [[A B]|[A B]]).
    - pose proof (f_equal (@length text) A) as L. rewrite app_length, !Hlen in L.
      destruct t; [|simpl in L; lia]. rewrite app_nil_r in A. auto.
    - pose proof (f_equal (@length text) A) as L. rewrite app_length, !Hlen in L.
      destruct t; [|simpl in L; lia]. rewrite app_nil_r in A. auto. }
  split; [exact Es|]. split; [apply (rows_same_edges false); auto; apply map_line_inj, E1|].
  intros i Hi. rewrite Es in E2. 
  assert (entry i (lg s1 i) (lv s1 i) = entry i (lg s2 i) (lv s2 i)) as Ee.
  { apply (ext_in_map E2). apply in_seq. lia. }
  apply entry_inj in Ee as [Ea El].
  destruct (Hv s1 (or_introl eq_refl) i Hi) as [-> ->].
  destruct (Hv s2 (or_intror eq_refl) i ltac:(lia)) as [-> ->]. rewrite Ea, El. auto.
Qed.
