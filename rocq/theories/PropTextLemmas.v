(** Lemmas behind C94. *)
From Coq Require Import String Ascii.
From Verif Require Import Base ListFacts SparseModel SparseSpec TextModel TextFacts MatrixTextModel.

(** One line: every item followed by a space. *)
Definition spaced {A} (w : A -> text) (l : list A) : text := concat (map (fun x => w x ++ chars " ") l).

(** Items can be told apart: no item contains a space or a line feed, and different items differ. *)
Definition readable {V} (show : V -> text) : Prop :=
  (forall x y, show x = show y -> x = y) /\ forall x, ~ In " "%char (show x) /\ ~ In "010"%char (show x).

Lemma write_items_ok {A} (w : A -> text) l o : write_items w l o = Ok (o ++ spaced w l).
Proof.
  unfold write_items, spaced. revert o. induction l as [|x l IH]; intro o; cbn [forM map concat bind].
  - rewrite app_nil_r. reflexivity.
  - rewrite IH, <- !app_assoc. reflexivity.
Qed.

Lemma write_matrix_ok {V} (show : V -> text) m o :
  write_matrix show m o = Ok (o ++ newline ++ spaced decimal (rnz m) ++ newline ++ spaced decimal (cidx m) ++ newline ++
                              spaced show (vals m) ++ newline).
Proof. unfold write_matrix. rewrite !write_items_ok. cbn [bind]. rewrite !write_items_ok. cbn [bind].
  rewrite write_items_ok. cbn [bind]. rewrite <- !app_assoc. reflexivity. Qed.

Lemma spaced_free {A} (w : A -> text) l : (forall x, ~ In "010"%char (w x)) -> ~ In "010"%char (spaced w l).
Proof.
  intros Hw H. unfold spaced in H. apply in_concat in H as (x & Hx & Hc). apply in_map_iff in Hx as (y & <- & _).
  apply in_app_or in Hc as [Hc|[Hc|[]]]; [exact (Hw y Hc)|discriminate].
Qed.

Lemma spaced_inj {A} (w : A -> text) l1 l2 : (forall x y, w x = w y -> x = y) -> (forall x, ~ In " "%char (w x)) ->
  spaced w l1 = spaced w l2 -> l1 = l2.
Proof.
  intros Hi Hs. revert l2. induction l1 as [|x l1 IH]; intros [|y l2] E; [reflexivity|..].
  - exfalso. cbn in E. destruct (w y); discriminate.
  - exfalso. cbn in E. destruct (w x); discriminate.
  - unfold spaced in E. cbn [map concat] in E. rewrite <- !app_assoc in E. cbn [app chars list_ascii_of_string] in E.
    apply (cut " "%char) in E as [E1 E2]; auto. f_equal; [apply Hi, E1|apply IH, E2].
Qed.

Lemma readable_decimal : readable decimal.
Proof.
  split; [exact decimal_inj|]. intro n. split; apply decimal_free; reflexivity.
Qed.

Lemma write_matrix_inj {V} (show : V -> text) m1 m2 : readable show ->
  write_matrix show m1 [] = write_matrix show m2 [] -> rnz m1 = rnz m2 /\ cidx m1 = cidx m2 /\ vals m1 = vals m2.
Proof.
  intros [Hi Hf] E. rewrite !write_matrix_ok in E. injection E as E. 
  destruct readable_decimal as [Di Df].
  assert (N : forall l : list nat, ~ In "010"%char (spaced decimal l)) by (intro l; apply spaced_free; intro; apply Df).
  assert (K : forall l : list V, ~ In "010"%char (spaced show l)) by (intro l; apply spaced_free; intro; apply Hf).
  unfold newline in E. cbn [app] in E. 
  apply (cut "010"%char) in E as [E1 E]; auto. apply (cut "010"%char) in E as [E2 E]; auto.
  apply (cut "010"%char) in E as [E3 _]; auto.
  split; [|split]; eapply spaced_inj; try eassumption; auto; intro; try apply Df; apply Hf.
Qed.

Lemma matrix_text_entries {V} (show : V -> text) m1 m2 : readable show ->
  write_matrix show m1 [] = write_matrix show m2 [] ->
  s_rows m1 = s_rows m2 /\ forall i j v, stored m1 i j v <-> stored m2 i j v.
Proof.
  intros Hr E. destruct (write_matrix_inj show m1 m2 Hr E) as (E1 & E2 & E3). unfold stored, s_rows.
  rewrite E1, E2, E3. split; [reflexivity|]. intros; reflexivity.
Qed.

Lemma columns_lost {V} (show : V -> text) (v : V) : exists m1 m2 : smat V, swf m1 /\ swf m2 /\ csize m1 <> csize m2 /\
  stored m1 0 1 v /\ forall o, write_matrix show m1 o = write_matrix show m2 o.
Proof.
  exists (mkS [0; 1] [1] [v] 2), (mkS [0; 1] [1] [v] 3).
  assert (W : forall c, 1 < c -> swf (mkS [0; 1] [1] [v] c)).
  { intros c Hc. exists [[(1, v)]]. split; [split; [left; reflexivity|split; reflexivity]|].
    intros [|i] Hi; [|cbn in Hi; lia]. cbn. split; [repeat constructor|]. intros j [<-|[]]. exact Hc. }
  split; [apply W; lia|]. split; [apply W; lia|]. split; [discriminate|]. split; [|reflexivity].
  split; [cbn; lia|]. exists 0. cbn. split; [lia|auto].
Qed.

Lemma text_example : write_matrix decimal (mkS [0; 2; 2; 3] [0; 12; 3] [7; 10; 1] 13) [] =
  Ok (newline ++ chars "0 2 2 3 " ++ newline ++ chars "0 12 3 " ++ newline ++ chars "7 10 1 " ++ newline).
Proof. vm_compute. reflexivity. Qed.
