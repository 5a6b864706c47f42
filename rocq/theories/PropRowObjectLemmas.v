(** Lemmas behind C106. *)
From Coq Require Import ZArith.
From Verif Require Import Base ListFacts Csr SparseModel SparseSpec SparseFacts SparseSeq SparseInsert CsrDataModel CsrData
  RowModel RowFacts PropSparseLemmas PropRowLemmas StorageModel RowObjectModel.

(** What a client expects: a row object is its row and whether it is up to date, or nothing once moved from. *)
Definition view := option (nat * bool).

Section Spec.
  Context {V : Type}.
  Implicit Types (a : amat V) (ws : list view).

  Definition outdated (w : view) : view := option_map (fun p => (fst p, false)) w.

  (** The effect of a command, [None] when it is not allowed. *)
  Definition astep (c : rcmd V) (s : amat V * list view) : option (amat V * list view) :=
    let '(a, ws) := s in
    match c with
    | RNew i => if i <? arows a then Some (a, ws ++ [Some (i, true)]) else None
    | RCopy k => match nth_error ws k with Some w => Some (a, ws ++ [w]) | None => None end
    | RMove k => match nth_error ws k with Some w => Some (a, upd ws k None ++ [w]) | None => None end
    | RMoveTo k l =>
        match nth_error ws k, nth_error ws l with
        | Some _, Some w => Some (a, if k =? l then ws else upd (upd ws k w) l None)
        | _, _ => None
        end
    | RSet k j v =>
        match nth_error ws k with
        | Some (Some (i, _)) =>
            Some (mkA (arows a) (Nat.max (acols a) (j + 1)) (aupd (aget a) i j (Some v)),
                  upd (match aget a i j with Some _ => ws | None => map outdated ws end) k (Some (i, true)))
        | _ => None
        end
    end.

  Fixpoint arun (cs : list (rcmd V)) (s : amat V * list view) : option (amat V * list view) :=
    match cs with
    | [] => Some s
    | c :: cs => match astep c s with Some s' => arun cs s' | None => None end
    end.
End Spec.

Section Objects.
  Context {V : Type}.
  Variables (grow : nat -> nat -> nat) (vzero : V) (M : nat).
  Implicit Types (x : @smatrix V) (a : amat V).

  (** A row object shows its row. *)
  Definition current x (r : rowobj) (i : nat) : Prop :=
    w_new (sm_matrix x) i = Ok (ro_row r) /\ ro_col r = sto_block (sm_col x) /\ ro_val r = sto_block (sm_val x).

  Definition shows x (o : option rowobj) (w : view) : Prop :=
    match o, w with
    | None, None => True
    | Some r, Some (i, f) => w_row (ro_row r) = i /\ i < s_rows (sm_matrix x) /\ ro_off r = sto_block (sm_rnz x) /\
        (f = true -> current x r i)
    | _, _ => False
    end.

  Lemma new_shows x i : swf (sm_matrix x) -> i < s_rows (sm_matrix x) ->
    exists o, ro_new x i = Ok o /\ shows x o (Some (i, true)).
  Proof using.
    intros Hw Hi. destruct (row_view V false (sm_matrix x) i Hw Hi) as (r & l & E & Ei & _).
    unfold ro_new. rewrite E. cbn [bind]. eexists. split; [reflexivity|]. cbn. repeat split; auto.
  Qed.

  (** The array of the offsets holds the offsets. *)
  Definition fits x : Prop := length (rnz (sm_matrix x)) <= sto_cap (sm_rnz x).

  Lemma insert_flag (m : smat V) i j v : swf m -> exists m' it b,
    c_insert_or_assign vzero M m i j v = Ok (m', it, b) /\ (b = true <-> forall w, ~ stored m i j w).
  Proof using.
    intros Hw. pose proof Hw as (rs & H & Hok).
    assert (E0 : c_insert_or_assign vzero M m i j v = s_insert_or_assign vzero M false None m i j v).
    { unfold c_insert_or_assign, s_insert_or_assign. rewrite c_insert_eq by auto.
      destruct (s_insert _ _ _ _ _ _ _ _) as [[[m' it] b]| | |]; try reflexivity.
      cbn [bind]. destruct b; try reflexivity. unfold assign. destruct (vset _ _ _); reflexivity. }
    destruct (s_insert_or_assign_ok vzero M false None m rs i j v H Hok) as (m1 & b & E & _ & Hb).
    rewrite E0, E. eexists _, _, b. split; [reflexivity|]. split.
    - intros -> w Hs. destruct Hb as [Hb _]. apply Hb. apply (srepr_stored _ _ _ _ _ H) in Hs. apply (in_map fst) in Hs. exact Hs.
    - intro Hn. destruct b; [reflexivity|]. destruct Hb as [Hb _]. apply in_map_fst_ex in Hb as [w Hb]. exfalso. apply (Hn w).
      apply (srepr_stored _ _ _ _ _ H), Hb.
  Qed.
  Lemma set_ok x a i j v : swf (sm_matrix x) -> holds (sm_matrix x) a -> fits x -> i < s_rows (sm_matrix x) ->
    exists x' o', sc_insert_or_assign grow vzero M x i j v = Ok x' /\ ro_new x' i = Ok o' /\
      swf (sm_matrix x') /\ fits x' /\ s_rows (sm_matrix x') = s_rows (sm_matrix x) /\
      holds (sm_matrix x') (mkA (arows a) (Nat.max (acols a) (j + 1)) (aupd (aget a) i j (Some v))) /\
      shows x' o' (Some (i, true)) /\
      (forall o w, shows x o w -> shows x' o (match aget a i j with Some _ => w | None => outdated w end)).
  Proof using.
    intros Hw Hh Hf Hi. pose proof Hh as (Hr & Hc & Hs).
    destruct (row_view V false (sm_matrix x) i Hw Hi) as (r & l & En & Ei & _).
    destruct (assign_one vzero M (sm_matrix x) i r j v Hw En) as (m' & r' & E & Hw' & En' & Hrows & Hcols & Hst & Hover).
    destruct (insert_flag (sm_matrix x) i j v Hw) as (m0 & it & b & Ec & Hb).
    unfold w_assign in E. rewrite Ei, Ec in E. cbn [bind fst] in E.
    destruct (w_new m0 i) as [r0| | |] eqn:E0; cbn [bind] in E; try discriminate. injection E as -> ->.
    unfold sc_insert_or_assign. rewrite Ec. cbn [bind].
    assert (Ho : (let a1 := if c_size_row (sm_matrix x) <=? i then fit grow (i + 1 + 1) (sm_rnz x) else sm_rnz x in
       if c_size_column (sm_matrix x) <=? j then fit grow (Nat.max (c_size_row (sm_matrix x)) (i + 1) + 1) a1 else a1) = sm_rnz x).
    { change (c_size_row (sm_matrix x)) with (s_rows (sm_matrix x)). cbv zeta.
      rewrite (proj2 (Nat.leb_gt _ _) Hi). destruct (c_size_column (sm_matrix x) <=? j); [|reflexivity].
      unfold fit. rewrite (proj2 (Nat.leb_le _ _)); [reflexivity|].
      unfold fits in Hf. unfold s_rows in Hi |- *. destruct (rnz (sm_matrix x)); cbn [length] in *; lia. }
    cbv zeta in Ho. rewrite Ho. clear Ho.
    set (x' := if b then _ else _).
    assert (Hx : exists sc sv, x' = Ok (mkSM m' (sm_rnz x) sc sv) /\ (b = false -> sc = sm_col x /\ sv = sm_val x)).
    { unfold x'. destruct b; eexists _, _; (split; [reflexivity|]); [discriminate|auto]. }
    destruct Hx as (sc & sv & -> & Hsame).
    exists (mkSM m' (sm_rnz x) sc sv).
    destruct (new_shows (mkSM m' (sm_rnz x) sc sv) i) as (o' & Eo & So); [exact Hw'|cbn [sm_matrix]; lia|].
    exists o'. split; [reflexivity|]. split; [exact Eo|]. split; [exact Hw'|]. split.
    { unfold fits in *. cbn [sm_matrix sm_rnz]. unfold s_rows in Hrows, Hi. destruct (rnz (sm_matrix x)), (rnz m'); cbn [length] in *; lia. }
    split; [exact Hrows|]. split.
    { split; [cbn [sm_matrix arows]; lia|]. split; [cbn [sm_matrix acols]; lia|]. intros i' j' w. cbn [sm_matrix aget]. rewrite Hst. unfold aupd.
      destruct (Nat.eqb_spec i' i) as [->|N], (Nat.eqb_spec j' j) as [->|N']; cbn [andb].
      - split; [intros [(_ & _ & ->)|(_ & H)]; [reflexivity|tauto]|intros [= ->]; auto].
      - rewrite Hs. intuition congruence.
      - rewrite Hs. intuition congruence.
      - rewrite Hs. intuition congruence. }
    split; [exact So|].
    intros o w. destruct o as [ro|], w as [[i' f]|]; cbn [shows]; try contradiction.
    2:{ destruct (aget a i j); cbn; auto. }
    intros (Rw & Ri & Ro & Cu).
    destruct (aget a i j) as [u|] eqn:Ea; cbn [outdated option_map fst shows].
    - repeat split; auto; [cbn [sm_matrix]; lia|..]; destruct (Cu H) as (C1 & C2 & C3); apply Hs in Ea;
        (assert (b = false) by (destruct b; [exfalso; apply (proj1 Hb eq_refl u Ea)|reflexivity])); destruct (Hsame H0) as [-> ->]; auto.
      cbn [sm_matrix]. rewrite Hover by eauto. exact C1.
    - repeat split; auto; [cbn [sm_matrix]; lia|discriminate..].
  Qed.

  Lemma Forall2_nth_error {A B} (P : A -> B -> Prop) l l' k b : Forall2 P l l' -> nth_error l' k = Some b ->
    exists y, nth_error l k = Some y /\ P y b.
  Proof using.
    intros H. revert k. induction H as [|y z l l' Hyz H IH]; intros [|k] E; cbn in *; try discriminate.
    - injection E as ->. eauto.
    - auto.
  Qed.

  Lemma Forall2_upd {A B} (P : A -> B -> Prop) l l' k y b : Forall2 P l l' -> P y b -> Forall2 P (upd l k y) (upd l' k b).
  Proof using.
    intros H Hy. assert (F : forall n, Forall2 P (firstn n l) (firstn n l')).
    { clear Hy. induction H; intros [|n]; cbn; constructor; auto. }
    assert (S : forall n, Forall2 P (skipn n l) (skipn n l')).
    { clear Hy F. induction H; intros [|n]; cbn; try constructor; auto. }
    unfold upd. apply Forall2_app; [apply F|constructor; [exact Hy|apply S]].
  Qed.

  Lemma Forall2_map_r {A B C} (P : A -> B -> Prop) (Q : A -> C -> Prop) f l l' : (forall y z, P y z -> Q y (f z)) ->
    Forall2 P l l' -> Forall2 Q l (map f l').
  Proof using. intros HPQ H. induction H; cbn; constructor; auto. Qed.

  Definition related (s : smatrix * list (option rowobj)) (t : amat V * list view) : Prop :=
    swf (sm_matrix (fst s)) /\ fits (fst s) /\ holds (sm_matrix (fst s)) (fst t) /\ Forall2 (shows (fst s)) (snd s) (snd t).

  Lemma step_ok c s t t' : related s t -> astep c t = Some t' -> exists s', ro_step grow vzero M c s = Ok s' /\ related s' t'.
  Proof using.
    destruct s as [x os], t as [a ws]. intros (Hw & Hf & Hh & Hs). cbn [fst snd] in *.
    destruct c as [i|k|k|k l|k j v]; cbn [astep ro_step].
    - destruct (Nat.ltb_spec i (arows a)) as [Hi|]; [|discriminate]. intros [= <-].
      destruct (new_shows x i Hw) as (o & E & So); [destruct Hh as [-> _]; exact Hi|].
      rewrite E. cbn [bind]. eexists. split; [reflexivity|]. split; [exact Hw|]. split; [exact Hf|]. split; [exact Hh|].
      apply Forall2_app; [exact Hs|]. constructor; [exact So|constructor].
    - destruct (nth_error ws k) as [w|] eqn:E; [|discriminate]. intros [= <-].
      destruct (Forall2_nth_error _ _ _ _ _ Hs E) as (o & Eo & So). unfold vget. rewrite Eo. cbn [bind].
      eexists. split; [reflexivity|]. repeat (split; [assumption|]).
      apply Forall2_app; [exact Hs|]. constructor; [exact So|constructor].
    - destruct (nth_error ws k) as [w|] eqn:E; [|discriminate]. intros [= <-].
      destruct (Forall2_nth_error _ _ _ _ _ Hs E) as (o & Eo & So). unfold vget. rewrite Eo. cbn [bind].
      assert (Lk : k < length os) by (apply nth_error_Some; congruence).
      unfold vset. rewrite (proj2 (Nat.ltb_lt _ _) Lk). cbn [bind].
      eexists. split; [reflexivity|]. repeat (split; [assumption|]). cbn [snd].
      apply Forall2_app; [apply Forall2_upd; [exact Hs|exact I]|]. constructor; [exact So|constructor].
    - destruct (nth_error ws k) as [wk|] eqn:Ek; [|discriminate]. destruct (nth_error ws l) as [w|] eqn:E; [|discriminate]. intros [= <-].
      destruct (Forall2_nth_error _ _ _ _ _ Hs Ek) as (ok & Eok & _). destruct (Forall2_nth_error _ _ _ _ _ Hs E) as (o & Eo & So).
      assert (Lk : k < length os) by (apply nth_error_Some; congruence). assert (Ll : l < length os) by (apply nth_error_Some; congruence).
      unfold vget. rewrite Eok, Eo. unfold vset. rewrite (proj2 (Nat.ltb_lt _ _) Lk).
      destruct (Nat.eqb_spec k l) as [<-|N]; cbn [bind].
      + eexists. split; [reflexivity|]. repeat (split; [assumption|]). exact Hs.
      + rewrite upd_length by exact Lk. rewrite (proj2 (Nat.ltb_lt _ _) Ll). cbn [bind].
        eexists. split; [reflexivity|]. repeat (split; [assumption|]). cbn [snd].
        apply Forall2_upd; [apply Forall2_upd; [exact Hs|exact So]|exact I].
    - destruct (nth_error ws k) as [[[i f]|]|] eqn:E; [|discriminate..]. intros [= <-].
      destruct (Forall2_nth_error _ _ _ _ _ Hs E) as (o & Eo & So). unfold vget. rewrite Eo. cbn [bind].
      destruct o as [r|]; cbn [shows] in So; [|contradiction]. destruct So as (Rw & Ri & Ro & _).
      unfold ro_assign. cbn [ro_index]. unfold off_live. rewrite Ro, Nat.eqb_refl. cbn [bind].
      unfold w_index, c_i_row. cbn [fst]. rewrite Rw.
      destruct (set_ok x a i j v Hw Hh Hf Ri) as (x' & o' & E1 & E2 & Hw' & Hf' & Hr' & Hh' & So' & Hothers).
      rewrite E1. cbn [bind]. rewrite E2. cbn [bind fst snd].
      assert (Lk : k < length os) by (apply nth_error_Some; congruence).
      unfold vset. rewrite (proj2 (Nat.ltb_lt _ _) Lk). cbn [bind].
      eexists. split; [reflexivity|]. split; [exact Hw'|]. split; [exact Hf'|]. split; [exact Hh'|]. cbn [fst snd].
      apply Forall2_upd; [|exact So'].
      destruct (aget a i j) as [u|].
      + clear - Hs Hothers. induction Hs; constructor; auto.
      + eapply Forall2_map_r; [|exact Hs]. exact Hothers.
  Qed.

  Lemma run_ok cs : forall s t t', related s t -> arun cs t = Some t' -> exists s', ro_run grow vzero M cs s = Ok s' /\ related s' t'.
  Proof using.
    induction cs as [|c cs IH]; intros s t t' H E; cbn [arun ro_run] in *.
    - injection E as <-. eauto.
    - destruct (astep c t) as [t1|] eqn:E1; [|discriminate].
      destruct (step_ok c s t t1 H E1) as (s1 & -> & H1). cbn [bind]. eauto.
  Qed.

  Lemma programs cs x a t' : swf (sm_matrix x) -> length (rnz (sm_matrix x)) <= sto_cap (sm_rnz x) -> holds (sm_matrix x) a ->
    arun cs (a, []) = Some t' ->
    exists x' os, ro_run grow vzero M cs (x, []) = Ok (x', os) /\ csr_invariant (sm_matrix x') /\ holds (sm_matrix x') (fst t') /\
      length os = length (snd t') /\
      forall k o w, nth_error os k = Some o -> nth_error (snd t') k = Some w ->
        match w with
        | None =>
            ro_index x' o = Undef /\ ro_size x' o = Undef /\ ro_size_non_zero x' o = Undef /\ ro_elements x' o = Ok [] /\
            forall j, ro_at x' o j = Undef
        | Some (i, f) =>
            ro_index x' o = Ok i /\ ro_size x' o = Ok (acols (fst t')) /\
            exists l, StronglySorted lt (map fst l) /\ (forall j v, In (j, v) l <-> aget (fst t') i j = Some v) /\
              ro_size_non_zero x' o = Ok (length l) /\
              (f = true -> ro_elements x' o = Ok l /\
                 forall j, ro_at x' o j = match aget (fst t') i j with Some v => Ok v | None => Abort end)
        end.
  Proof using.
    intros Hw Hf Hh E. destruct (run_ok cs (x, []) (a, []) t') as ((x' & os) & R & Hw' & Hf' & Hh' & Hs); [|exact E|].
    { split; [exact Hw|]. split; [exact Hf|]. split; [exact Hh|constructor]. }
    cbn [fst snd] in *. exists x', os. split; [exact R|]. split; [apply swf_csr_invariant; exact Hw'|]. split; [exact Hh'|].
    split; [clear - Hs; induction Hs; cbn; congruence|].
    intros k o w Eo Ew. destruct (Forall2_nth_error _ _ _ _ _ Hs Ew) as (o1 & Eo1 & So). rewrite Eo in Eo1. injection Eo1 as <-.
    destruct o as [r|], w as [[i f]|]; cbn [shows] in So; try contradiction; [|repeat split; reflexivity].
    destruct So as (Rw & Ri & Ro & Cu).
    destruct (row_view V false (sm_matrix x') i Hw' Ri) as (r0 & l & En & Ei & Es & El & Hso & Hin & Hnz & Hat & Hab).
    assert (Hin' : forall j v, In (j, v) l <-> aget (fst t') i j = Some v) by (intros; rewrite Hin; apply Hh').
    cbn [ro_index ro_size ro_size_non_zero ro_elements]. unfold off_live. rewrite Ro, Nat.eqb_refl.
    split; [unfold w_index, c_i_row; cbn [fst]; rewrite Rw; reflexivity|].
    split; [unfold w_size; f_equal; apply Hh'|].
    exists l. split; [exact Hso|]. split; [exact Hin'|]. split.
    { rewrite <- Hnz. unfold w_size_non_zero. unfold w_index, c_i_row in Ei. cbn [fst] in Ei. rewrite Rw, Ei. reflexivity. }
    intros ->. destruct (Cu eq_refl) as (C1 & C2 & C3). rewrite En in C1. injection C1 as ->.
    unfold span_live. rewrite C2, C3, !Nat.eqb_refl. cbn [andb]. split; [exact El|].
    intro j. cbn [ro_at]. unfold span_live. rewrite C2, C3, !Nat.eqb_refl. cbn [andb].
    pose proof Hw' as (rs & H & Hok). pose proof Ri as Ri'. rewrite (srepr_rows _ _ H) in Ri'.
    rewrite (columns_eq (sm_matrix x') rs i (ro_row r) H Ri' En). cbn [bind].
    destruct (aget (fst t') i j) as [v|] eqn:Ea.
    - assert (Sv : stored (sm_matrix x') i j v) by (apply Hh'; exact Ea).
      destruct (Hat j v Sv) as [A _].
      apply (srepr_stored _ _ _ _ _ H) in Sv. destruct (found (sm_matrix x') rs i Hok Ri' j v Sv) as [L _].
      destruct (Nat.eqb_spec (vfind (map fst (nth i rs [])) j) (length (map fst (nth i rs [])))); [lia|exact A].
    - assert (Sn : forall v, ~ stored (sm_matrix x') i j v) by (intros v Sv; apply Hh' in Sv; congruence).
      destruct (Nat.eqb_spec (vfind (map fst (nth i rs [])) j) (length (map fst (nth i rs [])))).
      + cbn [ro_index]. unfold off_live. rewrite Ro, Nat.eqb_refl. reflexivity.
      + apply Hab. exact Sn.
  Qed.

  (** Once an insertion has moved an array, the other objects cannot be read. *)
  Lemma moved_array x o i j v r : swf (sm_matrix x) -> (forall w, ~ stored (sm_matrix x) i j w) ->
    (length (cidx (sm_matrix x)) = sto_cap (sm_col x) /\ ro_col r = sto_block (sm_col x) \/
     length (vals (sm_matrix x)) = sto_cap (sm_val x) /\ ro_val r = sto_block (sm_val x)) ->
    ro_index x o = Ok i ->
    forall x' o', ro_assign grow vzero M x o j v = Ok (x', o') ->
    ro_elements x' (Some r) = Undef /\ forall j', ro_at x' (Some r) j' = Undef.
  Proof using.
    intros Hw Hn Hc Hi x' o'. unfold ro_assign. rewrite Hi. cbn [bind].
    destruct (insert_flag (sm_matrix x) i j v Hw) as (m' & it & b & E & Hb). unfold sc_insert_or_assign. rewrite E. cbn [bind].
    rewrite (proj2 Hb Hn). cbn [bind].
    match goal with |- bind (ro_new ?y i) _ = _ -> _ => set (x1 := y); destruct (ro_new x1 i) as [o1| | |]; cbn [bind]; try discriminate end.
    intro E1. injection E1 as <- <-.
    assert (L : span_live x1 r = false).
    { unfold span_live, x1. cbn [sm_col sm_val]. apply Bool.andb_false_iff.
      destruct Hc as [[Hc Hr]|[Hc Hr]]; [left|right]; unfold fit; rewrite (proj2 (Nat.leb_gt _ _)) by lia; cbn [sto_block];
        rewrite Hr; apply Nat.eqb_neq; lia. }
    unfold ro_elements, ro_at. rewrite L. auto.
  Qed.

  (** Once a new row has moved the offsets, no object knows its row any more. *)
  Lemma moved_offsets x i j v r : swf (sm_matrix x) -> c_size_row (sm_matrix x) <= i ->
    sto_cap (sm_rnz x) < i + 2 -> ro_off r = sto_block (sm_rnz x) ->
    exists x', sc_insert_or_assign grow vzero M x i j v = Ok x' /\
      ro_index x' (Some r) = Undef /\ ro_size_non_zero x' (Some r) = Undef /\
      forall k u, ro_assign grow vzero M x' (Some r) k u = Undef.
  Proof using.
    intros Hw Hi Hc Hr. destruct (insert_flag (sm_matrix x) i j v Hw) as (m' & it & b & E & Hb).
    unfold sc_insert_or_assign. rewrite E. cbn [bind]. rewrite (proj2 (Nat.leb_le _ _) Hi).
    assert (F : sto_block (sm_rnz x) < sto_block (fit grow (i + 1 + 1) (sm_rnz x))).
    { unfold fit. rewrite (proj2 (Nat.leb_gt _ _)) by lia. cbn [sto_block]. lia. }
    assert (G : forall n s, sto_block s <= sto_block (fit grow n s)) by (intros n s; unfold fit; destruct (n <=? sto_cap s); cbn [sto_block]; lia).
    set (a := if c_size_column (sm_matrix x) <=? j then _ else _).
    assert (L : (ro_off r =? sto_block a) = false).
    { apply Nat.eqb_neq. unfold a. destruct (c_size_column (sm_matrix x) <=? j); [|lia]. pose proof (G (Nat.max (c_size_row (sm_matrix x)) (i + 1) + 1) (fit grow (i + 1 + 1) (sm_rnz x))). lia. }
    destruct b; (eexists; split; [reflexivity|]);
      unfold ro_assign, ro_index, ro_size_non_zero, off_live; cbn [sm_rnz]; rewrite L; cbn [bind]; auto.
  Qed.
End Objects.

Lemma full_meets : let m := mkS [0; 1; 2] [0; 1] [5; 6]%Z 2 in
  swf m /\ 3 <= 3 /\
  holds m (mkA 2 2 (fun i j => if (i =? 0) && (j =? 0) then Some 5%Z else if (i =? 1) && (j =? 1) then Some 6%Z else None)).
Proof.
  cbv zeta. split; [|split; [lia|split; [reflexivity|split; [reflexivity|]]]].
  - exists [[(0, 5%Z)]; [(1, 6%Z)]]. split; [split; [left; reflexivity|split; reflexivity]|].
    intros i Hi. cbn in Hi. destruct i as [|[|i]]; [| |lia]; (split; [repeat constructor|]; cbn; intros; lia).
  - intros i j v. cbn [aget]. split.
    + intros (Hi & k & Hk & Hc & Hv). cbn in Hi. destruct i as [|[|i]]; [| |lia]; cbn in Hk.
      * assert (k = 0) as -> by lia. cbn in Hc, Hv. injection Hc as <-. injection Hv as <-. reflexivity.
      * assert (k = 1) as -> by lia. cbn in Hc, Hv. injection Hc as <-. injection Hv as <-. reflexivity.
    + destruct i as [|[|i]], j as [|[|j]]; cbn; try discriminate; intros [= <-]; split; try (cbn; lia);
        [exists 0|exists 1]; cbn; repeat split; lia.
Qed.
