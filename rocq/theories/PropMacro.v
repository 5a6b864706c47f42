(** C101: index loops. C102: console messages. *)
From Coq Require Import String Ascii ZArith.
From Verif Require Import Base TextModel MacroModel PropMacroLemmas.

(** C101: FOR(i, n) runs its body for 0, 1, ..., n - 1, whatever the integral type of n; not at all for n <= 0. *)
Theorem C101_index {S} (body : Z -> S -> res S) t n fuel s : (1 <= i_bits t)%Z -> fits t n -> (Z.to_nat n < fuel) ->
  for_macro fuel (Upto t n) body s = forM (ups 0 n) body s.
Proof. exact (for_index_ok body t n fuel s). Qed.
Print Assumptions C101_index.

Example C101_index_example : let note i l := Ok (l ++ [i]) in
  for_macro 6 (Upto (mkI true 8) 4) note [] = Ok [0; 1; 2; 3]%Z /\ for_macro 1 (Upto int_t (-3)) note [] = Ok [].
Proof. vm_compute. auto. Qed.

(** C101: with the type std::size_t this is the loop all other models use. *)
Theorem C101_base {S} (f : nat -> S -> res S) n fuel s : (Z.of_nat n <= i_max size_t)%Z -> n < fuel ->
  for_macro fuel (Upto size_t (Z.of_nat n)) (fun i => f (Z.to_nat i)) s = FOR n f s.
Proof. exact (for_base f n fuel s). Qed.
Print Assumptions C101_base.

Example C101_base_example : FOR 3 (fun i l => Ok (l ++ [i])) [] = Ok [0; 1; 2].
Proof. reflexivity. Qed.

(** C101: FOR(i, a, b) runs through a, a + 1, ..., b - 1 or through a, a - 1, ..., b + 1, never through b, when both
    bounds have the same type. *)
Theorem C101_range {S} (body : Z -> S -> res S) t a b fuel s : (1 <= i_bits t)%Z -> fits t a -> fits t b ->
  Z.to_nat (Z.abs (b - a)) < fuel ->
  for_macro fuel (Between t t a b) body s = forM (if (a <? b)%Z then ups a b else downs a b) body s.
Proof. exact (for_range_same body t a b fuel s). Qed.
Print Assumptions C101_range.

Example C101_range_example : let note i l := Ok (l ++ [i]) in
  for_macro 4 (Between size_t size_t 5 2) note [] = Ok [5; 4; 3]%Z /\
  for_macro 4 (Between int_t int_t (-2) 1) note [] = Ok [-2; -1; 0]%Z /\
  for_macro 1 (Between int_t int_t 7 7) note [] = Ok [].
Proof. vm_compute. auto. Qed.

(** C101: what the two ranges contain. *)
Theorem C101_members a b x : (In x (ups a b) <-> (a <= x < b)%Z) /\ (In x (downs a b) <-> (b < x <= a)%Z).
Proof. exact (conj (in_ups a b x) (in_downs a b x)). Qed.
Print Assumptions C101_members.

Example C101_members_example : ups 3 6 = [3; 4; 5]%Z /\ downs 6 3 = [6; 5; 4]%Z.
Proof. vm_compute. auto. Qed.

(** C101, partial: bounds of two types. It holds when the comparison keeps both values and the type of the start, which
    the index has, contains the end. Missing: all other pairs; see the refutations below. *)
Theorem C101_mixed_partial {S} (body : Z -> S -> res S) ta tb a b fuel s : (1 <= i_bits ta)%Z -> (1 <= i_bits tb)%Z ->
  fits (common ta tb) a -> fits (common ta tb) b -> fits ta a -> fits ta b -> Z.to_nat (Z.abs (b - a)) < fuel ->
  for_macro fuel (Between ta tb a b) body s = forM (if (a <? b)%Z then ups a b else downs a b) body s.
Proof. exact (for_range_ok body ta tb a b fuel s). Qed.
Print Assumptions C101_mixed_partial.

Example C101_mixed_example : let note i l := Ok (l ++ [i]) in
  for_macro 4 (Between int_t size_t 0 3) note [] = Ok [0; 1; 2]%Z /\
  for_macro 4 (Between size_t int_t 3 0) note [] = Ok [3; 2; 1]%Z.
Proof. vm_compute. auto. Qed.

(** C101, refuted: FOR(i, 0, n) with n of type std::size_t has an index of type int and overflows it for every n from
    2^31 on. *)
Theorem C101_int_refuted {S} (body : Z -> S -> res S) n fuel s : (forall i s, exists s', body i s = Ok s') ->
  (2 ^ 31 <= n <= i_max size_t)%Z -> (2 ^ 31 <= Z.of_nat fuel)%Z ->
  for_macro fuel (Between int_t size_t 0 n) body s = Undef.
Proof. exact (fun go => int_overflow body go n fuel s). Qed.
Print Assumptions C101_int_refuted.

Example C101_int_example : (2 ^ 31 <= 3000000000 <= i_max size_t)%Z /\
  forall i s, exists s', (fun (i : Z) (c : Z) => Ok (c + i)%Z) i s = Ok s'.
Proof. split; [split; vm_compute; discriminate|]. intros i s. eexists. reflexivity. Qed.

(** C101, refuted: the same with any end type wider than int. *)
Theorem C101_wide_refuted {S} (body : Z -> S -> res S) tb n fuel s : (forall i s, exists s', body i s = Ok s') ->
  (32 < i_bits tb)%Z -> (2 ^ 31 <= n <= i_max tb)%Z -> (2 ^ 31 <= Z.of_nat fuel)%Z ->
  for_macro fuel (Between int_t tb 0 n) body s = Undef.
Proof. exact (fun go => int_overflow_wide body go tb n fuel s). Qed.
Print Assumptions C101_wide_refuted.

Example C101_wide_example : (32 < i_bits (mkI true 64))%Z /\ (2 ^ 31 <= 2 ^ 31 <= i_max (mkI true 64))%Z.
Proof. repeat split; vm_compute; auto; discriminate. Qed.

(** C101, refuted: a negative start is taken for a large one when the end is a std::size_t; the loop runs downwards until
    it overflows. *)
Theorem C101_negative_refuted {S} (body : Z -> S -> res S) a n fuel s : (forall i s, exists s', body i s = Ok s') ->
  (- 2 ^ 31 <= a < 0)%Z -> (0 <= n < 2 ^ 64 - 2 ^ 31)%Z -> (2 ^ 31 <= Z.of_nat fuel)%Z ->
  for_macro fuel (Between int_t size_t a n) body s = Undef.
Proof. exact (fun go => int_negative body go a n fuel s). Qed.
Print Assumptions C101_negative_refuted.

Example C101_negative_example : let note i l := if (i <? -3)%Z then Abort else Ok (l ++ [i]) in
  (- 2 ^ 31 <= -1 < 0)%Z /\ (0 <= 4 < 2 ^ 64 - 2 ^ 31)%Z /\ for_macro 9 (Between int_t size_t (-1) 4) note [] = Abort.
Proof. repeat split; vm_compute; auto; discriminate. Qed.

(** C101, refuted: an unsigned start narrower than its end never gets there. *)
Theorem C101_narrow_refuted {S} (body : Z -> S -> res S) t n : (forall i s, exists s', body i s = Ok s') ->
  i_signed t = false -> (1 <= i_bits t <= 16)%Z -> (2 ^ i_bits t <= n <= i_max size_t)%Z ->
  forall fuel s, for_macro fuel (Between t size_t 0 n) body s = Diverge.
Proof. exact (fun go => narrow body go t n). Qed.
Print Assumptions C101_narrow_refuted.

Example C101_narrow_example : i_signed (mkI false 8) = false /\ (1 <= i_bits (mkI false 8) <= 16)%Z /\
  (2 ^ i_bits (mkI false 8) <= 300 <= i_max size_t)%Z.
Proof. repeat split; vm_compute; auto; discriminate. Qed.

(** C101, refuted: FOR(i, n - 1, -1) over a std::size_t does not run down to 0 but up to the largest value. *)
Theorem C101_down_to_zero_refuted {S} (body : Z -> S -> res S) a fuel s : (0 <= a <= i_max size_t)%Z ->
  (2 ^ 64 <= Z.of_nat fuel)%Z ->
  for_macro fuel (Between size_t int_t a (-1)) body s = forM (ups a (2 ^ 64 - 1)) body s.
Proof. exact (down_to_zero body a fuel s). Qed.
Print Assumptions C101_down_to_zero_refuted.

Example C101_down_to_zero_example : let read i l := do x <- vget [10; 11; 12] (Z.to_nat i); Ok (l ++ [x]) in
  for_macro 9 (Between size_t int_t 2 (-1)) read [] = Undef /\ for_macro 9 (Between int_t int_t 2 (-1)) read [] = Ok [12; 11; 10].
Proof. vm_compute. auto. Qed.

(** C101, partial: the row counter of compute_residual is an int compared with a std::size_t. Its loop is right below 2^31
    rows. Missing: more rows; see the refutation below. *)
Theorem C101_residual_partial {S} (body : Z -> S -> res S) n fuel s : (0 <= n < 2 ^ 31)%Z -> Z.to_nat n < fuel ->
  int_loop body fuel size_t n 0 s = forM (ups 0 n) body s.
Proof. exact (residual_counter body n fuel s). Qed.
Print Assumptions C101_residual_partial.

Example C101_residual_example : int_loop (fun i l => Ok (l ++ [i])) 4 size_t 3 0 [] = Ok [0; 1; 2]%Z.
Proof. vm_compute. reflexivity. Qed.

(** C101, refuted: it overflows for every larger number of rows. *)
Theorem C101_residual_refuted {S} (body : Z -> S -> res S) n fuel s : (forall i s, exists s', body i s = Ok s') ->
  (2 ^ 31 <= n <= i_max size_t)%Z -> (2 ^ 31 <= Z.of_nat fuel)%Z -> int_loop body fuel size_t n 0 s = Undef.
Proof. exact (residual_overflow body n fuel s). Qed.
Print Assumptions C101_residual_refuted.

Example C101_residual_refuted_example : (2 ^ 31 <= 2 ^ 31 <= i_max size_t)%Z /\
  forall i s, exists s', (fun (i : Z) (c : Z) => Ok (Z.max c i)) i s = Ok s'.
Proof. split; [split; vm_compute; discriminate|]. intros i s. eexists. reflexivity. Qed.

(** C102: the text in front of a message is the seven characters of the level, the name of the file without its
    directories, and the line. [M] is npos. *)
Theorem C102_text M l file line : named l -> length file <= M ->
  exists b, base_name file b /\
  console_format M l file line = Ok (tag l ++ b ++ chars "::" ++ decimal line ++ chars "]: ").
Proof. exact (format_ok M l file line). Qed.
Print Assumptions C102_text.

Example C102_text_example :
  console_format 99 Warning (chars "/src/graph/reorder.cpp") 42 = Ok (chars "[Warn |reorder.cpp::42]: ") /\
  console_format 99 Error (chars "main.cpp") 7 = Ok (chars "[Error|main.cpp::7]: ") /\
  console_format 99 Info (chars "dir/") 7 = Ok (chars "[Info |::7]: ").
Proof. vm_compute. auto. Qed.

(** C102: a path has one name, and the levels have texts of one length. *)
Theorem C102_name file b1 b2 l : base_name file b1 -> base_name file b2 -> b1 = b2 /\ length (tag l) = 7.
Proof. exact (fun H1 H2 => conj (base_name_unique file b1 b2 H1 H2) (tag_length l)). Qed.
Print Assumptions C102_name.

Example C102_name_example : base_name (chars "a/b/c.hpp") (chars "c.hpp").
Proof. split; [cbn; intuition discriminate|]. right. exists (chars "a/b"). reflexivity. Qed.

(** C102: the text determines level, name and line. *)
Theorem C102_unambiguous M l1 f1 n1 l2 f2 n2 t : named l1 -> named l2 -> length f1 <= M -> length f2 <= M ->
  console_format M l1 f1 n1 = Ok t -> console_format M l2 f2 n2 = Ok t ->
  l1 = l2 /\ n1 = n2 /\ exists b, base_name f1 b /\ base_name f2 b.
Proof. exact (format_inj M l1 f1 n1 l2 f2 n2 t). Qed.
Print Assumptions C102_unambiguous.

Example C102_unambiguous_example : named Info /\ named Info /\ length (chars "x/a::1.cpp") <= 99 /\
  console_format 99 Info (chars "x/a::1.cpp") 2 = console_format 99 Info (chars "y/z/a::1.cpp") 2.
Proof. vm_compute. repeat split; lia. Qed.

(** C102: errors go to the error stream alone and end their line, all others to the output stream alone; debug messages
    are written with DISA_DEBUG only. *)
Theorem C102_streams M dbg l file line msg c : named l -> length file <= M ->
  exists b, base_name file b /\
  let t := newline ++ tag l ++ b ++ chars "::" ++ decimal line ++ chars "]: " ++ msg in
  report M dbg l file line msg c =
  Ok match l with
     | Error => mkC (c_out c) (c_err c ++ t ++ newline)
     | Debug => if dbg then mkC (c_out c ++ t) (c_err c) else c
     | _ => mkC (c_out c ++ t) (c_err c)
     end.
Proof. exact (report_ok M dbg l file line msg c). Qed.
Print Assumptions C102_streams.

Example C102_streams_example :
  report 99 false Debug (chars "a.cpp") 1 (chars "hidden") (mkC (chars "x") []) = Ok (mkC (chars "x") []) /\
  report 99 false Error (chars "d/a.cpp") 1 (chars "bad") (mkC (chars "x") []) =
  Ok (mkC (chars "x") (newline ++ chars "[Error|a.cpp::1]: bad" ++ newline)).
Proof. vm_compute. auto. Qed.

(** C102: a level that is none of the four ends the program. *)
Theorem C102_other M n file line : length file <= M -> console_format M (Other n) file line = Abort.
Proof. exact (format_other M n file line). Qed.
Print Assumptions C102_other.

Example C102_other_example : console_format 9 (Other 4) (chars "a") 1 = Abort.
Proof. reflexivity. Qed.
