(** Model of the index loops and the console messages of include/core/macros.hpp. *)
From Coq Require Import String Ascii ZArith.
From Verif Require Import Base TextModel.

(** An integral type: whether it is signed, and its number of bits. *)
Record ity := mkI { i_signed : bool; i_bits : Z }.
Definition int_t := mkI true 32.
Definition size_t := mkI false 64.

Definition i_min (t : ity) : Z := if i_signed t then (- 2 ^ (i_bits t - 1))%Z else 0%Z.
Definition i_max (t : ity) : Z := if i_signed t then (2 ^ (i_bits t - 1) - 1)%Z else (2 ^ i_bits t - 1)%Z.

(** Conversion to a type: modulo two to the number of bits. *)
Definition conv (t : ity) (x : Z) : Z := ((x - i_min t) mod 2 ^ i_bits t + i_min t)%Z.

(** Integral promotion and the usual arithmetic conversions: the type in which two operands are compared. *)
Definition promoted (t : ity) : ity := if (i_bits t <? 32)%Z then int_t else t.
Definition common (a b : ity) : ity :=
  let a := promoted a in let b := promoted b in
  if Bool.eqb (i_signed a) (i_signed b) then (if (i_bits a <? i_bits b)%Z then b else a)
  else let (u, s) := if i_signed a then (b, a) else (a, b) in if (i_bits s <=? i_bits u)%Z then u else s.

(** a < b and a != b of operands of types [ta] and [tb]. *)
Definition less (ta tb : ity) (a b : Z) : bool := (conv (common ta tb) a <? conv (common ta tb) b)%Z.
Definition differ (ta tb : ity) (a b : Z) : bool := negb (conv (common ta tb) a =? conv (common ta tb) b)%Z.

(** ++i and --i: computed in the promoted type, where leaving the range of a signed type is undefined, and converted
    back. *)
Definition step (t : ity) (d i : Z) : res Z :=
  let p := promoted t in
  if i_signed p && negb ((i_min p <=? i + d) && (i + d <=? i_max p))%Z then Undef else Ok (conv t (i + d)).

Section Loops.
  Context {S : Type}.
  Variable body : Z -> S -> res S.

  (** FOR_INDEX(index, max_iter): macros.hpp 153-154; [t] is the type of [n]. *)
  Fixpoint index_loop (fuel : nat) (t : ity) (n i : Z) (s : S) : res S :=
    match fuel with
    | 0 => Diverge
    | Datatypes.S f => if less t t i n then do s' <- body i s; do i' <- step t 1 i; index_loop f t n i' s' else Ok s
    end.

  Definition for_index (fuel : nat) (t : ity) (n : Z) (s : S) : res S := index_loop fuel t n (conv t 0) s.

  (** FOR_INDEX_RANGE(index, start, end): macros.hpp 164-165; the index has the type [ta] of the start [a]. *)
  Fixpoint range_loop (fuel : nat) (ta tb : ity) (a b i : Z) (s : S) : res S :=
    match fuel with
    | 0 => Diverge
    | Datatypes.S f =>
      if differ ta tb i b
      then do s' <- body i s; do i' <- step ta (if less ta tb a b then 1 else -1)%Z i; range_loop f ta tb a b i' s'
      else Ok s
    end.

  (** for(auto i = 0; i < n; ++i) with n of type [tb]: solver_utilities.hpp 245. *)
  Fixpoint int_loop (fuel : nat) (tb : ity) (n i : Z) (s : S) : res S :=
    match fuel with
    | 0 => Diverge
    | Datatypes.S f =>
      if less int_t tb i n then do s' <- body i s; do i' <- step int_t 1 i; int_loop f tb n i' s' else Ok s
    end.

  Definition for_range (fuel : nat) (ta tb : ity) (a b : Z) (s : S) : res S := range_loop fuel ta tb a b a s.
End Loops.

(** FOR(index, max_iter) and FOR(index, start, end): GET_MACRO takes the fourth argument, macros.hpp 146 and 170. *)
Inductive bounds := Upto (t : ity) (n : Z) | Between (ta tb : ity) (a b : Z).
Definition for_macro {S} (fuel : nat) (w : bounds) (body : Z -> S -> res S) (s : S) : res S :=
  match w with
  | Upto t n => for_index body fuel t n s
  | Between ta tb a b => for_range body fuel ta tb a b s
  end.

(** enum class Log_Level : uint8_t, macros.hpp 42-47; any other value of the underlying type is [Other]. *)
Inductive level := Error | Warning | Info | Debug | Other (n : nat).

(** find_last_of('/'): the position of the last character equal to [c], [M] (npos) without one. *)
Fixpoint find_last (M : nat) (c : ascii) (t : text) : nat :=
  match t with
  | [] => M
  | x :: r => let k := find_last M c r in if k =? M then (if Ascii.eqb x c then 0 else M) else k + 1
  end.

(** substr(iter + 1), with the wrap of npos + 1 to zero; a position beyond the end throws. *)
Definition substr (M : nat) (t : text) (p : nat) : res text :=
  let p := if p =? M + 1 then 0 else p in if p <=? length t then Ok (skipn p t) else Abort.

(** console_format: macros.hpp 55-73. *)
Definition console_format (M : nat) (l : level) (file : text) (line : nat) : res text :=
  do name <- substr M file (find_last M "/" file + 1);
  let suffix := name ++ chars "::" ++ decimal line ++ chars "]: " in
  match l with
  | Debug => Ok (chars "[Debug|" ++ suffix)
  | Info => Ok (chars "[Info |" ++ suffix)
  | Warning => Ok (chars "[Warn |" ++ suffix)
  | Error => Ok (chars "[Error|" ++ suffix)
  | Other _ => Abort
  end.

(** What has been written to std::cout and std::cerr. *)
Record console := mkC { c_out : text; c_err : text }.

(** DEBUG, INFO, WARNING, ERROR: macros.hpp 75-105. *)
Definition report (M : nat) (dbg : bool) (l : level) (file : text) (line : nat) (message : text) (c : console) :
  res console :=
  match l with
  | Debug => if dbg then do t <- console_format M l file line; Ok (mkC (c_out c ++ newline ++ t ++ message) (c_err c))
             else Ok c
  | Error => do t <- console_format M l file line; Ok (mkC (c_out c) (c_err c ++ newline ++ t ++ message ++ newline))
  | _ => do t <- console_format M l file line; Ok (mkC (c_out c ++ newline ++ t ++ message) (c_err c))
  end.
