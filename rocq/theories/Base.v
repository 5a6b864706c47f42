(** Outcomes, checked vector accesses and loops used by every model file. *)
From Coq Require Export List Arith Lia Bool Permutation Sorted.
Export ListNotations.

(** Outcome of running a piece of C++.
    [Abort]   an ASSERT (include/core/macros.hpp 112-118), or with [dbg = true] an ASSERT_DEBUG
              (macros.hpp 120-130), failed: message and exit(1).
    [Undef]   undefined behaviour (out of range access, back() of an empty vector, ...).
    [Diverge] the fuel of a while loop was exhausted. *)
Inductive res (A : Type) : Type :=
| Ok (a : A)
| Abort
| Undef
| Diverge.
Arguments Ok {A} a.
Arguments Abort {A}.
Arguments Undef {A}.
Arguments Diverge {A}.

Definition bind {A B : Type} (m : res A) (k : A -> res B) : res B :=
  match m with
  | Ok a => k a
  | Abort => Abort
  | Undef => Undef
  | Diverge => Diverge
  end.

Notation "'do' x <- m ; k" := (bind m (fun x => k))
  (at level 200, x pattern, m at level 100, k at level 200, right associativity).

(** ASSERT(condition, message): include/core/macros.hpp 112-118. *)
Definition ASSERT (c : bool) : res unit := if c then Ok tt else Abort.

(** ASSERT_DEBUG(condition, message): include/core/macros.hpp 120-130. *)
Definition ASSERT_DEBUG (dbg c : bool) : res unit :=
  if dbg then ASSERT c else Ok tt.

(** [v[i]] as an rvalue. *)
Definition vget {A : Type} (l : list A) (i : nat) : res A :=
  match nth_error l i with
  | Some x => Ok x
  | None => Undef
  end.

(** Unchecked replacement of one element (used by [vset] below its bounds check). *)
Definition upd {A : Type} (l : list A) (i : nat) (x : A) : list A :=
  firstn i l ++ x :: skipn (S i) l.

(** [v[i] = x]. *)
Definition vset {A : Type} (l : list A) (i : nat) (x : A) : res (list A) :=
  if i <? length l then Ok (upd l i x) else Undef.

(** [v[i] -= k] on an unsigned type. A wrap below zero is never intended by the code, it is
    reported as [Undef] so that a theorem concluding [Ok] also shows that it cannot happen. *)
Definition vsub (l : list nat) (i k : nat) : res (list nat) :=
  do x <- vget l i;
  if k <=? x then vset l i (x - k) else Undef.

(** [v.resize(n, d)]. *)
Definition vresize {A : Type} (l : list A) (n : nat) (d : A) : list A :=
  firstn n l ++ repeat d (n - length l).

(** [v.insert(v.begin() + k, x)], [k <= size] checked by the callers. *)
Definition list_insert {A : Type} (l : list A) (k : nat) (x : A) : list A :=
  firstn k l ++ x :: skipn k l.

Definition vinsert {A : Type} (l : list A) (k : nat) (x : A) : res (list A) :=
  if k <=? length l then Ok (list_insert l k x) else Undef.

(** [v.erase(v.begin() + a, v.begin() + b)]. *)
Definition verase {A : Type} (l : list A) (a b : nat) : res (list A) :=
  if (a <=? b) && (b <=? length l) then Ok (firstn a l ++ skipn b l) else Undef.

(** The elements of the iterator range [begin + a, begin + b). *)
Definition slice {A : Type} (l : list A) (a b : nat) : list A :=
  firstn (b - a) (skipn a l).

Definition vrange {A : Type} (l : list A) (a b : nat) : res (list A) :=
  if (a <=? b) && (b <=? length l) then Ok (slice l a b) else Undef.

(** [v.back()]. *)
Definition vback {A : Type} (l : list A) : res A :=
  match l with
  | [] => Undef
  | _ => vget l (length l - 1)
  end.

(** std::lower_bound on a range partitioned with respect to [< v]: number of leading elements
    below [v]. *)
Fixpoint lbound (l : list nat) (v : nat) : nat :=
  match l with
  | [] => 0
  | x :: r => if x <? v then S (lbound r v) else 0
  end.

(** std::upper_bound: number of leading elements not above [v]. *)
Fixpoint ubound (l : list nat) (v : nat) : nat :=
  match l with
  | [] => 0
  | x :: r => if x <=? v then S (ubound r v) else 0
  end.

(** std::for_each(begin + b, begin + e, [](auto& x) { x += k; }). *)
Definition vadd_range (l : list nat) (b e k : nat) : res (list nat) :=
  if (b <=? e) && (e <=? length l)
  then Ok (firstn b l ++ map (fun x => x + k) (slice l b e) ++ skipn e l)
  else Undef.

(** Range based for loop threading a state. *)
Fixpoint forM {A S : Type} (l : list A) (f : A -> S -> res S) (s : S) : res S :=
  match l with
  | [] => Ok s
  | a :: r => do s' <- f a s; forM r f s'
  end.

(** FOR(i, n): include/core/macros.hpp 153-154. *)
Definition FOR {S : Type} (n : nat) (f : nat -> S -> res S) (s : S) : res S :=
  forM (seq 0 n) f s.

(** mapping with effects, std::transform. *)
Fixpoint mapM {A B : Type} (f : A -> res B) (l : list A) : res (list B) :=
  match l with
  | [] => Ok []
  | a :: r => do b <- f a; do bs <- mapM f r; Ok (b :: bs)
  end.

(** insertion sort on indices: the result of std::sort on std::size_t is unique. *)
Fixpoint sort_insert (x : nat) (l : list nat) : list nat :=
  match l with
  | [] => [x]
  | y :: r => if x <=? y then x :: l else y :: sort_insert x r
  end.

Definition sort_nat (l : list nat) : list nat := fold_right sort_insert [] l.

(** Overwriting a range: std::transform(first, last, begin + p, ...). *)
Definition vwrite {A : Type} (l : list A) (p : nat) (vs : list A) : res (list A) :=
  if p + length vs <=? length l then Ok (firstn p l ++ vs ++ skipn (p + length vs) l) else Undef.
