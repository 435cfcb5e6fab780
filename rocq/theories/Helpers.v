(** The helpers that no run reaches: the grid of [linspace], [flatten], and the check of the overlap operators. *)
From Coq Require Import ZArith Reals Lra Lia Bool List.
From Coquelicot Require Import Complex.
From Verif Require Import Arith LinAlg Descent.
Import ListNotations.

(** ** linspace, src/la/utils.hpp 94-105 *)
(** [std::vector<double> vec(npoints)] with a negative [int] asks for more than max_size() elements and throws
    std::length_error (line 97). *)
Inductive lres (X : Type) : Type :=
| LOk (x : X)
| LLengthError.
Arguments LOk {X} _. Arguments LLengthError {X}.

(** the step, src/la/utils.hpp 98-99; the [int] is converted to double (exact) *)
Definition grid_step (A : arith) (b e : num A) (n : Z) : num A :=
  if (1 <? n)%Z then adiv A (asub A e b) (alit A (n - 1) 1) else alit A 0 1.
(** one entry, src/la/utils.hpp 101 *)
Definition grid_entry (A : arith) (b e : num A) (n i : Z) : num A :=
  aadd A b (amul A (alit A i 1) (grid_step A b e n)).
(** src/la/utils.hpp 94-105 *)
Definition linspace (A : arith) (b e : num A) (n : Z) : lres (list (num A)) :=
  if (n <? 0)%Z then LLengthError
  else LOk (map (fun i => grid_entry A b e n (Z.of_nat i)) (seq 0 (Z.to_nat n))).

(** ** flatten, src/helper/funcs.hpp 7-18: two nested loops with push_back *)
Definition push_all {T} (out v : list T) : list T := fold_left (fun o x => o ++ [x]) v out.
(** src/helper/funcs.hpp 11-17 *)
Definition flatten {T} (inp : list (list T)) : list T := fold_left push_all inp [].

(** ** check_overlap, src/nlcglib.cpp 143-192 *)
(** One k-point: X is n x m; the two operators are linear maps on columns, given by their matrices
    (OverlapBase::apply, called in src/operator.hpp 73, is the caller's). *)
Record kpoint := KPt { kn : nat; km : nat; kX : mat; kS : mat; kSi : mat }.
(** the lambda of src/nlcglib.cpp 162-170: S first, then S^-1; named Xref *)
Definition back_and_forth (k : kpoint) : mat := mmul (kn k) (kSi k) (mmul (kn k) (kS k) (kX k)).
(** the lambda of src/nlcglib.cpp 171-179: S^-1 first, then S; named Xref2, never read *)
Definition forth_and_back (k : kpoint) : mat := mmul (kn k) (kS k) (mmul (kn k) (kSi k) (kX k)).
(** the lambda of src/nlcglib.cpp 181-188: a copy of x, minus y (add, src/la/lapack_cpu.hpp 300-333) *)
Definition deviation (x y : mat) : mat := add x y (-1) 1.
(** l2norm, src/la/lapack.hpp 339-349: square root of the sum over the k-points held by the rank.  The sum does not
    include the other ranks, because eval_threaded returns a vector without communicator (C50). *)
Definition l2norm (ks : list kpoint) (f : kpoint -> mat) : R :=
  sqrt (fold_right Rplus 0%R (map (fun k => Re (innerh_tr (kn k) (km k) (f k) (f k))) ks)).
(** what src/nlcglib.cpp 190-191 print after "** check: S(S_inv(x)), error: " *)
Definition printed_error (ks : list kpoint) : R := l2norm ks (fun k => deviation (kX k) (back_and_forth k)).
