(** Number types used by the control-flow models.

    The C++ code computes in [double].  The control-flow models are written over an
    arbitrary structure [arith] of operations and boolean comparisons *without laws*,
    so what is proved for every [arith] holds for IEEE binary64 with NaN and
    infinities (instance in [Float64.v]) and for exact arithmetic ([Rarith] below). *)
From Coq Require Import ZArith Reals Lra Bool QArith.
From Coq Require Import Qreals.
Local Open Scope R_scope.

Record arith := MkArith {
  num  : Type;
  aadd : num -> num -> num;
  asub : num -> num -> num;
  amul : num -> num -> num;
  adiv : num -> num -> num;
  aopp : num -> num;
  aabs : num -> num;              (* std::abs *)
  altb : num -> num -> bool;      (* a < b (false if unordered) *)
  aleb : num -> num -> bool;      (* a <= b (false if unordered) *)
  alit : Z -> positive -> num     (* the literal p/q, e.g. 1e-8 is [alit 1 100000000] *)
}.

(** [a > b] and [a >= b] of C++ are the mirrored comparisons. *)
Definition agtb (A : arith) (x y : num A) : bool := altb A y x.
Definition ageb (A : arith) (x y : num A) : bool := aleb A y x.

(** Exact arithmetic. *)
Definition Rltb (x y : R) : bool := if Rlt_dec x y then true else false.
Definition Rleb (x y : R) : bool := if Rle_dec x y then true else false.

Lemma Rltb_true x y : Rltb x y = true <-> x < y.
Proof. unfold Rltb; destruct (Rlt_dec x y); split; congruence || tauto. Qed.
Lemma Rltb_false x y : Rltb x y = false <-> y <= x.
Proof. unfold Rltb; destruct (Rlt_dec x y); split; intros; try congruence; try lra. Qed.
Lemma Rleb_true x y : Rleb x y = true <-> x <= y.
Proof. unfold Rleb; destruct (Rle_dec x y); split; congruence || tauto. Qed.
Lemma Rleb_false x y : Rleb x y = false <-> y < x.
Proof. unfold Rleb; destruct (Rle_dec x y); split; intros; try congruence; try lra. Qed.

Definition Rlit (p : Z) (q : positive) : R := IZR p / IZR (Zpos q).

Definition Rarith : arith :=
  MkArith R Rplus Rminus Rmult Rdiv Ropp Rabs Rltb Rleb Rlit.

(** Outcome of a modelled C++ call.  [UB] is undefined behaviour, [NoFuel] says that the
    modelled loop was not finished with the fuel given (never a result of the code). *)
Inductive exn (E : Type) : Type :=
| SlopeError                 (* src/exceptions.hpp *)
| StepError
| DescentError
| RuntimeError               (* std::runtime_error thrown by nlcglib itself *)
| OtherExn (e : E).          (* anything thrown by a callback *)
Arguments SlopeError {E}.
Arguments StepError {E}.
Arguments DescentError {E}.
Arguments RuntimeError {E}.
Arguments OtherExn {E} e.

Inductive outcome (E A : Type) : Type :=
| Ret (a : A)
| Throw (e : exn E)
| UB
| NoFuel.
Arguments Ret {E A} a.
Arguments Throw {E A} e.
Arguments UB {E A}.
Arguments NoFuel {E A}.
