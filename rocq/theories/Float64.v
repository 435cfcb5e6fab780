(** IEEE binary64 instance of [arith] (round to nearest even, single NaN), from Flocq. *)
From Coq Require Import ZArith Reals Lra Lia Bool.
From Flocq Require Import Core.Core IEEE754.BinarySingleNaN.
From Verif Require Import Arith.

#[global] Instance prec53 : Prec_gt_0 53. Proof. reflexivity. Qed.
#[global] Instance emax1024 : Prec_lt_emax 53 1024. Proof. reflexivity. Qed.

Definition f64 : Type := binary_float 53 1024.
Definition fofZ (z : Z) : f64 := binary_normalize 53 1024 prec53 emax1024 mode_NE z 0 false.
(** The decimal literal p/q: one correctly rounded division of exactly represented integers. *)
Definition flit (p : Z) (q : positive) : f64 := Bdiv mode_NE (fofZ p) (fofZ (Zpos q)).
Definition fadd : f64 -> f64 -> f64 := Bplus mode_NE.
Definition fsub : f64 -> f64 -> f64 := Bminus mode_NE.
Definition fmul : f64 -> f64 -> f64 := Bmult mode_NE.
Definition fdiv : f64 -> f64 -> f64 := Bdiv mode_NE.

Definition F64 : arith :=
  MkArith f64 fadd fsub fmul fdiv Bopp Babs Bltb Bleb flit.

Definition f64_nan : f64 := B754_nan.

Notation rnd := (round radix2 (SpecFloat.fexp 53 1024) ZnearestE).
Notation fmt := (generic_format radix2 (SpecFloat.fexp 53 1024)).

#[global] Instance fexp64_valid : Valid_exp (SpecFloat.fexp 53 1024).
Proof. apply (fexp_correct 53 1024). reflexivity. Qed.

Lemma fexp64 e : SpecFloat.fexp 53 1024 e = Z.max (e - 53) (-1074).
Proof. reflexivity. Qed.

Lemma fmt_B2R (x : f64) : fmt (B2R x).
Proof. apply generic_format_B2R. Qed.

(** ** Comparison facts *)
Lemma Bltb_nan_r (x : f64) : Bltb x B754_nan = false.
Proof. destruct x; reflexivity. Qed.
Lemma Bltb_nan_l (x : f64) : Bltb B754_nan x = false.
Proof. destruct x; reflexivity. Qed.
