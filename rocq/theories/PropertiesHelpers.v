(** C92: the helpers that no run reaches. *)
From Coq Require Import ZArith Reals Lra Lia Bool List.
From Coquelicot Require Import Complex.
From Flocq Require Import Core.Core IEEE754.BinarySingleNaN.
From Verif Require Import Arith Float64 LinAlg Descent Helpers HelpersProofs.
Import ListNotations.
Local Open Scope R_scope.

(** linspace in exact arithmetic: n points, equally spaced, from the first end to the second; one point is the
    first end; a negative number throws std::length_error. *)
Theorem C92_linspace_points : forall (b e : R) (n : Z), (0 <= n)%Z ->
  exists v, linspace Rarith b e n = LOk v /\ length v = Z.to_nat n /\
    (n = 1%Z -> v = [b]) /\
    ((2 <= n)%Z -> forall i, (i < Z.to_nat n)%nat ->
       nth_error v i = Some (b + INR i * ((e - b) / (IZR n - 1)))).
Proof. exact linspace_exact. Qed.
Print Assumptions C92_linspace_points.

Theorem C92_linspace_ends : forall (b e : R) (n : Z) (v : list R),
  (2 <= n)%Z -> linspace Rarith b e n = LOk v ->
  nth_error v 0 = Some b /\ nth_error v (Z.to_nat n - 1) = Some e.
Proof. exact linspace_last. Qed.
Print Assumptions C92_linspace_ends.

Example C92_example_ends : exists v, linspace Rarith 0 1 3 = LOk v /\
  nth_error v 0 = Some 0 /\ nth_error v 2 = Some 1.
Proof.
  destruct (C92_linspace_points 0 1 3) as (v & E & _); [lia|].
  exists v. split; [exact E|]. apply (C92_linspace_ends 0 1 3 v); [lia|exact E].
Qed.

Theorem C92_linspace_negative : forall (A : arith) (b e : num A) (n : Z), (n < 0)%Z ->
  linspace A b e n = LLengthError.
Proof. exact linspace_negative. Qed.
Print Assumptions C92_linspace_negative.

Example C92_example_negative : linspace Rarith 0 1 (-1) = LLengthError.
Proof. apply C92_linspace_negative. lia. Qed.

(** binary64: the first point is the first end as long as the step is finite ... *)
Theorem C92_linspace_first : forall (b e : f64) (n : Z) (v : list f64),
  (1 <= n)%Z -> (n = 1%Z \/ is_finite (fdiv (fsub e b) (flit (n - 1) 1)) = true) -> linspace F64 b e n = LOk v ->
  exists x, nth_error v 0 = Some x /\ B2R x = B2R b.
Proof. exact first_f64. Qed.
Print Assumptions C92_linspace_first.

Example C92_example_first : is_finite (fdiv (fsub unit_end unit_begin) (flit (50 - 1) 1)) = true.
Proof. vm_compute. reflexivity. Qed.

(** ... but the ends may be so far apart that it is NaN, although both are finite ... *)
Theorem C92_linspace_first_refuted : exists (b e : f64) (n : Z) (v : list f64) (x : f64),
  is_finite b = true /\ is_finite e = true /\ linspace F64 b e n = LOk v /\
  nth_error v 0 = Some x /\ is_nan x = true.
Proof. exact first_nan. Qed.
Print Assumptions C92_linspace_first_refuted.

(** ... and the last point need not be the second end. *)
Theorem C92_linspace_last_refuted : exists (b e : f64) (n : Z) (v : list f64) (x : f64),
  linspace F64 b e n = LOk v /\ nth_error v (Z.to_nat n - 1) = Some x /\ Bltb x e = true.
Proof. exact last_short. Qed.
Print Assumptions C92_linspace_last_refuted.

(** flatten keeps every element, in order. *)
Theorem C92_flatten : forall (T : Type) (inp : list (list T)), flatten inp = concat inp.
Proof. exact @flatten_concat. Qed.
Print Assumptions C92_flatten.

Example C92_example_flatten : flatten [[1; 2]; []; [3]]%Z = [1; 2; 3]%Z.
Proof. reflexivity. Qed.

(** check_overlap: the printed error is zero exactly if S^-1 S X = X for the k-points of the rank. *)
Theorem C92_check_overlap_meaning : forall ks : list kpoint,
  printed_error ks = 0 <->
  List.Forall (fun k => forall i j, (i < kn k)%nat -> (j < km k)%nat ->
    csum (kn k) (fun p => Cmult (kSi k i p) (csum (kn k) (fun q => Cmult (kS k p q) (kX k q j)))) = kX k i j) ks.
Proof. exact printed_zero. Qed.
Print Assumptions C92_check_overlap_meaning.

Example C92_example_check : printed_error [passing] = 0.
Proof. exact passing_zero. Qed.

(** The message announces S(S^-1(x)); that product can be wrong while zero is printed, also for Hermitian S, S^-1. *)
Theorem C92_check_overlap_message_refuted : exists (k : kpoint) (i j : nat),
  (forall p q, (p < kn k)%nat -> (q < kn k)%nat -> Cconj (kS k q p) = kS k p q) /\
  (forall p q, (p < kn k)%nat -> (q < kn k)%nat -> Cconj (kSi k q p) = kSi k p q) /\
  (i < kn k)%nat /\ (j < km k)%nat /\ printed_error [k] = 0 /\
  csum (kn k) (fun p => Cmult (kS k i p) (csum (kn k) (fun q => Cmult (kSi k p q) (kX k q j)))) <> kX k i j.
Proof. exact message_wrong. Qed.
Print Assumptions C92_check_overlap_message_refuted.

(** The error is the one of the k-points of one rank: another rank's wrong inverse is not seen. *)
Theorem C92_check_overlap_local_refuted : exists here there : list kpoint,
  printed_error here = 0 /\ printed_error (here ++ there) <> 0.
Proof. exact local_only. Qed.
Print Assumptions C92_check_overlap_local_refuted.
