(** Properties C21-C25: the search for the chemical potential. *)
From Coq Require Import ZArith List Bool Reals Lra Lia.
From Flocq Require Import IEEE754.BinarySingleNaN.
From Verif Require Import Arith Float64 ChemPot ChemPotProofs.
Import ListNotations.

(** ** C21 *)
Theorem C21_returns_only_solutions :
  forall (A : arith) (f : num A -> num A) (tol mu0 mu : num A) vis c,
  find_chemical_potential A f tol mu0 = (Ret mu, vis, c) ->
  altb A (aabs A (f mu)) tol = true.
Proof. exact chem_sound. Qed.
Print Assumptions C21_returns_only_solutions.

Theorem C21_raises_only_without_solution :
  forall (A : arith) (f : num A -> num A) (tol mu0 : num A) vis c,
  find_chemical_potential A f tol mu0 = (Throw RuntimeError, vis, c) ->
  exists mu vis', vis = mu :: vis' /\ altb A (aabs A (f mu)) tol = false.
Proof. exact chem_throw. Qed.
Print Assumptions C21_raises_only_without_solution.

Theorem C21_returns_or_raises :
  forall (A : arith) (f : num A -> num A) (tol mu0 : num A),
  (exists mu, fst (fst (find_chemical_potential A f tol mu0)) = Ret mu) \/
  fst (fst (find_chemical_potential A f tol mu0)) = Throw RuntimeError.
Proof. exact chem_total. Qed.
Print Assumptions C21_returns_or_raises.

(** In doubles: the residual 3/10 - mu is solved to 1e-11, a NaN residual raises at once. *)
Definition res_line (x : f64) : f64 := fsub (flit 3 10) x.
Example C21_example :
  match find_chemical_potential F64 res_line (flit 1 100000000000) (flit 0 1),
        find_chemical_potential F64 (fun _ => B754_nan) (flit 1 100000000000) (flit 0 1) with
  | (Ret mu, vis, c), (Throw RuntimeError, vis2, c2) =>
    (Bltb (Babs (res_line mu)) (flit 1 100000000000), Nat.ltb 5 (length vis), length vis2, c2) = (true, true, 1%nat, 3%nat)
  | _, _ => False
  end.
Proof. vm_compute. reflexivity. Qed.

(** ** C22 *)
Theorem C22_bounded :
  forall (A : arith) (f : num A -> num A) (tol mu0 : num A),
  let r := find_chemical_potential A f tol mu0 in
  (length (snd (fst r)) <= 1001)%nat /\ (snd r <= 2003)%nat.
Proof. exact chem_bounded. Qed.
Print Assumptions C22_bounded.

(** Attained: a residual that is always 1. *)
Example C22_example :
  match find_chemical_potential F64 (fun _ => flit 1 1) (flit 1 100000000000) (flit 0 1) with
  | (Throw RuntimeError, vis, c) => (length vis =? 1001)%nat && (c =? 2003)%nat = true
  | _ => False
  end.
Proof. vm_compute. reflexivity. Qed.

(** ** C23 *)
Theorem C23_walks_towards_the_solution :
  forall (f : R -> R) (tol r mu0 : R), (0 <= tol)%R ->
  (forall x y, x <= y -> f y <= f x)%R -> f r = 0%R ->
  towards r (rev (snd (fst (find_chemical_potential Rarith f tol mu0)))).
Proof. exact (fun f tol r mu0 Ht => chem_towards f tol Ht r mu0). Qed.
Print Assumptions C23_walks_towards_the_solution.

Theorem C23_step_sizes :
  forall (f : R -> R) (tol mu0 : R), (0 <= tol)%R ->
  let w := rev (snd (fst (find_chemical_potential Rarith f tol mu0))) in
  first_step mu0 w /\ step_rule w /\ signed_walk f tol w.
Proof. exact (fun f tol mu0 Ht => Logic.conj (chem_first f tol Ht mu0) (chem_rule f tol Ht mu0)). Qed.
Print Assumptions C23_step_sizes.

Example C23_example :
  (forall x y, x <= y -> 3/10 - y <= 3/10 - x)%R /\ (3/10 - 3/10 = 0)%R /\
  exists r c, find_chemical_potential Rarith (fun x => 3/10 - x)%R (1/20)%R 0%R = (Ret r, [r; 1/8; 0]%R, c) /\ r = (1/8 + 5/32)%R.
Proof.
  split; [intros; lra|]. split; [lra|].
  unfold find_chemical_potential.
  rewrite (loop_step_up (fun x => 3/10 - x)%R (1/20)%R ltac:(lra)) by lra. cbn [Z.eqb Pos.eqb]. cbv zeta.
  rewrite (loop_step_up (fun x => 3/10 - x)%R (1/20)%R ltac:(lra)) by (cbn [alit Rarith]; unfold Rlit; lra). cbn [Z.eqb Pos.eqb]. cbv zeta.
  replace (alit Rarith 1 10) with (1/10)%R by (cbn; unfold Rlit; lra).
  rewrite (loop_stop (fun x => 3/10 - x)%R (1/20)%R) by (rewrite Rabs_pos_eq; lra).
  cbn [altb aabs Rarith].
  replace (Rltb _ _) with true by (symmetry; apply Rltb_true; rewrite Rabs_pos_eq; lra). cbn [negb].
  replace (0 + 1/10 * (5/4))%R with (1/8)%R by lra.
  eexists _, _. split; [reflexivity|lra].
Qed.

(** ** C24 *)
Theorem C24_succeeds :
  forall (f : R -> R) (tol L J D : R) (k m : nat),
  (forall x y, x <= y -> f y <= f x)%R ->
  (0 < L)%R -> (0 <= J)%R -> (J < tol)%R ->
  (forall x y, Rabs (f x - f y) <= L * Rabs (x - y) + J)%R ->
  (0 <= D)%R -> (0 <= f (- D))%R -> (f D <= 0)%R ->
  (k + 4 * m <= 1000)%nat -> (D <= 1/10 * ((5/4) ^ k - 1))%R ->
  ((D / 4 + 1/8) * (125/256) ^ m <= 2 * (tol - J) / L)%R ->
  exists mu vis c,
    (Rabs (f mu) < tol /\ find_chemical_potential Rarith f tol 0%R = (Ret mu, mu :: vis, c))%R \/
    (Rabs (f mu) = tol /\ find_chemical_potential Rarith f tol 0%R = (Throw RuntimeError, mu :: vis, c))%R.
Proof. exact search_lipschitz. Qed.
Print Assumptions C24_succeeds.

(** 20 states in a range of 100 Ha, slope 1e6 per Ha, jumps below 1e-12: 40 + 4*70 updates suffice. *)
Example C24_example :
  let f := (fun x => 10 - 10 * x)%R in
  (forall x y, x <= y -> f y <= f x)%R /\
  (forall x y, Rabs (f x - f y) <= 1000000 * Rabs (x - y) + / 1000000000000)%R /\
  (0 <= f (- 100) /\ f 100 <= 0)%R /\
  (40 + 4 * 70 <= 1000)%nat /\ (100 <= 1/10 * ((5/4) ^ 40 - 1))%R /\
  ((100 / 4 + 1/8) * (125/256) ^ 70 <= 2 * (/ 100000000000 - / 1000000000000) / 1000000)%R.
Proof.
  cbv zeta. repeat split; try (intros; lra); try lia.
  intros x y. replace (10 - 10 * x - (10 - 10 * y))%R with (-10 * (x - y))%R by ring.
  rewrite Rabs_mult, (Rabs_left (-10)) by lra. pose proof (Rabs_pos (x - y)). lra.
Qed.

(** ** C25 *)
Theorem C25_residual_equal_to_tolerance_raises :
  forall (A : arith) (f : num A -> num A) (tol mu0 : num A),
  altb A tol (aabs A (f mu0)) = false -> altb A (aabs A (f mu0)) tol = false ->
  find_chemical_potential A f tol mu0 = (Throw RuntimeError, [mu0], 3%nat).
Proof. exact chem_equal. Qed.
Print Assumptions C25_residual_equal_to_tolerance_raises.

Theorem C25_accepted_value_is_returned_refuted :
  exists (f : f64 -> f64) (tol mu0 : f64),
  Bleb (Babs (f mu0)) tol = true /\
  find_chemical_potential F64 f tol mu0 = (Throw RuntimeError, [mu0], 3%nat).
Proof.
  exists (fun _ => flit 1 100000000000), (flit 1 100000000000), (flit 0 1).
  split; [vm_compute; reflexivity|].
  apply chem_equal; vm_compute; reflexivity.
Qed.
Print Assumptions C25_accepted_value_is_returned_refuted.

Example C25_example :
  let tol := flit 1 100000000000 in
  altb F64 tol (aabs F64 tol) = false /\ altb F64 (aabs F64 tol) tol = false /\
  altb F64 tol (aabs F64 (flit (-1) 100000000000)) = false.
Proof. vm_compute. auto. Qed.
