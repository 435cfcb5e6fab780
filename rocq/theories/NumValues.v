(** The numbers of the binary64 run: the constants have the values written in the code, the operations are IEEE operations on the parts
    of a complex number.  Nothing here models code of its own. *)
From Coq Require Import ZArith Reals Lra Bool.
From Flocq Require Import IEEE754.BinarySingleNaN Core.
From Verif Require Import Arith Float64 LapackMem NumStep SmearFloat.
Local Open Scope R_scope.

Ltac litn := cbn [n_0 n_1 n_m1 n_2 n_tinymu n_tinye binaryN nA];
  (match goal with |- context [B2R (flit ?p ?q)] =>
    let v := eval vm_compute in (B2SF (flit p q)) in
    match v with SpecFloat.S754_finite ?s ?m ?e => destruct (lit_val p q m e s eq_refl) as [? ->] end end);
  unfold F2R; cbn; try lra.

Lemma binary_numbers :
  B2R (n_0 binaryN : f64) = 0 /\ B2R (n_1 binaryN : f64) = 1 /\ B2R (n_m1 binaryN : f64) = -1 /\ B2R (n_2 binaryN : f64) = 2 /\
  Rabs (B2R (n_tinymu binaryN : f64) - 1 / 10 ^ 12) <= / 2 ^ 53 * (1 / 10 ^ 12) /\ Rabs (B2R (n_tinye binaryN : f64) - 1 / 10 ^ 10) <= / 2 ^ 53 * (1 / 10 ^ 10) /\
  (forall x : f64, n_r binaryN x = x /\ n_re binaryN (n_c binaryN x) = x /\ B2R (snd (n_c binaryN x : f64 * f64)) = 0 /\ n_sqrt binaryN x = Bsqrt mode_NE x) /\
  (forall (a b x : f64), n_re binaryN (a, b) = a /\ n_sub binaryN (a, b) x = (Bminus mode_NE a x, b) /\ n_add binaryN (a, b) x = (Bplus mode_NE a x, b) /\
    n_mul binaryN (a, b) x = (Bmult mode_NE a x, Bmult mode_NE b x)).
Proof.
  split; [vm_compute; reflexivity|]. split; [litn|]. split; [litn|]. split; [litn|].
  split; [litn; apply Rabs_le; lra|]. split; [litn; apply Rabs_le; lra|].
  split; [intros x; repeat split; vm_compute; reflexivity|intros; repeat split].
Qed.
