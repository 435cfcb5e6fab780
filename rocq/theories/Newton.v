(** Model of newton_minimization_chemical_potential, src/dft/newton_minimization_smearing.hpp 26-73. *)
From Coq Require Import ZArith List Bool Reals Lra Lia.
From Verif Require Import Arith.
Import ListNotations.

(** struct failed_to_converge, newton_minimization_smearing.hpp 11-13. *)
Inductive newton_exn := FailedToConverge.

Section Newton.
  Context (A : arith).
  Context (N dN ddN : num A -> num A).      (* called as pure functions *)
  Context (ne tol : num A).

  (** tol_ne, line 33. *)
  Definition tol_ne : num A := alit A 1 100.

  (** dF and ddF, lines 45-46. *)
  Definition nt_dF (mu : num A) : num A := amul A (amul A (alit A 2 1) (asub A (N mu) ne)) (dN mu).
  Definition nt_ddF (mu : num A) : num A :=
    aadd A (amul A (amul A (alit A 2 1) (dN mu)) (dN mu))
           (amul A (amul A (alit A 2 1) (asub A (N mu) ne)) (ddN mu)).

  (** The while loop, lines 37-71; [k] is maxstep - iter.  The list holds (ghost) the values of mu at
      the head of the passes, newest first. *)
  Fixpoint newton_loop (k : nat) (mu : num A) (vis : list (num A)) : outcome newton_exn (num A) * list (num A) :=
    let ddF := nt_ddF mu in
    if altb A (aabs A ddF) (alit A 1 10000000000) then (Throw (OtherExn FailedToConverge), mu :: vis)
    else
      let step := adiv A (nt_dF mu) (aabs A ddF) in
      let mu' := asub A mu step in
      if altb A (aabs A step) tol || altb A (aabs A (asub A (N mu) ne)) tol then
        if agtb A (aabs A (asub A (N mu') ne)) tol_ne then (Throw (OtherExn FailedToConverge), mu :: vis)
        else (Ret mu', mu :: vis)
      else
        match k with
        | O => (Throw (OtherExn FailedToConverge), mu :: vis)      (* iter > maxstep, 66-70 *)
        | S k' => newton_loop k' mu' (mu :: vis)
        end.

  Definition newton (maxstep : nat) (mu0 : num A) := newton_loop maxstep mu0 [].
End Newton.

(** ** Facts for every arithmetic *)
Section Any.
  Context (A : arith) (N dN ddN : num A -> num A) (ne tol : num A).
  Notation loop := (newton_loop A N dN ddN ne tol).

  Lemma newton_loop_spec k : forall mu vis,
    let r := loop k mu vis in
    (length (snd r) <= S k + length vis)%nat /\
    ((exists mu', fst r = Ret mu' /\ altb A (alit A 1 100) (aabs A (asub A (N mu') ne)) = false) \/
     fst r = Throw (OtherExn FailedToConverge)).
  Proof.
    induction k as [|k IH]; intros mu vis; cbn [newton_loop]; cbv zeta;
      (destruct (altb A (aabs A (nt_ddF A N dN ddN ne mu)) _); [cbn; split; [lia|auto]|]);
      destruct (_ || _);
      try (destruct (agtb A (aabs A (asub A (N (asub A mu (adiv A (nt_dF A N dN ne mu) (aabs A (nt_ddF A N dN ddN ne mu))))) ne)) (tol_ne A)) eqn:E;
           cbn [fst snd length]; (split; [lia|]); [auto|left; eexists; split; [reflexivity|exact E]]).
    - cbn. split; [lia|auto].
    - match goal with |- context [loop k ?a ?v] => destruct (IH a v) as (H1 & H2) end.
      cbn [length] in H1. split; [lia|exact H2].
  Qed.

  Lemma newton_sound maxstep mu0 mu vis : newton A N dN ddN ne tol maxstep mu0 = (Ret mu, vis) ->
    altb A (alit A 1 100) (aabs A (asub A (N mu) ne)) = false.
  Proof.
    unfold newton. intros H. destruct (newton_loop_spec maxstep mu0 []) as (_ & [(mu' & E & H2)|E]); rewrite H in E; cbn in E.
    - inversion E; subst. exact H2.
    - discriminate.
  Qed.

  Lemma newton_outcomes maxstep mu0 :
    (length (snd (newton A N dN ddN ne tol maxstep mu0)) <= S maxstep)%nat /\
    ((exists mu, fst (newton A N dN ddN ne tol maxstep mu0) = Ret mu) \/
     fst (newton A N dN ddN ne tol maxstep mu0) = Throw (OtherExn FailedToConverge)).
  Proof.
    unfold newton. destruct (newton_loop_spec maxstep mu0 []) as (H1 & H2). cbn in H1.
    split; [lia|]. destruct H2 as [(mu & E & _)|E]; eauto.
  Qed.

  (** The last pass: what was true when the search returned. *)
  Lemma newton_loop_ret k : forall mu vis mu' vis', loop k mu vis = (Ret mu', vis') ->
    exists m v, vis' = m :: v /\
      mu' = asub A m (adiv A (nt_dF A N dN ne m) (aabs A (nt_ddF A N dN ddN ne m))) /\
      altb A (aabs A (nt_ddF A N dN ddN ne m)) (alit A 1 10000000000) = false /\
      (altb A (aabs A (adiv A (nt_dF A N dN ne m) (aabs A (nt_ddF A N dN ddN ne m)))) tol = true \/
       altb A (aabs A (asub A (N m) ne)) tol = true).
  Proof.
    induction k as [|k IH]; intros mu vis mu' vis'; cbn [newton_loop]; cbv zeta;
      (destruct (altb A (aabs A (nt_ddF A N dN ddN ne mu)) _) eqn:E1; [discriminate|]);
      (destruct (_ || _) eqn:E2;
       [destruct (agtb A _ (tol_ne A)); [discriminate|]; intros E; inversion E; subst;
        apply orb_true_iff in E2; exists mu, vis; auto|]).
    - discriminate.
    - apply IH.
  Qed.
End Any.

(** ** Exact arithmetic: a linear particle number is solved in one step, and found in the next pass. *)
Lemma newton_linear (c b ne tol mu0 : R) (k : nat) :
  (1 / 10000000000 <= 2 * c * c)%R -> (0 < tol)%R ->
  exists vis, newton Rarith (fun x => c * x + b)%R (fun _ => c) (fun _ => 0%R) ne tol (S k) mu0 = (Ret ((ne - b) / c)%R, vis) /\
    (length vis <= 2)%nat.
Proof.
  intros Hc Ht.
  assert (Hc0 : c <> 0%R). { intros ->. lra. }
  assert (Hcc : (0 < 2 * c * c)%R). { assert (0 < c * c)%R by (apply Rsqr_pos_lt in Hc0; exact Hc0). lra. }
  assert (Hdd : forall mu, nt_ddF Rarith (fun x => c * x + b)%R (fun _ => c) (fun _ => 0%R) ne mu = (2 * c * c)%R).
  { intros mu. unfold nt_ddF. cbn [aadd amul asub alit Rarith]. unfold Rlit. match goal with |- @eq _ ?a ?b => change (@eq R a b) end. field. }
  assert (Hab : Rabs (2 * c * c) = (2 * c * c)%R) by (apply Rabs_pos_eq; lra).
  assert (Hst : forall mu, (nt_dF Rarith (fun x => c * x + b) (fun _ => c) ne mu / (2 * c * c) = mu - (ne - b) / c)%R).
  { intros mu. unfold nt_dF. cbn [amul asub alit Rarith]. unfold Rlit. match goal with |- @eq _ ?a ?b => change (@eq R a b) end. field. exact Hc0. }
  assert (Hpass : forall k mu vis,
    newton_loop Rarith (fun x => c * x + b)%R (fun _ => c) (fun _ => 0%R) ne tol k mu vis =
    if Rltb (Rabs (mu - (ne - b) / c)) tol || Rltb (Rabs (c * mu + b - ne)) tol then (Ret ((ne - b) / c)%R, mu :: vis)
    else match k with O => (Throw (OtherExn FailedToConverge), mu :: vis)
         | S k' => newton_loop Rarith (fun x => c * x + b)%R (fun _ => c) (fun _ => 0%R) ne tol k' ((ne - b) / c)%R (mu :: vis) end).
  { intros k0 mu vis. destruct k0 as [|k0]; cbn [newton_loop]; cbv zeta; rewrite Hdd;
      cbn [altb aabs adiv asub alit Rarith]; rewrite Hab, Hst;
      (replace (Rltb (2 * c * c) (Rlit 1 10000000000)) with false
        by (symmetry; apply Rltb_false; unfold Rlit; lra));
      (replace (mu - (mu - (ne - b) / c))%R with ((ne - b) / c)%R by ring);
      (replace (agtb Rarith _ (tol_ne Rarith)) with false; [reflexivity|]);
      symmetry; unfold agtb, tol_ne; cbn [altb aabs alit asub Rarith]; apply Rltb_false;
      (replace (c * ((ne - b) / c) + b - ne)%R with 0%R by (field; exact Hc0)); rewrite Rabs_R0; unfold Rlit; lra. }
  unfold newton. rewrite Hpass. destruct (_ || _).
  - eexists. split; [reflexivity|]. cbn. lia.
  - rewrite Hpass. replace (Rltb _ tol || _) with true; [eexists; split; [reflexivity|cbn; lia]|].
    symmetry. apply orb_true_iff. left. apply Rltb_true.
    replace ((ne - b) / c - (ne - b) / c)%R with 0%R by ring. rewrite Rabs_R0. exact Ht.
Qed.

(** The search for a minimum of (N - ne)^2 may stop at a minimum that is not a solution. *)
Lemma newton_not_a_solution :
  forall tol : R, (0 < tol)%R ->
  newton Rarith (fun x => 1/1000 + x * x)%R (fun x => 2 * x)%R (fun _ => 2)%R 0%R tol 1000 0%R = (Ret 0%R, [0%R]).
Proof.
  intros tol Ht. unfold newton.
  set (N := (fun x => 1/1000 + x * x)%R).
  assert (Hdd : nt_ddF Rarith N (fun x => 2 * x)%R (fun _ => 2)%R 0%R 0%R = (4/1000)%R).
  { unfold nt_ddF, N. cbn [aadd amul asub alit Rarith]. unfold Rlit. match goal with |- @eq _ ?a ?b => change (@eq R a b) end. field. }
  assert (Hd : nt_dF Rarith N (fun x => 2 * x)%R 0%R 0%R = 0%R).
  { unfold nt_dF, N. cbn [amul asub alit Rarith]. unfold Rlit. match goal with |- @eq _ ?a ?b => change (@eq R a b) end. field. }
  assert (Hgen : forall k, newton_loop Rarith N (fun x => 2 * x)%R (fun _ => 2)%R 0%R tol k 0%R [] = (Ret 0%R, [0%R])).
  { intros k. destruct k; cbn [newton_loop]; cbv zeta; rewrite Hdd, Hd; cbn [altb aabs adiv asub alit Rarith];
    (rewrite (Rabs_pos_eq (4/1000)) by lra);
    (replace (Rltb (4/1000) (Rlit 1 10000000000)) with false by (symmetry; apply Rltb_false; unfold Rlit; lra));
    (replace (0 / (4/1000))%R with 0%R by field); rewrite Rabs_R0;
    (replace (Rltb 0 tol) with true by (symmetry; apply Rltb_true; exact Ht)); cbn [orb];
    (replace (0 - 0)%R with 0%R by ring);
    (replace (agtb Rarith _ (tol_ne Rarith)) with false; [reflexivity|]);
    symmetry; unfold agtb, tol_ne, N; cbn [altb aabs alit asub Rarith]; apply Rltb_false;
    rewrite Rabs_pos_eq; unfold Rlit; lra. }
  apply Hgen.
Qed.
