(** Model of find_chemical_potential, src/smearing.hpp 19-49. *)
From Coq Require Import ZArith List Bool.
From Verif Require Import Arith.
Import ListNotations.

Section Chem.
  Context (A : arith).
  Context (f : num A -> num A).        (* the functor [fun]; called as a pure function *)
  Context (tol : num A).

  (** Loop, smearing.hpp 29-41.  [n] is nmax - counter.  [s] is the sign of the last step (int 1 or
      -1 in the code).  Result: the final mu, the values of mu visited before it (newest first) and
      (ghost) the number of calls of [f]. *)
  Fixpoint chem_loop (n : nat) (mu de : num A) (s : Z) (vis : list (num A)) (calls : nat)
    : num A * list (num A) * nat :=
    if agtb A (aabs A (f mu)) tol then
      match n with
      | O => (mu, vis, S calls)
      | S n' =>
        let sp := s in
        let s' := if agtb A (f mu) (alit A 0 1) then 1%Z else (-1)%Z in
        let de' := if (s' =? sp)%Z then amul A de (alit A 125 100) else amul A de (alit A 25 100) in
        chem_loop n' (aadd A mu (amul A (alit A s' 1) de')) de' s' (mu :: vis) (S (S calls))
      end
    else (mu, vis, S calls).

  (** find_chemical_potential(fun, mu0, tol), smearing.hpp 21-49; de = 0.1, s = 1, nmax = 1000. *)
  Definition find_chemical_potential (mu0 : num A) : outcome Empty_set (num A) * list (num A) * nat :=
    match chem_loop 1000 mu0 (alit A 1 10) 1 [] 0 with
    | (mu, vis, c) =>
      if negb (altb A (aabs A (f mu)) tol) then (Throw RuntimeError, mu :: vis, S (S c))
      else (Ret mu, mu :: vis, S c)
    end.
End Chem.

(** ** Specification: what a walk [mu_0, mu_1, ...] (oldest first) has to look like. *)
From Coq Require Import Reals Lra.

(** Every update moves towards [r]. *)
Fixpoint towards (r : R) (l : list R) : Prop :=
  match l with
  | a :: (b :: _) as t => (0 < (b - a) * (r - a))%R /\ towards r t
  | _ => True
  end.

(** Steps grow by 5/4 while the direction is kept and shrink to a quarter when it flips. *)
Fixpoint step_rule (l : list R) : Prop :=
  match l with
  | a :: (b :: (c :: _)) as t =>
    ((c - b = 5/4 * (b - a)) \/ (c - b = - (1/4 * (b - a))))%R /\
    step_rule t
  | _ => True
  end.
