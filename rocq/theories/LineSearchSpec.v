(** Specification vocabulary for the line search: which points are tried, in which order.
    Independent of the loop definitions in [LineSearch.v] (only the memory record is shared). *)
From Coq Require Import ZArith List Bool.
From Verif Require Import Arith LineSearch.
Import ListNotations.

Section Spec.
  Context (A : arith) (St P E : Type).
  Context (getF : St -> num A).
  Context (G : num A -> St -> (P + E) * St).
  Notation mem := (lsmem (num A) St P).

  (** Points evaluated between [m] and [m'] (newest first). *)
  Definition new_evals (m m' : mem) (l : list (num A * option P * num A)) : Prop :=
    evals m' = l ++ evals m.

  (** [trials step ok t l u]: starting at step length [t], the evaluations [l] (newest first)
      were made at t, step t, step (step t), ..., each returned normally with an energy F such
      that [ok t F] held, and the next step length is [u]. *)
  Inductive trials (step : num A -> num A) (ok : num A -> num A -> Prop) (t : num A)
    : list (num A * option P * num A) -> num A -> Prop :=
  | trials_nil : trials step ok t nil t
  | trials_next l u p F :
      trials step ok t l u -> ok u F -> trials step ok t ((u, Some p, F) :: l) (step u).

  (** A rejected backtracking trial: the step is above 1e-8, the energy is not below [F0]. *)
  Definition bt_ok (F0 : num A) (u F : num A) : Prop :=
    altb A (alit A 1 100000000) u = true /\ altb A F F0 = false.

  (** A rejected quadratic trial: the fitted curvature is negative. *)
  Definition q_ok (F0 slope : num A) (u F : num A) : Prop :=
    altb A (adiv A (asub A (asub A F (amul A slope u)) F0) (amul A u u)) (alit A 0 1) = true.

  (** [quad_trace F0 slope tt m m1 p]: between [m] and [m1] the evaluations were exactly
      those of the quadratic step: trial steps tt, 5 tt, 25 tt, ... while the curvature is
      negative, then the predicted minimum [t_min] of the last parabola, returning [p]. *)
  Definition quad_trace (F0 slope tt : num A) (m m1 : mem) (p : P) : Prop :=
    exists l u q F s,
      trials (fun x => amul A x (alit A 5 1)) (q_ok F0 slope) tt l u /\
      let a := adiv A (asub A (asub A F (amul A slope u)) F0) (amul A u u) in
      let t_min := adiv A (aopp A slope) (amul A (alit A 2 1) a) in
      altb A a (alit A 0 1) = false /\
      G t_min s = (inl p, fst_ m1) /\
      new_evals m m1 ((t_min, Some p, getF (fst_ m1)) :: (u, Some q, F) :: l).

  (** Rejected backtracking trials tt, tau tt, tau^2 tt, ... *)
  Definition bt_trials (F0 tau tt : num A) l u : Prop :=
    trials (fun x => amul A x tau) (bt_ok F0) tt l u.

End Spec.
