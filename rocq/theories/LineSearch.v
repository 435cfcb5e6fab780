(** Model of src/linesearch/linesearch.hpp (class line_search).

    The free energy functional is an arbitrary stateful oracle: [St] is its state,
    [getF] is FE.get_F(), and [G t s] is the curve/functor passed to the line search
    (lambda [g], src/nlcglib.cpp 345-355): it evaluates the functional at step [t], returns
    the tuple (ek, ul, x, mu) as a value of type [P] or throws, and leaves a new state.
    The model records the list of evaluated steps (newest first) with the points returned and the
    energies found (ghost data: the code does not read it).
    Logging (Logger::GetInstance() << ...) is not modelled here. *)
From Coq Require Import ZArith List Bool.
From Verif Require Import Arith.
Import ListNotations.

(** What the line search can see and change: functional state, the [bool& force_restart]
    argument, and (ghost) the evaluations made so far. *)
Record lsmem (N St P : Type) := MkMem {
  fst_ : St;
  frestart : bool;
  evals : list (N * option P * N)    (* (step t, returned tuple, FE.get_F() afterwards) *)
}.
Arguments MkMem {N St P}.
Arguments fst_ {N St P}.
Arguments frestart {N St P}.
Arguments evals {N St P}.

(** Result kinds reported next to the tuple: line_search_info, linesearch.hpp 11-14, 36, 40. *)
Inductive ls_kind := Qline | Btsearch.

Section LS.
  Context (A : arith) (St P E : Type).
  Context (getF : St -> num A).
  Context (G : num A -> St -> (P + E) * St).

  Notation mem := (lsmem (num A) St P).

  (** One call [G(t)]. *)
  Definition callG (t : num A) (m : mem) : (outcome E P) * mem :=
    match G t (fst_ m) with
    | (inl p, s') => (Ret p, MkMem s' (frestart m) ((t, Some p, getF s') :: evals m))
    | (inr e, s') => (Throw (OtherExn e), MkMem s' (frestart m) ((t, None, getF s') :: evals m))
    end.

  (** line_search::bt_search, linesearch.hpp 63-85, the loop [while (t > 1e-8)]. *)
  Fixpoint bt_loop (fuel : nat) (tau F0 t : num A) (m : mem) {struct fuel}
    : outcome E P * mem :=
    if agtb A t (alit A 1 100000000) then
      match fuel with
      | O => (NoFuel, m)
      | S fuel' =>
        match callG t m with
        | (Ret p, m') =>
          let Fp := getF (fst_ m') in
          if altb A Fp F0
          then (Ret p, MkMem (fst_ m') false (evals m'))        (* force_restart = false *)
          else bt_loop fuel' tau F0 (amul A t tau) m'           (* t *= tau *)
        | r => r
        end
      end
    else if frestart m then (Throw DescentError, m)             (* 79-80 *)
    else callG (alit A 0 1) (MkMem (fst_ m) true (evals m)).    (* 82-83: G(0) *)

  (** line_search::bt_search, linesearch.hpp 55-86. *)
  Definition bt_search (fuel : nat) (t_trial tau F0 : num A) (m : mem) : outcome E P * mem :=
    if ageb A tau (alit A 1 1) then (Throw RuntimeError, m)
    else bt_loop fuel tau F0 t_trial m.

  (** a = (F1 - b * tsearch - c) / (tsearch * tsearch), linesearch.hpp 119. *)
  Definition q_a (F0 slope ts F1 : num A) : num A :=
    adiv A (asub A (asub A F1 (amul A slope ts)) F0) (amul A ts ts).

  (** t_min = -b / (2 * a), linesearch.hpp 121. *)
  Definition q_tmin (slope a : num A) : num A :=
    adiv A (aopp A slope) (amul A (alit A 2 1) a).

  (** The loop of qline, linesearch.hpp 111-130; returns the final t_min. *)
  Fixpoint q_loop (fuel : nat) (F0 slope ts : num A) (m : mem) {struct fuel}
    : outcome E (num A) * mem :=
    match fuel with
    | O => (NoFuel, m)
    | S fuel' =>
      match callG ts m with
      | (Ret _, m') =>
        let F1 := getF (fst_ m') in
        let a := q_a F0 slope ts F1 in
        let t_min := q_tmin slope a in
        if altb A a (alit A 0 1)
        then q_loop fuel' F0 slope (amul A ts (alit A 5 1)) m'  (* tsearch *= 5 *)
        else (Ret t_min, m')
      | (Throw e, m') => (Throw e, m')
      | (UB, m') => (UB, m')
      | (NoFuel, m') => (NoFuel, m')
      end
    end.

  (** line_search::qline, linesearch.hpp 93-154.  F_pred (132) only feeds the log. *)
  Definition qline (fuel : nat) (t_trial slope : num A) (m : mem) : outcome E P * mem :=
    let F0 := getF (fst_ m) in
    match q_loop fuel F0 slope t_trial m with
    | (Ret t_min, m1) =>
      match callG t_min m1 with
      | (Ret p, m2) =>
        let F_min := getF (fst_ m2) in
        if agtb A F_min F0 then (Throw StepError, m2)
        else (Ret p, MkMem (fst_ m2) false (evals m2))          (* force_restart = false *)
      | r => r
      end
    | (Throw e, m1) => (Throw e, m1)
    | (UB, m1) => (UB, m1)
    | (NoFuel, m1) => (NoFuel, m1)
    end.

  (** line_search::operator(), linesearch.hpp 27-43.  [fuelq] and [fuelb] bound the loops of
      qline and bt_search.  Callbacks are assumed not to throw StepError themselves. *)
  Definition line_search (fuelq fuelb : nat) (t_trial tau slope : num A) (m : mem)
    : outcome E (P * ls_kind) * mem :=
    if agtb A slope (alit A 0 1) then (Throw SlopeError, m)
    else
      let F0 := getF (fst_ m) in
      match qline fuelq t_trial slope m with
      | (Ret p, m') => (Ret (p, Qline), m')
      | (Throw StepError, m') =>
        match bt_search fuelb t_trial tau F0 m' with
        | (Ret p, m'') => (Ret (p, Btsearch), m'')
        | (Throw e, m'') => (Throw e, m'')
        | (UB, m'') => (UB, m'')
        | (NoFuel, m'') => (NoFuel, m'')
        end
      | (Throw e, m') => (Throw e, m')
      | (UB, m') => (UB, m')
      | (NoFuel, m') => (NoFuel, m')
      end.
End LS.
