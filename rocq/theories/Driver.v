(** Model of the CG driver nlcg_us, src/nlcglib.cpp 214-442.

    The numerical parts are oracles collected in a record [problem]:
    - [Stt]    state of the free energy functional (class FreeEnergy and SIRIUS behind it);
    - [Dat]    the loop variables (X, eta, ek, fn, Hx, mu, z_x, z_eta, ul);
    - [Pnt]    the tuple (ek, ul, x, mu) returned by a line search point;
    - [setup]  nlcglib.cpp 228-300: everything up to the first steepest descent direction;
    - [curve]  the lambda g, 345-355 (geodesic, smearing.fn, free_energy.compute);
    - [accept] the updates 385-391 after a line search;
    - [steepest] dd.restarted, 396/419;  [conj] dd.conjugated, 408 (first argument: fr).
    Every oracle may throw (right summand).  Directions do not change the functional's state
    (they only apply S, the preconditioner and getters).  Logger output and timers are left out;
    the JSON records, line searches and direction computations are kept as events. *)
From Coq Require Import ZArith List Bool.
From Verif Require Import Arith LineSearch.
Import ListNotations.
Local Open Scope Z_scope.

Record problem (A : arith) := MkProblem {
  Stt : Type; Dat : Type; Pnt : Type; Exc : Type;
  getF  : Stt -> num A;      (* FreeEnergy::get_F *)
  getS  : Stt -> num A;      (* FreeEnergy::get_entropy *)
  getKS : Stt -> num A;      (* FreeEnergy::ks_energy *)
  getMu : Stt -> num A;      (* FreeEnergy::get_chemical_potential *)
  setup    : Stt -> ((Dat * num A) + Exc) * Stt;
  curve    : Dat -> num A -> Stt -> (Pnt + Exc) * Stt;
  accept   : Dat -> Pnt -> Stt -> Dat;
  steepest : Dat -> Stt -> (num A * Dat) + Exc;
  conj     : num A -> Dat -> Stt -> (num A * num A * Dat) + Exc
}.
Arguments Stt {A}. Arguments Dat {A}. Arguments Pnt {A}. Arguments Exc {A}.
Arguments getF {A}. Arguments getS {A}. Arguments getKS {A}. Arguments getMu {A}.
Arguments setup {A}. Arguments curve {A}. Arguments accept {A}. Arguments steepest {A}. Arguments conj {A}.

(** struct nlcg_info, include/interface.hpp 35-42; [None] is an indeterminate value
    (nlcglib.cpp 227: "nlcg_info info;" leaves all but [converged] uninitialised). *)
Record nlcg_info (N : Type) := MkInfo {
  iF : option N; iS : option N; iTol : option N; iIter : option Z; iConv : bool
}.
Arguments MkInfo {N}. Arguments iF {N}. Arguments iS {N}. Arguments iTol {N}.
Arguments iIter {N}. Arguments iConv {N}.

Definition info_uninit {N} : nlcg_info N := MkInfo None None None None false.

(** How one line search ended, as seen by the driver. *)
Inductive ls_end :=
| LsOk (k : ls_kind)     (* returned a point, no restart requested *)
| LsBack                 (* returned the t = 0 point and requested a restart *)
| LsDescent              (* DescentError *)
| LsSlope                (* SlopeError *)
| LsOther.               (* another exception, or unfinished *)

(** Observable events of a run, in chronological order. *)
Inductive event (N : Type) :=
| EvJson (step : Z) (F S KS mu slope : N) (bands : bool)  (* cg_write_step_json, 97-140 *)
| EvLs (steps : list N) (r : ls_end)                       (* evaluated steps, oldest first *)
| EvSteepest (slope : N)
| EvConj (fr fr' slope : N)     (* Fletcher-Reeves value passed in and returned, slope *).
Arguments EvJson {N}. Arguments EvLs {N}. Arguments EvSteepest {N}. Arguments EvConj {N}.

Section Driver.
  Context (A : arith) (Pb : problem A).
  Notation N := (num A).
  (** maxiter, tol, tau, restart as passed to nlcg_us; fuel for the two line search loops. *)
  Context (maxiter : Z) (tol tau : N) (restart : Z) (fq fb : nat).

  (** Loop state at the head of an iteration. *)
  Record dstate := MkD {
    d_st : Stt Pb; d_dat : Dat Pb; d_slope : N; d_fr : N; d_force : bool; d_info : nlcg_info N
  }.

  (** print_info, nlcglib.cpp 70-95, called with slope_eta = -1. *)
  Definition print_info (s : Stt Pb) (slope : N) (step : Z) : nlcg_info N :=
    MkInfo (Some (getF Pb s)) (Some (getS Pb s)) (Some (aadd A slope (alit A (-1) 1))) (Some step) false.

  (** cg_write_step_json, nlcglib.cpp 97-140: band data if step % 10 == 0. *)
  Definition json_event (s : Stt Pb) (slope : N) (step : Z) : event N :=
    EvJson step (getF Pb s) (getS Pb s) (getKS Pb s) (getMu Pb s) slope (Z.rem step 10 =? 0).

  Definition ls_result (o : outcome (Exc Pb) (Pnt Pb * ls_kind)) (force : bool) : ls_end :=
    match o with
    | Ret (_, k) => if force then LsBack else LsOk k
    | Throw DescentError => LsDescent
    | Throw SlopeError => LsSlope
    | _ => LsOther
    end.

  Definition ls_steps (m : lsmem N (Stt Pb) (Pnt Pb)) : list N :=
    rev (map (fun e => fst (fst e)) (evals m)).

  (** Direction update at the end of an iteration, nlcglib.cpp 393-430. *)
  Definition next_direction (i : Z) (force : bool) (fr : N) (d : Dat Pb) (s : Stt Pb)
    : (N * N * Dat Pb * bool) + Exc Pb :=
    (* result: slope, fr, data, force_restart *)
    if (Z.rem i restart =? 0) || force then
      match steepest Pb d s with
      | inl (sl, d') => inl (sl, sl, d', force)
      | inr e => inr e
      end
    else
      match conj Pb fr d s with
      | inl (fr', sl, d') =>
        if agtb A sl (alit A 0 1) then
          match steepest Pb d' s with
          | inl (sl', d'') => inl (sl', sl', d'', true)
          | inr e => inr e
          end
        else inl (sl, fr', d', force)
      | inr e => inr e
      end.

  (** The events of [next_direction]. *)
  Definition direction_events (i : Z) (force : bool) (fr : N) (d : Dat Pb) (s : Stt Pb)
    : list (event N) :=
    if (Z.rem i restart =? 0) || force then
      match steepest Pb d s with inl (sl, _) => [EvSteepest sl] | inr _ => [] end
    else
      match conj Pb fr d s with
      | inl (fr', sl, d') =>
        EvConj fr fr' sl ::
        (if agtb A sl (alit A 0 1) then
           match steepest Pb d' s with inl (sl', _) => [EvSteepest sl'] | inr _ => [] end
         else [])
      | inr _ => []
      end.

  (** The for loop, nlcglib.cpp 308-441; [n] = iterations left, [i] = cg_iter. *)
  Fixpoint cg_loop (n : nat) (i : Z) (s : dstate) {struct n}
    : outcome (Exc Pb) (nlcg_info N) * Stt Pb * list (event N) :=
    match n with
    | O => (Ret (d_info s), d_st s, [])
    | S n' =>
      if altb A (aabs A (d_slope s)) tol then                        (* 309 *)
        let info := print_info (d_st s) (d_slope s) i in
        (Ret (MkInfo (iF info) (iS info) (iTol info) (iIter info) true),
         d_st s, [json_event (d_st s) (d_slope s) i])
      else
        let ev := json_event (d_st s) (d_slope s) i in                (* 357 *)
        let info := print_info (d_st s) (d_slope s) i in              (* 371 *)
        match line_search A (Stt Pb) (Pnt Pb) (Exc Pb) (getF Pb) (curve Pb (d_dat s)) fq fb
                (alit A 1 5) tau (d_slope s) (MkMem (d_st s) (d_force s) []) with
        | (o, m) =>
          let evl := EvLs (ls_steps m) (ls_result o (frestart m)) in
          match o with
          | Ret (p, _) =>
            if restart =? 0 then (UB, fst_ m, [ev; evl])              (* cg_iter % 0, 393 *)
            else
              let d1 := accept Pb (d_dat s) p (fst_ m) in
              let evd := direction_events i (frestart m) (d_fr s) d1 (fst_ m) in
              match next_direction i (frestart m) (d_fr s) d1 (fst_ m) with
              | inl (sl, fr, d2, force) =>
                match cg_loop n' (i + 1) (MkD (fst_ m) d2 sl fr force info) with
                | (r, st, evs) => (r, st, ev :: evl :: evd ++ evs)
                end
              | inr e => (Throw (OtherExn e), fst_ m, ev :: evl :: evd)
              end
          | Throw DescentError => (Ret info, fst_ m, [ev; evl])       (* 432-435 *)
          | Throw SlopeError => (Ret info, fst_ m, [ev; evl])         (* 436-439 *)
          | Throw e => (Throw e, fst_ m, [ev; evl])
          | UB => (UB, fst_ m, [ev; evl])
          | NoFuel => (NoFuel, fst_ m, [ev; evl])
          end
        end
    end.

  (** nlcg_us, nlcglib.cpp 214-442. *)
  Definition nlcg_us (s0 : Stt Pb) : outcome (Exc Pb) (nlcg_info N) * Stt Pb * list (event N) :=
    match setup Pb s0 with
    | (inl (d, slope), s) =>
      match cg_loop (Z.to_nat maxiter) 0 (MkD s d slope slope false info_uninit) with
      | (r, st, evs) => (r, st, EvSteepest slope :: evs)
      end
    | (inr e, s) => (Throw (OtherExn e), s, [])
    end.
End Driver.
Arguments MkD {A Pb}. Arguments d_st {A Pb}. Arguments d_dat {A Pb}. Arguments d_slope {A Pb}.
Arguments d_fr {A Pb}. Arguments d_force {A Pb}. Arguments d_info {A Pb}.
