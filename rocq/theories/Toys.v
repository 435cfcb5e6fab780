(** Concrete problems in double precision, used for examples and witnesses. *)
From Coq Require Import ZArith List Bool Reals.
From Flocq Require Import IEEE754.BinarySingleNaN.
From Verif Require Import Arith LineSearch Float64 Driver.
Import ListNotations.
Local Open Scope Z_scope.

Definition f0 : f64 := flit 0 1.
Definition f1 : f64 := flit 1 1.

(** F(x) = x^2 on the line; directions as in the library (steepest descent -F', Fletcher-Reeves). *)
Definition parabola : problem F64 :=
  MkProblem F64 f64 (f64 * f64) f64 unit
    (fun x => fmul x x) (fun _ => f0) (fun x => fmul x x) (fun _ => f0)
    (fun x => let g := fmul (flit 2 1) x in (inl ((x, Bopp g), fmul g (Bopp g)), x))
    (fun d t _ => let x := fadd (fst d) (fmul t (snd d)) in (inl x, x))
    (fun d p _ => (p, snd d))
    (fun d _ => let g := fmul (flit 2 1) (fst d) in inl (fmul g (Bopp g), (fst d, Bopp g)))
    (fun fr d _ => let g := fmul (flit 2 1) (fst d) in
                   let fr' := fmul g (Bopp g) in let gamma := fdiv fr' fr in
                   inl (fr', fadd fr' (fmul gamma (fmul g (snd d))), (fst d, fadd (Bopp g) (fmul gamma (snd d))))).

(** F(x) = x^4: takes several iterations. *)
Definition quartic : problem F64 :=
  let F x := fmul (fmul x x) (fmul x x) in
  let dF x := fmul (flit 4 1) (fmul x (fmul x x)) in
  MkProblem F64 f64 (f64 * f64) f64 unit
    F (fun _ => f0) F (fun _ => f0)
    (fun x => let g := dF x in (inl ((x, Bopp g), fmul g (Bopp g)), x))
    (fun d t _ => let x := fadd (fst d) (fmul t (snd d)) in (inl x, x))
    (fun d p _ => (p, snd d))
    (fun d _ => let g := dF (fst d) in inl (fmul g (Bopp g), (fst d, Bopp g)))
    (fun fr d _ => let g := dF (fst d) in
                   let fr' := fmul g (Bopp g) in let gamma := fdiv fr' fr in
                   inl (fr', fadd fr' (fmul gamma (fmul g (snd d))), (fst d, fadd (Bopp g) (fmul gamma (snd d))))).

(** Every evaluation reports an energy larger by one; the slope is [sl] for ever. *)
Definition climbing (sl slc : f64) : problem F64 :=
  MkProblem F64 f64 unit f64 unit
    (fun x => x) (fun _ => f0) (fun x => x) (fun _ => f0)
    (fun x => (inl (tt, sl), x))
    (fun _ t x => (inl t, fadd x f1))
    (fun _ _ _ => tt)
    (fun _ _ => inl (sl, tt))
    (fun fr _ _ => inl (fr, slc, tt)).

Definition run_parabola (maxiter restart : Z) := nlcg_us F64 parabola maxiter (flit 1 1000) (flit 1 10) restart 223 20 f1.
Definition run_quartic (maxiter restart : Z) := nlcg_us F64 quartic maxiter (flit 1 1000) (flit 1 10) restart 223 20 f1.
Definition run_climbing (sl : f64) (maxiter restart : Z) :=
  nlcg_us F64 (climbing sl (flit 1 1)) maxiter (flit 1 1000) (flit 1 10) restart 223 20 f0.

(** Reading results of runs. *)
Definition kind_of {E A} (r : outcome E A) : Z :=
  match r with Ret _ => 0 | Throw RuntimeError => 1 | Throw _ => 2 | UB => 3 | NoFuel => 4 end.
Definition conv_iter {E N} (r : outcome E (nlcg_info N)) : option (bool * option Z) :=
  match r with Ret i => Some (iConv i, iIter i) | _ => None end.
Definition event_code {N} (e : event N) : Z :=
  match e with
  | EvJson _ _ _ _ _ _ _ => 0
  | EvLs _ (LsOk Qline) => 1 | EvLs _ (LsOk Btsearch) => 2 | EvLs _ LsBack => 3
  | EvLs _ LsDescent => 4 | EvLs _ LsSlope => 5 | EvLs _ LsOther => 6
  | EvSteepest _ => 7 | EvConj _ _ _ => 8
  end.

(** A rank-local tag next to the data: two ranks whose local data differ. *)
Definition parabola_tag (k : Z) : problem F64 :=
  MkProblem F64 f64 (f64 * f64 * Z) f64 unit
    (getF parabola) (getS parabola) (getKS parabola) (getMu parabola)
    (fun x => match setup parabola x with (inl (d, sl), s) => (inl ((d, k), sl), s) | (inr e, s) => (inr e, s) end)
    (fun d t s => curve parabola (fst d) t s)
    (fun d p s => (accept parabola (fst d) p s, k))
    (fun d s => match steepest parabola (fst d) s with inl (sl, d') => inl (sl, (d', k)) | inr e => inr e end)
    (fun fr d s => match conj parabola fr (fst d) s with inl (a, d') => inl (a, (d', k)) | inr e => inr e end).

(** Exact arithmetic version of the parabola. *)
Definition parabolaR : problem Rarith :=
  let F (x : R) := (x * x)%R in
  MkProblem Rarith R (R * R) R unit
    F (fun _ => 0%R) F (fun _ => 0%R)
    (fun x => (inl ((x, (- (2 * x))%R), (- (2 * x) * (2 * x))%R), x))
    (fun d t _ => let x := (fst d + t * snd d)%R in (inl x, x))
    (fun d p _ => (p, snd d))
    (fun d _ => inl ((- (2 * fst d) * (2 * fst d))%R, (fst d, (- (2 * fst d))%R)))
    (fun fr d _ => inl ((- (2 * fst d) * (2 * fst d))%R, (- (2 * fst d) * (2 * fst d))%R, (fst d, (- (2 * fst d))%R))).
