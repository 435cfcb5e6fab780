(** The smearing functions of src/smearing.hpp over the reals.

    Simplification: [double] arithmetic, std::exp, std::log, std::sqrt, std::erf, std::erfc and
    std::pow are exact; constants::pi is the number pi. *)
From Coq Require Import Reals Lra ZArith List Bool.
From Verif Require Import Arith Erf MVector Containers Newton Occupation.
Import ListNotations.
Local Open Scope R_scope.

Definition sq2 : R := sqrt 2.
Definition sqpi : R := sqrt PI.

(** ** fermi_dirac *)
(** fermi_dirac::fn, smearing.hpp 119-128 *)
Definition fd_fn (x mo : R) : R :=
  if Rltb x (-35) then 0 else if Rltb 40 x then mo else mo - mo / (1 + exp x).
(** fermi_dirac::delta, 130-140 *)
Definition fd_delta (x mo : R) : R :=
  if Rltb 35 (Rabs x) then 0 else
  let denom := exp (- x / 2) + exp (x / 2) in mo / (denom * denom).
(** fermi_dirac::dxdelta, 142-149 *)
Definition fd_dxdelta (x mo : R) : R :=
  if Rltb 40 (Rabs x) then 0 else
  let expx := exp x in - mo * (expx * (expx - 1)) / (1 + expx) ^ 3.
(** fermi_dirac::entropy, 152-159 *)
Definition fd_entropy (x mo : R) : R :=
  if Rltb 40 (Rabs x) then 0 else
  let expx := exp x in mo * (ln (1 + expx) - expx * x / (1 + expx)).

(** ** gaussian_spline *)
(** gaussian_spline::fn, 165-175 *)
Definition gs_fn (x mo : R) : R :=
  if Rltb 8 x then mo else if Rltb x (-8) then 0 else
  if Rleb x 0 then mo / 2 * exp (x * (sq2 - x)) else mo * (1 - / 2 * exp (- x * (sq2 + x))).
(** gaussian_spline::delta, 177-186 *)
Definition gs_delta (x mo : R) : R :=
  if Rltb 7 (Rabs x) then 0 else
  if Rleb x 0 then mo * / 2 * exp ((sq2 - x) * x) * (sq2 - 2 * x)
  else mo * / 2 * exp (- x * (sq2 + x)) * (sq2 + 2 * x).
(** gaussian_spline::entropy, 188-202 (mo is not used) *)
Definition gs_entropy (x mo : R) : R :=
  if Rltb 7 (Rabs x) then 0 else
  let sqrte := exp (/ 2) in
  if Rltb 0 x then / 4 * (2 * exp (- x * (sq2 + x)) * x + sqrte * sqpi * erfc (1 / sq2 + x))
  else / 4 * (- 2 * exp (x * (sq2 - x)) * x + sqrte * sqpi * erfc (1 / sq2 - x)).
(** gaussian_spline::dxdelta, 204-215 *)
Definition gs_dxdelta (x mo : R) : R :=
  if Rltb 8 x || Rltb x (-8) then 0 else
  if Rleb x 0 then - 2 * mo * exp ((sq2 - x) * x) * (sq2 - x)
  else - 2 * mo * exp (- x * (sq2 + x)) * x * (sq2 + x).

(** ** cold_smearing *)
(** cold_smearing::fn, 221-229 *)
Definition cold_fn (x mo : R) : R :=
  if Rltb 8 x then mo else if Rltb x (-8) then 0 else
  mo * (exp (- / 2 + (sq2 - x) * x) / sq2 / sqpi + / 2 * erfc (1 / sq2 - x)).
(** cold_smearing::delta, 231-240 *)
Definition cold_delta (x mo : R) : R :=
  if Rltb x (-8) then 0 else if Rltb 10 x then 0 else
  let z := x - 1 / sq2 in mo * exp (- z * z) * (2 - sq2 * x) / sqpi.
(** cold_smearing::dxdelta, 242-250 *)
Definition cold_dxdelta (x mo : R) : R :=
  if Rltb x (-8) then 0 else if Rltb 10 x then 0 else
  let z := x - 1 / sq2 in mo * exp (- z * z) * (sq2 - 6 * x + 2 * sq2 * x * x) / sqpi.
(** cold_smearing::entropy, 252-260 *)
Definition cold_entropy (x mo : R) : R :=
  if Rltb x (-8) then 0 else if Rltb 10 x then 0 else
  let z := x - 1 / sq2 in mo * exp (- z * z) * (1 - sq2 * x) / 2 / sqpi.

(** ** methfessel_paxton_smearing *)
(** methfessel_paxton_smearing::fn, 266-271 *)
Definition mp_fn (x mo : R) : R := mo / 2 * (1 + exp (- (x * x)) * x / sqpi + erf x).
(** methfessel_paxton_smearing::delta, 273-278 *)
Definition mp_delta (x mo : R) : R := mo * exp (- (x * x)) * (1 + / 4 * (2 - 4 * (x * x))) / sqpi.
(** methfessel_paxton_smearing::dxdelta, 280-284 *)
Definition mp_dxdelta (x mo : R) : R := mo * exp (- x * x) * (2 * x * x - 5) / sqpi.
(** methfessel_paxton_smearing::entropy, 286-291 *)
Definition mp_entropy (x mo : R) : R := mo * exp (- (x * x)) * (1 - 2 * (x * x)) / 4 / sqpi.

(** ** gauss_smearing *)
(** gauss_smearing::fn, 296-299 *)
Definition gauss_fn (x mo : R) : R := mo / 2 * (1 + erf x).
(** gauss_smearing::delta, 301-304 *)
Definition gauss_delta (x mo : R) : R := mo * exp (- x * x) / sqpi.
(** gauss_smearing::entropy, 306-309 *)
Definition gauss_entropy (x mo : R) : R := mo / 2 * exp (- x * x) / sqpi.
(** gauss_smearing::dxdelta, 311-314 *)
Definition gauss_dxdelta (x mo : R) : R := - 2 * mo * exp (- x * x) * x / sqpi.

(** The classes; cold and Methfessel-Paxton derive from non_monotonous (219, 264). *)
Definition fermi_dirac : smear Rarith := MkSmear Rarith fd_fn fd_delta fd_dxdelta fd_entropy false.
Definition gaussian_spline : smear Rarith := MkSmear Rarith gs_fn gs_delta gs_dxdelta gs_entropy false.
Definition cold_smearing : smear Rarith := MkSmear Rarith cold_fn cold_delta cold_dxdelta cold_entropy true.
Definition methfessel_paxton : smear Rarith := MkSmear Rarith mp_fn mp_delta mp_dxdelta mp_entropy true.
Definition gauss_smearing : smear Rarith := MkSmear Rarith gauss_fn gauss_delta gauss_dxdelta gauss_entropy false.

(** enum smearing_type, include/interface.hpp 25-32; the switch in Smearing::fn and Smearing::entropy,
    smearing.hpp 599-628, 681-739.  Any other integer value of the enum raises. *)
Inductive smearing_type := FERMI_DIRAC | GAUSSIAN_SPLINE | GAUSS | METHFESSEL_PAXTON | COLD.
Definition smearing_class (s : smearing_type) : smear Rarith :=
  match s with
  | FERMI_DIRAC => fermi_dirac
  | GAUSSIAN_SPLINE => gaussian_spline
  | GAUSS => gauss_smearing
  | METHFESSEL_PAXTON => methfessel_paxton
  | COLD => cold_smearing
  end.

(** ** Smearing *)
Section Sm.
  Context (A : arith).
  Notation N := (num A).

  (** Smearing::Smearing, smearing.hpp 550-565: T == 0 raises.  [a == b] is [a <= b && b <= a]
      (false for NaN).  The value returned is kT. *)
  Definition smearing_ctor (T : N) : outcome newton_exn N :=
    if aleb A T (alit A 0 1) && aleb A (alit A 0 1) T then Throw RuntimeError else Ret (amul A T (kb A)).

  (** Smearing::entropy, smearing.hpp 675-740, executed by every rank of the k-point communicator (size [n],
      reduction [red]): "-1.0 * sum(wk * tapply(sum_entropy, en))".  [world]: en and wk of each rank. *)
  Definition entropy_term (S : smear A) (T occ mu : N) (en : mvec (list N)) (wk : mvec N) : outcome std_exn (mvec N) :=
    match tapply (fun e (_ : list unit) => sum_func A (sentropy S) e mu T occ) en [] with
    | Ret ent => tapply (fun w es => amul A w (hd (alit A 0 1) es)) wk [ent]
    | Throw e => Throw e | UB => UB | NoFuel => NoFuel
    end.
  (** the products of all ranks, if no rank raises *)
  Fixpoint entropy_terms (S : smear A) (T occ mu : N) (world : list (mvec (list N) * mvec N)) : option (list (smap N)) :=
    match world with
    | [] => Some []
    | (en, wk) :: r => match entropy_term S T occ mu en wk, entropy_terms S T occ mu r with
                       | Ret t, Some ts => Some (mdata t :: ts)
                       | _, _ => None
                       end
    end.
  (** None: some rank raised std::out_of_range (the others wait in the reduction).  The communicator is
      that of wk (the same on all ranks). *)
  Definition smearing_entropy (n : nat) (red : list N -> N) (S : smear A) (T occ mu : N) (world : list (mvec (list N) * mvec N))
    : option (list (outcome std_exn N)) :=
    match entropy_terms S T occ mu world with
    | Some ts => Some (map (fun o => match o with Ret s => Ret (amul A (alit A (-1) 1) s) | o => o end)
                        (dsum n A red CNull (match world with [] => CSelf | r :: _ => mcomm (snd r) end) ts))
    | None => None
    end.

  (** FreeEnergy::compute, src/free_energy.hpp 88-99: entropy = kb * T * S, F = etot + entropy. *)
  Definition free_energy_of (T etot S : N) : N := aadd A etot (amul A (amul A (kb A) T) S).
End Sm.
