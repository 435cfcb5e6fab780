(** Model of the API entry points, src/nlcglib.cpp 445-656 and include/nlcglib.hpp. *)
From Coq Require Import ZArith List Bool.
Import ListNotations.

(** enum class smearing_type, include/interface.hpp 25-32.  A C++ enum class object can hold
    any value of the underlying type, so the API takes the integer. *)
Inductive smearing_type := FERMI_DIRAC | GAUSSIAN_SPLINE | GAUSS | METHFESSEL_PAXTON | COLD.
Definition smearing_of_enum (z : Z) : option smearing_type :=
  match z with
  | 0%Z => Some FERMI_DIRAC | 1%Z => Some GAUSSIAN_SPLINE | 2%Z => Some GAUSS
  | 3%Z => Some METHFESSEL_PAXTON | 4%Z => Some COLD | _ => None
  end.

Inductive space := HostSpace | CudaSpace | HIPSpace.
(** Build configuration: __NLCGLIB__CUDA / __NLCGLIB__ROCM. *)
Inductive gpu := NoGpu | Cuda | Rocm.

(** A request to the minimiser template nlcg_us<space, smearing> by parameter name. *)
Record request (N : Type) := MkReq {
  q_space : space; q_smearing : smearing_type;
  q_T : N; q_maxiter : Z; q_tol : N; q_kappa : N; q_tau : N; q_restart : Z
}.
Arguments MkReq {N}.
Arguments q_space {N}. Arguments q_smearing {N}. Arguments q_T {N}. Arguments q_maxiter {N}.
Arguments q_tol {N}. Arguments q_kappa {N}. Arguments q_tau {N}. Arguments q_restart {N}.

(** Result of a dispatch: the minimiser is started, or std::runtime_error is thrown. *)
Inductive dispatched (N : Type) := Run (q : request N) | Raise.
Arguments Run {N}. Arguments Raise {N}.

Section Api.
  Context {N : Type}.

  (** nlcg_us<xspace, smearing_t>(energy, precond, overlap, T, maxiter, tol, kappa, tau, restart),
      nlcglib.cpp 214-224 (parameter order only; the three handles are passed on unchanged). *)
  Definition nlcg_us_call (sp : space) (sm : smearing_type)
    (T : N) (maxiter : Z) (tol kappa tau : N) (restart : Z) : dispatched N :=
    Run (MkReq sp sm T maxiter tol kappa tau restart).

  (** nlcg_us_cpu, nlcglib.cpp 445-486. *)
  Definition nlcg_us_cpu (smearing : Z) (temp tol kappa tau : N) (maxiter restart : Z) : dispatched N :=
    match smearing_of_enum smearing with
    | Some FERMI_DIRAC => nlcg_us_call HostSpace FERMI_DIRAC temp maxiter tol kappa tau restart
    | Some GAUSSIAN_SPLINE => nlcg_us_call HostSpace GAUSSIAN_SPLINE temp maxiter tol kappa tau restart
    | Some GAUSS => nlcg_us_call HostSpace GAUSS temp maxiter tol kappa tau restart
    | Some METHFESSEL_PAXTON => nlcg_us_call HostSpace METHFESSEL_PAXTON temp maxiter tol kappa tau restart
    | Some COLD => nlcg_us_call HostSpace COLD temp maxiter tol kappa tau restart
    | None => Raise
    end.

  (** nlcg_us_device, nlcglib.cpp 488-566. *)
  Definition nlcg_us_device (g : gpu) (smearing : Z) (temp tol kappa tau : N) (maxiter restart : Z)
    : dispatched N :=
    match g with
    | Cuda =>
      match smearing_of_enum smearing with
      | Some FERMI_DIRAC => nlcg_us_call CudaSpace FERMI_DIRAC temp maxiter tol kappa tau restart
      | Some GAUSSIAN_SPLINE => nlcg_us_call CudaSpace GAUSSIAN_SPLINE temp maxiter tol kappa tau restart
      | Some GAUSS => nlcg_us_call CudaSpace GAUSS temp maxiter tol kappa tau restart
      | Some METHFESSEL_PAXTON => nlcg_us_call CudaSpace METHFESSEL_PAXTON temp maxiter tol kappa tau restart
      | Some COLD => nlcg_us_call CudaSpace COLD temp maxiter tol kappa tau restart
      | None => Raise
      end
    | Rocm =>
      match smearing_of_enum smearing with
      | Some FERMI_DIRAC => nlcg_us_call HIPSpace FERMI_DIRAC temp maxiter tol kappa tau restart
      | Some GAUSSIAN_SPLINE => nlcg_us_call HIPSpace GAUSSIAN_SPLINE temp maxiter tol kappa tau restart
      | Some GAUSS => nlcg_us_call HIPSpace GAUSS temp maxiter tol kappa tau restart
      | Some METHFESSEL_PAXTON => nlcg_us_call HIPSpace METHFESSEL_PAXTON temp maxiter tol kappa tau restart
      | Some COLD => nlcg_us_call HIPSpace COLD temp maxiter tol kappa tau restart
      | None => Raise
      end
    | NoGpu => Raise
    end.

  (** nlcg_mvp2_cpu / _device / _cpu_device / _device_cpu, nlcglib.cpp 568-619. *)
  Definition nlcg_mvp2_cpu (smearing : Z) (temp tol kappa tau : N) (maxiter restart : Z) : dispatched N := Raise.
  Definition nlcg_mvp2_device (smearing : Z) (temp tol kappa tau : N) (maxiter restart : Z) : dispatched N := Raise.
  Definition nlcg_mvp2_cpu_device (smearing : Z) (temp tol kappa tau : N) (maxiter restart : Z) : dispatched N := Raise.
  Definition nlcg_mvp2_device_cpu (smearing : Z) (temp tol kappa tau : N) (maxiter restart : Z) : dispatched N := Raise.

  (** nlcg_us_device_cpu, nlcglib.cpp 622-638. *)
  Definition nlcg_us_device_cpu (smear : Z) (T tol kappa tau : N) (maxiter restart : Z) : dispatched N :=
    nlcg_us_cpu smear T tol kappa tau maxiter restart.

  (** nlcg_us_cpu_device, nlcglib.cpp 640-656. *)
  Definition nlcg_us_cpu_device (g : gpu) (smear : Z) (T tol kappa tau : N) (maxiter restart : Z) : dispatched N :=
    nlcg_us_device g smear T tol kappa tau maxiter restart.

  (** ** Specification *)

  (** What the documentation of the API promises: the enum names the smearing and each argument
      reaches the parameter of the same name. *)
  Definition wanted (sp : space) (smearing : Z) (temp tol kappa tau : N) (maxiter restart : Z)
    (d : dispatched N) : Prop :=
    match d with
    | Run q =>
      q_space q = sp /\ nth_error [FERMI_DIRAC; GAUSSIAN_SPLINE; GAUSS; METHFESSEL_PAXTON; COLD]
        (Z.to_nat smearing) = Some (q_smearing q) /\ (0 <= smearing <= 4)%Z /\
      q_T q = temp /\ q_tol q = tol /\ q_kappa q = kappa /\ q_tau q = tau /\
      q_maxiter q = maxiter /\ q_restart q = restart
    | Raise => ~ (0 <= smearing <= 4)%Z
    end.

  Lemma smearing_of_enum_spec z :
    match smearing_of_enum z with
    | Some s => nth_error [FERMI_DIRAC; GAUSSIAN_SPLINE; GAUSS; METHFESSEL_PAXTON; COLD] (Z.to_nat z) = Some s
                /\ (0 <= z <= 4)%Z
    | None => ~ (0 <= z <= 4)%Z
    end.
  Proof.
    destruct z as [|[[[p|p|]|[p|p|]|]|[[p|p|]|[p|p|]|]|]|p]; cbn;
      try (intros [H1 H2]; revert H1 H2; cbn; intros; try discriminate; Lia.lia);
      (split; [reflexivity|split; discriminate]).
  Qed.

  Lemma nlcg_us_cpu_wanted z temp tol kappa tau maxiter restart :
    wanted HostSpace z temp tol kappa tau maxiter restart (nlcg_us_cpu z temp tol kappa tau maxiter restart).
  Proof.
    unfold nlcg_us_cpu. pose proof (smearing_of_enum_spec z) as H.
    destruct (smearing_of_enum z) as [[]|]; cbn in *; tauto.
  Qed.

  Lemma nlcg_us_device_wanted g z temp tol kappa tau maxiter restart :
    match g with
    | NoGpu => nlcg_us_device g z temp tol kappa tau maxiter restart = Raise
    | Cuda => wanted CudaSpace z temp tol kappa tau maxiter restart (nlcg_us_device g z temp tol kappa tau maxiter restart)
    | Rocm => wanted HIPSpace z temp tol kappa tau maxiter restart (nlcg_us_device g z temp tol kappa tau maxiter restart)
    end.
  Proof.
    unfold nlcg_us_device. pose proof (smearing_of_enum_spec z) as H.
    destruct g; [reflexivity| |]; destruct (smearing_of_enum z) as [[]|]; cbn in *; tauto.
  Qed.
End Api.
