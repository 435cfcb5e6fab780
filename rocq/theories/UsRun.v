(** The whole ultra-soft run: the parts of nlcg_us (src/nlcglib.cpp 214-442) that Driver.v takes as oracles,
    built from the models of the trial points (Geodesic.v), occupations (Occupation.v), entropy (SmearingUse.v),
    descent directions (Descent.v) and of class FreeEnergy (src/free_energy.hpp).

    Exact real / complex arithmetic.  k-points are identified by their key (k, spin); data of all k-points is a
    function of the key, [ranks] lists the keys held by each MPI rank.  Still oracles: the linear solver, the
    eigensolver and the energy functional of the caller (EnergyBase, include/interface.hpp 44-65).  Of the
    functional it is assumed that compute() leaves the stored wave functions and occupations alone and that
    get_fn returns what set_fn stored.  Host/device copies are the identity.  The first free_energy.compute()
    and everything else is kept in the order of the code; timers and logger are left out. *)
From Coq Require Import Reals ZArith List Bool Arith.
From Coquelicot Require Import Complex.
From Verif Require Import Arith LinAlg MVector Mpi Containers ChemPot Newton Occupation Smearing SmearingUse Descent Geodesic LineSearch Driver.
Import ListNotations.
Local Open Scope R_scope.

(** Arguments of nlcg_us and what the caller provides about the system. *)
Record setting := MkSetting {
  ranks : list (list key);        (* keys of the k-points of each rank *)
  nrow : key -> nat;              (* basis functions *)
  ncol : key -> nat;              (* bands *)
  wgt : key -> R;                 (* k-point weights *)
  ovl : key -> mat;               (* overlap operator S *)
  prc : key -> mat;               (* preconditioner P *)
  smt : smearing_type;
  nel : R;                        (* electrons *)
  temp : R;                       (* T *)
  kappa_ : R;
  occ_ : R;                       (* maximal occupation *)
  mu_tol : R;                     (* Smearing::tol, smearing.hpp 589 *)
  skip_nt : bool                  (* get_skip_newton_efermi *)
}.

(** Exceptions that leave nlcg_us: eigensolver failure (std::runtime_error of eigh, lapack_cpu.hpp 23-52), no chemical
    potential found (smearing.hpp 43-46), or an exception of the caller's energy functional. *)
Inductive us_exn (Ex : Type) := EigenFail | MuFail | EnergyFail (e : Ex).
Arguments EigenFail {Ex}. Arguments MuFail {Ex}. Arguments EnergyFail {Ex}.

(** Ghost record of one trial point of one k-point: the step, the matrices handed to the Hermitian eigensolver
    and the new wave functions. *)
Record gcall := MkGcall { g_key : key; g_t : R; g_args : list mat; g_out : option mat }.

(** FreeEnergy and the EnergyBase behind it (free_energy.hpp 10-46). *)
Record ust (En : Type) := MkUst {
  s_en : En;                      (* hidden state of the caller's functional *)
  s_X : key -> mat;               (* get_C *)
  s_fn : key -> nat -> R;         (* get_fn *)
  s_HX : key -> mat;              (* get_hphi *)
  s_ek : key -> nat -> R;         (* get_ek *)
  s_etot : R;                     (* get_total_energy *)
  s_mu : R;                       (* get_chemical_potential *)
  s_S : R; s_F : R;               (* entropy, free_energy *)
  s_log : list gcall              (* ghost *)
}.
Arguments MkUst {En}. Arguments s_en {En}. Arguments s_X {En}. Arguments s_fn {En}. Arguments s_HX {En}. Arguments s_ek {En}.
Arguments s_etot {En}. Arguments s_mu {En}. Arguments s_S {En}. Arguments s_F {En}. Arguments s_log {En}.

(** Loop variables of nlcg_us, nlcglib.cpp 272-306. *)
Record udat := MkUdat {
  u_X : key -> mat; u_ek : key -> nat -> R; u_fn : key -> nat -> R; u_HX : key -> mat; u_mu : R;
  u_eta : key -> mat; u_zx : key -> mat; u_zeta : key -> mat; u_ul : key -> mat
}.
(** What a trial point returns: (ek, ul, x, mu), nlcglib.cpp 354. *)
Record upnt := MkUpnt { p_ek : key -> nat -> R; p_ul : key -> mat; p_X : key -> mat; p_mu : R }.

(** Positional results back to functions of the key. *)
Definition by_key {Y} (dflt : Y) (ids : list (list key)) (res : list (list Y)) (k : key) : Y :=
  match mfind k (combine (concat ids) (concat res)) with Some y => y | None => dflt end.

Section Us.
  Context (solve : nat -> mat -> mat -> mat) (eigh : nat -> mat -> option (mat * (nat -> R))).
  Context (En Ex : Type).
  (** EnergyBase::compute with the stored wave functions and occupations: total energy, H X, band energies. *)
  Context (ecompute : En -> (key -> mat) -> (key -> nat -> R) -> ((R * (key -> mat) * (key -> nat -> R)) + Ex) * En).
  Context (C : setting).
  Notation state := (ust En).
  Notation exn := (us_exn Ex).

  (** ** Smearing *)
  Let S : smear Rarith := smearing_class (smt C).
  Let kT : R := kb Rarith * temp C.
  (** the containers of each rank: band energies and weights *)
  Definition band_world (ek : key -> nat -> R) : list (smap (list R) * smap R) :=
    map (fun r => (map (fun k => (k, map (ek k) (seq 0 (ncol C k)))) r, map (fun k => (k, wgt C k)) r)) (ranks C).
  (** Smearing::fn, smearing.hpp 595-629: chemical potential (the same on all ranks) and occupations; [None] is
      the std::runtime_error thrown on all ranks.  Lemma us_occupation in UsCount.v: this is the multi-rank model of Occupation.v. *)
  Definition us_mu (ek : key -> nat -> R) : option R :=
    match mu_of Rarith (nel C) (temp C) (occ_ C) (mu_tol C) (skip_nt C) gauss_smearing S
            (xunion Rarith (band_world ek)) (wunion Rarith (band_world ek)) with
    | Ret mu => Some mu
    | _ => None
    end.
  Definition us_fn (ek : key -> nat -> R) (mu : R) : key -> nat -> R := fun k i => sfn S ((mu - ek k i) / kT) (occ_ C).
  (** Smearing::entropy, smearing.hpp 675-740; lemma us_entropy_all in UsCount.v: this is the multi-rank model of SmearingUse.v *)
  Definition us_entropy (ek : key -> nat -> R) (mu : R) : R :=
    - rsum (map (fun r => weighted (fun e => sentropy S ((mu - e) / kT) (occ_ C)) (fst r) (snd r)) (band_world ek)).

  (** ** class FreeEnergy *)
  (** FreeEnergy::compute(), free_energy.hpp 167-171 *)
  Definition fe_compute0 (s : state) : option Ex * state :=
    match ecompute (s_en s) (s_X s) (s_fn s) with
    | (inl (e, hx, ek), en) => (None, MkUst en (s_X s) (s_fn s) hx ek e (s_mu s) (s_S s) (s_F s) (s_log s))
    | (inr x, en) => (Some x, MkUst en (s_X s) (s_fn s) (s_HX s) (s_ek s) (s_etot s) (s_mu s) (s_S s) (s_F s) (s_log s))
    end.
  (** FreeEnergy::compute(X, fn, en, mu), free_energy.hpp 61-103 *)
  Definition fe_compute (s : state) (X : key -> mat) (fn : key -> nat -> R) (ek : key -> nat -> R) (mu : R) : option Ex * state :=
    match ecompute (s_en s) X fn with
    | (inl (e, hx, hk), en) =>
      let ent := kT * us_entropy ek mu in
      (None, MkUst en X fn hx hk e mu ent (e + ent) (s_log s))
    | (inr x, en) => (Some x, MkUst en X fn (s_HX s) (s_ek s) (s_etot s) (s_mu s) (s_S s) (s_F s) (s_log s))
    end.

  (** ** Descent directions *)
  (** data of one k-point as seen by the direction code; get_ek is read from the functional (descent_direction.hpp 99, 168) *)
  Definition kpt_of (d : udat) (s : state) (k : key) : kpt :=
    MkKpt (nrow C k) (ncol C k) (wgt C k) (ovl C k) (prc C k) (u_X d k) (u_HX d k) (u_ek d k) (u_fn d k) (s_ek s k).
  (** dd.restarted, nlcglib.cpp 297/396/418 *)
  Definition us_steepest (d : udat) (s : state) : (R * udat) + exn :=
    let (sl, z) := restarted solve (smt C) (temp C) (kappa_ C) (occ_ C) (map (map (kpt_of d s)) (ranks C)) (u_mu d) in
    let zk := by_key (mzero, mzero) (ranks C) z in
    inl (sl, MkUdat (u_X d) (u_ek d) (u_fn d) (u_HX d) (u_mu d) (u_eta d) (fun k => fst (zk k)) (fun k => snd (zk k)) (u_ul d)).
  (** dd.conjugated, nlcglib.cpp 409 *)
  Definition us_conj (fr : R) (d : udat) (s : state) : (R * R * udat) + exn :=
    match conjugated solve (smt C) (temp C) (kappa_ C) (occ_ C) fr
            (map (map (fun k => (kpt_of d s k, (u_zx d k, u_zeta d k, u_ul d k)))) (ranks C)) (u_mu d) with
    | (fr', sl, z) =>
      let zk := by_key (mzero, mzero) (ranks C) z in
      inl (fr', sl, MkUdat (u_X d) (u_ek d) (u_fn d) (u_HX d) (u_mu d) (u_eta d) (fun k => fst (zk k)) (fun k => snd (zk k)) (u_ul d))
    end.

  (** ** Set-up, nlcglib.cpp 228-306.  The rotations ul are allocated but not written (302): [junk]. *)
  Context (junk : key -> mat).
  Definition us_setup (s0 : state) : ((udat * R) + exn) * state :=
    match fe_compute0 s0 with                                              (* 249 *)
    | (Some x, s1) => (inr (EnergyFail x), s1)
    | (None, s1) =>
      let ek := s_ek s1 in                                                 (* 271 *)
      match us_mu ek with                                                  (* 276 *)
      | None => (inr MuFail, s1)
      | Some mu =>
        let fn := us_fn ek mu in
        match fe_compute s1 (s_X s1) fn ek mu with                          (* 279-280 *)
        | (Some x, s2) => (inr (EnergyFail x), s2)
        | (None, s2) =>
          match us_steepest (MkUdat (s_X s2) ek fn (s_HX s2) mu (fun k => make_diag (ek k)) (fun _ => mzero) (fun _ => mzero) junk) s2 with
          | inl (sl, d) => (inl (d, sl), s2)
          | inr e => (inr e, s2)
          end
        end
      end
    end.

  (** ** Trial points: the lambda g, nlcglib.cpp 345-355 *)
  Definition geo (d : udat) (t : R) (k : key) : option ((nat -> R) * mat * mat) :=
    geodesic_us eigh (nrow C k) (ncol C k) (u_X d k) (u_eta d k) (u_zx d k) (u_zeta d k) (ovl C k) t.
  (** the arguments of the two calls of eigh in geodesic_us (geodesic.hpp 161, lapack.hpp 412) *)
  Definition geo_args (d : udat) (t : R) (k : key) : list mat :=
    let e := advance_eta t (u_eta d k) (u_zeta d k) in
    let x := add (u_X d k) (u_zx d k) t 1 in
    e :: match eigh (ncol C k) e with
         | None => []
         | Some _ => [inner_ (nrow C k) x (mmul (nrow C k) (ovl C k) x) 1]
         end.
  Definition geo_call (d : udat) (t : R) (k : key) : gcall :=
    MkGcall k t (geo_args d t k) (match geo d t k with Some (_, _, x) => Some x | None => None end).
  Definition add_log (s : state) (l : list gcall) : state :=
    MkUst (s_en s) (s_X s) (s_fn s) (s_HX s) (s_ek s) (s_etot s) (s_mu s) (s_S s) (s_F s) (s_log s ++ l).
  Definition us_curve (d : udat) (t : R) (s : state) : (upnt + exn) * state :=
    let s1 := add_log s (map (geo_call d t) (concat (ranks C))) in
    if forallb (fun k => match geo d t k with Some _ => true | None => false end) (concat (ranks C)) then
      let ek := fun k => match geo d t k with Some (e, _, _) => e | None => fun _ => 0 end in
      let ul := fun k => match geo d t k with Some (_, u, _) => u | None => mzero end in
      let xn := fun k => match geo d t k with Some (_, _, x) => x | None => mzero end in
      match us_mu ek with
      | None => (inr MuFail, s1)
      | Some mu =>
        match fe_compute s1 xn (us_fn ek mu) ek mu with
        | (None, s2) => (inl (MkUpnt ek ul xn mu), s2)
        | (Some x, s2) => (inr (EnergyFail x), s2)
        end
      end
    else (inr EigenFail, s1).

  (** The updates after a line search, nlcglib.cpp 385-391 *)
  Definition us_accept (d : udat) (p : upnt) (s : state) : udat :=
    MkUdat (p_X p) (p_ek p) (s_fn s) (s_HX s) (p_mu p) (fun k => make_diag (p_ek p k)) (u_zx d) (u_zeta d) (p_ul p).

  Definition us_problem : problem Rarith :=
    MkProblem Rarith state udat upnt exn s_F s_S s_etot s_mu us_setup us_curve us_accept us_steepest us_conj.
End Us.
