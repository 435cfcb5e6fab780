(** The whole ultra-soft run in memory: nlcg_us (src/nlcglib.cpp 214-442) with the loop of Driver.v and the line search of
    LineSearch.v around the memory models of the trial points and the descent directions (DeviceStep.v, the host being StepMem.v),
    of the occupations and of class FreeEnergy (src/free_energy.hpp).  UsRun.v is the same run on matrices.

    Here wave functions, H X, directions, rotations and eta are views (leading dimension, allocation, local or distributed), band
    energies and occupations one-dimensional views with a length; the kernels can throw, be rejected by BLAS or run into undefined
    behaviour, and the first such outcome ends the run ([mem_exn]).
    Simplifications: those of DeviceStep.v; exact real and complex arithmetic; the containers of the caller have one entry per key
    (Exchange.v is about their layout and duplicate keys), so that data of all k-points is a function of the key; the k-points are
    processed one after the other; EnergyBase::compute is a function of the caller's hidden state and of the memory it is given and
    leaves wave functions and occupations alone.  A device memory space means that geodesic, restarted and conjugated work there;
    what they return is in host memory (geodesic.hpp 190-193, descent_direction_impl.hpp 57-59, 107-111), and everything else
    works on the host. *)
From Coq Require Import ZArith Reals List Bool Arith.
From Coquelicot Require Import Complex.
From Verif Require Import Arith LinAlg MVector Mpi LapackMem LapackElt Exchange Containers ChemPot Newton Occupation Smearing SmearingUse LineSearch Driver UsRun
  StepMem DeviceStep.
From Verif Require Device.
Import ListNotations.
Local Open Scope R_scope.

(** What leaves nlcg_us: std::runtime_error of a kernel, no chemical potential (smearing.hpp 43-46), an exception of the caller's
    functional; an argument rejected by BLAS; undefined behaviour. *)
Inductive mem_exn (Ex : Type) := MRuntime | MMuFail | MEnergyFail (e : Ex) | MBadArg | MUndefined.
Arguments MRuntime {Ex}. Arguments MMuFail {Ex}. Arguments MEnergyFail {Ex}. Arguments MBadArg {Ex}. Arguments MUndefined {Ex}.

(** FreeEnergy and the memory of the EnergyBase behind it (free_energy.hpp 10-46) *)
Record mst (En : Type) := MkMst {
  m_en : En;                      (* hidden state of the caller's functional *)
  m_X : key -> view Celt;         (* get_C *)
  m_fn : key -> rvec;             (* get_fn *)
  m_HX : key -> view Celt;        (* get_hphi *)
  m_ek : key -> rvec;             (* get_ek *)
  m_etot : R; m_mu : R;           (* get_total_energy, get_chemical_potential *)
  m_S : R; m_F : R;               (* entropy, free_energy *)
  m_tick : nat                    (* ghost: number of evaluations so far *)
}.
Arguments MkMst {En}. Arguments m_en {En}. Arguments m_X {En}. Arguments m_fn {En}. Arguments m_HX {En}. Arguments m_ek {En}.
Arguments m_etot {En}. Arguments m_mu {En}. Arguments m_S {En}. Arguments m_F {En}. Arguments m_tick {En}.

(** Loop variables of nlcg_us, nlcglib.cpp 271-306.  eta and Hx are made by kernels (386-391) after a step has been accepted; what
    comes of them is looked at when the directions are computed, which is the next thing the code does. *)
Record mdat := MkMdat {
  d_X : key -> view Celt; d_ek : key -> rvec; d_fn : key -> rvec; d_HX : key -> kres (view Celt); d_mu : R;
  d_eta : key -> kres (view Celt); d_zx : key -> view Celt; d_zeta : key -> view Celt; d_ul : key -> view Celt
}.
(** What a trial point returns: (ek, ul, x, mu), nlcglib.cpp 354 *)
Record mpnt := MkMpnt { q_ek : key -> rvec; q_ul : key -> view Celt; q_X : key -> view Celt; q_mu : R }.

(** a part of the run; each part of each evaluation runs its loops in orders of its own *)
Inductive phase := PSetup | PStore | PTrial | PSteepest | PConj.

Section Mem.
  Notation V := (ev Celt).
  (** the memory space of the run; orders of the loops, contents of fresh memory and shapes of the reductions per part,
      evaluation and call site (and k-point, after accepting a step) *)
  Context (sp : space).
  Context (ord : phase -> nat -> nat -> orders) (ord1 : phase -> nat -> nat -> nat -> list nat) (junk : phase -> nat -> nat -> nat -> V)
          (red : phase -> nat -> nat -> nat -> rtree)
          (ordk : nat -> key -> orders) (ord1k : nat -> key -> nat -> list nat) (junkk : nat -> key -> nat -> V).
  (** LAPACK *)
  Context (heevd : nat -> buf Celt -> nat -> Z * buf Celt * (nat -> R)) (potrf : nat -> buf Celt -> nat -> Z * buf Celt)
          (potrs : nat -> nat -> buf Celt -> nat -> buf Celt -> nat -> Z * buf Celt).
  (** overlap operator and preconditioner of the calling program *)
  Context (opS opP : operator_fn Celt).
  Context (En Ex : Type).
  (** EnergyBase::compute on the wave functions and occupations in memory: total energy, H X, band energies *)
  Context (mcompute : En -> (key -> view Celt) -> (key -> rvec) -> ((R * (key -> view Celt) * (key -> rvec)) + Ex) * En).
  (** keys, weights and parameters; the fields nrow, ncol, ovl and prc are not used here *)
  Context (C : setting).
  Notation state := (mst En).
  Notation exn := (mem_exn Ex).

  Definition outcome_of {A} (r : kres A) : A + exn :=
    match r with KOk a => inl a | KThrow => inr MRuntime | KBadArg => inr MBadArg | KUB => inr MUndefined end.
  Definition no_view : view Celt := alloc Celt 0 0 true.

  (** ** Smearing *)
  Let Sm : smear Rarith := smearing_class (smt C).
  Let kT : R := kb Rarith * temp C.
  (** the containers of each rank: band energies (as many as the view has elements) and weights *)
  Definition elements (v : rvec) : list R := map (snd v) (seq 0 (fst v)).
  Definition mem_world (ek : key -> rvec) : list (smap (list R) * smap R) :=
    map (fun r => (map (fun k => (k, elements (ek k))) r, map (fun k => (k, wgt C k)) r)) (ranks C).
  (** Smearing::fn, smearing.hpp 595-629 *)
  Definition mem_mu (ek : key -> rvec) : option R :=
    match mu_of Rarith (nel C) (temp C) (occ_ C) (mu_tol C) (skip_nt C) gauss_smearing Sm
            (xunion Rarith (mem_world ek)) (wunion Rarith (mem_world ek)) with
    | Ret mu => Some mu
    | _ => None
    end.
  Definition mem_fn (ek : key -> rvec) (mu : R) : key -> rvec :=
    fun k => (fst (ek k), fun i => sfn Sm ((mu - snd (ek k) i) / kT) (occ_ C)).
  (** Smearing::entropy, smearing.hpp 675-740 *)
  Definition mem_entropy (ek : key -> rvec) (mu : R) : R :=
    - rsum (map (fun r => weighted (fun e => sentropy Sm ((mu - e) / kT) (occ_ C)) (fst r) (snd r)) (mem_world ek)).

  (** ** class FreeEnergy *)
  (** FreeEnergy::compute(), free_energy.hpp 167-171 *)
  Definition mem_compute0 (s : state) : option exn * state :=
    match mcompute (m_en s) (m_X s) (m_fn s) with
    | (inl (e, hx, ek), en) => (None, MkMst en (m_X s) (m_fn s) hx ek e (m_mu s) (m_S s) (m_F s) (S (m_tick s)))
    | (inr x, en) => (Some (MEnergyFail x), MkMst en (m_X s) (m_fn s) (m_HX s) (m_ek s) (m_etot s) (m_mu s) (m_S s) (m_F s) (S (m_tick s)))
    end.
  (** free_energy.hpp 79-90: every x to a host mirror and from there to the memory of the caller *)
  Definition store_views (s : state) (X : key -> view Celt) : kres (list (list (view Celt))) :=
    kmap2 (fun t k =>
      xh <-- deep_copy Celt (ord PStore (m_tick s) t (vrows (X k)) (vcols (X k))) (alloc Celt (vrows (X k)) (vcols (X k)) true) (X k) ;;
      deep_copy Celt (ord PStore (m_tick s) (t + 1)%nat (vrows xh) (vcols xh)) (m_X s k) xh) 0 (ranks C).
  (** FreeEnergy::compute(X, fn, en, mu), free_energy.hpp 61-103 *)
  Definition mem_compute (s : state) (X : key -> view Celt) (fn ek : key -> rvec) (mu : R) : option exn * state :=
    match outcome_of (store_views s X) with
    | inr e => (Some e, s)
    | inl vs =>
      let mx := fun k => by_key (m_X s k) (ranks C) vs k in
      match mcompute (m_en s) mx fn with
      | (inl (e, hx, hk), en) =>
        let ent := kT * mem_entropy ek mu in
        (None, MkMst en mx fn hx hk e mu ent (e + ent) (S (m_tick s)))
      | (inr x, en) => (Some (MEnergyFail x), MkMst en mx fn (m_HX s) (m_ek s) (m_etot s) (m_mu s) (m_S s) (m_F s) (S (m_tick s)))
      end
    end.

  (** ** Copies and eta *)
  (** copy, mvector.hpp 512-527 *)
  Definition copy_view (o : orders) (j : nat -> V) (x : view Celt) : kres (view Celt) :=
    deep_copy Celt (o (vrows x) (vcols x)) (empty_like x j) x.
  (** make_diag, lapack.hpp 42-64, of a vector of doubles *)
  Definition eta_view (o : nat -> list nat) (e : rvec) : kres (view Celt) :=
    make_diag (E := Celt) (o (fst e)) (fst e) (fun i => RtoC (snd e i)).

  (** ** Descent directions *)
  Definition kpoint (d : mdat) (s : state) (k : key) : kres memk :=
    _ <-- d_eta d k ;;
    hx <-- d_HX d k ;;
    KOk (MkMemk k (d_X d k) (d_ek d k) (d_fn d k) (m_ek s k) hx (wgt C k)).
  Definition with_directions (d : mdat) (z : list (list (view Celt * view Celt))) : mdat :=
    let zk := by_key (no_view, no_view) (ranks C) z in
    MkMdat (d_X d) (d_ek d) (d_fn d) (d_HX d) (d_mu d) (d_eta d) (fun k => fst (zk k)) (fun k => snd (zk k)) (d_ul d).
  (** dd.restarted, nlcglib.cpp 297/396/418 *)
  Definition mem_steepest (d : mdat) (s : state) : (R * mdat) + exn :=
    outcome_of (
      w <-- kmap2 (fun _ k => kpoint d s k) 0 (ranks C) ;;
      r <-- restarted_at sp (ord PSteepest (m_tick s)) (ord1 PSteepest (m_tick s)) (junk PSteepest (m_tick s)) (red PSteepest (m_tick s))
              potrf potrs opS opP (smt C) (temp C) (kappa_ C) (occ_ C) w (d_mu d) ;;
      KOk (fst r, with_directions d (snd r))).
  (** dd.conjugated, nlcglib.cpp 409 *)
  Definition mem_conj (fr : R) (d : mdat) (s : state) : (R * R * mdat) + exn :=
    outcome_of (
      w <-- kmap2 (fun _ k => p <-- kpoint d s k ;; KOk (p, (d_zx d k, d_zeta d k, d_ul d k))) 0 (ranks C) ;;
      r <-- conjugated_at sp (ord PConj (m_tick s)) (ord1 PConj (m_tick s)) (junk PConj (m_tick s)) (red PConj (m_tick s))
              potrf potrs opS opP (smt C) (temp C) (kappa_ C) (occ_ C) fr w (d_mu d) ;;
      KOk (fst r, with_directions d (snd r))).

  (** ** Set-up, nlcglib.cpp 228-306 *)
  Definition mem_setup (s0 : state) : ((mdat * R) + exn) * state :=
    match mem_compute0 s0 with                                             (* 249 *)
    | (Some x, s1) => (inr x, s1)
    | (None, s1) =>
      let ek := m_ek s1 in                                                 (* 271 *)
      match mem_mu ek with                                                 (* 276 *)
      | None => (inr MMuFail, s1)
      | Some mu =>
        let fn := mem_fn ek mu in
        match mem_compute s1 (m_X s1) fn ek mu with                         (* 279-280 *)
        | (Some x, s2) => (inr x, s2)
        | (None, s2) =>
          match outcome_of (kmap2 (fun t k => copy_view (ord PSetup (m_tick s2) t) (junk PSetup (m_tick s2) t) (m_X s2 k)) 0 (ranks C)) with
          | inr e => (inr e, s2)                                           (* 283 *)
          | inl xs =>
            match mem_steepest (MkMdat (by_key no_view (ranks C) xs) ek fn
                      (fun k => copy_view (ordk (m_tick s2) k) (junkk (m_tick s2) k) (m_HX s2 k)) mu   (* 282 *)
                      (fun k => eta_view (ord1k (m_tick s2) k) (ek k))                                (* 296 *)
                      (fun _ => no_view) (fun _ => no_view) (fun _ => no_view)) s2 with                (* 297 *)
            | inl (sl, d) =>
              (inl (MkMdat (d_X d) (d_ek d) (d_fn d) (d_HX d) (d_mu d) (d_eta d) (d_zx d) (d_zeta d)
                      (fun k => empty_like (d_zeta d k) (junkk (m_tick s2) k)), sl), s2)               (* 302 *)
            | inr e => (inr e, s2)
            end
          end
        end
      end
    end.

  (** ** Trial points: the lambda g, nlcglib.cpp 345-355 *)
  Definition mem_geo (d : mdat) (x : R) (s : state) (t : nat) (k : key) : kres (rvec * view Celt * view Celt) :=
    eta <-- d_eta d k ;;
    geodesic_us_at sp (ord PTrial (m_tick s)) (junk PTrial (m_tick s)) heevd opS t k x (d_X d k) eta (d_zx d k) (d_zeta d k).
  Definition mem_curve (d : mdat) (x : R) (s : state) : (mpnt + exn) * state :=
    match outcome_of (kmap2 (mem_geo d x s) 0 (ranks C)) with
    | inr e => (inr e, s)
    | inl r =>
      let p := by_key ((0%nat, fun _ => 0), no_view, no_view) (ranks C) r in
      let ek := fun k => fst (fst (p k)) in
      let ul := fun k => snd (fst (p k)) in
      let xn := fun k => snd (p k) in
      match mem_mu ek with
      | None => (inr MMuFail, s)
      | Some mu =>
        match mem_compute s xn (mem_fn ek mu) ek mu with
        | (None, s2) => (inl (MkMpnt ek ul xn mu), s2)
        | (Some e, s2) => (inr e, s2)
        end
      end
    end.

  (** The updates after a line search, nlcglib.cpp 385-391 *)
  Definition mem_accept (d : mdat) (p : mpnt) (s : state) : mdat :=
    MkMdat (q_X p) (q_ek p) (m_fn s) (fun k => copy_view (ordk (m_tick s) k) (junkk (m_tick s) k) (m_HX s k)) (q_mu p)
      (fun k => eta_view (ord1k (m_tick s) k) (q_ek p k)) (d_zx d) (d_zeta d) (q_ul p).

  Definition mem_problem : problem Rarith :=
    MkProblem Rarith state mdat mpnt exn m_F m_S m_etot m_mu mem_setup mem_curve mem_accept mem_steepest mem_conj.
End Mem.
