(** The whole ultra-soft run in memory (MemRun.v, src/nlcglib.cpp 214-442, src/free_energy.hpp) with the numbers left open (NumStep.v):
    the loop of Driver.v and the line search of LineSearch.v in any arithmetic, in particular in binary64.
    Simplifications: those of MemRun.v and NumStep.v. *)
From Coq Require Import ZArith List Bool Arith.
From Verif Require Import Arith MVector Mpi LapackMem Exchange Containers ChemPot Newton Occupation Smearing LineSearch Driver UsRun
  StepMem DeviceStep MemRun NumStep.
From Verif Require Device.
Import ListNotations.

Section Run.
  Context (N : numbers).
  Notation E := (nE N).
  Notation A := (nA N).
  Notation R' := (num (nA N)).
  Notation V := (ev (nE N)).

  (** keys of the k-points of each rank, weights and parameters; the classes smearing<GAUSS> and smearing<smearing_t> *)
  Record nset := MkNset {
    ns_ranks : list (list key); ns_wgt : key -> R'; ns_sg : smear (nA N); ns_sm : smear (nA N);
    ns_nel : R'; ns_temp : R'; ns_kappa : R'; ns_occ : R'; ns_tol : R'; ns_skip : bool
  }.
  (** FreeEnergy and the memory of the EnergyBase behind it, free_energy.hpp 10-46; the fields are those of [mst] in MemRun.v *)
  Record nst (En : Type) := MkNst {
    b_en : En; b_X : key -> view E; b_fn : key -> nvec N; b_HX : key -> view E; b_ek : key -> nvec N;
    b_etot : R'; b_mu : R'; b_S : R'; b_F : R'; b_tick : nat
  }.
  (** loop variables of nlcg_us, nlcglib.cpp 271-306, as [mdat] in MemRun.v *)
  Record ndat := MkNdat {
    a_X : key -> view E; a_ek : key -> nvec N; a_fn : key -> nvec N; a_HX : key -> kres (view E); a_mu : R';
    a_eta : key -> kres (view E); a_zx : key -> view E; a_zeta : key -> view E; a_ul : key -> view E
  }.
  (** what a trial point returns, nlcglib.cpp 354 *)
  Record npnt := MkNpnt { p_ek : key -> nvec N; p_ul : key -> view E; p_X : key -> view E; p_mu : R' }.
  Arguments MkNst {En}. Arguments b_en {En}. Arguments b_X {En}. Arguments b_fn {En}. Arguments b_HX {En}. Arguments b_ek {En}.
  Arguments b_etot {En}. Arguments b_mu {En}. Arguments b_S {En}. Arguments b_F {En}. Arguments b_tick {En}.

  Context (sp : space).
  Context (ord : phase -> nat -> nat -> orders) (ord1 : phase -> nat -> nat -> nat -> list nat) (junk : phase -> nat -> nat -> nat -> V)
          (red : phase -> nat -> nat -> nat -> rtree)
          (ordk : nat -> key -> orders) (ord1k : nat -> key -> nat -> list nat) (junkk : nat -> key -> nat -> V).
  Context (heevd : nat -> buf E -> nat -> Z * buf E * (nat -> R')) (potrf : nat -> buf E -> nat -> Z * buf E)
          (potrs : nat -> nat -> buf E -> nat -> buf E -> nat -> Z * buf E).
  Context (opS opP : operator_fn E).
  Context (En Ex : Type).
  (** EnergyBase::compute on the wave functions and occupations in memory: total energy, H X, band energies *)
  Context (ncompute : En -> (key -> view E) -> (key -> nvec N) -> ((R' * (key -> view E) * (key -> nvec N)) + Ex) * En).
  Context (C : nset).
  Notation state := (nst En).
  Notation exn := (mem_exn Ex).
  Notation ids := (ns_ranks C).

  Definition num_outcome {B} (r : kres B) : B + exn :=
    match r with KOk a => inl a | KThrow => inr MRuntime | KBadArg => inr MBadArg | KUB => inr MUndefined end.
  Definition blank : view E := alloc E 0 0 true.

  (** ** Smearing *)
  Let kT : R' := amul A (kb A) (ns_temp C).
  Definition elements_n (v : nvec N) : list R' := map (snd v) (seq 0 (fst v)).
  Definition num_world (ek : key -> nvec N) : list (smap (list R') * smap R') :=
    map (fun r => (map (fun k => (k, elements_n (ek k))) r, map (fun k => (k, ns_wgt C k)) r)) ids.
  (** Smearing::fn, smearing.hpp 595-629 *)
  Definition num_mu (ek : key -> nvec N) : option R' :=
    match mu_of A (ns_nel C) (ns_temp C) (ns_occ C) (ns_tol C) (ns_skip C) (ns_sg C) (ns_sm C)
            (xunion A (num_world ek)) (wunion A (num_world ek)) with
    | Ret mu => Some mu
    | _ => None
    end.
  Definition num_fn (ek : key -> nvec N) (mu : R') : key -> nvec N :=
    fun k => (fst (ek k), fun i => sfn (ns_sm C) (adiv A (asub A mu (snd (ek k) i)) kT) (ns_occ C)).
  (** Smearing::entropy, smearing.hpp 675-740: - sum_k wk sum_i S((mu - e_i) / kT) *)
  Definition num_entropy (ek : key -> nvec N) (mu : R') : R' :=
    amul A (n_m1 N) (ksum_n N (map (fun r => local_sum A (map (fun kw =>
      (fst kw, amul A (snd kw) (sum_func A (sentropy (ns_sm C)) (view_at A (fst r) (fst kw)) mu (ns_temp C) (ns_occ C)))) (snd r))) (num_world ek))).

  (** ** class FreeEnergy *)
  (** FreeEnergy::compute(), free_energy.hpp 167-171 *)
  Definition num_compute0 (s : state) : option exn * state :=
    match ncompute (b_en s) (b_X s) (b_fn s) with
    | (inl (e, hx, ek), en) => (None, MkNst en (b_X s) (b_fn s) hx ek e (b_mu s) (b_S s) (b_F s) (S (b_tick s)))
    | (inr x, en) => (Some (MEnergyFail x), MkNst en (b_X s) (b_fn s) (b_HX s) (b_ek s) (b_etot s) (b_mu s) (b_S s) (b_F s) (S (b_tick s)))
    end.
  (** free_energy.hpp 79-90: every x to a host mirror and from there to the memory of the caller *)
  Definition num_store (s : state) (X : key -> view E) : kres (list (list (view E))) :=
    kmap2 (fun t k =>
      xh <-- deep_copy E (ord PStore (b_tick s) t (vrows (X k)) (vcols (X k))) (alloc E (vrows (X k)) (vcols (X k)) true) (X k) ;;
      deep_copy E (ord PStore (b_tick s) (t + 1)%nat (vrows xh) (vcols xh)) (b_X s k) xh) 0 ids.
  (** FreeEnergy::compute(X, fn, en, mu), free_energy.hpp 61-103 *)
  Definition num_compute (s : state) (X : key -> view E) (fn ek : key -> nvec N) (mu : R') : option exn * state :=
    match num_outcome (num_store s X) with
    | inr e => (Some e, s)
    | inl vs =>
      let mx := fun k => by_key (b_X s k) ids vs k in
      match ncompute (b_en s) mx fn with
      | (inl (e, hx, hk), en) =>
        let ent := amul A kT (num_entropy ek mu) in
        (None, MkNst en mx fn hx hk e mu ent (aadd A e ent) (S (b_tick s)))
      | (inr x, en) => (Some (MEnergyFail x), MkNst en mx fn (b_HX s) (b_ek s) (b_etot s) (b_mu s) (b_S s) (b_F s) (S (b_tick s)))
      end
    end.

  (** ** Copies and eta *)
  (** copy, mvector.hpp 512-527 *)
  Definition copy_n (o : orders) (j : nat -> V) (x : view E) : kres (view E) :=
    deep_copy E (o (vrows x) (vcols x)) (empty_like x j) x.
  (** make_diag, lapack.hpp 42-64, of a vector of doubles *)
  Definition eta_n (o : nat -> list nat) (e : nvec N) : kres (view E) :=
    make_diag (o (fst e)) (fst e) (fun i => n_c N (snd e i)).

  (** ** Descent directions *)
  Definition num_kpoint (d : ndat) (s : state) (k : key) : kres (nk N) :=
    _ <-- a_eta d k ;;
    hx <-- a_HX d k ;;
    KOk (MkNk N k (a_X d k) (a_ek d k) (a_fn d k) (b_ek s k) hx (ns_wgt C k)).
  Definition num_with (d : ndat) (z : list (list (view E * view E))) : ndat :=
    let zk := by_key (blank, blank) ids z in
    MkNdat (a_X d) (a_ek d) (a_fn d) (a_HX d) (a_mu d) (a_eta d) (fun k => fst (zk k)) (fun k => snd (zk k)) (a_ul d).
  (** dd.restarted, nlcglib.cpp 297/396/418 *)
  Definition num_steepest (d : ndat) (s : state) : (R' * ndat) + exn :=
    num_outcome (
      w <-- kmap2 (fun _ k => num_kpoint d s k) 0 ids ;;
      r <-- restarted_n N sp (ord PSteepest (b_tick s)) (ord1 PSteepest (b_tick s)) (junk PSteepest (b_tick s)) (red PSteepest (b_tick s))
              potrf potrs opS opP (ns_sm C) (ns_temp C) (ns_kappa C) (ns_occ C) w (a_mu d) ;;
      KOk (fst r, num_with d (snd r))).
  (** dd.conjugated, nlcglib.cpp 409 *)
  Definition num_conj (fr : R') (d : ndat) (s : state) : (R' * R' * ndat) + exn :=
    num_outcome (
      w <-- kmap2 (fun _ k => p <-- num_kpoint d s k ;; KOk (p, (a_zx d k, a_zeta d k, a_ul d k))) 0 ids ;;
      r <-- conjugated_n N sp (ord PConj (b_tick s)) (ord1 PConj (b_tick s)) (junk PConj (b_tick s)) (red PConj (b_tick s))
              potrf potrs opS opP (ns_sm C) (ns_temp C) (ns_kappa C) (ns_occ C) fr w (a_mu d) ;;
      KOk (fst r, num_with d (snd r))).

  (** ** Set-up, nlcglib.cpp 228-306 *)
  Definition num_setup (s0 : state) : ((ndat * R') + exn) * state :=
    match num_compute0 s0 with                                             (* 249 *)
    | (Some x, s1) => (inr x, s1)
    | (None, s1) =>
      let ek := b_ek s1 in                                                 (* 271 *)
      match num_mu ek with                                                 (* 276 *)
      | None => (inr MMuFail, s1)
      | Some mu =>
        let fn := num_fn ek mu in
        match num_compute s1 (b_X s1) fn ek mu with                         (* 279-280 *)
        | (Some x, s2) => (inr x, s2)
        | (None, s2) =>
          match num_outcome (kmap2 (fun t k => copy_n (ord PSetup (b_tick s2) t) (junk PSetup (b_tick s2) t) (b_X s2 k)) 0 ids) with
          | inr e => (inr e, s2)                                           (* 283 *)
          | inl xs =>
            match num_steepest (MkNdat (by_key blank ids xs) ek fn
                      (fun k => copy_n (ordk (b_tick s2) k) (junkk (b_tick s2) k) (b_HX s2 k)) mu      (* 282 *)
                      (fun k => eta_n (ord1k (b_tick s2) k) (ek k))                                   (* 296 *)
                      (fun _ => blank) (fun _ => blank) (fun _ => blank)) s2 with                      (* 297 *)
            | inl (sl, d) =>
              (inl (MkNdat (a_X d) (a_ek d) (a_fn d) (a_HX d) (a_mu d) (a_eta d) (a_zx d) (a_zeta d)
                      (fun k => empty_like (a_zeta d k) (junkk (b_tick s2) k)), sl), s2)               (* 302 *)
            | inr e => (inr e, s2)
            end
          end
        end
      end
    end.

  (** ** Trial points: the lambda g, nlcglib.cpp 345-355 *)
  Definition num_geo (d : ndat) (x : R') (s : state) (t : nat) (k : key) : kres (nvec N * view E * view E) :=
    eta <-- a_eta d k ;;
    geodesic_us_n N sp (ord PTrial (b_tick s)) (junk PTrial (b_tick s)) heevd opS t k x (a_X d k) eta (a_zx d k) (a_zeta d k).
  Definition num_curve (d : ndat) (x : R') (s : state) : (npnt + exn) * state :=
    match num_outcome (kmap2 (num_geo d x s) 0 ids) with
    | inr e => (inr e, s)
    | inl r =>
      let p := by_key ((0%nat, fun _ => n_0 N), blank, blank) ids r in
      let ek := fun k => fst (fst (p k)) in
      let ul := fun k => snd (fst (p k)) in
      let xn := fun k => snd (p k) in
      match num_mu ek with
      | None => (inr MMuFail, s)
      | Some mu =>
        match num_compute s xn (num_fn ek mu) ek mu with
        | (None, s2) => (inl (MkNpnt ek ul xn mu), s2)
        | (Some e, s2) => (inr e, s2)
        end
      end
    end.

  (** The updates after a line search, nlcglib.cpp 385-391 *)
  Definition num_accept (d : ndat) (p : npnt) (s : state) : ndat :=
    MkNdat (p_X p) (p_ek p) (b_fn s) (fun k => copy_n (ordk (b_tick s) k) (junkk (b_tick s) k) (b_HX s k)) (p_mu p)
      (fun k => eta_n (ord1k (b_tick s) k) (p_ek p k)) (a_zx d) (a_zeta d) (p_ul p).

  Definition num_problem : problem (nA N) :=
    MkProblem (nA N) state ndat npnt exn b_F b_S b_etot b_mu num_setup num_curve num_accept num_steepest num_conj.
End Run.
Arguments MkNst {N En}. Arguments b_en {N En}. Arguments b_X {N En}. Arguments b_fn {N En}. Arguments b_HX {N En}. Arguments b_ek {N En}.
Arguments b_etot {N En}. Arguments b_mu {N En}. Arguments b_S {N En}. Arguments b_F {N En}. Arguments b_tick {N En}.
Arguments MkNdat {N}. Arguments a_X {N}. Arguments a_ek {N}. Arguments a_fn {N}. Arguments a_HX {N}. Arguments a_mu {N}. Arguments a_eta {N}.
Arguments a_zx {N}. Arguments a_zeta {N}. Arguments a_ul {N}.
Arguments MkNpnt {N}. Arguments p_ek {N}. Arguments p_ul {N}. Arguments p_X {N}. Arguments p_mu {N}.
Arguments MkNset {N}. Arguments ns_ranks {N}. Arguments ns_wgt {N}. Arguments ns_sg {N}. Arguments ns_sm {N}. Arguments ns_nel {N}.
Arguments ns_temp {N}. Arguments ns_kappa {N}. Arguments ns_occ {N}. Arguments ns_tol {N}. Arguments ns_skip {N}.
