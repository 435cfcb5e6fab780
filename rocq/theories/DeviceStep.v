(** One step of the solver in each of the three memory spaces.
    StepMem.v is the step on the host; here the kernels that have their own text for CUDA and ROCm are those of
    src/la/lapack_cuda.hpp, src/la/cuda.hpp 343-490, src/la/lapack_rocm.hpp, src/la/rocm.hpp 115-210 and the device branch of
    innerh_tr (src/la/lapack.hpp 255-290); the callers are templates and have the same text in all spaces.
    Simplifications: as in StepMem.v; cuBLAS and rocBLAS multiply and add like the host routines in exact arithmetic, reject the
    same leading dimensions as documented and then leave C alone; enough device memory, no failing launch (Device.v is about those);
    create_mirror_view_and_copy and deep_copy between host and device preserve layout and values; the LAPACK routines of the three
    spaces are the same function of memory, so what follows is about the code around them. *)
From Coq Require Import ZArith Reals Lra Arith Lia List Bool Permutation.
From Coquelicot Require Import Complex.
From Verif Require Import Arith LinAlg MVector LapackMem LapackElt Exchange Smearing Newton Occupation StepMem.
From Verif Require Device.
Import ListNotations.
Local Open Scope R_scope.
Notation space := Device.space.
Notation SHost := Device.SHost.
Notation SCuda := Device.SCuda.
Notation SRocm := Device.SRocm.

(** ** Kernels *)
(** the shape of a parallel reduction: which partial sums are added to which *)
Inductive rtree := RZero | RRow (i : nat) | RJoin (a b : rtree).
Fixpoint leaves (t : rtree) : list nat := match t with RZero => [] | RRow i => [i] | RJoin a b => leaves a ++ leaves b end.
(** every row enters once *)
Definition fair_red (red : nat -> rtree) : Prop := forall n, Permutation (leaves (red n)) (seq 0 n).

Section Kernels.
  Context {E : elt}.
  Notation V := (ev E).
  (** the status of cublasZgemm is not looked at (cuda.hpp 346-377, 385-413), the one of rocblas_zgemm is printed
      (rocm.hpp 115-148, CALL_ROCBLAS): rejected arguments leave C as it is *)
  Definition status_dropped (c : buf E) (r : kres (buf E)) : kres (buf E) := match r with KBadArg => KOk c | _ => r end.
  Definition gemm_on (sp : space) ta tb m n k (alpha : V) A lda B ldb (beta : V) order Cb ldc : kres (buf E) :=
    match sp with
    | Device.SHost => gemm ta tb m n k alpha A lda B ldb beta order Cb ldc
    | _ => status_dropped Cb (gemm ta tb m n k alpha A lda B ldb beta order Cb ldc)
    end.
  (** inner: lapack_cpu.hpp 90-156, lapack_cuda.hpp 88-126, lapack_rocm.hpp 123-161 *)
  Definition inner_on (sp : space) (order : list (nat * nat)) (C A B : view E) (alpha beta : V) : kres (view E) :=
    checked3 A B C
      (gemm_on sp (ConjTrans) (NoTrans) (vcols A) (vcols B) (vrows A) alpha (vbuf A) (vs1 A) (vbuf B) (vs1 B) beta order (vbuf C) (vs1 C)).
  (** outer: lapack_cpu.hpp 159-225, lapack_cuda.hpp 128-176, lapack_rocm.hpp 163-212 *)
  Definition outer_on (sp : space) (order : list (nat * nat)) (C A B : view E) (alpha beta : V) : kres (view E) :=
    checked3 A B C
      (gemm_on sp (NoTrans) (ConjTrans) (vcols A) (vcols B) (vrows A) alpha (vbuf A) (vs1 A) (vbuf B) (vs1 B) beta order (vbuf C) (vs1 C)).
  (** transform: lapack_cpu.hpp 228-294, lapack_cuda.hpp 178-222, lapack_rocm.hpp 214-258 *)
  Definition transform_on (sp : space) (order : list (nat * nat)) (C : view E) (beta alpha : V) (A B : view E) : kres (view E) :=
    checked3 A B C
      (gemm_on sp (NoTrans) (NoTrans) (vrows A) (vcols B) (vcols A) alpha (vbuf A) (vs1 A) (vbuf B) (vs1 B) beta order (vbuf C) (vs1 C)).
  (** inner_, lapack.hpp 232-248 *)
  Definition inner__on (sp : space) (order : list (nat * nat)) (A B : view E) (alpha beta : V) : kres (view E) :=
    inner_on sp order (alloc E (vcols A) (vcols B) (vlocal A)) A B alpha beta.
  (** transform_alloc, lapack.hpp 428-440 *)
  Definition transform_alloc_on (sp : space) (order : list (nat * nat)) (A B : view E) (alpha beta : V) : kres (view E) :=
    transform_on sp order (alloc E (vrows A) (vcols A) (vlocal A)) beta alpha A B.
  (** cublasZgeam, rocblas_zgeam with B = C (cuda.hpp 455-490, rocm.hpp 170-210), status dropped or printed; m x n elements.
      Addresses are 64 bit; C is not read for beta = 0. *)
  Definition geam_dev (m : nat) (alpha : V) (A : buf E) (lda : nat) (beta : V) (order : list (nat * nat)) (Cb : buf E) (ldc : nat) : kres (buf E) :=
    if (Nat.ltb lda (Nat.max 1 m) || Nat.ltb ldc (Nat.max 1 m))%bool then KOk Cb
    else
      foreach order (fun i j c =>
        load A (i + lda * j) (fun a =>
          if eis0 E beta then store c (i + ldc * j) (emul E alpha a)
          else modify c (i + ldc * j) (fun old => eadd E (emul E alpha a) (emul E beta old)))) Cb.
  (** add: lapack_cpu.hpp 297-333, lapack_cuda.hpp 225-260, lapack_rocm.hpp 261-298 *)
  Definition add_on (sp : space) (order : list (nat * nat)) (C A : view E) (alpha beta : V) : kres (view E) :=
    match sp with
    | Device.SHost => add order C A alpha beta
    | _ =>
      if (vlocal A && vlocal C)%bool then
        if (negb (Nat.eqb (vs0 A) 1) || negb (Nat.eqb (vs0 C) 1))%bool then KThrow
        else kbind (geam_dev (vrows A) alpha (vbuf A) (vs1 A) beta order (vbuf C) (vs1 C)) (fun b => KOk (with_buf C b))
      else KThrow
    end.
  (** minus, src/nlcglib.cpp 201-210, on matrices of the space *)
  Definition minus_on (sp : space) (order : list (nat * nat)) (junk : nat -> V) (m1 zero : V) (X : view E) : kres (view E) :=
    add_on sp order (alloc_uninit E (vrows X) (vcols X) (vlocal X) junk) X m1 zero.
  (** deep_copy(dst, src) between the spaces, dvector.hpp 255-268: same extents and layout, the whole allocation is copied *)
  Definition copy_across (dst src : view E) : kres (view E) :=
    if (Nat.eqb (vrows dst) (vrows src) && Nat.eqb (vcols dst) (vcols src) && Nat.eqb (vs0 dst) (vs0 src) && Nat.eqb (vs1 dst) (vs1 src))%bool
    then KOk (with_buf dst (vbuf src)) else KThrow.
  (** solve_sym: lapack_cpu.hpp 56-86; lapack_cuda.hpp 58-86 (strides not tested); lapack_rocm.hpp 88-99 (on the host) *)
  Definition solve_sym_on (sp : space) (potrf : nat -> buf E -> nat -> Z * buf E)
      (potrs : nat -> nat -> buf E -> nat -> buf E -> nat -> Z * buf E) (A RHS : view E) : kres (view E * view E) :=
    match sp with
    | Device.SHost => solve_sym potrf potrs A RHS
    | Device.SCuda =>
      if (vlocal A && vlocal RHS)%bool then
        let '(_, fa) := potrf (vrows A) (vbuf A) (vs1 A) in
        let '(_, xb) := potrs (vrows A) (vcols RHS) fa (vs1 A) (vbuf RHS) (vs1 RHS) in
        KOk (with_buf A fa, with_buf RHS xb)
      else KThrow
    | Device.SRocm =>
      AX <-- solve_sym potrf potrs A RHS ;;
      A' <-- copy_across A (fst AX) ;;
      X' <-- copy_across RHS (snd AX) ;;
      KOk (A', X')
    end.
  (** innerh_tr on a device, lapack.hpp 255-290: the rows in parallel, then a reduction *)
  Fixpoint tree_sum (X Y : view E) (t : rtree) : kres V :=
    match t with
    | RZero => KOk (e0 E)
    | RRow i => row_sum X Y i (vcols X)
    | RJoin a b => u <-- tree_sum X Y a ;; v <-- tree_sum X Y b ;; KOk (eadd E u v)
    end.
  (** innerh_tr, lapack.hpp 252-327 *)
  Definition innerh_on (sp : space) (red : nat -> rtree) (X Y : view E) : kres V :=
    match sp with Device.SHost => innerh_tr X Y | _ => tree_sum X Y (red (vrows X)) end.
End Kernels.

(** ** The step *)
Section Step.
  Notation V := (ev Celt).
  Context (sp : space).
  Context (ord : nat -> orders) (ord1 : nat -> nat -> list nat) (junk : nat -> nat -> V) (red : nat -> nat -> rtree).
  Context (heevd : nat -> buf Celt -> nat -> Z * buf Celt * (nat -> R)).
  Context (potrf : nat -> buf Celt -> nat -> Z * buf Celt)
          (potrs : nat -> nat -> buf Celt -> nat -> buf Celt -> nat -> Z * buf Celt).
  Context (opS opP : operator_fn Celt).
  Context (s : smearing_type) (T kappa mo : R).

  (** eigh: lapack_cpu.hpp 23-52; lapack_cuda.hpp 10-33: n = rows of U, info dropped; lapack_rocm.hpp 21-66: on host copies,
      n = columns, info dropped.  The contents of U_host before the copy, every element of which is overwritten, is taken to be
      that of U before. *)
  Definition eigh_at (t : nat) (U : view Celt) (wn : nat) (Sv : view Celt) : kres (view Celt * rvec) :=
    match sp with
    | Device.SHost => eigh ord heevd t U wn Sv
    | Device.SCuda =>
      if (vlocal U && vlocal Sv)%bool then
        U1 <-- deep_copy Celt (ord t (vrows Sv) (vcols Sv)) U Sv ;;
        let n := vrows U1 in
        if Nat.leb n wn then
          match heevd n (vbuf U1) (vs1 U1) with (_, b, w) => KOk (with_buf U1 b, (wn, w)) end
        else KUB
      else KThrow
    | Device.SRocm =>
      if (vlocal U && vlocal Sv)%bool then
        U1 <-- deep_copy Celt (ord t (vrows Sv) (vcols Sv)) U Sv ;;
        U_host <-- deep_copy Celt (ord t (vrows Sv) (vcols Sv)) (empty_like Sv (bget (vbuf U))) Sv ;;
        let n := vcols U_host in
        if Nat.leb n wn then
          match heevd n (vbuf U_host) (vs1 U_host) with
          | (_, b, w) => U2 <-- copy_across U1 (with_buf U_host b) ;; KOk (U2, (wn, w))
          end
        else KUB
      else KThrow
    end.
  (** lapack.hpp 400-425: loewdin(X, SX) (and 375-398 with SX = X) *)
  Definition loewdin_at (t : nat) (X SX : view Celt) : kres (view Celt) :=
    M <-- inner__on sp (ord t (vcols X) (vcols SX)) X SX (RtoC 1 : V) (RtoC 0 : V) ;;
    Uw <-- eigh_at (t + 1) (empty_like M (junk t)) (vcols X) M ;;
    let U := fst Uw in
    let w := loewdin_aux (snd Uw) in
    M' <-- scale_cols (ord (t + 2) (vrows U) (vcols U)) M U (fst w) (snd w) (1 : er Celt) (0 : er Celt) ;;
    Rm <-- outer_on sp (ord (t + 3) (vcols M') (vcols U)) (zeros_like U) M' U (RtoC 1 : V) (RtoC 0 : V) ;;
    transform_on sp (ord (t + 4) (vrows X) (vcols Rm)) (zeros_like X) (RtoC 0 : V) (RtoC 1 : V) X Rm.

  (** ** geodesic.hpp *)
  (** 11-32: advance_eta *)
  Definition advance_eta_at (t : nat) (step : R) (eta d_eta : view Celt) : kres (view Celt) :=
    e1 <-- deep_copy Celt (ord t (vrows eta) (vcols eta)) (empty_like d_eta (junk t)) eta ;;
    add_on sp (ord (t + 1) (vrows d_eta) (vcols e1)) e1 d_eta (RtoC step : V) (RtoC 1 : V).

  (** 52-66: eigvals_and_vectors *)
  Definition eigvals_and_vectors_at (t : nat) (eta : view Celt) : kres (view Celt * rvec) :=
    eigh_at t (empty_like eta (junk t)) (vcols eta) eta.

  (** 86-99: advance_x, ultra-soft case *)
  Definition advance_x_at (t : nat) (k : key) (step : R) (x dx ul : view Celt) : kres (view Celt) :=
    x1 <-- deep_copy Celt (ord t (vrows x) (vcols x)) (empty_like x (junk t)) x ;;
    x2 <-- add_on sp (ord (t + 1) (vrows dx) (vcols x1)) x1 dx (RtoC step : V) (RtoC 1 : V) ;;
    let '(sx, x3) := apply_op Celt opS k (junk (t + 1)) x2 in
    y <-- loewdin_at (t + 2) x3 sx ;;
    transform_alloc_on sp (ord (t + 7) (vrows y) (vcols ul)) y ul (RtoC 1 : V) (RtoC 0 : V).

  (** 152-170: impl::geodesic_us; ek, Ul, x_next *)
  Definition geodesic_us_at (t : nat) (k : key) (step : R) (X eta z_x z_eta : view Celt)
    : kres (rvec * view Celt * view Celt) :=
    eta_next <-- advance_eta_at t step eta z_eta ;;
    Ue <-- eigvals_and_vectors_at (t + 2) eta_next ;;
    x_next <-- advance_x_at (t + 4) k step X z_x (fst Ue) ;;
    KOk (snd Ue, fst Ue, x_next).

  (** ** mvp2.hpp *)
  (** 12-32: lmult; SX (SX^H P SX)^-1 SX^H P HX *)
  Definition lmult_at (t : nat) (k : key) (sx hx : view Celt) : kres (view Celt) :=
    let '(psx, sx1) := apply_op Celt opP k (junk t) sx in
    xkx <-- inner__on sp (ord t (vcols sx1) (vcols psx)) sx1 psx (RtoC 1 : V) (RtoC 0 : V) ;;
    let '(phx, hx1) := apply_op Celt opP k (junk (t + 1)) hx in
    xkhx <-- inner__on sp (ord (t + 1) (vcols sx1) (vcols phx)) sx1 phx (RtoC 1 : V) (RtoC 0 : V) ;;
    AX <-- solve_sym_on sp potrf potrs xkx xkhx ;;
    transform_alloc_on sp (ord (t + 2) (vrows sx1) (vcols (snd AX))) sx1 (snd AX) (RtoC 1 : V) (RtoC 0 : V).

  (** 34-45: gradx; scale has beta = 0, add has beta = 1 *)
  Definition gradx_at (t : nat) (x hx : view Celt) (fn : rvec) (xll : view Celt) (wk : R) : kres (view Celt) :=
    g1 <-- scale_cols (ord t (vrows hx) (vcols hx)) (empty_like x (junk t)) hx (fst fn) (snd fn) (wk : er Celt) (0 : er Celt) ;;
    add_on sp (ord (t + 1) (vrows xll) (vcols g1)) g1 xll (RtoC (- wk) : V) (RtoC 1 : V).

  (** 66-82: precondgx_us *)
  Definition precondgx_us_at (t : nat) (k : key) (x hx xll : view Celt) : kres (view Celt) :=
    d0 <-- add_on sp (ord t (vrows hx) (vcols (zeros_like x))) (zeros_like x) hx (RtoC (-1) : V) (RtoC 0 : V) ;;
    d1 <-- add_on sp (ord (t + 1) (vrows xll) (vcols d0)) d0 xll (RtoC 1 : V) (RtoC 1 : V) ;;
    KOk (fst (apply_op Celt opP k (junk t) d1)).

  (** 85-92: rotatex *)
  Definition rotatex_at (t : nat) (x u : view Celt) : kres (view Celt) :=
    transform_alloc_on sp (ord t (vrows x) (vcols u)) x u (RtoC 1 : V) (RtoC 0 : V).

  (** 94-102: rotateeta *)
  Definition rotateeta_at (t : nat) (eta u : view Celt) : kres (view Celt) :=
    etau <-- transform_alloc_on sp (ord t (vrows eta) (vcols u)) eta u (RtoC 1 : V) (RtoC 0 : V) ;;
    inner__on sp (ord (t + 1) (vcols u) (vcols etau)) u etau (RtoC 1 : V) (RtoC 0 : V).

  (** 154-170: conjugatex, ultra-soft case; zxp is overwritten *)
  Definition conjugatex_at (t : nat) (zxp sx : view Celt) : kres (view Celt) :=
    sx_zxp <-- inner__on sp (ord t (vcols sx) (vcols zxp)) sx zxp (RtoC 1 : V) (RtoC 0 : V) ;;
    sx2 <-- inner__on sp (ord (t + 1) (vcols sx) (vcols sx)) sx sx (RtoC 1 : V) (RtoC 0 : V) ;;
    AX <-- solve_sym_on sp potrf potrs sx2 sx_zxp ;;
    corr <-- transform_alloc_on sp (ord (t + 2) (vrows sx) (vcols (snd AX))) sx (snd AX) (RtoC 1 : V) (RtoC 0 : V) ;;
    add_on sp (ord (t + 3) (vrows corr) (vcols zxp)) zxp corr (RtoC (-1) : V) (RtoC 1 : V).

  (** ** descent_direction_impl.hpp *)
  (** 183-201: exec_spc (restart): fr, delta_x, delta_eta *)
  Definition exec_restart_at (t : nat) (k : key) (mu dmu dF wk : R) (x : view Celt) (e f : rvec) (hx : view Celt)
    : kres (R * view Celt * view Celt) :=
    let '(sx, x1) := apply_op Celt opS k (junk t) x in
    llm <-- lmult_at (t + 1) k sx hx ;;
    gx <-- gradx_at (t + 4) sx hx f llm wk ;;
    dx <-- precondgx_us_at (t + 6) k sx hx llm ;;
    hij <-- inner__on sp (ord (t + 8)%nat (vcols x1) (vcols hx)) x1 hx (RtoC wk : V) (RtoC 0 : V) ;;
    ge <-- g_eta ord ord1 s T mo (t + 9) hij mu wk e f dmu dF ;;
    de <-- delta_eta ord ord1 junk kappa (t + 11) hij e wk ;;
    frx <-- innerh_on sp (red (t + 12)) gx dx ;;
    fre <-- innerh_on sp (red (t + 13)) ge de ;;
    KOk (2 * Re frx + Re fre, dx, de).

  (** 163-177: exec_conjugate: slope, z_x, z_eta *)
  Definition exec_conjugate_at (t : nat) (sx zxp zetap ul gx ge : view Celt) : kres (R * view Celt * view Celt) :=
    zx_tmp <-- rotatex_at t zxp ul ;;
    zeta <-- rotateeta_at (t + 1) zetap ul ;;
    zx <-- conjugatex_at (t + 3) zx_tmp sx ;;
    slx <-- innerh_on sp (red (t + 3)) zx gx ;;
    sle <-- innerh_on sp (red (t + 4)) zeta ge ;;
    KOk (2 * Re slx + Re sle, zx, zeta).

  (** 124-157: exec_spc (conjugate): fr, delta_x, delta_eta, z_x, z_eta, slope_zp *)
  Definition exec_cg_at (t : nat) (k : key) (mu dmu dF wk : R) (x : view Celt) (e f : rvec) (hx zxp zetap ul : view Celt)
    : kres (R * view Celt * view Celt * view Celt * view Celt * R) :=
    let '(sx, x1) := apply_op Celt opS k (junk t) x in
    llm <-- lmult_at (t + 1) k sx hx ;;
    gx <-- gradx_at (t + 4) sx hx f llm wk ;;
    dx <-- precondgx_us_at (t + 6) k sx hx llm ;;
    hij <-- inner__on sp (ord (t + 8)%nat (vcols x1) (vcols hx)) x1 hx (RtoC wk : V) (RtoC 0 : V) ;;
    ge <-- g_eta ord ord1 s T mo (t + 9) hij mu wk e f dmu dF ;;
    de <-- delta_eta ord ord1 junk kappa (t + 11) hij e wk ;;
    frx <-- innerh_on sp (red (t + 12)) gx dx ;;
    fre <-- innerh_on sp (red (t + 13)) ge de ;;
    cj <-- exec_conjugate_at (t + 12) sx zxp zetap ul gx ge ;;
    KOk (2 * Re frx + Re fre, dx, de, snd (fst cj), snd cj, fst (fst cj)).

  (** descent_direction.hpp 128-141: Z <- gamma Z + delta, in place, for one k-point *)
  Definition combine_directions_at (t : nat) (gamma : R) (dx de zx ze : view Celt) : kres (view Celt * view Celt) :=
    zx' <-- add_on sp (ord t (vrows dx) (vcols zx)) zx dx (RtoC 1 : V) (RtoC gamma : V) ;;
    ze' <-- add_on sp (ord (t + 1)%nat (vrows de) (vcols ze)) ze de (RtoC 1 : V) (RtoC gamma : V) ;;
    KOk (zx', ze').

  (** 155-183: restarted *)
  Definition restarted_at (world : list (list memk)) (mu : R) : kres (R * list (list (view Celt * view Celt))) :=
    dF <-- dFdmu s T mo world mu ;;
    let dmu := dmu_deta s T mo world mu in
    res <-- kmap2 (fun t k => exec_restart_at t (mk_key k) mu dmu dF (mk_wk k) (mk_x k) (mk_e k) (mk_f k) (mk_hx k)) 0 world ;;
    KOk (allsum (map (map (fun r => fst (fst r))) res), map (map (fun r => (snd (fst r), snd r))) res).

  (** 81-144: conjugated; the previous directions and the rotation of each k-point come with it *)
  Definition conjugated_at (fr_old : R) (world : list (list (memk * (view Celt * view Celt * view Celt)))) (mu : R)
    : kres (R * R * list (list (view Celt * view Celt))) :=
    dF <-- dFdmu s T mo (map (map fst) world) mu ;;
    let dmu := dmu_deta s T mo (map (map fst) world) mu in
    res <-- kmap2 (fun t kz => match kz with (k, (zxp, zetap, ul)) =>
             exec_cg_at t (mk_key k) mu dmu dF (mk_wk k) (mk_x k) (mk_e k) (mk_f k) (mk_hx k) zxp zetap ul end) 0 world ;;
    let fr := allsum (map (map (fun r => match r with (fr, _, _, _, _, _) => fr end)) res) in
    let gamma := fr / fr_old in
    let slope_zp := allsum (map (map (fun r => match r with (_, _, _, _, _, sl) => sl end)) res) in
    let slope := fr + gamma * slope_zp in
    zs <-- kmap2 (fun t r => match r with (_, dx, de, zx, ze, _) => combine_directions_at t gamma dx de zx ze end)
             (32 * length (concat world)) res ;;
    KOk (fr, slope, zs).
End Step.
