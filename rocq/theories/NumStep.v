(** One step of the solver in memory (StepMem.v, DeviceStep.v) with the numbers left open: exact real and complex numbers,
    binary64 with NaN and infinities, or anything else.  The arithmetic is written in the order of the C++ text.
    ShapeStep.v shows for every choice of the numbers that no element outside an allocation is touched.
    Simplifications: those of StepMem.v and DeviceStep.v, except exact arithmetic.  zgemm adds in ascending order (LapackMem.v), the
    sums of the ranks are added in the order of the ranks; MPI and BLAS leave both open, and addresses do not depend on them. *)
From Coq Require Import ZArith Reals Arith List Bool.
From Flocq Require Import BinarySingleNaN.
From Coquelicot Require Import Complex.
From Verif Require Import Arith Float64 LinAlg MVector LapackMem LapackElt LapackFloat Exchange Smearing Newton Occupation StepMem DeviceStep.
From Verif Require Device.
Import ListNotations.

(** ** Numbers *)
(** double and std::complex<double>/Kokkos::complex<double> with the mixed operations used in src/la/lapack.hpp 350-372,
    src/pseudo_hamiltonian/grad_eta.hpp and src/mvp2 *)
Record numbers := MkNumbers {
  nE : elt; nA : arith;
  n_r : num nA -> er nE;               (* a double in the kernels of lapack.hpp *)
  n_c : num nA -> ev nE;               (* double to complex *)
  n_re : ev nE -> num nA;              (* real part *)
  n_sub : ev nE -> num nA -> ev nE;    (* complex - double *)
  n_add : ev nE -> num nA -> ev nE;    (* complex += double *)
  n_mul : ev nE -> num nA -> ev nE;    (* complex * double *)
  n_sqrt : num nA -> num nA;
  n_0 : num nA; n_1 : num nA; n_m1 : num nA; n_2 : num nA;
  n_tinymu : num nA;                   (* 1e-12, grad_eta.hpp 157 *)
  n_tinye : num nA                     (* 1e-10, grad_eta.hpp 177 *)
}.
(** exact numbers *)
Definition exactN : numbers :=
  MkNumbers Celt Rarith (fun x => x) RtoC Re (fun c x => Cminus c (RtoC x)) (fun c x => Cplus c (RtoC x)) (fun c x => Cmult c (RtoC x))
    sqrt 0%R 1%R (-1)%R 2%R (1 / 10 ^ 12)%R (1 / 10 ^ 10)%R.
(** binary64; Kokkos_Complex.hpp operates componentwise with doubles *)
Definition binaryN : numbers :=
  MkNumbers Felt F64 (fun x => x) (fun x => (x, flit 0 1)) fst (fun c x => (fsub (fst c) x, snd c)) (fun c x => (fadd (fst c) x, snd c))
    (fun c x => (fmul (fst c) x, fmul (snd c) x)) (Bsqrt mode_NE) (flit 0 1) (flit 1 1) (flit (-1) 1) (flit 2 1)
    (flit 1 1000000000000) (flit 1 10000000000).

Section Num.
  Context (N : numbers).
  Notation E := (nE N).
  Notation A := (nA N).
  Notation R' := (num (nA N)).
  Notation V := (ev (nE N)).
  Let c1 : V := n_c N (n_1 N).
  Let c0 : V := n_c N (n_0 N).
  Let cm1 : V := n_c N (n_m1 N).

  (** a one-dimensional view of doubles: number of elements, elements *)
  Definition nvec : Type := nat * (nat -> R').
  (** reading an element *)
  Definition nload {B} (v : nvec) (i : nat) (f : R' -> kres B) : kres B := if Nat.ltb i (fst v) then f (snd v i) else KUB.

  Context (sp : space).
  Context (ord : nat -> orders) (ord1 : nat -> nat -> list nat) (junk : nat -> nat -> V) (red : nat -> nat -> rtree).
  Context (heevd : nat -> buf E -> nat -> Z * buf E * (nat -> R')).
  Context (potrf : nat -> buf E -> nat -> Z * buf E) (potrs : nat -> nat -> buf E -> nat -> buf E -> nat -> Z * buf E).
  Context (opS opP : operator_fn E).

  (** eigh: lapack_cpu.hpp 23-52, lapack_cuda.hpp 10-33, lapack_rocm.hpp 21-66 (see DeviceStep.v) *)
  Definition eigh_n (t : nat) (U : view E) (wn : nat) (Sv : view E) : kres (view E * nvec) :=
    match sp with
    | Device.SHost =>
      U1 <-- deep_copy E (ord t (vrows Sv) (vcols Sv)) U Sv ;;
      if vlocal Sv then
        let n := vcols U1 in
        if Nat.leb n wn then
          match heevd n (vbuf U1) (vs1 U1) with
          | (info, b, w) => if Z.eqb info 0 then KOk (with_buf U1 b, (wn, w)) else KThrow
          end
        else KUB
      else KThrow
    | Device.SCuda =>
      if (vlocal U && vlocal Sv)%bool then
        U1 <-- deep_copy E (ord t (vrows Sv) (vcols Sv)) U Sv ;;
        let n := vrows U1 in
        if Nat.leb n wn then
          match heevd n (vbuf U1) (vs1 U1) with (_, b, w) => KOk (with_buf U1 b, (wn, w)) end
        else KUB
      else KThrow
    | Device.SRocm =>
      if (vlocal U && vlocal Sv)%bool then
        U1 <-- deep_copy E (ord t (vrows Sv) (vcols Sv)) U Sv ;;
        U_host <-- deep_copy E (ord t (vrows Sv) (vcols Sv)) (empty_like Sv (bget (vbuf U))) Sv ;;
        let n := vcols U_host in
        if Nat.leb n wn then
          match heevd n (vbuf U_host) (vs1 U_host) with
          | (_, b, w) => U2 <-- copy_across U1 (with_buf U_host b) ;; KOk (U2, (wn, w))
          end
        else KUB
      else KThrow
    end.
  (** lapack.hpp 350-372: loewdin_aux, w(i) = 1 / sqrt(w(i)) *)
  Definition loewdin_aux_n (w : nvec) : nvec := (fst w, fun i => adiv A (n_1 N) (n_sqrt N (snd w i))).
  (** lapack.hpp 400-425: loewdin(X, SX) *)
  Definition loewdin_n (t : nat) (X SX : view E) : kres (view E) :=
    M <-- inner__on sp (ord t (vcols X) (vcols SX)) X SX c1 c0 ;;
    Uw <-- eigh_n (t + 1) (empty_like M (junk t)) (vcols X) M ;;
    let U := fst Uw in
    let w := loewdin_aux_n (snd Uw) in
    M' <-- scale_cols (ord (t + 2) (vrows U) (vcols U)) M U (fst w) (fun i => n_r N (snd w i)) (n_r N (n_1 N)) (n_r N (n_0 N)) ;;
    Rm <-- outer_on sp (ord (t + 3) (vcols M') (vcols U)) (zeros_like U) M' U c1 c0 ;;
    transform_on sp (ord (t + 4) (vrows X) (vcols Rm)) (zeros_like X) c0 c1 X Rm.

  (** ** geodesic.hpp *)
  (** 11-32: advance_eta *)
  Definition advance_eta_n (t : nat) (step : R') (eta d_eta : view E) : kres (view E) :=
    e1 <-- deep_copy E (ord t (vrows eta) (vcols eta)) (empty_like d_eta (junk t)) eta ;;
    add_on sp (ord (t + 1) (vrows d_eta) (vcols e1)) e1 d_eta (n_c N step) c1.
  (** 52-66: eigvals_and_vectors *)
  Definition eigvals_and_vectors_n (t : nat) (eta : view E) : kres (view E * nvec) :=
    eigh_n t (empty_like eta (junk t)) (vcols eta) eta.
  (** 86-99: advance_x, ultra-soft case *)
  Definition advance_x_n (t : nat) (k : key) (step : R') (x dx ul : view E) : kres (view E) :=
    x1 <-- deep_copy E (ord t (vrows x) (vcols x)) (empty_like x (junk t)) x ;;
    x2 <-- add_on sp (ord (t + 1) (vrows dx) (vcols x1)) x1 dx (n_c N step) c1 ;;
    let '(sx, x3) := apply_op E opS k (junk (t + 1)) x2 in
    y <-- loewdin_n (t + 2) x3 sx ;;
    transform_alloc_on sp (ord (t + 7) (vrows y) (vcols ul)) y ul c1 c0.
  (** 152-170: impl::geodesic_us; ek, Ul, x_next *)
  Definition geodesic_us_n (t : nat) (k : key) (step : R') (X eta z_x z_eta : view E) : kres (nvec * view E * view E) :=
    eta_next <-- advance_eta_n t step eta z_eta ;;
    Ue <-- eigvals_and_vectors_n (t + 2) eta_next ;;
    x_next <-- advance_x_n (t + 4) k step X z_x (fst Ue) ;;
    KOk (snd Ue, fst Ue, x_next).

  (** ** mvp2.hpp *)
  (** 12-32: lmult *)
  Definition lmult_n (t : nat) (k : key) (sx hx : view E) : kres (view E) :=
    let '(psx, sx1) := apply_op E opP k (junk t) sx in
    xkx <-- inner__on sp (ord t (vcols sx1) (vcols psx)) sx1 psx c1 c0 ;;
    let '(phx, hx1) := apply_op E opP k (junk (t + 1)) hx in
    xkhx <-- inner__on sp (ord (t + 1) (vcols sx1) (vcols phx)) sx1 phx c1 c0 ;;
    AX <-- solve_sym_on sp potrf potrs xkx xkhx ;;
    transform_alloc_on sp (ord (t + 2) (vrows sx1) (vcols (snd AX))) sx1 (snd AX) c1 c0.
  (** 34-45: gradx *)
  Definition gradx_n (t : nat) (x hx : view E) (fn : nvec) (xll : view E) (wk : R') : kres (view E) :=
    g1 <-- scale_cols (ord t (vrows hx) (vcols hx)) (empty_like x (junk t)) hx (fst fn) (fun i => n_r N (snd fn i)) (n_r N wk) (n_r N (n_0 N)) ;;
    add_on sp (ord (t + 1) (vrows xll) (vcols g1)) g1 xll (n_c N (aopp A wk)) c1.
  (** 66-82: precondgx_us *)
  Definition precondgx_us_n (t : nat) (k : key) (x hx xll : view E) : kres (view E) :=
    d0 <-- add_on sp (ord t (vrows hx) (vcols (zeros_like x))) (zeros_like x) hx cm1 c0 ;;
    d1 <-- add_on sp (ord (t + 1) (vrows xll) (vcols d0)) d0 xll c1 c1 ;;
    KOk (fst (apply_op E opP k (junk t) d1)).
  (** 85-92: rotatex *)
  Definition rotatex_n (t : nat) (x u : view E) : kres (view E) :=
    transform_alloc_on sp (ord t (vrows x) (vcols u)) x u c1 c0.
  (** 94-102: rotateeta *)
  Definition rotateeta_n (t : nat) (eta u : view E) : kres (view E) :=
    etau <-- transform_alloc_on sp (ord t (vrows eta) (vcols u)) eta u c1 c0 ;;
    inner__on sp (ord (t + 1) (vcols u) (vcols etau)) u etau c1 c0.
  (** 154-170: conjugatex, ultra-soft case; zxp is overwritten *)
  Definition conjugatex_n (t : nat) (zxp sx : view E) : kres (view E) :=
    sx_zxp <-- inner__on sp (ord t (vcols sx) (vcols zxp)) sx zxp c1 c0 ;;
    sx2 <-- inner__on sp (ord (t + 1) (vcols sx) (vcols sx)) sx sx c1 c0 ;;
    AX <-- solve_sym_on sp potrf potrs sx2 sx_zxp ;;
    corr <-- transform_alloc_on sp (ord (t + 2) (vrows sx) (vcols (snd AX))) sx (snd AX) c1 c0 ;;
    add_on sp (ord (t + 3) (vrows corr) (vcols zxp)) zxp corr cm1 c1.

  (** ** grad_eta.hpp *)
  Context (Sm : smear (nA N)) (T kappa mo : R').
  Let kT : R' := amul A (kb A) T.     (* 126 *)
  Let delta (x : R') : R' := sdelta Sm x mo.

  (** 84-116: _delta_eta; the loop runs over the elements of ek *)
  Definition delta_eta_n (t : nat) (hij : view E) (ek : nvec) (wk : R') : kres (view E) :=
    d <-- scale (ord t (vrows hij) (vcols hij)) (empty_like hij (junk t)) hij (n_r N (adiv A kappa wk)) ;;
    b <-- forrange (ord1 t (fst ek)) (fun i c =>
            nload ek i (fun ei => modify c (addr d i i) (fun old => n_sub N old (amul A kappa ei)))) (vbuf d) ;;
    KOk (with_buf d b).
  (** 133-187: g_eta; nbands = rows of Hij *)
  Definition g_eta_n (t : nat) (hij : view E) (mu wk : R') (ek fn : nvec) (dmu dF : R') : kres (view E) :=
    let g := zeros_like hij in
    let nb := vrows hij in
    b1 <-- forrange (ord1 t nb) (fun i c =>
             nload ek i (fun ei => load (vbuf hij) (addr hij i i) (fun h =>
               store c (addr g i i)
                 (n_mul N (erscale E (n_r N (adiv A (n_m1 N) kT)) (n_sub N h (amul A wk ei))) (delta (adiv A (asub A ei mu) kT)))))) (vbuf g) ;;
    b2 <-- (if altb A (aabs A dmu) (n_tinymu N) then KOk b1
            else forrange (ord1 (t + 1)%nat nb) (fun i c =>
              nload ek i (fun ei =>
                modify c (addr g i i)
                  (fun old => n_add N old (amul A (adiv A (amul A wk (delta (adiv A (asub A ei mu) kT))) dmu) (adiv A dF kT))))) b1) ;;
    b3 <-- foreach (ord t nb nb) (fun i j c =>
             if Nat.eqb i j then KOk c
             else nload ek j (fun ej => nload ek i (fun ei =>
               if altb A (aabs A (asub A ej ei)) (n_tinye N) then KOk c
               else nload fn j (fun fj => nload fn i (fun fi =>
                 load (vbuf hij) (addr hij i j) (fun h =>
                   modify c (addr g i j)
                     (fun old => eadd E old (erscale E (n_r N (adiv A (asub A fj fi) (asub A ej ei))) h)))))))) b2 ;;
    KOk (with_buf g b3).

  (** ** descent_direction_impl.hpp *)
  (** 146-148, 196-198: 2 Re x + Re y *)
  Definition slope_n (x y : V) : R' := aadd A (amul A (n_2 N) (n_re N x)) (n_re N y).
  (** 183-201: exec_spc (restart): fr, delta_x, delta_eta *)
  Definition exec_restart_n (t : nat) (k : key) (mu dmu dF wk : R') (x : view E) (e f : nvec) (hx : view E) : kres (R' * view E * view E) :=
    let '(sx, x1) := apply_op E opS k (junk t) x in
    llm <-- lmult_n (t + 1) k sx hx ;;
    gx <-- gradx_n (t + 4) sx hx f llm wk ;;
    dx <-- precondgx_us_n (t + 6) k sx hx llm ;;
    hij <-- inner__on sp (ord (t + 8)%nat (vcols x1) (vcols hx)) x1 hx (n_c N wk) c0 ;;
    ge <-- g_eta_n (t + 9) hij mu wk e f dmu dF ;;
    de <-- delta_eta_n (t + 11) hij e wk ;;
    frx <-- innerh_on sp (red (t + 12)) gx dx ;;
    fre <-- innerh_on sp (red (t + 13)) ge de ;;
    KOk (slope_n frx fre, dx, de).
  (** 163-177: exec_conjugate: slope, z_x, z_eta *)
  Definition exec_conjugate_n (t : nat) (sx zxp zetap ul gx ge : view E) : kres (R' * view E * view E) :=
    zx_tmp <-- rotatex_n t zxp ul ;;
    zeta <-- rotateeta_n (t + 1) zetap ul ;;
    zx <-- conjugatex_n (t + 3) zx_tmp sx ;;
    slx <-- innerh_on sp (red (t + 3)) zx gx ;;
    sle <-- innerh_on sp (red (t + 4)) zeta ge ;;
    KOk (slope_n slx sle, zx, zeta).
  (** 124-157: exec_spc (conjugate): fr, delta_x, delta_eta, z_x, z_eta, slope_zp *)
  Definition exec_cg_n (t : nat) (k : key) (mu dmu dF wk : R') (x : view E) (e f : nvec) (hx zxp zetap ul : view E)
    : kres (R' * view E * view E * view E * view E * R') :=
    let '(sx, x1) := apply_op E opS k (junk t) x in
    llm <-- lmult_n (t + 1) k sx hx ;;
    gx <-- gradx_n (t + 4) sx hx f llm wk ;;
    dx <-- precondgx_us_n (t + 6) k sx hx llm ;;
    hij <-- inner__on sp (ord (t + 8)%nat (vcols x1) (vcols hx)) x1 hx (n_c N wk) c0 ;;
    ge <-- g_eta_n (t + 9) hij mu wk e f dmu dF ;;
    de <-- delta_eta_n (t + 11) hij e wk ;;
    frx <-- innerh_on sp (red (t + 12)) gx dx ;;
    fre <-- innerh_on sp (red (t + 13)) ge de ;;
    cj <-- exec_conjugate_n (t + 12) sx zxp zetap ul gx ge ;;
    KOk (slope_n frx fre, dx, de, snd (fst cj), snd cj, fst (fst cj)).
  (** descent_direction.hpp 128-141: Z <- gamma Z + delta, in place, for one k-point *)
  Definition combine_directions_n (t : nat) (gamma : R') (dx de zx ze : view E) : kres (view E * view E) :=
    zx' <-- add_on sp (ord t (vrows dx) (vcols zx)) zx dx c1 (n_c N gamma) ;;
    ze' <-- add_on sp (ord (t + 1)%nat (vrows de) (vcols ze)) ze de c1 (n_c N gamma) ;;
    KOk (zx', ze').

  (** ** All k-points of all ranks: descent_direction.hpp *)
  (** what one k-point holds in memory: X, pseudo-eigenvalues, occupations, FreeEnergy::get_ek, HX, weight *)
  Record nk := MkNk { nk_key : key; nk_x : view E; nk_e : nvec; nk_f : nvec; nk_h : nvec; nk_hx : view E; nk_wk : R' }.
  (** sum over the k-points of a rank, then allreduce *)
  Definition ksum_n (l : list R') : R' := fold_left (aadd A) l (n_0 N).
  Definition allsum_n (w : list (list R')) : R' := ksum_n (map ksum_n w).
  (** grad_eta.hpp 32-46: the sum over the bands; nbands is the length of Hii *)
  Fixpoint dFdmu_loop_n (mu : R') (h e : nvec) (i : nat) : kres R' :=
    match i with
    | O => KOk (n_0 N)
    | S j => v <-- dFdmu_loop_n mu h e j ;;
             nload e j (fun ej => nload h j (fun hj => KOk (aadd A v (amul A (asub A hj ej) (delta (adiv A (asub A ej mu) kT))))))
    end.
  (** 16-50: dFdmu *)
  Definition dFdmu_n (world : list (list nk)) (mu : R') : kres R' :=
    r <-- kmap2 (fun _ k => v <-- dFdmu_loop_n mu (nk_h k) (nk_e k) (fst (nk_h k)) ;; KOk (amul A v (nk_wk k))) 0 world ;;
    KOk (allsum_n r).
  (** 59-81: dmu_deta; nbands is the length of en *)
  Fixpoint dmu_loop_n (mu wk : R') (e : nvec) (i : nat) : R' :=
    match i with O => n_0 N | S j => aadd A (dmu_loop_n mu wk e j) (amul A (delta (adiv A (asub A (snd e j) mu) kT)) wk) end.
  Definition dmu_deta_n (world : list (list nk)) (mu : R') : R' :=
    allsum_n (map (map (fun k => dmu_loop_n mu (nk_wk k) (nk_e k) (fst (nk_e k)))) world).
  (** 155-183: restarted *)
  Definition restarted_n (world : list (list nk)) (mu : R') : kres (R' * list (list (view E * view E))) :=
    dF <-- dFdmu_n world mu ;;
    let dmu := dmu_deta_n world mu in
    res <-- kmap2 (fun t k => exec_restart_n t (nk_key k) mu dmu dF (nk_wk k) (nk_x k) (nk_e k) (nk_f k) (nk_hx k)) 0 world ;;
    KOk (allsum_n (map (map (fun r => fst (fst r))) res), map (map (fun r => (snd (fst r), snd r))) res).
  (** 81-144: conjugated; the previous directions and the rotation of each k-point come with it *)
  Definition conjugated_n (fr_old : R') (world : list (list (nk * (view E * view E * view E)))) (mu : R')
    : kres (R' * R' * list (list (view E * view E))) :=
    dF <-- dFdmu_n (map (map fst) world) mu ;;
    let dmu := dmu_deta_n (map (map fst) world) mu in
    res <-- kmap2 (fun t kz => match kz with (k, (zxp, zetap, ul)) =>
             exec_cg_n t (nk_key k) mu dmu dF (nk_wk k) (nk_x k) (nk_e k) (nk_f k) (nk_hx k) zxp zetap ul end) 0 world ;;
    let fr := allsum_n (map (map (fun r => match r with (fr, _, _, _, _, _) => fr end)) res) in
    let gamma := adiv A fr fr_old in
    let slope_zp := allsum_n (map (map (fun r => match r with (_, _, _, _, _, sl) => sl end)) res) in
    let slope := aadd A fr (amul A gamma slope_zp) in
    zs <-- kmap2 (fun t r => match r with (_, dx, de, zx, ze, _) => combine_directions_n t gamma dx de zx ze end)
             (32 * length (concat world)) res ;;
    KOk (fr, slope, zs).
End Num.

(** ** With exact numbers this is the step of DeviceStep.v *)
Section Exact.
  Notation V := (ev Celt).
  Context (sp : space) (ord : nat -> orders) (ord1 : nat -> nat -> list nat) (junk : nat -> nat -> V) (red : nat -> nat -> rtree).
  Context (heevd : nat -> buf Celt -> nat -> Z * buf Celt * (nat -> R)) (potrf : nat -> buf Celt -> nat -> Z * buf Celt)
          (potrs : nat -> nat -> buf Celt -> nat -> buf Celt -> nat -> Z * buf Celt) (opS opP : operator_fn Celt).
  Context (s : smearing_type) (T kappa mo : R).
  Lemma eigh_n_exact t U wn Sv : eigh_n exactN sp ord heevd t U wn Sv = eigh_at sp ord heevd t U wn Sv.
  Proof. destruct sp; reflexivity. Qed.
  Lemma geodesic_n_exact t k step X eta zx ze :
    geodesic_us_n exactN sp ord junk heevd opS t k step X eta zx ze = geodesic_us_at sp ord junk heevd opS t k step X eta zx ze.
  Proof. destruct sp; reflexivity. Qed.
  Lemma exec_restart_n_exact t k mu dmu dF wk x e f hx :
    exec_restart_n exactN sp ord ord1 junk red potrf potrs opS opP (smearing_class s) T kappa mo t k mu dmu dF wk x e f hx =
    exec_restart_at sp ord ord1 junk red potrf potrs opS opP s T kappa mo t k mu dmu dF wk x e f hx.
  Proof. reflexivity. Qed.
  Lemma exec_cg_n_exact t k mu dmu dF wk x e f hx zxp zetap ul :
    exec_cg_n exactN sp ord ord1 junk red potrf potrs opS opP (smearing_class s) T kappa mo t k mu dmu dF wk x e f hx zxp zetap ul =
    exec_cg_at sp ord ord1 junk red potrf potrs opS opP s T kappa mo t k mu dmu dF wk x e f hx zxp zetap ul.
  Proof. reflexivity. Qed.
  Lemma combine_n_exact t gamma dx de zx ze :
    combine_directions_n exactN sp ord t gamma dx de zx ze = combine_directions_at sp ord t gamma dx de zx ze.
  Proof. reflexivity. Qed.
End Exact.
