(** The step of StepMem.v on a heap: views are references to allocations, copying a view copies the reference, kernels write into
    the allocation of their destination, and whatever refers to the same allocation sees it.
    src/la/dvector.hpp 134-204 (KokkosDVector holds a reference counted Kokkos::View, copies share it), 285-293
    (create_mirror_view_and_copy: on the host the same view), src/la/utils.hpp 166-173 (copy), src/la/lapack.hpp,
    src/mvp2/mvp2.hpp, src/geodesic.hpp, src/mvp2/descent_direction_impl.hpp, src/mvp2/descent_direction.hpp 81-186,
    src/free_energy.hpp 79-90, src/nlcglib.cpp 324-335 and 376-425.
    Each function is the one of StepMem.v with the same number of call sites, so that both can be compared.
    Overlap of a destination with an operand is undefined behaviour (it is for zgemm; for the element-wise kernels this is stricter
    than necessary).
    Simplifications: as in StepMem.v; memory is not reused after a view is destroyed; one-dimensional views of doubles are values;
    every view starts at the beginning of its allocation (no subviews in the code modelled). *)
From Coq Require Import ZArith Reals Arith List Bool Lia.
From Coquelicot Require Import Complex.
From Verif Require Import Arith LinAlg MVector LapackMem LapackElt Exchange Smearing Newton Occupation StepMem.
Import ListNotations.
Local Open Scope R_scope.

(** allocations are numbered; those from [hnext] on do not exist yet *)
Record heap := MkHeap { hnext : nat; hbuf : nat -> buf Celt }.
(** a view: which allocation, extents, strides, map().is_local() *)
Record hview := MkHview { hloc : nat; hrows : nat; hcols : nat; hs0 : nat; hs1 : nat; hlocal : bool }.
(** what is seen through it *)
Definition vof (h : heap) (x : hview) : view Celt := MkView (hrows x) (hcols x) (hs0 x) (hs1 x) (hlocal x) (hbuf h (hloc x)).
Definition hset (h : heap) (l : nat) (b : buf Celt) : heap := MkHeap (hnext h) (fun q => if Nat.eqb q l then b else hbuf h q).

(** programs *)
Definition hm (A : Type) : Type := heap -> kres (A * heap).
Definition hret {A} (a : A) : hm A := fun h => KOk (a, h).
Definition hbind {A B} (m : hm A) (f : A -> hm B) : hm B := fun h => kbind (m h) (fun ah => f (fst ah) (snd ah)).
(** a computation that only reads *)
Definition hread {A} (r : heap -> kres A) : hm A := fun h => kbind (r h) (fun a => KOk (a, h)).
Notation "x <~ a ;; b" := (hbind a (fun x => b)) (at level 61, a at next level, right associativity).

(** a fresh allocation with packed columns *)
Definition hnew (rows cols : nat) (loc : bool) (f : nat -> ev Celt) : hm hview := fun h =>
  KOk (MkHview (hnext h) rows cols 1 rows loc,
       MkHeap (S (hnext h)) (fun q => if Nat.eqb q (hnext h) then MkBuf (rows * cols) f else hbuf h q)).
(** a kernel with destination [C] and operands [ins] *)
Definition hkernel (C : hview) (ins : list hview) (f : heap -> kres (view Celt)) : hm unit := fun h =>
  if existsb (fun x => Nat.eqb (hloc x) (hloc C)) ins then KUB
  else kbind (f h) (fun v => KOk (tt, hset h (hloc C) (vbuf v))).

Section Heap.
  Notation V := (ev Celt).
  Context (ord : nat -> orders) (ord1 : nat -> nat -> list nat) (junk : nat -> nat -> V).
  Context (heevd : nat -> buf Celt -> nat -> Z * buf Celt * (nat -> R)).
  Context (potrf : nat -> buf Celt -> nat -> Z * buf Celt)
          (potrs : nat -> nat -> buf Celt -> nat -> buf Celt -> nat -> Z * buf Celt).
  Context (opS opP : operator_fn Celt).

  (** utils.hpp 78-86: zeros_like; 134-156: empty_like *)
  Definition h_zeros_like (x : hview) : hm hview := hnew (hrows x) (hcols x) (hlocal x) (fun _ => e0 Celt).
  Definition h_empty_like (x : hview) (j : nat -> V) : hm hview := hnew (hrows x) (hcols x) (hlocal x) j.
  (** Kokkos::deep_copy *)
  Definition h_deep_copy (o : list (nat * nat)) (dst src : hview) : hm unit :=
    hkernel dst [src] (fun h => deep_copy Celt o (vof h dst) (vof h src)).
  (** utils.hpp 166-173: copy *)
  Definition h_copy (o : list (nat * nat)) (j : nat -> V) (x : hview) : hm hview :=
    y <~ h_empty_like x j ;; _ <~ h_deep_copy o y x ;; hret y.
  (** lapack_cpu.hpp 297-333: add; 90-156 inner; 159-225 outer; 228-294 transform *)
  Definition h_add (o : list (nat * nat)) (C A : hview) (alpha beta : V) : hm unit :=
    hkernel C [A] (fun h => add o (vof h C) (vof h A) alpha beta).
  Definition h_inner (o : list (nat * nat)) (C A B : hview) (alpha beta : V) : hm unit :=
    hkernel C [A; B] (fun h => inner o (vof h C) (vof h A) (vof h B) alpha beta).
  Definition h_outer (o : list (nat * nat)) (C A B : hview) (alpha beta : V) : hm unit :=
    hkernel C [A; B] (fun h => outer o (vof h C) (vof h A) (vof h B) alpha beta).
  Definition h_transform (o : list (nat * nat)) (C : hview) (beta alpha : V) (A B : hview) : hm unit :=
    hkernel C [A; B] (fun h => transform o (vof h C) beta alpha (vof h A) (vof h B)).
  (** lapack.hpp 232-248: inner_; 428-440: transform_alloc *)
  Definition h_inner_ (o : list (nat * nat)) (A B : hview) (alpha beta : V) : hm hview :=
    C <~ hnew (hcols A) (hcols B) (hlocal A) (fun _ => e0 Celt) ;; _ <~ h_inner o C A B alpha beta ;; hret C.
  Definition h_transform_alloc (o : list (nat * nat)) (A B : hview) (alpha beta : V) : hm hview :=
    C <~ h_zeros_like A ;; _ <~ h_transform o C beta alpha A B ;; hret C.
  (** lapack.hpp 75-103: scale(dst, src, x, alpha, beta); 151-172: scale(dst, src, alpha) *)
  Definition h_scale_cols (o : list (nat * nat)) (dst src : hview) (xn : nat) (x : nat -> er Celt) (alpha beta : er Celt) : hm unit :=
    hkernel dst [src] (fun h => scale_cols o (vof h dst) (vof h src) xn x alpha beta).
  Definition h_scale (o : list (nat * nat)) (dst src : hview) (alpha : er Celt) : hm unit :=
    hkernel dst [src] (fun h => scale o (vof h dst) (vof h src) alpha).
  (** lapack_cpu.hpp 56-86: solve_sym; both arguments are overwritten *)
  Definition h_solve_sym (A RHS : hview) : hm unit := fun h =>
    if Nat.eqb (hloc A) (hloc RHS) then KUB
    else kbind (solve_sym potrf potrs (vof h A) (vof h RHS))
           (fun ab => KOk (tt, hset (hset h (hloc A) (vbuf (fst ab))) (hloc RHS) (vbuf (snd ab)))).
  (** operator.hpp 65-72: the calling program's operator gets fresh Y and X, both writable *)
  Definition h_apply (op : operator_fn Celt) (k : key) (j : nat -> V) (x : hview) : hm hview :=
    y <~ h_empty_like x j ;;
    fun h => let '(by_, bx) := op k (descriptor Celt (vof h y)) (vbuf (vof h y)) (descriptor Celt (vof h x)) (vbuf (vof h x)) in
             KOk (y, hset (hset h (hloc x) bx) (hloc y) by_).
  (** lapack_cpu.hpp 23-52: eigh(U, w, S) *)
  Definition h_eigh (t : nat) (U : hview) (wn : nat) (Sv : hview) : hm rvec := fun h =>
    if Nat.eqb (hloc Sv) (hloc U) then KUB
    else kbind (eigh ord heevd t (vof h U) wn (vof h Sv)) (fun Uw => KOk (snd Uw, hset h (hloc U) (vbuf (fst Uw)))).
  (** lapack.hpp 400-425: loewdin *)
  Definition h_loewdin (t : nat) (X SX : hview) : hm hview :=
    M <~ h_inner_ (ord t (hcols X) (hcols SX)) X SX (RtoC 1 : V) (RtoC 0 : V) ;;
    U <~ h_empty_like M (junk t) ;;
    w0 <~ h_eigh (t + 1) U (hcols X) M ;;
    let w := loewdin_aux w0 in
    _ <~ h_scale_cols (ord (t + 2)%nat (hrows U) (hcols U)) M U (fst w) (snd w) (1 : er Celt) (0 : er Celt) ;;
    Rm <~ h_zeros_like U ;;
    _ <~ h_outer (ord (t + 3)%nat (hcols M) (hcols U)) Rm M U (RtoC 1 : V) (RtoC 0 : V) ;;
    Y <~ h_zeros_like X ;;
    _ <~ h_transform (ord (t + 4)%nat (hrows X) (hcols Rm)) Y (RtoC 0 : V) (RtoC 1 : V) X Rm ;;
    hret Y.
  (** geodesic.hpp 11-32: advance_eta *)
  Definition h_advance_eta (t : nat) (step : R) (eta d_eta : hview) : hm hview :=
    e1 <~ h_empty_like d_eta (junk t) ;;
    _ <~ h_deep_copy (ord t (hrows eta) (hcols eta)) e1 eta ;;
    _ <~ h_add (ord (t + 1)%nat (hrows d_eta) (hcols e1)) e1 d_eta (RtoC step : V) (RtoC 1 : V) ;;
    hret e1.
  (** 52-66: eigvals_and_vectors *)
  Definition h_eigvals_and_vectors (t : nat) (eta : hview) : hm (hview * rvec) :=
    U <~ h_empty_like eta (junk t) ;; w <~ h_eigh t U (hcols eta) eta ;; hret (U, w).
  (** 86-99: advance_x, ultra-soft case *)
  Definition h_advance_x (t : nat) (k : key) (step : R) (x dx ul : hview) : hm hview :=
    x1 <~ h_empty_like x (junk t) ;;
    _ <~ h_deep_copy (ord t (hrows x) (hcols x)) x1 x ;;
    _ <~ h_add (ord (t + 1)%nat (hrows dx) (hcols x1)) x1 dx (RtoC step : V) (RtoC 1 : V) ;;
    sx <~ h_apply opS k (junk (t + 1)%nat) x1 ;;
    y <~ h_loewdin (t + 2) x1 sx ;;
    h_transform_alloc (ord (t + 7)%nat (hrows y) (hcols ul)) y ul (RtoC 1 : V) (RtoC 0 : V).
  (** 152-170: geodesic_us *)
  Definition h_geodesic_us (t : nat) (k : key) (step : R) (X eta z_x z_eta : hview) : hm (rvec * hview * hview) :=
    eta_next <~ h_advance_eta t step eta z_eta ;;
    Ue <~ h_eigvals_and_vectors (t + 2) eta_next ;;
    x_next <~ h_advance_x (t + 4) k step X z_x (fst Ue) ;;
    hret (snd Ue, fst Ue, x_next).
  (** mvp2.hpp 12-32: lmult; 34-45: gradx; 66-82: precondgx_us; 85-102: rotatex, rotateeta; 154-170: conjugatex *)
  Definition h_lmult (t : nat) (k : key) (sx hx : hview) : hm hview :=
    psx <~ h_apply opP k (junk t) sx ;;
    xkx <~ h_inner_ (ord t (hcols sx) (hcols psx)) sx psx (RtoC 1 : V) (RtoC 0 : V) ;;
    phx <~ h_apply opP k (junk (t + 1)%nat) hx ;;
    xkhx <~ h_inner_ (ord (t + 1)%nat (hcols sx) (hcols phx)) sx phx (RtoC 1 : V) (RtoC 0 : V) ;;
    _ <~ h_solve_sym xkx xkhx ;;
    h_transform_alloc (ord (t + 2)%nat (hrows sx) (hcols xkhx)) sx xkhx (RtoC 1 : V) (RtoC 0 : V).
  Definition h_gradx (t : nat) (x hx : hview) (fn : rvec) (xll : hview) (wk : R) : hm hview :=
    g <~ h_empty_like x (junk t) ;;
    _ <~ h_scale_cols (ord t (hrows hx) (hcols hx)) g hx (fst fn) (snd fn) (wk : er Celt) (0 : er Celt) ;;
    _ <~ h_add (ord (t + 1)%nat (hrows xll) (hcols g)) g xll (RtoC (- wk) : V) (RtoC 1 : V) ;;
    hret g.
  Definition h_precondgx_us (t : nat) (k : key) (x hx xll : hview) : hm hview :=
    d <~ h_zeros_like x ;;
    _ <~ h_add (ord t (hrows hx) (hcols d)) d hx (RtoC (-1) : V) (RtoC 0 : V) ;;
    _ <~ h_add (ord (t + 1)%nat (hrows xll) (hcols d)) d xll (RtoC 1 : V) (RtoC 1 : V) ;;
    h_apply opP k (junk t) d.
  Definition h_rotatex (t : nat) (x u : hview) : hm hview :=
    h_transform_alloc (ord t (hrows x) (hcols u)) x u (RtoC 1 : V) (RtoC 0 : V).
  Definition h_rotateeta (t : nat) (eta u : hview) : hm hview :=
    etau <~ h_transform_alloc (ord t (hrows eta) (hcols u)) eta u (RtoC 1 : V) (RtoC 0 : V) ;;
    h_inner_ (ord (t + 1)%nat (hcols u) (hcols etau)) u etau (RtoC 1 : V) (RtoC 0 : V).
  (** overwrites zxp and returns it *)
  Definition h_conjugatex (t : nat) (zxp sx : hview) : hm hview :=
    sx_zxp <~ h_inner_ (ord t (hcols sx) (hcols zxp)) sx zxp (RtoC 1 : V) (RtoC 0 : V) ;;
    sx2 <~ h_inner_ (ord (t + 1)%nat (hcols sx) (hcols sx)) sx sx (RtoC 1 : V) (RtoC 0 : V) ;;
    _ <~ h_solve_sym sx2 sx_zxp ;;
    corr <~ h_transform_alloc (ord (t + 2)%nat (hrows sx) (hcols sx_zxp)) sx sx_zxp (RtoC 1 : V) (RtoC 0 : V) ;;
    _ <~ h_add (ord (t + 3)%nat (hrows corr) (hcols zxp)) zxp corr (RtoC (-1) : V) (RtoC 1 : V) ;;
    hret zxp.

  (** grad_eta.hpp *)
  Context (s : smearing_type) (T kappa mo : R).
  Definition h_delta_eta (t : nat) (hij : hview) (ek : rvec) (wk : R) : hm hview :=
    d <~ h_empty_like hij (junk t) ;;
    _ <~ hkernel d [hij] (fun h => delta_eta ord ord1 junk kappa t (vof h hij) ek wk) ;;
    hret d.
  Definition h_g_eta (t : nat) (hij : hview) (mu wk : R) (ek fn : rvec) (dmu dF : R) : hm hview :=
    g <~ h_zeros_like hij ;;
    _ <~ hkernel g [hij] (fun h => g_eta ord ord1 s T mo t (vof h hij) mu wk ek fn dmu dF) ;;
    hret g.

  (** descent_direction_impl.hpp 183-201: exec_spc, restart *)
  Definition h_exec_restart (t : nat) (k : key) (mu dmu dF wk : R) (x : hview) (e f : rvec) (hx : hview) : hm (R * hview * hview) :=
    sx <~ h_apply opS k (junk t) x ;;
    llm <~ h_lmult (t + 1) k sx hx ;;
    gx <~ h_gradx (t + 4) sx hx f llm wk ;;
    dx <~ h_precondgx_us (t + 6) k sx hx llm ;;
    hij <~ h_inner_ (ord (t + 8)%nat (hcols x) (hcols hx)) x hx (RtoC wk : V) (RtoC 0 : V) ;;
    ge <~ h_g_eta (t + 9) hij mu wk e f dmu dF ;;
    de <~ h_delta_eta (t + 11) hij e wk ;;
    frx <~ hread (fun h => innerh_tr (vof h gx) (vof h dx)) ;;
    fre <~ hread (fun h => innerh_tr (vof h ge) (vof h de)) ;;
    hret (2 * Re frx + Re fre, dx, de).
  (** 163-177: exec_conjugate *)
  Definition h_exec_conjugate (t : nat) (sx zxp zetap ul gx ge : hview) : hm (R * hview * hview) :=
    zx_tmp <~ h_rotatex t zxp ul ;;
    zeta <~ h_rotateeta (t + 1) zetap ul ;;
    zx <~ h_conjugatex (t + 3) zx_tmp sx ;;
    slx <~ hread (fun h => innerh_tr (vof h zx) (vof h gx)) ;;
    sle <~ hread (fun h => innerh_tr (vof h zeta) (vof h ge)) ;;
    hret (2 * Re slx + Re sle, zx, zeta).
  (** 124-157: exec_spc, conjugate *)
  Definition h_exec_cg (t : nat) (k : key) (mu dmu dF wk : R) (x : hview) (e f : rvec) (hx zxp zetap ul : hview)
    : hm (R * hview * hview * hview * hview * R) :=
    sx <~ h_apply opS k (junk t) x ;;
    llm <~ h_lmult (t + 1) k sx hx ;;
    gx <~ h_gradx (t + 4) sx hx f llm wk ;;
    dx <~ h_precondgx_us (t + 6) k sx hx llm ;;
    hij <~ h_inner_ (ord (t + 8)%nat (hcols x) (hcols hx)) x hx (RtoC wk : V) (RtoC 0 : V) ;;
    ge <~ h_g_eta (t + 9) hij mu wk e f dmu dF ;;
    de <~ h_delta_eta (t + 11) hij e wk ;;
    frx <~ hread (fun h => innerh_tr (vof h gx) (vof h dx)) ;;
    fre <~ hread (fun h => innerh_tr (vof h ge) (vof h de)) ;;
    cj <~ h_exec_conjugate (t + 12) sx zxp zetap ul gx ge ;;
    hret (2 * Re frx + Re fre, dx, de, snd (fst cj), snd cj, fst (fst cj)).
  (** descent_direction.hpp 128-141: in place *)
  Definition h_combine (t : nat) (gamma : R) (dx de zx ze : hview) : hm unit :=
    _ <~ h_add (ord t (hrows dx) (hcols zx)) zx dx (RtoC 1 : V) (RtoC gamma : V) ;;
    h_add (ord (t + 1)%nat (hrows de) (hcols ze)) ze de (RtoC 1 : V) (RtoC gamma : V).

  (** ** All k-points of a rank *)
  (** the functions of the k-points one after the other (tapply_async with std::launch::deferred, eval_threaded) *)
  Fixpoint hmap {A B} (f : nat -> A -> hm B) (t : nat) (l : list A) : hm (list B) :=
    match l with
    | [] => hret []
    | a :: r => b <~ f t a ;; bs <~ hmap f (t + 32) r ;; hret (b :: bs)
    end.
  (** variables of nlcg_us for one k-point, as far as a direction needs them: X, ek, fn, HX, weight; z_x, z_eta, ul *)
  Record hk := MkHk { hk_key : key; hk_x : hview; hk_e : rvec; hk_f : rvec; hk_h : rvec; hk_hx : hview; hk_wk : R }.
  (** descent_direction.hpp 155-183: restarted, on one rank; dmu and dF are reduced over the ranks before *)
  Definition h_restarted (t : nat) (mu dmu dF : R) (ks : list hk) : hm (list (R * hview * hview)) :=
    hmap (fun t k => h_exec_restart t (hk_key k) mu dmu dF (hk_wk k) (hk_x k) (hk_e k) (hk_f k) (hk_hx k)) t ks.
  (** 81-144: conjugated, on one rank: first the functions of the k-points ... *)
  Definition h_conjugated1 (t : nat) (mu dmu dF : R) (ks : list (hk * (hview * hview * hview)))
    : hm (list (R * hview * hview * hview * hview * R)) :=
    hmap (fun t kz => match kz with (k, (zxp, zetap, ul)) =>
      h_exec_cg t (hk_key k) mu dmu dF (hk_wk k) (hk_x k) (hk_e k) (hk_f k) (hk_hx k) zxp zetap ul end) t ks.
  (** ... then, with gamma from the reduction, the update in place; z_x and z_eta are returned *)
  Definition h_conjugated2 (t : nat) (gamma : R) (res : list (R * hview * hview * hview * hview * R)) : hm (list (hview * hview)) :=
    hmap (fun t r => match r with (_, dx, de, zx, ze, _) => _ <~ h_combine t gamma dx de zx ze ;; hret (zx, ze) end) t res.
  (** both; [total] is the reduction of fr over the ranks *)
  Definition h_conjugated (t1 t2 : nat) (fr_old mu dmu dF total : R) (ks : list (hk * (hview * hview * hview))) : hm (list (hview * hview)) :=
    res <~ h_conjugated1 t1 mu dmu dF ks ;; h_conjugated2 t2 (total / fr_old) res.

  (** ** Trial evaluations: nlcglib.cpp 324-335 *)
  (** X, eta, z_x, z_eta of one k-point, captured by reference *)
  Record sk := MkSk { sk_key : key; sk_x : hview; sk_eta : hview; sk_zx : hview; sk_ze : hview }.
  Definition h_geodesic (t : nat) (step : R) (ks : list sk) : hm (list (rvec * hview * hview)) :=
    hmap (fun t k => h_geodesic_us t (sk_key k) step (sk_x k) (sk_eta k) (sk_zx k) (sk_ze k)) t ks.
  (** free_energy.hpp 79-90: x into a packed host mirror, then into the calling program's buffer [c] *)
  Definition h_put (t : nat) (cx : hview * hview) : hm unit :=
    let '(c, x) := cx in
    xh <~ hnew (hrows x) (hcols x) true (fun _ => e0 Celt) ;;
    _ <~ h_deep_copy (ord t (hrows x) (hcols x)) xh x ;;
    h_deep_copy (ord (t + 1)%nat (hrows x) (hcols x)) c xh.
  (** energy.compute(): the calling program changes its own memory *)
  Context (caller : heap -> heap).
  Definition h_caller : hm unit := fun h => KOk (tt, caller h).
  (** g(t): geodesic, then FreeEnergy::compute; [cs] are the calling program's wave functions, one for each k-point *)
  Definition h_eval (cs : list hview) (t : nat) (step : R) (ks : list sk) : hm (list (rvec * hview * hview)) :=
    res <~ h_geodesic t step ks ;;
    _ <~ hmap h_put (t + 16) (combine cs (map snd res)) ;;
    _ <~ h_caller ;;
    hret res.
  (** a line search: any number of evaluations; their results stay around *)
  Fixpoint h_evals (cs : list hview) (trials : list (nat * R)) (ks : list sk) : hm (list (list (rvec * hview * hview))) :=
    match trials with
    | [] => hret []
    | (t, step) :: r => a <~ h_eval cs t step ks ;; l <~ h_evals cs r ks ;; hret (a :: l)
    end.
End Heap.
