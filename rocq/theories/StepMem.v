(** One step of the solver at the level of memory: eigh (src/la/lapack_cpu.hpp 23-52), diag, make_diag, innerh_tr,
    loewdin (src/la/lapack.hpp), the kernels of src/mvp2/mvp2.hpp, _delta_eta and g_eta of
    src/pseudo_hamiltonian/grad_eta.hpp, src/mvp2/descent_direction_impl.hpp (exec_spc, exec_conjugate) and
    src/geodesic.hpp (advance_eta, advance_x, geodesic_us), composed from the kernels of LapackMem.v and the calls of
    the operators of the calling program in Exchange.v.
    Undefined behaviour, exceptions and rejected arguments of every kernel propagate.
    Simplifications: host memory (create_mirror_view_and_copy to the same space returns the same view); exact complex
    numbers; fresh memory never overlaps existing views; LAPACK routines are functions of the memory they are given.
    Every loop runs in an arbitrary order: [ord t] for call site t; [junk t] is the contents of fresh, uninitialised
    memory at call site t. *)
From Coq Require Import ZArith Reals Arith List Bool.
From Coquelicot Require Import Complex.
From Verif Require Import Arith LinAlg MVector LapackMem LapackElt Exchange Smearing Newton Occupation.
Import ListNotations.
Local Open Scope R_scope.

Notation "x <-- a ;; b" := (kbind a (fun x => b)) (at level 61, a at next level, right associativity).

(** ** Kernels independent of the element type *)
Section Generic.
  Context (E : elt).
  Notation V := (ev E).

  (** utils.hpp 78-86, 107-115: zeros_like *)
  Definition zeros_like (X : view E) : view E := alloc E (vrows X) (vcols X) (vlocal X).
  (** utils.hpp 134-166: empty_like (without DEBUG, which fills with NAN) *)
  Definition empty_like (X : view E) (junk : nat -> V) : view E := alloc_uninit E (vrows X) (vcols X) (vlocal X) junk.

  (** lapack.hpp 22-37: diag; d(i) = X(i,i) for i < min(rows, columns) *)
  Fixpoint diag_loop (X : view E) (n : nat) : kres (list V) :=
    match n with
    | O => KOk []
    | S i => l <-- diag_loop X i ;; load (vbuf X) (addr X i i) (fun a => KOk (l ++ [a]))
    end.
  Definition diag (X : view E) : kres (list V) := diag_loop X (Nat.min (vrows X) (vcols X)).

  (** a loop over 0..n-1 in the order given *)
  Fixpoint forrange (order : list nat) (body : nat -> buf E -> kres (buf E)) (b : buf E) : kres (buf E) :=
    match order with
    | [] => KOk b
    | i :: r => kbind (body i b) (forrange r body)
    end.

  (** lapack.hpp 42-64: make_diag; x has n elements *)
  Definition make_diag (order : list nat) (n : nat) (x : nat -> V) : kres (view E) :=
    let out := alloc E n n true in
    b <-- forrange order (fun i c => if Nat.ltb i n then store c (addr out i i) (x i) else KUB) (vbuf out) ;;
    KOk (with_buf out b).

  (** lapack.hpp 304-314: tmp(i), starting from zero *)
  Fixpoint row_sum (X Y : view E) (i n : nat) : kres V :=
    match n with
    | O => KOk (e0 E)
    | S j =>
      s <-- row_sum X Y i j ;;
      load (vbuf X) (addr X i j) (fun a => load (vbuf Y) (addr Y i j) (fun b => KOk (eadd E s (ekmul E a (econj E b)))))
    end.
  (** lapack.hpp 315-320: the reduction over the rows on the host (Kokkos::Serial) *)
  Fixpoint rows_sum (X Y : view E) (n : nat) : kres V :=
    match n with
    | O => KOk (e0 E)
    | S i => s <-- rows_sum X Y i ;; t <-- row_sum X Y i (vcols X) ;; KOk (eadd E s t)
    end.
  (** lapack.hpp 290-327: innerh_tr; the extents are those of X *)
  Definition innerh_tr (X Y : view E) : kres V := rows_sum X Y (vrows X).
End Generic.
Arguments zeros_like {E} _.
Arguments empty_like {E} _ _.
Arguments diag_loop {E} _ _.
Arguments diag {E} _.
Arguments forrange {E} _ _ _.
Arguments make_diag {E} _ _ _.
Arguments row_sum {E} _ _ _ _.
Arguments rows_sum {E} _ _ _.
Arguments innerh_tr {E} _ _.

(** a one-dimensional view of doubles: number of elements, elements *)
Definition rvec : Type := nat * (nat -> R).

Section Step.
  Notation V := (ev Celt).
  Context (ord : nat -> orders) (ord1 : nat -> nat -> list nat) (junk : nat -> nat -> V).
  (** LAPACKE_zheevd('V', 'U', n, a, lda, w): order, matrix, leading dimension -> info, matrix, eigenvalues *)
  Context (heevd : nat -> buf Celt -> nat -> Z * buf Celt * (nat -> R)).
  (** LAPACKE_zpotrf, LAPACKE_zpotrs as in LapackMem.v *)
  Context (potrf : nat -> buf Celt -> nat -> Z * buf Celt)
          (potrs : nat -> nat -> buf Celt -> nat -> buf Celt -> nat -> Z * buf Celt).
  (** overlap operator and preconditioner of the calling program *)
  Context (opS opP : operator_fn Celt).

  (** lapack_cpu.hpp 23-52: eigh(U, w, S); w has [wn] elements.  zheevd writes n = columns of U eigenvalues. *)
  Definition eigh (t : nat) (U : view Celt) (wn : nat) (Sv : view Celt) : kres (view Celt * rvec) :=
    U1 <-- deep_copy Celt (ord t (vrows Sv) (vcols Sv)) U Sv ;;
    if vlocal Sv then
      let n := vcols U1 in
      if Nat.leb n wn then
        match heevd n (vbuf U1) (vs1 U1) with
        | (info, b, w) => if Z.eqb info 0 then KOk (with_buf U1 b, (wn, w)) else KThrow
        end
      else KUB
    else KThrow.

  (** lapack.hpp 350-372: loewdin_aux, w(i) = 1 / sqrt(w(i)) *)
  Definition loewdin_aux (w : rvec) : rvec := (fst w, fun i => 1 / sqrt (snd w i)).

  (** lapack.hpp 400-425: loewdin(X, SX) (and 375-398 with SX = X) *)
  Definition loewdin (t : nat) (X SX : view Celt) : kres (view Celt) :=
    M <-- inner_ (ord t (vcols X) (vcols SX)) X SX (RtoC 1 : V) (RtoC 0 : V) ;;
    Uw <-- eigh (t + 1) (empty_like M (junk t)) (vcols X) M ;;
    let U := fst Uw in
    let w := loewdin_aux (snd Uw) in
    M' <-- scale_cols (ord (t + 2) (vrows U) (vcols U)) M U (fst w) (snd w) (1 : er Celt) (0 : er Celt) ;;
    Rm <-- outer (ord (t + 3) (vcols M') (vcols U)) (zeros_like U) M' U (RtoC 1 : V) (RtoC 0 : V) ;;
    transform (ord (t + 4) (vrows X) (vcols Rm)) (zeros_like X) (RtoC 0 : V) (RtoC 1 : V) X Rm.

  (** ** geodesic.hpp *)
  (** 11-32: advance_eta *)
  Definition advance_eta (t : nat) (step : R) (eta d_eta : view Celt) : kres (view Celt) :=
    e1 <-- deep_copy Celt (ord t (vrows eta) (vcols eta)) (empty_like d_eta (junk t)) eta ;;
    add (ord (t + 1) (vrows d_eta) (vcols e1)) e1 d_eta (RtoC step : V) (RtoC 1 : V).

  (** 52-66: eigvals_and_vectors *)
  Definition eigvals_and_vectors (t : nat) (eta : view Celt) : kres (view Celt * rvec) :=
    eigh t (empty_like eta (junk t)) (vcols eta) eta.

  (** 86-99: advance_x, ultra-soft case *)
  Definition advance_x (t : nat) (k : key) (step : R) (x dx ul : view Celt) : kres (view Celt) :=
    x1 <-- deep_copy Celt (ord t (vrows x) (vcols x)) (empty_like x (junk t)) x ;;
    x2 <-- add (ord (t + 1) (vrows dx) (vcols x1)) x1 dx (RtoC step : V) (RtoC 1 : V) ;;
    let '(sx, x3) := apply_op Celt opS k (junk (t + 1)) x2 in
    y <-- loewdin (t + 2) x3 sx ;;
    transform_alloc (ord (t + 7) (vrows y) (vcols ul)) y ul (RtoC 1 : V) (RtoC 0 : V).

  (** 152-170: impl::geodesic_us; ek, Ul, x_next *)
  Definition geodesic_us (t : nat) (k : key) (step : R) (X eta z_x z_eta : view Celt)
    : kres (rvec * view Celt * view Celt) :=
    eta_next <-- advance_eta t step eta z_eta ;;
    Ue <-- eigvals_and_vectors (t + 2) eta_next ;;
    x_next <-- advance_x (t + 4) k step X z_x (fst Ue) ;;
    KOk (snd Ue, fst Ue, x_next).

  (** ** mvp2.hpp *)
  (** 12-32: lmult; SX (SX^H P SX)^-1 SX^H P HX *)
  Definition lmult (t : nat) (k : key) (sx hx : view Celt) : kres (view Celt) :=
    let '(psx, sx1) := apply_op Celt opP k (junk t) sx in
    xkx <-- inner_ (ord t (vcols sx1) (vcols psx)) sx1 psx (RtoC 1 : V) (RtoC 0 : V) ;;
    let '(phx, hx1) := apply_op Celt opP k (junk (t + 1)) hx in
    xkhx <-- inner_ (ord (t + 1) (vcols sx1) (vcols phx)) sx1 phx (RtoC 1 : V) (RtoC 0 : V) ;;
    AX <-- solve_sym potrf potrs xkx xkhx ;;
    transform_alloc (ord (t + 2) (vrows sx1) (vcols (snd AX))) sx1 (snd AX) (RtoC 1 : V) (RtoC 0 : V).

  (** 34-45: gradx; scale has beta = 0, add has beta = 1 *)
  Definition gradx (t : nat) (x hx : view Celt) (fn : rvec) (xll : view Celt) (wk : R) : kres (view Celt) :=
    g1 <-- scale_cols (ord t (vrows hx) (vcols hx)) (empty_like x (junk t)) hx (fst fn) (snd fn) (wk : er Celt) (0 : er Celt) ;;
    add (ord (t + 1) (vrows xll) (vcols g1)) g1 xll (RtoC (- wk) : V) (RtoC 1 : V).

  (** 66-82: precondgx_us *)
  Definition precondgx_us (t : nat) (k : key) (x hx xll : view Celt) : kres (view Celt) :=
    d0 <-- add (ord t (vrows hx) (vcols (zeros_like x))) (zeros_like x) hx (RtoC (-1) : V) (RtoC 0 : V) ;;
    d1 <-- add (ord (t + 1) (vrows xll) (vcols d0)) d0 xll (RtoC 1 : V) (RtoC 1 : V) ;;
    KOk (fst (apply_op Celt opP k (junk t) d1)).

  (** 85-92: rotatex *)
  Definition rotatex (t : nat) (x u : view Celt) : kres (view Celt) :=
    transform_alloc (ord t (vrows x) (vcols u)) x u (RtoC 1 : V) (RtoC 0 : V).

  (** 94-102: rotateeta *)
  Definition rotateeta (t : nat) (eta u : view Celt) : kres (view Celt) :=
    etau <-- transform_alloc (ord t (vrows eta) (vcols u)) eta u (RtoC 1 : V) (RtoC 0 : V) ;;
    inner_ (ord (t + 1) (vcols u) (vcols etau)) u etau (RtoC 1 : V) (RtoC 0 : V).

  (** 154-170: conjugatex, ultra-soft case; zxp is overwritten *)
  Definition conjugatex (t : nat) (zxp sx : view Celt) : kres (view Celt) :=
    sx_zxp <-- inner_ (ord t (vcols sx) (vcols zxp)) sx zxp (RtoC 1 : V) (RtoC 0 : V) ;;
    sx2 <-- inner_ (ord (t + 1) (vcols sx) (vcols sx)) sx sx (RtoC 1 : V) (RtoC 0 : V) ;;
    AX <-- solve_sym potrf potrs sx2 sx_zxp ;;
    corr <-- transform_alloc (ord (t + 2) (vrows sx) (vcols (snd AX))) sx (snd AX) (RtoC 1 : V) (RtoC 0 : V) ;;
    add (ord (t + 3) (vrows corr) (vcols zxp)) zxp corr (RtoC (-1) : V) (RtoC 1 : V).

  (** ** grad_eta.hpp *)
  Context (s : smearing_type) (T kappa mo : R).
  Let kT : R := kb Rarith * T.     (* 126 *)
  Let delta (x : R) : R := sdelta (smearing_class s) x mo.

  (** reading an element of a one-dimensional view *)
  Definition vload {A} (v : rvec) (i : nat) (f : R -> kres A) : kres A :=
    if Nat.ltb i (fst v) then f (snd v i) else KUB.

  (** 84-116: _delta_eta; the loop runs over the elements of ek *)
  Definition delta_eta (t : nat) (hij : view Celt) (ek : rvec) (wk : R) : kres (view Celt) :=
    d <-- scale (ord t (vrows hij) (vcols hij)) (empty_like hij (junk t)) hij (kappa / wk : er Celt) ;;
    b <-- forrange (ord1 t (fst ek)) (fun i c =>
            vload ek i (fun ei => modify c (addr d i i) (fun old : V => Cminus old (RtoC (kappa * ei)) : V))) (vbuf d) ;;
    KOk (with_buf d b).

  (** 133-187: g_eta; nbands = rows of Hij *)
  Definition g_eta (t : nat) (hij : view Celt) (mu wk : R) (ek fn : rvec) (dmu dF : R) : kres (view Celt) :=
    let g := zeros_like hij in
    let nb := vrows hij in
    b1 <-- forrange (ord1 t nb) (fun i c =>
             vload ek i (fun ei => load (vbuf hij) (addr hij i i) (fun h : V =>
               store c (addr g i i)
                 (Cmult (Cmult (RtoC (-1 / kT)) (Cminus h (RtoC (wk * ei)))) (RtoC (delta ((ei - mu) / kT))) : V)))) (vbuf g) ;;
    b2 <-- (if Rltb (Rabs dmu) (1 / 10 ^ 12) then KOk b1
            else forrange (ord1 (t + 1)%nat nb) (fun i c =>
              vload ek i (fun ei =>
                modify c (addr g i i) (fun old : V => Cplus old (RtoC (wk * delta ((ei - mu) / kT) / dmu * (dF / kT))) : V))) b1) ;;
    b3 <-- foreach (ord t nb nb) (fun i j c =>
             if Nat.eqb i j then KOk c
             else vload ek j (fun ej => vload ek i (fun ei =>
               if Rltb (Rabs (ej - ei)) (1 / 10 ^ 10) then KOk c
               else vload fn j (fun fj => vload fn i (fun fi =>
                 load (vbuf hij) (addr hij i j) (fun h : V =>
                   modify c (addr g i j) (fun old : V => Cplus old (Cmult (RtoC ((fj - fi) / (ej - ei))) h) : V))))))) b2 ;;
    KOk (with_buf g b3).

  (** ** descent_direction_impl.hpp *)
  (** 183-201: exec_spc (restart): fr, delta_x, delta_eta *)
  Definition exec_restart (t : nat) (k : key) (mu dmu dF wk : R) (x : view Celt) (e f : rvec) (hx : view Celt)
    : kres (R * view Celt * view Celt) :=
    let '(sx, x1) := apply_op Celt opS k (junk t) x in
    llm <-- lmult (t + 1) k sx hx ;;
    gx <-- gradx (t + 4) sx hx f llm wk ;;
    dx <-- precondgx_us (t + 6) k sx hx llm ;;
    hij <-- inner_ (ord (t + 8)%nat (vcols x1) (vcols hx)) x1 hx (RtoC wk : V) (RtoC 0 : V) ;;
    ge <-- g_eta (t + 9) hij mu wk e f dmu dF ;;
    de <-- delta_eta (t + 11) hij e wk ;;
    frx <-- innerh_tr gx dx ;;
    fre <-- innerh_tr ge de ;;
    KOk (2 * Re frx + Re fre, dx, de).

  (** 163-177: exec_conjugate: slope, z_x, z_eta *)
  Definition exec_conjugate (t : nat) (sx zxp zetap ul gx ge : view Celt) : kres (R * view Celt * view Celt) :=
    zx_tmp <-- rotatex t zxp ul ;;
    zeta <-- rotateeta (t + 1) zetap ul ;;
    zx <-- conjugatex (t + 3) zx_tmp sx ;;
    slx <-- innerh_tr zx gx ;;
    sle <-- innerh_tr zeta ge ;;
    KOk (2 * Re slx + Re sle, zx, zeta).

  (** 124-157: exec_spc (conjugate): fr, delta_x, delta_eta, z_x, z_eta, slope_zp *)
  Definition exec_cg (t : nat) (k : key) (mu dmu dF wk : R) (x : view Celt) (e f : rvec) (hx zxp zetap ul : view Celt)
    : kres (R * view Celt * view Celt * view Celt * view Celt * R) :=
    let '(sx, x1) := apply_op Celt opS k (junk t) x in
    llm <-- lmult (t + 1) k sx hx ;;
    gx <-- gradx (t + 4) sx hx f llm wk ;;
    dx <-- precondgx_us (t + 6) k sx hx llm ;;
    hij <-- inner_ (ord (t + 8)%nat (vcols x1) (vcols hx)) x1 hx (RtoC wk : V) (RtoC 0 : V) ;;
    ge <-- g_eta (t + 9) hij mu wk e f dmu dF ;;
    de <-- delta_eta (t + 11) hij e wk ;;
    frx <-- innerh_tr gx dx ;;
    fre <-- innerh_tr ge de ;;
    cj <-- exec_conjugate (t + 12) sx zxp zetap ul gx ge ;;
    KOk (2 * Re frx + Re fre, dx, de, snd (fst cj), snd cj, fst (fst cj)).

  (** descent_direction.hpp 128-141: Z <- gamma Z + delta, in place, for one k-point *)
  Definition combine_directions (t : nat) (gamma : R) (dx de zx ze : view Celt) : kres (view Celt * view Celt) :=
    zx' <-- add (ord t (vrows dx) (vcols zx)) zx dx (RtoC 1 : V) (RtoC gamma : V) ;;
    ze' <-- add (ord (t + 1)%nat (vrows de) (vcols ze)) ze de (RtoC 1 : V) (RtoC gamma : V) ;;
    KOk (zx', ze').

  (** ** All k-points of all ranks: descent_direction.hpp *)
  (** what one k-point holds in memory: X, pseudo-eigenvalues, occupations, FreeEnergy::get_ek, HX, weight *)
  Record memk := MkMemk { mk_key : key; mk_x : view Celt; mk_e : rvec; mk_f : rvec; mk_h : rvec; mk_hx : view Celt; mk_wk : R }.

  (** the functions of the k-points one after the other; the first exception (or undefined behaviour) ends the loop *)
  Fixpoint kmap {A B} (f : nat -> A -> kres B) (t : nat) (l : list A) : kres (list B) :=
    match l with
    | [] => KOk []
    | a :: r => b <-- f t a ;; bs <-- kmap f (t + 32) r ;; KOk (b :: bs)
    end.
  (** and of the ranks *)
  Fixpoint kmap2 {A B} (f : nat -> A -> kres B) (t : nat) (w : list (list A)) : kres (list (list B)) :=
    match w with
    | [] => KOk []
    | l :: r => b <-- kmap f t l ;; bs <-- kmap2 f (t + 32 * length l) r ;; KOk (b :: bs)
    end.
  (** sum over the k-points of a rank, then allreduce *)
  Definition ksum (l : list R) : R := fold_left Rplus l 0.
  Definition allsum (w : list (list R)) : R := ksum (map ksum w).

  (** grad_eta.hpp 32-46: the sum over the bands; nbands is the length of Hii *)
  Fixpoint dFdmu_loop (mu : R) (h e : rvec) (i : nat) : kres R :=
    match i with
    | O => KOk 0
    | S j => v <-- dFdmu_loop mu h e j ;;
             vload e j (fun ej => vload h j (fun hj => KOk (v + (hj - ej) * delta ((ej - mu) / kT))))
    end.
  (** 16-50: dFdmu *)
  Definition dFdmu (world : list (list memk)) (mu : R) : kres R :=
    r <-- kmap2 (fun _ k => v <-- dFdmu_loop mu (mk_h k) (mk_e k) (fst (mk_h k)) ;; KOk (v * mk_wk k)) 0 world ;;
    KOk (allsum r).
  (** 59-81: dmu_deta; nbands is the length of en *)
  Fixpoint dmu_loop (mu wk : R) (e : rvec) (i : nat) : R :=
    match i with O => 0 | S j => dmu_loop mu wk e j + delta ((snd e j - mu) / kT) * wk end.
  Definition dmu_deta (world : list (list memk)) (mu : R) : R :=
    allsum (map (map (fun k => dmu_loop mu (mk_wk k) (mk_e k) (fst (mk_e k)))) world).

  (** 155-183: restarted *)
  Definition restarted (world : list (list memk)) (mu : R) : kres (R * list (list (view Celt * view Celt))) :=
    dF <-- dFdmu world mu ;;
    let dmu := dmu_deta world mu in
    res <-- kmap2 (fun t k => exec_restart t (mk_key k) mu dmu dF (mk_wk k) (mk_x k) (mk_e k) (mk_f k) (mk_hx k)) 0 world ;;
    KOk (allsum (map (map (fun r => fst (fst r))) res), map (map (fun r => (snd (fst r), snd r))) res).

  (** 81-144: conjugated; the previous directions and the rotation of each k-point come with it *)
  Definition conjugated (fr_old : R) (world : list (list (memk * (view Celt * view Celt * view Celt)))) (mu : R)
    : kres (R * R * list (list (view Celt * view Celt))) :=
    dF <-- dFdmu (map (map fst) world) mu ;;
    let dmu := dmu_deta (map (map fst) world) mu in
    res <-- kmap2 (fun t kz => match kz with (k, (zxp, zetap, ul)) =>
             exec_cg t (mk_key k) mu dmu dF (mk_wk k) (mk_x k) (mk_e k) (mk_f k) (mk_hx k) zxp zetap ul end) 0 world ;;
    let fr := allsum (map (map (fun r => match r with (fr, _, _, _, _, _) => fr end)) res) in
    let gamma := fr / fr_old in
    let slope_zp := allsum (map (map (fun r => match r with (_, _, _, _, _, sl) => sl end)) res) in
    let slope := fr + gamma * slope_zp in
    zs <-- kmap2 (fun t r => match r with (_, dx, de, zx, ze, _) => combine_directions t gamma dx de zx ze end)
             (32 * length (concat world)) res ;;
    KOk (fr, slope, zs).
End Step.
