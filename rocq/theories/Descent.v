(** Descent directions: src/mvp2/mvp2.hpp, src/mvp2/descent_direction_impl.hpp,
    src/mvp2/descent_direction.hpp, src/pseudo_hamiltonian/grad_eta.hpp and the matrix helpers of
    src/la/lapack.hpp they use.

    Simplifications: exact real / complex arithmetic; matrices are functions of two indices with the dimensions
    kept beside them (memory layout and strides of the kernels: LapackMem.v); all dimensions are those of
    the k-point (conformable operands); the keyed containers holding the data of one k-point are
    zipped into one record; host/device copies are the identity.  The overlap operator S and the
    preconditioner P of a k-point act on every column by a matrix.  The LAPACK solver is an oracle. *)
From Coq Require Import Reals List Bool Arith.
From Coquelicot Require Import Complex.
From Verif Require Import Arith LinAlg Containers Newton Occupation Smearing.
Import ListNotations.
Local Open Scope R_scope.

(** ** Matrix helpers *)
(** inner_ / inner, lapack.hpp 232-248, lapack_cpu.hpp 90-156: alpha * A^H B; n = rows of A and B *)
Definition inner_ (n : nat) (A B : mat) (alpha : R) : mat := mscal (RtoC alpha) (mmul n (adj A) B).
(** transform_alloc, lapack.hpp 428-440 (alpha = 1, beta = 0): A B; k = columns of A *)
Definition transform_alloc (k : nat) (A B : mat) : mat := mmul k A B.
(** outer, lapack_cpu.hpp 159-225 (alpha = 1, beta = 0): A B^H; k = columns of A and B *)
Definition outer (k : nat) (A B : mat) : mat := mmul k A (adj B).
(** add, lapack_cpu.hpp 297-333 (geam): dst <- alpha * src + beta * dst *)
Definition add (dst src : mat) (alpha beta : R) : mat :=
  fun i j => Cplus (Cmult (RtoC alpha) (src i j)) (Cmult (RtoC beta) (dst i j)).
(** scale(dst, src, x, alpha, 0), lapack.hpp 75-104: columns times a vector *)
Definition scale_cols (src : mat) (x : nat -> R) (alpha : R) : mat :=
  fun i j => Cmult (RtoC (alpha * x j)) (src i j).
(** scale(dst, src, alpha), lapack.hpp 152-172 *)
Definition scale (src : mat) (alpha : R) : mat := fun i j => Cmult (RtoC alpha) (src i j).
(** innerh_tr, lapack.hpp 251-327: sum_ij x(i,j) conj(y(i,j)); row sums first *)
Definition innerh_tr (n m : nat) (X Y : mat) : C :=
  csum n (fun i => csum m (fun j => Cmult (X i j) (Cconj (Y i j)))).
(** make_diag, lapack.hpp 42-64 *)
Definition make_diag (d : nat -> R) : mat := mdiag d.

(** ** Data of one k-point *)
Record kpt := MkKpt {
  kn : nat;             (* rows of X: basis functions *)
  km : nat;             (* columns of X: bands *)
  kw : R;               (* weight *)
  kS : mat;             (* overlap operator *)
  kP : mat;             (* preconditioner *)
  kX : mat; kHX : mat;  (* wave functions and H times wave functions *)
  ke : nat -> R;        (* pseudo-eigenvalues *)
  kf : nat -> R;        (* occupations *)
  kh : nat -> R         (* FreeEnergy::get_ek *)
}.

Section Descent.
  (** solve_sym, lapack_cpu.hpp 56-86 (potrf, potrs): order, matrix, right hand side. *)
  Context (solve : nat -> mat -> mat -> mat).
  Context (s : smearing_type) (T kappa mo : R).
  Let kT : R := kb Rarith * T.     (* grad_eta.hpp 36, 66, 126 *)
  Let delta (x : R) : R := sdelta (smearing_class s) x mo.

  (** ** mvp2.hpp *)
  (** lmult, 12-32: SX (SX^H P SX)^-1 SX^H P HX *)
  Definition lmult (k : kpt) (sx hx : mat) : mat :=
    let xkx := inner_ (kn k) sx (mmul (kn k) (kP k) sx) 1 in
    let xkhx := inner_ (kn k) sx (mmul (kn k) (kP k) hx) 1 in
    transform_alloc (km k) sx (solve (km k) xkx xkhx).
  (** gradx, 34-45 *)
  Definition gradx (hx : mat) (fn : nat -> R) (xll : mat) (wk : R) : mat :=
    add (scale_cols hx fn wk) xll (- wk) 1.
  (** precondgx_us, 66-82 *)
  Definition precondgx_us (k : kpt) (hx xll : mat) : mat :=
    let d0 := add mzero hx (-1) 0 in
    let d1 := add d0 xll 1 1 in
    mmul (kn k) (kP k) d1.
  (** rotatex, 85-92 *)
  Definition rotatex (k : kpt) (x u : mat) : mat := transform_alloc (km k) x u.
  (** rotateeta, 94-102: u^H (eta u) *)
  Definition rotateeta (k : kpt) (eta u : mat) : mat := inner_ (km k) u (transform_alloc (km k) eta u) 1.
  (** conjugatex, ultra-soft case, 154-170 *)
  Definition conjugatex (k : kpt) (zxp sx : mat) : mat :=
    let sx_zxp := inner_ (kn k) sx zxp 1 in
    let sx2 := inner_ (kn k) sx sx 1 in
    let ll := solve (km k) sx2 sx_zxp in
    add zxp (transform_alloc (km k) sx ll) (-1) 1.

  (** ** grad_eta.hpp *)
  (** A sum over the k-points of a rank, then over the ranks (commk.allreduce, sum of mvectors). *)
  Definition total {Y} (f : Y -> R) (world : list (list Y)) : R :=
    fold_right Rplus 0 (map (fun rank => fold_right Rplus 0 (map f rank)) world).

  (** GradEtaHelper::dFdmu, 16-50 *)
  Definition dFdmu (world : list (list kpt)) (mu : R) : R :=
    total (fun k => rsumn (km k) (fun i => (kh k i - ke k i) * delta ((ke k i - mu) / kT)) * kw k) world.
  (** GradEtaHelper::dmu_deta, 59-81 *)
  Definition dmu_deta (world : list (list kpt)) (mu : R) : R :=
    total (fun k => rsumn (km k) (fun i => delta ((ke k i - mu) / kT) * kw k)) world.

  (** _delta_eta::operator(), 84-116 *)
  Definition delta_eta (k : kpt) (hij : mat) : mat :=
    let d := scale hij (kappa / kw k) in
    fun i j => if Nat.eqb i j then Cminus (d i j) (RtoC (kappa * ke k i)) else d i j.

  (** GradEta::g_eta, 133-187; [dmu] is the argument dmu_deta, [dF] is dFdmu.
      1e-12 and 1e-10 stand for the decimal numbers. *)
  Definition g_eta (k : kpt) (hij : mat) (mu dmu dF : R) : mat :=
    fun i j =>
      if Nat.eqb i j then
        let dl := delta ((ke k i - mu) / kT) in
        let g1 := Cmult (Cmult (RtoC (-1 / kT)) (Cminus (hij i i) (RtoC (kw k * ke k i)))) (RtoC dl) in
        if Rltb (Rabs dmu) (1 / 10 ^ 12) then g1
        else Cplus g1 (RtoC (kw k * dl / dmu * (dF / kT)))
      else if Rltb (Rabs (ke k j - ke k i)) (1 / 10 ^ 10) then RtoC 0
      else Cmult (RtoC ((kf k j - kf k i) / (ke k j - ke k i))) (hij i j).

  (** ** descent_direction_impl.hpp *)
  (** exec_spc (restart), 183-201: fr, delta_x, delta_eta *)
  Definition exec_restart (mu dmu dF : R) (k : kpt) : R * mat * mat :=
    let sx := mmul (kn k) (kS k) (kX k) in
    let llm := lmult k sx (kHX k) in
    let gx := gradx (kHX k) (kf k) llm (kw k) in
    let delta_x := precondgx_us k (kHX k) llm in
    let hij := inner_ (kn k) (kX k) (kHX k) (kw k) in
    let ge := g_eta k hij mu dmu dF in
    let de := delta_eta k hij in
    let fr_x := 2 * Re (innerh_tr (kn k) (km k) gx delta_x) in
    let fr_eta := Re (innerh_tr (km k) (km k) ge de) in
    (fr_x + fr_eta, delta_x, de).

  (** exec_conjugate, 163-177: slope, z_x, z_eta *)
  Definition exec_conjugate (k : kpt) (sx zxp zetap ul gx ge : mat) : R * mat * mat :=
    let zx_tmp := rotatex k zxp ul in
    let zeta := rotateeta k zetap ul in
    let zx := conjugatex k zx_tmp sx in
    let slope_x_loc := 2 * Re (innerh_tr (kn k) (km k) zx gx) in
    let slope_eta_loc := Re (innerh_tr (km k) (km k) zeta ge) in
    (slope_x_loc + slope_eta_loc, zx, zeta).

  (** exec_spc (conjugate), 124-157: fr, delta_x, delta_eta, z_x, z_eta, slope_zp *)
  Definition exec_cg (mu dmu dF : R) (k : kpt) (zxp zetap ul : mat) : R * mat * mat * mat * mat * R :=
    let sx := mmul (kn k) (kS k) (kX k) in
    let llm := lmult k sx (kHX k) in
    let gx := gradx (kHX k) (kf k) llm (kw k) in
    let delta_x := precondgx_us k (kHX k) llm in
    let hij := inner_ (kn k) (kX k) (kHX k) (kw k) in
    let ge := g_eta k hij mu dmu dF in
    let de := delta_eta k hij in
    let fr_x := 2 * Re (innerh_tr (kn k) (km k) gx delta_x) in
    let fr_eta := Re (innerh_tr (km k) (km k) ge de) in
    match exec_conjugate k sx zxp zetap ul gx ge with
    | (slope_zp, z_x, z_eta) => (fr_x + fr_eta, delta_x, de, z_x, z_eta, slope_zp)
    end.

  (** ** descent_direction.hpp *)
  (** restarted, 155-183: slope and the directions (delta_x, delta_eta) of every k-point. *)
  Definition restarted (world : list (list kpt)) (mu : R) : R * list (list (mat * mat)) :=
    let dF := dFdmu world mu in
    let dmu := dmu_deta world mu in
    let res := map (map (exec_restart mu dmu dF)) world in
    (total (fun r => fst (fst r)) res, map (map (fun r => (snd (fst r), snd r))) res).

  (** conjugated, 81-144: fr, slope and the directions; the previous directions and the rotation of
      each k-point come with it: (k, (zxp, zetap, ul)). *)
  Definition conjugated (fr_old : R) (world : list (list (kpt * (mat * mat * mat)))) (mu : R)
    : R * R * list (list (mat * mat)) :=
    let ks := map (map fst) world in
    let dF := dFdmu ks mu in
    let dmu := dmu_deta ks mu in
    let res := map (map (fun kz => match kz with (k, (zxp, zetap, ul)) => exec_cg mu dmu dF k zxp zetap ul end)) world in
    let fr := total (fun r => match r with (fr, _, _, _, _, _) => fr end) res in
    let gamma := fr / fr_old in
    let slope_zp := total (fun r => match r with (_, _, _, _, _, sl) => sl end) res in
    let slope := fr + gamma * slope_zp in
    (fr, slope,
     map (map (fun r => match r with
                        | (_, dx, de, zx, ze, _) => (add zx dx 1 gamma, add ze de 1 gamma)
                        end)) res).
End Descent.
