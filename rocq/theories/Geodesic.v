(** Trial points: src/geodesic.hpp and loewdin of src/la/lapack.hpp.

    Simplifications as in Descent.v.  The Hermitian eigensolver is an oracle; [None] is the
    std::runtime_error thrown when LAPACK reports a failure. *)
From Coq Require Import Reals List Bool Arith.
From Coquelicot Require Import Complex.
From Verif Require Import Arith LinAlg Containers Newton Occupation Smearing Descent.
Import ListNotations.
Local Open Scope R_scope.

Section Geodesic.
  (** eigh, lapack_cpu.hpp 23-52 (LAPACKE_zheevd 'V','U'): eigenvectors and eigenvalues *)
  Context (eigh : nat -> mat -> option (mat * (nat -> R))).

  (** advance_eta, geodesic.hpp 11-32; add's beta is 1 (lapack_cpu.hpp 297-333) *)
  Definition advance_eta (t : R) (eta d_eta : mat) : mat := add eta d_eta t 1.

  (** loewdin_aux, lapack.hpp 364-372: 1.0 / sqrt(w(i)).  [1 / sqrt x] is meant only for x > 0
      (the theorems establish this); in the code other values give inf or NaN. *)
  Definition loewdin_aux (w : nat -> R) : nat -> R := fun i => 1 / sqrt (w i).

  (** loewdin(X, SX), lapack.hpp 400-425; n rows, m columns *)
  Definition loewdin (n m : nat) (X SX : mat) : option mat :=
    let M := inner_ n X SX 1 in
    match eigh m M with
    | None => None
    | Some (U, w) =>
      let M' := scale_cols U (loewdin_aux w) 1 in
      let R := outer m M' U in
      Some (transform_alloc m X R)
    end.

  (** advance_x, ultra-soft case, geodesic.hpp 86-99; [S] is the overlap operator *)
  Definition advance_x (t : R) (n m : nat) (x dx ul S : mat) : option mat :=
    let x_next := add x dx t 1 in
    match loewdin n m x_next (mmul n S x_next) with
    | None => None
    | Some y => Some (transform_alloc m y ul)
    end.

  (** impl::geodesic_us, geodesic.hpp 152-170: ek, Ul, x_next *)
  Definition geodesic_us (n m : nat) (X eta z_x z_eta S : mat) (t : R) : option ((nat -> R) * mat * mat) :=
    let eta_next := advance_eta t eta z_eta in
    match eigh m eta_next with
    | None => None
    | Some (Ul, ek) =>
      match advance_x t n m X z_x Ul S with
      | None => None
      | Some x_next => Some (ek, Ul, x_next)
      end
    end.
End Geodesic.

(** ** Contract of the eigensolver: LAPACK zheevd with uplo = 'U' *)
(** The matrix LAPACK sees: the upper triangle, completed to a Hermitian matrix (the imaginary part of the
    diagonal is ignored). *)
Definition upper (A : mat) : mat := fun i j =>
  if Nat.ltb i j then A i j else if Nat.ltb j i then Cconj (A j i) else RtoC (Re (A i i)).
Definition eigh_ok (eigh : nat -> mat -> option (mat * (nat -> R))) : Prop :=
  forall m M U w, eigh m M = Some (U, w) ->
  unitary m U /\ meq m m (mmul m (upper M) U) (mmul m U (mdiag w)) /\
  forall i j, (i <= j)%nat -> (j < m)%nat -> w i <= w j.

(** X^H S X = 1 *)
Definition orthonormal (n m : nat) (S X : mat) : Prop := meq m m (mmul n (adj X) (mmul n S X)) mid.
