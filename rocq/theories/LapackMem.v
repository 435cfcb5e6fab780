(** The matrix kernels at the level of memory: src/la/lapack_cpu.hpp (inner, outer, transform, add,
    solve_sym), src/la/lapack.hpp (scale, scale_alloc, _add, inner_, transform_alloc) and the non-MKL
    path of src/la/cblas.hpp geam.

    A matrix is a view (extents, strides) of an allocation of [bsz] elements; touching an element outside the
    allocation is undefined behaviour, and so is signed overflow in the index arithmetic of geam.
    The element type is a parameter: exact complex numbers and pairs of binary64 numbers are instances.

    Simplifications: the extents of the Kokkos view are those of the map (as all constructors
    in the library make them); destination and operands do not overlap, except where the
    code itself passes the destination twice (add) -- not overlapping is a precondition of zgemm;
    asserts are compiled out; the contents of fresh, uninitialised memory is some value. *)
From Coq Require Import ZArith Arith Lia List Bool Permutation.
Import ListNotations.

Inductive kres (A : Type) : Type :=
| KOk (a : A)
| KThrow               (* std::runtime_error thrown by nlcglib *)
| KBadArg              (* zgemm rejects an argument (xerbla); nothing is computed *)
| KUB.                 (* undefined behaviour *)
Arguments KOk {A} a.
Arguments KThrow {A}.
Arguments KBadArg {A}.
Arguments KUB {A}.

(** Element type: [ev] complex numbers, [er] doubles.  [emul] is the product of std::complex (used by geam)
    and of zgemm, [ekmul] the one of Kokkos::complex, [erscale] double times Kokkos::complex. *)
Record elt := MkElt {
  ev : Type; er : Type;
  e0 : ev;
  eadd : ev -> ev -> ev;
  emul : ev -> ev -> ev;
  ekmul : ev -> ev -> ev;
  econj : ev -> ev;
  eis0 : ev -> bool;
  ermul : er -> er -> er;
  eris0 : er -> bool;
  erscale : er -> ev -> ev
}.

Section Mem.
  Context (E : elt).
  Notation V := (ev E).

  (** ** Allocations *)
  Record buf := MkBuf { bsz : nat; bget : nat -> V }.
  Definition rd (b : buf) (a : nat) : option V := if Nat.ltb a (bsz b) then Some (bget b a) else None.
  Definition upd (b : buf) (a : nat) (v : V) : buf :=
    MkBuf (bsz b) (fun x => if Nat.eqb x a then v else bget b x).
  Definition wr (b : buf) (a : nat) (v : V) : option buf := if Nat.ltb a (bsz b) then Some (upd b a v) else None.

  (** ** Matrix views: KokkosDVector, la/dvector.hpp 134-204 *)
  Record view := MkView {
    vrows : nat; vcols : nat;      (* map().nrows(), map().ncols(), array().extent(0), extent(1) *)
    vs0 : nat; vs1 : nat;          (* array().stride(0), stride(1) *)
    vlocal : bool;                 (* map().is_local(), la/map.hpp 35 *)
    vbuf : buf
  }.
  Definition addr (X : view) (i j : nat) : nat := i * vs0 X + j * vs1 X.
  Definition vat (X : view) (i j : nat) : V := bget (vbuf X) (addr X i j).
  Definition with_buf (X : view) (b : buf) : view := MkView (vrows X) (vcols X) (vs0 X) (vs1 X) (vlocal X) b.
  (** KokkosDVector(map), dvector.hpp 147-151, layout LayoutLeft: zero initialised, packed columns *)
  Definition alloc (rows cols : nat) (loc : bool) : view :=
    MkView rows cols 1 rows loc (MkBuf (rows * cols) (fun _ => e0 E)).
  (** KokkosDVector(map, view_alloc(WithoutInitializing)), dvector.hpp 157-161 *)
  Definition alloc_uninit (rows cols : nat) (loc : bool) (junk : nat -> V) : view :=
    MkView rows cols 1 rows loc (MkBuf (rows * cols) junk).

  (** ** Loops over index pairs: #pragma omp parallel for, Kokkos::parallel_for over an MDRangePolicy.
      [order] is the order in which the iterations are executed. *)
  Definition pairs (m n : nat) : list (nat * nat) := list_prod (seq 0 m) (seq 0 n).
  Definition kbind {A B} (r : kres A) (f : A -> kres B) : kres B :=
    match r with KOk a => f a | KThrow => KThrow | KBadArg => KBadArg | KUB => KUB end.
  Fixpoint foreach (order : list (nat * nat)) (body : nat -> nat -> buf -> kres buf) (b : buf) : kres buf :=
    match order with
    | [] => KOk b
    | (i, j) :: r => kbind (body i j b) (foreach r body)
    end.
  (** read one element of the destination, then overwrite it *)
  Definition modify (b : buf) (a : nat) (f : V -> V) : kres buf :=
    match rd b a with
    | Some c => match wr b a (f c) with Some b' => KOk b' | None => KUB end
    | None => KUB
    end.
  (** overwrite one element of the destination *)
  Definition store (b : buf) (a : nat) (v : V) : kres buf :=
    match wr b a v with Some b' => KOk b' | None => KUB end.
  Definition load {A} (b : buf) (a : nat) (f : V -> kres A) : kres A :=
    match rd b a with Some v => f v | None => KUB end.

  (** ** zgemm (cblas_zgemm, column major): C <- alpha op(A) op(B) + beta C; C is not read for beta = 0 *)
  Inductive trans := NoTrans | ConjTrans.
  Definition op_addr (t : trans) (ld i l : nat) : nat :=
    match t with NoTrans => i + ld * l | ConjTrans => l + ld * i end.
  Definition op_val (t : trans) (v : V) : V := match t with NoTrans => v | ConjTrans => econj E v end.
  (** the scalar product of row i of op(A) with column j of op(B); summed in ascending order *)
  Fixpoint dot (ta tb : trans) (A : buf) (lda : nat) (B : buf) (ldb : nat) (i j k : nat) : option V :=
    match k with
    | O => Some (e0 E)
    | S l =>
      match dot ta tb A lda B ldb i j l, rd A (op_addr ta lda i l), rd B (op_addr tb ldb l j) with
      | Some s, Some a, Some b => Some (eadd E s (emul E (op_val ta a) (op_val tb b)))
      | _, _, _ => None
      end
    end.
  Definition gemm (ta tb : trans) (m n k : nat) (alpha : V) (A : buf) (lda : nat) (B : buf) (ldb : nat)
      (beta : V) (order : list (nat * nat)) (Cb : buf) (ldc : nat) : kres buf :=
    let ra := match ta with NoTrans => m | ConjTrans => k end in
    let rb := match tb with NoTrans => k | ConjTrans => n end in
    if (Nat.ltb lda (Nat.max 1 ra) || Nat.ltb ldb (Nat.max 1 rb) || Nat.ltb ldc (Nat.max 1 m))%bool then KBadArg
    else
      foreach order (fun i j c =>
        match dot ta tb A lda B ldb i j k with
        | None => KUB
        | Some s =>
          if eis0 E beta then store c (i + ldc * j) (emul E alpha s)
          else modify c (i + ldc * j) (fun old => eadd E (emul E alpha s) (emul E beta old))
        end) Cb.

  (** The tests at the head of the kernels, lapack_cpu.hpp 123, 131-133 (and 192, 200-202; 261, 269-271). *)
  Definition checked3 (A B C : view) (run : kres buf) : kres view :=
    if (vlocal A && vlocal B && vlocal C)%bool then
      if (negb (Nat.eqb (vs0 A) 1) || negb (Nat.eqb (vs0 B) 1) || negb (Nat.eqb (vs0 C) 1))%bool then KThrow
      else kbind run (fun b => KOk (with_buf C b))
    else KThrow.

  (** inner, lapack_cpu.hpp 90-156; [order]: in which order zgemm stores the elements *)
  Definition inner (order : list (nat * nat)) (C A B : view) (alpha beta : V) : kres view :=
    checked3 A B C
      (gemm ConjTrans NoTrans (vcols A) (vcols B) (vrows A) alpha (vbuf A) (vs1 A) (vbuf B) (vs1 B) beta order (vbuf C) (vs1 C)).
  (** outer, lapack_cpu.hpp 159-225: same m, n, k as [inner] *)
  Definition outer (order : list (nat * nat)) (C A B : view) (alpha beta : V) : kres view :=
    checked3 A B C
      (gemm NoTrans ConjTrans (vcols A) (vcols B) (vrows A) alpha (vbuf A) (vs1 A) (vbuf B) (vs1 B) beta order (vbuf C) (vs1 C)).
  (** transform, lapack_cpu.hpp 228-294 *)
  Definition transform (order : list (nat * nat)) (C : view) (beta alpha : V) (A B : view) : kres view :=
    checked3 A B C
      (gemm NoTrans NoTrans (vrows A) (vcols B) (vcols A) alpha (vbuf A) (vs1 A) (vbuf B) (vs1 B) beta order (vbuf C) (vs1 C)).

  (** int arithmetic i + ld * j of geam, cblas.hpp 385: undefined if it leaves the range of int *)
  Definition INT_MAX : Z := 2147483647.
  Definition int_index (i ld j : nat) : option nat :=
    if (Z.leb (Z.of_nat ld * Z.of_nat j) INT_MAX && Z.leb (Z.of_nat i + Z.of_nat ld * Z.of_nat j) INT_MAX)%bool
    then Some (i + ld * j) else None.
  (** geam without MKL, cblas.hpp 374-391 (no transposition, column major), B = C and ldb = ldc as passed by add *)
  Definition geam (alpha : V) (A : buf) (lda : nat) (beta : V) (order : list (nat * nat)) (Cb : buf) (ldc : nat) : kres buf :=
    foreach order (fun i j c =>
      match int_index i lda j, int_index i ldc j with
      | Some pa, Some pc =>
        load A pa (fun a => modify c pc (fun old => eadd E (emul E alpha a) (emul E beta old)))
      | _, _ => KUB
      end) Cb.
  (** add, lapack_cpu.hpp 297-333; the loop runs over pairs (rows of A) (columns of C) *)
  Definition add (order : list (nat * nat)) (C A : view) (alpha beta : V) : kres view :=
    if (vlocal A && vlocal C)%bool then
      if (negb (Nat.eqb (vs0 A) 1) || negb (Nat.eqb (vs0 C) 1))%bool then KThrow
      else kbind (geam alpha (vbuf A) (vs1 A) beta order (vbuf C) (vs1 C)) (fun b => KOk (with_buf C b))
    else KThrow.

  (** scale(dst, src, x, alpha, beta), lapack.hpp 75-103; x has [xn] elements *)
  Definition scale_cols (order : list (nat * nat)) (dst src : view) (xn : nat) (x : nat -> er E) (alpha beta : er E) : kres view :=
    if Nat.eqb (vs0 src) 1 then
      kbind (foreach order (fun i j c =>
        if Nat.ltb j xn then
          load (vbuf src) (addr src i j) (fun a =>
            if eris0 E beta then store c (addr dst i j) (erscale E (ermul E alpha (x j)) a)
            else modify c (addr dst i j) (fun old => eadd E (erscale E beta old) (erscale E (ermul E alpha (x j)) a)))
        else KUB) (vbuf dst)) (fun b => KOk (with_buf dst b))
    else KThrow.
  (** scale(dst, src, alpha, beta), lapack.hpp 113-141 *)
  Definition scale_beta (order : list (nat * nat)) (dst src : view) (alpha beta : er E) : kres view :=
    if Nat.eqb (vs0 src) 1 then
      kbind (foreach order (fun i j c =>
        load (vbuf src) (addr src i j) (fun a =>
          if eris0 E beta then store c (addr dst i j) (erscale E alpha a)
          else modify c (addr dst i j) (fun old => eadd E (erscale E beta old) (erscale E alpha a)))) (vbuf dst))
        (fun b => KOk (with_buf dst b))
    else KThrow.
  (** scale(dst, src, alpha), lapack.hpp 151-172 *)
  Definition scale (order : list (nat * nat)) (dst src : view) (alpha : er E) : kres view :=
    if Nat.eqb (vs0 src) 1 then
      kbind (foreach order (fun i j c =>
        load (vbuf src) (addr src i j) (fun a => store c (addr dst i j) (erscale E alpha a))) (vbuf dst))
        (fun b => KOk (with_buf dst b))
    else KThrow.
  (** scale_alloc, lapack.hpp 183-198: destination of the shape of src; [zero] is the double 0 *)
  Definition scale_alloc (order : list (nat * nat)) (src : view) (xn : nat) (x : nat -> er E) (alpha zero : er E) : kres view :=
    scale_cols order (alloc (vrows src) (vcols src) (vlocal src)) src xn x alpha zero.
  (** _add, lapack.hpp 201-230 *)
  Definition add_ (order : list (nat * nat)) (dst src : view) (alpha beta : V) : kres view :=
    kbind (foreach order (fun i j c =>
      load (vbuf src) (addr src i j) (fun a =>
        if eis0 E beta then store c (addr dst i j) (ekmul E alpha a)
        else modify c (addr dst i j) (fun old => eadd E (ekmul E old beta) (ekmul E alpha a)))) (vbuf dst))
      (fun b => KOk (with_buf dst b)).

  (** inner_, lapack.hpp 232-248 *)
  Definition inner_ (order : list (nat * nat)) (A B : view) (alpha beta : V) : kres view :=
    inner order (alloc (vcols A) (vcols B) (vlocal A)) A B alpha beta.
  (** transform_alloc, lapack.hpp 428-440 *)
  Definition transform_alloc (order : list (nat * nat)) (A B : view) (alpha beta : V) : kres view :=
    transform order (alloc (vrows A) (vcols A) (vlocal A)) beta alpha A B.
  (** minus, src/nlcglib.cpp 201-210: empty_like (utils.hpp 134-158), then add(res, x, -1, 0) *)
  Definition minus (order : list (nat * nat)) (junk : nat -> V) (m1 zero : V) (X : view) : kres view :=
    add order (alloc_uninit (vrows X) (vcols X) (vlocal X) junk) X m1 zero.

  (** solve_sym, lapack_cpu.hpp 56-86.  potrf: order, matrix, leading dimension -> (info, matrix);
      potrs: order, columns, factor, leading dimension, right hand side, leading dimension -> (info, right hand side).
      Both values of info are dropped. *)
  Definition solve_sym (potrf : nat -> buf -> nat -> Z * buf) (potrs : nat -> nat -> buf -> nat -> buf -> nat -> Z * buf)
      (A RHS : view) : kres (view * view) :=
    if (vlocal A && vlocal RHS)%bool then
      if (negb (Nat.eqb (vs0 A) 1) || negb (Nat.eqb (vs0 RHS) 1))%bool then KThrow
      else
        let '(_, fa) := potrf (vrows A) (vbuf A) (vs1 A) in
        let '(_, xb) := potrs (vrows A) (vcols RHS) fa (vs1 A) (vbuf RHS) (vs1 RHS) in
        KOk (with_buf A fa, with_buf RHS xb)
    else KThrow.
End Mem.
Arguments MkBuf {E} _ _.
Arguments bsz {E} _.
Arguments bget {E} _ _.
Arguments MkView {E} _ _ _ _ _ _.
Arguments vrows {E} _.
Arguments vcols {E} _.
Arguments vs0 {E} _.
Arguments vs1 {E} _.
Arguments vlocal {E} _.
Arguments vbuf {E} _.
Arguments addr {E} _ _ _.
Arguments vat {E} _ _ _.
Arguments with_buf {E} _ _.
Arguments rd {E} _ _.
Arguments upd {E} _ _ _.
Arguments wr {E} _ _ _.
Arguments foreach {E} _ _ _.
Arguments modify {E} _ _ _.
Arguments store {E} _ _ _.
Arguments load {E A} _ _ _.
Arguments gemm {E}.
Arguments dot {E}.
Arguments checked3 {E}.
Arguments inner {E}.
Arguments outer {E}.
Arguments transform {E}.
Arguments geam {E}.
Arguments add {E}.
Arguments scale_cols {E}.
Arguments scale_beta {E}.
Arguments scale {E}.
Arguments scale_alloc {E}.
Arguments add_ {E}.
Arguments inner_ {E}.
Arguments transform_alloc {E}.
Arguments minus {E}.
Arguments solve_sym {E}.
