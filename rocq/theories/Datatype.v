(** MPI datatypes of C++ objects: src/mpi/mpi_type.hpp 44-100, used by the collectives of src/mpi/communicator.hpp 128-200.
    Objects are bytes in memory.  [abi]: sizes and alignments of the basic types in the C++ ABI and the alignments MPI uses
    for the extent of a struct type (the epsilon of MPI-4.0, 5.1.6).
    Simplifications: lower bounds are 0; a basic MPI type has the size of its C++ type and no gaps. *)
From Coq Require Import Arith Lia List Bool.
Import ListNotations.

Inductive basic := BDouble | BStdComplex | BKokkosComplex | BChar | BInt.
(** types with a specialisation of mpi_type, mpi_type.hpp 49-100 *)
Inductive ty := TBasic (b : basic) | TPair (t1 t2 : ty).

Record abi := MkAbi { bsize : basic -> nat; balign : basic -> nat; malign : basic -> nat }.
(** alignments divide sizes *)
Definition abi_ok (A : abi) : Prop :=
  forall b, 0 < balign A b /\ 0 < malign A b /\ 0 < bsize A b /\ Nat.divide (balign A b) (bsize A b) /\ Nat.divide (malign A b) (bsize A b).

(** x86-64: Kokkos::complex<double> is aligned to 16, std::complex<double> and C's double complex to 8 *)
Definition x86_64 : abi :=
  MkAbi (fun b => match b with BDouble => 8 | BStdComplex => 16 | BKokkosComplex => 16 | BChar => 1 | BInt => 4 end)
        (fun b => match b with BDouble => 8 | BStdComplex => 8 | BKokkosComplex => 16 | BChar => 1 | BInt => 4 end)
        (fun b => match b with BDouble => 8 | BStdComplex => 8 | BKokkosComplex => 8 | BChar => 1 | BInt => 4 end).

Section Layout.
  Context (A : abi).

  Definition round_up (n a : nat) : nat := ((n + a - 1) / a) * a.

  (** std::pair<T1, T2>: two members in this order *)
  Fixpoint align_of (t : ty) : nat :=
    match t with TBasic b => balign A b | TPair t1 t2 => Nat.max (align_of t1) (align_of t2) end.
  Fixpoint size_of (t : ty) : nat :=
    match t with
    | TBasic b => bsize A b
    | TPair t1 t2 => round_up (round_up (size_of t1) (align_of t2) + size_of t2) (Nat.max (align_of t1) (align_of t2))
    end.
  (** the basic members of an object at [base] *)
  Fixpoint members (t : ty) (base : nat) : list (basic * nat) :=
    match t with
    | TBasic b => [(b, base)]
    | TPair t1 t2 => members t1 base ++ members t2 (base + round_up (size_of t1) (align_of t2))
    end.

  (** MPI_Type_create_struct with displacements {0, sizeof(T1)}, mpi_type.hpp 85-97 *)
  Fixpoint typemap (t : ty) (base : nat) : list (basic * nat) :=
    match t with
    | TBasic b => [(b, base)]
    | TPair t1 t2 => typemap t1 base ++ typemap t2 (base + size_of t1)
    end.
  Fixpoint mpi_align (t : ty) : nat :=
    match t with TBasic b => malign A b | TPair t1 t2 => Nat.max (mpi_align t1) (mpi_align t2) end.
  Fixpoint extent (t : ty) : nat :=
    match t with
    | TBasic b => bsize A b
    | TPair t1 t2 => round_up (Nat.max (extent t1) (size_of t1 + extent t2)) (Nat.max (mpi_align t1) (mpi_align t2))
    end.

  (** bytes named by a list of members *)
  Definition covers (l : list (basic * nat)) (a : nat) : bool :=
    existsb (fun m => (snd m <=? a) && (a <? snd m + bsize A (fst m))) l.
  (** a message of n elements: MPI reads and writes the bytes of the type map, element i at i * extent *)
  Definition named (t : ty) (n : nat) (a : nat) : bool :=
    existsb (fun i => covers (typemap t (i * extent t)) a) (seq 0 n).
  Definition transfer {B} (t : ty) (n : nat) (src dst : nat -> B) : nat -> B :=
    fun a => if named t n a then src a else dst a.
  (** MPI_Allgatherv with MPI_IN_PLACE, communicator.hpp 128-147: rank q contributes counts[q] elements starting at element
      displs[q] = counts[0] + ... + counts[q-1] of its own buffer, and they are written at the same place of every buffer.
      [bufs q]: the bytes of rank q's buffer; the result is the buffer of rank r. *)
  Definition named_at (t : ty) (d n a : nat) : bool := existsb (fun i => covers (typemap t (i * extent t)) a) (seq d n).
  Fixpoint gather_byte {B} (t : ty) (d q : nat) (counts : list nat) (bufs : nat -> nat -> B) (r a : nat) : B :=
    match counts with
    | [] => bufs r a
    | n :: rest => if named_at t d n a then bufs q a else gather_byte t (d + n) (S q) rest bufs r a
    end.
  Definition allgatherv {B} (t : ty) (counts : list nat) (bufs : nat -> nat -> B) (r : nat) : nat -> B :=
    gather_byte t 0 0 counts bufs r.
End Layout.

(** ** Committed types *)
(** mpi_type<T>::type() creates and commits one type for every pair in T, mpi_type.hpp 89-96; none is ever freed. *)
Fixpoint pairs_in (t : ty) : nat := match t with TBasic _ => 0 | TPair t1 t2 => S (pairs_in t1 + pairs_in t2) end.
(** [cap]: the number of types the MPI library can hold; None: MPI_Type_create_struct fails and the program aborts. *)
Definition type_call (cap live : nat) (t : ty) : option nat :=
  if live + pairs_in t <=? cap then Some (live + pairs_in t) else None.
Fixpoint type_calls (cap live : nat) (ts : list ty) : option nat :=
  match ts with
  | [] => Some live
  | t :: r => match type_call cap live t with Some l => type_calls cap l r | None => None end
  end.
(** key_t, mvector.hpp 32 *)
Definition key_ty : ty := TPair (TBasic BInt) (TBasic BInt).
(** mvector<double>::allgather, mvector.hpp 132-164: MPI_INT for the counts, pair<key_t, double> for the data *)
Definition scalar_allgather : list ty := [TBasic BInt; TPair key_ty (TBasic BDouble)].
(** mvector<View>::allgather, mvector.hpp 190-263: keys, lengths and data *)
Definition view_allgather : list ty := [TBasic BInt; key_ty; TBasic BInt; TBasic BInt; TBasic BDouble].
(** Smearing::fn, smearing.hpp 364-365 and 429-430: one gather of band energies, one of weights *)
Definition fn_types : list ty := view_allgather ++ scalar_allgather.
