(** Values of Communicator objects (src/mpi/communicator.hpp 20-125) and assignment of mvectors
    (src/la/mvector.hpp 28-129).
    A handle is MPI_COMM_NULL, the constant 0 (no valid handle in MPICH or Open MPI, and different from MPI_COMM_NULL), or a
    communicator.  Errors of MPI abort the program: CALL_MPI, communicator.hpp 9-15. *)
From Coq Require Import ZArith List Bool Lia Arith Sorted.
From Verif Require Import Arith MVector Containers.
Import ListNotations.

(** ** Communicator *)
Inductive handle := HNull | HZero | HComm (c : nat).
(** MPI_COMM_SELF *)
Definition self_comm : handle := HComm 0.

(** What a program does with Communicator objects, numbered in the order of their construction. *)
Inductive hop :=
| ONew (h : handle)            (* Communicator(MPI_Comm), 23-28 *)
| ODefault                     (* Communicator(), 30 *)
| OCopy (i : nat)              (* Communicator(const Communicator&), 32-36 *)
| OMove (i : nat)              (* Communicator(Communicator&&), 38-42 *)
| OAssign (i j : nat)          (* object i = object j, 44-49 *)
| OMoveAssign (i j : nat).     (* object i = std::move(object j), 70-75 *)

Fixpoint setn {A} (i : nat) (x : A) (l : list A) : list A :=
  match l, i with
  | [], _ => []
  | _ :: r, O => x :: r
  | y :: r, S i => y :: setn i x r
  end.

(** None: the program refers to an object that does not exist *)
Definition hstep (st : list handle) (o : hop) : option (list handle) :=
  match o with
  | ONew h => Some (st ++ [h])
  | ODefault => Some (st ++ [self_comm])
  | OCopy i => match nth_error st i with Some h => Some (st ++ [h]) | None => None end
  | OMove i => match nth_error st i with Some h => Some (setn i HNull st ++ [h]) | None => None end
  | OAssign i j => match nth_error st i, nth_error st j with Some _, Some h => Some (setn i h st) | _, _ => None end
  | OMoveAssign i j =>
    (* mpicomm_ = other.mpicomm_; other.mpicomm_ = 0; *)
    match nth_error st i, nth_error st j with Some _, Some h => Some (setn j HZero (setn i h st)) | _, _ => None end
  end.
Fixpoint hrun (st : list handle) (p : list hop) : option (list handle) :=
  match p with
  | [] => Some st
  | o :: r => match hstep st o with Some st' => hrun st' r | None => None end
  end.

(** Results of calls: a value, an abort by MPI, or undefined behaviour (a handle that MPI never returned). *)
Inductive cres (A : Type) := CVal (a : A) | CAbort | CUB.
Arguments CVal {A}. Arguments CAbort {A}. Arguments CUB {A}.
(** size(), 81-86; [nr] gives the sizes of the communicators *)
Definition csize_of (nr : nat -> nat) (h : handle) : cres nat :=
  match h with HNull => CAbort | HZero => CUB | HComm c => CVal (nr c) end.
(** operator==, 51-64; MPI_IDENT iff both handles are the same communicator *)
Definition ceq (a b : handle) : cres bool :=
  match a, b with
  | HNull, HNull => CVal true
  | HNull, _ | _, HNull => CVal false
  | HComm c, HComm d => CVal (Nat.eqb c d)
  | _, _ => CUB
  end.
(** operator<, 66 *)
Definition clt (nr : nat -> nat) (a b : handle) : cres bool :=
  match csize_of nr a, csize_of nr b with
  | CVal x, CVal y => CVal (Nat.ltb x y)
  | CUB, _ => CUB
  | CAbort, _ => CAbort
  | CVal _, CUB => CUB
  | CVal _, CAbort => CAbort
  end.
(** the communicator mvector::allgather uses, mvector.hpp 137-141: None is the exception *)
Definition allgather_comm (nr : nat -> nat) (arg own : handle) : cres (option handle) :=
  match ceq arg HNull with
  | CVal e =>
    let c := if e then own else arg in
    match clt nr c own with CVal true => CVal None | CVal false => CVal (Some c) | CAbort => CAbort | CUB => CUB end
  | CAbort => CAbort | CUB => CUB
  end.

(** ** mvector *)
(** template operator=(mvector<Z>& other), mvector.hpp 99-108: chosen by overload resolution for every right hand side that is a
    non-const lvalue, also of the same type.  The iteration is over the keys of the left hand side.
    Result: the container (also after an exception) and whether an exception left the loop. *)
Fixpoint assign_loop {V} (it : list key) (dst src : smap V) : smap V * option std_exn :=
  match it with
  | [] => (dst, None)
  | k :: r => match mfind k src with
              | Some v => assign_loop r (mset k v dst) src
              | None => (dst, Some OutOfRange)
              end
  end.
Definition assign_lvalue {V} (dst src : mvec V) : mvec V * option std_exn :=
  let r := assign_loop (keys (mdata dst)) (mdata dst) (mdata src) in (MkMvec (fst r) (mcomm dst), snd r).
(** operator=(const mvector&) = default, mvector.hpp 41: const or temporary right hand sides *)
Definition assign_const {V} (dst src : mvec V) : mvec V := src.
(** operator=(std::map&&), mvector.hpp 94-97: no return statement; leaving a function with a result type at its end is
    undefined behaviour *)
Definition assign_map {V} (dst : mvec V) (src : smap V) : outcome std_exn (mvec V) := UB.
