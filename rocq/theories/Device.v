(** Resources and failure reports of the device linear algebra: src/la/cuda.hpp 66-343, src/la/lapack_cuda.hpp 10-86,
    src/la/lapack_rocm.hpp 21-131, src/la/lapack_cpu.hpp 23-88, src/la/cublas.hpp 7-30, src/la/cusolver.hpp 32-56,
    src/la/magma.cpp 38-88.
    The numbers computed by the libraries are not modelled here; a library call is described by what it reports.
    Simplifications: device memory is a byte budget without fragmentation or rounding of block sizes; blocks allocated by Kokkos
    and by the libraries themselves are not counted; printing is not modelled. *)
From Coq Require Import Arith Lia List Bool ZArith String.
Import ListNotations.

(** ** Device memory *)
Record dev := Dev { d_cap : nat; d_live : list (nat * nat); d_next : nat }.
Definition used (d : dev) : nat := fold_right (fun b n => snd b + n) 0 (d_live d).
(** cudaMalloc inside CALL_CUDA, cuda.hpp 13-27: None is the failing call; it prints, execution continues with the pointer
    still uninitialised *)
Definition cuda_malloc (bytes : nat) (d : dev) : option (nat * dev) :=
  if used d + bytes <=? d_cap d
  then Some (d_next d, Dev (d_cap d) ((d_next d, bytes) :: d_live d) (S (d_next d)))
  else None.
Definition cuda_free (p : nat) (d : dev) : dev := Dev (d_cap d) (filter (fun b => negb (fst b =? p)) (d_live d)) (d_next d).

(** what one cuSOLVER routine reports: status of bufferSize, workspace size in elements, status, value stored in dev_Info *)
Record lib := Lib { l_buf : bool; l_work : nat; l_ok : bool; l_info : Z }.
(** DExit: exit(1).  DUB: an uninitialised pointer is passed on. *)
Inductive dout (X : Type) := DVal (x : X) (d : dev) | DThrow (msg : string) (d : dev) | DExit | DUB.
Arguments DVal {X}. Arguments DThrow {X}. Arguments DExit {X}. Arguments DUB {X}.

(** potrf::call cuda.hpp 66-101 and 110-139; zheevd::call 246-285 and 299-337.  Returns Info. *)
Definition cuda_workspace_call (l : lib) (d : dev) : dout Z :=
  if negb (l_buf l) then DExit
  else match cuda_malloc (16 * l_work l) d with
       | None => DUB
       | Some (work, d1) =>
         match cuda_malloc 4 d1 with
         | None => DUB
         | Some (_, d2) =>
           let d3 := cuda_free work d2 in
           if l_ok l then DVal (l_info l) d3 else DExit
         end
       end.
Definition cuda_potrf := cuda_workspace_call.
Definition cuda_zheevd := cuda_workspace_call.
(** potrs::call cuda.hpp 158-187 and 201-228 *)
Definition cuda_potrs (l : lib) (d : dev) : dout Z :=
  match cuda_malloc 4 d with
  | None => DUB
  | Some (_, d1) => if l_ok l then DVal (l_info l) d1 else DExit
  end.

(** eigh lapack_cuda.hpp 10-33: Info is read from the device and dropped *)
Definition eigh_cuda (is_local : bool) (l : lib) (d : dev) : dout unit :=
  if is_local
  then match cuda_zheevd l d with DVal _ d' => DVal tt d' | DThrow m d' => DThrow m d' | DExit => DExit | DUB => DUB end
  else DThrow "distributed eigh not implemented" d.
(** cholesky lapack_cuda.hpp 36-55 *)
Definition cholesky_cuda (is_local : bool) (l : lib) (d : dev) : dout unit :=
  if is_local
  then match cuda_potrf l d with DVal _ d' => DVal tt d' | DThrow m d' => DThrow m d' | DExit => DExit | DUB => DUB end
  else DThrow "distributed cholesky not implemented" d.
(** solve_sym lapack_cuda.hpp 58-86: the two routines in a row, info_potrf is dropped *)
Definition solve_sym_cuda (is_local : bool) (lf ls : lib) (d : dev) : dout unit :=
  if is_local
  then match cuda_potrf lf d with
       | DVal _ d' => match cuda_potrs ls d' with DVal _ d'' => DVal tt d'' | DThrow m d'' => DThrow m d'' | DExit => DExit | DUB => DUB end
       | DThrow m d' => DThrow m d' | DExit => DExit | DUB => DUB
       end
  else DThrow "distributed solve_sym not implemented" d.

(** a program that uses the device routines one after the other *)
Inductive dcall := CEigh (l : lib) | CSolve (lf ls : lib).
Definition dcall_run (c : dcall) (d : dev) : dout unit :=
  match c with CEigh l => eigh_cuda true l d | CSolve lf ls => solve_sym_cuda true lf ls d end.
Fixpoint dcalls_run (cs : list dcall) (d : dev) : dout unit :=
  match cs with
  | [] => DVal tt d
  | c :: r => match dcall_run c d with DVal _ d' => dcalls_run r d' | DThrow m d' => DThrow m d' | DExit => DExit | DUB => DUB end
  end.

(** ** What a failed diagonalisation looks like to the caller *)
Inductive space := SHost | SCuda | SRocm.
Inductive report := Returns | Throws (msg : string).
(** [info]: value reported by zheevd, 0 on success; the other statuses are success and memory suffices.
    lapack_cpu.hpp 39-51, lapack_cuda.hpp 18-32, lapack_rocm.hpp 30-66 *)
Definition eigh_report (s : space) (is_local : bool) (info : Z) : report :=
  match s with
  | SHost => if is_local then (if Z.eqb info 0 then Returns else Throws "cblas zheevd failed") else Throws "not yet implemented"
  | SCuda => if is_local then Returns else Throws "distributed eigh not implemented"
  | SRocm => if is_local then Returns else Throws "distributed eigh not implemented"
  end.

(** ** Library handles *)
(** static handle of cublasHandle / cusolverDnHandle; [h_alive] are the handles the library has created and not destroyed *)
Record hstate := HState { h_cell : option nat; h_alive : list nat; h_next : nat }.
Inductive hcmd := HGet | HDestroy.
(** get(), cublas.hpp 16-23, cusolver.hpp 40-47 (creation succeeds) *)
Definition handle_get (s : hstate) : nat * hstate :=
  match h_cell s with
  | Some h => (h, s)
  | None => (h_next s, HState (Some (h_next s)) (h_next s :: h_alive s) (S (h_next s)))
  end.
(** destroy(), cublas.hpp 25-29, cusolver.hpp 49-53: the library's destroy is called if the handle is null *)
Definition handle_destroy (s : hstate) : hstate :=
  match h_cell s with
  | None => HState None (h_alive s) (h_next s)
  | Some _ => HState None (h_alive s) (h_next s)
  end.
Definition hcmd_run (c : hcmd) (s : hstate) : hstate :=
  match c with HGet => snd (handle_get s) | HDestroy => handle_destroy s end.
Definition hcmds_run (cs : list hcmd) (s : hstate) : hstate := fold_left (fun s c => hcmd_run c s) cs s.
Definition h_init : hstate := HState None [] 0.

(** ** zheevd_magma, magma.cpp 38-88: the workspace and the length announced for it *)
(** [nb] = magma_get_zhetrd_nb(n); None: the routine may write behind the array *)
Definition zheevd_magma_work (n nb : nat) : option nat :=
  let allocated := n in
  let lwork := Nat.max (n + n * nb) (2 * n + n * n) in
  if lwork <=? allocated then Some allocated else None.
