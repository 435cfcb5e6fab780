(** Collectives used by nlcglib and the gather operations built on them:
    src/mpi/communicator.hpp 128-225, src/la/mvector.hpp 132-272, 470-485.

    The ranks of a communicator execute the same code; a collective is a function from the list of
    the ranks' buffers (entry r belongs to rank r) to the list of their buffers afterwards.  [None]
    is undefined behaviour (access outside a buffer, counts that do not agree).  Sizes are natural
    numbers: the overflow of int for more than 2^31-1 elements is not modelled. *)
From Coq Require Import ZArith List Bool Lia Arith.
From Verif Require Import Arith MVector.
Import ListNotations.

Section Buffers.
  Context {T : Type}.

  (** read [len] elements at [off]; outside the buffer: UB *)
  Definition bread (off len : nat) (b : list T) : option (list T) :=
    if off + len <=? length b then Some (firstn len (skipn off b)) else None.
  (** overwrite the elements at [off] by [src] *)
  Definition bwrite (off : nat) (src b : list T) : option (list T) :=
    if off + length src <=? length b then Some (firstn off b ++ src ++ skipn (off + length src) b) else None.

  Fixpoint traverse {X Y} (f : X -> option Y) (l : list X) : option (list Y) :=
    match l with
    | [] => Some []
    | x :: r => match f x, traverse f r with Some y, Some ys => Some (y :: ys) | _, _ => None end
    end.

  (** write the blocks one after the other *)
  Fixpoint bwrites (displs : list nat) (blocks : list (list T)) (b : list T) : option (list T) :=
    match displs, blocks with
    | o :: ds, s :: ss => match bwrite o s b with Some b' => bwrites ds ss b' | None => None end
    | [], [] => Some b
    | _, _ => None
    end.

  (** MPI_Allgatherv with MPI_IN_PLACE.  Rank r passes (counts, displs, buffer).  What rank i
      contributes is its own block i; every rank must announce that length for it. *)
  Definition mpi_allgatherv (args : list (list nat * list nat * list T)) : option (list (list T)) :=
    let n := length args in
    match traverse (fun ia => match ia with (i, (counts, displs, buf)) =>
            match nth_error displs i, nth_error counts i with
            | Some o, Some c => bread o c buf
            | _, _ => None
            end end) (combine (seq 0 n) args) with
    | None => None
    | Some blocks =>
      traverse (fun a => match a with (counts, displs, buf) =>
        if list_eq_dec Nat.eq_dec counts (map (@length T) blocks) then bwrites displs blocks buf else None end) args
    end.

  (** MPI_Allgather with MPI_IN_PLACE: block i is at i * count. *)
  Definition mpi_allgather (count : nat) (bufs : list (list T)) : option (list (list T)) :=
    let n := length bufs in
    mpi_allgatherv (map (fun b => (repeat count n, map (fun i => i * count) (seq 0 n), b)) bufs).
End Buffers.

(** std::partial_sum, std::accumulate(.., 0) *)
Fixpoint psum_from (s : nat) (l : list nat) : list nat :=
  match l with [] => [] | c :: r => (s + c) :: psum_from (s + c) r end.
Definition psum := psum_from 0.
Definition total (l : list nat) : nat := fold_left Nat.add l 0.

(** vector<int> displs(nranks, 0); partial_sum(counts.begin(), counts.end() - 1, displs.begin() + 1);
    communicator.hpp 132-134 (counts is never empty). *)
Definition displs_of (counts : list nat) : list nat := 0 :: psum (removelast counts).

(** Communicator::allgather(buffer, recvcounts), communicator.hpp 128-148. *)
Definition comm_allgatherv {T} (args : list (list nat * list T)) : option (list (list T)) :=
  mpi_allgatherv (map (fun a => (fst a, displs_of (fst a), snd a)) args).

(** vector<int> nelems(nranks); nelems[rank] = n; comm.allgather(nelems.data(), 1);
    mvector.hpp 144-148 and 169-172.  Result: nelems on every rank. *)
Definition gather_counts (ns : list nat) : option (list (list nat)) :=
  let p := length ns in
  match traverse (fun rn => bwrite (fst rn) [snd rn] (repeat 0 p)) (combine (seq 0 p) ns) with
  | Some bufs => mpi_allgather 1 bufs
  | None => None
  end.

(** The part of mvector.hpp 149-157 and 173-179 that is common to both gathers: buffer of the global
    size, own values copied to the own offset, comm.allgather(buffer, nelems).  [d] is the value of a
    value-initialised element. *)
Definition gather_values {T} (d : T) (nelems : list (list nat)) (values : list (list T)) : option (list (list T)) :=
  match traverse (fun x => match x with (r, (ne, v)) =>
          match nth_error (displs_of ne) r with
          | Some o => match bwrite o v (repeat d (total ne)) with Some b => Some (ne, b) | None => None end
          | None => None
          end end) (combine (seq 0 (length values)) (combine nelems values)) with
  | Some bufs => comm_allgatherv bufs
  | None => None
  end.

(** mvector<scalar>::allgather, mvector.hpp 132-163, after the communicator has been chosen.
    [world]: the local maps; result: the map returned on each rank. *)
Definition allgather_scalar {V} (d : key * V) (world : list (smap V)) : option (list (smap V)) :=
  match gather_counts (map (@length _) world) with
  | None => None
  | Some nelems =>
    match gather_values d nelems world with
    | Some bufs => Some (map map_of_range bufs)
    | None => None
    end
  end.

(** _allgather, mvector.hpp 166-186: the scan has nranks + 1 entries here; result[i] is cut out. *)
Definition cut (nelems : list nat) {T} (buf : list T) : option (list (list T)) :=
  traverse (fun i => match nth_error (0 :: psum nelems) i, nth_error (0 :: psum nelems) (S i) with
    | Some a, Some b => bread a (b - a) buf
    | _, _ => None
    end) (seq 0 (length nelems)).

Definition allgather_vec {T} (d : T) (values : list (list T)) : option (list (list (list T))) :=
  match gather_counts (map (@length _) values) with
  | None => None
  | Some nelems =>
    match gather_values d nelems values with
    | Some bufs => traverse (fun nb => cut (fst nb) (snd nb)) (combine nelems bufs)
    | None => None
    end
  end.

(** Offsets of all blocks, mvector.hpp 219-231: a list for every rank. *)
Fixpoint row_offsets (o : nat) (sizes : list nat) : list nat * nat :=
  match sizes with
  | [] => ([], o)
  | c :: r => let (l, e) := row_offsets (o + c) r in (o :: l, e)
  end.
Fixpoint all_offsets (o : nat) (sizes : list (list nat)) : list (list nat) * nat :=
  match sizes with
  | [] => ([], o)
  | row :: r => let (l, e) := row_offsets o row in
                let (ls, e') := all_offsets e r in (l :: ls, e')
  end.

Section ViewGather.
  Context {T : Type} (dk : key) (d : T).

  (** What one rank does between the gathers of keys and sizes and the Allgatherv,
      mvector.hpp 233-251. *)
  Definition view_pack (r : nat) (m : smap (list T)) (sizes : list (list nat)) : option (list nat * list T) :=
    let (offs, size) := all_offsets 0 sizes in
    match nth_error offs r with
    | Some o => match bwrites o (map snd m) (repeat d size) with
                | Some b => Some (map total sizes, b)
                | None => None
                end
    | None => None
    end.

  (** mvector.hpp 254-270: cut every block out and store it under its key. *)
  Definition view_unpack (keys : list (list key)) (sizes : list (list nat)) (buf : list T)
    : option (smap (list T)) :=
    let (offs, _) := all_offsets 0 sizes in
    match traverse (fun r =>
      match nth_error offs r, nth_error sizes r, nth_error keys r with
      | Some o, Some s, Some k =>
        traverse (fun b => match nth_error o b, nth_error s b, nth_error k b with
          | Some off, Some len, Some key => match bread off len buf with Some v => Some (key, v) | None => None end
          | _, _, _ => None
          end) (seq 0 (length o))
      | _, _, _ => None
      end) (seq 0 (length sizes)) with
    | Some rows => Some (map_of_assignments (concat rows))
    | None => None
    end.

  (** mvector<View>::allgather, mvector.hpp 190-272, after the communicator has been chosen. *)
  Definition allgather_view (world : list (smap (list T))) : option (list (smap (list T))) :=
    match allgather_vec dk (map keys world), allgather_vec 0 (map (fun m => map (fun kv => length (snd kv)) m) world) with
    | Some ks, Some ss =>
      match traverse (fun x => match x with (r, (m, sizes)) => view_pack r m sizes end)
              (combine (seq 0 (length world)) (combine world ss)) with
      | Some bufs =>
        match comm_allgatherv bufs with
        | Some out => traverse (fun x => match x with (k, (s, b)) => view_unpack k s b end) (combine ks (combine ss out))
        | None => None
        end
      | None => None
      end
    | _, _ => None
    end.
End ViewGather.
