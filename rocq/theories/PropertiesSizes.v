(** C97: sizes and counts computed in int. *)
From Coq Require Import ZArith Lia List.
From Verif Require Import Layout IntSizes.
From Verif Require Mpi.
Import ListNotations.
Local Open Scope Z_scope.

(** Offsets, total, counts and displacements of the gather of vectors are those of unbounded integers as long as all vectors together have at
    most 2^31 - 1 elements ... *)
Theorem C97_vectors_gathered : forall s, everything s <= INT_MAX ->
  view_gather (lengths s) = Some (map (map Z.of_nat) (fst (Mpi.all_offsets 0 s)), Z.of_nat (snd (Mpi.all_offsets 0 s)),
    map Z.of_nat (map Mpi.total s), map Z.of_nat (Mpi.displs_of (map Mpi.total s))).
Proof. exact view_gather_fits. Qed.
Print Assumptions C97_vectors_gathered.
(** ... and undefined as soon as they have more, even if every rank has fewer. *)
Theorem C97_vectors_too_long : forall s, INT_MAX < everything s -> view_gather (lengths s) = None.
Proof. exact view_gather_overflows. Qed.
Print Assumptions C97_vectors_too_long.
Theorem C97_scalars_gathered : forall ns, zsum (map Z.of_nat ns) <= INT_MAX ->
  scalar_gather (map Z.of_nat ns) = Some (map Z.of_nat (Mpi.displs_of ns), Z.of_nat (Mpi.total ns)).
Proof. exact scalar_gather_fits. Qed.
Print Assumptions C97_scalars_gathered.
(** two ranks with three vectors *)
Example C97_example_gather :
  everything [[2; 3]; [4]]%nat <= INT_MAX /\ view_gather (lengths [[2; 3]; [4]]%nat) = Some ([[0; 2]; [5]], 9, [5; 4], [0; 5]).
Proof. split; [vm_compute; discriminate|reflexivity]. Qed.
Example C97_example_too_long : INT_MAX < everything [[Z.to_nat 2000000000]; [Z.to_nat 2000000000]].
Proof. unfold everything, zsum. cbn [map fold_right]. rewrite Z2Nat.id by lia. unfold INT_MAX. lia. Qed.

(** Workspaces of zheevd_magma: the sizes of the documentation up to n = 32766, undefined for all larger n. *)
Theorem C97_magma_workspaces : forall n lda nb, 0 < n <= 32766 -> n <= lda <= 32768 -> 0 <= nb <= 65000 ->
  magma_sizes n lda nb = Some (n * (32 * ((lda + 31) / 32)), Z.max (n + n * nb) (2 * n + n * n), 1 + 5 * n + 2 * n * n, 3 + 5 * n).
Proof. exact magma_fits. Qed.
Print Assumptions C97_magma_workspaces.
Theorem C97_magma_large_matrices : forall n lda nb, 32767 <= n <= INT_MAX -> magma_sizes n lda nb = None.
Proof. exact magma_overflows. Qed.
Print Assumptions C97_magma_large_matrices.
Example C97_example_magma : magma_sizes 100 100 64 = Some (12800, 10200, 20501, 503) /\ magma_sizes 32766 32766 64 <> None /\ magma_sizes 32767 32767 64 = None.
Proof. split; [reflexivity|]. split; [vm_compute; discriminate|reflexivity]. Qed.

(** make_mmatrix between memory spaces: the number of elements to copy *)
Theorem C97_copied_elements : forall a b, 0 <= a -> 0 <= b ->
  (a * b <= INT_MAX -> copy_count a b = Some (a * b)) /\ (INT_MAX < a * b -> copy_count a b = None).
Proof. exact copy_count_iff. Qed.
Print Assumptions C97_copied_elements.
(** KokkosDVector::lsize is the number of elements only up to 2^31 - 1 of them. *)
Theorem C97_local_size : forall a b, 0 <= a -> 0 <= b -> (lsize a b = a * b <-> a * b <= INT_MAX).
Proof. exact lsize_iff. Qed.
Print Assumptions C97_local_size.
(** Extents that are valid buffer sizes give copies of undefined length and wrong local sizes: 1000000 plane waves and 3000 bands. *)
Theorem C97_every_size_refuted :
  exists a b, 0 < a <= INT_MAX /\ 0 < b <= INT_MAX /\ copy_count a b = None /\ lsize a b < 0.
Proof. exists 1000000, 3000. repeat split; vm_compute; discriminate || reflexivity. Qed.
Print Assumptions C97_every_size_refuted.
Example C97_example_sizes : copy_count 100000 20000 = Some 2000000000 /\ lsize 65536 65536 = 0 /\ lsize 1000000 3000 = -1294967296.
Proof. repeat split; reflexivity. Qed.

(** The products of host matrices are not affected: extents and leading dimensions of buffers described by int are passed to BLAS unchanged, and
    the address of every element, computed in size_t, does not wrap. *)
Theorem C97_matrix_addresses : forall rows cols ld i j, 0 <= i < rows -> 0 <= j < cols -> rows <= ld -> ld <= INT_MAX -> cols <= INT_MAX ->
  to_int rows = rows /\ to_int cols = cols /\ to_int ld = ld /\ 0 <= i + j * ld < 2 ^ 64.
Proof. exact addresses. Qed.
Print Assumptions C97_matrix_addresses.
Example C97_example_addresses : (0 <= 999999 < 1000000) /\ (0 <= 2999 < 3000) /\ 1000000 <= 1000000 /\ 1000000 <= INT_MAX /\ 3000 <= INT_MAX.
Proof. unfold INT_MAX. lia. Qed.
