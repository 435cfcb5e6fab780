(** Sizes and counts that the program computes in int.  int is 32 bits wide, size_t 64 bits; overflow of int is undefined behaviour
    (None), a conversion of size_t to int keeps the lower 32 bits. *)
From Coq Require Import ZArith Lia List Bool.
From Verif Require Import Layout.
From Verif Require Mpi.
Import ListNotations.
Local Open Scope Z_scope.

Definition chk (z : Z) : option Z := if is_int z then Some z else None.
Definition iadd (a b : Z) : option Z := chk (a + b).
Definition imul (a b : Z) : option Z := chk (a * b).
Definition bind {A B} (a : option A) (f : A -> option B) : option B := match a with Some x => f x | None => None end.
(** int n = (a size_t), for example dvector.hpp 185, mvector.hpp 148, lapack_cpu.hpp 71-79 *)
Definition to_int (z : Z) : Z := (z + 2147483648) mod 4294967296 - 2147483648.

(** std::accumulate(l.begin(), l.end(), 0), mvector.hpp 153, 173, 251 *)
Fixpoint accumulate (a : Z) (l : list Z) : option Z := match l with [] => Some a | c :: r => bind (iadd a c) (fun s => accumulate s r) end.
(** std::partial_sum, mvector.hpp 151, 175, communicator.hpp 134.  The first element is copied, here added to 0. *)
Fixpoint partial_sum (a : Z) (l : list Z) : option (list Z) :=
  match l with [] => Some [] | c :: r => bind (iadd a c) (fun s => bind (partial_sum s r) (fun t => Some (s :: t))) end.
(** displs of Communicator::allgather(buffer, recvcounts), communicator.hpp 132-134 *)
Definition displs (counts : list Z) : option (list Z) := bind (partial_sum 0 (removelast counts)) (fun t => Some (0 :: t)).
(** offsets of the blocks, mvector.hpp 222-233: push_back(offset), offset += lsize *)
Fixpoint row_offsets (o : Z) (sizes : list Z) : option (list Z * Z) :=
  match sizes with
  | [] => Some ([], o)
  | c :: r => bind (iadd o c) (fun o' => bind (row_offsets o' r) (fun le => Some (o :: fst le, snd le)))
  end.
Fixpoint all_offsets (o : Z) (sizes : list (list Z)) : option (list (list Z) * Z) :=
  match sizes with
  | [] => Some ([], o)
  | row :: r => bind (row_offsets o row) (fun le => bind (all_offsets (snd le) r) (fun ls => Some (fst le :: fst ls, snd ls)))
  end.
Fixpoint each {A B} (f : A -> option B) (l : list A) : option (list B) :=
  match l with [] => Some [] | a :: r => bind (f a) (fun b => bind (each f r) (fun t => Some (b :: t))) end.
(** The numbers mvector<View>::allgather computes before it communicates, mvector.hpp 219-252: offsets and global_size, recv_counts, and
    the displacements of the gather.  [sizes]: the lengths of the vectors, per rank and k-point. *)
Definition view_gather (sizes : list (list Z)) : option (list (list Z) * Z * list Z * list Z) :=
  bind (all_offsets 0 sizes) (fun oe => bind (each (accumulate 0) sizes) (fun counts => bind (displs counts) (fun d =>
  Some (fst oe, snd oe, counts, d)))).
(** the same for mvector<scalar>::allgather, mvector.hpp 147-153, from the numbers of k-points: scan, size *)
Definition scalar_gather (nelems : list Z) : option (list Z * Z) :=
  bind (displs nelems) (fun scan => bind (accumulate 0 nelems) (fun size => Some (scan, size))).

(** zheevd_magma, magma.cpp 43-55: n * ldwa, lwork, lrwork, liwork, each operation as written.  magma_roundup(x, y) is
    ((x + y - 1) / y) * y; [nb]: magma_get_zhetrd_nb(n). *)
Definition magma_sizes (n lda nb : Z) : option (Z * Z * Z * Z) :=
  bind (iadd lda 32) (fun a => bind (iadd a (-1)) (fun a => bind (imul (a / 32) 32) (fun ldwa => bind (imul n ldwa) (fun wa =>
  bind (imul n nb) (fun x => bind (iadd n x) (fun x => bind (imul 2 n) (fun y => bind (imul n n) (fun z => bind (iadd y z) (fun y =>
  bind (imul 5 n) (fun u => bind (iadd 1 u) (fun u => bind (imul 2 n) (fun v => bind (imul v n) (fun v => bind (iadd u v) (fun lrwork =>
  bind (imul 5 n) (fun w => bind (iadd 3 w) (fun liwork => Some (wa, Z.max x y, lrwork, liwork))))))))))))))))).
(** make_mmatrix, mvector.hpp 373: the third argument of acc::copy *)
Definition copy_count (size0 size1 : Z) : option Z := imul size0 size1.
(** KokkosDVector::lsize, dvector.hpp 185: int from the size_t product of the extents *)
Definition lsize (rows cols : Z) : Z := to_int (rows * cols).

(** ** Specification *)
Definition zsum (l : list Z) : Z := fold_right Z.add 0 l.
Definition lengths (sizes : list (list nat)) : list (list Z) := map (map Z.of_nat) sizes.
(** total number of elements on all ranks *)
Definition everything (sizes : list (list nat)) : Z := zsum (map (fun r => zsum (map Z.of_nat r)) sizes).

(** ** Proofs *)
Lemma chk_ok z : INT_MIN <= z <= INT_MAX -> chk z = Some z.
Proof. intros H. unfold chk. apply is_int_iff in H. rewrite H. reflexivity. Qed.
Lemma chk_bad z : z < INT_MIN \/ INT_MAX < z -> chk z = None.
Proof. intros H. unfold chk. destruct (is_int z) eqn:E; [|reflexivity]. apply is_int_iff in E. exfalso. lia. Qed.
Lemma to_int_keeps z : INT_MIN <= z <= INT_MAX -> to_int z = z.
Proof. unfold INT_MIN, INT_MAX, to_int. intros H. rewrite Z.mod_small by lia. lia. Qed.
Lemma to_int_range z : INT_MIN <= to_int z <= INT_MAX.
Proof. unfold INT_MIN, INT_MAX, to_int. pose proof (Z.mod_pos_bound (z + 2147483648) 4294967296). lia. Qed.
Lemma zsum_nonneg l : (forall c, In c l -> 0 <= c) -> 0 <= zsum l.
Proof. induction l as [|c l IH]; cbn [zsum fold_right]; intros H; [lia|]. assert (0 <= c) by (apply H; left; reflexivity). assert (0 <= zsum l) by (apply IH; intros; apply H; right; assumption). unfold zsum in *. lia. Qed.
Lemma accumulate_exact l : forall a, 0 <= a <= INT_MAX -> (forall c, In c l -> 0 <= c) -> accumulate a l = chk (a + zsum l).
Proof.
  induction l as [|c l IH]; intros a Ha H; cbn [accumulate zsum fold_right].
  - rewrite Z.add_0_r. symmetry. apply chk_ok. unfold INT_MIN in *. lia.
  - assert (0 <= c) by (apply H; left; reflexivity). assert (N : forall x, In x l -> 0 <= x) by (intros; apply H; right; assumption).
    pose proof (zsum_nonneg l N). unfold zsum in *. unfold iadd. destruct (Z.le_gt_cases (a + c) INT_MAX) as [L|G].
    + rewrite chk_ok by (unfold INT_MIN; lia). cbn [bind]. rewrite IH by (assumption || lia). f_equal. ring.
    + rewrite chk_bad by lia. cbn [bind]. symmetry. apply chk_bad. lia.
Qed.
Lemma map_nonneg l : forall c, In c (map Z.of_nat l) -> 0 <= c.
Proof. intros c H. apply in_map_iff in H. destruct H as (x & <- & _). lia. Qed.
Lemma total_sum l : Z.of_nat (Mpi.total l) = zsum (map Z.of_nat l).
Proof.
  unfold Mpi.total. assert (G : forall a, Z.of_nat (fold_left Nat.add l a) = Z.of_nat a + zsum (map Z.of_nat l)); [|rewrite G; reflexivity].
  induction l as [|c l IH]; intros a; cbn [fold_left map zsum fold_right]; [lia|]. rewrite IH. unfold zsum. lia.
Qed.
Lemma partial_sum_exact l : forall a, Z.of_nat a + zsum (map Z.of_nat l) <= INT_MAX ->
  partial_sum (Z.of_nat a) (map Z.of_nat l) = Some (map Z.of_nat (Mpi.psum_from a l)).
Proof.
  induction l as [|c l IH]; intros a H; cbn [partial_sum map zsum fold_right Mpi.psum_from] in *; [reflexivity|].
  pose proof (zsum_nonneg _ (map_nonneg l)). unfold zsum in *. unfold iadd. rewrite chk_ok by (unfold INT_MIN; lia). cbn [bind].
  rewrite <- Nat2Z.inj_add, IH by lia. reflexivity.
Qed.
Lemma removelast_map {A B} (f : A -> B) l : removelast (map f l) = map f (removelast l).
Proof. induction l as [|a [|b l] IH]; cbn [map removelast] in *; [reflexivity|reflexivity|]. rewrite IH. reflexivity. Qed.
Lemma removelast_sum l : zsum (map Z.of_nat (removelast l)) <= zsum (map Z.of_nat l).
Proof. induction l as [|a [|b l] IH]; cbn [map removelast zsum fold_right] in *; [lia|lia|]. unfold zsum in *. cbn [map fold_right] in *. lia. Qed.
Lemma displs_exact l : zsum (map Z.of_nat l) <= INT_MAX -> displs (map Z.of_nat l) = Some (map Z.of_nat (Mpi.displs_of l)).
Proof.
  intros H. unfold displs. rewrite removelast_map. pose proof (removelast_sum l). change 0 with (Z.of_nat 0) at 1. rewrite partial_sum_exact by lia. reflexivity.
Qed.
Lemma row_offsets_exact l : forall o, Z.of_nat o <= INT_MAX ->
  (Z.of_nat o + zsum (map Z.of_nat l) <= INT_MAX ->
     row_offsets (Z.of_nat o) (map Z.of_nat l) = Some (map Z.of_nat (fst (Mpi.row_offsets o l)), Z.of_nat (snd (Mpi.row_offsets o l))) /\
     Z.of_nat (snd (Mpi.row_offsets o l)) = Z.of_nat o + zsum (map Z.of_nat l)) /\
  (INT_MAX < Z.of_nat o + zsum (map Z.of_nat l) -> row_offsets (Z.of_nat o) (map Z.of_nat l) = None).
Proof.
  induction l as [|c l IH]; intros o Ho; cbn [row_offsets map zsum fold_right Mpi.row_offsets].
  - split; [intros _; split; [reflexivity|cbn [snd]; lia]|lia].
  - pose proof (zsum_nonneg _ (map_nonneg l)) as N. unfold zsum in *. unfold iadd. destruct (Z.le_gt_cases (Z.of_nat o + Z.of_nat c) INT_MAX) as [L|G].
    + rewrite chk_ok by (unfold INT_MIN; lia). cbn [bind]. rewrite <- Nat2Z.inj_add in *. destruct (IH (o + c)%nat L) as (I1 & I2).
      destruct (Mpi.row_offsets (o + c) l) as [ls e]. cbn [fst snd] in *. split; intros H.
      * destruct I1 as (-> & E); [lia|]. cbn [bind fst snd map]. split; [reflexivity|lia].
      * rewrite I2 by lia. reflexivity.
    + rewrite chk_bad by lia. split; [lia|reflexivity].
Qed.
Lemma everything_nonneg s : 0 <= everything s.
Proof. apply zsum_nonneg. intros c H. apply in_map_iff in H. destruct H as (r & <- & _). apply zsum_nonneg, map_nonneg. Qed.
Lemma all_offsets_exact s : forall o, Z.of_nat o <= INT_MAX ->
  (Z.of_nat o + everything s <= INT_MAX ->
     all_offsets (Z.of_nat o) (lengths s) = Some (map (map Z.of_nat) (fst (Mpi.all_offsets o s)), Z.of_nat (snd (Mpi.all_offsets o s))) /\
     Z.of_nat (snd (Mpi.all_offsets o s)) = Z.of_nat o + everything s) /\
  (INT_MAX < Z.of_nat o + everything s -> all_offsets (Z.of_nat o) (lengths s) = None).
Proof.
  unfold lengths. induction s as [|row s IH]; intros o Ho; cbn [all_offsets map Mpi.all_offsets].
  - unfold everything. cbn. split; [intros _; split; [reflexivity|lia]|lia].
  - assert (E : everything (row :: s) = zsum (map Z.of_nat row) + everything s) by reflexivity. rewrite E. clear E.
    pose proof (everything_nonneg s). pose proof (zsum_nonneg _ (map_nonneg row)).
    destruct (row_offsets_exact row o Ho) as (R1 & R2). destruct (Z.le_gt_cases (Z.of_nat o + zsum (map Z.of_nat row)) INT_MAX) as [L|G].
    + destruct (R1 L) as (-> & E). cbn [bind fst snd]. destruct (Mpi.row_offsets o row) as [l e]. cbn [fst snd] in *.
      destruct (IH e) as (I1 & I2); [lia|]. destruct (Mpi.all_offsets e s) as [ls e']. cbn [fst snd] in *. split; intros H1.
      * destruct I1 as (-> & E'); [lia|]. cbn [bind fst snd map]. split; [reflexivity|lia].
      * rewrite I2 by lia. reflexivity.
    + rewrite (R2 G). split; [lia|reflexivity].
Qed.
Lemma each_counts s : everything s <= INT_MAX -> each (accumulate 0) (lengths s) = Some (map Z.of_nat (map Mpi.total s)).
Proof.
  unfold lengths. induction s as [|row s IH]; cbn [each map]; intros H; [reflexivity|].
  assert (E : everything (row :: s) = zsum (map Z.of_nat row) + everything s) by reflexivity. rewrite E in H.
  pose proof (everything_nonneg s). pose proof (zsum_nonneg _ (map_nonneg row)).
  rewrite accumulate_exact by (apply map_nonneg || (unfold INT_MAX; lia)). rewrite Z.add_0_l, chk_ok by (unfold INT_MIN; lia). cbn [bind].
  rewrite IH by lia. cbn [bind]. rewrite total_sum. reflexivity.
Qed.
Lemma everything_totals s : everything s = zsum (map Z.of_nat (map Mpi.total s)).
Proof. unfold everything. f_equal. rewrite map_map. apply map_ext. intros r. symmetry. apply total_sum. Qed.

Theorem view_gather_fits s : everything s <= INT_MAX ->
  view_gather (lengths s) = Some (map (map Z.of_nat) (fst (Mpi.all_offsets 0 s)), Z.of_nat (snd (Mpi.all_offsets 0 s)),
    map Z.of_nat (map Mpi.total s), map Z.of_nat (Mpi.displs_of (map Mpi.total s))).
Proof.
  intros H. unfold view_gather. change 0 with (Z.of_nat 0) at 1. destruct (all_offsets_exact s 0) as (A & _); [unfold INT_MAX; lia|].
  destruct A as (-> & _); [lia|]. cbn [bind fst snd]. rewrite (each_counts s H). cbn [bind]. rewrite displs_exact by (rewrite <- everything_totals; exact H). reflexivity.
Qed.
Theorem view_gather_overflows s : INT_MAX < everything s -> view_gather (lengths s) = None.
Proof.
  intros H. unfold view_gather. change 0 with (Z.of_nat 0) at 1. destruct (all_offsets_exact s 0) as (_ & A); [unfold INT_MAX; lia|]. rewrite A by lia. reflexivity.
Qed.
Theorem scalar_gather_fits (ns : list nat) : zsum (map Z.of_nat ns) <= INT_MAX ->
  scalar_gather (map Z.of_nat ns) = Some (map Z.of_nat (Mpi.displs_of ns), Z.of_nat (Mpi.total ns)).
Proof.
  intros H. unfold scalar_gather. rewrite displs_exact by exact H. cbn [bind]. pose proof (zsum_nonneg _ (map_nonneg ns)).
  rewrite accumulate_exact by (apply map_nonneg || (unfold INT_MAX; lia)). rewrite Z.add_0_l, chk_ok by (unfold INT_MIN; lia). cbn [bind]. rewrite total_sum. reflexivity.
Qed.

Ltac go := repeat (rewrite chk_ok by (unfold INT_MIN, INT_MAX in *; nia); cbn [bind]).
Theorem magma_fits n lda nb : 0 < n <= 32766 -> n <= lda <= 32768 -> 0 <= nb <= 65000 ->
  magma_sizes n lda nb = Some (n * (32 * ((lda + 31) / 32)), Z.max (n + n * nb) (2 * n + n * n), 1 + 5 * n + 2 * n * n, 3 + 5 * n).
Proof.
  intros Hn Hl Hb. unfold magma_sizes, iadd, imul. rewrite chk_ok by (unfold INT_MIN, INT_MAX; lia). cbn [bind]. rewrite chk_ok by (unfold INT_MIN, INT_MAX; lia). cbn [bind].
  replace (lda + 32 + -1) with (lda + 31) by lia. set (r := (lda + 31) / 32).
  assert (Hr : 0 <= r <= 1024). { subst r. split; [apply Z.div_pos; lia|]. assert ((lda + 31) / 32 < 1025); [apply Z.div_lt_upper_bound; lia|lia]. }
  go. rewrite (Z.mul_comm r 32). reflexivity.
Qed.
Lemma bind_none {A B} (a : option A) (f : A -> option B) : (forall x, a = Some x -> f x = None) -> bind a f = None.
Proof. destruct a as [x|]; cbn [bind]; intros H; [apply H; reflexivity|reflexivity]. Qed.
Lemma chk_inv z c : chk z = Some c -> c = z /\ INT_MIN <= z <= INT_MAX.
Proof. unfold chk. destruct (is_int z) eqn:E; [|discriminate]. intros [= <-]. split; [reflexivity|apply is_int_iff, E]. Qed.
Theorem magma_overflows n lda nb : 32767 <= n <= INT_MAX -> magma_sizes n lda nb = None.
Proof.
  intros Hn. unfold magma_sizes. do 9 (apply bind_none; intros ? _).
  apply bind_none; intros u E1. apply bind_none; intros u1 E2. apply bind_none; intros v E3. apply bind_none; intros v1 E4. apply bind_none; intros l E5. exfalso.
  apply chk_inv in E1, E2, E3, E4, E5. unfold INT_MAX in *. nia.
Qed.
Theorem copy_count_iff a b : 0 <= a -> 0 <= b -> (a * b <= INT_MAX -> copy_count a b = Some (a * b)) /\ (INT_MAX < a * b -> copy_count a b = None).
Proof. intros Ha Hb. unfold copy_count, imul. split; intros H; [apply chk_ok; unfold INT_MIN; nia|apply chk_bad; lia]. Qed.
Theorem lsize_iff a b : 0 <= a -> 0 <= b -> (lsize a b = a * b <-> a * b <= INT_MAX).
Proof.
  intros Ha Hb. unfold lsize. split; intros H; [pose proof (to_int_range (a * b)); lia|apply to_int_keeps; unfold INT_MIN; nia].
Qed.
Theorem addresses rows cols ld i j : 0 <= i < rows -> 0 <= j < cols -> rows <= ld -> ld <= INT_MAX -> cols <= INT_MAX ->
  to_int rows = rows /\ to_int cols = cols /\ to_int ld = ld /\ 0 <= i + j * ld < 2 ^ 64.
Proof. intros. repeat split; try (apply to_int_keeps; unfold INT_MIN, INT_MAX in *; lia); unfold INT_MAX in *; nia. Qed.
