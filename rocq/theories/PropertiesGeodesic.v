(** Property C40: trial points of the line search.  Exact real / complex arithmetic; matrices of every size;
    [eigh] is any eigensolver satisfying the LAPACK contract [eigh_ok]. *)
From Coq Require Import Reals Lra Arith Lia List Bool Permutation.
From Coquelicot Require Import Complex.
From Verif Require Import Arith LinAlg Containers Newton Occupation Smearing Descent DescentProofs DescentFacts Geodesic GeodesicProofs.
Import ListNotations.
Local Open Scope R_scope.

(** ** C40 *)
(** n rows, m columns; ek, Ul, X' are the pseudo-eigenvalues, rotation and wave functions of the trial point. *)
Theorem C40_trial_point_orthonormal :
  forall eigh, eigh_ok eigh -> forall n m X eta zx zeta S t ek Ul X', hermitian n S ->
  posdef m (let Xt := fun i j => Cplus (X i j) (Cmult (RtoC t) (zx i j)) in mmul n (adj Xt) (mmul n S Xt)) ->
  geodesic_us eigh n m X eta zx zeta S t = Some (ek, Ul, X') ->
  forall i j, (i < m)%nat -> (j < m)%nat -> mmul n (adj X') (mmul n S X') i j = if Nat.eqb i j then RtoC 1 else RtoC 0.
Proof. exact trial_orthonormal_entries. Qed.
Print Assumptions C40_trial_point_orthonormal.

(** Along a direction that is tangent to the current, orthonormal point the rank never drops: every t is admissible. *)
Theorem C40_full_rank_along_tangents :
  forall n m S X Z t, hermitian n S -> psd n S ->
  (forall i j, (i < m)%nat -> (j < m)%nat -> mmul n (adj X) (mmul n S X) i j = if Nat.eqb i j then RtoC 1 else RtoC 0) ->
  (forall i j, (i < m)%nat -> (j < m)%nat -> mmul n (adj (mmul n S X)) Z i j = RtoC 0) ->
  posdef m (let Xt := fun i j => Cplus (X i j) (Cmult (RtoC t) (Z i j)) in mmul n (adj Xt) (mmul n S Xt)).
Proof. exact gram_posdef. Qed.
Print Assumptions C40_full_rank_along_tangents.

Theorem C40_zero_step_keeps_the_state :
  forall eigh, eigh_ok eigh -> forall n m X e0 zx zeta S ek Ul X', hermitian n S ->
  (forall i j, (i < m)%nat -> (j < m)%nat -> mmul n (adj X) (mmul n S X) i j = if Nat.eqb i j then RtoC 1 else RtoC 0) ->
  geodesic_us eigh n m X (make_diag e0) zx zeta S 0 = Some (ek, Ul, X') ->
  unitary m Ul /\ meq n m X' (mmul m X Ul) /\
  meq m m (mmul m (adj Ul) (mmul m (mdiag e0) Ul)) (mdiag ek) /\
  Permutation (map e0 (seq 0 m)) (map ek (seq 0 m)) /\
  (forall g : R -> R, rsumn m (fun i => g (ek i)) = rsumn m (fun i => g (e0 i))) /\
  forall g : R -> R,
    meq n n (mmul m X' (mmul m (mdiag (fun j => g (ek j))) (adj X'))) (mmul m X (mmul m (mdiag (fun j => g (e0 j))) (adj X))).
Proof. exact trial_zero. Qed.
Print Assumptions C40_zero_step_keeps_the_state.

(** One band in two basis functions, S = diag(1, 3), X = (1, 0), Z = (0, 1), t = 1: Gram matrix (4). *)
Definition exS : mat := diag2 1 3.
Definition exX : mat := fun i _ => if Nat.eqb i 0 then RtoC 1 else RtoC 0.
Definition exZ : mat := fun i _ => if Nat.eqb i 0 then RtoC 0 else RtoC 1.
Example C40_example :
  eigh_ok eigh2 /\ hermitian 2 exS /\ psd 2 exS /\
  (forall i j, (i < 1)%nat -> (j < 1)%nat -> mmul 2 (adj exX) (mmul 2 exS exX) i j = if Nat.eqb i j then RtoC 1 else RtoC 0) /\
  (forall i j, (i < 1)%nat -> (j < 1)%nat -> mmul 2 (adj (mmul 2 exS exX)) exZ i j = RtoC 0) /\
  (exists ek Ul X', geodesic_us eigh2 2 1 exX (make_diag (fun _ => 5)) exZ mid exS 1 = Some (ek, Ul, X') /\
     X' 0%nat 0%nat = RtoC (1 / 2) /\ X' 1%nat 0%nat = RtoC (1 / 2)).
Proof.
  split; [exact eigh2_ok|]. split; [unfold hermitian, exS, diag2; rewrite adj_mdiag; apply meq_refl|].
  split; [apply psd_diag2; lra|].
  split; [intros i j Hi Hj; replace i with 0%nat by lia; replace j with 0%nat by lia; unfold mmul, adj, exS, diag2, mdiag, exX; cbn; apply Ceq; cbn; ring|].
  split; [intros i j Hi Hj; replace i with 0%nat by lia; replace j with 0%nat by lia; unfold mmul, adj, exS, diag2, mdiag, exX, exZ; cbn; apply Ceq; cbn; ring|].
  unfold geodesic_us, advance_x, loewdin. cbn [eigh2]. do 3 eexists. split; [reflexivity|].
  assert (E : Re (inner_ 2 (add exX exZ 1 1) (mmul 2 exS (add exX exZ 1 1)) 1 0%nat 0%nat) = 4).
  { unfold inner_, mscal, mmul, adj, add, exS, diag2, mdiag, exX, exZ. cbn. ring. }
  assert (Q : loewdin_aux (fun i => Re (inner_ 2 (add exX exZ 1 1) (mmul 2 exS (add exX exZ 1 1)) 1 i i)) 0%nat = 1 / 2).
  { unfold loewdin_aux. rewrite E. replace 4 with (2 * 2) by ring. rewrite sqrt_square by lra. reflexivity. }
  set (e := loewdin_aux _) in *. unfold transform_alloc, outer, scale_cols, mmul. cbn [csum]. rewrite Q. clearbody e. unfold add, adj, mid, exX, exZ. cbn [Nat.eqb].
  split; apply Ceq; cbn; field.
Qed.

(** Two bands whose pseudo-eigenvalues get sorted: e0 = (2, 1). *)
Example C40_zero_example :
  (forall i j, (i < 2)%nat -> (j < 2)%nat -> mmul 2 (adj mid) (mmul 2 mid mid) i j = if Nat.eqb i j then RtoC 1 else RtoC 0) /\
  exists ek Ul X', geodesic_us eigh2 2 2 mid (make_diag (fun i => if Nat.eqb i 0 then 2 else 1)) exZ mid mid 0 = Some (ek, Ul, X') /\
    ek 0%nat = 1 /\ ek 1%nat = 2 /\ X' 0%nat 0%nat = RtoC 0.
Proof.
  assert (I : meq 2 2 (mmul 2 (adj mid) (mmul 2 mid mid)) mid).
  { rewrite adj_mid. apply (meq_trans 2 2 _ _ _ (mmul_id_l 2 2 _)). apply mmul_id_l. }
  split; [exact I|].
  set (e0 := fun i : nat => if Nat.eqb i 0 then 2 else 1).
  assert (Eeta : advance_eta 0 (make_diag e0) mid = mdiag e0).
  { apply mat_ext. intros i j. unfold advance_eta, add, make_diag. apply Ceq; cbn; ring. }
  assert (EX : add mid exZ 0 1 = mid). { apply mat_ext. intros i j. unfold add. apply Ceq; cbn; ring. }
  unfold geodesic_us, advance_x, loewdin. rewrite Eeta, EX, inner_1.
  assert (E1 : eigh2 2 (mdiag e0) = Some (swap2, fun i => if Nat.eqb i 0 then 1 else 2)).
  { unfold eigh2, mdiag. cbn [Nat.eqb].
    destruct (Req_EM_T (Re (RtoC 0)) 0) as [_|F]; [|exfalso; apply F; reflexivity].
    destruct (Req_EM_T (Im (RtoC 0)) 0) as [_|F]; [|exfalso; apply F; reflexivity].
    destruct (Rle_dec (Re (RtoC (e0 0%nat))) (Re (RtoC (e0 1%nat)))) as [F|_]; [unfold e0 in F; cbn in F; lra|]. reflexivity. }
  set (M := mmul 2 (adj mid) (mmul 2 mid mid)) in *.
  assert (E2 : eigh2 2 M = Some (mid, fun i => Re (M i i))).
  { unfold eigh2. rewrite !I by lia. cbn [mid Nat.eqb].
    destruct (Req_EM_T (Re (RtoC 0)) 0) as [_|F]; [|exfalso; apply F; reflexivity].
    destruct (Req_EM_T (Im (RtoC 0)) 0) as [_|F]; [|exfalso; apply F; reflexivity].
    destruct (Rle_dec (Re (RtoC 1)) (Re (RtoC 1))) as [_|F]; [reflexivity|exfalso; apply F; lra]. }
  rewrite E1, E2. do 3 eexists. split; [reflexivity|]. split; [reflexivity|]. split; [reflexivity|].
  unfold transform_alloc, outer, scale_cols, mmul, adj, mid, swap2. cbn. apply Ceq; cbn; ring.
Qed.
