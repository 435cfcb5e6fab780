(** Proofs about Geodesic.v. *)
From Coq Require Import Reals Lra Psatz Arith Lia List Bool Permutation Sorted.
From Coquelicot Require Import Complex.
From Verif Require Import Arith LinAlg Containers Newton Occupation Smearing Descent DescentProofs DescentFacts Geodesic.
Import ListNotations.
Local Open Scope R_scope.

Lemma upper_hermitian n A : hermitian n A -> meq n n (upper A) A.
Proof.
  intros H i j Hi Hj. unfold upper. destruct (Nat.ltb_spec i j); [reflexivity|]. destruct (Nat.ltb_spec j i).
  - exact (H i j Hi Hj).
  - assert (i = j) by lia. subst j. symmetry. apply real_of_conj. exact (H i i Hi Hi).
Qed.

(** [rw_mul]: rewriting below products *)
Lemma mmul_ext_l n k m A A' B : meq n k A A' -> meq n m (mmul k A B) (mmul k A' B).
Proof. intros H. apply (mmul_ext n k m); [exact H|apply meq_refl]. Qed.
Lemma mmul_ext_r n k m A B B' : meq k m B B' -> meq n m (mmul k A B) (mmul k A B').
Proof. intros H. apply (mmul_ext n k m); [apply meq_refl|exact H]. Qed.
Lemma mdiag_mul n m d e : meq n m (mmul n (mdiag d) (mdiag e)) (mdiag (fun i => d i * e i)).
Proof.
  apply (meq_trans n m _ _ _ (mmul_diag_l n m (mdiag e) d)). intros i j _ _. unfold mdiag.
  destruct (Nat.eqb i j); apply Ceq; cbn; ring.
Qed.
Lemma scale_cols_mul m A w : meq m m (scale_cols A w 1) (mmul m A (mdiag w)).
Proof. apply meq_sym. apply (meq_trans m m _ _ _ (mmul_diag_r m m A w)). intros i j _ _. unfold scale_cols. rewrite Rmult_1_l. apply Cmult_comm. Qed.
Lemma scale_cols_mul_n n m A w : meq n m (scale_cols A w 1) (mmul m A (mdiag w)).
Proof. apply meq_sym. apply (meq_trans n m _ _ _ (mmul_diag_r n m A w)). intros i j _ _. unfold scale_cols. rewrite Rmult_1_l. apply Cmult_comm. Qed.

Section Eig.
  Context (m : nat) (M U : mat) (w : nat -> R).
  Hypothesis HU : unitary m U.
  Hypothesis HM : meq m m (mmul m M U) (mmul m U (mdiag w)).

  (** U^H M U = diag w *)
  Lemma eig_diag : meq m m (mmul m (adj U) (mmul m M U)) (mdiag w).
  Proof.
    apply (meq_trans m m _ (mmul m (adj U) (mmul m U (mdiag w)))); [apply mmul_ext_r, HM|].
    rewrite <- mmul_assoc. apply (meq_trans m m _ (mmul m mid (mdiag w))); [apply mmul_ext_l, HU|apply mmul_id_l].
  Qed.

  Lemma quad_mmul v : forall n A, quad n A v = mmul n (adj (fun i _ => v i)) (mmul n A (fun i _ => v i)) 0%nat 0%nat.
  Proof.
    intros n A. unfold quad, mmul, adj. apply csum_ext. intros i Hi. rewrite <- csum_scal_l. apply csum_ext. intros j Hj. ring.
  Qed.

  (** eigenvalues of a positive definite matrix are positive *)
  Lemma eig_pos : posdef m M -> forall i, (i < m)%nat -> 0 < w i.
  Proof.
    intros Hp i Hi. pose proof (eig_diag i i Hi Hi) as E.
    assert (Q : quad m M (fun l => U l i) = mmul m (adj U) (mmul m M U) i i).
    { unfold quad, mmul, adj. apply csum_ext. intros a Ha. rewrite <- csum_scal_l. apply csum_ext. intros b Hb. ring. }
    assert (P : 0 < Re (quad m M (fun l => U l i))).
    { apply Hp. destruct HU as [H1 _]. specialize (H1 i i Hi Hi). unfold mid in H1. rewrite Nat.eqb_refl in H1.
      destruct (Classical_Prop.classic (exists l, (l < m)%nat /\ U l i <> RtoC 0)) as [H|H]; [exact H|exfalso].
      assert (Z : mmul m (adj U) U i i = RtoC 0).
      { unfold mmul. apply csum_0. intros l Hl. destruct (Classical_Prop.classic (U l i = RtoC 0)) as [E0|E0]; [rewrite E0; ring|].
        exfalso. apply H. exists l. split; assumption. }
      rewrite Z in H1. apply (f_equal fst) in H1. cbn in H1. lra. }
    rewrite Q, E in P. unfold mdiag in P. rewrite Nat.eqb_refl in P. exact P.
  Qed.

  (** the matrix built by loewdin: U diag(1/sqrt w) U^H *)
  Definition inv_root : mat := outer m (scale_cols U (loewdin_aux w) 1) U.
  Lemma inv_root_eq : meq m m inv_root (mmul m U (mmul m (mdiag (loewdin_aux w)) (adj U))).
  Proof. unfold inv_root, outer. rewrite <- mmul_assoc. apply mmul_ext_l, scale_cols_mul. Qed.
  Lemma inv_root_adj : meq m m (adj inv_root) inv_root.
  Proof.
    apply (meq_trans m m _ (adj (mmul m U (mmul m (mdiag (loewdin_aux w)) (adj U))))); [apply adj_ext, inv_root_eq|].
    rewrite !adj_mmul, adj_adj, adj_mdiag, mmul_assoc. apply meq_sym, inv_root_eq.
  Qed.
  Lemma inv_root_spec : (forall i, (i < m)%nat -> 0 < w i) -> meq m m (mmul m (adj inv_root) (mmul m M inv_root)) mid.
  Proof.
    intros Hw. set (D := mdiag (loewdin_aux w)).
    set (V := mmul m U (mmul m D (adj U))).
    assert (EV : meq m m inv_root V) by exact inv_root_eq.
    apply (meq_trans m m _ (mmul m V (mmul m M V))).
    { apply (mmul_ext m m m); [apply (meq_trans m m _ _ _ inv_root_adj EV)|]. apply mmul_ext_r, EV. }
    (* M V = U w D U^H *)
    assert (E1 : meq m m (mmul m M V) (mmul m U (mmul m (mdiag w) (mmul m D (adj U))))).
    { unfold V. rewrite <- mmul_assoc. rewrite <- (mmul_assoc m m U (mdiag w)). apply mmul_ext_l, HM. }
    apply (meq_trans m m _ (mmul m V (mmul m U (mmul m (mdiag w) (mmul m D (adj U)))))); [apply mmul_ext_r, E1|].
    unfold V. rewrite mmul_assoc. rewrite mmul_assoc.
    apply (meq_trans m m _ (mmul m U (mmul m D (mmul m (mdiag w) (mmul m D (adj U)))))).
    { apply mmul_ext_r, mmul_ext_r. rewrite <- mmul_assoc.
      apply (meq_trans m m _ (mmul m mid (mmul m (mdiag w) (mmul m D (adj U))))); [apply mmul_ext_l, HU|apply mmul_id_l]. }
    apply (meq_trans m m _ (mmul m U (adj U))); [|apply HU]. apply mmul_ext_r.
    rewrite <- (mmul_assoc m m (mdiag w) D), <- mmul_assoc.
    apply (meq_trans m m _ (mmul m mid (adj U))); [|apply mmul_id_l]. apply mmul_ext_l.
    apply (meq_trans m m _ (mmul m D (mdiag (fun i => w i * loewdin_aux w i)))); [apply mmul_ext_r, mdiag_mul|].
    apply (meq_trans m m _ _ _ (mdiag_mul m m _ _)). intros i j Hi Hj. unfold mdiag, mid. destruct (Nat.eqb i j); [|reflexivity].
    unfold loewdin_aux. pose proof (Hw i Hi) as P. pose proof (sqrt_lt_R0 _ P) as Q. f_equal.
    assert (E : w i = sqrt (w i) * sqrt (w i)) by (symmetry; apply sqrt_sqrt; lra).
    transitivity (1 / sqrt (w i) * (sqrt (w i) * sqrt (w i) * (1 / sqrt (w i)))); [rewrite <- E; reflexivity|]. field. lra.
  Qed.
End Eig.

Section Trial.
  Context (eigh : nat -> mat -> option (mat * (nat -> R))).
  Hypothesis He : eigh_ok eigh.

  Lemma gram_hermitian n m S X : hermitian n S -> hermitian m (mmul n (adj X) (mmul n S X)).
  Proof.
    intros HS. unfold hermitian. rewrite !adj_mmul, adj_adj, mmul_assoc. apply mmul_ext_r. apply (mmul_ext_l n n m).
    exact HS.
  Qed.

  (** loewdin orthonormalises *)
  Lemma loewdin_orthonormal n m S X Y :
    hermitian n S -> posdef m (mmul n (adj X) (mmul n S X)) ->
    loewdin eigh n m X (mmul n S X) = Some Y -> orthonormal n m S Y.
  Proof.
    intros HS Hp. unfold loewdin. rewrite inner_1. set (M := mmul n (adj X) (mmul n S X)) in *.
    destruct (eigh m M) as [[U w]|] eqn:E; [|discriminate]. intros H. inversion H as [HY]. clear H.
    destruct (He _ _ _ _ E) as (HU & HM & _).
    assert (HMU : meq m m (mmul m M U) (mmul m U (mdiag w))).
    { apply (meq_trans m m _ (mmul m (upper M) U)); [|exact HM]. apply mmul_ext_l. apply meq_sym. apply upper_hermitian, gram_hermitian, HS. }
    fold (inv_root m U w). set (R := inv_root m U w).
    unfold orthonormal, transform_alloc. rewrite adj_mmul.
    rewrite mmul_assoc. rewrite <- (mmul_assoc n m S X R). rewrite <- (mmul_assoc n m (adj X) (mmul n S X) R). fold M.
    apply inv_root_spec; [exact HU|exact HMU|]. apply (eig_pos m M U w HU HMU Hp).
  Qed.

  Lemma rotate_orthonormal n m S Y U : unitary m U -> orthonormal n m S Y -> orthonormal n m S (mmul m Y U).
  Proof.
    intros HU HY. unfold orthonormal. rewrite adj_mmul, mmul_assoc. rewrite <- (mmul_assoc n m S Y U). rewrite <- (mmul_assoc n m (adj Y) (mmul n S Y) U).
    apply (meq_trans m m _ (mmul m (adj U) (mmul m mid U))); [apply mmul_ext_r, mmul_ext_l, HY|].
    apply (meq_trans m m _ (mmul m (adj U) U)); [apply mmul_ext_r, mmul_id_l|apply HU].
  Qed.

  (** every trial point is S-orthonormal *)
  Theorem trial_orthonormal n m X eta zx zeta S t ek Ul X' :
    hermitian n S ->
    posdef m (let Xt := fun i j => Cplus (X i j) (Cmult (RtoC t) (zx i j)) in mmul n (adj Xt) (mmul n S Xt)) ->
    geodesic_us eigh n m X eta zx zeta S t = Some (ek, Ul, X') ->
    orthonormal n m S X'.
  Proof.
    intros HS Hp. unfold geodesic_us. destruct (eigh m (advance_eta t eta zeta)) as [[U e]|] eqn:E1; [|discriminate].
    unfold advance_x. assert (EX : add X zx t 1 = (fun i j => Cplus (X i j) (Cmult (RtoC t) (zx i j)))).
    { apply mat_ext. intros i j. unfold add. apply Ceq; cbn; ring. }
    rewrite EX. cbv zeta in Hp. set (Xt := fun i j => Cplus (X i j) (Cmult (RtoC t) (zx i j))) in *.
    destruct (loewdin eigh n m Xt (mmul n S Xt)) as [Y|] eqn:E2; [|discriminate]. intros H. inversion H; subst. clear H.
    unfold transform_alloc. apply rotate_orthonormal; [exact (proj1 (He _ _ _ _ E1))|].
    exact (loewdin_orthonormal n m S Xt Y HS Hp E2).
  Qed.
End Trial.

(** *** Tangent directions keep the overlap matrix positive definite *)
Lemma madd_0_r_ext n m A B : meq n m B mzero -> meq n m (madd A B) A.
Proof. intros H i j Hi Hj. unfold madd. rewrite H by assumption. unfold mzero. apply Ceq; cbn; ring. Qed.

Lemma gram_tangent n m S X Z t :
  hermitian n S -> orthonormal n m S X -> meq m m (mmul n (adj (mmul n S X)) Z) mzero ->
  meq m m (let Xt := fun i j => Cplus (X i j) (Cmult (RtoC t) (Z i j)) in mmul n (adj Xt) (mmul n S Xt))
    (madd mid (mscal (RtoC (t * t)) (mmul n (adj Z) (mmul n S Z)))).
Proof.
  intros HS HX HZ. cbv zeta. change (fun i j => Cplus (X i j) (Cmult (RtoC t) (Z i j))) with (madd X (mscal (RtoC t) Z)).
  rewrite adj_madd, adj_mscal, Cconj_R, mmul_add_r, mmul_scal_r, !mmul_add_l, !mmul_add_r, !mmul_scal_l, !mmul_scal_r.
  assert (H1 : meq m m (mmul n (adj X) (mmul n S Z)) mzero).
  { apply (meq_trans m m _ (mmul n (adj (mmul n S X)) Z)); [|exact HZ]. rewrite adj_mmul, mmul_assoc. apply mmul_ext_r. apply (mmul_ext_l n n m).
    apply meq_sym, HS. }
  assert (H2 : meq m m (mmul n (adj Z) (mmul n S X)) mzero).
  { intros i j Hi Hj. pose proof (HZ j i Hj Hi) as E. apply (f_equal Cconj) in E.
    change (Cconj (mmul n (adj (mmul n S X)) Z j i)) with (adj (mmul n (adj (mmul n S X)) Z) i j) in E. rewrite adj_mmul, adj_adj in E. rewrite E.
    unfold mzero. apply Ceq; cbn; ring. }
  intros i j Hi Hj. unfold madd, mscal. rewrite (HX i j Hi Hj), (H1 i j Hi Hj), (H2 i j Hi Hj). unfold mzero. rewrite RtoC_mult. ring.
Qed.

Lemma quad_add n A B v : quad n (madd A B) v = Cplus (quad n A v) (quad n B v).
Proof.
  unfold quad, madd. rewrite <- csum_plus. apply csum_ext. intros. rewrite <- csum_plus. apply csum_ext. intros. ring.
Qed.
Lemma quad_scal n c A v : quad n (mscal c A) v = Cmult c (quad n A v).
Proof.
  unfold quad, mscal. rewrite <- csum_scal_l. apply csum_ext. intros. rewrite <- csum_scal_l. apply csum_ext. intros. ring.
Qed.
(** v^H (Z^H A Z) v = (Z v)^H A (Z v) *)
Lemma quad_congr n m A Z v : quad m (mmul n (adj Z) (mmul n A Z)) v = quad n A (fun i => csum m (fun j => Cmult (Z i j) (v j))).
Proof.
  rewrite !quad_mmul. set (V := fun i (_ : nat) => v i).
  assert (E : (fun (i _ : nat) => csum m (fun j => Cmult (Z i j) (v j))) = mmul m Z V) by reflexivity.
  rewrite E. rewrite adj_mmul. rewrite !mmul_assoc. reflexivity.
Qed.

Lemma gram_posdef n m S X Z t :
  hermitian n S -> psd n S -> orthonormal n m S X -> meq m m (mmul n (adj (mmul n S X)) Z) mzero ->
  posdef m (let Xt := fun i j => Cplus (X i j) (Cmult (RtoC t) (Z i j)) in mmul n (adj Xt) (mmul n S Xt)).
Proof.
  intros HS Hp HX HZ. apply (posdef_ext m _ _ (meq_sym m m _ _ (gram_tangent n m S X Z t HS HX HZ))).
  intros v Hv. rewrite quad_add, quad_scal, Re_plus, Re_scal, quad_congr.
  pose proof (posdef_mid m v Hv). pose proof (Hp (fun i => csum m (fun j => Cmult (Z i j) (v j)))).
  assert (0 <= t * t) by nra. nra.
Qed.

(** *** Systems of the descent directions at an orthonormal point *)
Lemma gram_zero n m S X v : orthonormal n m S X ->
  (forall l, (l < n)%nat -> csum m (fun j => Cmult (mmul n S X l j) (v j)) = RtoC 0) -> forall i, (i < m)%nat -> v i = RtoC 0.
Proof.
  intros HX Hz i Hi.
  assert (E : mmul m (mmul n (adj X) (mmul n S X)) (fun j (_ : nat) => v j) i 0%nat = v i).
  { assert (E1 : meq m 1 (mmul m (mmul n (adj X) (mmul n S X)) (fun j (_ : nat) => v j)) (mmul m mid (fun j (_ : nat) => v j))).
    { apply mmul_ext_l, HX. }
    rewrite (E1 i 0%nat Hi ltac:(lia)). exact (mmul_id_l m 1 (fun j (_ : nat) => v j) i 0%nat Hi ltac:(lia)). }
  rewrite <- E, mmul_assoc. unfold mmul at 1. apply csum_0. intros l Hl. change (mmul m (mmul n S X) (fun j _ => v j) l 0%nat) with (csum m (fun j => Cmult (mmul n S X l j) (v j))).
  rewrite Hz by exact Hl. ring.
Qed.
Lemma sx_posdef n m S X A : orthonormal n m S X -> posdef n A -> posdef m (mmul n (adj (mmul n S X)) (mmul n A (mmul n S X))).
Proof.
  intros HX HA v (i & Hi & Hv). rewrite quad_congr. apply HA.
  destruct (Classical_Prop.classic (exists l, (l < n)%nat /\ csum m (fun j => Cmult (mmul n S X l j) (v j)) <> RtoC 0)) as [H|H]; [exact H|exfalso].
  apply Hv. apply (gram_zero n m S X v HX); [|exact Hi]. intros l Hl.
  destruct (Classical_Prop.classic (csum m (fun j => Cmult (mmul n S X l j) (v j)) = RtoC 0)) as [E|E]; [exact E|exfalso]. apply H. exists l. split; assumption.
Qed.
Lemma sx_full n m S X : orthonormal n m S X -> posdef m (mmul n (adj (mmul n S X)) (mmul n S X)).
Proof.
  intros HX. apply (posdef_ext m (mmul n (adj (mmul n S X)) (mmul n mid (mmul n S X)))).
  - apply mmul_ext_r. apply mmul_id_l.
  - apply sx_posdef; [exact HX|apply posdef_mid].
Qed.

(** *** t = 0 *)
Lemma unitary_rows m U : unitary m U -> forall i, (i < m)%nat -> rsumn m (fun j => nsq (U i j)) = 1.
Proof.
  intros [_ H] i Hi. specialize (H i i Hi Hi). unfold mid in H. rewrite Nat.eqb_refl in H. unfold mmul, adj in H.
  rewrite (csum_ext m _ (fun j => RtoC (nsq (U i j)))) in H by (intros; apply nsq_conj_r). rewrite csum_RtoC in H. apply (f_equal fst) in H. exact H.
Qed.
Lemma unitary_cols m U : unitary m U -> forall j, (j < m)%nat -> rsumn m (fun i => nsq (U i j)) = 1.
Proof.
  intros [H _] j Hj. specialize (H j j Hj Hj). unfold mid in H. rewrite Nat.eqb_refl in H. unfold mmul, adj in H.
  rewrite (csum_ext m _ (fun i => RtoC (nsq (U i j)))) in H by (intros; apply nsq_conj). rewrite csum_RtoC in H. apply (f_equal fst) in H. exact H.
Qed.

Section Diagonal.
  Context (m : nat) (U : mat) (e0 ek : nat -> R).
  Hypothesis HU : unitary m U.
  Hypothesis HD : meq m m (mmul m (mdiag e0) U) (mmul m U (mdiag ek)).

  Lemma eig_entries i j : (i < m)%nat -> (j < m)%nat -> U i j = RtoC 0 \/ e0 i = ek j.
  Proof.
    intros Hi Hj. pose proof (HD i j Hi Hj) as E. rewrite (mmul_diag_l m m U e0 i j Hi Hj), (mmul_diag_r m m U ek i j Hi Hj) in E.
    destruct (Req_EM_T (e0 i) (ek j)) as [H|H]; [right; exact H|left].
    assert (Z : Cmult (RtoC (e0 i - ek j)) (U i j) = RtoC 0).
    { rewrite RtoC_minus. replace (Cmult (Cminus (RtoC (e0 i)) (RtoC (ek j))) (U i j)) with (Cminus (Cmult (RtoC (e0 i)) (U i j)) (Cmult (U i j) (RtoC (ek j)))) by ring.
      rewrite E. ring. }
    apply Ceq; [apply (f_equal fst) in Z|apply (f_equal snd) in Z]; cbn in Z |- *.
    - assert (Q : (e0 i - ek j) * fst (U i j) = 0) by lra. apply Rmult_integral in Q. destruct Q; lra.
    - assert (Q : (e0 i - ek j) * snd (U i j) = 0) by lra. apply Rmult_integral in Q. destruct Q; lra.
  Qed.

  (** functions of the eigenvalues are rotated into each other *)
  Lemma eig_function (g : R -> R) : meq m m (mmul m U (mmul m (mdiag (fun j => g (ek j))) (adj U))) (mdiag (fun i => g (e0 i))).
  Proof.
    rewrite <- mmul_assoc. apply (meq_trans m m _ (mmul m (mmul m (mdiag (fun i => g (e0 i))) U) (adj U))).
    - apply mmul_ext_l. intros i j Hi Hj. rewrite (mmul_diag_l m m U _ i j Hi Hj), (mmul_diag_r m m U _ i j Hi Hj).
      destruct (eig_entries i j Hi Hj) as [E|E]; [rewrite E; ring|]. rewrite E. ring.
    - rewrite mmul_assoc. apply (meq_trans m m _ (mmul m (mdiag (fun i => g (e0 i))) mid)); [apply mmul_ext_r, HU|apply mmul_id_r].
  Qed.

  Lemma eig_sums (g : R -> R) : rsumn m (fun i => g (e0 i)) = rsumn m (fun j => g (ek j)).
  Proof.
    transitivity (rsumn m (fun i => rsumn m (fun j => nsq (U i j) * g (ek j)))).
    - apply rsumn_ext. intros i Hi. transitivity (rsumn m (fun j => g (e0 i) * nsq (U i j))); [rewrite rsumn_scal, (unitary_rows m U HU i Hi); ring|].
      apply rsumn_ext. intros j Hj. destruct (eig_entries i j Hi Hj) as [E|E]; [rewrite E; unfold nsq; cbn; ring|rewrite E; ring].
    - rewrite rsumn_swap. apply rsumn_ext. intros j Hj.
      transitivity (rsumn m (fun i => g (ek j) * nsq (U i j))); [apply rsumn_ext; intros; ring|]. rewrite rsumn_scal, (unitary_cols m U HU j Hj). ring.
  Qed.

  Lemma count_indicator (f : nat -> R) x : forall k, INR (count_occ Req_EM_T (map f (seq 0 k)) x) = rsumn k (fun i => if Req_EM_T (f i) x then 1 else 0).
  Proof.
    induction k as [|k IH]; [reflexivity|]. rewrite seq_S, map_app, count_occ_app, plus_INR, IH. cbn. destruct (Req_EM_T (f k) x); cbn; reflexivity.
  Qed.
  Lemma eig_permutation : Permutation (map e0 (seq 0 m)) (map ek (seq 0 m)).
  Proof.
    apply (Permutation_count_occ Req_EM_T). intros x. apply INR_eq. rewrite !count_indicator.
    exact (eig_sums (fun y => if Req_EM_T y x then 1 else 0)).
  Qed.
End Diagonal.

Section Zero.
  Context (eigh : nat -> mat -> option (mat * (nat -> R))).
  Hypothesis He : eigh_ok eigh.

  Lemma loewdin_id n m S X Y : hermitian n S -> orthonormal n m S X -> loewdin eigh n m X (mmul n S X) = Some Y -> meq n m Y X.
  Proof.
    intros HS HX. unfold loewdin. rewrite inner_1. destruct (eigh m _) as [[U w]|] eqn:E; [|discriminate]. intros H. inversion H. clear H.
    destruct (He _ _ _ _ E) as (HU & HM & _).
    assert (HW : forall j, (j < m)%nat -> w j = 1).
    { intros j Hj.
      assert (HMU : meq m m U (mmul m U (mdiag w))).
      { apply (meq_trans m m _ (mmul m mid U)); [apply meq_sym, mmul_id_l|]. apply (meq_trans m m _ (mmul m (upper (mmul n (adj X) (mmul n S X))) U)); [|exact HM].
        apply mmul_ext_l. apply (meq_trans m m _ (mmul n (adj X) (mmul n S X))); [apply meq_sym, HX|]. apply meq_sym, upper_hermitian, gram_hermitian, HS. }
      assert (Hn : forall i, (i < m)%nat -> nsq (U i j) = w j * w j * nsq (U i j)).
      { intros i Hi. pose proof (HMU i j Hi Hj) as Q. rewrite (mmul_diag_r m m U w i j Hi Hj) in Q. rewrite Q at 1. unfold nsq. cbn. ring. }
      assert (Hw1 : forall i, (i < m)%nat -> nsq (U i j) = w j * nsq (U i j)).
      { intros i Hi. pose proof (HMU i j Hi Hj) as Q. rewrite (mmul_diag_r m m U w i j Hi Hj) in Q.
        pose proof (f_equal fst Q) as Q1. pose proof (f_equal snd Q) as Q2. cbn in Q1, Q2. unfold nsq.
        assert (fst (U i j) = w j * fst (U i j)) by lra. assert (snd (U i j) = w j * snd (U i j)) by lra.
        transitivity (fst (U i j) * (w j * fst (U i j)) + snd (U i j) * (w j * snd (U i j))); [congruence|ring]. }
      pose proof (unitary_cols m U HU j Hj) as N.
      assert (rsumn m (fun i => nsq (U i j)) = w j * rsumn m (fun i => nsq (U i j))) by (rewrite <- rsumn_scal; apply rsumn_ext; exact Hw1).
      rewrite N in *. lra. }
    fold (inv_root m U w). unfold transform_alloc.
    apply (meq_trans n m _ (mmul m X mid)); [|apply mmul_id_r]. apply mmul_ext_r.
    apply (meq_trans m m _ _ _ (inv_root_eq m U w)). apply (meq_trans m m _ (mmul m U (adj U))); [|apply HU]. apply mmul_ext_r.
    apply (meq_trans m m _ (mmul m mid (adj U))); [|apply mmul_id_l]. apply mmul_ext_l. intros i j Hi Hj. unfold mdiag, mid. destruct (Nat.eqb i j); [|reflexivity].
    unfold loewdin_aux. rewrite (HW i Hi), sqrt_1. f_equal. field.
  Qed.

  (** the trial point at t = 0 *)
  Theorem trial_zero n m X e0 zx zeta S ek Ul X' :
    hermitian n S -> orthonormal n m S X ->
    geodesic_us eigh n m X (make_diag e0) zx zeta S 0 = Some (ek, Ul, X') ->
    unitary m Ul /\ meq n m X' (mmul m X Ul) /\
    meq m m (mmul m (adj Ul) (mmul m (mdiag e0) Ul)) (mdiag ek) /\
    Permutation (map e0 (seq 0 m)) (map ek (seq 0 m)) /\
    (forall g : R -> R, rsumn m (fun i => g (ek i)) = rsumn m (fun i => g (e0 i))) /\
    forall g : R -> R,
      meq n n (mmul m X' (mmul m (mdiag (fun j => g (ek j))) (adj X'))) (mmul m X (mmul m (mdiag (fun j => g (e0 j))) (adj X))).
  Proof.
    intros HS HX. unfold geodesic_us.
    assert (Eeta : advance_eta 0 (make_diag e0) zeta = mdiag e0).
    { apply mat_ext. intros i j. unfold advance_eta, add, make_diag. apply Ceq; cbn; ring. }
    assert (EX : add X zx 0 1 = X). { apply mat_ext. intros i j. unfold add. apply Ceq; cbn; ring. }
    rewrite Eeta. destruct (eigh m (mdiag e0)) as [[U e]|] eqn:E1; [|discriminate].
    unfold advance_x. rewrite EX. destruct (loewdin eigh n m X (mmul n S X)) as [Y|] eqn:E2; [|discriminate].
    intros H. inversion H; subst. clear H. destruct (He _ _ _ _ E1) as (HU & HM & _).
    pose proof (loewdin_id n m S X Y HS HX E2) as HY.
    assert (HD : meq m m (mmul m (mdiag e0) Ul) (mmul m Ul (mdiag ek))).
    { apply (meq_trans m m _ (mmul m (upper (mdiag e0)) Ul)); [|exact HM]. apply mmul_ext_l, meq_sym, upper_hermitian. unfold hermitian. rewrite adj_mdiag. apply meq_refl. }
    unfold transform_alloc.
    assert (HX' : meq n m (mmul m Y Ul) (mmul m X Ul)) by (apply mmul_ext_l, HY).
    split; [exact HU|]. split; [exact HX'|]. split; [exact (eig_diag m (mdiag e0) Ul ek HU HD)|].
    split; [exact (eig_permutation m Ul e0 ek HU HD)|]. split; [intros g; symmetry; exact (eig_sums m Ul e0 ek HU HD g)|].
    intros g. apply (meq_trans n n _ (mmul m (mmul m X Ul) (mmul m (mdiag (fun j => g (ek j))) (adj (mmul m X Ul))))).
    { apply (mmul_ext n m n); [exact HX'|]. apply mmul_ext_r. apply adj_ext. exact HX'. }
    rewrite adj_mmul, mmul_assoc. rewrite <- (mmul_assoc m m _ (adj Ul) (adj X)). rewrite <- (mmul_assoc m m Ul _ (adj X)).
    apply mmul_ext_r, mmul_ext_l. exact (eig_function m Ul e0 ek HU HD g).
  Qed.
End Zero.

Lemma trial_orthonormal_entries eigh : eigh_ok eigh -> forall n m X eta zx zeta S t ek Ul X', hermitian n S ->
  posdef m (let Xt := fun i j => Cplus (X i j) (Cmult (RtoC t) (zx i j)) in mmul n (adj Xt) (mmul n S Xt)) ->
  geodesic_us eigh n m X eta zx zeta S t = Some (ek, Ul, X') ->
  forall i j, (i < m)%nat -> (j < m)%nat -> mmul n (adj X') (mmul n S X') i j = if Nat.eqb i j then RtoC 1 else RtoC 0.
Proof. intros He n m X eta zx zeta S t ek Ul X' HS Hp Hg. exact (trial_orthonormal eigh He n m X eta zx zeta S t ek Ul X' HS Hp Hg). Qed.

(** *** An eigensolver for one band and for diagonal matrices of two bands (examples) *)
Definition swap2 : mat := fun i j => if Nat.eqb i j then RtoC 0 else RtoC 1.
Definition eigh2 (m : nat) (M : mat) : option (mat * (nat -> R)) :=
  match m with
  | 1%nat => Some (mid, fun i => Re (M i i))
  | 2%nat =>
    if Req_EM_T (Re (M 0%nat 1%nat)) 0 then
      if Req_EM_T (Im (M 0%nat 1%nat)) 0 then
        if Rle_dec (Re (M 0%nat 0%nat)) (Re (M 1%nat 1%nat)) then Some (mid, fun i => Re (M i i))
        else Some (swap2, fun i => if Nat.eqb i 0 then Re (M 1%nat 1%nat) else Re (M 0%nat 0%nat))
      else None
    else None
  | _ => None
  end.
Lemma mid_unitary m : unitary m mid.
Proof. split; rewrite adj_mid; apply mmul_id_l. Qed.
Ltac two i H := assert (i = 0 \/ i = 1)%nat as [->| ->] by lia; clear H.
Lemma eigh2_ok : eigh_ok eigh2.
Proof.
  intros m M U w H. destruct m as [|[|[|m]]]; try discriminate.
  - cbn in H. inversion H; subst. split; [apply mid_unitary|]. split.
    + intros i j Hi Hj. replace i with 0%nat by lia. replace j with 0%nat by lia. unfold mmul, upper, mid, mdiag. cbn. apply Ceq; cbn; ring.
    + intros i j Hij Hj. replace i with 0%nat by lia. replace j with 0%nat by lia. lra.
  - unfold eigh2 in H. destruct (Req_EM_T (Re (M 0%nat 1%nat)) 0) as [E1|]; [|discriminate]. destruct (Req_EM_T (Im (M 0%nat 1%nat)) 0) as [E2|]; [|discriminate].
    assert (E : M 0%nat 1%nat = RtoC 0) by (apply Ceq; assumption).
    destruct (Rle_dec _ _) as [L|L]; inversion H; subst; clear H.
    + split; [apply mid_unitary|]. split.
      * intros i j Hi Hj. two i Hi; two j Hj; unfold mmul, upper, mid, mdiag; cbn; rewrite ?E; apply Ceq; cbn; ring.
      * intros i j Hij Hj. destruct i as [|[|i]], j as [|[|j]]; try lia; cbn; lra.
    + split; [|split].
      * split; intros i j Hi Hj; two i Hi; two j Hj; unfold mmul, adj, swap2, mid; cbn; apply Ceq; cbn; ring.
      * intros i j Hi Hj. two i Hi; two j Hj; unfold mmul, upper, swap2, mdiag; cbn; rewrite ?E; apply Ceq; cbn; ring.
      * intros i j Hij Hj. destruct i as [|[|i]], j as [|[|j]]; try lia; cbn; lra.
Qed.
Lemma quad_mdiag n d v : Re (quad n (mdiag d) v) = rsumn n (fun i => d i * nsq (v i)).
Proof.
  unfold quad. rewrite csum_Re. apply rsumn_ext. intros i Hi. rewrite (csum_one n i _ Hi).
  - unfold mdiag. rewrite Nat.eqb_refl. unfold nsq, Re. cbn. ring.
  - intros j _ Hj. unfold mdiag. destruct (Nat.eqb_spec i j); [congruence|]. ring.
Qed.
Lemma psd_diag2 a b : 0 <= a -> 0 <= b -> psd 2 (diag2 a b).
Proof.
  intros Ha Hb v. unfold diag2. rewrite quad_mdiag. apply rsumn_nonneg. intros i _. pose proof (nsq_pos (v i)).
  destruct (Nat.eqb i 0); apply Rmult_le_pos; assumption.
Qed.
