(** A concrete state in memory: two ranks, one k-point each, different sizes and leading dimensions. *)
From Coq Require Import ZArith Reals Lra Psatz Arith Lia List Bool Permutation.
From Coquelicot Require Import Complex.
From Verif Require Import Arith LinAlg MVector LapackMem LapackMemProofs LapackElt LapackFacts Exchange Smearing Newton Occupation StepMem StepProofs StepMain StepTrial StepLine.
From Verif Require Import Descent DescentProofs DescentFacts Geodesic GeodesicProofs Curve CurveProofs CurveExample Cholesky.
Import ListNotations.
Local Open Scope R_scope.

(** Two basis functions, one band: S = diag(1, 3), P = diag(1, 1/2), X = (1, 0), H X = (5, 1), e = 2. *)
Definition soft : kpt :=
  MkKpt 2 1 1 (diag2 1 3) (diag2 1 (1 / 2)) (fun i _ => if Nat.eqb i 0 then RtoC 1 else RtoC 0)
    (fun i _ => if Nat.eqb i 0 then RtoC 5 else RtoC 1) (fun _ => 2) (fun _ => 1) (fun _ => 5).

Lemma diag2_hermitian a b : hermitian 2 (diag2 a b).
Proof. unfold hermitian, diag2. rewrite adj_mdiag. apply meq_refl. Qed.
Lemma diag2_posdef a b : 0 < a -> 0 < b -> posdef 2 (diag2 a b).
Proof.
  intros Ha Hb v (i & Hi & Hv). unfold diag2. rewrite quad_mdiag. cbn [rsumn Nat.eqb].
  pose proof (nsq_pos (v 0%nat)). pose proof (nsq_pos (v 1%nat)).
  assert (Hd : (i = 0 \/ i = 1)%nat) by lia.
  assert (P : 0 < nsq (v i)).
  { unfold nsq. destruct (v i) as [x y]. cbn [fst snd Re Im] in *. destruct (Req_dec x 0) as [-> | Hx].
    - assert (y <> 0) by (intros ->; apply Hv; reflexivity). nra.
    - nra. }
  destruct Hd as [-> | ->]; nra.
Qed.

Lemma soft_physical : physical soft.
Proof.
  constructor; cbn [soft kn km kS kP kX kHX].
  - apply diag2_hermitian.
  - apply psd_diag2; lra.
  - apply diag2_hermitian.
  - apply diag2_posdef; lra.
  - intros i j Hi Hj. replace i with 0%nat by lia. replace j with 0%nat by lia. unfold mmul, adj, diag2, mdiag, mid. cbn. apply Ceq; cbn; ring.
  - intros i j Hi Hj. replace i with 0%nat by lia. replace j with 0%nat by lia. unfold mmul, adj. cbn. apply Ceq; cbn; ring.
Qed.
Lemma three_physical : physical three.
Proof.
  constructor; cbn [three plain kn km kS kP kX kHX].
  - apply hermitian_mid.
  - apply psd_mid.
  - apply hermitian_mid.
  - apply posdef_mid.
  - unfold orthonormal. apply (meq_trans 2 2 _ (mmul 3 (adj mid) mid)); [|apply mid_columns; lia]. apply mmul_ext_r, mmul_id_l.
  - intros i j Hi Hj. assert (Di : (i = 0 \/ i = 1)%nat) by lia. assert (Dj : (j = 0 \/ j = 1)%nat) by lia.
    destruct Di as [-> | ->]; destruct Dj as [-> | ->]; unfold adj, mmul, mid, couple3; cbn; apply Ceq; cbn; ring.
Qed.

Definition k0 : key := (0, 0)%Z.
Definition k1 : key := (1, 0)%Z.
Definition is_k0 (k : key) : bool := (Z.eqb (fst k) 0).
Definition exOpS : operator_fn Celt := mat_op (fun k => if is_k0 k then mid else diag2 1 3).
Definition exOpP : operator_fn Celt := mat_op (fun k => if is_k0 k then mid else diag2 1 (1 / 2)).
Definition exMem : list (list memk) := [[mem_of k0 5 three]; [mem_of k1 2 soft]].
Definition exKs : list (list kpt) := [[three]; [soft]].

Lemma exMem_represents : Forall2 (Forall2 (represents exOpS exOpP)) exMem exKs.
Proof.
  apply Forall2_cons; [apply Forall2_cons; [|apply Forall2_nil] | apply Forall2_cons; [apply Forall2_cons; [|apply Forall2_nil] | apply Forall2_nil]].
  - apply mem_of_represents; unfold small; cbn [three plain kn km kS kP]; try lia.
    + exact (mat_op_acts (fun k => if is_k0 k then mid else diag2 1 3) k0 3).
    + exact (mat_op_acts (fun k => if is_k0 k then mid else diag2 1 (1 / 2)) k0 3).
  - apply mem_of_represents; unfold small; cbn [soft kn km kS kP]; try lia.
    + exact (mat_op_acts (fun k => if is_k0 k then mid else diag2 1 3) k1 2).
    + exact (mat_op_acts (fun k => if is_k0 k then mid else diag2 1 (1 / 2)) k1 2).
Qed.
Lemma exKs_physical r kp : In r exKs -> In kp r -> physical kp /\ kw kp <> 0.
Proof.
  intros [<- | [<- | []]] [<- | []].
  - split; [exact three_physical | cbn; lra].
  - split; [exact soft_physical | cbn; lra].
Qed.

(** loops forwards and backwards *)
Definition fwd : nat -> orders := fun _ => pairs.
Definition bwd : nat -> orders := fun _ m n => rev (pairs m n).
Definition fwd1 : nat -> nat -> list nat := fun _ => seq 0.
Definition bwd1 : nat -> nat -> list nat := fun _ n => rev (seq 0 n).
Lemma fwd_fair t : fair (fwd t). Proof. intros m n. apply Permutation_refl. Qed.
Lemma bwd_fair t : fair (bwd t). Proof. intros m n. apply Permutation_sym, Permutation_rev. Qed.
Lemma fwd1_fair t : fair1 (fwd1 t). Proof. intros n. apply Permutation_refl. Qed.
Lemma bwd1_fair t : fair1 (bwd1 t). Proof. intros n. apply Permutation_sym, Permutation_rev. Qed.

(** the direction of the second k-point: Z_X = (0, -1/2), Z_eta = 3 kappa *)
Lemma soft_steepest kappa zx ze : steepest kappa soft zx ze ->
  zx 0%nat 0%nat = RtoC 0 /\ zx 1%nat 0%nat = RtoC (- (1 / 2)) /\ ze 0%nat 0%nat = RtoC (3 * kappa).
Proof.
  intros H.
  assert (H' : steepest kappa soft (fun i _ => if Nat.eqb i 0 then RtoC 0 else RtoC (- (1 / 2))) (fun _ _ => RtoC (3 * kappa))).
  { split.
    - exists (fun _ _ => RtoC 5). split.
      + intros i j Hi Hj. cbn [soft km] in Hi, Hj. replace i with 0%nat by lia. replace j with 0%nat by lia.
        cbn [soft kn km kS kP kX kHX]. unfold mmul, adj, diag2, mdiag. cbn. apply Ceq; cbn; ring.
      + intros i j Hi Hj. cbn [soft kn km] in Hi, Hj. replace j with 0%nat by lia. assert (Di : (i = 0 \/ i = 1)%nat) by lia.
        destruct Di as [-> | ->]; cbn [soft kn km kS kP kX kHX]; unfold mmul, adj, diag2, mdiag; cbn; apply Ceq; cbn; field.
    - intros i j Hi Hj. cbn [soft km] in Hi, Hj. replace i with 0%nat by lia. replace j with 0%nat by lia.
      cbn [soft kn km kS kP kX kHX ke]. unfold mmul, adj. cbn. apply Ceq; cbn; ring. }
  destruct (steepest_unique kappa soft _ _ _ _ (sx_posdef _ _ _ _ _ (ph_orth _ soft_physical) (ph_Ppos _ soft_physical)) H H') as [E1 E2].
  split; [|split].
  - apply (E1 0%nat 0%nat); cbn; lia.
  - apply (E1 1%nat 0%nat); cbn; lia.
  - apply (E2 0%nat 0%nat); cbn; lia.
Qed.

(** previous directions of the two k-points *)
Definition exPrev (kp : kpt) (ld : nat) : view Celt * view Celt * view Celt :=
  (mkview (kn kp) (km kp) ld (fun i j => RtoC (INR (i + j))), mkview (km kp) (km kp) ld (fun i j => RtoC (INR (i + j))), mkview (km kp) (km kp) ld mid).
Definition exPrevM : mat * mat * mat := ((fun i j => RtoC (INR (i + j))), (fun i j => RtoC (INR (i + j))), mid).
Definition exCg : list (list (memk * (view Celt * view Celt * view Celt))) :=
  [[(mem_of k0 5 three, exPrev three 4)]; [(mem_of k1 2 soft, exPrev soft 2)]].
Definition exCgM : list (list (kpt * (mat * mat * mat))) := [[(three, exPrevM)]; [(soft, exPrevM)]].
Lemma exCg_represents : Forall2 (Forall2 (cg_pair exOpS exOpP)) exCg exCgM.
Proof.
  pose proof exMem_represents as H. inversion H as [|? ? ? ? H1 H2]; subst. inversion H1 as [|? ? ? ? A _]; subst.
  inversion H2 as [|? ? ? ? H3 _]; subst. inversion H3 as [|? ? ? ? B _]; subst.
  apply Forall2_cons; [apply Forall2_cons; [|apply Forall2_nil] | apply Forall2_cons; [apply Forall2_cons; [|apply Forall2_nil] | apply Forall2_nil]];
    (split; [assumption|]); cbn [exPrev exPrevM prev_held fst snd]; repeat split;
    try reflexivity; try (apply mkview_holds; cbn [three plain soft kn km]; lia).
  all: try (unfold col_major; cbn; lia).
Qed.
Lemma exCg_physical r kZ : In r exCgM -> In kZ r -> physical (fst kZ) /\ hermitian (km (fst kZ)) (snd (fst (snd kZ))).
Proof.
  assert (E : forall m, hermitian m (fun i j => RtoC (INR (i + j)))).
  { intros m i j _ _. unfold adj. rewrite Cconj_R. f_equal. f_equal. lia. }
  intros [<- | [<- | []]] [<- | []]; cbn [fst snd exPrevM].
  - split; [exact three_physical | apply E].
  - split; [exact soft_physical | apply E].
Qed.
