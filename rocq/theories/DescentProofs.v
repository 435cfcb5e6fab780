(** Constraint and slope of the descent directions. *)
From Coq Require Import Reals Lra Psatz Arith Lia List Bool.
From Coquelicot Require Import Complex.
From Verif Require Import Arith LinAlg Containers Newton Occupation Smearing SmearingProofs2 SmearingUse SmearingFacts Descent.
Import ListNotations.
Local Open Scope R_scope.

(** Contract of the LAPACK solver for order m. *)
Definition solver_ok (solve : nat -> mat -> mat -> mat) (m : nat) : Prop :=
  forall A B, hermitian m A -> posdef m A -> meq m m (mmul m A (solve m A B)) B.

Lemma add_eq dst src a b : add dst src a b = madd (mscal (RtoC a) src) (mscal (RtoC b) dst).
Proof. reflexivity. Qed.
Lemma inner_1 n A B : inner_ n A B 1 = mmul n (adj A) B.
Proof. unfold inner_. apply mscal_1. Qed.
Lemma precond_eq k hx xll : precondgx_us k hx xll = mmul (kn k) (kP k) (msub xll hx).
Proof.
  unfold precondgx_us. cbv zeta. f_equal. apply mat_ext. intros i j. unfold add, msub, mzero. apply Ceq; cbn; ring.
Qed.
Lemma msub_self_zero n m A B : meq n m A B -> meq n m (msub A B) mzero.
Proof. intros H i j Hi Hj. unfold msub, mzero. rewrite H by assumption. apply Ceq; cbn; ring. Qed.

Lemma hermitian_adj n A : hermitian n A -> forall i j, (i < n)%nat -> (j < n)%nat -> Cconj (A j i) = A i j.
Proof. intros H i j Hi Hj. exact (H i j Hi Hj). Qed.

(** A^H P B for Hermitian P *)
Lemma gram_hermitian n m P A : hermitian n P -> hermitian m (mmul n (adj A) (mmul n P A)).
Proof.
  intros H. unfold hermitian. rewrite adj_mmul, adj_mmul, adj_adj, mmul_assoc.
  apply (mmul_ext m n m); [apply meq_refl|]. apply (mmul_ext n n m); [exact H|apply meq_refl].
Qed.
Lemma gram_hermitian_id n m A : hermitian m (mmul n (adj A) A).
Proof. unfold hermitian. rewrite adj_mmul, adj_adj. apply meq_refl. Qed.

Lemma mmul_scale_cols m A B x a : mmul m A (scale_cols B x a) = scale_cols (mmul m A B) x a.
Proof. apply mat_ext. intros i j. unfold mmul, scale_cols. rewrite <- csum_scal_l. apply csum_ext. intros l _. ring. Qed.

Section One.
  Context (solve : nat -> mat -> mat -> mat) (k : kpt).
  Let n := kn k. Let m := km k.
  Let sx := mmul n (kS k) (kX k).
  Hypothesis Hsolve : solver_ok solve m.
  Hypothesis HP : hermitian n (kP k).
  Hypothesis Hdef : posdef m (mmul n (adj sx) (mmul n (kP k) sx)).

  (** (SX)^H delta_x = 0 *)
  Lemma delta_tangent : meq m m (mmul n (adj sx) (precondgx_us k (kHX k) (lmult solve k sx (kHX k)))) mzero.
  Proof.
    rewrite precond_eq. unfold lmult. cbv zeta. rewrite !inner_1. unfold transform_alloc. fold n m.
    set (A := mmul n (adj sx) (mmul n (kP k) sx)) in *. set (B := mmul n (adj sx) (mmul n (kP k) (kHX k))).
    rewrite !mmul_sub_r. rewrite <- (mmul_assoc n m (kP k)), <- (mmul_assoc n m (adj sx)).
    apply msub_self_zero. apply Hsolve; [|exact Hdef]. apply gram_hermitian. exact HP.
  Qed.

  (** the residual HX - SX ll *)
  Let r := msub (kHX k) (lmult solve k sx (kHX k)).
  Lemma delta_residual : precondgx_us k (kHX k) (lmult solve k sx (kHX k)) = mscal (RtoC (-1)) (mmul n (kP k) r).
  Proof.
    rewrite precond_eq. rewrite <- mmul_scal_r. unfold r. f_equal. apply mat_ext. intros i j. unfold mscal, msub. apply Ceq; cbn; ring.
  Qed.
  (** anything of the form SX M is orthogonal to delta_x *)
  Lemma ip_tangent M Z : meq m m (mmul n (adj sx) Z) mzero -> ip n m (mmul m sx M) Z = RtoC 0.
  Proof. intros H. rewrite ip_mmul_l. apply ip_zero_r. exact H. Qed.

  Lemma slope_x_value :
    Re (innerh_tr n m (gradx (kHX k) (kf k) (lmult solve k sx (kHX k)) (kw k)) (precondgx_us k (kHX k) (lmult solve k sx (kHX k)))) =
    - kw k * rsumn m (fun j => kf k j * Re (quad n (kP k) (fun i => r i j))).
  Proof.
    change (innerh_tr n m) with (ip n m).
    assert (E : gradx (kHX k) (kf k) (lmult solve k sx (kHX k)) (kw k) =
                madd (scale_cols r (kf k) (kw k))
                     (mmul m sx (madd (scale_cols (solve m (inner_ n sx (mmul n (kP k) sx) 1) (inner_ n sx (mmul n (kP k) (kHX k)) 1)) (kf k) (kw k))
                                      (mscal (RtoC (- kw k)) (solve m (inner_ n sx (mmul n (kP k) sx) 1) (inner_ n sx (mmul n (kP k) (kHX k)) 1)))))).
    { rewrite mmul_add_r, mmul_scal_r, mmul_scale_cols. unfold r, lmult, transform_alloc. cbv zeta. fold n m.
      set (ll := solve m _ _). apply mat_ext. intros i j. unfold gradx, add, madd, scale_cols, mscal, msub. rewrite RtoC_opp. ring. }
    rewrite E. rewrite ip_add_l, ip_tangent by exact delta_tangent. rewrite delta_residual.
    rewrite Cplus_0_r. rewrite ip_scal_r, Re_scal. replace (- kw k * _) with (-1 * (kw k * rsumn m (fun j => kf k j * Re (quad n (kP k) (fun i => r i j))))) by ring.
    f_equal. unfold ip. rewrite csum_swap, csum_Re, <- rsumn_scal. apply rsumn_ext. intros j _.
    rewrite <- Rmult_assoc, <- Re_scal. rewrite <- (Re_conj (csum n _)). f_equal.
    unfold quad. rewrite csum_conj, <- csum_scal_l. apply csum_ext. intros i _.
    unfold scale_cols, mmul. rewrite !Cconj_mult, Cconj_R, Cconj_conj, <- !csum_scal_l.
    apply csum_ext. intros l _. ring.
  Qed.
End One.

(** ** Sums over k-points *)
Lemma fold_plus_ext {Y} (f g : Y -> R) l : (forall y, In y l -> f y = g y) -> fold_right Rplus 0 (map f l) = fold_right Rplus 0 (map g l).
Proof. induction l as [|a l IH]; cbn; intros H; [reflexivity|]. rewrite (H a) by (left; reflexivity). rewrite IH by (intros; apply H; right; assumption). reflexivity. Qed.
Lemma fold_plus_plus {Y} (f g : Y -> R) l : fold_right Rplus 0 (map (fun y => f y + g y) l) = fold_right Rplus 0 (map f l) + fold_right Rplus 0 (map g l).
Proof. induction l as [|a l IH]; cbn; [ring|]. rewrite IH. ring. Qed.
Lemma fold_plus_scal {Y} c (f : Y -> R) l : fold_right Rplus 0 (map (fun y => c * f y) l) = c * fold_right Rplus 0 (map f l).
Proof. induction l as [|a l IH]; cbn; [ring|]. rewrite IH. ring. Qed.
Lemma fold_plus_le {Y} (f g : Y -> R) l : (forall y, In y l -> f y <= g y) -> fold_right Rplus 0 (map f l) <= fold_right Rplus 0 (map g l).
Proof.
  induction l as [|a l IH]; cbn; intros H; [lra|]. pose proof (H a (or_introl eq_refl)). pose proof (IH (fun y Hy => H y (or_intror Hy))). lra.
Qed.
Lemma total_ext {Y} (f g : Y -> R) w : (forall r y, In r w -> In y r -> f y = g y) -> total f w = total g w.
Proof. intros H. unfold total. apply fold_plus_ext. intros r Hr. apply fold_plus_ext. intros y Hy. exact (H r y Hr Hy). Qed.
Lemma total_plus {Y} (f g : Y -> R) w : total (fun y => f y + g y) w = total f w + total g w.
Proof. unfold total. rewrite <- fold_plus_plus. apply fold_plus_ext. intros r _. apply fold_plus_plus. Qed.
Lemma total_scal {Y} c (f : Y -> R) w : total (fun y => c * f y) w = c * total f w.
Proof. unfold total. rewrite <- fold_plus_scal. apply fold_plus_ext. intros r _. apply fold_plus_scal. Qed.
Lemma total_le {Y} (f g : Y -> R) w : (forall r y, In r w -> In y r -> f y <= g y) -> total f w <= total g w.
Proof. intros H. unfold total. apply fold_plus_le. intros r Hr. apply fold_plus_le. intros y Hy. exact (H r y Hr Hy). Qed.
Lemma fold_plus_zero {Y} (l : list Y) : fold_right Rplus 0 (map (fun _ => 0) l) = 0.
Proof. induction l as [|a l IH]; cbn; [reflexivity|]. rewrite IH. ring. Qed.
Lemma total_zero {Y} (w : list (list Y)) : total (fun _ => 0) w = 0.
Proof. unfold total. rewrite (fold_plus_ext _ (fun _ => 0)) by (intros; apply fold_plus_zero). apply fold_plus_zero. Qed.
Lemma total_map {Y Z} (f : Z -> R) (g : Y -> Z) w : total f (map (map g) w) = total (fun y => f (g y)) w.
Proof. unfold total. rewrite map_map. apply fold_plus_ext. intros r _. rewrite map_map. reflexivity. Qed.

(** ** The eta part *)
Lemma split_diag m (F : nat -> nat -> R) :
  rsumn m (fun i => rsumn m (fun j => F i j)) =
  rsumn m (fun i => F i i) + rsumn m (fun i => rsumn m (fun j => if Nat.eqb i j then 0 else F i j)).
Proof.
  rewrite <- rsumn_plus. apply rsumn_ext. intros i Hi.
  assert (E : forall p, (i < p)%nat -> rsumn p (fun j => F i j) = F i i + rsumn p (fun j => if Nat.eqb i j then 0 else F i j)).
  { assert (G : forall p, (p <= i)%nat -> rsumn p (fun j => if Nat.eqb i j then 0 else F i j) = rsumn p (fun j => F i j)).
    { intros p Hp. apply rsumn_ext. intros j Hj. destruct (Nat.eqb_spec i j); [lia|reflexivity]. }
    induction p as [|p IH]; intros Hp; [lia|]. cbn. destruct (Nat.eqb_spec i p) as [<-|N].
    - rewrite (G i) by lia. ring.
    - rewrite IH by lia. ring. }
  apply E. exact Hi.
Qed.

Section Eta.
  Context (s : smearing_type) (T kappa mo mu : R).
  Let kT := kb Rarith * T.
  Let delta (x : R) := sdelta (smearing_class s) x mo.

  (** wk delta((e-mu)/kT) and h - e of band i *)
  Definition aw (k : kpt) (i : nat) : R := kw k * delta ((ke k i - mu) / kT).
  Definition dev (k : kpt) (i : nat) : R := Re (mmul (kn k) (adj (kX k)) (kHX k) i i) - ke k i.

  Lemma eta_value k dmu dF :
    kT <> 0 -> kw k <> 0 ->
    hermitian (km k) (mmul (kn k) (adj (kX k)) (kHX k)) ->
    let hij := inner_ (kn k) (kX k) (kHX k) (kw k) in
    Re (innerh_tr (km k) (km k) (g_eta s T mo k hij mu dmu dF) (delta_eta kappa k hij)) =
    rsumn (km k) (fun i => kappa / kT * (- (aw k i * dev k i * dev k i) + (if Rltb (Rabs dmu) (1 / 10 ^ 12) then 0 else aw k i * dev k i * (dF / dmu)))) +
    rsumn (km k) (fun i => rsumn (km k) (fun j => if Nat.eqb i j then 0 else
       (if Rltb (Rabs (ke k j - ke k i)) (1 / 10 ^ 10) then 0 else (kf k j - kf k i) / (ke k j - ke k i) * (kappa / kw k) * nsq (hij i j)))).
  Proof.
    intros HkT Hw Hh hij. unfold innerh_tr. rewrite csum_Re.
    rewrite (rsumn_ext _ _ (fun i => rsumn (km k) (fun j => Re (g_eta s T mo k hij mu dmu dF i j * Cconj (delta_eta kappa k hij i j))%C))) by (intros; apply csum_Re).
    rewrite split_diag. f_equal.
    - apply rsumn_ext. intros i Hi. unfold g_eta, delta_eta. cbv zeta. rewrite !Nat.eqb_refl.
      assert (Eh : hij i i = RtoC (kw k * (dev k i + ke k i))).
      { unfold hij, inner_, mscal, dev. rewrite (real_of_conj (mmul (kn k) (adj (kX k)) (kHX k) i i)) by exact (Hh i i Hi Hi).
        rewrite Re_R, <- RtoC_mult. f_equal. ring. }
      unfold scale. rewrite Eh. fold kT. unfold aw. change (sdelta (smearing_class s) ((ke k i - mu) / kT) mo) with (delta ((ke k i - mu) / kT)).
      set (dl := delta _). set (d := dev k i). set (e := ke k i). set (w := kw k) in *.
      destruct (Rltb (Rabs dmu) (1 / 10 ^ 12)) eqn:Eb.
      + unfold Re. cbn. field. split; assumption.
      + assert (dmu <> 0). { intros ->. rewrite Rabs_R0 in Eb. apply Rltb_false in Eb. lra. }
        unfold Re. cbn. field. repeat split; assumption.
    - apply rsumn_ext. intros i Hi. apply rsumn_ext. intros j Hj. destruct (Nat.eqb_spec i j) as [E|E]; [reflexivity|].
      unfold g_eta, delta_eta. cbv zeta. destruct (Nat.eqb_spec i j); [congruence|].
      destruct (Rltb (Rabs (ke k j - ke k i)) (1 / 10 ^ 10)); [unfold Re; cbn; ring|].
      unfold scale, Re, nsq. set (q := (kf k j - kf k i) / _). set (c := kappa / kw k). destruct (hij i j) as [a b]. cbn. ring.
  Qed.
End Eta.

Lemma delta_nonneg s x mo : monotone_type s -> 0 <= mo -> 0 <= sdelta (smearing_class s) x mo.
Proof.
  intros [->|[->| ->]] Hm; cbn [smearing_class sdelta fermi_dirac gauss_smearing gaussian_spline].
  - apply fd_delta_pos, Hm.
  - apply gauss_delta_pos, Hm.
  - apply gs_delta_pos, Hm.
Qed.

Lemma dec_quotient (a b fa fb : R) : (a <= b -> fb <= fa) -> (b <= a -> fa <= fb) -> (fb - fa) / (b - a) <= 0.
Proof.
  intros H1 H2. destruct (Rtotal_order b a) as [L|[E|L]].
  - pose proof (H2 ltac:(lra)). apply Ropp_le_cancel. rewrite Ropp_0. unfold Rdiv. rewrite Ropp_mult_distr_r, <- Rinv_opp.
    apply Rmult_le_pos; [lra|]. apply Rlt_le, Rinv_0_lt_compat. lra.
  - rewrite E. unfold Rdiv. rewrite Rminus_eq_0, Rinv_0. lra.
  - pose proof (H1 ltac:(lra)). apply Ropp_le_cancel. rewrite Ropp_0. unfold Rdiv. rewrite Ropp_mult_distr_l.
    apply Rmult_le_pos; [lra|]. apply Rlt_le, Rinv_0_lt_compat. lra.
Qed.

(** ** Slope of the steepest descent direction *)
Section Slope.
  Context (solve : nat -> mat -> mat -> mat) (s : smearing_type) (T kappa mo mu : R).
  Hypothesis Hs : monotone_type s.
  Hypothesis HT : 0 < T.
  Hypothesis Hk : 0 <= kappa.
  Hypothesis Hmo : 0 <= mo.
  Let kT := kb Rarith * T.

  (** what is assumed of a k-point; sx stands for S X *)
  Record kpt_ok (k : kpt) : Prop := MkOk {
    ok_w : 0 < kw k;
    ok_solve : solver_ok solve (km k);
    ok_P : hermitian (kn k) (kP k);
    ok_Ppos : psd (kn k) (kP k);
    ok_def : let sx := mmul (kn k) (kS k) (kX k) in posdef (km k) (mmul (kn k) (adj sx) (mmul (kn k) (kP k) sx));
    ok_H : hermitian (km k) (mmul (kn k) (adj (kX k)) (kHX k));
    ok_h : forall i, (i < km k)%nat -> kh k i = Re (mmul (kn k) (adj (kX k)) (kHX k) i i);
    ok_f : forall i, (i < km k)%nat -> kf k i = sfn (smearing_class s) ((mu - ke k i) / kT) mo
  }.

  Lemma kT_pos : 0 < kT.
  Proof. unfold kT. apply Rmult_lt_0_compat; [exact kb_pos|exact HT]. Qed.

  Lemma f_bounds k i : kpt_ok k -> (i < km k)%nat -> 0 <= kf k i.
  Proof. intros H Hi. rewrite (ok_f k H i Hi). apply (bounds_mono s mo Hs Hmo). Qed.
  Lemma quotient_neg k i j : kpt_ok k -> (i < km k)%nat -> (j < km k)%nat -> (kf k j - kf k i) / (ke k j - ke k i) <= 0.
  Proof.
    intros H Hi Hj. rewrite (ok_f k H i Hi), (ok_f k H j Hj). pose proof kT_pos as K.
    destruct (bounds_mono s mo Hs Hmo) as (_ & Mono).
    assert (Hx : forall a b, a <= b -> (mu - b) / kT <= (mu - a) / kT).
    { intros a b Hab. apply Rmult_le_compat_r; [apply Rlt_le, Rinv_0_lt_compat, K|lra]. }
    apply dec_quotient; intros L; apply Mono, Hx; exact L.
  Qed.

  Lemma exec_restart_value k dmu dF : kpt_ok k ->
    let r := msub (kHX k) (lmult solve k (mmul (kn k) (kS k) (kX k)) (kHX k)) in
    fst (fst (exec_restart solve s T kappa mo mu dmu dF k)) <=
    kappa / kT * (- rsumn (km k) (fun i => aw s T mo mu k i * dev k i * dev k i) +
                  (if Rltb (Rabs dmu) (1 / 10 ^ 12) then 0 else rsumn (km k) (fun i => aw s T mo mu k i * dev k i) * (dF / dmu))).
  Proof.
    intros H r. pose proof kT_pos as K. pose proof (ok_w k H) as Hw. unfold exec_restart. cbv zeta. cbn [fst].
    rewrite slope_x_value by (destruct H; assumption). rewrite eta_value; [|change (kT <> 0); lra|lra|exact (ok_H k H)].
    fold kT.
    assert (E1 : 0 <= rsumn (km k) (fun j => kf k j * Re (quad (kn k) (kP k) (fun i => r i j)))).
    { apply rsumn_nonneg. intros j Hj. apply Rmult_le_pos; [apply f_bounds; assumption|]. apply (ok_Ppos k H). }
    assert (E2 : forall F : nat -> nat -> R, (forall i j, (i < km k)%nat -> (j < km k)%nat -> F i j <= 0) -> rsumn (km k) (fun i => rsumn (km k) (F i)) <= 0).
    { intros F HF. assert (Z : rsumn (km k) (fun _ => 0) = 0) by (apply rsumn_0; reflexivity). rewrite <- Z at 1. apply rsumn_le. intros i Hi. rewrite <- Z. apply rsumn_le. intros j Hj. apply HF; assumption. }
    match goal with |- 2 * (- kw k * ?q) + (?d + rsumn _ (fun i => rsumn _ (@?F i))) <= _ => 
       change q with (rsumn (km k) (fun j => kf k j * Re (quad (kn k) (kP k) (fun i => r i j)))); specialize (E2 F); cbv beta in E2; set (off := rsumn (km k) (fun i => rsumn (km k) (F i))) in * ; set (dd := d) end.
    assert (Eoff : off <= 0).
    { apply E2. intros i j Hi Hj. cbv beta. destruct (Nat.eqb i j); [apply Rle_refl|]. destruct (Rltb (Rabs (ke k j - ke k i)) _); [apply Rle_refl|].
      pose proof (quotient_neg k i j H Hi Hj) as Q. set (hn := nsq _). assert (0 <= hn) by apply nsq_pos.
      assert (0 <= kappa / kw k) by (apply Rmult_le_pos; [exact Hk|apply Rlt_le, Rinv_0_lt_compat, Hw]).
      assert (0 <= kappa / kw k * hn) by (apply Rmult_le_pos; assumption). rewrite Rmult_assoc. nra. }
    assert (Ed : dd = kappa / kT * (- rsumn (km k) (fun i => aw s T mo mu k i * dev k i * dev k i) +
                  (if Rltb (Rabs dmu) (1 / 10 ^ 12) then 0 else rsumn (km k) (fun i => aw s T mo mu k i * dev k i) * (dF / dmu)))).
    { unfold dd. rewrite rsumn_scal. f_equal. rewrite rsumn_plus. f_equal.
      - rewrite (rsumn_ext _ _ (fun i => -1 * (aw s T mo mu k i * dev k i * dev k i))) by (intros; ring). rewrite rsumn_scal. ring.
      - destruct (Rltb _ _); [apply rsumn_0; reflexivity|]. rewrite (Rmult_comm (rsumn _ _)), <- rsumn_scal. apply rsumn_ext. intros. ring. }
    rewrite <- Ed. set (q := rsumn (km k) (fun j => kf k j * _)) in *. nra.
  Qed.

  Theorem restarted_descends world : (forall r k, In r world -> In k r -> kpt_ok k) -> fst (restarted solve s T kappa mo world mu) <= 0.
  Proof.
    intros Hok. unfold restarted. cbn [fst]. rewrite total_map. pose proof kT_pos as K.
    set (dF := dFdmu s T mo world mu). set (dmu := dmu_deta s T mo world mu).
    set (A1 := total (fun k => rsumn (km k) (fun i => aw s T mo mu k i * dev k i)) world).
    set (A2 := total (fun k => rsumn (km k) (fun i => aw s T mo mu k i * dev k i * dev k i)) world).
    assert (EF : dF = A1).
    { unfold dF, dFdmu, A1. apply total_ext. intros r k Hr Hkin. rewrite Rmult_comm, <- rsumn_scal. apply rsumn_ext. intros i Hi.
      unfold aw, dev. rewrite (ok_h k (Hok r k Hr Hkin) i Hi). fold kT. ring. }
    assert (Ed : dmu = total (fun k => rsumn (km k) (fun i => aw s T mo mu k i)) world).
    { unfold dmu, dmu_deta. apply total_ext. intros r k Hr Hkin. apply rsumn_ext. intros i Hi. unfold aw. fold kT. apply Rmult_comm. }
    apply Rle_trans with (total (fun k => kappa / kT * (- rsumn (km k) (fun i => aw s T mo mu k i * dev k i * dev k i) +
                  (if Rltb (Rabs dmu) (1 / 10 ^ 12) then 0 else rsumn (km k) (fun i => aw s T mo mu k i * dev k i) * (dF / dmu)))) world).
    { apply total_le. intros r k Hr Hkin. apply exec_restart_value. exact (Hok r k Hr Hkin). }
    rewrite total_scal, total_plus.
    rewrite (total_ext (fun k => - rsumn (km k) (fun i => aw s T mo mu k i * dev k i * dev k i)) (fun k => -1 * rsumn (km k) (fun i => aw s T mo mu k i * dev k i * dev k i))) by (intros; ring).
    rewrite total_scal. fold A2.
    assert (Ha : forall r k i, In r world -> In k r -> 0 <= aw s T mo mu k i).
    { intros r k i Hr Hkin. unfold aw. apply Rmult_le_pos; [apply Rlt_le; exact (ok_w k (Hok r k Hr Hkin))|]. apply delta_nonneg; assumption. }
    assert (HA2 : 0 <= A2).
    { unfold A2. rewrite <- (total_zero world). apply total_le. intros r k Hr Hkin. apply rsumn_nonneg. intros i _.
      rewrite Rmult_assoc. apply Rmult_le_pos; [apply (Ha r); assumption|]. apply Rle_0_sqr. }
    assert (Hkk : 0 <= kappa / kT) by (apply Rmult_le_pos; [exact Hk|apply Rlt_le, Rinv_0_lt_compat, K]).
    destruct (Rltb (Rabs dmu) (1 / 10 ^ 12)) eqn:Eb.
    - rewrite total_zero. nra.
    - assert (Hdmu : 0 < dmu).
      { assert (0 <= dmu). { rewrite Ed, <- (total_zero world). apply total_le. intros r k Hr Hkin. apply rsumn_nonneg. intros i _. apply (Ha r); assumption. }
        apply Rltb_false in Eb. rewrite Rabs_pos_eq in Eb by assumption. lra. }
      rewrite (total_ext _ (fun k => dF / dmu * rsumn (km k) (fun i => aw s T mo mu k i * dev k i))) by (intros; ring).
      rewrite total_scal. fold A1. rewrite EF.
      set (c := A1 / dmu).
      assert (Q : 0 <= A2 - 2 * c * A1 + c * c * dmu).
      { replace (A2 - 2 * c * A1 + c * c * dmu) with (total (fun k => rsumn (km k) (fun i => aw s T mo mu k i * ((dev k i - c) * (dev k i - c)))) world).
        - rewrite <- (total_zero world). apply total_le. intros r k Hr Hkin. apply rsumn_nonneg. intros i _.
          apply Rmult_le_pos; [apply (Ha r); assumption|apply Rle_0_sqr].
        - transitivity (A2 + (-2 * c) * A1 + (c * c) * dmu); [|ring]. rewrite Ed. unfold A1, A2. rewrite <- !total_scal, <- !total_plus.
          apply total_ext. intros r k _ _. rewrite <- !rsumn_scal, <- !rsumn_plus. apply rsumn_ext. intros i _. ring. }
      assert (Ec : c * dmu = A1) by (unfold c; field; lra).
      assert (c * c * dmu = c * A1) by (rewrite Rmult_assoc, Ec; reflexivity).
      assert (-1 * A2 + c * A1 <= 0) by lra. nra.
  Qed.
End Slope.
