(** Conjugate directions, and a smearing with negative delta. *)
From Coq Require Import Reals Lra Psatz Arith Lia List Bool.
From Coquelicot Require Import Complex.
From Verif Require Import Arith Erf LinAlg Containers Newton Occupation Smearing SmearingProofs SmearingProofs2 SmearingUse SmearingFacts Descent DescentProofs.
Import ListNotations.
Local Open Scope R_scope.

(** *** (S X)^H Z = 0 *)
Definition tangent (k : kpt) (z : mat) : Prop :=
  forall i j, (i < km k)%nat -> (j < km k)%nat ->
  csum (kn k) (fun l => Cmult (Cconj (csum (kn k) (fun q => Cmult (kS k l q) (kX k q i)))) (z l j)) = RtoC 0.
Lemma tangent_meq k z : tangent k z <-> meq (km k) (km k) (mmul (kn k) (adj (mmul (kn k) (kS k) (kX k))) z) mzero.
Proof. reflexivity. Qed.

Section Conj.
  Context (solve : nat -> mat -> mat -> mat) (s : smearing_type) (T kappa mo mu : R).

  (** the linear systems of a k-point are solvable: Hermitian positive definite, LAPACK contract *)
  Record systems_ok (k : kpt) : Prop := MkSys {
    sys_solve : solver_ok solve (km k);
    sys_P : hermitian (kn k) (kP k);
    sys_def : let sx := mmul (kn k) (kS k) (kX k) in posdef (km k) (mmul (kn k) (adj sx) (mmul (kn k) (kP k) sx));
    sys_full : let sx := mmul (kn k) (kS k) (kX k) in posdef (km k) (mmul (kn k) (adj sx) sx)
  }.

  Lemma conjugatex_tangent k z : systems_ok k -> tangent k (conjugatex solve k z (mmul (kn k) (kS k) (kX k))).
  Proof.
    intros H. apply tangent_meq. destruct H as [H1 _ _ H3]. cbv zeta in H3. set (sx := mmul (kn k) (kS k) (kX k)) in *.
    unfold conjugatex. cbv zeta. rewrite !inner_1, add_eq, mmul_add_r, !mmul_scal_r, mscal_1. unfold transform_alloc.
    set (A := mmul (kn k) (adj sx) sx) in *. set (B := mmul (kn k) (adj sx) z).
    rewrite <- mmul_assoc. fold A. pose proof (H1 A B (gram_hermitian_id _ _ _) H3) as S.
    intros i j Hi Hj. unfold madd, mscal, mzero. rewrite S by assumption. apply Ceq; cbn; ring.
  Qed.

  Lemma delta_tangent_k k : systems_ok k ->
    tangent k (precondgx_us k (kHX k) (lmult solve k (mmul (kn k) (kS k) (kX k)) (kHX k))).
  Proof. intros [H1 H2 H3 _]. apply tangent_meq. apply delta_tangent; assumption. Qed.

  Lemma add_tangent k z d a b : tangent k z -> tangent k d -> tangent k (add z d a b).
  Proof.
    rewrite !tangent_meq. intros Hz Hd. rewrite add_eq, mmul_add_r, !mmul_scal_r. intros i j Hi Hj.
    unfold madd, mscal. rewrite Hz, Hd by assumption. unfold mzero. apply Ceq; cbn; ring.
  Qed.

  Lemma forall2_map2 {Y Z} (P : Y -> Z -> Prop) (f : Y -> Z) (w : list (list Y)) :
    (forall r y, In r w -> In y r -> P y (f y)) -> Forall2 (Forall2 P) w (map (map f) w).
  Proof.
    induction w as [|r w IH]; cbn; intros H; constructor.
    - assert (H' : forall y, In y r -> P y (f y)) by (intros y Hy; apply (H r); [left; reflexivity|exact Hy]).
      clear - H'. induction r as [|y r IH]; cbn; constructor; [apply H'; left; reflexivity|]. apply IH. intros; apply H'; right; assumption.
    - apply IH. intros r' y Hr. apply H. right. exact Hr.
  Qed.

  Lemma combine_map2 {Y1 Y2 Z W} (g : Z -> W) (h : Y1 * Y2 -> Z) (w : list (list (Y1 * Y2))) :
    map (fun p => combine (map fst (fst p)) (snd p)) (combine w (map (map g) (map (map h) w))) = map (map (fun y => (fst y, g (h y)))) w.
  Proof.
    induction w as [|r w IH]; cbn; [reflexivity|]. rewrite IH. f_equal. clear. induction r as [|y r IHr]; cbn; [reflexivity|]. rewrite IHr. reflexivity.
  Qed.

  Lemma restarted_tangent world : (forall r k, In r world -> In k r -> systems_ok k) ->
    Forall2 (Forall2 (fun k d => tangent k (fst d))) world (snd (restarted solve s T kappa mo world mu)).
  Proof.
    intros H. unfold restarted. cbn [snd]. rewrite map_map. rewrite (map_ext _ (map (fun k => let r := exec_restart solve s T kappa mo mu (dmu_deta s T mo world mu) (dFdmu s T mo world mu) k in (snd (fst r), snd r)))) by (intros; rewrite map_map; reflexivity).
    apply forall2_map2. intros r k Hr Hk. cbn. apply delta_tangent_k. exact (H r k Hr Hk).
  Qed.

  Lemma conjugated_tangent fr_old world : (forall r kz, In r world -> In kz r -> systems_ok (fst kz)) ->
    Forall2 (Forall2 (fun kz d => tangent (fst kz) (fst d))) world (snd (conjugated solve s T kappa mo fr_old world mu)).
  Proof.
    intros H. unfold conjugated. cbn [snd]. set (gm := _ / fr_old). rewrite map_map.
    erewrite map_ext; [|intros; apply map_map]. apply forall2_map2. intros r [k [[zxp zetap] ul]] Hr Hk. cbn.
    pose proof (H r _ Hr Hk) as S. cbn [fst] in S. apply add_tangent; [apply conjugatex_tangent; exact S|apply delta_tangent_k; exact S].
  Qed.

  (** *** Slope of the conjugate direction *)
  (** the gradient of a k-point: with respect to X and to eta *)
  Definition grad_x (k : kpt) : mat := gradx (kHX k) (kf k) (lmult solve k (mmul (kn k) (kS k) (kX k)) (kHX k)) (kw k).
  Definition grad_e (dmu dF : R) (k : kpt) : mat := g_eta s T mo k (inner_ (kn k) (kX k) (kHX k) (kw k)) mu dmu dF.

  Lemma conjugated_slope fr_old world :
    let ks := map (map fst) world in
    let gx := grad_x in let ge := grad_e (dmu_deta s T mo ks mu) (dFdmu s T mo ks mu) in
    match conjugated solve s T kappa mo fr_old world mu with
    | (fr, slope, z) =>
      slope = total (fun kd : kpt * (mat * mat) => let (k, d) := kd in
                2 * Re (ip (kn k) (km k) (gx k) (fst d)) + Re (ip (km k) (km k) (ge k) (snd d)))
              (map (fun p => combine (map fst (fst p)) (snd p)) (combine world z)) /\
      fr = fst (restarted solve s T kappa mo ks mu)
    end.
  Proof.
    cbv zeta. unfold conjugated. cbv zeta. set (ks := map (map fst) world). set (dmu := dmu_deta s T mo ks mu). set (dF := dFdmu s T mo ks mu).
    set (ex := fun kz : kpt * (mat * mat * mat) => match kz with (k, (zxp, zetap, ul)) => exec_cg solve s T kappa mo mu dmu dF k zxp zetap ul end).
    set (fr := total _ (map (map ex) world)). split.
    - set (gm := fr / fr_old).
      assert (Ew : map (fun p => combine (map fst (fst p)) (snd p)) (combine world (map (map (fun r : R * mat * mat * mat * mat * R => match r with (_, dx, de, zx, ze, _) => (add zx dx 1 gm, add ze de 1 gm) end)) (map (map ex) world)))
              = map (map (fun kz => (fst kz, match ex kz with (_, dx, de, zx, ze, _) => (add zx dx 1 gm, add ze de 1 gm) end))) world).
      { apply combine_map2. }
      rewrite Ew. rewrite total_map. unfold fr at 1. rewrite !total_map.
      rewrite <- total_scal, <- total_plus. apply total_ext. intros r [k [[zxp zetap] ul]] _ _. unfold ex. cbn [fst snd].
      unfold exec_cg, exec_conjugate. cbv zeta. cbn [fst snd]. change (innerh_tr) with ip. unfold grad_x, grad_e. fold dmu dF.
      rewrite !add_eq, !ip_add_r, !ip_scal_r, !Re_plus, !Re_scal.
      rewrite (ip_Re_sym _ _ (conjugatex _ _ _ _)), (ip_Re_sym _ _ (rotateeta _ _ _)). ring.
    - unfold restarted. cbn [fst]. unfold fr, ks. rewrite !total_map. apply total_ext. intros r [k [[zxp zetap] ul]] _ _. reflexivity.
  Qed.

  (** *** Shape of the conjugate direction *)
  Lemma conjugated_shape fr_old world :
    match conjugated solve s T kappa mo fr_old world mu with
    | (fr, _, z) =>
      Forall2 (Forall2 (fun (kzd : kpt * (mat * mat * mat) * (mat * mat)) (z : mat * mat) =>
        match kzd with (k, (zxp, zetap, ul), (dx, de)) =>
          (exists ll, forall i j, fst z i j =
             Cplus (dx i j) (Cmult (RtoC (fr / fr_old)) (Cminus (mmul (km k) zxp ul i j) (mmul (km k) (mmul (kn k) (kS k) (kX k)) ll i j)))) /\
          (forall i j, snd z i j = Cplus (de i j) (Cmult (RtoC (fr / fr_old)) (mmul (km k) (adj ul) (mmul (km k) zetap ul) i j)))
        end))
        (map (fun p => combine (fst p) (snd p)) (combine world (snd (restarted solve s T kappa mo (map (map fst) world) mu)))) z
    end.
  Proof.
    unfold conjugated, restarted. cbn [snd]. set (ks := map (map fst) world). set (dmu := dmu_deta s T mo ks mu). set (dF := dFdmu s T mo ks mu).
    set (ex := fun kz : kpt * (mat * mat * mat) => match kz with (k, (zxp, zetap, ul)) => exec_cg solve s T kappa mo mu dmu dF k zxp zetap ul end).
    set (fr := total _ (map (map ex) world)). cbv zeta.
    set (gm := fr / fr_old). assert (Ed : map (map (fun r => (snd (fst r), snd r))) (map (map (exec_restart solve s T kappa mo mu dmu dF)) ks) =
                  map (map (fun kz => let r := exec_restart solve s T kappa mo mu dmu dF (fst kz) in (snd (fst r), snd r))) world).
    { unfold ks. rewrite !map_map. apply map_ext. intros. rewrite !map_map. reflexivity. }
    rewrite Ed. rewrite map_map. clearbody gm dmu dF. clear fr ks Ed.
    induction world as [|r w IH]; cbn [map combine fst snd]; constructor; [|exact IH].
    clear. rewrite !map_map. induction r as [|[k [[zxp zetap] ul]] r IHr]; cbn [map combine fst snd]; constructor; [|exact IHr].
    split.
    - exists (solve (km k) (inner_ (kn k) (mmul (kn k) (kS k) (kX k)) (mmul (kn k) (kS k) (kX k)) 1) (inner_ (kn k) (mmul (kn k) (kS k) (kX k)) (mmul (km k) zxp ul) 1)).
      intros i j. unfold ex, exec_restart, exec_cg, exec_conjugate, conjugatex. cbv zeta. cbn [fst snd]. unfold add at 1 2. unfold rotatex, transform_alloc.
      generalize (precondgx_us k (kHX k) (lmult solve k (mmul (kn k) (kS k) (kX k)) (kHX k)) i j) (mmul (km k) zxp ul i j). intros a b.
      match goal with |- context [mmul (km k) (mmul (kn k) (kS k) (kX k)) ?l i j] => generalize (mmul (km k) (mmul (kn k) (kS k) (kX k)) l i j) end. intros c.
      apply Ceq; cbn; ring.
    - intros i j. unfold ex, exec_restart, exec_cg, exec_conjugate, rotateeta, transform_alloc. cbv zeta. cbn [fst snd]. rewrite inner_1. unfold add at 1.
      generalize (mmul (km k) (adj ul) (mmul (km k) zetap ul) i j). intros a.
      match goal with |- context [delta_eta kappa k ?h i j] => generalize (delta_eta kappa k h i j) end. intros b. apply Ceq; cbn; ring.
  Qed.
End Conj.

(** *** A solver for one and two bands (examples) *)
Definition det2 (A : mat) : C := Cminus (Cmult (A 0%nat 0%nat) (A 1%nat 1%nat)) (Cmult (A 0%nat 1%nat) (A 1%nat 0%nat)).
Definition solve2 (m : nat) (A B : mat) : mat :=
  fun i j =>
    match m with
    | 1%nat => Cdiv (B 0%nat j) (A 0%nat 0%nat)
    | _ => match i with
           | O => Cdiv (Cminus (Cmult (A 1%nat 1%nat) (B 0%nat j)) (Cmult (A 0%nat 1%nat) (B 1%nat j))) (det2 A)
           | _ => Cdiv (Cminus (Cmult (A 0%nat 0%nat) (B 1%nat j)) (Cmult (A 1%nat 0%nat) (B 0%nat j))) (det2 A)
           end
    end.

Lemma posdef_entry n A : (0 < n)%nat -> posdef n A -> A 0%nat 0%nat <> RtoC 0.
Proof.
  intros Hn H E. specialize (H (fun i => if Nat.eqb i 0 then RtoC 1 else RtoC 0)).
  assert (Q : quad n A (fun i => if Nat.eqb i 0 then RtoC 1 else RtoC 0) = A 0%nat 0%nat).
  { unfold quad. rewrite (csum_one n 0 _ Hn).
    - cbn [Nat.eqb]. rewrite (csum_one n 0 _ Hn); [cbn [Nat.eqb]; apply Ceq; cbn; ring|].
      intros j _ Hj. destruct (Nat.eqb_spec j 0); [congruence|]. ring.
    - intros i _ Hi. apply csum_0. intros j _. destruct (Nat.eqb_spec i 0); [congruence|]. apply Ceq; cbn; ring. }
  rewrite Q, E in H. cbn in H. assert (0 < 0); [|lra]. apply H. exists 0%nat. split; [exact Hn|]. cbn. intros F. apply (f_equal fst) in F. cbn in F. lra.
Qed.
Lemma solve2_ok1 : solver_ok solve2 1.
Proof.
  intros A B _ HA i j Hi Hj. replace i with 0%nat by lia. replace j with 0%nat by lia. unfold mmul. cbn.
  pose proof (posdef_entry 1 A ltac:(lia) HA). field. assumption.
Qed.
Lemma solve2_ok2 : solver_ok solve2 2.
Proof.
  intros A B HhA HA.
  pose proof (posdef_entry 2 A ltac:(lia) HA) as H0.
  assert (Hd : det2 A <> RtoC 0).
  { intros E. pose (v := fun i : nat => if Nat.eqb i 0 then Copp (A 0%nat 1%nat) else A 0%nat 0%nat).
    assert (Q : quad 2 A v = RtoC 0).
    { unfold quad. cbn [csum]. unfold v. cbn [Nat.eqb].
      transitivity (Cconj (A 0%nat 0%nat) * det2 A)%C; [unfold det2; ring|]. rewrite E. ring. }
    assert (P : 0 < Re (quad 2 A v)). { apply HA. exists 1%nat. split; [lia|]. exact H0. }
    rewrite Q in P. cbn in P. lra. }
  intros i j Hi Hj. unfold mmul. cbn [csum]. unfold solve2.
  assert (i = 0 \/ i = 1)%nat as [->| ->] by lia; unfold det2 in *; field; exact Hd.
Qed.

(** *** Negative delta: the steepest descent direction of a state with two bands goes uphill *)
Definition idm : mat := mid.
Definition diag2 (a b : R) : mat := mdiag (fun i => if Nat.eqb i 0 then a else b).
(** one k-point, two bands at e = 0 and e = 2 (kT = 1, mu = 0), <X|H|X> = diag(1, 2) *)
Definition uphill (s : smearing_type) (mo : R) : kpt :=
  MkKpt 2 2 1 mid mid mid (diag2 1 2) (fun i => if Nat.eqb i 0 then 0 else 2)
    (fun i => sfn (smearing_class s) (if Nat.eqb i 0 then 0 else -2) mo) (fun i => if Nat.eqb i 0 then 1 else 2).

Lemma quad_mid n v : Re (quad n mid v) = rsumn n (fun i => nsq (v i)).
Proof.
  unfold quad. rewrite csum_Re. apply rsumn_ext. intros i Hi. rewrite (csum_one n i _ Hi).
  - unfold mid. rewrite Nat.eqb_refl. unfold nsq, Re. cbn. ring.
  - intros j _ Hj. unfold mid. destruct (Nat.eqb_spec i j); [congruence|]. ring.
Qed.
Lemma psd_mid n : psd n mid.
Proof. intros v. rewrite quad_mid. apply rsumn_nonneg. intros. apply nsq_pos. Qed.
Lemma posdef_mid n : posdef n mid.
Proof.
  intros v (i & Hi & Hv). rewrite quad_mid. destruct (rsumn_nonneg n (fun i => nsq (v i)) (fun i _ => nsq_pos (v i))) as [L|E]; [exact L|].
  exfalso. apply Hv. apply nsq_0. apply (rsumn_zero_terms n (fun i => nsq (v i))); [intros; apply nsq_pos|symmetry; exact E|exact Hi].
Qed.
Lemma posdef_ext n A B : meq n n A B -> posdef n A -> posdef n B.
Proof.
  intros E H v Hv. replace (quad n B v) with (quad n A v); [apply H; exact Hv|].
  unfold quad. apply csum_ext. intros i Hi. apply csum_ext. intros j Hj. rewrite E by assumption. reflexivity.
Qed.
Lemma hermitian_ext n A B : meq n n A B -> hermitian n A -> hermitian n B.
Proof.
  intros E H i j Hi Hj. unfold adj. rewrite <- (E j i), <- (E i j) by assumption. apply H; assumption.
Qed.
Lemma mid_products n m A : meq n m (mmul n (adj (mmul n mid mid)) A) A.
Proof.
  apply (meq_trans n m _ (mmul n mid A)); [|apply mmul_id_l]. apply (mmul_ext n n m); [|apply meq_refl].
  rewrite adj_mmul, adj_mid. apply mmul_id_l.
Qed.

Lemma mp_delta_0 mo : mp_delta 0 mo = mo * (3 / 2) / sqpi.
Proof. unfold mp_delta. replace (- (0 * 0)) with 0 by ring. rewrite exp_0. field. pose proof sqpi_pos. lra. Qed.

Lemma delta_signs s mo : s = METHFESSEL_PAXTON \/ s = COLD -> 0 < mo ->
  0 < sdelta (smearing_class s) 0 mo /\ sdelta (smearing_class s) 2 mo < 0 /\ mo / 4 < sdelta (smearing_class s) 0 mo + sdelta (smearing_class s) 2 mo.
Proof.
  intros Hs Hm. pose proof sqpi_pos as Hp. assert (Hip : 0 < / sqpi) by (apply Rinv_0_lt_compat; exact Hp).
  assert (Hp2 : sqpi <= 2).
  { unfold sqpi. pose proof PI_4. replace 2 with (sqrt (2 * 2)) by (apply sqrt_square; lra). apply sqrt_le_1_alt. lra. }
  assert (Hq : mo / 2 <= mo * / sqpi).
  { apply Rmult_le_compat_l; [lra|]. apply Rinv_le_contravar; lra. }
  destruct Hs as [->| ->]; cbn [smearing_class sdelta methfessel_paxton cold_smearing].
  - rewrite mp_delta_0. unfold mp_delta. replace (- (2 * 2)) with (-4) by ring.
    pose proof (exp_pos (-4)) as E1. assert (E2 : exp (-4) < 1 / 5).
    { replace (-4) with (- (4)) by ring. rewrite exp_Ropp. pose proof (exp_ineq1 4 ltac:(lra)). unfold Rdiv. rewrite Rmult_1_l. apply Rinv_lt_contravar; nra. }
    replace (1 + / 4 * (2 - 4 * (2 * 2))) with (- (5 / 2)) by field.
    set (q := mo * / sqpi) in *. assert (0 < q) by (unfold q; nra).
    replace (mo * (3 / 2) / sqpi) with (3 / 2 * q) by (unfold q; field; lra).
    replace (mo * exp (-4) * - (5 / 2) / sqpi) with (- (5 / 2) * exp (-4) * q) by (unfold q; field; lra).
    split; [nra|]. split; nra.
  - pose proof sq2_pos as H2. assert (Hs2 : sq2 * sq2 = 2) by (unfold sq2; apply sqrt_sqrt; lra).
    assert (B : 7 / 5 < sq2 < 3 / 2) by nra.
    unfold cold_delta. rewrite !(proj2 (Rltb_false _ _)) by lra. cbv zeta.
    assert (I : 1 / sq2 = sq2 / 2). { unfold Rdiv. rewrite Rmult_1_l. apply (Rmult_eq_reg_l sq2); [|lra]. rewrite Rinv_r by lra. nra. }
    rewrite I. replace (- (0 - sq2 / 2) * (0 - sq2 / 2)) with (- / 2) by (field_simplify; replace (sq2 ^ 2) with 2 by (rewrite <- Hs2; ring); field).
    pose proof (exp_pos (- / 2)) as E1. assert (E0 : / 2 < exp (- / 2)) by (pose proof (exp_ineq1 (- / 2) ltac:(lra)); lra). set (z := - (2 - sq2 / 2) * (2 - sq2 / 2)).
    assert (E2 : exp z < exp (- / 2)) by (apply exp_increasing; unfold z; nra). pose proof (exp_pos z) as E3.
    set (q := mo * / sqpi) in *. assert (0 < q) by (unfold q; nra).
    replace (mo * exp (- / 2) * (2 - sq2 * 0) / sqpi) with (2 * exp (- / 2) * q) by (unfold q; field; lra).
    replace (mo * exp z * (2 - sq2 * 2) / sqpi) with ((2 - sq2 * 2) * (exp z * q)) by (unfold q; field; lra).
    assert (0 < exp (- / 2) * q) by nra. assert (0 < exp z * q) by nra. assert (exp z * q < exp (- / 2) * q) by nra.
    split; [nra|]. split; nra.
Qed.

Lemma lmult_id solve k : solver_ok solve (km k) -> kn k = km k -> kS k = mid -> kP k = mid -> kX k = mid ->
  meq (kn k) (km k) (lmult solve k (mmul (kn k) (kS k) (kX k)) (kHX k)) (kHX k).
Proof.
  intros H En ES EP EX. unfold lmult. cbv zeta. rewrite !inner_1, En, ES, EP, EX. unfold transform_alloc. set (m := km k).
  assert (E1 : meq m m (mmul m (adj (mmul m mid mid)) (mmul m mid (mmul m mid mid))) mid).
  { apply (meq_trans m m _ _ _ (mid_products m m _)). apply (meq_trans m m _ _ _ (mmul_id_l m m _)). apply mmul_id_l. }
  assert (E2 : meq m m (mmul m (adj (mmul m mid mid)) (mmul m mid (kHX k))) (kHX k)).
  { apply (meq_trans m m _ _ _ (mid_products m m _)). apply mmul_id_l. }
  set (A := mmul m (adj (mmul m mid mid)) (mmul m mid (mmul m mid mid))) in *. set (B := mmul m (adj (mmul m mid mid)) (mmul m mid (kHX k))) in *.
  assert (HA : meq m m (mmul m A (solve m A B)) B).
  { apply H; [apply (hermitian_ext m mid)|apply (posdef_ext m mid)]; try (apply meq_sym; exact E1); [|apply posdef_mid].
    unfold hermitian. rewrite adj_mid. apply meq_refl. }
  apply (meq_trans m m _ (mmul m mid (solve m A B))); [apply (mmul_ext m m m); [apply mmul_id_l|apply meq_refl]|].
  apply (meq_trans m m _ (mmul m A (solve m A B))); [apply (mmul_ext m m m); [apply meq_sym, E1|apply meq_refl]|].
  apply (meq_trans m m _ _ _ HA). exact E2.
Qed.

Definition unit_T : R := / kb Rarith.
Lemma unit_kT : kb Rarith * unit_T = 1.
Proof. unfold unit_T. pose proof kb_pos. apply Rinv_r. cbn [num Rarith] in *. lra. Qed.
Lemma unit_T_pos : 0 < unit_T.
Proof. apply Rinv_0_lt_compat, kb_pos. Qed.

Lemma hxx_uphill s mo : meq 2 2 (mmul 2 (adj (kX (uphill s mo))) (kHX (uphill s mo))) (diag2 1 2).
Proof. cbn [uphill kX kHX]. rewrite adj_mid. apply mmul_id_l. Qed.

Lemma uphill_ok s mo : kpt_ok solve2 s unit_T mo 0 (uphill s mo).
Proof.
  assert (HI : hermitian 2 mid) by (unfold hermitian; rewrite adj_mid; apply meq_refl).
  constructor; cbn [uphill kw km kn kS kP kX kHX ke kf kh].
  - lra.
  - exact solve2_ok2.
  - exact HI.
  - apply psd_mid.
  - cbv zeta. apply (posdef_ext 2 mid); [|apply posdef_mid]. apply meq_sym.
    apply (meq_trans 2 2 _ _ _ (mid_products 2 2 _)). apply (meq_trans 2 2 _ _ _ (mmul_id_l 2 2 _)). apply mmul_id_l.
  - apply (hermitian_ext 2 (diag2 1 2)); [apply meq_sym; apply hxx_uphill with (s := s) (mo := mo)|]. unfold hermitian, diag2. rewrite adj_mdiag. apply meq_refl.
  - intros i Hi. pose proof (hxx_uphill s mo i i Hi Hi) as E. cbn [uphill kX kHX] in E. rewrite E. unfold diag2, mdiag. rewrite Nat.eqb_refl. reflexivity.
  - intros i Hi. rewrite unit_kT. f_equal. destruct (Nat.eqb i 0); eqR; field.
Qed.

Lemma uphill_slope s mo kappa : s = METHFESSEL_PAXTON \/ s = COLD -> 1 <= mo -> 0 < kappa ->
  0 < fst (restarted solve2 s unit_T kappa mo [[uphill s mo]] 0).
Proof.
  intros Hs Hm Hk. destruct (delta_signs s mo Hs ltac:(lra)) as (D0 & D2 & Ds).
  set (d0 := sdelta (smearing_class s) 0 mo : R) in *. set (d2 := sdelta (smearing_class s) 2 mo : R) in *.
  pose proof (uphill_ok s mo) as Hok.
  unfold restarted. cbn [fst]. rewrite total_map. unfold total. cbn [map fold_right]. rewrite !Rplus_0_r.
  unfold exec_restart. cbv zeta. cbn [fst].
  rewrite slope_x_value by (destruct Hok; assumption).
  rewrite eta_value; [|rewrite unit_kT; lra|cbn; lra|exact (ok_H _ _ _ _ _ _ Hok)].
  assert (Edmu : dmu_deta s unit_T mo [[uphill s mo]] 0 = d0 + d2).
  { unfold dmu_deta, total. cbn [map fold_right uphill km ke kw rsumn Nat.eqb]. rewrite unit_kT.
    replace ((0 - 0) / 1) with 0 by field. replace ((2 - 0) / 1) with 2 by field. fold d0 d2. ring. }
  assert (EdF : dFdmu s unit_T mo [[uphill s mo]] 0 = d0).
  { unfold dFdmu, total. cbn [map fold_right uphill km ke kw kh rsumn Nat.eqb]. rewrite unit_kT.
    replace ((0 - 0) / 1) with 0 by field. replace ((2 - 0) / 1) with 2 by field. fold d0 d2. ring. }
  rewrite Edmu, EdF.
  match goal with |- 0 < 2 * (_ * ?q) + (?d + ?o) => assert (Eq : q = 0); [|rewrite Eq; assert (Eo : o = 0); [|rewrite Eo]] end.
  - apply rsumn_0. intros j Hj. set (v := fun i => _). replace (quad _ _ v) with (RtoC 0); [cbn; ring|].
    symmetry. unfold quad. apply csum_0. intros i Hi. apply csum_0. intros l Hl. unfold v, msub.
    rewrite (lmult_id solve2 (uphill s mo) solve2_ok2 eq_refl eq_refl eq_refl eq_refl l j Hl Hj). ring.
  - cbn [uphill km]. apply rsumn_0. intros i Hi. apply rsumn_0. intros j Hj. destruct (Nat.eqb_spec i j) as [|N]; [reflexivity|].
    destruct (Rltb _ _); [reflexivity|].
    replace (nsq _) with 0; [ring|]. symmetry. unfold inner_, mscal.
    match goal with |- nsq (Cmult _ ?x) = _ => replace x with (diag2 1 2 i j) by (symmetry; exact (hxx_uphill s mo i j Hi Hj)) end. unfold diag2, mdiag. destruct (Nat.eqb_spec i j); [congruence|]. unfold nsq. cbn. ring.
  - rewrite unit_kT. cbn [uphill km rsumn]. unfold aw, dev.
    pose proof (hxx_uphill s mo 0%nat 0%nat ltac:(lia) ltac:(lia)) as H0. pose proof (hxx_uphill s mo 1%nat 1%nat ltac:(lia) ltac:(lia)) as H1.
    cbn [uphill kn kX kHX] in *. rewrite H0, H1. cbn [uphill kw ke Nat.eqb]. unfold diag2, mdiag. cbn [Nat.eqb Re fst RtoC].
    rewrite unit_kT. replace ((0 - 0) / 1) with 0 by field. replace ((2 - 0) / 1) with 2 by field. fold d0 d2.
    replace (Rltb (Rabs (d0 + d2)) (1 / 10 ^ 12)) with false.
    2: { symmetry. apply Rltb_false. rewrite Rabs_pos_eq by lra. lra. }
    assert (Ep : 0 < - (d0 * d2 / (d0 + d2))).
    { unfold Rdiv. rewrite Ropp_mult_distr_l. apply Rmult_lt_0_compat; [nra|]. apply Rinv_0_lt_compat. lra. }
    match goal with |- 0 < ?x => replace x with (kappa * - (d0 * d2 / (d0 + d2))) end; [apply Rmult_lt_0_compat; assumption|]. field. lra.
Qed.
