(** Statements about all smearing functions together, for PropertiesSmearing. *)
From Coq Require Import Reals Lra Psatz ZArith List Bool Lia Sorted.
From Coquelicot Require Import Coquelicot.
From Verif Require Import Arith Erf MVector Mpi MpiProofs Containers ChemPot ChemPotProofs Newton Occupation Smearing SmearingProofs SmearingProofs2 SmearingUse SmearingFind.
Import ListNotations.
Local Open Scope R_scope.

(** Fermi-Dirac, Gauss and Gaussian spline *)
Definition monotone_type (s : smearing_type) : Prop := s = FERMI_DIRAC \/ s = GAUSS \/ s = GAUSSIAN_SPLINE.

(** Where fn and delta are both given by their formula. *)
Definition inside (s : smearing_type) (x : R) : Prop :=
  match s with
  | FERMI_DIRAC => Rabs x < 35
  | GAUSSIAN_SPLINE => Rabs x < 7
  | COLD => Rabs x < 8
  | GAUSS | METHFESSEL_PAXTON => True
  end.

Lemma bounds_mono s mo : monotone_type s -> 0 <= mo ->
  (forall x, 0 <= sfn (smearing_class s) x mo <= mo) /\
  (forall x y, x <= y -> sfn (smearing_class s) x mo <= sfn (smearing_class s) y mo).
Proof.
  intros [->|[->| ->]] Hm; cbn [smearing_class sfn fermi_dirac gauss_smearing gaussian_spline]; split; intros.
  - apply fd_bounds, Hm.
  - apply fd_mono; assumption.
  - apply gauss_bounds, Hm.
  - apply gauss_mono; assumption.
  - apply gs_bounds, Hm.
  - apply gs_mono; assumption.
Qed.

Lemma mp_refute mo : 0 < mo -> exists x y z t, sfn methfessel_paxton x mo < 0 /\ mo < sfn methfessel_paxton y mo /\
  z < t /\ sfn methfessel_paxton t mo < sfn methfessel_paxton z mo.
Proof.
  intros H. exists (-2), 2, 2, 3. cbn [sfn methfessel_paxton].
  split; [apply mp_negative, H|]. split; [apply mp_above, H|]. split; [lra|apply mp_decreasing, H].
Qed.
Lemma cold_refute mo : 0 < mo -> exists y z t, mo < sfn cold_smearing y mo /\ z < t /\ sfn cold_smearing t mo < sfn cold_smearing z mo.
Proof.
  intros H. exists 2, 2, 3. cbn [sfn cold_smearing].
  split; [apply cold_above, H|]. split; [lra|apply cold_decreasing, H].
Qed.

Lemma delta_derive s x mo : inside s x -> is_derive (fun y => sfn (smearing_class s) y mo) x (sdelta (smearing_class s) x mo).
Proof.
  destruct s; cbn [inside smearing_class sfn sdelta fermi_dirac gauss_smearing gaussian_spline cold_smearing methfessel_paxton]; intros H.
  - apply fd_derive, H.
  - apply gs_derive, H.
  - apply gauss_derive.
  - apply mp_derive.
  - apply cold_derive, H.
Qed.

Lemma gaps mo : 0 < mo ->
  (forall x, 35 < x < 40 -> sdelta fermi_dirac x mo = 0 /\ exists d, is_derive (fun y => sfn fermi_dirac y mo) x d /\ 0 < d) /\
  (forall x, 7 < Rabs x < 8 -> sdelta gaussian_spline x mo = 0 /\ exists d, is_derive (fun y => sfn gaussian_spline y mo) x d /\ 0 < d) /\
  (forall x, 8 < x <= 10 -> sdelta cold_smearing x mo < 0 /\ is_derive (fun y => sfn cold_smearing y mo) x 0).
Proof.
  intros H. cbn [sfn sdelta fermi_dirac gaussian_spline cold_smearing]. split; [|split]; intros x Hx.
  - apply fd_gap; assumption.
  - apply gs_gap; assumption.
  - apply cold_gap; assumption.
Qed.

Lemma entropy_derive s x mo : inside s x -> s <> GAUSSIAN_SPLINE \/ mo = 1 ->
  is_derive (fun y => sentropy (smearing_class s) y mo) x (- x * sdelta (smearing_class s) x mo).
Proof.
  destruct s; cbn [inside smearing_class sentropy sdelta fermi_dirac gauss_smearing gaussian_spline cold_smearing methfessel_paxton]; intros H Hs.
  - apply fd_entropy_derive, H.
  - destruct Hs as [Hs| ->]; [congruence|]. apply gs_entropy_derive, H.
  - apply gauss_entropy_derive.
  - apply mp_entropy_derive.
  - apply cold_entropy_derive. apply abs_window in H. lra.
Qed.

Lemma spline_entropy_refute x mo : 0 < Rabs x < 7 -> mo <> 1 ->
  ~ is_derive (fun y => sentropy gaussian_spline y mo) x (- x * sdelta gaussian_spline x mo).
Proof.
  cbn [sentropy sdelta gaussian_spline]. intros H Hm D.
  pose proof (gs_entropy_derive x mo ltac:(lra)) as D'.
  assert (E : - x * gs_delta x mo = - x * gs_delta x 1).
  { apply is_derive_unique in D. apply is_derive_unique in D'. congruence. }
  assert (Hx : x <> 0) by (intros ->; rewrite Rabs_R0 in H; lra).
  assert (L : gs_delta x mo = mo * gs_delta x 1) by (unfold gs_delta; rcases; ring).
  assert (P : 0 < gs_delta x 1).
  { rewrite gs_delta_core by lra. unfold gs_dcore. pose proof sq2_pos. rcases; apply Rmult_lt_0_compat; try lra; apply Rmult_lt_0_compat; try lra; apply exp_pos. }
  rewrite L in E. apply Hm. apply (Rmult_eq_reg_r (- x * gs_delta x 1)); [nra|nra].
Qed.

Lemma dxdelta_derive s x mo : inside s x -> s = FERMI_DIRAC \/ s = GAUSS \/ s = COLD \/ (s = GAUSSIAN_SPLINE /\ 0 < x) ->
  is_derive (fun y => sdelta (smearing_class s) y mo) x (sdxdelta (smearing_class s) x mo).
Proof.
  intros H [->|[->|[->|(-> & Hx)]]]; cbn [inside smearing_class sdxdelta sdelta fermi_dirac gauss_smearing gaussian_spline cold_smearing] in *.
  - apply fd_delta_derive, H.
  - apply gauss_delta_derive.
  - apply cold_delta_derive. apply abs_window in H. lra.
  - pose proof (gs_delta_derive x mo H) as D. destruct (Rleb x 0) eqn:E; [apply Rleb_true in E; lra|exact D].
Qed.

Lemma dxdelta_missing_factor x mo :
  is_derive (fun y => sdelta methfessel_paxton y mo) x (x * sdxdelta methfessel_paxton x mo) /\
  (-7 < x <= 0 -> is_derive (fun y => sdelta gaussian_spline y mo) x (x * sdxdelta gaussian_spline x mo)).
Proof.
  cbn [sdelta sdxdelta methfessel_paxton gaussian_spline]. split; [apply mp_delta_derive|]. intros H.
  assert (Hx : Rabs x < 7) by (apply window_abs; lra). pose proof (gs_delta_derive x mo Hx) as D.
  destruct (Rleb x 0) eqn:E; [exact D|]. apply Rleb_false in E. lra.
Qed.

(** Exact, untruncated occupation functions. *)
Definition exact_fd (mo x : R) : R := mo / (1 + exp (- x)).
Definition exact_spline (mo x : R) : R :=
  if Rle_dec x 0 then mo / 2 * exp (x * (sqrt 2 - x)) else mo * (1 - / 2 * exp (- x * (sqrt 2 + x))).

Lemma trunc x mo : 0 <= mo ->
  Rabs (sfn fermi_dirac x mo - exact_fd mo x) <= mo * exp (-35) /\
  Rabs (sfn gaussian_spline x mo - exact_spline mo x) <= mo * exp (-64) / 2.
Proof.
  intros Hm. cbn [sfn fermi_dirac gaussian_spline]. split.
  - replace (exact_fd mo x) with (mo - mo / (1 + exp x)); [apply fd_trunc, Hm|].
    unfold exact_fd. rewrite exp_Ropp. pose proof (exp_pos x). field. split; lra.
  - replace (exact_spline mo x) with (gs_core mo x); [replace (mo * exp (-64) / 2) with (mo / 2 * exp (-64)) by field; apply gs_trunc, Hm|].
    unfold exact_spline, gs_core, gs_l, gs_r. destruct (Rle_dec x 0), (Rleb x 0) eqn:E; try reflexivity.
    + apply Rleb_false in E. lra.
    + apply Rleb_true in E. lra.
Qed.

(** *** Free energy on every rank *)
Lemma free_energy_below s (T occ mu etot : R) n (red : list (num Rarith) -> num Rarith) world :
  monotone_type s -> 0 <= T -> 0 <= occ ->
  (forall l, red l = rsum l) -> n = length world -> (forall r, In r world -> rank_ok r) ->
  (forall r kw, In r world -> In kw (mdata (snd r)) -> 0 <= snd kw) ->
  exists S : R, smearing_entropy Rarith n red (smearing_class s) T occ mu world = Some (map (fun _ => Ret S) world) /\
    S = - rsum (map (fun r => weighted (fun e => sentropy (smearing_class s) ((mu - e) / (kb Rarith * T)) occ) (mdata (fst r)) (mdata (snd r))) world) /\
    free_energy_of Rarith T etot S <= etot.
Proof.
  intros Hs HT Ho Hred Hn Hok Hw. eexists. split; [apply smearing_entropy_spec; assumption|]. split; [reflexivity|].
  unfold free_energy_of. cbn [aadd amul Rarith]. pose proof kb_pos as K.
  match goal with |- etot + _ * - ?q <= _ => assert (Q : 0 <= q) end.
  { apply rsum_nonneg. intros y Hy. apply in_map_iff in Hy. destruct Hy as (r & <- & Hin). apply weighted_nonneg.
    - intros kw Hk. exact (Hw r kw Hin Hk).
    - intros e. apply entropy_nonneg; assumption. }
  assert (0 <= kb Rarith * T) by (apply Rmult_le_pos; lra). nra.
Qed.

Definition one_state (e : R) : list (mvec (list (num Rarith)) * mvec (num Rarith)) :=
  [(MkMvec [((0, 0)%Z, [e : num Rarith])] CK, MkMvec [((0, 0)%Z, 1 : num Rarith)] CK)].
Lemma one_state_ok e r : In r (one_state e) -> rank_ok r.
Proof.
  intros [<-|[]]. split; [|split; [|split; [|reflexivity]]]; cbn [fst snd mdata].
  - unfold wfm. cbn. constructor; constructor.
  - unfold wfm. cbn. constructor; constructor.
  - intros k H. exact H.
Qed.

Lemma free_energy_above s occ etot : s = METHFESSEL_PAXTON \/ s = COLD -> 0 < occ ->
  exists T mu e S : R, 0 < T /\
    smearing_entropy Rarith 1 rsum (smearing_class s) T occ mu (one_state e) = Some [Ret S] /\
    etot < free_energy_of Rarith T etot S.
Proof.
  intros Hs Ho. pose proof kb_pos as K. set (T := / kb Rarith).
  exists T, 1, 0, (- rsum (map (fun r => weighted (fun e => sentropy (smearing_class s) ((1 - e) / (kb Rarith * T)) occ) (mdata (fst r)) (mdata (snd r))) (one_state 0))).
  split; [apply Rinv_0_lt_compat, K|]. split.
  - rewrite (smearing_entropy_spec (smearing_class s) T occ 1 1 rsum (one_state 0)); [reflexivity|reflexivity|reflexivity|apply one_state_ok].
  - assert (HT : kb Rarith * T = 1) by (unfold T; apply Rinv_r; apply Rgt_not_eq; exact K).
    assert (Hneg : sentropy (smearing_class s) ((1 - 0) / (kb Rarith * T)) occ < 0).
    { rewrite HT. replace ((1 - 0) / 1) with 1 by field. destruct Hs as [->| ->]; cbn [smearing_class sentropy methfessel_paxton cold_smearing].
      - apply mp_entropy_neg, Ho.
      - apply cold_entropy_neg, Ho. }
    unfold free_energy_of. cbn [aadd amul Rarith].
    assert (Hk : @eq R (amul Rarith (kb Rarith) T) 1) by exact HT. cbn [amul Rarith] in Hk. rewrite Hk.
    match goal with |- _ < _ + 1 * - ?q => assert (Q : q = sentropy (smearing_class s) ((1 - 0) / 1) occ) end.
    { unfold one_state, weighted, bands_at. cbn [map mdata fst snd mfind]. cbn [rsum fold_right map]. cbn. 
      match goal with |- 1 * (?a + 0) + 0 + 0 = _ => transitivity a; [ring|reflexivity] end. }
    rewrite Q. rewrite HT in Hneg. lra.
Qed.

Lemma symmetric s x mo :
  match s with FERMI_DIRAC => Rabs x <= 35 | COLD => False | _ => True end ->
  sfn (smearing_class s) x mo + sfn (smearing_class s) (- x) mo = mo.
Proof.
  destruct s; cbn [smearing_class sfn fermi_dirac gauss_smearing gaussian_spline methfessel_paxton]; intros H.
  - apply fd_sym, H.
  - apply gs_sym.
  - apply gauss_sym.
  - apply mp_sym.
  - destruct H.
Qed.
Lemma even s x mo : s <> COLD -> sdelta (smearing_class s) (- x) mo = sdelta (smearing_class s) x mo.
Proof.
  destruct s; cbn [smearing_class sdelta fermi_dirac gauss_smearing gaussian_spline methfessel_paxton]; intros H.
  - apply fd_even.
  - apply gs_even.
  - apply gauss_even.
  - apply mp_even.
  - congruence.
Qed.

(** delta at (e - mu)/kT, as in grad_eta.hpp, against the derivative of the occupation with respect to e. *)
Lemma occupation_slope s mu e kT mo : kT <> 0 -> s <> COLD -> inside s ((mu - e) / kT) ->
  is_derive (fun y => sfn (smearing_class s) ((mu - y) / kT) mo) e (- sdelta (smearing_class s) ((e - mu) / kT) mo / kT).
Proof.
  intros Hk Hs Hi.
  replace ((e - mu) / kT) with (- ((mu - e) / kT)) by (field; exact Hk). rewrite even by exact Hs.
  replace (- sdelta (smearing_class s) ((mu - e) / kT) mo / kT) with (scal (- / kT) (sdelta (smearing_class s) ((mu - e) / kT) mo)).
  2: { eqR. change (- / kT * sdelta (smearing_class s) ((mu - e) / kT) mo = - sdelta (smearing_class s) ((mu - e) / kT) mo / kT). field. exact Hk. }
  apply (is_derive_comp (fun z => sfn (smearing_class s) z mo) (fun y => (mu - y) / kT)); [apply delta_derive, Hi|].
  auto_derive; [exact I|]. field. exact Hk.
Qed.
Lemma cold_slope mo : 0 < mo -> exists mu e kT, 0 < kT /\
  ~ is_derive (fun y => sfn cold_smearing ((mu - y) / kT) mo) e (- sdelta cold_smearing ((e - mu) / kT) mo / kT).
Proof.
  intros H. exists 2, 0, 1. split; [lra|]. intros D. cbn [sfn sdelta cold_smearing] in D.
  assert (D' : is_derive (fun y => cold_fn ((2 - y) / 1) mo) 0 (scal (- / 1) (cold_delta ((2 - 0) / 1) mo))).
  { apply (is_derive_comp (fun z => cold_fn z mo) (fun y => (2 - y) / 1)); [apply cold_derive|].
    - apply window_abs. lra.
    - auto_derive; [exact I|]. field. }
  apply is_derive_unique in D. apply is_derive_unique in D'. rewrite D in D'. change scal with Rmult in D'.
  destruct (cold_not_even mo H) as (P1 & P2).
  replace ((0 - 2) / 1) with (-2) in D' by field. replace ((2 - 0) / 1) with 2 in D' by field. lra.
Qed.
