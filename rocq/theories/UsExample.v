(** Concrete systems for the run model. *)
From Coq Require Import Reals Lra Psatz ZArith List Bool Arith Lia.
From Coquelicot Require Import Complex.
From Verif Require Import Arith LinAlg MVector Mpi MpiProofs Containers ChemPot ChemPotProofs Newton Occupation Erf Smearing SmearingProofs SmearingUse SmearingFacts
  Descent DescentProofs DescentFacts Geodesic GeodesicProofs LineSearch LineSearchProofs LineSearchReal Driver DriverProofs DriverInv UsRun UsRunProofs.
Import ListNotations.
Local Open Scope R_scope.

Definition k0 : key := (0, 0)%Z.

(** A chemical potential search that is satisfied with the start value. *)
Lemma find_at_start (f : R -> R) (tol : R) : f 0 = 0 -> 0 < tol -> find_chemical_potential Rarith f tol 0 = (Ret 0, [0], 2%nat).
Proof.
  intros H0 Ht. unfold find_chemical_potential.
  assert (E : forall n, chem_loop Rarith f tol n 0 (alit Rarith 1 10) 1 [] 0 = (0, [], 1%nat)).
  { assert (Eg : agtb Rarith (aabs Rarith (f 0)) tol = false).
    { unfold agtb. cbn [altb aabs Rarith]. rewrite H0, Rabs_R0. apply Rltb_false. lra. }
    intros n. destruct n; cbn [chem_loop]; rewrite Eg; reflexivity. }
  rewrite E. cbn [aabs altb Rarith]. rewrite H0, Rabs_R0.
  replace (Rltb 0 tol) with true by (symmetry; apply Rltb_true; exact Ht). reflexivity.
Qed.

(** ** A band that mixes with an empty basis function
    One k-point, one band, two basis functions, H = [[0,1],[1,0]], start vector (1, 0), one electron, Fermi-Dirac, kT = 1. *)
Definition mixH : mat := fun i j => if Nat.eqb i j then RtoC 0 else RtoC 1.
Definition mix_set : setting :=
  MkSetting [[k0]] (fun _ => 2%nat) (fun _ => 1%nat) (fun _ => 1) (fun _ => mid) (fun _ => mid) FERMI_DIRAC 1 unit_T 1 2 1 true.
Definition mix_energy (X : key -> mat) (fn : key -> nat -> R) : R :=
  Re (csum 2 (fun a => csum 2 (fun b => Cmult (mixH a b) (density mix_set X fn k0 b a)))).
Definition mix_compute (en : unit) (X : key -> mat) (fn : key -> nat -> R) : ((R * (key -> mat) * (key -> nat -> R)) + unit) * unit :=
  (inl (mix_energy X fn,
        fun k => mmul 2 mixH (X k), fun k i => Re (mmul 2 (adj (X k)) (mmul 2 mixH (X k)) i i)), tt).
Definition mix_X : mat := fun i _ => if Nat.eqb i 0 then RtoC 1 else RtoC 0.
Definition mix_start : ust unit := MkUst tt (fun _ => mix_X) (fun _ _ => 1) (fun _ => mzero) (fun _ _ => 0) 0 0 0 0 [].

Lemma mixH_hermitian : hermitian 2 mixH.
Proof. intros i j Hi Hj. unfold adj, mixH. rewrite (Nat.eqb_sym j i). destruct (Nat.eqb i j); apply Ceq; cbn; ring. Qed.
Lemma mid_hermitian n : hermitian n mid.
Proof. unfold hermitian. rewrite adj_mid. apply meq_refl. Qed.
Lemma mix_keys k : In k (all_keys mix_set) -> k = k0.
Proof. intros [H|[]]. symmetry. exact H. Qed.

Lemma mix_ok : system_ok solve2 eigh2 unit unit mix_compute mix_set.
Proof.
  constructor; cbn [nrow ncol ovl prc wgt mix_set].
  - intros k _. exact solve2_ok1.
  - exact eigh2_ok.
  - intros k _. split; [apply mid_hermitian|apply psd_mid].
  - intros k _. split; [apply mid_hermitian|apply posdef_mid].
  - intros k _. lra.
  - intros en X fn e HX ek en' _ H k _. unfold mix_compute in H. inversion H; subst. unfold XHX. cbn [nrow mix_set]. split.
    + apply GeodesicProofs.gram_hermitian. exact mixH_hermitian.
    + reflexivity.
Qed.
Lemma mix_density : energy_of_density unit unit mix_compute mix_set.
Proof.
  intros en1 en2 X1 X2 f1 f2 e1 e2 h1 h2 k1 k2 en1' en2' H H1 H2. unfold mix_compute in *.
  assert (E1 : e1 = mix_energy X1 f1) by congruence. assert (E2 : e2 = mix_energy X2 f2) by congruence.
  clear H1 H2. rewrite E1, E2. unfold mix_energy.
  assert (Hk : In k0 (all_keys mix_set)) by (left; reflexivity). specialize (H k0 Hk). cbn [nrow mix_set] in H.
  f_equal. apply csum_ext. intros a Ha. apply csum_ext. intros b Hb. rewrite (H b a Hb Ha). reflexivity.
Qed.
Lemma mix_ortho : ortho mix_set (s_X mix_start).
Proof.
  intros k _. cbn [nrow ncol ovl mix_set s_X mix_start]. intros i j Hi Hj. replace i with 0%nat by lia. replace j with 0%nat by lia.
  unfold mmul, adj, mid, mix_X. cbn. apply Ceq; cbn; ring.
Qed.
Lemma fd_at0 mo : fd_fn 0 mo = mo / 2.
Proof. unfold fd_fn. rewrite (proj2 (Rltb_false 0 (-35))), (proj2 (Rltb_false 40 0)) by lra. rewrite exp_0. lra. Qed.

(** The electron count of a system with one k-point. *)
Lemma single_residual C (ek : key -> nat -> R) sm (mu : R) : ranks C = [[k0]] ->
  residual Rarith (nel C) (temp C) (occ_ C) sm (xunion Rarith (band_world C ek)) (wunion Rarith (band_world C ek)) mu =
  nel C - wgt C k0 * rsum (map (fun i => sfn sm ((mu - ek k0 i) / (kb Rarith * temp C)) (occ_ C)) (seq 0 (ncol C k0))).
Proof.
  intros Hr. unfold residual, wsum, xunion, wunion, band_world. rewrite Hr. cbn [map concat fst snd app map_of_assignments map_of_range fold_left fold_right].
  change (mins k0 (wgt C k0) []) with [(k0, wgt C k0)]. cbn [mset fold_left fst snd]. unfold view_at. cbn [mfind fst snd]. replace (keqb k0 k0) with true by reflexivity.
  rewrite (sum_func_R (sfn sm)), map_map, Rlit0. cbn [asub aadd amul num Rarith]. rewrite Rplus_0_l. reflexivity.
Qed.
Lemma single_mu C (ek : key -> nat -> R) : ranks C = [[k0]] -> skip_nt C = true -> 0 < mu_tol C ->
  nel C = wgt C k0 * rsum (map (fun i => sfn (smearing_class (smt C)) ((0 - ek k0 i) / (kb Rarith * temp C)) (occ_ C)) (seq 0 (ncol C k0))) ->
  us_mu C ek = Some 0.
Proof.
  intros Hr Hs Ht Hn. unfold us_mu, mu_of. rewrite Hs. cbn [negb andb]. unfold find_mu.
  rewrite Rlit0. rewrite find_at_start; [reflexivity| |exact Ht].
  rewrite single_residual by exact Hr. rewrite Hn. eqR. ring.
Qed.

Lemma mix_mu (ek : key -> nat -> R) : ek k0 0%nat = 0 -> us_mu mix_set ek = Some 0.
Proof.
  intros He. apply single_mu; try reflexivity; [cbn; lra|]. cbn [nel wgt ncol smt temp occ_ mix_set seq map rsum fold_right smearing_class].
  rewrite He, unit_kT. change (sfn fermi_dirac) with fd_fn. replace ((0 - 0) / 1) with 0 by field. rewrite fd_at0. eqR. field.
Qed.

Definition mix_kpt (e f h : nat -> R) : kpt := MkKpt 2 1 1 mid mid mix_X (mmul 2 mixH mix_X) e f h.
Lemma mix_zero : Re (mmul 2 (adj mix_X) (mmul 2 mixH mix_X) 0%nat 0%nat) = 0.
Proof. unfold mmul, adj, mixH, mix_X. cbn. ring. Qed.
Lemma mix_slope e f h kappa mo : e 0%nat = 0 -> f 0%nat = 1 ->
  fst (restarted solve2 FERMI_DIRAC unit_T kappa mo [[mix_kpt e f h]] 0) < 0.
Proof.
  intros He Hf. set (k := mix_kpt e f h).
  assert (Hdef : let sx := mmul (kn k) (kS k) (kX k) in posdef (km k) (mmul (kn k) (adj sx) (mmul (kn k) (kP k) sx))).
  { cbv zeta. apply (posdef_ext 1 mid); [|apply posdef_mid]. intros i j Hi Hj. cbn [km k mix_kpt] in Hi, Hj.
    replace i with 0%nat by lia. replace j with 0%nat by lia. cbn [kn kS kX kP k mix_kpt]. unfold mmul, adj, mid, mix_X. cbn. apply Ceq; cbn; ring. }
  assert (HH : hermitian (km k) (mmul (kn k) (adj (kX k)) (kHX k))) by (apply GeodesicProofs.gram_hermitian; exact mixH_hermitian).
  unfold restarted. cbn [fst]. rewrite total_map. unfold total. cbn [map fold_right]. rewrite !Rplus_0_r.
  unfold exec_restart. cbv zeta. cbn [fst].
  rewrite slope_x_value by (try exact solve2_ok1; try exact Hdef; apply mid_hermitian).
  rewrite eta_value; [|rewrite unit_kT; lra|cbn; lra|exact HH].
  match goal with |- 2 * (_ * ?q) + (?d + ?o) < 0 => assert (Eq : 1 <= q); [|assert (Ed : d = 0); [|assert (Eo : o = 0); [|rewrite Ed, Eo]]] end.
  - cbn [km k mix_kpt rsumn kf]. rewrite Hf. change (kP _) with mid. change (kn _) with 2%nat. rewrite quad_mid. cbn [rsumn].
    set (v0 := nsq _). assert (0 <= v0) by apply nsq_pos.
    match goal with |- context [nsq ?x] => replace x with (RtoC 1) end.
    + unfold nsq. cbn. lra.
    + unfold msub. fold k. unfold lmult, transform_alloc. cbv zeta. set (ll := solve2 _ _ _). change (km k) with 1%nat. change (kn k) with 2%nat.
      change (kHX k) with (mmul 2 mixH mix_X). change (kS k) with mid. change (kX k) with mix_X. generalize (ll : mat). clear. intros ll.
      unfold mmul, mid, mix_X, mixH. cbn. apply Ceq; cbn; ring.
  - cbn [km k mix_kpt rsumn]. unfold dev. change (kn _) with 2%nat. change (kX _) with mix_X. change (kHX _) with (mmul 2 mixH mix_X).
    change (ke _ 0%nat) with (e 0%nat). rewrite He, mix_zero. replace (0 - 0) with 0 by ring. destruct (Rltb _ _); ring.
  - cbn [km k mix_kpt rsumn Nat.eqb]. ring.
  - change (kw k) with 1. lra.
Qed.

(** Set-up succeeds and yields a strictly negative slope. *)
Lemma mix_setup junk : exists d sl s, us_setup solve2 unit unit mix_compute mix_set junk mix_start = (inl (d, sl), s) /\ sl < 0.
Proof.
  unfold us_setup, fe_compute0. cbn [mix_compute mix_start s_en s_X s_fn s_ek]. rewrite mix_mu.
  - unfold fe_compute. cbn [mix_compute s_en s_X s_fn s_ek s_HX s_log]. unfold us_steepest.
    destruct (restarted _ _ _ _ _ _ _) as [sl z] eqn:E. eexists _, _, _. split; [reflexivity|].
    apply (f_equal fst) in E. cbn [fst] in E. rewrite <- E. clear E z sl.
    cbn [u_mu ranks mix_set map]. unfold kpt_of. cbn [u_X u_HX u_ek u_fn s_ek nrow ncol wgt ovl prc mix_set smt temp kappa_ occ_].
    set (k := MkKpt _ _ _ _ _ _ _ _ _ _).
    apply mix_slope; [exact mix_zero|]. unfold us_fn. cbn [smt temp occ_ mix_set smearing_class]. rewrite mix_zero, unit_kT.
    change (sfn fermi_dirac) with fd_fn. replace ((0 - 0) / 1) with 0 by field. rewrite fd_at0. field.
  - exact mix_zero.
Qed.

(** ** A first step that goes uphill
    One k-point, two bands, two basis functions, kT = 1.  The Hamiltonian is diag(0, 2) for the start occupations and
    diag(1, 2) once the occupation of the first band exceeds f0 - 1/2, where f0 is its occupation at mu = 0. *)
Definition up_f0 (s : smearing_type) (mo : R) : R := sfn (smearing_class s) 0 mo.
Definition up_set (s : smearing_type) (mo kappa : R) : setting :=
  MkSetting [[k0]] (fun _ => 2%nat) (fun _ => 2%nat) (fun _ => 1) (fun _ => mid) (fun _ => mid) s
    (up_f0 s mo + sfn (smearing_class s) (-2) mo) unit_T kappa mo 1 true.
Definition up_H (s : smearing_type) (mo f : R) : mat := diag2 (if Rltb (up_f0 s mo - 1 / 2) f then 1 else 0) 2.
Definition up_HX (H X : mat) : mat := fun i j => if (Nat.ltb i 2 && Nat.ltb j 2)%bool then mmul 2 H X i j else H i j.
Definition up_ek (H X : mat) (i : nat) : R := if Nat.ltb i 2 then Re (mmul 2 (adj X) (up_HX H X) i i) else 2.
Definition up_compute (s : smearing_type) (mo : R) (en : unit) (X : key -> mat) (fn : key -> nat -> R)
  : ((R * (key -> mat) * (key -> nat -> R)) + unit) * unit :=
  let H := up_H s mo (fn k0 0%nat) in
  (inl (0, fun k => up_HX H (X k), fun k => up_ek H (X k)), tt).
Definition up_start (s : smearing_type) (mo : R) : ust unit :=
  MkUst tt (fun _ => mid) (fun _ _ => up_f0 s mo - 1) (fun _ => mzero) (fun _ _ => 0) 0 0 0 0 [].

Lemma up_HX_meq H X : meq 2 2 (up_HX H X) (mmul 2 H X).
Proof.
  intros i j Hi Hj. unfold up_HX. rewrite (proj2 (Nat.ltb_lt i 2) Hi), (proj2 (Nat.ltb_lt j 2) Hj). reflexivity.
Qed.
Lemma diag2_hermitian a b : hermitian 2 (diag2 a b).
Proof. unfold hermitian, diag2. rewrite adj_mdiag. apply meq_refl. Qed.

Lemma up_ok s mo kappa : system_ok solve2 eigh2 unit unit (up_compute s mo) (up_set s mo kappa).
Proof.
  constructor; cbn [nrow ncol ovl prc wgt up_set].
  - intros k _. exact solve2_ok2.
  - exact eigh2_ok.
  - intros k _. split; [apply mid_hermitian|apply psd_mid].
  - intros k _. split; [apply mid_hermitian|apply posdef_mid].
  - intros k _. lra.
  - intros en X fn e HX ek en' _ H k _. unfold up_compute in H. set (A := up_H _ _ _) in *.
    assert (E1 : HX = fun k => up_HX A (X k)) by congruence. assert (E2 : ek = fun k => up_ek A (X k)) by congruence. subst HX ek.
    unfold XHX. cbn [nrow up_set]. split.
    + apply (hermitian_ext 2 (mmul 2 (adj (X k)) (mmul 2 A (X k)))).
      * apply (mmul_ext 2 2 2); [apply meq_refl|]. apply meq_sym. apply up_HX_meq.
      * apply GeodesicProofs.gram_hermitian. apply diag2_hermitian.
    + intros i Hi. unfold up_ek. rewrite (proj2 (Nat.ltb_lt i 2) Hi). reflexivity.
Qed.
Lemma up_ortho s mo kappa : ortho (up_set s mo kappa) (s_X (up_start s mo)).
Proof.
  intros k _. cbn [nrow ncol ovl up_set s_X up_start]. unfold orthonormal.
  apply (meq_trans 2 2 _ (mmul 2 (adj mid) mid)); [apply (mmul_ext 2 2 2); [apply meq_refl|apply mmul_id_l]|]. rewrite adj_mid. apply mmul_id_l.
Qed.
Lemma up_HX_mid a b : up_HX (diag2 a b) mid = diag2 a b.
Proof.
  apply mat_ext. intros i j. unfold up_HX. destruct (Nat.ltb i 2) eqn:Ei; [|reflexivity]. destruct (Nat.ltb j 2) eqn:Ej; [|reflexivity].
  apply Nat.ltb_lt in Ei, Ej. cbn [andb]. exact (mmul_id_r 2 2 (diag2 a b) i j Ei Ej).
Qed.
Lemma up_ek_mid a : up_ek (diag2 a 2) mid = fun i => if Nat.eqb i 0 then a else 2.
Proof.
  apply FunctionalExtensionality.functional_extensionality. intros i. unfold up_ek. rewrite up_HX_mid. destruct (Nat.ltb i 2) eqn:Ei.
  - apply Nat.ltb_lt in Ei. rewrite adj_mid. rewrite (mmul_id_l 2 2 (diag2 a 2) i i Ei Ei). unfold diag2, mdiag. rewrite Nat.eqb_refl. reflexivity.
  - apply Nat.ltb_ge in Ei. destruct i; [lia|reflexivity].
Qed.

Lemma up_setup s mo kappa junk : s = METHFESSEL_PAXTON \/ s = COLD -> 1 <= mo -> 0 < kappa ->
  exists d sl st, us_setup solve2 unit unit (up_compute s mo) (up_set s mo kappa) junk (up_start s mo) = (inl (d, sl), st) /\ 0 < sl.
Proof.
  intros Hs Hm Hk. unfold us_setup, fe_compute0. cbn [up_compute up_start s_en s_X s_fn s_ek].
  assert (E0 : up_H s mo (up_f0 s mo - 1) = diag2 0 2).
  { unfold up_H. rewrite (proj2 (Rltb_false _ _)) by lra. reflexivity. }
  rewrite E0. rewrite up_ek_mid. set (ek := fun i => if Nat.eqb i 0 then 0 else 2).
  rewrite (single_mu (up_set s mo kappa) (fun _ => ek)); try reflexivity; [|cbn; lra|].
  - unfold fe_compute. cbn [up_compute s_en s_X s_fn s_ek s_HX s_log].
    assert (Ef : us_fn (up_set s mo kappa) (fun _ => ek) 0 k0 = fun i => sfn (smearing_class s) (if Nat.eqb i 0 then 0 else -2) mo).
    { apply FunctionalExtensionality.functional_extensionality. intros i. unfold us_fn. cbn [smt temp occ_ up_set]. rewrite unit_kT. f_equal.
      unfold ek. destruct (Nat.eqb i 0); eqR; field. }
    unfold up_compute. cbv zeta. cbn [s_en s_X s_fn s_ek s_HX s_log].
    assert (E1 : up_H s mo (us_fn (up_set s mo kappa) (fun _ => ek) 0 k0 0%nat) = diag2 1 2).
    { rewrite Ef. cbn [Nat.eqb]. unfold up_H, up_f0. rewrite (proj2 (Rltb_true _ _)) by lra. reflexivity. }
    rewrite E1, up_HX_mid, up_ek_mid. unfold us_steepest.
    destruct (restarted _ _ _ _ _ _ _) as [sl z] eqn:E. eexists _, _, _. split; [reflexivity|].
    apply (f_equal fst) in E. cbn [fst] in E. rewrite <- E. clear E z sl.
    cbn [u_mu ranks up_set map]. unfold kpt_of. cbn [u_X u_HX u_ek u_fn s_ek nrow ncol wgt ovl prc up_set smt temp kappa_ occ_].
    fold (up_set s mo kappa). rewrite Ef. exact (uphill_slope s mo kappa Hs Hm Hk).
  - cbn [nel wgt ncol smt temp occ_ up_set seq map rsum fold_right]. rewrite unit_kT. unfold ek, up_f0. cbn [Nat.eqb].
    replace ((0 - 0) / 1) with 0 by field. replace ((0 - 2) / 1) with (-2) by field. eqR. ring.
Qed.

(** A run whose first slope is positive ends in its first line search. *)
Lemma slope_exit (Pb : problem Rarith) maxiter tol tau restart fq fb s0 d sl s r st evs :
  setup Pb s0 = (inl (d, sl), s) -> (0 < sl)%R -> (0 < maxiter)%Z -> (tol <= sl)%R ->
  nlcg_us Rarith Pb maxiter tol tau restart fq fb s0 = (r, st, evs) ->
  In (EvLs [] LsSlope) evs /\ exists i, r = Ret i /\ iConv i = false.
Proof.
  intros E Hp Hi Ht H. unfold nlcg_us in H. rewrite E in H. destruct (Z.to_nat maxiter) as [|n] eqn:En; [lia|].
  cbn [cg_loop d_slope d_st d_dat d_fr d_force d_info] in H.
  assert (Ea : altb Rarith (aabs Rarith sl) tol = false).
  { apply Rltb_false. cbn [aabs Rarith]. exact (Rle_trans _ _ _ Ht (Rle_abs sl)). }
  rewrite Ea in H. unfold line_search in H.
  replace (agtb Rarith sl (alit Rarith 0 1)) with true in H by (symmetry; unfold agtb; rewrite Rlit0; apply Rltb_true; exact Hp).
  inversion H; subst. split; [right; right; left; reflexivity|]. eexists. split; reflexivity.
Qed.
Lemma up_run s mo kappa junk : s = METHFESSEL_PAXTON \/ s = COLD -> 1 <= mo -> 0 < kappa ->
  exists eps, 0 < eps /\ forall maxiter tol tau restart fq fb r st evs, (0 < maxiter)%Z -> tol <= eps ->
  nlcg_us Rarith (us_problem solve2 eigh2 unit unit (up_compute s mo) (up_set s mo kappa) junk) maxiter tol tau restart fq fb (up_start s mo) = (r, st, evs) ->
  In (EvLs [] LsSlope) evs /\ exists i, r = Ret i /\ iConv i = false.
Proof.
  intros Hs Hm Hk. destruct (up_setup s mo kappa junk Hs Hm Hk) as (d & sl & s1 & E & Hp). exists sl. split; [exact Hp|].
  intros maxiter tol tau restart fq fb r st evs Hi Ht H.
  exact (slope_exit (us_problem solve2 eigh2 unit unit (up_compute s mo) (up_set s mo kappa) junk) maxiter tol tau restart fq fb (up_start s mo) d sl s1 r st evs E Hp Hi Ht H).
Qed.
