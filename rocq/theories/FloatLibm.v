(** Correctly rounded exp and erf meet the demands on the C library ([libm_ok] of FloatMain.v), and a
    concrete run meets the hypotheses of the search theorems.  No code is modelled in this file. *)
From Coq Require Import ZArith Reals Lra Lia Bool List.
From Flocq Require Import Core.Core IEEE754.BinarySingleNaN.
From Verif Require Import Arith Float64 FloatMono MVector Newton ChemPot Occupation Smearing Erf SmearFloat SmearFloatProofs CountFloat FloatSearch FloatLive FloatMain.
Import ListNotations.
Local Open Scope R_scope.
Local Notation bp := (bpow radix2).
Local Notation fx := (SpecFloat.fexp 53 1024).

(** The double nearest to [r]; an infinity when |r| rounds to 2^1024 or more. *)
Definition to_f64 (r : R) : f64 :=
  if Rlt_bool (Rabs (rnd r)) BIG
  then binary_normalize 53 1024 prec53 emax1024 mode_NE (Ztrunc (scaled_mantissa radix2 fx (rnd r))) (cexp radix2 fx (rnd r)) false
  else B754_infinity (Rlt_bool (rnd r) 0).

Lemma fmt_rnd r : fmt (rnd r).
Proof. apply generic_format_round; [apply fexp64_valid|apply valid_rnd_N]. Qed.
Lemma to_f64_ext r : nn (to_f64 r) /\ ext (to_f64 r) = clamp (rnd r).
Proof.
  unfold to_f64. set (y := rnd r). pose proof (fmt_rnd r) as Fy. fold y in Fy. case Rlt_bool_spec; intros H.
  - pose proof (binary_normalize_correct 53 1024 prec53 emax1024 mode_NE (Ztrunc (scaled_mantissa radix2 fx y)) (cexp radix2 fx y) false) as C.
    cbn [round_mode] in C. rewrite <- Fy in C. rewrite (rnd_id y Fy) in C. rewrite BIG_eq in C. rewrite Rlt_bool_true in C by exact H.
    destruct C as (C1 & C2 & _). split; [apply fin_nn; exact C2|]. rewrite (fin_ext _ C2), C1. symmetry. apply clamp_in.
    apply Rabs_lt_inv in H. lra.
  - pose proof big_pos. split; [reflexivity|]. case Rlt_bool_spec; intros Hy; cbn [ext].
    + rewrite Rabs_left in H by exact Hy. rewrite clamp_lo by lra. reflexivity.
    + rewrite Rabs_pos_eq in H by exact Hy. rewrite clamp_hi by lra. reflexivity.
Qed.
Lemma clamp_rnd1 : clamp (rnd 1) = 1.
Proof.
  rewrite rnd_id by (exact (fmtZ _ _ fz1)). apply clamp_in. assert (1 < BIG); [|lra]. change 1 with (bp 0). apply big_le. lia.
Qed.
Lemma clamp_rndm1 : clamp (rnd (-1)) = -1.
Proof.
  rewrite rnd_id by (exact (fmtZ _ _ fzm1)). apply clamp_in. assert (1 < BIG); [|lra]. change 1 with (bp 0). apply big_le. lia.
Qed.
Lemma clamp0 : clamp (rnd 0) = 0.
Proof. rewrite rnd_0. apply clamp_in. pose proof big_pos. lra. Qed.
Lemma to_f64_mono a b : a <= b -> ext (to_f64 a) <= ext (to_f64 b).
Proof. intros H. rewrite !(proj2 (to_f64_ext _)). apply clamp_mono, rnd_mono, H. Qed.

(** Correctly rounded exp and erf, with the limits at the infinities; NaN for NaN. *)
Definition cr_exp (x : f64) : f64 :=
  match x with B754_nan => B754_nan | B754_infinity false => B754_infinity false | B754_infinity true => fz 0 | _ => to_f64 (exp (B2R x)) end.
Definition cr_erf (x : f64) : f64 :=
  match x with B754_nan => B754_nan | B754_infinity false => fz 1 | B754_infinity true => fz (-1) | _ => to_f64 (erf (B2R x)) end.
Definition cr_libm : libm := MkLibm cr_exp (fun x => x) cr_erf (fun x => x) (fun x _ => x).

Lemma cr_exp_fin x : is_finite x = true -> cr_exp x = to_f64 (exp (B2R x)).
Proof. destruct x; intros H; try discriminate H; reflexivity. Qed.
Lemma cr_erf_fin x : is_finite x = true -> cr_erf x = to_f64 (erf (B2R x)).
Proof. destruct x; intros H; try discriminate H; reflexivity. Qed.
Lemma exp_nonneg a : 0 <= exp a. Proof. left. apply exp_pos. Qed.
Lemma exp_mono a b : a <= b -> exp a <= exp b.
Proof. intros [H| ->]; [left; apply exp_increasing; exact H|lra]. Qed.
Lemma erf_mono a b : a <= b -> erf a <= erf b.
Proof. intros [H| ->]; [left; apply erf_incr; exact H|lra]. Qed.

Lemma cr_exp_nn x : nn x -> nn (cr_exp x).
Proof.
  intros N. destruct (inf_case x N) as [-> |[-> |F]]; [reflexivity|reflexivity|]. rewrite (cr_exp_fin x F). apply to_f64_ext.
Qed.
Lemma cr_erf_nn x : nn x -> nn (cr_erf x).
Proof.
  intros N. destruct (inf_case x N) as [-> |[-> |F]]; [reflexivity|reflexivity|]. rewrite (cr_erf_fin x F). apply to_f64_ext.
Qed.
Lemma cr_exp_pos x : nn x -> 0 <= ext (cr_exp x).
Proof.
  pose proof big_pos. destruct fz0 as (F0 & E0).
  intros N. destruct (inf_case x N) as [-> |[-> |F]]; cbn [cr_exp ext]; try lra.
  - rewrite ?(fin_ext _ F0), ?E0; lra.
  - rewrite (cr_exp_fin x F). rewrite (proj2 (to_f64_ext _)), <- clamp0. apply clamp_mono, rnd_mono, exp_nonneg.
Qed.
Lemma exp_inf_p : cr_exp (B754_infinity false) = B754_infinity false. Proof. reflexivity. Qed.
Lemma exp_inf_n : cr_exp (B754_infinity true) = fz 0. Proof. reflexivity. Qed.
Lemma erf_inf_p : cr_erf (B754_infinity false) = fz 1. Proof. reflexivity. Qed.
Lemma erf_inf_n : cr_erf (B754_infinity true) = fz (-1). Proof. reflexivity. Qed.
Lemma ext_inf_p : ext (B754_infinity false) = BIG. Proof. reflexivity. Qed.
Lemma ext_inf_n : ext (B754_infinity true) = - BIG. Proof. reflexivity. Qed.
Lemma cr_exp_mono : fmonotone cr_exp.
Proof.
  intros x y H. pose proof (leb_nn _ _ H) as (Nx & Ny). apply leb_ext; [apply cr_exp_nn; exact Nx|apply cr_exp_nn; exact Ny|].
  apply (leb_ext x y Nx Ny) in H. pose proof big_pos as P. destruct fz0 as (F0 & E0).
  destruct (inf_case y Ny) as [-> |[-> |Fy]].
  - rewrite exp_inf_p, ext_inf_p. apply ext_range.
  - destruct (inf_case x Nx) as [-> |[-> |Fx]]; rewrite ?ext_inf_p, ?ext_inf_n in H; try lra.
    pose proof (fin_lt x Fx). rewrite (fin_ext x Fx) in H. lra.
  - destruct (inf_case x Nx) as [-> |[-> |Fx]].
    + rewrite ext_inf_p, (fin_ext y Fy) in H. pose proof (fin_lt y Fy). lra.
    + rewrite exp_inf_n, (fin_ext _ F0), E0. apply cr_exp_pos. exact Ny.
    + rewrite (cr_exp_fin x Fx), (cr_exp_fin y Fy). apply to_f64_mono, exp_mono. rewrite !fin_ext in H by assumption. exact H.
Qed.
Lemma cr_erf_range : erf_range cr_erf.
Proof.
  intros x N. split; [apply cr_erf_nn; exact N|]. destruct fz1 as (F1 & E1). destruct fzm1 as (Fm & Em).
  destruct (inf_case x N) as [-> |[-> |F]].
  - rewrite erf_inf_p, (fin_ext _ F1), E1. lra.
  - rewrite erf_inf_n, (fin_ext _ Fm), Em. lra.
  - rewrite (cr_erf_fin x F), (proj2 (to_f64_ext _)). pose proof (erf_bounds (B2R x)) as B.
    split; [apply Rle_trans with (clamp (rnd (-1))); [rewrite clamp_rndm1; lra|]|apply Rle_trans with (clamp (rnd 1)); [|rewrite clamp_rnd1; lra]];
      apply clamp_mono, rnd_mono; lra.
Qed.
Lemma cr_erf_mono : fmonotone cr_erf.
Proof.
  intros x y H. pose proof (leb_nn _ _ H) as (Nx & Ny). apply leb_ext; [apply cr_erf_nn; exact Nx|apply cr_erf_nn; exact Ny|].
  apply (leb_ext x y Nx Ny) in H. pose proof big_pos as P. destruct fz1 as (F1 & E1). destruct fzm1 as (Fm & Em).
  destruct (inf_case y Ny) as [-> |[-> |Fy]].
  - rewrite erf_inf_p, (fin_ext _ F1), E1. apply cr_erf_range. exact Nx.
  - destruct (inf_case x Nx) as [-> |[-> |Fx]]; rewrite ?ext_inf_p, ?ext_inf_n in H; try lra.
    pose proof (fin_lt x Fx). rewrite (fin_ext x Fx) in H. lra.
  - destruct (inf_case x Nx) as [-> |[-> |Fx]].
    + rewrite ext_inf_p, (fin_ext y Fy) in H. pose proof (fin_lt y Fy). lra.
    + rewrite erf_inf_n, (fin_ext _ Fm), Em. apply cr_erf_range. exact Ny.
    + rewrite (cr_erf_fin x Fx), (cr_erf_fin y Fy). apply to_f64_mono, erf_mono. rewrite !fin_ext in H by assumption. exact H.
Qed.
Lemma cr_exp_range : exp_range cr_exp.
Proof.
  intros x N. split; [apply cr_exp_nn; exact N|]. split; [apply cr_exp_pos; exact N|]. intros H. pose proof big_pos as P.
  destruct (inf_case x N) as [-> |[-> |F]].
  - rewrite ext_inf_p in H. lra.
  - destruct fz0 as (F0 & E0). rewrite exp_inf_n, (fin_ext _ F0), E0. lra.
  - rewrite (cr_exp_fin x F), (proj2 (to_f64_ext _)). rewrite (fin_ext x F) in H. apply Rle_trans with (clamp (rnd 1)); [|rewrite clamp_rnd1; lra].
    apply clamp_mono, rnd_mono. rewrite <- exp_0. apply exp_mono. exact H.
Qed.
Lemma cr_exp_ge1 : exp_ge1 cr_exp.
Proof.
  intros x N H. pose proof big_pos as P. assert (Q : 1 < BIG) by (change 1 with (bp 0); apply big_le; lia).
  destruct (inf_case x N) as [-> |[-> |F]].
  - rewrite exp_inf_p, ext_inf_p. lra.
  - rewrite ext_inf_n in H. lra.
  - rewrite (cr_exp_fin x F), (proj2 (to_f64_ext _)). rewrite (fin_ext x F) in H. apply Rle_trans with (clamp (rnd 1)); [rewrite clamp_rnd1; lra|].
    apply clamp_mono, rnd_mono. rewrite <- exp_0. apply exp_mono. exact H.
Qed.
Lemma cr_libm_ok : libm_ok cr_libm.
Proof.
  split; [exact cr_exp_range|]. split; [exact cr_exp_mono|]. split; [exact cr_exp_ge1|]. split; [exact cr_erf_range|exact cr_erf_mono].
Qed.

(** ** A concrete run *)
(** Two ranks, one k-point each with weight 1/2, bands at -1, 1 and -3/4, 2; two electrons, T = 300. *)
Definition exT : f64 := fz 300.
Definition exmo : f64 := fz 2.
Definition exNe : f64 := fz 2.
Definition extol : f64 := flit 1 100000000000.
Definition exworld : list (smap (list f64) * smap f64) :=
  [([((0, 0)%Z, [fz (-1); fz 1])], [((0, 0)%Z, fhalf)]); ([((1, 0)%Z, [flit (-3) 4; fz 2])], [((1, 0)%Z, fhalf)])].
Definition exlo : f64 := flit (-1) 4.
Definition exhi : f64 := flit 1 4.

Lemma ex_setting : setting_ok exT exmo exNe.
Proof.
  split; [vm_compute; reflexivity|]. split; [vm_compute; reflexivity|]. destruct fz2 as (F2 & E2). unfold exmo, exNe.
  split; [split; [exact F2|rewrite E2; apply Rle_trans with (bp 1); [apply bpow_le; lia|cbn; lra]]|].
  split; [rewrite E2; apply Rle_trans with (bp 1); [cbn; lra|apply bpow_le; lia]|].
  split; [exact F2|]. rewrite E2, Rabs_pos_eq by lra. apply Rle_trans with (bp 1); [cbn; lra|apply bpow_le; lia].
Qed.
Lemma world_gen (a b c d h : f64) : is_finite a = true -> is_finite b = true -> is_finite c = true -> is_finite d = true ->
  is_finite h = true -> 0 <= B2R h <= bp 100 ->
  world_ok [([((0, 0)%Z, [a; b])], [((0, 0)%Z, h)]); ([((1, 0)%Z, [c; d])], [((1, 0)%Z, h)])].
Proof.
  intros Fa Fb Fc Fd Fh HB. assert (L53 : forall n : nat, (n <= 2)%nat -> (Z.of_nat n <= 2 ^ 53)%Z) by (intros n Hn; lia).
  split; [|split].
  - intros x w k ek [Q|[Q|[]]] Hk; injection Q as <- <-; destruct Hk as [Q|[]]; injection Q as <- <-;
      (split; [apply L53; cbn; lia|]); intros e He; destruct He as [<-|[<-|[]]]; assumption.
  - apply L53. cbn. lia.
  - intros x w k y [Q|[Q|[]]] Hk; injection Q as <- <-; destruct Hk as [Q|[]]; injection Q as <- <-; (split; [exact Fh|exact HB]).
Qed.
Lemma ex_world : world_ok exworld.
Proof.
  destruct fhalf_v as (Fh & Eh). apply world_gen; try reflexivity.
  rewrite Eh. split; [lra|]. apply Rle_trans with (bp 0); [cbn; lra|apply bpow_le; lia].
Qed.
(** For every libm: the occupied bands are full and the others empty at both bounds, so the residual is 0. *)
Lemma ex_residual L : let f := residual F64 exNe exT exmo (smearing_classF L FERMI_DIRAC) (xunion F64 exworld) (wunion F64 exworld) in
  Bleb (f exlo) extol = true /\ Bleb (Bopp extol) (f exhi) = true.
Proof. cbv zeta. split; vm_compute; reflexivity. Qed.
Lemma ex_bounds : is_finite exlo = true /\ is_finite exhi = true /\
  Rabs (B2R exlo) <= bp (1 - 1) /\ Rabs (B2R exhi) <= bp (1 - 1) /\ bp (1 - 50) <= B2R exhi - B2R exlo.
Proof.
  assert (El : is_finite exlo = true /\ B2R exlo = - / 4) by (unfold exlo; litv).
  assert (Eh : is_finite exhi = true /\ B2R exhi = / 4) by (unfold exhi; litv).
  destruct El as (Fl & El). destruct Eh as (Fh & Eh). rewrite El, Eh. split; [exact Fl|]. split; [exact Fh|].
  change (bp (1 - 1)) with 1. rewrite Rabs_left, Rabs_pos_eq by lra. split; [lra|]. split; [lra|].
  apply Rle_trans with (bp (-1)); [apply bpow_le; lia|cbn; lra].
Qed.

(** ** Where binary64 breaks the bounds *)
Lemma tiny_T : exists T kT mu e mo : f64, is_finite T = true /\ Bltb (fz 0) T = true /\ smearing_ctor F64 T = Ret kT /\
  is_finite mu = true /\ is_finite e = true /\ mo_ok mo /\
  forall L, lexp L B754_nan = B754_nan -> sfn (smearing_classF L FERMI_DIRAC) (fdiv (fsub mu e) kT) mo = B754_nan.
Proof.
  exists (binary_normalize 53 1024 prec53 emax1024 mode_NE 1 (-1074) false : f64), (fz 0), (fz 1), (fz 1), (fz 2).
  do 5 (split; [vm_compute; reflexivity|]). split.
  - split; [vm_compute; reflexivity|]. destruct fz2 as (_ & E2). rewrite E2. apply Rle_trans with (bp 1); [apply bpow_le; lia|cbn; lra].
  - intros L H. cbn [smearing_classF sfn]. replace (fdiv (fsub (fz 1) (fz 1)) (fz 0)) with (B754_nan : f64) by (vm_compute; reflexivity).
    unfold fd_fnF. rewrite H. vm_compute. reflexivity.
Qed.

Lemma mp_nan : exists x mo : f64, is_finite x = true /\ mo_ok mo /\
  forall L, lexp L (B754_infinity true) = fz 0 -> sdelta (smearing_classF L METHFESSEL_PAXTON) x mo = B754_nan.
Proof.
  exists (fofZ (2 ^ 600)), (fz 2). split; [vm_compute; reflexivity|]. split.
  - split; [vm_compute; reflexivity|]. destruct fz2 as (_ & E2). rewrite E2. apply Rle_trans with (bp 1); [apply bpow_le; lia|cbn; lra].
  - intros L H. cbn [smearing_classF sdelta]. unfold mp_deltaF.
    replace (Bopp (fmul (fofZ (2 ^ 600)) (fofZ (2 ^ 600)))) with (B754_infinity true : f64) by (vm_compute; reflexivity).
    rewrite H. vm_compute. reflexivity.
Qed.
