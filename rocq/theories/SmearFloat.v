(** The smearing functions of src/smearing.hpp in IEEE binary64.

    std::sqrt is the correctly rounded square root of IEEE 754; std::exp, log, erf, erfc and pow are arbitrary
    functions ([libm]): what is needed of them is stated where it is used.  constants::pi
    (src/constants.hpp 6) is the double nearest to pi.  No contraction to fused operations, no
    extended precision: every operation is rounded to binary64. *)
From Coq Require Import ZArith Reals Lra Lia Bool List.
From Flocq Require Import Core.Core IEEE754.BinarySingleNaN.
From Verif Require Import Arith Float64 FloatMono Occupation Smearing.
Import ListNotations.
Local Open Scope R_scope.
Local Notation bp := (bpow radix2).

Record libm := MkLibm {
  lexp : f64 -> f64; llog : f64 -> f64; lerf : f64 -> f64; lerfc : f64 -> f64; lpow : f64 -> f64 -> f64
}.
Definition fz (z : Z) : f64 := flit z 1.
Definition fhalf : f64 := flit 1 2.
Definition fquart : f64 := flit 1 4.
Definition fsq2 : f64 := Bsqrt mode_NE (fz 2).
(** constants::pi, constants.hpp 6: 884279719003555 / 2^48 *)
Definition fpi : f64 := flit 884279719003555 281474976710656.
Definition fsqpi : f64 := Bsqrt mode_NE fpi.

Section Fn.
  Context (L : libm).
  Infix "+" := fadd. Infix "-" := fsub. Infix "*" := fmul. Infix "/" := fdiv.
  Notation "- x" := (Bopp x).
  Notation "x <? y" := (Bltb x y) (at level 70). Notation "x <=? y" := (Bleb x y) (at level 70).

  (** fermi_dirac::fn, smearing.hpp 119-128 *)
  Definition fd_fnF (x mo : f64) : f64 :=
    if x <? fz (-35) then fz 0 else if fz 40 <? x then mo else mo - mo / (fz 1 + lexp L x).
  (** fermi_dirac::delta, 130-140 *)
  Definition fd_deltaF (x mo : f64) : f64 :=
    if fz 35 <? Babs x then fz 0 else
    let denom := lexp L (- x / fz 2) + lexp L (x / fz 2) in mo / (denom * denom).
  (** fermi_dirac::dxdelta, 142-149 *)
  Definition fd_dxdeltaF (x mo : f64) : f64 :=
    if fz 40 <? Babs x then fz 0 else
    let expx := lexp L x in - mo * (expx * (expx - fz 1)) / lpow L (fz 1 + expx) (fz 3).
  (** fermi_dirac::entropy, 152-159 *)
  Definition fd_entropyF (x mo : f64) : f64 :=
    if fz 40 <? Babs x then fz 0 else
    let expx := lexp L x in mo * (llog L (fz 1 + expx) - expx * x / (fz 1 + expx)).

  (** gaussian_spline::fn, 165-175 *)
  Definition gs_fnF (x mo : f64) : f64 :=
    if fz 8 <? x then mo else if x <? fz (-8) then fz 0 else
    if x <=? fz 0 then mo / fz 2 * lexp L (x * (fsq2 - x)) else mo * (fz 1 - fhalf * lexp L (- x * (fsq2 + x))).
  (** gaussian_spline::delta, 177-186 *)
  Definition gs_deltaF (x mo : f64) : f64 :=
    if fz 7 <? Babs x then fz 0 else
    if x <=? fz 0 then mo * fhalf * lexp L ((fsq2 - x) * x) * (fsq2 - fz 2 * x)
    else mo * fhalf * lexp L (- x * (fsq2 + x)) * (fsq2 + fz 2 * x).
  (** gaussian_spline::entropy, 188-202 (mo is not used) *)
  Definition gs_entropyF (x mo : f64) : f64 :=
    if fz 7 <? Babs x then fz 0 else
    let sqrte := lexp L fhalf in
    if fz 0 <? x then fquart * (fz 2 * lexp L (- x * (fsq2 + x)) * x + sqrte * fsqpi * lerfc L (fz 1 / fsq2 + x))
    else fquart * (fz (-2) * lexp L (x * (fsq2 - x)) * x + sqrte * fsqpi * lerfc L (fz 1 / fsq2 - x)).
  (** gaussian_spline::dxdelta, 204-215 *)
  Definition gs_dxdeltaF (x mo : f64) : f64 :=
    if (fz 8 <? x) || (x <? fz (-8)) then fz 0 else
    if x <=? fz 0 then fz (-2) * mo * lexp L ((fsq2 - x) * x) * (fsq2 - x)
    else fz (-2) * mo * lexp L (- x * (fsq2 + x)) * x * (fsq2 + x).

  (** cold_smearing::fn, 221-229 *)
  Definition cold_fnF (x mo : f64) : f64 :=
    if fz 8 <? x then mo else if x <? fz (-8) then fz 0 else
    mo * (lexp L (- fhalf + (fsq2 - x) * x) / fsq2 / fsqpi + fhalf * lerfc L (fz 1 / fsq2 - x)).
  (** cold_smearing::delta, 231-240 *)
  Definition cold_deltaF (x mo : f64) : f64 :=
    if x <? fz (-8) then fz 0 else if fz 10 <? x then fz 0 else
    let z := x - fz 1 / fsq2 in mo * lexp L (- z * z) * (fz 2 - fsq2 * x) / fsqpi.
  (** cold_smearing::dxdelta, 242-250 *)
  Definition cold_dxdeltaF (x mo : f64) : f64 :=
    if x <? fz (-8) then fz 0 else if fz 10 <? x then fz 0 else
    let z := x - fz 1 / fsq2 in mo * lexp L (- z * z) * (fsq2 - fz 6 * x + fz 2 * fsq2 * x * x) / fsqpi.
  (** cold_smearing::entropy, 252-260 *)
  Definition cold_entropyF (x mo : f64) : f64 :=
    if x <? fz (-8) then fz 0 else if fz 10 <? x then fz 0 else
    let z := x - fz 1 / fsq2 in mo * lexp L (- z * z) * (fz 1 - fsq2 * x) / fz 2 / fsqpi.

  (** methfessel_paxton_smearing::fn, 266-271 *)
  Definition mp_fnF (x mo : f64) : f64 :=
    let x2 := x * x in mo / fz 2 * (fz 1 + lexp L (- x2) * x / fsqpi + lerf L x).
  (** methfessel_paxton_smearing::delta, 273-278 *)
  Definition mp_deltaF (x mo : f64) : f64 :=
    let x2 := x * x in mo * lexp L (- x2) * (fz 1 + fquart * (fz 2 - fz 4 * x2)) / fsqpi.
  (** methfessel_paxton_smearing::dxdelta, 280-284 *)
  Definition mp_dxdeltaF (x mo : f64) : f64 := mo * lexp L (- x * x) * (fz 2 * x * x - fz 5) / fsqpi.
  (** methfessel_paxton_smearing::entropy, 286-291 *)
  Definition mp_entropyF (x mo : f64) : f64 :=
    let x2 := x * x in mo * lexp L (- x2) * (fz 1 - fz 2 * x2) / fz 4 / fsqpi.

  (** gauss_smearing::fn, 296-299 *)
  Definition gauss_fnF (x mo : f64) : f64 := mo / fz 2 * (fz 1 + lerf L x).
  (** gauss_smearing::delta, 301-304 *)
  Definition gauss_deltaF (x mo : f64) : f64 := mo * lexp L (- x * x) / fsqpi.
  (** gauss_smearing::entropy, 306-309 *)
  Definition gauss_entropyF (x mo : f64) : f64 := mo / fz 2 * lexp L (- x * x) / fsqpi.
  (** gauss_smearing::dxdelta, 311-314 *)
  Definition gauss_dxdeltaF (x mo : f64) : f64 := fz (-2) * mo * lexp L (- x * x) * x / fsqpi.

  (** The classes, as in Smearing.v. *)
  Definition smearing_classF (s : smearing_type) : smear F64 :=
    match s with
    | FERMI_DIRAC => MkSmear F64 fd_fnF fd_deltaF fd_dxdeltaF fd_entropyF false
    | GAUSSIAN_SPLINE => MkSmear F64 gs_fnF gs_deltaF gs_dxdeltaF gs_entropyF false
    | GAUSS => MkSmear F64 gauss_fnF gauss_deltaF gauss_dxdeltaF gauss_entropyF false
    | METHFESSEL_PAXTON => MkSmear F64 mp_fnF mp_deltaF mp_dxdeltaF mp_entropyF true
    | COLD => MkSmear F64 cold_fnF cold_deltaF cold_dxdeltaF cold_entropyF true
    end.
End Fn.

(** ** Specification: what is asked of the library functions *)
(** Range: no NaN and no negative value from exp, at most 1 for non-positive arguments; erf within [-1,1]. *)
Definition exp_range (e : f64 -> f64) : Prop :=
  forall x, nn x -> nn (e x) /\ 0 <= ext (e x) /\ (ext x <= 0 -> ext (e x) <= 1).
Definition erf_range (e : f64 -> f64) : Prop := forall x, nn x -> nn (e x) /\ -1 <= ext (e x) <= 1.
(** Monotone: x <= y implies e x <= e y (as comparisons of doubles). *)
Definition fmonotone (e : f64 -> f64) : Prop := forall x y, Bleb x y = true -> Bleb (e x) (e y) = true.
(** exp is at least 1 for non-negative arguments *)
Definition exp_ge1 (e : f64 -> f64) : Prop := forall x, nn x -> 0 <= ext x -> 1 <= ext (e x).

(** ** Literals *)
Lemma lit_val p q m e s : B2SF (flit p q) = SpecFloat.S754_finite s m e ->
  is_finite (flit p q) = true /\ B2R (flit p q) = F2R (Float radix2 (cond_Zopp s (Zpos m)) e).
Proof. destruct (flit p q); cbn; intros H; try discriminate. injection H as -> -> ->. split; reflexivity. Qed.
Ltac litv := split; [reflexivity|eapply eq_trans; [eapply proj2, lit_val; vm_compute; reflexivity|unfold F2R; cbn; lra]].
Lemma fz1 : is_finite (fz 1) = true /\ B2R (fz 1) = 1. Proof. unfold fz. litv. Qed.
Lemma fz0 : is_finite (fz 0) = true /\ B2R (fz 0) = 0. Proof. split; vm_compute; reflexivity. Qed.
Lemma fz2 : is_finite (fz 2) = true /\ B2R (fz 2) = 2. Proof. unfold fz. litv. Qed.
Lemma fz7 : is_finite (fz 7) = true /\ B2R (fz 7) = 7. Proof. unfold fz. litv. Qed.
Lemma fz8 : is_finite (fz 8) = true /\ B2R (fz 8) = 8. Proof. unfold fz. litv. Qed.
Lemma fzm8 : is_finite (fz (-8)) = true /\ B2R (fz (-8)) = -8. Proof. unfold fz. litv. Qed.
Lemma fz40 : is_finite (fz 40) = true /\ B2R (fz 40) = 40. Proof. unfold fz. litv. Qed.
Lemma fz35 : is_finite (fz 35) = true /\ B2R (fz 35) = 35. Proof. unfold fz. litv. Qed.
Lemma fzm35 : is_finite (fz (-35)) = true /\ B2R (fz (-35)) = -35. Proof. unfold fz. litv. Qed.
Lemma fzm1 : is_finite (fz (-1)) = true /\ B2R (fz (-1)) = -1. Proof. unfold fz. litv. Qed.
Lemma fhalf_v : is_finite fhalf = true /\ B2R fhalf = / 2. Proof. unfold fhalf. litv. Qed.
Lemma fpi_v : is_finite fpi = true /\ B2R fpi = 884279719003555 / 281474976710656. Proof. unfold fpi. litv. Qed.
Lemma fmtZ (x : f64) z : is_finite x = true /\ B2R x = z -> fmt z.
Proof. intros (_ & <-). apply fmt_B2R. Qed.
Lemma rnd_between a b r : fmt a -> fmt b -> a <= r <= b -> a <= rnd r <= b.
Proof.
  intros Fa Fb H. split; [apply Rle_trans with (rnd a); [rewrite (rnd_id a Fa); lra|apply rnd_mono; lra]|].
  apply Rle_trans with (rnd b); [apply rnd_mono; lra|rewrite (rnd_id b Fb); lra].
Qed.
Lemma fsq2_v : is_finite fsq2 = true /\ 1 <= B2R fsq2 <= 2.
Proof.
  unfold fsq2. pose proof (Bsqrt_correct 53 1024 prec53 emax1024 mode_NE (fz 2)) as (C1 & C2 & _).
  cbn [round_mode] in C1. split; [rewrite C2; reflexivity|]. rewrite C1, (proj2 fz2).
  apply rnd_between; [exact (fmtZ _ _ fz1)|exact (fmtZ _ _ fz2)|].
  split; [rewrite <- sqrt_1; apply sqrt_le_1_alt; lra|].
  replace 2 with (sqrt (2 * 2)) at 2 by (apply sqrt_square; lra). apply sqrt_le_1_alt. lra.
Qed.
Lemma fsqpi_v : is_finite fsqpi = true /\ 1 <= B2R fsqpi <= 2.
Proof.
  unfold fsqpi. pose proof (Bsqrt_correct 53 1024 prec53 emax1024 mode_NE fpi) as (C1 & C2 & _).
  cbn [round_mode] in C1. split; [rewrite C2; vm_compute; reflexivity|]. rewrite C1, (proj2 fpi_v).
  apply rnd_between; [exact (fmtZ _ _ fz1)|exact (fmtZ _ _ fz2)|].
  split; [rewrite <- sqrt_1; apply sqrt_le_1_alt; lra|].
  replace 2 with (sqrt (2 * 2)) by (apply sqrt_square; lra). apply sqrt_le_1_alt. lra.
Qed.

(** ** Operations that stay within an interval *)
(** A result rounded from a value between two finite doubles is finite and between them. *)
Lemma between (z a b : f64) r : is_finite a = true -> is_finite b = true -> nn z -> ext z = clamp (rnd r) ->
  B2R a <= r <= B2R b -> is_finite z = true /\ B2R a <= B2R z <= B2R b /\ B2R z = rnd r.
Proof.
  intros Fa Fb N E H. pose proof (fin_lt a Fa). pose proof (fin_lt b Fb).
  assert (R1 : B2R a <= rnd r) by (rewrite <- (rnd_id _ (fmt_B2R a)); apply rnd_mono; lra).
  assert (R2 : rnd r <= B2R b) by (rewrite <- (rnd_id _ (fmt_B2R b)); apply rnd_mono; lra).
  rewrite clamp_in in E by lra. assert (F : is_finite z = true) by (apply (fin_iff z N); lra).
  rewrite <- (fin_ext z F), E. repeat split; assumption.
Qed.
(** with rational bounds that are representable *)
Definition rep (a : R) : Prop := exists x : f64, is_finite x = true /\ B2R x = a.
Lemma rep_B2R (x : f64) : is_finite x = true -> rep (B2R x). Proof. exists x. auto. Qed.
Lemma rep_opp a : rep a -> rep (- a).
Proof. intros (x & F & E). exists (Bopp x). split; [rewrite fin_opp; exact F|rewrite B2R_Bopp, E; reflexivity]. Qed.
Lemma rep0 : rep 0. Proof. exists (fz 0). apply fz0. Qed.
Lemma rep1 : rep 1. Proof. exists (fz 1). apply fz1. Qed.
Lemma rep2 : rep 2. Proof. exists (fz 2). apply fz2. Qed.
Lemma reph : rep (/ 2). Proof. exists fhalf. apply fhalf_v. Qed.
Lemma repz z : (exists m e, B2SF (flit z 1) = SpecFloat.S754_finite (Z.ltb z 0) m e /\ F2R (Float radix2 (cond_Zopp (Z.ltb z 0) (Zpos m)) e) = IZR z) -> rep (IZR z).
Proof. intros (m & e & H & K). exists (flit z 1). rewrite <- K. eapply lit_val. exact H. Qed.
Ltac repv := apply repz; eexists; eexists; split; [vm_compute; reflexivity|unfold F2R; cbn; lra].
Lemma rep_rnd z a b r : rep a -> rep b -> nn z -> ext z = clamp (rnd r) -> a <= r <= b ->
  is_finite z = true /\ a <= B2R z <= b /\ B2R z = rnd r.
Proof. intros (x & Fx & <-) (y & Fy & <-). apply between; assumption. Qed.
Lemma add_in (x y : f64) a b : is_finite x = true -> is_finite y = true -> rep a -> rep b -> a <= B2R x + B2R y <= b ->
  is_finite (fadd x y) = true /\ a <= B2R (fadd x y) <= b /\ B2R (fadd x y) = rnd (B2R x + B2R y).
Proof. intros Fx Fy Ra Rb H. destruct (ext_add x y Fx Fy) as [N E]. apply (rep_rnd _ _ _ _ Ra Rb N E H). Qed.
Lemma sub_in (x y : f64) a b : is_finite x = true -> is_finite y = true -> rep a -> rep b -> a <= B2R x - B2R y <= b ->
  is_finite (fsub x y) = true /\ a <= B2R (fsub x y) <= b /\ B2R (fsub x y) = rnd (B2R x - B2R y).
Proof.
  intros Fx Fy Ra Rb H. rewrite fsub_add. assert (E : B2R (Bopp y) = - B2R y) by apply B2R_Bopp.
  destruct (add_in x (Bopp y) a b Fx) as (K1 & K2 & K3); [rewrite fin_opp; exact Fy|exact Ra|exact Rb|rewrite E; lra|].
  split; [exact K1|]. split; [exact K2|]. rewrite K3, E. reflexivity.
Qed.
Lemma mul_in (x y : f64) a b : is_finite x = true -> is_finite y = true -> rep a -> rep b -> a <= B2R x * B2R y <= b ->
  is_finite (fmul x y) = true /\ a <= B2R (fmul x y) <= b /\ B2R (fmul x y) = rnd (B2R x * B2R y).
Proof. intros Fx Fy Ra Rb H. destruct (ext_mul x y Fx Fy) as [N E]. apply (rep_rnd _ _ _ _ Ra Rb N E H). Qed.
Lemma div_in (x y : f64) a b : is_finite x = true -> is_finite y = true -> B2R y <> 0 -> rep a -> rep b -> a <= B2R x / B2R y <= b ->
  is_finite (fdiv x y) = true /\ a <= B2R (fdiv x y) <= b /\ B2R (fdiv x y) = rnd (B2R x / B2R y).
Proof. intros Fx Fy N0 Ra Rb H. destruct (ext_div x y Fx Fy N0) as [N E]. apply (rep_rnd _ _ _ _ Ra Rb N E H). Qed.

(** Maximal occupation: a finite number, not tiny (it is 1 or 2 in the code). *)
Definition mo_ok (mo : f64) : Prop := is_finite mo = true /\ bp (-1000) <= B2R mo.
Lemma mo_pos mo : mo_ok mo -> 0 < B2R mo.
Proof. intros [_ H]. pose proof (bpow_gt_0 radix2 (-1000)). lra. Qed.
Lemma fmt_half x : fmt x -> bp (-1000) <= x -> fmt (x / 2).
Proof.
  intros F H. replace (x / 2) with (x * bp (-1)) by (change (bp (-1)) with (/ 2); lra).
  assert (M : (-1000 < mag radix2 x)%Z).
  { apply mag_gt_bpow. rewrite Rabs_pos_eq; [exact H|]. pose proof (bpow_gt_0 radix2 (-1000)). lra. }
  change (generic_format radix2 (FLT_exp (-1074) 53) (x * bp (-1))).
  apply (generic_format_FLT radix2 (-1074) 53). apply FLT_format_generic in F; [|reflexivity].
  destruct F as [[m e] E1 E2 E3]. cbn in E2, E3.
  destruct (Z_le_dec (-1073) e) as [L|L].
  - exists (Float radix2 m (e - 1)); [|exact E2|cbn; lia]. rewrite E1. unfold F2R. cbn [Fnum Fexp]. replace (e - 1)%Z with (e + -1)%Z by lia. rewrite bpow_plus. ring.
  - assert (e = -1074)%Z by lia. subst e. exfalso.
    assert (Q : x < bp (-1000)); [|lra]. rewrite E1. unfold F2R. cbn [Fnum Fexp].
    apply Rlt_le_trans with (bp 53 * bp (-1074)).
    + apply Rmult_lt_compat_r; [apply bpow_gt_0|]. rewrite <- IZR_Zpower by lia. apply IZR_lt.
      change (Zpower radix2 53) with 9007199254740992%Z. change (Z.pow radix2 53) with 9007199254740992%Z in E2. lia.
    + rewrite <- bpow_plus. apply bpow_le. lia.
Qed.
Lemma half_mo mo : mo_ok mo -> is_finite (fdiv mo (fz 2)) = true /\ B2R (fdiv mo (fz 2)) = B2R mo / 2.
Proof.
  intros K. pose proof (mo_pos mo K) as P. destruct K as [F H]. destruct fz2 as [F2 E2].
  destruct (div_in mo (fz 2) 0 (B2R mo) F F2) as (A & B & C); [lra|apply rep0|apply rep_B2R; exact F|rewrite E2; lra|].
  split; [exact A|]. rewrite C, E2. apply rnd_id. apply fmt_half; [apply fmt_B2R|exact H].
Qed.
