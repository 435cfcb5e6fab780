(** Range and monotonicity of the occupations in binary64. *)
From Coq Require Import ZArith Reals Lra Lia Bool List.
From Flocq Require Import Core.Core IEEE754.BinarySingleNaN.
From Verif Require Import Arith Float64 FloatMono Occupation Smearing SmearFloat.
Import ListNotations.
Local Open Scope R_scope.
Local Notation bp := (bpow radix2).

Lemma mono_ext e : fmonotone e -> forall x y, nn x -> nn y -> ext x <= ext y -> nn (e x) /\ nn (e y) /\ ext (e x) <= ext (e y).
Proof.
  intros M x y Nx Ny H. apply (leb_ext x y Nx Ny) in H. apply M in H. destruct (leb_nn _ _ H) as [A B].
  split; [exact A|]. split; [exact B|]. apply leb_ext; assumption.
Qed.
(** The finite argument of a middle branch. *)
Lemma middle (x a b : f64) : nn x -> is_finite a = true -> is_finite b = true -> Bltb x a = false -> Bltb b x = false ->
  is_finite x = true /\ B2R a <= B2R x <= B2R b.
Proof.
  intros N Fa Fb H1 H2. apply (ltb_ext_f x a N (fin_nn a Fa)) in H1. apply (ltb_ext_f b x (fin_nn b Fb) N) in H2.
  rewrite (fin_ext a Fa) in H1. rewrite (fin_ext b Fb) in H2. pose proof (fin_lt a Fa). pose proof (fin_lt b Fb).
  assert (F : is_finite x = true) by (apply (fin_iff x N); lra). rewrite (fin_ext x F) in *. repeat split; assumption || lra.
Qed.

Section Occ.
  Context (L : libm) (Hexp : exp_range (lexp L)) (Herf : erf_range (lerf L)).
  Context (mo : f64) (Hmo : mo_ok mo).
  Let m := B2R mo.
  Lemma m_pos : 0 < m. Proof. apply mo_pos. exact Hmo. Qed.
  Let Fm : is_finite mo = true := proj1 Hmo.

  (** ** Fermi-Dirac *)
  Lemma fd_den x : nn x -> nn (fadd (fz 1) (lexp L x)) /\ 1 <= ext (fadd (fz 1) (lexp L x)).
  Proof.
    intros N. destruct (Hexp x N) as (K1 & K2 & _). destruct fz1 as [F1 E1]. destruct fz0 as [F0 E0].
    assert (N1 : nn (fadd (fz 1) (lexp L x))) by (apply fadd_nn; assumption). split; [exact N1|].
    apply Rle_trans with (ext (fadd (fz 1) (fz 0))).
    - destruct (add_in (fz 1) (fz 0) 1 1 F1 F0 rep1 rep1) as (A & B & _); [rewrite E1, E0; lra|]. rewrite (fin_ext _ A). lra.
    - apply fadd_mono; try assumption; try (apply fin_nn; assumption); try lra.
  Qed.
  Lemma fd_mid x : nn x ->
    is_finite (fsub mo (fdiv mo (fadd (fz 1) (lexp L x)))) = true /\ 0 <= B2R (fsub mo (fdiv mo (fadd (fz 1) (lexp L x)))) <= m /\
    B2R (fsub mo (fdiv mo (fadd (fz 1) (lexp L x)))) = rnd (m - B2R (fdiv mo (fadd (fz 1) (lexp L x)))).
  Proof.
    intros N. destruct (fd_den x N) as [N1 D1]. pose proof m_pos as P.
    destruct (fdiv_den mo _ Fm (Rlt_le _ _ P) N1 D1) as [Fq Hq].
    apply sub_in; try assumption; [apply rep0|apply rep_B2R; exact Fm|fold m in Hq; fold m; lra].
  Qed.
  Lemma fd_range x : nn x -> is_finite (fd_fnF L x mo) = true /\ 0 <= B2R (fd_fnF L x mo) <= m.
  Proof.
    intros N. pose proof m_pos as P. unfold fd_fnF.
    destruct (Bltb x (fz (-35))) eqn:C1; [destruct fz0 as [F0 E0]; rewrite E0; split; [exact F0|lra]|].
    destruct (Bltb (fz 40) x) eqn:C2; [split; [exact Fm|fold m; lra]|].
    destruct (fd_mid x N) as (A & B & _). auto.
  Qed.
  Lemma fd_mono : fmonotone (lexp L) -> forall x y, nn x -> nn y -> ext x <= ext y -> B2R (fd_fnF L x mo) <= B2R (fd_fnF L y mo).
  Proof.
    intros M x y Nx Ny H. destruct (fd_range x Nx) as (Fx & Rx). destruct (fd_range y Ny) as (Fy & Ry).
    destruct fz0 as [F0 E0]. destruct fz40 as [F40 E40]. destruct fzm35 as [F35 E35].
    unfold fd_fnF in *.
    destruct (Bltb x (fz (-35))) eqn:C1; [rewrite E0; lra|].
    destruct (Bltb (fz 40) y) eqn:C4.
    { destruct (Bltb y (fz (-35))) eqn:C3; [|fold m; lra].
      apply (ltb_ext _ _ Ny (fin_nn _ F35)) in C3. apply (ltb_ext _ _ (fin_nn _ F40) Ny) in C4.
      rewrite (fin_ext _ F35), E35 in C3. rewrite (fin_ext _ F40), E40 in C4. lra. }
    apply (ltb_ext_f _ _ Nx (fin_nn _ F35)) in C1. apply (ltb_ext_f _ _ (fin_nn _ F40) Ny) in C4.
    assert (C3 : Bltb y (fz (-35)) = false) by (apply (ltb_ext_f _ _ Ny (fin_nn _ F35)); lra).
    assert (C2 : Bltb (fz 40) x = false) by (apply (ltb_ext_f _ _ (fin_nn _ F40) Nx); lra).
    rewrite C2, C3 in *. destruct (fd_mid x Nx) as (_ & _ & ->). destruct (fd_mid y Ny) as (_ & _ & ->).
    apply rnd_mono. destruct (fd_den x Nx) as [N1 D1]. destruct (fd_den y Ny) as [N2 D2]. pose proof m_pos as P.
    assert (Q : B2R (fdiv mo (fadd (fz 1) (lexp L y))) <= B2R (fdiv mo (fadd (fz 1) (lexp L x)))); [|lra].
    apply fdiv_anti; try assumption; [fold m; lra|]. destruct fz1 as [F1 E1].
    destruct (mono_ext _ M x y Nx Ny H) as (K1 & K2 & K3). apply fadd_mono; try assumption; try (apply fin_nn; assumption). lra.
  Qed.

  (** ** Gauss *)
  Lemma gauss_mid x : nn x -> is_finite (fadd (fz 1) (lerf L x)) = true /\ 0 <= B2R (fadd (fz 1) (lerf L x)) <= 2 /\
    B2R (fadd (fz 1) (lerf L x)) = rnd (1 + B2R (lerf L x)).
  Proof.
    intros N. destruct (Herf x N) as (K1 & K2). destruct fz1 as [F1 E1].
    assert (F : is_finite (lerf L x) = true).
    { apply (fin_iff _ K1). assert (1 < BIG) by (rewrite <- BIG_eq; change 1 with (bp 0); apply bpow_lt; lia). lra. }
    rewrite (fin_ext _ F) in K2. rewrite <- E1. apply add_in; try assumption; [apply rep0|apply rep2|lra].
  Qed.
  Lemma gauss_range x : nn x -> is_finite (gauss_fnF L x mo) = true /\ 0 <= B2R (gauss_fnF L x mo) <= m /\
    B2R (gauss_fnF L x mo) = rnd (m / 2 * rnd (1 + B2R (lerf L x))).
  Proof.
    intros N. destruct (gauss_mid x N) as (A & B & C). destruct (half_mo mo Hmo) as (D & E). fold m in E. pose proof m_pos as P.
    unfold gauss_fnF. rewrite <- C, <- E. apply mul_in; try assumption; [apply rep0|apply rep_B2R; exact Fm|]. rewrite E. fold m. nra.
  Qed.
  Lemma gauss_mono : fmonotone (lerf L) -> forall x y, nn x -> nn y -> ext x <= ext y -> B2R (gauss_fnF L x mo) <= B2R (gauss_fnF L y mo).
  Proof.
    intros M x y Nx Ny H. destruct (gauss_range x Nx) as (_ & _ & ->). destruct (gauss_range y Ny) as (_ & _ & ->).
    pose proof m_pos as P. apply rnd_mono. apply Rmult_le_compat_l; [lra|]. apply rnd_mono.
    destruct (mono_ext _ M x y Nx Ny H) as (K1 & K2 & K3). destruct (Herf x Nx) as (_ & Kx). destruct (Herf y Ny) as (_ & Ky).
    assert (1 < BIG) by (rewrite <- BIG_eq; change 1 with (bp 0); apply bpow_lt; lia).
    rewrite !fin_ext in K3 by (apply fin_iff; [assumption|lra]). lra.
  Qed.

  (** ** Gaussian spline *)
  (** the exponent for -8 <= x <= 0 *)
  Lemma gs_neg x : is_finite x = true -> -8 <= B2R x <= 0 ->
    is_finite (fmul x (fsub fsq2 x)) = true /\ -128 <= B2R (fmul x (fsub fsq2 x)) <= 0 /\
    B2R (fmul x (fsub fsq2 x)) = rnd (B2R x * rnd (B2R fsq2 - B2R x)) /\ 0 <= rnd (B2R fsq2 - B2R x) <= 16.
  Proof.
    intros F H. destruct fsq2_v as [Fs Es].
    assert (R16 : rep 16) by repv. assert (R128 : rep (-128)) by repv.
    destruct (sub_in fsq2 x 0 16 Fs F rep0 R16) as (A & B & C); [lra|].
    destruct (mul_in x (fsub fsq2 x) (-128) 0 F A R128 rep0) as (A2 & B2 & C2); [nra|].
    rewrite <- C. repeat split; try assumption; try lra.
  Qed.
  Lemma gs_negv x : is_finite x = true -> -8 <= B2R x <= 0 ->
    let v := fmul (fdiv mo (fz 2)) (lexp L (fmul x (fsub fsq2 x))) in
    is_finite v = true /\ 0 <= B2R v <= m / 2 /\ B2R v = rnd (m / 2 * B2R (lexp L (fmul x (fsub fsq2 x)))) /\
    is_finite (lexp L (fmul x (fsub fsq2 x))) = true.
  Proof.
    intros F H v. destruct (gs_neg x F H) as (A & B & _). destruct (half_mo mo Hmo) as (D & E). fold m in E. pose proof m_pos as P.
    destruct (Hexp _ (fin_nn _ A)) as (K1 & K2 & K3). rewrite (fin_ext _ A) in K3. specialize (K3 (proj2 B)).
    assert (1 < BIG) by (rewrite <- BIG_eq; change 1 with (bp 0); apply bpow_lt; lia).
    assert (Fe : is_finite (lexp L (fmul x (fsub fsq2 x))) = true) by (apply (fin_iff _ K1); lra).
    rewrite (fin_ext _ Fe) in *. rewrite <- E. unfold v.
    destruct (mul_in _ _ 0 (m / 2) D Fe) as (A2 & B2 & C2); [apply rep0|rewrite <- E; apply rep_B2R; exact D|rewrite E; nra|].
    rewrite E in *. auto.
  Qed.
  Lemma gs_pos x : is_finite x = true -> 0 <= B2R x <= 8 ->
    is_finite (fmul (Bopp x) (fadd fsq2 x)) = true /\ -128 <= B2R (fmul (Bopp x) (fadd fsq2 x)) <= 0 /\
    B2R (fmul (Bopp x) (fadd fsq2 x)) = rnd (- B2R x * rnd (B2R fsq2 + B2R x)) /\ 0 <= rnd (B2R fsq2 + B2R x) <= 16.
  Proof.
    intros F H. destruct fsq2_v as [Fs Es].
    assert (R16 : rep 16) by repv. assert (R128 : rep (-128)) by repv.
    destruct (add_in fsq2 x 0 16 Fs F rep0 R16) as (A & B & C); [lra|].
    assert (Eo : B2R (Bopp x) = - B2R x) by apply B2R_Bopp.
    destruct (mul_in (Bopp x) (fadd fsq2 x) (-128) 0) as (A2 & B2 & C2); [rewrite fin_opp; exact F|exact A|exact R128|exact rep0|rewrite Eo; nra|].
    rewrite Eo in C2. rewrite <- C. repeat split; try assumption; try lra.
  Qed.
  Lemma gs_posv x : is_finite x = true -> 0 <= B2R x <= 8 ->
    let w := lexp L (fmul (Bopp x) (fadd fsq2 x)) in
    let v := fmul mo (fsub (fz 1) (fmul fhalf w)) in
    is_finite v = true /\ m / 2 <= B2R v <= m /\ B2R v = rnd (m * rnd (1 - rnd (/ 2 * B2R w))) /\ is_finite w = true.
  Proof.
    intros F H w v. destruct (gs_pos x F H) as (A & B & _). pose proof m_pos as P.
    destruct (Hexp _ (fin_nn _ A)) as (K1 & K2 & K3). rewrite (fin_ext _ A) in K3. specialize (K3 (proj2 B)).
    assert (1 < BIG) by (rewrite <- BIG_eq; change 1 with (bp 0); apply bpow_lt; lia). fold w in K1, K2, K3.
    assert (Fe : is_finite w = true) by (apply (fin_iff _ K1); lra). rewrite (fin_ext _ Fe) in *.
    destruct fhalf_v as [Fh Eh]. destruct fz1 as [F1 E1]. destruct (half_mo mo Hmo) as (D & E). fold m in E.
    destruct (mul_in fhalf w 0 (/ 2) Fh Fe rep0 reph) as (A1 & B1 & C1); [rewrite Eh; lra|].
    destruct (sub_in (fz 1) (fmul fhalf w) (/ 2) 1 F1 A1 reph rep1) as (A2 & B2 & C2); [rewrite E1; lra|].
    destruct (mul_in mo (fsub (fz 1) (fmul fhalf w)) (m / 2) m Fm A2) as (A3 & B3 & C3);
      [rewrite <- E; apply rep_B2R; exact D|apply rep_B2R; exact Fm|fold m; nra|].
    unfold v. fold m in C3. rewrite C3, C2, C1, Eh, E1 in *. repeat split; try assumption; lra.
  Qed.
  (** Case distinction of gaussian_spline::fn. *)
  Lemma gs_cases x : nn x ->
    (ext x < -8 /\ gs_fnF L x mo = fz 0) \/
    (is_finite x = true /\ -8 <= B2R x <= 0 /\ gs_fnF L x mo = fmul (fdiv mo (fz 2)) (lexp L (fmul x (fsub fsq2 x)))) \/
    (is_finite x = true /\ 0 < B2R x <= 8 /\ gs_fnF L x mo = fmul mo (fsub (fz 1) (fmul fhalf (lexp L (fmul (Bopp x) (fadd fsq2 x)))))) \/
    (8 < ext x /\ gs_fnF L x mo = mo).
  Proof.
    intros N. destruct fz8 as [F8 E8]. destruct fzm8 as [G8 H8]. destruct fz0 as [F0 E0]. unfold gs_fnF.
    destruct (Bltb (fz 8) x) eqn:C1.
    { right. right. right. split; [|reflexivity]. apply (ltb_ext _ _ (fin_nn _ F8) N) in C1. rewrite (fin_ext _ F8), E8 in C1. exact C1. }
    destruct (Bltb x (fz (-8))) eqn:C2.
    { left. split; [|reflexivity]. apply (ltb_ext _ _ N (fin_nn _ G8)) in C2. rewrite (fin_ext _ G8), H8 in C2. exact C2. }
    destruct (middle x _ _ N G8 F8 C2 C1) as (F & R). rewrite E8, H8 in R.
    destruct (Bleb x (fz 0)) eqn:C3.
    - apply (leb_ext _ _ N (fin_nn _ F0)) in C3. rewrite (fin_ext _ F), (fin_ext _ F0), E0 in C3.
      right. left. repeat split; assumption || lra.
    - right. right. left. split; [exact F|]. split; [|reflexivity]. split; [|lra].
      destruct (Rlt_dec 0 (B2R x)) as [|Q]; [assumption|]. exfalso. apply Rnot_lt_le in Q.
      assert (Z : Bleb x (fz 0) = true) by (apply (leb_ext _ _ N (fin_nn _ F0)); rewrite (fin_ext _ F), (fin_ext _ F0), E0; exact Q). congruence.
  Qed.
  Lemma gs_range x : nn x -> is_finite (gs_fnF L x mo) = true /\ 0 <= B2R (gs_fnF L x mo) <= m.
  Proof.
    intros N. pose proof m_pos as P. destruct (gs_cases x N) as [(_ & E)|[(F & H & E)|[(F & H & E)|(_ & E)]]]; rewrite E.
    - destruct fz0 as [F0 E0]. rewrite E0. split; [exact F0|lra].
    - destruct (gs_negv x F H) as (A & B & _). split; [exact A|lra].
    - destruct (gs_posv x F ltac:(lra)) as (A & B & _). split; [exact A|lra].
    - split; [exact Fm|fold m; lra].
  Qed.
  Lemma gs_mono : fmonotone (lexp L) -> forall x y, nn x -> nn y -> ext x <= ext y -> B2R (gs_fnF L x mo) <= B2R (gs_fnF L y mo).
  Proof.
    intros M x y Nx Ny H. pose proof m_pos as P. destruct (gs_range x Nx) as (_ & Rx). destruct (gs_range y Ny) as (_ & Ry).
    destruct fsq2_v as [Fs Es].
    destruct (gs_cases x Nx) as [(Hx & Ex)|[(Fx & Hx & Ex)|[(Fx & Hx & Ex)|(Hx & Ex)]]];
    destruct (gs_cases y Ny) as [(Hy & Ey)|[(Fy & Hy & Ey)|[(Fy & Hy & Ey)|(Hy & Ey)]]];
    try (rewrite Ex, (proj2 fz0); lra); try (rewrite Ey; fold m; lra);
    try (rewrite (fin_ext x Fx) in H); try (rewrite (fin_ext y Fy) in H); try lra.
    - rewrite Ex, Ey. destruct (gs_negv x Fx Hx) as (_ & _ & -> & G1). destruct (gs_negv y Fy Hy) as (_ & _ & -> & G2).
      destruct (gs_neg x Fx Hx) as (A1 & B1 & C1 & D1). destruct (gs_neg y Fy Hy) as (A2 & B2 & C2 & D2).
      apply rnd_mono. apply Rmult_le_compat_l; [lra|].
      rewrite <- (fin_ext _ G1), <- (fin_ext _ G2).
      apply (mono_ext _ M); try (apply fin_nn; assumption). rewrite (fin_ext _ A1), (fin_ext _ A2), C1, C2. apply rnd_mono.
      assert (rnd (B2R fsq2 - B2R y) <= rnd (B2R fsq2 - B2R x)) by (apply rnd_mono; lra). nra.
    - rewrite Ex, Ey. destruct (gs_negv x Fx Hx) as (_ & Q1 & _). destruct (gs_posv y Fy ltac:(lra)) as (_ & Q2 & _). lra.
    - rewrite Ex, Ey. destruct (gs_posv x Fx ltac:(lra)) as (_ & _ & -> & G1). destruct (gs_posv y Fy ltac:(lra)) as (_ & _ & -> & G2).
      destruct (gs_pos x Fx ltac:(lra)) as (A1 & B1 & C1 & D1). destruct (gs_pos y Fy ltac:(lra)) as (A2 & B2 & C2 & D2).
      apply rnd_mono. apply Rmult_le_compat_l; [lra|]. apply rnd_mono. apply Rplus_le_compat_l, Ropp_le_contravar. apply rnd_mono.
      apply Rmult_le_compat_l; [lra|]. rewrite <- (fin_ext _ G1), <- (fin_ext _ G2).
      apply (mono_ext _ M); try (apply fin_nn; assumption). rewrite (fin_ext _ A1), (fin_ext _ A2), C1, C2. apply rnd_mono.
      assert (rnd (B2R fsq2 + B2R x) <= rnd (B2R fsq2 + B2R y)) by (apply rnd_mono; lra). nra.
  Qed.

  (** ** Widths of the occupied step: delta is finite and not negative *)
  Lemma fd_delta_range : exp_ge1 (lexp L) -> forall x, nn x ->
    is_finite (fd_deltaF L x mo) = true /\ 0 <= B2R (fd_deltaF L x mo) <= m.
  Proof.
    intros G x N. pose proof m_pos as P. unfold fd_deltaF. destruct fz35 as [F35 E35]. destruct fz0 as [F0 E0]. destruct fz2 as [F2 E2].
    destruct (Bltb (fz 35) (Babs x)) eqn:C; [split; [exact F0|rewrite E0; lra]|]. cbv zeta.
    assert (F : is_finite x = true).
    { apply (fin_iff x N). apply (ltb_ext_f _ _ (fin_nn _ F35)) in C; [|apply nn_abs; exact N].
      rewrite ext_abs, (fin_ext _ F35), E35 in C. apply Rabs_le_inv in C.
      assert (35 < BIG). { apply Rlt_trans with (bp 6); [cbn; lra|rewrite <- BIG_eq; apply bpow_lt; lia]. } lra. }
    set (a := fdiv (Bopp x) (fz 2)). set (b := fdiv x (fz 2)).
    assert (Na : nn a) by (apply fdiv_num; [apply nn_opp; exact N|exact F2|lra]).
    assert (Nb : nn b) by (apply fdiv_num; [exact N|exact F2|lra]).
    destruct (Hexp a Na) as (Ka & Pa & _). destruct (Hexp b Nb) as (Kb & Pb & _).
    assert (Q : 1 <= ext (lexp L a) \/ 1 <= ext (lexp L b)).
    { assert (Fo : is_finite (Bopp x) = true) by (rewrite fin_opp; exact F).
      assert (Eo : B2R (Bopp x) = - B2R x) by apply B2R_Bopp.
      destruct (ext_div (Bopp x) (fz 2) Fo F2 ltac:(lra)) as [_ Xa]. destruct (ext_div x (fz 2) F F2 ltac:(lra)) as [_ Xb].
      fold a in Xa. fold b in Xb. rewrite Eo, E2 in Xa. rewrite E2 in Xb.
      assert (Z : clamp 0 = 0) by (apply clamp_in; pose proof big_pos; lra).
      destruct (Rle_dec (B2R x) 0) as [S|S]; [left|right]; apply G; try assumption.
      - rewrite Xa, <- Z. apply clamp_mono, rnd_pos. lra.
      - rewrite Xb, <- Z. apply clamp_mono, rnd_pos. lra. }
    (* denom >= 1, possibly infinite *)
    assert (A : forall u v : f64, nn u -> nn v -> 0 <= ext u -> 0 <= ext v -> nn (fadd u v)).
    { intros u v Nu Nv Pu Pv. destruct (inf_case u Nu) as [-> |[-> |Fu]]; [|cbn in Pu; pose proof big_pos; lra|apply fadd_nn; assumption].
      destruct (inf_case v Nv) as [-> |[-> |Fv]]; [reflexivity|cbn in Pv; pose proof big_pos; lra|apply fadd_nn_r; [reflexivity|exact Fv]]. }
    assert (Nd : nn (fadd (lexp L a) (lexp L b))) by (apply A; assumption).
    destruct fz1 as [F1 E1].
    assert (D : 1 <= ext (fadd (lexp L a) (lexp L b))).
    { destruct (add_in (fz 1) (fz 0) 1 1 F1 F0 rep1 rep1) as (A1 & B1 & _); [rewrite E1, E0; lra|].
      destruct (add_in (fz 0) (fz 1) 1 1 F0 F1 rep1 rep1) as (A2 & B2 & _); [rewrite E1, E0; lra|].
      destruct Q as [Q|Q].
      - apply Rle_trans with (ext (fadd (fz 1) (fz 0))); [rewrite (fin_ext _ A1); lra|].
        apply fadd_mono; try assumption; try (apply fin_nn; assumption); rewrite fin_ext by assumption; lra.
      - apply Rle_trans with (ext (fadd (fz 0) (fz 1))); [rewrite (fin_ext _ A2); lra|].
        apply fadd_mono; try assumption; try (apply fin_nn; assumption); rewrite fin_ext by assumption; lra. }
    set (d := fadd (lexp L a) (lexp L b)) in *.
    assert (Dd : nn (fmul d d) /\ 1 <= ext (fmul d d)).
    { destruct (inf_case d Nd) as [E|[E|Fd]].
      - rewrite E. split; [reflexivity|]. rewrite E in D. exact D.
      - rewrite E in D. cbn in D. pose proof big_pos. lra.
      - destruct (ext_mul d d Fd Fd) as [K1 K2]. split; [exact K1|]. rewrite K2. rewrite (fin_ext _ Fd) in D.
        assert (1 < BIG) by (rewrite <- BIG_eq; change 1 with (bp 0); apply bpow_lt; lia).
        rewrite <- (clamp_in 1) at 1 by lra. apply clamp_mono. rewrite <- (rnd_id 1 (fmtZ _ _ fz1)) at 1. apply rnd_mono. nra. }
    apply fdiv_den; try assumption; try apply Dd. fold m. lra.
  Qed.
  (** exp of a non-positive number: finite, between 0 and 1 *)
  Lemma exp_unit z : nn z -> ext z <= 0 -> is_finite (lexp L z) = true /\ 0 <= B2R (lexp L z) <= 1.
  Proof.
    intros N H. destruct (Hexp z N) as (K1 & K2 & K3). specialize (K3 H).
    assert (1 < BIG) by (rewrite <- BIG_eq; change 1 with (bp 0); apply bpow_lt; lia).
    assert (F : is_finite (lexp L z) = true) by (apply (fin_iff _ K1); lra). rewrite (fin_ext _ F) in *. auto.
  Qed.
  Lemma neg_square x : nn x -> nn (fmul (Bopp x) x) /\ ext (fmul (Bopp x) x) <= 0.
  Proof.
    intros N. destruct (inf_case x N) as [-> |[-> |F]].
    - cbn. pose proof big_pos. split; [reflexivity|lra].
    - cbn. pose proof big_pos. split; [reflexivity|lra].
    - assert (Fo : is_finite (Bopp x) = true) by (rewrite fin_opp; exact F). assert (Eo : B2R (Bopp x) = - B2R x) by apply B2R_Bopp.
      destruct (ext_mul (Bopp x) x Fo F) as (A & B). split; [exact A|]. rewrite B, Eo.
      rewrite <- (clamp_in 0) by (pose proof big_pos; lra). apply clamp_mono, rnd_neg. nra.
  Qed.
  Lemma gauss_delta_range x : nn x -> is_finite (gauss_deltaF L x mo) = true /\ 0 <= B2R (gauss_deltaF L x mo) <= m.
  Proof.
    intros N. pose proof m_pos as P. destruct (neg_square x N) as (A & B). destruct (exp_unit _ A B) as (F & R).
    destruct fsqpi_v as (Fp & Rp). unfold gauss_deltaF.
    destruct (mul_in mo _ 0 m Fm F rep0) as (A1 & B1 & _); [apply rep_B2R; exact Fm|fold m; nra|].
    destruct (fdiv_den (fmul mo (lexp L (fmul (Bopp x) x))) fsqpi A1 (proj1 B1) (fin_nn _ Fp)) as (A2 & B2); [rewrite (fin_ext _ Fp); lra|].
    split; [exact A2|lra].
  Qed.
  Lemma gs_delta_range x : B2R mo <= bp 1000 -> nn x -> is_finite (gs_deltaF L x mo) = true /\ 0 <= B2R (gs_deltaF L x mo).
  Proof.
    intros Hu N. pose proof m_pos as P. unfold gs_deltaF. destruct fz7 as [F7 E7]. destruct fz0 as [F0 E0].
    destruct (Bltb (fz 7) (Babs x)) eqn:C; [split; [exact F0|rewrite E0; lra]|].
    assert (FR : is_finite x = true /\ -7 <= B2R x <= 7).
    { apply (ltb_ext_f _ _ (fin_nn _ F7)) in C; [|apply nn_abs; exact N]. rewrite ext_abs, (fin_ext _ F7), E7 in C. apply Rabs_le_inv in C.
      assert (7 < BIG). { apply Rlt_trans with (bp 6); [cbn; lra|rewrite <- BIG_eq; apply bpow_lt; lia]. }
      assert (F : is_finite x = true) by (apply (fin_iff x N); lra). rewrite (fin_ext _ F) in C. auto. }
    destruct FR as (F & R). destruct fsq2_v as (Fs & Rs). destruct fz2 as (F2 & E2). destruct fhalf_v as (Fh & Eh).
    assert (R32 : rep 32) by repv. assert (R16 : rep 16) by repv. assert (Rm32 : rep (-32)) by repv.
    destruct (mul_in mo fhalf 0 m Fm Fh rep0) as (A1 & B1 & _); [apply rep_B2R; exact Fm|fold m; rewrite Eh; lra|].
    destruct (mul_in (fz 2) x (-32) 32 F2 F Rm32 R32) as (A2 & B2 & C2); [rewrite E2; lra|].
    assert (Last : forall e q : f64, is_finite e = true -> 0 <= B2R e <= 1 -> is_finite q = true -> 0 <= B2R q <= 32 ->
      is_finite (fmul (fmul (fmul mo fhalf) e) q) = true /\ 0 <= B2R (fmul (fmul (fmul mo fhalf) e) q)).
    { intros e q Fe Re Fq Rq. destruct (mul_in (fmul mo fhalf) e 0 m A1 Fe rep0) as (A3 & B3 & _); [apply rep_B2R; exact Fm|nra|].
      assert (RB : rep (bp 1010)).
      { exists (binary_normalize 53 1024 prec53 emax1024 mode_NE 1 1010 false). split; [vm_compute; reflexivity|].
        pose proof (binary_normalize_correct 53 1024 prec53 emax1024 mode_NE 1 1010 false) as K. cbn [round_mode] in K.
        replace (F2R (Float radix2 1 1010)) with (bp 1010) in K by (unfold F2R; cbn [Fnum Fexp]; ring).
        rewrite rnd_id in K by (apply generic_format_bpow; rewrite fexp64; lia).
        rewrite Rabs_pos_eq in K by apply bpow_ge_0. rewrite Rlt_bool_true in K by (apply bpow_lt; lia). apply K. }
      destruct (mul_in (fmul (fmul mo fhalf) e) q 0 (bp 1010) A3 Fq rep0 RB) as (A4 & B4 & _).
      - split; [nra|]. apply Rle_trans with (bp 1000 * bp 5); [|rewrite <- bpow_plus; apply bpow_le; lia].
        apply Rmult_le_compat; try lra. + fold m in Hu. lra. + replace (bp 5) with 32 by (cbn; lra). lra.
      - split; [exact A4|apply B4]. }
    destruct (Bleb x (fz 0)) eqn:C3.
    - apply (leb_ext _ _ N (fin_nn _ F0)) in C3. rewrite (fin_ext _ F), (fin_ext _ F0), E0 in C3.
      destruct (sub_in fsq2 x 0 16 Fs F rep0 R16) as (A3 & B3 & _); [lra|].
      assert (R512 : rep (-512)) by repv.
      destruct (mul_in (fsub fsq2 x) x (-512) 0 A3 F R512 rep0) as (A4 & B4 & _); [nra|].
      destruct (exp_unit _ (fin_nn _ A4)) as (Fe & Re); [rewrite (fin_ext _ A4); lra|].
      destruct (sub_in fsq2 (fmul (fz 2) x) 0 32 Fs A2 rep0 R32) as (A5 & B5 & _).
      { rewrite C2, E2. assert (rnd (2 * B2R x) <= 0) by (apply rnd_neg; lra).
        assert (-14 <= rnd (2 * B2R x)); [|lra]. assert (R14 : rep (-14)) by repv. destruct R14 as (y & Fy & Ey).
        rewrite <- Ey. rewrite <- (rnd_id _ (fmt_B2R y)). apply rnd_mono. rewrite Ey. lra. }
      apply Last; assumption.
    - assert (0 < B2R x).
      { destruct (Rlt_dec 0 (B2R x)) as [|Q]; [assumption|]. exfalso. apply Rnot_lt_le in Q.
        assert (Z : Bleb x (fz 0) = true) by (apply (leb_ext _ _ N (fin_nn _ F0)); rewrite (fin_ext _ F), (fin_ext _ F0), E0; exact Q). congruence. }
      destruct (gs_pos x F ltac:(lra)) as (A4 & B4 & _).
      destruct (exp_unit _ (fin_nn _ A4)) as (Fe & Re); [rewrite (fin_ext _ A4); lra|].
      destruct (add_in fsq2 (fmul (fz 2) x) 0 32 Fs A2 rep0 R32) as (A5 & B5 & _).
      { rewrite C2, E2. assert (0 <= rnd (2 * B2R x)) by (apply rnd_pos; lra).
        assert (rnd (2 * B2R x) <= 14); [|lra]. assert (R14 : rep 14) by repv. destruct R14 as (y & Fy & Ey).
        rewrite <- Ey. rewrite <- (rnd_id _ (fmt_B2R y)). apply rnd_mono. rewrite Ey. lra. }
      apply Last; assumption.
  Qed.
End Occ.
