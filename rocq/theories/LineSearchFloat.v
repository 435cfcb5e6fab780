(** The line search in binary64: both loops terminate whatever the functional reports. *)
From Coq Require Import ZArith List Bool Lia Reals Lra Psatz.
From Flocq Require Import Core.Core IEEE754.BinarySingleNaN.
From Verif Require Import Arith Float64 LineSearch LineSearchProofs.
Import ListNotations.

(** ** Facts about binary64 *)

Definition five : f64 := flit 5 1.
Definition zero64 : f64 := flit 0 1.
Definition one64 : f64 := flit 1 1.
Definition eps64 : f64 := flit 1 100000000.

Lemma five_B2R : B2R five = 5%R /\ is_finite five = true /\ Bsign five = false.
Proof.
  assert (H : B2SF five = SpecFloat.S754_finite false 5629499534213120 (-50)) by (vm_compute; reflexivity).
  split; [|split].
  - rewrite <- SF2R_B2SF, H. cbn. unfold F2R. cbn. lra.
  - rewrite <- is_finite_SF_B2SF, H. reflexivity.
  - revert H. generalize five. intros [sx|sx| |sx mx ex Hx] H; cbn in *; congruence.
Qed.

Lemma one64_B2R : B2R one64 = 1%R /\ is_finite one64 = true.
Proof.
  assert (H : B2SF one64 = SpecFloat.S754_finite false 4503599627370496 (-52)) by (vm_compute; reflexivity).
  split.
  - rewrite <- SF2R_B2SF, H. cbn. unfold F2R. cbn. lra.
  - rewrite <- is_finite_SF_B2SF, H. reflexivity.
Qed.

Lemma zero64_eq : zero64 = B754_zero false.
Proof. apply B2SF_inj. vm_compute. reflexivity. Qed.

Lemma eps64_B2R : (/ 1073741824 < B2R eps64)%R /\ is_finite eps64 = true.
Proof.
  assert (H : B2SF eps64 = SpecFloat.S754_finite false 6044629098073146 (-79)) by (vm_compute; reflexivity).
  split.
  - rewrite <- SF2R_B2SF, H. cbn. unfold F2R. cbn. lra.
  - rewrite <- is_finite_SF_B2SF, H. reflexivity.
Qed.

(** ** qline *)

(** If the squared trial step overflows the curvature estimate is never negative. *)
Lemma q_a_overflow F0 slope ts F1 s :
  fmul ts ts = B754_infinity s -> altb F64 (q_a F64 F0 slope ts F1) (alit F64 0 1) = false.
Proof.
  intros H. unfold q_a. cbn [adiv asub amul altb alit F64]. rewrite H.
  change (flit 0 1) with zero64. rewrite zero64_eq.
  destruct (fsub (fsub F1 (fmul slope ts)) F0) as [sx|sx| |sx mx ex Hx];
    try (destruct sx); destruct s; reflexivity.
Qed.

Fixpoint grow (k : nat) (t : f64) : f64 :=
  match k with O => t | S k' => grow k' (fmul t five) end.

Section QF.
  Context (St P E : Type) (getF : St -> f64) (G : f64 -> St -> (P + E) * St).

  Lemma q_loop_f64 k F0 slope t (m : lsmem (num F64) St P) s :
    fmul (grow k t) (grow k t) = B754_infinity s ->
    fst (q_loop F64 St P E getF G (S k) F0 slope t m) <> NoFuel.
  Proof.
    revert t m. induction k as [|k IH]; intros t m H.
    - cbn [q_loop]. destruct (callG F64 St P E getF G t m) as [o m1] eqn:Hc.
      pose proof (callG_not _ _ _ _ _ _ _ _ _ _ Hc) as [[p ->]|(e & -> & _)]; [|discriminate].
      rewrite (q_a_overflow _ _ _ _ s) by exact H. discriminate.
    - cbn [q_loop]. destruct (callG F64 St P E getF G t m) as [o m1] eqn:Hc.
      pose proof (callG_not _ _ _ _ _ _ _ _ _ _ Hc) as [[p ->]|(e & -> & _)]; [|discriminate].
      destruct (altb F64 _ _); [|discriminate]. apply IH. exact H.
  Qed.
End QF.

(** With the library's trial step 0.2 the square overflows after 222 growth steps. *)
Lemma grow_02 : exists s, fmul (grow 222 (flit 1 5)) (grow 222 (flit 1 5)) = B754_infinity s.
Proof.
  exists false. apply B2SF_inj. vm_compute. reflexivity.
Qed.

(** For every finite non-zero trial step it overflows after at most 794 growth steps. *)
Local Open Scope R_scope.

Lemma overflow_inf (x : f64) s : B2SF x = binary_overflow 53 1024 mode_NE s -> x = B754_infinity s.
Proof. intros H. apply B2SF_inj. rewrite H. reflexivity. Qed.

Lemma finite_lt_emax (x : f64) : Rabs (B2R x) < bpow radix2 1024.
Proof. apply abs_B2R_lt_emax. Qed.

Lemma fmul_five (t : f64) : is_finite t = true ->
  (exists s, fmul t five = B754_infinity s) \/
  (is_finite (fmul t five) = true /\ 4 * Rabs (B2R t) <= Rabs (B2R (fmul t five))).
Proof.
  intros Hf. destruct five_B2R as (H5 & F5 & _).
  pose proof (Bmult_correct 53 1024 prec53 emax1024 mode_NE t five) as H.
  fold (fmul t five) in H.
  destruct (Rlt_bool_spec (Rabs (round radix2 (SpecFloat.fexp 53 1024) (round_mode mode_NE) (B2R t * B2R five)))
                 (bpow radix2 1024)) as [Hlt|Hge].
  - destruct H as (HR & HF & _). right. rewrite Hf, F5 in HF. split; [exact HF|].
    rewrite HR, H5.
    destruct (Rle_lt_dec (bpow radix2 1024) (4 * Rabs (B2R t))) as [Hbig|Hsmall].
    + (* impossible: then the rounded product would overflow *)
      exfalso. revert Hlt. apply Rle_not_lt. rewrite H5.
      rewrite <- round_NE_abs by apply fexp64_valid.
      apply Rle_trans with (round radix2 (SpecFloat.fexp 53 1024) (round_mode mode_NE) (bpow radix2 1024)).
      * right. symmetry. apply round_generic; [apply valid_rnd_N|].
        apply generic_format_bpow. cbn. lia.
      * apply round_le; [apply fexp64_valid|apply valid_rnd_N|].
        rewrite Rabs_mult, (Rabs_pos_eq 5) by lra. pose proof (Rabs_pos (B2R t)). lra.
    + rewrite <- round_NE_abs by apply fexp64_valid.
      apply Rle_trans with (round radix2 (SpecFloat.fexp 53 1024) (round_mode mode_NE) (4 * Rabs (B2R t))).
      * right. symmetry. apply round_generic; [apply valid_rnd_N|].
        change 4 with (bpow radix2 2). rewrite Rmult_comm.
        destruct (Req_dec (B2R t) 0) as [Hz|Hnz].
        { rewrite Hz, Rabs_R0, Rmult_0_l. apply generic_format_0. }
        pose proof (generic_format_abs _ _ _ (fmt_B2R t)) as Hfm.
        apply FLT_format_generic in Hfm; [|exact prec53].
        apply generic_format_FLT. destruct Hfm as [[mm ee] H1 H2 H3]. cbn in H2, H3.
        exists (Float radix2 mm (ee + 2)); cbn.
        { rewrite H1. unfold F2R; cbn. rewrite bpow_plus. cbn. ring. }
        { exact H2. } { lia. }
      * apply round_le; [apply fexp64_valid|apply valid_rnd_N|].
        rewrite Rabs_mult, (Rabs_pos_eq 5) by lra. pose proof (Rabs_pos (B2R t)). lra.
  - left. apply overflow_inf in H. eauto.
Qed.

Lemma square_inf_inf s : fmul (B754_infinity s) (B754_infinity s) = B754_infinity false.
Proof. destruct s; reflexivity. Qed.

Lemma grow_S k t : grow (S k) t = fmul (grow k t) five.
Proof.
  revert t. induction k as [|k IH]; intros t; [reflexivity|].
  change (grow (S (S k)) t) with (grow (S k) (fmul t five)). rewrite IH. reflexivity.
Qed.

Lemma grow_cases k t : is_finite t = true ->
  (exists j s, (j <= k)%nat /\ fmul (grow j t) (grow j t) = B754_infinity s) \/
  (is_finite (grow k t) = true /\ 4 ^ k * Rabs (B2R t) <= Rabs (B2R (grow k t))).
Proof.
  intros Hf. induction k as [|k IH].
  - right. cbn. split; [exact Hf|lra].
  - destruct IH as [(j & s & Hj & H)|(Hk & Hle)].
    + left. exists j, s. split; [lia|exact H].
    + rewrite grow_S. destruct (fmul_five _ Hk) as [(s & Hs)|(Hfin & H4)].
      * left. exists (S k), false. split; [lia|]. rewrite grow_S, Hs. apply square_inf_inf.
      * right. split; [exact Hfin|]. cbn [pow]. lra.
Qed.

Lemma min_abs (t : f64) : is_finite_strict t = true -> bpow radix2 (-1074) <= Rabs (B2R t).
Proof. intros H. exact (abs_B2R_ge_emin 53 1024 t H). Qed.

Lemma square_overflow (g : f64) : is_finite g = true -> bpow radix2 512 <= Rabs (B2R g) ->
  exists s, fmul g g = B754_infinity s.
Proof.
  intros Hf Hb.
  pose proof (Bmult_correct 53 1024 prec53 emax1024 mode_NE g g) as H. fold (fmul g g) in H.
  rewrite Rlt_bool_false in H; [apply overflow_inf in H; eauto|].
  rewrite <- round_NE_abs by apply fexp64_valid.
  apply Rle_trans with (round radix2 (SpecFloat.fexp 53 1024) (round_mode mode_NE) (bpow radix2 1024)).
  - right. symmetry. apply round_generic; [apply valid_rnd_N|].
    apply generic_format_bpow. cbn. lia.
  - apply round_le; [apply fexp64_valid|apply valid_rnd_N|].
    rewrite Rabs_mult. change 1024%Z with (512 + 512)%Z. rewrite bpow_plus.
    assert (0 <= bpow radix2 512) by apply bpow_ge_0.
    apply Rmult_le_compat; assumption.
Qed.

Lemma pow4_bpow k : 4 ^ k = bpow radix2 (2 * Z.of_nat k).
Proof.
  induction k as [|k IH]; [reflexivity|].
  rewrite <- tech_pow_Rmult, IH. replace (2 * Z.of_nat (S k))%Z with (2 + 2 * Z.of_nat k)%Z by lia.
  rewrite bpow_plus. cbn [bpow Z.pow_pos Pos.iter radix_val radix2]. cbn. lra.
Qed.

Lemma grow_overflow t : is_finite_strict t = true ->
  exists j s, (j <= 794)%nat /\ fmul (grow j t) (grow j t) = B754_infinity s.
Proof.
  intros Hs. assert (Hf : is_finite t = true) by (destruct t; cbn in *; congruence).
  destruct (grow_cases 794 t Hf) as [H|(Hfin & Hle)]; [exact H|].
  destruct (square_overflow (grow 794 t) Hfin) as (s & H).
  - refine (Rle_trans _ _ _ _ Hle). rewrite pow4_bpow.
    apply Rle_trans with (bpow radix2 (2 * Z.of_nat 794) * bpow radix2 (-1074)).
    + rewrite <- bpow_plus. apply bpow_le. cbn. lia.
    + apply Rmult_le_compat_l; [apply bpow_ge_0|]. apply min_abs, Hs.
  - exists 794%nat, s. split; [lia|exact H].
Qed.

(** ** bt_search *)

(** A double below 1 times a positive double above 2^-30 is strictly smaller. *)
Lemma shrink_lt (t tau : f64) :
  is_finite t = true -> is_finite tau = true -> B2R tau < 1 -> / 1073741824 < B2R t ->
  rnd (B2R t * B2R tau) < B2R t.
Proof.
  intros Ft Ftau Htau Ht.
  assert (H30 : bpow radix2 (-30) = / 1073741824) by (cbn; lra).
  assert (Hp : bpow radix2 (-30) <= pred radix2 (SpecFloat.fexp 53 1024) (B2R t)).
  { apply pred_ge_gt; [apply fexp64_valid| |apply fmt_B2R|lra].
    apply generic_format_bpow. cbn. lia. }
  set (p := pred radix2 (SpecFloat.fexp 53 1024) (B2R t)) in *.
  assert (Hp0 : 0 < p) by (pose proof (bpow_gt_0 radix2 (-30)); lra).
  assert (Hulp : p + ulp radix2 (SpecFloat.fexp 53 1024) p = B2R t).
  { apply pred_plus_ulp; [apply fexp64_valid|lra|apply fmt_B2R]. }
  assert (Hpt : p < B2R t) by (apply pred_lt_id; lra).
  assert (Hmag : (-29 <= mag radix2 p)%Z).
  { apply mag_ge_bpow. rewrite Rabs_pos_eq by lra. exact Hp. }
  assert (Hu : ulp radix2 (SpecFloat.fexp 53 1024) p <= p * bpow radix2 (-52)).
  { rewrite ulp_neq_0 by lra. unfold cexp. rewrite fexp64. rewrite Z.max_l by lia.
    replace (mag radix2 p - 53)%Z with ((mag radix2 p - 1) + -52)%Z by lia. rewrite bpow_plus.
    apply Rmult_le_compat_r; [apply bpow_ge_0|].
    pose proof (bpow_mag_le radix2 p) as Hb. rewrite Rabs_pos_eq in Hb by lra. apply Hb. lra. }
  assert (Htp : B2R tau <= 1 - bpow radix2 (-53)).
  { assert (Hpred1 : pred radix2 (SpecFloat.fexp 53 1024) 1 = 1 - bpow radix2 (-53)).
    { change 1 with (bpow radix2 0). rewrite pred_bpow. reflexivity. }
    rewrite <- Hpred1. apply pred_ge_gt; [apply fexp64_valid|apply fmt_B2R| |exact Htau].
    change 1 with (bpow radix2 0). apply generic_format_bpow. cbn. lia. }
  apply Rle_lt_trans with p; [|exact Hpt].
  apply round_N_le_midp; [apply fexp64_valid| |].
  - apply generic_format_pred; [apply fexp64_valid|apply fmt_B2R].
  - replace (succ radix2 (SpecFloat.fexp 53 1024) p) with (B2R t).
    + assert (Hprod : B2R t * B2R tau <= B2R t - B2R t * bpow radix2 (-53)).
      { replace (B2R t - B2R t * bpow radix2 (-53)) with (B2R t * (1 - bpow radix2 (-53))) by ring.
        apply Rmult_le_compat_l; lra. }
      assert (H52 : bpow radix2 (-52) = 2 * bpow radix2 (-53)).
      { change (-52)%Z with (1 + -53)%Z. rewrite bpow_plus. cbn [bpow]. cbn. lra. }
      assert (Hlt : p * bpow radix2 (-52) < B2R t * bpow radix2 (-52)).
      { apply Rmult_lt_compat_r; [apply bpow_gt_0|exact Hpt]. }
      rewrite H52 in *. lra.
    + unfold p. symmetry. apply succ_pred; [apply fexp64_valid|apply fmt_B2R].
Qed.

Lemma neg_F2R m e : F2R (Float radix2 (Zneg m) e) < 0.
Proof. apply F2R_lt_0. reflexivity. Qed.

(** Finite doubles are integer multiples of 2^-1074. *)
Definition units (t : f64) : Z :=
  match t with
  | B754_finite false m e _ => Zpos m * 2 ^ (e + 1074)
  | _ => 0
  end.

Lemma units_B2R t : is_finite t = true -> 0 < B2R t ->
  B2R t = IZR (units t) * bpow radix2 (-1074).
Proof.
  destruct t as [s|s| |s m e H]; cbn [is_finite]; intros Hf Hp; try discriminate.
  - cbn in Hp. lra.
  - destruct s; [exfalso|].
    + cbn in Hp. pose proof (neg_F2R m e). lra.
    + cbn [B2R units SpecFloat.cond_Zopp]. unfold F2R. cbn [Fnum Fexp].
      assert (He : (0 <= e + 1074)%Z).
      { pose proof H as H'. apply andb_prop in H'. destruct H' as (H1 & _).
        apply Zeq_bool_eq in H1. rewrite fexp64 in H1. lia. }
      rewrite mult_IZR. change 2%Z with (radix_val radix2). rewrite IZR_Zpower by exact He.
      rewrite Rmult_assoc, <- bpow_plus. replace (e + 1074 + -1074)%Z with e by lia. reflexivity.
Qed.

Lemma Bltb_ninf (x : f64) : Bltb x (B754_infinity true) = false.
Proof. destruct x as [[]|[]| |[]]; reflexivity. Qed.

Lemma pos_form (t : f64) : is_finite t = true -> 0 < B2R t ->
  exists m e H, t = B754_finite false m e H.
Proof.
  destruct t as [s|s| |s m e H]; cbn [is_finite]; intros Hf Hp; try discriminate Hf.
  - cbn in Hp. lra.
  - destruct s; [exfalso; cbn in Hp; pose proof (neg_F2R m e); lra|eauto].
Qed.

Lemma sign_nonneg (t : f64) : Bsign t = false -> 0 <= B2R t.
Proof.
  destruct t as [s|s| |s m e H]; cbn [Bsign B2R]; intros Hs; try lra.
  subst s. apply F2R_ge_0. discriminate.
Qed.

Lemma one_le_inf : Bleb one64 (B754_infinity false) = true.
Proof. vm_compute. reflexivity. Qed.

Lemma Bltb_spec_true (x y : f64) : is_finite x = true -> is_finite y = true ->
  Bltb x y = true -> B2R x < B2R y.
Proof.
  intros Hx Hy H. rewrite Bltb_correct in H by assumption.
  destruct (Rlt_bool_spec (B2R x) (B2R y)) as [Hr|]; [exact Hr|discriminate H].
Qed.

Lemma Bleb_spec_false (x y : f64) : is_finite x = true -> is_finite y = true ->
  Bleb x y = false -> B2R y < B2R x.
Proof.
  intros Hx Hy H. rewrite Bleb_correct in H by assumption.
  destruct (Rle_bool_spec (B2R x) (B2R y)) as [|Hr]; [discriminate H|exact Hr].
Qed.

Section BF.
  Context (St P E : Type) (getF : St -> f64) (G : f64 -> St -> (P + E) * St).

  Lemma bt_end_nofuel (m : lsmem (num F64) St P) t n tau F0 :
    Bltb eps64 t = false -> fst (bt_loop F64 St P E getF G n tau F0 t m) <> NoFuel.
  Proof.
    intros H.
    assert (He : fst (if frestart m then (Throw DescentError, m)
        else callG F64 St P E getF G (alit F64 0 1) (MkMem (fst_ m) true (evals m))) <> NoFuel).
    { destruct (frestart m); [discriminate|]. unfold callG. destruct (G _ _) as [[?|?] ?]; discriminate. }
    destruct n; cbn [bt_loop]; unfold agtb; cbn [altb alit F64]; fold eps64; rewrite H; exact He.
  Qed.

  (** Enough fuel for bt_search from a finite trial step: the number of units of t above 0. *)
  Lemma bt_loop_f64 n tau F0 t (m : lsmem (num F64) St P) :
    is_finite t = true -> Bleb one64 tau = false -> (units t <= Z.of_nat n)%Z ->
    fst (bt_loop F64 St P E getF G (S n) tau F0 t m) <> NoFuel.
  Proof.
    intros Ft Htau. revert t m Ft. induction n as [|n IH]; intros t m Ft Hn.
    - destruct (Bltb eps64 t) eqn:Hlt; [|apply bt_end_nofuel; exact Hlt].
      exfalso. destruct eps64_B2R as (He & Hef). apply Bltb_spec_true in Hlt; [|assumption..].
      assert (Hpos : 0 < B2R t) by lra.
      rewrite (units_B2R t Ft Hpos) in Hpos. 
      assert (IZR (units t) <= 0) by (apply IZR_le; lia).
      pose proof (bpow_gt_0 radix2 (-1074)). nra.
    - destruct (Bltb eps64 t) eqn:Hlt; [|apply bt_end_nofuel; exact Hlt].
      cbn [bt_loop]. unfold agtb. cbn [altb alit F64]. fold eps64. rewrite Hlt.
      destruct (callG F64 St P E getF G t m) as [o m1] eqn:Hc.
      pose proof (callG_not _ _ _ _ _ _ _ _ _ _ Hc) as [[p ->]|(e & -> & _)]; [|discriminate].
      destruct (Bltb (getF (fst_ m1)) F0); [discriminate|].
      cbn [amul F64].
      change (fst (bt_loop F64 St P E getF G (S n) tau F0 (fmul t tau) m1) <> NoFuel).
      destruct (Bltb eps64 (fmul t tau)) eqn:Hlt2; [|apply bt_end_nofuel; exact Hlt2].
      destruct eps64_B2R as (He & Hef).
      apply Bltb_spec_true in Hlt; [|assumption..].
      assert (Hpos : / 1073741824 < B2R t) by lra.
      assert (Ht0 : 0 < B2R t) by (assert (0 < / 1073741824) by lra; lra).
      destruct (is_finite tau) eqn:Ftau.
      + destruct one64_B2R as (H1 & F1).
        apply Bleb_spec_false in Htau; [|assumption..]. rewrite H1 in Htau.
        pose proof (Bmult_correct 53 1024 prec53 emax1024 mode_NE t tau) as H. fold (fmul t tau) in H.
        pose proof (shrink_lt t tau Ft Ftau Htau Hpos) as Hsh.
        destruct (Rlt_bool_spec (Rabs (round radix2 (SpecFloat.fexp 53 1024) (round_mode mode_NE) (B2R t * B2R tau)))
                 (bpow radix2 1024)) as [Hok|Hov].
        * destruct H as (HR & HF & _). rewrite Ft, Ftau in HF. cbn [andb] in HF.
          apply IH; [exact HF|].
          apply Bltb_spec_true in Hlt2; [|assumption..].
          assert (Hpos2 : 0 < B2R (fmul t tau)) by (assert (0 < / 1073741824) by lra; lra).
          assert (Hless : B2R (fmul t tau) < B2R t) by (rewrite HR; exact Hsh).
          rewrite (units_B2R _ HF Hpos2), (units_B2R _ Ft Ht0) in Hless.
          apply Rmult_lt_reg_r in Hless; [|apply bpow_gt_0]. apply lt_IZR in Hless. lia.
        * exfalso. apply overflow_inf in H. rewrite H in Hlt2.
          destruct (xorb (Bsign t) (Bsign tau)) eqn:Hx.
          { rewrite Bltb_ninf in Hlt2. discriminate Hlt2. }
          (* positive overflow is impossible: the rounded product is below t *)
          assert (Hst : Bsign t = false).
          { destruct (pos_form t Ft Ht0) as (mt & et & Hbt & ->). reflexivity. }
          rewrite Hst in Hx. cbn [xorb] in Hx.
          assert (Htp : 0 <= B2R tau) by (apply sign_nonneg; destruct (Bsign tau); [discriminate Hx|reflexivity]).
          assert (Hr0 : 0 <= rnd (B2R t * B2R tau)).
          { apply round_ge_generic; [apply fexp64_valid|apply valid_rnd_N|apply generic_format_0|nra]. }
          change (round_mode mode_NE) with ZnearestE in Hov.
          rewrite Rabs_pos_eq in Hov by exact Hr0.
          pose proof (finite_lt_emax t) as Hmax. rewrite Rabs_pos_eq in Hmax by lra. lra.
      + (* tau is NaN or -infinity *)
        exfalso. destruct tau as [s|s| |s mm ee Hb]; try discriminate Ftau.
        * destruct s; [|rewrite one_le_inf in Htau; discriminate Htau].
          destruct (pos_form t Ft Ht0) as (mt & et & Hbt & ->).
          change (fmul _ _) with (B754_infinity true : f64) in Hlt2.
          rewrite Bltb_ninf in Hlt2. discriminate Hlt2.
        * replace (fmul t B754_nan) with (B754_nan : f64) in Hlt2 by (destruct t; reflexivity).
          rewrite Bltb_nan_r in Hlt2. discriminate Hlt2.
  Qed.
End BF.

(** ** The complete line search *)
Section LSF.
  Context (St P E : Type) (getF : St -> f64) (G : f64 -> St -> (P + E) * St).
  Notation mem := (lsmem (num F64) St P).

  Lemma q_loop_f64_any F0 slope t (m : mem) : is_finite_strict t = true ->
    fst (q_loop F64 St P E getF G 795 F0 slope t m) <> NoFuel.
  Proof.
    intros Ht. destruct (grow_overflow t Ht) as (j & s & Hj & Hs).
    pose proof (q_loop_f64 St P E getF G j F0 slope t m s Hs) as Hn.
    replace 795%nat with (S j + (794 - j))%nat by lia.
    rewrite (q_loop_fuel _ _ _ _ _ _ (S j) (794 - j) _ _ _ _ _ eq_refl Hn). exact Hn.
  Qed.

  Lemma q_loop_f64_02 F0 slope (m : mem) :
    fst (q_loop F64 St P E getF G 223 F0 slope (flit 1 5) m) <> NoFuel.
  Proof. destruct grow_02 as (s & Hs). apply (q_loop_f64 _ _ _ _ _ 222 _ _ _ _ s). exact Hs. Qed.

  Lemma qline_nofuel n t slope (m : mem) :
    fst (q_loop F64 St P E getF G n (getF (fst_ m)) slope t m) <> NoFuel ->
    fst (qline F64 St P E getF G n t slope m) <> NoFuel.
  Proof.
    intros H. unfold qline.
    destruct (q_loop F64 St P E getF G n (getF (fst_ m)) slope t m) as [o m1] eqn:Hq.
    destruct o as [tm|e| |]; try discriminate; [|exfalso; apply H; reflexivity].
    destruct (callG F64 St P E getF G tm m1) as [o2 m2] eqn:Hc.
    pose proof (callG_not _ _ _ _ _ _ _ _ _ _ Hc) as [[p ->]|(e & -> & _)]; [|discriminate].
    destruct (agtb F64 _ _); discriminate.
  Qed.

  Lemma line_search_f64_gen n n' t tau slope (m : mem) :
    is_finite t = true ->
    (forall F0 (m : mem), fst (q_loop F64 St P E getF G n F0 slope t m) <> NoFuel) ->
    (units t < Z.of_nat n')%Z ->
    fst (line_search F64 St P E getF G n n' t tau slope m) <> NoFuel.
  Proof.
    intros Hf Hq Hn. unfold line_search. destruct (agtb F64 slope _); [discriminate|].
    pose proof (qline_nofuel n t slope m (Hq _ _)) as Hqn.
    destruct (qline F64 St P E getF G n t slope m) as [o m1] eqn:E1. cbn [fst] in Hqn.
    destruct o as [p|e| |]; try discriminate; [|exfalso; apply Hqn; reflexivity].
    destruct e; try discriminate. unfold bt_search, ageb.
    destruct (aleb F64 (alit F64 1 1) tau) eqn:Ht; [discriminate|].
    destruct n' as [|n']; [exfalso; unfold units in Hn; destruct t as [| | |[]]; lia|].
    pose proof (bt_loop_f64 St P E getF G n' tau (getF (fst_ m)) t m1 Hf Ht ltac:(lia)) as Hb.
    destruct (bt_loop F64 St P E getF G (S n') tau (getF (fst_ m)) t m1) as [o2 m2].
    cbn [fst] in Hb. destruct o2; try discriminate. exfalso; apply Hb; reflexivity.
  Qed.

  (** ** NaN *)
  Lemma fsub_nan_l y : fsub B754_nan y = B754_nan. Proof. destruct y; reflexivity. Qed.
  Lemma fsub_nan_r x : fsub x B754_nan = B754_nan. Proof. destruct x; reflexivity. Qed.
  Lemma fdiv_nan_l y : fdiv B754_nan y = B754_nan. Proof. destruct y; reflexivity. Qed.

  (** A NaN reference energy makes the first parabola acceptable and the result unrejectable. *)
  Lemma line_search_nan n n' t tau slope (m : mem) :
    altb F64 (alit F64 0 1) slope = false ->
    (forall u s, exists p s', G u s = (inl p, s')) ->
    getF (fst_ m) = B754_nan \/ (forall u s p s', G u s = (inl p, s') -> getF s' = B754_nan) ->
    exists p m', line_search F64 St P E getF G (S n) n' t tau slope m = (Ret (p, Qline), m') /\
                 frestart m' = false.
  Proof.
    intros Hs Hg Hnan.
    destruct (line_search F64 St P E getF G (S n) n' t tau slope m) as [r m'] eqn:H.
    unfold line_search, agtb in H. rewrite Hs in H.
    unfold qline in H. cbn [q_loop] in H.
    destruct (callG F64 St P E getF G t m) as [o m1] eqn:Hc.
    destruct (Hg t (fst_ m)) as (p1 & s1 & Hg1).
    pose proof (callG_not _ _ _ _ _ _ _ _ _ _ Hc) as [[p ->]|(e & _ & _ & _ & Hx)];
      [|congruence].
    apply callG_ret in Hc. destruct Hc as (Hc & _ & _).
    assert (Ha : q_a F64 (getF (fst_ m)) slope t (getF (fst_ m1)) = B754_nan).
    { unfold q_a. cbn [adiv asub amul F64]. destruct Hnan as [Hn|Hn].
      - rewrite Hn, fsub_nan_r, fdiv_nan_l. reflexivity.
      - rewrite (Hn _ _ _ _ Hc), fsub_nan_l, fdiv_nan_l. reflexivity. }
    rewrite Ha in H. change (altb F64 B754_nan (alit F64 0 1)) with (Bltb (B754_nan : f64) zero64) in H.
    rewrite Bltb_nan_l in H.
    set (tm := q_tmin F64 slope B754_nan) in H.
    destruct (callG F64 St P E getF G tm m1) as [o2 m2] eqn:Hc2.
    destruct (Hg tm (fst_ m1)) as (p2 & s2 & Hg2).
    pose proof (callG_not _ _ _ _ _ _ _ _ _ _ Hc2) as [[p3 ->]|(e & _ & _ & _ & Hx)];
      [|congruence].
    apply callG_ret in Hc2. destruct Hc2 as (Hc2 & _ & _).
    assert (Hgt : agtb F64 (getF (fst_ m2)) (getF (fst_ m)) = false).
    { unfold agtb. cbn [altb F64]. destruct Hnan as [Hn|Hn].
      - rewrite Hn. apply Bltb_nan_l.
      - rewrite (Hn _ _ _ _ Hc2). apply Bltb_nan_r. }
    rewrite Hgt in H. inversion H; subst. exists p3, (MkMem (fst_ m2) false (evals m2)). auto.
  Qed.
End LSF.

(** Witness: finite reference energy 0 and finite trial energy, NaN at the predicted minimum. *)
Definition nan_G (t : f64) (s : f64) : (f64 + Empty_set) * f64 :=
  (inl t, if Beqb t (flit 1 5) then zero64 else B754_nan).

Lemma nan_accepted :
  let m := MkMem zero64 true nil in
  let r := line_search F64 f64 f64 Empty_set (fun s => s) nan_G 1 0 (flit 1 5) (flit 1 10) (flit (-1) 1) m in
  (exists p, fst r = Ret (p, Qline)) /\ is_nan (fst_ (snd r)) = true /\
  frestart (snd r) = false /\ is_finite (fst_ m) = true.
Proof.
  cbv zeta. split; [|split; [|split]].
  - match goal with |- exists p, ?x = _ =>
      assert (H : (match x with Ret (_, Qline) => true | _ => false end) = true) by (vm_compute; reflexivity);
      destruct x as [[p []]|e| |]; try discriminate H; eauto
    end.
  - vm_compute. reflexivity.
  - vm_compute. reflexivity.
  - vm_compute. reflexivity.
Qed.
