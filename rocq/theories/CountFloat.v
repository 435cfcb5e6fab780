(** The electron count of occupation_from_mvector (src/smearing.hpp 52-72, 366-377) in binary64 is a
    monotone function of the chemical potential for Fermi-Dirac, Gaussian-spline and Gauss smearing. *)
From Coq Require Import ZArith Reals Lra Lia Bool List.
From Flocq Require Import Core.Core IEEE754.BinarySingleNaN.
From Verif Require Import Arith Float64 FloatMono MVector Occupation Smearing SmearFloat SmearFloatProofs.
Import ListNotations.
Local Open Scope R_scope.
Local Notation bp := (bpow radix2).

(** ** Sums of non-negative doubles *)
Lemma fmt_mul n e : (0 <= n <= 2 ^ 53)%Z -> (-1074 <= e)%Z -> fmt (IZR n * bp e).
Proof.
  intros Hn He. destruct (Z.eq_dec n (2 ^ 53)) as [->|D].
  - replace (IZR (2 ^ 53)) with (bp 53) by (rewrite <- IZR_Zpower by lia; reflexivity).
    rewrite <- bpow_plus. apply generic_format_bpow. rewrite fexp64. lia.
  - change (generic_format radix2 (FLT_exp (-1074) 53) (IZR n * bp e)). apply (generic_format_FLT radix2 (-1074) 53).
    exists (Float radix2 n e); [reflexivity| |exact He]. cbn [Fnum]. change (radix2 ^ 53)%Z with (2 ^ 53)%Z. lia.
Qed.
Lemma big_le e : (e <= 1023)%Z -> bp e < BIG.
Proof. intros H. rewrite <- BIG_eq. apply bpow_lt. lia. Qed.

Lemma rep_bpow e : (-1074 <= e)%Z -> (e <= 1023)%Z -> rep (bp e).
Proof.
  intros H1 H2. exists (binary_normalize 53 1024 prec53 emax1024 mode_NE 1 e false).
  pose proof (binary_normalize_correct 53 1024 prec53 emax1024 mode_NE 1 e false) as C. cbn [round_mode] in C.
  replace (F2R (Float radix2 1 e)) with (bp e) in C by (unfold F2R; cbn [Fnum Fexp]; ring).
  rewrite rnd_id in C by (apply generic_format_bpow; rewrite fexp64; lia).
  rewrite Rabs_pos_eq in C by apply bpow_ge_0. rewrite Rlt_bool_true in C by (apply bpow_lt; lia).
  destruct C as (C1 & C2 & _). auto.
Qed.
Definition small (e : Z) (t : f64) : Prop := is_finite t = true /\ 0 <= B2R t <= bp e.
Lemma fsum_step n e (v t : f64) : (-1074 <= e)%Z -> (e + 53 <= 1023)%Z -> (0 <= n)%Z -> (n + 1 <= 2 ^ 53)%Z ->
  is_finite v = true -> 0 <= B2R v <= IZR n * bp e -> small e t ->
  is_finite (fadd v t) = true /\ 0 <= B2R (fadd v t) <= IZR (n + 1) * bp e /\ B2R (fadd v t) = rnd (B2R v + B2R t).
Proof.
  intros He Hu H0 H1 Fv Hv [Ft Ht]. destruct (ext_add v t Fv Ft) as [N E].
  assert (Hb : 0 <= B2R v + B2R t <= IZR (n + 1) * bp e) by (rewrite plus_IZR; lra).
  assert (G : 0 <= rnd (B2R v + B2R t) <= IZR (n + 1) * bp e).
  { apply rnd_between; [apply generic_format_0|apply fmt_mul; lia|exact Hb]. }
  assert (U : IZR (n + 1) * bp e <= bp (53 + e)).
  { rewrite bpow_plus. apply Rmult_le_compat_r; [apply bpow_ge_0|]. rewrite <- IZR_Zpower by lia. apply IZR_le. exact H1. }
  pose proof (big_le (53 + e) ltac:(lia)). pose proof big_pos. rewrite clamp_in in E by lra.
  assert (F : is_finite (fadd v t) = true) by (apply (fin_iff _ N); lra). split; [exact F|]. rewrite <- (fin_ext _ F), E. auto.
Qed.
Lemma fsum_range {X} (g : X -> f64) e (He : (-1074 <= e)%Z) (Hu : (e + 53 <= 1023)%Z) (l : list X) : forall n v,
  (forall x, In x l -> small e (g x)) -> (0 <= n)%Z -> (n + Z.of_nat (length l) <= 2 ^ 53)%Z ->
  is_finite v = true -> 0 <= B2R v <= IZR n * bp e ->
  is_finite (fold_left (fun v x => fadd v (g x)) l v) = true /\
  0 <= B2R (fold_left (fun v x => fadd v (g x)) l v) <= IZR (n + Z.of_nat (length l)) * bp e.
Proof.
  induction l as [|x l IH]; intros n v Hg Hn Hl Fv Hv; cbn [fold_left length].
  - replace (n + Z.of_nat 0)%Z with n by lia. auto.
  - cbn [length] in Hl. rewrite Nat2Z.inj_succ in Hl.
    destruct (fsum_step n e v (g x) He Hu Hn ltac:(lia) Fv Hv (Hg x (or_introl eq_refl))) as (A & B & _).
    rewrite Nat2Z.inj_succ. replace (n + Z.succ (Z.of_nat (length l)))%Z with ((n + 1) + Z.of_nat (length l))%Z by lia.
    apply IH; try assumption; try lia. intros y Hy. apply Hg. right. exact Hy.
Qed.
Lemma fsum_mono {X} (g g' : X -> f64) e (He : (-1074 <= e)%Z) (Hu : (e + 53 <= 1023)%Z) (l : list X) : forall n v v',
  (forall x, In x l -> small e (g x) /\ small e (g' x) /\ B2R (g x) <= B2R (g' x)) -> (0 <= n)%Z -> (n + Z.of_nat (length l) <= 2 ^ 53)%Z ->
  is_finite v = true -> 0 <= B2R v <= IZR n * bp e -> is_finite v' = true -> 0 <= B2R v' <= IZR n * bp e -> B2R v <= B2R v' ->
  B2R (fold_left (fun v x => fadd v (g x)) l v) <= B2R (fold_left (fun v x => fadd v (g' x)) l v').
Proof.
  induction l as [|x l IH]; intros n v v' Hg Hn Hl Fv Hv Fv' Hv' H; cbn [fold_left]; [exact H|].
  cbn [length] in Hl. rewrite Nat2Z.inj_succ in Hl. destruct (Hg x (or_introl eq_refl)) as (G1 & G2 & G3).
  destruct (fsum_step n e v (g x) He Hu Hn ltac:(lia) Fv Hv G1) as (A & B & C).
  destruct (fsum_step n e v' (g' x) He Hu Hn ltac:(lia) Fv' Hv' G2) as (A' & B' & C').
  apply (IH (n + 1)%Z); try assumption; try lia.
  - intros y Hy. apply Hg. right. exact Hy.
  - rewrite C, C'. apply rnd_mono. lra.
Qed.

(** ** Band sums *)
(** Occupation functions that are monotone and bounded by the maximal occupation. *)
Definition fn_ok (fn : f64 -> f64 -> f64) (mo : f64) : Prop :=
  (forall x, nn x -> is_finite (fn x mo) = true /\ 0 <= B2R (fn x mo) <= B2R mo) /\
  (forall x y, nn x -> nn y -> ext x <= ext y -> B2R (fn x mo) <= B2R (fn y mo)).
Lemma fd_ok L mo : exp_range (lexp L) -> fmonotone (lexp L) -> mo_ok mo -> fn_ok (fd_fnF L) mo.
Proof. intros R M K. split; [apply fd_range; assumption|apply fd_mono; assumption]. Qed.
Lemma gs_ok L mo : exp_range (lexp L) -> fmonotone (lexp L) -> mo_ok mo -> fn_ok (gs_fnF L) mo.
Proof. intros R M K. split; [apply gs_range; assumption|apply gs_mono; assumption]. Qed.
Lemma gauss_ok L mo : erf_range (lerf L) -> fmonotone (lerf L) -> mo_ok mo -> fn_ok (gauss_fnF L) mo.
Proof.
  intros R M K. split; [|apply gauss_mono; assumption]. intros x N. destruct (gauss_range L R mo K x N) as (A & B & _). auto.
Qed.

Section Count.
  Context (S : smear F64) (mo T Ne : f64).
  Hypothesis Hfn : fn_ok (sfn S) mo.
  Hypothesis Hmo : small 100 mo.
  (** kT of the code, smearing.hpp 62: a finite positive double *)
  Hypothesis HkT : is_finite (fmul (kb F64) T) = true /\ 0 < B2R (fmul (kb F64) T).
  Hypothesis HNe : is_finite Ne = true /\ Rabs (B2R Ne) <= bp 400.
  (** band energies are finite, weights between 0 and 2^100, at most 2^53 bands and weights *)
  Definition bands_ok (ek : list f64) : Prop := (Z.of_nat (length ek) <= 2 ^ 53)%Z /\ forall e, In e ek -> is_finite e = true.
  Definition spectrum_ok (x : smap (list f64)) : Prop := forall k ek, mfind k x = Some ek -> bands_ok ek.
  Definition weights_ok (wk : smap f64) : Prop := (Z.of_nat (length wk) <= 2 ^ 53)%Z /\ forall k w, In (k, w) wk -> small 100 w.

  Definition arg (e mu : f64) : f64 := fdiv (fmul (fz (-1)) (fsub e mu)) (fmul (kb F64) T).
  Lemma arg_nn e mu : is_finite e = true -> is_finite mu = true -> nn (arg e mu).
  Proof.
    intros Fe Fm. apply fdiv_num; [|apply HkT|apply HkT]. apply (fneg_ext (fz (-1))); [apply fzm1|apply fzm1|].
    apply fsub_nn; [exact Fe|apply fin_nn; exact Fm].
  Qed.
  Lemma arg_mono e mu mu' : is_finite e = true -> is_finite mu = true -> is_finite mu' = true -> B2R mu <= B2R mu' ->
    ext (arg e mu) <= ext (arg e mu').
  Proof.
    intros Fe Fm Fm' H.
    assert (N1 : nn (fsub e mu)) by (apply fsub_nn; [exact Fe|apply fin_nn; exact Fm]).
    assert (N2 : nn (fsub e mu')) by (apply fsub_nn; [exact Fe|apply fin_nn; exact Fm']).
    destruct (fneg_ext (fz (-1)) _ (proj1 fzm1) (proj2 fzm1) N1) as [K1 E1].
    destruct (fneg_ext (fz (-1)) _ (proj1 fzm1) (proj2 fzm1) N2) as [K2 E2].
    apply fdiv_mono; try assumption; try apply HkT. rewrite E1, E2. apply Ropp_le_contravar.
    apply fsub_mono; try assumption; try (apply fin_nn; assumption); try lra. rewrite !fin_ext by assumption. exact H.
  Qed.
  Lemma band_sum ek mu : bands_ok ek -> is_finite mu = true -> small 153 (sum_func F64 (sfn S) ek mu T mo).
  Proof.
    intros [Hl He] Fm. unfold sum_func.
    destruct (fsum_range (fun e => sfn S (arg e mu) mo) 100 ltac:(lia) ltac:(lia) ek 0 (fz 0)) as (A & B); try lia.
    - intros e Hin. destruct (proj1 Hfn (arg e mu)) as (K1 & K2); [apply arg_nn; [apply He; exact Hin|exact Fm]|].
      split; [exact K1|]. destruct Hmo as [_ Hm]. lra.
    - apply fz0.
    - rewrite (proj2 fz0). lra.
    - split; [exact A|]. split; [exact (proj1 B)|]. eapply Rle_trans; [exact (proj2 B)|].
      change 153%Z with (53 + 100)%Z. rewrite bpow_plus. apply Rmult_le_compat_r; [apply bpow_ge_0|].
      rewrite <- IZR_Zpower by lia. apply IZR_le. exact Hl.
  Qed.
  Lemma band_sum_mono ek mu mu' : bands_ok ek -> is_finite mu = true -> is_finite mu' = true -> B2R mu <= B2R mu' ->
    B2R (sum_func F64 (sfn S) ek mu T mo) <= B2R (sum_func F64 (sfn S) ek mu' T mo).
  Proof.
    intros [Hl He] Fm Fm' H. unfold sum_func.
    apply (fsum_mono (fun e => sfn S (arg e mu) mo) (fun e => sfn S (arg e mu') mo) 100 ltac:(lia) ltac:(lia) ek 0 (fz 0) (fz 0)); try lia;
      try (apply fz0); try (rewrite (proj2 fz0); lra); try lra.
    intros e Hin. pose proof (He e Hin) as Fe. destruct Hmo as [_ Hm].
    destruct (proj1 Hfn (arg e mu) (arg_nn e mu Fe Fm)) as (K1 & K2).
    destruct (proj1 Hfn (arg e mu') (arg_nn e mu' Fe Fm')) as (K1' & K2').
    repeat split; try assumption; try lra. apply (proj2 Hfn); [apply arg_nn; assumption|apply arg_nn; assumption|apply arg_mono; assumption].
  Qed.
  Lemma view_ok x k : spectrum_ok x -> bands_ok (view_at F64 x k).
  Proof.
    intros H. unfold view_at. change (num F64) with f64. destruct (mfind k x) as [ek|] eqn:E.
    - exact (H k ek E).
    - split; [cbn; lia|]. intros e [].
  Qed.
  Lemma weighted w t : small 100 w -> small 153 t -> small 253 (fmul w t) /\ B2R (fmul w t) = rnd (B2R w * B2R t).
  Proof.
    intros [Fw Hw] [Ft Ht]. assert (R : rep (bp 253)).
    { apply rep_bpow; lia. }
    destruct (mul_in w t 0 (bp 253) Fw Ft rep0 R) as (A & B & C).
    - split; [apply Rmult_le_pos; lra|]. change 253%Z with (100 + 153)%Z. rewrite bpow_plus. apply Rmult_le_compat; lra.
    - split; [split; assumption|exact C].
  Qed.
  (** wsum of the band sums, smearing.hpp 368-375 *)
  Definition countF (x : smap (list f64)) (wk : smap f64) (mu : f64) : f64 := wsum F64 (fun ek => sum_func F64 (sfn S) ek mu T mo) x wk.
  Lemma count_range x wk mu : spectrum_ok x -> weights_ok wk -> is_finite mu = true -> small 306 (countF x wk mu).
  Proof.
    intros Hx [Hl Hw] Fm. unfold countF, wsum.
    destruct (fsum_range (fun kw : key * f64 => fmul (snd kw) (sum_func F64 (sfn S) (view_at F64 x (fst kw)) mu T mo)) 253
      ltac:(lia) ltac:(lia) wk 0 (fz 0)) as (A & B); try lia.
    - intros [k w] Hin. cbn [fst snd]. apply weighted; [exact (Hw k w Hin)|]. apply band_sum; [apply view_ok; exact Hx|exact Fm].
    - apply fz0.
    - rewrite (proj2 fz0). lra.
    - split; [exact A|]. split; [exact (proj1 B)|]. eapply Rle_trans; [exact (proj2 B)|].
      change 306%Z with (53 + 253)%Z. rewrite bpow_plus. apply Rmult_le_compat_r; [apply bpow_ge_0|].
      rewrite <- IZR_Zpower by lia. apply IZR_le. exact Hl.
  Qed.
  Lemma count_mono x wk mu mu' : spectrum_ok x -> weights_ok wk -> is_finite mu = true -> is_finite mu' = true -> B2R mu <= B2R mu' ->
    B2R (countF x wk mu) <= B2R (countF x wk mu').
  Proof.
    intros Hx [Hl Hw] Fm Fm' H. unfold countF, wsum.
    apply (fsum_mono (fun kw : key * f64 => fmul (snd kw) (sum_func F64 (sfn S) (view_at F64 x (fst kw)) mu T mo))
      (fun kw : key * f64 => fmul (snd kw) (sum_func F64 (sfn S) (view_at F64 x (fst kw)) mu' T mo)) 253
      ltac:(lia) ltac:(lia) wk 0 (fz 0) (fz 0)); try lia; try (apply fz0); try (rewrite (proj2 fz0); lra); try lra.
    intros [k w] Hin. cbn [fst snd]. pose proof (Hw k w Hin) as W. pose proof (view_ok x k Hx) as V.
    destruct (weighted w _ W (band_sum _ mu V Fm)) as (K1 & E1). destruct (weighted w _ W (band_sum _ mu' V Fm')) as (K2 & E2).
    split; [exact K1|]. split; [exact K2|]. rewrite E1, E2. apply rnd_mono. apply Rmult_le_compat_l; [apply W|].
    apply band_sum_mono; assumption.
  Qed.
  (** The residual handed to the search, smearing.hpp 367-377: finite and non-increasing. *)
  Lemma residual_fin x wk mu : spectrum_ok x -> weights_ok wk -> is_finite mu = true ->
    is_finite (residual F64 Ne T mo S x wk mu) = true /\
    B2R (residual F64 Ne T mo S x wk mu) = rnd (B2R Ne - B2R (countF x wk mu)).
  Proof.
    intros Hx Hw Fm. destruct (count_range x wk mu Hx Hw Fm) as [Fc Hc]. destruct HNe as [Fn Hn]. apply Rabs_le_inv in Hn.
    assert (L : bp 306 <= bp 400) by (apply bpow_le; lia). assert (D : bp 401 = 2 * bp 400).
    { change 401%Z with (1 + 400)%Z. rewrite bpow_plus. reflexivity. }
    destruct (sub_in Ne (countF x wk mu) (- bp 401) (bp 401) Fn Fc) as (A & B & C).
    - apply rep_opp, rep_bpow; lia.
    - apply rep_bpow; lia.
    - lra.
    - split; [exact A|exact C].
  Qed.
  Lemma residual_anti x wk mu mu' : spectrum_ok x -> weights_ok wk -> is_finite mu = true -> is_finite mu' = true ->
    B2R mu <= B2R mu' -> B2R (residual F64 Ne T mo S x wk mu') <= B2R (residual F64 Ne T mo S x wk mu).
  Proof.
    intros Hx Hw Fm Fm' H. rewrite (proj2 (residual_fin x wk mu Hx Hw Fm)), (proj2 (residual_fin x wk mu' Hx Hw Fm')).
    apply rnd_mono. pose proof (count_mono x wk mu mu' Hx Hw Fm Fm' H). lra.
  Qed.
End Count.
