(** Rounding error of the electron count of occupation_from_mvector (src/smearing.hpp 52-72, 366-397):
    the occupations returned, summed exactly, against the electron number asked for. *)
From Coq Require Import ZArith Reals Lra Lia Bool List Permutation.
From Flocq Require Import Core.Core Relative Plus_error IEEE754.BinarySingleNaN.
From Verif Require Import Arith Float64 FloatMono MVector Mpi MpiProofs Containers Newton ChemPot ChemPotProofs Occupation Smearing SmearFloat SmearFloatProofs CountFloat FloatSearch FloatMain.
Import ListNotations.
Local Open Scope R_scope.
Local Notation bp := (bpow radix2).

(** Specification: the electrons held by occupations given as doubles, summed without rounding. *)
Definition values (m : smap f64) : smap R := map (fun kv => (fst kv, B2R (snd kv))) m.
Definition values_l (m : smap (list f64)) : smap (list R) := map (fun kv => (fst kv, map B2R (snd kv))) m.
Definition electrons_exact (wk : list (smap f64)) (f : list (smap (list f64))) : R := electrons (map values wk) (map values_l f).

(** ** Unit round-off *)
Definition uu : R := / 9007199254740992.
Lemma uu_pos : 0 < uu < / 2. Proof. unfold uu. lra. Qed.
Lemma u_ro_uu : u_ro radix2 53 = uu.
Proof. unfold u_ro, uu. cbn. lra. Qed.
Lemma add_err (x y : f64) : exists d, Rabs d <= uu /\ rnd (B2R x + B2R y) = (B2R x + B2R y) * (1 + d).
Proof.
  destruct (FLT_plus_error_N_ex radix2 (-1074) 53 (fun z => negb (Z.even z)) (B2R x) (B2R y) (fmt_B2R x) (fmt_B2R y)) as (d & Hd & E).
  exists d. split; [|exact E]. rewrite u_ro_uu in Hd. eapply Rle_trans; [exact Hd|]. pose proof uu_pos.
  apply Rmult_le_reg_r with (1 + uu); [lra|]. unfold Rdiv. rewrite Rmult_assoc, Rinv_l by lra. nra.
Qed.
Lemma sub_err (x y : f64) : exists d, Rabs d <= uu /\ B2R x - B2R y = rnd (B2R x - B2R y) * (1 + d).
Proof.
  assert (E : B2R (Bopp y) = - B2R y) by apply B2R_Bopp.
  destruct (FLT_plus_error_N_round_ex radix2 (-1074) 53 (fun z => negb (Z.even z)) (B2R x) (B2R (Bopp y)) (fmt_B2R x) (fmt_B2R (Bopp y))) as (d & Hd & K).
  rewrite u_ro_uu in Hd. rewrite E in K. exists d. split; [exact Hd|exact K].
Qed.
Definition eta0 : R := bp (-1075).
Lemma mul_err r : exists d t, Rabs d <= uu /\ Rabs t <= eta0 /\ rnd r = r * (1 + d) + t.
Proof.
  destruct (error_N_FLT radix2 (-1074) 53 ltac:(lia) (fun z => negb (Z.even z)) r) as (d & t & Hd & Ht & _ & E).
  exists d, t. split; [eapply Rle_trans; [exact Hd|]; unfold uu; cbn; lra|]. split; [|exact E].
  eapply Rle_trans; [exact Ht|]. unfold eta0. replace (-1075)%Z with (-1 + -1074)%Z by lia. rewrite bpow_plus. change (bp (-1)) with (/ 2). lra.
Qed.

(** ** Sums of non-negative doubles *)
Lemma fsum_err {X} (g : X -> f64) e (He : (-1074 <= e)%Z) (Hu : (e + 53 <= 1023)%Z) (l : list X) : forall n v,
  (forall x, In x l -> small e (g x)) -> (0 <= n)%Z -> (n + Z.of_nat (length l) <= 2 ^ 53)%Z ->
  is_finite v = true -> 0 <= B2R v <= IZR n * bp e ->
  0 <= rsum (map (fun x => B2R (g x)) l) /\
  (1 - uu) ^ length l * (B2R v + rsum (map (fun x => B2R (g x)) l)) <= B2R (fold_left (fun v x => fadd v (g x)) l v)
    <= (1 + uu) ^ length l * (B2R v + rsum (map (fun x => B2R (g x)) l)).
Proof.
  pose proof uu_pos as U. induction l as [|x l IH]; intros n v Hg Hn Hl Fv Hv; cbn [fold_left map length pow].
  - change (rsum []) with 0. lra.
  - change (rsum (B2R (g x) :: map (fun x => B2R (g x)) l)) with (B2R (g x) + rsum (map (fun x => B2R (g x)) l)).
    cbn [length] in Hl. rewrite Nat2Z.inj_succ in Hl.
    destruct (fsum_step n e v (g x) He Hu Hn ltac:(lia) Fv Hv (Hg x (or_introl eq_refl))) as (F1 & R1 & E1).
    destruct (IH (n + 1)%Z (fadd v (g x)) (fun y Hy => Hg y (or_intror Hy)) ltac:(lia) ltac:(lia) F1 R1) as (S0 & S1).
    destruct (Hg x (or_introl eq_refl)) as (_ & Gx). set (s := rsum (map (fun x => B2R (g x)) l)) in *.
    split; [lra|]. destruct (add_err v (g x)) as (d & Hd & Ed). rewrite <- E1 in Ed. apply Rabs_le_inv in Hd.
    assert (P1 : 0 < (1 - uu) ^ length l) by (apply pow_lt; lra). assert (P2 : 0 < (1 + uu) ^ length l) by (apply pow_lt; lra).
    assert (V : 0 <= B2R v + B2R (g x)) by lra.
    assert (B1 : (1 - uu) * (B2R v + B2R (g x) + s) <= B2R (fadd v (g x)) + s).
    { rewrite Ed. assert (0 <= (B2R v + B2R (g x)) * (d + uu)) by (apply Rmult_le_pos; lra). nra. }
    assert (B2 : B2R (fadd v (g x)) + s <= (1 + uu) * (B2R v + B2R (g x) + s)).
    { rewrite Ed. assert (0 <= (B2R v + B2R (g x)) * (uu - d)) by (apply Rmult_le_pos; lra). nra. }
    split; [eapply Rle_trans; [|exact (proj1 S1)]|eapply Rle_trans; [exact (proj2 S1)|]].
    + replace ((1 - uu) * (1 - uu) ^ length l * (B2R v + (B2R (g x) + s))) with ((1 - uu) ^ length l * ((1 - uu) * (B2R v + B2R (g x) + s))) by ring.
      apply Rmult_le_compat_l; lra.
    + replace ((1 + uu) * (1 + uu) ^ length l * (B2R v + (B2R (g x) + s))) with ((1 + uu) ^ length l * ((1 + uu) * (B2R v + B2R (g x) + s))) by ring.
      apply Rmult_le_compat_l; lra.
Qed.

(** Powers of 1 +- u. *)
Lemma pow_lo n : 1 - INR n * uu <= (1 - uu) ^ n.
Proof.
  pose proof uu_pos as U. induction n as [|n IH]; cbn [pow]; [cbn; lra|]. rewrite S_INR.
  assert (0 <= (1 - uu) ^ n <= 1).
  { clear IH. induction n as [|n IH]; cbn [pow]; [lra|]. nra. }
  nra.
Qed.
Lemma pow_hi n : INR n * uu <= / 2 -> (1 + uu) ^ n <= 1 + 2 * (INR n * uu).
Proof.
  pose proof uu_pos as U. induction n as [|n IH]; cbn [pow]; intros H; [cbn; lra|]. rewrite S_INR in H |- *.
  pose proof (pos_INR n) as P. specialize (IH ltac:(nra)).
  assert (0 <= (1 + uu) ^ n) by (apply pow_le; lra). nra.
Qed.
Lemma pow_mono_hi a b : (a <= b)%nat -> (1 + uu) ^ a <= (1 + uu) ^ b.
Proof. intros H. apply Rle_pow; [pose proof uu_pos; lra|exact H]. Qed.
Lemma pow_mono_lo a b : (a <= b)%nat -> (1 - uu) ^ b <= (1 - uu) ^ a.
Proof.
  intros H. pose proof uu_pos as U. replace b with (a + (b - a))%nat by lia. rewrite pow_add.
  assert (0 < (1 - uu) ^ a) by (apply pow_lt; lra).
  assert (0 <= (1 - uu) ^ (b - a) <= 1).
  { generalize (b - a)%nat as m. intros m. induction m as [|m IH]; cbn [pow]; [lra|]. nra. }
  nra.
Qed.

Section Err.
  Context (S : smear F64) (mo T Ne : f64).
  Hypothesis Hfn : fn_ok (sfn S) mo.
  Hypothesis Hmo : small 100 mo.
  Hypothesis HkT : is_finite (fmul (kb F64) T) = true /\ 0 < B2R (fmul (kb F64) T).

  (** the occupation written to the output, smearing.hpp 381-397 *)
  Definition occ_out (mu e : f64) : f64 := sfn S (fdiv (fsub mu e) (fmul (kb F64) T)) mo.
  (** It has the same value as the one counted: -1*(e - mu) and mu - e differ at most in the sign of a zero. *)
  Lemma neg_sub (e mu : f64) : is_finite e = true -> is_finite mu = true -> ext (fmul (fz (-1)) (fsub e mu)) = ext (fsub mu e).
  Proof.
    intros Fe Fm. assert (N : nn (fsub e mu)) by (apply fsub_nn; [exact Fe|apply fin_nn; exact Fm]).
    destruct (fneg_ext (fz (-1)) _ (proj1 fzm1) (proj2 fzm1) N) as (_ & E). rewrite E.
    rewrite !fsub_add. assert (F1 : is_finite (Bopp mu) = true) by (rewrite fin_opp; exact Fm).
    assert (F2 : is_finite (Bopp e) = true) by (rewrite fin_opp; exact Fe).
    assert (E1 : B2R (Bopp mu) = - B2R mu) by apply B2R_Bopp. assert (E2 : B2R (Bopp e) = - B2R e) by apply B2R_Bopp.
    rewrite (proj2 (ext_add e (Bopp mu) Fe F1)), (proj2 (ext_add mu (Bopp e) Fm F2)), E1, E2.
    replace (B2R mu + - B2R e) with (- (B2R e + - B2R mu)) by ring. rewrite rnd_opp. generalize (rnd (B2R e + - B2R mu)). intros r.
    unfold clamp, Rmax, Rmin. pose proof big_pos. repeat destruct (Rle_dec _ _); lra.
  Qed.
  Lemma occ_same mu e : is_finite e = true -> is_finite mu = true ->
    B2R (sfn S (arg T e mu) mo) = B2R (occ_out mu e).
  Proof.
    intros Fe Fm. unfold occ_out, arg. pose proof (arg_nn T HkT e mu Fe Fm) as N1. unfold arg in N1.
    assert (N2 : nn (fsub mu e)) by (apply fsub_nn; [exact Fm|apply fin_nn; exact Fe]).
    assert (N3 : nn (fmul (fz (-1)) (fsub e mu))).
    { apply (fneg_ext (fz (-1))); [apply fzm1|apply fzm1|]. apply fsub_nn; [exact Fe|apply fin_nn; exact Fm]. }
    assert (N4 : nn (fdiv (fsub mu e) (fmul (kb F64) T))) by (apply fdiv_num; [exact N2|apply HkT|apply HkT]).
    pose proof (neg_sub e mu Fe Fm) as Q. apply Rle_antisym; apply (proj2 Hfn); try assumption.
    - apply fdiv_mono; try assumption; try apply HkT. rewrite Q. lra.
    - apply fdiv_mono; try assumption; try apply HkT. rewrite Q. lra.
  Qed.

  Definition band_exact (mu : f64) (ek : list f64) : R := rsum (map (fun e => B2R (occ_out mu e)) ek).
  Lemma band_err ek mu nb : bands_ok ek -> (length ek <= nb)%nat -> is_finite mu = true ->
    0 <= band_exact mu ek /\
    (1 - uu) ^ nb * band_exact mu ek <= B2R (sum_func F64 (sfn S) ek mu T mo) <= (1 + uu) ^ nb * band_exact mu ek.
  Proof.
    intros [Hl He] Hnb Fm. unfold sum_func.
    destruct (fsum_err (fun e => sfn S (arg T e mu) mo) 100 ltac:(lia) ltac:(lia) ek 0 (fz 0)) as (A & B & C); try lia.
    - intros e Hin. destruct (proj1 Hfn (arg T e mu)) as (K1 & K2); [apply (arg_nn T HkT); [apply He; exact Hin|exact Fm]|].
      split; [exact K1|]. destruct Hmo as [_ Hm]. lra.
    - apply fz0.
    - rewrite (proj2 fz0). lra.
    - assert (Q : rsum (map (fun e => B2R (sfn S (arg T e mu) mo)) ek) = band_exact mu ek).
      { unfold band_exact. f_equal. apply map_ext_in. intros e Hin. apply occ_same; [apply He; exact Hin|exact Fm]. }
      rewrite Q in A, B, C. rewrite (proj2 fz0), Rplus_0_l in B, C. split; [exact A|]. split.
      + eapply Rle_trans; [|exact B]. apply Rmult_le_compat_r; [exact A|]. apply pow_mono_lo. exact Hnb.
      + eapply Rle_trans; [exact C|]. apply Rmult_le_compat_r; [exact A|]. apply pow_mono_hi. exact Hnb.
  Qed.

  Definition count_exact (x : smap (list f64)) (wk : smap f64) (mu : f64) : R :=
    rsum (map (fun kw => B2R (snd kw) * band_exact mu (view_at F64 x (fst kw))) wk).
  Lemma term_err (w t : f64) (b : R) nb : small 100 w -> small 153 t -> 0 <= b ->
    (1 - uu) ^ nb * b <= B2R t <= (1 + uu) ^ nb * b ->
    (1 - uu) ^ Datatypes.S nb * (B2R w * b) - eta0 <= B2R (fmul w t) <= (1 + uu) ^ Datatypes.S nb * (B2R w * b) + eta0.
  Proof.
    intros W Q Hb Ht. pose proof uu_pos as U. destruct (weighted w t W Q) as (_ & E). rewrite E. destruct W as (_ & W). destruct Q as (_ & Q).
    destruct (mul_err (B2R w * B2R t)) as (d & k & Hd & Hk & K). rewrite K. apply Rabs_le_inv in Hd. apply Rabs_le_inv in Hk. cbn [pow].
    assert (P1 : 0 <= (1 - uu) ^ nb) by (apply pow_le; lra). assert (P2 : 0 <= (1 + uu) ^ nb) by (apply pow_le; lra).
    assert (M1 : B2R w * ((1 - uu) ^ nb * b) <= B2R w * B2R t) by (apply Rmult_le_compat_l; lra).
    assert (M2 : B2R w * B2R t <= B2R w * ((1 + uu) ^ nb * b)) by (apply Rmult_le_compat_l; lra).
    assert (M0 : 0 <= B2R w * ((1 - uu) ^ nb * b)) by (apply Rmult_le_pos; [lra|apply Rmult_le_pos; lra]).
    split.
    - replace ((1 - uu) * (1 - uu) ^ nb * (B2R w * b)) with ((1 - uu) * (B2R w * ((1 - uu) ^ nb * b))) by ring.
      assert ((1 - uu) * (B2R w * ((1 - uu) ^ nb * b)) <= (1 + d) * (B2R w * B2R t)) by (apply Rmult_le_compat; lra). lra.
    - replace ((1 + uu) * (1 + uu) ^ nb * (B2R w * b)) with ((1 + uu) * (B2R w * ((1 + uu) ^ nb * b))) by ring.
      assert ((1 + d) * (B2R w * B2R t) <= (1 + uu) * (B2R w * ((1 + uu) ^ nb * b))) by (apply Rmult_le_compat; lra). lra.
  Qed.
  Lemma rsum_between {X} (f g : X -> R) (l : list X) a b : (forall x, In x l -> a * g x - eta0 <= f x <= b * g x + eta0) ->
    a * rsum (map g l) - INR (length l) * eta0 <= rsum (map f l) <= b * rsum (map g l) + INR (length l) * eta0.
  Proof.
    induction l as [|x l IH]; intros H.
    - cbn [map length INR]. change (rsum []) with 0. lra.
    - specialize (IH (fun y Hy => H y (or_intror Hy))). specialize (H x (or_introl eq_refl)). cbn [map].
      change (rsum (g x :: map g l)) with (g x + rsum (map g l)). change (rsum (f x :: map f l)) with (f x + rsum (map f l)).
      change (length (x :: l)) with (Datatypes.S (length l)). rewrite S_INR. lra.
  Qed.
  Lemma rsum_nonneg {X} (g : X -> R) (l : list X) : (forall x, In x l -> 0 <= g x) -> 0 <= rsum (map g l).
  Proof.
    induction l as [|x l IH]; intros H; [cbn; lra|]. cbn [map]. change (rsum (g x :: map g l)) with (g x + rsum (map g l)).
    pose proof (H x (or_introl eq_refl)). specialize (IH (fun y Hy => H y (or_intror Hy))). lra.
  Qed.
  (** The computed count against the exact sum of the occupations returned. *)
  Lemma count_err x wk mu nb : spectrum_ok x -> weights_ok wk -> is_finite mu = true ->
    (forall k ek, mfind k x = Some ek -> (length ek <= nb)%nat) -> INR (nb + length wk + 1) * uu <= / 4 ->
    0 <= count_exact x wk mu /\
    Rabs (B2R (countF S mo T x wk mu) - count_exact x wk mu) <= 2 * (INR (nb + length wk + 1) * uu) * count_exact x wk mu + bp (-1000).
  Proof.
    intros Hx [Hl Hw] Fm Hnb HN. pose proof uu_pos as U. unfold countF, wsum.
    assert (HV : forall k, (length (view_at F64 x k) <= nb)%nat).
    { intros k. unfold view_at. change (num F64) with f64. destruct (mfind k x) as [ek|] eqn:E; [exact (Hnb k ek E)|cbn; lia]. }
    set (g := fun kw : key * f64 => fmul (snd kw) (sum_func F64 (sfn S) (view_at F64 x (fst kw)) mu T mo)).
    set (h := fun kw : key * f64 => B2R (snd kw) * band_exact mu (view_at F64 x (fst kw))).
    assert (Hg : forall kw, In kw wk -> small 253 (g kw) /\ 0 <= h kw /\
      (1 - uu) ^ Datatypes.S nb * h kw - eta0 <= B2R (g kw) <= (1 + uu) ^ Datatypes.S nb * h kw + eta0).
    { intros [k w] Hin. unfold g, h. cbn [fst snd]. pose proof (Hw k w Hin) as W. pose proof (view_ok x k Hx) as V.
      pose proof (band_sum S mo T Hfn Hmo HkT _ mu V Fm) as Q. destruct (band_err _ mu nb V (HV k) Fm) as (B0 & B1).
      split; [apply weighted; assumption|]. split; [apply Rmult_le_pos; [apply W|exact B0]|]. apply term_err; assumption. }
    destruct (fsum_err g 253 ltac:(lia) ltac:(lia) wk 0 (fz 0)) as (A & B & C); try lia.
    - intros kw Hin. apply Hg. exact Hin.
    - apply fz0.
    - rewrite (proj2 fz0). lra.
    - rewrite (proj2 fz0), Rplus_0_l in B, C.
      pose proof (rsum_between (fun kw => B2R (g kw)) h wk ((1 - uu) ^ Datatypes.S nb) ((1 + uu) ^ Datatypes.S nb) (fun kw Hin => proj2 (proj2 (Hg kw Hin)))) as (D1 & D2).
      pose proof (rsum_nonneg h wk (fun kw Hin => proj1 (proj2 (Hg kw Hin)))) as H0.
      change (rsum (map h wk)) with (count_exact x wk mu) in D1, D2, H0. split; [exact H0|].
      set (E := count_exact x wk mu) in *. set (s := rsum (map (fun kw => B2R (g kw)) wk)) in *.
      set (n := length wk) in *. change (fold_left _ wk (alit F64 0 1)) with (fold_left (fun v x => fadd v (g x)) wk (fz 0)).
      set (c := B2R (fold_left (fun v x => fadd v (g x)) wk (fz 0))) in *.
      assert (Nn : INR n * uu <= / 4). { eapply Rle_trans; [|exact HN]. apply Rmult_le_compat_r; [lra|]. apply le_INR. lia. }
      assert (Et : INR n * eta0 <= bp (-1001)).
      { unfold eta0. apply Rle_trans with (bp 53 * bp (-1075)).
        - apply Rmult_le_compat_r; [apply bpow_ge_0|]. rewrite <- IZR_Zpower by lia. rewrite INR_IZR_INZ. apply IZR_le. exact Hl.
        - rewrite <- bpow_plus. apply bpow_le. lia. }
      assert (E0 : 0 <= INR n * eta0) by (apply Rmult_le_pos; [apply pos_INR|unfold eta0; apply bpow_ge_0]).
      assert (B2 : bp (-1000) = 2 * bp (-1001)) by (change (-1000)%Z with (1 + -1001)%Z; rewrite bpow_plus; reflexivity).
      assert (Pn : (1 + uu) ^ n <= 2). { pose proof (pow_hi n ltac:(lra)). lra. }
      assert (Pl : 0 <= (1 - uu) ^ n <= 1).
      { split; [apply pow_le; lra|]. pose proof (pow_mono_lo 0 n ltac:(lia)) as K. cbn [pow] in K. exact K. }
      assert (Ph : 0 <= (1 + uu) ^ n) by (apply pow_le; lra).
      replace (nb + n + 1)%nat with (n + Datatypes.S nb)%nat in * by lia.
      pose proof (pow_hi (n + Datatypes.S nb) ltac:(lra)) as K1. pose proof (pow_lo (n + Datatypes.S nb)) as K2.
      rewrite pow_add in K1, K2. set (N := INR (n + Datatypes.S nb)) in *.
      assert (PN : 0 <= N * uu) by (apply Rmult_le_pos; [apply pos_INR|lra]).
      apply Rabs_le. split.
      + assert (Q1 : (1 - uu) ^ n * ((1 - uu) ^ Datatypes.S nb * E - INR n * eta0) <= (1 - uu) ^ n * s) by (apply Rmult_le_compat_l; lra).
        assert (Q2 : (1 - N * uu) * E <= (1 - uu) ^ n * (1 - uu) ^ Datatypes.S nb * E) by (apply Rmult_le_compat_r; lra).
        assert (Q3 : (1 - uu) ^ n * (INR n * eta0) <= 1 * (INR n * eta0)) by (apply Rmult_le_compat_r; lra).
        assert (Q4 : 0 <= N * uu * E) by (apply Rmult_le_pos; lra). lra.
      + assert (Q1 : (1 + uu) ^ n * s <= (1 + uu) ^ n * ((1 + uu) ^ Datatypes.S nb * E + INR n * eta0)) by (apply Rmult_le_compat_l; lra).
        assert (Q2 : (1 + uu) ^ n * (1 + uu) ^ Datatypes.S nb * E <= (1 + 2 * (N * uu)) * E) by (apply Rmult_le_compat_r; lra).
        assert (Q3 : (1 + uu) ^ n * (INR n * eta0) <= 2 * (INR n * eta0)) by (apply Rmult_le_compat_r; lra). lra.
  Qed.
End Err.

(** ** From the union of the ranks to the occupations of each rank *)
Lemma count_spread (o : f64 -> R) (world : list (smap (list f64) * smap f64)) :
  NoDup (keys (concat (map fst world))) -> NoDup (keys (concat (map snd world))) ->
  (forall xw, In xw world -> keys (fst xw) = keys (snd xw)) ->
  rsum (map (fun kw => B2R (snd kw) * rsum (map o (view_at F64 (xunion F64 world) (fst kw)))) (wunion F64 world)) =
  electrons (map (fun xw => values (snd xw)) world) (map (fun xw => map (fun kv => (fst kv, map o (snd kv))) (fst xw)) world).
Proof.
  intros Nx Nw Hk.
  set (h := fun kw : key * f64 => B2R (snd kw) * rsum (map o (view_at F64 (xunion F64 world) (fst kw)))).
  etransitivity; [apply (rsum_perm _ (map h (concat (map snd world)))); apply Permutation_map; apply range_perm; exact Nw|].
  rewrite <- (rsum_concat h). rewrite map_map. unfold electrons. f_equal.
  pose proof (combine_map2 (fun xw : smap (list f64) * smap f64 => values (snd xw)) (fun xw => map (fun kv => (fst kv, map o (snd kv))) (fst xw)) world) as E.
  etransitivity; [|symmetry; exact (f_equal (map _) E)]. rewrite map_map. apply map_ext_in. intros [x w] Hin. cbn [fst snd]. unfold values. rewrite map_map.
  f_equal. apply map_ext_in. intros [k wk] Hkw. unfold h. cbn [fst snd]. f_equal.
  pose proof (Hk _ Hin) as Hkk. cbn [fst snd] in Hkk.
  assert (Hkx : In k (keys x)). { rewrite Hkk. unfold keys. apply in_map_iff. exists (k, wk). auto. }
  assert (Ef : mfind k (xunion F64 world) = mfind k x).
  { unfold xunion. rewrite mfind_of_assignments.
    etransitivity; [apply (mfind_perm k _ (concat (map fst world)))|].
    - unfold keys in *. rewrite map_rev. apply NoDup_rev. exact Nx.
    - exact Nx.
    - intros kv. rewrite <- in_rev. reflexivity.
    - apply mfind_concat; [exact Nx| |exact Hkx]. apply in_map_iff. exists (x, w). auto. }
  unfold view_at. rewrite Ef. destruct (proj2 (mfind_in k x) Hkx) as (v & Hv). rewrite Hv.
  f_equal. clear -Hv. induction x as [|[k' v'] x IH]; cbn in *; [discriminate|].
  destruct (keqb k k'); [inversion Hv; reflexivity|auto].
Qed.

Lemma values_occ (mo : f64) (S : smear F64) (kT mu : f64) x :
  values_l (occupations F64 mo S kT mu x) = map (fun kv => (fst kv, map (fun e => B2R (sfn S (fdiv (fsub mu e) kT) mo)) (snd kv))) x.
Proof. unfold values_l, occupations. rewrite map_map. apply map_ext. intros [k ek]. cbn [fst snd]. rewrite map_map. reflexivity. Qed.

(** C76 *)
Lemma float_electrons L s T mo Ne tol skip Sg (world : list (smap (list f64) * smap f64)) outs nb :
  libm_ok L -> monotone_class s -> setting_ok T mo Ne -> world_ok world -> world <> [] ->
  NoDup (keys (concat (map fst world))) -> NoDup (keys (concat (map snd world))) ->
  (forall xw, In xw world -> keys (fst xw) = keys (snd xw)) ->
  (forall x w k ek, In (x, w) world -> In (k, ek) x -> (length ek <= nb)%nat) ->
  INR (nb + length (concat (map snd world)) + 1) * uu <= / 4 ->
  is_finite tol = true ->
  occupation F64 Ne T mo tol skip Sg (smearing_classF L s) world = Some outs ->
  (forall o, In o outs -> o = Throw RuntimeError) \/
  exists mu fs, outs = map (fun f => Ret (mu, f)) fs /\ is_finite mu = true /\
    let E := electrons_exact (map snd world) fs in
    Rabs (B2R Ne - E) <= (1 + uu) * B2R tol + 2 * (INR (nb + length (concat (map snd world)) + 1) * uu) * E + bp (-1000).
Proof.
  intros HL Hs HT HW Hn Nx Nw Hk Hnb HN Ft Ho.
  assert (NM : non_monotonous (smearing_classF L s) = false) by (destruct Hs as [-> |[-> | ->]]; reflexivity).
  set (S := smearing_classF L s) in *.
  set (f := residual F64 Ne T mo S (xunion F64 world) (wunion F64 world)).
  destruct (find_chemical_potential F64 f tol (fz 0)) as [[o vis] c] eqn:EF.
  destruct (chem_total F64 f tol (fz 0)) as [(mu & K)|K]; rewrite EF in K; cbn [fst] in K; subst o.
  - pose proof (occ_found F64 Ne T mo tol skip Sg S world mu vis c Hn NM EF) as Q. rewrite Q in Ho.
    assert (Ho' : outs = map (fun o => Ret (mu, o)) (map (fun xw => occupations F64 mo S (amul F64 (kb F64) T) mu (fst xw)) world)).
    { pose proof (f_equal (fun o => match o with Some y => y | None => [] end) Ho) as K. exact (eq_sym K). }
    right. exists mu, (map (fun xw => occupations F64 mo S (amul F64 (kb F64) T) mu (fst xw)) world).
    split; [exact Ho'|]. clear Ho Ho' Q. pose proof (search_fin f tol mu vis c EF) as Fm. split; [exact Fm|]. cbv zeta.
    pose proof HT as (_ & _ & Hm & _ & FN & RN).
    pose proof (class_ok L s mo HL Hs Hm) as Hfn. pose proof (small_mo T mo Ne HT) as Sm. pose proof (kT_pos T mo Ne HT) as KT.
    pose proof (union_spectrum world HW) as US. pose proof (union_weights world HW) as UW.
    assert (Hb : forall k ek, mfind k (xunion F64 world) = Some ek -> (length ek <= nb)%nat).
    { intros k ek Q. unfold xunion in Q. rewrite mfind_of_assignments in Q. apply find_member, in_rev, in_concat in Q.
      destruct Q as (m & Im & Ik). apply in_map_iff in Im. destruct Im as ([x w] & <- & Iw). exact (Hnb x w k ek Iw Ik). }
    assert (Hlen : length (wunion F64 world) = length (concat (map snd world))).
    { apply Permutation_length. apply range_perm. exact Nw. }
    rewrite <- Hlen in HN |- *.
    destruct (count_err S mo T Hfn Sm KT (xunion F64 world) (wunion F64 world) mu nb US UW Fm Hb HN) as (E0 & Er).
    assert (EE : electrons_exact (map snd world) (map (fun xw => occupations F64 mo S (amul F64 (kb F64) T) mu (fst xw)) world) =
                 count_exact S mo T (xunion F64 world) (wunion F64 world) mu).
    { unfold electrons_exact. rewrite !map_map. symmetry. unfold count_exact.
      etransitivity; [apply (count_spread (fun e => B2R (occ_out S mo T mu e)) world Nx Nw Hk)|].
      f_equal. apply map_ext. intros [x w]. cbn [fst]. symmetry. apply values_occ. }
    rewrite EE. set (E := count_exact S mo T (xunion F64 world) (wunion F64 world) mu) in *.
    pose proof (chem_sound F64 f tol (fz 0) mu vis c EF) as A.
    destruct (residual_fin S mo T Ne Hfn Sm KT (conj FN RN) (xunion F64 world) (wunion F64 world) mu US UW Fm) as (Fr & Vr).
    change (residual F64 Ne T mo S (xunion F64 world) (wunion F64 world) mu) with (f mu) in Fr, Vr.
    assert (A' : Rabs (B2R (f mu)) < B2R tol).
    { change (Bltb (Babs (f mu)) tol = true) in A. apply ltb_ext in A; [|apply nn_abs, fin_nn; exact Fr|apply fin_nn; exact Ft].
      rewrite ext_abs, !fin_ext in A by assumption. exact A. }
    destruct (sub_err Ne (countF S mo T (xunion F64 world) (wunion F64 world) mu)) as (d & Hd & Ed). rewrite <- Vr in Ed.
    set (cc := B2R (countF S mo T (xunion F64 world) (wunion F64 world) mu)) in *.
    replace (B2R Ne - E) with ((B2R Ne - cc) + (cc - E)) by ring. eapply Rle_trans; [apply Rabs_triang|].
    assert (Q : Rabs (B2R Ne - cc) <= (1 + uu) * B2R tol).
    { rewrite Ed, Rabs_mult, Rmult_comm. apply Rmult_le_compat; try apply Rabs_pos; [|lra].
      pose proof uu_pos. apply Rabs_le_inv in Hd. apply Rabs_le. lra. }
    rewrite Rplus_assoc. apply Rplus_le_compat; [exact Q|exact Er].
  - left. pose proof (occ_failed F64 Ne T mo tol skip Sg S world vis c Hn NM EF) as Q. rewrite Q in Ho.
    pose proof (f_equal (fun o => match o with Some y => y | None => [] end) Ho) as K. cbn in K. rewrite <- K.
    intros o Hin. apply in_map_iff in Hin. destruct Hin as (r & <- & _). reflexivity.
Qed.
