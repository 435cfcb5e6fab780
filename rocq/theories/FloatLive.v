(** find_chemical_potential in binary64 succeeds: with rounded steps and positions (continues FloatSearch.v). *)
From Coq Require Import ZArith Reals Lra Lia Bool List Psatz.
From Flocq Require Import Core.Core Relative IEEE754.BinarySingleNaN.
From Verif Require Import Arith Float64 FloatMono ChemPot ChemPotProofs SmearFloat SmearFloatProofs CountFloat FloatSearch.
Import ListNotations.
Local Open Scope R_scope.
Local Notation bp := (bpow radix2).

Section Live.
  Context (f : f64 -> f64) (tol : f64).
  Hypothesis Hf : antitone f.
  Hypothesis Htol : is_finite tol = true /\ 0 <= B2R tol.
  Notation loop := (chem_loop F64 f tol).
  Notation fin x := (is_finite x = true).
  Notation accept := (accept f tol).
  (** Two accepted doubles, both within [-2^(j-1), 2^(j-1)], at least 2^(j-50) apart. *)
  Context (lo hi : f64) (j : Z).
  Hypothesis Hj : (1 <= j <= 40)%Z.
  Hypothesis Flo : fin lo.
  Hypothesis Fhi : fin hi.
  Hypothesis Hlo : Rabs (B2R lo) <= bp (j - 1).
  Hypothesis Hhi : Rabs (B2R hi) <= bp (j - 1).
  Hypothesis Hgap : bp (j - 50) <= B2R hi - B2R lo.
  Hypothesis Alo : B2R (f lo) <= B2R tol.
  Hypothesis Ahi : - B2R tol <= B2R (f hi).
  Let a := B2R lo.
  Let b := B2R hi.
  Let eta := bp (j - 53).       (* error of one rounded addition *)
  Let D := bp (j - 1).
  Let v := (b - a) - eta.

  Lemma eta_pos : 0 < eta. Proof. apply bpow_gt_0. Qed.
  Lemma v_big : 7 * eta <= v.
  Proof.
    unfold v, eta, a, b. assert (E : bp (j - 50) = 8 * bp (j - 53)).
    { replace (j - 50)%Z with ((j - 53) + 3)%Z by lia. rewrite bpow_plus. change (bp 3) with 8. ring. }
    lra.
  Qed.
  Lemma eta_small : eta <= / 4096.
  Proof. unfold eta. apply Rle_trans with (bp (-12)); [apply bpow_le; lia|cbn; lra]. Qed.
  Lemma D_1 : 1 <= D.
  Proof. unfold D. change 1 with (bp 0). apply bpow_le. lia. Qed.
  Lemma twoD : bp j = 2 * D.
  Proof. unfold D. replace (bp j) with (bp ((j - 1) + 1)) by (f_equal; lia). rewrite bpow_plus. change (bp 1) with 2. ring. Qed.
  Lemma D_eta : D = bp 52 * eta.
  Proof. unfold D, eta. rewrite <- bpow_plus. f_equal. lia. Qed.
  Lemma ab : - D <= a /\ a < b /\ b <= D.
  Proof.
    pose proof v_big as V. pose proof eta_pos as P. unfold v in V. unfold D, a, b in *. apply Rabs_le_inv in Hlo. apply Rabs_le_inv in Hhi. lra.
  Qed.

  Lemma fup_below x : fin x -> B2R tol < B2R (f x) -> B2R x < a.
  Proof.
    intros F H. destruct (Rlt_dec (B2R x) a) as [|Q]; [assumption|]. apply Rnot_lt_le in Q.
    pose proof (anti f Hf lo x Flo F Q). lra.
  Qed.
  Lemma fdown_above x : fin x -> B2R (f x) < - B2R tol -> b < B2R x.
  Proof.
    intros F H. destruct (Rlt_dec b (B2R x)) as [|Q]; [assumption|]. apply Rnot_lt_le in Q.
    pose proof (anti f Hf x hi F Fhi Q). lra.
  Qed.

  (** sizes of the rounded steps *)
  Lemma grow de : fin de -> / 2 ^ 60 <= B2R de <= 2 * D ->
    fin (next de true) /\ 5 / 4 * (1 - eps) * B2R de <= B2R (next de true) <= 5 / 4 * (1 + eps) * B2R de.
  Proof.
    intros F H. destruct five4_v as [F5 E5]. unfold next. pose proof twoD as T.
    assert (L : bp (-1022) <= / 2 ^ 60). { apply Rle_trans with (bp (-60)); [apply bpow_le; lia|cbn; lra]. }
    assert (P : 0 < / 2 ^ 60) by (apply Rinv_0_lt_compat, pow_lt; lra).
    assert (B50 : 2 * D <= bp 40) by (rewrite <- T; apply bpow_le; lia).
    destruct (mul_in de (flit 125 100) 0 (bp 41) F F5) as (A & B & C); [apply rep0|apply rep_bpow; lia| |].
    { rewrite E5. change 41%Z with (1 + 40)%Z. rewrite bpow_plus. change (bp 1) with 2. lra. }
    split; [exact A|]. rewrite C, E5. pose proof (rnd_rel (B2R de * (5 / 4)) ltac:(lra)). lra.
  Qed.
  Lemma shrink de : fin de -> / 2 ^ 60 <= B2R de <= 2 * D ->
    fin (next de false) /\ / 4 * (1 - eps) * B2R de <= B2R (next de false) <= / 4 * (1 + eps) * B2R de.
  Proof.
    intros F H. destruct quarter_v as [F5 E5]. unfold next. pose proof twoD as T.
    assert (L : bp (-1022) <= / 2 ^ 60 * / 4). { apply Rle_trans with (bp (-62)); [apply bpow_le; lia|cbn; lra]. }
    assert (P : 0 < / 2 ^ 60) by (apply Rinv_0_lt_compat, pow_lt; lra).
    assert (B50 : 2 * D <= bp 40) by (rewrite <- T; apply bpow_le; lia).
    destruct (mul_in de (flit 25 100) 0 (bp 41) F F5) as (A & B & C); [apply rep0|apply rep_bpow; lia| |].
    { rewrite E5. change 41%Z with (1 + 40)%Z. rewrite bpow_plus. change (bp 1) with 2. lra. }
    split; [exact A|]. rewrite C, E5. pose proof (rnd_rel (B2R de * / 4) ltac:(lra)). lra.
  Qed.
  Lemma move mu d : fin mu -> fin d -> - (2 * D) <= B2R mu + B2R d <= 2 * D ->
    fin (fadd mu d) /\ B2R mu + B2R d - eta <= B2R (fadd mu d) <= B2R mu + B2R d + eta.
  Proof.
    intros F1 F2 H. pose proof twoD as T. destruct (add_in mu d (- bp j) (bp j) F1 F2) as (A & B & C);
      [apply rep_opp, rep_bpow; lia|apply rep_bpow; lia|lra|]. split; [exact A|].
    rewrite C. pose proof (rnd_abs (B2R mu + B2R d) j ltac:(lia)) as R.
    assert (G : Rabs (B2R mu + B2R d) <= bp j) by (apply Rabs_le; lra). specialize (R G). apply Rabs_le_inv in R. fold eta in R. lra.
  Qed.
  Lemma move_up mu d : fin mu -> fin d -> - (2 * D) <= B2R mu + B2R d <= 2 * D ->
    fin (fadd mu (fmul (flit 1 1) d)) /\ B2R mu + B2R d - eta <= B2R (fadd mu (fmul (flit 1 1) d)) <= B2R mu + B2R d + eta.
  Proof.
    intros F1 F2 H. destruct (one_mul d F2) as (A & B). destruct (move mu _ F1 A) as (C & E); [rewrite B; exact H|].
    rewrite B in E. auto.
  Qed.
  Lemma move_down mu d : fin mu -> fin d -> - (2 * D) <= B2R mu - B2R d <= 2 * D ->
    fin (fadd mu (fmul (flit (-1) 1) d)) /\ B2R mu - B2R d - eta <= B2R (fadd mu (fmul (flit (-1) 1) d)) <= B2R mu - B2R d + eta.
  Proof.
    intros F1 F2 H. destruct (mone_mul d F2) as (A & B). destruct (move mu _ F1 A) as (C & E); [rewrite B; lra|].
    rewrite B in E. split; [exact C|]. lra.
  Qed.

  Definition fdone (r : f64 * list f64 * nat) : Prop := fin (fst (fst r)) /\ accept (fst (fst r)).
  Lemma fdone_stop n mu de s vis c : fin mu -> accept mu -> fdone (loop n mu de s vis c).
  Proof. intros F H. rewrite (floop_stop f tol Hf Htol) by assumption. split; assumption. Qed.

  (** The last step had size [de] and jumped over the accepted interval. *)
  Definition fover (mu de : f64) (s : Z) : Prop :=
    (s = 1%Z /\ b < B2R mu /\ B2R mu - b < B2R de - v) \/ (s = (-1)%Z /\ B2R mu < a /\ a - B2R mu < B2R de - v).
  Lemma fover_wide mu de s : fover mu de s -> v < B2R de.
  Proof. intros [(_ & H1 & H2)|(_ & H1 & H2)]; lra. Qed.
  Lemma lower x : v < x -> / 2 ^ 60 <= x / 8.
  Proof.
    intros H. pose proof v_big as V. assert (E : bp (-52) <= eta) by (unfold eta; apply bpow_le; lia).
    assert (E2 : bp (-52) = / 2 ^ 52) by (cbn; lra). rewrite E2 in E.
    replace (2 ^ 60) with (2 ^ 52 * 256) by ring. rewrite Rinv_mult.
    assert (0 < / 2 ^ 52) by (apply Rinv_0_lt_compat, pow_lt; lra). lra.
  Qed.

  Lemma fcross4 m : (forall mu de s vis c n, (4 * m <= n)%nat -> fin mu -> fin de -> fover mu de s -> B2R de <= D -> B2R de * (/ 2) ^ m <= v -> fdone (loop n mu de s vis c)) ->
    forall mu de s vis c n, (4 * S m <= n)%nat -> fin mu -> fin de -> fover mu de s -> B2R de <= D -> B2R de * (/ 2) ^ S m <= v -> fdone (loop n mu de s vis c).
  Proof.
    intros IH mu de s vis c n Hn Fm Fd Ho HD Hw.
    pose proof (fover_wide _ _ _ Ho) as Hde. pose proof v_big as Hv. pose proof eta_pos as He. pose proof (lower _ Hde) as Hl. pose proof D_1 as HD1.
    pose proof ab as (Ha & Hab & Hb). assert (L60 : 0 < / 2 ^ 60) by (apply Rinv_0_lt_compat, pow_lt; lra).
    assert (Hpow : 0 < (/ 2) ^ m) by (apply pow_lt; lra).
    assert (Hnext : forall d, 0 < d -> d <= B2R de * / 2 -> d * (/ 2) ^ m <= v).
    { intros d Hd Hle. eapply Rle_trans; [|exact Hw]. cbn [pow]. rewrite <- Rmult_assoc. apply Rmult_le_compat_r; lra. }
    assert (Evv : v = (b - a) - eta) by reflexivity.
    set (x := B2R de) in *. unfold eps in *.
    destruct n as [|[|[|[|n]]]]; try lia.
    destruct Ho as [(-> & H1 & H2)|(-> & H1 & H2)]; fold x in H2.
    - destruct (fcases f tol Htol mu Fm) as [H|[H|H]]; [apply fdone_stop; assumption|apply fup_below in H; [lra|exact Fm]|].
      rewrite (floop_down f tol Hf Htol) by assumption. change (-1 =? 1)%Z with false. clear H.
      destruct (shrink de Fd) as (F1 & S1); [fold x; lra|]. fold x in S1. unfold eps in S1. set (d1 := next de false) in *.
      destruct (move_down mu d1 Fm F1) as (G1 & M1); [lra|]. set (m1 := fadd mu (fmul (flit (-1) 1) d1)) in *.
      destruct (fcases f tol Htol m1 G1) as [H|[H|H]]; [apply fdone_stop; assumption| |].
      { apply fup_below in H; [|exact G1]. apply IH; try assumption; [lia| |lra|apply Hnext; lra].
        right. repeat split; [exact H|lra]. }
      apply fdown_above in H as Hb1; [|exact G1]. rewrite (floop_down f tol Hf Htol) by assumption. change (-1 =? -1)%Z with true. clear H.
      destruct (grow d1 F1) as (F2 & S2); [lra|]. unfold eps in S2. set (d2 := next d1 true) in *.
      destruct (move_down m1 d2 G1 F2) as (G2 & M2); [lra|]. set (m2 := fadd m1 (fmul (flit (-1) 1) d2)) in *.
      destruct (fcases f tol Htol m2 G2) as [H|[H|H]]; [apply fdone_stop; assumption| |].
      { apply fup_below in H; [|exact G2]. apply IH; try assumption; [lia| |lra|apply Hnext; lra].
        right. repeat split; [exact H|lra]. }
      apply fdown_above in H as Hb2; [|exact G2]. rewrite (floop_down f tol Hf Htol) by assumption. change (-1 =? -1)%Z with true. clear H.
      destruct (grow d2 F2) as (F3 & S3); [lra|]. unfold eps in S3. set (d3 := next d2 true) in *.
      destruct (move_down m2 d3 G2 F3) as (G3 & M3); [lra|]. set (m3 := fadd m2 (fmul (flit (-1) 1) d3)) in *.
      destruct (fcases f tol Htol m3 G3) as [H|[H|H]]; [apply fdone_stop; assumption| |].
      { apply fup_below in H; [|exact G3]. apply IH; try assumption; [lia| |lra|apply Hnext; lra].
        right. repeat split; [exact H|lra]. }
      apply fdown_above in H as Hb3; [|exact G3]. rewrite (floop_down f tol Hf Htol) by assumption. change (-1 =? -1)%Z with true. clear H.
      destruct (grow d3 F3) as (F4 & S4); [lra|]. unfold eps in S4. set (d4 := next d3 true) in *.
      destruct (move_down m3 d4 G3 F4) as (G4 & M4); [lra|]. set (m4 := fadd m3 (fmul (flit (-1) 1) d4)) in *.
      destruct (fcases f tol Htol m4 G4) as [H|[H|H]]; [apply fdone_stop; assumption| |].
      { apply fup_below in H; [|exact G4]. apply IH; try assumption; [lia| |lra|apply Hnext; lra].
        right. repeat split; [exact H|lra]. }
      apply fdown_above in H; [|exact G4]. exfalso. lra.
    - destruct (fcases f tol Htol mu Fm) as [H|[H|H]]; [apply fdone_stop; assumption| |apply fdown_above in H; [lra|exact Fm]].
      rewrite (floop_up f tol Hf Htol) by assumption. change (1 =? -1)%Z with false. clear H.
      destruct (shrink de Fd) as (F1 & S1); [fold x; lra|]. fold x in S1. unfold eps in S1. set (d1 := next de false) in *.
      destruct (move_up mu d1 Fm F1) as (G1 & M1); [lra|]. set (m1 := fadd mu (fmul (flit 1 1) d1)) in *.
      destruct (fcases f tol Htol m1 G1) as [H|[H|H]]; [apply fdone_stop; assumption| |].
      2: { apply fdown_above in H; [|exact G1]. apply IH; try assumption; [lia| |lra|apply Hnext; lra].
        left. repeat split; [exact H|lra]. }
      apply fup_below in H as Hb1; [|exact G1]. rewrite (floop_up f tol Hf Htol) by assumption. change (1 =? 1)%Z with true. clear H.
      destruct (grow d1 F1) as (F2 & S2); [lra|]. unfold eps in S2. set (d2 := next d1 true) in *.
      destruct (move_up m1 d2 G1 F2) as (G2 & M2); [lra|]. set (m2 := fadd m1 (fmul (flit 1 1) d2)) in *.
      destruct (fcases f tol Htol m2 G2) as [H|[H|H]]; [apply fdone_stop; assumption| |].
      2: { apply fdown_above in H; [|exact G2]. apply IH; try assumption; [lia| |lra|apply Hnext; lra].
        left. repeat split; [exact H|lra]. }
      apply fup_below in H as Hb2; [|exact G2]. rewrite (floop_up f tol Hf Htol) by assumption. change (1 =? 1)%Z with true. clear H.
      destruct (grow d2 F2) as (F3 & S3); [lra|]. unfold eps in S3. set (d3 := next d2 true) in *.
      destruct (move_up m2 d3 G2 F3) as (G3 & M3); [lra|]. set (m3 := fadd m2 (fmul (flit 1 1) d3)) in *.
      destruct (fcases f tol Htol m3 G3) as [H|[H|H]]; [apply fdone_stop; assumption| |].
      2: { apply fdown_above in H; [|exact G3]. apply IH; try assumption; [lia| |lra|apply Hnext; lra].
        left. repeat split; [exact H|lra]. }
      apply fup_below in H as Hb3; [|exact G3]. rewrite (floop_up f tol Hf Htol) by assumption. change (1 =? 1)%Z with true. clear H.
      destruct (grow d3 F3) as (F4 & S4); [lra|]. unfold eps in S4. set (d4 := next d3 true) in *.
      destruct (move_up m3 d4 G3 F4) as (G4 & M4); [lra|]. set (m4 := fadd m3 (fmul (flit 1 1) d4)) in *.
      destruct (fcases f tol Htol m4 G4) as [H|[H|H]]; [apply fdone_stop; assumption| |].
      2: { apply fdown_above in H; [|exact G4]. apply IH; try assumption; [lia| |lra|apply Hnext; lra].
        left. repeat split; [exact H|lra]. }
      apply fup_below in H; [|exact G4]. exfalso. lra.
  Qed.
  Lemma fcross m : forall mu de s vis c n, (4 * m <= n)%nat -> fin mu -> fin de -> fover mu de s -> B2R de <= D -> B2R de * (/ 2) ^ m <= v ->
    fdone (loop n mu de s vis c).
  Proof.
    induction m as [|m IH]; [|apply fcross4; exact IH].
    intros mu de s vis c n _ _ _ Ho _ Hw. exfalso. apply fover_wide in Ho. cbn in Hw. lra.
  Qed.
  (** 50 crossings reduce any step up to D below the width. *)
  Lemma fcross_all mu de s vis c n : (200 <= n)%nat -> fin mu -> fin de -> fover mu de s -> B2R de <= D -> fdone (loop n mu de s vis c).
  Proof.
    intros Hn Fm Fd Ho Hd. apply (fcross 50); try assumption; try lia.
    pose proof v_big as V. pose proof eta_pos as P. pose proof D_eta as E. apply Rle_trans with (D * (/ 2) ^ 50).
    - apply Rmult_le_compat_r; [apply Rlt_le, pow_lt; lra|exact Hd].
    - rewrite E. replace (bp 52 * eta * (/ 2) ^ 50) with (4 * eta); [lra|]. cbn. field.
  Qed.

  (** Approach with growing steps; [g] bounds the distance to the near edge. *)
  Lemma fapproach k : forall mu de s vis c n g, (k + 200 <= n)%nat -> fin mu -> fin de -> / 50 <= B2R de ->
    (s = 1%Z /\ a - B2R mu <= g \/ s = (-1)%Z /\ B2R mu - b <= g) ->
    (accept mu \/ (s = 1%Z /\ B2R tol < B2R (f mu)) \/ (s = (-1)%Z /\ B2R (f mu) < - B2R tol)) ->
    g <= 5 * B2R de * ((6/5) ^ k - 1) -> 0 <= g <= D -> g / 3 + 4/3 * B2R de <= D ->
    fdone (loop n mu de s vis c).
  Proof.
    pose proof ab as (Ha & Hab & Hb). pose proof eta_small as He. pose proof eta_pos as Hp. pose proof v_big as Hv.
    assert (L60 : / 2 ^ 60 <= / 50). { apply Rinv_le_contravar; [lra|]. apply Rle_trans with (2 ^ 6); [lra|apply Rle_pow; [lra|lia]]. }
    assert (Evv : v = (b - a) - eta) by reflexivity.
    induction k as [|k IH]; intros mu de s vis c n g Hn Fm Fd Hde Hg Hs Hk Hg0 HE.
    - assert (g = 0) by (cbn in Hk; lra). subst g.
      destruct Hs as [H|[(-> & H)|(-> & H)]]; [apply fdone_stop; assumption| |].
      + apply fup_below in H; [|exact Fm]. destruct Hg as [(_ & Hg)|(Hx & _)]; [lra|discriminate].
      + apply fdown_above in H; [|exact Fm]. destruct Hg as [(Hx & _)|(_ & Hg)]; [discriminate|lra].
    - destruct n as [|n]; [lia|].
      destruct (grow de Fd ltac:(lra)) as (F1 & S1). unfold eps in S1.
      assert (Hpow : 1 <= (6/5) ^ k) by (apply pow_R1_Rle; lra).
      destruct Hs as [H|[(-> & H)|(-> & H)]]; [apply fdone_stop; assumption| |].
      + destruct Hg as [(_ & Hg)|(Hx & _)]; [|discriminate]. apply fup_below in H as Hlt; [|exact Fm].
        rewrite (floop_up f tol Hf Htol) by assumption. change (1 =? 1)%Z with true. set (d := next de true) in *.
        destruct (move_up mu d Fm F1) as (G1 & M1); [lra|]. set (m1 := fadd mu (fmul (flit 1 1) d)) in *.
        destruct (fcases f tol Htol m1 G1) as [H'|[H'|H']]; [apply fdone_stop; assumption| |].
        * apply fup_below in H' as Hlt'; [|exact G1].
          apply (IH _ _ _ _ _ _ (g - (B2R d - eta))); try assumption; try lia; try lra.
          -- left. split; [reflexivity|lra].
          -- right. left. split; [reflexivity|exact H'].
          -- cbn [pow] in Hk.
             assert (Q : 5 * (6 / 5 * B2R de) * ((6 / 5) ^ k - 1) <= 5 * B2R d * ((6 / 5) ^ k - 1)).
             { apply Rmult_le_compat_r; [lra|]. lra. }
             assert (B2R de <= B2R d - eta) by lra. lra.
        * apply fdown_above in H'; [|exact G1]. apply fcross_all; try assumption; try lia; [|lra].
          left. split; [reflexivity|]. split; [exact H'|]. lra.
      + destruct Hg as [(Hx & _)|(_ & Hg)]; [discriminate|]. apply fdown_above in H as Hlt; [|exact Fm].
        rewrite (floop_down f tol Hf Htol) by assumption. change (-1 =? -1)%Z with true. set (d := next de true) in *.
        destruct (move_down mu d Fm F1) as (G1 & M1); [lra|]. set (m1 := fadd mu (fmul (flit (-1) 1) d)) in *.
        destruct (fcases f tol Htol m1 G1) as [H'|[H'|H']]; [apply fdone_stop; assumption| |].
        * apply fup_below in H'; [|exact G1]. apply fcross_all; try assumption; try lia; [|lra].
          right. split; [reflexivity|]. split; [exact H'|]. lra.
        * apply fdown_above in H' as Hlt'; [|exact G1].
          apply (IH _ _ _ _ _ _ (g - (B2R d - eta))); try assumption; try lia; try lra.
          -- right. split; [reflexivity|lra].
          -- right. right. split; [reflexivity|exact H'].
          -- cbn [pow] in Hk.
             assert (Q : 5 * (6 / 5 * B2R de) * ((6 / 5) ^ k - 1) <= 5 * B2R d * ((6 / 5) ^ k - 1)).
             { apply Rmult_le_compat_r; [lra|]. lra. }
             assert (B2R de <= B2R d - eta) by lra. lra.
  Qed.
  Lemma pow170 : D <= 5 * / 50 * ((6 / 5) ^ 170 - 1).
  Proof.
    apply Rle_trans with (bp 39); [unfold D; apply bpow_le; lia|]. replace (bp 39) with 549755813888 by (cbn; lra).
  assert (Q : 22 ^ 10 <= (6 / 5) ^ 170).
  { replace 170%nat with (17 * 10)%nat by reflexivity. rewrite pow_mult. apply pow_incr. split; [lra|]. cbn. lra. }
  replace (22 ^ 10) with 26559922791424 in Q by (cbn; lra). lra.
  Qed.
  Lemma fsearch_done n : (371 <= n)%nat -> fdone (loop n (fz 0) (flit 1 10) 1 [] 0).
  Proof.
    intros Hn. pose proof ab as (Ha & Hab & Hb). pose proof eta_small as He. pose proof eta_pos as Hp. pose proof v_big as Hv.
    assert (Evv : v = (b - a) - eta) by reflexivity. pose proof D_1 as D1.
    assert (L60 : / 2 ^ 60 <= / 50). { apply Rinv_le_contravar; [lra|]. apply Rle_trans with (2 ^ 6); [lra|apply Rle_pow; [lra|lia]]. }
    assert (Hk : forall x, / 50 <= x -> D <= 5 * x * ((6 / 5) ^ 170 - 1)).
    { intros x Hx. eapply Rle_trans; [apply pow170|]. apply Rmult_le_compat_r; [|lra].
      assert (1 <= (6 / 5) ^ 170) by (apply pow_R1_Rle; lra). lra. }
    destruct fz0 as [F0 E0]. destruct tenth_v as [Ft Et].
    destruct (fcases f tol Htol (fz 0) F0) as [H|[H|H]]; [apply fdone_stop; assumption| |].
    - apply (fapproach 170 _ _ _ _ _ _ D); try assumption; try lia; try lra.
      + left. split; [reflexivity|]. rewrite E0. lra.
      + right. left. split; [reflexivity|exact H].
      + apply Hk. lra.
    - destruct n as [|n]; [lia|]. apply fdown_above in H as Hlt; [|exact F0]. rewrite E0 in Hlt.
      rewrite (floop_down f tol Hf Htol) by assumption. change (-1 =? 1)%Z with false.
      destruct (shrink (flit 1 10) Ft ltac:(lra)) as (F1 & S1). unfold eps in S1. set (d := next (flit 1 10) false) in *.
      destruct (move_down (fz 0) d F0 F1) as (G1 & M1); [rewrite E0; lra|]. rewrite E0 in M1. set (m1 := fadd (fz 0) (fmul (flit (-1) 1) d)) in *.
      destruct (fcases f tol Htol m1 G1) as [H'|[H'|H']]; [apply fdone_stop; assumption| |].
      + apply fup_below in H'; [|exact G1]. apply fcross_all; try assumption; try lia; [|lra].
        right. split; [reflexivity|]. split; [exact H'|]. lra.
      + apply fdown_above in H' as Hlt'; [|exact G1]. apply (fapproach 170 _ _ _ _ _ _ D); try assumption; try lia; try lra.
        * right. split; [reflexivity|]. lra.
        * right. right. split; [reflexivity|exact H'].
        * apply Hk. lra.
  Qed.
End Live.
