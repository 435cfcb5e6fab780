(** find_chemical_potential (src/smearing.hpp 19-49; model ChemPot.v) executed in binary64, for residuals that
    are finite and non-increasing on the finite doubles: direction of the steps and success. *)
From Coq Require Import ZArith Reals Lra Lia Bool List Psatz.
From Flocq Require Import Core.Core Relative IEEE754.BinarySingleNaN.
From Verif Require Import Arith Float64 FloatMono ChemPot ChemPotProofs SmearFloat SmearFloatProofs CountFloat.
Import ListNotations.
Local Open Scope R_scope.
Local Notation bp := (bpow radix2).

(** Specification: finite values, non-increasing. *)
Definition antitone (f : f64 -> f64) : Prop :=
  (forall x, is_finite x = true -> is_finite (f x) = true) /\
  (forall x y, is_finite x = true -> is_finite y = true -> Bleb x y = true -> Bleb (f y) (f x) = true).

(** Specification: every update moves towards [r] (or does not move, when the step is absorbed by rounding). *)
Fixpoint ftowards (r : f64) (l : list f64) : Prop :=
  match l with
  | a :: (b :: _) as t =>
    ((Bltb a r = true /\ Bleb a b = true) \/ (Bltb r a = true /\ Bleb b a = true)) /\ ftowards r t
  | _ => True
  end.

(** ** Rounding *)
Lemma quarter_v : is_finite (flit 25 100) = true /\ B2R (flit 25 100) = / 4. Proof. litv. Qed.
Lemma five4_v : is_finite (flit 125 100) = true /\ B2R (flit 125 100) = 5 / 4. Proof. litv. Qed.
Lemma tenth_v : is_finite (flit 1 10) = true /\ 999 / 10000 <= B2R (flit 1 10) <= 1001 / 10000.
Proof.
  split; [reflexivity|]. rewrite (proj2 (lit_val 1 10 _ _ _ ltac:(vm_compute; reflexivity))). unfold F2R. cbn. lra.
Qed.
Definition eps : R := 1 / 10000.
Lemma rnd_rel x : bp (-1022) <= x -> (1 - eps) * x <= rnd x <= (1 + eps) * x.
Proof.
  intros H. pose proof (bpow_gt_0 radix2 (-1022)) as P.
  pose proof (relative_error_N_FLT radix2 (-1074) 53 ltac:(reflexivity) (fun z => negb (Z.even z)) x) as R.
  rewrite (Rabs_pos_eq x) in R by lra. specialize (R H).
  replace (bp (- (53) + 1)) with (/ 4503599627370496) in R by (cbn; lra).
  apply Rabs_le_inv in R. change (FLT_exp (-1074) 53) with (SpecFloat.fexp 53 1024) in R. unfold eps. lra.
Qed.
Lemma rnd_abs x j : (-1000 <= j)%Z -> Rabs x <= bp j -> Rabs (rnd x - x) <= bp (j - 53).
Proof.
  intros Hj H. eapply Rle_trans; [apply error_le_half_ulp; apply fexp64_valid|].
  assert (U : ulp radix2 (SpecFloat.fexp 53 1024) x <= bp (j - 52)).
  { replace (bp (j - 52)) with (ulp radix2 (SpecFloat.fexp 53 1024) (bp j)).
    - change (SpecFloat.fexp 53 1024) with (FLT_exp (-1074) 53).
      apply ulp_le; [apply FLT_exp_valid; reflexivity|apply FLT_exp_monotone|]. rewrite (Rabs_pos_eq (bp j)); [exact H|apply bpow_ge_0].
    - rewrite ulp_bpow, fexp64. f_equal. lia. }
  replace (j - 53)%Z with ((j - 52) + -1)%Z by lia. rewrite bpow_plus. change (bp (-1)) with (/ 2). lra.
Qed.

Section Search.
  Context (f : f64 -> f64) (tol : f64).
  Hypothesis Hf : antitone f.
  Hypothesis Htol : is_finite tol = true /\ 0 <= B2R tol.
  Notation loop := (chem_loop F64 f tol).
  Notation fin x := (is_finite x = true).

  Lemma anti x y : fin x -> fin y -> B2R x <= B2R y -> B2R (f y) <= B2R (f x).
  Proof.
    intros Fx Fy H. assert (L : Bleb x y = true) by (apply leb_ext; [apply fin_nn; exact Fx|apply fin_nn; exact Fy|rewrite !fin_ext by assumption; exact H]).
    apply (proj2 Hf x y Fx Fy) in L. pose proof (proj1 Hf x Fx) as Gx. pose proof (proj1 Hf y Fy) as Gy.
    apply leb_ext in L; [|apply fin_nn; assumption|apply fin_nn; assumption]. rewrite !fin_ext in L by assumption. exact L.
  Qed.
  Definition accept (mu : f64) : Prop := Rabs (B2R (f mu)) <= B2R tol.
  Lemma fcases mu : fin mu -> accept mu \/ B2R tol < B2R (f mu) \/ B2R (f mu) < - B2R tol.
  Proof.
    intros F. destruct Htol as [Ft Ht]. unfold accept. destruct (Rle_dec (Rabs (B2R (f mu))) (B2R tol)) as [|Q]; [auto|].
    right. apply Rnot_le_lt in Q. unfold Rabs in Q. destruct (Rcase_abs (B2R (f mu))); lra.
  Qed.
  Lemma test mu : fin mu -> (agtb F64 (aabs F64 (f mu)) tol = true <-> B2R tol < Rabs (B2R (f mu))).
  Proof.
    intros F. pose proof (proj1 Hf mu F) as G. destruct Htol as [Ft Ht]. unfold agtb. cbn [altb aabs F64].
    pose proof (ltb_ext tol (Babs (f mu)) (fin_nn _ Ft) (proj2 (nn_abs _) (fin_nn _ G))) as L.
    rewrite ext_abs, (fin_ext _ G), (fin_ext _ Ft) in L. exact L.
  Qed.
  Lemma floop_stop n mu de s vis c : fin mu -> accept mu -> loop n mu de s vis c = (mu, vis, S c).
  Proof.
    intros F A. assert (T : agtb F64 (aabs F64 (f mu)) tol = false).
    { destruct (agtb F64 (aabs F64 (f mu)) tol) eqn:E; [|reflexivity]. apply (test mu F) in E. unfold accept in A. lra. }
    destruct n; cbn [chem_loop]; rewrite T; reflexivity.
  Qed.
  Definition next (de : f64) (same : bool) : f64 := if same then fmul de (flit 125 100) else fmul de (flit 25 100).
  Lemma floop_up n mu de s vis c : fin mu -> B2R tol < B2R (f mu) ->
    loop (S n) mu de s vis c =
      loop n (fadd mu (fmul (flit 1 1) (next de (1 =? s)%Z))) (next de (1 =? s)%Z) 1 (mu :: vis) (S (S c)).
  Proof.
    intros F A. destruct Htol as [Ft Ht]. assert (T : agtb F64 (aabs F64 (f mu)) tol = true).
    { apply (test mu F). rewrite Rabs_pos_eq; lra. }
    assert (T2 : agtb F64 (f mu) (alit F64 0 1) = true).
    { unfold agtb. cbn [altb F64 alit]. apply ltb_ext; [reflexivity|apply fin_nn, (proj1 Hf); exact F|].
      rewrite (fin_ext (f mu)) by (apply (proj1 Hf); exact F). change (ext (flit 0 1)) with 0. lra. }
    cbn [chem_loop]. rewrite T, T2. unfold next. destruct (1 =? s)%Z; reflexivity.
  Qed.
  Lemma floop_down n mu de s vis c : fin mu -> B2R (f mu) < - B2R tol ->
    loop (S n) mu de s vis c =
      loop n (fadd mu (fmul (flit (-1) 1) (next de (-1 =? s)%Z))) (next de (-1 =? s)%Z) (-1) (mu :: vis) (S (S c)).
  Proof.
    intros F A. destruct Htol as [Ft Ht]. assert (T : agtb F64 (aabs F64 (f mu)) tol = true).
    { apply (test mu F). rewrite Rabs_left1; lra. }
    assert (T2 : agtb F64 (f mu) (alit F64 0 1) = false).
    { unfold agtb. cbn [altb F64 alit]. apply ltb_ext_f; [reflexivity|apply fin_nn, (proj1 Hf); exact F|].
      rewrite (fin_ext (f mu)) by (apply (proj1 Hf); exact F). change (ext (flit 0 1)) with 0. lra. }
    cbn [chem_loop]. rewrite T, T2. unfold next. destruct (-1 =? s)%Z; reflexivity.
  Qed.
  Lemma floop_0 mu de s vis c : loop 0 mu de s vis c = (mu, vis, S c).
  Proof. cbn [chem_loop]. destruct (agtb F64 (aabs F64 (f mu)) tol); reflexivity. Qed.

  (** One step of the arithmetic: sizes. *)
  Lemma one_mul de : fin de -> fin (fmul (flit 1 1) de) /\ B2R (fmul (flit 1 1) de) = B2R de.
  Proof.
    intros F. destruct fz1 as [F1 E1]. unfold fz in *.
    destruct (mul_in (flit 1 1) de (B2R de) (B2R de) F1 F) as (A & B & _); try (apply rep_B2R; exact F); [rewrite E1; lra|].
    split; [exact A|lra].
  Qed.
  Lemma mone_mul de : fin de -> fin (fmul (flit (-1) 1) de) /\ B2R (fmul (flit (-1) 1) de) = - B2R de.
  Proof.
    intros F. destruct fzm1 as [F1 E1]. unfold fz in *.
    destruct (mul_in (flit (-1) 1) de (- B2R de) (- B2R de) F1 F) as (A & B & _); try (apply rep_opp, rep_B2R; exact F); [rewrite E1; lra|].
    split; [exact A|lra].
  Qed.

  (** ** Direction *)
  Lemma next_bound p de b : (-1000 <= p <= 1000)%Z -> fin de -> 0 <= B2R de <= bp p -> fin (next de b) /\ 0 <= B2R (next de b) <= bp (p + 1).
  Proof.
    intros Hp F H. assert (D : bp (p + 1) = bp p * 2) by (rewrite bpow_plus; reflexivity).
    destruct quarter_v as [Fq Eq]. destruct five4_v as [F5 E5]. unfold next.
    destruct b; [destruct (mul_in de (flit 125 100) 0 (bp (p + 1)) F F5) as (A & B & _)|destruct (mul_in de (flit 25 100) 0 (bp (p + 1)) F Fq) as (A & B & _)];
      try apply rep0; try (apply rep_bpow; lia); try (rewrite ?E5, ?Eq; lra); auto.
  Qed.
  Lemma move_bound p (mu d : f64) : (-1000 <= p <= 1000)%Z -> fin mu -> fin d -> Rabs (B2R mu) <= bp p -> Rabs (B2R d) <= bp p ->
    fin (fadd mu d) /\ Rabs (B2R (fadd mu d)) <= bp (p + 1) /\ B2R (fadd mu d) = rnd (B2R mu + B2R d).
  Proof.
    intros Hp F1 F2 H1 H2. apply Rabs_le_inv in H1. apply Rabs_le_inv in H2.
    assert (D : bp (p + 1) = bp p * 2) by (rewrite bpow_plus; reflexivity).
    destruct (add_in mu d (- bp (p + 1)) (bp (p + 1)) F1 F2) as (A & B & C);
      [apply rep_opp, rep_bpow; lia|apply rep_bpow; lia|lra|]. split; [exact A|]. split; [apply Rabs_le; exact B|exact C].
  Qed.
  Lemma ftowards_snoc r l a b : ftowards r (l ++ [a]) -> (Bltb a r = true /\ Bleb a b = true) \/ (Bltb r a = true /\ Bleb b a = true) ->
    ftowards r ((l ++ [a]) ++ [b]).
  Proof.
    induction l as [|x l IH]; cbn [app].
    - cbn. tauto.
    - destruct l as [|y l]; cbn [app] in *.
      + cbn. tauto.
      + intros [H1 H2] H. split; [exact H1|]. apply IH; assumption.
  Qed.
  Lemma to_b (r a : f64) : fin r -> fin a -> B2R a < B2R r -> Bltb a r = true.
  Proof. intros. apply ltb_ext; try (apply fin_nn; assumption). rewrite !fin_ext by assumption. assumption. Qed.
  Lemma to_le (r a : f64) : fin r -> fin a -> B2R a <= B2R r -> Bleb a r = true.
  Proof. intros. apply leb_ext; try (apply fin_nn; assumption). rewrite !fin_ext by assumption. assumption. Qed.
  Lemma loop_dir r : fin r -> accept r -> forall n p mu de s vis c,
    (-1000 <= p)%Z -> (p + Z.of_nat n <= 999)%Z -> fin mu -> fin de -> Rabs (B2R mu) <= bp (p + 1) -> 0 <= B2R de <= bp p ->
    ftowards r (rev (mu :: vis)) ->
    let res := loop n mu de s vis c in ftowards r (rev (fst (fst res) :: snd (fst res))) /\ fin (fst (fst res)).
  Proof.
    intros Fr Ar. induction n as [|n IH]; intros p mu de s vis c Hp Hn Fm Fd Hm Hd Ht; cbv zeta.
    - rewrite floop_0. cbn [fst snd]. auto.
    - assert (Hn' : (p + 1 + Z.of_nat n <= 999)%Z) by lia. assert (Hp' : (-1000 <= p + 1 <= 1000)%Z) by lia.
      assert (Sm : forall d : f64, fin d -> 0 <= B2R d <= bp (p + 1) -> Rabs (B2R d) <= bp (p + 1)).
      { intros d _ H. rewrite Rabs_pos_eq; lra. }
      destruct (fcases mu Fm) as [H|[H|H]].
      + rewrite floop_stop by assumption. cbn [fst snd]. auto.
      + rewrite floop_up by assumption. destruct (next_bound p de (1 =? s)%Z ltac:(lia) Fd Hd) as (K1 & K2).
        set (d := next de (1 =? s)%Z) in *. destruct (one_mul d K1) as (L1 & L2).
        destruct (move_bound (p + 1) mu (fmul (flit 1 1) d) Hp' Fm L1 Hm) as (M1 & M2 & M3); [rewrite L2; apply Sm; assumption|].
        rewrite L2 in M3. replace (p + 1 + 1)%Z with (p + 2)%Z in M2 by lia.
        apply (IH (p + 1)%Z); try assumption; try lia.
        * replace (p + 1 + 1)%Z with (p + 2)%Z by lia. exact M2.
        * cbn [rev] in *. apply ftowards_snoc; [exact Ht|]. left. split.
          -- apply to_b; try assumption. destruct (Rlt_dec (B2R mu) (B2R r)) as [|Q]; [assumption|]. apply Rnot_lt_le in Q.
             pose proof (anti r mu Fr Fm Q). unfold accept in Ar. apply Rabs_le_inv in Ar. lra.
          -- apply to_le; try assumption. rewrite M3. rewrite <- (rnd_id _ (fmt_B2R mu)) at 1. apply rnd_mono. lra.
      + rewrite floop_down by assumption. destruct (next_bound p de (-1 =? s)%Z ltac:(lia) Fd Hd) as (K1 & K2).
        set (d := next de (-1 =? s)%Z) in *. destruct (mone_mul d K1) as (L1 & L2).
        destruct (move_bound (p + 1) mu (fmul (flit (-1) 1) d) Hp' Fm L1 Hm) as (M1 & M2 & M3); [rewrite L2, Rabs_Ropp; apply Sm; assumption|].
        rewrite L2 in M3. replace (p + 1 + 1)%Z with (p + 2)%Z in M2 by lia.
        apply (IH (p + 1)%Z); try assumption; try lia.
        * replace (p + 1 + 1)%Z with (p + 2)%Z by lia. exact M2.
        * cbn [rev] in *. apply ftowards_snoc; [exact Ht|]. right. split.
          -- apply to_b; try assumption. destruct (Rlt_dec (B2R r) (B2R mu)) as [|Q]; [assumption|]. apply Rnot_lt_le in Q.
             pose proof (anti mu r Fm Fr Q). unfold accept in Ar. apply Rabs_le_inv in Ar. lra.
          -- apply to_le; try assumption. rewrite M3. apply Rle_trans with (rnd (B2R mu)); [apply rnd_mono; lra|rewrite rnd_id by apply fmt_B2R; lra].
  Qed.
  Lemma search_dir r : fin r -> Bleb (Babs (f r)) tol = true ->
    ftowards r (rev (snd (fst (find_chemical_potential F64 f tol (fz 0))))).
  Proof.
    intros Fr Ar. assert (A : accept r).
    { pose proof (proj1 Hf r Fr) as G. apply leb_ext in Ar; [|apply nn_abs, fin_nn; exact G|apply fin_nn, Htol].
      rewrite ext_abs, !fin_ext in Ar by (try apply Htol; assumption). exact Ar. }
    unfold find_chemical_potential. change (alit F64 1 10) with (flit 1 10).
    destruct tenth_v as [Fd Hd].
    destruct (loop_dir r Fr A 1000 (-3) (fz 0) (flit 1 10) 1 [] 0 ltac:(lia) ltac:(lia) (proj1 fz0) Fd) as (K & _).
    - rewrite (proj2 fz0), Rabs_R0. apply bpow_ge_0.
    - change (bp (-3)) with (/ 8). lra.
    - cbn. exact I.
    - destruct (chem_loop F64 f tol 1000 (fz 0) (flit 1 10) 1 [] 0) as [[mu vis] c] eqn:E.
      assert (K' : ftowards r (rev (fst (fst (mu, vis, c)) :: snd (fst (mu, vis, c))))) by (rewrite <- E; exact K).
      destruct (negb (altb F64 (aabs F64 (f mu)) tol)); exact K'.
  Qed.
End Search.

(** Whatever the residual does, the search stays on finite doubles. *)
Lemma loop_fin (f : f64 -> f64) (tol : f64) : forall n p (mu de : f64) s vis c,
  (-1000 <= p)%Z -> (p + Z.of_nat n <= 999)%Z -> is_finite mu = true -> is_finite de = true -> Rabs (B2R mu) <= bp (p + 1) -> 0 <= B2R de <= bp p ->
  is_finite (fst (fst (chem_loop F64 f tol n mu de s vis c))) = true.
Proof.
  induction n as [|n IH]; intros p mu de s vis c Hp Hn Fm Fd Hm Hd.
  - rewrite floop_0. exact Fm.
  - assert (Hn' : (p + 1 + Z.of_nat n <= 999)%Z) by lia. assert (Hp' : (-1000 <= p + 1 <= 1000)%Z) by lia.
    cbn [chem_loop]. destruct (agtb F64 (aabs F64 (f mu)) tol); [|exact Fm].
    set (s' := if agtb F64 (f mu) (alit F64 0 1) then 1%Z else (-1)%Z).
    destruct (next_bound p de (s' =? s)%Z ltac:(lia) Fd Hd) as (K1 & K2).
    assert (M : is_finite (fmul (flit s' 1) (next de (s' =? s)%Z)) = true /\ Rabs (B2R (fmul (flit s' 1) (next de (s' =? s)%Z))) <= bp (p + 1)).
    { assert (HS : s' = 1%Z \/ s' = (-1)%Z) by (unfold s'; destruct (agtb F64 (f mu) (alit F64 0 1)); auto). clearbody s'.
      destruct HS as [HS|HS]; rewrite HS in *.
      - destruct (one_mul _ K1) as (L1 & L2). split; [exact L1|]. rewrite L2, Rabs_pos_eq; lra.
      - destruct (mone_mul _ K1) as (L1 & L2). split; [exact L1|]. rewrite L2, Rabs_Ropp, Rabs_pos_eq; lra. }
    destruct (move_bound (p + 1) mu _ Hp' Fm (proj1 M) Hm (proj2 M)) as (M1 & M2 & _).
    apply (IH (p + 1)%Z); try assumption; lia.
Qed.
Lemma search_fin (f : f64 -> f64) (tol mu : f64) vis c : find_chemical_potential F64 f tol (fz 0) = (Ret mu, vis, c) -> is_finite mu = true.
Proof.
  unfold find_chemical_potential. change (alit F64 1 10) with (flit 1 10). destruct tenth_v as [Fd Hd].
  pose proof (loop_fin f tol 1000 (-3) (fz 0) (flit 1 10) 1 [] 0 ltac:(lia) ltac:(lia) (proj1 fz0) Fd) as K.
  assert (K' : is_finite (fst (fst (chem_loop F64 f tol 1000 (fz 0) (flit 1 10) 1 [] 0))) = true).
  { apply K; [rewrite (proj2 fz0), Rabs_R0; apply bpow_ge_0|change (bp (-3)) with (/ 8); lra]. }
  clear K. destruct (chem_loop F64 f tol 1000 (fz 0) (flit 1 10) 1 [] 0) as [[m v] q]. cbn [fst] in K'.
  destruct (negb (altb F64 (aabs F64 (f m)) tol)); intros Q; [discriminate (f_equal (fun r => match fst (fst r) with Throw _ => true | _ => false end) Q)|].
  pose proof (f_equal (fun r => match fst (fst r) with Ret y => y | _ => m end) Q) as Q'. cbn in Q'. rewrite <- Q'. exact K'.
Qed.
