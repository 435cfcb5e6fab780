(** Order properties of binary64 operations (Flocq): rounding is monotone, so the operations are monotone
    wherever the real ones are, with overflow to the infinities.  No code is modelled in this file. *)
From Coq Require Import ZArith Reals Lra Lia Bool.
From Flocq Require Import Core.Core IEEE754.BinarySingleNaN.
From Verif Require Import Arith Float64.
Local Open Scope R_scope.
Local Notation bp := (bpow radix2).

(** 2^1024, not to be unfolded. *)
Definition BIG : R := bp 1024.
Lemma BIG_eq : bp 1024 = BIG. Proof. reflexivity. Qed.
#[global] Opaque BIG.
(** Not a NaN. *)
Definition nn (x : f64) : Prop := is_nan x = false.
(** The value; the infinities are placed at +-2^1024 (BIG), beyond all finite values. *)
Definition ext (x : f64) : R :=
  match x with B754_infinity true => - BIG | B754_infinity false => BIG | _ => B2R x end.
Definition clamp (r : R) : R := Rmax (- BIG) (Rmin (BIG) r).

Lemma big_pos : 0 < BIG. Proof. rewrite <- BIG_eq. apply bpow_gt_0. Qed.
Lemma fin_nn (x : f64) : is_finite x = true -> nn x.
Proof. unfold nn. destruct x; cbn; congruence. Qed.
Lemma fin_ext (x : f64) : is_finite x = true -> ext x = B2R x.
Proof. destruct x as [s|[]| |s m e H]; cbn; congruence. Qed.
Lemma fin_lt (x : f64) : is_finite x = true -> - BIG < B2R x < BIG.
Proof.
  intros F. pose proof (abs_B2R_lt_emax 53 1024 x) as H. rewrite BIG_eq in H. apply Rabs_def2 in H. lra.
Qed.
Lemma ext_range (x : f64) : - BIG <= ext x <= BIG.
Proof.
  pose proof big_pos. destruct x as [s|[]| |s m e B] eqn:E; try (cbn; lra).
  rewrite fin_ext by reflexivity. pose proof (fin_lt (B754_finite s m e B) eq_refl). lra.
Qed.
Lemma fin_iff (x : f64) : nn x -> (is_finite x = true <-> - BIG < ext x < BIG).
Proof.
  intros N. split.
  - intros F. rewrite fin_ext by exact F. apply fin_lt. exact F.
  - destruct x as [s|[]| |s m e B]; cbn; intros; try reflexivity; try lra. discriminate.
Qed.
Lemma clamp_mono a b : a <= b -> clamp a <= clamp b.
Proof. intros H. unfold clamp. apply Rle_max_compat_l. apply Rle_min_compat_l. exact H. Qed.
Lemma clamp_in r : - BIG <= r <= BIG -> clamp r = r.
Proof. intros H. unfold clamp. rewrite Rmin_right by lra. rewrite Rmax_right by lra. reflexivity. Qed.
Lemma clamp_hi r : BIG <= r -> clamp r = BIG.
Proof. intros H. unfold clamp. pose proof big_pos. rewrite Rmin_left by lra. rewrite Rmax_right by lra. reflexivity. Qed.
Lemma clamp_lo r : r <= - BIG -> clamp r = - BIG.
Proof. intros H. unfold clamp. pose proof big_pos. rewrite Rmin_right by lra. rewrite Rmax_left by lra. reflexivity. Qed.

(** ** Comparisons *)
Lemma leb_ext (x y : f64) : nn x -> nn y -> (Bleb x y = true <-> ext x <= ext y).
Proof.
  intros Nx Ny. pose proof big_pos as BP.
  destruct (is_finite x) eqn:Fx; destruct (is_finite y) eqn:Fy.
  - rewrite (Bleb_correct _ _ x y Fx Fy), (fin_ext x Fx), (fin_ext y Fy).
    destruct (Rle_bool_spec (B2R x) (B2R y)); split; intros; try reflexivity; try discriminate; lra.
  - rewrite (fin_ext x Fx). pose proof (fin_lt x Fx).
    destruct y as [s|[]| |s m e B]; try discriminate; cbn [ext]; destruct x as [s'|[]| |s' m' e' B']; try discriminate;
      cbn in *; try destruct s'; split; intros; try reflexivity; try discriminate; lra.
  - rewrite (fin_ext y Fy). pose proof (fin_lt y Fy).
    destruct x as [s|[]| |s m e B]; try discriminate; cbn [ext]; destruct y as [s'|[]| |s' m' e' B']; try discriminate;
      cbn in *; try destruct s'; split; intros; try reflexivity; try discriminate; lra.
  - destruct x as [s|[]| |s m e B]; try discriminate; destruct y as [s'|[]| |s' m' e' B']; try discriminate;
      cbn; split; intros; try reflexivity; try discriminate; lra.
Qed.
Lemma leb_nn (x y : f64) : Bleb x y = true -> nn x /\ nn y.
Proof. unfold nn. destruct x as [s|[]| |[] m e B]; destruct y as [s'|[]| |[] m' e' B']; cbn; try discriminate; auto. Qed.
Lemma ltb_nn (x y : f64) : Bltb x y = true -> nn x /\ nn y.
Proof. unfold nn. destruct x as [s|[]| |[] m e B]; destruct y as [s'|[]| |[] m' e' B']; cbn; try discriminate; auto. Qed.
Lemma ltb_leb (x y : f64) : nn x -> nn y -> Bltb x y = negb (Bleb y x).
Proof.
  intros Nx Ny. destruct (is_finite x) eqn:Fx; destruct (is_finite y) eqn:Fy.
  - rewrite (Bleb_correct _ _ y x Fy Fx), (Bltb_correct _ _ x y Fx Fy).
    destruct (Rle_bool_spec (B2R y) (B2R x)); destruct (Rlt_bool_spec (B2R x) (B2R y)); try reflexivity; lra.
  - destruct y as [s|[]| |s m e B]; try discriminate; destruct x as [s'|[]| |[] m' e' B']; try discriminate; reflexivity.
  - destruct x as [s|[]| |s m e B]; try discriminate; destruct y as [s'|[]| |[] m' e' B']; try discriminate; reflexivity.
  - destruct x as [s|[]| |s m e B]; try discriminate; destruct y as [s'|[]| |s' m' e' B']; try discriminate; reflexivity.
Qed.
Lemma ltb_ext (x y : f64) : nn x -> nn y -> (Bltb x y = true <-> ext x < ext y).
Proof.
  intros Nx Ny. rewrite ltb_leb by assumption. pose proof (leb_ext y x Ny Nx) as L.
  destruct (Bleb y x); cbn; split; intros H; try discriminate; try reflexivity.
  - assert (ext y <= ext x) by (apply L; reflexivity). lra.
  - destruct (Rlt_dec (ext x) (ext y)) as [|Q]; [assumption|]. apply Rnot_lt_le in Q. apply L in Q. discriminate.
Qed.
Lemma ltb_ext_f (x y : f64) : nn x -> nn y -> (Bltb x y = false <-> ext y <= ext x).
Proof.
  intros Nx Ny. pose proof (ltb_ext x y Nx Ny) as L. destruct (Bltb x y); split; intros H; try discriminate; try reflexivity.
  - assert (ext x < ext y) by (apply L; reflexivity). lra.
  - destruct (Rle_dec (ext y) (ext x)) as [|Q]; [assumption|]. apply Rnot_le_lt in Q. apply L in Q. discriminate.
Qed.
Lemma ext_opp (x : f64) : ext (Bopp x) = - ext x.
Proof.
  destruct x as [s|[]| |s m e B]; try (cbn; lra). rewrite !fin_ext by reflexivity. apply B2R_Bopp.
Qed.
Lemma nn_opp (x : f64) : nn (Bopp x) <-> nn x.
Proof. unfold nn. destruct x; cbn; tauto. Qed.
Lemma ext_abs (x : f64) : ext (Babs x) = Rabs (ext x).
Proof.
  pose proof big_pos. destruct x as [s|[]| |s m e B].
  - cbn. rewrite Rabs_R0. reflexivity.
  - cbn [Babs ext]. rewrite Rabs_Ropp, Rabs_pos_eq; lra.
  - cbn [Babs ext]. rewrite Rabs_pos_eq; lra.
  - cbn. rewrite Rabs_R0. reflexivity.
  - rewrite !fin_ext by reflexivity. apply B2R_Babs.
Qed.
Lemma nn_abs (x : f64) : nn (Babs x) <-> nn x.
Proof. unfold nn. destruct x; cbn; tauto. Qed.

(** ** Rounding *)
Lemma rnd_mono a b : a <= b -> rnd a <= rnd b.
Proof. apply round_le; [apply fexp64_valid|apply valid_rnd_N]. Qed.
Lemma rnd_id x : fmt x -> rnd x = x.
Proof. intros F. apply round_generic; [apply valid_rnd_N|exact F]. Qed.
Lemma rnd_0 : rnd 0 = 0.
Proof. apply round_0. apply valid_rnd_N. Qed.
Lemma rnd_pos x : 0 <= x -> 0 <= rnd x.
Proof. intros H. rewrite <- rnd_0. apply rnd_mono. exact H. Qed.
Lemma rnd_neg x : x <= 0 -> rnd x <= 0.
Proof. intros H. rewrite <- rnd_0. apply rnd_mono. exact H. Qed.
Lemma rnd_opp x : rnd (- x) = - rnd x.
Proof. apply round_NE_opp. Qed.
Lemma sign_pos (x : f64) : is_finite x = true -> Bsign x = false -> 0 <= B2R x.
Proof.
  destruct x as [s|s| |s m e B]; cbn [Bsign B2R is_finite]; intros F H; try discriminate; try lra. subst s.
  apply F2R_ge_0. cbn. lia.
Qed.
Lemma sign_neg (x : f64) : is_finite x = true -> Bsign x = true -> B2R x <= 0.
Proof.
  destruct x as [s|s| |s m e B]; cbn [Bsign B2R is_finite]; intros F H; try discriminate; try lra. subst s.
  apply F2R_le_0. cbn. lia.
Qed.
Lemma inf_of (z : f64) s : B2SF z = binary_overflow 53 1024 mode_NE s -> z = B754_infinity s.
Proof. destruct z; cbn; intros H; try discriminate. injection H as ->. reflexivity. Qed.

(** ** Values of the operations on finite operands *)
Lemma ext_add (x y : f64) : is_finite x = true -> is_finite y = true ->
  nn (fadd x y) /\ ext (fadd x y) = clamp (rnd (B2R x + B2R y)).
Proof.
  intros Fx Fy. pose proof (Bplus_correct 53 1024 prec53 emax1024 mode_NE x y Fx Fy) as C. fold (fadd x y) in C.
  cbn [round_mode] in C. rewrite BIG_eq in C. destruct (Rlt_bool_spec (Rabs (rnd (B2R x + B2R y))) (BIG)) as [L|L].
  - destruct C as (C1 & C2 & _). split; [apply fin_nn; exact C2|]. rewrite fin_ext by exact C2. rewrite C1.
    apply Rabs_def2 in L. symmetry. apply clamp_in. lra.
  - destruct C as (C1 & C2). apply inf_of in C1. rewrite C1. split; [reflexivity|].
    destruct (Bsign x) eqn:S; symmetry in C2; cbn [ext].
    + symmetry. apply clamp_lo. pose proof (sign_neg x Fx S). pose proof (sign_neg y Fy C2).
      rewrite Rabs_left1 in L by (apply rnd_neg; lra). lra.
    + symmetry. apply clamp_hi. pose proof (sign_pos x Fx S). pose proof (sign_pos y Fy C2).
      rewrite Rabs_pos_eq in L by (apply rnd_pos; lra). lra.
Qed.
Lemma prod_sign (x y : f64) : is_finite x = true -> is_finite y = true ->
  (xorb (Bsign x) (Bsign y) = false -> 0 <= B2R x * B2R y) /\ (xorb (Bsign x) (Bsign y) = true -> B2R x * B2R y <= 0).
Proof.
  intros Fx Fy. destruct (Bsign x) eqn:Sx; destruct (Bsign y) eqn:Sy; cbn; split; intros H; try discriminate;
  try (apply sign_neg in Sx; [|exact Fx]); try (apply sign_pos in Sx; [|exact Fx]);
  try (apply sign_neg in Sy; [|exact Fy]); try (apply sign_pos in Sy; [|exact Fy]); nra.
Qed.
Lemma ext_mul (x y : f64) : is_finite x = true -> is_finite y = true ->
  nn (fmul x y) /\ ext (fmul x y) = clamp (rnd (B2R x * B2R y)).
Proof.
  intros Fx Fy. pose proof (Bmult_correct 53 1024 prec53 emax1024 mode_NE x y) as C. fold (fmul x y) in C.
  cbn [round_mode] in C. rewrite BIG_eq in C. destruct (Rlt_bool_spec (Rabs (rnd (B2R x * B2R y))) (BIG)) as [L|L].
  - destruct C as (C1 & C2 & _). rewrite Fx, Fy in C2. split; [apply fin_nn; exact C2|]. rewrite fin_ext by exact C2. rewrite C1.
    apply Rabs_def2 in L. symmetry. apply clamp_in. lra.
  - apply inf_of in C. rewrite C. split; [reflexivity|]. destruct (prod_sign x y Fx Fy) as [P Q].
    destruct (xorb (Bsign x) (Bsign y)) eqn:S; cbn [ext].
    + symmetry. apply clamp_lo. specialize (Q eq_refl). rewrite Rabs_left1 in L by (apply rnd_neg; lra). lra.
    + symmetry. apply clamp_hi. specialize (P eq_refl). rewrite Rabs_pos_eq in L by (apply rnd_pos; lra). lra.
Qed.
Lemma quot_sign (x y : f64) : is_finite x = true -> is_finite y = true -> B2R y <> 0 ->
  (xorb (Bsign x) (Bsign y) = false -> 0 <= B2R x / B2R y) /\ (xorb (Bsign x) (Bsign y) = true -> B2R x / B2R y <= 0).
Proof.
  intros Fx Fy N0. destruct (prod_sign x y Fx Fy) as [P Q].
  assert (E : B2R x / B2R y = B2R x * B2R y * (/ B2R y * / B2R y)) by (field; exact N0).
  assert (I : 0 < / B2R y * / B2R y).
  { pose proof (Rinv_neq_0_compat _ N0) as K. nra. }
  split; intros H; [specialize (P H)|specialize (Q H)]; rewrite E; nra.
Qed.
Lemma ext_div (x y : f64) : is_finite x = true -> is_finite y = true -> B2R y <> 0 ->
  nn (fdiv x y) /\ ext (fdiv x y) = clamp (rnd (B2R x / B2R y)).
Proof.
  intros Fx Fy N0. pose proof (Bdiv_correct 53 1024 prec53 emax1024 mode_NE x y N0) as C. fold (fdiv x y) in C.
  cbn [round_mode] in C. rewrite BIG_eq in C. destruct (Rlt_bool_spec (Rabs (rnd (B2R x / B2R y))) (BIG)) as [L|L].
  - destruct C as (C1 & C2 & _). rewrite Fx in C2. split; [apply fin_nn; exact C2|]. rewrite fin_ext by exact C2. rewrite C1.
    apply Rabs_def2 in L. symmetry. apply clamp_in. lra.
  - apply inf_of in C. rewrite C. split; [reflexivity|]. destruct (quot_sign x y Fx Fy N0) as [P Q].
    destruct (xorb (Bsign x) (Bsign y)) eqn:S; cbn [ext].
    + symmetry. apply clamp_lo. specialize (Q eq_refl). rewrite Rabs_left1 in L by (apply rnd_neg; lra). lra.
    + symmetry. apply clamp_hi. specialize (P eq_refl). rewrite Rabs_pos_eq in L by (apply rnd_pos; lra). lra.
Qed.
Lemma fsub_add (x y : f64) : fsub x y = fadd x (Bopp y).
Proof. destruct x as [s|s| |s m e B]; destruct y as [s'|s'| |s' m' e' B']; reflexivity. Qed.
Lemma fin_opp (x : f64) : is_finite (Bopp x) = is_finite x.
Proof. destruct x; reflexivity. Qed.

(** finite values from the value *)
Lemma fin_clamp (z : f64) r : nn z -> ext z = clamp (rnd r) -> Rabs r < bp 1023 -> is_finite z = true /\ B2R z = rnd r.
Proof.
  intros N E H. assert (B : Rabs (rnd r) <= bp 1023).
  { apply abs_round_le_generic; [apply fexp64_valid|apply valid_rnd_N|apply generic_format_bpow; rewrite fexp64; lia|lra]. }
  assert (L : bp 1023 < BIG) by (rewrite <- BIG_eq; apply bpow_lt; lia). pose proof big_pos.
  apply Rabs_le_inv in B. rewrite clamp_in in E by lra. assert (F : is_finite z = true) by (apply (fin_iff z N); lra).
  split; [exact F|]. rewrite <- E. symmetry. apply fin_ext. exact F.
Qed.

(** ** Monotonicity *)
Lemma inf_case (x : f64) : nn x -> x = B754_infinity false \/ x = B754_infinity true \/ is_finite x = true.
Proof. intros N. destruct x as [s|[]| |s m e B]; cbn; auto. Qed.
Lemma ext_top (x : f64) : nn x -> BIG <= ext x -> x = B754_infinity false.
Proof. intros N H. destruct (inf_case x N) as [E|[E|E]]; [exact E| |].
  - subst x. cbn in H. pose proof big_pos. lra. - apply (fin_iff x N) in E. lra. Qed.
Lemma ext_bot (x : f64) : nn x -> ext x <= - BIG -> x = B754_infinity true.
Proof. intros N H. destruct (inf_case x N) as [E|[E|E]]; [| exact E|].
  - subst x. cbn in H. pose proof big_pos. lra. - apply (fin_iff x N) in E. lra. Qed.

Lemma fadd_mono (x x' y y' : f64) : nn x -> nn x' -> nn y -> nn y' -> ext x <= ext x' -> ext y <= ext y' ->
  nn (fadd x y) -> nn (fadd x' y') -> ext (fadd x y) <= ext (fadd x' y').
Proof.
  intros Nx Nx' Ny Ny' Hx Hy N N'.
  assert (Bot : forall z w : f64, nn (fadd z w) -> z = B754_infinity true \/ w = B754_infinity true -> fadd z w = B754_infinity true).
  { intros z w K [-> | ->]; [destruct w as [s|[]| |s m e B]|destruct z as [s|[]| |s m e B]]; try reflexivity; discriminate K. }
  assert (Top : forall z w : f64, nn (fadd z w) -> z = B754_infinity false \/ w = B754_infinity false -> fadd z w = B754_infinity false).
  { intros z w K [-> | ->]; [destruct w as [s|[]| |s m e B]|destruct z as [s|[]| |s m e B]]; try reflexivity; discriminate K. }
  destruct (inf_case x Nx) as [E|[E|Fx]].
  { subst x. rewrite (ext_top x' Nx' Hx) in *. rewrite (Top _ y' N') by (left; reflexivity). apply ext_range. }
  { rewrite (Bot x y N) by (left; exact E). apply ext_range. }
  destruct (inf_case y Ny) as [E|[E|Fy]].
  { subst y. rewrite (ext_top y' Ny' Hy) in *. rewrite (Top x' _ N') by (right; reflexivity). apply ext_range. }
  { rewrite (Bot x y N) by (right; exact E). apply ext_range. }
  destruct (inf_case x' Nx') as [E|[E|Fx']].
  { rewrite (Top x' y' N') by (left; exact E). apply ext_range. }
  { subst x'. apply (ext_bot x Nx) in Hx. subst x. discriminate Fx. }
  destruct (inf_case y' Ny') as [E|[E|Fy']].
  { rewrite (Top x' y' N') by (right; exact E). apply ext_range. }
  { subst y'. apply (ext_bot y Ny) in Hy. subst y. discriminate Fy. }
  rewrite (proj2 (ext_add x y Fx Fy)), (proj2 (ext_add x' y' Fx' Fy')). apply clamp_mono. apply rnd_mono.
  rewrite !fin_ext in Hx by assumption. rewrite !fin_ext in Hy by assumption. lra.
Qed.
Lemma fsub_mono (x x' y y' : f64) : nn x -> nn x' -> nn y -> nn y' -> ext x <= ext x' -> ext y' <= ext y ->
  nn (fsub x y) -> nn (fsub x' y') -> ext (fsub x y) <= ext (fsub x' y').
Proof.
  intros. rewrite !fsub_add in *. apply fadd_mono; try assumption; try (apply nn_opp; assumption).
  rewrite !ext_opp. lra.
Qed.
(** A sum of a finite number with anything but a NaN is not a NaN. *)
Lemma fadd_nn (x y : f64) : is_finite x = true -> nn y -> nn (fadd x y).
Proof.
  intros F N. destruct (inf_case y N) as [-> | [-> | Fy]].
  - destruct x; try discriminate F; reflexivity.
  - destruct x; try discriminate F; reflexivity.
  - apply ext_add; assumption.
Qed.
Lemma fadd_nn_r (x y : f64) : nn x -> is_finite y = true -> nn (fadd x y).
Proof.
  intros N F. destruct (inf_case x N) as [-> | [-> | Fy]].
  - destruct y; try discriminate F; reflexivity.
  - destruct y; try discriminate F; reflexivity.
  - apply ext_add; assumption.
Qed.
Lemma fsub_nn (x y : f64) : is_finite x = true -> nn y -> nn (fsub x y).
Proof. intros F N. rewrite fsub_add. apply fadd_nn; [exact F|apply nn_opp; exact N]. Qed.

(** Product with -1. *)
Lemma fneg_ext (m1 z : f64) : is_finite m1 = true -> B2R m1 = -1 -> nn z -> nn (fmul m1 z) /\ ext (fmul m1 z) = - ext z.
Proof.
  intros F1 E1 N. assert (S : Bsign m1 = true).
  { destruct (Bsign m1) eqn:S; [reflexivity|]. apply sign_pos in S; [lra|exact F1]. }
  destruct (inf_case z N) as [-> | [-> | Fz]].
  - destruct m1 as [s|s| |s m e B]; try discriminate F1; cbn in S; subst s; [cbn in E1; lra|]. split; reflexivity.
  - destruct m1 as [s|s| |s m e B]; try discriminate F1; cbn in S; subst s; [cbn in E1; lra|]. split; [reflexivity|cbn; lra].
  - destruct (ext_mul m1 z F1 Fz) as [K1 K2]. split; [exact K1|]. rewrite K2, E1, (fin_ext z Fz).
    replace (-1 * B2R z) with (- B2R z) by ring. rewrite rnd_opp, (rnd_id _ (fmt_B2R z)). apply clamp_in. pose proof (fin_lt z Fz). lra.
Qed.
(** Quotient by a positive number: monotone in the numerator. *)
Lemma fdiv_num (x y : f64) : nn x -> is_finite y = true -> 0 < B2R y -> nn (fdiv x y).
Proof.
  intros N F P. destruct (inf_case x N) as [-> | [-> | Fx]].
  - destruct y; try discriminate F; reflexivity.
  - destruct y; try discriminate F; reflexivity.
  - apply ext_div; try assumption. lra.
Qed.
Lemma fdiv_mono (x x' y : f64) : nn x -> nn x' -> is_finite y = true -> 0 < B2R y -> ext x <= ext x' -> ext (fdiv x y) <= ext (fdiv x' y).
Proof.
  intros N N' F P H.
  assert (S : Bsign y = false).
  { destruct (Bsign y) eqn:S; [|reflexivity]. apply sign_neg in S; [lra|exact F]. }
  destruct (inf_case x N) as [E|[E|Fx]].
  - subst x. rewrite (ext_top x' N' H). lra.
  - subst x. destruct y as [s|s| |s m e B]; try discriminate F; cbn in S; subst s; [cbn in P; lra|]. cbn [fdiv Bdiv ext xorb]. apply ext_range.
  - destruct (inf_case x' N') as [E|[E|Fx']].
    + subst x'. destruct y as [s|s| |s m e B]; try discriminate F; cbn in S; subst s; [cbn in P; lra|].
      replace (fdiv (B754_infinity false) (B754_finite false m e B)) with (@B754_infinity 53 1024 false) by reflexivity. apply ext_range.
    + subst x'. apply (ext_bot x N) in H. subst x. discriminate Fx.
    + destruct (ext_div x y Fx F) as [_ E1]; [lra|]. destruct (ext_div x' y Fx' F) as [_ E2]; [lra|]. rewrite E1, E2.
      apply clamp_mono, rnd_mono. rewrite !fin_ext in H by assumption. apply Rmult_le_compat_r; [|exact H].
      apply Rlt_le, Rinv_0_lt_compat. exact P.
Qed.
(** Quotient of a finite non-negative number by numbers not below 1: between 0 and the number, antitone. *)
Lemma fdiv_den (m y : f64) : is_finite m = true -> 0 <= B2R m -> nn y -> 1 <= ext y ->
  is_finite (fdiv m y) = true /\ 0 <= B2R (fdiv m y) <= B2R m.
Proof.
  intros F P N H. destruct (inf_case y N) as [E|[E|Fy]].
  - subst y. destruct m as [s|s| |s k e B]; try discriminate F; cbn; (split; [reflexivity|]); cbn in P; lra.
  - subst y. cbn in H. pose proof big_pos. lra.
  - rewrite (fin_ext y Fy) in H. destruct (ext_div m y F Fy) as [K1 K2]; [lra|].
    assert (Q : 0 <= B2R m / B2R y <= B2R m).
    { split; [apply Rmult_le_pos; [exact P|apply Rlt_le, Rinv_0_lt_compat; lra]|].
      rewrite <- (Rmult_1_r (B2R m)) at 2. apply Rmult_le_compat_l; [exact P|]. rewrite <- Rinv_1. apply Rinv_le_contravar; lra. }
    assert (R0 : 0 <= rnd (B2R m / B2R y)) by (apply rnd_pos; lra).
    assert (R1 : rnd (B2R m / B2R y) <= B2R m) by (rewrite <- (rnd_id _ (fmt_B2R m)) at 2; apply rnd_mono; lra).
    pose proof (fin_lt m F). rewrite clamp_in in K2 by lra.
    assert (FF : is_finite (fdiv m y) = true) by (apply (fin_iff _ K1); lra). split; [exact FF|].
    rewrite <- (fin_ext _ FF), K2. lra.
Qed.
Lemma fdiv_anti (m y y' : f64) : is_finite m = true -> 0 <= B2R m -> nn y -> nn y' -> 1 <= ext y -> ext y <= ext y' ->
  B2R (fdiv m y') <= B2R (fdiv m y).
Proof.
  intros F P N N' H L. destruct (fdiv_den m y F P N H) as [F1 Q1]. destruct (fdiv_den m y' F P N') as [F2 Q2]; [lra|].
  destruct (inf_case y' N') as [E|[E|Fy']].
  - subst y'. replace (B2R (fdiv m (B754_infinity false))) with 0; [lra|].
    destruct m as [s|s| |s k e B]; try discriminate F; reflexivity.
  - subst y'. cbn in L. pose proof (ext_range y). pose proof big_pos. lra.
  - destruct (inf_case y N) as [E|[E|Fy]].
    + subst y. apply (ext_top y' N') in L. subst y'. discriminate Fy'.
    + subst y. cbn in H. pose proof big_pos. lra.
    + rewrite <- (fin_ext _ F1), <- (fin_ext _ F2). rewrite (fin_ext y Fy) in *. rewrite (fin_ext y' Fy') in *.
      rewrite (proj2 (ext_div m y F Fy ltac:(lra))), (proj2 (ext_div m y' F Fy' ltac:(lra))). apply clamp_mono, rnd_mono.
      apply Rmult_le_compat_l; [exact P|]. apply Rinv_le_contravar; lra.
Qed.
