(** src/preconditioner.hpp: the Teter preconditioner 67-111 and its application 16-59.
    The class is not used by nlcg_us, which applies the preconditioner of the calling program. *)
From Coq Require Import ZArith Reals Lra Psatz Arith Lia List Bool Permutation.
From Flocq Require Import Core.Core IEEE754.BinarySingleNaN.
From Verif Require Import Arith Float64 MVector LapackMem LapackMemProofs.
Import ListNotations.
Local Open Scope R_scope.

(** The entry for kinetic energy T, preconditioner.hpp 83-88. *)
Definition teter (A : arith) (T : num A) : num A :=
  let n k := alit A k 1 in
  let T2 := amul A T T in
  let T3 := amul A T2 T in
  let T4 := amul A T2 T2 in
  let tp := adiv A (amul A (n 16%Z) T4)
              (aadd A (aadd A (aadd A (n 27%Z) (amul A (n 18%Z) T)) (amul A (n 12%Z) T2)) (amul A (n 8%Z) T3)) in
  adiv A (n 1%Z) (aadd A (n 1%Z) tp).

(** The constructor, 75-93: one vector of entries for each key. *)
Definition teter_precond (A : arith) (ekin : smap (list (num A))) : smap (list (num A)) :=
  map (fun kv => (fst kv, map (teter A) (snd kv))) ekin.

Section Apply.
  Context (E : elt).
  (** diagonal_preconditioner::apply(dst, src, entries), 24-41; entries has [en] elements *)
  Definition apply_diag (order : list (nat * nat)) (dst src : view E) (en : nat) (entries : nat -> er E) : kres (view E) :=
    kbind (foreach order (fun i j c =>
      if Nat.ltb i en then load (vbuf src) (addr src i j) (fun a => store c (addr dst i j) (erscale E (entries i) a)) else KUB)
      (vbuf dst)) (fun b => KOk (with_buf dst b)).
  (** operator(), 43-49: into a new matrix of the same shape *)
  Definition precond (order : list (nat * nat)) (junk : nat -> ev E) (x : view E) (en : nat) (entries : nat -> er E) : kres (view E) :=
    apply_diag order (alloc_uninit E (vrows x) (vcols x) (vlocal x) junk) x en entries.
  (** apply_in_place, 51-55: source and destination are the same memory *)
  Definition precond_in_place (order : list (nat * nat)) (x : view E) (en : nat) (entries : nat -> er E) : kres (view E) :=
    kbind (foreach order (fun i j c =>
      if Nat.ltb i en then modify c (addr x i j) (erscale E (entries i)) else KUB) (vbuf x)) (fun b => KOk (with_buf x b)).

  Lemma apply_diag_ok order (dst src : view E) en entries :
    Permutation order (pairs (vrows src) (vcols src)) -> allocated src -> allocated dst ->
    vrows dst = vrows src -> vcols dst = vcols src -> injective_view (vrows src) (vcols src) dst -> (vrows src <= en)%nat ->
    exists d', apply_diag order dst src en entries = KOk d' /\
      block_replaced (vrows src) (vcols src) dst d' (fun i j => erscale E (entries i) (vat src i j)).
  Proof.
    intros P HS HD R1 R2 J Hn. unfold apply_diag.
    apply (elementwise_ok (vrows src) (vcols src) order dst src (fun i _ a _ => erscale E (entries i) a)); try assumption; try reflexivity.
    intros i j c Hi Hj Hc. assert (L : Nat.ltb i en = true) by (apply Nat.ltb_lt; lia). rewrite L.
    unfold load. destruct (rd (vbuf src) (addr src i j)); [|reflexivity]. apply store_in. exact Hc.
  Qed.
  Lemma precond_ok order junk (x : view E) en entries :
    Permutation order (pairs (vrows x) (vcols x)) -> allocated x -> (vrows x <= en)%nat ->
    exists y, precond order junk x en entries = KOk y /\ vrows y = vrows x /\ vcols y = vcols x /\
      forall i j, (i < vrows x)%nat -> (j < vcols x)%nat -> vat y i j = erscale E (entries i) (vat x i j).
  Proof.
    intros P HA Hn. unfold precond.
    destruct (apply_diag_ok order (alloc_uninit E (vrows x) (vcols x) (vlocal x) junk) x en entries) as [y [R B]];
      try assumption; try reflexivity.
    - intros i j Hi Hj. cbn in *. assert (vrows x * (j + 1) <= vrows x * vcols x)%nat by (apply Nat.mul_le_mono_l; lia). nia.
    - intros i j i' j' Hi Hj Hi' Hj' e. cbn [vs0 vs1 alloc_uninit] in e. apply (cm_inj (vrows x) (vrows x)); lia.
    - exists y. split; [exact R|]. destruct B as (b1 & b2 & b3 & b4 & _ & _ & b7 & _). split; [exact b1|]. split; [exact b2|].
      intros i j Hi Hj. unfold vat at 1, addr. rewrite b3, b4. apply b7; assumption.
  Qed.
  Lemma precond_in_place_ok order (x : view E) en entries :
    Permutation order (pairs (vrows x) (vcols x)) -> allocated x -> injective_view (vrows x) (vcols x) x -> (vrows x <= en)%nat ->
    exists y, precond_in_place order x en entries = KOk y /\
      block_replaced (vrows x) (vcols x) x y (fun i j => erscale E (entries i) (vat x i j)).
  Proof.
    intros P HA J Hn. unfold precond_in_place.
    apply (elementwise_ok (vrows x) (vcols x) order x x (fun i _ _ old => erscale E (entries i) old)); try assumption; try reflexivity.
    intros i j c Hi Hj Hc. assert (L : Nat.ltb i en = true) by (apply Nat.ltb_lt; lia). rewrite L.
    unfold load. rewrite (rd_in (vbuf x)) by (apply HA; assumption). apply modify_in. exact Hc.
  Qed.
  (** Fewer entries than rows: reads behind the entries. *)
  Lemma precond_short order junk (x : view E) en entries :
    Permutation order (pairs (vrows x) (vcols x)) -> allocated x -> (en < vrows x)%nat -> (1 <= vcols x)%nat ->
    precond order junk x en entries = KUB.
  Proof.
    intros P HA Hn Hc. unfold precond, apply_diag. rewrite foreach_ub; [reflexivity| |].
    - intros i j c Hin Hs. apply (order_in _ _ _ P) in Hin. destruct Hin as [Hi Hj].
      destruct (Nat.ltb i en); [|left; reflexivity]. right. rewrite load_in by (apply HA; assumption).
      rewrite store_in; [eexists; split; [reflexivity|exact Hs]|]. rewrite Hs. unfold addr. cbn.
      assert (vrows x * (j + 1) <= vrows x * vcols x)%nat by (apply Nat.mul_le_mono_l; lia). nia.
    - exists en, 0%nat. split; [apply (order_in _ _ _ P); lia|]. intros c Hs. rewrite Nat.ltb_irrefl. reflexivity.
  Qed.
End Apply.

(** ** Exact arithmetic *)
Definition teterR (T : R) : R := 1 / (1 + 16 * (T * T * (T * T)) / (27 + 18 * T + 12 * (T * T) + 8 * (T * T * T))).
Lemma teter_R T : teter Rarith T = teterR T.
Proof. unfold teter, teterR. cbn. unfold Rlit, Rdiv. rewrite ?Rinv_1, ?Rmult_1_r. reflexivity. Qed.

Definition den (T : R) : R := 27 + 18 * T + 12 * (T * T) + 8 * (T * T * T).
Lemma den_pos T : 0 <= T -> 27 <= den T.
Proof. intros H. unfold den. assert (0 <= T * T) by nra. assert (0 <= T * T * T) by (apply Rmult_le_pos; assumption). lra. Qed.
Lemma tp_incr a b : 0 <= a -> a < b -> 16 * (a * a * (a * a)) / den a < 16 * (b * b * (b * b)) / den b.
Proof.
  intros Ha Hab. pose proof (den_pos a Ha) as Da. pose proof (den_pos b ltac:(lra)) as Db.
  assert (Hb : 0 < b) by lra.
  assert (S : a * a < b * b) by nra. assert (A2 : 0 <= a * a) by nra. assert (B2 : 0 < b * b) by nra.
  assert (A3 : 0 <= a * a * a) by (apply Rmult_le_pos; assumption). assert (B3 : 0 < b * b * b) by (apply Rmult_lt_0_compat; assumption).
  assert (C : a * a * a <= b * b * b) by (assert (a * a * a <= b * b * a) by (apply Rmult_le_compat_r; lra); assert (b * b * a <= b * b * b) by (apply Rmult_le_compat_l; lra); lra).
  assert (Q : a * a * (a * a) < b * b * (b * b)) by (apply Rmult_le_0_lt_compat; lra).
  apply Rmult_lt_reg_r with (den a * den b); [apply Rmult_lt_0_compat; lra|].
  replace (16 * (a * a * (a * a)) / den a * (den a * den b)) with (16 * (a * a * (a * a)) * den b) by (field; lra).
  replace (16 * (b * b * (b * b)) / den b * (den a * den b)) with (16 * (b * b * (b * b)) * den a) by (field; lra).
  unfold den.
  assert (P1 : 0 <= a * b) by nra. assert (P2 : 0 <= a * a * (b * b)) by nra.
  assert (E : 16 * (b * b * (b * b)) * (27 + 18 * a + 12 * (a * a) + 8 * (a * a * a)) - 16 * (a * a * (a * a)) * (27 + 18 * b + 12 * (b * b) + 8 * (b * b * b))
    = 432 * (b * b * (b * b) - a * a * (a * a)) + 288 * (a * b) * (b * b * b - a * a * a) + 192 * (a * a * (b * b)) * (b * b - a * a) + 128 * (a * b * (a * a * (b * b))) * (b - a)) by ring.
  assert (0 <= 288 * (a * b) * (b * b * b - a * a * a)) by (apply Rmult_le_pos; lra).
  assert (0 <= 192 * (a * a * (b * b)) * (b * b - a * a)) by (apply Rmult_le_pos; lra).
  assert (0 <= 128 * (a * b * (a * a * (b * b))) * (b - a)) by (apply Rmult_le_pos; [apply Rmult_le_pos; [lra|apply Rmult_le_pos; assumption]|lra]).
  lra.
Qed.
Lemma tp_nonneg T : 0 <= T -> 0 <= 16 * (T * T * (T * T)) / den T.
Proof.
  intros H. pose proof (den_pos T H). assert (0 <= T * T) by nra. apply Rmult_le_pos; [apply Rmult_le_pos; [lra|apply Rmult_le_pos; assumption]|].
  apply Rlt_le. apply Rinv_0_lt_compat. lra.
Qed.
Lemma inv_decr x y : 0 < x -> x < y -> 1 / y < 1 / x.
Proof. intros H K. unfold Rdiv. rewrite !Rmult_1_l. apply Rinv_lt_contravar; [apply Rmult_lt_0_compat; lra|exact K]. Qed.
Lemma teterR_decr a b : 0 <= a -> a < b -> teterR b < teterR a.
Proof.
  intros Ha Hab. pose proof (tp_incr a b Ha Hab) as I. pose proof (tp_nonneg a Ha) as N. unfold teterR. fold (den a) (den b).
  apply inv_decr; lra.
Qed.
Lemma teterR_0 : teterR 0 = 1.
Proof. unfold teterR. field. Qed.
Lemma teterR_range T : 0 <= T -> 0 < teterR T <= 1 /\ (teterR T = 1 <-> T = 0).
Proof.
  intros H. assert (P : 0 < teterR T).
  { unfold teterR. fold (den T). pose proof (tp_nonneg T H). apply Rdiv_lt_0_compat; lra. }
  destruct (Req_dec T 0) as [->|N].
  - rewrite teterR_0. split; [lra|]. split; intros; reflexivity.
  - pose proof (teterR_decr 0 T (Rle_refl 0) ltac:(lra)) as D. rewrite teterR_0 in D. split; [lra|]. split; intros; lra.
Qed.
(** Large kinetic energies: T times the entry tends to 1/2: the entry is bounded by 1/(2T) + const/T^2 and by 1. *)
Lemma teterR_decay T : 0 < T -> teterR T <= (27 + 18 * T + 12 * (T * T) + 8 * (T * T * T)) / (16 * (T * T * (T * T))).
Proof.
  intros H. unfold teterR. fold (den T). pose proof (den_pos T ltac:(lra)) as D. assert (S : 0 < T * T) by nra.
  assert (Q : 0 < 16 * (T * T * (T * T))) by (apply Rmult_lt_0_compat; [lra|apply Rmult_lt_0_compat; assumption]).
  replace (den T / (16 * (T * T * (T * T)))) with (1 / (16 * (T * T * (T * T)) / den T)) by (field; lra).
  assert (K : 0 < 16 * (T * T * (T * T)) / den T) by (apply Rdiv_lt_0_compat; lra).
  apply Rlt_le. apply inv_decr; lra.
Qed.

(** ** binary64 *)
Local Notation bp := (bpow radix2).
Lemma fmt_bpow e : (-1074 <= e)%Z -> fmt (bp e).
Proof. intros H. apply generic_format_bpow. rewrite fexp64. lia. Qed.
Lemma rnd_le_bpow x e : (-1074 <= e)%Z -> x <= bp e -> rnd x <= bp e.
Proof. intros H Hx. apply round_le_generic; [apply fexp64_valid|apply valid_rnd_N|apply fmt_bpow; exact H|exact Hx]. Qed.
Lemma rnd_ge_bpow x e : (-1074 <= e)%Z -> bp e <= x -> bp e <= rnd x.
Proof. intros H Hx. apply round_ge_generic; [apply fexp64_valid|apply valid_rnd_N|apply fmt_bpow; exact H|exact Hx]. Qed.
Lemma rnd_nonneg x : 0 <= x -> 0 <= rnd x.
Proof. intros Hx. apply round_ge_generic; [apply fexp64_valid|apply valid_rnd_N|apply generic_format_0|exact Hx]. Qed.
(** finite with value in [0, 2^e] *)
Definition upto (x : f64) (e : Z) : Prop := is_finite x = true /\ 0 <= B2R x <= bp e.
Lemma upto_lt e : (e < 1024)%Z -> forall x, 0 <= x <= bp e -> (-1074 <= e)%Z -> Rlt_bool (Rabs (rnd x)) (bp 1024) = true.
Proof.
  intros He x [H0 H1] Hl. apply Rlt_bool_true. rewrite Rabs_pos_eq by (apply rnd_nonneg; exact H0).
  apply Rle_lt_trans with (bp e); [apply rnd_le_bpow; assumption|apply bpow_lt; exact He].
Qed.
Lemma fmul_upto x y a b : upto x a -> upto y b -> (-1074 <= a + b < 1024)%Z -> upto (fmul x y) (a + b).
Proof.
  intros [Fx [x0 x1]] [Fy [y0 y1]] H.
  assert (P : 0 <= B2R x * B2R y <= bp (a + b)).
  { split; [apply Rmult_le_pos; assumption|]. rewrite bpow_plus. apply Rmult_le_compat; assumption. }
  pose proof (Bmult_correct 53 1024 prec53 emax1024 mode_NE x y) as C. fold (fmul x y) in C. cbn [round_mode] in C.
  rewrite (upto_lt (a + b)) in C by (try exact P; lia). destruct C as (C1 & C2 & _). rewrite Fx, Fy in C2.
  split; [exact C2|]. rewrite C1. split; [apply rnd_nonneg; apply P|apply rnd_le_bpow; [lia|apply P]].
Qed.
Lemma fadd_upto x y a l : upto x a -> upto y a -> (-1074 <= a < 1023)%Z -> (-1074 <= l)%Z -> (bp l <= B2R x \/ bp l <= B2R y) ->
  upto (fadd x y) (a + 1) /\ bp l <= B2R (fadd x y).
Proof.
  intros [Fx [x0 x1]] [Fy [y0 y1]] H Hl L.
  assert (P : 0 <= B2R x + B2R y <= bp (a + 1)).
  { split; [lra|]. rewrite bpow_plus. change (bp 1) with 2. lra. }
  pose proof (Bplus_correct 53 1024 prec53 emax1024 mode_NE x y Fx Fy) as C. fold (fadd x y) in C. cbn [round_mode] in C.
  rewrite (upto_lt (a + 1)) in C by (try exact P; lia). destruct C as (C1 & C2 & _).
  split; [split; [exact C2|]|]; rewrite C1; [split; [apply rnd_nonneg; apply P|apply rnd_le_bpow; [lia|apply P]]|].
  apply rnd_ge_bpow; [exact Hl|destruct L; lra].
Qed.
(** x / y with y between 2^l and 2^u *)
Lemma fdiv_upto x y a l : upto x a -> is_finite y = true -> bp l <= B2R y -> (-1074 <= a - l < 1024)%Z -> upto (fdiv x y) (a - l).
Proof.
  intros [Fx [x0 x1]] Fy L H. pose proof (bpow_gt_0 radix2 l) as Pl.
  assert (P : 0 <= B2R x / B2R y <= bp (a - l)).
  { split; [apply Rmult_le_pos; [exact x0|apply Rlt_le; apply Rinv_0_lt_compat; lra]|].
    replace (a - l)%Z with (a + - l)%Z by lia. rewrite bpow_plus, bpow_opp. apply Rmult_le_compat; try assumption.
    - apply Rlt_le. apply Rinv_0_lt_compat. lra.
    - apply Rinv_le_contravar; assumption. }
  pose proof (Bdiv_correct 53 1024 prec53 emax1024 mode_NE x y ltac:(lra)) as C. fold (fdiv x y) in C. cbn [round_mode] in C.
  rewrite (upto_lt (a - l)) in C by (try exact P; lia). destruct C as (C1 & C2 & _). rewrite Fx in C2.
  split; [exact C2|]. rewrite C1. split; [apply rnd_nonneg; apply P|apply rnd_le_bpow; [lia|apply P]].
Qed.
Lemma fdiv_ge x y a l u : upto x a -> is_finite y = true -> bp l <= B2R y <= bp u -> (-1074 <= a - l < 1024)%Z -> (-1074 <= - u)%Z ->
  1 <= B2R x -> bp (- u) <= B2R (fdiv x y).
Proof.
  intros [Fx [x0 x1]] Fy [L U] H Hu X. pose proof (bpow_gt_0 radix2 l) as Pl.
  assert (P : 0 <= B2R x / B2R y <= bp (a - l)).
  { split; [apply Rmult_le_pos; [exact x0|apply Rlt_le; apply Rinv_0_lt_compat; lra]|].
    replace (a - l)%Z with (a + - l)%Z by lia. rewrite bpow_plus, bpow_opp. apply Rmult_le_compat; try assumption.
    - apply Rlt_le. apply Rinv_0_lt_compat. lra.
    - apply Rinv_le_contravar; assumption. }
  pose proof (Bdiv_correct 53 1024 prec53 emax1024 mode_NE x y ltac:(lra)) as C. fold (fdiv x y) in C. cbn [round_mode] in C.
  rewrite (upto_lt (a - l)) in C by (try exact P; lia). destruct C as (C1 & _). rewrite C1. apply rnd_ge_bpow; [exact Hu|].
  rewrite bpow_opp. apply Rle_trans with (1 * / B2R y).
  - rewrite Rmult_1_l. apply Rinv_le_contravar; lra.
  - apply Rmult_le_compat_r; [apply Rlt_le; apply Rinv_0_lt_compat; lra|exact X].
Qed.

Lemma lit_exact z m e : B2SF (flit z 1) = SpecFloat.S754_finite false m e -> B2R (flit z 1) = F2R (Float radix2 (Zpos m) e) /\ is_finite (flit z 1) = true.
Proof. intros H. split; [rewrite <- SF2R_B2SF, H; reflexivity|rewrite <- is_finite_SF_B2SF, H; reflexivity]. Qed.
Ltac lit := unfold F2R; cbn; lra.
Lemma lit1 : B2R (flit 1 1) = 1 /\ is_finite (flit 1 1) = true.
Proof. destruct (lit_exact 1 4503599627370496 (-52)) as [A B]; [vm_compute; reflexivity|]. split; [rewrite A; lit|exact B]. Qed.
Lemma lit8 : B2R (flit 8 1) = 8 /\ is_finite (flit 8 1) = true.
Proof. destruct (lit_exact 8 4503599627370496 (-49)) as [A B]; [vm_compute; reflexivity|]. split; [rewrite A; lit|exact B]. Qed.
Lemma lit12 : B2R (flit 12 1) = 12 /\ is_finite (flit 12 1) = true.
Proof. destruct (lit_exact 12 6755399441055744 (-49)) as [A B]; [vm_compute; reflexivity|]. split; [rewrite A; lit|exact B]. Qed.
Lemma lit16 : B2R (flit 16 1) = 16 /\ is_finite (flit 16 1) = true.
Proof. destruct (lit_exact 16 4503599627370496 (-48)) as [A B]; [vm_compute; reflexivity|]. split; [rewrite A; lit|exact B]. Qed.
Lemma lit18 : B2R (flit 18 1) = 18 /\ is_finite (flit 18 1) = true.
Proof. destruct (lit_exact 18 5066549580791808 (-48)) as [A B]; [vm_compute; reflexivity|]. split; [rewrite A; lit|exact B]. Qed.
Lemma lit27 : B2R (flit 27 1) = 27 /\ is_finite (flit 27 1) = true.
Proof. destruct (lit_exact 27 7599824371187712 (-48)) as [A B]; [vm_compute; reflexivity|]. split; [rewrite A; lit|exact B]. Qed.

Lemma upto_mono x a b : upto x a -> (a <= b)%Z -> upto x b.
Proof. intros [F [x0 x1]] H. split; [exact F|]. split; [exact x0|]. apply Rle_trans with (bp a); [exact x1|apply bpow_le; exact H]. Qed.
Lemma upto_lit z r e : B2R (flit z 1) = r /\ is_finite (flit z 1) = true -> 0 <= r <= bp e -> upto (flit z 1) e.
Proof. intros [A B] H. split; [exact B|]. rewrite A. exact H. Qed.

(** In binary64 the entry is a positive finite number not above 1, for kinetic energies up to 2^120. *)
Lemma teter_f64 (T : f64) : is_finite T = true -> 0 <= B2R T <= bp 120 ->
  is_finite (teter F64 T) = true /\ 0 < B2R (teter F64 T) <= 1.
Proof.
  intros F H. unfold teter. cbn [amul adiv aadd alit F64]. set (T2 := fmul T T). set (T3 := fmul T2 T). set (T4 := fmul T2 T2).
  assert (U1 : upto T 120) by (split; assumption).
  assert (U2 : upto T2 240) by (apply (fmul_upto T T 120 120); [assumption|assumption|lia]).
  assert (U3 : upto T3 360) by (apply (fmul_upto T2 T 240 120); [assumption|assumption|lia]).
  assert (U4 : upto T4 480) by (apply (fmul_upto T2 T2 240 240); [assumption|assumption|lia]).
  assert (L1 : upto (flit 1 1) 0) by (apply (upto_lit 1 1 0 lit1); cbn; lra).
  assert (L8 : upto (flit 8 1) 3) by (apply (upto_lit 8 8 3 lit8); cbn; lra).
  assert (L12 : upto (flit 12 1) 4) by (apply (upto_lit 12 12 4 lit12); cbn; lra).
  assert (L16 : upto (flit 16 1) 4) by (apply (upto_lit 16 16 4 lit16); cbn; lra).
  assert (L18 : upto (flit 18 1) 5) by (apply (upto_lit 18 18 5 lit18); cbn; lra).
  assert (L27 : upto (flit 27 1) 5) by (apply (upto_lit 27 27 5 lit27); cbn; lra).
  assert (N : upto (fmul (flit 16 1) T4) 484) by (apply (fmul_upto _ _ 4 480); [assumption|assumption|lia]).
  assert (D1 : upto (fmul (flit 18 1) T) 125) by (apply (fmul_upto _ _ 5 120); [assumption|assumption|lia]).
  assert (D2 : upto (fmul (flit 12 1) T2) 244) by (apply (fmul_upto _ _ 4 240); [assumption|assumption|lia]).
  assert (D3 : upto (fmul (flit 8 1) T3) 363) by (apply (fmul_upto _ _ 3 360); [assumption|assumption|lia]).
  assert (G27 : bp 4 <= B2R (flit 27 1)) by (rewrite (proj1 lit27); cbn; lra).
  destruct (fadd_upto (flit 27 1) (fmul (flit 18 1) T) 125 4) as [S1 G1]; [apply (upto_mono _ 5); [assumption|lia]|assumption|lia|lia|left; exact G27|].
  destruct (fadd_upto _ (fmul (flit 12 1) T2) 244 4 (upto_mono _ 126 244 S1 ltac:(lia)) D2) as [S2 G2]; [lia|lia|left; exact G1|].
  destruct (fadd_upto _ (fmul (flit 8 1) T3) 363 4 (upto_mono _ 245 363 S2 ltac:(lia)) D3) as [S3 G3]; [lia|lia|left; exact G2|].
  pose proof (fdiv_upto _ _ 484 4 N (proj1 S3) G3 ltac:(lia)) as Q. change (484 - 4)%Z with 480%Z in Q.
  destruct (fadd_upto (flit 1 1) _ 480 0 (upto_mono _ 0 480 L1 ltac:(lia)) Q) as [S4 G4]; [lia|lia|left; rewrite (proj1 lit1); cbn; lra|].
  pose proof (fdiv_upto (flit 1 1) _ 0 0 L1 (proj1 S4) G4 ltac:(lia)) as R.
  pose proof (fdiv_ge (flit 1 1) _ 0 0 481 L1 (proj1 S4) (Logic.conj G4 (proj2 (proj2 S4))) ltac:(lia) ltac:(lia) ltac:(rewrite (proj1 lit1); lra)) as W.
  destruct R as [RF [_ RU]]. change (bp (0 - 0)) with 1 in RU. pose proof (bpow_gt_0 radix2 (-481)). 
  split; [exact RF|]. split; [|exact RU]. change (- (481))%Z with (-481)%Z in W. lra.
Qed.

(** Beyond: at 10^80 the entry underflows to zero, at 10^110 it is NaN. *)
Lemma teter_underflow : is_finite (flit (10 ^ 80) 1) = true /\ Bltb (B754_zero false) (teter F64 (flit (10 ^ 80) 1)) = false.
Proof. split; vm_compute; reflexivity. Qed.
Lemma teter_nan : is_finite (flit (10 ^ 110) 1) = true /\ is_nan (teter F64 (flit (10 ^ 110) 1)) = true.
Proof. split; vm_compute; reflexivity. Qed.

(** Facts as stated in the property file *)
Lemma teter_range (T : R) : 0 <= T -> 0 < teter Rarith T <= 1 /\ (teter Rarith T = 1 <-> T = 0).
Proof. intros H. rewrite teter_R. exact (teterR_range T H). Qed.
Lemma teter_decr (a b : R) : 0 <= a -> a < b -> teter Rarith b < teter Rarith a.
Proof. intros H K. rewrite !teter_R. exact (teterR_decr a b H K). Qed.
Lemma teter_f64_refuted : exists T U : f64, is_finite T = true /\ is_finite U = true /\
  Bltb (B754_zero false) (teter F64 T) = false /\ is_nan (teter F64 U) = true.
Proof.
  exists (flit (10 ^ 80) 1), (flit (10 ^ 110) 1).
  split; [exact (proj1 teter_underflow)|]. split; [exact (proj1 teter_nan)|]. split; [exact (proj2 teter_underflow)|exact (proj2 teter_nan)].
Qed.
Lemma teterR_example : teterR (3 / 2) = 4 / 7.
Proof. unfold teterR. field. Qed.
