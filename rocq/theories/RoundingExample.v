(** Examples for KernelError.v and SlopeError.v.  Nothing here models code of its own. *)
From Coq Require Import ZArith Reals Lra Lia Arith List Bool Permutation.
From Flocq Require Import Core.Core IEEE754.BinarySingleNaN.
From Coquelicot Require Import Complex.
From Verif Require Import Arith Float64 LinAlg MVector LapackMem LapackMemProofs LapackFloat CountError SumOrder SmearFloat Exchange Smearing Newton Occupation
  StepMem DeviceStep NumStep KernelError SlopeError ShapeExample.
From Verif Require Device.
Import ListNotations.

Definition col (l : list Z) : view Felt := MkView (length l) 1 1 (length l) true (MkBuf (length l) (fun i => (fofZ (nth i l 0%Z), fofZ 0) : ev Felt)).
Definition xs : view Felt := col [18014398509481984; 3; 3; -18014398509481992; 1]%Z.
Definition ones : view Felt := col [1; 1; 1; 1; 1]%Z.

Lemma line_leaves n : leaves (line n) = seq 0 n.
Proof. unfold line. generalize (seq 0 n). induction l as [|i l IH]; cbn; [reflexivity|]. rewrite IH. reflexivity. Qed.
Lemma line_depth n : rdepth (line n) = n.
Proof. unfold line. rewrite <- (seq_length n 0) at 2. generalize (seq 0 n). induction l as [|i l IH]; cbn; [reflexivity|]. rewrite IH. reflexivity. Qed.
Lemma line_fair : fair_red line.
Proof. intros n. rewrite line_leaves. apply Permutation_refl. Qed.
Lemma line_shallow : shallow line.
Proof. intros n. rewrite line_depth. apply Nat.le_refl. Qed.

(** the exact inner product is -1, the computed one 1 *)
Lemma fofZ_val (z : Z) (s : bool) (m : positive) (e : Z) : B2SF (fofZ z) = SpecFloat.S754_finite s m e -> B2R (fofZ z) = F2R (Float radix2 (cond_Zopp s (Zpos m)) e).
Proof. intros H. rewrite <- (SF2R_B2SF 53 1024), H. reflexivity. Qed.
Lemma small_val (z : Z) : (Z.abs z < 2 ^ 53)%Z -> B2R (fofZ z) = IZR z.
Proof.
  intros H. pose proof (binary_normalize_correct 53 1024 prec53 emax1024 mode_NE z 0 false) as C. fold (fofZ z) in C.
  assert (e : F2R (Float radix2 z 0) = IZR z) by (unfold F2R; cbn; ring). rewrite e in C.
  assert (g : generic_format radix2 (SpecFloat.fexp 53 1024) (IZR z)).
  { apply (generic_format_FLT radix2 (-1074) 53). exists (Float radix2 z 0); [symmetry; exact e|cbn [Fnum]; exact H|cbn; lia]. }
  cbv zeta in C. change (round_mode mode_NE) with ZnearestE in C. rewrite (round_generic radix2 (SpecFloat.fexp 53 1024) ZnearestE (IZR z) g) in C. rewrite Rlt_bool_true in C; [apply C|].
  rewrite <- abs_IZR. change (bpow radix2 1024) with (IZR (2 ^ 1024)). apply IZR_lt. lia.
Qed.
Lemma wrong_sign : exists s : fc, innerh_on Device.SHost line xs ones = KOk (s : ev Felt) /\ is_finite (fst s) = true /\ (0 < B2R (fst s))%R /\ (re_ip xs ones < 0)%R.
Proof.
  eexists. split; [reflexivity|]. split; [vm_compute; reflexivity|]. split.
  - match goal with |- (0 < B2R ?x)%R => replace x with (fofZ 1) by (apply B2SF_inj; vm_compute; reflexivity) end. rewrite small_val by lia. lra.
  - assert (b1 : B2R (fofZ 18014398509481984) = 18014398509481984%R).
    { rewrite (fofZ_val _ false 4503599627370496 2) by (vm_compute; reflexivity). unfold F2R. cbn. lra. }
    assert (b2 : B2R (fofZ (-18014398509481992)) = (-18014398509481992)%R).
    { rewrite (fofZ_val _ true 4503599627370498 2) by (vm_compute; reflexivity). unfold F2R. cbn. lra. }
    unfold re_ip, xs, ones, col. cbn [vrows vcols length rsumn vat addr vbuf bget vs0 vs1].
    unfold vat, addr, val, Cmult, Cconj, Re. cbn [vbuf bget vs0 vs1 fst snd Nat.mul Nat.add nth]. rewrite b1, b2, !small_val by lia. lra.
Qed.

(** matrices with two rows and two columns, leading dimension 3 *)
Definition mat22 (f : nat -> Z) : view Felt := MkView 2 2 1 3 true (MkBuf 6 (fun a => (fdiv (fofZ (f a)) (fofZ 10), fofZ (Z.of_nat a)) : ev Felt)).
Definition square_order : list (nat * nat) := [(1, 1); (1, 0); (0, 1); (0, 0)].
Definition cdone (c : fc) : bool := is_finite (fst c) && is_finite (snd c).
Lemma square_order_all : Permutation square_order (pairs 2 2).
Proof. apply Permutation_sym. apply (Permutation_rev (pairs 2 2)). Qed.

(** one step of two k-points on two ranks *)
Definition tall (l : list Z) : view (nE binaryN) :=
  MkView (length l) 1 1 (length l) true (MkBuf (length l) (fun i => (fdiv (fofZ (nth i l 0%Z)) (fofZ 10), fofZ 0) : ev (nE binaryN))).
Definition same_op : operator_fn (nE binaryN) := fun _ _ y _ x => (MkBuf (bsz y) (bget x), x).
Definition keep (n : nat) (b : buf (nE binaryN)) (ld : nat) : Z * buf (nE binaryN) := (0%Z, b).
Definition keep2 (n c : nat) (f : buf (nE binaryN)) (lf : nat) (b : buf (nE binaryN)) (ld : nat) : Z * buf (nE binaryN) := (0%Z, b).
Definition one_k (i : Z) : nk binaryN :=
  MkNk binaryN (i, 0%Z) (tall [6; 8]%Z) (1, fun _ => fofZ (- 1)) (1, fun _ => fofZ 1) (1, fun _ => fofZ (- 1)) (tall [-9 - i; 2 + i]%Z) (fdiv (fofZ 1) (fofZ 2)).
Definition two_k : list (list (nk binaryN)) := [[one_k 0]; [one_k 1]].
Definition step_result (sp : space) :=
  restarted_n binaryN sp (fun _ => back) (fun _ => back1) (fun _ _ => (fofZ 0, fofZ 0)) (fun _ => line) keep keep2 same_op same_op
    (smearing_classF flat_libm FERMI_DIRAC) (fofZ 300) (fofZ 1) (fofZ 2) two_k (fofZ 0).
Lemma step_finite sp : exists s dirs, step_result sp = KOk (s, dirs) /\ is_finite (s : f64) = true /\ altb F64 s (flit 0 1) = true.
Proof.
  assert (G : match step_result sp with KOk (s, _) => (is_finite (s : f64) && altb F64 s (flit 0 1))%bool | _ => false end = true) by (destruct sp; vm_compute; reflexivity).
  destruct (step_result sp) as [[s dirs]| | |]; try discriminate G. apply andb_prop in G. exists s, dirs. split; [reflexivity|exact G].
Qed.
