(** The kernels of LapackMem.v on pairs of binary64 numbers: add with beta = 0. *)
From Coq Require Import ZArith Reals Arith Lia List Bool Permutation.
From Flocq Require Import IEEE754.BinarySingleNaN.
From Verif Require Import Arith Float64 LapackMem LapackMemProofs.
Import ListNotations.

Definition fc : Type := (f64 * f64)%type.
Definition fzero : f64 := B754_zero false.
Definition finf : f64 := B754_infinity false.
Definition is_inf (x : f64) : bool := match x with B754_infinity _ => true | _ => false end.
(** copysign(v, x) for v = 1 or 0; a NaN has no sign in this model, + is taken *)
Definition csign (one : bool) (x : f64) : f64 :=
  let s := match x with B754_zero s | B754_infinity s | B754_finite s _ _ _ => s | B754_nan => false end in
  if one then (if s then Bopp (fofZ 1) else fofZ 1) else B754_zero s.
Definition unnan (x : f64) : f64 := if is_nan x then csign false x else x.
Definition box (x : f64) : f64 := csign (is_inf x) x.

(** product of std::complex<double> (C99 Annex G, __muldc3 of libgcc): the four products, then the
    recovery of infinities if both parts are NaN *)
Definition muldc3 (p q : fc) : fc :=
  let '(a, b) := p in let '(c, d) := q in
  let ac := fmul a c in let bd := fmul b d in let ad := fmul a d in let bc := fmul b c in
  let x := fsub ac bd in let y := fadd ad bc in
  if (is_nan x && is_nan y)%bool then
    let i1 := (is_inf a || is_inf b)%bool in
    let '(a1, b1, c1, d1) := if i1 then (box a, box b, unnan c, unnan d) else (a, b, c, d) in
    let i2 := (is_inf c1 || is_inf d1)%bool in
    let '(a2, b2, c2, d2) := if i2 then (unnan a1, unnan b1, box c1, box d1) else (a1, b1, c1, d1) in
    let i3 := (negb (i1 || i2) && (is_inf ac || is_inf bd || is_inf ad || is_inf bc))%bool in
    let '(a3, b3, c3, d3) := if i3 then (unnan a2, unnan b2, unnan c2, unnan d2) else (a2, b2, c2, d2) in
    if (i1 || i2 || i3)%bool then
      (fmul finf (fsub (fmul a3 c3) (fmul b3 d3)), fmul finf (fadd (fmul a3 d3) (fmul b3 c3)))
    else (x, y)
  else (x, y).
(** product of Kokkos::complex<double>: the plain formula *)
Definition kokmul (p q : fc) : fc :=
  let '(a, b) := p in let '(c, d) := q in (fsub (fmul a c) (fmul b d), fadd (fmul a d) (fmul b c)).
Definition feq0 (x : f64) : bool := Beqb x fzero.

Definition Felt : elt :=
  MkElt fc f64 (fzero, fzero)
    (fun p q => (fadd (fst p) (fst q), fadd (snd p) (snd q)))
    muldc3 kokmul (fun p => (fst p, Bopp (snd p)))
    (fun p => feq0 (fst p) && feq0 (snd p))%bool
    fmul feq0 (fun x p => (fmul x (fst p), fmul x (snd p))).

(** 0 * old *)
Lemma zero_times_special s1 s2 (c d : f64) : (is_finite c && is_finite d)%bool = false ->
  muldc3 (B754_zero s1, B754_zero s2) (c, d) = (B754_nan, B754_nan).
Proof. intros H. destruct c as [sc|sc| |sc mc ec hc]; destruct d as [sd|sd| |sd md ed hd]; try discriminate H; destruct s1, s2; try destruct sc; try destruct sd; reflexivity. Qed.
Lemma zero_times_finite s1 s2 (c d : f64) : (is_finite c && is_finite d)%bool = true ->
  exists t1 t2, muldc3 (B754_zero s1, B754_zero s2) (c, d) = (B754_zero t1, B754_zero t2).
Proof.
  intros H. destruct c as [sc|sc| |sc mc ec hc]; destruct d as [sd|sd| |sd md ed hd]; try discriminate H;
    destruct s1, s2, sc, sd; do 2 eexists; reflexivity.
Qed.
Lemma fadd_nan_r (x : f64) : fadd x B754_nan = B754_nan.
Proof. destruct x; reflexivity. Qed.
(** equal, or zeros of different sign *)
Definition same_number (x y : f64) : Prop := x = y \/ ((exists s, x = B754_zero s) /\ exists s, y = B754_zero s).
Lemma fadd_zero_r (x : f64) s : same_number (fadd x (B754_zero s)) x.
Proof.
  destruct x as [t|t| |t m e h]; [|left; reflexivity..]. right. split; [|exists t; reflexivity]. destruct t, s; eexists; reflexivity.
Qed.

(** one element of add with beta = 0 *)
Definition both_finite (p : fc) : bool := (is_finite (fst p) && is_finite (snd p))%bool.
Lemma add_zero_special s1 s2 (v old : fc) : both_finite old = false ->
  eadd Felt v (emul Felt (B754_zero s1, B754_zero s2) old) = (B754_nan, B754_nan).
Proof.
  destruct old as [c d]. unfold both_finite. cbn [fst snd]. intros H. cbn [eadd emul Felt].
  rewrite zero_times_special by exact H. cbn [fst snd]. rewrite !fadd_nan_r. reflexivity.
Qed.
Lemma add_zero_finite s1 s2 (v old : fc) : both_finite old = true ->
  let w := eadd Felt v (emul Felt (B754_zero s1, B754_zero s2) old) in same_number (fst w) (fst v) /\ same_number (snd w) (snd v).
Proof.
  destruct old as [c d]. unfold both_finite. cbn [fst snd]. intros H. cbn [eadd emul Felt].
  destruct (zero_times_finite s1 s2 c d H) as [t1 [t2 e]]. rewrite e. cbv zeta. cbn [fst snd].
  split; apply fadd_zero_r.
Qed.

(** ** add(dst, src, alpha, 0) *)
Lemma add_beta0 order (Cv A : view Felt) (alpha : fc) s1 s2 :
  Permutation order (pairs (vrows A) (vcols Cv)) -> vlocal A = true -> vlocal Cv = true ->
  col_major A -> col_major Cv -> allocated A -> allocated Cv -> int_indexed A -> int_indexed Cv ->
  vrows Cv = vrows A -> vcols Cv = vcols A ->
  exists C', add order Cv A alpha ((B754_zero s1, B754_zero s2) : ev Felt) = KOk C' /\
    forall i j, i < vrows Cv -> j < vcols Cv ->
      (both_finite (vat Cv i j) = false -> vat C' i j = ((B754_nan, B754_nan) : ev Felt)) /\
      (both_finite (vat Cv i j) = true ->
         same_number (fst (vat C' i j)) (fst (muldc3 alpha (vat A i j))) /\ same_number (snd (vat C' i j)) (snd (muldc3 alpha (vat A i j)))).
Proof.
  intros P l1 l2 cA cC hA hC iA iC r1 r2.
  destruct (add_ok order Cv A alpha ((B754_zero s1, B754_zero s2) : ev Felt) P l1 l2 cA cC hA hC iA iC r1 r2) as [C' [R Q]].
  exists C'. split; [exact R|]. intros i j Hi Hj. destruct Q as (_ & _ & q3 & q4 & _ & _ & q7 & _).
  assert (e : vat C' i j = eadd Felt (emul Felt alpha (vat A i j)) (emul Felt ((B754_zero s1, B754_zero s2) : ev Felt) (vat Cv i j))).
  { unfold vat at 1. unfold addr. rewrite q3, q4. exact (q7 i j Hi Hj). }
  rewrite e. split; intros H.
  - apply add_zero_special. exact H.
  - exact (add_zero_finite s1 s2 (muldc3 alpha (vat A i j)) (vat Cv i j) H).
Qed.

(** scale and _add with beta = 0 do not look at the destination *)
Lemma scale_cols_beta0 order (dst src : view Felt) xn x (alpha : f64) s :
  Permutation order (pairs (vrows src) (vcols src)) -> vs0 src = 1 -> allocated src -> allocated dst ->
  vrows dst = vrows src -> vcols dst = vcols src -> injective_view (vrows src) (vcols src) dst -> vcols src <= xn ->
  exists C', scale_cols order dst src xn x alpha (B754_zero s : er Felt) = KOk C' /\
    forall i j, i < vrows dst -> j < vcols dst ->
      vat C' i j = ((fmul (fmul alpha (x j)) (fst (vat src i j)), fmul (fmul alpha (x j)) (snd (vat src i j))) : ev Felt).
Proof.
  intros P s0 hs hd r1 r2 J hx.
  destruct (scale_cols_ok order dst src xn x alpha (B754_zero s : er Felt) P s0 hs hd r1 r2 J hx) as [C' [R Q]].
  exists C'. split; [exact R|]. intros i j Hi Hj. destruct Q as (_ & _ & q3 & q4 & _ & _ & q7 & _).
  unfold vat at 1, addr. rewrite q3, q4. rewrite (q7 i j Hi Hj). destruct s; reflexivity.
Qed.
Lemma scale_beta_beta0 order (dst src : view Felt) (alpha : f64) s :
  Permutation order (pairs (vrows src) (vcols src)) -> vs0 src = 1 -> allocated src -> allocated dst ->
  vrows dst = vrows src -> vcols dst = vcols src -> injective_view (vrows src) (vcols src) dst ->
  exists C', scale_beta order dst src alpha (B754_zero s : er Felt) = KOk C' /\
    forall i j, i < vrows dst -> j < vcols dst ->
      vat C' i j = ((fmul alpha (fst (vat src i j)), fmul alpha (snd (vat src i j))) : ev Felt).
Proof.
  intros P s0 hs hd r1 r2 J.
  destruct (scale_beta_ok order dst src alpha (B754_zero s : er Felt) P s0 hs hd r1 r2 J) as [C' [R Q]].
  exists C'. split; [exact R|]. intros i j Hi Hj. destruct Q as (_ & _ & q3 & q4 & _ & _ & q7 & _).
  unfold vat at 1, addr. rewrite q3, q4. rewrite (q7 i j Hi Hj). destruct s; reflexivity.
Qed.
Lemma add__beta0 order (dst src : view Felt) (alpha : fc) s1 s2 :
  Permutation order (pairs (vrows src) (vcols src)) -> allocated src -> allocated dst ->
  vrows dst = vrows src -> vcols dst = vcols src -> injective_view (vrows src) (vcols src) dst ->
  exists C', add_ order dst src alpha ((B754_zero s1, B754_zero s2) : ev Felt) = KOk C' /\
    forall i j, i < vrows dst -> j < vcols dst -> vat C' i j = (kokmul alpha (vat src i j) : ev Felt).
Proof.
  intros P hs hd r1 r2 J.
  destruct (add__ok order dst src alpha ((B754_zero s1, B754_zero s2) : ev Felt) P hs hd r1 r2 J) as [C' [R Q]].
  exists C'. split; [exact R|]. intros i j Hi Hj. destruct Q as (_ & _ & q3 & q4 & _ & _ & q7 & _).
  unfold vat at 1, addr. rewrite q3, q4. rewrite (q7 i j Hi Hj). destruct s1, s2; reflexivity.
Qed.
