(** Rounding error of the slopes in binary64: the sums behind exec_spc (src/mvp2/descent_direction_impl.hpp 124-201) and
    descent_direction::restarted and conjugated (src/mvp2/descent_direction.hpp 81-183), against the inner products of the very arrays
    they are computed from, summed without rounding over all k-points of all ranks.
    Simplifications: those of NumStep.v. *)
From Coq Require Import ZArith Reals Lra Lia Arith Bool List Permutation.
From Flocq Require Import Core.Core IEEE754.BinarySingleNaN.
From Coquelicot Require Import Complex.
From Verif Require Import Arith Float64 LinAlg MVector LapackMem LapackMemProofs LapackFloat CountError SumOrder Exchange Smearing Newton Occupation StepMem DeviceStep NumStep KernelError.
From Verif Require Device.
Import ListNotations.
Local Open Scope R_scope.

Notation bview := (view (nE binaryN)).

(** ** One k-point *)
(** Specification: 2 Re <g_x, d_x> + Re <g_eta, d_eta>, its magnitude, and the underflow *)
Definition exact_slope (gx dx ge de : view Felt) : R := 2 * re_ip gx dx + re_ip ge de.
Definition slope_mag (gx dx ge de : view Felt) : R := 2 * mag_ip gx dx + mag_ip ge de.
Definition slope_h (gx ge : view Felt) : R := 2 * ip_h gx + eta0 + ip_h ge.

Lemma B2R_two : B2R (n_2 binaryN : f64) = 2.
Proof. unfold binaryN, n_2. vm_compute. lra. Qed.
Lemma slope_acc L (x y : fc) (gx dx ge de : view Felt) : is_finite (slope_n binaryN x y : f64) = true ->
  (is_finite (fst x) = true -> acc L (mag_ip gx dx) (ip_h gx) (B2R (fst x)) (re_ip gx dx)) ->
  (is_finite (fst y) = true -> acc L (mag_ip ge de) (ip_h ge) (B2R (fst y)) (re_ip ge de)) ->
  acc (L + 2) (slope_mag gx dx ge de) (slope_h gx ge) (B2R (slope_n binaryN x y : f64)) (exact_slope gx dx ge de).
Proof.
  change (slope_n binaryN x y) with (fadd (fmul (n_2 binaryN) (fst x)) (fst y)). intros F Hx Hy. destruct (fadd_finite _ _ F) as (F1 & F2 & _).
  destruct (fmul_finite _ _ F1) as (_ & Fx & _). pose proof (acc_scale _ _ _ _ _ _ F1 (Hx Fx)) as G. rewrite B2R_two, Rabs_right in G by lra.
  specialize (Hy F2). eapply (acc_raise _ (S L)) in Hy; [|lia|apply Rle_refl|apply Rle_refl].
  pose proof (acc_add _ _ _ _ _ _ _ _ _ F G Hy) as K. eapply acc_raise; [|apply Rle_refl|apply Rle_refl|exact K]. lia.
Qed.

Section Step.
  Context (sp : space).
  Context (ord : nat -> orders) (ord1 : nat -> nat -> list nat) (junk : nat -> nat -> ev (nE binaryN)) (red : nat -> nat -> rtree).
  Context (potrf : nat -> buf (nE binaryN) -> nat -> Z * buf (nE binaryN))
          (potrs : nat -> nat -> buf (nE binaryN) -> nat -> buf (nE binaryN) -> nat -> Z * buf (nE binaryN)).
  Context (opS opP : operator_fn (nE binaryN)) (Sm : smear F64) (T kappa mo : f64).
  Hypothesis Fr : forall t, fair_red (red t).
  Hypothesis Sh : forall t, shallow (red t).
  Notation c1 := (n_c binaryN (n_1 binaryN)).
  Notation c0 := (n_c binaryN (n_0 binaryN)).

  (** the gradients with respect to X and eta as exec_spc computes them, descent_direction_impl.hpp 128-142, 187-193 *)
  Definition gradients (t : nat) (k : key) (mu dmu dF wk : f64) (x : bview) (e f : nvec binaryN) (hx : bview) : kres (bview * bview) :=
    let '(sx, x1) := apply_op (nE binaryN) opS k (junk t) x in
    llm <-- lmult_n binaryN sp ord junk potrf potrs opP (t + 1) k sx hx ;;
    gx <-- gradx_n binaryN sp ord junk (t + 4) sx hx f llm wk ;;
    hij <-- inner__on sp (ord (t + 8)%nat (vcols x1) (vcols hx)) x1 hx (n_c binaryN wk) c0 ;;
    ge <-- g_eta_n binaryN ord ord1 Sm T mo (t + 9) hij mu wk e f dmu dF ;;
    KOk (gx, ge).

  (** the slope of one k-point is right up to rounding, and so is its position in the sum over all of them *)
  Definition slope_close (gx dx ge de : view Felt) (s : f64) : Prop :=
    forall L, (vrows gx + vcols gx <= L)%nat -> (vrows ge + vcols ge <= L)%nat ->
    acc (L + 4) (slope_mag gx dx ge de) (slope_h gx ge) (B2R s) (exact_slope gx dx ge de).
  Lemma innerh_slope ta tb (gx dx ge de : view Felt) (x y : fc) : innerh_on sp (red ta) gx dx = KOk (x : ev Felt) -> innerh_on sp (red tb) ge de = KOk (y : ev Felt) ->
    is_finite (slope_n binaryN x y : f64) = true -> slope_close gx dx ge de (slope_n binaryN x y).
  Proof.
    intros Rx Ry F L Lx Ly. replace (L + 4)%nat with (L + 2 + 2)%nat by lia. apply slope_acc; [exact F| |].
    - intros Fx. destruct (innerh_acc gx dx sp (red ta) x (Fr ta) (Sh ta) Rx Fx) as (_ & G). eapply acc_raise; [|apply Rle_refl|apply Rle_refl|exact G]. lia.
    - intros Fy. destruct (innerh_acc ge de sp (red tb) y (Fr tb) (Sh tb) Ry Fy) as (_ & G). eapply acc_raise; [|apply Rle_refl|apply Rle_refl|exact G]. lia.
  Qed.
  Theorem restart_slope t k mu dmu dF wk x e f hx s dx de :
    exec_restart_n binaryN sp ord ord1 junk red potrf potrs opS opP Sm T kappa mo t k mu dmu dF wk x e f hx = KOk (s, dx, de) ->
    exists gx ge, gradients t k mu dmu dF wk x e f hx = KOk (gx, ge) /\ (is_finite (s : f64) = true -> slope_close gx dx ge de s).
  Proof.
    unfold exec_restart_n, gradients. destruct (apply_op _ opS k (junk t) x) as [sx x1].
    destruct (lmult_n _ _ _ _ _ _ _ _ _ _ _) as [llm| | |]; cbn [kbind]; try discriminate.
    destruct (gradx_n _ _ _ _ _ _ _ _ _ _) as [gx| | |]; cbn [kbind]; try discriminate.
    destruct (precondgx_us_n _ _ _ _ _ _ _ _ _ _) as [dx'| | |]; cbn [kbind]; try discriminate.
    destruct (inner__on _ _ _ _ _ _) as [hij| | |]; cbn [kbind]; try discriminate.
    destruct (g_eta_n _ _ _ _ _ _ _ _ _ _ _ _ _ _) as [ge| | |]; cbn [kbind]; try discriminate.
    destruct (delta_eta_n _ _ _ _ _ _ _ _ _) as [de'| | |]; cbn [kbind]; try discriminate.
    destruct (innerh_on sp (red (t + 12)%nat) gx dx') as [u| | |] eqn:Ru; cbn [kbind]; try discriminate.
    destruct (innerh_on sp (red (t + 13)%nat) ge de') as [v| | |] eqn:Rv; cbn [kbind]; try discriminate.
    intros [= <- <- <-]. exists gx, ge. split; [reflexivity|]. intros F. eapply innerh_slope; [eassumption|eassumption|exact F].
  Qed.
  Theorem conjugate_slope t k mu dmu dF wk x e f hx zxp zetap ul s dx de zx ze sz :
    exec_cg_n binaryN sp ord ord1 junk red potrf potrs opS opP Sm T kappa mo t k mu dmu dF wk x e f hx zxp zetap ul = KOk (s, dx, de, zx, ze, sz) ->
    exists gx ge, gradients t k mu dmu dF wk x e f hx = KOk (gx, ge) /\
      (is_finite (s : f64) = true -> slope_close gx dx ge de s) /\ (is_finite (sz : f64) = true -> slope_close zx gx ze ge sz).
  Proof.
    unfold exec_cg_n, gradients. destruct (apply_op _ opS k (junk t) x) as [sx x1].
    destruct (lmult_n _ _ _ _ _ _ _ _ _ _ _) as [llm| | |]; cbn [kbind]; try discriminate.
    destruct (gradx_n _ _ _ _ _ _ _ _ _ _) as [gx| | |]; cbn [kbind]; try discriminate.
    destruct (precondgx_us_n _ _ _ _ _ _ _ _ _ _) as [dx'| | |]; cbn [kbind]; try discriminate.
    destruct (inner__on _ _ _ _ _ _) as [hij| | |]; cbn [kbind]; try discriminate.
    destruct (g_eta_n _ _ _ _ _ _ _ _ _ _ _ _ _ _) as [ge| | |]; cbn [kbind]; try discriminate.
    destruct (delta_eta_n _ _ _ _ _ _ _ _ _) as [de'| | |]; cbn [kbind]; try discriminate.
    destruct (innerh_on sp (red (t + 12)%nat) gx dx') as [u| | |] eqn:Ru; cbn [kbind]; try discriminate.
    destruct (innerh_on sp (red (t + 13)%nat) ge de') as [v| | |] eqn:Rv; cbn [kbind]; try discriminate.
    unfold exec_conjugate_n.
    destruct (rotatex_n _ _ _ _ _ _) as [zt| | |]; cbn [kbind]; try discriminate.
    destruct (rotateeta_n _ _ _ _ _ _) as [zeta| | |]; cbn [kbind]; try discriminate.
    destruct (conjugatex_n _ _ _ _ _ _ _ _) as [zx'| | |]; cbn [kbind]; try discriminate.
    destruct (innerh_on sp (red (t + 12 + 3)%nat) zx' gx) as [w| | |] eqn:Rw; cbn [kbind]; try discriminate.
    destruct (innerh_on sp (red (t + 12 + 4)%nat) zeta ge) as [q| | |] eqn:Rq; cbn [kbind]; try discriminate.
    cbn [fst snd]. intros [= <- <- <- <- <- <-]. exists gx, ge. split; [reflexivity|].
    split; intros F; (eapply innerh_slope; [eassumption|eassumption|exact F]).
  Qed.

  (** ** All k-points *)
  Lemma kmap_in {A B} (f : nat -> A -> kres B) l : forall t r, kmap f t l = KOk r -> Forall2 (fun a b => exists t, f t a = KOk b) l r.
  Proof.
    induction l as [|a l IH]; intros t r; cbn [kmap]; [intros [= <-]; constructor|].
    destruct (f t a) as [b| | |] eqn:Rb; cbn [kbind]; try discriminate. destruct (kmap f _ l) as [bs| | |] eqn:Rs; cbn [kbind]; try discriminate.
    intros [= <-]. apply Forall2_cons; [exists t; exact Rb|eapply IH; exact Rs].
  Qed.
  Lemma kmap2_in {A B} (f : nat -> A -> kres B) w : forall t r, kmap2 f t w = KOk r -> Forall2 (Forall2 (fun a b => exists t, f t a = KOk b)) w r.
  Proof.
    induction w as [|l w IH]; intros t r; cbn [kmap2]; [intros [= <-]; constructor|].
    destruct (kmap f t l) as [b| | |] eqn:Rb; cbn [kbind]; try discriminate. destruct (kmap2 f _ w) as [bs| | |] eqn:Rs; cbn [kbind]; try discriminate.
    intros [= <-]. apply Forall2_cons; [eapply kmap_in; exact Rb|eapply IH; exact Rs].
  Qed.
End Step.

(** sums of approximations *)
Section Total.
  Context {Q : Type} (x : Q -> f64) (X a h : Q -> R).
  Lemma ksum_acc n (l : list Q) : (forall q, In q l -> is_finite (x q) = true -> acc n (a q) (h q) (B2R (x q)) (X q)) ->
    is_finite (ksum_n binaryN (map x l) : f64) = true ->
    acc (n + length l) (lsum a l) (lsum h l) (B2R (ksum_n binaryN (map x l) : f64)) (lsum X l).
  Proof.
    induction l as [|q l IH] using rev_ind; intros H F.
    - cbn. pose proof (acc_exact (n + 0) 0) as G. rewrite Rabs_R0 in G. exact G.
    - assert (e : ksum_n binaryN (map x (l ++ [q])) = fadd (ksum_n binaryN (map x l)) (x q)) by (unfold ksum_n; rewrite map_app, fold_left_app; reflexivity).
      rewrite e in F |- *. destruct (fadd_finite _ _ F) as (F1 & F2 & _).
      assert (I1 := IH (fun q' i => H q' (in_or_app l [q] q' (or_introl i))) F1).
      assert (Hq := H q (in_or_app l [q] q (or_intror (or_introl eq_refl))) F2).
      eapply (acc_raise _ (n + length l)) in Hq; [|lia|apply Rle_refl|apply Rle_refl].
      pose proof (acc_add _ _ _ _ _ _ _ _ _ F I1 Hq) as G. rewrite !lsum_app, app_length. cbn [lsum fold_right length].
      eapply acc_raise; [| | |replace (lsum X l + (X q + 0)) with (lsum X l + X q) by ring; exact G]; [lia|lra|lra].
  Qed.
End Total.
Lemma allsum_acc {Q} (x : Q -> f64) (X a h : Q -> R) n K (w : list (list Q)) :
  (forall l q, In l w -> In q l -> is_finite (x q) = true -> acc n (a q) (h q) (B2R (x q)) (X q)) ->
  (forall l, In l w -> (length l <= K)%nat) ->
  is_finite (allsum_n binaryN (map (map x) w) : f64) = true ->
  acc (n + K + length w) (lsum (lsum a) w) (lsum (lsum h) w) (B2R (allsum_n binaryN (map (map x) w) : f64)) (lsum (lsum X) w).
Proof.
  intros H HK F. unfold allsum_n in *. rewrite map_map in *.
  apply (ksum_acc (fun l => ksum_n binaryN (map x l)) (lsum X) (lsum a) (lsum h)); [|exact F].
  intros l Hl Fl. assert (G := ksum_acc x X a h n l (fun q i => H l q Hl i) Fl). specialize (HK l Hl).
  eapply acc_raise; [|apply Rle_refl|apply Rle_refl|exact G]. lia.
Qed.

Lemma pick2 {A B C} (P : A -> B -> C -> Prop) (w : list (list A)) (r : list (list B)) :
  Forall2 (Forall2 (fun a b => exists c, P a b c)) w r ->
  exists q : list (list (B * C)), map (map fst) q = r /\ Forall2 (Forall2 (fun a bc => P a (fst bc) (snd bc))) w q.
Proof.
  induction 1 as [|l m w r Hl Hw (q & e & I)]; [exists []; split; [reflexivity|constructor]|].
  assert (J : exists p : list (B * C), map fst p = m /\ Forall2 (fun a bc => P a (fst bc) (snd bc)) l p).
  { clear - Hl. induction Hl as [|a b l m (c & Hc) Hm (p & e & I)]; [exists []; split; [reflexivity|constructor]|].
    exists ((b, c) :: p). cbn [map fst]. rewrite e. split; [reflexivity|]. apply Forall2_cons; [exact Hc|exact I]. }
  destruct J as (p & ep & Jp). exists (p :: q). cbn [map]. rewrite ep, e. split; [reflexivity|]. apply Forall2_cons; [exact Jp|exact I].
Qed.
Lemma Forall2_map2 {A B C} (P : A -> B -> Prop) (Q : A -> C -> Prop) (f : B -> C) w r : (forall a b, P a b -> Q a (f b)) ->
  Forall2 (Forall2 P) w r -> Forall2 (Forall2 Q) w (map (map f) r).
Proof.
  intros H. induction 1 as [|l m w r Hl Hw I]; [constructor|]. cbn [map]. apply Forall2_cons; [|exact I].
  clear - H Hl. induction Hl as [|a b l m Hab Hm I]; [constructor|]. cbn [map]. apply Forall2_cons; [apply H; exact Hab|exact I].
Qed.
Lemma Forall2_weak2 {A B} (P Q : A -> B -> Prop) w r : (forall a b, P a b -> Q a b) -> Forall2 (Forall2 P) w r -> Forall2 (Forall2 Q) w r.
Proof.
  intros H G. assert (e : map (map (fun b => b)) r = r).
  { rewrite (map_ext (map (fun b : B => b)) (fun l => l)) by (intros l; apply map_id). apply map_id. }
  rewrite <- e. apply (Forall2_map2 P Q (fun b => b)); [exact H|exact G].
Qed.
Lemma Forall2_in_r {A B} (P : A -> B -> Prop) l m b : Forall2 P l m -> In b m -> exists a, In a l /\ P a b.
Proof. induction 1 as [|a b' l m H F I]; intros []; [subst; exists a; split; [left; reflexivity|exact H]|]. destruct (I H0) as (a' & i & p). exists a'. split; [right; exact i|exact p]. Qed.

Section World.
  Context (sp : space).
  Context (ord : nat -> orders) (ord1 : nat -> nat -> list nat) (junk : nat -> nat -> ev (nE binaryN)) (red : nat -> nat -> rtree).
  Context (potrf : nat -> buf (nE binaryN) -> nat -> Z * buf (nE binaryN))
          (potrs : nat -> nat -> buf (nE binaryN) -> nat -> buf (nE binaryN) -> nat -> Z * buf (nE binaryN)).
  Context (opS opP : operator_fn (nE binaryN)) (Sm : smear F64) (T kappa mo : f64).
  Hypothesis Fr : forall t, fair_red (red t).
  Hypothesis Sh : forall t, shallow (red t).

  (** what a k-point contributes: gradients and directions *)
  Record part := MkPart { p_gx : view Felt; p_ge : view Felt; p_dx : view Felt; p_de : view Felt }.
  Definition p_slope (p : part) : R := exact_slope (p_gx p) (p_dx p) (p_ge p) (p_de p).
  Definition p_mag (p : part) : R := slope_mag (p_gx p) (p_dx p) (p_ge p) (p_de p).
  Definition p_h (p : part) : R := slope_h (p_gx p) (p_ge p).
  (** all extents of the matrices of a part at most L in sum *)
  Definition p_size (L : nat) (p : part) : Prop := (vrows (p_gx p) + vcols (p_gx p) <= L)%nat /\ (vrows (p_ge p) + vcols (p_ge p) <= L)%nat.
  (** s is the sum of the exact slopes of the parts up to rounding, for parts of size L, at most K on a rank *)
  Definition total_close (w : list (list part)) (s : f64) : Prop :=
    forall L K, (forall l p, In l w -> In p l -> p_size L p) -> (forall l, In l w -> (length l <= K)%nat) ->
    Rabs (B2R s - lsum (lsum p_slope) w) <= bound (L + 4 + K + length w) (lsum (lsum p_mag) w) (lsum (lsum p_h) w).

  Lemma lsum_map {A B} (f : B -> R) (g : A -> B) l : lsum f (map g l) = lsum (fun a => f (g a)) l.
  Proof. unfold lsum. induction l as [|a l IH]; cbn; [reflexivity|]. rewrite IH. reflexivity. Qed.
  Lemma lsum_ext {A} (f g : A -> R) l : (forall a, f a = g a) -> lsum f l = lsum g l.
  Proof. intros H. unfold lsum. induction l as [|a l IH]; cbn; [reflexivity|]. rewrite H, IH. reflexivity. Qed.
  Lemma total_of {Q} (x : Q -> f64) (p : Q -> part) (w : list (list Q)) :
    (forall l q, In l w -> In q l -> is_finite (x q) = true -> slope_close (p_gx (p q)) (p_dx (p q)) (p_ge (p q)) (p_de (p q)) (x q)) ->
    is_finite (allsum_n binaryN (map (map x) w) : f64) = true -> total_close (map (map p) w) (allsum_n binaryN (map (map x) w)).
  Proof.
    intros H F L K HL HK.
    assert (G := allsum_acc x (fun q => p_slope (p q)) (fun q => p_mag (p q)) (fun q => p_h (p q)) (L + 4) K w). rewrite map_length, !lsum_map.
    rewrite (lsum_ext (fun l => lsum p_slope (map p l)) (lsum (fun q => p_slope (p q)))) by (intros l; apply lsum_map).
    rewrite (lsum_ext (fun l => lsum p_mag (map p l)) (lsum (fun q => p_mag (p q)))) by (intros l; apply lsum_map).
    rewrite (lsum_ext (fun l => lsum p_h (map p l)) (lsum (fun q => p_h (p q)))) by (intros l; apply lsum_map).
    apply G; [| |exact F].
    - intros l q Hl Hq Fq. destruct (HL (map p l) (p q) (in_map (map p) _ _ Hl) (in_map p _ _ Hq)) as (S1 & S2). apply (H l q Hl Hq Fq L S1 S2).
    - intros l Hl. rewrite <- (map_length p). apply HK. apply in_map. exact Hl.
  Qed.

  (** descent_direction::restarted: the slope it returns *)
  Theorem restarted_slope world mu s dirs :
    restarted_n binaryN sp ord ord1 junk red potrf potrs opS opP Sm T kappa mo world mu = KOk (s, dirs) -> is_finite (s : f64) = true ->
    exists dF w, dFdmu_n binaryN Sm T mo world mu = KOk dF /\
      Forall2 (Forall2 (fun k p => exists t, gradients sp ord ord1 junk potrf potrs opS opP Sm T mo t (nk_key binaryN k) mu (dmu_deta_n binaryN Sm T mo world mu) dF
        (nk_wk binaryN k) (nk_x binaryN k) (nk_e binaryN k) (nk_f binaryN k) (nk_hx binaryN k) = KOk (p_gx p, p_ge p))) world w /\
      map (map (fun p => (p_dx p, p_de p))) w = dirs /\ total_close w s.
  Proof.
    unfold restarted_n. destruct (dFdmu_n binaryN Sm T mo world mu) as [dF| | |]; cbn [kbind]; try discriminate.
    set (dmu := dmu_deta_n binaryN Sm T mo world mu). destruct (kmap2 _ 0 world) as [res| | |] eqn:R; cbn [kbind]; try discriminate.
    intros [= <- <-] F. apply kmap2_in in R.
    set (P := fun (k : nk binaryN) (r : f64 * view Felt * view Felt) (g : view Felt * view Felt) =>
      (exists t, gradients sp ord ord1 junk potrf potrs opS opP Sm T mo t (nk_key binaryN k) mu dmu dF
        (nk_wk binaryN k) (nk_x binaryN k) (nk_e binaryN k) (nk_f binaryN k) (nk_hx binaryN k) = KOk g) /\
      (is_finite (fst (fst r)) = true -> slope_close (fst g) (snd (fst r)) (snd g) (snd r) (fst (fst r)))).
    assert (G : Forall2 (Forall2 (fun k r => exists g, P k r g)) world res).
    { revert R. apply Forall2_weak2. intros k [[s dx] de] (t & E).
      destruct (restart_slope sp ord ord1 junk red potrf potrs opS opP Sm T kappa mo Fr Sh _ _ _ _ _ _ _ _ _ _ _ _ _ E) as (gx & ge & E' & C).
      exists (gx, ge). split; [exists t; exact E'|exact C]. }
    apply pick2 in G. destruct G as (q & e & G).
    set (mk := fun rg : (f64 * view Felt * view Felt) * (view Felt * view Felt) =>
      MkPart (fst (snd rg)) (snd (snd rg)) (snd (fst (fst rg))) (snd (fst rg))).
    exists dF, (map (map mk) q). split; [reflexivity|]. split; [|split].
    - revert G. apply Forall2_map2. intros k [[[s dx] de] [gx ge]] H. apply H.
    - rewrite <- e, !map_map. apply map_ext. intros l. rewrite !map_map. reflexivity.
    - rewrite <- e in F |- *.
      assert (em : map (map (fun r : num (nA binaryN) * view (nE binaryN) * view (nE binaryN) => fst (fst r))) (map (map fst) q) = map (map (fun rg => fst (fst (fst rg)))) q).
      { rewrite map_map. apply map_ext. intros l. apply map_map. }
      refine (eq_ind _ (fun z => total_close (map (map mk) q) (allsum_n binaryN z)) _ _ (eq_sym em)).
      apply (total_of (fun rg => fst (fst (fst rg))) mk q); [|exact (eq_ind _ (fun z => is_finite (allsum_n binaryN z : f64) = true) F _ em)].
      intros l rg Hl Hr Fq. destruct (Forall2_in_r _ _ _ _ G Hl) as (l' & _ & G'). destruct (Forall2_in_r _ _ _ _ G' Hr) as (k & _ & (_ & C)). exact (C Fq).
  Qed.

  (** descent_direction::conjugated: the Fletcher-Reeves numerator it returns and the slope of the previous directions; the slope is
      fr + (fr / fr_old) slope_zp in double precision, descent_direction.hpp 118-126 *)
  Theorem conjugated_slope fr_old world mu fr s zs :
    conjugated_n binaryN sp ord ord1 junk red potrf potrs opS opP Sm T kappa mo fr_old world mu = KOk (fr, s, zs) ->
    exists dF w z (sz : f64), dFdmu_n binaryN Sm T mo (map (map fst) world) mu = KOk dF /\
      Forall2 (Forall2 (fun kz p => let k := fst kz in
        exists t, gradients sp ord ord1 junk potrf potrs opS opP Sm T mo t (nk_key binaryN k) mu (dmu_deta_n binaryN Sm T mo (map (map fst) world) mu) dF
        (nk_wk binaryN k) (nk_x binaryN k) (nk_e binaryN k) (nk_f binaryN k) (nk_hx binaryN k) = KOk (p_gx p, p_ge p))) world w /\
      (is_finite (fr : f64) = true -> total_close w fr) /\
      map (map (fun p => (p_dx p, p_de p))) z = map (map (fun p => (p_gx p, p_ge p))) w /\
      (is_finite sz = true -> total_close z sz) /\ s = fadd fr (fmul (fdiv fr fr_old) sz).
  Proof.
    unfold conjugated_n. destruct (dFdmu_n binaryN Sm T mo (map (map fst) world) mu) as [dF| | |]; cbn [kbind]; try discriminate. cbv zeta.
    set (dmu := dmu_deta_n binaryN Sm T mo (map (map fst) world) mu). destruct (kmap2 _ 0 world) as [res| | |] eqn:R; cbn [kbind]; try discriminate.
    match goal with |- kbind ?e _ = _ -> _ => destruct e as [zs'| | |]; cbn [kbind]; try discriminate end.
    intros [= <- <- _]. apply kmap2_in in R.
    set (P := fun (kz : nk binaryN * (view Felt * view Felt * view Felt)) (r : f64 * view Felt * view Felt * view Felt * view Felt * f64) (g : view Felt * view Felt) =>
      (exists t, gradients sp ord ord1 junk potrf potrs opS opP Sm T mo t (nk_key binaryN (fst kz)) mu dmu dF
        (nk_wk binaryN (fst kz)) (nk_x binaryN (fst kz)) (nk_e binaryN (fst kz)) (nk_f binaryN (fst kz)) (nk_hx binaryN (fst kz)) = KOk g) /\
      match r with (s, dx, de, zx, ze, sz) => (is_finite s = true -> slope_close (fst g) dx (snd g) de s) /\ (is_finite sz = true -> slope_close zx (fst g) ze (snd g) sz) end).
    assert (G : Forall2 (Forall2 (fun k r => exists g, P k r g)) world res).
    { revert R. apply Forall2_weak2. intros [k [[zxp zetap] ul]] [[[[[s dx] de] zx] ze] sz] (t & E).
      destruct (conjugate_slope sp ord ord1 junk red potrf potrs opS opP Sm T kappa mo Fr Sh _ _ _ _ _ _ _ _ _ _ _ _ _ _ _ _ _ _ _ E) as (gx & ge & E' & C1 & C2).
      exists (gx, ge). split; [exists t; exact E'|split; assumption]. }
    apply pick2 in G. destruct G as (q & e & G).
    set (mk := fun rg : (f64 * view Felt * view Felt * view Felt * view Felt * f64) * (view Felt * view Felt) =>
      match rg with ((_, dx, de, _, _, _), (gx, ge)) => MkPart gx ge dx de end).
    set (mz := fun rg : (f64 * view Felt * view Felt * view Felt * view Felt * f64) * (view Felt * view Felt) =>
      match rg with ((_, _, _, zx, ze, _), (gx, ge)) => MkPart zx ze gx ge end).
    set (x1 := fun rg : (f64 * view Felt * view Felt * view Felt * view Felt * f64) * (view Felt * view Felt) => match fst rg with (s, _, _, _, _, _) => s end).
    set (x2 := fun rg : (f64 * view Felt * view Felt * view Felt * view Felt * f64) * (view Felt * view Felt) => match fst rg with (_, _, _, _, _, s) => s end).
    exists dF, (map (map mk) q), (map (map mz) q), (allsum_n binaryN (map (map x2) q)). split; [reflexivity|]. split; [|split; [|split; [|split]]].
    - revert G. apply Forall2_map2. intros k [[[[[[s dx] de] zx] ze] sz] [gx ge]] H. apply H.
    - assert (em : map (map (fun r : num (nA binaryN) * view (nE binaryN) * view (nE binaryN) * view (nE binaryN) * view (nE binaryN) * num (nA binaryN) =>
        let '(fr, _, _, _, _, _) := r in fr)) (map (map fst) q) = map (map x1) q).
      { rewrite map_map. apply map_ext. intros l. apply map_map. }
      rewrite <- e. intros F. refine (eq_ind _ (fun z => total_close (map (map mk) q) (allsum_n binaryN z)) _ _ (eq_sym em)).
      apply (total_of x1 mk q); [|exact (eq_ind _ (fun z => is_finite (allsum_n binaryN z : f64) = true) F _ em)].
      intros l [[[[[[s dx] de] zx] ze] sz] [gx ge]] Hl Hr Fq. destruct (Forall2_in_r _ _ _ _ G Hl) as (l' & _ & G'). destruct (Forall2_in_r _ _ _ _ G' Hr) as (k & _ & (_ & (C & _))). exact (C Fq).
    - rewrite !map_map. apply map_ext. intros l. rewrite !map_map. apply map_ext. intros [[[[[[s dx] de] zx] ze] sz] [gx ge]]. reflexivity.
    - intros F. apply (total_of x2 mz q); [|exact F].
      intros l [[[[[[s dx] de] zx] ze] sz] [gx ge]] Hl Hr Fq. destruct (Forall2_in_r _ _ _ _ G Hl) as (l' & _ & G'). destruct (Forall2_in_r _ _ _ _ G' Hr) as (k & _ & (_ & (_ & C))). exact (C Fq).
    - assert (em : map (map (fun r : num (nA binaryN) * view (nE binaryN) * view (nE binaryN) * view (nE binaryN) * view (nE binaryN) * num (nA binaryN) =>
        let '(_, _, _, _, _, sl) := r in sl)) (map (map fst) q) = map (map x2) q).
      { rewrite map_map. apply map_ext. intros l. apply map_map. }
      rewrite <- e. refine (eq_ind _ (fun z => _ = fadd _ (fmul _ (allsum_n binaryN z))) _ _ em). reflexivity.
  Qed.
End World.

(** the sign can be relied on beyond the bound *)
Lemma total_sign w (s : f64) L K : is_finite s = true -> total_close w s ->
  (forall l p, In l w -> In p l -> p_size L p) -> (forall l, In l w -> (length l <= K)%nat) ->
  bound (L + 4 + K + length w) (lsum (lsum p_mag) w) (lsum (lsum p_h) w) < Rabs (lsum (lsum p_slope) w) ->
  (altb F64 (flit 0 1) s = true <-> 0 < lsum (lsum p_slope) w).
Proof.
  intros F C HL HK H. specialize (C L K HL HK). apply Rabs_le_inv in C.
  assert (e : altb F64 (flit 0 1) s = true <-> 0 < B2R s).
  { change (altb F64 (flit 0 1) s) with (Bltb (flit 0 1) s). rewrite (Bltb_correct 53 1024 (flit 0 1) s eq_refl F).
    replace (B2R (flit 0 1)) with 0 by (vm_compute; reflexivity). destruct (Rlt_bool_spec 0 (B2R s)); split; intros; try assumption; try lra; discriminate. }
  rewrite e. unfold Rabs in H. destruct (Rcase_abs (lsum (lsum p_slope) w)); split; intros; lra.
Qed.

(** the inner product, without the auxiliary relation *)
Lemma innerh_close (X Y : view Felt) sp red (s : fc) : fair_red red -> shallow red -> innerh_on sp red X Y = KOk (s : ev Felt) -> is_finite (fst s) = true ->
  (forall i j, (i < vrows X)%nat -> (j < vcols X)%nat -> finite_c (vat X i j) /\ finite_c (vat Y i j)) /\
  Rabs (B2R (fst s) - re_ip X Y) <= bound (vrows X + vcols X + 2) (mag_ip X Y) (INR (vrows X) * (INR (vcols X) * (2 * eta0))).
Proof. intros Fr Sh R F. destruct (innerh_acc X Y sp red s Fr Sh R F) as (G1 & G2). split; [exact G1|apply G2]. Qed.
