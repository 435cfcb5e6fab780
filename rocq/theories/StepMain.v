(** Descent directions and trial points computed in memory. *)
From Coq Require Import ZArith Reals Lra Psatz Arith Lia List Bool Permutation.
From Coquelicot Require Import Complex.
From Verif Require Import Arith LinAlg MVector LapackMem LapackMemProofs LapackElt LapackFacts Exchange Smearing Newton Occupation StepMem StepProofs.
From Verif Require Descent DescentProofs DescentFacts Geodesic GeodesicProofs.
Import ListNotations.
Local Open Scope R_scope.

(** ** Lists of k-points *)
Inductive Forall3 {A B D : Type} (Q : A -> B -> D -> Prop) : list A -> list B -> list D -> Prop :=
| Forall3_nil : Forall3 Q [] [] []
| Forall3_cons a b d la lb ld : Q a b d -> Forall3 Q la lb ld -> Forall3 Q (a :: la) (b :: lb) (d :: ld).

Lemma kmap_ok {A B K} (f : nat -> A -> kres B) (Q : K -> B -> Prop) : forall (l : list A) (ks : list K),
  Forall2 (fun a k => forall t, exists y, f t a = KOk y /\ Q k y) l ks ->
  forall t, exists ys, kmap f t l = KOk ys /\ Forall2 Q ks ys.
Proof.
  induction l as [|a l IH]; intros ks H; inversion H as [|? k ? ks' Ha Hl]; subst; intros t.
  - exists []. split; [reflexivity | constructor].
  - destruct (Ha t) as (y & Ey & Qy). destruct (IH ks' Hl (t + 32)%nat) as (ys & Eys & Qys).
    exists (y :: ys). cbn [kmap]. rewrite Ey. cbn [kbind]. rewrite Eys. split; [reflexivity | constructor; assumption].
Qed.
Lemma kmap2_ok {A B K} (f : nat -> A -> kres B) (Q : K -> B -> Prop) : forall (w : list (list A)) (ks : list (list K)),
  Forall2 (Forall2 (fun a k => forall t, exists y, f t a = KOk y /\ Q k y)) w ks ->
  forall t, exists ys, kmap2 f t w = KOk ys /\ Forall2 (Forall2 Q) ks ys.
Proof.
  induction w as [|l w IH]; intros ks H; inversion H as [|? k ? ks' Ha Hl]; subst; intros t.
  - exists []. split; [reflexivity | constructor].
  - destruct (kmap_ok f Q l k Ha t) as (y & Ey & Qy). destruct (IH ks' Hl (t + 32 * length l)%nat) as (ys & Eys & Qys).
    exists (y :: ys). cbn [kmap2]. rewrite Ey. cbn [kbind]. rewrite Eys. split; [reflexivity | constructor; assumption].
Qed.
Lemma Forall2_impl2 {A B} (P Q : A -> B -> Prop) (w : list (list A)) (v : list (list B)) :
  (forall a b, P a b -> Q a b) -> Forall2 (Forall2 P) w v -> Forall2 (Forall2 Q) w v.
Proof.
  intros H. induction 1 as [|l l' w v Hl Hw IH]; constructor; [|exact IH].
  clear - Hl H. induction Hl; constructor; auto.
Qed.
Lemma Forall2_flip2 {A B} (P : A -> B -> Prop) (w : list (list A)) (v : list (list B)) :
  Forall2 (Forall2 P) w v -> Forall2 (Forall2 (fun b a => P a b)) v w.
Proof.
  induction 1 as [|l l' w v Hl Hw IH]; constructor; [|exact IH].
  clear - Hl. induction Hl; constructor; assumption.
Qed.
Lemma Forall2_map2_l {A A' B} (g : A -> A') (P : A' -> B -> Prop) (w : list (list A)) (v : list (list B)) :
  Forall2 (Forall2 (fun a b => P (g a) b)) w v -> Forall2 (Forall2 P) (map (map g) w) v.
Proof.
  induction 1 as [|l l' w v Hl Hw IH]; cbn; constructor; [|exact IH].
  clear - Hl. induction Hl; cbn; constructor; assumption.
Qed.
Lemma Forall2_map2_r {A B B'} (g : B -> B') (P : A -> B' -> Prop) (w : list (list A)) (v : list (list B)) :
  Forall2 (Forall2 (fun a b => P a (g b))) w v -> Forall2 (Forall2 P) w (map (map g) v).
Proof.
  induction 1 as [|l l' w v Hl Hw IH]; cbn; constructor; [|exact IH].
  clear - Hl. induction Hl; cbn; constructor; assumption.
Qed.

Lemma ksum_fold l : ksum l = fold_right Rplus 0 l.
Proof.
  unfold ksum. assert (G : forall l a, fold_left Rplus l a = a + fold_right Rplus 0 l).
  { induction l0 as [|x r IH]; intros a; cbn; [ring|]. rewrite IH. ring. }
  rewrite G. ring.
Qed.
Lemma allsum_total {Y K} (f : Y -> R) (g : K -> R) ys ks :
  Forall2 (Forall2 (fun k y => f y = g k)) ks ys -> allsum (map (map f) ys) = Descent.total g ks.
Proof.
  intros H. unfold allsum, Descent.total. rewrite ksum_fold. rewrite map_map. f_equal.
  induction H as [|l l' w v Hl Hw IH]; cbn; [reflexivity|]. rewrite IH. f_equal.
  rewrite ksum_fold. f_equal. clear - Hl. induction Hl as [|? ? ? ? E]; cbn; [reflexivity|]. rewrite IHHl, E. reflexivity.
Qed.
Lemma Forall3_map2 {K Y D E} (Q : K -> D -> E -> Prop) (P : K -> Y -> Prop) (f : Y -> D) (g : K -> E) ks ys :
  (forall k y, P k y -> Q k (f y) (g k)) -> Forall2 (Forall2 P) ks ys ->
  Forall3 (Forall3 Q) ks (map (map f) ys) (map (map g) ks).
Proof.
  intros H. induction 1 as [|l l' w v Hl Hw IH]; cbn; constructor; [|exact IH].
  clear - Hl H. induction Hl; cbn; constructor; auto.
Qed.

(** ** Specification vocabulary *)
(** the memory of a k-point holds the data [kp]; the operators of the calling program are the matrices of [kp] *)
Record represents (opS opP : operator_fn Celt) (k : memk) (kp : Descent.kpt) : Prop := MkRep {
  rp_n : (1 <= Descent.kn kp)%nat; rp_m : (1 <= Descent.km kp)%nat;
  rp_nm : small (Descent.kn kp) (Descent.km kp); rp_mm : small (Descent.km kp) (Descent.km kp);
  rp_x : holds (Descent.kn kp) (Descent.km kp) (mk_x k) (Descent.kX kp);
  rp_hx : holds (Descent.kn kp) (Descent.km kp) (mk_hx k) (Descent.kHX kp);
  rp_e : vec_is kp (mk_e k) (Descent.ke kp);
  rp_f : vec_is kp (mk_f k) (Descent.kf kp);
  rp_h : vec_is kp (mk_h k) (Descent.kh kp);
  rp_w : mk_wk k = Descent.kw kp;
  rp_S : acts_as opS (mk_key k) (Descent.kn kp) (Descent.kS kp);
  rp_P : acts_as opP (mk_key k) (Descent.kn kp) (Descent.kP kp)
}.
(** two views hold the directions [D] of a k-point *)
Definition held (kp : Descent.kpt) (d : view Celt * view Celt) (D : mat * mat) : Prop :=
  holds (Descent.kn kp) (Descent.km kp) (fst d) (fst D) /\ holds (Descent.km kp) (Descent.km kp) (snd d) (snd D).

Section Main.
  Notation V := (ev Celt).
  Context (ord : nat -> orders) (ord1 : nat -> nat -> list nat) (junk : nat -> nat -> V).
  Context (potrf : nat -> buf Celt -> nat -> Z * buf Celt)
          (potrs : nat -> nat -> buf Celt -> nat -> buf Celt -> nat -> Z * buf Celt).
  Context (opS opP : operator_fn Celt).
  Context (s : smearing_type) (T kappa mo : R).
  Context (solve : nat -> mat -> mat -> mat).
  Hypothesis Hord : forall t, fair (ord t).
  Hypothesis Hord1 : forall t, fair1 (ord1 t).
  Hypothesis Hpotrf : potrf_ok potrf.
  Hypothesis Hpotrs : potrs_ok potrs.

  Lemma restart_k t mu dmu dF k kp : represents opS opP k kp -> DescentFacts.systems_ok solve kp ->
    exists r, exec_restart ord ord1 junk potrf potrs opS opP s T kappa mo t (mk_key k) mu dmu dF (mk_wk k) (mk_x k) (mk_e k) (mk_f k) (mk_hx k) = KOk r /\
      let R := Descent.exec_restart solve s T kappa mo mu dmu dF kp in
      fst (fst r) = fst (fst R) /\ held kp (snd (fst r), snd r) (snd (fst R), snd R).
  Proof.
    intros [Hn Hm Hnm Hmm Hx Hhx He Hf Hh Hw HS HP] [Y1 Y2 Y3 Y4]. cbv zeta in Y3, Y4.
    unfold exec_restart. rewrite Hw.
    destruct (k_apply opS (mk_key k) _ _ _ (junk t) (mk_x k) _ Hn Hm Hnm HS Hx) as (sx & -> & Hsx).
    destruct (p_lmult ord junk potrf potrs opP solve kp (mk_key k) Hord Hn Hm Hnm Hmm (t + 1) sx (mk_hx k) _ _ Hpotrf Hpotrs HP Y1 Y2 Y3 Hsx Hhx) as (ll & -> & Hll).
    cbn [kbind].
    destruct (p_gradx ord junk kp Hord Hn Hm Hnm (t + 4) sx (mk_hx k) (mk_f k) ll _ _ _ Hsx Hhx Hll Hf) as (gx & -> & Hgx). cbn [kbind].
    destruct (p_precond ord junk opP kp (mk_key k) Hord Hn Hm Hnm (t + 6) sx (mk_hx k) ll _ _ _ HP Hsx Hhx Hll) as (dx & -> & Hdx). cbn [kbind].
    destruct (k_inner_ (ord (t + 8)%nat) _ _ _ (mk_x k) (mk_hx k) _ _ (Descent.kw kp) (Hord _) Hm Hmm Hx Hhx) as (hij & -> & Hhij). cbn [kbind].
    destruct (p_g_eta ord ord1 s T mo kp Hord Hord1 Hn Hm Hmm (t + 9) hij (mk_e k) (mk_f k) _ mu dmu dF Hhij He Hf) as (ge & -> & Hge). cbn [kbind].
    destruct (p_delta_eta ord ord1 junk kappa kp Hord Hord1 Hn Hm Hmm (t + 11) hij (mk_e k) _ Hhij He) as (de & -> & Hde). cbn [kbind].
    rewrite (k_innerh _ _ _ _ _ _ Hgx Hdx). cbn [kbind]. rewrite (k_innerh _ _ _ _ _ _ Hge Hde). cbn [kbind].
    eexists. split; [reflexivity|]. cbn [fst snd]. split; [reflexivity|]. split; assumption.
  Qed.

  Definition cg_held (kp : Descent.kpt) (r : R * view Celt * view Celt * view Celt * view Celt * R) (Rr : R * mat * mat * mat * mat * R) : Prop :=
    match r, Rr with (fr, dx, de, zx, ze, sl), (FR, DX, DE, ZX, ZE, SL) =>
      fr = FR /\ sl = SL /\ held kp (dx, de) (DX, DE) /\ held kp (zx, ze) (ZX, ZE) end.
  (** previous directions and rotation of a k-point *)
  Definition prev_held (kp : Descent.kpt) (z : view Celt * view Celt * view Celt) (Z : mat * mat * mat) : Prop :=
    match z, Z with (zxp, zetap, ul), (ZXP, ZETAP, UL) =>
      holds (Descent.kn kp) (Descent.km kp) zxp ZXP /\ holds (Descent.km kp) (Descent.km kp) zetap ZETAP /\
      holds (Descent.km kp) (Descent.km kp) ul UL end.

  Lemma cg_k t mu dmu dF k kp z Z : represents opS opP k kp -> DescentFacts.systems_ok solve kp -> prev_held kp z Z ->
    exists r, match z with (zxp, zetap, ul) =>
        exec_cg ord ord1 junk potrf potrs opS opP s T kappa mo t (mk_key k) mu dmu dF (mk_wk k) (mk_x k) (mk_e k) (mk_f k) (mk_hx k) zxp zetap ul end = KOk r /\
      cg_held kp r (match Z with (ZXP, ZETAP, UL) => Descent.exec_cg solve s T kappa mo mu dmu dF kp ZXP ZETAP UL end).
  Proof.
    intros [Hn Hm Hnm Hmm Hx Hhx He Hf Hh Hw HS HP] [Y1 Y2 Y3 Y4] HZ. cbv zeta in Y3, Y4.
    destruct z as [[zxp zetap] ul]. destruct Z as [[ZXP ZETAP] UL]. destruct HZ as (Hzx & Hze & Hul).
    unfold exec_cg. rewrite Hw.
    destruct (k_apply opS (mk_key k) _ _ _ (junk t) (mk_x k) _ Hn Hm Hnm HS Hx) as (sx & -> & Hsx).
    destruct (p_lmult ord junk potrf potrs opP solve kp (mk_key k) Hord Hn Hm Hnm Hmm (t + 1) sx (mk_hx k) _ _ Hpotrf Hpotrs HP Y1 Y2 Y3 Hsx Hhx) as (ll & -> & Hll).
    cbn [kbind].
    destruct (p_gradx ord junk kp Hord Hn Hm Hnm (t + 4) sx (mk_hx k) (mk_f k) ll _ _ _ Hsx Hhx Hll Hf) as (gx & -> & Hgx). cbn [kbind].
    destruct (p_precond ord junk opP kp (mk_key k) Hord Hn Hm Hnm (t + 6) sx (mk_hx k) ll _ _ _ HP Hsx Hhx Hll) as (dx & -> & Hdx). cbn [kbind].
    destruct (k_inner_ (ord (t + 8)%nat) _ _ _ (mk_x k) (mk_hx k) _ _ (Descent.kw kp) (Hord _) Hm Hmm Hx Hhx) as (hij & -> & Hhij). cbn [kbind].
    destruct (p_g_eta ord ord1 s T mo kp Hord Hord1 Hn Hm Hmm (t + 9) hij (mk_e k) (mk_f k) _ mu dmu dF Hhij He Hf) as (ge & -> & Hge). cbn [kbind].
    destruct (p_delta_eta ord ord1 junk kappa kp Hord Hord1 Hn Hm Hmm (t + 11) hij (mk_e k) _ Hhij He) as (de & -> & Hde). cbn [kbind].
    rewrite (k_innerh _ _ _ _ _ _ Hgx Hdx). cbn [kbind]. rewrite (k_innerh _ _ _ _ _ _ Hge Hde). cbn [kbind].
    unfold exec_conjugate.
    destruct (p_rotatex ord kp Hord Hn Hnm (t + 12) zxp ul _ _ Hzx Hul) as (rx & -> & Hrx). cbn [kbind].
    destruct (p_rotateeta ord kp Hord Hm Hmm (t + 12 + 1) zetap ul _ _ Hze Hul) as (re & -> & Hre). cbn [kbind].
    destruct (p_conjugatex ord potrf potrs solve kp Hord Hn Hm Hnm Hmm (t + 12 + 3) rx sx _ _ Hpotrf Hpotrs Y1 Y4 Hrx Hsx) as (zx & -> & Hzx'). cbn [kbind].
    rewrite (k_innerh _ _ _ _ _ _ Hzx' Hgx). cbn [kbind]. rewrite (k_innerh _ _ _ _ _ _ Hre Hge). cbn [kbind fst snd].
    eexists. split; [reflexivity|].
    unfold Descent.exec_cg, Descent.exec_conjugate. cbv zeta. unfold cg_held, held. cbn [fst snd].
    split; [reflexivity|]. split; [reflexivity|]. split; split; assumption.
  Qed.

  Lemma dFdmu_loop_ok mu k kp : represents opS opP k kp -> forall i, (i <= Descent.km kp)%nat ->
    dFdmu_loop s T mo mu (mk_h k) (mk_e k) i =
    KOk (rsumn i (fun i => (Descent.kh kp i - Descent.ke kp i) * sdelta (smearing_class s) ((Descent.ke kp i - mu) / (kb Rarith * T)) mo)).
  Proof.
    intros H. pose proof (rp_e _ _ _ _ H) as He. pose proof (rp_h _ _ _ _ H) as Hh.
    induction i as [|i IH]; intros Hi; [reflexivity|].
    cbn [dFdmu_loop]. rewrite IH by lia. cbn [kbind].
    rewrite (vload_in kp (mk_e k) _ i _ He) by lia. rewrite (vload_in kp (mk_h k) _ i _ Hh) by lia. reflexivity.
  Qed.
  Lemma dmu_loop_ok mu k kp : represents opS opP k kp -> forall i, (i <= Descent.km kp)%nat ->
    dmu_loop s T mo mu (mk_wk k) (mk_e k) i =
    rsumn i (fun i => sdelta (smearing_class s) ((Descent.ke kp i - mu) / (kb Rarith * T)) mo * Descent.kw kp).
  Proof.
    intros H. destruct (rp_e _ _ _ _ H) as [_ He]. pose proof (rp_w _ _ _ _ H) as Hw.
    induction i as [|i IH]; intros Hi; [reflexivity|].
    cbn [dmu_loop rsumn]. rewrite IH by lia. rewrite (He i) by lia. rewrite Hw. reflexivity.
  Qed.
  Lemma dFdmu_ok mu w ks : Forall2 (Forall2 (represents opS opP)) w ks ->
    dFdmu s T mo w mu = KOk (Descent.dFdmu s T mo ks mu) /\ dmu_deta s T mo w mu = Descent.dmu_deta s T mo ks mu.
  Proof.
    intros H. split.
    - unfold dFdmu.
      destruct (kmap2_ok (fun (_ : nat) k => kbind (dFdmu_loop s T mo mu (mk_h k) (mk_e k) (fst (mk_h k))) (fun v => KOk (v * mk_wk k)))
        (fun (k : Descent.kpt) y => y = rsumn (Descent.km k) (fun i => (Descent.kh k i - Descent.ke k i) * sdelta (smearing_class s) ((Descent.ke k i - mu) / (kb Rarith * T)) mo) * Descent.kw k)
        w ks) with (t := O) as (ys & Eys & Hys).
      + apply (Forall2_impl2 _ _ _ _) with (2 := H). intros k kp Hr t.
        rewrite (proj1 (rp_h _ _ _ _ Hr)). rewrite (dFdmu_loop_ok mu k kp Hr) by lia. cbn [kbind].
        eexists. split; [reflexivity|]. rewrite (rp_w _ _ _ _ Hr). reflexivity.
      + rewrite Eys. cbn [kbind]. f_equal.
        pose proof (allsum_total (fun y : R => y) _ ys ks Hys) as A.
        rewrite (map_ext _ (fun l => l)) in A by (intros; apply map_id). rewrite map_id in A. exact A.
    - unfold dmu_deta. apply allsum_total. apply Forall2_flip2.
      apply (Forall2_impl2 _ _ _ _) with (2 := H). intros k kp Hr. cbv beta.
      rewrite (proj1 (rp_e _ _ _ _ Hr)). apply (dmu_loop_ok mu k kp Hr). lia.
  Qed.

  (** ** Steepest descent *)
  Theorem restarted_refines mu w ks :
    Forall2 (Forall2 (represents opS opP)) w ks -> (forall r kp, In r ks -> In kp r -> DescentFacts.systems_ok solve kp) ->
    exists slope dirs, restarted ord ord1 junk potrf potrs opS opP s T kappa mo w mu = KOk (slope, dirs) /\
      slope = fst (Descent.restarted solve s T kappa mo ks mu) /\
      Forall3 (Forall3 held) ks dirs (snd (Descent.restarted solve s T kappa mo ks mu)).
  Proof.
    intros H Hsys. destruct (dFdmu_ok mu w ks H) as [E1 E2]. unfold restarted. rewrite E1. cbn [kbind]. rewrite E2.
    set (dF := Descent.dFdmu s T mo ks mu). set (dmu := Descent.dmu_deta s T mo ks mu).
    set (Q := fun kp (r : R * view Celt * view Celt) =>
      let Rr := Descent.exec_restart solve s T kappa mo mu dmu dF kp in
      fst (fst r) = fst (fst Rr) /\ held kp (snd (fst r), snd r) (snd (fst Rr), snd Rr)).
    assert (H' : Forall2 (Forall2 (fun k kp => represents opS opP k kp /\ DescentFacts.systems_ok solve kp)) w ks).
    { clear - H Hsys. induction H as [|l l' w v Hl Hw IH]; constructor.
      - assert (Hs : forall kp, In kp l' -> DescentFacts.systems_ok solve kp) by (intros kp Hk; apply (Hsys l'); [left; reflexivity | exact Hk]).
        clear - Hl Hs. induction Hl; constructor.
        + split; [assumption | apply Hs; left; reflexivity].
        + apply IHHl. intros; apply Hs; right; assumption.
      - apply IH. intros r kp Hr. apply Hsys. right. exact Hr. }
    destruct (kmap2_ok (fun t k => exec_restart ord ord1 junk potrf potrs opS opP s T kappa mo t (mk_key k) mu dmu dF (mk_wk k) (mk_x k) (mk_e k) (mk_f k) (mk_hx k)) Q w ks) with (t := O) as (ys & -> & Hys).
    { apply (Forall2_impl2 _ _ _ _) with (2 := H'). intros k kp [Hr Hs] t. exact (restart_k t mu dmu dF k kp Hr Hs). }
    cbn [kbind]. do 2 eexists. split; [reflexivity|]. unfold Descent.restarted. fold dF dmu. cbn [fst snd]. split.
    - rewrite (allsum_total _ (fun kp => fst (fst (Descent.exec_restart solve s T kappa mo mu dmu dF kp))) ys ks).
      + rewrite DescentProofs.total_map. reflexivity.
      + apply (Forall2_impl2 _ _ _ _) with (2 := Hys). intros kp y [E _]. exact E.
    - rewrite map_map. rewrite (map_ext (fun x => map _ (map _ x)) (map (fun kp => let r := Descent.exec_restart solve s T kappa mo mu dmu dF kp in (snd (fst r), snd r)))) by (intros; apply map_map).
      apply (Forall3_map2 held Q (fun r => (snd (fst r), snd r))) with (2 := Hys). intros kp y [_ Hh]. exact Hh.
  Qed.

  (** ** Conjugate directions *)
  Lemma combine_ok t gamma kp r Rr : (1 <= Descent.km kp)%nat -> cg_held kp r Rr ->
    exists d, match r with (_, dx, de, zx, ze, _) => combine_directions ord t gamma dx de zx ze end = KOk d /\
      held kp d (match Rr with (_, DX, DE, ZX, ZE, _) => (Descent.add ZX DX 1 gamma, Descent.add ZE DE 1 gamma) end).
  Proof.
    intros Hm. destruct r as [[[[[fr dx] de] zx] ze] sl]. destruct Rr as [[[[[FR DX] DE] ZX] ZE] SL].
    intros (_ & _ & (H1 & H2) & H3 & H4). cbn [fst snd] in *. unfold combine_directions.
    destruct (k_add (ord t) _ _ zx dx _ _ 1 gamma (Hord _) H3 H1) as (a & -> & Ha). cbn [kbind].
    destruct (k_add (ord (t + 1)%nat) _ _ ze de _ _ 1 gamma (Hord _) H4 H2) as (b & -> & Hb). cbn [kbind].
    eexists. split; [reflexivity|]. split; assumption.
  Qed.

  (** a k-point in memory with its previous directions, and what they stand for *)
  Definition cg_pair (kz : memk * (view Celt * view Celt * view Celt)) (kZ : Descent.kpt * (mat * mat * mat)) : Prop :=
    represents opS opP (fst kz) (fst kZ) /\ prev_held (fst kZ) (snd kz) (snd kZ).

  Theorem conjugated_refines fr_old mu w ks :
    Forall2 (Forall2 cg_pair) w ks -> (forall r kZ, In r ks -> In kZ r -> DescentFacts.systems_ok solve (fst kZ)) ->
    exists fr slope dirs, conjugated ord ord1 junk potrf potrs opS opP s T kappa mo fr_old w mu = KOk (fr, slope, dirs) /\
      (fr, slope) = fst (Descent.conjugated solve s T kappa mo fr_old ks mu) /\
      Forall3 (Forall3 (fun kZ => held (fst kZ))) ks dirs (snd (Descent.conjugated solve s T kappa mo fr_old ks mu)).
  Proof.
    intros H Hsys.
    assert (HR : Forall2 (Forall2 (represents opS opP)) (map (map fst) w) (map (map fst) ks)).
    { apply Forall2_map2_l. apply Forall2_map2_r. apply (Forall2_impl2 _ _ _ _) with (2 := H). intros a b [Hr _]. exact Hr. }
    destruct (dFdmu_ok mu _ _ HR) as [E1 E2]. unfold conjugated. rewrite E1. cbn [kbind]. rewrite E2.
    set (dF := Descent.dFdmu s T mo (map (map fst) ks) mu). set (dmu := Descent.dmu_deta s T mo (map (map fst) ks) mu).
    set (spec := fun kZ : Descent.kpt * (mat * mat * mat) => match kZ with (k, (zxp, zetap, ul)) => Descent.exec_cg solve s T kappa mo mu dmu dF k zxp zetap ul end).
    set (Q := fun (kZ : Descent.kpt * (mat * mat * mat)) r => (1 <= Descent.km (fst kZ))%nat /\ cg_held (fst kZ) r (spec kZ)).
    assert (H' : Forall2 (Forall2 (fun kz kZ => cg_pair kz kZ /\ DescentFacts.systems_ok solve (fst kZ))) w ks).
    { clear - H Hsys. induction H as [|l l' w v Hl Hw IH]; constructor.
      - assert (Hs : forall kp, In kp l' -> DescentFacts.systems_ok solve (fst kp)) by (intros kp Hk; apply (Hsys l'); [left; reflexivity | exact Hk]).
        clear - Hl Hs. induction Hl; constructor.
        + split; [assumption | apply Hs; left; reflexivity].
        + apply IHHl. intros; apply Hs; right; assumption.
      - apply IH. intros r kp Hr. apply Hsys. right. exact Hr. }
    destruct (kmap2_ok (fun t kz => match kz with (k, (zxp, zetap, ul)) =>
        exec_cg ord ord1 junk potrf potrs opS opP s T kappa mo t (mk_key k) mu dmu dF (mk_wk k) (mk_x k) (mk_e k) (mk_f k) (mk_hx k) zxp zetap ul end) Q w ks) with (t := O) as (ys & -> & Hys).
    { apply (Forall2_impl2 _ _ _ _) with (2 := H'). intros [k z] [kp Z] [[Hr Hz] Hs] t. cbn [fst snd] in *.
      destruct (cg_k t mu dmu dF k kp z Z Hr Hs Hz) as (r & Er & Hr').
      exists r. destruct z as [[zxp zetap] ul]. destruct Z as [[ZXP ZETAP] UL]. split; [exact Er|]. split; [exact (rp_m _ _ _ _ Hr) | exact Hr']. }
    cbn [kbind].
    assert (EF : allsum (map (map (fun r : R * view Celt * view Celt * view Celt * view Celt * R => match r with (fr, _, _, _, _, _) => fr end)) ys) =
      Descent.total (fun r : R * mat * mat * mat * mat * R => match r with (fr, _, _, _, _, _) => fr end) (map (map spec) ks)).
    { rewrite DescentProofs.total_map. apply allsum_total. apply (Forall2_impl2 _ _ _ _) with (2 := Hys).
      intros kZ y [_ Hc]. destruct y as [[[[[a1 a2] a3] a4] a5] a6]. unfold cg_held in Hc. destruct (spec kZ) as [[[[[b1 b2] b3] b4] b5] b6]. apply Hc. }
    assert (ES : allsum (map (map (fun r : R * view Celt * view Celt * view Celt * view Celt * R => match r with (_, _, _, _, _, sl) => sl end)) ys) =
      Descent.total (fun r : R * mat * mat * mat * mat * R => match r with (_, _, _, _, _, sl) => sl end) (map (map spec) ks)).
    { rewrite DescentProofs.total_map. apply allsum_total. apply (Forall2_impl2 _ _ _ _) with (2 := Hys).
      intros kZ y [_ Hc]. destruct y as [[[[[a1 a2] a3] a4] a5] a6]. unfold cg_held in Hc. destruct (spec kZ) as [[[[[b1 b2] b3] b4] b5] b6]. apply Hc. }
    rewrite EF, ES. set (fr := Descent.total _ (map (map spec) ks)). set (szp := Descent.total _ (map (map spec) ks)). set (gamma := fr / fr_old).
    set (comb := fun r : R * mat * mat * mat * mat * R => match r with (_, DX, DE, ZX, ZE, _) => (Descent.add ZX DX 1 gamma, Descent.add ZE DE 1 gamma) end).
    destruct (kmap2_ok (fun t (r : R * view Celt * view Celt * view Celt * view Celt * R) => match r with (_, dx, de, zx, ze, _) => combine_directions ord t gamma dx de zx ze end)
      (fun (kZ : Descent.kpt * (mat * mat * mat)) d => held (fst kZ) d (comb (spec kZ))) ys ks) with (t := (32 * length (concat w))%nat) as (zs & -> & Hzs).
    { apply Forall2_flip2. apply (Forall2_impl2 _ _ _ _) with (2 := Hys). intros kZ r [Hm Hc] t. exact (combine_ok t gamma (fst kZ) r (spec kZ) Hm Hc). }
    cbn [kbind]. do 3 eexists. split; [reflexivity|]. unfold Descent.conjugated. fold dF dmu. cbn [fst snd].
    split; [reflexivity|]. change (map (map _) (map (map _) ks)) with (map (map comb) (map (map spec) ks)).
    rewrite map_map. rewrite (map_ext (fun x => map comb (map spec x)) (map (fun kZ => comb (spec kZ)))) by (intros; apply map_map).
    rewrite <- (map_id zs). rewrite (map_ext (fun x => x) (map (fun d : view Celt * view Celt => d))) by (intros; symmetry; apply map_id).
    apply (Forall3_map2 (fun kZ => held (fst kZ)) (fun kZ d => held (fst kZ) d (comb (spec kZ))) (fun d => d)) with (2 := Hzs).
    intros kZ d Hd. exact Hd.
  Qed.
End Main.
