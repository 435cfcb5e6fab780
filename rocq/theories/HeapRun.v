(** Directions and trial evaluations of all k-points on the heap. *)
From Coq Require Import ZArith Reals Arith List Bool Lia.
From Coquelicot Require Import Complex.
From Verif Require Import Arith LinAlg MVector LapackMem LapackElt Exchange Smearing Newton Occupation StepMem HeapStep HeapProofs.
Import ListNotations.

(** ** Loops over k-points *)
Section Loop.
  Context {A A' B B' : Type} (f : nat -> A -> hm B) (g : nat -> A' -> kres B').
  Context (views : A -> list hview) (deref : heap -> A -> A').
  Context (out : B -> list hview) (oderef : heap -> B -> B').
  Context (Hd : forall h h' a, (forall x, In x (views a) -> vof h' x = vof h x) -> deref h' a = deref h a).
  Context (Ho : forall h h' b, (forall x, In x (out b) -> vof h' x = vof h x) -> oderef h' b = oderef h b).
  Definition bound (h : heap) (a : A) : Prop := forall x, In x (views a) -> hloc x < hnext h.
  Definition new (h : heap) (b : B) (h' : heap) : Prop := forall x, In x (out b) -> hnext h <= hloc x < hnext h'.
  Context (ok : B -> Prop).
  Context (Hf : forall h t a, bound h a ->
    spec nowhere h (f t a) (g t (deref h a)) (fun b b' h' => b' = oderef h' b /\ new h b h' /\ ok b)).
  (** results of different k-points are different memory *)
  Definition apart (bs : list B) : Prop :=
    ForallOrdPairs (fun b c => forall x y, In x (out b) -> In y (out c) -> hloc x < hloc y) bs.

  Lemma spec_hmap l : forall t h, Forall (bound h) l ->
    spec nowhere h (hmap f t l) (kmap g t (map (deref h) l))
      (fun bs bs' h' => bs' = map (oderef h') bs /\ Forall (fun b => new h b h') bs /\ apart bs /\ Forall ok bs).
  Proof.
    induction l as [|a l IH]; intros t h Hb; cbn [hmap map kmap].
    - apply spec_ret. split; [reflexivity|]. split; [|split]; constructor.
    - apply spec_start. inversion Hb as [|? ? Ha Hl]; subst.
      eapply spec_bind; [apply Hf; exact Ha | intros q _ [] | | intros; left; lia].
      intros b b' h1 F (-> & Nb & Ok) _.
      assert (Hl1 : Forall (bound h1) l).
      { apply Forall_forall. intros c Hc x Hx. rewrite Forall_forall in Hl. specialize (Hl c Hc x Hx). apply frame_le in F. lia. }
      assert (E : map (deref h) l = map (deref h1) l).
      { apply map_ext_in. intros c Hc. symmetry. apply Hd. intros x Hx. apply (frame_vof _ _ _ x F); [|intros []].
        rewrite Forall_forall in Hl. exact (Hl c Hc x Hx). }
      rewrite E. eapply spec_bind; [apply (IH (t + 32) h1 Hl1) | intros q _ [] | | intros; left; apply frame_le in F; lia].
      intros bs bs' h2 F2 (-> & Nbs & Ap & Oks) _. apply spec_ret. split; [|split; [|split]].
      + cbn [map]. f_equal. symmetry. apply Ho. intros x Hx. apply (frame_vof _ _ _ x F2); [|intros []]. apply (Nb x Hx).
      + pose proof (frame_le _ _ _ F). pose proof (frame_le _ _ _ F2). constructor.
        * intros x Hx. specialize (Nb x Hx). lia.
        * eapply Forall_impl; [|exact Nbs]. intros c Nc x Hx. specialize (Nc x Hx). lia.
      + constructor; [|exact Ap]. eapply Forall_impl; [|exact Nbs]. intros c Nc x y Hx Hy. specialize (Nb x Hx). specialize (Nc y Hy). lia.
      + constructor; assumption.
  Qed.
End Loop.

(** ** Ranks *)
Lemma kmap_length {A B} (f : nat -> A -> kres B) l : forall t bs, kmap f t l = KOk bs -> length bs = length l.
Proof.
  induction l as [|a l IH]; intros t bs E; cbn in E; [injection E as <-; reflexivity|].
  destruct (f t a) as [b| | |]; cbn in E; try discriminate. destruct (kmap f (t + 32) l) as [r| | |] eqn:K; cbn in E; try discriminate.
  injection E as <-. cbn. f_equal. exact (IH _ _ K).
Qed.
Lemma kmap2_nth {A B} (f : nat -> A -> kres B) w : forall t res, kmap2 f t w = KOk res ->
  map (@length B) res = map (@length A) w /\
  forall r l, nth_error w r = Some l -> exists b, nth_error res r = Some b /\ kmap f (t + 32 * length (concat (firstn r w))) l = KOk b.
Proof.
  induction w as [|l0 w IH]; intros t res E; cbn [kmap2] in E.
  - injection E as <-. split; [reflexivity|]. intros [|r] l H; discriminate.
  - destruct (kmap f t l0) as [b0| | |] eqn:K; cbn [kbind] in E; try discriminate. destruct (kmap2 f (t + 32 * length l0) w) as [bs| | |] eqn:K2; cbn [kbind] in E; try discriminate.
    injection E as <-. destruct (IH _ _ K2) as [L N]. split; [cbn; rewrite L, (kmap_length _ _ _ _ K); reflexivity|].
    intros [|r] l H; cbn in H.
    + injection H as <-. exists b0. split; [reflexivity|]. cbn [firstn concat length]. rewrite Nat.mul_0_r, Nat.add_0_r. exact K.
    + destruct (N r l H) as (b & Hb & Kb). exists b. split; [exact Hb|]. cbn [firstn concat]. rewrite app_length.
      replace (t + 32 * (length l0 + length (concat (firstn r w)))) with (t + 32 * length l0 + 32 * length (concat (firstn r w))) by lia. exact Kb.
Qed.
Lemma concat_length {A B} (u : list (list A)) : forall (w : list (list B)), map (@length A) u = map (@length B) w -> length (concat u) = length (concat w).
Proof.
  induction u as [|a u IH]; intros [|b w] E; try discriminate; [reflexivity|]. cbn in E. injection E as E1 E2. cbn. rewrite !app_length, E1, (IH w E2). reflexivity.
Qed.

Lemma Forall2_impl' {A B} (P Q : A -> B -> Prop) l r : (forall a b, P a b -> Q a b) -> Forall2 P l r -> Forall2 Q l r.
Proof. intros H F. induction F; constructor; auto. Qed.

Section Run.
  Notation V := (ev Celt).
  Context (ord : nat -> orders) (ord1 : nat -> nat -> list nat) (junk : nat -> nat -> V).
  Context (heevd : nat -> buf Celt -> nat -> Z * buf Celt * (nat -> R)).
  Context (potrf : nat -> buf Celt -> nat -> Z * buf Celt)
          (potrs : nat -> nat -> buf Celt -> nat -> buf Celt -> nat -> Z * buf Celt).
  Context (opS opP : operator_fn Celt) (HS : keeps opS) (HP : keeps opP).
  Context (s : smearing_type) (T kappa mo : R).

  (** ** Directions *)
  Definition kviews (k : hk) : list hview := [hk_x k; hk_hx k].
  Definition kderef (h : heap) (k : hk) : memk := MkMemk (hk_key k) (vof h (hk_x k)) (hk_e k) (hk_f k) (hk_h k) (vof h (hk_hx k)) (hk_wk k).
  Lemma kderef_ext h h' k : (forall x, In x (kviews k) -> vof h' x = vof h x) -> kderef h' k = kderef h k.
  Proof. intros H. unfold kderef. rewrite (H (hk_x k)), (H (hk_hx k)); cbn; auto. Qed.
  (** a value of three components with two views *)
  Definition oviews {X} (a : X * hview * hview) : list hview := [snd (fst a); snd a].
  Definition oder {X} (h : heap) (a : X * hview * hview) : X * view Celt * view Celt := (fst (fst a), vof h (snd (fst a)), vof h (snd a)).
  Lemma oder_ext {X} h h' (a : X * hview * hview) : (forall x, In x (oviews a) -> vof h' x = vof h x) -> oder h' a = oder h a.
  Proof. intros H. unfold oder. rewrite (H (snd (fst a))), (H (snd a)); cbn; auto. Qed.

  Notation exec_restart' := (exec_restart ord ord1 junk potrf potrs opS opP s T kappa mo).
  Notation exec_cg' := (exec_cg ord ord1 junk potrf potrs opS opP s T kappa mo).
  Lemma spec_restarted h t mu dmu dF ks : Forall (bound kviews h) ks ->
    spec nowhere h (h_restarted ord ord1 junk potrf potrs opS opP s T kappa mo t mu dmu dF ks)
      (kmap (fun t k => exec_restart' t (mk_key k) mu dmu dF (mk_wk k) (mk_x k) (mk_e k) (mk_f k) (mk_hx k)) t (map (kderef h) ks))
      (fun bs bs' h' => bs' = map (oder h') bs /\ Forall (fun b => new oviews h b h') bs /\ apart oviews bs /\ Forall (fun _ => True) bs).
  Proof.
    intros Hb. unfold h_restarted. apply (spec_hmap _ (fun t k => exec_restart' t (mk_key k) mu dmu dF (mk_wk k) (mk_x k) (mk_e k) (mk_f k) (mk_hx k)) kviews kderef oviews oder kderef_ext oder_ext (fun _ => True)); [|exact Hb].
    intros h0 t0 k Bk. eapply spec_weaken; [| |apply (spec_restart ord ord1 junk potrf potrs opS opP HS HP s T kappa mo h0 t0); apply Bk; cbn; auto].
    - intros l _ H. exact H.
    - intros a b h' _ (-> & A1 & A2 & _). split; [reflexivity|]. split; [|exact I]. intros x [<- | [<- | []]]; assumption.
  Qed.

  Definition czviews (kz : hk * (hview * hview * hview)) : list hview := let '(k, (a, b, c)) := kz in [hk_x k; hk_hx k; a; b; c].
  Definition czderef (h : heap) (kz : hk * (hview * hview * hview)) : memk * (view Celt * view Celt * view Celt) :=
    let '(k, (a, b, c)) := kz in (kderef h k, (vof h a, vof h b, vof h c)).
  Lemma czderef_ext h h' kz : (forall x, In x (czviews kz) -> vof h' x = vof h x) -> czderef h' kz = czderef h kz.
  Proof.
    destruct kz as [k [[a b] c]]. intros H. cbn. rewrite (H a), (H b), (H c); cbn; auto 7.
    rewrite (kderef_ext h h' k); [reflexivity|]. intros x [<- | [<- | []]]; apply H; cbn; auto.
  Qed.
  Definition cgres : Type := R * hview * hview * hview * hview * R.
  Definition cviews (r : cgres) : list hview := let '(_, dx, de, zx, ze, _) := r in [dx; de; zx; ze].
  Definition cder (h : heap) (r : cgres) : R * view Celt * view Celt * view Celt * view Celt * R :=
    let '(fr, dx, de, zx, ze, sl) := r in (fr, vof h dx, vof h de, vof h zx, vof h ze, sl).
  Lemma cder_ext h h' r : (forall x, In x (cviews r) -> vof h' x = vof h x) -> cder h' r = cder h r.
  Proof. destruct r as [[[[[fr dx] de] zx] ze] sl]. intros H. cbn. rewrite (H dx), (H de), (H zx), (H ze); cbn; auto 6. Qed.
  Definition cok (r : cgres) : Prop := let '(_, dx, de, zx, ze, _) := r in
    hloc dx <> hloc zx /\ hloc de <> hloc zx /\ hloc de <> hloc ze /\ hloc dx <> hloc ze /\ hloc zx <> hloc ze.
  Definition czf mu dmu dF (t : nat) (kz : memk * (view Celt * view Celt * view Celt)) :=
    match kz with (k, (zxp, zetap, ul)) => exec_cg' t (mk_key k) mu dmu dF (mk_wk k) (mk_x k) (mk_e k) (mk_f k) (mk_hx k) zxp zetap ul end.
  Lemma spec_conjugated1 h t mu dmu dF ks : Forall (bound czviews h) ks ->
    spec nowhere h (h_conjugated1 ord ord1 junk potrf potrs opS opP s T kappa mo t mu dmu dF ks) (kmap (czf mu dmu dF) t (map (czderef h) ks))
      (fun bs bs' h' => bs' = map (cder h') bs /\ Forall (fun b => new cviews h b h') bs /\ apart cviews bs /\ Forall cok bs).
  Proof.
    intros Hb. unfold h_conjugated1. apply (spec_hmap _ (czf mu dmu dF) czviews czderef cviews cder czderef_ext cder_ext cok); [|exact Hb].
    intros h0 t0 [k [[a b] c]] Bk. cbn [czderef czf]. eapply spec_weaken; [| |apply (spec_cg ord ord1 junk potrf potrs opS opP HS HP s T kappa mo h0 t0); apply Bk; cbn; auto 8].
    - intros l _ H. exact H.
    - intros [[[[[fr dx] de] zx] ze] sl] v h' _ (-> & A1 & A2 & A3 & A4 & A5 & A6 & A7 & A8 & A9). split; [reflexivity|].
      split; [intros x [<- | [<- | [<- | [<- | []]]]]; assumption | repeat split; assumption].
  Qed.

  (** the update in place *)
  Definition cz (r : cgres) : hview * hview := let '(_, _, _, zx, ze, _) := r in (zx, ze).
  Definition zder (h : heap) (z : hview * hview) : view Celt * view Celt := (vof h (fst z), vof h (snd z)).
  Definition comb gamma (t : nat) (r : R * view Celt * view Celt * view Celt * view Celt * R) :=
    match r with (_, dx, de, zx, ze, _) => combine_directions ord t gamma dx de zx ze end.
  Definition zwritten (res : list cgres) (l : nat) : Prop := exists r, In r res /\ (hloc (fst (cz r)) = l \/ hloc (snd (cz r)) = l).
  Lemma spec_conjugated2 gamma res : forall h t, Forall (bound cviews h) res -> apart cviews res -> Forall cok res ->
    spec (zwritten res) h (h_conjugated2 ord t gamma res) (kmap (comb gamma) t (map (cder h) res)) (fun zs zs' h' => zs = map cz res /\ zs' = map (zder h') zs).
  Proof.
    induction res as [|r res IH]; intros h t Hb Ap Ok; unfold h_conjugated2; cbn [hmap kmap map].
    - apply spec_ret. split; reflexivity.
    - inversion Hb as [|? ? Br Bl]; subst. inversion Ap as [|? ? Ar Al]; subst. inversion Ok as [|? ? Or Ol]; subst.
      apply spec_start. destruct r as [[[[[fr dx] de] zx] ze] sl]. cbn [cder comb]. destruct Or as (O1 & O2 & O3 & O4 & O5).
      assert (B1 : hloc dx < hnext h) by (apply Br; cbn; auto). assert (B2 : hloc de < hnext h) by (apply Br; cbn; auto).
      assert (B3 : hloc zx < hnext h) by (apply Br; cbn; auto). assert (B4 : hloc ze < hnext h) by (apply Br; cbn; auto).
      assert (S1 : spec (fun l => hloc zx = l \/ hloc ze = l) h (_ <~ h_combine ord t gamma dx de zx ze;; hret (zx, ze))
               (combine_directions ord t gamma (vof h dx) (vof h de) (vof h zx) (vof h ze)) (fun a b h' => a = (zx, ze) /\ b = (vof h' zx, vof h' ze))).
      { pose proof (spec_combine ord h t gamma dx de zx ze B1 B2 B3 B4 O1 O2 O3 O5) as S. unfold spec, hbind in *.
        destruct (combine_directions ord t gamma (vof h dx) (vof h de) (vof h zx) (vof h ze)) as [v| | |]; cbn; try (rewrite S; reflexivity).
        destruct S as (u & h1 & E & F & ->). rewrite E. cbn. exists (zx, ze), h1. split; [reflexivity|]. split; [exact F | split; reflexivity]. }
      eapply (spec_bind (fun l => hloc zx = l \/ hloc ze = l)).
      + exact S1.
      + intros l _ Hl. right. exists (fr, dx, de, zx, ze, sl). split; [left; reflexivity | exact Hl].
      + intros a b h1 F [-> ->] _.
        assert (Same : forall x c, In c res -> In x (cviews c) -> vof h1 x = vof h x).
        { intros x c Hc Hx. rewrite Forall_forall in Bl. apply (frame_vof _ _ _ x F (Bl c Hc x Hx)).
          rewrite Forall_forall in Ar. pose proof (Ar c Hc zx x ltac:(cbn; auto) Hx). pose proof (Ar c Hc ze x ltac:(cbn; auto) Hx). lia. }
        assert (E : map (cder h) res = map (cder h1) res).
        { apply map_ext_in. intros c Hc. symmetry. apply cder_ext. intros x Hx. exact (Same x c Hc Hx). }
        rewrite E. eapply spec_bind.
        * apply (IH h1 (t + 32)); [|exact Al | exact Ol]. eapply Forall_impl; [|exact Bl]. intros c Bc x Hx. specialize (Bc x Hx). apply frame_le in F. lia.
        * intros l _ (c & Hc & Hl). right. exists c. split; [right; exact Hc | exact Hl].
        * intros zs zs' h2 F2 [-> ->] _. apply spec_ret. split; [reflexivity|]. cbn [map]. f_equal. unfold zder. cbn [fst snd].
          assert (Nw : forall x, In x [zx; ze] -> ~ zwritten res (hloc x)).
          { intros x Hx (c & Hc & Hl). rewrite Forall_forall in Ar. destruct c as [[[[[fr' dx'] de'] zx'] ze'] sl']. cbn in Hl.
            assert (Hx' : In x (cviews (fr, dx, de, zx, ze, sl))) by (destruct Hx as [<- | [<- | []]]; cbn; auto).
            pose proof (Ar _ Hc x zx' Hx' ltac:(cbn; auto)). pose proof (Ar _ Hc x ze' Hx' ltac:(cbn; auto)). lia. }
          pose proof (frame_le _ _ _ F).
          rewrite (frame_vof _ _ _ zx F2), (frame_vof _ _ _ ze F2); [reflexivity | lia | apply Nw; cbn; auto | lia | apply Nw; cbn; auto].
        * intros l Hl. left. apply frame_le in F. lia.
      + intros l Hl. left. exact Hl.
  Qed.
  (** one rank, both parts *)
  Lemma spec_conjugated h t1 t2 fr_old mu dmu dF total ks : Forall (bound czviews h) ks ->
    spec nowhere h (h_conjugated ord ord1 junk potrf potrs opS opP s T kappa mo t1 t2 fr_old mu dmu dF total ks)
      (kbind (kmap (czf mu dmu dF) t1 (map (czderef h) ks)) (fun res => kmap (comb (total / fr_old)%R) t2 res))
      (fun zs zs' h' => zs' = map (zder h') zs /\ Forall (fun z => hnext h <= hloc (fst z) < hnext h' /\ hnext h <= hloc (snd z) < hnext h') zs).
  Proof.
    intros Hb. apply spec_start. unfold h_conjugated. eapply spec_bind; [apply spec_conjugated1; exact Hb | intros l _ [] | | intros l Hl; left; exact Hl].
    intros res res' h1 F (-> & Nw & Ap & Ok) _. eapply spec_weaken; [| |apply spec_conjugated2; [|exact Ap | exact Ok]].
    - intros l _ (r & Hr & Hl). left. rewrite Forall_forall in Nw. specialize (Nw r Hr). destruct r as [[[[[fr dx] de] zx] ze] sl]. cbn in Hl.
      pose proof (Nw zx ltac:(cbn; auto)). pose proof (Nw ze ltac:(cbn; auto)). lia.
    - intros zs zs' h2 F2 [-> ->]. split; [reflexivity|]. apply Forall_forall. intros z Hz. apply in_map_iff in Hz. destruct Hz as (r & <- & Hr).
      rewrite Forall_forall in Nw. specialize (Nw r Hr). destruct r as [[[[[fr dx] de] zx] ze] sl]. cbn [cz fst snd].
      pose proof (Nw zx ltac:(cbn; auto)). pose proof (Nw ze ltac:(cbn; auto)). apply frame_le in F2. lia.
    - eapply Forall_impl; [|exact Nw]. intros r Nr x Hx. apply (Nr x Hx).
  Qed.

  (** all ranks: each with a heap of its own *)
  Notation restarted' := (restarted ord ord1 junk potrf potrs opS opP s T kappa mo).
  Notation conjugated' := (conjugated ord ord1 junk potrf potrs opS opP s T kappa mo).
  Theorem restarted_on_heaps (w : list (heap * list hk)) mu fr zs :
    (forall h ks, In (h, ks) w -> Forall (bound kviews h) ks) ->
    restarted' (map (fun hks => map (kderef (fst hks)) (snd hks)) w) mu = KOk (fr, zs) ->
    let world := map (fun hks => map (kderef (fst hks)) (snd hks)) w in
    exists dF, dFdmu s T mo world mu = KOk dF /\ forall r h ks, nth_error w r = Some (h, ks) ->
    exists res h', h_restarted ord ord1 junk potrf potrs opS opP s T kappa mo (32 * length (concat (firstn r (map snd w)))) mu (dmu_deta s T mo world mu) dF ks h = KOk (res, h') /\
      frame nowhere h h' /\ nth_error zs r = Some (map (fun a => zder h' (snd (fst a), snd a)) res) /\
      Forall (fun a => hnext h <= hloc (snd (fst a)) < hnext h' /\ hnext h <= hloc (snd a) < hnext h') res.
  Proof.
    intros Hb E world. fold world in E. unfold restarted in E.
    destruct (dFdmu s T mo world mu) as [dF| | |] eqn:ED; cbn [kbind] in E; try discriminate.
    destruct (kmap2 _ 0 world) as [res| | |] eqn:EK; cbn [kbind] in E; try discriminate.
    injection E as _ <-. exists dF. split; [reflexivity|]. intros r h ks Hr.
    destruct (kmap2_nth _ _ _ _ EK) as [_ N].
    assert (Hw : nth_error world r = Some (map (kderef h) ks)) by (unfold world; rewrite nth_error_map, Hr; reflexivity).
    destruct (N r _ Hw) as (b & Hbn & Kb).
    assert (L : length (concat (firstn r world)) = length (concat (firstn r (map snd w)))).
    { apply concat_length. rewrite <- !firstn_map. f_equal. unfold world. rewrite !map_map. apply map_ext. intros a. apply map_length. }
    rewrite L, Nat.add_0_l in Kb.
    pose proof (spec_restarted h (32 * length (concat (firstn r (map snd w)))) mu (dmu_deta s T mo world mu) dF ks (Hb h ks (nth_error_In _ _ Hr))) as S.
    rewrite Kb in S. destruct S as (bs & h' & Er & F & -> & Nw & _). exists bs, h'. split; [exact Er|]. split; [exact F|]. split.
    - rewrite nth_error_map, Hbn. cbn. rewrite map_map. reflexivity.
    - eapply Forall_impl; [|exact Nw]. intros a Na. split; apply Na; cbn; auto.
  Qed.
  Theorem conjugated_on_heaps (w : list (heap * list (hk * (hview * hview * hview)))) fr_old mu fr slope zs :
    (forall h ks, In (h, ks) w -> Forall (bound czviews h) ks) ->
    conjugated' fr_old (map (fun hks => map (czderef (fst hks)) (snd hks)) w) mu = KOk (fr, slope, zs) ->
    let world := map (fun hks => map (fun kz => kderef (fst hks) (fst kz)) (snd hks)) w in
    exists dF, dFdmu s T mo world mu = KOk dF /\ forall r h ks, nth_error w r = Some (h, ks) ->
    let t := 32 * length (concat (firstn r (map snd w))) in
    exists zv h', h_conjugated ord ord1 junk potrf potrs opS opP s T kappa mo t (32 * length (concat (map snd w)) + t) fr_old mu (dmu_deta s T mo world mu) dF fr ks h = KOk (zv, h') /\
      frame nowhere h h' /\ nth_error zs r = Some (map (zder h') zv) /\
      Forall (fun z => hnext h <= hloc (fst z) < hnext h' /\ hnext h <= hloc (snd z) < hnext h') zv.
  Proof.
    intros Hb E ws. set (world := map (fun hks => map (czderef (fst hks)) (snd hks)) w) in *.
    assert (Ews : map (map fst) world = ws).
    { unfold world, ws. rewrite map_map. apply map_ext. intros a. rewrite map_map. apply map_ext. intros [k [[x y] z]]. reflexivity. }
    clearbody ws. subst ws. unfold conjugated in E.
    destruct (dFdmu s T mo (map (map fst) world) mu) as [dF| | |] eqn:ED; cbn [kbind] in E; try discriminate.
    change (fun t kz => let '(k, (zxp, zetap, ul)) := kz in _) with (czf mu (dmu_deta s T mo (map (map fst) world) mu) dF) in E.
    destruct (kmap2 _ 0 world) as [res| | |] eqn:EK; cbn [kbind] in E; try discriminate.
    set (tot := allsum (map (map (fun r => let '(fr0, _, _, _, _, _) := r in fr0)) res)) in *.
    change (fun t r => let '(_, dx, de, zx, ze, _) := r in combine_directions ord t (tot / fr_old)%R dx de zx ze) with (comb (tot / fr_old)%R) in E.
    destruct (kmap2 (comb _) _ res) as [zs'| | |] eqn:EZ; cbn [kbind] in E; try discriminate.
    injection E as E1 _ E3. subst zs' fr. exists dF. split; [reflexivity|]. intros r h ks Hr t.
    destruct (kmap2_nth _ _ _ _ EK) as [L1 N1]. destruct (kmap2_nth _ _ _ _ EZ) as [L2 N2].
    assert (Hw : nth_error world r = Some (map (czderef h) ks)) by (unfold world; rewrite nth_error_map, Hr; reflexivity).
    destruct (N1 r _ Hw) as (b & Hbn & Kb). destruct (N2 r _ Hbn) as (z & Hzn & Kz).
    assert (Lw : map (@length _) world = map (@length _) (map snd w)).
    { unfold world. rewrite !map_map. apply map_ext. intros a. apply map_length. }
    assert (L : length (concat (firstn r world)) = length (concat (firstn r (map snd w)))).
    { apply concat_length. rewrite <- !firstn_map. f_equal. exact Lw. }
    assert (L' : length (concat (firstn r res)) = length (concat (firstn r (map snd w)))).
    { rewrite <- L. apply concat_length. rewrite <- !firstn_map. f_equal. exact L1. }
    rewrite L, Nat.add_0_l in Kb. rewrite L', (concat_length world (map snd w) Lw) in Kz. fold t in Kb, Kz.
    pose proof (spec_conjugated h t (32 * length (concat (map snd w)) + t) fr_old mu (dmu_deta s T mo (map (map fst) world) mu) dF tot ks (Hb h ks (nth_error_In _ _ Hr))) as S.
    rewrite Kb in S. cbn [kbind] in S. rewrite Kz in S. destruct S as (zv & h' & Er & F & -> & Nw). exists zv, h'.
    split; [exact Er|]. split; [exact F|]. split; [exact Hzn | exact Nw].
  Qed.

  (** ** Trial evaluations *)
  Definition sviews (k : sk) : list hview := [sk_x k; sk_eta k; sk_zx k; sk_ze k].
  (** [own]: memory of the calling program; it changes nothing else *)
  Context (own : nat -> Prop) (caller : heap -> heap) (Hcaller : forall h, frame own h (caller h)).
  Definition sderef (h : heap) (k : sk) : key * (view Celt * view Celt * view Celt * view Celt) :=
    (sk_key k, (vof h (sk_x k), vof h (sk_eta k), vof h (sk_zx k), vof h (sk_ze k))).
  Definition geo1 (step : R) (t : nat) (k : key * (view Celt * view Celt * view Celt * view Celt)) : kres (rvec * view Celt * view Celt) :=
    let '(k, (x, e, zx, ze)) := k in geodesic_us ord junk heevd opS t k step x e zx ze.
  Lemma sderef_ext h h' k : (forall x, In x (sviews k) -> vof h' x = vof h x) -> sderef h' k = sderef h k.
  Proof. intros H. unfold sderef. rewrite (H (sk_x k)), (H (sk_eta k)), (H (sk_zx k)), (H (sk_ze k)); cbn; auto 6. Qed.
  Lemma spec_geodesics h t step ks : Forall (bound sviews h) ks ->
    spec nowhere h (h_geodesic ord junk heevd opS t step ks) (kmap (geo1 step) t (map (sderef h) ks))
      (fun bs bs' h' => bs' = map (oder h') bs /\ Forall (fun b => new oviews h b h') bs /\ apart oviews bs /\ Forall (fun _ => True) bs).
  Proof.
    intros Hb. unfold h_geodesic. apply (spec_hmap _ (geo1 step) sviews sderef oviews oder sderef_ext oder_ext (fun _ => True)); [|exact Hb].
    intros h0 t0 k Bk. cbn [sderef geo1]. eapply spec_weaken; [| |apply (spec_geodesic ord junk heevd opS HS h0 t0); apply Bk; cbn; auto 6].
    - intros l _ H. exact H.
    - intros a b h' _ (-> & A1 & A2). split; [reflexivity|]. split; [|exact I]. intros x [<- | [<- | []]]; assumption.
  Qed.
  Lemma spec_inv {A B} P h (m : hm A) (r : kres B) Q a h' : spec P h m r Q -> m h = KOk (a, h') -> exists b, r = KOk b /\ frame P h h' /\ Q a b h'.
  Proof.
    unfold spec. intros S E. destruct r as [b| | |]; try congruence. destruct S as (a1 & h1 & E1 & F & Q1). rewrite E1 in E. injection E as <- <-.
    exists b. split; [reflexivity | split; assumption].
  Qed.
  Lemma hbind_inv {A B} (m : hm A) (f : A -> hm B) h b h' : hbind m f h = KOk (b, h') -> exists a h1, m h = KOk (a, h1) /\ f a h1 = KOk (b, h').
  Proof. unfold hbind. destruct (m h) as [[a h1]| | |]; cbn; intros E; try discriminate. exists a, h1. split; [reflexivity | exact E]. Qed.
  Lemma hkernel_frame C ins f h u h' : hkernel C ins f h = KOk (u, h') -> frame (eq (hloc C)) h h'.
  Proof.
    unfold hkernel. destruct (existsb _ ins); [discriminate|]. destruct (f h) as [v| | |]; cbn; intros E; try discriminate. injection E as _ <-. apply frame_hset.
  Qed.
  Lemma put_frame t c x h u h' : own (hloc c) -> h_put ord t (c, x) h = KOk (u, h') -> frame own h h'.
  Proof.
    intros O E. unfold h_put in E. destruct (hbind_inv _ _ _ _ _ E) as (y & h1 & E1 & E2). destruct (hbind_inv _ _ _ _ _ E2) as (u' & h2 & E3 & E4).
    unfold hnew in E1. injection E1 as <- <-. apply hkernel_frame in E3. apply hkernel_frame in E4. cbn [hloc] in E3.
    assert (F0 : frame own h (MkHeap (S (hnext h)) (fun q => if Nat.eqb q (hnext h) then MkBuf (hrows x * hcols x) (fun _ => e0 Celt) else hbuf h q))).
    { split; [cbn; lia|]. intros l Hl _. cbn. destruct (Nat.eqb_spec l (hnext h)); [lia | reflexivity]. }
    destruct F0 as [L0 F0], E3 as [L1 F1], E4 as [L2 F2]. cbn [hnext] in *. split; [lia|]. intros l Hl Nl.
    rewrite F2, F1, F0; auto; try lia. intros <-. exact (Nl O).
  Qed.
  Lemma puts_frame l : forall t h u h', Forall (fun cx => own (hloc (fst cx))) l -> hmap (h_put ord) t l h = KOk (u, h') -> frame own h h'.
  Proof.
    induction l as [|[c x] l IH]; intros t h u h' O E; cbn [hmap] in E.
    - injection E as _ <-. apply frame_refl.
    - inversion O as [|? ? Oc Ol]; subst. destruct (hbind_inv _ _ _ _ _ E) as (v & h1 & E1 & E2). destruct (hbind_inv _ _ _ _ _ E2) as (w & h2 & E3 & E4).
      injection E4 as _ <-. exact (frame_trans _ _ _ _ (put_frame t c x h v h1 Oc E1) (IH _ _ _ _ Ol E3)).
  Qed.
  Definition apart_from_own (k : sk) : Prop := forall x, In x (sviews k) -> ~ own (hloc x).
  Definition own_below (n : nat) : Prop := forall l, own l -> l < n.
  Lemma eval_on_heap cs t step ks h res h' :
    Forall (fun c => own (hloc c)) cs -> own_below (hnext h) -> Forall (bound sviews h) ks ->
    h_eval ord junk heevd opS caller cs t step ks h = KOk (res, h') ->
    frame own h h' /\ kmap (geo1 step) t (map (sderef h) ks) = KOk (map (oder h') res) /\ Forall (fun b => new oviews h b h') res.
  Proof.
    intros Oc Ob Hb E. unfold h_eval in E. destruct (hbind_inv _ _ _ _ _ E) as (r & h1 & E1 & E2).
    destruct (hbind_inv _ _ _ _ _ E2) as (u & h2 & E3 & E4). destruct (hbind_inv _ _ _ _ _ E4) as (v & h3 & E5 & E6).
    injection E6 as <- <-. unfold h_caller in E5. injection E5 as _ <-.
    destruct (spec_inv _ _ _ _ _ _ _ (spec_geodesics h t step ks Hb) E1) as (b & Eb & F1 & -> & Nw & _).
    assert (F2 : frame own h1 (caller h2)).
    { apply (frame_trans _ _ h2); [|apply Hcaller]. refine (puts_frame _ _ _ _ _ _ E3).
      apply Forall_forall. intros [c x] Hc. cbn. apply in_combine_l in Hc. rewrite Forall_forall in Oc. exact (Oc c Hc). }
    assert (L1 : hnext h <= hnext h1) by exact (frame_le _ _ _ F1). assert (L2 : hnext h1 <= hnext (caller h2)) by exact (frame_le _ _ _ F2).
    split; [|split].
    - apply (frame_trans _ _ h1); [|exact F2]. revert F1. apply frame_mono. intros l _ [].
    - rewrite Eb. f_equal. apply map_ext_in. intros a Ha. symmetry. apply oder_ext. intros x Hx. rewrite Forall_forall in Nw. specialize (Nw a Ha x Hx).
      apply (frame_vof _ _ _ _ F2); [lia|]. intros O. apply Ob in O. lia.
    - eapply Forall_impl; [|exact Nw]. intros a Na x Hx. specialize (Na x Hx). lia.
  Qed.
  (** any number of trials: each of them sees the X, eta, z_x, z_eta of the beginning, and the results of all of them stay intact *)
  Theorem evals_on_heap cs trials : forall ks h ress h',
    Forall (fun c => own (hloc c)) cs -> own_below (hnext h) -> Forall (bound sviews h) ks -> Forall apart_from_own ks ->
    h_evals ord junk heevd opS caller cs trials ks h = KOk (ress, h') ->
    frame own h h' /\
    Forall2 (fun trial res => kmap (geo1 (snd trial)) (fst trial) (map (sderef h) ks) = KOk (map (oder h') res) /\ Forall (fun b => new oviews h b h') res) trials ress.
  Proof.
    induction trials as [|[t step] trials IH]; intros ks h ress h' Oc Ob Hb Ha E; cbn [h_evals] in E.
    - injection E as <- <-. split; [apply frame_refl | constructor].
    - destruct (hbind_inv _ _ _ _ _ E) as (res & h1 & E1 & E2). destruct (hbind_inv _ _ _ _ _ E2) as (l & h2 & E3 & E4). injection E4 as <- <-.
      destruct (eval_on_heap _ _ _ _ _ _ _ Oc Ob Hb E1) as (F1 & K1 & N1). pose proof (frame_le _ _ _ F1) as L1.
      destruct (IH ks h1 l h2) as (F2 & K2).
      + exact Oc.
      + intros q Hq. apply Ob in Hq. lia.
      + eapply Forall_impl; [|exact Hb]. intros k Bk x Hx. specialize (Bk x Hx). lia.
      + exact Ha.
      + exact E3.
      + pose proof (frame_le _ _ _ F2) as L2. split; [exact (frame_trans _ _ _ _ F1 F2)|]. constructor.
        * cbn [fst snd]. split.
          -- rewrite K1. f_equal. apply map_ext_in. intros a Ia. symmetry. apply oder_ext. intros x Hx. rewrite Forall_forall in N1. specialize (N1 a Ia x Hx).
             apply (frame_vof _ _ _ _ F2); [lia|]. intros O. apply Ob in O. lia.
          -- eapply Forall_impl; [|exact N1]. intros a Na x Hx. specialize (Na x Hx). lia.
        * eapply Forall2_impl'; [|exact K2]. intros a b [A B]. split.
          -- rewrite <- A. f_equal. apply map_ext_in. intros k Hk. symmetry. apply sderef_ext. intros x Hx.
             rewrite Forall_forall in Hb, Ha. apply (frame_vof _ _ _ _ F1); [exact (Hb k Hk x Hx) | exact (Ha k Hk x Hx)].
          -- eapply Forall_impl; [|exact B]. intros c Nc x Hx. specialize (Nc x Hx). lia.
  Qed.
End Run.
