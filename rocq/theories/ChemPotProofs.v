(** Proofs about find_chemical_potential. *)
From Coq Require Import ZArith List Bool Lia Reals Lra.
From Verif Require Import Arith ChemPot.
Import ListNotations.

Section Any.
  Context (A : arith) (f : num A -> num A) (tol : num A).
  Notation chem_loop := (chem_loop A f tol).

  Lemma chem_sound mu0 mu vis c :
    find_chemical_potential A f tol mu0 = (Ret mu, vis, c) -> altb A (aabs A (f mu)) tol = true.
  Proof.
    unfold find_chemical_potential. destruct (chem_loop _ _ _ _ _ _) as [[m v] k].
    destruct (altb A (aabs A (f m)) tol) eqn:H; cbn [negb]; intros E; inversion E; subst; exact H.
  Qed.

  Lemma chem_total mu0 :
    (exists mu, fst (fst (find_chemical_potential A f tol mu0)) = Ret mu) \/
    fst (fst (find_chemical_potential A f tol mu0)) = Throw RuntimeError.
  Proof.
    unfold find_chemical_potential. destruct (chem_loop _ _ _ _ _ _) as [[m v] k].
    destruct (negb _); cbn; eauto.
  Qed.

  (** The residual at the value reported with an exception is not below the tolerance. *)
  Lemma chem_throw mu0 vis c :
    find_chemical_potential A f tol mu0 = (Throw RuntimeError, vis, c) ->
    exists mu vis', vis = mu :: vis' /\ altb A (aabs A (f mu)) tol = false.
  Proof.
    unfold find_chemical_potential. destruct (chem_loop _ _ _ _ _ _) as [[m v] k].
    destruct (altb A (aabs A (f m)) tol) eqn:H; cbn [negb]; intros E; inversion E; subst. eauto.
  Qed.

  Lemma chem_loop_count n : forall mu de s vis c,
    let r := chem_loop n mu de s vis c in
    (length (snd (fst r)) <= n + length vis)%nat /\ (snd r <= 2 * n + 1 + c)%nat.
  Proof.
    induction n as [|n IH]; intros mu de s vis c; cbn [ChemPot.chem_loop].
    - destruct (agtb _ _ _); cbn; lia.
    - destruct (agtb _ _ _); [|cbn; lia]. cbv zeta.
      match goal with |- context [chem_loop n ?a ?b ?s' ?v ?k] => specialize (IH a b s' v k) end.
      cbv zeta in IH. cbn [length] in IH. lia.
  Qed.

  Lemma chem_bounded mu0 :
    let r := find_chemical_potential A f tol mu0 in
    (length (snd (fst r)) <= 1001)%nat /\ (snd r <= 2003)%nat.
  Proof.
    unfold find_chemical_potential.
    pose proof (chem_loop_count 1000 mu0 (alit A 1 10) 1 [] 0) as H. cbv zeta in H.
    destruct (chem_loop _ _ _ _ _ _) as [[m v] k]. cbn [fst snd length] in H.
    destruct (negb _); cbn [fst snd length]; lia.
  Qed.

  (** A start value whose residual equals the tolerance. *)
  Lemma chem_equal mu0 :
    altb A tol (aabs A (f mu0)) = false -> altb A (aabs A (f mu0)) tol = false ->
    find_chemical_potential A f tol mu0 = (Throw RuntimeError, [mu0], 3).
  Proof.
    intros H1 H2. unfold find_chemical_potential.
    assert (H : forall n de s v c, chem_loop n mu0 de s v c = (mu0, v, S c)).
    { intros n de s v c. destruct n; cbn [ChemPot.chem_loop]; unfold agtb; rewrite H1; reflexivity. }
    rewrite H, H2. reflexivity.
  Qed.
End Any.

(** ** Exact arithmetic *)
Local Open Scope R_scope.

Section Real.
  Context (f : R -> R) (tol : R).
  Hypothesis Htol : 0 <= tol.
  Notation loop := (chem_loop Rarith f tol).

  (** One step in terms of R. *)
  Lemma loop_stop n mu de s vis c : Rabs (f mu) <= tol -> loop n mu de s vis c = (mu, vis, S c).
  Proof.
    intros H. destruct n; cbn [chem_loop]; unfold agtb; cbn [altb aabs Rarith];
      (replace (Rltb tol (Rabs (f mu))) with false by (symmetry; apply Rltb_false; exact H)); reflexivity.
  Qed.

  Definition sgn (b : bool) : Z := if b then 1%Z else (-1)%Z.

  Lemma loop_step_up n mu de s vis c : tol < f mu ->
    loop (S n) mu de s vis c =
      let de' := (if (1 =? s)%Z then de * (5/4) else de * (1/4)) in
      loop n (mu + de') de' 1 (mu :: vis) (S (S c)).
  Proof.
    intros H. cbn [chem_loop]. unfold agtb. cbn [altb aabs alit amul aadd Rarith].
    replace (Rltb tol (Rabs (f mu))) with true
      by (symmetry; apply Rltb_true; rewrite Rabs_pos_eq; lra).
    replace (Rltb (Rlit 0 1) (f mu)) with true
      by (symmetry; apply Rltb_true; unfold Rlit; lra).
    cbv zeta. replace (Rlit 1 1) with 1 by (unfold Rlit; field). rewrite Rmult_1_l.
    replace (Rlit 125 100) with (5/4) by (unfold Rlit; field).
    replace (Rlit 25 100) with (1/4) by (unfold Rlit; field). reflexivity.
  Qed.

  Lemma loop_step_down n mu de s vis c : f mu < - tol ->
    loop (S n) mu de s vis c =
      let de' := (if (-1 =? s)%Z then de * (5/4) else de * (1/4)) in
      loop n (mu - de') de' (-1) (mu :: vis) (S (S c)).
  Proof.
    intros H. cbn [chem_loop]. unfold agtb. cbn [altb aabs alit amul aadd Rarith].
    replace (Rltb tol (Rabs (f mu))) with true
      by (symmetry; apply Rltb_true; rewrite Rabs_left; lra).
    replace (Rltb (Rlit 0 1) (f mu)) with false
      by (symmetry; apply Rltb_false; unfold Rlit; lra).
    cbv zeta.
    replace (Rlit 125 100) with (5/4) by (unfold Rlit; field).
    replace (Rlit 25 100) with (1/4) by (unfold Rlit; field).
    replace (Rlit (-1) 1) with (-1) by (unfold Rlit; field).
    assert (Hx : forall x y : R, x + -1 * y = x - y) by (intros; ring). rewrite Hx. reflexivity.
  Qed.

  Lemma loop_zero mu de s vis c : loop 0 mu de s vis c = (mu, vis, S c).
  Proof. cbn [chem_loop]. destruct (agtb _ _ _); reflexivity. Qed.

  Lemma cases x : Rabs (f x) <= tol \/ tol < f x \/ f x < - tol.
  Proof.
    destruct (Rle_dec (Rabs (f x)) tol) as [H|H]; [auto|right].
    unfold Rabs in H. destruct (Rcase_abs (f x)); lra.
  Qed.

  (** The walk starts at [mu0] with a step of 0.125 up or 0.025 down. *)
  Definition first_step (mu0 : R) (l : list R) : Prop :=
    match l with
    | [] => False
    | a :: t => a = mu0 /\ match t with [] => True | b :: _ => b - a = 1/8 \/ b - a = - (1/40) end
    end.

  Lemma first_step_snoc mu0 l x : first_step mu0 l -> length l <> 1%nat -> first_step mu0 (l ++ [x]).
  Proof. destruct l as [|a [|b l]]; cbn; tauto. Qed.

  Lemma loop_first mu0 : forall n mu de s vis c,
    first_step mu0 (rev (mu :: vis)) -> (vis = [] -> de = 1/10 /\ s = 1%Z) ->
    let res := loop n mu de s vis c in first_step mu0 (rev (fst (fst res) :: snd (fst res))).
  Proof.
    induction n as [|n IH]; intros mu de s vis c Hw Hd.
    - rewrite loop_zero. exact Hw.
    - assert (Hgo : forall x, (vis = [] -> x - mu = 1/8 \/ x - mu = - (1/40)) -> first_step mu0 (rev (x :: mu :: vis))).
      { intros x Hx. destruct vis as [|v vis].
        - cbn in *. destruct Hw as (Hw & _). split; [exact Hw|]. apply Hx. reflexivity.
        - change (rev (x :: mu :: v :: vis)) with (rev (mu :: v :: vis) ++ [x]).
          apply first_step_snoc; [exact Hw|]. rewrite rev_length. cbn. discriminate. }
      destruct (cases mu) as [H|[H|H]].
      + rewrite loop_stop by exact H. exact Hw.
      + rewrite loop_step_up by exact H. cbv zeta. apply IH; [|discriminate]. apply Hgo. intros Hv.
        destruct (Hd Hv) as (-> & ->). cbn [Z.eqb Pos.eqb]. lra.
      + rewrite loop_step_down by exact H. cbv zeta. apply IH; [|discriminate]. apply Hgo. intros Hv.
        destruct (Hd Hv) as (-> & ->). cbn [Z.eqb]. lra.
  Qed.

  Lemma chem_first mu0 : first_step mu0 (rev (snd (fst (find_chemical_potential Rarith f tol mu0)))).
  Proof.
    unfold find_chemical_potential.
    pose proof (loop_first mu0 1000 mu0 (alit Rarith 1 10) 1 [] 0) as H. cbv zeta in H.
    destruct (loop _ _ _ _ _ _) as [[m v] k]. cbn [fst snd] in H.
    assert (Ht : first_step mu0 (rev (m :: v))).
    { apply H; [cbn; auto|]. intros _. split; [cbn; unfold Rlit; lra|reflexivity]. }
    destruct (negb _); cbn [fst snd]; exact Ht.
  Qed.

  (** *** Direction and step rule (C23) *)
  Definition mono := forall x y, x <= y -> f y <= f x.

  (** [rev vis ++ [mu]] is the walk so far. *)
  Lemma loop_towards r : mono -> f r = 0 -> forall n mu de s vis c,
    0 < de -> towards r (rev (mu :: vis)) ->
    let res := loop n mu de s vis c in towards r (rev (fst (fst res) :: snd (fst res))).
  Proof.
    intros Hm Hr. induction n as [|n IH]; intros mu de s vis c Hde Hw.
    - rewrite loop_zero. exact Hw.
    - assert (Happ : forall l a b, towards r (l ++ [a]) -> 0 < (b - a) * (r - a) -> towards r ((l ++ [a]) ++ [b])).
      { clear. induction l as [|x l IHl]; intros a b H1 H2; cbn in *.
        - auto.
        - destruct l as [|y l]; cbn in *; [tauto|]. destruct H1 as (H1 & H3). split; [exact H1|].
          apply (IHl a b H3 H2). }
      destruct (cases mu) as [H|[H|H]].
      + rewrite loop_stop by exact H. exact Hw.
      + rewrite loop_step_up by exact H. cbv zeta.
        set (de' := if (1 =? s)%Z then _ else _).
        assert (0 < de') by (unfold de'; destruct (_ =? _)%Z; lra).
        apply IH; [assumption|]. cbn [rev] in *. apply Happ; [exact Hw|].
        assert (mu < r). { destruct (Rlt_dec mu r) as [|Hn]; [assumption|]. apply Rnot_lt_le in Hn. apply Hm in Hn. lra. }
        apply Rmult_lt_0_compat; lra.
      + rewrite loop_step_down by exact H. cbv zeta.
        set (de' := if (-1 =? s)%Z then _ else _).
        assert (0 < de') by (unfold de'; destruct (_ =? _)%Z; lra).
        apply IH; [assumption|]. cbn [rev] in *. apply Happ; [exact Hw|].
        assert (r < mu). { destruct (Rlt_dec r mu) as [|Hn]; [assumption|]. apply Rnot_lt_le in Hn. apply Hm in Hn. lra. }
        replace ((mu - de' - mu) * (r - mu)) with (de' * (mu - r)) by ring.
        apply Rmult_lt_0_compat; lra.
  Qed.

  Lemma chem_towards r mu0 : mono -> f r = 0 ->
    towards r (rev (snd (fst (find_chemical_potential Rarith f tol mu0)))).
  Proof.
    intros Hm Hr. unfold find_chemical_potential.
    pose proof (loop_towards r Hm Hr 1000 mu0 (alit Rarith 1 10) 1 [] 0) as H.
    cbv zeta in H. destruct (loop _ _ _ _ _ _) as [[m v] k]. cbn [fst snd] in H.
    assert (Ht : towards r (rev (m :: v))).
    { apply H; [cbn; unfold Rlit; lra|cbn; auto]. }
    destruct (negb _); cbn [fst snd]; exact Ht.
  Qed.

  (** the step rule, with the direction: the sign is decided by the residual at the current point *)
  Fixpoint signed_walk (l : list R) : Prop :=
    match l with
    | a :: (b :: _) as t => ((tol < f a /\ a < b) \/ (f a < - tol /\ b < a)) /\ signed_walk t
    | _ => True
    end.

  Definition zsign (s : Z) : R := if (1 =? s)%Z then 1 else -1.

  Lemma loop_rule : forall n mu de s vis c,
    0 < de -> (s = 1%Z \/ s = (-1)%Z) ->
    step_rule (rev (mu :: vis)) -> signed_walk (rev (mu :: vis)) ->
    (match vis with [] => True | p :: _ => mu - p = zsign s * de end) ->
    let res := loop n mu de s vis c in
    step_rule (rev (fst (fst res) :: snd (fst res))) /\ signed_walk (rev (fst (fst res) :: snd (fst res))).
  Proof.
    assert (Hrule : forall l a b, step_rule (l ++ [a]) ->
              (match rev l with [] => True | p :: _ => (b - a = 5/4 * (a - p)) \/ (b - a = - (1/4 * (a - p))) end) ->
              step_rule ((l ++ [a]) ++ [b])).
    { clear. induction l as [|x l IHl]; intros a b H1 H2; cbn in *; [auto|].
      destruct l as [|y l]; cbn in *; [tauto|].
      destruct l as [|z l].
      - cbn in *. tauto.
      - cbn [app] in *. destruct H1 as (H1 & H3). split; [exact H1|].
        apply (IHl a b H3). revert H2. cbn [rev].
        rewrite <- !app_assoc. cbn [app].
        destruct (rev l) as [|q ql]; cbn; auto. }
    assert (Hwalk : forall l a b, signed_walk (l ++ [a]) ->
              ((tol < f a /\ a < b) \/ (f a < - tol /\ b < a)) -> signed_walk ((l ++ [a]) ++ [b])).
    { clear. induction l as [|x l IHl]; intros a b H1 H2; cbn in *.
      - auto.
      - destruct l as [|y l]; cbn in *; [tauto|]. destruct H1 as (H1 & H3). split; [exact H1|].
        apply (IHl a b H3 H2). }
    induction n as [|n IH]; intros mu de s vis c Hde Hs H1 H2 H3.
    - rewrite loop_zero. split; assumption.
    - destruct (cases mu) as [H|[H|H]].
      + rewrite loop_stop by exact H. split; assumption.
      + rewrite loop_step_up by exact H. cbv zeta.
        set (de' := if (1 =? s)%Z then _ else _).
        assert (0 < de') by (unfold de'; destruct (_ =? _)%Z; lra).
        apply IH; auto.
        * cbn [rev] in *. apply Hrule; [exact H1|]. rewrite rev_involutive. destruct vis as [|p vis]; [exact I|].
          rewrite H3. unfold de', zsign. destruct Hs as [-> | ->]; cbn; [left|right]; lra.
        * cbn [rev] in *. apply Hwalk; [exact H2|]. left. lra.
        * unfold zsign. cbn. lra.
      + rewrite loop_step_down by exact H. cbv zeta.
        set (de' := if (-1 =? s)%Z then _ else _).
        assert (0 < de') by (unfold de'; destruct (_ =? _)%Z; lra).
        apply IH; auto.
        * cbn [rev] in *. apply Hrule; [exact H1|]. rewrite rev_involutive. destruct vis as [|p vis]; [exact I|].
          rewrite H3. unfold de', zsign. destruct Hs as [-> | ->]; cbn; [right|left]; lra.
        * cbn [rev] in *. apply Hwalk; [exact H2|]. right. lra.
        * unfold zsign. cbn. lra.
  Qed.

  Lemma chem_rule mu0 :
    let w := rev (snd (fst (find_chemical_potential Rarith f tol mu0))) in
    step_rule w /\ signed_walk w.
  Proof.
    cbv zeta. unfold find_chemical_potential.
    pose proof (loop_rule 1000 mu0 (alit Rarith 1 10) 1 [] 0) as H. cbv zeta in H.
    destruct (loop _ _ _ _ _ _) as [[m v] k]. cbn [fst snd] in H.
    assert (Ht : step_rule (rev (m :: v)) /\ signed_walk (rev (m :: v))).
    { apply H; cbn; auto. unfold Rlit; lra. }
    destruct (negb _); cbn [fst snd]; exact Ht.
  Qed.

  (** *** Liveness (C24) *)
  Context (a b : R) (Hab : a < b) (Hm : mono).
  Hypothesis Hacc : forall x, a <= x <= b -> Rabs (f x) <= tol.
  Let w := b - a.

  Lemma up_below x : tol < f x -> x < a.
  Proof.
    intros H. destruct (Rlt_dec x a) as [|Hn]; [assumption|]. apply Rnot_lt_le in Hn. apply Hm in Hn.
    assert (Ha : Rabs (f a) <= tol) by (apply Hacc; lra). pose proof (Rle_abs (f a)). lra.
  Qed.
  Lemma down_above x : f x < - tol -> b < x.
  Proof.
    intros H. destruct (Rlt_dec b x) as [|Hn]; [assumption|]. apply Rnot_lt_le in Hn. apply Hm in Hn.
    assert (Ha : Rabs (f b) <= tol) by (apply Hacc; lra). pose proof (Rle_abs (- f b)) as Hq. rewrite Rabs_Ropp in Hq. lra.
  Qed.

  Definition done (r : R * list R * nat) := Rabs (f (fst (fst r))) <= tol.

  Lemma done_stop n mu de s vis c : Rabs (f mu) <= tol -> done (loop n mu de s vis c).
  Proof. intros H. rewrite loop_stop by exact H. exact H. Qed.

  (** Last step had size [de] and jumped over the accepted interval. *)
  Definition over (mu de : R) (s : Z) : Prop :=
    (s = 1%Z /\ b < mu /\ mu - b < de - w) \/ (s = (-1)%Z /\ mu < a /\ a - mu < de - w).

  Lemma over_wide mu de s : over mu de s -> w < de.
  Proof. intros [(_ & H1 & H2)|(_ & H1 & H2)]; lra. Qed.

  Definition rho := 1/4 * (5/4) ^ 3.

  (** Walking down from above the interval with last step [de]: at most four steps. *)
  Lemma cross4 m : (forall mu de s vis c n, (4 * m <= n)%nat -> over mu de s -> de * rho ^ m <= w -> done (loop n mu de s vis c)) ->
    forall mu de s vis c n, (4 * S m <= n)%nat -> over mu de s -> de * rho ^ S m <= w -> done (loop n mu de s vis c).
  Proof.
    intros IH mu de s vis c n Hn Ho Hw.
    pose proof (over_wide _ _ _ Ho) as Hde. assert (Hw0 : 0 < w) by (unfold w; lra).
    assert (Hrho : 0 < rho) by (unfold rho; lra).
    assert (Hpow : 0 < rho ^ m) by (apply pow_lt; exact Hrho).
    assert (Hnext : forall d, 0 < d -> d <= de * rho -> d * rho ^ m <= w).
    { intros d Hd Hle. eapply Rle_trans; [|exact Hw]. cbn [pow]. rewrite <- Rmult_assoc.
      apply Rmult_le_compat_r; lra. }
    destruct n as [|[|[|[|n]]]]; try lia.
    destruct Ho as [(-> & H1 & H2)|(-> & H1 & H2)].
    - (* above: walk down *)
      destruct (cases mu) as [H|[H|H]]; [apply done_stop; exact H|apply up_below in H; lra|].
      rewrite loop_step_down by exact H. cbn [Z.eqb]. cbv zeta. clear H.
      set (d1 := de * (1/4)). set (m1 := mu - d1).
      destruct (cases m1) as [H|[H|H]]; [apply done_stop; exact H| |].
      { apply up_below in H. apply IH; [lia| |].
        - right. unfold m1 in *. repeat split; [exact H|]. unfold w in *. lra.
        - apply Hnext; unfold d1, rho; lra. }
      apply down_above in H as Hb1.
      rewrite loop_step_down by exact H. cbn [Z.eqb Pos.eqb]. cbv zeta. clear H.
      set (d2 := d1 * (5/4)). set (m2 := m1 - d2).
      destruct (cases m2) as [H|[H|H]]; [apply done_stop; exact H| |].
      { apply up_below in H. apply IH; [lia| |].
        - right. unfold m2 in *. repeat split; [exact H|]. unfold w in *. lra.
        - apply Hnext; unfold d2, d1, rho; lra. }
      apply down_above in H as Hb2.
      rewrite loop_step_down by exact H. cbn [Z.eqb Pos.eqb]. cbv zeta. clear H.
      set (d3 := d2 * (5/4)). set (m3 := m2 - d3).
      destruct (cases m3) as [H|[H|H]]; [apply done_stop; exact H| |].
      { apply up_below in H. apply IH; [lia| |].
        - right. unfold m3 in *. repeat split; [exact H|]. unfold w in *. lra.
        - apply Hnext; unfold d3, d2, d1, rho; lra. }
      apply down_above in H as Hb3.
      rewrite loop_step_down by exact H. cbn [Z.eqb Pos.eqb]. cbv zeta. clear H.
      set (d4 := d3 * (5/4)). set (m4 := m3 - d4).
      destruct (cases m4) as [H|[H|H]]; [apply done_stop; exact H| |].
      { apply up_below in H. apply IH; [lia| |].
        - right. unfold m4 in *. repeat split; [exact H|]. unfold w in *. lra.
        - apply Hnext; unfold d4, d3, d2, d1, rho; lra. }
      apply down_above in H. exfalso. unfold m4, m3, m2, m1, d4, d3, d2, d1 in *. lra.
    - (* below: walk up *)
      destruct (cases mu) as [H|[H|H]]; [apply done_stop; exact H| |apply down_above in H; lra].
      rewrite loop_step_up by exact H. cbn [Z.eqb]. cbv zeta. clear H.
      set (d1 := de * (1/4)). set (m1 := mu + d1).
      destruct (cases m1) as [H|[H|H]]; [apply done_stop; exact H| |].
      2: { apply down_above in H. apply IH; [lia| |].
        - left. unfold m1 in *. repeat split; [exact H|]. unfold w in *. lra.
        - apply Hnext; unfold d1, rho; lra. }
      apply up_below in H as Hb1.
      rewrite loop_step_up by exact H. cbn [Z.eqb Pos.eqb]. cbv zeta. clear H.
      set (d2 := d1 * (5/4)). set (m2 := m1 + d2).
      destruct (cases m2) as [H|[H|H]]; [apply done_stop; exact H| |].
      2: { apply down_above in H. apply IH; [lia| |].
        - left. unfold m2 in *. repeat split; [exact H|]. unfold w in *. lra.
        - apply Hnext; unfold d2, d1, rho; lra. }
      apply up_below in H as Hb2.
      rewrite loop_step_up by exact H. cbn [Z.eqb Pos.eqb]. cbv zeta. clear H.
      set (d3 := d2 * (5/4)). set (m3 := m2 + d3).
      destruct (cases m3) as [H|[H|H]]; [apply done_stop; exact H| |].
      2: { apply down_above in H. apply IH; [lia| |].
        - left. unfold m3 in *. repeat split; [exact H|]. unfold w in *. lra.
        - apply Hnext; unfold d3, d2, d1, rho; lra. }
      apply up_below in H as Hb3.
      rewrite loop_step_up by exact H. cbn [Z.eqb Pos.eqb]. cbv zeta. clear H.
      set (d4 := d3 * (5/4)). set (m4 := m3 + d4).
      destruct (cases m4) as [H|[H|H]]; [apply done_stop; exact H| |].
      2: { apply down_above in H. apply IH; [lia| |].
        - left. unfold m4 in *. repeat split; [exact H|]. unfold w in *. lra.
        - apply Hnext; unfold d4, d3, d2, d1, rho; lra. }
      apply up_below in H. exfalso. unfold m4, m3, m2, m1, d4, d3, d2, d1 in *. lra.
  Qed.

  Lemma cross m : forall mu de s vis c n, (4 * m <= n)%nat -> over mu de s -> de * rho ^ m <= w ->
    done (loop n mu de s vis c).
  Proof.
    induction m as [|m IH].
    - intros mu de s vis c n _ Ho Hw. exfalso. apply over_wide in Ho. cbn in Hw. lra.
    - apply cross4. exact IH.
  Qed.

  (** First approach: steps grow until the interval is reached or jumped over.
      [g]: distance to the near edge, [E]: bound for the size of the step that jumps over. *)
  Lemma approach k : forall m mu de s vis c n E g, (k + 4 * m <= n)%nat -> 0 < de ->
    (s = 1%Z /\ a - mu <= g \/ s = (-1)%Z /\ mu - b <= g) ->
    (Rabs (f mu) <= tol \/ (s = 1%Z /\ tol < f mu) \/ (s = (-1)%Z /\ f mu < - tol)) ->
    g <= 5 * de * ((5/4) ^ k - 1) -> 0 <= g -> g / 4 + 5/4 * de <= E -> E * rho ^ m <= w ->
    done (loop n mu de s vis c).
  Proof.
    induction k as [|k IH]; intros m mu de s vis c n E g Hn Hde Hg Hs Hk Hg0 HE Hw.
    - assert (Hw0 : 0 < w) by (unfold w; lra).
      assert (g = 0) by (cbn in Hk; lra). subst g.
      destruct Hs as [H|[(-> & H)|(-> & H)]]; [apply done_stop; exact H| |].
      + apply up_below in H. destruct Hg as [(_ & Hg)|(Hx & _)]; [lra|discriminate].
      + apply down_above in H. destruct Hg as [(Hx & _)|(_ & Hg)]; [discriminate|lra].
    - assert (Hw0 : 0 < w) by (unfold w; lra).
      assert (Hrho : 0 < rho ^ m) by (apply pow_lt; unfold rho; lra).
      destruct n as [|n]; [lia|].
      assert (Hd : de * (5/4) * rho ^ m <= w).
      { eapply Rle_trans; [|exact Hw]. apply Rmult_le_compat_r; lra. }
      destruct Hs as [H|[(-> & H)|(-> & H)]]; [apply done_stop; exact H| |].
      + destruct Hg as [(_ & Hg)|(Hx & _)]; [|discriminate].
        apply up_below in H as Hlt.
        rewrite loop_step_up by exact H. cbn [Z.eqb Pos.eqb]. cbv zeta.
        set (de' := de * (5/4)) in *. destruct (cases (mu + de')) as [H'|[H'|H']]; [apply done_stop; exact H'| |].
        * apply up_below in H' as Hlt'.
          apply (IH m _ _ _ _ _ _ E (g - de')); auto; try lra; try lia.
          -- unfold de' in *; lra.
          -- left. split; [reflexivity|lra].
          -- unfold de'. cbn [pow] in Hk. nra.
          -- unfold de' in *. lra.
        * apply down_above in H'. apply (cross m); [lia| |exact Hd].
          left. split; [reflexivity|]. split; [exact H'|]. unfold w. lra.
      + destruct Hg as [(Hx & _)|(_ & Hg)]; [discriminate|].
        apply down_above in H as Hlt.
        rewrite loop_step_down by exact H. cbn [Z.eqb Pos.eqb]. cbv zeta.
        set (de' := de * (5/4)) in *. destruct (cases (mu - de')) as [H'|[H'|H']]; [apply done_stop; exact H'| |].
        * apply up_below in H'. apply (cross m); [lia| |exact Hd].
          right. split; [reflexivity|]. split; [exact H'|]. unfold w. lra.
        * apply down_above in H' as Hlt'.
          apply (IH m _ _ _ _ _ _ E (g - de')); auto; try lra; try lia.
          -- unfold de' in *; lra.
          -- right. split; [reflexivity|lra].
          -- unfold de'. cbn [pow] in Hk. nra.
          -- unfold de' in *. lra.
  Qed.

  (** The whole search: [k] growing steps and [m] crossings fit into 1000 updates. *)
  Lemma search_done k m D mu0 :
    (k + 4 * m <= 1000)%nat -> a - mu0 <= D -> mu0 - b <= D -> 0 <= D ->
    D <= 1/10 * ((5/4) ^ k - 1) -> (D / 4 + 1/8) * rho ^ m <= w ->
    done (loop 1000 mu0 (1/10) 1 [] 0).
  Proof.
    intros Hn Ha Hb HD Hk Hw.
    destruct (cases mu0) as [H|[H|H]]; [apply done_stop; exact H| |].
    - apply (approach k m _ _ _ _ _ _ (D/4 + 1/8) D); auto; lra.
    - assert (Heq : loop 1000 mu0 (1/10) 1 [] 0 = loop 1000 mu0 (1/50) (-1) [] 0).
      { change 1000%nat with (S 999). rewrite loop_step_down by exact H. symmetry. rewrite loop_step_down by exact H.
        cbn [Z.eqb Pos.eqb]. cbv zeta.
        replace (1/10 * (1/4)) with (1/50 * (5/4)) by lra. reflexivity. }
      rewrite Heq. apply (approach k m _ _ _ _ _ _ (D/4 + 1/8) D); auto; lra.
  Qed.

  Lemma search_succeeds k m D mu0 :
    (k + 4 * m <= 1000)%nat -> a - mu0 <= D -> mu0 - b <= D -> 0 <= D ->
    D <= 1/10 * ((5/4) ^ k - 1) -> (D / 4 + 1/8) * rho ^ m <= w ->
    exists mu vis c,
      (Rabs (f mu) < tol /\ find_chemical_potential Rarith f tol mu0 = (Ret mu, mu :: vis, c)) \/
      (Rabs (f mu) = tol /\ find_chemical_potential Rarith f tol mu0 = (Throw RuntimeError, mu :: vis, c)).
  Proof.
    intros Hn Ha Hb HD Hk Hw. pose proof (search_done k m D mu0 Hn Ha Hb HD Hk Hw) as H. unfold done in H.
    unfold find_chemical_potential.
    replace (alit Rarith 1 10) with (1/10) by (cbn; unfold Rlit; lra).
    destruct (loop 1000 mu0 (1/10) 1 [] 0) as [[m' v] c]. cbn [fst] in H.
    cbn [altb aabs Rarith]. destruct (Rle_lt_or_eq_dec _ _ H) as [Hlt|Heq].
    - exists m', v, (S c). left. split; [exact Hlt|].
      replace (Rltb (Rabs (f m')) tol) with true by (symmetry; apply Rltb_true; exact Hlt).
      reflexivity.
    - exists m', v, (S (S c)). right. split; [exact Heq|].
      replace (Rltb (Rabs (f m')) tol) with false by (symmetry; apply Rltb_false; lra).
      reflexivity.
  Qed.
End Real.


(** A monotone residual changes sign somewhere. *)
Lemma sign_change f D : mono f -> 0 <= D -> 0 <= f (- D) -> f D <= 0 ->
  exists r, - D <= r <= D /\ (forall x, x < r -> 0 <= f x) /\ (forall x, r < x -> f x <= 0).
Proof.
  intros Hm HD H1 H2.
  destruct (completeness (fun x => x <= D /\ 0 <= f x)) as [r [Hub Hlub]].
  - exists D. intros x (Hx & _). exact Hx.
  - exists (- D). split; lra.
  - exists r. repeat split.
    + apply Hub. split; lra.
    + apply Hlub. intros x (Hx & _). exact Hx.
    + intros x Hx. destruct (Rle_dec 0 (f x)) as [|Hn]; [assumption|]. exfalso. apply Rnot_le_lt in Hn.
      assert (r <= x); [|lra]. apply Hlub. intros y (_ & Hy).
      destruct (Rle_dec y x) as [|Hyx]; [assumption|]. apply Rnot_le_lt in Hyx.
      assert (f y <= f x) by (apply Hm; lra). lra.
    + intros x Hx. destruct (Rle_dec (f x) 0) as [|Hn]; [assumption|]. exfalso. apply Rnot_le_lt in Hn.
      assert (x <= r); [|lra]. apply Hub. split; [|lra].
      destruct (Rle_dec x D) as [|Hxd]; [assumption|]. apply Rnot_le_lt in Hxd.
      assert (f x <= f D) by (apply Hm; lra). lra.
Qed.

Lemma lipschitz_accept f L J tol r : 0 < L -> 0 <= J -> J < tol ->
  (forall x y, Rabs (f x - f y) <= L * Rabs (x - y) + J) ->
  (forall x, x < r -> 0 <= f x) -> (forall x, r < x -> f x <= 0) ->
  forall x, r - (tol - J) / L <= x <= r + (tol - J) / L -> Rabs (f x) <= tol.
Proof.
  intros HL HJ Ht Hlip Hl Hr x Hx.
  assert (Hd : L * ((tol - J) / L) = tol - J) by (field; lra).
  assert (Hpos : 0 < (tol - J) / L) by (apply Rdiv_lt_0_compat; lra).
  set (d := (tol - J) / L) in *.
  assert (Hq : forall eps, 0 < eps -> Rabs (f x) <= tol + eps).
  { intros eps He.
    assert (He' : 0 < eps / L) by (apply Rdiv_lt_0_compat; lra).
    assert (HeL : L * (eps / L) = eps) by (field; lra).
    set (e := eps / L) in *.
    destruct (Rle_dec (f x) 0) as [H0|H0].
    - destruct (Rlt_dec x r) as [Hxr|Hxr].
      + assert (f x = 0) by (specialize (Hl x Hxr); lra). rewrite H, Rabs_R0. lra.
      + apply Rnot_lt_le in Hxr.
        pose proof (Hlip x (r - e)) as H. assert (0 <= f (r - e)) by (apply Hl; lra).
        rewrite (Rabs_pos_eq (x - (r - e))) in H by lra.
        assert (L * (x - (r - e)) <= tol - J + eps) by nra.
        rewrite Rabs_left1 by lra. rewrite Rabs_left1 in H by lra. lra.
    - apply Rnot_le_lt in H0.
      destruct (Rlt_dec r x) as [Hxr|Hxr].
      + specialize (Hr x Hxr). lra.
      + apply Rnot_lt_le in Hxr.
        pose proof (Hlip x (r + e)) as H. assert (f (r + e) <= 0) by (apply Hr; lra).
        rewrite (Rabs_left1 (x - (r + e))) in H by lra.
        assert (L * (- (x - (r + e))) <= tol - J + eps) by nra.
        rewrite Rabs_pos_eq by lra. rewrite Rabs_pos_eq in H by lra. lra. }
  apply Rnot_lt_le. intros Hn. specialize (Hq ((Rabs (f x) - tol) / 2)). lra.
Qed.

Lemma search_lipschitz f tol L J D k m :
  mono f -> 0 < L -> 0 <= J -> J < tol ->
  (forall x y, Rabs (f x - f y) <= L * Rabs (x - y) + J) ->
  0 <= D -> 0 <= f (- D) -> f D <= 0 ->
  (k + 4 * m <= 1000)%nat -> D <= 1/10 * ((5/4) ^ k - 1) ->
  (D / 4 + 1/8) * (125/256) ^ m <= 2 * (tol - J) / L ->
  exists mu vis c,
    (Rabs (f mu) < tol /\ find_chemical_potential Rarith f tol 0 = (Ret mu, mu :: vis, c)) \/
    (Rabs (f mu) = tol /\ find_chemical_potential Rarith f tol 0 = (Throw RuntimeError, mu :: vis, c)).
Proof.
  intros Hm HL HJ Ht Hlip HD H1 H2 Hn Hk Hw.
  destruct (sign_change f D Hm HD H1 H2) as (r & Hr & Hl & Hrr).
  assert (Hpos : 0 < (tol - J) / L) by (apply Rdiv_lt_0_compat; lra).
  apply (search_succeeds f tol ltac:(lra) (r - (tol - J) / L) (r + (tol - J) / L) ltac:(lra) Hm
           (lipschitz_accept f L J tol r HL HJ Ht Hlip Hl Hrr) k m D 0); auto; try lra.
  replace (r + (tol - J) / L - (r - (tol - J) / L)) with (2 * (tol - J) / L) by (field; lra).
  replace rho with (125/256) by (unfold rho; field). exact Hw.
Qed.
