(** The Cholesky solver behind solve_sym (src/la/lapack_cpu.hpp 56-86): zpotrf('U') and zpotrs in exact
    arithmetic, as in the unblocked reference implementation of LAPACK (zpotf2, zpotrs).
    The library only calls these routines; the definitions here show that the contracts assumed of
    them are met for every order. *)
From Coq Require Import Reals Lra Psatz Arith Lia List Bool.
From Coquelicot Require Import Complex.
From Verif Require Import LinAlg DescentProofs.
Local Open Scope R_scope.
Local Open Scope C_scope.

(** zpotf2 'U': rows 0 .. j-1 of the factor, from the upper triangle of A.
    Row j: U_jj = sqrt(p_j), p_j = A_jj - sum_{k<j} |U_kj|^2;  U_jc = (A_jc - sum_{k<j} conj(U_kj) U_kc) / U_jj. *)
Fixpoint chol_rows (A : mat) (j : nat) : mat :=
  match j with
  | O => mzero
  | S j' =>
    let U := chol_rows A j' in
    let p := (Re (A j' j') - rsumn j' (fun k => nsq (U k j')))%R in
    fun r c =>
      if Nat.eqb r j' then
        if Nat.ltb c j' then RtoC 0
        else if Nat.eqb c j' then RtoC (sqrt p)
        else (A j' c - csum j' (fun k => Cconj (U k j') * U k c)) / RtoC (sqrt p)
      else U r c
  end.
Definition pivot (A : mat) (j : nat) : R := (Re (A j j) - rsumn j (fun k => nsq (chol_rows A j k j)))%R.
(** the element U_rc of the factor *)
Definition chol (A : mat) : mat := fun r c => chol_rows A (S r) r c.
(** zpotf2 returns info = j + 1 for the first pivot that is not positive, 0 if there is none *)
Definition bad (A : mat) (j : nat) : bool := if Rle_dec (pivot A j) 0 then true else false.
Fixpoint chol_info_from (A : mat) (j fuel : nat) : nat :=
  match fuel with O => O | S f => if bad A j then S j else chol_info_from A (S j) f end.
Definition chol_info (n : nat) (A : mat) : nat := chol_info_from A 0 n.

(** U x = b by backward substitution: the last t entries of x *)
Fixpoint back (n : nat) (U : mat) (b : nat -> C) (t : nat) : nat -> C :=
  match t with
  | O => fun _ => RtoC 0
  | S t' =>
    let x := back n U b t' in
    let i := (n - t)%nat in
    fun r => if Nat.eqb r i then (b i - csum n (fun k => if Nat.ltb i k then U i k * x k else RtoC 0)) / U i i else x r
  end.
(** U^H y = b by forward substitution: the first t entries of y *)
Fixpoint forw (U : mat) (b : nat -> C) (t : nat) : nat -> C :=
  match t with
  | O => fun _ => RtoC 0
  | S i =>
    let y := forw U b i in
    fun r => if Nat.eqb r i then (b i - csum i (fun k => Cconj (U k i) * y k)) / Cconj (U i i) else y r
  end.
(** zpotrs 'U': U^H U X = B, column by column *)
Definition chol_solve (n : nat) (U B : mat) : mat := fun i j => back n U (forw U (fun r => B r j) n) n i.

(** ** The factor *)
Lemma chol_rows_stable A j r c : (r < j)%nat -> chol_rows A j r c = chol A r c.
Proof.
  intros H. induction H as [|j H IH]; [reflexivity|]. unfold chol in *.
  cbn [chol_rows]. destruct (Nat.eqb_spec r j) as [->|N]; [lia|]. exact IH.
Qed.
Lemma pivot_eq A j : pivot A j = (Re (A j j) - rsumn j (fun k => nsq (chol A k j)))%R.
Proof. unfold pivot. f_equal. apply rsumn_ext. intros k Hk. rewrite chol_rows_stable by exact Hk. reflexivity. Qed.
Lemma chol_low A r c : (c < r)%nat -> chol A r c = 0.
Proof. intros H. unfold chol. cbn [chol_rows]. rewrite Nat.eqb_refl. apply Nat.ltb_lt in H. rewrite H. reflexivity. Qed.
Lemma chol_diag A r : chol A r r = RtoC (sqrt (pivot A r)).
Proof. unfold chol. cbn [chol_rows]. rewrite !Nat.eqb_refl, Nat.ltb_irrefl. reflexivity. Qed.
Lemma chol_up A r c : (r < c)%nat ->
  chol A r c = (A r c - csum r (fun k => Cconj (chol A k r) * chol A k c)) / RtoC (sqrt (pivot A r)).
Proof.
  intros H. unfold chol at 1. cbn [chol_rows]. rewrite Nat.eqb_refl.
  assert (e1 : Nat.ltb c r = false) by (apply Nat.ltb_ge; lia). assert (e2 : Nat.eqb c r = false) by (apply Nat.eqb_neq; lia).
  rewrite e1, e2. change (sqrt (Re (A r r) - rsumn r (fun k => nsq (chol_rows A r k r)))) with (sqrt (pivot A r)).
  f_equal. f_equal. apply csum_ext. intros k Hk. rewrite !chol_rows_stable by exact Hk. reflexivity.
Qed.
Lemma RtoC_sqrt_neq p : (0 < p)%R -> RtoC (sqrt p) <> 0.
Proof. intros H E. apply (f_equal fst) in E. cbn in E. pose proof (sqrt_lt_R0 p H). lra. Qed.

(** sum_{k<=r} conj(U_kr) U_kc = A_rc *)
Lemma chol_prefix A r c : (r < c)%nat -> (0 < pivot A r)%R ->
  csum (S r) (fun k => Cconj (chol A k r) * chol A k c) = A r c.
Proof.
  intros H P. cbn [csum]. rewrite (chol_up A r c H), chol_diag, Cconj_R. field. apply RtoC_sqrt_neq. exact P.
Qed.
Lemma csum_nsq n (f : nat -> C) : csum n (fun k => Cconj (f k) * f k) = RtoC (rsumn n (fun k => nsq (f k))).
Proof. rewrite <- csum_RtoC. apply csum_ext. intros k _. apply nsq_conj. Qed.
Lemma chol_prefix_diag A r : (0 < pivot A r)%R ->
  csum (S r) (fun k => Cconj (chol A k r) * chol A k r) = RtoC (Re (A r r)).
Proof.
  intros P. rewrite csum_nsq. f_equal. cbn [rsumn]. rewrite chol_diag. unfold nsq at 2. cbn [fst snd RtoC].
  rewrite sqrt_sqrt by lra. rewrite pivot_eq. ring.
Qed.
(** extending a sum by zero terms *)
Lemma csum_zero_tail n m (f : nat -> C) : (n <= m)%nat -> (forall k, (n <= k)%nat -> (k < m)%nat -> f k = 0) -> csum m f = csum n f.
Proof.
  intros H. induction H as [|m H IH]; intros Z; [reflexivity|]. cbn [csum]. rewrite IH by (intros; apply Z; lia).
  rewrite (Z m) by lia. apply Cplus_0_r.
Qed.

(** the Hermitian matrix whose upper triangle (and real diagonal) is that of A *)
Definition herm_of (A : mat) : mat :=
  fun i j => if Nat.ltb i j then A i j else if Nat.eqb i j then RtoC (Re (A i i)) else Cconj (A j i).
Lemma herm_of_hermitian n A : hermitian n A -> meq n n (herm_of A) A.
Proof.
  intros H i j Hi Hj. unfold herm_of. destruct (Nat.ltb_spec i j) as [L|L]; [reflexivity|].
  destruct (Nat.eqb_spec i j) as [->|N].
  - symmetry. apply real_of_conj. exact (H j j Hj Hj).
  - exact (H i j Hi Hj).
Qed.

(** W = rows < m of the factor: (W^H W)_ac for a, c <= j <= m *)
Lemma chol_gram A m a c : (forall r, (r <= Nat.min a c)%nat -> (0 < pivot A r)%R) -> (Nat.min a c < m)%nat ->
  csum m (fun k => Cconj (chol A k a) * chol A k c) = herm_of A a c.
Proof.
  intros P Hm. unfold herm_of. destruct (Nat.ltb_spec a c) as [L|L]; [|destruct (Nat.eqb_spec a c) as [->|N]].
  - rewrite (csum_zero_tail (S a) m) by (try lia; intros k Hk _; rewrite (chol_low A k a) by lia; apply Ceq; cbn; ring).
    apply chol_prefix; [exact L|apply P; lia].
  - rewrite (csum_zero_tail (S c) m) by (try lia; intros k Hk _; rewrite (chol_low A k c) by lia; apply Ceq; cbn; ring).
    apply chol_prefix_diag. apply P. lia.
  - rewrite (csum_zero_tail (S c) m) by (try lia; intros k Hk _; rewrite (chol_low A k c) by lia; apply Ceq; cbn; ring).
    rewrite <- (chol_prefix A c a) by (try lia; apply P; lia). rewrite csum_conj. apply csum_ext. intros k _.
    rewrite Cconj_mult, Cconj_conj. ring.
Qed.
(** U^H U = A *)
Lemma chol_factors n A : (forall r, (r < n)%nat -> (0 < pivot A r)%R) -> meq n n (mmul n (adj (chol A)) (chol A)) (herm_of A).
Proof. intros P i j Hi Hj. unfold mmul, adj. apply chol_gram; [intros r Hr; apply P; lia|lia]. Qed.

(** ** Substitutions *)
Lemma back_stable n (U : mat) (b : nat -> C) t r : (r < n)%nat -> (n - t <= r)%nat -> forall t', (t <= t')%nat -> (t' <= n)%nat -> back n U b t' r = back n U b t r.
Proof.
  intros Hr Ht t' H. induction H as [|t' H IH]; intros Hn; [reflexivity|]. rewrite <- IH by lia. cbn [back].
  destruct (Nat.eqb_spec r (n - S t')); [lia|reflexivity].
Qed.
Lemma back_solves n (U : mat) (b : nat -> C) : (forall r c, (c < r)%nat -> (r < n)%nat -> U r c = 0) -> (forall r, (r < n)%nat -> U r r <> 0) ->
  forall i, (i < n)%nat -> csum n (fun k => U i k * back n U b n k) = b i.
Proof.
  intros L D i Hi.
  assert (E : back n U b n i = (b i - csum n (fun k => if Nat.ltb i k then U i k * back n U b n k else 0)) / U i i).
  { rewrite (back_stable n U b (n - i) i Hi ltac:(lia) n) by lia. destruct (n - i)%nat as [|t] eqn:Et; [lia|]. cbn [back].
    replace (n - S t)%nat with i by lia. rewrite Nat.eqb_refl. f_equal. f_equal. apply csum_ext. intros k Hk.
    destruct (Nat.ltb_spec i k) as [Q|Q]; [|reflexivity]. rewrite <- (back_stable n U b t k Hk ltac:(lia) n) by lia. reflexivity. }
  assert (S : csum n (fun k => U i k * back n U b n k) =
    csum n (fun k => if Nat.ltb i k then U i k * back n U b n k else 0) + U i i * back n U b n i).
  { assert (O : csum n (fun k => if Nat.eqb k i then U i k * back n U b n k else 0) = U i i * back n U b n i).
    { rewrite (csum_one n i); [rewrite Nat.eqb_refl; reflexivity|exact Hi|].
      intros k _ Hk. apply Nat.eqb_neq in Hk. rewrite Hk. reflexivity. }
    rewrite <- O.
    rewrite <- csum_plus. apply csum_ext. intros k Hk. destruct (Nat.eqb_spec k i) as [->|N].
    - rewrite Nat.ltb_irrefl. ring.
    - destruct (Nat.ltb_spec i k) as [Q|Q]; [ring|]. rewrite (L i k) by lia. ring. }
  rewrite S, E. field. apply D. exact Hi.
Qed.
Lemma forw_stable (U : mat) (b : nat -> C) t r : (r < t)%nat -> forall t', (t <= t')%nat -> forw U b t' r = forw U b t r.
Proof.
  intros Hr t' H. induction H as [|t' H IH]; [reflexivity|]. cbn [forw]. destruct (Nat.eqb_spec r t'); [lia|exact IH].
Qed.
Lemma Cconj_neq0 (a : C) : a <> 0 -> Cconj a <> 0.
Proof. intros H E. apply H. rewrite <- (Cconj_conj a), E. apply Ceq; cbn; ring. Qed.
Lemma forw_solves n (U : mat) (b : nat -> C) : (forall r c, (c < r)%nat -> (r < n)%nat -> U r c = 0) -> (forall r, (r < n)%nat -> U r r <> 0) ->
  forall i, (i < n)%nat -> csum n (fun k => Cconj (U k i) * forw U b n k) = b i.
Proof.
  intros L D i Hi. rewrite (csum_zero_tail (S i) n) by (try lia; intros k H1 H2; rewrite (L k i) by lia; apply Ceq; cbn; ring).
  cbn [csum].
  assert (E : forw U b n i = (b i - csum i (fun k => Cconj (U k i) * forw U b n k)) / Cconj (U i i)).
  { rewrite (forw_stable U b (S i) i) by lia. cbn [forw]. rewrite Nat.eqb_refl. f_equal. f_equal. apply csum_ext.
    intros k Hk. rewrite (forw_stable U b i k Hk n) by lia. reflexivity. }
  rewrite E. field. apply Cconj_neq0. apply D. exact Hi.
Qed.

(** (U^H U) X = B *)
Lemma chol_solve_ok n m (U B : mat) : (forall r c, (c < r)%nat -> (r < n)%nat -> U r c = 0) -> (forall r, (r < n)%nat -> U r r <> 0) ->
  meq n m (mmul n (mmul n (adj U) U) (chol_solve n U B)) B.
Proof.
  intros L D. rewrite mmul_assoc. intros i j Hi Hj. unfold mmul at 1, adj.
  rewrite (csum_ext n _ (fun k => Cconj (U k i) * forw U (fun r => B r j) n k)).
  - exact (forw_solves n U (fun r => B r j) L D i Hi).
  - intros k Hk. f_equal. exact (back_solves n U (forw U (fun r => B r j) n) L D k Hk).
Qed.

(** ** Positive definite matrices have positive pivots *)
Lemma posdef_pivot n A : posdef n (herm_of A) -> forall j, (j < n)%nat -> (forall r, (r < j)%nat -> (0 < pivot A r)%R) -> (0 < pivot A j)%R.
Proof.
  intros HA j Hj P.
  pose (w := back j (chol A) (fun k => - chol A k j) j).
  assert (W : forall k, (k < j)%nat -> csum j (fun a => chol A k a * w a) = - chol A k j).
  { intros k Hk. unfold w. apply (back_solves j (chol A) (fun k => - chol A k j)); [|  |exact Hk].
    - intros r c Hc _. apply chol_low. exact Hc.
    - intros r Hr. rewrite chol_diag. apply RtoC_sqrt_neq. apply P. exact Hr. }
  pose (v := fun a : nat => if Nat.ltb a j then w a else if Nat.eqb a j then RtoC 1 else RtoC 0).
  assert (vj : v j = 1) by (unfold v; rewrite Nat.ltb_irrefl, Nat.eqb_refl; reflexivity).
  assert (vz : forall a, (S j <= a)%nat -> v a = 0).
  { intros a Ha. unfold v. destruct (Nat.ltb_spec a j); [lia|]. destruct (Nat.eqb_spec a j); [lia|reflexivity]. }
  assert (vw : forall a, (a < j)%nat -> v a = w a).
  { intros a Ha. unfold v. apply Nat.ltb_lt in Ha. rewrite Ha. reflexivity. }
  assert (K : forall k, (k < j)%nat -> csum (S j) (fun a => chol A k a * v a) = 0).
  { intros k Hk. cbn [csum]. rewrite vj. rewrite (csum_ext j _ (fun a => chol A k a * w a)) by (intros a Ha; rewrite vw by exact Ha; reflexivity).
    rewrite W by exact Hk. ring. }
  (* the leading (j+1) x (j+1) block is W^H W plus the pivot in the corner *)
  assert (G : forall a c, (a <= j)%nat -> (c <= j)%nat ->
    herm_of A a c = csum j (fun k => Cconj (chol A k a) * chol A k c) + (if (Nat.eqb a j && Nat.eqb c j)%bool then RtoC (pivot A j) else 0)).
  { intros a c Ha Hc. destruct (Nat.eqb_spec a j) as [->|Na]; cbn [andb].
    - destruct (Nat.eqb_spec c j) as [->|Nc].
      + rewrite csum_nsq. unfold herm_of. rewrite Nat.ltb_irrefl, Nat.eqb_refl. rewrite <- RtoC_plus. f_equal. rewrite pivot_eq. ring.
      + rewrite chol_gram by (try lia; intros r Hr; apply P; lia). ring.
    - rewrite chol_gram by (try lia; intros r Hr; apply P; lia). ring. }
  assert (Q : quad n (herm_of A) v = RtoC (pivot A j)).
  { unfold quad. rewrite (csum_zero_tail (S j) n) by (try lia; intros a Ha _; apply csum_0; intros c _; rewrite (vz a) by exact Ha; apply Ceq; cbn; ring).
    rewrite (csum_ext (S j) _ (fun a => csum (S j) (fun c => csum j (fun k => Cconj (chol A k a * v a) * (chol A k c * v c)))
        + (if Nat.eqb a j then RtoC (pivot A j) else 0))).
    - rewrite csum_plus.
      assert (Z : csum (S j) (fun a => csum (S j) (fun c => csum j (fun k => Cconj (chol A k a * v a) * (chol A k c * v c)))) = 0).
      { apply csum_0. intros a _. rewrite csum_swap. apply csum_0. intros k Hk. rewrite csum_scal_l, K by exact Hk. ring. }
      rewrite Z. rewrite (csum_one (S j) j) by (try lia; intros i _ Hi; apply Nat.eqb_neq in Hi; rewrite Hi; reflexivity).
      rewrite Nat.eqb_refl. ring.
    - intros a Ha. rewrite (csum_zero_tail (S j) n) by (try lia; intros c Hc _; rewrite (vz c) by exact Hc; ring).
      rewrite (csum_ext (S j) _ (fun c => csum j (fun k => Cconj (chol A k a * v a) * (chol A k c * v c))
         + (if Nat.eqb c j then (if Nat.eqb a j then RtoC (pivot A j) else 0) else 0))).
      + rewrite csum_plus. f_equal. rewrite (csum_one (S j) j) by (try lia; intros i _ Hi; apply Nat.eqb_neq in Hi; rewrite Hi; reflexivity).
        rewrite Nat.eqb_refl. reflexivity.
      + intros c Hc. rewrite G by lia. 
        transitivity (Cconj (v a) * csum j (fun k => Cconj (chol A k a) * chol A k c) * v c
          + Cconj (v a) * (if (Nat.eqb a j && Nat.eqb c j)%bool then RtoC (pivot A j) else 0) * v c); [ring|]. f_equal.
        * rewrite <- csum_scal_l, <- csum_scal_r. apply csum_ext. intros k _. rewrite Cconj_mult. ring.
        * destruct (Nat.eqb_spec a j) as [->|Na]; destruct (Nat.eqb_spec c j) as [->|Nc]; cbn [andb]; try ring.
          rewrite vj, Cconj_R. ring. }
  assert (Pos : (0 < Re (quad n (herm_of A) v))%R).
  { apply HA. exists j. split; [exact Hj|]. rewrite vj. intros F. apply (f_equal fst) in F. cbn in F. lra. }
  rewrite Q in Pos. exact Pos.
Qed.
Lemma posdef_pivots n A : posdef n (herm_of A) -> forall j, (j < n)%nat -> (0 < pivot A j)%R.
Proof.
  intros H j. induction j as [j IH] using lt_wf_ind. intros Hj. apply (posdef_pivot n A H j Hj). intros r Hr. apply IH; lia.
Qed.

(** ** info *)
Lemma chol_info_from_0 A f : forall j, chol_info_from A j f = 0%nat <-> forall r, (j <= r)%nat -> (r < j + f)%nat -> (0 < pivot A r)%R.
Proof.
  induction f as [|f IH]; intros j; cbn [chol_info_from].
  - split; [intros _ r; lia|reflexivity].
  - unfold bad. destruct (Rle_dec (pivot A j) 0) as [L|L].
    + split; [discriminate|]. intros H. specialize (H j ltac:(lia) ltac:(lia)). lra.
    + rewrite IH. split; intros H r H1 H2.
      * destruct (Nat.eq_dec r j) as [->|N]; [lra|]. apply H; lia.
      * apply H; lia.
Qed.
Lemma chol_info_0 n A : chol_info n A = 0%nat <-> forall r, (r < n)%nat -> (0 < pivot A r)%R.
Proof. unfold chol_info. rewrite chol_info_from_0. split; intros H r; [intros; apply H|intros _ ?; apply H]; lia. Qed.

(** a matrix with positive pivots is positive definite: quad = |U v|^2 *)
Lemma upper_injective n (U : mat) (v : nat -> C) : (forall r c, (c < r)%nat -> (r < n)%nat -> U r c = 0) -> (forall r, (r < n)%nat -> U r r <> 0) ->
  (forall k, (k < n)%nat -> csum n (fun a => U k a * v a) = 0) -> forall i, (i < n)%nat -> v i = 0.
Proof.
  intros L D Z. assert (H : forall t i, (t <= n)%nat -> (n - t <= i)%nat -> (i < n)%nat -> v i = 0).
  { induction t as [|t IH]; intros i Ht H1 H2; [lia|]. destruct (Nat.eq_dec i (n - S t)) as [->|N]; [|apply IH; lia].
    pose proof (Z (n - S t)%nat H2) as E. rewrite (csum_one n (n - S t) _ H2) in E.
    - destruct (Ceq_dec (v (n - S t)%nat) 0) as [Q|Q]; [exact Q|]. exfalso. exact (Cmult_neq_0 _ _ (D _ H2) Q E).
    - intros k Hk Nk. destruct (Nat.lt_ge_cases k (n - S t)); [rewrite L by lia; ring|]. rewrite (IH k) by lia. ring. }
  intros i Hi. apply (H n i); lia.
Qed.
Lemma quad_gram n (U : mat) (v : nat -> C) : Re (quad n (mmul n (adj U) U) v) = rsumn n (fun k => nsq (csum n (fun a => U k a * v a))).
Proof.
  assert (E : quad n (mmul n (adj U) U) v = csum n (fun k => Cconj (csum n (fun a => U k a * v a)) * csum n (fun a => U k a * v a))).
  { unfold quad, mmul, adj.
    rewrite (csum_ext n _ (fun i => csum n (fun k => Cconj (U k i * v i) * csum n (fun a => U k a * v a)))).
    - rewrite csum_swap. apply csum_ext. intros k _. rewrite csum_scal_r, csum_conj. reflexivity.
    - intros i _. rewrite (csum_ext n _ (fun j => csum n (fun k => Cconj (U k i * v i) * (U k j * v j)))).
      + rewrite csum_swap. apply csum_ext. intros k _. apply csum_scal_l.
      + intros j _. rewrite <- csum_scal_l, <- csum_scal_r. apply csum_ext. intros k _. rewrite Cconj_mult. ring. }
  rewrite E, csum_nsq. reflexivity.
Qed.
Lemma quad_ext n A B v : meq n n A B -> quad n A v = quad n B v.
Proof. intros H. unfold quad. apply csum_ext. intros i Hi. apply csum_ext. intros j Hj. rewrite H by assumption. reflexivity. Qed.
Lemma pivots_posdef n A : (forall r, (r < n)%nat -> (0 < pivot A r)%R) -> posdef n (herm_of A).
Proof.
  intros P v (i & Hi & Hv). rewrite <- (quad_ext n _ _ v (chol_factors n A P)), quad_gram.
  destruct (rsumn_nonneg n (fun k => nsq (csum n (fun a => chol A k a * v a))) (fun k _ => nsq_pos _)) as [L|E]; [exact L|].
  exfalso. apply Hv. apply (upper_injective n (chol A) v).
  - intros r c Hc _. apply chol_low. exact Hc.
  - intros r Hr. rewrite chol_diag. apply RtoC_sqrt_neq. apply P. exact Hr.
  - intros k Hk. apply nsq_0. exact (rsumn_zero_terms n _ (fun k _ => nsq_pos _) (eq_sym E) k Hk).
  - exact Hi.
Qed.
(** zpotrf reports success exactly for the positive definite matrices *)
Theorem chol_info_posdef n A : chol_info n A = 0%nat <-> posdef n (herm_of A).
Proof. rewrite chol_info_0. split; [apply pivots_posdef|apply posdef_pivots]. Qed.

(** The solver contract of the descent model holds for every order. *)
Definition chol_solver (n : nat) (A B : mat) : mat := chol_solve n (chol A) B.
Lemma chol_solver_spec n m A B : hermitian n A -> posdef n A -> meq n m (mmul n A (chol_solver n A B)) B.
Proof.
  intros HA PA.
  assert (PH : posdef n (herm_of A)).
  { intros v Hv. rewrite (quad_ext n _ _ v (herm_of_hermitian n A HA)). apply PA. exact Hv. }
  pose proof (posdef_pivots n A PH) as P.
  assert (D : forall r, (r < n)%nat -> chol A r r <> 0) by (intros r Hr; rewrite chol_diag; apply RtoC_sqrt_neq; apply P; exact Hr).
  assert (L : forall r c, (c < r)%nat -> (r < n)%nat -> chol A r c = 0) by (intros; apply chol_low; assumption).
  pose proof (chol_solve_ok n m (chol A) B L D) as S.
  etransitivity; [|exact S]. apply (mmul_ext n n m); [|apply meq_refl].
  etransitivity; [symmetry; apply herm_of_hermitian; exact HA|]. symmetry. apply chol_factors. exact P.
Qed.
Theorem chol_solver_ok : forall m, solver_ok chol_solver m.
Proof. intros m A B HA PA. apply chol_solver_spec; assumption. Qed.
