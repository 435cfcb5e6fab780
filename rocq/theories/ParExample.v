(** Concrete parallel loops: one that is free of races, and two that are not. *)
From Coq Require Import Reals Arith Lia List Bool Permutation.
From Coquelicot Require Import Complex.
From Verif Require Import Arith LinAlg MVector Smearing Occupation LapackMem LapackMemProofs LapackElt Exchange Teter StepMem Parallel ParKernels.
Import ListNotations.
Local Open Scope nat_scope.

(** every matrix the library allocates has distinct elements *)
Lemma fresh_injective (E : elt) rows cols l : injective_view rows cols (alloc E rows cols l).
Proof. intros i j i' j' Hi Hj Hi' Hj' He. cbn in He. apply (cm_inj rows rows); lia. Qed.

Definition exA : view Celt := MkView 2 2 1 2 true (MkBuf 4 (fun a => RtoC (INR a) : ev Celt)).
Definition exB : view Celt := alloc Celt 2 2 true.
(** allocation 0: destination, 1: source *)
Definition exmem (d s : view Celt) : mem Celt := fun b => match b with O => vbuf d | S O => vbuf s | _ => MkBuf 0 (fun _ => RtoC 0 : ev Celt) end.
(** two iterations on one thread, none on another, two more threads *)
Definition exchunks : list (list (nat * nat)) := [[(0, 0); (1, 1)]; []; [(0, 1)]; [(1, 0)]].
Lemma exchunks_all : Permutation (concat exchunks) (pairs 2 2).
Proof.
  change (Permutation [(0, 0); (1, 1); (0, 1); (1, 0)] [(0, 0); (0, 1); (1, 0); (1, 1)]). apply perm_skip.
  exact (Permutation_cons_append [(0, 1); (1, 0)] (1, 1)).
Qed.
Lemma example_scale : exists B', scale (pairs 2 2) exB exA (2%R : er Celt) = KOk B' /\
  (vat B' 1 1 : C) = Cmult (RtoC 2) (RtoC 3) /\
  runs_to (threads (scale_prog 0 1 exB exA (2%R : er Celt)) exchunks) (exmem exB exA) (put (exmem exB exA) 0 (vbuf B')).
Proof.
  destruct (scale (pairs 2 2) exB exA (2%R : er Celt)) as [B'| | |] eqn:Es; try (cbn in Es; discriminate). exists B'. split; [reflexivity|].
  split.
  - cbn in Es. injection Es as <-. unfold vat; cbn. apply injective_projections; cbn; ring.
  - apply (par_scale 0 1 (exmem exB exA) exB exA (2%R : er Celt) 2 2 (pairs 2 2) exchunks B'); try reflexivity; try assumption.
    + discriminate.
    + apply fresh_injective.
    + exact exchunks_all.
Qed.

(** a destination whose two columns are the same memory: stride(1) = 0 *)
Definition exO : view Celt := MkView 1 2 1 0 true (MkBuf 1 (fun _ => RtoC 0 : ev Celt)).
Definition exS : view Celt := MkView 1 2 1 1 true (MkBuf 2 (fun a => RtoC (INR a) : ev Celt)).
Lemma overlapping_columns_race : exists dst' n c,
  allocated exO /\ allocated exS /\ scale (pairs 1 2) exO exS (2%R : er Celt) = KOk dst' /\
  steps n (threads (scale_prog 0 1 exO exS (2%R : er Celt)) [[(0, 0)]; [(0, 1)]], exmem exO exS) c /\ race (fst c).
Proof.
  eexists. exists 2. eexists.
  split; [intros i j Hi Hj; cbn in *; lia|]. split; [intros i j Hi Hj; cbn in *; lia|]. split; [reflexivity|]. split.
  - econstructor; [econstructor; [constructor|]|].
    + exists 0. do 3 eexists. split; [reflexivity|]. split; [reflexivity|]. reflexivity.
    + exists 1. do 3 eexists. split; [reflexivity|]. split; [reflexivity|]. reflexivity.
  - exists 0, 1. do 2 eexists. exists (0, 0), true, true. split; [discriminate|]. split; [reflexivity|]. split; [reflexivity|].
    split; [reflexivity|]. split; [reflexivity | left; reflexivity].
Qed.

(** source and destination in the same memory, but not element by element: the transposed matrix *)
Definition exX : view Celt := MkView 2 2 1 2 true (MkBuf 4 (fun a => RtoC (INR a) : ev Celt)).
Definition exXt : view Celt := MkView 2 2 2 1 true (MkBuf 4 (fun a => RtoC (INR a) : ev Celt)).
Lemma transposed_in_place_race : exists n c, injective_view 2 2 exX /\ allocated exX /\ allocated exXt /\ vbuf exXt = vbuf exX /\
  steps n (threads (deep_copy_prog 0 0 exX exXt) [[(0, 0)]; [(0, 1)]; [(1, 0)]; [(1, 1)]], exmem exX exX) c /\ race (fst c).
Proof.
  exists 1. eexists.
  split; [intros i j i' j' Hi Hj Hi' Hj' He; cbn in He; lia|]. split; [intros i j Hi Hj; cbn in *; lia|]. split; [intros i j Hi Hj; cbn in *; lia|].
  split; [reflexivity|]. split.
  - econstructor; [constructor|]. exists 1. do 3 eexists. split; [reflexivity|]. split; [reflexivity|]. reflexivity.
  - exists 1, 2. do 2 eexists. exists (0, 2), true, false. split; [discriminate|]. split; [reflexivity|]. split; [reflexivity|].
    split; [reflexivity|]. split; [reflexivity | left; reflexivity].
Qed.

Definition ex4 : list (list nat) := [[1]; []; [0]].
Lemma ex4_all : Permutation (concat ex4) (seq 0 2).
Proof. exact (perm_swap 0 1 []). Qed.
Lemma exA_allocated : allocated exA.
Proof. intros i j Hi Hj. cbn in *. lia. Qed.
Lemma exB_allocated : allocated exB.
Proof. intros i j Hi Hj. cbn in *. lia. Qed.
Lemma example_add : exists C', add (pairs 2 2) exB exA (RtoC 2 : ev Celt) (RtoC 3 : ev Celt) = KOk C' /\
  runs_to (threads (geam_prog 0 1 (RtoC 2 : ev Celt) (RtoC 3 : ev Celt) 2 2) [[(0, 0); (1, 0)]; [(0, 1); (1, 1)]]) (exmem exB exA) (put (exmem exB exA) 0 (vbuf C')).
Proof.
  destruct (add (pairs 2 2) exB exA (RtoC 2 : ev Celt) (RtoC 3 : ev Celt)) as [B'| | |] eqn:Es; try (cbn in Es; discriminate). exists B'. split; [reflexivity|].
  apply (par_add 0 1 (exmem exB exA) exB exA _ _ (pairs 2 2) _ B'); try reflexivity; try assumption; try discriminate.
  change (Permutation [(0, 0); (1, 0); (0, 1); (1, 1)] [(0, 0); (0, 1); (1, 0); (1, 1)]). apply perm_skip, perm_swap.
Qed.
Lemma example_with_beta (xn : nat) (x : nat -> R) (alpha beta : R) (z z' : C) (entries : nat -> R) : 2 <= xn ->
  exists B1 B2 B3 B4 B5 B6,
  (scale_cols (pairs 2 2) exB exA xn x (alpha : er Celt) (beta : er Celt) = KOk B1 /\
   runs_to (threads (scale_cols_prog 0 1 exB exA xn x (alpha : er Celt) (beta : er Celt)) exchunks) (exmem exB exA) (put (exmem exB exA) 0 (vbuf B1))) /\
  (scale_beta (pairs 2 2) exB exA (alpha : er Celt) (beta : er Celt) = KOk B2 /\
   runs_to (threads (scale_beta_prog 0 1 exB exA (alpha : er Celt) (beta : er Celt)) exchunks) (exmem exB exA) (put (exmem exB exA) 0 (vbuf B2))) /\
  (add_ (pairs 2 2) exB exA (z : ev Celt) (z' : ev Celt) = KOk B3 /\
   runs_to (threads (add__prog 0 1 exB exA (z : ev Celt) (z' : ev Celt)) exchunks) (exmem exB exA) (put (exmem exB exA) 0 (vbuf B3))) /\
  (deep_copy Celt (pairs 2 2) exB exA = KOk B4 /\
   runs_to (threads (deep_copy_prog 0 1 exB exA) exchunks) (exmem exB exA) (put (exmem exB exA) 0 (vbuf B4))) /\
  (apply_diag Celt (pairs 2 2) exB exA xn (entries : nat -> er Celt) = KOk B5 /\
   runs_to (threads (apply_diag_prog 0 1 exB exA xn (entries : nat -> er Celt)) exchunks) (exmem exB exA) (put (exmem exB exA) 0 (vbuf B5))) /\
  (precond_in_place Celt (pairs 2 2) exA xn (entries : nat -> er Celt) = KOk B6 /\
   runs_to (threads (apply_diag_prog 0 0 exA exA xn (entries : nat -> er Celt)) exchunks) (exmem exA exA) (put (exmem exA exA) 0 (vbuf B6))).
Proof.
  intros Hn. pose proof exA_allocated as HA. pose proof exB_allocated as HB. pose proof exchunks_all as Hc.
  assert (J : injective_view 2 2 exB) by apply fresh_injective.
  assert (JA : injective_view 2 2 exA) by (intros i j i' j' Hi Hj Hi' Hj' He; cbn in He; lia).
  destruct (scale_cols_exact (pairs 2 2) exB exA xn x alpha beta) as (B1 & E1 & _); try assumption; try reflexivity; try apply Permutation_refl.
  destruct (scale_beta_exact (pairs 2 2) exB exA alpha beta) as (B2 & E2 & _); try assumption; try reflexivity; try apply Permutation_refl.
  assert (E3 : exists B3, add_ (pairs 2 2) exB exA (z : ev Celt) (z' : ev Celt) = KOk B3) by (unfold add_; destruct (eis0 Celt z'); eexists; reflexivity).
  destruct E3 as (B3 & E3).
  destruct (deep_copy_ok Celt (pairs 2 2) exB exA) as (B4 & E4 & _); try assumption; try reflexivity; try apply Permutation_refl.
  destruct (apply_diag_ok Celt (pairs 2 2) exB exA xn entries) as (B5 & E5 & _); try assumption; try reflexivity; try apply Permutation_refl.
  destruct (precond_in_place_ok Celt (pairs 2 2) exA xn entries) as (B6 & E6 & _); try assumption; try reflexivity; try apply Permutation_refl.
  exists B1, B2, B3, B4, B5, B6.
  split; [split; [exact E1|]; eapply (par_scale_cols 0 1 _ exB exA) with (6 := E1); try eassumption; try reflexivity; try discriminate; apply Permutation_refl|].
  split; [split; [exact E2|]; eapply (par_scale_beta 0 1 _ exB exA) with (6 := E2); try eassumption; try reflexivity; try discriminate; apply Permutation_refl|].
  split; [split; [exact E3|]; eapply (par_add_ 0 1 _ exB exA) with (6 := E3); try eassumption; try reflexivity; try discriminate; apply Permutation_refl|].
  split; [split; [exact E4|]; eapply (par_deep_copy 0 1 _ exB exA) with (6 := E4); try eassumption; try reflexivity; try discriminate; apply Permutation_refl|].
  split; [split; [exact E5|]; eapply (par_apply_diag 0 1 _ exB exA) with (6 := E5); try eassumption; try reflexivity; try discriminate; apply Permutation_refl|].
  split; [exact E6|]; eapply (par_precond_in_place 0 _ exA) with (4 := E6); try eassumption; try reflexivity; try discriminate; apply Permutation_refl.
Qed.
(** diagonal, rows and vectors of two elements; allocation 0: result of two elements, 1: the matrix *)
Definition vmem : mem Celt := exmem (MkView 2 1 1 2 true (MkBuf 2 (fun _ => RtoC 0 : ev Celt))) exA.
Lemma example_vectors : exists l v,
  (diag exA = KOk l /\ length l = 2 /\ runs_to (threads (diag_prog 0 1 exA) ex4) vmem (put vmem 0 (MkBuf 2 (fun i => if Nat.ltb i 2 then nth i l (RtoC 0 : ev Celt) else bget (vmem 0) i)))) /\
  ((forall i, i < 2 -> row_sum exA exA i 2 = KOk (v i)) /\
   runs_to (threads (row_prog 0 1 1 exA exA) ex4) vmem (put vmem 0 (MkBuf 2 (fun i => if Nat.ltb i 2 then v i else (RtoC 0 : ev Celt))))) /\
  runs_to (threads (map_prog 0 (fun z : ev Celt => Cmult (RtoC 2) z : ev Celt)) ex4) vmem
    (put vmem 0 (MkBuf 2 (fun i => if Nat.ltb i 2 then (Cmult (RtoC 2) (bget (vmem 0) i) : ev Celt) else bget (vmem 0) i))).
Proof.
  pose proof ex4_all as Hc.
  destruct (diag exA) as [l| | |] eqn:Ed; try (cbn in Ed; discriminate).
  assert (L : length l = 2) by (destruct (diag_loop_nth exA 2 l Ed) as [L _]; exact L).
  exists l. exists (fun i => match row_sum exA exA i 2 with KOk t => t | _ => RtoC 0 : ev Celt end).
  assert (Hv : forall i, i < 2 -> row_sum exA exA i 2 = KOk (match row_sum exA exA i 2 with KOk t => t | _ => RtoC 0 : ev Celt end)).
  { intros [|[|i]] Hi; [reflexivity | reflexivity | lia]. }
  split; [|split].
  - split; [reflexivity|]. split; [exact L|]. pose proof (par_diag 0 1 vmem exA l ex4) as H. rewrite L in H. apply H; try reflexivity; try assumption; discriminate.
  - split; [exact Hv|]. apply (par_rows 0 1 1 vmem exA exA); try reflexivity; try assumption; discriminate.
  - apply (par_map 0 vmem 2); [reflexivity | exact Hc].
Qed.
(** the gradient with respect to the pseudo-Hamiltonian of two bands *)
Definition exords : nat -> orders := fun _ m n => pairs m n.
Definition exord1 : nat -> nat -> list nat := fun _ n => seq 0 n.
Definition exek : rvec := (2, fun i => INR i).
Lemma example_g_eta s T mo mu wk dmu dF kappa : exists g dd b1 b2 b3,
  g_eta exords exord1 s T mo 0 exA mu wk exek exek dmu dF = KOk g /\
  delta_eta exords exord1 (fun _ _ => RtoC 7 : ev Celt) kappa 0 exA exek wk = KOk dd /\
  runs_to (threads (g_eta_prog1 s T mo 0 1 (zeros_like exA) exA mu wk exek) ex4) (exmem (zeros_like exA) exA) (put (exmem (zeros_like exA) exA) 0 b1) /\
  runs_to (threads (g_eta_prog3 0 1 (zeros_like exA) exA exek exek) exchunks) (put (exmem (zeros_like exA) exA) 0 b2) (put (exmem (zeros_like exA) exA) 0 (vbuf g)) /\
  runs_to (threads (delta_eta_prog 0 (empty_like exA (fun _ => RtoC 7 : ev Celt)) kappa exek) ex4)
    (put (exmem (empty_like exA (fun _ => RtoC 7 : ev Celt)) exA) 0 b3) (put (exmem (empty_like exA (fun _ => RtoC 7 : ev Celt)) exA) 0 (vbuf dd)).
Proof.
  assert (Eg : exists g, g_eta exords exord1 s T mo 0 exA mu wk exek exek dmu dF = KOk g).
  { unfold g_eta. cbn. destruct (Rltb (Rabs dmu) _); cbn; destruct (Rltb (Rabs (1 - 0)) _); cbn; destruct (Rltb (Rabs (0 - 1)) _); cbn; eexists; reflexivity. }
  destruct Eg as (g & Eg).
  destruct (delta_eta exords exord1 (fun _ _ => RtoC 7 : ev Celt) kappa 0 exA exek wk) as [dd| | |] eqn:Ed; try (cbn in Ed; discriminate).
  destruct (par_g_eta s T mo exords exord1 0 exA mu wk exek exek dmu dF 0 1 (exmem (zeros_like exA) exA) g ex4 ex4 exchunks) as (b1 & b2 & R1 & _ & R3);
    try reflexivity; try assumption; try discriminate; try (intros; apply Permutation_refl); try exact ex4_all; try exact exchunks_all.
  { intros m n. apply Permutation_refl. }
  destruct (par_delta_eta exords exord1 (fun _ _ => RtoC 7 : ev Celt) kappa 0 exA exek wk 0 dd 1 (exmem (empty_like exA (fun _ => RtoC 7 : ev Celt)) exA) exchunks ex4) as (b3 & _ & R4);
    try reflexivity; try assumption; try discriminate; try (intros; apply Permutation_refl); try exact ex4_all; try exact exchunks_all.
  { intros m n. apply Permutation_refl. }
  exists g, dd, b1, b2, b3. split; [exact Eg|]. split; [exact eq_refl|]. split; [exact R1|]. split; [exact R3 | exact R4].
Qed.
