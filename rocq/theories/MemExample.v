(** A concrete run in memory: the system of UsExample.v (one band that mixes with an empty basis function) with an eigensolver, a
    Cholesky solver and a functional that work on memory.  Nothing here models code of its own. *)
From Coq Require Import ZArith Reals Lra Psatz Arith Lia List Bool Permutation.
From Coquelicot Require Import Complex.
From Verif Require Import Arith LinAlg MVector LapackMem LapackMemProofs LapackElt LapackFacts Exchange Smearing SmearingFacts Newton Occupation StepMem StepProofs StepMain StepTrial StepLine.
From Verif Require Import Descent DescentProofs DescentFacts Geodesic GeodesicProofs LineSearch Driver UsRun UsRunProofs UsExample CurveExample Cholesky.
From Verif Require Import DeviceStep SimulateRel MemRun MemGeo MemRunProofs MemRunMain.
From Verif Require Device StepExample.
Import ListNotations.
Local Open Scope R_scope.

(** ** An eigensolver that looks at its block only *)
Definition cut (n : nat) (M : mat) : mat := fun i j => if (Nat.ltb i n && Nat.ltb j n)%bool then M i j else RtoC 0.
Lemma cut_meq n M : meq n n (cut n M) M.
Proof. intros i j Hi Hj. unfold cut. rewrite (proj2 (Nat.ltb_lt i n) Hi), (proj2 (Nat.ltb_lt j n) Hj). reflexivity. Qed.
Lemma cut_ext n M N : meq n n M N -> cut n M = cut n N.
Proof.
  intros H. apply mat_ext. intros i j. unfold cut. destruct (Nat.ltb i n) eqn:Ei; [|reflexivity]. destruct (Nat.ltb j n) eqn:Ej; [|reflexivity].
  apply Nat.ltb_lt in Ei, Ej. exact (H i j Ei Ej).
Qed.
Definition heevd_cut (n : nat) (b : buf Celt) (ld : nat) : Z * buf Celt * (nat -> R) :=
  (0%Z, LapackElt.put n n false b ld (fst (eig_pair n (cut n (stored b ld)))), snd (eig_pair n (cut n (stored b ld)))).
Lemma put_stored n b ld M : LapackElt.fits n n b ld -> meq n n (stored (LapackElt.put n n false b ld M) ld) M.
Proof. intros (H1 & H2 & H3) i j Hi Hj. unfold stored. apply put_in; try assumption. discriminate. Qed.
Lemma heevd_cut_ok : heevd_ok heevd_cut /\ block_determined heevd_cut /\ never_fails heevd_cut.
Proof.
  split; [|split].
  - constructor.
    + intros n b ld _. reflexivity.
    + intros n b ld (H1 & H2 & H3) a Ha. cbn [heevd_cut fst snd]. apply put_frame; [exact H1|]. intros i j Hi Hj _. apply Ha; assumption.
    + intros n b ld Hf _. cbv zeta. cbn [heevd_cut fst snd].
      destruct (eig_pair_ok n (cut n (stored b ld))) as (E1 & E2 & E3).
      assert (EU := meq_sym _ _ _ _ (put_stored n b ld (fst (eig_pair n (cut n (stored b ld)))) Hf)).
      split; [exact (unitary_meq _ _ _ EU E1)|]. split; [|exact E3].
      apply meq_trans with (mmul n (Geodesic.upper (cut n (stored b ld))) (fst (eig_pair n (cut n (stored b ld))))).
      { apply mmul_ext; [apply upper_ext, meq_sym, cut_meq | apply meq_sym; exact EU]. }
      apply meq_trans with (1 := E2). apply mmul_ext; [exact EU | apply meq_refl].
  - intros n b ld b' ld' Hf Hf' HM. cbn [heevd_cut fst snd]. rewrite (cut_ext n _ _ HM). split; [reflexivity|]. split; [|reflexivity].
    apply meq_trans with (1 := put_stored n b ld _ Hf). apply meq_sym. exact (put_stored n b' ld' _ Hf').
  - intros n b ld _. reflexivity.
Qed.
Lemma eigh_of_cut_total n M : eigh_of heevd_cut n M <> None.
Proof. unfold eigh_of. cbn [heevd_cut Z.eqb]. discriminate. Qed.

(** ** The functional of UsExample.v in memory *)
Definition mix_mcompute (en : unit) (v : key -> view Celt) (f : key -> rvec) : ((R * (key -> view Celt) * (key -> rvec)) + unit) * unit :=
  let X := fun k => mat_of (v k) in
  (inl (mix_energy X (fun k => snd (f k)), fun k => mkview 2 1 5 (mmul 2 mixH (X k)),
        fun k => (1%nat, fun i => Re (mmul 2 (adj (X k)) (mmul 2 mixH (X k)) i i))), tt).
Lemma mix_functional : computes_functional mix_set mix_mcompute mix_compute.
Proof.
  intros en X fn v f HX Hf. split; [reflexivity|]. cbn [mix_mcompute mix_compute fst].
  assert (HM : meq 2 1 (mat_of (v k0)) (X k0)) by exact (h_mat _ _ _ _ (HX k0 (or_introl eq_refl))).
  destruct (Hf k0 (or_introl eq_refl)) as (Hn & Hv). cbn [ncol mix_set] in Hn, Hv. split; [|split].
  - unfold mix_energy. f_equal. apply csum_ext. intros a Ha. apply csum_ext. intros b Hb. f_equal.
    unfold density. cbn [ncol mix_set]. unfold mmul, mdiag, adj. cbn [csum Nat.eqb].
    rewrite (HM b 0%nat Hb (le_n 1)), (HM a 0%nat Ha (le_n 1)), (Hv 0%nat (le_n 1)). reflexivity.
  - intros k Hk. rewrite (mix_keys k Hk) in *. cbn [nrow ncol mix_set].
    assert (E : meq 2 1 (mmul 2 mixH (mat_of (v k0))) (mmul 2 mixH (X k0))) by (apply (mmul_ext 2 2 1); [apply meq_refl|exact HM]).
    assert (Hh : holds 2 1 (mkview 2 1 5 (mmul 2 mixH (mat_of (v k0)))) (mmul 2 mixH (mat_of (v k0)))) by (apply mkview_holds; lia).
    destruct Hh as [h1 h2 h3 h4 h5 h6 h7]. constructor; try assumption. apply meq_trans with (1 := h7). exact E.
  - intros k Hk. rewrite (mix_keys k Hk) in *. split; [reflexivity|]. intros i Hi. cbn [ncol mix_set] in Hi. cbn [snd]. f_equal.
    apply (mmul_ext 1 2 1); [apply adj_ext; exact HM| |exact Hi|exact Hi]. apply (mmul_ext 2 2 1); [apply meq_refl|exact HM].
Qed.
Lemma mix_ok_cut : system_ok solve2 (eigh_of heevd_cut) unit unit mix_compute mix_set.
Proof.
  destruct mix_ok as [A1 _ A3 A4 A5 A6]. constructor; try assumption. exact (proj2 (eigh_of_is _ (proj1 heevd_cut_ok) (proj1 (proj2 heevd_cut_ok)))).
Qed.

(** ** Start state in memory with leading dimension 3 and occupations, band energies and H X left over from before *)
Definition mix_mstart : mst unit :=
  MkMst tt (fun _ => mkview 2 1 3 mix_X) (fun _ => (1%nat, fun _ => 1)) (fun _ => mkview 2 1 2 mzero) (fun _ => (1%nat, fun _ => 0)) 0 0 0 0 0.
Lemma mix_start_held : mem_holds mix_set mix_start mix_mstart.
Proof.
  constructor; try reflexivity.
  - intros k _. apply mkview_holds; lia.
  - intros k _. split; reflexivity.
  - intros k _. apply mkview_holds; lia.
  - intros k _. split; reflexivity.
Qed.

(** reductions as one long chain *)
Fixpoint chain (l : list nat) : rtree := match l with [] => RZero | i :: l' => RJoin (RRow i) (chain l') end.
Lemma chain_leaves l : leaves (chain l) = l.
Proof. induction l as [|i l IH]; [reflexivity|]. cbn. rewrite IH. reflexivity. Qed.

Notation mix_machine sp := (machine_ok sp (fun _ _ => StepExample.bwd) (fun _ _ => StepExample.bwd1) (fun _ _ _ n => chain (rev (seq 0 n)))
  (fun _ _ => StepExample.fwd 0) (fun _ _ => StepExample.bwd1 0) heevd_cut potrf_ref potrs_ref (mat_op (fun _ => mid)) (mat_op (fun _ => mid))
  unit unit mix_mcompute mix_set (eigh_of heevd_cut) mix_compute).
Notation mix_memory sp := (mem_problem sp (fun _ _ => StepExample.bwd) (fun _ _ => StepExample.bwd1) (fun _ _ _ _ => RtoC 7) (fun _ _ _ n => chain (rev (seq 0 n)))
  (fun _ _ => StepExample.fwd 0) (fun _ _ => StepExample.bwd1 0) (fun _ _ _ => RtoC 9) heevd_cut potrf_ref potrs_ref (mat_op (fun _ => mid)) (mat_op (fun _ => mid))
  unit unit mix_mcompute mix_set).
Lemma mix_machine_ok sp : mix_machine sp.
Proof.
  constructor.
  - intros _ _. exact StepExample.bwd_fair.
  - intros _ _. exact StepExample.bwd1_fair.
  - intros _ _ _ n. rewrite chain_leaves. apply Permutation_sym, Permutation_rev.
  - intros _ _. apply StepExample.fwd_fair.
  - intros _ _. apply StepExample.bwd1_fair.
  - exact (proj1 (eigh_of_is _ (proj1 heevd_cut_ok) (proj1 (proj2 heevd_cut_ok)))).
  - right. exact eigh_of_cut_total.
  - exact potrf_ref_ok.
  - exact potrs_ref_ok.
  - intros k _. cbn [nrow ncol mix_set]. unfold small. lia.
  - intros k _. exact (mat_op_acts (fun _ => mid) k 2).
  - intros k _. exact (mat_op_acts (fun _ => mid) k 2).
  - exact mix_functional.
Qed.

Lemma mix_mem_setup sp : exists d sl t, setup (mix_memory sp) mix_mstart = (inl (d, sl), t) /\ sl < 0.
Proof.
  destruct (mix_setup (fun _ => mzero)) as (d & sl & s & E & Hsl).
  destruct (mem_setup_agrees sp (fun _ _ => StepExample.bwd) (fun _ _ => StepExample.bwd1) (fun _ _ _ _ => RtoC 7) (fun _ _ _ n => chain (rev (seq 0 n)))
    (fun _ _ => StepExample.fwd 0) (fun _ _ => StepExample.bwd1 0) (fun _ _ _ => RtoC 9) heevd_cut potrf_ref potrs_ref (mat_op (fun _ => mid)) (mat_op (fun _ => mid))
    unit unit mix_mcompute mix_set solve2 (eigh_of heevd_cut) mix_compute (mix_machine_ok sp) mix_ok_cut (fun _ => mzero) mix_start mix_mstart d sl s
    eq_refl mix_ortho mix_start_held E) as (d' & t & E' & _).
  exists d', sl, t. split; [exact E'|exact Hsl].
Qed.
