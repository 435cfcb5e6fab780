(** The results of UsRunProofs.v and UsCount.v, entry by entry. *)
From Coq Require Import Reals Lra ZArith List Bool Arith Lia Sorting.Sorted.
From Coquelicot Require Import Complex.
From Verif Require Import Arith LinAlg MVector Mpi Containers ChemPot Newton Occupation Smearing SmearingUse SmearingFacts
  Descent DescentProofs Geodesic GeodesicProofs LineSearch Driver DriverProofs DriverInv UsRun UsRunProofs UsCount.
Import ListNotations.
Local Open Scope R_scope.

Section Facts.
  Context (solve : nat -> mat -> mat -> mat) (eigh : nat -> mat -> option (mat * (nat -> R))) (En Ex : Type).
  Context (ecompute : En -> (key -> mat) -> (key -> nat -> R) -> ((R * (key -> mat) * (key -> nat -> R)) + Ex) * En).
  Context (C : setting) (junk : key -> mat).
  Context (Hsys : system_ok solve eigh En Ex ecompute C).
  Notation Pb := (us_problem solve eigh En Ex ecompute C junk).
  Context (maxiter : Z) (tol tau : R) (restart : Z) (fq fb : nat) (s0 : ust En) (r : outcome (us_exn Ex) (nlcg_info R)) (st : ust En) (evs : list (event R)).
  Context (Hlog : s_log s0 = []) (HX : ortho C (s_X s0)).
  Context (Hrun : nlcg_us Rarith Pb maxiter tol tau restart fq fb s0 = (r, st, evs)).

  Let H := run_calls solve eigh En Ex ecompute C junk Hsys maxiter tol tau restart fq fb s0 r st evs Hlog HX Hrun.

  Lemma run_hermitian c M : In c (s_log st) -> In M (g_args c) ->
    forall i j, (i < ncol C (g_key c))%nat -> (j < ncol C (g_key c))%nat -> M i j = Cconj (M j i).
  Proof.
    intros Hc HM i j Hi Hj. destruct H as [H1 _]. rewrite Forall_forall in H1. destruct (H1 c Hc) as (_ & _ & H2 & _).
    rewrite Forall_forall in H2. symmetry. exact (H2 M HM i j Hi Hj).
  Qed.
  Lemma run_logged c : In c (s_log st) -> In (g_key c) (concat (ranks C)) /\ g_args c <> [].
  Proof. intros Hc. destruct H as [H1 _]. rewrite Forall_forall in H1. destruct (H1 c Hc) as (H2 & H3 & _). split; assumption. Qed.
  Lemma run_orthonormal c X' : In c (s_log st) -> g_out c = Some X' -> let k := g_key c in
    forall i j, (i < ncol C k)%nat -> (j < ncol C k)%nat ->
    csum (nrow C k) (fun a => Cmult (Cconj (X' a i)) (csum (nrow C k) (fun b => Cmult (ovl C k a b) (X' b j)))) = if Nat.eqb i j then RtoC 1 else RtoC 0.
  Proof.
    intros Hc Ho k i j Hi Hj. destruct H as [H1 _]. rewrite Forall_forall in H1. destruct (H1 c Hc) as (_ & _ & _ & _ & H2). exact (H2 X' Ho i j Hi Hj).
  Qed.
  Lemma run_overlap_positive c M : In c (s_log st) -> nth_error (g_args c) 1 = Some M -> let k := g_key c in
    forall v : nat -> Complex.C, (exists i, (i < ncol C k)%nat /\ v i <> RtoC 0) ->
    0 < Re (csum (ncol C k) (fun i => csum (ncol C k) (fun j => Cmult (Cmult (Cconj (v i)) (M i j)) (v j)))).
  Proof.
    intros Hc Hm k v Hv. destruct H as [H1 _]. rewrite Forall_forall in H1. destruct (H1 c Hc) as (_ & _ & _ & H2 & _). exact (H2 M Hm v Hv).
  Qed.
  Lemma run_downhill : monotone_type (smt C) -> 0 < temp C -> 0 <= kappa_ C -> 0 <= occ_ C ->
    (forall sl, In (EvSteepest sl) evs -> sl <= 0) /\ (forall l, ~ In (EvLs l LsSlope) evs).
  Proof.
    intros H1 H2 H3 H4. assert (HW : Wr C) by (repeat split; assumption). destruct H as [_ [H5 H6]]. split; [intros sl Hs; exact (H5 sl Hs HW)|exact (H6 HW)].
  Qed.
End Facts.

Lemma run_counts_spec solve eigh En Ex ecompute C junk (f0 : key -> nat -> R) : NoDup (concat (ranks C)) ->
  forall maxiter tol tau restart fq fb s0 r st evs, snd (s_en s0) = [] -> s_fn s0 = f0 ->
  nlcg_us Rarith (us_problem solve eigh (En * list (key -> nat -> R)) Ex (recorded En Ex ecompute) C junk) maxiter tol tau restart fq fb s0 = (r, st, evs) ->
  exists l, snd (s_en st) = l ++ [f0] /\ forall fn, In fn l ->
  let ne := rsum (map (fun k => wgt C k * rsum (map (fn k) (seq 0 (ncol C k)))) (concat (ranks C))) in
  Rabs (nel C - ne) < mu_tol C \/
  (skip_nt C = false /\ (smt C = METHFESSEL_PAXTON \/ smt C = COLD) /\ Rabs (nel C - ne) <= 1 / 100).
Proof.
  intros Hn maxiter tol tau restart fq fb s0 r st evs H0 Hf H.
  destruct (run_counts solve eigh En Ex ecompute C junk f0 Hn maxiter tol tau restart fq fb s0 r st evs H0 Hf H) as (l & E & Hl).
  exists l. split; [exact E|]. intros fn Hfn. rewrite Forall_forall in Hl. exact (Hl fn Hfn).
Qed.
