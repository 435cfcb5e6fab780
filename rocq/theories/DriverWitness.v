(** Witnesses and small corollaries for PropertiesDriver.v. *)
From Coq Require Import ZArith List Bool Reals Lra Lia Sorted.
From Flocq Require Import IEEE754.BinarySingleNaN.
From Verif Require Import Arith LineSearch LineSearchSpec LineSearchProofs LineSearchReal Float64
  LineSearchFloat Toys Driver DriverProofs DriverProofs2 DriverProofs3 DriverRun Dispatch.
Import ListNotations.
Local Open Scope Z_scope.

Lemma parabolaR_curve : curve_energy parabolaR (fun d t => ((fst d + t * snd d) * (fst d + t * snd d))%R).
Proof.
  split; cbn.
  - intros d t s p s' E. injection E as _ <-. reflexivity.
  - intros d t s p s' E. injection E as <- <-. ring.
  - intros d s sl d' E. injection E as _ <-. cbn. ring.
  - intros fr d s fr' sl d' E. injection E as _ _ <-. cbn. ring.
  - intros s d sl s' E. injection E as <- _ <-. cbn. ring.
Qed.

Lemma restart0_witness : fst (fst (nlcg_us F64 parabola 5 (flit 1 1000) (flit 1 10) 0 223 20 f1)) = UB.
Proof. vm_compute. reflexivity. Qed.

Definition the_info {E N} (r : outcome E (nlcg_info N)) : nlcg_info N :=
  match r with Ret i => i | _ => info_uninit end.

Lemma split_run {S' E N} (a : outcome E (nlcg_info N) * S' * list (event N)) :
  kind_of (fst (fst a)) = 0 -> a = (Ret (the_info (fst (fst a))), snd (fst a), snd a).
Proof. destruct a as [[[i|[]| |] s] l]; cbn; intros H; try discriminate H. reflexivity. Qed.

Lemma split_last {N} (l : list (event N)) c : map event_code l = c -> c <> [] ->
  exists l0 e, l = l0 ++ [e] /\ event_code e = last c 0.
Proof.
  intros <- Hc. destruct l as [|e l] using rev_ind; [contradiction Hc; reflexivity|].
  exists l, e. split; [reflexivity|]. rewrite map_app. cbn [map]. rewrite last_last. reflexivity.
Qed.

(** Boolean tests read off a returned record and the state left behind. *)
Definition test_opt {N} (f : N -> bool) (o : option N) : bool := match o with Some x => f x | None => false end.
Lemma test_opt_true {N} (f : N -> bool) o : test_opt f o = true -> exists x, o = Some x /\ f x = true.
Proof. destruct o as [x|]; cbn; [eauto|discriminate]. Qed.

Lemma tolerance_witness :
  exists (Pb : problem F64) maxiter tol tau s0 info st evs t,
  nlcg_us F64 Pb maxiter tol tau 3 223 20 s0 = (Ret info, st, evs) /\
  iConv info = true /\ iTol info = Some t /\ Bltb t f0 = true /\ altb F64 (aabs F64 t) tol = false.
Proof.
  assert (H1 : kind_of (fst (fst (run_parabola 5 3))) = 0) by (vm_compute; reflexivity).
  assert (H2 : iConv (the_info (fst (fst (run_parabola 5 3)))) = true) by (vm_compute; reflexivity).
  assert (H3 : test_opt (fun t => Bltb t f0 && negb (altb F64 (aabs F64 t) (flit 1 1000)))
                 (iTol (the_info (fst (fst (run_parabola 5 3))))) = true) by (vm_compute; reflexivity).
  apply split_run in H1. apply test_opt_true in H3. destruct H3 as (t & Ht & H3).
  apply andb_true_iff in H3. destruct H3 as (H3 & H4). apply negb_true_iff in H4.
  exists parabola, 5, (flit 1 1000), (flit 1 10), f1. do 3 eexists. exists t.
  split; [exact H1|]. auto.
Qed.

Lemma uninit_witness :
  exists (Pb : problem F64) maxiter tol tau s0 info st evs,
  nlcg_us F64 Pb maxiter tol tau 3 223 20 s0 = (Ret info, st, evs) /\
  iF info = None /\ iS info = None /\ iTol info = None /\ iIter info = None /\ iConv info = false.
Proof.
  exists parabola, 0, (flit 1 1000), (flit 1 10), f1, info_uninit. do 2 eexists.
  split; [reflexivity|]. cbn. auto.
Qed.

Lemma maxiter_stale_witness :
  exists (Pb : problem F64) maxiter tol tau s0 info st evs F,
  nlcg_us F64 Pb maxiter tol tau 3 223 20 s0 = (Ret info, st, evs) /\
  iConv info = false /\ iF info = Some F /\ Bltb (getF Pb st) F = true.
Proof.
  assert (H1 : kind_of (fst (fst (run_parabola 1 3))) = 0) by (vm_compute; reflexivity).
  assert (H2 : iConv (the_info (fst (fst (run_parabola 1 3)))) = false) by (vm_compute; reflexivity).
  assert (H3 : test_opt (fun F => Bltb (getF parabola (snd (fst (run_parabola 1 3)))) F)
                 (iF (the_info (fst (fst (run_parabola 1 3))))) = true) by (vm_compute; reflexivity).
  apply split_run in H1. apply test_opt_true in H3. destruct H3 as (F & HF & H3).
  exists parabola, 1, (flit 1 1000), (flit 1 10), f1. do 3 eexists. exists F.
  split; [exact H1|]. auto.
Qed.

Lemma descent_stale_witness :
  exists (Pb : problem F64) maxiter tol tau s0 info st evs0 l F,
  nlcg_us F64 Pb maxiter tol tau 3 223 20 s0 = (Ret info, st, evs0 ++ [EvLs l LsDescent]) /\
  iF info = Some F /\ Bltb F (getF Pb st) = true.
Proof.
  assert (H1 : kind_of (fst (fst (run_climbing (flit (-1) 1) 5 3))) = 0) by (vm_compute; reflexivity).
  assert (H2 : map event_code (snd (run_climbing (flit (-1) 1) 5 3)) = [7; 0; 3; 7; 0; 4]) by (vm_compute; reflexivity).
  assert (H3 : test_opt (fun F => Bltb F (snd (fst (run_climbing (flit (-1) 1) 5 3))))
                 (iF (the_info (fst (fst (run_climbing (flit (-1) 1) 5 3))))) = true) by (vm_compute; reflexivity).
  apply split_run in H1. apply test_opt_true in H3. destruct H3 as (F & HF & H3).
  apply split_last in H2; [|discriminate]. destruct H2 as (l0 & e & H2 & He). rewrite H2 in H1.
  destruct e as [? ? ? ? ? ? ?|l r|?|?]; try discriminate He.
  destruct r as [[]| | | |]; try discriminate He.
  exists (climbing (flit (-1) 1) (flit 1 1)), 5, (flit 1 1000), (flit 1 10), f0. do 2 eexists. exists l0, l, F.
  split; [exact H1|]. auto.
Qed.

Definition conv_flag {E N} (r : outcome E (nlcg_info N)) : bool :=
  match r with Ret i => iConv i | _ => false end.
Lemma conv_flag_true {E N} (r : outcome E (nlcg_info N)) :
  conv_flag r = true -> exists i, r = Ret i /\ iConv i = true.
Proof. destruct r as [i|e| |]; cbn; try discriminate. eauto. Qed.

Definition last_slope {N} (l : list (event N)) : option N :=
  match last l (EvLs [] LsSlope) with EvSteepest sl => Some sl | _ => None end.

Lemma last_untested_witness :
  exists (Pb : problem F64) maxiter tol tau s0 info st evs0 sl,
  nlcg_us F64 Pb maxiter tol tau 3 223 20 s0 = (Ret info, st, evs0 ++ [EvSteepest sl]) /\
  altb F64 (aabs F64 sl) tol = true /\ iConv info = false /\
  exists info', fst (fst (nlcg_us F64 Pb (maxiter + 1) tol tau 3 223 20 s0)) = Ret info' /\ iConv info' = true.
Proof.
  assert (H1 : kind_of (fst (fst (run_parabola 1 3))) = 0) by (vm_compute; reflexivity).
  assert (H2 : map event_code (snd (run_parabola 1 3)) = [7; 0; 1; 7]) by (vm_compute; reflexivity).
  assert (H3 : test_opt (fun sl => altb F64 (aabs F64 sl) (flit 1 1000)) (last_slope (snd (run_parabola 1 3))) = true)
    by (vm_compute; reflexivity).
  assert (H4 : iConv (the_info (fst (fst (run_parabola 1 3)))) = false) by (vm_compute; reflexivity).
  assert (H5 : conv_flag (fst (fst (nlcg_us F64 parabola (1 + 1) (flit 1 1000) (flit 1 10) 3 223 20 f1))) = true)
    by (vm_compute; reflexivity).
  apply split_run in H1.  apply test_opt_true in H3. destruct H3 as (sl & Hsl & H3).
  apply split_last in H2; [|discriminate]. destruct H2 as (l0 & e & H2 & He). rewrite H2 in H1.
  rewrite H2 in Hsl. unfold last_slope in Hsl. rewrite last_last in Hsl.
  destruct e as [? ? ? ? ? ? ?|l r|sl'|? ? ?]; try discriminate Hsl. injection Hsl as ->.
  exists parabola, 1, (flit 1 1000), (flit 1 10), f1. do 2 eexists. exists l0, sl.
  split; [exact H1|]. split; [exact H3|]. split; [exact H4|].
  exact (conv_flag_true _ H5).
Qed.

Lemma run_last_untested (A : arith) (Pb : problem A) maxiter tol tau restart fq fb s0 info st evs0 fr fr' sl :
  (nlcg_us A Pb maxiter tol tau restart fq fb s0 = (Ret info, st, evs0 ++ [EvSteepest sl]) \/
   nlcg_us A Pb maxiter tol tau restart fq fb s0 = (Ret info, st, evs0 ++ [EvConj fr fr' sl])) ->
  iConv info = false.
Proof.
  intros H. destruct (iConv info) eqn:Hc; [exfalso|reflexivity].
  destruct H as [H|H]; apply run_conv in H; destruct H as (_ & _ & H);
    destruct (H Hc) as (e & step & F & Sx & KS & mu & sl' & b & E & _);
    apply app_inj_tail in E; destruct E as (_ & E); discriminate E.
Qed.

Lemma run_ranks (A : arith) (P1 P2 : problem A) RS RD RP tol tau restart fq fb :
  same_scalars A P1 P2 RS RD RP ->
  forall maxiter s1 s2, RS s1 s2 ->
  let a := nlcg_us A P1 maxiter tol tau restart fq fb s1 in
  let b := nlcg_us A P2 maxiter tol tau restart fq fb s2 in
  rel_out eq (fst (fst a)) (fst (fst b)) /\
  concat (map collectives_of (snd a)) = concat (map collectives_of (snd b)) /\
  (forall rank, rank <> 0 -> json_lines rank (snd b) = []) /\
  json_lines 0 (snd a) = map rStep (records (snd b)).
Proof.
  intros H maxiter s1 s2 Hs a b.
  destruct (nlcg_us_rel A P1 P2 RS RD RP H tol tau restart fq fb maxiter s1 s2 Hs) as (H1 & _ & H2).
  fold a b in H1, H2. split; [exact H1|]. rewrite H2. split; [reflexivity|]. split.
  - intros rank Hr. unfold json_lines. apply Z.eqb_neq in Hr. rewrite Hr. reflexivity.
  - unfold json_lines. cbn [Z.eqb]. generalize (snd b). clear. intros l.
    induction l as [|e l IH]; [reflexivity|]. destruct e; cbn; rewrite <- ?IH; reflexivity.
Qed.

Lemma parabola_tag_same : same_scalars F64 (parabola_tag 1) (parabola_tag 2) eq (fun a b => fst a = fst b) eq.
Proof.
  split.
  - intros s1 s2 ->. auto.
  - intros s1 s2 ->. split; [split|]; reflexivity.
  - intros [d1 k1] [d2 k2] t s1 s2 H ->. cbn [fst] in H. subst d2. split; reflexivity.
  - intros [d1 k1] [d2 k2] p1 p2 s1 s2 H -> ->. cbn [fst] in H. subst d2. reflexivity.
  - intros [d1 k1] [d2 k2] s1 s2 H ->. cbn [fst] in H. subst d2. split; reflexivity.
  - intros fr [d1 k1] [d2 k2] s1 s2 H ->. cbn [fst] in H. subst d2. split; reflexivity.
Qed.

Lemma dispatch_cpu (N : Type) smearing (temp tol kappa tau : N) maxiter restart :
  wanted HostSpace smearing temp tol kappa tau maxiter restart
    (nlcg_us_cpu smearing temp tol kappa tau maxiter restart) /\
  nlcg_us_device_cpu smearing temp tol kappa tau maxiter restart =
    nlcg_us_cpu smearing temp tol kappa tau maxiter restart.
Proof. split; [apply nlcg_us_cpu_wanted|reflexivity]. Qed.

Lemma dispatch_device (N : Type) g smearing (temp tol kappa tau : N) maxiter restart :
  match g with
  | NoGpu => nlcg_us_device g smearing temp tol kappa tau maxiter restart = Raise
  | Cuda => wanted CudaSpace smearing temp tol kappa tau maxiter restart
              (nlcg_us_device g smearing temp tol kappa tau maxiter restart)
  | Rocm => wanted HIPSpace smearing temp tol kappa tau maxiter restart
              (nlcg_us_device g smearing temp tol kappa tau maxiter restart)
  end /\
  nlcg_us_cpu_device g smearing temp tol kappa tau maxiter restart =
    nlcg_us_device g smearing temp tol kappa tau maxiter restart.
Proof. split; [apply nlcg_us_device_wanted|reflexivity]. Qed.

Lemma dispatch_mvp2 (N : Type) smearing (temp tol kappa tau : N) maxiter restart :
  nlcg_mvp2_cpu smearing temp tol kappa tau maxiter restart = Raise /\
  nlcg_mvp2_device smearing temp tol kappa tau maxiter restart = Raise /\
  nlcg_mvp2_cpu_device smearing temp tol kappa tau maxiter restart = Raise /\
  nlcg_mvp2_device_cpu smearing temp tol kappa tau maxiter restart = Raise.
Proof. auto. Qed.
