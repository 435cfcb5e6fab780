(** Facts about Device.v. *)
From Coq Require Import Arith Lia List Bool ZArith String.
From Verif Require Import Device.
Import ListNotations.

(** identifiers of live blocks are below the next one and distinct *)
Definition dev_ok (d : dev) : Prop := NoDup (map fst (d_live d)) /\ (forall b, In b (d_live d) -> fst b < d_next d) /\ used d <= d_cap d.
Definition dev_fresh (cap : nat) : dev := Dev cap [] 0.
Lemma dev_fresh_ok cap : dev_ok (dev_fresh cap).
Proof. split; [constructor|]. split; [intros b []|]. apply Nat.le_0_l. Qed.

Lemma malloc_ok b d p d' : dev_ok d -> cuda_malloc b d = Some (p, d') ->
  dev_ok d' /\ d_live d' = (p, b) :: d_live d /\ p = d_next d /\ used d' = used d + b /\ d_cap d' = d_cap d.
Proof.
  intros (N & L & U) E. unfold cuda_malloc in E. destruct (Nat.leb_spec (used d + b) (d_cap d)) as [H|H]; [|discriminate].
  injection E as <- <-. cbn. split; [|repeat split; unfold used; cbn; lia].
  split; [|split].
  - cbn. constructor; [|exact N]. intros Hin. apply in_map_iff in Hin. destruct Hin as (x & Hx & Hin). apply L in Hin. lia.
  - cbn. intros x [<- | Hx]; [cbn; lia | apply L in Hx; lia].
  - unfold used. cbn. unfold used in H. lia.
Qed.
Lemma malloc_fails b d : cuda_malloc b d = None <-> d_cap d < used d + b.
Proof. unfold cuda_malloc. destruct (Nat.leb_spec (used d + b) (d_cap d)); split; intros; try discriminate; try lia; reflexivity. Qed.
Lemma filter_id {X} (f : X -> bool) l : (forall x, In x l -> f x = true) -> filter f l = l.
Proof.
  induction l as [|x l IH]; intros H; [reflexivity|]. cbn. rewrite (H x (or_introl eq_refl)). f_equal. apply IH. intros y Hy. apply H. right. exact Hy.
Qed.

(** A call that returns leaves exactly one more block of 4 bytes. *)
Lemma workspace_call_ok l d i d' : dev_ok d -> cuda_workspace_call l d = DVal i d' ->
  dev_ok d' /\ i = l_info l /\ d_cap d' = d_cap d /\ exists p, ~ In p (map fst (d_live d)) /\ d_live d' = (p, 4) :: d_live d.
Proof.
  intros H E. unfold cuda_workspace_call in E. destruct (l_buf l); cbn [negb] in E; [|discriminate].
  destruct (cuda_malloc (16 * l_work l) d) as [[w d1]|] eqn:M1; [|discriminate].
  destruct (cuda_malloc 4 d1) as [[p d2]|] eqn:M2; [|discriminate]. destruct (l_ok l); [|discriminate]. injection E as <- <-.
  destruct (malloc_ok _ _ _ _ H M1) as (O1 & L1 & P1 & U1 & C1). destruct (malloc_ok _ _ _ _ O1 M2) as (O2 & L2 & P2 & U2 & C2).
  assert (Hw : w <> p). { intros ->. destruct O2 as (N & _). rewrite L2, L1 in N. inversion N as [|? ? N1 N2]. apply N1. left. reflexivity. }
  assert (F : filter (fun b => negb (fst b =? w)) (d_live d2) = (p, 4) :: d_live d).
  { rewrite L2, L1. cbn. rewrite (proj2 (Nat.eqb_neq p w)) by auto. cbn. rewrite Nat.eqb_refl. cbn. f_equal. apply filter_id.
    intros x Hx. destruct H as (_ & Lt & _). apply Lt in Hx. apply negb_true_iff, Nat.eqb_neq. lia. }
  assert (Np : ~ In p (map fst (d_live d))).
  { destruct O2 as (N & _). rewrite L2, L1 in N. cbn in N. inversion N as [|? ? N1 N2]. intros Hin. apply N1. right. exact Hin. }
  split; [|split; [reflexivity | split; [cbn; congruence | exists p; split; [exact Np | exact F]]]].
  unfold cuda_free. rewrite F. destruct H as (N & Lt & U). split; [|split].
  - cbn. constructor; assumption.
  - cbn. intros x [<- | Hx]; cbn.
    + destruct O2 as (_ & L & _). apply (L (p, 4)). rewrite L2. left. reflexivity.
    + destruct O2 as (_ & L & _). apply L. rewrite L2, L1. right. right. exact Hx.
  - destruct O2 as (_ & _ & U3). unfold used in *. cbn [d_live d_cap fold_right snd]. lia.
Qed.
Lemma potrs_ok l d i d' : dev_ok d -> cuda_potrs l d = DVal i d' ->
  dev_ok d' /\ i = l_info l /\ d_cap d' = d_cap d /\ exists p, ~ In p (map fst (d_live d)) /\ d_live d' = (p, 4) :: d_live d.
Proof.
  intros H E. unfold cuda_potrs in E. destruct (cuda_malloc 4 d) as [[p d1]|] eqn:M; [|discriminate].
  destruct (l_ok l); [|discriminate]. injection E as <- <-. destruct (malloc_ok _ _ _ _ H M) as (O & L & P & U & C).
  split; [exact O|]. split; [reflexivity|]. split; [exact C|]. exists p. split; [|exact L].
  destruct O as (N & _). rewrite L in N. cbn in N. inversion N; assumption.
Qed.

(** ** Specification: blocks still allocated although no pointer to them is left *)
(** [lost d d' n]: everything allocated before is still allocated, and n new blocks of one int are too *)
Definition lost (d d' : dev) (n : nat) : Prop :=
  exists new, d_live d' = new ++ d_live d /\ List.length new = n /\ (forall b, In b new -> snd b = 4 /\ ~ In (fst b) (map fst (d_live d))).
Definition leaks (c : dcall) : nat := match c with CEigh _ => 1 | CSolve _ _ => 2 end.

Lemma lost_refl d : lost d d 0.
Proof. exists []. split; [reflexivity|]. split; [reflexivity|]. intros b []. Qed.
Lemma lost_trans d d1 d2 n m : lost d d1 n -> lost d1 d2 m -> lost d d2 (m + n).
Proof.
  intros (a & A1 & A2 & A3) (b & B1 & B2 & B3). exists (b ++ a). split; [rewrite B1, A1; apply app_assoc|].
  split; [rewrite app_length; lia|]. intros x Hx. apply in_app_or in Hx. destruct Hx as [Hx|Hx]; [|apply A3; exact Hx].
  destruct (B3 x Hx) as [E N]. split; [exact E|]. intros Hin. apply N. rewrite A1, map_app. apply in_or_app. right. exact Hin.
Qed.
Lemma lost_one d d' p : ~ In p (map fst (d_live d)) -> d_live d' = (p, 4) :: d_live d -> lost d d' 1.
Proof. intros N E. exists [(p, 4)]. split; [exact E|]. split; [reflexivity|]. intros b [<- | []]. split; [reflexivity | exact N]. Qed.
Lemma lost_used d d' n : lost d d' n -> used d' = used d + 4 * n.
Proof.
  intros (a & A1 & A2 & A3). unfold used. rewrite A1, fold_right_app. clear A1.
  assert (G : forall b, In b a -> snd b = 4) by (intros b Hb; apply A3; exact Hb). clear A3.
  revert n A2. induction a as [|x a IH]; intros n <-; cbn [fold_right List.length]; [lia|].
  rewrite (IH (fun b Hb => G b (or_intror Hb)) _ eq_refl), (G x (or_introl eq_refl)). lia.
Qed.

Theorem dcall_leaks c d d' : dev_ok d -> dcall_run c d = DVal tt d' -> dev_ok d' /\ d_cap d' = d_cap d /\ lost d d' (leaks c).
Proof.
  intros H E. destruct c as [l|lf ls]; cbn [dcall_run leaks] in *.
  - unfold eigh_cuda, cuda_zheevd in E. destruct (cuda_workspace_call l d) as [i d1| | |] eqn:C; try discriminate. injection E as <-.
    destruct (workspace_call_ok _ _ _ _ H C) as (O & _ & K & p & N & L). split; [exact O|]. split; [exact K|]. exact (lost_one _ _ p N L).
  - unfold solve_sym_cuda, cuda_potrf in E. destruct (cuda_workspace_call lf d) as [i d1| | |] eqn:C; try discriminate.
    destruct (cuda_potrs ls d1) as [j d2| | |] eqn:C2; try discriminate. injection E as <-.
    destruct (workspace_call_ok _ _ _ _ H C) as (O & _ & K & p & N & L). destruct (potrs_ok _ _ _ _ O C2) as (O2 & _ & K2 & p2 & N2 & L2).
    split; [exact O2|]. split; [congruence|]. exact (lost_trans _ _ _ 1 1 (lost_one _ _ p N L) (lost_one _ _ p2 N2 L2)).
Qed.
Theorem dcalls_leak cs : forall d d', dev_ok d -> dcalls_run cs d = DVal tt d' ->
  dev_ok d' /\ d_cap d' = d_cap d /\ lost d d' (fold_right (fun c n => leaks c + n) 0 cs).
Proof.
  induction cs as [|c r IH]; intros d d' H E; cbn [dcalls_run fold_right] in *.
  - injection E as <-. split; [exact H|]. split; [reflexivity | apply lost_refl].
  - destruct (dcall_run c d) as [[] d1| | |] eqn:C; try discriminate. destruct (dcall_leaks _ _ _ H C) as (O & K & L).
    destruct (IH _ _ O E) as (O2 & K2 & L2). split; [exact O2|]. split; [congruence|].
    rewrite Nat.add_comm. exact (lost_trans _ _ _ _ _ L L2).
Qed.
(** A program that keeps calling them cannot go on for ever. *)
Theorem dcalls_bounded cs d d' : dev_ok d -> dcalls_run cs d = DVal tt d' -> 4 * List.length cs + used d <= d_cap d.
Proof.
  intros H E. destruct (dcalls_leak _ _ _ H E) as ((_ & _ & U) & K & L). apply lost_used in L.
  assert (G : List.length cs <= fold_right (fun c n => leaks c + n) 0 cs).
  { clear. induction cs as [|c r IH]; cbn; [lia|]. destruct c; cbn; lia. }
  lia.
Qed.
(** every library call reports success *)
Definition good (l : lib) : Prop := l_buf l = true /\ l_ok l = true.
Definition good_call (c : dcall) : Prop := match c with CEigh l => good l | CSolve lf ls => good lf /\ good ls end.
Lemma good_call_no_exit c d : good_call c -> dcall_run c d = DUB \/ exists d', dcall_run c d = DVal tt d'.
Proof.
  intros G. destruct c as [l|lf ls]; cbn [dcall_run].
  - destruct G as [G1 G2]. unfold eigh_cuda, cuda_zheevd, cuda_workspace_call. rewrite G1, G2. cbn [negb].
    destruct (cuda_malloc _ d) as [[w d1]|]; [|left; reflexivity]. destruct (cuda_malloc 4 d1) as [[p d2]|]; [right; eexists; reflexivity | left; reflexivity].
  - destruct G as [[G1 G2] [G3 G4]]. unfold solve_sym_cuda, cuda_potrf, cuda_workspace_call, cuda_potrs. rewrite G1, G2, G4. cbn [negb].
    destruct (cuda_malloc _ d) as [[w d1]|]; [|left; reflexivity]. destruct (cuda_malloc 4 d1) as [[p d2]|]; [|left; reflexivity].
    destruct (cuda_malloc 4 (cuda_free w d2)) as [[q d3]|]; [right; eexists; reflexivity | left; reflexivity].
Qed.
Lemma good_calls_no_exit cs : (forall c, In c cs -> good_call c) -> forall d, dcalls_run cs d = DUB \/ exists d', dcalls_run cs d = DVal tt d'.
Proof.
  induction cs as [|c r IH]; intros G d; cbn [dcalls_run]; [right; exists d; reflexivity|].
  destruct (good_call_no_exit c d (G c (or_introl eq_refl))) as [-> | [d1 ->]]; [left; reflexivity|].
  apply IH. intros c' Hc. apply G. right. exact Hc.
Qed.
Theorem dcalls_exhaust cs d : dev_ok d -> (forall c, In c cs -> good_call c) -> d_cap d < 4 * List.length cs + used d -> dcalls_run cs d = DUB.
Proof.
  intros H G L. destruct (good_calls_no_exit cs G d) as [E|[d' E]]; [exact E|]. pose proof (dcalls_bounded _ _ _ H E). lia.
Qed.
(** ... while with enough memory the calls do return *)
Fixpoint peak (cs : list dcall) : nat :=
  match cs with
  | [] => 0
  | CEigh l :: r => Nat.max (16 * l_work l + 4) (4 + peak r)
  | CSolve lf _ :: r => Nat.max (16 * l_work lf + 4) (8 + peak r)
  end.
Theorem dcalls_return cs : forall d, dev_ok d -> (forall c, In c cs -> good_call c) -> used d + peak cs <= d_cap d -> exists d', dcalls_run cs d = DVal tt d'.
Proof.
  induction cs as [|c r IH]; intros d H G P; cbn [dcalls_run]; [exists d; reflexivity|].
  assert (R : exists d1, dcall_run c d = DVal tt d1).
  { destruct (good_call_no_exit c d (G c (or_introl eq_refl))) as [E|R]; [exfalso | exact R].
    specialize (G c (or_introl eq_refl)). destruct c as [l|lf ls]; cbn [dcall_run peak] in *.
    - destruct G as [G1 G2]. unfold eigh_cuda, cuda_zheevd, cuda_workspace_call in E. rewrite G1, G2 in E. cbn [negb] in E.
      destruct (cuda_malloc _ d) as [[w d1]|] eqn:M; [|apply malloc_fails in M; lia].
      destruct (malloc_ok _ _ _ _ H M) as (O & L & Pn & U & C).
      destruct (cuda_malloc 4 d1) as [[p d2]|] eqn:M2; [discriminate | apply malloc_fails in M2; lia].
    - destruct G as [[G1 G2] [G3 G4]]. unfold solve_sym_cuda, cuda_potrf in E.
      destruct (cuda_workspace_call lf d) as [i d1| | |] eqn:W.
      + destruct (workspace_call_ok _ _ _ _ H W) as (O & _ & K & p & N & L). pose proof (lost_used _ _ _ (lost_one _ _ p N L)) as U.
        unfold cuda_potrs in E. rewrite G4 in E. destruct (cuda_malloc 4 d1) as [[q d2]|] eqn:M; [discriminate | apply malloc_fails in M; lia].
      + discriminate.
      + discriminate.
      + unfold cuda_workspace_call in W. rewrite G1, G2 in W. cbn [negb] in W.
        destruct (cuda_malloc _ d) as [[w d1]|] eqn:M; [|apply malloc_fails in M; lia].
        destruct (malloc_ok _ _ _ _ H M) as (O & L & Pn & U & C).
        destruct (cuda_malloc 4 d1) as [[p d2]|] eqn:M2; [discriminate | apply malloc_fails in M2; lia]. }
  destruct R as [d1 R]. rewrite R. destruct (dcall_leaks _ _ _ H R) as (O & K & L). apply lost_used in L.
  apply IH; [exact O | intros c' Hc; apply G; right; exact Hc|]. destruct c as [l|lf ls]; cbn [peak leaks] in *; lia.
Qed.

(** ** Reports *)
Theorem eigh_host_reports info : eigh_report SHost true info = Returns <-> info = 0%Z.
Proof. unfold eigh_report. destruct (Z.eqb_spec info 0); split; intros; try discriminate; try contradiction; auto. Qed.
Theorem eigh_device_silent s info : s <> SHost -> eigh_report s true info = Returns.
Proof. destruct s; intros H; [contradiction | reflexivity | reflexivity]. Qed.
Theorem eigh_distributed s info : exists msg, eigh_report s false info = Throws msg.
Proof. destruct s; eexists; reflexivity. Qed.
(** the memory-level and the report-level descriptions agree *)
Theorem eigh_cuda_report loc l d : good l -> dev_ok d -> used d + (16 * l_work l + 4) <= d_cap d ->
  match eigh_report SCuda loc (l_info l) with
  | Returns => exists d', eigh_cuda loc l d = DVal tt d'
  | Throws m => eigh_cuda loc l d = DThrow m d
  end.
Proof.
  intros G H P. destruct loc; [|reflexivity]. cbn [eigh_report].
  destruct (dcalls_return [CEigh l] d H) as [d' E].
  - intros c [<- | []]. exact G.
  - cbn [peak]. lia.
  - cbn [dcalls_run dcall_run] in E. destruct (eigh_cuda true l d) as [[] d1| | |]; try discriminate. exists d1. reflexivity.
Qed.
(** the caller cannot tell a failed factorisation from a successful one *)
Theorem solve_sym_cuda_blind lf ls i d :
  solve_sym_cuda true (Lib (l_buf lf) (l_work lf) (l_ok lf) i) ls d = solve_sym_cuda true lf ls d.
Proof.
  unfold solve_sym_cuda, cuda_potrf, cuda_workspace_call. cbn [l_buf l_work l_ok l_info]. destruct (l_buf lf); cbn [negb]; [|reflexivity].
  destruct (cuda_malloc _ d) as [[w d1]|]; [|reflexivity]. destruct (cuda_malloc 4 d1) as [[p d2]|]; [|reflexivity]. destruct (l_ok lf); reflexivity.
Qed.

(** ** Handles *)
Theorem handle_get_stable s : let '(h, s') := handle_get s in handle_get s' = (h, s').
Proof. unfold handle_get. destruct (h_cell s) as [h|] eqn:E; [rewrite E|]; reflexivity. Qed.
Definition h_ok (s : hstate) : Prop := (forall h, h_cell s = Some h -> In h (h_alive s)) /\ (forall h, In h (h_alive s) -> h < h_next s).
Lemma h_init_ok : h_ok h_init.
Proof. split; [discriminate | intros h []]. Qed.
Lemma hcmd_ok c s : h_ok s -> h_ok (hcmd_run c s).
Proof.
  intros [H1 H2]. destruct c; cbn [hcmd_run].
  - unfold handle_get. destruct (h_cell s) as [h|] eqn:E; cbn [snd]; [split; [intros k Hk; apply H1; rewrite <- E; exact Hk | exact H2]|].
    split; cbn; [intros h Hh; injection Hh as <-; left; reflexivity | intros h [<- | Hh]; [lia | apply H2 in Hh; lia]].
  - unfold handle_destroy. destruct (h_cell s); split; cbn; try discriminate; exact H2.
Qed.
(** whatever get() returns can be used: it has been created and not destroyed *)
Theorem handle_valid cs : In (fst (handle_get (hcmds_run cs h_init))) (h_alive (snd (handle_get (hcmds_run cs h_init)))).
Proof.
  assert (G : forall cs s, h_ok s -> h_ok (hcmds_run cs s)).
  { clear cs. induction cs as [|c r IH]; intros s H; [exact H|]. cbn. apply IH. apply hcmd_ok. exact H. }
  specialize (G cs h_init h_init_ok). set (s := hcmds_run cs h_init) in *. unfold handle_get.
  destruct (h_cell s) as [h|] eqn:E; cbn; [apply G; exact E | left; reflexivity].
Qed.
(** no command ever releases a handle *)
Theorem handles_never_released cs s h : In h (h_alive s) -> In h (h_alive (hcmds_run cs s)).
Proof.
  revert s. induction cs as [|c r IH]; intros s H; [exact H|]. cbn. apply IH. destruct c; cbn [hcmd_run].
  - unfold handle_get. destruct (h_cell s); cbn; [exact H | right; exact H].
  - unfold handle_destroy. destruct (h_cell s); exact H.
Qed.
Fixpoint cycles (n : nat) : list hcmd := match n with O => [] | S n => HGet :: HDestroy :: cycles n end.
Theorem handle_cycles n : List.length (h_alive (hcmds_run (cycles n) h_init)) = n.
Proof.
  assert (G : forall n s, h_cell s = None -> List.length (h_alive (hcmds_run (cycles n) s)) = n + List.length (h_alive s)).
  { clear n. induction n as [|n IH]; intros s E; [reflexivity|]. cbn [cycles]. unfold hcmds_run. cbn [fold_left hcmd_run].
    unfold handle_get. rewrite E. cbn [snd]. unfold handle_destroy at 1. cbn [h_cell h_alive h_next].
    change (fold_left (fun s c => hcmd_run c s) (cycles n)) with (hcmds_run (cycles n)). rewrite IH by reflexivity. cbn. lia. }
  rewrite G by reflexivity. cbn. lia.
Qed.

(** ** MAGMA *)
Theorem magma_work_short n nb : zheevd_magma_work n nb = None <-> 0 < n.
Proof. unfold zheevd_magma_work. destruct (Nat.leb_spec (Nat.max (n + n * nb) (2 * n + n * n)) n) as [H|H]; split; intros; try discriminate; try nia; reflexivity. Qed.
