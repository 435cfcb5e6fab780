(** A run in binary64 in which every matrix element, energy, eigenvalue and factor is NaN: two k-points on two ranks, three basis functions,
    two bands.  Nothing here models code of its own. *)
From Coq Require Import ZArith Arith Lia List Bool.
From Flocq Require Import IEEE754.BinarySingleNaN.
From Verif Require Import Arith Float64 SmearFloat MVector LapackMem LapackMemProofs Exchange Containers Occupation Smearing LineSearch Driver
  StepMem DeviceStep MemRun NumStep NumRun ShapeStep ShapeRun.
From Verif Require Device.
Import ListNotations.

Definition qn : f64 := B754_nan.
Definition qnn : ev (nE binaryN) := (qn, qn).
Definition nan_view (r c ld : nat) : view (nE binaryN) := MkView r c 1 ld true (MkBuf (ld * c) (fun _ => qnn)).
(** kernels whose loops run backwards *)
Definition back (m n : nat) : list (nat * nat) := rev (flat_map (fun j => map (fun i => (i, j)) (seq 0 m)) (seq 0 n)).
Definition back1 (n : nat) : list nat := rev (seq 0 n).
Definition line (n : nat) : rtree := fold_right (fun i t => RJoin (RRow i) t) RZero (seq 0 n).
Definition two_levels (i : nat) : f64 := if Nat.eqb i 0 then fz (-1) else fz 1.
(** LAPACK reports success and fills its matrix with NaN *)
Definition nan_buf (b : buf (nE binaryN)) : buf (nE binaryN) := MkBuf (bsz b) (fun _ => qnn).
Definition nan_heevd (n : nat) (b : buf (nE binaryN)) (ld : nat) : Z * buf (nE binaryN) * (nat -> f64) := (0%Z, nan_buf b, two_levels).
Definition nan_potrf (n : nat) (b : buf (nE binaryN)) (ld : nat) : Z * buf (nE binaryN) := (0%Z, nan_buf b).
Definition nan_potrs (n c : nat) (f : buf (nE binaryN)) (lf : nat) (b : buf (nE binaryN)) (ld : nat) : Z * buf (nE binaryN) := (0%Z, nan_buf b).
Definition nan_op : operator_fn (nE binaryN) := fun _ _ y _ x => (nan_buf y, x).
Definition nan_compute (en : unit) (X : key -> view (nE binaryN)) (f : key -> nvec binaryN)
  : ((f64 * (key -> view (nE binaryN)) * (key -> nvec binaryN)) + unit) * unit :=
  (inl (qn, fun _ => nan_view 2 1 5, fun _ => (1, two_levels)), tt).
Definition flat_libm : libm := MkLibm (fun x => x) (fun x => x) (fun x => x) (fun x => x) (fun x _ => x).
Definition nan_set (s : smearing_type) : nset binaryN :=
  @MkNset binaryN [[(0, 0)%Z]; [(1, 0)%Z]] (fun _ => fhalf) (smearing_classF flat_libm GAUSS) (smearing_classF flat_libm s)
    (fz 2) (fz 300) (fz 1) (fz 2) (flit 1 100000000000) false.
Definition nan_start : nst binaryN unit :=
  @MkNst binaryN unit tt (fun _ => nan_view 2 1 4) (fun _ => (1, fun _ => qn)) (fun _ => nan_view 0 0 0) (fun _ => (0, fun _ => qn)) qn qn qn qn 0.
Definition nan_problem (sp : space) (nan_comp : unit -> (key -> view (nE binaryN)) -> (key -> nvec binaryN) ->
    ((f64 * (key -> view (nE binaryN)) * (key -> nvec binaryN)) + unit) * unit) (s : smearing_type) : problem F64 :=
  num_problem binaryN sp (fun _ _ _ => back) (fun _ _ _ => back1) (fun _ _ _ _ => qnn) (fun _ _ _ => line) (fun _ _ => back)
    (fun _ _ => back1) (fun _ _ _ => qnn) nan_heevd nan_potrf nan_potrs nan_op nan_op unit unit nan_comp (nan_set s).
Definition nan_run (sp : space) (maxiter : Z) :=
  nlcg_us F64 (nan_problem sp nan_compute FERMI_DIRAC) maxiter (flit 1 1000000000) (flit 1 10) 10 10 10 nan_start.

Lemma back_inside : inside back.
Proof.
  intros m n i j Hin. unfold back in Hin. apply in_rev in Hin. apply in_flat_map in Hin. destruct Hin as (j' & Hj & Hin).
  apply in_map_iff in Hin. destruct Hin as (i' & E & Hi). injection E as <- <-. apply in_seq in Hj, Hi. lia.
Qed.
Lemma back1_inside : inside1 back1.
Proof. intros n i Hin. unfold back1 in Hin. apply in_rev in Hin. apply in_seq in Hin. lia. Qed.
Lemma line_inside : inside_red line.
Proof.
  intros n i Hin. unfold line in Hin. assert (G : forall l, In i (leaves (fold_right (fun i t => RJoin (RRow i) t) RZero l)) -> In i l).
  { induction l as [|a l IH]; cbn; [auto|]. intros [->|Hl]; auto. }
  apply G in Hin. apply in_seq in Hin. lia.
Qed.
Lemma nan_shaped r c ld : 1 <= r -> 1 <= c -> r <= ld -> (Z.of_nat ld + Z.of_nat ld * Z.of_nat c <= 2147483647)%Z -> shaped r c (nan_view r c ld).
Proof.
  intros H1 H2 H3 H4. constructor; try reflexivity.
  - split; [reflexivity|]. cbn. lia.
  - intros i j Hi Hj. cbn in *. nia.
  - unfold int_indexed. cbn. nia.
Qed.
Definition nan_rows (k : key) : nat := 2.
Definition nan_cols (k : key) : nat := 1.
Lemma nan_shapes s : shapes_ok binaryN (fun _ _ _ => back) (fun _ _ _ => back1) (fun _ _ _ => line) (fun _ _ => back) (fun _ _ => back1)
  nan_heevd nan_potrf nan_potrs nan_op nan_op unit unit nan_compute (nan_set s) nan_rows nan_cols.
Proof.
  constructor; intros; try exact back_inside; try exact back1_inside; try exact line_inside; try reflexivity.
  - intros n b ld _. reflexivity.
  - intros n b ld _. reflexivity.
  - intros n c f lf b ld _ _. reflexivity.
  - unfold sized, nan_rows, nan_cols. lia.
  - intros c sy sx y x _ _. split; reflexivity.
  - intros c sy sx y x _ _. split; reflexivity.
  - cbn. split; [|intros k Hk; reflexivity]. intros k Hk. apply nan_shaped; unfold nan_rows, nan_cols; lia.
Qed.
Lemma nan_start_ok s : talls binaryN (nan_set s) nan_rows nan_cols (b_X nan_start) /\ long binaryN (nan_set s) nan_cols (b_fn nan_start).
Proof. split; intros k Hk; [apply nan_shaped; unfold nan_rows, nan_cols; lia|reflexivity]. Qed.

(** The run returns normally: every line search succeeded, and the energies it reports are NaN. *)
Definition is_nan64 (x : f64) : bool := match x with B754_nan => true | _ => false end.
Definition nan_ok (e : event f64) : bool := match e with EvLs _ (LsOk _) => true | EvLs _ _ => false | _ => true end.
Lemma nan_returns sp : exists info t evs, nan_run sp 2 = (Ret info, t, evs) /\ iF info = Some qn /\ b_F t = qn /\ forallb nan_ok evs = true /\ length evs = 7.
Proof.
  assert (G : match nan_run sp 2 with
    | (Ret info, t, evs) => match iF info with Some x => is_nan64 x | None => false end && is_nan64 (b_F t) && forallb nan_ok evs && Nat.eqb (length evs) 7
    | _ => false end = true) by (destruct sp; vm_compute; reflexivity).
  destruct (nan_run sp 2) as [[[info| | |] t] evs]; try discriminate G.
  apply andb_prop in G. destruct G as (G & G4). apply andb_prop in G. destruct G as (G & G3). apply andb_prop in G. destruct G as (G1 & G2).
  exists info, t, evs. split; [reflexivity|]. split; [|split; [|split; [exact G3|apply Nat.eqb_eq; exact G4]]].
  - change (num F64) with f64 in *. destruct (iF info) as [x|]; [|discriminate G1]. destruct x; try discriminate G1. reflexivity.
  - revert G2. change (num (nA binaryN)) with f64. generalize (b_F t). intros x. change (num (nA binaryN)) with f64 in x. destruct x; try discriminate. reflexivity.
Qed.
(** A functional whose H X has the agreed extents but which returns one band energy too many. *)
Definition long_compute (en : unit) (X : key -> view (nE binaryN)) (f : key -> nvec binaryN)
  : ((f64 * (key -> view (nE binaryN)) * (key -> nvec binaryN)) + unit) * unit :=
  (inl (fz 0, fun _ => nan_view 2 1 5, fun _ => (2, two_levels)), tt).
Lemma long_undefined sp :
  fst (fst (nlcg_us F64 (nan_problem sp long_compute FERMI_DIRAC) 2 (flit 1 1000000000) (flit 1 10) 10 10 10 nan_start)) = Throw (OtherExn MUndefined).
Proof. destruct sp; vm_compute; reflexivity. Qed.
Lemma long_energies :
  exists comp : unit -> (key -> view (nE binaryN)) -> (key -> nvec binaryN) ->
      ((f64 * (key -> view (nE binaryN)) * (key -> nvec binaryN)) + unit) * unit,
  (forall en X f, exists e hx ek, fst (comp en X f) = inl (e, hx, ek) /\ talls binaryN (nan_set FERMI_DIRAC) nan_rows nan_cols hx /\
     forall k, fst (ek k) = S (nan_cols k)) /\
  forall sp, fst (fst (nlcg_us F64 (nan_problem sp comp FERMI_DIRAC) 2 (flit 1 1000000000) (flit 1 10) 10 10 10 nan_start)) = Throw (OtherExn MUndefined).
Proof.
  exists long_compute. split; [|exact long_undefined]. intros en X f.
  exists (fz 0), (fun _ => nan_view 2 1 5), (fun _ => (2, two_levels)). split; [reflexivity|]. split; [|reflexivity].
  intros k Hk. apply nan_shaped; unfold nan_rows, nan_cols; lia.
Qed.
