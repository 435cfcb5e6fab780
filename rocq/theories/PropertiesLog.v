(** The step log nlcg.json (C85). *)
From Coq Require Import Bool ZArith Ascii String Lia Arith List.
From Verif Require Import MVector StepLog StepLogProofs.
Import ListNotations.
Local Open Scope char_scope.

(** * C85: the step log *)
Theorem C85_record_written :
  forall num (show : num -> option text) utf8 d step,
  (forall s, ascii_only s -> utf8 s = true) -> names_ok utf8 d ->
  write_step show utf8 d 0 step = Some (Append (lit "nlcg.json") (dump show (record d step))).
Proof. exact @write_step_rank0. Qed.
Print Assumptions C85_record_written.

Theorem C85_only_rank_0_writes :
  forall num (show : num -> option text) utf8 d rank step, rank <> 0%Z -> write_step show utf8 d rank step = Some Nothing.
Proof. exact @write_step_other. Qed.
Print Assumptions C85_only_rank_0_writes.

Theorem C85_file_contents :
  forall nranks docs old s k, 0 < nranks -> fsteps nranks docs (fstart old) s -> f_pc s 0 = 2 + k ->
  f_file s = match k with O => None | _ => Some (concat (firstn k docs)) end.
Proof. exact file_contents. Qed.
Print Assumptions C85_file_contents.

Theorem C85_read_back :
  forall num (show : num -> option text), show_ok show -> forall l l' : list (step_data num * Z),
  (forall e, In e l -> finite_data show (fst e)) -> (forall e, In e l' -> finite_data show (fst e)) ->
  concat (map (fun e => dump show (record (fst e) (snd e))) l) = concat (map (fun e => dump show (record (fst e) (snd e))) l') ->
  Forall2 same_data l l'.
Proof. exact @log_read_back. Qed.
Print Assumptions C85_read_back.

Theorem C85_documents_separable :
  forall num (show : num -> option text), show_ok show -> forall l l' : list (json num),
  Forall is_obj l -> Forall is_obj l' -> concat (map (dump show) l) = concat (map (dump show) l') ->
  map (norm show) l = map (norm show) l'.
Proof. exact @log_decodes. Qed.
Print Assumptions C85_documents_separable.

Theorem C85_no_line_breaks :
  forall num (show : num -> option text), show_ok show -> forall (j : json num) c, In c (dump show j) -> (32 <= N_of_ascii c)%N.
Proof. exact @dump_plain. Qed.
Print Assumptions C85_no_line_breaks.

Theorem C85_invalid_name_terminates :
  forall num (show : num -> option text) utf8 d step,
  (forall s, ascii_only s -> utf8 s = true) -> ~ names_ok utf8 d -> write_step show utf8 d 0 step = Some Terminate.
Proof. exact @write_step_invalid. Qed.
Print Assumptions C85_invalid_name_terminates.

Theorem C85_file_name_ignored :
  forall num (show : num -> option text) utf8 step f g d active,
  lg_delete show utf8 (MkLogger active f d) = lg_delete show utf8 (MkLogger active g d) /\
  (lg_delete show utf8 (lg_new step f true) = Terminate \/ exists t, lg_delete show utf8 (lg_new step f true) = Append (lit "nlcg.json") t).
Proof. exact @file_name_ignored. Qed.
Print Assumptions C85_file_name_ignored.

(** numbers for the examples: finite ones and two that are not *)
Definition toy := (Z + bool)%type.
Definition toy_show (x : toy) : option text := match x with inl z => Some (show_int z ++ lit ".0") | inr _ => None end.
Definition toy_utf8 (s : text) : bool := forallb (fun c => (N_of_ascii c <? 128)%N) s.
Lemma toy_show_ok : show_ok toy_show.
Proof.
  split.
  - intros [z|b] t E; [|discriminate]. cbn in E. injection E as <-. split; [|split].
    + intros E. apply app_eq_nil in E. destruct E as [_ E]. discriminate.
    + intros c Hc. apply in_app_or in Hc. destruct Hc as [Hc|Hc]; [apply intc_numc; exact (show_int_chars z c Hc)|].
      destruct Hc as [<- | [<- | []]]; reflexivity.
    + exists ".". split; [apply in_or_app; right; left; reflexivity | reflexivity].
  - intros [z|b] [z'|b'] t E E'; try discriminate. cbn in E, E'. injection E as <-. injection E' as E'. f_equal.
    apply app_inv_tail in E'. apply show_int_inj. symmetry. exact E'.
Qed.
Lemma toy_utf8_ok s : ascii_only s -> toy_utf8 s = true.
Proof. intros H. apply forallb_forall. intros c Hc. apply N.ltb_lt. exact (H c Hc). Qed.
Definition toy_data (F : toy) : step_data toy :=
  MkStep F (inl 3%Z) (inl (-1)%Z) (inl (-2)%Z) (inl (-1)%Z) (inl 7%Z) [(lit "ewald", inl 5%Z)]
    [((0%Z, 0%Z), [inl 1%Z; inl 2%Z])] [((0%Z, 0%Z), [inl 2%Z; inl 0%Z])].

(** "a record tells an infinite free energy from one that is not a number" *)
Theorem C85_non_finite_told_apart_refuted :
  exists (d d' : step_data toy), sd_F d <> sd_F d' /\ write_step toy_show toy_utf8 d 0 1 = write_step toy_show toy_utf8 d' 0 1.
Proof. exists (toy_data (inr true)), (toy_data (inr false)). split; [discriminate | reflexivity]. Qed.
Print Assumptions C85_non_finite_told_apart_refuted.

(** "every record holds the band energies" *)
Theorem C85_bands_in_every_record_refuted :
  exists (d d' : step_data toy), sd_ek d <> sd_ek d' /\ write_step toy_show toy_utf8 d 0 1 = write_step toy_show toy_utf8 d' 0 1.
Proof.
  exists (toy_data (inl 0%Z)), (MkStep (inl 0%Z) (inl 3%Z) (inl (-1)%Z) (inl (-2)%Z) (inl (-1)%Z) (inl 7%Z) [(lit "ewald", inl 5%Z)] [] []).
  split; [discriminate | reflexivity].
Qed.
Print Assumptions C85_bands_in_every_record_refuted.

Example C85_example_record :
  show_ok toy_show /\ (forall s, ascii_only s -> toy_utf8 s = true) /\ names_ok toy_utf8 (toy_data (inl 4%Z)) /\ finite_data toy_show (toy_data (inl 4%Z)) /\
  exists t, write_step toy_show toy_utf8 (toy_data (inl 4%Z)) 0 10 = Some (Append (lit "nlcg.json") t) /\
  filter (fun c => negb (Ascii.eqb c quote)) t =
  lit "{EKS:3.0,F:4.0,entropy:-1.0,eta:[{ik:0,ispn:0,value:[1.0,2.0]}],fermi_energy:7.0,fn:[{ik:0,ispn:0,value:[2.0,0.0]}],ks_energy_comps:{ewald:5.0},slope_eta:-1.0,slope_x:-2.0,step:10,type:cg_iteration}".
Proof.
  split; [exact toy_show_ok|]. split; [exact toy_utf8_ok|]. split.
  { intros c [<- | []]. reflexivity. }
  split.
  { unfold finite_data, finite_bands, finite. cbn. repeat (split; [discriminate|]). split; [|split].
    - intros c [<- | []]; discriminate.
    - intros e y [<- | []] [<- | [<- | []]]; discriminate.
    - intros e y [<- | []] [<- | [<- | []]]; discriminate. }
  eexists. split; vm_compute; reflexivity.
Qed.

Example C85_example_invalid :
  let d := MkStep (inl 0%Z) (inl 0%Z) (inl 0%Z) (inl 0%Z) (inl 0%Z) (inl 0%Z) [([ascii_of_N 255], inl 5%Z)] [] [] : step_data toy in
  ~ names_ok toy_utf8 d /\ write_step toy_show toy_utf8 d 0 1 = Some Terminate.
Proof. split; [intros H; discriminate (H _ (or_introl eq_refl)) | reflexivity]. Qed.

(** two ranks: both remove the old file, rank 1 between rank 0's removal and its gather; then two records *)
Example C85_example_schedule :
  exists s, fsteps 2 [lit "{a}"; lit "{b}"] (fstart (Some (lit "old"))) s /\ f_pc s 0 = 2 + 2 /\ f_file s = Some (lit "{a}{b}").
Proof.
  eexists. split; [|split].
  - eapply FTrans. 2: { eapply (FRecord _ _ 0 _ 1 (lit "{b}")); [lia | | reflexivity]. shelve. }
    eapply FTrans. 2: { eapply (FRecord _ _ 0 _ 0 (lit "{a}")); [lia | | reflexivity]. shelve. }
    eapply FTrans. 2: { eapply (FGather _ _ 0); [lia | |]. shelve. shelve. }
    eapply FTrans. 2: { eapply (FRemove _ _ 1); [lia|]. shelve. }
    eapply FTrans. 2: { eapply (FRemove _ _ 0); [lia|]. shelve. }
    apply FRefl.
    Unshelve. all: try reflexivity. intros [|[|q]] Hq; cbn; lia.
  - reflexivity.
  - reflexivity.
Qed.
