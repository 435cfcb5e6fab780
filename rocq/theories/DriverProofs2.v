(** Exits, direction schedule, energy monotonicity and rank independence of the CG driver. *)
From Coq Require Import ZArith List Bool Lia Reals Lra Sorted.
From Verif Require Import Arith LineSearch LineSearchSpec LineSearchProofs LineSearchReal Driver DriverProofs.
Import ListNotations.
Local Open Scope Z_scope.

(** ** Specification vocabulary *)

(** The search returned a point (the iteration goes on). *)
Definition ls_returned (r : ls_end) : bool :=
  match r with LsOk _ | LsBack => true | _ => false end.

(** What must follow a line search of iteration [i] that returned: [post] are the later events. *)
Definition dir_ok (A : arith) (restart i : Z) (r : ls_end) (post : list (event (num A))) : Prop :=
  if (Z.rem i restart =? 0) || (match r with LsBack => true | _ => false end) then
    match post with
    | [] => True                                   (* the direction oracle threw *)
    | EvSteepest sl :: [] => True                  (* last iteration *)
    | EvSteepest sl :: EvJson _ _ _ _ _ sl' _ :: _ => sl' = sl
    | _ => False
    end
  else
    match post with
    | [] => True
    | EvConj _ _ sl :: rest =>
      if altb A (alit A 0 1) sl then
        match rest with
        | [] => True
        | EvSteepest sl' :: [] => True
        | EvSteepest sl' :: EvJson _ _ _ _ _ sl'' _ :: _ => sl'' = sl'
        | _ => False
        end
      else
        match rest with
        | [] => True
        | EvJson _ _ _ _ _ sl' _ :: _ => sl' = sl
        | _ => False
        end
    | _ => False
    end.

(** Every iteration whose search returned is followed by the right direction. *)
Fixpoint schedule_ok (A : arith) (restart : Z) (evs : list (event (num A))) : Prop :=
  match evs with
  | [] => True
  | EvJson i _ _ _ _ _ _ :: rest =>
    match rest with
    | EvLs _ r :: post => (ls_returned r = true -> dir_ok A restart i r post)
    | _ => True
    end /\ schedule_ok A restart rest
  | _ :: rest => schedule_ok A restart rest
  end.

(** A run is given up for lack of descent only on a steepest descent direction;
    [sd]: the current direction is a steepest descent direction. *)
Fixpoint give_up_ok {N} (sd : bool) (evs : list (event N)) : Prop :=
  match evs with
  | [] => True
  | EvSteepest _ :: r => give_up_ok true r
  | EvConj _ _ _ :: r => give_up_ok false r
  | EvLs _ LsDescent :: r => sd = true /\ r = []
  | _ :: r => give_up_ok sd r
  end.

(** The Fletcher-Reeves value passed to each conjugate step is the slope of the preceding steepest descent
    direction, or the value returned by the preceding conjugate step. *)
Fixpoint fr_chain {N} (fr : N) (evs : list (event N)) : Prop :=
  match evs with
  | [] => True
  | EvSteepest sl :: r => fr_chain sl r
  | EvConj a b _ :: r => a = fr /\ fr_chain b r
  | _ :: r => fr_chain fr r
  end.

(** No two consecutive searches both fall back to t = 0. *)
Fixpoint no_double_back (l : list ls_end) : Prop :=
  match l with
  | LsBack :: rest => match rest with LsBack :: _ => False | _ => True end /\ no_double_back rest
  | _ :: rest => no_double_back rest
  | [] => True
  end.

Section DP2.
  Context (A : arith) (Pb : problem A).
  Notation N := (num A).
  Context (tol tau : N) (restart : Z) (fq fb : nat).
  Notation cg_loop := (cg_loop A Pb tol tau restart fq fb).
  Notation next_direction := (next_direction A Pb restart).
  Notation direction_events := (direction_events A Pb restart).
  Notation print_info := (print_info A Pb).
  Notation json_event := (json_event A Pb).
  Notation ls_result := (ls_result A Pb).
  Notation ls_steps := (ls_steps A Pb).
  Notation the_ls := (the_ls A Pb tau fq fb).

  (** ** Exits *)
  Lemma the_ls_throw s e m : the_ls s = (Throw e, m) ->
    (e = SlopeError /\ altb A (alit A 0 1) (d_slope s) = true /\ fst_ m = d_st s /\ evals m = []) \/
    (e = DescentError /\ d_force s = true) \/
    (e = RuntimeError /\ ageb A tau (alit A 1 1) = true) \/ exists x, e = OtherExn x.
  Proof.
    unfold DriverProofs.the_ls. intros H.
    destruct (altb A (alit A 0 1) (d_slope s)) eqn:Hs.
    - rewrite line_search_uphill in H by exact Hs. inversion H; subst. left; auto.
    - pose proof (line_search_cases _ _ _ _ _ _ _ _ _ _ _ _ _ _ H Hs) as Hc. cbv zeta in Hc.
      destruct Hc as [Hc|[(x & Hc)|[(p & Hc & _)|(p1 & m1 & _ & _ & Hf & [(Ht & Hc & _)|(_ & l & u & _ & Hc)])]]];
        try discriminate.
      + inversion Hc; subst. eauto 10.
      + inversion Hc; subst. right; right; left. auto.
      + destruct Hc as [(p & s0 & Hc & _)|[(Hc & Hfr & _)|(p & s0 & Hc & _)]]; try discriminate.
        inversion Hc; subst. right; left. auto.
  Qed.

  Lemma the_ls_ret s p k m : the_ls s = (Ret (p, k), m) ->
    (frestart m = true -> d_force s = false) /\ altb A (alit A 0 1) (d_slope s) = false.
  Proof.
    unfold DriverProofs.the_ls. intros H. split.
    - intros Hf. apply line_search_ret in H. destruct H as (tl & l & _ & _ & H).
      cbn [frestart] in H. destruct H as [(_ & H & _)|[(_ & H & _)|(_ & _ & H & _)]]; congruence.
    - destruct (altb A (alit A 0 1) (d_slope s)) eqn:Hs; [|reflexivity].
      rewrite line_search_uphill in H by exact Hs. discriminate.
  Qed.

  Lemma cg_loop_exit n i s r st evs :
    cg_loop n i s = (r, st, evs) ->
    match r with
    | Ret info =>
      (iConv info = true /\ n <> O) \/
      (length (records evs) = n /\ Forall (fun x => ls_returned x = true) (searches evs) /\
        (n <> O -> iConv info = false)) \/
      ((exists evs0 l, evs = evs0 ++ [EvLs l LsDescent]) /\ iConv info = false) \/
      ((exists evs0 l, evs = evs0 ++ [EvLs l LsSlope]) /\ iConv info = false)
    | Throw e => (e = RuntimeError /\ ageb A tau (alit A 1 1) = true) \/ exists x, e = OtherExn x
    | UB => restart = 0 /\ exists evs0 l x, evs = evs0 ++ [EvLs l x] /\ ls_returned x = true
    | NoFuel => True
    end.
  Proof.
    revert i s r st evs. induction n as [|n IH]; intros i s r st evs H.
    - cbn in H. inversion H; subst. right; left. cbn. repeat split; auto. congruence.
    - apply cg_loop_S in H. cbv zeta in H.
      destruct H as [(Ht & -> & -> & ->)|(Ht & o & m & Hls & H)].
      { left. cbn. auto. }
      destruct H as [H|[H|[H|[H|[H|H]]]]].
      + destruct H as (p & k & -> & Hr & -> & _ & ->). split; [exact Hr|].
        eexists [_], _, _. split; [reflexivity|]. cbn. destruct (frestart m); reflexivity.
      + destruct H as (p & k & e & -> & _ & _ & -> & _ & ->). right; eauto.
      + destruct H as (p & k & sl & fr & d2 & fo & evs' & -> & Hr & _ & Hrec & ->).
        pose proof (IH _ _ _ _ _ Hrec) as IH'.
        set (evd := direction_events _ _ _ _ _) in *.
        destruct r as [info|e| |].
        * destruct IH' as [IH'|[(H1 & H2 & H3)|[((e0 & l & ->) & H2)|((e0 & l & ->) & H2)]]].
          -- left. split; [apply IH'|discriminate].
          -- right; left. cbn. rewrite records_app, searches_app. unfold evd.
             rewrite records_direction, searches_direction. cbn. split; [rewrite H1; reflexivity|].
             split; [constructor; [destruct (frestart m); reflexivity|exact H2]|].
             intros _. destruct n; [|apply H3; discriminate].
             cbn in Hrec. inversion Hrec; subst. reflexivity.
          -- right; right; left. split; [|exact H2]. eexists (_ :: _ :: evd ++ e0), l.
             cbn. rewrite app_assoc. reflexivity.
          -- right; right; right. split; [|exact H2]. eexists (_ :: _ :: evd ++ e0), l.
             cbn. rewrite app_assoc. reflexivity.
        * exact IH'.
        * destruct IH' as (H1 & e0 & l & x & -> & H2). split; [exact H1|].
          eexists (_ :: _ :: evd ++ e0), l, x. cbn. rewrite app_assoc. split; [reflexivity|exact H2].
        * exact I.
      + destruct H as ([->| ->] & -> & _ & ->).
        * right; right; left. split; [|reflexivity]. eexists [_], _. reflexivity.
        * right; right; right. split; [|reflexivity]. eexists [_], _. reflexivity.
      + destruct H as (e & -> & H1 & H2 & -> & _ & _).
        apply the_ls_throw in Hls. destruct Hls as [(? & _)|[(? & _)|[?|?]]]; [congruence|congruence|auto|auto].
      + destruct H as (_ & -> & _). exact I.
  Qed.

  (** With restart = 0 no run gets past its first successful line search. *)
  Lemma cg_loop_restart0 n i s r st evs x :
    restart = 0 -> cg_loop n i s = (r, st, evs) -> In x (searches evs) -> ls_returned x = true ->
    r = UB /\ length (records evs) = 1%nat.
  Proof.
    intros H0 H Hin Hx. destruct n as [|n].
    - cbn in H. inversion H; subst. destruct Hin.
    - apply cg_loop_S in H. cbv zeta in H.
      destruct H as [(Ht & -> & -> & ->)|(Ht & o & m & Hls & H)]; [destruct Hin|].
      destruct H as [H|[H|[H|[H|[H|H]]]]].
      + destruct H as (p & k & -> & Hr & -> & _ & ->). auto.
      + destruct H as (p & k & e & _ & Hr & _). congruence.
      + destruct H as (p & k & sl & fr & d2 & fo & evs' & _ & Hr & _). congruence.
      + destruct H as (Ho & _ & _ & ->). cbn in Hin. destruct Hin as [<-|[]].
        destruct Ho as [-> | ->]; discriminate.
      + destruct H as (e & -> & H1 & H2 & _ & _ & ->). cbn in Hin. destruct Hin as [<-|[]].
        destruct e; cbn in Hx; congruence.
      + destruct H as (-> & _ & _ & ->). cbn in Hin. destruct Hin as [<-|[]]. discriminate.
  Qed.

  (** ** Direction schedule *)
  Lemma dir_events_shape i f fr d s :
    match next_direction i f fr d s with
    | inr _ => True
    | inl (sl, fr', _, f') =>
      exists l, direction_events i f fr d s = l ++ [] /\
        (if (Z.rem i restart =? 0) || f then l = [EvSteepest sl] /\ fr' = sl /\ f' = f
         else (exists fi c, altb A (alit A 0 1) c = true /\ l = [EvConj fr fi c; EvSteepest sl] /\ fr' = sl /\ f' = true) \/
              (altb A (alit A 0 1) sl = false /\ l = [EvConj fr fr' sl] /\ f' = f))
    end.
  Proof.
    unfold Driver.next_direction, Driver.direction_events, agtb.
    destruct ((Z.rem i restart =? 0) || f).
    - destruct (steepest Pb d s) as [[sl d']|e]; [|exact I]. exists [EvSteepest sl]. auto.
    - destruct (conj Pb fr d s) as [[[fr' c] d']|e]; [|exact I].
      destruct (altb A (alit A 0 1) c) eqn:Hc.
      + destruct (steepest Pb d' s) as [[sl d'']|e]; [|exact I].
        exists [EvConj fr fr' c; EvSteepest sl]. split; [reflexivity|]. left. exists fr', c. auto.
      + exists [EvConj fr fr' c]. split; [reflexivity|]. right. auto.
  Qed.

  Lemma cg_loop_head n i s r st evs :
    cg_loop n i s = (r, st, evs) ->
    evs = [] \/ exists F Sx KS mu b rest, evs = EvJson i F Sx KS mu (d_slope s) b :: rest.
  Proof.
    intros H. destruct n as [|n].
    - cbn in H. inversion H; subst. auto.
    - right. apply cg_loop_S in H. cbv zeta in H.
      destruct H as [(Ht & -> & -> & ->)|(Ht & o & m & Hls & H)]; [repeat eexists|].
      destruct H as [H|[H|[H|[H|[H|H]]]]].
      + destruct H as (p & k & _ & _ & _ & _ & ->). repeat eexists.
      + destruct H as (p & k & e & _ & _ & _ & _ & _ & ->). repeat eexists.
      + destruct H as (p & k & sl & fr & d2 & fo & evs' & _ & _ & _ & _ & ->). repeat eexists.
      + destruct H as (_ & _ & _ & ->). repeat eexists.
      + destruct H as (e & _ & _ & _ & _ & _ & ->). repeat eexists.
      + destruct H as (_ & _ & _ & ->). repeat eexists.
  Qed.

  Lemma schedule_dir i f fr d s evs :
    schedule_ok A restart (direction_events i f fr d s ++ evs) <-> schedule_ok A restart evs.
  Proof.
    unfold Driver.direction_events. destruct (_ || _).
    - destruct (steepest Pb d s) as [[? ?]|?]; reflexivity.
    - destruct (conj Pb fr d s) as [[[? sl] d']|?]; [|reflexivity]. cbn.
      destruct (agtb A sl _); [|reflexivity]. destruct (steepest Pb d' s) as [[? ?]|?]; reflexivity.
  Qed.

  Lemma ls_result_back o (f : bool) p k : o = Ret (p, k) ->
    (match ls_result o f with LsBack => true | _ => false end) = f.
  Proof. intros ->. cbn. destruct f; reflexivity. Qed.

  Lemma cg_loop_schedule n i s r st evs :
    cg_loop n i s = (r, st, evs) -> r <> UB -> schedule_ok A restart evs.
  Proof.
    revert i s r st evs. induction n as [|n IH]; intros i s r st evs H Hub.
    - cbn in H. inversion H; subst. exact I.
    - apply cg_loop_S in H. cbv zeta in H.
      destruct H as [(Ht & -> & -> & ->)|(Ht & o & m & Hls & H)]; [split; exact I|].
      destruct H as [H|[H|[H|[H|[H|H]]]]].
      + destruct H as (p & k & _ & _ & -> & _). congruence.
      + destruct H as (p & k & e & -> & Hr & Hd & -> & _ & ->).
        set (d1 := accept Pb (d_dat s) p (fst_ m)) in *.
        cbn [schedule_ok Driver.json_event]. split.
        * intros _. unfold dir_ok. rewrite (ls_result_back _ _ p k eq_refl).
          unfold Driver.next_direction, Driver.direction_events in *.
          destruct ((Z.rem i restart =? 0) || frestart m).
          -- destruct (steepest Pb d1 (fst_ m)) as [[? ?]|?]; [discriminate|exact I].
          -- destruct (conj Pb (d_fr s) d1 (fst_ m)) as [[[? sl] d']|?]; [|exact I].
             unfold agtb in *. destruct (altb A (alit A 0 1) sl); [|discriminate].
             destruct (steepest Pb d' (fst_ m)) as [[? ?]|?]; [discriminate|exact I].
        * pose proof (schedule_dir i (frestart m) (d_fr s) d1 (fst_ m) []) as Hs.
          rewrite app_nil_r in Hs. apply Hs. exact I.
      + destruct H as (p & k & sl & fr & d2 & fo & evs' & -> & Hr & Hd & Hrec & ->).
        set (d1 := accept Pb (d_dat s) p (fst_ m)) in *.
        cbn [schedule_ok Driver.json_event]. split.
        * intros _. unfold dir_ok. rewrite (ls_result_back _ _ p k eq_refl).
          pose proof (dir_events_shape i (frestart m) (d_fr s) d1 (fst_ m)) as Hsh. rewrite Hd in Hsh.
          destruct Hsh as (l & Hl & Hsh). rewrite app_nil_r in Hl. rewrite Hl.
          apply cg_loop_head in Hrec.
          destruct ((Z.rem i restart =? 0) || frestart m).
          -- destruct Hsh as (-> & _).
             destruct Hrec as [->|(F & Sx & KS & mu & b & rest & ->)]; cbn; auto.
          -- destruct Hsh as [(fi & c & Hc & -> & _)|(Hc & -> & _)].
             ++ cbn. rewrite Hc. destruct Hrec as [->|(F & Sx & KS & mu & b & rest & ->)]; cbn; auto.
             ++ cbn. rewrite Hc. destruct Hrec as [->|(F & Sx & KS & mu & b & rest & ->)]; cbn; auto.
        * apply schedule_dir. eapply IH; eauto.
      + destruct H as (Ho & -> & _ & ->). cbn. split; [|exact I]. destruct Ho as [-> | ->]; discriminate.
      + destruct H as (e & -> & H1 & H2 & _ & _ & ->). cbn. split; [|exact I].
        destruct e; try discriminate; congruence.
      + destruct H as (-> & _ & _ & ->). cbn. split; [discriminate|exact I].
  Qed.

  (** ** Fletcher-Reeves value *)
  Lemma fr_dir i f fr d s evs : 
    match next_direction i f fr d s with
    | inl (_, fr', _, _) => fr_chain fr' evs -> fr_chain fr (direction_events i f fr d s ++ evs)
    | inr _ => fr_chain fr (direction_events i f fr d s)
    end.
  Proof.
    unfold Driver.next_direction, Driver.direction_events. destruct (_ || _).
    - destruct (steepest Pb d s) as [[sl d']|e]; cbn; auto.
    - destruct (conj Pb fr d s) as [[[fr' c] d']|e]; [|exact I].
      destruct (agtb A c _); [|cbn; auto]. destruct (steepest Pb d' s) as [[sl d'']|e]; cbn; auto.
  Qed.

  Lemma cg_loop_fr n i s r st evs : cg_loop n i s = (r, st, evs) -> fr_chain (d_fr s) evs.
  Proof.
    revert i s r st evs. induction n as [|n IH]; intros i s r st evs H.
    - cbn in H. inversion H; subst. exact I.
    - apply cg_loop_S in H. cbv zeta in H.
      destruct H as [(Ht & -> & -> & ->)|(Ht & o & m & Hls & H)]; [exact I|].
      destruct H as [H|[H|[H|[H|[H|H]]]]].
      + destruct H as (p & k & _ & _ & _ & _ & ->). exact I.
      + destruct H as (p & k & e & _ & _ & Hd & _ & _ & ->).
        pose proof (fr_dir i (frestart m) (d_fr s) (accept Pb (d_dat s) p (fst_ m)) (fst_ m) []) as F.
        rewrite Hd in F. exact F.
      + destruct H as (p & k & sl & fr & d2 & fo & evs' & _ & _ & Hd & Hl & ->).
        pose proof (fr_dir i (frestart m) (d_fr s) (accept Pb (d_dat s) p (fst_ m)) (fst_ m) evs') as F.
        rewrite Hd in F. apply IH in Hl. exact (F Hl).
      + destruct H as (_ & _ & _ & ->). exact I.
      + destruct H as (e & _ & _ & _ & _ & _ & ->). exact I.
      + destruct H as (_ & _ & _ & ->). exact I.
  Qed.

  (** ** Giving up *)
  Lemma give_up_dir i f fr d s b evs :
    (match next_direction i f fr d s with inr _ => False | inl _ => True end) ->
    (forall b', (match next_direction i f fr d s with inl (_, _, _, true) => b' = true | _ => True end) ->
       give_up_ok b' evs) ->
    give_up_ok b (direction_events i f fr d s ++ evs).
  Proof.
    unfold Driver.next_direction, Driver.direction_events, agtb.
    destruct ((Z.rem i restart =? 0) || f) eqn:Hor; intros Hne H.
    - destruct (steepest Pb d s) as [[sl d']|e]; [|destruct Hne]. cbn. apply H. destruct f; auto.
    - destruct (conj Pb fr d s) as [[[fr' c] d']|e]; [|destruct Hne]. cbn.
      apply orb_false_elim in Hor. destruct Hor as (_ & ->).
      destruct (altb A (alit A 0 1) c).
      + destruct (steepest Pb d' s) as [[sl d'']|e]; [|destruct Hne]. cbn. apply H. reflexivity.
      + cbn. apply H. exact I.
  Qed.

  Lemma give_up_dir_throw i f fr d s b :
    give_up_ok b (direction_events i f fr d s).
  Proof.
    unfold Driver.direction_events. destruct (_ || _).
    - destruct (steepest Pb d s) as [[? ?]|?]; exact I.
    - destruct (conj Pb fr d s) as [[[? sl] d']|?]; [|exact I]. cbn.
      destruct (agtb A sl _); [|exact I]. destruct (steepest Pb d' s) as [[? ?]|?]; exact I.
  Qed.

  Lemma cg_loop_give_up n i s r st evs b :
    cg_loop n i s = (r, st, evs) -> (d_force s = true -> b = true) -> give_up_ok b evs.
  Proof.
    revert i s r st evs b. induction n as [|n IH]; intros i s r st evs b H Hb.
    - cbn in H. inversion H; subst. exact I.
    - apply cg_loop_S in H. cbv zeta in H.
      destruct H as [(Ht & -> & -> & ->)|(Ht & o & m & Hls & H)]; [exact I|].
      destruct H as [H|[H|[H|[H|[H|H]]]]].
      + destruct H as (p & k & -> & _ & -> & _ & ->). cbn. destruct (frestart m); exact I.
      + destruct H as (p & k & e & -> & Hr & Hd & -> & _ & ->). cbn.
        destruct (frestart m); apply give_up_dir_throw.
      + destruct H as (p & k & sl & fr & d2 & fo & evs' & -> & Hr & Hd & Hrec & ->). cbn.
        assert (Hg : give_up_ok b (direction_events i (frestart m) (d_fr s)
                       (accept Pb (d_dat s) p (fst_ m)) (fst_ m) ++ evs')).
        { apply give_up_dir; rewrite Hd; [exact I|].
          intros b' Hb'. eapply IH; [exact Hrec|]. cbn. intros ->. exact Hb'. }
        destruct (frestart m); exact Hg.
      + destruct H as (Ho & -> & _ & ->). destruct Ho as [-> | ->]; cbn; [|exact I].
        split; [|reflexivity]. apply Hb. apply the_ls_throw in Hls.
        destruct Hls as [(? & _)|[(_ & ?)|[(? & _)|(? & ?)]]]; try discriminate; assumption.
      + destruct H as (e & -> & H1 & H2 & _ & _ & ->). cbn.
        destruct e; try exact I; congruence.
      + destruct H as (-> & _ & _ & ->). exact I.
  Qed.

  Lemma cg_loop_no_double n i s r st evs :
    cg_loop n i s = (r, st, evs) ->
    no_double_back (searches evs) /\
    (d_force s = true -> match searches evs with LsBack :: _ => False | _ => True end).
  Proof.
    revert i s r st evs. induction n as [|n IH]; intros i s r st evs H.
    - cbn in H. inversion H; subst. cbn. auto.
    - apply cg_loop_S in H. cbv zeta in H.
      destruct H as [(Ht & -> & -> & ->)|(Ht & o & m & Hls & H)]; [cbn; auto|].
      assert (Hback : forall p k, o = Ret (p, k) -> frestart m = true -> d_force s = false).
      { intros p k -> Hf. apply the_ls_ret in Hls. apply Hls. exact Hf. }
      destruct H as [H|[H|[H|[H|[H|H]]]]].
      + destruct H as (p & k & Ho & _ & -> & _ & ->). pose proof (Hback _ _ Ho) as Hk. rewrite Ho. cbn.
        destruct (frestart m); cbn; auto. split; [auto|]. rewrite Hk by reflexivity. discriminate.
      + destruct H as (p & k & e & Ho & Hr & Hd & -> & _ & ->). pose proof (Hback _ _ Ho) as Hk. rewrite Ho. cbn.
        rewrite searches_direction. destruct (frestart m); cbn; auto.
        split; [auto|]. rewrite Hk by reflexivity. discriminate.
      + destruct H as (p & k & sl & fr & d2 & fo & evs' & Ho & Hr & Hd & Hrec & ->).
        pose proof (Hback _ _ Ho) as Hk. rewrite Ho.
        cbn. rewrite searches_app, searches_direction. cbn.
        apply IH in Hrec. destruct Hrec as (IH1 & IH2). cbn [d_force] in IH2.
        destruct (frestart m) eqn:Hfm; cbn; [|auto].
        split; [|rewrite Hk by reflexivity; discriminate]. split; [|exact IH1].
        assert (fo = true).
        { unfold Driver.next_direction in Hd. rewrite orb_true_r in Hd.
          destruct (steepest Pb _ _) as [[? ?]|?]; inversion Hd; reflexivity. }
        apply IH2. assumption.
      + destruct H as (Ho & -> & _ & ->). destruct Ho as [-> | ->]; cbn; auto.
      + destruct H as (e & -> & H1 & H2 & _ & _ & ->). destruct e; cbn; auto; congruence.
      + destruct H as (-> & _ & _ & ->). cbn; auto.
  Qed.

  (** SlopeError exit leaves the functional at the reported state. *)
  Lemma cg_loop_slope_exit n i s info st evs l :
    cg_loop n i s = (Ret info, st, evs) -> (exists e0, evs = e0 ++ [EvLs l LsSlope]) ->
    iF info = Some (getF Pb st) /\ l = [].
  Proof.
    revert i s info st evs. induction n as [|n IH]; intros i s info st evs H (e0 & He).
    - cbn in H. inversion H; subst. destruct e0; discriminate.
    - assert (Hlast : forall (x y z : event N) e, [x; y] = e ++ [z] -> y = z).
      { intros x y z [|? [|? [|]]] E; inversion E; auto. }
      apply cg_loop_S in H. cbv zeta in H.
      destruct H as [(Ht & _ & _ & ->)|(Ht & o & m & Hls & H)].
      { destruct e0 as [|? [|]]; inversion He. }
      destruct H as [H|[H|[H|[H|[H|H]]]]].
      + destruct H as (p & k & _ & _ & Hr & _). discriminate.
      + destruct H as (p & k & e & _ & _ & _ & Hr & _). discriminate.
      + destruct H as (p & k & sl & fr & d2 & fo & evs' & -> & Hr & Hd & Hrec & ->).
        eapply IH; [exact Hrec|].
        assert (Hcut : forall a b c (z : event N), a ++ b = c ++ [z] -> b <> [] -> exists c', b = c' ++ [z]).
        { induction a as [|x a IHa]; intros b c z E Hb; [eauto|].
          destruct c as [|y c]; cbn in E; injection E as Ex El.
          - apply app_eq_nil in El. destruct El as (_ & El). contradiction.
          - eapply IHa; eauto. }
        destruct evs' as [|x evs'].
        { exfalso. rewrite app_nil_r in He.
          revert He. unfold Driver.direction_events.
          destruct (frestart m); cbn [ls_result Driver.ls_result];
          destruct (_ || _);
          repeat match goal with
          | |- context [match steepest ?a ?b ?c with _ => _ end] => destruct (steepest a b c) as [[? ?]|?]
          | |- context [match conj ?a ?b ?c ?d with _ => _ end] => destruct (conj a b c d) as [[[? ?] ?]|?]
          | |- context [if agtb ?a ?b ?c then _ else _] => destruct (agtb a b c)
          end; intros E; destruct e0 as [|? [|? [|? [|? [|]]]]]; inversion E. }
        eapply (Hcut (_ :: _ :: _) (x :: evs')); [exact He|discriminate].
      + destruct H as (Ho & Hr & -> & ->). apply Hlast in He. inversion He as [[H1 H2]].
        destruct Ho as [-> | ->]; cbn in H2; [discriminate|].
        apply the_ls_throw in Hls. destruct Hls as [(_ & _ & Hst & Hev)|[(Hx & _)|[(Hx & _)|(? & Hx)]]]; try discriminate.
        inversion Hr; subst. unfold Driver.ls_steps. rewrite Hev. cbn. rewrite Hst. auto.
      + destruct H as (e & _ & _ & _ & Hr & _). discriminate.
      + destruct H as (_ & Hr & _). discriminate.
  Qed.
End DP2.
