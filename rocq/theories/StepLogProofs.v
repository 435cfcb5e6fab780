(** Facts about StepLog.v. *)
From Coq Require Import Bool ZArith Ascii String Decimal DecimalString DecimalZ DecimalPos Lia Arith List.
From Verif Require Import MVector StepLog.
Import ListNotations.
Local Open Scope char_scope.

(** ** Texts *)
Definition digit (c : ascii) : bool := (48 <=? N_of_ascii c)%N && (N_of_ascii c <=? 57)%N.
Definition intc (c : ascii) : bool := digit c || Ascii.eqb c "-".
(** characters of numbers *)
Definition numc (c : ascii) : bool := intc c || Ascii.eqb c "+" || Ascii.eqb c "." || Ascii.eqb c "e" || Ascii.eqb c "E".
(** nlohmann's text of a finite double: a decimal number with a point or an exponent from which the double can be recovered *)
Definition show_ok {num} (show : num -> option text) : Prop :=
  (forall x t, show x = Some t -> t <> [] /\ (forall c, In c t -> numc c = true) /\ (exists c, In c t /\ intc c = false)) /\
  (forall x y t, show x = Some t -> show y = Some t -> x = y).

Lemma forall_ascii (P : ascii -> bool) : forallb P (map ascii_of_nat (seq 0 256)) = true -> forall c, P c = true.
Proof.
  intros H c. rewrite forallb_forall in H. apply H. rewrite <- (ascii_nat_embedding c). apply in_map. apply in_seq.
  pose proof (nat_ascii_bounded c). lia.
Qed.

Fixpoint is_prefix (a b : text) : bool :=
  match a, b with [], _ => true | x :: a, y :: b => Ascii.eqb x y && is_prefix a b | _ :: _, [] => false end.
Lemma app_prefix a : forall b r r', a ++ r = b ++ r' -> is_prefix a b = true \/ is_prefix b a = true.
Proof.
  induction a as [|x a IH]; intros [|y b] r r' E; cbn; [left; reflexivity | left; reflexivity | right; reflexivity|].
  cbn in E. injection E as <- E. rewrite Ascii.eqb_refl. cbn. exact (IH _ _ _ E).
Qed.
Lemma esc_code c c' : is_prefix (esc c) (esc c') = true -> c = c'.
Proof.
  assert (H : forall c, forallb (fun c' => implb (is_prefix (esc c) (esc c')) (Ascii.eqb c c')) (map ascii_of_nat (seq 0 256)) = true).
  { apply forall_ascii. vm_compute. reflexivity. }
  specialize (H c). pose proof (forall_ascii _ H c') as G. cbv beta in G. intros P. rewrite P in G. cbn in G. apply Ascii.eqb_eq. exact G.
Qed.
Lemma esc_no_quote c : match esc c with x :: _ => negb (Ascii.eqb x quote) | [] => false end = true.
Proof. revert c. apply forall_ascii. vm_compute. reflexivity. Qed.
Lemma esc_inj s : forall s' r r', concat (map esc s) ++ quote :: r = concat (map esc s') ++ quote :: r' -> s = s' /\ r = r'.
Proof.
  induction s as [|c s IH]; intros [|c' s'] r r' E; cbn [map concat app] in E.
  - injection E as E. split; [reflexivity | exact E].
  - exfalso. pose proof (esc_no_quote c') as Q. rewrite <- app_assoc in E. destruct (esc c') as [|x t]; [discriminate|].
    cbn [app] in E. injection E as E _. rewrite <- E, Ascii.eqb_refl in Q. discriminate.
  - exfalso. pose proof (esc_no_quote c) as Q. rewrite <- app_assoc in E. destruct (esc c) as [|x t]; [discriminate|].
    cbn [app] in E. injection E as E _. rewrite E, Ascii.eqb_refl in Q. discriminate.
  - rewrite <- !app_assoc in E.
    assert (c = c') as <- by (destruct (app_prefix _ _ _ _ E) as [P|P]; [apply esc_code; exact P | symmetry; apply esc_code; exact P]).
    apply app_inv_head in E. apply IH in E. destruct E as [<- <-]. split; reflexivity.
Qed.
Lemma show_str_inj s s' r r' : show_str s ++ r = show_str s' ++ r' -> s = s' /\ r = r'.
Proof.
  unfold show_str. cbn [app]. rewrite <- !app_assoc. cbn [app]. intros E. injection E as E. exact (esc_inj _ _ _ _ E).
Qed.

(** numbers end at the first other character *)
Definition delim (r : text) : Prop := match r with [] => True | c :: _ => numc c = false end.
Lemma token_inj t : forall t' r r', (forall c, In c t -> numc c = true) -> (forall c, In c t' -> numc c = true) -> delim r -> delim r' ->
  t ++ r = t' ++ r' -> t = t' /\ r = r'.
Proof.
  induction t as [|c t IH]; intros [|c' t'] r r' H H' D D' E; cbn in E.
  - split; [reflexivity | exact E].
  - exfalso. subst r. cbn in D. rewrite (H' c' (or_introl eq_refl)) in D. discriminate.
  - exfalso. subst r'. cbn in D'. rewrite (H c (or_introl eq_refl)) in D'. discriminate.
  - injection E as <- E. destruct (IH t' r r' (fun x Hx => H x (or_intror Hx)) (fun x Hx => H' x (or_intror Hx)) D D' E) as [<- <-].
    split; reflexivity.
Qed.

Lemma intc_numc c : intc c = true -> numc c = true.
Proof. unfold numc. intros ->. reflexivity. Qed.
Lemma uint_chars d : forall c, In c (lit (NilEmpty.string_of_uint d)) -> intc c = true.
Proof.
  unfold lit. induction d as [|d IH|d IH|d IH|d IH|d IH|d IH|d IH|d IH|d IH|d IH]; cbn [NilEmpty.string_of_uint list_ascii_of_string];
    intros c Hc; [destruct Hc| | | | | | | | | |]; (destruct Hc as [<- | Hc]; [reflexivity | exact (IH c Hc)]).
Qed.
Lemma uint_chars0 d : forall c, In c (lit (NilZero.string_of_uint d)) -> intc c = true.
Proof. intros c. destruct d; try exact (uint_chars _ c). cbn. intros [<- | []]. reflexivity. Qed.
Lemma show_int_chars z c : In c (show_int z) -> intc c = true.
Proof.
  unfold show_int. destruct (Z.to_int z) as [d|d]; cbn [NilZero.string_of_int]; [exact (uint_chars0 d c)|].
  cbn [lit list_ascii_of_string]. intros [<- | H]; [reflexivity | exact (uint_chars0 d c H)].
Qed.
Lemma lit_inj s s' : lit s = lit s' -> s = s'.
Proof. intros E. rewrite <- (string_of_list_ascii_of_string s), <- (string_of_list_ascii_of_string s'). unfold lit in E. rewrite E. reflexivity. Qed.
Lemma to_int_nonnil z : Z.to_int z <> Decimal.Pos Decimal.Nil /\ Z.to_int z <> Decimal.Neg Decimal.Nil.
Proof.
  destruct z as [|p|p]; cbn; split; try discriminate; intros E; injection E as E; exact (Unsigned.to_uint_nonnil p E).
Qed.
Lemma show_int_inj z z' : show_int z = show_int z' -> z = z'.
Proof.
  unfold show_int. intros E. apply lit_inj in E.
  destruct (to_int_nonnil z) as [A B]. destruct (to_int_nonnil z') as [A' B'].
  pose proof (NilZero.isi (Z.to_int z) A B) as I1. pose proof (NilZero.isi (Z.to_int z') A' B') as I2. rewrite E, I2 in I1. injection I1 as I1.
  rewrite <- (DecimalZ.of_to z), <- (DecimalZ.of_to z'). rewrite I1. reflexivity.
Qed.
Lemma show_int_nonempty z : show_int z <> [].
Proof.
  unfold show_int, lit. destruct (to_int_nonnil z) as [A B]. destruct (Z.to_int z) as [d|d]; cbn [NilZero.string_of_int]; [|discriminate].
  destruct d; [congruence | | | | | | | | | |]; discriminate.
Qed.

(** ** Sequences *)
Definition decodes {A} (P : A -> Prop) (code : A -> text) (x : A) : Prop :=
  forall y r r', P y -> delim r -> delim r' -> code x ++ r = code y ++ r' -> x = y /\ r = r'.
Lemma sepd_cons x l : sepd (x :: l) = x ++ match l with [] => [] | _ => "," :: sepd l end.
Proof. destruct l; cbn; [rewrite app_nil_r|]; reflexivity. Qed.
Lemma seq_inj {A} (P : A -> Prop) (code : A -> text) close : numc close = false -> close <> "," ->
  (forall x, P x -> match code x with [] => False | c :: _ => c <> close end) ->
  forall l, (forall x, In x l -> P x /\ decodes P code x) -> forall l' r r', (forall x, In x l' -> P x) ->
  sepd (map code l) ++ close :: r = sepd (map code l') ++ close :: r' -> l = l' /\ r = r'.
Proof.
  intros Hn Hc Hf. induction l as [|x l IH]; intros Hl [|y l'] r r' Hl' E.
  - cbn in E. injection E as <-. split; reflexivity.
  - exfalso. cbn [map] in E. rewrite (sepd_cons (code y)) in E. specialize (Hf y (Hl' y (or_introl eq_refl))). destruct (code y); [exact Hf|].
    cbn in E. injection E as E _. congruence.
  - exfalso. cbn [map] in E. rewrite (sepd_cons (code x)) in E. specialize (Hf x (proj1 (Hl x (or_introl eq_refl)))). destruct (code x); [exact Hf|].
    cbn in E. injection E as E _. congruence.
  - cbn [map] in E. rewrite !sepd_cons, <- !app_assoc in E.
    destruct (Hl x (or_introl eq_refl)) as [Px Dx].
    apply (Dx y) in E; [| apply Hl'; left; reflexivity | |].
    + destruct E as [<- E].
      assert (Hr : forall z, In z l -> P z /\ decodes P code z) by (intros z Hz; apply Hl; right; exact Hz).
      assert (Hr' : forall z, In z l' -> P z) by (intros z Hz; apply Hl'; right; exact Hz).
      specialize (IH Hr l' r r' Hr'). destruct l as [|a l]; destruct l' as [|b l']; cbn [map app] in E.
      * injection E as <-. split; reflexivity.
      * injection E as E _. congruence.
      * injection E as E _. congruence.
      * injection E as E. cbn [map] in IH. destruct (IH E) as [<- <-]. split; reflexivity.
    + destruct l; cbn; [exact Hn | reflexivity].
    + destruct l'; cbn; [exact Hn | reflexivity].
Qed.

(** ** JSON values *)
Section Values.
  Context {num : Type} (show : num -> option text) (utf8 : text -> bool) (Hs : show_ok show).
  Notation json := (json num).

  (** what can be recovered: numbers that are not finite read as null *)
  Fixpoint norm (j : json) : json :=
    match j with
    | JNum x => match show x with Some _ => JNum x | None => JNull end
    | JArr l => JArr (map norm l)
    | JObj l => JObj (map (fun m => (fst m, norm (snd m))) l)
    | _ => j
    end.
  Fixpoint normal (j : json) : Prop :=
    match j with
    | JNum x => show x <> None
    | JArr l => fold_right (fun x P => normal x /\ P) True l
    | JObj l => fold_right (fun m P => normal (snd m) /\ P) True l
    | _ => True
    end.
  Fixpoint size (j : json) : nat :=
    match j with
    | JArr l => S (fold_right (fun x n => size x + n) 0%nat l)
    | JObj l => S (fold_right (fun m n => size (snd m) + n) 0%nat l)
    | _ => 1%nat
    end.
  Lemma size_in_arr l x : In x l -> (size x < size (JArr l))%nat.
  Proof. cbn. induction l as [|y l IH]; intros H; [destruct H|]. destruct H as [<- | H]; cbn; [lia | specialize (IH H); lia]. Qed.
  Lemma size_in_obj l m : In m l -> (size (snd m) < size (JObj l))%nat.
  Proof. cbn. induction l as [|y l IH]; intros H; [destruct H|]. destruct H as [<- | H]; cbn; [lia | specialize (IH H); lia]. Qed.
  Lemma json_size_ind (P : json -> Prop) : (forall j, (forall j', (size j' < size j)%nat -> P j') -> P j) -> forall j, P j.
  Proof.
    intros H j. assert (G : forall n j, (size j < n)%nat -> P j).
    { induction n as [|n IH]; intros j0 Hj; [lia|]. apply H. intros j' Hj'. apply IH. lia. }
    exact (G (S (size j)) j (Nat.lt_succ_diag_r _)).
  Qed.
  Lemma normal_arr l : normal (JArr l) <-> forall x, In x l -> normal x.
  Proof. cbn. induction l as [|y l IH]; cbn; [split; [intros _ x [] | auto]|]. rewrite IH. split; [intros [A B] x [<- | H]; auto | intros H; split; [apply H; left; reflexivity | intros x Hx; apply H; right; exact Hx]]. Qed.
  Lemma normal_obj l : normal (JObj l) <-> forall m, In m l -> normal (snd m).
  Proof. cbn. induction l as [|y l IH]; cbn; [split; [intros _ x [] | auto]|]. rewrite IH. split; [intros [A B] x [<- | H]; auto | intros H; split; [apply H; left; reflexivity | intros x Hx; apply H; right; exact Hx]]. Qed.

  Lemma norm_normal j : normal (norm j).
  Proof.
    induction j as [j IH] using json_size_ind. destruct j as [|z|x|s|l|l]; cbn [norm]; try exact I.
    - destruct (show x) eqn:E; cbn; [congruence | exact I].
    - apply normal_arr. intros y Hy. apply in_map_iff in Hy. destruct Hy as (x & <- & Hx). apply IH. apply size_in_arr. exact Hx.
    - apply normal_obj. intros y Hy. apply in_map_iff in Hy. destruct Hy as (x & <- & Hx). apply IH. apply size_in_obj. exact Hx.
  Qed.
  Lemma dump_norm j : dump show (norm j) = dump show j.
  Proof.
    induction j as [j IH] using json_size_ind. destruct j as [|z|x|s|l|l]; cbn [norm dump]; try reflexivity.
    - destruct (show x) eqn:E; cbn; [rewrite E|]; reflexivity.
    - do 3 f_equal. rewrite map_map. apply map_ext_in. intros x Hx. apply IH. apply size_in_arr. exact Hx.
    - do 3 f_equal. rewrite map_map. apply map_ext_in. intros x Hx. cbn [fst snd]. rewrite (IH (snd x) (size_in_obj l x Hx)). reflexivity.
  Qed.

  (** kinds of values by their first character *)
  Definition kind (c : ascii) : nat :=
    if Ascii.eqb c "n" then 0 else if numc c then 1 else if Ascii.eqb c quote then 2 else if Ascii.eqb c "[" then 3 else if Ascii.eqb c "{" then 4 else 5.
  Definition jkind (j : json) : nat := match j with JNull => 0 | JInt _ | JNum _ => 1 | JStr _ => 2 | JArr _ => 3 | JObj _ => 4 end.
  Lemma kind_num c : numc c = true -> kind c = 1%nat.
  Proof.
    assert (H : forall c, implb (numc c) (Nat.eqb (kind c) 1) = true) by (apply forall_ascii; vm_compute; reflexivity).
    intros Hc. specialize (H c). rewrite Hc in H. cbn in H. apply Nat.eqb_eq. exact H.
  Qed.
  Lemma dump_first j : normal j -> exists c t, dump show j = c :: t /\ kind c = jkind j.
  Proof.
    destruct j as [|z|x|s|l|l]; cbn [dump jkind]; intros Hj.
    - eexists _, _. split; reflexivity.
    - destruct (show_int z) as [|c t] eqn:E; [exfalso; exact (show_int_nonempty z E)|]. exists c, t. split; [reflexivity|].
      apply kind_num, intc_numc, (show_int_chars z). rewrite E. left. reflexivity.
    - cbn in Hj. destruct (show x) as [t|] eqn:E; [|congruence]. destruct (proj1 Hs x t E) as (Hn & Hc & _).
      destruct t as [|c t]; [congruence|]. exists c, t. split; [reflexivity|]. apply kind_num, Hc. left. reflexivity.
    - eexists _, _. split; reflexivity.
    - eexists _, _. split; reflexivity.
    - eexists _, _. split; reflexivity.
  Qed.
  Lemma dump_kind x y r r' : normal x -> normal y -> dump show x ++ r = dump show y ++ r' -> jkind x = jkind y.
  Proof.
    intros Hx Hy E. destruct (dump_first x Hx) as (c & t & Ex & Kx). destruct (dump_first y Hy) as (c' & t' & Ey & Ky).
    rewrite Ex, Ey in E. cbn in E. injection E as E _. congruence.
  Qed.
  Lemma dump_not_close j c : normal j -> kind c = 5%nat -> match dump show j with [] => False | x :: _ => x <> c end.
  Proof.
    intros Hj Hc. destruct (dump_first j Hj) as (x & t & E & K). rewrite E. intros ->. rewrite Hc in K. destruct j; discriminate K.
  Qed.

  Theorem dump_decodes x : normal x -> decodes normal (dump show) x.
  Proof.
    induction x as [x IH] using json_size_ind. intros Hx y r r' Hy D D' E. pose proof (dump_kind _ _ _ _ Hx Hy E) as K.
    assert (T : forall u t, show u = Some t -> forall c, In c t -> numc c = true) by (intros u t Hu; apply (proj1 Hs u t Hu)).
    destruct x as [|z|u|s|l|l]; destruct y as [|z'|u'|s'|l'|l']; try discriminate K; cbn [dump] in E.
    - apply app_inv_head in E. split; [reflexivity | exact E].
    - destruct (token_inj _ _ _ _ (fun c H => intc_numc c (show_int_chars z c H)) (fun c H => intc_numc c (show_int_chars z' c H)) D D' E) as [A ->].
      apply show_int_inj in A. subst. split; reflexivity.
    - exfalso. cbn in Hy. destruct (show u') as [t|] eqn:Eu; [|congruence].
      destruct (token_inj _ _ _ _ (fun c H => intc_numc c (show_int_chars z c H)) (T _ _ Eu) D D' E) as [A _].
      destruct (proj1 Hs u' t Eu) as (_ & _ & c & Hc & Hi). subst t. rewrite (show_int_chars z c Hc) in Hi. discriminate.
    - exfalso. cbn in Hx. destruct (show u) as [t|] eqn:Eu; [|congruence].
      destruct (token_inj _ _ _ _ (T _ _ Eu) (fun c H => intc_numc c (show_int_chars z' c H)) D D' E) as [A _].
      destruct (proj1 Hs u t Eu) as (_ & _ & c & Hc & Hi). subst t. rewrite (show_int_chars z' c Hc) in Hi. discriminate.
    - cbn in Hx, Hy. destruct (show u) as [t|] eqn:Eu; [|congruence]. destruct (show u') as [t'|] eqn:Eu'; [|congruence].
      destruct (token_inj _ _ _ _ (T _ _ Eu) (T _ _ Eu') D D' E) as [A ->]. subst t'.
      rewrite (proj2 Hs u u' t Eu Eu'). split; reflexivity.
    - destruct (show_str_inj _ _ _ _ E) as [-> ->]. split; reflexivity.
    - cbn [app] in E. rewrite <- !app_assoc in E. cbn [app] in E. injection E as E. rewrite normal_arr in Hx, Hy.
      destruct (seq_inj normal (dump show) "]" eq_refl ltac:(discriminate) (fun j Hj => dump_not_close j "]" Hj eq_refl) l
        (fun j Hj => Logic.conj (Hx j Hj) (IH j (size_in_arr l j Hj) (Hx j Hj))) l' r r' Hy E) as [-> ->]. split; reflexivity.
    - cbn [app] in E. rewrite <- !app_assoc in E. cbn [app] in E. injection E as E. rewrite normal_obj in Hx, Hy.
      destruct (seq_inj (fun m : text * json => normal (snd m)) (fun m => show_str (fst m) ++ ":" :: dump show (snd m)) "}" eq_refl ltac:(discriminate)) with (l := l) (l' := l') (r := r) (r' := r') as [-> ->].
      + intros m Hm. cbn. discriminate.
      + intros m Hm. split; [exact (Hx m Hm)|]. intros m' q q' Pm' Dq Dq' Em. cbv beta in Em. rewrite <- !app_assoc in Em. destruct (show_str_inj _ _ _ _ Em) as [F G].
        cbn [app] in G. injection G as G. destruct (IH (snd m) (size_in_obj l m Hm) (Hx m Hm) (snd m') q q' Pm' Dq Dq' G) as [F2 ->].
        split; [|reflexivity]. destruct m as [k1 v1], m' as [k2 v2]. cbn in F, F2. subst. reflexivity.
      + exact Hy.
      + exact E.
      + split; reflexivity.
  Qed.

  (** ** The log can be read back *)
  Definition is_obj (j : json) : Prop := match j with JObj _ => True | _ => False end.
  Theorem log_decodes l : forall l', Forall is_obj l -> Forall is_obj l' ->
    concat (map (dump show) l) = concat (map (dump show) l') -> map norm l = map norm l'.
  Proof.
    assert (Dl : forall l, Forall is_obj l -> delim (concat (map (dump show) l))).
    { intros [|j l0] H; [exact I|]. inversion H as [|? ? Ha]. destruct j; try destruct Ha. reflexivity. }
    induction l as [|x l IH]; intros [|y l'] H H' E.
    - reflexivity.
    - exfalso. inversion H' as [|? ? Ha]. destruct y; try destruct Ha. cbn in E. discriminate.
    - exfalso. inversion H as [|? ? Ha]. destruct x; try destruct Ha. cbn in E. discriminate.
    - inversion H as [|? ? Hx Hl]; inversion H' as [|? ? Hy Hl']; subst. cbn [map concat] in E. rewrite <- (dump_norm x), <- (dump_norm y) in E.
      destruct (dump_decodes (norm x) (norm_normal x) (norm y) _ _ (norm_normal y) (Dl l Hl) (Dl l' Hl') E) as [F G].
      cbn [map]. f_equal; [exact F | apply IH; assumption].
  Qed.
End Values.

(** ** Contents of a record *)
Section Record.
  Context {num : Type} (show : num -> option text) (utf8 : text -> bool).
  Notation json := (json num).
  Implicit Types (m : list (text * json)).

  Lemma teqb_eq a : forall b, teqb a b = true <-> a = b.
  Proof.
    induction a as [|x a IH]; intros [|y b]; cbn; split; intros H; try discriminate; try reflexivity.
    - apply andb_true_iff in H. destruct H as [H1 H2]. apply Ascii.eqb_eq in H1. apply IH in H2. subst. reflexivity.
    - injection H as <- <-. rewrite Ascii.eqb_refl. apply IH. reflexivity.
  Qed.
  Lemma teqb_refl a : teqb a a = true.
  Proof. apply teqb_eq. reflexivity. Qed.
  Lemma oget_oset k v m : oget k (oset k v m) = Some v.
  Proof.
    induction m as [|[k' v'] m IH]; cbn; [rewrite teqb_refl; reflexivity|]. destruct (teqb k k') eqn:E; cbn; [rewrite teqb_refl; reflexivity|].
    destruct (tltb k k'); cbn; [rewrite teqb_refl; reflexivity | rewrite E; exact IH].
  Qed.
  Lemma oset_oset k v w m : oset k w (oset k v m) = oset k w m.
  Proof.
    induction m as [|[k' v'] m IH]; cbn; [rewrite teqb_refl; reflexivity|]. destruct (teqb k k') eqn:E; cbn.
    - rewrite teqb_refl. reflexivity.
    - destruct (tltb k k') eqn:L; cbn; [rewrite teqb_refl; reflexivity | rewrite E, L, IH; reflexivity].
  Qed.
  Lemma entries_after k x : forall l m, lg_entries k x (oset k (JArr l) m) = Some (oset k (JArr (l ++ map band_entry x)) m).
  Proof.
    induction x as [|e x IH]; intros l m; cbn [lg_entries map]; [rewrite app_nil_r; reflexivity|].
    unfold oadd. rewrite oget_oset, oset_oset, IH, <- app_assoc. reflexivity.
  Qed.
  Lemma entries_new k x m : oget k m = None ->
    lg_entries k x m = Some (match x with [] => m | _ => oset k (JArr (map band_entry x)) m end).
  Proof.
    intros H. destruct x as [|e x]; [reflexivity|]. cbn [lg_entries]. unfold oadd. rewrite H. apply entries_after.
  Qed.

  (** the members of a record *)
  Definition bands (k : string) (x : list (key * list num)) : list (text * json) :=
    match x with [] => [] | _ => [(lit k, JArr (map (fun e => JObj [(lit "ik", JInt (fst (fst e))); (lit "ispn", JInt (snd (fst e))); (lit "value", JArr (map JNum (snd e)))]) x))] end.
  Definition record (d : step_data num) (step : Z) : json :=
    JObj ([(lit "EKS", JNum (sd_EKS d)); (lit "F", JNum (sd_F d)); (lit "entropy", JNum (sd_entropy d))]
          ++ (if (Z.rem step 10 =? 0)%Z then bands "eta" (sd_ek d) else [])
          ++ [(lit "fermi_energy", JNum (sd_mu d))]
          ++ (if (Z.rem step 10 =? 0)%Z then bands "fn" (sd_fn d) else [])
          ++ [(lit "ks_energy_comps", JObj (map (fun c => (fst c, JNum (snd c))) (sd_comps d)));
              (lit "slope_eta", JNum (sd_slope_eta d)); (lit "slope_x", JNum (sd_slope_x d)); (lit "step", JInt step); (lit "type", JStr (lit "cg_iteration"))]).
  Lemma step_logger_ok d step : step_logger d 0 step = Some (MkLogger true (lit "nlcg.json") (match record d step with JObj m => m | _ => [] end)).
  Proof.
    unfold step_logger, record. destruct (Z.rem step 10 =? 0)%Z; [|reflexivity].
    unfold lg_new, lg_log, lg_bands. cbn [Z.eqb lg_active lg_dict lg_file].
    rewrite entries_new by reflexivity. cbn [lg_active lg_dict lg_file].
    rewrite entries_new by (destruct (sd_ek d); reflexivity).
    destruct (sd_ek d) as [|e ek]; destruct (sd_fn d) as [|f fn]; reflexivity.
  Qed.

  Definition ascii_only (s : text) : Prop := forall c, In c s -> (N_of_ascii c < 128)%N.
  (** names of energy components are valid *)
  Definition names_ok (d : step_data num) : Prop := forall c, In c (sd_comps d) -> utf8 (fst c) = true.
  Lemma ascii_lit s : forallb (fun c => (N_of_ascii c <? 128)%N) (lit s) = true -> ascii_only (lit s).
  Proof. intros H c Hc. rewrite forallb_forall in H. apply N.ltb_lt. exact (H c Hc). Qed.
  Lemma nums_dumpable (l : list num) : forallb (dumpable utf8) (map JNum l) = true.
  Proof. apply forallb_forall. intros x Hx. apply in_map_iff in Hx. destruct Hx as (y & <- & _). reflexivity. Qed.
  Lemma record_dumpable d step : (forall s, ascii_only s -> utf8 s = true) ->
    (dumpable utf8 (record d step) = true <-> names_ok d).
  Proof.
    intros HA.
    assert (L : forall s, forallb (fun c => (N_of_ascii c <? 128)%N) (lit s) = true -> utf8 (lit s) = true) by (intros s H; apply HA, ascii_lit, H).
    assert (B : forall k x, utf8 (lit k) = true -> forallb (fun m : text * json => utf8 (fst m) && dumpable utf8 (snd m)) (bands k x) = true).
    { intros k [|e x] Hk; [reflexivity|]. unfold bands. cbn [forallb fst snd]. rewrite Hk. cbn [andb]. rewrite andb_true_r.
      change (dumpable utf8 (JArr ?l)) with (forallb (dumpable utf8) l).
      apply forallb_forall. intros j Hj. apply in_map_iff in Hj. destruct Hj as (y & <- & _). cbn [dumpable forallb fst snd].
      rewrite !L by reflexivity. rewrite nums_dumpable. reflexivity. }
    unfold record. cbn [dumpable]. rewrite !forallb_app. cbn [forallb fst snd dumpable]. rewrite !L by reflexivity.
    assert (E : forall k x, utf8 (lit k) = true -> forallb (fun m : text * json => utf8 (fst m) && dumpable utf8 (snd m)) (if (Z.rem step 10 =? 0)%Z then bands k x else []) = true).
    { intros k x Hk. destruct (Z.rem step 10 =? 0)%Z; [exact (B k x Hk) | reflexivity]. }
    rewrite !E by (apply L; reflexivity). cbn [andb]. rewrite !andb_true_r. unfold names_ok. rewrite forallb_forall.
    split.
    - intros H c Hc. specialize (H (fst c, JNum (snd c)) (in_map _ _ _ Hc)). cbn in H. rewrite andb_true_r in H. exact H.
    - intros H m Hm. apply in_map_iff in Hm. destruct Hm as (c & <- & Hc). cbn. rewrite andb_true_r. exact (H c Hc).
  Qed.

  Theorem write_step_rank0 d step : (forall s, ascii_only s -> utf8 s = true) -> names_ok d ->
    write_step show utf8 d 0 step = Some (Append (lit "nlcg.json") (dump show (record d step))).
  Proof.
    intros HA HN. unfold write_step. rewrite step_logger_ok. unfold option_map, lg_delete. cbn [lg_active lg_dict].
    change (JObj (match record d step with JObj m => m | _ => [] end)) with (record d step).
    rewrite (proj2 (record_dumpable d step HA) HN). reflexivity.
  Qed.
  Theorem write_step_invalid d step : (forall s, ascii_only s -> utf8 s = true) -> ~ names_ok d -> write_step show utf8 d 0 step = Some Terminate.
  Proof.
    intros HA HN. unfold write_step. rewrite step_logger_ok. unfold option_map, lg_delete. cbn [lg_active lg_dict].
    change (JObj (match record d step with JObj m => m | _ => [] end)) with (record d step).
    destruct (dumpable utf8 (record d step)) eqn:E; [exfalso; apply HN; apply (record_dumpable d step HA); exact E | reflexivity].
  Qed.
  Theorem write_step_other d rank step : rank <> 0%Z -> write_step show utf8 d rank step = Some Nothing.
  Proof.
    intros H. unfold write_step, step_logger, lg_new. apply Z.eqb_neq in H. rewrite H. unfold lg_log, lg_bands. cbn [lg_active].
    destruct (Z.rem step 10 =? 0)%Z; reflexivity.
  Qed.
  (** the file name given to the constructor is not used *)
  Theorem file_name_ignored step f g d active :
    lg_delete show utf8 (MkLogger active f d) = lg_delete show utf8 (MkLogger active g d) /\ (lg_delete show utf8 (lg_new step f true) = Terminate \/ exists t, lg_delete show utf8 (lg_new step f true) = Append (lit "nlcg.json") t).
  Proof.
    split; [reflexivity|]. unfold lg_delete. cbn [lg_new lg_active]. destruct (dumpable _ _); [right; eexists; reflexivity | left; reflexivity].
  Qed.
End Record.

(** ** The file *)
Definition finv (nranks : nat) (docs : list text) (s : fstate) : Prop :=
  ((2 <= f_pc s 0)%nat -> (forall q, (q < nranks)%nat -> (1 <= f_pc s q)%nat)) /\ ((forall q, (q < nranks)%nat -> (1 <= f_pc s q)%nat) ->
   f_file s = match (f_pc s 0 - 2)%nat with O => None | S k => Some (concat (firstn (S k) docs)) end).
Lemma firstn_snoc {X} (l : list X) k d : nth_error l k = Some d -> firstn (S k) l = firstn k l ++ [d].
Proof.
  revert l. induction k as [|k IH]; intros [|x l] E; try discriminate; [cbn in E; injection E as ->; reflexivity|].
  cbn [firstn app]. rewrite <- (IH l E). reflexivity.
Qed.
Lemma finv_step nranks docs s s' : (0 < nranks)%nat -> finv nranks docs s -> fstep nranks docs s s' -> finv nranks docs s'.
Proof.
  intros Hn [I1 I2] H. destruct H as [r s Hr Hp | r s Hr Hp Hall | r s k d Hr Hp Hd]; unfold finv; cbn [f_pc f_file].
  - assert (P0 : (f_pc s 0 < 2)%nat).
    { destruct (le_lt_dec 2 (f_pc s 0)) as [L|L]; [|exact L]. specialize (I1 L r Hr). lia. }
    split.
    + intros L. exfalso. destruct (Nat.eqb 0 r); lia.
    + intros _. replace ((if Nat.eqb 0 r then 1 else f_pc s 0) - 2)%nat with 0%nat by (destruct (Nat.eqb 0 r); lia). reflexivity.
  - split; [intros _ q Hq; destruct (Nat.eqb q r); [lia | apply Hall; exact Hq]|]. intros _. rewrite (I2 Hall).
    destruct (Nat.eqb_spec 0 r) as [<- | N]; [rewrite Hp|]; reflexivity.
  - assert (Hall : (2 <= f_pc s 0)%nat -> forall q, (q < nranks)%nat -> (1 <= if Nat.eqb q r then S (S (S k)) else f_pc s q)%nat).
    { intros L q Hq. destruct (Nat.eqb q r); [lia | exact (I1 L q Hq)]. }
    destruct (Nat.eqb_spec 0 r) as [<- | N].
    + cbn [Nat.eqb]. split; [intros _; apply Hall; lia|]. intros _.
      assert (L : (2 <= f_pc s 0)%nat) by lia. rewrite (I2 (I1 L)), Hp. cbn [Nat.sub].
      rewrite (firstn_snoc docs k d Hd), concat_app. cbn [concat]. rewrite app_nil_r. rewrite Nat.sub_0_r.
      destruct k as [|k]; reflexivity.
    + assert (E : Nat.eqb r 0 = false) by (apply Nat.eqb_neq; lia). rewrite E. split; [exact Hall|].
      intros Hq. apply I2. intros q Hlt. specialize (Hq q Hlt). destruct (Nat.eqb_spec q r) as [Eq | _]; [rewrite Eq; lia | exact Hq].
Qed.
(** whatever the schedule and whatever the file held before, once rank 0 has written k records the file holds these *)
Theorem file_contents nranks docs old s k : (0 < nranks)%nat -> fsteps nranks docs (fstart old) s -> f_pc s 0 = (2 + k)%nat ->
  f_file s = match k with O => None | _ => Some (concat (firstn k docs)) end.
Proof.
  intros Hn H Hk. assert (I : finv nranks docs s).
  { clear Hk. remember (fstart old) as s0 eqn:E0. induction H as [s|s1 s2 s3 H12 IH H23]; subst.
    - split; cbn; [lia | intros Hq; specialize (Hq 0%nat Hn); lia].
    - exact (finv_step nranks docs s2 s3 Hn (IH eq_refl) H23). }
  destruct I as [I1 I2]. rewrite (I2 (I1 ltac:(lia))), Hk. replace (2 + k - 2)%nat with k by lia. destruct k; reflexivity.
Qed.

(** ** Reading the records *)
Section Reading.
  Context {num : Type} (show : num -> option text) (Hs : show_ok show).
  Notation json := (json num).
  Definition finite (x : num) : Prop := show x <> None.
  Definition finite_bands (x : list (key * list num)) : Prop := forall e y, In e x -> In y (snd e) -> finite y.
  Definition finite_data (d : step_data num) : Prop :=
    finite (sd_F d) /\ finite (sd_EKS d) /\ finite (sd_entropy d) /\ finite (sd_slope_x d) /\ finite (sd_slope_eta d) /\ finite (sd_mu d) /\
    (forall c, In c (sd_comps d) -> finite (snd c)) /\ finite_bands (sd_ek d) /\ finite_bands (sd_fn d).
  (** what two records have in common if they look the same *)
  Definition same_data (a b : step_data num * Z) : Prop :=
    snd a = snd b /\ sd_F (fst a) = sd_F (fst b) /\ sd_EKS (fst a) = sd_EKS (fst b) /\ sd_entropy (fst a) = sd_entropy (fst b) /\
    sd_slope_x (fst a) = sd_slope_x (fst b) /\ sd_slope_eta (fst a) = sd_slope_eta (fst b) /\ sd_mu (fst a) = sd_mu (fst b) /\
    sd_comps (fst a) = sd_comps (fst b) /\
    ((Z.rem (snd a) 10 = 0)%Z -> sd_ek (fst a) = sd_ek (fst b) /\ sd_fn (fst a) = sd_fn (fst b)).

  Lemma norm_id (j : json) : normal show j -> norm show j = j.
  Proof.
    induction j as [j IH] using json_size_ind. destruct j as [|z|x|s|l|l]; intros Hj; cbn [norm]; try reflexivity.
    - cbn in Hj. destruct (show x); [reflexivity | congruence].
    - f_equal. rewrite normal_arr in Hj. rewrite <- (map_id l) at 2. apply map_ext_in. intros x Hx. apply IH; [apply size_in_arr; exact Hx | apply Hj; exact Hx].
    - f_equal. rewrite normal_obj in Hj. rewrite <- (map_id l) at 2. apply map_ext_in. intros [k x] Hx. cbn. f_equal.
      apply (IH x); [exact (size_in_obj l (k, x) Hx) | exact (Hj (k, x) Hx)].
  Qed.
  Lemma map_inj {X Y} (f : X -> Y) : (forall x y, f x = f y -> x = y) -> forall l l', map f l = map f l' -> l = l'.
  Proof.
    intros Hf. induction l as [|x l IH]; intros [|y l'] E; try discriminate; [reflexivity|]. cbn in E. injection E as E1 E2.
    rewrite (Hf x y E1), (IH l' E2). reflexivity.
  Qed.
  Lemma bands_normal k (x : list (key * list num)) m : finite_bands x -> In m (bands k x) -> normal show (snd m).
  Proof.
    intros F. destruct x as [|e x]; [intros []|]. intros [<- | []]. cbn [snd]. apply normal_arr. intros j Hj.
    apply in_map_iff in Hj. destruct Hj as (y & <- & Hy). apply normal_obj. intros q [<- | [<- | [<- | []]]]; cbn [snd]; try exact I.
    apply normal_arr. intros v Hv. apply in_map_iff in Hv. destruct Hv as (u & <- & Hu). cbn. exact (F y u Hy Hu).
  Qed.
  Lemma record_normal d step : finite_data d -> normal show (record d step).
  Proof.
    intros (F1 & F2 & F3 & F4 & F5 & F6 & F7 & F8 & F9). apply normal_obj. intros m Hm.
    apply in_app_or in Hm. destruct Hm as [[<- | [<- | [<- | []]]] | Hm]; cbn [snd]; try assumption.
    apply in_app_or in Hm. destruct Hm as [Hm|Hm]; [destruct (Z.rem step 10 =? 0)%Z; [exact (bands_normal _ _ _ F8 Hm) | destruct Hm]|].
    apply in_app_or in Hm. destruct Hm as [[<- | []] | Hm]; [exact F6|].
    apply in_app_or in Hm. destruct Hm as [Hm|Hm]; [destruct (Z.rem step 10 =? 0)%Z; [exact (bands_normal _ _ _ F9 Hm) | destruct Hm]|].
    destruct Hm as [<- | [<- | [<- | [<- | [<- | []]]]]]; cbn [snd]; try assumption; try exact I.
    apply normal_obj. intros m Hm. apply in_map_iff in Hm. destruct Hm as (c & <- & Hc). cbn. exact (F7 c Hc).
  Qed.
  Lemma comps_inj (c c' : list (text * num)) :
    map (fun c => (fst c, JNum (snd c))) c = map (fun c => (fst c, JNum (snd c))) c' -> c = c'.
  Proof. apply map_inj. intros [k x] [k' x'] E. cbn in E. injection E as -> ->. reflexivity. Qed.
  Definition tail_of (d : step_data num) (step : Z) : list (text * json) :=
    [(lit "ks_energy_comps", JObj (map (fun c => (fst c, JNum (snd c))) (sd_comps d)));
     (lit "slope_eta", JNum (sd_slope_eta d)); (lit "slope_x", JNum (sd_slope_x d)); (lit "step", JInt step); (lit "type", JStr (lit "cg_iteration"))].
  Lemma bands_inj k (x x' : list (key * list num)) u u' (r r' : list (text * json)) : fst u = fst u' -> lit k <> fst u ->
    bands k x ++ u :: r = bands k x' ++ u' :: r' -> x = x' /\ u = u' /\ r = r'.
  Proof.
    intros Hf N E.
    assert (G : forall (y y' : key * list num), JObj [(lit "ik", JInt (fst (fst y))); (lit "ispn", JInt (snd (fst y))); (lit "value", JArr (map JNum (snd y)))] =
       JObj [(lit "ik", JInt (fst (fst y'))); (lit "ispn", JInt (snd (fst y'))); (lit "value", JArr (map JNum (snd y')))] -> y = y').
    { intros [[a b] l] [[a' b'] l'] Ey. cbn [fst snd] in Ey. injection Ey as -> -> El. f_equal.
      revert El. apply map_inj. intros p q Epq. injection Epq as ->. reflexivity. }
    destruct x as [|e x]; destruct x' as [|e' x']; unfold bands in E; cbn [app] in E.
    - injection E as -> ->. repeat split; reflexivity.
    - exfalso. injection E as E _. apply N. rewrite E. reflexivity.
    - exfalso. injection E as E _. apply N. rewrite Hf, <- E. reflexivity.
    - pose proof (f_equal (fun l => match l with (_, JArr a) :: _ => a | _ => [] end) E) as Eb.
      pose proof (f_equal (@tl _) E) as Er. cbn [tl] in Er. injection Er as Eu Er. split; [|split; assumption].
      apply (map_inj _ G). exact Eb.
  Qed.
  Lemma record_inj d step d' step' : record d step = record d' step' -> same_data (d, step) (d', step').
  Proof.
    unfold record. fold (tail_of d step). fold (tail_of d' step'). intros E. injection E as E1 E2 E3 E.
    set (ba := if (Z.rem step 10 =? 0)%Z then bands "eta" (sd_ek d) else []) in E.
    set (ba' := if (Z.rem step' 10 =? 0)%Z then bands "eta" (sd_ek d') else []) in E.
    set (bf := if (Z.rem step 10 =? 0)%Z then bands "fn" (sd_fn d) else []) in E.
    set (bf' := if (Z.rem step' 10 =? 0)%Z then bands "fn" (sd_fn d') else []) in E.
    assert (Ba : exists x, ba = bands "eta" x /\ ((Z.rem step 10 = 0)%Z -> x = sd_ek d)).
    { unfold ba. destruct (Z.eqb_spec (Z.rem step 10) 0) as [Hz|Hz]; [exists (sd_ek d); auto | exists []; split; [reflexivity | contradiction]]. }
    assert (Ba' : exists x, ba' = bands "eta" x /\ ((Z.rem step' 10 = 0)%Z -> x = sd_ek d')).
    { unfold ba'. destruct (Z.eqb_spec (Z.rem step' 10) 0) as [Hz|Hz]; [exists (sd_ek d'); auto | exists []; split; [reflexivity | contradiction]]. }
    assert (Bf : exists x, bf = bands "fn" x /\ ((Z.rem step 10 = 0)%Z -> x = sd_fn d)).
    { unfold bf. destruct (Z.eqb_spec (Z.rem step 10) 0) as [Hz|Hz]; [exists (sd_fn d); auto | exists []; split; [reflexivity | contradiction]]. }
    assert (Bf' : exists x, bf' = bands "fn" x /\ ((Z.rem step' 10 = 0)%Z -> x = sd_fn d')).
    { unfold bf'. destruct (Z.eqb_spec (Z.rem step' 10) 0) as [Hz|Hz]; [exists (sd_fn d'); auto | exists []; split; [reflexivity | contradiction]]. }
    clearbody ba ba' bf bf'. destruct Ba as (x & -> & X1). destruct Ba' as (x' & -> & X2). destruct Bf as (y & -> & Y1). destruct Bf' as (y' & -> & Y2).
    cbn [app] in E. apply bands_inj in E; [|reflexivity | discriminate]. destruct E as (<- & Eu & E). injection Eu as E4.
    unfold tail_of in E. apply bands_inj in E; [|reflexivity | discriminate]. destruct E as (<- & Eu & E). injection Eu as E5. injection E as E6 E7 E8.
    apply comps_inj in E5. subst step'. unfold same_data. cbn [fst snd]. repeat (split; [congruence|]). intros Hz. split.
    - rewrite <- (X1 Hz), <- (X2 Hz). reflexivity.
    - rewrite <- (Y1 Hz), <- (Y2 Hz). reflexivity.
  Qed.
  (** equal files hold equal records *)
  Theorem log_read_back (l l' : list (step_data num * Z)) :
    (forall e, In e l -> finite_data (fst e)) -> (forall e, In e l' -> finite_data (fst e)) ->
    concat (map (fun e => dump show (record (fst e) (snd e))) l) = concat (map (fun e => dump show (record (fst e) (snd e))) l') ->
    Forall2 same_data l l'.
  Proof.
    intros F F' E.
    assert (O : forall l : list (step_data num * Z), Forall is_obj (map (fun e => record (fst e) (snd e)) l)).
    { intros k. apply Forall_forall. intros j Hj. apply in_map_iff in Hj. destruct Hj as (e & <- & _). exact I. }
    assert (N : map (norm show) (map (fun e => record (fst e) (snd e)) l) = map (norm show) (map (fun e => record (fst e) (snd e)) l')).
    { apply (log_decodes show Hs); [apply O | apply O|]. rewrite !map_map. exact E. }
    clear E O. revert l' F' N. induction l as [|e l IH]; intros [|e' l'] F' N; try discriminate; [constructor|].
    pose proof (f_equal (hd JNull) N) as N1. pose proof (f_equal (@tl _) N) as N2. cbn [map hd tl] in N1, N2. constructor.
    - rewrite (norm_id _ (record_normal (fst e) (snd e) (F e (or_introl eq_refl)))) in N1.
      rewrite (norm_id _ (record_normal (fst e') (snd e') (F' e' (or_introl eq_refl)))) in N1.
      destruct e as [d s], e' as [d' s']. apply record_inj. exact N1.
    - apply IH; [intros x Hx; apply F; right; exact Hx | intros x Hx; apply F'; right; exact Hx | exact N2].
  Qed.
End Reading.

(** ** No line breaks *)
Section Lines.
  Context {num : Type} (show : num -> option text) (Hs : show_ok show).
  Definition plain (t : text) : Prop := forall c, In c t -> (32 <= N_of_ascii c)%N.
  Lemma plain_b t : forallb (fun c => (32 <=? N_of_ascii c)%N) t = true -> plain t.
  Proof. intros H c Hc. rewrite forallb_forall in H. specialize (H c Hc). apply N.leb_le in H. exact H. Qed.
  Lemma plain_app a b : plain a -> plain b -> plain (a ++ b).
  Proof. intros A B c Hc. apply in_app_or in Hc. destruct Hc; auto. Qed.
  Lemma plain_cons x b : (32 <= N_of_ascii x)%N -> plain b -> plain (x :: b).
  Proof. intros A B c [<- | Hc]; auto. Qed.
  Lemma plain_esc c : plain (esc c).
  Proof.
    apply plain_b. apply (forall_ascii (fun c => forallb (fun c => (32 <=? N_of_ascii c)%N) (esc c))). vm_compute. reflexivity.
  Qed.
  Lemma plain_str s : plain (show_str s).
  Proof.
    apply plain_cons; [vm_compute; discriminate|]. apply plain_app; [|apply plain_b; reflexivity].
    induction s as [|c s IH]; [intros c []|]. apply plain_app; [apply plain_esc | exact IH].
  Qed.
  Lemma plain_sepd l : (forall t, In t l -> plain t) -> plain (sepd l).
  Proof.
    induction l as [|x l IH]; intros H; [intros c []|]. rewrite sepd_cons. apply plain_app; [apply H; left; reflexivity|].
    destruct l as [|y l]; [intros c []|]. apply plain_cons; [vm_compute; discriminate|]. apply IH. intros t Ht. apply H. right. exact Ht.
  Qed.
  Lemma numc_plain t : (forall c, In c t -> numc c = true) -> plain t.
  Proof.
    intros H c Hc. specialize (H c Hc).
    assert (A : (negb (numc c) || (32 <=? N_of_ascii c)%N) = true) by (apply (forall_ascii (fun c => negb (numc c) || (32 <=? N_of_ascii c)%N)); vm_compute; reflexivity).
    rewrite H in A. apply N.leb_le in A. exact A.
  Qed.
  Theorem dump_plain (j : json num) : plain (dump show j).
  Proof.
    induction j as [j IH] using json_size_ind. destruct j as [|z|x|s|l|l]; cbn [dump].
    - apply plain_b. reflexivity.
    - apply numc_plain. intros c Hc. apply intc_numc. exact (show_int_chars z c Hc).
    - destruct (show x) eqn:E; [apply numc_plain; apply (proj1 Hs x t E) | apply plain_b; reflexivity].
    - apply plain_str.
    - apply plain_cons; [vm_compute; discriminate|]. apply plain_app; [|apply plain_b; reflexivity]. apply plain_sepd.
      intros t Ht. apply in_map_iff in Ht. destruct Ht as (x & <- & Hx). apply IH. apply size_in_arr. exact Hx.
    - apply plain_cons; [vm_compute; discriminate|]. apply plain_app; [|apply plain_b; reflexivity]. apply plain_sepd.
      intros t Ht. apply in_map_iff in Ht. destruct Ht as (x & <- & Hx). apply plain_app; [apply plain_str|].
      apply plain_cons; [vm_compute; discriminate|]. apply IH. exact (size_in_obj l x Hx).
  Qed.
End Lines.
