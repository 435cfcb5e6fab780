(** The step log nlcg.json: src/utils/step_logger.hpp 26-94, src/nlcglib.cpp 97-140 (cg_write_step_json) and 247 (remove).
    nlohmann::json is modelled by its data type and its compact serialisation.
    Parameters: the type [num] of doubles, [show] the text of a double (None: not finite, written as null) and [utf8], whether a
    text is valid UTF-8 (the serialiser throws otherwise).
    Simplification: writes to the file succeed. *)
From Coq Require Import Bool ZArith Ascii String DecimalString Lia List.
From Verif Require Import MVector.
Import ListNotations.
Local Open Scope char_scope.

Definition text := list ascii.
Definition lit (s : string) : text := list_ascii_of_string s.

Section Json.
  Context {num : Type} (show : num -> option text) (utf8 : text -> bool).

  (** nlohmann::json; objects are std::map, here lists of members ordered by key *)
  Inductive json :=
  | JNull | JInt (z : Z) | JNum (x : num) | JStr (s : text) | JArr (l : list json) | JObj (l : list (text * json)).

  (** order of std::string *)
  Fixpoint tltb (a b : text) : bool :=
    match a, b with
    | _, [] => false
    | [], _ :: _ => true
    | x :: a, y :: b => (N_of_ascii x <? N_of_ascii y)%N || ((N_of_ascii x =? N_of_ascii y)%N && tltb a b)
    end.
  Fixpoint teqb (a b : text) : bool :=
    match a, b with [], [] => true | x :: a, y :: b => Ascii.eqb x y && teqb a b | _, _ => false end.
  (** dict[key] = v *)
  Fixpoint oset (k : text) (v : json) (m : list (text * json)) : list (text * json) :=
    match m with
    | [] => [(k, v)]
    | (k', v') :: r => if teqb k k' then (k, v) :: r else if tltb k k' then (k, v) :: m else (k', v') :: oset k v r
    end.
  Fixpoint oget (k : text) (m : list (text * json)) : option json :=
    match m with [] => None | (k', v) :: r => if teqb k k' then Some v else oget k r end.
  (** dict[key] += v; None: type_error *)
  Definition oadd (k : text) (v : json) (m : list (text * json)) : option (list (text * json)) :=
    match oget k m with
    | None | Some JNull => Some (oset k (JArr [v]) m)
    | Some (JArr l) => Some (oset k (JArr (l ++ [v])) m)
    | Some _ => None
    end.

  (** ** Serialisation *)
  Definition hexd (n : N) : ascii := if (n <? 10)%N then ascii_of_N (48 + n) else ascii_of_N (87 + n).
  (** one byte inside a string *)
  Definition esc (c : ascii) : text :=
    let n := N_of_ascii c in
    if (n =? 8)%N then ["\"; "b"] else if (n =? 9)%N then ["\"; "t"] else if (n =? 10)%N then ["\"; "n"]
    else if (n =? 12)%N then ["\"; "f"] else if (n =? 13)%N then ["\"; "r"]
    else if (n =? 34)%N then ["\"; ascii_of_N 34] else if (n =? 92)%N then ["\"; "\"]
    else if (n <? 32)%N then ["\"; "u"; "0"; "0"; hexd (n / 16); hexd (n mod 16)]
    else [c].
  Definition quote : ascii := ascii_of_N 34.
  Definition show_str (s : text) : text := quote :: concat (map esc s) ++ [quote].
  Definition show_int (z : Z) : text := lit (NilZero.string_of_int (Z.to_int z)).
  Fixpoint sepd (l : list text) : text :=
    match l with [] => [] | [x] => x | x :: r => x ++ "," :: sepd r end.
  Fixpoint dump (j : json) : text :=
    match j with
    | JNull => lit "null"
    | JInt z => show_int z
    | JNum x => match show x with Some t => t | None => lit "null" end
    | JStr s => show_str s
    | JArr l => "[" :: sepd (map dump l) ++ ["]"]
    | JObj l => "{" :: sepd (map (fun m => show_str (fst m) ++ ":" :: dump (snd m)) l) ++ ["}"]
    end.
  (** strings the serialiser accepts *)
  Fixpoint dumpable (j : json) : bool :=
    match j with
    | JStr s => utf8 s
    | JArr l => forallb dumpable l
    | JObj l => forallb (fun m => utf8 (fst m) && dumpable (snd m)) l
    | _ => true
    end.

  (** ** class StepLogger *)
  Record logger := MkLogger { lg_active : bool; lg_file : text; lg_dict : list (text * json) }.
  (** constructor, 28-33 *)
  Definition lg_new (step : Z) (file : text) (active : bool) : logger :=
    MkLogger active file (oset (lit "step") (JInt step) (oset (lit "type") (JStr (lit "cg_iteration")) [])).
  (** log of a scalar or a map, 60-74 *)
  Definition lg_log (k : string) (v : json) (l : logger) : logger :=
    if lg_active l then MkLogger true (lg_file l) (oset (lit k) v (lg_dict l)) else l.
  (** log of an mvector of arrays, 76-94 *)
  Definition band_entry (e : key * list num) : json :=
    JObj (oset (lit "value") (JArr (map JNum (snd e)))
         (oset (lit "ispn") (JInt (snd (fst e))) (oset (lit "ik") (JInt (fst (fst e))) []))).
  Fixpoint lg_entries (k : text) (x : list (key * list num)) (m : list (text * json)) : option (list (text * json)) :=
    match x with
    | [] => Some m
    | e :: r => match oadd k (band_entry e) m with Some m' => lg_entries k r m' | None => None end
    end.
  Definition lg_bands (k : string) (x : list (key * list num)) (l : logger) : option logger :=
    if lg_active l
    then match lg_entries (lit k) x (lg_dict l) with Some m => Some (MkLogger true (lg_file l) m) | None => None end
    else Some l.

  (** destructor, 44-51: appends to "nlcg.json" whatever the file name given; an exception in a destructor ends the program *)
  Inductive appended := Nothing | Append (file doc : text) | Terminate.
  Definition lg_delete (l : logger) : appended :=
    if lg_active l
    then if dumpable (JObj (lg_dict l)) then Append (lit "nlcg.json") (dump (JObj (lg_dict l))) else Terminate
    else Nothing.

  (** ** cg_write_step_json *)
  Record step_data := MkStep {
    sd_F : num; sd_EKS : num; sd_entropy : num; sd_slope_x : num; sd_slope_eta : num; sd_mu : num;
    sd_comps : list (text * num);              (* std::map<std::string, double>, ordered *)
    sd_ek : list (key * list num);             (* after allgather, ordered *)
    sd_fn : list (key * list num)
  }.
  (** None: an exception of nlohmann::json inside the function *)
  Definition step_logger (d : step_data) (rank step : Z) : option logger :=
    let l := lg_new step (lit "nlcg.json") (Z.eqb rank 0) in
    let l := lg_log "F" (JNum (sd_F d)) l in
    let l := lg_log "EKS" (JNum (sd_EKS d)) l in
    let l := lg_log "entropy" (JNum (sd_entropy d)) l in
    let l := lg_log "slope_x" (JNum (sd_slope_x d)) l in
    let l := lg_log "slope_eta" (JNum (sd_slope_eta d)) l in
    let l := lg_log "fermi_energy" (JNum (sd_mu d)) l in
    let l := lg_log "ks_energy_comps" (JObj (map (fun c => (fst c, JNum (snd c))) (sd_comps d))) l in
    if (Z.rem step 10 =? 0)%Z
    then match lg_bands "eta" (sd_ek d) l with Some l => lg_bands "fn" (sd_fn d) l | None => None end
    else Some l.
  Definition write_step (d : step_data) (rank step : Z) : option appended := option_map lg_delete (step_logger d rank step).
End Json.
Arguments json : clear implicits. Arguments step_data : clear implicits. Arguments logger : clear implicits.

(** ** The file, written by concurrent ranks *)
(** Program of a rank: remove("nlcg.json") (nlcglib.cpp 247), then the first gather over the ranks (smearing.fn, 276), then the
    step records; only rank 0 writes.  [pc] counts the actions done.  A rank leaves the gather after all ranks have entered it. *)
Record fstate := MkFS { f_pc : nat -> nat; f_file : option text }.
Definition append_file (f : option text) (t : text) : option text := Some (match f with Some s => s ++ t | None => t end).
Inductive fstep (nranks : nat) (docs : list text) : fstate -> fstate -> Prop :=
| FRemove r s : (r < nranks)%nat -> f_pc s r = 0%nat -> fstep nranks docs s (MkFS (fun q => if Nat.eqb q r then 1%nat else f_pc s q) None)
| FGather r s : (r < nranks)%nat -> f_pc s r = 1%nat -> (forall q, (q < nranks)%nat -> (1 <= f_pc s q)%nat) ->
    fstep nranks docs s (MkFS (fun q => if Nat.eqb q r then 2%nat else f_pc s q) (f_file s))
| FRecord r s k d : (r < nranks)%nat -> f_pc s r = S (S k) -> nth_error docs k = Some d ->
    fstep nranks docs s (MkFS (fun q => if Nat.eqb q r then S (S (S k)) else f_pc s q) (if Nat.eqb r 0 then append_file (f_file s) d else f_file s)).
Inductive fsteps (nranks : nat) (docs : list text) : fstate -> fstate -> Prop :=
| FRefl s : fsteps nranks docs s s
| FTrans s1 s2 s3 : fsteps nranks docs s1 s2 -> fstep nranks docs s2 s3 -> fsteps nranks docs s1 s3.
(** the start: any old file *)
Definition fstart (old : option text) : fstate := MkFS (fun _ => 0%nat) old.
