(** Model of [atomtoolkit/term.py]: Term and MultiTerm.

    The angular momenta J, F, mF are held by their doubles ([Some 7] is 7/2).
    The code holds them as floats obtained from labels or numbers by
    [frac_to_float]; [half_of] below is that conversion.  Values that are not
    half-integers are outside the model. *)
From Coq Require Import List Bool ZArith QArith Qcanon Lia String Ascii.
From Verif Require Import Base PyStr Util Regex Parse.
Import ListNotations.
Local Open Scope string_scope.

(** ** Comparing numbers *)

Definition opt_eqb {A} (eqb : A -> A -> bool) (a b : option A) : bool :=
  match a, b with
  | Some x, Some y => eqb x y
  | None, None => true
  | _, _ => false
  end.

(** Tuple equality of the nine quantum numbers. *)
Definition qnums_eqb (a b : qnums) : bool :=
  opt_eqb Qeq_bool (q_lc a) (q_lc b) && opt_eqb Qeq_bool (q_sc a) (q_sc b) &&
  opt_eqb Qeq_bool (q_lo a) (q_lo b) && opt_eqb Qeq_bool (q_so a) (q_so b) &&
  opt_eqb Qeq_bool (q_jc a) (q_jc b) && opt_eqb Qeq_bool (q_jo a) (q_jo b) &&
  opt_eqb Qeq_bool (q_l a) (q_l b) && opt_eqb Qeq_bool (q_s a) (q_s b) &&
  opt_eqb Qeq_bool (q_k a) (q_k b).

Definition Qc_eqb (a b : Qc) : bool := Qeq_bool a b.
Definition Qc_leb (a b : Qc) : bool := Qle_bool a b.
Definition Qc_ltb (a b : Qc) : bool := negb (Qle_bool b a).

Lemma Qc_eqb_spec : forall a b, reflect (a = b) (Qc_eqb a b).
Proof.
  intros a b. unfold Qc_eqb. destruct (Qeq_bool a b) eqn:E; constructor.
  - apply Qeq_bool_eq in E. now apply Qc_is_canon.
  - intros ->. now rewrite Qeq_bool_refl in E.
Qed.
#[global] Instance Eqb_Qc : Eqb Qc := {| keqb := Qc_eqb; keqb_spec := Qc_eqb_spec |}.

(** ** Half-integers from user input *)

(** The double of a rational, when that is an integer. *)
Definition q_double (q : Q) : option Z :=
  if q_is_int (q * (2 # 1)) then Some (q_trunc (q * (2 # 1))) else None.

(** term.py:46-48: [util.frac_to_float(x)].  Values that are not
    half-integers are outside the model ([NotImplementedError]). *)
Definition half_of (v : pyv) : res (option Z) :=
  match frac_to_float v with
  | Ok None => Ok None
  | Ok (Some q) => match q_double q with Some z => Ok (Some z) | None => Raise NotImplementedError end
  | Raise e => Raise e
  end.

(** ** Term *)

(** The slots of a Term that are not derived from others (term.py:21-26). *)
Record term : Type := mkTerm {
  t_conf : string;
  t_term : string;
  t_pct : Qc;
  t_J : option Z;
  t_F : option Z;
  t_mF : option Z;
  t_qn : qnums
}.

(** term.py:28-68 [Term.__init__].  [qn = None] is the default argument. *)
Definition new_term (conf tm : string) (J F mF : pyv) (pct : Qc) (qn : option qnums) : res term :=
  rbind (half_of J) (fun j =>
  rbind (half_of F) (fun f =>
  rbind (half_of mF) (fun m =>
  rbind (match qn with Some q => Ok q | None => get_quantum_nums conf tm end) (fun q =>
  Ok (mkTerm conf tm pct j f m q))))).

(** term.py:44 *)
Definition t_parity (t : term) : Z := if has_char "*" (t_term t) then (-1)%Z else 1%Z.

(** [f'{x}'] of a label: [None] prints as [None]. *)
Definition frac (o : option Z) : string :=
  match o with Some z => half_label z | None => "None" end.

(** term.py:52-59 *)
Definition t_term_name (t : term) : string :=
  t_term t ++ frac (t_J t)
  ++ (match t_F t with Some f => " F=" ++ half_label f | None => "" end)
  ++ (match t_mF t with Some m => " mF=" ++ half_label m | None => "" end).

(** term.py:53-59, [short_name] *)
Definition t_short_name (t : term) : string :=
  match t_mF t with
  | Some m => "mF=" ++ half_label m
  | None => match t_F t with
            | Some f => "F=" ++ half_label f
            | None => t_term t ++ frac (t_J t)
            end
  end.

(** term.py:61 *)
Definition t_name (t : term) : string := t_conf t ++ " " ++ t_term_name t.

(** term.py:63 *)
Definition t_coupling (t : term) : coupling := get_term_coupling (t_term t).

(** term.py:76-80 [Term.__eq__] *)
Definition term_eqb (a b : term) : bool :=
  qnums_eqb (t_qn a) (t_qn b) && String.eqb (t_conf a) (t_conf b) && String.eqb (t_term a) (t_term b).

(** term.py:82-93 [Term.make_term_copy].  The arguments are half-integers
    (or None); the copy keeps the quantum numbers and the percentage. *)
Definition term_copy (F mF : option Z) (t : term) : term :=
  match t_F t with
  | Some f => mkTerm (t_conf t) (t_term t) (t_pct t) (t_J t) (Some f) mF (t_qn t)
  | None => mkTerm (t_conf t) (t_term t) (t_pct t) (t_J t) F mF (t_qn t)
  end.

(** ** MultiTerm *)

(** [sorted(..., key=percentage, reverse=True)]: decreasing, and equal
    elements keep their order. *)
Definition pct_ge (a b : term) : bool := Qc_leb (t_pct b) (t_pct a).

(** term.py:103-111 [MultiTerm.__init__]: the attribute [terms]. *)
Definition multiterm (ts : list term) : list term := isort pct_ge ts.

(** term.py:111, the attribute [terms_dict]. *)
Definition terms_dict (mt : list term) : @dict Qc term :=
  fold_left (fun d t => dset (t_pct t) t d) mt [].

(** term.py:113-121: attribute requests go to the leading term. *)
Definition mt_attr {A} (attr : term -> A) (mt : list term) : res A :=
  match mt with t :: _ => Ok (attr t) | [] => Raise IndexError end.

(** term.py:139-142 [MultiTerm.__eq__] for another MultiTerm: the list
    comprehension is evaluated in full before [np.all]. *)
Fixpoint mt_eq_list (a b : list term) : res (list bool) :=
  match a with
  | [] => Ok []
  | x :: a' =>
      match b with
      | [] => Raise IndexError
      | y :: b' => rbind (mt_eq_list a' b') (fun l => Ok (term_eqb x y :: l))
      end
  end.
Definition mt_eqb (a b : list term) : res bool := rmap (forallb (fun x => x)) (mt_eq_list a b).

(** term.py:140-141: a MultiTerm against a Term. *)
Definition mt_eqb_term (a : list term) (b : term) : res bool := mt_attr (fun x => term_eqb x b) a.

(** term.py:76-80 [Term.__eq__] with a MultiTerm on the right: each attribute
    asked of [other] goes through [MultiTerm.__getattribute__], and [and] stops
    at the first difference. *)
Definition term_eqb_mt (a : term) (b : list term) : res bool :=
  rbind (mt_attr t_qn b) (fun q => if negb (qnums_eqb (t_qn a) q) then Ok false else
  rbind (mt_attr t_conf b) (fun c => if negb (String.eqb (t_conf a) c) then Ok false else
  rbind (mt_attr t_term b) (fun x => Ok (String.eqb (t_term a) x)))).

(** term.py:144-151 [MultiTerm.make_term_copy] *)
Definition mt_copy (F mF : option Z) (mt : list term) : list term :=
  multiterm (map (term_copy F mF) mt).
