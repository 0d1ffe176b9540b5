(** A MultiTerm used as a sequence, and printing of terms.

    [MultiTerm] (term.py:101) derives from [collections.abc.Sequence] and
    defines [__getitem__] and [__len__] only; [for t in mt], [x in mt],
    [reversed(mt)], [mt.index] and [mt.count] are the mixin methods of the
    Python standard library (Lib/_collections_abc.py, class Sequence), which
    are modelled here from [__getitem__] and [__len__] as written there.  Loops
    that end with the first IndexError run on a counter; it is proved never to
    run out. *)
From Coq Require Import List Bool ZArith QArith Qcanon Lia String Ascii.
From Verif Require Import Base PyStr Util Regex Parse Term.
Import ListNotations.
Local Open Scope Z_scope.

(** term.py:136-137 [MultiTerm.__len__] *)
Definition mt_len (mt : list term) : Z := Z.of_nat (List.length mt).

(** term.py:133-134 [MultiTerm.__getitem__] with an integer: the indexing of
    a list, where a negative index counts from the end.  (A slice gives a list
    of terms; not modelled.) *)
Definition mt_getitem (mt : list term) (i : Z) : res term :=
  let j := if i <? 0 then i + mt_len mt else i in
  if j <? 0 then Raise IndexError
  else match nth_error mt (Z.to_nat j) with Some t => Ok t | None => Raise IndexError end.

(** What may be looked for: a Term, a MultiTerm, or anything without the
    attribute [quantum_nums]. *)
Inductive wanted_term : Type :=
| WTerm (t : term)
| WMulti (b : list term)
| WOther.

(** [v is value or v == value] for a component [v].  A Term equals itself, so
    identity makes no difference (term.py:76-80; [other.quantum_nums] of any
    other object is an AttributeError). *)
Definition same_term (v : term) (x : wanted_term) : res bool :=
  match x with
  | WTerm t => Ok (term_eqb v t)
  | WMulti b => term_eqb_mt v b
  | WOther => Raise AttributeError
  end.

(** [Sequence.__iter__]: [self[0]], [self[1]], ... until IndexError. *)
Fixpoint mt_iter_from (n : nat) (mt : list term) (i : Z) : res (list term) :=
  match n with
  | O => Raise OutOfFuel
  | S n' =>
      match mt_getitem mt i with
      | Ok v => rbind (mt_iter_from n' mt (i + 1)) (fun l => Ok (v :: l))
      | Raise IndexError => Ok []
      | Raise e => Raise e
      end
  end.
Definition mt_iter (mt : list term) : res (list term) := mt_iter_from (S (List.length mt)) mt 0.

(** [Sequence.__reversed__]: [self[i] for i in reversed(range(len(self)))]. *)
Fixpoint mt_reversed_from (n : nat) (mt : list term) : res (list term) :=
  match n with
  | O => Ok []
  | S n' => rbind (mt_getitem mt (Z.of_nat n')) (fun v => rbind (mt_reversed_from n' mt) (fun l => Ok (v :: l)))
  end.
Definition mt_reversed (mt : list term) : res (list term) := mt_reversed_from (Z.to_nat (mt_len mt)) mt.

(** [Sequence.__contains__]: the loop over the components returns at the
    first hit. *)
Fixpoint contains_in (l : list term) (x : wanted_term) : res bool :=
  match l with
  | [] => Ok false
  | v :: l' => rbind (same_term v x) (fun b => if b then Ok true else contains_in l' x)
  end.
Definition mt_contains (mt : list term) (x : wanted_term) : res bool :=
  rbind (mt_iter mt) (fun l => contains_in l x).

(** [Sequence.index(value, start=0, stop=None)]. *)
Fixpoint mt_index_from (n : nat) (mt : list term) (x : wanted_term) (stop : option Z) (i : Z) : res Z :=
  match n with
  | O => Raise OutOfFuel
  | S n' =>
      if match stop with None => true | Some k => i <? k end then
        match mt_getitem mt i with
        | Ok v => rbind (same_term v x) (fun b => if b then Ok i else mt_index_from n' mt x stop (i + 1))
        | Raise IndexError => Raise ValueError
        | Raise e => Raise e
        end
      else Raise ValueError
  end.
Definition mt_index (mt : list term) (x : wanted_term) (start : Z) (stop : option Z) : res Z :=
  let start' := if start <? 0 then Z.max (mt_len mt + start) 0 else start in
  let stop' := match stop with Some k => Some (if k <? 0 then k + mt_len mt else k) | None => None end in
  mt_index_from (S (List.length mt)) mt x stop' start'.

(** [Sequence.count]: [sum(1 for v in self if v is value or v == value)]. *)
Fixpoint count_in (l : list term) (x : wanted_term) : res Z :=
  match l with
  | [] => Ok 0
  | v :: l' => rbind (same_term v x) (fun b => rbind (count_in l' x) (fun n => Ok ((if b then 1 else 0) + n)))
  end.
Definition mt_count (mt : list term) (x : wanted_term) : res Z :=
  rbind (mt_iter mt) (fun l => count_in l x).

(** ** Printing *)
Local Open Scope string_scope.

(** term.py:70-71 and 73-74: [str] and [repr] of a Term. *)
Definition term_str (t : term) : string := t_term_name t.
Definition term_repr (t : term) : string := "Term(" ++ t_name t ++ ")".

(** term.py:126-127 and 129-131: [str] of a MultiTerm and [full_name];
    [show] is the text of a percentage. *)
Definition mt_str (show : Qc -> string) (mt : list term) : res string :=
  rbind (mt_getitem mt 0) (fun t => rbind (mt_getitem mt 0) (fun t' =>
    Ok (term_str t ++ " (" ++ show (t_pct t') ++ ")"))).
Definition mt_full_name (show : Qc -> string) (mt : list term) : res string :=
  rbind (mt_attr t_name mt) (fun n => rbind (mt_attr t_pct mt) (fun p => Ok (n ++ " (" ++ show p ++ "%)"))).

(** term.py:123-124: [__repr__] of a MultiTerm returns a MultiTerm, and
    [repr] refuses a result that is not text. *)
Inductive shown : Type := SText (s : string) | SMulti (mt : list term).
Definition mt_dunder_repr (mt : list term) : shown := SMulti (multiterm mt).
Definition py_repr (r : shown) : res string := match r with SText s => Ok s | SMulti _ => Raise TypeError end.
Definition mt_repr (mt : list term) : res string := py_repr (mt_dunder_repr mt).
