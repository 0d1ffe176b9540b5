(** Model of the scalar helpers of [atomtoolkit/util.py] (lines 9-69) and of
    the coupling classifier (lines 111-126). *)
From Coq Require Import List Bool ZArith QArith Lia String Ascii.
From Verif Require Import Base PyStr.
Import ListNotations.
Local Open Scope string_scope.

(** A Python argument that may be [None], a string or a number.  Numbers are
    exact rationals: every finite float is one. *)
Inductive pyv : Type :=
| VNone
| VStr (s : string)
| VNum (q : Q).

(** util.py:17 and 31: the letters of spectroscopic notation. *)
Definition letters : string := "SPDFGHIKLMNOQRTUVWXYZ".

(** ['...'.index(c)]: position of the first occurrence. *)
Fixpoint index_char (c : ascii) (s : string) : option Z :=
  match s with
  | EmptyString => None
  | String a s' => if Ascii.eqb a c then Some 0%Z
                   else option_map Z.succ (index_char c s')
  end.

(** util.py:9-18 [let_to_l].  The result [Ok None] is Python's [None]. *)
Definition let_to_l (l : string) : res (option Z) :=
  match l with
  | EmptyString => Ok None
  | String c EmptyString =>
      match index_char (to_upper c) letters with
      | Some i => Ok (Some i)
      | None => Raise ValueError
      end
  | _ => Raise ValueError
  end.

Definition q_is_int (q : Q) : bool := (Qnum q mod Zpos (Qden q) =? 0)%Z.
(** [int(x)]: truncation towards zero. *)
Definition q_trunc (q : Q) : Z := Z.quot (Qnum q) (Zpos (Qden q)).

Fixpoint nth_char (n : nat) (s : string) : option ascii :=
  match s, n with
  | EmptyString, _ => None
  | String a _, O => Some a
  | String _ s', S n' => nth_char n' s'
  end.

(** [s[i]] with Python's negative indices. *)
Definition str_index (s : string) (i : Z) : res string :=
  let len := Z.of_nat (String.length s) in
  let j := if (i <? 0)%Z then (i + len)%Z else i in
  if (j <? 0)%Z then Raise IndexError
  else match nth_char (Z.to_nat j) s with
       | Some a => Ok (String a EmptyString)
       | None => Raise IndexError
       end.

(** util.py:21-31 [l_to_let]. *)
Definition l_to_let (l : pyv) : res string :=
  match l with
  | VNum q => if q_is_int q then str_index letters (q_trunc q) else Raise ValueError
  | VStr _ => Raise TypeError
  | VNone => Raise TypeError
  end.

(** util.py:34-50 [frac_to_float].  The test [frac is (None or '')] is
    [frac is '']; [None] falls through to the final [return frac]. *)
Definition frac_to_float (v : pyv) : res (option Q) :=
  match v with
  | VNone => Ok None
  | VNum q => Ok (Some q)
  | VStr EmptyString => Ok None
  | VStr s =>
      if has_char "/" s then
        match split_all "/" s with
        | [a; b] =>
            match pyfloat a, pyfloat b with
            | Some x, Some y =>
                if Qeq_bool y 0 then Raise ZeroDivisionError else Ok (Some (x / y))
            | _, _ => Raise ValueError
            end
        | _ => Raise ValueError
        end
      else
        match pyfloat s with
        | Some x => Ok (Some x)
        | None => Raise ValueError
        end
  end.

(** util.py:68-71, the numeric branch of [float_to_frac].  [(2*f) % 2 == 0]
    holds exactly when [f] is an integer. *)
Definition num_to_frac (q : Q) : string :=
  if q_is_int q then zstr (q_trunc q)
  else zstr (q_trunc (q * (2 # 1))) ++ "/2".

(** util.py:53-71 [float_to_frac]. *)
Definition float_to_frac (v : pyv) : res (option string) :=
  match v with
  | VNone => Ok None
  | VNum q => Ok (Some (num_to_frac q))
  | VStr s =>
      if has_char "/" s then Ok (Some s)
      else match pyfloat s with
           | Some q => Ok (Some (num_to_frac q))
           | None => Raise ValueError
           end
  end.

(** The four coupling schemes (and 'unknown') of util.py:116-130. *)
Inductive coupling := CLS | CJK | CJJ | CLK | CUnknown.

(** [s[0] in 'SPDF...'], the test of util.py:116-130 on the letter before a bracket. *)
Definition head_in_letters (s : string) : bool :=
  match s with String c _ => has_char c letters | EmptyString => false end.

(** util.py:116-130 [get_term_coupling]. *)
Definition get_term_coupling (term : string) : coupling :=
  if has_char "[" term then
    if head_in_letters term then CLK else CJK
  else if has_char "(" term then CJJ
  else if (1 <? String.length term)%nat then CLS
  else CUnknown.

(** The label of the half-integer [z/2]: what [float_to_frac] prints for it
    ([half_label_ok] in UtilProofs.v). *)
Definition half_label (z : Z) : string :=
  if Z.even z then zstr (z / 2) else zstr z ++ "/2".
