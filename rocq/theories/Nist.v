(** The columns that [_load_NIST_data] (IO.py:57-83, 102-105) makes out of the
    leading percentages of a NIST table. *)
From Coq Require Import List Bool ZArith QArith Qcanon Lia String Ascii.
From Verif Require Import Base PyStr Regex Term IO.
Import ListNotations.
Local Open Scope string_scope.

(** The blank, and any other character. *)
Definition blank (a : ascii) : bool := Ascii.eqb a " ".
Definition not_blank (a : ascii) : bool := negb (blank a).

(** [$]: at the end, or before a newline that is the last character. *)
Definition at_end (s : string) (c : caps) : option caps :=
  match s with
  | EmptyString => Some c
  | String a EmptyString => if Nat.eqb (code a) 10 then Some c else None
  | _ => None
  end.
(** [re.search(r + "$", s)], as used by [Series.str.extract]: the groups of
    the first position that matches. *)
Fixpoint search (r : re) (s : string) : option caps :=
  match rmatch r s [] at_end with
  | Some c => Some c
  | None => match s with String _ s' => search r s' | EmptyString => None end
  end.

(** IO.py:69-70: percentage, second percentage, second configuration and
    second term. *)
Definition re_second : re :=
  rcat [RStar false blank; RGrp 2 (RPlus false is_digit); RPlus false blank; RGrp 3 (RPlus true not_newline);
        ROpt (RCat (RPlus false blank) (RGrp 4 (RPlus true not_newline))); RStar false blank].
Definition re_pct : re :=
  rcat [RStar false blank; RGrp 1 (RPlus false is_digit); RPlus false blank; RPlus true not_newline; RStar false blank;
        RStar false not_newline; rchr ":"; re_second].

(** IO.py:61: the first term. *)
Definition re_first : re :=
  rcat [RStar false blank; RPlus false is_digit; RPlus false blank; RGrp 1 (RPlus false not_blank); RStar false blank;
        RStar false not_newline; rchr " "; rchr ":"; RStar false blank; RPlus false is_digit; RPlus false blank; RPlus true not_newline;
        ROpt (RCat (RPlus false blank) (RPlus true not_newline)); RStar false blank].

(** The number a run of digits stands for ([pd.to_numeric]). *)
Definition digits_val (s : string) : option Q := pyfloat s.

(** What is kept of a cell: the first percentage (100 if there is none, line
    105) and, if the expression matches, the second component. *)
Record parts := mkParts { p_first : option Q; p_second : option (option Q * string * option string) }.
Definition percentages (cell : string) : parts :=
  match search re_pct cell with
  | Some c => mkParts (digits_val (grp 1 c)) (Some (digits_val (grp 2 c), grp 3 c, dget 4%nat c))
  | None => mkParts (Some 100) None
  end.

(** IO.py:62-63: the term of a row whose own term is empty or a star.  [None]
    is a missing value, replaced by the empty string in line 82. *)
Definition first_term (term cell : string) : string :=
  if String.eqb term "" || String.eqb term "*" then
    match search re_first cell with Some c => grp 1 c | None => "" end
  else term.

(** IO.py:74-83: second terms of jj-coupled components.  Rows are the second
    configuration and the second term found.  Only where the term is missing
    are the J values read off the configuration; one row with fewer than two
    of them makes [format] raise IndexError, and then no row is changed. *)
Definition angle : re := rcat [rchr "<"; RGrp 1 (RPlus true not_newline); rchr ">"].
Definition jj_values (conf : string) : list string := map (grp 1) (findall angle conf).
Definition jj_term (conf : string) : option string :=
  match jj_values conf with
  | a :: b :: _ => Some ("(" ++ a ++ ", " ++ b ++ ")")
  | _ => None
  end.
(** A missing configuration gives a missing list, which is left out. *)
Definition needs_jj (r : option string * option string) : bool :=
  match r with (Some _, None) => true | _ => false end.
Definition second_terms (rows : list (option string * option string)) : list string :=
  let ok := forallb (fun r => match r with (Some c, None) => match jj_term c with Some _ => true | None => false end | _ => true end) rows in
  map (fun r => match r with
                | (_, Some t) => t
                | (Some c, None) => if ok then match jj_term c with Some t => t | None => "" end else ""
                | (None, None) => ""
                end) rows.
