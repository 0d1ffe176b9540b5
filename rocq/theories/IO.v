(** Model of the string handling in [atomtoolkit/IO.py], of the csv files it
    writes and reads, and of the file name in [Atom.save]. *)
From Coq Require Import List Bool ZArith QArith Lia String Ascii.
From Verif Require Import Base Num PyStr Regex Graph Atom AtomInv AtomSafe.
Import ListNotations.
Local Open Scope string_scope.

(** ** Atom.save: atom.py:975-981 *)
Definition save_name (self_name : string) (filename : option string) : string :=
  let f := match filename with Some f => f | None => self_name end in
  match nth_error (split_all "." f) 1 with
  | Some e => if String.eqb e "atom" then f else f ++ ".atom"
  | None => f ++ ".atom"
  end.

(** ** Second configurations: IO.py:88-100 *)

(** The regular expressions of lines 95-97; [re_paren] is a group in parentheses. *)
Definition any1 : re := RPlus true not_newline.
Definition re_paren : re := rcat [rchr "("; RGrp 1 any1; rchr ")"].
Definition re_two : re := rcat [rchr "("; any1; rchr ")"; rchr "("; any1; rchr ")"].
Definition re_mid : re := rcat [rchr "("; any1; rchr ")"; RPlus false not_newline; rchr "("; any1; rchr ")"].

(** [re.sub(r, rep, s)] for a replacement without group references. *)
Fixpoint sub_n (fuel : nat) (r : re) (rep s : string) : string :=
  match fuel with
  | O => s
  | S n =>
      match match_at r s with
      | Some (_, s') => rep ++ sub_n n r rep s'
      | None => match s with
                | EmptyString => EmptyString
                | String a s' => String a (sub_n n r rep s')
                end
      end
  end.
Definition re_sub (r : re) (rep s : string) : string := sub_n (S (String.length s)) r rep s.

(** [s.format] with positional arguments.  Replacement fields other than [{}] are not modelled:
    they count as a ValueError. *)
Fixpoint format (s : string) (args : list string) : res string :=
  match s with
  | EmptyString => Ok EmptyString
  | String a s' =>
      if Ascii.eqb a "{" then
        match s' with
        | String b s2 =>
            if Ascii.eqb b "}" then match args with [] => Raise IndexError | x :: r => rmap (append x) (format s2 r) end
            else if Ascii.eqb b "{" then rmap (String a) (format s2 args)
            else Raise ValueError
        | EmptyString => Raise ValueError
        end
      else if Ascii.eqb a "}" then
        match s' with
        | String b s2 => if Ascii.eqb b "}" then rmap (String a) (format s2 args) else Raise ValueError
        | EmptyString => Raise ValueError
        end
      else rmap (String a) (format s' args)
  end.

(** [re.match(r, s) is not None] *)
Definition is_match (r : re) (s : string) : bool := match match_at r s with Some _ => true | None => false end.
(** A missing second configuration is [None] (line 93). *)
Definition reconstitute (c0 : string) (c1 : option string) : res (option string) :=
  match c1 with
  | None => Ok None
  | Some c1 =>
      if is_match re_two c1 then rmap Some (format (re_sub re_paren "({})" c0) (map (grp 1) (findall re_paren c1)))
      else if is_match re_mid c1 then Ok (Some (fst (cut_first "(" c0) ++ c1))
      else Ok (Some c1)
  end.

(** ** Ionisation limit: IO.py:109-117 *)

Section Table.
  Context {row : Type} (has_level : row -> bool) (term : row -> string).
  (** Row labels are the row numbers of the file. *)
  Fixpoint label (i : Z) (rows : list row) : list (Z * row) :=
    match rows with [] => [] | r :: rs => (i, r) :: label (i + 1) rs end.
  (** [(df['Term'] == 'Limit').idxmax()]: the label of the first largest entry. *)
  Definition idxmax (t : list (Z * row)) : option Z :=
    match find (fun p => String.eqb (term (snd p)) "Limit") t with
    | Some p => Some (fst p)
    | None => option_map fst (hd_error t)
    end.
  (** [df.loc[:m]] on increasing labels. *)
  Definition upto (m : Z) (t : list (Z * row)) : list (Z * row) := filter (fun p => (fst p <=? m)%Z) t.
  (** dropna, then the cut. *)
  Definition limit_cut (rows : list row) : res (list row) :=
    let t := filter (fun p => has_level (snd p)) (label 0 rows) in
    match idxmax t with
    | None => Raise ValueError
    | Some m => Ok (map snd (upto (m - 1) t))
    end.
End Table.

(** ** Several J: IO.py:119-121 *)

(** [s.replace(" or", ",")] *)
Fixpoint replace_or (s : string) : string :=
  match s with
  | String a (String b (String c s') as s1) =>
      if Ascii.eqb a " " && Ascii.eqb b "o" && Ascii.eqb c "r" then String "," (replace_or s')
      else String a (replace_or s1)
  | String a s1 => String a (replace_or s1)
  | EmptyString => EmptyString
  end.
Definition explode_J (j : string) : list string := split_all "," (replace_or j).

(** ** csv files (Python's csv module, excel dialect) *)

Definition dq : ascii := """".
Definition cr : ascii := ascii_of_nat 13.
Definition lf : ascii := ascii_of_nat 10.
Definition crlf : string := String cr (String lf EmptyString).
Definition special (a : ascii) : bool := Ascii.eqb a "," || Ascii.eqb a dq || Ascii.eqb a cr || Ascii.eqb a lf.
Fixpoint doubled (s : string) : string :=
  match s with
  | EmptyString => EmptyString
  | String a s' => if Ascii.eqb a dq then String dq (String dq (doubled s')) else String a (doubled s')
  end.
Definition quoted (s : string) : string := String dq (doubled s ++ String dq EmptyString).
Definition write_field (s : string) : string := if all_chars (fun a => negb (special a)) s then s else quoted s.
Fixpoint write_fields (l : list string) : string :=
  match l with
  | [] => crlf
  | [f] => write_field f ++ crlf
  | f :: r => write_field f ++ String "," (write_fields r)
  end.
(** [writer.writerow]: a row that would be an empty line is written quoted. *)
Definition write_row (l : list string) : string :=
  match l with
  | [EmptyString] => quoted EmptyString ++ crlf
  | _ => write_fields l
  end.
(** [writer.writerows] *)
Definition write_csv (rows : list (list string)) : string := fold_right (fun r s => write_row r ++ s) EmptyString rows.

(** [csv.reader] as the state machine of CPython's _csv.c.  [CR] is the state
    after a carriage return, which swallows a line feed. *)
Inductive mode := StartRecord | StartField | InField | InQuoted | QuoteInQuoted | CR.
Definition chr1 (a : ascii) : string := String a EmptyString.
Fixpoint read_from (m : mode) (fld : string) (row : list string) (s : string) : list (list string) :=
  match s with
  | EmptyString => match m with StartRecord | CR => [] | _ => [app row [fld]] end
  | String a s' =>
      let in_field :=
        if Ascii.eqb a cr then app row [fld] :: read_from CR EmptyString [] s' else
        if Ascii.eqb a lf then app row [fld] :: read_from StartRecord EmptyString [] s' else
        if Ascii.eqb a "," then read_from StartField EmptyString (app row [fld]) s' else
        read_from InField (fld ++ chr1 a) row s' in
      let start_field := if Ascii.eqb a dq then read_from InQuoted fld row s' else in_field in
      let start_record :=
        if Ascii.eqb a cr then [] :: read_from CR EmptyString [] s' else
        if Ascii.eqb a lf then [] :: read_from StartRecord EmptyString [] s' else start_field in
      match m with
      | StartRecord => start_record
      | CR => if Ascii.eqb a lf then read_from StartRecord EmptyString [] s' else start_record
      | StartField => start_field
      | InField => in_field
      | InQuoted => if Ascii.eqb a dq then read_from QuoteInQuoted fld row s' else read_from InQuoted (fld ++ chr1 a) row s'
      | QuoteInQuoted => if Ascii.eqb a dq then read_from InQuoted (fld ++ chr1 a) row s' else in_field
      end
  end.
Definition read_csv (s : string) : list (list string) := read_from StartRecord EmptyString [] s.

(** ** Hyperfine constants: IO.py:240-281 *)

Section HfCsv.
  Context (N : Num).
  Notation st := (st N).
  (** [str(q)] and [Q_(s)] for frequencies, in Hz. *)
  Context (show : N -> string) (parse : string -> res N).

  (** The three assignments to a level; only fine-structure levels have them. *)
  Definition set_hfA (v : N) (l : level N) : level N := lv_set_hf v (l_hfB l) (l_hfC l) l.
  Definition set_hfB (v : N) (l : level N) : level N := lv_set_hf (l_hfA l) v (l_hfC l) l.
  Definition set_hfC (v : N) (l : level N) : level N := lv_set_hf (l_hfA l) (l_hfB l) v l.

  (** IO.py:251-258 *)
  Definition atom_levels (s : st) : list (level N) :=
    flat_map (fun a => match lv s a with Some l => [l] | None => [] end) (dvals (node_attrs (s_g0 s))).
  Definition hf_row (defA : N) (l : level N) : list string :=
    [lname l; show (if neqb N (l_hfA l) (nofQ N 0) then defA else l_hfA l); show (l_hfB l); show (l_hfC l)].
  Definition hf_rows (blank : bool) (defA : N) (s : st) : list (list string) :=
    if blank then map (fun l => [lname l; show (nofQ N 0); show (nofQ N 0); show (nofQ N 0)]) (atom_levels s)
    else map (hf_row defA) (atom_levels s).
  Definition generate_hf_csv (blank : bool) (defA : N) (s : st) : string := write_csv (hf_rows blank defA s).

  (** [atom.levels[name].hfX = Q_(x)]: the value is parsed first. *)
  Definition assign (set : N -> level N -> level N) (name x : string) : M N unit :=
    bind (fun s => (parse x, s)) (fun v => bind (levels_get N name) (fun a => modify (upd_lv a (set v)))).
  (** IO.py:274-281: a row of another length is a ValueError, a KeyError is
      ignored, anything else ends the call. *)
  Definition apply_row (row : list string) : M N unit := fun s =>
    match row with
    | [name; a; b; c] =>
        match bind (assign set_hfA name a) (fun _ => bind (assign set_hfB name b) (fun _ => assign set_hfC name c)) s with
        | (Raise KeyError, s') => (Ok tt, s')
        | r => r
        end
    | _ => (Raise ValueError, s)
    end.
  Definition apply_hf_csv (file : string) : M N unit := forM (read_csv file) apply_row.
End HfCsv.
