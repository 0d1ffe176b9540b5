(** Atoms made from tables: [MultiTerm.from_dataframe] (term.py:150-162),
    [EnergyLevel.from_dataframe] (atom.py:362-371), [Atom.from_dataframe]
    (atom.py:998-1021), [Atom.populate_transitions_df] (atom.py:1066-1084) and
    [generate_full_from_dataframe] (IO.py:287-315).

    A table is the list of its rows; pandas' indexing by position and its
    missing values (a component whose configuration is not a string) are all
    that is kept of a DataFrame.  Energies are already in Hz.  Progress bars
    are left out. *)
From Coq Require Import List Bool ZArith QArith Qcanon Lia String Ascii.
From Verif Require Import Base Num PyStr Util Regex Parse Term Graph Rules Atom IO.
Import ListNotations.
Local Open Scope string_scope.

Section Tables.
  Context (N : Num) (muB : N) (orc : nat -> oracle).
  Notation st := (st N).
  Notation M := (M N).

  (** ** Levels *)

  (** A row: pairs of configuration and term with their percentages, J, the
      energy and the g-value. *)
  Record trow : Type := mkRow {
    r_parts : list (option string * string * Qc);
    r_J : pyv;
    r_E : N;
    r_g : N
  }.

  (** term.py:150-162: the components whose configuration is a string. *)
  Fixpoint parts_terms (J : pyv) (ps : list (option string * string * Qc)) : res (list term) :=
    match ps with
    | [] => Ok []
    | (None, _, _) :: ps' => parts_terms J ps'
    | (Some c, t, p) :: ps' =>
        rbind (new_term c t J VNone VNone p None) (fun t =>
        rbind (parts_terms J ps') (fun ts => Ok (t :: ts)))
    end.
  Definition row_terms (r : trow) : res (list term) := parts_terms (r_J r) (r_parts r).

  (** atom.py:362-371 *)
  Definition row_level (r : trow) : M nat :=
    bind (fun s => (row_terms r, s)) (fun ts =>
    new_level N ts (r_E r) (nofQ N 0) (nofQ N 0) (nofQ N 0) (r_g r) None false).

  (** [try: ... except KeyError: pass] *)
  Definition skip_key (m : M unit) : M unit := fun s =>
    match m s with
    | (Raise KeyError, s') => (Ok tt, s')
    | r => r
    end.

  (** atom.py:1012-1021.  A position outside the table is a KeyError. *)
  Definition load_row (tbl : list trow) (i : nat) : M unit :=
    skip_key (bind (asks KeyError (fun _ => nth_error tbl i)) (fun r =>
              bind (row_level r) (fun a => void N (add_level N a false None)))).
  Definition from_dataframe (tbl : list trow) (num_levels : option Z) : M unit :=
    forM (seq 0 (match num_levels with Some n => Z.to_nat n | None => List.length tbl end)) (load_row tbl).

  (** ** Transitions *)

  (** A row of a transition table without frequencies. *)
  Record xrow : Type := mkXrow {
    xr_cl : string; xr_tl : string; xr_jl : pyv;
    xr_cu : string; xr_tu : string; xr_ju : pyv;
    xr_A : option (N * funit)
  }.

  (** [float(v)] *)
  Definition py_float (v : pyv) : res Q :=
    match v with
    | VNum q => Ok q
    | VStr s => match pyfloat s with Some q => Ok q | None => Raise ValueError end
    | VNone => Raise TypeError
    end.
  (** [util.float_to_frac(float(v))] *)
  Definition j_label (v : pyv) : res string :=
    rbind (py_float v) (fun q => Ok (num_to_frac q)).

  (** atom.py:1072-1084 *)
  Definition load_trans_row (r : xrow) : M unit :=
    bind (fun s => (j_label (xr_jl r), s)) (fun jl =>
    bind (fun s => (j_label (xr_ju r), s)) (fun ju =>
    skip_key (
      bind (levels_get N (xr_cl r ++ " " ++ xr_tl r ++ jl)) (fun e1 =>
      bind (levels_get N (xr_cu r ++ " " ++ xr_tu r ++ ju)) (fun e2 =>
      bind (new_transition N muB e1 e2 None (xr_A r) None) (fun t =>
      void N (add_transition N muB orc (TObj t) None None None))))))).
  Definition populate_transitions_df (rows : list xrow) : M unit := forM rows load_trans_row.

  (** ** generate_full_from_dataframe *)

  (** Which of the arguments about transitions are given. *)
  Inductive tsource := TNothing | TCsv | TDfNone | TDf (rows : list xrow).

  Context (parse : string -> res N).
  (** IO.py:300-315.  [hf]: the text of the csv file, if the argument is given
      and the file exists. *)
  Definition generate_full (tbl : list trow) (num_levels : option Z) (hf : option string) (tr : tsource) : M unit :=
    bind (from_dataframe tbl num_levels) (fun _ =>
    bind (match hf with
            | Some file => fun s => match apply_hf_csv N parse file s with (Raise TypeError, s') => (Ok tt, s') | r => r end
            | None => ret tt end) (fun _ =>
    bind (match tr with
            | TCsv => raise NotImplementedError
            | TDf rows => populate_transitions_df rows
            | TDfNone => populate_transitions N muB (true, true, true)
            | TNothing => populate_transitions N muB (true, false, false)
            end) (fun _ =>
    populate_internal N muB))).
End Tables.

(** ** The g-value of a loaded level

    atom.py:371 passes [df["Lande"][i]], which [pd.to_numeric] has made a
    float: an empty cell is NaN.  atom.py:259 computes a g-value only for
    [None]. *)
From Verif Require Import Hyperfine.
Definition loaded_g (cell : option Qc) : npnum :=
  match cell with Some g => Fin g | None => NaN end.

(** ** Cells of a NIST table *)

(** IO.py:41 strips blanks, equals signs, double quotes and question marks. *)
Definition junk (a : ascii) : bool := has_char a (" =" ++ String "034" "?").
Fixpoint lstrip (p : ascii -> bool) (s : string) : string :=
  match s with
  | String a s' => if p a then lstrip p s' else s
  | EmptyString => EmptyString
  end.
Fixpoint rstrip (p : ascii -> bool) (s : string) : string :=
  match s with
  | String a s' =>
      match rstrip p s' with
      | EmptyString => if p a then EmptyString else String a EmptyString
      | r => String a r
      end
  | EmptyString => EmptyString
  end.
Definition strip (p : ascii -> bool) (s : string) : string := rstrip p (lstrip p s).
Definition clean_cell (s : string) : string := strip junk s.

(** [re.sub(r'[a-z] ', '', k)], IO.py:46: matches do not overlap and the
    result is not searched again. *)
Fixpoint drop_labels (s : string) : string :=
  match s with
  | String a (String b s' as r) => if is_lower a && Ascii.eqb b " " then drop_labels s' else String a (drop_labels r)
  | s => s
  end.

(** IO.py:211-214: the levels of a csv file.  If any of them is not a number,
    everything but digits and points is removed from all of them. *)
Fixpoint keep (p : ascii -> bool) (s : string) : string :=
  match s with
  | String a s' => if p a then String a (keep p s') else keep p s'
  | EmptyString => EmptyString
  end.
Definition num_char (a : ascii) : bool := is_digit a || Ascii.eqb a ".".
Fixpoint all_ok {A B} (f : A -> option B) (l : list A) : option (list B) :=
  match l with
  | [] => Some []
  | x :: l' => match f x, all_ok f l' with Some y, Some r => Some (y :: r) | _, _ => None end
  end.
Definition level_column (cells : list string) : res (list Q) :=
  match all_ok pyfloat cells with
  | Some qs => Ok qs
  | None => match all_ok pyfloat (map (keep num_char) cells) with Some qs => Ok qs | None => Raise ValueError end
  end.

(** IO.py:205-210: the columns asked for must be in the file, and the column
    used afterwards must be among them.  With no argument the names are the
    lower-case ones. *)
Definition default_columns : list (string * string) :=
  map (fun c => (c, c)) ["configuration"; "term"; "j"; "level (cm-1)"; "lande"; "leading percentages"].
Definition load_level_data (file : list (string * list string)) (columns : option (list (string * string))) : res (list Q) :=
  let cols := match columns with Some c => c | None => default_columns end in
  match all_ok (fun kc => option_map (fun v => (fst kc, v)) (dget (snd kc) file)) cols with
  | None => Raise KeyError
  | Some df => match dget "Level (cm-1)" df with Some cells => level_column cells | None => Raise KeyError end
  end.
