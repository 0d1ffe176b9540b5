(** Transition tables read from a file: [load_transition_data] (IO.py:169-194),
    and [Atom.populate_transitions_df] (atom.py:1066-1084) for tables that have
    frequencies.

    A file is given by its columns (pandas.read_csv is not modelled).  The
    frequency of a transition is then whatever the cell holds: a Quantity only
    if somebody put one there.  Every other cell (a number, NaN, a text) is a
    value that has no method [to]. *)
From Coq Require Import List Bool ZArith QArith Qcanon Lia String Ascii.
From Verif Require Import Base Num PyStr Util Regex Parse Term Graph Rules Atom Tables.
Import ListNotations.
Local Open Scope string_scope.

(** ** load_transition_data *)

Inductive cell := CStr (s : string) | CNum (q : Q) | CNaN.

(** A row of the result; None: the column that is filled with None.  The
    numbers of the last one are in MHz. *)
Record lrow := mkLrow {
  lr_cl : cell; lr_tl : cell; lr_jl : cell;
  lr_cu : cell; lr_tu : cell; lr_ju : cell;
  lr_f : option cell; lr_A : option cell
}.

Section Load.
  (** The columns of the file, all of the same length [n]. *)
  Context (file : dict string (list cell)) (n : nat).

  (** IO.py:180-183, the lines that fill in "freq" and "A". *)
  Definition synonym (new old : string) (cols : dict string string) : dict string string :=
    if negb (dmem new cols) && dmem old cols then
      match dget old cols with Some v => dset new v cols | None => cols end
    else cols.
  Definition columns_used (cols : dict string string) : dict string string :=
    synonym "A" "A_coeff" (synonym "freq" "frequency" cols).

  (** [df_file[columns[k]]] *)
  Definition column (cols : dict string string) (k : string) : res (list cell) :=
    match dget k cols with
    | None => Raise KeyError
    | Some name => match dget name file with Some c => Ok c | None => Raise KeyError end
    end.
  Definition maybe_column (cols : dict string string) (k : string) : res (option (list cell)) :=
    if dmem k cols then rbind (column cols k) (fun c => Ok (Some c)) else Ok None.
  Definition at_row (c : list cell) (i : nat) : cell := nth i c CNaN.

  (** IO.py:169-194.  The result, and the dict the caller passed as [columns]
      afterwards. *)
  Definition load_transition_data (columns : option (dict string string)) : res (list lrow) * option (dict string string) :=
    match columns with
    | None => (Raise TypeError, None)
    | Some cols0 =>
        let cols := columns_used cols0 in
        (rbind (column cols "conf_l") (fun cl => rbind (column cols "term_l") (fun tl => rbind (column cols "j_l") (fun jl =>
         rbind (column cols "conf_u") (fun cu => rbind (column cols "term_u") (fun tu => rbind (column cols "j_u") (fun ju =>
         rbind (maybe_column cols "freq") (fun f => rbind (maybe_column cols "A") (fun a =>
         Ok (map (fun i => mkLrow (at_row cl i) (at_row tl i) (at_row jl i) (at_row cu i) (at_row tu i) (at_row ju i)
                             (option_map (fun c => at_row c i) f) (option_map (fun c => at_row c i) a)) (seq 0 n)))))))))),
         Some cols)
    end.
End Load.

(** ** Rows with frequencies *)

Section Freq.
  Context (N : Num) (muB : N) (orc : nat -> oracle).
  Notation st := (st N).
  Notation M := (M N).

  (** [FRaw v]: something that is neither None nor a Quantity; [v] is not
      used. *)
  Inductive fcell := FNone | FRaw (v : N) | FQty (f : N).
  Definition is_raw (c : fcell) : bool := match c with FRaw _ => true | _ => false end.
  Definition given (c : fcell) : option N := match c with FNone => None | FRaw v | FQty v => Some v end.

  (** atom.py:1159-1169 with the transitions [raw] whose [set_freq] has no
      [to]. *)
  Definition enforce_edge_raw (raw : list nat) (uv : string * string) : M unit :=
    bind (asks Dangling (fun s => edge (s_g0 s) (fst uv) (snd uv))) (fun t =>
    if existsb (Nat.eqb t) raw then raise AttributeError else enforce_edge N uv).
  Definition enforce_comp_raw (raw : list nat) (o : oracle) (fuel : nat) (c : list string) : M unit :=
    bind (asks AttributeError (fun s => lowest N muB s (o_nodes o c) None)) (fun low =>
    match low with
    | None => ret tt
    | Some (_, key) =>
        bind (asks OutOfFuel (fun s => dfs_edges fuel (fun u => o_nbrs o u (set_nbrs N s u)) key)) (fun es =>
        forM es (enforce_edge_raw raw))
    end).
  (** atom.py:1131-1169 without argument. *)
  Definition enforce_raw (raw : list nat) : M unit :=
    bind (gets (s_tick)) (fun n =>
    bind (modify tick) (fun _ =>
    bind (gets (fun s => S (List.length (set_nodes N s)))) (fun fuel =>
    bind (asks OutOfFuel (fun s => components fuel (set_nbrs N s) (set_nodes N s) [])) (fun cs =>
    forM (o_comps (orc n) cs) (enforce_comp_raw raw (orc n) fuel))))).

  (** A row and its frequency cell. *)
  Definition frow : Type := xrow N * fcell.

  (** atom.py:1072-1084 with atom.py:937-960.  The result also says which
      transitions now have a frequency that is not a Quantity. *)
  Definition load_frow (raw : list nat) (rf : frow) (s : st) : res (list nat) * st :=
    let (r, f) := rf in
    match j_label (xr_jl N r) with Raise e => (Raise e, s) | Ok jl =>
    match j_label (xr_ju N r) with Raise e => (Raise e, s) | Ok ju =>
    match bind (levels_get N (xr_cl N r ++ " " ++ xr_tl N r ++ jl)) (fun e1 =>
          bind (levels_get N (xr_cu N r ++ " " ++ xr_tu N r ++ ju)) (fun e2 =>
          bind (new_transition N muB e1 e2 (given f) (xr_A N r) None) (fun t =>
          let raw' := if is_raw f then t :: raw else raw in
          bind (tr_add_to_atom N t) (fun _ =>
          bind (match given f with Some _ => enforce_raw raw' | None => ret tt end) (fun _ =>
          ret raw'))))) s
    with
    | (Raise KeyError, s') => (Ok raw, s')
    | x => x
    end end end.
  Fixpoint load_frows (raw : list nat) (rows : list frow) (s : st) : res (list nat) * st :=
    match rows with
    | [] => (Ok raw, s)
    | r :: rows' => match load_frow raw r s with
                    | (Ok raw', s') => load_frows raw' rows' s'
                    | (Raise e, s') => (Raise e, s')
                    end
    end.
End Freq.

(** The row of a loaded table as the atom reads it: configurations and terms
    are texts, J is what [float] makes of the cell, and A is in MHz. *)
Definition cell_v (c : cell) : option pyv := match c with CStr s => Some (VStr s) | CNum q => Some (VNum q) | CNaN => None end.
Definition frow_of (N : Num) (r : lrow) : option (frow N) :=
  match lr_cl r, lr_tl r, cell_v (lr_jl r), lr_cu r, lr_tu r, cell_v (lr_ju r) with
  | CStr cl, CStr tl, Some jl, CStr cu, CStr tu, Some ju =>
      match lr_A r with
      | None => Some (mkXrow N cl tl jl cu tu ju None, match lr_f r with None => FNone N | Some _ => FRaw N (nofQ N 0) end)
      | Some (CNum q) => Some (mkXrow N cl tl jl cu tu ju (Some (nofQ N q, uMHz)), match lr_f r with None => FNone N | Some _ => FRaw N (nofQ N 0) end)
      | Some _ => None
      end
  | _, _, _, _, _, _ => None
  end.
