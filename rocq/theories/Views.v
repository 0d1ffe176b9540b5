(** The dict-like views [atom.levels] and [atom.transitions]
    (atom_helpers.py:59-80, 145-174), slices of levels (atom_helpers.py:43-44)
    and the constructor of an atom with given levels and transitions
    (atom.py:901-907). *)
From Coq Require Import List Bool ZArith Lia String.
From Verif Require Import Base Num Graph Atom AtomInv.
Import ListNotations.

(** ** Python slices *)

(** [slice(start, stop, step)]; a missing part is None. *)
Record slice := mkSlice { sl_start : option Z; sl_stop : option Z; sl_step : option Z }.
(** One bound: negative values count from the end, then it is clamped. *)
Definition bound (n lower upper : Z) (v : Z) : Z := if (v <? 0)%Z then Z.max (v + n) lower else Z.min v upper.
(** [slice.indices(n)] for a step other than 0. *)
Definition indices (n : Z) (sl : slice) : Z * Z * Z :=
  let step := match sl_step sl with Some z => z | None => 1%Z end in
  let lower := if (step <? 0)%Z then (-1)%Z else 0%Z in
  let upper := if (step <? 0)%Z then (n - 1)%Z else n in
  let start := match sl_start sl with Some v => bound n lower upper v | None => if (step <? 0)%Z then upper else lower end in
  let stop := match sl_stop sl with Some v => bound n lower upper v | None => if (step <? 0)%Z then lower else upper end in
  (start, stop, step).
(** [range(start, stop, step)] *)
Definition range (start stop step : Z) : list Z :=
  let c := if (step <? 0)%Z then ((start - stop - step - 1) / (- step))%Z else ((stop - start + step - 1) / step)%Z in
  map (fun k => (start + Z.of_nat k * step)%Z) (seq 0 (Z.to_nat c)).
Definition py_slice {A} (l : list A) (sl : slice) : res (list A) :=
  match sl_step sl with
  | Some 0%Z => Raise ValueError
  | _ =>
      let '(start, stop, step) := indices (Z.of_nat (List.length l)) sl in
      Ok (flat_map (fun i => match nth_error l (Z.to_nat i) with Some x => [x] | None => [] end) (range start stop step))
  end.

Section Views.
  Context (N : Num) (muB : num N) (orc : nat -> oracle).
  Notation st := (st N).
  Implicit Types (s : st) (a t : nat).

  (** [levels.keys()], [iter(levels)], [levels.list_names()]; [levels.values()];
      [len(levels)]. *)
  Definition level_keys s : list string := dkeys (node_attrs (s_g0 s)).
  Definition level_values s : list nat := dvals (node_attrs (s_g0 s)).
  Definition level_len s : nat := List.length (node_attrs (s_g0 s)).
  (** [levels[a:b:c]] *)
  Definition levels_slice (sl : slice) : M N (list nat) :=
    bind (asks Dangling (by_energy N muB)) (fun l => fun s => (py_slice l sl, s)).
  (** [levels[key] = level], [levels.append(level)] *)
  Definition levels_setitem (key : string) a : M N nat := add_level N a false (Some key).
  Definition levels_append a : M N nat := add_level N a false None.

  (** [transitions.keys()], [transitions.values()], [len(transitions)]. *)
  Definition trans_keys s : list (string * string) := dkeys (edge_attrs (s_g0 s)).
  Definition trans_values s : list nat := dvals (edge_attrs (s_g0 s)).
  Definition trans_len s : nat := List.length (edge_attrs (s_g0 s)).
  (** [transitions.list_names(hide_self_transitions)] *)
  Definition trans_names (hide : bool) s : list (string * string) :=
    if hide then filter (fun k => negb (String.eqb (fst k) (snd k))) (trans_keys s) else trans_keys s.
  (** [transitions.append(t)] *)
  Definition trans_append t : M N nat := add_transition N muB orc (TObj t) None None None.
  (** [transitions[key] = t] and [del transitions[key]]: Python passes a key
      and a value (a key) to methods taking only a value (two names). *)
  Definition trans_setitem (key : string * string) t : M N unit := raise TypeError.
  Definition trans_delitem (key : string * string) : M N unit := raise TypeError.

  (** [Atom(name, I, B, levels, transitions)], where the lists contain objects
      made before. *)
  Definition atom_init (ls : list nat) (ts : list nat) : M N unit :=
    bind (forM ls (fun a => void N (add_level N a false None))) (fun _ =>
    forM ts (fun t => void N (add_transition N muB orc (TObj t) None None None))).
End Views.
