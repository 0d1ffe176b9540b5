(** What [repr] says about levels, transitions, atoms and their views.  The
    result is the list of facts in the text, not the text. *)
From Coq Require Import List Bool ZArith Lia String.
From Verif Require Import Base Num Graph Term Atom AtomInv Views.
Import ListNotations.
Local Open Scope string_scope.

Section Printing.
  Context (N : Num) (muB : num N).
  Notation st := (st N).
  Notation M := (M N).

  (** [<EnergyLevel(name = ..., level=..., n sublevels)>]: atom.py:78-79.  The
      number is that of the sublevels computed so far; nothing is computed. *)
  Record level_text : Type := mkLevelText { lt_type : lkind; lt_name : string; lt_energy : N; lt_subs : nat }.
  Definition level_repr (a : nat) : M level_text :=
    bind (get_lv a) (fun l => bind (asks Dangling (fun s => energy N muB s a)) (fun e =>
    ret (mkLevelText (l_kind l) (lname l) e (List.length (l_subs l))))).

  (** [name] of a transition made without one (atom.py:569-571; the arrow is
      written here as two characters), and
      [<Transition(name, freq=..., A=...>]: atom.py:587-588. *)
  Definition trans_name (s : st) (t : nat) : option string :=
    match tr s t with
    | Some x => match nm s (x_E1 x), nm s (x_E2 x) with Some u, Some v => Some (u ++ " -> " ++ v) | _, _ => None end
    | None => None
    end.
  Record trans_text : Type := mkTransText { tt_type : tkind; tt_name : string; tt_freq : N; tt_A : option (N * funit) }.
  Definition trans_repr (t : nat) : M trans_text :=
    bind (get_tr t) (fun x => bind (asks Dangling (fun s => trans_name s t)) (fun n =>
    bind (asks Dangling (fun s => freq N muB s t)) (fun f => ret (mkTransText (x_kind x) n f (x_A x))))).

  (** [<Atom(name=..., I=..., n levels)>]: atom.py:909-910 (I doubled). *)
  Definition atom_repr : M (Z * nat) := bind (gets s_I) (fun i => bind (gets (level_len N)) (fun n => ret (i, n))).

  (** [LevelStructure containing n levels of type ...]:
      atom_helpers.py:22-23. *)
  Definition levels_repr : M (nat * lkind) :=
    bind (gets (level_len N)) (fun n => bind (gets (level_values N)) (fun vs =>
    match vs with
    | [] => raise IndexError
    | a :: _ => bind (get_lv a) (fun l => ret (n, l_kind l))
    end)).
  (** [TransitionStructure containing n transitions of type ...]:
      atom_helpers.py:99-100. *)
  Definition transitions_repr : M (nat * tkind) :=
    bind (gets (trans_len N)) (fun n => bind (gets (trans_values N)) (fun vs =>
    match vs with
    | [] => raise IndexError
    | t :: _ => bind (get_tr t) (fun x => ret (n, x_kind x))
    end)).
End Printing.
