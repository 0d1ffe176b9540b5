(** Levels and transitions as dictionaries of their sublevels and
    subtransitions: the dict-like methods of BaseLevel (atom.py:187-225) and of
    BaseTransition (atom.py:664-701) other than [x[key]], which is in Atom.v. *)
From Coq Require Import List Bool ZArith QArith Qcanon Lia String Ascii.
From Verif Require Import Base Num PyStr Util Regex Parse Term Graph Rules Atom AtomInv.
Import ListNotations.
Local Open Scope string_scope.

Section View.
  Context (N : Num) (muB : N).
  Notation M := (M N).

  (** [level.items()]: atom.py:223-225. *)
  Definition lv_items (a : nat) : M (list (string * nat)) :=
    bind (lazy_sublevels N a) (fun _ => bind (get_lv a) (fun l => ret (l_subs l))).
  (** [len(level)]: atom.py:188-190. *)
  Definition lv_len (a : nat) : M nat :=
    bind (lazy_sublevels N a) (fun _ => bind (get_lv a) (fun l => ret (List.length (l_subs l)))).
  (** [level.keys()] and [iter(level)]: atom.py:207-209, 219-221. *)
  Definition lv_keys (a : nat) : M (list string) :=
    bind (lazy_sublevels N a) (fun _ => bind (get_lv a) (fun l => ret (dkeys (l_subs l)))).
  (** [key in level]: there is no [__contains__], so Python goes through
      [iter(level)]. *)
  Definition lv_contains (a : nat) (key : string) : M bool :=
    bind (lv_keys a) (fun ks => ret (existsb (String.eqb key) ks)).
  (** [bool(level)]: there is no [__bool__], so Python asks for [len(level)]. *)
  Definition lv_bool (a : nat) : M bool := bind (lv_len a) (fun n => ret (negb (Nat.eqb n 0))).
  (** [del level[key]]: atom.py:204-205, without the decorator. *)
  Definition lv_del (a : nat) (key : string) : M unit :=
    bind (get_lv a) (fun l =>
    if dmem key (l_subs l) then modify (upd_lv a (fun l => lv_set_subs N (ddel key (l_subs l)) l)) else raise KeyError).
  (** [level[key] = other]: atom.py:200-202, without the decorator. *)
  Definition lv_set_parent (p : option nat) (l : level N) : level N :=
    mkLevel N (l_kind l) p (l_term l) (l_attached l) (l_alias l) (l_fixed l) (l_subs l) (l_E l)
      (l_hfA l) (l_hfB l) (l_hfC l) (l_lande l) (l_gF l) (l_qz l).
  Definition lv_setitem (a : nat) (key : string) (b : nat) : M unit :=
    bind (modify (upd_lv b (lv_set_parent (Some a)))) (fun _ =>
    modify (upd_lv a (fun l => lv_set_subs N (dset key b (l_subs l)) l))).

  (** The same for a transition: atom.py:666-668, 683-685, 695-701, 680-681. *)
  Definition tr_items (t : nat) : M (list (string * string * nat)) :=
    bind (lazy_subtransitions N muB t) (fun _ => bind (get_tr t) (fun x => ret (x_subs x))).
  Definition tr_len (t : nat) : M nat :=
    bind (lazy_subtransitions N muB t) (fun _ => bind (get_tr t) (fun x => ret (List.length (x_subs x)))).
  Definition tr_keys (t : nat) : M (list (string * string)) :=
    bind (lazy_subtransitions N muB t) (fun _ => bind (get_tr t) (fun x => ret (dkeys (x_subs x)))).
  Definition tr_contains (t : nat) (k : string * string) : M bool :=
    bind (tr_keys t) (fun ks => ret (existsb (fun k' => String.eqb (fst k) (fst k') && String.eqb (snd k) (snd k')) ks)).
  Definition tr_bool (t : nat) : M bool := bind (tr_len t) (fun n => ret (negb (Nat.eqb n 0))).
  Definition tr_del (t : nat) (k : string * string) : M unit :=
    bind (get_tr t) (fun x =>
    if dmem k (x_subs x) then modify (upd_tr t (fun x => tr_set_subs N (ddel k (x_subs x)) x)) else raise KeyError).
  (** [t[key] = other]: atom.py:677-678. *)
  Definition tr_setitem (t : nat) (k : string * string) (c : nat) : M unit :=
    modify (upd_tr t (fun x => tr_set_subs N (dset k c (x_subs x)) x)).
End View.
