(** [Atom.enforce_consistency(node_or_trans)] with the arguments its
    documentation names: atom.py:1131-1169. *)
From Coq Require Import List Bool ZArith String.
From Verif Require Import Base PyStr Util Parse Term Num Wigner Hyperfine Graph Rules Atom AtomInv DictView.
Import ListNotations.

Section Restrict.
  Context (N : Num) (muB : N) (orc : nat -> oracle).
  Notation M := (M N).

  Inductive target :=
  | TaNone                        (* no argument *)
  | TaPair (u v : string)         (* the names of two levels, what the library itself passes *)
  | TaLevel (a : nat)             (* a level *)
  | TaTrans (t : nat).            (* a transition *)

  (** Lines 1145-1148: is the component [c] enforced?  [if node_or_trans] asks
      for [len] of a level or transition; the nodes of the graph are strings,
      so that an object is never [in subgraph]; [in subgraph.edges()] unpacks
      the object's keys, which are not names of levels of the graph, and
      networkx answers False to the KeyError or ValueError of that. *)
  Definition wanted (tg : target) (c : list string) : M bool :=
    match tg with
    | TaNone => ret true
    | TaPair u v => gets (fun s => touched N s c (Some (u, v)))
    | TaLevel a => bind (lv_bool N a) (fun b => ret (negb b))
    | TaTrans t => bind (tr_bool N muB t) (fun b => ret (negb b))
    end.

  Definition enforce_consistency (tg : target) : M unit :=
    bind (gets s_tick) (fun n =>
    bind (modify (tick N)) (fun _ =>
    let o := orc n in
    bind (gets (fun s => S (List.length (set_nodes N s)))) (fun fuel =>
    bind (asks OutOfFuel (fun s => components fuel (set_nbrs N s) (set_nodes N s) [])) (fun cs =>
    forM (o_comps o cs) (fun c => bind (wanted tg c) (fun b => if b then enforce_comp N muB o fuel c else ret tt)))))).
End Restrict.
