(** Model of [draw_levels] (render/grotrian.py:11-28): a quick diagram of the
    levels graph, the hyperfine graph or the Zeeman graph, drawn by networkx.

    Simplified: the picture is the list of points (one per node, with its
    label) and the list of lines (one per edge); fonts, colours and keyword
    arguments passed on to networkx are left out. *)
From Coq Require Import List Bool ZArith QArith Qcanon String.
From Verif Require Import Base Num Term Graph Atom AtomInv Views.
Import ListNotations.

Inductive plot_type := PNorm | PHf | PZ.

Section DrawLevels.
  Context (N : Num) (muB : num N).
  Notation st := (st N).
  Implicit Types s : st.

  (** [{l.name: (l.term.J, l.level_Hz/1e12) for l in atom.levels.values()}]
      (line 16).  J is given as 2J; None: a level that does not exist. *)
  Definition position s (a : nat) : option (string * (Z * num N)) :=
    match lv s a with
    | Some l => match l_J l, energy N muB s a with
                | Some j, Some e => Some (lname l, (j, ndiv N e (nofQ N 1000000000000)))
                | _, _ => None
                end
    | None => None
    end.
  Fixpoint positions s (ls : list nat) (d : dict string (Z * num N)) : option (dict string (Z * num N)) :=
    match ls with
    | [] => Some d
    | a :: ls' => match position s a with Some (n, p) => positions s ls' (dset n p d) | None => None end
    end.

  (** Lines 17-22: the graph that is copied. *)
  Definition model_of (ty : plot_type) s : graph :=
    match ty with PHf => s_g1 s | PZ => s_g2 s | PNorm => s_g0 s end.

  (** [nx.draw_networkx_nodes]: a node without a position is an error. *)
  Fixpoint place (d : dict string (Z * num N)) (ns : list string) : res (list (string * (Z * num N))) :=
    match ns with
    | [] => Ok []
    | n :: ns' =>
        match dget n d with
        | Some p => rbind (place d ns') (fun r => Ok ((n, p) :: r))
        | None => Raise NetworkXError
        end
    end.

  Record picture := mkPicture { pic_points : list (string * (Z * num N)); pic_lines : list (string * string) }.

  (** Lines 16-28: the edges from a node to itself are removed first. *)
  Definition draw_levels (ty : plot_type) s : res picture :=
    match positions s (level_values N s) [] with
    | None => Raise Dangling
    | Some d =>
        let g := model_of ty s in
        rbind (place d (dkeys (g_nodes g))) (fun pts =>
        Ok (mkPicture pts (filter (fun uv => negb (String.eqb (fst uv) (snd uv))) (dkeys (edge_attrs g)))))
    end.
End DrawLevels.
