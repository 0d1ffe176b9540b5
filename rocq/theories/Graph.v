(** The part of networkx's [Graph] the code uses: nodes and edges carrying one
    attribute each, in insertion order, and depth-first search. *)
From Coq Require Import List Bool ZArith Lia String.
From Verif Require Import Base.
Import ListNotations.

(** [nodes]: node name to the attribute 'level' (absent for nodes created by
    [add_edge]); [adj]: the adjacency of dictionaries with the attribute
    'transition'.  Levels and transitions are heap addresses. *)
Record graph : Type := mkGraph {
  g_nodes : dict string (option nat);
  g_adj : dict string (dict string nat)
}.

(** [nx.Graph()]: atom.py:890-892. *)
Definition g_empty : graph := mkGraph [] [].

(** [g.add_node(n)] without attributes, as done by [add_edge]. *)
Definition g_touch (n : string) (g : graph) : graph :=
  if dmem n (g_nodes g) then g
  else mkGraph (dset n None (g_nodes g)) (dset n [] (g_adj g)).

(** [g.add_node(n, level=l)] *)
Definition g_add_node (n : string) (l : nat) (g : graph) : graph :=
  let g' := g_touch n g in
  mkGraph (dset n (Some l) (g_nodes g')) (g_adj g').

(** [g.adj[u]] *)
Definition nbrs (g : graph) (u : string) : dict string nat :=
  match dget u (g_adj g) with Some d => d | None => [] end.

(** [adj[u][v] = t] *)
Definition g_link (u v : string) (t : nat) (g : graph) : graph :=
  mkGraph (g_nodes g) (dset u (dset v t (nbrs g u)) (g_adj g)).

(** [g.add_edge(u, v, transition=t)] *)
Definition g_add_edge (u v : string) (t : nat) (g : graph) : graph :=
  g_link v u t (g_link u v t (g_touch v (g_touch u g))).

(** [g.remove_node(n)]; None is networkx's NetworkXError. *)
Definition g_remove_node (n : string) (g : graph) : option graph :=
  if dmem n (g_nodes g) then
    Some (mkGraph (ddel n (g_nodes g))
            (ddel n (map (fun un => (fst un, ddel n (snd un))) (g_adj g))))
  else None.

(** [nx.get_node_attributes(g, 'level')] *)
Fixpoint somes {A} (d : dict string (option A)) : dict string A :=
  match d with
  | [] => []
  | (k, Some v) :: d' => (k, v) :: somes d'
  | (_, None) :: d' => somes d'
  end.
Definition node_attrs (g : graph) : dict string nat := somes (g_nodes g).

(** [g.edges(data='transition')]: each edge once, from the end whose node was
    inserted first. *)
Fixpoint edges_from (seen : list string) (a : dict string (dict string nat)) : dict (string * string) nat :=
  match a with
  | [] => []
  | (u, d) :: a' =>
      map (fun vt => ((u, fst vt), snd vt)) (filter (fun vt => negb (existsb (String.eqb (fst vt)) seen)) d)
      ++ edges_from (u :: seen) a'
  end.
(** [nx.get_edge_attributes(g, 'transition')] *)
Definition edge_attrs (g : graph) : dict (string * string) nat := edges_from [] (g_adj g).

(** [g.edges[u, v]['transition']] *)
Definition edge (g : graph) (u v : string) : option nat := dget v (nbrs g u).

(** ** Depth-first search *)

Definition mem (x : string) (l : list string) : bool := existsb (String.eqb x) l.

(** [nx.dfs_edges(g, source)] as a recursion: the tree edges in the order in
    which they are yielded, and the visited nodes.  [next u] lists the
    neighbours of [u] in iteration order.  networkx limits the depth to the
    number of nodes, which is never reached. [None]: the fuel ran out. *)
Fixpoint dfs (fuel : nat) (next : string -> list string) (u : string) (vis : list string)
  : option (list (string * string) * list string) :=
  match fuel with
  | O => None
  | S fuel' =>
      (fix go (cs : list string) (vis : list string) : option (list (string * string) * list string) :=
         match cs with
         | [] => Some ([], vis)
         | c :: cs' =>
             if mem c vis then go cs' vis
             else match dfs fuel' next c (c :: vis) with
                  | None => None
                  | Some (es, vis1) =>
                      match go cs' vis1 with
                      | None => None
                      | Some (es', vis2) => Some (((u, c) :: es) ++ es', vis2)
                      end
                  end
         end) (next u) vis
  end.

(** [list(nx.dfs_edges(g, source=u))]: atom.py:1159. *)
Definition dfs_edges (fuel : nat) (next : string -> list string) (u : string) : option (list (string * string)) :=
  match dfs fuel next u [u] with Some (es, _) => Some es | None => None end.

(** [nx.connected_components]: the node sets, in order of their first node. *)
Fixpoint components (fuel : nat) (next : string -> list string) (ns : list string) (seen : list string)
  : option (list (list string)) :=
  match ns with
  | [] => Some []
  | n :: ns' =>
      if mem n seen then components fuel next ns' seen
      else match dfs fuel next n [n] with
           | None => None
           | Some (_, c) =>
               match components fuel next ns' (c ++ seen) with
               | None => None
               | Some cs => Some (c :: cs)
               end
           end
  end.

(** networkx iterates over subgraph views in an order that may be that of a
    Python set of strings, i.e. arbitrary.  An oracle gives the order of the
    components, of the nodes of a component and of the neighbours of a node. *)
Record oracle : Type := mkOracle {
  o_comps : list (list string) -> list (list string);
  o_nodes : list string -> list string;
  o_nbrs : string -> list string -> list string
}.
