(** Model of how [atomtoolkit/render/grotrian.py] keeps the levels and
    transitions of a diagram and turns them into lines, rectangles, brackets and
    arrows: Grotrian.__init__, add_level, add_transition, render, render_levels
    and render_transitions.  The coordinates are those of [Grotrian.v].
    matplotlib is modelled as far as it is used: collections take the i-th
    colour and the i-th line width in turn, starting again after the last; a
    patch refuses keyword arguments that are not among its properties. *)
From Coq Require Import List Bool ZArith QArith Qcanon Lia String.
From Verif Require Import Base PyStr Util Term Num Hyperfine Graph Rules Atom AtomInv Grotrian.
Import ListNotations.
Local Open Scope Qc_scope.

(** An RGBA tuple. *)
Definition color : Type := list Qc.
(** The keyword arguments of add_level that do not move anything:
    grotrian.py:88-96. *)
Record style : Type := mkStyle {
  st_color : option color; st_lw : option Qc;
  st_alpha : option Qc; st_rcolor : option color; st_fill : option bool;
  st_h : option Qc; st_bcolor : option color; st_blw : option Qc
}.
Definition plain_style : style := mkStyle None None None None None None None None.
Definition get {A} (d : A) (o : option A) : A := match o with Some x => x | None => d end.

(** A row of lines_df with its keyword arguments; those of sublevels are copies
    (grotrian.py:416-418, 449-451, 463-465). *)
Definition srow : Type := row * style.

(** The keyword arguments of add_transition: grotrian.py:221-232.  [None]: no
    override_bbox given.  [ak_rest]: the other names, passed on to the arrow. *)
Record akw : Type := mkAkw {
  ak_n0 : Z; ak_n1 : Z; ak_off0 : pt; ak_off1 : pt; ak_over : option (option string * option string); ak_rest : list string
}.
Definition plain_arrow : akw := mkAkw 5 5 (0, 0) (0, 0) None [].

(** The strategy of a level: [None] is a name that add_level does not know and
    leaves as it is. *)
Record prompt : Type := mkPrompt { pr_level : nat; pr_strategy : option strategy; pr_opts : opts; pr_style : style }.
Record diagram : Type := mkDiagram { d_levels : list prompt; d_lines : list srow; d_trans : list (nat * akw) }.
(** Grotrian.__init__: grotrian.py:39-51. *)
Definition new_diagram : diagram := mkDiagram [] [] [].

(** grotrian.py:100-107; the class attribute is 'gross'. *)
Definition named_strategy (name : option string) : option strategy :=
  let n := get "gross"%string name in
  if String.eqb n "g" || String.eqb n "gross" then Some SGross
  else if String.eqb n "hf" || String.eqb n "hyperfine" then Some SHyperfine
  else if String.eqb n "z" || String.eqb n "zeeman" then Some SZeeman else None.
(** add_level: grotrian.py:53-111. *)
Definition add_level (a : nat) (name : option string) (o : opts) (c : style) (d : diagram) : diagram :=
  mkDiagram (d_levels d ++ [mkPrompt a (named_strategy name) o c]) (d_lines d) (d_trans d).
(** add_transition: grotrian.py:113-148.  substructure and color_func are kept
    but never used. *)
Definition add_transition (t : nat) (k : akw) (d : diagram) : diagram :=
  mkDiagram (d_levels d) (d_lines d) (d_trans d ++ [(t, k)]).

(** ** What is drawn *)

Record seg : Type := mkSeg { sg_p0 : pt; sg_p1 : pt; sg_color : color; sg_lw : Qc }.
Record rect : Type := mkRect { rc_at : pt; rc_w : Qc; rc_h : Qc; rc_alpha : Qc; rc_color : option color; rc_fill : bool }.
Record poly : Type := mkPoly { pl_pts : list pt; pl_color : color; pl_lw : Qc }.
Record picture : Type := mkPicture {
  pc_brackets : list poly; pc_rects : list rect; pc_segs : list seg; pc_arrows : list (option pt * option pt) }.

(** brackets: grotrian.py:171-173. *)
Definition brackets (b : box) (h : Qc) : list (list pt) :=
  [[(b_x0 b + h, b_y0 b); (b_x0 b, b_y0 b); (b_x0 b, b_y1 b); (b_x0 b + h, b_y1 b)];
   [(b_x1 b - h, b_y0 b); (b_x1 b, b_y0 b); (b_x1 b, b_y1 b); (b_x1 b - h, b_y1 b)]].

Definition is_rect (s : string) : bool := String.eqb s "rect" || String.eqb s "rectangle".
(** grotrian.py:183-193. *)
Definition row_rect (r : srow) : list rect :=
  match r_bbox (fst r) with
  | Some s => if is_rect s then
      let b := r_box (fst r) in
      [mkRect (b_x0 b, b_y0 b) (b_x1 b - b_x0 b) (b_y1 b - b_y0 b) (get (qc (1 # 5)) (st_alpha (snd r))) (st_rcolor (snd r)) (get true (st_fill (snd r)))]
      else []
  | None => []
  end.
(** grotrian.py:183-186, 194-196. *)
Definition row_brackets (r : srow) : list (list pt) :=
  match r_bbox (fst r) with
  | Some s => if is_rect s then [] else if String.eqb s "bracket" then brackets (r_box (fst r)) (get (qc (1 # 20)) (st_h (snd r))) else []
  | None => []
  end.
(** [d.get('bbox', False)] as a condition: neither None nor the empty string. *)
Definition framed (r : srow) : bool :=
  match r_bbox (fst r) with Some s => negb (String.eqb s "") | None => false end.

(** A LineCollection: item [i] has colour [i mod len(colours)]. *)
Definition turn {A} (d : A) (l : list A) (i : nat) : A := nth (i mod List.length l) l d.
Fixpoint number {A} (i : nat) (l : list A) : list (nat * A) :=
  match l with [] => [] | x :: l' => (i, x) :: number (S i) l' end.
Definition black : color := [0; 0; 0; 1].
Definition shade : color := [0; 0; 0; qc (4 # 5)].
Definition bracket_collection (rs : list srow) : list poly :=
  let bs := filter framed rs in
  let cs := map (fun r => get shade (st_bcolor (snd r))) bs in
  let ws := map (fun r => get 1 (st_blw (snd r))) bs in
  map (fun p => mkPoly (snd p) (turn shade cs (fst p)) (turn 1 ws (fst p))) (number 0 (flat_map row_brackets rs)).
(** The lines of the levels: grotrian.py:208-213. *)
Definition level_collection (rs : list srow) : list seg :=
  let vs := filter (fun r => r_show (fst r)) rs in
  let cs := map (fun r => get black (st_color (snd r))) vs in
  let ws := map (fun r => get (qc 2) (st_lw (snd r))) vs in
  map (fun p => mkSeg (fst (snd p)) (snd (snd p)) (turn black cs (fst p)) (turn (qc 2) ws (fst p)))
    (number 0 (map (fun r => (r_p0 (fst r), r_p1 (fst r))) vs)).

Section Render.
  Context (muB : Qc) (known : string -> bool).
  Notation st := (st Exact).
  Notation M := (M Exact).

  (** grotrian.py:176-179: the rows are added to lines_df prompt by prompt;
      those added before an exception stay. *)
  Fixpoint build (ps : list prompt) (ls : list srow) (s : st) : res unit * list srow * st :=
    match ps with
    | [] => (Ok tt, ls, s)
    | p :: ps' =>
        match pr_strategy p with
        | None => (Raise TypeError, ls, s)     (* 'str' object is not callable *)
        | Some k =>
            match table muB k (pr_level p) (pr_opts p) s with
            | (Ok t, s') => build ps' (ls ++ map (fun r => (r, pr_style p)) t) s'
            | (Raise e, s') => (Raise e, ls, s')
            end
        end
    end.

  (** compute_arrow: grotrian.py:221-265.  override_bbox is read with get, so
      that it is passed on to FancyArrowPatch, which refuses it. *)
  Definition draw_arrow (rs : list row) (p : nat * akw) : M (option pt * option pt) :=
    let k := snd p in
    bind (arrow rs (fst p) (ak_n0 k) (ak_n1 k) (ak_off0 k) (ak_off1 k) (get (None, None) (ak_over k))) (fun x =>
    let names := match ak_over k with Some _ => "override_bbox"%string :: ak_rest k | None => ak_rest k end in
    if forallb known names then ret x else raise AttributeError).

  (** render, render_levels, render_transitions: grotrian.py:154-159, 169-219. *)
  Definition render_all (d : diagram) (s : st) : res picture * diagram * st :=
    let '(r, ls, s1) := build (d_levels d) (d_lines d) s in
    let d' := mkDiagram (d_levels d) ls (d_trans d) in
    match r with
    | Raise e => (Raise e, d', s1)
    | Ok _ =>
        match mapM (draw_arrow (map fst ls)) (d_trans d) s1 with
        | (Raise e, s2) => (Raise e, d', s2)
        | (Ok ar, s2) => (Ok (mkPicture (bracket_collection ls) (flat_map row_rect ls) (level_collection ls) ar), d', s2)
        end
    end.
End Render.
