(** Model of the coordinate computations of [atomtoolkit/render/grotrian.py]:
    what is drawn where.  Coordinates are exact rationals; drawing itself
    (matplotlib), colours and line widths are not modelled.  A DataFrame of
    lines is a list of rows; sublevels are looked up, and created, as in
    [Atom.v]. *)
From Coq Require Import List Bool ZArith QArith Qcanon Lia String.
From Verif Require Import Base PyStr Util Term Num Hyperfine Graph Rules Atom AtomInv.
Import ListNotations.
Local Open Scope Qc_scope.

(** Numbers of the diagram are exact. *)
Definition qc (q : Q) : Qc := Q2Qc q.

(** [min(a, b)] and [max(a, b)]: the first on ties. *)
Definition Qc_min (a b : Qc) : Qc := if Qc_ltb b a then b else a.
Definition Qc_max (a b : Qc) : Qc := if Qc_ltb a b then b else a.

(** [min(l)] and [max(l)], which raise ValueError on an empty list. *)
Definition least {A} (f : A -> A -> A) (l : list A) : option A :=
  match l with [] => None | x :: l' => Some (fold_left f l' x) end.

(** Points and boxes: grotrian.py:161-167. *)
Definition pt : Type := Qc * Qc.
Record box : Type := mkBox { b_x0 : Qc; b_y0 : Qc; b_x1 : Qc; b_y1 : Qc }.

(** Grotrian.bbox: grotrian.py:161-167. *)
Definition bbox (pts : list pt) (pad : Qc) : res box :=
  match least Qc_min (map fst pts), least Qc_min (map snd pts), least Qc_max (map fst pts), least Qc_max (map snd pts) with
  | Some xl, Some yl, Some xh, Some yh =>
      let y_pad := (yh - yl) * pad in Ok (mkBox (xl - pad) (yl - y_pad) (xh + pad) (yh + y_pad))
  | _, _, _, _ => Raise ValueError
  end.

(** compute_bbox_pos: grotrian.py:233-242.  Weights of the four sides. *)
Definition pos_dict (n : Z) : option (Qc * Qc * Qc * Qc) :=
  let h := qc (1 # 2) in
  match n return option (Qc * Qc * Qc * Qc) with
  | 1%Z => Some (1, 0, 0, 1) | 2%Z => Some (h, 0, h, 1) | 3%Z => Some (0, 0, 1, 1)
  | 4%Z => Some (1, h, 0, h) | 5%Z => Some (h, h, h, h) | 6%Z => Some (0, h, 1, h)
  | 7%Z => Some (1, 1, 0, 0) | 8%Z => Some (h, 1, h, 0) | 9%Z => Some (0, 1, 1, 0)
  | _ => None
  end.
Definition box_pos (b : box) (n : Z) (off : pt) : res pt :=
  match pos_dict n with
  | Some (a0, a1, a2, a3) => Ok (b_x0 b * a0 + b_x1 b * a2 + fst off, b_y0 b * a1 + b_y1 b * a3 + snd off)
  | None => Raise KeyError
  end.

(** ** Keyword arguments of add_level: grotrian.py:50-95, 277-316 *)

Inductive squeeze := SqDefault | SqTrue | SqFalse | SqNum (q : Qc).
(** spacing and sublevel_width: a name or a number. *)
Inductive ratio := Named (s : string) | Value (q : Qc).
Record opts : Type := mkOpts {
  o_width : Qc; o_x0 : option Qc; o_x1 : Qc; o_y0 : option Qc; o_y1 : Qc; o_offset : Qc;
  o_squeeze : squeeze; o_hf : Qc; o_z : Qc; o_spacing : ratio; o_sub : ratio;
  o_pad : Qc; o_fill : Qc; o_bbox : option string
}.
Definition defaults : opts :=
  mkOpts (qc (4 # 5)) None 0 None 0 0 SqDefault (qc 10000) (qc 5) (Value 1) (Value 1) (qc (1 # 20)) (qc (9 # 10)) None.
Definition no_bbox (o : opts) : opts :=
  mkOpts (o_width o) (o_x0 o) (o_x1 o) (o_y0 o) (o_y1 o) (o_offset o) (o_squeeze o) (o_hf o) (o_z o)
    (o_spacing o) (o_sub o) (o_pad o) (o_fill o) None.

(** A row of lines_df. *)
Record row : Type := mkRow { r_level : nat; r_show : bool; r_p0 : pt; r_p1 : pt; r_box : box; r_bbox : option string }.

(** [int(x)] *)
Definition truncate (x : Qc) : Z := Z.quot (Qnum x) (Zpos (Qden x)).

(** grotrian.py:295-301 and 303-309: the names, or a number that must lie
    between 0 and 1. *)
Definition as_ratio (one zero : string) (r : ratio) : res Qc :=
  match r with
  | Named s => if String.eqb s one then Ok 1 else if String.eqb s zero then Ok 0 else Raise TypeError
  | Value q => if Qc_ltb q 0 || Qc_ltb 1 q then Raise AssertionError else Ok q
  end.

Section Grotrian.
  Context (muB : Qc).
  Notation st := (st Exact).
  Notation M := (M Exact).
  Notation "x <- m ;; f" := (bind m (fun x => f)) (at level 61, m at next level, right associativity).

  (** A pure step inside a computation. *)
  Definition of_res {A} (r : res A) : M A := fun s => (r, s).

  (** [level.manifold]: atom.py:266-268, 389-391, 486-488. *)
  Definition manifold (a : nat) : M nat :=
    l <- get_lv a ;;
    match l_kind l with
    | LE => ret a
    | LHF => asks Dangling (fun _ => l_parent l)
    | LZ => asks Dangling (fun s => match l_parent l with
                                    | Some b => match lv s b with Some lb => l_parent lb | None => None end
                                    | None => None end)
    end.

  (** [level.shift_Hz]: atom.py:300-303, 437-439, 499-503. *)
  Definition shift (a : nat) : M Qc :=
    l <- get_lv a ;;
    match l_kind l with
    | LE => asks Dangling (fun s => energyE Exact s a)
    | LHF =>
        p <- asks Dangling (fun _ => l_parent l) ;; lp <- get_lv p ;;
        j <- asks Dangling (fun _ => l_J l) ;; f <- asks Dangling (fun _ => l_F l) ;;
        gets (fun s => hf_shift Exact (s_I s) j f (l_hfA lp) (l_hfB lp) (l_hfC lp))
    | LZ =>
        m <- asks Dangling (fun _ => l_mF l) ;;
        gets (fun s => z_shift Exact muB (l_gF l) m (s_B s) (l_qz l))
    end.

  (** A list comprehension. *)
  Fixpoint mapM {A B} (f : A -> M B) (l : list A) : M (list B) :=
    match l with
    | [] => ret []
    | x :: l' => y <- f x ;; r <- mapM f l' ;; ret (y :: r)
    end.

  (** The F quantum numbers, doubled. *)
  Definition F_of (a : nat) : M Z := l <- get_lv a ;; asks TypeError (fun _ => l_F l).

  (** The values _process_level_kwargs returns: grotrian.py:311. *)
  Record geo : Type := mkGeo {
    g_W : Qc; g_x0 : Qc; g_x1 : Qc; g_y0 : Qc; g_y1 : Qc; g_offset : Qc; g_squeeze : Z;
    g_hf : Qc; g_z : Qc; g_a : Qc; g_b : Qc
  }.

  (** _process_level_kwargs: grotrian.py:269-311.  The level ordering is by J. *)
  Definition process (a : nat) (o : opts) : M geo :=
    l <- get_lv a ;;
    j <- asks Dangling (fun _ => l_J l) ;;
    m <- manifold a ;;
    e <- asks Dangling (fun s => energyE Exact s m) ;;
    if l_attached l then
      i <- gets (fun s => s_I s) ;;
      let top := qc (Z.quot (j + i) 2 # 1) in
      q <- match o_squeeze o with
           | SqDefault | SqTrue => ret top
           | SqNum q => ret q
           | SqFalse =>
               g <- levels_get_int Exact muB 0 ;; bs <- sublevels Exact g ;; fs <- mapM F_of bs ;;
               f <- of_res (ok_or ValueError (least Z.max fs)) ;; ret (qc (f # 2))
           end ;;
      b <- of_res (as_ratio "realistic" "schematic" (o_spacing o)) ;;
      w <- of_res (as_ratio "degeneracy" "schematic" (o_sub o)) ;;
      ret (mkGeo (o_width o) (match o_x0 o with Some x => x | None => qc (j # 2) end) (o_x1 o)
             (match o_y0 o with Some y => y | None => e / qc 1000000000000 end) (o_y1 o) (o_offset o)
             (truncate (qc 2 * q + 1)) (o_hf o) (o_z o) w b)
    else raise AttributeError.

  (** The box of a row, given or computed: grotrian.py:320-323, 374-377. *)
  Definition with_box (a : nat) (over : option box) (show : bool) (p0 p1 : pt) (o : opts) : M row :=
    b <- match over with Some b => ret b | None => of_res (bbox [p0; p1] (o_pad o)) end ;;
    ret (mkRow a show p0 p1 b (o_bbox o)).

  (** _compute_level_row: grotrian.py:313-331. *)
  Definition level_row (a : nat) (over : option box) (show : bool) (o : opts) : M row :=
    g <- process a o ;;
    let y := g_y0 g + g_y1 g in
    with_box a over show (g_x0 g + g_x1 g - g_W g / qc 2, y) (g_x0 g + g_x1 g + g_W g / qc 2, y) o.

  (** The F values of a manifold and the distance of its outer levels:
      grotrian.py:340-343, 361-364. *)
  Definition spread (m : nat) : M (list Z * Z * Qc) :=
    bs <- sublevels Exact m ;; fs <- mapM F_of bs ;;
    hi <- of_res (ok_or ValueError (least Z.max fs)) ;;
    lo <- of_res (ok_or ValueError (least Z.min fs)) ;;
    b <- getitem Exact m (F_key hi) ;; c <- getitem Exact m (F_key lo) ;;
    u <- shift b ;; v <- shift c ;;
    ret (fs, lo, Qc_abs (u - v)).

  (** The ends of a line: grotrian.py:337-338, 346-349.  [fs] F quantum
      numbers, [lo] the least, [f] the one of the level, doubled; [k] its
      doubled mF, [u] the hyperfine and [v] the Zeeman shift. *)
  Definition z_ends (g : geo) (fill : Qc) (fs : list Z) (lo f k : Z) (span u v : Qc) : pt * pt :=
    let sub := fill * g_W g / qc (g_squeeze g # 1) in
    let space := (1 - fill) * g_W g / qc (g_squeeze g - 1 # 1) in
    let n := qc (Z.of_nat (List.length fs) # 1) in
    let i := qc (f - lo # 2) in
    let y := g_y0 g + g_y1 g + g_hf g / qc 1000000000000 *
             (g_b g * (u + g_z g * v) + (1 - g_b g) * (i - n / qc 2) * span / n) in
    let x := g_x0 g + g_x1 g + qc (k # 2) * (sub + space) in
    ((x - sub / qc 2, y), (x + sub / qc 2, y)).

  (** _compute_zlevel_row: grotrian.py:333-356. *)
  Definition zlevel_row (a : nat) (show : bool) (o : opts) : M row :=
    g <- process a o ;;
    if (g_squeeze g =? 0)%Z then raise ZeroDivisionError else
    if (g_squeeze g - 1 =? 0)%Z then raise ZeroDivisionError else
    m <- manifold a ;;
    sp <- spread m ;;
    l <- get_lv a ;;
    f <- F_of a ;;
    b <- asks Dangling (fun _ => l_parent l) ;;
    u <- shift b ;; v <- shift a ;;
    k <- asks Dangling (fun _ => l_mF l) ;;
    let ps := z_ends g (o_fill o) (fst (fst sp)) (snd (fst sp)) f k (snd sp) u v in
    with_box a None show (fst ps) (snd ps) o.

  (** grotrian.py:367-372. *)
  Definition hf_ends (g : geo) (fs : list Z) (lo f : Z) (span u : Qc) : pt * pt :=
    let n := qc (Z.of_nat (List.length fs) # 1) in
    let i := qc (f - lo # 2) in
    let w_null := g_W g - (n - 1) * g_offset g * g_W g in
    let wF := g_W g * qc (f + 1 # 1) / qc (2 * g_squeeze g + 1 # 1) in
    let dx := (1 - g_a g) * w_null / qc 2 + g_a g * wF / qc 2 in
    let y := g_y0 g + g_y1 g + g_hf g / qc 1000000000000 *
             (g_b g * u + (1 - g_b g) * (i - n / qc 2) * span / n) in
    ((g_offset g * g_W g * i - dx + g_x1 g + g_x0 g, y),
     (g_offset g * g_W g * i + dx + g_x1 g + g_x0 g, y)).

  (** _compute_hflevel_row: grotrian.py:358-385. *)
  Definition hflevel_row (a : nat) (over : option box) (show : bool) (o : opts) : M row :=
    g <- process a o ;;
    m <- manifold a ;;
    sp <- spread m ;;
    f <- F_of a ;;
    if (2 * g_squeeze g + 1 =? 0)%Z then raise ZeroDivisionError else
    u <- shift a ;;
    let ps := hf_ends g (fst (fst sp)) (snd (fst sp)) f (snd sp) u in
    with_box a over show (fst ps) (snd ps) o.

  (** _gross_level_table: grotrian.py:387-397. *)
  Definition gross_table (a : nat) (o : opts) : M (list row) :=
    m <- manifold a ;; r <- level_row m None true o ;; ret [r].

  (** [p0] and [p1] of the rows: grotrian.py:399-479. *)
  Definition points (rs : list row) : list pt := map r_p0 rs ++ map r_p1 rs.
  (** The default padding: the keyword bbox_pad does not reach this call. *)
  Definition outer (rs : list row) : res box := bbox (points rs) (qc (1 # 20)).

  (** _hf_level_table: grotrian.py:399-431.  A ZLevel is an HFLevel. *)
  Definition hf_table (a : nat) (o : opts) : M (list row) :=
    l <- get_lv a ;;
    match l_kind l with
    | LE =>
        bs <- sublevels Exact a ;;
        rs <- mapM (fun b => hflevel_row b None true (no_bbox o)) bs ;;
        b <- of_res (outer rs) ;;
        r <- level_row a (Some b) false o ;;
        ret (rs ++ [r])
    | _ => r <- hflevel_row a None true o ;; ret [r]
    end.

  (** _zeeman_level_table: grotrian.py:433-479. *)
  Definition z_table_hf (b : nat) (o : opts) : M (list row) :=
    cs <- sublevels Exact b ;;
    rs <- mapM (fun c => zlevel_row c true (no_bbox o)) cs ;;
    x <- of_res (outer rs) ;;
    r <- hflevel_row b (Some x) false o ;;
    ret (rs ++ [r]).
  Definition z_table (a : nat) (o : opts) : M (list row) :=
    l <- get_lv a ;;
    match l_kind l with
    | LE =>
        bs <- sublevels Exact a ;;
        ts <- mapM (fun b => z_table_hf b (no_bbox o)) bs ;;
        let rs := List.concat ts in
        x <- of_res (outer rs) ;;
        r <- level_row a (Some x) false o ;;
        ret (rs ++ [r])
    | LHF => z_table_hf a o
    | LZ => r <- zlevel_row a true o ;; ret [r]
    end.

  (** render_levels: grotrian.py:176-179, the rows of all prompts, with the
      strategies chosen in add_level: grotrian.py:100-107. *)
  Inductive strategy := SGross | SHyperfine | SZeeman.
  Definition table (st : strategy) (a : nat) (o : opts) : M (list row) :=
    match st with SGross => gross_table a o | SHyperfine => hf_table a o | SZeeman => z_table a o end.
  Definition render (ps : list (nat * strategy * opts)) : M (list row) :=
    ts <- mapM (fun p => table (snd (fst p)) (fst (fst p)) (snd p)) ps ;; ret (List.concat ts).

  (** ** Arrows: grotrian.py:221-265 *)

  (** [bbox_override]: False, or a name. *)
  Definition has_row (a : nat) (rs : list row) : bool := existsb (fun r => Nat.eqb (r_level r) a) rs.
  Definition first_box (a : nat) (rs : list row) : res box :=
    match find (fun r => Nat.eqb (r_level r) a) rs with Some r => Ok (r_box r) | None => Raise IndexError end.
  Definition is_gross (o : option string) : bool :=
    match o with Some s => String.eqb s "manifold" || String.eqb s "gross" || String.eqb s "g" | None => false end.
  Definition is_hf (o : option string) : bool :=
    match o with Some s => String.eqb s "hf" || String.eqb s "hyperfine" | None => false end.
  Definition is_off (o : option string) : bool := match o with None => true | Some _ => false end.

  (** One [if] of compute_pos_from_level: an earlier position is replaced. *)
  Definition try_pos (c : bool) (a : nat) (rs : list row) (n : Z) (off : pt) (old : option pt) : res (option pt) :=
    if c then rbind (first_box a rs) (fun b => rmap Some (box_pos b n off)) else Ok old.
  (** compute_pos_from_level: grotrian.py:244-260.  [None] is Python's None. *)
  Definition level_pos (rs : list row) (a : nat) (n : Z) (off : pt) (over : option string) : M (option pt) :=
    l <- get_lv a ;;
    m <- manifold a ;;
    match l_kind l with
    | LZ =>
        p <- asks Dangling (fun _ => l_parent l) ;;
        of_res (rbind (try_pos (has_row m rs || is_gross over) m rs n off None) (fun x =>
                rbind (try_pos (has_row p rs || is_hf over) p rs n off x) (fun x =>
                try_pos (has_row a rs && is_off over) a rs n off x)))
    | LHF =>
        of_res (rbind (try_pos (has_row m rs || is_gross over) m rs n off None) (fun x =>
                try_pos (has_row a rs && is_off over) a rs n off x))
    | LE => of_res (try_pos true a rs n off None)
    end.

  (** compute_arrow: grotrian.py:221-232, 262-265.  The end points of the
      arrow; offsets of the positions are zero unless given. *)
  Definition arrow (rs : list row) (t : nat) (n0 n1 : Z) (off0 off1 : pt) (over : option string * option string) : M (option pt * option pt) :=
    x <- get_tr t ;;
    p <- level_pos rs (x_lo x) n0 off0 (fst over) ;;
    q <- level_pos rs (x_up x) n1 off1 (snd over) ;;
    ret (p, q).
End Grotrian.
