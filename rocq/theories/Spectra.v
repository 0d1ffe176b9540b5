(** Model of the drawing functions of [atomtoolkit/render/spectra.py]: which
    curves are drawn, at which frequency and height and with which label, or
    which exception is raised.

    Simplified: frequencies are in Hz instead of GHz; a label and the name of a
    transition are the pairs of texts around the arrow; the colours themselves,
    the samples of a curve and the dotted total are in [Lineshapes.v].  What is
    drawn before an exception is not recorded. *)
From Coq Require Import List Bool ZArith String.
From Verif Require Import Base PyStr Term Num Graph Rules Atom.
Import ListNotations.
Local Open Scope string_scope.

(** The argument [transitions]: one transition or a list. *)
Inductive target := One (t : nat) | Many (ts : list nat).
(** The argument [lineshape]: a class such as [LorentzianLineShape], an object,
    or an object whose [compute] raises. *)
Inductive shape := ShapeClass | ShapeObj | ShapeFails (e : exn).
(** The argument [coloring]: None, a string, or a function. *)
Inductive colouring := ColNone | ColStr (s : string) | ColFun.
(** The function [color_func] in plot_transitions: one that gives a colour; a
    look-up in the table made for [ls]; one that uses the unassigned variable
    [color_dict]; None. *)
Inductive painter := PFun | PTable (ls : list nat) | PUnset | PNone.
Definition col_is (c : colouring) (ss : list string) : bool :=
  match c with ColStr s => existsb (String.eqb s) ss | _ => false end.

Section Spectra.
  Context (N : Num) (muB : num N).
  Notation M := (M N).
  Notation "x <- m ;; f" := (bind N m (fun x => f)) (at level 61, m at next level, right associativity).
  Notation "m ;;; f" := (bind N m (fun _ => f)) (at level 61, right associativity).

  Record curve : Type := mkCurve {
    c_line : nat;               (* the transition drawn *)
    c_freq : N;
    c_ampl : N;
    c_label : string * string
  }.

  (** A list comprehension. *)
  Fixpoint mapM {A B} (f : A -> M B) (l : list A) : M (list B) :=
    match l with
    | [] => ret N []
    | x :: l' => y <- f x ;; r <- mapM f l' ;; ret N (y :: r)
    end.

  (** [color_func(t)] *)
  Definition paint (p : painter) (t : nat) : M unit :=
    match p with
    | PFun => ret N tt
    | PTable ls => if existsb (Nat.eqb t) ls then ret N tt else raise N KeyError
    | PUnset => raise N NameError
    | PNone => raise N TypeError
    end.
  (** [transition.name] *)
  Definition tname (x : trans N) : M (string * string) :=
    a <- asks N Dangling (fun s => nm N s (x_E1 N x)) ;; b <- asks N Dangling (fun s => nm N s (x_E2 N x)) ;; ret N (a, b).

  (** One turn of the loop, spectra.py:27-41.  A class as line shape lacks the
      argument [self]. *)
  Definition draw (sh : shape) (p : painter) (ad : option (dict (string * string) N)) (t : nat) : M curve :=
    x <- get_tr N t ;;
    f <- asks N Dangling (fun s => freq N muB s t) ;;
    a <- match ad with
         | None => ret N (x_rel N x)
         | Some d => n <- tname x ;; v <- asks N KeyError (fun _ => dget n d) ;; ret N (nmul N (x_rel N x) v)
         end ;;
    match sh with ShapeClass => raise N TypeError | ShapeObj => ret N tt | ShapeFails e => raise N e end ;;;
    lo <- get_lv N (x_lo N x) ;; up <- get_lv N (x_up N x) ;;
    paint p t ;;;
    ret N (mkCurve t f a (lshort N lo, lshort N up)).

  (** plot_transitions: spectra.py:16-53.  Iterating over one transition gives
      the keys of its subtransitions, which have no frequency. *)
  Definition plot_transitions (tg : target) (sh : shape) (p : painter) (ad : option (dict (string * string) N)) : M (list curve) :=
    match tg with
    | Many ts => mapM (draw sh p ad) ts
    | One t => cs <- subtransitions N muB t ;; match cs with [] => ret N [] | _ => raise N AttributeError end
    end.

  (** color_table_from_property: spectra.py:111-138.  [num] is F or mF; a
      missing number is neither sorted nor subtracted. *)
  Definition table (num : level N -> option Z) (ls : list nat) : M unit :=
    forM N ls (fun t =>
      x <- get_tr N t ;; lo <- get_lv N (x_lo N x) ;; up <- get_lv N (x_up N x) ;;
      match num lo, num up with Some _, Some _ => ret N tt | _, _ => raise N TypeError end).

  (** The further arguments of plot_spectrum: the temperature is None, zero or
      another one, the laser linewidth is zero or not. *)
  Inductive temperature := TempNone | TempZero | TempOther.
  Record options : Type := mkOptions { o_temp : temperature; o_mass : bool; o_linewidth : bool; o_ampl : option (dict (string * string) N) }.
  Definition no_options : options := mkOptions TempNone false false None.

  (** spectra.py:155-161.  Without a linewidth the thermal shape divides by zero
      (C77). *)
  Definition choose_shape (sh : option shape) (o : options) : M shape :=
    match sh with
    | Some sh => ret N sh
    | None =>
        match o_temp o with
        | TempNone => raise N AttributeError
        | TempZero => ret N ShapeObj
        | TempOther => if o_mass o then ret N (if o_linewidth o then ShapeObj else ShapeFails ZeroDivisionError) else raise N AssertionError
        end
    end.

  (** plot_spectrum: spectra.py:141-199.  The lines of a single transition are
      not indexed by 0. *)
  Definition plot_spectrum (tg : target) (sh : option shape) (c : colouring) (o : options) : M (list curve) :=
    lines <- match tg with Many ts => ret N ts | One t => subtransitions N muB t end ;;
    sh <- choose_shape sh o ;;
    match lines with
    | [] => raise N IndexError
    | l0 :: _ =>
        x0 <- get_tr N l0 ;;
        p <- match x_kind N x0, tg with
             | TT, _ => ret N PFun
             | _, One _ => raise N TypeError
             | THF, Many _ => if col_is c ["l"; "u"] then table (l_F N) lines ;;; ret N (PTable lines) else ret N PUnset
             | TZ, Many _ => if col_is c ["l"; "u"; "transition_type"] then table (l_mF N) lines ;;; ret N (PTable lines) else ret N PUnset
             end ;;
        plot_transitions tg sh p (o_ampl o)
    end.

  (** [itertools.chain.from_iterable(t.values() for t in transitions)] *)
  Definition all_lines (ts : list nat) : M (list nat) := css <- mapM (subtransitions N muB) ts ;; ret N (List.concat css).

  (** plot_hyperfine_spectrum: spectra.py:56-64 *)
  Definition plot_hyperfine (tg : target) (sh : option shape) (c : colouring) (o : options) : M (list curve) :=
    lines <- match tg with Many ts => all_lines ts | One t => subtransitions N muB t end ;;
    plot_spectrum (Many lines) sh c o.
  (** Its defaults. *)
  Definition plot_hyperfine_default (tg : target) : M (list curve) := plot_hyperfine tg (Some ShapeClass) (ColStr "l") no_options.

  (** plot_zeeman_spectrum: spectra.py:67-108.  The local [label_func] is not
      passed on. *)
  Definition plot_zeeman (tg : target) (sh : option shape) (c : colouring) (ad : option (dict (string * string) N)) : M (list curve) :=
    lines <- match tg with
             | Many ts => all_lines ts
             | One t => x <- get_tr N t ;;
                 match x_kind N x with
                 | TT => hs <- subtransitions N muB t ;; all_lines hs
                 | _ => subtransitions N muB t
                 end
             end ;;
    p <- (if col_is c ["l"; "u"; "transition_type"] then table (l_mF N) lines ;;; ret N (PTable lines)
          else ret N (match c with ColFun => PFun | _ => PNone end)) ;;
    plot_transitions (Many lines) (match sh with Some sh => sh | None => ShapeFails AttributeError end) p ad.
  Definition plot_zeeman_default (tg : target) : M (list curve) := plot_zeeman tg (Some ShapeClass) (ColStr "transition_type") None.
End Spectra.
