(** Model of [atomtoolkit/render/lineshapes.py] and of the colour tables of
    [spectra.py], over the real numbers. *)
From Coq Require Import List Bool ZArith Reals Lra Lia.
From Verif Require Import Base.
Import ListNotations.
Local Open Scope R_scope.

(** lineshapes.py:19-20 *)
Definition lorentzian (x x0 gamma ampl : R) : R := ampl * gamma ^ 2 / (4 * (x - x0) ^ 2 + gamma ^ 2).

(** lineshapes.py:23-24 *)
Definition gaussian (x x0 sigma ampl : R) : R := ampl * exp (- (x - x0) ^ 2 / (2 * sigma ^ 2)).

(** lineshapes.py:31-39, and the identical loop in
    ModLorentzianLineShape.shape_func, lineshapes.py:106-112.  The Bessel
    functions [scipy.special.jv] are a parameter. *)
Section Modulated.
  Context (jv : nat -> R -> R).
  Fixpoint mod_sum (x x0 gamma ampl depth f : R) (n : nat) : R :=
    match n with
    | O => lorentzian x x0 gamma (ampl * jv 0 depth ^ 2)
    | S n' => mod_sum x x0 gamma ampl depth f n' +
        lorentzian x (x0 + INR n * f) gamma (ampl * jv n depth ^ 2) +
        lorentzian x (x0 - INR n * f) gamma (ampl * jv n depth ^ 2)
    end.
End Modulated.

(** [np.linspace(a, b, n)]: point [i] of [n]. *)
Definition linspace (a b : R) (n i : nat) : R := a + INR i * ((b - a) / INR (n - 1)).

(** LineShape.compute: lineshapes.py:54-58.  The samples. *)
Definition samples (x0 width : R) (n : nat) : list R := map (linspace (x0 - width) (x0 + width) n) (seq 0 n).
Definition compute (shape : R -> R) (x0 width : R) (n : nat) : list (R * R) :=
  map (fun x => (x, shape x)) (samples x0 width n).

(** Widths.  [A] is the keyword A_coeff, if given.  The default padding is 20. *)
(** lineshapes.py:70-82 *)
Definition lor_width (gamma : R) (A : option R) : R := match A with Some a => gamma + a | None => gamma end.
Definition lor_shape (gamma : R) (A : option R) (ampl x x0 : R) : R := lorentzian x x0 (lor_width gamma A) ampl.
Definition lor_window (gamma : R) (A : option R) (padding : R) : R := padding * lor_width gamma A.
(** lineshapes.py:98-118 *)
Definition mod_width (gamma : R) (A : option R) : R := match A with Some a => gamma + a / (1000000 * 2 * PI) | None => gamma end.
Definition mod_window (gamma : R) (A : option R) (f : R) (n : nat) (padding : R) : R := f * INR n + padding * mod_width gamma A.
(** lineshapes.py:121-135; fwhm is 2.355 sigma. *)
Definition gauss_window (sigma padding : R) : R := padding * sigma.
Definition fwhm (sigma : R) : R := sigma * (2355 / 1000).
(** ThermalGaussianLineShape: lineshapes.py:138-149.  sigma is relative. *)
Definition thermal_sigma (k T m c : R) : R := sqrt (8 * k * T / (m * c ^ 2)).
Definition thermal_gauss (sigma ampl x x0 : R) : R := gaussian x x0 (sigma * x0) ampl.
Definition thermal_window (sigma padding : R) : R := padding * sigma.

(** ThermalLineShape.shape_func: lineshapes.py:161-167.  The Voigt profile is a
    parameter; a quotient by zero is a ZeroDivisionError. *)
Section Thermal.
  Context (voigt : R -> R -> R -> R -> R -> R).
  Definition over (a b : R) : res R := if Req_EM_T b 0 then Raise ZeroDivisionError else Ok (a / b).
  Definition thermal (sigma gamma ampl x x0 : R) : res R :=
    rbind (over gamma (sigma * x0)) (fun q =>
    if Rlt_dec 25 q then Ok (lorentzian x x0 gamma ampl) else
    rbind (over (sigma * x0) gamma) (fun q =>
    if Rlt_dec 25 q then Ok (gaussian x x0 (sigma * x0) ampl) else
    Ok (voigt x x0 (sigma * x0) gamma ampl))).
End Thermal.

(** ** Sidebands: lineshapes.py:91-94 *)

(** The loop, in exact arithmetic: [fuel] bounds the number of turns. *)
Inductive outcome := Count (n : nat) | Overflow | Running.
Fixpoint sidebands (fuel : nat) (depth : R) (n : nat) : outcome :=
  match fuel with
  | O => Running
  | S k => if Rlt_dec (1 / 100 * INR (fact n)) ((depth / 2) ^ n) then sidebands k depth (S n) else Count n
  end.

(** With the range of Python's floats: a power or an integer beyond it is an
    OverflowError.  Rounding is not modelled. *)
Definition fmax : R := 2 ^ 1024.
Fixpoint sidebands_float (fuel : nat) (depth : R) (n : nat) : outcome :=
  match fuel with
  | O => Running
  | S k =>
      if Rle_dec fmax (Rabs ((depth / 2) ^ n)) then Overflow else
      if Rle_dec fmax (INR (fact n)) then Overflow else
      if Rlt_dec (1 / 100 * INR (fact n)) ((depth / 2) ^ n) then sidebands_float k depth (S n) else Count n
  end.

(** ** Colours: spectra.py:111-138 *)

(** Items with their colour and shade properties (doubled).  The colour is the
    place of the property among the sorted distinct ones, the lightness depends
    on the shade. *)
Section Colours.
  Local Open Scope Z_scope.
  Definition members (c : Z) (items : list (Z * Z)) : list Z := map snd (filter (fun p => Z.eqb (fst p) c) items).
  Definition lowest (l : list Z) : option Z := match l with [] => None | x :: r => Some (fold_left Z.min r x) end.
  Definition lightness (items : list (Z * Z)) (p : Z * Z) : option R :=
    match lowest (members (fst p) items) with
    | Some m => Some (2 / 10 + 6 / 10 * (IZR (snd p - m) / 2 + 1) / (INR (List.length (members (fst p) items)) + 1))%R
    | None => None
    end.
End Colours.

(** [np.interp] on a curve with increasing abscissae, spectra.py:46. *)
Fixpoint interp (pts : list (R * R)) (x : R) : R :=
  match pts with
  | [] => 0
  | (x1, y1) :: r =>
      match r with
      | [] => y1
      | (x2, y2) :: _ =>
          if Rle_dec x x1 then y1 else
          if Rle_dec x x2 then (y2 - y1) / (x2 - x1) * (x - x1) + y1 else interp r x
      end
  end.
(** The dotted "Total" curve: spectra.py:39-47. *)
Definition total (curves : list (list (R * R))) (x : R) : R := fold_right (fun c s => interp c x + s) 0 curves.
