(** Model of [atomtoolkit/environment.py], over the real numbers.  Quantities
    are their values in SI units; units are not checked. *)
From Coq Require Import List Bool Reals Lra.
From Verif Require Import Base.
Import ListNotations.
Local Open Scope R_scope.

(** ** numpy arrays of three complex numbers *)

Definition cplx : Type := (R * R)%type.
Definition cplus (a b : cplx) : cplx := (fst a + fst b, snd a + snd b).
Definition cminus (a b : cplx) : cplx := (fst a - fst b, snd a - snd b).
Definition cmult (a b : cplx) : cplx := (fst a * fst b - snd a * snd b, fst a * snd b + snd a * fst b).
Definition re (r : R) : cplx := (r, 0).
Definition vec : Type := (cplx * cplx * cplx)%type.
Definition vx (v : vec) : cplx := fst (fst v).
Definition vy (v : vec) : cplx := snd (fst v).
Definition vz (v : vec) : cplx := snd v.
Definition real_vec (x y z : R) : vec := (re x, re y, re z).
(** [np.cross] *)
Definition cross (a b : vec) : vec :=
  (cminus (cmult (vy a) (vz b)) (cmult (vz a) (vy b)),
   cminus (cmult (vz a) (vx b)) (cmult (vx a) (vz b)),
   cminus (cmult (vx a) (vy b)) (cmult (vy a) (vx b))).
(** [r * v]; [v * w] element by element *)
Definition scale (r : R) (v : vec) : vec := (cmult (re r) (vx v), cmult (re r) (vy v), cmult (re r) (vz v)).
Definition times (v w : vec) : vec := (cmult (vx v) (vx w), cmult (vy v) (vy w), cmult (vz v) (vz w)).
(** [np.linalg.norm] *)
Definition abs2 (a : cplx) : R := fst a * fst a + snd a * snd a.
Definition norm (v : vec) : R := sqrt (abs2 (vx v) + abs2 (vy v) + abs2 (vz v)).

(** ** environment.py:7-27 [LightField] *)

Record light : Type := mkLight { f_k : vec; f_pol : vec; f_int : R }.

(** environment.py:8-21 [__init__]; line 19 has no absolute value. *)
Definition new_light (k : vec) (i : R) (pol : vec) : res light :=
  if Rlt_dec (norm pol - 1) (1 / 1000000) then Ok (mkLight k pol i) else Raise AssertionError.
(** environment.py:8, the polarization if none is given. *)
Definition default_pol : vec := real_vec 0 0 1.

(** environment.py:23-24 [E]; [c], [eps]: speed of light, vacuum permittivity.
    The intensity is not negative. *)
Definition light_E (c eps : R) (f : light) : vec := scale (sqrt (2 * f_int f / (c * eps))) (f_pol f).
(** environment.py:26-27 [B] *)
Definition light_B (c eps : R) (f : light) : vec := scale (1 / c) (cross (f_k f) (light_E c eps f)).

(** ** environment.py:39-60 [GaussianBeam] *)

(** [super(LightField)] with one argument is a super object without an
    instance; its [__init__] is that of [super], which takes a type and an
    object.  Any three arguments are too many. *)
Definition super_init (nargs : nat) : res unit := if Nat.leb nargs 2 then Ok tt else Raise TypeError.

(** A GaussianBeam: environment.py:40-45. *)
Record beam : Type := mkBeam { b_light : light; b_w0 : R; b_zr : R }.
(** environment.py:40-45 [__init__].  Line 41 divides by [pi * w0 ** 2]; the
    power and the waist are floats or quantities.  What follows line 43 is not
    reached; were it, line 44 would fail for the same reason. *)
Definition new_beam (k : vec) (pow : R) (pol : vec) (w0 : R) : res beam :=
  if Req_EM_T w0 0 then Raise ZeroDivisionError
  else match super_init 3 with
       | Raise e => Raise e
       | Ok _ => Raise AttributeError
       end.

(** The methods, for an object that has the attributes of lines 41-45.
    environment.py:59-60 [w] *)
Definition beam_w (w0 zr z : R) : R := w0 * sqrt (1 + z ^ 2 / zr ^ 2).
(** environment.py:56-57 [radius_at] for Python floats; numpy would give nan
    for [z = 0]. *)
Definition beam_radius (zr z : R) : res R := if Req_EM_T z 0 then Raise ZeroDivisionError else Ok (z * (1 + zr ^ 2 / z ^ 2)).
(** environment.py:53-54 [phase_at] *)
Definition beam_phase (zr z : R) : R := atan (z / zr).
(** environment.py:47-48 [E]; [E0] is an array already (line 44), so it is
    multiplied by the polarization once more, element by element. *)
Definition beam_E (pol E0 : vec) (w0 zr z r : R) : vec :=
  scale (exp (- (r * r) / beam_w w0 zr z ^ 2)) (scale (w0 / beam_w w0 zr z) (times pol E0)).
(** environment.py:50-51 [B] *)
Definition beam_B (c : R) (pol E0 : vec) (w0 zr z r : R) : vec := scale (1 / c) (cross (beam_E pol E0 w0 zr z r) pol).
