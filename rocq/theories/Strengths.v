(** Model of [atomtoolkit/transition_strengths.py], lines 14-143, over the
    real numbers.  Angular momenta and their projections are doubled integers;
    [k] and [q] are not.  Rounding is not modelled. *)
From Coq Require Import List Bool ZArith QArith Qcanon Reals Qreals Lia Lra.
From Verif Require Import Base Wigner.
Import ListNotations.
Local Open Scope Z_scope.

Definition Rc (q : Qc) : R := Q2R (this q).

(** Lines 14-22 [tkq_transition_strength]; the second factor is 2*F1 + 2, not
    2*F1 + 1. *)
Definition tkq_strength (i k q j0 f0 m0 j1 f1 m1 : Z) : Qc :=
  (QcZ ((f0 + 1) * (f1 + 2)) * w6sq j0 j1 (2 * k) f1 f0 i * w3sq f1 (2 * k) f0 (- m1) (2 * q) m0)%Qc.

(** The Wigner symbols themselves: Racah's formula with the square root. *)
Definition w6R (a b c d e f : Z) : R :=
  if w6_tri a b c d e f
  then (sqrt (Rc (delta2 a b c * delta2 a e f * delta2 d b f * delta2 d e c)) * Rc (w6_sum a b c d e f))%R
  else 0%R.
Definition w3R (a b c m n p : Z) : R :=
  if w3_ok a b c m n p
  then (Rc (sgn ((a - b - p) / 2)) *
        sqrt (Rc (delta2 a b c * QcZ (hfac (a + m) * hfac (a - m) * hfac (b + n) * hfac (b - n) * hfac (c + p) * hfac (c - p)))) *
        Rc (w3_sum a b c m n))%R
  else 0%R.

(** Lines 25-33 [tkq_mel].  For 2*F0 + 1 < 0 Python's power is a complex
    number, [sqrt] is 0; both are then multiplied by 0. *)
Definition tkq_mel (i k q j0 f0 m0 j1 f1 m1 : Z) : R :=
  (sqrt (IZR (f0 + 1)) * sqrt (IZR (f1 + 2)) * w6R j0 j1 (2 * k) f1 f0 i * w3R f1 (2 * k) f0 (- m1) (2 * q) m0)%R.

(** ** Polarisations *)

(** Complex numbers. *)
Definition cplx : Type := (R * R)%type.
Definition cadd (u v : cplx) : cplx := ((fst u + fst v)%R, (snd u + snd v)%R).
Definition cmul (u v : cplx) : cplx := ((fst u * fst v - snd u * snd v)%R, (fst u * snd v + snd u * fst v)%R).
Definition copp (u : cplx) : cplx := ((- fst u)%R, (- snd u)%R).
Definition creal (r : R) : cplx := (r, 0%R).
Definition cscale (r : R) (u : cplx) : cplx := ((r * fst u)%R, (r * snd u)%R).
Definition ci : cplx := (0%R, 1%R).
Definition csq (u : cplx) : cplx := cmul u u.
Definition cabs2 (u : cplx) : R := (fst u * fst u + snd u * snd u)%R.
Declare Scope C_scope.
Delimit Scope C_scope with C.
Bind Scope C_scope with cplx.
Notation "u + v" := (cadd u v) : C_scope.
Notation "u * v" := (cmul u v) : C_scope.
Notation "- u" := (copp u) : C_scope.
Notation "u - v" := (cadd u (copp v)) : C_scope.

(** A vector argument: a numpy array, which has no hash, or a tuple. *)
Inductive vec := Arr (x y z : cplx) | Tup (x y z : cplx).
Definition v0 v := match v with Arr x _ _ | Tup x _ _ => x end.
Definition v1 v := match v with Arr _ y _ | Tup _ y _ => y end.
Definition v2 v := match v with Arr _ _ z | Tup _ _ z => z end.
(** [np.linalg.norm(v)] *)
Definition norm (v : vec) : R := sqrt (cabs2 (v0 v) + cabs2 (v1 v) + cabs2 (v2 v)).
(** [v / np.linalg.norm(v)]; without a value if the norm is 0, where numpy has
    nan in all components.  The quotient is an array whatever [v] is. *)
Definition normed (v : vec) : option vec :=
  if Req_EM_T (norm v) 0 then None
  else let c := (/ norm v)%R in Some (Arr (cscale c (v0 v)) (cscale c (v1 v)) (cscale c (v2 v))).
(** functools.lru_cache looks the arguments up in a dictionary. *)
Definition hashable (v : vec) : bool := match v with Arr _ _ _ => false | Tup _ _ _ => true end.

(** The value of a call: [None] is nan. *)
Definition with_eps (eps : vec) (body : cplx -> cplx -> cplx -> cplx) : res (option cplx) :=
  if hashable eps
  then Ok (match normed eps with Some e => Some (body (v0 e) (v1 e) (v2 e)) | None => None end)
  else Raise TypeError.

(** Six numbers J0 F0 M0 J1 F1 M1 and the nuclear spin, given once. *)
Record states := mkStates { sI : Z; sJ0 : Z; sF0 : Z; sM0 : Z; sJ1 : Z; sF1 : Z; sM1 : Z }.
Definition T (k q : Z) (x : states) : R := Rc (tkq_strength (sI x) k q (sJ0 x) (sF0 x) (sM0 x) (sJ1 x) (sF1 x) (sM1 x)).
Definition Mel (k q : Z) (x : states) : R := tkq_mel (sI x) k q (sJ0 x) (sF0 x) (sM0 x) (sJ1 x) (sF1 x) (sM1 x).

(** Lines 37-45 [E1_mel_geom], 64-72 [M1_mel_geom]: the same text. *)
Definition E1_mel_geom (eps : vec) (x : states) : res (option cplx) :=
  with_eps eps (fun e0 e1 e2 =>
    cscale (Mel 1 (-1) x * sqrt (1 / 2)) (e0 + ci * e1) + cscale (Mel 1 0 x) e2 + cscale (Mel 1 1 x * sqrt (1 / 2)) (e0 - ci * e1))%C.
Definition M1_mel_geom := E1_mel_geom.

(** Lines 48-56 [E1_transition_strength_geom], 75-85
    [M1_transition_strength_geom]. *)
Definition E1_geom (eps : vec) (x : states) : res (option cplx) :=
  with_eps eps (fun e0 e1 e2 =>
    cscale (T 1 (-1) x * (1 / 2)) (csq e0 + csq e1) + cscale (T 1 0 x) (csq e2) + cscale (T 1 1 x * (1 / 2)) (csq e0 + csq e1))%C.
Definition M1_geom := E1_geom.

(** Lines 59-61 [E1_transition_strength_avg], 88-90. *)
Definition E1_avg (x : states) : R := ((T 1 (-1) x + T 1 0 x + T 1 1 x) / 3)%R.
Definition M1_avg := E1_avg.

(** Two vectors; both are arguments of the cached function. *)
Definition with_both (eps k : vec) (body : cplx -> cplx -> cplx -> cplx -> cplx -> cplx -> cplx) : res (option cplx) :=
  if hashable eps && hashable k
  then Ok (match normed eps, normed k with
           | Some e, Some n => Some (body (v0 e) (v1 e) (v2 e) (v0 n) (v1 n) (v2 n))
           | _, _ => None
           end)
  else Raise TypeError.

(** Lines 93-111 [E2_mel_geom]; the warning about orthogonality (lines 98-99)
    is not modelled.  Lines 102 and 110 add k[1] and eps[0] instead of
    multiplying them. *)
Definition E2_mel_geom (eps k : vec) (x : states) : res (option cplx) :=
  with_both eps k (fun e0 e1 e2 k0 k1 k2 =>
    cscale (Mel 2 (-2) x) (e0 * k0 - ci * (k0 * e1 + k1 + e0) - k1 * e1) +
    cscale (Mel 2 (-1) x) (- (k0 * e2 + k2 * e0) + ci * (k1 * e2 + k2 * e1)) +
    cscale (Mel 2 0 x) (- cscale (sqrt 6) (k0 * e0) + cscale (sqrt 6) (k1 * e1) + cscale (2 / 3 * sqrt 6) (k2 * e2)) +
    cscale (Mel 2 1 x) ((k0 * e2 + k2 * e0) + ci * (k1 * e2 + k2 * e1)) +
    cscale (Mel 2 2 x) (e0 * k0 + ci * (k0 * e1 + k1 + e0) - k1 * e1))%C.

(** Lines 114-132 [E2_transition_strength_geom].  In lines 124-125 and 128-129
    the second square is added to the product, not to the first square. *)
Definition E2_geom (eps k : vec) (x : states) : res (option cplx) :=
  with_both eps k (fun e0 e1 e2 k0 k1 k2 =>
    cscale (T 2 (-2) x) ((csq e0 + csq e1) * (csq k0 + csq k1)) +
    (cscale (T 2 (-1) x) (csq (e2 * k0 + e0 * k2)) + csq (e1 * k0 + e0 * k1)) +
    cscale (T 2 0 x * (2 / 3)) (csq (cscale 3 (k0 * e0) + cscale 3 (k1 * e1) + cscale 2 (k2 * e2))) +
    (cscale (T 2 1 x) (csq (e2 * k0 + e0 * k2)) + csq (e1 * k0 + e0 * k1)) +
    cscale (T 2 2 x) ((csq e0 + csq e1) * (csq k0 + csq k1)))%C.

(** Lines 135-143 [E2_transition_strength_avg]. *)
Definition E2_avg (x : states) : R :=
  (T 2 (-2) x * (3 / 29) + T 2 (-1) x * (9 / 58) + T 2 0 x * (14 / 29) + T 2 1 x * (9 / 58) + T 2 2 x * (3 / 29))%R.
