(** Wigner 3j and 6j symbols.  The code calls sympy (or py3nj) through
    [atomtoolkit/wigner.py]; the model is the Racah formula both implement.
    All arguments are doubled: [w6 ... 2 ...] has the argument 1.

    A symbol is [sign * sqrt(square)]; the model gives the exact square, the
    sign of the Racah sum and hence the exact zero test.  wigner.py:37-50
    returns 0.0 when the library raises ValueError because a selection rule is
    violated; here that is the value 0 outside the triangle conditions. *)
From Coq Require Import List Bool ZArith QArith Qcanon Lia.
From Verif Require Import Base Util Term.
Import ListNotations.
Local Open Scope Z_scope.

(** The symbols as py3nj and sympy define them (wigner.py:1-44). *)
Fixpoint factn (n : nat) : Z := match n with O => 1 | S n' => Z.of_nat n * factn n' end.
(** [z!] for an integer [z >= 0]. *)
Definition fac (z : Z) : Z := factn (Z.to_nat z).
(** [(h/2)!] *)
Definition hfac (h : Z) : Z := fac (h / 2).

(** An integer as a number. *)
Definition QcZ (z : Z) : Qc := Q2Qc (inject_Z z).

(** The triangle condition for doubled arguments: [|a-b| <= c <= a+b] and
    [a+b+c] an integer. *)
Definition tri (a b c : Z) : bool :=
  (Z.abs (a - b) <=? c) && (c <=? a + b) && Z.even (a + b + c).

(** The square of the triangle coefficient. *)
Definition delta2 (a b c : Z) : Qc :=
  (QcZ (hfac (a + b - c) * hfac (a - b + c) * hfac (b + c - a)) / QcZ (fac ((a + b + c) / 2 + 1)))%Qc.

(** [sum_{k < n} f (lo + k)] *)
Fixpoint sumr (n : nat) (lo : Z) (f : Z -> Qc) : Qc :=
  match n with O => 0%Qc | S n' => (f lo + sumr n' (lo + 1) f)%Qc end.
Definition sum_range (lo hi : Z) (f : Z -> Qc) : Qc := sumr (Z.to_nat (hi - lo + 1)) lo f.

(** [(-1)^z] *)
Definition sgn (z : Z) : Qc := if Z.even z then 1%Qc else (- (1))%Qc.

(** ** 6j *)

Definition w6_tri (a b c d e f : Z) : bool := tri a b c && tri a e f && tri d b f && tri d e c.

(** A term of Racah's formula for the 6j symbol. *)
Definition w6_term (a b c d e f t : Z) : Qc :=
  (sgn t * QcZ (fac (t + 1)) /
   QcZ (fac (t - (a + b + c) / 2) * fac (t - (a + e + f) / 2) * fac (t - (d + b + f) / 2) * fac (t - (d + e + c) / 2)
        * fac ((a + b + d + e) / 2 - t) * fac ((b + c + e + f) / 2 - t) * fac ((c + a + f + d) / 2 - t)))%Qc.

(** The alternating sum of Racah's formula for [{a b c; d e f}]. *)
Definition w6_sum (a b c d e f : Z) : Qc :=
  sum_range (Z.max (Z.max ((a + b + c) / 2) ((a + e + f) / 2)) (Z.max ((d + b + f) / 2) ((d + e + c) / 2)))
            (Z.min ((a + b + d + e) / 2) (Z.min ((b + c + e + f) / 2) ((c + a + f + d) / 2)))
            (w6_term a b c d e f).

(** The square of the 6j symbol. *)
Definition w6sq (a b c d e f : Z) : Qc :=
  if w6_tri a b c d e f
  then (delta2 a b c * delta2 a e f * delta2 d b f * delta2 d e c * (w6_sum a b c d e f * w6_sum a b c d e f))%Qc
  else 0%Qc.

(** [wigner6j(...) != 0.0] *)
Definition w6nz (a b c d e f : Z) : bool :=
  w6_tri a b c d e f && negb (Qc_eqb (w6_sum a b c d e f) 0).

(** ** 3j *)

(** Triangle, projections no larger than the momenta and of the same kind,
    and adding up to zero. *)
Definition proj_ok (j m : Z) : bool := (Z.abs m <=? j) && Z.even (j + m).
Definition w3_ok (a b c m n p : Z) : bool :=
  tri a b c && proj_ok a m && proj_ok b n && proj_ok c p && (m + n + p =? 0).

(** A term of Racah's formula for the 3j symbol. *)
Definition w3_term (a b c m n : Z) (t : Z) : Qc :=
  (sgn t / QcZ (fac t * fac ((a + b - c) / 2 - t) * fac ((a - m) / 2 - t) * fac ((b + n) / 2 - t)
                * fac ((c - b + m) / 2 + t) * fac ((c - a - n) / 2 + t)))%Qc.

(** Its alternating sum. *)
Definition w3_sum (a b c m n : Z) : Qc :=
  sum_range (Z.max 0 (Z.max ((b - c - m) / 2) ((a - c + n) / 2)))
            (Z.min ((a + b - c) / 2) (Z.min ((a - m) / 2) ((b + n) / 2)))
            (w3_term a b c m n).

(** The square of the 3j symbol [(a b c; m n p)]. *)
Definition w3sq (a b c m n p : Z) : Qc :=
  if w3_ok a b c m n p
  then (delta2 a b c
        * QcZ (hfac (a + m) * hfac (a - m) * hfac (b + n) * hfac (b - n) * hfac (c + p) * hfac (c - p))
        * (w3_sum a b c m n * w3_sum a b c m n))%Qc
  else 0%Qc.

(** [wigner3j(...) != 0.0] *)
Definition w3nz (a b c m n p : Z) : bool := w3_ok a b c m n p && negb (Qc_eqb (w3_sum a b c m n) 0).

(** {1/2 1/2 1; 1 1 1/2}: square 1/9... checked against tables below. *)
Example w6_value : w6sq 1 1 2 2 2 1 = Q2Qc (1 # 9).
Proof. apply Qc_is_canon. reflexivity. Qed.
Example w6_value2 : w6sq 2 2 2 2 2 2 = Q2Qc (1 # 36).
Proof. apply Qc_is_canon. reflexivity. Qed.
Example w3_value : w3sq 2 2 4 2 (-2) 0 = Q2Qc (1 # 30).
Proof. apply Qc_is_canon. reflexivity. Qed.
Example w3_value2 : w3sq 2 2 0 2 (-2) 0 = Q2Qc (1 # 3).
Proof. apply Qc_is_canon. reflexivity. Qed.
