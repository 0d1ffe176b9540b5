(** Selection rules and relative strengths of [atomtoolkit/atom.py].  All
    angular momenta are doubled. *)
From Coq Require Import List Bool ZArith QArith Qcanon Lia.
From Verif Require Import Base Util Term Num Wigner.
Import ListNotations.
Local Open Scope Z_scope.

(** allowed_types: E1, M1, E2. *)
Definition types : Type := (bool * bool * bool)%type.
Definition aE1 (a : types) : bool := fst (fst a).
Definition aM1 (a : types) : bool := snd (fst a).
Definition aE2 (a : types) : bool := snd a.
(** [True in allowed_types], [np.any(allowed_types)] *)
Definition any_type (a : types) : bool := aE1 a || aM1 a || aE2 a.

(** atom.py:711-721 [Transition.transition_allowed] for two EnergyLevels with
    J values [j0 j1] and parities [p0 p1]; [same]: the two are one object. *)
Definition allowed_T (j0 j1 p0 p1 : Z) (same : bool) : types :=
  ((Z.abs (j1 - j0) <=? 2) && negb (p0 =? p1),
   (Z.abs (j1 - j0) <=? 2) && (p0 =? p1),
   (Z.abs (j1 - j0) <=? 4) && (p0 =? p1) && negb same).

(** atom.py:769-783 [HFTransition.transition_allowed]; [init] is the parent's
    [allowed_types]. *)
Definition allowed_HF (i j0 j1 f0 f1 : Z) (init : types) : types :=
  (w6nz j0 j1 2 f1 f0 i && aE1 init,
   w6nz j0 j1 2 f1 f0 i && aM1 init,
   w6nz j0 j1 4 f1 f0 i && aE2 init).

(** The doubled q = -k..k. *)
Definition qs (k : Z) : list Z :=
  map (fun n => 2 * (Z.of_nat n - k)) (seq 0 (Z.to_nat (2 * k + 1))).

(** atom.py:832: a sum of 3j symbols over q, of which at most the one with
    q = mF1 - mF0 does not vanish; it is non-zero iff one of them is. *)
Definition any_q (k f1 f0 m1 m0 : Z) : bool :=
  existsb (fun q => w3nz f1 (2 * k) f0 (- m1) q m0) (qs k).

(** atom.py:825-836 [ZTransition.transition_allowed] *)
Definition allowed_Z (f0 f1 m0 m1 : Z) (init : types) : types :=
  (any_q 1 f1 f0 m1 m0 && aE1 init,
   any_q 1 f1 f0 m1 m0 && aM1 init,
   any_q 2 f1 f0 m1 m0 && aE2 init).

(** atom.py:761-766, the factor of [HFTransition.compute_linewidth]. *)
Definition hf_factor (a : types) (i j1 j2 f1 f2 : Z) : Qc :=
  if aE1 a || aM1 a then (QcZ ((f1 + 1) * (f2 + 1)) * w6sq j2 f2 i f1 j1 2)%Qc
  else if aE2 a then (QcZ ((f1 + 1) * (f2 + 1)) * w6sq j2 f2 i f1 j1 4)%Qc
  else 0%Qc.

(** [sum(g(q) for q in range(-k, k + 1))] *)
Definition sumq (k : Z) (g : Z -> Qc) : Qc := fold_right (fun q acc => (g q + acc)%Qc) 0%Qc (qs k).

(** atom.py:817-822, the factor of [ZTransition.compute_linewidth]; line 820
    has F1 twice. *)
Definition z_factor (a : types) (f1 f2 m1 m2 : Z) : Qc :=
  if aE1 a || aM1 a then sumq 1 (fun q => w3sq f1 2 f2 (- m1) q m2)
  else if aE2 a then sumq 2 (fun q => w3sq f1 4 f1 (- m1) q m2)
  else 0%Qc.

(** atom.py:652-662 [_compute_sublevel_pairs]: which differences of the
    attribute are considered. *)
Definition pair_ok (a : types) (x y : Z) : bool :=
  if any_type a
  then Z.abs (x - y) <=? 2 * (if aE2 a && negb (aM1 a) then 2 else 1)
  else true.
