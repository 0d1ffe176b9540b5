(** Model of the energy formulas of [atomtoolkit/atom.py]: hyperfine shift,
    g-factors, Zeeman shift and the ranges of F and mF.  Angular momenta are
    doubled integers, converted to numbers where the code computes with them. *)
From Coq Require Import List Bool ZArith QArith Qcanon Lia.
From Verif Require Import Base Util Parse Term Num.
Import ListNotations.

(** ** Ranges *)

(** [n] doubled values from [lo], in steps of one (two halves). *)
Fixpoint steps (n : nat) (lo : Z) : list Z :=
  match n with O => [] | S n' => lo :: steps n' (lo + 2)%Z end.

(** [np.arange(a, b)] for doubled half-integers: [ceil(b - a)] values. *)
Definition arange (a b : Z) : list Z := steps (Z.to_nat ((b - a + 1) / 2)) a.

(** atom.py:286 *)
Definition F_range (J I : Z) : list Z := arange (Z.abs (J - I)) (J + I + 2).
(** atom.py:404 *)
Definition mF_range (F : Z) : list Z := arange (- F) (F + 2).

(** ** Formulas, for any numbers *)

Section Formulas.
  Context (N : Num).
  Notation "x + y" := (nadd N x y).
  Notation "x - y" := (nsub N x y).
  Notation "x * y" := (nmul N x y).
  Notation "x / y" := (ndiv N x y).
  Let lit (q : Q) : N := nofQ N q.

  (** atom.py:415-419: [IdotJ]. *)
  Definition IdotJ (I J F : N) : N :=
    lit (1 # 2) * (F * (F + lit 1) - J * (J + lit 1) - I * (I + lit 1)).

  (** atom.py:423-427.  [J <= 0.5] on doubled values is [J <= 1]. *)
  Definition FE2 (i j f : Z) : N :=
    if (j <=? 1)%Z || (i <=? 1)%Z then lit 0
    else
      let I := nhalf N i in let J := nhalf N j in let F := nhalf N f in
      let x := IdotJ I J F in
      (lit 3 * (x * x) + lit (3 # 2) * x - I * (I + lit 1) * J * (J + lit 1))
      / (lit 2 * I * (lit 2 * I - lit 1) * J * (lit 2 * J - lit 1)).

  (** atom.py:429-434. *)
  Definition FM3 (i j f : Z) : N :=
    if (j <=? 2)%Z || (i <=? 2)%Z then lit 0
    else
      let I := nhalf N i in let J := nhalf N j in let F := nhalf N f in
      let x := IdotJ I J F in
      (lit 10 * (x * x * x) + lit 20 * (x * x)
       + lit 2 * x * (nopp N (lit 3) * I * (I + lit 1) * J * (J + lit 1) + I * (I + lit 1) + J * (J + lit 1) + lit 3)
       - lit 5 * I * (I + lit 1) * J * (J + lit 1))
      / (I * (I - lit 1) * J * (J - lit 1) * (lit 2 * J - lit 1)).

  (** atom.py:409-435 [compute_hf_shift]. *)
  Definition hf_shift (i j f : Z) (A B C : N) : N :=
    A * IdotJ (nhalf N i) (nhalf N j) (nhalf N f) + B * FE2 i j f + C * FM3 i j f.

  (** atom.py:460-470 [compute_gF]. *)
  Definition compute_gF (i j f : Z) (gJ : N) : N :=
    if (f =? 0)%Z then lit 0
    else
      let I := nhalf N i in let J := nhalf N j in let F := nhalf N f in
      gJ * (F * (F + lit 1) + J * (J + lit 1) - I * (I + lit 1)) / (lit 2 * F * (F + lit 1)).

  (** atom.py:500-503, the Zeeman shift; [muB] is [mu_B.to(Hz/G)]. *)
  Definition z_shift (muB gF : N) (m : Z) (B qz : N) : N :=
    gF * nhalf N m * muB * B + qz * (B * B).
End Formulas.

(** ** The default g-value: atom.py:333-360, LS coupling *)

(** Results of numpy arithmetic on finite inputs. *)
Inductive npnum := Fin (x : Qc) | Inf (pos : bool) | NaN.

(** numpy's division of finite numbers: no exception, a warning at most. *)
Definition np_div (a b : Qc) : npnum :=
  if Qc_eqb b 0 then
    if Qc_eqb a 0 then NaN else Inf (Qc_ltb 0 a)
  else Fin (a / b)%Qc.

(** numpy scalars: product with a finite number, sum, finiteness. *)
Definition np_scale (c : Qc) (x : npnum) : npnum :=
  match x with
  | Fin y => Fin (c * y)%Qc
  | Inf s => if Qc_eqb c 0 then NaN else Inf (Bool.eqb s (Qc_ltb 0 c))
  | NaN => NaN
  end.
Definition np_add (x y : npnum) : npnum :=
  match x, y with
  | Fin a, Fin b => Fin (a + b)%Qc
  | NaN, _ | _, NaN => NaN
  | Inf s, Inf t => if Bool.eqb s t then Inf s else NaN
  | Inf s, _ | _, Inf s => Inf s
  end.
Definition np_finite (x : npnum) : bool := match x with Fin _ => true | _ => false end.

(** The number [z/2], and the number [z]. *)
Definition qch (z : Z) : Qc := Q2Qc (z # 2).
Definition qci (z : Z) : Qc := Q2Qc (z # 1).

(** atom.py:358-359 for one LS component: [1 + 1.0023*(...)/(2J(J+1))]. *)
Definition lande_LS (l s : Qc) (j : Z) : npnum :=
  let J := qch j in
  np_add (Fin 1%Qc)
    (np_div (Q2Qc (10023 # 10000) * (J * (J + 1) + s * (s + 1) - l * (l + 1)))%Qc (qci 2 * J * (J + 1))%Qc).

(** atom.py:333-360 for a level all of whose components are LS coupled.  The
    l and s are those of the leading component (the code writes
    [self.term.l]), the weights are the keys of [terms_dict].  Other couplings
    give [None] here (they are outside this model). *)
Fixpoint gJ_sum (l s : Qc) (d : dict Qc term) (total : npnum) : option npnum :=
  match d with
  | [] => Some total
  | (pct, t) :: d' =>
      match t_coupling t, t_J t with
      | CLS, Some j => gJ_sum l s d' (np_add total (np_scale pct (lande_LS l s j)))
      | _, _ => None
      end
  end.
Definition compute_gJ (mt : list term) : option npnum :=
  match mt with
  | lead :: _ =>
      match q_l (t_qn lead), q_s (t_qn lead) with
      | Some l, Some s => gJ_sum (Q2Qc l) (Q2Qc s) (terms_dict mt) (Fin 0%Qc)
      | _, _ => None
      end
  | [] => None
  end.

(** ** Energies with a g-value that may not be finite *)

(** atom.py:460-470 with the numpy value [g] of [manifold.lande]. *)
Definition gF_np (i j f : Z) (g : npnum) : npnum :=
  if (f =? 0)%Z then Fin 0%Qc
  else
    let I := qch i in let J := qch j in let F := qch f in
    np_scale (1 / (qci 2 * F * (F + 1)))%Qc (np_scale (F * (F + 1) + J * (J + 1) - I * (I + 1))%Qc g).

(** atom.py:437-443 and 500-503: the energy of a Zeeman sublevel of a level
    with energy [E] and constants [A B C]. *)
Definition z_level_np (muB Bfield qz E A B C : Qc) (i j f m : Z) (g : npnum) : npnum :=
  np_add (Fin (E + hf_shift Exact i j f A B C)%Qc)
    (np_add (np_scale Bfield (np_scale muB (np_scale (qch m) (gF_np i j f g)))) (Fin (qz * (Bfield * Bfield))%Qc)).
