(** Model of the basis conversions: [atomtoolkit/transition_strengths.py],
    lines 146-183, and [atomtoolkit/util.py], lines 72-108, over the real
    numbers.  Angular momenta are doubled integers, non-negative where the
    code is used as intended; other floats are outside the model. *)
From Coq Require Import List Bool ZArith QArith Qcanon Reals Qreals Lia Lra String.
From Verif Require Import Base PyStr Util Parse Term Wigner Hyperfine Strengths.
Import ListNotations.
Local Open Scope Z_scope.

(** ** The 9j symbol *)

(** sympy's [wigner_9j] (py3nj agrees): a sum of products of three 6j symbols.
    [{a b c; d e f; g h j}]; every triad with the summation index occurs in two
    of the 6j symbols, so its triangle coefficient is squared. *)
Definition w9_tri (a b c d e f g h j : Z) : bool :=
  tri a b c && tri d e f && tri g h j && tri a d g && tri b e h && tri c f j.
Definition w9_part (a b c d e f g h j x : Z) : Qc :=
  if tri a j x && tri b f x && tri d h x
  then (QcZ (x + 1) * (delta2 a j x * delta2 b f x * delta2 d h x)
        * (w6_sum a b c f j x * w6_sum d f e b h x * w6_sum a d g h j x))%Qc
  else 0%Qc.
Definition w9_sum (a b c d e f g h j : Z) : Qc :=
  fold_right (fun x acc => (w9_part a b c d e f g h j x + acc)%Qc) 0%Qc (F_range a j).
Definition w9_delta (a b c d e f g h j : Z) : Qc :=
  (delta2 a b c * delta2 d e f * delta2 g h j * delta2 a d g * delta2 b e h * delta2 c f j)%Qc.
Definition w9R (a b c d e f g h j : Z) : R :=
  if w9_tri a b c d e f g h j
  then (Rc (sgn (a + b + d + f + h + j)) * sqrt (Rc (w9_delta a b c d e f g h j)) * Rc (w9_sum a b c d e f g h j))%R
  else 0%R.

(** ** Amplitudes *)

(** A float: a number or nan. *)
Definition fl : Type := option R.

(** [np.repeat(ls, len(ss))] and [np.tile(ss, len(ls))]. *)
Definition grid (ls ss : list Z) : list (Z * Z) := list_prod ls ss.

(** transition_strengths.py:147-157 [JJ_to_LS]: L, S and the amplitude. *)
Definition JJ_to_LS (j jc jo lc sc lo so : Z) : list (Z * Z * fl) :=
  map (fun p => let '(l, s) := p in
         (l, s, Some (w9R lc sc jc lo so jo l s j * sqrt (IZR ((jc + 1) * (jo + 1) * (l + 1) * (s + 1))))%R))
      (grid (F_range lc lo) (F_range sc so)).

(** [(-1) ** x] for a numpy float: nan unless [x] is an integer; [e] is [2*x]. *)
Definition minus_one_pow (e : Z) : fl := if Z.even e then Some (Rc (sgn (e / 2))) else None.
Definition fl_scale (u : fl) (r : R) : fl := option_map (fun x => (x * r)%R) u.

(** transition_strengths.py:161-173 [JK_to_LS]. *)
Definition JK_to_LS (j jc k lc sc lo so : Z) : list (Z * Z * fl) :=
  map (fun p => let '(l, s) := p in
         (l, s, fl_scale (minus_one_pow (- lc - lo - 2 * sc - so - k - l - j))
                  (sqrt (IZR ((jc + 1) * (l + 1) * (k + 1) * (s + 1))) * w6R sc lc jc lo k l * w6R l sc k so j s)%R))
      (grid (F_range lc lo) (F_range sc so)).

(** transition_strengths.py:177-184 [LK_to_LS]. *)
Definition LK_to_LS (j l k sc so : Z) : list (Z * Z * fl) :=
  map (fun p => let '(l, s) := p in
         (l, s, Some (sqrt (IZR ((k + 1) * (s + 1))) * w6R l sc k so j s)%R))
      (grid [l] (F_range sc so)).

(** ** Readable lists *)

(** [ampl != 0]; nan is not equal to 0. *)
Definition fl_nonzero (u : fl) : bool := match u with Some x => if Req_EM_T x 0 then false else true | None => true end.
(** [round(100 * ampl ** 2, 2)] with the rounding [rnd]. *)
Definition percent (rnd : R -> R) (u : fl) : fl := option_map (fun x => rnd (100 * x ^ 2))%R u.

(** util.py:87-92 [_sets_to_list].  [l] is a numpy float, for which [l_to_let]
    does not ask whether it is an integer: [int] drops the fraction. *)
Definition sets_to_list (rnd : R -> R) (sets : list (Z * Z * fl)) : res (list (string * fl)) :=
  match sets with
  | [] => Raise ValueError
  | _ =>
      rmapM (fun p => let '(l, s, a) := p in
               rbind (str_index letters (Z.quot l 2)) (fun c => Ok ((zstr (s + 1) ++ c)%string, percent rnd a)))
            (filter (fun p => fl_nonzero (snd p)) sets)
  end.

(** The doubled value of a half-integer. *)
Definition doubled (q : Q) : option Z := if q_is_int (q * (2 # 1)) then Some (q_trunc (q * (2 # 1))) else None.
(** An argument: [None] raises TypeError in the arithmetic; the second case is
    a float that is not a half-integer. *)
Definition arg (q : option Q) (f : Z -> option (res (list (string * fl)))) : option (res (list (string * fl))) :=
  match q with
  | None => Some (Raise TypeError)
  | Some q => match doubled q with Some z => f z | None => None end
  end.

(** util.py:74-84 [term_to_LS] and 95-108 [readable_..._to_LS].  The outer
    [None]: a number that is not a half-integer, outside the model.  A term of
    unknown coupling gives Python's [None], here the empty list. *)
Definition term_to_LS (rnd : R -> R) (conf term : string) (j : Z) : option (res (list (string * fl))) :=
  match get_quantum_nums conf term with
  | Raise e => Some (Raise e)
  | Ok q =>
      match get_term_coupling term with
      | CLS => Some (Ok [(term, Some 100%R)])
      | CJK => arg (q_jc q) (fun jc => arg (q_k q) (fun k => arg (q_lc q) (fun lc => arg (q_sc q) (fun sc => arg (q_lo q) (fun lo => arg (q_so q) (fun so =>
                 Some (sets_to_list rnd (JK_to_LS j jc k lc sc lo so))))))))
      | CJJ => arg (q_jc q) (fun jc => arg (q_jo q) (fun jo => arg (q_lc q) (fun lc => arg (q_sc q) (fun sc => arg (q_lo q) (fun lo => arg (q_so q) (fun so =>
                 Some (sets_to_list rnd (JJ_to_LS j jc jo lc sc lo so))))))))
      | CLK => arg (q_l q) (fun l => arg (q_k q) (fun k => arg (q_sc q) (fun sc => arg (q_so q) (fun so =>
                 Some (sets_to_list rnd (LK_to_LS j l k sc so))))))
      | CUnknown => Some (Ok [])
      end
  end.

(** ** The default g-value of levels in other couplings *)

(** atom.py:358-359, one component; [J > 0] (for [J = 0] numpy divides by 0). *)
Definition lande_R (l s j : Z) : R :=
  let L := (IZR l / 2)%R in let S := (IZR s / 2)%R in let J := (IZR j / 2)%R in
  (1 + 10023 / 10000 * (J * (J + 1) + S * (S + 1) - L * (L + 1)) / (2 * J * (J + 1)))%R.

(** atom.py:356-359, [sum(percents * (...))]; nan if one amplitude is. *)
Fixpoint gJ_sets (j : Z) (sets : list (Z * Z * fl)) : fl :=
  match sets with
  | [] => Some 0%R
  | (l, s, a) :: rest =>
      match a, gJ_sets j rest with
      | Some x, Some y => Some (x * lande_R l s j + y)%R
      | _, _ => None
      end
  end.

(** atom.py:333-360 for a level with one component, JJ, JK or LK coupled and
    [J > 0]; [None] is outside this model (a number that is not a half-integer,
    a missing quantum number, LS coupling, see [Hyperfine.compute_gJ]). *)
Definition num {A} (q : option Q) (f : Z -> option A) : option A :=
  match q with Some q => match doubled q with Some z => f z | None => None end | None => None end.
Definition gJ_coupled (t : term) : option fl :=
  let q := t_qn t in
  match t_J t with
  | None => None
  | Some j =>
      if 0 <? j then
        option_map (fun sets => fl_scale (gJ_sets j sets) (Rc (t_pct t)))
          (match t_coupling t with
           | CJJ => num (q_jc q) (fun jc => num (q_jo q) (fun jo => num (q_lc q) (fun lc => num (q_sc q) (fun sc => num (q_lo q) (fun lo => num (q_so q) (fun so =>
                      Some (JJ_to_LS j jc jo lc sc lo so)))))))
           | CJK => num (q_jc q) (fun jc => num (q_k q) (fun k => num (q_lc q) (fun lc => num (q_sc q) (fun sc => num (q_lo q) (fun lo => num (q_so q) (fun so =>
                      Some (JK_to_LS j jc k lc sc lo so)))))))
           | CLK => num (q_l q) (fun l => num (q_k q) (fun k => num (q_sc q) (fun sc => num (q_so q) (fun so => Some (LK_to_LS j l k sc so)))))
           | _ => None
           end)
      else None
  end.
