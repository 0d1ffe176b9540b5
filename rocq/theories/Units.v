(** Energies and frequencies given as wavelengths, wavenumbers or energies.
    A quantity is a magnitude in SI units with its dimension.  pint's built-in
    spectroscopy context is what [ureg.enable_contexts('spectroscopy')] in
    __init__.py:17 switches on; the context object of __init__.py:12-16, which
    converts wavenumbers directly, is never added to the registry. *)
From Coq Require Import List Bool ZArith QArith Qcanon Lia String.
From Verif Require Import Base PyStr Util Parse Term Num Wigner Hyperfine Graph Rules Atom AtomInv.
Import ListNotations.
Local Open Scope Qc_scope.

Inductive dim := Frequency | Length | Wavenumber | Energy | OtherDim.
Record quantity := mkQ { q_mag : Qc; q_dim : dim }.

(** 299792458 m/s and 6.62607015e-34 J s. *)
Definition c_light : Qc := Q2Qc (299792458 # 1).
Definition planck : Qc := Q2Qc (662607015 # 10) / Q2Qc (inject_Z (10 ^ 41)).

Definition over (a x : Qc) : res Qc := if Qc_eqb x 0 then Raise ZeroDivisionError else Ok (a / x).

(** The rules of the context: length <-> frequency: c / value;
    frequency -> energy: h * value and back; wavenumber <-> length: 1 / value.
    They form the chain wavenumber - length - frequency - energy, so the
    shortest path between two dimensions is the only one. *)
Definition to_freq (q : quantity) : res Qc :=
  match q_dim q with
  | Frequency => Ok (q_mag q)
  | Length => over c_light (q_mag q)
  | Wavenumber => match over 1 (q_mag q) with Ok l => over c_light l | Raise e => Raise e end
  | Energy => Ok (q_mag q / planck)
  | OtherDim => Raise DimensionalityError
  end.
(** A frequency in the unit of another dimension. *)
Definition of_freq (d : dim) (f : Qc) : res Qc :=
  match d with
  | Frequency => Ok f
  | Length => over c_light f
  | Wavenumber => match over c_light f with Ok l => over 1 l | Raise e => Raise e end
  | Energy => Ok (planck * f)
  | OtherDim => Raise DimensionalityError
  end.
(** [q - x] for a frequency [x]: the dimensions must agree, no context helps. *)
Definition minus_freq (q : quantity) (x : Qc) : res Qc :=
  match q_dim q with Frequency => Ok (q_mag q - x) | _ => Raise DimensionalityError end.

Definition lift {A} (r : res A) : M Exact A := fun s => (r, s).

(** [EnergyLevel(term, level=q, ...)]: atom.py:259. *)
Definition new_level_q (ts : list term) (q : quantity) (A B C g : Qc) (alias : option string) (in_atom : bool) : M Exact nat :=
  bind (lift (to_freq q)) (fun E => new_level Exact ts E A B C g alias in_atom).

(** [level.level = q]: an EnergyLevel converts (atom.py:127-129), sublevels
    subtract their own level first (450-458). *)
Definition set_level_q (muB : Qc) (a : nat) (q : quantity) : M Exact unit :=
  bind (get_lv a) (fun l => match l_kind l with
  | LE => bind (lift (to_freq q)) (fun v => set_energy Exact muB a v)
  | _ => bind (asks Dangling (fun s => energy Exact muB s a)) (fun e =>
         bind (lift (minus_freq q e)) (fun d => set_energy Exact muB a (d + e)))
  end).

(** [level.level.to(d)]: atom.py:123-125, 446-448. *)
Definition level_in (muB : Qc) (d : dim) (a : nat) (s : st Exact) : res Qc :=
  match energy Exact muB s a with Some e => of_freq d e | None => Raise Dangling end.

(** [t.set_frequency(q)]: a Transition keeps the quantity, which is converted
    when it is used (atom.py:738-744, 1162); a line subtracts its own frequency
    first (800-802, 847-849).  The state left by a quantity that cannot be
    converted is not modelled. *)
Definition set_freq_q (muB : Qc) (orc : nat -> oracle) (t : nat) (q : quantity) : M Exact unit :=
  bind (get_tr t) (fun x => match x_kind x with
  | TT => bind (lift (to_freq q)) (fun f => set_frequency Exact muB orc t f)
  | _ => bind (asks Dangling (fun s => freq Exact muB s t)) (fun f0 =>
         bind (lift (minus_freq q f0)) (fun d => set_frequency Exact muB orc t (d + f0)))
  end).

(** [t.freq.to(d)]: atom.py:596-597; [t.wl] is the length (603-605). *)
Definition freq_in (muB : Qc) (d : dim) (t : nat) (s : st Exact) : res Qc :=
  match freq Exact muB s t with Some f => of_freq d f | None => Raise Dangling end.
Definition wl (muB : Qc) (t : nat) (s : st Exact) : res Qc := freq_in muB Length t s.

(** The quantity setters and getters of the hyperfine constants:
    atom.py:304-329.  Each sets one of hfA_Hz, hfB_Hz, hfC_Hz. *)
Inductive hfc := HfA | HfB | HfC.
Definition hf_get (c : hfc) (l : level Exact) : Qc := match c with HfA => l_hfA l | HfB => l_hfB l | HfC => l_hfC l end.
Definition hf_put (c : hfc) (v : Qc) (l : level Exact) : level Exact :=
  match c with
  | HfA => lv_set_hf Exact v (l_hfB l) (l_hfC l) l
  | HfB => lv_set_hf Exact (l_hfA l) v (l_hfC l) l
  | HfC => lv_set_hf Exact (l_hfA l) (l_hfB l) v l
  end.
Definition set_hf_q (c : hfc) (a : nat) (q : quantity) : M Exact unit := bind (lift (to_freq q)) (fun v => modify (upd_lv a (hf_put c v))).
Definition hf_in (c : hfc) (d : dim) (a : nat) (s : st Exact) : res Qc :=
  match lv s a with Some l => of_freq d (hf_get c l) | None => Raise Dangling end.
