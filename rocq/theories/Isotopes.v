(** Several atoms in one program: which atom a level object and its sublevels
    belong to (atom.py:30-38, 54-73, 179-185, 262-289, 381-443, 479-503,
    893-935).  [Atom.v] has one atom; here every level has its own reference
    [atom], through which it reads the nuclear spin and the magnetic field.

    Simplified: levels only (no transitions, aliases or deletions); a level is
    given by its name and quantum numbers instead of a term; the names of
    sublevels are those of [Term.t_name]. *)
From Coq Require Import List Bool ZArith QArith Qcanon Lia String.
From Verif Require Import Base Num PyStr Util Term Hyperfine Atom.
Import ListNotations.
Local Open Scope string_scope.

Section Isotopes.
  Context (N : Num) (muB : num N).

  (** An EnergyLevel, HFLevel or ZLevel. *)
  Record ilevel : Type := mkI {
    i_kind : lkind;
    i_parent : option nat;
    i_name : string;
    i_J : Z; i_F : Z; i_mF : Z;     (* doubled; 0 if the kind has none *)
    i_atom : option nat;            (* self.atom *)
    i_subs : dict string nat;
    i_E : num N; i_hfA : num N; i_hfB : num N; i_hfC : num N; i_g : num N; i_gF : num N; i_qz : num N
  }.
  Definition set_atom (o : option nat) (l : ilevel) : ilevel :=
    mkI (i_kind l) (i_parent l) (i_name l) (i_J l) (i_F l) (i_mF l) o (i_subs l) (i_E l) (i_hfA l) (i_hfB l) (i_hfC l) (i_g l) (i_gF l) (i_qz l).
  Definition set_isubs (d : dict string nat) (l : ilevel) : ilevel :=
    mkI (i_kind l) (i_parent l) (i_name l) (i_J l) (i_F l) (i_mF l) (i_atom l) d (i_E l) (i_hfA l) (i_hfB l) (i_hfC l) (i_g l) (i_gF l) (i_qz l).
  Definition set_iE (e : num N) (l : ilevel) : ilevel :=
    mkI (i_kind l) (i_parent l) (i_name l) (i_J l) (i_F l) (i_mF l) (i_atom l) (i_subs l) e (i_hfA l) (i_hfB l) (i_hfC l) (i_g l) (i_gF l) (i_qz l).
  Definition set_ihf (a b c : num N) (l : ilevel) : ilevel :=
    mkI (i_kind l) (i_parent l) (i_name l) (i_J l) (i_F l) (i_mF l) (i_atom l) (i_subs l) (i_E l) a b c (i_g l) (i_gF l) (i_qz l).

  (** An Atom: nuclear spin (doubled), field, and the nodes of its graphs. *)
  Record isotope : Type := mkIso { p_I : Z; p_B : num N; p_n0 : dict string nat; p_n1 : dict string nat; p_n2 : dict string nat }.
  Definition nodes_of (k : lkind) (p : isotope) : dict string nat := match k with LE => p_n0 p | LHF => p_n1 p | LZ => p_n2 p end.
  Definition set_node (k : lkind) (n : string) (a : nat) (p : isotope) : isotope :=
    match k with
    | LE => mkIso (p_I p) (p_B p) (dset n a (p_n0 p)) (p_n1 p) (p_n2 p)
    | LHF => mkIso (p_I p) (p_B p) (p_n0 p) (dset n a (p_n1 p)) (p_n2 p)
    | LZ => mkIso (p_I p) (p_B p) (p_n0 p) (p_n1 p) (dset n a (p_n2 p))
    end.

  Record world : Type := mkW { w_lv : list ilevel; w_at : list isotope }.
  Definition lev (w : world) (a : nat) : option ilevel := nth_error (w_lv w) a.
  Definition iso (w : world) (i : nat) : option isotope := nth_error (w_at w) i.
  Definition on_lv (a : nat) (f : ilevel -> ilevel) (w : world) : world := mkW (upd a f (w_lv w)) (w_at w).
  Definition on_at (i : nat) (f : isotope -> isotope) (w : world) : world := mkW (w_lv w) (upd i f (w_at w)).

  (** [self.atom.I] and [self.atom.B_gauss]. *)
  Definition I_of (w : world) (l : ilevel) : option Z :=
    match i_atom l with Some i => option_map p_I (iso w i) | None => None end.
  Definition B_of (w : world) (l : ilevel) : option (num N) :=
    match i_atom l with Some i => option_map p_B (iso w i) | None => None end.

  (** ** Energies: atom.py:291-293, 409-443, 499-503 *)
  Definition i_energyE (w : world) (a : nat) : option (num N) := option_map i_E (lev w a).
  Definition i_energyHF (w : world) (a : nat) : option (num N) :=
    match lev w a with
    | Some l =>
        match i_parent l, I_of w l with
        | Some p, Some i =>
            match lev w p, i_energyE w p with
            | Some lp, Some e => Some (nadd N e (hf_shift N i (i_J l) (i_F l) (i_hfA lp) (i_hfB lp) (i_hfC lp)))
            | _, _ => None
            end
        | _, _ => None
        end
    | None => None
    end.
  Definition i_energyZ (w : world) (a : nat) : option (num N) :=
    match lev w a with
    | Some l =>
        match i_parent l, B_of w l with
        | Some p, Some b =>
            match i_energyHF w p with
            | Some e => Some (nadd N e (z_shift N muB (i_gF l) (i_mF l) b (i_qz l)))
            | None => None
            end
        | _, _ => None
        end
    | None => None
    end.

  (** ** Sublevels *)

  (** atom.py:286-288: a new HFLevel of the level [l] at [a]. *)
  Definition new_hf (a : nat) (l : ilevel) (i f : Z) : ilevel :=
    mkI LHF (Some a) (i_name l ++ " F=" ++ half_label f) (i_J l) f 0 (i_atom l) []
      (nofQ N 0) (nofQ N 0) (nofQ N 0) (nofQ N 0) (nofQ N 0) (compute_gF N i (i_J l) f (i_g l)) (nofQ N 0).
  (** atom.py:404-406: a new ZLevel of the HFLevel [l] at [a], manifold [lm]. *)
  Definition new_z (a : nat) (l lm : ilevel) (i m : Z) : ilevel :=
    mkI LZ (Some a) (i_name l ++ " mF=" ++ half_label m) (i_J l) (i_F l) m (i_atom l) []
      (nofQ N 0) (nofQ N 0) (nofQ N 0) (nofQ N 0) (nofQ N 0) (compute_gF N i (i_J l) (i_F l) (i_g lm)) (nofQ N 0).

  (** The loops of atom.py:286-289 and 404-407. *)
  Definition i_install (a : nat) (keys : list string) (new : list ilevel) (w : world) : world :=
    on_lv a (fun l => set_isubs
      (fold_left (fun d kc => dset (fst kc) (snd kc) d) (combine keys (seq (List.length (w_lv w)) (List.length new))) (i_subs l)) l)
      (mkW (w_lv w ++ new) (w_at w)).

  (** populate_sublevels: atom.py:281-289, 401-407, 495-497.  A level without
      an atom gets none. *)
  Definition i_populate (a : nat) (w : world) : world :=
    match lev w a with
    | Some l =>
        match i_kind l, I_of w l with
        | LE, Some i => i_install a (map F_key (F_range (i_J l) i)) (map (new_hf a l i) (F_range (i_J l) i)) w
        | LHF, Some i =>
            match i_parent l with
            | Some p =>
                match lev w p with
                | Some lm => i_install a (map mF_key (mF_range (i_F l))) (map (new_z a l lm i) (mF_range (i_F l))) w
                | None => w
                end
            | None => w
            end
        | _, _ => w
        end
    | None => w
    end.

  (** [model.add_node(level.name, level=level)] in the graph of atom [i]. *)
  Definition i_node (i a : nat) (w : world) : world :=
    match lev w a with Some l => on_at i (set_node (i_kind l) (i_name l) a) w | None => w end.

  (** The decorator lazy_compute_sublevels and [level.sublevels()]:
      atom.py:30-38, 215-217. *)
  Definition i_sublevels (a : nat) (w : world) : res (list nat) * world :=
    match lev w a with
    | None => (Raise Dangling, w)
    | Some l =>
        match i_subs l with
        | [] =>
            match i_atom l with
            | None => (Raise AttributeError, w)
            | Some i =>
                let w1 := i_populate a w in
                match lev w1 a with
                | None => (Raise Dangling, w1)
                | Some l1 => (Ok (dvals (i_subs l1)), fold_left (fun w c => i_node i c w) (dvals (i_subs l1)) w1)
                end
            end
        | d => (Ok (dvals d), w)
        end
    end.

  (** add_to_atom: atom.py:179-185. *)
  Fixpoint i_join (fuel : nat) (i a : nat) (w : world) : world :=
    match fuel with
    | O => w
    | S fuel' =>
        let w1 := i_node i a (on_lv a (set_atom (Some i)) w) in
        match lev w1 a with
        | Some l => fold_left (fun w c => i_join fuel' i c w) (dvals (i_subs l)) w1
        | None => w1
        end
    end.

  (** Atom.add_level: atom.py:915-935. *)
  Definition i_add (i a : nat) (populate : bool) (w : world) : world :=
    let w1 := i_join 3 i a w in
    if populate then
      let w2 := i_populate a w1 in
      match i_sublevels a w2 with
      | (Ok cs, w3) => fold_left (fun w c => i_join 3 i c w) cs w3
      | (Raise _, w3) => w3
      end
    else w1.

  (** ** Programs *)
  Inductive iop : Type :=
  | IAtom (I : Z) (B : num N)                                        (* Atom(name, I, B) *)
  | INew (name : string) (J : Z) (E A B C g : num N)                 (* EnergyLevel(term, level, lande, hfA=..) *)
  | IAdd (i a : nat) (populate : bool)                               (* atom.add_level(level, populate) *)
  | ISub (a : nat)                                                   (* level.sublevels() *)
  | ISetB (i : nat) (B : num N)                                      (* atom.B = B *)
  | ISetE (a : nat) (v : num N)                                      (* level.level = v *)
  | ISetHf (a : nat) (A B C : num N).                                (* level.hfA, hfB, hfC = .. *)

  Definition i_step (w : world) (o : iop) : world :=
    match o with
    | IAtom i B => mkW (w_lv w) (w_at w ++ [mkIso i B [] [] []])
    | INew name J E A B C g => mkW (w_lv w ++ [mkI LE None name J 0 0 None [] E A B C g (nofQ N 0) (nofQ N 0)]) (w_at w)
    | IAdd i a populate => i_add i a populate w
    | ISub a => snd (i_sublevels a w)
    | ISetB i B => on_at i (fun p => mkIso (p_I p) B (p_n0 p) (p_n1 p) (p_n2 p)) w
    | ISetE a v => on_lv a (set_iE v) w
    | ISetHf a A B C => on_lv a (set_ihf A B C) w
    end.
  Definition i_run (w : world) (os : list iop) : world := fold_left i_step os w.
  Definition nothing : world := mkW [] [].
End Isotopes.
