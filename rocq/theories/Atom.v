(** Model of [atomtoolkit/atom.py] (levels, transitions, atom) and
    [atomtoolkit/atom_helpers.py] (lookup): a heap of level and transition
    objects and the three graphs of one Atom.

    Python exceptions are values; effects made before an exception remain.
    Addresses are positions in the two heap lists.  [Dangling] marks an
    address that is not allocated or a level without the quantum number its
    kind needs; it is proved unreachable.

    Not modelled: several atoms, units other than frequencies (a Quantity is
    its magnitude in Hz, except for A coefficients, which keep their unit),
    progress bars, text of warnings. *)
From Coq Require Import List Bool ZArith QArith Qcanon Lia String Ascii.
From Verif Require Import Base PyStr Util Parse Term Num Wigner Hyperfine Graph Rules.
Import ListNotations.
Local Open Scope string_scope.

(** EnergyLevel, HFLevel, ZLevel; Transition, HFTransition, ZTransition. *)
Inductive lkind := LE | LHF | LZ.
Inductive tkind := TT | THF | TZ.

(** Frequency units of an A coefficient and their size in Hz. *)
Inductive funit := uHz | ukHz | uMHz | uGHz | uTHz.
Definition unit_Q (u : funit) : Q :=
  match u with
  | uHz => 1 | ukHz => 1000 | uMHz => 1000000 | uGHz => 1000000000 | uTHz => 1000000000000
  end.

(** The two warnings of atom.py:1164 and 947. *)
Inductive warning := WLoop (u v : string) | WDup (a b : string).

Section Atom.
  Context (N : Num).
  (** [mu_B.to(Hz/G).magnitude] *)
  Context (muB : N).
  (** The iteration orders of the n-th call of enforce_consistency. *)
  Context (orc : nat -> oracle).

  (** An EnergyLevel, HFLevel or ZLevel: atom.py:54-73, 246-264, 381-387,
      479-484.  Attributes of other kinds hold zero. *)
  Record level : Type := mkLevel {
    l_kind : lkind;
    l_parent : option nat;      (* parent level *)
    l_term : list term;         (* the MultiTerm, leading term first *)
    l_attached : bool;          (* self.atom is not None *)
    l_alias : option string;
    l_fixed : bool;
    l_subs : dict string nat;   (* _sublevels *)
    l_E : N;                    (* _level_Hz *)
    l_hfA : N; l_hfB : N; l_hfC : N;
    l_lande : N;
    l_gF : N;
    l_qz : N                    (* quadratic_zeeman *)
  }.

  (** A Transition, HFTransition or ZTransition: atom.py:542-582. *)
  Record trans : Type := mkTrans {
    x_kind : tkind;
    x_parent : option nat;
    x_E1 : nat; x_E2 : nat;
    x_up : nat; x_lo : nat;
    x_attached : bool;
    x_alias : option string;
    x_A : option (N * funit);
    x_rel : N;
    x_allowed : types;
    x_set : option N;           (* set_freq in Hz *)
    x_subs : dict (string * string) nat
  }.

  (** An Atom with every object made so far: atom.py:876-907. *)
  Record st : Type := mkSt {
    s_levels : list level;
    s_trans : list trans;
    s_g0 : graph; s_g1 : graph; s_g2 : graph;
    s_lal : dict string nat;    (* levels.aliases *)
    s_tal : dict string nat;    (* transitions.aliases *)
    s_I : Z;                    (* 2 I *)
    s_B : N;                    (* B_gauss *)
    s_warn : list warning;      (* latest first *)
    s_tick : nat                (* number of calls of enforce_consistency *)
  }.

  (** ** Field updates *)

  Definition lv_set_attached (b : bool) (l : level) : level :=
    mkLevel (l_kind l) (l_parent l) (l_term l) b (l_alias l) (l_fixed l) (l_subs l) (l_E l)
      (l_hfA l) (l_hfB l) (l_hfC l) (l_lande l) (l_gF l) (l_qz l).
  Definition lv_set_alias (a : option string) (l : level) : level :=
    mkLevel (l_kind l) (l_parent l) (l_term l) (l_attached l) a (l_fixed l) (l_subs l) (l_E l)
      (l_hfA l) (l_hfB l) (l_hfC l) (l_lande l) (l_gF l) (l_qz l).
  Definition lv_set_fixed (b : bool) (l : level) : level :=
    mkLevel (l_kind l) (l_parent l) (l_term l) (l_attached l) (l_alias l) b (l_subs l) (l_E l)
      (l_hfA l) (l_hfB l) (l_hfC l) (l_lande l) (l_gF l) (l_qz l).
  Definition lv_set_subs (d : dict string nat) (l : level) : level :=
    mkLevel (l_kind l) (l_parent l) (l_term l) (l_attached l) (l_alias l) (l_fixed l) d (l_E l)
      (l_hfA l) (l_hfB l) (l_hfC l) (l_lande l) (l_gF l) (l_qz l).
  Definition lv_set_E (e : N) (l : level) : level :=
    mkLevel (l_kind l) (l_parent l) (l_term l) (l_attached l) (l_alias l) (l_fixed l) (l_subs l) e
      (l_hfA l) (l_hfB l) (l_hfC l) (l_lande l) (l_gF l) (l_qz l).
  Definition lv_set_hf (a b c : N) (l : level) : level :=
    mkLevel (l_kind l) (l_parent l) (l_term l) (l_attached l) (l_alias l) (l_fixed l) (l_subs l) (l_E l)
      a b c (l_lande l) (l_gF l) (l_qz l).
  Definition lv_set_lande (g : N) (l : level) : level :=
    mkLevel (l_kind l) (l_parent l) (l_term l) (l_attached l) (l_alias l) (l_fixed l) (l_subs l) (l_E l)
      (l_hfA l) (l_hfB l) (l_hfC l) g (l_gF l) (l_qz l).
  Definition lv_set_qz (q : N) (l : level) : level :=
    mkLevel (l_kind l) (l_parent l) (l_term l) (l_attached l) (l_alias l) (l_fixed l) (l_subs l) (l_E l)
      (l_hfA l) (l_hfB l) (l_hfC l) (l_lande l) (l_gF l) q.

  (** Assignments to attributes of a transition: atom.py:568, 641, 645, 743, 678. *)
  Definition tr_set_attached (b : bool) (t : trans) : trans :=
    mkTrans (x_kind t) (x_parent t) (x_E1 t) (x_E2 t) (x_up t) (x_lo t) b (x_alias t) (x_A t) (x_rel t)
      (x_allowed t) (x_set t) (x_subs t).
  Definition tr_set_alias (a : option string) (t : trans) : trans :=
    mkTrans (x_kind t) (x_parent t) (x_E1 t) (x_E2 t) (x_up t) (x_lo t) (x_attached t) a (x_A t) (x_rel t)
      (x_allowed t) (x_set t) (x_subs t).
  Definition tr_set_A (a : option (N * funit)) (t : trans) : trans :=
    mkTrans (x_kind t) (x_parent t) (x_E1 t) (x_E2 t) (x_up t) (x_lo t) (x_attached t) (x_alias t) a (x_rel t)
      (x_allowed t) (x_set t) (x_subs t).
  Definition tr_set_set (f : option N) (t : trans) : trans :=
    mkTrans (x_kind t) (x_parent t) (x_E1 t) (x_E2 t) (x_up t) (x_lo t) (x_attached t) (x_alias t) (x_A t) (x_rel t)
      (x_allowed t) f (x_subs t).
  Definition tr_set_subs (d : dict (string * string) nat) (t : trans) : trans :=
    mkTrans (x_kind t) (x_parent t) (x_E1 t) (x_E2 t) (x_up t) (x_lo t) (x_attached t) (x_alias t) (x_A t) (x_rel t)
      (x_allowed t) (x_set t) d.

  (** Assignments to attributes of the atom: atom.py:887-900, 956, 968, 1164. *)
  Definition set_levels (h : list level) (s : st) : st :=
    mkSt h (s_trans s) (s_g0 s) (s_g1 s) (s_g2 s) (s_lal s) (s_tal s) (s_I s) (s_B s) (s_warn s) (s_tick s).
  Definition set_trans (h : list trans) (s : st) : st :=
    mkSt (s_levels s) h (s_g0 s) (s_g1 s) (s_g2 s) (s_lal s) (s_tal s) (s_I s) (s_B s) (s_warn s) (s_tick s).
  Definition set_lal (d : dict string nat) (s : st) : st :=
    mkSt (s_levels s) (s_trans s) (s_g0 s) (s_g1 s) (s_g2 s) d (s_tal s) (s_I s) (s_B s) (s_warn s) (s_tick s).
  Definition set_tal (d : dict string nat) (s : st) : st :=
    mkSt (s_levels s) (s_trans s) (s_g0 s) (s_g1 s) (s_g2 s) (s_lal s) d (s_I s) (s_B s) (s_warn s) (s_tick s).
  Definition set_B (b : N) (s : st) : st :=
    mkSt (s_levels s) (s_trans s) (s_g0 s) (s_g1 s) (s_g2 s) (s_lal s) (s_tal s) (s_I s) b (s_warn s) (s_tick s).
  Definition add_warn (w : warning) (s : st) : st :=
    mkSt (s_levels s) (s_trans s) (s_g0 s) (s_g1 s) (s_g2 s) (s_lal s) (s_tal s) (s_I s) (s_B s) (w :: s_warn s) (s_tick s).
  Definition tick (s : st) : st :=
    mkSt (s_levels s) (s_trans s) (s_g0 s) (s_g1 s) (s_g2 s) (s_lal s) (s_tal s) (s_I s) (s_B s) (s_warn s) (S (s_tick s)).
  Definition set_g0 (g : graph) (s : st) : st :=
    mkSt (s_levels s) (s_trans s) g (s_g1 s) (s_g2 s) (s_lal s) (s_tal s) (s_I s) (s_B s) (s_warn s) (s_tick s).
  Definition set_g1 (g : graph) (s : st) : st :=
    mkSt (s_levels s) (s_trans s) (s_g0 s) g (s_g2 s) (s_lal s) (s_tal s) (s_I s) (s_B s) (s_warn s) (s_tick s).
  Definition set_g2 (g : graph) (s : st) : st :=
    mkSt (s_levels s) (s_trans s) (s_g0 s) (s_g1 s) g (s_lal s) (s_tal s) (s_I s) (s_B s) (s_warn s) (s_tick s).

  (** The graph a level or transition lives in: atom.py:277-279, 397-399,
      490-492, 723-726, 785-788, 838-841. *)
  Definition graph_of (k : lkind) (s : st) : graph :=
    match k with LE => s_g0 s | LHF => s_g1 s | LZ => s_g2 s end.
  Definition set_graph (k : lkind) (g : graph) (s : st) : st :=
    match k with LE => set_g0 g s | LHF => set_g1 g s | LZ => set_g2 g s end.
  Definition lk (k : tkind) : lkind := match k with TT => LE | THF => LHF | TZ => LZ end.

  (** The object at an address, and a change of it. *)
  Definition lv (s : st) (a : nat) : option level := nth_error (s_levels s) a.
  Definition tr (s : st) (a : nat) : option trans := nth_error (s_trans s) a.
  Definition upd_lv (a : nat) (f : level -> level) (s : st) : st := set_levels (upd a f (s_levels s)) s.
  Definition upd_tr (a : nat) (f : trans -> trans) (s : st) : st := set_trans (upd a f (s_trans s)) s.

  (** ** Computations *)

  Definition M (A : Type) : Type := st -> res A * st.
  Definition ret {A} (a : A) : M A := fun s => (Ok a, s).
  Definition raise {A} (e : exn) : M A := fun s => (Raise e, s).
  Definition bind {A B} (m : M A) (f : A -> M B) : M B :=
    fun s => match m s with (Ok a, s') => f a s' | (Raise e, s') => (Raise e, s') end.
  Definition modify (f : st -> st) : M unit := fun s => (Ok tt, f s).
  (** Read the state; a missing value raises [e]. *)
  Definition asks {A} (e : exn) (f : st -> option A) : M A :=
    fun s => match f s with Some a => (Ok a, s) | None => (Raise e, s) end.
  Definition gets {A} (f : st -> A) : M A := fun s => (Ok (f s), s).
  Fixpoint forM {A} (l : list A) (f : A -> M unit) : M unit :=
    match l with [] => ret tt | x :: l' => bind (f x) (fun _ => forM l' f) end.

  Notation "x <- m ;; f" := (bind m (fun x => f)) (at level 61, m at next level, right associativity).
  Notation "m ;;; f" := (bind m (fun _ => f)) (at level 61, right associativity).

  (** The object at an address inside a computation. *)
  Definition get_lv (a : nat) : M level := asks Dangling (fun s => lv s a).
  Definition get_tr (a : nat) : M trans := asks Dangling (fun s => tr s a).

  (** ** Terms of a level *)

  Definition lead (l : level) : option term := match l_term l with t :: _ => Some t | [] => None end.
  Definition lname (l : level) : string := match lead l with Some t => t_name t | None => "" end.
  Definition lshort (l : level) : string := match lead l with Some t => t_short_name t | None => "" end.
  Definition l_J (l : level) : option Z := match lead l with Some t => t_J t | None => None end.
  Definition l_F (l : level) : option Z := match lead l with Some t => t_F t | None => None end.
  Definition l_mF (l : level) : option Z := match lead l with Some t => t_mF t | None => None end.
  Definition l_parity (l : level) : Z := match lead l with Some t => t_parity t | None => 1%Z end.

  (** [level.name]: term.py:52-62. *)
  Definition nm (s : st) (a : nat) : option string := option_map lname (lv s a).

  (** ** Energies *)

  (** atom.py:291-293 *)
  Definition energyE (s : st) (a : nat) : option N :=
    match lv s a with
    | Some l => match l_kind l with LE => Some (l_E l) | _ => None end
    | None => None
    end.

  (** atom.py:409-443 *)
  Definition energyHF (s : st) (a : nat) : option N :=
    match lv s a with
    | Some l =>
        match l_parent l, l_J l, l_F l with
        | Some p, Some j, Some f =>
            match lv s p, energyE s p with
            | Some lp, Some e => Some (nadd N e (hf_shift N (s_I s) j f (l_hfA lp) (l_hfB lp) (l_hfC lp)))
            | _, _ => None
            end
        | _, _, _ => None
        end
    | None => None
    end.

  (** atom.py:499-503 *)
  Definition energyZ (s : st) (a : nat) : option N :=
    match lv s a with
    | Some l =>
        match l_parent l, l_mF l with
        | Some p, Some m =>
            match energyHF s p with
            | Some e => Some (nadd N e (z_shift N muB (l_gF l) m (s_B s) (l_qz l)))
            | None => None
            end
        | _, _ => None
        end
    | None => None
    end.

  (** [level_Hz] *)
  Definition energy (s : st) (a : nat) : option N :=
    match lv s a with
    | Some l => match l_kind l with LE => energyE s a | LHF => energyHF s a | LZ => energyZ s a end
    | None => None
    end.

  (** [level.level = v]: atom.py:127-129, 295-298, 450-458. *)
  Definition set_energyE (a : nat) (v : N) : M unit := modify (upd_lv a (lv_set_E v)).
  Definition set_energyHF (a : nat) (v : N) : M unit :=
    l <- get_lv a ;;
    e <- asks Dangling (fun s => energyHF s a) ;;
    p <- asks Dangling (fun _ => l_parent l) ;;
    ep <- asks Dangling (fun s => energyE s p) ;;
    set_energyE p (nadd N ep (nsub N v e)).
  Definition set_energyZ (a : nat) (v : N) : M unit :=
    l <- get_lv a ;;
    e <- asks Dangling (fun s => energyZ s a) ;;
    p <- asks Dangling (fun _ => l_parent l) ;;
    ep <- asks Dangling (fun s => energyHF s p) ;;
    set_energyHF p (nadd N ep (nsub N v e)).
  Definition set_energy (a : nat) (v : N) : M unit :=
    l <- get_lv a ;;
    match l_kind l with LE => set_energyE a v | LHF => set_energyHF a v | LZ => set_energyZ a v end.

  (** ** Levels *)

  (** atom.py:246-264.  [in_atom]: the argument [parent] is the atom.  The
      g-value is given (for the default see [Hyperfine.compute_gJ]).  Terms
      without J, or with F or mF, are outside the model. *)
  Definition plain_term (t : term) : bool :=
    match t_J t, t_F t, t_mF t with Some j, None, None => (0 <=? j)%Z | _, _, _ => false end.
  Definition new_level (ts : list term) (E A B C g : N) (alias : option string) (in_atom : bool) : M nat :=
    match ts with
    | [] => raise IndexError
    | _ =>
        if forallb plain_term ts then
          a <- gets (fun s => List.length (s_levels s)) ;;
          modify (fun s => set_levels (s_levels s ++
            [mkLevel LE None (multiterm ts) in_atom alias false [] E A B C g (nofQ N 0) (nofQ N 0)]) s) ;;;
          ret a
        else raise NotImplementedError
    end.

  (** atom.py:381-387: a new HFLevel. *)
  Definition mkHF (s : st) (p : nat) (lp : level) (j f : Z) : level :=
    mkLevel LHF (Some p) (mt_copy (Some f) None (l_term lp)) true None false []
      (nofQ N 0) (nofQ N 0) (nofQ N 0) (nofQ N 0) (nofQ N 0)
      (compute_gF N (s_I s) j f (l_lande lp)) (nofQ N 0).

  (** atom.py:479-484: a new ZLevel below the HFLevel [lp] of manifold [lm]. *)
  Definition mkZ (s : st) (p : nat) (lp lm : level) (j f m : Z) : level :=
    mkLevel LZ (Some p) (mt_copy None (Some m) (l_term lp)) true None false []
      (nofQ N 0) (nofQ N 0) (nofQ N 0) (nofQ N 0) (nofQ N 0)
      (compute_gF N (s_I s) j f (l_lande lm)) (nofQ N 0).

  (** Allocate new sublevels and enter them under their keys (the loops of
      atom.py:286-289 and 404-407, which cannot fail halfway). *)
  Definition install (a : nat) (keys : list string) (new : list level) (s : st) : st :=
    let n := List.length (s_levels s) in
    let s1 := set_levels (s_levels s ++ new) s in
    upd_lv a (fun l => lv_set_subs
      (fold_left (fun d ki => dset (fst ki) (snd ki) d) (combine keys (seq n (List.length new))) (l_subs l)) l) s1.

  (** The keys of sublevels: atom.py:289, 407. *)
  Definition F_key (f : Z) : string := "F=" ++ half_label f.
  Definition mF_key (m : Z) : string := "mF=" ++ half_label m.

  (** populate_sublevels: atom.py:281-289, 401-407, 495-497. *)
  Definition populate_sublevels (a : nat) : M unit :=
    l <- get_lv a ;;
    match l_kind l with
    | LE =>
        if l_attached l then
          j <- asks TypeError (fun _ => l_J l) ;;
          modify (fun s => install a (map F_key (F_range j (s_I s))) (map (mkHF s a l j) (F_range j (s_I s))) s)
        else ret tt
    | LHF =>
        p <- asks Dangling (fun _ => l_parent l) ;;
        lm <- get_lv p ;;
        j <- asks Dangling (fun _ => l_J l) ;;
        f <- asks Dangling (fun _ => l_F l) ;;
        modify (fun s => install a (map mF_key (mF_range f)) (map (mkZ s a l lm j f) (mF_range f)) s)
    | LZ => ret tt
    end.

  (** [model.add_node(level.name, level=level)] for the level at [a]. *)
  Definition add_node (a : nat) : M unit :=
    l <- get_lv a ;;
    modify (fun s => set_graph (l_kind l) (g_add_node (lname l) a (graph_of (l_kind l) s)) s).

  (** The decorator lazy_compute_sublevels: atom.py:30-38. *)
  Definition lazy_sublevels (a : nat) : M unit :=
    l <- get_lv a ;;
    match l_subs l with
    | [] =>
        if l_attached l then
          populate_sublevels a ;;;
          l' <- get_lv a ;;
          forM (dvals (l_subs l')) add_node
        else raise AttributeError
    | _ => ret tt
    end.

  (** [level.sublevels()]: atom.py:215-217. *)
  Definition sublevels (a : nat) : M (list nat) :=
    lazy_sublevels a ;;; l <- get_lv a ;; ret (dvals (l_subs l)).

  (** [level[key]]: atom.py:192-198. *)
  Fixpoint lv_getitem (fuel : nat) (a : nat) (key : string) : M nat :=
    match fuel with
    | O => raise OutOfFuel
    | S fuel' =>
        lazy_sublevels a ;;;
        l <- get_lv a ;;
        i <- gets s_I ;;
        if (i =? 0)%Z && contains "mJ" key then
          b <- asks KeyError (fun _ => dget ("F=" ++ frac (l_J l)) (l_subs l)) ;;
          lv_getitem fuel' b (replace2 "m" "J" "m" "F" key)
        else asks KeyError (fun _ => dget key (l_subs l))
    end.
  Definition getitem (a : nat) (key : string) : M nat := lv_getitem 3 a key.

  (** The alias setter: atom.py:154-157. *)
  Definition set_alias (a : nat) (al : string) : M unit :=
    modify (upd_lv a (lv_set_alias (Some al))) ;;;
    l <- get_lv a ;;
    if l_attached l then modify (fun s => set_lal (dset al a (s_lal s)) s) else raise AttributeError.

  (** add_to_atom: atom.py:179-185. *)
  Fixpoint lv_add_to_atom (fuel : nat) (a : nat) : M unit :=
    match fuel with
    | O => raise OutOfFuel
    | S fuel' =>
        modify (upd_lv a (lv_set_attached true)) ;;;
        add_node a ;;;
        l <- get_lv a ;;
        forM (dvals (l_subs l)) (lv_add_to_atom fuel')
    end.

  (** Atom.add_level: atom.py:915-935. *)
  Definition add_level (a : nat) (populate : bool) (alias : option string) : M nat :=
    lv_add_to_atom 3 a ;;;
    match alias with Some al => set_alias a al | None => ret tt end ;;;
    l <- get_lv a ;;
    match l_alias l with
    | Some al => modify (fun s => set_lal (dset al a (s_lal s)) s)
    | None => ret tt
    end ;;;
    (if populate then
       populate_sublevels a ;;; subs <- sublevels a ;; forM subs (lv_add_to_atom 3)
     else ret tt) ;;;
    ret a.

  (** [del atom.levels[key]]: atom_helpers.py:62-63. *)
  Definition del_level (key : string) : M unit :=
    fun s => match g_remove_node key (s_g0 s) with
             | Some g => (Ok tt, set_g0 g s)
             | None => (Raise NetworkXError, s)
             end.

  (** ** Level lookup: atom_helpers.py:25-57 *)

  Definition node (key : string) : M nat := asks KeyError (fun s => dget key (node_attrs (s_g0 s))).

  (** A name or alias. *)
  Definition levels_get (key : string) : M nat :=
    al <- gets (fun s => dget key (s_lal s)) ;;
    match al with
    | Some a => ret a
    | None =>
        if contains "mF=" key then
          p <- asks ValueError (fun _ => rsplit_char2 " " key) ;;
          a <- node (fst (fst p)) ;; b <- getitem a (snd (fst p)) ;; getitem b (snd p)
        else if contains "mJ=" key then
          p <- asks ValueError (fun _ => rsplit1 " mJ=" key) ;;
          a <- node (fst p) ;; l <- get_lv a ;;
          b <- getitem a ("F=" ++ frac (l_J l)) ;; getitem b ("mF=" ++ snd p)
        else if contains "F=" key then
          p <- asks ValueError (fun _ => rsplit_char " " key) ;;
          a <- node (fst p) ;; getitem a (snd p)
        else node key
    end.

  (** All levels with their energies. *)
  Fixpoint with_energy (s : st) (l : list nat) : option (list (N * nat)) :=
    match l with
    | [] => Some []
    | a :: l' =>
        match energy s a, with_energy s l' with
        | Some e, Some r => Some ((e, a) :: r)
        | _, _ => None
        end
    end.

  (** [sorted(levels, key=level_Hz)]: stable; compares with [<] only. *)
  Definition by_energy (s : st) : option (list nat) :=
    match with_energy s (dvals (node_attrs (s_g0 s))) with
    | Some l => Some (map snd (isort (fun x y => negb (nltb N (fst y) (fst x))) l))
    | None => None
    end.

  (** Python list indexing, negative indices included. *)
  Definition py_nth {A} (l : list A) (i : Z) : option A :=
    let n := Z.of_nat (List.length l) in
    let j := if (i <? 0)%Z then (i + n)%Z else i in
    if (j <? 0)%Z then None else nth_error l (Z.to_nat j).

  (** A number: atom_helpers.py:42-43. *)
  Definition levels_get_int (i : Z) : M nat :=
    l <- asks Dangling by_energy ;; asks IndexError (fun _ => py_nth l i).

  (** ** Transitions *)

  (** [A.to(Hz)], [A * factor] *)
  Definition to_Hz (q : N * funit) : N * funit := (nmul N (fst q) (nofQ N (unit_Q (snd q))), uHz).
  Definition scale_A (c : N) (q : N * funit) : N * funit := (nmul N (fst q) c, snd q).

  (** freq_Hz: atom.py:590-593. *)
  Definition freq (s : st) (t : nat) : option N :=
    match tr s t with
    | Some x =>
        match energy s (x_E1 x), energy s (x_E2 x) with
        | Some e1, Some e2 => Some (nabs N (nsub N e1 e2))
        | _, _ => None
        end
    | None => None
    end.

  (** [model.add_edge(E_lower.name, E_upper.name, transition=self)] *)
  Definition add_edge (t : nat) : M unit :=
    x <- get_tr t ;;
    u <- asks Dangling (fun s => nm s (x_lo x)) ;;
    v <- asks Dangling (fun s => nm s (x_up x)) ;;
    modify (fun s => set_graph (lk (x_kind x)) (g_add_edge u v t (graph_of (lk (x_kind x)) s)) s).

  (** The constructor of the three classes, atom.py:554-582, once linewidth
      [A], [rel] and allowed types are known: choose upper and lower level,
      join the atom of E_1 if it has one, register the alias. *)
  Definition new_trans (k : tkind) (parent : option nat) (e1 e2 : nat) (f : option N)
      (A : option (N * funit)) (rel : N) (al : types) (alias : option string) : M nat :=
    l1 <- get_lv e1 ;;
    v1 <- asks Dangling (fun s => energy s e1) ;;
    v2 <- asks Dangling (fun s => energy s e2) ;;
    let up := if nltb N v1 v2 then e2 else e1 in
    let lo := if nltb N v1 v2 then e1 else e2 in
    t <- gets (fun s => List.length (s_trans s)) ;;
    modify (fun s => set_trans (s_trans s ++
      [mkTrans k parent e1 e2 up lo (l_attached l1) alias A rel al f []]) s) ;;;
    (if l_attached l1 then add_edge t else ret tt) ;;;
    match alias with
    | Some a => if l_attached l1 then modify (fun s => set_tal (dset a t (s_tal s)) s) else raise AttributeError
    | None => ret tt
    end ;;;
    ret t.

  (** [Transition(E1, E2, freq=f, A=A, alias=alias)] *)
  Definition new_transition (e1 e2 : nat) (f : option N) (A : option (N * funit)) (alias : option string) : M nat :=
    l1 <- get_lv e1 ;; l2 <- get_lv e2 ;;
    match l_kind l1, l_kind l2 with
    | LE, LE =>
        j1 <- asks TypeError (fun _ => l_J l1) ;; j2 <- asks TypeError (fun _ => l_J l2) ;;
        new_trans TT None e1 e2 f (option_map to_Hz A) (nofQ N 1)
          (allowed_T j1 j2 (l_parity l1) (l_parity l2) (Nat.eqb e1 e2)) alias
    | _, _ => raise NotImplementedError
    end.

  (** [HFTransition(a, b, parent=t)]: atom.py:753-783. *)
  Definition new_HF (t : nat) (a b : nat) : M nat :=
    x <- get_tr t ;;
    l1 <- get_lv a ;; l2 <- get_lv b ;;
    i <- gets s_I ;;
    j1 <- asks Dangling (fun _ => l_J l1) ;; j2 <- asks Dangling (fun _ => l_J l2) ;;
    f1 <- asks Dangling (fun _ => l_F l1) ;; f2 <- asks Dangling (fun _ => l_F l2) ;;
    let factor := nofQ N (this (hf_factor (x_allowed x) i j1 j2 f1 f2)) in
    new_trans THF (Some t) a b None
      (option_map (scale_A factor) (x_A x))
      (match x_A x with Some _ => factor | None => nofQ N 1 end)
      (allowed_HF i j1 j2 f1 f2 (x_allowed x)) None.

  (** [ZTransition(a, b, parent=t)]: atom.py:811-836. *)
  Definition new_Z (t : nat) (a b : nat) : M nat :=
    x <- get_tr t ;;
    l1 <- get_lv a ;; l2 <- get_lv b ;;
    f1 <- asks Dangling (fun _ => l_F l1) ;; f2 <- asks Dangling (fun _ => l_F l2) ;;
    m1 <- asks Dangling (fun _ => l_mF l1) ;; m2 <- asks Dangling (fun _ => l_mF l2) ;;
    let factor := nofQ N (this (z_factor (x_allowed x) f1 f2 m1 m2)) in
    new_trans TZ (Some t) a b None
      (option_map (scale_A factor) (x_A x))
      (match x_A x with Some _ => factor | None => nofQ N 1 end)
      (allowed_Z f1 f2 m1 m2 (x_allowed x)) None.

  (** One round of the loops atom.py:731-736 and 793-798. *)
  Definition new_sub (t : nat) (ab : nat * nat) : M unit :=
    x <- get_tr t ;;
    c <- match x_kind x with
         | TT => new_HF t (fst ab) (snd ab)
         | THF => new_Z t (fst ab) (snd ab)
         | TZ => raise Dangling
         end ;;
    y <- get_tr c ;;
    if any_type (x_allowed y) then
      lo <- get_lv (x_lo y) ;; up <- get_lv (x_up y) ;;
      modify (upd_tr t (fun x => tr_set_subs (dset (lshort lo, lshort up) c (x_subs x)) x))
    else ret tt.

  (** The attribute compared by _compute_sublevel_pairs. *)
  Definition pair_attr (k : tkind) (l : level) : option Z :=
    match k with TT => l_F l | THF => l_mF l | TZ => None end.
  Definition pair_filter (s : st) (x : trans) (ab : nat * nat) : bool :=
    match lv s (fst ab), lv s (snd ab) with
    | Some a, Some b =>
        match pair_attr (x_kind x) a, pair_attr (x_kind x) b with
        | Some u, Some v => pair_ok (x_allowed x) u v
        | _, _ => false
        end
    | _, _ => false
    end.

  (** populate_subtransitions: atom.py:728-736, 790-798, 843-845. *)
  Definition populate_subtransitions (t : nat) : M unit :=
    x <- get_tr t ;;
    match x_kind x with
    | TZ => ret tt
    | _ =>
        s1 <- sublevels (x_E1 x) ;;
        s2 <- sublevels (x_E2 x) ;;
        pairs <- gets (fun s => filter (pair_filter s x) (list_prod s1 s2)) ;;
        forM pairs (new_sub t)
    end.

  (** add_to_atom of a transition: atom.py:643-650; iterating over the
      dictionary gives its keys, which have no such method. *)
  Definition tr_add_to_atom (t : nat) : M unit :=
    modify (upd_tr t (tr_set_attached true)) ;;;
    add_edge t ;;;
    x <- get_tr t ;;
    match x_subs x with [] => ret tt | _ => raise AttributeError end.

  (** [transition.add_to_atom(self.atom)] when self.atom may be None. *)
  Definition tr_join (att : bool) (t : nat) : M unit :=
    if att then tr_add_to_atom t
    else modify (upd_tr t (tr_set_attached false)) ;;; raise AttributeError.

  (** The decorator lazy_compute_subtransitions: atom.py:522-530. *)
  Definition lazy_subtransitions (t : nat) : M unit :=
    x <- get_tr t ;;
    match x_subs x with
    | [] =>
        s1 <- sublevels (x_E1 x) ;;
        match s1 with [] => raise AssertionError | _ => ret tt end ;;;
        s2 <- sublevels (x_E2 x) ;;
        match s2 with [] => raise AssertionError | _ => ret tt end ;;;
        populate_subtransitions t ;;;
        x' <- get_tr t ;;
        forM (dvals (x_subs x')) (tr_join (x_attached x'))
    | _ => ret tt
    end.

  (** [t.subtransitions()] *)
  Definition subtransitions (t : nat) : M (list nat) :=
    lazy_subtransitions t ;;; x <- get_tr t ;; ret (dvals (x_subs x)).

  (** [t[(a, b)]]: atom.py:670-675, the reversed key first. *)
  Definition tr_getitem (t : nat) (k : string * string) : M nat :=
    lazy_subtransitions t ;;;
    x <- get_tr t ;;
    match dget (snd k, fst k) (x_subs x) with
    | Some c => ret c
    | None => asks KeyError (fun _ => dget k (x_subs x))
    end.

  (** The alias setter: atom.py:638-641. *)
  Definition tr_alias (t : nat) (al : string) : M unit :=
    modify (upd_tr t (tr_set_alias (Some al))) ;;;
    x <- get_tr t ;;
    if x_attached x then modify (fun s => set_tal (dset al t (s_tal s)) s) else raise AttributeError.

  (** ** Consistency: atom.py:1131-1169 *)

  (** The edge u-v of the levels graph is constrained. *)
  Definition is_set (s : st) (t : nat) : bool :=
    match tr s t with Some x => match x_set x with Some _ => true | None => false end | None => false end.
  Definition set_nbrs (s : st) (u : string) : list string :=
    map fst (filter (fun vt => is_set s (snd vt)) (nbrs (s_g0 s) u)).
  (** The nodes of [set_graph]. *)
  Definition set_nodes (s : st) : list string :=
    filter (fun u => match set_nbrs s u with [] => false | _ => true end) (dkeys (g_adj (s_g0 s))).

  (** [subgraph.nodes(data='level')] and the search for the lowest, lines
      1150-1156.  None: the attribute error of a node without level. *)
  Fixpoint lowest (s : st) (ns : list string) (cur : option (option nat * string)) : option (option (option nat * string)) :=
    match ns with
    | [] => Some cur
    | n :: ns' =>
        let node := match dget n (g_nodes (s_g0 s)) with Some o => o | None => None end in
        match cur with
        | Some (Some a, k) =>
            match node with
            | None => None
            | Some b =>
                match energy s b, energy s a with
                | Some eb, Some ea => lowest s ns' (if nltb N eb ea then Some (Some b, n) else cur)
                | _, _ => None
                end
            end
        | _ => lowest s ns' (Some (node, n))
        end
    end.

  (** Lines 1161-1169 for one edge of the search. *)
  Definition enforce_edge (uv : string * string) : M unit :=
    t <- asks Dangling (fun s => edge (s_g0 s) (fst uv) (snd uv)) ;;
    x <- get_tr t ;;
    f <- asks Dangling (fun _ => x_set x) ;;
    l <- get_lv (x_lo x) ;; u <- get_lv (x_up x) ;;
    el <- asks Dangling (fun s => energyE s (x_lo x)) ;;
    eu <- asks Dangling (fun s => energyE s (x_up x)) ;;
    (if l_fixed l && l_fixed u && negb (neqb N f (nabs N (nsub N el eu))) then
       modify (add_warn (WLoop (fst uv) (snd uv)))
     else if l_fixed u then set_energyE (x_lo x) (nsub N eu f)
     else set_energyE (x_up x) (nadd N el f)) ;;;
    modify (upd_lv (x_up x) (lv_set_fixed true)) ;;;
    modify (upd_lv (x_lo x) (lv_set_fixed true)).

  (** One connected component [c]. *)
  Definition enforce_comp (o : oracle) (fuel : nat) (c : list string) : M unit :=
    low <- asks AttributeError (fun s => lowest s (o_nodes o c) None) ;;
    match low with
    | None => ret tt
    | Some (_, key) =>
        es <- asks OutOfFuel (fun s => dfs_edges fuel (fun u => o_nbrs o u (set_nbrs s u)) key) ;;
        forM es enforce_edge
    end.

  (** The test of lines 1145-1148. *)
  Definition touched (s : st) (c : list string) (from : option (string * string)) : bool :=
    match from with
    | None => true
    | Some (u, v) => mem u c && mem v (set_nbrs s u)
    end.

  (** enforce_consistency: atom.py:1131-1169. *)
  Definition enforce (from : option (string * string)) : M unit :=
    n <- gets s_tick ;;
    modify tick ;;;
    let o := orc n in
    fuel <- gets (fun s => S (List.length (set_nodes s))) ;;
    cs <- asks OutOfFuel (fun s => components fuel (set_nbrs s) (set_nodes s) []) ;;
    forM (o_comps o cs) (fun c =>
      b <- gets (fun s => touched s c from) ;;
      if b then enforce_comp o fuel c else ret tt).

  (** Transition.set_frequency: atom.py:738-744.  A Quantity is true iff its
      magnitude is not zero. *)
  Definition set_freqT (t : nat) (f : N) : M unit :=
    x <- get_tr t ;;
    u <- get_lv (x_up x) ;; l <- get_lv (x_lo x) ;;
    (if match x_set x with Some g => negb (neqb N g (nofQ N 0)) | None => false end
        && l_fixed u && l_fixed l
     then modify (upd_lv (x_up x) (lv_set_fixed false)) else ret tt) ;;;
    modify (upd_tr t (tr_set_set (Some f))) ;;;
    e1 <- get_lv (x_E1 x) ;; e2 <- get_lv (x_E2 x) ;;
    if l_attached e1 then enforce (Some (lname e1, lname e2)) else raise AttributeError.

  (** atom.py:800-802 and 847-849. *)
  Definition set_freqHF (t : nat) (f : N) : M unit :=
    x <- get_tr t ;;
    g <- asks Dangling (fun s => freq s t) ;;
    p <- asks AttributeError (fun _ => x_parent x) ;;
    gp <- asks Dangling (fun s => freq s p) ;;
    set_freqT p (nadd N gp (nsub N f g)).
  Definition set_freqZ (t : nat) (f : N) : M unit :=
    x <- get_tr t ;;
    g <- asks Dangling (fun s => freq s t) ;;
    p <- asks AttributeError (fun _ => x_parent x) ;;
    gp <- asks Dangling (fun s => freq s p) ;;
    set_freqHF p (nadd N gp (nsub N f g)).
  Definition set_frequency (t : nat) (f : N) : M unit :=
    x <- get_tr t ;;
    match x_kind x with TT => set_freqT t f | THF => set_freqHF t f | TZ => set_freqZ t f end.

  (** ** Transition lookup: atom_helpers.py:102-140 *)

  Inductive lkey := KS (s : string) | KI (i : Z).
  Definition levels_get_key (k : lkey) : M nat :=
    match k with KS s => levels_get s | KI i => levels_get_int i end.
  Definition as_str (k : lkey) : option string := match k with KS s => Some s | KI _ => None end.

  (** [nx.get_edge_attributes(self.model, 'transition')[(a, b)]] *)
  Definition edge_at (a b : string) : M nat := asks KeyError (fun s => dget (a, b) (edge_attrs (s_g0 s))).

  (** Transition lookup by a pair of keys: atom_helpers.py:102-140. *)
  Definition transitions_get (k : lkey * lkey) : M nat :=
    a <- levels_get_key (fst k) ;; ea <- asks Dangling (fun s => energy s a) ;;
    b <- levels_get_key (snd k) ;; eb <- asks Dangling (fun s => energy s b) ;;
    let lo := if nltb N eb ea then snd k else fst k in
    let up := if nltb N eb ea then fst k else snd k in
    match fst k with
    | KI _ => raise TypeError            (* 'mF=' in an int *)
    | KS k0 =>
        if contains "mF=" k0 then
          kl <- asks AttributeError (fun _ => as_str lo) ;; pl <- asks ValueError (fun _ => rsplit_char2 " " kl) ;;
          ku <- asks AttributeError (fun _ => as_str up) ;; pu <- asks ValueError (fun _ => rsplit_char2 " " ku) ;;
          t <- edge_at (fst (fst pl)) (fst (fst pu)) ;;
          h <- tr_getitem t (snd (fst pl), snd (fst pu)) ;;
          tr_getitem h (snd pl, snd pu)
        else if contains "mJ=" k0 then
          kl <- asks AttributeError (fun _ => as_str lo) ;; pl <- asks ValueError (fun _ => rsplit1 " mJ=" kl) ;;
          ku <- asks AttributeError (fun _ => as_str up) ;; pu <- asks ValueError (fun _ => rsplit1 " mJ=" ku) ;;
          l0 <- node (fst pl) ;; v0 <- get_lv l0 ;;
          l1 <- node (fst pu) ;; v1 <- get_lv l1 ;;
          t <- edge_at (fst pl) (fst pu) ;;
          h <- tr_getitem t ("F=" ++ frac (l_J v0), "F=" ++ frac (l_J v1)) ;;
          tr_getitem h ("mF=" ++ snd pl, "mF=" ++ snd pu)
        else if contains "F=" k0 then
          kl <- asks AttributeError (fun _ => as_str lo) ;; pl <- asks ValueError (fun _ => rsplit_char " " kl) ;;
          ku <- asks AttributeError (fun _ => as_str up) ;; pu <- asks ValueError (fun _ => rsplit_char " " ku) ;;
          t <- edge_at (fst pl) (fst pu) ;;
          tr_getitem t (snd pl, snd pu)
        else
          match lo, up with
          | KS a, KS b => edge_at a b
          | _, _ => raise KeyError
          end
    end.

  (** [transitions['alias']]; a string that is no alias is indexed like a pair
      of one-character keys. *)
  Definition transitions_get_str (k : string) : M nat :=
    al <- gets (fun s => dget k (s_tal s)) ;;
    match al with
    | Some t => ret t
    | None =>
        match k with
        | EmptyString => raise IndexError
        | String c EmptyString => levels_get (String c EmptyString) ;;; raise IndexError
        | String c (String d _) => transitions_get (KS (String c EmptyString), KS (String d EmptyString))
        end
    end.

  (** ** Atom.add_transition: atom.py:937-960 *)

  Inductive tspec :=
  | TObj (t : nat)                 (* a Transition *)
  | TNames (a b : string)          (* a pair of names *)
  | TLevels (a b : nat).           (* a pair of levels *)

  (** atom.py:937-960 *)
  Definition add_transition (sp : tspec) (f : option N) (A : option (N * funit)) (alias : option string) : M nat :=
    t <- match sp with
         | TObj t => ret t
         | TNames a b =>
             known <- gets (fun s => dmem (a, b) (edge_attrs (s_g0 s))) ;;
             if known then modify (add_warn (WDup a b)) ;;; transitions_get (KS a, KS b)
             else
               l1 <- levels_get a ;; l2 <- levels_get b ;; new_transition l1 l2 f A alias
         | TLevels a b => new_transition a b f A alias
         end ;;
    tr_add_to_atom t ;;;
    x <- get_tr t ;;
    match x_alias x with Some al => modify (fun s => set_tal (dset al t (s_tal s)) s) | None => ret tt end ;;;
    match x_set x with Some _ => enforce None | None => ret tt end ;;;
    ret t.

  (** ** Queries on the graph *)

  (** Atom.linked_levels: atom.py:1086-1096.  The recursion goes from a
      sublevel to its parent. *)
  Fixpoint linked_levels (fuel : nat) (key : string) : M (dict string nat) :=
    match fuel with
    | O => raise OutOfFuel
    | S fuel' =>
        a <- levels_get key ;;
        l <- get_lv a ;;
        match l_parent l with
        | Some p =>
            pn <- asks Dangling (fun s => nm s p) ;;
            d <- linked_levels fuel' pn ;;
            forM (dvals d) populate_subtransitions
        | None => ret tt
        end ;;;
        d <- asks KeyError (fun s => dget key (g_adj (graph_of (l_kind l) s))) ;;
        ret (filter (fun kt => negb (String.eqb (fst kt) key)) d)
    end.

  (** Atom.state_lifetime, atom.py:1104-1105: the total rate.  A sum of
      quantities has the unit of its first summand; it is given in Hz here. *)
  Fixpoint sum_A (s : st) (a : nat) (ts : list nat) (tot : N) : res N :=
    match ts with
    | [] => Ok tot
    | t :: ts' =>
        match tr s t with
        | None => Raise Dangling
        | Some x =>
            if Nat.eqb (x_up x) a then
              match x_A x with
              | Some q => sum_A s a ts' (nadd N tot (fst (to_Hz q)))
              | None => Raise TypeError
              end
            else sum_A s a ts' tot
        end
    end.
  Definition total_rate (key : string) : M N :=
    d <- linked_levels 3 key ;;
    a <- levels_get key ;;
    fun s => (sum_A s a (dvals d) (nofQ N 0), s).

  (** Atom.compute_branching_ratios: atom.py:1110-1129.  [A.magnitude] of a
      missing A is an AttributeError. *)
  Fixpoint A_coeffs (s : st) (key : string) (d : dict string nat) : res (dict string (option (N * funit))) :=
    match d with
    | [] => Ok []
    | (n, t) :: d' =>
        match tr s t with
        | None => Raise Dangling
        | Some x =>
            match nm s (x_up x) with
            | None => Raise Dangling
            | Some u =>
                rbind (A_coeffs s key d') (fun r =>
                Ok (if String.eqb u key then (n, x_A x) :: r else r))
            end
        end
    end.
  Fixpoint magnitudes (d : dict string (option (N * funit))) : res (dict string N) :=
    match d with
    | [] => Ok []
    | (n, Some q) :: d' => rbind (magnitudes d') (fun r => Ok ((n, fst q) :: r))
    | (_, None) :: _ => Raise AttributeError
    end.
  Definition sumN (l : list N) : N := fold_left (nadd N) l (nofQ N 0).
  Definition branching (key : string) : M (dict string N) :=
    d <- linked_levels 3 key ;;
    fun s =>
      (rbind (A_coeffs s key d) (fun c =>
       rbind (magnitudes c) (fun m =>
       Ok (map (fun nv => (fst nv, ndiv N (snd nv) (sumN (dvals m)))) m))), s).

  (** ** Bulk operations *)

  (** atom.py:1033-1036 *)
  Definition allowed_deltas (al : types) : list Z :=
    let b i := match i with 0%nat => aE1 al | 1%nat => aM1 al | _ => aE2 al end in
    map Z.of_nat (filter (fun i => b (i / 2)%nat || b (i / 2 + 1)%nat) [0; 1; 2]%nat).

  (** atom.py:1039-1046: the levels with J = j, for j = 0, 1/2, ..., 41/2, and
      the pairs with J and J + delta. *)
  Definition with_J (s : st) (j : Z) : list nat :=
    filter (fun a => match lv s a with Some l => match l_J l with Some k => (k =? j)%Z | None => false end | None => false end)
      (dvals (node_attrs (s_g0 s))).
  Definition j_values : list Z := map Z.of_nat (seq 0 42).
  Definition level_pairs (s : st) (delta : Z) : list (nat * nat) :=
    flat_map (fun j => list_prod (with_J s j) (with_J s (j + 2 * delta)))
      (firstn (42 - Z.to_nat (2 * delta + 1)) j_values).

  (** Atom.populate_transitions: atom.py:1023-1054.  The lookup in line 1048
      never returns None: it returns a transition or raises. *)
  Definition populate_pair (al : types) (ab : nat * nat) : M unit :=
    na <- asks Dangling (fun s => nm s (fst ab)) ;; nb <- asks Dangling (fun s => nm s (snd ab)) ;;
    transitions_get (KS na, KS nb) ;;;
    ret tt.
  Definition populate_transitions (al : types) : M unit :=
    forM (allowed_deltas al) (fun d =>
      ps <- gets (fun s => level_pairs s d) ;;
      forM ps (populate_pair al)).

  (** Atom.populate_internal_transitions: atom.py:1056-1064. *)
  Definition populate_internal : M unit :=
    ls <- gets (fun s => dvals (node_attrs (s_g0 s))) ;;
    forM ls (fun a => t <- new_transition a a None None None ;; tr_add_to_atom t).

  (** ** Histories *)

  Definition init (I : Z) (B : N) : st := mkSt [] [] g_empty g_empty g_empty [] [] I B [] 0.

  (** One use of the public interface. *)
  Inductive op :=
  | ONewLevel (ts : list term) (E A B C g : N) (alias : option string) (in_atom : bool)
  | OAddLevel (a : nat) (populate : bool) (alias : option string)
  | ODelLevel (key : string)
  | OLevel (key : string)
  | OLevelInt (i : Z)
  | OItem (a : nat) (key : string)
  | OSublevels (a : nat)
  | OAlias (a : nat) (al : string)
  | OSetLevel (a : nat) (v : N)
  | OSetHf (a : nat) (A B C : N)
  | OSetLande (a : nat) (g : N)
  | OSetQz (a : nat) (q : N)
  | OSetB (b : N)
  | ONewTransition (e1 e2 : nat) (f : option N) (A : option (N * funit)) (alias : option string)
  | OAddTransition (sp : tspec) (f : option N) (A : option (N * funit)) (alias : option string)
  | OTransition (k : lkey * lkey)
  | OTransitionStr (k : string)
  | OSubItem (t : nat) (k : string * string)
  | OSubtransitions (t : nat)
  | OTAlias (t : nat) (al : string)
  | OSetA (t : nat) (A : option (N * funit))
  | OSetFreq (t : nat) (f : N)
  | OEnforce
  | OLinked (key : string)
  | OLifetime (key : string)
  | OBranching (key : string)
  | OPopulate (al : types)
  | OPopulateInternal.

  (** A call whose value is dropped. *)
  Definition void {A} (m : M A) : M unit := bind m (fun _ => ret tt).

  (** The call an operation stands for. *)
  Definition run_op (o : op) : M unit :=
    match o with
    | ONewLevel ts E A B C g alias in_atom => void (new_level ts E A B C g alias in_atom)
    | OAddLevel a p alias => void (add_level a p alias)
    | ODelLevel key => del_level key
    | OLevel key => void (levels_get key)
    | OLevelInt i => void (levels_get_int i)
    | OItem a key => void (getitem a key)
    | OSublevels a => void (sublevels a)
    | OAlias a al => set_alias a al
    | OSetLevel a v => set_energy a v
    | OSetHf a A B C => modify (upd_lv a (lv_set_hf A B C))
    | OSetLande a g => modify (upd_lv a (lv_set_lande g))
    | OSetQz a q => modify (upd_lv a (lv_set_qz q))
    | OSetB b => modify (set_B b)
    | ONewTransition e1 e2 f A alias => void (new_transition e1 e2 f A alias)
    | OAddTransition sp f A alias => void (add_transition sp f A alias)
    | OTransition k => void (transitions_get k)
    | OTransitionStr k => void (transitions_get_str k)
    | OSubItem t k => void (tr_getitem t k)
    | OSubtransitions t => void (subtransitions t)
    | OTAlias t al => tr_alias t al
    | OSetA t A => modify (upd_tr t (tr_set_A A))
    | OSetFreq t f => set_frequency t f
    | OEnforce => enforce None
    | OLinked key => void (linked_levels 3 key)
    | OLifetime key => void (total_rate key)
    | OBranching key => void (branching key)
    | OPopulate al => populate_transitions al
    | OPopulateInternal => populate_internal
    end.

  (** A history: exceptions are caught by the caller, effects remain. *)
  Definition step (s : st) (o : op) : st := snd (run_op o s).
  Definition run (s : st) (os : list op) : st := fold_left step os s.
End Atom.
