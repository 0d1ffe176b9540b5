(** Property C106: the strengths of the lines of a pure E2 transition.  Angular
    momenta are doubled integers. *)
From Coq Require Import List Bool ZArith QArith Qcanon Lia String Ascii Permutation Sorted.
From Verif Require Import Base PyStr Util UtilProofs Parse Term TermProofs Num Wigner WignerProofs WignerOne WignerSym Hyperfine HyperfineProofs
  Graph GraphProofs Rules RulesProofs StrengthSums StrengthPos Atom AtomInv AtomSafe AtomSafe2 AtomSafe3 AtomSafe5 AtomSafe6 AtomLevels AtomKeep AtomPaths
  AtomTrans AtomStrength AtomQuad AtomExample PropStrength.
Import ListNotations.
Local Open Scope Z_scope.

(** C106, the numbers. *)
Theorem C106_spins : forall a i j1 j2, aE1 a = false -> aM1 a = false -> aE2 a = true -> 0 <= i -> 0 <= j1 -> 0 <= j2 -> triangle j1 j2 4 ->
  (forall f1, In f1 (F_range j1 i) -> sums (hf_factor a i j1 j2 f1) (F_range j2 i) = frac (f1 + 1) (j1 + 1)) /\
  (forall f2, In f2 (F_range j2 i) -> sums (fun f1 => hf_factor a i j1 j2 f1 f2) (F_range j1 i) = frac (f2 + 1) (j2 + 1)) /\
  sums (fun f1 => sums (hf_factor a i j1 j2 f1) (F_range j2 i)) (F_range j1 i) = QcZ (i + 1).
Proof.
  intros a i j1 j2 D1 D2 D3 Hi H1 H2 T. apply tri_spec in T. assert (D : quadrupole a) by (repeat split; auto). split; [|split].
  - intros f1 I. apply quad_from; auto. apply F_range_In in I; auto. now rewrite tri_12.
  - intros f2 I. apply quad_to; auto. apply F_range_In in I; auto. now rewrite tri_12.
  - now apply quad_total.
Qed.
Print Assumptions C106_spins.

(** C106, hyperfine lines.  [t], a transition that is E2 only, has an A
    coefficient and is listed for the first time; both J are integers or both
    half-integers, and no sublevel of the one level is between two of the
    other. *)
Theorem C106_hyperfine_partial : forall muB orc, (forall n, oracle_ok (orc n)) -> forall s, reachable Exact muB orc s ->
  forall t x v cs s' m1 m2 j1 j2, tr s t = Some x -> x_kind x = TT -> x_subs x = [] -> x_A x = Some v ->
  x_allowed x = (false, false, true) -> subtransitions Exact muB t s = (Ok cs, s') ->
  lv s (x_E1 x) = Some m1 -> lv s (x_E2 x) = Some m2 -> l_J m1 = Some j1 -> l_J m2 = Some j2 -> Z.even (j1 + j2) = true ->
  exists bs1 bs2, sublevels Exact (x_E1 x) s' = (Ok bs1, s') /\ sublevels Exact (x_E2 x) s' = (Ok bs2, s') /\
  (separate muB s' bs1 bs2 ->
    (forall b lb f, In b bs1 -> lv s' b = Some lb -> l_F lb = Some f -> sums (rel_strength s') (at_1 s' b cs) = frac (f + 1) (j1 + 1)) /\
    (forall b lb f, In b bs2 -> lv s' b = Some lb -> l_F lb = Some f -> sums (rel_strength s') (at_2 s' b cs) = frac (f + 1) (j2 + 1)) /\
    sums (rel_strength s') cs = QcZ (s_I s' + 1)).
Proof.
  intros muB orc OK s R t x v cs s' m1 m2 j1 j2 V K X A D E M1 M2 J1 J2 Ev. pose proof (reachable_WF Exact muB orc OK s R) as W.
  assert (Q : quadrupole (x_allowed x)) by (rewrite D; repeat split).
  pose proof (quad_tri s t x m1 m2 j1 j2 W V K Q M1 M2 J1 J2 Ev) as T.
  destruct (safe_Ok _ _ _ _ _ _ _ (subtransitions_safe Exact muB s t x W V) E) as [W' [L _]].
  destruct (ext_lv _ _ _ (look_ext _ _ _ L) _ _ M1) as [n1 [N1 S1]]. destruct (ext_lv _ _ _ (look_ext _ _ _ L) _ _ M2) as [n2 [N2 S2]].
  destruct S1 as [_ [_ [S1 _]]]. destruct S2 as [_ [_ [S2 _]]].
  apply (sum_rule_quad muB s t x cs s' v n1 n2 j1 j2 W V K X A Q E N1 N2); auto; unfold l_J, lead in *; rewrite ?S1, ?S2; auto.
Qed.
Print Assumptions C106_hyperfine_partial.

(** I = 1/2, J = 1/2 to J' = 5/2. *)
Example C106_case : let s := rated 1 [nl tS 0; add 0; nl tD5 10; add 1] in
  option_map (fun x => (x_kind x, x_allowed x, x_subs x, x_E1 x, x_E2 x)) (tr s 0) = Some (TT, (false, false, true), [], 0%nat, 1%nat) /\
  (let s' := snd (subtransitions Exact 1%Qc 0 s) in
   fst (sublevels Exact 0 s') = Ok [2; 3]%nat /\ fst (sublevels Exact 1 s') = Ok [4; 5]%nat /\ apartb s' [2; 3]%nat [4; 5]%nat = true) /\
  option_map (map (fun l => (fst l, show (snd l)))) (lines (@l_F Exact) s 0) =
    Some [(Some 0, Some 4, (1, 2)); (Some 2, Some 4, (1, 3)); (Some 2, Some 6, (7, 6))].
Proof. vm_compute. repeat match goal with |- _ /\ _ => split end; reflexivity. Qed.

(** The Zeeman components of an E2 line do not follow their sum rule, since F1
    is used twice: those from F=1, mF to F'=2 should add up to 1/3 from each mF
    and to 1/5 to each mF'.  They add up to 1/5 from mF=0, to 0 for mF'=2 and to
    1/3 for mF'=1. *)
Definition from_m (m : Z) (ls : list (option Z * option Z * Qc)) : Qc := sums snd (filter (fun l => match fst (fst l) with Some a => a =? m | None => false end) ls).
Definition to_m (m : Z) (ls : list (option Z * option Z * Qc)) : Qc := sums snd (filter (fun l => match snd (fst l) with Some a => a =? m | None => false end) ls).
Theorem C106_zeeman_refuted : exists s, reachable Exact 1%Qc plain s /\
  option_map (fun x => (x_kind x, x_allowed x, x_E1 x, x_E2 x, x_subs x)) (tr s 2) = Some (THF, (false, false, true), 3%nat, 4%nat, []) /\
  option_map (fun ls => (map (fun m => show (from_m m ls)) [-2; 0; 2], map (fun m => show (to_m m ls)) [-4; -2; 0; 2; 4])) (lines (@l_mF Exact) s 2) =
    Some ([(1, 3); (1, 5); (1, 3)], [(0, 1); (1, 3); (1, 5); (1, 3); (0, 1)]).
Proof.
  exists (split_up 1 [nl tS 0; add 0; nl tD5 10; add 1]). split; [apply more_reachable, from_reachable; lia|].
  vm_compute. repeat match goal with |- _ /\ _ => split end; reflexivity.
Qed.
Print Assumptions C106_zeeman_refuted.
