(** Property C144: decay of hyperfine and Zeeman levels
    (atom.py:753-769, 812-826, 1084-1129). *)
From Coq Require Import List Bool ZArith QArith Qcanon Lia String Ascii.
From Verif Require Import Base PyStr Util UtilProofs Parse Term TermProofs Num Wigner WignerProofs WignerOne WignerSym Hyperfine HyperfineProofs
  Graph GraphProofs Rules RulesProofs StrengthSums StrengthPos Atom AtomInv AtomSafe AtomSafe2 AtomSafe3 AtomSafe5 AtomSafe6 AtomLevels AtomKeep AtomPaths
  AtomTrans AtomStrength AtomDecay AtomExample PropStrength PropDecay.
Import ListNotations.
Local Open Scope Z_scope.

(** The A coefficient of a line in Hz, 0 if it has none. *)
Definition rate (s : st Exact) (c : nat) : Qc :=
  match tr s c with Some y => match x_A y with Some (v, u) => (v * Q2Qc (unit_Q u))%Qc | None => 0%Qc end | None => 0%Qc end.
(** The lines among [cs] that have the sublevel [b] at one end. *)
Definition lines_at (s : st Exact) (b : nat) (cs : list nat) : list nat :=
  filter (fun c => match tr s c with Some y => Nat.eqb (x_E1 y) b || Nat.eqb (x_E2 y) b | None => false end) cs.

Lemma rate_rel : forall (s' : st Exact) v u cs,
  (forall c, In c cs -> exists y, tr s' c = Some y /\ x_A y = Some ((v * x_rel y)%Qc, u) /\ (0 <= x_rel y)%Qc) ->
  forall ds, incl ds cs -> sums (rate s') ds = (v * Q2Qc (unit_Q u) * sums (rel_strength s') ds)%Qc.
Proof.
  intros s' v u cs H ds I. rewrite <- sums_scale. apply sums_ext. intros c Ic.
  destruct (H c (I c Ic)) as [y [Vy [Ay _]]]. unfold rate, rel_strength. rewrite Vy, Ay. ring.
Qed.

(** A sublevel of the one level is at no other end. *)
Lemma lines_at_end : forall muB s t x cs s' b lb, WF s -> tr s t = Some x -> x_E1 x <> x_E2 x -> subtransitions Exact muB t s = (Ok cs, s') ->
  lv s' b = Some lb -> (l_parent lb = Some (x_E1 x) -> lines_at s' b cs = at_1 s' b cs) /\ (l_parent lb = Some (x_E2 x) -> lines_at s' b cs = at_2 s' b cs).
Proof.
  intros muB s t x cs s' b lb W V D E Vb.
  destruct (safe_Ok _ _ _ _ _ _ _ (subtransitions_safe Exact muB s t x W V) E) as [W' [L _]].
  destruct (ext_tr _ _ _ (look_ext _ _ _ L) _ _ V) as [x' [V' S]]. destruct S as [_ [_ [S1 [S2 _]]]].
  assert (G : forall c, In c cs -> exists y l1 l2, tr s' c = Some y /\ lv s' (x_E1 y) = Some l1 /\ lv s' (x_E2 y) = Some l2 /\ l_parent l1 = Some (x_E1 x) /\ l_parent l2 = Some (x_E2 x)).
  { intros c I. destruct (listed_ends Exact muB s t cs s' x' W E V' c I) as [y [l1 [l2 [H1 [_ [_ [_ [H2 [H3 [H4 [H5 _]]]]]]]]]]].
    rewrite S1 in H4. rewrite S2 in H5. exists y, l1, l2. auto. }
  clear - D Vb G. unfold lines_at, at_1, at_2. split; intros P; apply filter_ext_in; intros c I; destruct (G c I) as [y [l1 [l2 [-> [V1 [V2 [P1 P2]]]]]]].
  - destruct (Nat.eqb_spec (x_E2 y) b) as [<-|]; [|apply orb_false_r]. congruence.
  - destruct (Nat.eqb_spec (x_E1 y) b) as [<-|]; [|reflexivity]. congruence.
Qed.

Lemma subs_parent : forall (s : st Exact) a bs b, WF s -> sublevels Exact a s = (Ok bs, s) -> In b bs -> exists lb, lv s b = Some lb /\ l_parent lb = Some a.
Proof.
  intros s a bs b W E I. unfold sublevels, bind, get_lv, asks, ret in E. destruct (lazy_sublevels Exact a s) as [[[]|] s1]; [|discriminate].
  destruct (lv s1 a) as [l|] eqn:V1; [|discriminate]. apply pair_equal_spec in E as [E ->]. apply (f_equal (fun r => match r with Ok x => x | Raise _ => [] end)) in E. rewrite <- E in I. clear E.
  apply in_map_iff in I as [[k c] [Eb I]]. cbn in Eb. subst c.
  destruct (wf_subs _ _ W _ _ V1) as [Z|[_ F]]; [rewrite Z in I; contradiction|].
  revert F I. generalize (sub_range s l) as zs. induction (l_subs l) as [|kb d IH]; intros zs F I; [contradiction|]. inversion F as [|z ? zs' ? [_ [lb H]] F']; subst.
  destruct I as [->|I]; [|eauto]. exists lb. tauto.
Qed.

(** [t], an E1 or M1 transition with an A coefficient, is listed for the first
    time; no sublevel of the one level is between two of the other.  All lines
    together that lead from one hyperfine level F of the level J have the
    (2F+1)/(2J+1)th part of its A coefficient, not all of it. *)
Theorem C144_hyperfine_refuted : forall muB orc, (forall n, oracle_ok (orc n)) -> forall s, reachable Exact muB orc s ->
  forall t x v u cs s' m1 m2 j1 j2, tr s t = Some x -> x_kind x = TT -> x_E1 x <> x_E2 x -> x_subs x = [] -> x_A x = Some (v, u) ->
  aE1 (x_allowed x) = true \/ aM1 (x_allowed x) = true -> subtransitions Exact muB t s = (Ok cs, s') ->
  lv s' (x_E1 x) = Some m1 -> lv s' (x_E2 x) = Some m2 -> l_J m1 = Some j1 -> l_J m2 = Some j2 -> triangle j1 j2 2 ->
  exists bs1 bs2, sublevels Exact (x_E1 x) s' = (Ok bs1, s') /\ sublevels Exact (x_E2 x) s' = (Ok bs2, s') /\
  (separate muB s' bs1 bs2 ->
    forall b lb j f, (In b bs1 /\ j = j1) \/ (In b bs2 /\ j = j2) -> lv s' b = Some lb -> l_F lb = Some f ->
    sums (rate s') (lines_at s' b cs) = (v * Q2Qc (unit_Q u) * (QcZ (f + 1) / QcZ (j + 1)))%Qc).
Proof.
  intros muB orc OK s R t x v u cs s' m1 m2 j1 j2 V K D X A Dp E M1 M2 J1 J2 T. pose proof (reachable_WF Exact muB orc OK s R) as W.
  destruct (C36_sum_rule_partial muB orc OK s R t x (v, u) cs s' m1 m2 j1 j2 V K X A Dp E M1 M2 J1 J2 T) as [bs1 [bs2 [B1 [B2 H]]]].
  exists bs1, bs2. split; auto. split; auto. intros Sp b lb j f I Vb Fb. destruct (H Sp) as [H1 [H2 _]].
  destruct (safe_Ok _ _ _ _ _ _ _ (subtransitions_safe Exact muB s t x W V) E) as [W' _].
  rewrite (rate_rel s' v u cs (C38_rate muB orc OK s R t x v u cs s' V X A E)) by apply incl_filter.
  destruct (lines_at_end muB s t x cs s' b lb W V D E Vb) as [G1 G2]. f_equal. destruct I as [[I ->]|[I ->]].
  - destruct (subs_parent s' _ _ _ W' B1 I) as [lb' [Vb' P]]. rewrite Vb in Vb'. injection Vb' as <-. rewrite G1 by exact P. exact (H1 b lb f I Vb Fb).
  - destruct (subs_parent s' _ _ _ W' B2 I) as [lb' [Vb' P]]. rewrite Vb in Vb'. injection Vb' as <-. rewrite G2 by exact P. exact (H2 b lb f I Vb Fb).
Qed.
Print Assumptions C144_hyperfine_refuted.

(** A Zeeman level has the (2F+1)th part of what its hyperfine level has, so
    the (2J+1)th part of the A coefficient. *)
Theorem C144_zeeman_refuted : forall muB orc, (forall n, oracle_ok (orc n)) -> forall s, reachable Exact muB orc s ->
  forall t x v u cs s' m1 m2 f1 f2, tr s t = Some x -> x_kind x = THF -> x_E1 x <> x_E2 x -> x_subs x = [] -> x_A x = Some (v, u) ->
  aE1 (x_allowed x) = true \/ aM1 (x_allowed x) = true -> subtransitions Exact muB t s = (Ok cs, s') ->
  lv s' (x_E1 x) = Some m1 -> lv s' (x_E2 x) = Some m2 -> l_F m1 = Some f1 -> l_F m2 = Some f2 ->
  exists bs1 bs2, sublevels Exact (x_E1 x) s' = (Ok bs1, s') /\ sublevels Exact (x_E2 x) s' = (Ok bs2, s') /\
  (separate muB s' bs1 bs2 -> forall b f, (In b bs1 /\ f = f1) \/ (In b bs2 /\ f = f2) ->
    sums (rate s') (lines_at s' b cs) = (v * Q2Qc (unit_Q u) / QcZ (f + 1))%Qc).
Proof.
  intros muB orc OK s R t x v u cs s' m1 m2 f1 f2 V K D X A Dp E M1 M2 F1 F2. pose proof (reachable_WF Exact muB orc OK s R) as W.
  destruct (C37_sum_rule_partial muB orc OK s R t x (v, u) cs s' m1 m2 f1 f2 V K X A Dp E M1 M2 F1 F2) as [bs1 [bs2 [B1 [B2 H]]]].
  exists bs1, bs2. split; auto. split; auto. intros Sp b f I. destruct (H Sp) as [H1 [H2 _]].
  destruct (safe_Ok _ _ _ _ _ _ _ (subtransitions_safe Exact muB s t x W V) E) as [W' _].
  rewrite (rate_rel s' v u cs (C38_rate muB orc OK s R t x v u cs s' V X A E)) by apply incl_filter.
  destruct I as [[I ->]|[I ->]].
  - destruct (subs_parent s' _ _ _ W' B1 I) as [lb [Vb P]]. destruct (lines_at_end muB s t x cs s' b lb W V D E Vb) as [G1 _].
    rewrite G1 by exact P. rewrite (H1 b I). unfold frac, Qcdiv. rewrite QcZ_1. ring.
  - destruct (subs_parent s' _ _ _ W' B2 I) as [lb [Vb P]]. destruct (lines_at_end muB s t x cs s' b lb W V D E Vb) as [_ G2].
    rewrite G2 by exact P. rewrite (H2 b I). unfold frac, Qcdiv. rewrite QcZ_1. ring.
Qed.
Print Assumptions C144_zeeman_refuted.

(** What part of the decay of a hyperfine level goes into which manifold does
    not depend on F: two such transitions [t] and [t'] of a level share the
    decay of every hyperfine level in the ratio of their A coefficients. *)
Theorem C144_manifolds : forall muB orc, (forall n, oracle_ok (orc n)) -> forall s s1, reachable Exact muB orc s -> reachable Exact muB orc s1 ->
  forall t x v u cs s' m1 m2 j1 j2 t' x' v' u' cs' s1' m1' m2' j1' j2' bs1 bs2 bs1' bs2',
  tr s t = Some x -> x_kind x = TT -> x_E1 x <> x_E2 x -> x_subs x = [] -> x_A x = Some (v, u) ->
  aE1 (x_allowed x) = true \/ aM1 (x_allowed x) = true -> subtransitions Exact muB t s = (Ok cs, s') ->
  lv s' (x_E1 x) = Some m1 -> lv s' (x_E2 x) = Some m2 -> l_J m1 = Some j1 -> l_J m2 = Some j2 -> triangle j1 j2 2 ->
  sublevels Exact (x_E1 x) s' = (Ok bs1, s') -> sublevels Exact (x_E2 x) s' = (Ok bs2, s') -> separate muB s' bs1 bs2 ->
  tr s1 t' = Some x' -> x_kind x' = TT -> x_E1 x' <> x_E2 x' -> x_subs x' = [] -> x_A x' = Some (v', u') ->
  aE1 (x_allowed x') = true \/ aM1 (x_allowed x') = true -> subtransitions Exact muB t' s1 = (Ok cs', s1') ->
  lv s1' (x_E1 x') = Some m1' -> lv s1' (x_E2 x') = Some m2' -> l_J m1' = Some j1' -> l_J m2' = Some j2' -> triangle j1' j2' 2 ->
  sublevels Exact (x_E1 x') s1' = (Ok bs1', s1') -> sublevels Exact (x_E2 x') s1' = (Ok bs2', s1') -> separate muB s1' bs1' bs2' ->
  forall b lb lb' j f, (In b bs1 /\ j = j1) \/ (In b bs2 /\ j = j2) -> (In b bs1' /\ j = j1') \/ (In b bs2' /\ j = j2') ->
  lv s' b = Some lb -> l_F lb = Some f -> lv s1' b = Some lb' -> l_F lb' = Some f ->
  (sums (rate s') (lines_at s' b cs) * (v' * Q2Qc (unit_Q u')) = sums (rate s1') (lines_at s1' b cs') * (v * Q2Qc (unit_Q u)))%Qc.
Proof.
  intros muB orc OK s s1 R R1 t x v u cs s' m1 m2 j1 j2 t' x' v' u' cs' s1' m1' m2' j1' j2' bs1 bs2 bs1' bs2'
    V K D X A Dp E M1 M2 J1 J2 T B1 B2 Sp V' K' D' X' A' Dp' E' M1' M2' J1' J2' T' B1' B2' Sp' b lb lb' j f I I' Vb F Vb' F'.
  destruct (C144_hyperfine_refuted muB orc OK s R t x v u cs s' m1 m2 j1 j2 V K D X A Dp E M1 M2 J1 J2 T) as [c1 [c2 [C1 [C2 H]]]].
  destruct (C144_hyperfine_refuted muB orc OK s1 R1 t' x' v' u' cs' s1' m1' m2' j1' j2' V' K' D' X' A' Dp' E' M1' M2' J1' J2' T') as [c1' [c2' [C1' [C2' H']]]].
  assert (c1 = bs1) by congruence. assert (c2 = bs2) by congruence. assert (c1' = bs1') by congruence. assert (c2' = bs2') by congruence. subst.
  rewrite (H Sp b lb j f I Vb F), (H' Sp' b lb' j f I' Vb' F'). ring.
Qed.
Print Assumptions C144_manifolds.

(** I = 1/2; the level J = 3/2 decays with the rates 3 and 1 to two levels.
    Its hyperfine levels F = 1 and F = 2 have 3/4 and 5/4 of its rate, their
    Zeeman levels a quarter; a quarter of each decay goes to the second level. *)
Definition total (k : string) (s : st Exact) : option Q := match fst (total_rate Exact 1%Qc k s) with Ok r => Some (this r) | _ => None end.
Theorem C144_lifetime_refuted : let s := decays (Hz 3) (Hz 1) in
  reachable Exact 1%Qc plain s /\
  map (fun k => total k s) ["6p 2P*3/2"; "6p 2P*3/2 F=1"; "6p 2P*3/2 F=2"; "6p 2P*3/2 F=2 mF=1"]%string =
    [Some (4 # 1); Some (3 # 1); Some (5 # 1); Some (1 # 1)]%Q /\
  ratios (fst (branching Exact 1%Qc "6p 2P*3/2" s)) = Ok [("6s 2S1/2", 3 # 4); ("6p 2P*1/2", 1 # 4)]%string /\
  ratios (fst (branching Exact 1%Qc "6p 2P*3/2 F=1" s)) =
    Ok [("6s 2S1/2 F=0", 1 # 2); ("6s 2S1/2 F=1", 1 # 4); ("6p 2P*1/2 F=0", 1 # 6); ("6p 2P*1/2 F=1", 1 # 12)]%string.
Proof. cbv zeta. split; [apply decays_reachable|]. do 2 (split; [vm_compute; reflexivity|]). vm_compute. reflexivity. Qed.
Print Assumptions C144_lifetime_refuted.

(** The same atom: its transition 0 before and after its lines are listed. *)
Example C144_case : let s := decays (Hz 3) (Hz 1) in let s' := snd (subtransitions Exact 1%Qc 0 s) in
  option_map (fun x => (x_kind x, x_allowed x, x_subs x, x_E1 x, x_E2 x)) (tr s 0) = Some (TT, (true, false, false), [], 2%nat, 0%nat) /\
  fst (sublevels Exact 2 s') = Ok [3; 4]%nat /\ fst (sublevels Exact 0 s') = Ok [5; 6]%nat /\
  apartb s' [5; 6]%nat [3; 4]%nat = true /\
  map (fun a => option_map (@l_F Exact) (lv s' a)) [3; 4]%nat = [Some (Some 2); Some (Some 4)] /\
  match fst (subtransitions Exact 1%Qc 0 s) with Ok cs => map (fun b => this (sums (rate s') (lines_at s' b cs))) [3; 4]%nat | Raise _ => [] end = [9 # 4; 15 # 4]%Q.
Proof. cbv zeta. do 5 (split; [vm_compute; reflexivity|]). vm_compute. reflexivity. Qed.
