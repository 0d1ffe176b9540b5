(** Properties C52-C56: decay channels, branching ratios and lifetimes. *)
From Coq Require Import List Bool ZArith QArith Qcanon Lia String Ascii Permutation Reals Qreals Lra.
From Verif Require Import Base PyStr Util UtilProofs Parse Term TermProofs Num Wigner Hyperfine HyperfineProofs
  Graph GraphProofs DfsProofs Rules StrengthSums Atom AtomInv AtomSafe AtomSafe2 AtomSafe3 AtomSafe4 AtomSafe5 AtomSafe6 AtomLevels AtomKeep AtomTrans
  AtomEnergy AtomOrder AtomDecay AtomExample.
Import ListNotations.
Local Open Scope Qc_scope.

(** C52.  For the key of a level of any kind for which linked_levels returns,
    if the decay channels have A coefficients >= 0 and one of them is not zero.
    Each may have its own unit: the code divides the bare numbers by the sum of
    the bare numbers, so the result is a distribution in any case.  [channel s k n m t x]: [t] joins [n] with [m], and its
    upper level is called [n]. *)
Theorem C52_ratios_partial : forall muB orc, (forall n, oracle_ok (orc n)) -> forall s, reachable Exact muB orc s ->
  forall key d s', linked_levels Exact muB 3 key s = (Ok d, s') -> exists k, kind_of_key s key k /\ (
  (forall m t x, channel s' k key m t x -> exists v u, x_A x = Some (v, u) /\ 0 <= v) ->
  (exists m t x v u, channel s' k key m t x /\ x_A x = Some (v, u) /\ v <> 0) ->
  exists r T, branching Exact muB key s = (Ok r, s') /\ NoDup (dkeys r) /\ 0 < T /\
    (forall m v, In (m, v) r <-> exists t x w u, channel s' k key m t x /\ x_A x = Some (w, u) /\ v = w / T) /\
    (forall m v, In (m, v) r -> 0 <= v <= 1) /\ sums (fun v => v) (dvals r) = 1).
Proof.
  intros muB orc OK s R key d s' E. pose proof (reachable_WF Exact muB orc OK s R) as W.
  destruct (linked_spec _ _ _ _ _ _ _ W E) as [W' [ND [k [KK [Hd Ht]]]]]. exists k. split; auto. intros HA [m0 [t0 [x0 [v0 [u0 [C0 [A0 Z0]]]]]]].
  assert (CH : forall m t x, channel s' k key m t x <-> In (m, t) d /\ tr s' t = Some x /\ nm s' (x_up x) = Some key).
  { intros m t x. unfold channel. rewrite Hd. tauto. }
  destruct (branching_spec muB s key d s' W E) as [ds [D1 [D2 D3]]].
  { intros m t x I V Nx. destruct (HA m t x) as [v [u [Av _]]]; [apply CH; auto|eauto]. }
  assert (P : forall v, In v (dvals ds) -> 0 <= v).
  { intros v I. apply in_map_iff in I as [[m w] [Ew I]]. cbn [snd] in Ew. subst w. apply D2 in I as [t [x [u [I [V [Nx Ax]]]]]].
    destruct (HA m t x) as [v' [u' [Av Hv]]]; [apply CH; auto|]. assert (v' = v) by congruence. now subst. }
  set (T := sums (fun v => v) (dvals ds)) in *.
  assert (HT : 0 < T).
  { assert (I0 : In v0 (dvals ds)).
    { apply in_map_iff. exists (m0, v0). split; auto. apply D2. apply CH in C0. destruct C0 as [I [V Nx]]. eauto 9. }
    pose proof (P _ I0) as P0. pose proof (sums_In _ _ P I0) as L. apply Qclt_le_trans with v0; auto. apply Qcle_lt_or_eq in P0 as [P0|P0]; auto. congruence. }
  assert (HT0 : T <> 0) by (intros Z; rewrite Z in HT; now apply Qclt_not_eq in HT).
  eexists. exists T. split; [exact D3|]. split; [|split; [auto|split; [|split]]].
  - unfold dkeys in *. rewrite map_map. exact D1.
  - intros m v. rewrite in_map_iff. split.
    + intros [[m' w] [Ew I]]. cbn [fst snd] in Ew. injection Ew as <- <-. apply D2 in I as [t [x [u [I [V [Nx Ax]]]]]]. exists t, x, w, u.
      split; [apply CH; auto|auto].
    + intros [t [x [w [u [C [Aw ->]]]]]]. exists (m, w). split; auto. apply D2. apply CH in C as [I [V Nx]]. eauto 9.
  - intros m v I. apply in_map_iff in I as [[m' w] [Ew I]]. cbn [fst snd] in Ew. injection Ew as _ <-.
    assert (Iw : In w (dvals ds)) by (apply in_map_iff; exists (m', w); auto).
    pose proof (P _ Iw) as P0. pose proof (sums_In _ _ P Iw) as L. fold T in L. split.
    + unfold Qcdiv. apply Qcmult_lt_0_le_reg_r with T; auto. rewrite <- Qcmult_assoc, (Qcmult_comm (/ T)), Qcmult_inv_r by auto.
      now rewrite Qcmult_0_l, Qcmult_1_r.
    + unfold Qcdiv. apply Qcmult_lt_0_le_reg_r with T; auto. rewrite <- Qcmult_assoc, (Qcmult_comm (/ T)), Qcmult_inv_r by auto.
      now rewrite Qcmult_1_l, Qcmult_1_r.
  - assert (Ev : dvals (map (fun mv : string * Qc => (fst mv, snd mv / T)) ds) = map (fun v => v / T) (dvals ds)).
    { unfold dvals. rewrite !map_map. reflexivity. }
    etransitivity; [apply f_equal, Ev|]. rewrite sums_div. fold T.
    unfold Qcdiv. now apply Qcmult_inv_r.
Qed.
Print Assumptions C52_ratios_partial.

(** Levels 6p 2P*3/2, 6p 2P*1/2 and 6s 2S1/2 at 20, 10 and 0, with decays from
    the highest at the given rates. *)
Definition os_three : list (op Exact) := os_two ++ [nl tQ 20; add 2].
Definition decays (q0 q1 : option (Qc * funit)) : st Exact :=
  runx (from 1) (os_three ++ [ONewTransition Exact 2 0 None q0 None; ONewTransition Exact 1 2 None q1 None]).
Lemma decays_reachable : forall q0 q1, reachable Exact 1 plain (decays q0 q1).
Proof. intros. apply from_reachable. lia. Qed.
Definition Hz (n : Z) : option (Qc * funit) := Some (Q2Qc (n # 1), uHz).
Definition ratios (r : res (dict string Qc)) : res (list (string * Q)) :=
  match r with Ok d => Ok (map (fun mv => (fst mv, this (snd mv))) d) | Raise e => Raise e end.

Example C52_case : let s := decays (Hz 3) (Hz 1) in
  ratios (fst (branching Exact 1 "6p 2P*3/2" s)) = Ok [("6s 2S1/2", 3 # 4); ("6p 2P*1/2", 1 # 4)]%string /\
  ratios (fst (branching Exact 1 "6p 2P*1/2" s)) = Ok [].
Proof. vm_compute. split; reflexivity. Qed.

(** C52: in mixed units an entry is not the transition's share of the total
    rate. *)
Theorem C52_units_refuted : exists s, reachable Exact 1 plain s /\
  option_map (@x_A Exact) (tr s 0) = Some (Some (Q2Qc 3000, uHz)) /\ option_map (@x_A Exact) (tr s 1) = Some (Some (Q2Qc 1, ukHz)) /\
  (let a := Q2Qc 3000 * Q2Qc (unit_Q uHz) in let b := Q2Qc 1 * Q2Qc (unit_Q ukHz) in (a / (a + b) : Qc) = Q2Qc (3 # 4)) /\
  ratios (fst (branching Exact 1 "6p 2P*3/2" s)) = Ok [("6s 2S1/2", 3000 # 3001); ("6p 2P*1/2", 1 # 3001)]%string.
Proof.
  exists (runx (from 1) (os_three ++ [ONewTransition Exact 2 0 None (Hz 3000) None; ONewTransition Exact 1 2 None (Hz 1000) None;
    OSetA Exact 1 (Some (Q2Qc 1, ukHz))])).
  split; [apply from_reachable; lia|]. split; [vm_compute; reflexivity|]. split; [vm_compute; reflexivity|].
  split; [cbv zeta; apply Qc_is_canon; vm_compute; reflexivity|]. vm_compute. reflexivity.
Qed.
Print Assumptions C52_units_refuted.

(** C53: an A coefficient given to the constructor, directly or through
    add_transition, may be in any unit. *)
Theorem C53_constructor : forall muB orc s e1 e2 f alias v u v' u', v * Q2Qc (unit_Q u) = v' * Q2Qc (unit_Q u') ->
  new_transition Exact muB e1 e2 f (Some (v, u)) alias s = new_transition Exact muB e1 e2 f (Some (v', u')) alias s /\
  forall sp, add_transition Exact muB orc sp f (Some (v, u)) alias s = add_transition Exact muB orc sp f (Some (v', u')) alias s.
Proof.
  intros muB orc s e1 e2 f alias v u v' u' E.
  assert (H : forall e1 e2 s, new_transition Exact muB e1 e2 f (Some (v, u)) alias s = new_transition Exact muB e1 e2 f (Some (v', u')) alias s).
  { intros a1 a2 s0. assert (T : option_map (to_Hz Exact) (Some (v, u)) = option_map (to_Hz Exact) (Some (v', u'))).
    { unfold option_map, to_Hz. cbn [fst snd]. change (nmul Exact v (nofQ Exact (unit_Q u))) with (v * Q2Qc (unit_Q u)).
      change (nmul Exact v' (nofQ Exact (unit_Q u'))) with (v' * Q2Qc (unit_Q u')). now rewrite E. }
    unfold new_transition. now rewrite T. }
  assert (B : forall A C (m1 m2 : M Exact A) (k1 k2 : A -> M Exact C) s0, m1 s0 = m2 s0 -> (forall v0 s1, k1 v0 s1 = k2 v0 s1) -> bind m1 k1 s0 = bind m2 k2 s0).
  { intros A C m1 m2 k1 k2 s0 E1 E2. unfold bind. rewrite E1. destruct (m2 s0) as [[]]; auto. }
  split; [apply H|]. intros sp. unfold add_transition. apply B; auto. destruct sp as [t|a b|a b]; auto.
  apply B; auto. intros [] s1; auto.
Qed.
Print Assumptions C53_constructor.
Example C53_case : let h q := decays (Hz 3000) q in
  ratios (fst (branching Exact 1 "6p 2P*3/2" (h (Hz 1000)))) = Ok [("6s 2S1/2", 3 # 4); ("6p 2P*1/2", 1 # 4)]%string /\
  ratios (fst (branching Exact 1 "6p 2P*3/2" (h (Some (Q2Qc 1, ukHz))))) = Ok [("6s 2S1/2", 3 # 4); ("6p 2P*1/2", 1 # 4)]%string.
Proof. vm_compute. split; reflexivity. Qed.

(** C53: assigning the same A in another unit changes the ratios. *)
Theorem C53_assign_refuted : exists s, reachable Exact 1 plain s /\ option_map (@x_A Exact) (tr s 1) = Some (Hz 1000) /\
  Q2Qc 1000 * Q2Qc (unit_Q uHz) = Q2Qc 1 * Q2Qc (unit_Q ukHz) /\
  ratios (fst (branching Exact 1 "6p 2P*3/2" s)) = Ok [("6s 2S1/2", 3 # 4); ("6p 2P*1/2", 1 # 4)]%string /\
  ratios (fst (branching Exact 1 "6p 2P*3/2" (step Exact 1 plain s (OSetA Exact 1 (Some (Q2Qc 1, ukHz)))))) =
    Ok [("6s 2S1/2", 3000 # 3001); ("6p 2P*1/2", 1 # 3001)]%string.
Proof.
  exists (decays (Hz 3000) (Hz 1000)). split; [apply decays_reachable|]. split; [vm_compute; reflexivity|].
  split; [apply Qc_is_canon; reflexivity|]. vm_compute. split; reflexivity.
Qed.
Print Assumptions C53_assign_refuted.

(** C54.  In a history that moves no level and gives no frequency, the
    branching ratios of an EnergyLevel contain no level above it. *)
Theorem C54_downhill_partial : forall muB orc, (forall n, oracle_ok (orc n)) -> forall i B os, (0 <= i)%Z -> forallb unmoved os = true ->
  let s := run Exact muB orc (init Exact i B) os in
  forall key r s', kind_of_key s key LE -> branching Exact muB key s = (Ok r, s') -> forall m v, In (m, v) r ->
  exists t x lo up, edge (s_g0 s') key m = Some t /\ tr s' t = Some x /\ nm s' (x_up x) = Some key /\ nm s' (x_lo x) = Some m /\
    energy Exact muB s' (x_lo x) = Some lo /\ energy Exact muB s' (x_up x) = Some up /\ lo <= up.
Proof.
  intros muB orc OK i B os Hi Ho s key r s' KK E m v I.
  assert (W : WF s) by (apply (reachable_WF Exact muB orc OK); exists i, B, os; auto).
  destruct (branching_entries muB s key r s' W E) as [k [KK' [W' H]]].
  assert (k = LE) by (destruct KK as [a [s1 [l [E1 [V1 K1]]]]], KK' as [a' [s1' [l' [E1' [V1' K1']]]]]; congruence). subst k.
  destruct (H m v I) as [t [x [[_ [Ee [V Nu]]] [Nl Kx]]]]. exists t, x.
  assert (Es : s' = run Exact muB orc (init Exact i B) (os ++ [OBranching Exact key])).
  { unfold run. rewrite fold_left_app. cbn [fold_left]. unfold step at 1. cbn [run_op]. unfold void, bind.
    change (fold_left (step Exact muB orc) os (init Exact i B)) with s. rewrite E. reflexivity. }
  assert (D : downhill_x s' x).
  { rewrite Es. eapply (run_downhill muB orc); [rewrite forallb_app, Ho; reflexivity|]. rewrite <- Es. exact V. }
  destruct D as [lo [up [Vl [Vu [Kl [Ku L]]]]]]; [destruct (x_kind x); [reflexivity|discriminate|discriminate]|].
  exists (l_E lo), (l_E up). repeat (split; [assumption|]). unfold energy, energyE. rewrite Vl, Vu, Kl, Ku. auto.
Qed.
Print Assumptions C54_downhill_partial.
Example C54_case : forallb unmoved (os_three ++ [ONewTransition Exact 2 0 None (Hz 3) None; ONewTransition Exact 1 2 None (Hz 1) None]) = true /\
  option_map (fun a => a) (match levels_get Exact "6p 2P*3/2" (decays (Hz 3) (Hz 1)) with (Ok a, s) => option_map (@l_kind Exact) (lv s a) | _ => None end) = Some LE.
Proof. vm_compute. split; reflexivity. Qed.

(** C54: after the lower level has been moved above the upper one, and for
    two levels of the same energy. *)
Theorem C54_moved_refuted : exists s, reachable Exact 1 plain s /\
  ratios (fst (branching Exact 1 "6p 2P*3/2" s)) = Ok [("6s 2S1/2", 3 # 4); ("6p 2P*1/2", 1 # 4)]%string /\
  fst (levels_get Exact "6p 2P*3/2" s) = Ok 2%nat /\ fst (levels_get Exact "6s 2S1/2" s) = Ok 0%nat /\
  option_map this (energy Exact 1 s 2) = Some 20%Q /\ option_map this (energy Exact 1 s 0) = Some 100%Q.
Proof.
  exists (runx (decays (Hz 3) (Hz 1)) [OSetLevel Exact 0 (Q2Qc 100)]). split; [apply more_reachable, decays_reachable|].
  vm_compute. repeat match goal with |- _ /\ _ => split end; reflexivity.
Qed.
Print Assumptions C54_moved_refuted.
Theorem C54_equal_refuted : exists os, forallb unmoved os = true /\
  ratios (fst (branching Exact 1 "6p 2P*1/2" (runx (from 1) os))) = Ok [("6s 2S1/2", 1 # 1)]%string /\
  option_map this (energy Exact 1 (runx (from 1) os) 0) = Some 0%Q /\ option_map this (energy Exact 1 (runx (from 1) os) 1) = Some 0%Q.
Proof.
  exists [nl tS 0; add 0; nl tP 0; add 1; ONewTransition Exact 1 0 None (Hz 1) None].
  vm_compute. repeat match goal with |- _ /\ _ => split end; reflexivity.
Qed.
Print Assumptions C54_equal_refuted.

(** C55: if a transition from the level has no A, compute_branching_ratios
    raises AttributeError, not ValueError; otherwise it returns. *)
Theorem C55_missing_refuted : forall muB orc, (forall n, oracle_ok (orc n)) -> forall s, reachable Exact muB orc s ->
  forall key d s', linked_levels Exact muB 3 key s = (Ok d, s') -> exists k, kind_of_key s key k /\
  ((exists m t x, channel s' k key m t x /\ x_A x = None) <-> branching Exact muB key s = (Raise AttributeError, s')) /\
  ((forall m t x, channel s' k key m t x -> x_A x <> None) -> exists r, branching Exact muB key s = (Ok r, s')).
Proof.
  intros muB orc OK s R key d s' E. pose proof (reachable_WF Exact muB orc OK s R) as W.
  destruct (linked_spec _ _ _ _ _ _ _ W E) as [W' [ND [k [KK [Hd Ht]]]]]. exists k. split; auto.
  destruct (branching_missing muB s key d s' W E) as [H1 H2]. rewrite <- H1. unfold channel. split.
  - split; intros [m [t [x H]]]; exists m, t, x; rewrite Hd in *; tauto.
  - intros H. apply H2. intros m t x I V Nx. apply (H m t x). apply Hd in I. tauto.
Qed.
Print Assumptions C55_missing_refuted.
Example C55_case : ratios (fst (branching Exact 1 "6p 2P*3/2" (decays (Hz 3) None))) = Raise AttributeError.
Proof. vm_compute. reflexivity. Qed.

(** C56.  For the key of a level of any kind, if the transitions from the level
    have A coefficients: [ds] lists their rates in Hz, one for each level they
    lead to.  [None] is an infinite lifetime. *)
Theorem C56_rates : forall muB orc, (forall n, oracle_ok (orc n)) -> forall s, reachable Exact muB orc s ->
  forall key d s1 a s2, linked_levels Exact muB 3 key s = (Ok d, s1) -> levels_get Exact key s1 = (Ok a, s2) ->
  (forall m t x, In (m, t) d -> tr s2 t = Some x -> x_up x = a -> x_A x <> None) ->
  exists (ds : dict string Qc) tau, NoDup (dkeys ds) /\
    (forall m w, In (m, w) ds <-> exists t x v u, In (m, t) d /\ tr s2 t = Some x /\ x_up x = a /\ x_A x = Some (v, u) /\ w = v * Q2Qc (unit_Q u)) /\
    state_lifetime muB key s = (Ok tau, s2) /\
    (tau = None <-> sums (fun v => v) (dvals ds) = 0) /\
    (forall T, tau = Some T -> (1 / T = Q2R (sums (fun v => v) (dvals ds)) / (2 * PI))%R).
Proof.
  intros muB orc OK s R key d s1 a s2 E1 E2 H. pose proof (reachable_WF Exact muB orc OK s R) as W.
  destruct (total_rate_key muB s key d s1 a s2 W E1 E2 H) as [ds [D1 [D2 D3]]]. set (T := sums (fun v => v) (dvals ds)) in *.
  exists ds, (if Qc_eq_bool T 0 then None else Some (1 / (Q2R T / (2 * PI)))%R). split; auto. split; [|split; [|split]].
  - intros m w. rewrite D2. split.
    + intros [t [x [[v u] [I [V [U [A E]]]]]]]. exists t, x, v, u. auto.
    + intros [t [x [v [u [I [V [U [A E]]]]]]]]. exists t, x, (v, u). auto.
  - unfold state_lifetime. erewrite bind_Ok by exact D3. reflexivity.
  - destruct (Qc_eq_bool T 0) eqn:Z.
    + apply Qc_eq_bool_correct in Z. tauto.
    + split; [discriminate|]. intros E. fold T in E. rewrite E in Z. discriminate.
  - intros tau. destruct (Qc_eq_bool T 0) eqn:Z; [discriminate|]. intros E. injection E as <-.
    assert (HT : Q2R T <> 0%R).
    { intros E0. assert (T0 : T = 0); [|rewrite T0 in Z; discriminate]. apply Qc_is_canon. apply eqR_Qeq. rewrite E0. change (this 0) with 0%Q. unfold Q2R. cbn. lra. }
    pose proof PI_RGT_0. fold T. revert HT. generalize (Q2R T). intros r HT. field. split; lra.
Qed.
Print Assumptions C56_rates.

Theorem C56_missing : forall muB orc, (forall n, oracle_ok (orc n)) -> forall s, reachable Exact muB orc s ->
  forall key d s1 a s2, linked_levels Exact muB 3 key s = (Ok d, s1) -> levels_get Exact key s1 = (Ok a, s2) ->
  (exists m t x, In (m, t) d /\ tr s2 t = Some x /\ x_up x = a /\ x_A x = None) -> state_lifetime muB key s = (Raise TypeError, s2).
Proof.
  intros muB orc OK s R key d s1 a s2 E1 E2 [m [t [x [I [V [U A]]]]]]. pose proof (reachable_WF Exact muB orc OK s R) as W.
  destruct (linked_spec _ _ _ _ _ _ _ W E1) as [W1 [ND [k [KK [Hd Ht]]]]].
  destruct (safe_Ok _ _ _ _ _ _ _ (levels_get_safe Exact s1 key W1) E2) as [W2 [L _]].
  assert (S : sum_A Exact s2 a (dvals d) (nofQ Exact 0) = Raise TypeError).
  { apply sum_A_missing.
    - intros t' I'. apply in_map_iff in I' as [[m' t''] [Et I']]. cbn [snd] in Et. subst t''. destruct (Ht _ _ I') as [x' [V' _]].
      destruct (ext_tr _ _ _ (look_ext _ _ _ (proj1 L)) _ _ V') as [x2 [V2 _]]. exists x2. exact V2.
    - exists t, x. split; auto. apply in_map_iff. exists (m, t). auto. }
  unfold state_lifetime, bind at 1. unfold total_rate. erewrite bind_Ok by exact E1. erewrite bind_Ok by exact E2. now rewrite S.
Qed.
Print Assumptions C56_missing.

Definition no_longer (t t' : option R) : Prop := match t' with None => True | Some b => exists a, t = Some a /\ (a <= b)%R end.

Lemma longer_rate : forall T T' : Qc, 0 <= T -> T <= T' ->
  no_longer (if Qc_eq_bool T' 0 then None else Some (1 / (Q2R T' / (2 * PI)))%R) (if Qc_eq_bool T 0 then None else Some (1 / (Q2R T / (2 * PI)))%R).
Proof.
  intros T T' H L. unfold no_longer. destruct (Qc_eq_bool T 0) eqn:Z; auto.
  assert (P : 0 < T). { apply Qcle_lt_or_eq in H as [H|H]; auto. rewrite <- H in Z. discriminate. }
  destruct (Qc_eq_bool T' 0) eqn:Z'.
  { apply Qc_eq_bool_correct in Z'. subst T'. apply Qcle_not_lt in L. contradiction. }
  eexists. split; [reflexivity|]. apply Qlt_Rlt in P. apply Qle_Rle in L. change (this 0) with 0%Q in P. replace (Q2R 0) with 0%R in P by (unfold Q2R; cbn; lra).
  pose proof PI_RGT_0. unfold Rdiv. rewrite !Rmult_1_l. apply Rinv_le_contravar.
  - apply Rmult_lt_0_compat; auto. apply Rinv_0_lt_compat. lra.
  - apply Rmult_le_compat_r; auto. left. apply Rinv_0_lt_compat. lra.
Qed.

(** C56: a new transition with A >= 0 between two levels that were not joined
    lengthens no lifetime. *)
Theorem C56_channel : forall muB orc, (forall n, oracle_ok (orc n)) -> forall s, reachable Exact muB orc s ->
  forall n1 n2 e1 e2 f v u, dget n1 (node_attrs (s_g0 s)) = Some e1 -> dget n2 (node_attrs (s_g0 s)) = Some e2 -> n1 <> n2 ->
  edge (s_g0 s) n1 n2 = None -> 0 <= v ->
  exists t s', new_transition Exact muB e1 e2 f (Some (v, u)) None s = (Ok t, s') /\
  forall n a, dget n (s_lal s) = None -> has_char "="%char n = false -> dget n (node_attrs (s_g0 s)) = Some a ->
  (forall m t x, m <> n -> edge (s_g0 s) n m = Some t -> tr s t = Some x -> x_up x = a -> exists w u, x_A x = Some (w, u) /\ 0 <= w) ->
  exists tau tau', state_lifetime muB n s = (Ok tau, s) /\ state_lifetime muB n s' = (Ok tau', s') /\ no_longer tau' tau.
Proof.
  intros muB orc OK s R n1 n2 e1 e2 f v u D1 D2 Hn En Hv. pose proof (reachable_WF Exact muB orc OK s R) as W.
  pose proof (wf_g _ _ W LE) as G. cbn [graph_of] in G. pose proof (go_wf _ _ _ _ G) as GW.
  assert (Nd : forall n a, dget n (node_attrs (s_g0 s)) = Some a -> exists l, lv s a = Some l /\ l_kind l = LE /\ lname l = n /\ l_attached l = true).
  { intros n a D. rewrite (node_attrs_get _ n GW) in D. destruct (dget n (g_nodes (s_g0 s))) as [[b|]|] eqn:X; try discriminate.
    injection D as ->. destruct (go_node _ _ _ _ G _ _ X) as [l [V [K [Nm A]]]]. exists l. auto. }
  destruct (Nd _ _ D1) as [l1 [V1 [K1 [N1 A1]]]]. destruct (Nd _ _ D2) as [l2 [V2 [K2 [N2 A2]]]].
  destruct (new_edge muB s e1 e2 f (Some (v, u)) l1 l2 W V1 V2 K1 K2 A1) as [x [Ax [Kx [UL [s' [Eq [W' [El [Ela [Ena [Tn [To Ed]]]]]]]]]]]].
  exists (List.length (s_trans s)), s'. split; auto. intros n a Al He Da H. rewrite N1, N2 in Ed.
  assert (unit_pos : forall u, 0 <= Q2Qc (unit_Q u)) by (intros []; apply Qc_ltb_ge; reflexivity).
  assert (rate_pos : forall w u, 0 <= w -> 0 <= rate (w, u)).
  { intros w u' Hw. unfold rate. cbn [fst snd]. rewrite <- (Qcmult_0_l (Q2Qc (unit_Q u'))). now apply Qcmult_le_compat_r. }
  assert (Old : forall n m t, edge (s_g0 s) n m = Some t -> (t < List.length (s_trans s))%nat).
  { intros n0 m t E. destruct (go_edge _ _ _ _ G _ _ _ E) as [y [V _]]. eapply tr_lt; eauto. }
  destruct (total_rate_name muB s n a W Al He Da) as [ds [S1 [S2 S3]]].
  { intros m t y Hm E V U. destruct (H m t y Hm E V U) as [w [u' [-> _]]]. discriminate. }
  destruct (total_rate_name muB s' n a W') as [ds' [S1' [S2' S3']]].
  { now rewrite Ela. } { exact He. } { now rewrite Ena. }
  { intros m t y Hm E V U. rewrite Ed in E. destruct (_ || _).
    - injection E as <-. rewrite Tn in V. injection V as <-. rewrite Ax. discriminate.
    - rewrite To in V by eauto. destruct (H m t y Hm E V U) as [w [u' [-> _]]]. discriminate. }
  set (T := sums (fun v => v) (dvals ds)) in *. set (T' := sums (fun v => v) (dvals ds')) in *.
  assert (ND : NoDup ds) by (apply (NoDup_map_inv fst); exact S1). assert (ND' : NoDup ds') by (apply (NoDup_map_inv fst); exact S1').
  assert (P : forall w, In w (dvals ds) -> 0 <= w).
  { intros w I. apply in_map_iff in I as [[m w'] [Ew I]]. cbn [snd] in Ew. subst w'. apply S2 in I as [t [y [q [Hm [E [V [U [Ay ->]]]]]]]].
    destruct (H m t y Hm E V U) as [w [u' [Ay' Hw]]]. assert (q = (w, u')) by congruence. subst q. now apply rate_pos. }
  assert (Sub : forall e, In e ds -> In e ds').
  { intros [m w] I. apply S2 in I as [t [y [q [Hm [E [V R0]]]]]]. apply S2'. exists t, y, q. split; auto. split.
    - rewrite Ed. destruct (_ || _) eqn:C; auto. exfalso. apply orb_true_iff in C as [C|C]; apply andb_true_iff in C as [C1 C2]; apply String.eqb_eq in C1, C2; subst n m.
      + congruence.
      + apply (gw_sym _ GW) in E. congruence.
    - rewrite To by eauto. auto. }
  assert (L : 0 <= T /\ T <= T').
  { split; [now apply sums_nonneg|].
    assert (Pm : exists r, Permutation ds' (ds ++ r) /\ forall e, In e r -> 0 <= snd e).
    { exists (filter (fun e => negb (existsb (fun e' => String.eqb (fst e) (fst e')) ds)) ds'). split.
      - apply NoDup_Permutation; auto.
        + apply NoDup_app; auto; [now apply NoDup_filter|]. intros e I I'. apply filter_In in I' as [_ C]. apply negb_true_iff in C.
          assert (X : existsb (fun e' => String.eqb (fst e) (fst e')) ds = true) by (apply existsb_exists; exists e; split; auto; apply String.eqb_refl). congruence.
        + intros e. rewrite in_app_iff, filter_In, negb_true_iff. split.
          * intros I. destruct (existsb (fun e' => String.eqb (fst e) (fst e')) ds) eqn:C; auto. left.
            apply existsb_exists in C as [e' [I' C]]. apply String.eqb_eq in C. pose proof (Sub _ I') as I2.
            destruct e as [m w], e' as [m' w']. cbn [fst] in C. subst m'. assert (w = w'); [|now subst].
            apply (In_dget_nodup m w ds' S1') in I. apply (In_dget_nodup m w' ds' S1') in I2. congruence.
          * intros [I|[I _]]; auto.
      - intros [m w] I. apply filter_In in I as [I _]. cbn [snd]. apply S2' in I as [t [y [q [Hm [E [V [U [Ay ->]]]]]]]]. rewrite Ed in E. destruct (_ || _).
        + injection E as <-. rewrite Tn in V. injection V as <-. rewrite Ax in Ay. injection Ay as <-. unfold rate, to_Hz. cbn [fst snd].
          change (0 <= (v * Q2Qc (unit_Q u)) * Q2Qc (unit_Q uHz)). apply (rate_pos _ uHz). apply (rate_pos v u Hv).
        + rewrite To in V by eauto. destruct (H m t y Hm E V U) as [w [u' [Ay' Hw]]]. assert (q = (w, u')) by congruence. subst q. now apply rate_pos. }
    destruct Pm as [r [Pm Pr]]. unfold T, T'. rewrite (sums_perm (fun v => v) (dvals ds') (dvals ds ++ dvals r)).
    - rewrite sums_app. rewrite <- (Qcplus_0_r (sums (fun v => v) (dvals ds))) at 1. apply Qcplus_le_compat; [apply Qcle_refl|]. apply sums_nonneg.
      intros w I. apply in_map_iff in I as [e [<- I]]. auto.
    - unfold dvals. rewrite <- map_app. now apply Permutation_map. }
  eexists. eexists. split; [|split; [|apply (longer_rate T T'); apply L]].
  - unfold state_lifetime. erewrite bind_Ok by exact S3. reflexivity.
  - unfold state_lifetime. erewrite bind_Ok by exact S3'. reflexivity.
Qed.
Print Assumptions C56_channel.
Example C56_case : let s := decays (Hz 3) (Hz 1) in
  match fst (total_rate Exact 1 "6p 2P*3/2" s) with Ok r => Some (this r) | _ => None end = Some (4 # 1) /\
  match fst (total_rate Exact 1 "6p 2P*1/2" s) with Ok r => Some (this r) | _ => None end = Some (0 # 1) /\
  edge (s_g0 s) "6s 2S1/2" "6p 2P*1/2" = None.
Proof. vm_compute. repeat match goal with |- _ /\ _ => split end; reflexivity. Qed.
