(** C152: the lines into which a transition splits stay centred on it. *)
From Coq Require Import List Bool ZArith QArith Qcanon Lia String Ascii Permutation Sorted.
From Verif Require Import Base AtomSib PyStr Util UtilProofs Parse Term TermProofs Num Wigner WignerProofs WignerOne WignerSym Hyperfine HyperfineProofs
  Graph GraphProofs Rules RulesProofs StrengthSums StrengthPos Atom AtomInv AtomSafe AtomSafe2 AtomSafe3 AtomSafe5 AtomSafe6 AtomLevels AtomKeep AtomPaths AtomSub
  AtomTrans AtomEnergy AtomStrength AtomQuad AtomExample PropEnforce PropStrength PropQuad.
Import ListNotations.
Local Open Scope Qc_scope.

Section Centre.
  Context (muB : num Exact).
  Implicit Types (s : st Exact).
  (** The energy of a level and the frequency of a transition. *)
  Definition en s (b : nat) : Qc := match energy Exact muB s b with Some e => e | None => 0 end.
  Definition position s (c : nat) : Qc := match freq Exact muB s c with Some f => f | None => 0 end.

  Lemma pick : forall (h : nat -> Qc) k bs, NoDup bs -> In k bs -> sums (fun b => if Nat.eqb k b then h b else 0) bs = h k.
  Proof.
    intros h k bs. induction bs as [|b bs IH]; intros Nd I; [contradiction|]. inversion Nd; subst. rewrite sums_cons. destruct (Nat.eqb_spec k b) as [<-|Nk].
    - rewrite sums_0; [ring|]. intros x Ix. destruct (Nat.eqb_spec k x); [subst; contradiction|reflexivity].
    - destruct I as [|I]; [congruence|]. rewrite IH by auto. ring.
  Qed.
  Lemma regroup : forall (g w : nat -> Qc) (e : nat -> nat) (p : nat -> nat -> bool) bs cs, NoDup bs -> (forall c, In c cs -> In (e c) bs) -> (forall b c, In c cs -> p b c = Nat.eqb (e c) b) ->
    sums (fun c => w c * g (e c)) cs = sums (fun b => g b * sums w (filter (p b) cs)) bs.
  Proof.
    intros g w e p bs cs Nd He Hp.
    transitivity (sums (fun b => sums (fun c => if Nat.eqb (e c) b then w c * g b else 0) cs) bs).
    - rewrite sums_swap. apply sums_ext. intros c I. cbv beta. rewrite (pick (fun b => w c * g b) (e c) bs); auto.
    - apply sums_ext. intros b _. rewrite sums_filter, <- sums_scale. apply sums_ext. intros c I. rewrite Hp by auto. destruct (Nat.eqb (e c) b); ring.
  Qed.
  Lemma sums_nonneg {A} : forall (h : A -> Qc) l, (forall x, In x l -> 0 <= h x) -> 0 <= sums h l.
  Proof.
    intros h l. induction l as [|x l IH]; intros H; [apply Qcle_refl|]. rewrite sums_cons. replace 0 with (0 + 0) by ring. apply Qcplus_le_compat; [apply H; now left|]. apply IH. intros y I. apply H. now right.
  Qed.

  Lemma centred : forall s cs bs1 bs2 T E1 E2, NoDup bs1 -> NoDup bs2 ->
    (forall c, In c cs -> exists y l1 l2 u1 u2, tr s c = Some y /\ In (x_E1 y) bs1 /\ In (x_E2 y) bs2 /\ lv s (x_E1 y) = Some l1 /\ lv s (x_E2 y) = Some l2 /\
       energy Exact muB s (x_E1 y) = Some u1 /\ energy Exact muB s (x_E2 y) = Some u2 /\ 0 <= x_rel y) ->
    separate muB s bs1 bs2 -> 0 < T ->
    sums (fun b => en s b * sums (rel_strength s) (at_1 s b cs)) bs1 = T * E1 ->
    sums (fun b => en s b * sums (rel_strength s) (at_2 s b cs)) bs2 = T * E2 ->
    sums (fun c => rel_strength s c * position s c) cs = T * Qc_abs (E1 - E2).
  Proof.
    intros s cs bs1 bs2 T E1 E2 D1 D2 O [below Ap] PT H1 H2.
    assert (G1 : sums (fun c => rel_strength s c * en s (e1 s c)) cs = T * E1).
    { rewrite <- H1. apply regroup; auto.
      - intros c I. destruct (O c I) as [y [l1 [l2 [u1 [u2 [V [I1 _]]]]]]]. unfold e1. now rewrite V.
      - intros b c I. destruct (O c I) as [y [l1 [l2 [u1 [u2 [V _]]]]]]. unfold e1. now rewrite V. }
    assert (G2 : sums (fun c => rel_strength s c * en s (e2 s c)) cs = T * E2).
    { rewrite <- H2. apply regroup; auto.
      - intros c I. destruct (O c I) as [y [l1 [l2 [u1 [u2 [V [_ [I2 _]]]]]]]]. unfold e2. now rewrite V.
      - intros b c I. destruct (O c I) as [y [l1 [l2 [u1 [u2 [V _]]]]]]. unfold e2. now rewrite V. }
    set (sg := if below then 1 else - (1) : Qc).
    assert (P : forall c, In c cs -> position s c = sg * (en s (e2 s c) - en s (e1 s c)) /\ 0 <= position s c /\ 0 <= rel_strength s c).
    { intros c I. destruct (O c I) as [y [l1 [l2 [u1 [u2 [V [I1 [I2 [V1 [V2 [U1 [U2 Hr]]]]]]]]]]]]. unfold position, freq, en, e1, e2, rel_strength. rewrite V, U1, U2.
      specialize (Ap _ _ _ _ I1 I2 U1 U2). change (Qc_ltb u1 u2 = below) in Ap. change (nabs Exact (nsub Exact u1 u2)) with (Qc_abs (u1 - u2)).
      destruct (Qc_abs_cases (u1 - u2)) as [[C ->]|[C ->]]; subst sg below.
      - assert (u2 <= u1) by (apply Qcle_minus_iff; exact C). replace (Qc_ltb u1 u2) with false; [split; [ring|split; auto]|].
        symmetry. now apply AtomEnergy.Qc_ltb_ge.
      - assert (L : u1 < u2) by (apply Qclt_minus_iff; apply Qclt_minus_iff in C; replace (u2 + - u1) with (0 + - (u1 - u2)) by ring; exact C).
        replace (Qc_ltb u1 u2) with true; [split; [ring|split; auto]|].
        + replace (- (u1 - u2)) with (u2 + - u1) by ring. apply Qclt_le_weak. now apply -> Qclt_minus_iff.
        + symmetry. now apply AtomEnergy.Qc_ltb_lt. }
    assert (Tot : sums (fun c => rel_strength s c * position s c) cs = T * (sg * (E2 - E1))).
    { transitivity (sg * sums (fun c => rel_strength s c * en s (e2 s c)) cs + (- sg) * sums (fun c => rel_strength s c * en s (e1 s c)) cs).
      - rewrite <- !sums_scale, <- sums_add. apply sums_ext. intros c I. destruct (P c I) as [-> _]. ring.
      - rewrite G1, G2. ring. }
    assert (Nn : 0 <= T * (sg * (E2 - E1))).
    { rewrite <- Tot. apply sums_nonneg. intros c I. destruct (P c I) as [_ [Hp Hr]]. replace 0 with (0 * position s c) by ring. apply Qcmult_le_compat_r; auto. }
    rewrite Tot. f_equal. assert (Nn' : 0 <= sg * (E2 - E1)).
    { destruct (Qclt_le_dec (sg * (E2 - E1)) 0) as [L|]; auto. exfalso. apply (Qcmult_lt_compat_r _ _ T PT) in L.
      replace (sg * (E2 - E1) * T) with (T * (sg * (E2 - E1))) in L by ring. replace (0 * T) with 0 in L by ring. apply (Qclt_not_le _ _ L Nn). }
    subst sg. destruct below.
    - replace (1 * (E2 - E1)) with (- (E1 - E2)) in * by ring. destruct (Qc_abs_cases (E1 - E2)) as [[C ->]|[C ->]]; auto.
      assert (Z : E1 - E2 = 0) by (apply Qcle_antisym; auto; apply Qcopp_le_compat in Nn'; replace (- - (E1 - E2)) with (E1 - E2) in Nn' by ring; replace (- 0) with 0 in Nn' by ring; auto).
      rewrite Z. ring.
    - replace (- (1) * (E2 - E1)) with (E1 - E2) in * by ring. destruct (Qc_abs_cases (E1 - E2)) as [[C ->]|[C ->]]; auto. exfalso. apply (Qclt_not_le _ _ C Nn').
  Qed.

  Lemma sums_sumQ {A} : forall (h : A -> Qc) l, sums h l = sumQ (map h l).
  Proof. induction l as [|x l IH]; auto. rewrite sums_cons, IH. reflexivity. Qed.
  Lemma half_twice : forall z, (1 + 1) * qch z + 1 = QcZ (z + 1).
  Proof. intros z. unfold qch, QcZ. apply Qc_is_canon. cbn [this Qcplus Qcmult Q2Qc]. rewrite !Qred_correct. unfold Qeq, inject_Z, Qplus, Qmult. cbn [Qnum Qden this Q2Qc]. lia. Qed.

  (** The weighted mean of the hyperfine levels of a level. *)
  Lemma mean_HF : forall s a l j bs w, WF s -> lv s a = Some l -> l_kind l = LE -> l_attached l = true -> l_J l = Some j -> sublevels Exact a s = (Ok bs, s) ->
    (forall b lb f, In b bs -> lv s b = Some lb -> l_F lb = Some f -> w b = frac (f + 1) (j + 1)) ->
    sums (fun b => en s b * w b) bs = QcZ (s_I s + 1) * l_E l.
  Proof.
    intros s a l j bs w W V K At J S Hw. destruct (sublevels_F Exact s a l j W V K At J) as [bs' [s' [Q [_ [_ [F _]]]]]]. rewrite S in Q. injection Q as <- <-.
    destruct (wf_J _ _ _ _ W V) as [j' [Ej Hj]]. assert (j' = j) by congruence. subst j'. pose proof (wf_I _ _ W) as HI.
    transitivity (sums (fun f => frac 1 (j + 1) * (((1 + 1) * qch f + 1) * (l_E l + hf_shift Exact (s_I s) j f (l_hfA l) (l_hfB l) (l_hfC l)))) (F_range j (s_I s))).
    - eapply sums_Forall2; [exact F|]. intros f b Ib [_ [lb [B1 [B2 [B3 [B4 [B5 _]]]]]]].
      rewrite (Hw b lb f) by auto. unfold en, energy. rewrite B1, B2. unfold energyHF. rewrite B1, B3, B4, B5, V. unfold energyE. rewrite V, K.
      rewrite half_twice. unfold frac. rewrite !QcZ_1. unfold Qcdiv. cbn [nadd Exact]. ring.
    - rewrite sums_scale, sums_sumQ, mean_energy by auto. rewrite !half_twice. unfold frac. rewrite QcZ_1. field. apply QcZ_nz. lia.
  Qed.

  (** The hyperfine lines, all sum rules given. *)
  Lemma centred_HF : forall s t x v u cs s' m1 m2 j1 j2 bs1 bs2, WF s -> tr s t = Some x -> x_kind x = TT -> x_subs x = [] -> x_A x = Some (v, u) ->
    subtransitions Exact muB t s = (Ok cs, s') -> lv s' (x_E1 x) = Some m1 -> lv s' (x_E2 x) = Some m2 -> l_J m1 = Some j1 -> l_J m2 = Some j2 ->
    sublevels Exact (x_E1 x) s' = (Ok bs1, s') -> sublevels Exact (x_E2 x) s' = (Ok bs2, s') -> separate muB s' bs1 bs2 ->
    (forall c, In c cs -> exists y, tr s' c = Some y /\ 0 <= x_rel y) ->
    (forall b lb f, In b bs1 -> lv s' b = Some lb -> l_F lb = Some f -> sums (rel_strength s') (at_1 s' b cs) = frac (f + 1) (j1 + 1)) ->
    (forall b lb f, In b bs2 -> lv s' b = Some lb -> l_F lb = Some f -> sums (rel_strength s') (at_2 s' b cs) = frac (f + 1) (j2 + 1)) ->
    sums (fun c => rel_strength s' c * position s' c) cs = QcZ (s_I s' + 1) * position s' t.
  Proof.
    intros s t x v u cs s' m1 m2 j1 j2 bs1 bs2 W V K X A E M1 M2 J1 J2 S1 S2 Sp Nn H1 H2. assert (K' : x_kind x <> TZ) by congruence.
    destruct (listed_exact Exact muB s t x cs s' W V K' X E) as [bs1' [bs2' [S1' [S2' [D1 [D2 [Dc [I' [W' [O [U [m1' [m2' [M1' [M2' [At1 [At2 [Kk1 Kk2]]]]]]]]]]]]]]]]]].
    assert (m1' = m1) by congruence. assert (m2' = m2) by congruence. assert (bs1' = bs1) by congruence. assert (bs2' = bs2) by congruence. subst. rewrite K in Kk1, Kk2. cbn [lk] in Kk1, Kk2.
    destruct (safe_Ok _ _ _ _ _ _ _ (subtransitions_safe Exact muB s t x W V) E) as [_ [L _]].
    destruct (ext_tr _ _ _ (look_ext _ _ _ L) _ _ V) as [x' [V' Sx]]. destruct Sx as [_ [_ [Q1 [Q2 _]]]].
    assert (Pt : position s' t = Qc_abs (l_E m1 - l_E m2)).
    { unfold position, freq. rewrite V', Q1, Q2. unfold energy. rewrite M1, M2, Kk1, Kk2. unfold energyE. rewrite M1, M2, Kk1, Kk2. reflexivity. }
    rewrite Pt. apply (centred s' cs bs1 bs2); auto.
    - intros c I. destruct (O c I) as [y [l1 [l2 [V0 [I1 [I2 [V1 [V2 _]]]]]]]]. destruct (wf_energy Exact muB s' _ _ W' V1) as [u1 U1]. destruct (wf_energy Exact muB s' _ _ W' V2) as [u2 U2].
      destruct (Nn c I) as [y' [V0' Hr]]. assert (y' = y) by congruence. subst y'. exists y, l1, l2, u1, u2. repeat (split; [assumption|]). exact Hr.
    - pose proof (wf_I _ _ W') as HI. unfold Qclt, QcZ. rewrite (Qred_correct (inject_Z (s_I s' + 1))). unfold Qlt. cbn. lia.
    - eapply mean_HF; eauto.
    - eapply mean_HF; eauto.
  Qed.
End Centre.

(** An E1 or M1 transition with an A coefficient: the hyperfine lines are
    centred on it, each counted with its relative strength; these add up to
    2I + 1.  [separate]: all sublevels of the one level are above all those of
    the other. *)
Theorem C152_hyperfine_partial : forall muB orc, (forall n, oracle_ok (orc n)) -> forall s, reachable Exact muB orc s ->
  forall t x v cs s' m1 m2 j1 j2, tr s t = Some x -> x_kind x = TT -> x_subs x = [] -> x_A x = Some v ->
  aE1 (x_allowed x) = true \/ aM1 (x_allowed x) = true -> subtransitions Exact muB t s = (Ok cs, s') ->
  lv s' (x_E1 x) = Some m1 -> lv s' (x_E2 x) = Some m2 -> l_J m1 = Some j1 -> l_J m2 = Some j2 -> triangle j1 j2 2 ->
  exists bs1 bs2, sublevels Exact (x_E1 x) s' = (Ok bs1, s') /\ sublevels Exact (x_E2 x) s' = (Ok bs2, s') /\
  (separate muB s' bs1 bs2 ->
    sums (rel_strength s') cs = QcZ (s_I s' + 1) /\
    sums (fun c => rel_strength s' c * position muB s' c) cs = sums (rel_strength s') cs * position muB s' t).
Proof.
  intros muB orc OK s R t x v cs s' m1 m2 j1 j2 V K X A D E M1 M2 J1 J2 T.
  destruct (C36_sum_rule_partial muB orc OK s R t x v cs s' m1 m2 j1 j2 V K X A D E M1 M2 J1 J2 T) as [bs1 [bs2 [S1 [S2 H]]]]. exists bs1, bs2. split; auto. split; auto.
  intros Sp. destruct (H Sp) as [H1 [H2 H3]]. split; auto. rewrite H3. destruct v as [v u].
  eapply (centred_HF muB s t x v u); eauto; [exact (reachable_WF Exact muB orc OK s R)|].
  intros c I. destruct (C38_rate muB orc OK s R t x v u cs s' V X A E c I) as [y [Vy [_ Hr]]]. eauto.
Qed.
(** The same for E2 lines. *)
Theorem C152_quadrupole_partial : forall muB orc, (forall n, oracle_ok (orc n)) -> forall s, reachable Exact muB orc s ->
  forall t x v cs s' m1 m2 j1 j2, tr s t = Some x -> x_kind x = TT -> x_subs x = [] -> x_A x = Some v ->
  x_allowed x = (false, false, true) -> subtransitions Exact muB t s = (Ok cs, s') ->
  lv s (x_E1 x) = Some m1 -> lv s (x_E2 x) = Some m2 -> l_J m1 = Some j1 -> l_J m2 = Some j2 -> Z.even (j1 + j2) = true ->
  exists bs1 bs2, sublevels Exact (x_E1 x) s' = (Ok bs1, s') /\ sublevels Exact (x_E2 x) s' = (Ok bs2, s') /\
  (separate muB s' bs1 bs2 ->
    sums (rel_strength s') cs = QcZ (s_I s' + 1) /\
    sums (fun c => rel_strength s' c * position muB s' c) cs = sums (rel_strength s') cs * position muB s' t).
Proof.
  intros muB orc OK s R t x v cs s' m1 m2 j1 j2 V K X A D E M1 M2 J1 J2 Ev. pose proof (reachable_WF Exact muB orc OK s R) as W.
  destruct (C106_hyperfine_partial muB orc OK s R t x v cs s' m1 m2 j1 j2 V K X A D E M1 M2 J1 J2 Ev) as [bs1 [bs2 [S1 [S2 H]]]]. exists bs1, bs2. split; auto. split; auto.
  intros Sp. destruct (H Sp) as [H1 [H2 H3]]. split; auto. rewrite H3. destruct v as [v u].
  destruct (safe_Ok _ _ _ _ _ _ _ (subtransitions_safe Exact muB s t x W V) E) as [_ [L _]].
  destruct (ext_lv _ _ _ (look_ext _ _ _ L) _ _ M1) as [n1 [N1 Y1]]. destruct (ext_lv _ _ _ (look_ext _ _ _ L) _ _ M2) as [n2 [N2 Y2]].
  destruct (lsame_names _ _ _ Y1) as [_ [_ [_ [Z1 _]]]]. destruct (lsame_names _ _ _ Y2) as [_ [_ [_ [Z2 _]]]].
  eapply (centred_HF muB s t x v u); eauto; try congruence.
  intros c I. destruct (C38_rate muB orc OK s R t x v u cs s' V X A E c I) as [y [Vy [_ Hr]]]. eauto.
Qed.

(** ** Zeeman lines *)

Section Zeeman.
  Context (muB : num Exact).
  Implicit Types (s : st Exact).
  (** The sublevels [bs] have no quadratic shift. *)
  Definition linear s (bs : list nat) : Prop := forall b l, In b bs -> lv s b = Some l -> l_qz l = 0.

  Lemma mean_Z : forall s a l j f bs w, WF s -> lv s a = Some l -> l_kind l = LHF -> l_J l = Some j -> l_F l = Some f -> sublevels Exact a s = (Ok bs, s) -> linear s bs -> sib Exact s ->
    (forall b, In b bs -> w b = frac 1 (f + 1)) -> sums (fun b => en muB s b * w b) bs = 1 * en muB s a.
  Proof.
    intros s a l j f bs w W V K J F S Hq Sb Hw. destruct (sublevels_mF Exact s a l j f W V K J F) as [bs' [s' [Q [_ [_ [G _]]]]]]. rewrite S in Q. injection Q as <- <-.
    assert (Eb : dvals (l_subs l) = bs).
    { assert (Q : fst (sublevels Exact a s) = Ok bs) by (now rewrite S). assert (Q' : snd (sublevels Exact a s) = s) by (now rewrite S).
      unfold sublevels in Q, Q'. unfold bind at 1 in Q. unfold bind at 1 in Q'. destruct (lazy_sublevels Exact a s) as [[u|e] s0]; [|discriminate Q].
      unfold get_lv, bind, asks in Q, Q'. destruct (lv s0 a) as [l0|] eqn:V0; [|discriminate Q]. cbn [ret fst snd] in Q, Q'. subst s0. rewrite V in V0.
      assert (l0 = l) by congruence. subst l0. now injection Q. }
    destruct (sib_g Exact s a l Sb W V K) as [g Hgg]. rewrite Eb in Hgg.
    assert (Hg : forall b lb, In b bs -> lv s b = Some lb -> l_gF lb = g /\ l_qz lb = 0) by (intros b lb Ib Vb; split; eauto).
    destruct (wf_energyHF Exact s a l W V K) as [p [lp [j' [f' [P [Vp [Kp [J' [F' [If [_ EF]]]]]]]]]]]. assert (f' = f) by congruence. subst f'. assert (j' = j) by congruence. subst j'.
    set (e := nadd Exact (l_E lp) (hf_shift Exact (s_I s) j f (l_hfA lp) (l_hfB lp) (l_hfC lp))) in *.
    assert (Ea : en muB s a = e) by (unfold en, energy; now rewrite V, K, EF).
    assert (Hf : (0 <= f)%Z). { destruct (wf_J _ _ _ _ W V) as [j' [Ej Hj]]. assert (j' = j) by congruence. subst j'. pose proof (wf_I _ _ W) as HI. apply F_range_In in If; auto. apply tri_elim in If as [? [? [? T]]]. lia. }
    transitivity (sums (fun m => frac 1 (f + 1) * (e + z_shift Exact muB g m (s_B s) 0)) (mF_range f)).
    - eapply sums_Forall2; [exact G|]. intros m b Ib [_ [lb [B1 [B2 [B3 [B4 [B5 [B6 _]]]]]]]]. rewrite (Hw b Ib). destruct (Hg b lb Ib B1) as [Hg1 Hg2].
      unfold en, energy. rewrite B1, B2. unfold energyZ. rewrite B1, B3, B6, EF, Hg1, Hg2. cbn [nadd Exact]. ring.
    - rewrite sums_scale, sums_add. rewrite (sums_sumQ (fun m => z_shift Exact muB g m (s_B s) 0)), z_sum_zero by auto. rewrite sums_const.
      replace (Z.of_nat (List.length (mF_range f))) with (f + 1)%Z by (rewrite mF_range_length; lia). rewrite Ea. unfold frac. rewrite QcZ_1. field. apply QcZ_nz. lia.
  Qed.
End Zeeman.

(** The Zeeman lines of a hyperfine E1 or M1 line are centred on it, in any
    field, if no sublevel was given a quadratic shift. *)
Theorem C152_zeeman_partial : forall muB orc, (forall n, oracle_ok (orc n)) -> forall s, reachable Exact muB orc s ->
  forall t x v cs s' m1 m2 f1 f2, tr s t = Some x -> x_kind x = THF -> x_subs x = [] -> x_A x = Some v ->
  aE1 (x_allowed x) = true \/ aM1 (x_allowed x) = true -> subtransitions Exact muB t s = (Ok cs, s') ->
  lv s' (x_E1 x) = Some m1 -> lv s' (x_E2 x) = Some m2 -> l_F m1 = Some f1 -> l_F m2 = Some f2 ->
  exists bs1 bs2, sublevels Exact (x_E1 x) s' = (Ok bs1, s') /\ sublevels Exact (x_E2 x) s' = (Ok bs2, s') /\
  (separate muB s' bs1 bs2 -> linear s' bs1 -> linear s' bs2 ->
    sums (rel_strength s') cs = 1 /\ sums (fun c => rel_strength s' c * position muB s' c) cs = position muB s' t).
Proof.
  intros muB orc OK s R t x v cs s' m1 m2 f1 f2 V K X A D E M1 M2 F1 F2. pose proof (reachable_WF Exact muB orc OK s R) as W.
  destruct (C37_sum_rule_partial muB orc OK s R t x v cs s' m1 m2 f1 f2 V K X A D E M1 M2 F1 F2) as [bs1 [bs2 [S1 [S2 H]]]]. exists bs1, bs2. split; auto. split; auto.
  intros Sp L1 L2. destruct (H Sp) as [H1 [H2 H3]]. split; auto. destruct v as [v u]. assert (K' : x_kind x <> TZ) by congruence.
  destruct (listed_exact Exact muB s t x cs s' W V K' X E) as [bs1' [bs2' [S1' [S2' [D1 [D2 [Dc [I' [W' [O [U [m1' [m2' [M1' [M2' [At1 [At2 [Kk1 Kk2]]]]]]]]]]]]]]]]]].
  assert (m1' = m1) by congruence. assert (m2' = m2) by congruence. assert (bs1' = bs1) by congruence. assert (bs2' = bs2) by congruence. subst. rewrite K in Kk1, Kk2. cbn [lk] in Kk1, Kk2.
  destruct (safe_Ok _ _ _ _ _ _ _ (subtransitions_safe Exact muB s t x W V) E) as [_ [L _]].
  destruct (ext_tr _ _ _ (look_ext _ _ _ L) _ _ V) as [x' [V' Sx]]. destruct Sx as [_ [_ [Q1 [Q2 _]]]].
  destruct (wf_energy Exact muB s' _ _ W' M1) as [e1 Ee1]. destruct (wf_energy Exact muB s' _ _ W' M2) as [e2 Ee2].
  assert (Pt : position muB s' t = 1 * Qc_abs (en muB s' (x_E1 x) - en muB s' (x_E2 x))).
  { unfold position, freq, en. rewrite V', Q1, Q2, Ee1, Ee2. cbn [nabs nsub Exact]. ring. }
  assert (Sb : sib Exact s').
  { pose proof (kk_subtransitions Exact muB t s (reachable_sib Exact muB orc s R)) as Q. now rewrite E in Q. }
  rewrite Pt. destruct (wf_J _ _ _ _ W' M1) as [j1 [J1 _]]. destruct (wf_J _ _ _ _ W' M2) as [j2 [J2 _]]. apply (centred muB s' cs bs1 bs2); auto.
  - intros c I. destruct (O c I) as [y [l1 [l2 [V0 [I1 [I2 [V1 [V2 _]]]]]]]]. destruct (wf_energy Exact muB s' _ _ W' V1) as [u1 U1]. destruct (wf_energy Exact muB s' _ _ W' V2) as [u2 U2].
    destruct (C38_rate muB orc OK s R t x v u cs s' V X A E c I) as [y' [Vy [_ Hr]]]. assert (y' = y) by congruence. subst y'. exists y, l1, l2, u1, u2. repeat (split; [assumption|]). exact Hr.
  - reflexivity.
  - eapply (mean_Z muB s' _ m1 j1 f1); eauto.
  - eapply (mean_Z muB s' _ m2 j2 f2); eauto.
Qed.

(** I = 1/2 and two levels of J = 1/2 with hyperfine constants 8 and 4. *)
Definition splitting : st Exact := runx (from 1) [ONewLevel Exact [tS] 0%Qc (Q2Qc 8) 0%Qc 0%Qc (Q2Qc 2) None false; add 0; ONewLevel Exact [tP] (Q2Qc 100) (Q2Qc 4) 0%Qc 0%Qc (Q2Qc 1) None false; add 1;
  OSetB Exact (Q2Qc 3); ONewTransition Exact 0 1 None (Some (1%Qc, uHz)) None].
(** Relative strength and frequency of the lines of [t]. *)
Definition comb (s : st Exact) (t : nat) : list (Q * Q) :=
  let s' := snd (subtransitions Exact 1%Qc t s) in
  match fst (subtransitions Exact 1%Qc t s) with Ok cs => map (fun c => (this (rel_strength s' c), this (position 1%Qc s' c))) cs | Raise _ => [] end.
Example C152_case : reachable Exact 1%Qc plain splitting /\
  option_map (fun x => (x_kind x, x_allowed x, x_subs x, x_E1 x, x_E2 x)) (tr splitting 0) = Some (TT, (true, false, false), [], 0%nat, 1%nat) /\
  (let s' := snd (subtransitions Exact 1%Qc 0 splitting) in
   fst (sublevels Exact 0 s') = Ok [2; 3]%nat /\ fst (sublevels Exact 1 s') = Ok [4; 5]%nat /\ apartb s' [2; 3]%nat [4; 5]%nat = true /\ this (position 1%Qc s' 0) = 100%Q) /\
  comb splitting 0 = [(1 # 2, 107 # 1); (1 # 2, 95 # 1); (1, 99 # 1)]%Q.
Proof. split; [apply from_reachable; lia|]. split; [vm_compute; reflexivity|]. split; [cbv zeta; do 3 (split; [vm_compute; reflexivity|]); vm_compute; reflexivity|]. vm_compute. reflexivity. Qed.
(** An E2 transition between J = 1/2 and J = 5/2. *)
Example C152_quadrupole_case :
  let s := rated 1 [ONewLevel Exact [tS] 0%Qc (Q2Qc 8) 0%Qc 0%Qc (Q2Qc 2) None false; add 0; ONewLevel Exact [tD5] (Q2Qc 100) (Q2Qc 4) 0%Qc 0%Qc (Q2Qc 1) None false; add 1] in
  let s' := snd (subtransitions Exact 1%Qc 0 s) in reachable Exact 1%Qc plain s /\
  option_map (fun x => (x_kind x, x_allowed x, x_subs x, x_E1 x, x_E2 x)) (tr s 0) = Some (TT, (false, false, true), [], 0%nat, 1%nat) /\
  fst (sublevels Exact 0 s') = Ok [2; 3]%nat /\ fst (sublevels Exact 1 s') = Ok [4; 5]%nat /\ apartb s' [2; 3]%nat [4; 5]%nat = true /\
  this (position 1%Qc s' 0) = 100%Q /\ comb s 0 = [(1 # 2, 99); (1 # 3, 91); (7 # 6, 103)]%Q.
Proof. cbv zeta. split; [apply from_reachable; lia|]. do 5 (split; [vm_compute; reflexivity|]). vm_compute. reflexivity. Qed.
(** The line F=1 - F'=1 of [splitting], in a field of 3. *)
Example C152_zeeman_case : let s := runx splitting [OSubtransitions Exact 0] in let s' := snd (subtransitions Exact 1%Qc 4 s) in
  reachable Exact 1%Qc plain s /\
  option_map (fun x => (x_kind x, x_allowed x, x_subs x, x_E1 x, x_E2 x)) (tr s 4) = Some (THF, (true, false, false), [], 3%nat, 5%nat) /\
  fst (sublevels Exact 3 s') = Ok [6; 7; 8]%nat /\ fst (sublevels Exact 5 s') = Ok [9; 10; 11]%nat /\ apartb s' [6; 7; 8]%nat [9; 10; 11]%nat = true /\
  map (fun b => match lv s' b with Some l => (this (l_gF l), this (l_qz l)) | None => (0, 0)%Q end) [6; 7; 8; 9; 10; 11]%nat = [(1, 0); (1, 0); (1, 0); (1 # 2, 0); (1 # 2, 0); (1 # 2, 0)]%Q /\
  this (position 1%Qc s' 4) = 99%Q /\ comb s 4 = [(1 # 6, 201 # 2); (1 # 6, 102); (1 # 6, 195 # 2); (1 # 6, 201 # 2); (1 # 6, 96); (1 # 6, 195 # 2)]%Q.
Proof. cbv zeta. split; [apply more_reachable, from_reachable; lia|]. do 6 (split; [vm_compute; reflexivity|]). vm_compute. reflexivity. Qed.

(** Overlapping structures lose lines (C34), and the rest is not centred: both
    lines are at 24, the transition at 1. *)
Theorem C152_overlap_refuted : exists s, reachable Exact 1%Qc plain s /\
  option_map (fun x => (x_kind x, x_allowed x, x_subs x, x_E1 x, x_E2 x)) (tr s 0) = Some (TT, (true, false, false), [], 0%nat, 1%nat) /\
  this (position 1%Qc (snd (subtransitions Exact 1%Qc 0 s)) 0) = 1%Q /\ comb s 0 = [(1 # 2, 24); (1, 24)]%Q.
Proof.
  exists (rated 1 [ONewLevel Exact [tS] 0%Qc (Q2Qc 100) 0%Qc 0%Qc 0%Qc None false; add 0; nl tP 1; add 1]). split; [apply from_reachable; lia|].
  do 2 (split; [vm_compute; reflexivity|]). vm_compute. reflexivity.
Qed.
Print Assumptions C152_hyperfine_partial.
Print Assumptions C152_quadrupole_partial.
Print Assumptions C152_zeeman_partial.
Print Assumptions C152_overlap_refuted.
