(** The hyperfine sum rule for pure E2 transitions. *)
From Coq Require Import List Bool ZArith QArith Qcanon Lia String Ascii Permutation Sorted.
From Verif Require Import Base PyStr Util UtilProofs Parse Term TermProofs Num Wigner WignerProofs WignerOne WignerSym Hyperfine HyperfineProofs
  Graph GraphProofs DfsProofs Rules RulesProofs StrengthSums StrengthPos WignerNorm Atom AtomInv AtomSafe AtomSafe2 AtomSafe3 AtomSafe4 AtomSafe5 AtomSafe6 AtomLevels AtomKeep AtomPaths
  AtomSub AtomTrans AtomStrength.
Import ListNotations.

Definition quadrupole (a : types) : Prop := aE1 a = false /\ aM1 a = false /\ aE2 a = true.
Lemma hf_quad : forall a i j1 j2 f1 f2, quadrupole a -> hf_factor a i j1 j2 f1 f2 = (QcZ (f1 + 1) * (QcZ (f2 + 1) * w6sq i j2 f2 4 f1 j1))%Qc.
Proof.
  intros a i j1 j2 f1 f2 [H1 [H2 H3]]. unfold hf_factor. rewrite H1, H2, H3. cbn [orb].
  rewrite QcZ_mul, w6_turn, (w6sq_flip i j1), (w6sq_cols' i f2). ring.
Qed.
Lemma quad_from : forall a i j1 j2 f1, quadrupole a -> (0 <= i)%Z -> (0 <= j2)%Z -> tri i j1 f1 = true -> tri j1 j2 4 = true ->
  sums (hf_factor a i j1 j2 f1) (F_range j2 i) = frac (f1 + 1) (j1 + 1).
Proof.
  intros a i j1 j2 f1 H Hi H2 T1 T2. rewrite (sums_ext _ (fun f2 => QcZ (f1 + 1) * (QcZ (f2 + 1) * w6sq i j2 f2 4 f1 j1))%Qc) by (intros; now apply hf_quad).
  rewrite sums_scale, w6_norm.
  - unfold frac. rewrite QcZ_1. unfold Qcdiv. ring.
  - now rewrite tri_23.
  - now rewrite tri_12, tri_23, tri_12.
  - apply F_range_nodup.
  - intros f2 T _. apply F_range_In; auto. now rewrite tri_12.
Qed.
Lemma quad_to : forall a i j1 j2 f2, quadrupole a -> (0 <= i)%Z -> (0 <= j1)%Z -> tri i j2 f2 = true -> tri j1 j2 4 = true ->
  sums (fun f1 => hf_factor a i j1 j2 f1 f2) (F_range j1 i) = frac (f2 + 1) (j2 + 1).
Proof.
  intros a i j1 j2 f2 H Hi H1 T1 T2. rewrite (sums_ext _ (hf_factor a i j2 j1 f2)) by (intros; apply hf_sym). apply quad_from; auto. now rewrite tri_12.
Qed.
Lemma quad_total : forall a i j1 j2, quadrupole a -> (0 <= i)%Z -> (0 <= j1)%Z -> (0 <= j2)%Z -> tri j1 j2 4 = true ->
  sums (fun f1 => sums (hf_factor a i j1 j2 f1) (F_range j2 i)) (F_range j1 i) = QcZ (i + 1).
Proof.
  intros a i j1 j2 H Hi H1 H2 T. rewrite (sums_ext _ (fun f => frac 1 (j1 + 1) * QcZ (f + 1))%Qc).
  - rewrite sums_scale, sum_F by auto. unfold frac. rewrite QcZ_mul, QcZ_1. field. apply QcZ_nz. lia.
  - intros f I. apply F_range_In in I; auto. rewrite quad_from; auto; [|now rewrite tri_12].
    unfold frac. rewrite QcZ_1. unfold Qcdiv. ring.
Qed.

Lemma factor_quad : forall x s' b1 b2 l1 l2, quadrupole (x_allowed x) -> x_kind x = TT -> WF s' -> lv s' b1 = Some l1 -> lv s' b2 = Some l2 -> l_kind l1 = LHF -> l_kind l2 = LHF ->
  sub_factor Exact s' x l1 l2 <> 0%Qc -> pair_filter Exact s' x (b1, b2) = true /\ any_type (sub_allowed Exact s' x l1 l2) = true.
Proof.
  intros x s' b1 b2 l1 l2 Dp K W' V1 V2 K1 K2 Nz. rewrite exact_factor, K in Nz.
  destruct (wf_F _ _ _ _ W' V1) as [j1 [f1 [J1 [F1 _]]]]; [congruence|]. destruct (wf_F _ _ _ _ W' V2) as [j2 [f2 [J2 [F2 _]]]]; [congruence|].
  rewrite J1, J2, F1, F2 in Nz. cbn [onum] in Nz. pose proof Dp as [A1 [A2 A3]].
  assert (Nq : w6sq j1 j2 4 f2 f1 (s_I s') <> 0%Qc).
  { intros Z. apply Nz. unfold hf_factor. rewrite A1, A2, A3. cbn [orb]. rewrite w6sq_strength, Z. apply Qcmult_0_r. }
  apply w6nz_sq in Nq. destruct (w6nz_tri _ _ _ _ _ _ Nq) as [_ [_ [_ [[T _] _]]]]. split.
  - unfold pair_filter. cbn [fst snd]. rewrite V1, V2. unfold pair_attr. rewrite K, F1, F2.
    unfold pair_ok. rewrite A2, A3. cbn [negb andb]. destruct (any_type (x_allowed x)); auto. apply Z.leb_le. lia.
  - unfold sub_allowed. rewrite K, J1, J2, F1, F2. cbn [onum]. unfold any_type, allowed_HF, aE2. cbn [snd]. rewrite Nq. unfold aE2 in A3. rewrite A3. apply orb_true_r.
Qed.

Lemma sum_rule_quad : forall muB s t x cs s' v m1 m2 j1 j2, WF s -> tr s t = Some x -> x_kind x = TT -> x_subs x = [] -> x_A x = Some v -> quadrupole (x_allowed x) ->
  subtransitions Exact muB t s = (Ok cs, s') -> lv s' (x_E1 x) = Some m1 -> lv s' (x_E2 x) = Some m2 -> l_J m1 = Some j1 -> l_J m2 = Some j2 -> tri j1 j2 4 = true ->
  exists bs1 bs2, sublevels Exact (x_E1 x) s' = (Ok bs1, s') /\ sublevels Exact (x_E2 x) s' = (Ok bs2, s') /\
  (separate muB s' bs1 bs2 ->
    (forall b lb f, In b bs1 -> lv s' b = Some lb -> l_F lb = Some f -> sums (rel_strength s') (at_1 s' b cs) = frac (f + 1) (j1 + 1)) /\
    (forall b lb f, In b bs2 -> lv s' b = Some lb -> l_F lb = Some f -> sums (rel_strength s') (at_2 s' b cs) = frac (f + 1) (j2 + 1)) /\
    sums (rel_strength s') cs = QcZ (s_I s' + 1)).
Proof.
  intros muB s t x cs s' v m1 m2 j1 j2 W V K X A Dp E M1 M2 J1 J2 T.
  assert (K' : x_kind x <> TZ) by congruence.
  destruct (listed_exact Exact muB s t x cs s' W V K' X E) as [bs1 [bs2 [S1 [S2 [D1 [D2 [Dc [I' [W' [O [U [m1' [m2' [M1' [M2' [At1 [At2 [Kk1 Kk2]]]]]]]]]]]]]]]]]].
  assert (m1' = m1) by congruence. assert (m2' = m2) by congruence. subst m1' m2'. rewrite K in Kk1, Kk2. cbn [lk] in Kk1, Kk2.
  exists bs1, bs2. split; auto. split; auto. intros [below Ap].
  destruct (sublevels_F Exact s' _ m1 j1 W' M1 Kk1 At1 J1) as [c1 [z1 [Q1 [_ [_ [F1 _]]]]]]. rewrite S1 in Q1. injection Q1 as <- <-.
  destruct (sublevels_F Exact s' _ m2 j2 W' M2 Kk2 At2 J2) as [c2 [z2 [Q2 [_ [_ [F2 _]]]]]]. rewrite S2 in Q2. injection Q2 as <- <-.
  assert (L1 : forall b, In b bs1 -> exists lb f, lv s' b = Some lb /\ l_kind lb = LHF /\ l_J lb = Some j1 /\ l_F lb = Some f).
  { intros b I. destruct (Forall2_In_r _ _ _ _ F1 I) as [f [_ [_ [lb [B1 [B2 [_ [B3 [B4 _]]]]]]]]]. exists lb, f. auto. }
  assert (L2 : forall b, In b bs2 -> exists lb f, lv s' b = Some lb /\ l_kind lb = LHF /\ l_J lb = Some j2 /\ l_F lb = Some f).
  { intros b I. destruct (Forall2_In_r _ _ _ _ F2 I) as [f [_ [_ [lb [B1 [B2 [_ [B3 [B4 _]]]]]]]]]. exists lb, f. auto. }
  destruct (sum_at s' x cs bs1 bs2 v A Dc D1 D2 O U) as [H1 [H2 H3]].
  { intros b1 b2 l1 l2 I1 I2 V1 V2 Nz. destruct (L1 b1 I1) as [l1' [f1 [B1 [B2 _]]]]. destruct (L2 b2 I2) as [l2' [f2 [B1' [B2' _]]]].
    assert (l1' = l1) by congruence. assert (l2' = l2) by congruence. subst.
    destruct (factor_quad x s' b1 b2 l1 l2 Dp K W' V1 V2 B2 B2' Nz) as [P An].
    exact (nothing_missing Exact muB s t x cs s' W V K' X E bs1 bs2 below S1 S2 Ap b1 b2 l1 l2 I1 I2 V1 V2 P An). }
  assert (Pf : forall b1 b2 l1 l2 f1 f2, lv s' b1 = Some l1 -> lv s' b2 = Some l2 -> l_J l1 = Some j1 -> l_J l2 = Some j2 -> l_F l1 = Some f1 -> l_F l2 = Some f2 ->
    pairf s' x b1 b2 = hf_factor (x_allowed x) (s_I s') j1 j2 f1 f2).
  { intros b1 b2 l1 l2 f1 f2 V1 V2 G1 G2 G3 G4. unfold pairf. rewrite V1, V2, exact_factor, K, G1, G2, G3, G4. reflexivity. }
  pose proof (wf_I _ _ W') as HI.
  destruct (wf_J _ _ _ _ W' M1) as [j1' [Ej1 Hj1]]. destruct (wf_J _ _ _ _ W' M2) as [j2' [Ej2 Hj2]].
  assert (j1' = j1) by congruence. assert (j2' = j2) by congruence. subst j1' j2'.
  split; [|split].
  - intros b lb f I Vb Ff. destruct (L1 b I) as [lb' [f' [B1 [B2 [B3 B4]]]]]. assert (lb' = lb) by congruence. subst lb'. assert (f' = f) by congruence. subst f'.
    rewrite H1 by auto. destruct (wf_tri_JF _ _ _ _ _ W' B1 ltac:(congruence) B3 B4) as [Tr [Hj Hf]].
    rewrite <- (quad_from (x_allowed x) (s_I s') j1 j2 f Dp HI Hj2 Tr T).
    eapply sums_Forall2; [exact F2|]. intros f2 b2 _ [_ [lb2 [C1 [_ [_ [C2 [C3 _]]]]]]]. eapply Pf; eauto.
  - intros b lb f I Vb Ff. destruct (L2 b I) as [lb' [f' [B1 [B2 [B3 B4]]]]]. assert (lb' = lb) by congruence. subst lb'. assert (f' = f) by congruence. subst f'.
    rewrite H2 by auto. destruct (wf_tri_JF _ _ _ _ _ W' B1 ltac:(congruence) B3 B4) as [Tr [Hj Hf]].
    rewrite <- (quad_to (x_allowed x) (s_I s') j1 j2 f Dp HI Hj1 Tr T).
    eapply sums_Forall2; [exact F1|]. intros f1 b1 _ [_ [lb1 [C1 [_ [_ [C2 [C3 _]]]]]]]. eapply Pf; eauto.
  - rewrite H3. rewrite <- (quad_total (x_allowed x) (s_I s') j1 j2 Dp HI Hj1 Hj2 T).
    eapply sums_Forall2; [exact F1|]. intros f1 b1 _ [_ [lb1 [C1 [_ [_ [C2 [C3 _]]]]]]].
    eapply sums_Forall2; [exact F2|]. intros f2 b2 _ [_ [lb2 [G1 [_ [_ [G2 [G3 _]]]]]]]. eapply Pf; eauto.
Qed.

(** A line between two levels that is only E2 changes J by two. *)
Lemma quad_tri : forall (s : st Exact) t x l1 l2 j1 j2, WF s -> tr s t = Some x -> x_kind x = TT -> quadrupole (x_allowed x) ->
  lv s (x_E1 x) = Some l1 -> lv s (x_E2 x) = Some l2 -> l_J l1 = Some j1 -> l_J l2 = Some j2 -> Z.even (j1 + j2) = true -> tri j1 j2 4 = true.
Proof.
  intros s t x l1 l2 j1 j2 W V K [Q1 [Q2 Q3]] V1 V2 J1 J2 Ev.
  destruct (wf_tr _ _ W _ _ V) as [n1 [n2 [N1 [N2 [_ [_ [_ Q]]]]]]]. assert (n1 = l1) by congruence. assert (n2 = l2) by congruence. subst.
  destruct Q as [[_ [_ Q]]|[p [xp [_ [_ [_ [Kx _]]]]]]]; [|rewrite K in Kx; destruct (x_kind xp); discriminate Kx].
  destruct Q as [i1 [i2 [E1 [E2 Al]]]]. assert (i1 = j1) by congruence. assert (i2 = j2) by congruence. subst.
  destruct (wf_J _ _ _ _ W V1) as [a [Ea Ha]]. destruct (wf_J _ _ _ _ W V2) as [b [Eb Hb]]. assert (a = j1) by congruence. assert (b = j2) by congruence. subst.
  rewrite Al in Q2, Q3. unfold allowed_T, aM1, aE2 in *. cbn [fst snd] in *.
  apply andb_true_iff in Q3 as [Q3 _]. apply andb_true_iff in Q3 as [Q3 Q4]. rewrite Q4, andb_true_r in Q2. apply Z.leb_le in Q3. apply Z.leb_gt in Q2.
  apply Z.even_spec in Ev. destruct Ev as [k Ev]. apply tri_spec. unfold triangle. split; [lia|]. exists (k + 2)%Z. lia.
Qed.
