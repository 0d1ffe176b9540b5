(** Properties C36-C38: strengths of hyperfine and Zeeman lines.  Angular
    momenta are doubled integers, so [frac (f + 1) (j + 1)] is (2F+1)/(2J+1). *)
From Coq Require Import List Bool ZArith QArith Qcanon Lia String Ascii Permutation Sorted.
From Verif Require Import Base PyStr Util UtilProofs Parse Term TermProofs Num Wigner WignerProofs WignerOne WignerSym Hyperfine HyperfineProofs
  Graph GraphProofs Rules RulesProofs StrengthSums StrengthPos Atom AtomInv AtomSafe AtomSafe2 AtomSafe3 AtomSafe5 AtomSafe6 AtomLevels AtomKeep AtomPaths
  AtomTrans AtomStrength AtomExample.
Import ListNotations.
Local Open Scope Z_scope.

(** C36, the sum rule of the numbers: over all F' for a fixed F, and all. *)
Theorem C36_spins : forall a i j1 j2, aE1 a = true \/ aM1 a = true -> 0 <= i -> 0 <= j1 -> 0 <= j2 -> triangle j1 j2 2 ->
  (forall f1, In f1 (F_range j1 i) -> sums (hf_factor a i j1 j2 f1) (F_range j2 i) = frac (f1 + 1) (j1 + 1)) /\
  (forall f2, In f2 (F_range j2 i) -> sums (fun f1 => hf_factor a i j1 j2 f1 f2) (F_range j1 i) = frac (f2 + 1) (j2 + 1)) /\
  sums (fun f1 => sums (hf_factor a i j1 j2 f1) (F_range j2 i)) (F_range j1 i) = QcZ (i + 1).
Proof.
  intros a i j1 j2 D Hi H1 H2 T. apply tri_spec in T. split; [|split].
  - intros f1 I. apply hf_from; auto. apply F_range_In in I; auto. now rewrite tri_12.
  - intros f2 I. apply hf_to; auto. apply F_range_In in I; auto. now rewrite tri_12.
  - now apply hf_total.
Qed.
Print Assumptions C36_spins.

(** C36.  [t], an E1 or M1 transition with an A coefficient, is listed for the
    first time; no sublevel of the one level is between two of the other. *)
Theorem C36_sum_rule_partial : forall muB orc, (forall n, oracle_ok (orc n)) -> forall s, reachable Exact muB orc s ->
  forall t x v cs s' m1 m2 j1 j2, tr s t = Some x -> x_kind x = TT -> x_subs x = [] -> x_A x = Some v ->
  aE1 (x_allowed x) = true \/ aM1 (x_allowed x) = true -> subtransitions Exact muB t s = (Ok cs, s') ->
  lv s' (x_E1 x) = Some m1 -> lv s' (x_E2 x) = Some m2 -> l_J m1 = Some j1 -> l_J m2 = Some j2 -> triangle j1 j2 2 ->
  exists bs1 bs2, sublevels Exact (x_E1 x) s' = (Ok bs1, s') /\ sublevels Exact (x_E2 x) s' = (Ok bs2, s') /\
  (separate muB s' bs1 bs2 ->
    (forall b lb f, In b bs1 -> lv s' b = Some lb -> l_F lb = Some f -> sums (rel_strength s') (at_1 s' b cs) = frac (f + 1) (j1 + 1)) /\
    (forall b lb f, In b bs2 -> lv s' b = Some lb -> l_F lb = Some f -> sums (rel_strength s') (at_2 s' b cs) = frac (f + 1) (j2 + 1)) /\
    sums (rel_strength s') cs = QcZ (s_I s' + 1)).
Proof.
  intros muB orc OK s R t x v cs s' m1 m2 j1 j2 V K X A D E M1 M2 J1 J2 T. apply tri_spec in T.
  exact (sum_rule_HF muB s t x cs s' v m1 m2 j1 j2 (reachable_WF Exact muB orc OK s R) V K X A D E M1 M2 J1 J2 T).
Qed.
Print Assumptions C36_sum_rule_partial.

Definition rated (i : Z) (os : list (op Exact)) : st Exact := runx (from i) (os ++ [ONewTransition Exact 0 1 None (Some (1%Qc, uHz)) None]).
(** The listed lines: numbers of the two sublevels, then relative strength. *)
Definition lines (num : level Exact -> option Z) (s : st Exact) (t : nat) : option (list (option Z * option Z * Qc)) :=
  let s' := snd (subtransitions Exact 1%Qc t s) in
  let F a := match lv s' a with Some l => num l | None => None end in
  match fst (subtransitions Exact 1%Qc t s) with
  | Ok cs => Some (map (fun c => match tr s' c with Some y => (F (x_E1 y), F (x_E2 y), rel_strength s' c) | None => (None, None, 0%Qc) end) cs)
  | Raise _ => None
  end.
Definition apartb (s : st Exact) (bs1 bs2 : list nat) : bool :=
  forallb (fun b1 => forallb (fun b2 => match energy Exact 1%Qc s b1, energy Exact 1%Qc s b2 with Some e1, Some e2 => nltb Exact e1 e2 | _, _ => true end) bs2) bs1.
Lemma apartb_ok : forall s bs1 bs2, apartb s bs1 bs2 = true -> separate 1%Qc s bs1 bs2.
Proof.
  intros s bs1 bs2 H. exists true. intros b1 b2 e1 e2 I1 I2 E1 E2. unfold apartb in H. rewrite forallb_forall in H. specialize (H _ I1). cbn beta in H.
  rewrite forallb_forall in H. specialize (H _ I2). cbn beta in H. now rewrite E1, E2 in H.
Qed.
Definition show (q : Qc) : Z * Z := (Qnum q, Zpos (Qden q)).
Example C36_case : let s := rated 1 os_two in
  option_map (fun x => (x_kind x, x_allowed x, x_subs x, x_E1 x, x_E2 x)) (tr s 0) = Some (TT, (true, false, false), [], 0%nat, 1%nat) /\
  (let s' := snd (subtransitions Exact 1%Qc 0 s) in
   fst (sublevels Exact 0 s') = Ok [2; 3]%nat /\ fst (sublevels Exact 1 s') = Ok [4; 5]%nat /\ apartb s' [2; 3]%nat [4; 5]%nat = true) /\
  option_map (map (fun l => (fst l, show (snd l)))) (lines (@l_F Exact) s 0) =
    Some [(Some 0, Some 2, (1, 2)); (Some 2, Some 0, (1, 2)); (Some 2, Some 2, (1, 1))].
Proof. vm_compute. repeat match goal with |- _ /\ _ => split end; reflexivity. Qed.

(** Overlapping hyperfine structure (C34_overlap_refuted): the lines starting
    from F=0 add up to 0 instead of 1/2. *)
Theorem C36_overlap_refuted : exists s, reachable Exact 1%Qc plain s /\
  option_map (fun x => (x_kind x, x_allowed x, x_subs x, x_E1 x, x_E2 x)) (tr s 0) = Some (TT, (true, false, false), [], 0%nat, 1%nat) /\
  option_map (@l_J Exact) (lv s 0) = Some (Some 1) /\ option_map (@l_J Exact) (lv s 1) = Some (Some 1) /\ s_I s = 1 /\ In 0 (F_range 1 1) /\
  option_map (map (fun l => (fst l, show (snd l)))) (lines (@l_F Exact) s 0) = Some [(Some 2, Some 0, (1, 2)); (Some 2, Some 2, (1, 1))].
Proof.
  exists (rated 1 [ONewLevel Exact [tS] 0%Qc (Q2Qc 100) 0%Qc 0%Qc 0%Qc None false; add 0; nl tP 1; add 1]).
  split; [apply from_reachable; lia|]. vm_compute. repeat match goal with |- _ /\ _ => split end; auto.
Qed.
Print Assumptions C36_overlap_refuted.

(** C37, the numbers. *)
Theorem C37_spins : forall a f1 f2, aE1 a = true \/ aM1 a = true -> 0 <= f1 -> 0 <= f2 -> triangle f1 f2 2 ->
  (forall m1, In m1 (mF_range f1) -> sums (z_factor a f1 f2 m1) (mF_range f2) = frac 1 (f1 + 1)) /\
  (forall m2, In m2 (mF_range f2) -> sums (fun m1 => z_factor a f1 f2 m1 m2) (mF_range f1) = frac 1 (f2 + 1)) /\
  sums (fun m1 => sums (z_factor a f1 f2 m1) (mF_range f2)) (mF_range f1) = 1%Qc.
Proof.
  intros a f1 f2 D H1 H2 T. apply tri_spec in T. rewrite tri_23 in T.
  assert (P : forall f m, In m (mF_range f) -> proj_ok f m = true).
  { intros f m I. apply mF_range_In in I. unfold proj_ok. rewrite andb_true_iff, Z.leb_le. split; [lia|tauto]. }
  split; [|split].
  - intros m1 I. apply z_from; auto.
  - intros m2 I. apply z_to; auto.
  - now apply z_total.
Qed.
Print Assumptions C37_spins.

(** C37.  The same for the Zeeman components of a hyperfine line. *)
Theorem C37_sum_rule_partial : forall muB orc, (forall n, oracle_ok (orc n)) -> forall s, reachable Exact muB orc s ->
  forall t x v cs s' m1 m2 f1 f2, tr s t = Some x -> x_kind x = THF -> x_subs x = [] -> x_A x = Some v ->
  aE1 (x_allowed x) = true \/ aM1 (x_allowed x) = true -> subtransitions Exact muB t s = (Ok cs, s') ->
  lv s' (x_E1 x) = Some m1 -> lv s' (x_E2 x) = Some m2 -> l_F m1 = Some f1 -> l_F m2 = Some f2 ->
  exists bs1 bs2, sublevels Exact (x_E1 x) s' = (Ok bs1, s') /\ sublevels Exact (x_E2 x) s' = (Ok bs2, s') /\
  (separate muB s' bs1 bs2 ->
    (forall b, In b bs1 -> sums (rel_strength s') (at_1 s' b cs) = frac 1 (f1 + 1)) /\
    (forall b, In b bs2 -> sums (rel_strength s') (at_2 s' b cs) = frac 1 (f2 + 1)) /\
    sums (rel_strength s') cs = 1%Qc).
Proof.
  intros muB orc OK s R t x v cs s' m1 m2 f1 f2 V K X A D E M1 M2 F1 F2.
  exact (sum_rule_Z muB s t x cs s' v m1 m2 f1 f2 (reachable_WF Exact muB orc OK s R) V K X A D E M1 M2 F1 F2).
Qed.
Print Assumptions C37_sum_rule_partial.

Definition split_up (i : Z) (os : list (op Exact)) : st Exact := runx (rated i os) [OSubtransitions Exact 0].
Example C37_case : let s := split_up 1 os_two in
  option_map (fun x => (x_kind x, x_allowed x, x_subs x, x_E1 x, x_E2 x)) (tr s 2) = Some (THF, (true, false, false), [], 2%nat, 5%nat) /\
  (let s' := snd (subtransitions Exact 1%Qc 2 s) in
   fst (sublevels Exact 2 s') = Ok [6]%nat /\ fst (sublevels Exact 5 s') = Ok [7; 8; 9]%nat /\ apartb s' [6]%nat [7; 8; 9]%nat = true) /\
  option_map (map (fun l => (fst l, show (snd l)))) (lines (@l_mF Exact) s 2) =
    Some [(Some 0, Some (-2), (1, 3)); (Some 0, Some 0, (1, 3)); (Some 0, Some 2, (1, 3))].
Proof. vm_compute. repeat match goal with |- _ /\ _ => split end; reflexivity. Qed.
(** Zeeman sublevels of the two levels cross in the field: the line from mF=0
    to mF=1 is missing, those from mF=0 add up to 1/6 instead of 1/3. *)
Theorem C37_overlap_refuted : exists s, reachable Exact 1%Qc plain s /\
  option_map (fun x => (x_kind x, x_allowed x, x_subs x, x_E1 x, x_E2 x)) (tr s 4) = Some (THF, (true, false, false), [], 3%nat, 5%nat) /\
  option_map (@l_F Exact) (lv s 3) = Some (Some 2) /\ option_map (@l_F Exact) (lv s 5) = Some (Some 2) /\
  option_map (map (fun l => (fst l, show (snd l)))) (lines (@l_mF Exact) s 4) =
    Some [(Some (-2), Some (-2), (1, 6)); (Some (-2), Some 0, (1, 6)); (Some 0, Some (-2), (1, 6)); (Some 2, Some 0, (1, 6)); (Some 2, Some 2, (1, 6))].
Proof.
  exists (split_up 1 [ONewLevel Exact [tS] 0%Qc 0%Qc 0%Qc 0%Qc (Q2Qc 2) None false; add 0; nl tP 1; add 1; OSetB Exact (Q2Qc 100)]).
  split; [apply more_reachable, from_reachable; lia|]. vm_compute. repeat match goal with |- _ /\ _ => split end; reflexivity.
Qed.
Print Assumptions C37_overlap_refuted.

(** C38.  Every line listed for the first time has its share of the parent's A
    coefficient; the share is not negative.  It is positive unless the parent
    is an M1 + E2 transition and the line itself only E2, or the line is an E2
    Zeeman component: then F is used twice in place of F and F'. *)
Theorem C38_rate : forall muB orc, (forall n, oracle_ok (orc n)) -> forall s, reachable Exact muB orc s ->
  forall t x v u cs s', tr s t = Some x -> x_subs x = [] -> x_A x = Some (v, u) -> subtransitions Exact muB t s = (Ok cs, s') ->
  forall c, In c cs -> exists y, tr s' c = Some y /\ x_A y = Some ((v * x_rel y)%Qc, u) /\ (0 <= x_rel y)%Qc.
Proof.
  intros muB orc OK s R t x v u cs s' V X A E c I. pose proof (reachable_WF Exact muB orc OK s R) as W.
  destruct (safe_Ok _ _ _ _ _ _ _ (subtransitions_safe Exact muB s t x W V) E) as [W' [L _]].
  destruct (ext_tr _ _ _ (look_ext _ _ _ L) _ _ V) as [x' [V' S]]. destruct S as [Sk _].
  destruct (listed_ends Exact muB s t cs s' x' W E V' c I) as [y [l1 [l2 [H1 [H2 [H3 [H4 [H5 [H6 _]]]]]]]]]. rewrite Sk in H3, H4.
  destruct (listed_exact Exact muB s t x cs s' W V H3 X E) as [bs1 [bs2 [_ [_ [_ [_ [_ [_ [_ [O _]]]]]]]]]].
  destruct (O c I) as [y' [l1' [l2' [G1 [_ [_ [G2 [G3 [G4 G5]]]]]]]]]. assert (y' = y) by congruence. subst y'.
  exists y. split; auto. rewrite A in G4, G5. cbn [option_map scale_A fst snd] in G5. split; [now rewrite G4|].
  rewrite G4. rewrite exact_factor. destruct (x_kind x) eqn:K; [| |congruence].
  - assert (Nn : forall b lb, lv s' b = Some lb -> l_kind lb = LHF -> 0 <= onum (l_F lb)).
    { intros b lb Vb Kb. destruct (wf_F _ _ _ _ W' Vb ltac:(congruence)) as [j [f [_ [Ef [_ Hf]]]]].
      now rewrite Ef. }
    destruct (wf_tr _ _ W' _ _ H1) as [n1 [n2 [Y1 [Y2 [Y3 [Y4 _]]]]]]. rewrite H4 in Y3, Y4. cbn [sub_tkind lk] in Y3, Y4.
    assert (n1 = l1') by congruence. assert (n2 = l2') by congruence. subst. apply hf_nonneg; eauto.
  - apply z_nonneg.
Qed.
Print Assumptions C38_rate.
Theorem C38_positive_partial : forall muB orc, (forall n, oracle_ok (orc n)) -> forall s, reachable Exact muB orc s ->
  forall t x v cs s', tr s t = Some x -> x_subs x = [] -> x_A x = Some v -> subtransitions Exact muB t s = (Ok cs, s') ->
  forall c, In c cs -> exists y l1 l2, tr s' c = Some y /\ lv s' (x_E1 y) = Some l1 /\ lv s' (x_E2 y) = Some l2 /\
  match x_kind x with
  | TT => (0 < x_rel y)%Qc <-> (dipole (x_allowed x) -> dipole (x_allowed y))
  | _ => exists f1 m1 m2, l_F l1 = Some f1 /\ l_mF l1 = Some m1 /\ l_mF l2 = Some m2 /\
      ((0 < x_rel y)%Qc <-> (dipole (x_allowed x) -> dipole (x_allowed y)) /\
        (dipole (x_allowed x) \/ exists h, - 2 <= h <= 2 /\ w3sq f1 4 f1 (- m1) (2 * h) m2 <> 0%Qc))
  end.
Proof.
  intros muB orc OK s R t x v cs s' V X A E c I. pose proof (reachable_WF Exact muB orc OK s R) as W.
  destruct v as [v u]. destruct (C38_rate muB orc OK s R t x v u cs s' V X A E c I) as [y0 [V0 [_ P]]].
  destruct (safe_Ok _ _ _ _ _ _ _ (subtransitions_safe Exact muB s t x W V) E) as [W' [L _]].
  destruct (ext_tr _ _ _ (look_ext _ _ _ L) _ _ V) as [x' [V' S]]. destruct S as [Sk [_ [_ [_ [_ [_ Sa]]]]]].
  destruct (listed_ends Exact muB s t cs s' x' W E V' c I) as [y [l1 [l2 [H1 [H2 [H3 [H4 [H5 [H6 [_ [_ [H7 H8]]]]]]]]]]]]. rewrite Sk in H3, H4.
  assert (y0 = y) by congruence. subst y0. apply Qc_pos_iff in P.
  destruct (listed_exact Exact muB s t x cs s' W V H3 X E) as [bs1 [bs2 [_ [_ [_ [_ [_ [_ [_ [O _]]]]]]]]]].
  destruct (O c I) as [y' [l1' [l2' [G1 [_ [_ [G2 [G3 [G4 G5]]]]]]]]]. assert (y' = y) by congruence. subst y'.
  assert (l1' = l1) by congruence. assert (l2' = l2) by congruence. subst. rewrite A, exact_factor in G4.
  exists y, l1, l2. split; auto. split; auto. split; auto.
  destruct H8 as [n1 [n2 [Y1 [Y2 [Y3 [Y4 [_ Y5]]]]]]]. assert (n1 = l1) by congruence. assert (n2 = l2) by congruence. subst.
  rewrite H4 in Y3, Y4, Y5. destruct (x_kind x) eqn:K; cbn [sub_tkind lk] in *; [| |congruence].
  - destruct Y5 as [[Y5 _]|[p [xp [Z1 [Z2 [_ [_ [_ [_ Y5]]]]]]]]]; [congruence|]. assert (p = t) by congruence. subst p. assert (xp = x') by congruence. subst xp.
    destruct Y5 as [[_ [j1 [j2 [f1 [f2 [J1 [J2 [F1 [F2 Al]]]]]]]]]|[Y5 _]]; [|congruence].
    rewrite Sa in Al. rewrite Al in *. rewrite P, G4, J1, J2, F1, F2. cbn [onum].
    destruct (wf_tri_JF _ _ _ _ _ W' Y1 ltac:(congruence) J1 F1) as [_ [_ Hf1]]. destruct (wf_tri_JF _ _ _ _ _ W' Y2 ltac:(congruence) J2 F2) as [_ [_ Hf2]].
    now apply hf_nz.
  - destruct Y5 as [[Y5 _]|[p [xp [Z1 [Z2 [_ [_ [_ [_ Y5]]]]]]]]]; [congruence|]. assert (p = t) by congruence. subst p. assert (xp = x') by congruence. subst xp.
    destruct Y5 as [[Y5 _]|[_ [f1 [f2 [m1 [m2 [F1 [F2 [M1 [M2 Al]]]]]]]]]]; [congruence|].
    exists f1, m1, m2. split; auto. split; auto. split; auto.
    rewrite Sa in Al. rewrite Al in *. rewrite P, G4, F1, F2, M1, M2. cbn [onum]. now apply z_nz.
Qed.
Print Assumptions C38_positive_partial.
(** A parity-changing parent: every listed line is positive. *)
Lemma E1_alone : forall (s : st Exact) t x, WF s -> tr s t = Some x -> aE1 (x_allowed x) = true -> aE2 (x_allowed x) = false.
Proof.
  assert (H0 : forall j1 j2 p1 p2 b, aE1 (allowed_T j1 j2 p1 p2 b) = true -> aE2 (allowed_T j1 j2 p1 p2 b) = false).
  { intros j1 j2 p1 p2 b. unfold allowed_T, aE1, aE2. cbn [fst snd]. rewrite andb_true_iff. intros [_ H]. apply negb_true_iff in H. rewrite H. now rewrite andb_false_r. }
  assert (HT : forall (s : st Exact) t x, WF s -> tr s t = Some x -> x_kind x = TT -> aE1 (x_allowed x) = true -> aE2 (x_allowed x) = false).
  { intros s t x W V K. destruct (wf_tr _ _ W _ _ V) as [l1 [l2 [_ [_ [_ [_ [_ Q]]]]]]]. destruct Q as [[_ [_ Q]]|Q].
    - destruct Q as [j1 [j2 [_ [_ ->]]]]. apply H0.
    - destruct Q as [p [xp [_ [_ [_ [Kx _]]]]]]. rewrite K in Kx. destruct (x_kind xp); discriminate Kx. }
  assert (HH : forall (s : st Exact) t x, WF s -> tr s t = Some x -> x_kind x = THF -> aE1 (x_allowed x) = true -> aE2 (x_allowed x) = false).
  { intros s t x W V K. destruct (wf_tr _ _ W _ _ V) as [l1 [l2 [_ [_ [_ [_ [_ Q]]]]]]]. destruct Q as [[Kx _]|Q]; [congruence|].
    destruct Q as [p [xp [_ [P [_ [Kx [_ [_ Q]]]]]]]]. destruct Q as [[_ Q]|[Kz _]]; [|congruence]. destruct Q as [j1 [j2 [f1 [f2 [_ [_ [_ [_ ->]]]]]]]].
    rewrite K in Kx. destruct (x_kind xp) eqn:Kp; try discriminate Kx. unfold allowed_HF. intros H.
    unfold aE1 in H. unfold aE2. cbn [fst snd] in *. apply andb_true_iff in H as [_ H]. specialize (HT s p xp W P Kp H). unfold aE2 in HT. rewrite HT. apply andb_false_r. }
  intros s t x W V. destruct (x_kind x) eqn:K; eauto.
  destruct (wf_tr _ _ W _ _ V) as [l1 [l2 [_ [_ [_ [_ [_ Q]]]]]]]. destruct Q as [[Kx _]|Q]; [congruence|].
  destruct Q as [p [xp [_ [P [Nz [Kx [_ [_ Q]]]]]]]]. destruct Q as [[Kz _]|[_ Q]]; [congruence|]. destruct Q as [f1 [f2 [m1 [m2 [_ [_ [_ [_ ->]]]]]]]].
  rewrite K in Kx. destruct (x_kind xp) eqn:Kp; try discriminate Kx; [|congruence]. intros H.
  unfold allowed_Z, aE1 in H. unfold allowed_Z, aE2. cbn [fst snd] in *. apply andb_true_iff in H as [_ H]. specialize (HH s p xp W P Kp H). unfold aE2 in HH. rewrite HH. apply andb_false_r.
Qed.
Theorem C38_E1 : forall muB orc, (forall n, oracle_ok (orc n)) -> forall s, reachable Exact muB orc s ->
  forall t x v cs s', tr s t = Some x -> x_subs x = [] -> x_A x = Some v -> aE1 (x_allowed x) = true ->
  subtransitions Exact muB t s = (Ok cs, s') -> forall c, In c cs -> exists y, tr s' c = Some y /\ (0 < x_rel y)%Qc.
Proof.
  intros muB orc OK s R t x v cs s' V X A E1 E c I. pose proof (reachable_WF Exact muB orc OK s R) as W.
  destruct (C38_positive_partial muB orc OK s R t x v cs s' V X A E c I) as [y [l1 [l2 [H1 [H2 [H3 H4]]]]]]. exists y. split; auto.
  assert (Dy : dipole (x_allowed x) -> dipole (x_allowed y)).
  { intros _. destruct (safe_Ok _ _ _ _ _ _ _ (subtransitions_safe Exact muB s t x W V) E) as [W' [L _]].
    destruct (ext_tr _ _ _ (look_ext _ _ _ L) _ _ V) as [x' [V' S]]. destruct S as [Sk [_ [_ [_ [_ [_ Sa]]]]]].
    destruct (listed_ends Exact muB s t cs s' x' W E V' c I) as [y' [l1' [l2' [G1 [G2 [G3 [G4 [_ [_ [_ [_ [An St]]]]]]]]]]]].
    assert (y' = y) by congruence. subst y'. apply any_type_iff in An. destruct An as [An|[An|An]]; [now left|now right|exfalso].
    assert (No : aE2 (x_allowed x') = false) by (eapply E1_alone; [exact W'|exact V'|now rewrite Sa]).
    destruct St as [n1 [n2 [_ [_ [_ [_ [_ Q]]]]]]]. destruct Q as [[Kt _]|Q]; [rewrite G4 in Kt; destruct (x_kind x'); discriminate Kt|].
    destruct Q as [p [xp [P1 [P2 [_ [_ [_ [_ Al]]]]]]]].
    assert (xp = x') by congruence. subst xp.
    destruct Al as [[_ [j1 [j2 [f1 [f2 [_ [_ [_ [_ Al]]]]]]]]]|[_ [f1 [f2 [m1 [m2 [_ [_ [_ [_ Al]]]]]]]]]]; rewrite Al in An;
      unfold allowed_HF, allowed_Z, aE2 in *; cbn [fst snd] in *; rewrite No, andb_false_r in An; discriminate An. }
  assert (Dx : dipole (x_allowed x)) by now left.
  destruct (x_kind x).
  - now apply H4.
  - destruct H4 as [f1 [m1 [m2 [_ [_ [_ H4]]]]]]. apply H4. auto.
  - destruct H4 as [f1 [m1 [m2 [_ [_ [_ H4]]]]]]. apply H4. auto.
Qed.
Print Assumptions C38_E1.
Example C38_case : let s := rated 1 os_two in
  option_map (fun x => (x_A x, x_subs x, x_allowed x)) (tr s 0) = Some (Some (1%Qc, uHz), [], (true, false, false)) /\ fst (subtransitions Exact 1%Qc 0 s) = Ok [2; 3; 4]%nat.
Proof. vm_compute. repeat match goal with |- _ /\ _ => split end; reflexivity. Qed.

Definition tX := ex_term "5d" "2D" 4.
Definition tX' := ex_term "6d" "2D" 4.
Definition strength_of (F1 F2 : Z) (ls : list (option Z * option Z * Qc)) : list (Z * Z) :=
  map (fun l => show (snd l)) (filter (fun l => match fst l with (Some a, Some b) => (a =? F1) && (b =? F2) | _ => false end) ls).
(** I = 3, J = J' = 2: the line F=2 to F=2 is listed as an E2 line, with
    strength 0. *)
Theorem C38_mixed_refuted : exists s, reachable Exact 1%Qc plain s /\
  option_map (fun x => (x_kind x, x_allowed x, x_A x, x_subs x)) (tr s 0) = Some (TT, (false, true, true), Some (1%Qc, uHz), []) /\
  option_map (strength_of 4 4) (lines (@l_F Exact) s 0) = Some [(0, 1)].
Proof.
  exists (rated 6 [nl tX 0; add 0; nl tX' 10; add 1]). split; [apply from_reachable; lia|].
  vm_compute. repeat match goal with |- _ /\ _ => split end; reflexivity.
Qed.
Print Assumptions C38_mixed_refuted.
(** I = 0, J = 1/2, J' = 5/2: all ten Zeeman components of the E2 line have
    strength 0. *)
Definition tD5 := ex_term "5d" "2D" 5.
Theorem C38_zeeman_refuted : exists s, reachable Exact 1%Qc plain s /\
  option_map (fun x => (x_kind x, x_allowed x, x_A x, x_subs x)) (tr s 1) = Some (THF, (false, false, true), Some (1%Qc, uHz), []) /\
  option_map (map (fun l => show (snd l))) (lines (@l_mF Exact) s 1) = Some (repeat (0, 1) 10).
Proof.
  exists (split_up 0 [nl tS 0; add 0; nl tD5 10; add 1]). split; [apply more_reachable, from_reachable; lia|].
  vm_compute. repeat match goal with |- _ /\ _ => split end; reflexivity.
Qed.
Print Assumptions C38_zeeman_refuted.
