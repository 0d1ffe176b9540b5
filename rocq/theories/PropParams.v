(** C154: hyperfine constants and the magnetic field act where they should. *)
From Coq Require Import List Bool ZArith QArith Qcanon Lia String Ascii.
From Verif Require Import Base Num PyStr Util UtilProofs Parse Term TermProofs Wigner Hyperfine HyperfineProofs Graph GraphProofs Rules Atom AtomInv AtomSafe AtomSafe2 AtomSafe3 AtomSafe4 AtomSafe5 AtomSafe6 AtomExample PropEnforce Units PropUnits.
Import ListNotations.

Section Local.
  Context (N : Num) (muB : num N) (orc : nat -> oracle).
  Implicit Types (s : st N) (a b t : nat).

  (** [b] is a hyperfine or Zeeman sublevel of [a]. *)
  Definition under s a b : Prop :=
    exists lb, lv s b = Some lb /\ (l_parent lb = Some a \/ exists p lp, l_parent lb = Some p /\ lv s p = Some lp /\ l_parent lp = Some a).

  (** All but the levels and the field. *)
  Definition rest s s' : Prop :=
    s_trans s' = s_trans s /\ s_g0 s' = s_g0 s /\ s_g1 s' = s_g1 s /\ s_g2 s' = s_g2 s /\ s_lal s' = s_lal s /\ s_tal s' = s_tal s /\
    s_I s' = s_I s /\ s_warn s' = s_warn s.

  Lemma hf_HF : forall s a A B C p, (forall l, lv s p = Some l -> l_parent l <> Some a) -> energyHF (upd_lv a (lv_set_hf A B C) s) p = energyHF s p.
  Proof.
    intros s a A B C p H. unfold energyHF. rewrite lv_upd_lv. destruct (lv s p) as [l|] eqn:V; [|destruct (Nat.eqb a p); reflexivity].
    assert (E : (if Nat.eqb a p then option_map (lv_set_hf A B C) (Some l) else Some l) = Some (if Nat.eqb a p then lv_set_hf A B C l else l)) by (destruct (Nat.eqb a p); reflexivity).
    rewrite E. assert (P : l_parent (if Nat.eqb a p then lv_set_hf A B C l else l) = l_parent l) by (destruct (Nat.eqb a p); reflexivity). rewrite P.
    assert (EJ : l_J (if Nat.eqb a p then lv_set_hf A B C l else l) = l_J l) by (destruct (Nat.eqb a p); reflexivity). rewrite EJ.
    assert (EF : l_F (if Nat.eqb a p then lv_set_hf A B C l else l) = l_F l) by (destruct (Nat.eqb a p); reflexivity). rewrite EF.
    destruct (l_parent l) as [q|] eqn:Pq; auto. destruct (l_J l); auto. destruct (l_F l); auto.
    assert (Nq : a <> q) by (intros ->; apply (H l eq_refl); auto). unfold energyE. rewrite !lv_upd_lv. rewrite (proj2 (Nat.eqb_neq a q) Nq). reflexivity.
  Qed.

  (** Setting hyperfine constants of a level changes these, and the energies of
      its sublevels; all other energies, and all frequencies of transitions
      between other levels, stay. *)
  Theorem C154_local : forall s a l A B C, lv s a = Some l -> l_kind l = LE ->
    let s' := step N muB orc s (OSetHf N a A B C) in
    fst (run_op N muB orc (OSetHf N a A B C) s) = Ok tt /\ rest s s' /\ s_B s' = s_B s /\
    lv s' a = Some (lv_set_hf A B C l) /\ (forall b, b <> a -> lv s' b = lv s b) /\
    (forall b, ~ under s a b -> energy N muB s' b = energy N muB s b) /\
    (forall t x, tr s t = Some x -> ~ under s a (x_E1 x) -> ~ under s a (x_E2 x) -> freq N muB s' t = freq N muB s t).
  Proof.
    intros s a l A B C V K s'. assert (Es : s' = upd_lv a (lv_set_hf A B C) s) by reflexivity.
    assert (En : forall b, ~ under s a b -> energy N muB s' b = energy N muB s b).
    { intros b Nb. rewrite Es. unfold energy. rewrite lv_upd_lv. destruct (lv s b) as [lb|] eqn:Vb; [|destruct (Nat.eqb a b); reflexivity].
      assert (E : (if Nat.eqb a b then option_map (lv_set_hf A B C) (Some lb) else Some lb) = Some (if Nat.eqb a b then lv_set_hf A B C lb else lb)) by (destruct (Nat.eqb a b); reflexivity).
      rewrite E. assert (Kb : l_kind (if Nat.eqb a b then lv_set_hf A B C lb else lb) = l_kind lb) by (destruct (Nat.eqb a b); reflexivity). rewrite Kb.
      destruct (l_kind lb) eqn:Kl.
      - unfold energyE. rewrite lv_upd_lv, Vb, E, Kb, Kl. destruct (Nat.eqb a b); reflexivity.
      - apply hf_HF. intros l' V' P. assert (l' = lb) by congruence. subst l'. apply Nb. exists lb. auto.
      - unfold energyZ. rewrite lv_upd_lv, Vb, E. assert (P : l_parent (if Nat.eqb a b then lv_set_hf A B C lb else lb) = l_parent lb) by (destruct (Nat.eqb a b); reflexivity).
        assert (Em : l_mF (if Nat.eqb a b then lv_set_hf A B C lb else lb) = l_mF lb) by (destruct (Nat.eqb a b); reflexivity).
        assert (Eg : l_gF (if Nat.eqb a b then lv_set_hf A B C lb else lb) = l_gF lb) by (destruct (Nat.eqb a b); reflexivity).
        assert (Eq : l_qz (if Nat.eqb a b then lv_set_hf A B C lb else lb) = l_qz lb) by (destruct (Nat.eqb a b); reflexivity).
        rewrite P, Em, Eg, Eq. destruct (l_parent lb) as [p|] eqn:Pp; auto. destruct (l_mF lb); auto. rewrite hf_HF; auto.
        intros lp Vp Pa. apply Nb. exists lb. split; auto. right. exists p, lp. auto. }
    split; [reflexivity|]. split; [rewrite Es; repeat split|]. split; [reflexivity|]. split; [rewrite Es, lv_upd_lv, Nat.eqb_refl, V; reflexivity|].
    split; [intros b Nb; rewrite Es, lv_upd_lv, (proj2 (Nat.eqb_neq a b)) by auto; reflexivity|]. split; [exact En|].
    intros t x T H1 H2. unfold freq. change (tr s' t) with (tr s t). rewrite T, !En by auto. reflexivity.
  Qed.

  (** Setting the field changes the energies of Zeeman sublevels only. *)
  Theorem C154_field_local : forall s (b : num N), let s' := step N muB orc s (OSetB N b) in
    rest s s' /\ s_levels s' = s_levels s /\ s_B s' = b /\
    (forall a l, lv s a = Some l -> l_kind l <> LZ -> energy N muB s' a = energy N muB s a).
  Proof.
    intros s b s'. split; [repeat split|]. split; [reflexivity|]. split; [reflexivity|]. intros a l V K.
    unfold energy. change (lv s' a) with (lv s a). rewrite V. destruct (l_kind l); [reflexivity|reflexivity|congruence].
  Qed.
End Local.

Local Open Scope Qc_scope.

(** How far the sublevels move: hyperfine levels [b] of [a], and their Zeeman
    sublevels [c], by one and the same amount, linear in the changes of the
    constants. *)
Theorem C154_linear : forall muB orc, (forall n, oracle_ok (orc n)) -> forall s, reachable Exact muB orc s ->
  forall a l A B C b lb, lv s a = Some l -> l_kind l = LE -> lv s b = Some lb -> l_parent lb = Some a ->
  let s' := step Exact muB orc s (OSetHf Exact a A B C) in
  exists j f d, l_J l = Some j /\ l_F lb = Some f /\
    d = hf_shift Exact (s_I s) j f (A - l_hfA l) (B - l_hfB l) (C - l_hfC l) /\
    (exists e, energy Exact muB s b = Some e /\ energy Exact muB s' b = Some (e + d)) /\
    (forall c lc, lv s c = Some lc -> l_parent lc = Some b -> exists e, energy Exact muB s c = Some e /\ energy Exact muB s' c = Some (e + d)) /\
    (B = l_hfB l -> C = l_hfC l ->
      let I := nhalf Exact (s_I s) in let J := nhalf Exact j in let F := nhalf Exact f in
      d = (A - l_hfA l) * (F * (F + 1) - I * (I + 1) - J * (J + 1)) / Q2Qc 2).
Proof.
  intros muB orc OK s R a l A B C b lb V K Vb Pb s'. pose proof (reachable_WF Exact muB orc OK s R) as W.
  assert (R' : reachable Exact muB orc s').
  { destruct R as [I [b0 [os [H ->]]]]. exists I, b0, (os ++ [OSetHf Exact a A B C]). split; auto. unfold run. rewrite fold_left_app. reflexivity. }
  pose proof (reachable_WF Exact muB orc OK s' R') as W'.
  assert (Kb : l_kind lb = LHF).
  { destruct (wf_lv _ _ W _ _ Vb) as [_ [[_ [P _]]|O]]; [congruence|].
    destruct (wf_parent _ _ _ _ W Vb) as [_ [p [lp [z [P [Vp [_ [_ [Kl _]]]]]]]]]; [destruct O as [_ [p [lp [z [_ [_ [_ [_ [Kc _]]]]]]]]]; intros E; rewrite E in Kc; destruct (l_kind lp); discriminate|].
    assert (p = a) by congruence. subst p. assert (lp = l) by congruence. subst lp. rewrite K in Kl. exact Kl. }
  assert (Va' : lv s' a = Some (lv_set_hf A B C l)) by (unfold s', step; cbn [run_op]; unfold modify; cbn [snd]; rewrite lv_upd_lv, Nat.eqb_refl, V; reflexivity).
  assert (Vo : forall c, c <> a -> lv s' c = lv s c) by (intros c Nc; unfold s', step; cbn [run_op]; unfold modify; cbn [snd]; rewrite lv_upd_lv, (proj2 (Nat.eqb_neq a c)) by auto; reflexivity).
  assert (Nb : b <> a) by (intros ->; congruence).
  assert (Vb' : lv s' b = Some lb) by (rewrite Vo by auto; exact Vb).
  destruct (wf_energyHF Exact s b lb W Vb Kb) as [p [lp [j [f [Pp [Vp [_ [EJ [EF [_ [EJp E]]]]]]]]]]]. assert (p = a) by congruence. subst p. assert (lp = l) by congruence. subst lp.
  destruct (wf_energyHF Exact s' b lb W' Vb' Kb) as [p [lp [j' [f' [Pp' [Vp' [_ [EJ' [EF' [_ [_ E']]]]]]]]]]]. assert (p = a) by congruence. subst p. rewrite Va' in Vp'.
  assert (lp = lv_set_hf A B C l) by congruence. subst lp. assert (j' = j) by congruence. assert (f' = f) by congruence. subst j' f'.
  change (s_I s') with (s_I s) in E'. cbn [lv_set_hf l_E l_hfA l_hfB l_hfC] in E'.
  set (d := hf_shift Exact (s_I s) j f (A - l_hfA l) (B - l_hfB l) (C - l_hfC l)).
  assert (D : forall x : Qc, (x + hf_shift Exact (s_I s) j f A B C = x + hf_shift Exact (s_I s) j f (l_hfA l) (l_hfB l) (l_hfC l) + d)%Qc).
  { intros x. unfold d, hf_shift. cbn [nadd nmul nsub Exact]. ring. }
  exists j, f, d. split; [exact EJp|]. split; [exact EF|]. split; [reflexivity|]. split; [|split].
  - unfold energy. rewrite Vb, Vb', Kb. eexists. split; [exact E|]. rewrite E'. f_equal. apply D.
  - intros c lc Vc Pc.
    assert (Kc : l_kind lc = LZ).
    { destruct (wf_lv _ _ W _ _ Vc) as [_ [[_ [P _]]|O]]; [congruence|].
      destruct (wf_parent _ _ _ _ W Vc) as [_ [p [lp [z [P [Vp2 [_ [_ [Kl _]]]]]]]]]; [destruct O as [_ [p [lp [z [_ [_ [_ [_ [Kc _]]]]]]]]]; intros E0; rewrite E0 in Kc; destruct (l_kind lp); discriminate|].
      assert (p = b) by congruence. subst p. assert (lp = lb) by congruence. subst lp. rewrite Kb in Kl. exact Kl. }
    assert (Nc : c <> a) by (intros ->; congruence). assert (Vc' : lv s' c = Some lc) by (rewrite Vo by auto; exact Vc).
    destruct (wf_energyZ Exact muB s c lc W Vc Kc) as [p [lp [m [e [Pq [_ [_ [Em [Eh Ez]]]]]]]]]. assert (p = b) by congruence. subst p.
    destruct (wf_energyZ Exact muB s' c lc W' Vc' Kc) as [p [lp' [m' [e' [Pq' [_ [_ [Em' [Eh' Ez']]]]]]]]]. assert (p = b) by congruence. subst p. assert (m' = m) by congruence. subst m'.
    unfold energy. rewrite Vc, Vc', Kc. eexists. split; [exact Ez|]. rewrite Ez'. change (s_B s') with (s_B s).
    assert (Q1 : e = nadd Exact (l_E l) (hf_shift Exact (s_I s) j f (l_hfA l) (l_hfB l) (l_hfC l))) by congruence.
    assert (Q2 : e' = nadd Exact (l_E l) (hf_shift Exact (s_I s) j f A B C)) by congruence.
    rewrite Q1, Q2. apply f_equal. cbn [nadd Exact]. rewrite D. assert (Sw : forall x y z : Qc, x + y + z = x + z + y) by (intros; ring). apply Sw.
  - intros -> -> I J F. unfold d, hf_shift. rewrite IdotJ_exact. unfold xdot. fold I J F. cbn [nadd nmul nsub Exact].
    replace (l_hfB l - l_hfB l) with 0 by ring. replace (l_hfC l - l_hfC l) with 0 by ring.
    assert (Al : forall a i j f b c : Qc, a * ((f - j - i) / (1 + 1)) + 0 * b + 0 * c = a * (f - i - j) / Q2Qc 2).
    { intros. replace (Q2Qc 2) with (1 + 1) by (apply Qc_is_canon; reflexivity). unfold Qcdiv. ring. }
    apply Al.
Qed.
Print Assumptions C154_linear.

Lemma half_div : forall m, nhalf Exact m = QcZ m / Q2Qc 2.
Proof.
  intros m. apply Qc_is_canon. change (Qred (m # 2) == Qred (Qred (inject_Z m) * Qred (/ Qred 2)))%Q. rewrite !Qred_correct.
  unfold Qeq, Qmult, Qinv, inject_Z. cbn [Qnum Qden]. lia.
Qed.
(** A Zeeman sublevel moves by its magnetic moment times the change of the
    field, and by its quadratic shift. *)
Theorem C154_field : forall muB orc, (forall n, oracle_ok (orc n)) -> forall s, reachable Exact muB orc s ->
  forall b a l, lv s a = Some l -> l_kind l = LZ ->
  let s' := step Exact muB orc s (OSetB Exact b) in
  exists m e, l_mF l = Some m /\ energy Exact muB s a = Some e /\
    energy Exact muB s' a = Some (e + l_gF l * (QcZ m / Q2Qc 2) * muB * (b - s_B s) + l_qz l * (b * b - s_B s * s_B s)).
Proof.
  intros muB orc OK s R b a l V K s'. pose proof (reachable_WF Exact muB orc OK s R) as W.
  destruct (wf_energyZ Exact muB s a l W V K) as [p [lp [m [e [P [Vp [_ [Em [Eh Ez]]]]]]]]].
  exists m. eexists. split; [exact Em|]. unfold energy. change (lv s' a) with (lv s a). rewrite V, K. split; [exact Ez|].
  unfold energyZ. change (lv s' a) with (lv s a). rewrite V, P, Em. change (energyHF s' p) with (energyHF s p). rewrite Eh.
  apply f_equal. change (s_B s') with b. unfold z_shift. cbn [nadd nmul Exact].
  assert (H : nhalf Exact m = QcZ m / Q2Qc 2) by (apply half_div).
  rewrite H. assert (Al : forall e0 g h u B q b0 : Qc, e0 + (g * h * u * b0 + q * (b0 * b0)) = e0 + (g * h * u * B + q * (B * B)) + g * h * u * (b0 - B) + q * (b0 * b0 - B * B)) by (intros; ring).
  apply Al.
Qed.
Print Assumptions C154_field.

Lemma upd_at {A} : forall (l : list A) n x f g, nth_error l n = Some x -> f x = g x -> upd n f l = upd n g l.
Proof. induction l as [|y l IH]; intros [|n] x f g V E; cbn in *; try discriminate; [injection V as ->; now rewrite E|f_equal; eauto]. Qed.
(** The constants may be given in any unit; each setter changes one of them. *)
Theorem C154_units : forall (s : st Exact) c a l v, lv s a = Some l -> convertible v ->
  exists s', set_hf_q c a v s = (Ok tt, s') /\ hf_in c (q_dim v) a s' = Ok (q_mag v) /\
  (forall c' d, c' <> c -> hf_in c' d a s' = hf_in c' d a s) /\ (forall b, b <> a -> lv s' b = lv s b) /\
  exists A B C, forall muB orc, s' = step Exact muB orc s (OSetHf Exact a A B C).
Proof.
  intros s c a l v V Cv. destruct (unit_round_trip v Cv) as [f [Ef [Eb _]]].
  exists (upd_lv a (hf_put c f) s). split; [unfold set_hf_q, bind, lift, modify; rewrite Ef; reflexivity|].
  assert (Va : lv (upd_lv a (hf_put c f) s) a = Some (hf_put c f l)) by (rewrite lv_upd_lv, Nat.eqb_refl, V; reflexivity).
  split; [unfold hf_in; rewrite Va; destruct c; exact Eb|]. split; [|split].
  - intros c' d Nc. unfold hf_in. rewrite Va, V. destruct c, c'; try congruence; reflexivity.
  - intros b Nb. rewrite lv_upd_lv, (proj2 (Nat.eqb_neq a b)) by auto. reflexivity.
  - assert (U : forall A B C, hf_put c f l = lv_set_hf A B C l -> forall muB orc, upd_lv a (hf_put c f) s = step Exact muB orc s (OSetHf Exact a A B C)).
    { intros A B C E muB orc. unfold step. cbn [run_op]. unfold modify. cbn [snd]. unfold upd_lv. apply f_equal2; auto. now apply (upd_at (s_levels s) a l). }
    destruct c; eexists _, _, _; apply U; reflexivity.
Qed.
Print Assumptions C154_units.
Print Assumptions C154_local.
Print Assumptions C154_field_local.

(** Except that a constant cannot be set to 0 per cm. *)
Theorem C154_zero_refuted : forall (s : st Exact) c a, set_hf_q c a (mkQ 0 Wavenumber) s = (Raise ZeroDivisionError, s) /\ set_hf_q c a (mkQ 0 Length) s = (Raise ZeroDivisionError, s).
Proof. intros s c a. unfold set_hf_q, bind, lift, to_freq. cbn [q_dim q_mag]. rewrite !over_0. auto. Qed.
Print Assumptions C154_zero_refuted.

(** Two levels of angular momentum 1/2 and nuclear spin 1/2, the lower with
    A = 4 and its sublevels in a field of 3. *)
Definition params : st Exact := runx (two 1) [OSetHf Exact 0 (Q2Qc 4) 0 0; OSetLande Exact 0 (Q2Qc 2); OSublevels Exact 0; OSublevels Exact 2; OSublevels Exact 3; OSetB Exact (Q2Qc 3)].
Definition energies (s : st Exact) : list (option Q) := map (fun a => option_map this (energy Exact 1 s a)) (seq 0 (List.length (s_levels s))).
Example C154_case : reachable Exact 1 plain params /\ map (@l_kind Exact) (s_levels params) = [LE; LE; LHF; LHF; LZ; LZ; LZ; LZ] /\
  map (@l_parent Exact) (s_levels params) = [None; None; Some 0; Some 0; Some 2; Some 3; Some 3; Some 3]%nat /\
  energies params = [Some (0 # 1); Some (10 # 1); Some (-3 # 1); Some (1 # 1); Some (-3 # 1); Some (-2 # 1); Some (1 # 1); Some (4 # 1)]%Q /\
  energies (runx params [OSetHf Exact 0 (Q2Qc 8) 0 0]) = [Some (0 # 1); Some (10 # 1); Some (-6 # 1); Some (2 # 1); Some (-6 # 1); Some (-1 # 1); Some (2 # 1); Some (5 # 1)]%Q /\
  energies (runx params [OSetB Exact (Q2Qc 4)]) = [Some (0 # 1); Some (10 # 1); Some (-3 # 1); Some (1 # 1); Some (-3 # 1); Some (-3 # 1); Some (1 # 1); Some (5 # 1)]%Q /\
  convertible (mkQ (planck * Q2Qc 8) Energy) /\
  energies (snd (set_hf_q HfA 0 (mkQ (planck * Q2Qc 8) Energy) params)) = energies (runx params [OSetHf Exact 0 (Q2Qc 8) 0 0]).
Proof.
  split; [apply more_reachable; apply from_reachable; lia|]. split; [vm_compute; reflexivity|]. split; [vm_compute; reflexivity|].
  split; [vm_compute; reflexivity|]. split; [vm_compute; reflexivity|]. split; [vm_compute; reflexivity|].
  split; [split; [discriminate|intros E; now right]|]. vm_compute. reflexivity.
Qed.
