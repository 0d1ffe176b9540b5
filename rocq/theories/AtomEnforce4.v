(** What enforcing does to sublevels; setting the frequency of a subtransition. *)
From Coq Require Import List Bool ZArith QArith Qcanon Lia String Ascii Permutation.
From Verif Require Import Base PyStr Util UtilProofs Parse Term TermProofs Num Wigner Hyperfine HyperfineProofs
  Graph GraphProofs DfsProofs Rules Atom AtomInv AtomSafe AtomSafe2 AtomSafe3 AtomSafe4 AtomSafe5 AtomSafe6 AtomEnergy AtomEnforce AtomEnforce2.
Import ListNotations.
Local Open Scope Qc_scope.

Section Shift.
  Notation N := Exact.
  Context (muB : Qc).
  Notation st := (st N).
  Notation level := (level N).
  Notation trans := (trans N).
  Implicit Types (s : st) (l : level) (x y : trans) (a : nat) (t : nat).

  (** Sublevels move along with the top of their manifold. *)
  Lemma energy_shift : forall s s' a l e r lr lr', WF s -> moved s s' -> lv s a = Some l -> energy N muB s a = Some e ->
    top s a = Some r -> lv s r = Some lr -> lv s' r = Some lr' -> energy N muB s' a = Some (e + (l_E lr' - l_E lr)).
  Proof.
    intros s s' a l e r lr lr' W Mm V E T Vr Vr'.
    assert (EE : forall b lb, lv s b = Some lb -> l_kind lb = LE -> exists lb', lv s' b = Some lb' /\ energyE s' b = Some (l_E lb')).
    { intros b lb Vb Kb. destruct (moved_lv _ _ _ _ _ Mm Vb) as [lb' [Vb' Eb]]. exists lb'. split; auto.
      unfold energyE. rewrite Vb'. rewrite Eb at 1. cbn. now rewrite Kb. }
    assert (HF : forall b lb p lp, lv s b = Some lb -> l_kind lb = LHF -> l_parent lb = Some p -> lv s p = Some lp ->
      exists eb lp', lv s' p = Some lp' /\ energyHF s b = Some eb /\ energyHF s' b = Some (eb + (l_E lp' - l_E lp))).
    { intros b lb p lp Vb Kb Pb Vp. destruct (wf_energyHF _ _ _ _ W Vb Kb) as [p' [lp0 [j [f [P [Vp0 [Kp [EJ [EF [_ [_ EH]]]]]]]]]]].
      rewrite P in Pb. injection Pb as ->. rewrite Vp in Vp0. injection Vp0 as <-.
      destruct (EE p lp Vp Kp) as [lp' [Vp' Ep']]. eexists. exists lp'. split; auto. split; [exact EH|].
      destruct (moved_lv _ _ _ _ _ Mm Vb) as [lb' [Vb' Eb]]. destruct (moved_lv _ _ _ _ _ Mm Vp) as [lp2 [Vp2 Elp]]. rewrite Vp' in Vp2. injection Vp2 as <-.
      unfold energyHF. rewrite Vb'. replace (l_parent lb') with (l_parent lb) by (now rewrite Eb). rewrite P.
      replace (l_J lb') with (l_J lb) by (now rewrite Eb). replace (l_F lb') with (l_F lb) by (now rewrite Eb). rewrite EJ, EF, Vp', Ep', (mv_I _ _ _ Mm).
      replace (l_hfA lp') with (l_hfA lp) by (now rewrite Elp). replace (l_hfB lp') with (l_hfB lp) by (now rewrite Elp). replace (l_hfC lp') with (l_hfC lp) by (now rewrite Elp).
      f_equal. qeq. cbn [nadd Exact]. ring. }
    destruct (moved_lv _ _ _ _ _ Mm V) as [l' [V' El]].
    unfold top in T. rewrite V in T. unfold energy in *. rewrite V in E. rewrite V'. replace (l_kind l') with (l_kind l) by (now rewrite El).
    destruct (l_kind l) eqn:K.
    - injection T as <-. rewrite V in Vr. injection Vr as <-. rewrite V' in Vr'. injection Vr' as <-.
      destruct (EE a l V K) as [l2 [V2 E2]]. rewrite V' in V2. injection V2 as <-. rewrite E2.
      unfold energyE in E. rewrite V, K in E. injection E as <-. f_equal. symmetry. apply add_sub.
    - destruct (HF a l r lr V K T Vr) as [eb [lp' [Vp' [E1 E2]]]]. rewrite Vr' in Vp'. injection Vp' as <-. rewrite E2. rewrite E1 in E. now injection E as ->.
    - destruct (wf_energyZ Exact muB _ _ _ W V K) as [p [lp [m [ep [P [Vp [Kp [EM [Ep EZ]]]]]]]]]. rewrite P, Vp in T.
      destruct (HF p lp r lr Vp Kp T Vr) as [eb [lp' [Vp' [E1 E2]]]]. rewrite Vr' in Vp'. injection Vp' as <-.
      rewrite Ep in E1. injection E1 as <-. rewrite EZ in E. injection E as <-.
      unfold energyZ. rewrite V'. replace (l_parent l') with (l_parent l) by (now rewrite El). rewrite P.
      replace (l_mF l') with (l_mF l) by (now rewrite El). rewrite EM, E2, (mv_B _ _ _ Mm).
      replace (l_gF l') with (l_gF l) by (now rewrite El). replace (l_qz l') with (l_qz l) by (now rewrite El).
      f_equal. apply add_swap.
  Qed.

  (** The fine-structure transition [t] belongs to. *)
  Definition root s t : option nat :=
    match tr s t with
    | Some x => match x_kind x, x_parent x with
        | TT, _ => Some t
        | THF, p => p
        | TZ, Some p => match tr s p with Some xp => x_parent xp | None => None end
        | TZ, None => None
        end
    | None => None
    end.

  Lemma root_tops : forall s t x r, WF s -> tr s t = Some x -> root s t = Some r -> exists xr, tr s r = Some xr /\ x_kind xr = TT /\
    top s (x_E1 x) = Some (x_E1 xr) /\ top s (x_E2 x) = Some (x_E2 xr).
  Proof.
    intros s t x r W V Rt. unfold root in Rt. rewrite V in Rt. unfold top.
    destruct (wf_tr _ _ W _ _ V) as [l1 [l2 [V1 [V2 [K1 [K2 [_ [[KT _]|[p [xp [P [Vp [Kp [Kx [P1 [P2 _]]]]]]]]]]]]]]]].
    - rewrite KT in *. injection Rt as <-. exists x. rewrite V1, V2, K1, K2. auto.
    - destruct (x_kind xp) eqn:Kxp; [| |congruence]; cbn [sub_tkind] in Kx; rewrite Kx in *; cbn [lk] in *.
      + rewrite P in Rt. injection Rt as <-. exists xp. rewrite V1, V2, K1, K2, P1, P2. auto.
      + rewrite P, Vp in Rt. destruct (wf_tr _ _ W _ _ Vp) as [m1 [m2 [U1 [U2 [J1 [J2 [_ [[KT _]|[q [xq [Q [Vq [Kq [Kx' [Q1 [Q2 _]]]]]]]]]]]]]]]]; [congruence|].
        rewrite Q in Rt. injection Rt as <-. exists xq. rewrite V1, V2, K1, K2, P1, P2, U1, U2, Q1, Q2.
        split; auto. split; auto. destruct (x_kind xq); cbn [sub_tkind] in Kx'; congruence.
  Qed.

  (** The call is passed on to the fine-structure transition. *)
  Lemma set_sub : forall orc s t x r f g gr, WF s -> tr s t = Some x -> root s t = Some r ->
    freq N muB s t = Some g -> freq N muB s r = Some gr ->
    set_frequency N muB orc t f s = set_frequency N muB orc r (if Nat.eqb t r then f else gr + (f - g)) s.
  Proof.
    intros orc s t x r f g gr W V Rt Eg Er. destruct (root_tops s t x r W V Rt) as [xr [Vr [Kr _]]].
    unfold root in Rt. rewrite V in Rt.
    assert (HF : forall t x f g, tr s t = Some x -> x_kind x = THF -> x_parent x = Some r -> freq N muB s t = Some g ->
      set_freqHF N muB orc t f s = set_freqT N muB orc r (gr + (f - g)) s).
    { clear - Er. intros t x f g V K P Eg. unfold set_freqHF. unfold bind at 1, get_tr, asks at 1. rewrite V. unfold bind at 1, asks at 1. rewrite Eg.
      unfold bind at 1, asks at 1. rewrite P. unfold bind at 1, asks at 1. rewrite Er. reflexivity. }
    assert (Sr : forall w, set_frequency N muB orc r w s = set_freqT N muB orc r w s).
    { intros w. unfold set_frequency. unfold bind at 1, get_tr, asks at 1. now rewrite Vr, Kr. }
    rewrite Sr. destruct (wf_tr _ _ W _ _ V) as [l1 [l2 [V1 [V2 [K1 [K2 [_ [[KT _]|[p [xp [P [Vp [Kp [Kx [P1 [P2 _]]]]]]]]]]]]]]]].
    - rewrite KT in Rt. injection Rt as <-. rewrite Nat.eqb_refl. apply Sr.
    - assert (D : Nat.eqb t r = false). { apply Nat.eqb_neq. intros ->. rewrite Vr in V. injection V as ->. rewrite Kr in Kx. destruct (x_kind xp); discriminate. }
      rewrite D. unfold set_frequency. unfold bind at 1, get_tr, asks at 1. rewrite V.
      destruct (x_kind xp) eqn:Kxp; [| |congruence]; cbn [sub_tkind] in Kx; rewrite Kx in *.
      + apply (HF t x); auto.
      + rewrite P, Vp in Rt. destruct (freq_total N muB s p xp W Vp) as [gp Ep].
        unfold set_freqZ. unfold bind at 1, get_tr, asks at 1. rewrite V. unfold bind at 1, asks at 1. rewrite Eg.
        unfold bind at 1, asks at 1. rewrite P. unfold bind at 1, asks at 1. rewrite Ep.
        rewrite (HF p xp _ gp Vp Kxp Rt Ep). f_equal. cbn [nadd nsub Exact]. f_equal. qeq. ring.
  Qed.
End Shift.
