(** Energies of sublevels are set, and manifolds moved, up to rounding (C146). *)
From Coq Require Import List Bool ZArith QArith Qcanon Lia Lra String Ascii Reals Floats.SpecFloat.
From Flocq Require Import Core Relative Plus_error BinarySingleNaN.
From Verif Require Import Base PyStr Util UtilProofs Parse Term TermProofs Num Wigner Hyperfine HyperfineProofs
  Graph GraphProofs Rules Atom AtomInv AtomSafe AtomSafe2 AtomSafe3 AtomSafe4 AtomSafe5 AtomSafe6 AtomLevels AtomKeep AtomPaths
  AtomExample PropFloat FloatRound PropRound.
Import ListNotations.
Local Open Scope nat_scope.

(** ** Doubles are closed under the other operations *)

Local Existing Instance Hprec.
Local Existing Instance Hmax.

Lemma mul_equiv : forall x y : bf, SFmul fprec femax (B2SF x) (B2SF y) = B2SF (Bmult mode_NE x y).
Proof.
  intros [sx|sx| |sx mx ex Bx] [sy|sy| |sy my ey By]; try reflexivity. simpl. rewrite B2SF_SF2B. apply round_aux_equiv.
Qed.
Lemma div_equiv : forall x y : bf, SFdiv fprec femax (B2SF x) (B2SF y) = B2SF (Bdiv mode_NE x y).
Proof.
  intros [sx|sx| |sx mx ex Bx] [sy|sy| |sy my ey By]; try reflexivity. cbn [B2SF SFdiv Bdiv]. rewrite B2SF_SF2B.
  destruct (SFdiv_core_binary _ _ _ _ _ _) as [[mz ez] lz]. apply round_aux_equiv.
Qed.
Lemma double_mul : forall x y, double x -> double y -> double (SFmul fprec femax x y).
Proof. intros x y Hx Hy. destruct (double_B x Hx) as [a ->], (double_B y Hy) as [b ->]. rewrite mul_equiv. apply B_double. Qed.
Lemma double_div : forall x y, double x -> double y -> double (SFdiv fprec femax x y).
Proof. intros x y Hx Hy. destruct (double_B x Hx) as [a ->], (double_B y Hy) as [b ->]. rewrite div_equiv. apply B_double. Qed.
Lemma double_opp : forall x, double x -> double (SFopp x).
Proof. intros [s|s| |s m e] H; exact H. Qed.
Lemma double_ofZ : forall z, double (f_ofZ z).
Proof. intros z. unfold f_ofZ. rewrite normalize_equiv. apply B_double. Qed.
Lemma double_ofQ : forall q, double (f_ofQ q).
Proof. intros q. apply double_div; apply double_ofZ. Qed.
Lemma double_half : forall z, double (nhalf Binary64 z).
Proof. intros z. apply double_ofQ. Qed.

#[local] Hint Resolve double_add double_sub double_mul double_div double_opp double_ofZ double_ofQ double_half : dbl.

Lemma double_IdotJ : forall I J F : Binary64, double I -> double J -> double F -> double (IdotJ Binary64 I J F).
Proof. intros. unfold IdotJ. cbn [nadd nsub nmul nofQ Binary64]. auto 10 with dbl. Qed.
#[local] Hint Resolve double_IdotJ : dbl.
Lemma double_FE2 : forall i j f, double (FE2 Binary64 i j f).
Proof.
  intros. unfold FE2. destruct (_ || _); cbv zeta; cbn [nadd nsub nmul ndiv nofQ Binary64]; auto 20 with dbl.
Qed.
Lemma double_FM3 : forall i j f, double (FM3 Binary64 i j f).
Proof.
  intros. unfold FM3. destruct (_ || _); cbv zeta; cbn [nadd nsub nmul ndiv nopp nofQ Binary64]; auto 20 with dbl.
Qed.
#[local] Hint Resolve double_FE2 double_FM3 : dbl.
Lemma double_hf_shift : forall i j f (A B C : Binary64), double A -> double B -> double C -> double (hf_shift Binary64 i j f A B C).
Proof. intros. unfold hf_shift. cbn [nadd nmul Binary64]. auto 10 with dbl. Qed.
Lemma double_z_shift : forall (muB gF : Binary64) m (B qz : Binary64), double muB -> double gF -> double B -> double qz -> double (z_shift Binary64 muB gF m B qz).
Proof. intros. unfold z_shift. cbn [nadd nmul Binary64]. auto 10 with dbl. Qed.

(** ** Where the energy of a level comes from *)

(** The manifold of a level: its fine-structure level. *)
Definition manifold {N : Num} (s : st N) (a : nat) : option nat :=
  match lv s a with
  | Some l =>
      match l_kind l with
      | LE => Some a
      | LHF => l_parent l
      | LZ => match l_parent l with Some h => match lv s h with Some lh => l_parent lh | None => None end | None => None end
      end
  | None => None
  end.

(** How far a level is above its fine-structure level: not, by a hyperfine shift,
    or by a hyperfine and a Zeeman shift. *)
Inductive off (N : Num) := Top | Hf (h : N) | Zee (h z : N).
Arguments Top {N}. Arguments Hf {N}. Arguments Zee {N}.
Definition raised {N : Num} (o : off N) (e : N) : N :=
  match o with Top => e | Hf h => nadd N e h | Zee h z => nadd N (nadd N e h) z end.
(** The energy of the fine-structure level after the level was set to [v]. *)
Definition lowered {N : Num} (o : off N) (e v : N) : N :=
  match o with
  | Top => v
  | Hf h => nadd N e (nsub N v (nadd N e h))
  | Zee h z => nadd N e (nsub N (nadd N (nadd N e h) (nsub N v (nadd N (nadd N e h) z))) (nadd N e h))
  end.
Definition off_all {N : Num} (P : N -> Prop) (o : off N) : Prop :=
  match o with Top => True | Hf h => P h | Zee h z => P h /\ P z end.

Section Shape.
  Context {N : Num} (muB : N) (P : N -> Prop).
  Implicit Types (s : st N) (a b : nat).
  Definition kind_of (o : off N) : lkind := match o with Top => LE | Hf _ => LHF | Zee _ _ => LZ end.
  (** Closure of [P] under the shifts. *)
  Definition shifts_ok s : Prop :=
    (forall i j f a l, lv s a = Some l -> P (hf_shift N i j f (l_hfA l) (l_hfB l) (l_hfC l))) /\
    (forall m a l, lv s a = Some l -> P (z_shift N muB (l_gF l) m (s_B s) (l_qz l))).

  Lemma shape : forall s b lb, WF s -> shifts_ok s -> lv s b = Some lb ->
    exists p lp o, manifold s b = Some p /\ lv s p = Some lp /\ l_kind lp = LE /\ manifold s p = Some p /\ kind_of o = l_kind lb /\ off_all P o /\
      energy N muB s p = Some (l_E lp) /\ energy N muB s b = Some (raised o (l_E lp)) /\
      (forall v, energy N muB (upd_lv p (@lv_set_E N v) s) p = Some v /\ energy N muB (upd_lv p (@lv_set_E N v) s) b = Some (raised o v)) /\
      (forall v, set_energy N muB b v s = (Ok tt, upd_lv p (@lv_set_E N (lowered o (l_E lp) v)) s)) /\
      (forall h z, o = Zee h z -> exists c, manifold s c = Some p /\ energy N muB s c = Some (nadd N (l_E lp) h) /\
         forall v, energy N muB (upd_lv p (@lv_set_E N v) s) c = Some (nadd N v h)).
  Proof.
    intros s b lb W [Sh Sz] Vb.
    assert (L : forall r v c, lv (upd_lv r (@lv_set_E N v) s) c = if Nat.eqb r c then option_map (lv_set_E v) (lv s c) else lv s c) by (intros; apply lv_upd_lv).
    assert (T : forall p lp, lv s p = Some lp -> l_kind lp = LE -> manifold s p = Some p /\ energy N muB s p = Some (l_E lp) /\
      forall v, energyE (upd_lv p (@lv_set_E N v) s) p = Some v /\ energy N muB (upd_lv p (@lv_set_E N v) s) p = Some v).
    { intros p lp Vp Kp. unfold manifold, energy, energyE. rewrite Vp, Kp. split; auto. split; auto. intros v. rewrite L, Nat.eqb_refl, Vp. cbn [option_map].
      change (l_kind (lv_set_E v lp)) with (l_kind lp). rewrite Kp. split; reflexivity. }
    assert (H : forall c lc, lv s c = Some lc -> l_kind lc = LHF -> exists p lp h, l_parent lc = Some p /\ lv s p = Some lp /\ l_kind lp = LE /\ P h /\
      energyHF s c = Some (nadd N (l_E lp) h) /\ (forall v, energyHF (upd_lv p (@lv_set_E N v) s) c = Some (nadd N v h)) /\
      (forall v, set_energyHF N c v s = (Ok tt, upd_lv p (@lv_set_E N (nadd N (l_E lp) (nsub N v (nadd N (l_E lp) h)))) s))).
    { intros c lc Vc Kc. destruct (wf_energyHF _ _ _ _ W Vc Kc) as [p [lp [j [f [Pc [Vp [Kp [EJ [EF [_ [_ EH]]]]]]]]]]].
      exists p, lp, (hf_shift N (s_I s) j f (l_hfA lp) (l_hfB lp) (l_hfC lp)). split; auto. split; auto. split; auto. split; [eapply Sh; eauto|]. split; auto. split.
      - intros v. assert (Hb : Nat.eqb p c = false) by (apply Nat.eqb_neq; intros ->; congruence).
        unfold energyHF. rewrite L, Hb, Vc, Pc, EJ, EF. rewrite (proj1 (proj2 (proj2 (T p lp Vp Kp)) v)), L, Nat.eqb_refl, Vp. reflexivity.
      - intros v. unfold set_energyHF, get_lv, bind, asks. rewrite Vc, EH, Pc. unfold energyE. rewrite Vp, Kp. reflexivity. }
    assert (NP : forall r v c lc, lv s c = Some lc -> exists lc', lv (upd_lv r (@lv_set_E N v) s) c = Some lc' /\ l_kind lc' = l_kind lc).
    { intros r v c lc Vc. rewrite L, Vc. destruct (Nat.eqb r c); cbn; eauto. }
    destruct (l_kind lb) eqn:K.
    - exists b, lb, Top. destruct (T b lb Vb K) as [T1 [T2 T3]]. split; auto. split; auto. split; auto. split; auto. split; auto. split; [exact I|].
      split; auto. split; auto. split; [intros v; split; apply T3|]. split; [|intros h z E; discriminate E].
      intros v. unfold set_energy, get_lv, bind, asks. rewrite Vb, K. reflexivity.
    - destruct (H b lb Vb K) as [p [lp [h [Pb [Vp [Kp [Ph [E1 [E2 Es]]]]]]]]]. destruct (T p lp Vp Kp) as [T1 [T2 T3]]. exists p, lp, (Hf h).
      split; [unfold manifold; now rewrite Vb, K|]. split; auto. split; auto. split; auto. split; auto. split; [exact Ph|]. split; auto.
      split; [unfold energy; now rewrite Vb, K|]. split; [|split; [|intros h0 z0 E; discriminate E]].
      + intros v. split; [apply T3|]. unfold energy. destruct (NP p v b lb Vb) as [lb' [V' K']]. rewrite V', K', K. apply E2.
      + intros v. unfold set_energy, get_lv. unfold bind at 1, asks at 1. rewrite Vb, K. apply Es.
    - destruct (wf_energyZ N muB _ _ _ W Vb K) as [c [lc [m [ec [Pb [Vc [Kc [EM [Ec EZ]]]]]]]]].
      destruct (H c lc Vc Kc) as [p [lp [h [Pc [Vp [Kp [Ph [E1 [E2 Es]]]]]]]]]. destruct (T p lp Vp Kp) as [T1 [T2 T3]].
      rewrite Ec in E1. assert (ec = nadd N (l_E lp) h) as -> by congruence. clear E1.
      exists p, lp, (Zee h (z_shift N muB (l_gF lb) m (s_B s) (l_qz lb))).
      split; [unfold manifold; now rewrite Vb, K, Pb, Vc|]. split; auto. split; auto. split; auto. split; auto. split; [split; auto; eapply Sz; eauto|]. split; auto.
      split; [unfold energy; now rewrite Vb, K|]. split; [|split].
      + intros v. split; [apply T3|]. unfold energy. destruct (NP p v b lb Vb) as [lb' [V' K']]. rewrite V', K', K.
        assert (Hb : Nat.eqb p b = false) by (apply Nat.eqb_neq; intros ->; congruence).
        unfold energyZ. rewrite L, Hb, Vb, Pb, EM, E2. reflexivity.
      + intros v. unfold set_energy, get_lv. unfold bind at 1, asks at 1. rewrite Vb, K. unfold set_energyZ, get_lv. unfold bind at 1 2 3 4, asks. rewrite Vb, EZ, Pb, Ec. apply Es.
      + intros h0 z0 E. injection E as <- <-. exists c. split; [unfold manifold; now rewrite Vc, Kc|].
        split; [unfold energy; now rewrite Vc, Kc|]. intros v. unfold energy. destruct (NP p v c lc Vc) as [lc' [V' K']]. rewrite V', K', Kc. apply E2.
  Qed.

  (** Other manifolds keep their energies. *)
  Lemma unmoved : forall s p lp v b, WF s -> lv s p = Some lp -> l_kind lp = LE -> manifold s b <> Some p ->
    energy N muB (upd_lv p (@lv_set_E N v) s) b = energy N muB s b.
  Proof.
    intros s p lp v b W Vp Kp Hm.
    assert (L : forall c, c <> p -> lv (upd_lv p (@lv_set_E N v) s) c = lv s c).
    { intros c Hc. rewrite lv_upd_lv. destruct (Nat.eqb_spec p c); congruence. }
    assert (E0 : forall c, c <> p -> energyE (upd_lv p (@lv_set_E N v) s) c = energyE s c) by (intros c Hc; unfold energyE; now rewrite L).
    assert (E1 : forall c, c <> p -> (forall lc q, lv s c = Some lc -> l_parent lc = Some q -> q <> p) -> energyHF (upd_lv p (@lv_set_E N v) s) c = energyHF s c).
    { intros c Hc Hq. unfold energyHF. rewrite L by auto. destruct (lv s c) as [lc|] eqn:Vc; auto. destruct (l_parent lc) as [q|] eqn:Pq; auto.
      rewrite L, E0 by eauto. reflexivity. }
    unfold manifold in Hm. unfold energy. destruct (lv s b) as [lb|] eqn:Vb.
    - assert (Hb : b <> p).
      { intros ->. rewrite Vp in Vb. injection Vb as <-. rewrite Kp in Hm. congruence. }
      rewrite L, Vb by auto. destruct (l_kind lb) eqn:K.
      + auto.
      + apply E1; auto. intros lc q Vc Pq. rewrite Vb in Vc. injection Vc as <-. congruence.
      + destruct (wf_energyZ N muB _ _ _ W Vb K) as [c [lc [m [ec [Pb [Vc [Kc [EM [Ec EZ]]]]]]]]]. rewrite Pb, Vc in Hm.
        unfold energyZ. rewrite L, Vb, Pb, EM by auto. rewrite E1; auto; [intros ->; congruence|].
        intros lc' q V' Pq. rewrite Vc in V'. injection V' as <-. congruence.
    - rewrite L, Vb; auto. intros ->. congruence.
  Qed.
End Shape.

(** ** Rounding *)

Local Open Scope R_scope.
Notation fadd := (SFadd fprec femax).
Notation fsub := (SFsub fprec femax).

Lemma urnd_small : urnd <= / 1000.
Proof. unfold urnd. apply Rinv_le_contravar; [lra|]. replace (2 ^ 53) with (2 ^ 10 * 2 ^ 43) by (rewrite <- pow_add; reflexivity).
  assert (1 <= 2 ^ 43) by (apply pow_R1_Rle; lra). simpl (2 ^ 10). lra. Qed.

Lemma le_u : forall x y u, 0 <= u -> x <= y -> u * x <= u * y.
Proof. intros. now apply Rmult_le_compat_l. Qed.

(** What an addition or subtraction of doubles yields, to within the unit. *)
Lemma add_err : forall x y M, double x -> double y -> finite (fadd x y) -> Rabs (valR (fadd x y)) <= M ->
  - (urnd * M) <= valR (fadd x y) - (valR x + valR y) <= urnd * M.
Proof.
  intros x y M Hx Hy F B. destruct (add_close x y Hx Hy F) as [C _]. apply Rabs_le_inv.
  eapply Rle_trans; [exact C|]. apply le_u; auto. left. apply urnd_pos.
Qed.
Lemma add_err' : forall x y M, double x -> double y -> finite (fadd x y) -> Rabs (valR x + valR y) <= M ->
  - (urnd * M) <= valR (fadd x y) - (valR x + valR y) <= urnd * M.
Proof.
  intros x y M Hx Hy F B. destruct (add_close x y Hx Hy F) as [_ C]. apply Rabs_le_inv.
  eapply Rle_trans; [exact C|]. apply le_u; auto. left. apply urnd_pos.
Qed.
Lemma sub_err : forall x y M, double x -> double y -> finite (fsub x y) -> Rabs (valR x - valR y) <= M ->
  - (urnd * M) <= valR (fsub x y) - (valR x - valR y) <= urnd * M.
Proof.
  intros x y M Hx Hy F B. destruct (sub_close x y Hx Hy F) as [_ C]. apply Rabs_le_inv.
  eapply Rle_trans; [exact C|]. apply le_u; auto. left. apply urnd_pos.
Qed.

(** The step of the fine-structure level. *)
Lemma step_close : forall (o : off Binary64) (E v : Binary64) M, off_all (double : Binary64 -> Prop) o -> double E -> double v -> finite (lowered o E v) ->
  Rabs (valR E) <= M -> Rabs (valR (lowered o E v)) <= M -> Rabs (valR v) <= M -> Rabs (valR (raised o E)) <= M ->
  (forall h z, o = Zee h z -> Rabs (valR (fadd E h)) <= M) ->
  Rabs (valR (lowered o E v) - valR E - (valR v - valR (raised o E))) <= urnd * (9 * M).
Proof.
  intros o E v M Do DE Dv Fi BE BE' Bv Be Bh. pose proof urnd_pos as Up. pose proof urnd_small as Us.
  assert (M0 : 0 <= M) by (eapply Rle_trans; [apply Rabs_pos|exact BE]).
  assert (UM : 0 <= urnd * M) by (apply Rmult_le_pos; lra).
  assert (UUM : urnd * (urnd * M) <= / 1000 * (urnd * M)) by (apply Rmult_le_compat_r; auto).
  assert (U2 : 0 <= urnd * (urnd * M)) by (apply Rmult_le_pos; lra).
  destruct o as [|h|h z]; cbn [lowered raised off_all nadd nsub Binary64] in *.
  - replace (valR v - valR E - (valR v - valR E)) with 0 by ring. rewrite Rabs_R0. lra.
  - destruct (finite_add _ _ Fi) as [F1 F2].
    assert (D1 : double (fadd E h)) by now apply double_add.
    pose proof (add_err E (fsub v (fadd E h)) M DE (double_sub _ _ Dv D1) Fi BE') as A1.
    apply Rabs_le_inv in Bv. apply Rabs_le_inv in Be.
    pose proof (sub_err v (fadd E h) (2 * M) Dv D1 F2 ltac:(apply Rabs_le; lra)) as A2.
    apply Rabs_le. lra.
  - destruct Do as [Dh Dz]. specialize (Bh h z eq_refl). set (eh := fadd E h) in *. set (e := fadd eh z) in *.
    assert (D1 : double eh) by now apply double_add. assert (D2 : double e) by now apply double_add.
    set (d := fsub v e) in *. assert (D3 : double d) by now apply double_sub.
    set (w := fadd eh d) in *. assert (D4 : double w) by now apply double_add.
    set (d2 := fsub w eh) in *. assert (D5 : double d2) by now apply double_sub.
    destruct (finite_add _ _ Fi) as [F1 F2]. destruct (finite_sub _ _ F2) as [F3 F4]. destruct (finite_add _ _ F3) as [_ F5].
    apply Rabs_le_inv in Bv. apply Rabs_le_inv in Be. apply Rabs_le_inv in Bh.
    pose proof (add_err E d2 M DE D5 Fi BE') as A1.
    pose proof (sub_err v e (2 * M) Dv D2 F5 ltac:(apply Rabs_le; lra)) as A2. fold d in A2.
    assert (X1 : - (2001 / 1000 * 2 * M) <= valR d <= 2001 / 1000 * 2 * M).
    { assert (urnd * (2 * M) <= / 1000 * (2 * M)) by (apply Rmult_le_compat_r; lra). lra. }
    assert (X1' : - (2 * M + 2 * (urnd * M)) <= valR d <= 2 * M + 2 * (urnd * M)) by lra.
    pose proof (add_err' eh d (3 * M + 2 * (urnd * M)) D1 D3 F3 ltac:(apply Rabs_le; lra)) as A3. fold w in A3.
    assert (X2 : - (2 * M + 6 * (urnd * M)) <= valR w - valR eh <= 2 * M + 6 * (urnd * M)).
    { assert (urnd * (3 * M + 2 * (urnd * M)) = 3 * (urnd * M) + 2 * (urnd * (urnd * M))) by ring. lra. }
    pose proof (sub_err w eh (2 * M + 6 * (urnd * M)) D4 D1 F2 ltac:(apply Rabs_le; lra)) as A4. fold d2 in A4.
    assert (urnd * (3 * M + 2 * (urnd * M)) = 3 * (urnd * M) + 2 * (urnd * (urnd * M))) by ring.
    assert (urnd * (2 * M + 6 * (urnd * M)) = 2 * (urnd * M) + 6 * (urnd * (urnd * M))) by ring.
    apply Rabs_le. lra.
Qed.

(** The step of any level of the manifold against that of the fine-structure level. *)
Lemma raised_close : forall (o : off Binary64) (E E' : Binary64) M, off_all (double : Binary64 -> Prop) o -> double E -> double E' ->
  finite (raised o E) -> finite (raised o E') -> Rabs (valR E) <= M ->
  Rabs (valR (raised o E)) <= M -> Rabs (valR (raised o E')) <= M ->
  (forall h z, o = Zee h z -> Rabs (valR (fadd E h)) <= M /\ Rabs (valR (fadd E' h)) <= M) ->
  Rabs (valR (raised o E') - valR (raised o E) - (valR E' - valR E)) <= urnd * (4 * M).
Proof.
  intros o E E' M Do D1 D2 F1 F2 BE B1 B2 Bh. pose proof urnd_pos as Up.
  assert (M0 : 0 <= M) by (eapply Rle_trans; [apply Rabs_pos|exact BE]).
  assert (UM : 0 <= urnd * M) by (apply Rmult_le_pos; lra).
  destruct o as [|h|h z]; cbn [raised off_all nadd Binary64] in *.
  - replace (valR E' - valR E - (valR E' - valR E)) with 0 by ring. rewrite Rabs_R0. lra.
  - pose proof (add_err E h M D1 Do F1 B1). pose proof (add_err E' h M D2 Do F2 B2). apply Rabs_le. lra.
  - destruct Do as [Dh Dz]. destruct (Bh h z eq_refl) as [Bh1 Bh2].
    assert (Dx : double (fadd E h)) by now apply double_add. assert (Dy : double (fadd E' h)) by now apply double_add.
    pose proof (add_err _ z M Dx Dz F1 B1). pose proof (add_err _ z M Dy Dz F2 B2).
    apply finite_add in F1 as [F1 _]. apply finite_add in F2 as [F2 _].
    pose proof (add_err E h M D1 Dh F1 Bh1). pose proof (add_err E' h M D2 Dh F2 Bh2). apply Rabs_le. lra.
Qed.

(** ** The property *)

(** All numbers kept in the atom are doubles. *)
Record all_doubles (muB : spec_float) (s : st Binary64) : Prop := mk_all_doubles {
  ad_muB : double muB;
  ad_B : double (s_B s : Binary64);
  ad_lv : forall a (l : level Binary64), lv s a = Some l ->
    double (l_E l) /\ double (l_hfA l) /\ double (l_hfB l) /\ double (l_hfC l) /\ double (l_gF l) /\ double (l_qz l)
}.
(** [M] bounds the new energy and all energies of the manifold of [a], before and after. *)
Definition scale (muB : spec_float) (s s' : st Binary64) (a : nat) (v : spec_float) (M : R) : Prop :=
  Rabs (valR v) <= M /\
  forall b e, manifold s b = manifold s a -> energy Binary64 muB s b = Some e \/ energy Binary64 muB s' b = Some e -> Rabs (valR e) <= M.

Lemma doubles_shifts : forall muB s, all_doubles muB s -> shifts_ok (N := Binary64) muB (double : Binary64 -> Prop) s.
Proof.
  intros muB s [Dm DB Dl]. split.
  - intros i j f a l V. destruct (Dl a l V) as [H1 [H2 [H3 [H4 [H5 H6]]]]]. now apply double_hf_shift.
  - intros m a l V. destruct (Dl a l V) as [H1 [H2 [H3 [H4 [H5 H6]]]]]. now apply double_z_shift.
Qed.
Lemma lowered_double : forall (o : off Binary64) (E v : Binary64), off_all (double : Binary64 -> Prop) o -> double E -> double v -> double (lowered o E v).
Proof. intros [|h|h z] E v Do DE Dv; cbn [lowered off_all nadd nsub Binary64] in *; auto 10 with dbl. destruct Do. auto 10 with dbl. Qed.
Lemma raised_finite : forall (o : off Binary64) (E : Binary64), finite (raised o E) -> finite E.
Proof.
  intros [|h|h z] E F; cbn [raised nadd Binary64] in *; auto; repeat apply finite_add in F as [F _]; auto.
Qed.
Lemma lowered_finite : forall (o : off Binary64) (E v : Binary64), finite (lowered o E v) -> o <> Top -> finite (raised o E).
Proof.
  intros [|h|h z] E v F Ho; cbn [lowered raised nadd nsub Binary64] in *.
  - contradiction.
  - apply finite_add in F as [_ F]. now apply finite_sub in F.
  - apply finite_add in F as [_ F]. apply finite_sub in F as [F _]. apply finite_add in F as [_ F]. now apply finite_sub in F.
Qed.

Theorem C146_moves : forall muB orc, (forall n, oracle_ok (orc n)) -> forall s, reachable Binary64 muB orc s -> all_doubles muB s ->
  forall a l v, lv s a = Some l -> double v ->
  exists s' e e', set_energy Binary64 muB a v s = (Ok tt, s') /\ energy Binary64 muB s a = Some e /\ energy Binary64 muB s' a = Some e' /\
    (l_kind l = LE -> e' = v) /\
    (finite e' -> forall M, scale muB s s' a v M -> Rabs (valR e' - valR v) <= / 2 ^ 53 * (13 * M)) /\
    forall b eb, energy Binary64 muB s b = Some eb ->
      (manifold s b <> manifold s a -> energy Binary64 muB s' b = Some eb) /\
      (manifold s b = manifold s a -> exists eb', energy Binary64 muB s' b = Some eb' /\
         (finite e -> finite eb -> finite eb' -> forall M, scale muB s s' a v M -> Rabs ((valR eb' - valR eb) - (valR v - valR e)) <= / 2 ^ 53 * (13 * M))).
Proof.
  intros muB orc OK s R AD a l v V Dv. pose proof (reachable_WF Binary64 muB orc OK s R) as W. pose proof (doubles_shifts muB s AD) as Sh.
  destruct (shape muB (double : Binary64 -> Prop) s a l W Sh V) as [p [lp [o [Mp [Vp [Kp [Mpp [Ko [Do [Ep [Ea [Aft [Set_ Mid]]]]]]]]]]]]].
  destruct (ad_lv _ _ AD p lp Vp) as [DE _]. set (E := l_E lp) in *. set (E' := lowered o E v) in *.
  assert (DE' : double E') by now apply lowered_double.
  set (s' := upd_lv p (@lv_set_E Binary64 E') s).
  assert (G : forall b eb lb, lv s b = Some lb -> energy Binary64 muB s b = Some eb -> manifold s b = manifold s a ->
    exists eb', energy Binary64 muB s' b = Some eb' /\
    (finite (raised o E) -> finite eb -> finite eb' -> forall M, scale muB s s' a v M ->
      Rabs ((valR eb' - valR eb) - (valR v - valR (raised o E))) <= / 2 ^ 53 * (13 * M))).
  { intros b eb lb Vb Eb Mb. destruct (shape muB (double : Binary64 -> Prop) s b lb W Sh Vb) as [p' [lp' [ob [Mp' [Vp' [_ [_ [_ [Dob [_ [Eb' [Aft' [_ Mid']]]]]]]]]]]]].
    rewrite Mb, Mp in Mp'. injection Mp' as <-. rewrite Vp in Vp'. injection Vp' as <-. fold E in Eb', Mid'.
    rewrite Eb in Eb'. assert (X : eb = raised ob E) by congruence. subst eb.
    exists (raised ob E'). split; [apply Aft'|]. intros Fe Fb Fb' M [Bv B].
    assert (BE : Rabs (valR E) <= M) by (apply (B p); [congruence|left; auto]).
    assert (BE' : Rabs (valR E') <= M) by (apply (B p); [congruence|right; apply Aft]).
    assert (C1 : Rabs (valR E' - valR E - (valR v - valR (raised o E))) <= urnd * (9 * M)).
    { apply step_close; auto.
      - exact (raised_finite ob E' Fb').
      - apply (B a); auto.
      - intros h z Eo. destruct (Mid h z Eo) as [c [Mc [Ec _]]]. apply (B c); [congruence|left; exact Ec]. }
    assert (C2 : Rabs (valR (raised ob E') - valR (raised ob E) - (valR E' - valR E)) <= urnd * (4 * M)).
    { apply raised_close; auto.
      - apply (B b); auto.
      - apply (B b); auto. right. apply Aft'.
      - intros h z Eo. destruct (Mid' h z Eo) as [c [Mc [Ec Ec']]]. split; apply (B c); try congruence; [left; exact Ec|right; apply Ec']. }
    fold urnd. apply Rabs_le_inv in C1. apply Rabs_le_inv in C2. apply Rabs_le. lra. }
  exists s', (raised o E), (raised o E'). split; [apply Set_|]. split; [exact Ea|]. split; [apply Aft|]. split; [|split].
  - intros K. destruct o; try reflexivity; rewrite K in Ko; discriminate Ko.
  - intros Fe' M Sc. destruct (G a (raised o E) l V Ea eq_refl) as [e' [Ee H]].
    pose proof (proj2 (Aft E')) as X. fold s' in X. rewrite Ee in X. apply (f_equal (fun o => match o with Some x => x | None => e' end)) in X. subst e'.
    assert (M0 : 0 <= M) by (eapply Rle_trans; [apply Rabs_pos|exact (proj1 Sc)]). pose proof urnd_pos as Up.
    assert (UM : 0 <= urnd * M) by (apply Rmult_le_pos; lra).
    destruct (match o with Top => true | _ => false end) eqn:Eo.
    + destruct o; try discriminate Eo. cbn [raised lowered] in E' |- *. unfold E'. replace (valR v - valR v) with 0 by ring. rewrite Rabs_R0. fold urnd. lra.
    + assert (Fe : finite (raised o E)) by (apply (lowered_finite o E v); [exact (raised_finite o _ Fe')|intros ->; discriminate Eo]).
      specialize (H Fe Fe Fe' M Sc). replace (valR (raised o E') - valR v) with (valR (raised o E') - valR (raised o E) - (valR v - valR (raised o E))) by ring. exact H.
  - intros b eb Eb. split.
    + intros Hm. unfold s'. rewrite (unmoved muB s p lp); auto. congruence.
    + intros Hm. assert (Vb : exists lb, lv s b = Some lb) by (unfold energy in Eb; destruct (lv s b); [eauto|discriminate]).
      destruct Vb as [lb Vb]. exact (G b eb lb Vb Eb Hm).
Qed.
Print Assumptions C146_moves.

(** ** An instance *)

Definition all_doublesb (muB : spec_float) (s : st Binary64) : bool :=
  doubleb muB && doubleb (s_B s) &&
  forallb (fun l : level Binary64 => doubleb (l_E l) && doubleb (l_hfA l) && doubleb (l_hfB l) && doubleb (l_hfC l) && doubleb (l_gF l) && doubleb (l_qz l)) (s_levels s).
Lemma all_doublesb_ok : forall muB s, all_doublesb muB s = true -> all_doubles muB s.
Proof.
  intros muB s H. apply andb_true_iff in H as [H L]. apply andb_true_iff in H as [H1 H2]. rewrite forallb_forall in L. constructor; auto.
  intros a l V. specialize (L _ (nth_error_In _ _ V)). rewrite !andb_true_iff in L. destruct L as [[[[[H3 H4] H5] H6] H7] H8].
  repeat (split; [assumption|]). assumption.
Qed.

(** An atom with nuclear spin 1/2 in a field of 0.1; its level at 0.1 has the
    hyperfine constant 0.3.  Level 3 is its F=1 and level 4 the mF=-1 of that. *)
Definition fieldf : st Binary64 := runf (init Binary64 1 (f_ofQ (1 # 10)))
  [ONewLevel Binary64 [tS] (f_ofQ (1 # 10)) (f_ofQ (3 # 10)) (f_ofZ 0) (f_ofZ 0) (f_ofZ 2) None false; addf 0; nlf tP (2 # 10); addf 1;
   OSublevels Binary64 0; OSublevels Binary64 3].
Definition show (x : option spec_float) : option (Z * Z) := match x with Some (S754_finite sg m e) => Some ((if sg then Zneg m else Zpos m), e) | _ => None end.
(** Setting F=1 to 0.7 makes it 0.6999999999999999 and moves F=0, from -0.125 to
    0.39999999999999997; setting mF=-1 to 0.7 makes it 0.7; the other manifold
    stays at 0.2. *)
Example C146_case :
  let s1 := runf fieldf [OSetLevel Binary64 3 (f_ofQ (7 # 10))] in
  let s2 := runf fieldf [OSetLevel Binary64 4 (f_ofQ (7 # 10))] in
  reachable Binary64 (f_ofZ 1) plain fieldf /\ all_doubles (f_ofZ 1) fieldf /\
  f_ofQ (7 # 10) = S754_finite false 6305039478318694 (-53) /\
  map (fun l => (lname l, l_kind l)) (s_levels fieldf) = [("6s 2S1/2", LE); ("6p 2P*1/2", LE); ("6s 2S1/2 F=0", LHF); ("6s 2S1/2 F=1", LHF);
    ("6s 2S1/2 F=1 mF=-1", LZ); ("6s 2S1/2 F=1 mF=0", LZ); ("6s 2S1/2 F=1 mF=1", LZ)]%string /\
  map (manifold fieldf) [0; 1; 2; 3; 4]%nat = [Some 0; Some 1; Some 0; Some 0; Some 0]%nat /\
  map (fun a => show (energyf fieldf a)) [0; 1; 2; 3; 4]%nat =
    [Some (7205759403792794, -56); Some (7205759403792794, -55); Some (-9007199254740990, -56); Some (6305039478318694, -55); Some (5404319552844594, -56)]%Z /\
  map (fun a => show (energyf s1 a)) [0; 1; 2; 3; 4]%nat =
    [Some (5629499534213119, -53); Some (7205759403792794, -55); Some (7205759403792792, -54); Some (6305039478318693, -53); Some (5404319552844594, -53)]%Z /\
  map (fun a => show (energyf s2 a)) [0; 1; 2; 3; 4]%nat =
    [Some (6530219459687219, -53); Some (7205759403792794, -55); Some (4503599627370496, -53); Some (7205759403792793, -53); Some (6305039478318694, -53)]%Z.
Proof.
  cbv zeta. split; [exists 1%Z, (f_ofQ (1 # 10)), [ONewLevel Binary64 [tS] (f_ofQ (1 # 10)) (f_ofQ (3 # 10)) (f_ofZ 0) (f_ofZ 0) (f_ofZ 2) None false;
    addf 0; nlf tP (2 # 10); addf 1; OSublevels Binary64 0; OSublevels Binary64 3]; split; [lia|reflexivity]|].
  split; [apply all_doublesb_ok; vm_compute; reflexivity|]. do 5 (split; [vm_compute; reflexivity|]). vm_compute; reflexivity.
Qed.
