(** Frequencies and energies in other units: wavelengths, wavenumbers, energies
    (C143). *)
From Coq Require Import List Bool ZArith QArith Qcanon Lia String Ascii Permutation.
From Verif Require Import Base PyStr Util UtilProofs Parse Term TermProofs Num Wigner Hyperfine HyperfineProofs
  Graph GraphProofs DfsProofs Rules Atom AtomInv AtomSafe AtomSafe2 AtomSafe3 AtomSafe4 AtomSafe5 AtomSafe6 AtomLevels AtomKeep AtomPaths AtomTrans
  AtomEnforce AtomEnforce2 AtomEnforce3 AtomEnforce4 AtomExample PropSublevels PropEnforce Units.
Import ListNotations.
Local Open Scope Qc_scope.

Lemma c_pos : 0 < c_light.
Proof. reflexivity. Qed.
Lemma c_nz : c_light <> 0.
Proof. intros E. pose proof c_pos as H. rewrite E in H. now apply Qclt_not_eq in H. Qed.
Lemma planck_pos : 0 < planck.
Proof. reflexivity. Qed.
Lemma planck_nz : planck <> 0.
Proof. intros E. pose proof planck_pos as H. rewrite E in H. now apply Qclt_not_eq in H. Qed.
Lemma one_nz : (1 : Qc) <> 0.
Proof. discriminate. Qed.

Ltac fld := field; repeat apply conj; auto using one_nz, c_nz, planck_nz.

(** A quantity the context can turn into a frequency. *)
Definition convertible (q : quantity) : Prop :=
  q_dim q <> OtherDim /\ (q_mag q = 0 -> q_dim q = Frequency \/ q_dim q = Energy).

Lemma over_ok : forall a x, x <> 0 -> over a x = Ok (a / x).
Proof. intros a x H. unfold over. now rewrite Qc_eqb_false. Qed.
Lemma over_0 : forall a, over a 0 = Raise ZeroDivisionError.
Proof. intros a. unfold over. now rewrite Qc_eqb_true. Qed.
Lemma div_nz : forall a x, a <> 0 -> x <> 0 -> a / x <> 0.
Proof. intros a x Ha Hx E. apply Ha. rewrite <- (Qcmult_div_r a x Hx), E. ring. Qed.

(** Every convertible quantity has a frequency, and the frequency is the
    quantity when read in the same unit. *)
Lemma unit_round_trip : forall q, convertible q -> exists f, to_freq q = Ok f /\ of_freq (q_dim q) f = Ok (q_mag q) /\ (0 <= q_mag q -> 0 <= f).
Proof.
  intros [m d] [H0 H1]. cbn [q_dim q_mag] in *. unfold to_freq, of_freq. cbn [q_dim q_mag].
  assert (P : forall x y : Qc, 0 <= x -> 0 <= y -> 0 <= x * y).
  { intros x y Hx Hy. replace 0 with (0 * y) by ring. now apply Qcmult_le_compat_r. }
  assert (Pi : forall x y : Qc, 0 <= x -> 0 <= y -> 0 <= x / y).
  { intros x y Hx Hy. apply P; auto. unfold Qcle in *. cbn in *. rewrite Qred_correct. apply Qinv_le_0_compat in Hy. exact Hy. }
  pose proof c_nz as Cz. pose proof planck_nz as Pz. destruct d.
  - exists m. auto.
  - assert (Hm : m <> 0) by (intros E; destruct (H1 E); discriminate). rewrite over_ok by auto. exists (c_light / m). split; auto.
    rewrite over_ok by now apply div_nz. split; [|intros; apply Pi; auto; apply Qclt_le_weak, c_pos]. f_equal. fld.
  - assert (Hm : m <> 0) by (intros E; destruct (H1 E); discriminate). rewrite over_ok by auto. rewrite over_ok by (apply div_nz; auto; apply one_nz).
    exists (c_light / (1 / m)). split; auto. rewrite over_ok by (apply div_nz; auto; apply div_nz; auto; apply one_nz).
    replace (c_light / (c_light / (1 / m))) with (1 / m) by fld. rewrite over_ok by (apply div_nz; auto; apply one_nz).
    split; [f_equal; fld|]. intros Hp. apply Pi; [apply Qclt_le_weak, c_pos|]. apply Pi; auto. discriminate.
  - exists (m / planck). split; auto. split; [f_equal; fld|]. intros; apply Pi; auto. apply Qclt_le_weak, planck_pos.
  - congruence.
Qed.

(** A transition that gets a wavelength (wavenumber, photon energy) for the
    first time has that wavelength, and the other set frequencies are still met. *)
Theorem C143_frequency : forall muB orc, (forall n, oracle_ok (orc n)) -> forall s, reachable Exact muB orc s -> settled muB s ->
  forall p q t x v, edge (s_g0 s) p q = Some t -> p <> q -> tr s t = Some x -> x_set x = None ->
  home Exact s (x_lo x) -> home Exact s (x_up x) -> free s p \/ free s q -> convertible v -> 0 <= q_mag v ->
  exists s', set_freq_q muB orc t v s = (Ok tt, s') /\ freq_in muB (q_dim v) t s' = Ok (q_mag v) /\
  (forall u w t' g, constraint s u w t' g -> freq Exact muB s' t' = Some g) /\ s_warn s' = s_warn s.
Proof.
  intros muB orc OK s R Se p q t x v Ed Npq V X0 Hl Hh Fr Cv Pv. destruct (unit_round_trip v Cv) as [f [Ef [Eb Pf]]].
  destruct (C42_set_frequency muB orc OK s R Se p q t x f Ed Npq V X0 (Pf Pv) Hl Hh Fr) as [s' [b [lb [Es [_ [_ [_ [_ [Hf [Hc [_ [Hw _]]]]]]]]]]]].
  pose proof (reachable_WF Exact muB orc OK s R) as W. destruct Hl as [l [Vl _]], Hh as [h [Vh _]].
  destruct (edge_names Exact s W t x l h V Vl Vh p q Ed) as [_ [_ [_ Kx]]].
  exists s'. split.
  - unfold set_freq_q, bind, get_tr, asks. rewrite V. cbv beta iota. rewrite Kx. unfold lift. rewrite Ef. exact Es.
  - split; [unfold freq_in; rewrite Hf; exact Eb|]. split; auto. intros u w t' g C. apply (Hc u w t' g C).
Qed.
Print Assumptions C143_frequency.

(** A line takes a frequency, and then has it: the conditions are those of C47. *)
Theorem C143_line : forall muB orc, (forall n, oracle_ok (orc n)) -> forall s, reachable Exact muB orc s -> settled muB s ->
  forall t x r xr p q, tr s t = Some x -> x_kind x <> TT -> root s t = Some r -> tr s r = Some xr -> edge (s_g0 s) p q = Some r -> p <> q ->
  x_set xr = None -> home Exact s (x_lo xr) -> home Exact s (x_up xr) -> free s p \/ free s q ->
  forall e1 e2 d1 d2 g gr f, energy Exact muB s (x_E1 x) = Some e1 -> energy Exact muB s (x_E2 x) = Some e2 ->
  energy Exact muB s (x_E1 xr) = Some d1 -> energy Exact muB s (x_E2 xr) = Some d2 ->
  (x_lo xr = x_E1 xr /\ d1 <= d2 /\ e1 <= e2) \/ (x_lo xr = x_E2 xr /\ d2 <= d1 /\ e2 <= e1) ->
  freq Exact muB s t = Some g -> freq Exact muB s r = Some gr -> 0 <= f -> 0 <= gr + (f - g) ->
  exists s', set_freq_q muB orc t (mkQ f Frequency) s = (Ok tt, s') /\ freq_in muB Frequency t s' = Ok f /\
    freq_in muB Frequency r s' = Ok (gr + (f - g)) /\ s_warn s' = s_warn s.
Proof.
  intros muB orc OK s R Se t x r xr p q V K Rt Vr Ed Npq X0 Hl Hh Fr e1 e2 d1 d2 g gr f E1 E2 D1 D2 Or Eg Er Hf Hw.
  destruct (C47_subtransition muB orc OK s R Se t x r xr p q V Rt Vr Ed Npq X0 Hl Hh Fr e1 e2 d1 d2 g gr f E1 E2 D1 D2 Or Eg Er Hf Hw) as [s' [E [F1 [F2 Wn]]]].
  exists s'. split; [|unfold freq_in; rewrite F1, F2; auto].
  unfold set_freq_q, bind, get_tr, asks. rewrite V. cbv beta iota. destruct (x_kind x); [congruence| |]; rewrite Eg; unfold lift, minus_freq; cbn [q_dim q_mag];
    replace (f - g + g) with f by ring; exact E.
Qed.
Print Assumptions C143_line.

(** A level that is given an energy in any unit has that energy. *)
Theorem C143_level : forall muB orc, (forall n, oracle_ok (orc n)) -> forall s, reachable Exact muB orc s ->
  forall a l v, lv s a = Some l -> l_kind l = LE -> convertible v ->
  exists s', set_level_q muB a v s = (Ok tt, s') /\ level_in muB (q_dim v) a s' = Ok (q_mag v).
Proof.
  intros muB orc OK s R a l v V K Cv. destruct (unit_round_trip v Cv) as [f [Ef [Eb _]]].
  destruct (C21_rigid muB orc OK s R a l (l_E l) f V (energy_LE Exact muB s a l V K)) as [s' [Es [Ee _]]].
  exists s'. split; [|unfold level_in; rewrite Ee; exact Eb].
  unfold set_level_q, bind, get_lv, asks. rewrite V. cbv beta iota. rewrite K. unfold lift. rewrite Ef. exact Es.
Qed.
Print Assumptions C143_level.
Theorem C143_new_level : forall muB (s : st Exact) ts v A B C g alias b, ts <> [] -> forallb plain_term ts = true -> convertible v ->
  exists s', new_level_q ts v A B C g alias b s = (Ok (List.length (s_levels s)), s') /\
  level_in muB (q_dim v) (List.length (s_levels s)) s' = Ok (q_mag v).
Proof.
  intros muB s ts v A B C g alias b Nt Pt Cv. destruct (unit_round_trip v Cv) as [f [Ef [Eb _]]].
  unfold new_level_q, bind at 1, lift. rewrite Ef. unfold new_level. destruct ts as [|t0 ts]; [congruence|]. rewrite Pt. eexists. split; [reflexivity|].
  unfold level_in, energy, lv. cbn [s_levels set_levels]. rewrite nth_error_app2, Nat.sub_diag by lia. cbn [nth_error l_kind energyE]. unfold energyE, lv.
  cbn [s_levels set_levels]. rewrite nth_error_app2, Nat.sub_diag by lia. exact Eb.
Qed.
Print Assumptions C143_new_level.

(** Wavelength times frequency is the speed of light. *)
Theorem C143_wavelength : forall muB (s : st Exact) t f, freq Exact muB s t = Some f ->
  (f <> 0 -> exists w, wl muB t s = Ok w /\ w * f = Q2Qc (299792458 # 1)) /\ (f = 0 -> wl muB t s = Raise ZeroDivisionError).
Proof.
  intros muB s t f E. unfold wl, freq_in. rewrite E. cbn [of_freq]. split; intros H.
  - rewrite over_ok by auto. exists (c_light / f). split; auto. fold c_light. fld.
  - rewrite H. apply over_0.
Qed.
Print Assumptions C143_wavelength.

(** ** What does not work *)

(** A ground level at 0 per cm cannot be made, nor a level moved there. *)
Theorem C143_zero_refuted : forall muB (s : st Exact) ts A B C g alias b a l, lv s a = Some l -> l_kind l = LE ->
  fst (new_level_q ts (mkQ 0 Wavenumber) A B C g alias b s) = Raise ZeroDivisionError /\
  fst (set_level_q muB a (mkQ 0 Wavenumber) s) = Raise ZeroDivisionError.
Proof.
  intros muB s ts A B C g alias b a l V K. unfold new_level_q, set_level_q, bind, get_lv, asks, lift. rewrite V. cbv beta iota. rewrite K.
  unfold to_freq. cbn [q_dim q_mag]. rewrite over_0. auto.
Qed.
Print Assumptions C143_zero_refuted.

(** Sublevels and lines take frequencies only. *)
Theorem C143_sublevel_refuted : forall muB orc, (forall n, oracle_ok (orc n)) -> forall s, reachable Exact muB orc s ->
  forall a l e v, lv s a = Some l -> l_kind l <> LE -> energy Exact muB s a = Some e ->
  (q_dim v <> Frequency -> set_level_q muB a v s = (Raise DimensionalityError, s)) /\
  (q_dim v = Frequency -> exists s', set_level_q muB a v s = (Ok tt, s') /\ energy Exact muB s' a = Some (q_mag v)).
Proof.
  intros muB orc OK s R a l e v V K E. split; intros D.
  - unfold set_level_q, bind, get_lv, asks. rewrite V. cbv beta iota. destruct (l_kind l); [congruence| |]; rewrite E; unfold lift, minus_freq; destruct (q_dim v); try congruence; reflexivity.
  - destruct (C21_rigid muB orc OK s R a l e (q_mag v) V E) as [s' [Es [Ee _]]]. exists s'. split; auto.
    unfold set_level_q, bind, get_lv, asks. rewrite V. cbv beta iota.
    destruct (l_kind l); [congruence| |]; rewrite E; unfold lift, minus_freq; rewrite D; replace (q_mag v - e + e) with (q_mag v) by ring; exact Es.
Qed.
Print Assumptions C143_sublevel_refuted.
Theorem C143_line_refuted : forall muB orc (s : st Exact) t x f v, tr s t = Some x -> x_kind x <> TT -> freq Exact muB s t = Some f ->
  q_dim v <> Frequency -> set_freq_q muB orc t v s = (Raise DimensionalityError, s).
Proof.
  intros muB orc s t x f v V K E D. unfold set_freq_q, bind, get_tr, asks. rewrite V. cbv beta iota.
  destruct (x_kind x); [congruence| |]; rewrite E; unfold lift, minus_freq; destruct (q_dim v); try congruence; reflexivity.
Qed.
Print Assumptions C143_line_refuted.

(** ** Instances *)

(** The chain of C42, its first step set to the wavelength c/12. *)
Example C143_case : reachable Exact 1 plain chain /\ settled 1 chain /\ convertible (mkQ (c_light / Q2Qc 12) Length) /\
  first_time chain (CSet 0 (Q2Qc 12)) /\
  let s' := snd (set_freq_q 1 plain 0 (mkQ (c_light / Q2Qc 12) Length) chain) in
  freq Exact 1 s' 0 = Some (Q2Qc 12) /\ wl 1 0 s' = Ok (c_light / Q2Qc 12).
Proof.
  split; [apply chain_reachable|]. split; [apply chain_settled|]. split; [split; [discriminate|intros E; discriminate E]|].
  split; [apply C42_case|]. split; vm_compute; reflexivity.
Qed.
(** A line of a transition between two levels with hyperfine structure. *)
Example C143_line_case :
  let s := runx (two 1) [ONewTransition Exact 0 1 None None None; OSubtransitions Exact 0] in
  reachable Exact 1 plain s /\ option_map (@x_kind Exact) (tr s 1) = Some THF /\
  fst (set_freq_q 1 plain 1 (mkQ 1 Length) s) = Raise DimensionalityError /\ fst (set_freq_q 1 plain 1 (mkQ 1 Frequency) s) = Ok tt.
Proof.
  cbv zeta. split; [apply more_reachable; apply from_reachable; lia|]. split; [vm_compute; reflexivity|]. split; vm_compute; reflexivity.
Qed.
(** The line of C47, from 13 to 20. *)
Example C143_line_set_case : reachable Exact 1 plain hyper /\ settled 1 hyper /\ root hyper 1 = Some 0%nat /\
  option_map (@x_kind Exact) (tr hyper 1) = Some THF /\ freq_in 1 Frequency 1 hyper = Ok (Q2Qc 13) /\
  let s' := snd (set_freq_q 1 plain 1 (mkQ (Q2Qc 20) Frequency) hyper) in
  freq_in 1 Frequency 1 s' = Ok (Q2Qc 20) /\ freq_in 1 Frequency 0 s' = Ok (Q2Qc 17).
Proof.
  split; [apply C47_case|]. split; [apply C47_case|]. split; [apply C47_case|]. split; [apply C47_case|].
  split; [vm_compute; reflexivity|]. split; vm_compute; reflexivity.
Qed.
(** A transition between levels of the same energy has no wavelength, not even
    an infinite one. *)
Theorem C143_degenerate_refuted :
  let s := runx (from 1) [nl tS 5; add 0; nl tP 5; add 1; ONewTransition Exact 0 1 None None None] in
  reachable Exact 1 plain s /\ freq Exact 1 s 0 = Some (Q2Qc 0) /\ wl 1 0 s = Raise ZeroDivisionError /\
  match freq_in 1 Energy 0 s with Ok x => this x = 0%Q | Raise _ => False end /\
  freq_in 1 Wavenumber 0 s = Raise ZeroDivisionError.
Proof.
  cbv zeta. split; [apply from_reachable; lia|]. split; [vm_compute; reflexivity|]. split; [vm_compute; reflexivity|]. split; vm_compute; reflexivity.
Qed.
Print Assumptions C143_degenerate_refuted.
