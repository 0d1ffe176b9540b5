(** Rounding errors of binary64 addition and subtraction, by way of Flocq. *)
From Coq Require Import ZArith Reals Lia Lra Floats.SpecFloat.
From Flocq Require Import Core Relative Plus_error BinarySingleNaN.
From Verif Require Import Base Util Term Num.
Local Open Scope R_scope.

(** The real number that a double stands for. *)
Definition valR (x : spec_float) : R := SF2R radix2 x.
(** A spec_float that is a double: mantissa and exponent fit. *)
Definition double (x : spec_float) : Prop := valid_binary fprec femax x = true.
Definition finite (x : spec_float) : Prop := is_finite_SF x = true.
(** Half a unit in the last place of 1. *)
Definition urnd : R := / 2 ^ 53.

Lemma Hprec : Prec_gt_0 fprec.
Proof. reflexivity. Qed.
Lemma Hmax : Prec_lt_emax fprec femax.
Proof. reflexivity. Qed.
Local Existing Instance Hprec.
Local Existing Instance Hmax.
Notation bf := (binary_float fprec femax).

Lemma round_aux_equiv : forall sx mx ex lx, SpecFloat.binary_round_aux fprec femax sx mx ex lx = BinarySingleNaN.binary_round_aux fprec femax mode_NE sx mx ex lx.
Proof.
  intros sx mx ex lx. unfold SpecFloat.binary_round_aux, BinarySingleNaN.binary_round_aux. destruct (shr_fexp _ _ _) as [m e].
  replace (choice_mode mode_NE sx (shr_m m) (loc_of_shr_record m)) with (round_nearest_even (shr_m m) (loc_of_shr_record m)); [reflexivity|].
  destruct (loc_of_shr_record m) as [|[]]; try reflexivity. simpl. unfold Round.cond_incr. now destruct (Z.even _).
Qed.
Lemma normalize_equiv : forall m e z, SpecFloat.binary_normalize fprec femax m e z = B2SF (BinarySingleNaN.binary_normalize fprec femax Hprec Hmax mode_NE m e z).
Proof.
  intros m e z. destruct m as [|p|p]; [reflexivity| |]; simpl; rewrite B2SF_SF2B; unfold SpecFloat.binary_round, BinarySingleNaN.binary_round, shl_align_fexp;
    destruct (shl_align _ _ _) as [mz ez]; apply round_aux_equiv.
Qed.
Lemma add_equiv : forall x y : bf, SFadd fprec femax (B2SF x) (B2SF y) = B2SF (Bplus mode_NE x y).
Proof.
  intros [sx|sx| |sx mx ex Bx] [sy|sy| |sy my ey By]; try (simpl; now destruct sx, sy); try reflexivity. apply normalize_equiv.
Qed.
Lemma sub_equiv : forall x y : bf, SFsub fprec femax (B2SF x) (B2SF y) = B2SF (Bminus mode_NE x y).
Proof.
  intros [sx|sx| |sx mx ex Bx] [sy|sy| |sy my ey By]; try (simpl; now destruct sx, sy); try reflexivity.
  simpl. unfold Zminus. rewrite <- cond_Zopp_negb. apply normalize_equiv.
Qed.

Lemma double_B : forall x, double x -> exists b : bf, x = B2SF b.
Proof. intros x H. exists (SF2B x H). symmetry. apply B2SF_SF2B. Qed.
Lemma B_double : forall b : bf, double (B2SF b).
Proof. intros b. apply valid_binary_B2SF. Qed.

Lemma double_add : forall x y, double x -> double y -> double (SFadd fprec femax x y).
Proof. intros x y Hx Hy. destruct (double_B x Hx) as [a ->], (double_B y Hy) as [b ->]. rewrite add_equiv. apply B_double. Qed.
Lemma double_sub : forall x y, double x -> double y -> double (SFsub fprec femax x y).
Proof. intros x y Hx Hy. destruct (double_B x Hx) as [a ->], (double_B y Hy) as [b ->]. rewrite sub_equiv. apply B_double. Qed.

(** A finite result has finite arguments. *)
Lemma finite_add : forall x y, finite (SFadd fprec femax x y) -> finite x /\ finite y.
Proof. intros [[]|[]| |[]] [[]|[]| |[]] H; split; (reflexivity || discriminate H). Qed.
Lemma finite_sub : forall x y, finite (SFsub fprec femax x y) -> finite x /\ finite y.
Proof. intros [[]|[]| |[]] [[]|[]| |[]] H; split; (reflexivity || discriminate H). Qed.
Lemma finite_abs : forall x, finite (SFabs x) -> finite x.
Proof. intros [[]|[]| |[]] H; (reflexivity || discriminate H). Qed.
Lemma valR_abs : forall x, valR (SFabs x) = Rabs (valR x).
Proof.
  intros [s|s| |s m e]; unfold valR; cbn; try (symmetry; apply Rabs_R0). rewrite <- F2R_Zabs. f_equal. f_equal. now destruct s.
Qed.

Lemma u_eq : u_ro radix2 fprec = urnd.
Proof. unfold u_ro, urnd. cbn. lra. Qed.
Lemma urnd_pos : 0 < urnd.
Proof. unfold urnd. apply Rinv_0_lt_compat. apply pow_lt. lra. Qed.

(** Both ways to measure the error of a sum. *)
Definition close (z r : R) : Prop := Rabs (r - z) <= urnd * Rabs r /\ Rabs (r - z) <= urnd * Rabs z.
Lemma round_close : forall x y, generic_format radix2 (FLT_exp (SpecFloat.emin fprec femax) fprec) x -> generic_format radix2 (FLT_exp (SpecFloat.emin fprec femax) fprec) y ->
  close (x + y) (round radix2 (FLT_exp (SpecFloat.emin fprec femax) fprec) (Znearest (fun z => negb (Z.even z))) (x + y)).
Proof.
  intros x y Fx Fy. set (c := fun z => negb (Z.even z)). split.
  - destruct (FLT_plus_error_N_round_ex radix2 (SpecFloat.emin fprec femax) fprec c x y Fx Fy) as [eps [He E]]. rewrite u_eq in He.
    set (r := round _ _ _ _) in *. replace (r - (x + y)) with (- eps * r) by (rewrite E; ring).
    rewrite Rabs_mult, Rabs_Ropp. apply Rmult_le_compat_r; [apply Rabs_pos|auto].
  - destruct (FLT_plus_error_N_ex radix2 (SpecFloat.emin fprec femax) fprec c x y Fx Fy) as [eps [He E]].
    assert (He' : Rabs eps <= urnd) by (rewrite <- u_eq; eapply Rle_trans; [exact He|apply u_rod1pu_ro_le_u_ro]).
    rewrite E. replace ((x + y) * (1 + eps) - (x + y)) with (eps * (x + y)) by ring. rewrite Rabs_mult. apply Rmult_le_compat_r; [apply Rabs_pos|auto].
Qed.

Lemma add_close : forall x y, double x -> double y -> finite (SFadd fprec femax x y) -> close (valR x + valR y) (valR (SFadd fprec femax x y)).
Proof.
  intros x y Hx Hy F. destruct (finite_add _ _ F) as [Fx Fy]. destruct (double_B x Hx) as [a ->], (double_B y Hy) as [b ->].
  rewrite add_equiv in *. unfold valR, finite in *. rewrite is_finite_SF_B2SF in F, Fx, Fy. rewrite !SF2R_B2SF.
  pose proof (Bplus_correct fprec femax _ _ mode_NE a b Fx Fy) as H. destruct (Rlt_bool _ _).
  - destruct H as [-> _]. apply round_close; apply generic_format_B2R.
  - destruct H as [H _]. rewrite <- is_finite_SF_B2SF in F. rewrite H in F. discriminate F.
Qed.
Lemma sub_close : forall x y, double x -> double y -> finite (SFsub fprec femax x y) -> close (valR x - valR y) (valR (SFsub fprec femax x y)).
Proof.
  intros x y Hx Hy F. destruct (finite_sub _ _ F) as [Fx Fy]. destruct (double_B x Hx) as [a ->], (double_B y Hy) as [b ->].
  rewrite sub_equiv in *. unfold valR, finite in *. rewrite is_finite_SF_B2SF in F, Fx, Fy. rewrite !SF2R_B2SF.
  pose proof (Bminus_correct fprec femax _ _ mode_NE a b Fx Fy) as H. destruct (Rlt_bool _ _).
  - destruct H as [-> _]. apply round_close; [apply generic_format_B2R|apply generic_format_opp, generic_format_B2R].
  - destruct H as [H _]. rewrite <- is_finite_SF_B2SF in F. rewrite H in F. discriminate F.
Qed.

(** One end was computed from the other end and the frequency; the frequency is
    then read back from the two ends. *)
Definition made (f el eu : spec_float) : Prop := eu = SFadd fprec femax el f \/ el = SFsub fprec femax eu f.
Lemma made_close : forall f el eu p q, double f -> double el -> double eu -> made f el eu -> (p = el /\ q = eu) \/ (p = eu /\ q = el) ->
  finite (SFabs (SFsub fprec femax p q)) ->
  Rabs (valR (SFabs (SFsub fprec femax p q)) - Rabs (valR f)) <= urnd * (3 * Rmax (Rabs (valR el)) (Rabs (valR eu))).
Proof.
  intros f el eu p q Df Dl Du Md Pq Fg. apply finite_abs in Fg.
  assert (Dp : double p /\ double q) by (destruct Pq as [[-> ->]|[-> ->]]; auto). destruct Dp as [Dp Dq].
  destruct (sub_close p q Dp Dq Fg) as [_ Cg]. apply finite_sub in Fg.
  assert (Fl : finite el /\ finite eu) by (destruct Pq as [[-> ->]|[-> ->]]; tauto). destruct Fl as [Fl Fu]. pose proof urnd_pos as Up.
  rewrite valR_abs. set (g := valR (SFsub fprec femax p q)) in *.
  pose proof (Rmax_l (Rabs (valR el)) (Rabs (valR eu))) as M1. pose proof (Rmax_r (Rabs (valR el)) (Rabs (valR eu))) as M2.
  set (M := Rmax _ _) in *.
  assert (Cf : Rabs (Rabs (valR el - valR eu) - Rabs (valR f)) <= urnd * M).
  { rewrite <- (Rabs_Ropp (valR f)). eapply Rle_trans; [apply Rabs_triang_inv2|]. destruct Md as [E|E].
    - rewrite E in Fu. destruct (add_close el f Dl Df Fu) as [C _]. rewrite <- E in C.
      replace (valR el - valR eu - - valR f) with (- (valR eu - (valR el + valR f))) by ring. rewrite Rabs_Ropp.
      eapply Rle_trans; [exact C|]. apply Rmult_le_compat_l; lra.
    - rewrite E in Fl. destruct (sub_close eu f Du Df Fl) as [C _]. rewrite <- E in C.
      replace (valR el - valR eu - - valR f) with (valR el - (valR eu - valR f)) by ring.
      eapply Rle_trans; [exact C|]. apply Rmult_le_compat_l; lra. }
  assert (B : Rabs (valR el - valR eu) <= 2 * M).
  { eapply Rle_trans; [apply Rabs_triang|]. rewrite Rabs_Ropp. lra. }
  assert (Epq : Rabs (valR p - valR q) = Rabs (valR el - valR eu)).
  { destruct Pq as [[-> ->]|[-> ->]]; auto. apply Rabs_minus_sym. }
  assert (Cg' : Rabs (Rabs g - Rabs (valR p - valR q)) <= urnd * (2 * M)).
  { eapply Rle_trans; [apply Rabs_triang_inv2|]. eapply Rle_trans; [exact Cg|]. rewrite Epq. apply Rmult_le_compat_l; lra. }
  rewrite Epq in Cg'.
  replace (Rabs g - Rabs (valR f)) with ((Rabs g - Rabs (valR el - valR eu)) + (Rabs (valR el - valR eu) - Rabs (valR f))) by ring.
  eapply Rle_trans; [apply Rabs_triang|]. lra.
Qed.
