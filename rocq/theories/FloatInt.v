(** Binary64 arithmetic on integers below 2^53 is exact. *)
From Coq Require Import List Bool ZArith QArith Lia Floats.SpecFloat Zpower.
From Verif Require Import Base Util Term Num.
Local Open Scope Z_scope.

Lemma digits_spec : forall m, 2 ^ (Zpos (digits2_pos m) - 1) <= Zpos m < 2 ^ Zpos (digits2_pos m).
Proof.
  induction m as [m IH|m IH|]; simpl digits2_pos; [| |simpl; lia];
    rewrite Pos2Z.inj_succ; replace (Z.succ (Zpos (digits2_pos m)) - 1) with (Zpos (digits2_pos m) - 1 + 1) by lia;
    replace (Z.succ (Zpos (digits2_pos m))) with (Zpos (digits2_pos m) + 1) by lia; rewrite !Z.pow_add_r by lia; lia.
Qed.
Lemma digits_unique : forall m d, 0 < d -> 2 ^ (d - 1) <= Zpos m < 2 ^ d -> Zpos (digits2_pos m) = d.
Proof.
  intros m d Hd H. pose proof (digits_spec m) as K. set (c := Zpos (digits2_pos m)) in *.
  assert (0 < c) by (unfold c; lia).
  destruct (Z.lt_trichotomy c d) as [L|[L|L]]; auto; exfalso.
  - assert (2 ^ c <= 2 ^ (d - 1)) by (apply Z.pow_le_mono_r; lia). lia.
  - assert (2 ^ d <= 2 ^ (c - 1)) by (apply Z.pow_le_mono_r; lia). lia.
Qed.
Lemma digits_le : forall m d, 0 < d -> Zpos m < 2 ^ d -> Zpos (digits2_pos m) <= d.
Proof.
  intros m d Hd H. pose proof (digits_spec m) as K. destruct (Z.le_gt_cases (Zpos (digits2_pos m)) d) as [|L]; auto. exfalso.
  assert (2 ^ d <= 2 ^ (Zpos (digits2_pos m) - 1)) by (apply Z.pow_le_mono_r; lia). lia.
Qed.

(** [m * 2^k] *)
Definition scale (m : positive) (k : Z) : positive := Z.to_pos (Zpos m * 2 ^ k).
Lemma scale_eq : forall m k, 0 <= k -> Zpos (scale m k) = Zpos m * 2 ^ k.
Proof. intros m k H. unfold scale. rewrite Z2Pos.id; auto. assert (0 < 2 ^ k) by (apply Z.pow_pos_nonneg; lia). nia. Qed.
Lemma scale_0 : forall m, scale m 0 = m.
Proof. intros m. apply Pos2Z.inj. rewrite scale_eq by lia. lia. Qed.
Lemma scale_scale : forall m j k, 0 <= j -> 0 <= k -> scale (scale m j) k = scale m (j + k).
Proof. intros m j k Hj Hk. apply Pos2Z.inj. rewrite !scale_eq, Z.pow_add_r by lia. ring. Qed.
Lemma digits_scale : forall m k, 0 <= k -> Zpos (digits2_pos (scale m k)) = Zpos (digits2_pos m) + k.
Proof.
  intros m k H. apply digits_unique; [lia|]. rewrite scale_eq by auto. pose proof (digits_spec m) as K.
  replace (Zpos (digits2_pos m) + k - 1) with (Zpos (digits2_pos m) - 1 + k) by lia. rewrite !Z.pow_add_r by lia.
  assert (0 < 2 ^ k) by (apply Z.pow_pos_nonneg; lia). nia.
Qed.
Lemma shift_scale : forall d m, shift_pos d m = scale m (Zpos d).
Proof.
  intros d m. apply Pos2Z.inj. rewrite scale_eq by lia. rewrite shift_pos_correct, Zpower_pos_nat, Zpower_nat_Z, positive_nat_Z. ring.
Qed.

Lemma shr1_scale : forall m, shr_1 (Build_shr_record (Zpos (scale m 1)) false false) = Build_shr_record (Zpos m) false false.
Proof. intros m. replace (scale m 1) with (xO m); auto. apply Pos2Z.inj. rewrite scale_eq by lia. lia. Qed.
Lemma shr_scale : forall p m, iter_pos shr_1 p (Build_shr_record (Zpos (scale m (Zpos p))) false false) = Build_shr_record (Zpos m) false false.
Proof.
  induction p as [p IH|p IH|]; intros m; cbn [iter_pos].
  - replace (scale m (Zpos p~1)) with (scale (scale (scale m (Zpos p)) (Zpos p)) 1) by (rewrite !scale_scale by lia; f_equal; lia).
    rewrite shr1_scale, IH, IH. reflexivity.
  - replace (scale m (Zpos p~0)) with (scale (scale m (Zpos p)) (Zpos p)) by (rewrite !scale_scale by lia; f_equal; lia).
    rewrite IH, IH. reflexivity.
  - apply shr1_scale.
Qed.

(** The number of binary digits. *)
Definition dg (m : positive) : Z := Zpos (digits2_pos m).
(** The float with the value [m]. *)
Definition fint (s : bool) (m : positive) : spec_float := S754_finite s (scale m (53 - dg m)) (dg m - 53).

Lemma fexp_dg : forall d, 1 <= d -> fexp fprec femax d = d - 53.
Proof. intros d H. unfold fexp, emin, fprec, femax. lia. Qed.

Lemma round_aux_exact : forall s m n, dg m <= 53 -> 0 <= n ->
  binary_round_aux fprec femax s (Zpos (scale m (53 - dg m + n))) (dg m - 53 - n) loc_Exact = fint s m.
Proof.
  intros s m n Hd Hn. assert (H1 : 1 <= dg m) by (unfold dg; lia). unfold binary_round_aux, shr_fexp at 1. unfold Zdigits2 at 1.
  rewrite digits_scale by lia. fold (dg m). replace (dg m + (53 - dg m + n) + (dg m - 53 - n)) with (dg m) by lia. rewrite fexp_dg by auto.
  replace (dg m - 53 - (dg m - 53 - n)) with n by lia.
  assert (Q : shr (shr_record_of_loc (Zpos (scale m (53 - dg m + n))) loc_Exact) (dg m - 53 - n) n =
    (Build_shr_record (Zpos (scale m (53 - dg m))) false false, dg m - 53)).
  { cbn [shr_record_of_loc]. destruct n as [|p|p]; [|unfold shr|lia].
    - cbn [shr]. f_equal; [|lia]. f_equal. f_equal. f_equal. lia.
    - rewrite <- scale_scale by lia. rewrite shr_scale. f_equal. lia. }
  rewrite Q. cbn [shr_m loc_of_shr_record round_nearest_even]. unfold shr_fexp, Zdigits2. rewrite digits_scale by lia. fold (dg m).
  replace (dg m + (53 - dg m) + (dg m - 53)) with (dg m) by lia. rewrite fexp_dg by auto. replace (dg m - 53 - (dg m - 53)) with 0 by lia. cbn [shr shr_m shr_record_of_loc].
  replace (Zle_bool (dg m - 53) (femax - fprec)) with true; [reflexivity|]. symmetry. apply Zle_is_le_bool. unfold femax, fprec. lia.
Qed.

Lemma round_exact : forall s m k, dg m <= 53 -> 0 <= k -> binary_round fprec femax s (scale m k) (- k) = fint s m.
Proof.
  intros s m k Hd Hk. unfold binary_round. rewrite digits_scale by auto. fold (dg m). replace (dg m + k + - k) with (dg m) by lia.
  assert (1 <= dg m) by (unfold dg; lia). rewrite fexp_dg by auto. unfold shl_align.
  destruct (dg m - 53 - - k) as [|p|p] eqn:E.
  - rewrite <- (round_aux_exact s m 0) by lia. f_equal; [|lia]. f_equal. f_equal. lia.
  - rewrite <- (round_aux_exact s m (Zpos p)) by lia. f_equal; [|lia]. f_equal. f_equal. lia.
  - rewrite shift_scale, scale_scale by lia. rewrite <- (round_aux_exact s m 0) by lia. f_equal; [|lia]. f_equal. f_equal. lia.
Qed.

Lemma ofZ_pos : forall m, dg m <= 53 -> f_ofZ (Zpos m) = fint false m.
Proof. intros m H. unfold f_ofZ. cbn [binary_normalize]. rewrite <- (scale_0 m) at 1. exact (round_exact false m 0 H (Z.le_refl 0)). Qed.
Lemma ofZ_neg : forall m, dg m <= 53 -> f_ofZ (Zneg m) = fint true m.
Proof. intros m H. unfold f_ofZ. cbn [binary_normalize]. rewrite <- (scale_0 m) at 1. exact (round_exact true m 0 H (Z.le_refl 0)). Qed.

(** The integers every float holds exactly. *)
Definition small (z : Z) : Prop := Z.abs z < 2 ^ 53.
Lemma small_dg : forall m, Zpos m < 2 ^ 53 -> dg m <= 53.
Proof. intros m H. unfold dg. now apply digits_le. Qed.

Lemma normalize_exact : forall z k, small z -> 0 <= k -> binary_normalize fprec femax (z * 2 ^ k) (- k) false = f_ofZ z.
Proof.
  intros z k Hz Hk. destruct z as [|m|m]; unfold small in Hz; cbn [Z.abs] in Hz.
  - reflexivity.
  - rewrite ofZ_pos by (now apply small_dg). rewrite <- scale_eq by auto. cbn [binary_normalize]. apply round_exact; auto. now apply small_dg.
  - rewrite ofZ_neg by (now apply small_dg). replace (Zneg m * 2 ^ k) with (- (Zpos m * 2 ^ k)) by (change (Zneg m) with (- Zpos m); ring).
    rewrite <- scale_eq by auto. cbn [binary_normalize Z.opp]. apply round_exact; auto. now apply small_dg.
Qed.

(** Integers as floats, without case distinction on the sign. *)
Definition sg (z : Z) : bool := Z.ltb z 0.
Lemma ofZ_nz : forall z, z <> 0 -> small z -> f_ofZ z = fint (sg z) (Z.to_pos (Z.abs z)) /\ z = cond_Zopp (sg z) (Zpos (Z.to_pos (Z.abs z))).
Proof.
  intros z H S. destruct z as [|m|m]; [congruence| |]; unfold small in S; cbn [Z.abs] in *; cbn; split; auto.
  - apply ofZ_pos. now apply small_dg.
  - apply ofZ_neg. now apply small_dg.
Qed.

Lemma align_scale : forall m e, e <= dg m - 53 -> dg m <= 53 -> fst (shl_align (scale m (53 - dg m)) (dg m - 53) e) = scale m (- e).
Proof.
  intros m e He Hd. unfold shl_align. destruct (e - (dg m - 53)) as [|p|p] eqn:E; [| lia|]; cbn [fst].
  - f_equal. lia.
  - rewrite shift_scale, scale_scale by lia. f_equal. lia.
Qed.

Lemma cond_scale : forall b m k, 0 <= k -> cond_Zopp b (Zpos (scale m k)) = cond_Zopp b (Zpos m) * 2 ^ k.
Proof. intros [] m k H; cbn [cond_Zopp]; rewrite scale_eq by auto; ring. Qed.

Lemma add_exact : forall a b, small a -> small b -> small (a + b) -> SFadd fprec femax (f_ofZ a) (f_ofZ b) = f_ofZ (a + b).
Proof.
  intros a b Ha Hb Hs. destruct (Z.eq_dec a 0) as [->|Na].
  - replace (0 + b) with b by lia. destruct (Z.eq_dec b 0) as [->|Nb]; [reflexivity|]. destruct (ofZ_nz b Nb Hb) as [-> _]. reflexivity.
  - destruct (Z.eq_dec b 0) as [->|Nb]; [replace (a + 0) with a by lia; destruct (ofZ_nz a Na Ha) as [-> _]; reflexivity|].
    destruct (ofZ_nz a Na Ha) as [Ea Va]. destruct (ofZ_nz b Nb Hb) as [Eb Vb]. rewrite Ea, Eb. unfold fint, SFadd.
    set (m := Z.to_pos (Z.abs a)) in *. set (n := Z.to_pos (Z.abs b)) in *.
    assert (Dm : dg m <= 53) by (apply small_dg; unfold small in Ha; unfold m; rewrite Z2Pos.id; lia).
    assert (Dn : dg n <= 53) by (apply small_dg; unfold small in Hb; unfold n; rewrite Z2Pos.id; lia).
    set (ez := Z.min (dg m - 53) (dg n - 53)). rewrite !align_scale by (unfold ez; lia). rewrite !cond_scale by (unfold ez; lia).
    rewrite <- Va, <- Vb, <- Z.mul_add_distr_r. replace ez with (- - ez) at 2 by lia. apply normalize_exact; auto. unfold ez. lia.
Qed.
Lemma sub_exact : forall a b, small a -> small b -> small (a - b) -> SFsub fprec femax (f_ofZ a) (f_ofZ b) = f_ofZ (a - b).
Proof.
  intros a b Ha Hb Hs. destruct (Z.eq_dec a 0) as [->|Na].
  - destruct (Z.eq_dec b 0) as [->|Nb]; [reflexivity|]. destruct (ofZ_nz b Nb Hb) as [-> _]. destruct (ofZ_nz (0 - b)) as [-> _]; auto; [lia|].
    unfold fint. cbn [f_ofZ binary_normalize SFsub]. replace (Z.abs (0 - b)) with (Z.abs b) by lia. f_equal. unfold sg.
    destruct (Z.ltb_spec b 0), (Z.ltb_spec (0 - b) 0); auto; lia.
  - destruct (Z.eq_dec b 0) as [->|Nb]; [replace (a - 0) with a by lia; destruct (ofZ_nz a Na Ha) as [-> _]; reflexivity|].
    destruct (ofZ_nz a Na Ha) as [Ea Va]. destruct (ofZ_nz b Nb Hb) as [Eb Vb]. rewrite Ea, Eb. unfold fint, SFsub.
    set (m := Z.to_pos (Z.abs a)) in *. set (n := Z.to_pos (Z.abs b)) in *.
    assert (Dm : dg m <= 53) by (apply small_dg; unfold small in Ha; unfold m; rewrite Z2Pos.id; lia).
    assert (Dn : dg n <= 53) by (apply small_dg; unfold small in Hb; unfold n; rewrite Z2Pos.id; lia).
    set (ez := Z.min (dg m - 53) (dg n - 53)). rewrite !align_scale by (unfold ez; lia). rewrite !cond_scale by (unfold ez; lia).
    rewrite <- Va, <- Vb, <- Z.mul_sub_distr_r. replace ez with (- - ez) at 2 by lia. apply normalize_exact; auto. unfold ez. lia.
Qed.
Lemma abs_exact : forall a, small a -> SFabs (f_ofZ a) = f_ofZ (Z.abs a).
Proof.
  intros a Ha. destruct a as [|m|m]; unfold small in Ha; cbn [Z.abs] in *; auto.
  - rewrite ofZ_pos by (now apply small_dg). reflexivity.
  - rewrite ofZ_pos, ofZ_neg by (now apply small_dg). reflexivity.
Qed.
Lemma eqb_refl_int : forall a, small a -> SFeqb (f_ofZ a) (f_ofZ a) = true.
Proof.
  intros a Ha. destruct (Z.eq_dec a 0) as [->|Na]; [reflexivity|]. destruct (ofZ_nz a Na Ha) as [-> _]. unfold fint, SFeqb, SFcompare.
  rewrite Z.compare_refl. change (Pos.compare_cont Eq ?m ?m) with (Pos.compare m m). rewrite Pos.compare_refl. now destruct (sg a).
Qed.
Lemma finite_inj : forall s m e s' m' e', S754_finite s m e = S754_finite s' m' e' -> s = s' /\ m = m' /\ e = e'.
Proof. intros s m e s' m' e' H. now injection H. Qed.
Lemma ofZ_inj : forall a b, small a -> small b -> f_ofZ a = f_ofZ b -> a = b.
Proof.
  intros a b Ha Hb E. assert (H : forall z, small z -> z <> 0 -> f_ofZ z <> f_ofZ 0).
  { intros z Hz Nz. destruct (ofZ_nz z Nz Hz) as [-> _]. discriminate. }
  destruct (Z.eq_dec a 0) as [->|Na], (Z.eq_dec b 0) as [->|Nb]; auto.
  - exfalso. exact (H b Hb Nb (eq_sym E)).
  - exfalso. exact (H a Ha Na E).
  - destruct (ofZ_nz a Na Ha) as [Ea Va]. destruct (ofZ_nz b Nb Hb) as [Eb Vb]. rewrite Ea, Eb in E. apply finite_inj in E as [E1 [E2 E3]]. rewrite Va, Vb, E1. f_equal. f_equal.
    assert (Ed : dg (Z.to_pos (Z.abs a)) = dg (Z.to_pos (Z.abs b))) by lia. rewrite Ed in E2. apply (f_equal Zpos) in E2.
    assert (Dn : dg (Z.to_pos (Z.abs b)) <= 53) by (apply small_dg; unfold small in Hb; rewrite Z2Pos.id; lia).
    rewrite !scale_eq in E2 by lia. apply Pos2Z.inj. eapply Z.mul_reg_r; [|exact E2]. apply Z.pow_nonzero; lia.
Qed.
