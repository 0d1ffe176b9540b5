(** Properties C107-C109: light fields ([environment.py]), over the reals. *)
From Coq Require Import List Bool Reals Lra Lia Ranalysis5 Rtrigo Ratan.
From Verif Require Import Base Environment.
Import ListNotations.
Local Open Scope R_scope.

(** Written out independently of the model: the squared length, the product
    without complex conjugation, the conjugate. *)
Definition len2 (v : vec) : R := let '((a, a'), (b, b'), (c, c')) := v in a^2 + a'^2 + b^2 + b'^2 + c^2 + c'^2.
Definition dot (v w : vec) : R * R :=
  let '((a, a'), (b, b'), (c, c')) := v in let '((x, x'), (y, y'), (z, z')) := w in
  (a * x - a' * x' + b * y - b' * y' + c * z - c' * z', a * x' + a' * x + b * y' + b' * y + c * z' + c' * z).
Definition conj (v : vec) : vec := let '((a, a'), (b, b'), (c, c')) := v in ((a, - a'), (b, - b'), (c, - c')).

Ltac coords := repeat match goal with v : vec |- _ => destruct v as [[[? ?] [? ?]] [? ?]] end;
  unfold light_E, light_B, scale, cross, real_vec, re, cmult, cplus, cminus, vx, vy, vz, dot, len2, conj, abs2 in *; cbn [fst snd f_k f_pol f_int] in *.

Lemma len2_nonneg : forall v, 0 <= len2 v.
Proof.
  intros [[[a a'] [b b']] [c c']]. unfold len2. pose proof (pow2_ge_0 a). pose proof (pow2_ge_0 a'). pose proof (pow2_ge_0 b).
  pose proof (pow2_ge_0 b'). pose proof (pow2_ge_0 c). pose proof (pow2_ge_0 c'). lra.
Qed.
Lemma norm_len : forall v, norm v = sqrt (len2 v).
Proof. intros [[[a a'] [b b']] [c c']]. unfold norm, len2, abs2, vx, vy, vz. cbn [fst snd]. f_equal. ring. Qed.
Lemma norm_sq : forall v, norm v ^ 2 = len2 v.
Proof. intros v. rewrite norm_len. apply pow2_sqrt, len2_nonneg. Qed.
Lemma len2_scale : forall r v, len2 (scale r v) = r ^ 2 * len2 v.
Proof. intros. coords. ring. Qed.

Ltac pairs := repeat match goal with |- (_, _) = (_, _) => apply f_equal2 end.
Lemma cross_real : forall x y z p1 q1 p2 q2 p3 q3,
  cross (real_vec x y z) ((p1, q1), (p2, q2), (p3, q3)) = ((y * p3 - z * p2, y * q3 - z * q2), (z * p1 - x * p3, z * q1 - x * q3), (x * p2 - y * p1, x * q2 - y * q1)).
Proof. intros. coords. pairs; ring. Qed.
Lemma scale_at : forall r p1 q1 p2 q2 p3 q3, scale r ((p1, q1), (p2, q2), (p3, q3)) = ((r * p1, r * q1), (r * p2, r * q2), (r * p3, r * q3)).
Proof. intros. coords. pairs; ring. Qed.

Section Constants.
  Variables c eps : R.
  Hypothesis Hc : 0 < c.
  Hypothesis He : 0 < eps.

  Lemma E_len : forall f, 0 <= f_int f -> c * eps / 2 * len2 (light_E c eps f) = f_int f * len2 (f_pol f).
  Proof.
    intros f Hi. unfold light_E. rewrite len2_scale, pow2_sqrt.
    - field. lra.
    - apply Rmult_le_pos; [lra|]. apply Rlt_le, Rinv_0_lt_compat, Rmult_lt_0_compat; auto.
  Qed.

  (** C107.  The energy flux c eps |E|^2 / 2 of an accepted field exceeds the
      given intensity by at most a relative 2.000001e-6, and is the intensity
      if the polarization is a unit vector; longer vectors are rejected. *)
  Theorem C107_partial : forall k i pol, 0 <= i ->
    match new_light k i pol with
    | Ok f => f_k f = k /\ norm pol < 1 + 1 / 1000000 /\ c * eps / 2 * norm (light_E c eps f) ^ 2 <= i * (1 + 2000001 / 1000000000000) /\
        (norm pol = 1 -> c * eps / 2 * norm (light_E c eps f) ^ 2 = i)
    | Raise e => e = AssertionError /\ 1 + 1 / 1000000 <= norm pol
    end.
  Proof.
    intros k i pol Hi. unfold new_light. destruct (Rlt_dec (norm pol - 1) (1 / 1000000)) as [L|L]; [|split; auto; lra].
    split; [reflexivity|]. split; [lra|].
    assert (E : c * eps / 2 * norm (light_E c eps {| f_k := k; f_pol := pol; f_int := i |}) ^ 2 = i * norm pol ^ 2).
    { rewrite !norm_sq. exact (E_len {| f_k := k; f_pol := pol; f_int := i |} Hi). }
    rewrite E. split.
    - apply Rmult_le_compat_l; auto. assert (P : 0 <= norm pol) by apply sqrt_pos.
      apply Rle_trans with ((1 + 1 / 1000000) ^ 2); [apply pow_incr; lra|lra].
    - intros ->. ring.
  Qed.
  (** Shorter vectors, even the zero vector, are accepted: the flux is then
      less than the intensity. *)
  Theorem C107_short_refuted : forall k i pol, 0 < i -> norm pol < 1 ->
    exists f, new_light k i pol = Ok f /\ f_pol f = pol /\ c * eps / 2 * norm (light_E c eps f) ^ 2 < i.
  Proof.
    intros k i pol Hi Hp. exists {| f_k := k; f_pol := pol; f_int := i |}. unfold new_light.
    destruct (Rlt_dec (norm pol - 1) (1 / 1000000)) as [L|L]; [|exfalso; apply L; lra]. split; [reflexivity|]. split; [reflexivity|].
    rewrite norm_sq, E_len by (cbn; lra). cbn [f_int f_pol]. rewrite <- norm_sq. assert (P : 0 <= norm pol) by apply sqrt_pos.
    rewrite <- (Rmult_1_r i) at 2. apply Rmult_lt_compat_l; auto. nra.
  Qed.

  (** C108.  B is perpendicular to k and to E.  If k is a real unit vector
      perpendicular to the polarization, |B| = |E| / c and the energy flux, the
      mean of E x B / mu0, is the intensity in the direction of k. *)
  Theorem C108_perpendicular : forall k i pol f, new_light k i pol = Ok f ->
    dot k (light_B c eps f) = (0, 0) /\ dot (light_E c eps f) (light_B c eps f) = (0, 0).
  Proof.
    intros k i pol f H. unfold new_light in H. destruct (Rlt_dec (norm pol - 1) (1 / 1000000)) as [Lt|Lt]; [|discriminate]. clear Lt. injection H as <-.
    unfold light_B, light_E. cbn [f_k f_pol f_int]. set (r := sqrt _). clearbody r. coords. split; f_equal; ring.
  Qed.
  Theorem C108_wave_partial : forall mu x y z i pol f, c ^ 2 * mu * eps = 1 -> 0 <= i -> x ^ 2 + y ^ 2 + z ^ 2 = 1 -> dot (real_vec x y z) pol = (0, 0) ->
    norm pol = 1 -> new_light (real_vec x y z) i pol = Ok f ->
    norm (light_B c eps f) = norm (light_E c eps f) / c /\
    (let s := cross (light_E c eps f) (conj (light_B c eps f)) in
     fst (vx s) / (2 * mu) = i * x /\ fst (vy s) / (2 * mu) = i * y /\ fst (vz s) / (2 * mu) = i * z).
  Proof.
    intros mu x y z i pol f Hm Hi Hk Ht Hp H. unfold new_light in H. destruct (Rlt_dec (norm pol - 1) (1 / 1000000)) as [Lt|Lt]; [|discriminate]. clear Lt. injection H as <-.
    assert (Hmu : mu <> 0) by (intros ->; rewrite Rmult_0_r, Rmult_0_l in Hm; lra).
    assert (Q : sqrt (2 * i / (c * eps)) ^ 2 = 2 * i / (c * eps)).
    { apply pow2_sqrt, Rmult_le_pos; [lra|]. apply Rlt_le, Rinv_0_lt_compat, Rmult_lt_0_compat; auto. }
    assert (Hl : len2 pol = 1) by (rewrite <- norm_sq, Hp; ring).
    unfold light_B, light_E. cbn [f_k f_pol f_int]. set (r := sqrt _) in *. clearbody r.
    assert (T : fst (dot (real_vec x y z) pol) = 0 /\ snd (dot (real_vec x y z) pol) = 0) by now rewrite Ht.
    clear Ht Hp. destruct T as [T1 T2]. split.
    - rewrite !norm_len. rewrite !len2_scale.
      assert (X : len2 (cross (real_vec x y z) (scale r pol)) = r ^ 2 * ((x ^ 2 + y ^ 2 + z ^ 2) * len2 pol - (fst (dot (real_vec x y z) pol)) ^ 2 - (snd (dot (real_vec x y z) pol)) ^ 2)).
      { coords. ring. }
      rewrite X, T1, T2, Hk, Hl. replace ((1 / c) ^ 2 * (r ^ 2 * (1 * 1 - 0 ^ 2 - 0 ^ 2))) with ((r * / c) ^ 2) by (field; lra). rewrite Rmult_1_r.
      rewrite <- !Rsqr_pow2, !sqrt_Rsqr_abs, Rabs_mult, (Rabs_right (/ c)); [reflexivity|]. apply Rle_ge, Rlt_le, Rinv_0_lt_compat; auto.
    - assert (K : 2 * i / (c * eps) * / c / (2 * mu) = i).
      { replace (2 * i / (c * eps) * / c / (2 * mu)) with (i / (c ^ 2 * mu * eps)) by (field; repeat split; lra). rewrite Hm. field. }
      assert (S : forall w, r ^ 2 * / c * w / (2 * mu) = i * w).
      { intros w. rewrite Q. rewrite <- K at 2. field. repeat split; lra. }
      destruct pol as [[[p1 q1] [p2 q2]] [p3 q3]]. rewrite !scale_at, cross_real, scale_at. coords.
      split; [|split].
      + rewrite <- (S x). apply Rmult_eq_compat_r.
        transitivity (r ^ 2 * / c * (x * (p1 ^ 2 + q1 ^ 2 + p2 ^ 2 + q2 ^ 2 + p3 ^ 2 + q3 ^ 2) - p1 * (x * p1 - 0 * q1 + y * p2 - 0 * q2 + z * p3 - 0 * q3) - q1 * (x * q1 + 0 * p1 + y * q2 + 0 * p2 + z * q3 + 0 * p3))); [field; lra|].
        rewrite Hl, T1, T2. ring.
      + rewrite <- (S y). apply Rmult_eq_compat_r.
        transitivity (r ^ 2 * / c * (y * (p1 ^ 2 + q1 ^ 2 + p2 ^ 2 + q2 ^ 2 + p3 ^ 2 + q3 ^ 2) - p2 * (x * p1 - 0 * q1 + y * p2 - 0 * q2 + z * p3 - 0 * q3) - q2 * (x * q1 + 0 * p1 + y * q2 + 0 * p2 + z * q3 + 0 * p3))); [field; lra|].
        rewrite Hl, T1, T2. ring.
      + rewrite <- (S z). apply Rmult_eq_compat_r.
        transitivity (r ^ 2 * / c * (z * (p1 ^ 2 + q1 ^ 2 + p2 ^ 2 + q2 ^ 2 + p3 ^ 2 + q3 ^ 2) - p3 * (x * p1 - 0 * q1 + y * p2 - 0 * q2 + z * p3 - 0 * q3) - q3 * (x * q1 + 0 * p1 + y * q2 + 0 * p2 + z * q3 + 0 * p3))); [field; lra|].
        rewrite Hl, T1, T2. ring.
  Qed.
End Constants.
Print Assumptions C107_partial.
Print Assumptions C107_short_refuted.
Print Assumptions C108_perpendicular.
Print Assumptions C108_wave_partial.

(** Circular polarization, light along z. *)
Example C108_case : let h := / sqrt 2 in let pol : vec := ((h, 0), (0, h), (0, 0)) in
  norm pol = 1 /\ dot (real_vec 0 0 1) pol = (0, 0) /\ (0 ^ 2 + 0 ^ 2 + 1 ^ 2 = 1) /\ exists f, new_light (real_vec 0 0 1) 5 pol = Ok f.
Proof.
  intros h pol. assert (N : norm pol = 1).
  { rewrite norm_len. unfold pol, len2. replace (_ + _) with (2 * h ^ 2) by ring. unfold h. rewrite pow_inv, pow2_sqrt by lra.
    replace (2 * / 2) with 1 by lra. apply sqrt_1. }
  split; [exact N|]. split; [|split; [ring|]].
  - unfold pol. coords. f_equal; ring.
  - unfold new_light. rewrite N. destruct (Rlt_dec (1 - 1) (1 / 1000000)) as [L|L]; [eauto|exfalso; apply L; lra].
Qed.
(** The zero vector is a polarization. *)
Example C107_case : norm (real_vec 0 0 0) < 1 /\ norm default_pol = 1.
Proof.
  split; rewrite norm_len; unfold default_pol, real_vec, re, len2.
  - replace (_ + _) with 0 by ring. rewrite sqrt_0. lra.
  - replace (_ + _) with 1 by ring. apply sqrt_1.
Qed.

(** The polarization need not be perpendicular to k: light along z with the
    default polarization has an electric but no magnetic field. *)
Theorem C108_longitudinal_refuted : forall c eps i, 0 < c -> 0 < eps -> 0 < i ->
  exists f, new_light (real_vec 0 0 1) i default_pol = Ok f /\ 0 < norm (light_E c eps f) /\ norm (light_B c eps f) = 0.
Proof.
  intros c eps i Hc He Hi. exists (mkLight (real_vec 0 0 1) default_pol i). unfold new_light. rewrite (proj2 C107_case).
  destruct (Rlt_dec (1 - 1) (1 / 1000000)) as [L|L]; [|exfalso; apply L; lra]. split; [reflexivity|].
  unfold light_B, light_E. cbn [f_k f_pol f_int]. assert (P : 0 < sqrt (2 * i / (c * eps))).
  { apply sqrt_lt_R0. apply Rdiv_lt_0_compat; [lra|]. now apply Rmult_lt_0_compat. }
  set (r := sqrt _) in *. clearbody r. unfold default_pol, real_vec, re. rewrite !scale_at. split.
  - rewrite norm_len. apply sqrt_lt_R0. unfold len2. assert (0 < r * r) by now apply Rmult_lt_0_compat. nra.
  - fold (re 0) (re 1). fold (real_vec 0 0 1). rewrite cross_real, scale_at, norm_len. unfold len2. transitivity (sqrt 0); [f_equal; ring|apply sqrt_0].
Qed.
Print Assumptions C108_longitudinal_refuted.

(** ** C109 *)

(** No Gaussian beam can be made: the call of the parent's constructor is a
    TypeError. *)
Theorem C109_refuted : forall k pow pol w0, new_beam k pow pol w0 = Raise (if Req_EM_T w0 0 then ZeroDivisionError else TypeError).
Proof. intros. unfold new_beam. destruct (Req_EM_T w0 0); reflexivity. Qed.
Print Assumptions C109_refuted.

(** The formulas are those of a Gaussian beam: width, phase and radius. *)
Lemma ratio_pos : forall z zr, zr <> 0 -> 0 <= z ^ 2 / zr ^ 2.
Proof. intros z zr H. apply Rmult_le_pos; [apply pow2_ge_0|]. apply Rlt_le, Rinv_0_lt_compat. rewrite <- Rsqr_pow2. now apply Rsqr_pos_lt. Qed.
Lemma w_sq : forall w0 zr z, zr <> 0 -> beam_w w0 zr z ^ 2 = w0 ^ 2 * (1 + z ^ 2 / zr ^ 2).
Proof. intros w0 zr z H. unfold beam_w. pose proof (ratio_pos z zr H). rewrite Rpow_mult_distr, pow2_sqrt by lra. reflexivity. Qed.
Lemma w_pos : forall w0 zr z, 0 < w0 -> zr <> 0 -> 0 < beam_w w0 zr z.
Proof. intros w0 zr z H1 H. unfold beam_w. pose proof (ratio_pos z zr H). apply Rmult_lt_0_compat; auto. apply sqrt_lt_R0. lra. Qed.

Theorem C109_width_partial : forall w0 zr, 0 < w0 -> 0 < zr ->
  beam_w w0 zr 0 = w0 /\ (forall z, beam_w w0 zr (- z) = beam_w w0 zr z) /\ beam_w w0 zr zr = w0 * sqrt 2 /\
  (forall z z', 0 <= z < z' -> beam_w w0 zr z < beam_w w0 zr z') /\
  (forall z, w0 / zr * Rabs z < beam_w w0 zr z) /\
  (forall z, w0 / zr * Rabs z <= beam_w w0 zr z <= w0 / zr * Rabs z + w0).
Proof.
  intros w0 zr Hw Hz. assert (Nz : zr <> 0) by lra.
  assert (A : forall z, (w0 / zr * Rabs z) ^ 2 = w0 ^ 2 * (z ^ 2 / zr ^ 2)).
  { intros z. rewrite Rpow_mult_distr, pow2_abs. field. auto. }
  assert (P : forall z, 0 <= w0 / zr * Rabs z) by (intros z; apply Rmult_le_pos; [apply Rlt_le, Rdiv_lt_0_compat; auto|apply Rabs_pos]).
  assert (B : forall z, w0 / zr * Rabs z < beam_w w0 zr z).
  { intros z. apply Rnot_le_lt. intros L. pose proof (w_pos w0 zr z Hw Nz) as Q.
    assert (X : beam_w w0 zr z ^ 2 <= (w0 / zr * Rabs z) ^ 2) by (apply pow_incr; lra). rewrite w_sq, A in X by auto.
    assert (0 < w0 ^ 2) by (apply pow_lt; auto). nra. }
  split; [unfold beam_w; replace (1 + 0 ^ 2 / zr ^ 2) with 1 by (field; auto); rewrite sqrt_1; ring|].
  split; [intros z; unfold beam_w; do 2 f_equal; f_equal; field; auto|].
  split; [unfold beam_w; do 2 f_equal; field; auto|].
  split; [|split; [exact B|]].
  - intros z z' [H0 H1]. unfold beam_w. apply Rmult_lt_compat_l; auto. pose proof (ratio_pos z zr Nz). apply sqrt_lt_1_alt. split; [lra|].
    apply Rplus_lt_compat_l. apply Rmult_lt_compat_r; [apply Rinv_0_lt_compat, pow_lt; auto|]. nra.
  - intros z. split; [apply Rlt_le, B|]. apply Rnot_lt_le. intros L. pose proof (P z) as Pz.
    assert (X : (w0 / zr * Rabs z + w0) ^ 2 < beam_w w0 zr z ^ 2).
    { replace ((w0 / zr * Rabs z + w0) ^ 2) with ((w0 / zr * Rabs z + w0) * (w0 / zr * Rabs z + w0)) by ring.
      replace (beam_w w0 zr z ^ 2) with (beam_w w0 zr z * beam_w w0 zr z) by ring. apply Rmult_le_0_lt_compat; lra. }
    rewrite w_sq in X by auto. replace ((w0 / zr * Rabs z + w0) ^ 2) with ((w0 / zr * Rabs z) ^ 2 + 2 * (w0 / zr * Rabs z) * w0 + w0 ^ 2) in X by ring.
    rewrite A in X. assert (0 <= 2 * (w0 / zr * Rabs z) * w0) by (apply Rmult_le_pos; lra). lra.
Qed.
Print Assumptions C109_width_partial.

Theorem C109_phase_partial : forall zr, 0 < zr ->
  beam_phase zr 0 = 0 /\ beam_phase zr zr = PI / 4 /\ (forall z, beam_phase zr (- z) = - beam_phase zr z) /\
  (forall z z', z < z' -> beam_phase zr z < beam_phase zr z') /\ (forall z, - PI / 2 < beam_phase zr z < PI / 2) /\
  (forall z, z <> 0 -> exists r, beam_radius zr z = Ok r /\ 2 * zr <= Rabs r /\ (Rabs r = 2 * zr <-> Rabs z = zr)) /\
  beam_radius zr 0 = Raise ZeroDivisionError.
Proof.
  intros zr Hz. unfold beam_phase. split; [|split; [|split; [|split; [|split; [|split]]]]].
  - unfold Rdiv. rewrite Rmult_0_l. apply atan_0.
  - replace (zr / zr) with 1 by (field; lra). apply atan_1.
  - intros z. rewrite <- atan_opp. f_equal. field. lra.
  - intros z z' L. apply atan_increasing. apply Rmult_lt_compat_r; auto. now apply Rinv_0_lt_compat.
  - intros z. apply atan_bound.
  - intros z Nz. exists (z * (1 + zr ^ 2 / z ^ 2)). unfold beam_radius. destruct (Req_EM_T z 0) as [E|_]; [contradiction|]. split; [reflexivity|].
    assert (Q : Rabs (z * (1 + zr ^ 2 / z ^ 2)) = Rabs z + zr ^ 2 / Rabs z).
    { assert (Pz : 0 < Rabs z) by now apply Rabs_pos_lt. rewrite Rabs_mult, (Rabs_right (1 + _)) by (pose proof (ratio_pos zr z Nz); lra).
      rewrite <- (pow2_abs z). field. lra. }
    rewrite Q. assert (Pz : 0 < Rabs z) by now apply Rabs_pos_lt. set (a := Rabs z) in *. clearbody a.
    assert (D : a + zr ^ 2 / a - 2 * zr = (a - zr) ^ 2 / a) by (field; lra).
    assert (G : 0 <= (a - zr) ^ 2 / a) by (apply Rmult_le_pos; [apply pow2_ge_0|apply Rlt_le, Rinv_0_lt_compat; auto]).
    split; [lra|]. split.
    + intros E. assert (Z : (a - zr) ^ 2 / a = 0) by lra. apply Rmult_integral in Z as [Z|Z]; [|exfalso; pose proof (Rinv_0_lt_compat a Pz); lra].
      assert (Z' : (a - zr) * (a - zr) = 0) by (rewrite <- Z; ring). apply Rmult_integral in Z'. lra.
    + intros ->. field. lra.
  - unfold beam_radius. destruct (Req_EM_T 0 0); [reflexivity|congruence].
Qed.
Print Assumptions C109_phase_partial.

(** The power through a disc around the axis, the integral of |E|^2 2 pi r: it
    approaches the same value [p] in every plane. *)
Theorem C109_power_partial : forall pol E0 w0 zr, 0 < w0 -> 0 < zr -> exists p, 0 <= p /\ forall z, exists enclosed : R -> R,
  enclosed 0 = 0 /\ (forall r, derivable_pt_lim enclosed r (2 * PI * r * norm (beam_E pol E0 w0 zr z r) ^ 2)) /\
  (forall r, enclosed r <= p) /\ (forall e, 0 < e -> exists r0, 0 < r0 /\ forall r, r0 <= r -> p - e < enclosed r).
Proof.
  intros pol E0 w0 zr Hw Hz. set (a := len2 (times pol E0)). assert (Ha : 0 <= a) by apply len2_nonneg. exists (PI * w0 ^ 2 / 2 * a).
  assert (Hp : 0 < PI * w0 ^ 2 / 2) by (pose proof PI_RGT_0; assert (0 < w0 ^ 2) by (apply pow_lt; auto); apply Rmult_lt_0_compat; [apply Rmult_lt_0_compat; auto|lra]).
  split; [apply Rmult_le_pos; lra|]. intros z.
  assert (Nz : zr <> 0) by lra. pose proof (w_pos w0 zr z Hw Nz) as W. set (w := beam_w w0 zr z) in *.
  exists (fun r => PI * w0 ^ 2 / 2 * a * (1 - exp (- (2 * (r * r) / w ^ 2)))). split; [|split; [|split]].
  - replace (- (2 * (0 * 0) / w ^ 2)) with 0 by (field; lra). rewrite exp_0. ring.
  - intros r.
    assert (N : norm (beam_E pol E0 w0 zr z r) ^ 2 = exp (- (2 * (r * r) / w ^ 2)) * (w0 ^ 2 / w ^ 2) * a).
    { rewrite norm_sq. unfold beam_E. rewrite !len2_scale. fold a w.
      replace (exp (- (2 * (r * r) / w ^ 2))) with (exp (- (r * r) / w ^ 2) ^ 2); [field; lra|].
      replace (exp (- (r * r) / w ^ 2) ^ 2) with (exp (- (r * r) / w ^ 2) * exp (- (r * r) / w ^ 2)) by ring. rewrite <- exp_plus. f_equal. field. lra. }
    rewrite N.
    assert (D1 : derivable_pt_lim (fun x => - (2 / w ^ 2) * (x * x)) r (- (2 / w ^ 2) * (1 * r + r * 1))).
    { apply (derivable_pt_lim_scal (fun x => x * x)). apply (derivable_pt_lim_mult (fun x => x) (fun x => x)); apply derivable_pt_lim_id. }
    assert (D2 : derivable_pt_lim (fun x => exp (- (2 / w ^ 2) * (x * x))) r (exp (- (2 / w ^ 2) * (r * r)) * (- (2 / w ^ 2) * (1 * r + r * 1)))).
    { apply (derivable_pt_lim_comp (fun x => - (2 / w ^ 2) * (x * x)) exp); [exact D1|apply derivable_pt_lim_exp]. }
    assert (D3 : derivable_pt_lim (fun x => PI * w0 ^ 2 / 2 * a * (1 - exp (- (2 / w ^ 2) * (x * x)))) r
      (PI * w0 ^ 2 / 2 * a * (0 - exp (- (2 / w ^ 2) * (r * r)) * (- (2 / w ^ 2) * (1 * r + r * 1))))).
    { apply (derivable_pt_lim_scal (fun x => 1 - exp (- (2 / w ^ 2) * (x * x)))). apply (derivable_pt_lim_minus (fun _ => 1) (fun x => exp (- (2 / w ^ 2) * (x * x)))); [apply derivable_pt_lim_const|exact D2]. }
    replace (2 * PI * r * (exp (- (2 * (r * r) / w ^ 2)) * (w0 ^ 2 / w ^ 2) * a))
      with (PI * w0 ^ 2 / 2 * a * (0 - exp (- (2 / w ^ 2) * (r * r)) * (- (2 / w ^ 2) * (1 * r + r * 1)))).
    + intros e He. destruct (D3 e He) as [d Hd]. exists d. intros h Hh Hl. specialize (Hd h Hh Hl).
      replace (- (2 * ((r + h) * (r + h)) / w ^ 2)) with (- (2 / w ^ 2) * ((r + h) * (r + h))) by (field; lra).
      replace (- (2 * (r * r) / w ^ 2)) with (- (2 / w ^ 2) * (r * r)) by (field; lra). exact Hd.
    + replace (- (2 * (r * r) / w ^ 2)) with (- (2 / w ^ 2) * (r * r)) by (field; lra). field. lra.
  - intros r. rewrite <- (Rmult_1_r (PI * w0 ^ 2 / 2 * a)) at 2. apply Rmult_le_compat_l; [apply Rmult_le_pos; lra|]. pose proof (exp_pos (- (2 * (r * r) / w ^ 2))). lra.
  - intros e He. destruct (Req_dec a 0) as [Z|Z].
    + exists 1. split; [lra|]. intros r _. rewrite Z. lra.
    + set (m := PI * w0 ^ 2 / 2 * a). assert (Hm : 0 < m) by (apply Rmult_lt_0_compat; lra).
      (* exp (- t) < 1 / t for t = 2 r^2 / w^2 *)
      exists (w * (1 + m / e)). assert (Q : 0 < m / e) by (apply Rdiv_lt_0_compat; auto). split; [apply Rmult_lt_0_compat; lra|].
      intros r Hr. set (t := 2 * (r * r) / w ^ 2).
      assert (T : m / e < t).
      { assert (X : (w * (1 + m / e)) * (w * (1 + m / e)) <= r * r) by (apply Rmult_le_compat; try apply Rmult_le_pos; lra).
        unfold t. apply Rlt_le_trans with (2 * ((w * (1 + m / e)) * (w * (1 + m / e))) / w ^ 2).
        - replace (2 * (w * (1 + m / e) * (w * (1 + m / e))) / w ^ 2) with (2 * (1 + m / e) * (1 + m / e)) by (field; lra). nra.
        - apply Rmult_le_compat_r; [apply Rlt_le, Rinv_0_lt_compat, pow_lt; auto|lra]. }
      assert (Ex : t < exp t) by (pose proof (exp_ineq1 t ltac:(lra)); lra).
      assert (L : m * exp (- t) < e).
      { rewrite exp_Ropp. apply Rmult_lt_reg_r with (exp t); [apply exp_pos|]. rewrite Rmult_assoc, Rinv_l by (pose proof (exp_pos t); lra).
        assert (m < e * t) by (apply Rmult_lt_reg_r with (/ e); [now apply Rinv_0_lt_compat|]; replace (e * t * / e) with t by (field; lra); exact T).
        assert (e * t < e * exp t) by (apply Rmult_lt_compat_l; auto). lra. }
      lra.
Qed.
Print Assumptions C109_power_partial.

Lemma vec_eq : forall a a' b b' c c' d d' e e' f f' : R, a = d -> a' = d' -> b = e -> b' = e' -> c = f -> c' = f' ->
  ((a, a'), (b, b'), (c, c')) = (((d, d'), (e, e'), (f, f')) : vec).
Proof. intros. now subst. Qed.
(** The magnetic field of a beam along z with the real polarization (x, y, 0):
    B is along the beam instead of across it, and 0 on the axes. *)
Theorem C109_magnetic_refuted : forall c x y e w0 zr z r, 0 < c -> 0 < w0 -> 0 < zr -> exists g, 0 < g /\
  beam_E (real_vec x y 0) (real_vec (e * x) (e * y) 0) w0 zr z r = real_vec (g * e * x ^ 2) (g * e * y ^ 2) 0 /\
  beam_B c (real_vec x y 0) (real_vec (e * x) (e * y) 0) w0 zr z r = real_vec 0 0 (g * e * (x ^ 2 * y - y ^ 2 * x) / c).
Proof.
  intros c x y e w0 zr z r Hc Hw Hz. exists (exp (- (r * r) / beam_w w0 zr z ^ 2) * (w0 / beam_w w0 zr z)).
  assert (W : 0 < beam_w w0 zr z) by (apply w_pos; lra). split; [apply Rmult_lt_0_compat; [apply exp_pos|now apply Rdiv_lt_0_compat]|].
  set (g := exp _). set (h := w0 / _). assert (E : beam_E (real_vec x y 0) (real_vec (e * x) (e * y) 0) w0 zr z r = real_vec (g * h * e * x ^ 2) (g * h * e * y ^ 2) 0).
  { unfold beam_E, times, scale, real_vec, re, cmult, vx, vy, vz. cbn [fst snd]. fold g h. apply vec_eq; ring. }
  split; [exact E|]. unfold beam_B. rewrite E. unfold cross, scale, real_vec, re, cmult, cminus, vx, vy, vz. cbn [fst snd]. apply vec_eq; field; lra.
Qed.
Print Assumptions C109_magnetic_refuted.
(** At the focus of a beam of amplitude [e] and any real polarization the
    components of the field are [e] times the squares of those of the
    polarization, so that the field need not point along it. *)
Theorem C109_focus_refuted : forall x y w e w0 zr, 0 < w0 -> 0 < zr ->
  beam_E (real_vec x y w) (real_vec (e * x) (e * y) (e * w)) w0 zr 0 0 = real_vec (e * x ^ 2) (e * y ^ 2) (e * w ^ 2).
Proof.
  intros x y w e w0 zr Hw Hz. assert (B : beam_w w0 zr 0 = w0).
  { unfold beam_w. replace (1 + 0 ^ 2 / zr ^ 2) with 1 by (field; lra). rewrite sqrt_1. ring. }
  unfold beam_E. rewrite B. replace (- (0 * 0) / w0 ^ 2) with 0 by (field; lra). rewrite exp_0. replace (w0 / w0) with 1 by (field; lra).
  unfold times, scale, real_vec, re, cmult, vx, vy, vz. cbn [fst snd]. apply vec_eq; ring.
Qed.
Print Assumptions C109_focus_refuted.
