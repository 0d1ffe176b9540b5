(** Squares of the 6j and 3j symbols with an argument 1 in closed form. *)
From Coq Require Import List Bool ZArith QArith Qcanon Lia.
From Verif Require Import Base Util Term Num Wigner WignerProofs.
Import ListNotations.
Local Open Scope Z_scope.

(** Factorials as rationals. *)
Definition QF (z : Z) : Qc := QcZ (fac z).
Lemma QF_nz : forall z, QF z <> 0%Qc.
Proof. intros z. apply QcZ_nz. pose proof (fac_pos z). lia. Qed.
Lemma fac_S : forall z, 0 <= z -> fac (z + 1) = (z + 1) * fac z.
Proof.
  intros z H. unfold fac. replace (Z.to_nat (z + 1)) with (S (Z.to_nat z)) by lia. cbn [factn]. f_equal. lia.
Qed.
Lemma QF_S : forall z, 0 <= z -> QF (z + 1) = (QcZ (z + 1) * QF z)%Qc.
Proof. intros z H. unfold QF. now rewrite fac_S, QcZ_mul. Qed.
Lemma QF_0 : QF 0 = 1%Qc.
Proof. apply QcZ_1. Qed.
Lemma QF_1 : QF 1 = 1%Qc.
Proof. apply QcZ_1. Qed.
Lemma QF_2 : QF 2 = QcZ 2.
Proof. reflexivity. Qed.
(** [z! = z (z-1)!] and so on. *)
Lemma QF_1d : forall z, 1 <= z -> QF z = (QcZ z * QF (z - 1))%Qc.
Proof. intros z H. replace z with (z - 1 + 1) at 1 2 by lia. apply QF_S. lia. Qed.
Lemma QF_2d : forall z, 2 <= z -> QF z = (QcZ z * (QcZ (z - 1) * QF (z - 2)))%Qc.
Proof. intros z H. rewrite QF_1d by lia. rewrite (QF_1d (z - 1)) by lia. now replace (z - 1 - 1) with (z - 2) by lia. Qed.
Lemma QF_3d : forall z, 3 <= z -> QF z = (QcZ z * (QcZ (z - 1) * (QcZ (z - 2) * QF (z - 3))))%Qc.
Proof. intros z H. rewrite QF_2d by lia. rewrite (QF_1d (z - 2)) by lia. now replace (z - 2 - 1) with (z - 3) by lia. Qed.

Lemma half : forall n m, n = 2 * m -> n / 2 = m.
Proof. intros n m ->. rewrite Z.mul_comm. apply Z_div_mult. lia. Qed.

Definition D (p q r s : Z) : Qc := (QF p * QF q * QF r / QF (s + 1))%Qc.
Lemma delta2_D : forall a b c p q r, a + b - c = 2 * p -> a - b + c = 2 * q -> b + c - a = 2 * r -> delta2 a b c = D p q r (p + q + r).
Proof.
  intros a b c p q r H1 H2 H3. unfold delta2, D, hfac. rewrite (half _ p H1), (half _ q H2), (half _ r H3), (half (a + b + c) (p + q + r)) by lia.
  unfold QF. now rewrite !QcZ_mul.
Qed.

(** The Racah sum in terms of the half sums of the triads. *)
Definition Rt (g1 g2 g3 g4 h1 h2 h3 t : Z) : Qc :=
  (sgn t * QF (t + 1) / (QF (t - g1) * QF (t - g2) * QF (t - g3) * QF (t - g4) * QF (h1 - t) * QF (h2 - t) * QF (h3 - t)))%Qc.
Lemma w6_sum_R : forall a b c d e f g1 g2 g3 g4 h1 h2 h3,
  a + b + c = 2 * g1 -> a + e + f = 2 * g2 -> d + b + f = 2 * g3 -> d + e + c = 2 * g4 ->
  a + b + d + e = 2 * h1 -> b + c + e + f = 2 * h2 -> c + a + f + d = 2 * h3 ->
  w6_sum a b c d e f = sum_range (Z.max (Z.max g1 g2) (Z.max g3 g4)) (Z.min h1 (Z.min h2 h3)) (Rt g1 g2 g3 g4 h1 h2 h3).
Proof.
  intros a b c d e f g1 g2 g3 g4 h1 h2 h3 H1 H2 H3 H4 K1 K2 K3. unfold w6_sum, w6_term.
  rewrite (half _ g1 H1), (half _ g2 H2), (half _ g3 H3), (half _ g4 H4), (half _ h1 K1), (half _ h2 K2), (half _ h3 K3).
  unfold sum_range. apply sumr_ext. intros t. unfold Rt, QF. now rewrite !QcZ_mul.
Qed.
Lemma sum_one : forall lo hi f, lo = hi -> sum_range lo hi f = f lo.
Proof. intros lo hi f ->. unfold sum_range. replace (Z.to_nat (hi - hi + 1)) with 1%nat by lia. cbn. ring. Qed.
Lemma sum_two : forall lo hi f, hi = lo + 1 -> sum_range lo hi f = (f lo + f hi)%Qc.
Proof. intros lo hi f ->. unfold sum_range. replace (Z.to_nat (lo + 1 - lo + 1)) with 2%nat by lia. cbn. ring. Qed.
Lemma sgn_sq : forall t, (sgn t * sgn t)%Qc = 1%Qc.
Proof. intros t. unfold sgn. destruct (Z.even t); ring. Qed.

Lemma tri_intro : forall a b c p q r, a + b - c = 2 * p -> a - b + c = 2 * q -> b + c - a = 2 * r -> 0 <= p -> 0 <= q -> 0 <= r -> tri a b c = true.
Proof.
  intros a b c p q r H1 H2 H3 P Q R. unfold tri. rewrite !andb_true_iff. repeat split; try (apply Z.leb_le; lia).
  apply Z.even_spec. exists (p + q + r). lia.
Qed.
Lemma tri_elim : forall a b c, tri a b c = true -> exists x y z, 0 <= x /\ 0 <= y /\ 0 <= z /\ a = y + z /\ b = x + z /\ c = x + y.
Proof.
  intros a b c H. unfold tri in H. rewrite !andb_true_iff in H. destruct H as [[H1 H2] H3]. apply Z.leb_le in H1, H2. apply Z.even_spec in H3 as [s H3].
  exists (s - a), (s - b), (s - c). lia.
Qed.
Lemma tri_neg : forall a b c, a + b < c \/ b + c < a \/ a + c < b -> tri a b c = false.
Proof.
  intros a b c H. unfold tri. destruct (Z.leb_spec (Z.abs (a - b)) c), (Z.leb_spec c (a + b)); cbn; auto. lia.
Qed.

(** The square of {a b c; 1 e f} with one term in Racah's sum. *)
Lemma sq_cancel : forall p q r t x : Qc, x <> 0%Qc -> (p * q * r * t * ((x / x)) = p * q * r * t)%Qc.
Proof. intros. field. auto. Qed.

Lemma Qc_0_div : forall d, (0 / d)%Qc = 0%Qc.
Proof. intros d. unfold Qcdiv. ring. Qed.
Lemma Qc_div_0 : forall n, (n / 0)%Qc = 0%Qc.
Proof. intros n. unfold Qcdiv. replace (/ 0)%Qc with 0%Qc by (apply Qc_is_canon; reflexivity). ring. Qed.
Definition frac (n d : Z) : Qc := (QcZ n / QcZ d)%Qc.
Lemma frac_0l : forall d, frac 0 d = 0%Qc.
Proof. intros d. unfold frac. rewrite QcZ_0. apply Qc_0_div. Qed.
Lemma frac_0r : forall n, frac n 0 = 0%Qc.
Proof. intros n. unfold frac. rewrite QcZ_0. apply Qc_div_0. Qed.

Ltac nzs := repeat split; first [apply QF_nz | (apply QcZ_nz; lia) | idtac].

(** {a b c; 1 c-1 b-1} *)
Lemma w6_dd : forall x y z, 0 <= x -> 0 <= y -> 0 <= z -> let b := x + z in let c := x + y in let s := x + y + z in
  w6sq (y + z) b c 2 (c - 2) (b - 2) = frac (x * (x - 1) * ((s + 1) * s)) ((b + 1) * b * (b - 1) * ((c + 1) * c * (c - 1))).
Proof.
  intros x y z Hx Hy Hz b c s. destruct (Z.lt_ge_cases x 2) as [Lx|Lx].
  - replace (x * (x - 1)) with 0 by nia. rewrite Z.mul_0_l, frac_0l. unfold w6sq, w6_tri.
    replace (tri (y + z) (c - 2) (b - 2)) with false by (symmetry; apply tri_neg; unfold b, c; lia). now rewrite !andb_false_r.
  - unfold w6sq, w6_tri.
    rewrite (tri_intro (y + z) b c z y x), (tri_intro (y + z) (c - 2) (b - 2) y z (x - 2)), (tri_intro 2 b (b - 2) 2 0 (b - 2)), (tri_intro 2 (c - 2) c 0 2 (c - 2)) by (unfold b, c; lia).
    rewrite (delta2_D (y + z) b c z y x), (delta2_D (y + z) (c - 2) (b - 2) y z (x - 2)), (delta2_D 2 b (b - 2) 2 0 (b - 2)), (delta2_D 2 (c - 2) c 0 2 (c - 2)) by (unfold b, c; lia).
    rewrite (w6_sum_R _ _ _ _ _ _ s (s - 2) b c s (s + x - 2) s) by (unfold b, c, s; lia). rewrite sum_one by (unfold b, c, s; lia).
    replace (Z.max (Z.max s (s - 2)) (Z.max b c)) with s by (unfold b, c, s; lia). unfold Rt, D, frac.
    replace (s - s) with 0 by lia. replace (s - (s - 2)) with 2 by lia. replace (s - b) with y by (unfold b, s; lia). replace (s - c) with z by (unfold c, s; lia).
    replace (s + x - 2 - s) with (x - 2) by lia. replace (z + y + x + 1) with (s + 1) by (unfold s; lia). replace (y + z + (x - 2) + 1) with (s + 1 - 2) by (unfold s; lia).
    replace (2 + 0 + (b - 2) + 1) with (b + 1) by lia. replace (0 + 2 + (c - 2) + 1) with (c + 1) by lia.
    rewrite (QF_2d x), (QF_2d (s + 1)), (QF_3d (b + 1)), (QF_3d (c + 1)) by (unfold b, c, s; lia).
    replace (b + 1 - 3) with (b - 2) by lia. replace (c + 1 - 3) with (c - 2) by lia. replace (b + 1 - 1) with b by lia. replace (c + 1 - 1) with c by lia. replace (s + 1 - 1) with s by lia.
    replace (b + 1 - 2) with (b - 1) by lia. replace (c + 1 - 2) with (c - 1) by lia.
    rewrite !QF_0, QF_2, !QcZ_mul. cbn [andb].
    transitivity ((sgn s * sgn s) * (QcZ x * QcZ (x - 1) * (QcZ (s + 1) * QcZ s) / (QcZ (b + 1) * QcZ b * QcZ (b - 1) * (QcZ (c + 1) * QcZ c * QcZ (c - 1)))))%Qc; [|rewrite sgn_sq; ring].
    field. nzs; unfold b, c, s; try (apply QcZ_nz; lia).
Qed.

(** {a b c; 1 c-1 b} *)
Lemma w6_d0 : forall x y z, 0 <= x -> 0 <= y -> 0 <= z -> let b := x + z in let c := x + y in let s := x + y + z in
  w6sq (y + z) b c 2 (c - 2) b = frac (2 * (s + 1) * x * y * (z + 1)) (b * (b + 1) * (b + 2) * ((c + 1) * c * (c - 1))).
Proof.
  intros x y z Hx Hy Hz b c s. destruct (Z.eq_dec x 0) as [Ex|Nx].
  { replace (2 * (s + 1) * x * y * (z + 1)) with 0 by nia. rewrite frac_0l. unfold w6sq, w6_tri.
    replace (tri (y + z) (c - 2) b) with false by (symmetry; apply tri_neg; unfold b, c; lia). now rewrite !andb_false_r. }
  destruct (Z.eq_dec y 0) as [Ey|Ny].
  { replace (2 * (s + 1) * x * y * (z + 1)) with 0 by nia. rewrite frac_0l. unfold w6sq, w6_tri.
    replace (tri (y + z) (c - 2) b) with false by (symmetry; apply tri_neg; unfold b, c; lia). now rewrite !andb_false_r. }
  unfold w6sq, w6_tri.
  rewrite (tri_intro (y + z) b c z y x), (tri_intro (y + z) (c - 2) b (y - 1) (z + 1) (x - 1)), (tri_intro 2 b b 1 1 (b - 1)), (tri_intro 2 (c - 2) c 0 2 (c - 2)) by (unfold b, c; lia).
  rewrite (delta2_D (y + z) b c z y x), (delta2_D (y + z) (c - 2) b (y - 1) (z + 1) (x - 1)), (delta2_D 2 b b 1 1 (b - 1)), (delta2_D 2 (c - 2) c 0 2 (c - 2)) by (unfold b, c; lia).
  rewrite (w6_sum_R _ _ _ _ _ _ s (s - 1) (b + 1) c s (s + x - 1) (s + 1)) by (unfold b, c, s; lia). rewrite sum_one by (unfold b, c, s; lia).
  replace (Z.max (Z.max s (s - 1)) (Z.max (b + 1) c)) with s by (unfold b, c, s; lia). unfold Rt, D, frac.
  replace (s - s) with 0 by lia. replace (s - (s - 1)) with 1 by lia. replace (s - (b + 1)) with (y - 1) by (unfold b, s; lia). replace (s - c) with z by (unfold c, s; lia).
  replace (s + x - 1 - s) with (x - 1) by lia. replace (s + 1 - s) with 1 by lia. replace (z + y + x + 1) with (s + 1) by (unfold s; lia). replace (y - 1 + (z + 1) + (x - 1) + 1) with (s + 1 - 1) by (unfold s; lia).
  replace (1 + 1 + (b - 1) + 1) with (b + 2) by lia. replace (0 + 2 + (c - 2) + 1) with (c + 1) by lia.
  rewrite (QF_1d x), (QF_1d y), (QF_S z), (QF_1d (s + 1)), (QF_3d (b + 2)), (QF_3d (c + 1)) by (unfold b, c, s; lia).
  replace (b + 2 - 3) with (b - 1) by lia. replace (b + 2 - 1) with (b + 1) by lia. replace (b + 2 - 2) with b by lia.
  replace (c + 1 - 3) with (c - 2) by lia. replace (c + 1 - 1) with c by lia. replace (c + 1 - 2) with (c - 1) by lia.
  rewrite !QF_0, !QF_1, QF_2, !QcZ_mul. cbn [andb].
  transitivity ((sgn s * sgn s) * (QcZ 2 * QcZ (s + 1) * QcZ x * QcZ y * QcZ (z + 1) / (QcZ b * QcZ (b + 1) * QcZ (b + 2) * (QcZ (c + 1) * QcZ c * QcZ (c - 1)))))%Qc; [|rewrite sgn_sq; ring].
  field. nzs; unfold b, c, s; try (apply QcZ_nz; lia).
Qed.

(** {a b c; 1 c-1 b+1} *)
Lemma w6_du : forall x y z, 0 <= x -> 0 <= y -> 0 <= z -> let b := x + z in let c := x + y in let s := x + y + z in
  w6sq (y + z) b c 2 (c - 2) (b + 2) = frac (y * (y - 1) * ((z + 1) * (z + 2))) ((b + 1) * (b + 2) * (b + 3) * ((c + 1) * c * (c - 1))).
Proof.
  intros x y z Hx Hy Hz b c s. destruct (Z.lt_ge_cases y 2) as [Ly|Ly].
  { replace (y * (y - 1)) with 0 by nia. rewrite Z.mul_0_l, frac_0l. unfold w6sq, w6_tri.
    replace (tri (y + z) (c - 2) (b + 2)) with false by (symmetry; apply tri_neg; unfold b, c; lia). now rewrite !andb_false_r. }
  unfold w6sq, w6_tri.
  rewrite (tri_intro (y + z) b c z y x), (tri_intro (y + z) (c - 2) (b + 2) (y - 2) (z + 2) x), (tri_intro 2 b (b + 2) 0 2 b), (tri_intro 2 (c - 2) c 0 2 (c - 2)) by (unfold b, c; lia).
  rewrite (delta2_D (y + z) b c z y x), (delta2_D (y + z) (c - 2) (b + 2) (y - 2) (z + 2) x), (delta2_D 2 b (b + 2) 0 2 b), (delta2_D 2 (c - 2) c 0 2 (c - 2)) by (unfold b, c; lia).
  rewrite (w6_sum_R _ _ _ _ _ _ s s (b + 2) c s (s + x) (s + 2)) by (unfold b, c, s; lia). rewrite sum_one by (unfold b, c, s; lia).
  replace (Z.max (Z.max s s) (Z.max (b + 2) c)) with s by (unfold b, c, s; lia). unfold Rt, D, frac.
  replace (s - s) with 0 by lia. replace (s - (b + 2)) with (y - 2) by (unfold b, s; lia). replace (s - c) with z by (unfold c, s; lia).
  replace (s + x - s) with x by lia. replace (s + 2 - s) with 2 by lia. replace (z + y + x + 1) with (s + 1) by (unfold s; lia). replace (y - 2 + (z + 2) + x + 1) with (s + 1) by (unfold s; lia).
  replace (0 + 2 + b + 1) with (b + 3) by lia. replace (0 + 2 + (c - 2) + 1) with (c + 1) by lia.
  rewrite (QF_2d y), (QF_2d (z + 2)), (QF_3d (b + 3)), (QF_3d (c + 1)) by (unfold b, c, s; lia).
  replace (b + 3 - 3) with b by lia. replace (b + 3 - 1) with (b + 2) by lia. replace (b + 3 - 2) with (b + 1) by lia.
  replace (c + 1 - 3) with (c - 2) by lia. replace (c + 1 - 1) with c by lia. replace (c + 1 - 2) with (c - 1) by lia.
  replace (z + 2 - 1) with (z + 1) by lia. replace (z + 2 - 2) with z by lia.
  rewrite !QF_0, !QF_2, !QcZ_mul. cbn [andb].
  transitivity ((sgn s * sgn s) * (QcZ y * QcZ (y - 1) * (QcZ (z + 1) * QcZ (z + 2)) / (QcZ (b + 1) * QcZ (b + 2) * QcZ (b + 3) * (QcZ (c + 1) * QcZ c * QcZ (c - 1)))))%Qc; [|rewrite sgn_sq; ring].
  field. nzs; unfold b, c, s; try (apply QcZ_nz; lia).
Qed.

Lemma sgn_S : forall t, sgn (t + 1) = (- sgn t)%Qc.
Proof. intros t. unfold sgn. rewrite Z.even_add. cbn. destruct (Z.even t); cbn; ring. Qed.

(** {a b c; 1 c b} *)
Lemma w6_00 : forall x y z, 0 <= x -> 0 <= y -> 0 <= z -> let b := x + z in let c := x + y in let s := x + y + z in
  w6sq (y + z) b c 2 c b = frac ((y * z - (s + 2) * x) * (y * z - (s + 2) * x)) (b * (b + 1) * (b + 2) * (c * (c + 1) * (c + 2))).
Proof.
  intros x y z Hx Hy Hz b c s. destruct (Z.eq_dec b 0) as [Eb|Nb].
  { replace (b * (b + 1) * (b + 2) * (c * (c + 1) * (c + 2))) with 0 by nia. rewrite frac_0r. unfold w6sq, w6_tri.
    replace (tri 2 b b) with false by (symmetry; apply tri_neg; lia). now rewrite !andb_false_r. }
  destruct (Z.eq_dec c 0) as [Ec|Nc].
  { replace (b * (b + 1) * (b + 2) * (c * (c + 1) * (c + 2))) with 0 by nia. rewrite frac_0r. unfold w6sq, w6_tri.
    replace (tri 2 c c) with false by (symmetry; apply tri_neg; lia). now rewrite !andb_false_r. }
  unfold w6sq, w6_tri.
  rewrite (tri_intro (y + z) b c z y x), (tri_intro (y + z) c b y z x), (tri_intro 2 b b 1 1 (b - 1)), (tri_intro 2 c c 1 1 (c - 1)) by (unfold b, c in *; lia).
  rewrite (delta2_D (y + z) b c z y x), (delta2_D (y + z) c b y z x), (delta2_D 2 b b 1 1 (b - 1)), (delta2_D 2 c c 1 1 (c - 1)) by (unfold b, c; lia).
  rewrite (w6_sum_R _ _ _ _ _ _ s s (b + 1) (c + 1) (s + 1) (s + x) (s + 1)) by (unfold b, c, s; lia).
  assert (Sm : sum_range (Z.max (Z.max s s) (Z.max (b + 1) (c + 1))) (Z.min (s + 1) (Z.min (s + x) (s + 1))) (Rt s s (b + 1) (c + 1) (s + 1) (s + x) (s + 1)) =
    (sgn s * QF (s + 1) * QcZ (y * z - (s + 2) * x) / (QF x * QF y * QF z))%Qc).
  { assert (T0 : 1 <= y -> 1 <= z -> Rt s s (b + 1) (c + 1) (s + 1) (s + x) (s + 1) s = (sgn s * QF (s + 1) * (QcZ y * QcZ z) / (QF x * QF y * QF z))%Qc).
    { intros Ly Lz. unfold Rt. replace (s - s) with 0 by lia. replace (s + 1 - s) with 1 by lia. replace (s + x - s) with x by lia.
      replace (s - (b + 1)) with (y - 1) by (unfold s, b; lia). replace (s - (c + 1)) with (z - 1) by (unfold s, c; lia).
      rewrite (QF_1d y), (QF_1d z) by lia. rewrite QF_0, QF_1. field. nzs. }
    assert (T1 : 1 <= x -> Rt s s (b + 1) (c + 1) (s + 1) (s + x) (s + 1) (s + 1) = (- (sgn s * QF (s + 1) * (QcZ (s + 2) * QcZ x) / (QF x * QF y * QF z)))%Qc).
    { intros Lx. unfold Rt. replace (s + 1 - s) with 1 by lia. replace (s + 1 - (s + 1)) with 0 by lia. replace (s + x - (s + 1)) with (x - 1) by lia.
      replace (s + 1 - (b + 1)) with y by (unfold s, b; lia). replace (s + 1 - (c + 1)) with z by (unfold s, c; lia).
      rewrite sgn_S, (QF_S (s + 1)), (QF_1d x) by (unfold s; lia). replace (s + 1 + 1) with (s + 2) by lia. rewrite QF_0, QF_1. field. nzs. }
    rewrite QcZ_sub, !QcZ_mul.
    destruct (Z.eq_dec x 0) as [Ex|Nx].
    - assert (1 <= y /\ 1 <= z) as [Ly Lz] by (unfold b, c in *; lia). rewrite sum_one by (unfold s, b, c; lia).
      replace (Z.max (Z.max s s) (Z.max (b + 1) (c + 1))) with s by (unfold s, b, c; lia). rewrite T0 by auto. rewrite Ex, QcZ_0. field. nzs.
    - destruct (Z.eq_dec y 0) as [Ey|Ny]; [|destruct (Z.eq_dec z 0) as [Ez|Nz]].
      + rewrite sum_one by (unfold s, b, c; lia). replace (Z.max (Z.max s s) (Z.max (b + 1) (c + 1))) with (s + 1) by (unfold s, b, c; lia).
        rewrite T1 by lia. rewrite Ey, QcZ_0. field. nzs.
      + rewrite sum_one by (unfold s, b, c; lia). replace (Z.max (Z.max s s) (Z.max (b + 1) (c + 1))) with (s + 1) by (unfold s, b, c; lia).
        rewrite T1 by lia. rewrite Ez, QcZ_0. field. nzs.
      + rewrite sum_two by (unfold s, b, c; lia). replace (Z.max (Z.max s s) (Z.max (b + 1) (c + 1))) with s by (unfold s, b, c; lia).
        replace (Z.min (s + 1) (Z.min (s + x) (s + 1))) with (s + 1) by lia. rewrite T0, T1 by lia. field. nzs. }
  rewrite Sm. unfold D, frac. replace (z + y + x + 1) with (s + 1) by (unfold s; lia). replace (y + z + x + 1) with (s + 1) by (unfold s; lia).
  replace (1 + 1 + (b - 1) + 1) with (b + 2) by lia. replace (1 + 1 + (c - 1) + 1) with (c + 2) by lia.
  rewrite (QF_3d (b + 2)), (QF_3d (c + 2)) by (unfold b, c in *; lia).
  replace (b + 2 - 3) with (b - 1) by lia. replace (b + 2 - 1) with (b + 1) by lia. replace (b + 2 - 2) with b by lia.
  replace (c + 2 - 3) with (c - 1) by lia. replace (c + 2 - 1) with (c + 1) by lia. replace (c + 2 - 2) with c by lia.
  rewrite !QF_1. rewrite (QcZ_mul (y * z - (s + 2) * x)), (QcZ_mul (b * (b + 1) * (b + 2))), (QcZ_mul (b * (b + 1))), (QcZ_mul b), (QcZ_mul (c * (c + 1))), (QcZ_mul c). cbn [andb].
  generalize (QcZ (y * z - (s + 2) * x)). intros w.
  transitivity ((sgn s * sgn s) * (w * w / (QcZ b * QcZ (b + 1) * QcZ (b + 2) * (QcZ c * QcZ (c + 1) * QcZ (c + 2)))))%Qc; [|rewrite sgn_sq; ring].
  field. nzs; unfold b, c, s in *; try (apply QcZ_nz; lia).
Qed.

(** The remaining cases by symmetry. *)
Lemma w6_swap : forall a b c e f, w6sq a b c 2 e f = w6sq a f e 2 c b.
Proof. intros. now rewrite w6sq_flip, w6sq_cols'. Qed.
Lemma w6_u0 : forall x y z, 0 <= x -> 0 <= y -> 0 <= z -> let b := x + z in let c := x + y in let s := x + y + z in
  w6sq (y + z) b c 2 (c + 2) b = frac (2 * (s + 2) * (x + 1) * (y + 1) * z) (b * (b + 1) * (b + 2) * ((c + 3) * (c + 2) * (c + 1))).
Proof.
  intros x y z Hx Hy Hz b c s. rewrite w6_swap. destruct (Z.eq_dec z 0) as [->|Nz].
  - rewrite Z.mul_0_r, frac_0l. unfold w6sq, w6_tri.
    replace (tri (y + 0) b (c + 2)) with false by (symmetry; apply tri_neg; unfold b, c; lia). reflexivity.
  - pose proof (w6_d0 (x + 1) (y + 1) (z - 1) ltac:(lia) ltac:(lia) ltac:(lia)) as E. cbv zeta in E.
    replace (y + 1 + (z - 1)) with (y + z) in E by lia. replace (x + 1 + (z - 1)) with b in E by (unfold b; lia). replace (x + 1 + (y + 1)) with (c + 2) in E by (unfold c; lia).
    replace (c + 2 - 2) with c in E by lia. rewrite E. f_equal; unfold b, c, s; ring.
Qed.
Lemma w6_uu : forall x y z, 0 <= x -> 0 <= y -> 0 <= z -> let b := x + z in let c := x + y in let s := x + y + z in
  w6sq (y + z) b c 2 (c + 2) (b + 2) = frac ((x + 2) * (x + 1) * ((s + 3) * (s + 2))) ((b + 3) * (b + 2) * (b + 1) * ((c + 3) * (c + 2) * (c + 1))).
Proof.
  intros x y z Hx Hy Hz b c s. rewrite w6_swap. pose proof (w6_dd (x + 2) y z ltac:(lia) ltac:(lia) ltac:(lia)) as E. cbv zeta in E.
  replace (x + 2 + z) with (b + 2) in E by (unfold b; lia). replace (x + 2 + y) with (c + 2) in E by (unfold c; lia).
  replace (c + 2 - 2) with c in E by lia. replace (b + 2 - 2) with b in E by lia. rewrite E. f_equal; unfold b, c, s; ring.
Qed.
Lemma w6_ud : forall x y z, 0 <= x -> 0 <= y -> 0 <= z -> let b := x + z in let c := x + y in let s := x + y + z in
  w6sq (y + z) b c 2 (c + 2) (b - 2) = frac ((y + 2) * (y + 1) * (z * (z - 1))) ((b + 1) * b * (b - 1) * ((c + 3) * (c + 2) * (c + 1))).
Proof.
  intros x y z Hx Hy Hz b c s. rewrite w6_swap. destruct (Z.lt_ge_cases z 2) as [Lz|Lz].
  - replace (z * (z - 1)) with 0 by nia. rewrite Z.mul_0_r, frac_0l. unfold w6sq, w6_tri.
    replace (tri (y + z) (b - 2) (c + 2)) with false by (symmetry; apply tri_neg; unfold b, c; lia). reflexivity.
  - pose proof (w6_du x (y + 2) (z - 2) ltac:(lia) ltac:(lia) ltac:(lia)) as E. cbv zeta in E.
    replace (y + 2 + (z - 2)) with (y + z) in E by lia. replace (x + (z - 2)) with (b - 2) in E by (unfold b; lia). replace (x + (y + 2)) with (c + 2) in E by (unfold c; lia).
    replace (c + 2 - 2) with c in E by lia. replace (b - 2 + 2) with b in E by lia. rewrite E. f_equal; unfold b, c, s; ring.
Qed.
Lemma w6_0d : forall x y z, 0 <= x -> 0 <= y -> 0 <= z -> let b := x + z in let c := x + y in let s := x + y + z in
  w6sq (y + z) b c 2 c (b - 2) = frac (2 * (s + 1) * x * z * (y + 1)) ((b + 1) * b * (b - 1) * (c * (c + 1) * (c + 2))).
Proof.
  intros x y z Hx Hy Hz b c s. rewrite w6sq_cols'. pose proof (w6_d0 x z y ltac:(lia) ltac:(lia) ltac:(lia)) as E. cbv zeta in E.
  rewrite (Z.add_comm z y) in E. fold b c in E. rewrite E. f_equal; unfold b, c, s; ring.
Qed.
Lemma w6_0u : forall x y z, 0 <= x -> 0 <= y -> 0 <= z -> let b := x + z in let c := x + y in let s := x + y + z in
  w6sq (y + z) b c 2 c (b + 2) = frac (2 * (s + 2) * (x + 1) * (z + 1) * y) ((b + 3) * (b + 2) * (b + 1) * (c * (c + 1) * (c + 2))).
Proof.
  intros x y z Hx Hy Hz b c s. rewrite w6sq_cols'. pose proof (w6_u0 x z y ltac:(lia) ltac:(lia) ltac:(lia)) as E. cbv zeta in E.
  rewrite (Z.add_comm z y) in E. fold b c in E. rewrite E. f_equal; unfold b, c, s; ring.
Qed.

(** ** The sum over e *)

Ltac pnz := repeat (apply Z.neq_mul_0; split); lia.

Lemma frac_eq : forall n d n' d', d <> 0 -> d' <> 0 -> n * d' = n' * d -> frac n d = frac n' d'.
Proof.
  intros n d n' d' H H' E. apply (f_equal QcZ) in E. rewrite !QcZ_mul in E. unfold frac.
  pose proof (QcZ_nz _ H). pose proof (QcZ_nz _ H').
  replace (QcZ n / QcZ d)%Qc with (QcZ n * QcZ d' / (QcZ d * QcZ d'))%Qc by (field; auto). rewrite E. field. auto.
Qed.
Lemma frac_scale : forall k n d, (QcZ k * frac n d)%Qc = frac (k * n) d.
Proof. intros. unfold frac. rewrite QcZ_mul. unfold Qcdiv. ring. Qed.
Lemma frac_add : forall n m d, (frac n d + frac m d)%Qc = frac (n + m) d.
Proof. intros. unfold frac. rewrite QcZ_add. unfold Qcdiv. ring. Qed.

Lemma three : forall n1 n2 n3 P c m, 0 <= c -> P <> 0 -> m <> 0 -> (c <= 1 -> n1 = 0) -> (c = 0 -> n3 * m = 2 * P) ->
  ((c + 2) * n1 + (c + 1) * n2 + c * n3) * m = P * (c * (c + 1) * (c + 2)) -> 
  (QcZ (c - 1) * frac n1 (P * ((c + 1) * c * (c - 1))) + QcZ (c + 1) * frac n2 (P * (c * (c + 1) * (c + 2))) +
   QcZ (c + 3) * frac n3 (P * ((c + 3) * (c + 2) * (c + 1))))%Qc = frac 1 m.
Proof.
  intros n1 n2 n3 P c m Hc HP Hm H1 H3 E. destruct (Z.eq_dec c 0) as [->|Nc].
  - rewrite H1 by lia. rewrite frac_0l. replace (P * (0 * (0 + 1) * (0 + 2))) with 0 by lia. rewrite frac_0r, frac_scale.
    rewrite (frac_eq _ _ 1 m) by lia. ring.
  - assert (Q1 : (QcZ (c - 1) * frac n1 (P * ((c + 1) * c * (c - 1))))%Qc = frac ((c + 2) * n1) (P * (c * (c + 1) * (c + 2)))).
    { destruct (Z.eq_dec c 1) as [->|Nc1]; [rewrite H1, Z.mul_0_r, !frac_0l by lia; ring|]. rewrite frac_scale. apply frac_eq; [nia|nia|ring]. }
    assert (Q3 : (QcZ (c + 3) * frac n3 (P * ((c + 3) * (c + 2) * (c + 1))))%Qc = frac (c * n3) (P * (c * (c + 1) * (c + 2)))).
    { rewrite frac_scale. apply frac_eq; [nia|nia|ring]. }
    rewrite Q1, Q3, frac_scale, !frac_add. apply frac_eq; [nia|auto|]. rewrite E. ring.
Qed.

Theorem w6_sum_rule : forall i j f g, tri i j f = true -> tri 2 j g = true ->
  (QcZ (f - 1) * w6sq i j f 2 (f - 2) g + QcZ (f + 1) * w6sq i j f 2 f g + QcZ (f + 3) * w6sq i j f 2 (f + 2) g)%Qc = frac 1 (j + 1).
Proof.
  intros i b c g T Tg. apply tri_elim in T as [x [y [z [Hx [Hy [Hz [-> [-> ->]]]]]]]].
  assert (Hg : g = x + z - 2 /\ 2 <= x + z \/ g = x + z /\ 1 <= x + z \/ g = x + z + 2).
  { apply tri_elim in Tg as [u [v [w H]]]. lia. }
  destruct Hg as [[-> L]|[[-> L]| ->]].
  - pose proof (w6_dd x y z Hx Hy Hz) as E1. pose proof (w6_0d x y z Hx Hy Hz) as E2. pose proof (w6_ud x y z Hx Hy Hz) as E3. cbv zeta in *. rewrite E1, E2, E3.
    apply three; [lia|pnz|lia| | |ring].
    + intros H. assert (x = 0 \/ x = 1) as [-> | ->] by lia; ring.
    + intros H. assert (x = 0) by lia. assert (y = 0) by lia. subst. ring.
  - pose proof (w6_d0 x y z Hx Hy Hz) as E1. pose proof (w6_00 x y z Hx Hy Hz) as E2. pose proof (w6_u0 x y z Hx Hy Hz) as E3. cbv zeta in *. rewrite E1, E2, E3.
    apply three; [lia|pnz|lia| | |ring].
    + intros H. assert (x = 0 \/ y = 0) as [-> | ->] by lia; ring.
    + intros H. assert (x = 0) by lia. assert (y = 0) by lia. subst. ring.
  - pose proof (w6_du x y z Hx Hy Hz) as E1. pose proof (w6_0u x y z Hx Hy Hz) as E2. pose proof (w6_uu x y z Hx Hy Hz) as E3. cbv zeta in *. rewrite E1, E2, E3.
    replace ((x + z + 1) * (x + z + 2) * (x + z + 3)) with ((x + z + 3) * (x + z + 2) * (x + z + 1)) by ring.
    apply three; [lia|pnz|lia| | |ring].
    + intros H. assert (y = 0 \/ y = 1) as [-> | ->] by lia; ring.
    + intros H. assert (x = 0) by lia. assert (y = 0) by lia. subst. ring.
Qed.

(** ** 3j symbols (a 1 c; m n p) *)

(** [u = (a+m)/2], [v = (a-m)/2]; the sum in terms of integers. *)
Definition Vt (k v w g h t : Z) : Qc := (sgn t / (QF t * QF (k - t) * QF (v - t) * QF (w - t) * QF (g + t) * QF (h + t)))%Qc.
Lemma w3_sum_V : forall a b c m n k v w g h, a + b - c = 2 * k -> a - m = 2 * v -> b + n = 2 * w -> c - b + m = 2 * g -> c - a - n = 2 * h ->
  w3_sum a b c m n = sum_range (Z.max 0 (Z.max (- g) (- h))) (Z.min k (Z.min v w)) (Vt k v w g h).
Proof.
  intros a b c m n k v w g h H1 H2 H3 H4 H5. unfold w3_sum, w3_term. rewrite (half _ k H1), (half _ v H2), (half _ w H3), (half _ g H4), (half _ h H5).
  rewrite (half (b - c - m) (- g)), (half (a - c + n) (- h)) by lia. unfold sum_range. apply sumr_ext. intros t. unfold Vt, QF. now rewrite !QcZ_mul.
Qed.
Lemma proj_intro : forall j m u v, j + m = 2 * u -> j - m = 2 * v -> 0 <= u -> 0 <= v -> proj_ok j m = true.
Proof.
  intros j m u v H1 H2 Hu Hv. unfold proj_ok. rewrite andb_true_iff. split; [apply Z.leb_le; lia|]. apply Z.even_spec. exists u. lia.
Qed.
Lemma proj_elim : forall j m, proj_ok j m = true -> exists u v, 0 <= u /\ 0 <= v /\ j = u + v /\ m = u - v.
Proof.
  intros j m H. unfold proj_ok in H. rewrite andb_true_iff in H. destruct H as [H1 H2]. apply Z.leb_le in H1. apply Z.even_spec in H2 as [u H2].
  exists u, (j - u). lia.
Qed.
Lemma proj_neg : forall j m, j < Z.abs m -> proj_ok j m = false.
Proof. intros j m H. unfold proj_ok. destruct (Z.leb_spec (Z.abs m) j); auto. lia. Qed.
Lemma w3_ok_proj : forall a b c m n p, proj_ok c p = false -> w3sq a b c m n p = 0%Qc.
Proof. intros. unfold w3sq, w3_ok. rewrite H. now rewrite andb_false_r. Qed.

Lemma w3sq_V : forall a b c m n p k q r u v w w' x x' g h,
  a + b - c = 2 * k -> a - b + c = 2 * q -> b + c - a = 2 * r -> a + m = 2 * u -> a - m = 2 * v -> b + n = 2 * w -> b - n = 2 * w' ->
  c + p = 2 * x -> c - p = 2 * x' -> c - b + m = 2 * g -> c - a - n = 2 * h -> m + n + p = 0 ->
  0 <= k -> 0 <= q -> 0 <= r -> 0 <= u -> 0 <= v -> 0 <= w -> 0 <= w' -> 0 <= x -> 0 <= x' ->
  w3sq a b c m n p = (D k q r (k + q + r) * (QF u * QF v * QF w * QF w' * QF x * QF x') *
    let S := sum_range (Z.max 0 (Z.max (- g) (- h))) (Z.min k (Z.min v w)) (Vt k v w g h) in S * S)%Qc.
Proof.
  intros a b c m n p k q r u v w w' x x' g h H1 H2 H3 H4 H5 H6 H7 H8 H9 H10 H11 H12 K1 K2 K3 K4 K5 K6 K7 K8 K9. unfold w3sq, w3_ok.
  rewrite (tri_intro a b c k q r), (proj_intro a m u v), (proj_intro b n w w'), (proj_intro c p x x'), (proj2 (Z.eqb_eq _ _) H12) by lia. cbn [andb].
  rewrite (delta2_D a b c k q r), (w3_sum_V a b c m n k v w g h) by lia. unfold hfac.
  rewrite (half _ u H4), (half _ v H5), (half _ w H6), (half _ w' H7), (half _ x H8), (half _ x' H9). unfold QF. rewrite !QcZ_mul. reflexivity.
Qed.

Ltac side := repeat split; try apply QF_nz; try (apply QcZ_nz; lia).

(** (a 1 a+1; ...) *)
Lemma w3_up : forall u v n, 0 <= u -> 0 <= v -> n = -1 \/ n = 0 \/ n = 1 -> let a := u + v in
  w3sq a 2 (a + 2) (u - v) (2 * n) (- (u - v) - 2 * n) =
    frac (if n =? 0 then 2 * (u + 1) * (v + 1) else if n =? 1 then (u + 2) * (u + 1) else (v + 2) * (v + 1)) ((a + 3) * (a + 2) * (a + 1)).
Proof.
  intros u v n Hu Hv Hn a.
  rewrite (w3sq_V _ _ _ _ _ _ 0 a 2 u v (1 + n) (1 - n) (v + 1 - n) (u + 1 + n) u (1 - n)) by (unfold a; lia). cbv zeta.
  rewrite sum_one by lia. replace (Z.max 0 (Z.max (- u) (- (1 - n)))) with 0 by lia. unfold Vt, D, frac.
  replace (0 + a + 2 + 1) with (a + 3) by lia. replace (0 - 0) with 0 by lia. rewrite !Z.sub_0_r, !Z.add_0_r. change (sgn 0) with 1%Qc.
  rewrite (QF_3d (a + 3)) by (unfold a; lia). replace (a + 3 - 3) with a by lia. replace (a + 3 - 1) with (a + 2) by lia. replace (a + 3 - 2) with (a + 1) by lia.
  destruct Hn as [-> | [-> | ->]]; cbn [Z.eqb Pos.eqb]; rewrite !QcZ_mul.
  - replace (1 + -1) with 0 by lia. replace (1 - -1) with 2 by lia. replace (v + 1 - -1) with (v + 2) by lia. replace (u + 1 + -1) with u by lia.
    rewrite (QF_2d (v + 2)) by lia. replace (v + 2 - 1) with (v + 1) by lia. replace (v + 2 - 2) with v by lia. rewrite !QF_0, QF_2. field. side; unfold a; apply QcZ_nz; lia.
  - rewrite !Z.sub_0_r, !Z.add_0_r. rewrite (QF_S v), (QF_S u) by lia. rewrite !QF_0, QF_1, QF_2. field. side; unfold a; apply QcZ_nz; lia.
  - replace (1 - 1) with 0 by lia. replace (1 + 1) with 2 by lia. replace (v + 1 - 1) with v by lia. replace (u + 1 + 1) with (u + 2) by lia.
    rewrite (QF_2d (u + 2)) by lia. replace (u + 2 - 1) with (u + 1) by lia. replace (u + 2 - 2) with u by lia. rewrite !QF_0, QF_2. field. side; unfold a; apply QcZ_nz; lia.
Qed.

(** (a 1 a-1; ...) *)
Lemma w3_down : forall u v n, 0 <= u -> 0 <= v -> 2 <= u + v -> n = -1 \/ n = 0 \/ n = 1 -> let a := u + v in
  w3sq a 2 (a - 2) (u - v) (2 * n) (- (u - v) - 2 * n) =
    frac (if n =? 0 then 2 * u * v else if n =? 1 then v * (v - 1) else u * (u - 1)) ((a + 1) * a * (a - 1)).
Proof.
  intros u v n Hu Hv Ha Hn a.
  destruct (Z.lt_ge_cases v (1 + n)) as [Lv|Lv].
  { rewrite w3_ok_proj by (apply proj_neg; unfold a; lia).
    destruct Hn as [-> | [-> | ->]]; cbn [Z.eqb Pos.eqb]; [lia| |]; (assert (v = 0 \/ v = 1) as [-> | ->] by lia); rewrite ?Z.mul_0_r, ?Z.mul_0_l; now rewrite ?frac_0l. }
  destruct (Z.lt_ge_cases u (1 - n)) as [Lu|Lu].
  { rewrite w3_ok_proj by (apply proj_neg; unfold a; lia).
    destruct Hn as [-> | [-> | ->]]; cbn [Z.eqb Pos.eqb]; [| |lia]; (assert (u = 0 \/ u = 1) as [-> | ->] by lia); rewrite ?Z.mul_0_r, ?Z.mul_0_l; now rewrite ?frac_0l. }
  rewrite (w3sq_V _ _ _ _ _ _ 2 (a - 2) 0 u v (1 + n) (1 - n) (v - 1 - n) (u - 1 + n) (u - 2) (- 1 - n)) by (unfold a; lia). cbv zeta.
  rewrite sum_one by lia. replace (Z.max 0 (Z.max (- (u - 2)) (- (-1 - n)))) with (1 + n) by lia. unfold Vt, D, frac.
  replace (2 + (a - 2) + 0 + 1) with (a + 1) by lia. replace (2 - (1 + n)) with (1 - n) by lia. replace (v - (1 + n)) with (v - 1 - n) by lia.
  replace (1 + n - (1 + n)) with 0 by lia. replace (u - 2 + (1 + n)) with (u - 1 + n) by lia. replace (-1 - n + (1 + n)) with 0 by lia.
  rewrite (QF_3d (a + 1)) by (unfold a; lia). replace (a + 1 - 3) with (a - 2) by lia. replace (a + 1 - 1) with a by lia. replace (a + 1 - 2) with (a - 1) by lia.
  destruct Hn as [-> | [-> | ->]]; cbn [Z.eqb Pos.eqb]; rewrite !QcZ_mul.
  - replace (1 + -1) with 0 by lia. replace (1 - -1) with 2 by lia. replace (v - 1 - -1) with v by lia. replace (u - 1 + -1) with (u - 2) by lia.
    rewrite (QF_2d u) by lia. rewrite !QF_0, !QF_2. change (sgn 0) with 1%Qc. field. side; unfold a; apply QcZ_nz; lia.
  - rewrite !Z.sub_0_r, !Z.add_0_r. rewrite (QF_1d v), (QF_1d u) by lia. rewrite !QF_0, !QF_1, QF_2. change (sgn 1) with (- (1))%Qc. field. side; unfold a; apply QcZ_nz; lia.
  - replace (1 - 1) with 0 by lia. replace (1 + 1) with 2 by lia. replace (v - 1 - 1) with (v - 2) by lia. replace (u - 1 + 1) with u by lia.
    rewrite (QF_2d v) by lia. rewrite !QF_0, !QF_2. change (sgn 2) with 1%Qc. field. side; unfold a; apply QcZ_nz; lia.
Qed.

(** (a 1 a; ...) *)
Lemma w3_same : forall u v n, 0 <= u -> 0 <= v -> 1 <= u + v -> n = -1 \/ n = 0 \/ n = 1 -> let a := u + v in
  w3sq a 2 a (u - v) (2 * n) (- (u - v) - 2 * n) =
    frac (if n =? 0 then (u - v) * (u - v) else if n =? 1 then 2 * v * (u + 1) else 2 * u * (v + 1)) (a * (a + 1) * (a + 2)).
Proof.
  intros u v n Hu Hv Ha Hn a.
  destruct (Z.lt_ge_cases v n) as [Lv|Lv].
  { rewrite w3_ok_proj by (apply proj_neg; unfold a; lia). destruct Hn as [-> | [-> | ->]]; cbn [Z.eqb Pos.eqb]; [lia|lia|].
    assert (v = 0) as -> by lia. rewrite ?Z.mul_0_r, ?Z.mul_0_l. now rewrite frac_0l. }
  destruct (Z.lt_ge_cases u (- n)) as [Lu|Lu].
  { rewrite w3_ok_proj by (apply proj_neg; unfold a; lia). destruct Hn as [-> | [-> | ->]]; cbn [Z.eqb Pos.eqb]; [|lia|lia].
    assert (u = 0) as -> by lia. rewrite ?Z.mul_0_r, ?Z.mul_0_l. now rewrite frac_0l. }
  rewrite (w3sq_V _ _ _ _ _ _ 1 (a - 1) 1 u v (1 + n) (1 - n) (v - n) (u + n) (u - 1) (- n)) by (unfold a; lia). cbv zeta. unfold D, frac.
  replace (1 + (a - 1) + 1 + 1) with (a + 2) by lia.
  rewrite (QF_3d (a + 2)) by (unfold a; lia). replace (a + 2 - 3) with (a - 1) by lia. replace (a + 2 - 1) with (a + 1) by lia. replace (a + 2 - 2) with a by lia.
  destruct Hn as [-> | [-> | ->]]; cbn [Z.eqb Pos.eqb].
  - rewrite sum_one by lia. replace (Z.max 0 (Z.max (- (u - 1)) (- - (-1)))) with 0 by lia. unfold Vt.
    replace (1 + -1) with 0 by lia. replace (1 - -1) with 2 by lia. replace (v - -1) with (v + 1) by lia. replace (u + -1) with (u - 1) by lia. replace (- -1 + 0) with 1 by lia.
    rewrite !Z.sub_0_r, !Z.add_0_r. rewrite (QF_S v), (QF_1d u) by lia. rewrite !QcZ_mul, !QF_0, !QF_1, !QF_2. change (sgn 0) with 1%Qc. field. side; unfold a; apply QcZ_nz; lia.
  - assert (Sm : sum_range (Z.max 0 (Z.max (- (u - 1)) (- - 0))) (Z.min 1 (Z.min v (1 + 0))) (Vt 1 v (1 + 0) (u - 1) (- 0)) = (QcZ (u - v) / (QF u * QF v))%Qc).
    { assert (T0 : 1 <= u -> Vt 1 v (1 + 0) (u - 1) (- 0) 0 = (QcZ u / (QF u * QF v))%Qc).
      { intros L. unfold Vt. rewrite !Z.sub_0_r, !Z.add_0_r. change (- 0) with 0. rewrite (QF_1d u) by lia. rewrite QF_0, QF_1. change (sgn 0) with 1%Qc. field. side. }
      assert (T1 : 1 <= v -> Vt 1 v (1 + 0) (u - 1) (- 0) 1 = (- (QcZ v / (QF u * QF v)))%Qc).
      { intros L. unfold Vt. replace (1 - 1) with 0 by lia. replace (1 + 0 - 1) with 0 by lia. replace (u - 1 + 1) with u by lia. replace (- 0 + 1) with 1 by lia.
        rewrite (QF_1d v) by lia. rewrite QF_0, QF_1. change (sgn 1) with (- (1))%Qc. field. side. }
      rewrite QcZ_sub. destruct (Z.eq_dec u 0) as [->|Nu].
      - rewrite sum_one by lia. replace (Z.max 0 (Z.max (- (0 - 1)) (- - 0))) with 1 by lia. rewrite T1 by lia. rewrite QcZ_0. field. side.
      - destruct (Z.eq_dec v 0) as [->|Nv].
        + rewrite sum_one by lia. replace (Z.max 0 (Z.max (- (u - 1)) (- - 0))) with 0 by lia. rewrite T0 by lia. rewrite QcZ_0. field. side.
        + rewrite sum_two by lia. replace (Z.max 0 (Z.max (- (u - 1)) (- - 0))) with 0 by lia. replace (Z.min 1 (Z.min v (1 + 0))) with 1 by lia.
          rewrite T0, T1 by lia. field. side. }
    rewrite Sm. rewrite !Z.sub_0_r, !Z.add_0_r. rewrite (QcZ_mul (u - v)), (QcZ_mul (a * (a + 1))), (QcZ_mul a). generalize (QcZ (u - v)). intros w.
    rewrite !QF_1. field. side; unfold a; apply QcZ_nz; lia.
  - rewrite sum_one by lia. replace (Z.max 0 (Z.max (- (u - 1)) (- - (1)))) with 1 by lia. unfold Vt.
    replace (1 + 1) with 2 by lia. replace (1 - 1) with 0 by lia. replace (2 - 1) with 1 by lia. replace (u - 1 + 1) with u by lia. replace (- (1) + 1) with 0 by lia.
    rewrite (QF_S u), (QF_1d v) by lia. rewrite !QcZ_mul, !QF_0, !QF_1, !QF_2. change (sgn 1) with (- (1))%Qc. field. side; unfold a; apply QcZ_nz; lia.
Qed.

Theorem w3_sum_rule : forall a c m, tri a 2 c = true -> proj_ok a m = true ->
  (w3sq a 2 c m (-2) (- m + 2) + w3sq a 2 c m 0 (- m) + w3sq a 2 c m 2 (- m - 2))%Qc = frac 1 (a + 1).
Proof.
  intros a c m T P. apply proj_elim in P as [u [v [Hu [Hv [-> ->]]]]].
  assert (Hc : c = u + v - 2 /\ 2 <= u + v \/ c = u + v /\ 1 <= u + v \/ c = u + v + 2).
  { apply tri_elim in T as [x [y [z H]]]. lia. }
  destruct Hc as [[-> L]|[[-> L]| ->]].
  - pose proof (w3_down u v (-1) Hu Hv L ltac:(lia)) as E1. pose proof (w3_down u v 0 Hu Hv L ltac:(lia)) as E2. pose proof (w3_down u v 1 Hu Hv L ltac:(lia)) as E3.
    cbv zeta in *. cbn [Z.eqb Pos.eqb] in *. change (2 * -1) with (-2) in E1. change (2 * 0) with 0 in E2. change (2 * 1) with 2 in E3. rewrite Z.sub_0_r in E2.
    replace (- (u - v) - -2) with (- (u - v) + 2) in E1 by lia. rewrite E1, E2, E3, !frac_add. apply frac_eq; [pnz|lia|ring].
  - pose proof (w3_same u v (-1) Hu Hv L ltac:(lia)) as E1. pose proof (w3_same u v 0 Hu Hv L ltac:(lia)) as E2. pose proof (w3_same u v 1 Hu Hv L ltac:(lia)) as E3.
    cbv zeta in *. cbn [Z.eqb Pos.eqb] in *. change (2 * -1) with (-2) in E1. change (2 * 0) with 0 in E2. change (2 * 1) with 2 in E3. rewrite Z.sub_0_r in E2.
    replace (- (u - v) - -2) with (- (u - v) + 2) in E1 by lia. rewrite E1, E2, E3, !frac_add. apply frac_eq; [pnz|lia|ring].
  - pose proof (w3_up u v (-1) Hu Hv ltac:(lia)) as E1. pose proof (w3_up u v 0 Hu Hv ltac:(lia)) as E2. pose proof (w3_up u v 1 Hu Hv ltac:(lia)) as E3.
    cbv zeta in *. cbn [Z.eqb Pos.eqb] in *. change (2 * -1) with (-2) in E1. change (2 * 0) with 0 in E2. change (2 * 1) with 2 in E3. rewrite Z.sub_0_r in E2.
    replace (- (u - v) - -2) with (- (u - v) + 2) in E1 by lia. rewrite E1, E2, E3, !frac_add. apply frac_eq; [pnz|lia|ring].
Qed.
