(** Proofs about [Strengths]. *)
From Coq Require Import List Bool ZArith QArith Qcanon Reals Qreals Lia Lra.
From Verif Require Import Base Wigner WignerProofs WignerOne WignerSym WignerZero RulesProofs StrengthSums StrengthPos Strengths.
Import ListNotations.
Local Open Scope Z_scope.

Lemma Rc_add : forall a b, Rc (a + b)%Qc = (Rc a + Rc b)%R.
Proof. intros. unfold Rc. rewrite <- Q2R_plus. apply Qeq_eqR. cbn [this Qcplus Q2Qc]. apply Qred_correct. Qed.
Lemma Rc_mul : forall a b, Rc (a * b)%Qc = (Rc a * Rc b)%R.
Proof. intros. unfold Rc. rewrite <- Q2R_mult. apply Qeq_eqR. apply Qred_correct. Qed.
Lemma Rc_0 : Rc 0 = 0%R.
Proof. unfold Rc. cbn. unfold Q2R. cbn. lra. Qed.
Lemma Rc_Z : forall z, Rc (QcZ z) = IZR z.
Proof. intros. unfold Rc, QcZ. rewrite (Qeq_eqR _ (inject_Z z)); [|apply Qred_correct]. unfold Q2R, inject_Z. cbn. lra. Qed.
Lemma Rc_nonneg : forall a, (0 <= a)%Qc -> (0 <= Rc a)%R.
Proof. intros a H. rewrite <- Rc_0. unfold Rc. now apply Qle_Rle. Qed.
Lemma Rc_inj : forall a b, Rc a = Rc b -> a = b.
Proof. intros a b H. apply Qc_is_canon. now apply eqR_Qeq. Qed.
Lemma Rc_sgn2 : forall z, (Rc (sgn z) * Rc (sgn z) = 1)%R.
Proof. intros z. rewrite <- Rc_mul, sgn_sq. change 1%Qc with (QcZ 1). rewrite Rc_Z. reflexivity. Qed.

Lemma w6R_sq : forall a b c d e f, (w6R a b c d e f * w6R a b c d e f = Rc (w6sq a b c d e f))%R.
Proof.
  intros. unfold w6R, w6sq. destruct (w6_tri a b c d e f); [|rewrite Rc_0; ring].
  rewrite (Rc_mul (delta2 a b c * delta2 a e f * delta2 d b f * delta2 d e c)), (Rc_mul (w6_sum a b c d e f)).
  set (D := (delta2 a b c * delta2 a e f * delta2 d b f * delta2 d e c)%Qc). set (S := Rc (w6_sum a b c d e f)).
  assert (P : (0 <= Rc D)%R) by (apply Rc_nonneg; unfold D; do 3 (apply Qcmul_nonneg; [|apply delta2_nonneg]); apply delta2_nonneg).
  pose proof (sqrt_sqrt _ P) as Q. transitivity ((sqrt (Rc D) * sqrt (Rc D)) * (S * S))%R; [ring|now rewrite Q].
Qed.
Lemma w3R_sq : forall a b c m n p, (w3R a b c m n p * w3R a b c m n p = Rc (w3sq a b c m n p))%R.
Proof.
  intros. unfold w3R, w3sq. destruct (w3_ok a b c m n p); [|rewrite Rc_0; ring].
  set (H := QcZ (hfac (a + m) * hfac (a - m) * hfac (b + n) * hfac (b - n) * hfac (c + p) * hfac (c - p))).
  rewrite (Rc_mul (delta2 a b c * H)), (Rc_mul (w3_sum a b c m n)). set (S := Rc (w3_sum a b c m n)). set (D := (delta2 a b c * H)%Qc).
  assert (P : (0 <= Rc D)%R).
  { apply Rc_nonneg. unfold D. apply Qcmul_nonneg; [apply delta2_nonneg|]. apply QcZ_nonneg. unfold hfac.
    assert (forall u v, 0 <= u -> 0 <= v -> 0 <= u * v) as Mu by (intros; nia).
    do 5 (apply Mu; [|apply Z.lt_le_incl, fac_pos]). apply Z.lt_le_incl, fac_pos. }
  pose proof (sqrt_sqrt _ P) as Q. pose proof (Rc_sgn2 ((a - b - p) / 2)) as G. set (g := Rc (sgn ((a - b - p) / 2))) in *.
  transitivity ((g * g) * (sqrt (Rc D) * sqrt (Rc D)) * (S * S))%R; [ring|rewrite Q, G; ring].
Qed.

(** Without a triangle the symbols vanish, so that the spins are not negative
    where it matters. *)
Lemma w6sq_neg : forall a b c d e f, d < 0 \/ e < 0 -> w6sq a b c d e f = 0%Qc.
Proof.
  intros a b c d e f H. unfold w6sq. destruct (w6_tri a b c d e f) eqn:T; auto. exfalso. unfold w6_tri in T. rewrite !andb_true_iff in T.
  destruct T as [_ T]. apply tri_elim in T as [x [y [z T]]]. lia.
Qed.

Lemma mel_sq : forall i k q j0 f0 m0 j1 f1 m1,
  (tkq_mel i k q j0 f0 m0 j1 f1 m1 * tkq_mel i k q j0 f0 m0 j1 f1 m1 = Rc (tkq_strength i k q j0 f0 m0 j1 f1 m1))%R.
Proof.
  intros. unfold tkq_mel, tkq_strength. rewrite !Rc_mul, Rc_Z, mult_IZR.
  set (a := w6R j0 j1 (2 * k) f1 f0 i). set (b := w3R f1 (2 * k) f0 (- m1) (2 * q) m0).
  assert (Ea : (a * a = Rc (w6sq j0 j1 (2 * k) f1 f0 i))%R) by apply w6R_sq. assert (Eb : (b * b = Rc (w3sq f1 (2 * k) f0 (- m1) (2 * q) m0))%R) by apply w3R_sq.
  rewrite <- Ea, <- Eb. set (s0 := sqrt (IZR (f0 + 1))). set (s1 := sqrt (IZR (f1 + 2))).
  destruct (Z.lt_ge_cases f0 0) as [L|L]; [|destruct (Z.lt_ge_cases f1 0) as [L1|L1]].
  - assert (Z0 : (a * a = 0)%R) by (rewrite Ea, w6sq_neg by auto; apply Rc_0). assert (a = 0%R) by nra. rewrite H. ring.
  - assert (Z0 : (a * a = 0)%R) by (rewrite Ea, w6sq_neg by auto; apply Rc_0). assert (a = 0%R) by nra. rewrite H. ring.
  - assert (P0 : (0 <= IZR (f0 + 1))%R) by (apply IZR_le; lia). assert (P1 : (0 <= IZR (f1 + 2))%R) by (apply IZR_le; lia).
    pose proof (sqrt_sqrt _ P0) as Q0. pose proof (sqrt_sqrt _ P1) as Q1. fold s0 in Q0. fold s1 in Q1.
    transitivity ((s0 * s0) * (s1 * s1) * (a * a) * (b * b))%R; [ring|rewrite Q0, Q1; ring].
Qed.

Lemma strength_nonneg : forall i k q j0 f0 m0 j1 f1 m1, (0 <= tkq_strength i k q j0 f0 m0 j1 f1 m1)%Qc.
Proof.
  intros. unfold tkq_strength. apply Qcmul_nonneg; [|apply w3sq_nonneg].
  destruct (Z.lt_ge_cases f0 0) as [L|L]; [|destruct (Z.lt_ge_cases f1 0) as [L1|L1]].
  - rewrite w6sq_neg by auto. rewrite Qcmult_0_r. apply Qcle_refl.
  - rewrite w6sq_neg by auto. rewrite Qcmult_0_r. apply Qcle_refl.
  - apply Qcmul_nonneg; [apply QcZ_nonneg; nia|apply w6sq_nonneg].
Qed.

Lemma strength_nz : forall i k q j0 f0 m0 j1 f1 m1, tkq_strength i k q j0 f0 m0 j1 f1 m1 <> 0%Qc <->
  w6sq j0 j1 (2 * k) f1 f0 i <> 0%Qc /\ w3sq f1 (2 * k) f0 (- m1) (2 * q) m0 <> 0%Qc.
Proof.
  intros. unfold tkq_strength. rewrite !Qcmult_nz_iff. split; [tauto|]. intros [H1 H2]. split; auto. split; auto.
  apply QcZ_nz. assert (~ (f1 < 0 \/ f0 < 0)) by (intros H; apply H1, w6sq_neg; lia). nia.
Qed.

(** The selection rules of rank [k]. *)
Definition rules (i k q j0 f0 m0 j1 f1 m1 : Z) : Prop :=
  triangle j0 j1 (2 * k) /\ triangle f0 f1 (2 * k) /\ triangle j0 f0 i /\ triangle j1 f1 i /\
  Z.abs m0 <= f0 /\ Z.abs m1 <= f1 /\ Z.even (f0 + m0) = true /\ Z.even (f1 + m1) = true /\ Z.abs q <= k /\ m1 = m0 + 2 * q.
Lemma rules_iff : forall i k q j0 f0 m0 j1 f1 m1,
  rules i k q j0 f0 m0 j1 f1 m1 <-> w6_tri j0 j1 (2 * k) f1 f0 i = true /\ w3_ok f1 (2 * k) f0 (- m1) (2 * q) m0 = true.
Proof.
  intros. unfold rules, w6_tri, w3_ok, proj_ok. rewrite !andb_true_iff, !Z.leb_le, !Z.eqb_eq, <- !tri_spec.
  rewrite (tri_12 f0 f1), (tri_23 f1 (2 * k)), (tri_12 j1 f1). rewrite Z.abs_opp.
  replace (2 * k + 2 * q) with (2 * (k + q)) by ring. rewrite Z.even_mul. change (Z.even 2) with true. cbn [orb].
  replace (Z.even (f1 + - m1)) with (Z.even (f1 + m1)).
  2:{ replace (f1 + - m1) with (f1 + m1 - 2 * m1) by ring. rewrite Z.even_sub, Z.even_mul. change (Z.even 2) with true. cbn [orb]. now destruct (Z.even (f1 + m1)). }
  intuition lia.
Qed.
Lemma strength_rules : forall i k q j0 f0 m0 j1 f1 m1, tkq_strength i k q j0 f0 m0 j1 f1 m1 <> 0%Qc -> rules i k q j0 f0 m0 j1 f1 m1.
Proof.
  intros i k q j0 f0 m0 j1 f1 m1 H. apply strength_nz in H as [H1 H2]. apply rules_iff. unfold w6sq in H1. unfold w3sq in H2.
  destruct (w6_tri _ _ _ _ _ _); [|congruence]. destruct (w3_ok _ _ _ _ _ _); [auto|congruence].
Qed.
Lemma w6_turn2 : forall j0 j1 f1 f0 i, w6sq j0 j1 2 f1 f0 i = w6sq i j0 f0 2 f1 j1 /\ w6_tri j0 j1 2 f1 f0 i = w6_tri i j0 f0 2 f1 j1.
Proof.
  intros. split.
  - rewrite <- (w6sq_strength j0 j1 2 f0 f1 i). apply w6_turn.
  - unfold w6_tri. rewrite (tri_12 i), (tri_23 j0 i), (tri_23 i f1), (tri_12 i j1), (tri_23 j1 i), (tri_12 j1 f1), (tri_12 2 j0), (tri_23 j0 2), (tri_12 2 f1), (tri_23 f1 2).
    destruct (tri j0 j1 2), (tri j0 f0 i), (tri f1 j1 i), (tri f1 f0 2); reflexivity.
Qed.
(** Rank one: the only zeros that the rules do not explain. *)
Lemma strength_rank1 : forall i q j0 f0 m0 j1 f1 m1, tkq_strength i 1 q j0 f0 m0 j1 f1 m1 <> 0%Qc <->
  rules i 1 q j0 f0 m0 j1 f1 m1 /\ ~ (f0 = f1 /\ m0 = 0 /\ m1 = 0) /\
  ~ (j0 = j1 /\ f0 = f1 /\ i * (i + 2) = j0 * (j0 + 2) + f0 * (f0 + 2)).
Proof.
  intros. change (2 * 1) with 2. split.
  - intros H. pose proof (strength_rules _ _ _ _ _ _ _ _ _ H) as R. split; auto. apply rules_iff in R as [R1 R2]. apply strength_nz in H as [H1 H2]. change (2 * 1) with 2 in *.
    destruct (w6_turn2 j0 j1 f1 f0 i) as [T1 T2]. rewrite T1 in H1. rewrite T2 in R1. split.
    + intros [E1 [E2 E3]]. apply H2. apply (w3_zero _ _ _ _ _ R2). unfold w3_ok in R2. rewrite !andb_true_iff, Z.eqb_eq in R2. lia.
    + intros [E1 [E2 E3]]. apply H1. apply (w6_zero _ _ _ _ _ R1). lia.
  - intros [R [N1 N2]]. apply rules_iff in R as [R1 R2]. apply strength_nz. change (2 * 1) with 2 in *.
    destruct (w6_turn2 j0 j1 f1 f0 i) as [T1 T2]. rewrite T1. rewrite T2 in R1. split.
    + intros Z. apply (w6_zero _ _ _ _ _ R1) in Z. apply N2. lia.
    + intros Z. apply (w3_zero _ _ _ _ _ R2) in Z. apply N1. unfold w3_ok in R2. rewrite !andb_true_iff, Z.eqb_eq in R2. lia.
Qed.

(** Exchanging the states. *)
Lemma strength_exchange : forall i k q j0 f0 m0 j1 f1 m1,
  (QcZ ((f0 + 2) * (f1 + 1)) * tkq_strength i k q j0 f0 m0 j1 f1 m1 = QcZ ((f0 + 1) * (f1 + 2)) * tkq_strength i k (- q) j1 f1 m1 j0 f0 m0)%Qc.
Proof.
  intros. unfold tkq_strength. replace (w6sq j1 j0 (2 * k) f0 f1 i) with (w6sq j0 j1 (2 * k) f1 f0 i) by apply w6sq_cols.
  rewrite (w3sq_strength f1 f0 (2 * k) m1 m0 (2 * q)). replace (2 * - q) with (- (2 * q)) by lia. rewrite !QcZ_mul. ring.
Qed.

(** ** Polarisations *)

Local Open Scope R_scope.
Definition tup (x y z : R) : vec := Tup (creal x) (creal y) (creal z).
Definition vscale (c : R) (v : vec) : vec :=
  match v with Arr x y z => Arr (cscale c x) (cscale c y) (cscale c z) | Tup x y z => Tup (cscale c x) (cscale c y) (cscale c z) end.
Lemma tup_scale : forall c x y z, vscale c (tup x y z) = tup (c * x) (c * y) (c * z).
Proof. intros. unfold vscale, tup, cscale, creal. cbn [fst snd]. now rewrite !Rmult_0_r. Qed.

Lemma cplx_eq : forall u v : cplx, fst u = fst v -> snd u = snd v -> u = v.
Proof. intros [a b] [c d]. cbn. congruence. Qed.
Lemma cabs2_nonneg : forall u, 0 <= cabs2 u.
Proof. intros u. unfold cabs2. nra. Qed.
Lemma cabs2_scale : forall c u, cabs2 (cscale c u) = c * c * cabs2 u.
Proof. intros. unfold cabs2, cscale. cbn [fst snd]. ring. Qed.
Lemma cscale_twice : forall a b u, cscale a (cscale b u) = cscale (a * b) u.
Proof. intros. apply cplx_eq; unfold cscale; cbn [fst snd]; ring. Qed.

Lemma norm_scale : forall c v, 0 < c -> norm (vscale c v) = c * norm v.
Proof.
  intros c v Hc. unfold norm. assert (E : cabs2 (v0 (vscale c v)) + cabs2 (v1 (vscale c v)) + cabs2 (v2 (vscale c v)) = (c * c) * (cabs2 (v0 v) + cabs2 (v1 v) + cabs2 (v2 v))).
  { destruct v; cbn [vscale v0 v1 v2]; rewrite !cabs2_scale; ring. }
  rewrite E, sqrt_mult_alt by nra. now rewrite sqrt_square by lra.
Qed.
Lemma normed_scale : forall c v, 0 < c -> normed (vscale c v) = normed v.
Proof.
  intros c v Hc. unfold normed. rewrite norm_scale by auto.
  destruct (Req_EM_T (norm v) 0) as [E|E], (Req_EM_T (c * norm v) 0) as [E'|E']; auto.
  - exfalso. apply E'. rewrite E. ring.
  - exfalso. apply Rmult_integral in E'. lra.
  - assert (Q : forall u, cscale (/ (c * norm v)) (cscale c u) = cscale (/ norm v) u).
    { intros u. rewrite cscale_twice. f_equal. field. split; [auto|lra]. }
    destruct v; cbn [vscale v0 v1 v2]; now rewrite !Q.
Qed.
Lemma hashable_scale : forall c v, hashable (vscale c v) = hashable v.
Proof. now destruct v. Qed.

Lemma with_eps_scale : forall c v f, 0 < c -> with_eps (vscale c v) f = with_eps v f.
Proof. intros. unfold with_eps. now rewrite hashable_scale, normed_scale. Qed.
Lemma with_both_scale : forall c d e k f, 0 < c -> 0 < d -> with_both (vscale c e) (vscale d k) f = with_both e k f.
Proof. intros. unfold with_both. now rewrite !hashable_scale, !normed_scale. Qed.

(** A non-zero tuple of real numbers. *)
Lemma norm_tup : forall x y z, norm (tup x y z) = sqrt (x * x + y * y + z * z).
Proof. intros. unfold norm, tup, cabs2, creal. cbn [v0 v1 v2 fst snd]. f_equal. ring. Qed.
Lemma sumsq_pos : forall x y z, ~ (x = 0 /\ y = 0 /\ z = 0) -> 0 < x * x + y * y + z * z.
Proof.
  intros x y z H. destruct (Rle_or_lt (x * x + y * y + z * z) 0) as [L|L]; auto. exfalso. apply H.
  assert (x * x = 0) by nra. assert (y * y = 0) by nra. assert (z * z = 0) by nra. repeat split; nra.
Qed.
Lemma normed_tup : forall x y z, ~ (x = 0 /\ y = 0 /\ z = 0) -> exists n, 0 < n /\ n * n = x * x + y * y + z * z /\
  normed (tup x y z) = Some (Arr (creal (x / n)) (creal (y / n)) (creal (z / n))).
Proof.
  intros x y z H. pose proof (sumsq_pos _ _ _ H) as P. exists (norm (tup x y z)). rewrite norm_tup.
  pose proof (sqrt_lt_R0 _ P) as S. split; auto. split; [apply sqrt_sqrt; lra|].
  unfold normed. rewrite norm_tup. destruct (Req_EM_T (sqrt (x * x + y * y + z * z)) 0) as [E|E]; [lra|].
  unfold tup, creal, cscale. cbn [v0 v1 v2 fst snd]. rewrite !Rmult_0_r. unfold Rdiv. now rewrite !(Rmult_comm (/ _)).
Qed.
Lemma T_nonneg : forall k q x, 0 <= T k q x.
Proof. intros. apply Rc_nonneg, strength_nonneg. Qed.

Definition E1_value (x y z : R) (u : states) : R :=
  ((T 1 (-1) u + T 1 1 u) / 2 * (x * x + y * y) + T 1 0 u * (z * z)) / (x * x + y * y + z * z).
Lemma E1_tup : forall x y z u, ~ (x = 0 /\ y = 0 /\ z = 0) -> E1_geom (tup x y z) u = Ok (Some (creal (E1_value x y z u))).
Proof.
  intros x y z u H. destruct (normed_tup x y z H) as [n [Hn [En N]]]. unfold E1_geom, with_eps. cbn [hashable tup]. rewrite N. cbn [v0 v1 v2].
  do 2 f_equal. apply cplx_eq; unfold csq, cadd, cmul, cscale, creal; cbn [fst snd]; [|ring].
  unfold E1_value. rewrite <- En. field. lra.
Qed.
Lemma E1_nonneg : forall x y z u, ~ (x = 0 /\ y = 0 /\ z = 0) -> 0 <= E1_value x y z u.
Proof.
  intros x y z u H. pose proof (sumsq_pos _ _ _ H). pose proof (T_nonneg 1 (-1) u). pose proof (T_nonneg 1 0 u). pose proof (T_nonneg 1 1 u).
  unfold E1_value. apply Rmult_le_pos; [|left; now apply Rinv_0_lt_compat].
  apply Rplus_le_le_0_compat; apply Rmult_le_pos; try nra.
Qed.

Definition E2_value (x y z a b c : R) (u : states) : R :=
  ((T 2 (-2) u + T 2 2 u) * ((x * x + y * y) * (a * a + b * b)) + (T 2 (-1) u + T 2 1 u) * ((z * a + x * c) * (z * a + x * c)) +
   T 2 0 u * (2 / 3) * ((3 * (a * x) + 3 * (b * y) + 2 * (c * z)) * (3 * (a * x) + 3 * (b * y) + 2 * (c * z))) +
   2 * ((y * a + x * b) * (y * a + x * b))) / ((x * x + y * y + z * z) * (a * a + b * b + c * c)).
Lemma E2_tup : forall x y z a b c u, ~ (x = 0 /\ y = 0 /\ z = 0) -> ~ (a = 0 /\ b = 0 /\ c = 0) ->
  E2_geom (tup x y z) (tup a b c) u = Ok (Some (creal (E2_value x y z a b c u))).
Proof.
  intros x y z a b c u H H'. destruct (normed_tup x y z H) as [n [Hn [En N]]]. destruct (normed_tup a b c H') as [n' [Hn' [En' N']]].
  unfold E2_geom, with_both. cbn [hashable tup andb]. fold (tup x y z) (tup a b c). rewrite N, N'. cbn [v0 v1 v2].
  do 2 f_equal. apply cplx_eq; unfold csq, cadd, cmul, cscale, creal; cbn [fst snd]; [|ring].
  unfold E2_value. rewrite <- En, <- En'. field. split; lra.
Qed.
Lemma E2_nonneg : forall x y z a b c u, ~ (x = 0 /\ y = 0 /\ z = 0) -> ~ (a = 0 /\ b = 0 /\ c = 0) -> 0 <= E2_value x y z a b c u.
Proof.
  intros x y z a b c u H H'. pose proof (sumsq_pos _ _ _ H). pose proof (sumsq_pos _ _ _ H').
  pose proof (T_nonneg 2 (-2) u). pose proof (T_nonneg 2 (-1) u). pose proof (T_nonneg 2 0 u). pose proof (T_nonneg 2 1 u). pose proof (T_nonneg 2 2 u).
  assert (Sq : forall r, 0 <= r * r) by (intros; nra).
  unfold E2_value. apply Rmult_le_pos; [|left; apply Rinv_0_lt_compat; nra].
  repeat apply Rplus_le_le_0_compat; try (apply Rmult_le_pos; [lra|auto]).
  apply Rmult_le_pos; apply Rplus_le_le_0_compat; auto.
Qed.

(** At most one component of a tensor connects two given states. *)
Lemma T_one : forall k q x, T k q x <> 0 -> (sM1 x = sM0 x + 2 * q)%Z.
Proof.
  intros k q x H. assert (N : tkq_strength (sI x) k q (sJ0 x) (sF0 x) (sM0 x) (sJ1 x) (sF1 x) (sM1 x) <> 0%Qc) by (intros E; apply H; unfold T; rewrite E; apply Rc_0).
  apply strength_rules in N. unfold rules in N. tauto.
Qed.
Lemma Mel_sq : forall k q x, Mel k q x * Mel k q x = T k q x.
Proof. intros. apply mel_sq. Qed.
Lemma Mel_one : forall k q x, (sM1 x <> sM0 x + 2 * q)%Z -> Mel k q x = 0 /\ T k q x = 0.
Proof.
  intros k q x N. assert (E : T k q x = 0). { destruct (Req_EM_T (T k q x) 0) as [E|E]; auto. now apply T_one in E. }
  split; auto. pose proof (Mel_sq k q x). nra.
Qed.
Lemma E1_mel_tup : forall x y z u, ~ (x = 0 /\ y = 0 /\ z = 0) -> exists w, E1_mel_geom (tup x y z) u = Ok (Some w) /\ cabs2 w = E1_value x y z u.
Proof.
  intros x y z u H. destruct (normed_tup x y z H) as [n [Hn [En N]]]. unfold E1_mel_geom, with_eps. cbn [hashable tup]. fold (tup x y z). rewrite N. cbn [v0 v1 v2].
  eexists. split; [reflexivity|]. unfold E1_value. rewrite <- En. unfold cabs2, ci, cadd, copp, cmul, cscale, creal; cbn [fst snd].
  pose proof (Mel_sq 1 (-1) u) as Q1. pose proof (Mel_sq 1 0 u) as Q2. pose proof (Mel_sq 1 1 u) as Q3.
  assert (Hs : sqrt (1 / 2) * sqrt (1 / 2) = 1 / 2) by (apply sqrt_sqrt; lra). set (h := sqrt (1 / 2)) in *.
  rewrite <- Q1, <- Q2, <- Q3. clear Q1 Q2 Q3.
  assert (Z : (Mel 1 0 u = 0 /\ Mel 1 1 u = 0) \/ (Mel 1 (-1) u = 0 /\ Mel 1 1 u = 0) \/ (Mel 1 (-1) u = 0 /\ Mel 1 0 u = 0)).
  { destruct (Z.eq_dec (sM1 u) (sM0 u + 2 * -1)) as [E1|E1]; [left|right; destruct (Z.eq_dec (sM1 u) (sM0 u + 2 * 0)) as [E2|E2]; [left|right]];
      split; apply Mel_one; lia. }
  assert (Fin : forall p, h * h = 1 / 2 -> p * h * (p * h) = p * p / 2) by (intros p Hp; transitivity (p * p * (h * h)); [ring|rewrite Hp; field]).
  destruct Z as [[-> ->]|[[-> ->]|[-> ->]]].
  - set (p := Mel 1 (-1) u). transitivity (p * h * (p * h) * ((x * x + y * y) / (n * n))); [field; lra|rewrite Fin by auto; field; lra].
  - field. lra.
  - set (p := Mel 1 1 u). transitivity (p * h * (p * h) * ((x * x + y * y) / (n * n))); [field; lra|rewrite Fin by auto; field; lra].
Qed.
