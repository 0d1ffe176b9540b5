(** The squares of Wigner symbols are not negative; when the strength of a
    hyperfine or Zeeman line is positive. *)
From Coq Require Import List Bool ZArith QArith Qcanon Lia.
From Verif Require Import Base Util Term Num Wigner WignerProofs WignerOne WignerSym Rules RulesProofs StrengthSums.
Import ListNotations.
Local Open Scope Z_scope.

Lemma Qcmul_nonneg : forall u v : Qc, (0 <= u -> 0 <= v -> 0 <= u * v)%Qc.
Proof. intros u v Hu Hv. rewrite <- (Qcmult_0_l v). apply Qcmult_le_compat_r; auto. Qed.
Lemma Qcsq_nonneg : forall u : Qc, (0 <= u * u)%Qc.
Proof.
  intros u. destruct (Qclt_le_dec u 0) as [H|H]; [|now apply Qcmul_nonneg].
  replace (u * u)%Qc with ((- u) * (- u))%Qc by ring. apply Qclt_le_weak in H. apply Qcopp_le_compat in H. now apply Qcmul_nonneg.
Qed.
Lemma QcZ_nonneg : forall z, 0 <= z -> (0 <= QcZ z)%Qc.
Proof. intros z H. rewrite <- QcZ_0. unfold Qcle, QcZ. cbn [this Q2Qc]. rewrite !Qred_correct. unfold Qle. cbn. lia. Qed.
Lemma Qcinv_nonneg : forall u : Qc, (0 <= u -> 0 <= / u)%Qc.
Proof. intros u H. assert (Q : (0 <= / this u)%Q) by (apply Qinv_le_0_compat; exact H). unfold Qcle. rewrite (Qred_correct (/ this u)). exact Q. Qed.
Lemma Qc_pos_iff : forall u : Qc, (0 <= u -> (0 < u <-> u <> 0))%Qc.
Proof.
  intros u H. split.
  - intros P E. rewrite E in P. now apply Qclt_not_eq in P.
  - intros N. destruct (Qcle_lt_or_eq _ _ H) as [P|P]; auto. now symmetry in P.
Qed.

Lemma delta2_nonneg : forall a b c, (0 <= delta2 a b c)%Qc.
Proof.
  intros. unfold delta2, hfac, Qcdiv. apply Qcmul_nonneg; [|apply Qcinv_nonneg]; apply QcZ_nonneg.
  - pose proof (fac_pos ((a + b - c) / 2)). pose proof (fac_pos ((a - b + c) / 2)). pose proof (fac_pos ((b + c - a) / 2)). nia.
  - pose proof (fac_pos ((a + b + c) / 2 + 1)). lia.
Qed.
Lemma w6sq_nonneg : forall a b c d e f, (0 <= w6sq a b c d e f)%Qc.
Proof. intros. unfold w6sq. destruct (w6_tri a b c d e f); [|apply Qcle_refl].
  apply Qcmul_nonneg; [|apply Qcsq_nonneg]. do 3 (apply Qcmul_nonneg; [|apply delta2_nonneg]). apply delta2_nonneg. Qed.
Lemma w3sq_nonneg : forall a b c m n p, (0 <= w3sq a b c m n p)%Qc.
Proof.
  intros. unfold w3sq. destruct (w3_ok a b c m n p); [|apply Qcle_refl].
  apply Qcmul_nonneg; [|apply Qcsq_nonneg]. apply Qcmul_nonneg; [apply delta2_nonneg|].
  apply QcZ_nonneg. unfold hfac.
  assert (forall u v, 0 <= u -> 0 <= v -> 0 <= u * v) as M by (intros; nia).
  do 5 (apply M; [|apply Z.lt_le_incl, fac_pos]). apply Z.lt_le_incl, fac_pos.
Qed.

Lemma sumq_nonneg : forall k g, (forall q, (0 <= g q)%Qc) -> (0 <= sumq k g)%Qc.
Proof.
  intros k g H. unfold sumq. induction (qs k) as [|q u IH]; cbn [fold_right]; [apply Qcle_refl|].
  rewrite <- (Qcplus_0_l 0). now apply Qcplus_le_compat.
Qed.
Lemma sumq_pos : forall k g, (forall q, (0 <= g q)%Qc) -> (sumq k g <> 0%Qc <-> exists q, In q (qs k) /\ g q <> 0%Qc).
Proof.
  intros k g H. unfold sumq. induction (qs k) as [|q u IH]; cbn [fold_right]; [split; [congruence|intros [q [[] _]]]|].
  set (r := fold_right (fun q acc => (g q + acc)%Qc) 0%Qc u) in *.
  assert (Hr : (0 <= r)%Qc).
  { clear - H. unfold r. induction u as [|q' u IH]; cbn [fold_right]; [apply Qcle_refl|rewrite <- (Qcplus_0_l 0); now apply Qcplus_le_compat]. }
  split.
  - intros N. destruct (Qc_eq_dec (g q) 0) as [E|E]; [|exists q; split; [now left|auto]].
    rewrite E, Qcplus_0_l in N. apply IH in N as [q' [I N]]. exists q'. split; [now right|auto].
  - assert (P : (0 < g q + r)%Qc -> (g q + r <> 0)%Qc) by (intros P E; rewrite E in P; now apply Qclt_not_eq in P).
    intros [q' [[-> |I] N]]; apply P.
    + apply Qc_pos_iff in N; [|auto]. apply Qclt_le_trans with (g q')%Qc; auto. rewrite <- (Qcplus_0_r (g q')) at 1. apply Qcplus_le_compat; [apply Qcle_refl|auto].
    + assert (Nr : r <> 0%Qc) by (apply IH; eauto). apply Qc_pos_iff in Nr; [|auto]. apply Qclt_le_trans with r; auto.
      rewrite <- (Qcplus_0_l r) at 1. apply Qcplus_le_compat; [auto|apply Qcle_refl].
Qed.

(** ** Hyperfine lines *)

Lemma hf_nonneg : forall a i j1 j2 f1 f2, 0 <= f1 -> 0 <= f2 -> (0 <= hf_factor a i j1 j2 f1 f2)%Qc.
Proof.
  intros. unfold hf_factor. destruct (aE1 a || aM1 a); [|destruct (aE2 a)]; [| |apply Qcle_refl]; apply Qcmul_nonneg; auto using w6sq_nonneg; apply QcZ_nonneg; nia.
Qed.
Lemma hf_nz : forall a i j1 j2 f1 f2, 0 <= f1 -> 0 <= f2 -> any_type (allowed_HF i j1 j2 f1 f2 a) = true ->
  (hf_factor a i j1 j2 f1 f2 <> 0%Qc <-> (dipole a -> dipole (allowed_HF i j1 j2 f1 f2 a))).
Proof.
  intros a i j1 j2 f1 f2 H1 H2 A. unfold hf_factor, dipole. rewrite (w6sq_strength j1 j2 2 f1 f2 i), (w6sq_strength j1 j2 4 f1 f2 i).
  assert (Z : QcZ ((f1 + 1) * (f2 + 1)) <> 0%Qc) by (apply QcZ_nz; nia).
  unfold any_type, allowed_HF, aE1, aM1, aE2 in *. cbn [fst snd] in *. destruct a as [[x y] z]. cbn [fst snd] in *.
  destruct (w6nz j1 j2 2 f2 f1 i) eqn:W1, (w6nz j1 j2 4 f2 f1 i) eqn:W2, x, y, z; cbn [andb orb] in *;
    rewrite ?w6nz_sq in W1; rewrite ?w6nz_sq in W2; try discriminate A;
    try (split; [intros _; tauto|intros _; apply Qcmult_nz; auto]; fail).
  all: assert (w6sq j1 j2 2 f2 f1 i = 0%Qc) as E1 by
    (destruct (Qc_eq_dec (w6sq j1 j2 2 f2 f1 i) 0) as [E|E]; auto; apply w6nz_sq in E; congruence).
  all: rewrite E1, Qcmult_0_r; split; [intros []; auto|intros H; exfalso].
  all: destruct H as [H|H]; auto; discriminate H.
Qed.

(** ** Zeeman lines *)

Lemma z_nonneg : forall a f1 f2 m1 m2, (0 <= z_factor a f1 f2 m1 m2)%Qc.
Proof.
  intros. unfold z_factor. destruct (aE1 a || aM1 a); [|destruct (aE2 a)]; [| |apply Qcle_refl]; apply sumq_nonneg; intros; apply w3sq_nonneg.
Qed.
Lemma any_q_sum : forall k f1 f2 m1 m2, 0 <= k ->
  (any_q k f2 f1 m2 m1 = true <-> sumq k (fun q => w3sq f1 (2 * k) f2 (- m1) q m2) <> 0%Qc).
Proof.
  intros k f1 f2 m1 m2 Hk. rewrite any_q_spec by auto. rewrite sumq_pos by (intros; apply w3sq_nonneg). split.
  - intros [h [B W]]. exists (2 * - h). rewrite qs_In by auto. split; [exists (- h); lia|]. apply w3nz_sq in W. rewrite w3sq_strength.
    now replace (- (2 * - h)) with (2 * h) by lia.
  - intros [q [I W]]. apply qs_In in I as [h [-> B]]; auto. exists (- h). split; [lia|]. apply w3nz_sq. rewrite w3sq_strength in W.
    now replace (2 * - h) with (- (2 * h)) by lia.
Qed.
Lemma z_nz : forall a f1 f2 m1 m2, any_type (allowed_Z f1 f2 m1 m2 a) = true ->
  (z_factor a f1 f2 m1 m2 <> 0%Qc <->
   (dipole a -> dipole (allowed_Z f1 f2 m1 m2 a)) /\ (dipole a \/ exists h, - 2 <= h <= 2 /\ w3sq f1 4 f1 (- m1) (2 * h) m2 <> 0%Qc)).
Proof.
  intros a f1 f2 m1 m2 A. unfold z_factor, dipole.
  pose proof (any_q_sum 1 f1 f2 m1 m2 ltac:(lia)) as Q1. change (2 * 1) with 2 in Q1.
  assert (Q2 : sumq 2 (fun q => w3sq f1 4 f1 (- m1) q m2) <> 0%Qc <-> exists h, - 2 <= h <= 2 /\ w3sq f1 4 f1 (- m1) (2 * h) m2 <> 0%Qc).
  { rewrite sumq_pos by (intros; apply w3sq_nonneg). split.
    - intros [q [I W]]. apply qs_In in I as [h [-> B]]; [eauto|lia].
    - intros [h [B W]]. exists (2 * h). split; auto. apply qs_In; [lia|eauto]. }
  rewrite <- Q2. clear Q2. unfold any_type, allowed_Z, aE1, aM1, aE2 in *. cbn [fst snd] in *. destruct a as [[x y] z]. cbn [fst snd] in *.
  set (S1 := sumq 1 _) in *. set (S2 := sumq 2 _) in *.
  destruct (any_q 1 f2 f1 m2 m1) eqn:W1, (any_q 2 f2 f1 m2 m1) eqn:W2, x, y, z; cbn [andb orb] in *; try discriminate A;
    intuition (try discriminate).
Qed.
