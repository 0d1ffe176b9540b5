(** Facts about the selection rules of [Rules]. *)
From Coq Require Import List Bool ZArith QArith Qcanon Lia.
From Verif Require Import Base Util Term TermProofs Num Wigner WignerProofs Hyperfine HyperfineProofs Rules.
Import ListNotations.
Local Open Scope Z_scope.

(** The triangle rule [|a-b| <= c <= a+b] with [a+b+c] even, as a proposition. *)
Definition triangle (a b c : Z) : Prop := Z.abs (a - b) <= c <= a + b /\ Z.Even (a + b + c).

Lemma tri_spec : forall a b c, tri a b c = true <-> triangle a b c.
Proof.
  intros. unfold tri, triangle. rewrite !andb_true_iff, !Z.leb_le, Z.even_spec. tauto.
Qed.
Lemma triangle_swap : forall a b c, triangle a b c <-> triangle b a c.
Proof. intros. unfold triangle. rewrite (Z.add_comm b a). split; intros [H E]; (split; [lia|auto]). Qed.

(** ** Levels *)

Lemma allowed_T_spec : forall j1 j2 p1 p2 same,
  (aE1 (allowed_T j1 j2 p1 p2 same) = true <-> p1 <> p2 /\ Z.abs (j1 - j2) <= 2) /\
  (aM1 (allowed_T j1 j2 p1 p2 same) = true <-> p1 = p2 /\ Z.abs (j1 - j2) <= 2) /\
  (aE2 (allowed_T j1 j2 p1 p2 same) = true <-> p1 = p2 /\ same = false /\ Z.abs (j1 - j2) <= 4).
Proof.
  intros. unfold allowed_T, aE1, aM1, aE2. cbn [fst snd].
  rewrite !andb_true_iff, !Z.leb_le, !negb_true_iff, Z.eqb_neq, Z.eqb_eq. intuition lia.
Qed.

(** ** Hyperfine *)

Lemma w6nz_tri : forall a b c d e f, w6nz a b c d e f = true ->
  triangle a b c /\ triangle a e f /\ triangle d b f /\ triangle d e c.
Proof.
  intros a b c d e f H. unfold w6nz, w6_tri in H. rewrite !andb_true_iff in H. destruct H as [[[[A B] C] D] _].
  rewrite tri_spec in A, B, C, D. tauto.
Qed.
Lemma any_type_iff : forall a, any_type a = true <-> aE1 a = true \/ aM1 a = true \/ aE2 a = true.
Proof. intros a. unfold any_type. rewrite !orb_true_iff. tauto. Qed.

(** Rank [k] is allowed by the types [a]. *)
Definition rank_allowed (a : types) (k : Z) : Prop := (k = 1 /\ (aE1 a = true \/ aM1 a = true)) \/ (k = 2 /\ aE2 a = true).

Lemma allowed_HF_spec : forall i j1 j2 f1 f2 a,
  any_type (allowed_HF i j1 j2 f1 f2 a) = true <-> exists k, rank_allowed a k /\ w6nz j1 j2 (2 * k) f2 f1 i = true.
Proof.
  intros. rewrite any_type_iff. unfold allowed_HF, rank_allowed, aE1, aM1, aE2. cbn [fst snd]. rewrite !andb_true_iff. split.
  - intros [[H1 H2]|[[H1 H2]|[H1 H2]]]; [exists 1|exists 1|exists 2]; (split; [|exact H1]); tauto.
  - intros [k [[[-> [H|H]]|[-> H]] W]]; change (2 * 1) with 2 in *; change (2 * 2) with 4 in *; tauto.
Qed.

(** ** Zeeman *)

Lemma qs_In : forall k q, 0 <= k -> In q (qs k) <-> exists h, q = 2 * h /\ - k <= h <= k.
Proof.
  intros k q Hk. unfold qs. rewrite in_map_iff. split.
  - intros [n [<- H]]. apply in_seq in H. exists (Z.of_nat n - k). lia.
  - intros [h [-> H]]. exists (Z.to_nat (h + k)). rewrite in_seq. split; lia.
Qed.
Lemma any_q_spec : forall k f1 f0 m1 m0, 0 <= k -> any_q k f1 f0 m1 m0 = true <->
  exists h, - k <= h <= k /\ w3nz f1 (2 * k) f0 (- m1) (2 * h) m0 = true.
Proof.
  intros k f1 f0 m1 m0 Hk. unfold any_q. rewrite existsb_exists. split.
  - intros [q [H W]]. apply qs_In in H; auto. destruct H as [h [-> H]]. eauto.
  - intros [h [H W]]. exists (2 * h). rewrite qs_In by auto. eauto.
Qed.
Lemma w3nz_rules : forall a b c m n p, w3nz a b c m n p = true ->
  triangle a b c /\ Z.abs m <= a /\ Z.abs n <= b /\ Z.abs p <= c /\ m + n + p = 0.
Proof.
  intros a b c m n p H. unfold w3nz, w3_ok, proj_ok in H. rewrite !andb_true_iff in H.
  destruct H as [[[[[A [B _]] [C _]] [D _]] E] _]. rewrite tri_spec in A. rewrite Z.leb_le in B, C, D. rewrite Z.eqb_eq in E. tauto.
Qed.
Lemma allowed_Z_spec : forall f1 f2 m1 m2 a,
  any_type (allowed_Z f1 f2 m1 m2 a) = true <->
  exists k h, rank_allowed a k /\ - k <= h <= k /\ w3nz f2 (2 * k) f1 (- m2) (2 * h) m1 = true.
Proof.
  intros. rewrite any_type_iff. unfold allowed_Z, rank_allowed, aE1, aM1, aE2. cbn [fst snd]. rewrite !andb_true_iff, !any_q_spec by lia. split.
  - intros [[[h [H W]] H2]|[[[h [H W]] H2]|[[h [H W]] H2]]]; [exists 1, h|exists 1, h|exists 2, h]; (split; [tauto|split; auto]).
  - intros [k [h [[[-> [H|H]]|[-> H]] [R W]]]]; [left|right; left|right; right]; (split; [eauto|auto]).
Qed.

(** The 3j symbol (F 1 F; 0 0 0) vanishes. *)
Lemma w3_stretched0 : forall f h, w3nz f 2 f 0 (2 * h) 0 = true -> False.
Proof.
  intros f h H. pose proof (w3nz_rules _ _ _ _ _ _ H) as [[T _] [A [B [C D]]]].
  assert (h = 0) by lia. subst h. unfold w3nz in H. apply andb_true_iff in H. destruct H as [K H].
  unfold w3_ok, proj_ok in K. rewrite !andb_true_iff in K. destruct K as [[[[_ [_ K]] _] _] _].
  rewrite Z.add_0_r, Z.even_spec in K. destruct K as [g ->].
  apply negb_true_iff in H. assert (E : w3_sum (2 * g) 2 (2 * g) 0 (2 * 0) = 0%Qc); [|rewrite E in H; discriminate H].
  assert (Hg : 1 <= g) by lia. unfold w3_sum, sum_range.
  replace (Z.max 0 (Z.max ((2 - 2 * g - 0) / 2) ((2 * g - 2 * g + 2 * 0) / 2))) with 0.
  2:{ replace (2 - 2 * g - 0) with ((1 - g) * 2) by lia. replace (2 * g - 2 * g + 2 * 0) with (0 * 2) by lia. rewrite !Z.div_mul by lia. lia. }
  replace (Z.min ((2 * g + 2 - 2 * g) / 2) (Z.min ((2 * g - 0) / 2) ((2 + 2 * 0) / 2))) with 1.
  2:{ replace (2 * g + 2 - 2 * g) with (1 * 2) by lia. replace (2 * g - 0) with (g * 2) by lia. replace (2 + 2 * 0) with (1 * 2) by lia. rewrite !Z.div_mul by lia. lia. }
  change (Z.to_nat (1 - 0 + 1)) with 2%nat. cbn [sumr]. change (0 + 1) with 1. unfold w3_term.
  replace (2 * g + 2 - 2 * g) with (1 * 2) by lia. replace (2 * g - 0) with (g * 2) by lia. replace (2 + 2 * 0) with (1 * 2) by lia.
  replace (2 * g - 2 + 0) with ((g - 1) * 2) by lia. replace (2 * g - 2 * g - 2 * 0) with (0 * 2) by lia. rewrite !Z.div_mul by lia.
  change (sgn 0) with 1%Qc. change (sgn 1) with (- (1))%Qc. change (1 - 0) with 1. change (1 - 1) with 0.
  change (fac 0) with 1. change (fac 1) with 1. rewrite !Z.sub_0_r, !Z.add_0_r, !Z.add_0_l, !Z.mul_1_l, !Z.mul_1_r.
  replace (g - 1 + 1) with g by lia. rewrite (Z.mul_comm (fac (g - 1))).
  rewrite Qcplus_0_r. unfold Qcdiv. ring.
Qed.
