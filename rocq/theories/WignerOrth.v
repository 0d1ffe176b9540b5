(** Orthogonality of the 6j symbols, for all arguments, from Racah's formula.

    For [{a b x; c d y}] with doubled arguments write [x = a + b - 2 i],
    [y = a + d - 2 j] and [s] for half of [a + b + c + d].  The proof goes by
    induction on [c]: two relations connect the Racah sum to those with
    [c - 1], and both hold because a certificate telescopes. *)
From Coq Require Import List Bool ZArith QArith Qcanon Lia.
From Verif Require Import Base Util Term Num Wigner WignerProofs WignerOne.
Import ListNotations.
Local Open Scope Z_scope.

(** ** Sums *)

Lemma sumr_ext_in : forall n lo f g, (forall z, lo <= z < lo + Z.of_nat n -> f z = g z) -> sumr n lo f = sumr n lo g.
Proof.
  induction n as [|n IH]; intros lo f g H; cbn [sumr]; [reflexivity|].
  rewrite (H lo) by lia. f_equal. apply IH. intros z Hz. apply H. lia.
Qed.
Lemma sumr_add : forall n lo f g, sumr n lo (fun z => (f z + g z)%Qc) = (sumr n lo f + sumr n lo g)%Qc.
Proof. induction n as [|n IH]; intros lo f g; cbn [sumr]; [ring|]. rewrite IH. ring. Qed.
Lemma sumr_scale : forall n lo k f, sumr n lo (fun z => (k * f z)%Qc) = (k * sumr n lo f)%Qc.
Proof. induction n as [|n IH]; intros lo k f; cbn [sumr]; [ring|]. rewrite IH. ring. Qed.
Lemma sumr_zero : forall n lo f, (forall z, lo <= z < lo + Z.of_nat n -> f z = 0%Qc) -> sumr n lo f = 0%Qc.
Proof.
  induction n as [|n IH]; intros lo f H; cbn [sumr]; [reflexivity|].
  rewrite (H lo) by lia. rewrite IH by (intros z Hz; apply H; lia). ring.
Qed.
Lemma sumr_tele : forall n lo G, sumr n lo (fun z => (G (z + 1)%Z - G z)%Qc) = (G (lo + Z.of_nat n)%Z - G lo)%Qc.
Proof.
  induction n as [|n IH]; intros lo G; cbn [sumr].
  - replace (lo + Z.of_nat 0) with lo by lia. ring.
  - rewrite IH. replace (lo + 1 + Z.of_nat n) with (lo + Z.of_nat (S n)) by lia. ring.
Qed.
Lemma sumr_single : forall n lo f k, lo <= k < lo + Z.of_nat n -> (forall z, lo <= z < lo + Z.of_nat n -> z <> k -> f z = 0%Qc) -> sumr n lo f = f k.
Proof.
  induction n as [|n IH]; intros lo f k Hk H; [lia|]. cbn [sumr].
  destruct (Z.eq_dec lo k) as [E|E].
  - subst lo. rewrite sumr_zero; [ring|]. intros z Hz. apply H; lia.
  - rewrite (H lo) by lia. rewrite (IH (lo + 1) f k); [ring|lia|]. intros z Hz. apply H. lia.
Qed.
Lemma sumr_shift : forall n lo f, sumr n lo (fun z => f (z - 1)%Z) = (f (lo - 1)%Z + sumr n lo f - f (lo + Z.of_nat n - 1)%Z)%Qc.
Proof.
  induction n as [|n IH]; intros lo f; cbn [sumr].
  - replace (lo + Z.of_nat 0 - 1) with (lo - 1) by lia. ring.
  - rewrite IH. replace (lo + 1 + Z.of_nat n - 1) with (lo + Z.of_nat (S n) - 1) by lia. replace (lo + 1 - 1) with lo by lia. ring.
Qed.
Lemma sumr_app : forall n m lo f, sumr (n + m) lo f = (sumr n lo f + sumr m (lo + Z.of_nat n) f)%Qc.
Proof.
  induction n as [|n IH]; intros m lo f; cbn [sumr Nat.add].
  - replace (lo + Z.of_nat 0) with lo by lia. ring.
  - rewrite IH. replace (lo + 1 + Z.of_nat n) with (lo + Z.of_nat (S n)) by lia. ring.
Qed.

(** ** Reciprocal factorials, zero at the negative integers *)

Definition IF (z : Z) : Qc := if z <? 0 then 0%Qc else (/ QF z)%Qc.
Lemma IF_neg : forall z, z < 0 -> IF z = 0%Qc.
Proof. intros z H. unfold IF. now rewrite (proj2 (Z.ltb_lt _ _) H). Qed.
Lemma IF_pos : forall z, 0 <= z -> IF z = (/ QF z)%Qc.
Proof. intros z H. unfold IF. now rewrite (proj2 (Z.ltb_ge _ _) H). Qed.
Lemma IF_step : forall z, IF (z - 1) = (QcZ z * IF z)%Qc.
Proof.
  intros z. destruct (Z_lt_le_dec z 0) as [H|H].
  - rewrite !IF_neg by lia. ring.
  - destruct (Z.eq_dec z 0) as [E|E].
    + subst z. rewrite IF_neg by lia. rewrite QcZ_0. ring.
    + rewrite !IF_pos by lia. rewrite (QF_1d z) by lia. field. split; [apply QF_nz|]. apply QcZ_nz. lia.
Qed.
Lemma IF_up : forall z w, w = z - 1 -> IF w = (QcZ z * IF z)%Qc.
Proof. intros z w ->. apply IF_step. Qed.
Lemma QF_up : forall z w, w = z + 1 -> 0 <= z -> QF w = (QcZ w * QF z)%Qc.
Proof. intros z w -> H. now apply QF_S. Qed.
Lemma sgn_up : forall t, sgn (t + 1) = (- sgn t)%Qc.
Proof. intros t. apply sgn_S. Qed.

(** The terms of Racah's sum. *)
Definition Tm (g1 g2 g3 g4 h1 h2 h3 t : Z) : Qc :=
  (sgn t * QF (t + 1) * (IF (t - g1) * IF (t - g2) * IF (t - g3) * IF (t - g4)) * (IF (h1 - t) * IF (h2 - t) * IF (h3 - t)))%Qc.
Definition SS (n : nat) (g1 g2 g3 g4 h1 h2 h3 : Z) : Qc := sumr n 0 (Tm g1 g2 g3 g4 h1 h2 h3).

Lemma SS_zero : forall n g1 g2 g3 g4 h1 h2 h3,
  (h1 < g1 \/ h1 < g2 \/ h1 < g3 \/ h1 < g4 \/ h2 < g1 \/ h2 < g2 \/ h2 < g3 \/ h2 < g4 \/ h3 < g1 \/ h3 < g2 \/ h3 < g3 \/ h3 < g4) ->
  SS n g1 g2 g3 g4 h1 h2 h3 = 0%Qc.
Proof.
  intros n g1 g2 g3 g4 h1 h2 h3 H. apply sumr_zero. intros t _. unfold Tm.
  assert (K : t < g1 \/ t < g2 \/ t < g3 \/ t < g4 \/ h1 < t \/ h2 < t \/ h3 < t) by lia.
  destruct K as [K|[K|[K|[K|[K|[K|K]]]]]];
    [rewrite (IF_neg (t - g1)) by lia|rewrite (IF_neg (t - g2)) by lia|rewrite (IF_neg (t - g3)) by lia|rewrite (IF_neg (t - g4)) by lia
    |rewrite (IF_neg (h1 - t)) by lia|rewrite (IF_neg (h2 - t)) by lia|rewrite (IF_neg (h3 - t)) by lia]; ring.
Qed.

Lemma QcZ_2 : QcZ 2 = (1 + 1)%Qc.
Proof. now rewrite <- QcZ_1, <- QcZ_add. Qed.
Ltac zq := repeat first [rewrite QcZ_sub|rewrite QcZ_add|rewrite QcZ_mul|rewrite QcZ_opp]; rewrite ?QcZ_2, ?QcZ_1, ?QcZ_0.

(** First relation: the outer momenta [c - 1/2], [d + 1/2]. *)
Lemma rel_plus : forall n g1 g2 g3 g4 h1 h2 h3, g1 + g2 + g3 + g4 = h1 + h2 + h3 -> 0 <= g1 -> h1 < Z.of_nat n ->
  (QcZ ((h3 - g3) * (g3 + g4 + 1 - h1)) * SS n g1 g2 g3 g4 h1 h2 h3
   = QcZ ((h2 + 1 - g1) * (h2 + 1 - g2)) * SS n g1 g2 (g3 + 1) g4 h1 (h2 + 1) h3
     + QcZ ((g4 + 1) * (h1 - g4 + 1)) * SS n g1 g2 g3 (g4 - 1) h1 h2 (h3 - 1))%Qc.
Proof.
  intros n g1 g2 g3 g4 h1 h2 h3 E G1 Hn. unfold SS. rewrite <- !sumr_scale, <- sumr_add.
  set (G := fun t => (sgn t * QF (t + 1) * (IF (t - 1 - g1) * IF (t - 1 - g2) * IF (t - 1 - g3) * IF (t - g4)) * (IF (h1 - t) * IF (h2 + 1 - t) * IF (h3 - t)))%Qc).
  assert (K : sumr n 0 (fun t => (G (t + 1)%Z - G t)%Qc) = 0%Qc).
  { rewrite sumr_tele. unfold G. rewrite (IF_neg (h1 - (0 + Z.of_nat n))) by lia. rewrite (IF_neg (0 - 1 - g1)) by lia. ring. }
  match goal with |- ?l = ?r => enough (l = (r + sumr n 0 (fun t => (G (t + 1)%Z - G t)%Qc)))%Qc as -> by (rewrite K; ring) end.
  rewrite <- sumr_add. apply sumr_ext_in. intros t Ht. unfold G, Tm. rewrite sgn_up.
  rewrite (QF_up (t + 1) (t + 1 + 1)) by lia.
  rewrite (IF_up (t - g1) (t - 1 - g1)) by lia. rewrite (IF_up (t - g2) (t - 1 - g2)) by lia. rewrite (IF_up (t - g3) (t - 1 - g3)) by lia.
  rewrite (IF_up (t - g3) (t - (g3 + 1))) by lia.
  replace (t + 1 - 1 - g1) with (t - g1) by lia. replace (t + 1 - 1 - g2) with (t - g2) by lia. replace (t + 1 - 1 - g3) with (t - g3) by lia.
  replace (t - (g4 - 1)) with (t + 1 - g4) by lia. rewrite (IF_up (t + 1 - g4) (t - g4)) by lia.
  rewrite (IF_up (h1 - t) (h1 - (t + 1))) by lia. replace (h2 + 1 - (t + 1)) with (h2 - t) by lia. rewrite (IF_up (h2 + 1 - t) (h2 - t)) by lia.
  rewrite (IF_up (h3 - t) (h3 - (t + 1))) by lia. rewrite (IF_up (h3 - t) (h3 - 1 - t)) by lia.
  replace h3 with (g1 + g2 + g3 + g4 - h1 - h2) by lia.
  zq. ring.
Qed.

(** Second relation: the outer momenta [c - 1/2], [d - 1/2]. *)
Lemma rel_minus : forall n g1 g2 g3 g4 h1 h2 h3, g1 + g2 + g3 + g4 = h1 + h2 + h3 -> 0 <= g1 -> h1 < Z.of_nat n ->
  (QcZ ((h1 - g1) * (g3 + g4 + 1 - h1)) * SS n g1 g2 g3 g4 h1 h2 h3
   = QcZ ((h2 + 1 - g2) * (h3 + 1 - g2)) * SS n g1 (g2 - 1) g3 g4 (h1 - 1) h2 h3
     - QcZ ((1 + g3) * (1 + g4)) * SS n g1 (g2 - 1) (g3 - 1) (g4 - 1) (h1 - 1) (h2 - 1) (h3 - 1))%Qc.
Proof.
  intros n g1 g2 g3 g4 h1 h2 h3 E G1 Hn.
  assert (V : SS n g1 (g2 - 1) (g3 - 1) (g4 - 1) (h1 - 1) (h2 - 1) (h3 - 1)
              = sumr n 0 (fun t => Tm g1 (g2 - 1) (g3 - 1) (g4 - 1) (h1 - 1) (h2 - 1) (h3 - 1) (t - 1))).
  { unfold SS. rewrite sumr_shift. unfold Tm at 2 4. rewrite (IF_neg (0 - 1 - g1)) by lia.
    rewrite (IF_neg (h1 - 1 - (0 + Z.of_nat n - 1))) by lia. ring. }
  rewrite V. clear V. unfold SS. rewrite <- !sumr_scale.
  match goal with |- ?l = (?p - ?q)%Qc => cut ((l + q)%Qc = p); [intros K; rewrite <- K; ring|] end.
  rewrite <- !sumr_add.
  set (G := fun t => (sgn t * QF t * (IF (t - 1 - g1) * IF (t - g2) * IF (t - 1 - g3) * IF (t - 1 - g4)) * (IF (h1 - t) * IF (h2 - t) * IF (h3 - t)))%Qc).
  assert (K : sumr n 0 (fun t => (G (t + 1)%Z - G t)%Qc) = 0%Qc).
  { rewrite sumr_tele. unfold G. rewrite (IF_neg (h1 - (0 + Z.of_nat n))) by lia. rewrite (IF_neg (0 - 1 - g1)) by lia. ring. }
  match goal with |- ?l = ?r => enough (l = (r + sumr n 0 (fun t => (G (t + 1)%Z - G t)%Qc)))%Qc as -> by (rewrite K; ring) end.
  rewrite <- sumr_add. apply sumr_ext_in. intros t Ht. unfold G, Tm. rewrite sgn_up.
  assert (Sg : sgn (t - 1) = (- sgn t)%Qc) by (replace t with (t - 1 + 1) at 2 by lia; rewrite sgn_up; ring). rewrite Sg.
  replace (t - 1 + 1) with t by lia. rewrite (QF_up t (t + 1)) by lia.
  replace (t + 1 - 1 - g1) with (t - g1) by lia. replace (t + 1 - 1 - g3) with (t - g3) by lia. replace (t + 1 - 1 - g4) with (t - g4) by lia.
  replace (t - 1 - (g2 - 1)) with (t - g2) by lia. replace (t - 1 - (g3 - 1)) with (t - g3) by lia. replace (t - 1 - (g4 - 1)) with (t - g4) by lia.
  replace (h1 - 1 - (t - 1)) with (h1 - t) by lia. replace (h2 - 1 - (t - 1)) with (h2 - t) by lia. replace (h3 - 1 - (t - 1)) with (h3 - t) by lia.
  rewrite (IF_up (t - g1) (t - 1 - g1)) by lia. rewrite (IF_up (t - g3) (t - 1 - g3)) by lia. rewrite (IF_up (t - g4) (t - 1 - g4)) by lia.
  replace (t - (g2 - 1)) with (t + 1 - g2) by lia. rewrite (IF_up (t + 1 - g2) (t - g2)) by lia.
  rewrite (IF_up (h1 - t) (h1 - (t + 1))) by lia. rewrite (IF_up (h1 - t) (h1 - 1 - t)) by lia.
  rewrite (IF_up (h2 - t) (h2 - (t + 1))) by lia. rewrite (IF_up (h3 - t) (h3 - (t + 1))) by lia.
  replace h3 with (g1 + g2 + g3 + g4 - h1 - h2) by lia.
  zq. ring.
Qed.

(** ** The matrix of 6j symbols *)

(** Racah's sum for [x = a + b - 2 i], [y = a + d - 2 j], [c = 2 s - a - b - d]. *)
Definition RS (n : nat) (a b d s i j : Z) : Qc :=
  SS n (a + b - i) (s - i) (a + d - j) (s - j) s (a + b + d - i - j) (a + s - i - j).

(** The triangles (a b x) and (c d x). *)
Definition vx (a b d s i : Z) : bool :=
  (0 <=? i) && (i <=? b) && (i <=? a) && (a + b <=? s + i) && (s + i <=? a + b + d) && (i + d <=? s).
(** The weight of [x]; that of [y] is [wx a d b s j]. *)
Definition wv (a b d s i : Z) : Qc :=
  (QcZ (a + b - 2 * i + 1) * D i (b - i) (a - i) (a + b - i) * D (s - a - b + i) (a + b + d - s - i) (s - d - i) (s - i))%Qc.
Definition wx (a b d s i : Z) : Qc := if vx a b d s i then wv a b d s i else 0%Qc.
(** The inverse weight of [y]. *)
Definition ny (a b d s j : Z) : Qc := if vx a d b s j then (/ wv a d b s j)%Qc else 0%Qc.

Definition gram (n m : nat) (a b d s j k : Z) : Qc :=
  sumr m 0 (fun i => (wx a b d s i * (RS n a b d s i j * RS n a b d s i k))%Qc).

Lemma vx_iff : forall a b d s i, vx a b d s i = true <-> 0 <= i /\ i <= b /\ i <= a /\ a + b <= s + i /\ s + i <= a + b + d /\ i + d <= s.
Proof. intros. unfold vx. rewrite !andb_true_iff, !Z.leb_le. tauto. Qed.
Lemma RS_x : forall n a b d s i j, vx a b d s i = false -> RS n a b d s i j = 0%Qc.
Proof.
  intros n a b d s i j H. apply SS_zero.
  assert (K : ~ (0 <= i /\ i <= b /\ i <= a /\ a + b <= s + i /\ s + i <= a + b + d /\ i + d <= s)) by (rewrite <- vx_iff, H; discriminate).
  lia.
Qed.
Lemma RS_y : forall n a b d s i j, vx a d b s j = false -> RS n a b d s i j = 0%Qc.
Proof.
  intros n a b d s i j H. apply SS_zero.
  assert (K : ~ (0 <= j /\ j <= d /\ j <= a /\ a + d <= s + j /\ s + j <= a + d + b /\ j + b <= s)) by (rewrite <- vx_iff, H; discriminate).
  lia.
Qed.
Lemma D_nz : forall p q r t, D p q r t <> 0%Qc.
Proof. intros. unfold D. apply Qcdiv_nz; repeat apply Qcmult_nz; apply QF_nz. Qed.
Lemma wv_nz : forall a b d s i, 0 <= a + b - 2 * i -> wv a b d s i <> 0%Qc.
Proof.
  intros a b d s i H. unfold wv. apply Qcmult_nz; [apply Qcmult_nz; [apply QcZ_nz; lia|]|]; apply D_nz.
Qed.

(** The two relations. *)
Lemma RS_plus : forall n a b d s i j, vx a b d s i = true \/ vx a b (d + 1) s i = true -> s < Z.of_nat n ->
  (QcZ ((s - d - i) * (a + d - 2 * j + 1)) * RS n a b d s i j
   = QcZ ((d - j + 1) * (a + b + d - s - j + 1)) * RS n a b (d + 1) s i j
     + QcZ ((s - j + 1) * (j + 1)) * RS n a b (d + 1) s i (j + 1))%Qc.
Proof.
  intros n a b d s i j V Hn. unfold RS.
  assert (G : 0 <= a + b - i) by (destruct V as [V|V]; apply vx_iff in V; lia).
  pose proof (rel_plus n (a + b - i) (s - i) (a + d - j) (s - j) s (a + b + d - i - j) (a + s - i - j) ltac:(lia) G Hn) as E.
  replace ((s - d - i) * (a + d - 2 * j + 1)) with ((a + s - i - j - (a + d - j)) * (a + d - j + (s - j) + 1 - s)) by ring.
  rewrite E. f_equal; f_equal; f_equal; ring.
Qed.
Lemma RS_minus : forall n a b d s i j, vx a b d s i = true \/ vx a b (d - 1) (s - 1) i = true -> s < Z.of_nat n ->
  (QcZ ((s - a - b + i) * (a + d - 2 * j + 1)) * RS n a b d s i j
   = QcZ ((a + b + d - s - j + 1) * (a - j + 1)) * RS n a b (d - 1) (s - 1) i (j - 1)
     - QcZ ((a + d - j + 1) * (s - j + 1)) * RS n a b (d - 1) (s - 1) i j)%Qc.
Proof.
  intros n a b d s i j V Hn. unfold RS.
  assert (G : 0 <= a + b - i) by (destruct V as [V|V]; apply vx_iff in V; lia).
  pose proof (rel_minus n (a + b - i) (s - i) (a + d - j) (s - j) s (a + b + d - i - j) (a + s - i - j) ltac:(lia) G Hn) as E.
  replace ((s - a - b + i) * (a + d - 2 * j + 1)) with ((s - (a + b - i)) * (a + d - j + (s - j) + 1 - s)) by ring.
  rewrite E. f_equal; f_equal; f_equal; ring.
Qed.

(** The weights. *)
Lemma wx_plus : forall n a b d s i j,
  (wx a b d s i * QcZ ((a + b + d - s - i + 1) * (s - d - i)) * RS n a b d s i j
   = wx a b (d + 1) s i * QcZ ((s - d - i) * (s - d - i)) * RS n a b d s i j)%Qc.
Proof.
  intros n a b d s i j. unfold wx.
  destruct (vx a b d s i) eqn:V; [|rewrite (RS_x _ _ _ _ _ _ _ V); ring].
  apply vx_iff in V. destruct (vx a b (d + 1) s i) eqn:V'.
  - apply vx_iff in V'. f_equal. unfold wv, D.
    rewrite (QF_up (a + b + d - s - i) (a + b + (d + 1) - s - i)) by lia. rewrite (QF_up (s - (d + 1) - i) (s - d - i)) by lia.
    replace (a + b + (d + 1) - s - i) with (a + b + d - s - i + 1) by lia. zq. field. split; apply QF_nz.
  - assert (K : ~ (0 <= i /\ i <= b /\ i <= a /\ a + b <= s + i /\ s + i <= a + b + (d + 1) /\ i + (d + 1) <= s)) by (rewrite <- vx_iff, V'; discriminate).
    replace (s - d - i) with 0 by lia. rewrite !Z.mul_0_r, QcZ_0. ring.
Qed.
Lemma wx_minus : forall n a b d s i j,
  (wx a b d s i * QcZ ((s - a - b + i) * (s - i + 1)) * RS n a b d s i j
   = wx a b (d - 1) (s - 1) i * QcZ ((s - a - b + i) * (s - a - b + i)) * RS n a b d s i j)%Qc.
Proof.
  intros n a b d s i j. unfold wx.
  destruct (vx a b d s i) eqn:V; [|rewrite (RS_x _ _ _ _ _ _ _ V); ring].
  apply vx_iff in V. destruct (vx a b (d - 1) (s - 1) i) eqn:V'.
  - apply vx_iff in V'. f_equal. unfold wv, D.
    replace (s - 1 - i + 1) with (s - i) by lia. rewrite (QF_up (s - i) (s - i + 1)) by lia.
    rewrite (QF_up (s - 1 - a - b + i) (s - a - b + i)) by lia.
    replace (a + b + (d - 1) - (s - 1) - i) with (a + b + d - s - i) by lia. replace (s - 1 - (d - 1) - i) with (s - d - i) by lia.
    generalize (QcZ_nz (s - i + 1) ltac:(lia)). zq. intros Hz. field. repeat split; try apply QF_nz; exact Hz.
  - assert (K : ~ (0 <= i /\ i <= b /\ i <= a /\ a + b <= s - 1 + i /\ s - 1 + i <= a + b + (d - 1) /\ i + (d - 1) <= s - 1)) by (rewrite <- vx_iff, V'; discriminate).
    replace (s - a - b + i) with 0 by lia. rewrite !Z.mul_0_l, QcZ_0. ring.
Qed.

(** The inverse weights of [y]. *)
Lemma not_vx : forall a b d s i, vx a b d s i = false -> ~ (0 <= i /\ i <= b /\ i <= a /\ a + b <= s + i /\ s + i <= a + b + d /\ i + d <= s).
Proof. intros a b d s i H. rewrite <- vx_iff, H. discriminate. Qed.

Lemma inv_ratio : forall u v p q : Qc, (u <> 0 -> v <> 0 -> p * u = q * v -> p * / v = q * / u)%Qc.
Proof.
  intros u v p q U V H. assert (E : (p * u * (/ u * / v) = q * v * (/ u * / v))%Qc) by now rewrite H.
  transitivity (p * u * (/ u * / v))%Qc; [field; split; assumption|]. rewrite E. field. split; assumption.
Qed.

Lemma ny_p0 : forall a b d s j, vx a d b s j = true ->
  (QcZ ((a + d - 2 * j + 2) * ((d + 1 - j) * (a + b + d - s - j + 1))) * ny a b (d + 1) s j
   = QcZ ((a + d - 2 * j + 1) * ((a + d - j + 2) * (s - a - d + j))) * ny a b d s j)%Qc.
Proof.
  intros a b d s j V. unfold ny. rewrite V. apply vx_iff in V. destruct (vx a (d + 1) b s j) eqn:V'.
  - apply vx_iff in V'. apply inv_ratio; [apply wv_nz; lia|apply wv_nz; lia|]. unfold wv, D.
    rewrite (QF_up (d - j) (d + 1 - j)) by lia. rewrite (QF_up (a + d - j + 1) (a + (d + 1) - j + 1)) by lia.
    rewrite (QF_up (s - a - (d + 1) + j) (s - a - d + j)) by lia. rewrite (QF_up (a + d + b - s - j) (a + (d + 1) + b - s - j)) by lia.
    generalize (QcZ_nz (a + (d + 1) - j + 1) ltac:(lia)). zq. intros Hz. field. repeat split; try apply QF_nz; exact Hz.
  - apply not_vx in V'. replace (s - a - d + j) with 0 by lia. rewrite !Z.mul_0_r, QcZ_0. ring.
Qed.
Lemma ny_p1 : forall a b d s j, vx a d b s j = true ->
  (QcZ ((a + d - 2 * j) * ((j + 1) * (s - j + 1))) * ny a b (d + 1) s (j + 1)
   = QcZ ((a + d - 2 * j + 1) * ((a - j) * (s - b - j))) * ny a b d s j)%Qc.
Proof.
  intros a b d s j V. unfold ny. rewrite V. apply vx_iff in V. destruct (vx a (d + 1) b s (j + 1)) eqn:V'.
  - apply vx_iff in V'. apply inv_ratio; [apply wv_nz; lia|apply wv_nz; lia|]. unfold wv, D.
    rewrite (QF_up j (j + 1)) by lia. replace (d + 1 - (j + 1)) with (d - j) by lia. rewrite (QF_up (a - (j + 1)) (a - j)) by lia.
    replace (a + (d + 1) - (j + 1)) with (a + d - j) by lia.
    replace (s - a - (d + 1) + (j + 1)) with (s - a - d + j) by lia. replace (a + (d + 1) + b - s - (j + 1)) with (a + d + b - s - j) by lia.
    rewrite (QF_up (s - b - (j + 1)) (s - b - j)) by lia. replace (s - (j + 1) + 1) with (s - j) by lia. rewrite (QF_up (s - j) (s - j + 1)) by lia.
    generalize (QcZ_nz (s - j + 1) ltac:(lia)). zq. intros Hz. field. repeat split; try apply QF_nz; exact Hz.
  - apply not_vx in V'. assert (E : a - j = 0 \/ s - b - j = 0) by lia. destruct E as [E|E]; rewrite E, ?Z.mul_0_r, ?Z.mul_0_l, ?Z.mul_0_r, QcZ_0; ring.
Qed.
Lemma ny_p1_0 : forall a b d s j, vx a d b s j = true -> a + d - 2 * j = 0 -> ny a b (d + 1) s (j + 1) = 0%Qc.
Proof.
  intros a b d s j V E. unfold ny. apply vx_iff in V. destruct (vx a (d + 1) b s (j + 1)) eqn:V'; [|reflexivity].
  apply vx_iff in V'. lia.
Qed.
Lemma ny_m0 : forall a b d s j, vx a d b s j = true ->
  (QcZ ((a + d - 2 * j) * ((a + d - j + 1) * (s - j + 1))) * ny a b (d - 1) (s - 1) j
   = QcZ ((a + d - 2 * j + 1) * ((d - j) * (s - b - j))) * ny a b d s j)%Qc.
Proof.
  intros a b d s j V. unfold ny. rewrite V. apply vx_iff in V. destruct (vx a (d - 1) b (s - 1) j) eqn:V'.
  - apply vx_iff in V'. apply inv_ratio; [apply wv_nz; lia|apply wv_nz; lia|]. unfold wv, D.
    rewrite (QF_up (d - 1 - j) (d - j)) by lia. replace (a + (d - 1) - j + 1) with (a + d - j) by lia. rewrite (QF_up (a + d - j) (a + d - j + 1)) by lia.
    replace (s - 1 - a - (d - 1) + j) with (s - a - d + j) by lia. replace (a + (d - 1) + b - (s - 1) - j) with (a + d + b - s - j) by lia.
    rewrite (QF_up (s - 1 - b - j) (s - b - j)) by lia. replace (s - 1 - j + 1) with (s - j) by lia. rewrite (QF_up (s - j) (s - j + 1)) by lia.
    generalize (QcZ_nz (s - j + 1) ltac:(lia)) (QcZ_nz (a + d - j + 1) ltac:(lia)). zq. intros Hz Hz'. field. repeat split; try apply QF_nz; assumption.
  - apply not_vx in V'. assert (E : d - j = 0 \/ s - b - j = 0) by lia. destruct E as [E|E]; rewrite E, ?Z.mul_0_r, ?Z.mul_0_l, ?Z.mul_0_r, QcZ_0; ring.
Qed.
Lemma ny_m0_0 : forall a b d s j, vx a d b s j = true -> a + d - 2 * j = 0 -> ny a b (d - 1) (s - 1) j = 0%Qc.
Proof.
  intros a b d s j V E. unfold ny. apply vx_iff in V. destruct (vx a (d - 1) b (s - 1) j) eqn:V'; [|reflexivity].
  apply vx_iff in V'. lia.
Qed.
Lemma ny_m1 : forall a b d s j, vx a d b s j = true ->
  (QcZ ((a + d - 2 * j + 2) * ((a - j + 1) * (a + b + d - s - j + 1))) * ny a b (d - 1) (s - 1) (j - 1)
   = QcZ ((a + d - 2 * j + 1) * (j * (s - a - d + j))) * ny a b d s j)%Qc.
Proof.
  intros a b d s j V. unfold ny. rewrite V. apply vx_iff in V. destruct (vx a (d - 1) b (s - 1) (j - 1)) eqn:V'.
  - apply vx_iff in V'. apply inv_ratio; [apply wv_nz; lia|apply wv_nz; lia|]. unfold wv, D.
    rewrite (QF_up (j - 1) j) by lia. replace (d - 1 - (j - 1)) with (d - j) by lia. rewrite (QF_up (a - j) (a - (j - 1))) by lia.
    replace (a + (d - 1) - (j - 1)) with (a + d - j) by lia.
    rewrite (QF_up (s - 1 - a - (d - 1) + (j - 1)) (s - a - d + j)) by lia.
    rewrite (QF_up (a + d + b - s - j) (a + (d - 1) + b - (s - 1) - (j - 1))) by lia.
    replace (s - 1 - b - (j - 1)) with (s - b - j) by lia. replace (s - 1 - (j - 1)) with (s - j) by lia.
    zq. field. repeat split; try apply QF_nz.
  - apply not_vx in V'. assert (E : j = 0 \/ s - a - d + j = 0) by lia. destruct E as [E|E]; rewrite E, ?Z.mul_0_r, ?Z.mul_0_l, ?Z.mul_0_r, QcZ_0; ring.
Qed.

(** The sums with [c] in terms of those with [c - 1]. *)
Lemma sumr_lin4 : forall m lo (p q r t : Qc) f1 f2 f3 f4,
  sumr m lo (fun i => (p * f1 i + q * f2 i + r * f3 i + t * f4 i)%Qc)
  = (p * sumr m lo f1 + q * sumr m lo f2 + r * sumr m lo f3 + t * sumr m lo f4)%Qc.
Proof. intros. rewrite !sumr_add, !sumr_scale. reflexivity. Qed.

Lemma gram_plus : forall n m a b d s j k, s < Z.of_nat n ->
  let B j := QcZ ((d - j + 1) * (a + b + d - s - j + 1)) in let C j := QcZ ((s - j + 1) * (j + 1)) in
  sumr m 0 (fun i => (QcZ (a + d - 2 * j + 1) * QcZ (a + d - 2 * k + 1) * (wx a b d s i * QcZ ((a + b + d - s - i + 1) * (s - d - i)) * (RS n a b d s i j * RS n a b d s i k)))%Qc)
  = (B j * B k * gram n m a b (d + 1) s j k + B j * C k * gram n m a b (d + 1) s j (k + 1)
     + C j * B k * gram n m a b (d + 1) s (j + 1) k + C j * C k * gram n m a b (d + 1) s (j + 1) (k + 1))%Qc.
Proof.
  intros n m a b d s j k Hn B C. unfold gram. rewrite <- sumr_lin4. apply sumr_ext. intros i.
  transitivity (wx a b (d + 1) s i * ((B j * RS n a b (d + 1) s i j + C j * RS n a b (d + 1) s i (j + 1)) * (B k * RS n a b (d + 1) s i k + C k * RS n a b (d + 1) s i (k + 1))))%Qc; [|ring].
  destruct (vx a b d s i || vx a b (d + 1) s i) eqn:V.
  - apply orb_true_iff in V. unfold B, C. rewrite <- !RS_plus by assumption.
    transitivity (QcZ (a + d - 2 * j + 1) * QcZ (a + d - 2 * k + 1) * (wx a b d s i * QcZ ((a + b + d - s - i + 1) * (s - d - i)) * RS n a b d s i j) * RS n a b d s i k)%Qc; [ring|].
    rewrite wx_plus, !QcZ_mul. ring.
  - apply orb_false_iff in V. destruct V as [V V']. unfold wx. rewrite V, V'. ring.
Qed.
Lemma gram_minus : forall n m a b d s j k, s < Z.of_nat n ->
  let P j := QcZ ((a + b + d - s - j + 1) * (a - j + 1)) in let Q j := QcZ ((a + d - j + 1) * (s - j + 1)) in
  sumr m 0 (fun i => (QcZ (a + d - 2 * j + 1) * QcZ (a + d - 2 * k + 1) * (wx a b d s i * QcZ ((s - a - b + i) * (s - i + 1)) * (RS n a b d s i j * RS n a b d s i k)))%Qc)
  = (P j * P k * gram n m a b (d - 1) (s - 1) (j - 1) (k - 1) + - (P j * Q k) * gram n m a b (d - 1) (s - 1) (j - 1) k
     + - (Q j * P k) * gram n m a b (d - 1) (s - 1) j (k - 1) + Q j * Q k * gram n m a b (d - 1) (s - 1) j k)%Qc.
Proof.
  intros n m a b d s j k Hn P Q. unfold gram. rewrite <- sumr_lin4. apply sumr_ext. intros i.
  transitivity (wx a b (d - 1) (s - 1) i * ((P j * RS n a b (d - 1) (s - 1) i (j - 1) - Q j * RS n a b (d - 1) (s - 1) i j) * (P k * RS n a b (d - 1) (s - 1) i (k - 1) - Q k * RS n a b (d - 1) (s - 1) i k)))%Qc; [|ring].
  destruct (vx a b d s i || vx a b (d - 1) (s - 1) i) eqn:V.
  - apply orb_true_iff in V. unfold P, Q. rewrite <- !RS_minus by assumption.
    transitivity (QcZ (a + d - 2 * j + 1) * QcZ (a + d - 2 * k + 1) * (wx a b d s i * QcZ ((s - a - b + i) * (s - i + 1)) * RS n a b d s i j) * RS n a b d s i k)%Qc; [ring|].
    rewrite wx_minus, !QcZ_mul. ring.
  - apply orb_false_iff in V. destruct V as [V V']. unfold wx. rewrite V, V'. ring.
Qed.

Lemma gram_y : forall n m a b d s j k, vx a d b s j = false \/ vx a d b s k = false -> gram n m a b d s j k = 0%Qc.
Proof.
  intros n m a b d s j k H. apply sumr_zero. intros i _. destruct H as [H|H]; rewrite (RS_y _ _ _ _ _ _ _ H); ring.
Qed.

(** [c (d + 1)] times the sum, from the two relations. *)
Lemma gram_split : forall n m a b d s j k, s < Z.of_nat n ->
  let Y j := QcZ (a + d - 2 * j + 1) in
  let B j := QcZ ((d - j + 1) * (a + b + d - s - j + 1)) in let C j := QcZ ((s - j + 1) * (j + 1)) in
  let P j := QcZ ((a + b + d - s - j + 1) * (a - j + 1)) in let Q j := QcZ ((a + d - j + 1) * (s - j + 1)) in
  (QcZ ((2 * s - a - b - d) * (d + 1)) * (Y j * Y k) * gram n m a b d s j k
   = B j * B k * gram n m a b (d + 1) s j k + B j * C k * gram n m a b (d + 1) s j (k + 1)
     + C j * B k * gram n m a b (d + 1) s (j + 1) k + C j * C k * gram n m a b (d + 1) s (j + 1) (k + 1)
     + (P j * P k * gram n m a b (d - 1) (s - 1) (j - 1) (k - 1) + - (P j * Q k) * gram n m a b (d - 1) (s - 1) (j - 1) k
        + - (Q j * P k) * gram n m a b (d - 1) (s - 1) j (k - 1) + Q j * Q k * gram n m a b (d - 1) (s - 1) j k))%Qc.
Proof.
  intros n m a b d s j k Hn Y B C P Q. unfold B, C, P, Q.
  rewrite <- gram_plus by assumption. rewrite <- gram_minus by assumption. rewrite <- sumr_add. unfold gram. rewrite <- sumr_scale.
  apply sumr_ext. intros i. unfold Y.
  replace ((2 * s - a - b - d) * (d + 1)) with ((a + b + d - s - i + 1) * (s - d - i) + (s - a - b + i) * (s - i + 1)) by ring.
  rewrite QcZ_add. ring.
Qed.

Definition orth (n m : nat) (a b d s : Z) : Prop := forall j k, gram n m a b d s j k = if j =? k then ny a b d s j else 0%Qc.

Lemma Qc_cancel : forall x y z : Qc, (x <> 0 -> x * y = x * z -> y = z)%Qc.
Proof.
  intros x y z X E. apply (f_equal (fun u => (/ x * u)%Qc)) in E.
  rewrite !Qcmult_assoc, Qcmult_inv_l, !Qcmult_1_l in E by assumption. exact E.
Qed.

(** The diagonal. *)
Lemma diag_up : forall a b d s j, vx a d b s j = true ->
  let B := QcZ ((d - j + 1) * (a + b + d - s - j + 1)) in let P := QcZ ((a + b + d - s - j + 1) * (a - j + 1)) in
  (B * B * ny a b (d + 1) s j + P * P * ny a b (d - 1) (s - 1) (j - 1)
   = QcZ ((a + d - 2 * j + 1) * ((s - a - d + j) * ((a + b + d - s - j + 1) * (d + 1)))) * ny a b d s j)%Qc.
Proof.
  intros a b d s j V B P. pose proof (ny_p0 a b d s j V) as E1. pose proof (ny_m1 a b d s j V) as E4. apply vx_iff in V.
  apply (Qc_cancel (QcZ (a + d - 2 * j + 2))); [apply QcZ_nz; lia|].
  transitivity (B * (QcZ ((a + d - 2 * j + 2) * ((d + 1 - j) * (a + b + d - s - j + 1))) * ny a b (d + 1) s j)
                + P * (QcZ ((a + d - 2 * j + 2) * ((a - j + 1) * (a + b + d - s - j + 1))) * ny a b (d - 1) (s - 1) (j - 1)))%Qc.
  - unfold B, P. zq. ring.
  - rewrite E1, E4. unfold B, P. zq. ring.
Qed.
Lemma diag_down : forall a b d s j, vx a d b s j = true ->
  let C := QcZ ((s - j + 1) * (j + 1)) in let Q := QcZ ((a + d - j + 1) * (s - j + 1)) in
  (C * C * ny a b (d + 1) s (j + 1) + Q * Q * ny a b (d - 1) (s - 1) j
   = QcZ ((a + d - 2 * j + 1) * ((s - b - j) * ((s - j + 1) * (d + 1)))) * ny a b d s j)%Qc.
Proof.
  intros a b d s j V C Q. destruct (Z.eq_dec (a + d - 2 * j) 0) as [E|E].
  { rewrite ny_p1_0, ny_m0_0 by assumption. apply vx_iff in V. replace (s - b - j) with 0 by lia. rewrite !Z.mul_0_l, Z.mul_0_r, QcZ_0. ring. }
  pose proof (ny_p1 a b d s j V) as E2. pose proof (ny_m0 a b d s j V) as E3. apply vx_iff in V.
  apply (Qc_cancel (QcZ (a + d - 2 * j))); [apply QcZ_nz; lia|].
  transitivity (C * (QcZ ((a + d - 2 * j) * ((j + 1) * (s - j + 1))) * ny a b (d + 1) s (j + 1))
                + Q * (QcZ ((a + d - 2 * j) * ((a + d - j + 1) * (s - j + 1))) * ny a b (d - 1) (s - 1) j))%Qc.
  - unfold C, Q. zq. ring.
  - rewrite E2, E3. unfold C, Q. zq. ring.
Qed.
(** Next to the diagonal. *)
Lemma off_diag : forall a b d s j, vx a d b s j = true ->
  (QcZ ((s - j + 1) * (j + 1)) * QcZ ((d - (j + 1) + 1) * (a + b + d - s - (j + 1) + 1)) * ny a b (d + 1) s (j + 1)
   = QcZ ((a + d - j + 1) * (s - j + 1)) * QcZ ((a + b + d - s - (j + 1) + 1) * (a - (j + 1) + 1)) * ny a b (d - 1) (s - 1) j)%Qc.
Proof.
  intros a b d s j V. destruct (Z.eq_dec (a + d - 2 * j) 0) as [E|E].
  { rewrite ny_p1_0, ny_m0_0 by assumption. ring. }
  pose proof (ny_p1 a b d s j V) as E2. pose proof (ny_m0 a b d s j V) as E3. apply vx_iff in V.
  apply (Qc_cancel (QcZ (a + d - 2 * j))); [apply QcZ_nz; lia|].
  transitivity (QcZ ((d - (j + 1) + 1) * (a + b + d - s - (j + 1) + 1)) * (QcZ ((a + d - 2 * j) * ((j + 1) * (s - j + 1))) * ny a b (d + 1) s (j + 1)))%Qc; [zq; ring|].
  transitivity (QcZ ((a + b + d - s - (j + 1) + 1) * (a - (j + 1) + 1)) * (QcZ ((a + d - 2 * j) * ((a + d - j + 1) * (s - j + 1))) * ny a b (d - 1) (s - 1) j))%Qc; [|zq; ring].
  rewrite E2, E3. zq. ring.
Qed.

Lemma orth_step : forall n m a b d s, 0 <= d -> 1 <= 2 * s - a - b - d -> s < Z.of_nat n ->
  orth n m a b (d + 1) s -> orth n m a b (d - 1) (s - 1) -> orth n m a b d s.
Proof.
  intros n m a b d s Hd Hc Hn P1 P2 j k.
  destruct (vx a d b s j) eqn:Vj; [|rewrite gram_y by tauto; unfold ny; rewrite Vj; now destruct (j =? k)].
  destruct (vx a d b s k) eqn:Vk;
    [|rewrite gram_y by tauto; destruct (Z.eqb_spec j k) as [E|E]; [subst k; congruence|reflexivity]].
  pose proof (proj1 (vx_iff _ _ _ _ _) Vj) as Uj. pose proof (proj1 (vx_iff _ _ _ _ _) Vk) as Uk.
  assert (Nz : (QcZ ((2 * s - a - b - d) * (d + 1)) * (QcZ (a + d - 2 * j + 1) * QcZ (a + d - 2 * k + 1)) <> 0)%Qc).
  { repeat apply Qcmult_nz; apply QcZ_nz; try lia. apply Z.neq_mul_0. lia. }
  apply (Qc_cancel _ _ _ Nz). rewrite (gram_split n m a b d s j k Hn). clear Nz.
  rewrite !P1, !P2.
  replace (j + 1 =? k + 1) with (j =? k) by (destruct (Z.eqb_spec j k), (Z.eqb_spec (j + 1) (k + 1)); lia || reflexivity).
  replace (j - 1 =? k - 1) with (j =? k) by (destruct (Z.eqb_spec j k), (Z.eqb_spec (j - 1) (k - 1)); lia || reflexivity).
  replace (j =? k - 1) with (j + 1 =? k) by (destruct (Z.eqb_spec (j + 1) k), (Z.eqb_spec j (k - 1)); lia || reflexivity).
  replace (j - 1 =? k) with (j =? k + 1) by (destruct (Z.eqb_spec j (k + 1)), (Z.eqb_spec (j - 1) k); lia || reflexivity).
  destruct (Z.eqb_spec j k) as [E|E].
  { subst k. rewrite (proj2 (Z.eqb_neq j (j + 1))) by lia. rewrite (proj2 (Z.eqb_neq (j + 1) j)) by lia.
    pose proof (diag_up a b d s j Vj) as E1. pose proof (diag_down a b d s j Vj) as E2. cbv zeta in E1, E2.
    match type of E1 with (?x + ?y = _)%Qc => match type of E2 with (?u + ?v = _)%Qc => transitivity ((x + y) + (u + v))%Qc; [ring|] end end.
    rewrite E1, E2. zq. ring. }
  destruct (Z.eqb_spec (j + 1) k) as [E'|E'].
  { subst k. rewrite (proj2 (Z.eqb_neq j (j + 1 + 1))) by lia.
    pose proof (off_diag a b d s j Vj) as E1.
    match type of E1 with ?x = ?y => transitivity (x - y)%Qc; [ring|rewrite E1; ring] end. }
  destruct (Z.eqb_spec j (k + 1)) as [E''|E''].
  { subst j. pose proof (off_diag a b d s k Vk) as E1. replace (k + 1 - 1) with k by lia.
    match type of E1 with ?x = ?y => transitivity (x - y)%Qc; [ring|rewrite E1; ring] end. }
  ring.
Qed.

(** No momentum is negative. *)
Lemma orth_neg : forall n m a b s, orth n m a b (-1) s.
Proof.
  intros n m a b s j k.
  assert (V : forall i, vx a (-1) b s i = false).
  { intros i. destruct (vx a (-1) b s i) eqn:V; [|reflexivity]. apply vx_iff in V. lia. }
  rewrite gram_y by (left; apply V). unfold ny. rewrite V. now destruct (j =? k).
Qed.

(** [c = 0]. *)
Lemma orth_zero : forall n m a b d s, 0 <= d -> 2 * s = a + b + d -> s < Z.of_nat n -> a < Z.of_nat m -> orth n m a b d s.
Proof.
  intros n m a b d s Hd Hs Hn Hm j k.
  destruct (vx a d b s j) eqn:Vj; [|rewrite gram_y by tauto; unfold ny; rewrite Vj; now destruct (j =? k)].
  destruct (vx a d b s k) eqn:Vk;
    [|rewrite gram_y by tauto; destruct (Z.eqb_spec j k) as [E|E]; [subst k; congruence|reflexivity]].
  pose proof (proj1 (vx_iff _ _ _ _ _) Vj) as Uj. pose proof (proj1 (vx_iff _ _ _ _ _) Vk) as Uk.
  assert (Ej : j = s - b) by lia. assert (Ek : k = s - b) by lia. subst k. subst j. rewrite Z.eqb_refl.
  unfold gram. rewrite (sumr_single m 0 _ (s - d)); [|lia|].
  2:{ intros i Hi Hne. assert (V : vx a b d s i = false).
      { destruct (vx a b d s i) eqn:V; [|reflexivity]. apply vx_iff in V. lia. }
      unfold wx. rewrite V. ring. }
  assert (V : vx a b d s (s - d) = true) by (apply vx_iff; lia).
  assert (R : RS n a b d s (s - d) (s - b) = (sgn s * QF (s + 1) / (QF (s - d) * QF (s - b) * QF (b + d - s)))%Qc).
  { unfold RS, SS. rewrite (sumr_single n 0 _ s); [|lia|].
    - unfold Tm. rewrite !IF_pos by lia.
      replace (s - (a + b - (s - d))) with 0 by lia. replace (s - (s - (s - d))) with (s - d) by lia.
      replace (s - (a + d - (s - b))) with 0 by lia. replace (s - (s - (s - b))) with (s - b) by lia.
      replace (s - s) with 0 by lia. replace (a + b + d - (s - d) - (s - b) - s) with (b + d - s) by lia.
      replace (a + s - (s - d) - (s - b) - s) with 0 by lia. rewrite QF_0. field. repeat split; try apply QF_nz; discriminate.
    - intros t Ht Hne. unfold Tm. assert (K : t < s \/ s < t) by lia. destruct K as [K|K].
      + rewrite (IF_neg (t - (a + b - (s - d)))) by lia. ring.
      + rewrite (IF_neg (s - t)) by lia. ring. }
  rewrite R. unfold wx, ny. rewrite V, Vj. unfold wv, D.
  replace (a + b - 2 * (s - d) + 1) with (d + 1) by lia. replace (b - (s - d)) with (b + d - s) by lia. replace (a - (s - d)) with (s - b) by lia.
  replace (a + b - (s - d)) with s by lia. replace (s - a - b + (s - d)) with 0 by lia. replace (a + b + d - s - (s - d)) with d by lia.
  replace (s - d - (s - d)) with 0 by lia. replace (s - (s - d)) with d by lia.
  replace (a + d - 2 * (s - b) + 1) with (b + 1) by lia. replace (d - (s - b)) with (b + d - s) by lia. replace (a - (s - b)) with (s - d) by lia.
  replace (a + d - (s - b)) with s by lia. replace (s - a - d + (s - b)) with 0 by lia. replace (a + d + b - s - (s - b)) with b by lia.
  replace (s - b - (s - b)) with 0 by lia. replace (s - (s - b)) with b by lia.
  rewrite QF_0, (QF_S d), (QF_S b) by lia.
  transitivity (sgn s * sgn s * (QF (s + 1) / (QF (s - d) * QF (s - b) * QF (b + d - s))))%Qc.
  - field. repeat split; try apply QF_nz; try discriminate; apply QcZ_nz; lia.
  - rewrite sgn_sq. field. repeat split; try apply QF_nz; try discriminate; apply QcZ_nz; lia.
Qed.

(** The columns of the matrix are orthogonal, for all momenta. *)
Theorem gram_orth : forall c n m a b d s, 2 * s = a + b + d + Z.of_nat c -> -1 <= d -> s < Z.of_nat n -> a < Z.of_nat m -> orth n m a b d s.
Proof.
  induction c as [|c IH]; intros n m a b d s Hs Hd Hn Hm.
  - destruct (Z.eq_dec d (-1)) as [E|E]; [subst d; apply orth_neg|]. apply orth_zero; lia.
  - destruct (Z.eq_dec d (-1)) as [E|E]; [subst d; apply orth_neg|].
    apply orth_step; try lia; apply IH; lia.
Qed.
