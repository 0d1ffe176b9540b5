(** Symmetries of the 3j symbols: columns exchanged, all projections reversed. *)
From Coq Require Import List Bool ZArith QArith Qcanon Lia.
From Verif Require Import Base Util Term Num Wigner WignerProofs WignerOne.
Import ListNotations.
Local Open Scope Z_scope.

Lemma sumr_last : forall n lo f, sumr (S n) lo f = (sumr n lo f + f (lo + Z.of_nat n)%Z)%Qc.
Proof.
  induction n; intros lo f.
  - cbn [sumr]. replace (lo + Z.of_nat 0) with lo by lia. ring.
  - change (sumr (S (S n)) lo f) with (f lo + sumr (S n) (lo + 1)%Z f)%Qc. rewrite IHn.
    change (sumr (S n) lo f) with (f lo + sumr n (lo + 1)%Z f)%Qc. replace (lo + 1 + Z.of_nat n) with (lo + Z.of_nat (S n)) by lia. ring.
Qed.
Lemma sumr_shift : forall n lo f, sumr n lo f = sumr n 0 (fun t => f (lo + t)).
Proof.
  assert (G : forall n lo f d, sumr n (lo + d) f = sumr n d (fun t => f (lo + t))).
  { induction n; intros lo f d; cbn [sumr]; auto. rewrite <- IHn. now rewrite Z.add_assoc. }
  intros. rewrite <- (G n lo f 0). now rewrite Z.add_0_r.
Qed.
Lemma sumr_rev : forall n lo K f, sumr n lo f = sumr n (K - (lo + Z.of_nat n - 1)) (fun t => f (K - t)).
Proof.
  induction n; intros lo K f; auto. rewrite sumr_last. cbn [sumr].
  replace (K - (lo + Z.of_nat (S n) - 1) + 1) with (K - (lo + Z.of_nat n - 1)) by lia. rewrite <- IHn.
  replace (K - (K - (lo + Z.of_nat (S n) - 1))) with (lo + Z.of_nat n) by lia. ring.
Qed.
Lemma sumr_scale : forall n lo c f, sumr n lo (fun t => c * f t)%Qc = (c * sumr n lo f)%Qc.
Proof. induction n; intros; cbn [sumr]; [ring|]. rewrite IHn. ring. Qed.
Lemma sum_range_rev : forall lo hi K f, sum_range lo hi f = sum_range (K - hi) (K - lo) (fun t => f (K - t)).
Proof.
  intros. unfold sum_range. replace (K - lo - (K - hi) + 1) with (hi - lo + 1) by lia.
  destruct (Z.le_gt_cases lo hi) as [H|H].
  - rewrite (sumr_rev _ lo K). f_equal. lia.
  - replace (Z.to_nat (hi - lo + 1)) with 0%nat by lia. reflexivity.
Qed.

Lemma sgn_sub : forall a b, sgn (a - b) = (sgn a * sgn b)%Qc.
Proof. intros. unfold sgn. rewrite Z.even_sub. destruct (Z.even a), (Z.even b); cbn; ring. Qed.

Definition Sv (k v w g h : Z) : Qc := sum_range (Z.max 0 (Z.max (- g) (- h))) (Z.min k (Z.min v w)) (Vt k v w g h).
Lemma Sv_kv : forall k v w g h, Sv k v w g h = Sv v k w g h.
Proof.
  intros. unfold Sv, sum_range. replace (Z.min v (Z.min k w)) with (Z.min k (Z.min v w)) by lia. apply sumr_ext. intros t. unfold Vt. f_equal. ring.
Qed.
Lemma Sv_vw : forall k v w g h, Sv k v w g h = Sv k w v g h.
Proof.
  intros. unfold Sv, sum_range. replace (Z.min k (Z.min w v)) with (Z.min k (Z.min v w)) by lia. apply sumr_ext. intros t. unfold Vt. f_equal. ring.
Qed.
Lemma Sv_gh : forall k v w g h, Sv k v w g h = Sv k v w h g.
Proof.
  intros. unfold Sv, sum_range. replace (Z.max 0 (Z.max (- h) (- g))) with (Z.max 0 (Z.max (- g) (- h))) by lia. apply sumr_ext. intros t. unfold Vt. f_equal. ring.
Qed.
Lemma Sv_rev : forall k v w g h, Sv k (g + k) (h + k) (v - k) (w - k) = (sgn k * Sv k v w g h)%Qc.
Proof.
  intros. unfold Sv. rewrite (sum_range_rev _ _ k).
  replace (k - Z.min k (Z.min (g + k) (h + k))) with (Z.max 0 (Z.max (- g) (- h))) by lia.
  replace (k - Z.max 0 (Z.max (- (v - k)) (- (w - k)))) with (Z.min k (Z.min v w)) by lia.
  unfold sum_range. rewrite <- sumr_scale. apply sumr_ext. intros t. unfold Vt. rewrite sgn_sub.
  replace (k - (k - t)) with t by lia. replace (g + k - (k - t)) with (g + t) by lia. replace (h + k - (k - t)) with (h + t) by lia.
  replace (v - k + (k - t)) with (v - t) by lia. replace (w - k + (k - t)) with (w - t) by lia. field. repeat split; apply QF_nz.
Qed.
Lemma Sv_rev_sq : forall k v w g h, (Sv k (g + k) (h + k) (v - k) (w - k) * Sv k (g + k) (h + k) (v - k) (w - k) = Sv k v w g h * Sv k v w g h)%Qc.
Proof. intros. rewrite Sv_rev. transitivity ((sgn k * sgn k) * (Sv k v w g h * Sv k v w g h))%Qc; [ring|]. rewrite sgn_sq. ring. Qed.

(** All numbers in a non-vanishing 3j symbol. *)
Lemma w3_elim : forall a b c m n p, w3_ok a b c m n p = true -> exists x y z u v w w' r r',
  0 <= x /\ 0 <= y /\ 0 <= z /\ 0 <= u /\ 0 <= v /\ 0 <= w /\ 0 <= w' /\ 0 <= r /\ 0 <= r' /\
  a = y + z /\ b = x + z /\ c = x + y /\ a = u + v /\ m = u - v /\ b = w + w' /\ n = w - w' /\ c = r + r' /\ p = r - r' /\ m + n + p = 0.
Proof.
  intros a b c m n p H. unfold w3_ok in H. rewrite !andb_true_iff in H. destruct H as [[[[T P1] P2] P3] S]. apply Z.eqb_eq in S.
  apply tri_elim in T as [x [y [z T]]]. apply proj_elim in P1 as [u [v P1]]. apply proj_elim in P2 as [w [w' P2]]. apply proj_elim in P3 as [r [r' P3]].
  exists x, y, z, u, v, w, w', r, r'. lia.
Qed.
Lemma w3sq_S : forall x y z u v w w' r r', 0 <= x -> 0 <= y -> 0 <= z -> 0 <= u -> 0 <= v -> 0 <= w -> 0 <= w' -> 0 <= r -> 0 <= r' ->
  y + z = u + v -> x + z = w + w' -> x + y = r + r' -> u - v + (w - w') + (r - r') = 0 ->
  w3sq (y + z) (x + z) (x + y) (u - v) (w - w') (r - r') =
    (D z y x (z + y + x) * (QF u * QF v * QF w * QF w' * QF r * QF r') * (Sv z v w (u - z) (w' - z) * Sv z v w (u - z) (w' - z)))%Qc.
Proof.
  intros x y z u v w w' r r' Hx Hy Hz Hu Hv Hw Hw' Hr Hr' E1 E2 E3 E4.
  rewrite (w3sq_V _ _ _ _ _ _ z y x u v w w' r r' (u - z) (w' - z)) by lia. reflexivity.
Qed.
Lemma w3_ok_perm : forall a b c m n p, w3_ok a b c m n p = w3_ok b a c n m p /\ w3_ok a b c m n p = w3_ok a c b m p n /\
  w3_ok a b c m n p = w3_ok a b c (- m) (- n) (- p).
Proof.
  intros. unfold w3_ok. split; [|split].
  - rewrite (tri_12 b a). replace (n + m + p) with (m + n + p) by ring. destruct (tri a b c), (proj_ok a m), (proj_ok b n), (proj_ok c p); reflexivity.
  - rewrite (tri_23 a c). replace (m + p + n) with (m + n + p) by ring. destruct (tri a b c), (proj_ok a m), (proj_ok b n), (proj_ok c p); reflexivity.
  - assert (P : forall j q, proj_ok j (- q) = proj_ok j q).
    { intros. unfold proj_ok. rewrite Z.abs_opp, !Z.even_add, Z.even_opp. reflexivity. }
    rewrite !P. replace (- m + - n + - p =? 0) with (m + n + p =? 0); auto. apply eq_true_iff_eq. rewrite !Z.eqb_eq. lia.
Qed.
Lemma w3sq_no : forall a b c m n p, w3_ok a b c m n p = false -> w3sq a b c m n p = 0%Qc.
Proof. intros a b c m n p H. unfold w3sq. now rewrite H. Qed.
Lemma D_12 : forall p q r s, D p q r s = D q p r s.
Proof. intros. unfold D. f_equal. ring. Qed.
Lemma D_23 : forall p q r s, D p q r s = D p r q s.
Proof. intros. unfold D. f_equal. ring. Qed.

(** Projections reversed. *)
Theorem w3sq_neg : forall a b c m n p, w3sq a b c m n p = w3sq a b c (- m) (- n) (- p).
Proof.
  intros. destruct (w3_ok_perm a b c m n p) as [_ [_ E]]. destruct (w3_ok a b c m n p) eqn:O; [|rewrite !w3sq_no; congruence].
  destruct (w3_elim _ _ _ _ _ _ O) as [x [y [z [u [v [w [w' [r [r' [Hx [Hy [Hz [Hu [Hv [Hw [Hw' [Hr [Hr' [-> [-> [-> [A1 [-> [A2 [-> [A3 [-> A4]]]]]]]]]]]]]]]]]]]]]]]]]]].
  rewrite w3sq_S by auto. replace (- (u - v)) with (v - u) by lia. replace (- (w - w')) with (w' - w) by lia. replace (- (r - r')) with (r' - r) by lia.
  rewrite w3sq_S by lia. rewrite <- (Sv_rev_sq z v w (u - z) (w' - z)). replace (u - z + z) with u by lia. replace (w' - z + z) with w' by lia. ring.
Qed.
(** Columns 1 and 2 exchanged. *)
Theorem w3sq_cols : forall a b c m n p, w3sq a b c m n p = w3sq b a c n m p.
Proof.
  intros. destruct (w3_ok_perm a b c m n p) as [E _]. destruct (w3_ok a b c m n p) eqn:O; [|rewrite !w3sq_no; congruence].
  destruct (w3_elim _ _ _ _ _ _ O) as [x [y [z [u [v [w [w' [r [r' [Hx [Hy [Hz [Hu [Hv [Hw [Hw' [Hr [Hr' [-> [-> [-> [A1 [-> [A2 [-> [A3 [-> A4]]]]]]]]]]]]]]]]]]]]]]]]]]].
  rewrite w3sq_S by auto. rewrite (Z.add_comm x y). rewrite w3sq_S by lia.
  rewrite (Sv_vw z w' u), (Sv_gh z u w'). replace (Sv z u w' (v - z) (w - z)) with (Sv z (u - z + z) (w' - z + z) (v - z) (w - z)) by (f_equal; lia).
  rewrite Sv_rev_sq. rewrite (D_23 z y x). replace (z + y + x) with (z + x + y) by lia. ring.
Qed.
(** Columns 2 and 3 exchanged. *)
Theorem w3sq_cols' : forall a b c m n p, w3sq a b c m n p = w3sq a c b m p n.
Proof.
  intros. destruct (w3_ok_perm a b c m n p) as [_ [E _]]. destruct (w3_ok a b c m n p) eqn:O; [|rewrite !w3sq_no; congruence].
  destruct (w3_elim _ _ _ _ _ _ O) as [x [y [z [u [v [w [w' [r [r' [Hx [Hy [Hz [Hu [Hv [Hw [Hw' [Hr [Hr' [-> [-> [-> [A1 [-> [A2 [-> [A3 [-> A4]]]]]]]]]]]]]]]]]]]]]]]]]]].
  rewrite w3sq_S by auto. rewrite (Z.add_comm y z). rewrite w3sq_S by lia.
  rewrite (Sv_kv z v w). rewrite <- (Sv_rev_sq v z w (u - z) (w' - z)). rewrite (Sv_kv y v r).
  replace (Sv v y r (u - y) (r' - y)) with (Sv v (u - z + v) (w' - z + v) (z - v) (w - v)) by (f_equal; lia).
  rewrite (D_12 z y). replace (z + y + x) with (y + z + x) by lia. ring.
Qed.
(** Columns 1 and 3 exchanged. *)
Lemma w3sq_swap : forall a b c m n p, w3sq a b c m n p = w3sq c b a p n m.
Proof. intros. rewrite w3sq_cols, w3sq_cols', w3sq_cols. reflexivity. Qed.
(** The symbol in the Zeeman linewidths (atom.py:818) and the one in the
    selection rules (atom.py:832). *)
Lemma w3sq_strength : forall f1 f2 k m1 m2 q, w3sq f1 k f2 (- m1) q m2 = w3sq f2 k f1 (- m2) (- q) m1.
Proof. intros. rewrite w3sq_swap, w3sq_neg. now rewrite Z.opp_involutive. Qed.
