(** Orthogonality of the 3j symbols, for all arguments, from Racah's formula.

    For [(a b c; m n p)] with doubled arguments write [c = a + b - 2 k],
    [u = (a + m) / 2], [w = (b + n) / 2] and [s = u + w].  Two ladder relations
    connect the sum to those with [s + 1] and [s - 1]; both hold because a
    certificate telescopes. *)
From Coq Require Import List Bool ZArith QArith Qcanon Lia.
From Verif Require Import Base Util Term Num Wigner WignerProofs WignerOne WignerSym Hyperfine HyperfineProofs Rules RulesProofs StrengthSums WignerOrth WignerNorm.
Import ListNotations.
Local Open Scope Z_scope.

Definition Vm (k v w g h t : Z) : Qc := (sgn t * (IF t * IF (k - t) * IF (v - t) * IF (w - t)) * (IF (g + t) * IF (h + t)))%Qc.
Definition SV (n : nat) (k v w g h : Z) : Qc := sumr n 0 (Vm k v w g h).

Lemma SV_zero : forall n k v w g h, (v < 0 \/ w < 0 \/ g + k < 0 \/ h + k < 0 \/ k < 0) -> SV n k v w g h = 0%Qc.
Proof.
  intros n k v w g h H. apply sumr_zero. intros t Ht. unfold Vm.
  assert (K : v < t \/ w < t \/ k < t \/ g + t < 0 \/ h + t < 0) by lia.
  destruct K as [K|[K|[K|[K|K]]]]; [rewrite (IF_neg (v - t)) by lia|rewrite (IF_neg (w - t)) by lia|rewrite (IF_neg (k - t)) by lia
    |rewrite (IF_neg (g + t)) by lia|rewrite (IF_neg (h + t)) by lia]; ring.
Qed.
Lemma SV_swap : forall n k v w g h, SV n k v w g h = SV n k w v h g.
Proof. intros. apply sumr_ext_in. intros t _. unfold Vm. ring. Qed.

(** The ladder. *)
Lemma SV_up : forall n k v w g h, k < Z.of_nat n ->
  (QcZ (g + k + 1) * SV n k (v - 1) w (g + 1) h + QcZ (w + 1) * SV n k v (w + 1) g (h - 1) = QcZ (v + h) * SV n k v w g h)%Qc.
Proof.
  intros n k v w g h Hn. unfold SV. rewrite <- !sumr_scale, <- sumr_add.
  set (G := fun t => (sgn t * (IF (t - 1) * IF (k - t) * IF (v - t) * IF (w + 1 - t)) * (IF (g + t) * IF (h + t - 1)))%Qc).
  assert (K : sumr n 0 (fun t => (G (t + 1)%Z - G t)%Qc) = 0%Qc).
  { rewrite sumr_tele. unfold G. rewrite (IF_neg (k - (0 + Z.of_nat n))) by lia. rewrite (IF_neg (0 - 1)) by lia. ring. }
  match goal with |- ?l = ?r => enough ((l + sumr n 0 (fun t => (G (t + 1)%Z - G t)%Qc))%Qc = r) as <- by (rewrite K; ring) end.
  rewrite <- sumr_add. apply sumr_ext_in. intros t Ht. unfold G, Vm. rewrite sgn_up.
  replace (t + 1 - 1) with t by lia. rewrite (IF_up t (t - 1)) by lia. rewrite (IF_up (k - t) (k - (t + 1))) by lia.
  rewrite (IF_up (v - t) (v - (t + 1))), (IF_up (v - t) (v - 1 - t)) by lia.
  replace (w + 1 - (t + 1)) with (w - t) by lia. rewrite (IF_up (w + 1 - t) (w - t)) by lia.
  replace (g + (t + 1)) with (g + 1 + t) by lia. rewrite (IF_up (g + 1 + t) (g + t)) by lia.
  replace (h + (t + 1) - 1) with (h + t) by lia. rewrite (IF_up (h + t) (h + t - 1)), (IF_up (h + t) (h - 1 + t)) by lia.
  zq. ring.
Qed.
Lemma SV_down : forall n k v w g h, k < Z.of_nat n ->
  (QcZ (v + 1) * SV n k (v + 1) w (g - 1) h + QcZ (h + k + 1) * SV n k v (w - 1) g (h + 1) = QcZ (w + g) * SV n k v w g h)%Qc.
Proof.
  intros n k v w g h Hn. pose proof (SV_up n k w v h g Hn) as E. rewrite (SV_swap n k v w g h), <- E.
  rewrite (SV_swap n k (v + 1)), (SV_swap n k v (w - 1)). ring.
Qed.

(** ** The matrix of 3j symbols *)

Definition CS (n : nat) (a b k u w : Z) : Qc := SV n k (a - u) w (u - k) (b - w - k).
Lemma CS_zero : forall n a b k u w, (u < 0 \/ a < u \/ w < 0 \/ b < w) -> CS n a b k u w = 0%Qc.
Proof. intros. apply SV_zero. lia. Qed.
Lemma CS_up : forall n a b k u w, k < Z.of_nat n ->
  (QcZ (u + 1) * CS n a b k (u + 1) w + QcZ (w + 1) * CS n a b k u (w + 1) = QcZ (a + b - u - w - k) * CS n a b k u w)%Qc.
Proof.
  intros n a b k u w Hn. pose proof (SV_up n k (a - u) w (u - k) (b - w - k) Hn) as E. unfold CS.
  replace (a - (u + 1)) with (a - u - 1) by lia. replace (u + 1 - k) with (u - k + 1) by lia. replace (b - (w + 1) - k) with (b - w - k - 1) by lia.
  replace (a + b - u - w - k) with (a - u + (b - w - k)) by lia. rewrite <- E. replace (u - k + k + 1) with (u + 1) by lia. ring.
Qed.
Lemma CS_down : forall n a b k u w, k < Z.of_nat n ->
  (QcZ (a - u + 1) * CS n a b k (u - 1) w + QcZ (b - w + 1) * CS n a b k u (w - 1) = QcZ (u + w - k) * CS n a b k u w)%Qc.
Proof.
  intros n a b k u w Hn. pose proof (SV_down n k (a - u) w (u - k) (b - w - k) Hn) as E. unfold CS.
  replace (a - (u - 1)) with (a - u + 1) by lia. replace (u - 1 - k) with (u - k - 1) by lia. replace (b - (w - 1) - k) with (b - w - k + 1) by lia.
  replace (u + w - k) with (w + (u - k)) by lia. rewrite <- E. replace (b - w - k + k + 1) with (b - w + 1) by lia. ring.
Qed.

(** The weight of one pair of projections. *)
Definition Wf (a b u w : Z) : Qc := (QF u * QF (a - u) * (QF w * QF (b - w)))%Qc.
Definition cgram (n m : nat) (a b s k k' : Z) : Qc :=
  sumr m 0 (fun u => (Wf a b u (s - u) * (CS n a b k u (s - u) * CS n a b k' u (s - u)))%Qc).
Lemma cgram_sym : forall n m a b s k k', cgram n m a b s k k' = cgram n m a b s k' k.
Proof. intros. apply sumr_ext_in. intros u _. ring. Qed.

Lemma W_u : forall n a b k k' u w,
  (QcZ (u + 1) * (Wf a b u w * (CS n a b k u w * CS n a b k' (u + 1) w)) = QcZ (a - u) * (Wf a b (u + 1) w * (CS n a b k u w * CS n a b k' (u + 1) w)))%Qc.
Proof.
  intros n a b k k' u w. destruct (Z_lt_le_dec u 0) as [L|L]; [rewrite (CS_zero n a b k u) by lia; ring|].
  destruct (Z_lt_le_dec a (u + 1)) as [L'|L']; [rewrite (CS_zero n a b k' (u + 1)) by lia; ring|].
  unfold Wf. rewrite (QF_S u) by lia. rewrite (QF_1d (a - u)) by lia. replace (a - u - 1) with (a - (u + 1)) by lia. ring.
Qed.
Lemma W_w : forall n a b k k' u w,
  (QcZ (w + 1) * (Wf a b u w * (CS n a b k u w * CS n a b k' u (w + 1))) = QcZ (b - w) * (Wf a b u (w + 1) * (CS n a b k u w * CS n a b k' u (w + 1))))%Qc.
Proof.
  intros n a b k k' u w. destruct (Z_lt_le_dec w 0) as [L|L]; [rewrite (CS_zero n a b k u w) by lia; ring|].
  destruct (Z_lt_le_dec b (w + 1)) as [L'|L']; [rewrite (CS_zero n a b k' u (w + 1)) by lia; ring|].
  unfold Wf. rewrite (QF_S w) by lia. rewrite (QF_1d (b - w)) by lia. replace (b - w - 1) with (b - (w + 1)) by lia. ring.
Qed.

(** Raising one state is lowering the other. *)
Lemma cgram_step : forall n m a b s k k', k < Z.of_nat n -> k' < Z.of_nat n -> a < Z.of_nat m ->
  (QcZ (a + b - s + 1 - k') * cgram n m a b (s - 1) k k' = QcZ (s - k) * cgram n m a b s k k')%Qc.
Proof.
  intros n m a b s k k' Hk Hk' Hm. unfold cgram. rewrite <- !sumr_scale.
  set (f := fun u => (QcZ (u + 1) * (Wf a b u (s - 1 - u) * (CS n a b k u (s - 1 - u) * CS n a b k' (u + 1) (s - 1 - u))))%Qc).
  set (g := fun u => (QcZ (s - 1 - u + 1) * (Wf a b u (s - 1 - u) * (CS n a b k u (s - 1 - u) * CS n a b k' u (s - 1 - u + 1))))%Qc).
  transitivity (sumr m 0 f + sumr m 0 g)%Qc.
  - rewrite <- sumr_add. apply sumr_ext_in. intros u _. unfold f, g. pose proof (CS_up n a b k' u (s - 1 - u) Hk') as E.
    replace (a + b - u - (s - 1 - u) - k') with (a + b - s + 1 - k') in E by lia.
    match goal with |- (?c * (?W * (?x * ?y)))%Qc = _ => transitivity (W * (x * (c * y)))%Qc; [ring|] end. rewrite <- E. ring.
  - assert (Ef : sumr m 0 f = sumr m 0 (fun u => f (u - 1))).
    { rewrite WignerOrth.sumr_shift. unfold f at 2 4. rewrite (CS_zero n a b k (0 - 1)) by lia.
      rewrite (CS_zero n a b k' (0 + Z.of_nat m - 1 + 1)) by lia. ring. }
    rewrite Ef, <- sumr_add. apply sumr_ext_in. intros u _. unfold f, g. rewrite W_u, W_w.
    replace (u - 1 + 1) with u by lia. replace (s - 1 - (u - 1)) with (s - u) by lia. replace (s - 1 - u + 1) with (s - u) by lia.
    pose proof (CS_down n a b k u (s - u) Hk) as E. replace (u + (s - u) - k) with (s - k) in E by lia.
    match goal with |- _ = (?c * (?W * (?x * ?y)))%Qc => transitivity (W * ((c * x) * y))%Qc; [|ring] end. rewrite <- E.
    replace (a - (u - 1)) with (a - u + 1) by lia. replace (s - 1 - u) with (s - u - 1) by lia. replace (b - (s - u - 1)) with (b - (s - u) + 1) by lia. ring.
Qed.

Lemma cgram_orth : forall n m a b s k k', k < Z.of_nat n -> k' < Z.of_nat n -> a < Z.of_nat m -> k + k' < a + b + 1 -> k <> k' ->
  cgram n m a b s k k' = 0%Qc.
Proof.
  intros n m a b s k k' Hk Hk' Hm L N.
  pose proof (cgram_step n m a b s k k' Hk Hk' Hm) as E1. pose proof (cgram_step n m a b s k' k Hk' Hk Hm) as E2.
  rewrite !(cgram_sym n m a b _ k' k) in E2. set (x := cgram n m a b s k k') in *. set (y := cgram n m a b (s - 1) k k') in *.
  apply (Qc_cancel (QcZ ((k - k') * (k + k' - a - b - 1)))); [apply QcZ_nz; nia|].
  transitivity (QcZ (a + b - s + 1 - k) * (QcZ (s - k) * x) - QcZ (a + b - s + 1 - k') * (QcZ (s - k') * x))%Qc; [zq; ring|].
  rewrite <- E1, <- E2. ring.
Qed.

(** ** Norms *)

(** Vandermonde: [sum_u (q+u)! (r+K-u)! / (u! (K-u)!)]. *)
Definition vdm (n : nat) (q r K : Z) : Qc := sumr n 0 (fun u => (IF u * IF (K - u) * (QF (q + u) * QF (r + K - u)))%Qc).
Lemma vdm_step : forall n q r K, 0 <= q -> 0 <= r -> 0 <= K -> K + 1 < Z.of_nat n ->
  (QcZ (K + 1) * vdm n q r (K + 1) = QcZ (q + r + K + 2) * vdm n q r K)%Qc.
Proof.
  intros n q r K Hq Hr HK Hn. unfold vdm. rewrite <- !sumr_scale.
  set (G := fun u => (IF (u - 1) * IF (K + 1 - u) * (QF (q + u) * QF (r + K + 1 - u)))%Qc).
  assert (T : sumr n 0 (fun u => (G (u + 1)%Z - G u)%Qc) = 0%Qc).
  { rewrite sumr_tele. unfold G. rewrite (IF_neg (K + 1 - (0 + Z.of_nat n))) by lia. rewrite (IF_neg (0 - 1)) by lia. ring. }
  match goal with |- ?l = ?r => enough ((l + sumr n 0 (fun u => (G (u + 1)%Z - G u)%Qc))%Qc = r) as <- by (rewrite T; ring) end.
  rewrite <- sumr_add. apply sumr_ext_in. intros u Hu. unfold G.
  replace (u + 1 - 1) with u by lia. replace (K + 1 - (u + 1)) with (K - u) by lia. replace (r + K + 1 - (u + 1)) with (r + K - u) by lia.
  replace (r + (K + 1) - u) with (r + K + 1 - u) by lia. rewrite (IF_up u (u - 1)) by lia. rewrite (IF_up (K + 1 - u) (K - u)) by lia.
  destruct (Z_lt_le_dec K u) as [L|L].
  - destruct (Z.eq_dec u (K + 1)) as [->|N]; [|rewrite (IF_neg (K + 1 - u)) by lia; ring].
    replace (K + 1 - (K + 1)) with 0 by lia. rewrite QcZ_0. ring.
  - replace (q + (u + 1)) with (q + u + 1) by lia. rewrite (QF_S (q + u)) by lia. rewrite (QF_1d (r + K + 1 - u)) by lia.
    replace (r + K + 1 - u - 1) with (r + K - u) by lia. zq. ring.
Qed.
Lemma vdm_val : forall n q r K, 0 <= q -> 0 <= r -> Z.of_nat K < Z.of_nat n ->
  (vdm n q r (Z.of_nat K) * (QF (Z.of_nat K) * QF (q + r + 1)) = QF q * QF r * QF (q + r + Z.of_nat K + 1))%Qc.
Proof.
  intros n q r K Hq Hr. induction K as [|K IH]; intros Hn.
  - unfold vdm. rewrite (sumr_single _ _ _ 0) by (try lia; intros z Hz Nz; rewrite (IF_neg (Z.of_nat 0 - z)) by lia; ring).
    change (Z.of_nat 0) with 0. rewrite !Z.add_0_r, !Z.sub_0_r. rewrite IF_pos by lia. rewrite QF_0. field. discriminate.
  - specialize (IH ltac:(lia)). pose proof (vdm_step n q r (Z.of_nat K) Hq Hr ltac:(lia) ltac:(lia)) as E.
    replace (Z.of_nat (S K)) with (Z.of_nat K + 1) by lia. rewrite (QF_S (Z.of_nat K)) by lia.
    replace (q + r + (Z.of_nat K + 1) + 1) with (q + r + Z.of_nat K + 1 + 1) by lia. rewrite (QF_S (q + r + Z.of_nat K + 1)) by lia.
    transitivity ((QcZ (Z.of_nat K + 1) * vdm n q r (Z.of_nat K + 1)) * (QF (Z.of_nat K) * QF (q + r + 1)))%Qc; [ring|]. rewrite E.
    transitivity (QcZ (q + r + Z.of_nat K + 2) * (vdm n q r (Z.of_nat K) * (QF (Z.of_nat K) * QF (q + r + 1))))%Qc; [ring|]. rewrite IH.
    replace (q + r + Z.of_nat K + 1 + 1) with (q + r + Z.of_nat K + 2) by lia. ring.
Qed.

(** The top state: [p = c]. *)
Lemma CS_top : forall n a b k u, 0 <= k -> k <= a -> k <= b -> k < Z.of_nat n ->
  (CS n a b k u (k - u) * CS n a b k u (k - u) = (IF (k - u) * IF u * IF (a - k) * IF (b - k)) * (IF (k - u) * IF u * IF (a - k) * IF (b - k)))%Qc.
Proof.
  intros n a b k u H0 Ha Hb Hn. unfold CS. destruct (Z_lt_le_dec (k - u) 0) as [L|L].
  { rewrite (IF_neg (k - u)) by lia. rewrite SV_zero by lia. ring. }
  destruct (Z_lt_le_dec u 0) as [L'|L']. { rewrite (IF_neg u) by lia. rewrite SV_zero by lia. ring. }
  unfold SV. rewrite (sumr_single _ _ _ (k - u)); [|lia|].
  - unfold Vm. replace (k - (k - u)) with u by lia. replace (k - u - (k - u)) with 0 by lia. replace (a - u - (k - u)) with (a - k) by lia.
    replace (u - k + (k - u)) with 0 by lia. replace (b - (k - u) - k + (k - u)) with (b - k) by lia.
    assert (I0 : IF 0 = 1%Qc) by (rewrite IF_pos by lia; rewrite QF_0; reflexivity). rewrite I0.
    match goal with |- (sgn ?z * ?p * ?q * (sgn ?z * ?p * ?q))%Qc = _ => transitivity ((sgn z * sgn z) * (p * q * (p * q)))%Qc; [ring|] end. rewrite sgn_sq. ring.
  - intros t Ht Nt. unfold Vm. destruct (Z_lt_le_dec (k - u) t); [rewrite (IF_neg (k - u - t)) by lia; ring|].
    rewrite (IF_neg (u - k + t)) by lia. ring.
Qed.

Lemma cgram_top : forall n m a b k, 0 <= k -> k <= a -> k <= b -> k < Z.of_nat n -> a < Z.of_nat m ->
  (cgram n m a b k k k * (QcZ (a + b - 2 * k + 1) * D k (a - k) (b - k) (a + b - k) * QF (a + b - 2 * k)) = 1)%Qc.
Proof.
  intros n m a b k H0 Ha Hb Hn Hm. unfold cgram.
  set (c := (IF (a - k) * IF (b - k) * (IF (a - k) * IF (b - k)))%Qc).
  rewrite (sumr_ext_in _ _ _ (fun u => (c * (IF (k - u) * IF (k - (k - u)) * (QF (a - k + (k - u)) * QF (b - k + k - (k - u)))))%Qc)).
  2:{ intros u Hu. rewrite CS_top by lia. unfold Wf, c. replace (k - (k - u)) with u by lia. replace (a - k + (k - u)) with (a - u) by lia.
      replace (b - k + k - (k - u)) with (b - (k - u)) by lia.
      destruct (Z_lt_le_dec (k - u) 0) as [L|L]; [rewrite (IF_neg (k - u)) by lia; ring|].
      rewrite (IF_pos u), (IF_pos (k - u)) by lia. field. split; apply QF_nz. }
  rewrite WignerOrth.sumr_scale.
  assert (R : sumr m 0 (fun u => (IF (k - u) * IF (k - (k - u)) * (QF (a - k + (k - u)) * QF (b - k + k - (k - u))))%Qc) = vdm m (a - k) (b - k) k).
  { unfold vdm. set (f := fun u => (IF u * IF (k - u) * (QF (a - k + u) * QF (b - k + k - u)))%Qc).
    change (sumr m 0 (fun u => f (k - u)) = sumr m 0 f).
    transitivity (sum_range 0 k f).
    - symmetry. rewrite (sum_range_rev 0 k k). rewrite Z.sub_diag, Z.sub_0_r. apply sum_range_window; try lia; auto.
      intros z Hz Hout. unfold f. rewrite (IF_neg (k - z)) by lia. ring.
    - apply sum_range_window; try lia; auto. intros z Hz Hout. unfold f. rewrite (IF_neg (k - z)) by lia. ring. }
  rewrite R. pose proof (vdm_val m (a - k) (b - k) (Z.to_nat k) ltac:(lia) ltac:(lia) ltac:(lia)) as E. rewrite Z2Nat.id in E by lia.
  replace (a - k + (b - k) + k + 1) with (a + b - k + 1) in E by lia. replace (a - k + (b - k) + 1) with (a + b - 2 * k + 1) in E by lia.
  rewrite (QF_S (a + b - 2 * k)) in E by lia. unfold c, D. rewrite !IF_pos by lia.
  assert (E2 : vdm m (a - k) (b - k) k = (QF (a - k) * QF (b - k) * QF (a + b - k + 1) / (QF k * (QcZ (a + b - 2 * k + 1) * QF (a + b - 2 * k))))%Qc).
  { rewrite <- E. field. repeat split; try apply QF_nz. apply QcZ_nz. lia. }
  rewrite E2. field. repeat split; try apply QF_nz. apply QcZ_nz. lia.
Qed.

Lemma cgram_norm : forall n m a b k i, 0 <= k -> k <= a -> k <= b -> k < Z.of_nat n -> a < Z.of_nat m -> k + Z.of_nat i <= a + b - k ->
  (cgram n m a b (k + Z.of_nat i) k k * (QcZ (a + b - 2 * k + 1) * D k (a - k) (b - k) (a + b - k) * (QF (Z.of_nat i) * QF (a + b - 2 * k - Z.of_nat i))) = 1)%Qc.
Proof.
  intros n m a b k i H0 Ha Hb Hn Hm. induction i as [|i IH]; intros Hi.
  - rewrite <- (cgram_top n m a b k H0 Ha Hb Hn Hm). change (Z.of_nat 0) with 0. rewrite Z.add_0_r, Z.sub_0_r, QF_0. ring.
  - specialize (IH ltac:(lia)). pose proof (cgram_step n m a b (k + Z.of_nat (S i)) k k Hn Hn Hm) as E.
    replace (k + Z.of_nat (S i) - 1) with (k + Z.of_nat i) in E by lia. replace (k + Z.of_nat (S i) - k) with (Z.of_nat i + 1) in E by lia.
    replace (a + b - (k + Z.of_nat (S i)) + 1 - k) with (a + b - 2 * k - Z.of_nat i) in E by lia.
    replace (Z.of_nat (S i)) with (Z.of_nat i + 1) in * by lia. rewrite <- IH. clear IH. rewrite (QF_S (Z.of_nat i)) by lia.
    rewrite (QF_1d (a + b - 2 * k - Z.of_nat i)) by lia. replace (a + b - 2 * k - Z.of_nat i - 1) with (a + b - 2 * k - (Z.of_nat i + 1)) by lia.
    match goal with |- (?g * (?x * ?y * (?c * ?p * ?q)))%Qc = _ => transitivity ((c * g) * (x * y * (p * q)))%Qc; [ring|] end. rewrite <- E. ring.
Qed.

(** ** In terms of the symbols *)

Lemma w3_sum_CS : forall N a b c m n k u w, a + b - c = 2 * k -> a + m = 2 * u -> b + n = 2 * w -> k < Z.of_nat N -> w3_sum a b c m n = CS N a b k u w.
Proof.
  intros N a b c m n k u w Hk Hu Hw HN. rewrite (w3_sum_V a b c m n k (a - u) w (u - k) (b - w - k)) by lia.
  unfold CS, SV. apply sum_range_window; [lia|lia| |].
  - intros t Ht. unfold Vt, Vm. rewrite !IF_pos by lia. field. repeat split; apply QF_nz.
  - intros t Ht Hout. unfold Vm. assert (K : t < - (u - k) \/ t < - (b - w - k) \/ k < t \/ a - u < t \/ w < t) by lia.
    destruct K as [K|[K|[K|[K|K]]]]; [rewrite (IF_neg (u - k + t)) by lia|rewrite (IF_neg (b - w - k + t)) by lia
      |rewrite (IF_neg (k - t)) by lia|rewrite (IF_neg (a - u - t)) by lia|rewrite (IF_neg (w - t)) by lia]; ring.
Qed.

(** The weight of one pair of projections. *)
Definition wp (a b m n : Z) : Qc := if proj_ok a m && proj_ok b n then QcZ (hfac (a + m) * hfac (a - m) * (hfac (b + n) * hfac (b - n))) else 0%Qc.
Definition wc (a b c p : Z) : Qc := (QcZ (c + 1) * delta2 a b c * QcZ (hfac (c + p) * hfac (c - p)))%Qc.

Theorem w3_orth : forall a b c c' p G, tri a b c = true -> tri a b c' = true -> proj_ok c p = true -> proj_ok c' p = true ->
  NoDup G -> (forall m, proj_ok a m = true -> In m G) ->
  sums (fun m => (wp a b m (- m - p) * (w3_sum a b c m (- m - p) * w3_sum a b c' m (- m - p)))%Qc) G = if c =? c' then (/ wc a b c p)%Qc else 0%Qc.
Proof.
  intros a b c c' p G T T' P P' ND HG.
  pose proof (tri_elim _ _ _ T) as [x [y [k [Hx [Hy [Hk [Ea [Eb Ec]]]]]]]]. pose proof (tri_elim _ _ _ T') as [x' [y' [k' [Hx' [Hy' [Hk' [Ea' [Eb' Ec']]]]]]]].
  pose proof (proj_elim _ _ P) as [i [j [Hi [Hj [Ei Ej]]]]]. pose proof (proj_elim _ _ P') as [i' [j' [Hi' [Hj' [Ei' Ej']]]]].
  set (s := k + j). set (N := Z.to_nat (a + b + 1)). set (M := Z.to_nat (a + 1)).
  rewrite (sums_supp Z.eq_dec _ G (map (fun u => 2 * u - a) (zr M 0)) ND).
  - rewrite sums_map, <- sumr_sums. transitivity (cgram N M a b s k k').
    + unfold cgram. apply sumr_ext_in. intros u Hu. unfold wp.
      rewrite (w3_sum_CS N a b c _ _ k u (s - u)), (w3_sum_CS N a b c' _ _ k' u (s - u)) by lia.
      destruct (proj_ok b (- (2 * u - a) - p)) eqn:Pb.
      * apply proj_elim in Pb as [w [w' [Hw [Hw' [Ew Ew']]]]]. rewrite (proj_intro a (2 * u - a) u (a - u)) by lia. cbn [andb].
        unfold Wf, hfac. rewrite (half (a + (2 * u - a)) u), (half (a - (2 * u - a)) (a - u)), (half (b + (- (2 * u - a) - p)) (s - u)), (half (b - (- (2 * u - a) - p)) (b - (s - u))) by lia.
        unfold QF. rewrite !QcZ_mul. reflexivity.
      * rewrite andb_false_r. rewrite (CS_zero N a b k); [ring|]. destruct (Z_lt_le_dec (s - u) 0); [lia|]. destruct (Z_lt_le_dec b (s - u)); [lia|].
        rewrite (proj_intro b _ (s - u) (b - (s - u))) in Pb by lia. discriminate.
    + destruct (Z.eqb_spec c c') as [E|E].
      * assert (k' = k) by lia. subst k'. pose proof (cgram_norm N M a b k (Z.to_nat j) ltac:(lia) ltac:(lia) ltac:(lia) ltac:(lia) ltac:(lia) ltac:(lia)) as Q.
        rewrite Z2Nat.id in Q by lia. unfold wc. rewrite (delta2_D a b c k y x) by lia. unfold hfac.
        rewrite (half (c + p) i), (half (c - p) j), QcZ_mul by lia. fold (QF i). fold (QF j).
        replace (a + b - 2 * k + 1) with (c + 1) in Q by lia. replace (a - k) with y in Q by lia. replace (b - k) with x in Q by lia.
        replace (a + b - k) with (k + y + x) in Q by lia. replace (a + b - 2 * k - j) with i in Q by lia. fold s in Q.
        assert (Nc : QcZ (c + 1) <> 0%Qc) by (apply QcZ_nz; lia).
        assert (Nd : D k y x (k + y + x) <> 0%Qc) by apply D_nz.
        transitivity (cgram N M a b s k k * (QcZ (c + 1) * D k y x (k + y + x) * (QF j * QF i)) * / (QcZ (c + 1) * D k y x (k + y + x) * (QF i * QF j)))%Qc.
        -- field. repeat split; auto; apply QF_nz.
        -- rewrite Q. ring.
      * apply cgram_orth; lia.
  - apply FinFun.Injective_map_NoDup; [|apply zr_NoDup]. intros u v. lia.
  - intros m I O. unfold wp. destruct (proj_ok a m) eqn:Pm; [|cbn [andb]; ring]. exfalso. apply O, in_map_iff.
    apply proj_elim in Pm as [u [v Pm]]. exists u. rewrite zr_In. unfold M. lia.
  - intros m I O. unfold wp. destruct (proj_ok a m) eqn:Pm; [|cbn [andb]; ring]. exfalso. apply O. now apply HG.
Qed.
