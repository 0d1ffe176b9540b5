(** Proofs about the energy formulas, with exact numbers. *)
From Coq Require Import List Bool ZArith QArith Qcanon Lia Sorted String Field.
From Verif Require Import Base PyStr Util Parse Term Num Wigner Hyperfine.
Import ListNotations.

(** ** Ranges *)

Lemma steps_In : forall n lo f, In f (steps n lo) <-> exists k, (0 <= k < Z.of_nat n)%Z /\ f = (lo + 2 * k)%Z.
Proof.
  induction n; intros lo f; cbn [steps In].
  - split; [tauto|]. intros [k [H _]]. lia.
  - rewrite IHn. split.
    + intros [<-|[k [H ->]]]; [exists 0%Z; lia|exists (k + 1)%Z; lia].
    + intros [k [H ->]]. destruct (Z.eq_dec k 0); [left; lia|right; exists (k - 1)%Z; lia].
Qed.

Lemma steps_sorted : forall n lo, StronglySorted Z.lt (steps n lo).
Proof.
  induction n; intros; cbn [steps]; constructor; auto.
  apply Forall_forall. intros x H. apply steps_In in H as [k [H ->]]. lia.
Qed.

Lemma steps_length : forall n lo, List.length (steps n lo) = n.
Proof. induction n; intros; cbn; auto. Qed.

Lemma steps_nth : forall n lo k, (k < n)%nat -> nth_error (steps n lo) k = Some (lo + 2 * Z.of_nat k)%Z.
Proof.
  induction n; intros lo k H; [lia|]. destruct k; cbn [steps nth_error].
  - f_equal. lia.
  - rewrite IHn by lia. f_equal. lia.
Qed.

Lemma F_range_steps : forall J I, (0 <= J)%Z -> (0 <= I)%Z ->
  F_range J I = steps (Z.to_nat (Z.min J I + 1)) (Z.abs (J - I)).
Proof.
  intros J I HJ HI. unfold F_range, arange. f_equal. f_equal.
  replace (J + I + 2 - Z.abs (J - I) + 1)%Z with ((Z.min J I + 1) * 2 + 1)%Z by lia.
  rewrite Z.div_add_l by lia. change (1 / 2)%Z with 0%Z. lia.
Qed.

Lemma mF_range_steps : forall F, mF_range F = steps (Z.to_nat (F + 1)) (- F).
Proof.
  intros F. unfold mF_range, arange. f_equal. f_equal.
  replace (F + 2 - - F + 1)%Z with ((F + 1) * 2 + 1)%Z by lia.
  rewrite Z.div_add_l by lia. change (1 / 2)%Z with 0%Z. lia.
Qed.

Lemma even_double : forall z, Z.even z = true <-> exists k, z = (2 * k)%Z.
Proof. intros. now rewrite Z.even_spec. Qed.

Lemma F_range_In : forall J I F, (0 <= J)%Z -> (0 <= I)%Z -> (In F (F_range J I) <-> tri J I F = true).
Proof.
  intros J I F HJ HI. rewrite F_range_steps, steps_In by auto. unfold tri.
  rewrite !andb_true_iff, !Z.leb_le, even_double. split.
  - intros [k [Hk ->]]. repeat split; try lia.
    exists (Z.max J I + k)%Z. lia.
  - intros [[H1 H2] [k Hk]]. exists (k - Z.max J I)%Z. lia.
Qed.

Lemma mF_range_In : forall F m, (In m (mF_range F) <-> (- F <= m <= F)%Z /\ Z.even (F + m) = true).
Proof.
  intros F m. rewrite mF_range_steps, steps_In, even_double. split.
  - intros [k [Hk ->]]. split; [lia|exists k; lia].
  - intros [H [k Hk]]. exists k. lia.
Qed.

Lemma F_range_sorted : forall J I, StronglySorted Z.lt (F_range J I).
Proof. intros. apply steps_sorted. Qed.
Lemma mF_range_sorted : forall F, StronglySorted Z.lt (mF_range F).
Proof. intros. apply steps_sorted. Qed.
Lemma mF_range_length : forall F, (0 <= F)%Z -> Z.of_nat (List.length (mF_range F)) = (F + 1)%Z.
Proof. intros. rewrite mF_range_steps, steps_length. lia. Qed.

Fixpoint zsum (l : list Z) : Z := match l with [] => 0 | x :: l' => x + zsum l' end.

Lemma zsum_steps : forall n lo, zsum (map (fun F => (F + 1)%Z) (steps n lo)) = (Z.of_nat n * (lo + Z.of_nat n))%Z.
Proof. induction n; intros; cbn [steps map zsum]; [lia|]. rewrite IHn. lia. Qed.

Lemma zeeman_count : forall J I, (0 <= J)%Z -> (0 <= I)%Z ->
  zsum (map (fun F => Z.of_nat (List.length (mF_range F))) (F_range J I)) = ((I + 1) * (J + 1))%Z.
Proof.
  intros J I HJ HI.
  rewrite (map_ext_in _ (fun F => F + 1)%Z).
  2:{ intros F H. apply mF_range_length. apply F_range_In in H; auto. unfold tri in H.
      rewrite !andb_true_iff, !Z.leb_le in H. lia. }
  rewrite F_range_steps, zsum_steps by auto. lia.
Qed.

(** ** Halves as exact numbers *)

Local Open Scope Qc_scope.

Ltac qc := apply Qc_is_canon; cbn.

Lemma Q2Qc_plus : forall a b : Q, Q2Qc a + Q2Qc b = Q2Qc (a + b).
Proof. intros. apply Qc_is_canon. unfold Qcplus. cbn [this Q2Qc]. rewrite !Qred_correct. reflexivity. Qed.
Lemma Q2Qc_mult : forall a b : Q, Q2Qc a * Q2Qc b = Q2Qc (a * b).
Proof. intros. apply Qc_is_canon. unfold Qcmult. cbn [this Q2Qc]. rewrite !Qred_correct. reflexivity. Qed.
Lemma Q2Qc_opp : forall a : Q, - Q2Qc a = Q2Qc (- a).
Proof. intros. apply Qc_is_canon. unfold Qcopp. cbn [this Q2Qc]. rewrite !Qred_correct. reflexivity. Qed.
Lemma Q2Qc_eq : forall a b : Q, (a == b)%Q -> Q2Qc a = Q2Qc b.
Proof. intros. apply Qc_is_canon. cbn [this Q2Qc]. now rewrite !Qred_correct. Qed.

Lemma qch_plus : forall a b, qch (a + b) = qch a + qch b.
Proof. intros. unfold qch. rewrite Q2Qc_plus. apply Q2Qc_eq. unfold Qeq. cbn [Qnum Qden Qplus Qmult Qopp]. lia. Qed.
Lemma qch_opp : forall a, qch (- a) = - qch a.
Proof. intros. unfold qch. rewrite Q2Qc_opp. apply Q2Qc_eq. unfold Qeq. cbn [Qnum Qden Qplus Qmult Qopp]. lia. Qed.
Lemma qch_minus : forall a b, qch (a - b) = qch a - qch b.
Proof. intros. unfold Z.sub, Qcminus. now rewrite qch_plus, qch_opp. Qed.
Lemma qch_2 : qch 2 = 1.
Proof. apply Qc_is_canon. reflexivity. Qed.
Lemma qch_0 : qch 0 = 0.
Proof. apply Qc_is_canon. reflexivity. Qed.
Lemma qci_half : forall z, qci z = qch (2 * z).
Proof. intros. apply Q2Qc_eq. unfold Qeq. cbn [Qnum Qden Qplus Qmult Qopp]. lia. Qed.
Lemma qch_succ : forall z, qch (z + 2) = qch z + 1.
Proof. intros. now rewrite qch_plus, qch_2. Qed.
Lemma qch_abs_sq : forall z, qch (Z.abs z) * qch (Z.abs z) = qch z * qch z.
Proof.
  intros. destruct (Z.abs_eq_or_opp z) as [->| ->]; auto. rewrite qch_opp. ring.
Qed.
Lemma qch_inj0 : forall z, qch z = 0 -> z = 0%Z.
Proof.
  intros z H. apply (f_equal this) in H. cbn [this qch Q2Qc] in H.
  assert (E : (Qred (z # 2) == 0)%Q) by (rewrite H; reflexivity).
  rewrite Qred_correct in E. unfold Qeq in E. cbn [Qnum Qden] in E. lia.
Qed.
Lemma qch_neq0 : forall z, z <> 0%Z -> qch z <> 0.
Proof. intros z H E. apply H. now apply qch_inj0. Qed.
Lemma qch_lt : forall a b, (a < b)%Z -> qch a < qch b.
Proof.
  intros. unfold Qclt. cbn [this qch Q2Qc]. rewrite !Qred_correct. unfold Qlt. cbn [Qnum Qden]. lia.
Qed.
Lemma qch_le : forall a b, (a <= b)%Z -> qch a <= qch b.
Proof.
  intros. unfold Qcle. cbn [this qch Q2Qc]. rewrite !Qred_correct. unfold Qle. cbn [Qnum Qden]. lia.
Qed.
Lemma qch_half_inj : forall a b, qch a = qch b -> a = b.
Proof.
  intros a b H. cut ((a - b)%Z = 0%Z); [lia|]. apply qch_inj0. rewrite qch_minus, H. ring.
Qed.

(** Literals as rational constants: every literal is written by 1. *)
Lemma lit2 : Q2Qc 2 = 1 + 1. Proof. apply Qc_is_canon. reflexivity. Qed.
Lemma lit3 : Q2Qc 3 = 1 + 1 + 1. Proof. apply Qc_is_canon. reflexivity. Qed.
Lemma lit5 : Q2Qc 5 = 1 + 1 + 1 + 1 + 1. Proof. apply Qc_is_canon. reflexivity. Qed.
Lemma lit10 : Q2Qc 10 = (1 + 1) * (1 + 1 + 1 + 1 + 1). Proof. apply Qc_is_canon. reflexivity. Qed.
Lemma lit20 : Q2Qc 20 = (1 + 1) * (1 + 1) * (1 + 1 + 1 + 1 + 1). Proof. apply Qc_is_canon. reflexivity. Qed.
Lemma lit12 : Q2Qc (1 # 2) = 1 / (1 + 1). Proof. apply Qc_is_canon. reflexivity. Qed.
Lemma lit32 : Q2Qc (3 # 2) = (1 + 1 + 1) / (1 + 1). Proof. apply Qc_is_canon. reflexivity. Qed.
Lemma lit1 : Q2Qc 1 = 1. Proof. apply Qc_is_canon. reflexivity. Qed.
Lemma lit0 : Q2Qc 0 = 0. Proof. apply Qc_is_canon. reflexivity. Qed.

Lemma two_neq0 : 1 + 1 <> 0 :> Qc.
Proof. intros H. discriminate (f_equal this H). Qed.
Lemma three_neq0 : 1 + 1 + 1 <> 0 :> Qc.
Proof. intros H. discriminate (f_equal this H). Qed.

Definition sumQ (l : list Qc) : Qc := fold_right Qcplus 0 l.

Lemma sumQ_cons : forall x l, sumQ (x :: l) = x + sumQ l.
Proof. reflexivity. Qed.
Lemma sumQ_nil : sumQ [] = 0.
Proof. reflexivity. Qed.

Lemma sumQ_app : forall a b, sumQ (a ++ b) = sumQ a + sumQ b.
Proof.
  induction a; intros; cbn [app]; rewrite ?sumQ_nil, ?sumQ_cons; [ring|]. rewrite IHa. ring.
Qed.

(** Telescoping over a range of half-integers. *)
Lemma sum_steps_telescope : forall (g T : Qc -> Qc),
  (forall F, T (F + 1) - T F = g F) ->
  forall n lo, sumQ (map (fun f => g (qch f)) (steps n lo)) = T (qch (lo + 2 * Z.of_nat n)) - T (qch lo).
Proof.
  intros g T H. induction n; intros lo.
  - replace (lo + 2 * Z.of_nat 0)%Z with lo by lia. cbn [steps map]. rewrite sumQ_nil. ring.
  - cbn [steps map]. rewrite sumQ_cons, IHn.
    replace (lo + 2 + 2 * Z.of_nat n)%Z with (lo + 2 * Z.of_nat (S n))%Z by lia.
    rewrite <- H, qch_succ. ring.
Qed.

(** ** Centre of gravity *)

Ltac qeq := match goal with |- @eq _ ?a ?b => change (@eq Qc a b) end.
Ltac lits := unfold nhalf, nint in *; cbn [num nadd nsub nmul ndiv nopp nofQ Exact] in *;
  fold qch in *; rewrite ?lit2, ?lit3, ?lit5, ?lit10, ?lit20, ?lit12, ?lit32, ?lit1, ?lit0 in *.

(** [x = (F(F+1) - J(J+1) - I(I+1)) / 2]. *)
Definition xdot (I J F : Qc) : Qc := (F * (F + 1) - J * (J + 1) - I * (I + 1)) / (1 + 1).

Lemma IdotJ_exact : forall I J F : Qc, IdotJ Exact I J F = xdot I J F.
Proof. intros. unfold IdotJ, xdot. lits. field. apply two_neq0. Qed.

Definition quad (I J x : Qc) : Qc :=
  (1 + 1 + 1) * (x * x) + (1 + 1 + 1) / (1 + 1) * x - I * (I + 1) * J * (J + 1).
Definition oct (I J x : Qc) : Qc :=
  (1 + 1) * (1 + 1 + 1 + 1 + 1) * (x * x * x) + (1 + 1) * (1 + 1) * (1 + 1 + 1 + 1 + 1) * (x * x)
  + (1 + 1) * x * (- (1 + 1 + 1) * I * (I + 1) * J * (J + 1) + I * (I + 1) + J * (J + 1) + (1 + 1 + 1))
  - (1 + 1 + 1 + 1 + 1) * I * (I + 1) * J * (J + 1).

(** The constants in front of the quadrupole and octupole polynomials. *)
Definition cB (i j : Z) (B : Qc) : Qc :=
  if (j <=? 1)%Z || (i <=? 1)%Z then 0
  else B / ((1 + 1) * qch i * ((1 + 1) * qch i - 1) * qch j * ((1 + 1) * qch j - 1)).
Definition cC (i j : Z) (C : Qc) : Qc :=
  if (j <=? 2)%Z || (i <=? 2)%Z then 0
  else C / (qch i * (qch i - 1) * qch j * (qch j - 1) * ((1 + 1) * qch j - 1)).

Lemma hf_shift_exact : forall i j f A B C,
  hf_shift Exact i j f A B C =
  A * xdot (qch i) (qch j) (qch f) + cB i j B * quad (qch i) (qch j) (xdot (qch i) (qch j) (qch f))
  + cC i j C * oct (qch i) (qch j) (xdot (qch i) (qch j) (qch f)).
Proof.
  intros. unfold hf_shift, FE2, FM3, cB, cC, quad, oct.
  destruct ((j <=? 1)%Z || (i <=? 1)%Z), ((j <=? 2)%Z || (i <=? 2)%Z);
    rewrite ?IdotJ_exact; lits; fold (qch i) (qch j) (qch f); rewrite ?IdotJ_exact; unfold Qcdiv; ring.
Qed.

(** Antiderivatives of [(2F+1) * y^k] with [y = F(F+1)]. *)
Definition T1 (F : Qc) : Qc := F * F * (F * F - 1) / (1 + 1).
Definition T2 (F : Qc) : Qc := F * F * (F * F - 1) * (F * F - 1) / (1 + 1 + 1).
Definition T3 (F : Qc) : Qc :=
  (F * F * (F * F - 1) * (F * F) * (F * F) - ((1 + 1) * (1 + 1 + 1) + 1) * T2 F - (1 + 1) * T1 F) / ((1 + 1) * (1 + 1)).

Definition poly (c0 c1 c2 c3 y : Qc) : Qc := c0 + c1 * y + c2 * (y * y) + c3 * (y * y * y).
Definition Tpoly (c0 c1 c2 c3 F : Qc) : Qc := c0 * (F * F) + c1 * T1 F + c2 * T2 F + c3 * T3 F.

Ltac qcne := repeat split; try apply two_neq0; try apply three_neq0;
  try (let H := fresh in intro H; discriminate (f_equal this H)).

Lemma Tpoly_step : forall c0 c1 c2 c3 F,
  Tpoly c0 c1 c2 c3 (F + 1) - Tpoly c0 c1 c2 c3 F = ((1 + 1) * F + 1) * poly c0 c1 c2 c3 (F * (F + 1)).
Proof. intros. unfold Tpoly, poly, T3, T2, T1. field. qcne. Qed.

(** The weighted sum of any cubic of [y] over the levels of a manifold. *)
Lemma manifold_sum : forall c0 c1 c2 c3 i j, (0 <= i)%Z -> (0 <= j)%Z ->
  sumQ (map (fun f => ((1 + 1) * qch f + 1) * poly c0 c1 c2 c3 (qch f * (qch f + 1))) (F_range j i))
  = Tpoly c0 c1 c2 c3 (qch i + qch j + 1) - Tpoly c0 c1 c2 c3 (qch j - qch i).
Proof.
  intros c0 c1 c2 c3 i j Hi Hj. rewrite F_range_steps by auto.
  rewrite (sum_steps_telescope (fun F => ((1 + 1) * F + 1) * poly c0 c1 c2 c3 (F * (F + 1))) (Tpoly c0 c1 c2 c3))
    by apply Tpoly_step.
  replace (Z.abs (j - i) + 2 * Z.of_nat (Z.to_nat (Z.min j i + 1)))%Z with (i + j + 2)%Z by lia.
  rewrite qch_succ, qch_plus.
  assert (E : Tpoly c0 c1 c2 c3 (qch (Z.abs (j - i))) = Tpoly c0 c1 c2 c3 (qch j - qch i)).
  { rewrite <- qch_minus. unfold Tpoly, T3, T2, T1. now rewrite !qch_abs_sq. }
  now rewrite E.
Qed.

Lemma centre_of_gravity : forall i j A B C, (0 <= i)%Z -> (0 <= j)%Z ->
  sumQ (map (fun f => ((1 + 1) * qch f + 1) * hf_shift Exact i j f A B C) (F_range j i)) = 0.
Proof.
  intros i j A B C Hi Hj.
  set (I := qch i). set (J := qch j). set (b := cB i j B). set (c := cC i j C).
  set (k := J * (J + 1) + I * (I + 1)). set (K := I * (I + 1) * J * (J + 1)).
  set (h := 1 / (1 + 1)).
  (* coefficients of the polynomial in y *)
  set (o1 := (1 + 1) * (- (1 + 1 + 1) * K + k + (1 + 1 + 1))).
  set (t5 := (1 + 1 + 1 + 1 + 1)).
  set (p1 := A + b * (1 + 1 + 1) * h + c * o1). set (p2 := b * (1 + 1 + 1) + c * (1 + 1) * (1 + 1) * t5).
  set (p3 := c * (1 + 1) * t5). set (p0 := - b * K - c * t5 * K).
  set (c3 := p3 * h * h * h).
  set (c2 := p2 * h * h - (1 + 1 + 1) * k * p3 * h * h * h).
  set (c1 := p1 * h - (1 + 1) * k * p2 * h * h + (1 + 1 + 1) * k * k * p3 * h * h * h).
  set (c0 := p0 - p1 * h * k + p2 * h * h * k * k - p3 * h * h * h * k * k * k).
  rewrite (map_ext _ (fun f => ((1 + 1) * qch f + 1) * poly c0 c1 c2 c3 (qch f * (qch f + 1)))).
  2:{ intros f. rewrite hf_shift_exact. fold I J b c.
      qeq.
      unfold poly, c0, c1, c2, c3, p0, p1, p2, p3, o1, h, K, k, quad, oct, xdot, t5. field. qcne. }
  rewrite manifold_sum by auto. fold I J.
  unfold Tpoly, T3, T2, T1, c0, c1, c2, c3, p0, p1, p2, p3, o1, h, K, k, t5. field. qcne.
Qed.

(** ** Interval rule and normalisation *)

Lemma hf_shift_A : forall i j f A, hf_shift Exact i j f A 0 0 = A * xdot (qch i) (qch j) (qch f).
Proof.
  intros. rewrite hf_shift_exact.
  replace (cB i j 0) with 0 by (unfold cB, Qcdiv; destruct ((j <=? 1)%Z || (i <=? 1)%Z); qeq; ring).
  replace (cC i j 0) with 0 by (unfold cC, Qcdiv; destruct ((j <=? 2)%Z || (i <=? 2)%Z); qeq; ring). qeq; ring.
Qed.

Lemma interval_rule : forall i j f A,
  hf_shift Exact i j f A 0 0 - hf_shift Exact i j (f - 2) A 0 0 = A * qch f.
Proof.
  intros. rewrite !hf_shift_A. rewrite qch_minus, qch_2. unfold xdot. qeq; field. qcne.
Qed.

Lemma qch_pred_neq0 : forall z, z <> 2%Z -> qch z - 1 <> 0.
Proof. intros z H E. apply H. rewrite <- qch_2, <- qch_minus in E. apply qch_inj0 in E. lia. Qed.
Lemma qch_dpred_neq0 : forall z, z <> 1%Z -> (1 + 1) * qch z - 1 <> 0.
Proof.
  intros z H E. apply H. replace ((1 + 1) * qch z - 1) with (qch (2 * z - 2)) in E.
  - apply qch_inj0 in E. lia.
  - replace (2 * z - 2)%Z with (z + z - 2)%Z by lia. rewrite qch_minus, qch_plus, qch_2. qeq; ring.
Qed.

Lemma stretched_shift : forall i j A B C, (0 <= i)%Z -> (0 <= j)%Z ->
  hf_shift Exact i j (i + j) A B C =
  A * (qch i * qch j)
  + (if (2 <=? i)%Z && (2 <=? j)%Z then B / ((1 + 1) * (1 + 1)) else 0)
  + (if (3 <=? i)%Z && (3 <=? j)%Z then C * ((1 + 1) * qch i - 1) else 0).
Proof.
  intros i j A B C Hi Hj. rewrite hf_shift_exact.
  replace (xdot (qch i) (qch j) (qch (i + j))) with (qch i * qch j)
    by (rewrite qch_plus; unfold xdot; qeq; field; qcne).
  f_equal; [f_equal|].
  - unfold cB. destruct (Z.leb_spec j 1), (Z.leb_spec i 1), (Z.leb_spec 2 i), (Z.leb_spec 2 j); try lia; cbn [orb andb]; try (qeq; ring).
    unfold quad. qeq; field. qcne; try (apply qch_neq0; lia); apply qch_dpred_neq0; lia.
  - unfold cC. destruct (Z.leb_spec j 2), (Z.leb_spec i 2), (Z.leb_spec 3 i), (Z.leb_spec 3 j); try lia; cbn [orb andb]; try (qeq; ring).
    unfold oct. qeq; field. qcne; try (apply qch_neq0; lia); try (apply qch_pred_neq0; lia); apply qch_dpred_neq0; lia.
Qed.

(** ** g-factors *)

Lemma gF_zero : forall i j g, compute_gF Exact i j 0 g = 0.
Proof. intros. unfold compute_gF. rewrite Z.eqb_refl. lits. reflexivity. Qed.

Lemma gF_exact : forall i j f g, f <> 0%Z ->
  compute_gF Exact i j f g =
  g * (qch f * (qch f + 1) + qch j * (qch j + 1) - qch i * (qch i + 1)) / ((1 + 1) * qch f * (qch f + 1)).
Proof.
  intros i j f g H. unfold compute_gF. destruct (Z.eqb_spec f 0); [easy|]. lits. fold (qch i) (qch j) (qch f). reflexivity.
Qed.

Lemma qch_succ_neq0 : forall z, z <> (-2)%Z -> qch z + 1 <> 0.
Proof. intros z H E. apply H. rewrite <- qch_succ in E. apply qch_inj0 in E. lia. Qed.

Lemma gF_no_spin : forall j g, (0 < j)%Z -> compute_gF Exact 0 j j g = g.
Proof.
  intros j g H. rewrite gF_exact by lia. rewrite qch_0. qeq; field. qcne;
  try (apply qch_neq0; lia); try (apply qch_succ_neq0; lia).
Qed.

Lemma gF_stretched : forall i j g, (0 <= i)%Z -> (0 <= j)%Z -> (0 < i + j)%Z ->
  qch (i + j) * compute_gF Exact i j (i + j) g = qch j * g.
Proof.
  intros i j g Hi Hj H. rewrite gF_exact by lia.
  assert (H1 : qch (i + j) <> 0) by (apply qch_neq0; lia).
  assert (H2 : qch (i + j) + 1 <> 0) by (apply qch_succ_neq0; lia).
  rewrite qch_plus in *. qeq; field. qcne; assumption.
Qed.

(** [F(F+1) gF], also for F = 0. *)
Lemma gF_moment : forall i j f g, (0 <= i)%Z -> (0 <= j)%Z -> In f (F_range j i) ->
  qch f * (qch f + 1) * compute_gF Exact i j f g =
  g * (qch f * (qch f + 1) + qch j * (qch j + 1) - qch i * (qch i + 1)) / (1 + 1).
Proof.
  intros i j f g Hi Hj Hf. apply F_range_In in Hf; auto. unfold tri in Hf.
  rewrite !andb_true_iff, !Z.leb_le in Hf. destruct (Z.eq_dec f 0) as [->|Hn].
  - rewrite gF_zero, qch_0. assert (i = j) by lia. subst. qeq; field. qcne.
  - rewrite gF_exact by auto. qeq; field. qcne; try (apply qch_neq0; lia); try (apply qch_succ_neq0; lia).
Qed.

Lemma gF_sum : forall i j g, (0 <= i)%Z -> (0 <= j)%Z ->
  sumQ (map (fun f => ((1 + 1) * qch f + 1) * (qch f * (qch f + 1)) * compute_gF Exact i j f g) (F_range j i))
  = g * qch j * (qch j + 1) * ((1 + 1) * qch i + 1) * ((1 + 1) * qch j + 1).
Proof.
  intros i j g Hi Hj.
  set (k := (qch j * (qch j + 1) - qch i * (qch i + 1))).
  rewrite (map_ext_in _ (fun f => ((1 + 1) * qch f + 1) * poly (g * k / (1 + 1)) (g / (1 + 1)) 0 0 (qch f * (qch f + 1)))).
  2:{ intros f Hf.
      transitivity (((1 + 1) * qch f + 1) * (qch f * (qch f + 1) * compute_gF Exact i j f g)); [qeq; ring|].
      rewrite gF_moment by auto. unfold poly, k. qeq; field. qcne. }
  rewrite manifold_sum by auto. unfold Tpoly, T3, T2, T1, k. qeq; field. qcne.
Qed.

(** ** Zeeman *)

Lemma z_shift_exact : forall muB gF m B qz,
  z_shift Exact muB gF m B qz = gF * qch m * muB * B + qz * (B * B).
Proof. reflexivity. Qed.

Lemma z_spacing : forall muB gF m B,
  z_shift Exact muB gF (m + 2) B 0 - z_shift Exact muB gF m B 0 = gF * muB * B.
Proof. intros. rewrite !z_shift_exact, qch_succ. qeq; ring. Qed.
Lemma z_antisym : forall muB gF m B, z_shift Exact muB gF (- m) B 0 = - z_shift Exact muB gF m B 0.
Proof. intros. rewrite !z_shift_exact, qch_opp. qeq; ring. Qed.
Lemma z_zero_field : forall muB gF m qz, z_shift Exact muB gF m 0 qz = 0.
Proof. intros. rewrite z_shift_exact. qeq; ring. Qed.

Lemma sumQ_scale : forall {A} (c : Qc) (h : A -> Qc) l, sumQ (map (fun x => c * h x) l) = c * sumQ (map h l).
Proof. induction l; cbn [map]; rewrite ?sumQ_nil, ?sumQ_cons; [qeq; ring|]. rewrite IHl. qeq; ring. Qed.

Lemma sum_mF : forall F, (0 <= F)%Z -> sumQ (map qch (mF_range F)) = 0.
Proof.
  intros F HF. rewrite mF_range_steps.
  rewrite (sum_steps_telescope (fun x => x) (fun x => x * (x - 1) / (1 + 1))) by (intros; field; qcne).
  replace (- F + 2 * Z.of_nat (Z.to_nat (F + 1)))%Z with (F + 2)%Z by lia.
  rewrite qch_succ, qch_opp. qeq; field. qcne.
Qed.

Lemma z_sum_zero : forall muB gF B F, (0 <= F)%Z ->
  sumQ (map (fun m => z_shift Exact muB gF m B 0) (mF_range F)) = 0.
Proof.
  intros. rewrite (map_ext _ (fun m => (gF * muB * B) * qch m)).
  - rewrite sumQ_scale, sum_mF by auto. qeq; ring.
  - intros. rewrite z_shift_exact. qeq. ring.
Qed.

(** ** Default g-value *)

(** The textbook value (with the g-factor of the code, 1.0023 = gs - 1). *)
Definition lande_textbook (L S J : Qc) : Qc :=
  1 + Q2Qc (10023 # 10000) * (J * (J + 1) + S * (S + 1) - L * (L + 1)) / ((1 + 1) * J * (J + 1)).

Lemma Qc_eqb_false : forall a b : Qc, a <> b -> Qc_eqb a b = false.
Proof. intros. destruct (Qc_eqb_spec a b); easy. Qed.
Lemma Qc_eqb_true : forall a : Qc, Qc_eqb a a = true.
Proof. intros. destruct (Qc_eqb_spec a a); easy. Qed.
Lemma qci2 : qci 2 = 1 + 1.
Proof. apply Qc_is_canon. reflexivity. Qed.

Lemma Qcmult_neq0 : forall a b : Qc, a <> 0 -> b <> 0 -> a * b <> 0.
Proof. intros a b Ha Hb E. apply Qcmult_integral in E. tauto. Qed.

Lemma lande_LS_value : forall l s j, (0 < j)%Z -> lande_LS l s j = Fin (lande_textbook l s (qch j)).
Proof.
  intros l s j H. unfold lande_LS, np_div.
  rewrite Qc_eqb_false.
  - unfold np_add, lande_textbook. now rewrite qci2.
  - rewrite qci2. apply Qcmult_neq0; [apply Qcmult_neq0|]; [apply two_neq0|apply qch_neq0; lia|apply qch_succ_neq0; lia].
Qed.

Lemma gJ_sum_value : forall l s d tot,
  (forall pct t, In (pct, t) d -> t_coupling t = CLS /\ exists j, t_J t = Some j /\ (0 < j)%Z) ->
  gJ_sum l s d (Fin tot) =
  Some (Fin (tot + sumQ (map (fun e => fst e * lande_textbook l s (qch (match t_J (snd e) with Some j => j | None => 0%Z end))) d))).
Proof.
  intros l s. induction d as [|[pct t] d IH]; intros tot H; cbn [gJ_sum map].
  - rewrite sumQ_nil. do 2 f_equal. qeq; ring.
  - destruct (H pct t) as [Hc [j [Hj Hp]]]; [now left|]. rewrite Hc, Hj, lande_LS_value by auto.
    cbn [np_scale np_add]. rewrite IH by (intros p u Hu; apply (H p u); now right).
    cbn [fst snd]. rewrite sumQ_cons, Hj. do 2 f_equal. qeq; ring.
Qed.

Lemma compute_gJ_value : forall lead rest l s,
  q_l (t_qn lead) = Some l -> q_s (t_qn lead) = Some s ->
  (forall t, In t (lead :: rest) -> t_coupling t = CLS /\ exists j, t_J t = Some j /\ (0 < j)%Z) ->
  exists g, compute_gJ (lead :: rest) = Some (Fin g) /\
  g = sumQ (map (fun e => fst e * lande_textbook (Q2Qc l) (Q2Qc s)
                            (qch (match t_J (snd e) with Some j => j | None => 0%Z end))) (terms_dict (lead :: rest))).
Proof.
  intros lead rest l s Hl Hs H. unfold compute_gJ. rewrite Hl, Hs.
  rewrite gJ_sum_value.
  - eexists. split; [reflexivity|]. qeq; ring.
  - intros pct t Hi. apply H.
    assert (G : forall ts d, In (pct, t) (fold_left (fun d t0 => dset (t_pct t0) t0 d) ts d) -> In (pct, t) d \/ In t ts).
    { induction ts as [|u ts IH]; intros d Hd; cbn [fold_left] in Hd; [now left|].
      destruct (IH _ Hd) as [Hd'|Hd']; [|right; now right].
      assert (G2 : In (pct, t) d \/ t = u).
      { clear - Hd'. induction d as [|[k v] d IHd]; cbn [dset] in Hd'.
        - destruct Hd' as [Hd'|[]]. right. congruence.
        - destruct (keqb (t_pct u) k).
          + destruct Hd' as [Hd'|Hd']; [right; congruence|left; now right].
          + destruct Hd' as [Hd'|Hd']; [left; now left|]. destruct (IHd Hd'); [left; now right|now right]. }
      destruct G2 as [G2| ->]; [now left|right; now left]. }
    destruct (G _ _ Hi) as [[]|G']. exact G'.
Qed.

Lemma compute_gJ_single : forall t l s j,
  t_coupling t = CLS -> q_l (t_qn t) = Some l -> q_s (t_qn t) = Some s -> t_J t = Some j -> (0 < j)%Z ->
  compute_gJ [t] = Some (Fin (t_pct t * lande_textbook (Q2Qc l) (Q2Qc s) (qch j))).
Proof.
  intros t l s j Hc Hl Hs Hj H.
  destruct (compute_gJ_value t [] l s Hl Hs) as [g [E Hg]].
  - intros u [<-|[]]. split; eauto.
  - rewrite E, Hg. cbn [terms_dict fold_left dset map fst snd]. rewrite Hj, sumQ_cons, sumQ_nil. do 2 f_equal. qeq; ring.
Qed.

(** ** Finiteness *)

Lemma np_scale_finite : forall c x, np_finite x = true -> np_finite (np_scale c x) = true.
Proof. intros c [x|s|]; easy. Qed.
Lemma np_add_finite : forall x y, np_finite x = true -> np_finite y = true -> np_finite (np_add x y) = true.
Proof. intros [x|s|] [y|t|]; easy. Qed.

Lemma z_level_finite : forall muB Bf qz E A B C i j f m g,
  np_finite g = true -> np_finite (z_level_np muB Bf qz E A B C i j f m g) = true.
Proof.
  intros. unfold z_level_np. apply np_add_finite; [reflexivity|]. apply np_add_finite; [|reflexivity].
  repeat apply np_scale_finite. unfold gF_np. destruct (f =? 0)%Z; [reflexivity|].
  now repeat apply np_scale_finite.
Qed.

Lemma z_level_value : forall muB Bf qz E A B C i j f m g, (0 <= f)%Z ->
  z_level_np muB Bf qz E A B C i j f m (Fin g) =
  Fin (E + hf_shift Exact i j f A B C + z_shift Exact muB (compute_gF Exact i j f g) m Bf qz).
Proof.
  intros. unfold z_level_np, gF_np. destruct (Z.eq_dec f 0) as [->|Hn].
  - rewrite Z.eqb_refl, gF_zero. cbn [np_scale np_add]. rewrite z_shift_exact. f_equal.
    qeq. ring.
  - destruct (Z.eqb_spec f 0); [easy|]. cbn [np_scale np_add]. rewrite z_shift_exact, gF_exact by auto. rewrite qci2. f_equal.
    qeq. field.
    qcne; try (apply qch_neq0; lia); try (apply qch_succ_neq0; lia).
Qed.

(** A singlet S0 ground level: every Zeeman sublevel of an atom with nuclear
    spin has no energy. *)
Lemma lande_00 : forall l, lande_LS l l 0 = NaN.
Proof.
  intros. unfold lande_LS, np_div. rewrite qch_0.
  replace (qci 2 * 0 * (0 + 1)) with 0 by (qeq; ring). rewrite Qc_eqb_true.
  replace (Q2Qc (10023 # 10000) * (0 * (0 + 1) + l * (l + 1) - l * (l + 1))) with 0 by (qeq; ring).
  rewrite Qc_eqb_true. reflexivity.
Qed.

Lemma J0_nan : forall t l muB Bf qz E A B C i f m,
  t_coupling t = CLS -> q_l (t_qn t) = Some l -> q_s (t_qn t) = Some l -> t_J t = Some 0%Z ->
  (0 < i)%Z -> In f (F_range 0 i) ->
  exists g, compute_gJ [t] = Some g /\ z_level_np muB Bf qz E A B C i 0 f m g = NaN.
Proof.
  intros t l muB Bf qz E A B C i f m Hc Hl Hs Hj Hi Hf.
  exists NaN. split.
  - unfold compute_gJ. rewrite Hl, Hs. cbn [terms_dict fold_left dset gJ_sum]. rewrite Hc, Hj, lande_00. reflexivity.
  - apply F_range_In in Hf; try lia. unfold tri in Hf. rewrite !andb_true_iff, !Z.leb_le in Hf.
    unfold z_level_np, gF_np. destruct (Z.eqb_spec f 0); [lia|]. reflexivity.
Qed.

Lemma sumQ_plus : forall {A} (g h : A -> Qc) l, sumQ (map (fun x => g x + h x) l) = sumQ (map g l) + sumQ (map h l).
Proof. induction l; cbn [map]; rewrite ?sumQ_nil, ?sumQ_cons; [ring|]. rewrite IHl. ring. Qed.

Lemma mean_energy : forall i j E A B C, (0 <= i)%Z -> (0 <= j)%Z ->
  sumQ (map (fun f => ((1 + 1) * qch f + 1) * (E + hf_shift Exact i j f A B C)) (F_range j i))
  = ((1 + 1) * qch i + 1) * ((1 + 1) * qch j + 1) * E.
Proof.
  intros i j E A B C Hi Hj.
  rewrite (map_ext _ (fun f => ((1 + 1) * qch f + 1) * poly E 0 0 0 (qch f * (qch f + 1)) + ((1 + 1) * qch f + 1) * hf_shift Exact i j f A B C)).
  2:{ intros f. unfold poly. qeq. ring. }
  rewrite sumQ_plus, manifold_sum, centre_of_gravity by auto. unfold Tpoly. ring.
Qed.

Lemma stretched_wrong : forall i j A B C, (3 <= i)%Z -> (3 <= j)%Z -> C <> 0 ->
  hf_shift Exact i j (i + j) A B C <> A * (qch i * qch j) + B / ((1 + 1) * (1 + 1)) + C.
Proof.
  intros i j A B C Hi Hj HC E. rewrite stretched_shift in E by lia.
  destruct (Z.leb_spec 2 i), (Z.leb_spec 2 j), (Z.leb_spec 3 i), (Z.leb_spec 3 j); try lia. cbn [andb] in E.
  assert (E' : C * ((1 + 1) * (qch i - 1)) = 0).
  { match type of E with ?a = ?b => transitivity (a - b); [ring|rewrite E; ring] end. }
  apply Qcmult_integral in E' as [E'|E']; [now apply HC|].
  apply Qcmult_integral in E' as [E'|E']; [now apply two_neq0 in E'|]. apply qch_pred_neq0 in E'; auto. lia.
Qed.

Lemma hf_shift_sym : forall i j f A B, hf_shift Exact i j f A B 0 = hf_shift Exact j i f A B 0.
Proof.
  intros. rewrite !hf_shift_exact.
  replace (xdot (qch j) (qch i) (qch f)) with (xdot (qch i) (qch j) (qch f)) by (unfold xdot; f_equal; ring).
  replace (quad (qch j) (qch i) (xdot (qch i) (qch j) (qch f))) with (quad (qch i) (qch j) (xdot (qch i) (qch j) (qch f)))
    by (unfold quad; ring).
  assert (Ec : forall a b, cC a b 0 = 0) by (intros; unfold cC, Qcdiv; destruct ((b <=? 2)%Z || (a <=? 2)%Z); ring).
  rewrite !Ec. replace (cB j i B) with (cB i j B); [qeq; ring|].
  unfold cB. rewrite (orb_comm (i <=? 1)%Z). destruct ((j <=? 1)%Z || (i <=? 1)%Z); [reflexivity|]. f_equal. ring.
Qed.

Lemma gF_no_spin_range : forall j g, (0 < j)%Z -> F_range j 0 = [j] /\ compute_gF Exact 0 j j g = g.
Proof.
  intros j g H. split; [|now apply gF_no_spin]. rewrite F_range_steps by lia.
  replace (Z.min j 0 + 1)%Z with 1%Z by lia. replace (Z.abs (j - 0)) with j by lia. reflexivity.
Qed.

Lemma gJ_default_100 : exists t,
  new_term "6s"%string "2S"%string (VStr "1/2"%string) VNone VNone (Q2Qc 100) None = Ok t /\
  compute_gJ [t] = Some (Fin (Q2Qc (20023 # 100))) /\
  lande_textbook 0 (qch 1) (qch 1) = Q2Qc (20023 # 10000).
Proof.
  eexists. split; [vm_compute; reflexivity|]. split.
  - erewrite compute_gJ_single; [|reflexivity..]. do 2 f_equal. apply Qc_is_canon. reflexivity.
  - apply Qc_is_canon. reflexivity.
Qed.

Lemma finite_LS : forall lead rest l s,
  q_l (t_qn lead) = Some l -> q_s (t_qn lead) = Some s ->
  (forall t, In t (lead :: rest) -> t_coupling t = CLS /\ exists j, t_J t = Some j /\ (0 < j)%Z) ->
  exists g, compute_gJ (lead :: rest) = Some g /\
  forall muB Bf qz E A B C i j f m, np_finite (z_level_np muB Bf qz E A B C i j f m g) = true.
Proof.
  intros lead rest l s Hl Hs H. destruct (compute_gJ_value lead rest l s Hl Hs H) as [g [E _]].
  exists (Fin g). split; [exact E|]. intros. now apply z_level_finite.
Qed.

Lemma singlet_case : exists t, new_term "6s2"%string "1S"%string (VStr "0"%string) VNone VNone (Q2Qc 100) None = Ok t /\
  t_coupling t = CLS /\ q_l (t_qn t) = q_s (t_qn t) /\ t_J t = Some 0%Z /\ F_range 0 1 = [1%Z].
Proof. eexists. split; [vm_compute; reflexivity|]. repeat split. Qed.
