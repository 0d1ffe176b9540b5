(** Wigner symbols: when they vanish, and their symmetries. *)
From Coq Require Import List Bool ZArith QArith Qcanon Lia.
From Verif Require Import Base Util Term Num Wigner.
Import ListNotations.
Local Open Scope Z_scope.

Lemma fac_pos : forall z, 0 < fac z.
Proof. intros z. unfold fac. induction (Z.to_nat z); cbn [factn]; lia. Qed.
Lemma QcZ_0 : QcZ 0 = 0%Qc.
Proof. apply Qc_is_canon. reflexivity. Qed.
Lemma QcZ_1 : QcZ 1 = 1%Qc.
Proof. apply Qc_is_canon. reflexivity. Qed.
Lemma QcZ_inj : forall a b, QcZ a = QcZ b -> a = b.
Proof.
  intros a b E. apply (f_equal this) in E. unfold QcZ in E. cbn [this Q2Qc] in E.
  assert (H : (inject_Z a == inject_Z b)%Q) by (rewrite <- (Qred_correct (inject_Z a)), <- (Qred_correct (inject_Z b)), E; reflexivity).
  unfold Qeq in H. cbn in H. lia.
Qed.
Lemma QcZ_mul : forall a b, QcZ (a * b) = (QcZ a * QcZ b)%Qc.
Proof. intros. apply Qc_is_canon. unfold QcZ, Qcmult. cbn [this Q2Qc]. rewrite !Qred_correct. unfold Qeq. cbn. lia. Qed.
Lemma QcZ_add : forall a b, QcZ (a + b) = (QcZ a + QcZ b)%Qc.
Proof. intros. apply Qc_is_canon. unfold QcZ, Qcplus. cbn [this Q2Qc]. rewrite !Qred_correct. unfold Qeq. cbn. lia. Qed.
Lemma QcZ_opp : forall a, QcZ (- a) = (- QcZ a)%Qc.
Proof. intros. apply Qc_is_canon. unfold QcZ, Qcopp. cbn [this Q2Qc]. rewrite !Qred_correct. unfold Qeq. cbn. lia. Qed.
Lemma QcZ_sub : forall a b, QcZ (a - b) = (QcZ a - QcZ b)%Qc.
Proof. intros. unfold Z.sub, Qcminus. now rewrite QcZ_add, QcZ_opp. Qed.
Lemma QcZ_nz : forall a, a <> 0 -> QcZ a <> 0%Qc.
Proof. intros a H E. rewrite <- QcZ_0 in E. now apply QcZ_inj in E. Qed.

Lemma Qcmult_nz : forall a b, (a <> 0 -> b <> 0 -> a * b <> 0)%Qc.
Proof. intros a b A B E. destruct (Qcmult_integral _ _ E); contradiction. Qed.
Lemma Qcmult_nz_iff : forall a b, (a * b <> 0 <-> a <> 0 /\ b <> 0)%Qc.
Proof.
  intros a b. split; [|intros []; now apply Qcmult_nz]. intros H. split; intros E; apply H; rewrite E; ring.
Qed.
Lemma Qcdiv_nz : forall a b, (a <> 0 -> b <> 0 -> a / b <> 0)%Qc.
Proof.
  intros a b A B E. apply A. rewrite <- (Qcmult_div_r a b) by auto. rewrite E. ring.
Qed.
Lemma Qc_eqb_nz : forall a, negb (Qc_eqb a 0) = true <-> a <> 0%Qc.
Proof. intros. destruct (Qc_eqb_spec a 0); cbn; split; intros H; auto; try discriminate. Qed.

Lemma delta2_nz : forall a b c, delta2 a b c <> 0%Qc.
Proof.
  intros. unfold delta2, hfac. apply Qcdiv_nz; apply QcZ_nz; [|pose proof (fac_pos ((a + b + c) / 2 + 1)); lia].
  pose proof (fac_pos ((a + b - c) / 2)). pose proof (fac_pos ((a - b + c) / 2)). pose proof (fac_pos ((b + c - a) / 2)). nia.
Qed.

(** The exact zero test is the test on the square. *)
Lemma w6nz_sq : forall a b c d e f, w6nz a b c d e f = true <-> w6sq a b c d e f <> 0%Qc.
Proof.
  intros. unfold w6nz, w6sq. destruct (w6_tri a b c d e f); cbn [andb]; [|split; intros H; [discriminate|contradiction]].
  rewrite Qc_eqb_nz, !Qcmult_nz_iff. split; [|tauto]. intros H. repeat split; auto using delta2_nz.
Qed.
Lemma w3nz_sq : forall a b c m n p, w3nz a b c m n p = true <-> w3sq a b c m n p <> 0%Qc.
Proof.
  intros. unfold w3nz, w3sq. destruct (w3_ok a b c m n p); cbn [andb]; [|split; intros H; [discriminate|contradiction]].
  rewrite Qc_eqb_nz, !Qcmult_nz_iff. split; [|tauto]. intros H. repeat split; auto using delta2_nz.
  apply QcZ_nz. unfold hfac. pose proof (fac_pos ((a + m) / 2)). pose proof (fac_pos ((a - m) / 2)).
  pose proof (fac_pos ((b + n) / 2)). pose proof (fac_pos ((b - n) / 2)). pose proof (fac_pos ((c + p) / 2)). pose proof (fac_pos ((c - p) / 2)).
  assert (forall u v, 0 < u -> 0 < v -> 0 < u * v) as M by (intros; nia).
  assert (0 < fac ((a + m) / 2) * fac ((a - m) / 2) * fac ((b + n) / 2) * fac ((b - n) / 2) * fac ((c + p) / 2) * fac ((c - p) / 2)) by auto 10. lia.
Qed.

(** ** Symmetries *)

Lemma tri_12 : forall a b c, tri a b c = tri b a c.
Proof.
  intros. unfold tri. rewrite (Z.add_comm b a). replace (Z.abs (b - a)) with (Z.abs (a - b)) by lia. reflexivity.
Qed.
Lemma tri_23 : forall a b c, tri a b c = tri a c b.
Proof.
  intros. unfold tri. replace (a + c + b) with (a + b + c) by ring. destruct (Z.even (a + b + c)); rewrite ?andb_false_r; auto. rewrite !andb_true_r.
  apply eq_true_iff_eq. rewrite !andb_true_iff, !Z.leb_le. lia.
Qed.
Lemma delta2_12 : forall a b c, delta2 a b c = delta2 b a c.
Proof.
  intros. unfold delta2. replace (b + a) with (a + b) by ring. replace (b - a + c) with (b + c - a) by ring.
  replace (a + c - b) with (a - b + c) by ring. f_equal; f_equal. ring.
Qed.
Lemma delta2_23 : forall a b c, delta2 a b c = delta2 a c b.
Proof.
  intros. unfold delta2. replace (a + c - b) with (a - b + c) by ring. replace (a - c + b) with (a + b - c) by ring.
  replace (c + b - a) with (b + c - a) by ring. replace (a + c + b) with (a + b + c) by ring. f_equal; f_equal. ring.
Qed.

Lemma sumr_ext : forall n lo f g, (forall z, f z = g z) -> sumr n lo f = sumr n lo g.
Proof. induction n; intros lo f g H; cbn [sumr]; auto. now rewrite H, (IHn _ f g). Qed.

(** Columns 1 and 2 exchanged. *)
Lemma w6sq_cols : forall a b c d e f, w6sq a b c d e f = w6sq b a c e d f.
Proof.
  intros. unfold w6sq.
  replace (w6_tri b a c e d f) with (w6_tri a b c d e f).
  2: { unfold w6_tri. rewrite (tri_12 b a), (tri_12 b d), (tri_12 e a), (tri_12 e d).
       destruct (tri a b c), (tri a e f), (tri d b f), (tri d e c); reflexivity. }
  destruct (w6_tri a b c d e f); auto.
  assert (S : w6_sum b a c e d f = w6_sum a b c d e f).
  { unfold w6_sum. replace (b + a + c) with (a + b + c) by ring. replace (b + d + f) with (d + b + f) by ring.
    replace (e + a + f) with (a + e + f) by ring. replace (e + d + c) with (d + e + c) by ring.
    replace (b + a + e + d) with (a + b + d + e) by ring. replace (a + c + d + f) with (c + a + f + d) by ring. replace (c + b + f + e) with (b + c + e + f) by ring.
    unfold sum_range.
    match goal with |- sumr (Z.to_nat (?h1 - ?l1 + 1)) _ _ = sumr (Z.to_nat (?h2 - ?l2 + 1)) _ _ => replace h1 with h2 by lia; replace l1 with l2 by lia end.
    apply sumr_ext. intros z. unfold w6_term.
    replace (b + a + c) with (a + b + c) by ring. replace (b + d + f) with (d + b + f) by ring.
    replace (e + a + f) with (a + e + f) by ring. replace (e + d + c) with (d + e + c) by ring.
    replace (b + a + e + d) with (a + b + d + e) by ring. replace (a + c + d + f) with (c + a + f + d) by ring. replace (c + b + f + e) with (b + c + e + f) by ring.
    f_equal. f_equal. ring. }
  rewrite S, (delta2_12 b a), (delta2_12 e a), (delta2_12 b d), (delta2_12 e d). ring.
Qed.
(** Columns 2 and 3 exchanged. *)
Lemma w6sq_cols' : forall a b c d e f, w6sq a b c d e f = w6sq a c b d f e.
Proof.
  intros. unfold w6sq.
  replace (w6_tri a c b d f e) with (w6_tri a b c d e f).
  2: { unfold w6_tri. rewrite (tri_23 a c), (tri_23 a f), (tri_23 d c), (tri_23 d f).
       destruct (tri a b c), (tri a e f), (tri d b f), (tri d e c); reflexivity. }
  destruct (w6_tri a b c d e f); auto.
  assert (S : w6_sum a c b d f e = w6_sum a b c d e f).
  { unfold w6_sum. replace (a + c + b) with (a + b + c) by ring. replace (a + f + e) with (a + e + f) by ring.
    replace (d + c + e) with (d + e + c) by ring. replace (d + f + b) with (d + b + f) by ring.
    replace (a + c + d + f) with (c + a + f + d) by ring. replace (c + b + f + e) with (b + c + e + f) by ring. replace (b + a + e + d) with (a + b + d + e) by ring.
    unfold sum_range.
    match goal with |- sumr (Z.to_nat (?h1 - ?l1 + 1)) _ _ = sumr (Z.to_nat (?h2 - ?l2 + 1)) _ _ => replace h1 with h2 by lia; replace l1 with l2 by lia end.
    apply sumr_ext. intros z. unfold w6_term.
    replace (a + c + b) with (a + b + c) by ring. replace (a + f + e) with (a + e + f) by ring.
    replace (d + c + e) with (d + e + c) by ring. replace (d + f + b) with (d + b + f) by ring.
    replace (a + c + d + f) with (c + a + f + d) by ring. replace (c + b + f + e) with (b + c + e + f) by ring. replace (b + a + e + d) with (a + b + d + e) by ring.
    f_equal. f_equal. ring. }
  rewrite S, (delta2_23 a c), (delta2_23 a f), (delta2_23 d c), (delta2_23 d f). ring.
Qed.
(** Upper and lower entries exchanged in columns 2 and 3. *)
Lemma w6sq_flip : forall a b c d e f, w6sq a b c d e f = w6sq a e f d b c.
Proof.
  intros. unfold w6sq.
  replace (w6_tri a e f d b c) with (w6_tri a b c d e f).
  2: { unfold w6_tri. destruct (tri a b c), (tri a e f), (tri d b f), (tri d e c); reflexivity. }
  destruct (w6_tri a b c d e f); auto.
  assert (S : w6_sum a e f d b c = w6_sum a b c d e f).
  { unfold w6_sum.
    replace (a + e + d + b) with (a + b + d + e) by ring. replace (e + f + b + c) with (b + c + e + f) by ring. replace (f + a + c + d) with (c + a + f + d) by ring.
    unfold sum_range.
    match goal with |- sumr (Z.to_nat (?h1 - ?l1 + 1)) _ _ = sumr (Z.to_nat (?h2 - ?l2 + 1)) _ _ => replace h1 with h2 by lia; replace l1 with l2 by lia end.
    apply sumr_ext. intros z. unfold w6_term.
    replace (a + e + d + b) with (a + b + d + e) by ring. replace (e + f + b + c) with (b + c + e + f) by ring. replace (f + a + c + d) with (c + a + f + d) by ring.
    f_equal. f_equal. ring. }
  rewrite S. ring.
Qed.
(** The symbol in the linewidths (atom.py:762) is the one in the selection
    rules (atom.py:780). *)
Lemma w6sq_strength : forall j1 j2 k f1 f2 i, w6sq j2 f2 i f1 j1 k = w6sq j1 j2 k f2 f1 i.
Proof. intros. rewrite (w6sq_cols j1 j2). rewrite w6sq_flip. reflexivity. Qed.
