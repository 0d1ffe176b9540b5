(** Properties C111 to C113: sums of the tensor matrix elements over all
    polarisations and projections.  Angular momenta and projections are doubled
    integers, k and q are not. *)
From Coq Require Import List Bool ZArith QArith Qcanon Reals Qreals Lia Lra.
From Verif Require Import Base Util Term Num Wigner WignerProofs WignerOne WignerSym WignerZero Hyperfine HyperfineProofs Rules RulesProofs StrengthSums StrengthPos
  WignerOrth WignerNorm WignerClebsch WignerNine Strengths StrengthProofs CouplingProofs CouplingList PropTensor.
Import ListNotations.
Local Open Scope Z_scope.

Lemma hfac_pos : forall z, 0 < hfac z.
Proof. intros. apply fac_pos. Qed.

(** Orthogonality of the 3j symbols as real numbers. *)
Lemma w3R_orth : forall a b c c' p G, tri a b c = true -> tri a b c' = true -> proj_ok c p = true -> proj_ok c' p = true ->
  NoDup G -> (forall m, proj_ok a m = true -> In m G) ->
  Rsums (fun m => w3R a b c m (- m - p) p * w3R a b c' m (- m - p) p)%R G = if c =? c' then (/ IZR (c + 1))%R else 0%R.
Proof.
  intros a b c c' p G T T' P P' ND HG. pose proof (w3_orth a b c c' p G T T' P P' ND HG) as E.
  set (H := fun c => (Rc (delta2 a b c) * IZR (hfac (c + p) * hfac (c - p)))%R).
  assert (PH : forall c, (0 < H c)%R).
  { intros d. apply Rmult_lt_0_compat; [apply dpos|]. apply IZR_lt. pose proof (hfac_pos (d + p)). pose proof (hfac_pos (d - p)). nia. }
  rewrite (Rsums_ext _ (fun m => (sqrt (H c) * sqrt (H c')) * Rc (wp a b m (- m - p) * (w3_sum a b c m (- m - p) * w3_sum a b c' m (- m - p))))%R).
  - rewrite Rsums_scale, <- Rc_sums, E. destruct (Z.eqb_spec c c') as [Q|Q]; [|rewrite Rc_0; ring].
    subst c'. rewrite sqrt_sqrt by (apply Rlt_le, PH). apply tri_nn in T. assert (Nc : QcZ (c + 1) <> 0%Qc) by (apply QcZ_nz; lia).
    unfold wc. assert (Nh : QcZ (hfac (c + p) * hfac (c - p)) <> 0%Qc) by (apply QcZ_nz; pose proof (hfac_pos (c + p)); pose proof (hfac_pos (c - p)); nia).
    rewrite Rc_inv by (apply Qcmult_nz; [apply Qcmult_nz; [exact Nc|apply delta2_nz]|exact Nh]). rewrite !Rc_mul, !Rc_Z.
    pose proof (PH c) as K. unfold H in *. pose proof (dpos a b c). assert (IZR (c + 1) <> 0%R) by (apply not_0_IZR; lia).
    assert (IZR (hfac (c + p) * hfac (c - p)) <> 0%R) by (apply not_0_IZR; pose proof (hfac_pos (c + p)); pose proof (hfac_pos (c - p)); nia).
    field. repeat split; try lra.
  - intros m _. unfold w3R, w3_ok, wp. rewrite T, T', P, P'. replace (m + (- m - p) + p =? 0) with true by (symmetry; apply Z.eqb_eq; lia).
    rewrite !andb_true_r. cbn [andb]. destruct (proj_ok a m && proj_ok b (- m - p)); [|rewrite !Rc_mul, Rc_0; ring].
    set (g := Rc (sgn ((a - b - p) / 2))). pose proof (Rc_sgn2 ((a - b - p) / 2)) as G2. fold g in G2.
    set (X := IZR (hfac (a + m) * hfac (a - m) * (hfac (b + (- m - p)) * hfac (b - (- m - p))))).
    assert (PX : (0 <= X)%R). { apply IZR_le. pose proof (hfac_pos (a + m)). pose proof (hfac_pos (a - m)). pose proof (hfac_pos (b + (- m - p))). pose proof (hfac_pos (b - (- m - p))). nia. }
    assert (R : forall c, Rc (delta2 a b c * QcZ (hfac (a + m) * hfac (a - m) * hfac (b + (- m - p)) * hfac (b - (- m - p)) * hfac (c + p) * hfac (c - p))) = (X * H c)%R).
    { intros d. rewrite Rc_mul, Rc_Z. unfold X, H. rewrite !mult_IZR. ring. }
    rewrite !R. pose proof (sqrt_common X (H c) (H c') PX (Rlt_le _ _ (PH c)) (Rlt_le _ _ (PH c'))) as S.
    rewrite !Rc_mul, Rc_Z. fold X.
    transitivity ((g * g) * (sqrt (X * H c) * sqrt (X * H c')) * (Rc (w3_sum a b c m (- m - p)) * Rc (w3_sum a b c' m (- m - p))))%R; [ring|].
    rewrite G2, S. ring.
Qed.

(** Every projection of [f], and every component of a tensor of rank [k]. *)
Definition projections (f : Z) (l : list Z) : Prop := NoDup l /\ forall m, Z.abs m <= f -> Z.even (f + m) = true -> In m l.
Definition components (k : Z) (l : list Z) : Prop := NoDup l /\ forall q, Z.abs q <= k -> In q l.

Lemma w3R_no : forall a b c m n p, w3_ok a b c m n p = false -> w3R a b c m n p = 0%R.
Proof. intros a b c m n p H. unfold w3R. now rewrite H. Qed.

(** One component at most connects two projections. *)
Lemma one_q : forall k f0 f1 m0 m1 Qs (h : Z -> R), components k Qs ->
  (forall q, h q <> 0%R -> w3_ok f1 (2 * k) f0 (- m1) (2 * q) m0 = true) ->
  Rsums h Qs = if Z.even (m1 - m0) then h ((m1 - m0) / 2) else 0%R.
Proof.
  intros k f0 f1 m0 m1 Qs h [ND A] H.
  assert (Z0 : forall q, m1 - m0 <> 2 * q -> h q = 0%R).
  { intros q N. destruct (Req_dec (h q) 0) as [E|E]; auto. apply H in E. unfold w3_ok in E. rewrite !andb_true_iff in E. destruct E as [_ E]. apply Z.eqb_eq in E. lia. }
  destruct (Z.even (m1 - m0)) eqn:Ev.
  - apply Z.even_spec in Ev as [q Eq]. replace ((m1 - m0) / 2) with q by (rewrite Eq, Z.mul_comm, Z.div_mul; lia).
    destruct (in_dec Z.eq_dec q Qs) as [I|I].
    + clear A H. induction Qs as [|x Qs IH]; [destruct I|]. inversion ND as [|? ? N1 N2]; subst. rewrite Rsums_cons. destruct I as [->|I].
      * rewrite Rsums_0; [ring|]. intros x Ix. apply Z0. intros E. apply N1. replace q with x by lia. exact Ix.
      * rewrite IH by auto. rewrite (Z0 x); [ring|]. intros E. apply N1. replace x with q by lia. exact I.
    + rewrite Rsums_0 by (intros x Ix; apply Z0; intros E; apply I; replace q with x by lia; exact Ix). symmetry.
      destruct (Req_dec (h q) 0) as [E|E]; auto. exfalso. apply I, A. apply H in E. unfold w3_ok, proj_ok in E. rewrite !andb_true_iff, !Z.leb_le in E. lia.
  - apply Rsums_0. intros q _. apply Z0. intros E. rewrite E, Z.even_mul in Ev. discriminate.
Qed.

(** The double sum of products of 3j symbols. *)
Lemma double_sum : forall k f0 f0' f1 m0 Ms Qs, projections f1 Ms -> components k Qs -> tri f1 (2 * k) f0 = true -> tri f1 (2 * k) f0' = true ->
  proj_ok f0 m0 = true -> proj_ok f0' m0 = true ->
  Rsums (fun m1 => Rsums (fun q => w3R f1 (2 * k) f0 (- m1) (2 * q) m0 * w3R f1 (2 * k) f0' (- m1) (2 * q) m0)%R Qs) Ms = if f0 =? f0' then (/ IZR (f0 + 1))%R else 0%R.
Proof.
  intros k f0 f0' f1 m0 Ms Qs [ND A] CQ T T' P P'.
  rewrite <- (w3R_orth f1 (2 * k) f0 f0' m0 (map Z.opp Ms) T T' P P').
  - rewrite Rsums_map. apply Rsums_ext. intros m1 I. rewrite (one_q k f0 f1 m0 m1); auto.
    + destruct (Z.even (m1 - m0)) eqn:Ev.
      * apply Z.even_spec in Ev as [q Eq]. replace ((m1 - m0) / 2) with q by (rewrite Eq, Z.mul_comm, Z.div_mul; lia). now replace (- - m1 - m0) with (2 * q) by lia.
      * symmetry. rewrite w3R_no; [ring|]. apply not_true_is_false. intros O. destruct (w3_elim _ _ _ _ _ _ O) as [x [y [z [u [v [w [w' [r [r' W]]]]]]]]].
        assert (Ev' : Z.even (m1 - m0) = true) by (apply Z.even_spec; exists (w - k); lia). congruence.
    + intros q N. destruct (w3_ok f1 (2 * k) f0 (- m1) (2 * q) m0) eqn:O; auto. exfalso. apply N. rewrite (w3R_no f1 (2 * k) f0) by auto. ring.
  - apply FinFun.Injective_map_NoDup; auto. intros u v. lia.
  - intros m Pm. apply in_map_iff. exists (- m). split; [lia|]. unfold proj_ok in Pm. rewrite andb_true_iff, Z.leb_le in Pm. apply A; [lia|].
    destruct Pm as [_ Pm]. replace (f1 + - m) with (f1 + m - 2 * m) by ring. rewrite Z.even_sub, Z.even_mul, Pm. reflexivity.
Qed.

(** C111.  Matrix elements out of different states (F0, M0) into the same level
    F1 are orthogonal, whatever the other numbers are. *)
Theorem C111_orthogonal : forall i k j0 f0 m0 j0' f0' m0' j1 f1 Ms Qs, projections f1 Ms -> components k Qs -> f0 <> f0' \/ m0 <> m0' ->
  Rsums (fun m1 => Rsums (fun q => tkq_mel i k q j0 f0 m0 j1 f1 m1 * tkq_mel i k q j0' f0' m0' j1 f1 m1)%R Qs) Ms = 0%R.
Proof.
  intros i k j0 f0 m0 j0' f0' m0' j1 f1 Ms Qs HM HQ N.
  destruct (Z.eq_dec m0 m0') as [<-|Nm].
  - assert (Nf : f0 <> f0') by tauto. clear N. unfold tkq_mel.
    set (c := (sqrt (IZR (f0 + 1)) * sqrt (IZR (f1 + 2)) * w6R j0 j1 (2 * k) f1 f0 i)%R). set (c' := (sqrt (IZR (f0' + 1)) * sqrt (IZR (f1 + 2)) * w6R j0' j1 (2 * k) f1 f0' i)%R).
    rewrite (Rsums_ext _ (fun m1 => (c * c') * Rsums (fun q => w3R f1 (2 * k) f0 (- m1) (2 * q) m0 * w3R f1 (2 * k) f0' (- m1) (2 * q) m0)%R Qs)%R).
    2:{ intros m1 _. rewrite <- Rsums_scale. apply Rsums_ext. intros q _. ring. }
    rewrite Rsums_scale. destruct (tri f1 (2 * k) f0 && tri f1 (2 * k) f0' && proj_ok f0 m0 && proj_ok f0' m0) eqn:O.
    + rewrite !andb_true_iff in O. destruct O as [[[T T'] P] P']. rewrite double_sum by auto. rewrite (proj2 (Z.eqb_neq f0 f0') Nf). ring.
    + rewrite Rsums_0; [ring|]. intros m1 _. apply Rsums_0. intros q _. unfold w3R, w3_ok.
      destruct (tri f1 (2 * k) f0), (tri f1 (2 * k) f0'), (proj_ok f0 m0), (proj_ok f0' m0); try discriminate O; rewrite ?andb_false_r; cbn [andb]; ring.
  - apply Rsums_0. intros m1 _. apply Rsums_0. intros q _. unfold tkq_mel.
    destruct (Z.eq_dec (- m1 + 2 * q + m0) 0) as [E|E].
    + rewrite (w3R_no f1 (2 * k) f0'); [ring|]. unfold w3_ok. rewrite (proj2 (Z.eqb_neq _ _)) by lia. apply andb_false_r.
    + rewrite (w3R_no f1 (2 * k) f0); [ring|]. unfold w3_ok. rewrite (proj2 (Z.eqb_neq _ _)) by lia. apply andb_false_r.
Qed.
Print Assumptions C111_orthogonal.

Lemma projections_mF : forall f, projections f (mF_range f).
Proof. intros f. split; [apply mF_range_nodup|]. intros m H1 H2. apply mF_range_In. split; [lia|exact H2]. Qed.
Lemma components_3 : components 1 [-1; 0; 1].
Proof. split; [repeat constructor; cbn [In]; lia|]. intros q H. cbn [In]. lia. Qed.
Lemma components_5 : components 2 [-2; -1; 0; 1; 2].
Proof. split; [repeat constructor; cbn [In]; lia|]. intros q H. cbn [In]. lia. Qed.
(** F = 0 and F = 1 of a J = 1/2 level, F' = 1 of another, I = 1/2: neither
    vector of matrix elements is zero. *)
Example C111_case : projections 2 [-2; 0; 2] /\ components 1 [-1; 0; 1] /\
  tkq_strength 1 1 0 1 0 0 1 2 0 <> 0%Qc /\ tkq_strength 1 1 1 1 2 0 1 2 2 <> 0%Qc.
Proof.
  split; [exact (projections_mF 2)|]. split; [apply components_3|]. split; apply strength_nz; split; [apply w6nz_sq|apply w3nz_sq|apply w6nz_sq|apply w3nz_sq]; vm_compute; reflexivity.
Qed.

(** The squares. *)
Lemma sq_sum : forall k f0 f1 m0 Ms Qs, projections f1 Ms -> components k Qs -> tri f1 (2 * k) f0 = true -> proj_ok f0 m0 = true ->
  sums (fun m1 => sums (fun q => w3sq f1 (2 * k) f0 (- m1) (2 * q) m0) Qs) Ms = frac 1 (f0 + 1).
Proof.
  intros k f0 f1 m0 Ms Qs HM HQ T P. pose proof (double_sum k f0 f0 f1 m0 Ms Qs HM HQ T T P P) as E. rewrite Z.eqb_refl in E.
  apply Rc_inj. rewrite Rc_sums. rewrite (Rsums_ext _ (fun m1 => Rsums (fun q => w3R f1 (2 * k) f0 (- m1) (2 * q) m0 * w3R f1 (2 * k) f0 (- m1) (2 * q) m0)%R Qs)).
  2:{ intros m1 _. rewrite Rc_sums. apply Rsums_ext. intros q _. now rewrite w3R_sq. }
  rewrite E. apply tri_nn in T. unfold frac. rewrite QcZ_1. unfold Qcdiv. rewrite Qcmult_1_l. rewrite Rc_inv by (apply QcZ_nz; lia). now rewrite Rc_Z.
Qed.

(** The strengths out of one state (F0, M0) into a level F1, over all
    polarisations and all M1, add up to a number that does not depend on M0. *)
Theorem C111_isotropic : forall i k j0 f0 m0 j1 f1 Ms Qs, projections f1 Ms -> components k Qs -> Z.abs m0 <= f0 -> Z.even (f0 + m0) = true ->
  sums (fun m1 => sums (fun q => tkq_strength i k q j0 f0 m0 j1 f1 m1) Qs) Ms = (QcZ (f1 + 2) * w6sq j0 j1 (2 * k) f1 f0 i)%Qc.
Proof.
  intros i k j0 f0 m0 j1 f1 Ms Qs HM HQ H1 H2. unfold tkq_strength.
  rewrite (sums_ext _ (fun m1 => (QcZ ((f0 + 1) * (f1 + 2)) * w6sq j0 j1 (2 * k) f1 f0 i) * sums (fun q => w3sq f1 (2 * k) f0 (- m1) (2 * q) m0) Qs)%Qc) by (intros m1 _; apply sums_scale).
  rewrite sums_scale. destruct (tri f1 (2 * k) f0) eqn:T.
  - rewrite sq_sum by (auto; unfold proj_ok; rewrite H2, (proj2 (Z.leb_le _ _) H1); reflexivity). apply tri_nn in T. rewrite QcZ_mul. unfold frac. rewrite QcZ_1. field. apply QcZ_nz. lia.
  - unfold w6sq. unfold w6_tri. rewrite (tri_23 f1 f0), T. rewrite andb_false_r. ring.
Qed.
Print Assumptions C111_isotropic.

(** And into one state (F1, M1): does not depend on M1. *)
Theorem C111_into : forall i k j0 f0 j1 f1 m1 Ms Qs, projections f0 Ms -> components k Qs -> Z.abs m1 <= f1 -> Z.even (f1 + m1) = true ->
  sums (fun m0 => sums (fun q => tkq_strength i k q j0 f0 m0 j1 f1 m1) Qs) Ms = (QcZ ((f0 + 1) * (f1 + 2)) / QcZ (f1 + 1) * w6sq j0 j1 (2 * k) f1 f0 i)%Qc.
Proof.
  intros i k j0 f0 j1 f1 m1 Ms Qs HM HQ H1 H2. unfold tkq_strength.
  assert (HQ' : components k (map Z.opp Qs)).
  { destruct HQ as [N A]. split; [apply FinFun.Injective_map_NoDup; auto; intros u v; lia|]. intros q Hq. apply in_map_iff. exists (- q). split; [lia|]. apply A. lia. }
  rewrite (sums_ext _ (fun m0 => (QcZ ((f0 + 1) * (f1 + 2)) * w6sq j0 j1 (2 * k) f1 f0 i) * sums (fun q => w3sq f0 (2 * k) f1 (- m0) (2 * q) m1) (map Z.opp Qs))%Qc).
  2:{ intros m0 _. rewrite sums_map, <- sums_scale. apply sums_ext. intros q _. rewrite (w3sq_strength f1 f0). now replace (2 * - q) with (- (2 * q)) by lia. }
  rewrite sums_scale. destruct (tri f0 (2 * k) f1) eqn:T.
  - rewrite sq_sum by (auto; unfold proj_ok; rewrite H2, (proj2 (Z.leb_le _ _) H1); reflexivity). unfold frac. rewrite QcZ_1. field. apply tri_nn in T. apply QcZ_nz. lia.
  - unfold w6sq. unfold w6_tri. rewrite (tri_12 f1 f0), (tri_23 f0 f1), T. rewrite andb_false_r. ring.
Qed.
Print Assumptions C111_into.
Example C111_case2 : (0 < QcZ (2 + 2) * w6sq 1 1 (2 * 1) 2 0 1)%Qc.
Proof. vm_compute. reflexivity. Qed.

(** C112.  Added over the levels F1 of J1 as well, the total should be the same
    for all states of J0: the factor 2 F1 + 2 spoils it. *)
Definition out (i k j0 f0 m0 j1 : Z) (Qs : list Z) : Qc :=
  sums (fun f1 => sums (fun m1 => sums (fun q => tkq_strength i k q j0 f0 m0 j1 f1 m1) Qs) (mF_range f1)) (F_range j1 i).
Theorem C112_refuted : components 1 [-1; 0; 1] /\ F_range 1 1 = [0; 2] /\ out 1 1 1 0 0 1 [-1; 0; 1] = Q2Qc (2 # 3) /\ out 1 1 1 2 0 1 [-1; 0; 1] = Q2Qc (7 # 9).
Proof. split; [apply components_3|]. split; [reflexivity|]. split; apply Qc_is_canon; vm_compute; reflexivity. Qed.
Print Assumptions C112_refuted.
(** With the factor corrected afterwards the total is 1 / (2 J0 + 1). *)
Theorem C112_corrected_partial : forall i k j0 f0 m0 j1 Qs, components k Qs -> tri j0 j1 (2 * k) = true -> tri j0 i f0 = true ->
  Z.abs m0 <= f0 -> Z.even (f0 + m0) = true ->
  sums (fun f1 => (QcZ (f1 + 1) / QcZ (f1 + 2) * sums (fun m1 => sums (fun q => tkq_strength i k q j0 f0 m0 j1 f1 m1) Qs) (mF_range f1))%Qc) (F_range j1 i)
  = frac 1 (j0 + 1).
Proof.
  intros i k j0 f0 m0 j1 Qs HQ T T0 H1 H2. pose proof (tri_nn _ _ _ T) as Nj. pose proof (tri_nn _ _ _ T0) as Nf.
  rewrite (sums_ext _ (fun f1 => (QcZ (f1 + 1) * w6sq i j1 f1 (2 * k) f0 j0)%Qc)).
  - apply w6_norm; auto.
    + rewrite <- T0. symmetry. apply tri_231.
    + rewrite <- T. symmetry. apply tri_321.
    + apply F_range_nodup.
    + intros f1 A _. apply F_range_In; try lia. now rewrite tri_12.
  - intros f1 If. apply F_range_In in If; try lia. apply tri_nn in If. rewrite (C111_isotropic i k j0 f0 m0 j1 f1) by auto using projections_mF.
    assert (Q : w6sq j0 j1 (2 * k) f1 f0 i = w6sq i j1 f1 (2 * k) f0 j0) by (rewrite w6sq_cols, w6sq_cols', w6sq_flip, w6sq_cols; reflexivity).
    rewrite Q. field. apply QcZ_nz. lia.
Qed.
Print Assumptions C112_corrected_partial.
Example C112_case : tri 1 1 (2 * 1) = true /\ tri 1 1 2 = true /\ Z.abs 0 <= 2 /\ Z.even (2 + 0) = true /\ frac 1 (1 + 1) = Q2Qc (1 # 2).
Proof. split; [reflexivity|]. split; [reflexivity|]. split; [lia|]. split; [reflexivity|]. apply Qc_is_canon. reflexivity. Qed.

(** ** Signs *)

(** A 3j symbol that does not vanish for trivial reasons. *)
Lemma w3R_S : forall x y z u v w w' r r', 0 <= x -> 0 <= y -> 0 <= z -> 0 <= u -> 0 <= v -> 0 <= w -> 0 <= w' -> 0 <= r -> 0 <= r' ->
  y + z = u + v -> x + z = w + w' -> x + y = r + r' -> u - v + (w - w') + (r - r') = 0 ->
  w3R (y + z) (x + z) (x + y) (u - v) (w - w') (r - r') =
    (Rc (sgn (u - w')) * sqrt (Rc (D z y x (z + y + x) * (QF u * QF v * QF w * QF w' * QF r * QF r'))) * Rc (Sv z v w (u - z) (w' - z)))%R.
Proof.
  intros x y z u v w w' r r' Hx Hy Hz Hu Hv Hw Hw' Hr Hr' E1 E2 E3 E4. unfold w3R, w3_ok.
  rewrite (tri_intro _ _ _ z y x), (proj_intro _ _ u v), (proj_intro _ _ w w'), (proj_intro _ _ r r') by lia.
  rewrite (proj2 (Z.eqb_eq _ _) E4). cbn [andb]. rewrite (delta2_D _ _ _ z y x) by lia. unfold hfac.
  rewrite (half (y + z + (u - v)) u), (half (y + z - (u - v)) v), (half (x + z + (w - w')) w), (half (x + z - (w - w')) w'), (half (x + y + (r - r')) r), (half (x + y - (r - r')) r') by lia.
  rewrite (half (y + z - (x + z) - (r - r')) (u - w')) by lia. rewrite (w3_sum_V _ _ _ _ _ z v w (u - z) (w' - z)) by lia. rewrite !QcZ_mul. reflexivity.
Qed.
Lemma sgn_mod : forall a b, Z.even (a - b) = true -> sgn a = sgn b.
Proof. intros a b H. unfold sgn. rewrite Z.even_sub in H. now destruct (Z.even a), (Z.even b). Qed.
Lemma sgn_add : forall a b, sgn (a + b) = (sgn a * sgn b)%Qc.
Proof. intros. unfold sgn. rewrite Z.even_add. destruct (Z.even a), (Z.even b); cbn; ring. Qed.

(** All projections reversed. *)
Lemma w3R_neg : forall a b c m n p, w3R a b c (- m) (- n) (- p) = (Rc (sgn ((a + b + c) / 2)) * w3R a b c m n p)%R.
Proof.
  intros. destruct (w3_ok_perm a b c m n p) as [_ [_ E]]. destruct (w3_ok a b c m n p) eqn:O; [|rewrite !w3R_no; try congruence; ring].
  destruct (w3_elim _ _ _ _ _ _ O) as [x [y [z [u [v [w [w' [r [r' [Hx [Hy [Hz [Hu [Hv [Hw [Hw' [Hr [Hr' [-> [-> [-> [A1 [-> [A2 [-> [A3 [-> A4]]]]]]]]]]]]]]]]]]]]]]]]]]].
  rewrite w3R_S by auto. replace (- (u - v)) with (v - u) by lia. replace (- (w - w')) with (w' - w) by lia. replace (- (r - r')) with (r' - r) by lia.
  rewrite w3R_S by lia. replace (Sv z u w' (v - z) (w - z)) with (sgn z * Sv z v w (u - z) (w' - z))%Qc.
  2:{ rewrite <- Sv_rev. f_equal; lia. }
  rewrite (half _ (x + y + z)) by lia. rewrite (Rc_mul (sgn _)).
  assert (G : (sgn (v - w) * sgn z = sgn (x + y + z) * sgn (u - w'))%Qc). { rewrite <- !sgn_add. apply sgn_mod. apply Z.even_spec. exists (- r'). lia. }
  apply (f_equal Rc) in G. rewrite !Rc_mul in G.
  replace (D z y x (z + y + x) * (QF v * QF u * QF w' * QF w * QF r' * QF r))%Qc with (D z y x (z + y + x) * (QF u * QF v * QF w * QF w' * QF r * QF r'))%Qc by ring.
  set (q := sqrt _). set (S := Rc (Sv z v w (u - z) (w' - z))). transitivity ((Rc (sgn (v - w)) * Rc (sgn z)) * (q * S))%R; [ring|]. rewrite G. ring.
Qed.
(** Columns 1 and 2 exchanged. *)
Lemma w3R_cols : forall a b c m n p, w3R b a c n m p = (Rc (sgn ((a + b + c) / 2)) * w3R a b c m n p)%R.
Proof.
  intros. destruct (w3_ok_perm a b c m n p) as [E _]. destruct (w3_ok a b c m n p) eqn:O; [|rewrite !w3R_no; try congruence; ring].
  destruct (w3_elim _ _ _ _ _ _ O) as [x [y [z [u [v [w [w' [r [r' [Hx [Hy [Hz [Hu [Hv [Hw [Hw' [Hr [Hr' [-> [-> [-> [A1 [-> [A2 [-> [A3 [-> A4]]]]]]]]]]]]]]]]]]]]]]]]]]].
  rewrite w3R_S by auto. rewrite (Z.add_comm x y). rewrite w3R_S by lia.
  replace (Sv z w' u (w - z) (v - z)) with (sgn z * Sv z v w (u - z) (w' - z))%Qc.
  2:{ rewrite <- Sv_rev. rewrite (Sv_vw z w' u), (Sv_gh z u w'). f_equal; lia. }
  rewrite (half _ (x + y + z)) by lia. rewrite (Rc_mul (sgn _)).
  assert (G : (sgn (w - v) * sgn z = sgn (x + y + z) * sgn (u - w'))%Qc). { rewrite <- !sgn_add. apply sgn_mod. apply Z.even_spec. exists (- y). lia. }
  apply (f_equal Rc) in G. rewrite !Rc_mul in G.
  replace (D z x y (z + x + y) * (QF w * QF w' * QF u * QF v * QF r * QF r'))%Qc with (D z y x (z + y + x) * (QF u * QF v * QF w * QF w' * QF r * QF r'))%Qc.
  2:{ rewrite (D_23 z y x). replace (z + y + x) with (z + x + y) by lia. ring. }
  set (q := sqrt _). set (S := Rc (Sv z v w (u - z) (w' - z))). transitivity ((Rc (sgn (w - v)) * Rc (sgn z)) * (q * S))%R; [ring|]. rewrite G. ring.
Qed.
(** Columns 2 and 3 exchanged. *)
Lemma w3R_cols' : forall a b c m n p, w3R a c b m p n = (Rc (sgn ((a + b + c) / 2)) * w3R a b c m n p)%R.
Proof.
  intros. destruct (w3_ok_perm a b c m n p) as [_ [E _]]. destruct (w3_ok a b c m n p) eqn:O; [|rewrite !w3R_no; try congruence; ring].
  destruct (w3_elim _ _ _ _ _ _ O) as [x [y [z [u [v [w [w' [r [r' [Hx [Hy [Hz [Hu [Hv [Hw [Hw' [Hr [Hr' [-> [-> [-> [A1 [-> [A2 [-> [A3 [-> A4]]]]]]]]]]]]]]]]]]]]]]]]]]].
  rewrite w3R_S by auto. rewrite (Z.add_comm y z). rewrite w3R_S by lia.
  replace (Sv y v r (u - y) (r' - y)) with (sgn v * Sv z v w (u - z) (w' - z))%Qc.
  2:{ rewrite (Sv_kv z v w), <- (Sv_rev v z w). rewrite (Sv_kv y v r). f_equal; lia. }
  rewrite (half _ (x + y + z)) by lia. rewrite (Rc_mul (sgn _)).
  assert (G : (sgn (u - r') * sgn v = sgn (x + y + z) * sgn (u - w'))%Qc). { rewrite <- !sgn_add. apply sgn_mod. apply Z.even_spec. exists (- r'). lia. }
  apply (f_equal Rc) in G. rewrite !Rc_mul in G.
  replace (D y z x (y + z + x) * (QF u * QF v * QF r * QF r' * QF w * QF w'))%Qc with (D z y x (z + y + x) * (QF u * QF v * QF w * QF w' * QF r * QF r'))%Qc.
  2:{ rewrite (D_12 z y). replace (z + y + x) with (y + z + x) by lia. ring. }
  set (q := sqrt _). set (S := Rc (Sv z v w (u - z) (w' - z))). transitivity ((Rc (sgn (u - r')) * Rc (sgn v)) * (q * S))%R; [ring|]. rewrite G. ring.
Qed.

(** C113.  All projections reversed: the sign is (-1)^(F0 + F1 + k). *)
Theorem C113_reversed : forall i k q j0 f0 m0 j1 f1 m1,
  tkq_mel i k (- q) j0 f0 (- m0) j1 f1 (- m1) = ((if Z.even ((f0 + f1) / 2 + k) then 1 else -1) * tkq_mel i k q j0 f0 m0 j1 f1 m1)%R.
Proof.
  intros. unfold tkq_mel. replace (2 * - q) with (- (2 * q)) by lia. rewrite (w3R_neg f1 (2 * k) f0).
  replace ((f1 + 2 * k + f0) / 2) with ((f0 + f1) / 2 + k) by (replace (f1 + 2 * k + f0) with (f0 + f1 + k * 2) by ring; rewrite Z.div_add; lia).
  unfold sgn. destruct (Z.even _).
  - change 1%Qc with (QcZ 1). rewrite Rc_Z. ring.
  - change (- (1))%Qc with (- QcZ 1)%Qc. rewrite <- QcZ_opp, Rc_Z. change (IZR (- (1))) with (-1)%R. ring.
Qed.
Print Assumptions C113_reversed.

(** The states exchanged: no sign, only the factors in front. *)
Theorem C113_exchanged : forall i k q j0 f0 m0 j1 f1 m1,
  (sqrt (IZR (f0 + 1)) * sqrt (IZR (f1 + 2)) * tkq_mel i k (- q) j1 f1 m1 j0 f0 m0 =
   sqrt (IZR (f1 + 1)) * sqrt (IZR (f0 + 2)) * tkq_mel i k q j0 f0 m0 j1 f1 m1)%R.
Proof.
  intros. unfold tkq_mel. replace (2 * - q) with (- (2 * q)) by lia.
  assert (E6 : w6R j1 j0 (2 * k) f0 f1 i = w6R j0 j1 (2 * k) f1 f0 i).
  { unfold w6R. assert (Et : w6_tri j1 j0 (2 * k) f0 f1 i = w6_tri j0 j1 (2 * k) f1 f0 i).
    { unfold w6_tri. rewrite (tri_12 j1 j0), (tri_12 f0 f1), (tri_12 j1 f1), (tri_12 j0 f0). destruct (tri j0 j1 (2 * k)), (tri f1 f0 (2 * k)), (tri f1 j1 i), (tri f0 j0 i); reflexivity. }
    rewrite Et. destruct (w6_tri j0 j1 (2 * k) f1 f0 i); auto. rewrite (w6_sum_cols12 j1 j0).
    rewrite (delta2_12 j1 j0), (delta2_12 f0 f1), (delta2_12 j1 f1), (delta2_12 j0 f0). f_equal. f_equal. f_equal. ring. }
  assert (E3 : w3R f0 (2 * k) f1 (- m0) (- (2 * q)) m1 = w3R f1 (2 * k) f0 (- m1) (2 * q) m0).
  { pose proof (w3R_neg f0 (2 * k) f1 m0 (2 * q) (- m1)) as E. rewrite Z.opp_involutive in E. rewrite E.
    rewrite (w3R_cols (2 * k) f0 f1), (w3R_cols' (2 * k) f1 f0), (w3R_cols f1 (2 * k) f0).
    replace (f0 + 2 * k + f1) with (f1 + 2 * k + f0) by ring. replace (2 * k + f0 + f1) with (f1 + 2 * k + f0) by ring. replace (2 * k + f1 + f0) with (f1 + 2 * k + f0) by ring.
    pose proof (Rc_sgn2 ((f1 + 2 * k + f0) / 2)) as G. set (g := Rc (sgn ((f1 + 2 * k + f0) / 2))) in *. set (z := w3R f1 (2 * k) f0 (- m1) (2 * q) m0).
    transitivity ((g * g) * (g * g) * z)%R; [ring|]. rewrite G. ring. }
  rewrite E6, E3. ring.
Qed.
Print Assumptions C113_exchanged.
(** F = 1 to F' = 1: the sign is -1. *)
Example C113_case : tkq_strength 1 1 0 1 2 2 1 2 2 <> 0%Qc /\ Z.even ((2 + 2) / 2 + 1) = false.
Proof. split; [|reflexivity]. apply strength_nz. split; [apply w6nz_sq|apply w3nz_sq]; vm_compute; reflexivity. Qed.
