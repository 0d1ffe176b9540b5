(** Sum rules of the 6j symbols with doubled arguments, and the 9j symbol. *)
From Coq Require Import List Bool ZArith QArith Qcanon Lia.
From Verif Require Import Base Util Term Num Wigner WignerProofs WignerOne WignerSym Hyperfine HyperfineProofs Rules RulesProofs StrengthSums WignerOrth.
Import ListNotations.
Local Open Scope Z_scope.

Fixpoint zr (n : nat) (lo : Z) : list Z := match n with O => [] | S n' => lo :: zr n' (lo + 1) end.
Lemma zr_In : forall n lo z, In z (zr n lo) <-> lo <= z < lo + Z.of_nat n.
Proof.
  induction n as [|n IH]; intros lo z; cbn [zr In]; [lia|]. rewrite IH. lia.
Qed.
Lemma zr_NoDup : forall n lo, NoDup (zr n lo).
Proof. induction n as [|n IH]; intros lo; cbn [zr]; constructor; auto. rewrite zr_In. lia. Qed.
Lemma sumr_sums : forall n lo f, sumr n lo f = sums f (zr n lo).
Proof. induction n as [|n IH]; intros lo f; [reflexivity|]. cbn [sumr zr]. now rewrite sums_cons, IH. Qed.

(** Racah's sum with its range, and with zero terms around it. *)
Lemma sum_range_window : forall n lo hi f g, 0 <= lo -> hi < Z.of_nat n -> (forall z, lo <= z <= hi -> f z = g z) ->
  (forall z, 0 <= z < Z.of_nat n -> z < lo \/ hi < z -> g z = 0%Qc) -> sum_range lo hi f = sumr n 0 g.
Proof.
  intros n lo hi f g Hlo Hhi E Z0. unfold sum_range. rewrite !sumr_sums.
  rewrite (sums_ext f g) by (intros z I; apply zr_In in I; apply E; lia).
  apply (sums_supp Z.eq_dec); try apply zr_NoDup.
  - intros z I N. rewrite zr_In in *. lia.
  - intros z I N. rewrite zr_In in *. apply Z0; lia.
Qed.

Lemma w6_sum_RS : forall n a b c d x y s i j, a + b + c + d = 2 * s -> x = a + b - 2 * i -> y = a + d - 2 * j ->
  0 <= a + b - i -> s < Z.of_nat n -> w6_sum a b x c d y = RS n a b d s i j.
Proof.
  intros n a b c d x y s i j Hs -> -> Hg Hn.
  rewrite (w6_sum_R a b (a + b - 2 * i) c d (a + d - 2 * j) (a + b - i) (a + d - j) (s - j) (s - i) s (a + b + d - i - j) (a + s - i - j)) by lia.
  unfold RS, SS. apply sum_range_window; [lia|lia| |].
  - intros t Ht. unfold Rt, Tm. rewrite !IF_pos by lia. field. repeat split; apply QF_nz.
  - intros t Ht Hout. unfold Tm.
    assert (K : t < a + b - i \/ t < s - i \/ t < a + d - j \/ t < s - j \/ s < t \/ a + b + d - i - j < t \/ a + s - i - j < t) by lia.
    destruct K as [K|[K|[K|[K|[K|[K|K]]]]]];
      [rewrite (IF_neg (t - (a + b - i))) by lia|rewrite (IF_neg (t - (s - i))) by lia|rewrite (IF_neg (t - (a + d - j))) by lia|rewrite (IF_neg (t - (s - j))) by lia
      |rewrite (IF_neg (s - t)) by lia|rewrite (IF_neg (a + b + d - i - j - t)) by lia|rewrite (IF_neg (a + s - i - j - t)) by lia]; ring.
Qed.

Lemma tri_vx : forall a b c d x s i, a + b + c + d = 2 * s -> x = a + b - 2 * i -> tri a b x && tri c d x = vx a b d s i.
Proof.
  intros a b c d x s i Hs ->. destruct (vx a b d s i) eqn:V.
  - apply vx_iff in V. apply andb_true_iff. split.
    + apply (tri_intro _ _ _ i (a - i) (b - i)); lia.
    + apply (tri_intro _ _ _ (s - a - b + i) (s - d - i) (a + b + d - s - i)); lia.
  - apply not_vx in V. apply not_true_is_false. intros T. apply andb_true_iff in T. destruct T as [T1 T2]. apply V.
    apply tri_elim in T1 as [p [q [r T1]]]. apply tri_elim in T2 as [p' [q' [r' T2]]]. lia.
Qed.
Lemma delta2_wv : forall a b c d x s i, a + b + c + d = 2 * s -> x = a + b - 2 * i -> (QcZ (x + 1) * delta2 a b x * delta2 c d x)%Qc = wv a b d s i.
Proof.
  intros a b c d x s i Hs ->. unfold wv.
  rewrite (delta2_D a b (a + b - 2 * i) i (a - i) (b - i)) by lia.
  rewrite (delta2_D c d (a + b - 2 * i) (s - a - b + i) (s - d - i) (a + b + d - s - i)) by lia.
  replace (i + (a - i) + (b - i)) with (a + b - i) by lia. replace (s - a - b + i + (s - d - i) + (a + b + d - s - i)) with (s - i) by lia.
  unfold D. field. split; apply QF_nz.
Qed.

(** The weight of one x in the sums below. *)
Definition wgt (a b c d x : Z) : Qc := if tri a b x && tri c d x then (QcZ (x + 1) * delta2 a b x * delta2 c d x)%Qc else 0%Qc.

(** Orthogonality: the sum over all x, in any list without repetitions that
    has those allowed by the triangles. *)
Theorem w6_orth : forall a b c d y z G, tri a d y = true -> tri c b y = true -> tri a d z = true -> tri c b z = true ->
  NoDup G -> (forall x, tri a b x = true -> tri c d x = true -> In x G) ->
  sums (fun x => (wgt a b c d x * (w6_sum a b x c d y * w6_sum a b x c d z))%Qc) G
  = if y =? z then (/ wgt a d c b y)%Qc else 0%Qc.
Proof.
  intros a b c d y z G Ty Uy Tz Uz ND HG.
  pose proof (tri_elim _ _ _ Ty) as [p1 [p2 [p3 P]]]. pose proof (tri_elim _ _ _ Uy) as [q1 [q2 [q3 Q]]].
  pose proof (tri_elim _ _ _ Tz) as [r1 [r2 [r3 R]]].
  set (s := p1 + p2 + p3 + q3). set (j := p3). set (k := r3).
  assert (Hs : a + b + c + d = 2 * s) by (unfold s; lia).
  assert (Ey : y = a + d - 2 * j) by (unfold j; lia). assert (Ez : z = a + d - 2 * k) by (unfold k; lia).
  set (n := Z.to_nat (s + 1)). set (m := Z.to_nat (a + 1)).
  assert (Hn : s < Z.of_nat n) by (unfold n; lia). assert (Hm : a < Z.of_nat m) by (unfold m; lia).
  pose proof (gram_orth (Z.to_nat c) n m a b d s ltac:(lia) ltac:(lia) Hn Hm j k) as E.
  rewrite (sums_supp Z.eq_dec _ G (map (fun i => a + b - 2 * i) (zr m 0)) ND).
  - rewrite sums_map, <- sumr_sums.
    replace (y =? z) with (j =? k) by (destruct (Z.eqb_spec j k), (Z.eqb_spec y z); lia || reflexivity).
    transitivity (gram n m a b d s j k).
    + unfold gram. apply sumr_ext. intros i. unfold wgt, wx.
      rewrite (tri_vx a b c d (a + b - 2 * i) s i Hs eq_refl). destruct (vx a b d s i) eqn:V; [|ring].
      apply vx_iff in V.
      rewrite (delta2_wv a b c d (a + b - 2 * i) s i Hs eq_refl).
      rewrite (w6_sum_RS n a b c d _ y s i j), (w6_sum_RS n a b c d _ z s i k) by (auto; lia). reflexivity.
    + rewrite E. destruct (j =? k); [|reflexivity]. unfold ny, wgt.
      rewrite (tri_vx a d c b y s j) by (auto; lia). rewrite (delta2_wv a d c b y s j) by (auto; lia).
      assert (V : vx a d b s j = true) by (rewrite <- (tri_vx a d c b y s j), Ty, Uy by (auto; lia); reflexivity).
      now rewrite V.
  - apply FinFun.Injective_map_NoDup; [|apply zr_NoDup]. intros u v. lia.
  - intros x I N. unfold wgt. destruct (tri a b x) eqn:T1; [|cbn [andb]; ring]. destruct (tri c d x) eqn:T2; [|cbn [andb]; ring].
    exfalso. apply N. apply in_map_iff. apply tri_elim in T1 as [u [v [w T1]]]. exists w. rewrite zr_In. unfold m. lia.
  - intros x I N. unfold wgt. destruct (tri a b x) eqn:T1; [|cbn [andb]; ring]. destruct (tri c d x) eqn:T2; [|cbn [andb]; ring].
    exfalso. apply N. now apply HG.
Qed.

(** The sum of the squares. *)
Theorem w6_norm : forall a b c d y G, tri a d y = true -> tri c b y = true ->
  NoDup G -> (forall x, tri a b x = true -> tri c d x = true -> In x G) ->
  sums (fun x => (QcZ (x + 1) * w6sq a b x c d y)%Qc) G = frac 1 (y + 1).
Proof.
  intros a b c d y G T U ND HG. pose proof (w6_orth a b c d y y G T U T U ND HG) as E. rewrite Z.eqb_refl in E.
  rewrite (sums_ext _ (fun x => (delta2 a d y * delta2 c b y) * (wgt a b c d x * (w6_sum a b x c d y * w6_sum a b x c d y)))%Qc).
  - rewrite sums_scale, E. unfold wgt. rewrite T, U. cbn [andb]. unfold frac. rewrite QcZ_1.
    field. repeat split; try apply delta2_nz. apply QcZ_nz. apply tri_elim in T as [u [v [w T]]]. lia.
  - intros x _. unfold w6sq, w6_tri, wgt. rewrite T, U. destruct (tri a b x); cbn [andb]; [|ring]. destruct (tri c d x); [|ring].
    ring.
Qed.
