(** Properties C61, C62, C72-C77: line shapes. *)
From Coq Require Import List Bool ZArith Reals Lra Lia Psatz.
From Verif Require Import Base Lineshapes.
Import ListNotations.
Local Open Scope R_scope.

(** ** C61 *)

Lemma lor_den : forall x x0 g, 0 < g -> 0 < 4 * (x - x0) ^ 2 + g ^ 2.
Proof. intros. assert (0 < g ^ 2) by (apply pow_lt; auto). pose proof (pow2_ge_0 (x - x0)). lra. Qed.

Theorem C61_lorentzian : forall x0 g a, 0 < g -> 0 < a ->
  lorentzian x0 x0 g a = a /\
  (forall x, lorentzian x x0 g a = a / 2 <-> Rabs (x - x0) = g / 2) /\
  (forall d, lorentzian (x0 + d) x0 g a = lorentzian (x0 - d) x0 g a) /\
  (forall x, 0 < lorentzian x x0 g a <= a) /\
  (forall x y, Rabs (x - x0) < Rabs (y - x0) -> lorentzian y x0 g a < lorentzian x x0 g a).
Proof.
  intros x0 g a Hg Ha. assert (G2 : 0 < g ^ 2) by (apply pow_lt; auto). split; [|split; [|split; [|split]]].
  - unfold lorentzian. field_simplify_eq; nra.
  - intros x. pose proof (lor_den x x0 g Hg) as D. unfold lorentzian. rewrite <- (pow2_abs (x - x0)) in *. set (u := Rabs (x - x0)) in *.
    assert (U : 0 <= u) by apply Rabs_pos. split.
    + intros E. assert (E2 : a * g ^ 2 = a / 2 * (4 * u ^ 2 + g ^ 2)).
      { rewrite <- E. field. lra. }
      assert (H : (2 * u - g) * (2 * u + g) = 0) by (apply Rmult_eq_reg_l with a; [nra|lra]).
      apply Rmult_integral in H as [H|H]; lra.
    + intros ->. field. nra.
  - intros d. unfold lorentzian. replace ((x0 + d - x0) ^ 2) with ((x0 - d - x0) ^ 2) by ring. reflexivity.
  - intros x. pose proof (lor_den x x0 g Hg) as D. unfold lorentzian. split.
    + apply Rdiv_lt_0_compat; auto. nra.
    + apply Rmult_le_reg_r with (4 * (x - x0) ^ 2 + g ^ 2); auto. unfold Rdiv. rewrite Rmult_assoc, Rinv_l by lra. pose proof (pow2_ge_0 (x - x0)). nra.
  - intros x y H. pose proof (lor_den x x0 g Hg) as D. pose proof (lor_den y x0 g Hg) as D'. unfold lorentzian, Rdiv.
    apply Rmult_lt_compat_l; [nra|]. apply Rinv_lt_contravar; [nra|]. rewrite <- (pow2_abs (x - x0)), <- (pow2_abs (y - x0)).
    pose proof (Rabs_pos (x - x0)). nra.
Qed.
Print Assumptions C61_lorentzian.
Example C61_case : lorentzian 12 10 4 6 = 3 /\ lorentzian 10 10 4 6 = 6 /\ lorentzian 14 10 4 6 = 6 / 5.
Proof. unfold lorentzian. repeat split; field. Qed.

(** ** C62 *)

Lemma sidebands_least : forall depth k n, (forall m, (n <= m < n + k)%nat -> 1 / 100 * INR (fact m) < (depth / 2) ^ m) ->
  ~ 1 / 100 * INR (fact (n + k)) < (depth / 2) ^ (n + k) -> sidebands (S k) depth n = Count (n + k).
Proof.
  intros depth k. induction k as [|k IH]; intros n H1 H2.
  - rewrite Nat.add_0_r in *. cbn [sidebands]. destruct (Rlt_dec _ _); [contradiction|reflexivity].
  - change (sidebands (S (S k)) depth n) with (if Rlt_dec (1 / 100 * INR (fact n)) ((depth / 2) ^ n) then sidebands (S k) depth (S n) else Count n).
    destruct (Rlt_dec _ _) as [|N]; [|exfalso; apply N, H1; lia]. rewrite IH.
    + f_equal. lia.
    + intros m Hm. apply H1. lia.
    + now rewrite Nat.add_succ_comm.
Qed.

(** In exact arithmetic the loop ends, at the least count. *)
Theorem C62_partial : forall depth, exists n fuel, sidebands fuel depth 0 = Count n /\
  (depth / 2) ^ n <= 1 / 100 * INR (fact n) /\ forall m, (m < n)%nat -> 1 / 100 * INR (fact m) < (depth / 2) ^ m.
Proof.
  intros depth. set (x := depth / 2).
  assert (Ex : exists n, x ^ n <= 1 / 100 * INR (fact n)).
  { destruct (cv_speed_pow_fact x (1 / 100)) as [N HN]; [lra|]. exists N. specialize (HN N (Nat.le_refl N)).
    unfold R_dist in HN. rewrite Rminus_0_r in HN. pose proof (INR_fact_lt_0 N) as P.
    assert (Q : x ^ N / INR (fact N) < 1 / 100) by (eapply Rle_lt_trans; [apply Rle_abs|exact HN]).
    apply Rmult_lt_compat_r with (r := INR (fact N)) in Q; auto. unfold Rdiv in Q at 1. rewrite Rmult_assoc, Rinv_l in Q by lra. lra. }
  assert (Least : exists n, x ^ n <= 1 / 100 * INR (fact n) /\ forall m, (m < n)%nat -> 1 / 100 * INR (fact m) < x ^ m).
  { destruct Ex as [n Hn]. revert Hn. induction n as [n IH] using (well_founded_induction Wf_nat.lt_wf). intros Hn.
    assert (C : forall k, (k <= n)%nat -> (exists m, (m < k)%nat /\ x ^ m <= 1 / 100 * INR (fact m)) \/ forall m, (m < k)%nat -> 1 / 100 * INR (fact m) < x ^ m).
    { induction k as [|k IHk]; intros Hk; [right; intros; lia|]. destruct IHk as [[m [H1 H2]]|H]; [lia|left; exists m; split; [lia|auto]|].
      destruct (Rle_lt_dec (x ^ k) (1 / 100 * INR (fact k))) as [H2|H2]; [left; exists k; split; [lia|auto]|right].
      intros m Hm. destruct (Nat.eq_dec m k) as [->|]; auto. apply H. lia. }
    destruct (C n (Nat.le_refl n)) as [[m [H1 H2]]|H]; [exact (IH m H1 H2)|exists n; auto]. }
  destruct Least as [n [H1 H2]]. exists n, (S n). split; auto. rewrite (sidebands_least depth n 0); auto.
  - intros m Hm. apply H2. lia.
  - cbn [plus]. apply Rle_not_lt. exact H1.
Qed.
Print Assumptions C62_partial.

(** Factorials as integers. *)
Fixpoint zfact (n : nat) : Z := match n with O => 1 | S k => Z.of_nat n * zfact k end%Z.
Lemma zfact_fact : forall n, INR (fact n) = IZR (zfact n).
Proof.
  induction n as [|n IH]; [reflexivity|]. rewrite fact_simpl, mult_INR, IH. cbn [zfact]. rewrite mult_IZR, INR_IZR_INZ. reflexivity.
Qed.
(** [n!] stays below [100 * 100^n] for the next [k] values of [n], given both. *)
Fixpoint below100 (k n : nat) (f p : Z) : bool :=
  (f <? 100 * p)%Z && match k with O => true | S k' => below100 k' (S n) (Z.of_nat (S n) * f) (100 * p) end.
Lemma below100_ok : forall k n, below100 k n (zfact n) (100 ^ Z.of_nat n) = true ->
  forall m, (n <= m <= n + k)%nat -> (zfact m < 100 * 100 ^ Z.of_nat m)%Z.
Proof.
  induction k as [|k IH]; intros n H m Hm; cbn [below100] in H; apply andb_true_iff in H as [H1 H2]; apply Z.ltb_lt in H1.
  - now replace m with n by lia.
  - destruct (Nat.eq_dec m n) as [->|]; auto. apply (IH (S n)); [|lia]. cbn [zfact].
    replace (100 ^ Z.of_nat (S n))%Z with (100 * 100 ^ Z.of_nat n)%Z; auto. rewrite Nat2Z.inj_succ, Z.pow_succ_r by lia. reflexivity.
Qed.
Lemma fmax_Z : fmax = IZR (2 ^ 1024).
Proof. unfold fmax. rewrite pow_IZR. f_equal. Qed.

Lemma sidebands_float_exact : forall depth k n fuel, (forall m, (n <= m <= n + k)%nat -> Rabs ((depth / 2) ^ m) < fmax /\ INR (fact m) < fmax) ->
  (fuel <= S k)%nat -> sidebands_float fuel depth n = sidebands fuel depth n.
Proof.
  intros depth k. induction k as [|k IH]; intros n fuel H Hf.
  - destruct fuel as [|[|]]; [reflexivity| |lia]. cbn [sidebands sidebands_float]. destruct (H n ltac:(lia)).
    destruct (Rle_dec _ _); [lra|]. destruct (Rle_dec _ _); [lra|]. reflexivity.
  - destruct fuel as [|fuel]; [reflexivity|]. cbn [sidebands sidebands_float]. destruct (H n ltac:(lia)).
    destruct (Rle_dec _ _); [lra|]. destruct (Rle_dec _ _); [lra|]. destruct (Rlt_dec _ _); auto. apply IH; [|lia]. intros m Hm. apply H. lia.
Qed.

(** For depths from 0 to 100 no number leaves the range of floats. *)
Theorem C62_in_range_partial : forall depth, 0 <= depth <= 100 -> exists n fuel, sidebands_float fuel depth 0 = Count n /\
  (n <= 140)%nat /\ (depth / 2) ^ n <= 1 / 100 * INR (fact n) /\ forall m, (m < n)%nat -> 1 / 100 * INR (fact m) < (depth / 2) ^ m.
Proof.
  intros depth Hd. destruct (C62_partial depth) as [n [fuel [_ [H1 H2]]]].
  assert (Hn : (n <= 140)%nat).
  { destruct (Nat.le_gt_cases n 140) as [|Hgt]; auto. exfalso. specialize (H2 140%nat Hgt).
    assert (P : (depth / 2) ^ 140 <= 50 ^ 140) by (apply pow_incr; lra). rewrite zfact_fact in H2. rewrite pow_IZR in P.
    assert (Q : IZR (100 * 50 ^ Z.of_nat 140) <= IZR (zfact 140)) by (apply IZR_le; apply Z.leb_le; vm_compute; reflexivity).
    rewrite mult_IZR in Q. lra. }
  exists n, (S n). split; [|auto].
  rewrite (sidebands_float_exact depth n 0 (S n)); [apply (sidebands_least depth n 0)|..]; auto.
  - intros m Hm. apply H2. lia.
  - cbn [plus]. apply Rle_not_lt. exact H1.
  - intros m Hm. rewrite fmax_Z. split.
    + rewrite Rabs_right by (apply Rle_ge, pow_le; lra). apply Rle_lt_trans with (50 ^ m); [apply pow_incr; lra|].
      rewrite pow_IZR. apply IZR_lt. assert (C : (50 ^ Z.of_nat m <= 50 ^ 140)%Z) by (apply Z.pow_le_mono_r; lia).
      eapply Z.le_lt_trans; [exact C|]. apply Z.ltb_lt; vm_compute; reflexivity.
    + apply Rle_lt_trans with (INR (fact 140)); [apply le_INR, fact_le; lia|]. rewrite zfact_fact. apply IZR_lt. apply Z.ltb_lt. vm_compute; reflexivity.
Qed.

(** From depth 200 on the constructor raises OverflowError. *)
Theorem C62_refuted : forall depth, 200 <= depth -> exists fuel, sidebands_float fuel depth 0 = Overflow.
Proof.
  intros depth Hd. set (x := depth / 2). assert (Hx : 100 <= x) by (unfold x; lra).
  assert (H : forall k n, (n + k = 155)%nat -> sidebands_float (S k) depth n = Overflow).
  { induction k as [|k IH]; intros n Hn; cbn [sidebands_float]; fold x.
    - replace n with 155%nat by lia. destruct (Rle_dec _ _) as [|N]; auto. exfalso. apply N. rewrite Rabs_right by (apply Rle_ge, pow_le; lra).
      apply Rle_trans with (100 ^ 155); [|apply pow_incr; lra]. rewrite pow_IZR, fmax_Z. apply IZR_le. apply Z.leb_le; vm_compute; reflexivity.
    - destruct (Rle_dec _ _); auto. destruct (Rle_dec _ _); auto. destruct (Rlt_dec _ _) as [|N]; [apply IH; lia|]. exfalso. apply N.
      apply Rlt_le_trans with (100 ^ n); [|apply pow_incr; lra]. rewrite zfact_fact, pow_IZR.
      assert (C : (zfact n < 100 * 100 ^ Z.of_nat n)%Z).
      { apply (below100_ok 155 0); [vm_compute; reflexivity|lia]. }
      apply IZR_lt in C. rewrite mult_IZR in C. lra. }
  exists 156%nat. apply H. reflexivity.
Qed.
Print Assumptions C62_refuted.

Example C62_case : sidebands_float 6 2 0 = Count 5 /\ sidebands 2 (-7) 0 = Count 1.
Proof.
  split.
  - rewrite (sidebands_float_exact 2 8 0 6); [|..|lia].
    + apply (sidebands_least 2 5 0); [|simpl; lra]. intros m Hm. do 5 (destruct m as [|m]; [simpl; lra|]). lia.
    + intros m Hm. rewrite fmax_Z. replace (2 / 2) with 1 by field. rewrite pow1, Rabs_R1. split; [apply IZR_lt; apply Z.ltb_lt; vm_compute; reflexivity|].
      apply Rle_lt_trans with (INR (fact 8)); [apply le_INR, fact_le; lia|]. rewrite zfact_fact. apply IZR_lt. apply Z.ltb_lt; vm_compute; reflexivity.
  - apply (sidebands_least (-7) 1 0); [|simpl; lra]. intros m Hm. replace m with O by lia. simpl; lra.
Qed.

(** ** C72: Gaussian line shape *)

Lemma ln2_bounds : 0 < ln 2.
Proof. rewrite <- ln_1. apply ln_increasing; lra. Qed.

Theorem C72_gaussian : forall x0 s a, 0 < s -> 0 < a ->
  gaussian x0 x0 s a = a /\
  (forall x, gaussian x x0 s a = a / 2 <-> Rabs (x - x0) = s * sqrt (2 * ln 2)) /\
  (forall d, gaussian (x0 + d) x0 s a = gaussian (x0 - d) x0 s a) /\
  (forall x, 0 < gaussian x x0 s a <= a) /\
  (forall x y, Rabs (x - x0) < Rabs (y - x0) -> gaussian y x0 s a < gaussian x x0 s a).
Proof.
  intros x0 s a Hs Ha. assert (S2 : 0 < s ^ 2) by (apply pow_lt; auto). pose proof ln2_bounds as L2.
  assert (I : 0 < / (2 * s ^ 2)) by (apply Rinv_0_lt_compat; lra). unfold gaussian, Rdiv. split; [|split; [|split; [|split]]].
  - replace (- (x0 - x0) ^ 2 * / (2 * s ^ 2)) with 0 by ring. rewrite exp_0. ring.
  - intros x. rewrite <- (pow2_abs (x - x0)). set (u := Rabs (x - x0)). assert (U : 0 <= u) by apply Rabs_pos.
    assert (Q : 0 <= sqrt (2 * ln 2)) by apply sqrt_pos.
    assert (Q2 : sqrt (2 * ln 2) * sqrt (2 * ln 2) = 2 * ln 2) by (apply sqrt_sqrt; lra). split.
    + intros E. apply Rmult_eq_reg_l in E; [|lra]. apply (f_equal ln) in E. rewrite ln_exp, ln_Rinv in E by lra.
      assert (E2 : u ^ 2 = 2 * ln 2 * s ^ 2).
      { apply Rmult_eq_reg_r with (/ (2 * s ^ 2)); [|lra]. transitivity (ln 2); [lra|field; lra]. }
      assert (H : (u - s * sqrt (2 * ln 2)) * (u + s * sqrt (2 * ln 2)) = 0) by (replace (2 * ln 2) with (sqrt (2 * ln 2) * sqrt (2 * ln 2)) in E2 by exact Q2; lra).
      apply Rmult_integral in H as [H|H]; [lra|]. assert (0 <= s * sqrt (2 * ln 2)) by (apply Rmult_le_pos; lra). lra.
    + intros E. replace (- u ^ 2 * / (2 * s ^ 2)) with (- ln 2).
      * rewrite exp_Ropp, exp_ln by lra. reflexivity.
      * rewrite E. replace ((s * sqrt (2 * ln 2)) ^ 2) with (s ^ 2 * (sqrt (2 * ln 2) * sqrt (2 * ln 2))) by ring. rewrite Q2. field. lra.
  - intros d. do 2 f_equal. ring.
  - intros x. split; [apply Rmult_lt_0_compat; auto; apply exp_pos|]. rewrite <- (Rmult_1_r a) at 2. apply Rmult_le_compat_l; [lra|].
    rewrite <- exp_0. pose proof (pow2_ge_0 (x - x0)) as P. destruct (Req_dec (- (x - x0) ^ 2 * / (2 * s ^ 2)) 0) as [->|N]; [lra|]. left. apply exp_increasing.
    assert (0 <= (x - x0) ^ 2 * / (2 * s ^ 2)) by (apply Rmult_le_pos; lra). lra.
  - intros x y H. apply Rmult_lt_compat_l; auto. apply exp_increasing. apply Rmult_lt_compat_r; auto.
    rewrite <- (pow2_abs (x - x0)), <- (pow2_abs (y - x0)). pose proof (Rabs_pos (x - x0)). nra.
Qed.
Print Assumptions C72_gaussian.

(** ** C73: the quoted full width of a Gaussian *)

(** ln 2 to three digits, from 1 + t <= exp t. *)
Lemma exp_le_inv : forall t, t < 1 -> exp t <= / (1 - t).
Proof.
  intros t Ht. pose proof (exp_ineq1_le (- t)) as H. replace t with (- - t) at 1 by ring. rewrite exp_Ropp. apply Rinv_le_contravar; lra.
Qed.
Lemma exp_pow : forall t n, exp t ^ n = exp (INR n * t).
Proof. intros t n. induction n as [|n IH]; [rewrite Rmult_0_l, exp_0; reflexivity|]. cbn [pow]. rewrite IH, <- exp_plus, S_INR. f_equal. ring. Qed.
(** Repeated squaring, rounded down to 12 digits. *)
Fixpoint squares (n : nat) (a : Z) : Z := match n with O => a | S k => squares k (a * a / 1000000000000) end%Z.
Lemma squares_ok : forall n a x, (0 <= a)%Z -> IZR a / 1000000000000 <= x -> IZR (squares n a) / 1000000000000 <= x ^ (2 ^ n).
Proof.
  induction n as [|n IH]; intros a x Ha H; [cbn; lra|]. cbn [squares]. assert (A0 : 0 <= IZR a) by (apply IZR_le; auto).
  replace (x ^ (2 ^ S n)) with ((x ^ 2) ^ (2 ^ n)) by (rewrite <- pow_mult; f_equal; cbn; lia). apply IH.
  - apply Z.div_pos; nia.
  - apply Rle_trans with ((IZR a / 1000000000000) ^ 2); [|apply pow_incr; lra].
    assert (B : (1000000000000 * (a * a / 1000000000000) <= a * a)%Z) by (apply Z.mul_div_le; lia). apply IZR_le in B. rewrite !mult_IZR in B.
    replace ((IZR a / 1000000000000) ^ 2) with (IZR a * IZR a / 1000000000000 / 1000000000000) by field. lra.
Qed.
Lemma ln2_lower : 69184 / 100000 <= ln 2.
Proof.
  assert (E : exp (69184 / 100000) <= 2).
  { replace (69184 / 100000) with (INR (2 ^ 9) * (135125 / 100000000)) by (rewrite INR_IZR_INZ; simpl Z.of_nat; lra). rewrite <- exp_pow.
    apply Rle_trans with ((/ (1 - 135125 / 100000000)) ^ (2 ^ 9)); [apply pow_incr; split; [left; apply exp_pos|apply exp_le_inv; lra]|].
    rewrite pow_inv. apply Rle_trans with (/ (1 / 2)); [|lra]. apply Rinv_le_contravar; [lra|].
    assert (C : IZR (squares 9 998648750000) / 1000000000000 <= (1 - 135125 / 100000000) ^ (2 ^ 9)) by (apply squares_ok; [lia|lra]).
    eapply Rle_trans; [|exact C]. replace (squares 9 998648750000) with 500419843365%Z by (vm_compute; reflexivity). lra. }
  rewrite <- (ln_exp (69184 / 100000)). destruct E as [E| ->]; [left; apply ln_increasing; [apply exp_pos|auto]|right; reflexivity].
Qed.
Lemma ln2_upper : ln 2 <= 69466 / 100000.
Proof.
  assert (E : 2 <= exp (69466 / 100000)).
  { replace (69466 / 100000) with (INR (2 ^ 9) * (69466 / 51200000)) by (rewrite INR_IZR_INZ; simpl Z.of_nat; lra). rewrite <- exp_pow.
    assert (C : IZR (squares 9 1001356757812) / 1000000000000 <= exp (69466 / 51200000) ^ (2 ^ 9)).
    { apply squares_ok; [lia|]. pose proof (exp_ineq1_le (69466 / 51200000)). lra. }
    eapply Rle_trans; [|exact C]. replace (squares 9 1001356757812) with 2002085090142%Z by (vm_compute; reflexivity). lra. }
  rewrite <- (ln_exp (69466 / 100000)). destruct E as [E|E]; [left; apply ln_increasing; [lra|auto]|right; now rewrite <- E].
Qed.

(** The attribute fwhm is the distance of the half-maximum points to 0.11%. *)
Theorem C73_fwhm : forall x0 s a x y, 0 < s -> 0 < a -> x < x0 < y -> gaussian x x0 s a = a / 2 -> gaussian y x0 s a = a / 2 ->
  Rabs (fwhm s - (y - x)) <= 11 / 10000 * (y - x).
Proof.
  intros x0 s a x y Hs Ha H Gx Gy. destruct (C72_gaussian x0 s a Hs Ha) as [_ [E _]]. apply E in Gx. apply E in Gy.
  rewrite Rabs_left in Gx by lra. rewrite Rabs_right in Gy by lra. pose proof ln2_lower. pose proof ln2_upper.
  assert (Q : 0 <= sqrt (2 * ln 2)) by apply sqrt_pos.
  assert (Q2 : sqrt (2 * ln 2) * sqrt (2 * ln 2) = 2 * ln 2) by (apply sqrt_sqrt; lra). set (q := sqrt (2 * ln 2)) in *.
  replace (y - x) with (s * (2 * q)) by lra. unfold fwhm.
  assert (L : 23525 / 10000 <= 2 * q) by nra. assert (U : 2 * q <= 23575 / 10000) by nra.
  replace (s * (2355 / 1000) - s * (2 * q)) with (s * (2355 / 1000 - 2 * q)) by ring. rewrite Rabs_mult, (Rabs_right s) by lra.
  replace (11 / 10000 * (s * (2 * q))) with (s * (11 / 10000 * (2 * q))) by ring. apply Rmult_le_compat_l; [lra|]. apply Rabs_le. lra.
Qed.
Print Assumptions C73_fwhm.

(** ** C74: modulated lines *)

Lemma lor_nonneg : forall x x0 g a, 0 < g -> 0 <= a -> 0 <= lorentzian x x0 g a.
Proof. intros x x0 g a Hg Ha. pose proof (lor_den x x0 g Hg). unfold lorentzian. apply Rmult_le_pos; [|left; apply Rinv_0_lt_compat; auto]. apply Rmult_le_pos; auto. apply pow2_ge_0. Qed.
Lemma lor_le : forall x x0 g a, 0 < g -> 0 <= a -> lorentzian x x0 g a <= a.
Proof.
  intros x x0 g a Hg [Ha| <-]; [apply (C61_lorentzian x0 g a Hg Ha)|]. unfold lorentzian, Rdiv. rewrite !Rmult_0_l. lra.
Qed.
Lemma lor_mirror : forall x0 y d g a, lorentzian (x0 + d) (x0 + y) g a = lorentzian (x0 - d) (x0 - y) g a.
Proof. intros. unfold lorentzian. replace ((x0 + d - (x0 + y)) ^ 2) with ((x0 - d - (x0 - y)) ^ 2) by ring. reflexivity. Qed.
Lemma lor_zero : forall x x0 g, lorentzian x x0 g 0 = 0.
Proof. intros. unfold lorentzian, Rdiv. ring. Qed.

Fixpoint jsum (jv : nat -> R -> R) (depth : R) (n : nat) : R :=
  match n with O => jv 0%nat depth ^ 2 | S k => jsum jv depth k + 2 * jv n depth ^ 2 end.

Theorem C74_modulated : forall jv x0 g a depth f n, 0 < g -> 0 <= a ->
  (forall d, mod_sum jv (x0 + d) x0 g a depth f n = mod_sum jv (x0 - d) x0 g a depth f n) /\
  (forall x, 0 <= mod_sum jv x x0 g a depth f n <= a * jsum jv depth n) /\
  (forall x i, (1 <= i <= n)%nat -> lorentzian x (x0 + INR i * f) g (a * jv i depth ^ 2) <= mod_sum jv x x0 g a depth f n /\
     lorentzian x (x0 - INR i * f) g (a * jv i depth ^ 2) <= mod_sum jv x x0 g a depth f n) /\
  (jv 0%nat depth = 1 -> (forall i, (1 <= i)%nat -> jv i depth = 0) -> forall x, mod_sum jv x x0 g a depth f n = lorentzian x x0 g a).
Proof.
  intros jv x0 g a depth f n Hg Ha.
  assert (P : forall i, 0 <= a * jv i depth ^ 2) by (intros; apply Rmult_le_pos; auto; apply pow2_ge_0).
  assert (B : forall x k, 0 <= mod_sum jv x x0 g a depth f k <= a * jsum jv depth k).
  { intros x k. induction k as [|k IH].
    - cbn [mod_sum jsum]. split; [apply lor_nonneg; auto|apply lor_le; auto].
    - cbn [mod_sum jsum]. pose proof (lor_nonneg x (x0 + INR (S k) * f) g _ Hg (P (S k))). pose proof (lor_nonneg x (x0 - INR (S k) * f) g _ Hg (P (S k))).
      pose proof (lor_le x (x0 + INR (S k) * f) g _ Hg (P (S k))). pose proof (lor_le x (x0 - INR (S k) * f) g _ Hg (P (S k))). lra. }
  split; [|split; [intros x; exact (B x n)|split]].
  - intros d. induction n as [|n IH].
    + cbn [mod_sum]. pose proof (lor_mirror x0 0 d g (a * jv 0%nat depth ^ 2)) as E. now rewrite Rplus_0_r, Rminus_0_r in E.
    + cbn [mod_sum]. rewrite IH.
      rewrite (lor_mirror x0 (INR (S n) * f) d). pose proof (lor_mirror x0 (- (INR (S n) * f)) d g (a * jv (S n) depth ^ 2)) as E.
      replace (x0 + - (INR (S n) * f)) with (x0 - INR (S n) * f) in E by ring. replace (x0 - - (INR (S n) * f)) with (x0 + INR (S n) * f) in E by ring.
      rewrite E. ring.
  - intros x. induction n as [|n IH]; intros i Hi; [lia|]. pose proof (lor_nonneg x (x0 + INR (S n) * f) g _ Hg (P (S n))). pose proof (lor_nonneg x (x0 - INR (S n) * f) g _ Hg (P (S n))).
    specialize (B x n). destruct (Nat.eq_dec i (S n)) as [->|Ni]; cbn [mod_sum]; [lra|]. specialize (IH i ltac:(lia)). lra.
  - intros J0 Ji x. clear B. induction n as [|n IH]; cbn [mod_sum].
    + rewrite J0. f_equal. ring.
    + rewrite IH, (Ji (S n)) by lia. replace (a * 0 ^ 2) with 0 by ring. rewrite !lor_zero. ring.
Qed.
Print Assumptions C74_modulated.
Example C74_case : exists jv, jv 0%nat 0 = 1 /\ (forall i, (1 <= i)%nat -> jv i 0 = 0) /\ mod_sum jv 12 10 4 6 0 3 2 = 3.
Proof.
  exists (fun i d => match i with O => 1 - d | _ => d end). split; [lra|split]; [intros [|i] H; [lia|reflexivity]|].
  cbn. unfold lorentzian. field.
Qed.

(** ** C75: the plotted window *)

(** Sample points are equally spaced, symmetric about [x0] and inside the window. *)
Lemma linspace_sym : forall x0 w n i, (2 <= n)%nat -> (i < n)%nat ->
  linspace (x0 - w) (x0 + w) n i - x0 = - (linspace (x0 - w) (x0 + w) n (n - 1 - i) - x0).
Proof.
  intros x0 w n i Hn Hi. unfold linspace. assert (N : INR (n - 1) <> 0) by (apply not_0_INR; lia).
  replace (INR (n - 1 - i)) with (INR (n - 1) - INR i) by (rewrite <- minus_INR by lia; reflexivity). field. auto.
Qed.
Theorem C75_samples : forall x0 w n, (2 <= n)%nat -> 0 <= w ->
  List.length (samples x0 w n) = n /\ nth 0 (samples x0 w n) 0 = x0 - w /\ nth (n - 1) (samples x0 w n) 0 = x0 + w /\
  (forall i, (S i < n)%nat -> nth (S i) (samples x0 w n) 0 - nth i (samples x0 w n) 0 = 2 * w / INR (n - 1)) /\
  (forall i, (i < n)%nat -> nth i (samples x0 w n) 0 - x0 = - (nth (n - 1 - i) (samples x0 w n) 0 - x0)) /\
  (forall x, In x (samples x0 w n) -> x0 - w <= x <= x0 + w).
Proof.
  intros x0 w n Hn Hw. assert (N : INR (n - 1) <> 0) by (apply not_0_INR; lia). assert (Np : 0 < INR (n - 1)) by (apply lt_0_INR; lia).
  assert (L : List.length (samples x0 w n) = n) by (unfold samples; rewrite map_length, seq_length; reflexivity).
  assert (E : forall i, (i < n)%nat -> nth i (samples x0 w n) 0 = linspace (x0 - w) (x0 + w) n i).
  { intros i Hi. unfold samples. rewrite (nth_indep _ 0 (linspace (x0 - w) (x0 + w) n 0)) by (rewrite map_length, seq_length; auto).
    rewrite map_nth, seq_nth by auto. reflexivity. }
  split; [exact L|]. split; [|split; [|split; [|split]]].
  - rewrite E by lia. unfold linspace. simpl INR. ring.
  - rewrite E by lia. unfold linspace. field. auto.
  - intros i Hi. rewrite !E by lia. unfold linspace. rewrite S_INR. field. auto.
  - intros i Hi. rewrite !E by lia. apply linspace_sym; auto.
  - intros x H. unfold samples in H. apply in_map_iff in H as [i [<- Hi]]. apply in_seq in Hi. unfold linspace.
    assert (I0 : 0 <= INR i) by apply pos_INR. assert (I1 : INR i <= INR (n - 1)) by (apply le_INR; lia).
    replace ((x0 + w - (x0 - w)) / INR (n - 1)) with (2 * w / INR (n - 1)) by (field; auto).
    assert (Q : 0 <= INR i * (2 * w / INR (n - 1)) <= 2 * w).
    { split.
      - apply Rmult_le_pos; auto. apply Rmult_le_pos; [lra|]. left. apply Rinv_0_lt_compat; auto.
      - apply Rle_trans with (INR (n - 1) * (2 * w / INR (n - 1))); [|right; field; auto]. apply Rmult_le_compat_r; auto.
        apply Rmult_le_pos; [lra|]. left. apply Rinv_0_lt_compat; auto. }
    lra.
Qed.
Print Assumptions C75_samples.

(** Half-maximum points lie inside the window, for the Lorentzian, every
    sideband of the modulated Lorentzian, and the Gaussian. *)
Theorem C75_partial :
  (forall g A p x0 a x, 0 < lor_width g A -> 0 < a -> 1 / 2 <= p -> lor_shape g A a x x0 = a / 2 -> Rabs (x - x0) <= lor_window g A p) /\
  (forall g A f n p x0 a x i, 0 < mod_width g A -> 0 < a -> 0 <= f -> 1 / 2 <= p -> (i <= n)%nat ->
     lorentzian x (x0 + INR i * f) (mod_width g A) a = a / 2 \/ lorentzian x (x0 - INR i * f) (mod_width g A) a = a / 2 ->
     Rabs (x - x0) <= mod_window g A f n p) /\
  (forall s p x0 a x, 0 < s -> 0 < a -> 2 <= p -> gaussian x x0 s a = a / 2 -> Rabs (x - x0) <= gauss_window s p).
Proof.
  split; [|split].
  - intros g A p x0 a x Hg Ha Hp E. unfold lor_shape in E. apply (C61_lorentzian x0 _ a Hg Ha) in E. unfold lor_window. rewrite E. nra.
  - intros g A f n p x0 a x i Hg Ha Hf Hp Hi E. unfold mod_window.
    assert (I : 0 <= INR i * f <= INR n * f).
    { split; [apply Rmult_le_pos; auto; apply pos_INR|]. apply Rmult_le_compat_r; auto. apply le_INR; auto. }
    assert (W : mod_width g A / 2 <= p * mod_width g A) by nra.
    destruct E as [E|E]; apply (C61_lorentzian _ _ a Hg Ha) in E.
    + replace (x - x0) with ((x - (x0 + INR i * f)) + INR i * f) by ring. eapply Rle_trans; [apply Rabs_triang|]. rewrite E, (Rabs_right (INR i * f)) by lra. lra.
    + replace (x - x0) with ((x - (x0 - INR i * f)) + - (INR i * f)) by ring. eapply Rle_trans; [apply Rabs_triang|]. rewrite E, Rabs_Ropp, (Rabs_right (INR i * f)) by lra. lra.
  - intros s p x0 a x Hs Ha Hp E. apply (C72_gaussian x0 s a Hs Ha) in E. unfold gauss_window. rewrite E, (Rmult_comm p). apply Rmult_le_compat_l; [lra|].
    pose proof ln2_upper. pose proof ln2_bounds. assert (Q : 0 <= sqrt (2 * ln 2)) by apply sqrt_pos.
    assert (Q2 : sqrt (2 * ln 2) * sqrt (2 * ln 2) = 2 * ln 2) by (apply sqrt_sqrt; lra). nra.
Qed.
Print Assumptions C75_partial.

(** A thermal line at 40 or more (GHz) is never shown falling below 7/8. *)
Theorem C75_thermal_refuted : forall s a x0 n x y, 0 < s -> 0 < a -> 40 <= x0 -> (2 <= n)%nat ->
  In (x, y) (compute (fun x => thermal_gauss s a x x0) x0 (thermal_window s 20) n) -> 7 / 8 * a <= y.
Proof.
  intros s a x0 n x y Hs Ha Hx Hn H. unfold compute in H. apply in_map_iff in H as [x' [E H]]. injection E as -> <-.
  unfold thermal_window in H. apply (C75_samples x0 (20 * s) n Hn) in H; [|lra]. unfold thermal_gauss, gaussian.
  rewrite (Rmult_comm a). apply Rmult_le_compat_r; [lra|]. eapply Rle_trans; [|apply exp_ineq1_le].
  assert (S : 0 < s * x0) by nra. assert (U : 0 < (s * x0) ^ 2) by (apply pow_lt; auto).
  assert (D : (x - x0) ^ 2 <= (20 * s) ^ 2) by (assert (0 <= (20 * s - (x - x0)) * (20 * s + (x - x0))) by (apply Rmult_le_pos; lra); nra).
  assert (F : (20 * s) ^ 2 <= / 4 * (s * x0) ^ 2).
  { replace (/ 4 * (s * x0) ^ 2) with ((/ 2 * (s * x0)) ^ 2) by field. apply pow_incr. split; [lra|]. nra. }
  assert (G : (x - x0) ^ 2 / (2 * (s * x0) ^ 2) <= 1 / 8).
  { apply Rmult_le_reg_r with (2 * (s * x0) ^ 2); [lra|]. unfold Rdiv at 1. rewrite Rmult_assoc, Rinv_l by lra. lra. }
  unfold Rdiv in *. lra.
Qed.
Print Assumptions C75_thermal_refuted.
Example C75_case : lor_shape 4 (Some 2) 6 13 10 = 3 /\ lor_window 4 (Some 2) 20 = 120 /\ mod_window 4 None 3 2 20 = 86 /\
  samples 10 4 3 = [6; 10; 14].
Proof.
  unfold lor_shape, lor_window, lor_width, mod_window, mod_width, lorentzian, samples, linspace. simpl. repeat split; try field.
  repeat f_equal; field.
Qed.

(** ** C76: the peak is sampled *)

Theorem C76_partial : forall x0 w k, In x0 (samples x0 w (S (2 * S k))).
Proof.
  intros. unfold samples. apply in_map_iff. exists (S k). split; [|apply in_seq; lia]. unfold linspace.
  replace (INR (S (2 * S k) - 1)) with (2 * INR (S k)) by (replace (S (2 * S k) - 1)%nat with (2 * S k)%nat by lia; rewrite mult_INR; simpl (INR 2); ring).
  field. apply not_0_INR. lia.
Qed.
(** With an even number of points, such as the default 1000, it never is: the
    plotted maximum is lower than the amplitude. *)
Theorem C76_refuted : forall x0 g a k x y, 0 < g -> 0 < a -> (1 <= k)%nat ->
  In (x, y) (compute (fun x => lor_shape g None a x x0) x0 (lor_window g None 20) (2 * k)) -> y < a.
Proof.
  intros x0 g a k x y Hg Ha Hk H. unfold compute in H. apply in_map_iff in H as [x' [E H]]. injection E as -> <-.
  unfold lor_shape, lor_window, lor_width in *. destruct (C61_lorentzian x0 g a Hg Ha) as [P [_ [_ [_ M]]]]. rewrite <- P at 2. apply M.
  replace (x0 - x0) with 0 by ring. rewrite Rabs_R0. apply Rabs_pos_lt. unfold samples in H. apply in_map_iff in H as [i [<- Hi]]. apply in_seq in Hi.
  unfold linspace. assert (N : INR (2 * k - 1) <> 0) by (apply not_0_INR; lia).
  replace (x0 - 20 * g + INR i * ((x0 + 20 * g - (x0 - 20 * g)) / INR (2 * k - 1)) - x0) with (20 * g * (2 * INR i - INR (2 * k - 1)) / INR (2 * k - 1)) by (field; auto).
  assert (D : 2 * INR i - INR (2 * k - 1) <> 0).
  { intros D. assert (D' : INR (2 * i) = INR (2 * k - 1)) by (rewrite mult_INR; simpl (INR 2); lra). apply INR_eq in D'. lia. }
  unfold Rdiv. apply Rmult_integral_contrapositive_currified; [|apply Rinv_neq_0_compat; auto]. apply Rmult_integral_contrapositive_currified; lra.
Qed.
(** The loss for a Lorentzian with default settings is below 0.17%. *)
Theorem C76_default : forall x0 g a, 0 < g -> 0 < a -> exists x y,
  In (x, y) (compute (fun x => lor_shape g None a x x0) x0 (lor_window g None 20) 1000) /\ 9983 / 10000 * a <= y.
Proof.
  intros x0 g a Hg Ha. set (x := linspace (x0 - 20 * g) (x0 + 20 * g) 1000 500). exists x, (lor_shape g None a x x0). split.
  - unfold compute. apply in_map_iff. exists x. split; auto. unfold samples, lor_window, lor_width. apply in_map_iff. exists 500%nat. split; [reflexivity|apply in_seq; lia].
  - unfold lor_shape, lor_width, lorentzian. assert (X : x - x0 = 20 * g / 999).
    { unfold x, linspace. replace (INR (1000 - 1)) with 999 by (rewrite INR_IZR_INZ; reflexivity). replace (INR 500) with 500 by (rewrite INR_IZR_INZ; reflexivity). field. }
    rewrite X. replace (4 * (20 * g / 999) ^ 2 + g ^ 2) with (g ^ 2 * (1 + 1600 / 998001)) by field.
    replace (a * g ^ 2 / (g ^ 2 * (1 + 1600 / 998001))) with (a / (1 + 1600 / 998001)) by (field; nra). lra.
Qed.
Print Assumptions C76_default.
Example C76_case : In 10 (samples 10 4 5) /\ ~ In 10 (samples 10 4 4).
Proof.
  split; [exact (C76_partial 10 4 1)|]. unfold samples, linspace. simpl. intros H. repeat destruct H as [H|H]; lra.
Qed.

(** ** C77: thermal line shapes *)

Theorem C77_partial : forall voigt s g a x x0, s * x0 <> 0 -> g <> 0 -> exists y, thermal voigt s g a x x0 = Ok y /\
  (25 < g / (s * x0) -> y = lorentzian x x0 g a) /\
  (g / (s * x0) <= 25 -> 25 < s * x0 / g -> y = gaussian x x0 (s * x0) a) /\
  (g / (s * x0) <= 25 -> s * x0 / g <= 25 -> y = voigt x x0 (s * x0) g a).
Proof.
  intros voigt s g a x x0 H G. unfold thermal, over. destruct (Req_EM_T _ _); [contradiction|]. cbn [rbind].
  destruct (Rlt_dec _ _) as [L|L].
  - eexists. split; [reflexivity|]. split; [auto|]. split; intros; lra.
  - destruct (Req_EM_T _ _); [contradiction|]. cbn [rbind]. destruct (Rlt_dec _ _) as [L'|L'].
    + eexists. split; [reflexivity|]. split; [intros; lra|]. split; [auto|intros; lra].
    + eexists. split; [reflexivity|]. split; [intros; lra|]. split; [intros; lra|auto].
Qed.
(** With the default laser linewidth of 0 no thermal spectrum can be drawn. *)
Theorem C77_refuted : forall voigt s a x x0, 0 < s -> 0 < x0 -> thermal voigt s 0 a x x0 = Raise ZeroDivisionError.
Proof.
  intros voigt s a x x0 Hs Hx. unfold thermal, over. destruct (Req_EM_T _ _) as [|N]; [reflexivity|]. cbn [rbind].
  destruct (Rlt_dec _ _) as [L|L]; [unfold Rdiv in L; rewrite Rmult_0_l in L; lra|]. destruct (Req_EM_T _ _); [reflexivity|contradiction].
Qed.
Print Assumptions C77_refuted.
Example C77_case : forall v, thermal v 2 200 6 110 10 = Ok (v 110 10 20 200 6) /\ thermal v 1 200 6 105 5 = Ok 3.
Proof.
  intros v. unfold thermal, over. split.
  - destruct (Req_EM_T _ _); [lra|]. cbn [rbind]. destruct (Rlt_dec _ _); [lra|]. destruct (Req_EM_T _ _); [lra|]. cbn [rbind]. destruct (Rlt_dec _ _); [lra|]. repeat f_equal; lra.
  - destruct (Req_EM_T _ _); [lra|]. cbn [rbind]. destruct (Rlt_dec _ _); [|lra]. unfold lorentzian. f_equal. field.
Qed.

(** ** C78: natural linewidths *)

(** Without an A coefficient an unmodulated ModLorentzian is a Lorentzian. *)
Theorem C78_partial : forall jv g a f n x x0, 0 < g -> 0 <= a -> jv 0%nat 0 = 1 -> (forall i, (1 <= i)%nat -> jv i 0 = 0) ->
  mod_sum jv x x0 (mod_width g None) a 0 f n = lor_shape g None a x x0.
Proof. intros jv g a f n x x0 Hg Ha J0 Ji. exact (proj2 (proj2 (proj2 (C74_modulated jv x0 g a 0 f n Hg Ha))) J0 Ji x). Qed.
(** With one, the two disagree for every A > 0 away from the centre. *)
Theorem C78_refuted : forall jv g A a f n x x0, 0 < g -> 0 < A -> 0 < a -> x <> x0 -> jv 0%nat 0 = 1 -> (forall i, (1 <= i)%nat -> jv i 0 = 0) ->
  mod_sum jv x x0 (mod_width g (Some A)) a 0 f n < lor_shape g (Some A) a x x0.
Proof.
  intros jv g A a f n x x0 Hg HA Ha Hx J0 Ji. pose proof PI2_3_2 as P. pose proof PI_RGT_0.
  assert (K : 0 < A / (1000000 * 2 * PI) < A).
  { split; [apply Rdiv_lt_0_compat; lra|]. apply Rmult_lt_reg_r with (1000000 * 2 * PI); [lra|]. unfold Rdiv. rewrite Rmult_assoc, Rinv_l by lra. nra. }
  assert (W : 0 < mod_width g (Some A)) by (unfold mod_width; lra).
  rewrite (proj2 (proj2 (proj2 (C74_modulated jv x0 (mod_width g (Some A)) a 0 f n W ltac:(lra)))) J0 Ji x).
  unfold lor_shape, lor_width, mod_width, lorentzian in *. set (u := g + A / (1000000 * 2 * PI)) in *. set (v := g + A).
  assert (UV : u < v) by (unfold u, v; lra). assert (D : 0 < (x - x0) ^ 2) by (rewrite <- Rsqr_pow2; apply Rsqr_pos_lt; lra).
  assert (U2 : 0 < u ^ 2) by (apply pow_lt; auto). assert (V2 : u ^ 2 < v ^ 2) by nra. generalize dependent (u ^ 2). generalize dependent (v ^ 2). generalize dependent ((x - x0) ^ 2).
  clear -Ha. intros d Hd q p Hp Hq. apply Rmult_lt_reg_r with ((4 * d + p) * (4 * d + q)); [nra|].
  replace (a * p / (4 * d + p) * ((4 * d + p) * (4 * d + q))) with (a * p * (4 * d + q)) by (field; lra).
  replace (a * q / (4 * d + q) * ((4 * d + p) * (4 * d + q))) with (a * q * (4 * d + p)) by (field; lra). assert (0 < a * d) by nra. nra.
Qed.
Print Assumptions C78_refuted.

(** ** C79: Doppler width *)

(** The shape at its own width: standard deviation [sigma x0] ... *)
Theorem C79_refuted : forall k T m c, 0 < k -> 0 < T -> 0 < m -> 0 < c ->
  thermal_sigma k T m c ^ 2 = 8 * (k * T / (m * c ^ 2)) /\ sqrt (k * T / (m * c ^ 2)) < thermal_sigma k T m c / 2.
Proof.
  intros k T m c Hk HT Hm Hc. assert (C2 : 0 < c ^ 2) by (apply pow_lt; auto). assert (D : 0 < m * c ^ 2) by nra.
  assert (Q : 0 < k * T / (m * c ^ 2)) by (apply Rdiv_lt_0_compat; nra). unfold thermal_sigma.
  replace (8 * k * T / (m * c ^ 2)) with (8 * (k * T / (m * c ^ 2))) by (field; lra). split.
  - rewrite pow2_sqrt; lra.
  - set (q := k * T / (m * c ^ 2)) in *. replace (8 * q) with (2 * 2 * (2 * q)) by ring. rewrite sqrt_mult by lra. rewrite sqrt_square by lra.
    replace (2 * sqrt (2 * q) / 2) with (sqrt (2 * q)) by field. apply sqrt_lt_1; lra.
Qed.
Print Assumptions C79_refuted.
Example C73_case : exists x y, x < 10 < y /\ gaussian x 10 2 6 = 6 / 2 /\ gaussian y 10 2 6 = 6 / 2.
Proof.
  pose proof ln2_bounds. assert (Q : 0 < sqrt (2 * ln 2)) by (apply sqrt_lt_R0; lra).
  destruct (C72_gaussian 10 2 6) as [_ [E _]]; try lra. exists (10 - 2 * sqrt (2 * ln 2)), (10 + 2 * sqrt (2 * ln 2)). split; [lra|].
  split; apply E; [rewrite Rabs_left by lra|rewrite Rabs_right by lra]; ring.
Qed.

(** ** C80: shades *)

Lemma lowest_spec : forall l m, lowest l = Some m -> In m l /\ forall z, In z l -> (m <= z)%Z.
Proof.
  intros [|a l] m H; [discriminate|]. injection H as <-. revert a. induction l as [|b l IH]; intros a; cbn [fold_left].
  - split; [now left|]. intros z [->|[]]; lia.
  - destruct (IH (Z.min a b)) as [H1 H2]. split.
    + destruct H1 as [H1|H1]; [|right; right; exact H1]. rewrite <- H1. destruct (Z.min_spec a b) as [[_ ->]|[_ ->]]; [left|right; left]; reflexivity.
    + pose proof (H2 _ (or_introl eq_refl)) as H3. intros z [->|[->|Hz]]; [lia|lia|]. apply H2. now right.
Qed.
Lemma in_members : forall c items z, In z (members c items) <-> In (c, z) items.
Proof.
  intros. unfold members. rewrite in_map_iff. split.
  - intros [[c' z'] [<- H]]. apply filter_In in H as [H1 H2]. cbn in H2. apply Z.eqb_eq in H2. now subst.
  - intros H. exists (c, z). split; auto. apply filter_In. split; auto. cbn. apply Z.eqb_refl.
Qed.

(** Every item has a lightness above 0.2; among items of one colour it grows
    with the shade; and it stays below 0.8 if the shades of the colour have no
    gaps (shades are doubled, so steps are 2). *)
Theorem C80_partial : forall items c,
  (forall s, In (c, s) items -> exists l, lightness items (c, s) = Some l /\ 2 / 10 < l) /\
  (forall s s' l l', In (c, s) items -> In (c, s') items -> lightness items (c, s) = Some l -> lightness items (c, s') = Some l' -> (s < s')%Z -> l < l') /\
  ((forall s s', In (c, s) items -> In (c, s') items -> Z.even (s' - s) = true) ->
   (forall s s' z, In (c, s) items -> In (c, s') items -> (s <= z <= s')%Z -> Z.even (z - s) = true -> In (c, z) items) ->
   forall s l, In (c, s) items -> lightness items (c, s) = Some l -> l < 8 / 10).
Proof.
  intros items c. assert (Q : forall k, 0 < INR k + 1) by (intros; pose proof (pos_INR k); lra).
  assert (D : forall s, In (c, s) items -> exists m, lowest (members c items) = Some m /\ In (c, m) items /\ (m <= s)%Z).
  { intros s H. apply in_members in H. destruct (lowest (members c items)) as [m|] eqn:E.
    - exists m. apply lowest_spec in E as [E1 E2]. split; auto. split; [now apply in_members|auto].
    - destruct (members c items); [destruct H|discriminate]. }
  split; [|split].
  - intros s H. destruct (D s H) as [m [E [_ L]]]. unfold lightness. cbn [fst snd]. rewrite E. eexists. split; [reflexivity|].
    assert (L' : 0 <= IZR (s - m)) by (apply IZR_le; lia).
    assert (0 < 6 / 10 * (IZR (s - m) / 2 + 1) / (INR (List.length (members c items)) + 1)) by (apply Rdiv_lt_0_compat; [lra|apply Q]). lra.
  - intros s s' l l' H H' E E' L. destruct (D s H) as [m [E0 _]]. unfold lightness in *. cbn [fst snd] in *. rewrite E0 in E, E'. injection E as <-. injection E' as <-.
    apply Rplus_lt_compat_l. apply Rmult_lt_compat_r; [apply Rinv_0_lt_compat, Q|]. assert (IZR (s - m) < IZR (s' - m)) by (apply IZR_lt; lia). lra.
  - intros Par Gap s l H E. destruct (D s H) as [m [E0 [Hm L]]]. unfold lightness in E. cbn [fst snd] in E. rewrite E0 in E. injection E as <-.
    pose proof (Par _ _ Hm H) as P. apply Zeven_bool_iff, Zeven_ex in P as [k Hk]. assert (K0 : (0 <= k)%Z) by lia.
    set (N := List.length (members c items)).
    assert (C : (Z.to_nat k + 1 <= N)%nat).
    { unfold N. set (zs := map (fun i => (m + 2 * Z.of_nat i)%Z) (seq 0 (Z.to_nat k + 1))).
      replace (Z.to_nat k + 1)%nat with (List.length zs) by (unfold zs; rewrite map_length, seq_length; reflexivity).
      apply NoDup_incl_length.
      - unfold zs. apply FinFun.Injective_map_NoDup; [|apply seq_NoDup]. intros i j Hij. lia.
      - intros z Hz. unfold zs in Hz. apply in_map_iff in Hz as [i [<- Hi]]. apply in_seq in Hi. apply in_members. apply (Gap m s); auto; [lia|].
        replace (m + 2 * Z.of_nat i - m)%Z with (2 * Z.of_nat i)%Z by lia. apply Zeven_bool_iff. apply Zeven_2p. }
    apply le_INR in C. rewrite plus_INR in C. simpl (INR 1) in C. rewrite INR_IZR_INZ, Z2Nat.id in C by lia.
    replace (s - m)%Z with (2 * k)%Z by lia. rewrite mult_IZR. specialize (Q N).
    assert (B : 6 / 10 * (2 * IZR k / 2 + 1) / (INR N + 1) < 6 / 10); [|lra].
    apply Rmult_lt_reg_r with (INR N + 1); [lra|]. unfold Rdiv at 1. rewrite Rmult_assoc, Rinv_l by lra. lra.
Qed.
Print Assumptions C80_partial.
(** With a gap the lightness can exceed 1, which is not a colour. *)
Theorem C80_refuted : exists items p l, In p items /\ lightness items p = Some l /\ 1 < l.
Proof. exists [(0, -8); (0, 8)]%Z, (0, 8)%Z. eexists. split; [simpl; auto|]. split; [reflexivity|]. simpl. lra. Qed.
Example C80_case : exists l, lightness [(0, -2); (2, 0); (0, 0); (0, 2)]%Z (0, 0)%Z = Some l /\ l = 1 / 2.
Proof. eexists. split; [reflexivity|]. simpl. lra. Qed.

(** ** C81: the total curve *)

(** Abscissae strictly increase. *)
Fixpoint increasing (pts : list (R * R)) : Prop :=
  match pts with
  | [] => True
  | (x1, _) :: r => match r with [] => True | (x2, _) :: _ => x1 < x2 /\ increasing r end
  end.
Lemma increasing_head : forall r x1 y1 x y, increasing ((x1, y1) :: r) -> In (x, y) r -> x1 < x.
Proof.
  induction r as [|[x2 y2] r IH]; intros x1 y1 x y H HI; [destruct HI|]. cbn in H. destruct H as [H1 H2]. destruct HI as [E|HI].
  - now injection E as <- <-.
  - apply Rlt_trans with x2; auto. exact (IH x2 y2 x y H2 HI).
Qed.
Lemma interp_at : forall pts x y, increasing pts -> In (x, y) pts -> interp pts x = y.
Proof.
  induction pts as [|[x1 y1] r IH]; intros x y Hi HI; [destruct HI|]. destruct r as [|[x2 y2] r].
  - destruct HI as [E|[]]. injection E as <- <-. reflexivity.
  - destruct HI as [E|HI].
    + injection E as <- <-. cbn [interp]. destruct (Rle_dec x1 x1); [reflexivity|lra].
    + pose proof (increasing_head _ _ _ _ _ Hi HI) as L. destruct Hi as [H1 H2]. change (interp ((x1, y1) :: (x2, y2) :: r) x) with
        (if Rle_dec x x1 then y1 else if Rle_dec x x2 then (y2 - y1) / (x2 - x1) * (x - x1) + y1 else interp ((x2, y2) :: r) x).
      destruct (Rle_dec x x1); [lra|]. destruct (Rle_dec x x2) as [L2|L2]; [|exact (IH x y H2 HI)]. destruct HI as [E|HI].
      * injection E as <- <-. field. lra.
      * pose proof (increasing_head _ _ _ _ _ H2 HI). lra.
Qed.
Lemma interp_between : forall pts lo hi x, increasing pts -> pts <> [] -> (forall x y, In (x, y) pts -> lo <= y <= hi) -> lo <= interp pts x <= hi.
Proof.
  induction pts as [|[x1 y1] r IH]; intros lo hi x Hi Hn Hb; [congruence|]. destruct r as [|[x2 y2] r].
  - exact (Hb x1 y1 (or_introl eq_refl)).
  - change (interp ((x1, y1) :: (x2, y2) :: r) x) with
        (if Rle_dec x x1 then y1 else if Rle_dec x x2 then (y2 - y1) / (x2 - x1) * (x - x1) + y1 else interp ((x2, y2) :: r) x).
    pose proof (Hb x1 y1 (or_introl eq_refl)) as B1. pose proof (Hb x2 y2 (or_intror (or_introl eq_refl))) as B2. destruct Hi as [H1 H2].
    destruct (Rle_dec x x1); [lra|]. destruct (Rle_dec x x2) as [L2|L2].
    + set (t := (x - x1) / (x2 - x1)). assert (I : 0 < / (x2 - x1)) by (apply Rinv_0_lt_compat; lra).
      assert (T : 0 <= t <= 1).
      { unfold t. split; [apply Rmult_le_pos; lra|]. apply Rmult_le_reg_r with (x2 - x1); [lra|]. unfold Rdiv. rewrite Rmult_assoc, Rinv_l by lra. lra. }
      replace ((y2 - y1) / (x2 - x1) * (x - x1) + y1) with ((1 - t) * y1 + t * y2) by (unfold t; field; lra). nra.
    + apply IH; auto; [discriminate|]. intros a b HI. apply (Hb a b). now right.
Qed.
Lemma interp_left : forall x1 y1 r x, x <= x1 -> interp ((x1, y1) :: r) x = y1.
Proof. intros x1 y1 [|[x2 y2] r] x L; [reflexivity|]. cbn [interp]. destruct (Rle_dec x x1); [reflexivity|contradiction]. Qed.

(** On non-negative curves the total is at least every curve drawn, and where
    all curves are sampled it is their sum. *)
Theorem C81_partial : forall curves, Forall increasing curves -> Forall (fun c => c <> []) curves ->
  (forall c x y, In c curves -> In (x, y) c -> 0 <= y) ->
  (forall c x y, In c curves -> In (x, y) c -> y <= total curves x) /\
  (forall x ys, Forall2 (fun c y => In (x, y) c) curves ys -> total curves x = fold_right Rplus 0 ys).
Proof.
  intros curves Hi Hn Hp.
  assert (P : forall c x, In c curves -> 0 <= interp c x).
  { intros c x Hc. set (hi := fold_right Rmax 0 (map snd c)). apply (interp_between c 0 hi).
    - rewrite Forall_forall in Hi. auto.
    - rewrite Forall_forall in Hn. auto.
    - intros a b HI. split; [eauto|]. unfold hi. clear -HI. induction c as [|[u v] c IH]; [destruct HI|]. cbn. destruct HI as [E|HI]; [injection E as -> ->; apply Rmax_l|].
      eapply Rle_trans; [exact (IH HI)|apply Rmax_r]. }
  split.
  - intros c x y Hc HI. rewrite <- (interp_at c x y) by (auto; rewrite Forall_forall in Hi; auto). clear HI Hp Hi Hn.
    assert (T : forall l, (forall c, In c l -> 0 <= interp c x) -> 0 <= total l x).
    { induction l as [|d l IH]; intros H; cbn; [lra|]. pose proof (H d (or_introl eq_refl)). specialize (IH (fun c Hc => H c (or_intror Hc))). unfold total in IH. lra. }
    induction curves as [|d curves IH]; [destruct Hc|]. cbn. destruct Hc as [->|Hc].
    + specialize (T curves (fun c' Hc' => P c' x (or_intror Hc'))). unfold total in T. lra.
    + specialize (IH (fun c0 x1 Hc0 => P c0 x1 (or_intror Hc0)) Hc). pose proof (P d x (or_introl eq_refl)). unfold total in IH. lra.
  - intros x ys F. clear Hp P Hn. revert Hi. induction F as [|c y curves ys H F IH]; intros Hi; [reflexivity|]. cbn. inversion_clear Hi as [|? ? H1 H2].
    rewrite (interp_at c x y) by auto. specialize (IH H2). unfold total in IH. now rewrite IH.
Qed.
Print Assumptions C81_partial.
(** Outside its window a line goes on at the height of its edge: left of it the
    total lies above the sum of the line shapes by arbitrarily much of it. *)
Theorem C81_refuted : forall x0 g a n x, 0 < g -> 0 < a -> (2 <= n)%nat -> x < x0 - 20 * g ->
  total [compute (fun x => lor_shape g None a x x0) x0 (lor_window g None 20) n] x = a / 1601 /\ lor_shape g None a x x0 < a / 1601.
Proof.
  intros x0 g a n x Hg Ha Hn Hx. unfold lor_shape, lor_window, lor_width. assert (E : lorentzian (x0 - 20 * g) x0 g a = a / 1601).
  { unfold lorentzian. field. nra. }
  split.
  - cbn [total fold_right]. rewrite Rplus_0_r. destruct n as [|n]; [lia|]. unfold compute, samples. cbn [seq map]. rewrite interp_left.
    + rewrite <- E. f_equal. unfold linspace. simpl (INR 0). ring.
    + unfold linspace. simpl (INR 0). lra.
  - rewrite <- E. apply (C61_lorentzian x0 g a Hg Ha). rewrite !Rabs_left by lra. lra.
Qed.
Print Assumptions C81_refuted.
Example C81_case : total [[(0, 1); (2, 3)]; [(2, 5); (4, 1)]] 2 = 8 /\ total [[(0, 1); (2, 3)]; [(2, 5); (4, 1)]] 1 = 7.
Proof. unfold total, interp. cbn. split; repeat match goal with |- context [Rle_dec ?a ?b] => destruct (Rle_dec a b) end; lra. Qed.
