(** Properties C39, C40 and C66: the functions of transition_strengths.py.
    Angular momenta and projections are doubled integers. *)
From Coq Require Import List Bool ZArith QArith Qcanon Reals Qreals Lia Lra.
From Verif Require Import Base Wigner WignerProofs WignerOne WignerSym WignerZero RulesProofs StrengthSums StrengthPos Strengths StrengthProofs.
Import ListNotations.
Local Open Scope Z_scope.

(** C39.  The strength is the square of the matrix element. *)
Theorem C39_square : forall i k q j0 f0 m0 j1 f1 m1,
  (tkq_mel i k q j0 f0 m0 j1 f1 m1 * tkq_mel i k q j0 f0 m0 j1 f1 m1 = Rc (tkq_strength i k q j0 f0 m0 j1 f1 m1))%R.
Proof. exact mel_sq. Qed.
Print Assumptions C39_square.
Theorem C39_nonneg : forall i k q j0 f0 m0 j1 f1 m1, (0 <= tkq_strength i k q j0 f0 m0 j1 f1 m1)%Qc.
Proof. exact strength_nonneg. Qed.
Print Assumptions C39_nonneg.
(** Forbidden transitions have no strength. *)
Theorem C39_forbidden : forall i k q j0 f0 m0 j1 f1 m1, 
  ~ (triangle j0 j1 (2 * k) /\ triangle f0 f1 (2 * k) /\ triangle j0 f0 i /\ triangle j1 f1 i /\
     Z.abs m0 <= f0 /\ Z.abs m1 <= f1 /\ Z.even (f0 + m0) = true /\ Z.even (f1 + m1) = true /\ Z.abs q <= k /\ m1 = m0 + 2 * q) ->
  tkq_strength i k q j0 f0 m0 j1 f1 m1 = 0%Qc.
Proof.
  intros i k q j0 f0 m0 j1 f1 m1 H. destruct (Qc_eq_dec (tkq_strength i k q j0 f0 m0 j1 f1 m1) 0) as [E|E]; auto.
  exfalso. apply H. now apply strength_rules.
Qed.
Print Assumptions C39_forbidden.
(** Rank one: allowed transitions have strength, but for the known M = 0 to
    M = 0 with F = F' and for J = J', F = F' with I(I+1) = J(J+1) + F(F+1). *)
Theorem C39_rank1_partial : forall i q j0 f0 m0 j1 f1 m1,
  let allowed := triangle j0 j1 2 /\ triangle f0 f1 2 /\ triangle j0 f0 i /\ triangle j1 f1 i /\
     Z.abs m0 <= f0 /\ Z.abs m1 <= f1 /\ Z.even (f0 + m0) = true /\ Z.even (f1 + m1) = true /\ Z.abs q <= 1 /\ m1 = m0 + 2 * q in
  (0 < tkq_strength i 1 q j0 f0 m0 j1 f1 m1)%Qc <->
  allowed /\ ~ (f0 = f1 /\ m0 = 0 /\ m1 = 0) /\ ~ (j0 = j1 /\ f0 = f1 /\ i * (i + 2) = j0 * (j0 + 2) + f0 * (f0 + 2)).
Proof. intros. rewrite Qc_pos_iff by apply strength_nonneg. exact (strength_rank1 i q j0 f0 m0 j1 f1 m1). Qed.
Print Assumptions C39_rank1_partial.
(** The second exception: I = 3, J = J' = F = F' = 2, M = M' = 1. *)
Theorem C39_vanish_refuted :
  (triangle 4 4 2 /\ triangle 4 4 2 /\ triangle 4 4 6 /\ triangle 4 4 6 /\ Z.abs 2 <= 4 /\ Z.abs 2 <= 4 /\
   Z.even (4 + 2) = true /\ Z.even (4 + 2) = true /\ Z.abs 0 <= 1 /\ 2 = 2 + 2 * 0) /\ tkq_strength 6 1 0 4 4 2 4 4 2 = 0%Qc.
Proof. split; [rewrite <- !tri_spec; repeat split; try lia; reflexivity|]. apply Qc_is_canon. vm_compute. reflexivity. Qed.
Print Assumptions C39_vanish_refuted.
(** Exchanging the states changes the strength unless F = F'. *)
Theorem C39_exchange_partial : forall i k q j0 f0 m0 j1 f1 m1,
  tkq_strength i k (- q) j1 f1 m1 j0 f0 m0 = tkq_strength i k q j0 f0 m0 j1 f1 m1 <->
  f0 = f1 \/ tkq_strength i k q j0 f0 m0 j1 f1 m1 = 0%Qc.
Proof.
  intros. pose proof (strength_exchange i k q j0 f0 m0 j1 f1 m1) as E.
  destruct (Qc_eq_dec (tkq_strength i k q j0 f0 m0 j1 f1 m1) 0) as [Z0|Z0].
  - split; [tauto|intros _]. rewrite Z0 in *. symmetry. rewrite Qcmult_0_r in E. destruct (Qc_eq_dec (tkq_strength i k (- q) j1 f1 m1 j0 f0 m0) 0) as [Z1|Z1]; auto.
    exfalso. pose proof (strength_exchange i k (- q) j1 f1 m1 j0 f0 m0) as E2. rewrite Z.opp_involutive, Z0, Qcmult_0_r in E2. revert E2. apply Qcmult_nz; auto.
    apply QcZ_nz. apply strength_rules in Z1. unfold rules in Z1. assert (0 <= f0 /\ 0 <= f1) by lia. nia.
  - assert (Hf : 0 <= f0 /\ 0 <= f1) by (apply strength_rules in Z0; unfold rules in Z0; lia).
    split; [|intros [-> |]; [|contradiction]].
    + intros Q. rewrite Q in E. left. assert (W : QcZ ((f0 + 2) * (f1 + 1)) = QcZ ((f0 + 1) * (f1 + 2))).
      { apply (f_equal (fun u => u / tkq_strength i k q j0 f0 m0 j1 f1 m1)%Qc) in E. rewrite !Qcdiv_mult_l in E by auto. exact E. }
      apply QcZ_inj in W. nia.
    + rewrite (Z.mul_comm (f1 + 2)) in E. assert (N : QcZ ((f1 + 1) * (f1 + 2)) <> 0%Qc) by (apply QcZ_nz; nia).
      apply (f_equal (fun u => u / QcZ ((f1 + 1) * (f1 + 2)))%Qc) in E. unfold Qcdiv in E. rewrite !(Qcmult_comm (QcZ _)), <- !Qcmult_assoc, !Qcmult_inv_r, !Qcmult_1_r in E by auto. auto.
Qed.
Print Assumptions C39_exchange_partial.
(** F = 0 to F' = 1 (I = J = J' = 1/2): 4 against 6 parts. *)
Theorem C39_exchange_refuted : exists i k q j0 f0 m0 j1 f1 m1,
  tkq_strength i k q j0 f0 m0 j1 f1 m1 <> tkq_strength i k (- q) j1 f1 m1 j0 f0 m0.
Proof.
  exists 1, 1, 0, 1, 0, 0, 1, 2, 0. intros E. apply (f_equal this) in E. vm_compute in E. discriminate E.
Qed.
Print Assumptions C39_exchange_refuted.
Example C39_case : (0 < tkq_strength 1 1 0 1 0 0 1 2 0)%Qc /\ tkq_strength 1 1 0 1 2 2 1 2 2 <> 0%Qc.
Proof. split; [apply Qc_pos_iff; [apply strength_nonneg|]|]; apply strength_nz; split; [apply w6nz_sq|apply w3nz_sq|apply w6nz_sq|apply w3nz_sq]; vm_compute; reflexivity. Qed.

(** C40.  A polarisation given as a numpy array has no hash: none of the cached
    functions returns a value. *)
Theorem C40_array_refuted : forall x y z k u,
  let eps := Arr x y z in
  E1_geom eps u = Raise TypeError /\ M1_geom eps u = Raise TypeError /\ E2_geom eps k u = Raise TypeError /\ E2_geom k eps u = Raise TypeError /\
  E1_mel_geom eps u = Raise TypeError /\ M1_mel_geom eps u = Raise TypeError /\ E2_mel_geom eps k u = Raise TypeError /\ E2_mel_geom k eps u = Raise TypeError.
Proof. intros. unfold E2_geom, E2_mel_geom, with_both. cbn [hashable andb eps]. rewrite andb_false_r. repeat split. Qed.
Print Assumptions C40_array_refuted.

(** Real polarisations as tuples. *)
Theorem C40_E1_M1 : forall x y z u, ~ (x = 0 /\ y = 0 /\ z = 0)%R -> exists r, (0 <= r)%R /\
  E1_geom (tup x y z) u = Ok (Some (creal r)) /\ M1_geom (tup x y z) u = Ok (Some (creal r)) /\
  (r * (x * x + y * y + z * z) = (T 1 (-1) u + T 1 1 u) / 2 * (x * x + y * y) + T 1 0 u * (z * z))%R.
Proof.
  intros x y z u H. exists (E1_value x y z u). split; [now apply E1_nonneg|]. split; [now apply E1_tup|]. split; [now apply E1_tup|].
  pose proof (sumsq_pos _ _ _ H). unfold E1_value. field. lra.
Qed.
Print Assumptions C40_E1_M1.
Theorem C40_scale : forall c d eps k u, (0 < c)%R -> (0 < d)%R ->
  E1_geom (vscale c eps) u = E1_geom eps u /\ M1_geom (vscale c eps) u = M1_geom eps u /\ E2_geom (vscale c eps) (vscale d k) u = E2_geom eps k u.
Proof. intros. unfold M1_geom, E1_geom, E2_geom. rewrite !with_eps_scale, with_both_scale; auto. Qed.
Print Assumptions C40_scale.
(** No component of the tensor, no strength; any hashable polarisation. *)
Theorem C40_vanish_E1 : forall x y z u, norm (Tup x y z) <> 0%R -> T 1 (-1) u = 0%R -> T 1 0 u = 0%R -> T 1 1 u = 0%R ->
  E1_geom (Tup x y z) u = Ok (Some (creal 0)) /\ M1_geom (Tup x y z) u = Ok (Some (creal 0)).
Proof.
  intros x y z u H T1 T2 T3. assert (E : E1_geom (Tup x y z) u = Ok (Some (creal 0))); [|split; exact E].
  unfold E1_geom, with_eps, normed. cbn [hashable]. destruct (Req_EM_T (norm (Tup x y z)) 0) as [E|E]; [contradiction|].
  rewrite T1, T2, T3. do 2 f_equal. apply cplx_eq; unfold cadd, cscale, creal; cbn [fst snd]; ring.
Qed.
Print Assumptions C40_vanish_E1.
(** The average is the mean over three orthogonal polarisations. *)
Theorem C40_average : forall u, exists rx ry rz,
  E1_geom (tup 1 0 0) u = Ok (Some (creal rx)) /\ E1_geom (tup 0 1 0) u = Ok (Some (creal ry)) /\ E1_geom (tup 0 0 1) u = Ok (Some (creal rz)) /\
  (E1_avg u = (rx + ry + rz) / 3)%R /\ M1_avg u = E1_avg u.
Proof.
  intros u. exists (E1_value 1 0 0 u), (E1_value 0 1 0 u), (E1_value 0 0 1 u).
  split; [apply E1_tup; lra|]. split; [apply E1_tup; lra|]. split; [apply E1_tup; lra|]. split; [|reflexivity]. unfold E1_avg, E1_value. field.
Qed.
Print Assumptions C40_average.
(** The E2 average is a mean of the five components in which each has a
    positive weight: it lies between their bounds and vanishes only with them. *)
Theorem C40_E2_average : forall u,
  (forall lo hi, (forall q, In q [-2; -1; 0; 1; 2]%Z -> lo <= T 2 q u <= hi)%R -> (lo <= E2_avg u <= hi)%R) /\
  (E2_avg u = 0%R <-> forall q, In q [-2; -1; 0; 1; 2]%Z -> T 2 q u = 0%R).
Proof.
  intros u. assert (Nn : forall q, In q [-2; -1; 0; 1; 2]%Z -> (0 <= T 2 q u)%R) by (intros; apply T_nonneg).
  split.
  - intros lo hi B. pose proof (B (-2)%Z ltac:(cbn; auto 10)). pose proof (B (-1)%Z ltac:(cbn; auto 10)). pose proof (B 0%Z ltac:(cbn; auto 10)).
    pose proof (B 1%Z ltac:(cbn; auto 10)). pose proof (B 2%Z ltac:(cbn; auto 10)). unfold E2_avg. lra.
  - split.
    + intros E q Q. pose proof (Nn (-2)%Z ltac:(cbn; auto 10)). pose proof (Nn (-1)%Z ltac:(cbn; auto 10)). pose proof (Nn 0%Z ltac:(cbn; auto 10)).
      pose proof (Nn 1%Z ltac:(cbn; auto 10)). pose proof (Nn 2%Z ltac:(cbn; auto 10)). unfold E2_avg in E.
      cbn [In] in Q. destruct Q as [<-|[<-|[<-|[<-|[<-|[]]]]]]; lra.
    + intros Z0. unfold E2_avg. rewrite !Z0 by (cbn; auto 10). lra.
Qed.
Print Assumptions C40_E2_average.

(** Complex polarisations: eps = (i, 0, 0) gives a negative strength, circular
    light (1, i, 0) none for any transition with M' = M + 1 or M - 1. *)
Definition up (i : Z) : states := mkStates i 1 1 1 3 3 3.
Lemma up_T : (0 < T 1 1 (up 0))%R.
Proof.
  pose proof (T_nonneg 1 1 (up 0)) as [P|P]; auto. exfalso. symmetry in P. rewrite <- Rc_0 in P. apply Rc_inj in P. revert P.
  apply strength_nz. split; [apply w6nz_sq|apply w3nz_sq]; vm_compute; reflexivity.
Qed.
Theorem C40_complex_refuted : exists r, (r < 0)%R /\ E1_geom (Tup ci (creal 0) (creal 0)) (up 0) = Ok (Some (creal r)) /\
  forall u, T 1 0 u = 0%R -> E1_geom (Tup (creal 1) ci (creal 0)) u = Ok (Some (creal 0)).
Proof.
  exists (- ((T 1 (-1) (up 0) + T 1 1 (up 0)) / 2))%R. split; [|split].
  - pose proof up_T. pose proof (T_nonneg 1 (-1) (up 0)). lra.
  - unfold E1_geom, with_eps, normed. cbn [hashable]. replace (norm (Tup ci (creal 0) (creal 0))) with 1%R.
    2:{ unfold norm, cabs2, ci, creal. cbn [v0 v1 v2 fst snd]. replace (0 * 0 + 1 * 1 + (0 * 0 + 0 * 0) + (0 * 0 + 0 * 0))%R with 1%R by ring. now rewrite sqrt_1. }
    destruct (Req_EM_T 1 0) as [E|E]; [lra|]. cbn [v0 v1 v2]. do 2 f_equal.
    apply cplx_eq; unfold csq, cadd, cmul, cscale, creal, ci; cbn [fst snd]; field.
  - intros u T0. unfold E1_geom, with_eps, normed. cbn [hashable].
    destruct (Req_EM_T (norm (Tup (creal 1) ci (creal 0))) 0) as [E|E].
    + exfalso. unfold norm, cabs2, ci, creal in E. cbn [v0 v1 v2 fst snd] in E. assert (P : (0 < 1 * 1 + 0 * 0 + (0 * 0 + 1 * 1) + (0 * 0 + 0 * 0))%R) by lra.
      apply sqrt_lt_R0 in P. lra.
    + cbn [v0 v1 v2]. rewrite T0. do 2 f_equal. apply cplx_eq; unfold csq, cadd, cmul, cscale, creal, ci; cbn [fst snd]; ring.
Qed.
Print Assumptions C40_complex_refuted.

(** E2: not negative; it vanishes with the tensor only if the xy component of
    polarisation and wave vector does. *)
Theorem C40_E2_partial : forall x y z a b c u, ~ (x = 0 /\ y = 0 /\ z = 0)%R -> ~ (a = 0 /\ b = 0 /\ c = 0)%R ->
  exists r, (0 <= r)%R /\ E2_geom (tup x y z) (tup a b c) u = Ok (Some (creal r)) /\
  (T 2 (-2) u = 0 -> T 2 (-1) u = 0 -> T 2 0 u = 0 -> T 2 1 u = 0 -> T 2 2 u = 0 -> (r = 0 <-> y * a + x * b = 0))%R.
Proof.
  intros x y z a b c u H H'. exists (E2_value x y z a b c u). split; [now apply E2_nonneg|]. split; [now apply E2_tup|].
  intros T1 T2 T3 T4 T5. pose proof (sumsq_pos _ _ _ H). pose proof (sumsq_pos _ _ _ H'). unfold E2_value. rewrite T1, T2, T3, T4, T5. split.
  - intros E. apply Rmult_integral in E as [E|E].
    + assert (Q : ((y * a + x * b) * (y * a + x * b) = 0)%R) by lra. nra.
    + exfalso. assert (N : ((x * x + y * y + z * z) * (a * a + b * b + c * c) <> 0)%R) by nra. now apply Rinv_neq_0_compat in N.
  - intros E. rewrite E. field. split; lra.
Qed.
Print Assumptions C40_E2_partial.
(** eps along x, k along y, M' = M + 5: strength 2. *)
Theorem C40_E2_refuted : exists u, (forall q, T 2 q u = 0%R) /\ E2_geom (tup 1 0 0) (tup 0 1 0) u = Ok (Some (creal 2)).
Proof.
  set (u := mkStates 0 5 5 (-5) 5 5 5). exists u. assert (Z0 : forall q, T 2 q u = 0%R).
  { intros q. destruct (Req_EM_T (T 2 q u) 0) as [E|E]; auto. exfalso. unfold T, u in E. cbn [sI sJ0 sF0 sM0 sJ1 sF1 sM1] in E.
    rewrite C39_forbidden in E; [now rewrite Rc_0 in E|]. lia. }
  split; auto. rewrite E2_tup by lra. do 3 f_equal. unfold E2_value. rewrite !Z0. field.
Qed.
Print Assumptions C40_E2_refuted.

(** C66: the squared modulus of the E1/M1 matrix element is the strength. *)
Theorem C66_E1_M1 : forall x y z u, ~ (x = 0 /\ y = 0 /\ z = 0)%R -> exists w r,
  E1_mel_geom (tup x y z) u = Ok (Some w) /\ M1_mel_geom (tup x y z) u = Ok (Some w) /\
  E1_geom (tup x y z) u = Ok (Some (creal r)) /\ M1_geom (tup x y z) u = Ok (Some (creal r)) /\ cabs2 w = r.
Proof.
  intros x y z u H. destruct (E1_mel_tup x y z u H) as [w [E Q]]. exists w, (E1_value x y z u).
  split; auto. split; auto. split; [now apply E1_tup|]. split; [now apply E1_tup|]. exact Q.
Qed.
Print Assumptions C66_E1_M1.
Example C66_case : (0 < T 1 1 (up 0))%R /\ ~ (1 = 0 /\ 0 = 0 /\ 0 = 0)%R.
Proof. split; [apply up_T|lra]. Qed.
(** E2: k along z, eps along x, M' = M - 2: a matrix element but no strength. *)
Definition down2 : states := mkStates 0 1 1 1 5 5 (-3).
Theorem C66_E2_refuted : exists w, E2_mel_geom (tup 1 0 0) (tup 0 0 1) down2 = Ok (Some w) /\ (0 < cabs2 w)%R /\
  E2_geom (tup 1 0 0) (tup 0 0 1) down2 = Ok (Some (creal 0)).
Proof.
  assert (Zq : forall q, q <> -2 -> Mel 2 q down2 = 0%R /\ T 2 q down2 = 0%R) by (intros q N; apply Mel_one; cbn [sM0 sM1 down2]; lia).
  destruct (normed_tup 1 0 0 ltac:(lra)) as [n [Hn [En N]]]. destruct (normed_tup 0 0 1 ltac:(lra)) as [n' [Hn' [En' N']]].
  assert (n = 1%R) by nra. assert (n' = 1%R) by nra. subst n n'.
  exists (cscale (Mel 2 (-2) down2) (0%R, (-1)%R)). split; [|split].
  - unfold E2_mel_geom, with_both. cbn [hashable tup andb]. fold (tup 1 0 0) (tup 0 0 1). rewrite N, N'. cbn [v0 v1 v2].
    destruct (Zq (-1) ltac:(lia)) as [-> _]. destruct (Zq 0 ltac:(lia)) as [-> _]. destruct (Zq 1 ltac:(lia)) as [-> _]. destruct (Zq 2 ltac:(lia)) as [-> _].
    do 2 f_equal. apply cplx_eq; unfold cadd, copp, cmul, cscale, creal, ci; cbn [fst snd]; field.
  - rewrite cabs2_scale, Mel_sq. unfold cabs2. cbn [fst snd].
    pose proof (T_nonneg 2 (-2) down2) as [P|P]; [lra|]. exfalso. symmetry in P. rewrite <- Rc_0 in P. apply Rc_inj in P. revert P.
    apply strength_nz. split; [apply w6nz_sq|apply w3nz_sq]; vm_compute; reflexivity.
  - rewrite E2_tup by lra. do 3 f_equal. unfold E2_value. destruct (Zq (-1) ltac:(lia)) as [_ ->]. destruct (Zq 0 ltac:(lia)) as [_ ->]. destruct (Zq 1 ltac:(lia)) as [_ ->]. destruct (Zq 2 ltac:(lia)) as [_ ->]. field.
Qed.
Print Assumptions C66_E2_refuted.
(** What remains true for E2: polarisation and wave vector both in the y-z
    plane and M' = M, or both in the x-z plane and |M' - M| = 1. *)
Theorem C66_E2_partial : forall x y z a b c u, ~ (x = 0 /\ y = 0 /\ z = 0)%R -> ~ (a = 0 /\ b = 0 /\ c = 0)%R ->
  (x = 0 /\ a = 0)%R /\ sM1 u = sM0 u \/ (y = 0 /\ b = 0)%R /\ (sM1 u = sM0 u + 2 \/ sM1 u = sM0 u - 2) ->
  exists w r, E2_mel_geom (tup x y z) (tup a b c) u = Ok (Some w) /\ E2_geom (tup x y z) (tup a b c) u = Ok (Some (creal r)) /\ cabs2 w = r.
Proof.
  intros x y z a b c u H H' D. destruct (normed_tup x y z H) as [n [Hn [En N]]]. destruct (normed_tup a b c H') as [n' [Hn' [En' N']]].
  assert (S6 : (sqrt 6 * sqrt 6 = 6)%R) by (apply sqrt_sqrt; lra).
  pose proof (fun q => Mel_sq 2 q u) as Sq. unfold E2_mel_geom, with_both. cbn [hashable tup andb]. fold (tup x y z) (tup a b c). rewrite N, N'. cbn [v0 v1 v2].
  rewrite E2_tup by auto. eexists. eexists. split; [reflexivity|]. split; [reflexivity|].
  assert (Zq : forall q, sM1 u <> sM0 u + 2 * q -> Mel 2 q u = 0%R /\ T 2 q u = 0%R) by (intros q; apply Mel_one).
  destruct D as [[[-> ->] D]|[[-> ->] [D|D]]]; unfold E2_value; rewrite <- En, <- En', <- !Sq.
  - destruct (Zq (-2) ltac:(lia)) as [-> _]. destruct (Zq (-1) ltac:(lia)) as [-> _]. destruct (Zq 1 ltac:(lia)) as [-> _]. destruct (Zq 2 ltac:(lia)) as [-> _].
    unfold cabs2, cadd, copp, cmul, cscale, creal, ci. cbn [fst snd].
    transitivity (Mel 2 0 u * Mel 2 0 u * (sqrt 6 * sqrt 6) * ((b * y + 2 / 3 * (c * z)) * (b * y + 2 / 3 * (c * z))) / (n * n * (n' * n')))%R; [field; lra|].
    rewrite S6. field. lra.
  - destruct (Zq (-2) ltac:(lia)) as [-> _]. destruct (Zq (-1) ltac:(lia)) as [-> _]. destruct (Zq 0 ltac:(lia)) as [-> _]. destruct (Zq 2 ltac:(lia)) as [-> _].
    unfold cabs2, cadd, copp, cmul, cscale, creal, ci. cbn [fst snd]. field. lra.
  - destruct (Zq (-2) ltac:(lia)) as [-> _]. destruct (Zq 0 ltac:(lia)) as [-> _]. destruct (Zq 1 ltac:(lia)) as [-> _]. destruct (Zq 2 ltac:(lia)) as [-> _].
    unfold cabs2, cadd, copp, cmul, cscale, creal, ci. cbn [fst snd]. field. lra.
Qed.
Print Assumptions C66_E2_partial.
(** Neither side is zero in general. *)
Example C66_E2_case : exists w r, E2_mel_geom (tup 0 1 2) (tup 0 (-2) 1) (mkStates 0 1 1 1 5 5 1) = Ok (Some w) /\
  E2_geom (tup 0 1 2) (tup 0 (-2) 1) (mkStates 0 1 1 1 5 5 1) = Ok (Some (creal r)) /\ cabs2 w = r /\ (0 < r)%R.
Proof.
  set (u := mkStates 0 1 1 1 5 5 1). destruct (C66_E2_partial 0 1 2 0 (-2) 1 u ltac:(lra) ltac:(lra) ltac:(left; split; [lra|reflexivity])) as [w [r [E1 [E2 E3]]]].
  exists w, r. repeat (split; [assumption|]). rewrite E2_tup in E2 by lra.
  apply (f_equal (fun o => match o with Ok (Some c) => fst c | _ => 0%R end)) in E2. cbn [fst creal] in E2. rewrite <- E2. unfold E2_value.
  pose proof (T_nonneg 2 (-2) u). pose proof (T_nonneg 2 (-1) u). pose proof (T_nonneg 2 1 u). pose proof (T_nonneg 2 2 u).
  assert (P : (0 < T 2 0 u)%R).
  { pose proof (T_nonneg 2 0 u) as [P|P]; [lra|]. exfalso. symmetry in P. rewrite <- Rc_0 in P. apply Rc_inj in P. revert P.
    apply strength_nz. split; [apply w6nz_sq|apply w3nz_sq]; vm_compute; reflexivity. }
  lra.
Qed.
