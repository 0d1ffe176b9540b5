(** Properties C111 (single components), C114 and C115: polarisations.
    Angular momenta and projections are doubled integers, k and q are not. *)
From Coq Require Import List Bool ZArith QArith Qcanon Reals Qreals Lia Lra Rtrigo1.
From Verif Require Import Base Util Term Num Wigner WignerProofs WignerOne WignerSym WignerZero Hyperfine HyperfineProofs Rules RulesProofs StrengthSums StrengthPos
  WignerOrth WignerNorm WignerClebsch WignerNine Strengths StrengthProofs CouplingProofs CouplingList PropTensor PropTensorSums.
Import ListNotations.
Local Open Scope Z_scope.

(** A sum with one term. *)
Lemma sums_at : forall (h : Z -> Qc) l x, NoDup l -> (forall y, y <> x -> h y = 0%Qc) -> (~ In x l -> h x = 0%Qc) -> sums h l = h x.
Proof.
  intros h l x ND Z0 Hx. destruct (in_dec Z.eq_dec x l) as [I|I].
  - rewrite (sums_ext _ (fun z => if x =? z then h z else 0%Qc)); [now rewrite sums_one|].
    intros z _. destruct (Z.eqb_spec x z); auto.
  - rewrite sums_0; [now rewrite Hx|]. intros z Iz. apply Z0. intros ->. contradiction.
Qed.

(** C111.  One component q of the tensor, over all projections of both levels:
    the total does not depend on q. *)
Theorem C111_component : forall i k q j0 f0 j1 f1 M0 M1, projections f0 M0 -> projections f1 M1 -> Z.abs q <= k ->
  sums (fun m1 => sums (fun m0 => tkq_strength i k q j0 f0 m0 j1 f1 m1) M0) M1 = (QcZ ((f0 + 1) * (f1 + 2)) / QcZ (2 * k + 1) * w6sq j0 j1 (2 * k) f1 f0 i)%Qc.
Proof.
  intros i k q j0 f0 j1 f1 M0 M1 [ND0 A0] [ND1 A1] Hq. unfold tkq_strength.
  set (c := (QcZ ((f0 + 1) * (f1 + 2)) * w6sq j0 j1 (2 * k) f1 f0 i)%Qc).
  rewrite (sums_ext _ (fun m1 => c * sums (fun m0 => w3sq f1 (2 * k) f0 (- m1) (2 * q) m0) M0)%Qc) by (intros m1 _; apply sums_scale).
  rewrite sums_scale. destruct (tri f1 f0 (2 * k)) eqn:T.
  - assert (S : sums (fun m1 => sums (fun m0 => w3sq f1 (2 * k) f0 (- m1) (2 * q) m0) M0) M1 = frac 1 (2 * k + 1)).
    { assert (P : proj_ok (2 * k) (2 * q) = true).
      { unfold proj_ok. rewrite (proj2 (Z.leb_le _ _)) by lia. replace (2 * k + 2 * q) with (2 * (k + q)) by ring. now rewrite Z.even_mul. }
      assert (Pf : forall f m, proj_ok f m = true -> Z.abs m <= f /\ Z.even (f + m) = true).
      { intros f m H. unfold proj_ok in H. rewrite andb_true_iff, Z.leb_le in H. exact H. }
      apply Rc_inj. rewrite Rc_sums. unfold frac. rewrite QcZ_1. unfold Qcdiv. rewrite Qcmult_1_l, Rc_inv by (apply QcZ_nz; lia). rewrite Rc_Z.
      transitivity (Rsums (fun m => w3R f1 f0 (2 * k) m (- m - 2 * q) (2 * q) * w3R f1 f0 (2 * k) m (- m - 2 * q) (2 * q))%R (map Z.opp M1)).
      - rewrite Rsums_map. apply Rsums_ext. intros m1 I. rewrite w3R_sq. f_equal. rewrite (sums_at _ _ (m1 - 2 * q)); auto.
        + rewrite w3sq_cols'. f_equal; lia.
        + intros y N. apply w3sq_no. unfold w3_ok. rewrite (proj2 (Z.eqb_neq _ _)) by lia. apply andb_false_r.
        + intros N. apply w3sq_no. apply not_true_is_false. intros O. apply N. unfold w3_ok in O. rewrite !andb_true_iff in O. destruct O as [[_ O] _].
          apply Pf in O as [O1 O2]. now apply A0.
      - rewrite w3R_orth; auto.
        + now rewrite Z.eqb_refl.
        + apply FinFun.Injective_map_NoDup; auto. intros u v. lia.
        + intros m Pm. apply Pf in Pm as [P1 P2]. apply in_map_iff. exists (- m). split; [lia|]. apply A1; [lia|].
          replace (f1 + - m) with (f1 + m - 2 * m) by ring. rewrite Z.even_sub, Z.even_mul, P2. reflexivity. }
    rewrite S. unfold c, frac. rewrite QcZ_1. field. apply QcZ_nz. lia.
  - unfold c, w6sq, w6_tri. rewrite T, !andb_false_r. ring.
Qed.
Print Assumptions C111_component.
Example C111_case3 : (0 < QcZ ((0 + 1) * (2 + 2)) / QcZ (2 * 1 + 1) * w6sq 1 1 (2 * 1) 2 0 1)%Qc /\ projections 0 [0] /\ projections 2 [-2; 0; 2].
Proof. split; [vm_compute; reflexivity|]. split; [exact (projections_mF 0)|exact (projections_mF 2)]. Qed.

(** ** C114 *)

Local Open Scope R_scope.
(** Written out: squared moduli, x + s i y. *)
Definition mod2 (u : R * R) : R := fst u ^ 2 + snd u ^ 2.
Definition circ (s : R) (x y : R * R) : R * R := (fst x - s * snd y, snd x + s * fst y).

Lemma norm_pos : forall v, norm v <> 0 -> 0 < norm v.
Proof. intros v H. unfold norm in *. pose proof (sqrt_pos (cabs2 (v0 v) + cabs2 (v1 v) + cabs2 (v2 v))). lra. Qed.
Lemma norm_mod : forall x y z, norm (Tup x y z) * norm (Tup x y z) = mod2 x + mod2 y + mod2 z.
Proof. intros. unfold norm. rewrite sqrt_sqrt; unfold cabs2, mod2; cbn [v0 v1 v2]; [ring|nra]. Qed.
Lemma norm_nz : forall x y z, (x <> (0, 0) \/ y <> (0, 0) \/ z <> (0, 0)) -> norm (Tup x y z) <> 0.
Proof.
  intros [x x'] [y y'] [z z'] H E. pose proof (norm_mod (x, x') (y, y') (z, z')) as Q. rewrite E in Q. unfold mod2 in Q. cbn [fst snd] in Q.
  assert (x = 0) by nra. assert (x' = 0) by nra. assert (y = 0) by nra. assert (y' = 0) by nra. assert (z = 0) by nra. assert (z' = 0) by nra. subst. tauto.
Qed.

(** One of three components at most is not zero. *)
Lemma one_of_three : forall u, (Mel 1 0 u = 0 /\ Mel 1 1 u = 0) \/ (Mel 1 (-1) u = 0 /\ Mel 1 1 u = 0) \/ (Mel 1 (-1) u = 0 /\ Mel 1 0 u = 0).
Proof.
  intros u. destruct (Z.eq_dec (sM1 u) (sM0 u + 2 * -1)) as [E1|E1]; [left|right; destruct (Z.eq_dec (sM1 u) (sM0 u + 2 * 0)) as [E2|E2]; [left|right]];
    split; apply Mel_one; lia.
Qed.

(** Any complex polarisation: x + i y drives M' = M - 1, z drives M' = M and
    x - i y drives M' = M + 1. *)
Theorem C114_components : forall x y z u, x <> (0, 0) \/ y <> (0, 0) \/ z <> (0, 0) -> exists w,
  E1_mel_geom (Tup x y z) u = Ok (Some w) /\ M1_mel_geom (Tup x y z) u = Ok (Some w) /\
  mod2 w * (mod2 x + mod2 y + mod2 z) = T 1 (-1) u * mod2 (circ 1 x y) / 2 + T 1 0 u * mod2 z + T 1 1 u * mod2 (circ (-1) x y) / 2.
Proof.
  intros x y z u H. apply norm_nz in H. pose proof (norm_pos _ H) as P. pose proof (norm_mod x y z) as Q. rewrite <- Q.
  unfold M1_mel_geom, E1_mel_geom, with_eps, normed. cbn [hashable]. destruct (Req_EM_T (norm (Tup x y z)) 0) as [E|_]; [contradiction|].
  eexists. split; [reflexivity|]. split; [reflexivity|]. cbn [v0 v1 v2]. set (n := norm (Tup x y z)) in *. clearbody n.
  pose proof (Mel_sq 1 (-1) u) as Q1. pose proof (Mel_sq 1 0 u) as Q2. pose proof (Mel_sq 1 1 u) as Q3. rewrite <- Q1, <- Q2, <- Q3.
  assert (Hs : sqrt (1 / 2) * sqrt (1 / 2) = 1 / 2) by (apply sqrt_sqrt; lra). set (h := sqrt (1 / 2)) in *. clearbody h.
  unfold mod2, circ, ci, cadd, copp, cmul, cscale, creal; cbn [fst snd].
  destruct x as [x x'], y as [y y'], z as [z z']. cbn [fst snd].
  destruct (one_of_three u) as [[-> ->]|[[-> ->]|[-> ->]]].
  - set (p := Mel 1 (-1) u). transitivity (p * p * (h * h) * ((x - y') ^ 2 + (x' + y) ^ 2)); [field; lra|rewrite Hs; field].
  - field. lra.
  - set (p := Mel 1 1 u). transitivity (p * p * (h * h) * ((x + y') ^ 2 + (x' - y) ^ 2)); [field; lra|rewrite Hs; field].
Qed.
Print Assumptions C114_components.
Example C114_case : (0 < T 1 1 (up 0)) /\ mod2 (circ (-1) (1, 0) (0, 1)) = 4 /\ mod2 (circ 1 (1, 0) (0, 1)) = 0.
Proof. split; [apply up_T|]. unfold mod2, circ. cbn [fst snd]. lra. Qed.

(** Circular light (1, i, 0) and (1, -i, 0), of any length. *)
Theorem C114_circular : forall c u, c <> 0 -> exists w w',
  E1_mel_geom (Tup (c, 0) (0, c) (0, 0)) u = Ok (Some w) /\ mod2 w = T 1 1 u /\
  E1_mel_geom (Tup (c, 0) (0, - c) (0, 0)) u = Ok (Some w') /\ mod2 w' = T 1 (-1) u.
Proof.
  intros c u Hc. assert (N : (c, 0) <> (0, 0)) by (intros E; apply (f_equal fst) in E; contradiction).
  destruct (C114_components (c, 0) (0, c) (0, 0) u) as [w [E1 [_ E2]]]; [auto|].
  destruct (C114_components (c, 0) (0, - c) (0, 0) u) as [w' [E3 [_ E4]]]; [auto|].
  exists w, w'. split; [exact E1|]. unfold mod2, circ in *. cbn [fst snd] in *. assert (P : 0 < c * c) by nra. split; [|split; [exact E3|]].
  - apply (Rmult_eq_reg_r (c * c * 2)); lra.
  - apply (Rmult_eq_reg_r (c * c * 2)); lra.
Qed.
Print Assumptions C114_circular.

(** Turning the polarisation about the quantisation axis, or multiplying it by
    a complex number other than 0, changes the phase of a matrix element only. *)
Definition turned (a : R) (x y : R * R) : R * R := (cos a * fst x - sin a * fst y, cos a * snd x - sin a * snd y).
Theorem C114_turned : forall a x y z u, x <> (0, 0) \/ y <> (0, 0) \/ z <> (0, 0) -> exists w w',
  E1_mel_geom (Tup x y z) u = Ok (Some w) /\ E1_mel_geom (Tup (turned a x y) (turned (- a) y x) z) u = Ok (Some w') /\ mod2 w' = mod2 w.
Proof.
  intros a x y z u H. pose proof (sin2_cos2 a) as S. unfold Rsqr in S.
  assert (L : mod2 (turned a x y) + mod2 (turned (- a) y x) = mod2 x + mod2 y).
  { unfold mod2, turned. rewrite cos_neg, sin_neg. cbn [fst snd].
    transitivity ((sin a * sin a + cos a * cos a) * (fst x ^ 2 + snd x ^ 2 + (fst y ^ 2 + snd y ^ 2))); [ring|rewrite S; ring]. }
  assert (C : forall s, s * s = 1 -> mod2 (circ s (turned a x y) (turned (- a) y x)) = mod2 (circ s x y)).
  { intros s Hs. unfold mod2, circ, turned. rewrite cos_neg, sin_neg. cbn [fst snd].
    transitivity ((sin a * sin a + cos a * cos a) * ((s * s) * (fst y ^ 2 + snd y ^ 2) + (fst x ^ 2 + snd x ^ 2) + 2 * s * (snd x * fst y - fst x * snd y))
      + (s * s - 1) * (sin a * sin a * (fst x ^ 2 + snd x ^ 2 - fst y ^ 2 - snd y ^ 2) + 2 * sin a * cos a * (fst x * fst y + snd x * snd y))); [ring|].
    rewrite S, Hs. transitivity (s * s * (fst y ^ 2 + snd y ^ 2) + (fst x ^ 2 + snd x ^ 2) + 2 * s * (snd x * fst y - fst x * snd y)); [rewrite Hs; ring|ring]. }
  assert (N : 0 < mod2 x + mod2 y + mod2 z). { rewrite <- norm_mod. pose proof (norm_pos _ (norm_nz _ _ _ H)). nra. }
  assert (H' : turned a x y <> (0, 0) \/ turned (- a) y x <> (0, 0) \/ z <> (0, 0)).
  { destruct (Req_dec (mod2 (turned a x y)) 0) as [E1|E1]; [|left; intros E; rewrite E in E1; apply E1; unfold mod2; cbn; ring].
    destruct (Req_dec (mod2 (turned (- a) y x)) 0) as [E2|E2]; [|right; left; intros E; rewrite E in E2; apply E2; unfold mod2; cbn; ring].
    right. right. intros E. rewrite E in N. assert (mod2 (0, 0) = 0) by (unfold mod2; cbn; ring). lra. }
  destruct (C114_components x y z u H) as [w [E1 [_ E2]]]. destruct (C114_components _ _ z u H') as [w' [E3 [_ E4]]].
  exists w, w'. split; [exact E1|]. split; [exact E3|]. rewrite !C in E4 by ring. rewrite L in E4. rewrite <- E2 in E4. apply Rmult_eq_reg_r in E4; lra.
Qed.
Print Assumptions C114_turned.

Definition ctimes (c x : R * R) : R * R := (fst c * fst x - snd c * snd x, fst c * snd x + snd c * fst x).
Theorem C114_phase : forall c x y z u, c <> (0, 0) -> x <> (0, 0) \/ y <> (0, 0) \/ z <> (0, 0) -> exists w w',
  E1_mel_geom (Tup x y z) u = Ok (Some w) /\ E1_mel_geom (Tup (ctimes c x) (ctimes c y) (ctimes c z)) u = Ok (Some w') /\ mod2 w' = mod2 w.
Proof.
  intros c x y z u Hc H.
  assert (M : forall v, mod2 (ctimes c v) = mod2 c * mod2 v) by (intros v; unfold mod2, ctimes; cbn [fst snd]; ring).
  assert (C : forall s, s * s = 1 -> mod2 (circ s (ctimes c x) (ctimes c y)) = mod2 c * mod2 (circ s x y)) by (intros s Hs; unfold mod2, circ, ctimes; cbn [fst snd]; ring).
  assert (Z : forall v, v <> (0, 0) -> 0 < mod2 v).
  { intros [v v'] Hv. unfold mod2. cbn [fst snd]. destruct (Rle_or_lt (v ^ 2 + v' ^ 2) 0) as [L|L]; auto. exfalso. apply Hv. f_equal; nra. }
  assert (Nz : forall v, v <> (0, 0) -> ctimes c v <> (0, 0)).
  { intros v Hv E. apply Z in Hv. pose proof (Z c Hc) as Pc. pose proof (M v) as Q. rewrite E in Q. unfold mod2 in Q at 1. cbn [fst snd] in Q. nra. }
  assert (N : 0 < mod2 x + mod2 y + mod2 z). { rewrite <- norm_mod. pose proof (norm_pos _ (norm_nz _ _ _ H)). nra. }
  assert (H' : ctimes c x <> (0, 0) \/ ctimes c y <> (0, 0) \/ ctimes c z <> (0, 0)) by (destruct H as [H|[H|H]]; auto).
  destruct (C114_components x y z u H) as [w [E1 [_ E2]]]. destruct (C114_components _ _ _ u H') as [w' [E3 [_ E4]]].
  exists w, w'. split; [exact E1|]. split; [exact E3|]. rewrite !C, !M in E4 by ring. pose proof (Z c Hc) as Pc.
  apply (Rmult_eq_reg_r (mod2 c * (mod2 x + mod2 y + mod2 z))); [|nra].
  transitivity (mod2 c * (T 1 (-1) u * mod2 (circ 1 x y) / 2 + T 1 0 u * mod2 z + T 1 1 u * mod2 (circ (-1) x y) / 2)); [lra|rewrite <- E2; ring].
Qed.
Print Assumptions C114_phase.

(** The strengths do not follow: circular light drives no transition, although
    its matrix element is not zero. *)
Theorem C114_strength_refuted : exists w, E1_mel_geom (Tup (1, 0) (0, 1) (0, 0)) (up 0) = Ok (Some w) /\ 0 < mod2 w /\
  E1_geom (Tup (1, 0) (0, 1) (0, 0)) (up 0) = Ok (Some (0, 0)).
Proof.
  destruct (C114_circular 1 (up 0)) as [w [_ [E1 [E2 _]]]]; [lra|]. exists w. split; [exact E1|]. split; [rewrite E2; apply up_T|].
  destruct C40_complex_refuted as [_ [_ [_ K]]]. apply K. apply Mel_one. cbn [up sM0 sM1]. lia.
Qed.
Print Assumptions C114_strength_refuted.

(** E2: turning polarisation and wave vector together by a right angle changes
    the size of the matrix element from 2 to 1 (M' = M + 2). *)
Definition up2 : states := mkStates 0 1 1 (-1) 5 5 3.
Lemma up2_T : 0 < T 2 2 up2.
Proof.
  pose proof (T_nonneg 2 2 up2) as [P|P]; auto. exfalso. symmetry in P. rewrite <- Rc_0 in P. apply Rc_inj in P. revert P.
  apply strength_nz. split; [apply w6nz_sq|apply w3nz_sq]; vm_compute; reflexivity.
Qed.
Theorem C114_E2_refuted : exists w w', E2_mel_geom (tup 1 0 0) (tup 0 1 0) up2 = Ok (Some w) /\
  E2_mel_geom (tup 0 1 0) (tup (-1) 0 0) up2 = Ok (Some w') /\ 0 < mod2 w' /\ mod2 w = 4 * mod2 w'.
Proof.
  assert (Zq : forall q, (q <> 2)%Z -> Mel 2 q up2 = 0) by (intros q N; apply Mel_one; cbn [sM0 sM1 up2]; lia).
  destruct (normed_tup 1 0 0 ltac:(lra)) as [n1 [Hn1 [En1 N1]]]. destruct (normed_tup 0 1 0 ltac:(lra)) as [n2 [Hn2 [En2 N2]]].
  destruct (normed_tup (-1) 0 0 ltac:(lra)) as [n3 [Hn3 [En3 N3]]].
  assert (n1 = 1) by nra. assert (n2 = 1) by nra. assert (n3 = 1) by nra. subst n1 n2 n3.
  unfold E2_mel_geom, with_both. cbn [hashable tup andb]. fold (tup 1 0 0) (tup 0 1 0) (tup (-1) 0 0). rewrite N1, N2, N3. cbn [v0 v1 v2].
  rewrite (Zq (-2)%Z), (Zq (-1)%Z), (Zq 0%Z), (Zq 1%Z) by lia. eexists. eexists. split; [reflexivity|]. split; [reflexivity|].
  pose proof (Mel_sq 2 2 up2) as S. pose proof up2_T as P. unfold mod2, ci, cadd, copp, cmul, cscale, creal; cbn [fst snd]. set (m := Mel 2 2 up2) in *.
  split; [|field]. replace ((_ + _) ^ 2 + _) with (m * m) by field. lra.
Qed.
Print Assumptions C114_E2_refuted.

(** ** C115: unpolarised atoms *)

Lemma Rsums_add {A} : forall (f g : A -> R) l, Rsums (fun x => f x + g x) l = Rsums f l + Rsums g l.
Proof. intros f g l. induction l as [|x l IH]; [unfold Rsums; cbn; ring|]. rewrite !Rsums_cons, IH. ring. Qed.
Definition value (o : res (option cplx)) : R := match o with Ok (Some w) => mod2 w | _ => 0 end.
Definition over_states (i j0 f0 j1 f1 : Z) (M0 M1 : list Z) (h : states -> R) : R :=
  Rsums (fun m1 => Rsums (fun m0 => h (mkStates i j0 f0 m0 j1 f1 m1)) M0) M1.

(** Over all states of both levels, the squared E1 (M1) matrix elements add up
    to the same number for every polarisation, linear, circular or elliptical. *)
Theorem C115_isotropic : forall x y z i j0 f0 j1 f1 M0 M1, projections f0 M0 -> projections f1 M1 -> x <> (0, 0) \/ y <> (0, 0) \/ z <> (0, 0) ->
  (forall u, exists w, E1_mel_geom (Tup x y z) u = Ok (Some w) /\ M1_mel_geom (Tup x y z) u = Ok (Some w)) /\
  over_states i j0 f0 j1 f1 M0 M1 (fun u => value (E1_mel_geom (Tup x y z) u)) = Rc (QcZ ((f0 + 1) * (f1 + 2)) / QcZ 3 * w6sq j0 j1 2 f1 f0 i)%Qc.
Proof.
  intros x y z i j0 f0 j1 f1 M0 M1 HM0 HM1 H. split.
  { intros u. destruct (C114_components x y z u H) as [w [E1 [E2 _]]]. exists w. split; assumption. }
  assert (N : 0 < mod2 x + mod2 y + mod2 z). { rewrite <- norm_mod. pose proof (norm_pos _ (norm_nz _ _ _ H)). nra. }
  set (n := mod2 x + mod2 y + mod2 z) in *.
  assert (V : forall u, value (E1_mel_geom (Tup x y z) u) = mod2 (circ 1 x y) / 2 / n * T 1 (-1) u + (mod2 z / n * T 1 0 u + mod2 (circ (-1) x y) / 2 / n * T 1 1 u)).
  { intros u. destruct (C114_components x y z u H) as [w [E1 [_ E2]]]. rewrite E1. cbn [value]. fold n in E2. apply (Rmult_eq_reg_r n); [|lra].
    rewrite E2. field. lra. }
  assert (S : forall q, (Z.abs q <= 1)%Z -> over_states i j0 f0 j1 f1 M0 M1 (fun u => T 1 q u) = Rc (QcZ ((f0 + 1) * (f1 + 2)) / QcZ 3 * w6sq j0 j1 2 f1 f0 i)%Qc).
  { intros q Hq. pose proof (C111_component i 1 q j0 f0 j1 f1 M0 M1 HM0 HM1 Hq) as E. change (2 * 1 + 1)%Z with 3%Z in E. change (2 * 1)%Z with 2%Z in E. rewrite <- E.
    rewrite Rc_sums. apply Rsums_ext. intros m1 _. rewrite Rc_sums. reflexivity. }
  unfold over_states in *.
  rewrite (Rsums_ext _ (fun m1 => mod2 (circ 1 x y) / 2 / n * Rsums (fun m0 => T 1 (-1) (mkStates i j0 f0 m0 j1 f1 m1)) M0 +
    (mod2 z / n * Rsums (fun m0 => T 1 0 (mkStates i j0 f0 m0 j1 f1 m1)) M0 + mod2 (circ (-1) x y) / 2 / n * Rsums (fun m0 => T 1 1 (mkStates i j0 f0 m0 j1 f1 m1)) M0))).
  2:{ intros m1 _. rewrite (Rsums_ext _ _ M0 (fun m0 _ => V (mkStates i j0 f0 m0 j1 f1 m1))). rewrite !Rsums_add, !Rsums_scale. reflexivity. }
  rewrite !Rsums_add, !Rsums_scale, !S by lia. set (c := Rc _). unfold n in *. unfold mod2, circ in *. cbn [fst snd] in *. field. lra.
Qed.
Print Assumptions C115_isotropic.
Example C115_case : (0 < Rc (QcZ ((0 + 1) * (2 + 2)) / QcZ 3 * w6sq 1 1 2 2 0 1)%Qc) /\ projections 0 [0]%Z /\ projections 2 [-2; 0; 2]%Z.
Proof.
  split; [|split; [exact (projections_mF 0)|exact (projections_mF 2)]]. rewrite <- Rc_0. unfold Rc. apply Qlt_Rlt. vm_compute. reflexivity.
Qed.
