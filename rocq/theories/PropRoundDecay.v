(** Branching ratios up to rounding (C148). *)
From Coq Require Import List Bool ZArith QArith Qcanon Lia Lra String Ascii Reals Floats.SpecFloat.
From Flocq Require Import Core Relative Plus_error BinarySingleNaN.
From Verif Require Import Base PyStr Util UtilProofs Parse Term TermProofs Num Wigner Hyperfine HyperfineProofs
  Graph GraphProofs Rules Atom AtomInv AtomSafe AtomSafe2 AtomSafe3 AtomSafe4 AtomSafe5 AtomSafe6 AtomLevels AtomKeep AtomTrans AtomDecay
  AtomExample PropFloat FloatRound PropRound PropRoundSub.
Import ListNotations.
Local Open Scope R_scope.

Local Existing Instance Hprec.
Local Existing Instance Hmax.

Notation fexp64 := (FLT_exp (SpecFloat.emin fprec femax) fprec).
Notation rnd64 := (round radix2 fexp64 (Znearest (fun z => negb (Z.even z)))).
(** Half of the smallest double above zero. *)
Definition tiny : R := / 2 ^ 1075.

(** ** A sum of numbers that are not negative *)

Lemma add_round : forall x y, double x -> double y -> finite (SFadd fprec femax x y) -> valR (SFadd fprec femax x y) = rnd64 (valR x + valR y).
Proof.
  intros x y Hx Hy F. destruct (finite_add _ _ F) as [Fx Fy]. destruct (double_B x Hx) as [a ->], (double_B y Hy) as [b ->].
  rewrite add_equiv in *. unfold valR, finite in *. rewrite is_finite_SF_B2SF in F, Fx, Fy. rewrite !SF2R_B2SF.
  pose proof (Bplus_correct fprec femax _ _ mode_NE a b Fx Fy) as H. destruct (Rlt_bool _ _).
  - destruct H as [-> _]. reflexivity.
  - destruct H as [H _]. rewrite <- is_finite_SF_B2SF in F. rewrite H in F. discriminate F.
Qed.
Lemma double_format : forall x, double x -> generic_format radix2 fexp64 (valR x).
Proof. intros x Hx. destruct (double_B x Hx) as [a ->]. unfold valR. rewrite SF2R_B2SF. apply generic_format_B2R. Qed.
Lemma add_above : forall x y, double x -> double y -> finite (SFadd fprec femax x y) -> 0 <= valR x -> 0 <= valR y ->
  valR x <= valR (SFadd fprec femax x y) /\ valR y <= valR (SFadd fprec femax x y).
Proof.
  intros x y Hx Hy F Px Py. rewrite add_round by auto. split; (apply round_ge_generic; [apply FLT_exp_valid; reflexivity|apply valid_rnd_N|now apply double_format|lra]).
Qed.
Lemma add_zero : forall b y, finite y -> valR (SFadd fprec femax (S754_zero b) y) = valR y.
Proof. intros [] [[]|[]| |[]] F; reflexivity || discriminate F. Qed.
Lemma zero64 : nofQ Binary64 0 = S754_zero false.
Proof. reflexivity. Qed.

Definition Rsum (l : list R) : R := fold_right Rplus 0 l.
Definition fsum (l : list spec_float) (c : spec_float) : spec_float := fold_left (SFadd fprec femax) l c.

Lemma fsum_finite : forall l c, finite (fsum l c) -> finite c.
Proof. induction l as [|v l IH]; intros c F; auto. cbn in F. apply IH, finite_add in F. apply F. Qed.
Lemma fsum_double : forall l c, (forall v, In v l -> double v) -> double c -> double (fsum l c).
Proof. induction l as [|v l IH]; intros c H D; auto. cbn. apply IH; [intros w I; apply H; now right|]. apply double_add; auto. apply H. now left. Qed.
Lemma u_lt_1 : urnd < 1.
Proof. unfold urnd. rewrite <- Rinv_1. apply Rinv_lt_contravar; [rewrite Rmult_1_l; apply pow_lt; lra|]. apply Rlt_pow_R1; [lra|lia]. Qed.

(** Every addition errs by at most a factor between 1 - u and 1 + u. *)
Lemma fsum_bounds : forall l c, (forall v, In v l -> double v /\ 0 <= valR v) -> double c -> 0 <= valR c -> finite (fsum l c) ->
  (1 - urnd) ^ List.length l * (valR c + Rsum (map valR l)) <= valR (fsum l c) <= (1 + urnd) ^ List.length l * (valR c + Rsum (map valR l)) /\
  valR c <= valR (fsum l c) /\ forall v, In v l -> valR v <= valR (fsum l c).
Proof.
  pose proof urnd_pos as Up. pose proof u_lt_1 as U1.
  induction l as [|v l IH]; intros c H Dc Pc F; [change (fsum [] c) with c; cbn [List.length map Rsum fold_right pow]; split; [lra|split; [lra|intros ? []]]|]. cbn [fsum fold_left] in F |- *. fold (fsum l (SFadd fprec femax c v)) in *.
  destruct (H v (or_introl eq_refl)) as [Dv Pv]. pose proof (fsum_finite _ _ F) as F1. pose proof (double_add _ _ Dc Dv) as D1.
  destruct (add_above c v Dc Dv F1 Pc Pv) as [A1 A2].
  destruct (IH (SFadd fprec femax c v)) as [[B1 B2] [B3 B4]]; auto; [intros w I; apply H; now right|lra|].
  destruct (add_close c v Dc Dv F1) as [_ C]. rewrite (Rabs_pos_eq (valR c + valR v)) in C by lra. apply Rabs_le_inv in C.
  set (t := valR (SFadd fprec femax c v)) in *. cbn [map Rsum fold_right List.length pow]. fold (Rsum (map valR l)).
  assert (P : 0 <= Rsum (map valR l)).
  { clear -H. assert (H' : forall w, In w l -> 0 <= valR w) by (intros w I; apply H; now right). clear H.
    induction l as [|w l IH]; cbn; [lra|]. pose proof (H' w (or_introl eq_refl)). assert (0 <= Rsum (map valR l)) by (apply IH; intros z I; apply H'; now right). unfold Rsum in *. lra. }
  set (S := Rsum (map valR l)) in *.
  assert (Q1 : 0 < (1 - urnd) ^ List.length l) by (apply pow_lt; lra). assert (Q2 : 0 < (1 + urnd) ^ List.length l) by (apply pow_lt; lra).
  split; [split|].
  - eapply Rle_trans; [|exact B1]. replace ((1 - urnd) * (1 - urnd) ^ List.length l * (valR c + (valR v + S))) with ((1 - urnd) ^ List.length l * ((1 - urnd) * (valR c + valR v) + (1 - urnd) * S)) by ring.
    apply Rmult_le_compat_l; [lra|]. assert (0 <= urnd * S) by (apply Rmult_le_pos; lra). lra.
  - eapply Rle_trans; [exact B2|]. replace ((1 + urnd) * (1 + urnd) ^ List.length l * (valR c + (valR v + S))) with ((1 + urnd) ^ List.length l * ((1 + urnd) * (valR c + valR v) + (1 + urnd) * S)) by ring.
    apply Rmult_le_compat_l; [lra|]. assert (0 <= urnd * S) by (apply Rmult_le_pos; lra). lra.
  - split; [lra|]. intros w [<-|I]; [lra|auto].
Qed.

(** The sum that starts with zero: one error less. *)
Lemma sum_bounds : forall l, (forall v, In v l -> double v /\ finite v /\ 0 <= valR v) -> finite (sumN Binary64 l) ->
  (1 - urnd) ^ (List.length l - 1) * Rsum (map valR l) <= valR (sumN Binary64 l) <= (1 + urnd) ^ (List.length l - 1) * Rsum (map valR l) /\
  forall v, In v l -> valR v <= valR (sumN Binary64 l).
Proof.
  intros [|v l] H F; [change (valR (sumN Binary64 [])) with 0; cbn [List.length map Rsum fold_right pow Nat.sub]; split; [lra|intros ? []]|]. unfold sumN in *. rewrite zero64 in *. cbn [nadd Binary64 fold_left] in *.
  fold (fsum l (SFadd fprec femax (S754_zero false) v)) in *. destruct (H v (or_introl eq_refl)) as [Dv [Fv Pv]].
  pose proof (add_zero false v Fv) as Ez.
  destruct (fsum_bounds l (SFadd fprec femax (S754_zero false) v)) as [B1 [B2 B3]]; auto.
  - intros w I. destruct (H w (or_intror I)) as [? [? ?]]. auto.
  - apply double_add; auto. reflexivity.
  - lra.
  - rewrite Ez in B1, B2. cbn [map Rsum fold_right List.length]. fold (Rsum (map valR l)). replace (S (List.length l) - 1)%nat with (List.length l) by lia.
    split; auto. intros w [<-|I]; auto.
Qed.

(** ** A quotient at most 1 *)

Lemma div_round : forall x y, double x -> double y -> finite x -> 0 <= valR x <= valR y -> 0 < valR y ->
  finite (SFdiv fprec femax x y) /\ valR (SFdiv fprec femax x y) = rnd64 (valR x / valR y) /\ 0 <= valR (SFdiv fprec femax x y) <= 1.
Proof.
  intros x y Hx Hy Fx [P0 P1] Py. destruct (double_B x Hx) as [a ->], (double_B y Hy) as [b ->]. rewrite div_equiv.
  unfold valR, finite in *. rewrite is_finite_SF_B2SF in *. rewrite !SF2R_B2SF in *.
  assert (Q : 0 <= B2R a / B2R b <= 1).
  { split; [apply Rmult_le_pos; [auto|left; now apply Rinv_0_lt_compat]|]. apply Rmult_le_reg_r with (B2R b); auto. unfold Rdiv. rewrite Rmult_assoc, Rinv_l; lra. }
  assert (R1 : 0 <= rnd64 (B2R a / B2R b) <= 1).
  { split; [apply round_ge_generic; [apply FLT_exp_valid; reflexivity|apply valid_rnd_N|apply generic_format_0|lra]|].
    apply round_le_generic; [apply FLT_exp_valid; reflexivity|apply valid_rnd_N| |lra].
    change 1 with (bpow radix2 0). apply generic_format_bpow. cbn. lia. }
  pose proof (Bdiv_correct fprec femax _ _ mode_NE a b ltac:(lra)) as H. rewrite Rlt_bool_true in H.
  - destruct H as [E [F _]]. rewrite F. cbn [round_mode] in E. rewrite E. auto.
  - cbn [round_mode]. apply Rle_lt_trans with 1; [rewrite Rabs_pos_eq; apply R1|]. change 1 with (bpow radix2 0). apply bpow_lt. reflexivity.
Qed.
Lemma quot_close : forall z, 0 <= z -> (1 - urnd) * z - tiny <= rnd64 z <= (1 + urnd) * z + tiny.
Proof.
  intros z Pz. destruct (error_N_FLT radix2 (SpecFloat.emin fprec femax) fprec ltac:(reflexivity) (fun z => negb (Z.even z)) z) as [e [t [He [Ht [_ E]]]]].
  assert (He' : Rabs e <= urnd) by (rewrite <- u_eq; exact He). clear He.
  assert (Ht' : Rabs t <= tiny).
  { eapply Rle_trans; [exact Ht|]. unfold tiny. right. change (SpecFloat.emin fprec femax) with (-1074)%Z.
    change (bpow radix2 (-1074)) with (/ IZR (Zpower_pos 2 1074)). replace (2 ^ 1075) with (2 * 2 ^ 1074) by (cbn [pow]; ring).
    rewrite Rinv_mult. f_equal. f_equal. change (Zpower_pos 2 1074) with (2 ^ Z.of_nat 1074)%Z. now rewrite <- pow_IZR. }
  rewrite E. apply Rabs_le_inv in He', Ht'. assert (- urnd * z <= e * z <= urnd * z) by (split; apply Rmult_le_compat_r; lra). lra.
Qed.

(** ** The ratios *)

Lemma pow_1mu : forall n, 0 < (1 - urnd) ^ n <= 1.
Proof.
  pose proof urnd_pos. pose proof u_lt_1. induction n as [|n IH]; cbn [pow]; [lra|]. set (P := (1 - urnd) ^ n) in *. split; [apply Rmult_lt_0_compat; lra|].
  assert (0 <= urnd * P) by (apply Rmult_le_pos; lra). lra.
Qed.
Lemma pow_pm : forall n, (1 + urnd) ^ n * (1 - urnd) ^ n <= 1.
Proof.
  pose proof urnd_pos. pose proof u_lt_1. intros n. rewrite <- Rpow_mult_distr. replace ((1 + urnd) * (1 - urnd)) with (1 - urnd * urnd) by ring.
  assert (P : 0 <= 1 - urnd * urnd <= 1) by (assert (0 <= urnd * urnd) by (apply Rmult_le_pos; lra); assert (0 <= urnd * (1 - urnd)) by (apply Rmult_le_pos; lra); lra).
  apply Rle_trans with (1 ^ n); [now apply pow_incr|rewrite pow1; lra].
Qed.
Lemma ratio_close : forall ws w, (forall v, In v ws -> double v /\ finite v /\ 0 <= valR v) -> finite (sumN Binary64 ws) -> 0 < Rsum (map valR ws) -> In w ws ->
  let p := SFdiv fprec femax w (sumN Binary64 ws) in let n := List.length ws in let z := valR w / Rsum (map valR ws) in
  finite p /\ 0 <= valR p <= 1 /\ (1 - urnd) ^ n * z - tiny <= valR p <= / (1 - urnd) ^ n * z + tiny.
Proof.
  intros ws w H F PS I p n z. pose proof urnd_pos as Up. pose proof u_lt_1 as U1. destruct (sum_bounds ws H F) as [[B1 B2] B3]. destruct (H w I) as [Dw [Fw Pw]].
  set (S := Rsum (map valR ws)) in *. set (T := sumN Binary64 ws) in *.
  assert (En : n = Datatypes.S (n - 1)) by (unfold n; clear - I; destruct ws; [destruct I|cbn [List.length]; lia]). fold n in B1, B2.
  destruct (pow_1mu (n - 1)) as [P1 P2]. assert (P3 : 0 < (1 + urnd) ^ (n - 1)) by (apply pow_lt; lra).
  assert (PT : 0 < valR T) by (eapply Rlt_le_trans; [|exact B1]; now apply Rmult_lt_0_compat).
  assert (DT : double T).
  { unfold T, sumN. apply fsum_double; [intros v J; now apply H|reflexivity]. }
  destruct (div_round w T Dw DT Fw (conj Pw (B3 w I)) PT) as [Fp [Ep Bp]]. fold p in Fp, Ep, Bp. split; auto. split; auto.
  assert (Pq : 0 <= valR w / valR T) by (apply Rmult_le_pos; [auto|left; now apply Rinv_0_lt_compat]).
  assert (Pz : 0 <= z) by (apply Rmult_le_pos; [auto|left; now apply Rinv_0_lt_compat]).
  assert (Ez : valR w = z * S) by (unfold z; field; lra). rewrite Ep. destruct (quot_close _ Pq) as [C1 C2].
  (* z against the quotient *)
  assert (L : (1 - urnd) ^ (n - 1) * z <= valR w / valR T).
  { apply Rmult_le_reg_r with (valR T); auto. unfold Rdiv. rewrite (Rmult_assoc (valR w)), Rinv_l, Rmult_1_r by lra. rewrite Ez.
    apply Rle_trans with ((1 - urnd) ^ (n - 1) * z * ((1 + urnd) ^ (n - 1) * S)); [apply Rmult_le_compat_l; [apply Rmult_le_pos; lra|auto]|].
    replace ((1 - urnd) ^ (n - 1) * z * ((1 + urnd) ^ (n - 1) * S)) with ((1 + urnd) ^ (n - 1) * (1 - urnd) ^ (n - 1) * (z * S)) by ring.
    rewrite <- (Rmult_1_l (z * S)) at 2. apply Rmult_le_compat_r; [apply Rmult_le_pos; lra|apply pow_pm]. }
  assert (U : (1 - urnd) ^ (n - 1) * (valR w / valR T) <= z).
  { apply Rmult_le_reg_r with S; auto. rewrite <- Ez. replace ((1 - urnd) ^ (n - 1) * (valR w / valR T) * S) with ((valR w / valR T) * ((1 - urnd) ^ (n - 1) * S)) by ring.
    apply Rle_trans with ((valR w / valR T) * valR T); [apply Rmult_le_compat_l; auto|]. right. field. lra. }
  rewrite En. cbn [pow]. split.
  - eapply Rle_trans; [|exact C1]. apply Rplus_le_compat_r. rewrite Rmult_assoc. apply Rmult_le_compat_l; [lra|auto].
  - eapply Rle_trans; [exact C2|]. apply Rplus_le_compat_r. apply Rmult_le_reg_l with ((1 - urnd) * (1 - urnd) ^ (n - 1)); [apply Rmult_lt_0_compat; lra|].
    rewrite <- (Rmult_assoc _ (/ _)), Rinv_r, Rmult_1_l by (apply Rgt_not_eq, Rmult_lt_0_compat; lra).
    replace ((1 - urnd) * (1 - urnd) ^ (n - 1) * ((1 + urnd) * (valR w / valR T))) with ((1 - urnd * urnd) * ((1 - urnd) ^ (n - 1) * (valR w / valR T))) by ring.
    assert (0 <= urnd * urnd) by (apply Rmult_le_pos; lra). assert (0 <= (1 - urnd) ^ (n - 1) * (valR w / valR T)) by (apply Rmult_le_pos; lra).
    assert (0 <= urnd * urnd * ((1 - urnd) ^ (n - 1) * (valR w / valR T))) by (apply Rmult_le_pos; lra). lra.
Qed.
Lemma Rsum_nonneg : forall l, (forall v, In v l -> 0 <= v) -> 0 <= Rsum l.
Proof.
  induction l as [|v l IH]; intros H; cbn [Rsum fold_right]; [lra|]. pose proof (H v (or_introl eq_refl)).
  assert (0 <= Rsum l) by (apply IH; intros w I; apply H; now right). unfold Rsum in *. lra.
Qed.
Lemma Rsum_shares : forall (ws : list spec_float) (g : spec_float -> R) a b S, 0 < S ->
  (forall w, In w ws -> a * (valR w / S) - tiny <= g w <= b * (valR w / S) + tiny) ->
  a * (Rsum (map valR ws) / S) - INR (List.length ws) * tiny <= Rsum (map g ws) <= b * (Rsum (map valR ws) / S) + INR (List.length ws) * tiny.
Proof.
  induction ws as [|w ws IH]; intros g a b S PS H.
  - cbn [map Rsum fold_right List.length INR]. unfold Rdiv. lra.
  - pose proof (H w (or_introl eq_refl)) as [H1 H2]. destruct (IH g a b S PS (fun v I => H v (or_intror I))) as [G1 G2].
    cbn [map List.length]. rewrite S_INR. unfold Rsum in *. cbn [fold_right]. set (X := fold_right Rplus 0 (map valR ws)) in *. set (Y := fold_right Rplus 0 (map g ws)) in *.
    replace ((valR w + X) / S) with (valR w / S + X / S) by (field; lra). lra.
Qed.
Lemma bernoulli : forall n, 1 - INR n * urnd <= (1 - urnd) ^ n.
Proof.
  pose proof urnd_pos. pose proof u_lt_1. induction n as [|n IH]; [cbn; lra|]. rewrite S_INR. cbn [pow]. destruct (pow_1mu n).
  assert (0 <= urnd * (1 - (1 - urnd) ^ n)) by (apply Rmult_le_pos; lra). lra.
Qed.
Lemma tiny_small : 0 < tiny <= urnd.
Proof.
  unfold tiny, urnd. split; [apply Rinv_0_lt_compat, pow_lt; lra|]. apply Rinv_le_contravar; [apply pow_lt; lra|]. apply Rle_pow; [lra|lia].
Qed.

Section Generic.
  Context (N : Num) (muB : N).
  Implicit Types (s : st N) (t : nat) (x : trans N).
  Lemma keys_N : forall (f : string * nat -> option (N * funit)) (d : dict string nat) (r : dict string N),
    Forall2 (fun (mq : string * option (N * funit)) (mv : string * N) => fst mq = fst mv /\ exists u, snd mq = Some (snd mv, u)) (map (fun nt => (fst nt, f nt)) d) r ->
    dkeys r = dkeys d /\ (forall m w, In (m, w) r <-> exists t u, In (m, t) d /\ f (m, t) = Some (w, u)).
  Proof.
    intros f d. induction d as [|[m t] d IH]; intros r F; cbn [map] in F; inversion F as [|? [m' w] ? r' [E1 [u E2]] F']; subst.
    - split; auto. intros m w. split; [intros []|intros [t [u [[] _]]]].
    - cbn [fst snd] in *. destruct (IH _ F') as [K H]. split; [cbn [dkeys map fst]; unfold dkeys in K; now rewrite K, E1|].
      intros m0 w0. cbn [In]. rewrite H. split.
      + intros [E|[t0 [u0 [I Ef]]]]; [apply pair_equal_spec in E as [<- <-]; exists t, u; subst; auto|exists t0, u0; auto].
      + intros [t0 [u0 [[E|I] Ef]]]; [left; apply pair_equal_spec in E as [<- <-]; rewrite Ef in E2; apply (f_equal (option_map fst)) in E2; cbn in E2; subst; congruence|right; eauto].
  Qed.
  Lemma branching_N : forall s key d s', WF s -> linked_levels N muB 3 key s = (Ok d, s') -> exists k, kind_of_key s key k /\ (
    (forall m t x, channel s' k key m t x -> exists v u, x_A x = Some (v, u)) ->
    exists ds : dict string N, NoDup (dkeys ds) /\ (forall m w, In (m, w) ds <-> exists t x u, channel s' k key m t x /\ x_A x = Some (w, u)) /\
      branching N muB key s = (Ok (map (fun mv => (fst mv, ndiv N (snd mv) (sumN N (dvals ds)))) ds), s')).
  Proof.
    intros s key d s' W E. destruct (linked_spec _ _ _ _ _ _ _ W E) as [W' [ND [k [KK [Hd Ht]]]]]. exists k. split; auto. intros H.
    assert (T : forall m t, In (m, t) d -> is_tr s' t) by (intros m t I; destruct (Ht m t I) as [x [V _]]; exists x; auto).
    assert (FI : forall m t, In (m, t) (filter (from_key s' key) d) <-> exists x, channel s' k key m t x).
    { intros m t. rewrite filter_In, Hd. unfold from_key, channel. cbn [snd]. split.
      - intros [[Hn Ed] F]. destruct (tr s' t) as [x|]; [|discriminate F]. exists x. destruct (nm s' (x_up x)) as [u|]; [|discriminate F].
        apply String.eqb_eq in F. subst. auto.
      - intros [x [Hn [Ed [V Nu]]]]. rewrite V, Nu. split; auto. apply String.eqb_refl. }
    pose proof (A_coeffs_eq N s' key d W' T) as EA.
    destruct (magnitudes_eq N (map (fun nt => (fst nt, A_of s' (snd nt))) (filter (from_key s' key) d))) as [r [Er F]].
    { intros m q I. apply in_map_iff in I as [[m' t] [Eq I]]. cbn [fst snd] in Eq. apply pair_equal_spec in Eq as [<- <-].
      apply FI in I as [x C]. pose proof C as [_ [_ [V _]]]. unfold A_of. rewrite V. destruct (H _ _ _ C) as [v [u ->]]. eauto. }
    destruct (keys_N (fun nt => A_of s' (snd nt)) (filter (from_key s' key) d) r F) as [K I]. exists r. split; [rewrite K; now apply filter_keys|]. split.
    - intros m w. rewrite I. cbn [snd]. split.
      + intros [t [u [It Ef]]]. apply FI in It as [x C]. pose proof C as [_ [_ [V _]]]. exists t, x, u. unfold A_of in Ef. rewrite V in Ef. auto.
      + intros [t [x [u [C Ax]]]]. exists t, u. split; [apply FI; eauto|]. destruct C as [_ [_ [V _]]]. unfold A_of. now rewrite V.
    - unfold branching. erewrite bind_Ok by exact E. rewrite EA. cbn [rbind]. rewrite Er. cbn [rbind]. reflexivity.
  Qed.
  Lemma sum_A_N : forall s a (d : dict string nat) c, NoDup (dkeys d) ->
    (forall m t, In (m, t) d -> exists x, tr s t = Some x /\ (x_up x = a -> x_A x <> None)) ->
    exists ds : dict string N, NoDup (dkeys ds) /\ (forall k, In k (dkeys ds) -> In k (dkeys d)) /\
      (forall m w, In (m, w) ds <-> exists t x q, In (m, t) d /\ tr s t = Some x /\ x_up x = a /\ x_A x = Some q /\ w = fst (to_Hz N q)) /\
      sum_A N s a (dvals d) c = Ok (fold_left (nadd N) (dvals ds) c).
  Proof.
    intros s a d. induction d as [|[m t] d IH]; intros c ND H; cbn [dvals map sum_A].
    - exists []. split; [constructor|]. split; [intros k []|]. split; [intros m w; split; [intros []|intros [t [x [q [[] _]]]]]|reflexivity].
    - inversion ND as [|? ? N1 N2]; subst. destruct (H m t (or_introl eq_refl)) as [x [V A]]. cbn [snd]. rewrite V.
      assert (H' : forall m t, In (m, t) d -> exists x, tr s t = Some x /\ (x_up x = a -> x_A x <> None)) by (intros m' t' I; apply (H m' t'); now right).
      destruct (Nat.eqb_spec (x_up x) a) as [U|U].
      + destruct (x_A x) as [q|] eqn:Aq; [|now destruct (A U)]. destruct (IH (nadd N c (fst (to_Hz N q))) N2 H') as [ds [D1 [D2 [D3 D4]]]].
        exists ((m, fst (to_Hz N q)) :: ds). split; [constructor; auto|]. split; [|split].
        * intros k [<-|I]; [now left|right; auto].
        * intros m0 w. cbn [In]. rewrite D3. split.
          -- intros [E|[t0 [x0 [q0 [I R]]]]]; [apply pair_equal_spec in E as [<- <-]; exists t, x, q; auto 8|exists t0, x0, q0; auto].
          -- intros [t0 [x0 [q0 [[E|I] [V0 [U0 [A0 ->]]]]]]].
             ++ injection E as <- <-. left. assert (x0 = x) by congruence. subst. assert (q0 = q) by congruence. now subst.
             ++ right. exists t0, x0, q0. auto.
        * exact D4.
      + destruct (IH c N2 H') as [ds [D1 [D2 [D3 D4]]]]. exists ds. split; auto. split; [intros k I; right; auto|]. split; auto.
        intros m0 w. rewrite D3. split.
        * intros [t0 [x0 [q0 [I R]]]]. exists t0, x0, q0. split; [now right|auto].
        * intros [t0 [x0 [q0 [[E|I] [V0 [U0 R]]]]]]; [|exists t0, x0, q0; auto]. injection E as <- <-. congruence.
  Qed.
End Generic.

(** For a level of any kind whose decays have A coefficients that are doubles
    and not negative, and not all zero.  The ratio of a decay is between 0 and
    1, and it is the decay's share of the exact sum up to n + 1 roundings, where
    n is the number of decays; the ratios add up to 1 up to 3 n 2^-53.  The
    ratio of an only decay is 1. *)
Theorem C148_ratios : forall muB orc, (forall n, oracle_ok (orc n)) -> forall s, reachable Binary64 muB orc s ->
  forall key d s', linked_levels Binary64 muB 3 key s = (Ok d, s') -> exists k, kind_of_key s key k /\ (
  (forall m t x, channel s' k key m t x -> exists v u, x_A x = Some (v, u) /\ double v /\ finite v /\ 0 <= valR v) ->
  exists ds r : dict string Binary64, NoDup (dkeys ds) /\ (forall m w, In (m, w) ds <-> exists t x u, channel s' k key m t x /\ x_A x = Some (w, u)) /\
    branching Binary64 muB key s = (Ok r, s') /\ dkeys r = dkeys ds /\
    let S := Rsum (map valR (dvals ds)) in let n := List.length ds in
    (0 < S -> finite (sumN Binary64 (dvals ds)) ->
      (forall m w p, In (m, w) ds -> In (m, p) r -> finite p /\ 0 <= valR p <= 1 /\
        (1 - urnd) ^ n * (valR w / S) - tiny <= valR p <= / (1 - urnd) ^ n * (valR w / S) + tiny) /\
      (1 - urnd) ^ n - INR n * tiny <= Rsum (map valR (dvals r)) <= / (1 - urnd) ^ n + INR n * tiny /\
      (INR n <= 2 ^ 52 -> Rabs (Rsum (map valR (dvals r)) - 1) <= 3 * INR n * urnd) /\
      (n = 1%nat -> forall m p, In (m, p) r -> valR p = 1))).
Proof.
  intros muB orc OK s R key d s' E. pose proof (reachable_WF Binary64 muB orc OK s R) as W.
  destruct (branching_N Binary64 muB s key d s' W E) as [k [KK H]]. exists k. split; auto. intros HA.
  destruct H as [ds [ND [Hd Eb]]]; [intros m t x C; destruct (HA m t x C) as [v [u [Av _]]]; eauto|].
  exists ds. eexists. split; [exact ND|]. split; [exact Hd|]. split; [exact Eb|]. split; [unfold dkeys; rewrite map_map; reflexivity|].
  intros S n PS FT. set (ws := dvals ds) in *.
  assert (Hw : forall v : spec_float, In v ws -> double v /\ finite v /\ 0 <= valR v).
  { intros v I. apply in_map_iff in I as [[m w] [Ew I]]. cbn [snd] in Ew. subst w. apply Hd in I as [t [x [u [C Ax]]]].
    destruct (HA m t x C) as [v' [u' [Av Hv]]]. rewrite Ax in Av. apply (f_equal (option_map fst)) in Av. cbn in Av. injection Av as <-. auto. }
  assert (Ln : n = @List.length spec_float ws) by (unfold n, ws, dvals; symmetry; exact (map_length snd ds)).
  assert (RC : forall w, In w ws -> finite (SFdiv fprec femax w (sumN Binary64 ws)) /\ 0 <= valR (SFdiv fprec femax w (sumN Binary64 ws)) <= 1 /\
    (1 - urnd) ^ n * (valR w / S) - tiny <= valR (SFdiv fprec femax w (sumN Binary64 ws)) <= / (1 - urnd) ^ n * (valR w / S) + tiny).
  { intros w I. rewrite Ln. apply (ratio_close ws w Hw FT PS I). }
  assert (Ev : map valR (dvals (map (fun mv : string * Binary64 => (fst mv, ndiv Binary64 (snd mv) (sumN Binary64 ws))) ds)) = map (fun w => valR (SFdiv fprec femax w (sumN Binary64 ws))) ws).
  { unfold ws, dvals. rewrite !map_map. reflexivity. }
  assert (Sm : (1 - urnd) ^ n - INR n * tiny <= Rsum (map valR (dvals (map (fun mv : string * Binary64 => (fst mv, ndiv Binary64 (snd mv) (sumN Binary64 ws))) ds))) <= / (1 - urnd) ^ n + INR n * tiny).
  { rewrite Ev. destruct (Rsum_shares ws (fun w => valR (SFdiv fprec femax w (sumN Binary64 ws))) ((1 - urnd) ^ n) (/ (1 - urnd) ^ n) S PS) as [G1 G2].
    { intros w I. apply (RC w I). }
    rewrite <- Ln in G1, G2. assert (E1 : Rsum (map valR ws) / S = 1) by (unfold Rdiv; apply Rinv_r; lra).
    assert (E2 : (1 - urnd) ^ n * (Rsum (map valR ws) / S) = (1 - urnd) ^ n) by (rewrite <- (Rmult_1_r ((1 - urnd) ^ n)) at 2; f_equal; exact E1).
    assert (E3 : / (1 - urnd) ^ n * (Rsum (map valR ws) / S) = / (1 - urnd) ^ n) by (rewrite <- (Rmult_1_r (/ (1 - urnd) ^ n)) at 2; f_equal; exact E1).
    split; [rewrite <- E2; exact G1|rewrite <- E3; exact G2]. }
  split; [|split; [exact Sm|split]].
  - intros m w p Iw Ip. apply in_map_iff in Ip as [[m' w'] [Ep Ip]]. cbn [fst snd] in Ep. apply pair_equal_spec in Ep as [-> <-].
    assert (w' = w) by (apply (In_dget_nodup m w' ds ND) in Ip; apply (In_dget_nodup m w ds ND) in Iw; congruence). subst w'.
    apply RC. apply in_map_iff. exists (m, w). auto.
  - intros Hn. destruct tiny_small as [T0 T1]. pose proof urnd_pos as Up. pose proof (bernoulli n) as Bn. destruct (pow_1mu n) as [P1 P2]. pose proof (pos_INR n) as Pn.
    assert (Hu : INR n * urnd <= / 2).
    { apply Rle_trans with (2 ^ 52 * urnd); [apply Rmult_le_compat_r; lra|]. unfold urnd. right. replace (2 ^ 53) with (2 * 2 ^ 52) by (cbn [pow]; ring).
      rewrite Rinv_mult. field; apply pow_nonzero; lra. }
    assert (Ui : / (1 - urnd) ^ n <= 1 + 2 * INR n * urnd).
    { apply Rmult_le_reg_l with ((1 - urnd) ^ n); auto. rewrite Rinv_r by lra.
      apply Rle_trans with ((1 - INR n * urnd) * (1 + 2 * INR n * urnd)).
      - replace ((1 - INR n * urnd) * (1 + 2 * INR n * urnd)) with (1 + (INR n * urnd) * (1 - 2 * (INR n * urnd))) by ring.
        assert (0 <= INR n * urnd * (1 - 2 * (INR n * urnd))) by (apply Rmult_le_pos; [apply Rmult_le_pos; lra|lra]). lra.
      - apply Rmult_le_compat_r; [|auto]. assert (0 <= INR n * urnd) by (apply Rmult_le_pos; lra). lra. }
    assert (INR n * tiny <= INR n * urnd) by (apply Rmult_le_compat_l; lra). assert (0 <= INR n * urnd) by (apply Rmult_le_pos; lra). apply Rabs_le. destruct Sm as [Sm1 Sm2]. split; lra.
  - intros En m p I. apply in_map_iff in I as [[m' w] [Ep I]]. cbn [fst snd] in Ep. apply pair_equal_spec in Ep as [_ <-].
    assert (Iw : In w ws) by (apply in_map_iff; exists (m', w); auto). destruct (Hw w Iw) as [Dw [Fw Pw]].
    assert (El : ws = [w]).
    { rewrite Ln in En. destruct ws as [|w0 [|w1 ws0]]; try discriminate En. destruct Iw as [->|[]]. reflexivity. }
    destruct (sum_bounds ws Hw FT) as [[B1 B2] B3]. unfold S in PS. change (map valR (dvals ds)) with (map valR ws) in PS. rewrite El in B1, B2, PS |- *. cbn [List.length Nat.sub pow map Rsum fold_right] in B1, B2, PS.
    set (T := sumN Binary64 [w]) in *. assert (ET : valR T = valR w) by lra. change (ndiv Binary64 w T) with (SFdiv fprec femax w T).
    destruct (div_round w T) as [_ [Er _]]; auto; [|lra|lra|].
    + unfold T, sumN. cbn [fold_left nadd Binary64]. apply double_add; auto. reflexivity.
    + rewrite Er, ET. unfold Rdiv. rewrite Rinv_r by lra. apply round_generic; [apply valid_rnd_N|]. change 1 with (bpow radix2 0). apply generic_format_bpow. cbn. lia.
Qed.
Print Assumptions C148_ratios.

(** The total rate that state_lifetime divides by, if the sum does not
    overflow: [ds] are the A coefficients in Hz, as converted. *)
Theorem C148_rate : forall muB orc, (forall n, oracle_ok (orc n)) -> forall s, reachable Binary64 muB orc s ->
  forall key d s1 a s2, linked_levels Binary64 muB 3 key s = (Ok d, s1) -> levels_get Binary64 key s1 = (Ok a, s2) ->
  (forall m t x, In (m, t) d -> tr s2 t = Some x -> x_up x = a -> exists q, x_A x = Some q /\
    double (fst (to_Hz Binary64 q)) /\ finite (fst (to_Hz Binary64 q)) /\ 0 <= valR (fst (to_Hz Binary64 q))) ->
  exists (ds : dict string Binary64) (T : Binary64), NoDup (dkeys ds) /\
    (forall m w, In (m, w) ds <-> exists t x q, In (m, t) d /\ tr s2 t = Some x /\ x_up x = a /\ x_A x = Some q /\ w = fst (to_Hz Binary64 q)) /\
    total_rate Binary64 muB key s = (Ok T, s2) /\
    (finite T -> let S := Rsum (map valR (dvals ds)) in let n := List.length ds in
      (1 - urnd) ^ (n - 1) * S <= valR T <= (1 + urnd) ^ (n - 1) * S).
Proof.
  intros muB orc OK s R key d s1 a s2 E1 E2 H. pose proof (reachable_WF Binary64 muB orc OK s R) as W.
  destruct (linked_spec _ _ _ _ _ _ _ W E1) as [W1 [ND [k [KK [Hd Ht]]]]].
  destruct (safe_Ok _ _ _ _ _ _ _ (levels_get_safe Binary64 s1 key W1) E2) as [W2 [L _]].
  assert (Ht2 : forall m t, In (m, t) d -> exists x, tr s2 t = Some x /\ (x_up x = a -> x_A x <> None)).
  { intros m t I. destruct (Ht _ _ I) as [x [V _]]. destruct (ext_tr _ _ _ (look_ext _ _ _ (proj1 L)) _ _ V) as [x2 [V2 _]]. exists x2. split; auto.
    intros U Hn. destruct (H m t x2 I V2 U) as [q [Aq _]]. rewrite Hn in Aq. discriminate Aq. }
  destruct (sum_A_N Binary64 s2 a d (nofQ Binary64 0) ND Ht2) as [ds [D1 [_ [D3 D4]]]]. exists ds, (sumN Binary64 (dvals ds)). split; auto. split; auto. split.
  - unfold total_rate. erewrite bind_Ok by exact E1. erewrite bind_Ok by exact E2. rewrite D4. reflexivity.
  - intros F S n. replace n with (@List.length spec_float (dvals ds)) by (unfold n, dvals; exact (map_length snd ds)).
    apply (sum_bounds (dvals ds)); auto. intros v I. apply in_map_iff in I as [[m w] [Ew I]]. cbn [snd] in Ew. subst w.
    apply D3 in I as [t [x [q [I [V [U [Aq ->]]]]]]]. destruct (H m t x I V U) as [q' [Aq' Hq]]. assert (q' = q) by congruence. subst q'. exact Hq.
Qed.
Print Assumptions C148_rate.

(** Two decays at 1 Hz and 2 Hz.  The ratios are the doubles next to 1/3 and
    2/3, which do not add up to 1. *)
Definition third : spec_float := S754_finite false 6004799503160661 (-54).
Definition thirds : spec_float := S754_finite false 6004799503160661 (-53).
Example C148_case : let s := runf fromf [nlf tS 0; addf 0; nlf tP 10; addf 1; nlf tQ 20; addf 2;
    ONewTransition Binary64 2 0 None (Some (f_ofZ 1, uHz)) None; ONewTransition Binary64 1 2 None (Some (f_ofZ 2, uHz)) None] in
  reachable Binary64 (f_ofZ 1) plain s /\ map (fun x : trans Binary64 => option_map (fun q => fst (to_Hz Binary64 q)) (x_A x)) (s_trans s) = [Some (f_ofZ 1); Some (f_ofZ 2)] /\
  fst (branching Binary64 (f_ofZ 1) "6p 2P*3/2" s) = Ok [("6s 2S1/2", third); ("6p 2P*1/2", thirds)]%string /\
  fst (total_rate Binary64 (f_ofZ 1) "6p 2P*3/2" s) = Ok (f_ofZ 3) /\
  forallb (fun z => valid_binary fprec femax (f_ofZ z) && is_finite_SF (f_ofZ z)) [1; 2]%Z = true /\ valR third + valR thirds <> 1.
Proof.
  cbv zeta. split; [apply fromf_reachable|]. do 4 (split; [vm_compute; reflexivity|]).
  unfold valR, third, thirds, SF2R, F2R. cbn [Fnum Fexp cond_Zopp bpow]. intros E.
  assert (E' : 18014398509481983 = IZR (2 ^ 54)).
  { apply Rmult_eq_reg_r with (/ IZR (Z.pow_pos radix2 54)); [|apply Rinv_neq_0_compat, IZR_neq; discriminate].
    change (IZR (2 ^ 54)) with (IZR (Z.pow_pos radix2 54)). rewrite Rinv_r by (apply IZR_neq; discriminate).
    rewrite <- E. change (Z.pow_pos radix2 54) with (18014398509481984)%Z. change (Z.pow_pos radix2 53) with (9007199254740992)%Z. lra. }
  apply eq_IZR in E'. discriminate E'.
Qed.

(** A level all of whose decays have a rate of zero: each ratio is nan, though
    the lifetime is infinite (atom.py:1105-1106).  So the ratios are no distribution
    there, and asking for them does not raise. *)
Lemma sum_zeros : forall l : list spec_float, (forall v, In v l -> exists b, v = S754_zero b) -> fold_left (SFadd fprec femax) l (S754_zero false) = S754_zero false.
Proof.
  induction l as [|v l IH]; intros H; [reflexivity|]. destruct (H v (or_introl eq_refl)) as [b ->]. cbn [fold_left].
  replace (SFadd fprec femax (S754_zero false) (S754_zero b)) with (S754_zero false) by (destruct b; reflexivity). apply IH. intros; apply H; now right.
Qed.
Theorem C148_zero : forall muB orc, (forall n, oracle_ok (orc n)) -> forall s, reachable Binary64 muB orc s ->
  forall key d s', linked_levels Binary64 muB 3 key s = (Ok d, s') -> exists k, kind_of_key s key k /\ (
  (forall m t x, channel s' k key m t x -> exists b u, x_A x = Some (S754_zero b, u)) ->
  exists r : dict string Binary64, NoDup (dkeys r) /\ branching Binary64 muB key s = (Ok r, s') /\
    forall m p, In (m, p) r <-> p = S754_nan /\ exists t x, channel s' k key m t x).
Proof.
  intros muB orc OK s R key d s' E. pose proof (reachable_WF Binary64 muB orc OK s R) as W.
  destruct (branching_N Binary64 muB s key d s' W E) as [k [KK H]]. exists k. split; auto. intros HA.
  destruct H as [ds [ND [Hd Eb]]]; [intros m t x C; destruct (HA m t x C) as [b [u Av]]; eauto|].
  assert (HZ : forall m w, In (m, w) ds -> exists b, w = S754_zero b).
  { intros m w I. apply Hd in I as [t [x [u [C Ax]]]]. destruct (HA m t x C) as [b [u' Av]]. exists b. rewrite Ax in Av.
    apply (f_equal (option_map fst)) in Av. cbn in Av. now injection Av. }
  assert (S0 : sumN Binary64 (dvals ds) = S754_zero false).
  { unfold sumN. rewrite zero64. apply sum_zeros. intros v I. apply in_map_iff in I as [[m w] [<- I]]. apply (HZ m w I). }
  eexists. split; [|split; [exact Eb|]]; [unfold dkeys; rewrite map_map; exact ND|].
  intros m p. rewrite in_map_iff. split.
  - intros [[m' w] [Ep I]]. cbn [fst snd] in Ep. apply pair_equal_spec in Ep as [<- <-]. destruct (HZ _ _ I) as [b ->]. rewrite S0.
    split; [reflexivity|]. apply Hd in I as [t [x [u [C _]]]]. eauto.
  - intros [-> [t [x C]]]. destruct (HA m t x C) as [b [u Av]]. exists (m, S754_zero b). cbn [fst snd]. rewrite S0. split; [reflexivity|]. apply Hd. eauto.
Qed.
Print Assumptions C148_zero.
Example C148_zero_case : let s := runf fromf [nlf tS 0; addf 0; nlf tP 10; addf 1; nlf tQ 20; addf 2;
    ONewTransition Binary64 2 0 None (Some (f_ofZ 0, uHz)) None; ONewTransition Binary64 1 2 None (Some (f_ofZ 0, uMHz)) None] in
  reachable Binary64 (f_ofZ 1) plain s /\
  fst (branching Binary64 (f_ofZ 1) "6p 2P*3/2" s) = Ok [("6s 2S1/2", S754_nan); ("6p 2P*1/2", S754_nan)]%string /\
  fst (total_rate Binary64 (f_ofZ 1) "6p 2P*3/2" s) = Ok (S754_zero false).
Proof. cbv zeta. split; [apply fromf_reachable|]. split; vm_compute; reflexivity. Qed.
