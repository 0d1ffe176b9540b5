(** Properties C63-C65, C67-C71: where a Grotrian diagram puts its lines,
    boxes and arrows. *)
From Coq Require Import List Bool ZArith QArith Qcanon Qminmax Lia String Permutation Sorted.
From Verif Require Import Base PyStr Util UtilProofs Parse Term TermProofs Num Wigner Hyperfine HyperfineProofs
  Graph GraphProofs Rules Atom AtomInv AtomSafe AtomSafe2 AtomSafe3 AtomSafe4 AtomSafe5 AtomSafe6 AtomLevels AtomKeep AtomPaths AtomHist AtomEnergy AtomAlias AtomSub
  Grotrian GrotrianProofs AtomExample.
Import ListNotations.
Local Open Scope Qc_scope.

(** ** C63: bounding boxes *)

(** Every point is inside; the sides are [pad] beyond the outermost points in
    x, and [pad] times the height of the points in y. *)
Theorem C63_bounds : forall pts pad b, 0 <= pad -> bbox pts pad = Ok b ->
  (forall p, In p pts -> b_x0 b <= fst p <= b_x1 b /\ b_y0 b <= snd p <= b_y1 b) /\
  (exists p, In p pts /\ b_x0 b = fst p - pad /\ forall q, In q pts -> fst p <= fst q) /\
  (exists p, In p pts /\ b_x1 b = fst p + pad /\ forall q, In q pts -> fst q <= fst p) /\
  (exists p q, In p pts /\ In q pts /\ b_y0 b = snd p - (snd q - snd p) * pad /\ b_y1 b = snd q + (snd q - snd p) * pad /\
     forall z, In z pts -> snd p <= snd z <= snd q).
Proof.
  intros pts pad b Hp E. split.
  - intros p I. destruct (bbox_contains _ _ _ Hp E p I) as [H1 [H2 [H3 H4]]]. auto.
  - destruct (bbox_sides _ _ _ E) as [xl [yl [xh [yh [-> [[p1 [I1 E1]] [[p2 [I2 E2]] [[p3 [I3 E3]] [[p4 [I4 E4]] H]]]]]]]]].
    cbn [b_x0 b_x1 b_y0 b_y1]. split; [|split].
    + exists p1. rewrite E1. split; auto. split; auto. intros q I. apply H; auto.
    + exists p3. rewrite E3. split; auto. split; auto. intros q I. apply H; auto.
    + exists p2, p4. rewrite E2, E4. split; auto. split; auto. split; auto. split; auto. intros z I. destruct (H z I) as [_ [_ [H3 H4]]]. auto.
Qed.
Theorem C63_defined : forall pts pad, (pts = [] -> bbox pts pad = Raise ValueError) /\ (pts <> [] -> exists b, bbox pts pad = Ok b).
Proof. intros pts pad. split; [intros ->; reflexivity|apply bbox_ok]. Qed.

(** The anchors 1 to 9 lie inside, with 1, 3, 7, 9 in the corners (y upwards)
    and 5 in the middle; any other integer is a KeyError. *)
Theorem C63_anchors : forall b, b_x0 b <= b_x1 b -> b_y0 b <= b_y1 b ->
  (forall n, (1 <= n <= 9)%Z -> exists p, box_pos b n (0, 0) = Ok p /\ b_x0 b <= fst p <= b_x1 b /\ b_y0 b <= snd p <= b_y1 b) /\
  (forall n off, ~ (1 <= n <= 9)%Z -> box_pos b n off = Raise KeyError) /\
  (forall dx dy, box_pos b 1 (dx, dy) = Ok (b_x0 b + dx, b_y1 b + dy) /\ box_pos b 3 (dx, dy) = Ok (b_x1 b + dx, b_y1 b + dy) /\
    box_pos b 7 (dx, dy) = Ok (b_x0 b + dx, b_y0 b + dy) /\ box_pos b 9 (dx, dy) = Ok (b_x1 b + dx, b_y0 b + dy) /\
    box_pos b 5 (dx, dy) = Ok ((b_x0 b + b_x1 b) / qc 2 + dx, (b_y0 b + b_y1 b) / qc 2 + dy)).
Proof.
  intros b Hx Hy. split; [|split].
  - intros n Hn. assert (D : exists p, box_pos b n (0, 0) = Ok p).
    { assert (N : (n = 1 \/ n = 2 \/ n = 3 \/ n = 4 \/ n = 5 \/ n = 6 \/ n = 7 \/ n = 8 \/ n = 9)%Z) by lia.
      repeat destruct N as [->|N]; [..|subst n]; eexists; reflexivity. }
    destruct D as [p E]. exists p. split; auto. destruct (box_pos_in b n p Hx Hy E) as [H1 [H2 [H3 H4]]]. auto.
  - intros n off Hn. unfold box_pos. assert (D : pos_dict n = None); [|now rewrite D].
    unfold pos_dict. repeat match goal with |- context [match ?z with _ => _ end] => destruct z; try reflexivity end; exfalso; apply Hn; lia.
  - intros dx dy. unfold box_pos, pos_dict, Qcdiv. cbn [fst snd].
    assert (H : / qc 2 = qc (1 # 2)) by (apply Qc_is_canon; reflexivity). rewrite H.
    repeat split; do 2 f_equal; ring.
Qed.

Example C63_case : bbox [(qc 1, qc 5); (qc 3, qc 2); (qc 2, qc 12)] (qc (1 # 20)) = Ok (mkBox (qc (19 # 20)) (qc (3 # 2)) (qc (61 # 20)) (qc (25 # 2))).
Proof. unfold bbox. cbn. do 2 f_equal; apply Qc_is_canon; reflexivity. Qed.

(** ** Levels and keyword arguments *)

(** [a] is a gross level of the atom, of doubled J [j]. *)
Definition gross (s : st Exact) (a : nat) (l : level Exact) (j : Z) : Prop :=
  lv s a = Some l /\ l_kind l = LE /\ l_attached l = true /\ l_J l = Some j.
Definition boxed (b : box) (r : row) : Prop := in_box b (r_p0 r) /\ in_box b (r_p1 r).

(** A squeeze for which no width is a division by zero. *)
Definition roomy (o : opts) (n : Z) : Prop :=
  match o_squeeze o with SqDefault | SqTrue => (2 <= n)%Z | SqNum q => qc (1 # 2) <= q | SqFalse => False end.

Lemma truncate_ge : forall x z, qc (z # 1) <= x -> (z <= truncate x)%Z.
Proof.
  intros x z H. unfold truncate. unfold Qcle in H. rewrite (qc_this z) in H. unfold Qle in H. cbn [Qnum Qden] in H.
  apply Z.quot_le_lower_bound; lia.
Qed.
Lemma sq_roomy : forall o j i, roomy o (j + i) -> exists sq, sq_of o j i = Some sq /\ (2 <= sq)%Z.
Proof.
  intros o j i H. unfold roomy in H. unfold sq_of. destruct (o_squeeze o) as [| | |q]; try contradiction.
  - eexists. split; [reflexivity|]. pose proof (Z.quot_le_lower_bound (j + i) 2 1). lia.
  - eexists. split; [reflexivity|]. pose proof (Z.quot_le_lower_bound (j + i) 2 1). lia.
  - eexists. split; [reflexivity|]. apply truncate_ge. replace (qc (2 # 1)) with (qc 2 * qc (1 # 2) + 1) by (apply Qc_is_canon; reflexivity).
    apply Qcplus_le_compat; [|apply Qcle_refl]. rewrite (Qcmult_comm (qc 2)), (Qcmult_comm (qc 2)). apply Qcmult_le_compat_r; auto. apply Qc_ltb_ge; reflexivity.
Qed.
Lemma sq_some : forall o j i, o_squeeze o <> SqFalse -> exists sq, sq_of o j i = Some sq.
Proof. intros o j i H. unfold sq_of. destruct (o_squeeze o); try congruence; eauto. Qed.

Lemma outer_contains : forall rs b, outer rs = Ok b -> forall r, In r rs -> boxed b r.
Proof.
  intros rs b E r I. unfold outer in E. assert (P : 0 <= qc (1 # 20)) by (apply Qc_ltb_ge; reflexivity).
  split; apply (bbox_contains _ _ _ P E); unfold points; apply in_or_app; [left|right]; now apply in_map.
Qed.

(** ** C67: every sublevel is drawn once, and nothing else *)

(** The hyperfine table of a gross level has one line for each of its
    sublevels, in order, and a last hidden row for the level itself, the box of
    which contains all lines. *)
Theorem C67_hyperfine : forall muB orc, (forall n, oracle_ok (orc n)) -> forall s, reachable Exact muB orc s ->
  forall a l j o b w, gross s a l j -> o_squeeze o <> SqFalse -> spaced o b -> widths o w ->
  exists bs rows r s', sublevels Exact a s = (Ok bs, s') /\ hf_table muB a o s = (Ok (rows ++ [r]), s') /\
    map r_level rows = bs /\ r_level r = a /\ (forall r', In r' rows -> r_show r' = true /\ boxed (r_box r) r') /\ r_show r = false /\
    Forall2 (fun f r' => is_F Exact s' (lname l) a j f (r_level r')) (F_range j (s_I s)) rows.
Proof.
  intros muB orc OK s R a l j o b w [V [K [A Ej]]] Hq Hb Hw. pose proof (reachable_WF Exact muB orc OK s R) as W.
  destruct (sq_some o j (s_I s) Hq) as [sq Eq].
  destruct (hf_table_ok muB s a l j o sq w b W V K A Ej Eq (ratios_known o w b Hb Hw)) as [rs [r [s' [E [W' [L [S1 [F [Er [Sh [_ Ou]]]]]]]]]]].
  exists (map r_level rs), rs, r, s'. split; auto. split; auto. split; auto. split; auto. split; [|split; [auto|]].
  - intros r' I. split; [|eapply outer_contains; eauto]. destruct (Forall2_in_r _ _ _ F r' I) as [f [_ [_ H]]]. apply H.
  - eapply Forall2_imp; [|exact F]. cbv beta. tauto.
Qed.

(** The Zeeman table of a gross level consists of a block for each hyperfine
    sublevel: a line for each of its Zeeman sublevels and a hidden row with a
    box around them. *)
Theorem C67_zeeman : forall muB orc, (forall n, oracle_ok (orc n)) -> forall s, reachable Exact muB orc s ->
  forall a l j o b w, gross s a l j -> roomy o (j + s_I s) -> spaced o b -> widths o w ->
  exists ts r s', z_table muB a o s = (Ok (List.concat ts ++ [r]), s') /\ lookl s s' /\
    r_level r = a /\ r_show r = false /\ (forall r', In r' (List.concat ts) -> boxed (r_box r) r') /\
    Forall2 (fun f t => exists rs h, t = rs ++ [h] /\ is_F Exact s' (lname l) a j f (r_level h) /\ r_show h = false /\
      (forall r', In r' rs -> r_show r' = true /\ boxed (r_box h) r') /\
      Forall2 (fun m r' => is_mF Exact s' (lname l ++ " F=" ++ half_label f) (r_level h) j f m (r_level r')) (mF_range f) rs) (F_range j (s_I s)) ts.
Proof.
  intros muB orc OK s R a l j o b w [V [K [A Ej]]] Hq Hb Hw. pose proof (reachable_WF Exact muB orc OK s R) as W.
  destruct (sq_roomy o j (s_I s) Hq) as [sq [Eq Hs]].
  destruct (z_table_ok muB s a l j o sq w b W V K A Ej Eq (ratios_known o w b Hb Hw)) as [ts [r [s' [E [W' [L [F [Er [Sh [_ Ou]]]]]]]]]]; [lia|lia|].
  exists ts, r, s'. split; auto. split; auto. split; auto. split; auto. split; [intros r' I; eapply outer_contains; eauto|].
  eapply Forall2_imp; [|exact F]. cbv beta. intros f t [rs [h [-> [Fh [Fm [Sh' [_ [Ou' _]]]]]]]]. exists rs, h. split; auto. split; auto. split; auto. split.
  - intros r' I. split; [|eapply outer_contains; eauto]. destruct (Forall2_in_r _ _ _ Fm r' I) as [m [_ [_ [lc [_ H]]]]]. apply H.
  - eapply Forall2_imp; [|exact Fm]. cbv beta. tauto.
Qed.

(** ** C64: the width of a Zeeman diagram *)

(** [r] is the drawn line of a level of doubled F [f] and mF [m]. *)
Definition line (s : st Exact) (rows : list row) (r : row) (f m : Z) : Prop :=
  In r rows /\ r_show r = true /\ exists lc, lv s (r_level r) = Some lc /\ l_F lc = Some f /\ l_mF lc = Some m.
Definition centre (o : opts) (j : Z) : Qc := match o_x0 o with Some x => x | None => qc (j # 2) end + o_x1 o.
Definition left_x (r : row) : Qc := fst (r_p0 r).
Definition right_x (r : row) : Qc := fst (r_p1 r).

Lemma qc_half : forall z, qc (z # 2) = qc (z # 1) / (1 + 1).
Proof.
  intros z. assert (H : (1 + 1 : Qc) = qc 2) by (apply Qc_is_canon; reflexivity). rewrite H. unfold Qcdiv.
  replace (/ qc 2) with (qc (1 # 2)) by (apply Qc_is_canon; reflexivity). rewrite <- qc_mul. apply qc_eq. unfold Qeq. cbn. lia.
Qed.
Lemma qc_two : qc 2 = 1 + 1.
Proof. apply Qc_is_canon; reflexivity. Qed.
Lemma qc_succ : forall z, qc (z + 1 # 1) = qc (z # 1) + 1.
Proof. intros z. replace 1 with (qc 1) by (apply Qc_is_canon; reflexivity). rewrite <- qc_add. apply qc_eq. unfold Qeq. cbn. lia. Qed.
Lemma qc_pred : forall z, qc (z - 1 # 1) = qc (z # 1) - 1.
Proof. intros z. replace (qc (z # 1)) with (qc (z - 1 + 1 # 1)) by (do 2 f_equal; lia). rewrite qc_succ. ring. Qed.
Lemma qc_plus2 : forall z, qc (z + 2 # 2) = qc (z # 2) + 1.
Proof. intros z. replace 1 with (qc 1) by (apply Qc_is_canon; reflexivity). rewrite <- qc_add. apply qc_eq. unfold Qeq. cbn. lia. Qed.
Lemma qc_neg_half : forall z, qc (- z # 2) = - qc (z # 2).
Proof. intros z. rewrite !qc_half. replace (qc (- z # 1)) with (- qc (z # 1)); [unfold Qcdiv; ring|]. unfold qc. rewrite Q2Qc_opp. apply Q2Qc_eq. reflexivity. Qed.
Lemma succ_nonzero : forall z, (0 <= z)%Z -> qc (z # 1) + 1 <> 0.
Proof. intros z H. rewrite <- qc_succ. apply qc_nonzero. lia. Qed.
Lemma pred_nonzero : forall z, (1 < z)%Z -> qc (z # 1) - 1 <> 0.
Proof. intros z H. rewrite <- qc_pred. apply qc_nonzero. lia. Qed.

Lemma z_coordinates : forall muB orc, (forall n, oracle_ok (orc n)) -> forall s, reachable Exact muB orc s ->
  forall a l j o sq b w, gross s a l j -> sq_of o j (s_I s) = Some sq -> sq <> 0%Z -> sq <> 1%Z -> spaced o b -> widths o w ->
  exists rows s', z_table muB a o s = (Ok rows, s') /\
    (forall f m, In f (F_range j (s_I s)) -> In m (mF_range f) -> exists r, line s' rows r f m) /\
    forall r f m, line s' rows r f m -> In f (F_range j (s_I s)) /\ In m (mF_range f) /\
      let sub := o_fill o * o_width o / qc (sq # 1) in let space := (1 - o_fill o) * o_width o / qc (sq - 1 # 1) in
      left_x r = centre o j + qc (m # 2) * (sub + space) - sub / qc 2 /\ right_x r = centre o j + qc (m # 2) * (sub + space) + sub / qc 2 /\
      snd (r_p0 r) = snd (r_p1 r).
Proof.
  intros muB orc OK s R a l j o sq b w [V [K [A Ej]]] Hq H0 H1 Hb Hw. pose proof (reachable_WF Exact muB orc OK s R) as W.
  destruct (z_lines muB s a l j o sq w b W V K A Ej Hq (ratios_known o w b Hb Hw) H0 H1) as [rows [s' [E [W' [L F]]]]].
  exists rows, s'. split; auto. split.
  - intros f m If Im. destruct (Forall2_in_l _ _ _ F (f, m)) as [r [I [c [lc [_ [Hm [Vc Hz]]]]]]]; [now apply zpairs_In|].
    apply filter_In in I as [I Sh]. exists r. split; auto. split; auto. destruct Hm as [lc' [Vc' [_ [_ [_ [Ef [Em _]]]]]]]. exists lc'. auto.
  - intros r f m [I [Sh [lc [Vc [Ef Em]]]]]. destruct (Forall2_in_r _ _ _ F r) as [[f' m'] [Ip [c [lc1 [_ [Hm [V1 Hz]]]]]]]; [now apply filter_In|].
    destruct Hm as [lc2 [V2 [_ [_ [_ [Ef2 [Em2 _]]]]]]]. cbn [fst snd] in *. assert (lc2 = lc) by congruence. assert (lc1 = lc) by congruence. subst lc1 lc2.
    assert (f' = f) by congruence. assert (m' = m) by congruence. subst f' m'. apply zpairs_In in Ip as [If Im]. split; auto. split; auto.
    destruct Hz as [_ [_ [E0 [E1 _]]]]. cbv zeta. unfold left_x, right_x. rewrite E0, E1. cbn [fst snd z_at z_ends geo_of g_x0 g_x1 g_W g_squeeze]. auto.
Qed.

Lemma sq_default : forall o j i, o_squeeze o = SqDefault \/ o_squeeze o = SqTrue -> sq_of o j i = Some (2 * Z.quot (j + i) 2 + 1)%Z.
Proof. intros o j i [E|E]; unfold sq_of; now rewrite E. Qed.
Lemma half_even : forall z, (0 <= z)%Z -> Z.even z = true -> (2 * Z.quot z 2 = z)%Z.
Proof. intros z H E. apply even_double in E as [k ->]. rewrite (Z.mul_comm 2 k), Z.quot_mul by lia. lia. Qed.
Lemma half_odd : forall z, (0 <= z)%Z -> Z.even z = false -> (2 * Z.quot z 2 + 1 = z)%Z.
Proof.
  intros z H E. assert (O : Z.odd z = true) by (rewrite <- Z.negb_even; now rewrite E). apply Z.odd_spec in O as [k ->].
  rewrite Z.quot_div_nonneg by lia. replace ((2 * k + 1) / 2)%Z with k; [lia|]. apply Z.div_unique with 1%Z; lia.
Qed.

(** For integer F = I + J > 0.  All levels of the manifold have lines of one
    width, between the sides of the diagram. *)
Theorem C64_partial : forall muB orc, (forall n, oracle_ok (orc n)) -> forall s, reachable Exact muB orc s ->
  forall a l j o b w, gross s a l j -> o_squeeze o = SqDefault \/ o_squeeze o = SqTrue -> spaced o b -> widths o w ->
  let F := (j + s_I s)%Z in Z.even F = true -> (0 < F)%Z ->
  exists rows s', z_table muB a o s = (Ok rows, s') /\
    (forall m, In m (mF_range F) -> exists r, line s' rows r F m) /\
    forall r f m, line s' rows r f m ->
      right_x r - left_x r = o_fill o * o_width o / qc (F + 1 # 1) /\
      (m = (- F)%Z -> left_x r = centre o j - o_width o / qc 2) /\ (m = F -> right_x r = centre o j + o_width o / qc 2) /\
      (forall r', line s' rows r' f (m + 2) -> left_x r' - right_x r = (1 - o_fill o) * o_width o / qc (F # 1)) /\
      (0 <= o_width o -> 0 <= o_fill o <= 1 -> centre o j - o_width o / qc 2 <= left_x r /\ right_x r <= centre o j + o_width o / qc 2).
Proof.
  intros muB orc OK s R a l j o b w G Hq Hb Hw F Ev Pos. pose proof (half_even F ltac:(lia) Ev) as HF.
  pose proof (sq_default o j (s_I s) Hq) as Eq. fold F in Eq. rewrite HF in Eq.
  destruct (z_coordinates muB orc OK s R a l j o _ b w G Eq) as [rows [s' [E [Ex H]]]]; auto; try lia. exists rows, s'. split; auto. split.
  { intros m Im. apply Ex; auto. pose proof (reachable_WF Exact muB orc OK s R) as W. destruct G as [V [_ [_ Ej]]].
    destruct (wf_J _ _ _ _ W V) as [j' [Ej' Hj]]. assert (j' = j) by congruence. subst j'. pose proof (wf_I _ _ W) as Hi.
    apply F_range_In; auto. unfold tri, F. rewrite !andb_true_iff, !Z.leb_le. repeat split; try lia.
    replace (j + s_I s + (j + s_I s))%Z with (2 * (j + s_I s))%Z by lia. apply Z.even_mul. }
  replace (F + 1 - 1)%Z with F in H by lia. rewrite qc_succ in H. rewrite qc_succ.
  assert (N0 : qc (F # 1) <> 0) by (apply qc_nonzero; lia). pose proof (succ_nonzero F ltac:(lia)) as N1.
  intros r f m Lr. destruct (H r f m Lr) as [If [Im [HL [HR _]]]]. rewrite qc_two in *. pose proof two_neq0 as N2.
  split; [|split; [|split; [|split]]].
  - rewrite HL, HR. field. auto.
  - intros ->. rewrite HL, qc_neg_half, qc_half. field. auto.
  - intros ->. rewrite HR, qc_half. field. auto.
  - intros r' Lr'. destruct (H r' f _ Lr') as [_ [_ [HL' _]]]. rewrite HL', HR, qc_plus2. field. auto.
  - intros HW [F0 F1].
    assert (Hm : (- F <= m <= F)%Z).
    { apply mF_range_In in Im as [Im _]. pose proof (reachable_WF Exact muB orc OK s R) as W. destruct G as [V [_ [_ Ej]]].
      destruct (wf_J _ _ _ _ W V) as [j' [Ej' Hj]]. assert (j' = j) by congruence. subst j'. pose proof (wf_I _ _ W) as Hi.
      apply F_range_In in If; auto. unfold tri in If. rewrite !andb_true_iff, !Z.leb_le in If. unfold F. lia. }
    set (sub := o_fill o * o_width o / (qc (F # 1) + 1)) in *. set (space := (1 - o_fill o) * o_width o / qc (F # 1)) in *.
    assert (P1 : 0 < qc (F # 1)) by (apply qc_pos; lia). assert (P2 : 0 < qc (F # 1) + 1) by (rewrite <- qc_succ; apply qc_pos; lia).
    assert (dn : forall x y : Qc, 0 <= x -> 0 < y -> 0 <= x / y).
    { intros x y Hx Hy. unfold Qcdiv. apply mult_nonneg; auto. apply Qcmult_lt_0_le_reg_r with y; auto. rewrite Qcmult_0_l, Qcmult_comm, Qcmult_inv_r.
      - apply Qclt_le_weak. reflexivity.
      - intros Z0. rewrite Z0 in Hy. now apply Qclt_not_eq in Hy. }
    assert (S1 : 0 <= sub) by (apply dn; auto; apply mult_nonneg; auto).
    assert (S2 : 0 <= space) by (apply dn; auto; apply mult_nonneg; auto; now apply sub_nonneg).
    assert (SS : 0 <= sub + space) by (replace 0 with (0 + 0 : Qc) by ring; now apply Qcplus_le_compat).
    assert (EW : o_width o / (1 + 1) = qc (F # 2) * (sub + space) + sub / (1 + 1)).
    { unfold sub, space. rewrite qc_half. field. auto. }
    assert (M1 : 0 <= (qc (F # 2) - qc (m # 2)) * (sub + space)).
    { apply mult_nonneg; auto. apply sub_nonneg. change qc with Q2Qc. fold (qch m) (qch F). apply qch_le. lia. }
    assert (M2 : 0 <= (qc (m # 2) + qc (F # 2)) * (sub + space)).
    { apply mult_nonneg; auto. replace (qc (m # 2) + qc (F # 2)) with (qc (m # 2) - qc (- F # 2)) by (rewrite qc_neg_half; ring).
      apply sub_nonneg. change qc with Q2Qc. fold (qch (- F)) (qch m). apply qch_le. lia. }
    rewrite HL, HR, EW. split.
    + replace (centre o j + qc (m # 2) * (sub + space) - sub / (1 + 1))
        with (centre o j - (qc (F # 2) * (sub + space) + sub / (1 + 1)) + (qc (m # 2) + qc (F # 2)) * (sub + space)) by ring.
      now apply le_add_nonneg.
    + replace (centre o j + qc (m # 2) * (sub + space) + sub / (1 + 1))
        with (centre o j + (qc (F # 2) * (sub + space) + sub / (1 + 1)) - (qc (F # 2) - qc (m # 2)) * (sub + space)) by ring.
      now apply le_sub_nonneg.
Qed.

(** For half-integer F = I + J >= 3/2 the outermost lines are always more than
    W apart. *)
Theorem C64_odd_refuted : forall muB orc, (forall n, oracle_ok (orc n)) -> forall s, reachable Exact muB orc s ->
  forall a l j o b w, gross s a l j -> o_squeeze o = SqDefault \/ o_squeeze o = SqTrue -> spaced o b -> widths o w ->
  let F := (j + s_I s)%Z in Z.even F = false -> (3 <= F)%Z ->
  exists rows s' r r', z_table muB a o s = (Ok rows, s') /\ line s' rows r F (- F) /\ line s' rows r' F F /\
    right_x r' - left_x r = o_width o + o_fill o * o_width o / qc (F # 1) + (1 - o_fill o) * o_width o / qc (F - 1 # 1) /\
    (0 < o_width o -> 0 <= o_fill o <= 1 -> o_width o < right_x r' - left_x r).
Proof.
  intros muB orc OK s R a l j o b w G Hq Hb Hw F Ev Pos. pose proof (half_odd F ltac:(lia) Ev) as HF.
  pose proof (sq_default o j (s_I s) Hq) as Eq. fold F in Eq. rewrite HF in Eq.
  destruct (z_coordinates muB orc OK s R a l j o _ b w G Eq) as [rows [s' [E [Ex H]]]]; auto; try lia.
  assert (IF : In F (F_range j (s_I s))).
  { pose proof (reachable_WF Exact muB orc OK s R) as W. destruct G as [V [_ [_ Ej]]].
    destruct (wf_J _ _ _ _ W V) as [j' [Ej' Hj]]. assert (j' = j) by congruence. subst j'. pose proof (wf_I _ _ W) as Hi.
    apply F_range_In; auto. unfold tri, F. rewrite !andb_true_iff, !Z.leb_le. repeat split; try lia.
    replace (j + s_I s + (j + s_I s))%Z with (2 * (j + s_I s))%Z by lia. apply Z.even_mul. }
  destruct (Ex F (- F)%Z IF) as [r Lr]. { apply mF_range_In. split; [lia|]. now rewrite Z.add_opp_diag_r. }
  destruct (Ex F F IF) as [r' Lr']. { apply mF_range_In. split; [lia|]. replace (F + F)%Z with (2 * F)%Z by lia. apply Z.even_mul. }
  exists rows, s', r, r'. split; auto. split; auto. split; auto.
  destruct (H r F _ Lr) as [_ [_ [HL _]]]. destruct (H r' F _ Lr') as [_ [_ [_ [HR _]]]].
  rewrite qc_pred in *. rewrite qc_two in *. pose proof two_neq0 as N2. assert (N0 : qc (F # 1) <> 0) by (apply qc_nonzero; lia).
  pose proof (pred_nonzero F ltac:(lia)) as N1.
  assert (D : right_x r' - left_x r = o_width o + o_fill o * o_width o / qc (F # 1) + (1 - o_fill o) * o_width o / (qc (F # 1) - 1)).
  { rewrite HL, HR, qc_neg_half, qc_half. field. auto. }
  split; auto. intros HW [F0 F1]. rewrite D.
  assert (P1 : 0 < qc (F # 1)) by (apply qc_pos; lia). assert (P2 : 0 < qc (F # 1) - 1) by (rewrite <- qc_pred; apply qc_pos; lia).
  assert (inv : forall y : Qc, 0 < y -> 0 <= / y).
  { intros y Hy. apply Qcmult_lt_0_le_reg_r with y; auto. rewrite Qcmult_0_l, Qcmult_comm, Qcmult_inv_r.
    - apply Qclt_le_weak. reflexivity.
    - intros Z0. rewrite Z0 in Hy. now apply Qclt_not_eq in Hy. }
  assert (Q : 0 < o_width o * / qc (F # 1)).
  { destruct (Qcle_lt_or_eq 0 (o_width o * / qc (F # 1))) as [Q|Q]; auto.
    - apply mult_nonneg; auto. now apply Qclt_le_weak.
    - exfalso. apply (f_equal (fun x => x * qc (F # 1))) in Q. rewrite <- Qcmult_assoc, (Qcmult_comm (/ _)), Qcmult_inv_r, Qcmult_1_r, Qcmult_0_l in Q by auto.
      rewrite <- Q in HW. now apply Qclt_not_eq in HW. }
  assert (D2 : 0 <= (1 - o_fill o) * o_width o * (/ (qc (F # 1) - 1) * / qc (F # 1))).
  { apply mult_nonneg; [apply mult_nonneg; [now apply sub_nonneg|now apply Qclt_le_weak]|]. apply mult_nonneg; auto. }
  replace (o_width o + o_fill o * o_width o / qc (F # 1) + (1 - o_fill o) * o_width o / (qc (F # 1) - 1))
    with (o_width o + o_width o * / qc (F # 1) + (1 - o_fill o) * o_width o * (/ (qc (F # 1) - 1) * / qc (F # 1))) by (field; auto).
  eapply Qclt_le_trans; [|apply le_add_nonneg; exact D2].
  apply Qclt_minus_iff. replace (o_width o + o_width o * / qc (F # 1) + - o_width o) with (o_width o * / qc (F # 1)) by ring. exact Q.
Qed.

(** For F = I + J = 0 or 1/2 nothing can be drawn. *)
Theorem C64_single_refuted : forall muB orc, (forall n, oracle_ok (orc n)) -> forall s, reachable Exact muB orc s ->
  forall a l j o b w, gross s a l j -> o_squeeze o = SqDefault \/ o_squeeze o = SqTrue -> spaced o b -> widths o w ->
  (j + s_I s < 2)%Z -> exists s', z_table muB a o s = (Raise ZeroDivisionError, s').
Proof.
  intros muB orc OK s R a l j o b w [V [K [A Ej]]] Hq Hb Hw Hs. pose proof (reachable_WF Exact muB orc OK s R) as W.
  destruct (wf_J _ _ _ _ W V) as [j' [Ej' Hj]]. assert (j' = j) by congruence. subst j'. pose proof (wf_I _ _ W) as Hi.
  apply (z_table_single muB s a l j o w b W V K A Ej); [|now apply ratios_known]. rewrite sq_default by auto. do 2 f_equal.
  assert (H : (j + s_I s = 0 \/ j + s_I s = 1)%Z) by lia. destruct H as [-> | ->]; reflexivity.
Qed.

(** With the default options a Zeeman line is 18/25 of a unit divided by the
    number of lines, and the gap 2/25 divided by the number of gaps. *)
Lemma default_ratios : spaced defaults 1 /\ widths defaults 1.
Proof. split; right; right; (split; [reflexivity|]); split; apply Qc_ltb_ge; reflexivity. Qed.
Corollary C64_default_partial : forall muB orc, (forall n, oracle_ok (orc n)) -> forall s, reachable Exact muB orc s ->
  forall a l j, gross s a l j -> let F := (j + s_I s)%Z in Z.even F = true -> (0 < F)%Z ->
  exists rows s', z_table muB a defaults s = (Ok rows, s') /\ forall r f m, line s' rows r f m ->
    right_x r - left_x r = qc (18 # 25) / qc (F + 1 # 1) /\
    (forall r', line s' rows r' f (m + 2) -> left_x r' - right_x r = qc (2 # 25) / qc (F # 1)).
Proof.
  intros muB orc OK s R a l j G F Ev Pos. destruct default_ratios as [Hb Hw].
  destruct (C64_partial muB orc OK s R a l j defaults 1 1 G (or_introl eq_refl) Hb Hw Ev Pos) as [rows [s' [E [_ H]]]].
  exists rows, s'. split; auto. intros r f m Hr. destruct (H r f m Hr) as [H1 [_ [_ [H2 _]]]]. split.
  - rewrite H1. unfold Qcdiv. f_equal. apply Qc_is_canon. reflexivity.
  - intros r' Hr'. rewrite (H2 r' Hr'). unfold Qcdiv. f_equal. apply Qc_is_canon. reflexivity.
Qed.
Print Assumptions C64_default_partial.

(** Lines of the levels 6s 2S1/2 (nuclear spins 1/2, 1 and 0). *)
Definition sides (rs : res (list row) * st Exact) : res (list (bool * Q * Q)) :=
  match fst rs with Ok rows => Ok (map (fun r => (r_show r, this (left_x r), this (right_x r))) rows) | Raise e => Raise e end.
Example C64_case : sides (z_table 1 0 defaults (two 1)) =
  Ok [(true, 19 # 50, 31 # 50); (false, 31 # 70, 39 # 70)%Q;
      (true, 1 # 10, 17 # 50); (true, 19 # 50, 31 # 50); (true, 33 # 50, 9 # 10); (false, 23 # 70, 47 # 70); (false, 1 # 10, 9 # 10)]%Q.
Proof. vm_compute. reflexivity. Qed.
Definition extent (rs : res (list (bool * Q * Q))) : option (Q * Q) :=
  match rs with Ok l => match filter (fun x => fst (fst x)) l with
    | x :: r => Some (fold_left (fun m y => Qmin m (snd (fst y))) r (snd (fst x)), fold_left (fun m y => Qmax m (snd y)) r (snd x)) | [] => None end
  | Raise _ => None end.
Example C64_odd_case : extent (sides (z_table 1 0 defaults (two 2))) = Some ((-1) # 25, 26 # 25)%Q.
Proof. vm_compute. reflexivity. Qed.
Example C64_single_case : fst (z_table 1 0 defaults (two 0)) = Raise ZeroDivisionError.
Proof. vm_compute. reflexivity. Qed.

(** ** C65: the width of a hyperfine level *)

Definition hline (s : st Exact) (rows : list row) (r : row) (f : Z) : Prop :=
  In r rows /\ r_show r = true /\ exists lc, lv s (r_level r) = Some lc /\ l_F lc = Some f.
Definition height (r : row) : Qc := snd (r_p0 r).
(** Where the gross level is drawn. *)
Definition base (o : opts) (E : Qc) : Qc := match o_y0 o with Some y => y | None => E / qc 1000000000000 end + o_y1 o.

Lemma hf_coordinates : forall muB orc, (forall n, oracle_ok (orc n)) -> forall s, reachable Exact muB orc s ->
  forall a l j o sq b w, gross s a l j -> sq_of o j (s_I s) = Some sq -> spaced o b -> widths o w ->
  exists rows s', hf_table muB a o s = (Ok rows, s') /\ lookl s s' /\
    (forall f, In f (F_range j (s_I s)) -> exists r, hline s' rows r f) /\
    forall r f, hline s' rows r f -> In f (F_range j (s_I s)) /\ is_F Exact s' (lname l) a j f (r_level r) /\
      r_p0 r = fst (hf_at o (s_I s) j l sq w b (span_of s l j) f) /\ r_p1 r = snd (hf_at o (s_I s) j l sq w b (span_of s l j) f).
Proof.
  intros muB orc OK s R a l j o sq b w [V [K [A Ej]]] Hq Hb Hw. pose proof (reachable_WF Exact muB orc OK s R) as W.
  destruct (hf_lines muB s a l j o sq w b W V K A Ej Hq (ratios_known o w b Hb Hw)) as [rows [s' [E [W' [L F]]]]].
  exists rows, s'. split; auto. split; auto. split.
  - intros f If. destruct (Forall2_in_l _ _ _ F f If) as [r [I [Hf _]]].
    apply filter_In in I as [I Sh]. exists r. split; auto. split; auto. destruct Hf as [lc' [Vc' [_ [_ [_ [Ef _]]]]]]. exists lc'. auto.
  - intros r f [I [Sh [lc [Vc Ef]]]]. destruct (Forall2_in_r _ _ _ F r) as [f' [Ip [Hf Hz]]]; [now apply filter_In|].
    pose proof Hf as [lc2 [V2 [_ [_ [_ [Ef2 _]]]]]]. assert (lc2 = lc) by congruence. subst lc2.
    assert (f' = f) by congruence. subst f'. split; auto. split; auto.
    destruct Hz as [_ [_ [_ [E0 [E1 _]]]]]. auto.
Qed.

(** With degeneracy widths and any squeeze but False, the widths are as 2F+1. *)
Theorem C65_partial : forall muB orc, (forall n, oracle_ok (orc n)) -> forall s, reachable Exact muB orc s ->
  forall a l j o b, gross s a l j -> o_squeeze o <> SqFalse -> spaced o b -> widths o 1 ->
  exists rows s', hf_table muB a o s = (Ok rows, s') /\ (forall f, In f (F_range j (s_I s)) -> exists r, hline s' rows r f) /\
    forall r f r' f', hline s' rows r f -> hline s' rows r' f' ->
      (right_x r - left_x r) * qc (f' + 1 # 1) = (right_x r' - left_x r') * qc (f + 1 # 1).
Proof.
  intros muB orc OK s R a l j o b G Hq Hb Hw. destruct (sq_some o j (s_I s) Hq) as [sq Eq].
  destruct (hf_coordinates muB orc OK s R a l j o sq b 1 G Eq Hb Hw) as [rows [s' [E [L [Ex H]]]]]. exists rows, s'. split; auto. split; auto.
  intros r f r' f' H1 H2. destruct (H r f H1) as [_ [_ [P0 P1]]]. destruct (H r' f' H2) as [_ [_ [P0' P1']]].
  unfold left_x, right_x. rewrite P0, P1, P0', P1'. cbn [fst snd hf_at hf_ends geo_of g_W g_offset g_a g_squeeze].
  rewrite qc_two. pose proof two_neq0 as N2. assert (N : qc (2 * sq + 1 # 1) <> 0) by (apply qc_nonzero; lia). field. auto.
Qed.

(** ... but the level F = squeeze never has width W: its width is
    W (2F+1) / (4F+3). *)
Theorem C65_refuted : forall muB orc, (forall n, oracle_ok (orc n)) -> forall s, reachable Exact muB orc s ->
  forall a l j o b f, gross s a l j -> In f (F_range j (s_I s)) -> o_squeeze o = SqNum (qc (f # 2)) -> spaced o b -> widths o 1 ->
  exists rows s' r, hf_table muB a o s = (Ok rows, s') /\ hline s' rows r f /\
    right_x r - left_x r = o_width o * qc (f + 1 # 1) / qc (2 * f + 3 # 1) /\ (0 < o_width o -> right_x r - left_x r < o_width o).
Proof.
  intros muB orc OK s R a l j o b f G If Hq Hb Hw.
  assert (Hf : (0 <= f)%Z).
  { pose proof (reachable_WF Exact muB orc OK s R) as W. destruct G as [V [_ [_ Ej]]].
    destruct (wf_J _ _ _ _ W V) as [j' [Ej' Hj]]. assert (j' = j) by congruence. subst j'. pose proof (wf_I _ _ W) as Hi.
    apply F_range_In in If; auto. unfold tri in If. rewrite !andb_true_iff, !Z.leb_le in If. lia. }
  assert (Eq : sq_of o j (s_I s) = Some (f + 1)%Z).
  { unfold sq_of. rewrite Hq. f_equal. replace (qc 2 * qc (f # 2) + 1) with (qc (f + 1 # 1)); [apply truncate_int|].
    rewrite qc_succ, qc_half, qc_two. field. apply two_neq0. }
  destruct (hf_coordinates muB orc OK s R a l j o _ b 1 G Eq Hb Hw) as [rows [s' [E [L [Ex H]]]]]. destruct (Ex f If) as [r Hr].
  exists rows, s', r. split; auto. split; auto. destruct (H r f Hr) as [_ [_ [P0 P1]]].
  assert (D : right_x r - left_x r = o_width o * qc (f + 1 # 1) / qc (2 * f + 3 # 1)).
  { unfold left_x, right_x. rewrite P0, P1. cbn [fst snd hf_at hf_ends geo_of g_W g_offset g_a g_squeeze].
    replace (2 * (f + 1) + 1)%Z with (2 * f + 3)%Z by lia.
    rewrite qc_two. pose proof two_neq0 as N2. assert (N : qc (2 * f + 3 # 1) <> 0) by (apply qc_nonzero; lia). field. auto. }
  split; auto. intros HW. rewrite D. assert (N : qc (2 * f + 3 # 1) <> 0) by (apply qc_nonzero; lia). assert (P : 0 < qc (2 * f + 3 # 1)) by (apply qc_pos; lia).
  apply Qcnot_le_lt. intros Hle.
  apply (Qcmult_le_compat_r _ _ (qc (2 * f + 3 # 1))) in Hle; [|now apply Qclt_le_weak].
  unfold Qcdiv in Hle. rewrite <- Qcmult_assoc, (Qcmult_comm (/ _)), Qcmult_inv_r, Qcmult_1_r in Hle by auto.
  rewrite (Qcmult_comm _ (qc (2 * f + 3 # 1))), (Qcmult_comm _ (qc (f + 1 # 1))) in Hle. apply Qcmult_lt_0_le_reg_r in Hle; auto.
  unfold Qcle in Hle. rewrite (qc_this (2 * f + 3)), (qc_this (f + 1)) in Hle. unfold Qle in Hle. cbn [Qnum Qden] in Hle. lia.
Qed.

Example C65_case : let o := mkOpts (qc (4 # 5)) None 0 None 0 0 (SqNum (qc 1)) (qc 10000) (qc 5) (Value 1) (Value 1) (qc (1 # 20)) (qc (9 # 10)) None in
  sides (hf_table 1 0 o (two 1)) = Ok [(true, 31 # 70, 39 # 70); (true, 23 # 70, 47 # 70); (false, 1 # 10, 9 # 10)]%Q.
Proof. vm_compute. reflexivity. Qed.

(** ** C68: realistic spacing is to scale *)

Lemma energy_F : forall muB s n a l j f c, lv s a = Some l -> l_kind l = LE -> is_F Exact s n a j f c ->
  energy Exact muB s c = Some (l_E l + hf_shift Exact (s_I s) j f (l_hfA l) (l_hfB l) (l_hfC l)).
Proof.
  intros muB s n a l j f c V K [lc [Vc [Kc [Pc [Jc [Fc _]]]]]]. unfold energy, energyHF, energyE. rewrite Vc, Kc, Pc, Jc, Fc, V, K. reflexivity.
Qed.
Lemma energy_Z : forall muB s n n' a l j f c m d ld, lv s a = Some l -> l_kind l = LE -> is_F Exact s n a j f c -> is_mF Exact s n' c j f m d -> lv s d = Some ld ->
  energy Exact muB s d = Some (l_E l + hf_shift Exact (s_I s) j f (l_hfA l) (l_hfB l) (l_hfC l) + z_shift Exact muB (l_gF ld) m (s_B s) (l_qz ld)).
Proof.
  intros muB s n n' a l j f c m d ld V K [lc [Vc [Kc [Pc [Jc [Fc _]]]]]] [ld' [Vd [Kd [Pd [Jd [Fd [Md _]]]]]]] Vd'. assert (ld' = ld) by congruence. subst ld'.
  unfold energy, energyZ, energyHF, energyE. rewrite Vd, Kd, Pd, Md, Vc, Pc, Jc, Fc, V, K. reflexivity.
Qed.

(** The distance of a hyperfine line from the gross level is hf_scale times
    the difference of the energies, in THz. *)
Theorem C68_hyperfine : forall muB orc, (forall n, oracle_ok (orc n)) -> forall s, reachable Exact muB orc s ->
  forall a l j o w, gross s a l j -> o_squeeze o <> SqFalse -> spaced o 1 -> widths o w ->
  exists rows s', hf_table muB a o s = (Ok rows, s') /\ (forall f, In f (F_range j (s_I s)) -> exists r, hline s' rows r f) /\
    forall r f, hline s' rows r f -> exists e, energy Exact muB s' (r_level r) = Some e /\
      height r = base o (l_E l) + o_hf o * ((e - l_E l) / qc 1000000000000) /\
      (o_y0 o = None -> o_y1 o = 0 -> o_hf o = 1 -> height r = e / qc 1000000000000).
Proof.
  intros muB orc OK s R a l j o w G Hq Hb Hw. destruct (sq_some o j (s_I s) Hq) as [sq Eq].
  destruct (hf_coordinates muB orc OK s R a l j o sq 1 w G Eq Hb Hw) as [rows [s' [E [L [Ex H]]]]]. exists rows, s'. split; auto. split; auto.
  intros r f Hr. destruct (H r f Hr) as [If [Fr [P0 P1]]]. destruct G as [V [K [A Ej]]].
  destruct (same_level s s' a l L V) as [l' [V' [Ei [_ [K' [A' [J' [EE [EA [EB [EC _]]]]]]]]]]].
  assert (Kl : l_kind l' = LE) by congruence. pose proof (energy_F muB s' _ a l' j f _ V' Kl Fr) as En. eexists. split; [exact En|].
  assert (D : height r = base o (l_E l) + o_hf o * ((l_E l' + hf_shift Exact (s_I s') j f (l_hfA l') (l_hfB l') (l_hfC l') - l_E l) / qc 1000000000000)).
  { unfold height. rewrite P0. cbn [fst snd hf_at hf_ends geo_of g_y0 g_y1 g_hf g_b]. rewrite EE, EA, EB, EC, Ei. unfold base, Qcdiv. ring. }
  split; [exact D|]. intros Y0 Y1 Hh. rewrite D. unfold base. rewrite Y0, Y1, Hh, EE. unfold Qcdiv. ring.
Qed.

(** With the default options hyperfine structure is drawn 10000 times too large
    and Zeeman shifts another 5 times. *)
Corollary C68_default_hyperfine : forall muB orc, (forall n, oracle_ok (orc n)) -> forall s, reachable Exact muB orc s ->
  forall a l j, gross s a l j -> exists rows s', hf_table muB a defaults s = (Ok rows, s') /\
    forall r f, hline s' rows r f -> exists e, energy Exact muB s' (r_level r) = Some e /\
    height r = (l_E l + qc 10000 * (e - l_E l)) / qc 1000000000000.
Proof.
  intros muB orc OK s R a l j G. destruct default_ratios as [Hb Hw].
  destruct (C68_hyperfine muB orc OK s R a l j defaults 1 G ltac:(discriminate) Hb Hw) as [rows [s' [E [_ H]]]].
  exists rows, s'. split; auto. intros r f Hr. destruct (H r f Hr) as [e [En [Hh _]]]. exists e. split; auto.
  rewrite Hh. unfold base. cbn [defaults o_y0 o_y1 o_hf]. unfold Qcdiv. ring.
Qed.
(** Zeeman lines are shifted from the hyperfine level by z_scale times as much. *)
Theorem C68_zeeman : forall muB orc, (forall n, oracle_ok (orc n)) -> forall s, reachable Exact muB orc s ->
  forall a l j o w, gross s a l j -> roomy o (j + s_I s) -> spaced o 1 -> widths o w ->
  exists rows s', z_table muB a o s = (Ok rows, s') /\ (forall f m, In f (F_range j (s_I s)) -> In m (mF_range f) -> exists r, line s' rows r f m) /\
    forall r f m, line s' rows r f m -> exists lc c e e', lv s' (r_level r) = Some lc /\ l_parent lc = Some c /\
      energy Exact muB s' c = Some e /\ energy Exact muB s' (r_level r) = Some e' /\
      height r = base o (l_E l) + o_hf o * ((e - l_E l + o_z o * (e' - e)) / qc 1000000000000) /\
      (o_y0 o = None -> o_y1 o = 0 -> o_hf o = 1 -> o_z o = 1 -> height r = e' / qc 1000000000000).
Proof.
  intros muB orc OK s R a l j o w G Hq Hb Hw. destruct (sq_roomy o j (s_I s) Hq) as [sq [Eq Hs]]. pose proof (reachable_WF Exact muB orc OK s R) as W.
  destruct G as [V [K [A Ej]]].
  destruct (z_lines muB s a l j o sq w 1 W V K A Ej Eq (ratios_known o w 1 Hb Hw)) as [rows [s' [E [W' [L F]]]]]; [lia|lia|].
  destruct (same_level s s' a l L V) as [l' [V' [Ei [Eb [K' [A' [J' [EE [EA [EB [EC _]]]]]]]]]]]. assert (Kl : l_kind l' = LE) by congruence.
  exists rows, s'. split; auto. split.
  - intros f m If Im. destruct (Forall2_in_l _ _ _ F (f, m)) as [r [I [c [lc [_ [Hm [Vc Hz]]]]]]]; [now apply zpairs_In|].
    apply filter_In in I as [I Sh]. exists r. split; auto. split; auto. destruct Hm as [lc' [Vc' [_ [_ [_ [Ef [Em _]]]]]]]. exists lc'. auto.
  - intros r f m [I [Sh [lc [Vc [Ef Em]]]]]. destruct (Forall2_in_r _ _ _ F r) as [[f' m'] [Ip [c [lc1 [Fc [Hm [V1 Hz]]]]]]]; [now apply filter_In|].
    pose proof Hm as [lc2 [V2 [_ [Pc [_ [Ef2 [Em2 _]]]]]]]. cbn [fst snd] in *. assert (lc2 = lc) by congruence. assert (lc1 = lc) by congruence. subst lc1 lc2.
    assert (f' = f) by congruence. assert (m' = m) by congruence. subst f' m'.
    exists lc, c. eexists. eexists. split; auto. split; auto. split; [exact (energy_F muB s' _ a l' j f c V' Kl Fc)|].
    split; [exact (energy_Z muB s' _ _ a l' j f c m _ lc V' Kl Fc Hm Vc)|].
    destruct Hz as [_ [_ [E0 [E1 _]]]].
    assert (Hh : height r = base o (l_E l) + o_hf o * ((l_E l' + hf_shift Exact (s_I s') j f (l_hfA l') (l_hfB l') (l_hfC l') - l_E l +
      o_z o * (l_E l' + hf_shift Exact (s_I s') j f (l_hfA l') (l_hfB l') (l_hfC l') + z_shift Exact muB (l_gF lc) m (s_B s') (l_qz lc) -
        (l_E l' + hf_shift Exact (s_I s') j f (l_hfA l') (l_hfB l') (l_hfC l')))) / qc 1000000000000)).
    { unfold height. rewrite E0. cbn [fst snd z_at z_ends geo_of g_y0 g_y1 g_hf g_b g_z]. rewrite EE, EA, EB, EC, Ei, Eb. unfold base, Qcdiv. ring. }
    split; [exact Hh|]. intros Y0 Y1 H1 H2. rewrite Hh. unfold base. rewrite Y0, Y1, H1, H2, EE. unfold Qcdiv. ring.
Qed.
Corollary C68_default_zeeman : forall muB orc, (forall n, oracle_ok (orc n)) -> forall s, reachable Exact muB orc s ->
  forall a l j, gross s a l j -> (2 <= j + s_I s)%Z -> exists rows s', z_table muB a defaults s = (Ok rows, s') /\
    forall r f m, line s' rows r f m -> exists lc c e e', lv s' (r_level r) = Some lc /\ l_parent lc = Some c /\
    energy Exact muB s' c = Some e /\ energy Exact muB s' (r_level r) = Some e' /\
    height r = (l_E l + qc 10000 * (e - l_E l) + qc 50000 * (e' - e)) / qc 1000000000000.
Proof.
  intros muB orc OK s R a l j G H2. destruct default_ratios as [Hb Hw].
  destruct (C68_zeeman muB orc OK s R a l j defaults 1 G H2 Hb Hw) as [rows [s' [E [_ H]]]].
  exists rows, s'. split; auto. intros r f m Hr. destruct (H r f m Hr) as [lc [c [e [e' [V [P [En [En' [Hh _]]]]]]]]]. exists lc, c, e, e'.
  do 4 (split; [assumption|]). rewrite Hh. unfold base. cbn [defaults o_y0 o_y1 o_hf o_z].
  replace (qc 50000) with (qc 10000 * qc 5) by (apply Qc_is_canon; reflexivity). unfold Qcdiv. ring.
Qed.
Print Assumptions C68_default_zeeman.

(** ** C69: schematic spacing *)

Lemma some_eq {A} : forall x y : A, Some x = Some y -> y = x.
Proof. congruence. Qed.
Definition count (j i : Z) : Qc := qc (Z.min j i + 1 # 1).
Lemma count_F : forall j i, (0 <= j)%Z -> (0 <= i)%Z -> qc (Z.of_nat (List.length (F_range j i)) # 1) = count j i.
Proof. intros j i Hj Hi. unfold count. do 2 f_equal. rewrite F_range_steps, steps_length by auto. lia. Qed.

(** Successive F are drawn at equal distances, upwards. *)
Theorem C69_partial : forall muB orc, (forall n, oracle_ok (orc n)) -> forall s, reachable Exact muB orc s ->
  forall a l j o w, gross s a l j -> o_squeeze o <> SqFalse -> spaced o 0 -> widths o w ->
  exists rows s' d, hf_table muB a o s = (Ok rows, s') /\ (forall f, In f (F_range j (s_I s)) -> exists r, hline s' rows r f) /\
    (forall r f r', hline s' rows r f -> hline s' rows r' (f + 2) -> height r' - height r = o_hf o * d) /\
    (forall b e b' e', is_F Exact s' (lname l) a j (Z.abs (j - s_I s)) b -> is_F Exact s' (lname l) a j (j + s_I s) b' ->
      energy Exact muB s' b = Some e -> energy Exact muB s' b' = Some e' -> d = Qc_abs (e' - e) / count j (s_I s) / qc 1000000000000).
Proof.
  intros muB orc OK s R a l j o w G Hq Hb Hw. destruct (sq_some o j (s_I s) Hq) as [sq Eq]. pose proof (reachable_WF Exact muB orc OK s R) as W.
  destruct (hf_coordinates muB orc OK s R a l j o sq 0 w G Eq Hb Hw) as [rows [s' [E [L [Ex H]]]]]. destruct G as [V [K [A Ej]]].
  destruct (wf_J _ _ _ _ W V) as [j' [Ej' Hj]]. assert (j' = j) by congruence. subst j'. pose proof (wf_I _ _ W) as Hi.
  assert (NC : count j (s_I s) <> 0) by (unfold count; apply qc_nonzero; lia).
  exists rows, s', (span_of s l j / count j (s_I s) / qc 1000000000000). split; auto. split; auto. split.
  - intros r f r' H1 H2. destruct (H r f H1) as [_ [_ [P0 _]]]. destruct (H r' _ H2) as [_ [_ [P0' _]]].
    unfold height. rewrite P0, P0'. cbn [fst snd hf_at hf_ends geo_of g_y0 g_y1 g_hf g_b]. rewrite (count_F j (s_I s) Hj Hi).
    replace (f + 2 - Z.abs (j - s_I s))%Z with (f - Z.abs (j - s_I s) + 2)%Z by lia. rewrite qc_plus2. unfold Qcdiv. ring.
  - intros b e b' e' F1 F2 E1 E2. destruct (same_level s s' a l L V) as [l' [V' [Ei [_ [K' [A' [J' [EE [EA [EB [EC _]]]]]]]]]]].
    assert (Kl : l_kind l' = LE) by congruence. rewrite (energy_F muB s' _ a l' j _ b V' Kl F1) in E1. rewrite (energy_F muB s' _ a l' j _ b' V' Kl F2) in E2.
    apply some_eq in E1, E2. subst e e'. do 2 f_equal. unfold span_of. rewrite EE, EA, EB, EC, Ei.
    match goal with |- Qc_abs ?x = Qc_abs ?y => assert (X : x = y) by (change (x = y :> Qc); ring); exact (f_equal Qc_abs X) end.
Qed.

(** ... but the lines are not centred at the gross level: the middle between
    the outermost ones is below it by half a step. *)
Theorem C69_refuted : forall muB orc, (forall n, oracle_ok (orc n)) -> forall s, reachable Exact muB orc s ->
  forall a l j o w, gross s a l j -> o_squeeze o <> SqFalse -> spaced o 0 -> widths o w ->
  exists rows s' r r', hf_table muB a o s = (Ok rows, s') /\ hline s' rows r (Z.abs (j - s_I s)) /\ hline s' rows r' (j + s_I s) /\
    forall b e b' e', is_F Exact s' (lname l) a j (Z.abs (j - s_I s)) b -> is_F Exact s' (lname l) a j (j + s_I s) b' ->
      energy Exact muB s' b = Some e -> energy Exact muB s' b' = Some e' ->
      (height r + height r') / qc 2 = base o (l_E l) - o_hf o * (Qc_abs (e' - e) / count j (s_I s) / qc 1000000000000) / qc 2.
Proof.
  intros muB orc OK s R a l j o w G Hq Hb Hw. destruct (sq_some o j (s_I s) Hq) as [sq Eq]. pose proof (reachable_WF Exact muB orc OK s R) as W.
  destruct (hf_coordinates muB orc OK s R a l j o sq 0 w G Eq Hb Hw) as [rows [s' [E [L [Ex H]]]]]. destruct G as [V [K [A Ej]]].
  destruct (wf_J _ _ _ _ W V) as [j' [Ej' Hj]]. assert (j' = j) by congruence. subst j'. pose proof (wf_I _ _ W) as Hi.
  destruct (Ex (Z.abs (j - s_I s))) as [r Hr]. { destruct (F_range_head j (s_I s) Hj Hi) as [t ->]. now left. }
  destruct (Ex (j + s_I s)%Z) as [r' Hr']. { apply F_range_In; auto. unfold tri. rewrite !andb_true_iff, !Z.leb_le. repeat split; try lia.
    replace (j + s_I s + (j + s_I s))%Z with (2 * (j + s_I s))%Z by lia. apply Z.even_mul. }
  exists rows, s', r, r'. split; auto. split; auto. split; auto.
  intros b e b' e' F1 F2 E1 E2. destruct (same_level s s' a l L V) as [l' [V' [Ei [_ [K' [A' [J' [EE [EA [EB [EC _]]]]]]]]]]].
  assert (Kl : l_kind l' = LE) by congruence. rewrite (energy_F muB s' _ a l' j _ b V' Kl F1) in E1. rewrite (energy_F muB s' _ a l' j _ b' V' Kl F2) in E2.
  apply some_eq in E1, E2. subst e e'.
  match goal with |- context [Qc_abs ?x] => replace (Qc_abs x) with (span_of s l j) by (unfold span_of; rewrite EE, EA, EB, EC, Ei; f_equal; ring) end.
  destruct (H r _ Hr) as [_ [_ [P0 _]]]. destruct (H r' _ Hr') as [_ [_ [P0' _]]].
  unfold height. rewrite P0, P0'. cbn [fst snd hf_at hf_ends geo_of g_y0 g_y1 g_hf g_b]. rewrite (count_F j (s_I s) Hj Hi).
  replace (Z.abs (j - s_I s) - Z.abs (j - s_I s))%Z with 0%Z by lia. replace (j + s_I s - Z.abs (j - s_I s))%Z with (2 * Z.min j (s_I s))%Z by lia.
  assert (N1 : qc (2 * Z.min j (s_I s) # 2) = count j (s_I s) - 1).
  { unfold count. rewrite qc_succ. replace (qc (2 * Z.min j (s_I s) # 2)) with (qc (Z.min j (s_I s) # 1)); [ring|]. apply qc_eq. unfold Qeq. cbn [Qnum Qden]. lia. }
  rewrite N1. replace (qc (0 # 2)) with 0 by (apply Qc_is_canon; reflexivity).
  assert (NC : count j (s_I s) <> 0) by (unfold count; apply qc_nonzero; lia). rewrite qc_two. pose proof two_neq0 as N2.
  assert (NT : qc 1000000000000 <> 0) by (apply (qc_nonzero 1000000000000); lia).
  unfold base. generalize dependent (span_of s l j). intros sp _ _ _. field. auto.
Qed.

(** A level with A = 8 THz and nuclear spin 1/2: F = 0 and 1 at -6 and 2 THz. *)
Definition nlA (t : term) (E A : Z) : op Exact := ONewLevel Exact [t] (Q2Qc (E # 1)) (Q2Qc (A # 1)) 0 0 0 None false.
Definition split_two : st Exact := runx (from 1) [nlA tS 0 8000000000000; add 0; nl tP 10; add 1].
Lemma split_reachable : reachable Exact 1 plain split_two.
Proof. apply from_reachable. lia. Qed.
Definition heights (rs : res (list row) * st Exact) : res (list (nat * bool * Q)) :=
  match fst rs with Ok rows => Ok (map (fun r => (r_level r, r_show r, this (height r))) rows) | Raise e => Raise e end.
Definition opts_with (hf z : Qc) (sp : ratio) : opts :=
  mkOpts (qc (4 # 5)) None 0 None 0 0 SqDefault hf z sp (Value 1) (qc (1 # 20)) (qc (9 # 10)) None.
Example C67_case : heights (hf_table 1 0 (opts_with 1 1 (Value 1)) split_two) = Ok [(2%nat, true, (-6)%Q); (3%nat, true, 2%Q); (0%nat, false, 0%Q)].
Proof. vm_compute. reflexivity. Qed.
Example C68_case : heights (z_table 1 0 (opts_with 1 1 (Named "realistic")) split_two) =
  Ok [(4%nat, true, (-6)%Q); (2%nat, false, (-6)%Q); (5%nat, true, 2%Q); (6%nat, true, 2%Q); (7%nat, true, 2%Q); (3%nat, false, 2%Q); (0%nat, false, 0%Q)].
Proof. vm_compute. reflexivity. Qed.
Example C69_case : heights (hf_table 1 0 (opts_with 1 1 (Named "schematic")) split_two) = Ok [(2%nat, true, (-4)%Q); (3%nat, true, 0%Q); (0%nat, false, 0%Q)].
Proof. vm_compute. reflexivity. Qed.

(** ** C70: arrows end at the most specific structure drawn *)

Definition valid (b : box) : Prop := b_x0 b <= b_x1 b /\ b_y0 b <= b_y1 b.
Lemma bbox_valid : forall pts pad b, 0 <= pad -> bbox pts pad = Ok b -> valid b.
Proof.
  intros pts pad b Hp E. destruct (bbox_sides _ _ _ E) as [xl [yl [xh [yh [_ [[p [I _]] _]]]]]].
  destruct (bbox_contains _ _ _ Hp E p I) as [H1 [H2 [H3 H4]]]. split; eapply Qcle_trans; eauto.
Qed.

Definition gives {A} (m : M Exact A) (Q : A -> Prop) : Prop := forall s v s', m s = (Ok v, s') -> Q v.
Lemma gives_bind {A B} : forall (m : M Exact A) (f : A -> M Exact B) Q, (forall x, gives (f x) Q) -> gives (bind m f) Q.
Proof.
  intros m f Q H s v s' E. unfold bind in E. destruct (m s) as [[x|e] s1] eqn:Em; [|discriminate]. eapply H; eauto.
Qed.
Lemma gives_bind' {A B} : forall (m : M Exact A) (f : A -> M Exact B) P Q, gives m P -> (forall x, P x -> gives (f x) Q) -> gives (bind m f) Q.
Proof.
  intros m f P Q Hm H s v s' E. unfold bind in E. destruct (m s) as [[x|e] s1] eqn:Em; [|discriminate]. eapply H; eauto.
Qed.
Lemma gives_ret {A} : forall (x : A) (Q : A -> Prop), Q x -> gives (ret x) Q.
Proof. intros x Q H s v s' E. injection E as <- _. auto. Qed.
Lemma gives_raise {A} : forall e (Q : A -> Prop), gives (raise e) Q.
Proof. intros e Q s v s' E. discriminate. Qed.
Lemma gives_mapM {A B} : forall (f : A -> M Exact B) (Q : B -> Prop) l, (forall x, In x l -> gives (f x) Q) -> gives (mapM f l) (Forall Q).
Proof.
  intros f Q l. induction l as [|x l IH]; intros H.
  - apply gives_ret. constructor.
  - cbn [mapM]. apply (gives_bind' _ _ Q); [apply H; now left|]. intros y Hy. apply (gives_bind' _ _ (Forall Q)); [apply IH; intros; apply H; now right|].
    intros ys Hys. apply gives_ret. now constructor.
Qed.
Definition good (r : row) : Prop := valid (r_box r).

Lemma with_box_good : forall a over show p0 p1 o, 0 <= o_pad o -> (forall b, over = Some b -> valid b) -> gives (with_box a over show p0 p1 o) good.
Proof.
  intros a over show p0 p1 o Hp Ho. unfold with_box. destruct over as [b|].
  - apply (gives_bind' _ _ valid); [apply gives_ret; auto|]. intros x Hx. apply gives_ret. exact Hx.
  - apply (gives_bind' _ _ valid).
    + intros s v s' E. apply (f_equal fst) in E. exact (bbox_valid _ _ _ Hp E).
    + intros x Hx. apply gives_ret. exact Hx.
Qed.
Lemma outer_valid : forall rs, gives (of_res (outer rs)) valid.
Proof. intros rs s v s' E. apply (f_equal fst) in E. refine (bbox_valid _ _ _ _ E). apply Qc_ltb_ge; reflexivity. Qed.
Lemma level_row_good : forall muB a over show o, 0 <= o_pad o -> (forall b, over = Some b -> valid b) -> gives (level_row muB a over show o) good.
Proof. intros. unfold level_row. apply gives_bind. intros g. now apply with_box_good. Qed.
Lemma hflevel_row_good : forall muB a over show o, 0 <= o_pad o -> (forall b, over = Some b -> valid b) -> gives (hflevel_row muB a over show o) good.
Proof.
  intros. unfold hflevel_row. apply gives_bind. intros g. apply gives_bind. intros m. apply gives_bind. intros sp. apply gives_bind. intros f.
  destruct (2 * g_squeeze g + 1 =? 0)%Z; [apply gives_raise|]. apply gives_bind. intros u. now apply with_box_good.
Qed.
Lemma zlevel_row_good : forall muB a show o, 0 <= o_pad o -> gives (zlevel_row muB a show o) good.
Proof.
  intros. unfold zlevel_row. apply gives_bind. intros g. destruct (g_squeeze g =? 0)%Z; [apply gives_raise|]. destruct (g_squeeze g - 1 =? 0)%Z; [apply gives_raise|].
  do 8 (apply gives_bind; intros ?). apply with_box_good; auto. discriminate.
Qed.
Lemma table_good : forall muB st a o, 0 <= o_pad o -> gives (table muB st a o) (Forall good).
Proof.
  intros muB st a o Hp.
  assert (Hz : forall c o', 0 <= o_pad o' -> gives (z_table_hf muB c o') (Forall good)).
  { intros c o' Hp'. unfold z_table_hf. apply gives_bind. intros cs. apply (gives_bind' _ _ (Forall good)).
    - apply gives_mapM. intros x _. apply zlevel_row_good. exact Hp'.
    - intros rs Hr. apply (gives_bind' _ _ valid); [apply outer_valid|]. intros x Hx. apply (gives_bind' _ _ good).
      + apply hflevel_row_good; auto. congruence.
      + intros r Hr'. apply gives_ret. apply Forall_app. auto. }
  destruct st; cbn [table].
  - unfold gross_table. apply gives_bind. intros m. apply (gives_bind' _ _ good); [apply level_row_good; auto; discriminate|].
    intros r Hr. apply gives_ret. auto.
  - unfold hf_table. apply gives_bind. intros l.
    assert (Ho : gives (bind (hflevel_row muB a None true o) (fun r => ret [r])) (Forall good)).
    { apply (gives_bind' _ _ good); [apply hflevel_row_good; auto; discriminate|]. intros r Hr. apply gives_ret. auto. }
    destruct (l_kind l); auto. apply gives_bind. intros bs. apply (gives_bind' _ _ (Forall good)).
    + apply gives_mapM. intros x _. apply hflevel_row_good; [exact Hp|discriminate].
    + intros rs Hr. apply (gives_bind' _ _ valid); [apply outer_valid|]. intros x Hx. apply (gives_bind' _ _ good).
      * apply level_row_good; auto. congruence.
      * intros r Hr'. apply gives_ret. apply Forall_app. auto.
  - unfold z_table. apply gives_bind. intros l. destruct (l_kind l); auto.
    + apply gives_bind. intros bs. apply (gives_bind' _ _ (Forall (Forall good))).
      * apply gives_mapM. intros x _. apply Hz. exact Hp.
      * intros ts Ht. cbv zeta. apply (gives_bind' _ _ valid); [apply outer_valid|]. intros x Hx. apply (gives_bind' _ _ good).
        -- apply level_row_good; auto. congruence.
        -- intros r Hr'. apply gives_ret. apply Forall_app. split; auto. now apply Forall_concat.
    + apply (gives_bind' _ _ good); [apply zlevel_row_good; auto|]. intros r Hr. apply gives_ret. auto.
Qed.
Lemma render_good : forall muB ps, (forall p, In p ps -> 0 <= o_pad (snd p)) -> gives (render muB ps) (Forall good).
Proof.
  intros muB ps H. unfold render. apply (gives_bind' _ _ (Forall (Forall good))).
  - apply gives_mapM. intros p I. apply table_good; auto.
  - intros ts Ht. apply gives_ret. now apply Forall_concat.
Qed.

(** A level with the structures it belongs to. *)
Definition lineage (s : st Exact) (a : nat) (cs : list nat) : Prop :=
  exists l, lv s a = Some l /\
    match l_kind l with
    | LE => cs = [a]
    | LHF => exists m, l_parent l = Some m /\ cs = [a; m]
    | LZ => exists p lp m, l_parent l = Some p /\ lv s p = Some lp /\ l_parent lp = Some m /\ cs = [a; p; m]
    end.
Definition drawn (rows : list row) (a : nat) : Prop := exists r, In r rows /\ r_level r = a.
(** The first row for a level. *)
Definition first (rows : list row) (a : nat) (r : row) : Prop :=
  exists u v, rows = u ++ r :: v /\ r_level r = a /\ forall r', In r' u -> r_level r' <> a.
Fixpoint picks (rows : list row) (cs : list nat) (c : nat) : Prop :=
  match cs with [] => False | x :: cs' => drawn rows x /\ c = x \/ ~ drawn rows x /\ picks rows cs' c end.

Lemma has_row_drawn : forall a rows, has_row a rows = true <-> drawn rows a.
Proof.
  intros a rows. unfold has_row, drawn. rewrite existsb_exists. split; intros [r [I E]]; exists r; split; auto; now apply Nat.eqb_eq.
Qed.
Lemma first_box_ok : forall a rows, drawn rows a -> exists r, first rows a r /\ first_box a rows = Ok (r_box r).
Proof.
  intros a rows. induction rows as [|x rows IH]; intros [r [I E]]; [destruct I|]. unfold first_box. cbn [find]. destruct (Nat.eqb (r_level x) a) eqn:Ex.
  - exists x. split; auto. exists [], rows. split; auto. split; [now apply Nat.eqb_eq|]. intros ? [].
  - destruct I as [->|I]; [apply Nat.eqb_neq in Ex; congruence|]. destruct IH as [r' [[u [v [-> [E1 H]]]] Hb]]; [exists r; auto|]. exists r'. split.
    + exists (x :: u), v. split; auto. split; auto. intros r2 [<-|I2]; [now apply Nat.eqb_neq|auto].
    + unfold first_box in Hb. exact Hb.
Qed.
Lemma box_pos_off : forall b n off, (1 <= n <= 9)%Z -> exists p, box_pos b n (0, 0) = Ok p /\ box_pos b n off = Ok (fst p + fst off, snd p + snd off).
Proof.
  intros b n off Hn. unfold box_pos. destruct (pos_dict n) as [[[[a0 a1] a2] a3]|] eqn:D.
  - eexists. split; [reflexivity|]. cbn [fst snd]. rewrite !Qcplus_0_r. reflexivity.
  - exfalso. assert (N : (n = 1 \/ n = 2 \/ n = 3 \/ n = 4 \/ n = 5 \/ n = 6 \/ n = 7 \/ n = 8 \/ n = 9)%Z) by lia.
    repeat destruct N as [->|N]; [..|subst n]; discriminate D.
Qed.
(** [q] is anchored in the box of the first row of [c]. *)
Definition anchored (rows : list row) (c : nat) (off q : pt) : Prop :=
  exists r p, first rows c r /\ in_box (r_box r) p /\ q = (fst p + fst off, snd p + snd off).
Lemma try_drawn : forall c rows n off old, Forall good rows -> drawn rows c -> (1 <= n <= 9)%Z ->
  exists q, try_pos true c rows n off old = Ok (Some q) /\ anchored rows c off q.
Proof.
  intros c rows n off old G D Hn. destruct (first_box_ok c rows D) as [r [Fr Eb]]. destruct (box_pos_off (r_box r) n off Hn) as [p [E0 E1]].
  exists (fst p + fst off, snd p + snd off). unfold try_pos. rewrite Eb. cbn [rbind]. rewrite E1. split; auto. exists r, p. split; auto. split; auto.
  destruct Fr as [u [v [-> [_ _]]]]. rewrite Forall_forall in G. destruct (G r) as [G1 G2]; [apply in_or_app; right; now left|].
  eapply box_pos_in; eauto.
Qed.

(** Without an override an arrow ends in the box of the level itself if it is
    drawn, or else in that of its hyperfine level, or else in that of its gross
    level.  If nothing is drawn, a gross level is an IndexError and other levels
    have no position. *)
Theorem C70_position : forall muB s0 ps rows s1, render muB ps s0 = (Ok rows, s1) -> (forall p, In p ps -> 0 <= o_pad (snd p)) ->
  forall s a l cs n off, lv s a = Some l -> lineage s a cs -> (1 <= n <= 9)%Z ->
  (forall c, picks rows cs c -> exists q, level_pos rows a n off None s = (Ok (Some q), s) /\ anchored rows c off q) /\
  ((forall c, In c cs -> ~ drawn rows c) ->
    level_pos rows a n off None s = (match l_kind l with LE => Raise IndexError | _ => Ok None end, s)).
Proof.
  intros muB s0 ps rows s1 Er Hp s a l cs n off V [l' [V' Hc]] Hn. assert (l' = l) by congruence. subst l'. pose proof (render_good muB ps Hp _ _ _ Er) as G.
  assert (T : forall x old, drawn rows x -> exists q, try_pos (has_row x rows) x rows n off old = Ok (Some q) /\ anchored rows x off q).
  { intros x old D. pose proof D as D'. apply has_row_drawn in D'. rewrite D'. now apply try_drawn. }
  assert (U : forall x old, ~ drawn rows x -> try_pos (has_row x rows) x rows n off old = Ok old).
  { intros x old D. destruct (has_row x rows) eqn:Ex; [|reflexivity]. apply has_row_drawn in Ex. contradiction. }
  assert (DD : forall x, drawn rows x \/ ~ drawn rows x).
  { intros x. destruct (has_row x rows) eqn:Ex; [left; now apply has_row_drawn|right; intros D; apply has_row_drawn in D; congruence]. }
  unfold level_pos. rewrite (bind_Ok _ (get_lv a) _ s l s) by (unfold get_lv, asks; now rewrite V).
  destruct (l_kind l) eqn:K.
  - subst cs. rewrite (bind_Ok _ (manifold a) _ s a s) by (eapply manifold_E; eauto). split.
    + intros c [[D ->]|[_ []]]. destruct (try_drawn a rows n off None G D Hn) as [q [Eq Aq]]. exists q. unfold of_res. rewrite Eq. auto.
    + intros ND. unfold of_res, try_pos, first_box. destruct (find _ rows) as [r|] eqn:Ef; [|reflexivity].
      exfalso. apply find_some in Ef as [I E]. apply (ND a); [now left|]. exists r. split; auto. now apply Nat.eqb_eq.
  - destruct Hc as [m [Pm ->]]. rewrite (bind_Ok _ (manifold a) _ s m s) by (unfold manifold, bind, get_lv, asks; now rewrite V, K, Pm).
    unfold of_res. cbn [is_gross is_off]. rewrite orb_false_r, andb_true_r. split.
    + intros c [[D ->]|[ND [[D ->]|[_ []]]]].
      * destruct (T a (Some (0, 0)) D) as [q [Eq Aq]]. exists q.
        assert (E' : forall old, try_pos (has_row a rows) a rows n off old = Ok (Some q)).
        { intros old. pose proof D as D'. apply has_row_drawn in D'. rewrite D' in *. exact Eq. }
        destruct (DD m) as [D2|D2].
        -- destruct (T m None D2) as [q2 [E2 _]]. rewrite E2. cbn [rbind]. rewrite E'. auto.
        -- rewrite (U m None D2). cbn [rbind]. rewrite E'. auto.
      * destruct (T m None D) as [q [Eq Aq]]. exists q. rewrite Eq. cbn [rbind]. rewrite U by auto. auto.
    + intros ND. rewrite U by (apply ND; right; now left). cbn [rbind]. rewrite U by (apply ND; now left). reflexivity.
  - destruct Hc as [p [lp [m [Pp [Vp [Pm ->]]]]]]. rewrite (bind_Ok _ (manifold a) _ s m s) by (unfold manifold, bind, get_lv, asks; now rewrite V, K, Pp, Vp, Pm).
    rewrite (bind_Ok _ (asks Dangling (fun _ => l_parent l)) _ s p s) by (unfold asks; now rewrite Pp).
    unfold of_res. cbn [is_gross is_off is_hf]. rewrite !orb_false_r, andb_true_r.
    assert (E' : forall x, drawn rows x -> exists q, anchored rows x off q /\ forall old, try_pos (has_row x rows) x rows n off old = Ok (Some q)).
    { intros x D. destruct (T x None D) as [q [Eq Aq]]. exists q. split; auto. intros old. pose proof D as D'. apply has_row_drawn in D'. rewrite D' in *. exact Eq. }
    assert (C : forall x old, exists o, try_pos (has_row x rows) x rows n off old = Ok o).
    { intros x old. destruct (DD x) as [D|D]; [destruct (E' x D) as [q [_ E]]; eauto|rewrite U by auto; eauto]. }
    split.
    + intros c [[D ->]|[ND [[D ->]|[ND2 [[D ->]|[_ []]]]]]].
      * destruct (E' a D) as [q [Aq Eq]]. exists q. destruct (C m None) as [o1 ->]. cbn [rbind]. destruct (C p o1) as [o2 ->]. cbn [rbind]. rewrite Eq. auto.
      * destruct (E' p D) as [q [Aq Eq]]. exists q. destruct (C m None) as [o1 ->]. cbn [rbind]. rewrite Eq. cbn [rbind]. rewrite U by auto. auto.
      * destruct (E' m D) as [q [Aq Eq]]. exists q. rewrite Eq. cbn [rbind]. rewrite U by auto. cbn [rbind]. rewrite U by auto. auto.
    + intros ND. rewrite U by (apply ND; right; right; now left). cbn [rbind]. rewrite U by (apply ND; right; now left). cbn [rbind].
      rewrite U by (apply ND; now left). reflexivity.
Qed.

(** Arrows start at the lower level of a transition and end at the upper one. *)
Theorem C70_arrow : forall muB orc, (forall n, oracle_ok (orc n)) -> forall s, reachable Exact muB orc s ->
  forall s0 ps rows s1, render muB ps s0 = (Ok rows, s1) -> (forall p, In p ps -> 0 <= o_pad (snd p)) ->
  forall t x n0 n1 off0 off1, tr s t = Some x -> (1 <= n0 <= 9)%Z -> (1 <= n1 <= 9)%Z ->
  exists cs ds, lineage s (x_lo x) cs /\ lineage s (x_up x) ds /\ forall c d, picks rows cs c -> picks rows ds d ->
    exists p q, arrow rows t n0 n1 off0 off1 (None, None) s = (Ok (Some p, Some q), s) /\ anchored rows c off0 p /\ anchored rows d off1 q.
Proof.
  intros muB orc OK s R s0 ps rows s1 Er Hp t x n0 n1 off0 off1 T H0 H1. pose proof (reachable_WF Exact muB orc OK s R) as W.
  assert (LN : forall a l, lv s a = Some l -> exists cs, lineage s a cs).
  { intros a l V. destruct (l_kind l) eqn:K.
    - exists [a], l. now rewrite K.
    - destruct (wf_parent _ _ _ _ W V) as [_ [p [lp [z [Pp [Vp _]]]]]]; [congruence|]. exists [a; p], l. rewrite K. eauto.
    - destruct (wf_parent _ _ _ _ W V) as [_ [p [lp [z [Pp [Vp [_ [_ [Kp _]]]]]]]]]; [congruence|]. rewrite K in Kp.
      destruct (wf_parent _ _ _ _ W Vp) as [_ [m [lm [z' [Pm _]]]]]; [destruct (l_kind lp); discriminate|]. exists [a; p; m], l. rewrite K. eauto 10. }
  assert (HL : exists lo up, lv s (x_lo x) = Some lo /\ lv s (x_up x) = Some up).
  { destruct (wf_tr _ _ W _ _ T) as [l1 [l2 [V1 [V2 [_ [_ [[[-> ->]|[-> ->]] _]]]]]]]; eauto. }
  destruct HL as [lo [up [Vl Vu]]]. destruct (LN _ _ Vl) as [cs Hc], (LN _ _ Vu) as [ds Hd]. exists cs, ds. split; auto. split; auto.
  intros c d Pc Pd.
  destruct (C70_position muB s0 ps rows s1 Er Hp s _ lo cs n0 off0 Vl Hc H0) as [A _]. destruct (A c Pc) as [p [Ep Ap]].
  destruct (C70_position muB s0 ps rows s1 Er Hp s _ up ds n1 off1 Vu Hd H1) as [B _]. destruct (B d Pd) as [q [Eq Aq]].
  exists p, q. split; auto. unfold arrow. rewrite (bind_Ok _ (get_tr t) _ s x s) by (unfold get_tr, asks; now rewrite T). cbn [fst snd].
  rewrite (bind_Ok _ _ _ _ _ _ Ep), (bind_Ok _ _ _ _ _ _ Eq). reflexivity.
Qed.

(** Positions in a Zeeman diagram of 6s 2S1/2 and the gross 6p 2P*1/2; the arrow
    of the transition between them joins the middles of their boxes. *)
Definition diagram : list (nat * strategy * opts) := [(0%nat, SZeeman, opts_with 1 1 (Value 1)); (1%nat, SGross, opts_with 1 1 (Value 1))].
Definition joined : st Exact := runx split_two [ONewTransition Exact 0 1 None None None].
Lemma joined_reachable : reachable Exact 1 plain joined.
Proof. apply more_reachable, split_reachable. Qed.
Definition spot (p : option pt) : option (Q * Q) := option_map (fun p => (this (fst p), this (snd p))) p.
Definition spots (s : st Exact) (n0 n1 : Z) (over : option string * option string) : res (option (Q * Q) * option (Q * Q)) :=
  let '(r, s') := render 1 diagram s in
  match r with Ok rows => match fst (arrow rows 0 n0 n1 (0, 0) (0, 0) over s') with Ok (p, q) => Ok (spot p, spot q) | Raise e => Raise e end | Raise e => Raise e end.
Example C70_case : spots joined 5 8 (None, None) = Ok (Some (1 # 2, (-2)%Q), Some (1 # 2, 1 # 100000000000)%Q).
Proof. vm_compute. reflexivity. Qed.

(** ** C71: overriding the structure an arrow is anchored to *)

(** 'hf' on a Zeeman level, and 'gross' on a hyperfine level, are respected. *)
Theorem C71_partial : forall muB s0 ps rows s1, render muB ps s0 = (Ok rows, s1) -> (forall p, In p ps -> 0 <= o_pad (snd p)) ->
  forall s a l n off, lv s a = Some l -> (1 <= n <= 9)%Z ->
  (forall m over, l_kind l = LHF -> l_parent l = Some m -> drawn rows m -> In over ["manifold"; "gross"; "g"]%string ->
    exists q, level_pos rows a n off (Some over) s = (Ok (Some q), s) /\ anchored rows m off q) /\
  (forall p lp m over, l_kind l = LZ -> l_parent l = Some p -> lv s p = Some lp -> l_parent lp = Some m -> drawn rows p -> In over ["hf"; "hyperfine"]%string ->
    exists q, level_pos rows a n off (Some over) s = (Ok (Some q), s) /\ anchored rows p off q) /\
  (forall p lp m over, l_kind l = LZ -> l_parent l = Some p -> lv s p = Some lp -> l_parent lp = Some m -> drawn rows m -> ~ drawn rows p ->
    In over ["manifold"; "gross"; "g"]%string ->
    exists q, level_pos rows a n off (Some over) s = (Ok (Some q), s) /\ anchored rows m off q).
Proof.
  intros muB s0 ps rows s1 Er Hp s a l n off V Hn. pose proof (render_good muB ps Hp _ _ _ Er) as G.
  split; [|split].
  - intros m over K Pm D Io. assert (Hg : is_gross (Some over) = true) by (destruct Io as [<-|[<-|[<-|[]]]]; reflexivity).
    unfold level_pos. rewrite (bind_Ok _ (get_lv a) _ s l s) by (unfold get_lv, asks; now rewrite V). rewrite K.
    rewrite (bind_Ok _ (manifold a) _ s m s) by (unfold manifold, bind, get_lv, asks; now rewrite V, K, Pm).
    destruct (try_drawn m rows n off None G D Hn) as [q [Eq Aq]]. exists q. rewrite Hg, orb_true_r. unfold of_res. rewrite Eq. cbn [rbind is_off].
    rewrite andb_false_r. auto.
  - intros p lp m over K Pp Vp Pm D Io. assert (Hg : is_hf (Some over) = true) by (destruct Io as [<-|[<-|[]]]; reflexivity).
    assert (Hg' : is_gross (Some over) = false) by (destruct Io as [<-|[<-|[]]]; reflexivity).
    unfold level_pos. rewrite (bind_Ok _ (get_lv a) _ s l s) by (unfold get_lv, asks; now rewrite V). rewrite K.
    rewrite (bind_Ok _ (manifold a) _ s m s) by (unfold manifold, bind, get_lv, asks; now rewrite V, K, Pp, Vp, Pm).
    rewrite (bind_Ok _ (asks Dangling (fun _ => l_parent l)) _ s p s) by (unfold asks; now rewrite Pp).
    rewrite Hg, Hg', orb_true_r, orb_false_r. unfold of_res.
    assert (C : exists o1, try_pos (has_row m rows) m rows n off None = Ok o1).
    { destruct (has_row m rows) eqn:Ex; [|exists None; reflexivity]. apply has_row_drawn in Ex. destruct (try_drawn m rows n off None G Ex Hn) as [q [Eq _]]. eauto. }
    destruct C as [o1 ->]. cbn [rbind]. destruct (try_drawn p rows n off o1 G D Hn) as [q [Eq Aq]]. exists q. rewrite Eq. cbn [rbind is_off].
    rewrite andb_false_r. auto.
  - intros p lp m over K Pp Vp Pm D ND Io. assert (Hg : is_gross (Some over) = true) by (destruct Io as [<-|[<-|[<-|[]]]]; reflexivity).
    assert (Hg' : is_hf (Some over) = false) by (destruct Io as [<-|[<-|[<-|[]]]]; reflexivity).
    unfold level_pos. rewrite (bind_Ok _ (get_lv a) _ s l s) by (unfold get_lv, asks; now rewrite V). rewrite K.
    rewrite (bind_Ok _ (manifold a) _ s m s) by (unfold manifold, bind, get_lv, asks; now rewrite V, K, Pp, Vp, Pm).
    rewrite (bind_Ok _ (asks Dangling (fun _ => l_parent l)) _ s p s) by (unfold asks; now rewrite Pp).
    rewrite Hg, Hg', orb_true_r, orb_false_r. unfold of_res.
    destruct (try_drawn m rows n off None G D Hn) as [q [Eq Aq]]. exists q. rewrite Eq. cbn [rbind is_off].
    destruct (has_row p rows) eqn:Ex; [apply has_row_drawn in Ex; contradiction|]. unfold try_pos at 1. cbn [rbind]. rewrite andb_false_r. auto.
Qed.

(** 'gross' on a Zeeman level is ignored whenever its hyperfine level has a
    row, as it has in a Zeeman diagram: the arrow goes to the hyperfine level. *)
Theorem C71_refuted : forall muB s0 ps rows s1, render muB ps s0 = (Ok rows, s1) -> (forall p, In p ps -> 0 <= o_pad (snd p)) ->
  forall s a l n off p lp m over, lv s a = Some l -> (1 <= n <= 9)%Z -> l_kind l = LZ -> l_parent l = Some p -> lv s p = Some lp -> l_parent lp = Some m ->
  drawn rows m -> drawn rows p -> In over ["manifold"; "gross"; "g"]%string ->
  exists q, level_pos rows a n off (Some over) s = (Ok (Some q), s) /\ anchored rows p off q.
Proof.
  intros muB s0 ps rows s1 Er Hp s a l n off p lp m over V Hn K Pp Vp Pm D D2 Io. pose proof (render_good muB ps Hp _ _ _ Er) as G.
  assert (Hg : is_gross (Some over) = true) by (destruct Io as [<-|[<-|[<-|[]]]]; reflexivity).
  unfold level_pos. rewrite (bind_Ok _ (get_lv a) _ s l s) by (unfold get_lv, asks; now rewrite V). rewrite K.
  rewrite (bind_Ok _ (manifold a) _ s m s) by (unfold manifold, bind, get_lv, asks; now rewrite V, K, Pp, Vp, Pm).
  rewrite (bind_Ok _ (asks Dangling (fun _ => l_parent l)) _ s p s) by (unfold asks; now rewrite Pp).
  rewrite Hg, orb_true_r. unfold of_res.
  destruct (try_drawn m rows n off None G D Hn) as [q0 [E0 _]]. rewrite E0. cbn [rbind]. pose proof D2 as D3. apply has_row_drawn in D3. rewrite D3. cbn [orb].
  destruct (try_drawn p rows n off (Some q0) G D2 Hn) as [q [Eq Aq]]. exists q. rewrite Eq. cbn [rbind is_off]. rewrite andb_false_r. auto.
Qed.

(** For the Zeeman level F=1 mF=0 of 6s 2S1/2 the gross box has its middle at
    (1/2, -2), but 'gross' gives the middle of the box of F=1. *)
Definition named_spot (a : nat) (over : option string) : res (option (Q * Q)) :=
  let '(r, s') := render 1 diagram split_two in
  match r with Ok rows => match fst (level_pos rows a 5 (0, 0) over s') with Ok p => Ok (spot p) | Raise e => Raise e end | Raise e => Raise e end.
Example C71_case : named_spot 6 (Some "gross"%string) = Ok (Some (1 # 2, 2)%Q) /\ named_spot 3 (Some "gross"%string) = Ok (Some (1 # 2, -2)%Q) /\
  named_spot 6 (Some "hf"%string) = Ok (Some (1 # 2, 2)%Q) /\ named_spot 0 None = Ok (Some (1 # 2, -2)%Q).
Proof. vm_compute. repeat match goal with |- _ /\ _ => split end; reflexivity. Qed.

Print Assumptions C63_bounds.
Print Assumptions C64_partial.
Print Assumptions C65_refuted.
Print Assumptions C67_zeeman.
Print Assumptions C68_zeeman.
Print Assumptions C69_refuted.
Print Assumptions C70_arrow.
Print Assumptions C71_refuted.
