(** What the tables of a Grotrian diagram contain. *)
From Coq Require Import List Bool ZArith QArith Qcanon Lia String Permutation Sorted.
From Verif Require Import Base PyStr Util UtilProofs Parse Term TermProofs Num Wigner Hyperfine HyperfineProofs
  Graph GraphProofs Rules Atom AtomInv AtomSafe AtomSafe2 AtomSafe3 AtomSafe4 AtomSafe5 AtomSafe6 AtomLevels AtomKeep AtomPaths AtomHist AtomEnergy AtomAlias AtomSub Grotrian.
Import ListNotations.
Local Open Scope Qc_scope.

(** ** Bounding boxes *)

Definition in_box (b : box) (p : pt) : Prop := b_x0 b <= fst p /\ fst p <= b_x1 b /\ b_y0 b <= snd p /\ snd p <= b_y1 b.

Lemma Qc_min_le : forall a b, Qc_min a b <= a /\ Qc_min a b <= b.
Proof.
  intros a b. unfold Qc_min. destruct (Qc_ltb b a) eqn:E.
  - apply Qc_ltb_lt in E. split; [now apply Qclt_le_weak|apply Qcle_refl].
  - apply Qc_ltb_ge in E. split; [apply Qcle_refl|auto].
Qed.
Lemma Qc_max_ge : forall a b, a <= Qc_max a b /\ b <= Qc_max a b.
Proof.
  intros a b. unfold Qc_max. destruct (Qc_ltb a b) eqn:E.
  - apply Qc_ltb_lt in E. split; [now apply Qclt_le_weak|apply Qcle_refl].
  - apply Qc_ltb_ge in E. split; [apply Qcle_refl|auto].
Qed.
Lemma Qc_min_or : forall a b, Qc_min a b = a \/ Qc_min a b = b.
Proof. intros a b. unfold Qc_min. destruct (Qc_ltb b a); auto. Qed.
Lemma Qc_max_or : forall a b, Qc_max a b = a \/ Qc_max a b = b.
Proof. intros a b. unfold Qc_max. destruct (Qc_ltb a b); auto. Qed.

Lemma fold_pick {A} (f : A -> A -> A) (R : A -> A -> Prop) : (forall a, R a a) -> (forall a b c, R a b -> R b c -> R a c) ->
  (forall a b, R (f a b) a /\ R (f a b) b) -> (forall a b, f a b = a \/ f a b = b) ->
  forall l x, In (fold_left f l x) (x :: l) /\ forall y, In y (x :: l) -> R (fold_left f l x) y.
Proof.
  intros Hr Ht H1 H2 l. induction l as [|z l IH]; intros x; cbn [fold_left].
  - split; [left; auto|]. intros y [<-|[]]. auto.
  - destruct (IH (f x z)) as [I L]. split.
    + destruct I as [E|I]; [|right; right; exact I]. rewrite <- E. destruct (H2 x z) as [->| ->]; simpl; auto.
    + intros y [<-|[<-|I']].
      * eapply Ht; [apply L; left; reflexivity|apply H1].
      * eapply Ht; [apply L; left; reflexivity|apply H1].
      * apply L. right. auto.
Qed.
Lemma least_min : forall l m, least Qc_min l = Some m -> In m l /\ forall y, In y l -> m <= y.
Proof.
  intros [|x l] m E; [discriminate|]. cbn [least] in E. injection E as <-.
  apply (fold_pick Qc_min Qcle); [apply Qcle_refl|apply Qcle_trans|apply Qc_min_le|apply Qc_min_or].
Qed.
Lemma least_max : forall l m, least Qc_max l = Some m -> In m l /\ forall y, In y l -> y <= m.
Proof.
  intros [|x l] m E; [discriminate|]. cbn [least] in E. injection E as <-.
  apply (fold_pick Qc_max (fun a b => b <= a)); [apply Qcle_refl|intros a b c H1 H2; eapply Qcle_trans; eauto|apply Qc_max_ge|apply Qc_max_or].
Qed.
Lemma least_Zmax : forall l m, least Z.max l = Some m -> In m l /\ forall y, In y l -> (y <= m)%Z.
Proof.
  intros [|x l] m E; [discriminate|]. cbn [least] in E. injection E as <-.
  apply (fold_pick Z.max (fun a b => b <= a)%Z); intros; lia.
Qed.
Lemma least_Zmin : forall l m, least Z.min l = Some m -> In m l /\ forall y, In y l -> (m <= y)%Z.
Proof.
  intros [|x l] m E; [discriminate|]. cbn [least] in E. injection E as <-.
  apply (fold_pick Z.min Z.le); intros; lia.
Qed.

Lemma le_sub_nonneg : forall a p : Qc, 0 <= p -> a - p <= a.
Proof. intros a p H. rewrite <- (Qcplus_0_r a) at 2. unfold Qcminus. apply Qcplus_le_compat; [apply Qcle_refl|]. apply Qcopp_le_compat in H. exact H. Qed.
Lemma le_add_nonneg : forall a p : Qc, 0 <= p -> a <= a + p.
Proof. intros a p H. rewrite <- (Qcplus_0_r a) at 1. apply Qcplus_le_compat; [apply Qcle_refl|auto]. Qed.
Lemma sub_nonneg : forall a b : Qc, a <= b -> 0 <= b - a.
Proof. intros a b H. replace 0 with (a + - a) by apply Qcplus_opp_r. unfold Qcminus. apply Qcplus_le_compat; [auto|apply Qcle_refl]. Qed.
Lemma mult_nonneg : forall a b : Qc, 0 <= a -> 0 <= b -> 0 <= a * b.
Proof. intros a b Ha Hb. rewrite <- (Qcmult_0_l b). now apply Qcmult_le_compat_r. Qed.

Lemma bbox_ok : forall pts pad, pts <> [] -> exists b, bbox pts pad = Ok b.
Proof. intros [|p pts] pad H; [congruence|]. eexists. unfold bbox. cbn [map least]. reflexivity. Qed.
Lemma bbox_sides : forall pts pad b, bbox pts pad = Ok b -> exists xl yl xh yh,
  b = mkBox (xl - pad) (yl - (yh - yl) * pad) (xh + pad) (yh + (yh - yl) * pad) /\
  (exists p, In p pts /\ fst p = xl) /\ (exists p, In p pts /\ snd p = yl) /\ (exists p, In p pts /\ fst p = xh) /\ (exists p, In p pts /\ snd p = yh) /\
  forall p, In p pts -> xl <= fst p /\ fst p <= xh /\ yl <= snd p /\ snd p <= yh.
Proof.
  intros pts pad b E. unfold bbox in E.
  destruct (least Qc_min (map fst pts)) as [xl|] eqn:E1; [|discriminate].
  destruct (least Qc_min (map snd pts)) as [yl|] eqn:E2; [|discriminate].
  destruct (least Qc_max (map fst pts)) as [xh|] eqn:E3; [|discriminate].
  destruct (least Qc_max (map snd pts)) as [yh|] eqn:E4; [|discriminate]. injection E as <-.
  apply least_min in E1 as [I1 L1], E2 as [I2 L2]. apply least_max in E3 as [I3 L3], E4 as [I4 L4].
  assert (X : forall (f : pt -> Qc) v, In v (map f pts) -> exists p, In p pts /\ f p = v).
  { intros f v I. apply in_map_iff in I as [p [<- I]]. eauto. }
  exists xl, yl, xh, yh. split; auto. repeat (split; [apply X; assumption|]).
  intros p I. split; [apply L1; now apply in_map|]. split; [apply L3; now apply in_map|]. split; [apply L2; now apply in_map|apply L4; now apply in_map].
Qed.
Lemma bbox_contains : forall pts pad b, 0 <= pad -> bbox pts pad = Ok b -> forall p, In p pts -> in_box b p.
Proof.
  intros pts pad b Hp E p I. destruct (bbox_sides _ _ _ E) as [xl [yl [xh [yh [-> [_ [_ [_ [_ H]]]]]]]]].
  destruct (H p I) as [H1 [H2 [H3 H4]]]. unfold in_box. cbn [b_x0 b_x1 b_y0 b_y1].
  assert (P : 0 <= (yh - yl) * pad) by (apply mult_nonneg; auto; apply sub_nonneg; eapply Qcle_trans; eauto).
  split; [|split; [|split]].
  - eapply Qcle_trans; [|exact H1]. now apply le_sub_nonneg.
  - eapply Qcle_trans; [exact H2|]. now apply le_add_nonneg.
  - eapply Qcle_trans; [|exact H3]. now apply le_sub_nonneg.
  - eapply Qcle_trans; [exact H4|]. now apply le_add_nonneg.
Qed.

(** A weighted mean of the ends of an interval. *)
Lemma mean_in : forall a b u v : Qc, a <= b -> 0 <= u -> 0 <= v -> u + v = 1 -> a <= a * u + b * v /\ a * u + b * v <= b.
Proof.
  intros a b u v H Hu Hv E. assert (D : 0 <= (b - a) * v) by (apply mult_nonneg; auto; now apply sub_nonneg).
  assert (D' : 0 <= (b - a) * u) by (apply mult_nonneg; auto; now apply sub_nonneg). split.
  - replace (a * u + b * v) with (a * (u + v) + (b - a) * v) by ring. rewrite E, Qcmult_1_r. now apply le_add_nonneg.
  - replace (a * u + b * v) with (b * (u + v) - (b - a) * u) by ring. rewrite E, Qcmult_1_r. now apply le_sub_nonneg.
Qed.
Lemma box_pos_in : forall b n p, b_x0 b <= b_x1 b -> b_y0 b <= b_y1 b -> box_pos b n (0, 0) = Ok p -> in_box b p.
Proof.
  intros b n p Hx Hy E. unfold box_pos in E. destruct (pos_dict n) as [[[[a0 a1] a2] a3]|] eqn:D; [|discriminate]. injection E as <-.
  assert (H : 0 <= a0 /\ 0 <= a1 /\ 0 <= a2 /\ 0 <= a3 /\ a0 + a2 = 1 /\ a1 + a3 = 1).
  { unfold pos_dict in D.
    repeat match type of D with context [match ?z with _ => _ end] => destruct z; try discriminate D end;
      injection D as <- <- <- <-; repeat split; try (apply Qc_ltb_ge; reflexivity); apply Qc_is_canon; reflexivity. }
  destruct H as [H0 [H1 [H2 [H3 [E1 E2]]]]]. unfold in_box. cbn [fst snd]. rewrite !Qcplus_0_r.
  destruct (mean_in _ _ _ _ Hx H0 H2 E1), (mean_in _ _ _ _ Hy H1 H3 E2). auto.
Qed.

(** ** Integers among the rationals *)

Lemma qc_this : forall z, this (qc (z # 1)) = z # 1.
Proof. intros z. unfold qc. cbn [this Q2Qc]. apply Qred_identity. cbn [Qnum Qden]. apply Z.gcd_1_r. Qed.
Lemma truncate_int : forall z, truncate (qc (z # 1)) = z.
Proof. intros z. unfold truncate. rewrite qc_this. cbn [Qnum Qden]. apply Z.quot_1_r. Qed.
Lemma qc_eq : forall p q : Q, (p == q)%Q -> qc p = qc q.
Proof. intros p q H. apply Qc_is_canon. unfold qc, Q2Qc. cbn [this]. now rewrite !Qred_correct. Qed.
Lemma qc_add : forall p q : Q, qc (p + q) = qc p + qc q.
Proof. intros p q. apply Qc_is_canon. unfold qc, Qcplus. cbn [this Q2Qc]. rewrite !Qred_correct. reflexivity. Qed.
Lemma qc_mul : forall p q : Q, qc (p * q) = qc p * qc q.
Proof. intros p q. apply Qc_is_canon. unfold qc, Qcmult. cbn [this Q2Qc]. rewrite !Qred_correct. reflexivity. Qed.
Lemma twice_plus_one : forall z, qc 2 * qc (z # 1) + 1 = qc (2 * z + 1 # 1).
Proof.
  intros z. change 1 with (qc 1). rewrite <- qc_mul, <- qc_add. apply qc_eq. unfold Qeq. cbn. lia.
Qed.
Lemma qc_pos : forall z, (0 < z)%Z -> 0 < qc (z # 1).
Proof. intros z H. unfold Qclt. rewrite (qc_this z). change (this 0) with (0 # 1). unfold Qlt. cbn [Qnum Qden]. lia. Qed.
Lemma qc_nonzero : forall z, z <> 0%Z -> qc (z # 1) <> 0.
Proof. intros z H E. apply (f_equal this) in E. rewrite (qc_this z) in E. injection E as E. auto. Qed.

Lemma Forall2_in_l {A B} (P : A -> B -> Prop) : forall u v, Forall2 P u v -> forall x, In x u -> exists y, In y v /\ P x y.
Proof. intros u v F. induction F; intros z []; [subst; eexists; split; [now left|auto]|]. destruct (IHF z) as [y' [I H']]; auto. exists y'. split; [now right|auto]. Qed.
Lemma Forall2_in_r {A B} (P : A -> B -> Prop) : forall u v, Forall2 P u v -> forall y, In y v -> exists x, In x u /\ P x y.
Proof. intros u v F. induction F; intros z []; [subst; eexists; split; [now left|auto]|]. destruct (IHF z) as [y' [I H']]; auto. exists y'. split; [now right|auto]. Qed.

Section Tables.
  Context (muB : Qc).
  Notation st := (st Exact).
  Notation level := (level Exact).
  Notation M := (M Exact).
  Implicit Types (s : st) (l : level) (a : nat).

  Lemma mapM_pure {A B} (P : A -> B -> Prop) : forall (f : A -> M B) (l : list A) s, (forall x, In x l -> exists y, f x s = (Ok y, s) /\ P x y) ->
    exists ys, mapM f l s = (Ok ys, s) /\ Forall2 P l ys.
  Proof.
    intros f l s. induction l as [|x l IH]; intros H.
    - exists []. split; [reflexivity|constructor].
    - destruct (H x (or_introl eq_refl)) as [y [E Py]]. destruct IH as [ys [Es F]]; [intros; apply H; now right|].
      exists (y :: ys). split; [|constructor; auto]. cbn [mapM]. erewrite bind_Ok by exact E. erewrite bind_Ok by exact Es. reflexivity.
  Qed.

  (** The hyperfine sublevels of [a] exist. *)
  Definition ready s a (n : string) (j : Z) (bs : list nat) : Prop :=
    sublevels Exact a s = (Ok bs, s) /\ (exists l, lv s a = Some l /\ l_kind l = LE /\ l_attached l = true /\ l_J l = Some j /\ lname l = n) /\
    Forall2 (fun f b => getitem Exact a (F_key f) s = (Ok b, s) /\ is_F Exact s n a j f b) (F_range j (s_I s)) bs.

  Lemma ready_from : forall s a l j bs s1 s2, WF s -> lv s a = Some l -> l_kind l = LE -> l_attached l = true -> l_J l = Some j ->
    sublevels Exact a s = (Ok bs, s1) -> WF s2 -> lookl s1 s2 -> ready s2 a (lname l) j bs.
  Proof.
    intros s a l j bs s1 s2 W V K A Ej E W2 L2.
    destruct (safe_Ok _ _ _ _ _ _ _ (sublevels_safe Exact s a l W V) E) as [W1 [L1 [l1 [V1 [S1 [F1 ->]]]]]].
    destruct (lsame_names _ _ _ S1) as [_ [En [_ [EJ _]]]]. pose proof S1 as [K1 [_ [_ A1]]].
    assert (Hs : sublevels Exact a s2 = (Ok (dvals (l_subs l1)), s2)).
    { apply (sublevels_stable Exact s1 a l1); auto; [congruence|apply L2]. }
    destruct (lookl_same Exact s1 s2 a l1 L2 V1) as [l2 [V2 S2]]. destruct (lsame_names _ _ _ S2) as [_ [En2 [_ [EJ2 _]]]]. destruct S2 as [K2 [_ [_ A2]]].
    assert (Hj : l_J l2 = Some j) by congruence.
    destruct (sublevels_F Exact s2 a l2 j W2 V2 ltac:(congruence) ltac:(auto) Hj) as [bs' [s3 [E3 [_ [_ [F3 _]]]]]].
    rewrite Hs in E3. injection E3 as <- <-. split; auto. replace (lname l) with (lname l2) by congruence. split; [|exact F3].
    exists l2. split; auto. split; [congruence|]. auto.
  Qed.
  Lemma ready_look : forall s a n j bs s2, WF s -> ready s a n j bs -> WF s2 -> lookl s s2 -> ready s2 a n j bs.
  Proof. intros s a n j bs s2 W [E [[l [V [K [A [Ej <-]]]]] _]] W2 L2. exact (ready_from s a l j bs s s2 W V K A Ej E W2 L2). Qed.

  Lemma shift_F : forall s a l n j f b, lv s a = Some l -> is_F Exact s n a j f b ->
    shift muB b s = (Ok (hf_shift Exact (s_I s) j f (l_hfA l) (l_hfB l) (l_hfC l)), s).
  Proof.
    intros s a l n j f b V [lb [Vb [Kb [Pb [Jb [Fb _]]]]]]. unfold shift, bind, get_lv, asks, gets. now rewrite Vb, Kb, Pb, V, Jb, Fb.
  Qed.
  Lemma shift_Z : forall s n b j f m c lc, is_mF Exact s n b j f m c -> lv s c = Some lc ->
    shift muB c s = (Ok (z_shift Exact muB (l_gF lc) m (s_B s) (l_qz lc)), s).
  Proof.
    intros s n b j f m c lc [lc' [Vc [Kc [Pc [Jc [Fc [Mc _]]]]]]] V. assert (lc' = lc) by congruence. subst lc'.
    unfold shift, bind, get_lv, asks, gets. now rewrite Vc, Kc, Mc.
  Qed.

  Lemma F_range_head : forall j i, (0 <= j)%Z -> (0 <= i)%Z -> exists r, F_range j i = Z.abs (j - i) :: r.
  Proof.
    intros j i Hj Hi. rewrite F_range_steps by auto. destruct (Z.to_nat (Z.min j i + 1)) eqn:E; [lia|]. cbn [steps]. eauto.
  Qed.
  Lemma F_range_last : forall j i, (0 <= j)%Z -> (0 <= i)%Z -> In (j + i)%Z (F_range j i) /\ forall f, In f (F_range j i) -> (f <= j + i)%Z.
  Proof.
    intros j i Hj Hi. split.
    - apply F_range_In; auto. unfold tri. rewrite !andb_true_iff, !Z.leb_le. split; [lia|].
      replace (j + i + (j + i))%Z with (2 * (j + i))%Z by lia. rewrite Z.even_mul. reflexivity.
    - intros f H. apply F_range_In in H; auto. unfold tri in H. rewrite !andb_true_iff, !Z.leb_le in H. lia.
  Qed.

  Lemma spread_ok : forall s a l n j bs, WF s -> lv s a = Some l -> ready s a n j bs ->
    spread muB a s = (Ok (F_range j (s_I s), Z.abs (j - s_I s), Qc_abs (hf_shift Exact (s_I s) j (j + s_I s) (l_hfA l) (l_hfB l) (l_hfC l) -
      hf_shift Exact (s_I s) j (Z.abs (j - s_I s)) (l_hfA l) (l_hfB l) (l_hfC l))), s).
  Proof.
    intros s a l n j bs W V [E [[l' [V' [K [A [Ej En]]]]] F]]. assert (l' = l) by congruence. subst l'.
    destruct (wf_J _ _ _ _ W V) as [j' [Ej' Hj]]. assert (j' = j) by congruence. subst j'. pose proof (wf_I _ _ W) as Hi.
    destruct (F_range_head j (s_I s) Hj Hi) as [r Er]. destruct (F_range_last j (s_I s) Hj Hi) as [Il Hl].
    unfold spread. erewrite bind_Ok by exact E.
    destruct (mapM_pure (fun b f => is_F Exact s n a j f b) F_of bs s) as [fs [Ef Ff]].
    { intros b I. destruct (Forall2_in_r _ _ _ F b I) as [f [_ [_ B]]]. exists f. split; auto. destruct B as [lb [Vb [_ [_ [_ [Fb _]]]]]].
      unfold F_of, bind, get_lv, asks. now rewrite Vb, Fb. }
    assert (Es : fs = F_range j (s_I s)).
    { clear - F Ff. revert fs Ff. induction F as [|f b u v [_ H] F IH]; intros fs Ff; inversion Ff; subst; auto. f_equal; auto.
      destruct H as [lb [Vb [_ [_ [_ [Fb _]]]]]], H2 as [lb' [Vb' [_ [_ [_ [Fb' _]]]]]]. congruence. }
    assert (H1 : of_res (ok_or ValueError (least Z.max fs)) s = (Ok (j + s_I s)%Z, s)).
    { rewrite Es. destruct (least Z.max (F_range j (s_I s))) as [m|] eqn:Em; [|rewrite Er in Em; discriminate].
      destruct (least_Zmax _ _ Em) as [I1 M1]. unfold of_res. cbn [ok_or]. repeat f_equal. apply Z.le_antisymm; auto. }
    assert (H2 : of_res (ok_or ValueError (least Z.min fs)) s = (Ok (Z.abs (j - s_I s)), s)).
    { rewrite Es. destruct (least Z.min (F_range j (s_I s))) as [m|] eqn:Em; [|rewrite Er in Em; discriminate].
      destruct (least_Zmin _ _ Em) as [I2 M2]. unfold of_res. cbn [ok_or]. repeat f_equal. apply Z.le_antisymm; [apply M2; rewrite Er; now left|].
      apply F_range_In in I2; auto. unfold tri in I2. rewrite !andb_true_iff, !Z.leb_le in I2. lia. }
    erewrite bind_Ok by exact Ef. erewrite bind_Ok by exact H1. erewrite bind_Ok by exact H2. rewrite Es.
    destruct (Forall2_in_l _ _ _ F (j + s_I s)%Z Il) as [b [_ [Gb Fb]]].
    destruct (Forall2_in_l _ _ _ F (Z.abs (j - s_I s)) ltac:(rewrite Er; now left)) as [c [_ [Gc Fc]]].
    erewrite bind_Ok by exact Gb. erewrite bind_Ok by exact Gc.
    erewrite bind_Ok by exact (shift_F s a l n j _ b V Fb). erewrite bind_Ok by exact (shift_F s a l n j _ c V Fc). reflexivity.
  Qed.

  (** ** Keyword arguments *)

  Definition sq_of (o : opts) (j i : Z) : option Z :=
    match o_squeeze o with
    | SqDefault | SqTrue => Some (2 * Z.quot (j + i) 2 + 1)%Z
    | SqNum q => Some (truncate (qc 2 * q + 1))
    | SqFalse => None
    end.
  Definition geo_of (o : opts) (j : Z) (E : Qc) (sq : Z) (w b : Qc) : geo :=
    mkGeo (o_width o) (match o_x0 o with Some x => x | None => qc (j # 2) end) (o_x1 o)
      (match o_y0 o with Some y => y | None => E / qc 1000000000000 end) (o_y1 o) (o_offset o) sq (o_hf o) (o_z o) w b.
  Definition ratios_of (o : opts) (w b : Qc) : Prop :=
    as_ratio "realistic" "schematic" (o_spacing o) = Ok b /\ as_ratio "degeneracy" "schematic" (o_sub o) = Ok w.

  Lemma process_ok : forall s a l j m lm o sq w b, lv s a = Some l -> l_attached l = true -> l_J l = Some j ->
    manifold a s = (Ok m, s) -> lv s m = Some lm -> l_kind lm = LE -> sq_of o j (s_I s) = Some sq -> ratios_of o w b ->
    process muB a o s = (Ok (geo_of o j (l_E lm) sq w b), s).
  Proof.
    intros s a l j m lm o sq w b V A Ej Em Vm Km Eq [R1 R2]. unfold process.
    rewrite (bind_Ok _ (get_lv a) _ s l s) by (unfold get_lv, asks; now rewrite V).
    rewrite (bind_Ok _ (asks Dangling (fun _ => l_J l)) _ s j s) by (unfold asks; now rewrite Ej).
    rewrite (bind_Ok _ (manifold a) _ s m s) by exact Em.
    rewrite (bind_Ok _ (asks Dangling (fun s => energyE s m)) _ s (l_E lm) s) by (unfold asks, energyE; now rewrite Vm, Km).
    rewrite A. rewrite (bind_Ok _ (gets (fun s => s_I s)) _ s (s_I s) s) by reflexivity. cbv zeta.
    assert (T : truncate (qc 2 * qc (Z.quot (j + s_I s) 2 # 1) + 1) = (2 * Z.quot (j + s_I s) 2 + 1)%Z) by (rewrite twice_plus_one; apply truncate_int).
    unfold sq_of in Eq. destruct (o_squeeze o); try discriminate; injection Eq as <-;
      unfold bind, ret, of_res; rewrite R1, R2, ?T; reflexivity.
  Qed.

  Lemma manifold_E : forall s a l, lv s a = Some l -> l_kind l = LE -> manifold a s = (Ok a, s).
  Proof. intros s a l V K. unfold manifold, bind, get_lv, asks. now rewrite V, K. Qed.
  Lemma manifold_F : forall s n a j f b, is_F Exact s n a j f b -> manifold b s = (Ok a, s).
  Proof. intros s n a j f b [lb [V [K [P _]]]]. unfold manifold, bind, get_lv, asks. now rewrite V, K, P. Qed.
  Lemma manifold_Z : forall s n n' a j f b m c, is_F Exact s n a j f b -> is_mF Exact s n' b j f m c -> manifold c s = (Ok a, s).
  Proof.
    intros s n n' a j f b m c [lb [V [K [P _]]]] [lc [Vc [Kc [Pc _]]]]. unfold manifold, bind, get_lv, asks. now rewrite Vc, Kc, Pc, V, P.
  Qed.

  (** ** Rows *)

  Definition span_of s l (j : Z) : Qc := Qc_abs (hf_shift Exact (s_I s) j (j + s_I s) (l_hfA l) (l_hfB l) (l_hfC l) -
      hf_shift Exact (s_I s) j (Z.abs (j - s_I s)) (l_hfA l) (l_hfB l) (l_hfC l)).
  Definition hf_at (o : opts) (i j : Z) l (sq : Z) (w b : Qc) (span : Qc) (f : Z) : pt * pt :=
    hf_ends (geo_of o j (l_E l) sq w b) (F_range j i) (Z.abs (j - i)) f span (hf_shift Exact i j f (l_hfA l) (l_hfB l) (l_hfC l)).
  Definition z_at (o : opts) (i j : Z) l (sq : Z) (w b : Qc) (span : Qc) (f k : Z) (v : Qc) : pt * pt :=
    z_ends (geo_of o j (l_E l) sq w b) (o_fill o) (F_range j i) (Z.abs (j - i)) f k span (hf_shift Exact i j f (l_hfA l) (l_hfB l) (l_hfC l)) v.

  Lemma with_box_ok : forall s a over show p0 p1 o, exists bx, with_box a over show p0 p1 o s = (Ok (mkRow a show p0 p1 bx (o_bbox o)), s) /\
    match over with Some x => bx = x | None => bbox [p0; p1] (o_pad o) = Ok bx end.
  Proof.
    intros s a over show p0 p1 o. unfold with_box, bind, ret, of_res. destruct over as [x|]; [eauto|].
    destruct (bbox_ok [p0; p1] (o_pad o)) as [bx E]; [discriminate|]. exists bx. rewrite E. auto.
  Qed.

  Lemma hflevel_ok : forall s a l n j bs f c over show o sq w b, WF s -> lv s a = Some l -> ready s a n j bs -> is_F Exact s n a j f c ->
    sq_of o j (s_I s) = Some sq -> ratios_of o w b ->
    exists bx, hflevel_row muB c over show o s =
      (Ok (mkRow c show (fst (hf_at o (s_I s) j l sq w b (span_of s l j) f)) (snd (hf_at o (s_I s) j l sq w b (span_of s l j) f)) bx (o_bbox o)), s) /\
      match over with Some x => bx = x
      | None => bbox [fst (hf_at o (s_I s) j l sq w b (span_of s l j) f); snd (hf_at o (s_I s) j l sq w b (span_of s l j) f)] (o_pad o) = Ok bx end.
  Proof.
    intros s a l n j bs f c over show o sq w b W V Rd Fc Hq Hr. pose proof Rd as [_ [[l' [V' [K [A [Ej _]]]]] _]]. assert (l' = l) by congruence. subst l'.
    pose proof Fc as [lc [Vc [Kc [Pc [Jc [Ec _]]]]]]. destruct (wf_parent _ _ _ _ W Vc) as [Ac _]; [congruence|].
    destruct (with_box_ok s c over show (fst (hf_at o (s_I s) j l sq w b (span_of s l j) f)) (snd (hf_at o (s_I s) j l sq w b (span_of s l j) f)) o) as [bx [Ex Hx]].
    exists bx. split; [|exact Hx]. rewrite <- Ex. unfold hflevel_row. pose proof (manifold_F s n a j f c Fc) as Hm.
    rewrite (bind_Ok _ _ _ _ _ _ (process_ok s c lc j a l o sq w b Vc Ac Jc Hm V K Hq Hr)).
    rewrite (bind_Ok _ _ _ _ _ _ Hm). rewrite (bind_Ok _ _ _ _ _ _ (spread_ok s a l n j bs W V Rd)).
    rewrite (bind_Ok _ (F_of c) _ s f s) by (unfold F_of, bind, get_lv, asks; now rewrite Vc, Ec).
    replace (2 * g_squeeze (geo_of o j (l_E l) sq w b) + 1 =? 0)%Z with false by (symmetry; apply Z.eqb_neq; lia).
    rewrite (bind_Ok _ _ _ _ _ _ (shift_F s a l n j f c V Fc)). reflexivity.
  Qed.

  Lemma zlevel_ok : forall s a l n n' j bs f c m d ld show o sq w b, WF s -> lv s a = Some l -> ready s a n j bs ->
    is_F Exact s n a j f c -> is_mF Exact s n' c j f m d -> lv s d = Some ld ->
    sq_of o j (s_I s) = Some sq -> ratios_of o w b -> sq <> 0%Z -> sq <> 1%Z ->
    let ps := z_at o (s_I s) j l sq w b (span_of s l j) f m (z_shift Exact muB (l_gF ld) m (s_B s) (l_qz ld)) in
    exists bx, zlevel_row muB d show o s = (Ok (mkRow d show (fst ps) (snd ps) bx (o_bbox o)), s) /\ bbox [fst ps; snd ps] (o_pad o) = Ok bx.
  Proof.
    intros s a l n n' j bs f c m d ld show o sq w b W V Rd Fc Md Vd Hq Hr H0 H1 ps. pose proof Rd as [_ [[l' [V' [K [A [Ej _]]]]] _]]. assert (l' = l) by congruence. subst l'.
    pose proof Md as [ld' [Vd' [Kd [Pd [Jd [Fd [Ed _]]]]]]]. assert (ld' = ld) by congruence. subst ld'.
    destruct (wf_parent _ _ _ _ W Vd) as [Ad _]; [congruence|].
    destruct (with_box_ok s d None show (fst ps) (snd ps) o) as [bx [Ex Hx]]. exists bx. split; [|exact Hx]. rewrite <- Ex. unfold zlevel_row.
    pose proof (manifold_Z s n n' a j f c m d Fc Md) as Hm.
    rewrite (bind_Ok _ _ _ _ _ _ (process_ok s d ld j a l o sq w b Vd Ad Jd Hm V K Hq Hr)). cbn [g_squeeze geo_of].
    replace (sq =? 0)%Z with false by (symmetry; now apply Z.eqb_neq). replace (sq - 1 =? 0)%Z with false by (symmetry; apply Z.eqb_neq; lia).
    rewrite (bind_Ok _ _ _ _ _ _ Hm). rewrite (bind_Ok _ _ _ _ _ _ (spread_ok s a l n j bs W V Rd)).
    rewrite (bind_Ok _ (get_lv d) _ s ld s) by (unfold get_lv, asks; now rewrite Vd).
    rewrite (bind_Ok _ (F_of d) _ s f s) by (unfold F_of, bind, get_lv, asks; now rewrite Vd, Fd).
    rewrite (bind_Ok _ (asks Dangling (fun _ => l_parent ld)) _ s c s) by (unfold asks; now rewrite Pd).
    rewrite (bind_Ok _ _ _ _ _ _ (shift_F s a l n j f c V Fc)). rewrite (bind_Ok _ _ _ _ _ _ (shift_Z s n' c j f m d ld Md Vd)).
    rewrite (bind_Ok _ (asks Dangling (fun _ => l_mF ld)) _ s m s) by (unfold asks; now rewrite Ed). reflexivity.
  Qed.

  Lemma level_row_ok : forall s a l j over show o sq w b, lv s a = Some l -> l_kind l = LE -> l_attached l = true -> l_J l = Some j ->
    sq_of o j (s_I s) = Some sq -> ratios_of o w b -> let g := geo_of o j (l_E l) sq w b in
    let p0 := (g_x0 g + g_x1 g - g_W g / qc 2, g_y0 g + g_y1 g) in let p1 := (g_x0 g + g_x1 g + g_W g / qc 2, g_y0 g + g_y1 g) in
    exists bx, level_row muB a over show o s = (Ok (mkRow a show p0 p1 bx (o_bbox o)), s) /\
      match over with Some x => bx = x | None => bbox [p0; p1] (o_pad o) = Ok bx end.
  Proof.
    intros s a l j over show o sq w b V K A Ej Hq Hr g p0 p1. destruct (with_box_ok s a over show p0 p1 o) as [bx [Ex Hx]]. exists bx. split; [|exact Hx].
    rewrite <- Ex. unfold level_row. rewrite (bind_Ok _ _ _ _ _ _ (process_ok s a l j a l o sq w b V A Ej (manifold_E s a l V K) V K Hq Hr)). reflexivity.
  Qed.

  (** ** Tables *)

  Lemma sq_no_bbox : forall o j i, sq_of (no_bbox o) j i = sq_of o j i.
  Proof. reflexivity. Qed.

  (** The row drawn for the hyperfine level [c]. *)
  Definition hf_drawn (o : opts) (i j : Z) l (sq : Z) (w b span : Qc) (f : Z) (c : nat) (r : row) : Prop :=
    r_level r = c /\ r_show r = true /\ r_bbox r = None /\
    r_p0 r = fst (hf_at o i j l sq w b span f) /\ r_p1 r = snd (hf_at o i j l sq w b span f) /\ bbox [r_p0 r; r_p1 r] (o_pad o) = Ok (r_box r).

  Lemma mapM_rows (P : Z -> nat -> Prop) (Q : Z -> nat -> row -> Prop) : forall (f : nat -> M row) s fs bs, Forall2 P fs bs ->
    (forall z c, P z c -> exists r, f c s = (Ok r, s) /\ r_level r = c /\ Q z c r) ->
    exists rs, mapM f bs s = (Ok rs, s) /\ map r_level rs = bs /\ Forall2 (fun z r => P z (r_level r) /\ Q z (r_level r) r) fs rs.
  Proof.
    intros f s fs bs F H. induction F as [|z c fs bs Hz F IH].
    - exists []. split; [reflexivity|]. split; [reflexivity|constructor].
    - destruct (H z c Hz) as [r [E [Er Qr]]]. destruct IH as [rs [Es [Em Fr]]]. exists (r :: rs). split.
      + cbn [mapM]. rewrite (bind_Ok _ _ _ _ _ _ E), (bind_Ok _ _ _ _ _ _ Es). reflexivity.
      + split; [cbn [map]; congruence|]. constructor; auto. rewrite Er. auto.
  Qed.

  (** What reading leaves in place. *)
  Lemma same_level : forall s s' a l, lookl s s' -> lv s a = Some l -> exists l', lv s' a = Some l' /\ s_I s' = s_I s /\ s_B s' = s_B s /\
    l_kind l' = l_kind l /\ l_attached l' = l_attached l /\ l_J l' = l_J l /\ l_E l' = l_E l /\ l_hfA l' = l_hfA l /\ l_hfB l' = l_hfB l /\ l_hfC l' = l_hfC l /\
    l_gF l' = l_gF l /\ l_qz l' = l_qz l /\ lname l' = lname l.
  Proof.
    intros s s' a l L V. destruct (fr_lv _ _ _ (lo_frame _ _ _ (proj1 L)) _ _ V) as [l' [V' E']]. exists l'. split; auto.
    split; [apply L|]. split; [apply L|]. rewrite E'. auto 15.
  Qed.

  Lemma hf_table_ok : forall s a l j o sq w b, WF s -> lv s a = Some l -> l_kind l = LE -> l_attached l = true -> l_J l = Some j ->
    sq_of o j (s_I s) = Some sq -> ratios_of o w b ->
    exists rs r s', hf_table muB a o s = (Ok (rs ++ [r]), s') /\ WF s' /\ lookl s s' /\ sublevels Exact a s = (Ok (map r_level rs), s') /\
      Forall2 (fun f r => is_F Exact s' (lname l) a j f (r_level r) /\ hf_drawn o (s_I s) j l sq w b (span_of s l j) f (r_level r) r) (F_range j (s_I s)) rs /\
      r_level r = a /\ r_show r = false /\ r_bbox r = o_bbox o /\ outer rs = Ok (r_box r).
  Proof.
    intros s a l j o sq w b W V K A Ej Hq Hr.
    destruct (sublevels_F Exact s a l j W V K A Ej) as [bs [s' [E [W' [L' [F _]]]]]].
    pose proof (ready_from s a l j bs s' s' W V K A Ej E W' (po_refl _ _ (lookl_po Exact) s')) as Rd.
    destruct (same_level s s' a l L' V) as [l' [V' [Ei [_ [K' [A' [J' [EE [EA [EB [EC _]]]]]]]]]]].
    assert (Sp : span_of s' l' j = span_of s l j) by (unfold span_of; congruence).
    assert (Hat : forall f, hf_at (no_bbox o) (s_I s') j l' sq w b (span_of s' l' j) f = hf_at o (s_I s) j l sq w b (span_of s l j) f).
    { intros f. unfold hf_at. rewrite Sp, Ei, EE, EA, EB, EC. reflexivity. }
    assert (FF : Forall2 (fun f c => is_F Exact s' (lname l) a j f c) (F_range j (s_I s)) bs) by (eapply Forall2_imp; [|exact F]; cbv beta; intros ? ? HH; exact (proj2 HH)).
    destruct (mapM_rows (fun f c => is_F Exact s' (lname l) a j f c) (fun f c r => hf_drawn o (s_I s) j l sq w b (span_of s l j) f c r)
      (fun c => hflevel_row muB c None true (no_bbox o)) s' _ _ FF) as [rs [Er [Em Fr]]].
    { intros f c Fc. destruct (hflevel_ok s' a l' (lname l) j bs f c None true (no_bbox o) sq w b W' V' Rd Fc) as [bx [E1 E2]]; auto.
      { rewrite sq_no_bbox, Ei. exact Hq. }
      eexists. split; [exact E1|]. split; [reflexivity|]. unfold hf_drawn. cbn [r_level r_show r_bbox r_p0 r_p1 r_box]. rewrite Hat in *. auto 10. }
    assert (Ne : rs <> []).
    { intros ->. destruct (wf_J _ _ _ _ W V) as [j' [Ej' Hj]]. assert (j' = j) by congruence. subst j'.
      destruct (F_range_head j (s_I s) Hj (wf_I _ _ W)) as [r Er']. rewrite Er' in Fr. inversion Fr. }
    destruct (bbox_ok (points rs) (qc (1 # 20))) as [x Ex]. { destruct rs; [congruence|discriminate]. }
    destruct (level_row_ok s' a l' j (Some x) false o sq w b V') as [bx [E1 ->]]; try congruence.
    eexists rs, _, s'. split; [|split; [exact W'|split; [exact L'|split; [rewrite Em; exact E|split; [exact Fr|]]]]].
    - unfold hf_table. rewrite (bind_Ok _ (get_lv a) _ s l s) by (unfold get_lv, asks; now rewrite V). rewrite K.
      rewrite (bind_Ok _ _ _ _ _ _ E), (bind_Ok _ _ _ _ _ _ Er).
      rewrite (bind_Ok _ (of_res (outer rs)) _ s' x s') by (unfold of_res, outer; now rewrite Ex).
      rewrite (bind_Ok _ _ _ _ _ _ E1). reflexivity.
    - cbn [r_level r_show r_bbox r_box]. auto.
  Qed.

  (** The row drawn for the Zeeman level of a row. *)
  Definition z_drawn (o : opts) (i : Z) (B : Qc) (j : Z) l (sq : Z) (w b span : Qc) (f k : Z) lc (r : row) : Prop :=
    let ps := z_at o i j l sq w b span f k (z_shift Exact muB (l_gF lc) k B (l_qz lc)) in
    r_show r = true /\ r_bbox r = None /\ r_p0 r = fst ps /\ r_p1 r = snd ps /\ bbox [r_p0 r; r_p1 r] (o_pad o) = Ok (r_box r).

  Lemma z_table_hf_ok : forall s a l n j bs f c o sq w b, WF s -> lv s a = Some l -> ready s a n j bs -> is_F Exact s n a j f c ->
    sq_of o j (s_I s) = Some sq -> ratios_of o w b -> sq <> 0%Z -> sq <> 1%Z ->
    exists rs r s', z_table_hf muB c o s = (Ok (rs ++ [r]), s') /\ WF s' /\ lookl s s' /\ sublevels Exact c s = (Ok (map r_level rs), s') /\
      Forall2 (fun m r => is_mF Exact s' (n ++ " F=" ++ half_label f) c j f m (r_level r) /\
        exists lc, lv s' (r_level r) = Some lc /\ z_drawn o (s_I s) (s_B s) j l sq w b (span_of s l j) f m lc r) (mF_range f) rs /\
      r_level r = c /\ r_show r = false /\ r_bbox r = o_bbox o /\ outer rs = Ok (r_box r) /\
      r_p0 r = fst (hf_at o (s_I s) j l sq w b (span_of s l j) f) /\ r_p1 r = snd (hf_at o (s_I s) j l sq w b (span_of s l j) f).
  Proof.
    intros s a l n j bs f c o sq w b W V Rd Fc Hq Hr H0 H1. pose proof Fc as [lc [Vc [Kc [Pc [Jc [Ec [_ Nc]]]]]]].
    destruct (sublevels_mF Exact s c lc j f W Vc Kc Jc Ec) as [ds [s' [E [W' [L' [F _]]]]]]. rewrite Nc in F.
    pose proof (ready_look s a n j bs s' W Rd W' L') as Rd'. pose proof (is_F_look _ _ _ _ _ _ _ _ L' Fc) as Fc'.
    destruct (same_level s s' a l L' V) as [l' [V' [Ei [Eb [K' [A' [J' [EE [EA [EB [EC _]]]]]]]]]]].
    assert (Sp : span_of s' l' j = span_of s l j) by (unfold span_of; congruence).
    assert (Hat : forall o' f, hf_at o' (s_I s') j l' sq w b (span_of s' l' j) f = hf_at o' (s_I s) j l sq w b (span_of s l j) f).
    { intros o' f'. unfold hf_at. rewrite Sp, Ei, EE, EA, EB, EC. reflexivity. }
    assert (Zat : forall f k v, z_at (no_bbox o) (s_I s') j l' sq w b (span_of s' l' j) f k v = z_at o (s_I s) j l sq w b (span_of s l j) f k v).
    { intros f' k v. unfold z_at. rewrite Sp, Ei, EE, EA, EB, EC. reflexivity. }
    assert (FF : Forall2 (fun m d => is_mF Exact s' (n ++ " F=" ++ half_label f) c j f m d) (mF_range f) ds) by (eapply Forall2_imp; [|exact F]; cbv beta; intros ? ? HH; exact (proj2 HH)).
    destruct (mapM_rows (fun m d => is_mF Exact s' (n ++ " F=" ++ half_label f) c j f m d)
      (fun m d r => exists lc, lv s' d = Some lc /\ z_drawn o (s_I s) (s_B s) j l sq w b (span_of s l j) f m lc r)
      (fun c => zlevel_row muB c true (no_bbox o)) s' _ _ FF) as [rs [Er [Em Fr]]].
    { intros m d Md. pose proof Md as [ld [Vd _]].
      destruct (zlevel_ok s' a l' n _ j bs f c m d ld true (no_bbox o) sq w b W' V' Rd' Fc' Md Vd) as [bx [E1 E2]]; auto.
      { rewrite sq_no_bbox, Ei. exact Hq. }
      eexists. split; [exact E1|]. split; [reflexivity|]. exists ld. split; auto. unfold z_drawn. cbn [r_level r_show r_bbox r_p0 r_p1 r_box].
      rewrite Zat in *. rewrite Eb in *. auto 10. }
    assert (Ne : rs <> []).
    { intros ->. destruct (wf_F _ _ _ _ W Vc) as [j' [f' [_ [Ef' [_ Hf]]]]]; [congruence|]. assert (f' = f) by congruence. subst f'.
      inversion Fr as [Eq|]. symmetry in Eq. pose proof (mF_range_length f Hf) as Ln. rewrite Eq in Ln. simpl in Ln. lia. }
    destruct (bbox_ok (points rs) (qc (1 # 20))) as [x Ex]. { destruct rs; [congruence|discriminate]. }
    destruct (hflevel_ok s' a l' n j bs f c (Some x) false o sq w b W' V' Rd' Fc') as [bx [E1 ->]]; auto; try congruence.
    eexists rs, _, s'. split; [|split; [exact W'|split; [exact L'|split; [rewrite Em; exact E|split; [exact Fr|]]]]].
    - unfold z_table_hf. rewrite (bind_Ok _ _ _ _ _ _ E), (bind_Ok _ _ _ _ _ _ Er).
      rewrite (bind_Ok _ (of_res (outer rs)) _ s' x s') by (unfold of_res, outer; now rewrite Ex).
      rewrite (bind_Ok _ _ _ _ _ _ E1). reflexivity.
    - cbn [r_level r_show r_bbox r_box r_p0 r_p1]. rewrite Hat. auto 10.
  Qed.

  (** The rows drawn for the hyperfine level of doubled F [f]. *)
  Definition zblock s (n : string) (a : nat) (o : opts) (i : Z) (B : Qc) (j : Z) l (sq : Z) (w b span : Qc) (f : Z) (t : list row) : Prop :=
    exists rs r, t = rs ++ [r] /\ is_F Exact s n a j f (r_level r) /\
      Forall2 (fun m r' => is_mF Exact s (n ++ " F=" ++ half_label f) (r_level r) j f m (r_level r') /\
        exists lc, lv s (r_level r') = Some lc /\ z_drawn o i B j l sq w b span f m lc r') (mF_range f) rs /\
      r_show r = false /\ r_bbox r = None /\ outer rs = Ok (r_box r) /\
      r_p0 r = fst (hf_at o i j l sq w b span f) /\ r_p1 r = snd (hf_at o i j l sq w b span f).

  Lemma is_mF_look' : forall s s' n b j f m c, lookl s s' -> is_mF Exact s n b j f m c -> is_mF Exact s' n b j f m c.
  Proof. intros s s' n b j f m c. apply is_mF_look. Qed.

  Lemma zblock_look : forall s s' n a o i B j l sq w b span f t, lookl s s' -> zblock s n a o i B j l sq w b span f t -> zblock s' n a o i B j l sq w b span f t.
  Proof.
    intros s s' n a o i B j l sq w b span f t L [rs [r [E [Fr [F H]]]]]. exists rs, r. split; auto. split; [eapply is_F_look; eauto|]. split; [|exact H].
    eapply Forall2_imp; [|exact F]. cbv beta. intros m r' [H1 [lc [H2 H3]]]. split; [eapply is_mF_look'; eauto|].
    destruct (same_level s s' _ _ L H2) as [lc' [V' [_ [_ [_ [_ [_ [_ [_ [_ [_ [G [Q _]]]]]]]]]]]]]. exists lc'. split; auto.
    unfold z_drawn in *. rewrite G, Q. exact H3.
  Qed.

  Lemma z_blocks : forall a l j o sq w b i B n, sq_of o j i = Some sq -> ratios_of o w b -> sq <> 0%Z -> sq <> 1%Z -> o_bbox o = None ->
    forall fs bs, forall s l' bs0, WF s -> lv s a = Some l' -> ready s a n j bs0 -> s_I s = i -> s_B s = B ->
      l_E l' = l_E l -> l_hfA l' = l_hfA l -> l_hfB l' = l_hfB l -> l_hfC l' = l_hfC l ->
      Forall2 (fun f c => is_F Exact s n a j f c) fs bs ->
    exists ts s', mapM (fun c => z_table_hf muB c o) bs s = (Ok ts, s') /\ WF s' /\ lookl s s' /\
      Forall2 (zblock s' n a o i B j l sq w b (Qc_abs (hf_shift Exact i j (j + i) (l_hfA l) (l_hfB l) (l_hfC l) -
        hf_shift Exact i j (Z.abs (j - i)) (l_hfA l) (l_hfB l) (l_hfC l)))) fs ts.
  Proof.
    intros a l j o sq w b i B n Hq Hr H0 H1 Hb fs bs. revert fs. induction bs as [|c bs IH]; intros fs s l' bs0 W V Rd Ei Eb EE EA EB EC F.
    - inversion F. exists [], s. split; [reflexivity|]. split; auto. split; [apply lookl_po|]. constructor.
    - inversion F as [|f c' fs' bs' Fc F']. subst fs c' bs'.
      destruct (z_table_hf_ok s a l' n j bs0 f c o sq w b W V Rd Fc) as [rs [r [s1 [E1 [W1 [L1 [S1 [Fm [Er [Sh [Bb [Ou [P0 P1]]]]]]]]]]]]]; auto; try congruence.
      destruct (same_level s s1 a l' L1 V) as [l1 [V1 [Ei1 [Eb1 [_ [_ [_ [EE1 [EA1 [EB1 [EC1 _]]]]]]]]]]].
      destruct (IH fs' s1 l1 bs0) as [ts [s2 [E2 [W2 [L2 F2]]]]]; auto; try congruence.
      { exact (ready_look s a n j bs0 s1 W Rd W1 L1). }
      { eapply Forall2_imp; [|exact F']. intros f' c'. cbv beta. now apply is_F_look. }
      exists ((rs ++ [r]) :: ts), s2. split. { cbn [mapM]. rewrite (bind_Ok _ _ _ _ _ _ E1), (bind_Ok _ _ _ _ _ _ E2). reflexivity. }
      split; auto. split; [eapply lookl_po; eauto|]. constructor; auto. apply (zblock_look s1); auto.
      exists rs, r. split; auto. rewrite Er. split; [eapply is_F_look; eauto|].
      assert (HZ : forall m lc, z_drawn o (s_I s) (s_B s) j l' sq w b (span_of s l' j) f m lc = z_drawn o i B j l sq w b (Qc_abs (hf_shift Exact i j (j + i) (l_hfA l) (l_hfB l) (l_hfC l) -
        hf_shift Exact i j (Z.abs (j - i)) (l_hfA l) (l_hfB l) (l_hfC l))) f m lc).
      { intros m lc. unfold z_drawn, z_at, span_of. rewrite EE, EA, EB, EC, Ei, Eb. reflexivity. }
      split.
      { eapply Forall2_imp; [|exact Fm]. cbv beta. intros m r' [G1 [lc [G2 G3]]]. split; auto. exists lc. split; auto. now rewrite <- HZ. }
      split; auto. split; [congruence|]. split; auto. rewrite P0, P1. unfold hf_at, span_of. rewrite EE, EA, EB, EC, Ei. auto.
  Qed.

  Lemma outer_ok : forall rs, rs <> [] -> exists x, outer rs = Ok x.
  Proof. intros rs H. apply bbox_ok. destruct rs; [congruence|discriminate]. Qed.

  Lemma z_table_ok : forall s a l j o sq w b, WF s -> lv s a = Some l -> l_kind l = LE -> l_attached l = true -> l_J l = Some j ->
    sq_of o j (s_I s) = Some sq -> ratios_of o w b -> sq <> 0%Z -> sq <> 1%Z ->
    exists ts r s', z_table muB a o s = (Ok (List.concat ts ++ [r]), s') /\ WF s' /\ lookl s s' /\
      Forall2 (zblock s' (lname l) a o (s_I s) (s_B s) j l sq w b (span_of s l j)) (F_range j (s_I s)) ts /\
      r_level r = a /\ r_show r = false /\ r_bbox r = o_bbox o /\ outer (List.concat ts) = Ok (r_box r).
  Proof.
    intros s a l j o sq w b W V K A Ej Hq Hr H0 H1.
    destruct (sublevels_F Exact s a l j W V K A Ej) as [bs [s1 [E [W1 [L1 [F _]]]]]].
    pose proof (ready_from s a l j bs s1 s1 W V K A Ej E W1 (po_refl _ _ (lookl_po Exact) s1)) as Rd.
    destruct (same_level s s1 a l L1 V) as [l1 [V1 [Ei [Eb [K1 [A1 [J1 [EE [EA [EB [EC _]]]]]]]]]]].
    destruct (z_blocks a l j (no_bbox o) sq w b (s_I s) (s_B s) (lname l) Hq Hr H0 H1 eq_refl (F_range j (s_I s)) bs s1 l1 bs W1 V1 Rd) as [ts [s2 [E2 [W2 [L2 F2]]]]]; auto.
    { eapply Forall2_imp; [|exact F]. cbv beta. intros ? ? HH. exact (proj2 HH). }
    destruct (same_level s1 s2 a l1 L2 V1) as [l2 [V2 [Ei2 [Eb2 [K2 [A2 [J2 _]]]]]]].
    assert (Ne : List.concat ts <> []).
    { destruct (wf_J _ _ _ _ W V) as [j' [Ej' Hj]]. assert (j' = j) by congruence. subst j'.
      destruct (F_range_head j (s_I s) Hj (wf_I _ _ W)) as [r Er']. rewrite Er' in F2. inversion F2 as [|? ? ? ? [rs [r' [-> _]]]]. cbn [List.concat].
      destruct rs; discriminate. }
    destruct (outer_ok _ Ne) as [x Ex].
    destruct (level_row_ok s2 a l2 j (Some x) false o sq w b V2) as [bx [E3 ->]]; try congruence.
    eexists ts, _, s2. split; [|split; [exact W2|split; [eapply lookl_po; eauto|split; [exact F2|]]]].
    - unfold z_table. rewrite (bind_Ok _ (get_lv a) _ s l s) by (unfold get_lv, asks; now rewrite V). rewrite K.
      rewrite (bind_Ok _ _ _ _ _ _ E), (bind_Ok _ _ _ _ _ _ E2). cbv zeta.
      rewrite (bind_Ok _ (of_res (outer (List.concat ts))) _ s2 x s2) by (unfold of_res; now rewrite Ex).
      rewrite (bind_Ok _ _ _ _ _ _ E3). reflexivity.
    - cbn [r_level r_show r_bbox r_box]. auto.
  Qed.

  (** ** The lines of a table *)

  Definition zpairs (fs : list Z) : list (Z * Z) := flat_map (fun f => map (fun m => (f, m)) (mF_range f)) fs.
  Definition zrow s (n : string) (a : nat) (o : opts) (i : Z) (B : Qc) (j : Z) l (sq : Z) (w b span : Qc) (fm : Z * Z) (r : row) : Prop :=
    exists c lc, is_F Exact s n a j (fst fm) c /\ is_mF Exact s (n ++ " F=" ++ half_label (fst fm)) c j (fst fm) (snd fm) (r_level r) /\
      lv s (r_level r) = Some lc /\ z_drawn o i B j l sq w b span (fst fm) (snd fm) lc r.

  Lemma filter_all {A} (p : A -> bool) : forall (l : list A), (forall x, In x l -> p x = true) -> filter p l = l.
  Proof. intros l. induction l as [|x l IH]; intros H; cbn [filter]; auto. rewrite (H x (or_introl eq_refl)). f_equal. apply IH. intros; apply H; now right. Qed.
  Lemma filter_none {A} (p : A -> bool) : forall (l : list A), (forall x, In x l -> p x = false) -> filter p l = [].
  Proof. intros l. induction l as [|x l IH]; intros H; cbn [filter]; auto. rewrite (H x (or_introl eq_refl)). apply IH. intros; apply H; now right. Qed.

  Lemma zblocks_rows : forall s n a o i B j l sq w b span fs ts, Forall2 (zblock s n a o i B j l sq w b span) fs ts ->
    Forall2 (zrow s n a o i B j l sq w b span) (zpairs fs) (filter r_show (List.concat ts)) /\
    Forall2 (fun f r => is_F Exact s n a j f (r_level r)) fs (filter (fun r => negb (r_show r)) (List.concat ts)).
  Proof.
    intros s n a o i B j l sq w b span fs ts F. induction F as [|f t fs ts [rs [r [-> [Fr [Fm [Sh H]]]]]] F [IH1 IH2]].
    - split; constructor.
    - unfold zpairs. cbn [flat_map List.concat]. rewrite !filter_app. cbn [filter]. rewrite Sh. cbn [negb].
      assert (S1 : forall x, In x rs -> r_show x = true).
      { intros x Ix. destruct (Forall2_in_r _ _ _ Fm x Ix) as [m [_ [_ [lc [_ Hz]]]]]. apply Hz. }
      rewrite (filter_all r_show rs S1). rewrite (filter_none (fun r => negb (r_show r)) rs) by (intros x Ix; now rewrite (S1 x Ix)).
      rewrite app_nil_r. cbn [app]. split.
      + apply Forall2_app; [|exact IH1]. clear - Fm Fr. induction Fm as [|m r' ms rs [H1 [lc [H2 H3]]] Fm IH]; cbn [map]; constructor; auto.
        exists (r_level r), lc. auto.
      + constructor; auto.
  Qed.

  Lemma zpairs_In : forall fs f m, In (f, m) (zpairs fs) <-> In f fs /\ In m (mF_range f).
  Proof.
    intros fs f m. unfold zpairs. rewrite in_flat_map. split.
    - intros [f' [H1 H2]]. apply in_map_iff in H2 as [m' [E H2]]. injection E as -> ->. auto.
    - intros [H1 H2]. exists f. split; auto. apply in_map_iff. eauto.
  Qed.

  (** The lines of the Zeeman table of a gross level. *)
  Lemma z_lines : forall s a l j o sq w b, WF s -> lv s a = Some l -> l_kind l = LE -> l_attached l = true -> l_J l = Some j ->
    sq_of o j (s_I s) = Some sq -> ratios_of o w b -> sq <> 0%Z -> sq <> 1%Z ->
    exists rows s', z_table muB a o s = (Ok rows, s') /\ WF s' /\ lookl s s' /\
      Forall2 (zrow s' (lname l) a o (s_I s) (s_B s) j l sq w b (span_of s l j)) (zpairs (F_range j (s_I s))) (filter r_show rows).
  Proof.
    intros s a l j o sq w b W V K A Ej Hq Hr H0 H1. destruct (z_table_ok s a l j o sq w b W V K A Ej Hq Hr H0 H1) as [ts [r [s' [E [W' [L [F [_ [Sh _]]]]]]]]].
    exists (List.concat ts ++ [r]), s'. split; auto. split; auto. split; auto. rewrite filter_app. cbn [filter]. rewrite Sh, app_nil_r. now apply zblocks_rows.
  Qed.

  (** The lines of the hyperfine table of a gross level. *)
  Lemma hf_lines : forall s a l j o sq w b, WF s -> lv s a = Some l -> l_kind l = LE -> l_attached l = true -> l_J l = Some j ->
    sq_of o j (s_I s) = Some sq -> ratios_of o w b ->
    exists rows s', hf_table muB a o s = (Ok rows, s') /\ WF s' /\ lookl s s' /\
      Forall2 (fun f r => is_F Exact s' (lname l) a j f (r_level r) /\ hf_drawn o (s_I s) j l sq w b (span_of s l j) f (r_level r) r)
        (F_range j (s_I s)) (filter r_show rows).
  Proof.
    intros s a l j o sq w b W V K A Ej Hq Hr. destruct (hf_table_ok s a l j o sq w b W V K A Ej Hq Hr) as [rs [r [s' [E [W' [L [_ [F [_ [Sh _]]]]]]]]]].
    exists (rs ++ [r]), s'. split; auto. split; auto. split; auto. rewrite filter_app. cbn [filter]. rewrite Sh, app_nil_r.
    rewrite filter_all; auto. intros x Ix. destruct (Forall2_in_r _ _ _ F x Ix) as [f [_ [_ H]]]. apply H.
  Qed.

  (** One level of one line in a squeeze of 1. *)
  Lemma zlevel_single : forall s a l n n' j f c m d o w b show, WF s -> lv s a = Some l -> l_kind l = LE ->
    is_F Exact s n a j f c -> is_mF Exact s n' c j f m d -> sq_of o j (s_I s) = Some 1%Z -> ratios_of o w b ->
    zlevel_row muB d show o s = (Raise ZeroDivisionError, s).
  Proof.
    intros s a l n n' j f c m d o w b show W V K Fc Md Hq Hr. pose proof Md as [ld [Vd [Kd [Pd [Jd [Fd [Ed _]]]]]]].
    destruct (wf_parent _ _ _ _ W Vd) as [Ad _]; [congruence|]. unfold zlevel_row. pose proof (manifold_Z s n n' a j f c m d Fc Md) as Hm.
    rewrite (bind_Ok _ _ _ _ _ _ (process_ok s d ld j a l o 1%Z w b Vd Ad Jd Hm V K Hq Hr)). cbn [g_squeeze geo_of]. reflexivity.
  Qed.

  Lemma bind_Raise {A B} : forall (m : M A) (f : A -> M B) s e s', m s = (Raise e, s') -> bind m f s = (Raise e, s').
  Proof. intros m f s e s' H. unfold bind. now rewrite H. Qed.

  Lemma z_table_single : forall s a l j o w b, WF s -> lv s a = Some l -> l_kind l = LE -> l_attached l = true -> l_J l = Some j ->
    sq_of o j (s_I s) = Some 1%Z -> ratios_of o w b -> exists s', z_table muB a o s = (Raise ZeroDivisionError, s').
  Proof.
    intros s a l j o w b W V K A Ej Hq Hr.
    destruct (sublevels_F Exact s a l j W V K A Ej) as [bs [s1 [E [W1 [L1 [F _]]]]]].
    destruct (same_level s s1 a l L1 V) as [l1 [V1 [Ei [Eb [K1 [A1 [J1 _]]]]]]].
    destruct (wf_J _ _ _ _ W V) as [j' [Ej' Hj]]. assert (j' = j) by congruence. subst j'.
    destruct (F_range_head j (s_I s) Hj (wf_I _ _ W)) as [r Er']. rewrite Er' in F. inversion F as [|f c fs' bs' [_ Fc] F' E1 E2]. subst f fs' bs.
    pose proof Fc as [lc [Vc [Kc [Pc [Jc [Ec [_ Nc]]]]]]].
    destruct (sublevels_mF Exact s1 c lc j _ W1 Vc Kc Jc Ec) as [ds [s2 [E2 [W2 [L2 [F2 _]]]]]].
    destruct (same_level s1 s2 a l1 L2 V1) as [l2 [V2 [Ei2 [_ [K2 _]]]]].
    inversion F2 as [Eq|m d ms ds' [_ Md] F2' Eq1 Eq2].
    { exfalso. symmetry in Eq. pose proof (mF_range_length (Z.abs (j - s_I s)) ltac:(lia)) as Ln. rewrite Eq in Ln. simpl in Ln. lia. }
    subst ds. exists s2. unfold z_table. rewrite (bind_Ok _ (get_lv a) _ s l s) by (unfold get_lv, asks; now rewrite V). rewrite K.
    rewrite (bind_Ok _ _ _ _ _ _ E). apply bind_Raise. cbn [mapM]. apply bind_Raise. unfold z_table_hf. rewrite (bind_Ok _ _ _ _ _ _ E2).
    apply bind_Raise. cbn [mapM]. apply bind_Raise.
    eapply (zlevel_single s2 a l2); eauto; try congruence.
    - eapply is_F_look; eauto.
    - rewrite sq_no_bbox. rewrite sq_no_bbox. congruence.
  Qed.
End Tables.

(** ** Names of spacings *)

Definition spaced (o : opts) (b : Qc) : Prop :=
  o_spacing o = Named "realistic" /\ b = 1 \/ o_spacing o = Named "schematic" /\ b = 0 \/ o_spacing o = Value b /\ 0 <= b <= 1.
Definition widths (o : opts) (w : Qc) : Prop :=
  o_sub o = Named "degeneracy" /\ w = 1 \/ o_sub o = Named "schematic" /\ w = 0 \/ o_sub o = Value w /\ 0 <= w <= 1.

Lemma as_ratio_value : forall x y q, 0 <= q <= 1 -> as_ratio x y (Value q) = Ok q.
Proof.
  intros x y q [H0 H1]. unfold as_ratio. apply Qc_ltb_ge in H0, H1. now rewrite H0, H1.
Qed.
Lemma ratios_known : forall o w b, spaced o b -> widths o w -> ratios_of o w b.
Proof.
  intros o w b [[E ->]|[[E ->]|[E H]]] [[E' ->]|[[E' ->]|[E' H']]]; split; rewrite ?E, ?E'; try reflexivity; now apply as_ratio_value.
Qed.
