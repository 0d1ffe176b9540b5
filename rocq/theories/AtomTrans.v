(** Transitions: lookup and the lists of subtransitions (C29-C35). *)
From Coq Require Import List Bool ZArith QArith Qcanon Lia String Ascii Permutation Sorted.
From Verif Require Import Base PyStr Util UtilProofs Parse Term TermProofs Num Wigner Hyperfine HyperfineProofs
  Graph GraphProofs DfsProofs Rules RulesProofs Atom AtomInv AtomSafe AtomSafe2 AtomSafe3 AtomSafe4 AtomSafe5 AtomSafe6 AtomLevels AtomKeep AtomPaths.
Import ListNotations.

Section Trans.
  Context (N : Num) (muB : N).
  Notation st := (st N).
  Notation level := (level N).
  Notation trans := (trans N).
  Implicit Types (s : st) (l : level) (x y : trans) (a t : nat).
  Notation energy := (energy N muB).

  (** ** C29, C30: lookup in the atom *)

  Lemma get_node : forall s n a, dget n (s_lal s) = None -> has_char "=" n = false -> dget n (node_attrs (s_g0 s)) = Some a ->
    levels_get N n s = (Ok a, s).
  Proof. intros s n a A E D. rewrite get_plain by auto. now rewrite D. Qed.

  Lemma trans_get_plain : forall s n m a b ea eb, WF s ->
    has_char "=" n = false -> has_char "=" m = false ->
    dget n (s_lal s) = None -> dget m (s_lal s) = None ->
    dget n (node_attrs (s_g0 s)) = Some a -> dget m (node_attrs (s_g0 s)) = Some b ->
    energy s a = Some ea -> energy s b = Some eb ->
    transitions_get N muB (KS n, KS m) s =
    (let k := if nltb N eb ea then (m, n) else (n, m) in
     match (if beforeb (fst k) (snd k) (dkeys (g_nodes (s_g0 s))) then edge (s_g0 s) n m else None) with
     | Some t => Ok t | None => Raise KeyError end, s).
  Proof.
    intros s n m a b ea eb W En Em An Am Dn Dm Ea Eb. unfold transitions_get. cbn [fst snd levels_get_key].
    erewrite bind_Ok by (apply get_node; eauto). rewrite (bind_asks _ _ _ _ _ ea) by auto.
    erewrite bind_Ok by (apply get_node; eauto). rewrite (bind_asks _ _ _ _ _ eb) by auto.
    rewrite !no_eq_contains by auto.
    assert (S : edge (s_g0 s) m n = edge (s_g0 s) n m).
    { pose proof (gw_sym _ (go_wf _ _ _ _ (wf_g _ _ W LE))) as Y. cbn [graph_of] in Y.
      destruct (edge (s_g0 s) n m) eqn:E1; [now apply Y|]. destruct (edge (s_g0 s) m n) eqn:E2; auto. apply Y in E2. congruence. }
    assert (G : graph_wf (s_g0 s)) by exact (go_wf _ _ _ _ (wf_g _ _ W LE)).
    destruct (nltb N eb ea); unfold edge_at, asks; cbn [fst snd]; rewrite edge_attrs_get by auto; destruct (beforeb _ _ _); rewrite ?S;
      destruct (edge (s_g0 s) n m); reflexivity.
  Qed.

  Lemma get_key_pure : forall s k b s', levels_get_key N muB k s = (Ok b, s') -> WF s -> WF s' /\ look s s' /\ found s' b.
  Proof.
    intros s k b s' E W. destruct (safe_Ok _ _ _ _ _ _ _ (levels_get_key_safe N muB s k W) E) as [W' [L [F _]]]. destruct L. auto.
  Qed.

  Definition fails {A} (m : M N A) : Prop := forall s, exists e, fst (m s) = Raise e.
  Lemma fails_raise {A} : forall e, fails (@raise N A e).
  Proof. intros e s. exists e. reflexivity. Qed.
  Lemma fails_first {A B} : forall (m : M N A) (f : A -> M N B), fails m -> fails (bind m f).
  Proof. intros m f H s. unfold bind. destruct (H s) as [e E]. destruct (m s) as [[v|e'] s']; [discriminate E|]. eexists. reflexivity. Qed.
  Lemma fails_rest {A B} : forall (m : M N A) (f : A -> M N B), (forall v, fails (f v)) -> fails (bind m f).
  Proof. intros m f H s. unfold bind. destruct (m s) as [[v|e'] s']; [apply H|]. eexists. reflexivity. Qed.
  Lemma fails_asks {A} : forall e (f : st -> option A), (forall s, f s = None) -> fails (asks e f).
  Proof. intros e f H s. exists e. unfold asks. now rewrite H. Qed.

  Definition is_int (k : lkey) : Prop := match k with KI _ => True | KS _ => False end.
  Lemma rank_fails : forall k1 k2, is_int k1 \/ is_int k2 -> fails (transitions_get N muB (k1, k2)).
  Proof.
    intros k1 k2 H. unfold transitions_get. cbn [fst snd].
    apply fails_rest. intros a. apply fails_rest. intros ea. apply fails_rest. intros b. apply fails_rest. intros eb.
    destruct k1 as [k|i]; [|apply fails_raise]. destruct k2 as [k'|i]; [destruct H as [[]|[]]|].
    destruct (nltb N eb ea); destruct (contains "mF=" k); [| | | ].
    - apply fails_first, fails_asks. reflexivity.
    - destruct (contains "mJ=" k); [apply fails_first, fails_asks; reflexivity|].
      destruct (contains "F=" k); [apply fails_first, fails_asks; reflexivity|apply fails_raise].
    - do 2 (apply fails_rest; intros ?). apply fails_first, fails_asks. reflexivity.
    - destruct (contains "mJ=" k); [do 2 (apply fails_rest; intros ?); apply fails_first, fails_asks; reflexivity|].
      destruct (contains "F=" k); [do 2 (apply fails_rest; intros ?); apply fails_first, fails_asks; reflexivity|apply fails_raise].
  Qed.
  Lemma ranks_TypeError : forall s i j a b, WF s -> levels_get_int N muB i s = (Ok a, s) -> levels_get_int N muB j s = (Ok b, s) ->
    transitions_get N muB (KI i, KI j) s = (Raise TypeError, s).
  Proof.
    intros s i j a b W A B. unfold transitions_get. cbn [fst snd levels_get_key].
    destruct (get_key_pure s (KI i) _ _ A W) as [_ [_ [la [Va _]]]]. destruct (get_key_pure s (KI j) _ _ B W) as [_ [_ [lb [Vb _]]]].
    destruct (wf_energy N muB _ _ _ W Va) as [ea Ea]. destruct (wf_energy N muB _ _ _ W Vb) as [eb Eb].
    erewrite bind_Ok by eauto. rewrite (bind_asks _ _ _ _ _ ea) by auto.
    erewrite bind_Ok by eauto. rewrite (bind_asks _ _ _ _ _ eb) by auto. reflexivity.
  Qed.

  (** ** C31: lookup in a transition *)

  Lemma tr_getitem_eq : forall s t x k cs s', WF s -> tr s t = Some x -> subtransitions N muB t s = (Ok cs, s') ->
    exists x', tr s' t = Some x' /\ cs = dvals (x_subs x') /\
    tr_getitem N muB t k s =
      (match dget (snd k, fst k) (x_subs x') with Some c => Ok c | None =>
       match dget k (x_subs x') with Some c => Ok c | None => Raise KeyError end end, s').
  Proof.
    intros s t x k cs s' W V E. unfold subtransitions in E. unfold tr_getitem, bind in *.
    pose proof (lazy_sub_safe N muB s t x W V) as [W1 [L _]].
    destruct (lazy_subtransitions N muB t s) as [[[]|e] s1] eqn:F; cbn [fst snd] in *; [|discriminate E].
    destruct (ext_tr _ _ _ (look_ext _ _ _ L) _ _ V) as [x1 [V1 _]].
    unfold get_tr, asks in *. rewrite V1 in *. unfold ret in *. injection E as <- <-. exists x1. repeat split; auto.
    destruct (dget (snd k, fst k) (x_subs x1)); auto. destruct (dget k (x_subs x1)); auto.
  Qed.

  (** A subtransition of the transition [x] at [t] between the sublevels named
      [lo] and [up], the one named first lying lower. *)
  Definition sub_between s t (lo up : string) (c : nat) : Prop :=
    exists y llo lup, tr s c = Some y /\ x_parent y = Some t /\ lv s (x_lo y) = Some llo /\ lv s (x_up y) = Some lup /\
      lshort llo = lo /\ lshort lup = up.

  Lemma subs_between : forall s t x lo up, WF s -> tr s t = Some x ->
    (forall c, dget (lo, up) (x_subs x) = Some c -> In c (dvals (x_subs x)) /\ sub_between s t lo up c) /\
    (dget (lo, up) (x_subs x) = None -> forall c, In c (dvals (x_subs x)) -> ~ sub_between s t lo up c).
  Proof.
    intros s t x lo up W V. destruct (wf_tsubs _ _ W _ _ V) as [ND S]. split.
    - intros c D. apply dget_In in D. split; [apply in_map_iff; exists ((lo, up), c); auto|].
      destruct (S _ _ D) as [y [llo [lup [H1 [H2 [_ [_ [_ [H3 [H4 H5]]]]]]]]]]. injection H5 as -> ->. exists y, llo, lup. repeat split; auto.
    - intros D c I [y [llo [lup [H1 [H2 [H3 [H4 [H5 H6]]]]]]]]. apply in_map_iff in I. destruct I as [[k c'] [E I]]. cbn in E. subst c'.
      destruct (S _ _ I) as [y' [llo' [lup' [G1 [G2 [_ [_ [_ [G3 [G4 G5]]]]]]]]]].
      assert (y' = y) by congruence. subst y'. assert (llo' = llo) by congruence. assert (lup' = lup) by congruence. subst.
      apply (In_dget_nodup _ _ _ ND) in I. congruence.
  Qed.

  Lemma tr_lookup : forall s t x k cs s', WF s -> tr s t = Some x -> subtransitions N muB t s = (Ok cs, s') ->
    (exists c, tr_getitem N muB t k s = (Ok c, s') /\ In c cs /\ sub_between s' t (snd k) (fst k) c) \/
    ((forall c, In c cs -> ~ sub_between s' t (snd k) (fst k) c) /\
     ((exists c, tr_getitem N muB t k s = (Ok c, s') /\ In c cs /\ sub_between s' t (fst k) (snd k) c) \/
      ((forall c, In c cs -> ~ sub_between s' t (fst k) (snd k) c) /\ tr_getitem N muB t k s = (Raise KeyError, s')))).
  Proof.
    intros s t x [k1 k2] cs s' W V E. destruct (tr_getitem_eq s t x (k1, k2) cs s' W V E) as [x' [V' [-> G]]]. cbn [fst snd] in *.
    assert (W' : WF s') by (destruct (safe_Ok _ _ _ _ _ _ _ (subtransitions_safe N muB s t x W V) E); auto).
    destruct (subs_between s' t x' k2 k1 W' V') as [A1 B1]. destruct (subs_between s' t x' k1 k2 W' V') as [A2 B2].
    destruct (dget (k2, k1) (x_subs x')) as [c|] eqn:D1.
    - left. exists c. destruct (A1 c eq_refl). auto.
    - right. split; [now apply B1|]. destruct (dget (k1, k2) (x_subs x')) as [c|] eqn:D2.
      + left. exists c. destruct (A2 c eq_refl). auto.
      + right. split; auto.
  Qed.

  (** ** C33: what is listed *)

  Lemma listed_ends : forall s t cs s' x, WF s -> subtransitions N muB t s = (Ok cs, s') -> tr s' t = Some x ->
    forall c, In c cs -> exists y l1 l2, tr s' c = Some y /\ x_parent y = Some t /\ x_kind x <> TZ /\ x_kind y = sub_tkind (x_kind x) /\
      lv s' (x_E1 y) = Some l1 /\ lv s' (x_E2 y) = Some l2 /\ l_parent l1 = Some (x_E1 x) /\ l_parent l2 = Some (x_E2 x) /\
      any_type (x_allowed y) = true /\ tr_static s' y.
  Proof.
    intros s t cs s' x W E V' c I.
    assert (Ht : exists x0, tr s t = Some x0).
    { unfold subtransitions, lazy_subtransitions, get_tr, bind, asks in E. destruct (tr s t); eauto. discriminate E. }
    destruct Ht as [x0 V0]. destruct (safe_Ok _ _ _ _ _ _ _ (subtransitions_safe N muB s t x0 W V0) E) as [W' [L [x' [V2 [-> _]]]]].
    assert (x' = x) by congruence. subst x'. apply in_map_iff in I. destruct I as [[k c'] [Ec I]]. cbn in Ec. subst c'.
    destruct (wf_tsubs _ _ W' _ _ V') as [_ S]. destruct (S _ _ I) as [y [lo [up [H1 [H2 [H3 [H4 [H5 _]]]]]]]].
    destruct (wf_tr _ _ W' _ _ H1) as [l1 [l2 [G1 [G2 [G3 [G4 [G5 [[G6 _]|[p [xp [P1 [P2 [P3 [P4 [P5 [P6 _]]]]]]]]]]]]]]]].
    { exfalso. rewrite G6 in H3. destruct (x_kind x); discriminate H3. }
    assert (p = t) by congruence. subst p. assert (xp = x) by congruence. subst xp.
    exists y, l1, l2. repeat (split; auto). exact (wf_tr _ _ W' _ _ H1).
  Qed.

  Lemma listed_HF : forall s t cs s' x, WF s -> subtransitions N muB t s = (Ok cs, s') -> tr s' t = Some x -> x_kind x = TT ->
    forall c, In c cs -> exists y l1 l2 j1 j2 f1 f2 k, tr s' c = Some y /\
      lv s' (x_E1 y) = Some l1 /\ lv s' (x_E2 y) = Some l2 /\ l_parent l1 = Some (x_E1 x) /\ l_parent l2 = Some (x_E2 x) /\
      l_J l1 = Some j1 /\ l_J l2 = Some j2 /\ l_F l1 = Some f1 /\ l_F l2 = Some f2 /\
      rank_allowed (x_allowed x) k /\ w6nz j1 j2 (2 * k) f2 f1 (s_I s') = true.
  Proof.
    intros s t cs s' x W E V' K c I. destruct (listed_ends _ _ _ _ _ W E V' c I) as [y [l1 [l2 [H1 [H2 [H3 [H4 [H5 [H6 [H7 [H8 [H9 S]]]]]]]]]]]].
    destruct S as [l1' [l2' [G1 [G2 [_ [_ [_ [[G _]|[p [xp [P1 [P2 [P3 [P4 [P5 [P6 Q]]]]]]]]]]]]]]]]; [rewrite K in H4; cbn in H4; congruence|].
    assert (l1' = l1) by congruence. assert (l2' = l2) by congruence. subst. assert (p = t) by congruence. subst p. assert (xp = x) by congruence. subst xp.
    destruct Q as [[_ [j1 [j2 [f1 [f2 [J1 [J2 [F1 [F2 A]]]]]]]]]|[Q _]]; [|rewrite K in H4; cbn in H4; congruence].
    rewrite A, allowed_HF_spec in H9. destruct H9 as [k [R Z]]. exists y, l1, l2, j1, j2, f1, f2, k. repeat (split; auto).
  Qed.

  Lemma listed_Z : forall s t cs s' x, WF s -> subtransitions N muB t s = (Ok cs, s') -> tr s' t = Some x -> x_kind x = THF ->
    forall c, In c cs -> exists y l1 l2 f1 f2 m1 m2 k h, tr s' c = Some y /\
      lv s' (x_E1 y) = Some l1 /\ lv s' (x_E2 y) = Some l2 /\ l_parent l1 = Some (x_E1 x) /\ l_parent l2 = Some (x_E2 x) /\
      l_F l1 = Some f1 /\ l_F l2 = Some f2 /\ l_mF l1 = Some m1 /\ l_mF l2 = Some m2 /\
      rank_allowed (x_allowed x) k /\ (- k <= h <= k)%Z /\ w3nz f2 (2 * k) f1 (- m2) (2 * h) m1 = true.
  Proof.
    intros s t cs s' x W E V' K c I. destruct (listed_ends _ _ _ _ _ W E V' c I) as [y [l1 [l2 [H1 [H2 [H3 [H4 [H5 [H6 [H7 [H8 [H9 S]]]]]]]]]]]].
    destruct S as [l1' [l2' [G1 [G2 [_ [_ [_ [[G _]|[p [xp [P1 [P2 [P3 [P4 [P5 [P6 Q]]]]]]]]]]]]]]]]; [rewrite K in H4; cbn in H4; congruence|].
    assert (l1' = l1) by congruence. assert (l2' = l2) by congruence. subst. assert (p = t) by congruence. subst p. assert (xp = x) by congruence. subst xp.
    destruct Q as [[Q _]|[_ [f1 [f2 [m1 [m2 [F1 [F2 [M1 [M2 A]]]]]]]]]]; [rewrite K in H4; cbn in H4; congruence|].
    rewrite A, allowed_Z_spec in H9. destruct H9 as [k [h [R [B Z]]]]. exists y, l1, l2, f1, f2, m1, m2, k, h. repeat (split; auto); lia.
  Qed.

  (** ** C34, C35: nothing is missing *)

  Lemma lshort_numbers : forall s a l, WF s -> lv s a = Some l -> l_kind l <> LE ->
    lshort l = match l_mF l with Some m => mF_key m | None => match l_F l with Some f => F_key f | None => ""%string end end.
  Proof.
    intros s a l W V K. destruct (wf_lead _ _ _ _ W V) as [tm [j [H1 [H2 [H3 H4]]]]].
    unfold lshort, l_mF, l_F. rewrite H1. unfold t_short_name. destruct (l_kind l); [congruence| |].
    - destruct H4 as [f [-> [_ [_ ->]]]]. reflexivity.
    - destruct H4 as [f [m [-> [_ [_ [-> _]]]]]]. reflexivity.
  Qed.
  Lemma lshort_child : forall s a l z b (lb : level), WF s -> lv s a = Some l -> l_kind l <> LZ -> child s a l z b -> lv s b = Some lb ->
    lshort lb = sub_key (l_kind l) z.
  Proof.
    intros s a l z b lb W V K C Vb. destruct (child_numbers _ _ _ _ _ _ _ W V C Vb) as [H _].
    rewrite (lshort_numbers s b lb W Vb).
    - destruct (l_kind l); try congruence; destruct H as [H1 H2]; rewrite ?H1, H2; reflexivity.
    - destruct C as [lb' [Vb' [Kb _]]]. assert (lb' = lb) by congruence. subst. rewrite Kb. destruct (l_kind l); discriminate.
  Qed.

  (** Sublevels of one level are told apart by their short names. *)
  Lemma short_inj : forall s a l b c (lb lc : level), WF s -> lv s a = Some l -> l_kind l <> LZ -> full s a l ->
    In b (dvals (l_subs l)) -> In c (dvals (l_subs l)) -> lv s b = Some lb -> lv s c = Some lc -> lshort lb = lshort lc -> b = c.
  Proof.
    intros s a l b c lb lc W V K F Ib Ic Vb Vc E.
    destruct (full_child _ _ _ _ _ F Ib) as [z [k [Z [I [-> C]]]]]. destruct (full_child _ _ _ _ _ F Ic) as [z' [k' [Z' [I' [-> C']]]]].
    rewrite (lshort_child _ _ _ _ _ _ W V K C Vb), (lshort_child _ _ _ _ _ _ W V K C' Vc) in E. apply sub_key_inj in E. subst z'.
    pose proof (full_nodup _ _ _ _ F) as ND. apply (In_dget_nodup _ _ _ ND) in I. apply (In_dget_nodup _ _ _ ND) in I'. congruence.
  Qed.

  Notation sub_rec := (sub_rec N muB).
  Notation fill := (fill N muB).
  Notation tkey := (tkey N).

  Lemma fill_keep : forall ps s t x n d k c, dget k d = Some c ->
    (forall ab y, In ab ps -> sub_rec s t x ab = Some y -> any_type (x_allowed y) = true -> tkey s y <> k) ->
    dget k (fill s t x n ps d) = Some c.
  Proof.
    induction ps as [|ab ps IH]; intros s t x n d k c D H; cbn [AtomSafe3.fill]; auto.
    apply IH; [|intros; eapply H; [right|..]; eauto]. destruct (sub_rec s t x ab) as [y|] eqn:E; auto.
    destruct (any_type (x_allowed y)) eqn:A; auto. rewrite dget_dset_neq; auto. intros X. eapply (H ab y); eauto; now left.
  Qed.
  Lemma fill_has : forall ps s t x n d i ab y, NoDup ps -> nth_error ps i = Some ab -> sub_rec s t x ab = Some y -> any_type (x_allowed y) = true ->
    (forall ab' y', In ab' ps -> sub_rec s t x ab' = Some y' -> tkey s y' = tkey s y -> ab' = ab) ->
    dget (tkey s y) (fill s t x n ps d) = Some (n + i)%nat.
  Proof.
    induction ps as [|ab0 ps IH]; intros s t x n d i ab y ND E R A U; [destruct i; discriminate|]. inversion ND; subst.
    destruct i as [|i]; cbn [nth_error] in E; cbn [AtomSafe3.fill].
    - injection E as ->. rewrite R, A. rewrite Nat.add_0_r. apply fill_keep; [apply dget_dset_eq|].
      intros ab' y' I R' A' T. assert (ab' = ab) by (eapply U; eauto; now right). subst. contradiction.
    - rewrite (IH s t x (S n) _ i ab y); auto; [f_equal; lia|]. intros; eapply U; eauto. now right.
  Qed.

  Lemma NoDup_pairs {A B} : forall (u : list A) (v : list B), NoDup u -> NoDup v -> NoDup (list_prod u v).
  Proof.
    intros u v Hu Hv. induction Hu as [|i u H Hu IH]; cbn [list_prod]; [constructor|].
    apply NoDup_app; auto.
    - clear -Hv. induction Hv as [|j v Hj Hv IH]; cbn [map]; constructor; auto. rewrite in_map_iff. intros [k [E I]]. injection E as ->. contradiction.
    - intros [i' j] I J. apply in_map_iff in I. destruct I as [k [E _]]. injection E as -> ->. apply in_prod_iff in J. tauto.
  Qed.
  Lemma full_dvals_nodup : forall s a l, WF s -> lv s a = Some l -> l_kind l <> LZ -> full s a l -> NoDup (dvals (l_subs l)).
  Proof.
    intros s a l W V K F. pose proof (full_nodup _ _ _ _ F) as ND.
    assert (H : forall k b k' b', In (k, b) (l_subs l) -> In (k', b') (l_subs l) -> b = b' -> k = k').
    { intros k b k' b' I I' <-. destruct F as [A F]. pose proof (conj A F : full s a l) as FF.
      assert (G : forall k3, In (k3, b) (l_subs l) -> exists z3, k3 = sub_key (l_kind l) z3 /\ child s a l z3 b).
      { clear -F. intros k3. induction F as [|z0 kb zs kbs [H1 H2] F IH]; [intros []|]. intros [->|I]; [exists z0; auto|auto]. }
      destruct (G _ I) as [z1 [-> C1]]. destruct (G _ I') as [z2 [-> C2]].
      destruct C1 as [lb [Vb C1]]. rewrite <- (lshort_child s a l z1 b lb W V K (ex_intro _ lb (conj Vb C1)) Vb).
      now rewrite <- (lshort_child s a l z2 b lb W V K C2 Vb). }
    clear -ND H. induction (l_subs l) as [|[k b] d IH]; cbn [dvals map snd]; [constructor|]. inversion ND; subst. constructor.
    - intros I. apply in_map_iff in I. destruct I as [[k' b'] [E I]]. cbn in E. subst b'.
      assert (k = k') by (eapply H; [now left|right; eauto|reflexivity]). subst. apply H2. apply in_map_iff. now exists (k', b).
    - apply IH; auto. intros; eapply H; [right|right|]; eauto.
  Qed.

  (** The sublevels of [x]'s two levels are separated in energy. *)
  Definition apart s x (l1 l2 : level) : Prop :=
    exists up, forall b1 b2 e1 e2, In b1 (dvals (l_subs l1)) -> In b2 (dvals (l_subs l2)) ->
      energy s b1 = Some e1 -> energy s b2 = Some e2 -> nltb N e1 e2 = up.

  Lemma sub_rec_inv : forall s t x ab y, sub_rec s t x ab = Some y -> exists l1 l2 v1 v2,
    lv s (fst ab) = Some l1 /\ lv s (snd ab) = Some l2 /\ energy s (fst ab) = Some v1 /\ energy s (snd ab) = Some v2 /\
    x_E1 y = fst ab /\ x_E2 y = snd ab /\ x_allowed y = sub_allowed _ s x l1 l2 /\
    x_up y = (if nltb N v1 v2 then snd ab else fst ab) /\ x_lo y = (if nltb N v1 v2 then fst ab else snd ab).
  Proof.
    intros s t x [b1 b2] y R. unfold AtomSafe3.sub_rec in R. cbn [fst snd] in *.
    destruct (lv s b1) as [l1|] eqn:V1; [|discriminate]. destruct (lv s b2) as [l2|] eqn:V2; [|discriminate].
    unfold tr_rec in R. rewrite V1 in R. destruct (energy s b1) as [v1|] eqn:E1; [|discriminate]. destruct (energy s b2) as [v2|] eqn:E2; [|discriminate].
    injection R as <-. cbn. exists l1, l2, v1, v2. repeat split; auto.
  Qed.

  Lemma tkey_inj : forall s t x l1 l2 ab ab' y y', WF s -> x_kind x <> TZ -> lv s (x_E1 x) = Some l1 -> lv s (x_E2 x) = Some l2 ->
    l_kind l1 = lk (x_kind x) -> l_kind l2 = lk (x_kind x) -> full s (x_E1 x) l1 -> full s (x_E2 x) l2 -> apart s x l1 l2 ->
    In ab (list_prod (dvals (l_subs l1)) (dvals (l_subs l2))) -> In ab' (list_prod (dvals (l_subs l1)) (dvals (l_subs l2))) ->
    sub_rec s t x ab = Some y -> sub_rec s t x ab' = Some y' -> tkey s y' = tkey s y -> ab' = ab.
  Proof.
    intros s t x l1 l2 [b1 b2] [c1 c2] y y' W K V1 V2 K1 K2 F1 F2 [up U] I I' R R' T.
    destruct (tkind_lk _ K) as [K0 _]. rewrite <- K1 in K0. assert (K0' : l_kind l2 <> LZ) by congruence.
    apply in_prod_iff in I, I'. destruct I as [I1 I2], I' as [J1 J2].
    destruct (sub_rec_inv _ _ _ _ _ R) as [lb1 [lb2 [v1 [v2 [A1 [A2 [A3 [A4 [_ [_ [_ [A5 A6]]]]]]]]]]]].
    destruct (sub_rec_inv _ _ _ _ _ R') as [lc1 [lc2 [w1 [w2 [B1 [B2 [B3 [B4 [_ [_ [_ [B5 B6]]]]]]]]]]]]. cbn [fst snd] in *.
    rewrite (U b1 b2 v1 v2) in A5, A6 by auto. rewrite (U c1 c2 w1 w2) in B5, B6 by auto.
    unfold AtomSafe3.tkey in T. rewrite A5, A6, B5, B6 in T.
    destruct up; rewrite A1, A2, B1, B2 in T; injection T as T1 T2;
      [f_equal; [exact (short_inj s _ l1 _ _ _ _ W V1 K0 F1 J1 I1 B1 A1 T1)|exact (short_inj s _ l2 _ _ _ _ W V2 K0' F2 J2 I2 B2 A2 T2)]
      |f_equal; [exact (short_inj s _ l1 _ _ _ _ W V1 K0 F1 J1 I1 B1 A1 T2)|exact (short_inj s _ l2 _ _ _ _ W V2 K0' F2 J2 I2 B2 A2 T1)]].
  Qed.

  Lemma nothing_missing : forall s t x cs s', WF s -> tr s t = Some x -> x_kind x <> TZ -> x_subs x = [] ->
    subtransitions N muB t s = (Ok cs, s') ->
    forall bs1 bs2 up, sublevels N (x_E1 x) s' = (Ok bs1, s') -> sublevels N (x_E2 x) s' = (Ok bs2, s') ->
    (forall b1 b2 e1 e2, In b1 bs1 -> In b2 bs2 -> energy s' b1 = Some e1 -> energy s' b2 = Some e2 -> nltb N e1 e2 = up) ->
    forall b1 b2 l1 l2, In b1 bs1 -> In b2 bs2 -> lv s' b1 = Some l1 -> lv s' b2 = Some l2 ->
    pair_filter N s' x (b1, b2) = true -> any_type (sub_allowed _ s' x l1 l2) = true ->
    exists c y, In c cs /\ tr s' c = Some y /\ x_E1 y = b1 /\ x_E2 y = b2.
  Proof.
    intros s t x cs s' W V K X E bs1 bs2 up B1 B2 U b1 b2 l1 l2 I1 I2 L1 L2 P A.
    destruct (safe_Ok _ _ _ _ _ _ _ (subtransitions_safe N muB s t x W V) E) as [W' [L [x' [V' [-> [_ H]]]]]]. specialize (H X).
    destruct H as [s1 [m1 [m2 [x2 [b [Lo1 [W1 [M1 [M2 [F1 [F2 [T1 [_ [T2 [-> [G Lo2]]]]]]]]]]]]]]]]. rewrite V' in T2. injection T2 as ->.
    destruct (wf_tr _ _ W1 _ _ T1) as [m1' [m2' [N1 [N2 [N3 [N4 _]]]]]]. assert (m1' = m1) by congruence. assert (m2' = m2) by congruence. subst m1' m2'.
    destruct (tkind_lk _ K) as [K0 _]. assert (Kz1 : l_kind m1 <> LZ) by congruence. assert (Kz2 : l_kind m2 <> LZ) by congruence.
    assert (Fr : frame s1 s') by exact (lo_frame _ _ _ Lo2).
    rewrite (sublevels_stable _ _ _ _ W1 M1 Kz1 F1 s' Lo2) in B1. injection B1 as <-.
    rewrite (sublevels_stable _ _ _ _ W1 M2 Kz2 F2 s' Lo2) in B2. injection B2 as <-.
    assert (Q : forall b0 m a0, lv s1 a0 = Some m -> l_kind m <> LZ -> full s1 a0 m -> In b0 (dvals (l_subs m)) ->
              exists l0 l0', lv s1 b0 = Some l0 /\ lv s' b0 = Some l0' /\ lsame l0 l0').
    { intros b0 m a0 Vm Km Fm Im. destruct (subs_children _ _ _ _ _ W1 Vm Im) as [l0 [V0 _]].
      destruct (ext_lv _ _ _ (look_ext _ _ _ Lo2) _ _ V0) as [l0' [V0' S0]]. exists l0, l0'. auto. }
    destruct (Q b1 m1 _ M1 Kz1 F1 I1) as [n1 [n1' [O1 [O1' S1]]]]. destruct (Q b2 m2 _ M2 Kz2 F2 I2) as [n2 [n2' [O2 [O2' S2]]]].
    assert (n1' = l1) by congruence. assert (n2' = l2) by congruence. subst n1' n2'.
    destruct (lsame_names _ _ _ S1) as [Q0 [_ [_ [Q1 [Q2 [Q3 _]]]]]]. destruct (lsame_names _ _ _ S2) as [R0 [_ [_ [R1 [R2 [R3 _]]]]]].
    assert (I12 : In (b1, b2) (sub_pairs _ s1 x m1 m2)).
    { apply filter_In. split; [now apply in_prod|]. unfold pair_filter in *. cbn [fst snd] in *. rewrite L1, L2 in P. rewrite O1, O2.
      unfold pair_attr in *. destruct (x_kind x); rewrite ?Q2, ?Q3, ?R2, ?R3 in P; exact P. }
    apply In_nth_error in I12. destruct I12 as [i I12]. destruct (G _ _ I12) as [y [b' [R T']]].
    destruct (sub_rec_inv _ _ _ _ _ R) as [q1 [q2 [v1 [v2 [A1 [A2 [A3 [A4 [A5 [A6 [A7 _]]]]]]]]]]]. cbn [fst snd] in *.
    assert (q1 = n1) by congruence. assert (q2 = n2) by congruence. subst q1 q2.
    assert (Ay : any_type (x_allowed y) = true).
    { rewrite A7. unfold sub_allowed in *. rewrite Q1, Q2, Q3, R1, R2, R3, (fr_I _ _ _ Fr) in A. exact A. }
    exists (List.length (s_trans s1) + i)%nat. eexists. split; [|split; [exact T'|]]; [|cbn; auto].
    cbn [x_subs tr_set_subs]. apply (dvals_dget (tkey s1 y)).
    eapply (fill_has (sub_pairs _ s1 x m1 m2) s1 t x); eauto.
    - apply NoDup_filter, NoDup_pairs; eapply full_dvals_nodup; eauto.
    - intros ab' y' I' R' Tk. apply filter_In in I'. destruct I' as [I' _].
      apply (tkey_inj s1 t x m1 m2 (b1, b2) ab' y y'); auto; [|now apply in_prod].
      exists up. intros c1 c2 e1 e2 J1 J2 E1 E2.
      destruct (Q c1 m1 _ M1 Kz1 F1 J1) as [? [? [C1 _]]]. destruct (Q c2 m2 _ M2 Kz2 F2 J2) as [? [? [C2 _]]].
      apply (U c1 c2); auto; rewrite (frame_energy _ _ _ _ _ W1 Fr); auto; rewrite ?C1, ?C2; discriminate.
  Qed.

  (** What holds without any assumption on the energies: the pair's short names,
      lower sublevel first, are a key. *)
  Lemma fill_grows : forall ps s t x n d k, dget k d <> None -> dget k (fill s t x n ps d) <> None.
  Proof.
    induction ps as [|ab ps IH]; intros s t x n d k D; cbn [AtomSafe3.fill]; auto. apply IH.
    destruct (sub_rec s t x ab) as [y|]; auto. destruct (any_type (x_allowed y)); auto. rewrite dget_dset. destruct (keqb _ _); auto. discriminate.
  Qed.
  Lemma fill_key : forall ps s t x n d ab y, In ab ps -> sub_rec s t x ab = Some y -> any_type (x_allowed y) = true ->
    dget (tkey s y) (fill s t x n ps d) <> None.
  Proof.
    induction ps as [|ab0 ps IH]; intros s t x n d ab y I R A; [contradiction|]. destruct I as [->|I]; cbn [AtomSafe3.fill]; [|eapply IH; eauto].
    rewrite R, A. apply fill_grows. rewrite dget_dset_eq. discriminate.
  Qed.

  Lemma listed_named : forall s t x cs s', WF s -> tr s t = Some x -> x_kind x <> TZ -> x_subs x = [] ->
    subtransitions N muB t s = (Ok cs, s') ->
    exists bs1 bs2, sublevels N (x_E1 x) s' = (Ok bs1, s') /\ sublevels N (x_E2 x) s' = (Ok bs2, s') /\
    forall b1 b2 l1 l2 e1 e2, In b1 bs1 -> In b2 bs2 -> lv s' b1 = Some l1 -> lv s' b2 = Some l2 -> energy s' b1 = Some e1 -> energy s' b2 = Some e2 ->
    pair_filter N s' x (b1, b2) = true -> any_type (sub_allowed _ s' x l1 l2) = true ->
    exists c, In c cs /\ sub_between s' t (lshort (if nltb N e1 e2 then l1 else l2)) (lshort (if nltb N e1 e2 then l2 else l1)) c.
  Proof.
    intros s t x cs s' W V K X E.
    destruct (safe_Ok _ _ _ _ _ _ _ (subtransitions_safe N muB s t x W V) E) as [W' [L [x' [V' [-> [_ H]]]]]]. specialize (H X).
    destruct H as [s1 [m1 [m2 [x2 [b [Lo1 [W1 [M1 [M2 [F1 [F2 [T1 [_ [T2 [-> [G Lo2]]]]]]]]]]]]]]]]. rewrite V' in T2. injection T2 as ->.
    destruct (wf_tr _ _ W1 _ _ T1) as [m1' [m2' [N1 [N2 [N3 [N4 _]]]]]]. assert (m1' = m1) by congruence. assert (m2' = m2) by congruence. subst m1' m2'.
    destruct (tkind_lk _ K) as [K0 _]. assert (Kz1 : l_kind m1 <> LZ) by congruence. assert (Kz2 : l_kind m2 <> LZ) by congruence.
    assert (Fr : frame s1 s') by exact (lo_frame _ _ _ Lo2).
    exists (dvals (l_subs m1)), (dvals (l_subs m2)).
    split; [exact (sublevels_stable _ _ _ _ W1 M1 Kz1 F1 s' Lo2)|]. split; [exact (sublevels_stable _ _ _ _ W1 M2 Kz2 F2 s' Lo2)|].
    intros b1 b2 l1 l2 e1 e2 I1 I2 L1 L2 E1 E2 P A.
    assert (Q : forall b0 m a0, lv s1 a0 = Some m -> l_kind m <> LZ -> full s1 a0 m -> In b0 (dvals (l_subs m)) ->
              exists l0 l0', lv s1 b0 = Some l0 /\ lv s' b0 = Some l0' /\ lsame l0 l0').
    { intros b0 m a0 Vm Km Fm Im. destruct (subs_children _ _ _ _ _ W1 Vm Im) as [l0 [V0 _]].
      destruct (ext_lv _ _ _ (look_ext _ _ _ Lo2) _ _ V0) as [l0' [V0' S0]]. exists l0, l0'. auto. }
    destruct (Q b1 m1 _ M1 Kz1 F1 I1) as [n1 [n1' [O1 [O1' S1]]]]. destruct (Q b2 m2 _ M2 Kz2 F2 I2) as [n2 [n2' [O2 [O2' S2]]]].
    assert (n1' = l1) by congruence. assert (n2' = l2) by congruence. subst n1' n2'.
    destruct (lsame_names _ _ _ S1) as [Q0 [_ [Qs [Q1 [Q2 [Q3 _]]]]]]. destruct (lsame_names _ _ _ S2) as [R0 [_ [Rs [R1 [R2 [R3 _]]]]]].
    assert (I12 : In (b1, b2) (sub_pairs _ s1 x m1 m2)).
    { apply filter_In. split; [now apply in_prod|]. unfold pair_filter in *. cbn [fst snd] in *. rewrite L1, L2 in P. rewrite O1, O2.
      unfold pair_attr in *. destruct (x_kind x); rewrite ?Q2, ?Q3, ?R2, ?R3 in P; exact P. }
    destruct (In_nth_error _ _ I12) as [i I12']. destruct (G _ _ I12') as [y [b' [R T']]].
    destruct (sub_rec_inv _ _ _ _ _ R) as [q1 [q2 [v1 [v2 [A1 [A2 [A3 [A4 [A5 [A6 [A7 [A8 A9]]]]]]]]]]]]. cbn [fst snd] in *.
    assert (q1 = n1) by congruence. assert (q2 = n2) by congruence. subst q1 q2.
    assert (Ay : any_type (x_allowed y) = true).
    { rewrite A7. unfold sub_allowed in *. rewrite Q1, Q2, Q3, R1, R2, R3, (fr_I _ _ _ Fr) in A. exact A. }
    rewrite (frame_energy _ _ _ _ _ W1 Fr) in E1 by congruence. rewrite (frame_energy _ _ _ _ _ W1 Fr) in E2 by congruence.
    assert (v1 = e1) by congruence. assert (v2 = e2) by congruence. subst v1 v2.
    assert (Tk : tkey s1 y = (lshort (if nltb N e1 e2 then l1 else l2), lshort (if nltb N e1 e2 then l2 else l1))).
    { unfold AtomSafe3.tkey. rewrite A8, A9. destruct (nltb N e1 e2); rewrite A1, A2, Qs, Rs; reflexivity. }
    pose proof (fill_key (sub_pairs _ s1 x m1 m2) s1 t x (List.length (s_trans s1)) [] (b1, b2) y I12 R Ay) as D. rewrite Tk in D.
    set (k1 := lshort (if nltb N e1 e2 then l1 else l2)) in *. set (k2 := lshort (if nltb N e1 e2 then l2 else l1)) in *.
    match type of V' with _ = Some ?z => destruct (subs_between s' t z k1 k2 W' V') as [B _] end. cbn [x_subs tr_set_subs] in *.
    destruct (dget (k1, k2) _) as [c|]; [|contradiction]. exists c. now apply B.
  Qed.

  (** ** C51 *)

  Lemma filter_keys : forall (f : string * nat -> bool) (d : dict string nat), NoDup (dkeys d) -> NoDup (dkeys (filter f d)).
  Proof.
    intros f d. induction d as [|kv d IH]; cbn [filter dkeys map]; intros ND; auto. inversion ND as [|? ? H1 H2]; subst.
    destruct (f kv); auto. cbn [dkeys map]. constructor; auto. intros I. apply H1. apply in_map_iff in I. destruct I as [kv' [E1 I]].
    apply filter_In in I. apply in_map_iff. exists kv'. tauto.
  Qed.

  Lemma linked_name : forall s n a, WF s -> dget n (s_lal s) = None -> has_char "=" n = false -> dget n (node_attrs (s_g0 s)) = Some a ->
    exists d, linked_levels N muB 3 n s = (Ok d, s) /\ NoDup (dkeys d) /\
      forall m t, In (m, t) d <-> m <> n /\ edge (s_g0 s) n m = Some t.
  Proof.
    intros s n a W A E D. pose proof (wf_g _ _ W LE) as G. cbn [graph_of] in G. pose proof (go_wf _ _ _ _ G) as GW.
    assert (Dn : dget n (g_nodes (s_g0 s)) = Some (Some a)).
    { rewrite (node_attrs_get _ n GW) in D. destruct (dget n (g_nodes (s_g0 s))) as [[b|]|]; congruence. }
    destruct (go_node _ _ _ _ G _ _ Dn) as [l [V [K [Nm _]]]].
    assert (P : l_parent l = None).
    { destruct (wf_lv _ _ W _ _ V) as [_ [[_ [P _]]|[_ [p [lp [z [_ [_ [_ [Kp [Kc _]]]]]]]]]]]; auto. rewrite K in Kc. destruct (l_kind lp); discriminate. }
    assert (Ad : dget n (g_adj (s_g0 s)) = Some (nbrs (s_g0 s) n)).
    { unfold nbrs. destruct (dget n (g_adj (s_g0 s))) eqn:X; auto. apply dget_None in X. rewrite (gw_keys _ GW) in X. exfalso. apply X.
      apply dget_Some_key. eauto. }
    exists (filter (fun kt => negb (String.eqb (fst kt) n)) (nbrs (s_g0 s) n)). split; [|split].
    - cbn [linked_levels]. erewrite bind_Ok by (apply get_node; eauto). unfold get_lv. rewrite (bind_asks _ _ _ _ _ l) by auto. rewrite P.
      unfold bind at 1, ret at 1. rewrite (bind_asks _ _ _ _ _ (nbrs (s_g0 s) n)); [reflexivity|]. rewrite K. exact Ad.
    - apply filter_keys, (gw_nbrs _ GW).
    - intros m t. rewrite filter_In. cbn [fst]. rewrite negb_true_iff, String.eqb_neq. unfold edge. split.
      + intros [I H]. split; auto. apply In_dget_nodup; auto. apply (gw_nbrs _ GW).
      + intros [H I]. split; auto. now apply dget_In.
  Qed.

  (** ** C49 *)

  Lemma touch_old : forall n g, dget n (g_nodes g) <> None -> g_touch n g = g.
  Proof. intros n g H. unfold g_touch, dmem. destruct (dget n (g_nodes g)); [reflexivity|contradiction]. Qed.
  Lemma dset_same {V} : forall k (v : V) (d : dict string V), dget k d = Some v -> dset k v d = d.
  Proof.
    intros k v d. induction d as [|[k' v'] d IH]; cbn [dget dset]; [discriminate|]. destruct (keqb_spec k k').
    - intros E. injection E as ->. subst. reflexivity.
    - intros E. now rewrite IH.
  Qed.
  Lemma link_old : forall u v t g, graph_wf g -> edge g u v = Some t -> g_link u v t g = g.
  Proof.
    intros u v t g G E. unfold g_link. unfold edge in E. rewrite (dset_same v t) by auto.
    assert (H : dget u (g_adj g) = Some (nbrs g u)) by (unfold nbrs in *; destruct (dget u (g_adj g)); [reflexivity|discriminate]).
    rewrite (dset_same u) by exact H. destruct g; reflexivity.
  Qed.
  Lemma edge_node : forall u v t g, graph_wf g -> edge g u v = Some t -> dget u (g_nodes g) <> None.
  Proof.
    intros u v t g G E H. apply dget_None in H. rewrite <- (gw_keys _ G) in H. unfold edge, nbrs in E.
    destruct (dget u (g_adj g)) eqn:D; [|discriminate]. apply H. apply dget_Some_key. eauto.
  Qed.
  Lemma add_edge_old : forall u v t g, graph_wf g -> edge g u v = Some t -> g_add_edge u v t g = g.
  Proof.
    intros u v t g G E. pose proof (gw_sym _ G _ _ _ E) as E'. unfold g_add_edge.
    rewrite (touch_old u) by (eapply edge_node; eauto). rewrite (touch_old v) by (eapply edge_node; eauto).
    rewrite (link_old u v) by auto. now rewrite link_old.
  Qed.
  Lemma set_graph_id : forall k s, set_graph k (graph_of k s) s = s.
  Proof. intros [] []; reflexivity. Qed.

  Variable orc : nat -> oracle.
  Lemma add_again : forall s t x u v, WF s -> tr s t = Some x -> x_attached x = true -> x_set x = None ->
    nm s (x_lo x) = Some u -> nm s (x_up x) = Some v -> edge (graph_of (lk (x_kind x)) s) u v = Some t ->
    (forall al, x_alias x = Some al -> dget al (s_tal s) = Some t) ->
    forall f A alias, add_transition N muB orc (TObj t) f A alias s = (match x_subs x with [] => Ok t | _ => Raise AttributeError end, s).
  Proof.
    intros s t x u v W V At Se Nu Nv Ed Al f A alias.
    assert (J : tr_joined s t x = s).
    { unfold tr_joined. assert (Ex : tr_set_attached true x = x) by (clear - At; destruct x; cbn in At; subst; reflexivity). rewrite Ex, (upd_tr_id _ _ _ _ _ V Ex).
      unfold put_edge. rewrite Nu, Nv, add_edge_old by (auto; exact (go_wf _ _ _ _ (wf_g _ _ W _))). apply set_graph_id. }
    unfold add_transition. unfold bind at 1, ret at 1. unfold bind at 1. rewrite (tr_add_eq _ _ _ _ W V), J.
    destruct (x_subs x); [|reflexivity]. unfold get_tr. rewrite (bind_asks _ _ _ _ _ x) by auto.
    unfold bind, modify, ret. rewrite Se. destruct (x_alias x) as [al|] eqn:Ea; auto.
    rewrite (dset_same al) by auto. destruct s; reflexivity.
  Qed.
End Trans.
