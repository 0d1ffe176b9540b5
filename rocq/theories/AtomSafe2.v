(** Specifications of adding levels, of transitions and subtransitions. *)
From Coq Require Import List Bool ZArith QArith Qcanon Lia String Ascii Permutation.
From Verif Require Import Base PyStr Util UtilProofs Parse Term TermProofs Num Wigner Hyperfine HyperfineProofs
  Graph GraphProofs Rules Atom AtomInv AtomSafe.
Import ListNotations.

Arguments safe {N A}. Arguments frame {N}. Arguments look0 {N}. Arguments look {N}. Arguments full {N}. Arguments found {N}.
Arguments preord {N}. Arguments lookl {N}.

Section Safe2.
  Context (N : Num) (muB : N).
  Notation st := (st N).
  Notation level := (level N).
  Notation trans := (trans N).
  Notation M := (M N).
  Notation energy := (energy N muB).
  Implicit Types (s : st) (l : level) (x y : trans) (a : nat) (t : nat).

  Let lpo := look_po N.
  Let llpo := lookl_po N.
  Let lpo0 := look0_po N.
  Let fpo := frame_po N.
  Let epo := ext_po N.

  (** ** Adding levels *)

  Lemma upd_id {A} : forall n (f : A -> A) (l : list A) v, nth_error l n = Some v -> f v = v -> upd n f l = l.
  Proof.
    induction n; destruct l; simpl; intros v E Ef; try discriminate.
    - injection E as ->. now rewrite Ef.
    - f_equal. eauto.
  Qed.

  Lemma set_levels_id : forall s, set_levels (s_levels s) s = s.
  Proof. intros []. reflexivity. Qed.
  Lemma set_trans_id : forall s, set_trans (s_trans s) s = s.
  Proof. intros []. reflexivity. Qed.

  Lemma upd_lv_id : forall s a l f, lv s a = Some l -> f l = l -> upd_lv a f s = s.
  Proof. intros s a l f V E. unfold upd_lv. rewrite (upd_id _ _ _ _ V E). apply set_levels_id. Qed.
  Lemma upd_tr_id : forall s t x f, tr s t = Some x -> f x = x -> upd_tr t f s = s.
  Proof. intros s a l f V E. unfold upd_tr. rewrite (upd_id _ _ _ _ V E). apply set_trans_id. Qed.

  Lemma attached_id : forall l, l_attached l = true -> lv_set_attached true l = l.
  Proof. intros [] E. simpl in *. subst. reflexivity. Qed.
  Lemma tr_attached_id : forall x, x_attached x = true -> tr_set_attached true x = x.
  Proof. intros [] E. simpl in *. subst. reflexivity. Qed.

  Lemma same_levels_lv : forall s s' a, s_levels s' = s_levels s -> lv s' a = lv s a.
  Proof. intros s s' a E. unfold lv. now rewrite E. Qed.
  Lemma same_trans_tr : forall s s' t, s_trans s' = s_trans s -> tr s' t = tr s t.
  Proof. intros s s' a E. unfold tr. now rewrite E. Qed.

  (** Children listed under a level. *)
  Lemma subs_children : forall s a l b, WF s -> lv s a = Some l -> In b (dvals (l_subs l)) ->
    exists lb, lv s b = Some lb /\ l_attached lb = true /\ l_kind lb = sub_kind (l_kind l) /\ l_kind lb <> LE /\ l_kind l <> LZ.
  Proof.
    intros s a l b W V I. assert (Hn : l_subs l <> []) by (intros E; rewrite E in I; contradiction).
    pose proof (full_nonempty _ _ _ _ W V Hn) as F.
    destruct (full_child _ _ _ _ _ F I) as [z [key [Iz [_ [_ C]]]]].
    destruct (child_level _ _ _ _ _ _ W C) as [lb [Vb [Ab [Kb [Kb' _]]]]]. exists lb. repeat split; auto.
    intros K. rewrite (full_LZ _ _ _ _ F K) in I. contradiction.
  Qed.

  Lemma lookl_graph : forall s k g, k <> LE -> lookl s (set_graph k g s).
  Proof. intros s k g K. split; [now apply look_graph|]. destruct k; reflexivity. Qed.

  Lemma add_sub_safe : forall fuel s b (lb : level), WF s -> lv s b = Some lb -> l_kind lb <> LE -> (depth (l_kind lb) <= fuel)%nat ->
    safe lookl s (lv_add_to_atom N fuel b) (fun _ s' => s_levels s' = s_levels s).
  Proof.
    induction fuel as [|fuel IH]; intros s b lb W V K D; [destruct (l_kind lb); simpl in D; lia|].
    cbn [lv_add_to_atom]. destruct (wf_parent _ _ _ _ W V K) as [A _].
    assert (E : upd_lv b (lv_set_attached true) s = s) by (eapply upd_lv_id; eauto using attached_id).
    apply (safe_modify _ _ llpo); rewrite E; auto; [apply llpo|].
    assert (V1 : lv (set_graph (l_kind lb) (g_add_node (lname lb) b (graph_of (l_kind lb) s)) s) b = Some lb) by (now rewrite lv_set_graph).
    unfold safe, bind. rewrite (add_node_eq _ _ _ _ V).
    set (s1 := set_graph (l_kind lb) (g_add_node (lname lb) b (graph_of (l_kind lb) s)) s) in *.
    assert (W1 : WF s1) by (now apply WF_add_node).
    assert (L1 : lookl s s1) by (now apply lookl_graph).
    unfold get_lv, asks. rewrite V1.
    assert (El : s_levels s1 = s_levels s) by (unfold s1; destruct (l_kind lb); reflexivity).
    assert (H : safe lookl s1 (forM (dvals (l_subs lb)) (lv_add_to_atom N fuel)) (fun _ s' => s_levels s' = s_levels s)).
    { apply (safe_forM _ _ llpo _ _ (fun s' => s_levels s' = s_levels s)); auto.
      intros c s2 Ic W2 L2 E2. destruct (subs_children _ _ _ _ W V Ic) as [lc [Vc [Ac [Kc [Kc' Kl]]]]].
      assert (Vc2 : lv s2 c = Some lc) by (rewrite (same_levels_lv s); auto).
      eapply (safe_conseq _); [apply (IH s2 c lc); auto|].
      - rewrite Kc. destruct (l_kind lb); simpl in *; try lia; congruence.
      - cbv beta. intros _ s3 W3 L3 E3. congruence. }
    destruct H as [H1 [H2 H3]]. split; auto. split; auto. eapply llpo; eauto.
  Qed.

  (** All sublevels of one level. *)
  Lemma add_subs_safe : forall fuel s a l, WF s -> lv s a = Some l -> (depth (l_kind l) <= S fuel)%nat ->
    safe lookl s (forM (dvals (l_subs l)) (lv_add_to_atom N fuel)) (fun _ s' => s_levels s' = s_levels s).
  Proof.
    intros fuel s a l W V D. apply (safe_forM _ _ llpo _ _ (fun s' => s_levels s' = s_levels s)); auto.
    intros c s2 Ic W2 L2 E2. destruct (subs_children _ _ _ _ W V Ic) as [lc [Vc [Ac [Kc [Kc' Kl]]]]].
    assert (Vc2 : lv s2 c = Some lc) by (rewrite (same_levels_lv s); auto).
    eapply (safe_conseq _); [apply (add_sub_safe fuel s2 c lc); auto|].
    - rewrite Kc. destruct (l_kind l); simpl in *; try lia; congruence.
    - cbv beta. intros _ s3 W3 L3 E3. congruence.
  Qed.

  (** The state in which the level itself is in the atom. *)
  Definition joined s a l : st := set_graph (l_kind l) (g_add_node (lname l) a (graph_of (l_kind l) s)) (upd_lv a (lv_set_attached true) s).

  Lemma joined_spec : forall s a l, WF s -> lv s a = Some l ->
    WF (joined s a l) /\ ext s (joined s a l) /\ lv (joined s a l) a = Some (lv_set_attached true l) /\
    (forall b, b <> a -> lv (joined s a l) b = lv s b) /\ s_trans (joined s a l) = s_trans s /\
    s_g0 (joined s a l) = match l_kind l with LE => g_add_node (lname l) a (s_g0 s) | _ => s_g0 s end /\
    s_lal (joined s a l) = s_lal s /\ s_tal (joined s a l) = s_tal s /\ s_I (joined s a l) = s_I s /\ s_B (joined s a l) = s_B s /\
    s_warn (joined s a l) = s_warn s /\ s_tick (joined s a l) = s_tick s.
  Proof.
    intros s a l W V. destruct (WF_upd_lv _ s a (lv_set_attached true) W) as [W1 X1]; [repeat split; auto|].
    assert (V1 : lv (upd_lv a (lv_set_attached true) s) a = Some (lv_set_attached true l)).
    { rewrite lv_upd_lv, Nat.eqb_refl, V. reflexivity. }
    assert (G : graph_of (l_kind l) (upd_lv a (lv_set_attached true) s) = graph_of (l_kind l) s) by (destruct (l_kind l); reflexivity).
    pose proof (WF_add_node _ _ _ _ W1 V1 eq_refl) as W2. cbn [l_kind lv_set_attached] in W2. rewrite G in W2.
    change (lname (lv_set_attached true l)) with (lname l) in W2.
    unfold joined. split; auto. split.
    - eapply ext_trans; eauto. apply same_heaps_ext; destruct (l_kind l); reflexivity.
    - rewrite lv_set_graph. split; auto. split; [|repeat split; destruct (l_kind l); try reflexivity; discriminate].
      intros b Hb. rewrite lv_set_graph, lv_upd_lv. destruct (Nat.eqb_spec a b); congruence.
  Qed.

  Lemma lv_add_eq : forall s a l, lv s a = Some l ->
    lv_add_to_atom N 3 a s = forM (dvals (l_subs l)) (lv_add_to_atom N 2) (joined s a l).
  Proof.
    intros s a l V. cbn [lv_add_to_atom]. unfold bind at 1, modify.
    assert (V1 : lv (upd_lv a (lv_set_attached true) s) a = Some (lv_set_attached true l)).
    { rewrite lv_upd_lv, Nat.eqb_refl, V. reflexivity. }
    unfold bind at 1. rewrite (add_node_eq _ _ _ _ V1). cbn [l_kind lv_set_attached].
    change (lname (lv_set_attached true l)) with (lname l).
    replace (graph_of (l_kind l) (upd_lv a (lv_set_attached true) s)) with (graph_of (l_kind l) s) by (destruct (l_kind l); reflexivity).
    fold (joined s a l). unfold bind, get_lv, asks.
    replace (lv (joined s a l) a) with (Some (lv_set_attached true l)); [reflexivity|].
    unfold joined. rewrite lv_set_graph. auto.
  Qed.

  Lemma lv_add_safe : forall s a l, WF s -> lv s a = Some l ->
    safe (fun s s' => ext s s' /\ s_trans s' = s_trans s) s (lv_add_to_atom N 3 a)
      (fun _ s' => look (joined s a l) s' /\ s_levels s' = s_levels (joined s a l)).
  Proof.
    intros s a l W V. destruct (joined_spec s a l W V) as [W1 [X1 [V1 [Vo [Et _]]]]].
    unfold safe. rewrite (lv_add_eq _ _ _ V).
    destruct (add_subs_safe 2 (joined s a l) a _ W1 V1) as [H1 [[H2 H2'] H3]]; [apply depth_le|].
    cbn [l_subs lv_set_attached] in *. split; auto. split; [split|].
    - eapply ext_trans; eauto. now apply look_ext.
    - congruence.
    - destruct (fst _); auto.
  Qed.

  (** What add_level leaves behind. *)
  Record added s a l (populate : bool) (alias : option string) s' : Prop := mk_added {
    ad_g0 : s_g0 s' = match l_kind l with LE => g_add_node (lname l) a (s_g0 s) | _ => s_g0 s end;
    ad_lal : s_lal s' = match (match alias with Some al => Some al | None => l_alias l end) with
                        | Some al => dset al a (s_lal s) | None => s_lal s end;
    ad_tal : s_tal s' = s_tal s; ad_I : s_I s' = s_I s; ad_B : s_B s' = s_B s; ad_warn : s_warn s' = s_warn s; ad_tick : s_tick s' = s_tick s;
    ad_lv : exists l', lv s' a = Some l' /\
      l' = lv_set_subs (l_subs l') (lv_set_alias (match alias with Some al => Some al | None => l_alias l end) (lv_set_attached true l));
    ad_other : forall b lb, b <> a -> lv s b = Some lb -> exists lb', lv s' b = Some lb' /\ lb' = lv_set_subs (l_subs lb') lb /\
      (l_subs lb <> [] -> l_subs lb' = l_subs lb);
    ad_subs : forall l', populate = false -> lv s' a = Some l' -> l_subs l' = l_subs l;
    ad_tr : s_trans s' = s_trans s
  }.

  Lemma dset_twice {K V} `{Eqb K} : forall k (v : V) (d : dict K V), dset k v (dset k v d) = dset k v d.
  Proof.
    induction d as [|[k' v'] d IH]; simpl.
    - now rewrite keqb_refl.
    - destruct (keqb k k') eqn:E; simpl; rewrite E; congruence.
  Qed.

  Lemma look_frame : forall s s', look s s' -> frame s s'.
  Proof. apply lo_frame. Qed.

  Lemma lv_set_attached_alias : forall l, lv_set_alias (l_alias l) (lv_set_attached true l) = lv_set_attached true l.
  Proof. intros []. reflexivity. Qed.

  Definition alias_of (alias : option string) l := match alias with Some al => Some al | None => l_alias l end.

  Lemma set_alias_spec : forall s a l al, WF s -> lv s a = Some l -> l_attached l = true ->
    exists s', set_alias N a al s = (Ok tt, s') /\ WF s' /\ ext s s' /\
      s' = set_lal (dset al a (s_lal s)) (upd_lv a (lv_set_alias (Some al)) s).
  Proof.
    intros s a l al W V A. destruct (WF_upd_lv _ s a (lv_set_alias (Some al)) W) as [W1 X1]; [repeat split; auto|].
    assert (V1 : lv (upd_lv a (lv_set_alias (Some al)) s) a = Some (lv_set_alias (Some al) l)) by (rewrite lv_upd_lv, Nat.eqb_refl, V; reflexivity).
    destruct (WF_lal _ (upd_lv a (lv_set_alias (Some al)) s) al a _ W1 V1 A) as [W2 X2].
    eexists. split; [|split; [exact W2|split; [eapply ext_trans; eauto|reflexivity]]].
    unfold set_alias, bind, modify, get_lv, asks. rewrite V1. cbn [l_attached lv_set_alias]. now rewrite A.
  Qed.

  Definition extl s s' : Prop := ext s s' /\ s_trans s' = s_trans s.
  Lemma xlpo : preord extl.
  Proof. constructor; [split; [apply ext_refl|auto]|]. intros u v w [? ?] [? ?]. split; [eapply ext_trans; eauto|congruence]. Qed.
  Definition framel a s s' : Prop := frame s s' /\ s_trans s' = s_trans s /\
    forall b l l', b <> a -> lv s b = Some l -> l_subs l <> [] -> lv s' b = Some l' -> l_subs l' = l_subs l.
  Lemma flpo : forall a, preord (framel a).
  Proof.
    intros a. constructor.
    - intros s. split; [apply frame_refl|]. split; auto. intros; congruence.
    - intros u v w [A1 [A2 A3]] [B1 [B2 B3]]. split; [eapply frame_trans; eauto|]. split; [congruence|].
      intros b l l' Hb V Hn V'. destruct (fr_lv _ _ _ A1 _ _ V) as [l2 [V2 _]].
      rewrite (B3 b l2 l'); auto; rewrite (A3 b l l2); auto.
  Qed.
  Lemma framel_extl : forall a s s', framel a s s' -> extl s s'.
  Proof. intros a s s' [A [B _]]. split; auto. now apply frame_ext. Qed.
  Lemma lookl_framel : forall a s s', lookl s s' -> framel a s s'.
  Proof. intros a s s' [A B]. split; [now apply lo_frame|]. split; auto. intros b l l' _. apply A. Qed.

  (** Populating again and adding all sublevels. *)
  Lemma repopulate_safe : forall s a l, WF s -> lv s a = Some l -> l_attached l = true ->
    safe (framel a) s (bind (populate_sublevels N a) (fun _ => bind (sublevels N a) (fun subs => forM subs (lv_add_to_atom N 3))))
      (fun _ _ => True).
  Proof.
    intros s a l W V A. eapply (safe_bind _ _ (flpo a)).
    { apply populate_safe_gen with (l := l); auto; [apply flpo|].
      intros keys new. split; [exact (proj1 (install_frame _ s a l keys new V))|]. split; [reflexivity|].
      intros b lb lb' Hb Vb _ Vb'. unfold install in Vb'. rewrite lv_upd_lv in Vb'. destruct (Nat.eqb_spec a b); [congruence|].
      rewrite (lv_app _ s new b lb Vb) in Vb'. congruence. }
    cbv beta. intros [] s1 W1 _ [l1 [V1 _]].
    eapply (safe_bind _ _ (flpo a)).
    { eapply safe_weaken; [apply lookl_framel|]. apply (sublevels_safe _ s1 a l1); auto. }
    cbv beta. intros bs s2 W2 _ [l2 [V2 [_ [_ ->]]]].
    eapply safe_weaken; [apply lookl_framel|]. eapply (safe_conseq _); [apply (add_subs_safe 3 s2 a l2); auto|auto].
    pose proof (depth_le (l_kind l2)). lia.
  Qed.

  Lemma add_level_safe : forall s a l populate alias, WF s -> lv s a = Some l ->
    safe extl s (add_level N a populate alias) (fun v s' => v = a /\ added s a l populate alias s').
  Proof.
    intros s a l populate alias W V. unfold add_level.
    pose proof (joined_spec s a l W V) as [W0 [X0 [V0 [Vo0 [Et0 [G0 [LA0 [TA0 [I0 [B0 [Wn0 Ti0]]]]]]]]]]].
    eapply (safe_bind _ _ xlpo); [apply (lv_add_safe s a l); auto|].
    cbv beta. intros [] s1 W1 [X1 T1] [L1 E1].
    assert (V1 : lv s1 a = Some (lv_set_attached true l)) by (rewrite (same_levels_lv (joined s a l)); auto).
    pose proof (lo_frame _ _ _ L1) as F1.
    (* aliases *)
    eapply (safe_bind _ _ xlpo _ _ _ (fun _ s2 => s_levels s2 = match alias with Some al => upd a (lv_set_alias (Some al)) (s_levels s1) | None => s_levels s1 end /\
       s2 = set_lal (match alias with Some al => dset al a (s_lal s1) | None => s_lal s1 end) (set_levels (s_levels s2) s1))).
    { destruct alias as [al|].
      - destruct (set_alias_spec s1 a _ al W1 V1 eq_refl) as [s2 [E2 [W2 [X2 E2']]]]. unfold safe. rewrite E2.
        cbn [fst snd]. split; auto. split; [split; auto; rewrite E2'; reflexivity|]. rewrite E2'. split; reflexivity.
      - apply (safe_ret _ _ xlpo); auto. split; auto. destruct s1; reflexivity. }
    cbv beta. intros [] s2 W2 [X2 T2] [E2 E2'].
    assert (V2 : lv s2 a = Some (lv_set_alias (alias_of alias l) (lv_set_attached true l))).
    { unfold lv. rewrite E2. destruct alias as [al|]; simpl.
      - rewrite nth_error_upd_eq. unfold lv in V1. rewrite V1. reflexivity.
      - unfold lv in V1. rewrite V1. now rewrite lv_set_attached_alias. }
    apply (safe_asks _ _ s2 _ _ _ _ _ V2). cbn [l_alias lv_set_alias].
    eapply (safe_bind _ _ xlpo _ _ _ (fun _ s3 => s3 = set_lal (match alias_of alias l with Some al => dset al a (s_lal s) | None => s_lal s end) (set_levels (s_levels s2) s1))).
    { assert (LA1 : s_lal s1 = s_lal s) by (rewrite (fr_lal _ _ _ F1); auto).
      destruct (alias_of alias l) as [al|] eqn:Ea.
      - destruct (WF_lal _ s2 al a _ W2 V2 eq_refl) as [W3 X3]. apply safe_modify_last; auto; [split; auto|].
        rewrite E2'. destruct s1; unfold set_lal, set_levels; cbn in *. f_equal.
        destruct alias; simpl in Ea; [injection Ea as ->|]; rewrite LA1; [apply dset_twice|reflexivity].
      - apply (safe_ret _ _ xlpo); auto. rewrite E2' at 1. destruct alias; [discriminate|]. now rewrite LA1. }
    cbv beta. intros [] s3 W3 [X3 T3] E3.
    assert (V3 : lv s3 a = Some (lv_set_alias (alias_of alias l) (lv_set_attached true l))).
    { rewrite E3. unfold lv. exact V2. }
    (* populating *)
    eapply (safe_bind _ _ xlpo _ _ _ (fun _ s4 => framel a s3 s4 /\ (populate = false -> s4 = s3))).
    { destruct populate.
      - destruct (repopulate_safe s3 a _ W3 V3 eq_refl) as [H1 [H2 H3]]. split; auto. split; [now apply (framel_extl a)|].
        destruct (fst _); auto. split; auto. discriminate.
      - apply (safe_ret _ _ xlpo); auto. split; auto. apply flpo. }
    cbv beta. intros [] s4 W4 _ [[F4 [T4 K4]] P4]. apply (safe_ret _ _ xlpo); auto. split; auto.
    assert (Eb : forall b, b <> a -> lv s3 b = lv s b).
    { intros b Hb. rewrite E3. unfold lv. cbn. rewrite E2.
      transitivity (nth_error (s_levels s1) b); [destruct alias; auto; apply nth_error_upd_neq; congruence|].
      rewrite E1. now apply Vo0. }
    constructor.
    - rewrite (fr_g0 _ _ _ F4), E3. cbn. rewrite (fr_g0 _ _ _ F1). auto.
    - rewrite (fr_lal _ _ _ F4), E3. reflexivity.
    - rewrite (fr_tal _ _ _ F4), E3. cbn. rewrite (fr_tal _ _ _ F1). auto.
    - rewrite (fr_I _ _ _ F4), E3. cbn. rewrite (fr_I _ _ _ F1). auto.
    - rewrite (fr_B _ _ _ F4), E3. cbn. rewrite (fr_B _ _ _ F1). auto.
    - rewrite (fr_warn _ _ _ F4), E3. cbn. rewrite (fr_warn _ _ _ F1). auto.
    - rewrite (fr_tick _ _ _ F4), E3. cbn. rewrite (fr_tick _ _ _ F1). auto.
    - destruct (fr_lv _ _ _ F4 _ _ V3) as [l4 [V4 E4]]. exists l4. auto.
    - intros b lb Hb Vb. rewrite <- (Eb b Hb) in Vb. destruct (fr_lv _ _ _ F4 _ _ Vb) as [lb' [Vb' Elb]]. exists lb'. repeat split; auto. intros Hn. eapply K4; eauto.
    - intros l' Hp V'. rewrite (P4 Hp), V3 in V'. injection V' as <-. reflexivity.
    - rewrite T4, E3. exact T1.
  Qed.
End Safe2.
