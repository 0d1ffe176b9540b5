(** Levels and sublevels: no failure, the keys of the sublevels, and lookup by
    name. *)
From Coq Require Import List Bool ZArith QArith Qcanon Lia String Ascii Permutation Sorted.
From Verif Require Import Base PyStr Util UtilProofs Parse Term TermProofs Num Wigner Hyperfine HyperfineProofs
  Graph GraphProofs Rules Atom AtomInv AtomSafe AtomSafe2.
Import ListNotations.

Section Levels.
  Context (N : Num) (muB : N).
  Notation st := (st N).
  Notation level := (level N).
  Notation trans := (trans N).
  Notation M := (M N).
  Implicit Types (s : st) (l : level) (x y : trans) (a : nat) (t : nat).

  (** ** No failure *)

  Lemma safe_Ok {A} : forall R s (m : M A) Q v s', safe R s m Q -> m s = (Ok v, s') -> WF s' /\ R s s' /\ Q v s'.
  Proof. intros R s m Q v s' [H1 [H2 H3]] E. rewrite E in *. auto. Qed.

  Lemma forM_ok {A} : forall (vs : list A) (f : A -> M unit) (Inv : st -> Prop) s, Inv s ->
    (forall v s', In v vs -> Inv s' -> exists s2, f v s' = (Ok tt, s2) /\ Inv s2) ->
    exists s', forM vs f s = (Ok tt, s') /\ Inv s'.
  Proof.
    intros vs f Inv. induction vs as [|v vs IH]; intros s I0 H; simpl.
    - exists s. auto.
    - destruct (H v s (or_introl eq_refl) I0) as [s1 [E1 I1]]. unfold bind. rewrite E1. apply IH; auto.
      intros v' s' Hi. apply H. simpl. auto.
  Qed.

  Lemma populate_ok : forall s a l, WF s -> lv s a = Some l -> exists s', populate_sublevels N a s = (Ok tt, s').
  Proof.
    intros s a l W V. unfold populate_sublevels, get_lv, bind, asks, modify. rewrite V.
    destruct (wf_J _ _ _ _ W V) as [j [EJ _]].
    destruct (l_kind l) eqn:K.
    - destruct (l_attached l); [rewrite EJ|]; eexists; reflexivity.
    - destruct (wf_parent _ _ _ _ W V) as [_ [p [lp [z [P [Vp _]]]]]]; [congruence|].
      destruct (wf_F _ _ _ _ W V) as [j' [f [_ [EF _]]]]; [congruence|].
      rewrite P, Vp, EJ, EF. eexists; reflexivity.
    - eexists; reflexivity.
  Qed.

  Lemma lazy_ok : forall s a l, WF s -> lv s a = Some l -> l_attached l = true ->
    exists l' s', lazy_sublevels N a s = (Ok tt, s') /\ WF s' /\ lookl s s' /\ lv s' a = Some l' /\ lsame l l' /\ full s' a l'.
  Proof.
    intros s a l W V A. assert (H : exists s', lazy_sublevels N a s = (Ok tt, s')).
    { unfold lazy_sublevels, get_lv. unfold bind at 1, asks. rewrite V. destruct (l_subs l) eqn:E; [|eexists; reflexivity].
      rewrite A. destruct (populate_ok s a l W V) as [s1 E1]. unfold bind at 1. rewrite E1.
      destruct (safe_Ok _ _ _ _ _ _ (populate_safe_gen _ ext s a l (ext_refl _) W V A
        (fun keys new => frame_ext _ _ _ (proj1 (install_frame _ s a l keys new V)))) E1) as [W1 [_ [l1 [V1 [F1 _]]]]].
      unfold bind, asks. rewrite V1.
      destruct (forM_ok (dvals (l_subs l1)) (add_node N) (fun s' => s_levels s' = s_levels s1) s1 eq_refl) as [s2 [E2 _]]; eauto.
      intros b s' Ib Es. destruct (full_child _ _ _ _ _ F1 Ib) as [z [key [_ [_ [_ [lb [Vb _]]]]]]].
      rewrite (add_node_eq _ s' b lb) by (unfold lv in *; now rewrite Es). eexists. split; [reflexivity|].
      destruct (l_kind lb); exact Es. }
    destruct H as [s' E]. destruct (safe_Ok _ _ _ _ _ _ (lazy_safe _ s a l W V) E) as [W' [L' [l' [V' [S' F']]]]].
    exists l', s'. auto 10.
  Qed.

  Lemma sublevels_ok : forall s a l, WF s -> lv s a = Some l -> l_attached l = true ->
    exists l' s', lazy_sublevels N a s = (Ok tt, s') /\ sublevels N a s = (Ok (dvals (l_subs l')), s') /\ WF s' /\ lookl s s' /\
      lv s' a = Some l' /\ lsame l l' /\ full s' a l'.
  Proof.
    intros s a l W V A. destruct (lazy_ok s a l W V A) as [l' [s' [E [W' [L' [V' [S' F']]]]]]]. exists l', s'.
    split; auto. split; auto. unfold sublevels, bind, get_lv, asks. now rewrite E, V'.
  Qed.

  Lemma add_sub_ok : forall fuel s b (lb : level), WF s -> lv s b = Some lb -> l_kind lb <> LE -> (depth (l_kind lb) <= fuel)%nat ->
    exists s', lv_add_to_atom N fuel b s = (Ok tt, s').
  Proof.
    induction fuel as [|fuel IH]; intros s b lb W V K D; [destruct (l_kind lb); simpl in D; lia|].
    cbn [lv_add_to_atom]. destruct (wf_parent _ _ _ _ W V K) as [A _].
    assert (E : upd_lv b (lv_set_attached true) s = s) by (eapply upd_lv_id; eauto using attached_id).
    unfold bind at 1, modify. rewrite E. unfold bind at 1. rewrite (add_node_eq _ _ _ _ V).
    set (s1 := set_graph (l_kind lb) (g_add_node (lname lb) b (graph_of (l_kind lb) s)) s) in *.
    assert (V1 : lv s1 b = Some lb) by (unfold s1; now rewrite lv_set_graph).
    assert (W1 : WF s1) by (now apply WF_add_node).
    unfold bind, get_lv, asks. rewrite V1.
    destruct (forM_ok (dvals (l_subs lb)) (lv_add_to_atom N fuel) (fun s' => WF s' /\ s_levels s' = s_levels s1) s1) as [s2 [E2 _]]; eauto.
    intros c s' Ic [W' E']. destruct (subs_children _ _ _ _ _ W1 V1 Ic) as [lc [Vc [Ac [Kc [Kc' Kl]]]]].
    assert (Vc2 : lv s' c = Some lc) by (rewrite (same_levels_lv _ s1); auto).
    assert (Dc : (depth (l_kind lc) <= fuel)%nat) by (rewrite Kc; destruct (l_kind lb); simpl in *; try lia; congruence).
    destruct (IH s' c lc W' Vc2 Kc' Dc) as [s3 E3]. exists s3. split; auto.
    destruct (safe_Ok _ _ _ _ _ _ (add_sub_safe _ fuel s' c lc W' Vc2 Kc' Dc) E3) as [W3 [_ H3]]. split; auto. congruence.
  Qed.

  Lemma add_subs_ok : forall fuel s a l, WF s -> lv s a = Some l -> (depth (l_kind l) <= S fuel)%nat ->
    exists s', forM (dvals (l_subs l)) (lv_add_to_atom N fuel) s = (Ok tt, s').
  Proof.
    intros fuel s a l W V D.
    destruct (forM_ok (dvals (l_subs l)) (lv_add_to_atom N fuel) (fun s' => WF s' /\ s_levels s' = s_levels s) s) as [s2 [E2 _]]; eauto.
    intros c s' Ic [W' E']. destruct (subs_children _ _ _ _ _ W V Ic) as [lc [Vc [Ac [Kc [Kc' Kl]]]]].
    assert (Vc2 : lv s' c = Some lc) by (rewrite (same_levels_lv _ s); auto).
    assert (Dc : (depth (l_kind lc) <= fuel)%nat) by (rewrite Kc; destruct (l_kind l); simpl in *; try lia; congruence).
    destruct (add_sub_ok fuel s' c lc W' Vc2 Kc' Dc) as [s3 E3]. exists s3. split; auto.
    destruct (safe_Ok _ _ _ _ _ _ (add_sub_safe _ fuel s' c lc W' Vc2 Kc' Dc) E3) as [W3 [_ H3]]. split; auto. congruence.
  Qed.

  Lemma bind_Ok {A B} : forall (m : M A) (k : A -> M B) s v s', m s = (Ok v, s') -> bind m k s = k v s'.
  Proof. intros m k s v s' E. unfold bind. now rewrite E. Qed.

  (** add_level never fails. *)
  Lemma add_level_ok : forall s a l populate alias, WF s -> lv s a = Some l ->
    exists s', add_level N a populate alias s = (Ok a, s') /\ WF s' /\ ext s s' /\ added N s a l populate alias s'.
  Proof.
    intros s a l populate alias W V.
    assert (H : exists s', add_level N a populate alias s = (Ok a, s')).
    { unfold add_level. pose proof (joined_spec _ s a l W V) as [W0 [_ [V0 _]]].
      assert (H1 : exists s1, lv_add_to_atom N 3 a s = (Ok tt, s1)).
      { rewrite (lv_add_eq _ _ _ _ V). apply (add_subs_ok 2 (joined N s a l) a _ W0 V0). apply depth_le. }
      destruct H1 as [s1 E1]. rewrite (bind_Ok _ _ _ _ _ E1).
      destruct (safe_Ok _ _ _ _ _ _ (lv_add_safe _ s a l W V) E1) as [W1 [_ [_ EL]]].
      assert (V1 : lv s1 a = Some (lv_set_attached true l)) by (rewrite (same_levels_lv _ (joined N s a l)); auto).
      assert (H2 : exists s2 l2, match alias with Some al => set_alias N a al | None => ret tt end s1 = (Ok tt, s2) /\ WF s2 /\
         lv s2 a = Some l2 /\ l_attached l2 = true).
      { destruct alias as [al|].
        - destruct (set_alias_spec _ s1 a _ al W1 V1 eq_refl) as [s2 [E2 [W2 [_ E2']]]]. exists s2. eexists. split; eauto. split; auto.
          rewrite E2'. split; [unfold lv; cbn; rewrite nth_error_upd_eq; unfold lv in V1; rewrite V1; reflexivity|reflexivity].
        - exists s1. eexists. split; [reflexivity|]. split; eauto. }
      destruct H2 as [s2 [l2 [E2 [W2 [V2 A2]]]]]. rewrite (bind_Ok _ _ _ _ _ E2).
      unfold get_lv. assert (E3 : asks Dangling (fun s0 => lv s0 a) s2 = (Ok l2, s2)) by (unfold asks; now rewrite V2).
      rewrite (bind_Ok _ _ _ _ _ E3).
      assert (H4 : exists s3, match l_alias l2 with Some al => modify (fun s0 => set_lal (dset al a (s_lal s0)) s0) | None => ret tt end s2 = (Ok tt, s3) /\
         WF s3 /\ lv s3 a = Some l2).
      { destruct (l_alias l2) as [al|].
        - destruct (WF_lal _ s2 al a l2 W2 V2 A2) as [W3 _]. eexists. split; [reflexivity|]. auto.
        - eexists. split; [reflexivity|]. auto. }
      destruct H4 as [s3 [E4 [W3 V3]]]. rewrite (bind_Ok _ _ _ _ _ E4).
      destruct populate; [|eexists; reflexivity].
      destruct (populate_ok s3 a l2 W3 V3) as [s4 E5].
      destruct (safe_Ok _ _ _ _ _ _ (populate_safe_gen _ ext s3 a l2 (ext_refl _) W3 V3 A2
        (fun keys new => frame_ext _ _ _ (proj1 (install_frame _ s3 a l2 keys new V3)))) E5) as [W4 [X4 [l4 [V4 [F4 _]]]]].
      destruct (sublevels_ok s4 a l4 W4 V4 (proj1 F4)) as [l5 [s5 [_ [E6 [W5 [_ [V5 _]]]]]]].
      destruct (add_subs_ok 3 s5 a l5 W5 V5) as [s6 E7]; [pose proof (depth_le (l_kind l5)); lia|].
      exists s6. unfold bind. now rewrite E5, E6, E7. }
    destruct H as [s' E]. exists s'. split; auto.
    destruct (safe_Ok _ _ _ _ _ _ (add_level_safe _ s a l populate alias W V) E) as [W' [[X' _] [_ Ad]]]. auto.
  Qed.

  (** ** Keys of sublevels *)

  Lemma full_keys : forall s a l, full s a l -> dkeys (l_subs l) = map (sub_key (l_kind l)) (sub_range s l).
  Proof. intros s a l [_ F]. induction F; simpl; auto. destruct H as [-> _]. now f_equal. Qed.

  Lemma full_nodup : forall s a l, full s a l -> NoDup (dkeys (l_subs l)).
  Proof. intros s a l F. rewrite (full_keys _ _ _ F). apply NoDup_map_inj; [apply sub_key_inj|apply sub_range_nodup]. Qed.

  Lemma Forall2_and {A B} (P Q : A -> B -> Prop) : forall u v, Forall2 P u v -> Forall2 Q u v -> Forall2 (fun i j => P i j /\ Q i j) u v.
  Proof. induction 1; intros H1; inversion H1; subst; constructor; auto. Qed.

  Lemma full_values : forall s a l, full s a l ->
    Forall2 (fun z b => dget (sub_key (l_kind l) z) (l_subs l) = Some b /\ child s a l z b) (sub_range s l) (dvals (l_subs l)).
  Proof.
    intros s a l F. pose proof (full_nodup _ _ _ F) as Nd. destruct F as [_ F].
    assert (G : forall zs (d : dict string nat), incl d (l_subs l) ->
       Forall2 (fun z kb => fst kb = sub_key (l_kind l) z /\ child s a l z (snd kb)) zs d ->
       Forall2 (fun z b => dget (sub_key (l_kind l) z) (l_subs l) = Some b /\ child s a l z b) zs (dvals d)).
    { intros zs d Hi H. induction H as [|z [k b] zs d [H1 H2] H IH]; simpl; constructor.
      - simpl in *. split; auto. apply In_dget_nodup; auto. rewrite <- H1. apply Hi. simpl; auto.
      - apply IH. intros kb Hk. apply Hi. simpl; auto. }
    apply G; auto. apply incl_refl.
  Qed.

  Lemma full_other : forall s a l key, full s a l -> (forall z, In z (sub_range s l) -> key <> sub_key (l_kind l) z) ->
    dget key (l_subs l) = None.
  Proof.
    intros s a l key F H. apply dget_None. rewrite (full_keys _ _ _ F). intros I. apply in_map_iff in I as [z [E I]].
    apply (H z I). auto.
  Qed.

  Lemma full_key : forall s a l z, full s a l -> In z (sub_range s l) ->
    exists b, dget (sub_key (l_kind l) z) (l_subs l) = Some b /\ child s a l z b.
  Proof.
    intros s a l z F I. pose proof (full_values _ _ _ F) as H. induction H; [contradiction|].
    destruct I as [->|I]; auto. eauto.
  Qed.

  (** *** level[key] *)

  Lemma no_J : forall k z, has_char "J" (sub_key k z) = false.
  Proof. intros [] z; unfold sub_key, F_key, mF_key; rewrite has_char_app, half_label_free by reflexivity; reflexivity. Qed.
  Lemma no_mJ : forall k z, contains "mJ" (sub_key k z) = false.
  Proof.
    intros k z. destruct (contains "mJ" (sub_key k z)) eqn:E; auto.
    apply (contains_char "J") in E; [|reflexivity]. now rewrite no_J in E.
  Qed.

  Lemma getitem_plain : forall s a l l' s' key, WF s -> lv s a = Some l ->
    lazy_sublevels N a s = (Ok tt, s') -> lv s' a = Some l' -> ((s_I s =? 0)%Z && contains "mJ" key) = false ->
    getitem N a key s = (match dget key (l_subs l') with Some b => Ok b | None => Raise KeyError end, s').
  Proof.
    intros s a l l' s' key W V E V' C. unfold getitem. cbn [lv_getitem]. rewrite (bind_Ok _ _ _ _ _ E).
    assert (I' : s_I s' = s_I s).
    { destruct (lazy_safe _ s a l W V) as [_ [[L _] _]]. rewrite E in L. apply L. }
    unfold bind, get_lv, asks, gets. rewrite V', I', C. destruct (dget key (l_subs l')); reflexivity.
  Qed.
End Levels.
