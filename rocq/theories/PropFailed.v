(** Property C147: what fails leaves the atom as it was. *)
From Coq Require Import List Bool ZArith QArith Qcanon Lia String Ascii Permutation.
From Verif Require Import Base Num PyStr Util UtilProofs Regex Parse Term TermProofs Hyperfine HyperfineProofs Graph GraphProofs Rules Atom AtomInv
  AtomSafe AtomSafe2 AtomSafe3 AtomSafe4 AtomSafe5 AtomSafe6 AtomLevels AtomKeep AtomAlias AtomPaths AtomTrans AtomEnforce AtomEnforce4 AtomExample Views
  DictView PropDictView PropLooking PropEnforce PropRoundSub.
Import ListNotations.
Local Open Scope string_scope.
Local Open Scope list_scope.

(** What can be seen of an atom and of its levels and transitions: as C134. *)
Definition unchanged {N : Num} (muB : N) (s s' : st N) : Prop :=
  (level_keys N s' = level_keys N s /\ level_values N s' = level_values N s /\ trans_keys N s' = trans_keys N s /\ trans_values N s' = trans_values N s) /\
  (s_lal s' = s_lal s /\ s_tal s' = s_tal s /\ s_I s' = s_I s /\ s_B s' = s_B s /\ s_warn s' = s_warn s) /\
  by_energy N muB s' = by_energy N muB s /\
  (forall a l, lv s a = Some l -> energy N muB s' a = energy N muB s a /\ exists l', lv s' a = Some l' /\
    (l_term l' = l_term l /\ l_kind l' = l_kind l /\ l_parent l' = l_parent l /\ l_alias l' = l_alias l /\ l_attached l' = l_attached l) /\
    (l_E l' = l_E l /\ l_hfA l' = l_hfA l /\ l_hfB l' = l_hfB l /\ l_hfC l' = l_hfC l /\ l_lande l' = l_lande l /\ l_gF l' = l_gF l /\ l_qz l' = l_qz l /\ l_fixed l' = l_fixed l) /\
    (l_subs l <> [] -> l_subs l' = l_subs l)) /\
  (forall t x, tr s t = Some x -> freq N muB s' t = freq N muB s t /\ exists x', tr s' t = Some x' /\
    (x_kind x' = x_kind x /\ x_parent x' = x_parent x /\ x_E1 x' = x_E1 x /\ x_E2 x' = x_E2 x /\ x_up x' = x_up x /\ x_lo x' = x_lo x) /\
    (x_A x' = x_A x /\ x_rel x' = x_rel x /\ x_set x' = x_set x /\ x_allowed x' = x_allowed x /\ x_alias x' = x_alias x)).

Section Failed.
  Context {N : Num} (muB : N) (orc : nat -> oracle) (OK : forall n, oracle_ok (orc n)).
  Implicit Types s : st N.

  Lemma look0_unchanged : forall s s', WF s -> look0 s s' -> unchanged muB s s'.
  Proof.
    intros s s' W [F Sb]. pose proof F as [G La Ta I0 B0 Wn _ Fl Ft].
    split; [unfold level_keys, level_values, trans_keys, trans_values; rewrite G; auto|].
    split; [repeat (split; [assumption|]); assumption|]. split; [now apply by_energy_frame|]. split.
    - intros a l V. split; [apply frame_energy; congruence|]. destruct (Fl _ _ V) as [l' [V' E]]. exists l'. split; auto.
      split; [rewrite E; repeat split; reflexivity|]. split; [rewrite E; repeat split; reflexivity|]. intros Hn. apply (Sb a l l'); auto.
    - intros t x V. destruct (Ft _ _ V) as [x' [V' E]].
      assert (E1 : x_E1 x' = x_E1 x) by (rewrite E; reflexivity). assert (E2 : x_E2 x' = x_E2 x) by (rewrite E; reflexivity). split.
      + unfold freq. rewrite V, V', E1, E2. destruct (wf_tr _ _ W _ _ V) as [l1 [l2 [V1 [V2 _]]]].
        rewrite !(frame_energy N muB s s') by (auto; congruence). reflexivity.
      + exists x'. split; auto. split; rewrite E; repeat split; reflexivity.
  Qed.

  (** ** Programs that only look *)

  Definition looks {A} (m : M N A) : Prop := forall s, WF s -> WF (snd (m s)) /\ look s (snd (m s)).
  Lemma looks_ret : forall A (v : A), looks (ret v).
  Proof. intros A v s W. split; auto. apply look_po. Qed.
  Lemma looks_asks : forall A e (g : st N -> option A), looks (asks e g).
  Proof. intros A e g s W. unfold asks. destruct (g s); (split; [exact W|apply look_po]). Qed.
  Lemma looks_gets : forall A (g : st N -> A), looks (gets g).
  Proof. intros A g s W. split; auto. apply look_po. Qed.
  Lemma looks_bind : forall A B (m : M N A) (f : A -> M N B), looks m -> (forall v, looks (f v)) -> looks (bind m f).
  Proof.
    intros A B m f Hm Hf s W. destruct (Hm s W) as [W1 L1]. unfold bind. destruct (m s) as [[v|e] s1]; cbn [snd] in *; auto.
    destruct (Hf v s1 W1) as [W2 L2]. split; auto. eapply look_trans; eauto.
  Qed.
  Lemma looks_forM : forall A (l : list A) (f : A -> M N unit), (forall v, looks (f v)) -> looks (forM l f).
  Proof. intros A l f H. induction l as [|v l IH]; cbn [forM]; [apply looks_ret|]. apply looks_bind; auto. Qed.
  Lemma looks_transitions : forall k, looks (transitions_get N muB k).
  Proof. intros k s W. destruct (transitions_get_safe N muB s k W) as [W1 [L1 _]]. auto. Qed.
  Lemma looks_levels : forall k, looks (levels_get N k).
  Proof. intros k s W. destruct (levels_get_safe N s k W) as [W1 [[L1 _] _]]. auto. Qed.
  Lemma looks_populate : forall al, looks (populate_transitions N muB al).
  Proof.
    intros al. unfold populate_transitions. apply looks_forM. intros d. apply looks_bind; [apply looks_gets|]. intros ps. apply looks_forM. intros ab.
    unfold populate_pair. apply looks_bind; [apply looks_asks|]. intros na. apply looks_bind; [apply looks_asks|]. intros nb.
    apply looks_bind; [apply looks_transitions|]. intros t. apply looks_ret.
  Qed.
  (** A new transition that is refused is not in the atom. *)
  Lemma new_transition_fails : forall s e1 e2 f A alias e s', WF s -> is_lv N s e1 -> is_lv N s e2 ->
    new_transition N muB e1 e2 f A alias s = (Raise e, s') -> look s s'.
  Proof.
    intros s e1 e2 f A alias e s' W [l1 V1] [l2 V2] E. destruct (new_transition_spec N muB s e1 e2 f A alias l1 l2 W V1 V2) as [S1 S2].
    assert (D : (l_kind l1 = LE /\ l_kind l2 = LE) \/ (l_kind l1 <> LE \/ l_kind l2 <> LE)).
    { destruct (l_kind l1), (l_kind l2); try (right; left; congruence); try (right; right; congruence); auto. }
    destruct D as [[K1 K2]|D].
    - destruct (S1 K1 K2) as [x [j1 [j2 [_ [_ [_ [_ [_ Eq]]]]]]]]. rewrite Eq in E. destruct alias as [b|]; [|discriminate E].
      unfold put_trans in E. destruct (x_attached x); [discriminate E|]. injection E as <- <-. apply app_tr_look.
    - rewrite (S2 D) in E. injection E as <- <-. apply look_po.
  Qed.

  Lemma void_raise : forall A (m : M N A) s e s', void N m s = (Raise e, s') -> m s = (Raise e, s').
  Proof. intros A m s e s' E. unfold void, bind in E. destruct (m s) as [[v|e'] s1]; [discriminate E|]. congruence. Qed.

  (** ** Programs that cannot fail *)

  Lemma set_energy_total : forall s a l v, WF s -> lv s a = Some l -> exists s', set_energy N muB a v s = (Ok tt, s').
  Proof.
    intros s a l v W V. destruct (shape muB (fun _ : N => True) s a l W) as [p [lp [o [_ [_ [_ [_ [_ [_ [_ [_ [_ [H _]]]]]]]]]]]]]; eauto.
    split; auto.
  Qed.
  Lemma internal_total : forall s, WF s -> fst (populate_internal N muB s) = Ok tt.
  Proof.
    intros s W. unfold populate_internal, bind at 1, gets.
    assert (G : forall ls s1, (forall a, In a ls -> In a (dvals (node_attrs (s_g0 s)))) -> WF s1 -> ext s s1 ->
      fst (forM ls (fun a => bind (new_transition N muB a a None None None) (fun t => tr_add_to_atom N t)) s1) = Ok tt).
    { induction ls as [|a ls IH]; intros s1 Hl W1 X1; cbn [forM]; [reflexivity|].
      destruct (nodes_levels _ s LE a W (Hl a (or_introl eq_refl))) as [n [l [V [K _]]]].
      destruct (ext_lv _ _ _ X1 _ _ V) as [l1 [V1 E1]].
      assert (K1 : l_kind l1 = LE) by (destruct E1 as [E1 _]; congruence).
      destruct (new_transition_spec N muB s1 a a None None None l1 l1 W1 V1 V1) as [S1 _]. destruct (S1 K1 K1) as [x [j1 [j2 [_ [_ [_ [St [Sx Eq]]]]]]]].
      cbn [option_map] in Eq. pose proof (put_trans_spec N s1 x W1 St Sx) as PS. pose proof (put_trans_ext N s1 x W1 St Sx) as X2.
      destruct (put_tr N s1 x _ PS) as [Vt _]. pose proof (pu_wf _ _ _ _ PS) as W2.
      unfold bind at 1. unfold bind at 1. rewrite Eq. cbv beta iota. rewrite (tr_add_eq N _ _ _ W2 Vt), Sx.
      destruct (tr_joined_spec N _ _ _ W2 Vt) as [W3 [X3 _]]. apply IH; auto.
      - intros b I. apply Hl. simpl. auto.
      - eapply ext_trans; [exact X1|]. eapply ext_trans; eauto. }
    apply G; auto. apply ext_refl.
  Qed.

  (** The operations that the theorem is about: all but the alias setters, and
      those that set or enforce frequencies or add a transition. *)
  Definition guarded (o : op N) : bool :=
    match o with OAlias _ _ _ | OTAlias _ _ _ | OSetFreq _ _ _ | OEnforce _ | OAddTransition _ _ _ _ _ => false | _ => true end.

  Theorem C147_partial : forall s o e s', reachable N muB orc s -> guarded o = true ->
    run_op N muB orc o s = (Raise e, s') -> unchanged muB s s'.
  Proof.
    intros s o e s' R G E. pose proof (reachable_WF N muB orc OK s R) as W.
    assert (Es : s' = step N muB orc s o) by (unfold step; rewrite E; reflexivity).
    apply look0_unchanged; auto. destruct (reading N o) eqn:Rd; [rewrite Es; now apply (reading_step N muB orc)|].
    destruct (invalid_unchanged N muB orc s o W) as [V|V]; [|rewrite Es, V; apply look0_po].
    destruct o; try discriminate G; try discriminate Rd; cbn [run_op op_valid] in *; try (unfold modify in E; discriminate E).
    - apply void_raise in E. unfold new_level in E. destruct ts as [|t0 ts]; [unfold raise in E; injection E as <- <-; apply look0_po|].
      destruct (forallb _ _); [discriminate E|]. unfold raise in E. injection E as <- <-. apply look0_po.
    - apply void_raise in E. destruct V as [l V]. destruct (add_level_ok N s a l populate alias W V) as [s1 [E1 _]]. rewrite E1 in E. discriminate E.
    - unfold del_level in E. destruct (g_remove_node _ _); [discriminate E|]. injection E as <- <-. apply look0_po.
    - destruct V as [l V]. destruct (set_energy_total s a l v W V) as [s1 E1]. rewrite E1 in E. discriminate E.
    - apply void_raise in E. destruct V as [V1 V2]. apply (lo_look0 N s s'), (new_transition_fails s e1 e2 f A alias e s' W V1 V2 E).
    - rewrite Es. unfold step. cbn [run_op]. apply (looks_populate al s W).
    - pose proof (internal_total s W) as H. rewrite E in H. discriminate H.
  Qed.

  (** Adding a transition between names that are not both those of levels. *)
  Theorem C147_names_partial : forall s a b f A alias e s', reachable N muB orc s -> dmem (a, b) (edge_attrs (s_g0 s)) = false ->
    (forall s1 s2 c d, levels_get N a s = (Ok c, s1) -> levels_get N b s1 = (Ok d, s2) -> False) ->
    run_op N muB orc (OAddTransition N (TNames a b) f A alias) s = (Raise e, s') ->
    unchanged muB s s'.
  Proof.
    intros s a b f A alias e s' R D H E. pose proof (reachable_WF N muB orc OK s R) as W. apply look0_unchanged; auto.
    cbn [run_op] in E. apply void_raise in E. unfold add_transition in E.
    destruct (looks_levels a s W) as [W1 L1]. unfold bind at 1 2, gets in E. rewrite D in E. unfold bind at 1 in E.
    destruct (levels_get N a s) as [[c|e1] s1] eqn:E1; cbn [snd] in *; [|injection E as <- <-; apply L1].
    destruct (looks_levels b s1 W1) as [W2 L2]. unfold bind at 1 in E.
    destruct (levels_get N b s1) as [[d|e2] s2] eqn:E2; cbn [snd] in *; [exfalso; eauto|]. injection E as <- <-. apply (look_trans _ _ _ _ L1 L2).
  Qed.

  (** ** Atoms whose transitions have their levels in the atom *)

  Definition at_home s : Prop := forall u v t x, edge (s_g0 s) u v = Some t -> tr s t = Some x -> home N s (x_lo x) /\ home N s (x_up x).

  Lemma comp_total : forall o s c, oracle_ok o -> WF s -> homes N s -> incl c (set_nodes s) ->
    fst (enforce_comp N muB o (S (List.length (set_nodes s))) c s) = Ok tt.
  Proof.
    intros o s c O W H Ic. unfold enforce_comp, bind, asks.
    destruct (lowest_ok N muB s (o_nodes o c) None) as [r [E _]]; auto.
    { intros n I. apply (perm_incl _ _ (ok_nodes _ O c)) in I. destruct (set_node_level N muB s n W H (Ic _ I)) as [a [l [D [_ [_ [_ En]]]]]]. eauto. }
    rewrite E. destruct r as [[a k]|]; [|reflexivity].
    assert (Ik : In k (set_nodes s)).
    { apply lowest_In in E as [I|[? E]]; [|discriminate]. apply Ic. eapply perm_incl; [apply (ok_nodes _ O)|exact I]. }
    destruct (dfs_set N o s k O W Ik) as [es [vis [_ [Ed [_ [_ He]]]]]]. rewrite Ed. apply (enforce_edges N es s W He).
  Qed.
  Lemma comps_total : forall o from n cs s, oracle_ok o -> WF s -> homes N s -> n = S (List.length (set_nodes s)) ->
    (forall c, In c cs -> incl c (set_nodes s)) -> fst (forM cs (comp_step N muB o n from) s) = Ok tt.
  Proof.
    intros o from n cs. induction cs as [|c cs IH]; intros s O W H E Hc; [reflexivity|]. cbn [forM]. unfold bind. rewrite comp_step_eq.
    destruct (touched s c from); [|apply IH; auto; intros c' I; apply Hc; simpl; auto].
    pose proof (comp_total o s c O W H (Hc c (or_introl eq_refl))) as F. rewrite <- E in F.
    pose proof (proj2 (enforce_comp_safe N muB o s c O W (Hc c (or_introl eq_refl)))) as Mv. rewrite <- E in Mv.
    destruct (enforce_comp N muB o n c s) as [r s1]. cbn [fst snd] in *. subst r.
    apply IH; auto.
    - eapply moved_WF; eauto.
    - eapply homes_moved; eauto.
    - now rewrite (set_nodes_moved _ _ _ Mv).
    - intros c' I. rewrite (set_nodes_moved _ _ _ Mv). apply Hc. simpl. auto.
  Qed.
  Lemma enforce_total : forall s from, WF s -> homes N s -> exists s', enforce N muB orc from s = (Ok tt, s').
  Proof.
    intros s from W H. assert (F : fst (enforce N muB orc from s) = Ok tt).
    { unfold enforce, bind, gets, modify, asks. cbv beta iota. pose proof (moved_tick N s) as Mt. pose proof (moved_WF _ _ _ W Mt) as Wt.
      destruct (enforce_comp_list N (tick s) Wt) as [cs [E Hc]]. rewrite E.
      apply (comps_total (orc (s_tick s)) from _ (o_comps (orc (s_tick s)) cs) (tick s) (OK _) Wt); [exact (homes_moved N _ _ Mt H)|reflexivity|].
      intros c I. apply Hc. eapply Permutation_in; [apply (ok_comps _ (OK (s_tick s)))|exact I]. }
    destruct (enforce N muB orc from s) as [r s']. cbn [fst] in F. subst r. eauto.
  Qed.

  Lemma home_attached : forall s a l, WF s -> home N s a -> lv s a = Some l -> l_attached l = true.
  Proof.
    intros s a l W [l0 [V D]] V'. rewrite V in V'. injection V' as <-. destruct (go_node _ _ _ _ (wf_g _ _ W LE) _ _ D) as [l1 [V1 [_ [_ A]]]]. congruence.
  Qed.
  Lemma set_freqT_total : forall s u v t x f, WF s -> at_home s -> edge (s_g0 s) u v = Some t -> tr s t = Some x ->
    exists s', set_freqT N muB orc t f s = (Ok tt, s').
  Proof.
    intros s u v t x f W H Ed V. destruct (H u v t x Ed V) as [Hl Hu].
    destruct (wf_tr _ _ W _ _ V) as [l1 [l2 [V1 [V2 [_ [_ [UL _]]]]]]].
    assert (Ex : exists ll lu, lv s (x_lo x) = Some ll /\ lv s (x_up x) = Some lu) by (destruct UL as [[-> ->]|[-> ->]]; eauto).
    destruct Ex as [ll [lu [Vl Vu]]].
    assert (A1 : l_attached l1 = true).
    { destruct UL as [[_ E1]|[E1 _]]; [rewrite E1 in Hl; exact (home_attached s _ l1 W Hl V1)|rewrite E1 in Hu; exact (home_attached s _ l1 W Hu V1)]. }
    unfold set_freqT, get_tr, get_lv. rewrite (bind_asks _ _ _ _ _ x) by exact V. rewrite (bind_asks _ _ _ _ _ lu) by exact Vu. rewrite (bind_asks _ _ _ _ _ ll) by exact Vl.
    set (b := _ && _ && _). set (s1 := if b then upd_lv (x_up x) (@lv_set_fixed N false) s else s).
    assert (E1 : forall g : unit -> M N unit, bind (if b then modify (upd_lv (x_up x) (@lv_set_fixed N false)) else ret tt) g s = g tt s1) by (intros g; unfold s1; destruct b; reflexivity).
    rewrite E1. unfold bind at 1, modify. set (s2 := upd_tr t (@tr_set_set N (Some f)) s1).
    assert (W1 : WF s1 /\ forall c lc, lv s c = Some lc -> exists lc', lv s1 c = Some lc' /\ lname lc' = lname lc /\ l_attached lc' = l_attached lc).
    { unfold s1. destruct b; [|split; auto; intros c lc Vc; eauto]. split; [apply (WF_upd_lv _ s (x_up x) (@lv_set_fixed N false) W); repeat split; auto|].
      intros c lc Vc. rewrite lv_upd_lv, Vc. destruct (Nat.eqb _ _); cbn; eauto. }
    destruct W1 as [W1 L1]. assert (G1 : s_g0 s1 = s_g0 s) by (unfold s1; now destruct b). assert (T1 : s_trans s1 = s_trans s) by (unfold s1; now destruct b).
    assert (W2 : WF s2) by (apply (WF_upd_tr _ s1 t (@tr_set_set N (Some f)) W1); intros; repeat split).
    assert (Hh : forall a, home N s a -> home N s2 a).
    { intros a [la [Va Da]]. destruct (L1 a la Va) as [la' [Va' [En _]]]. exists la'. split; [exact Va'|]. rewrite En. change (s_g0 s2) with (s_g0 s1). now rewrite G1. }
    assert (H2 : homes N s2).
    { intros p q t' x' E Is V'. change (s_g0 s2) with (s_g0 s1) in E. rewrite G1 in E. unfold s2 in V'. rewrite tr_upd_tr in V'.
      assert (Vt : exists y, tr s t' = Some y /\ x_lo x' = x_lo y /\ x_up x' = x_up y).
      { unfold tr in *. rewrite T1 in V'. destruct (nth_error (s_trans s) t') as [y|]; [|destruct (Nat.eqb t t'); discriminate V'].
        exists y. split; auto. destruct (Nat.eqb t t'); injection V' as <-; auto. }
      destruct Vt as [y [Vy [E2 E3]]]. rewrite E2, E3. destruct (H p q t' y E Vy). auto. }
    destruct (L1 _ _ V1) as [l1' [V1' [_ A1']]]. destruct (L1 _ _ V2) as [l2' [V2' _]].
    assert (V1'' : lv s2 (x_E1 x) = Some l1') by exact V1'. assert (V2'' : lv s2 (x_E2 x) = Some l2') by exact V2'.
    rewrite (bind_asks _ _ _ _ _ l1') by exact V1''. rewrite (bind_asks _ _ _ _ _ l2') by exact V2''. rewrite A1', A1. apply enforce_total; auto.
  Qed.

  (** The transition whose line [t] is: [t] itself, its parent or the parent
      of that. *)
  Definition line_of s t r : Prop := exists x, tr s t = Some x /\
    match x_kind x with TT => r = t | THF => x_parent x = Some r | TZ => exists p y, x_parent x = Some p /\ tr s p = Some y /\ x_parent y = Some r end.

  (** Then enforce_consistency and set_frequency, for transitions and their
      lines, do not fail. *)
  Theorem C147_enforce_partial : forall s, reachable N muB orc s -> at_home s ->
    (exists s', enforce N muB orc None s = (Ok tt, s')) /\
    (forall t r u v f, line_of s t r -> edge (s_g0 s) u v = Some r -> exists s', set_frequency N muB orc t f s = (Ok tt, s')).
  Proof.
    intros s R H. pose proof (reachable_WF N muB orc OK s R) as W. split.
    - apply enforce_total; auto. intros u v t x E _ V. eauto.
    - intros t r u v f [x [V Rt]] Ed. unfold set_frequency, get_tr. rewrite (bind_asks _ _ _ _ _ x) by exact V.
      assert (T : forall g, exists s', set_freqT N muB orc r g s = (Ok tt, s')).
      { intros g. destruct (go_edge _ _ _ _ (wf_g _ _ W LE) _ _ _ Ed) as [xr [Vr _]]. eapply set_freqT_total; eauto. }
      assert (Hf : forall c y g, tr s c = Some y -> x_parent y = Some r -> exists s', set_freqHF N muB orc c g s = (Ok tt, s')).
      { intros c y g Vc P. unfold set_freqHF, get_tr. rewrite (bind_asks _ _ _ _ _ y) by exact Vc. destruct (freq_total N muB s c y W Vc) as [g0 E0]. rewrite (bind_asks _ _ _ _ _ g0) by exact E0.
        unfold bind at 1, asks at 1. rewrite P. destruct (go_edge _ _ _ _ (wf_g _ _ W LE) _ _ _ Ed) as [xr [Vr _]].
        destruct (freq_total N muB s r xr W Vr) as [g1 E1]. rewrite (bind_asks _ _ _ _ _ g1) by exact E1. apply T. }
      destruct (x_kind x).
      + subst r. apply T.
      + eapply Hf; eauto.
      + destruct Rt as [p [xp [P [Vp Pp]]]].
        unfold set_freqZ, get_tr. rewrite (bind_asks _ _ _ _ _ x) by exact V. destruct (freq_total N muB s t x W V) as [g0 E0]. rewrite (bind_asks _ _ _ _ _ g0) by exact E0.
        unfold bind at 1, asks at 1. rewrite P. destruct (freq_total N muB s p xp W Vp) as [g1 E1]. rewrite (bind_asks _ _ _ _ _ g1) by exact E1. eapply Hf; eauto.
  Qed.

  (** Aliases of levels and transitions that are in the atom can always be set. *)
  Theorem C147_alias_partial : forall s, reachable N muB orc s ->
    (forall a l al, lv s a = Some l -> l_attached l = true -> exists s', run_op N muB orc (OAlias N a al) s = (Ok tt, s')) /\
    (forall t x al, tr s t = Some x -> x_attached x = true -> exists s', run_op N muB orc (OTAlias N t al) s = (Ok tt, s')).
  Proof.
    intros s _. split.
    - intros a l al V At. cbn [run_op]. unfold set_alias, get_lv. unfold bind at 1, modify at 1.
      rewrite (bind_asks _ _ _ _ _ (lv_set_alias (Some al) l)) by (rewrite lv_upd_lv, Nat.eqb_refl, V; reflexivity).
      change (l_attached (lv_set_alias (Some al) l)) with (l_attached l). rewrite At. eexists. reflexivity.
    - intros t x al V At. cbn [run_op]. unfold tr_alias, get_tr. unfold bind at 1, modify at 1.
      rewrite (bind_asks _ _ _ _ _ (tr_set_alias (Some al) x)) by (rewrite tr_upd_tr, Nat.eqb_refl, V; reflexivity).
      change (x_attached (tr_set_alias (Some al) x)) with (x_attached x). rewrite At. eexists. reflexivity.
  Qed.
End Failed.
Print Assumptions C147_partial.
Print Assumptions C147_names_partial.
Print Assumptions C147_enforce_partial.
Print Assumptions C147_alias_partial.

(** ** Cases *)

Definition at_homeb (s : st Exact) : bool := forallb (fun x : trans Exact => homeb s (x_lo x) && homeb s (x_up x)) (s_trans s).
Lemma at_homeb_ok : forall s : st Exact, at_homeb s = true -> at_home s.
Proof.
  intros s H u v t x _ V. unfold at_homeb in H. rewrite forallb_forall in H. specialize (H x (nth_error_In _ _ V)).
  apply andb_true_iff in H as [H1 H2]. split; now apply homeb_home.
Qed.

(** A level that is not known, a level that is not there to be deleted, and a
    transition with an alias between levels that are not in the atom. *)
Example C147_case : let s := runx (from 1) [nl tS 0; add 0; nl tP 10; nl tQ 15] in reachable Exact 1%Qc plain s /\
  fst (run_op Exact 1%Qc plain (OLevel Exact "6d 2D3/2") s) = Raise KeyError /\
  fst (run_op Exact 1%Qc plain (ODelLevel Exact "6p 2P*1/2") s) = Raise NetworkXError /\
  fst (run_op Exact 1%Qc plain (ONewTransition Exact 1 2 None None (Some "red")) s) = Raise AttributeError.
Proof. cbv zeta. split; [apply from_reachable; lia|]. do 2 (split; [vm_compute; reflexivity|]). vm_compute. reflexivity. Qed.
(** Names of which one is not that of a level. *)
Example C147_names_case : let s := runx (from 1) os_two in reachable Exact 1%Qc plain s /\
  dmem ("6s 2S1/2", "6d 2D3/2") (edge_attrs (s_g0 s)) = false /\
  fst (levels_get Exact "6d 2D3/2" (snd (levels_get Exact "6s 2S1/2" s))) = Raise KeyError /\
  fst (run_op Exact 1%Qc plain (OAddTransition Exact (TNames "6s 2S1/2" "6d 2D3/2") None None None) s) = Raise KeyError.
Proof. cbv zeta. split; [apply from_reachable; lia|]. do 2 (split; [vm_compute; reflexivity|]). vm_compute. reflexivity. Qed.
(** A chain of three levels. *)
Example C147_enforce_case : reachable Exact 1%Qc plain chain /\ at_home chain /\
  exists x, tr chain 0 = Some x /\ x_kind x = TT /\ edge (s_g0 chain) "6s 2S1/2" "6p 2P*1/2" = Some 0%nat.
Proof.
  split; [apply chain_reachable|]. split; [apply at_homeb_ok; vm_compute; reflexivity|]. destruct (tr chain 0) as [x|] eqn:V.
  - exists x. split; auto. split; [|vm_compute; reflexivity]. apply (f_equal (option_map (@x_kind Exact))) in V. symmetry in V. cbn [option_map] in V.
    assert (E : option_map (@x_kind Exact) (tr chain 0) = Some TT) by (vm_compute; reflexivity). congruence.
  - exfalso. apply (f_equal (option_map (@x_kind Exact))) in V. assert (E : option_map (@x_kind Exact) (tr chain 0) = Some TT) by (vm_compute; reflexivity). rewrite E in V. discriminate V.
Qed.

(** ** What fails and changes the atom nevertheless *)

(** The alias of a level that is not in the atom: setting it raises.  When the
    level is added later, it has the alias. *)
Theorem C147_alias_refuted : let s := runx (from 1) [nl tS 0] in let o := OAlias Exact 0 "ground" in reachable Exact 1%Qc plain s /\
  fst (run_op Exact 1%Qc plain o s) = Raise AttributeError /\
  fst (levels_get Exact "ground" (runx s [add 0])) = Raise KeyError /\ fst (levels_get Exact "ground" (runx s [o; add 0])) = Ok 0%nat.
Proof. cbv zeta. split; [apply from_reachable; lia|]. do 2 (split; [vm_compute; reflexivity|]). vm_compute. reflexivity. Qed.
(** That of a transition. *)
Theorem C147_tr_alias_refuted : let s := runx (from 1) [nl tS 0; nl tP 10; ONewTransition Exact 0 1 None None None] in let o := OTAlias Exact 0 "cooling" in
  let later := [add 0; add 1; OAddTransition Exact (TObj 0) None None None] in reachable Exact 1%Qc plain s /\
  fst (run_op Exact 1%Qc plain o s) = Raise AttributeError /\
  dget "cooling" (s_tal (runx s later)) = None /\ dget "cooling" (s_tal (runx s (o :: later))) = Some 0%nat.
Proof. cbv zeta. split; [apply from_reachable; lia|]. do 2 (split; [vm_compute; reflexivity|]). vm_compute. reflexivity. Qed.
(** The frequency of a transition from a level that is not in the atom: when
    the transition is added, its upper level moves. *)
Theorem C147_frequency_refuted : let s := runx (from 1) [nl tS 0; nl tP 10; ONewTransition Exact 0 1 None None None] in let o := OSetFreq Exact 0 (Q2Qc 12) in
  let later := [add 0; add 1; OAddTransition Exact (TObj 0) None None None] in reachable Exact 1%Qc plain s /\
  fst (run_op Exact 1%Qc plain o s) = Raise AttributeError /\
  option_map this (freq Exact 1%Qc (runx s later) 0) = Some 10%Q /\ option_map this (freq Exact 1%Qc (runx s (o :: later)) 0) = Some 12%Q.
Proof. cbv zeta. split; [apply from_reachable; lia|]. do 2 (split; [vm_compute; reflexivity|]). vm_compute. reflexivity. Qed.
(** A transition whose lines were listed and whose level was deleted and added:
    adding it raises, and it is in the atom. *)
Theorem C147_add_refuted : let s := runx (from 1) (os_two ++ [ONewTransition Exact 0 1 None None None; OSubtransitions Exact 0; ODelLevel Exact "6p 2P*1/2"; add 1]) in
  let o := OAddTransition Exact (TObj 0) None None None in reachable Exact 1%Qc plain s /\
  fst (run_op Exact 1%Qc plain o s) = Raise AttributeError /\
  trans_values Exact s = [] /\ trans_values Exact (runx s [o]) = [0%nat].
Proof. cbv zeta. split; [apply from_reachable; lia|]. do 2 (split; [vm_compute; reflexivity|]). vm_compute. reflexivity. Qed.
(** Enforcing the frequencies of an atom with a transition to a level that was
    never added raises, after other levels were moved. *)
Theorem C147_enforce_refuted : let s := runx (from 1) (os_two ++ [nl tQ 15; nl (ex_term "5d" "2D" 5) 5;
    OAddTransition Exact (TLevels 2 3) (Some (Q2Qc 10)) None None; add 2; ONewTransition Exact 0 1 (Some (Q2Qc 12)) None None]) in
  reachable Exact 1%Qc plain s /\ fst (run_op Exact 1%Qc plain (OEnforce Exact) s) = Raise AttributeError /\
  option_map this (energy Exact 1%Qc s 1) = Some 10%Q /\ option_map this (energy Exact 1%Qc (runx s [OEnforce Exact]) 1) = Some 12%Q.
Proof. cbv zeta. split; [apply from_reachable; lia|]. do 2 (split; [vm_compute; reflexivity|]). vm_compute. reflexivity. Qed.
Print Assumptions C147_alias_refuted.
Print Assumptions C147_tr_alias_refuted.
Print Assumptions C147_frequency_refuted.
Print Assumptions C147_add_refuted.
Print Assumptions C147_enforce_refuted.
