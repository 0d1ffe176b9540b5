(** Property C134: looking at an atom does not change it. *)
From Coq Require Import List Bool ZArith QArith Qcanon Lia String Ascii Permutation.
From Verif Require Import Base Num PyStr Util UtilProofs Regex Parse Term TermProofs Hyperfine HyperfineProofs Graph GraphProofs Rules Atom AtomInv
  AtomSafe AtomSafe2 AtomSafe3 AtomSafe4 AtomSafe5 AtomSafe6 AtomLevels AtomKeep AtomAlias AtomPaths AtomTrans AtomExample Views DictView PropDictView.
Import ListNotations.
Local Open Scope string_scope.
Local Open Scope list_scope.

Section Looking.
  Context (N : Num) (muB : num N) (orc : nat -> oracle) (OK : forall n, oracle_ok (orc n)).
  Implicit Types s : st N.

  (** [levels[...]], [level[...]], [level.values()], [transitions[...]],
      [transition[...]], [transition.values()]: atom.py:31-38, 189-226,
      523-531, 667-704 and atom_helpers.py:25-58, 102-140. *)
  Definition lookup (o : op N) : bool :=
    match o with
    | OLevel _ _ | OLevelInt _ _ | OItem _ _ _ | OSublevels _ _ | OTransition _ _ | OTransitionStr _ _ | OSubItem _ _ _ | OSubtransitions _ _ => true
    | _ => false
    end.
  (** Also [linked_levels], [state_lifetime] and [compute_branching_ratios]:
      atom.py:1086-1129. *)
  Definition reading (o : op N) : bool :=
    match o with OLinked _ _ | OLifetime _ _ | OBranching _ _ => true | _ => lookup o end.

  Lemma lookup_step : forall s o, WF s -> lookup o = true -> look s (step N muB orc s o).
  Proof.
    intros s o W H. destruct (invalid_unchanged N muB orc s o W) as [V| ->]; [|apply look_po]. unfold step.
    assert (SL : forall A (m : M N A) Q, safe lookl s m Q -> look s (snd (void N m s))).
    { intros A m Q Hm. destruct (safe_void _ lookl s m Q (lookl_po _) Hm) as [_ [L _]]. apply L. }
    assert (ST : forall A (m : M N A) Q, safe look s m Q -> look s (snd (void N m s))).
    { intros A m Q Hm. destruct (safe_void _ look s m Q (look_po _) Hm) as [_ [L _]]. exact L. }
    destruct o; try discriminate; cbn [run_op op_valid] in *.
    - eapply SL. apply levels_get_safe; auto.
    - eapply SL. apply levels_get_int_safe; auto.
    - destruct V as [l V]. eapply SL. unfold getitem. eapply getitem_safe; eauto. destruct (l_kind l); simpl; lia.
    - destruct V as [l V]. eapply SL. eapply sublevels_safe; eauto.
    - eapply ST. apply transitions_get_safe; auto.
    - eapply ST. apply transitions_get_str_safe; auto.
    - destruct V as [x V]. eapply ST. eapply tr_getitem_safe; eauto.
    - destruct V as [x V]. eapply ST. eapply subtransitions_safe; eauto.
  Qed.
  Lemma reading_step : forall s o, WF s -> reading o = true -> look0 s (step N muB orc s o).
  Proof.
    intros s o W H. destruct (lookup o) eqn:Hl; [apply lookup_step; auto|]. unfold step.
    assert (S0 : forall A (m : M N A) Q, safe look0 s m Q -> look0 s (snd (void N m s))).
    { intros A m Q Hm. destruct (safe_void _ look0 s m Q (look0_po _) Hm) as [_ [L _]]. exact L. }
    destruct o; try discriminate; cbn [run_op].
    - eapply S0. apply linked_safe; auto.
    - eapply S0. apply total_rate_safe; auto.
    - eapply S0. apply branching_safe; auto.
  Qed.
  Lemma step_keeps_WF : forall s o, WF s -> WF (step N muB orc s o).
  Proof.
    intros s o W. destruct (invalid_unchanged N muB orc s o W) as [V| ->]; auto. apply (run_op_safe N muB orc OK s o W V).
  Qed.
  Lemma lookups : forall os s, WF s -> forallb lookup os = true -> look s (run N muB orc s os) /\ WF (run N muB orc s os).
  Proof.
    induction os as [|o os IH]; intros s W H; cbn [run fold_left]; [split; auto; apply look_po|]. cbn in H.
    apply andb_true_iff in H as [H1 H2]. destruct (IH _ (step_keeps_WF s o W) H2) as [L W']. split; auto.
    eapply look_trans; [apply lookup_step; eauto|exact L].
  Qed.
  Lemma readings : forall os s, WF s -> forallb reading os = true -> look0 s (run N muB orc s os) /\ WF (run N muB orc s os).
  Proof.
    induction os as [|o os IH]; intros s W H; cbn [run fold_left]; [split; auto; apply look0_po|]. cbn in H.
    apply andb_true_iff in H as [H1 H2]. destruct (IH _ (step_keeps_WF s o W) H2) as [L W']. split; auto.
    eapply look0_po; [apply reading_step; eauto|exact L].
  Qed.

  (** ** The values *)

  (** However an atom is read: its levels and transitions with their order,
      its aliases, its nuclear spin and field, the order of the levels by
      energy, what was written to the log; every level keeps its names, its
      value, its hyperfine coefficients, its parent, its energy and, once
      there are any, its sublevels; every transition keeps its levels, its A,
      its set frequency and its frequency. *)
  Theorem C134_kept : forall s os, reachable N muB orc s -> forallb reading os = true ->
    let s' := run N muB orc s os in
    (level_keys N s' = level_keys N s /\ level_values N s' = level_values N s /\ trans_keys N s' = trans_keys N s /\ trans_values N s' = trans_values N s) /\
    (s_lal s' = s_lal s /\ s_tal s' = s_tal s /\ s_I s' = s_I s /\ s_B s' = s_B s /\ s_warn s' = s_warn s) /\
    by_energy N muB s' = by_energy N muB s /\
    (forall a l, lv s a = Some l -> energy N muB s' a = energy N muB s a /\ exists l', lv s' a = Some l' /\
      (l_term l' = l_term l /\ l_kind l' = l_kind l /\ l_parent l' = l_parent l /\ l_alias l' = l_alias l /\ l_attached l' = l_attached l) /\
      (l_E l' = l_E l /\ l_hfA l' = l_hfA l /\ l_hfB l' = l_hfB l /\ l_hfC l' = l_hfC l /\ l_lande l' = l_lande l /\ l_gF l' = l_gF l /\ l_qz l' = l_qz l /\ l_fixed l' = l_fixed l) /\
      (l_subs l <> [] -> l_subs l' = l_subs l)) /\
    (forall t x, tr s t = Some x -> freq N muB s' t = freq N muB s t /\ exists x', tr s' t = Some x' /\
      (x_kind x' = x_kind x /\ x_parent x' = x_parent x /\ x_E1 x' = x_E1 x /\ x_E2 x' = x_E2 x /\ x_up x' = x_up x /\ x_lo x' = x_lo x) /\
      (x_A x' = x_A x /\ x_rel x' = x_rel x /\ x_set x' = x_set x /\ x_allowed x' = x_allowed x /\ x_alias x' = x_alias x)).
  Proof.
    intros s os R H s'. pose proof (reachable_WF N muB orc OK s R) as W. destruct (readings os s W H) as [L W']. fold s' in L, W'.
    destruct L as [F Sb]. pose proof F as [G La Ta I0 B0 Wn _ Fl Ft].
    split; [unfold level_keys, level_values, trans_keys, trans_values; rewrite G; auto|].
    split; [repeat (split; [assumption|]); assumption|]. split; [now apply by_energy_frame|]. split.
    - intros a l V. split; [apply frame_energy; congruence|]. destruct (Fl _ _ V) as [l' [V' E]]. exists l'. split; auto.
      split; [rewrite E; repeat split; reflexivity|]. split; [rewrite E; repeat split; reflexivity|]. intros Hn. apply (Sb a l l'); auto.
    - intros t x V. destruct (Ft _ _ V) as [x' [V' E]].
      assert (E1 : x_E1 x' = x_E1 x) by (rewrite E; reflexivity). assert (E2 : x_E2 x' = x_E2 x) by (rewrite E; reflexivity). split.
      + unfold freq. rewrite V, V', E1, E2. destruct (wf_tr _ _ W _ _ V) as [l1 [l2 [V1 [V2 _]]]].
        rewrite !(frame_energy N muB s s') by (auto; congruence). reflexivity.
      + exists x'. split; auto. split; rewrite E; repeat split; reflexivity.
  Qed.

  (** ** Answers *)

  Lemma stays : forall A s (m : M N A) v s1 os Q, WF s -> lsafe N s m Q -> m s = (Ok v, s1) -> forallb lookup os = true ->
    let s2 := run N muB orc s1 os in m s2 = (Ok v, s2).
  Proof.
    intros A s m v s1 os Q W [W1 [_ H]] E Ho s2. rewrite E in *. cbn [fst snd] in *. destruct H as [_ H]. apply H.
    apply (lookups os s1 W1 Ho).
  Qed.

  (** A lookup that gave a level or a transition gives the same object again,
      and no new one, whatever is looked up in between. *)
  Theorem C134_levels : forall s os key a s1, reachable N muB orc s -> forallb lookup os = true ->
    levels_get N key s = (Ok a, s1) -> let s2 := run N muB orc s1 os in levels_get N key s2 = (Ok a, s2).
  Proof.
    intros s os key a s1 R Ho E. pose proof (reachable_WF N muB orc OK s R) as W.
    apply (stays _ s (levels_get N key) a s1 os _ W (lsafe_levels N muB s (KS key) W) E Ho).
  Qed.
  Theorem C134_ranks : forall s os i a s1, reachable N muB orc s -> forallb lookup os = true ->
    levels_get_int N muB i s = (Ok a, s1) -> let s2 := run N muB orc s1 os in levels_get_int N muB i s2 = (Ok a, s2).
  Proof.
    intros s os key a s1 R Ho E. pose proof (reachable_WF N muB orc OK s R) as W.
    apply (stays _ s (levels_get_int N muB key) a s1 os _ W (lsafe_levels N muB s (KI key) W) E Ho).
  Qed.
  Theorem C134_transitions : forall s os k t s1, reachable N muB orc s -> forallb lookup os = true ->
    transitions_get N muB k s = (Ok t, s1) -> let s2 := run N muB orc s1 os in transitions_get N muB k s2 = (Ok t, s2).
  Proof.
    intros s os k t s1 R Ho E. pose proof (reachable_WF N muB orc OK s R) as W.
    eapply (stays _ s (transitions_get N muB k) t s1 os _ W); eauto. now apply transitions_get_safe.
  Qed.
  Theorem C134_aliases : forall s os k t s1, reachable N muB orc s -> forallb lookup os = true ->
    transitions_get_str N muB k s = (Ok t, s1) -> let s2 := run N muB orc s1 os in transitions_get_str N muB k s2 = (Ok t, s2).
  Proof.
    intros s os k t s1 R Ho E. pose proof (reachable_WF N muB orc OK s R) as W.
    eapply (stays _ s (transitions_get_str N muB k) t s1 os _ W); eauto. now apply transitions_get_str_safe.
  Qed.
  Theorem C134_lines_partial : forall s os t k c s1, reachable N muB orc s -> forallb lookup os = true ->
    tr_getitem N muB t k s = (Ok c, s1) -> let s2 := run N muB orc s1 os in tr_getitem N muB t k s2 = (Ok c, s2).
  Proof.
    intros s os t k c s1 R Ho E. pose proof (reachable_WF N muB orc OK s R) as W.
    destruct (tr s t) as [x|] eqn:V.
    - eapply (stays _ s (tr_getitem N muB t k) c s1 os _ W); eauto. apply lsafe_getitem; auto. now exists x.
    - exfalso. revert E. unfold tr_getitem, lazy_subtransitions, get_tr, bind, asks. rewrite V. discriminate.
  Qed.

  (** ** Lifetimes and branching ratios *)

  Lemma linked_at : forall s n a, WF s -> dget n (s_lal s) = None -> has_char "=" n = false -> dget n (node_attrs (s_g0 s)) = Some a ->
    linked_levels N muB 3 n s = (Ok (filter (fun kt => negb (String.eqb (fst kt) n)) (nbrs (s_g0 s) n)), s).
  Proof.
    intros s n a W A E D. pose proof (wf_g _ _ W LE) as G. cbn [graph_of] in G. pose proof (go_wf _ _ _ _ G) as GW.
    assert (Dn : dget n (g_nodes (s_g0 s)) = Some (Some a)).
    { rewrite (node_attrs_get _ n GW) in D. destruct (dget n (g_nodes (s_g0 s))) as [[b|]|]; congruence. }
    destruct (go_node _ _ _ _ G _ _ Dn) as [l [V [K [Nm _]]]].
    assert (P : l_parent l = None).
    { destruct (wf_lv _ _ W _ _ V) as [_ [[_ [P _]]|[_ [p [lp [z [_ [_ [_ [Kp [Kc _]]]]]]]]]]]; auto. rewrite K in Kc. destruct (l_kind lp); discriminate. }
    assert (Ad : dget n (g_adj (s_g0 s)) = Some (nbrs (s_g0 s) n)).
    { unfold nbrs. destruct (dget n (g_adj (s_g0 s))) eqn:X; auto. apply dget_None in X. rewrite (gw_keys _ GW) in X. exfalso. apply X.
      apply dget_Some_key. eauto. }
    cbn [linked_levels]. erewrite bind_Ok by (apply get_node; eauto). unfold get_lv. rewrite (bind_asks _ _ _ _ _ l) by auto. rewrite P.
    unfold bind at 1, ret at 1. rewrite (bind_asks _ _ _ _ _ (nbrs (s_g0 s) n)); [reflexivity|]. rewrite K. exact Ad.
  Qed.
  Lemma sum_A_frame : forall s s' a ts tot, frame s s' -> (forall t, In t ts -> is_tr s t) -> sum_A N s' a ts tot = sum_A N s a ts tot.
  Proof.
    intros s s' a ts. induction ts as [|t ts IH]; intros tot F H; cbn [sum_A]; auto.
    destruct (H t (or_introl eq_refl)) as [x V]. destruct (fr_tr _ _ _ F _ _ V) as [x' [V' E]]. rewrite V, V'.
    assert (E1 : x_up x' = x_up x) by (rewrite E; reflexivity). assert (E2 : x_A x' = x_A x) by (rewrite E; reflexivity).
    rewrite E1, E2. assert (H' : forall t, In t ts -> is_tr s t) by (intros; apply H; now right).
    destruct (x_A x); destruct (Nat.eqb (x_up x) a); auto.
  Qed.
  Lemma A_coeffs_frame : forall s s' key d, WF s -> frame s s' -> (forall n t, In (n, t) d -> is_tr s t) ->
    A_coeffs N s' key d = A_coeffs N s key d.
  Proof.
    intros s s' key d W F. induction d as [|[n t] d IH]; intros H; cbn [A_coeffs]; auto.
    destruct (H n t (or_introl eq_refl)) as [x V]. destruct (fr_tr _ _ _ F _ _ V) as [x' [V' E]]. rewrite V, V'.
    assert (E1 : x_up x' = x_up x) by (rewrite E; reflexivity). assert (E2 : x_A x' = x_A x) by (rewrite E; reflexivity).
    rewrite E1, E2. assert (U : is_lv N s (x_up x)) 
      by (destruct (wf_tr _ _ W _ _ V) as [l1 [l2 [V1 [V2 [_ [_ [[[-> _]|[-> _]] _]]]]]]]; [exists l2|exists l1]; auto).
    destruct U as [l Vl]. destruct (fr_lv _ _ _ F _ _ Vl) as [l' [Vl' El]]. unfold nm. rewrite Vl, Vl'.
    cbn [option_map]. assert (En : lname l' = lname l) by (rewrite El; reflexivity). rewrite En, IH; [reflexivity|]. intros n' t' I'; apply (H n'); right; exact I'.
  Qed.

  (** The linked levels, the lifetime and the branching ratios of a level of
      the atom are the same before and after. *)
  Theorem C134_lifetimes : forall s os n a, reachable N muB orc s -> forallb reading os = true ->
    dget n (s_lal s) = None -> has_char "=" n = false -> dget n (node_attrs (s_g0 s)) = Some a ->
    let s' := run N muB orc s os in
    fst (linked_levels N muB 3 n s') = fst (linked_levels N muB 3 n s) /\ fst (total_rate N muB n s') = fst (total_rate N muB n s) /\
    fst (branching N muB n s') = fst (branching N muB n s).
  Proof.
    intros s os n a R H A E D s'. pose proof (reachable_WF N muB orc OK s R) as W. destruct (readings os s W H) as [L W']. fold s' in L, W'.
    destruct L as [F _]. pose proof (linked_at s n a W A E D) as L1.
    assert (A' : dget n (s_lal s') = None) by now rewrite (fr_lal _ _ _ F).
    assert (D' : dget n (node_attrs (s_g0 s')) = Some a) by now rewrite (fr_g0 _ _ _ F).
    pose proof (linked_at s' n a W' A' E D') as L2. rewrite (fr_g0 _ _ _ F) in L2.
    set (d := filter _ _) in L1, L2.
    assert (Hd : forall m t, In (m, t) d -> is_tr s t).
    { destruct (linked_safe N muB 3 s n W) as [_ [_ Q]]. rewrite L1 in Q. exact Q. }
    split; [now rewrite L1, L2|]. split.
    - unfold total_rate. rewrite (bind_Ok _ _ _ _ _ _ L1), (bind_Ok _ _ _ _ _ _ L2).
      rewrite (bind_Ok _ _ _ _ _ _ (get_node N s n a A E D)), (bind_Ok _ _ _ _ _ _ (get_node N s' n a A' E D')). cbn [fst].
      apply sum_A_frame; auto. intros t I. apply in_map_iff in I as [[m t'] [<- I]]. eapply Hd, I.
    - unfold branching. rewrite (bind_Ok _ _ _ _ _ _ L1), (bind_Ok _ _ _ _ _ _ L2). cbn [fst].
      now rewrite (A_coeffs_frame s s' n d W F Hd).
  Qed.
End Looking.
Print Assumptions C134_kept.
Print Assumptions C134_levels.
Print Assumptions C134_ranks.
Print Assumptions C134_transitions.
Print Assumptions C134_aliases.
Print Assumptions C134_lines_partial.
Print Assumptions C134_lifetimes.

(** A nuclear spin of 1/2 and two levels joined by a transition. *)
Definition reads : list (op Exact) :=
  [OLevel Exact "6s 2S1/2 F=1 mF=0"; OLevelInt Exact 1; OSublevels Exact 1; OLevel Exact "nowhere"; OSubtransitions Exact 0;
   OTransition Exact (KS "6s 2S1/2", KS "6p 2P*1/2"); OLinked Exact "6s 2S1/2 F=0"; OLifetime Exact "6p 2P*1/2"].
Example C134_case : let s := linked os_two in let s' := runx s reads in
  reachable Exact 1%Qc plain s /\ forallb (reading Exact) reads = true /\ forallb (lookup Exact) (firstn 6 reads) = true /\
  (List.length (s_levels s), List.length (s_levels s')) = (2, 9)%nat /\ (List.length (s_trans s), List.length (s_trans s')) = (1, 9)%nat /\
  level_keys Exact s' = ["6s 2S1/2"; "6p 2P*1/2"] /\ trans_keys Exact s' = [("6s 2S1/2", "6p 2P*1/2")].
Proof.
  cbv zeta. split; [apply from_reachable; lia|]. do 5 (split; [vm_compute; reflexivity|]). vm_compute. reflexivity.
Qed.

(** Asking for the levels linked to a sublevel builds the lines of its
    transitions anew: [transition[...]] gives another object afterwards, and
    what was set on the first one is lost. *)
Theorem C134_refuted : exists s t k key c c', reachable Exact 1%Qc plain s /\ reading Exact (OLinked Exact key) = true /\
  fst (tr_getitem Exact 1%Qc t k s) = Ok c /\ option_map (fun x => option_map snd (x_A x)) (tr s c) = Some (Some uHz) /\
  let s' := runx s [OLinked Exact key] in
  fst (tr_getitem Exact 1%Qc t k s') = Ok c' /\ option_map (fun x => option_map snd (x_A x)) (tr s' c') = Some None /\ c <> c'.
Proof.
  exists (runx (linked os_two) [OSubItem Exact 0 ("F=1", "F=1"); OSetA Exact 4 (Some (Q2Qc 5, uHz))]), 0%nat, ("F=1", "F=1"), "6s 2S1/2 F=0", 4%nat, 8%nat.
  split; [apply more_reachable, from_reachable; lia|]. cbv zeta. do 5 (split; [vm_compute; reflexivity|]). discriminate.
Qed.
Print Assumptions C134_refuted.
