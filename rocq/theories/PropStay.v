(** Property C136: a transition stays in the atom until it is deleted. *)
From Coq Require Import List Bool ZArith QArith Qcanon Lia String Ascii Permutation.
From Verif Require Import Base Num PyStr Util UtilProofs Regex Parse Term TermProofs Hyperfine HyperfineProofs Graph GraphProofs Rules Atom AtomInv
  AtomSafe AtomSafe2 AtomSafe3 AtomSafe4 AtomSafe5 AtomSafe6 AtomLevels AtomKeep AtomHist AtomPaths AtomTrans AtomExample Views PropDictView PropLooking.
Import ListNotations.
Local Open Scope string_scope.
Local Open Scope list_scope.

Section Stay.
  Context (N : Num) (muB : num N) (orc : nat -> oracle) (OK : forall n, oracle_ok (orc n)).
  Implicit Types s : st N.

  (** [atom.transitions] has a transition between the levels of these names. *)
  Definition between s (n m : string) : Prop := In (n, m) (trans_keys N s) \/ In (m, n) (trans_keys N s).

  Lemma between_edge : forall s n m, WF s -> (between s n m <-> edge (s_g0 s) n m <> None).
  Proof.
    intros s n m W. pose proof (go_wf _ _ _ _ (wf_g _ _ W LE)) as G. cbn [graph_of] in G. unfold between, trans_keys. split.
    - assert (K : forall u v, In (u, v) (dkeys (edge_attrs (s_g0 s))) -> edge (s_g0 s) u v <> None).
      { intros u v I. apply in_map_iff in I as [[k t] [Ek I]]. cbn in Ek. subst k. apply edge_attrs_In in I as [E _]; auto. congruence. }
      intros [I|I]; [now apply K|]. apply K in I. destruct (edge (s_g0 s) m n) as [t|] eqn:E; [|congruence]. rewrite (gw_sym _ G _ _ _ E). discriminate.
    - intros E. destruct (edge (s_g0 s) n m) as [t|] eqn:E1; [|congruence]. pose proof (gw_sym _ G _ _ _ E1) as E2.
      assert (In n (dkeys (g_nodes (s_g0 s))) /\ In m (dkeys (g_nodes (s_g0 s)))) as [I1 I2].
      { split; apply dget_Some_key; [pose proof (edge_node _ _ _ _ G E1)|pose proof (edge_node _ _ _ _ G E2)]; destruct (dget _ (g_nodes (s_g0 s))); eauto; congruence. }
      destruct (before_total n m _ I1 I2) as [B|B]; [left|right].
      + change (n, m) with (fst ((n, m), t)). apply in_map, edge_attrs_In; auto.
      + change (m, n) with (fst ((m, n), t)). apply in_map, edge_attrs_In; auto.
  Qed.

  (** ** What the operations do to the edges *)

  Definition grown s s' : Prop := forall n m, edge (s_g0 s) n m <> None -> edge (s_g0 s') n m <> None.
  Lemma grown_same : forall s s', s_g0 s' = s_g0 s -> grown s s'.
  Proof. intros s s' E n m. now rewrite E. Qed.
  Lemma grown_put : forall s t x, WF s -> grown s (put_edge N s t x).
  Proof.
    intros s t x W n m E. unfold put_edge. destruct (nm s (x_lo x)) as [u|]; auto. destruct (nm s (x_up x)) as [v|]; auto.
    destruct (x_kind x); cbn [lk graph_of]; auto. change (edge (g_add_edge u v t (s_g0 s)) n m <> None).
    rewrite add_edge_edge by apply (go_wf _ _ _ _ (wf_g _ _ W LE)). destruct (_ || _); [discriminate|exact E].
  Qed.
  Lemma grown_carrier : carrier N grown.
  Proof.
    constructor.
    - constructor; [intros s n m; auto|intros s1 s2 s3 A B n m E; auto].
    - intros s s' W L. apply grown_same, L.
    - intros s s' W L. apply grown_same, L.
    - intros s x W O E. unfold put_trans. destruct (x_attached x); [|now apply grown_same].
      intros n m Ed. refine (_ Ed). clear Ed. intros Ed.
      unfold put_edge. destruct (nm _ (x_lo x)) as [u|]; auto. destruct (nm _ (x_up x)) as [v|]; auto.
      destruct (x_kind x); cbn [lk graph_of]; auto. change (edge (g_add_edge u v (List.length (s_trans s)) (s_g0 s)) n m <> None).
      rewrite add_edge_edge by apply (go_wf _ _ _ _ (wf_g _ _ W LE)). destruct (_ || _); [discriminate|exact Ed].
    - intros s t x W V. unfold tr_joined. intros n m Ed.
      unfold put_edge. destruct (nm _ _) as [u|]; auto. destruct (nm _ _) as [v|]; auto.
      destruct (x_kind x) eqn:K; cbn [x_kind tr_set_attached]; rewrite K; cbn [lk graph_of]; auto. change (edge (g_add_edge u v t (s_g0 s)) n m <> None).
      rewrite add_edge_edge by apply (go_wf _ _ _ _ (wf_g _ _ W LE)). destruct (_ || _); [discriminate|exact Ed].
    - intros s al t x _ _. now apply grown_same.
    - intros s t f. now apply grown_same.
  Qed.

  (** The graph of the levels is left alone. *)
  Definition same0 s s' : Prop := s_g0 s' = s_g0 s.
  Lemma same0_po : preord same0.
  Proof. constructor; [reflexivity|intros s1 s2 s3 A B; exact (eq_trans B A)]. Qed.
  Lemma set_freqT_same : forall s t x f, WF s -> tr s t = Some x -> safe same0 s (set_freqT N muB orc t f) any.
  Proof.
    intros s t x f W V. unfold set_freqT, get_tr, get_lv. apply (safe_asks _ _ s _ _ _ _ _ V).
    destruct (tr_ends _ _ _ _ W V) as [lo [up [Vl Vu]]].
    apply (safe_asks _ _ s _ _ _ _ _ Vu). apply (safe_asks _ _ s _ _ _ _ _ Vl).
    eapply (safe_bind _ _ same0_po) with (Q := fun _ s' => moved s s').
    { destruct (_ && _).
      - apply (safe_modify_last _ _).
        + eapply moved_WF; [exact W|apply moved_fixed].
        + apply (mv_g0 _ _ _ (moved_fixed _ _ _ _)).
        + apply moved_fixed.
      - apply (safe_ret _ _ same0_po); auto. apply moved_refl. }
    intros [] s1 W1 _ M1. pose proof (moved_ext _ _ _ M1) as X1.
    destruct (WF_upd_tr _ s1 t (tr_set_set (Some f)) W1) as [W2 X2]; [repeat split; auto|].
    apply (safe_modify _ _ same0_po); auto; [reflexivity|].
    destruct (wf_tr _ _ W _ _ V) as [l1 [l2 [V1 [V2 _]]]].
    destruct (ext_lv _ _ _ (ext_trans _ _ _ _ X1 X2) _ _ V1) as [l1' [V1' _]].
    destruct (ext_lv _ _ _ (ext_trans _ _ _ _ X1 X2) _ _ V2) as [l2' [V2' _]].
    apply (safe_asks _ _ _ _ _ _ _ _ V1'). apply (safe_asks _ _ _ _ _ _ _ _ V2').
    destruct (l_attached l1'); [|apply (safe_raise _ _ same0_po); auto; discriminate].
    eapply safe_weaken_wf; [exact W2|intros s' Mv; exact (mv_g0 _ _ _ Mv)|]. eapply safe_any. apply enforce_safe; auto.
  Qed.

  Lemma set_freqHF_same : forall s t x f, WF s -> tr s t = Some x -> safe same0 s (set_freqHF N muB orc t f) any.
  Proof.
    intros s t x f W V. unfold set_freqHF, get_tr. apply (safe_asks _ _ s _ _ _ _ _ V).
    destruct (freq_total _ muB _ _ _ W V) as [g Eg]. apply (safe_asks _ _ s _ _ _ _ _ Eg).
    apply (safe_try _ _ same0_po); auto; [discriminate|]. intros p P.
    destruct (wf_tr _ _ W _ _ V) as [l1 [l2 [_ [_ [_ [_ [_ [[_ [P' _]]|[q [xp [P' [Vp _]]]]]]]]]]]]; [congruence|].
    assert (q = p) by congruence. subst q. destruct (freq_total _ muB _ _ _ W Vp) as [gp Ep]. apply (safe_asks _ _ s _ _ _ _ _ Ep).
    eapply set_freqT_same; eauto.
  Qed.

  Lemma set_frequency_same : forall s t x f, WF s -> tr s t = Some x -> safe same0 s (set_frequency N muB orc t f) any.
  Proof.
    intros s t x f W V. unfold set_frequency, get_tr. apply (safe_asks _ _ s _ _ _ _ _ V).
    destruct (x_kind x); [eapply set_freqT_same; eauto|eapply set_freqHF_same; eauto|].
    unfold set_freqZ, get_tr. apply (safe_asks _ _ s _ _ _ _ _ V).
    destruct (freq_total _ muB _ _ _ W V) as [g Eg]. apply (safe_asks _ _ s _ _ _ _ _ Eg).
    apply (safe_try _ _ same0_po); auto; [discriminate|]. intros p P.
    destruct (wf_tr _ _ W _ _ V) as [l1 [l2 [_ [_ [_ [_ [_ [[_ [P' _]]|[q [xp [P' [Vp _]]]]]]]]]]]]; [congruence|].
    assert (q = p) by congruence. subst q. destruct (freq_total _ muB _ _ _ W Vp) as [gp Ep]. apply (safe_asks _ _ s _ _ _ _ _ Ep).
    eapply set_freqHF_same; eauto.
  Qed.

  (** Operations that put transitions into the atom. *)
  Definition inserts (o : op N) : bool :=
    match o with ONewTransition _ _ _ _ _ _ | OAddTransition _ _ _ _ _ | OPopulateInternal _ => true | _ => false end.

  Lemma keeps_edges : forall s o n m, WF s -> inserts o = false -> (forall key, o = ODelLevel N key -> key <> n /\ key <> m) ->
    edge (s_g0 (step N muB orc s o)) n m = edge (s_g0 s) n m.
  Proof.
    intros s o n m W Hi Hd. destruct (reading N o) eqn:Hr; [now rewrite (fr_g0 _ _ _ (l0_frame _ _ _ (reading_step N muB orc s o W Hr)))|].
    destruct (invalid_unchanged N muB orc s o W) as [V|E]; [|now rewrite E]. unfold step.
    assert (GW : graph_wf (s_g0 s)) by apply (go_wf _ _ _ _ (wf_g _ _ W LE)).
    destruct o; try discriminate; cbn [run_op op_valid] in *; try reflexivity.
    - unfold void, new_level, bind. destruct ts as [|tm ts']; [reflexivity|]. destruct (forallb plain_term (tm :: ts')); reflexivity.
    - destruct V as [l V]. destruct (step_add N muB orc s a l populate alias W V) as [_ Ad]. unfold step in Ad. cbn [run_op] in Ad.
      rewrite (ad_g0 _ _ _ _ _ _ _ Ad). destruct (l_kind l); auto. now rewrite add_node_edge.
    - unfold del_level. destruct (g_remove_node key (s_g0 s)) as [g|] eqn:E; cbn [snd]; auto. cbn.
      rewrite (remove_edge _ _ _ _ _ E). destruct (Hd key eq_refl) as [H1 H2].
      destruct (String.eqb_spec n key); [congruence|]. destruct (String.eqb_spec m key); [congruence|]. reflexivity.
    - destruct V as [l V]. destruct (step_alias N muB orc s a al l W V) as [_ [E _]]. unfold step in E. cbn [run_op] in E. now rewrite E.
    - destruct V as [l V]. assert (Mv : moved s (snd (set_energy N muB a v s))) by (eapply set_energy_safe; eauto). now rewrite (mv_g0 _ _ _ Mv).
    - unfold tr_alias, bind, modify, get_tr, asks. destruct (tr (upd_tr t (tr_set_alias (Some al)) s) t) as [x|]; [|reflexivity].
      destruct (x_attached x); reflexivity.
    - destruct V as [x V]. assert (E : same0 s (snd (set_frequency N muB orc t f s))) by (eapply set_frequency_same; eauto). now rewrite E.
    - assert (Mv : moved s (snd (enforce N muB orc None s))) by (apply (enforce_safe N muB orc s None OK W)). now rewrite (mv_g0 _ _ _ Mv).
    - assert (L : look s (snd (populate_transitions N muB al s))) by (apply populate_transitions_safe; auto).
      now rewrite (fr_g0 _ _ _ (lo_frame _ _ _ L)).
  Qed.
  Lemma grown_step : forall s o, WF s -> (forall key, o <> ODelLevel N key) -> grown s (step N muB orc s o).
  Proof.
    intros s o W Hd. destruct (inserts o) eqn:Hi.
    - apply (quiet_R N muB grown grown_carrier orc OK); auto; [destruct o; try discriminate; reflexivity|]. intros u v s'. now apply grown_same.
    - intros n m E. rewrite keeps_edges; auto. intros key ->. now elim (Hd key).
  Qed.

  (** ** Statements *)

  (** Two levels joined by a transition stay joined, whatever is done to the
      atom, until one of the two levels is deleted. *)
  Theorem C136_stays : forall s os n m, reachable N muB orc s -> between s n m ->
    (forall key, In (ODelLevel N key) os -> key <> n /\ key <> m) -> between (run N muB orc s os) n m.
  Proof.
    intros s os n m R. pose proof (reachable_WF N muB orc OK s R) as W. clear R. revert s W.
    induction os as [|o os IH]; intros s W B Hd; [exact B|]. cbn [run fold_left].
    apply IH; [now apply step_keeps_WF| |intros key I; apply Hd; now right].
    apply between_edge in B; auto. apply between_edge; [now apply step_keeps_WF|].
    destruct o; try (apply grown_step; auto; discriminate). rewrite keeps_edges; auto. intros k [= ->]. apply Hd. now left.
  Qed.

  (** Only adding transitions replaces the object: every other operation leaves
      all of them in place, except those of a level it deletes. *)
  Theorem C136_same : forall s o n m, reachable N muB orc s -> inserts o = false ->
    (forall key, o = ODelLevel N key -> key <> n /\ key <> m) -> forall t,
    let s' := step N muB orc s o in
    In ((n, m), t) (edge_attrs (s_g0 s)) -> In ((n, m), t) (edge_attrs (s_g0 s')) \/ In ((m, n), t) (edge_attrs (s_g0 s')).
  Proof.
    intros s o n m R Hi Hd t s' I. pose proof (reachable_WF N muB orc OK s R) as W.
    pose proof (step_keeps_WF N muB orc OK s o W) as W'. fold s' in W'.
    pose proof (go_wf _ _ _ _ (wf_g _ _ W LE)) as G. pose proof (go_wf _ _ _ _ (wf_g _ _ W' LE)) as G'. cbn [graph_of] in G, G'.
    apply edge_attrs_In in I as [E _]; auto. rewrite <- (keeps_edges s o n m W Hi Hd) in E. fold s' in E.
    pose proof (gw_sym _ G' _ _ _ E) as E2.
    assert (In n (dkeys (g_nodes (s_g0 s'))) /\ In m (dkeys (g_nodes (s_g0 s')))) as [I1 I2].
    { split; apply dget_Some_key; [pose proof (edge_node _ _ _ _ G' E)|pose proof (edge_node _ _ _ _ G' E2)]; destruct (dget _ (g_nodes (s_g0 s'))); eauto; congruence. }
    destruct (before_total n m _ I1 I2) as [B|B]; [left|right]; apply edge_attrs_In; auto.
  Qed.

  (** Deleting a level takes its transitions away. *)
  Theorem C136_level : forall s key n m, reachable N muB orc s -> In key (level_keys N s) ->
    let s' := step N muB orc s (ODelLevel N key) in
    between s' n m <-> between s n m /\ key <> n /\ key <> m.
  Proof.
    intros s key n m R I s'. pose proof (reachable_WF N muB orc OK s R) as W.
    pose proof (step_keeps_WF N muB orc OK s (ODelLevel N key) W) as W'. fold s' in W'. rewrite !between_edge by auto.
    assert (D : dmem key (g_nodes (s_g0 s)) = true).
    { unfold level_keys in I. apply dget_Some_key in I as [a D]. rewrite (node_attrs_get _ key) in D by apply (go_wf _ _ _ _ (wf_g _ _ W LE)).
      unfold dmem. destruct (dget key (g_nodes (s_g0 s))); [reflexivity|discriminate]. }
    assert (exists g, g_remove_node key (s_g0 s) = Some g) as [g E] by (unfold g_remove_node; rewrite D; eauto).
    unfold s', step. cbn [run_op]. unfold del_level. rewrite E. cbn.
    rewrite (remove_edge _ _ _ _ _ E). destruct (String.eqb_spec n key), (String.eqb_spec m key); cbn [orb]; intuition congruence.
  Qed.

  (** Deleting or replacing a transition itself does nothing but raise a
      TypeError, for every key. *)
  Theorem C136_refuted : forall s key t, let s1 := snd (trans_delitem N key s) in let s2 := snd (trans_setitem N key t s1) in
    fst (trans_delitem N key s) = Raise TypeError /\ fst (trans_setitem N key t s1) = Raise TypeError /\
    edge_attrs (s_g0 s2) = edge_attrs (s_g0 s) /\ forall k, transitions_get N muB k s2 = transitions_get N muB k s.
  Proof. intros s key t s1 s2. repeat split. Qed.
End Stay.
Print Assumptions C136_stays.
Print Assumptions C136_same.
Print Assumptions C136_level.
Print Assumptions C136_refuted.
Example C136_case : let s := linked os_two in reachable Exact 1%Qc plain s /\
  trans_keys Exact s = [("6s 2S1/2", "6p 2P*1/2")] /\
  trans_keys Exact (runx s [OSetLevel Exact 1 (Q2Qc 7); nl tQ 20; add 2; ODelLevel Exact "6p 2P*3/2"]) = [("6s 2S1/2", "6p 2P*1/2")] /\
  trans_keys Exact (runx s [ODelLevel Exact "6s 2S1/2"]) = [].
Proof. cbv zeta. split; [apply from_reachable; lia|]. do 2 (split; [vm_compute; reflexivity|]). vm_compute. reflexivity. Qed.
