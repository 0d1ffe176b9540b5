(** What one operation, and a history of operations, may do to names, aliases and sublevels. *)
From Coq Require Import List Bool ZArith QArith Qcanon Lia String Ascii Permutation Sorted.
From Verif Require Import Base PyStr Util UtilProofs Parse Term TermProofs Num Wigner Hyperfine HyperfineProofs
  Graph GraphProofs DfsProofs Rules Atom AtomInv AtomSafe AtomSafe2 AtomSafe3 AtomSafe4 AtomSafe5 AtomSafe6 AtomLevels AtomKeep AtomPaths.
Import ListNotations.

Lemma ddel_none {K V} `{Eqb K} : forall k (d : dict K V), ~ In k (dkeys d) -> ddel k d = d.
Proof.
  intros k. induction d as [|[k' v] d IH]; intros I; auto. unfold ddel in *. simpl in *.
  destruct (keqb_spec k k') as [->|E]; [tauto|]. simpl. rewrite IH; tauto.
Qed.

Section Hist.
  Context (N : Num) (muB : N).
  Notation st := (st N).
  Notation level := (level N).
  Notation trans := (trans N).
  Notation M := (M N).
  Notation op := (op N).
  Context (orc : nat -> oracle) (OK : forall n, oracle_ok (orc n)).
  Implicit Types (s : st) (l : level) (x y : trans) (a : nat) (t : nat).
  Notation step := (step N muB orc).
  Notation run := (run N muB orc).

  (** Operations that may change names, aliases or drop sublevels. *)
  Definition loud (o : op) : bool :=
    match o with OAddLevel _ _ _ _ | ODelLevel _ _ | OAlias _ _ _ => true | _ => false end.

  Lemma still_upd : forall s a (f : level -> level), (forall l, lsame l (f l) /\ l_alias (f l) = l_alias l /\ l_subs (f l) = l_subs l) ->
    still N s (upd_lv a f s).
  Proof.
    intros s a f H. constructor; auto.
    - constructor; auto.
      + intros b l V. rewrite lv_upd_lv, V. destruct (Nat.eqb a b); simpl; eexists; (split; [reflexivity|]); [apply H|apply lsame_refl].
      + intros t x V. exists x. split; auto. apply xsame_refl.
    - intros b l l' V V'. rewrite lv_upd_lv, V in V'. destruct (Nat.eqb a b); simpl in V'; injection V' as <-; auto.
      destruct (H l) as [_ [-> ->]]. auto.
  Qed.

  Lemma still_updt : forall s t (f : trans -> trans), (forall x, xsame x (f x)) -> still N s (upd_tr t f s).
  Proof.
    intros s t f H. apply still_same; auto. constructor; auto.
    - intros a l V. exists l. split; auto. apply lsame_refl.
    - intros t' x V. rewrite tr_upd_tr, V. destruct (Nat.eqb t t'); simpl; eexists; (split; [reflexivity|]); auto. apply xsame_refl.
  Qed.

  Lemma still_step : forall s o, WF s -> loud o = false -> still N s (step s o).
  Proof.
    intros s o W Hl. destruct (quiet N o) eqn:Q.
    - apply (quiet_R N muB (still N) (still_carrier N) orc OK); auto.
      intros u v s'. apply still_same; auto. apply same_heaps_ext; auto.
    - destruct o; try discriminate; unfold step; cbn [run_op snd].
      + unfold void, new_level, bind. destruct ts as [|tm ts']; [apply still_refl|].
        destruct (forallb plain_term (tm :: ts')); [|apply still_refl]. cbn.
        constructor; auto.
        * constructor; auto.
          -- intros a l V. exists l. split; [|apply lsame_refl]. unfold lv. cbn. rewrite nth_error_app1; auto. apply nth_error_Some. unfold lv in V. congruence.
          -- intros t x V. exists x. split; auto. apply xsame_refl.
        * intros a l l' V V'. unfold lv in V, V'. cbn in V'. rewrite nth_error_app1, V in V'; [injection V' as <-; auto|]. apply nth_error_Some. congruence.
      + apply still_upd. intros l. repeat split; auto.
      + apply still_upd. intros l. repeat split; auto.
      + apply still_upd. intros l. repeat split; auto.
      + apply still_same; auto. apply same_heaps_ext; auto.
      + unfold tr_alias, bind, modify, get_tr, asks.
        assert (S1 : still N s (upd_tr t (tr_set_alias (Some al)) s)) by (apply still_updt; repeat split; auto).
        destruct (tr (upd_tr t (tr_set_alias (Some al)) s) t) as [x|] eqn:V; auto.
        destruct (x_attached x); auto. eapply still_trans; [exact S1|]. apply still_same; auto. apply same_heaps_ext; auto.
      + apply still_updt. repeat split; auto.
  Qed.

  Lemma step_del : forall s key, WF s -> ext s (step s (ODelLevel N key)) /\
    s_levels (step s (ODelLevel N key)) = s_levels s /\ s_trans (step s (ODelLevel N key)) = s_trans s /\
    s_lal (step s (ODelLevel N key)) = s_lal s /\ s_I (step s (ODelLevel N key)) = s_I s /\
    node_attrs (s_g0 (step s (ODelLevel N key))) = ddel key (node_attrs (s_g0 s)).
  Proof.
    intros s key W. unfold step. cbn [run_op]. unfold del_level. destruct (g_remove_node key (s_g0 s)) as [g|] eqn:E; cbn [snd].
    - split; [apply same_heaps_ext; auto|]. repeat (split; [reflexivity|]). cbn. now apply remove_attrs.
    - split; [apply ext_refl|]. repeat (split; [reflexivity|]). unfold g_remove_node in E.
      destruct (dmem key (g_nodes (s_g0 s))) eqn:D; [discriminate|]. symmetry. apply ddel_none.
      intros I. apply dget_Some_key in I as [v I]. rewrite node_attrs_get in I by apply (wf_g _ _ W LE).
      unfold dmem in D. destruct (dget key (g_nodes (s_g0 s))); discriminate.
  Qed.

  Lemma step_alias : forall s a al l, WF s -> lv s a = Some l -> ext s (step s (OAlias N a al)) /\
    s_g0 (step s (OAlias N a al)) = s_g0 s /\
    s_lal (step s (OAlias N a al)) = (if l_attached l then dset al a (s_lal s) else s_lal s) /\
    s_levels (step s (OAlias N a al)) = upd a (lv_set_alias (Some al)) (s_levels s) /\ s_I (step s (OAlias N a al)) = s_I s.
  Proof.
    intros s a al l W V. unfold step. cbn [run_op]. unfold set_alias, bind, modify, get_lv, asks.
    assert (V1 : lv (upd_lv a (lv_set_alias (Some al)) s) a = Some (lv_set_alias (Some al) l)) by (rewrite lv_upd_lv, Nat.eqb_refl, V; reflexivity).
    rewrite V1. destruct (WF_upd_lv _ s a (lv_set_alias (Some al)) W) as [W1 X1]; [repeat split; auto|].
    change (l_attached (lv_set_alias (Some al) l)) with (l_attached l). destruct (l_attached l); cbn [snd].
    - split; [|repeat split]. destruct X1 as [X1 X2 X3]. constructor; auto.
    - split; auto.
  Qed.

  Lemma step_invalid : forall s o, WF s -> op_valid N s o \/ step s o = s.
  Proof. intros s o W. apply invalid_unchanged; auto. Qed.

  Lemma step_add : forall s a l populate alias, WF s -> lv s a = Some l ->
    ext s (step s (OAddLevel N a populate alias)) /\ added N s a l populate alias (step s (OAddLevel N a populate alias)).
  Proof.
    intros s a l populate alias W V. destruct (add_level_ok N s a l populate alias W V) as [s' [E [W' [X' A']]]].
    unfold step. cbn [run_op]. unfold void, bind. rewrite E. cbn. auto.
  Qed.

  (** ** Names *)

  (** What an operation does to the dictionary name -> level. *)
  Definition named s (o : op) (d : dict string nat) : dict string nat :=
    match o with
    | OAddLevel _ a _ _ =>
        match lv s a with
        | Some l => match l_kind l with LE => dset (lname l) a d | _ => d end
        | None => d
        end
    | ODelLevel _ key => ddel key d
    | _ => d
    end.
  Fixpoint names_after s (os : list op) (d : dict string nat) : dict string nat :=
    match os with [] => d | o :: os' => names_after (step s o) os' (named s o d) end.

  Lemma add_node_attrs_get : forall n a g k, graph_wf g ->
    dget k (node_attrs (g_add_node n a g)) = dget k (dset n a (node_attrs g)).
  Proof.
    intros n a g k W. rewrite node_attrs_get by (now apply add_node_wf). rewrite add_node_nodes, dget_dset, node_attrs_get by auto.
    change keqb with String.eqb. destruct (String.eqb k n); reflexivity.
  Qed.

  Lemma not_loud : forall s o d, loud o = false -> named s o d = d.
  Proof. intros s [] d H; try reflexivity; discriminate. Qed.

  Lemma step_names : forall s o k, WF s -> dget k (node_attrs (s_g0 (step s o))) = dget k (named s o (node_attrs (s_g0 s))).
  Proof.
    intros s o k W. destruct (loud o) eqn:Lo.
    - destruct o; try discriminate; cbn [named].
      + destruct (lv s a) as [l|] eqn:V.
        * destruct (step_add s a l populate alias W V) as [_ Ad]. rewrite (ad_g0 _ _ _ _ _ _ _ Ad).
          destruct (l_kind l); auto. apply add_node_attrs_get. apply (wf_g _ _ W LE).
        * destruct (step_invalid s (OAddLevel N a populate alias) W) as [Vd| ->]; auto. destruct Vd as [l Vd]. congruence.
      + destruct (step_del s key W) as [_ [_ [_ [_ [_ ->]]]]]. reflexivity.
      + destruct (lv s a) as [l|] eqn:V.
        * destruct (step_alias s a al l W V) as [_ [-> _]]. reflexivity.
        * destruct (step_invalid s (OAlias N a al) W) as [Vd| ->]; auto. destruct Vd as [l Vd]. congruence.
    - rewrite not_loud by auto. now rewrite (sl_nodes _ _ _ (still_step s o W Lo)).
  Qed.

  Lemma dget_named : forall s o d d', (forall k, dget k d = dget k d') -> forall k, dget k (named s o d) = dget k (named s o d').
  Proof.
    intros s o d d' H k. destruct o; cbn [named]; auto.
    - destruct (lv s a) as [l|]; auto. destruct (l_kind l); auto. rewrite !dget_dset. destruct (keqb k (lname l)); auto.
    - rewrite !dget_ddel. destruct (keqb k key); auto.
  Qed.
  Lemma dget_names_after : forall os s d d', (forall k, dget k d = dget k d') -> forall k, dget k (names_after s os d) = dget k (names_after s os d').
  Proof.
    induction os as [|o os IH]; intros s d d' H k; cbn [names_after]; auto. apply IH. apply dget_named; auto.
  Qed.

  Lemma run_cons : forall s o os, run s (o :: os) = run (step s o) os.
  Proof. reflexivity. Qed.

  Lemma run_names : forall os s k, WF s -> dget k (node_attrs (s_g0 (run s os))) = dget k (names_after s os (node_attrs (s_g0 s))).
  Proof.
    induction os as [|o os IH]; intros s k W; auto. rewrite run_cons. cbn [names_after]. rewrite IH by (now apply step_WF).
    apply dget_names_after. intros k'. now apply step_names.
  Qed.

  (** Operations on levels alone: these keep the order of the names as well. *)
  Definition level_op (o : op) : bool :=
    match o with
    | ONewLevel _ _ _ _ _ _ _ _ _ | OAddLevel _ _ _ _ | ODelLevel _ _ | OLevel _ _ | OLevelInt _ _ | OItem _ _ _ | OSublevels _ _
    | OAlias _ _ _ | OSetLevel _ _ _ | OSetHf _ _ _ _ _ | OSetLande _ _ _ | OSetQz _ _ _ | OSetB _ _ => true
    | _ => false
    end.
  Definition no_bare s : Prop := forall n, dget n (g_nodes (s_g0 s)) <> Some None.

  Lemma dset_over {V} : forall n (v w : V) (d : dict string V), dset n v (dset n w d) = dset n v d.
  Proof.
    induction d as [|[k u] d IH]; cbn [dset].
    - now rewrite keqb_refl.
    - destruct (keqb n k) eqn:E; cbn [dset]; rewrite E; congruence.
  Qed.
  Lemma somes_dset : forall n (v : nat) (d : dict string (option nat)), (forall k, In (k, None) d -> False) ->
    somes (dset n (Some v) d) = dset n v (somes d).
  Proof.
    induction d as [|[k [w|]] d IH]; intros Hd; cbn [dset somes]; auto.
    - destruct (keqb n k); cbn [somes]; auto. rewrite IH; auto. intros k' I. apply (Hd k'). right; auto.
    - exfalso. apply (Hd k). left; auto.
  Qed.
  Lemma add_node_bare : forall n a g, graph_wf g -> (forall k, dget k (g_nodes g) <> Some None) ->
    node_attrs (g_add_node n a g) = dset n a (node_attrs g).
  Proof.
    intros n a g W H. unfold node_attrs. rewrite <- somes_dset.
    - f_equal. unfold g_add_node, g_touch. destruct (dmem n (g_nodes g)); cbn [g_nodes]; auto. apply dset_over.
    - intros k I. apply (H k). apply In_dget_nodup; auto. apply W.
  Qed.

  Lemma level_op_g0 : forall s o, WF s -> level_op o = true -> loud o = false -> s_g0 (step s o) = s_g0 s.
  Proof.
    intros s o W Lo Hl. destruct (step_invalid s o W) as [V| ->]; auto. unfold step.
    assert (SL : forall A (m : M A) Q, safe lookl s m Q -> s_g0 (snd (void N m s)) = s_g0 s).
    { intros A m Q H. destruct (safe_void _ lookl s m Q (lookl_po _) H) as [_ [L _]]. apply (lo_frame _ _ _ (proj1 L)). }
    destruct o; try discriminate; cbn [run_op op_valid] in *; try reflexivity.
    - unfold void, new_level, bind. destruct ts as [|tm ts']; [reflexivity|]. destruct (forallb plain_term (tm :: ts')); reflexivity.
    - eapply SL. apply levels_get_safe; auto.
    - eapply SL. apply levels_get_int_safe; auto.
    - destruct V as [l V]. eapply SL. unfold getitem. eapply getitem_safe; eauto. destruct (l_kind l); simpl; lia.
    - destruct V as [l V]. eapply SL. eapply sublevels_safe; eauto.
    - destruct V as [l V]. assert (Mv : moved s (snd (set_energy N muB a v s))) by (eapply set_energy_safe; eauto). apply Mv.
  Qed.

  Lemma level_op_step : forall s o, WF s -> level_op o = true -> no_bare s ->
    node_attrs (s_g0 (step s o)) = named s o (node_attrs (s_g0 s)) /\ no_bare (step s o).
  Proof.
    intros s o W Lo B. destruct (loud o) eqn:Hl.
    - destruct o; try discriminate; cbn [named].
      + destruct (lv s a) as [l|] eqn:V.
        * destruct (step_add s a l populate alias W V) as [_ Ad]. unfold no_bare. rewrite (ad_g0 _ _ _ _ _ _ _ Ad).
          destruct (l_kind l); auto. split; [apply add_node_bare; auto; apply (wf_g _ _ W LE)|].
          intros k. rewrite add_node_nodes. destruct (String.eqb k (lname l)); [discriminate|apply B].
        * destruct (step_invalid s (OAddLevel N a populate alias) W) as [Vd| ->]; auto. destruct Vd as [l Vd]. congruence.
      + split; [now destruct (step_del s key W) as [_ [_ [_ [_ [_ ->]]]]]|].
        unfold no_bare, step. cbn [run_op]. unfold del_level. destruct (g_remove_node key (s_g0 s)) as [g|] eqn:E; cbn [snd]; auto.
        intros k. cbn. rewrite (remove_nodes _ _ _ k E). destruct (String.eqb k key); [discriminate|apply B].
      + destruct (lv s a) as [l|] eqn:V.
        * destruct (step_alias s a al l W V) as [_ [Eg _]]. unfold no_bare. rewrite Eg. auto.
        * destruct (step_invalid s (OAlias N a al) W) as [Vd| ->]; auto. destruct Vd as [l Vd]. congruence.
    - rewrite not_loud by auto. unfold no_bare. rewrite (level_op_g0 s o W Lo Hl). auto.
  Qed.

  Lemma run_level_ops : forall os s, WF s -> no_bare s -> forallb level_op os = true ->
    node_attrs (s_g0 (run s os)) = names_after s os (node_attrs (s_g0 s)).
  Proof.
    induction os as [|o os IH]; intros s W B H; auto. simpl in H. apply andb_true_iff in H as [H1 H2].
    rewrite run_cons. cbn [names_after]. destruct (level_op_step s o W H1 B) as [<- B']. apply IH; auto. now apply step_WF.
  Qed.

  (** ** Aliases *)

  Definition aliased s (o : op) (d : dict string nat) : dict string nat :=
    match o with
    | OAddLevel _ a _ alias =>
        match lv s a with
        | Some l => match alias_of N alias l with Some al => dset al a d | None => d end
        | None => d
        end
    | OAlias _ a al =>
        match lv s a with Some l => if l_attached l then dset al a d else d | None => d end
    | _ => d
    end.

  Lemma step_aliases : forall s o, WF s -> s_lal (step s o) = aliased s o (s_lal s).
  Proof.
    intros s o W. destruct (loud o) eqn:Lo.
    - destruct o; try discriminate; cbn [aliased].
      + destruct (lv s a) as [l|] eqn:V.
        * destruct (step_add s a l populate alias W V) as [_ Ad]. apply (ad_lal _ _ _ _ _ _ _ Ad).
        * destruct (step_invalid s (OAddLevel N a populate alias) W) as [Vd| ->]; auto. destruct Vd as [l Vd]. congruence.
      + apply (step_del s key W).
      + destruct (lv s a) as [l|] eqn:V.
        * apply (step_alias s a al l W V).
        * destruct (step_invalid s (OAlias N a al) W) as [Vd| ->]; auto. destruct Vd as [l Vd]. congruence.
    - rewrite (sl_lal _ _ _ (still_step s o W Lo)). destruct o; try reflexivity; discriminate.
  Qed.

  (** The operation binds the alias [al]. *)
  Definition binds s (o : op) (al : string) : Prop :=
    match o with
    | OAddLevel _ a _ alias => exists l, lv s a = Some l /\ alias_of N alias l = Some al
    | OAlias _ _ al' => al' = al
    | _ => False
    end.

  Lemma step_alias_kept : forall s o al, WF s -> ~ binds s o al -> dget al (s_lal (step s o)) = dget al (s_lal s).
  Proof.
    intros s o al W H. rewrite step_aliases by auto. destruct o; cbn [aliased binds] in *; auto.
    - destruct (lv s a) as [l|] eqn:V; auto. destruct (alias_of N alias l) as [al'|] eqn:E; auto.
      rewrite dget_dset, keqb_neq; auto. intros ->. apply H. eauto.
    - destruct (lv s a) as [l|]; auto. destruct (l_attached l); auto. rewrite dget_dset, keqb_neq; auto.
  Qed.

  (** ** Histories that respect the paths of one level *)

  Record steady (n : string) a (P : string -> Prop) s s' : Prop := mk_steady {
    sy_ext : ext s s';
    sy_node : dget n (node_attrs (s_g0 s)) = Some a -> dget n (node_attrs (s_g0 s')) = Some a;
    sy_lal : forall k, P k -> dget k (s_lal s') = dget k (s_lal s);
    sy_subs : forall b l l', b = a \/ l_parent l = Some a -> lv s b = Some l -> lv s' b = Some l' -> l_subs l <> [] -> l_subs l' = l_subs l
  }.

  Lemma steady_refl : forall n a P s, steady n a P s s.
  Proof. intros. constructor; auto; [apply ext_refl|]. intros; congruence. Qed.
  Lemma steady_trans : forall n a P s1 s2 s3, steady n a P s1 s2 -> steady n a P s2 s3 -> steady n a P s1 s3.
  Proof.
    intros n a P s1 s2 s3 A B. constructor.
    - eapply ext_trans; [apply A|apply B].
    - intros H. apply B, A, H.
    - intros k H. rewrite (sy_lal _ _ _ _ _ B), (sy_lal _ _ _ _ _ A); auto.
    - intros b l l' H V V' Hn. destruct (ext_lv _ _ _ (sy_ext _ _ _ _ _ A) _ _ V) as [l2 [V2 S2]].
      assert (E2 : l_subs l2 = l_subs l) by (eapply (sy_subs _ _ _ _ _ A); eauto).
      rewrite <- E2. apply (sy_subs _ _ _ _ _ B b l2 l'); auto; [|congruence]. destruct H as [H|H]; auto. right. destruct S2 as [_ [-> _]]. auto.
  Qed.

  (** An operation that does not rename, delete, re-alias or repopulate the level [a] called [n]. *)
  Definition gentle (n : string) a (P : string -> Prop) s (o : op) : Prop :=
    match o with
    | OAddLevel _ b populate alias =>
        forall l, lv s b = Some l ->
          (forall k, P k -> alias_of N alias l <> Some k) /\
          (l_kind l = LE -> lname l = n -> b = a) /\
          (populate = true -> b <> a /\ l_parent l <> Some a)
    | ODelLevel _ key => key <> n
    | OAlias _ _ al => ~ P al
    | _ => True
    end.
  Fixpoint gentle_run n a P s (os : list op) : Prop :=
    match os with [] => True | o :: os' => gentle n a P s o /\ gentle_run n a P (step s o) os' end.

  Lemma gentle_step : forall n a P s o, WF s -> gentle n a P s o -> steady n a P s (step s o).
  Proof.
    intros n a P s o W G.
    assert (X : ext s (step s o)).
    { destruct (step_invalid s o W) as [V| ->]; [|apply ext_refl]. apply (run_op_safe N muB orc OK s o W V). }
    assert (NB : forall k, P k -> ~ binds s o k).
    { intros k Pk B. destruct o; cbn [binds gentle] in *; try contradiction.
      - destruct B as [l [V E]]. destruct (G l V) as [G1 _]. apply (G1 k Pk). exact E.
      - subst. auto. }
    constructor; auto.
    - intros Hn. rewrite step_names by auto. destruct o; cbn [named gentle] in *; auto.
      + destruct (lv s a0) as [l|] eqn:V; auto. destruct (G l eq_refl) as [_ [G2 _]]. destruct (l_kind l); auto.
        rewrite dget_dset. destruct (keqb_spec n (lname l)) as [E|E]; [|auto]. f_equal. auto.
      + rewrite dget_ddel. rewrite keqb_neq; auto.
    - intros k Pk. apply step_alias_kept; auto.
    - intros b l l' H V V' Hn. destruct (loud o) eqn:Lo.
      + destruct o; try discriminate; cbn [gentle] in *.
        * destruct (lv s a0) as [l0|] eqn:V0.
          -- destruct (step_add s a0 l0 populate alias W V0) as [_ Ad]. destruct (Nat.eq_dec b a0) as [->|Hb].
             ++ rewrite V in V0. injection V0 as <-. apply (ad_subs _ _ _ _ _ _ _ Ad); auto.
                destruct populate; auto. destruct (G l eq_refl) as [_ [_ G3]]. destruct (G3 eq_refl). destruct H; congruence.
             ++ destruct (ad_other _ _ _ _ _ _ _ Ad b l Hb V) as [lb' [Vb' [_ Es]]]. rewrite V' in Vb'. injection Vb' as <-. auto.
          -- destruct (step_invalid s (OAddLevel N a0 populate alias) W) as [Vd|E]; [destruct Vd as [l1 Vd]; congruence|].
             rewrite E, V in V'. congruence.
        * destruct (step_del s key W) as [_ [El _]]. unfold lv in V, V'. rewrite El, V in V'. congruence.
        * destruct (lv s a0) as [l0|] eqn:V0.
          -- destruct (step_alias s a0 al l0 W V0) as [_ [_ [_ [El _]]]]. unfold lv in V, V'. rewrite El in V'.
             destruct (Nat.eq_dec a0 b) as [->|Hb].
             ++ rewrite nth_error_upd_eq, V in V'. injection V' as <-. reflexivity.
             ++ rewrite nth_error_upd_neq, V in V' by auto. congruence.
          -- destruct (step_invalid s (OAlias N a0 al) W) as [Vd|E]; [destruct Vd as [l1 Vd]; congruence|].
             rewrite E, V in V'. congruence.
      + apply (sl_lv _ _ _ (still_step s o W Lo) b l l' V V'); auto.
  Qed.

  Lemma gentle_steady : forall os n a P s, WF s -> gentle_run n a P s os -> steady n a P s (run s os).
  Proof.
    induction os as [|o os IH]; intros n a P s W G; [apply steady_refl|]. destruct G as [G1 G2]. rewrite run_cons.
    eapply steady_trans; [apply gentle_step; eauto|]. apply IH; auto. now apply step_WF.
  Qed.

  Lemma resolved_kept : forall n a P s s' f b m c, steady n a P s s' -> resolved N s n a f b m c -> resolved N s' n a f b m c.
  Proof.
    intros n a P s s' f b m c Y [Hn [[la [Va [Ka Da]]] [lb [Vb [Kb [Pb Db]]]]]].
    destruct (ext_lv _ _ _ (sy_ext _ _ _ _ _ Y) _ _ Va) as [la' [Va' Sa]].
    destruct (ext_lv _ _ _ (sy_ext _ _ _ _ _ Y) _ _ Vb) as [lb' [Vb' Sb]].
    split; [now apply Y|]. split.
    - exists la'. split; auto. split; [destruct Sa; congruence|].
      rewrite (sy_subs _ _ _ _ _ Y a la la'); auto. eapply dget_nonempty; eauto.
    - exists lb'. split; auto. destruct Sb as [S1 [S2 _]]. split; [congruence|]. split; [congruence|].
      rewrite (sy_subs _ _ _ _ _ Y b lb lb'); auto. eapply dget_nonempty; eauto.
  Qed.
End Hist.
