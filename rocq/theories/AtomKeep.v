(** What the operations on transitions leave alone, for any suitable relation
    between states. *)
From Coq Require Import List Bool ZArith QArith Qcanon Lia String Ascii Permutation.
From Verif Require Import Base PyStr Util UtilProofs Parse Term TermProofs Num Wigner Hyperfine HyperfineProofs
  Graph GraphProofs DfsProofs Rules Atom AtomInv AtomSafe AtomSafe2 AtomSafe3 AtomSafe4 AtomSafe5 AtomSafe6.
Import ListNotations.

Arguments any {N A}.

Section Keep.
  Context (N : Num) (muB : N).
  Notation st := (st N).
  Notation level := (level N).
  Notation trans := (trans N).
  Notation M := (M N).
  Notation energy := (energy N muB).
  Implicit Types (s : st) (l : level) (x y : trans) (a : nat) (t : nat).

  Record carrier (R : st -> st -> Prop) : Prop := mk_carrier {
    ca_po : preord R;
    ca_look0 : forall s s', WF s -> look0 s s' -> R s s';
    ca_moved : forall s s', WF s -> moved s s' -> R s s';
    ca_put : forall s x, WF s -> tr_static s x -> x_subs x = [] -> R s (put_trans N s x);
    ca_join : forall s t x, WF s -> tr s t = Some x -> R s (tr_joined s t x);
    ca_tal : forall s al t x, tr s t = Some x -> x_alias x = Some al -> R s (set_tal (dset al t (s_tal s)) s);
    ca_set : forall s t f, R s (upd_tr t (tr_set_set f) s)
  }.

  (** As [safe_weaken], when the weaker relation needs the invariant. *)
  Lemma safe_weaken_wf {A} : forall (R R' : st -> st -> Prop) s (m : M A) Q, WF s -> (forall s', R s s' -> R' s s') ->
    safe R s m Q -> safe R' s m Q.
  Proof. intros R R' s m Q W H [H1 [H2 H3]]. split; auto. Qed.

  Section Carrier.
    Context (R : st -> st -> Prop) (C : carrier R).
    Let po := ca_po _ C.
    Context (orc : nat -> oracle) (OK : forall n, oracle_ok (orc n)).

    Lemma ca_look : forall s s', WF s -> look s s' -> R s s'.
    Proof. intros s s' W L. apply (ca_look0 _ C); auto. apply L. Qed.
    Lemma ca_lookl : forall s s', WF s -> lookl s s' -> R s s'.
    Proof. intros s s' W L. apply ca_look; auto. apply L. Qed.

    Lemma new_transition_R : forall s e1 e2 f A alias l1 l2, WF s -> lv s e1 = Some l1 -> lv s e2 = Some l2 ->
      safe R s (new_transition N muB e1 e2 f A alias) (fun t s' => is_tr s' t).
    Proof.
      intros s e1 e2 f A alias l1 l2 W V1 V2. destruct (new_transition_spec _ muB s e1 e2 f A alias l1 l2 W V1 V2) as [S1 S2].
      assert (D : (l_kind l1 = LE /\ l_kind l2 = LE) \/ (l_kind l1 <> LE \/ l_kind l2 <> LE)).
      { destruct (l_kind l1), (l_kind l2); try (right; left; congruence); try (right; right; congruence); auto. }
      destruct D as [[K1 K2]|D].
      - destruct (S1 K1 K2) as [x [j1 [j2 [J1 [J2 [Er [O [E Eq]]]]]]]].
        assert (Ea : x_alias x = alias).
        { unfold tr_rec in Er. rewrite V1 in Er. destruct (energy s e1); [|discriminate]. destruct (energy s e2); [|discriminate].
          injection Er as <-. reflexivity. }
        pose proof (put_trans_spec _ s x W O E) as P. pose proof (ca_put _ C s x W O E) as X.
        destruct (put_tr _ _ _ _ P) as [T To].
        unfold safe. rewrite Eq. destruct alias as [b|].
        + destruct (x_attached x).
          * destruct (WF_tal _ (put_trans _ s x) b (List.length (s_trans s)) x (pu_wf _ _ _ _ P) T) as [W2 X2].
            rewrite (pu_tal _ _ _ _ P) in W2, X2. cbn [fst snd]. split; auto. split; [eapply (po_trans _ _ po); [exact X|]|].
            { rewrite <- (pu_tal _ _ _ _ P). eapply (ca_tal _ C); [exact T|exact Ea]. }
            exists x. auto.
          * cbn [fst snd]. split; [apply P|]. split; auto. discriminate.
        + cbn [fst snd]. split; [apply P|]. split; auto. exists x. auto.
      - unfold safe. rewrite (S2 D). cbn [fst snd]. split; auto. split; [apply (po_refl _ _ po)|discriminate].
    Qed.

    Lemma tr_add_R : forall s t x, WF s -> tr s t = Some x -> safe R s (tr_add_to_atom N t) any.
    Proof.
      intros s t x W V. unfold safe. rewrite (tr_add_eq _ _ _ _ W V). destruct (tr_joined_spec _ s t x W V) as [W' _].
      cbn [fst snd]. split; auto. split; [eapply (ca_join _ C); eauto|]. destruct (x_subs x); [exact I|discriminate].
    Qed.

    Lemma set_freqT_R : forall s t x f, WF s -> tr s t = Some x -> safe R s (set_freqT N muB orc t f) any.
    Proof.
      intros s t x f W V. unfold set_freqT, get_tr, get_lv. apply (safe_asks _ _ s _ _ _ _ _ V).
      destruct (tr_ends _ _ _ _ W V) as [lo [up [Vl Vu]]].
      apply (safe_asks _ _ s _ _ _ _ _ Vu). apply (safe_asks _ _ s _ _ _ _ _ Vl).
      eapply (safe_bind _ _ po) with (Q := fun _ s' => moved s s').
      { destruct (_ && _).
        - apply (safe_modify_last _ _).
          + eapply moved_WF; [exact W|apply moved_fixed].
          + apply (ca_moved _ C); auto. apply moved_fixed.
          + apply moved_fixed.
        - apply (safe_ret _ _ po); auto. apply moved_refl. }
      intros [] s1 W1 _ M1. pose proof (moved_ext _ _ _ M1) as X1.
      destruct (WF_upd_tr _ s1 t (tr_set_set (Some f)) W1) as [W2 X2]; [repeat split; auto|].
      apply (safe_modify _ _ po); auto; [apply (ca_set _ C)|].
      destruct (wf_tr _ _ W _ _ V) as [l1 [l2 [V1 [V2 _]]]].
      destruct (ext_lv _ _ _ (ext_trans _ _ _ _ X1 X2) _ _ V1) as [l1' [V1' _]].
      destruct (ext_lv _ _ _ (ext_trans _ _ _ _ X1 X2) _ _ V2) as [l2' [V2' _]].
      apply (safe_asks _ _ _ _ _ _ _ _ V1'). apply (safe_asks _ _ _ _ _ _ _ _ V2').
      destruct (l_attached l1'); [|apply (safe_raise _ _ po); auto; discriminate].
      eapply safe_weaken_wf; [exact W2|intros s'; apply (ca_moved _ C); exact W2|]. eapply safe_any. apply enforce_safe; auto.
    Qed.

    Lemma set_freqHF_R : forall s t x f, WF s -> tr s t = Some x -> safe R s (set_freqHF N muB orc t f) any.
    Proof.
      intros s t x f W V. unfold set_freqHF, get_tr. apply (safe_asks _ _ s _ _ _ _ _ V).
      destruct (freq_total _ muB _ _ _ W V) as [g Eg]. apply (safe_asks _ _ s _ _ _ _ _ Eg).
      apply (safe_try _ _ po); auto; [discriminate|]. intros p P.
      destruct (wf_tr _ _ W _ _ V) as [l1 [l2 [_ [_ [_ [_ [_ [[_ [P' _]]|[q [xp [P' [Vp _]]]]]]]]]]]]; [congruence|].
      assert (q = p) by congruence. subst q. destruct (freq_total _ muB _ _ _ W Vp) as [gp Ep]. apply (safe_asks _ _ s _ _ _ _ _ Ep).
      eapply set_freqT_R; eauto.
    Qed.

    Lemma set_frequency_R : forall s t x f, WF s -> tr s t = Some x -> safe R s (set_frequency N muB orc t f) any.
    Proof.
      intros s t x f W V. unfold set_frequency, get_tr. apply (safe_asks _ _ s _ _ _ _ _ V).
      destruct (x_kind x); [eapply set_freqT_R; eauto|eapply set_freqHF_R; eauto|].
      unfold set_freqZ, get_tr. apply (safe_asks _ _ s _ _ _ _ _ V).
      destruct (freq_total _ muB _ _ _ W V) as [g Eg]. apply (safe_asks _ _ s _ _ _ _ _ Eg).
      apply (safe_try _ _ po); auto; [discriminate|]. intros p P.
      destruct (wf_tr _ _ W _ _ V) as [l1 [l2 [_ [_ [_ [_ [_ [[_ [P' _]]|[q [xp [P' [Vp _]]]]]]]]]]]]; [congruence|].
      assert (q = p) by congruence. subst q. destruct (freq_total _ muB _ _ _ W Vp) as [gp Ep]. apply (safe_asks _ _ s _ _ _ _ _ Ep).
      eapply set_freqHF_R; eauto.
    Qed.

    Lemma levels_get_R : forall s key, WF s -> safe R s (levels_get N key) (fun b s' => found s' b /\ frame s s').
    Proof.
      intros s key W. eapply safe_weaken_wf; [exact W|intros s'; apply ca_lookl; exact W|].
      eapply (safe_conseq _); [apply levels_get_safe; auto|]. cbv beta. intros b s' _ L [H _]. split; auto. apply L.
    Qed.

    Lemma transitions_get_R : forall s k, WF s -> safe R s (transitions_get N muB k) (fun t s' => is_tr s' t).
    Proof.
      intros s k W. eapply safe_weaken_wf; [exact W|intros s'; apply ca_look; exact W|].
      eapply (safe_conseq _); [apply (transitions_get_safe N muB _ k W)|]. cbv beta. intros c s' _ _ [H _]. exact H.
    Qed.

    Lemma enforce_R : forall s from, WF s -> safe R s (enforce N muB orc from) any.
    Proof.
      intros s from W. eapply safe_weaken_wf; [exact W|intros s'; apply (ca_moved _ C); exact W|]. eapply safe_any. apply enforce_safe; auto.
    Qed.

    Lemma add_transition_R : forall s sp f A alias, WF s -> tspec_ok _ s sp ->
      (forall u v s', R s' (add_warn (WDup u v) s')) ->
      safe R s (add_transition N muB orc sp f A alias) any.
    Proof.
      intros s sp f A alias W O Hw. unfold add_transition.
      eapply (safe_bind _ _ po) with (Q := fun t s' => is_tr s' t).
      { destruct sp as [t|a b|a b].
        - apply (safe_ret _ _ po); auto.
        - apply (safe_gets _ _ s). destruct (dmem (a, b) (edge_attrs (s_g0 s))).
          + pose proof (moved_warn N s (WDup a b)) as Mw. pose proof (moved_WF _ _ _ W Mw) as Ww.
            apply (safe_modify _ _ po); auto. apply transitions_get_R; auto.
          + eapply (safe_bind _ _ po); [apply levels_get_R; auto|].
            cbv beta. intros b1 s1 W1 _ [F1 _].
            eapply (safe_bind _ _ po); [apply levels_get_R; auto|].
            cbv beta. intros b2 s2 W2 _ [[lb2 [V2 _]] L2].
            destruct (found_look _ _ _ _ L2 F1) as [lb1 [V1 _]].
            eapply new_transition_R; eauto.
        - destruct O as [[la Va] [lb Vb]]. eapply new_transition_R; eauto. }
      cbv beta. intros t s1 W1 _ [x1 V1].
      eapply (safe_bind _ _ po) with (Q := fun _ s' => is_tr s' t).
      { unfold safe. rewrite (tr_add_eq _ _ _ _ W1 V1). destruct (tr_joined_spec _ s1 t x1 W1 V1) as [W' [X' _]].
        cbn [fst snd]. split; auto. split; [eapply (ca_join _ C); eauto|]. destruct (x_subs x1); [|discriminate].
        eapply is_tr_ext; eauto. exists x1. auto. }
      cbv beta. intros [] s2 W2 _ [x2 V2].
      unfold get_tr. apply (safe_asks _ _ s2 _ _ _ _ _ V2).
      eapply (safe_bind _ _ po) with (Q := any).
      { destruct (x_alias x2) as [al|] eqn:Ea; [|apply (safe_ret _ _ po); auto; exact I].
        destruct (WF_tal _ s2 al t x2 W2 V2) as [W3 X3]. apply (safe_modify_last _ _); auto; [eapply (ca_tal _ C); eauto|exact I]. }
      intros [] s3 W3 _ _.
      eapply (safe_bind _ _ po) with (Q := any).
      { destruct (x_set x2); [|apply (safe_ret _ _ po); auto; exact I]. apply enforce_R; auto. }
      intros [] s4 W4 _ _. apply (safe_ret _ _ po); auto. exact I.
    Qed.

    Lemma populate_internal_R : forall s, WF s -> safe R s (populate_internal N muB) any.
    Proof.
      intros s W. unfold populate_internal. apply (safe_gets _ _ s). apply (safe_any _ R s _ (fun _ => ext s)).
      apply (safe_forM _ _ po) with (Inv := ext s); auto; [apply ext_refl|].
      intros a s1 Ia W1 _ X1. destruct (nodes_levels _ s LE a W Ia) as [n [l [V _]]].
      destruct (ext_lv _ _ _ X1 _ _ V) as [l1 [V1 _]].
      eapply (safe_bind _ _ po) with (Q := fun t s' => is_tr s' t /\ ext s s').
      { destruct (new_transition_R s1 a a None None None l1 l1 W1 V1 V1) as [H1 [H2 H3]]. split; auto. split; auto.
        destruct (new_transition_safe _ muB s1 a a None None None l1 l1 W1 V1 V1) as [_ [X2 _]].
        destruct (fst _); auto. split; auto. eapply ext_trans; eauto. }
      cbv beta. intros t s2 W2 _ [[x Vx] X2]. destruct (tr_add_R s2 t x W2 Vx) as [H1 [H2 H3]].
      destruct (tr_add_safe _ s2 t x W2 Vx) as [_ [X3 _]]. split; auto. split; auto. destruct (fst _); auto. eapply ext_trans; eauto.
    Qed.

    (** Operations that neither create nor rename levels and set no parameter. *)
    Definition quiet (o : op N) : bool :=
      match o with
      | ONewLevel _ _ _ _ _ _ _ _ _ | OAddLevel _ _ _ _ | ODelLevel _ _ | OAlias _ _ _
      | OSetHf _ _ _ _ _ | OSetLande _ _ _ | OSetQz _ _ _ | OSetB _ _ | OTAlias _ _ _ | OSetA _ _ _ => false
      | _ => true
      end.

    Lemma quiet_R : forall s o, WF s -> quiet o = true -> (forall u v s', R s' (add_warn (WDup u v) s')) ->
      R s (step N muB orc s o).
    Proof.
      intros s o W Qo Hw. destruct (invalid_unchanged N muB orc s o W) as [V| ->]; [|apply (po_refl _ _ po)]. unfold step.
      assert (SV : forall A (m : M A) Q, safe R s m Q -> R s (snd (void N m s))).
      { intros A m Q H. apply (safe_void _ R s m Q po H). }
      destruct o; cbn [run_op op_valid quiet] in *; try discriminate.
      - eapply SV, levels_get_R; auto.
      - eapply SV. eapply safe_weaken_wf; [exact W|intros s'; apply ca_lookl; exact W|]. apply levels_get_int_safe; auto.
      - destruct V as [l V]. eapply SV. unfold getitem. eapply safe_weaken_wf; [exact W|intros s'; apply ca_lookl; exact W|]. eapply getitem_safe; eauto.
        destruct (l_kind l); simpl; lia.
      - destruct V as [l V]. eapply SV. eapply safe_weaken_wf; [exact W|intros s'; apply ca_lookl; exact W|]. eapply sublevels_safe; eauto.
      - destruct V as [l V]. apply (ca_moved _ C); auto. eapply set_energy_safe; eauto.
      - destruct V as [[l1 V1] [l2 V2]]. eapply SV. eapply new_transition_R; eauto.
      - eapply SV. apply add_transition_R; auto.
      - eapply SV. apply transitions_get_R; auto.
      - eapply SV. eapply safe_weaken_wf; [exact W|intros s'; apply ca_look; exact W|]. apply transitions_get_str_safe; auto.
      - destruct V as [x V]. eapply SV. eapply safe_weaken_wf; [exact W|intros s'; apply ca_look; exact W|]. eapply tr_getitem_safe; eauto.
      - destruct V as [x V]. eapply SV. eapply safe_weaken_wf; [exact W|intros s'; apply ca_look; exact W|]. eapply subtransitions_safe; eauto.
      - destruct V as [x V]. eapply set_frequency_R; eauto.
      - apply enforce_R; auto.
      - eapply SV. eapply safe_weaken_wf; [exact W|intros s'; apply (ca_look0 _ C); exact W|]. apply linked_safe; auto.
      - eapply SV. eapply safe_weaken_wf; [exact W|intros s'; apply (ca_look0 _ C); exact W|]. apply total_rate_safe; auto.
      - eapply SV. eapply safe_weaken_wf; [exact W|intros s'; apply (ca_look0 _ C); exact W|]. apply branching_safe; auto.
      - apply ca_look; auto. apply populate_transitions_safe; auto.
      - apply populate_internal_R; auto.
    Qed.
  End Carrier.

  (** ** Level lookup is not affected *)

  Lemma somes_app {A} : forall (d e : dict string (option A)), somes (d ++ e) = somes d ++ somes e.
  Proof. induction d as [|[k [v|]] d IH]; intros e; simpl; congruence. Qed.
  Lemma touch_attrs : forall n g, node_attrs (g_touch n g) = node_attrs g.
  Proof.
    intros n g. unfold g_touch, node_attrs. destruct (dmem n (g_nodes g)) eqn:E; auto. cbn [g_nodes].
    rewrite dset_new by (now apply dmem_false). rewrite somes_app. apply app_nil_r.
  Qed.
  Lemma add_edge_attrs : forall u v t g, node_attrs (g_add_edge u v t g) = node_attrs g.
  Proof.
    intros u v t g. unfold g_add_edge.
    assert (L : forall c d g', node_attrs (g_link c d t g') = node_attrs g') by reflexivity.
    rewrite !L, !touch_attrs. reflexivity.
  Qed.
  Lemma remove_attrs : forall n g g', g_remove_node n g = Some g' -> node_attrs g' = ddel n (node_attrs g).
  Proof.
    intros n g g' E. unfold g_remove_node in E. destruct (dmem n (g_nodes g)); [|discriminate]. injection E as <-.
    unfold node_attrs. cbn [g_nodes]. unfold ddel. change keqb with String.eqb.
    induction (g_nodes g) as [|[k [v|]] d IH]; cbn [somes filter fst]; auto;
      destruct (String.eqb n k); cbn [somes filter fst negb]; rewrite ?IH; auto.
  Qed.

  Lemma put_edge_attrs : forall s t x, node_attrs (s_g0 (put_edge N s t x)) = node_attrs (s_g0 s).
  Proof.
    intros s t x. unfold put_edge. destruct (nm s (x_lo x)); auto. destruct (nm s (x_up x)); auto.
    destruct (x_kind x); try reflexivity. apply (add_edge_attrs _ _ t (s_g0 s)).
  Qed.

  Record still s s' : Prop := mk_still {
    sl_ext : ext s s';
    sl_lal : s_lal s' = s_lal s;
    sl_nodes : node_attrs (s_g0 s') = node_attrs (s_g0 s);
    sl_lv : forall a l l', lv s a = Some l -> lv s' a = Some l' ->
      l_alias l' = l_alias l /\ (l_subs l <> [] -> l_subs l' = l_subs l)
  }.

  Lemma still_refl : forall s, still s s.
  Proof. intros s. constructor; auto; [apply ext_refl|]. intros a l l' V V'. rewrite V in V'. injection V' as <-. auto. Qed.
  Lemma still_trans : forall s1 s2 s3, still s1 s2 -> still s2 s3 -> still s1 s3.
  Proof.
    intros s1 s2 s3 A B. constructor.
    - eapply ext_trans; [apply A|apply B].
    - rewrite (sl_lal _ _ B). apply A.
    - rewrite (sl_nodes _ _ B). apply A.
    - intros a l l' V V'. destruct (ext_lv _ _ _ (sl_ext _ _ A) _ _ V) as [l2 [V2 _]].
      destruct (sl_lv _ _ A _ _ _ V V2) as [A1 A2]. destruct (sl_lv _ _ B _ _ _ V2 V') as [B1 B2].
      split; [congruence|]. intros Hn. rewrite B2, A2; auto. rewrite A2; auto.
  Qed.
  Lemma still_same : forall s s', ext s s' -> s_lal s' = s_lal s -> node_attrs (s_g0 s') = node_attrs (s_g0 s) ->
    s_levels s' = s_levels s -> still s s'.
  Proof.
    intros s s' X L G E. constructor; auto. intros a l l' V V'. unfold lv in *. rewrite E, V in V'. injection V' as <-. auto.
  Qed.

  Lemma still_carrier : carrier still.
  Proof.
    constructor.
    - constructor; [apply still_refl|apply still_trans].
    - intros s s' W [F S]. constructor; try apply F.
      + now apply frame_ext.
      + now rewrite (fr_g0 _ _ _ F).
      + intros a l l' V V'. split; [|intros Hn; eapply S; eauto]. destruct (fr_lv _ _ _ F _ _ V) as [l2 [V2 E]].
        rewrite V' in V2. injection V2 as <-. now rewrite E.
    - intros s s' W Mv. constructor.
      + now apply moved_ext.
      + apply Mv.
      + now rewrite (mv_g0 _ _ _ Mv).
      + intros a l l' V V'. destruct (moved_lv _ _ _ _ _ Mv V) as [l2 [V2 E]]. rewrite V' in V2. injection V2 as <-. rewrite E. auto.
    - intros s x W O E. pose proof (put_trans_spec _ s x W O E) as P. apply still_same; [now apply put_trans_ext|apply P| |apply P].
      unfold put_trans. destruct (x_attached x); auto. rewrite put_edge_attrs. reflexivity.
    - intros s t x W V. destruct (tr_joined_spec _ s t x W V) as [_ [X [El [_ [La _]]]]]. apply still_same; auto.
      unfold tr_joined. rewrite put_edge_attrs. reflexivity.
    - intros s al t x _ _. apply still_same; auto. apply same_heaps_ext; auto.
    - intros s t f. apply still_same; auto. constructor; auto.
      + intros a l V. exists l. split; auto. apply lsame_refl.
      + intros t' x V. rewrite tr_upd_tr, V. destruct (Nat.eqb t t'); simpl; eexists; (split; [reflexivity|]); repeat split.
  Qed.
End Keep.
