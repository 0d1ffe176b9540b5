(** The Zeeman sublevels listed under one hyperfine level have one g-factor,
    whatever was done to the atom (used by C152). *)
From Coq Require Import List Bool ZArith QArith Qcanon Lia String Ascii Permutation.
From Verif Require Import Base PyStr Util Parse Term Num Wigner Hyperfine Graph Rules Atom AtomInv AtomSafe AtomSafe2 AtomSafe3 AtomSafe4 AtomSafe5 AtomSafe6 AtomFresh AtomLevels.
Import ListNotations.

Section Sib.
  Context (N : Num) (muB : N) (orc : nat -> oracle).
  Notation st := (st N).
  Notation level := (level N).
  Notation trans := (trans N).
  Notation M := (M N).
  Implicit Types (s : st) (l : level) (x y : trans) (a : nat) (t : nat).

  (** The levels listed in [d] exist and have one g-factor. *)
  Definition one_g s (d : dict string nat) : Prop :=
    exists g, forall k b, dget k d = Some b -> exists lb, lv s b = Some lb /\ l_gF lb = g.
  Definition sib s : Prop := forall a l, lv s a = Some l -> l_kind l = LHF ->
    (forall k b, dget k (l_subs l) = Some b -> exists f, l_F l = Some f /\ In k (map mF_key (mF_range f))) /\ one_g s (l_subs l).

  Definition kk {A} (m : M A) : Prop := forall s, sib s -> sib (snd (m s)).
  Lemma kk_bind {A B} : forall (m : M A) (k : A -> M B), kk m -> (forall v, kk (k v)) -> kk (bind m k).
  Proof. intros m k H K s S. unfold bind. specialize (H s S). destruct (m s) as [[v|e] s']; cbn [snd] in *; auto. now apply K. Qed.
  Lemma kk_pure {A} : forall (m : M A), (forall s, snd (m s) = s) -> kk m.
  Proof. intros m H s S. now rewrite H. Qed.
  Lemma kk_ret {A} : forall v : A, kk (ret v).
  Proof. intros v. now apply kk_pure. Qed.
  Lemma kk_raise {A} : forall e, kk (@raise N A e).
  Proof. intros e. now apply kk_pure. Qed.
  Lemma kk_asks {A} : forall e (f : st -> option A), kk (asks e f).
  Proof. intros e f. apply kk_pure. intros s. unfold asks. now destruct (f s). Qed.
  Lemma kk_gets {A} : forall (f : st -> A), kk (gets f).
  Proof. intros f. now apply kk_pure. Qed.
  Lemma kk_forM {A} : forall (vs : list A) f, (forall v, kk (f v)) -> kk (forM vs f).
  Proof. induction vs as [|v vs IH]; intros f H; cbn [forM]; [apply kk_ret|]. apply kk_bind; auto. Qed.
  Lemma kk_modify : forall f, (forall s, sib s -> sib (f s)) -> kk (modify f).
  Proof. intros f H s. apply H. Qed.

  Lemma si_same : forall s s', s_levels s' = s_levels s -> sib s -> sib s'.
  Proof. intros s s' E S a l V K. unfold sib, one_g, lv in *. rewrite E in *. exact (S a l V K). Qed.
  Lemma one_g_keep : forall s s' d, (forall b l, lv s b = Some l -> exists l', lv s' b = Some l' /\ l_gF l' = l_gF l) -> one_g s d -> one_g s' d.
  Proof. intros s s' d H [g G]. exists g. intros k b I. destruct (G k b I) as [lb [V E]]. destruct (H b lb V) as [l' [V' E']]. exists l'. split; auto. congruence. Qed.
  Lemma si_upd_lv : forall a f s, (forall l, l_kind (f l) = l_kind l /\ l_term (f l) = l_term l /\ l_subs (f l) = l_subs l /\ l_gF (f l) = l_gF l) -> sib s -> sib (upd_lv a f s).
  Proof.
    intros a f s H S b l' V' K'. rewrite lv_upd in V'.
    assert (G : forall b l, lv s b = Some l -> exists l', lv (upd_lv a f s) b = Some l' /\ l_gF l' = l_gF l).
    { intros c l V. rewrite lv_upd, V. destruct (Nat.eqb a c); eexists; split; try reflexivity. apply H. }
    destruct (lv s b) as [l|] eqn:V; [|destruct (Nat.eqb a b); discriminate].
    assert (Q : l_kind l' = l_kind l /\ l_F l' = l_F l /\ l_subs l' = l_subs l).
    { destruct (Nat.eqb a b); injection V' as <-; [|auto]. destruct (H l) as [Q1 [Q2 [Q3 _]]]. repeat split; auto. now apply (term_J N l (f l)). }
    destruct Q as [Q1 [Q2 Q3]]. rewrite Q2, Q3. destruct (S b l V) as [S1 S2]; [congruence|]. split; auto. eapply one_g_keep; eauto.
  Qed.
  Lemma si_graph : forall k g s, sib s -> sib (set_graph k g s).
  Proof. intros [] g s S; (eapply si_same; [|exact S]); reflexivity. Qed.
  Lemma si_new_l : forall s new, (forall l, In l new -> l_subs l = []) -> sib s -> sib (set_levels (s_levels s ++ new) s).
  Proof.
    intros s new H S a l V K. destruct (lv s a) as [l0|] eqn:V0.
    - pose proof (old_l N s new a l0 V0) as Q. assert (l0 = l) by congruence. subst l0. destruct (S a l V0 K) as [S1 S2]. split; auto.
      apply (one_g_keep s); [|exact S2]. intros b lb Vb. exists lb. split; auto. now apply old_l.
    - assert (I : In l new). { unfold lv in V0, V. cbn in V. rewrite nth_error_app2 in V by (now apply nth_error_None). eapply nth_error_In; eauto. }
      rewrite (H l I). split; [intros k b D; discriminate D|]. exists (nofQ N 0). intros k b D; discriminate D.
  Qed.

  Ltac leaf := first
    [ now apply si_graph
    | apply si_upd_lv; [intros; repeat split|assumption]
    | eapply si_same; [reflexivity|assumption] ].
  Ltac kks := repeat first
    [ solve [auto 2] | apply kk_ret | apply kk_raise | apply kk_asks | apply kk_gets
    | apply kk_modify; intros; leaf
    | assumption
    | apply kk_bind; [|intros]
    | apply kk_forM; intros
    | match goal with |- kk (if ?b then _ else _) => destruct b | |- kk (match ?d with _ => _ end) => destruct d end
    ].

  Lemma dget_enter : forall (kis : list (string * nat)) (d : dict string nat) k b,
    dget k (fold_left (fun d ki => dset (fst ki) (snd ki) d) kis d) = Some b -> In (k, b) kis \/ (dget k d = Some b /\ ~ In k (map fst kis)).
  Proof.
    induction kis as [|[k0 v0] kis IH]; intros d k b D; cbn [fold_left fst snd map] in *; [right; split; auto|].
    destruct (IH _ _ _ D) as [H|[H Hn]]; [left; now right|]. rewrite dget_dset in H. destruct (keqb_spec k k0) as [->|Hk].
    - injection H as ->. left. now left.
    - right. split; auto. intros [E|E]; auto.
  Qed.
  Lemma si_install : forall s a l f (g : num N) (mk : Z -> level), lv s a = Some l -> l_kind l = LHF -> l_F l = Some f ->
    (forall m, l_subs (mk m) = [] /\ l_gF (mk m) = g) -> sib s -> sib (install a (map mF_key (mF_range f)) (map mk (mF_range f)) s).
  Proof.
    intros s a l f g mk V K F H S. set (new := map mk (mF_range f)).
    assert (S1 : sib (set_levels (s_levels s ++ new) s)).
    { apply si_new_l; auto. intros l' I. apply in_map_iff in I as [m [<- _]]. apply H. }
    pose proof (old_l N s new a l V) as V1. unfold install. set (s1 := set_levels (s_levels s ++ new) s) in *.
    intros b l' V' K'. rewrite lv_upd in V'.
    assert (G : forall b l, lv s1 b = Some l -> exists l', lv (upd_lv a (fun l => lv_set_subs (fold_left (fun d ki => dset (fst ki) (snd ki) d) (combine (map mF_key (mF_range f)) (seq (List.length (s_levels s)) (List.length new))) (l_subs l)) l) s1) b = Some l' /\ l_gF l' = l_gF l).
    { intros c lc Vc. rewrite lv_upd, Vc. destruct (Nat.eqb a c); eexists; split; reflexivity. }
    destruct (Nat.eqb_spec a b) as [<-|Hb].
    - rewrite V1 in V'. cbn [option_map] in V'. injection V' as <-. cbn [l_subs lv_set_subs]. change (l_F (lv_set_subs _ l)) with (l_F l).
      assert (Old : forall k b, dget k (l_subs l) = Some b -> In k (map mF_key (mF_range f))).
      { intros k b D. destruct (S a l V K) as [Q _]. destruct (Q k b D) as [f' [Ff I]]. assert (f' = f) by congruence. now subst f'. }
      assert (Len : List.length (map mF_key (mF_range f)) = List.length (seq (List.length (s_levels s)) (List.length new))).
      { unfold new. now rewrite seq_length, !map_length. }
      assert (Fst : map fst (combine (map mF_key (mF_range f)) (seq (List.length (s_levels s)) (List.length new))) = map mF_key (mF_range f)).
      { revert Len. generalize (map mF_key (mF_range f)) (seq (List.length (s_levels s)) (List.length new)). intros ks ns. revert ns. induction ks as [|k ks IH]; intros [|n ns] E; try discriminate; auto. cbn. f_equal. apply IH. now injection E. }
      assert (New : forall k b, dget k (fold_left (fun d ki => dset (fst ki) (snd ki) d) (combine (map mF_key (mF_range f)) (seq (List.length (s_levels s)) (List.length new))) (l_subs l)) = Some b ->
        In k (map mF_key (mF_range f)) /\ exists lb, lv s1 b = Some lb /\ l_gF lb = g).
      { intros k b D. apply dget_enter in D as [I|[D Hn]]; [|exfalso; apply Hn; rewrite Fst; eauto].
        split; [rewrite <- Fst; change k with (fst (k, b)); now apply in_map|]. apply in_combine_r in I. apply in_seq in I.
        destruct (lv s1 b) as [lb|] eqn:Vb.
        - exists lb. split; auto. unfold lv, s1 in Vb. cbn in Vb. rewrite nth_error_app2 in Vb by lia. apply nth_error_In in Vb. apply in_map_iff in Vb as [m [<- _]]. apply H.
        - exfalso. unfold lv, s1 in Vb. cbn in Vb. apply nth_error_None in Vb. rewrite app_length in Vb. lia. }
      split.
      + intros k b D. exists f. split; auto. eapply New; eauto.
      + apply (one_g_keep s1); auto. exists g. intros k b D. apply New in D. apply D.
    - destruct (S1 b l' V' K') as [Q1 Q2]. split; auto. apply (one_g_keep s1); auto.
  Qed.
  (** Sublevels of other kinds have no bearing on it. *)
  Lemma si_install_LE : forall s a l keys new, lv s a = Some l -> l_kind l = LE -> (forall l', In l' new -> l_subs l' = []) -> sib s -> sib (install a keys new s).
  Proof.
    intros s a l keys new V K H S. pose proof (si_new_l s new H S) as S1. pose proof (old_l N s new a l V) as V1. unfold install.
    set (s1 := set_levels (s_levels s ++ new) s) in *. intros b l' V' K'. rewrite lv_upd in V'. destruct (Nat.eqb_spec a b) as [<-|Hb].
    - rewrite V1 in V'. injection V' as <-. change (l_kind l = LHF) in K'. congruence.
    - destruct (S1 b l' V' K') as [Q1 Q2]. split; auto. eapply one_g_keep; [|exact Q2]. intros c lc Vc. rewrite lv_upd, Vc. destruct (Nat.eqb a c); eexists; split; reflexivity.
  Qed.
  Lemma kk_populate : forall a, kk (populate_sublevels N a).
  Proof.
    intros a s S. unfold populate_sublevels, get_lv. unfold bind at 1, asks at 1. destruct (lv s a) as [l|] eqn:V; [|exact S]. destruct (l_kind l) eqn:K.
    - destruct (l_attached l); [|exact S]. unfold bind, asks. destruct (l_J l) as [j|] eqn:J; [|exact S]. cbn [modify snd].
      eapply si_install_LE; eauto. intros l' I. apply in_map_iff in I as [f [<- _]]. reflexivity.
    - unfold bind, asks. destruct (l_parent l) as [p|] eqn:P; [|exact S]. destruct (lv s p) as [lm|] eqn:Vp; [|exact S].
      destruct (l_J l) as [j|] eqn:J; [|exact S]. destruct (l_F l) as [f|] eqn:F; [|exact S]. cbn [modify snd].
      apply (si_install s a l f (compute_gF N (s_I s) j f (l_lande lm))); auto; try (intros; split; reflexivity).
    - exact S.
  Qed.
  Hint Resolve kk_populate : core.

  Lemma kk_new_level : forall ts E A B C g alias b, kk (new_level N ts E A B C g alias b).
  Proof.
    intros. unfold new_level. destruct ts; [apply kk_raise|]. destruct (forallb _ _); [|apply kk_raise].
    apply kk_bind; [apply kk_gets|intros]. apply kk_bind; [|intros; apply kk_ret]. apply kk_modify. intros s.
    apply si_new_l. intros l [<-|[]]. reflexivity.
  Qed.
  Hint Resolve kk_new_level : core.
  Lemma kk_add_node : forall a, kk (add_node N a).
  Proof. intros. unfold add_node, get_lv. kks. Qed.
  Hint Resolve kk_add_node : core.
  Lemma kk_lazy : forall a, kk (lazy_sublevels N a).
  Proof. intros. unfold lazy_sublevels, get_lv. kks. Qed.
  Hint Resolve kk_lazy : core.
  Lemma kk_sublevels : forall a, kk (sublevels N a).
  Proof. intros. unfold sublevels, get_lv. kks. Qed.
  Hint Resolve kk_sublevels : core.
  Lemma kk_lv_getitem : forall fuel a key, kk (lv_getitem N fuel a key).
  Proof. induction fuel; intros; cbn [lv_getitem]; unfold get_lv; kks. Qed.
  Hint Resolve kk_lv_getitem : core.
  Lemma kk_getitem : forall a key, kk (getitem N a key).
  Proof. intros. unfold getitem. auto. Qed.
  Hint Resolve kk_getitem : core.
  Lemma kk_set_alias : forall a al, kk (set_alias N a al).
  Proof. intros. unfold set_alias, get_lv. kks. Qed.
  Hint Resolve kk_set_alias : core.
  Lemma kk_lv_add : forall fuel a, kk (lv_add_to_atom N fuel a).
  Proof. induction fuel; intros; cbn [lv_add_to_atom]; unfold get_lv; kks. Qed.
  Hint Resolve kk_lv_add : core.
  Lemma kk_add_level : forall a p alias, kk (add_level N a p alias).
  Proof. intros. unfold add_level, get_lv. kks. Qed.
  Lemma kk_del_level : forall key, kk (del_level N key).
  Proof. intros key s S. unfold del_level. destruct (g_remove_node _ _); cbn [snd]; auto. Qed.
  Lemma kk_node : forall key, kk (node N key).
  Proof. intros. unfold node. kks. Qed.
  Hint Resolve kk_add_level kk_del_level kk_node : core.
  Lemma kk_levels_get : forall key, kk (levels_get N key).
  Proof. intros. unfold levels_get, get_lv. kks. Qed.
  Lemma kk_levels_get_int : forall i, kk (levels_get_int N muB i).
  Proof. intros. unfold levels_get_int. kks. Qed.
  Hint Resolve kk_levels_get kk_levels_get_int : core.
  Lemma kk_set_energyE : forall a v, kk (set_energyE N a v).
  Proof. intros. unfold set_energyE. kks. Qed.
  Hint Resolve kk_set_energyE : core.
  Lemma kk_set_energyHF : forall a v, kk (set_energyHF N a v).
  Proof. intros. unfold set_energyHF, get_lv. kks. Qed.
  Hint Resolve kk_set_energyHF : core.
  Lemma kk_set_energyZ : forall a v, kk (set_energyZ N muB a v).
  Proof. intros. unfold set_energyZ, get_lv. kks. Qed.
  Hint Resolve kk_set_energyZ : core.
  Lemma kk_set_energy : forall a v, kk (set_energy N muB a v).
  Proof. intros. unfold set_energy, get_lv. kks. Qed.
  Hint Resolve kk_set_energy : core.

  (** ** Transitions *)

  Lemma kk_add_edge : forall t, kk (add_edge N t).
  Proof. intros. unfold add_edge, get_tr. kks. Qed.
  Hint Resolve kk_add_edge : core.

  Lemma kk_new_trans : forall k p e1 e2 f A rel al alias, kk (new_trans N muB k p e1 e2 f A rel al alias).
  Proof. intros. unfold new_trans, get_lv. kks. Qed.
  Hint Resolve kk_new_trans : core.

  Lemma kk_new_transition : forall e1 e2 f A alias, kk (new_transition N muB e1 e2 f A alias).
  Proof.
    intros. unfold new_transition, get_lv. apply kk_bind; [apply kk_asks|intros l1]. apply kk_bind; [apply kk_asks|intros l2].
    destruct (l_kind l1); try apply kk_raise. destruct (l_kind l2); try apply kk_raise.
    kks.
  Qed.
  Hint Resolve kk_new_transition : core.

  Lemma kk_new_HF : forall t a b, kk (new_HF N muB t a b).
  Proof. intros. unfold new_HF, get_tr, get_lv. kks. Qed.
  Lemma kk_new_Z : forall t a b, kk (new_Z N muB t a b).
  Proof. intros. unfold new_Z, get_tr, get_lv. kks. Qed.
  Hint Resolve kk_new_HF kk_new_Z : core.
  Lemma kk_new_sub : forall t ab, kk (new_sub N muB t ab).
  Proof. intros. unfold new_sub, get_tr, get_lv. kks. Qed.
  Hint Resolve kk_new_sub : core.
  Lemma kk_populate_sub : forall t, kk (populate_subtransitions N muB t).
  Proof. intros. unfold populate_subtransitions, get_tr. kks. Qed.
  Hint Resolve kk_populate_sub : core.
  Lemma kk_tr_add : forall t, kk (tr_add_to_atom N t).
  Proof. intros. unfold tr_add_to_atom, get_tr. kks. Qed.
  Hint Resolve kk_tr_add : core.
  Lemma kk_tr_join : forall b t, kk (tr_join N b t).
  Proof. intros. unfold tr_join. kks. Qed.
  Hint Resolve kk_tr_join : core.
  Lemma kk_lazy_sub : forall t, kk (lazy_subtransitions N muB t).
  Proof. intros. unfold lazy_subtransitions, get_tr. kks. Qed.
  Hint Resolve kk_lazy_sub : core.
  Lemma kk_subtransitions : forall t, kk (subtransitions N muB t).
  Proof. intros. unfold subtransitions, get_tr. kks. Qed.
  Lemma kk_tr_getitem : forall t k, kk (tr_getitem N muB t k).
  Proof. intros. unfold tr_getitem, get_tr. kks. Qed.
  Lemma kk_tr_alias : forall t al, kk (tr_alias N t al).
  Proof. intros. unfold tr_alias, get_tr. kks. Qed.
  Hint Resolve kk_subtransitions kk_tr_getitem kk_tr_alias : core.

  Lemma kk_enforce_edge : forall uv, kk (enforce_edge N uv).
  Proof. intros. unfold enforce_edge, get_tr, get_lv. kks. Qed.
  Hint Resolve kk_enforce_edge : core.
  Lemma kk_enforce_comp : forall o fuel c, kk (enforce_comp N muB o fuel c).
  Proof. intros. unfold enforce_comp. kks. Qed.
  Hint Resolve kk_enforce_comp : core.
  Lemma kk_enforce : forall from, kk (enforce N muB orc from).
  Proof. intros. unfold enforce. kks. Qed.
  Hint Resolve kk_enforce : core.
  Lemma kk_set_freqT : forall t f, kk (set_freqT N muB orc t f).
  Proof. intros. unfold set_freqT, get_tr, get_lv. kks. Qed.
  Hint Resolve kk_set_freqT : core.
  Lemma kk_set_freqHF : forall t f, kk (set_freqHF N muB orc t f).
  Proof. intros. unfold set_freqHF, get_tr. kks. Qed.
  Hint Resolve kk_set_freqHF : core.
  Lemma kk_set_freqZ : forall t f, kk (set_freqZ N muB orc t f).
  Proof. intros. unfold set_freqZ, get_tr. kks. Qed.
  Hint Resolve kk_set_freqZ : core.
  Lemma kk_set_frequency : forall t f, kk (set_frequency N muB orc t f).
  Proof. intros. unfold set_frequency, get_tr. kks. Qed.
  Hint Resolve kk_set_frequency : core.

  Lemma kk_levels_get_key : forall k, kk (levels_get_key N muB k).
  Proof. intros []; cbn [levels_get_key]; auto. Qed.
  Hint Resolve kk_levels_get_key : core.
  Lemma kk_edge_at : forall k k', kk (edge_at N k k').
  Proof. intros. unfold edge_at. kks. Qed.
  Hint Resolve kk_edge_at : core.
  Lemma kk_transitions_get : forall k, kk (transitions_get N muB k).
  Proof. intros. unfold transitions_get, get_lv. kks. Qed.
  Hint Resolve kk_transitions_get : core.
  Lemma kk_transitions_get_str : forall k, kk (transitions_get_str N muB k).
  Proof. intros. unfold transitions_get_str. kks. Qed.
  Hint Resolve kk_transitions_get_str : core.
  Lemma kk_add_transition : forall sp f A alias, kk (add_transition N muB orc sp f A alias).
  Proof. intros. unfold add_transition, get_tr. kks. Qed.
  Lemma kk_linked : forall fuel key, kk (linked_levels N muB fuel key).
  Proof. induction fuel; intros; cbn [linked_levels]; unfold get_lv; kks. Qed.
  Hint Resolve kk_add_transition kk_linked : core.
  Lemma kk_total_rate : forall key, kk (total_rate N muB key).
  Proof. intros. unfold total_rate. kks. Qed.
  Lemma kk_branching : forall key, kk (branching N muB key).
  Proof. intros. unfold branching. kks. Qed.
  Lemma kk_populate_transitions : forall al, kk (populate_transitions N muB al).
  Proof. intros. unfold populate_transitions, populate_pair. kks. Qed.
  Lemma kk_populate_internal : kk (populate_internal N muB).
  Proof. unfold populate_internal. kks. Qed.
  Hint Resolve kk_total_rate kk_branching kk_populate_transitions kk_populate_internal : core.

  Lemma sib_step : forall s o, sib s -> sib (step N muB orc s o).
  Proof. intros s o. assert (K : kk (run_op N muB orc o)); [|apply K]. destruct o; cbn [run_op]; unfold void; kks. Qed.
  Lemma sib_run : forall os s, sib s -> sib (run N muB orc s os).
  Proof. induction os as [|o os IH]; intros s S; auto. apply IH. now apply sib_step. Qed.
  Lemma sib_init : forall i B, sib (init N i B).
  Proof. intros i B a l V. destruct a; discriminate. Qed.
  Lemma reachable_sib : forall s, reachable N muB orc s -> sib s.
  Proof. intros s [i [B [os [_ ->]]]]. apply sib_run, sib_init. Qed.
  (** The sublevels of a hyperfine level have one g-factor. *)
  Lemma sib_g : forall s a l, sib s -> WF s -> lv s a = Some l -> l_kind l = LHF -> exists g, forall b lb, In b (dvals (l_subs l)) -> lv s b = Some lb -> l_gF lb = g.
  Proof.
    intros s a l S W V K. destruct (S a l V K) as [_ [g G]]. exists g. intros b lb I Vb.
    assert (Hn : l_subs l <> []) by (intros E; rewrite E in I; destruct I).
    apply in_map_iff in I as [[k b'] [E I]]. cbn in E. subst b'.
    apply (In_dget_nodup k b) in I; [|apply (full_nodup N s a l), full_nonempty; auto]. destruct (G k b I) as [lb' [Vb' Eg]]. congruence.
  Qed.
End Sib.
