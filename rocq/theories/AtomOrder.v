(** Transitions point downhill as long as no level is moved (C54).  No
    invariant is used here: the relation below holds for every state in which
    no transition has a set frequency. *)
From Coq Require Import List Bool ZArith QArith Qcanon Lia String Ascii Permutation.
From Verif Require Import Base PyStr Util Parse Term Num Wigner Hyperfine Graph Rules Atom AtomInv AtomSafe AtomSafe2 AtomSafe3 AtomSafe4 AtomSafe5 AtomSafe6 AtomEnergy.
Import ListNotations.

Section Order.
  Notation N := Exact.
  Context (muB : Qc) (orc : nat -> oracle).
  Notation st := (st N).
  Notation level := (level N).
  Notation trans := (trans N).
  Notation M := (M N).
  Implicit Types (s : st) (l : level) (x y : trans) (a : nat) (t : nat).

  (** A Transition's upper level is not below its lower one. *)
  Definition downhill_x s x : Prop := x_kind x = TT -> exists lo up, lv s (x_lo x) = Some lo /\ lv s (x_up x) = Some up /\
    l_kind lo = LE /\ l_kind up = LE /\ (l_E lo <= l_E up)%Qc.
  Definition no_set s : Prop := forall t x, tr s t = Some x -> x_set x = None.

  Definition same_l l l' : Prop := l_kind l' = l_kind l /\ l_E l' = l_E l.
  Definition same_x x x' : Prop := x_kind x' = x_kind x /\ x_up x' = x_up x /\ x_lo x' = x_lo x /\ x_set x' = x_set x.

  (** Old levels stay where they are; new transitions point downhill. *)
  Record grows s s' : Prop := mk_grows {
    gr_l : forall a l, lv s a = Some l -> exists l', lv s' a = Some l' /\ same_l l l';
    gr_x : forall t x, tr s t = Some x -> exists x', tr s' t = Some x' /\ same_x x x';
    gr_nx : forall t x, tr s t = None -> tr s' t = Some x -> downhill_x s' x /\ x_set x = None
  }.

  Lemma same_l_refl : forall l, same_l l l.
  Proof. repeat split. Qed.
  Lemma same_x_refl : forall x, same_x x x.
  Proof. repeat split. Qed.

  Lemma downhill_mono : forall s s' x x', (forall a l, lv s a = Some l -> exists l', lv s' a = Some l' /\ same_l l l') ->
    same_x x x' -> downhill_x s x -> downhill_x s' x'.
  Proof.
    intros s s' x x' G [S1 [S2 [S3 _]]] F K. rewrite S1 in K. destruct (F K) as [lo [up [V1 [V2 [K1 [K2 H]]]]]].
    destruct (G _ _ V1) as [lo' [V1' [A1 A2]]]. destruct (G _ _ V2) as [up' [V2' [B1 B2]]].
    exists lo', up'. rewrite S2, S3, A1, A2, B1, B2. auto 8.
  Qed.

  Lemma grows_refl : forall s, grows s s.
  Proof.
    intros s. constructor; try congruence.
    - intros a l V. exists l. split; auto. apply same_l_refl.
    - intros t x V. exists x. split; auto. apply same_x_refl.
  Qed.
  Lemma grows_trans : forall s s' s'', grows s s' -> grows s' s'' -> grows s s''.
  Proof.
    intros s s' s'' [L1 X1 NX1] [L2 X2 NX2]. constructor.
    - intros a l V. destruct (L1 _ _ V) as [l' [V' S']]. destruct (L2 _ _ V') as [l2 [V2 S2]]. exists l2. split; auto. unfold same_l in *. intuition congruence.
    - intros t x V. destruct (X1 _ _ V) as [x' [V' S']]. destruct (X2 _ _ V') as [x2 [V2 S2]]. exists x2. split; auto. unfold same_x in *. intuition congruence.
    - intros t x V V2. destruct (tr s' t) as [x'|] eqn:V'; [|eauto]. destruct (NX1 _ _ V V') as [D E]. destruct (X2 _ _ V') as [x2 [V2' S2]].
      assert (x2 = x) by congruence. subst x2. split; [|destruct S2 as [_ [_ [_ ->]]]; auto]. eapply downhill_mono; eauto.
  Qed.
  Lemma grows_no_set : forall s s', grows s s' -> no_set s -> no_set s'.
  Proof.
    intros s s' G H t x V. destruct (tr s t) as [y|] eqn:V0.
    - destruct (gr_x _ _ G _ _ V0) as [x' [V' [_ [_ [_ E]]]]]. assert (x' = x) by congruence. subst x'. rewrite E. eauto.
    - eapply gr_nx; eauto.
  Qed.

  (** ** Rules *)

  Definition kg {A} (m : M A) : Prop := forall s, no_set s -> grows s (snd (m s)).
  Lemma kg_bind {A B} : forall (m : M A) (k : A -> M B), kg m -> (forall v, kg (k v)) -> kg (bind m k).
  Proof.
    intros m k H K s Z. unfold bind. specialize (H s Z). destruct (m s) as [[v|e] s']; cbn [snd] in *; auto. eapply grows_trans; [exact H|apply K].
    eapply grows_no_set; eauto.
  Qed.
  Lemma kg_pure {A} : forall (m : M A), (forall s, snd (m s) = s) -> kg m.
  Proof. intros m H s _. rewrite H. apply grows_refl. Qed.
  Lemma kg_ret {A} : forall v : A, kg (ret v).
  Proof. intros v. now apply kg_pure. Qed.
  Lemma kg_raise {A} : forall e, kg (@raise N A e).
  Proof. intros e. now apply kg_pure. Qed.
  Lemma kg_asks {A} : forall e (f : st -> option A), kg (asks e f).
  Proof. intros e f. apply kg_pure. intros s. unfold asks. now destruct (f s). Qed.
  Lemma kg_gets {A} : forall (f : st -> A), kg (gets f).
  Proof. intros f. now apply kg_pure. Qed.
  Lemma kg_forM {A} : forall (vs : list A) f, (forall v, kg (f v)) -> kg (forM vs f).
  Proof. induction vs as [|v vs IH]; intros f H; cbn [forM]; [apply kg_ret|]. apply kg_bind; auto. Qed.
  Lemma kg_modify : forall f, (forall s, grows s (f s)) -> kg (modify f).
  Proof. intros f H s _. apply H. Qed.
  (** The continuation may rely on the state it was chosen in. *)
  Lemma kg_read {A B} : forall e (f : st -> option A) (k : A -> M B),
    (forall s v, no_set s -> f s = Some v -> grows s (snd (k v s))) -> kg (bind (asks e f) k).
  Proof. intros e f k H s Z. unfold bind, asks. destruct (f s) as [v|] eqn:E; [now apply H|apply grows_refl]. Qed.

  Lemma lv_upd : forall a f s b, lv (upd_lv a f s) b = if Nat.eqb a b then option_map f (lv s b) else lv s b.
  Proof. intros. unfold upd_lv, lv. cbn. apply nth_error_upd. Qed.
  Lemma tr_upd : forall a f s b, tr (upd_tr a f s) b = if Nat.eqb a b then option_map f (tr s b) else tr s b.
  Proof. intros. unfold upd_tr, tr. cbn. apply nth_error_upd. Qed.

  Lemma gr_same : forall s s', s_levels s' = s_levels s -> s_trans s' = s_trans s -> grows s s'.
  Proof.
    intros s s' E2 E3. constructor; auto; unfold lv, tr; rewrite ?E2, ?E3; try congruence.
    - intros a l V. exists l. split; auto. apply same_l_refl.
    - intros t x V. exists x. split; auto. apply same_x_refl.
  Qed.
  Lemma gr_upd_lv : forall a f s, (forall l, same_l l (f l)) -> grows s (upd_lv a f s).
  Proof.
    intros a f s H. constructor; auto.
    - intros b l V. rewrite lv_upd, V. destruct (Nat.eqb a b); [exists (f l); split; [reflexivity|apply H]|exists l; split; [reflexivity|apply same_l_refl]].
    - intros t x V. exists x. split; auto. apply same_x_refl.
    - intros t x V V'. change (tr s t = Some x) in V'. congruence.
  Qed.
  Lemma gr_upd_tr : forall a f s, (forall x, same_x x (f x)) -> grows s (upd_tr a f s).
  Proof.
    intros a f s H. constructor; auto.
    - intros b l V. exists l. split; auto. apply same_l_refl.
    - intros b x V. rewrite tr_upd, V. destruct (Nat.eqb a b); [exists (f x); split; [reflexivity|apply H]|exists x; split; [reflexivity|apply same_x_refl]].
    - intros b x V. rewrite tr_upd, V. destruct (Nat.eqb a b); discriminate.
  Qed.
  Lemma gr_graph : forall k g s, grows s (set_graph k g s).
  Proof. intros [] g s; apply gr_same; reflexivity. Qed.

  Lemma gr_new_l : forall s new, grows s (set_levels (s_levels s ++ new) s).
  Proof.
    intros s new. constructor; auto.
    - intros a l V. exists l. split; [|apply same_l_refl]. unfold lv in *. cbn. rewrite nth_error_app1; auto. apply nth_error_Some. congruence.
    - intros t x V. exists x. split; auto. apply same_x_refl.
    - intros t x V V'. change (tr s t = Some x) in V'. congruence.
  Qed.
  Lemma gr_new_x : forall s x, downhill_x s x -> x_set x = None -> grows s (set_trans (s_trans s ++ [x]) s).
  Proof.
    intros s x H Z. constructor; auto.
    - intros a l V. exists l. split; auto. apply same_l_refl.
    - intros t y V. exists y. split; [|apply same_x_refl]. unfold tr in *. cbn. rewrite nth_error_app1; auto. apply nth_error_Some. congruence.
    - intros t y V V'. unfold tr in V, V'. cbn in V'. rewrite nth_error_app2 in V' by (now apply nth_error_None).
      destruct (t - List.length (s_trans s))%nat as [|[|?]]; try discriminate. injection V' as <-. auto.
  Qed.

  Ltac leaf := first
    [ apply gr_graph
    | apply gr_upd_lv; intros; repeat split
    | apply gr_upd_tr; intros; repeat split
    | apply gr_same; reflexivity ].
  Ltac kgs := repeat first
    [ solve [auto 2] | apply kg_ret | apply kg_raise | apply kg_asks | apply kg_gets
    | apply kg_modify; intros; leaf
    | assumption
    | apply kg_bind; [|intros]
    | apply kg_forM; intros
    | match goal with |- kg (if ?b then _ else _) => destruct b | |- kg (match ?d with _ => _ end) => destruct d end
    ].

  (** ** Levels *)

  Lemma gr_install : forall s a keys new, grows s (install a keys new s).
  Proof. intros s a keys new. unfold install. apply (grows_trans _ (set_levels (s_levels s ++ new) s)); [apply gr_new_l|]. apply gr_upd_lv. intros; repeat split. Qed.

  Lemma kg_populate : forall a, kg (populate_sublevels N a).
  Proof.
    intros a. unfold populate_sublevels, get_lv.
    assert (H : forall f, (forall s, exists keys new, f s = install a keys new s) -> kg (modify f)).
    { intros f H. apply kg_modify. intros s. destruct (H s) as [keys [new ->]]. apply gr_install. }
    kgs; apply H; intros; eauto.
  Qed.
  Hint Resolve kg_populate : core.

  Lemma kg_new_level : forall ts E A B C g alias b, kg (new_level N ts E A B C g alias b).
  Proof.
    intros. unfold new_level. destruct ts; [apply kg_raise|]. destruct (forallb _ _); [|apply kg_raise].
    apply kg_bind; [apply kg_gets|intros]. apply kg_bind; [|intros; apply kg_ret]. apply kg_modify. intros s.
    apply gr_new_l.
  Qed.
  Hint Resolve kg_new_level : core.
  Lemma kg_add_node : forall a, kg (add_node N a).
  Proof. intros. unfold add_node, get_lv. kgs. Qed.
  Hint Resolve kg_add_node : core.
  Lemma kg_lazy : forall a, kg (lazy_sublevels N a).
  Proof. intros. unfold lazy_sublevels, get_lv. kgs. Qed.
  Hint Resolve kg_lazy : core.
  Lemma kg_sublevels : forall a, kg (sublevels N a).
  Proof. intros. unfold sublevels, get_lv. kgs. Qed.
  Hint Resolve kg_sublevels : core.
  Lemma kg_lv_getitem : forall fuel a key, kg (lv_getitem N fuel a key).
  Proof. induction fuel; intros; cbn [lv_getitem]; unfold get_lv; kgs. Qed.
  Hint Resolve kg_lv_getitem : core.
  Lemma kg_getitem : forall a key, kg (getitem N a key).
  Proof. intros. unfold getitem. auto. Qed.
  Hint Resolve kg_getitem : core.
  Lemma kg_set_alias : forall a al, kg (set_alias N a al).
  Proof. intros. unfold set_alias, get_lv. kgs. Qed.
  Hint Resolve kg_set_alias : core.
  Lemma kg_lv_add : forall fuel a, kg (lv_add_to_atom N fuel a).
  Proof. induction fuel; intros; cbn [lv_add_to_atom]; unfold get_lv; kgs. Qed.
  Hint Resolve kg_lv_add : core.
  Lemma kg_add_level : forall a p alias, kg (add_level N a p alias).
  Proof. intros. unfold add_level, get_lv. kgs. Qed.
  Lemma kg_del_level : forall key, kg (del_level N key).
  Proof. intros key s _. unfold del_level. destruct (g_remove_node _ _); cbn [snd]; [apply gr_same; reflexivity|apply grows_refl]. Qed.
  Lemma kg_node : forall key, kg (node N key).
  Proof. intros. unfold node. kgs. Qed.
  Hint Resolve kg_add_level kg_del_level kg_node : core.
  Lemma kg_levels_get : forall key, kg (levels_get N key).
  Proof. intros. unfold levels_get, get_lv. kgs. Qed.
  Lemma kg_levels_get_int : forall i, kg (levels_get_int N muB i).
  Proof. intros. unfold levels_get_int. kgs. Qed.
  Hint Resolve kg_levels_get kg_levels_get_int : core.
  (** ** Transitions *)

  Lemma kg_add_edge : forall t, kg (add_edge N t).
  Proof. intros. unfold add_edge, get_tr. kgs. Qed.
  Hint Resolve kg_add_edge : core.

  Lemma energy_LE : forall s a l v, lv s a = Some l -> l_kind l = LE -> energy N muB s a = Some v -> v = l_E l.
  Proof. intros s a l v V K E. unfold energy, energyE in E. rewrite V, K in E. now injection E as <-. Qed.

  Lemma gr_new_trans : forall k p e1 e2 A rel al alias s, no_set s ->
    (k = TT -> exists l1 l2, lv s e1 = Some l1 /\ lv s e2 = Some l2 /\ l_kind l1 = LE /\ l_kind l2 = LE) ->
    grows s (snd (new_trans N muB k p e1 e2 None A rel al alias s)).
  Proof.
    intros k p e1 e2 A rel al alias s Z H. unfold new_trans, get_lv.
    unfold bind at 1, asks at 1. destruct (lv s e1) as [l1|] eqn:V1; [|apply grows_refl].
    unfold bind at 1, asks at 1. destruct (energy N muB s e1) as [v1|] eqn:E1; [|apply grows_refl].
    unfold bind at 1, asks at 1. destruct (energy N muB s e2) as [v2|] eqn:E2; [|apply grows_refl].
    unfold bind at 1, gets at 1. unfold bind at 1, modify at 1.
    match goal with |- grows s (snd (?m ?s1)) => set (k1 := m); set (s1' := s1) end.
    assert (G : grows s s1').
    { unfold s1'. apply gr_new_x; [|reflexivity]. intros K. cbn [x_kind] in K. destruct (H K) as [a1 [a2 [W1 [W2 [K1 K2]]]]].
      assert (a1 = l1) by congruence. subst a1. pose proof (energy_LE _ _ _ _ V1 K1 E1) as Ev1. pose proof (energy_LE _ _ _ _ W2 K2 E2) as Ev2.
      cbn [x_lo x_up]. change (nltb N v1 v2) with (Qc_ltb v1 v2). destruct (Qc_ltb v1 v2) eqn:C.
      - exists l1, a2. repeat (split; [assumption|]). apply Qc_ltb_lt in C. rewrite <- Ev1, <- Ev2. now apply Qclt_le_weak.
      - exists a2, l1. repeat (split; [assumption|]). apply Qc_ltb_ge in C. now rewrite <- Ev1, <- Ev2. }
    apply grows_trans with s1'; auto. assert (K : kg k1) by (unfold k1; kgs). apply K. eapply grows_no_set; eauto.
  Qed.

  Lemma kg_new_transition : forall e1 e2 A alias, kg (new_transition N muB e1 e2 None A alias).
  Proof.
    intros. unfold new_transition, get_lv. apply kg_read. intros s l1 Z V1. unfold bind at 1, asks at 1. destruct (lv s e2) as [l2|] eqn:V2; [|apply grows_refl].
    destruct (l_kind l1) eqn:K1; try apply grows_refl. destruct (l_kind l2) eqn:K2; try apply grows_refl.
    unfold bind at 1, asks at 1. destruct (l_J l1); [|apply grows_refl]. unfold bind at 1, asks at 1. destruct (l_J l2); [|apply grows_refl].
    apply gr_new_trans; auto. intros _. exists l1, l2. auto.
  Qed.
  Hint Resolve kg_new_transition : core.

  Lemma kg_new_trans : forall k p e1 e2 A rel al alias, k <> TT -> kg (new_trans N muB k p e1 e2 None A rel al alias).
  Proof. intros. intros s Z. apply gr_new_trans; auto. contradiction. Qed.
  Hint Extern 2 (kg (new_trans _ _ _ _ _ _ None _ _ _ _)) => apply kg_new_trans; discriminate : core.
  Lemma kg_new_HF : forall t a b, kg (new_HF N muB t a b).
  Proof.
    intros. unfold new_HF, get_tr, get_lv. kgs.
  Qed.
  Lemma kg_new_Z : forall t a b, kg (new_Z N muB t a b).
  Proof.
    intros. unfold new_Z, get_tr, get_lv. kgs.
  Qed.
  Hint Resolve kg_new_HF kg_new_Z : core.
  Lemma kg_new_sub : forall t ab, kg (new_sub N muB t ab).
  Proof. intros t ab. unfold new_sub, get_tr, get_lv. kgs. Qed.
  Hint Resolve kg_new_sub : core.
  Lemma kg_populate_sub : forall t, kg (populate_subtransitions N muB t).
  Proof. intros. unfold populate_subtransitions, get_tr. kgs. Qed.
  Hint Resolve kg_populate_sub : core.
  Lemma kg_tr_add : forall t, kg (tr_add_to_atom N t).
  Proof. intros. unfold tr_add_to_atom, get_tr. kgs. Qed.
  Hint Resolve kg_tr_add : core.
  Lemma kg_tr_join : forall b t, kg (tr_join N b t).
  Proof. intros. unfold tr_join. kgs. Qed.
  Hint Resolve kg_tr_join : core.
  Lemma kg_lazy_sub : forall t, kg (lazy_subtransitions N muB t).
  Proof. intros. unfold lazy_subtransitions, get_tr. kgs. Qed.
  Hint Resolve kg_lazy_sub : core.
  Lemma kg_subtransitions : forall t, kg (subtransitions N muB t).
  Proof. intros. unfold subtransitions, get_tr. kgs. Qed.
  Lemma kg_tr_getitem : forall t k, kg (tr_getitem N muB t k).
  Proof. intros. unfold tr_getitem, get_tr. kgs. Qed.
  Lemma kg_tr_alias : forall t al, kg (tr_alias N t al).
  Proof. intros. unfold tr_alias, get_tr. kgs. Qed.
  Hint Resolve kg_subtransitions kg_tr_getitem kg_tr_alias : core.

  Lemma kg_levels_get_key : forall k, kg (levels_get_key N muB k).
  Proof. intros []; cbn [levels_get_key]; auto. Qed.
  Hint Resolve kg_levels_get_key : core.
  Lemma kg_edge_at : forall k k', kg (edge_at N k k').
  Proof. intros. unfold edge_at. kgs. Qed.
  Hint Resolve kg_edge_at : core.
  Lemma kg_transitions_get : forall k, kg (transitions_get N muB k).
  Proof. intros. unfold transitions_get, get_lv. kgs. Qed.
  Hint Resolve kg_transitions_get : core.
  Lemma kg_transitions_get_str : forall k, kg (transitions_get_str N muB k).
  Proof. intros. unfold transitions_get_str. kgs. Qed.
  Hint Resolve kg_transitions_get_str : core.
  Lemma kg_add_transition : forall sp A alias, kg (add_transition N muB orc sp None A alias).
  Proof.
    intros. unfold add_transition. apply kg_bind; [kgs|]. intros t. apply kg_bind; [kgs|]. intros _. unfold get_tr. apply kg_read. intros s x Z V.
    rewrite (Z _ _ V). match goal with |- grows s (snd (?m s)) => assert (K : kg m) by kgs end. now apply K.
  Qed.
  Lemma kg_linked : forall fuel key, kg (linked_levels N muB fuel key).
  Proof. induction fuel; intros; cbn [linked_levels]; unfold get_lv; kgs. Qed.
  Hint Resolve kg_add_transition kg_linked : core.
  Lemma kg_total_rate : forall key, kg (total_rate N muB key).
  Proof. intros. unfold total_rate. kgs. Qed.
  Lemma kg_branching : forall key, kg (branching N muB key).
  Proof. intros. unfold branching. kgs. Qed.
  Lemma kg_populate_transitions : forall al, kg (populate_transitions N muB al).
  Proof. intros. unfold populate_transitions, populate_pair. kgs. Qed.
  Lemma kg_populate_internal : kg (populate_internal N muB).
  Proof. unfold populate_internal. kgs. Qed.
  Hint Resolve kg_total_rate kg_branching kg_populate_transitions kg_populate_internal : core.

  (** Operations that move no level and give no frequency. *)
  Definition unmoved (o : op N) : bool :=
    match o with
    | OSetLevel _ _ _ | OSetFreq _ _ _ | OEnforce _ => false
    | ONewTransition _ _ _ f _ _ | OAddTransition _ _ f _ _ => match f with None => true | Some _ => false end
    | _ => true
    end.

  Lemma step_grows : forall s o, no_set s -> unmoved o = true -> grows s (step N muB orc s o).
  Proof.
    intros s o Z H. assert (K : kg (run_op N muB orc o)); [|now apply K].
    destruct o; try discriminate H; cbn [run_op unmoved] in *; unfold void; try (destruct f; [discriminate|]); kgs.
  Qed.

  Lemma run_grows : forall os s, no_set s -> forallb unmoved os = true -> grows s (run N muB orc s os).
  Proof.
    induction os as [|o os IH]; intros s Z H; cbn [run fold_left]; [apply grows_refl|]. cbn [forallb] in H. apply andb_prop in H as [H1 H2].
    pose proof (step_grows s o Z H1) as G. eapply grows_trans; [exact G|]. apply IH; auto. eapply grows_no_set; eauto.
  Qed.

  Lemma run_downhill : forall i B os, forallb unmoved os = true ->
    forall t x, tr (run N muB orc (init N i B) os) t = Some x -> downhill_x (run N muB orc (init N i B) os) x.
  Proof.
    intros i B os H t x V. assert (Z : no_set (init N i B)) by (intros t' x' V'; destruct t'; discriminate).
    eapply (gr_nx _ _ (run_grows os _ Z H)); [|exact V]. destruct t; reflexivity.
  Qed.
End Order.
