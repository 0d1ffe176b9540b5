(** Which operations change derived g-factors and linewidths (C22).  No
    invariant is used here: the relation below holds for every state. *)
From Coq Require Import List Bool ZArith QArith Qcanon Lia String Ascii Permutation.
From Verif Require Import Base PyStr Util Parse Term Num Wigner Hyperfine Graph Rules Atom AtomInv AtomSafe AtomSafe2 AtomSafe3 AtomSafe4 AtomSafe5 AtomSafe6.
Import ListNotations.

Section Fresh.
  Context (N : Num) (muB : N) (orc : nat -> oracle).
  Notation st := (st N).
  Notation level := (level N).
  Notation trans := (trans N).
  Notation M := (M N).
  Implicit Types (s : st) (l : level) (x y : trans) (a : nat) (t : nat).

  (** The g-factor of a sublevel is the one its manifold's g-value gives. *)
  Definition fresh_l s l : Prop :=
    match l_kind l with
    | LE => True
    | LHF => exists a la j f, l_parent l = Some a /\ lv s a = Some la /\ l_kind la = LE /\ l_J la = Some j /\
        l_term l = mt_copy (Some f) None (l_term la) /\ l_gF l = compute_gF N (s_I s) j f (l_lande la)
    | LZ => exists b lb a la j f, l_parent l = Some b /\ lv s b = Some lb /\ l_kind lb = LHF /\ l_parent lb = Some a /\ lv s a = Some la /\
        l_J lb = Some j /\ l_F lb = Some f /\ l_gF l = compute_gF N (s_I s) j f (l_lande la)
    end.
  (** The linewidth of a subtransition is its share of its parent's. *)
  Definition fresh_x s x : Prop :=
    match x_kind x with
    | TT => True
    | THF => exists t xt l1 l2 j1 j2 f1 f2, x_parent x = Some t /\ tr s t = Some xt /\ x_kind xt = TT /\
        lv s (x_E1 x) = Some l1 /\ lv s (x_E2 x) = Some l2 /\
        l_J l1 = Some j1 /\ l_J l2 = Some j2 /\ l_F l1 = Some f1 /\ l_F l2 = Some f2 /\
        x_A x = option_map (scale_A N (nofQ N (this (hf_factor (x_allowed xt) (s_I s) j1 j2 f1 f2)))) (x_A xt)
    | TZ => exists t xt l1 l2 f1 f2 m1 m2, x_parent x = Some t /\ tr s t = Some xt /\ x_kind xt = THF /\
        lv s (x_E1 x) = Some l1 /\ lv s (x_E2 x) = Some l2 /\
        l_F l1 = Some f1 /\ l_F l2 = Some f2 /\ l_mF l1 = Some m1 /\ l_mF l2 = Some m2 /\
        x_A x = option_map (scale_A N (nofQ N (this (z_factor (x_allowed xt) f1 f2 m1 m2)))) (x_A xt)
    end.

  Definition same_l l l' : Prop := l_kind l' = l_kind l /\ l_parent l' = l_parent l /\ l_term l' = l_term l /\
    l_lande l' = l_lande l /\ l_gF l' = l_gF l.
  Definition same_x x x' : Prop := x_kind x' = x_kind x /\ x_parent x' = x_parent x /\ x_E1 x' = x_E1 x /\ x_E2 x' = x_E2 x /\
    x_allowed x' = x_allowed x /\ x_A x' = x_A x.

  (** Old objects keep their derived values, new ones get current ones. *)
  Record grows s s' : Prop := mk_grows {
    gr_I : s_I s' = s_I s;
    gr_l : forall a l, lv s a = Some l -> exists l', lv s' a = Some l' /\ same_l l l';
    gr_x : forall t x, tr s t = Some x -> exists x', tr s' t = Some x' /\ same_x x x';
    gr_nl : forall a l, lv s a = None -> lv s' a = Some l -> fresh_l s' l;
    gr_nx : forall t x, tr s t = None -> tr s' t = Some x -> fresh_x s' x
  }.

  Lemma same_l_refl : forall l, same_l l l.
  Proof. repeat split. Qed.
  Lemma same_x_refl : forall x, same_x x x.
  Proof. repeat split. Qed.
  Lemma term_J : forall l l', l_term l' = l_term l -> l_J l' = l_J l /\ l_F l' = l_F l /\ l_mF l' = l_mF l.
  Proof. intros l l' E. unfold l_J, l_F, l_mF, lead. rewrite E. auto. Qed.
  Lemma same_l_J : forall l l', same_l l l' -> l_J l' = l_J l /\ l_F l' = l_F l /\ l_mF l' = l_mF l.
  Proof. intros l l' [_ [_ [E _]]]. unfold l_J, l_F, l_mF, lead. rewrite E. auto. Qed.

  Lemma fresh_l_mono : forall s s' l l', s_I s' = s_I s -> (forall a l, lv s a = Some l -> exists l', lv s' a = Some l' /\ same_l l l') ->
    same_l l l' -> fresh_l s l -> fresh_l s' l'.
  Proof.
    intros s s' l l' EI G S F. destruct S as [S1 [S2 [S3 [S4 S5]]]]. unfold fresh_l in *. rewrite S1. destruct (l_kind l); auto.
    - destruct F as [a [la [j [f [P [V [K [J [T g]]]]]]]]]. destruct (G _ _ V) as [la' [V' S']].
      exists a, la', j, f. destruct (same_l_J _ _ S') as [J' _]. destruct S' as [K' [_ [T' [L' _]]]].
      rewrite S2, K', J', S3, T', S5, EI, L'. auto 8.
    - destruct F as [b [lb [a [la [j [f [P [V [K [P2 [V2 [J [Ff g]]]]]]]]]]]]]. destruct (G _ _ V) as [lb' [V' S']]. destruct (G _ _ V2) as [la' [V2' S2']].
      exists b, lb', a, la', j, f. destruct (same_l_J _ _ S') as [J' [F' _]]. destruct S' as [K' [P' _]]. destruct S2' as [_ [_ [_ [L' _]]]].
      rewrite S2, K', P', J', F', S5, EI, L'. auto 9.
  Qed.
  Lemma fresh_x_mono : forall s s' x x', s_I s' = s_I s -> (forall a l, lv s a = Some l -> exists l', lv s' a = Some l' /\ l_term l' = l_term l) ->
    (forall t x, tr s t = Some x -> exists x', tr s' t = Some x' /\ same_x x x') ->
    same_x x x' -> fresh_x s x -> fresh_x s' x'.
  Proof.
    intros s s' x x' EI G H S F. destruct S as [S1 [S2 [S3 [S4 [S5 S6]]]]]. unfold fresh_x in *. rewrite S1, S3, S4. destruct (x_kind x); auto.
    - destruct F as [t [xt [l1 [l2 [j1 [j2 [f1 [f2 [P [V [K [V1 [V2 [J1 [J2 [F1 [F2 E]]]]]]]]]]]]]]]]].
      destruct (H _ _ V) as [xt' [V' [K' [_ [_ [_ [A' B']]]]]]]. destruct (G _ _ V1) as [l1' [V1' S1']]. destruct (G _ _ V2) as [l2' [V2' S2']].
      destruct (term_J _ _ S1') as [J1' [F1' _]]. destruct (term_J _ _ S2') as [J2' [F2' _]].
      exists t, xt', l1', l2', j1, j2, f1, f2. rewrite S2, S6, K', J1', J2', F1', F2', EI, A', B'. auto 12.
    - destruct F as [t [xt [l1 [l2 [f1 [f2 [m1 [m2 [P [V [K [V1 [V2 [J1 [J2 [F1 [F2 E]]]]]]]]]]]]]]]]].
      destruct (H _ _ V) as [xt' [V' [K' [_ [_ [_ [A' B']]]]]]]. destruct (G _ _ V1) as [l1' [V1' S1']]. destruct (G _ _ V2) as [l2' [V2' S2']].
      destruct (term_J _ _ S1') as [_ [F1' M1']]. destruct (term_J _ _ S2') as [_ [F2' M2']].
      exists t, xt', l1', l2', f1, f2, m1, m2. rewrite S2, S6, K', M1', M2', F1', F2', A', B'. auto 12.
  Qed.

  Lemma grows_refl : forall s, grows s s.
  Proof.
    intros s. constructor; auto; try congruence.
    - intros a l V. exists l. split; auto. apply same_l_refl.
    - intros t x V. exists x. split; auto. apply same_x_refl.
  Qed.
  Lemma same_l_trans : forall l l' l'', same_l l l' -> same_l l' l'' -> same_l l l''.
  Proof. unfold same_l. intuition congruence. Qed.
  Lemma same_x_trans : forall x x' x'', same_x x x' -> same_x x' x'' -> same_x x x''.
  Proof. unfold same_x. intuition congruence. Qed.
  Lemma grows_trans : forall s s' s'', grows s s' -> grows s' s'' -> grows s s''.
  Proof.
    intros s s' s'' [I1 L1 X1 NL1 NX1] [I2 L2 X2 NL2 NX2]. constructor.
    - congruence.
    - intros a l V. destruct (L1 _ _ V) as [l' [V' S']]. destruct (L2 _ _ V') as [l'' [V'' S'']]. exists l''. split; auto. eapply same_l_trans; eauto.
    - intros t x V. destruct (X1 _ _ V) as [x' [V' S']]. destruct (X2 _ _ V') as [x'' [V'' S'']]. exists x''. split; auto. eapply same_x_trans; eauto.
    - intros a l V V'. destruct (lv s' a) as [l1|] eqn:E; [|eauto]. destruct (L2 _ _ E) as [l2 [V2 S2]]. assert (l2 = l) by congruence. subst l2.
      eapply fresh_l_mono; eauto.
    - intros t x V V'. destruct (tr s' t) as [x1|] eqn:E; [|eauto]. destruct (X2 _ _ E) as [x2 [V2 S2]]. assert (x2 = x) by congruence. subst x2.
      eapply fresh_x_mono; eauto. intros b l0 V0. destruct (L2 _ _ V0) as [l0' [? S0]]. exists l0'. split; auto. apply S0.
  Qed.

  (** ** Rules *)

  Definition kg {A} (m : M A) : Prop := forall s, grows s (snd (m s)).
  Lemma kg_bind {A B} : forall (m : M A) (k : A -> M B), kg m -> (forall v, kg (k v)) -> kg (bind m k).
  Proof.
    intros m k H K s. unfold bind. specialize (H s). destruct (m s) as [[v|e] s']; cbn [snd] in *; auto. eapply grows_trans; [exact H|apply K].
  Qed.
  Lemma kg_pure {A} : forall (m : M A), (forall s, snd (m s) = s) -> kg m.
  Proof. intros m H s. rewrite H. apply grows_refl. Qed.
  Lemma kg_ret {A} : forall v : A, kg (ret v).
  Proof. intros v. now apply kg_pure. Qed.
  Lemma kg_raise {A} : forall e, kg (@raise N A e).
  Proof. intros e. now apply kg_pure. Qed.
  Lemma kg_asks {A} : forall e (f : st -> option A), kg (asks e f).
  Proof. intros e f. apply kg_pure. intros s. unfold asks. now destruct (f s). Qed.
  Lemma kg_gets {A} : forall (f : st -> A), kg (gets f).
  Proof. intros f. now apply kg_pure. Qed.
  Lemma kg_forM {A} : forall (vs : list A) f, (forall v, kg (f v)) -> kg (forM vs f).
  Proof. induction vs as [|v vs IH]; intros f H; cbn [forM]; [apply kg_ret|]. apply kg_bind; auto. Qed.
  Lemma kg_modify : forall f, (forall s, grows s (f s)) -> kg (modify f).
  Proof. intros f H s. apply H. Qed.
  (** The continuation may rely on the state it was chosen in. *)
  Lemma kg_read {A B} : forall e (f : st -> option A) (k : A -> M B),
    (forall s v, f s = Some v -> grows s (snd (k v s))) -> kg (bind (asks e f) k).
  Proof. intros e f k H s. unfold bind, asks. destruct (f s) as [v|] eqn:E; [now apply H|apply grows_refl]. Qed.

  Lemma lv_upd : forall a f s b, lv (upd_lv a f s) b = if Nat.eqb a b then option_map f (lv s b) else lv s b.
  Proof. intros. unfold upd_lv, lv. cbn. apply nth_error_upd. Qed.
  Lemma tr_upd : forall a f s b, tr (upd_tr a f s) b = if Nat.eqb a b then option_map f (tr s b) else tr s b.
  Proof. intros. unfold upd_tr, tr. cbn. apply nth_error_upd. Qed.

  Lemma gr_same : forall s s', s_I s' = s_I s -> s_levels s' = s_levels s -> s_trans s' = s_trans s -> grows s s'.
  Proof.
    intros s s' E1 E2 E3. constructor; auto; unfold lv, tr; rewrite ?E2, ?E3; try congruence.
    - intros a l V. exists l. split; auto. apply same_l_refl.
    - intros t x V. exists x. split; auto. apply same_x_refl.
  Qed.
  Lemma gr_upd_lv : forall a f s, (forall l, same_l l (f l)) -> grows s (upd_lv a f s).
  Proof.
    intros a f s H. constructor; auto.
    - intros b l V. rewrite lv_upd, V. destruct (Nat.eqb a b); [exists (f l); split; [reflexivity|apply H]|exists l; split; [reflexivity|apply same_l_refl]].
    - intros t x V. exists x. split; auto. apply same_x_refl.
    - intros b l V. rewrite lv_upd, V. destruct (Nat.eqb a b); discriminate.
    - intros t x V V'. change (tr s t = Some x) in V'. congruence.
  Qed.
  Lemma gr_upd_tr : forall a f s, (forall x, same_x x (f x)) -> grows s (upd_tr a f s).
  Proof.
    intros a f s H. constructor; auto.
    - intros b l V. exists l. split; auto. apply same_l_refl.
    - intros b x V. rewrite tr_upd, V. destruct (Nat.eqb a b); [exists (f x); split; [reflexivity|apply H]|exists x; split; [reflexivity|apply same_x_refl]].
    - intros t l V V'. change (lv s t = Some l) in V'. congruence.
    - intros b x V. rewrite tr_upd, V. destruct (Nat.eqb a b); discriminate.
  Qed.
  Lemma gr_graph : forall k g s, grows s (set_graph k g s).
  Proof. intros [] g s; apply gr_same; reflexivity. Qed.

  Lemma gr_new_l : forall s new, (forall l, In l new -> fresh_l (set_levels (s_levels s ++ new) s) l) -> grows s (set_levels (s_levels s ++ new) s).
  Proof.
    intros s new H. constructor; auto.
    - intros a l V. exists l. split; [|apply same_l_refl]. unfold lv in *. cbn. rewrite nth_error_app1; auto. apply nth_error_Some. congruence.
    - intros t x V. exists x. split; auto. apply same_x_refl.
    - intros a l V V'. apply H. unfold lv in V, V'. cbn in V'. rewrite nth_error_app2 in V' by (now apply nth_error_None). eapply nth_error_In; eauto.
    - intros t x V V'. change (tr s t = Some x) in V'. congruence.
  Qed.
  Lemma gr_new_x : forall s x, fresh_x (set_trans (s_trans s ++ [x]) s) x -> grows s (set_trans (s_trans s ++ [x]) s).
  Proof.
    intros s x H. constructor; auto.
    - intros a l V. exists l. split; auto. apply same_l_refl.
    - intros t y V. exists y. split; [|apply same_x_refl]. unfold tr in *. cbn. rewrite nth_error_app1; auto. apply nth_error_Some. congruence.
    - intros t l V V'. change (lv s t = Some l) in V'. congruence.
    - intros t y V V'. unfold tr in V, V'. cbn in V'. rewrite nth_error_app2 in V' by (now apply nth_error_None).
      destruct (t - List.length (s_trans s))%nat as [|[|?]]; try discriminate. injection V' as <-. exact H.
  Qed.

  (** Old objects look the same in a grown state. *)
  Lemma old_l : forall s new a l, lv s a = Some l -> lv (set_levels (s_levels s ++ new) s) a = Some l.
  Proof. intros s new a l V. unfold lv in *. cbn. rewrite nth_error_app1; auto. apply nth_error_Some. congruence. Qed.
  Lemma old_x : forall s new t x, tr s t = Some x -> tr (set_trans (s_trans s ++ new) s) t = Some x.
  Proof. intros s new a l V. unfold tr in *. cbn. rewrite nth_error_app1; auto. apply nth_error_Some. congruence. Qed.

  Ltac leaf := first
    [ apply gr_graph
    | apply gr_upd_lv; intros; repeat split
    | apply gr_upd_tr; intros; repeat split
    | apply gr_same; reflexivity ].
  Ltac kgs := repeat first
    [ solve [auto 2] | apply kg_ret | apply kg_raise | apply kg_asks | apply kg_gets
    | apply kg_modify; intros; leaf
    | assumption
    | apply kg_bind; [|intros]
    | apply kg_forM; intros
    | match goal with |- kg (if ?b then _ else _) => destruct b | |- kg (match ?d with _ => _ end) => destruct d end
    ].

  (** ** Levels *)

  Lemma gr_install : forall s a keys new, (forall l, In l new -> fresh_l (set_levels (s_levels s ++ new) s) l) -> grows s (install a keys new s).
  Proof. intros s a keys new H. unfold install. apply (grows_trans _ (set_levels (s_levels s ++ new) s)); [apply gr_new_l; exact H|]. apply gr_upd_lv. intros; repeat split. Qed.

  Lemma kg_populate : forall a, kg (populate_sublevels N a).
  Proof.
    intros a. unfold populate_sublevels, get_lv. apply kg_read. intros s l V. destruct (l_kind l) eqn:K.
    - destruct (l_attached l); [|apply kg_ret]. unfold bind, asks. destruct (l_J l) as [j|] eqn:J; [|apply grows_refl]. cbn [modify snd].
      apply gr_install. intros l' H. apply in_map_iff in H as [f [<- _]]. cbn [fresh_l l_kind mkHF]. exists a, l, j, f.
      split; auto. split; [now apply old_l|]. auto.
    - unfold bind, asks. destruct (l_parent l) as [p|] eqn:P; [|apply grows_refl]. destruct (lv s p) as [lm|] eqn:Vp; [|apply grows_refl].
      destruct (l_J l) as [j|] eqn:J; [|apply grows_refl]. destruct (l_F l) as [f|] eqn:F; [|apply grows_refl]. cbn [modify snd].
      apply gr_install. intros l' H. apply in_map_iff in H as [m [<- _]]. cbn [fresh_l l_kind mkZ]. exists a, l, p, lm, j, f.
      split; auto. split; [now apply old_l|]. split; auto. split; auto. split; [now apply old_l|]. auto.
    - apply kg_ret.
  Qed.
  Hint Resolve kg_populate : core.

  Lemma kg_new_level : forall ts E A B C g alias b, kg (new_level N ts E A B C g alias b).
  Proof.
    intros. unfold new_level. destruct ts; [apply kg_raise|]. destruct (forallb _ _); [|apply kg_raise].
    apply kg_bind; [apply kg_gets|intros]. apply kg_bind; [|intros; apply kg_ret]. apply kg_modify. intros s.
    apply gr_new_l. intros l [<-|[]]. exact I.
  Qed.
  Hint Resolve kg_new_level : core.
  Lemma kg_add_node : forall a, kg (add_node N a).
  Proof. intros. unfold add_node, get_lv. kgs. Qed.
  Hint Resolve kg_add_node : core.
  Lemma kg_lazy : forall a, kg (lazy_sublevels N a).
  Proof. intros. unfold lazy_sublevels, get_lv. kgs. Qed.
  Hint Resolve kg_lazy : core.
  Lemma kg_sublevels : forall a, kg (sublevels N a).
  Proof. intros. unfold sublevels, get_lv. kgs. Qed.
  Hint Resolve kg_sublevels : core.
  Lemma kg_lv_getitem : forall fuel a key, kg (lv_getitem N fuel a key).
  Proof. induction fuel; intros; cbn [lv_getitem]; unfold get_lv; kgs. Qed.
  Hint Resolve kg_lv_getitem : core.
  Lemma kg_getitem : forall a key, kg (getitem N a key).
  Proof. intros. unfold getitem. auto. Qed.
  Hint Resolve kg_getitem : core.
  Lemma kg_set_alias : forall a al, kg (set_alias N a al).
  Proof. intros. unfold set_alias, get_lv. kgs. Qed.
  Hint Resolve kg_set_alias : core.
  Lemma kg_lv_add : forall fuel a, kg (lv_add_to_atom N fuel a).
  Proof. induction fuel; intros; cbn [lv_add_to_atom]; unfold get_lv; kgs. Qed.
  Hint Resolve kg_lv_add : core.
  Lemma kg_add_level : forall a p alias, kg (add_level N a p alias).
  Proof. intros. unfold add_level, get_lv. kgs. Qed.
  Lemma kg_del_level : forall key, kg (del_level N key).
  Proof. intros key s. unfold del_level. destruct (g_remove_node _ _); cbn [snd]; [apply gr_same; reflexivity|apply grows_refl]. Qed.
  Lemma kg_node : forall key, kg (node N key).
  Proof. intros. unfold node. kgs. Qed.
  Hint Resolve kg_add_level kg_del_level kg_node : core.
  Lemma kg_levels_get : forall key, kg (levels_get N key).
  Proof. intros. unfold levels_get, get_lv. kgs. Qed.
  Lemma kg_levels_get_int : forall i, kg (levels_get_int N muB i).
  Proof. intros. unfold levels_get_int. kgs. Qed.
  Hint Resolve kg_levels_get kg_levels_get_int : core.
  Lemma kg_set_energyE : forall a v, kg (set_energyE N a v).
  Proof. intros. unfold set_energyE. kgs. Qed.
  Hint Resolve kg_set_energyE : core.
  Lemma kg_set_energyHF : forall a v, kg (set_energyHF N a v).
  Proof. intros. unfold set_energyHF, get_lv. kgs. Qed.
  Hint Resolve kg_set_energyHF : core.
  Lemma kg_set_energyZ : forall a v, kg (set_energyZ N muB a v).
  Proof. intros. unfold set_energyZ, get_lv. kgs. Qed.
  Hint Resolve kg_set_energyZ : core.
  Lemma kg_set_energy : forall a v, kg (set_energy N muB a v).
  Proof. intros. unfold set_energy, get_lv. kgs. Qed.
  Hint Resolve kg_set_energy : core.

  (** ** Transitions *)

  Lemma kg_add_edge : forall t, kg (add_edge N t).
  Proof. intros. unfold add_edge, get_tr. kgs. Qed.
  Hint Resolve kg_add_edge : core.

  Lemma gr_new_trans : forall k p e1 e2 f A rel al alias s,
    (forall v b, fresh_x (set_trans (s_trans s ++ [mkTrans N k p e1 e2 v b true alias A rel al f []]) s)
                         (mkTrans N k p e1 e2 v b true alias A rel al f [])) ->
    (forall v b, fresh_x (set_trans (s_trans s ++ [mkTrans N k p e1 e2 v b false alias A rel al f []]) s)
                         (mkTrans N k p e1 e2 v b false alias A rel al f [])) ->
    grows s (snd (new_trans N muB k p e1 e2 f A rel al alias s)).
  Proof.
    intros k p e1 e2 f A rel al alias s H1 H2. unfold new_trans, get_lv.
    unfold bind at 1, asks at 1. destruct (lv s e1) as [l1|]; [|apply grows_refl].
    unfold bind at 1, asks at 1. destruct (energy N muB s e1) as [v1|]; [|apply grows_refl].
    unfold bind at 1, asks at 1. destruct (energy N muB s e2) as [v2|]; [|apply grows_refl].
    unfold bind at 1, gets at 1. unfold bind at 1, modify at 1.
    match goal with |- grows s (snd (?m ?s1)) => set (k1 := m); set (s1' := s1) end.
    apply grows_trans with s1'.
    - unfold s1'. apply gr_new_x. destruct (l_attached l1); auto.
    - assert (K : kg k1) by (unfold k1; kgs). apply K.
  Qed.

  Lemma kg_new_transition : forall e1 e2 f A alias, kg (new_transition N muB e1 e2 f A alias).
  Proof.
    intros. unfold new_transition, get_lv. apply kg_bind; [apply kg_asks|intros l1]. apply kg_bind; [apply kg_asks|intros l2].
    destruct (l_kind l1); try apply kg_raise. destruct (l_kind l2); try apply kg_raise.
    apply kg_bind; [apply kg_asks|intros j1]. apply kg_bind; [apply kg_asks|intros j2]. intros s. apply gr_new_trans; intros; exact I.
  Qed.
  Hint Resolve kg_new_transition : core.

  Lemma gr_new_HF : forall t a b s x, tr s t = Some x -> x_kind x = TT -> grows s (snd (new_HF N muB t a b s)).
  Proof.
    intros t a b s x V K. unfold new_HF, get_tr, get_lv.
    unfold bind at 1, asks at 1. rewrite V. unfold bind at 1, asks at 1. destruct (lv s a) as [l1|] eqn:V1; [|apply grows_refl].
    unfold bind at 1, asks at 1. destruct (lv s b) as [l2|] eqn:V2; [|apply grows_refl]. unfold bind at 1, gets at 1.
    unfold bind at 1, asks at 1. destruct (l_J l1) as [j1|] eqn:J1; [|apply grows_refl]. unfold bind at 1, asks at 1. destruct (l_J l2) as [j2|] eqn:J2; [|apply grows_refl].
    unfold bind at 1, asks at 1. destruct (l_F l1) as [f1|] eqn:F1; [|apply grows_refl]. unfold bind at 1, asks at 1. destruct (l_F l2) as [f2|] eqn:F2; [|apply grows_refl].
    apply gr_new_trans; intros; cbn [fresh_x x_kind]; exists t, x, l1, l2, j1, j2, f1, f2; cbn [x_parent x_E1 x_E2 x_A];
      (split; [reflexivity|]; split; [now apply old_x|]; auto 12).
  Qed.
  Lemma gr_new_Z : forall t a b s x, tr s t = Some x -> x_kind x = THF -> grows s (snd (new_Z N muB t a b s)).
  Proof.
    intros t a b s x V K. unfold new_Z, get_tr, get_lv.
    unfold bind at 1, asks at 1. rewrite V. unfold bind at 1, asks at 1. destruct (lv s a) as [l1|] eqn:V1; [|apply grows_refl].
    unfold bind at 1, asks at 1. destruct (lv s b) as [l2|] eqn:V2; [|apply grows_refl].
    unfold bind at 1, asks at 1. destruct (l_F l1) as [f1|] eqn:F1; [|apply grows_refl]. unfold bind at 1, asks at 1. destruct (l_F l2) as [f2|] eqn:F2; [|apply grows_refl].
    unfold bind at 1, asks at 1. destruct (l_mF l1) as [m1|] eqn:M1; [|apply grows_refl]. unfold bind at 1, asks at 1. destruct (l_mF l2) as [m2|] eqn:M2; [|apply grows_refl].
    apply gr_new_trans; intros; cbn [fresh_x x_kind]; exists t, x, l1, l2, f1, f2, m1, m2; cbn [x_parent x_E1 x_E2 x_A];
      (split; [reflexivity|]; split; [now apply old_x|]; auto 12).
  Qed.
  Lemma kg_new_sub : forall t ab, kg (new_sub N muB t ab).
  Proof.
    intros t ab. unfold new_sub, get_tr at 1. apply kg_read. intros s x V.
    match goal with |- grows s (snd (bind ?m ?k s)) => set (m0 := m); set (k0 := k) end.
    assert (G : grows s (snd (m0 s))).
    { unfold m0. destruct (x_kind x) eqn:K; [eapply gr_new_HF; eauto|eapply gr_new_Z; eauto|apply kg_raise]. }
    assert (K : forall v, kg (k0 v)) by (unfold k0, get_tr, get_lv; intros; kgs).
    unfold bind. destruct (m0 s) as [[v|e] s']; cbn [snd] in *; auto. eapply grows_trans; [exact G|apply K].
  Qed.
  Hint Resolve kg_new_sub : core.
  Lemma kg_populate_sub : forall t, kg (populate_subtransitions N muB t).
  Proof. intros. unfold populate_subtransitions, get_tr. kgs. Qed.
  Hint Resolve kg_populate_sub : core.
  Lemma kg_tr_add : forall t, kg (tr_add_to_atom N t).
  Proof. intros. unfold tr_add_to_atom, get_tr. kgs. Qed.
  Hint Resolve kg_tr_add : core.
  Lemma kg_tr_join : forall b t, kg (tr_join N b t).
  Proof. intros. unfold tr_join. kgs. Qed.
  Hint Resolve kg_tr_join : core.
  Lemma kg_lazy_sub : forall t, kg (lazy_subtransitions N muB t).
  Proof. intros. unfold lazy_subtransitions, get_tr. kgs. Qed.
  Hint Resolve kg_lazy_sub : core.
  Lemma kg_subtransitions : forall t, kg (subtransitions N muB t).
  Proof. intros. unfold subtransitions, get_tr. kgs. Qed.
  Lemma kg_tr_getitem : forall t k, kg (tr_getitem N muB t k).
  Proof. intros. unfold tr_getitem, get_tr. kgs. Qed.
  Lemma kg_tr_alias : forall t al, kg (tr_alias N t al).
  Proof. intros. unfold tr_alias, get_tr. kgs. Qed.
  Hint Resolve kg_subtransitions kg_tr_getitem kg_tr_alias : core.

  Lemma kg_enforce_edge : forall uv, kg (enforce_edge N uv).
  Proof. intros. unfold enforce_edge, get_tr, get_lv. kgs. Qed.
  Hint Resolve kg_enforce_edge : core.
  Lemma kg_enforce_comp : forall o fuel c, kg (enforce_comp N muB o fuel c).
  Proof. intros. unfold enforce_comp. kgs. Qed.
  Hint Resolve kg_enforce_comp : core.
  Lemma kg_enforce : forall from, kg (enforce N muB orc from).
  Proof. intros. unfold enforce. kgs. Qed.
  Hint Resolve kg_enforce : core.
  Lemma kg_set_freqT : forall t f, kg (set_freqT N muB orc t f).
  Proof. intros. unfold set_freqT, get_tr, get_lv. kgs. Qed.
  Hint Resolve kg_set_freqT : core.
  Lemma kg_set_freqHF : forall t f, kg (set_freqHF N muB orc t f).
  Proof. intros. unfold set_freqHF, get_tr. kgs. Qed.
  Hint Resolve kg_set_freqHF : core.
  Lemma kg_set_freqZ : forall t f, kg (set_freqZ N muB orc t f).
  Proof. intros. unfold set_freqZ, get_tr. kgs. Qed.
  Hint Resolve kg_set_freqZ : core.
  Lemma kg_set_frequency : forall t f, kg (set_frequency N muB orc t f).
  Proof. intros. unfold set_frequency, get_tr. kgs. Qed.
  Hint Resolve kg_set_frequency : core.

  Lemma kg_levels_get_key : forall k, kg (levels_get_key N muB k).
  Proof. intros []; cbn [levels_get_key]; auto. Qed.
  Hint Resolve kg_levels_get_key : core.
  Lemma kg_edge_at : forall k k', kg (edge_at N k k').
  Proof. intros. unfold edge_at. kgs. Qed.
  Hint Resolve kg_edge_at : core.
  Lemma kg_transitions_get : forall k, kg (transitions_get N muB k).
  Proof. intros. unfold transitions_get, get_lv. kgs. Qed.
  Hint Resolve kg_transitions_get : core.
  Lemma kg_transitions_get_str : forall k, kg (transitions_get_str N muB k).
  Proof. intros. unfold transitions_get_str. kgs. Qed.
  Hint Resolve kg_transitions_get_str : core.
  Lemma kg_add_transition : forall sp f A alias, kg (add_transition N muB orc sp f A alias).
  Proof. intros. unfold add_transition, get_tr. kgs. Qed.
  Lemma kg_linked : forall fuel key, kg (linked_levels N muB fuel key).
  Proof. induction fuel; intros; cbn [linked_levels]; unfold get_lv; kgs. Qed.
  Hint Resolve kg_add_transition kg_linked : core.
  Lemma kg_total_rate : forall key, kg (total_rate N muB key).
  Proof. intros. unfold total_rate. kgs. Qed.
  Lemma kg_branching : forall key, kg (branching N muB key).
  Proof. intros. unfold branching. kgs. Qed.
  Lemma kg_populate_transitions : forall al, kg (populate_transitions N muB al).
  Proof. intros. unfold populate_transitions, populate_pair. kgs. Qed.
  Lemma kg_populate_internal : kg (populate_internal N muB).
  Proof. unfold populate_internal. kgs. Qed.
  Hint Resolve kg_total_rate kg_branching kg_populate_transitions kg_populate_internal : core.

  Definition derived (o : op N) : bool := match o with OSetLande _ _ _ | OSetA _ _ _ => true | _ => false end.

  Lemma step_grows : forall s o, derived o = false -> grows s (step N muB orc s o).
  Proof.
    intros s o H. assert (K : kg (run_op N muB orc o)); [|apply K].
    destruct o; try discriminate H; cbn [run_op]; unfold void; kgs. Qed.

  Definition all_fresh s : Prop :=
    (forall a l, lv s a = Some l -> fresh_l s l) /\ (forall t x, tr s t = Some x -> fresh_x s x).

  (** Parameters are assigned only to objects nothing was derived from yet. *)
  Definition calm_op s (o : op N) : Prop :=
    match o with
    | OSetLande _ a _ => forall b lb, lv s b = Some lb -> l_parent lb <> Some a
    | OSetA _ t _ => (forall x, tr s t = Some x -> x_kind x = TT) /\ (forall u y, tr s u = Some y -> x_parent y <> Some t)
    | _ => True
    end.
  Fixpoint calm s (os : list (op N)) : Prop :=
    match os with [] => True | o :: os' => calm_op s o /\ calm (step N muB orc s o) os' end.

  Lemma grows_fresh : forall s s', grows s s' -> all_fresh s -> all_fresh s'.
  Proof.
    intros s s' G [H1 H2]. split.
    - intros a l V. destruct (lv s a) as [l0|] eqn:E; [|eapply gr_nl; eauto]. destruct (gr_l _ _ G _ _ E) as [l' [V' S']].
      assert (l' = l) by congruence. subst l'. apply (fresh_l_mono s s' l0 l (gr_I _ _ G) (gr_l _ _ G) S'). eauto.
    - intros t x V. destruct (tr s t) as [x0|] eqn:E; [|eapply gr_nx; eauto]. destruct (gr_x _ _ G _ _ E) as [x' [V' S']].
      assert (x' = x) by congruence. subst x'. apply (fresh_x_mono s s' x0 x (gr_I _ _ G)); auto; [|apply (gr_x _ _ G)|eauto].
      intros b l0 V0. destruct (gr_l _ _ G _ _ V0) as [l0' [? S0]]. exists l0'. split; auto. apply S0.
  Qed.

  Lemma calm_fresh : forall s o, calm_op s o -> all_fresh s -> all_fresh (step N muB orc s o).
  Proof.
    intros s o C [H1 H2]. destruct (derived o) eqn:D; [|eapply grows_fresh; [now apply step_grows|split; auto]].
    destruct o as [| | | | | | | | | |a g| | | | | | | | | |t A| | | | | | |]; try discriminate D; cbn [step run_op modify snd calm_op] in *; unfold step; cbn [run_op modify snd].
    - assert (G : forall b l, lv s b = Some l -> exists l', lv (upd_lv a (lv_set_lande g) s) b = Some l' /\ l_term l' = l_term l /\
        l_kind l' = l_kind l /\ l_parent l' = l_parent l /\ l_gF l' = l_gF l /\ (b <> a -> l_lande l' = l_lande l)).
      { intros b l V. rewrite lv_upd, V. destruct (Nat.eqb_spec a b) as [->|Hb]; [eexists; split; [reflexivity|]; cbn|exists l]; repeat split; auto. congruence. }
      split.
      + intros b l' V'. destruct (lv s b) as [l|] eqn:V; [|rewrite lv_upd, V in V'; destruct (Nat.eqb a b); discriminate].
        destruct (G b l V) as [l2 [V2 [T2 [K2 [P2 [g2 _]]]]]]. assert (l2 = l') by congruence. subst l2. clear V2.
        specialize (H1 b l V). unfold fresh_l in *. rewrite K2. destruct (l_kind l); auto.
        * destruct H1 as [p [lp [j [f [P [Vp [K [J [T Eg]]]]]]]]]. assert (p <> a) by (intros ->; apply (C b l V P)).
          destruct (G p lp Vp) as [lp' [Vp' [Tp' [Kp' [_ [_ L']]]]]]. exists p, lp', j, f. destruct (term_J _ _ Tp') as [J' _].
          rewrite P2, Kp', J', T2, Tp', g2, L' by auto. auto 8.
        * destruct H1 as [q [lq [p [lp [j [f [P [Vq [K [Pq [Vp [J [F Eg]]]]]]]]]]]]]. assert (p <> a) by (intros ->; apply (C q lq Vq Pq)).
          destruct (G q lq Vq) as [lq' [Vq' [Tq' [Kq' [Pq' _]]]]]. destruct (G p lp Vp) as [lp' [Vp' [Tp' [Kp' [_ [_ L']]]]]].
          exists q, lq', p, lp', j, f. destruct (term_J _ _ Tq') as [J' [F' _]].
          rewrite P2, Kq', Pq', J', F', g2, L' by auto. auto 9.
      + intros u x V. apply (fresh_x_mono s _ x x); auto using same_x_refl.
        * intros b l Vb. destruct (G b l Vb) as [l' [? [? _]]]. eauto.
        * intros u' x' V'. exists x'. split; auto. apply same_x_refl.
        * eapply H2. exact V.
    - destruct C as [CT CP]. split.
      + intros b l V. apply (fresh_l_mono s _ l l); auto using same_l_refl; [|eapply H1; exact V].
        intros b' l' V'. exists l'. split; auto. apply same_l_refl.
      + assert (G : forall u x, tr s u = Some x -> u <> t -> tr (upd_tr t (tr_set_A A) s) u = Some x).
        { intros u x V Hu. rewrite tr_upd. destruct (Nat.eqb_spec t u); congruence. }
        intros u x' V'. rewrite tr_upd in V'. destruct (Nat.eqb_spec t u) as [->|Hu].
        * destruct (tr s u) as [x|] eqn:V; [|discriminate]. injection V' as <-. unfold fresh_x. cbn [x_kind tr_set_A]. now rewrite (CT x eq_refl).
        * specialize (H2 u x' V'). unfold fresh_x in *. destruct (x_kind x'); auto.
          -- destruct H2 as [p [xp [l1 [l2 [j1 [j2 [f1 [f2 [P [V [K R]]]]]]]]]]]. exists p, xp, l1, l2, j1, j2, f1, f2.
             split; auto. split; [|split; auto]. apply G; auto. intros ->. apply (CP _ _ V' P).
          -- destruct H2 as [p [xp [l1 [l2 [j1 [j2 [f1 [f2 [P [V [K R]]]]]]]]]]]. exists p, xp, l1, l2, j1, j2, f1, f2.
             split; auto. split; [|split; auto]. apply G; auto. intros ->. apply (CP _ _ V' P).
  Qed.

  Lemma frozen : forall s o, match o with OSetA _ _ _ => False | _ => True end ->
    (forall a l, lv s a = Some l -> exists l', lv (step N muB orc s o) a = Some l' /\ l_gF l' = l_gF l) /\
    (forall t x, tr s t = Some x -> exists x', tr (step N muB orc s o) t = Some x' /\ x_A x' = x_A x).
  Proof.
    intros s o Ho. destruct (derived o) eqn:D.
    - destruct o; try discriminate D; try contradiction. unfold step. cbn [run_op modify snd]. split.
      + intros b l V. rewrite lv_upd, V. destruct (Nat.eqb a b); eexists; split; reflexivity.
      + intros t x V. exists x. auto.
    - pose proof (step_grows s o D) as G. split.
      + intros a l V. destruct (gr_l _ _ G _ _ V) as [l' [V' S']]. exists l'. split; auto. apply S'.
      + intros t x V. destruct (gr_x _ _ G _ _ V) as [x' [V' S']]. exists x'. split; auto. apply S'.
  Qed.

  Lemma calm_run : forall os s, calm s os -> all_fresh s -> all_fresh (run N muB orc s os).
  Proof.
    induction os as [|o os IH]; intros s C F; auto. destruct C as [C1 C2]. apply IH; auto. now apply calm_fresh.
  Qed.
  Lemma init_fresh : forall i B, all_fresh (init N i B).
  Proof. intros i B. split; intros a; destruct a; discriminate. Qed.
End Fresh.

Section Current.
  Context (N : Num) (muB : N) (orc : nat -> oracle) (OK : forall n, oracle_ok (orc n)).
  Implicit Types (s : st N).

  Lemma current_shift : forall i B os, (0 <= i)%Z -> calm N muB orc (init N i B) os -> let s := run N muB orc (init N i B) os in
    forall c lc, lv s c = Some lc -> l_kind lc = LZ ->
    exists b lb a la j f m e, l_parent lc = Some b /\ lv s b = Some lb /\ l_parent lb = Some a /\ lv s a = Some la /\
      l_J lb = Some j /\ l_F lb = Some f /\ l_mF lc = Some m /\ energy N muB s b = Some e /\
      energy N muB s c = Some (nadd N e (z_shift N muB (compute_gF N (s_I s) j f (l_lande la)) m (s_B s) (l_qz lc))).
  Proof.
    intros i B os Hi C s c lc V K. assert (W : WF s) by (apply (reachable_WF N muB orc OK); exists i, B, os; auto).
    destruct (calm_run N muB orc os _ C (init_fresh N i B)) as [F _]. fold s in F.
    pose proof (F c lc V) as H. unfold fresh_l in H. rewrite K in H.
    destruct H as [b [lb [a [la [j [f [P [Vb [Kb [Pb [Va [J [Ff g]]]]]]]]]]]]].
    destruct (wf_energyZ N muB _ _ _ W V K) as [b' [lb' [m [e [P' [Vb' [Kb' [Em [Ee EZ]]]]]]]]].
    assert (b' = b) by congruence. subst b'. exists b, lb, a, la, j, f, m, e. rewrite <- g.
    repeat (split; auto).
    - unfold energy. now rewrite Vb, Kb.
    - unfold energy. rewrite V, K, EZ. reflexivity.
  Qed.

  Lemma current_width : forall i B os, (0 <= i)%Z -> calm N muB orc (init N i B) os -> let s := run N muB orc (init N i B) os in
    forall t x, tr s t = Some x ->
    match x_kind x with
    | TT => True
    | THF => exists p xp l1 l2 j1 j2 f1 f2, x_parent x = Some p /\ tr s p = Some xp /\
        lv s (x_E1 x) = Some l1 /\ lv s (x_E2 x) = Some l2 /\
        l_J l1 = Some j1 /\ l_J l2 = Some j2 /\ l_F l1 = Some f1 /\ l_F l2 = Some f2 /\
        x_A x = option_map (scale_A N (nofQ N (this (hf_factor (x_allowed xp) (s_I s) j1 j2 f1 f2)))) (x_A xp)
    | TZ => exists p xp l1 l2 f1 f2 m1 m2, x_parent x = Some p /\ tr s p = Some xp /\
        lv s (x_E1 x) = Some l1 /\ lv s (x_E2 x) = Some l2 /\
        l_F l1 = Some f1 /\ l_F l2 = Some f2 /\ l_mF l1 = Some m1 /\ l_mF l2 = Some m2 /\
        x_A x = option_map (scale_A N (nofQ N (this (z_factor (x_allowed xp) f1 f2 m1 m2)))) (x_A xp)
    end.
  Proof.
    intros i B os Hi C s t x V. destruct (calm_run N muB orc os _ C (init_fresh N i B)) as [_ F]. fold s in F.
    specialize (F t x V). unfold fresh_x in F. destruct (x_kind x); auto.
    - destruct F as [p [xp [l1 [l2 [j1 [j2 [f1 [f2 [H1 [H2 [_ H3]]]]]]]]]]]. exists p, xp, l1, l2, j1, j2, f1, f2. auto.
    - destruct F as [p [xp [l1 [l2 [j1 [j2 [f1 [f2 [H1 [H2 [_ H3]]]]]]]]]]]. exists p, xp, l1, l2, j1, j2, f1, f2. auto.
  Qed.
End Current.
