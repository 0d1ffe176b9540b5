(** C156: A coefficients are spectators. *)
From Coq Require Import List Bool ZArith QArith Qcanon Lia String Ascii.
From Verif Require Import Base Num PyStr Util UtilProofs Regex Parse Term TermProofs Hyperfine HyperfineProofs Graph GraphProofs Rules StrengthSums Atom AtomInv AtomSafe AtomSafe2 AtomSafe3 AtomSafe4 AtomSafe5 AtomSafe6 AtomLevels AtomKeep AtomAlias AtomPaths AtomTrans AtomEnergy AtomDecay AtomExample Views PropViews PropDecay PropFloat.
Import ListNotations.
Local Open Scope list_scope.

(** ** Any A coefficients *)
Section Spectators.
  Context (N : Num) (muB : num N) (orc : nat -> oracle).
  Implicit Types (s : st N) (l : level N) (x : trans N) (a t : nat).

  (** The transition with another A coefficient and relative strength. *)
  Definition put (A : option (N * funit)) (r : N) x : trans N :=
    mkTrans N (x_kind x) (x_parent x) (x_E1 x) (x_E2 x) (x_up x) (x_lo x) (x_attached x) (x_alias x) A r (x_allowed x) (x_set x) (x_subs x).
  (** The state without A coefficients. *)
  Definition bare_x x : trans N := put None (nofQ N 0) x.
  Definition bare s : st N := set_trans (map bare_x (s_trans s)) s.
  Lemma bare_put : forall x x', bare_x x = bare_x x' -> x' = put (x_A x') (x_rel x') x.
  Proof. intros [] [] H. unfold bare_x, put in *. cbn in *. injection H as -> -> -> -> -> -> -> -> -> -> ->. reflexivity. Qed.
  Lemma tr_bare : forall s t, tr (bare s) t = option_map bare_x (tr s t).
  Proof. intros. apply nth_error_map. Qed.

  (** *** Computations that do the same with and without *)
  Definition eqv {A} (m m' : M N A) : Prop := forall s s', bare s = bare s' -> fst (m s) = fst (m' s') /\ bare (snd (m s)) = bare (snd (m' s')).
  Lemma eqv_bind {A B} : forall (m m' : M N A) (f f' : A -> M N B), eqv m m' -> (forall r, eqv (f r) (f' r)) -> eqv (bind m f) (bind m' f').
  Proof.
    intros m m' f f' Hm Hf s s' H. unfold bind. specialize (Hm s s' H). destruct (m s) as [r1 s1], (m' s') as [r2 s2]. cbn [fst snd] in Hm. destruct Hm as [<- Hs].
    destruct r1; [apply Hf; auto|auto].
  Qed.
  Lemma eqv_ret {A} : forall r : A, eqv (ret r) (ret r).
  Proof. intros r s s' H. auto. Qed.
  Lemma eqv_raise {A} : forall e, eqv (@raise N A e) (raise e).
  Proof. intros e s s' H. auto. Qed.
  Lemma eqv_modify : forall f f' : st N -> st N, (forall s, f' (bare s) = bare (f s)) -> (forall s, f' (bare s) = bare (f' s)) -> eqv (modify f) (modify f').
  Proof. intros f f' H1 H2 s s' H. unfold modify. cbn [fst snd]. split; auto. rewrite <- H1, <- H2. now rewrite H. Qed.
  Lemma eqv_modify1 : forall f : st N -> st N, (forall s, f (bare s) = bare (f s)) -> eqv (modify f) (modify f).
  Proof. intros f H. now apply eqv_modify. Qed.
  Lemma eqv_asks {A} : forall e (f f' : st N -> option A), (forall s, f' (bare s) = f s) -> (forall s, f' (bare s) = f' s) -> eqv (asks e f) (asks e f').
  Proof. intros e f f' H1 H2 s s' H. unfold asks. rewrite <- H1, <- (H2 s'), H. destruct (f' (bare s')); auto. Qed.
  Lemma eqv_gets {A} : forall (f f' : st N -> A), (forall s, f' (bare s) = f s) -> (forall s, f' (bare s) = f' s) -> eqv (gets f) (gets f').
  Proof. intros f f' H1 H2 s s' H. unfold gets. cbn [fst snd]. rewrite <- H1, <- (H2 s'), H. auto. Qed.
  Lemma eqv_forM {A} : forall (f f' : A -> M N unit) (ls : list A), (forall r, eqv (f r) (f' r)) -> eqv (forM ls f) (forM ls f').
  Proof. intros f f' ls H. induction ls as [|r ls IH]; cbn [forM]; [apply eqv_ret|]. apply eqv_bind; auto. Qed.
  Lemma eqv_tr {C} : forall t (g g' : trans N -> M N C), (forall A r x, eqv (g x) (g' (put A r x))) -> eqv (bind (get_tr t) g) (bind (get_tr t) g').
  Proof.
    intros t g g' H s s' E. unfold bind, get_tr, asks. pose proof (tr_bare s t) as T1. pose proof (tr_bare s' t) as T2. rewrite E in T1. rewrite T1 in T2.
    destruct (tr s t) as [x|], (tr s' t) as [x'|]; try discriminate T2; [|auto].
    cbn [option_map] in T2. assert (B : bare_x x = bare_x x') by congruence. apply bare_put in B. rewrite B. apply H. exact E.
  Qed.

  (** *** Updates *)
  Lemma upd_map {A} : forall (h f f' : A -> A) n (l0 : list A), (forall r, f' (h r) = h (f r)) -> upd n f' (map h l0) = map h (upd n f l0).
  Proof. intros h f f' n l0 H. revert n. induction l0 as [|r l0 IH]; intros [|n]; cbn [upd map]; auto; [now rewrite H|now rewrite IH]. Qed.
  Lemma upd_tr_bare : forall a f f' s, (forall x, f' (bare_x x) = bare_x (f x)) -> upd_tr a f' (bare s) = bare (upd_tr a f s).
  Proof. intros a f f' s H. unfold upd_tr, bare. cbn [set_trans s_trans]. rewrite (upd_map bare_x f f'); auto. Qed.
  Lemma set_graph_bare : forall kd g s, set_graph kd g (bare s) = bare (set_graph kd g s).
  Proof. intros [] g s; reflexivity. Qed.
  Lemma graph_bare : forall kd s, graph_of kd (bare s) = graph_of kd s.
  Proof. intros [] s; reflexivity. Qed.

  (** *** The interface, one function after the other *)
  Ltac pj := repeat match goal with
    | |- context [x_kind (put ?A ?r ?x)] => change (x_kind (put A r x)) with (x_kind x)
    | |- context [x_parent (put ?A ?r ?x)] => change (x_parent (put A r x)) with (x_parent x)
    | |- context [x_E1 (put ?A ?r ?x)] => change (x_E1 (put A r x)) with (x_E1 x)
    | |- context [x_E2 (put ?A ?r ?x)] => change (x_E2 (put A r x)) with (x_E2 x)
    | |- context [x_up (put ?A ?r ?x)] => change (x_up (put A r x)) with (x_up x)
    | |- context [x_lo (put ?A ?r ?x)] => change (x_lo (put A r x)) with (x_lo x)
    | |- context [x_attached (put ?A ?r ?x)] => change (x_attached (put A r x)) with (x_attached x)
    | |- context [x_alias (put ?A ?r ?x)] => change (x_alias (put A r x)) with (x_alias x)
    | |- context [x_allowed (put ?A ?r ?x)] => change (x_allowed (put A r x)) with (x_allowed x)
    | |- context [x_set (put ?A ?r ?x)] => change (x_set (put A r x)) with (x_set x)
    | |- context [x_subs (put ?A ?r ?x)] => change (x_subs (put A r x)) with (x_subs x)
    end.
  Ltac simp := lazymatch goal with
    | |- eqv (bind (get_tr _) _) _ => apply eqv_tr; intros ? ? ?; pj
    | |- eqv (bind _ _) _ => apply eqv_bind; [|intro]
    | |- eqv (ret _) _ => apply eqv_ret
    | |- eqv (raise _) _ => apply eqv_raise
    | |- eqv (forM _ _) _ => apply eqv_forM; intro
    | |- eqv (get_lv _) _ => apply eqv_asks; reflexivity
    | |- eqv (asks _ _) _ => apply eqv_asks; intro; try reflexivity
    | |- eqv (gets _) _ => apply eqv_gets; intro; try reflexivity
    | |- eqv (modify (upd_tr _ _)) _ => apply eqv_modify; intro; apply upd_tr_bare; intro; try reflexivity
    | |- eqv (modify _) _ => apply eqv_modify; intro; try reflexivity
    | |- eqv (match ?r with _ => _ end) _ => destruct r
    end.
  Ltac go := repeat simp.

  Lemma new_level_A : forall ts E A B C g al b, eqv (new_level N ts E A B C g al b) (new_level N ts E A B C g al b).
  Proof. intros. unfold new_level. go. Qed.
  Lemma populate_sublevels_A : forall a, eqv (populate_sublevels N a) (populate_sublevels N a).
  Proof. intros. unfold populate_sublevels. go. Qed.
  Lemma add_node_A : forall a, eqv (add_node N a) (add_node N a).
  Proof. intros. unfold add_node. go; rewrite graph_bare; apply set_graph_bare. Qed.
  Lemma lazy_sublevels_A : forall a, eqv (lazy_sublevels N a) (lazy_sublevels N a).
  Proof. intros. unfold lazy_sublevels. go; auto using populate_sublevels_A, add_node_A. Qed.
  Lemma sublevels_A : forall a, eqv (sublevels N a) (sublevels N a).
  Proof. intros. unfold sublevels. go; auto using lazy_sublevels_A. Qed.
  Lemma lv_getitem_A : forall fuel a key, eqv (lv_getitem N fuel a key) (lv_getitem N fuel a key).
  Proof. induction fuel as [|fuel IH]; intros; cbn [lv_getitem]; go; auto using lazy_sublevels_A. Qed.
  Lemma getitem_A : forall a key, eqv (getitem N a key) (getitem N a key).
  Proof. intros. apply lv_getitem_A. Qed.
  Lemma set_alias_A : forall a al, eqv (set_alias N a al) (set_alias N a al).
  Proof. intros. unfold set_alias. go. Qed.
  Lemma lv_add_to_atom_A : forall fuel a, eqv (lv_add_to_atom N fuel a) (lv_add_to_atom N fuel a).
  Proof. induction fuel as [|fuel IH]; intros; cbn [lv_add_to_atom]; go; auto using add_node_A. Qed.
  Lemma add_level_A : forall a p al, eqv (add_level N a p al) (add_level N a p al).
  Proof. intros. unfold add_level. go; auto using lv_add_to_atom_A, set_alias_A, populate_sublevels_A, sublevels_A. Qed.
  Lemma del_level_A : forall key, eqv (del_level N key) (del_level N key).
  Proof.
    intros key s s' H. unfold del_level. assert (G : s_g0 s' = s_g0 s) by (change (s_g0 (bare s') = s_g0 (bare s)); now rewrite H). rewrite G.
    destruct (g_remove_node key (s_g0 s)) as [g|]; cbn [fst snd]; split; auto. change (set_g0 g (bare s) = set_g0 g (bare s')). now rewrite H.
  Qed.
  Lemma levels_get_A : forall key, eqv (levels_get N key) (levels_get N key).
  Proof. intros. unfold levels_get, node. go; auto using getitem_A. Qed.
  Lemma with_energy_A : forall s ls, with_energy N muB (bare s) ls = with_energy N muB s ls.
  Proof. intros s ls. induction ls as [|a ls IH]; cbn [with_energy]; auto. now rewrite IH. Qed.
  Lemma levels_get_int_A : forall i, eqv (levels_get_int N muB i) (levels_get_int N muB i).
  Proof. intros. unfold levels_get_int. go; unfold by_energy; change (s_g0 (bare s)) with (s_g0 s); now rewrite with_energy_A. Qed.
  Lemma add_edge_A : forall t, eqv (add_edge N t) (add_edge N t).
  Proof. intros. unfold add_edge. go; rewrite graph_bare; apply set_graph_bare. Qed.
  Lemma append_A : forall x x', bare_x x = bare_x x' -> eqv (modify (fun s => set_trans (s_trans s ++ [x]) s)) (modify (fun s => set_trans (s_trans s ++ [x']) s)).
  Proof.
    intros x x' H s s' E. unfold modify. cbn [fst snd]. split; auto.
    assert (G : forall s x, bare (set_trans (s_trans s ++ [x]) s) = set_trans (s_trans (bare s) ++ [bare_x x]) (bare s)) by (intros; unfold bare; cbn [set_trans s_trans]; now rewrite map_app).
    now rewrite !G, E, H.
  Qed.
  Lemma new_trans_A : forall kd p e1 e2 f A A' rel rel' ty al, eqv (new_trans N muB kd p e1 e2 f A rel ty al) (new_trans N muB kd p e1 e2 f A' rel' ty al).
  Proof.
    intros. unfold new_trans. do 3 (simp; [simp|]). simp.
    - apply eqv_gets; intros s; change (s_trans (bare s)) with (map bare_x (s_trans s)); now rewrite map_length.
    - simp; [now apply append_A|]. go; auto using add_edge_A.
  Qed.
  Lemma new_transition_A : forall e1 e2 f A A' al, eqv (new_transition N muB e1 e2 f A al) (new_transition N muB e1 e2 f A' al).
  Proof. intros. unfold new_transition. go; auto using new_trans_A. Qed.
  Lemma new_HF_A : forall t a b, eqv (new_HF N muB t a b) (new_HF N muB t a b).
  Proof. intros. unfold new_HF. go; apply new_trans_A. Qed.
  Lemma new_Z_A : forall t a b, eqv (new_Z N muB t a b) (new_Z N muB t a b).
  Proof. intros. unfold new_Z. go; apply new_trans_A. Qed.
  Lemma new_sub_A : forall t ab, eqv (new_sub N muB t ab) (new_sub N muB t ab).
  Proof. intros. unfold new_sub. go; auto using new_HF_A, new_Z_A. Qed.
  Lemma populate_sub_A : forall t, eqv (populate_subtransitions N muB t) (populate_subtransitions N muB t).
  Proof. intros. unfold populate_subtransitions. go; auto using sublevels_A, new_sub_A. Qed.
  Lemma tr_add_A : forall t, eqv (tr_add_to_atom N t) (tr_add_to_atom N t).
  Proof. intros. unfold tr_add_to_atom. go; auto using add_edge_A. Qed.
  Lemma tr_join_A : forall b t, eqv (tr_join N b t) (tr_join N b t).
  Proof. intros. unfold tr_join. go; auto using tr_add_A. Qed.
  Lemma lazy_subtr_A : forall t, eqv (lazy_subtransitions N muB t) (lazy_subtransitions N muB t).
  Proof. intros. unfold lazy_subtransitions. go; auto using sublevels_A, populate_sub_A, tr_join_A. Qed.
  Lemma subtransitions_A : forall t, eqv (subtransitions N muB t) (subtransitions N muB t).
  Proof. intros. unfold subtransitions. go; auto using lazy_subtr_A. Qed.
  Lemma tr_getitem_A : forall t key, eqv (tr_getitem N muB t key) (tr_getitem N muB t key).
  Proof. intros. unfold tr_getitem. go; auto using lazy_subtr_A. Qed.
  Lemma tr_alias_A : forall t al, eqv (tr_alias N t al) (tr_alias N t al).
  Proof. intros. unfold tr_alias. go. Qed.

  Lemma is_set_A : forall s t, is_set (bare s) t = is_set s t.
  Proof. intros. unfold is_set. rewrite tr_bare. destruct (tr s t); reflexivity. Qed.
  Lemma set_nbrs_A : forall s u, set_nbrs (bare s) u = set_nbrs s u.
  Proof. intros. unfold set_nbrs. change (s_g0 (bare s)) with (s_g0 s). apply f_equal. apply filter_ext. intros vt. apply is_set_A. Qed.
  Lemma set_nodes_A : forall s, set_nodes (bare s) = set_nodes s.
  Proof. intros. unfold set_nodes. change (s_g0 (bare s)) with (s_g0 s). apply filter_ext. intros u. now rewrite set_nbrs_A. Qed.
  Lemma touched_A : forall s cc from, touched (bare s) cc from = touched s cc from.
  Proof. intros s cc [[u v]|]; auto. unfold touched. now rewrite set_nbrs_A. Qed.
  Lemma lowest_A : forall s ns cur, lowest N muB (bare s) ns cur = lowest N muB s ns cur.
  Proof.
    intros s ns. induction ns as [|n ns IH]; intros cur; cbn [lowest]; auto. change (s_g0 (bare s)) with (s_g0 s).
    destruct cur as [[[a|] key]|]; auto. destruct (match dget n (g_nodes (s_g0 s)) with Some o => o | None => None end) as [b|]; auto.
    change (energy N muB (bare s)) with (energy N muB s). destruct (energy N muB s b), (energy N muB s a); auto.
  Qed.
  Lemma dfs_ext : forall (f g : string -> list string), (forall u, f u = g u) -> forall fuel u vis, dfs fuel f u vis = dfs fuel g u vis.
  Proof.
    intros f g H fuel. induction fuel as [|fuel IH]; intros u vis; cbn [dfs]; auto. rewrite H. generalize (g u) vis. intros cs.
    induction cs as [|v cs IC]; intros vis'; auto. destruct (mem v vis'); auto. rewrite IH. destruct (dfs fuel g v (v :: vis')) as [[es v1]|]; auto. now rewrite IC.
  Qed.
  Lemma components_ext : forall (f g : string -> list string), (forall u, f u = g u) -> forall fuel ns seen, components fuel f ns seen = components fuel g ns seen.
  Proof.
    intros f g H fuel ns. induction ns as [|n ns IH]; intros seen; cbn [components]; auto. rewrite IH, (dfs_ext f g H). destruct (mem n seen); auto.
    destruct (dfs fuel g n [n]) as [[es cc]|]; auto. now rewrite IH.
  Qed.
  Lemma enforce_edge_A : forall uv, eqv (enforce_edge N uv) (enforce_edge N uv).
  Proof. intros. unfold enforce_edge, set_energyE. go. Qed.
  Lemma enforce_comp_A : forall o fuel cc, eqv (enforce_comp N muB o fuel cc) (enforce_comp N muB o fuel cc).
  Proof.
    intros. unfold enforce_comp. go; auto using enforce_edge_A, lowest_A;
    unfold dfs_edges; (erewrite dfs_ext; [reflexivity|]); intros u; cbn beta; now rewrite set_nbrs_A.
  Qed.
  Lemma enforce_A : forall from, eqv (enforce N muB orc from) (enforce N muB orc from).
  Proof.
    intros. unfold enforce. go; auto using enforce_comp_A, touched_A; rewrite set_nodes_A; auto; apply components_ext; intros u; apply set_nbrs_A.
  Qed.
  Lemma set_freqT_A : forall t f, eqv (set_freqT N muB orc t f) (set_freqT N muB orc t f).
  Proof. intros. unfold set_freqT. go; auto using enforce_A. Qed.
  Lemma freq_A : forall s t, freq N muB (bare s) t = freq N muB s t.
  Proof. intros. unfold freq. rewrite tr_bare. destruct (tr s t); reflexivity. Qed.
  Lemma set_freqHF_A : forall t f, eqv (set_freqHF N muB orc t f) (set_freqHF N muB orc t f).
  Proof. intros. unfold set_freqHF. go; auto using set_freqT_A, freq_A. Qed.
  Lemma set_freqZ_A : forall t f, eqv (set_freqZ N muB orc t f) (set_freqZ N muB orc t f).
  Proof. intros. unfold set_freqZ. go; auto using set_freqHF_A, freq_A. Qed.
  Lemma set_frequency_A : forall t f, eqv (set_frequency N muB orc t f) (set_frequency N muB orc t f).
  Proof. intros. unfold set_frequency. go; auto using set_freqT_A, set_freqHF_A, set_freqZ_A. Qed.
  Lemma set_energy_A : forall a v, eqv (set_energy N muB a v) (set_energy N muB a v).
  Proof. intros. unfold set_energy, set_energyZ, set_energyHF, set_energyE. go. Qed.
  Lemma levels_get_key_A : forall key, eqv (levels_get_key N muB key) (levels_get_key N muB key).
  Proof. intros [key|i]; cbn [levels_get_key]; auto using levels_get_A, levels_get_int_A. Qed.
  Lemma transitions_get_A : forall key, eqv (transitions_get N muB key) (transitions_get N muB key).
  Proof. intros. unfold transitions_get, edge_at, node. go; auto using tr_getitem_A, levels_get_key_A. Qed.
  Lemma transitions_get_str_A : forall key, eqv (transitions_get_str N muB key) (transitions_get_str N muB key).
  Proof. intros. unfold transitions_get_str. go; auto using levels_get_A, transitions_get_A. Qed.
  Lemma add_transition_A : forall sp f A A' al, eqv (add_transition N muB orc sp f A al) (add_transition N muB orc sp f A' al).
  Proof. intros. unfold add_transition. go; auto using transitions_get_A, levels_get_A, new_transition_A, tr_add_A, enforce_A. Qed.
  Lemma linked_A : forall fuel key, eqv (linked_levels N muB fuel key) (linked_levels N muB fuel key).
  Proof. induction fuel as [|fuel IH]; intros; cbn [linked_levels]; go; auto using levels_get_A, populate_sub_A. Qed.
  Lemma level_pairs_A : forall s d, level_pairs N (bare s) d = level_pairs N s d.
  Proof. reflexivity. Qed.
  Lemma populate_transitions_A : forall al, eqv (populate_transitions N muB al) (populate_transitions N muB al).
  Proof. intros. unfold populate_transitions, populate_pair. go; auto using transitions_get_A. Qed.
  Lemma populate_internal_A : eqv (populate_internal N muB) (populate_internal N muB).
  Proof. unfold populate_internal. go; auto using tr_add_A, new_transition_A. Qed.

  (** A use of the interface without the A coefficients it gives. *)
  Definition strip (o : op N) : op N :=
    match o with
    | ONewTransition _ e1 e2 f _ al => ONewTransition N e1 e2 f None al
    | OAddTransition _ sp f _ al => OAddTransition N sp f None al
    | OSetA _ t _ => OSetA N t None
    | _ => o
    end.
  (** The two calls that read A coefficients. *)
  Definition reads (o : op N) : Prop := match o with OLifetime _ _ | OBranching _ _ => True | _ => False end.
  Lemma void_A {A} : forall (m m' : M N A), eqv m m' -> eqv (void N m) (void N m').
  Proof. intros. unfold void. apply eqv_bind; auto. intros. apply eqv_ret. Qed.
  Lemma set_A_A : forall t A A', eqv (modify (upd_tr t (tr_set_A A))) (modify (upd_tr t (tr_set_A A'))).
  Proof.
    intros t A A' s s' E. unfold modify. cbn [fst snd]. split; auto. rewrite <- (upd_tr_bare t _ (fun x => x)), <- (upd_tr_bare t (tr_set_A A') (fun x => x)) by reflexivity. now rewrite E.
  Qed.
  Lemma run_op_A : forall o o', strip o = strip o' -> ~ reads o -> eqv (run_op N muB orc o) (run_op N muB orc o').
  Proof.
    intros o o' E R.
    assert (H : (exists e1 e2 f A A' al, o = ONewTransition N e1 e2 f A al /\ o' = ONewTransition N e1 e2 f A' al) \/
      (exists sp f A A' al, o = OAddTransition N sp f A al /\ o' = OAddTransition N sp f A' al) \/
      (exists t A A', o = OSetA N t A /\ o' = OSetA N t A') \/ o' = o).
    { destruct o, o'; cbn [strip] in E; try discriminate E; auto 8; (injection E as ? ? ? ? || injection E as ? ? ? || injection E as ?); subst;
        solve [auto 10 | left; do 6 eexists; split; reflexivity | right; left; do 5 eexists; split; reflexivity | right; right; left; do 3 eexists; split; reflexivity]. }
    destruct H as [[e1 [e2 [f [A [A' [al [-> ->]]]]]]]|[[sp [f [A [A' [al [-> ->]]]]]]|[[t [A [A' [-> ->]]]]| -> ]]]; cbn [run_op];
      [apply void_A, new_transition_A|apply void_A, add_transition_A|apply set_A_A|].
    destruct o; cbn [run_op]; try (now destruct (R I)); try apply void_A; auto using new_level_A, add_level_A, del_level_A, levels_get_A, levels_get_int_A, getitem_A, sublevels_A,
      set_alias_A, set_energy_A, new_transition_A, add_transition_A, transitions_get_A, transitions_get_str_A, tr_getitem_A, subtransitions_A, tr_alias_A, set_A_A,
      set_frequency_A, enforce_A, linked_A, populate_transitions_A, populate_internal_A; go.
  Qed.
  Lemma reads_state : forall o s s', reads o -> bare s = bare s' -> bare (snd (run_op N muB orc o s)) = bare (snd (run_op N muB orc o s')).
  Proof.
    intros o s s' R E. destruct o; try destruct R; cbn [run_op]; unfold void, total_rate, branching, bind;
      destruct (linked_A 3 key s s' E) as [F G]; destruct (linked_levels N muB 3 key s) as [r1 s1], (linked_levels N muB 3 key s') as [r2 s2]; cbn [fst snd] in F, G; subst r2.
    - destruct r1 as [d|e]; [|exact G]. destruct (levels_get_A key s1 s2 G) as [F1 G1].
      destruct (levels_get N key s1) as [r3 s3], (levels_get N key s2) as [r4 s4]; cbn [fst snd] in F1, G1; subst r4. destruct r3 as [a|e]; [|exact G1].
      destruct (sum_A N s3 a (dvals d) _), (sum_A N s4 a (dvals d) _); exact G1.
    - destruct r1 as [d|e]; [|exact G]. destruct (rbind _ _), (rbind _ _); exact G.
  Qed.
  Lemma strip_reads : forall o o', strip o = strip o' -> reads o -> o' = o.
  Proof. intros o o' E R. destruct o; try destruct R; destruct o'; cbn [strip] in E; congruence. Qed.
  Lemma run_A : forall os os' s s', map strip os = map strip os' -> bare s = bare s' -> bare (run N muB orc s os) = bare (run N muB orc s' os').
  Proof.
    induction os as [|o os IH]; intros [|o' os'] s s' H E; try discriminate H; auto. cbn [map] in H. injection H as Ho Hos. cbn [run fold_left].
    apply IH; auto. unfold step.
    assert (D : {reads o} + {~ reads o}) by (destruct o; cbn; auto). destruct D as [R|R].
    - rewrite (strip_reads o o' Ho R). now apply reads_state.
    - now apply run_op_A.
  Qed.

  (** Two histories that differ in their A coefficients only, present or
      missing ones, lead to the same levels, energies, frequencies, names,
      aliases, links and warnings, and the same calls fail with the same
      exceptions, but for state_lifetime and compute_branching_ratios. *)
  Theorem C156_spectators : forall i B os os', map strip os = map strip os' ->
    let s := run N muB orc (init N i B) os in let s' := run N muB orc (init N i B) os' in
    (forall a, lv s' a = lv s a) /\ (forall a, energy N muB s' a = energy N muB s a) /\ (forall t, freq N muB s' t = freq N muB s t) /\
    (forall o o', strip o = strip o' -> ~ reads o -> fst (run_op N muB orc o' s') = fst (run_op N muB orc o s)) /\
    (forall key, fst (levels_get N key s') = fst (levels_get N key s)) /\
    (forall n, fst (levels_get_int N muB n s') = fst (levels_get_int N muB n s)) /\
    (forall key, fst (transitions_get N muB key s') = fst (transitions_get N muB key s)) /\
    (forall key, fst (linked_levels N muB 3 key s') = fst (linked_levels N muB 3 key s)) /\
    (forall kd, graph_of kd s' = graph_of kd s) /\ s_lal s' = s_lal s /\ s_tal s' = s_tal s /\ s_warn s' = s_warn s /\
    (forall t, option_map (fun x => (x_up x, x_lo x, x_set x, x_alias x, x_allowed x, x_subs x)) (tr s' t) =
      option_map (fun x => (x_up x, x_lo x, x_set x, x_alias x, x_allowed x, x_subs x)) (tr s t)).
  Proof.
    intros i B os os' H s s'. assert (E : bare s = bare s') by (now apply run_A). clearbody s s'.
    assert (P : forall X (f : st N -> X), (forall s, f (bare s) = f s) -> f s' = f s) by (intros X f Hf; now rewrite <- (Hf s), <- (Hf s'), E).
    split; [intros a; now apply (P _ (fun s => lv s a))|]. split; [intros a; now apply (P _ (fun s => energy N muB s a))|].
    split; [intros t; apply (P _ (fun s => freq N muB s t)); intros; apply freq_A|].
    split; [intros o o' Ho R; symmetry; now apply (run_op_A o o')|].
    split; [intros key; symmetry; now apply levels_get_A|]. split; [intros n; symmetry; now apply levels_get_int_A|].
    split; [intros key; symmetry; now apply transitions_get_A|]. split; [intros key; symmetry; now apply linked_A|].
    split; [intros []; [now apply (P _ s_g0)|now apply (P _ s_g1)|now apply (P _ s_g2)]|].
    split; [now apply (P _ s_lal)|]. split; [now apply (P _ s_tal)|]. split; [now apply (P _ s_warn)|].
    intros t. apply (P _ (fun s => option_map _ (tr s t))). intros s0. rewrite tr_bare. destruct (tr s0 t); reflexivity.
  Qed.
End Spectators.
Print Assumptions C156_spectators.

(** ** A coefficients times a number *)
Section Times.
  Context (muB : Qc) (orc : nat -> oracle) (r : Qc).
  Implicit Types (s : st Exact) (l : level Exact) (x : trans Exact) (a t : nat).

  Definition mag (q : Exact * funit) : Exact * funit := ((r * fst q)%Qc, snd q).
  Definition upx x : trans Exact := tr_set_A (option_map mag (x_A x)) x.
  Definition up s : st Exact := set_trans (map upx (s_trans s)) s.
  Lemma tr_up : forall s t, tr (up s) t = option_map upx (tr s t).
  Proof. intros. apply nth_error_map. Qed.

  Definition eqr {A} (m m' : M Exact A) : Prop := forall s, m' (up s) = (fst (m s), up (snd (m s))).
  Lemma eqr_bind {A B} : forall (m m' : M Exact A) (f f' : A -> M Exact B), eqr m m' -> (forall v, eqr (f v) (f' v)) -> eqr (bind m f) (bind m' f').
  Proof. intros m m' f f' Hm Hf s. unfold bind. rewrite Hm. destruct (m s) as [[v|e] s1]; cbn [fst snd]; [apply Hf|reflexivity]. Qed.
  Lemma eqr_ret {A} : forall v : A, eqr (ret v) (ret v).
  Proof. intros v s. reflexivity. Qed.
  Lemma eqr_raise {A} : forall e, eqr (@raise Exact A e) (raise e).
  Proof. intros e s. reflexivity. Qed.
  Lemma eqr_modify : forall f f' : st Exact -> st Exact, (forall s, f' (up s) = up (f s)) -> eqr (modify f) (modify f').
  Proof. intros f f' H s. unfold modify. cbn [fst snd]. now rewrite H. Qed.
  Lemma eqr_asks {A} : forall e (f f' : st Exact -> option A), (forall s, f' (up s) = f s) -> eqr (asks e f) (asks e f').
  Proof. intros e f f' H s. unfold asks. rewrite H. destruct (f s); reflexivity. Qed.
  Lemma eqr_gets {A} : forall (f f' : st Exact -> A), (forall s, f' (up s) = f s) -> eqr (gets f) (gets f').
  Proof. intros f f' H s. unfold gets. now rewrite H. Qed.
  Lemma eqr_forM {A} : forall (f f' : A -> M Exact unit) (ls : list A), (forall v, eqr (f v) (f' v)) -> eqr (forM ls f) (forM ls f').
  Proof. intros f f' ls H. induction ls as [|v ls IH]; cbn [forM]; [apply eqr_ret|]. apply eqr_bind; auto. Qed.
  Lemma eqr_tr {C} : forall t (g g' : trans Exact -> M Exact C), (forall x, eqr (g x) (g' (upx x))) -> eqr (bind (get_tr t) g) (bind (get_tr t) g').
  Proof. intros t g g' H s. unfold bind, get_tr, asks. rewrite tr_up. destruct (tr s t) as [x|]; cbn [option_map fst snd]; [apply H|reflexivity]. Qed.
  Lemma upd_tr_up : forall a f f' s, (forall x, f' (upx x) = upx (f x)) -> upd_tr a f' (up s) = up (upd_tr a f s).
  Proof. intros a f f' s H. unfold upd_tr, up. cbn [set_trans s_trans]. rewrite (upd_map upx f f'); auto. Qed.
  Lemma set_graph_up : forall kd g s, set_graph kd g (up s) = up (set_graph kd g s).
  Proof. intros [] g s; reflexivity. Qed.
  Lemma graph_up : forall kd s, graph_of kd (up s) = graph_of kd s.
  Proof. intros [] s; reflexivity. Qed.
  Ltac pj := repeat match goal with
    | |- context [x_kind (upx ?x)] => change (x_kind (upx x)) with (x_kind x)
    | |- context [x_parent (upx ?x)] => change (x_parent (upx x)) with (x_parent x)
    | |- context [x_E1 (upx ?x)] => change (x_E1 (upx x)) with (x_E1 x)
    | |- context [x_E2 (upx ?x)] => change (x_E2 (upx x)) with (x_E2 x)
    | |- context [x_up (upx ?x)] => change (x_up (upx x)) with (x_up x)
    | |- context [x_lo (upx ?x)] => change (x_lo (upx x)) with (x_lo x)
    | |- context [x_attached (upx ?x)] => change (x_attached (upx x)) with (x_attached x)
    | |- context [x_alias (upx ?x)] => change (x_alias (upx x)) with (x_alias x)
    | |- context [x_allowed (upx ?x)] => change (x_allowed (upx x)) with (x_allowed x)
    | |- context [x_set (upx ?x)] => change (x_set (upx x)) with (x_set x)
    | |- context [x_subs (upx ?x)] => change (x_subs (upx x)) with (x_subs x)
    end.
  Ltac simp := lazymatch goal with
    | |- eqr (bind (get_tr _) _) _ => apply eqr_tr; intro; pj
    | |- eqr (bind _ _) _ => apply eqr_bind; [|intro]
    | |- eqr (ret _) _ => apply eqr_ret
    | |- eqr (raise _) _ => apply eqr_raise
    | |- eqr (forM _ _) _ => apply eqr_forM; intro
    | |- eqr (get_lv _) _ => apply eqr_asks; reflexivity
    | |- eqr (asks _ _) _ => apply eqr_asks; intro; try reflexivity
    | |- eqr (gets _) _ => apply eqr_gets; intro; try reflexivity
    | |- eqr (modify (upd_tr _ _)) _ => apply eqr_modify; intro; apply upd_tr_up; intro; try reflexivity
    | |- eqr (modify _) _ => apply eqr_modify; intro; try reflexivity
    | |- eqr (match ?v with _ => _ end) _ => destruct v
    end.
  Ltac go := repeat simp.

  Lemma new_level_R : forall ts E A B C g al b, eqr (new_level Exact ts E A B C g al b) (new_level Exact ts E A B C g al b).
  Proof. intros. unfold new_level. go. Qed.
  Lemma populate_sublevels_R : forall a, eqr (populate_sublevels Exact a) (populate_sublevels Exact a).
  Proof. intros. unfold populate_sublevels. go. Qed.
  Lemma add_node_R : forall a, eqr (add_node Exact a) (add_node Exact a).
  Proof. intros. unfold add_node. go; rewrite graph_up; apply set_graph_up. Qed.
  Lemma lazy_sublevels_R : forall a, eqr (lazy_sublevels Exact a) (lazy_sublevels Exact a).
  Proof. intros. unfold lazy_sublevels. go; auto using populate_sublevels_R, add_node_R. Qed.
  Lemma sublevels_R : forall a, eqr (sublevels Exact a) (sublevels Exact a).
  Proof. intros. unfold sublevels. go; auto using lazy_sublevels_R. Qed.
  Lemma lv_getitem_R : forall fuel a key, eqr (lv_getitem Exact fuel a key) (lv_getitem Exact fuel a key).
  Proof. induction fuel as [|fuel IH]; intros; cbn [lv_getitem]; go; auto using lazy_sublevels_R. Qed.
  Lemma getitem_R : forall a key, eqr (getitem Exact a key) (getitem Exact a key).
  Proof. intros. apply lv_getitem_R. Qed.
  Lemma set_alias_R : forall a al, eqr (set_alias Exact a al) (set_alias Exact a al).
  Proof. intros. unfold set_alias. go. Qed.
  Lemma lv_add_to_atom_R : forall fuel a, eqr (lv_add_to_atom Exact fuel a) (lv_add_to_atom Exact fuel a).
  Proof. induction fuel as [|fuel IH]; intros; cbn [lv_add_to_atom]; go; auto using add_node_R. Qed.
  Lemma add_level_R : forall a p al, eqr (add_level Exact a p al) (add_level Exact a p al).
  Proof. intros. unfold add_level. go; auto using lv_add_to_atom_R, set_alias_R, populate_sublevels_R, sublevels_R. Qed.
  Lemma del_level_R : forall key, eqr (del_level Exact key) (del_level Exact key).
  Proof. intros key s. unfold del_level. change (s_g0 (up s)) with (s_g0 s). destruct (g_remove_node key (s_g0 s)); reflexivity. Qed.
  Lemma levels_get_R : forall key, eqr (levels_get Exact key) (levels_get Exact key).
  Proof. intros. unfold levels_get, node. go; auto using getitem_R. Qed.
  Lemma with_energy_R : forall s ls, with_energy Exact muB (up s) ls = with_energy Exact muB s ls.
  Proof. intros s ls. induction ls as [|a ls IH]; cbn [with_energy]; auto. now rewrite IH. Qed.
  Lemma levels_get_int_R : forall i, eqr (levels_get_int Exact muB i) (levels_get_int Exact muB i).
  Proof. intros. unfold levels_get_int. go; unfold by_energy; change (s_g0 (up s)) with (s_g0 s); now rewrite with_energy_R. Qed.
  Lemma add_edge_R : forall t, eqr (add_edge Exact t) (add_edge Exact t).
  Proof. intros. unfold add_edge. go; rewrite graph_up; apply set_graph_up. Qed.
  Lemma new_trans_R : forall kd p e1 e2 f A rel ty al, eqr (new_trans Exact muB kd p e1 e2 f A rel ty al) (new_trans Exact muB kd p e1 e2 f (option_map mag A) rel ty al).
  Proof.
    intros. unfold new_trans. do 3 (simp; [simp|]). simp.
    - apply eqr_gets; intros s; change (s_trans (up s)) with (map upx (s_trans s)); now rewrite map_length.
    - simp; [|go; auto using add_edge_R]. apply eqr_modify. intros s. unfold up. cbn [set_trans s_trans]. now rewrite map_app.
  Qed.
  Lemma to_Hz_mag : forall q, mag (to_Hz Exact q) = to_Hz Exact (mag q).
  Proof. intros [v u]. unfold mag, to_Hz. cbn [fst snd]. apply f_equal2; auto. cbn [nmul Exact]. assert (Al : forall v w : Qc, (r * (v * w) = r * v * w)%Qc) by (intros; ring). apply Al. Qed.
  Lemma scale_mag : forall c q, mag (scale_A Exact c q) = scale_A Exact c (mag q).
  Proof. intros c [v u]. unfold mag, scale_A. cbn [fst snd]. apply f_equal2; auto. cbn [nmul Exact]. assert (Al : forall v w : Qc, (r * (v * w) = r * v * w)%Qc) by (intros; ring). apply Al. Qed.
  Lemma opt_mag : forall (h : Exact * funit -> Exact * funit) A, (forall q, mag (h q) = h (mag q)) -> option_map h (option_map mag A) = option_map mag (option_map h A).
  Proof. intros h [q|] H; cbn; auto. now rewrite H. Qed.
  Lemma new_transition_R : forall e1 e2 f A al, eqr (new_transition Exact muB e1 e2 f A al) (new_transition Exact muB e1 e2 f (option_map mag A) al).
  Proof. intros. unfold new_transition. go. rewrite (opt_mag (to_Hz Exact)) by (apply to_Hz_mag). apply new_trans_R. Qed.
  Lemma new_HF_R : forall t a b, eqr (new_HF Exact muB t a b) (new_HF Exact muB t a b).
  Proof. intros. unfold new_HF. simp. do 7 (simp; [simp|]). cbv zeta. change (x_A (upx x)) with (option_map mag (x_A x)). rewrite opt_mag by (intros; apply scale_mag). destruct (x_A x); apply new_trans_R. Qed.
  Lemma new_Z_R : forall t a b, eqr (new_Z Exact muB t a b) (new_Z Exact muB t a b).
  Proof. intros. unfold new_Z. simp. do 6 (simp; [simp|]). cbv zeta. change (x_A (upx x)) with (option_map mag (x_A x)). rewrite opt_mag by (intros; apply scale_mag). destruct (x_A x); apply new_trans_R. Qed.
  Lemma new_sub_R : forall t ab, eqr (new_sub Exact muB t ab) (new_sub Exact muB t ab).
  Proof. intros. unfold new_sub. go; auto using new_HF_R, new_Z_R. Qed.
  Lemma populate_sub_R : forall t, eqr (populate_subtransitions Exact muB t) (populate_subtransitions Exact muB t).
  Proof. intros. unfold populate_subtransitions. go; auto using sublevels_R, new_sub_R. Qed.
  Lemma tr_add_R : forall t, eqr (tr_add_to_atom Exact t) (tr_add_to_atom Exact t).
  Proof. intros. unfold tr_add_to_atom. go; auto using add_edge_R. Qed.
  Lemma tr_join_R : forall b t, eqr (tr_join Exact b t) (tr_join Exact b t).
  Proof. intros. unfold tr_join. go; auto using tr_add_R. Qed.
  Lemma lazy_subtr_R : forall t, eqr (lazy_subtransitions Exact muB t) (lazy_subtransitions Exact muB t).
  Proof. intros. unfold lazy_subtransitions. go; auto using sublevels_R, populate_sub_R, tr_join_R. Qed.
  Lemma subtransitions_R : forall t, eqr (subtransitions Exact muB t) (subtransitions Exact muB t).
  Proof. intros. unfold subtransitions. go; auto using lazy_subtr_R. Qed.
  Lemma tr_getitem_R : forall t key, eqr (tr_getitem Exact muB t key) (tr_getitem Exact muB t key).
  Proof. intros. unfold tr_getitem. go; auto using lazy_subtr_R. Qed.
  Lemma tr_alias_R : forall t al, eqr (tr_alias Exact t al) (tr_alias Exact t al).
  Proof. intros. unfold tr_alias. go. Qed.

  Lemma is_set_R : forall s t, is_set (up s) t = is_set s t.
  Proof. intros. unfold is_set. rewrite tr_up. destruct (tr s t); reflexivity. Qed.
  Lemma set_nbrs_R : forall s u, set_nbrs (up s) u = set_nbrs s u.
  Proof. intros. unfold set_nbrs. change (s_g0 (up s)) with (s_g0 s). apply f_equal. apply filter_ext. intros vt. apply is_set_R. Qed.
  Lemma set_nodes_R : forall s, set_nodes (up s) = set_nodes s.
  Proof. intros. unfold set_nodes. change (s_g0 (up s)) with (s_g0 s). apply filter_ext. intros u. now rewrite set_nbrs_R. Qed.
  Lemma touched_R : forall s cc from, touched (up s) cc from = touched s cc from.
  Proof. intros s cc [[u v]|]; auto. unfold touched. now rewrite set_nbrs_R. Qed.
  Lemma lowest_R : forall s ns cur, lowest Exact muB (up s) ns cur = lowest Exact muB s ns cur.
  Proof.
    intros s ns. induction ns as [|n ns IH]; intros cur; cbn [lowest]; auto. change (s_g0 (up s)) with (s_g0 s).
    destruct cur as [[[a|] key]|]; auto. destruct (match dget n (g_nodes (s_g0 s)) with Some o => o | None => None end) as [b|]; auto.
    change (energy Exact muB (up s)) with (energy Exact muB s). destruct (energy Exact muB s b), (energy Exact muB s a); auto.
  Qed.
  Lemma enforce_edge_R : forall uv, eqr (enforce_edge Exact uv) (enforce_edge Exact uv).
  Proof. intros. unfold enforce_edge, set_energyE. go. Qed.
  Lemma enforce_comp_R : forall o fuel cc, eqr (enforce_comp Exact muB o fuel cc) (enforce_comp Exact muB o fuel cc).
  Proof.
    intros. unfold enforce_comp. go; auto using enforce_edge_R, lowest_R;
    unfold dfs_edges; (erewrite dfs_ext; [reflexivity|]); intros u; cbn beta; now rewrite set_nbrs_R.
  Qed.
  Lemma enforce_R : forall from, eqr (enforce Exact muB orc from) (enforce Exact muB orc from).
  Proof.
    intros. unfold enforce. go; auto using enforce_comp_R, touched_R; rewrite set_nodes_R; auto; apply components_ext; intros u; apply set_nbrs_R.
  Qed.
  Lemma set_freqT_R : forall t f, eqr (set_freqT Exact muB orc t f) (set_freqT Exact muB orc t f).
  Proof. intros. unfold set_freqT. go; auto using enforce_R. Qed.
  Lemma freq_R : forall s t, freq Exact muB (up s) t = freq Exact muB s t.
  Proof. intros. unfold freq. rewrite tr_up. destruct (tr s t); reflexivity. Qed.
  Lemma set_freqHF_R : forall t f, eqr (set_freqHF Exact muB orc t f) (set_freqHF Exact muB orc t f).
  Proof. intros. unfold set_freqHF. go; auto using set_freqT_R, freq_R. Qed.
  Lemma set_freqZ_R : forall t f, eqr (set_freqZ Exact muB orc t f) (set_freqZ Exact muB orc t f).
  Proof. intros. unfold set_freqZ. go; auto using set_freqHF_R, freq_R. Qed.
  Lemma set_frequency_R : forall t f, eqr (set_frequency Exact muB orc t f) (set_frequency Exact muB orc t f).
  Proof. intros. unfold set_frequency. go; auto using set_freqT_R, set_freqHF_R, set_freqZ_R. Qed.
  Lemma set_energy_R : forall a v, eqr (set_energy Exact muB a v) (set_energy Exact muB a v).
  Proof. intros. unfold set_energy, set_energyZ, set_energyHF, set_energyE. go. Qed.
  Lemma levels_get_key_R : forall key, eqr (levels_get_key Exact muB key) (levels_get_key Exact muB key).
  Proof. intros [key|i]; cbn [levels_get_key]; auto using levels_get_R, levels_get_int_R. Qed.
  Lemma transitions_get_R : forall key, eqr (transitions_get Exact muB key) (transitions_get Exact muB key).
  Proof. intros. unfold transitions_get, edge_at, node. go; auto using tr_getitem_R, levels_get_key_R. Qed.
  Lemma transitions_get_str_R : forall key, eqr (transitions_get_str Exact muB key) (transitions_get_str Exact muB key).
  Proof. intros. unfold transitions_get_str. go; auto using levels_get_R, transitions_get_R. Qed.
  Lemma add_transition_R : forall sp f A al, eqr (add_transition Exact muB orc sp f A al) (add_transition Exact muB orc sp f (option_map mag A) al).
  Proof. intros. unfold add_transition. go; auto using transitions_get_R, levels_get_R, new_transition_R, tr_add_R, enforce_R. Qed.
  Lemma linked_R : forall fuel key, eqr (linked_levels Exact muB fuel key) (linked_levels Exact muB fuel key).
  Proof. induction fuel as [|fuel IH]; intros; cbn [linked_levels]; go; auto using levels_get_R, populate_sub_R. Qed.
  Lemma level_pairs_R : forall s d, level_pairs Exact (up s) d = level_pairs Exact s d.
  Proof. reflexivity. Qed.
  Lemma populate_transitions_R : forall al, eqr (populate_transitions Exact muB al) (populate_transitions Exact muB al).
  Proof. intros. unfold populate_transitions, populate_pair. go; auto using transitions_get_R. Qed.
  Lemma populate_internal_R : eqr (populate_internal Exact muB) (populate_internal Exact muB).
  Proof. unfold populate_internal. go; auto using tr_add_R. apply new_transition_R with (A := None). Qed.


  (** The same use of the interface with [r] times the A coefficients. *)
  Definition times_A (o : op Exact) : op Exact :=
    match o with
    | ONewTransition _ e1 e2 f A al => ONewTransition Exact e1 e2 f (option_map mag A) al
    | OAddTransition _ sp f A al => OAddTransition Exact sp f (option_map mag A) al
    | OSetA _ t A => OSetA Exact t (option_map mag A)
    | _ => o
    end.
  Definition on_Ok {A B} (h : A -> B) (v : res A) : res B := match v with Ok w => Ok (h w) | Raise e => Raise e end.
  Lemma sum_A_R : forall s a ts tot, sum_A Exact (up s) a ts (r * tot)%Qc = on_Ok (fun w => (r * w)%Qc) (sum_A Exact s a ts tot).
  Proof.
    intros s a ts. induction ts as [|t ts IH]; intros tot; cbn [sum_A]; auto. rewrite tr_up. destruct (tr s t) as [x|]; auto. cbn [option_map]. pj.
    destruct (Nat.eqb (x_up x) a); [|apply IH]. change (x_A (upx x)) with (option_map mag (x_A x)). destruct (x_A x) as [q|]; auto. cbn [option_map].
    rewrite <- to_Hz_mag. rewrite <- IH. apply (f_equal (sum_A Exact (up s) a ts)). cbn [mag fst nadd Exact].
    assert (Al : forall v w : Qc, (r * v + r * w = r * (v + w))%Qc) by (intros; ring). apply Al.
  Qed.
  Lemma total_rate_R : forall key s, total_rate Exact muB key (up s) = (on_Ok (fun w => (r * w)%Qc) (fst (total_rate Exact muB key s)), up (snd (total_rate Exact muB key s))).
  Proof.
    intros key s. unfold total_rate, bind. rewrite linked_R. destruct (linked_levels Exact muB 3 key s) as [[d|e] s1]; cbn [fst snd]; auto.
    rewrite levels_get_R. destruct (levels_get Exact key s1) as [[a|e] s2]; cbn [fst snd]; auto.
    replace (nofQ Exact 0) with ((r * 0)%Qc : Exact) at 1 by (cbn [nofQ Exact]; change (Q2Qc 0) with 0%Qc; assert (Al : (r * 0 = 0)%Qc) by ring; exact Al). now rewrite sum_A_R.
  Qed.
  Lemma A_coeffs_R : forall s key d, A_coeffs Exact (up s) key d = on_Ok (map (fun nq => (fst nq, option_map mag (snd nq)))) (A_coeffs Exact s key d).
  Proof.
    intros s key d. induction d as [|[n t] d IH]; cbn [A_coeffs]; auto. rewrite tr_up. destruct (tr s t) as [x|]; auto. cbn [option_map]. pj.
    change (nm (up s)) with (nm s). destruct (nm s (x_up x)) as [u|]; auto. rewrite IH. destruct (A_coeffs Exact s key d) as [c|e]; auto. cbn [on_Ok rbind].
    destruct (String.eqb u key); reflexivity.
  Qed.
  Lemma magnitudes_R : forall c, magnitudes Exact (map (fun nq => (fst nq, option_map mag (snd nq))) c) = on_Ok (map (fun nv => (fst nv, (r * snd nv)%Qc))) (magnitudes Exact c).
  Proof.
    induction c as [|[n [q|]] c IH]; cbn [map magnitudes fst snd option_map]; auto. rewrite IH. destruct (magnitudes Exact c); reflexivity.
  Qed.
  Lemma sumN_R : forall (ls : list Qc) v, fold_left Qcplus (map (Qcmult r) ls) (r * v)%Qc = (r * fold_left Qcplus ls v)%Qc.
  Proof. induction ls as [|w ls IH]; intros v; cbn [map fold_left]; auto. rewrite <- IH. f_equal. ring. Qed.
  Lemma branching_R : r <> 0%Qc -> forall key, eqr (branching Exact muB key) (branching Exact muB key).
  Proof.
    intros R0 key. unfold branching. simp; [apply linked_R|]. intros s. cbn [fst snd]. apply f_equal2; auto. rewrite A_coeffs_R.
    destruct (A_coeffs Exact s key v) as [c|e]; auto. cbn [on_Ok rbind]. rewrite magnitudes_R. destruct (magnitudes Exact c) as [m|e]; auto. cbn [on_Ok rbind].
    apply f_equal. rewrite map_map. cbn [fst snd].
    assert (S : sumN Exact (dvals (map (fun nv : string * Exact => (fst nv, (r * snd nv)%Qc)) m)) = (r * sumN Exact (dvals m))%Qc).
    { unfold sumN, dvals. rewrite map_map. cbn [snd nadd nofQ Exact]. rewrite <- (map_map snd (Qcmult r)). change (Q2Qc 0) with 0%Qc.
      replace 0%Qc with (r * 0)%Qc at 1 by ring. apply sumN_R. }
    assert (Al : forall w T : Qc, ((r * w) / (r * T) = w / T)%Qc).
    { intros w0 T0. destruct (Qc_eq_dec T0 0) as [->|D]; [|field; auto]. replace (r * 0)%Qc with 0%Qc by ring. unfold Qcdiv. change (/ 0)%Qc with 0%Qc. ring. }
    apply map_ext. intros [n w]. cbn [fst snd ndiv Exact]. apply f_equal.
    transitivity ((r * w) / (r * sumN Exact (dvals m)))%Qc; [exact (f_equal (Qcdiv (r * w)%Qc) S)|apply Al].
  Qed.
  Lemma run_op_R : r <> 0%Qc -> forall o, eqr (run_op Exact muB orc o) (run_op Exact muB orc (times_A o)).
  Proof.
    assert (V : forall A (m m' : M Exact A), eqr m m' -> eqr (void Exact m) (void Exact m')) by (intros; unfold void; apply eqr_bind; auto; intros; apply eqr_ret).
    intros R0 []; cbn [run_op times_A]; try (lazymatch goal with |- eqr (void _ (total_rate _ _ _)) _ => fail | |- _ => apply V end); auto using new_level_R, add_level_R, del_level_R, levels_get_R, levels_get_int_R, getitem_R, sublevels_R,
      set_alias_R, set_energy_R, new_transition_R, add_transition_R, transitions_get_R, transitions_get_str_R, tr_getitem_R, subtransitions_R, tr_alias_R,
      set_frequency_R, enforce_R, linked_R, branching_R, populate_transitions_R, populate_internal_R; try simp.
    intros s. unfold void, bind. rewrite total_rate_R. destruct (total_rate Exact muB key s) as [[w|e] s1]; reflexivity.
  Qed.
  Lemma run_R : r <> 0%Qc -> forall os s, run Exact muB orc (up s) (map times_A os) = up (run Exact muB orc s os).
  Proof.
    intros R0 os. induction os as [|o os IH]; intros s; auto. unfold run in *. cbn [map fold_left]. rewrite <- IH. f_equal. unfold step. now rewrite run_op_R.
  Qed.
End Times.

(** All A coefficients times one number: total rates are multiplied by it,
    branching ratios stay. *)
Theorem C156_scaled : forall muB orc (r : Qc), r <> 0%Qc -> forall i B os,
  let s := run Exact muB orc (init Exact i B) os in let s' := run Exact muB orc (init Exact i B) (map (times_A r) os) in
  (forall t, option_map (@x_A Exact) (tr s' t) = option_map (fun x : trans Exact => option_map (fun q : Exact * funit => ((r * fst q)%Qc, snd q)) (x_A x)) (tr s t)) /\
  (forall key, fst (total_rate Exact muB key s') = match fst (total_rate Exact muB key s) with Ok w => Ok (r * w)%Qc | Raise e => Raise e end) /\
  (forall key, fst (branching Exact muB key s') = fst (branching Exact muB key s)) /\
  (forall o, fst (run_op Exact muB orc (times_A r o) s') = fst (run_op Exact muB orc o s)) /\
  (forall a, energy Exact muB s' a = energy Exact muB s a) /\ (forall t, freq Exact muB s' t = freq Exact muB s t).
Proof.
  intros muB orc r R i B os s s'. assert (E : s' = up r s) by exact (run_R muB orc r R os (init Exact i B)). rewrite E. clearbody s. clear E s'.
  split; [intros t; rewrite tr_up; destruct (tr s t); reflexivity|]. split; [intros key; now rewrite total_rate_R|].
  split; [intros key; now rewrite (branching_R muB r R)|]. split; [intros o; now rewrite (run_op_R muB orc r R)|]. split; [reflexivity|].
  intros t. apply freq_R.
Qed.
Print Assumptions C156_scaled.

(** Two decays with A coefficients, in different units, of a level with
    sublevels; twice and without them. *)
Definition decaying (u v : option (Exact * funit)) : list (op Exact) :=
  os_two ++ [nl tQ 20; add 2; ONewTransition Exact 2 0 None u None; OSetHf Exact 2 (Q2Qc 4) 0 0; OAddTransition Exact (TNames "6p 2P*1/2" "6p 2P*3/2") None v None;
    OLifetime Exact "6p 2P*3/2 F=1"; OSetFreq Exact 0 (Q2Qc 25)].
Example C156_case :
  map (strip Exact) (decaying None None) = map (strip Exact) (decaying (Some (Q2Qc 1, uHz)) (Some (Q2Qc 1, ukHz))) /\
  Q2Qc 2 <> 0%Qc /\ map (times_A (Q2Qc 2)) (decaying (Some (Q2Qc 1, uHz)) (Some (Q2Qc 1, ukHz))) = decaying (Some (Q2Qc 2, uHz)) (Some (Q2Qc 2, ukHz)) /\
  fst (total_rate Exact 1%Qc "6p 2P*3/2" (runx (from 1) (decaying (Some (Q2Qc 1, uHz)) (Some (Q2Qc 1, ukHz))))) = Ok (Q2Qc 1001) /\
  fst (total_rate Exact 1%Qc "6p 2P*3/2" (runx (from 1) (decaying (Some (Q2Qc 2, uHz)) (Some (Q2Qc 2, ukHz))))) = Ok (Q2Qc 2002) /\
  fst (total_rate Exact 1%Qc "6p 2P*3/2" (runx (from 1) (decaying None None))) = Raise TypeError /\
  map (freq Exact 1%Qc (runx (from 1) (decaying None None))) [0; 1; 2]%nat = map (freq Exact 1%Qc (runx (from 1) (decaying (Some (Q2Qc 2, uHz)) None))) [0; 1; 2]%nat.
Proof.
  split; [reflexivity|]. split; [discriminate|]. split; [vm_compute; reflexivity|]. do 3 (split; [vm_compute; reflexivity|]). vm_compute; reflexivity.
Qed.
