(** C162: the gross structure is the same for all isotopes and fields. *)
From Coq Require Import List Bool ZArith QArith Qcanon Lia String Ascii.
From Verif Require Import Base Num PyStr Util UtilProofs Regex Parse Term TermProofs Hyperfine HyperfineProofs Graph GraphProofs Rules StrengthSums Atom AtomInv AtomSafe AtomSafe2 AtomSafe3 AtomSafe4 AtomSafe5 AtomSafe6 AtomLevels AtomKeep AtomAlias AtomPaths AtomTrans AtomEnergy AtomDecay AtomExample Views PropViews PropDecay PropFloat.
Import ListNotations.
Local Open Scope list_scope.

Section Gross.
  Context (N : Num) (muB : num N) (orc : nat -> oracle).
  Implicit Types (s : st N) (l : level N) (x : trans N) (a t : nat).
  Local Notation zero := (nofQ N 0).

  (** A level with other hyperfine constants, g-values and quadratic shift. *)
  Definition put_l (A B C g gF q : N) l : level N :=
    mkLevel N (l_kind l) (l_parent l) (l_term l) (l_attached l) (l_alias l) (l_fixed l) (l_subs l) (l_E l) A B C g gF q.
  (** The state without these, without field and nuclear spin. *)
  Definition bare_l l : level N := put_l zero zero zero zero zero zero l.
  Definition rough s : st N := mkSt N (map bare_l (s_levels s)) (s_trans s) (s_g0 s) (s_g1 s) (s_g2 s) (s_lal s) (s_tal s) 0 zero (s_warn s) (s_tick s).
  Lemma bare_put_l : forall l l', bare_l l = bare_l l' -> l' = put_l (l_hfA l') (l_hfB l') (l_hfC l') (l_lande l') (l_gF l') (l_qz l') l.
  Proof. intros [] [] H. unfold bare_l, put_l in *. cbn in *. injection H as -> -> -> -> -> -> -> ->. reflexivity. Qed.
  Lemma lv_rough : forall s a, lv (rough s) a = option_map bare_l (lv s a).
  Proof. intros. apply nth_error_map. Qed.

  (** There are no sublevels and no lines between such. *)
  Definition coarse_l l : Prop := l_kind l = LE /\ l_parent l = None.
  Definition coarse s : Prop := Forall coarse_l (s_levels s) /\ Forall (fun x => x_kind x = TT) (s_trans s).
  Lemma coarse_rough : forall s, coarse (rough s) <-> coarse s.
  Proof.
    intros s. unfold coarse. cbn [rough s_levels s_trans]. rewrite Forall_map. reflexivity.
  Qed.
  Lemma coarse_eq : forall s s', rough s = rough s' -> coarse s -> coarse s'.
  Proof. intros s s' E H. apply coarse_rough. rewrite <- E. now apply coarse_rough. Qed.
  Lemma coarse_lv : forall s a l, coarse s -> lv s a = Some l -> coarse_l l.
  Proof. intros s a l [H _] V. unfold lv in V. apply nth_error_In in V. rewrite Forall_forall in H. auto. Qed.

  (** *** Computations that do the same *)
  Definition eqv {A} (m m' : M N A) : Prop := forall s s', rough s = rough s' -> coarse s ->
    fst (m s) = fst (m' s') /\ rough (snd (m s)) = rough (snd (m' s')) /\ coarse (snd (m s)).
  Lemma eqv_bind {A B} : forall (m m' : M N A) (f f' : A -> M N B), eqv m m' -> (forall r, eqv (f r) (f' r)) -> eqv (bind m f) (bind m' f').
  Proof.
    intros m m' f f' Hm Hf s s' H C. unfold bind. specialize (Hm s s' H C). destruct (m s) as [r1 s1], (m' s') as [r2 s2]. cbn [fst snd] in Hm. destruct Hm as [<- [Hs C1]].
    destruct r1; [apply Hf; auto|auto].
  Qed.
  Lemma eqv_ret {A} : forall r : A, eqv (ret r) (ret r).
  Proof. intros r s s' H C. auto. Qed.
  Lemma eqv_raise {A} : forall e, eqv (@raise N A e) (raise e).
  Proof. intros e s s' H C. auto. Qed.
  Lemma eqv_asks {A} : forall e (f : st N -> option A), (forall s, coarse s -> f (rough s) = f s) -> eqv (asks e f) (asks e f).
  Proof.
    intros e f H s s' E C. unfold asks. rewrite <- (H s C), <- (H s' (coarse_eq _ _ E C)), E. destruct (f (rough s')); auto.
  Qed.
  Lemma eqv_gets {A} : forall (f : st N -> A), (forall s, coarse s -> f (rough s) = f s) -> eqv (gets f) (gets f).
  Proof. intros f H s s' E C. unfold gets. cbn [fst snd]. rewrite <- (H s C), <- (H s' (coarse_eq _ _ E C)), E. auto. Qed.
  Lemma eqv_modify : forall f : st N -> st N, (forall s, rough (f (rough s)) = rough (f s)) -> (forall s, coarse s -> coarse (f s)) -> eqv (modify f) (modify f).
  Proof. intros f H1 H2 s s' E C. unfold modify. cbn [fst snd]. split; auto. split; auto. rewrite <- (H1 s), <- (H1 s'). now rewrite E. Qed.
  Lemma eqv_forM {A} : forall (f f' : A -> M N unit) (ls : list A), (forall r, eqv (f r) (f' r)) -> eqv (forM ls f) (forM ls f').
  Proof. intros f f' ls H. induction ls as [|r ls IH]; cbn [forM]; [apply eqv_ret|]. apply eqv_bind; auto. Qed.
  Lemma eqv_lv {C} : forall a (g g' : level N -> M N C), (forall l, coarse_l l -> forall A B C g0 gF q, eqv (g l) (g' (put_l A B C g0 gF q l))) ->
    eqv (bind (get_lv a) g) (bind (get_lv a) g').
  Proof.
    intros a g g' H s s' E Cs. unfold bind, get_lv, asks. pose proof (lv_rough s a) as T1. pose proof (lv_rough s' a) as T2. rewrite E in T1. rewrite T1 in T2.
    destruct (lv s a) as [l|] eqn:V, (lv s' a) as [l'|] eqn:V'; try discriminate T2; [|auto].
    cbn [option_map] in T2. assert (B : bare_l l = bare_l l') by congruence. apply bare_put_l in B. rewrite B. apply H; auto. exact (coarse_lv s a l Cs V).
  Qed.
  Lemma eqv_tr {C} : forall t (g g' : trans N -> M N C), (forall x, x_kind x = TT -> eqv (g x) (g' x)) -> eqv (bind (get_tr t) g) (bind (get_tr t) g').
  Proof.
    intros t g g' H s s' E Cs. unfold bind, get_tr, asks. assert (T : tr s' t = tr s t) by (change (tr (rough s') t = tr (rough s) t); now rewrite E). rewrite T.
    destruct (tr s t) as [x|] eqn:V; [|auto]. apply H; auto. destruct Cs as [_ Cs]. rewrite Forall_forall in Cs. apply Cs. unfold tr in V. now apply nth_error_In in V.
  Qed.

  (** *** Updates *)
  Lemma upd_map {A} : forall (h f : A -> A) n (l0 : list A), (forall r, h (f (h r)) = h (f r)) -> (forall r, h (h r) = h r) -> map h (upd n f (map h l0)) = map h (upd n f l0).
  Proof.
    intros h f n l0 H Hh. assert (M : forall ys : list A, map h (map h ys) = map h ys) by (intros; rewrite map_map; now apply map_ext).
    revert n. induction l0 as [|r l0 IH]; intros [|n]; cbn [upd map]; auto; [now rewrite H, M|now rewrite Hh, IH].
  Qed.
  Lemma upd_Forall {A} : forall (P : A -> Prop) (f : A -> A) n (l0 : list A), (forall r, P r -> P (f r)) -> Forall P l0 -> Forall P (upd n f l0).
  Proof. intros P f n l0 H F. revert n. induction F; intros [|n]; cbn [upd]; constructor; auto. Qed.
  Lemma eqv_upd_lv : forall a (f : level N -> level N), (forall l, bare_l (f (bare_l l)) = bare_l (f l)) -> (forall l, coarse_l l -> coarse_l (f l)) ->
    eqv (modify (upd_lv a f)) (modify (upd_lv a f)).
  Proof.
    intros a f H1 H2. apply eqv_modify.
    - intros s. unfold upd_lv, rough. cbn [set_levels s_levels s_trans s_g0 s_g1 s_g2 s_lal s_tal s_warn s_tick]. rewrite upd_map; auto.
    - intros s [C1 C2]. split; cbn [upd_lv set_levels s_levels s_trans]; auto. now apply upd_Forall.
  Qed.
  Lemma eqv_upd_tr : forall a (f : trans N -> trans N), (forall x, x_kind (f x) = x_kind x) -> eqv (modify (upd_tr a f)) (modify (upd_tr a f)).
  Proof.
    intros a f H2. apply eqv_modify.
    - intros s. unfold upd_tr, rough. cbn [set_trans s_levels s_trans s_g0 s_g1 s_g2 s_lal s_tal s_warn s_tick]. rewrite map_map. reflexivity.
    - intros s [C1 C2]. split; auto. cbn [upd_tr set_trans s_trans]. apply upd_Forall; auto. intros r E. now rewrite H2.
  Qed.
  Lemma rough_rough : forall s, rough (rough s) = rough s.
  Proof. intros s. unfold rough. cbn [s_levels s_trans s_g0 s_g1 s_g2 s_lal s_tal s_warn s_tick]. now rewrite map_map. Qed.

  Lemma energyE_rough : forall s a, energyE (rough s) a = energyE s a.
  Proof. intros. unfold energyE. rewrite lv_rough. destruct (lv s a); reflexivity. Qed.
  Lemma energy_rough : forall s a, coarse s -> energy N muB (rough s) a = energy N muB s a.
  Proof.
    intros s a C. unfold energy. rewrite lv_rough, energyE_rough. destruct (lv s a) as [l|] eqn:V; auto. destruct (coarse_lv s a l C V) as [K _].
    cbn [option_map]. change (l_kind (bare_l l)) with (l_kind l). now rewrite K.
  Qed.
  Lemma nm_rough : forall s a, nm (rough s) a = nm s a.
  Proof. intros. unfold nm. rewrite lv_rough. destruct (lv s a); reflexivity. Qed.

  (** *** The interface, one function after the other *)
  Ltac pj := repeat match goal with
    | |- context [l_kind (put_l ?A ?B ?C ?g ?h ?q ?l)] => change (l_kind (put_l A B C g h q l)) with (l_kind l)
    | |- context [l_parent (put_l ?A ?B ?C ?g ?h ?q ?l)] => change (l_parent (put_l A B C g h q l)) with (l_parent l)
    | |- context [l_attached (put_l ?A ?B ?C ?g ?h ?q ?l)] => change (l_attached (put_l A B C g h q l)) with (l_attached l)
    | |- context [l_alias (put_l ?A ?B ?C ?g ?h ?q ?l)] => change (l_alias (put_l A B C g h q l)) with (l_alias l)
    | |- context [l_fixed (put_l ?A ?B ?C ?g ?h ?q ?l)] => change (l_fixed (put_l A B C g h q l)) with (l_fixed l)
    | |- context [l_subs (put_l ?A ?B ?C ?g ?h ?q ?l)] => change (l_subs (put_l A B C g h q l)) with (l_subs l)
    | |- context [l_E (put_l ?A ?B ?C ?g ?h ?q ?l)] => change (l_E (put_l A B C g h q l)) with (l_E l)
    | |- context [l_J (put_l ?A ?B ?C ?g ?h ?q ?l)] => change (l_J (put_l A B C g h q l)) with (l_J l)
    | |- context [l_parity (put_l ?A ?B ?C ?g ?h ?q ?l)] => change (l_parity (put_l A B C g h q l)) with (l_parity l)
    | |- context [lname (put_l ?A ?B ?C ?g ?h ?q ?l)] => change (lname (put_l A B C g h q l)) with (lname l)
    end.
  Ltac kinds := repeat match goal with H : l_kind ?l = LE |- context [l_kind ?l] => rewrite H | H : l_parent ?l = None |- context [l_parent ?l] => rewrite H
    | H : x_kind ?x = TT |- context [x_kind ?x] => rewrite H end.
  Ltac simp := lazymatch goal with
    | |- eqv (bind (get_lv _) _) _ => apply eqv_lv; intros ? [? ?] ? ? ? ? ? ?; pj; kinds
    | |- eqv (bind (get_tr _) _) _ => apply eqv_tr; intros ? ?; kinds
    | |- eqv (bind _ _) _ => apply eqv_bind; [|intro]
    | |- eqv (ret _) _ => apply eqv_ret
    | |- eqv (raise _) _ => apply eqv_raise
    | |- eqv (forM _ _) _ => apply eqv_forM; intro
    | |- eqv (asks _ _) _ => apply eqv_asks; intros ? ?; try reflexivity; try apply energy_rough; auto; try apply nm_rough
    | |- eqv (gets _) _ => apply eqv_gets; intros ? ?; try reflexivity
    | |- eqv (modify (upd_tr _ _)) _ => apply eqv_upd_tr; intro; try reflexivity
    | |- eqv (modify (upd_lv _ _)) _ => apply eqv_upd_lv; intros; [reflexivity|assumption]
    | |- eqv (modify _) _ => apply eqv_modify; [intro; try (unfold rough; cbn; rewrite map_map; reflexivity)|intros ? ?; try assumption]
    | |- eqv (match ?r with _ => _ end) _ => destruct r
    end.
  Ltac go := repeat simp.

  Lemma new_level_G : forall ts E A B C g A' B' C' g' al b, eqv (new_level N ts E A B C g al b) (new_level N ts E A' B' C' g' al b).
  Proof.
    intros. unfold new_level. destruct ts; [apply eqv_raise|]. destruct (forallb _ _); [|apply eqv_raise].
    apply eqv_bind; [apply eqv_gets; intros s _; cbn [rough s_levels]; now rewrite map_length|]. intros n. apply eqv_bind; [|intro; apply eqv_ret].
    intros s s' H [C1 C2]. unfold modify. cbn [fst snd]. split; auto. split.
    - assert (G : forall s0 l0, rough (set_levels (s_levels s0 ++ [l0]) s0) = set_levels (s_levels (rough s0) ++ [bare_l l0]) (rough s0)).
      { intros. unfold rough. cbn [set_levels s_levels s_trans s_g0 s_g1 s_g2 s_lal s_tal s_warn s_tick s_I s_B]. now rewrite map_app. }
      rewrite !G, H. reflexivity.
    - split; auto. cbn [set_levels s_levels]. apply Forall_app. split; auto. constructor; auto. split; reflexivity.
  Qed.
  Lemma graph_rough : forall kd s, graph_of kd (rough s) = graph_of kd s.
  Proof. intros [] s; reflexivity. Qed.
  Lemma eqv_graph : forall kd (f : graph -> graph), eqv (modify (fun s => set_graph kd (f (graph_of kd s)) s)) (modify (fun s => set_graph kd (f (graph_of kd s)) s)).
  Proof. intros kd f. apply eqv_modify; [|intros s C; now destruct kd]. intros s. destruct kd; unfold rough; cbn; rewrite map_map; reflexivity. Qed.
  Lemma add_node_G : forall a, eqv (add_node N a) (add_node N a).
  Proof. intros. unfold add_node. go. Qed.
  Lemma set_alias_G : forall a al, eqv (set_alias N a al) (set_alias N a al).
  Proof. intros. unfold set_alias. go. Qed.
  Lemma lv_add_to_atom_G : forall fuel a, eqv (lv_add_to_atom N fuel a) (lv_add_to_atom N fuel a).
  Proof. induction fuel as [|fuel IH]; intros; cbn [lv_add_to_atom]; go; auto using add_node_G. Qed.
  Lemma add_level_G : forall a al, eqv (add_level N a false al) (add_level N a false al).
  Proof. intros. unfold add_level. go; auto using lv_add_to_atom_G, set_alias_G. Qed.
  Lemma del_level_G : forall key, eqv (del_level N key) (del_level N key).
  Proof.
    intros key s s' H C. unfold del_level. assert (G : s_g0 s' = s_g0 s) by (change (s_g0 (rough s') = s_g0 (rough s)); now rewrite H). rewrite G.
    destruct (g_remove_node key (s_g0 s)) as [g|]; cbn [fst snd]; auto. split; auto. split; auto. change (set_g0 g (rough s) = set_g0 g (rough s')). now rewrite H.
  Qed.
  (** Names without an equality sign are not names of sublevels. *)
  Lemma levels_get_G : forall key, has_char "=" key = false -> eqv (levels_get N key) (levels_get N key).
  Proof.
    intros key H. unfold levels_get, node.
    assert (E : contains "mF=" key = false /\ contains "mJ=" key = false /\ contains "F=" key = false).
    { repeat split; apply not_true_is_false; intros Q; pose proof (contains_char "="%char _ _ Q eq_refl); congruence. }
    destruct E as [-> [-> ->]]. go.
  Qed.
  Lemma with_energy_G : forall s ls, coarse s -> with_energy N muB (rough s) ls = with_energy N muB s ls.
  Proof. intros s ls C. induction ls as [|a ls IH]; cbn [with_energy]; auto. now rewrite IH, energy_rough. Qed.
  Lemma levels_get_int_G : forall i, eqv (levels_get_int N muB i) (levels_get_int N muB i).
  Proof. intros. unfold levels_get_int. go. unfold by_energy. change (s_g0 (rough s)) with (s_g0 s). now rewrite with_energy_G. Qed.
  Lemma add_edge_G : forall t, eqv (add_edge N t) (add_edge N t).
  Proof. intros. unfold add_edge. go. Qed.
  Lemma append_G : forall x, x_kind x = TT -> eqv (modify (fun s => set_trans (s_trans s ++ [x]) s)) (modify (fun s => set_trans (s_trans s ++ [x]) s)).
  Proof.
    intros x K. apply eqv_modify.
    - intros s. unfold rough. cbn [set_trans s_levels s_trans s_g0 s_g1 s_g2 s_lal s_tal s_warn s_tick]. now rewrite map_map.
    - intros s [C1 C2]. split; auto. cbn [set_trans s_trans]. apply Forall_app. auto.
  Qed.
  Lemma new_trans_G : forall p e1 e2 f A rel ty al, eqv (new_trans N muB TT p e1 e2 f A rel ty al) (new_trans N muB TT p e1 e2 f A rel ty al).
  Proof. intros. unfold new_trans. simp. do 3 (simp; [simp|]). simp; [now apply append_G|]. go; auto using add_edge_G. Qed.
  Lemma new_transition_G : forall e1 e2 f A al, eqv (new_transition N muB e1 e2 f A al) (new_transition N muB e1 e2 f A al).
  Proof. intros. unfold new_transition. go; auto using new_trans_G. Qed.
  Lemma tr_add_G : forall t, eqv (tr_add_to_atom N t) (tr_add_to_atom N t).
  Proof. intros. unfold tr_add_to_atom. go; auto using add_edge_G. Qed.
  Lemma tr_alias_G : forall t al, eqv (tr_alias N t al) (tr_alias N t al).
  Proof. intros. unfold tr_alias. go. Qed.
  Lemma set_energy_G : forall a v, eqv (set_energy N muB a v) (set_energy N muB a v).
  Proof. intros. unfold set_energy, set_energyE. go. Qed.

  Lemma lowest_G : forall s ns cur, coarse s -> lowest N muB (rough s) ns cur = lowest N muB s ns cur.
  Proof.
    intros s ns cur C. revert cur. induction ns as [|n ns IH]; intros cur; cbn [lowest]; auto. change (s_g0 (rough s)) with (s_g0 s).
    destruct cur as [[[a|] key]|]; auto. destruct (match dget n (g_nodes (s_g0 s)) with Some o => o | None => None end) as [b|]; auto.
    rewrite !energy_rough by auto. destruct (energy N muB s b), (energy N muB s a); auto.
  Qed.
  Lemma enforce_edge_G : forall uv, eqv (enforce_edge N uv) (enforce_edge N uv).
  Proof. intros. unfold enforce_edge, set_energyE. go; apply energyE_rough. Qed.
  Lemma enforce_comp_G : forall o fuel cc, eqv (enforce_comp N muB o fuel cc) (enforce_comp N muB o fuel cc).
  Proof. intros. unfold enforce_comp. go; auto using enforce_edge_G, lowest_G. Qed.
  Lemma enforce_G : forall from, eqv (enforce N muB orc from) (enforce N muB orc from).
  Proof. intros. unfold enforce. go; auto using enforce_comp_G. Qed.
  Lemma set_freqT_G : forall t f, eqv (set_freqT N muB orc t f) (set_freqT N muB orc t f).
  Proof. intros. unfold set_freqT. go; auto using enforce_G. Qed.
  Lemma set_frequency_G : forall t f, eqv (set_frequency N muB orc t f) (set_frequency N muB orc t f).
  Proof. intros. unfold set_frequency. go; auto using set_freqT_G. Qed.
  Definition plain_key (k : lkey) : Prop := match k with KS key => has_char "=" key = false | KI _ => True end.
  Lemma levels_get_key_G : forall k, plain_key k -> eqv (levels_get_key N muB k) (levels_get_key N muB k).
  Proof. intros [key|i] H; cbn [levels_get_key]; auto using levels_get_G, levels_get_int_G. Qed.
  Lemma no_eq : forall key, has_char "=" key = false -> contains "mF=" key = false /\ contains "mJ=" key = false /\ contains "F=" key = false.
  Proof. intros key H. repeat split; apply not_true_is_false; intros Q; pose proof (contains_char "="%char _ _ Q eq_refl); congruence. Qed.
  Lemma transitions_get_G : forall k, plain_key (fst k) -> plain_key (snd k) -> eqv (transitions_get N muB k) (transitions_get N muB k).
  Proof.
    intros [k0 k1] H0 H1. unfold transitions_get, edge_at. cbn [fst snd] in *. apply eqv_bind; [now apply levels_get_key_G|]. intros a.
    apply eqv_bind; [simp|]. intros ea. apply eqv_bind; [now apply levels_get_key_G|]. intros b. apply eqv_bind; [simp|]. intros eb. cbv zeta.
    destruct k0 as [k0|]; [|apply eqv_raise]. destruct (no_eq k0 H0) as [-> [-> ->]]. destruct (nltb N eb ea); destruct k1; go.
  Qed.
  Lemma transitions_get_str_G : forall key, has_char "=" key = false -> eqv (transitions_get_str N muB key) (transitions_get_str N muB key).
  Proof.
    intros key H. unfold transitions_get_str. simp; [simp|]. simp; [simp|]. destruct key as [|c [|d key]]; [apply eqv_raise| |].
    - apply eqv_bind; [now apply levels_get_G|intro; apply eqv_raise].
    - cbn [has_char] in H. apply orb_false_iff in H as [Hc H]. apply orb_false_iff in H as [Hd _].
      apply transitions_get_G; cbn [fst snd plain_key has_char]; now rewrite orb_false_r.
  Qed.
  Definition plain_spec (sp : tspec) : Prop := match sp with TNames a b => has_char "=" a = false /\ has_char "=" b = false | _ => True end.
  Lemma add_transition_G : forall sp f A al, plain_spec sp -> eqv (add_transition N muB orc sp f A al) (add_transition N muB orc sp f A al).
  Proof.
    intros sp f A al H. unfold add_transition. apply eqv_bind.
    - destruct sp as [t|a b|a b]; [apply eqv_ret| |apply new_transition_G]. destruct H as [Ha Hb]. simp; [simp|].
      go; auto using levels_get_G, new_transition_G. now apply transitions_get_G.
    - intros t. go; auto using tr_add_G, enforce_G.
  Qed.
  Lemma linked_G : forall fuel key, has_char "=" key = false -> eqv (linked_levels N muB fuel key) (linked_levels N muB fuel key).
  Proof. intros [|fuel] key H; cbn [linked_levels]; [apply eqv_raise|]. apply eqv_bind; [now apply levels_get_G|]. intros a. go. Qed.
  Lemma sum_A_G : forall s a ts tot, sum_A N (rough s) a ts tot = sum_A N s a ts tot.
  Proof. intros s a ts. induction ts as [|t ts IH]; intros tot; cbn [sum_A]; auto. change (tr (rough s) t) with (tr s t). destruct (tr s t) as [x|]; auto. destruct (Nat.eqb _ _), (x_A x); auto. Qed.
  Lemma A_coeffs_G : forall s key d, A_coeffs N (rough s) key d = A_coeffs N s key d.
  Proof.
    intros s key d. induction d as [|[n t] d IH]; cbn [A_coeffs]; auto. change (tr (rough s) t) with (tr s t). destruct (tr s t) as [x|]; auto.
    rewrite nm_rough. destruct (nm s (x_up x)); auto. now rewrite IH.
  Qed.
  Lemma eqv_read {A} : forall f : st N -> res A, (forall s, f (rough s) = f s) -> eqv (fun s => (f s, s)) (fun s => (f s, s)).
  Proof. intros f H s s' E C. cbn [fst snd]. split; [|auto]. now rewrite <- (H s), <- (H s'), E. Qed.
  Lemma total_rate_G : forall key, has_char "=" key = false -> eqv (total_rate N muB key) (total_rate N muB key).
  Proof.
    intros key H. unfold total_rate. apply eqv_bind; [now apply linked_G|]. intros d. apply eqv_bind; [now apply levels_get_G|]. intros a.
    apply eqv_read. intros s. apply sum_A_G.
  Qed.
  Lemma branching_G : forall key, has_char "=" key = false -> eqv (branching N muB key) (branching N muB key).
  Proof.
    intros key H. unfold branching. apply eqv_bind; [now apply linked_G|]. intros d. apply eqv_read. intros s. now rewrite A_coeffs_G.
  Qed.
  Lemma populate_internal_G : eqv (populate_internal N muB) (populate_internal N muB).
  Proof. unfold populate_internal. go; auto using tr_add_G, new_transition_G. Qed.
  Lemma void_G {A} : forall (m m' : M N A), eqv m m' -> eqv (void N m) (void N m').
  Proof. intros. unfold void. apply eqv_bind; auto. intros. apply eqv_ret. Qed.

  (** *** Histories *)

  (** A use of the interface that does not ask for sublevels and lines between
      them: no name in it has an equality sign.  (populate_transitions, which
      makes such names itself, is left out; see C50.) *)
  Definition gross_op (o : op N) : Prop :=
    match o with
    | OAddLevel _ _ p _ => p = false
    | OLevel _ key | OTransitionStr _ key | OLinked _ key | OLifetime _ key | OBranching _ key => has_char "=" key = false
    | OTransition _ k => plain_key (fst k) /\ plain_key (snd k)
    | OAddTransition _ sp _ _ _ => plain_spec sp
    | OItem _ _ _ | OSublevels _ _ | OSubItem _ _ _ | OSubtransitions _ _ | OPopulate _ _ => False
    | _ => True
    end.
  (** The uses that set a parameter of the finer structure, and the others
      without such parameters. *)
  Definition gross (o : op N) : list (op N) :=
    match o with
    | OSetHf _ _ _ _ _ | OSetLande _ _ _ | OSetQz _ _ _ | OSetB _ _ => []
    | ONewLevel _ ts E _ _ _ _ al b => [ONewLevel N ts E zero zero zero zero al b]
    | _ => [o]
    end.
  Lemma set_param : forall a f s, (forall l, bare_l (f l) = bare_l l) -> rough (upd_lv a f s) = rough s.
  Proof.
    intros a f s H. unfold rough, upd_lv. cbn [set_levels s_levels s_trans s_g0 s_g1 s_g2 s_lal s_tal s_warn s_tick]. f_equal.
    generalize (s_levels s). intros ls. revert a. induction ls as [|l0 ls IH]; intros [|a]; cbn [upd map]; auto; [now rewrite H|now rewrite IH].
  Qed.
  Lemma run_op_G : forall o, gross_op o -> match gross o with
      | [] => forall s, fst (run_op N muB orc o s) = Ok tt /\ rough (snd (run_op N muB orc o s)) = rough s
      | o' :: _ => eqv (run_op N muB orc o) (run_op N muB orc o')
      end.
  Proof.
    intros o H. destruct o; cbn [gross_op] in H; try contradiction; cbn [gross run_op]; try apply void_G;
      auto using new_level_G, add_level_G, del_level_G, levels_get_G, levels_get_int_G, set_alias_G, set_energy_G, new_transition_G, add_transition_G, transitions_get_str_G, tr_alias_G,
        set_frequency_G, enforce_G, linked_G, total_rate_G, branching_G, populate_internal_G.
    - subst. apply add_level_G.
    - intros s. split; auto. now apply set_param.
    - intros s. split; auto. now apply set_param.
    - intros s. split; auto. now apply set_param.
    - exact (transitions_get_G k (proj1 H) (proj2 H)).
    - go.
  Qed.
  Lemma run_G : forall os s s0, Forall gross_op os -> rough s = rough s0 -> coarse s ->
    rough (run N muB orc s os) = rough (run N muB orc s0 (flat_map gross os)) /\ coarse (run N muB orc s os).
  Proof.
    intros os s s0 F. revert s s0. induction F as [|o os H F IH]; intros s s0 E C; [auto|]. cbn [flat_map run fold_left]. unfold run. rewrite fold_left_app.
    pose proof (run_op_G o H) as Q. apply IH; destruct (gross o) as [|o' [|? ?]] eqn:G; cbn [fold_left]; unfold step.
    - now rewrite (proj2 (Q s)).
    - now apply Q.
    - destruct o; discriminate G.
    - apply (coarse_eq s); auto. symmetry. apply Q.
    - now apply (Q s s0).
    - destruct o; discriminate G.
  Qed.

  (** C162.  Two histories that agree but for hyperfine constants, g-values,
      quadratic shifts and fields, set at any time and any number of times, of
      atoms of any two nuclear spins, make the same levels and transitions at
      the same energies and frequencies with the same constraints, and every
      further use has the same result. *)
  Theorem C162_gross : forall i i' B B' os os', Forall gross_op os -> Forall gross_op os' -> flat_map gross os = flat_map gross os' ->
    let s := run N muB orc (init N i B) os in let s' := run N muB orc (init N i' B') os' in
    (forall a, energy N muB s' a = energy N muB s a) /\ (forall t, freq N muB s' t = freq N muB s t) /\
    (forall a, option_map (fun l => (l_term l, l_attached l, l_alias l, l_fixed l)) (lv s' a) = option_map (fun l => (l_term l, l_attached l, l_alias l, l_fixed l)) (lv s a)) /\
    (forall t, tr s' t = tr s t) /\ (forall kd, graph_of kd s' = graph_of kd s) /\ s_lal s' = s_lal s /\ s_tal s' = s_tal s /\ s_warn s' = s_warn s /\
    (forall o, gross_op o -> fst (run_op N muB orc o s') = fst (run_op N muB orc o s)) /\
    (forall key, has_char "=" key = false -> fst (levels_get N key s') = fst (levels_get N key s)) /\
    (forall n, fst (levels_get_int N muB n s') = fst (levels_get_int N muB n s)) /\
    (forall key, has_char "=" key = false -> fst (total_rate N muB key s') = fst (total_rate N muB key s) /\ fst (branching N muB key s') = fst (branching N muB key s)).
  Proof.
    intros i i' B B' os os' F F' E s s'.
    assert (C0 : forall j D, coarse (init N j D)) by (intros; split; constructor).
    destruct (run_G os (init N i B) (init N i B) F eq_refl (C0 i B)) as [R C]. destruct (run_G os' (init N i' B') (init N i B) F' eq_refl (C0 i' B')) as [R' C'].
    fold s in R, C. fold s' in R', C'. assert (H : rough s = rough s') by congruence. clearbody s s'.
    assert (P : forall X (f : st N -> X), (forall s, coarse s -> f (rough s) = f s) -> f s' = f s) by (intros X f Hf; now rewrite <- (Hf s C), <- (Hf s' C'), H).
    split; [intros a; apply (P _ (fun s => energy N muB s a)); intros; now apply energy_rough|].
    split; [intros t; apply (P _ (fun s => freq N muB s t)); intros; unfold freq; change (tr (rough s0) t) with (tr s0 t); destruct (tr s0 t); auto; now rewrite !energy_rough|].
    split; [intros a; apply (P _ (fun s => option_map _ (lv s a))); intros s0 _; rewrite lv_rough; destruct (lv s0 a); reflexivity|].
    split; [intros t; now apply (P _ (fun s => tr s t))|]. split; [intros kd; apply (P _ (graph_of kd)); intros; apply graph_rough|].
    split; [now apply (P _ s_lal)|]. split; [now apply (P _ s_tal)|]. split; [now apply (P _ s_warn)|].
    split; [|split; [intros; symmetry; now apply levels_get_G|split; [intros; symmetry; now apply levels_get_int_G|]]].
    - intros o Ho. pose proof (run_op_G o Ho) as Q. destruct (gross o) as [|o' ?].
      + now rewrite (proj1 (Q s)), (proj1 (Q s')).
      + assert (Z : rough s = rough s) by auto. destruct (Q s s' H C) as [Q1 _]. destruct (Q s' s' eq_refl C') as [Q2 _]. congruence.
    - intros key K. split; symmetry; [now apply total_rate_G|now apply branching_G].
  Qed.
End Gross.
Print Assumptions C162_gross.

(** Two isotopes: one without nuclear spin, and one with constants, g-values and
    a field set here and there; three levels and two constraints. *)
Definition spinless : list (op Exact) :=
  os_two ++ [nl tQ 20; add 2; ONewTransition Exact 2 0 None (Some (Q2Qc 1, uMHz)) None; OAddTransition Exact (TNames "6s 2S1/2" "6p 2P*1/2") (Some (Q2Qc 13)) None None;
    OSetFreq Exact 0 (Q2Qc 25); OEnforce Exact; OLifetime Exact "6p 2P*3/2"].
Definition spinful : list (op Exact) :=
  OSetB Exact (Q2Qc 3) :: os_two ++ [OSetHf Exact 0 (Q2Qc 7) 0 0; ONewLevel Exact [tQ] (Q2Qc 20) (Q2Qc 9) (Q2Qc 2) 0 (Q2Qc 5) None false; add 2; ONewTransition Exact 2 0 None (Some (Q2Qc 1, uMHz)) None;
    OSetLande Exact 1 (Q2Qc 4); OAddTransition Exact (TNames "6s 2S1/2" "6p 2P*1/2") (Some (Q2Qc 13)) None None; OSetFreq Exact 0 (Q2Qc 25); OSetQz Exact 2 (Q2Qc 6); OEnforce Exact; OLifetime Exact "6p 2P*3/2"; OSetB Exact 0%Qc].
Example C162_case : Forall (gross_op Exact) spinless /\ Forall (gross_op Exact) spinful /\ flat_map (gross Exact) spinless = flat_map (gross Exact) spinful /\
  map (energy Exact 1%Qc (runx (from 0) spinless)) [0; 1; 2]%nat = [Some (Q2Qc 0); Some (Q2Qc 13); Some (Q2Qc 25)] /\
  map (energy Exact 1%Qc (runx (from 1) spinful)) [0; 1; 2]%nat = [Some (Q2Qc 0); Some (Q2Qc 13); Some (Q2Qc 25)].
Proof.
  split; [repeat constructor|]. split; [repeat constructor|]. split; [reflexivity|]. split; vm_compute; reflexivity.
Qed.
(** With sublevels it is not so: moving one to a given energy moves the level by
    what the hyperfine constants leave. *)
Example C162_sublevels : flat_map (gross Exact) (os_two ++ [OLevel Exact "6s 2S1/2 F=1"; OSetHf Exact 0 (Q2Qc 4) 0 0; OSetLevel Exact 3 (Q2Qc 5)]) =
    flat_map (gross Exact) (os_two ++ [OLevel Exact "6s 2S1/2 F=1"; OSetLevel Exact 3 (Q2Qc 5)]) /\
  energy Exact 1%Qc (runx (from 1) (os_two ++ [OLevel Exact "6s 2S1/2 F=1"; OSetHf Exact 0 (Q2Qc 4) 0 0; OSetLevel Exact 3 (Q2Qc 5)])) 0 <>
  energy Exact 1%Qc (runx (from 1) (os_two ++ [OLevel Exact "6s 2S1/2 F=1"; OSetLevel Exact 3 (Q2Qc 5)])) 0.
Proof. split; [vm_compute; reflexivity|]. vm_compute. discriminate. Qed.
