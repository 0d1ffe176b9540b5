(** Level lookup does not read the aliases stored elsewhere; deleted levels;
    mJ keys. *)
From Coq Require Import List Bool ZArith QArith Qcanon Lia String Ascii Permutation Sorted.
From Verif Require Import Base PyStr Util UtilProofs Parse Term TermProofs Num Wigner Hyperfine HyperfineProofs
  Graph GraphProofs DfsProofs Rules Atom AtomInv AtomSafe AtomSafe2 AtomSafe3 AtomSafe4 AtomSafe5 AtomSafe6 AtomLevels AtomKeep AtomPaths AtomHist.
Import ListNotations.

Lemma before_filter : forall p u v l, p u = true -> p v = true -> (before u v (filter p l) <-> before u v l).
Proof.
  intros p u v l Hu Hv. induction l as [|x l IH]; simpl; [tauto|]. destruct (p x) eqn:E; simpl; rewrite ?IH; [tauto|].
  assert (x <> u) by congruence. assert (x <> v) by congruence. tauto.
Qed.

Section Alias.
  Context (N : Num) (muB : N).
  Notation st := (st N).
  Notation level := (level N).
  Notation trans := (trans N).
  Notation M := (M N).
  Implicit Types (s : st) (l : level) (x y : trans) (a : nat) (t : nat).

  (** Equal but for aliases of levels. *)
  Definition lunal l l' : Prop := l' = lv_set_alias (l_alias l') l.
  Record unal s s' : Prop := mk_unal {
    un_lv : Forall2 lunal (s_levels s) (s_levels s');
    un_rest : s' = set_lal (s_lal s') (set_levels (s_levels s') s)
  }.
  Definition simr {A} (Rv : A -> A -> Prop) (m m' : M A) : Prop := forall s s', unal s s' ->
    unal (snd (m s)) (snd (m' s')) /\
    match fst (m s), fst (m' s') with Ok v, Ok v' => Rv v v' | Raise e, Raise e' => e = e' | _, _ => False end.

  Lemma sim_bind {A B} : forall (Rv : A -> A -> Prop) (Rw : B -> B -> Prop) m m' k k', simr Rv m m' ->
    (forall v v', Rv v v' -> simr Rw (k v) (k' v')) -> simr Rw (bind m k) (bind m' k').
  Proof.
    intros Rv Rw m m' k k' H1 H2 s s' U. unfold bind. destruct (H1 s s' U) as [U1 H].
    destruct (m s) as [[v|e] s1], (m' s') as [[v'|e'] s1']; cbn [fst snd] in *; try contradiction.
    - apply H2; auto.
    - subst. auto.
  Qed.
  Lemma sim_ret {A} : forall (Rv : A -> A -> Prop) v v', Rv v v' -> simr Rv (ret v) (ret v').
  Proof. intros Rv v v' H s s' U. simpl. auto. Qed.
  Lemma sim_raise {A} : forall (Rv : A -> A -> Prop) e, simr Rv (raise e) (raise e).
  Proof. intros Rv e s s' U. simpl. auto. Qed.
  Lemma sim_asks {A} : forall (Rv : A -> A -> Prop) e f f', (forall s s', unal s s' ->
    match f s, f' s' with Some v, Some v' => Rv v v' | None, None => True | _, _ => False end) -> simr Rv (asks e f) (asks e f').
  Proof. intros Rv e f f' H s s' U. unfold asks. specialize (H s s' U). destruct (f s), (f' s'); simpl; auto; contradiction. Qed.
  Lemma sim_gets {A} : forall (Rv : A -> A -> Prop) f f', (forall s s', unal s s' -> Rv (f s) (f' s')) -> simr Rv (gets f) (gets f').
  Proof. intros Rv f f' H s s' U. unfold gets. simpl. auto. Qed.
  Lemma sim_modify : forall f f', (forall s s', unal s s' -> unal (f s) (f' s')) -> simr eq (modify f) (modify f').
  Proof. intros f f' H s s' U. unfold modify. simpl. auto. Qed.
  Lemma sim_forM {A} : forall (vs : list A) f f', (forall v, simr eq (f v) (f' v)) -> simr eq (forM vs f) (forM vs f').
  Proof.
    intros vs f f' H. induction vs as [|v vs IH]; simpl; [now apply sim_ret|].
    eapply sim_bind; [apply H|]. intros _ _ _. exact IH.
  Qed.

  Lemma un_get : forall s s' a, unal s s' -> match lv s a, lv s' a with Some l, Some l' => lunal l l' | None, None => True | _, _ => False end.
  Proof.
    intros s s' a U. unfold lv. generalize (un_lv _ _ U). generalize (s_levels s) (s_levels s'). intros ls ls' F. revert a.
    induction F; intros [|a]; simpl; auto. apply IHF.
  Qed.
  Lemma un_eq {A} : forall (f : st -> A) s s', unal s s' -> (forall d ls, f (set_lal d (set_levels ls s)) = f s) -> f s' = f s.
  Proof. intros f s s' U H. rewrite (un_rest _ _ U). apply H. Qed.

  Lemma sim_get_lv : forall a, simr lunal (get_lv a) (get_lv a).
  Proof. intros a. apply sim_asks. intros s s' U. now apply un_get. Qed.

  Local Ltac unr U := let E := fresh in pose proof (un_rest _ _ U) as E; match type of E with ?s' = set_lal _ (set_levels _ ?s) => clear - E; destruct s, s' end;
    unfold set_lal, set_levels in E; cbn in E; injection E; intros; subst; reflexivity.

  Lemma un_upd : forall s s' a f, unal s s' -> (forall l l', lunal l l' -> lunal (f l) (f l')) -> unal (upd_lv a f s) (upd_lv a f s').
  Proof.
    intros s s' a f U H. constructor.
    - cbn. pose proof (un_lv _ _ U) as F. revert a. induction F; intros [|a]; simpl; auto.
    - unr U.
  Qed.
  Lemma un_app : forall s s' new new', unal s s' -> Forall2 lunal new new' ->
    unal (set_levels (s_levels s ++ new) s) (set_levels (s_levels s' ++ new') s').
  Proof.
    intros s s' new new' U F. constructor.
    - cbn. apply Forall2_app; auto. apply U.
    - unr U.
  Qed.
  Lemma un_graph : forall s s' k g, unal s s' -> unal (set_graph k (g (graph_of k s)) s) (set_graph k (g (graph_of k s')) s').
  Proof.
    intros s s' k g U. constructor.
    - destruct k; apply U.
    - destruct k; unr U.
  Qed.

  Lemma lunal_fields : forall l l', lunal l l' -> l_kind l' = l_kind l /\ l_parent l' = l_parent l /\ l_term l' = l_term l /\
    l_attached l' = l_attached l /\ l_subs l' = l_subs l /\ l_lande l' = l_lande l /\ lname l' = lname l /\ l_J l' = l_J l /\ l_F l' = l_F l.
  Proof. intros l l' H. rewrite H. repeat split. Qed.
  Lemma lunal_refl : forall l, lunal l l.
  Proof. intros []. reflexivity. Qed.
  Lemma Forall2_refl_map {A} : forall (f g : A -> level) (r : list A), (forall z, lunal (f z) (g z)) -> Forall2 lunal (map f r) (map g r).
  Proof. induction r; simpl; auto. Qed.

  Lemma un_install : forall s s' a keys new new', unal s s' -> Forall2 lunal new new' ->
    unal (install a keys new s) (install a keys new' s').
  Proof.
    intros s s' a keys new new' U F. unfold install.
    rewrite <- (Forall2_len _ _ _ F), <- (Forall2_len _ _ _ (un_lv _ _ U)). apply un_upd; [now apply un_app|].
    intros l l' H. destruct (lunal_fields _ _ H) as [_ [_ [_ [_ [-> _]]]]]. rewrite H. destruct l; reflexivity.
  Qed.

  Lemma un_I : forall s s', unal s s' -> s_I s' = s_I s.
  Proof. intros s s' U. apply (un_eq s_I _ _ U). reflexivity. Qed.

  Lemma sim_pure {A} : forall e (o : option A), simr eq (asks e (fun _ : st => o)) (asks e (fun _ => o)).
  Proof. intros e o. apply sim_asks. intros s s' _. destruct o; auto. Qed.

  Lemma sim_populate : forall a, simr eq (populate_sublevels N a) (populate_sublevels N a).
  Proof.
    intros a. unfold populate_sublevels. eapply sim_bind; [apply sim_get_lv|]. intros l l' H.
    destruct (lunal_fields _ _ H) as [-> [-> [T [-> [_ [Ln [_ [EJ EF]]]]]]]]. destruct (l_kind l).
    - destruct (l_attached l); [|now apply sim_ret]. rewrite EJ. eapply sim_bind; [apply sim_pure|]. intros j _ <-.
      apply sim_modify. intros s s' U. rewrite (un_I _ _ U). apply un_install; auto. apply Forall2_refl_map. intros z.
      unfold mkHF. rewrite T, Ln, (un_I _ _ U). apply lunal_refl.
    - eapply sim_bind; [apply sim_pure|]. intros p _ <-. eapply sim_bind; [apply sim_get_lv|]. intros lm lm' Hm.
      rewrite EJ, EF. eapply sim_bind; [apply sim_pure|]. intros j _ <-. eapply sim_bind; [apply sim_pure|]. intros f _ <-.
      apply sim_modify. intros s s' U. apply un_install; auto. apply Forall2_refl_map. intros z.
      destruct (lunal_fields _ _ Hm) as [_ [_ [_ [_ [_ [Lm _]]]]]]. unfold mkZ. rewrite T, Lm, (un_I _ _ U). apply lunal_refl.
    - now apply sim_ret.
  Qed.
  Lemma sim_add_node : forall a, simr eq (add_node N a) (add_node N a).
  Proof.
    intros a. unfold add_node. eapply sim_bind; [apply sim_get_lv|]. intros l l' H.
    destruct (lunal_fields _ _ H) as [-> [_ [_ [_ [_ [_ [-> _]]]]]]]. apply sim_modify. intros s s' U. now apply un_graph.
  Qed.
  Lemma sim_lazy : forall a, simr eq (lazy_sublevels N a) (lazy_sublevels N a).
  Proof.
    intros a. unfold lazy_sublevels. eapply sim_bind; [apply sim_get_lv|]. intros l l' H.
    destruct (lunal_fields _ _ H) as [_ [_ [_ [-> [-> _]]]]]. destruct (l_subs l); [|now apply sim_ret].
    destruct (l_attached l); [|apply sim_raise]. eapply sim_bind; [apply sim_populate|]. intros _ _ _.
    eapply sim_bind; [apply sim_get_lv|]. intros l2 l2' H2. destruct (lunal_fields _ _ H2) as [_ [_ [_ [_ [-> _]]]]].
    apply sim_forM. apply sim_add_node.
  Qed.
  Lemma sim_getitem : forall fuel a key, simr eq (lv_getitem N fuel a key) (lv_getitem N fuel a key).
  Proof.
    induction fuel as [|fuel IH]; intros a key; cbn [lv_getitem]; [apply sim_raise|].
    eapply sim_bind; [apply sim_lazy|]. intros _ _ _. eapply sim_bind; [apply sim_get_lv|]. intros l l' H.
    eapply sim_bind; [apply (sim_gets eq); intros s s' U; symmetry; now apply un_I|]. intros i _ <-.
    destruct (lunal_fields _ _ H) as [_ [_ [_ [_ [-> [_ [_ [-> _]]]]]]]].
    destruct ((i =? 0)%Z && contains "mJ" key).
    - eapply sim_bind; [apply sim_pure|]. intros b _ <-. apply IH.
    - apply sim_pure.
  Qed.
  Lemma sim_node : forall key, simr eq (node N key) (node N key).
  Proof.
    intros key. apply sim_asks. intros s s' U. rewrite (un_eq (fun z => dget key (node_attrs (s_g0 z))) _ _ U); [|reflexivity].
    destruct (dget key (node_attrs (s_g0 s))); auto.
  Qed.

  (** Lookups agree on every key bound alike. *)
  Lemma unal_levels_get : forall s s' key, unal s s' -> dget key (s_lal s') = dget key (s_lal s) ->
    fst (levels_get N key s') = fst (levels_get N key s).
  Proof.
    intros s s' key U E. unfold levels_get. rewrite (bind_Ok _ (gets (fun z : st => dget key (s_lal z))) _ s' _ _ eq_refl), (bind_Ok _ (gets (fun z : st => dget key (s_lal z))) _ s _ _ eq_refl), E.
    destruct (dget key (s_lal s)) as [a|]; [reflexivity|].
    match goal with |- fst (?m s') = fst (?m s) => assert (H : simr eq m m) end.
    { destruct (contains "mF=" key).
      - eapply sim_bind; [apply sim_pure|]. intros p _ <-. eapply sim_bind; [apply sim_node|]. intros b _ <-.
        eapply sim_bind; [apply sim_getitem|]. intros c _ <-. apply sim_getitem.
      - destruct (contains "mJ=" key).
        + eapply sim_bind; [apply sim_pure|]. intros p _ <-. eapply sim_bind; [apply sim_node|]. intros b _ <-.
          eapply sim_bind; [apply sim_get_lv|]. intros l l' H. destruct (lunal_fields _ _ H) as [_ [_ [_ [_ [_ [_ [_ [-> _]]]]]]]].
          eapply sim_bind; [apply sim_getitem|]. intros c _ <-. apply sim_getitem.
        + destruct (contains "F=" key); [|apply sim_node].
          eapply sim_bind; [apply sim_pure|]. intros p _ <-. eapply sim_bind; [apply sim_node|]. intros b _ <-. apply sim_getitem. }
    destruct (H s s' U) as [_ H']. match goal with |- fst (?m s') = fst (?m s) => destruct (fst (m s)), (fst (m s')); congruence || contradiction end.
  Qed.

  Lemma unal_alias : forall s a al d, unal s (set_lal d (upd_lv a (lv_set_alias al) s)).
  Proof.
    intros s a al d. constructor; [|destruct s; reflexivity]. cbn. generalize (s_levels s). intros ls. revert a.
    induction ls as [|l ls IH]; intros [|a]; simpl; constructor; auto; try (destruct l; reflexivity).
    clear. induction ls as [|l' ls IH]; constructor; auto. destruct l'; reflexivity.
  Qed.

  (** What [x.alias = al] leaves alone. *)
  Lemma alias_frame : forall s a l al key, WF s -> lv s a = Some l -> l_attached l = true -> key <> al ->
    fst (levels_get N key (snd (set_alias N a al s))) = fst (levels_get N key s).
  Proof.
    intros s a l al key W V A Hk. destruct (set_alias_spec _ s a l al W V A) as [s' [E [_ [_ E']]]]. rewrite E. cbn [snd].
    subst s'. apply unal_levels_get; [apply unal_alias|]. cbn. rewrite dget_dset, keqb_neq; auto.
  Qed.

  (** ** Keys with mJ *)

  Lemma mJ_lookup : forall s n a l j m, WF s -> dget n (node_attrs (s_g0 s)) = Some a -> lv s a = Some l -> l_J l = Some j ->
    has_char "=" n = false -> dget (n ++ " mJ=" ++ half_label m)%string (s_lal s) = None ->
    (exists c, fst (levels_get N (n ++ " mJ=" ++ half_label m) s) = Ok c /\ tri j (s_I s) j = true /\ In m (mF_range j)) \/
    (fst (levels_get N (n ++ " mJ=" ++ half_label m) s) = Raise KeyError /\ ~ (tri j (s_I s) j = true /\ In m (mF_range j))).
  Proof.
    intros s n a l j m W Hn V Ej He Hal. rewrite (get_mJ _ s n a l m Hn V He Hal). rewrite Ej.
    change ("F=" ++ frac (Some j))%string with (F_key j).
    pose proof (wf_g _ _ W LE) as [_ Hnodes _]. pose proof Hn as Hn0.
    rewrite node_attrs_get in Hn0 by apply (wf_g _ _ W LE). destruct (dget n (g_nodes (s_g0 s))) as [o|] eqn:Eo; [|discriminate]. subst o.
    destruct (Hnodes n a Eo) as [l0 [V0 [K [_ A]]]]. rewrite V in V0. injection V0 as <-.
    destruct (wf_J _ _ _ _ W V) as [j' [Ej' Hj]]. rewrite Ej in Ej'. injection Ej' as <-. pose proof (wf_I _ _ W) as HI.
    destruct (items _ s a l W V A) as [la [s1 [E1 [W1 [L1 [V1 [S1 [F1 G1]]]]]]]].
    pose proof S1 as [K1 _]. assert (I1 : s_I s1 = s_I s) by (apply L1).
    assert (R1 : sub_range s1 la = F_range j (s_I s)) by (rewrite (lsame_range _ _ _ _ _ I1 S1); unfold sub_range; now rewrite K, Ej).
    assert (Gj : getitem N a (F_key j) s = (match dget (F_key j) (l_subs la) with Some b => Ok b | None => Raise KeyError end, s1)).
    { apply G1. rewrite (no_mJ LE j : contains "mJ" (F_key j) = false). apply andb_false_r. }
    destruct (tri j (s_I s) j) eqn:T.
    - destruct (full_key _ s1 a la j F1) as [b [Db Cb]]; [rewrite R1; now apply F_range_In|].
      rewrite K1, K in Db. cbn [sub_key] in Db. rewrite Db in Gj.
      unfold bind. rewrite Gj. destruct (child_level _ _ _ _ _ _ W1 Cb) as [lb [Vb [Ab [Kb [_ Pb]]]]]. rewrite K1, K in Kb. cbn [sub_kind] in Kb.
      destruct (child_numbers _ s1 a la j b lb W1 V1 Cb Vb) as [Nb _]. rewrite K1, K in Nb. destruct Nb as [Fb _].
      destruct (items _ s1 b lb W1 Vb Ab) as [lb2 [s2 [E2 [W2 [L2 [Vb2 [S2 [F2 G2]]]]]]]].
      pose proof S2 as [K2 _]. assert (I2 : s_I s2 = s_I s1) by (apply L2).
      assert (R2 : sub_range s2 lb2 = mF_range j) by (rewrite (lsame_range _ _ _ _ _ I2 S2); unfold sub_range; now rewrite Kb, Fb).
      rewrite G2; [|rewrite (no_mJ LHF m : contains "mJ" (mF_key m) = false); apply andb_false_r].
      destruct (in_dec Z.eq_dec m (mF_range j)) as [I|I].
      + destruct (full_key _ s2 b lb2 m F2) as [c [Dc _]]; [now rewrite R2|]. rewrite K2, Kb in Dc. cbn [sub_key] in Dc. rewrite Dc.
        left. exists c. auto.
      + right. split; [|tauto]. rewrite (full_other _ s2 b lb2 _ F2); auto. rewrite R2, K2, Kb. intros z Iz E. cbn [sub_key] in E.
        apply mF_key_inj in E. congruence.
    - right. split; [|intros [? _]; discriminate]. unfold bind. rewrite Gj. rewrite (full_other _ s1 a la _ F1); auto.
      rewrite R1, K1, K. intros z Iz E. cbn [sub_key] in E. apply F_key_inj in E. subst z. apply F_range_In in Iz; auto. congruence.
  Qed.

  (** level['mJ=m'] with a nuclear spin *)
  Lemma mJ_item : forall s a l m, WF s -> lv s a = Some l -> l_attached l = true -> s_I s <> 0%Z ->
    fst (getitem N a ("mJ=" ++ half_label m) s) = Raise KeyError.
  Proof.
    intros s a l m W V A HI. destruct (items _ s a l W V A) as [la [s1 [E1 [W1 [L1 [V1 [S1 [F1 G1]]]]]]]].
    rewrite G1; [|apply Z.eqb_neq in HI; now rewrite HI]. rewrite (full_other _ s1 a la _ F1); auto.
    intros z _ E. pose proof (no_J (l_kind la) z) as H. rewrite <- E in H. discriminate.
  Qed.

  (** ** Deleted levels *)

  Lemma getitem_kind : forall s a l key b s', WF s -> lv s a = Some l -> getitem N a key s = (Ok b, s') ->
    WF s' /\ lookl s s' /\ exists lb, lv s' b = Some lb /\ l_attached lb = true /\ l_kind lb <> LE.
  Proof.
    intros s a l key b s' W V E. destruct (safe_Ok _ _ _ _ _ _ _ (getitem_safe _ 3 s a l key W V (depth_le _)) E) as [W' [L' [H _]]]. auto.
  Qed.

  Lemma node_inv : forall s key a, WF s -> dget key (node_attrs (s_g0 s)) = Some a ->
    exists l, lv s a = Some l /\ l_kind l = LE /\ lname l = key /\ l_attached l = true.
  Proof.
    intros s key a W E. pose proof (wf_g _ _ W LE) as [_ Hnodes _].
    rewrite node_attrs_get in E by apply (wf_g _ _ W LE). destruct (dget key (g_nodes (s_g0 s))) as [o|] eqn:Eo; [|discriminate]. subst o.
    destruct (Hnodes _ _ Eo) as [l H]. eauto.
  Qed.

  (** A key that is no alias gives a fine-structure level only if the level is in the atom, under its name. *)
  Lemma get_fine : forall s key a l s', WF s -> dget key (s_lal s) = None -> levels_get N key s = (Ok a, s') -> lv s a = Some l -> l_kind l = LE ->
    dget (lname l) (node_attrs (s_g0 s)) = Some a.
  Proof.
    intros s key a l s' W Hal E V K. unfold levels_get in E. unfold bind at 1, gets in E. rewrite Hal in E.
    assert (No : forall s1 b k, WF s1 -> lookl s s1 -> forall lb, lv s1 b = Some lb -> getitem N b k s1 = (Ok a, s') -> False).
    { intros s1 b k W1 L1 lb Vb Eb. destruct (getitem_kind _ _ _ _ _ _ W1 Vb Eb) as [W' [L' [lc [Vc [_ Kc]]]]].
      destruct (fr_lv _ _ _ (lo_frame _ _ _ (proj1 L1)) _ _ V) as [l1 [V1 E1]].
      destruct (fr_lv _ _ _ (lo_frame _ _ _ (proj1 L')) _ _ V1) as [l2 [V2 E2]]. rewrite Vc in V2. injection V2 as <-.
      apply Kc. rewrite E2, E1. exact K. }
    assert (Two : forall b lb k1 k2, lv s b = Some lb -> bind (getitem N b k1) (fun c => getitem N c k2) s = (Ok a, s') -> False).
    { intros b lb k1 k2 Vb Eb. unfold bind in Eb. destruct (getitem N b k1 s) as [[c|e] s1] eqn:E1; [|discriminate].
      destruct (getitem_kind _ _ _ _ _ _ W Vb E1) as [W1 [L1 [lc [Vc _]]]]. eapply No; eauto. }
    assert (Nd : forall k b s1, node N k s = (Ok b, s1) -> s1 = s /\ dget k (node_attrs (s_g0 s)) = Some b).
    { intros k b s1 H. unfold node, asks in H. destruct (dget k (node_attrs (s_g0 s))); [|discriminate]. injection H as -> ->. auto. }
    destruct (contains "mF=" key); [|destruct (contains "mJ=" key); [|destruct (contains "F=" key)]].
    - unfold bind at 1, asks in E. destruct (rsplit_char2 " " key) as [p|]; [|discriminate].
      unfold bind at 1 in E. destruct (node N (fst (fst p)) s) as [[b|e] s1] eqn:En; [|discriminate].
      destruct (Nd _ _ _ En) as [-> Hb]. destruct (node_inv _ _ _ W Hb) as [lb [Vb _]]. exfalso. eapply Two; eauto.
    - unfold bind at 1, asks in E. destruct (rsplit1 " mJ=" key) as [p|]; [|discriminate].
      unfold bind at 1 in E. destruct (node N (fst p) s) as [[b|e] s1] eqn:En; [|discriminate].
      destruct (Nd _ _ _ En) as [-> Hb]. destruct (node_inv _ _ _ W Hb) as [lb [Vb _]].
      unfold bind at 1, get_lv, asks in E. rewrite Vb in E. exfalso. eapply Two; eauto.
    - unfold bind at 1, asks in E. destruct (rsplit_char " " key) as [p|]; [|discriminate].
      unfold bind at 1 in E. destruct (node N (fst p) s) as [[b|e] s1] eqn:En; [|discriminate].
      destruct (Nd _ _ _ En) as [-> Hb]. destruct (node_inv _ _ _ W Hb) as [lb [Vb _]]. exfalso. eapply No; eauto. apply lookl_po.
    - destruct (Nd _ _ _ E) as [_ Hb]. destruct (node_inv _ _ _ W Hb) as [lb [Vb [_ [<- _]]]]. rewrite V in Vb. injection Vb as <-. exact Hb.
  Qed.

  Lemma del_level_eq : forall s n a, WF s -> dget n (node_attrs (s_g0 s)) = Some a ->
    exists g, g_remove_node n (s_g0 s) = Some g /\ del_level N n s = (Ok tt, set_g0 g s) /\ WF (set_g0 g s).
  Proof.
    intros s n a W E. destruct (del_level_safe _ s n W) as [W' _]. unfold del_level in *.
    unfold g_remove_node in *. assert (D : dmem n (g_nodes (s_g0 s)) = true).
    { rewrite node_attrs_get in E by apply (wf_g _ _ W LE). unfold dmem. destruct (dget n (g_nodes (s_g0 s))); [reflexivity|discriminate]. }
    rewrite D in *. eexists. split; [reflexivity|]. split; auto.
  Qed.

  (** After del levels[n]. *)
  Lemma deleted : forall s n a l, WF s -> dget n (node_attrs (s_g0 s)) = Some a -> lv s a = Some l ->
    exists s', del_level N n s = (Ok tt, s') /\ WF s' /\ s_lal s' = s_lal s /\
      (forall key, dget key (s_lal s) = None -> fst (levels_get N key s') <> Ok a) /\
      (forall f m, node N n s' = (Raise KeyError, s') /\
         (has_char "=" n = false -> dget (n ++ " F=" ++ half_label f)%string (s_lal s) = None ->
           fst (levels_get N (n ++ " F=" ++ half_label f) s') = Raise KeyError) /\
         (dget (n ++ " F=" ++ half_label f ++ " mF=" ++ half_label m)%string (s_lal s) = None ->
           fst (levels_get N (n ++ " F=" ++ half_label f ++ " mF=" ++ half_label m) s') = Raise KeyError) /\
         (has_char "=" n = false -> dget (n ++ " mJ=" ++ half_label m)%string (s_lal s) = None ->
           fst (levels_get N (n ++ " mJ=" ++ half_label m) s') = Raise KeyError)) /\
      (forall k, k <> n -> dget k (node_attrs (s_g0 s')) = dget k (node_attrs (s_g0 s))) /\
      (forall u v t, In ((u, v), t) (edge_attrs (s_g0 s')) <->
         In ((u, v), t) (edge_attrs (s_g0 s)) /\ u <> n /\ v <> n) /\
      (forall u v t x, In ((u, v), t) (edge_attrs (s_g0 s')) -> tr s' t = Some x -> nm s' (x_lo x) <> Some n /\ nm s' (x_up x) <> Some n).
  Proof.
    intros s n a l W En V. destruct (del_level_eq s n a W En) as [g [Eg [Ed W']]]. exists (set_g0 g s). split; auto. split; auto. split; auto.
    destruct (node_inv _ _ _ W En) as [l0 [V0 [K [Hl A]]]]. rewrite V in V0. injection V0 as <-.
    assert (Nn : dget n (node_attrs g) = None).
    { rewrite (remove_attrs _ _ _ Eg), dget_ddel, keqb_refl. reflexivity. }
    assert (No : node N n (set_g0 g s) = (Raise KeyError, set_g0 g s)) by (unfold node, asks; cbn; now rewrite Nn).
    split; [|split; [|split; [|split]]].
    - intros key Hk E. destruct (levels_get N key (set_g0 g s)) as [r s2] eqn:E2. cbn [fst] in E. subst r.
      pose proof (get_fine _ key a l s2 W' Hk E2 V K) as H. cbn in H. rewrite Hl, Nn in H. discriminate.
    - intros f m. split; auto. split; [|split].
      + intros He Ha. unfold levels_get. rewrite (bind_Ok _ (gets (fun z : st => dget (n ++ " F=" ++ half_label f)%string (s_lal z))) _ (set_g0 g s) _ _ eq_refl).
        cbn [s_lal set_g0]. rewrite Ha. destruct (key_F_plain n f He) as [-> [-> ->]]. unfold bind, asks. rewrite name_split1. cbn [fst snd]. now rewrite No.
      + intros Ha. unfold levels_get. rewrite (bind_Ok _ (gets (fun z : st => dget (n ++ " F=" ++ half_label f ++ " mF=" ++ half_label m)%string (s_lal z))) _ (set_g0 g s) _ _ eq_refl).
        cbn [s_lal set_g0]. rewrite Ha, key_mF_has. unfold bind, asks. rewrite name_split2. cbn [fst snd]. now rewrite No.
      + intros He Ha. unfold levels_get. rewrite (bind_Ok _ (gets (fun z : st => dget (n ++ " mJ=" ++ half_label m)%string (s_lal z))) _ (set_g0 g s) _ _ eq_refl).
        cbn [s_lal set_g0]. rewrite Ha. destruct (key_mJ_plain n m He) as [-> ->]. unfold bind, asks. rewrite rsplit_mJ. cbn [fst snd]. now rewrite No.
    - intros k Hk. cbn. rewrite (remove_attrs _ _ _ Eg), dget_ddel, keqb_neq; auto.
    - intros u v t. cbn [s_g0 set_g0]. pose proof (wf_g _ _ W LE) as [Gw _ _]. pose proof (wf_g _ _ W' LE) as [Gw' _ _]. cbn [graph_of s_g0 set_g0] in Gw, Gw'.
      rewrite !edge_attrs_In by auto. rewrite (remove_edge _ _ _ u v Eg).
      assert (Bf : u <> n -> v <> n -> (before u v (dkeys (g_nodes g)) <-> before u v (dkeys (g_nodes (s_g0 s))))).
      { intros Hu Hv. unfold g_remove_node in Eg. destruct (dmem n (g_nodes (s_g0 s))); [|discriminate]. injection Eg as <-. cbn [g_nodes].
        rewrite dkeys_ddel. apply before_filter; rewrite keqb_neq; auto. }
      destruct (String.eqb_spec u n) as [->|Hu]; cbn [orb]; [split; [intros [H _]; discriminate|tauto]|].
      destruct (String.eqb_spec v n) as [->|Hv]; [split; [intros [H _]; discriminate|tauto]|]. rewrite Bf by auto. tauto.
    - intros u v t x I Vx. pose proof (wf_g _ _ W' LE) as [Gw' _ Ge']. cbn [graph_of s_g0 set_g0] in Gw', Ge'.
      apply edge_attrs_In in I as [E _]; auto. cbn [s_g0 set_g0] in E.
      destruct (Ge' _ _ _ E) as [x' [Vx' [_ H]]]. rewrite Vx in Vx'. injection Vx' as <-.
      rewrite (remove_edge _ _ _ u v Eg) in E. destruct (String.eqb_spec u n) as [->|Hu]; [discriminate|].
      destruct (String.eqb_spec v n) as [->|Hv]; [discriminate|]. destruct H as [[-> ->]|[-> ->]]; split; congruence.
  Qed.
End Alias.
