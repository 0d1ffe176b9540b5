(** C153: the order in which transitions are put into an atom. *)
From Coq Require Import List Bool ZArith QArith Qcanon Lia String Ascii Permutation.
From Verif Require Import Base Num PyStr Util UtilProofs Regex Parse Term TermProofs Hyperfine HyperfineProofs Graph GraphProofs Rules StrengthSums Atom AtomInv AtomSafe AtomSafe2 AtomSafe3 AtomSafe4 AtomSafe5 AtomSafe6 AtomLevels AtomKeep AtomAlias AtomPaths AtomTrans AtomEnergy AtomDecay AtomExample Views PropViews PropDecay PropBuild.
Import ListNotations.
Local Open Scope list_scope.

Section Link.
  Context (N : Num) (muB : num N) (orc : nat -> oracle) (OK : forall n, oracle_ok (orc n)).
  Implicit Types (s : st N) (a b t : nat).

  (** [atom.add_transition(t)] for each of [ts] in turn. *)
  Definition links (ts : list nat) : list (op N) := map (fun t => OAddTransition N (TObj t) None None None) ts.
  (** [t] goes between the levels called [u] and [v]. *)
  Definition joins s t u v : Prop :=
    exists x, tr s t = Some x /\
      ((nm s (x_lo x) = Some u /\ nm s (x_up x) = Some v) \/ (nm s (x_lo x) = Some v /\ nm s (x_up x) = Some u)).
  Definition calls s t (al : string) : Prop := exists x, tr s t = Some x /\ x_alias x = Some al.
  (** A Transition between levels of the atom that has no subtransitions yet
      and no frequency of its own. *)
  Definition free s t : Prop :=
    exists x u v a b, tr s t = Some x /\ x_kind x = TT /\ x_subs x = [] /\ x_set x = None /\
      nm s (x_lo x) = Some u /\ nm s (x_up x) = Some v /\
      dget u (node_attrs (s_g0 s)) = Some a /\ dget v (node_attrs (s_g0 s)) = Some b.
  (** Such Transitions, no two of which share both levels or an alias. *)
  Record bonds s (ts : list nat) : Prop := mk_bonds {
    bd_free : forall t, In t ts -> free s t;
    bd_pair : forall t t' u v, In t ts -> In t' ts -> joins s t u v -> joins s t' u v -> t = t';
    bd_alias : forall t t' al, In t ts -> In t' ts -> calls s t al -> calls s t' al -> t = t'
  }.

  (** What adding [ts] does. *)
  Record linked_up s (ts : list nat) s' : Prop := mk_linked_up {
    lu_levels : s_levels s' = s_levels s;
    lu_lal : s_lal s' = s_lal s; lu_I : s_I s' = s_I s; lu_B : s_B s' = s_B s;
    lu_g1 : s_g1 s' = s_g1 s; lu_g2 : s_g2 s' = s_g2 s; lu_warn : s_warn s' = s_warn s;
    lu_nodes : g_nodes (s_g0 s') = g_nodes (s_g0 s);
    lu_in : forall t, In t ts -> tr s' t = option_map (tr_set_attached true) (tr s t);
    lu_out : forall t, ~ In t ts -> tr s' t = tr s t;
    lu_edge : forall t u v, In t ts -> joins s t u v -> edge (s_g0 s') u v = Some t;
    lu_edges : forall u v, (forall t, In t ts -> ~ joins s t u v) -> edge (s_g0 s') u v = edge (s_g0 s) u v;
    lu_alias : forall t al, In t ts -> calls s t al -> dget al (s_tal s') = Some t;
    lu_aliases : forall al, (forall t, In t ts -> ~ calls s t al) -> dget al (s_tal s') = dget al (s_tal s)
  }.

  Definition tput t (x : trans N) s : st N :=
    let s1 := tr_joined s t x in match x_alias x with Some al => set_tal (dset al t (s_tal s1)) s1 | None => s1 end.

  Lemma step_link : forall s t x, WF s -> tr s t = Some x -> x_subs x = [] -> x_set x = None ->
    run_op N muB orc (OAddTransition N (TObj t) None None None) s = (Ok tt, tput t x s).
  Proof.
    intros s t x W V Sb Se. cbn [run_op]. unfold void, add_transition. unfold bind at 1. unfold bind at 1. unfold ret at 1. unfold bind at 1.
    rewrite (tr_add_eq _ _ _ _ W V), Sb. destruct (tr_joined_spec _ s t x W V) as [_ [_ [_ [Ht _]]]].
    unfold get_tr. rewrite (bind_asks _ _ _ _ _ (tr_set_attached true x)) by (rewrite Ht, Nat.eqb_refl, V; reflexivity).
    cbn [tr_set_attached x_alias x_set]. rewrite Se. unfold tput. destruct (x_alias x); reflexivity.
  Qed.

  Lemma tput_spec : forall s t, WF s -> free s t -> forall x, tr s t = Some x -> linked_up s [t] (tput t x s).
  Proof.
    intros s t W [x0 [u [v [a [b [V [K [Sb [Se [Nu [Nv [Du Dv]]]]]]]]]]]] x V'. assert (x0 = x) by congruence. subst x0.
    destruct (tr_joined_spec _ s t x W V) as [W1 [_ [El [Ht [La [Ta [EI [EB [Ew [Et _]]]]]]]]]].
    pose proof (go_wf _ _ _ _ (wf_g _ _ W LE)) as GW. cbn [graph_of] in GW.
    assert (Hn : forall k c, dget k (node_attrs (s_g0 s)) = Some c -> dget k (g_nodes (s_g0 s)) <> None).
    { intros k c D. rewrite (node_attrs_get _ k GW) in D. destruct (dget k (g_nodes (s_g0 s))); congruence. }
    assert (J : tr_joined s t x = set_graph LE (g_add_edge u v t (s_g0 s)) (upd_tr t (tr_set_attached true) s)).
    { unfold tr_joined, put_edge. cbn [tr_set_attached x_lo x_up x_kind]. change (nm (upd_tr t (tr_set_attached true) s)) with (nm s). rewrite Nu, Nv, K. reflexivity. }
    assert (G0 : s_g0 (tr_joined s t x) = g_add_edge u v t (s_g0 s)) by (rewrite J; reflexivity).
    assert (P0 : s_g0 (tput t x s) = g_add_edge u v t (s_g0 s)) by (unfold tput; destruct (x_alias x); exact G0).
    assert (PT : s_trans (tput t x s) = s_trans (tr_joined s t x)) by (unfold tput; destruct (x_alias x); reflexivity).
    assert (Jn : forall p q, joins s t p q <-> (u = p /\ v = q) \/ (u = q /\ v = p)).
    { intros p q. unfold joins. split.
      - intros [y [Vy H]]. assert (y = x) by congruence. subst y. destruct H as [[]|[]]; [left|right]; split; congruence.
      - intros H. exists x. split; auto. destruct H as [[<- <-]|[<- <-]]; auto. }
    assert (Cl : forall al, calls s t al <-> x_alias x = Some al).
    { intros al. split; [intros [y [Vy Ay]]; assert (y = x) by congruence; now subst y|intros E; exists x; auto]. }
    constructor.
    - unfold tput. destruct (x_alias x); exact El.
    - unfold tput. destruct (x_alias x); exact La.
    - unfold tput. destruct (x_alias x); exact EI.
    - unfold tput. destruct (x_alias x); exact EB.
    - unfold tput. destruct (x_alias x); rewrite J; reflexivity.
    - unfold tput. destruct (x_alias x); rewrite J; reflexivity.
    - unfold tput. destruct (x_alias x); exact Ew.
    - rewrite P0. change (g_nodes (g_add_edge u v t (s_g0 s))) with (g_nodes (g_touch v (g_touch u (s_g0 s)))).
      rewrite (touch_old u) by eauto. rewrite (touch_old v) by eauto. reflexivity.
    - intros c [<-|[]]. unfold tr at 1. rewrite PT. change (tr (tr_joined s t x) t = option_map (tr_set_attached true) (tr s t)). now rewrite Ht, Nat.eqb_refl.
    - intros c Nc. unfold tr at 1. rewrite PT. change (tr (tr_joined s t x) c = tr s c). rewrite Ht. destruct (Nat.eqb_spec t c); auto. subst. exfalso. apply Nc. now left.
    - intros c p q [<-|[]] H. rewrite P0, add_edge_edge by auto. apply Jn in H. destruct H as [[-> ->]|[-> ->]]; rewrite !String.eqb_refl; cbn; auto.
      now rewrite orb_true_r.
    - intros p q H. rewrite P0, add_edge_edge by auto. specialize (H t (or_introl eq_refl)). rewrite Jn in H.
      destruct (String.eqb_spec p u), (String.eqb_spec q v), (String.eqb_spec p v), (String.eqb_spec q u); subst; cbn; auto; exfalso; apply H; auto.
    - intros c al [<-|[]] H. apply Cl in H. unfold tput. rewrite H. cbn [s_tal set_tal]. rewrite dget_dset. destruct (keqb_spec al al); congruence.
    - intros al H. specialize (H t (or_introl eq_refl)). rewrite Cl in H. unfold tput. destruct (x_alias x) as [al'|] eqn:Ea; [|now rewrite Ta].
      cbn [s_tal set_tal]. rewrite dget_dset. destruct (keqb_spec al al'); [congruence|now rewrite Ta].
  Qed.

  Lemma lu_tr : forall s ts s' t, linked_up s ts s' -> tr s' t = tr s t \/ tr s' t = option_map (tr_set_attached true) (tr s t).
  Proof. intros s ts s' t L. destruct (in_dec Nat.eq_dec t ts) as [I|I]; [right; now apply (lu_in _ _ _ L)|left; now apply (lu_out _ _ _ L)]. Qed.
  Lemma joins_later : forall s ts s' t u v, linked_up s ts s' -> joins s' t u v <-> joins s t u v.
  Proof.
    intros s ts s' t u v L.
    assert (E : forall c, nm s' c = nm s c) by (intros c; unfold nm, lv; now rewrite (lu_levels _ _ _ L)).
    unfold joins. destruct (lu_tr s ts s' t L) as [->| ->].
    - split; intros [x H]; exists x; rewrite !E in *; auto.
    - destruct (tr s t) as [y|]; cbn [option_map].
      + split; intros [x [V H]].
        * assert (Ex : x = tr_set_attached true y) by congruence. subst x. exists y. split; auto. cbn [tr_set_attached x_lo x_up] in H. now rewrite !E in H.
        * assert (Ex : x = y) by congruence. subst x. exists (tr_set_attached true y). split; auto. cbn [tr_set_attached x_lo x_up]. now rewrite !E.
      + split; intros [x [V _]]; discriminate.
  Qed.
  Lemma calls_later : forall s ts s' t al, linked_up s ts s' -> calls s' t al <-> calls s t al.
  Proof.
    intros s ts s' t al L. unfold calls. destruct (lu_tr s ts s' t L) as [->| ->]; [tauto|].
    destruct (tr s t) as [y|]; cbn [option_map].
    - split; intros [x [V H]].
      + assert (Ex : x = tr_set_attached true y) by congruence. subst x. exists y. auto.
      + assert (Ex : x = y) by congruence. subst x. exists (tr_set_attached true y). auto.
    - split; intros [x [V _]]; discriminate.
  Qed.
  Lemma attrs_nodes : forall g h : graph, g_nodes g = g_nodes h -> node_attrs g = node_attrs h.
  Proof. intros g h E. unfold node_attrs. now rewrite E. Qed.
  Lemma free_later : forall s ts s' t, linked_up s ts s' -> free s t -> free s' t.
  Proof.
    intros s ts s' t L [x [u [v [a [b [V [K [Sb [Se [Nu [Nv [Du Dv]]]]]]]]]]]].
    assert (E : forall c, nm s' c = nm s c) by (intros c; unfold nm, lv; now rewrite (lu_levels _ _ _ L)).
    unfold free. rewrite (attrs_nodes _ _ (lu_nodes _ _ _ L)). destruct (lu_tr s ts s' t L) as [->| ->].
    - exists x, u, v, a, b. now rewrite !E.
    - rewrite V. exists (tr_set_attached true x), u, v, a, b. cbn [option_map tr_set_attached x_kind x_subs x_set x_lo x_up]. now rewrite !E.
  Qed.
  Lemma bonds_later : forall s t ts s', linked_up s [t] s' -> bonds s (t :: ts) -> bonds s' ts.
  Proof.
    intros s t ts s' L [B1 B2 B3]. constructor.
    - intros c I. apply (free_later s [t]); auto. apply B1. now right.
    - intros c c' u v I I' H H'. rewrite (joins_later s [t] s') in * by auto. apply (B2 c c' u v); auto; now right.
    - intros c c' al I I' H H'. rewrite (calls_later s [t] s') in * by auto. apply (B3 c c' al); auto; now right.
  Qed.

  Lemma joins_dec : forall s ts u v, (exists t, In t ts /\ joins s t u v) \/ (forall t, In t ts -> ~ joins s t u v).
  Proof.
    intros s ts u v. induction ts as [|c ts IH]; [right; intros t []|].
    assert (D : joins s c u v \/ ~ joins s c u v).
    { unfold joins. destruct (tr s c) as [x|]; [|right; intros [x [V _]]; discriminate].
      assert (D : forall p q : option string, p = q \/ p <> q) by (intros [p|] [q|]; try (right; discriminate); auto; destruct (String.eqb_spec p q); [left|right]; congruence).
      destruct (D (nm s (x_lo x)) (Some u)), (D (nm s (x_up x)) (Some v)), (D (nm s (x_lo x)) (Some v)), (D (nm s (x_up x)) (Some u));
        first [left; exists x; tauto|right; intros [y [V H']]; assert (y = x) by congruence; subst y; tauto]. }
    destruct D as [D|D]; [left; exists c; split; auto; now left|]. destruct IH as [[t [I H]]|IH]; [left; exists t; split; auto; now right|].
    right. intros t [<-|I]; auto.
  Qed.
  Lemma calls_dec : forall s ts al, (exists t, In t ts /\ calls s t al) \/ (forall t, In t ts -> ~ calls s t al).
  Proof.
    intros s ts al. induction ts as [|c ts IH]; [right; intros t []|].
    assert (D : calls s c al \/ ~ calls s c al).
    { unfold calls. destruct (tr s c) as [x|]; [|right; intros [x [V _]]; discriminate].
      destruct (x_alias x) as [al'|] eqn:Ea; [destruct (String.eqb_spec al' al)|].
      - left. exists x. split; congruence.
      - right. intros [y [V A]]. assert (y = x) by congruence. subst y. congruence.
      - right. intros [y [V A]]. assert (y = x) by congruence. subst y. congruence. }
    destruct D as [D|D]; [left; exists c; split; auto; now left|]. destruct IH as [[t [I H]]|IH]; [left; exists t; split; auto; now right|].
    right. intros t [<-|I]; auto.
  Qed.

  Lemma linked_nil : forall s, linked_up s [] s.
  Proof. intros s. constructor; auto; intros; contradiction. Qed.
  Lemma linked_cons : forall s t ts s1 s2, bonds s (t :: ts) -> linked_up s [t] s1 -> linked_up s1 ts s2 -> linked_up s (t :: ts) s2.
  Proof.
    intros s t ts s1 s2 B L M. pose proof (fun c u v => joins_later s [t] s1 c u v L) as Jl. pose proof (fun c al => calls_later s [t] s1 c al L) as Cl.
    constructor; try (destruct L, M; congruence).
    - intros c I. destruct (in_dec Nat.eq_dec c ts) as [Ic|Ic].
      + rewrite (lu_in _ _ _ M c Ic). destruct (lu_tr s [t] s1 c L) as [->| ->]; auto. destruct (tr s c); reflexivity.
      + rewrite (lu_out _ _ _ M c Ic). destruct I as [<-|I]; [|contradiction]. apply (lu_in _ _ _ L). now left.
    - intros c I. rewrite (lu_out _ _ _ M) by (intros H; apply I; now right). apply (lu_out _ _ _ L). intros [->|[]]. apply I. now left.
    - intros c u v I H. destruct I as [<-|I]; [|apply (lu_edge _ _ _ M); auto; now apply Jl].
      destruct (joins_dec s1 ts u v) as [[c [I Hc]]|D].
      + rewrite (lu_edge _ _ _ M c u v I Hc). f_equal. apply (bd_pair _ _ B c t u v); auto; [now right|now left|now apply Jl].
      + rewrite (lu_edges _ _ _ M) by auto. apply (lu_edge _ _ _ L); auto. now left.
    - intros u v H. rewrite (lu_edges _ _ _ M) by (intros c I; rewrite Jl; apply H; now right).
      apply (lu_edges _ _ _ L). intros c [<-|[]]. apply H. now left.
    - intros c al I H. destruct I as [<-|I]; [|apply (lu_alias _ _ _ M); auto; now apply Cl].
      destruct (calls_dec s1 ts al) as [[c [I Hc]]|D].
      + rewrite (lu_alias _ _ _ M c al I Hc). f_equal. apply (bd_alias _ _ B c t al); auto; [now right|now left|now apply Cl].
      + rewrite (lu_aliases _ _ _ M) by auto. apply (lu_alias _ _ _ L); auto. now left.
    - intros al H. rewrite (lu_aliases _ _ _ M) by (intros c I; rewrite Cl; apply H; now right).
      apply (lu_aliases _ _ _ L). intros c [<-|[]]. apply H. now left.
  Qed.

  (** The calls all return, and the atom is as before except that the new
      transitions join their levels and are known by their aliases. *)
  Lemma link_all : forall ts s, reachable N muB orc s -> bonds s ts -> linked_up s ts (run N muB orc s (links ts)).
  Proof.
    induction ts as [|t ts IH]; intros s R B; [apply linked_nil|]. pose proof (reachable_WF N muB orc OK s R) as W.
    pose proof (bd_free _ _ B t (or_introl eq_refl)) as F. pose proof F as [x [u [v [a [b [V [K [Sb [Se _]]]]]]]]].
    pose proof (tput_spec s t W F x V) as L.
    assert (St : step N muB orc s (OAddTransition N (TObj t) None None None) = tput t x s) by (unfold step; now rewrite (step_link s t x W V Sb Se)).
    unfold run, links. cbn [map fold_left]. rewrite St. apply (linked_cons s t ts (tput t x s)); auto.
    apply IH; [rewrite <- St; apply (later N muB orc s [_] R)|]. now apply (bonds_later s t).
  Qed.
  Lemma link_ok : forall ts s, reachable N muB orc s -> bonds s ts ->
    forall pre t post, ts = pre ++ t :: post -> fst (run_op N muB orc (OAddTransition N (TObj t) None None None) (run N muB orc s (links pre))) = Ok tt.
  Proof.
    intros ts s R B pre t post ->. assert (B' : bonds s pre).
    { destruct B as [B1 B2 B3]. constructor; intros; [apply B1|eapply B2|eapply B3]; eauto; apply in_or_app; auto. }
    pose proof (link_all pre s R B') as L. pose proof (later N muB orc s (links pre) R) as R'. pose proof (reachable_WF N muB orc OK _ R') as W.
    assert (F : free s t) by (apply (bd_free _ _ B); apply in_or_app; right; now left).
    apply (free_later s pre _ t L) in F. destruct F as [x [u [v [a [b [V [K [Sb [Se _]]]]]]]]]. now rewrite (step_link _ t x W V Sb Se).
  Qed.

  Theorem C153_added : forall s ts, reachable N muB orc s -> bonds s ts ->
    (forall pre t post, ts = pre ++ t :: post -> fst (run_op N muB orc (OAddTransition N (TObj t) None None None) (run N muB orc s (links pre))) = Ok tt) /\
    linked_up s ts (run N muB orc s (links ts)).
  Proof. intros s ts R B. split; [now apply link_ok|now apply link_all]. Qed.

  (** Energies depend on the levels, the spin and the field only. *)
  Lemma energy_of : forall s s' a, s_levels s' = s_levels s -> s_I s' = s_I s -> s_B s' = s_B s -> energy N muB s' a = energy N muB s a.
  Proof. intros s s' a E1 E2 E3. unfold energy, energyZ, energyHF, energyE, lv. now rewrite E1, E2, E3. Qed.

  (** Two atoms that got the same transitions in different orders.  All of the
      following is the same; only the order inside dicts of transitions may
      differ. *)
  Definition as_linked s s' : Prop :=
    (forall a, lv s a = lv s' a) /\ (forall t, tr s t = tr s' t) /\
    (forall a, energy N muB s a = energy N muB s' a) /\ (forall t, freq N muB s t = freq N muB s' t) /\
    level_keys N s = level_keys N s' /\ level_values N s = level_values N s' /\
    (forall key, has_char "="%char key = false -> fst (levels_get N key s) = fst (levels_get N key s')) /\
    (forall u v, edge (s_g0 s) u v = edge (s_g0 s') u v) /\
    (forall p, dget p (edge_attrs (s_g0 s)) = dget p (edge_attrs (s_g0 s'))) /\
    Permutation (edge_attrs (s_g0 s)) (edge_attrs (s_g0 s')) /\
    (forall al, dget al (s_tal s) = dget al (s_tal s')) /\
    (forall n a, dget n (s_lal s) = None -> has_char "="%char n = false -> dget n (node_attrs (s_g0 s)) = Some a ->
       exists d d', linked_levels N muB 3 n s = (Ok d, s) /\ linked_levels N muB 3 n s' = (Ok d', s') /\ Permutation d d').

  Lemma perm_dicts : forall {K V} (d d' : list (K * V)), NoDup (dkeys d) -> NoDup (dkeys d') -> (forall k v, In (k, v) d <-> In (k, v) d') -> Permutation d d'.
  Proof. intros K V d d' H H' E. apply NoDup_Permutation; [now apply (NoDup_map_inv fst)|now apply (NoDup_map_inv fst)|]. intros [k v]. apply E. Qed.

  Lemma two_orders : forall s ts ts' s1 s2, WF s1 -> WF s2 -> bonds s ts -> (forall t, In t ts <-> In t ts') -> linked_up s ts s1 -> linked_up s ts' s2 -> as_linked s1 s2.
  Proof.
    intros s ts ts' s1 s2 W1 W2 B P L M.
    assert (El : s_levels s1 = s_levels s2) by (destruct L, M; congruence).
    assert (EI : s_I s1 = s_I s2) by (destruct L, M; congruence). assert (EB : s_B s1 = s_B s2) by (destruct L, M; congruence).
    assert (En : g_nodes (s_g0 s1) = g_nodes (s_g0 s2)) by (destruct L, M; congruence).
    assert (Ea : s_lal s1 = s_lal s2) by (destruct L, M; congruence).
    assert (Et : forall t, tr s1 t = tr s2 t).
    { intros t. destruct (in_dec Nat.eq_dec t ts) as [I|I].
      - rewrite (lu_in _ _ _ L t I). symmetry. apply (lu_in _ _ _ M). now apply P.
      - rewrite (lu_out _ _ _ L t I). symmetry. apply (lu_out _ _ _ M). rewrite <- P. auto. }
    assert (Ee : forall u v, edge (s_g0 s1) u v = edge (s_g0 s2) u v).
    { intros u v. destruct (joins_dec s ts u v) as [[t [I J]]|D].
      - rewrite (lu_edge _ _ _ L t u v I J). symmetry. apply (lu_edge _ _ _ M); auto. now apply P.
      - rewrite (lu_edges _ _ _ L u v D). symmetry. apply (lu_edges _ _ _ M). intros t I. apply D. now apply P. }
    pose proof (go_wf _ _ _ _ (wf_g _ _ W1 LE)) as G1. pose proof (go_wf _ _ _ _ (wf_g _ _ W2 LE)) as G2. cbn [graph_of] in G1, G2.
    pose proof (attrs_nodes _ _ En) as Ena.
    assert (Ed : forall a, energy N muB s1 a = energy N muB s2 a) by (intros a; apply energy_of; auto).
    unfold as_linked. split; [intros a; unfold lv; now rewrite El|]. split; [exact Et|]. split; [exact Ed|].
    split; [intros t; unfold freq; rewrite Et; destruct (tr s2 t) as [x|]; [rewrite !Ed|]; reflexivity|].
    split; [unfold level_keys; now rewrite Ena|]. split; [unfold level_values; now rewrite Ena|].
    split.
    { intros key H. destruct (dget key (s_lal s1)) as [a|] eqn:Da.
      - unfold levels_get, bind, gets. rewrite <- Ea, Da. reflexivity.
      - rewrite !get_plain, Ena by (auto; congruence). reflexivity. }
    split; [exact Ee|]. split; [intros [u v]; rewrite !edge_attrs_get, En, Ee by auto; reflexivity|].
    split.
    { apply perm_dicts; [now apply edge_attrs_nodup|now apply edge_attrs_nodup|]. intros [u v] t. rewrite !edge_attrs_In, En, Ee by auto. reflexivity. }
    split.
    { intros al. destruct (calls_dec s ts al) as [[t [I J]]|D].
      - rewrite (lu_alias _ _ _ L t al I J). symmetry. apply (lu_alias _ _ _ M); auto. now apply P.
      - rewrite (lu_aliases _ _ _ L al D). symmetry. apply (lu_aliases _ _ _ M). intros t I. apply D. now apply P. }
    intros n a Al Eq Dn. destruct (linked_name N muB s1 n a W1 Al Eq Dn) as [d [H1 [H2 H3]]].
    destruct (linked_name N muB s2 n a W2) as [d' [H1' [H2' H3']]]; try congruence.
    exists d, d'. split; auto. split; auto. apply perm_dicts; auto. intros k t. rewrite H3, H3', Ee. reflexivity.
  Qed.

  Theorem C153_order : forall s ts ts', reachable N muB orc s -> bonds s ts -> Permutation ts ts' ->
    as_linked (run N muB orc s (links ts)) (run N muB orc s (links ts')).
  Proof.
    intros s ts ts' R B P.
    assert (I : forall t, In t ts <-> In t ts') by (intros t; split; apply Permutation_in; [|symmetry]; exact P).
    assert (B' : bonds s ts') by (destruct B as [B1 B2 B3]; constructor; intros; [apply B1|eapply B2|eapply B3]; eauto; now apply I).
    apply (two_orders s ts ts'); auto; try (now apply link_all); apply (reachable_WF N muB orc OK); now apply later.
  Qed.
End Link.
Print Assumptions C153_added.
Print Assumptions C153_order.

Local Open Scope Qc_scope.

(** Rates and branching ratios, for the name of a level whose transitions all
    have an A coefficient. *)
Theorem C153_decay : forall muB orc, (forall n, oracle_ok (orc n)) -> forall s ts ts', reachable Exact muB orc s -> bonds Exact s ts -> Permutation ts ts' ->
  let s1 := run Exact muB orc s (links Exact ts) in let s2 := run Exact muB orc s (links Exact ts') in
  forall n a, dget n (s_lal s) = None -> has_char "="%char n = false -> dget n (node_attrs (s_g0 s)) = Some a ->
  (forall m t x, edge (s_g0 s1) n m = Some t -> tr s1 t = Some x -> x_A x <> None) ->
  (exists T, total_rate Exact muB n s1 = (Ok T, s1) /\ total_rate Exact muB n s2 = (Ok T, s2)) /\
  (exists r r', branching Exact muB n s1 = (Ok r, s1) /\ branching Exact muB n s2 = (Ok r', s2) /\ Permutation r r').
Proof.
  intros muB orc OK s ts ts' R B P s1 s2 n a Al Eq Dn HA.
  assert (I : forall t, In t ts <-> In t ts') by (intros t; split; apply Permutation_in; [|symmetry]; exact P).
  pose proof (link_all Exact muB orc OK ts s R B) as L. fold s1 in L.
  pose proof (reachable_WF Exact muB orc OK s1 (later Exact muB orc s (links Exact ts) R)) as W1.
  pose proof (reachable_WF Exact muB orc OK s2 (later Exact muB orc s (links Exact ts') R)) as W2.
  pose proof (C153_order Exact muB orc OK s ts ts' R B P) as H. fold s1 s2 in H.
  destruct H as [Hl [Ht [_ [_ [_ [_ [Hg [He [_ [_ [_ Hk]]]]]]]]]]].
  assert (A1 : dget n (s_lal s1) = None) by (now rewrite (lu_lal _ _ _ _ L)).
  assert (D1 : dget n (node_attrs (s_g0 s1)) = Some a) by (now rewrite (attrs_nodes _ _ (lu_nodes _ _ _ _ L))).
  destruct (Hk n a A1 Eq D1) as [d [d' [E1 [E2 Pd]]]].
  assert (X1 : forall m t, In (m, t) d -> edge (s_g0 s1) n m = Some t).
  { intros m t Im. destruct (linked_name Exact muB s1 n a W1 A1 Eq D1) as [d0 [E0 [_ H0]]]. rewrite E1 in E0. assert (d0 = d) by congruence. subst d0. now apply H0. }
  assert (Id : forall m t, In (m, t) d <-> In (m, t) d') by (intros m t; split; apply Permutation_in; [|symmetry]; exact Pd).
  pose proof (get_plain Exact s1 n A1 Eq) as G1. rewrite D1 in G1.
  assert (F2 : fst (levels_get Exact n s2) = Ok a) by (rewrite <- (Hg n Eq), G1; reflexivity).
  assert (A2 : dget n (s_lal s2) = None).
  { unfold s2. rewrite (lu_lal _ _ _ _ (link_all Exact muB orc OK ts' s R (mk_bonds _ _ _ (fun t H => bd_free _ _ _ B t (proj2 (I t) H))
      (fun t t' u v H H' => bd_pair _ _ _ B t t' u v (proj2 (I t) H) (proj2 (I t') H'))
      (fun t t' al H H' => bd_alias _ _ _ B t t' al (proj2 (I t) H) (proj2 (I t') H'))))). exact Al. }
  pose proof (get_plain Exact s2 n A2 Eq) as G2. rewrite G2 in F2. cbn [fst] in F2. rewrite F2 in G2.
  assert (N12 : forall c, nm s1 c = nm s2 c) by (intros c; unfold nm; now rewrite Hl).
  split.
  - destruct (total_rate_key muB s1 n d s1 a s1 W1 E1 G1) as [ds [K1 [K2 K3]]]; [intros m t x Im V _; apply (HA m t x); auto|].
    destruct (total_rate_key muB s2 n d' s2 a s2 W2 E2 G2) as [ds' [K1' [K2' K3']]].
    { intros m t x Im V _. rewrite <- Ht in V. apply (HA m t x); auto. apply X1. now apply Id. }
    assert (Ps : Permutation ds ds').
    { apply perm_dicts; auto. intros m w. rewrite K2, K2'. split; intros [t [x [q [Im [V Q]]]]]; exists t, x, q.
      - rewrite <- Ht. split; [now apply Id|auto].
      - rewrite Ht. split; [now apply Id|auto]. }
    exists (sums (fun v => v) (dvals ds)). split; auto. rewrite (sums_perm _ (dvals ds) (dvals ds')); auto. unfold dvals. now apply Permutation_map.
  - destruct (branching_spec muB s1 n d s1 W1 E1) as [ds [K1 [K2 K3]]].
    { intros m t x Im V _. destruct (x_A x) as [[v u]|] eqn:Ax; eauto. exfalso. apply (HA m t x); auto. }
    destruct (branching_spec muB s2 n d' s2 W2 E2) as [ds' [K1' [K2' K3']]].
    { intros m t x Im V _. rewrite <- Ht in V. destruct (x_A x) as [[v u]|] eqn:Ax; eauto. exfalso. apply (HA m t x); auto. apply X1. now apply Id. }
    assert (Ps : Permutation ds ds').
    { apply perm_dicts; auto. intros m w. rewrite K2, K2'. split; intros [t [x [q [Im [V [Nx Q]]]]]]; exists t, x, q.
      - rewrite <- Ht, <- N12. split; [now apply Id|auto].
      - rewrite Ht, N12. split; [now apply Id|auto]. }
    eexists. eexists. split; [exact K3|]. split; [exact K3'|].
    rewrite (sums_perm _ (dvals ds) (dvals ds')) by (unfold dvals; now apply Permutation_map). now apply Permutation_map.
Qed.
Print Assumptions C153_decay.

(** A check of [bonds]. *)
Section Check.
  Context (N : Num).
  Definition freeb (s : st N) (t : nat) : bool :=
    match tr s t with
    | Some x =>
        match nm s (x_lo x), nm s (x_up x) with
        | Some u, Some v => match x_kind x, x_subs x, x_set x, dget u (node_attrs (s_g0 s)), dget v (node_attrs (s_g0 s)) with TT, [], None, Some _, Some _ => true | _, _, _, _, _ => false end
        | _, _ => false
        end
    | None => false
    end.
  Definition names (s : st N) (t : nat) : option string * option string * option string :=
    match tr s t with Some x => (nm s (x_lo x), nm s (x_up x), x_alias x) | None => (None, None, None) end.
  Definition oeqb (a b : option string) : bool := match a, b with Some x, Some y => String.eqb x y | _, _ => false end.
  Definition apart_t (s : st N) (t t' : nat) : bool :=
    Nat.eqb t t' ||
    match names s t, names s t' with
    | (u, v, al), (u', v', al') => negb (oeqb u u' && oeqb v v') && negb (oeqb u v' && oeqb v u') && negb (oeqb al al')
    end.
  Definition bondsb (s : st N) (ts : list nat) : bool := forallb (freeb s) ts && forallb (fun t => forallb (apart_t s t) ts) ts.
  Lemma bondsb_ok : forall s ts, bondsb s ts = true -> bonds N s ts.
  Proof.
    intros s ts H. unfold bondsb in H. apply andb_prop in H as [F H]. rewrite forallb_forall in F, H.
    assert (A : forall t t', In t ts -> In t' ts -> apart_t s t t' = true) by (intros t t' I I'; specialize (H t I); rewrite forallb_forall in H; auto).
    assert (Oe : forall a, oeqb (Some a) (Some a) = true) by (intros a; cbn; apply String.eqb_refl).
    constructor.
    - intros t I. specialize (F t I). unfold freeb in F. destruct (tr s t) as [x|] eqn:V; [|discriminate].
      destruct (nm s (x_lo x)) as [u|] eqn:Nu; [|discriminate]. destruct (nm s (x_up x)) as [v|] eqn:Nv; [|discriminate].
      destruct (x_kind x) eqn:K; try discriminate. destruct (x_subs x) eqn:Sb; try discriminate. destruct (x_set x) eqn:Se; try discriminate.
      destruct (dget u (node_attrs (s_g0 s))) as [a|] eqn:Du; [|discriminate]. destruct (dget v (node_attrs (s_g0 s))) as [b|] eqn:Dv; [|discriminate].
      exists x, u, v, a, b. repeat (split; auto).
    - intros t t' u v I I' [x [V J]] [x' [V' J']]. specialize (A t t' I I'). unfold apart_t, names in A. rewrite V, V' in A.
      destruct (Nat.eqb_spec t t'); auto. exfalso. cbn [orb] in A. apply andb_prop in A as [A _]. apply andb_prop in A as [A1 A2].
      destruct J as [[J1 J2]|[J1 J2]], J' as [[K1 K2]|[K1 K2]]; rewrite J1, J2, K1, K2, !Oe in *; cbn in *; discriminate.
    - intros t t' al I I' [x [V J]] [x' [V' J']]. specialize (A t t' I I'). unfold apart_t, names in A. rewrite V, V', J, J', Oe in A.
      destruct (Nat.eqb_spec t t'); auto. cbn [negb orb] in A. rewrite andb_false_r in A. discriminate.
  Qed.
End Check.

(** Three levels and three transitions, two of them with an alias, made before
    the levels are added. *)
Definition unlinked : st Exact := runx (from 1) [nl tS 0; nl tP 10; nl tQ 20;
  ONewTransition Exact 2 0 None (Some (Q2Qc 3, uHz)) (Some "violet"%string); ONewTransition Exact 1 0 None (Some (Q2Qc 5, uHz)) (Some "blue"%string);
  ONewTransition Exact 1 2 None (Some (Q2Qc 1, uHz)) None; add 0; add 1; add 2].
Example C153_case : reachable Exact 1%Qc plain unlinked /\ bonds Exact unlinked [0; 1; 2]%nat /\ Permutation [0; 1; 2]%nat [2; 0; 1]%nat /\
  edge_attrs (s_g0 unlinked) = [] /\ s_tal unlinked = [] /\
  (let s1 := runx unlinked (links Exact [0; 1; 2]%nat) in let s2 := runx unlinked (links Exact [2; 0; 1]%nat) in
   fst (linked_levels Exact 1%Qc 3 "6p 2P*3/2" s1) = Ok [("6s 2S1/2", 0%nat); ("6p 2P*1/2", 2%nat)]%string /\
   fst (linked_levels Exact 1%Qc 3 "6p 2P*3/2" s2) = Ok [("6p 2P*1/2", 2%nat); ("6s 2S1/2", 0%nat)]%string /\
   s_tal s2 = [("violet", 0%nat); ("blue", 1%nat)]%string /\
   ratios (fst (branching Exact 1%Qc "6p 2P*3/2" s1)) = Ok [("6s 2S1/2", (3 # 4)%Q); ("6p 2P*1/2", (1 # 4)%Q)]%string /\
   ratios (fst (branching Exact 1%Qc "6p 2P*3/2" s2)) = Ok [("6p 2P*1/2", (1 # 4)%Q); ("6s 2S1/2", (3 # 4)%Q)]%string /\
   match fst (total_rate Exact 1%Qc "6p 2P*3/2" s2) with Ok v => this v | Raise _ => 0%Q end = (4 # 1)%Q).
Proof.
  split; [apply from_reachable; lia|]. split; [apply bondsb_ok; vm_compute; reflexivity|].
  split; [apply (perm_trans (l' := [0; 2; 1]%nat)); [apply perm_skip, perm_swap|apply perm_swap]|]. split; [vm_compute; reflexivity|]. split; [vm_compute; reflexivity|].
  cbv zeta. do 5 (split; [vm_compute; reflexivity|]). vm_compute. reflexivity.
Qed.
(** Two transitions between the same levels do not meet [bonds], and for them
    the order shows: the one added last takes the place. *)
Definition rivals : st Exact := runx (from 1) [nl tS 0; nl tP 10; ONewTransition Exact 1 0 None None None; ONewTransition Exact 0 1 None None None; add 0; add 1].
Example C153_same_levels : reachable Exact 1%Qc plain rivals /\
  edge (s_g0 (runx rivals (links Exact [0; 1]%nat))) "6s 2S1/2" "6p 2P*1/2" = Some 1%nat /\
  edge (s_g0 (runx rivals (links Exact [1; 0]%nat))) "6s 2S1/2" "6p 2P*1/2" = Some 0%nat.
Proof. split; [apply from_reachable; lia|]. split; vm_compute; reflexivity. Qed.
