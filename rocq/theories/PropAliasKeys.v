(** C151: where an alias of a level can stand for its name. *)
From Coq Require Import List Bool ZArith QArith Qcanon Lia String Ascii Permutation.
From Verif Require Import Base Num PyStr Util UtilProofs Regex Parse Term TermProofs Hyperfine HyperfineProofs Graph GraphProofs Rules Atom AtomInv AtomSafe AtomSafe2 AtomSafe3 AtomSafe4 AtomSafe5 AtomSafe6 AtomLevels AtomKeep AtomAlias AtomPaths AtomTrans AtomExample.
Import ListNotations.
Local Open Scope list_scope.

Section Keys.
  Context (N : Num) (muB : num N) (orc : nat -> oracle) (OK : forall n, oracle_ok (orc n)).
  Implicit Types (s : st N) (a b t : nat).

  (** [add_transition((u, v))] for two keys, be they names or
      aliases, that are not the names of two joined levels: the call does just
      what it does with the two levels themselves. *)
  Theorem C151_add_partial : forall s u v a b f A alias, levels_get N u s = (Ok a, s) -> levels_get N v s = (Ok b, s) ->
    dget (u, v) (edge_attrs (s_g0 s)) = None ->
    add_transition N muB orc (TNames u v) f A alias s = add_transition N muB orc (TLevels a b) f A alias s.
  Proof.
    intros s u v a b f A alias Hu Hv Hk. unfold add_transition. unfold bind, gets, dmem. rewrite Hk. cbv beta iota. rewrite Hu. cbv beta iota. rewrite Hv. cbv beta iota. reflexivity.
  Qed.
  (** So an alias that is no level's name joins two levels as their names do. *)
  Corollary C151_join_partial : forall s u v a b f A alias, reachable N muB orc s -> dget u (s_lal s) = Some a -> levels_get N v s = (Ok b, s) -> dget u (g_nodes (s_g0 s)) = None ->
    add_transition N muB orc (TNames u v) f A alias s = add_transition N muB orc (TLevels a b) f A alias s /\
    add_transition N muB orc (TNames v u) f A alias s = add_transition N muB orc (TLevels b a) f A alias s.
  Proof.
    intros s u v a b f A alias R Hu Hv Hn. pose proof (go_wf _ _ _ _ (wf_g _ _ (reachable_WF N muB orc OK s R) LE)) as GW. cbn [graph_of] in GW.
    assert (X : forall w, edge (s_g0 s) u w = None /\ edge (s_g0 s) w u = None).
    { intros w. assert (Nu : ~ In u (dkeys (g_nodes (s_g0 s)))) by now apply dget_None.
      split; [destruct (edge (s_g0 s) u w) as [t|] eqn:E|destruct (edge (s_g0 s) w u) as [t|] eqn:E]; auto; exfalso; apply edge_In_nodes in E; auto; apply Nu, E. }
    split; apply C151_add_partial; auto using get_alias; rewrite edge_attrs_get by auto; destruct (X v) as [E1 E2].
    - rewrite E1. now destruct (beforeb _ _ _).
    - rewrite E2. now destruct (beforeb _ _ _).
  Qed.

  (** Everything else takes names only.  For an alias that is not itself the
      name of a level, the neighbours, the lifetime and the branching ratios of
      the level are never found, *)
  Theorem C151_linked_refuted : forall s u a l, reachable N muB orc s -> dget u (s_lal s) = Some a -> lv s a = Some l -> l_kind l = LE -> dget u (g_nodes (s_g0 s)) = None ->
    linked_levels N muB 3 u s = (Raise KeyError, s) /\ total_rate N muB u s = (Raise KeyError, s) /\ branching N muB u s = (Raise KeyError, s).
  Proof.
    intros s u a l R Hu L K Hn. pose proof (reachable_WF N muB orc OK s R) as W. pose proof (go_wf _ _ _ _ (wf_g _ _ W LE)) as GW. cbn [graph_of] in GW.
    assert (Pn : l_parent l = None) by (destruct (wf_lv _ _ W a l L) as [_ [[_ [H _]]|[_ [p [lp [z [_ [_ [_ [Kz [Kl _]]]]]]]]]]]; auto; rewrite K in Kl; destruct (l_kind lp); discriminate).
    assert (E : linked_levels N muB 3 u s = (Raise KeyError, s)).
    { cbn [linked_levels]. unfold bind at 1. rewrite (get_alias N s u a Hu). cbv iota. unfold bind at 1, get_lv, asks. rewrite L. cbv iota. rewrite Pn, K.
      unfold bind at 1, ret. cbv iota. unfold bind, asks. cbn [graph_of]. assert (D : dget u (g_adj (s_g0 s)) = None) by (apply dget_None; rewrite (gw_keys _ GW); now apply dget_None). now rewrite D. }
    split; auto. split; [unfold total_rate|unfold branching]; unfold bind at 1; now rewrite E.
  Qed.
  (** the transitions at the level are not found by it, *)
  Theorem C151_transitions_refuted : forall s u v a b, reachable N muB orc s -> dget u (s_lal s) = Some a -> levels_get N v s = (Ok b, s) ->
    has_char "="%char u = false -> has_char "="%char v = false -> dget u (g_nodes (s_g0 s)) = None ->
    transitions_get N muB (KS u, KS v) s = (Raise KeyError, s) /\ transitions_get N muB (KS v, KS u) s = (Raise KeyError, s).
  Proof.
    intros s u v a b R Hu Hv Eu Ev Hn. pose proof (reachable_WF N muB orc OK s R) as W. pose proof (go_wf _ _ _ _ (wf_g _ _ W LE)) as GW. cbn [graph_of] in GW.
    assert (X : forall w, dget (u, w) (edge_attrs (s_g0 s)) = None /\ dget (w, u) (edge_attrs (s_g0 s)) = None).
    { intros w. assert (Nu : ~ In u (dkeys (g_nodes (s_g0 s)))) by now apply dget_None.
      split; rewrite edge_attrs_get by auto; destruct (beforeb _ _ _); auto; [destruct (edge (s_g0 s) u w) as [t|] eqn:E|destruct (edge (s_g0 s) w u) as [t|] eqn:E]; auto; exfalso; apply edge_In_nodes in E; auto; apply Nu, E. }
    assert (La : exists l, lv s a = Some l) by (destruct (wf_lal _ _ W u a Hu) as [l [L _]]; eauto).
    assert (Lb : exists l, lv s b = Some l).
    { destruct (dget v (s_lal s)) as [b'|] eqn:Dv; [rewrite (get_alias N s v b' Dv) in Hv; apply (f_equal fst) in Hv; cbn [fst] in Hv; assert (b' = b) by congruence; subst b'; destruct (wf_lal _ _ W v b Dv) as [l [L _]]; eauto|].
      rewrite get_plain in Hv by auto. apply (f_equal fst) in Hv. cbn [fst] in Hv. destruct (dget v (node_attrs (s_g0 s))) as [b'|] eqn:Dn; [|discriminate].
      assert (b' = b) by congruence. subst b'. rewrite node_attrs_get in Dn by apply GW. destruct (dget v (g_nodes (s_g0 s))) as [o|] eqn:Eo; [|discriminate]. subst o.
      destruct (go_node _ _ _ _ (wf_g _ _ W LE) v b Eo) as [l [L _]]. eauto. }
    destruct La as [la La], Lb as [lb Lb]. destruct (wf_energy N muB s a la W La) as [ea Ea], (wf_energy N muB s b lb W Lb) as [eb Eb]. pose proof (get_alias N s u a Hu) as Gu.
    split; unfold transitions_get; cbn [fst snd levels_get_key]; unfold bind, asks.
    - rewrite Gu, Ea, Hv, Eb. rewrite !no_eq_contains by auto. unfold edge_at, asks. destruct (nltb N eb ea); [now rewrite (proj2 (X v))|now rewrite (proj1 (X v))].
    - rewrite Hv, Eb, Gu, Ea. rewrite !no_eq_contains by auto. unfold edge_at, asks. destruct (nltb N ea eb); [now rewrite (proj1 (X v))|now rewrite (proj2 (X v))].
  Qed.

  (** and neither are its sublevels. *)
  Theorem C151_sublevels_refuted : forall s u f m, reachable N muB orc s -> has_char "="%char u = false -> dget u (g_nodes (s_g0 s)) = None ->
    (dget (u ++ " F=" ++ half_label f)%string (s_lal s) = None -> levels_get N (u ++ " F=" ++ half_label f)%string s = (Raise KeyError, s)) /\
    (dget (u ++ " F=" ++ half_label f ++ " mF=" ++ half_label m)%string (s_lal s) = None -> levels_get N (u ++ " F=" ++ half_label f ++ " mF=" ++ half_label m)%string s = (Raise KeyError, s)).
  Proof.
    intros s u f m R Eu Hn. pose proof (reachable_WF N muB orc OK s R) as W. pose proof (go_wf _ _ _ _ (wf_g _ _ W LE)) as GW. cbn [graph_of] in GW.
    assert (Dn : dget u (node_attrs (s_g0 s)) = None) by (rewrite node_attrs_get by apply GW; now rewrite Hn).
    split; intros Hal; unfold levels_get; unfold bind at 1, gets; rewrite Hal.
    - destruct (key_F_plain u f Eu) as [-> [-> ->]]. unfold bind, asks, node, asks. rewrite name_split1. cbn [fst snd]. now rewrite Dn.
    - rewrite key_mF_has. unfold bind, asks, node, asks. rewrite name_split2. cbn [fst snd]. now rewrite Dn.
  Qed.
End Keys.

(** Two levels, the upper one with the alias [up], joined. *)
Definition nicknamed : st Exact := runx (from 1) [nl tS 0; add 0; nl tP 10; add 1; OAlias Exact 1 "up"; ONewTransition Exact 0 1 None (Some (Q2Qc 5, uHz)) None; nl tQ 20; add 2].
Example C151_case : reachable Exact 1%Qc plain nicknamed /\ dget "up"%string (s_lal nicknamed) = Some 1%nat /\ dget "up"%string (g_nodes (s_g0 nicknamed)) = None /\
  option_map l_kind (lv nicknamed 1) = Some LE /\ fst (levels_get Exact "6s 2S1/2" nicknamed) = Ok 0%nat /\
  fst (levels_get Exact "6p 2P*1/2 F=1" nicknamed) = Ok 4%nat /\ fst (levels_get Exact "up F=1" nicknamed) = Raise KeyError /\
  fst (transitions_get Exact 1%Qc (KS "6s 2S1/2", KS "6p 2P*1/2") nicknamed) = Ok 0%nat /\ fst (transitions_get Exact 1%Qc (KS "6s 2S1/2", KS "up") nicknamed) = Raise KeyError /\
  match fst (linked_levels Exact 1%Qc 3 "6p 2P*1/2" nicknamed) with Ok d => dkeys d | Raise _ => [] end = ["6s 2S1/2"%string] /\ fst (linked_levels Exact 1%Qc 3 "up" nicknamed) = Raise KeyError /\
  fst (add_transition Exact 1%Qc plain (TNames "6p 2P*3/2" "up") None None None nicknamed) = Ok 1%nat.
Proof. split; [apply from_reachable; lia|]. do 10 (split; [vm_compute; reflexivity|]). vm_compute. reflexivity. Qed.
Print Assumptions C151_add_partial.
Print Assumptions C151_join_partial.
Print Assumptions C151_linked_refuted.
Print Assumptions C151_transitions_refuted.
Print Assumptions C151_sublevels_refuted.
