(** Two atoms that differ only in the order in which their levels were
    entered.  Used by [PropBuild]. *)
From Coq Require Import List Bool ZArith QArith Qcanon Lia String Ascii Permutation.
From Verif Require Import Base Num PyStr Util UtilProofs Regex Parse Term TermProofs Hyperfine HyperfineProofs Graph GraphProofs Rules Atom AtomInv.
Import ListNotations.

Lemma list_ext {A} : forall l r : list A, (forall i, nth_error l i = nth_error r i) -> l = r.
Proof.
  induction l as [|x l IH]; intros [|y r] H; auto; try (specialize (H 0%nat); discriminate).
  pose proof (H 0%nat) as E. cbn in E. injection E as <-. f_equal. apply IH. intros i. exact (H (S i)).
Qed.

(** ** Graphs *)

(** The same nodes with the same attribute and the same neighbours in the same
    order; the order of the nodes may differ. *)
Record gsame (g h : graph) : Prop := mk_gsame {
  gs_nd : NoDup (dkeys (g_nodes g)); gs_nd' : NoDup (dkeys (g_nodes h));
  gs_adj : NoDup (dkeys (g_adj g)); gs_adj' : NoDup (dkeys (g_adj h));
  gs_nodes : forall k, dget k (g_nodes g) = dget k (g_nodes h);
  gs_nbrs : forall k, dget k (g_adj g) = dget k (g_adj h)
}.
Lemma gsame_refl : forall g, NoDup (dkeys (g_nodes g)) -> NoDup (dkeys (g_adj g)) -> gsame g g.
Proof. intros. constructor; auto. Qed.
Lemma gsame_trans : forall g h k, gsame g h -> gsame h k -> gsame g k.
Proof. intros g h k [] []. constructor; auto; intros; congruence. Qed.
Lemma gsame_dmem : forall g h n, gsame g h -> dmem n (g_nodes g) = dmem n (g_nodes h).
Proof. intros g h n S. unfold dmem. now rewrite (gs_nodes _ _ S). Qed.
Lemma gsame_nbrs : forall g h n, gsame g h -> nbrs g n = nbrs h n.
Proof. intros g h n S. unfold nbrs. now rewrite (gs_nbrs _ _ S). Qed.
Lemma gsame_edge : forall g h u v, gsame g h -> edge g u v = edge h u v.
Proof. intros g h u v S. unfold edge. now rewrite (gsame_nbrs _ _ _ S). Qed.

Lemma gsame_touch : forall n g h, gsame g h -> gsame (g_touch n g) (g_touch n h).
Proof.
  intros n g h S. unfold g_touch. rewrite <- (gsame_dmem _ _ _ S). destruct (dmem n (g_nodes g)); auto.
  destruct S. constructor; cbn [g_nodes g_adj]; try (now apply NoDup_dset); intros k; rewrite !dget_dset; destruct (keqb k n); auto.
Qed.
Lemma gsame_add_node : forall n a g h, gsame g h -> gsame (g_add_node n a g) (g_add_node n a h).
Proof.
  intros n a g h S. apply (gsame_touch n) in S. unfold g_add_node. destruct S. constructor; cbn [g_nodes g_adj]; auto; try (now apply NoDup_dset).
  intros k. rewrite !dget_dset. destruct (keqb k n); auto.
Qed.
Lemma gsame_link : forall u v t g h, gsame g h -> gsame (g_link u v t g) (g_link u v t h).
Proof.
  intros u v t g h S. unfold g_link. rewrite (gsame_nbrs _ _ u S). destruct S. constructor; cbn [g_nodes g_adj]; auto; try (now apply NoDup_dset).
  intros k. rewrite !dget_dset. destruct (keqb k u); auto.
Qed.
Lemma gsame_add_edge : forall u v t g h, gsame g h -> gsame (g_add_edge u v t g) (g_add_edge u v t h).
Proof. intros u v t g h S. unfold g_add_edge. now apply gsame_link, gsame_link, gsame_touch, gsame_touch. Qed.

Lemma gsame_remove : forall n g h, gsame g h -> match g_remove_node n g, g_remove_node n h with
  | Some g', Some h' => gsame g' h' | None, None => True | _, _ => False end.
Proof.
  intros n g h S. unfold g_remove_node. rewrite <- (gsame_dmem _ _ _ S). destruct (dmem n (g_nodes g)); auto.
  destruct S. constructor; cbn [g_nodes g_adj].
  - now apply NoDup_ddel.
  - now apply NoDup_ddel.
  - apply NoDup_ddel. now rewrite (dkeys_map_val (ddel n)).
  - apply NoDup_ddel. now rewrite (dkeys_map_val (ddel n)).
  - intros k. rewrite !dget_ddel. destruct (keqb k n); auto.
  - intros k. rewrite !dget_ddel. destruct (keqb k n); auto. rewrite !(dget_map_val (ddel n)). now rewrite gs_nbrs0.
Qed.
Lemma gsame_attr : forall g h n, gsame g h -> dget n (node_attrs g) = dget n (node_attrs h).
Proof. intros g h n S. unfold node_attrs. rewrite !dget_somes by apply S. now rewrite (gs_nodes _ _ S). Qed.
Lemma gsame_swap : forall n a m b g, NoDup (dkeys (g_nodes g)) -> NoDup (dkeys (g_adj g)) -> dkeys (g_adj g) = dkeys (g_nodes g) -> n <> m ->
  gsame (g_add_node n a (g_add_node m b g)) (g_add_node m b (g_add_node n a g)).
Proof.
  intros n a m b g N1 N2 Kk Nm.
  assert (S : forall n a g, NoDup (dkeys (g_nodes g)) -> NoDup (dkeys (g_nodes (g_add_node n a g)))) by
    (intros n' a' g' H; unfold g_add_node, g_touch; destruct (dmem n' (g_nodes g')); cbn [g_nodes]; repeat apply NoDup_dset; auto).
  assert (S' : forall n a g, NoDup (dkeys (g_adj g)) -> NoDup (dkeys (g_adj (g_add_node n a g)))) by
    (intros n' a' g' H; unfold g_add_node, g_touch; destruct (dmem n' (g_nodes g')); cbn [g_adj]; repeat apply NoDup_dset; auto).
  assert (D : forall n a g k, dget k (g_adj (g_add_node n a g)) = if dmem n (g_nodes g) then dget k (g_adj g) else if String.eqb k n then Some [] else dget k (g_adj g)).
  { intros n' a' g' k. unfold g_add_node, g_touch. destruct (dmem n' (g_nodes g')); cbn [g_adj]; auto. rewrite dget_dset. reflexivity. }
  assert (M : forall n m a g, n <> m -> dmem n (g_nodes (g_add_node m a g)) = dmem n (g_nodes g)).
  { intros n' m' a' g' H. unfold dmem. rewrite add_node_nodes. destruct (String.eqb_spec n' m'); [contradiction|reflexivity]. }
  constructor; auto.
  - intros k. rewrite !add_node_nodes. destruct (String.eqb_spec k n), (String.eqb_spec k m); auto. congruence.
  - intros k. rewrite !D, !M by congruence. destruct (String.eqb_spec k n), (String.eqb_spec k m); destruct (dmem n (g_nodes g)), (dmem m (g_nodes g)); auto; congruence.
Qed.

(** ** States *)

Section Same.
  Context (N : Num) (muB : num N) (orc : nat -> oracle).
  Notation st := (st N).
  Notation M := (M N).

  (** No frequency is set, and all but the order of the nodes and of the
      aliases agrees. *)
  Record same (s s' : st) : Prop := mk_same {
    sm_lv : s_levels s = s_levels s'; sm_tr : s_trans s = s_trans s';
    sm_g : forall k, gsame (graph_of k s) (graph_of k s');
    sm_lal : forall k, dget k (s_lal s) = dget k (s_lal s');
    sm_tal : forall k, dget k (s_tal s) = dget k (s_tal s');
    sm_I : s_I s = s_I s'; sm_B : s_B s = s_B s'; sm_warn : s_warn s = s_warn s';
    sm_unset : forall x, In x (s_trans s) -> x_set x = None
  }.
  Lemma same_trans : forall a b c, same a b -> same b c -> same a c.
  Proof. intros a b c [] []. constructor; auto; try congruence; try (intros; eapply eq_trans; eauto). intros k. eapply gsame_trans; eauto. Qed.
  Lemma same_at_lv : forall s s' a, same s s' -> lv s a = lv s' a.
  Proof. intros s s' a S. unfold lv. now rewrite (sm_lv _ _ S). Qed.
  Lemma same_at_tr : forall s s' a, same s s' -> tr s a = tr s' a.
  Proof. intros s s' a S. unfold tr. now rewrite (sm_tr _ _ S). Qed.
  Lemma same_nm : forall s s' a, same s s' -> nm s a = nm s' a.
  Proof. intros s s' a S. unfold nm. now rewrite (same_at_lv _ _ _ S). Qed.
  Lemma same_energyE : forall s s' a, same s s' -> energyE N s a = energyE N s' a.
  Proof. intros s s' a S. unfold energyE. now rewrite (same_at_lv _ _ _ S). Qed.
  Lemma same_energyHF : forall s s' a, same s s' -> energyHF N s a = energyHF N s' a.
  Proof.
    intros s s' a S. unfold energyHF. rewrite (same_at_lv _ _ _ S). destruct (lv s' a) as [l|]; auto. destruct (l_parent l) as [p|]; auto.
    rewrite (same_at_lv _ _ _ S), (same_energyE _ _ _ S), (sm_I _ _ S). reflexivity.
  Qed.
  Lemma same_energyZ : forall s s' a, same s s' -> energyZ N muB s a = energyZ N muB s' a.
  Proof.
    intros s s' a S. unfold energyZ. rewrite (same_at_lv _ _ _ S). destruct (lv s' a) as [l|]; auto. destruct (l_parent l) as [p|]; auto.
    rewrite (same_energyHF _ _ _ S), (sm_B _ _ S). reflexivity.
  Qed.
  Lemma same_energy : forall s s' a, same s s' -> energy N muB s a = energy N muB s' a.
  Proof.
    intros s s' a S. unfold energy. rewrite (same_at_lv _ _ _ S). destruct (lv s' a) as [l|]; auto.
    destruct (l_kind l); auto using same_energyE, same_energyHF, same_energyZ.
  Qed.
  Lemma same_freq : forall s s' t, same s s' -> freq N muB s t = freq N muB s' t.
  Proof.
    intros s s' t S. unfold freq. rewrite (same_at_tr _ _ _ S). destruct (tr s' t) as [x|]; auto.
    now rewrite !(same_energy _ _ _ S).
  Qed.

  (** ** Calls that cannot tell *)

  Definition resp {A} (m : M A) : Prop := forall s s', same s s' -> fst (m s) = fst (m s') /\ same (snd (m s)) (snd (m s')).
  Lemma resp_ret : forall A (v : A), resp (ret v).
  Proof. intros A v s s' S. auto. Qed.
  Lemma resp_raise : forall A e, resp (@raise N A e).
  Proof. intros A e s s' S. auto. Qed.
  Lemma resp_bind : forall A B (m : M A) (f : A -> M B), resp m -> (forall v, resp (f v)) -> resp (bind m f).
  Proof.
    intros A B m f Hm Hf s s' S. unfold bind. destruct (Hm s s' S) as [E S']. destruct (m s) as [r s1], (m s') as [r' s1']. cbn [fst snd] in *. subst r'.
    destruct r as [v|e]; [apply Hf; auto|auto].
  Qed.
  Lemma resp_modify : forall f : st -> st, (forall s s', same s s' -> same (f s) (f s')) -> resp (modify f).
  Proof. intros f H s s' S. cbn. auto. Qed.
  Lemma resp_gets : forall A (f : st -> A), (forall s s', same s s' -> f s = f s') -> resp (gets f).
  Proof. intros A f H s s' S. unfold gets. cbn [fst snd]. now rewrite (H s s' S). Qed.
  Lemma resp_asks : forall A e (f : st -> option A), (forall s s', same s s' -> f s = f s') -> resp (asks e f).
  Proof. intros A e f H s s' S. unfold asks. rewrite (H s s' S). destruct (f s'); auto. Qed.
  Lemma resp_forM : forall A (l : list A) (f : A -> M unit), (forall v, resp (f v)) -> resp (forM l f).
  Proof. intros A l f H. induction l as [|x l IH]; [apply resp_ret|]. cbn [forM]. apply resp_bind; auto. Qed.
  Lemma resp_get_lv : forall a, resp (get_lv a).
  Proof. intros a. apply resp_asks. intros. now apply same_at_lv. Qed.
  Lemma resp_get_tr : forall a, resp (get_tr a).
  Proof. intros a. apply resp_asks. intros. now apply same_at_tr. Qed.

  (** Changes. *)
  Ltac fields := cbn [set_levels set_trans set_lal set_tal set_B set_graph set_g0 set_g1 set_g2 s_levels s_trans s_lal s_tal s_I s_B s_warn]; auto; try congruence;
    try (intros []; cbn [graph_of set_graph set_g0 set_g1 set_g2 s_g0 s_g1 s_g2 set_levels set_trans set_lal set_tal set_B]; auto;
         match goal with H : forall k, gsame (graph_of k _) _ |- _ => first [exact (H LE)|exact (H LHF)|exact (H LZ)] end).
  Lemma same_set_levels : forall f s s', same s s' -> same (set_levels N (f (s_levels s)) s) (set_levels N (f (s_levels s')) s').
  Proof. intros f s s' S. destruct S. constructor; fields. Qed.
  Lemma same_upd_lv : forall a f s s', same s s' -> same (upd_lv a f s) (upd_lv a f s').
  Proof. intros a f s s' S. unfold upd_lv. apply (same_set_levels (upd a f)). auto. Qed.
  Lemma same_upd_tr : forall a f s s', (forall x, x_set x = None -> x_set (f x) = None) -> same s s' -> same (upd_tr a f s) (upd_tr a f s').
  Proof.
    intros a f s s' Hf S. destruct S. unfold upd_tr. constructor; fields.
    intros x I. apply In_nth_error in I as [n I]. rewrite nth_error_upd in I. destruct (Nat.eqb a n).
    - destruct (nth_error (s_trans s) n) as [y|] eqn:E; [|discriminate]. cbn [option_map] in I. injection I as <-. apply Hf, sm_unset0. eapply nth_error_In; eauto.
    - apply sm_unset0. eapply nth_error_In; eauto.
  Qed.
  Lemma same_new_tr : forall x s s', x_set x = None -> same s s' -> same (set_trans N (s_trans s ++ [x]) s) (set_trans N (s_trans s' ++ [x]) s').
  Proof.
    intros x s s' Hx S. destruct S. constructor; fields. intros y I. apply in_app_iff in I as [I|[<-|[]]]; auto.
  Qed.
  Lemma same_set_lal : forall k a s s', same s s' -> same (set_lal N (dset k a (s_lal s)) s) (set_lal N (dset k a (s_lal s')) s').
  Proof. intros k a s s' S. destruct S. constructor; fields. intros k'. rewrite !dget_dset. destruct (keqb k' k); auto. Qed.
  Lemma same_set_tal : forall k a s s', same s s' -> same (set_tal N (dset k a (s_tal s)) s) (set_tal N (dset k a (s_tal s')) s').
  Proof. intros k a s s' S. destruct S. constructor; fields. intros k'. rewrite !dget_dset. destruct (keqb k' k); auto. Qed.
  Lemma same_set_B : forall b s s', same s s' -> same (set_B N b s) (set_B N b s').
  Proof. intros b s s' S. destruct S. constructor; fields. Qed.
  Lemma same_set_graph : forall k g g' s s', gsame g g' -> same s s' -> same (set_graph k g s) (set_graph k g' s').
  Proof. intros k g g' s s' G S. destruct S. destruct k; constructor; fields. Qed.

  (** ** Levels *)

  Ltac step1 :=
    match goal with
    | |- resp (bind _ _) => apply resp_bind; [|intros]
    | |- resp (ret _) => apply resp_ret
    | |- resp (raise _) => apply resp_raise
    | |- resp (get_lv _) => apply resp_get_lv
    | |- resp (get_tr _) => apply resp_get_tr
    | |- resp (forM _ _) => apply resp_forM; intros
    | |- resp (asks _ _) => apply resp_asks; intros; auto
    | |- resp (gets _) => apply resp_gets; intros
    | |- resp (modify (upd_lv _ _)) => apply resp_modify; intros; apply same_upd_lv; auto
    | |- resp (modify (upd_tr _ _)) => apply resp_modify; intros; apply same_upd_tr; auto
    | |- resp (if ?b then _ else _) => destruct b
    | |- resp (match ?x with _ => _ end) => destruct x
    end.
  Ltac resp_all := repeat step1; auto using same_nm, same_energy, same_energyE, same_energyHF, same_energyZ, same_freq, sm_I, sm_B.

  Lemma resp_new_level : forall ts E A B C g alias b, resp (new_level N ts E A B C g alias b).
  Proof.
    intros. unfold new_level. resp_all.
    - now rewrite (sm_lv _ _ H).
    - apply resp_modify. intros. apply (same_set_levels (fun l => l ++ _)). auto.
  Qed.
  Lemma resp_set_energy : forall a v, resp (set_energy N muB a v).
  Proof. intros. unfold set_energy, set_energyZ, set_energyHF, set_energyE. resp_all. Qed.
  Lemma same_install : forall a keys new s s', same s s' -> same (install N a keys new s) (install N a keys new s').
  Proof. intros a keys new s s' S. unfold install. rewrite (sm_lv _ _ S). apply same_upd_lv. rewrite <- (sm_lv _ _ S) at 1. apply (same_set_levels (fun l => l ++ new)). auto. Qed.
  Lemma same_mkHF : forall s s' a l j f, same s s' -> mkHF N s a l j f = mkHF N s' a l j f.
  Proof. intros. unfold mkHF. now rewrite (sm_I _ _ H). Qed.
  Lemma same_mkZ : forall s s' a l lm j f m, same s s' -> mkZ N s a l lm j f m = mkZ N s' a l lm j f m.
  Proof. intros. unfold mkZ. now rewrite (sm_I _ _ H). Qed.
  Lemma resp_populate_sublevels : forall a, resp (populate_sublevels N a).
  Proof.
    intros. unfold populate_sublevels. resp_all.
    - apply resp_modify. intros s s' S. rewrite (sm_I _ _ S). rewrite (map_ext (mkHF N s a v v0) (mkHF N s' a v v0)); [apply same_install; auto|]. intros. now apply same_mkHF.
    - apply resp_modify. intros s s' S. erewrite (map_ext (mkZ N s a v v1 v2 v3)); [apply same_install; auto|]. intros. now apply same_mkZ.
  Qed.
  Lemma resp_add_node : forall a, resp (add_node N a).
  Proof. intros. unfold add_node. resp_all. apply resp_modify. intros s s' S. apply same_set_graph; auto. apply gsame_add_node, S. Qed.
  Lemma resp_lazy : forall a, resp (lazy_sublevels N a).
  Proof. intros. unfold lazy_sublevels. resp_all; [apply resp_populate_sublevels|apply resp_add_node]. Qed.
  Lemma resp_sublevels : forall a, resp (sublevels N a).
  Proof. intros. unfold sublevels. resp_all. apply resp_lazy. Qed.
  Lemma resp_getitem : forall a key, resp (getitem N a key).
  Proof.
    intros a key. unfold getitem. generalize 3%nat. intros n. revert a key. induction n as [|n IH]; intros; cbn [lv_getitem]; resp_all. apply resp_lazy.
  Qed.
  Lemma resp_set_alias : forall a al, resp (set_alias N a al).
  Proof. intros. unfold set_alias. resp_all. apply resp_modify. intros. now apply same_set_lal. Qed.
  Lemma resp_lv_add : forall n a, resp (lv_add_to_atom N n a).
  Proof. induction n as [|n IH]; intros; cbn [lv_add_to_atom]; resp_all. apply resp_add_node. Qed.
  Lemma resp_add_level : forall a p alias, resp (add_level N a p alias).
  Proof.
    intros. unfold add_level. resp_all; try apply resp_lv_add; try apply resp_set_alias; try apply resp_populate_sublevels; try apply resp_sublevels.
    apply resp_modify. intros. now apply same_set_lal.
  Qed.
  Lemma resp_del_level : forall key, resp (del_level N key).
  Proof.
    intros key s s' S. unfold del_level. pose proof (gsame_remove key _ _ (sm_g _ _ S LE)) as H. cbn [graph_of] in H.
    destruct (g_remove_node key (s_g0 s)) as [g|], (g_remove_node key (s_g0 s')) as [g'|]; try contradiction; auto. cbn [fst snd]. split; auto.
    apply (same_set_graph LE g g'); auto.
  Qed.
  Lemma resp_levels_get : forall key, resp (levels_get N key).
  Proof.
    assert (Hn : forall k, resp (node N k)) by (intros; unfold node; apply resp_asks; intros; now apply gsame_attr, (sm_g _ _ H LE)).
    intros. unfold levels_get. resp_all; try apply resp_getitem. now apply (sm_lal _ _ H).
  Qed.

  (** ** Transitions *)

  Lemma resp_add_edge : forall t, resp (add_edge N t).
  Proof. intros. unfold add_edge. resp_all. apply resp_modify. intros s s' S. apply same_set_graph; auto. apply gsame_add_edge, S. Qed.
  Lemma resp_new_trans : forall k p e1 e2 A rel al alias, resp (new_trans N muB k p e1 e2 None A rel al alias).
  Proof.
    intros. unfold new_trans. resp_all.
    all: try (now rewrite (sm_tr _ _ H)).
    all: try apply resp_add_edge.
    all: apply resp_modify; intros; first [now apply same_set_tal|now apply same_new_tr].
  Qed.
  Lemma resp_new_transition : forall e1 e2 A alias, resp (new_transition N muB e1 e2 None A alias).
  Proof. intros. unfold new_transition. resp_all. all: apply resp_new_trans. Qed.
  Lemma resp_tr_add : forall t, resp (tr_add_to_atom N t).
  Proof. intros. unfold tr_add_to_atom. resp_all. apply resp_add_edge. Qed.
  Lemma resp_new_sub : forall t ab, resp (new_sub N muB t ab).
  Proof. intros. unfold new_sub, new_HF, new_Z. resp_all. all: apply resp_new_trans. Qed.
  Lemma same_pairs : forall s s' x l, same s s' -> filter (pair_filter N s x) l = filter (pair_filter N s' x) l.
  Proof. intros. apply filter_ext. intros ab. unfold pair_filter. now rewrite !(same_at_lv _ _ _ H). Qed.
  Lemma resp_populate_sub : forall t, resp (populate_subtransitions N muB t).
  Proof. intros. unfold populate_subtransitions. resp_all. all: first [apply resp_sublevels|apply resp_new_sub|now apply same_pairs]. Qed.
  Lemma resp_lazy_tr : forall t, resp (lazy_subtransitions N muB t).
  Proof. intros. unfold lazy_subtransitions, tr_join. resp_all. all: first [apply resp_sublevels|apply resp_populate_sub|apply resp_tr_add]. Qed.
  Lemma resp_subtransitions : forall t, resp (subtransitions N muB t).
  Proof. intros. unfold subtransitions. resp_all. apply resp_lazy_tr. Qed.
  Lemma resp_tr_getitem : forall t k, resp (tr_getitem N muB t k).
  Proof. intros. unfold tr_getitem. resp_all. apply resp_lazy_tr. Qed.
  Lemma resp_tr_alias : forall t al, resp (tr_alias N t al).
  Proof. intros. unfold tr_alias. resp_all. apply resp_modify. intros. now apply same_set_tal. Qed.
  Lemma resp_bind_get_tr : forall B t (f : trans N -> M B), (forall x, x_set x = None -> resp (f x)) -> resp (bind (get_tr t) f).
  Proof.
    intros B t f H s s' S. unfold bind, get_tr, asks. rewrite (same_at_tr _ _ t S). destruct (tr s' t) as [x|] eqn:E; auto. apply H; auto.
    apply (sm_unset _ _ S). rewrite (sm_tr _ _ S). unfold tr in E. eapply nth_error_In; eauto.
  Qed.
  Lemma resp_add_transition : forall sp A alias, (match sp with TNames _ _ => False | _ => True end) -> resp (add_transition N muB orc sp None A alias).
  Proof.
    intros sp A alias Hsp. unfold add_transition. apply resp_bind.
    - destruct sp; [apply resp_ret|contradiction|apply resp_new_transition].
    - intros t. apply resp_bind; [apply resp_tr_add|]. intros _. apply resp_bind_get_tr. intros x ->. resp_all. apply resp_modify. intros. now apply same_set_tal.
  Qed.

  (** ** Queries *)

  Lemma resp_linked : forall n key, resp (linked_levels N muB n key).
  Proof.
    induction n as [|n IH]; intros; cbn [linked_levels]; resp_all. 1: apply resp_levels_get. 1: apply resp_populate_sub. apply (sm_g _ _ H).
  Qed.
  Lemma same_sum_A : forall s s' a ts tot, same s s' -> sum_A N s a ts tot = sum_A N s' a ts tot.
  Proof.
    intros s s' a ts tot S. revert tot. induction ts as [|t ts IH]; intros; cbn [sum_A]; auto. rewrite (same_at_tr _ _ _ S). destruct (tr s' t) as [x|]; auto.
    destruct (Nat.eqb (x_up x) a); auto. destruct (x_A x); auto.
  Qed.
  Lemma same_A_coeffs : forall s s' key d, same s s' -> A_coeffs N s key d = A_coeffs N s' key d.
  Proof.
    intros s s' key d S. induction d as [|[n t] d IH]; cbn [A_coeffs]; auto. rewrite (same_at_tr _ _ _ S). destruct (tr s' t) as [x|]; auto.
    rewrite (same_nm _ _ _ S). destruct (nm s' (x_up x)); auto. now rewrite IH.
  Qed.
  Lemma resp_total_rate : forall key, resp (total_rate N muB key).
  Proof.
    intros. unfold total_rate. apply resp_bind; [apply resp_linked|]. intros d. apply resp_bind; [apply resp_levels_get|]. intros a s s' S. cbn [fst snd].
    now rewrite (same_sum_A _ _ _ _ _ S).
  Qed.
  Lemma resp_branching : forall key, resp (branching N muB key).
  Proof.
    intros. unfold branching. apply resp_bind; [apply resp_linked|]. intros d s s' S. cbn [fst snd]. now rewrite (same_A_coeffs _ _ _ _ S).
  Qed.

  (** ** Histories *)

  (** The calls that neither enforce frequencies nor go by the order of levels
      or of the two ends of a transition. *)
  Definition calm (o : op N) : bool :=
    match o with
    | OLevelInt _ _ | OTransition _ _ | OTransitionStr _ _ | OSetFreq _ _ _ | OEnforce _ | OPopulate _ _ | OPopulateInternal _ => false
    | ONewTransition _ _ _ (Some _) _ _ | OAddTransition _ _ (Some _) _ _ | OAddTransition _ (TNames _ _) _ _ _ => false
    | _ => true
    end.
  Lemma resp_void : forall A (m : M A), resp m -> resp (void N m).
  Proof. intros. unfold void. apply resp_bind; auto. intros. apply resp_ret. Qed.
  Lemma resp_op : forall o, calm o = true -> resp (run_op N muB orc o).
  Proof.
    intros o C. destruct o; try discriminate C; cbn [run_op]; try apply resp_void.
    - apply resp_new_level.
    - apply resp_add_level.
    - apply resp_del_level.
    - apply resp_levels_get.
    - apply resp_getitem.
    - apply resp_sublevels.
    - apply resp_set_alias.
    - apply resp_set_energy.
    - apply resp_modify. intros. now apply same_upd_lv.
    - apply resp_modify. intros. now apply same_upd_lv.
    - apply resp_modify. intros. now apply same_upd_lv.
    - apply resp_modify. intros. now apply same_set_B.
    - destruct f; [discriminate C|]. apply resp_new_transition.
    - destruct f; [destruct sp; discriminate C|]. apply resp_add_transition. destruct sp; auto. discriminate C.
    - apply resp_tr_getitem.
    - apply resp_subtransitions.
    - apply resp_tr_alias.
    - apply resp_modify. intros. now apply same_upd_tr.
    - apply resp_linked.
    - apply resp_total_rate.
    - apply resp_branching.
  Qed.
  Lemma same_run : forall os s s', forallb calm os = true -> same s s' -> same (run N muB orc s os) (run N muB orc s' os).
  Proof.
    induction os as [|o os IH]; intros s s' C S; auto. cbn [forallb] in C. apply andb_prop in C as [C1 C2]. unfold run. cbn [fold_left]. apply IH; auto.
    apply resp_op; auto.
  Qed.

  (** ** Adding levels *)

  (** Adding the level [l] at [a], which has no sublevels yet. *)
  Definition put (a : nat) (l : level N) (s : st) : st :=
    let s1 := set_g0 N (g_add_node (lname l) a (s_g0 s)) (upd_lv a (lv_set_attached N true) s) in
    match l_alias l with Some al => set_lal N (dset al a (s_lal s)) s1 | None => s1 end.
  Definition plain_level (s : st) (a : nat) (l : level N) : Prop := lv s a = Some l /\ l_kind l = LE /\ l_subs l = [].
  Lemma add_level_put : forall s a l, plain_level s a l -> add_level N a false None s = (Ok a, put a l s).
  Proof.
    intros s a l [L [K Sb]].
    assert (L1 : lv (upd_lv a (lv_set_attached N true) s) a = Some (lv_set_attached N true l)) by (unfold lv, upd_lv; cbn [s_levels set_levels]; rewrite nth_error_upd_eq; unfold lv in L; rewrite L; reflexivity).
    assert (L2 : lv (set_g0 N (g_add_node (lname l) a (s_g0 s)) (upd_lv a (lv_set_attached N true) s)) a = Some (lv_set_attached N true l)) by exact L1.
    unfold add_level. cbn [lv_add_to_atom]. unfold bind at 1. unfold bind at 1. unfold modify at 1. cbv beta iota.
    unfold bind at 1. unfold add_node. unfold bind at 1. unfold get_lv at 1, asks at 1. rewrite L1. cbv beta iota. unfold modify at 1.
    change (l_kind (lv_set_attached N true l)) with (l_kind l). rewrite K. change (lname (lv_set_attached N true l)) with (lname l).
    cbn [set_graph graph_of]. change (s_g0 (upd_lv a (lv_set_attached N true) s)) with (s_g0 s).
    unfold bind at 1. unfold get_lv at 1, asks at 1. rewrite L2. cbv beta iota. change (l_subs (lv_set_attached N true l)) with (l_subs l). rewrite Sb. cbn [dvals map forM]. unfold ret at 1. cbv beta iota.
    unfold bind at 1. unfold ret at 1. cbv beta iota. unfold bind at 1. unfold get_lv at 1, asks at 1. rewrite L2. cbv beta iota.
    change (l_alias (lv_set_attached N true l)) with (l_alias l). unfold put. destruct (l_alias l); reflexivity.
  Qed.
  Lemma put_lv : forall s a l b, b <> a -> lv (put a l s) b = lv s b.
  Proof. intros. unfold put, lv. destruct (l_alias l); cbn; apply nth_error_upd_neq; auto. Qed.
  Lemma put_swap : forall s a l b m, WF N s -> (forall x, In x (s_trans s) -> x_set x = None) -> a <> b -> lname l <> lname m ->
    (forall al, l_alias l = Some al -> l_alias m <> Some al) -> same (put b m (put a l s)) (put a l (put b m s)).
  Proof.
    intros s a l b m W U Nab Nn Na.
    assert (G : gsame (g_add_node (lname m) b (g_add_node (lname l) a (s_g0 s))) (g_add_node (lname l) a (g_add_node (lname m) b (s_g0 s)))).
    { pose proof (go_wf _ _ _ _ (wf_g _ _ W LE)) as GW. cbn [graph_of] in GW. apply gsame_swap; [apply GW|rewrite (gw_keys _ GW); apply GW|apply GW|congruence]. }
    assert (Gk : forall k, k <> LE -> gsame (graph_of k s) (graph_of k s)).
    { intros k _. pose proof (go_wf _ _ _ _ (wf_g _ _ W k)) as GW. apply gsame_refl; [apply GW|rewrite (gw_keys _ GW); apply GW]. }
    assert (Lv : upd b (lv_set_attached N true) (upd a (lv_set_attached N true) (s_levels s)) = upd a (lv_set_attached N true) (upd b (lv_set_attached N true) (s_levels s))).
    { apply list_ext. intros i. rewrite !nth_error_upd. destruct (Nat.eqb b i), (Nat.eqb a i); reflexivity. }
    assert (X : forall d, same (set_lal N d (set_g0 N (g_add_node (lname m) b (g_add_node (lname l) a (s_g0 s))) (upd_lv b (lv_set_attached N true) (upd_lv a (lv_set_attached N true) s))))
                       (set_lal N d (set_g0 N (g_add_node (lname l) a (g_add_node (lname m) b (s_g0 s))) (upd_lv a (lv_set_attached N true) (upd_lv b (lv_set_attached N true) s))))).
    { intros d. constructor; auto. intros []; [exact G|exact (Gk LHF ltac:(discriminate))|exact (Gk LZ ltac:(discriminate))]. }
    unfold put. destruct (l_alias l) as [al|], (l_alias m) as [am|]; try exact (X _).
    specialize (X (dset am b (dset al a (s_lal s)))). destruct X. constructor; auto. intros k. cbn. rewrite !dget_dset.
    destruct (keqb_spec k am), (keqb_spec k al); auto. exfalso. apply (Na al); congruence.
  Qed.
End Same.
