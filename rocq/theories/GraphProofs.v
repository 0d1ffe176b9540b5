(** Facts about the graph operations. *)
From Coq Require Import List Bool ZArith Lia String.
From Verif Require Import Base Graph.
Import ListNotations.

Record graph_wf (g : graph) : Prop := mk_graph_wf {
  gw_nodup : NoDup (dkeys (g_nodes g));
  gw_keys : dkeys (g_adj g) = dkeys (g_nodes g);
  gw_nbrs : forall u, NoDup (dkeys (nbrs g u));
  gw_sym : forall u v t, edge g u v = Some t -> edge g v u = Some t
}.

Lemma eqb_str_refl : forall x : string, keqb x x = true.
Proof. apply keqb_refl. Qed.

Lemma graph_wf_empty : graph_wf g_empty.
Proof. constructor; simpl; try constructor. intros u v t. discriminate. Qed.

Lemma dget_map_val {K V W} `{Eqb K} (f : V -> W) : forall (d : dict K V) k,
  dget k (map (fun kv => (fst kv, f (snd kv))) d) = option_map f (dget k d).
Proof. induction d as [|[k' v] d IH]; intros k; simpl; auto. destruct (keqb k k'); auto. Qed.

Lemma dkeys_map_val {K V W} (f : V -> W) : forall (d : dict K V),
  dkeys (map (fun kv => (fst kv, f (snd kv))) d) = dkeys d.
Proof. intros. unfold dkeys. rewrite map_map. reflexivity. Qed.

Lemma dmem_In {K V} `{Eqb K} : forall (d : dict K V) k, dmem k d = true <-> In k (dkeys d).
Proof.
  intros. unfold dmem. rewrite dget_Some_key. destruct (dget k d); split; intros E; eauto; try discriminate.
  destruct E as [? E]. discriminate.
Qed.

Lemma dmem_false {K V} `{Eqb K} : forall (d : dict K V) k, dmem k d = false <-> ~ In k (dkeys d).
Proof. intros. rewrite <- dmem_In. destruct (dmem k d); split; auto; congruence. Qed.

(** ** touch *)

Lemma touch_nodes : forall n g m, dget m (g_nodes (g_touch n g)) =
  match dget m (g_nodes g) with
  | Some o => Some o
  | None => if String.eqb m n then Some None else None
  end.
Proof.
  intros. unfold g_touch. destruct (dmem n (g_nodes g)) eqn:D.
  - destruct (dget m (g_nodes g)) eqn:E; auto.
    destruct (String.eqb_spec m n); auto. subst. unfold dmem in D. rewrite E in D. discriminate.
  - cbn [g_nodes]. rewrite dget_dset. change keqb with String.eqb.
    destruct (String.eqb_spec m n).
    + subst. unfold dmem in D. destruct (dget n (g_nodes g)); [discriminate|auto].
    + destruct (dget m (g_nodes g)); auto.
Qed.

Lemma touch_keys_In : forall n g m, In m (dkeys (g_nodes (g_touch n g))) <-> m = n \/ In m (dkeys (g_nodes g)).
Proof.
  intros. unfold g_touch. destruct (dmem n (g_nodes g)) eqn:D.
  - split; auto. intros [->|]; auto. now apply dmem_In.
  - cbn [g_nodes]. apply In_dkeys_dset.
Qed.

Lemma touch_nbrs : forall n g a, graph_wf g -> nbrs (g_touch n g) a = nbrs g a.
Proof.
  intros n g a W. unfold g_touch. destruct (dmem n (g_nodes g)) eqn:D; auto.
  unfold nbrs. cbn [g_adj]. rewrite dget_dset. change keqb with String.eqb.
  destruct (String.eqb_spec a n); auto. subst.
  apply dmem_false in D. rewrite <- (gw_keys _ W) in D. apply dget_None in D. now rewrite D.
Qed.

Lemma touch_edge : forall n g a b, graph_wf g -> edge (g_touch n g) a b = edge g a b.
Proof. intros. unfold edge. now rewrite touch_nbrs. Qed.

Lemma touch_keys : forall n g, graph_wf g -> dkeys (g_nodes (g_touch n g)) =
  if dmem n (g_nodes g) then dkeys (g_nodes g) else dkeys (g_nodes g) ++ [n].
Proof.
  intros n g W. unfold g_touch. destruct (dmem n (g_nodes g)) eqn:D; auto.
  cbn [g_nodes]. apply dkeys_dset_new. now apply dmem_false.
Qed.

Lemma touch_wf : forall n g, graph_wf g -> graph_wf (g_touch n g).
Proof.
  intros n g W. constructor.
  - unfold g_touch. destruct (dmem n (g_nodes g)); [apply W|]. cbn [g_nodes]. apply NoDup_dset, W.
  - unfold g_touch. destruct (dmem n (g_nodes g)) eqn:D; [apply W|]. cbn [g_nodes g_adj].
    apply dmem_false in D. rewrite !dkeys_dset_new; rewrite ?(gw_keys _ W); auto.
  - intros u. rewrite touch_nbrs by auto. apply W.
  - intros u v t. rewrite !touch_edge by auto. apply W.
Qed.

(** ** add_node *)

Lemma add_node_nodes : forall n a g m, dget m (g_nodes (g_add_node n a g)) =
  if String.eqb m n then Some (Some a) else dget m (g_nodes g).
Proof.
  intros. unfold g_add_node. cbn [g_nodes]. rewrite dget_dset. change keqb with String.eqb.
  destruct (String.eqb_spec m n); auto. rewrite touch_nodes.
  destruct (dget m (g_nodes g)); auto. destruct (String.eqb_spec m n); congruence.
Qed.

Lemma add_node_nbrs : forall n a g u, graph_wf g -> nbrs (g_add_node n a g) u = nbrs g u.
Proof. intros. exact (touch_nbrs n g u H). Qed.

Lemma add_node_edge : forall n a g u v, graph_wf g -> edge (g_add_node n a g) u v = edge g u v.
Proof. intros. exact (touch_edge n g u v H). Qed.

Lemma add_node_wf : forall n a g, graph_wf g -> graph_wf (g_add_node n a g).
Proof.
  intros n a g W. pose proof (touch_wf n g W) as W'. constructor.
  - unfold g_add_node. cbn [g_nodes]. apply NoDup_dset, W'.
  - unfold g_add_node. cbn [g_nodes g_adj]. rewrite (gw_keys _ W'). symmetry. apply dkeys_dset_old.
    apply touch_keys_In. auto.
  - apply W'.
  - apply W'.
Qed.

Lemma add_node_keys : forall n a g, graph_wf g -> dkeys (g_nodes (g_add_node n a g)) =
  if dmem n (g_nodes g) then dkeys (g_nodes g) else dkeys (g_nodes g) ++ [n].
Proof.
  intros. unfold g_add_node. cbn [g_nodes]. rewrite dkeys_dset_old.
  - now apply touch_keys.
  - apply touch_keys_In. auto.
Qed.

(** ** add_edge *)

Lemma link_nbrs : forall u v t g a, nbrs (g_link u v t g) a = if String.eqb a u then dset v t (nbrs g u) else nbrs g a.
Proof.
  intros. unfold g_link, nbrs at 1. cbn [g_adj]. rewrite dget_dset. change keqb with String.eqb.
  now destruct (String.eqb a u).
Qed.

Lemma link_edge : forall u v t g a b, edge (g_link u v t g) a b =
  if String.eqb a u && String.eqb b v then Some t else edge g a b.
Proof.
  intros. unfold edge. rewrite link_nbrs. destruct (String.eqb_spec a u); auto. subst.
  rewrite dget_dset. reflexivity.
Qed.

Lemma add_edge_edge : forall u v t g a b, graph_wf g -> edge (g_add_edge u v t g) a b =
  if (String.eqb a u && String.eqb b v) || (String.eqb a v && String.eqb b u) then Some t else edge g a b.
Proof.
  intros. unfold g_add_edge. rewrite !link_edge, !touch_edge by auto using touch_wf.
  destruct (String.eqb a u && String.eqb b v), (String.eqb a v && String.eqb b u); auto.
Qed.

Lemma add_edge_nbrs : forall u v t g a, graph_wf g -> nbrs (g_add_edge u v t g) a =
  if String.eqb a v then dset u t (if String.eqb v u then dset v t (nbrs g u) else nbrs g v)
  else if String.eqb a u then dset v t (nbrs g u) else nbrs g a.
Proof.
  intros. unfold g_add_edge. rewrite !link_nbrs, !touch_nbrs by auto using touch_wf. reflexivity.
Qed.

Lemma add_edge_keys : forall u v t g, graph_wf g ->
  dkeys (g_nodes (g_add_edge u v t g)) = dkeys (g_nodes (g_touch v (g_touch u g))) /\
  dkeys (g_adj (g_add_edge u v t g)) = dkeys (g_nodes (g_touch v (g_touch u g))).
Proof.
  intros u v t g W. split; [reflexivity|].
  pose proof (touch_wf v _ (touch_wf u _ W)) as W'.
  unfold g_add_edge, g_link at 1. cbn [g_adj].
  rewrite dkeys_dset_old; unfold g_link; cbn [g_adj].
  - rewrite dkeys_dset_old; [apply W'|]. rewrite (gw_keys _ W'). rewrite !touch_keys_In. auto.
  - apply In_dkeys_dset. right. rewrite (gw_keys _ W'), !touch_keys_In. auto.
Qed.

Lemma add_edge_nodes : forall u v t g m, dget m (g_nodes (g_add_edge u v t g)) =
  match dget m (g_nodes g) with
  | Some o => Some o
  | None => if String.eqb m u || String.eqb m v then Some None else None
  end.
Proof.
  intros. change (g_nodes (g_add_edge u v t g)) with (g_nodes (g_touch v (g_touch u g))).
  rewrite !touch_nodes. destruct (dget m (g_nodes g)); auto.
  destruct (String.eqb m u), (String.eqb m v); auto.
Qed.

Lemma add_edge_wf : forall u v t g, graph_wf g -> graph_wf (g_add_edge u v t g).
Proof.
  intros u v t g W. pose proof (touch_wf v _ (touch_wf u _ W)) as W'.
  destruct (add_edge_keys u v t g W) as [K1 K2]. constructor.
  - rewrite K1. apply W'.
  - congruence.
  - intros a. rewrite add_edge_nbrs by auto.
    destruct (String.eqb a v), (String.eqb v u), (String.eqb a u); repeat apply NoDup_dset; apply W.
  - intros a b x. rewrite !add_edge_edge by auto.
    destruct (String.eqb a u), (String.eqb b v), (String.eqb a v), (String.eqb b u); simpl; auto; apply W.
Qed.

(** ** remove_node *)

Lemma remove_nodes : forall n g g' m, g_remove_node n g = Some g' ->
  dget m (g_nodes g') = if String.eqb m n then None else dget m (g_nodes g).
Proof.
  intros n g g' m E. unfold g_remove_node in E. destruct (dmem n (g_nodes g)); [|discriminate].
  injection E as <-. cbn [g_nodes]. rewrite dget_ddel. reflexivity.
Qed.

Lemma remove_nbrs : forall n g g' a, g_remove_node n g = Some g' ->
  nbrs g' a = if String.eqb a n then [] else ddel n (nbrs g a).
Proof.
  intros n g g' a E. unfold g_remove_node in E. destruct (dmem n (g_nodes g)); [|discriminate].
  injection E as <-. unfold nbrs. cbn [g_adj]. rewrite dget_ddel. change keqb with String.eqb.
  destruct (String.eqb a n); auto. rewrite (dget_map_val (ddel n)).
  destruct (dget a (g_adj g)); reflexivity.
Qed.

Lemma remove_edge : forall n g g' a b, g_remove_node n g = Some g' ->
  edge g' a b = if String.eqb a n || String.eqb b n then None else edge g a b.
Proof.
  intros n g g' a b E. unfold edge. rewrite (remove_nbrs _ _ _ _ E).
  destruct (String.eqb a n); auto. rewrite dget_ddel. reflexivity.
Qed.

Lemma remove_wf : forall n g g', graph_wf g -> g_remove_node n g = Some g' -> graph_wf g'.
Proof.
  intros n g g' W E. constructor.
  - unfold g_remove_node in E. destruct (dmem n (g_nodes g)); [|discriminate]. injection E as <-.
    cbn [g_nodes]. apply NoDup_ddel, W.
  - unfold g_remove_node in E. destruct (dmem n (g_nodes g)); [|discriminate]. injection E as <-.
    cbn [g_nodes g_adj]. rewrite !dkeys_ddel, (dkeys_map_val (ddel n)). now rewrite (gw_keys _ W).
  - intros u. rewrite (remove_nbrs _ _ _ _ E). destruct (String.eqb u n); [constructor|]. apply NoDup_ddel, W.
  - intros u v t. rewrite !(remove_edge _ _ _ _ _ E), orb_comm.
    destruct (String.eqb v n || String.eqb u n); auto. apply W.
Qed.

(** ** Attribute dictionaries *)

Lemma somes_keys_sub : forall {A} (d : dict string (option A)) k, In k (dkeys (somes d)) -> In k (dkeys d).
Proof.
  induction d as [|[k' [v|]] d IH]; simpl; intros k; auto. intros [|]; auto.
Qed.

Lemma somes_nodup : forall {A} (d : dict string (option A)), NoDup (dkeys d) -> NoDup (dkeys (somes d)).
Proof.
  induction d as [|[k [v|]] d IH]; simpl; intros W; inversion W; subst; auto.
  constructor; auto. intros I. apply H1, somes_keys_sub, I.
Qed.

Lemma dget_somes : forall {A} (d : dict string (option A)) k, NoDup (dkeys d) ->
  dget k (somes d) = match dget k d with Some o => o | None => None end.
Proof.
  induction d as [|[k' [v|]] d IH]; simpl; intros k W; inversion W; subst; auto.
  - destruct (String.eqb k k'); auto.
  - destruct (String.eqb_spec k k'); auto. subst.
    assert (~ In k' (dkeys (somes d))) by (intros I; apply H1, somes_keys_sub, I).
    now apply dget_None.
Qed.

Lemma node_attrs_get : forall g n, graph_wf g ->
  dget n (node_attrs g) = match dget n (g_nodes g) with Some o => o | None => None end.
Proof. intros. apply dget_somes, H. Qed.

Lemma node_attrs_nodup : forall g, graph_wf g -> NoDup (dkeys (node_attrs g)).
Proof. intros. apply somes_nodup, H. Qed.

(** *** Edges *)

Lemma edges_from_In : forall a seen u v t, In ((u, v), t) (edges_from seen a) <->
  exists p d q, a = p ++ (u, d) :: q /\ In (v, t) d /\ ~ In v seen /\ ~ In v (dkeys p).
Proof.
  induction a as [|[w d] a IH]; intros seen u v t; cbn [edges_from].
  - split; [contradiction|]. intros [[|? ?] [? [? [E _]]]]; discriminate.
  - rewrite in_app_iff, IH. split.
    + intros [I|[p [d' [q [-> [I [S1 S2]]]]]]].
      * apply in_map_iff in I as [[v' t'] [E I]]. apply filter_In in I as [I F]. injection E as <- <- <-.
        exists [], d, a. split; [reflexivity|]. split; auto. split; auto.
        intros X. apply negb_true_iff in F. assert (Y : existsb (String.eqb v') seen = true).
        { apply existsb_exists. exists v'. split; auto. apply String.eqb_refl. }
        simpl in F. congruence.
      * exists ((w, d) :: p), d', q. split; [reflexivity|]. split; auto. simpl in S1. split; [tauto|].
        simpl. intros [->|X]; [apply S1; auto | auto].
    + intros [[|[w' d'] p] [d0 [q [E [I [S1 S2]]]]]].
      * injection E as -> -> ->. left. apply in_map_iff. exists (v, t). split; auto.
        apply filter_In. split; auto. apply negb_true_iff.
        destruct (existsb (String.eqb (fst (v, t))) seen) eqn:X; auto.
        apply existsb_exists in X as [y [Iy Y]]. apply String.eqb_eq in Y. simpl in Y. subst. contradiction.
      * injection E as -> -> ->. right. exists p, d0, q. split; [reflexivity|]. split; auto.
        simpl in S2. split; [|tauto]. simpl. intros [->|X]; [apply S2; auto | auto].
Qed.

(** The position of a key in a list. *)
Fixpoint before (u v : string) (l : list string) : Prop :=
  match l with
  | [] => False
  | x :: l' => x = u \/ (x <> v /\ before u v l')
  end.
Fixpoint beforeb (u v : string) (l : list string) : bool :=
  match l with
  | [] => false
  | x :: l' => String.eqb x u || (negb (String.eqb x v) && beforeb u v l')
  end.

Lemma beforeb_spec : forall u v l, beforeb u v l = true <-> before u v l.
Proof.
  induction l; simpl; [split; [discriminate|contradiction]|].
  rewrite orb_true_iff, andb_true_iff, negb_true_iff, IHl, String.eqb_eq, String.eqb_neq. tauto.
Qed.

Lemma before_split : forall u v l, NoDup l -> (before u v l <->
  exists p q, l = p ++ u :: q /\ ~ In v p).
Proof.
  induction l as [|x l IH]; simpl; intros W.
  - split; [contradiction|]. intros [[|? ?] [? [E _]]]; discriminate.
  - inversion W; subst. rewrite IH by auto. split.
    + intros [->|[Hn [p [q [-> Hp]]]]].
      * exists [], l. auto.
      * exists (x :: p), q. split; auto. intros [|]; auto.
    + intros [[|y p] [q [E Hp]]].
      * injection E as -> _. auto.
      * injection E as -> ->. right. split; [intros ->; apply Hp; left; auto|]. exists p, q. split; auto.
        intros I. apply Hp. right; auto.
Qed.

Lemma before_total : forall u v l, In u l -> In v l -> before u v l \/ before v u l.
Proof.
  induction l as [|x l IH]; simpl; [tauto|].
  intros [->|Hu]; [auto|]. intros [->|Hv]; [auto|].
  destruct (String.eqb_spec x u); [left; auto|]. destruct (String.eqb_spec x v); [right; auto|].
  destruct (IH Hu Hv); [left | right]; auto.
Qed.

Lemma before_antisym : forall u v l, before u v l -> before v u l -> u = v.
Proof.
  induction l as [|x l IH]; simpl; [tauto|]. intros [->|[H1 H2]] [H3|[H3 H4]]; auto; congruence.
Qed.

(** [nx.get_edge_attributes] has the edge u-v under the key (u, v) iff the
    node u was inserted before v. *)
Lemma edge_attrs_In : forall g u v t, graph_wf g ->
  (In ((u, v), t) (edge_attrs g) <-> edge g u v = Some t /\ before u v (dkeys (g_nodes g))).
Proof.
  intros g u v t W. unfold edge_attrs. rewrite edges_from_In.
  rewrite before_split by apply W. rewrite <- (gw_keys _ W).
  assert (N : NoDup (dkeys (g_adj g))) by (rewrite (gw_keys _ W); apply W).
  split.
  - intros [p [d [q [E [I [_ S]]]]]].
    assert (D : dget u (g_adj g) = Some d).
    { apply In_dget_nodup; auto. rewrite E. apply in_or_app. right; left; auto. }
    split.
    + unfold edge, nbrs. rewrite D. apply In_dget_nodup; auto.
      pose proof (gw_nbrs _ W u) as X. unfold nbrs in X. now rewrite D in X.
    + exists (dkeys p), (dkeys q). split; auto. rewrite E. unfold dkeys. now rewrite map_app.
  - intros [E [p [q [K S]]]]. unfold edge in E. unfold nbrs in E.
    destruct (dget u (g_adj g)) as [d|] eqn:D; [|discriminate].
    apply dget_In in D. apply in_split in D as [p' [q' D]].
    exists p', d, q'. split; auto. split; [now apply dget_In|]. split; [auto|].
    rewrite D in K. unfold dkeys in K. rewrite map_app in K. cbn [map fst] in K.
    rewrite D in N. unfold dkeys in N. rewrite map_app in N. cbn [map fst] in N.
    assert (X : map fst p' = p).
    { clear - K N. revert p K. induction (map fst p') as [|y l IH]; intros [|z p] K; simpl in *; auto.
      - injection K as -> K. exfalso. inversion N; subst. apply H1. rewrite K. apply in_or_app. right; left; auto.
      - injection K as -> K. exfalso. inversion N; subst. apply H1. apply in_or_app. right; left; auto.
      - injection K as -> K. inversion N; subst. f_equal. now apply IH. }
    unfold dkeys. now rewrite X.
Qed.

Lemma NoDup_app {A} : forall (a b : list A), NoDup a -> NoDup b -> (forall x, In x a -> ~ In x b) -> NoDup (a ++ b).
Proof.
  induction a as [|x a IH]; simpl; intros b Ha Hb D; auto. inversion Ha; subst. constructor.
  - rewrite in_app_iff. intros [|]; [contradiction|]. now apply (D x); auto.
  - apply IH; auto.
Qed.

Lemma filter_fst_nodup {K V} (f : K * V -> bool) : forall d : dict K V, NoDup (dkeys d) -> NoDup (dkeys (filter f d)).
Proof.
  induction d as [|[k v] d IH]; simpl; intros W; auto. inversion W; subst.
  destruct (f (k, v)); auto. simpl. constructor; auto. intros I. apply H1.
  unfold dkeys in *. apply in_map_iff in I as [x [E I]]. apply filter_In in I as [I _].
  rewrite <- E. now apply in_map.
Qed.

Lemma edges_from_nodup : forall a seen, NoDup (dkeys a) -> (forall u d, In (u, d) a -> NoDup (dkeys d)) ->
  NoDup (dkeys (edges_from seen a)).
Proof.
  induction a as [|[u d] a IH]; intros seen W D; cbn [edges_from]; [constructor|].
  inversion W; subst. unfold dkeys. rewrite map_app. apply NoDup_app.
  - rewrite map_map. cbn [fst].
    assert (N : NoDup (dkeys (filter (fun vt => negb (existsb (String.eqb (fst vt)) seen)) d))).
    { apply filter_fst_nodup. apply (D u). left; auto. }
    revert N. generalize (filter (fun vt => negb (existsb (String.eqb (fst vt)) seen)) d). clear.
    intros e. induction e as [|[v t] e IH]; simpl; intros N; inversion N; subst; constructor; auto.
    intros I. apply H1. apply in_map_iff in I as [x [E I]]. injection E as E. rewrite <- E.
    unfold dkeys. now apply in_map.
  - apply IH; auto. intros; eapply D; right; eauto.
  - intros x I J. rewrite map_map in I. apply in_map_iff in I as [[v t] [<- I]].
    apply in_map_iff in J as [[[u' v'] t'] [E J]]. cbn [fst] in E. injection E as -> ->.
    apply edges_from_In in J as [p [d' [q [-> _]]]]. apply H1.
    unfold dkeys. rewrite map_app. apply in_or_app. right; left; auto.
Qed.

Lemma edge_attrs_nodup : forall g, graph_wf g -> NoDup (dkeys (edge_attrs g)).
Proof.
  intros g W. apply edges_from_nodup.
  - rewrite (gw_keys _ W). apply W.
  - intros u d I. pose proof (gw_nbrs _ W u) as X. unfold nbrs in X.
    rewrite (In_dget_nodup u d) in X; auto. rewrite (gw_keys _ W). apply W.
Qed.

Lemma edge_attrs_get : forall g u v, graph_wf g ->
  dget (u, v) (edge_attrs g) = if beforeb u v (dkeys (g_nodes g)) then edge g u v else None.
Proof.
  intros g u v W. destruct (dget (u, v) (edge_attrs g)) as [t|] eqn:E.
  - apply dget_In in E. apply edge_attrs_In in E as [E B]; auto. apply beforeb_spec in B. now rewrite B.
  - apply dget_None in E. destruct (beforeb u v (dkeys (g_nodes g))) eqn:B; auto.
    destruct (edge g u v) as [t|] eqn:X; auto. exfalso. apply E.
    change (u, v) with (fst (u, v, t)). apply in_map. apply edge_attrs_In; auto. split; auto.
    now apply beforeb_spec.
Qed.

Lemma edge_In_nodes : forall g u v t, graph_wf g -> edge g u v = Some t ->
  In u (dkeys (g_nodes g)) /\ In v (dkeys (g_nodes g)).
Proof.
  assert (K : forall g u v t, graph_wf g -> edge g u v = Some t -> In u (dkeys (g_nodes g))).
  { intros g u v t W E. rewrite <- (gw_keys _ W). apply dget_Some_key. unfold edge, nbrs in E.
    destruct (dget u (g_adj g)); eauto. discriminate. }
  intros g u v t W E. split; [eapply K; eauto | eapply K; eauto; apply W; eauto].
Qed.
