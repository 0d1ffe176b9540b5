(** Property C128: the quick level diagram. *)
From Coq Require Import List Bool ZArith QArith Qcanon Lia String Ascii Permutation.
From Verif Require Import Base Num PyStr Util UtilProofs Regex Parse Term TermProofs Wigner Hyperfine HyperfineProofs Graph GraphProofs Rules Atom AtomInv
  AtomSafe AtomSafe2 AtomSafe3 AtomSafe5 AtomSafe6 AtomLevels AtomKeep AtomAlias AtomPaths AtomTrans AtomEnergy AtomHist AtomExample Views DictView DrawLevels.
Import ListNotations.
Local Open Scope string_scope.
Local Open Scope list_scope.

Section Draw.
  Context (N : Num) (muB : num N) (orc : nat -> oracle) (OK : forall n, oracle_ok (orc n)).
  Implicit Types s : st N.

  (** The level [a] of the atom, called [n], has angular momentum [j]/2 and
      energy [e]. *)
  Definition shown s (n : string) (j : Z) (e : num N) : Prop :=
    exists a l, dget n (node_attrs (s_g0 s)) = Some a /\ lv s a = Some l /\ l_J l = Some j /\ energy N muB s a = Some e.

  Lemma at_node : forall s n a, WF s -> dget n (node_attrs (s_g0 s)) = Some a ->
    exists l j e, lv s a = Some l /\ lname l = n /\ l_J l = Some j /\ energy N muB s a = Some e /\
      position N muB s a = Some (n, (j, ndiv N e (nofQ N 1000000000000))).
  Proof.
    intros s n a W D. destruct (node_inv N s n a W D) as [l [V [K [Ln _]]]].
    destruct (wf_J _ _ _ _ W V) as [j [EJ _]]. exists l, j, (l_E l).
    assert (E : energy N muB s a = Some (l_E l)) by (unfold energy, energyE; rewrite V, K; reflexivity).
    repeat split; auto. unfold position. now rewrite V, EJ, E, Ln.
  Qed.

  Lemma positions_spec : forall s kvs d, NoDup (dkeys kvs) ->
    (forall n a, In (n, a) kvs -> exists p, position N muB s a = Some (n, p)) ->
    exists d', positions N muB s (dvals kvs) d = Some d' /\
      forall n, match dget n kvs with
                | Some a => exists p, position N muB s a = Some (n, p) /\ dget n d' = Some p
                | None => dget n d' = dget n d
                end.
  Proof.
    intros s. induction kvs as [|[n a] kvs IH]; intros d Nd H; cbn [dvals map dget fst snd positions].
    - exists d. split; auto.
    - destruct (H n a (or_introl eq_refl)) as [p P]. cbn [dkeys map fst] in Nd. inversion Nd as [|? ? Hn Nd']; subst.
      destruct (IH (dset n p d) Nd') as [d' [E S]]; [intros; apply H; now right|].
      exists d'. change (map snd kvs) with (dvals kvs). rewrite P. split; auto.
      intros m. specialize (S m). destruct (keqb_spec m n) as [->|Ne].
      + exists p. split; auto. destruct (dget n kvs) eqn:D.
        * apply dget_In in D. destruct Hn. change n with (fst (n, n0)). now apply in_map.
        * rewrite S. apply dget_dset_eq.
      + destruct (dget m kvs); auto. rewrite S. now apply dget_dset_neq.
  Qed.

  Lemma positions_atom : forall s, WF s -> exists d, positions N muB s (level_values N s) [] = Some d /\
    (forall n, In n (level_keys N s) -> exists j e, shown s n j e /\ dget n d = Some (j, ndiv N e (nofQ N 1000000000000))) /\
    (forall n, ~ In n (level_keys N s) -> dget n d = None).
  Proof.
    intros s W. pose proof (node_attrs_nodup _ (go_wf _ _ _ _ (wf_g _ _ W LE))) as Nd. change (graph_of LE s) with (s_g0 s) in Nd.
    destruct (positions_spec s (node_attrs (s_g0 s)) [] Nd) as [d [E S]].
    { intros n a I. apply (In_dget_nodup _ _ _ Nd) in I. destruct (at_node s n a W I) as [l [j [e [_ [_ [_ [_ P]]]]]]]. eauto. }
    exists d. split; [exact E|]. split.
    - intros n I. apply dget_Some_key in I as [a D]. specialize (S n). rewrite D in S. destruct S as [p [P Dp]].
      destruct (at_node s n a W D) as [l [j [e [V [Ln [EJ [Ee P']]]]]]]. exists j, e. split; [exists a, l; auto|]. congruence.
    - intros n I. specialize (S n). destruct (dget n (node_attrs (s_g0 s))) eqn:D; auto. destruct I. apply dget_In in D.
      unfold level_keys. change n with (fst (n, n0)). now apply in_map.
  Qed.

  Lemma place_ok : forall d ns, (forall n, In n ns -> dget n d <> None) ->
    exists pts, place N d ns = Ok pts /\ map fst pts = ns /\ forall n p, In (n, p) pts -> dget n d = Some p.
  Proof.
    intros d. induction ns as [|n ns IH]; intros H; cbn [place].
    - exists []. repeat split; auto. intros n p [].
    - destruct (dget n d) as [p|] eqn:D; [|destruct (H n); auto; now left].
      destruct IH as [pts [E [M S]]]; [intros; apply H; now right|]. rewrite E. cbn. exists ((n, p) :: pts). repeat split.
      + cbn. now rewrite M.
      + intros m q [I|I]; [injection I as <- <-; auto|auto].
  Qed.
  Lemma place_fails : forall d ns n, In n ns -> dget n d = None -> place N d ns = Raise NetworkXError.
  Proof.
    intros d. induction ns as [|m ns IH]; intros n I D; [destruct I|]. cbn [place]. destruct (dget m d) eqn:E; auto.
    destruct I as [->|I]; [congruence|]. now rewrite (IH n I D).
  Qed.

  Lemma somes_all : forall (d : dict string (option nat)), (forall k, ~ In (k, None) d) -> dkeys (somes d) = dkeys d.
  Proof.
    induction d as [|[k [v|]] d IH]; intros H; auto.
    - cbn [somes dkeys map fst]. f_equal. apply IH. intros k' I. apply (H k'). now right.
    - destruct (H k). now left.
  Qed.

  (** The normal diagram of an atom, all of whose nodes are levels: every level
      is drawn once at its J and its energy in THz, and every transition between
      two different levels is drawn once. *)
  Theorem C128_levels : forall s, reachable N muB orc s -> (forall n, dget n (g_nodes (s_g0 s)) <> Some None) ->
    exists pic, draw_levels N muB PNorm s = Ok pic /\
      map fst (pic_points N pic) = level_keys N s /\ NoDup (map fst (pic_points N pic)) /\
      (forall n j x, In (n, (j, x)) (pic_points N pic) <-> exists e, shown s n j e /\ x = ndiv N e (nofQ N 1000000000000)) /\
      NoDup (pic_lines N pic) /\
      (forall u v, In (u, v) (pic_lines N pic) \/ In (v, u) (pic_lines N pic) <-> u <> v /\ exists t, edge (s_g0 s) u v = Some t) /\
      (forall u v, In (u, v) (pic_lines N pic) -> ~ In (v, u) (pic_lines N pic)).
  Proof.
    intros s R Nb. pose proof (reachable_WF N muB orc OK s R) as W.
    pose proof (go_wf _ _ _ _ (wf_g _ _ W LE)) as G. change (graph_of LE s) with (s_g0 s) in G.
    destruct (positions_atom s W) as [d [E [Sd _]]].
    assert (K : dkeys (g_nodes (s_g0 s)) = level_keys N s).
    { unfold level_keys, node_attrs. symmetry. apply somes_all. intros k I. apply (Nb k). apply In_dget_nodup; auto. apply G. }
    destruct (place_ok d (level_keys N s)) as [pts [Ep [Mp Sp]]].
    { intros n I. destruct (Sd n I) as [j [e [_ D]]]. congruence. }
    unfold draw_levels. rewrite E. cbn [model_of]. rewrite K, Ep. cbn [rbind]. eexists. split; [reflexivity|]. cbn [pic_points pic_lines].
    split; [exact Mp|]. split; [rewrite Mp; apply node_attrs_nodup, G|]. split.
    { intros n j x. split.
      - intros I. assert (In n (level_keys N s)) as In' by (rewrite <- Mp; change n with (fst (n, (j, x))); now apply in_map).
        destruct (Sd n In') as [j' [e [Sh D]]]. rewrite (Sp _ _ I) in D. injection D as -> ->. eauto.
      - intros [e [[a [l [D [V [EJ Ee]]]]] ->]]. assert (In n (level_keys N s)) as In' by (apply dget_In in D; unfold level_keys; change n with (fst (n, a)); now apply in_map).
        destruct (Sd n In') as [j' [e' [[a' [l' [D' [V' [EJ' Ee']]]]] Dn]]]. rewrite D in D'. injection D' as <-. rewrite V in V'. injection V' as <-.
        rewrite EJ in EJ'. injection EJ' as <-. rewrite Ee in Ee'. injection Ee' as <-.
        rewrite <- Mp in In'. apply in_map_iff in In' as [[n' p] [Fn Ip]]. cbn in Fn. subst n'. rewrite (Sp _ _ Ip) in Dn. injection Dn as ->. exact Ip. }
    assert (L : forall u v, In (u, v) (filter (fun uv => negb (String.eqb (fst uv) (snd uv))) (dkeys (edge_attrs (s_g0 s)))) <->
      u <> v /\ exists t, In ((u, v), t) (edge_attrs (s_g0 s))).
    { intros u v. rewrite filter_In. cbn [fst snd]. split.
      - intros [I B]. split; [intros ->; now rewrite String.eqb_refl in B|]. apply in_map_iff in I as [[k t] [Ek I]]. cbn in Ek. subst k. eauto.
      - intros [Ne [t I]]. split; [change (u, v) with (fst ((u, v), t)); now apply in_map|]. apply negb_true_iff. now apply String.eqb_neq. }
    split; [apply NoDup_filter, edge_attrs_nodup; auto|]. split.
    - intros u v. rewrite !L. split.
      + intros [[Ne [t I]]|[Ne [t I]]]; (split; [auto|]); exists t; apply edge_attrs_In in I as [I _]; auto. now apply (gw_sym _ G).
      + intros [Ne [t I]]. destruct (edge_In_nodes _ _ _ _ G I) as [Iu Iv].
        destruct (before_total u v (dkeys (g_nodes (s_g0 s))) Iu Iv) as [B|B]; [left|right]; (split; [auto|]); exists t; apply edge_attrs_In; auto.
        split; auto. now apply (gw_sym _ G).
    - intros u v I1 I2. rewrite L in I1, I2. destruct I1 as [Ne [t I1]]. destruct I2 as [_ [t' I2]].
      apply edge_attrs_In in I1 as [_ B1]; auto. apply edge_attrs_In in I2 as [_ B2]; auto. apply Ne. eapply before_antisym; eauto.
  Qed.
  
  (** A node of the levels graph that is not a level makes every diagram of
      the levels fail. *)
  Lemma draw_bare : forall s n, WF s -> dget n (g_nodes (s_g0 s)) = Some None -> draw_levels N muB PNorm s = Raise NetworkXError.
  Proof.
    intros s n W D. destruct (positions_atom s W) as [d [E [_ Sd]]]. unfold draw_levels. rewrite E. cbn [model_of].
    rewrite (place_fails d _ n); [reflexivity| |].
    - apply dget_In in D. change n with (fst (n, @None nat)). now apply in_map.
    - apply Sd. intros I. apply dget_Some_key in I as [a I]. rewrite node_attrs_get in I by apply (wf_g _ _ W LE). rewrite D in I. discriminate.
  Qed.

  (** ** Hyperfine and Zeeman diagrams *)

  Lemma has_char_app : forall c a b, has_char c (a ++ b)%string = has_char c a || has_char c b.
  Proof. induction a as [|x a IH]; intros b; cbn; auto. rewrite IH. now rewrite orb_assoc. Qed.

  Lemma sub_name : forall s b l, WF s -> lv s b = Some l -> l_kind l <> LE -> has_char "=" (lname l) = true.
  Proof.
    intros s b l W V K. destruct (wf_F _ _ _ _ W V K) as [j [f [_ [F _]]]]. unfold lname, l_F in *. destruct (lead l) as [t|]; [|discriminate].
    unfold t_name, t_term_name. rewrite F, !has_char_app. cbn. now rewrite !orb_true_r.
  Qed.

  Lemma draw_sub : forall s ty n a, WF s -> ty <> PNorm -> (forall m, In m (level_keys N s) -> has_char "=" m = false) ->
    dget n (g_nodes (model_of N ty s)) = Some (Some a) -> draw_levels N muB ty s = Raise NetworkXError.
  Proof.
    intros s ty n a W T Eq D. destruct (positions_atom s W) as [d [E [_ Sd]]]. unfold draw_levels. rewrite E.
    rewrite (place_fails d _ n); [reflexivity| |].
    - apply dget_In in D. change n with (fst (n, Some a)). now apply in_map.
    - apply Sd. intros I. apply Eq in I.
      assert (H : exists k, k <> LE /\ node_ok s k n a).
      { destruct ty; [congruence| |]; [exists LHF|exists LZ]; (split; [discriminate|]).
        - exact (go_node _ _ _ _ (wf_g _ _ W LHF) _ _ D).
        - exact (go_node _ _ _ _ (wf_g _ _ W LZ) _ _ D). }
      destruct H as [k [Hk [l [V [K [Ln _]]]]]]. assert (X : has_char "=" (lname l) = true) by (eapply sub_name; eauto; congruence). congruence.
  Qed.

  (** As long as no sublevel has been computed, these diagrams are empty
      although the levels have sublevels. *)
  Theorem C128_nothing_refuted : forall s ty, reachable N muB orc s -> g_nodes (model_of N ty s) = [] ->
    exists pic, draw_levels N muB ty s = Ok pic /\ pic_points N pic = [].
  Proof.
    intros s ty R E. pose proof (reachable_WF N muB orc OK s R) as W. destruct (positions_atom s W) as [d [Ed _]].
    unfold draw_levels. rewrite Ed, E. cbn. eexists. split; reflexivity.
  Qed.

  Definition holds (g : graph) (n : string) : Prop := exists a, dget n (g_nodes g) = Some (Some a).
  Lemma add_nodes_keep : forall bs s s', forM bs (add_node N) s = (Ok tt, s') ->
    s_levels s' = s_levels s /\ (forall k n, holds (graph_of k s) n -> holds (graph_of k s') n) /\
    (forall b l, In b bs -> lv s b = Some l -> holds (graph_of (l_kind l) s') (lname l)).
  Proof.
    induction bs as [|b bs IH]; intros s s' E; cbn [forM] in E.
    - injection E as <-. repeat split; auto. intros ? ? [].
    - unfold bind at 1 in E. destruct (lv s b) as [l|] eqn:V; [|unfold add_node, get_lv, bind, asks in E; rewrite V in E; discriminate].
      rewrite (add_node_eq _ _ _ _ V) in E. set (s1 := set_graph (l_kind l) (g_add_node (lname l) b (graph_of (l_kind l) s)) s) in E.
      destruct (IH s1 s' E) as [Lv [Kp Ad]].
      assert (K1 : forall k n, holds (graph_of k s) n -> holds (graph_of k s1) n).
      { intros k n [a H]. unfold s1, holds. rewrite graph_of_set. destruct k, (l_kind l); eauto; rewrite add_node_nodes; destruct (String.eqb n (lname l)); eauto. }
      split; [rewrite Lv; unfold s1; destruct (l_kind l); reflexivity|]. split; [auto|]. intros c lc [<-|I] Vc.
      + rewrite V in Vc. injection Vc as <-. apply Kp. exists b. unfold s1. rewrite graph_of_set.
        destruct (l_kind l); rewrite add_node_nodes, String.eqb_refl; reflexivity.
      + apply (Ad c lc I). unfold s1. now rewrite lv_set_graph.
  Qed.

  (** The hyperfine (Zeeman) diagram fails as soon as the sublevels of one
      level of the atom have been computed: only the levels have positions. *)
  Theorem C128_sub_refuted : forall s a l, reachable N muB orc s -> lv s a = Some l -> l_attached l = true -> l_kind l <> LZ -> l_subs l = [] ->
    (forall m, In m (level_keys N s) -> has_char "=" m = false) ->
    exists bs s', sublevels N a s = (Ok bs, s') /\ bs <> [] /\ level_keys N s' = level_keys N s /\
      draw_levels N muB (match l_kind l with LE => PHf | _ => PZ end) s' = Raise NetworkXError.
  Proof.
    intros s a l R V A K Sb Eq. pose proof (reachable_WF N muB orc OK s R) as W.
    destruct (sublevels_ok N s a l W V A) as [l' [s' [E [Es [W' [L' [V' [S' F']]]]]]]].
    exists (dvals (l_subs l')), s'. split; [exact Es|].
    assert (G : s_g0 s' = s_g0 s) by apply (lo_frame _ _ _ (proj1 L')).
    assert (Ne : exists b, In b (dvals (l_subs l'))).
    { destruct F' as [_ F']. assert (Sr : sub_range s' l' <> []).
      { assert (K' : l_kind l' = l_kind l) by apply S'. unfold sub_range. rewrite K'. destruct (wf_J _ _ _ _ W' V') as [j [EJ Hj]]. pose proof (wf_I _ _ W') as HI. destruct (l_kind l) eqn:Kl.
        - rewrite EJ. intros X. assert (I : In (j + s_I s')%Z (F_range j (s_I s'))); [|now rewrite X in I].
          apply F_range_In; auto. unfold tri. rewrite !andb_true_iff, !Z.leb_le.
          replace (j + s_I s' + (j + s_I s'))%Z with (2 * (j + s_I s'))%Z by lia. rewrite Z.even_mul. repeat split; lia.
        - destruct (wf_F _ _ _ _ W' V') as [_ [f [_ [EF [_ Hf]]]]]; [congruence|]. rewrite EF. intros X.
          assert (I : In f (mF_range f)); [|now rewrite X in I]. apply mF_range_In. replace (f + f)%Z with (2 * f)%Z by lia. rewrite Z.even_mul. split; [lia|reflexivity].
        - congruence. }
      destruct F' as [|z [k b] zs kbs _ _]; [congruence|]. exists b. now left. }
    split; [destruct Ne as [b Ib]; intros X; now rewrite X in Ib|]. split; [unfold level_keys; now rewrite G|].
    destruct Ne as [b Ib]. destruct (full_child _ _ _ _ _ F' Ib) as [z [key [_ [_ [_ [lb [Vb [Kb _]]]]]]]].
    assert (Hb : holds (graph_of (l_kind lb) s') (lname lb)).
    { unfold lazy_sublevels in E. unfold bind at 1, get_lv, asks in E. rewrite V, Sb, A in E. unfold bind at 1 in E.
      destruct (populate_sublevels N a s) as [[[]|] s1] eqn:E1; [|discriminate]. unfold bind at 1 in E.
      destruct (lv s1 a) as [l1|] eqn:V1; [|discriminate]. cbv beta iota in E.
      destruct (add_nodes_keep _ _ _ E) as [Lv [_ Ad]]. unfold lv in V', V1, Vb. rewrite Lv in V', Vb. rewrite V' in V1. injection V1 as ->. exact (Ad b lb Ib Vb). }
    destruct Hb as [c Hc].
    eapply draw_sub; eauto.
    - destruct (l_kind l); discriminate.
    - unfold level_keys. now rewrite G.
    - assert (K' : l_kind l' = l_kind l) by apply S'. rewrite Kb, K' in Hc. destruct (l_kind l); [exact Hc|exact Hc|congruence].
  Qed.
End Draw.

(** ** Cases *)

(** A deleted level comes back as a node without a level when a transition to
    it is made afterwards; the diagram then fails. *)
Definition ghost : st Exact := runx (two 1) [ODelLevel Exact "6p 2P*1/2"; ONewTransition Exact 0 1 None None None].
Theorem C128_bare_refuted : exists s, reachable Exact 1%Qc plain s /\ level_keys Exact s = ["6s 2S1/2"] /\
  draw_levels Exact 1%Qc PNorm s = Raise NetworkXError.
Proof.
  assert (R : reachable Exact 1%Qc plain ghost) by (apply more_reachable, two_reachable; lia).
  exists ghost. split; [exact R|]. split; [vm_compute; reflexivity|].
  apply (draw_bare Exact 1%Qc ghost "6p 2P*1/2"); [exact (reachable_WF Exact 1%Qc plain plain_ok _ R)|vm_compute; reflexivity].
Qed.

(** Two levels and their transition are drawn. *)
Definition linked2 : st Exact := runx (two 1) [ONewTransition Exact 0 1 None None None].
Example C128_case : reachable Exact 1%Qc plain linked2 /\
  forallb (fun kv => match snd kv with Some _ => true | None => false end) (g_nodes (s_g0 linked2)) = true /\
  match draw_levels Exact 1%Qc PNorm linked2 with
  | Ok p => map fst (pic_points Exact p) = ["6s 2S1/2"; "6p 2P*1/2"] /\ map (fun x => fst (snd x)) (pic_points Exact p) = [1%Z; 1%Z] /\
      map (fun x => this (snd (snd x))) (pic_points Exact p) = [0%Q; (1 # 100000000000)%Q] /\ pic_lines Exact p = [("6s 2S1/2", "6p 2P*1/2")]
  | Raise _ => False
  end /\
  option_map (fun l => (l_attached l, l_subs l)) (lv linked2 0) = Some (true, []) /\
  forallb (fun m => negb (has_char "=" m)) (level_keys Exact linked2) = true /\
  (exists s', sublevels Exact 0 linked2 = (Ok [2%nat; 3%nat], s') /\ List.length (g_nodes (s_g1 s')) = 2%nat).
Proof.
  split; [apply more_reachable, two_reachable; lia|]. split; [vm_compute; reflexivity|]. split; [vm_compute; repeat split; reflexivity|].
  split; [vm_compute; reflexivity|]. split; [vm_compute; reflexivity|].
  exists (snd (sublevels Exact 0 linked2)). split; [|vm_compute; reflexivity].
  rewrite (surjective_pairing (sublevels Exact 0 linked2)). f_equal.
Qed.
Print Assumptions C128_levels.
Print Assumptions C128_nothing_refuted.
Print Assumptions C128_sub_refuted.
Print Assumptions C128_bare_refuted.
