(** The remaining operations, and the invariant of every history. *)
From Coq Require Import List Bool ZArith QArith Qcanon Lia String Ascii Permutation.
From Verif Require Import Base PyStr Util UtilProofs Parse Term TermProofs Num Wigner Hyperfine HyperfineProofs
  Graph GraphProofs DfsProofs Rules Atom AtomInv AtomSafe AtomSafe2 AtomSafe3 AtomSafe4 AtomSafe5.
Import ListNotations.

Arguments found {N}. Arguments moved {N}.

Section Safe6.
  Context (N : Num) (muB : N).
  Notation st := (st N).
  Notation level := (level N).
  Notation trans := (trans N).
  Notation M := (M N).
  Notation energy := (energy N muB).
  Implicit Types (s : st) (l : level) (x y : trans) (a : nat) (t : nat).

  Let lpo := look_po N.
  Let lpo0 := look0_po N.
  Let epo := ext_po N.
  Let mpo := moved_po N.

  Definition any {A} : A -> st -> Prop := fun _ _ => True.

  Lemma safe_any {A} : forall R s (m : M A) Q, safe R s m Q -> safe R s m any.
  Proof. intros R s m Q H. eapply (safe_conseq _); [exact H|]. intros; exact I. Qed.

  Lemma safe_void {A} : forall R s (m : M A) Q, preord R -> safe R s m Q -> safe R s (void N m) any.
  Proof.
    intros R s m Q PO H. unfold void. eapply (safe_bind _ _ PO); [exact H|]. intros v s' W _ _. apply (safe_ret _ _ PO); auto.
    exact I.
  Qed.

  (** ** Energies *)

  Lemma set_energy_safe : forall s a l v, WF s -> lv s a = Some l -> safe moved s (set_energy N muB a v) any.
  Proof.
    intros s a l v W V. unfold set_energy, get_lv. apply (safe_asks _ _ s _ _ _ _ _ V).
    assert (HE : forall b w, safe moved s (set_energyE N b w) any).
    { intros. apply (safe_modify_last _ _); [|apply moved_E|exact I]. eapply moved_WF; [exact W|apply moved_E]. }
    assert (HF : forall b lb w, lv s b = Some lb -> l_kind lb = LHF -> safe moved s (set_energyHF N b w) any).
    { intros b lb w Vb Kb. destruct (wf_energyHF _ _ _ _ W Vb Kb) as [p [lp [j [f [P [Vp [Kp [_ [_ [_ [_ E]]]]]]]]]]].
      unfold set_energyHF, get_lv. apply (safe_asks _ _ s _ _ _ _ _ Vb). apply (safe_asks _ _ s _ _ _ _ _ E).
      apply (safe_asks _ _ s _ _ _ _ _ P). apply (safe_asks _ _ s _ _ _ _ _ (wf_energyE _ _ _ _ Vp Kp)). apply HE. }
    destruct (l_kind l) eqn:K; [apply HE|eapply HF; eauto|].
    destruct (wf_energyZ _ muB _ _ _ W V K) as [p [lp [m [e [P [Vp [Kp [_ [E1 E2]]]]]]]]].
    unfold set_energyZ, get_lv. apply (safe_asks _ _ s _ _ _ _ _ V). apply (safe_asks _ _ s _ _ _ _ _ E2).
    apply (safe_asks _ _ s _ _ _ _ _ P). apply (safe_asks _ _ s _ _ _ _ _ E1). eapply HF; eauto.
  Qed.

  Lemma freq_total : forall s t x, WF s -> tr s t = Some x -> exists f, freq N muB s t = Some f.
  Proof.
    intros s t x W V. unfold freq. rewrite V. destruct (wf_tr _ _ W _ _ V) as [l1 [l2 [V1 [V2 _]]]].
    destruct (wf_energy _ muB _ _ _ W V1) as [e1 ->]. destruct (wf_energy _ muB _ _ _ W V2) as [e2 ->]. eauto.
  Qed.

  Lemma tr_ends : forall s t x, WF s -> tr s t = Some x -> exists lo up, lv s (x_lo x) = Some lo /\ lv s (x_up x) = Some up.
  Proof.
    intros s t x W V. destruct (wf_tr _ _ W _ _ V) as [l1 [l2 [V1 [V2 [_ [_ [UL _]]]]]]].
    destruct UL as [[-> ->]|[-> ->]]; eauto.
  Qed.

  (** ** Setting frequencies *)

  Context (orc : nat -> oracle) (OK : forall n, oracle_ok (orc n)).

  Lemma set_freqT_safe : forall s t x f, WF s -> tr s t = Some x -> safe ext s (set_freqT N muB orc t f) any.
  Proof.
    intros s t x f W V. unfold set_freqT, get_tr, get_lv. apply (safe_asks _ _ s _ _ _ _ _ V).
    destruct (tr_ends _ _ _ W V) as [lo [up [Vl Vu]]].
    apply (safe_asks _ _ s _ _ _ _ _ Vu). apply (safe_asks _ _ s _ _ _ _ _ Vl).
    eapply (safe_bind _ _ epo) with (Q := fun _ s' => moved s s').
    { destruct (_ && _).
      - apply (safe_modify_last _ _).
        + eapply moved_WF; [exact W|apply moved_fixed].
        + apply moved_ext, moved_fixed.
        + apply moved_fixed.
      - apply (safe_ret _ _ epo); auto. apply moved_refl. }
    intros [] s1 W1 X1 M1.
    destruct (WF_upd_tr _ s1 t (tr_set_set (Some f)) W1) as [W2 X2]; [repeat split; auto|].
    apply (safe_modify _ _ epo); auto.
    destruct (wf_tr _ _ W _ _ V) as [l1 [l2 [V1 [V2 _]]]].
    destruct (ext_lv _ _ _ (ext_trans _ _ _ _ X1 X2) _ _ V1) as [l1' [V1' _]].
    destruct (ext_lv _ _ _ (ext_trans _ _ _ _ X1 X2) _ _ V2) as [l2' [V2' _]].
    apply (safe_asks _ _ _ _ _ _ _ _ V1'). apply (safe_asks _ _ _ _ _ _ _ _ V2').
    destruct (l_attached l1'); [|apply (safe_raise _ _ epo); auto; discriminate].
    eapply safe_weaken; [apply moved_ext|]. eapply safe_any. apply enforce_safe; auto.
  Qed.

  Lemma set_freqHF_safe : forall s t x f, WF s -> tr s t = Some x -> safe ext s (set_freqHF N muB orc t f) any.
  Proof.
    intros s t x f W V. unfold set_freqHF, get_tr. apply (safe_asks _ _ s _ _ _ _ _ V).
    destruct (freq_total _ _ _ W V) as [g Eg]. apply (safe_asks _ _ s _ _ _ _ _ Eg).
    apply (safe_try _ _ epo); auto; [discriminate|]. intros p P.
    destruct (wf_tr _ _ W _ _ V) as [l1 [l2 [_ [_ [_ [_ [_ [[_ [P' _]]|[q [xp [P' [Vp _]]]]]]]]]]]]; [congruence|].
    assert (q = p) by congruence. subst q. destruct (freq_total _ _ _ W Vp) as [gp Ep]. apply (safe_asks _ _ s _ _ _ _ _ Ep).
    eapply set_freqT_safe; eauto.
  Qed.

  Lemma set_frequency_safe : forall s t x f, WF s -> tr s t = Some x -> safe ext s (set_frequency N muB orc t f) any.
  Proof.
    intros s t x f W V. unfold set_frequency, get_tr. apply (safe_asks _ _ s _ _ _ _ _ V).
    destruct (x_kind x); [eapply set_freqT_safe; eauto|eapply set_freqHF_safe; eauto|].
    unfold set_freqZ, get_tr. apply (safe_asks _ _ s _ _ _ _ _ V).
    destruct (freq_total _ _ _ W V) as [g Eg]. apply (safe_asks _ _ s _ _ _ _ _ Eg).
    apply (safe_try _ _ epo); auto; [discriminate|]. intros p P.
    destruct (wf_tr _ _ W _ _ V) as [l1 [l2 [_ [_ [_ [_ [_ [[_ [P' _]]|[q [xp [P' [Vp _]]]]]]]]]]]]; [congruence|].
    assert (q = p) by congruence. subst q. destruct (freq_total _ _ _ W Vp) as [gp Ep]. apply (safe_asks _ _ s _ _ _ _ _ Ep).
    eapply set_freqHF_safe; eauto.
  Qed.

  (** ** Adding transitions *)

  Definition tspec_ok s (sp : tspec) : Prop :=
    match sp with
    | TObj t => is_tr s t
    | TNames _ _ => True
    | TLevels a b => (exists l, lv s a = Some l) /\ (exists l, lv s b = Some l)
    end.

  Lemma is_tr_ext : forall s s' t, ext s s' -> is_tr s t -> is_tr s' t.
  Proof. intros s s' t X [x V]. destruct (ext_tr _ _ _ X _ _ V) as [x' [V' _]]. exists x'. auto. Qed.

  Lemma add_transition_safe : forall s sp f A alias, WF s -> tspec_ok s sp ->
    safe ext s (add_transition N muB orc sp f A alias) (fun t s' => is_tr s' t).
  Proof.
    intros s sp f A alias W O. unfold add_transition.
    eapply (safe_bind _ _ epo) with (Q := fun t s' => is_tr s' t).
    { destruct sp as [t|a b|a b].
      - apply (safe_ret _ _ epo); auto.
      - apply (safe_gets _ _ s). destruct (dmem (a, b) (edge_attrs (s_g0 s))).
        + pose proof (moved_warn N s (WDup a b)) as Mw. pose proof (moved_WF _ _ _ W Mw) as Ww.
          apply (safe_modify _ _ epo); auto; [now apply moved_ext|].
          eapply safe_weaken; [apply look_ext|]. eapply (safe_conseq _); [apply (transitions_get_safe N muB _ (KS a, KS b) Ww)|].
          cbv beta. intros c s' _ _ [H _]. exact H.
        + eapply (safe_bind_w N ext lookl); [exact epo|intros s1 s2 L; apply look_ext, L|apply levels_get_safe; auto|].
          cbv beta. intros b1 s1 W1 L1 [F1 _].
          eapply (safe_bind_w N ext lookl); [exact epo|intros s2 s3 L; apply look_ext, L|apply levels_get_safe; auto|].
          cbv beta. intros b2 s2 W2 L2 [[lb2 [V2 _]] _].
          destruct (found_look _ _ _ _ (lo_frame _ _ _ (lookl_look _ _ _ L2)) F1) as [lb1 [V1 _]].
          eapply (safe_conseq _); [eapply new_transition_safe; eauto|].
          cbv beta. intros t s' _ _ [_ [_ [x [V _]]]]. exists x. auto.
      - destruct O as [[la Va] [lb Vb]]. eapply (safe_conseq _); [eapply new_transition_safe; eauto|].
        cbv beta. intros t s' _ _ [_ [_ [x [V _]]]]. exists x. auto. }
    cbv beta. intros t s1 W1 X1 [x1 V1].
    eapply (safe_bind _ _ epo); [eapply tr_add_safe; eauto|]. cbv beta. intros [] s2 W2 X2 _.
    destruct (ext_tr _ _ _ X2 _ _ V1) as [x2 [V2 _]]. unfold get_tr. apply (safe_asks _ _ s2 _ _ _ _ _ V2).
    eapply (safe_bind _ _ epo) with (Q := fun _ s' => is_tr s' t).
    { destruct (x_alias x2) as [al|]; [|apply (safe_ret _ _ epo); auto; exists x2; auto].
      destruct (WF_tal _ s2 al t x2 W2 V2) as [W3 X3]. apply (safe_modify_last _ _); auto. exists x2. auto. }
    intros [] s3 W3 X3 T3.
    eapply (safe_bind _ _ epo) with (Q := fun _ s' => is_tr s' t).
    { destruct (x_set x2); [|apply (safe_ret _ _ epo); auto].
      eapply safe_weaken; [apply moved_ext|]. eapply (safe_conseq _); [apply enforce_safe; auto|].
      cbv beta. intros [] s4 _ Mv _. eapply is_tr_ext; [apply moved_ext|]; eauto. }
    intros [] s4 W4 X4 T4. apply (safe_ret _ _ epo); auto.
  Qed.

  (** ** Removing levels *)

  Lemma del_level_safe : forall s key, WF s -> safe ext s (del_level N key) any.
  Proof.
    intros s key W. unfold safe, del_level. destruct (g_remove_node key (s_g0 s)) as [g|] eqn:E; cbn [fst snd].
    - assert (G : graph_ok s LE g).
      { pose proof (wf_g _ _ W LE) as [Gw Gn Ge]. simpl in *. constructor.
        - eapply remove_wf; eauto.
        - intros n a D. rewrite (remove_nodes _ _ _ n E) in D. destruct (String.eqb n key); [discriminate|auto].
        - intros u v t D. rewrite (remove_edge _ _ _ u v E) in D. destruct (_ || _); [discriminate|auto]. }
      destruct (WF_set_graph _ s LE g W G) as [W' X']. split; [exact W'|]. split; [exact X'|exact I].
    - split; auto. split; [apply epo|discriminate].
  Qed.

  (** ** Queries *)

  Lemma graph_is_tr : forall s k n d u t, WF s -> dget n (g_adj (graph_of k s)) = Some d -> In (u, t) d -> is_tr s t.
  Proof.
    intros s k n d u t W E H. destruct (wf_g _ _ W k) as [Gw _ Ge].
    assert (D : edge (graph_of k s) n u = Some t).
    { unfold edge. apply In_dget_nodup; [apply Gw|]. unfold nbrs. now rewrite E. }
    destruct (Ge _ _ _ D) as [x [V _]]. exists x. auto.
  Qed.

  Lemma linked_safe : forall fuel s key, WF s ->
    safe look0 s (linked_levels N muB fuel key) (fun d s' => forall n t, In (n, t) d -> is_tr s' t).
  Proof.
    induction fuel as [|fuel IH]; intros s key W; cbn [linked_levels].
    - apply (safe_raise _ _ lpo0); auto. discriminate.
    - eapply (safe_bind_w N look0 lookl); [exact lpo0|intros s1 s2 L; apply L|apply levels_get_safe; auto|].
      cbv beta. intros a s1 W1 L1 [[l [V A]] _]. unfold get_lv. apply (safe_asks _ _ s1 _ _ _ _ _ V).
      eapply (safe_bind _ _ lpo0) with (Q := any).
      { destruct (l_parent l) as [p|] eqn:P; [|apply (safe_ret _ _ lpo0); auto; exact I].
        assert (Hp : exists lp, lv s1 p = Some lp).
        { destruct (wf_lv _ _ W1 _ _ V) as [_ [[_ [P' _]]|[_ [q [lq [z [P' [Vq _]]]]]]]]; [congruence|].
          assert (q = p) by congruence. subst. eauto. }
        destruct Hp as [lp Vp]. assert (Enm : nm s1 p = Some (lname lp)) by (unfold nm; now rewrite Vp).
        apply (safe_asks _ _ s1 _ _ _ _ _ Enm).
        eapply (safe_bind _ _ lpo0); [apply IH; auto|]. cbv beta. intros d s2 W2 L2 Hd.
        eapply safe_any. apply (safe_forM _ _ lpo0) with (Inv := fun s' => forall n t, In (n, t) d -> is_tr s' t); auto.
        intros t s3 It W3 L3 H3. apply in_map_iff in It as [[n t'] [Et It]]. simpl in Et. subst t'.
        destruct (H3 _ _ It) as [x V3]. eapply (safe_conseq _); [eapply populate_sub_safe; eauto|].
        cbv beta. intros [] s4 _ L4 _ n' t' I'. eapply is_tr_ext; [apply frame_ext, L4|eauto]. }
      intros [] s2 W2 L2 _. apply (safe_try _ _ lpo0); auto; [discriminate|]. intros d Ed.
      apply (safe_ret _ _ lpo0); auto. intros n t H. apply filter_In in H as [H _]. eapply graph_is_tr; eauto.
  Qed.

  Lemma total_rate_safe : forall s key, WF s -> safe look0 s (total_rate N muB key) any.
  Proof.
    intros s key W. unfold total_rate. eapply (safe_bind _ _ lpo0); [apply linked_safe; auto|]. cbv beta. intros d s1 W1 L1 Hd.
    eapply (safe_bind_w N look0 lookl); [exact lpo0|intros s2 s3 L; apply L|apply levels_get_safe; auto|].
    cbv beta. intros a s2 W2 L2 _.
    assert (Hd2 : forall t, In t (dvals d) -> is_tr s2 t).
    { intros t It. apply in_map_iff in It as [[n t'] [Et It]]. simpl in Et. subst t'.
      eapply is_tr_ext; [apply look_ext, L2|eauto]. }
    unfold safe. cbn [fst snd]. split; auto. split; [apply lpo0|].
    revert Hd2. generalize (dvals d). generalize (nofQ N 0). intros c ts. revert c.
    induction ts as [|t ts IH]; intros c H; cbn [sum_A]; [exact I|].
    destruct (H t (or_introl eq_refl)) as [x V]. rewrite V.
    destruct (Nat.eqb (x_up x) a); [destruct (x_A x); [|discriminate]|]; apply IH; intros t' I'; apply H; simpl; auto.
  Qed.

  Lemma A_coeffs_total : forall s key d, WF s -> (forall n t, In (n, t) d -> is_tr s t) -> exists r, A_coeffs N s key d = Ok r.
  Proof.
    intros s key d W. induction d as [|[n t] d IH]; intros H; cbn [A_coeffs]; [eauto|].
    destruct (H n t (or_introl eq_refl)) as [x V]. rewrite V.
    destruct (tr_ends _ _ _ W V) as [lo [up [Vl Vu]]]. unfold nm. rewrite Vu. cbn [option_map].
    destruct IH as [r ->]; [intros n' t' I'; eapply H; simpl; eauto|]. cbn [rbind]. eauto.
  Qed.

  Lemma branching_safe : forall s key, WF s -> safe look0 s (branching N muB key) any.
  Proof.
    intros s key W. unfold branching. eapply (safe_bind _ _ lpo0); [apply linked_safe; auto|]. cbv beta. intros d s1 W1 L1 Hd.
    unfold safe. cbn [fst snd]. split; auto. split; [apply lpo0|].
    destruct (A_coeffs_total s1 key d W1 Hd) as [r ->]. cbn [rbind].
    induction r as [|[n [q|]] r IH]; cbn [magnitudes rbind]; [exact I| |discriminate].
    destruct (magnitudes N r); cbn [rbind] in *; auto.
  Qed.

  (** ** Bulk operations *)

  Lemma populate_transitions_safe : forall s al, WF s -> safe look s (populate_transitions N muB al) any.
  Proof.
    intros s al W. unfold populate_transitions. apply (safe_forM _ _ lpo) with (Inv := fun _ => True); auto.
    intros d s1 _ W1 _ _. apply (safe_gets _ _ s1).
    assert (Hp : forall a b, In (a, b) (level_pairs N s1 d) -> (exists l, lv s1 a = Some l) /\ (exists l, lv s1 b = Some l)).
    { intros a b Hi. unfold level_pairs in Hi. apply in_flat_map in Hi as [j [_ Hi]]. apply in_prod_iff in Hi as [H1 H2].
      unfold with_J in H1, H2. apply filter_In in H1 as [_ H1]. apply filter_In in H2 as [_ H2].
      destruct (lv s1 a); [|discriminate]. destruct (lv s1 b); [|discriminate]. eauto. }
    apply (safe_forM _ _ lpo) with (Inv := fun _ => True); auto.
    intros [a b] s2 Hi W2 L2 _. destruct (Hp _ _ Hi) as [[la Va] [lb Vb]].
    destruct (ext_lv _ _ _ (look_ext _ _ _ L2) _ _ Va) as [la' [Va' _]].
    destruct (ext_lv _ _ _ (look_ext _ _ _ L2) _ _ Vb) as [lb' [Vb' _]].
    assert (Ea : nm s2 a = Some (lname la')) by (unfold nm; now rewrite Va').
    assert (Eb : nm s2 b = Some (lname lb')) by (unfold nm; now rewrite Vb').
    unfold populate_pair. cbn [fst snd]. apply (safe_asks _ _ s2 _ _ _ _ _ Ea). apply (safe_asks _ _ s2 _ _ _ _ _ Eb).
    eapply (safe_bind _ _ lpo); [eapply safe_any, (transitions_get_safe N muB s2 (KS (lname la'), KS (lname lb')) W2)|].
    intros c s3 W3 _ _. apply (safe_ret _ _ lpo); auto.
  Qed.

  Lemma populate_internal_safe : forall s, WF s -> safe ext s (populate_internal N muB) any.
  Proof.
    intros s W. unfold populate_internal. apply (safe_gets _ _ s). apply (safe_forM _ _ epo) with (Inv := fun _ => True); auto.
    intros a s1 Ia W1 X1 _. destruct (nodes_levels _ s LE a W Ia) as [n [l [V _]]].
    destruct (ext_lv _ _ _ X1 _ _ V) as [l1 [V1 _]].
    eapply (safe_bind _ _ epo); [eapply new_transition_safe; eauto|]. cbv beta. intros t s2 W2 X2 [_ [_ [x [Vx _]]]].
    eapply safe_any. eapply tr_add_safe; eauto.
  Qed.

  (** ** New levels, aliases *)

  Lemma new_level_safe : forall s ts E A B C g alias b, WF s ->
    safe ext s (new_level N ts E A B C g alias b) (fun v s' => v = List.length (s_levels s) /\ exists l, lv s' v = Some l /\ l_kind l = LE).
  Proof.
    intros s ts E A B C g alias b W. unfold new_level. destruct ts as [|tm ts']; [apply (safe_raise _ _ epo); auto; discriminate|].
    set (ts := tm :: ts') in *. destruct (forallb plain_term ts) eqn:Ep; [|apply (safe_raise _ _ epo); auto; discriminate].
    set (l := mkLevel N LE None (multiterm ts) b alias false [] E A B C g (nofQ N 0) (nofQ N 0)).
    assert (O : lvl_ok s l).
    { split; [apply multiterm_id|]. left. split; auto. split; auto.
      assert (Hl : exists tm0, lead l = Some tm0 /\ In tm0 ts).
      { unfold lead. cbn [l_term l]. unfold l. cbn [l_term].
        pose proof (multiterm_perm ts) as Pm. destruct (multiterm ts) as [|t0 r] eqn:Em.
        - apply Permutation_sym, Permutation_nil in Pm. discriminate.
        - exists t0. split; auto. eapply Permutation_in; [apply Permutation_sym, Pm|]. simpl. auto. }
      destruct Hl as [tm0 [Hl I0]]. rewrite forallb_forall in Ep. specialize (Ep _ I0). unfold plain_term in Ep.
      destruct (t_J tm0) as [j|] eqn:EJ; [|discriminate]. destruct (t_F tm0) eqn:EF; [discriminate|].
      destruct (t_mF tm0) eqn:EM; [discriminate|]. apply Z.leb_le in Ep. exists tm0, j. auto. }
    destruct (WF_new_level _ s l W O eq_refl) as [W' X'].
    apply (safe_gets _ _ s). apply (safe_modify _ _ epo); auto. apply (safe_ret _ _ epo); auto. split; auto.
    exists l. split; auto. unfold lv. cbn. rewrite nth_error_app2 by auto. now rewrite Nat.sub_diag.
  Qed.

  Lemma set_alias_safe : forall s a l al, WF s -> lv s a = Some l -> safe ext s (set_alias N a al) any.
  Proof.
    intros s a l al W V. destruct (l_attached l) eqn:A.
    - destruct (set_alias_spec _ s a l al W V A) as [s' [E [W' [X' _]]]]. unfold safe. rewrite E. cbn [fst snd]. split; auto. split; auto. exact I.
    - unfold set_alias, get_lv. destruct (WF_upd_lv _ s a (lv_set_alias (Some al)) W) as [W1 X1]; [repeat split; auto|].
      apply (safe_modify _ _ epo); auto.
      assert (V1 : lv (upd_lv a (lv_set_alias (Some al)) s) a = Some (lv_set_alias (Some al) l)) by (rewrite lv_upd_lv, Nat.eqb_refl, V; reflexivity).
      apply (safe_asks _ _ _ _ _ _ _ _ V1). cbn [l_attached lv_set_alias]. rewrite A. apply (safe_raise _ _ epo); auto. discriminate.
  Qed.

  Lemma tr_alias_safe : forall s t x al, WF s -> tr s t = Some x -> safe ext s (tr_alias N t al) any.
  Proof.
    intros s t x al W V. unfold tr_alias, get_tr.
    destruct (WF_upd_tr _ s t (tr_set_alias (Some al)) W) as [W1 X1]; [repeat split; auto|].
    apply (safe_modify _ _ epo); auto.
    assert (V1 : tr (upd_tr t (tr_set_alias (Some al)) s) t = Some (tr_set_alias (Some al) x)) by (rewrite tr_upd_tr, Nat.eqb_refl, V; reflexivity).
    apply (safe_asks _ _ _ _ _ _ _ _ V1). destruct (x_attached _); [|apply (safe_raise _ _ epo); auto; discriminate].
    destruct (WF_tal _ _ al t _ W1 V1) as [W2 X2]. apply (safe_modify_last _ _); auto. exact I.
  Qed.

  (** ** All operations *)

  Definition is_lv s a : Prop := exists l, lv s a = Some l.

  (** The objects an operation refers to exist. *)
  Definition op_valid s (o : op N) : Prop :=
    match o with
    | OAddLevel _ a _ _ | OItem _ a _ | OSublevels _ a | OAlias _ a _ | OSetLevel _ a _ | OSetHf _ a _ _ _ | OSetLande _ a _ | OSetQz _ a _ =>
        is_lv s a
    | ONewTransition _ a b _ _ _ => is_lv s a /\ is_lv s b
    | OAddTransition _ sp _ _ _ => tspec_ok s sp
    | OSubItem _ t _ | OSubtransitions _ t | OTAlias _ t _ | OSetA _ t _ | OSetFreq _ t _ => is_tr s t
    | _ => True
    end.

  Lemma run_op_safe : forall s o, WF s -> op_valid s o -> safe ext s (run_op N muB orc o) any.
  Proof.
    intros s o W V.
    assert (Up : forall a f, (forall l, lsame l (f l) /\ l_subs (f l) = l_subs l) -> safe ext s (modify (upd_lv a f)) any).
    { intros a f Hf. destruct (WF_upd_lv _ s a f W Hf) as [W1 X1]. apply (safe_modify_last _ _); auto. exact I. }
    destruct o; cbn [run_op op_valid] in *.
    - eapply safe_void; [exact epo|]. apply new_level_safe; auto.
    - destruct V as [l V]. eapply safe_void; [exact epo|]. eapply safe_weaken; [|eapply add_level_safe; eauto].
      intros s1 s2 X. apply X.
    - now apply del_level_safe.
    - eapply safe_void; [exact epo|]. eapply safe_weaken; [|apply levels_get_safe; auto]. intros s1 s2 L. apply look_ext, L.
    - eapply safe_void; [exact epo|]. eapply safe_weaken; [|apply levels_get_int_safe; auto]. intros s1 s2 L. apply look_ext, L.
    - destruct V as [l V]. eapply safe_void; [exact epo|]. unfold getitem. eapply safe_weaken; [|eapply getitem_safe; eauto].
      + intros s1 s2 L. apply look_ext, L.
      + destruct (l_kind l); simpl; lia.
    - destruct V as [l V]. eapply safe_void; [exact epo|]. eapply safe_weaken; [|eapply sublevels_safe; eauto].
      intros s1 s2 L. apply look_ext, L.
    - destruct V as [l V]. eapply set_alias_safe; eauto.
    - destruct V as [l V]. eapply safe_weaken; [apply moved_ext|]. eapply set_energy_safe; eauto.
    - apply Up. repeat split; auto.
    - apply Up. repeat split; auto.
    - apply Up. repeat split; auto.
    - destruct (WF_rest _ s (set_B b s) W) as [W1 X1]; auto. apply (safe_modify_last _ _); auto.
    - destruct V as [[l1 V1] [l2 V2]]. eapply safe_void; [exact epo|]. eapply new_transition_safe; eauto.
    - eapply safe_void; [exact epo|]. apply add_transition_safe; auto.
    - eapply safe_void; [exact epo|]. eapply safe_weaken; [apply look_ext|]. apply transitions_get_safe; auto.
    - eapply safe_void; [exact epo|]. eapply safe_weaken; [apply look_ext|]. apply transitions_get_str_safe; auto.
    - destruct V as [x V]. eapply safe_void; [exact epo|]. eapply safe_weaken; [apply look_ext|]. eapply tr_getitem_safe; eauto.
    - destruct V as [x V]. eapply safe_void; [exact epo|]. eapply safe_weaken; [apply look_ext|]. eapply subtransitions_safe; eauto.
    - destruct V as [x V]. eapply tr_alias_safe; eauto.
    - destruct (WF_upd_tr _ s t (tr_set_A A) W) as [W1 X1]; [repeat split; auto|]. apply (safe_modify_last _ _); auto. exact I.
    - destruct V as [x V]. eapply set_frequency_safe; eauto.
    - eapply safe_weaken; [apply moved_ext|]. eapply safe_any. apply enforce_safe; auto.
    - eapply safe_void; [exact epo|]. eapply safe_weaken; [|apply linked_safe; auto]. intros s1 s2 L. apply frame_ext, L.
    - eapply safe_void; [exact epo|]. eapply safe_weaken; [|apply total_rate_safe; auto]. intros s1 s2 L. apply frame_ext, L.
    - eapply safe_void; [exact epo|]. eapply safe_weaken; [|apply branching_safe; auto]. intros s1 s2 L. apply frame_ext, L.
    - eapply safe_weaken; [apply look_ext|]. apply populate_transitions_safe; auto.
    - apply populate_internal_safe; auto.
  Qed.

  (** ** Histories *)

  Lemma upd_none {A} : forall (l0 : list A) n f, nth_error l0 n = None -> upd n f l0 = l0.
  Proof.
    induction l0 as [|v l0 IH]; intros [|n] f E; simpl in *; auto; [discriminate|]. now rewrite IH.
  Qed.
  Lemma upd_lv_none : forall s a f, lv s a = None -> upd_lv a f s = s.
  Proof. intros s a f E. unfold upd_lv. rewrite (upd_none _ _ f E). destruct s. reflexivity. Qed.
  Lemma upd_tr_none : forall s t f, tr s t = None -> upd_tr t f s = s.
  Proof. intros s a f E. unfold upd_tr. rewrite (upd_none _ _ f E). destruct s. reflexivity. Qed.

  Lemma invalid_unchanged : forall s o, WF s -> op_valid s o \/ step N muB orc s o = s.
  Proof.
    intros s o W. unfold step.
    assert (DL : forall a, is_lv s a \/ lv s a = None) by (intros a; unfold is_lv; destruct (lv s a); eauto).
    assert (DT : forall t, is_tr s t \/ tr s t = None) by (intros t; unfold is_tr; destruct (tr s t); eauto).
    assert (NT : forall e1 e2 f A alias, (is_lv s e1 /\ is_lv s e2) \/ new_transition N muB e1 e2 f A alias s = (Raise Dangling, s)).
    { intros e1 e2 f A alias. destruct (DL e1) as [V1|V1].
      - destruct (DL e2) as [V2|V2]; auto. right. unfold new_transition, get_lv, bind, asks. destruct V1 as [l V1]. now rewrite V1, V2.
      - right. unfold new_transition, get_lv, bind, asks. now rewrite V1. }
    destruct o; cbn [op_valid run_op]; auto;
      try (destruct (DL a) as [V|V]; [auto|right]); try (destruct (DT t) as [V|V]; [auto|right]).
    - unfold void, add_level. cbn [lv_add_to_atom]. unfold bind, modify. rewrite (upd_lv_none _ _ _ V).
      unfold add_node, get_lv, bind, asks. rewrite V. reflexivity.
    - unfold void, getitem. cbn [lv_getitem]. unfold lazy_sublevels, get_lv, bind, asks. rewrite V. reflexivity.
    - unfold void, sublevels, lazy_sublevels, get_lv, bind, asks. rewrite V. reflexivity.
    - unfold set_alias, get_lv, bind, asks, modify. rewrite (upd_lv_none _ _ _ V), V. reflexivity.
    - unfold set_energy, get_lv, bind, asks. rewrite V. reflexivity.
    - unfold modify. cbn [snd]. now rewrite (upd_lv_none _ _ _ V).
    - unfold modify. cbn [snd]. now rewrite (upd_lv_none _ _ _ V).
    - unfold modify. cbn [snd]. now rewrite (upd_lv_none _ _ _ V).
    - destruct (NT e1 e2 f A alias) as [E|E]; [auto|right]. unfold void, bind. now rewrite E.
    - destruct sp as [t|n m|e1 e2]; cbn [tspec_ok]; auto.
      + destruct (DT t) as [V|V]; [auto|right]. unfold void, add_transition, tr_add_to_atom, add_edge, get_tr, bind, ret, asks, modify.
        rewrite (upd_tr_none _ _ _ V), V. reflexivity.
      + destruct (NT e1 e2 f A alias) as [E|E]; [auto|right]. unfold void, add_transition, bind. now rewrite E.
    - unfold void, tr_getitem, lazy_subtransitions, get_tr, bind, asks. rewrite V. reflexivity.
    - unfold void, subtransitions, lazy_subtransitions, get_tr, bind, asks. rewrite V. reflexivity.
    - unfold tr_alias, get_tr, bind, asks, modify. rewrite (upd_tr_none _ _ _ V), V. reflexivity.
    - unfold modify. cbn [snd]. now rewrite (upd_tr_none _ _ _ V).
    - unfold set_frequency, get_tr, bind, asks. rewrite V. reflexivity.
  Qed.

  Lemma step_WF : forall s o, WF s -> WF (step N muB orc s o) /\ ext s (step N muB orc s o).
  Proof.
    intros s o W. destruct (invalid_unchanged s o W) as [V| ->]; [|split; auto; apply epo].
    destruct (run_op_safe s o W V) as [W' [X' _]]. auto.
  Qed.

  Lemma run_WF : forall os s, WF s -> WF (run N muB orc s os) /\ ext s (run N muB orc s os).
  Proof.
    unfold run. induction os as [|o os IH]; intros s W; simpl; [split; auto; apply epo|].
    destruct (step_WF s o W) as [W1 X1]. destruct (IH _ W1) as [W2 X2]. split; auto. eapply ext_trans; eauto.
  Qed.

  Lemma init_WF : forall I B, (0 <= I)%Z -> WF (init N I B).
  Proof.
    intros I B H. assert (G : forall k, graph_ok (init N I B) k g_empty).
    { intros k. constructor; [apply graph_wf_empty| |]; [intros n a E|intros u v t E]; discriminate. }
    constructor; auto.
    - intros a l V. unfold lv in V. destruct a; discriminate.
    - intros a l V. unfold lv in V. destruct a; discriminate.
    - intros a l V. unfold tr in V. destruct a; discriminate.
    - intros a l V. unfold tr in V. destruct a; discriminate.
    - intros []; apply G.
    - intros k a E. discriminate.
    - intros k a E. discriminate.
  Qed.

  (** Every state an atom can reach satisfies the invariant. *)
  Definition reachable s : Prop := exists I B os, (0 <= I)%Z /\ s = run N muB orc (init N I B) os.

  Lemma reachable_WF : forall s, reachable s -> WF s.
  Proof. intros s [I [B [os [H ->]]]]. apply run_WF, init_WF, H. Qed.
End Safe6.
