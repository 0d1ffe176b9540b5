(** Sublevels: the statements of C12, C13, C23-C28 proved. *)
From Coq Require Import List Bool ZArith QArith Qcanon Lia String Ascii Permutation Sorted.
From Verif Require Import Base PyStr Util UtilProofs Parse Term TermProofs Num Wigner Hyperfine HyperfineProofs
  Graph GraphProofs DfsProofs Rules Atom AtomInv AtomSafe AtomSafe2 AtomSafe3 AtomSafe4 AtomSafe5 AtomSafe6 AtomLevels AtomKeep AtomPaths AtomHist AtomAlias.
Import ListNotations.

Section Sub.
  Context (N : Num) (muB : N).
  Notation st := (st N).
  Notation level := (level N).
  Notation trans := (trans N).
  Notation M := (M N).
  Implicit Types (s : st) (l : level) (x y : trans) (a : nat) (t : nat).

  (** All Zeeman states below a level, by iterating over sublevels of sublevels. *)
  Fixpoint collect (bs : list nat) : M (list nat) :=
    match bs with
    | [] => ret []
    | b :: bs' => bind (sublevels N b) (fun cs => bind (collect bs') (fun r => ret (cs ++ r)))
    end.
  Definition zeeman_states a : M (list nat) := bind (sublevels N a) collect.

  Definition is_F s (n : string) a (j f : Z) (b : nat) : Prop := exists lb, lv s b = Some lb /\ l_kind lb = LHF /\ l_parent lb = Some a /\
    l_J lb = Some j /\ l_F lb = Some f /\ l_mF lb = None /\ lname lb = (n ++ " F=" ++ half_label f)%string.
  Definition is_mF s (n : string) (b : nat) (j f m : Z) (c : nat) : Prop := exists lc, lv s c = Some lc /\ l_kind lc = LZ /\ l_parent lc = Some b /\
    l_J lc = Some j /\ l_F lc = Some f /\ l_mF lc = Some m /\ lname lc = (n ++ " mF=" ++ half_label m)%string.

  Lemma sublevels_F : forall s a l j, WF s -> lv s a = Some l -> l_kind l = LE -> l_attached l = true -> l_J l = Some j ->
    exists bs s', sublevels N a s = (Ok bs, s') /\ WF s' /\ lookl s s' /\
      Forall2 (fun f b => getitem N a ("F=" ++ half_label f) s = (Ok b, s') /\ is_F s' (lname l) a j f b) (F_range j (s_I s)) bs /\
      forall key, (forall f, In f (F_range j (s_I s)) -> key <> ("F=" ++ half_label f)%string) -> (s_I s = 0%Z -> contains "mJ" key = false) ->
        getitem N a key s = (Raise KeyError, s').
  Proof.
    intros s a l j W V K A Ej. destruct (items_spec _ s a l W V A) as [bs [s' [E [W' [L' [F G]]]]]].
    exists bs, s'. split; auto. split; auto. split; auto.
    unfold sub_range in *. rewrite K, Ej in *. cbn [sub_key] in *. split.
    - destruct (fr_lv _ _ _ (lo_frame _ _ _ (proj1 L')) _ _ V) as [l' [V' E']].
      assert (S' : l_kind l' = LE /\ l_term l' = l_term l /\ l_J l' = Some j /\ lname l' = lname l) by (rewrite E'; auto).
      destruct S' as [K' [T' [J' N']]].
      eapply Forall2_imp; [|exact F]. intros f b [Gb C]. split; auto.
      assert (C' : child s' a l' f b) by (destruct C as [lb H]; exists lb; rewrite K', T', <- K; auto).
      destruct (child_level _ _ _ _ _ _ W' C') as [lb [Vb [_ [Kb [_ Pb]]]]]. rewrite K' in Kb.
      destruct (child_numbers _ s' a l' f b lb W' V' C' Vb) as [Nb Jb]. rewrite K' in Nb. destruct Nb.
      pose proof (sub_key_name _ s' a l' f b lb W' V') as Nm. rewrite K' in Nm. specialize (Nm ltac:(discriminate) C' Vb).
      exists lb. split; auto. split; auto. split; auto. split; [congruence|]. split; auto. split; auto. rewrite Nm, N'. reflexivity.
    - intros key Hk Hm. apply G; auto. destruct (s_I s =? 0)%Z eqn:E0; auto. simpl. apply Hm. now apply Z.eqb_eq.
  Qed.

  Lemma sublevels_mF : forall s b l j f, WF s -> lv s b = Some l -> l_kind l = LHF -> l_J l = Some j -> l_F l = Some f ->
    exists cs s', sublevels N b s = (Ok cs, s') /\ WF s' /\ lookl s s' /\
      Forall2 (fun m c => getitem N b ("mF=" ++ half_label m) s = (Ok c, s') /\ is_mF s' (lname l) b j f m c) (mF_range f) cs /\
      forall key, (forall m, In m (mF_range f) -> key <> ("mF=" ++ half_label m)%string) -> (s_I s = 0%Z -> contains "mJ" key = false) ->
        getitem N b key s = (Raise KeyError, s').
  Proof.
    intros s a l j f W V K Ej Ef. destruct (wf_parent _ _ _ _ W V) as [A _]; [congruence|].
    destruct (items_spec _ s a l W V A) as [bs [s' [E [W' [L' [F G]]]]]].
    exists bs, s'. split; auto. split; auto. split; auto.
    unfold sub_range in *. rewrite K, Ef in *. cbn [sub_key] in *. split.
    - destruct (fr_lv _ _ _ (lo_frame _ _ _ (proj1 L')) _ _ V) as [l' [V' E']].
      assert (S' : l_kind l' = LHF /\ l_term l' = l_term l /\ l_J l' = Some j /\ l_F l' = Some f /\ lname l' = lname l) by (rewrite E'; repeat split; auto).
      destruct S' as [K' [T' [J' [F' N']]]].
      eapply Forall2_imp; [|exact F]. intros m b [Gb C]. split; auto.
      assert (C' : child s' a l' m b) by (destruct C as [lb H]; exists lb; rewrite K', T', <- K; auto).
      destruct (child_level _ _ _ _ _ _ W' C') as [lb [Vb [_ [Kb [_ Pb]]]]]. rewrite K' in Kb.
      destruct (child_numbers _ s' a l' m b lb W' V' C' Vb) as [Nb Jb]. rewrite K' in Nb. destruct Nb.
      pose proof (sub_key_name _ s' a l' m b lb W' V') as Nm. rewrite K' in Nm. specialize (Nm ltac:(discriminate) C' Vb).
      exists lb. split; auto. split; auto. split; auto. split; [congruence|]. split; [congruence|]. split; auto. rewrite Nm, N'. reflexivity.
    - intros key Hk Hm. apply G; auto. destruct (s_I s =? 0)%Z eqn:E0; auto. simpl. apply Hm. now apply Z.eqb_eq.
  Qed.

  Lemma lookl_same : forall s s' b lb, lookl s s' -> lv s b = Some lb -> exists lb', lv s' b = Some lb' /\ lsame lb lb'.
  Proof.
    intros s s' b lb L V. destruct (fr_lv _ _ _ (lo_frame _ _ _ (proj1 L)) _ _ V) as [l' [V' E]]. exists l'. split; auto.
    rewrite E. repeat split; auto.
  Qed.
  Lemma is_F_look : forall s s' n a j f b, lookl s s' -> is_F s n a j f b -> is_F s' n a j f b.
  Proof.
    intros s s' n a j f b L [lb [V [K [P [J [F [Mf Nm]]]]]]]. destruct (lookl_same _ _ _ _ L V) as [l' [V' S']]. exists l'.
    destruct (lsame_names _ _ _ S') as [_ [En [_ [EJ [EF [EM _]]]]]]. destruct S' as [K' [P' _]]. split; auto.
    repeat (split; [congruence|]). congruence.
  Qed.
  Lemma is_mF_look : forall s s' n b j f m c, lookl s s' -> is_mF s n b j f m c -> is_mF s' n b j f m c.
  Proof.
    intros s s' n a j f m b L [lb [V [K [P [J [F [Mf Nm]]]]]]]. destruct (lookl_same _ _ _ _ L V) as [l' [V' S']]. exists l'.
    destruct (lsame_names _ _ _ S') as [_ [En [_ [EJ [EF [EM _]]]]]]. destruct S' as [K' [P' _]]. split; auto.
    repeat (split; [congruence|]). congruence.
  Qed.

  Definition fm_list (fs : list Z) : list (Z * Z) := flat_map (fun f => map (pair f) (mF_range f)) fs.

  Lemma collect_spec : forall n a j fs bs s, WF s -> Forall2 (is_F s n a j) fs bs ->
    exists cs s', collect bs s = (Ok cs, s') /\ WF s' /\ lookl s s' /\
      Forall2 (fun fm c => exists b, is_mF s' (n ++ " F=" ++ half_label (fst fm)) b j (fst fm) (snd fm) c) (fm_list fs) cs.
  Proof.
    intros n a j fs bs s W F. revert s W F. revert fs. induction bs as [|b bs IH]; intros fs s W F; inversion F; subst.
    - exists [], s. split; auto. split; auto. split; [apply lookl_po|constructor].
    - rename x into f. rename l into fs'. destruct H2 as [lb [V [K [P [J [Ff [Mf Nm]]]]]]].
      destruct (sublevels_mF s b lb j f W V K J Ff) as [cs [s1 [E1 [W1 [L1 [F1 _]]]]]].
      destruct (IH fs' s1 W1) as [r [s2 [E2 [W2 [L2 F2]]]]].
      { eapply Forall2_imp; [|exact H3]. intros f' b'. now apply is_F_look. }
      exists (cs ++ r), s2. cbn [collect]. unfold bind. rewrite E1, E2. split; auto. split; auto. split; [eapply lookl_po; eauto|].
      cbn [fm_list flat_map]. apply Forall2_app; auto. rewrite Nm in F1.
      clear - F1 L2. induction F1 as [|m c ms cs [_ H] F1 IH]; cbn [map]; constructor; auto.
      exists b. cbn [fst snd]. eapply is_mF_look; eauto.
  Qed.

  Lemma fm_length : forall j i, (0 <= j)%Z -> (0 <= i)%Z -> Z.of_nat (List.length (fm_list (F_range j i))) = ((i + 1) * (j + 1))%Z.
  Proof.
    intros j i Hj Hi. rewrite <- zeeman_count by auto. generalize (F_range j i). intros fs. unfold fm_list.
    induction fs as [|f fs IH]; simpl; auto. rewrite app_length, map_length, Nat2Z.inj_add, IH. reflexivity.
  Qed.
  Lemma fm_In : forall fs f m, In (f, m) (fm_list fs) <-> In f fs /\ In m (mF_range f).
  Proof.
    intros fs f m. unfold fm_list. rewrite in_flat_map. split.
    - intros [f' [I1 I2]]. apply in_map_iff in I2 as [m' [E I2]]. injection E as -> ->. auto.
    - intros [I1 I2]. exists f. split; auto. apply in_map_iff. eauto.
  Qed.
  Lemma sorted_nodup : forall r, StronglySorted Z.lt r -> NoDup r.
  Proof.
    intros r S. induction S; constructor; auto. rewrite Forall_forall in H. intros I. specialize (H _ I). lia.
  Qed.
  Lemma nodup_app {A} : forall u v : list A, NoDup u -> NoDup v -> (forall z, In z u -> ~ In z v) -> NoDup (u ++ v).
  Proof.
    intros u v Hu Hv H. induction Hu as [|z u Hz Hu IH]; simpl; auto. constructor.
    - rewrite in_app_iff. intros [I|I]; auto. apply (H z); simpl; auto.
    - apply IH. intros w I. apply H. simpl; auto.
  Qed.
  Lemma fm_nodup : forall fs, NoDup fs -> NoDup (fm_list fs).
  Proof.
    intros fs Nd. induction Nd as [|f fs Hf Nd IH]; [constructor|]. cbn [fm_list flat_map]. fold (fm_list fs).
    apply nodup_app; auto.
    - apply NoDup_map_inj; [intros u v E; congruence|]. apply sorted_nodup, mF_range_sorted.
    - intros [f' m] I1 I2. apply in_map_iff in I1 as [m' [E _]]. injection E as <- _. apply fm_In in I2. tauto.
  Qed.
  Lemma Forall2_nodup {A B} (R : A -> B -> Prop) : forall u v, Forall2 R u v -> (forall z w c, R z c -> R w c -> z = w) -> NoDup u -> NoDup v.
  Proof.
    intros u v F H. induction F as [|z c u v Hz F IH]; intros Nd; constructor; inversion Nd; subst; auto.
    intros I. apply H2. clear - F I Hz H. induction F; [contradiction|]. destruct I as [->|I]; [left; eauto|right; auto].
  Qed.

  Lemma zeeman_spec : forall s a l j, WF s -> lv s a = Some l -> l_kind l = LE -> l_attached l = true -> l_J l = Some j ->
    exists cs s', zeeman_states a s = (Ok cs, s') /\ NoDup cs /\ Z.of_nat (List.length cs) = ((s_I s + 1) * (j + 1))%Z /\
      Forall2 (fun fm c => exists b, is_mF s' (lname l ++ " F=" ++ half_label (fst fm)) b j (fst fm) (snd fm) c) (fm_list (F_range j (s_I s))) cs.
  Proof.
    intros s a l j W V K A Ej. destruct (sublevels_F s a l j W V K A Ej) as [bs [s1 [E1 [W1 [L1 [F1 _]]]]]].
    destruct (collect_spec (lname l) a j (F_range j (s_I s)) bs s1 W1) as [cs [s2 [E2 [W2 [L2 F2]]]]].
    { eapply Forall2_imp; [|exact F1]. intros f b [_ H]. exact H. }
    exists cs, s2. split; [unfold zeeman_states, bind; now rewrite E1|]. split.
    { eapply (Forall2_nodup _ _ _ F2); [|apply fm_nodup, sorted_nodup, F_range_sorted].
      intros [f m] [f' m'] c [b [lc [V1 [_ [_ [_ [H1 [H2 _]]]]]]]] [b' [lc' [V2 [_ [_ [_ [H3 [H4 _]]]]]]]]. cbn [fst snd] in *. congruence. }
    split; auto.
    rewrite <- (Forall2_len _ _ _ F2). apply fm_length; [|apply (wf_I _ _ W)].
    destruct (wf_J _ _ _ _ W V) as [j' [E Hj]]. congruence.
  Qed.


  (** ** Paths *)

  Definition paths (n : string) (f m : Z) : list string :=
    [n; n ++ " F=" ++ half_label f; n ++ " F=" ++ half_label f ++ " mF=" ++ half_label m; n ++ " mJ=" ++ half_label m]%string.

  Lemma paths_agree_WF : forall orc, (forall n, oracle_ok (orc n)) -> forall s, WF s ->
    forall n a l j f m al, dget n (node_attrs (s_g0 s)) = Some a -> lv s a = Some l -> l_J l = Some j ->
    In f (F_range j (s_I s)) -> In m (mF_range f) -> has_char "=" n = false ->
    (forall k, In k (paths n f m) -> dget k (s_lal s) = None) -> dget al (s_lal s) = Some a ->
    exists b c s1,
      levels_get N (n ++ " F=" ++ half_label f ++ " mF=" ++ half_label m) s = (Ok c, s1) /\
      (exists lb lc, lv s1 b = Some lb /\ l_F lb = Some f /\ lv s1 c = Some lc /\ l_F lc = Some f /\ l_mF lc = Some m) /\
      forall os, gentle_run N muB orc n a (fun k => k = al \/ In k (paths n f m)) s1 os ->
        let s2 := run N muB orc s1 os in
        levels_get N n s2 = (Ok a, s2) /\
        levels_get N al s2 = (Ok a, s2) /\
        levels_get N (n ++ " F=" ++ half_label f) s2 = (Ok b, s2) /\
        getitem N a ("F=" ++ half_label f) s2 = (Ok b, s2) /\
        levels_get N (n ++ " F=" ++ half_label f ++ " mF=" ++ half_label m) s2 = (Ok c, s2) /\
        getitem N b ("mF=" ++ half_label m) s2 = (Ok c, s2) /\
        (s_I s = 0%Z -> levels_get N (n ++ " mJ=" ++ half_label m) s2 = (Ok c, s2) /\
                        getitem N a ("mJ=" ++ half_label m) s2 = (Ok c, s2)).
  Proof.
    intros orc OK s W n a l j f m al Hn V Ej If Im He Hp Hal.
    destruct (resolve N s n a l j f m W Hn V Ej He) as [b [c [s1 [E1 [W1 [L1 [R1 [[lb [Vb [Fb _]]] [lc [Vc [Fc [Mc _]]]]]]]]]]]]; auto.
    { apply Hp. unfold paths. simpl. auto. }
    exists b, c, s1. split; auto. split; [exists lb, lc; auto|]. intros os G s2.
    assert (La1 : s_lal s1 = s_lal s) by (apply L1). assert (I1 : s_I s1 = s_I s) by (apply L1).
    pose proof (gentle_steady N muB orc OK os n a _ s1 W1 G) as Y. fold s2 in Y.
    assert (W2 : WF s2) by (apply run_WF; auto).
    assert (I2 : s_I s2 = s_I s) by (rewrite <- I1; apply (sy_ext _ _ _ _ _ _ Y)).
    pose proof (resolved_kept N n a _ s1 s2 f b m c Y R1) as R2.
    destruct (resolved_paths N s2 n a f b m c W2 R2 He) as [P1 [P2 [P3 [P4 [P5 P6]]]]].
    { intros k. destruct (in_dec string_dec k (paths n f m)) as [Ik|Ik].
      - left. rewrite (sy_lal _ _ _ _ _ _ Y) by auto. rewrite La1. auto.
      - right. unfold paths in Ik. simpl in Ik. repeat split; intros ->; apply Ik; auto. }
    split; auto. split.
    { apply get_alias. rewrite (sy_lal _ _ _ _ _ _ Y) by auto. now rewrite La1. }
    split; auto. split; auto. split; auto. split; auto. intros E0. apply P6. congruence.
  Qed.

  Lemma paths_agree : forall orc, (forall n, oracle_ok (orc n)) -> forall s, reachable N muB orc s ->
    forall n a l j f m al, dget n (node_attrs (s_g0 s)) = Some a -> lv s a = Some l -> l_J l = Some j ->
    In f (F_range j (s_I s)) -> In m (mF_range f) -> has_char "=" n = false ->
    (forall k, In k (paths n f m) -> dget k (s_lal s) = None) -> dget al (s_lal s) = Some a ->
    exists b c s1,
      levels_get N (n ++ " F=" ++ half_label f ++ " mF=" ++ half_label m) s = (Ok c, s1) /\
      (exists lb lc, lv s1 b = Some lb /\ l_F lb = Some f /\ lv s1 c = Some lc /\ l_F lc = Some f /\ l_mF lc = Some m) /\
      forall os, gentle_run N muB orc n a (fun k => k = al \/ In k (paths n f m)) s1 os ->
        let s2 := run N muB orc s1 os in
        levels_get N n s2 = (Ok a, s2) /\
        levels_get N al s2 = (Ok a, s2) /\
        levels_get N (n ++ " F=" ++ half_label f) s2 = (Ok b, s2) /\
        getitem N a ("F=" ++ half_label f) s2 = (Ok b, s2) /\
        levels_get N (n ++ " F=" ++ half_label f ++ " mF=" ++ half_label m) s2 = (Ok c, s2) /\
        getitem N b ("mF=" ++ half_label m) s2 = (Ok c, s2) /\
        (s_I s = 0%Z -> levels_get N (n ++ " mJ=" ++ half_label m) s2 = (Ok c, s2) /\
                        getitem N a ("mJ=" ++ half_label m) s2 = (Ok c, s2)).
  Proof. intros orc OK s R. apply paths_agree_WF; auto. eapply reachable_WF; eauto. Qed.
End Sub.
