(** Transition lookup, queries, enforcement of frequencies, and histories. *)
From Coq Require Import List Bool ZArith QArith Qcanon Lia String Ascii Permutation.
From Verif Require Import Base PyStr Util UtilProofs Parse Term TermProofs Num Wigner Hyperfine HyperfineProofs
  Graph GraphProofs Rules Atom AtomInv AtomSafe AtomSafe2 AtomSafe3.
Import ListNotations.

Arguments is_tr {N}. Arguments tr_joined {N}.

Section Safe4.
  Context (N : Num) (muB : N).
  Notation st := (st N).
  Notation level := (level N).
  Notation trans := (trans N).
  Notation M := (M N).
  Notation energy := (energy N muB).
  Implicit Types (s : st) (l : level) (x y : trans) (a : nat) (t : nat).

  Let lpo := look_po N.
  Let llpo := lookl_po N.
  Let lpo0 := look0_po N.
  Let fpo := frame_po N.
  Let epo := ext_po N.

  (** ** Transition lookup *)

  Lemma with_energy_frame : forall s s' ns, WF s -> frame s s' -> (forall a, In a ns -> exists l, lv s a = Some l) ->
    with_energy N muB s' ns = with_energy N muB s ns.
  Proof.
    intros s s' ns W F. induction ns as [|a ns IH]; simpl; intros H; auto.
    destruct (H a (or_introl eq_refl)) as [l V]. rewrite (frame_energy N muB s s' a W F) by congruence.
    now rewrite IH by auto.
  Qed.

  Lemma by_energy_frame : forall s s', WF s -> frame s s' -> by_energy N muB s' = by_energy N muB s.
  Proof.
    intros s s' W F. unfold by_energy. rewrite (fr_g0 _ _ _ F). rewrite (with_energy_frame s s'); auto.
    intros a I. destruct (nodes_levels _ s LE a W I) as [n [l [V _]]]. eauto.
  Qed.

  Lemma levels_get_key_safe : forall s k, WF s ->
    safe lookl s (levels_get_key N muB k) (fun b s' => found s' b /\ forall s2, look s' s2 -> levels_get_key N muB k s2 = (Ok b, s2)).
  Proof.
    intros s [k|i] W; [now apply levels_get_safe|]. cbn [levels_get_key]. unfold levels_get_int.
    destruct (by_energy_total _ muB s W) as [r [E P]].
    apply (safe_asks _ _ s _ _ _ _ _ E). apply (safe_try_last _ _ llpo); [auto|discriminate|]. intros b Eb. split.
    - apply py_nth_In in Eb. eapply Permutation_in in Eb; eauto.
      destruct (nodes_levels _ s LE b W Eb) as [n [l [V [_ [_ A]]]]]. exists l; auto.
    - intros s2 L2. unfold bind, asks. rewrite (by_energy_frame s s2) by (auto; apply L2). now rewrite E, Eb.
  Qed.

  Lemma edge_at_tr : forall s u v t, WF s -> dget (u, v) (edge_attrs (s_g0 s)) = Some t -> exists x, tr s t = Some x /\ x_kind x = TT.
  Proof.
    intros s u v t W E. pose proof (wf_g _ _ W LE) as G. cbn [graph_of] in G.
    rewrite edge_attrs_get in E by apply G. destruct (beforeb _ _ _); [|discriminate].
    destruct (go_edge _ _ _ _ G _ _ _ E) as [x [V [K _]]]. exists x. split; auto. destruct (x_kind x); auto; discriminate.
  Qed.

  (** Chains of lookups: what was found stays. *)
  Definition stable {A} (m : M A) (v : A) s' : Prop := forall s2, look s' s2 -> m s2 = (Ok v, s2).

  Lemma stable_look {A} : forall (m : M A) v s s', look s s' -> stable m v s -> stable m v s'.
  Proof. intros m v s s' L H s2 L2. apply H. eapply look_trans; eauto. Qed.
  Lemma stable_bind {A B} : forall (m : M A) (f : A -> M B) v w s, stable m v s -> stable (f v) w s -> stable (bind m f) w s.
  Proof. intros m f v w s H1 H2 s2 L2. unfold bind. rewrite (H1 s2 L2). now apply H2. Qed.
  Lemma stable_asks {A B} : forall e (g : st -> option A) (f : A -> M B) v w s, (forall s2, look s s2 -> g s2 = Some v) ->
    stable (f v) w s -> stable (bind (asks e g) f) w s.
  Proof. intros e g f v w s H1 H2 s2 L2. unfold bind, asks. rewrite (H1 s2 L2). now apply H2. Qed.
  Lemma stable_asks_last {A} : forall e (g : st -> option A) v s, (forall s2, look s s2 -> g s2 = Some v) ->
    stable (asks e g) v s.
  Proof. intros e g v s H1 s2 L2. unfold asks. now rewrite (H1 s2 L2). Qed.

  (** A computation that looks up something: its result is repeated by later calls. *)
  Definition lsafe {A} s (m : M A) (Q : A -> st -> Prop) : Prop :=
    safe look s m (fun v s' => Q v s' /\ stable m v s').

  Lemma lsafe_bind {A B} : forall s (m : M A) (f : A -> M B) Q1 Q, lsafe s m Q1 ->
    (forall v s', WF s' -> look s s' -> Q1 v s' -> lsafe s' (f v) Q) -> lsafe s (bind m f) Q.
  Proof.
    intros s m f Q1 Q H1 H2. eapply (safe_bind _ _ lpo); [exact H1|]. cbv beta. intros v s' W' L' [HQ Hst].
    eapply (safe_conseq _); [apply H2; auto|]. cbv beta. intros w s2 W2 L2 [HQ2 Hst2]. split; auto.
    eapply stable_bind; eauto. eapply stable_look; eauto.
  Qed.
  (** A pure step. *)
  Lemma lsafe_asks {A B} : forall s e (g : st -> option A) (f : A -> M B) Q, WF s -> e <> Dangling ->
    (forall v, g s = Some v -> (forall s2, look s s2 -> g s2 = Some v) /\ lsafe s (f v) Q) -> lsafe s (bind (asks e g) f) Q.
  Proof.
    intros s e g f Q W He H. apply (safe_try _ _ lpo); auto. intros v E. destruct (H v E) as [Hs Hl].
    eapply (safe_conseq _); [exact Hl|]. cbv beta. intros w s2 W2 L2 [HQ2 Hst2]. split; auto.
    eapply stable_asks; eauto. intros s3 L3. apply Hs. eapply look_trans; eauto.
  Qed.
  Lemma lsafe_asks_ok {A B} : forall s e (g : st -> option A) (f : A -> M B) Q v, WF s -> g s = Some v ->
    (forall s2, look s s2 -> g s2 = Some v) -> lsafe s (f v) Q -> lsafe s (bind (asks e g) f) Q.
  Proof.
    intros s e g f Q v W E Hs Hl. apply (safe_asks _ _ s _ _ _ _ _ E). eapply (safe_conseq _); [exact Hl|].
    cbv beta. intros w s2 W2 L2 [HQ2 Hst2]. split; auto. eapply stable_asks; eauto. intros s3 L3. apply Hs. eapply look_trans; eauto.
  Qed.
  Lemma lsafe_asks_last {A} : forall s e (g : st -> option A) (Q : A -> st -> Prop), WF s -> e <> Dangling ->
    (forall v, g s = Some v -> (forall s2, look s s2 -> g s2 = Some v) /\ Q v s) -> lsafe s (asks e g) Q.
  Proof.
    intros s e g Q W He H. apply (safe_try_last _ _ lpo); auto. intros v E. destruct (H v E) as [Hs Hl]. split; auto.
    now apply stable_asks_last.
  Qed.
  Lemma lsafe_raise {A} : forall s e (Q : A -> st -> Prop), WF s -> e <> Dangling -> lsafe s (raise e) Q.
  Proof. intros. apply (safe_raise _ _ lpo); auto. Qed.

  Lemma lsafe_levels : forall s k, WF s -> lsafe s (levels_get_key N muB k) (fun b s' => found s' b).
  Proof. intros s k W. eapply safe_weaken; [|apply levels_get_key_safe; auto]. intros ? ? L. apply L. Qed.

  Lemma lsafe_getitem : forall s t k, WF s -> is_tr s t -> lsafe s (tr_getitem N muB t k) (fun c s2 => is_tr s2 c).
  Proof. intros s t k W [x V]. eapply tr_getitem_safe; eauto. Qed.

  Lemma lsafe_edge {B} : forall s u v (f : nat -> M B) Q, WF s -> (forall t, is_tr s t -> lsafe s (f t) Q) -> lsafe s (bind (edge_at N u v) f) Q.
  Proof.
    intros s u v f Q W H. unfold edge_at. apply lsafe_asks; auto; [discriminate|]. intros t E.
    split; [intros s2 L2; now rewrite (fr_g0 _ _ _ (lo_frame _ _ _ L2))|]. apply H.
    destruct (edge_at_tr s u v t W E) as [x [V _]]. exists x. auto.
  Qed.

  Lemma lsafe_node {B} : forall s n (f : nat -> M B) Q, WF s -> (forall a l, lv s a = Some l -> l_kind l = LE -> lsafe s (f a) Q) ->
    lsafe s (bind (node N n) f) Q.
  Proof.
    intros s n f Q W H. unfold node. apply lsafe_asks; auto; [discriminate|]. intros a E.
    split; [intros s2 L2; now rewrite (fr_g0 _ _ _ (lo_frame _ _ _ L2))|].
    destruct (node_level _ s LE n a W E) as [l [V [K _]]]. eauto.
  Qed.

  Lemma lsafe_str {A B} : forall s e (o : option A) (f : A -> M B) Q, WF s -> e <> Dangling ->
    (forall v, o = Some v -> lsafe s (f v) Q) -> lsafe s (bind (asks e (fun _ => o)) f) Q.
  Proof. intros s e o f Q W He H. apply lsafe_asks; auto. Qed.

  Lemma lsafe_energy {B} : forall s a (f : N -> M B) Q, WF s -> found s a -> (forall e, energy s a = Some e -> lsafe s (f e) Q) ->
    lsafe s (bind (asks Dangling (fun s => energy s a)) f) Q.
  Proof.
    intros s a f Q W [l [V _]] H. destruct (wf_energy N muB s a l W V) as [e E].
    eapply lsafe_asks_ok; eauto. intros s2 L2. rewrite (frame_energy N muB s s2); auto; [apply L2|congruence].
  Qed.

  (** Results that depend on the record of a level only through J. *)
  Lemma lsafe_J {B} : forall s a l (f : level -> M B) (g : option Z -> M B) Q, WF s -> lv s a = Some l ->
    (forall l', f l' = g (l_J l')) -> lsafe s (g (l_J l)) Q -> lsafe s (bind (get_lv a) f) Q.
  Proof.
    intros s a l f g Q W V E H. unfold get_lv. apply (safe_asks _ _ s _ _ _ _ _ V). rewrite E.
    eapply (safe_conseq _); [exact H|]. cbv beta. intros w s2 W2 L2 [HQ2 Hst2]. split; auto.
    intros s3 L3. unfold bind, asks. destruct (fr_lv _ _ _ (lo_frame _ _ _ (look_trans _ _ _ _ L2 L3)) _ _ V) as [l3 [V3 E3]].
    rewrite V3, E. replace (l_J l3) with (l_J l) by (rewrite E3; reflexivity). now apply Hst2.
  Qed.

  Lemma transitions_get_safe : forall s k, WF s -> lsafe s (transitions_get N muB k) (fun c s2 => is_tr s2 c).
  Proof.
    intros s [k1 k2] W. unfold transitions_get. cbn [fst snd].
    eapply lsafe_bind; [now apply lsafe_levels|]. cbv beta. intros a s1 W1 L1 Fa.
    apply lsafe_energy; auto. intros ea Ea.
    eapply lsafe_bind; [now apply lsafe_levels|]. cbv beta. intros b s2 W2 L2 Fb.
    apply lsafe_energy; auto. intros eb Eb. cbv zeta.
    set (lo := if nltb N eb ea then k2 else k1). set (up := if nltb N eb ea then k1 else k2).
    destruct k1 as [k0|i]; [|apply lsafe_raise; auto; discriminate].
    destruct (contains "mF=" k0); [|destruct (contains "mJ=" k0); [|destruct (contains "F=" k0)]].
    - apply lsafe_str; auto; [discriminate|]. intros kl _. apply lsafe_str; auto; [discriminate|]. intros pl _.
      apply lsafe_str; auto; [discriminate|]. intros ku _. apply lsafe_str; auto; [discriminate|]. intros pu _.
      apply lsafe_edge; auto. intros t Ht. eapply lsafe_bind; [now apply lsafe_getitem|]. cbv beta. intros h s3 W3 L3 Hh.
      now apply lsafe_getitem.
    - apply lsafe_str; auto; [discriminate|]. intros kl _. apply lsafe_str; auto; [discriminate|]. intros pl _.
      apply lsafe_str; auto; [discriminate|]. intros ku _. apply lsafe_str; auto; [discriminate|]. intros pu _.
      apply lsafe_node; auto. intros n0 v0 V0 _.
      apply (lsafe_J s2 n0 v0 _ (fun j0 => bind (node N (fst pu)) (fun n1 => bind (get_lv n1) (fun v1 =>
         bind (edge_at N (fst pl) (fst pu)) (fun t => bind (tr_getitem N muB t ("F=" ++ frac j0, "F=" ++ frac (l_J v1))%string)
           (fun h => tr_getitem N muB h ("mF=" ++ snd pl, "mF=" ++ snd pu)%string)))))); auto.
      apply lsafe_node; auto. intros n1 v1 V1 _.
      apply (lsafe_J s2 n1 v1 _ (fun j1 => 
         bind (edge_at N (fst pl) (fst pu)) (fun t => bind (tr_getitem N muB t ("F=" ++ frac (l_J v0), "F=" ++ frac j1)%string)
           (fun h => tr_getitem N muB h ("mF=" ++ snd pl, "mF=" ++ snd pu)%string)))); auto.
      apply lsafe_edge; auto. intros t Ht. eapply lsafe_bind; [now apply lsafe_getitem|]. cbv beta. intros h s3 W3 L3 Hh.
      now apply lsafe_getitem.
    - apply lsafe_str; auto; [discriminate|]. intros kl _. apply lsafe_str; auto; [discriminate|]. intros pl _.
      apply lsafe_str; auto; [discriminate|]. intros ku _. apply lsafe_str; auto; [discriminate|]. intros pu _.
      apply lsafe_edge; auto. intros t Ht. now apply lsafe_getitem.
    - destruct lo as [u|]; [|apply lsafe_raise; auto; discriminate]. destruct up as [v|]; [|apply lsafe_raise; auto; discriminate].
      unfold edge_at. apply lsafe_asks_last; auto; [discriminate|]. intros t E.
      split; [intros s3 L3; now rewrite (fr_g0 _ _ _ (lo_frame _ _ _ L3))|].
      destruct (edge_at_tr s2 u v t W2 E) as [x [V _]]. exists x. auto.
  Qed.

  Lemma transitions_get_str_safe : forall s k, WF s -> lsafe s (transitions_get_str N muB k) (fun c s2 => is_tr s2 c).
  Proof.
    intros s k W. unfold transitions_get_str.
    assert (Dg : forall s2, look s s2 -> dget k (s_tal s2) = dget k (s_tal s)).
    { intros s2 L2. now rewrite (fr_tal _ _ _ (lo_frame _ _ _ L2)). }
    assert (G : forall (f : option nat -> M nat) Q, lsafe s (f (dget k (s_tal s))) Q -> lsafe s (bind (gets (fun s => dget k (s_tal s))) f) Q).
    { intros f Q H. apply (safe_gets _ _ s). eapply (safe_conseq _); [exact H|]. cbv beta. intros w s2 W2 L2 [HQ2 Hst2]. split; auto.
      intros s3 L3. unfold bind, gets. rewrite (Dg s3) by (eapply look_trans; eauto). now apply Hst2. }
    apply G. destruct (dget k (s_tal s)) as [t|] eqn:E.
    - split; auto. split; [apply lpo|]. cbn. split; [apply (wf_tal _ _ W _ _ E)|]. intros s2 L2. reflexivity.
    - destruct k as [|c [|d k']].
      + apply lsafe_raise; auto; discriminate.
      + eapply lsafe_bind; [apply (lsafe_levels s (KS _)); auto|]. cbv beta. intros b s1 W1 L1 Fb. apply lsafe_raise; auto; discriminate.
      + now apply transitions_get_safe.
  Qed.

  (** ** Adding transitions *)

  Lemma tr_add_safe : forall s t x, WF s -> tr s t = Some x ->
    safe ext s (tr_add_to_atom N t) (fun _ s' => s' = tr_joined s t x).
  Proof.
    intros s t x W V. unfold safe. rewrite (tr_add_eq _ _ _ _ W V). destruct (tr_joined_spec _ s t x W V) as [W' [X' _]].
    cbn [fst snd]. split; auto. split; auto. destruct (x_subs x); auto. discriminate.
  Qed.
End Safe4.
