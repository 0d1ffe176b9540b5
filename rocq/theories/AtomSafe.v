(** A program logic for the atom model, and specifications of the level
    operations: the invariant is kept, [Dangling] is never raised, and what
    may change is limited by a relation between the states. *)
From Coq Require Import List Bool ZArith QArith Qcanon Lia String Ascii Permutation.
From Verif Require Import Base PyStr Util UtilProofs Parse Term TermProofs Num Wigner Hyperfine HyperfineProofs
  Graph GraphProofs Rules Atom AtomInv.
Import ListNotations.

Arguments WF {N}. Arguments ext {N}. Arguments lsame {N}. Arguments xsame {N}. Arguments lvl_ok {N}.
Arguments subs_ok {N}. Arguments child {N}. Arguments tr_static {N}. Arguments tr_subs_ok {N}. Arguments subtr {N}.
Arguments node_ok {N}. Arguments edge_ok {N}. Arguments graph_ok {N}. Arguments sub_range {N}.
Arguments lv_set_subs {N}. Arguments lv_set_attached {N}. Arguments lv_set_alias {N}. Arguments lv_set_E {N}.
Arguments lv_set_hf {N}. Arguments lv_set_fixed {N}. Arguments lv_set_lande {N}. Arguments lv_set_qz {N}.
Arguments tr_set_subs {N}. Arguments tr_set_attached {N}. Arguments tr_set_alias {N}. Arguments tr_set_A {N}.
Arguments tr_set_set {N}.
Arguments set_levels {N}. Arguments set_trans {N}. Arguments set_lal {N}. Arguments set_tal {N}. Arguments set_B {N}.
Arguments add_warn {N}. Arguments tick {N}. Arguments set_g0 {N}. Arguments set_g1 {N}. Arguments set_g2 {N}.
Arguments install {N}. Arguments energyE {N}. Arguments energyHF {N}.

Section Safe.
  Context (N : Num).
  Notation st := (st N).
  Notation level := (level N).
  Notation trans := (trans N).
  Notation M := (M N).
  Implicit Types (s : st) (l : level) (x : trans) (a : nat) (t : nat).

  (** ** The logic *)

  Definition safe {A} (R : st -> st -> Prop) s (m : M A) (Q : A -> st -> Prop) : Prop :=
    WF (snd (m s)) /\ R s (snd (m s)) /\
    match fst (m s) with Ok v => Q v (snd (m s)) | Raise e => e <> Dangling end.

  Record preord (R : st -> st -> Prop) : Prop := mk_preord {
    po_refl : forall s, R s s;
    po_trans : forall s1 s2 s3, R s1 s2 -> R s2 s3 -> R s1 s3
  }.

  Section Rules.
    Context (R : st -> st -> Prop) (PO : preord R).

    Lemma safe_ret {A} : forall s (v : A) (Q : A -> st -> Prop), WF s -> Q v s -> safe R s (ret v) Q.
    Proof. intros. split; [|split]; simpl; auto. apply PO. Qed.

    Lemma safe_raise {A} : forall s e (Q : A -> st -> Prop), WF s -> e <> Dangling -> safe R s (raise e) Q.
    Proof. intros. split; [|split]; simpl; auto. apply PO. Qed.

    Lemma safe_bind {A B} : forall s (m : M A) (f : A -> M B) (Q : A -> st -> Prop) (Q' : B -> st -> Prop),
      safe R s m Q ->
      (forall v s', WF s' -> R s s' -> Q v s' -> safe R s' (f v) Q') ->
      safe R s (bind m f) Q'.
    Proof.
      intros s m f Q Q' [W [X O]] H. unfold safe, bind. destruct (m s) as [[v|e] s'] eqn:E; simpl in *.
      - destruct (H v s' W X O) as [W2 [X2 O2]]. split; [auto|split; auto]. eapply PO; eauto.
      - auto.
    Qed.

    Lemma safe_conseq {A} : forall s (m : M A) (Q Q' : A -> st -> Prop), safe R s m Q ->
      (forall v s', WF s' -> R s s' -> Q v s' -> Q' v s') -> safe R s m Q'.
    Proof.
      intros s m Q Q' [W [X O]] H. split; [|split]; auto. destruct (fst (m s)); auto.
    Qed.

    Lemma safe_asks {A B} : forall s e (f : st -> option A) (k : A -> M B) Q v, f s = Some v -> safe R s (k v) Q ->
      safe R s (bind (asks e f) k) Q.
    Proof. intros s e f k Q v E H. unfold safe, bind, asks in *. now rewrite E. Qed.

    Lemma safe_try {A B} : forall s e (f : st -> option A) (k : A -> M B) Q, WF s -> e <> Dangling ->
      (forall v, f s = Some v -> safe R s (k v) Q) -> safe R s (bind (asks e f) k) Q.
    Proof.
      intros s e f k Q W He H. unfold safe, bind, asks in *. destruct (f s); [now apply H|].
      simpl. split; [|split]; auto. apply PO.
    Qed.

    Lemma safe_try_last {A} : forall s e (f : st -> option A) (Q : A -> st -> Prop), WF s -> e <> Dangling ->
      (forall v, f s = Some v -> Q v s) -> safe R s (asks e f) Q.
    Proof.
      intros s e f Q W He H. unfold safe, asks in *. destruct (f s) eqn:E; simpl; split; auto; split; auto; apply PO.
    Qed.

    Lemma safe_gets {A B} : forall s (f : st -> A) (k : A -> M B) Q, safe R s (k (f s)) Q -> safe R s (bind (gets f) k) Q.
    Proof. intros. exact H. Qed.

    Lemma safe_modify {B} : forall s g (k : unit -> M B) (Q : B -> st -> Prop), WF (g s) -> R s (g s) ->
      safe R (g s) (k tt) Q -> safe R s (bind (modify g) k) Q.
    Proof.
      intros s g k Q W X [W2 [X2 O2]]. unfold safe, bind, modify. split; auto. split; auto. eapply PO; eauto.
    Qed.

    Lemma safe_modify_last : forall s g (Q : unit -> st -> Prop), WF (g s) -> R s (g s) -> Q tt (g s) ->
      safe R s (modify g) Q.
    Proof. intros. split; [|split]; auto. Qed.

    Lemma safe_forM {A} : forall (l : list A) (f : A -> M unit) (Inv : st -> Prop) s, WF s -> Inv s ->
      (forall v s', In v l -> WF s' -> R s s' -> Inv s' -> safe R s' (f v) (fun _ s2 => Inv s2)) ->
      safe R s (forM l f) (fun _ s' => Inv s').
    Proof.
      intros l f Inv. induction l as [|v l IH]; simpl; intros s W I H.
      - apply safe_ret; auto.
      - eapply safe_bind; [apply H; auto; apply PO|]. simpl. intros [] s' W' X I'. apply IH; auto.
        intros v' s2 Iv W2 X2 I2. apply H; auto. eapply PO; eauto.
    Qed.
  End Rules.

  Lemma safe_weaken {A} : forall (R R' : st -> st -> Prop) s (m : M A) Q, (forall s s', R s s' -> R' s s') ->
    safe R s m Q -> safe R' s m Q.
  Proof. intros R R' s m Q H [W [X O]]. split; auto. Qed.

  Lemma ext_po : preord ext.
  Proof. constructor; [intros; apply ext_refl|intros; eapply ext_trans; eauto]. Qed.

  (** ** What lookups may change *)

  Record frame s s' : Prop := mk_frame {
    fr_g0 : s_g0 s' = s_g0 s; fr_lal : s_lal s' = s_lal s; fr_tal : s_tal s' = s_tal s;
    fr_I : s_I s' = s_I s; fr_B : s_B s' = s_B s; fr_warn : s_warn s' = s_warn s; fr_tick : s_tick s' = s_tick s;
    fr_lv : forall a l, lv s a = Some l -> exists l', lv s' a = Some l' /\ l' = lv_set_subs (l_subs l') l;
    fr_tr : forall t x, tr s t = Some x -> exists x', tr s' t = Some x' /\
      x' = tr_set_subs (x_subs x') (tr_set_attached (x_attached x') x)
  }.
  Record look0 s s' : Prop := mk_look0 {
    l0_frame : frame s s';
    l0_subs : forall a l l', lv s a = Some l -> l_subs l <> [] -> lv s' a = Some l' -> l_subs l' = l_subs l
  }.
  Record look s s' : Prop := mk_look {
    lo_look0 : look0 s s';
    lo_tsubs : forall t x x', tr s t = Some x -> x_subs x <> [] -> tr s' t = Some x' -> x_subs x' = x_subs x
  }.
  Lemma lo_frame : forall s s', look s s' -> frame s s'.
  Proof. intros s s' L. apply L. Qed.
  Lemma lo_subs : forall s s', look s s' -> forall a l l', lv s a = Some l -> l_subs l <> [] -> lv s' a = Some l' -> l_subs l' = l_subs l.
  Proof. intros s s' L. apply L. Qed.

  Lemma lv_eta : forall l, lv_set_subs (l_subs l) l = l.
  Proof. intros []. reflexivity. Qed.
  Lemma tr_eta : forall x, tr_set_subs (x_subs x) (tr_set_attached (x_attached x) x) = x.
  Proof. intros []. reflexivity. Qed.

  Lemma frame_refl : forall s, frame s s.
  Proof.
    intros. constructor; auto.
    - intros a l V. exists l. split; auto. now rewrite lv_eta.
    - intros t x V. exists x. split; auto. now rewrite tr_eta.
  Qed.
  Lemma frame_trans : forall s1 s2 s3, frame s1 s2 -> frame s2 s3 -> frame s1 s3.
  Proof.
    intros s1 s2 s3 A B. constructor.
    1-7: etransitivity; [apply B|apply A].
    - intros a l V. destruct (fr_lv _ _ A _ _ V) as [l2 [V2 E2]]. destruct (fr_lv _ _ B _ _ V2) as [l3 [V3 E3]].
      exists l3. split; auto. rewrite E3, E2. reflexivity.
    - intros t x V. destruct (fr_tr _ _ A _ _ V) as [x2 [V2 E2]]. destruct (fr_tr _ _ B _ _ V2) as [x3 [V3 E3]].
      exists x3. split; auto. rewrite E3, E2. reflexivity.
  Qed.
  Lemma frame_po : preord frame.
  Proof. constructor; [apply frame_refl|apply frame_trans]. Qed.

  Lemma look0_po : preord look0.
  Proof.
    constructor.
    - intros s. constructor; [apply frame_refl|]. intros; congruence.
    - intros s1 s2 s3 [A1 A2] [B1 B2]. constructor; [eapply frame_trans; eauto|].
      intros a l l' V Hn V'. destruct (fr_lv _ _ A1 _ _ V) as [l2 [V2 E2]].
      rewrite (B2 _ _ _ V2); eauto. rewrite (A2 _ _ _ V); eauto.
  Qed.
  Lemma look_po : preord look.
  Proof.
    constructor.
    - intros s. constructor; [apply look0_po|]. intros; congruence.
    - intros s1 s2 s3 [A1 A2] [B1 B2]. constructor; [eapply look0_po; eauto|].
      intros t x x' V Hn V'. destruct (fr_tr _ _ (l0_frame _ _ A1) _ _ V) as [x2 [V2 E2]].
      rewrite (B2 _ _ _ V2); eauto. rewrite (A2 _ _ _ V); eauto.
  Qed.
  Lemma look_trans : forall s1 s2 s3, look s1 s2 -> look s2 s3 -> look s1 s3.
  Proof. apply look_po. Qed.

  Lemma frame_ext : forall s s', frame s s' -> ext s s'.
  Proof.
    intros s s' F. constructor; [apply F| |].
    - intros a l V. destruct (fr_lv _ _ F _ _ V) as [l' [V' E]]. exists l'. split; auto. rewrite E. repeat split; auto.
    - intros t x V. destruct (fr_tr _ _ F _ _ V) as [x' [V' E]]. exists x'. split; auto. rewrite E. repeat split; auto.
  Qed.
  Lemma look_ext : forall s s', look s s' -> ext s s'.
  Proof. intros s s' L. apply frame_ext, L. Qed.

  (** Looking up levels does not touch transitions either. *)
  Definition lookl s s' : Prop := look s s' /\ s_trans s' = s_trans s.
  Lemma lookl_po : preord lookl.
  Proof.
    constructor; [split; [apply look_po|auto]|]. intros s1 s2 s3 [A1 A2] [B1 B2]. split; [eapply look_trans; eauto|congruence].
  Qed.
  Lemma lookl_look : forall s s', lookl s s' -> look s s'.
  Proof. intros s s' L. apply L. Qed.

  (** Same heaps and the same fine-structure graph. *)
  Lemma look_same : forall s s', s_levels s' = s_levels s -> s_trans s' = s_trans s -> s_g0 s' = s_g0 s ->
    s_lal s' = s_lal s -> s_tal s' = s_tal s -> s_I s' = s_I s -> s_B s' = s_B s -> s_warn s' = s_warn s ->
    s_tick s' = s_tick s -> look s s'.
  Proof.
    intros s s' E1 E2 E3 E4 E5 E6 E7 E8 E9. constructor; [constructor; [constructor; auto|]|]; unfold lv, tr; rewrite ?E1, ?E2.
    - intros a l V. exists l. split; auto. now rewrite lv_eta.
    - intros t x V. exists x. split; auto. now rewrite tr_eta.
    - intros; congruence.
    - intros; congruence.
  Qed.

  Lemma look_graph : forall s k g, k <> LE -> look s (set_graph k g s).
  Proof. intros s [] g H; [congruence| |]; apply look_same; reflexivity. Qed.

  (** ** Energies *)

  Lemma frame_energyE : forall s s' a, frame s s' -> lv s a <> None -> energyE s' a = energyE s a.
  Proof.
    intros s s' a F H. unfold energyE. destruct (lv s a) as [l|] eqn:V; [|congruence].
    destruct (fr_lv _ _ F _ _ V) as [l' [V' E]]. rewrite V', E. reflexivity.
  Qed.
  Lemma frame_energyHF : forall s s' a, WF s -> frame s s' -> lv s a <> None -> energyHF s' a = energyHF s a.
  Proof.
    intros s s' a W F H. unfold energyHF. destruct (lv s a) as [l|] eqn:V; [|congruence].
    destruct (fr_lv _ _ F _ _ V) as [l' [V' E]]. rewrite V', E. cbn [l_parent l_J lead l_F l_term lv_set_subs].
    change (l_J (lv_set_subs (l_subs l') l)) with (l_J l). change (l_F (lv_set_subs (l_subs l') l)) with (l_F l).
    destruct (l_parent l) as [p|] eqn:P; auto. destruct (l_J l); auto. destruct (l_F l); auto.
    destruct (l_kind l) eqn:K.
    - destruct (wf_lv _ _ W _ _ V) as [_ [[_ [P' _]]|[_ [q [lq [zq [_ [_ [_ [Hq [Kq _]]]]]]]]]]]; [congruence|].
      rewrite K in Kq. destruct (l_kind lq); discriminate.
    - destruct (wf_parent _ _ _ _ W V) as [_ [q [lq [zq [P' [Vq _]]]]]]; [congruence|].
      assert (q = p) by congruence. subst q.
      rewrite (frame_energyE s s' p F) by congruence. rewrite Vq. destruct (fr_lv _ _ F _ _ Vq) as [lq' [Vq' Eq]].
      rewrite Vq', Eq. cbn. destruct (energyE s p); auto. now rewrite (fr_I _ _ F).
    - destruct (wf_parent _ _ _ _ W V) as [_ [q [lq [zq [P' [Vq _]]]]]]; [congruence|].
      assert (q = p) by congruence. subst q.
      rewrite (frame_energyE s s' p F) by congruence. rewrite Vq. destruct (fr_lv _ _ F _ _ Vq) as [lq' [Vq' Eq]].
      rewrite Vq', Eq. cbn. destruct (energyE s p); auto. now rewrite (fr_I _ _ F).
  Qed.
  Lemma frame_energy : forall muB s s' a, WF s -> frame s s' -> lv s a <> None -> energy N muB s' a = energy N muB s a.
  Proof.
    intros muB s s' a W F H. unfold energy. destruct (lv s a) as [l|] eqn:V; [|congruence].
    destruct (fr_lv _ _ F _ _ V) as [l' [V' E]]. rewrite V', E. cbn [l_kind lv_set_subs].
    destruct (l_kind l) eqn:K.
    - apply frame_energyE; auto. congruence.
    - apply frame_energyHF; auto. congruence.
    - unfold energyZ. rewrite V, V', E. cbn [l_parent l_gF l_qz lv_set_subs].
      change (l_mF (lv_set_subs (l_subs l') l)) with (l_mF l).
      destruct (wf_parent _ _ _ _ W V) as [_ [q [lq [zq [P' [Vq _]]]]]]; [congruence|].
      rewrite P'. destruct (l_mF l); auto. rewrite (frame_energyHF s s'); auto; [|congruence].
      destruct (energyHF s q); auto. now rewrite (fr_B _ _ F).
  Qed.

  (** Under the invariant every level has an energy. *)
  Lemma wf_energyE : forall s a l, lv s a = Some l -> l_kind l = LE -> energyE s a = Some (l_E l).
  Proof. intros s a l V K. unfold energyE. now rewrite V, K. Qed.
  Lemma wf_energyHF : forall s a l, WF s -> lv s a = Some l -> l_kind l = LHF ->
    exists p lp j f, l_parent l = Some p /\ lv s p = Some lp /\ l_kind lp = LE /\ l_J l = Some j /\ l_F l = Some f /\
      In f (F_range j (s_I s)) /\ l_J lp = Some j /\
      energyHF s a = Some (nadd N (l_E lp) (hf_shift N (s_I s) j f (l_hfA lp) (l_hfB lp) (l_hfC lp))).
  Proof.
    intros s a l W V K. destruct (wf_parent _ _ _ _ W V) as [_ [p [lp [z [P [Vp [_ [_ [Kp [_ C]]]]]]]]]]; [congruence|].
    destruct (wf_F _ _ _ _ W V) as [j [f [EJ [EF [I _]]]]]; [congruence|].
    rewrite K in Kp. assert (K' : l_kind lp = LE) by (destruct (l_kind lp); simpl in *; congruence).
    destruct (child_numbers _ _ _ _ _ _ _ W Vp C V) as [_ EJ'].
    exists p, lp, j, f. repeat split; auto; [congruence|].
    unfold energyHF. rewrite V, P, EJ, EF, Vp. unfold energyE. rewrite Vp, K'. reflexivity.
  Qed.
  Lemma wf_energyZ : forall muB s a l, WF s -> lv s a = Some l -> l_kind l = LZ ->
    exists p lp m e, l_parent l = Some p /\ lv s p = Some lp /\ l_kind lp = LHF /\ l_mF l = Some m /\
      energyHF s p = Some e /\ energyZ N muB s a = Some (nadd N e (z_shift N muB (l_gF l) m (s_B s) (l_qz l))).
  Proof.
    intros muB s a l W V K. destruct (wf_parent _ _ _ _ W V) as [_ [p [lp [z [P [Vp [_ [Hz [Kp _]]]]]]]]]; [congruence|].
    destruct (wf_mF _ _ _ _ W V K) as [f [m [EF [EM _]]]].
    rewrite K in Kp. assert (K' : l_kind lp = LHF) by (destruct (l_kind lp); simpl in *; congruence).
    destruct (wf_energyHF _ _ _ W Vp K') as [q [lq [j [f' [_ [_ [_ [_ [_ [_ [_ E]]]]]]]]]]].
    eexists p, lp, m, _. repeat split; eauto. unfold energyZ. rewrite V, P, EM, E. reflexivity.
  Qed.
  Lemma wf_energy : forall muB s a l, WF s -> lv s a = Some l -> exists e, energy N muB s a = Some e.
  Proof.
    intros muB s a l W V. unfold energy. rewrite V. destruct (l_kind l) eqn:K.
    - eauto using wf_energyE.
    - destruct (wf_energyHF _ _ _ W V K) as [p [lp [j [f [_ [_ [_ [_ [_ [_ [_ E]]]]]]]]]]]. eauto.
    - destruct (wf_energyZ muB _ _ _ W V K) as [p [lp [m [e [_ [_ [_ [_ [_ E]]]]]]]]]. eauto.
  Qed.

  (** ** Nodes *)

  Lemma graph_ok_add_node : forall s k n a g, graph_ok s k g -> node_ok s k n a -> graph_ok s k (g_add_node n a g).
  Proof.
    intros s k n a g [W G1 G2] O. constructor.
    - now apply add_node_wf.
    - intros m b E. rewrite add_node_nodes in E. destruct (String.eqb_spec m n); eauto.
      injection E as <-. now subst.
    - intros u v t E. rewrite add_node_edge in E; auto.
  Qed.

  Lemma add_node_eq : forall s a l, lv s a = Some l ->
    add_node N a s = (Ok tt, set_graph (l_kind l) (g_add_node (lname l) a (graph_of (l_kind l) s)) s).
  Proof. intros s a l V. unfold add_node, get_lv, bind, asks. now rewrite V. Qed.

  Lemma WF_add_node : forall s a l, WF s -> lv s a = Some l -> l_attached l = true ->
    WF (set_graph (l_kind l) (g_add_node (lname l) a (graph_of (l_kind l) s)) s).
  Proof.
    intros s a l W V A. apply WF_set_graph; auto. apply graph_ok_add_node; [apply W|]. exists l. auto.
  Qed.

  Lemma add_node_safe : forall s a l, WF s -> lv s a = Some l -> l_attached l = true -> l_kind l <> LE ->
    safe lookl s (add_node N a) (fun _ s' => s_levels s' = s_levels s).
  Proof.
    intros s a l W V A K. unfold safe. rewrite (add_node_eq _ _ _ V). cbn [fst snd]. split; [|split].
    - now apply WF_add_node.
    - split; [now apply look_graph|destruct (l_kind l); reflexivity].
    - destruct (l_kind l); reflexivity.
  Qed.

  (** ** Populating *)

  Definition full s a l : Prop :=
    l_attached l = true /\
    Forall2 (fun z kb => fst kb = sub_key (l_kind l) z /\ child s a l z (snd kb)) (sub_range s l) (l_subs l).

  Lemma full_ext : forall s s' a l l', ext s s' -> lsame l l' -> l_subs l' = l_subs l -> full s a l -> full s' a l'.
  Proof.
    intros s s' a l l' X H E [A F]. split; [now apply H|].
    rewrite E, (lsame_range _ _ _ _ _ (ext_I _ _ _ X) H). eapply Forall2_imp; [|exact F].
    intros z kb [K1 K2]. pose proof H as [K _]. rewrite K. split; auto. eapply child_ext; eauto.
  Qed.

  Lemma full_nonempty : forall s a l, WF s -> lv s a = Some l -> l_subs l <> [] -> full s a l.
  Proof. intros s a l W V H. destruct (wf_subs _ _ W _ _ V) as [E|[A F]]; [congruence|]. split; auto. Qed.

  Lemma lsame_frame : forall s s' a l l', frame s s' -> lv s a = Some l -> lv s' a = Some l' -> lsame l l'.
  Proof.
    intros s s' a l l' F V V'. destruct (fr_lv _ _ F _ _ V) as [l2 [V2 E]]. rewrite V' in V2. injection V2 as <-.
    rewrite E. repeat split; auto.
  Qed.
  Lemma full_look : forall s s' a l l', look s s' -> lv s a = Some l -> lv s' a = Some l' -> l_subs l <> [] ->
    full s a l -> full s' a l'.
  Proof.
    intros s s' a l l' L V V' H F. apply (full_ext s s' a l l'); auto; [now apply look_ext| |].
    - eapply lsame_frame; eauto. apply L.
    - eapply lo_subs; eauto.
  Qed.

  (** The frame of [install]. *)
  Lemma install_frame : forall s a l keys new, lv s a = Some l -> frame s (install a keys new s) /\
    (l_subs l = [] -> look s (install a keys new s)).
  Proof.
    intros s a l keys new V.
    assert (H : forall b lb, lv s b = Some lb -> exists d, lv (install a keys new s) b = Some (lv_set_subs d lb) /\
      (b <> a -> d = l_subs lb)).
    { intros b lb Vb. unfold install. rewrite lv_upd_lv. rewrite (lv_app _ s new b lb Vb).
      destruct (Nat.eqb_spec a b); simpl; eexists; split.
      - reflexivity.
      - congruence.
      - f_equal. symmetry. apply lv_eta.
      - auto. }
    assert (F : frame s (install a keys new s)).
    { constructor; auto.
      - intros b lb Vb. destruct (H _ _ Vb) as [d [E _]]. eexists; split; eauto.
      - intros t x T. exists x. split; auto. now rewrite tr_eta. }
    split; auto. intros E. constructor; [|intros t x x' T _ T'; change (tr s t = Some x') in T'; congruence]. constructor; auto.
    intros b lb lb' Vb Hn Vb'. destruct (H _ _ Vb) as [d [E' K]]. rewrite Vb' in E'. injection E' as ->. simpl.
    apply K. intros ->. congruence.
  Qed.

  Lemma map_Forall2 {A B} (P : A -> B -> Prop) (f : A -> B) : forall l : list A, (forall z, In z l -> P z (f z)) -> Forall2 P l (map f l).
  Proof. induction l; simpl; constructor; auto. Qed.

  Lemma populate_safe_gen : forall (R : st -> st -> Prop) s a l, (forall s', R s' s') -> WF s -> lv s a = Some l -> l_attached l = true ->
    (forall keys new, R s (install a keys new s)) ->
    safe R s (populate_sublevels N a) (fun _ s' => exists l', lv s' a = Some l' /\ full s' a l' /\
      (forall k, graph_of k s' = graph_of k s) /\
      (l_kind l <> LZ -> map snd (l_subs l') = seq (List.length (s_levels s)) (List.length (sub_range s l)) /\
        (forall b, (List.length (s_levels s) <= b)%nat -> forall lb, lv s' b = Some lb -> l_subs lb = []))).
  Proof.
    intros R s a l Rr W V A HR. unfold populate_sublevels, get_lv.
    assert (Rp : safe (fun s1 s2 => R s s2 /\ s1 = s) s (bind (asks Dangling (fun s0 => lv s0 a)) (fun l0 =>
      match l_kind l0 with
      | LE => if l_attached l0 then
          bind (asks TypeError (fun _ => l_J l0)) (fun j =>
          modify (fun s => install a (map F_key (F_range j (s_I s))) (map (mkHF N s a l0 j) (F_range j (s_I s))) s))
        else ret tt
      | LHF => bind (asks Dangling (fun _ => l_parent l0)) (fun p => bind (asks Dangling (fun s0 => lv s0 p)) (fun lm =>
          bind (asks Dangling (fun _ => l_J l0)) (fun j => bind (asks Dangling (fun _ => l_F l0)) (fun f =>
          modify (fun s => install a (map mF_key (mF_range f)) (map (mkZ N s a l0 lm j f) (mF_range f)) s)))))
      | LZ => ret tt
      end)) (fun _ s' => exists l', lv s' a = Some l' /\ full s' a l' /\ (forall k, graph_of k s' = graph_of k s) /\
      (l_kind l <> LZ -> map snd (l_subs l') = seq (List.length (s_levels s)) (List.length (sub_range s l)) /\
        (forall b, (List.length (s_levels s) <= b)%nat -> forall lb, lv s' b = Some lb -> l_subs lb = [])))).
    2: { destruct Rp as [W' [[X _] O]]. split; auto. }
    apply (safe_asks _ s _ _ _ _ _ V).
    assert (Fin : forall new, l_kind l <> LZ -> Forall2 (fun z lb => l_kind lb = sub_kind (l_kind l) /\ l_parent lb = Some a /\ l_attached lb = true /\
       l_subs lb = [] /\ l_term lb = sub_term (l_kind l) z (l_term l)) (sub_range s l) new ->
       let s' := install a (map (sub_key (l_kind l)) (sub_range s l)) new s in
       WF s' /\ (R s s' /\ s = s) /\ exists l', lv s' a = Some l' /\ full s' a l' /\ (forall k, graph_of k s' = graph_of k s) /\
       (l_kind l <> LZ -> map snd (l_subs l') = seq (List.length (s_levels s)) (List.length (sub_range s l)) /\
        (forall b, (List.length (s_levels s) <= b)%nat -> forall lb, lv s' b = Some lb -> l_subs lb = []))).
    { intros new K F s'. destruct (install_spec _ s a l new W V A K F) as [W' [X [[l' [V' [S [E O]]]] [Vo [_ [G _]]]]]].
      split; auto. split; [split; auto; apply HR|]. exists l'. split; auto. split; [|split; [auto|]].
      - split; [now apply S|].
        assert (ER : sub_range s' l' = sub_range s l) by (apply (lsame_range _ s s' l l'); [apply (ext_I _ _ _ X)|exact S]).
        rewrite ER. eapply Forall2_imp; [|exact O].
        intros z kb [K1 K2]. pose proof S as [-> _]. split; auto.
        eapply child_ext; [apply ext_refl|exact S|exact K2].
      - intros _. split.
        + rewrite E. assert (L : List.length (sub_range s l) = List.length new) by (eapply Forall2_len; eauto).
          rewrite L. revert L. generalize (sub_range s l). generalize (List.length (s_levels s)). clear.
          induction (List.length new) as [|n IH]; intros m [|z zs]; simpl; intros L; try discriminate; auto.
          f_equal. apply IH. now injection L.
        + intros b Hb lb Vb. unfold s', install in Vb. rewrite lv_upd_lv in Vb.
          destruct (Nat.eqb_spec a b).
          { subst. unfold lv in V. assert (b < List.length (s_levels s))%nat by (apply nth_error_Some; congruence). lia. }
          apply lv_app_inv in Vb as [Vb|[_ Vb]].
          { unfold lv in Vb. assert (b < List.length (s_levels s))%nat by (apply nth_error_Some; congruence). lia. }
          apply nth_error_In in Vb. clear - F Vb. induction F; [contradiction|]. destruct Vb as [->|Vb]; auto. apply H. }
    destruct (l_kind l) eqn:K.
    - rewrite A. destruct (wf_J _ _ _ _ W V) as [j [EJ Hj]]. apply (safe_asks _ s _ _ _ _ _ EJ).
      assert (ER : sub_range s l = F_range j (s_I s)) by (unfold sub_range; now rewrite K, EJ).
      destruct (Fin (map (mkHF N s a l j) (F_range j (s_I s)))) as [W' [X O]]; [discriminate| |].
      + rewrite ER. apply map_Forall2. intros z _. repeat split; auto.
      + rewrite ER in W', X, O |- *. split; [exact W'|split; [exact X|exact O]].
    - destruct (wf_parent _ _ _ _ W V) as [_ [p [lp [z [P [Vp _]]]]]]; [congruence|].
      destruct (wf_F _ _ _ _ W V) as [j [f [EJ [EF [I _]]]]]; [congruence|].
      apply (safe_asks _ s _ _ _ _ _ P). apply (safe_asks _ s _ _ _ _ _ Vp). apply (safe_asks _ s _ _ _ _ _ EJ).
      apply (safe_asks _ s _ _ _ _ _ EF).
      assert (ER : sub_range s l = mF_range f) by (unfold sub_range; now rewrite K, EF).
      destruct (Fin (map (mkZ N s a l lp j f) (mF_range f))) as [W' [X O]]; [discriminate| |].
      + rewrite ER. apply map_Forall2. intros z' _. repeat split; auto.
      + rewrite ER in W', X, O |- *. split; [exact W'|split; [exact X|exact O]].
    - split; [auto|split; [auto|]]. simpl. exists l. split; auto. split; [|split; [auto|congruence]].
      split; auto. unfold sub_range. rewrite K. destruct (wf_subs _ _ W _ _ V) as [E|[_ F]]; [rewrite E; constructor|].
      unfold sub_range in F. rewrite K in F. inversion F. constructor.
  Qed.

  (** ** Sublevels *)

  Lemma full_child : forall s a l b, full s a l -> In b (dvals (l_subs l)) -> exists z key, In z (sub_range s l) /\
    In (key, b) (l_subs l) /\ key = sub_key (l_kind l) z /\ child s a l z b.
  Proof.
    intros s a l b [_ F] I. unfold dvals in I. apply in_map_iff in I as [[k b'] [E I]]. simpl in E. subst b'.
    assert (H : exists z, In z (sub_range s l) /\ k = sub_key (l_kind l) z /\ child s a l z b).
    { clear - F I. induction F; [contradiction|]. destruct I as [->|I].
      - exists x. split; [left; auto|auto].
      - destruct (IHF I) as [z [Iz R]]. exists z. split; [right; auto|auto]. }
    destruct H as [z [Iz [Ek C]]]. exists z, k. auto.
  Qed.

  Lemma child_level : forall s a l z b, WF s -> child s a l z b -> exists lb, lv s b = Some lb /\ l_attached lb = true /\
    l_kind lb = sub_kind (l_kind l) /\ l_kind lb <> LE /\ l_parent lb = Some a.
  Proof.
    intros s a l z b W [lb [V [K [P T]]]]. exists lb.
    assert (K' : l_kind lb <> LE) by (rewrite K; destruct (l_kind l); discriminate).
    destruct (wf_parent _ _ _ _ W V K') as [A _]. auto.
  Qed.

  Lemma steps_nonempty : forall n lo, (0 < n)%nat -> steps n lo <> [].
  Proof. intros [|n] lo H; simpl; [lia|discriminate]. Qed.

  Lemma range_nonempty : forall s a l, WF s -> lv s a = Some l -> l_kind l <> LZ -> sub_range s l <> [].
  Proof.
    intros s a l W V K. unfold sub_range. destruct (l_kind l) eqn:Kl; [| |congruence].
    - destruct (wf_J _ _ _ _ W V) as [j [-> Hj]]. unfold F_range, arange. apply steps_nonempty.
      pose proof (wf_I _ _ W). assert (1 <= (j + s_I s + 2 - Z.abs (j - s_I s) + 1) / 2)%Z; [|lia].
      apply Z.div_le_lower_bound; lia.
    - destruct (wf_F _ _ _ _ W V) as [j [f [_ [-> [_ Hf]]]]]; [congruence|].
      rewrite mF_range_steps. apply steps_nonempty. lia.
  Qed.

  Lemma full_subs : forall s a l, WF s -> lv s a = Some l -> l_kind l <> LZ -> full s a l -> l_subs l <> [].
  Proof.
    intros s a l W V K [_ F] E. apply (range_nonempty _ _ _ W V K). rewrite E in F. now inversion F.
  Qed.

  Lemma lazy_pure : forall s a l, lv s a = Some l -> l_subs l <> [] -> lazy_sublevels N a s = (Ok tt, s).
  Proof.
    intros s a l V H. unfold lazy_sublevels, bind, get_lv, asks. rewrite V. destruct (l_subs l); [congruence|reflexivity].
  Qed.

  Lemma same_levels_full : forall s s' a l, look s s' -> s_levels s' = s_levels s -> full s a l -> full s' a l.
  Proof.
    intros s s' a l L E F. apply (full_ext s s' a l l); auto; [now apply look_ext|apply lsame_refl].
  Qed.

  Lemma lazy_safe : forall s a l, WF s -> lv s a = Some l ->
    safe lookl s (lazy_sublevels N a) (fun _ s' => exists l', lv s' a = Some l' /\ lsame l l' /\ full s' a l').
  Proof.
    intros s a l W V. unfold lazy_sublevels. apply (safe_asks _ s _ _ _ _ _ V).
    destruct (l_subs l) as [|kb d] eqn:E.
    - destruct (l_attached l) eqn:A; [|apply safe_raise; auto; [apply lookl_po|discriminate]].
      eapply (safe_bind _ lookl_po).
      { apply populate_safe_gen with (l := l); auto; [apply lookl_po|]. intros keys new. split; [now apply (install_frame s a l)|reflexivity]. }
      simpl. intros [] s1 W1 L1 [l1 [V1 [F1 _]]]. apply (safe_asks _ s1 _ _ _ _ _ V1).
      eapply (safe_conseq _).
      + apply (safe_forM _ lookl_po _ _ (fun s2 => s_levels s2 = s_levels s1)); auto.
        intros b s2 Ib W2 L2 E2. destruct (full_child _ _ _ _ F1 Ib) as [z [key [_ [_ [_ C]]]]].
        destruct (child_level _ _ _ _ _ W1 C) as [lb [Vb [Ab [_ [Kb _]]]]].
        assert (Vb2 : lv s2 b = Some lb) by (unfold lv in *; now rewrite E2).
        eapply (safe_conseq _); [eapply add_node_safe; eauto|]. simpl. intros. congruence.
      + simpl. intros [] s2 W2 L2 E2. apply lookl_look in L1, L2. exists l1. unfold lv in *. rewrite E2. split; auto. split.
        * eapply lsame_frame; [apply L1| |]; eauto.
        * eapply same_levels_full; eauto.
    - apply (safe_ret _ lookl_po); auto. exists l. split; auto. split; [apply lsame_refl|].
      apply full_nonempty; auto. congruence.
  Qed.

  Lemma look_subs : forall s s' a l, look s s' -> lv s a = Some l -> l_subs l <> [] ->
    exists l', lv s' a = Some l' /\ l_subs l' = l_subs l /\ lsame l l'.
  Proof.
    intros s s' a l L V H. destruct (fr_lv _ _ (lo_frame _ _ L) _ _ V) as [l' [V' E]].
    exists l'. split; auto. split; [eapply lo_subs; eauto|]. eapply lsame_frame; eauto. apply L.
  Qed.

  Lemma sublevels_safe : forall s a l, WF s -> lv s a = Some l ->
    safe lookl s (sublevels N a) (fun bs s' => exists l', lv s' a = Some l' /\ lsame l l' /\ full s' a l' /\ bs = dvals (l_subs l')).
  Proof.
    intros s a l W V. unfold sublevels. eapply (safe_bind _ lookl_po); [apply lazy_safe; eauto|].
    intros [] s' W' L' [l' [V' [S' F']]]. apply (safe_asks _ s' _ _ _ _ _ V'). apply (safe_ret _ lookl_po); auto.
    exists l'. auto.
  Qed.

  Lemma sublevels_stable : forall s a l, WF s -> lv s a = Some l -> l_kind l <> LZ -> full s a l ->
    forall s2, look s s2 -> sublevels N a s2 = (Ok (dvals (l_subs l)), s2).
  Proof.
    intros s a l W V K F s2 L. destruct (look_subs _ _ _ _ L V) as [l2 [V2 [E2 S2]]]; [eapply full_subs; eauto|].
    unfold sublevels, bind. rewrite (lazy_pure s2 a l2 V2); [|rewrite E2; eapply full_subs; eauto].
    unfold get_lv, asks, ret. rewrite V2. now rewrite E2.
  Qed.

  Definition depth (k : lkind) : nat := match k with LE => 3 | LHF => 2 | LZ => 1 end.

  Lemma dvals_dget {K V} `{Eqb K} : forall k (v : V) (d : dict K V), dget k d = Some v -> In v (dvals d).
  Proof. intros k v d E. apply dget_In in E. unfold dvals. change v with (snd (k, v)). now apply in_map. Qed.

  Lemma full_LZ : forall s a l, full s a l -> l_kind l = LZ -> l_subs l = [].
  Proof. intros s a l [_ F] K. unfold sub_range in F. rewrite K in F. now inversion F. Qed.

  Lemma getitem_safe : forall fuel s a l key, WF s -> lv s a = Some l -> (depth (l_kind l) <= fuel)%nat ->
    safe lookl s (lv_getitem N fuel a key) (fun b s' => (exists lb, lv s' b = Some lb /\ l_attached lb = true /\ l_kind lb <> LE) /\
      forall s2, look s' s2 -> lv_getitem N fuel a key s2 = (Ok b, s2)).
  Proof.
    induction fuel as [|fuel IH]; intros s a l key W V D; [destruct (l_kind l); simpl in D; lia|].
    cbn [lv_getitem]. eapply (safe_bind _ lookl_po); [apply lazy_safe; eauto|].
    intros [] s1 W1 L1 [l1 [V1 [S1 F1]]]. apply lookl_look in L1. apply (safe_asks _ s1 _ _ _ _ _ V1). apply (safe_gets _ s1).
    assert (Pure : l_subs l1 <> [] -> forall s2, look s1 s2 -> exists l2, lv s2 a = Some l2 /\ l_subs l2 = l_subs l1 /\
        l_J l2 = l_J l1 /\ s_I s2 = s_I s1 /\ lazy_sublevels N a s2 = (Ok tt, s2)).
    { intros Hn s2 L2. destruct (look_subs _ _ _ _ L2 V1 Hn) as [l2 [V2 [E2 S2]]]. exists l2. repeat split; auto.
      - apply (lsame_names _ _ _ S2).
      - apply L2.
      - eapply lazy_pure; eauto. congruence. }
    destruct ((s_I s1 =? 0)%Z && contains "mJ" key) eqn:Cd.
    - apply (safe_try _ lookl_po); [auto|discriminate|]. intros b Eb.
      destruct (full_child _ _ _ _ F1 (dvals_dget _ _ _ Eb)) as [z [k [_ [_ [_ C]]]]].
      destruct (child_level _ _ _ _ _ W1 C) as [lb [Vb [Ab [Kb _]]]].
      assert (Hk : l_kind l1 <> LZ). { intros K. rewrite (full_LZ _ _ _ F1 K) in Eb. discriminate. }
      eapply (safe_conseq _); [apply (IH s1 b lb); auto|].
      { rewrite Kb. destruct S1 as [K1 _]. rewrite <- K1 in D. destruct (l_kind l1); simpl in *; try lia; congruence. }
      cbv beta. intros c s' W' L' [Hc Hs]. apply lookl_look in L'. split; auto. intros s2 L2. unfold bind at 1.
      destruct (Pure (full_subs _ _ _ W1 V1 Hk F1) s2) as [l2 [V2 [E2 [J2 [I2 ->]]]]]; [eapply look_trans; eauto|].
      unfold bind, get_lv, gets, asks. rewrite V2, I2, Cd. rewrite E2, J2, Eb. now apply Hs.
    - apply (safe_try_last _ lookl_po); [auto|discriminate|]. intros b Eb.
      destruct (full_child _ _ _ _ F1 (dvals_dget _ _ _ Eb)) as [z [k [_ [_ [_ C]]]]].
      destruct (child_level _ _ _ _ _ W1 C) as [lb [Vb [Ab [Kb [Kb' _]]]]]. split; [eauto|].
      assert (Hk : l_kind l1 <> LZ). { intros K. rewrite (full_LZ _ _ _ F1 K) in Eb. discriminate. }
      intros s2 L2. unfold bind at 1.
      destruct (Pure (full_subs _ _ _ W1 V1 Hk F1) s2 L2) as [l2 [V2 [E2 [J2 [I2 ->]]]]].
      unfold bind, get_lv, gets, asks. rewrite V2, I2, Cd. now rewrite E2, Eb.
  Qed.

  Lemma depth_le : forall k, (depth k <= 3)%nat.
  Proof. intros []; simpl; lia. Qed.

  (** ** Looking up levels *)

  Lemma node_level : forall s k n a, WF s -> dget n (node_attrs (graph_of k s)) = Some a -> node_ok s k n a.
  Proof.
    intros s k n a W E. pose proof (wf_g _ _ W k) as G. rewrite node_attrs_get in E by apply G.
    destruct (dget n (g_nodes (graph_of k s))) as [[b|]|] eqn:Eb; try discriminate. injection E as ->.
    eapply go_node; eauto.
  Qed.

  Definition found s (b : nat) : Prop := exists lb, lv s b = Some lb /\ l_attached lb = true.

  Lemma found_look : forall s s' b, frame s s' -> found s b -> found s' b.
  Proof.
    intros s s' b F [lb [V A]]. destruct (fr_lv _ _ F _ _ V) as [l' [V' E]]. exists l'. split; auto. rewrite E. auto.
  Qed.

  Lemma node_stable : forall s s' n a, look s s' -> node N n s = (Ok a, s) -> node N n s' = (Ok a, s').
  Proof.
    intros s s' n a L E. unfold node, asks in *. rewrite (fr_g0 _ _ (lo_frame _ _ L)).
    destruct (dget n (node_attrs (s_g0 s))); [|discriminate]. injection E as ->. reflexivity.
  Qed.

  Lemma levels_get_safe : forall s key, WF s ->
    safe lookl s (levels_get N key) (fun b s' => found s' b /\ forall s2, look s' s2 -> levels_get N key s2 = (Ok b, s2)).
  Proof.
    intros s key W. unfold levels_get. apply (safe_gets _ s).
    destruct (dget key (s_lal s)) as [a|] eqn:Al.
    { apply (safe_ret _ lookl_po); auto. split; [apply (wf_lal _ _ W _ _ Al)|].
      intros s2 L. unfold bind, gets, ret. now rewrite (fr_lal _ _ (lo_frame _ _ L)), Al. }
    assert (Al2 : forall s2, look s s2 -> dget key (s_lal s2) = None).
    { intros s2 L. now rewrite (fr_lal _ _ (lo_frame _ _ L)). }
    assert (Nd : forall n a, dget n (node_attrs (s_g0 s)) = Some a -> exists l, lv s a = Some l /\ l_attached l = true /\
       forall s2, look s s2 -> dget n (node_attrs (s_g0 s2)) = Some a).
    { intros n a E. destruct (node_level s LE n a W E) as [l [V [K [_ A]]]]. exists l. repeat split; auto.
      intros s2 L. now rewrite (fr_g0 _ _ (lo_frame _ _ L)). }
    destruct (contains "mF=" key) eqn:C1; [|destruct (contains "mJ=" key) eqn:C2; [|destruct (contains "F=" key) eqn:C3]].
    - apply (safe_try _ lookl_po); [auto|discriminate|]. intros p Ep.
      apply (safe_try _ lookl_po); [auto|discriminate|]. intros a Ea. destruct (Nd _ _ Ea) as [l [V [A Nd2]]].
      eapply (safe_bind _ lookl_po); [apply (getitem_safe 3 s a l); auto; apply depth_le|].
      cbv beta. intros b s1 W1 L1 [[lb [Vb [Ab Kb]]] Hb]. apply lookl_look in L1.
      eapply (safe_conseq _); [apply (getitem_safe 3 s1 b lb); auto; apply depth_le|].
      cbv beta. intros c s2 W2 L2 [[lc [Vc [Ac Kc]]] Hc]. apply lookl_look in L2. split; [exists lc; auto|].
      intros s3 L3. assert (L03 : look s s3) by eauto using look_trans.
      unfold bind at 1. unfold gets. rewrite (Al2 _ L03). unfold bind, asks, node, asks. rewrite Ep.
      rewrite (Nd2 _ L03). unfold getitem. rewrite (Hb s3) by eauto using look_trans. now apply Hc.
    - apply (safe_try _ lookl_po); [auto|discriminate|]. intros p Ep.
      apply (safe_try _ lookl_po); [auto|discriminate|]. intros a Ea. destruct (Nd _ _ Ea) as [l [V [A Nd2]]].
      apply (safe_asks _ s _ _ _ _ _ V).
      eapply (safe_bind _ lookl_po); [apply (getitem_safe 3 s a l); auto; apply depth_le|].
      cbv beta. intros b s1 W1 L1 [[lb [Vb [Ab Kb]]] Hb]. apply lookl_look in L1.
      eapply (safe_conseq _); [apply (getitem_safe 3 s1 b lb); auto; apply depth_le|].
      cbv beta. intros c s2 W2 L2 [[lc [Vc [Ac Kc]]] Hc]. apply lookl_look in L2. split; [exists lc; auto|].
      intros s3 L3. assert (L03 : look s s3) by eauto using look_trans.
      destruct (fr_lv _ _ (lo_frame _ _ L03) _ _ V) as [l3 [V3 E3]].
      unfold bind at 1. unfold gets. rewrite (Al2 _ L03). unfold bind, asks, node, get_lv, asks. rewrite Ep.
      rewrite (Nd2 _ L03). rewrite V3. replace (l_J l3) with (l_J l) by (rewrite E3; reflexivity).
      unfold getitem. rewrite (Hb s3) by eauto using look_trans. now apply Hc.
    - apply (safe_try _ lookl_po); [auto|discriminate|]. intros p Ep.
      apply (safe_try _ lookl_po); [auto|discriminate|]. intros a Ea. destruct (Nd _ _ Ea) as [l [V [A Nd2]]].
      eapply (safe_conseq _); [apply (getitem_safe 3 s a l); auto; apply depth_le|].
      cbv beta. intros b s1 W1 L1 [[lb [Vb [Ab Kb]]] Hb]. apply lookl_look in L1. split; [exists lb; auto|].
      intros s3 L3. assert (L03 : look s s3) by eauto using look_trans.
      unfold bind at 1. unfold gets. rewrite (Al2 _ L03). unfold bind, asks, node, asks. rewrite Ep.
      rewrite (Nd2 _ L03). now apply Hb.
    - apply (safe_try_last _ lookl_po); [auto|discriminate|]. intros a Ea. destruct (Nd _ _ Ea) as [l [V [A Nd2]]].
      split; [exists l; auto|]. intros s3 L3. unfold bind at 1. unfold gets. rewrite (Al2 _ L3). unfold node, asks.
      now rewrite (Nd2 _ L3).
  Qed.

  (** All levels of the atom have energies. *)
  Lemma with_energy_total : forall muB s ns, WF s -> (forall a, In a ns -> exists l, lv s a = Some l) ->
    exists r, with_energy N muB s ns = Some r /\ map snd r = ns /\ Forall (fun ea => energy N muB s (snd ea) = Some (fst ea)) r.
  Proof.
    intros muB s ns W. induction ns as [|a ns IH]; simpl; intros H.
    - exists []. auto.
    - destruct (H a (or_introl eq_refl)) as [l V]. destruct (wf_energy muB s a l W V) as [e E].
      destruct IH as [r [Er [Em Ef]]]; auto. rewrite E, Er. eexists; split; eauto. simpl. split; [congruence|].
      constructor; auto.
  Qed.

  Lemma nodes_levels : forall s k a, WF s -> In a (dvals (node_attrs (graph_of k s))) -> exists n, node_ok s k n a.
  Proof.
    intros s k a W I. unfold dvals in I. apply in_map_iff in I as [[n b] [E I]]. simpl in E. subst b.
    exists n. apply node_level; auto. apply In_dget_nodup; auto. apply node_attrs_nodup, (wf_g _ _ W k).
  Qed.

  Lemma by_energy_total : forall muB s, WF s -> exists r, by_energy N muB s = Some r /\
    Permutation r (dvals (node_attrs (s_g0 s))).
  Proof.
    intros muB s W. destruct (with_energy_total muB s (dvals (node_attrs (s_g0 s))) W) as [r [E [Em _]]].
    - intros a I. destruct (nodes_levels s LE a W I) as [n [l [V _]]]. eauto.
    - unfold by_energy. rewrite E. eexists; split; eauto. rewrite <- Em. apply Permutation_map, Permutation_sym, isort_perm.
  Qed.

  Lemma py_nth_In {A} : forall (r : list A) i v, py_nth r i = Some v -> In v r.
  Proof.
    intros r i v. unfold py_nth. cbv zeta. destruct (Z.ltb _ 0); [discriminate|].
    intros E. eapply nth_error_In; eauto.
  Qed.

  Lemma levels_get_int_safe : forall muB s i, WF s ->
    safe lookl s (levels_get_int N muB i) (fun b s' => found s' b).
  Proof.
    intros muB s i W. unfold levels_get_int. destruct (by_energy_total muB s W) as [r [E P]].
    apply (safe_asks _ s _ _ _ _ _ E). apply (safe_try_last _ lookl_po); [auto|discriminate|]. intros b Eb.
    apply py_nth_In in Eb. eapply Permutation_in in Eb; eauto.
    destruct (nodes_levels s LE b W Eb) as [n [l [V [_ [_ A]]]]]. exists l; auto.
  Qed.
End Safe.
