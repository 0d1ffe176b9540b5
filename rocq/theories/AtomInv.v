(** The invariant of the atom model, and how it is kept by every operation. *)
From Coq Require Import List Bool ZArith QArith Qcanon Lia String Ascii Permutation.
From Verif Require Import Base PyStr Util UtilProofs Parse Term TermProofs Num Wigner Hyperfine HyperfineProofs
  Graph GraphProofs Rules Atom.
Import ListNotations.

Arguments l_kind {N}. Arguments l_parent {N}. Arguments l_term {N}. Arguments l_attached {N}.
Arguments l_alias {N}. Arguments l_fixed {N}. Arguments l_subs {N}. Arguments l_E {N}.
Arguments l_hfA {N}. Arguments l_hfB {N}. Arguments l_hfC {N}. Arguments l_lande {N}. Arguments l_gF {N}. Arguments l_qz {N}.
Arguments x_kind {N}. Arguments x_parent {N}. Arguments x_E1 {N}. Arguments x_E2 {N}. Arguments x_up {N}. Arguments x_lo {N}.
Arguments x_attached {N}. Arguments x_alias {N}. Arguments x_A {N}. Arguments x_rel {N}. Arguments x_allowed {N}.
Arguments x_set {N}. Arguments x_subs {N}.
Arguments s_levels {N}. Arguments s_trans {N}. Arguments s_g0 {N}. Arguments s_g1 {N}. Arguments s_g2 {N}.
Arguments s_lal {N}. Arguments s_tal {N}. Arguments s_I {N}. Arguments s_B {N}. Arguments s_warn {N}. Arguments s_tick {N}.
Arguments lv {N}. Arguments tr {N}. Arguments graph_of {N}. Arguments set_graph {N}. Arguments nm {N}.
Arguments lead {N}. Arguments lname {N}. Arguments lshort {N}. Arguments l_J {N}. Arguments l_F {N}. Arguments l_mF {N}.
Arguments l_parity {N}.
Arguments upd_lv {N}. Arguments upd_tr {N}.
Arguments ret {N A}. Arguments raise {N A}. Arguments bind {N A B}. Arguments modify {N}. Arguments asks {N A}.
Arguments gets {N A}. Arguments forM {N A}. Arguments get_lv {N}. Arguments get_tr {N}.

Section Inv.
  Context (N : Num).
  Notation st := (st N).
  Notation level := (level N).
  Notation trans := (trans N).
  Implicit Types (s : st) (l : level) (x : trans) (a : nat) (t : nat).

  (** ** Levels *)

  Definition sub_kind (k : lkind) : lkind := match k with LE => LHF | _ => LZ end.
  Definition sub_range s l : list Z :=
    match l_kind l with
    | LE => match l_J l with Some j => F_range j (s_I s) | None => [] end
    | LHF => match l_F l with Some f => mF_range f | None => [] end
    | LZ => []
    end.
  Definition sub_key (k : lkind) (z : Z) : string := match k with LE => F_key z | _ => mF_key z end.
  Definition sub_term (k : lkind) (z : Z) (ts : list term) : list term :=
    match k with LE => mt_copy (Some z) None ts | _ => mt_copy None (Some z) ts end.

  Definition lvl_ok s l : Prop :=
    multiterm (l_term l) = l_term l /\
    ((l_kind l = LE /\ l_parent l = None /\
      exists tm j, lead l = Some tm /\ t_J tm = Some j /\ (0 <= j)%Z /\ t_F tm = None /\ t_mF tm = None) \/
     (l_attached l = true /\ exists p lp z, l_parent l = Some p /\ lv s p = Some lp /\ l_attached lp = true /\
      l_kind lp <> LZ /\ l_kind l = sub_kind (l_kind lp) /\ In z (sub_range s lp) /\
      l_term l = sub_term (l_kind lp) z (l_term lp))).

  (** [b] is the sublevel [z] of the level [l] at [a]. *)
  Definition child s a l (z : Z) (b : nat) : Prop :=
    exists lb, lv s b = Some lb /\ l_kind lb = sub_kind (l_kind l) /\ l_parent lb = Some a /\
      l_term lb = sub_term (l_kind l) z (l_term l).

  Definition subs_ok s a l : Prop :=
    l_subs l = [] \/
    (l_attached l = true /\
     Forall2 (fun z kb => fst kb = sub_key (l_kind l) z /\ child s a l z (snd kb)) (sub_range s l) (l_subs l)).

  (** ** Transitions *)

  Definition sub_tkind (k : tkind) : tkind := match k with TT => THF | _ => TZ end.

  Definition tr_static s x : Prop :=
    exists l1 l2, lv s (x_E1 x) = Some l1 /\ lv s (x_E2 x) = Some l2 /\
      l_kind l1 = lk (x_kind x) /\ l_kind l2 = lk (x_kind x) /\
      ((x_up x = x_E2 x /\ x_lo x = x_E1 x) \/ (x_up x = x_E1 x /\ x_lo x = x_E2 x)) /\
      ((x_kind x = TT /\ x_parent x = None /\
        exists j1 j2, l_J l1 = Some j1 /\ l_J l2 = Some j2 /\
          x_allowed x = allowed_T j1 j2 (l_parity l1) (l_parity l2) (Nat.eqb (x_E1 x) (x_E2 x))) \/
       exists p xp, x_parent x = Some p /\ tr s p = Some xp /\ x_kind xp <> TZ /\
         x_kind x = sub_tkind (x_kind xp) /\
         l_parent l1 = Some (x_E1 xp) /\ l_parent l2 = Some (x_E2 xp) /\
         ((x_kind x = THF /\ exists j1 j2 f1 f2, l_J l1 = Some j1 /\ l_J l2 = Some j2 /\ l_F l1 = Some f1 /\ l_F l2 = Some f2 /\
             x_allowed x = allowed_HF (s_I s) j1 j2 f1 f2 (x_allowed xp)) \/
          (x_kind x = TZ /\ exists f1 f2 m1 m2, l_F l1 = Some f1 /\ l_F l2 = Some f2 /\ l_mF l1 = Some m1 /\ l_mF l2 = Some m2 /\
             x_allowed x = allowed_Z f1 f2 m1 m2 (x_allowed xp)))).

  (** [c] is a subtransition of [x] at [t], under the given key. *)
  Definition subtr s t x (key : string * string) (c : nat) : Prop :=
    exists y lo up, tr s c = Some y /\ x_parent y = Some t /\ x_kind y = sub_tkind (x_kind x) /\ x_kind x <> TZ /\
      any_type (x_allowed y) = true /\ lv s (x_lo y) = Some lo /\ lv s (x_up y) = Some up /\
      key = (lshort lo, lshort up).
  Definition tr_subs_ok s t x : Prop :=
    NoDup (dkeys (x_subs x)) /\ (forall key c, In (key, c) (x_subs x) -> subtr s t x key c).

  (** ** Graphs *)

  Definition node_ok s (k : lkind) (n : string) a : Prop :=
    exists l, lv s a = Some l /\ l_kind l = k /\ lname l = n /\ l_attached l = true.
  Definition edge_ok s (k : lkind) (u v : string) t : Prop :=
    exists x, tr s t = Some x /\ lk (x_kind x) = k /\
      ((nm s (x_lo x) = Some u /\ nm s (x_up x) = Some v) \/ (nm s (x_lo x) = Some v /\ nm s (x_up x) = Some u)).
  Record graph_ok s (k : lkind) (g : graph) : Prop := mk_graph_ok {
    go_wf : graph_wf g;
    go_node : forall n a, dget n (g_nodes g) = Some (Some a) -> node_ok s k n a;
    go_edge : forall u v t, edge g u v = Some t -> edge_ok s k u v t
  }.

  (** ** The invariant *)

  Record WF s : Prop := mk_WF {
    wf_I : (0 <= s_I s)%Z;
    wf_lv : forall a l, lv s a = Some l -> lvl_ok s l;
    wf_subs : forall a l, lv s a = Some l -> subs_ok s a l;
    wf_tr : forall t x, tr s t = Some x -> tr_static s x;
    wf_tsubs : forall t x, tr s t = Some x -> tr_subs_ok s t x;
    wf_g : forall k, graph_ok s k (graph_of k s);
    wf_lal : forall k a, dget k (s_lal s) = Some a -> exists l, lv s a = Some l /\ l_attached l = true;
    wf_tal : forall k t, dget k (s_tal s) = Some t -> exists x, tr s t = Some x
  }.

  (** ** What never changes *)

  Definition lsame l l' : Prop :=
    l_kind l' = l_kind l /\ l_parent l' = l_parent l /\ l_term l' = l_term l /\
    (l_attached l = true -> l_attached l' = true).
  Definition xsame x x' : Prop :=
    x_kind x' = x_kind x /\ x_parent x' = x_parent x /\ x_E1 x' = x_E1 x /\ x_E2 x' = x_E2 x /\
    x_up x' = x_up x /\ x_lo x' = x_lo x /\ x_allowed x' = x_allowed x.
  Record ext s s' : Prop := mk_ext {
    ext_I : s_I s' = s_I s;
    ext_lv : forall a l, lv s a = Some l -> exists l', lv s' a = Some l' /\ lsame l l';
    ext_tr : forall t x, tr s t = Some x -> exists x', tr s' t = Some x' /\ xsame x x'
  }.

  Lemma lsame_refl : forall l, lsame l l.
  Proof. intros. repeat split; auto. Qed.
  Lemma xsame_refl : forall x, xsame x x.
  Proof. intros. repeat split; auto. Qed.
  Lemma ext_refl : forall s, ext s s.
  Proof. intros. constructor; eauto using lsame_refl, xsame_refl. Qed.
  Lemma ext_trans : forall s1 s2 s3, ext s1 s2 -> ext s2 s3 -> ext s1 s3.
  Proof.
    intros s1 s2 s3 A B. constructor.
    - rewrite (ext_I _ _ B). apply A.
    - intros a l H. destruct (ext_lv _ _ A _ _ H) as [l' [H' [K1 [K2 [K3 K4]]]]].
      destruct (ext_lv _ _ B _ _ H') as [l2 [H2 [L1 [L2 [L3 L4]]]]].
      exists l2. split; auto. repeat split; auto; congruence.
    - intros t x H. destruct (ext_tr _ _ A _ _ H) as [x' [H' K]].
      destruct (ext_tr _ _ B _ _ H') as [x2 [H2 L]]. exists x2. split; auto.
      unfold xsame in *. intuition congruence.
  Qed.

  Lemma lsame_names : forall l l', lsame l l' -> lead l' = lead l /\ lname l' = lname l /\ lshort l' = lshort l /\
    l_J l' = l_J l /\ l_F l' = l_F l /\ l_mF l' = l_mF l /\ l_parity l' = l_parity l.
  Proof.
    intros l l' [_ [_ [H _]]]. assert (E : lead l' = lead l) by (unfold lead; now rewrite H).
    unfold lname, lshort, l_J, l_F, l_mF, l_parity. rewrite E. repeat split; auto.
  Qed.

  Lemma lsame_range : forall s s' l l', s_I s' = s_I s -> lsame l l' -> sub_range s' l' = sub_range s l.
  Proof.
    intros s s' l l' I H. destruct (lsame_names _ _ H) as [_ [_ [_ [J [F _]]]]].
    unfold sub_range. rewrite J, F, I. destruct H as [-> _]. reflexivity.
  Qed.

  Lemma lvl_ok_ext : forall s s' l l', ext s s' -> lsame l l' -> lvl_ok s l -> lvl_ok s' l'.
  Proof.
    intros s s' l l' X H [M O]. destruct (lsame_names _ _ H) as [E _].
    destruct H as [K [P [T At]]]. split; [congruence|].
    destruct O as [[O1 [O2 O3]]|[O1 [p [lp [z [O2 [O3 [O4 [O5 [O6 [O7 O8]]]]]]]]]]].
    - left. rewrite K, P, E. auto.
    - right. split; auto. destruct (ext_lv _ _ X _ _ O3) as [lp' [V S]].
      exists p, lp', z. pose proof (lsame_range _ _ _ _ (ext_I _ _ X) S) as R.
      destruct S as [S1 [S2 [S3 S4]]]. rewrite R, S1, S3, P, K, T. repeat split; auto.
  Qed.

  Lemma child_ext : forall s s' a l l' z b, ext s s' -> lsame l l' -> child s a l z b -> child s' a l' z b.
  Proof.
    intros s s' a l l' z b X [K [P [T At]]] [lb [V [C1 [C2 C3]]]].
    destruct (ext_lv _ _ X _ _ V) as [lb' [V' [S1 [S2 [S3 S4]]]]].
    exists lb'. rewrite S1, S2, S3, K, T. auto.
  Qed.

  Lemma subs_ok_ext : forall s s' a l l', ext s s' -> lsame l l' -> l_subs l' = l_subs l ->
    subs_ok s a l -> subs_ok s' a l'.
  Proof.
    intros s s' a l l' X H E [O|[O1 O2]]; [left; congruence|right].
    split; [now apply H|]. rewrite E, (lsame_range _ _ _ _ (ext_I _ _ X) H).
    eapply Forall2_imp; [|exact O2]. intros z kb [K1 K2]. destruct H as [K H].
    rewrite K. split; auto. eapply child_ext; eauto. split; auto.
  Qed.

  Lemma tr_static_ext : forall s s' x x', ext s s' -> xsame x x' -> tr_static s x -> tr_static s' x'.
  Proof.
    intros s s' x x' X [K [P [E1 [E2 [U [L A]]]]]] [l1 [l2 [V1 [V2 [K1 [K2 [UL O]]]]]]].
    destruct (ext_lv _ _ X _ _ V1) as [l1' [V1' S1]]. destruct (ext_lv _ _ X _ _ V2) as [l2' [V2' S2]].
    destruct (lsame_names _ _ S1) as [_ [_ [_ [J1 [F1 [M1 Q1]]]]]].
    destruct (lsame_names _ _ S2) as [_ [_ [_ [J2 [F2 [M2 Q2]]]]]].
    destruct S1 as [S11 [S12 _]]. destruct S2 as [S21 [S22 _]].
    exists l1', l2'. rewrite E1, E2, U, L, A, K, P. rewrite J1, J2, F1, F2, M1, M2, Q1, Q2, S11, S12, S21, S22.
    repeat (split; [auto|]). rewrite (ext_I _ _ X).
    destruct O as [O|[p [xp [O1 [O2 O3]]]]]; [left; auto|right].
    destruct (ext_tr _ _ X _ _ O2) as [xp' [T' [R1 [R2 [R3 [R4 [R5 [R6 R7]]]]]]]].
    exists p, xp'. rewrite R1, R3, R4, R7. auto.
  Qed.

  Lemma lshort_ext : forall s s' a l, ext s s' -> lv s a = Some l -> exists l', lv s' a = Some l' /\ lshort l' = lshort l.
  Proof.
    intros s s' a l X V. destruct (ext_lv _ _ X _ _ V) as [l' [V' S]]. exists l'. split; auto.
    apply (lsame_names _ _ S).
  Qed.

  Lemma nm_ext : forall s s' a n, ext s s' -> nm s a = Some n -> nm s' a = Some n.
  Proof.
    intros s s' a n X E. unfold nm in *. destruct (lv s a) as [l|] eqn:V; [|discriminate].
    destruct (ext_lv _ _ X _ _ V) as [l' [V' S]]. rewrite V'. simpl in *.
    destruct (lsame_names _ _ S) as [_ [-> _]]. auto.
  Qed.

  Lemma subtr_ext : forall s s' t x x' key c, ext s s' -> xsame x x' -> subtr s t x key c -> subtr s' t x' key c.
  Proof.
    intros s s' t x x' key c X [K _] [y [lo [up [T [P [Y [Z [A [L [U E]]]]]]]]]].
    destruct (ext_tr _ _ X _ _ T) as [y' [T' [R1 [R2 [R3 [R4 [R5 [R6 R7]]]]]]]].
    destruct (lshort_ext _ _ _ _ X L) as [lo' [L' EL]]. destruct (lshort_ext _ _ _ _ X U) as [up' [U' EU]].
    exists y', lo', up'. rewrite R1, R2, R5, R6, R7, K, EL, EU. repeat (split; [solve [auto]|]). auto.
  Qed.

  Lemma tr_subs_ext : forall s s' t x x', ext s s' -> xsame x x' -> x_subs x' = x_subs x ->
    tr_subs_ok s t x -> tr_subs_ok s' t x'.
  Proof.
    intros s s' t x x' X H E [O1 O2]. split; rewrite E; auto.
    intros key c I. eapply subtr_ext; eauto.
  Qed.

  Lemma node_ok_ext : forall s s' k n a, ext s s' -> node_ok s k n a -> node_ok s' k n a.
  Proof.
    intros s s' k n a X [l [V [K [E A]]]]. destruct (ext_lv _ _ X _ _ V) as [l' [V' S]].
    exists l'. destruct (lsame_names _ _ S) as [_ [-> _]]. destruct S as [-> [_ [_ S]]]. auto.
  Qed.

  Lemma edge_ok_ext : forall s s' k u v t, ext s s' -> edge_ok s k u v t -> edge_ok s' k u v t.
  Proof.
    intros s s' k u v t X [x [T [K E]]]. destruct (ext_tr _ _ X _ _ T) as [x' [T' [R1 [R2 [R3 [R4 [R5 [R6 R7]]]]]]]].
    exists x'. rewrite R1, R5, R6. repeat split; auto.
    destruct E as [[E1 E2]|[E1 E2]]; [left|right]; split; eapply nm_ext; eauto.
  Qed.

  Lemma graph_ok_ext : forall s s' k g, ext s s' -> graph_ok s k g -> graph_ok s' k g.
  Proof.
    intros s s' k g X [W A B]. constructor; auto.
    - intros. eapply node_ok_ext; eauto.
    - intros. eapply edge_ok_ext; eauto.
  Qed.

  (** ** How to keep the invariant *)

  Lemma WF_step : forall s s', WF s -> ext s s' ->
    (forall a l', lv s' a = Some l' ->
       (exists l, lv s a = Some l /\ l_subs l' = l_subs l) \/ (lvl_ok s' l' /\ subs_ok s' a l')) ->
    (forall t x', tr s' t = Some x' ->
       (exists x, tr s t = Some x /\ x_subs x' = x_subs x) \/ (tr_static s' x' /\ tr_subs_ok s' t x')) ->
    (forall k, graph_of k s' = graph_of k s \/ graph_ok s' k (graph_of k s')) ->
    (forall k a, dget k (s_lal s') = Some a -> dget k (s_lal s) = Some a \/
       exists l, lv s' a = Some l /\ l_attached l = true) ->
    (forall k t, dget k (s_tal s') = Some t -> dget k (s_tal s) = Some t \/ exists x, tr s' t = Some x) ->
    WF s'.
  Proof.
    intros s s' W X HL HT HG HA HB.
    assert (EL : forall a l l', lv s a = Some l -> lv s' a = Some l' -> lsame l l').
    { intros a l l' V V'. destruct (ext_lv _ _ X _ _ V) as [l2 [V2 S]]. congruence. }
    assert (ET : forall t x x', tr s t = Some x -> tr s' t = Some x' -> xsame x x').
    { intros t x x' V V'. destruct (ext_tr _ _ X _ _ V) as [x2 [V2 S]]. congruence. }
    constructor.
    - rewrite (ext_I _ _ X). apply W.
    - intros a l' V. destruct (HL _ _ V) as [[l [V0 E]]|[O _]]; auto.
      eapply lvl_ok_ext; eauto. eapply W; eauto.
    - intros a l' V. destruct (HL _ _ V) as [[l [V0 E]]|[_ O]]; auto.
      eapply subs_ok_ext; eauto. eapply W; eauto.
    - intros t x' V. destruct (HT _ _ V) as [[x [V0 E]]|[O _]]; auto.
      eapply tr_static_ext; eauto. eapply W; eauto.
    - intros t x' V. destruct (HT _ _ V) as [[x [V0 E]]|[_ O]]; auto.
      eapply tr_subs_ext; eauto. eapply W; eauto.
    - intros k. destruct (HG k) as [->|O]; auto. eapply graph_ok_ext; eauto. apply W.
    - intros k a E. destruct (HA _ _ E) as [E0|O]; auto.
      destruct (wf_lal _ W _ _ E0) as [l [V At]]. destruct (ext_lv _ _ X _ _ V) as [l' [V' [_ [_ [_ S]]]]]. eauto.
    - intros k t E. destruct (HB _ _ E) as [E0|O]; auto.
      destruct (wf_tal _ W _ _ E0) as [x V]. destruct (ext_tr _ _ X _ _ V) as [x' [V' _]]. eauto.
  Qed.

  (** *** Projections of the updates *)

  Lemma lv_upd_lv : forall s a b f, lv (upd_lv a f s) b = if Nat.eqb a b then option_map f (lv s b) else lv s b.
  Proof. intros. apply nth_error_upd. Qed.
  Lemma tr_upd_tr : forall s a b f, tr (upd_tr a f s) b = if Nat.eqb a b then option_map f (tr s b) else tr s b.
  Proof. intros. apply nth_error_upd. Qed.
  Lemma graph_of_set : forall k k' g s, graph_of k (set_graph k' g s) =
    if match k, k' with LE, LE | LHF, LHF | LZ, LZ => true | _, _ => false end then g else graph_of k s.
  Proof. intros [] [] g s; reflexivity. Qed.
  Lemma lv_set_graph : forall k g s a, lv (set_graph k g s) a = lv s a.
  Proof. intros []; reflexivity. Qed.
  Lemma tr_set_graph : forall k g s a, tr (set_graph k g s) a = tr s a.
  Proof. intros []; reflexivity. Qed.
  Lemma I_set_graph : forall k g s, s_I (set_graph k g s) = s_I s.
  Proof. intros []; reflexivity. Qed.
  Lemma lal_set_graph : forall k g s, s_lal (set_graph k g s) = s_lal s.
  Proof. intros []; reflexivity. Qed.
  Lemma tal_set_graph : forall k g s, s_tal (set_graph k g s) = s_tal s.
  Proof. intros []; reflexivity. Qed.

  Lemma same_heaps_ext : forall s s', s_I s' = s_I s -> s_levels s' = s_levels s -> s_trans s' = s_trans s -> ext s s'.
  Proof.
    intros s s' E1 E2 E3. constructor; auto; unfold lv, tr; rewrite ?E2, ?E3; eauto using lsame_refl, xsame_refl.
  Qed.

  (** Updating one level without touching its static part or its sublevels. *)
  Lemma WF_upd_lv : forall s a f, WF s -> (forall l, lsame l (f l) /\ l_subs (f l) = l_subs l) ->
    WF (upd_lv a f s) /\ ext s (upd_lv a f s).
  Proof.
    intros s a f W Hf.
    assert (X : ext s (upd_lv a f s)).
    { constructor; auto.
      - intros b l V. rewrite lv_upd_lv, V. destruct (Nat.eqb a b); simpl; eexists; split; eauto; [apply Hf|apply lsame_refl].
      - intros t x V. exists x. split; auto. apply xsame_refl. }
    split; auto. eapply WF_step; eauto; try (intros []; left; reflexivity).
    - intros b l' V. left. rewrite lv_upd_lv in V. destruct (Nat.eqb a b); eauto.
      destruct (lv s b) as [l|]; [|discriminate]. injection V as <-. exists l. split; auto. apply Hf.
  Qed.

  Lemma WF_upd_tr : forall s a f, WF s -> (forall x, xsame x (f x) /\ x_subs (f x) = x_subs x) ->
    WF (upd_tr a f s) /\ ext s (upd_tr a f s).
  Proof.
    intros s a f W Hf.
    assert (X : ext s (upd_tr a f s)).
    { constructor; auto.
      - intros b l V. exists l. split; auto. apply lsame_refl.
      - intros t x V. rewrite tr_upd_tr, V. destruct (Nat.eqb a t); simpl; eexists; split; eauto; [apply Hf|apply xsame_refl]. }
    split; auto. eapply WF_step; eauto; try (intros []; left; reflexivity).
    - intros b x' V. left. rewrite tr_upd_tr in V. destruct (Nat.eqb a b); eauto.
      destruct (tr s b) as [x|]; [|discriminate]. injection V as <-. exists x. split; auto. apply Hf.
  Qed.

  Lemma WF_set_graph : forall s k g, WF s -> graph_ok s k g -> WF (set_graph k g s) /\ ext s (set_graph k g s).
  Proof.
    intros s k g W G.
    assert (X : ext s (set_graph k g s)) by (apply same_heaps_ext; destruct k; reflexivity).
    split; auto. eapply WF_step; eauto; try (intros []; left; reflexivity).
    - intros a l V. rewrite lv_set_graph in V. eauto.
    - intros a l V. rewrite tr_set_graph in V. eauto.
    - intros k'. rewrite graph_of_set. destruct k, k'; auto; right; eapply graph_ok_ext; eauto.
    - intros k' a. rewrite lal_set_graph. auto.
    - intros k' a. rewrite tal_set_graph. auto.
  Qed.

  (** Everything but heaps, graphs and aliases. *)
  Lemma WF_rest : forall s s', WF s -> s_I s' = s_I s -> s_levels s' = s_levels s -> s_trans s' = s_trans s ->
    (forall k, graph_of k s' = graph_of k s) -> s_lal s' = s_lal s -> s_tal s' = s_tal s -> WF s' /\ ext s s'.
  Proof.
    intros s s' W E1 E2 E3 G A B. assert (X : ext s s') by now apply same_heaps_ext.
    split; auto. eapply WF_step; eauto; unfold lv, tr; rewrite ?E2, ?E3, ?A, ?B; eauto.
  Qed.

  Lemma WF_lal : forall s al a l, WF s -> lv s a = Some l -> l_attached l = true ->
    WF (set_lal _ (dset al a (s_lal s)) s) /\ ext s (set_lal _ (dset al a (s_lal s)) s).
  Proof.
    intros s al a l W V A. assert (X : ext s (set_lal _ (dset al a (s_lal s)) s)) by now apply same_heaps_ext.
    split; auto. eapply WF_step; eauto; try (intros []; left; reflexivity).
    - intros k b E. cbn in E. rewrite dget_dset in E. destruct (keqb k al); eauto. injection E as <-. right. eauto.
  Qed.

  Lemma WF_tal : forall s al a x, WF s -> tr s a = Some x ->
    WF (set_tal _ (dset al a (s_tal s)) s) /\ ext s (set_tal _ (dset al a (s_tal s)) s).
  Proof.
    intros s al a x W V. assert (X : ext s (set_tal _ (dset al a (s_tal s)) s)) by now apply same_heaps_ext.
    split; auto. eapply WF_step; eauto; try (intros []; left; reflexivity).
    - intros k b E. cbn in E. rewrite dget_dset in E. destruct (keqb k al); eauto. injection E as <-. right. eauto.
  Qed.

  (** A new level or transition at the end of the heap. *)
  Lemma lv_app : forall s new a l, lv s a = Some l -> lv (set_levels _ (s_levels s ++ new) s) a = Some l.
  Proof. intros. unfold lv in *. cbn. rewrite nth_error_app1; auto. apply nth_error_Some. congruence. Qed.
  Lemma lv_app_inv : forall s new a l, lv (set_levels _ (s_levels s ++ new) s) a = Some l ->
    lv s a = Some l \/ (List.length (s_levels s) <= a /\ nth_error new (a - List.length (s_levels s)) = Some l)%nat.
  Proof.
    intros s new a l V. unfold lv in *. cbn in V. destruct (Nat.lt_ge_cases a (List.length (s_levels s))).
    - rewrite nth_error_app1 in V; auto.
    - rewrite nth_error_app2 in V; auto.
  Qed.
  Lemma ext_app_lv : forall s new, ext s (set_levels _ (s_levels s ++ new) s).
  Proof.
    intros. constructor; auto.
    - intros a l V. exists l. split; [now apply lv_app|apply lsame_refl].
    - intros t x V. exists x. split; auto. apply xsame_refl.
  Qed.
  Lemma ext_app_tr : forall s new, ext s (set_trans _ (s_trans s ++ new) s).
  Proof.
    intros. constructor; auto.
    - intros a l V. exists l. split; auto. apply lsame_refl.
    - intros t x V. exists x. split; [|apply xsame_refl]. unfold tr in *. cbn. rewrite nth_error_app1; auto.
      apply nth_error_Some. congruence.
  Qed.

  Lemma WF_new_level : forall s l, WF s -> lvl_ok s l -> l_subs l = [] ->
    WF (set_levels _ (s_levels s ++ [l]) s) /\ ext s (set_levels _ (s_levels s ++ [l]) s).
  Proof.
    intros s l W O E. pose proof (ext_app_lv s [l]) as X. split; auto. eapply WF_step; eauto; try (intros []; left; reflexivity).
    - intros a l' V. apply lv_app_inv in V as [V|[_ V]]; eauto. right.
      destruct (a - List.length (s_levels s))%nat as [|[|n]]; try discriminate. injection V as <-.
      split; [eapply lvl_ok_ext; eauto using lsame_refl | left; auto].
  Qed.

  Lemma WF_new_trans : forall s x, WF s -> tr_static s x -> x_subs x = [] ->
    WF (set_trans _ (s_trans s ++ [x]) s) /\ ext s (set_trans _ (s_trans s ++ [x]) s).
  Proof.
    intros s x W O E. pose proof (ext_app_tr s [x]) as X. split; auto. eapply WF_step; eauto; try (intros []; left; reflexivity).
    - intros t x' V. unfold tr in V. cbn in V. destruct (Nat.lt_ge_cases t (List.length (s_trans s))).
      + rewrite nth_error_app1 in V by auto. left. exists x'. auto.
      + rewrite nth_error_app2 in V by auto. right.
        destruct (t - List.length (s_trans s))%nat as [|[|n]]; try discriminate. injection V as <-.
        split; [eapply tr_static_ext; eauto using xsame_refl|]. split; rewrite E; [constructor|contradiction].
  Qed.

  (** ** Terms of levels *)

  Lemma sub_term_map : forall s l z, lvl_ok s l -> sub_term (l_kind l) z (l_term l) =
    map (match l_kind l with LE => term_copy (Some z) None | _ => term_copy None (Some z) end) (l_term l).
  Proof.
    intros s l z [M _]. unfold sub_term. destruct (l_kind l); rewrite <- M at 1; rewrite mt_copy_multiterm, M; auto.
  Qed.

  Lemma sub_term_fixed : forall k z ts, multiterm (sub_term k z ts) = sub_term k z ts.
  Proof. intros [] z ts; apply multiterm_id. Qed.

  Lemma lead_child : forall s l z (lb : level), lvl_ok s l -> l_term lb = sub_term (l_kind l) z (l_term l) ->
    lead lb = option_map (match l_kind l with LE => term_copy (Some z) None | _ => term_copy None (Some z) end) (lead l).
  Proof.
    intros s l z lb O E. unfold lead. rewrite E, (sub_term_map s) by auto. destruct (l_term l); auto.
  Qed.

  (** The quantum numbers of a level, by kind. *)
  Lemma wf_lead : forall s a l, WF s -> lv s a = Some l ->
    exists tm j, lead l = Some tm /\ t_J tm = Some j /\ (0 <= j)%Z /\
    match l_kind l with
    | LE => t_F tm = None /\ t_mF tm = None
    | LHF => exists f, t_F tm = Some f /\ In f (F_range j (s_I s)) /\ (0 <= f)%Z /\ t_mF tm = None
    | LZ => exists f m, t_F tm = Some f /\ In f (F_range j (s_I s)) /\ (0 <= f)%Z /\ t_mF tm = Some m /\ In m (mF_range f)
    end.
  Proof.
    intros s a l W V. destruct (wf_lv _ W _ _ V) as [M [[K [P [tm [j [H1 [H2 [H3 [H4 H5]]]]]]]]|O]].
    - exists tm, j. rewrite K. auto.
    - assert (HF : forall a l, lv s a = Some l -> l_kind l = LHF ->
        exists tm j f, lead l = Some tm /\ t_J tm = Some j /\ (0 <= j)%Z /\ t_F tm = Some f /\
          In f (F_range j (s_I s)) /\ (0 <= f)%Z /\ t_mF tm = None).
      { clear - W. intros a l V K. destruct (wf_lv _ W _ _ V) as [M [[K' _]|O]]; [congruence|].
        destruct O as [A [p [lp [z [P [Vp [Ap [Kp [Kc [I T]]]]]]]]]].
        destruct (wf_lv _ W _ _ Vp) as [Mp [[Kp' [_ [tm [j [H1 [H2 [H3 [H4 H5]]]]]]]]|Op]].
        - pose proof (lead_child s lp z l (wf_lv _ W _ _ Vp) T) as L. rewrite Kp', H1 in L. simpl in L.
          unfold sub_range in I. rewrite Kp' in I. unfold l_J in I. rewrite H1, H2 in I.
          exists (term_copy (Some z) None tm), j, z. rewrite L. unfold term_copy. rewrite H4. simpl.
          repeat split; auto. apply F_range_In in I; auto; [|apply W]. unfold tri in I.
          rewrite !andb_true_iff, !Z.leb_le in I. lia.
        - destruct Op as [_ [q [lq [z' [_ [_ [_ [Kq [Kpq _]]]]]]]]].
          rewrite Kc in K. destruct (l_kind lq); simpl in *; try congruence; rewrite Kpq in K; discriminate. }
      destruct O as [A [p [lp [z [P [Vp [Ap [Kp [Kc [I T]]]]]]]]]].
      destruct (l_kind lp) eqn:Elp; [| |congruence].
      + simpl in Kc. destruct (HF _ _ V Kc) as [tm [j [f [H1 [H2 [H3 [H4 [H5 [H6 H7]]]]]]]]].
        exists tm, j. rewrite Kc. repeat split; auto. exists f. auto.
      + simpl in Kc. destruct (HF _ _ Vp Elp) as [tm [j [f [H1 [H2 [H3 [H4 [H5 [H6 H7]]]]]]]]].
        pose proof (lead_child s lp z l (wf_lv _ W _ _ Vp)) as L. rewrite Elp in L. specialize (L T).
        rewrite H1 in L. simpl in L. unfold sub_range in I. rewrite Elp in I. unfold l_F in I. rewrite H1, H4 in I.
        exists (term_copy None (Some z) tm), j. rewrite L, Kc. unfold term_copy. rewrite H4. simpl.
        repeat split; auto. exists f, z. repeat split; auto.
  Qed.

  Lemma wf_J : forall s a l, WF s -> lv s a = Some l -> exists j, l_J l = Some j /\ (0 <= j)%Z.
  Proof.
    intros s a l W V. destruct (wf_lead _ _ _ W V) as [tm [j [H1 [H2 [H3 _]]]]].
    exists j. unfold l_J. rewrite H1. auto.
  Qed.
  Lemma wf_F : forall s a l, WF s -> lv s a = Some l -> l_kind l <> LE ->
    exists j f, l_J l = Some j /\ l_F l = Some f /\ In f (F_range j (s_I s)) /\ (0 <= f)%Z.
  Proof.
    intros s a l W V K. destruct (wf_lead _ _ _ W V) as [tm [j [H1 [H2 [H3 H4]]]]].
    unfold l_J, l_F. rewrite H1. destruct (l_kind l); [congruence| |].
    - destruct H4 as [f [? [? [? ?]]]]. eauto 10.
    - destruct H4 as [f [m [? [? [? [? ?]]]]]]. eauto 10.
  Qed.
  Lemma wf_mF : forall s a l, WF s -> lv s a = Some l -> l_kind l = LZ ->
    exists f m, l_F l = Some f /\ l_mF l = Some m /\ In m (mF_range f).
  Proof.
    intros s a l W V K. destruct (wf_lead _ _ _ W V) as [tm [j [H1 [H2 [H3 H4]]]]].
    unfold l_mF, l_F. rewrite H1. rewrite K in H4. destruct H4 as [f [m [? [? [? [? ?]]]]]]. eauto 10.
  Qed.

  Lemma wf_parent : forall s a l, WF s -> lv s a = Some l -> l_kind l <> LE ->
    l_attached l = true /\ exists p lp z, l_parent l = Some p /\ lv s p = Some lp /\ l_attached lp = true /\
      l_kind lp <> LZ /\ l_kind l = sub_kind (l_kind lp) /\ In z (sub_range s lp) /\ child s p lp z a.
  Proof.
    intros s a l W V K. destruct (wf_lv _ W _ _ V) as [M [[K' _]|O]]; [congruence|].
    destruct O as [A [p [lp [z [P [Vp [Ap [Kp [Kc [I T]]]]]]]]]]. split; auto.
    exists p, lp, z. repeat split; auto. exists l. auto.
  Qed.

  (** The value of a sublevel and its own quantum number. *)
  Lemma child_numbers : forall s a l z b (lb : level), WF s -> lv s a = Some l -> child s a l z b -> lv s b = Some lb ->
    match l_kind l with
    | LE => l_F lb = Some z /\ l_mF lb = None
    | LHF => l_F lb = l_F l /\ l_mF lb = Some z
    | LZ => True
    end /\ l_J lb = l_J l.
  Proof.
    intros s a l z b lb W V [lb' [Vb [K [P T]]]] V'. rewrite V' in Vb. injection Vb as <-.
    pose proof (lead_child _ _ _ _ (wf_lv _ W _ _ V) T) as L.
    destruct (wf_lead _ _ _ W V) as [tm [j [H1 [H2 [H3 H4]]]]].
    unfold l_F, l_mF, l_J. rewrite L, H1. destruct (l_kind l); cbn [option_map].
    - destruct H4 as [H4 H5]. unfold term_copy. rewrite H4. auto.
    - destruct H4 as [f [H4 _]]. unfold term_copy. rewrite H4. auto.
    - destruct H4 as [f [m [H4 _]]]. unfold term_copy. rewrite H4. auto.
  Qed.

  Lemma lname_child : forall s a l z b (lb : level), WF s -> lv s a = Some l -> child s a l z b -> lv s b = Some lb ->
    match l_kind l with
    | LE => lname lb = (lname l ++ " " ++ F_key z)%string
    | LHF => lname lb = (lname l ++ " " ++ mF_key z)%string
    | LZ => True
    end.
  Proof.
    intros s a l z b lb W V [lb' [Vb [K [P T]]]] V'. rewrite V' in Vb. injection Vb as <-.
    pose proof (lead_child _ _ _ _ (wf_lv _ W _ _ V) T) as L.
    destruct (wf_lead _ _ _ W V) as [tm [j [H1 [H2 [H3 H4]]]]].
    unfold lname. rewrite L, H1. destruct (l_kind l); cbn [option_map]; auto.
    - destruct H4 as [H4 H5]. unfold term_copy. rewrite H4. unfold t_name, t_term_name. cbn [t_conf t_term t_J t_F t_mF].
      rewrite H4, H5. unfold F_key. now rewrite !append_assoc, !append_nil_r.
    - destruct H4 as [f [H4 [_ [_ H5]]]]. unfold term_copy. rewrite H4. unfold t_name, t_term_name.
      cbn [t_conf t_term t_J t_F t_mF]. rewrite H4, H5. unfold mF_key. rewrite !append_assoc. cbn [append]. rewrite ?append_nil_r. reflexivity.
  Qed.

  (** ** Populating sublevels *)

  Lemma F_key_inj : forall a b : Z, F_key a = F_key b -> a = b.
  Proof. intros a b E. apply half_label_inj. unfold F_key in E. eapply append_inj_l; eauto. Qed.
  Lemma mF_key_inj : forall a b : Z, mF_key a = mF_key b -> a = b.
  Proof. intros a b E. apply half_label_inj. unfold mF_key in E. eapply append_inj_l; eauto. Qed.
  Lemma sub_key_inj : forall k (a b : Z), sub_key k a = sub_key k b -> a = b.
  Proof. intros [] a b; [apply F_key_inj|apply mF_key_inj|apply mF_key_inj]. Qed.

  Lemma StronglySorted_NoDup : forall l : list Z, Sorted.StronglySorted Z.lt l -> NoDup l.
  Proof.
    induction 1; constructor; auto. intros I. eapply Forall_forall in H0; eauto. lia.
  Qed.

  Lemma sub_range_nodup : forall s l, NoDup (sub_range s l).
  Proof.
    intros s l. unfold sub_range. destruct (l_kind l).
    - destruct (l_J l); [|constructor]. apply StronglySorted_NoDup, F_range_sorted.
    - destruct (l_F l); [|constructor]. apply StronglySorted_NoDup, mF_range_sorted.
    - constructor.
  Qed.

  Lemma NoDup_map_inj {A B} (f : A -> B) : (forall a b : A, f a = f b -> a = b) -> forall l : list A, NoDup l -> NoDup (map f l).
  Proof.
    intros I. induction 1; simpl; constructor; auto. intros H1. apply H. apply in_map_iff in H1 as [y [E Y]].
    now rewrite <- (I _ _ E).
  Qed.

  (** Filling a dictionary: with fresh keys, or with exactly its own keys. *)
  Lemma fold_dset_new {V} : forall (kvs : list (string * V)) d, NoDup (map fst kvs) ->
    (forall k, In k (map fst kvs) -> ~ In k (dkeys d)) ->
    fold_left (fun d ki => dset (fst ki) (snd ki) d) kvs d = d ++ kvs.
  Proof.
    induction kvs as [|[k v] kvs IH]; simpl; intros d Hn Hd.
    - now rewrite app_nil_r.
    - inversion Hn; subst. rewrite dset_new by (apply Hd; auto). rewrite IH; auto.
      + now rewrite <- app_assoc.
      + intros k' I J. unfold dkeys in J. rewrite map_app in J. apply in_app_iff in J as [J|[<-|[]]].
        * eapply Hd; eauto.
        * contradiction.
  Qed.

  Lemma fold_dset_same {V} : forall (kvs d pre : list (string * V)), NoDup (map fst (pre ++ kvs)) ->
    map fst d = map fst kvs ->
    fold_left (fun d ki => dset (fst ki) (snd ki) d) kvs (pre ++ d) = pre ++ kvs.
  Proof.
    induction kvs as [|[k v] kvs IH]; simpl; intros d pre Hn E.
    - destruct d; [auto|discriminate].
    - destruct d as [|[k' v'] d]; [discriminate|]. simpl in E. injection E as -> E.
      assert (S : dset k v (pre ++ (k, v') :: d) = (pre ++ [(k, v)]) ++ d).
      { clear IH E. rewrite map_app in Hn. cbn [map fst] in Hn.
        assert (NI : ~ In k (map fst pre)).
        { apply NoDup_remove_2 in Hn. intros I. apply Hn. apply in_or_app; auto. }
        clear Hn. induction pre as [|[k2 v2] pre IHp]; simpl.
        - now rewrite String.eqb_refl.
        - simpl in NI. destruct (String.eqb_spec k k2); [subst; exfalso; auto|]. f_equal. apply IHp. auto. }
      rewrite S. rewrite IH; auto.
      + now rewrite <- app_assoc.
      + now rewrite <- app_assoc.
  Qed.

  (** The state after populating the sublevels of [a]. *)
  Lemma install_spec : forall s a l (new : list level), WF s -> lv s a = Some l -> l_attached l = true ->
    l_kind l <> LZ ->
    Forall2 (fun z lb => l_kind lb = sub_kind (l_kind l) /\ l_parent lb = Some a /\ l_attached lb = true /\
       l_subs lb = [] /\ l_term lb = sub_term (l_kind l) z (l_term l)) (sub_range s l) new ->
    let s' := install N a (map (sub_key (l_kind l)) (sub_range s l)) new s in
    WF s' /\ ext s s' /\
    (exists l', lv s' a = Some l' /\ lsame l l' /\
       l_subs l' = combine (map (sub_key (l_kind l)) (sub_range s l)) (seq (List.length (s_levels s)) (List.length new)) /\
       Forall2 (fun z kb => fst kb = sub_key (l_kind l) z /\ child s' a l z (snd kb)) (sub_range s l) (l_subs l')) /\
    (forall b lb, lv s b = Some lb -> b <> a -> lv s' b = Some lb) /\
    s_trans s' = s_trans s /\ (forall k, graph_of k s' = graph_of k s) /\ s_lal s' = s_lal s /\ s_tal s' = s_tal s.
  Proof.
    intros s a l new W V A K F s'.
    set (keys := map (sub_key (l_kind l)) (sub_range s l)) in *.
    set (n := List.length (s_levels s)).
    set (d' := combine keys (seq n (List.length new))).
    assert (Len : List.length (sub_range s l) = List.length new) by (eapply Forall2_len; eauto).
    assert (Ek : map fst d' = keys).
    { unfold d'. assert (L : List.length keys = List.length (seq n (List.length new)))
        by (unfold keys; now rewrite map_length, seq_length). revert L. clear.
      generalize (seq n (List.length new)). generalize keys. clear. intros keys.
      induction keys as [|k keys IH]; intros [|i is]; simpl; intros L; try discriminate; auto.
      f_equal. apply IH. now injection L. }
    assert (Nd : NoDup keys).
    { unfold keys. apply NoDup_map_inj; [apply sub_key_inj|apply sub_range_nodup]. }
    assert (Ed : fold_left (fun d ki => dset (fst ki) (snd ki) d) d' (l_subs l) = d').
    { destruct (wf_subs _ W _ _ V) as [E|[_ O]].
      - rewrite E. rewrite fold_dset_new; auto. now rewrite Ek.
      - apply (fold_dset_same d' (l_subs l) []); [simpl; now rewrite Ek|]. rewrite Ek.
        unfold keys. clear - O. induction O; simpl; auto. destruct H as [-> _]. now f_equal. }
    assert (Hla : lv (set_levels _ (s_levels s ++ new) s) a = Some l) by now apply lv_app.
    assert (V' : lv s' a = Some (lv_set_subs N d' l)).
    { unfold s', install. fold n. rewrite lv_upd_lv, Nat.eqb_refl, Hla. cbn [option_map]. fold d'. now rewrite Ed. }
    assert (Vo : forall b lb, lv s b = Some lb -> b <> a -> lv s' b = Some lb).
    { intros b lb Vb Hb. unfold s', install. rewrite lv_upd_lv. destruct (Nat.eqb_spec a b); [congruence|]. now apply lv_app. }
    assert (Vn : forall i lb, nth_error new i = Some lb -> lv s' (n + i) = Some lb).
    { intros i lb E. unfold s', install. rewrite lv_upd_lv. destruct (Nat.eqb_spec a (n + i)).
      - exfalso. unfold lv in V. assert (a < n)%nat by (apply nth_error_Some; congruence). lia.
      - unfold lv. cbn. rewrite nth_error_app2 by (fold n; lia). fold n. replace (n + i - n)%nat with i by lia. auto. }
    assert (X : ext s s').
    { constructor; auto.
      - intros b lb Vb. destruct (Nat.eq_dec b a).
        + subst. rewrite V in Vb. injection Vb as <-. exists (lv_set_subs N d' l). split; auto. repeat split; auto.
        + exists lb. split; auto. apply lsame_refl.
      - intros t x T. exists x. split; auto. apply xsame_refl. }
    assert (Fs : Forall2 (fun z kb => fst kb = sub_key (l_kind l) z /\ child s' a l z (snd kb)) (sub_range s l) d').
    { unfold d', keys. assert (G : forall zs ns m, Forall2 (fun z lb => l_kind lb = sub_kind (l_kind l) /\ l_parent lb = Some a /\ l_attached lb = true /\
           l_subs lb = [] /\ l_term lb = sub_term (l_kind l) z (l_term l)) zs ns ->
         (forall i lb, nth_error ns i = Some lb -> lv s' (m + i) = Some lb) ->
         Forall2 (fun z kb => fst kb = sub_key (l_kind l) z /\ child s' a l z (snd kb)) zs
           (combine (map (sub_key (l_kind l)) zs) (seq m (List.length ns)))).
      { induction zs as [|z zs IH]; intros ns m H Hv; inversion H; subst; simpl; constructor.
        - simpl. split; auto. destruct H2 as [C1 [C2 [C3 [C4 C5]]]]. exists y. repeat split; auto.
          rewrite <- (Nat.add_0_r m). now apply Hv.
        - apply IH; auto. intros i lb E. replace (S m + i)%nat with (m + S i)%nat by lia. now apply Hv. }
      apply G; auto. }
    split; [|split; [exact X|split; [|split; [exact Vo|repeat split; auto; intros []; auto]]]].
    - eapply WF_step; eauto; try (intros []; left; reflexivity).
      + intros b lb Vb. destruct (Nat.eq_dec b a) as [->|Hb].
        * rewrite V' in Vb. injection Vb as <-. right. split.
          -- eapply lvl_ok_ext; eauto; [|eapply W; eauto]. repeat split; auto.
          -- right. split; auto.
        * unfold s', install in Vb. rewrite lv_upd_lv in Vb. destruct (Nat.eqb_spec a b); [congruence|].
          apply lv_app_inv in Vb as [Vb|[Hn Vb]]; [left; eauto|right].
          fold n in Hn, Vb. pose proof (nth_error_In _ _ Vb) as Ib.
          assert (exists z, In z (sub_range s l) /\ l_kind lb = sub_kind (l_kind l) /\ l_parent lb = Some a /\ l_attached lb = true /\
                  l_subs lb = [] /\ l_term lb = sub_term (l_kind l) z (l_term l)) as [z [Iz [C1 [C2 [C3 [C4 C5]]]]]].
          { clear - F Ib. induction F; [contradiction|]. destruct Ib as [->|Ib].
            - exists x. split; [left; auto|auto].
            - destruct (IHF Ib) as [z [I R]]. exists z. split; [right; auto|auto]. }
          split; [|left; auto]. split; [rewrite C5; apply sub_term_fixed|]. right. split; auto.
          exists a, (lv_set_subs N d' l), z. repeat split; auto.
    - exists (lv_set_subs N d' l). split; auto. split; [repeat split; auto|]. split; [reflexivity|]. exact Fs.
  Qed.
End Inv.
