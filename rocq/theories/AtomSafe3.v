(** Specifications of creating transitions and subtransitions. *)
From Coq Require Import List Bool ZArith QArith Qcanon Lia String Ascii Permutation.
From Verif Require Import Base PyStr Util UtilProofs Parse Term TermProofs Num Wigner Hyperfine HyperfineProofs
  Graph GraphProofs Rules Atom AtomInv AtomSafe AtomSafe2.
Import ListNotations.

Arguments extl {N}. Arguments framel {N}.

Section Safe3.
  Context (N : Num) (muB : N).
  Notation st := (st N).
  Notation level := (level N).
  Notation trans := (trans N).
  Notation M := (M N).
  Notation energy := (energy N muB).
  Implicit Types (s : st) (l : level) (x y : trans) (a : nat) (t : nat).

  Let lpo := look_po N.
  Let llpo := lookl_po N.
  Let lpo0 := look0_po N.
  Let fpo := frame_po N.
  Let epo := ext_po N.

  (** ** Edges *)

  Definition put_edge s t x : st :=
    match nm s (x_lo x), nm s (x_up x) with
    | Some u, Some v => set_graph (lk (x_kind x)) (g_add_edge u v t (graph_of (lk (x_kind x)) s)) s
    | _, _ => s
    end.

  Lemma static_ends : forall s x, tr_static s x -> exists lo up, lv s (x_lo x) = Some lo /\ lv s (x_up x) = Some up /\
    l_kind lo = lk (x_kind x) /\ l_kind up = lk (x_kind x).
  Proof.
    intros s x [l1 [l2 [V1 [V2 [K1 [K2 [[[-> ->]|[-> ->]] _]]]]]]].
    - exists l1, l2. auto.
    - exists l2, l1. auto.
  Qed.

  Lemma nm_lv : forall s a l, lv s a = Some l -> nm s a = Some (lname l).
  Proof. intros s a l V. unfold nm. now rewrite V. Qed.

  Lemma add_edge_eq : forall s t x, tr_static s x -> tr s t = Some x -> add_edge N t s = (Ok tt, put_edge s t x).
  Proof.
    intros s t x O V. destruct (static_ends _ _ O) as [lo [up [Vl [Vu _]]]].
    unfold add_edge, put_edge, bind, get_tr, asks, modify. rewrite V, (nm_lv _ _ _ Vl), (nm_lv _ _ _ Vu). reflexivity.
  Qed.

  Lemma graph_ok_add_edge : forall s k u v t g, graph_ok s k g -> edge_ok s k u v t -> graph_ok s k (g_add_edge u v t g).
  Proof.
    intros s k u v t g [W G1 G2] [x [T [K E]]]. constructor.
    - now apply add_edge_wf.
    - intros m b Em. rewrite add_edge_nodes in Em. destruct (dget m (g_nodes g)) as [o|] eqn:D; [|destruct (_ || _); discriminate].
      apply G1. congruence.
    - intros u' v' t' Ee. rewrite add_edge_edge in Ee; auto.
      destruct (_ || _) eqn:C; auto. injection Ee as <-. exists x. split; auto. split; auto.
      apply orb_true_iff in C as [C|C]; apply andb_true_iff in C as [C1 C2]; apply String.eqb_eq in C1, C2; subst; tauto.
  Qed.

  Lemma put_edge_spec : forall s t x, WF s -> tr s t = Some x ->
    WF (put_edge s t x) /\ s_levels (put_edge s t x) = s_levels s /\ s_trans (put_edge s t x) = s_trans s /\
    s_lal (put_edge s t x) = s_lal s /\ s_tal (put_edge s t x) = s_tal s /\ s_I (put_edge s t x) = s_I s /\
    s_B (put_edge s t x) = s_B s /\ s_warn (put_edge s t x) = s_warn s /\ s_tick (put_edge s t x) = s_tick s /\
    (x_kind x <> TT -> s_g0 (put_edge s t x) = s_g0 s).
  Proof.
    intros s t x W V. destruct (static_ends _ _ (wf_tr _ _ W _ _ V)) as [lo [up [Vl [Vu _]]]].
    unfold put_edge. rewrite (nm_lv _ _ _ Vl), (nm_lv _ _ _ Vu).
    split.
    - apply WF_set_graph; auto. apply graph_ok_add_edge; [apply W|]. exists x. split; auto. split; auto.
      left. rewrite (nm_lv _ _ _ Vl), (nm_lv _ _ _ Vu). auto.
    - destruct (x_kind x); repeat split; congruence.
  Qed.

  Lemma put_edge_ext : forall s t x, WF s -> tr s t = Some x -> ext s (put_edge s t x).
  Proof. intros s t x W V. destruct (put_edge_spec s t x W V) as [? [? [? [? [? [? ?]]]]]]. apply same_heaps_ext; auto. Qed.

  Lemma put_edge_look : forall s t x, WF s -> tr s t = Some x -> x_kind x <> TT -> look s (put_edge s t x).
  Proof. intros s t x W V K. destruct (put_edge_spec s t x W V) as [? [? [? [? [? [? [? [? [? ?]]]]]]]]]. apply look_same; auto. Qed.

  (** ** New transitions *)

  Definition put_trans s x : st :=
    let s1 := set_trans (s_trans s ++ [x]) s in
    if x_attached x then put_edge s1 (List.length (s_trans s)) x else s1.

  Lemma tr_app_new : forall s x, tr (set_trans (s_trans s ++ [x]) s) (List.length (s_trans s)) = Some x.
  Proof. intros. unfold tr. cbn. apply nth_error_app_last. Qed.
  Lemma tr_app_old : forall s x t, (t < List.length (s_trans s))%nat -> tr (set_trans (s_trans s ++ [x]) s) t = tr s t.
  Proof. intros. unfold tr. cbn. now apply nth_error_app1. Qed.
  Lemma tr_lt : forall s t x, tr s t = Some x -> (t < List.length (s_trans s))%nat.
  Proof. intros s t x V. apply nth_error_Some. unfold tr in V. congruence. Qed.
  Lemma lv_lt : forall s a l, lv s a = Some l -> (a < List.length (s_levels s))%nat.
  Proof. intros s a l V. apply nth_error_Some. unfold lv in V. congruence. Qed.

  Lemma app_tr_look : forall s x, look s (set_trans (s_trans s ++ [x]) s).
  Proof.
    intros s x. constructor; [constructor; [constructor; auto|]|].
    - intros a l V. exists l. split; auto. now rewrite lv_eta.
    - intros t y V. exists y. rewrite tr_app_old by eauto using tr_lt. split; auto. now rewrite tr_eta.
    - intros a l l' V _ V'. change (lv s a = Some l') in V'. congruence.
    - intros t y y' V _ V'. rewrite tr_app_old in V' by eauto using tr_lt. congruence.
  Qed.

  Record put_spec s x s' : Prop := mk_put {
    pu_wf : WF s';
    pu_lv : s_levels s' = s_levels s;
    pu_tr : s_trans s' = s_trans s ++ [x];
    pu_lal : s_lal s' = s_lal s; pu_tal : s_tal s' = s_tal s; pu_I : s_I s' = s_I s; pu_B : s_B s' = s_B s;
    pu_warn : s_warn s' = s_warn s; pu_tick : s_tick s' = s_tick s;
    pu_g0 : x_kind x <> TT -> s_g0 s' = s_g0 s
  }.

  Lemma put_trans_spec : forall s x, WF s -> tr_static s x -> x_subs x = [] -> put_spec s x (put_trans s x).
  Proof.
    intros s x W O E. destruct (WF_new_trans _ s x W O E) as [W1 X1]. unfold put_trans.
    destruct (x_attached x).
    - destruct (put_edge_spec _ _ _ W1 (tr_app_new s x)) as [? [? [? [? [? [? [? [? [? ?]]]]]]]]]. constructor; auto.
    - constructor; auto.
  Qed.

  Lemma put_trans_look : forall s x, WF s -> tr_static s x -> x_subs x = [] -> x_kind x <> TT -> look s (put_trans s x).
  Proof.
    intros s x W O E K. destruct (WF_new_trans _ s x W O E) as [W1 X1]. unfold put_trans.
    destruct (x_attached x); [|apply app_tr_look].
    eapply lpo; [apply app_tr_look|]. apply put_edge_look; auto. apply tr_app_new.
  Qed.

  Lemma put_trans_ext : forall s x, WF s -> tr_static s x -> x_subs x = [] -> ext s (put_trans s x).
  Proof.
    intros s x W O E. destruct (WF_new_trans _ s x W O E) as [W1 X1]. unfold put_trans.
    destruct (x_attached x); auto. eapply ext_trans; eauto. apply put_edge_ext; auto. apply tr_app_new.
  Qed.

  Lemma put_tr : forall s x s', put_spec s x s' -> tr s' (List.length (s_trans s)) = Some x /\
    (forall t, (t < List.length (s_trans s))%nat -> tr s' t = tr s t).
  Proof.
    intros s x s' P. unfold tr. rewrite (pu_tr _ _ _ P). split; [apply nth_error_app_last|].
    intros. now apply nth_error_app1.
  Qed.

  (** The record built by the constructor. *)
  Definition tr_rec s (k : tkind) (parent : option nat) (e1 e2 : nat) (f : option N) (A : option (N * funit)) (rel : N)
      (al : types) (alias : option string) : option trans :=
    match lv s e1, energy s e1, energy s e2 with
    | Some l1, Some v1, Some v2 =>
        Some (mkTrans N k parent e1 e2 (if nltb N v1 v2 then e2 else e1) (if nltb N v1 v2 then e1 else e2)
                (l_attached l1) alias A rel al f [])
    | _, _, _ => None
    end.

  Lemma new_trans_eq : forall s k parent e1 e2 f A rel al alias x,
    tr_rec s k parent e1 e2 f A rel al alias = Some x -> WF s -> tr_static s x ->
    new_trans N muB k parent e1 e2 f A rel al alias s =
    match alias with
    | Some b => if x_attached x then (Ok (List.length (s_trans s)), set_tal (dset b (List.length (s_trans s)) (s_tal s)) (put_trans s x))
                else (Raise AttributeError, put_trans s x)
    | None => (Ok (List.length (s_trans s)), put_trans s x)
    end.
  Proof.
    intros s k parent e1 e2 f A rel al alias x R W O. unfold tr_rec in R. unfold new_trans, bind, get_lv, asks.
    destruct (lv s e1) as [l1|] eqn:V1; [|discriminate].
    destruct (energy s e1) as [v1|] eqn:E1; [|discriminate]. destruct (energy s e2) as [v2|] eqn:E2; [|discriminate].
    injection R as R. unfold gets, modify. rewrite R.
    destruct (WF_new_trans _ s x W O) as [W1 X1]; [now subst x|].
    assert (At : x_attached x = l_attached l1) by (now subst x).
    assert (P : put_spec s x (put_trans s x)) by (apply put_trans_spec; auto; now subst x).
    pose proof (pu_tal _ _ _ P) as Tal. unfold put_trans in *. rewrite At in *.
    destruct (l_attached l1).
    - rewrite (add_edge_eq _ _ x); [|apply (wf_tr _ _ W1 (List.length (s_trans s))), tr_app_new|apply tr_app_new].
      destruct alias; unfold ret; [now rewrite Tal|reflexivity].
    - unfold ret, raise. destruct alias; reflexivity.
  Qed.

  Lemma tr_rec_total : forall s k parent e1 e2 f A rel al alias l1 l2, WF s -> lv s e1 = Some l1 -> lv s e2 = Some l2 ->
    exists x, tr_rec s k parent e1 e2 f A rel al alias = Some x /\
      x_kind x = k /\ x_parent x = parent /\ x_E1 x = e1 /\ x_E2 x = e2 /\ x_set x = f /\ x_A x = A /\ x_rel x = rel /\ x_allowed x = al /\
      x_alias x = alias /\ x_subs x = [] /\ x_attached x = l_attached l1 /\
      ((x_up x = x_E2 x /\ x_lo x = x_E1 x) \/ (x_up x = x_E1 x /\ x_lo x = x_E2 x)).
  Proof.
    intros s k parent e1 e2 f A rel al alias l1 l2 W V1 V2. unfold tr_rec.
    destruct (wf_energy N muB _ _ _ W V1) as [v1 E1]. destruct (wf_energy N muB _ _ _ W V2) as [v2 E2].
    rewrite V1, E1, E2. eexists. split; [reflexivity|]. cbn. repeat split; auto. destruct (nltb N v1 v2); auto.
  Qed.

  (** *** Transition(E1, E2) *)

  Lemma new_transition_spec : forall s e1 e2 f A alias l1 l2, WF s -> lv s e1 = Some l1 -> lv s e2 = Some l2 ->
    (l_kind l1 = LE -> l_kind l2 = LE -> exists x j1 j2, l_J l1 = Some j1 /\ l_J l2 = Some j2 /\
       tr_rec s TT None e1 e2 f (option_map (to_Hz N) A) (nofQ N 1)
         (allowed_T j1 j2 (l_parity l1) (l_parity l2) (Nat.eqb e1 e2)) alias = Some x /\ tr_static s x /\ x_subs x = [] /\
       new_transition N muB e1 e2 f A alias s =
       match alias with
       | Some b => if x_attached x then (Ok (List.length (s_trans s)), set_tal (dset b (List.length (s_trans s)) (s_tal s)) (put_trans s x))
                   else (Raise AttributeError, put_trans s x)
       | None => (Ok (List.length (s_trans s)), put_trans s x)
       end) /\
    (l_kind l1 <> LE \/ l_kind l2 <> LE -> new_transition N muB e1 e2 f A alias s = (Raise NotImplementedError, s)).
  Proof.
    intros s e1 e2 f A alias l1 l2 W V1 V2. unfold new_transition, get_lv. split.
    - intros K1 K2. destruct (wf_J _ _ _ _ W V1) as [j1 [J1 _]]. destruct (wf_J _ _ _ _ W V2) as [j2 [J2 _]].
      destruct (tr_rec_total s TT None e1 e2 f (option_map (to_Hz N) A) (nofQ N 1)
         (allowed_T j1 j2 (l_parity l1) (l_parity l2) (Nat.eqb e1 e2)) alias l1 l2 W V1 V2)
        as [x [R [R1 [R2 [R3 [R4 [R5 [R6 [R7 [R8 [R9 [R10 [R11 R12]]]]]]]]]]]]].
      assert (O : tr_static s x).
      { exists l1, l2. rewrite R1, R2, R3, R4, R8. rewrite R3, R4 in R12. repeat (split; [solve [auto]|]).
        left. split; auto. split; auto. exists j1, j2. auto. }
      exists x, j1, j2. repeat (split; [solve [auto]|]).
      unfold bind, asks. rewrite V1, V2, K1, K2, J1, J2. now apply new_trans_eq.
    - intros K. unfold bind, asks. rewrite V1, V2. destruct (l_kind l1), (l_kind l2); try reflexivity. destruct K; congruence.
  Qed.

  Lemma new_transition_safe : forall s e1 e2 f A alias l1 l2, WF s -> lv s e1 = Some l1 -> lv s e2 = Some l2 ->
    safe ext s (new_transition N muB e1 e2 f A alias) (fun t s' => t = List.length (s_trans s) /\ s_levels s' = s_levels s /\
      exists x, tr s' t = Some x /\ x_E1 x = e1 /\ x_E2 x = e2 /\ x_set x = f /\ x_kind x = TT).
  Proof.
    intros s e1 e2 f A alias l1 l2 W V1 V2. destruct (new_transition_spec s e1 e2 f A alias l1 l2 W V1 V2) as [S1 S2].
    assert (D : (l_kind l1 = LE /\ l_kind l2 = LE) \/ (l_kind l1 <> LE \/ l_kind l2 <> LE)).
    { destruct (l_kind l1), (l_kind l2); try (right; left; congruence); try (right; right; congruence); auto. }
    destruct D as [[K1 K2]|D].
    - destruct (S1 K1 K2) as [x [j1 [j2 [J1 [J2 [R [O [E Eq]]]]]]]].
      pose proof (put_trans_spec s x W O E) as P. pose proof (put_trans_ext s x W O E) as X.
      destruct (put_tr _ _ _ P) as [T To].
      assert (F : x_E1 x = e1 /\ x_E2 x = e2 /\ x_set x = f /\ x_kind x = TT).
      { unfold tr_rec in R. destruct (lv s e1), (energy s e1), (energy s e2); try discriminate. injection R as <-. auto. }
      unfold safe. rewrite Eq. destruct alias as [b|].
      + destruct (x_attached x).
        * destruct (WF_tal _ (put_trans s x) b (List.length (s_trans s)) x (pu_wf _ _ _ P) T) as [W2 X2].
          rewrite (pu_tal _ _ _ P) in W2, X2. cbn [fst snd]. split; auto. split; [eapply ext_trans; eauto|].
          split; auto. split; [apply P|]. exists x. split; auto.
        * cbn [fst snd]. split; [apply P|]. split; auto. discriminate.
      + cbn [fst snd]. split; [apply P|]. split; auto. split; auto. split; [apply P|]. exists x. auto.
    - unfold safe. rewrite (S2 D). cbn [fst snd]. split; auto. split; [apply ext_refl|discriminate].
  Qed.

  (** ** Subtransitions *)

  Definition onum (o : option Z) : Z := match o with Some z => z | None => 0%Z end.

  Definition sub_allowed s x (l1 l2 : level) : types :=
    match x_kind x with
    | TT => allowed_HF (s_I s) (onum (l_J l1)) (onum (l_J l2)) (onum (l_F l1)) (onum (l_F l2)) (x_allowed x)
    | _ => allowed_Z (onum (l_F l1)) (onum (l_F l2)) (onum (l_mF l1)) (onum (l_mF l2)) (x_allowed x)
    end.
  Definition sub_factor s x (l1 l2 : level) : N :=
    nofQ N (this match x_kind x with
    | TT => hf_factor (x_allowed x) (s_I s) (onum (l_J l1)) (onum (l_J l2)) (onum (l_F l1)) (onum (l_F l2))
    | _ => z_factor (x_allowed x) (onum (l_F l1)) (onum (l_F l2)) (onum (l_mF l1)) (onum (l_mF l2))
    end).
  Definition sub_rec s t x (ab : nat * nat) : option trans :=
    match lv s (fst ab), lv s (snd ab) with
    | Some l1, Some l2 =>
        tr_rec s (sub_tkind (x_kind x)) (Some t) (fst ab) (snd ab) None (option_map (scale_A N (sub_factor s x l1 l2)) (x_A x))
          (match x_A x with Some _ => sub_factor s x l1 l2 | None => nofQ N 1 end) (sub_allowed s x l1 l2) None
    | _, _ => None
    end.
  Definition tkey s y : string * string :=
    match lv s (x_lo y), lv s (x_up y) with Some lo, Some up => (lshort lo, lshort up) | _, _ => ("", "")%string end.

  (** A pair of sublevels of the two levels of [x]. *)
  Definition pair_valid s x (ab : nat * nat) : Prop :=
    exists l1 l2, lv s (fst ab) = Some l1 /\ lv s (snd ab) = Some l2 /\
      l_kind l1 = lk (sub_tkind (x_kind x)) /\ l_kind l2 = lk (sub_tkind (x_kind x)) /\
      l_parent l1 = Some (x_E1 x) /\ l_parent l2 = Some (x_E2 x).

  Lemma sub_rec_total : forall s t x ab, WF s -> tr s t = Some x -> x_kind x <> TZ -> pair_valid s x ab ->
    exists y, sub_rec s t x ab = Some y /\ tr_static s y /\ x_subs y = [] /\ x_kind y <> TT /\ x_kind y = sub_tkind (x_kind x) /\ x_parent y = Some t /\
     exists l1 l2, lv s (fst ab) = Some l1 /\ lv s (snd ab) = Some l2 /\ x_allowed y = sub_allowed s x l1 l2 /\ x_attached y = true.
  Proof.
    intros s t x ab W V Kx [l1 [l2 [V1 [V2 [K1 [K2 [P1 P2]]]]]]]. unfold sub_rec. rewrite V1, V2.
    match goal with |- exists y, tr_rec ?s ?k ?p ?a ?b ?f ?A ?r ?al ?ali = Some y /\ _ =>
      destruct (tr_rec_total s k p a b f A r al ali l1 l2 W V1 V2)
        as [y [R [R1 [R2 [R3 [R4 [R5 [R6 [R7 [R8 [R9 [R10 [R11 R12]]]]]]]]]]]]] end.
    assert (K1' : l_kind l1 <> LE) by (rewrite K1; destruct (x_kind x); discriminate).
    assert (K2' : l_kind l2 <> LE) by (rewrite K2; destruct (x_kind x); discriminate).
    destruct (wf_F _ _ _ _ W V1 K1') as [j1 [f1 [EJ1 [EF1 _]]]]. destruct (wf_F _ _ _ _ W V2 K2') as [j2 [f2 [EJ2 [EF2 _]]]].
    exists y. split; auto. split.
    - exists l1, l2. rewrite R1, R2, R3, R4, R8. rewrite R3, R4 in R12. repeat (split; [solve [auto]|]).
      right. exists t, x. repeat (split; [solve [auto]|]). unfold sub_allowed. destruct (x_kind x); [left|right|congruence].
      + split; auto. exists j1, j2, f1, f2. rewrite EJ1, EJ2, EF1, EF2. repeat split; auto.
      + split; auto. destruct (wf_mF _ _ _ _ W V1 K1) as [f1' [m1 [_ [EM1 _]]]]. destruct (wf_mF _ _ _ _ W V2 K2) as [f2' [m2 [_ [EM2 _]]]].
        exists f1, f2, m1, m2. rewrite EF1, EF2, EM1, EM2. repeat split; auto.
    - split; auto. split; [rewrite R1; destruct (x_kind x); discriminate|]. split; auto. split; auto. exists l1, l2. repeat split; auto.
      rewrite R11. apply (wf_parent _ _ _ _ W V1 K1').
  Qed.

  Lemma dset_In {K V} `{Eqb K} : forall k (v : V) (d : dict K V) k' v', In (k', v') (dset k v d) -> (k' = k /\ v' = v) \/ In (k', v') d.
  Proof.
    induction d as [|[k0 v0] d IH]; simpl; intros k' v'.
    - intros [E|[]]. injection E as <- <-. auto.
    - destruct (keqb_spec k k0); simpl.
      + intros [E|I]; auto. injection E as <- <-. subst. auto.
      + intros [E|I]; auto. destruct (IH _ _ I) as [|]; auto.
  Qed.

  Definition after_sub s t x y : st :=
    if any_type (x_allowed y)
    then upd_tr t (fun x => tr_set_subs (dset (tkey s y) (List.length (s_trans s)) (x_subs x)) x) (put_trans s y)
    else put_trans s y.

  Lemma new_sub_eq : forall s t x ab y, WF s -> tr s t = Some x -> x_kind x <> TZ -> pair_valid s x ab ->
    sub_rec s t x ab = Some y -> new_sub N muB t ab s = (Ok tt, after_sub s t x y).
  Proof.
    intros s t x ab y W V Kx Pv R. destruct (sub_rec_total s t x ab W V Kx Pv) as [y' [R' [O [E [Ky [_ _]]]]]].
    rewrite R in R'. injection R' as <-. destruct Pv as [l1 [l2 [V1 [V2 [K1 [K2 [P1 P2]]]]]]].
    pose proof (put_trans_spec s y W O E) as P. destruct (put_tr _ _ _ P) as [T To].
    destruct (static_ends _ _ O) as [lo [up [Vl [Vu _]]]].
    assert (New : match x_kind x with
         | TT => new_HF N muB t (fst ab) (snd ab)
         | THF => new_Z N muB t (fst ab) (snd ab)
         | TZ => raise Dangling
         end s = (Ok (List.length (s_trans s)), put_trans s y)).
    { unfold sub_rec in R. rewrite V1, V2 in R.
      assert (K1' : l_kind l1 <> LE) by (rewrite K1; destruct (x_kind x); discriminate).
      assert (K2' : l_kind l2 <> LE) by (rewrite K2; destruct (x_kind x); discriminate).
      destruct (wf_F _ _ _ _ W V1 K1') as [j1 [f1 [EJ1 [EF1 _]]]]. destruct (wf_F _ _ _ _ W V2 K2') as [j2 [f2 [EJ2 [EF2 _]]]].
      unfold sub_allowed, sub_factor in R. destruct (x_kind x) eqn:K; [| |congruence].
      - unfold new_HF, bind, get_tr, get_lv, asks, gets. rewrite V, V1, V2, EJ1, EJ2, EF1, EF2.
        rewrite EJ1, EJ2, EF1, EF2 in R. cbn [onum sub_tkind] in R. now rewrite (new_trans_eq _ _ _ _ _ _ _ _ _ _ _ R W O).
      - destruct (wf_mF _ _ _ _ W V1 K1) as [f1' [m1 [_ [EM1 _]]]]. destruct (wf_mF _ _ _ _ W V2 K2) as [f2' [m2 [_ [EM2 _]]]].
        unfold new_Z, bind, get_tr, get_lv, asks, gets. rewrite V, V1, V2, EF1, EF2, EM1, EM2.
        rewrite EM1, EM2, EF1, EF2 in R. cbn [onum sub_tkind] in R. now rewrite (new_trans_eq _ _ _ _ _ _ _ _ _ _ _ R W O). }
    unfold new_sub, bind, get_tr, asks. rewrite V, New, T. unfold after_sub, tkey. rewrite Vl, Vu.
    destruct (any_type (x_allowed y)); [|reflexivity]. unfold get_lv, asks, modify.
    rewrite (same_levels_lv _ s (put_trans s y) (x_lo y)) by apply P. rewrite Vl.
    rewrite (same_levels_lv _ s (put_trans s y) (x_up y)) by apply P. now rewrite Vu.
  Qed.

  (** The new entries of the dictionary of subtransitions. *)
  Fixpoint fill s t x (n : nat) (ps : list (nat * nat)) (d : dict (string * string) nat) : dict (string * string) nat :=
    match ps with
    | [] => d
    | ab :: ps' =>
        fill s t x (S n) ps' (match sub_rec s t x ab with
                              | Some y => if any_type (x_allowed y) then dset (tkey s y) n d else d
                              | None => d
                              end)
    end.

  Lemma sub_rec_frame : forall s s' t x x' ab, WF s -> frame s s' -> pair_valid s x ab ->
    x_kind x' = x_kind x -> x_A x' = x_A x -> x_allowed x' = x_allowed x ->
    sub_rec s' t x' ab = sub_rec s t x ab.
  Proof.
    intros s s' t x x' ab W F [l1 [l2 [V1 [V2 _]]]] E1 E2 E3. unfold sub_rec.
    destruct (fr_lv _ _ _ F _ _ V1) as [l1' [V1' S1]]. destruct (fr_lv _ _ _ F _ _ V2) as [l2' [V2' S2]].
    rewrite V1, V2, V1', V2'. unfold tr_rec. rewrite V1, V1'.
    rewrite (frame_energy N muB s s' (fst ab) W F), (frame_energy N muB s s' (snd ab) W F) by congruence.
    rewrite E1, E2. unfold sub_allowed, sub_factor. rewrite E1, E3, (fr_I _ _ _ F).
    assert (A1 : l_attached l1' = l_attached l1) by (rewrite S1; reflexivity).
    assert (Q : forall l l', l' = lv_set_subs (l_subs l') l -> l_J l' = l_J l /\ l_F l' = l_F l /\ l_mF l' = l_mF l).
    { intros l l' ->. repeat split. }
    destruct (Q _ _ S1) as [-> [-> ->]]. destruct (Q _ _ S2) as [-> [-> ->]]. now rewrite A1.
  Qed.

  Lemma tkey_frame : forall s s' y, frame s s' -> tr_static s y -> tkey s' y = tkey s y.
  Proof.
    intros s s' y F O. destruct (static_ends _ _ O) as [lo [up [Vl [Vu _]]]]. unfold tkey.
    destruct (fr_lv _ _ _ F _ _ Vl) as [lo' [Vl' El]]. destruct (fr_lv _ _ _ F _ _ Vu) as [up' [Vu' Eu]].
    rewrite Vl, Vu, Vl', Vu', El, Eu. reflexivity.
  Qed.

  Lemma pair_valid_frame : forall s s' x x' ab, frame s s' -> x_kind x' = x_kind x -> x_E1 x' = x_E1 x -> x_E2 x' = x_E2 x ->
    pair_valid s x ab -> pair_valid s' x' ab.
  Proof.
    intros s s' x x' ab F K E1 E2 [l1 [l2 [V1 [V2 [K1 [K2 [P1 P2]]]]]]].
    destruct (fr_lv _ _ _ F _ _ V1) as [l1' [V1' S1]]. destruct (fr_lv _ _ _ F _ _ V2) as [l2' [V2' S2]].
    assert (Q : forall l l', l' = lv_set_subs (l_subs l') l -> l_kind l' = l_kind l /\ l_parent l' = l_parent l).
    { intros l l' ->. split; reflexivity. }
    destruct (Q _ _ S1) as [Q1 Q2]. destruct (Q _ _ S2) as [Q3 Q4].
    exists l1', l2'. rewrite K, E1, E2, Q1, Q2, Q3, Q4. auto 10.
  Qed.

  Lemma fill_frame : forall ps s s' t x x' n d, WF s -> tr s t = Some x -> x_kind x <> TZ -> frame s s' -> Forall (pair_valid s x) ps ->
    x_kind x' = x_kind x -> x_A x' = x_A x -> x_allowed x' = x_allowed x ->
    fill s' t x' n ps d = fill s t x n ps d.
  Proof.
    induction ps as [|ab ps IH]; intros s s' t x x' n d W V Kx F Pv E1 E2 E3; simpl; auto.
    inversion Pv; subst. rewrite (sub_rec_frame s s' t x x' ab W F H1 E1 E2 E3).
    rewrite (IH s s' t x x'); auto. f_equal. destruct (sub_rec_total s t x ab W V Kx H1) as [y [R [O _]]]. rewrite R.
    now rewrite (tkey_frame s s' y F O).
  Qed.

  Record subs_made s t x (ps : list (nat * nat)) s' : Prop := mk_made {
    sm_wf : WF s';
    sm_look0 : look0 s s';
    sm_levels : s_levels s' = s_levels s;
    sm_len : List.length (s_trans s') = (List.length (s_trans s) + List.length ps)%nat;
    sm_self : tr s' t = Some (tr_set_subs (fill s t x (List.length (s_trans s)) ps (x_subs x)) x);
    sm_old : forall t', t' <> t -> (t' < List.length (s_trans s))%nat -> tr s' t' = tr s t';
    sm_new : forall i ab, nth_error ps i = Some ab -> tr s' (List.length (s_trans s) + i) = sub_rec s t x ab
  }.

  (** One more subtransition. *)
  Lemma after_sub_spec : forall s t x ab y, WF s -> tr s t = Some x -> x_kind x <> TZ -> pair_valid s x ab ->
    sub_rec s t x ab = Some y -> subs_made s t x [ab] (after_sub s t x y).
  Proof.
    intros s t x ab y W V Kx Pv R. destruct (sub_rec_total s t x ab W V Kx Pv) as [y' [R' [O [E [Ky [Ky' [Py _]]]]]]].
    rewrite R in R'. injection R' as <-.
    pose proof (put_trans_spec s y W O E) as P. destruct (put_tr _ _ _ P) as [T To].
    pose proof (put_trans_look s y W O E Ky) as L. pose proof (tr_lt _ _ _ V) as Lt.
    set (n := List.length (s_trans s)) in *.
    assert (V1 : tr (put_trans s y) t = Some x) by (rewrite To; auto).
    assert (Len : List.length (s_trans (put_trans s y)) = S n) by (rewrite (pu_tr _ _ _ P), app_length; simpl; unfold n; lia).
    unfold after_sub. fold n. destruct (any_type (x_allowed y)) eqn:An.
    - set (f := fun x => tr_set_subs (dset (tkey s y) n (x_subs x)) x). set (s2 := upd_tr t f (put_trans s y)).
      assert (X2 : ext (put_trans s y) s2).
      { constructor; auto.
        - intros b l Vb. exists l. split; auto. apply lsame_refl.
        - intros c z Vc. unfold s2. rewrite tr_upd_tr, Vc. destruct (Nat.eqb t c); eexists; split; eauto; repeat split. }
      assert (T2 : forall c, c <> t -> tr s2 c = tr (put_trans s y) c).
      { intros c Hc. unfold s2. rewrite tr_upd_tr. destruct (Nat.eqb_spec t c); congruence. }
      assert (V2 : tr s2 t = Some (f x)) by (unfold s2; rewrite tr_upd_tr, Nat.eqb_refl, V1; reflexivity).
      assert (W2 : WF s2).
      { eapply WF_step; [apply P|exact X2| | | | |]; eauto; try (intros []; left; reflexivity).
        intros c z Vc. destruct (Nat.eq_dec c t) as [->|Hc]; [|left; exists z; rewrite T2 in Vc; auto].
        right. rewrite V2 in Vc. injection Vc as <-. pose proof (pu_wf _ _ _ P) as W1. split.
        - eapply tr_static_ext; [exact X2| |apply (wf_tr _ _ W1 _ _ V1)]. repeat split.
        - destruct (wf_tsubs _ _ W1 _ _ V1) as [N1 N2]. split.
          + simpl. now apply NoDup_dset.
          + intros key c I. simpl in I. apply dset_In in I as [[-> ->]|I].
            * destruct (static_ends _ _ O) as [lo [up [Vl [Vu _]]]]. exists y, lo, up. rewrite T2 by (unfold n in *; lia). rewrite T.
              change (lv s2 (x_lo y)) with (lv (put_trans s y) (x_lo y)). change (lv s2 (x_up y)) with (lv (put_trans s y) (x_up y)).
              rewrite (same_levels_lv _ s _ (x_lo y)), (same_levels_lv _ s _ (x_up y)) by apply P.
              unfold tkey. rewrite Vl, Vu. repeat split; auto.
            * eapply subtr_ext; [exact X2| |apply N2; exact I]. repeat split. }
      constructor; auto.
      + eapply lpo0; [apply L|]. constructor; [constructor; auto|].
        * intros b l Vb. exists l. split; auto. now rewrite lv_eta.
        * intros c z Vc. destruct (Nat.eq_dec c t) as [->|Hc].
          -- exists (f z). split; [congruence|]. reflexivity.
          -- exists z. rewrite T2 by auto. split; auto. now rewrite tr_eta.
        * intros b l l' Vb _ Vb'. change (lv (put_trans s y) b = Some l') in Vb'. congruence.
      + apply P.
      + unfold s2. cbn. rewrite upd_length, Len. fold n. lia.
      + rewrite V2. cbn [fill]. rewrite R, An. reflexivity.
      + intros c Hc Hl. rewrite T2 by auto. now apply To.
      + intros [|[|i]] ab' Ei; simpl in Ei; try discriminate. injection Ei as <-. rewrite T2 by (fold n; lia).
        rewrite Nat.add_0_r. fold n. now rewrite T, R.
    - constructor; auto; try apply P; try apply L.
      + rewrite Len. simpl. fold n. lia.
      + cbn [fill]. rewrite R, An. rewrite V1. now destruct x.
      + intros [|[|i]] ab' Ei; simpl in Ei; try discriminate. injection Ei as <-. rewrite Nat.add_0_r. fold n. now rewrite T, R.
  Qed.

  Lemma new_subs_spec : forall ps s t x, WF s -> tr s t = Some x -> x_kind x <> TZ -> Forall (pair_valid s x) ps ->
    exists s', forM ps (new_sub N muB t) s = (Ok tt, s') /\ subs_made s t x ps s'.
  Proof.
    induction ps as [|ab ps IH]; intros s t x W V Kx Pv.
    - exists s. split; auto. constructor; auto; try apply lpo0.
      + simpl. rewrite V. now destruct x.
      + intros [|i] ab Ei; discriminate.
    - inversion Pv as [|? ? Pa Pr]; subst. destruct (sub_rec_total s t x ab W V Kx Pa) as [y [R [O _]]].
      pose proof (after_sub_spec s t x ab y W V Kx Pa R) as [W1 L1 E1 Len1 S1 Old1 New1].
      set (s1 := after_sub s t x y) in *. set (x1 := tr_set_subs _ x) in *. pose proof (l0_frame _ _ _ L1) as F1.
      destruct (IH s1 t x1) as [s2 [E2 [W2 L2 El2 Len2 S2 Old2 New2]]]; auto.
      { eapply Forall_impl; [|exact Pr]. intros ab' Pa'. apply (pair_valid_frame s s1 x x1); auto. }
      exists s2. split.
      { cbn [forM]. unfold bind. rewrite (new_sub_eq s t x ab y); auto. }
      set (n := List.length (s_trans s)) in *. simpl in Len1.
      constructor; auto.
      + eapply lpo0; eauto.
      + congruence.
      + rewrite Len2, Len1. simpl. lia.
      + rewrite S2. f_equal. cbn [fill]. rewrite R.
        replace (List.length (s_trans s1)) with (S n) by lia.
        rewrite (fill_frame ps s s1 t x x1) by auto.
        unfold x1 at 1. cbn [x_subs tr_set_subs fill]. rewrite R. reflexivity.
      + intros c Hc Hl. fold n in Hl. rewrite Old2; auto. lia.
      + intros [|i] ab' Ei; simpl in Ei.
        * injection Ei as <-. fold n. rewrite Old2; [|pose proof (tr_lt _ _ _ V); fold n in H; lia|lia].
          apply (New1 0%nat ab eq_refl).
        * specialize (New2 i ab' Ei). fold n. replace (n + S i)%nat with (List.length (s_trans s1) + i)%nat by lia.
          rewrite New2. apply sub_rec_frame; auto. eapply Forall_forall; [exact Pr|]. eapply nth_error_In; eauto.
  Qed.

  Lemma made_look : forall s t x ps s', tr s t = Some x -> x_subs x = [] -> subs_made s t x ps s' -> look s s'.
  Proof.
    intros s t x ps s' V E [W L El Len S Old New]. constructor; auto. intros c z z' Vc Hn Vc'.
    destruct (Nat.eq_dec c t) as [->|Hc]; [congruence|]. rewrite Old in Vc' by eauto using tr_lt. congruence.
  Qed.

  (** The sublevels of the two levels of a transition. *)
  Definition sub_pairs s x (l1 l2 : level) : list (nat * nat) :=
    filter (pair_filter N s x) (list_prod (dvals (l_subs l1)) (dvals (l_subs l2))).

  Lemma tkind_lk : forall k, k <> TZ -> lk k <> LZ /\ sub_kind (lk k) = lk (sub_tkind k).
  Proof. intros []; simpl; repeat split; congruence. Qed.

  Lemma pairs_valid : forall s x l1 l2, WF s -> x_kind x <> TZ -> lv s (x_E1 x) = Some l1 -> lv s (x_E2 x) = Some l2 ->
    l_kind l1 = lk (x_kind x) -> l_kind l2 = lk (x_kind x) -> full s (x_E1 x) l1 -> full s (x_E2 x) l2 ->
    Forall (pair_valid s x) (sub_pairs s x l1 l2).
  Proof.
    intros s x l1 l2 W Kx V1 V2 K1 K2 F1 F2. apply Forall_forall. intros [a b] I. unfold sub_pairs in I.
    apply filter_In in I as [I _]. apply in_prod_iff in I as [Ia Ib].
    destruct (full_child _ _ _ _ _ F1 Ia) as [z1 [k1 [_ [_ [_ [la [Va [Ka [Pa _]]]]]]]]].
    destruct (full_child _ _ _ _ _ F2 Ib) as [z2 [k2 [_ [_ [_ [lb [Vb [Kb [Pb _]]]]]]]]].
    destruct (tkind_lk _ Kx) as [_ Ks]. exists la, lb. rewrite <- Ks. rewrite K1 in Ka. rewrite K2 in Kb. simpl. auto 10.
  Qed.

  (** Both levels have their sublevels. *)
  Definition both_full s x : Prop :=
    exists l1 l2, lv s (x_E1 x) = Some l1 /\ lv s (x_E2 x) = Some l2 /\ full s (x_E1 x) l1 /\ full s (x_E2 x) l2.

  Lemma both_sublevels : forall s t x, WF s -> tr s t = Some x -> x_kind x <> TZ ->
    safe lookl s (bind (sublevels N (x_E1 x)) (fun d1 => bind (sublevels N (x_E2 x)) (fun d2 => ret (d1, d2))))
      (fun ss s' => tr s' t = Some x /\ exists l1 l2, lv s' (x_E1 x) = Some l1 /\ lv s' (x_E2 x) = Some l2 /\
         l_kind l1 = lk (x_kind x) /\ l_kind l2 = lk (x_kind x) /\ full s' (x_E1 x) l1 /\ full s' (x_E2 x) l2 /\
         ss = (dvals (l_subs l1), dvals (l_subs l2))).
  Proof.
    intros s t x W V Kx. destruct (wf_tr _ _ W _ _ V) as [m1 [m2 [V1 [V2 [K1 [K2 _]]]]]]. destruct (tkind_lk _ Kx) as [Kz _].
    eapply (safe_bind _ _ llpo); [apply (sublevels_safe _ s (x_E1 x) m1); auto|].
    cbv beta. intros bs1 s1 W1 [L1 T1] [l1 [Vl1 [S1 [F1 ->]]]].
    destruct (ext_lv _ _ _ (look_ext _ _ _ L1) _ _ V2) as [m2' [V2' S2']].
    eapply (safe_bind _ _ llpo); [apply (sublevels_safe _ s1 (x_E2 x) m2'); auto|].
    cbv beta. intros bs2 s2 W2 [L2 T2] [l2 [Vl2 [S2 [F2 ->]]]].
    assert (Kl1 : l_kind l1 <> LZ) by (destruct S1 as [-> _]; congruence).
    destruct (look_subs _ s1 s2 (x_E1 x) l1 L2 Vl1) as [l1' [Vl1' [E1' S1']]]; [apply (full_subs N s1 (x_E1 x) l1); auto|].
    apply (safe_ret _ _ llpo); auto. split; [rewrite (same_trans_tr _ s1); auto; rewrite (same_trans_tr _ s); auto|].
    exists l1', l2. split; auto. split; auto. split; [destruct S1 as [? _], S1' as [? _]; congruence|].
    split; [destruct S2 as [? _], S2' as [? _]; congruence|]. split; [|rewrite E1'; auto].
    apply (full_ext _ s1 s2 (x_E1 x) l1 l1'); auto. now apply look_ext.
  Qed.

  Lemma sublevels_full : forall s a l, lv s a = Some l -> l_subs l <> [] -> sublevels N a s = (Ok (dvals (l_subs l)), s).
  Proof.
    intros s a l V H. unfold sublevels, bind. rewrite (lazy_pure _ s a l V H). unfold get_lv, asks, ret. now rewrite V.
  Qed.

  (** Once the sublevels exist, populating subtransitions does not fail. *)
  Lemma populate_sub_eq : forall s t x l1 l2, WF s -> tr s t = Some x -> x_kind x <> TZ ->
    lv s (x_E1 x) = Some l1 -> lv s (x_E2 x) = Some l2 -> l_kind l1 = lk (x_kind x) -> l_kind l2 = lk (x_kind x) ->
    full s (x_E1 x) l1 -> full s (x_E2 x) l2 ->
    exists s', populate_subtransitions N muB t s = (Ok tt, s') /\ subs_made s t x (sub_pairs s x l1 l2) s'.
  Proof.
    intros s t x l1 l2 W V Kx V1 V2 K1 K2 F1 F2. destruct (tkind_lk _ Kx) as [Kz _].
    destruct (new_subs_spec (sub_pairs s x l1 l2) s t x W V Kx) as [s' [E Mk]]; [apply pairs_valid; auto|].
    exists s'. split; auto. unfold populate_subtransitions, bind, get_tr, asks. rewrite V.
    assert (Ex : forall m : M unit, m s = (Ok tt, s') -> match x_kind x with TZ => ret tt | _ => m end s = (Ok tt, s')) by (destruct (x_kind x); auto; congruence).
    apply Ex. rewrite (sublevels_full _ _ _ V1) by (eapply full_subs; eauto; congruence).
    rewrite (sublevels_full _ _ _ V2) by (eapply full_subs; eauto; congruence). exact E.
  Qed.

  Lemma populate_sub_TZ : forall s t x, tr s t = Some x -> x_kind x = TZ -> populate_subtransitions N muB t s = (Ok tt, s).
  Proof. intros s t x V K. unfold populate_subtransitions, bind, get_tr, asks. now rewrite V, K. Qed.

  Lemma bind_assoc {A B C} : forall (m : M A) (f : A -> M B) (g : B -> M C) s,
    bind (bind m f) g s = bind m (fun v => bind (f v) g) s.
  Proof. intros. unfold bind. destruct (m s) as [[] ?]; auto. Qed.

  Lemma safe_eq {A} : forall R s (m m' : M A) Q, m s = m' s -> safe R s m' Q -> safe R s m Q.
  Proof. intros R s m m' Q E H. unfold safe in *. now rewrite E. Qed.

  Lemma safe_bind_w {A B} : forall (R R' : st -> st -> Prop) s (m : M A) (f : A -> M B) Q1 Q, preord R ->
    (forall s s', R' s s' -> R s s') -> safe R' s m Q1 ->
    (forall v s', WF s' -> R' s s' -> Q1 v s' -> safe R s' (f v) Q) -> safe R s (bind m f) Q.
  Proof.
    intros R R' s m f Q1 Q PO H [W [X O]] Hf. unfold safe, bind. destruct (m s) as [[v|e] s1]; simpl in *.
    - destruct (Hf _ _ W X O) as [W2 [X2 O2]]. split; auto. split; auto. eapply PO; eauto.
    - auto.
  Qed.

  Lemma populate_sub_safe : forall s t x, WF s -> tr s t = Some x ->
    safe look0 s (populate_subtransitions N muB t) (fun _ s' => x_kind x = TZ \/
      exists s1 l1 l2, lookl s s1 /\ WF s1 /\ lv s1 (x_E1 x) = Some l1 /\ lv s1 (x_E2 x) = Some l2 /\
        full s1 (x_E1 x) l1 /\ full s1 (x_E2 x) l2 /\ tr s1 t = Some x /\ subs_made s1 t x (sub_pairs s1 x l1 l2) s').
  Proof.
    intros s t x W V.
    assert (D : x_kind x = TZ \/ x_kind x <> TZ) by (destruct (x_kind x); auto; right; discriminate).
    destruct D as [K|K].
    - unfold safe. rewrite (populate_sub_TZ _ _ _ V K). simpl. split; auto. split; auto. apply lpo0.
    - apply (safe_eq _ _ _ (bind (bind (sublevels N (x_E1 x)) (fun d1 => bind (sublevels N (x_E2 x)) (fun d2 => ret (d1, d2))))
         (fun ss => bind (gets (fun s => filter (pair_filter N s x) (list_prod (fst ss) (snd ss)))) (fun pairs => forM pairs (new_sub N muB t))))).
      { unfold populate_subtransitions. unfold bind at 1, get_tr, asks. rewrite V. rewrite bind_assoc. unfold bind. destruct (x_kind x); [| |congruence];
          destruct (sublevels N (x_E1 x) s) as [[] ?]; auto; destruct (sublevels N (x_E2 x) _) as [[] ?]; auto. }
      eapply (safe_bind_w _ _ _ _ _ _ _ lpo0); [|apply (both_sublevels s t x); auto|].
      + intros ? ? L. apply L.
      + cbv beta. intros ss s1 W1 L1 [T1 [l1 [l2 [V1 [V2 [K1 [K2 [F1 [F2 ->]]]]]]]]]. apply (safe_gets _ _ s1). cbn [fst snd].
        destruct (new_subs_spec (sub_pairs s1 x l1 l2) s1 t x W1 T1 K) as [s' [E Mk]]; [apply pairs_valid; auto|].
        fold (sub_pairs s1 x l1 l2). unfold safe. rewrite E. cbn [fst snd]. split; [apply Mk|]. split; [apply Mk|].
        right. exists s1, l1, l2. repeat (split; [solve [auto]|]). auto.
  Qed.

  (** ** Joining the atom *)

  Definition tr_joined s t x : st := put_edge (upd_tr t (tr_set_attached true) s) t (tr_set_attached true x).

  Lemma tr_joined_spec : forall s t x, WF s -> tr s t = Some x ->
    WF (tr_joined s t x) /\ ext s (tr_joined s t x) /\ s_levels (tr_joined s t x) = s_levels s /\
    (forall c, tr (tr_joined s t x) c = if Nat.eqb t c then option_map (tr_set_attached true) (tr s c) else tr s c) /\
    s_lal (tr_joined s t x) = s_lal s /\ s_tal (tr_joined s t x) = s_tal s /\ s_I (tr_joined s t x) = s_I s /\
    s_B (tr_joined s t x) = s_B s /\ s_warn (tr_joined s t x) = s_warn s /\ s_tick (tr_joined s t x) = s_tick s /\
    (x_kind x <> TT -> s_g0 (tr_joined s t x) = s_g0 s).
  Proof.
    intros s t x W V. destruct (WF_upd_tr _ s t (tr_set_attached true) W) as [W1 X1]; [intros; repeat split|].
    assert (V1 : tr (upd_tr t (tr_set_attached true) s) t = Some (tr_set_attached true x)) by (rewrite tr_upd_tr, Nat.eqb_refl, V; reflexivity).
    destruct (put_edge_spec _ _ _ W1 V1) as [W2 [H1 [H2 [H3 [H4 [H5 [H6 [H7 [H8 H9]]]]]]]]].
    pose proof (put_edge_ext _ _ _ W1 V1) as X2. unfold tr_joined. split; auto. split; [eapply ext_trans; eauto|].
    split; auto. split; [|repeat split; auto].
    intros c. unfold tr. rewrite H2. apply tr_upd_tr.
  Qed.

  Lemma tr_add_eq : forall s t x, WF s -> tr s t = Some x -> tr_add_to_atom N t s =
    (match x_subs x with [] => Ok tt | _ => Raise AttributeError end, tr_joined s t x).
  Proof.
    intros s t x W V. destruct (WF_upd_tr _ s t (tr_set_attached true) W) as [W1 X1]; [intros; repeat split|].
    assert (V1 : tr (upd_tr t (tr_set_attached true) s) t = Some (tr_set_attached true x)) by (rewrite tr_upd_tr, Nat.eqb_refl, V; reflexivity).
    unfold tr_add_to_atom, bind, modify. rewrite (add_edge_eq _ _ _ (wf_tr _ _ W1 _ _ V1) V1). fold (tr_joined s t x).
    unfold get_tr, asks. destruct (tr_joined_spec s t x W V) as [_ [_ [_ [Ht _]]]]. rewrite Ht, Nat.eqb_refl, V. cbn [option_map].
    change (x_subs (tr_set_attached true x)) with (x_subs x). destruct (x_subs x); reflexivity.
  Qed.

  (** Only [x_attached] of some transitions changes. *)
  Record attl s s' : Prop := mk_attl {
    at_look : look s s';
    at_levels : s_levels s' = s_levels s;
    at_len : List.length (s_trans s') = List.length (s_trans s);
    at_tr : forall c z, tr s c = Some z -> exists b, tr s' c = Some (tr_set_attached b z)
  }.
  Lemma attl_po : preord attl.
  Proof.
    constructor.
    - intros s. constructor; auto; [apply lpo|]. intros c z V. exists (x_attached z). rewrite V. now destruct z.
    - intros s1 s2 s3 [A1 A2 A3 A4] [B1 B2 B3 B4]. constructor; try congruence; [eapply lpo; eauto|].
      intros c z V. destruct (A4 _ _ V) as [b Vb]. destruct (B4 _ _ Vb) as [b' Vb']. exists b'. rewrite Vb'. reflexivity.
  Qed.

  Lemma tr_upd_attl : forall s t x b, tr s t = Some x -> attl s (upd_tr t (tr_set_attached b) s).
  Proof.
    intros s t x b V.
    assert (H : forall c z, tr s c = Some z -> exists b', tr (upd_tr t (tr_set_attached b) s) c = Some (tr_set_attached b' z)).
    { intros c z Vc. rewrite tr_upd_tr, Vc. destruct (Nat.eqb t c); simpl; [eauto|]. exists (x_attached z). now destruct z. }
    constructor; auto; [|cbn; now rewrite upd_length].
    constructor; [constructor; [constructor; auto|]|].
    - intros a l Va. exists l. split; auto. now rewrite lv_eta.
    - intros c z Vc. destruct (H _ _ Vc) as [b' Vb']. eexists. split; [exact Vb'|]. now destruct z.
    - intros a l l' Va _ Va'. change (lv s a = Some l') in Va'. congruence.
    - intros c z z' Vc _ Vc'. destruct (H _ _ Vc) as [b' Vb']. rewrite Vb' in Vc'. injection Vc' as <-. reflexivity.
  Qed.

  Lemma put_edge_attl : forall s t x, WF s -> tr s t = Some x -> x_kind x <> TT -> attl s (put_edge s t x).
  Proof.
    intros s t x W V K. destruct (put_edge_spec _ _ _ W V) as [W2 [H1 [H2 _]]]. constructor; auto.
    - now apply put_edge_look.
    - now rewrite H2.
    - intros c z Vc. exists (x_attached z). unfold tr in *. rewrite H2, Vc. now destruct z.
  Qed.

  Lemma tr_join_safe : forall s t x b, WF s -> tr s t = Some x -> x_kind x <> TT ->
    safe attl s (tr_join N b t) (fun _ s' => b = true).
  Proof.
    intros s t x b W V K. unfold tr_join. destruct b.
    - unfold safe. rewrite (tr_add_eq _ _ _ W V). cbn [fst snd]. destruct (tr_joined_spec s t x W V) as [W' _].
      split; auto. split; [|destruct (x_subs x); auto; discriminate].
      destruct (WF_upd_tr _ s t (tr_set_attached true) W) as [W1 X1]; [intros; repeat split|].
      eapply attl_po; [apply (tr_upd_attl _ _ _ true V)|]. apply put_edge_attl; auto. rewrite tr_upd_tr, Nat.eqb_refl, V; reflexivity.
    - unfold safe, bind, modify, raise. cbn [fst snd].
      destruct (WF_upd_tr _ s t (tr_set_attached false) W) as [W1 X1]; [intros; repeat split|].
      split; auto. split; [eapply tr_upd_attl; eauto|discriminate].
  Qed.

  (** What listing the subtransitions of [x] for the first time gives. *)
  Definition listed s t x s' : Prop :=
    exists s1 l1 l2 x' b, lookl s s1 /\ WF s1 /\ lv s1 (x_E1 x) = Some l1 /\ lv s1 (x_E2 x) = Some l2 /\
      full s1 (x_E1 x) l1 /\ full s1 (x_E2 x) l2 /\ tr s1 t = Some x /\ x_kind x <> TZ /\
      tr s' t = Some x' /\ x' = tr_set_subs (fill s1 t x (List.length (s_trans s1)) (sub_pairs s1 x l1 l2) []) (tr_set_attached b x) /\
      (forall i ab, nth_error (sub_pairs s1 x l1 l2) i = Some ab ->
         exists y b, sub_rec s1 t x ab = Some y /\ tr s' (List.length (s_trans s1) + i) = Some (tr_set_attached b y)) /\
      look s1 s'.

  Lemma lazy_sub_safe : forall s t x, WF s -> tr s t = Some x ->
    safe look s (lazy_subtransitions N muB t) (fun _ s' => (x_subs x <> [] -> s' = s) /\ (x_subs x = [] -> listed s t x s')).
  Proof.
    intros s t x W V. unfold lazy_subtransitions. apply (safe_asks _ _ s _ _ _ _ _ V).
    destruct (x_subs x) as [|kc d] eqn:Ex; [|apply (safe_ret _ _ lpo); auto; split; auto; discriminate].
    destruct (wf_tr _ _ W _ _ V) as [m1 [m2 [V1 [V2 [K1 [K2 _]]]]]].
    eapply (safe_bind_w _ _ _ _ _ _ _ lpo (lookl_look N)); [apply (sublevels_safe _ s (x_E1 x) m1); auto|].
    cbv beta. intros bs1 s1 W1 L1 [l1 [Vl1 [S1 [F1 ->]]]].
    assert (D : x_kind x = TZ \/ x_kind x <> TZ) by (destruct (x_kind x); auto; right; discriminate).
    destruct D as [K|K].
    { assert (E1 : l_subs l1 = []) by (eapply full_LZ; eauto; destruct S1 as [-> _]; rewrite K1, K; reflexivity).
      rewrite E1. cbn [dvals map]. unfold safe, bind, raise. cbn [fst snd]. split; auto. split; [apply lpo|discriminate]. }
    destruct (tkind_lk _ K) as [Kz _].
    assert (Hn1 : l_subs l1 <> []) by (apply (full_subs N s1 (x_E1 x) l1); auto; destruct S1 as [-> _]; congruence).
    destruct (dvals (l_subs l1)) as [|v1 vs1] eqn:D1; [destruct (l_subs l1); [congruence|discriminate]|].
    unfold bind at 1. unfold ret at 1.
    destruct (ext_lv _ _ _ (look_ext _ _ _ (proj1 L1)) _ _ V2) as [m2' [V2' S2']].
    eapply (safe_bind_w _ _ _ _ _ _ _ lpo (lookl_look N)); [apply (sublevels_safe _ s1 (x_E2 x) m2'); auto|].
    cbv beta. intros bs2 s2 W2 L2 [l2 [Vl2 [S2 [F2 ->]]]].
    assert (Hn2 : l_subs l2 <> []) by (apply (full_subs N s2 (x_E2 x) l2); auto; destruct S2 as [-> _], S2' as [-> _]; congruence).
    destruct (dvals (l_subs l2)) as [|v2 vs2] eqn:D2; [destruct (l_subs l2); [congruence|discriminate]|].
    unfold bind at 1. unfold ret at 1.
    destruct (look_subs _ s1 s2 (x_E1 x) l1 (proj1 L2) Vl1 Hn1) as [l1' [Vl1' [E1' S1']]].
    assert (V2x : tr s2 t = Some x).
    { destruct L1 as [_ T1], L2 as [_ T2]. rewrite (same_trans_tr _ s1), (same_trans_tr _ s); auto. }
    assert (F1' : full s2 (x_E1 x) l1').
    { apply (full_ext _ s1 s2 (x_E1 x) l1 l1'); auto. apply look_ext, L2. }
    assert (Kl1 : l_kind l1' = lk (x_kind x)) by (destruct S1 as [? _], S1' as [? _]; congruence).
    assert (Kl2 : l_kind l2 = lk (x_kind x)) by (destruct S2 as [? _], S2' as [? _]; congruence).
    destruct (populate_sub_eq s2 t x l1' l2 W2 V2x K Vl1' Vl2 Kl1 Kl2 F1' F2) as [s3 [E3 Mk]].
    pose proof (made_look _ _ _ _ _ V2x Ex Mk) as L3. pose proof (sm_wf _ _ _ _ _ Mk) as W3.
    set (d := fill s2 t x (List.length (s_trans s2)) (sub_pairs s2 x l1' l2) []) in *.
    match goal with |- context [bind (populate_subtransitions N muB t) ?f] =>
      assert (Eq : bind (populate_subtransitions N muB t) f s2 = forM (dvals d) (tr_join N (x_attached x)) s3) end.
    { unfold bind at 1. rewrite E3. unfold bind, get_tr, asks. rewrite (sm_self _ _ _ _ _ Mk).
      cbn [x_subs x_attached tr_set_subs]. rewrite Ex. reflexivity. }
    unfold safe. rewrite Eq.
    assert (J : safe attl s3 (forM (dvals d) (tr_join N (x_attached x))) (fun _ s' => True)).
    { eapply (safe_conseq _); [apply (safe_forM _ _ attl_po _ _ (fun _ => True)); auto|auto].
      intros c s4 Ic W4 L4 _. unfold dvals in Ic. apply in_map_iff in Ic as [[key c'] [Ec Ic]]. simpl in Ec. subst c'.
      destruct (wf_tsubs _ _ W3 _ _ (sm_self _ _ _ _ _ Mk)) as [_ Hs].
      destruct (Hs key c) as [y [lo [up [Ty [_ [Ky _]]]]]]; [cbn; now rewrite Ex|].
      destruct (at_tr _ _ L4 _ _ Ty) as [b Tb]. eapply (safe_conseq _); [apply (tr_join_safe s4 c _ (x_attached x) W4 Tb)|auto].
      cbn [x_kind tr_set_attached]. rewrite Ky. cbn [x_kind tr_set_subs]. destruct (x_kind x); discriminate. }
    destruct J as [J1 [J2 J3]].
    split; auto. split; [eapply lpo; [exact L3|apply J2]|].
    destruct (fst (forM (dvals d) (tr_join N (x_attached x)) s3)); auto.
    split; [congruence|]. intros _.
    destruct (at_tr _ _ J2 _ _ (sm_self _ _ _ _ _ Mk)) as [b Tb].
    exists s2, l1', l2, (tr_set_subs d (tr_set_attached b x)), b.
    split; [eapply llpo; eauto|]. split; auto. split; auto. split; auto. split; auto. split; auto. split; auto. split; auto.
    split; [rewrite Tb, Ex; reflexivity|]. split; [auto|]. split.
    - intros i ab Ei. pose proof (sm_new _ _ _ _ _ Mk i ab Ei) as Hi.
      assert (Pv : pair_valid s2 x ab).
      { pose proof (pairs_valid s2 x l1' l2 W2 K Vl1' Vl2 Kl1 Kl2 F1' F2) as Pvs. eapply Forall_forall; [exact Pvs|]. eapply nth_error_In; eauto. }
      destruct (sub_rec_total s2 t x ab W2 V2x K Pv) as [y [R _]]. rewrite R in Hi.
      destruct (at_tr _ _ J2 _ _ Hi) as [b' Tb']. exists y, b'. auto.
    - eapply lpo; [exact L3|apply J2].
  Qed.

  Lemma lazy_sub_pure : forall s t x, tr s t = Some x -> x_subs x <> [] -> lazy_subtransitions N muB t s = (Ok tt, s).
  Proof.
    intros s t x V H. unfold lazy_subtransitions, bind, get_tr, asks. rewrite V. destruct (x_subs x); [congruence|reflexivity].
  Qed.

  (** *** [t[(a, b)]] *)

  Definition is_tr s t : Prop := exists x, tr s t = Some x.

  Lemma look_tsubs : forall s s' t x, look s s' -> tr s t = Some x -> x_subs x <> [] ->
    exists x', tr s' t = Some x' /\ x_subs x' = x_subs x.
  Proof.
    intros s s' t x L V H. destruct (fr_tr _ _ _ (lo_frame _ _ _ L) _ _ V) as [x' [V' E]]. exists x'. split; auto.
    eapply lo_tsubs; eauto.
  Qed.

  Lemma wf_sub_tr : forall s t x key c, WF s -> tr s t = Some x -> dget key (x_subs x) = Some c -> is_tr s c.
  Proof.
    intros s t x key c W V E. destruct (wf_tsubs _ _ W _ _ V) as [_ H]. apply dget_In in E.
    destruct (H _ _ E) as [y [_ [_ [T _]]]]. exists y. auto.
  Qed.

  Lemma tr_getitem_safe : forall s t x k, WF s -> tr s t = Some x ->
    safe look s (tr_getitem N muB t k) (fun c s' => is_tr s' c /\ forall s2, look s' s2 -> tr_getitem N muB t k s2 = (Ok c, s2)).
  Proof.
    intros s t x k W V. unfold tr_getitem at 1. eapply (safe_bind _ _ lpo); [apply (lazy_sub_safe s t x); auto|].
    cbv beta. intros [] s' W' L' _. destruct (fr_tr _ _ _ (lo_frame _ _ _ L') _ _ V) as [x' [V' _]].
    apply (safe_asks _ _ s' _ _ _ _ _ V').
    assert (St : forall s2, look s' s2 -> x_subs x' <> [] -> exists x2, tr s2 t = Some x2 /\ x_subs x2 = x_subs x' /\
       lazy_subtransitions N muB t s2 = (Ok tt, s2)).
    { intros s2 L2 Hn. destruct (look_tsubs _ _ _ _ L2 V' Hn) as [x2 [V2 E2]]. exists x2. repeat split; auto.
      eapply lazy_sub_pure; eauto. congruence. }
    destruct (dget (snd k, fst k) (x_subs x')) as [c|] eqn:E1.
    - apply (safe_ret _ _ lpo); auto. split; [eapply wf_sub_tr; eauto|]. intros s2 L2.
      destruct (St s2 L2) as [x2 [V2 [E2 P2]]]; [intros En; rewrite En in E1; discriminate|].
      unfold tr_getitem, bind, get_tr, asks. rewrite P2, V2, E2, E1. reflexivity.
    - apply (safe_try_last _ _ lpo); [auto|discriminate|]. intros c E3. split; [eapply wf_sub_tr; eauto|]. intros s2 L2.
      destruct (St s2 L2) as [x2 [V2 [E2 P2]]]; [intros En; rewrite En in E3; discriminate|].
      unfold tr_getitem, bind, get_tr, asks. rewrite P2, V2, E2, E1, E3. reflexivity.
  Qed.

  Lemma subtransitions_safe : forall s t x, WF s -> tr s t = Some x ->
    safe look s (subtransitions N muB t) (fun cs s' => exists x', tr s' t = Some x' /\ cs = dvals (x_subs x') /\
      (x_subs x <> [] -> s' = s) /\ (x_subs x = [] -> listed s t x s')).
  Proof.
    intros s t x W V. unfold subtransitions. eapply (safe_bind _ _ lpo); [apply (lazy_sub_safe s t x); auto|].
    cbv beta. intros [] s' W' L' [H1 H2]. destruct (fr_tr _ _ _ (lo_frame _ _ _ L') _ _ V) as [x' [V' _]].
    apply (safe_asks _ _ s' _ _ _ _ _ V'). apply (safe_ret _ _ lpo); auto. exists x'. auto.
  Qed.
End Safe3.
