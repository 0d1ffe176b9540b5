(** Setting frequencies one after the other, and enforcing them all at once. *)
From Coq Require Import List Bool ZArith QArith Qcanon Lia String Ascii Permutation.
From Verif Require Import Base PyStr Util UtilProofs Parse Term TermProofs Num Wigner Hyperfine HyperfineProofs
  Graph GraphProofs DfsProofs Rules Atom AtomInv AtomSafe AtomSafe2 AtomSafe3 AtomSafe4 AtomSafe5 AtomSafe6 AtomKeep AtomPaths AtomTrans AtomEnforce.
Import ListNotations.

Section Enforce2.
  Context (N : Num) (muB : N).
  Notation st := (st N).
  Notation level := (level N).
  Notation trans := (trans N).
  Notation M := (M N).
  Notation energy := (energy N muB).
  Notation held := (held N).
  Notation home := (home N).
  Notation homes := (homes N).
  Notation sat := (sat N).
  Implicit Types (s : st) (l : level) (x y : trans) (a : nat) (t : nat).

  (** Every constrained transition joins levels of the atom, is satisfied, and
      has its levels fixed; no other level of the atom is fixed. *)
  Record consistent s : Prop := mk_consistent {
    cs_homes : homes s;
    cs_held : forall u v, In v (set_nbrs s u) -> held s u v;
    cs_fixed : forall a l, home s a -> lv s a = Some l -> l_fixed l = true -> exists v, In v (set_nbrs s (lname l))
  }.

  Lemma home_fun : forall s a b la lb, home s a -> home s b -> lv s a = Some la -> lv s b = Some lb -> lname la = lname lb -> a = b.
  Proof.
    intros s a b la lb [l1 [V1 D1]] [l2 [V2 D2]] Va Vb E. rewrite Va in V1. injection V1 as <-. rewrite Vb in V2. injection V2 as <-.
    rewrite E, D2 in D1. now injection D1.
  Qed.

  (** The end named [u] of a constrained edge. *)
  Lemma end_at : forall s u v t x f l h, homes s -> set_edge N s u v t x f l h ->
    exists a la, (a = x_lo x /\ la = l \/ a = x_up x /\ la = h) /\ home s a /\ lv s a = Some la /\ lname la = u.
  Proof.
    intros s u v t x f l h H [Ed [V [Fx [Vl [Vh [Kl [Kh O]]]]]]].
    destruct (H u v t x Ed) as [H1 H2]; auto; [unfold is_set; now rewrite V, Fx|].
    destruct O as [[O1 O2]|[O1 O2]]; [exists (x_lo x), l|exists (x_up x), h]; auto 10.
  Qed.

  Lemma node_fixed : forall s a l, consistent s -> home s a -> lv s a = Some l ->
    (l_fixed l = true <-> exists v, In v (set_nbrs s (lname l))).
  Proof.
    intros s a l C H V. split; [now apply (cs_fixed _ C a)|]. intros [v I].
    destruct (cs_held _ C _ _ I) as [t [x [f [l' [h [E [Fl [Fh _]]]]]]]].
    destruct (end_at _ _ _ _ _ _ _ _ (cs_homes _ C) E) as [b [lb [O [Hb [Vb Nb]]]]].
    assert (a = b) by (eapply home_fun; eauto). subst b. rewrite V in Vb. injection Vb as <-. destruct O as [[_ ->]|[_ ->]]; auto.
  Qed.

  (** ** Setting the frequency of one transition *)

  Section SetOne.
    Context (s : st) (W : WF s) (p q : string) (t : nat) (x : trans) (l h : level).
    Context (Ed : edge (s_g0 s) p q = Some t) (V : tr s t = Some x) (Vl : lv s (x_lo x) = Some l) (Vh : lv s (x_up x) = Some h).

    Lemma edge_names : forall u v, edge (s_g0 s) u v = Some t ->
      ((lname l = u /\ lname h = v) \/ (lname l = v /\ lname h = u)) /\ l_kind l = LE /\ l_kind h = LE /\ x_kind x = TT.
    Proof.
      intros u v E. destruct (go_edge _ _ _ _ (wf_g _ _ W LE) _ _ _ E) as [x' [V' [K O]]]. rewrite V in V'. injection V' as <-.
      unfold nm in O. rewrite Vl, Vh in O. cbn [option_map] in O.
      destruct (wf_tr _ _ W _ _ V) as [l1 [l2 [V1 [V2 [K1 [K2 [UL _]]]]]]]. rewrite K in K1, K2.
      assert (l_kind l = LE /\ l_kind h = LE) as [-> ->].
      { destruct UL as [[U L]|[U L]]; rewrite U in Vh; rewrite L in Vl; split; congruence. }
      split; [|split; auto; split; auto; destruct (x_kind x); auto; discriminate].
      destruct O as [[O1 O2]|[O1 O2]]; injection O1 as ->; injection O2 as ->; auto.
    Qed.

    Lemma same_pair : forall u v, edge (s_g0 s) u v = Some t -> (u = p /\ v = q) \/ (u = q /\ v = p).
    Proof.
      intros u v E. destruct (edge_names _ _ E) as [O _]. destruct (edge_names _ _ Ed) as [O' _].
      destruct O as [[O1 O2]|[O1 O2]], O' as [[P1 P2]|[P1 P2]]; subst; auto.
    Qed.

    Context (f : N).
    Let s1 := upd_tr t (tr_set_set (Some f)) s.

    Lemma tr_s1 : forall t', tr s1 t' = if Nat.eqb t t' then Some (tr_set_set (Some f) x) else tr s t'.
    Proof. intros t'. unfold s1. rewrite tr_upd_tr. destruct (Nat.eqb_spec t t') as [<-|]; auto. now rewrite V. Qed.

    Lemma W1 : WF s1.
    Proof. apply WF_upd_tr; auto. intros; repeat split. Qed.

    Lemma set_s1 : forall u v, In v (set_nbrs s1 u) <-> (u = p /\ v = q) \/ (u = q /\ v = p) \/ In v (set_nbrs s u).
    Proof.
      intros u v. rewrite !set_nbrs_In by (auto using W1). change (s_g0 s1) with (s_g0 s). unfold is_set. split.
      - intros [t' [E S]]. rewrite tr_s1 in S. destruct (Nat.eqb_spec t t') as [<-|].
        + destruct (same_pair _ _ E); auto.
        + right. right. eauto.
      - assert (Et : edge (s_g0 s) q p = Some t) by exact (gw_sym _ (go_wf _ _ _ _ (wf_g _ _ W LE)) _ _ _ Ed).
        intros [[-> ->]|[[-> ->]|[t' [E S]]]].
        + exists t. split; auto. now rewrite tr_s1, Nat.eqb_refl.
        + exists t. split; auto. now rewrite tr_s1, Nat.eqb_refl.
        + exists t'. split; auto. rewrite tr_s1. destruct (Nat.eqb t t'); auto.
    Qed.

    Lemma set_edge_s1 : set_edge N s1 p q t (tr_set_set (Some f) x) f l h.
    Proof.
      destruct (edge_names _ _ Ed) as [O [Kl [Kh _]]]. split; [exact Ed|]. split; [now rewrite tr_s1, Nat.eqb_refl|].
      split; [reflexivity|]. split; [exact Vl|]. split; [exact Vh|]. auto.
    Qed.

    Lemma held_s1 : forall u v, held s u v -> (u = p /\ v = q) \/ (u = q /\ v = p) \/ held s1 u v.
    Proof.
      intros u v [t' [x' [f' [l' [h' [[E [V' E']] H]]]]]]. destruct (Nat.eq_dec t' t) as [->|D].
      - destruct (same_pair _ _ E); auto.
      - right. right. exists t', x', f', l', h'. split; auto. split; auto. split; auto. rewrite tr_s1.
        destruct (Nat.eqb_spec t t'); [congruence|auto].
    Qed.

    Lemma homes_s1 : homes s -> home s (x_lo x) -> home s (x_up x) -> homes s1.
    Proof.
      intros H H1 H2 u v t' x' E Is V'. rewrite tr_s1 in V'. unfold is_set in Is. rewrite tr_s1 in Is.
      destruct (Nat.eqb_spec t t') as [<-|D]; [injection V' as <-; split; assumption|].
      exact (H u v t' x' E Is V').
    Qed.
  End SetOne.

  Lemma set_freqT_eq : forall orc s t x f l1 l2, tr s t = Some x -> lv s (x_E1 x) = Some l1 -> lv s (x_E2 x) = Some l2 ->
    (x_set x = None \/ (exists g, x_set x = Some g /\ neqb N g (nofQ N 0) = true)) -> l_attached l1 = true ->
    (exists l h, lv s (x_lo x) = Some l /\ lv s (x_up x) = Some h) ->
    set_freqT N muB orc t f s = enforce N muB orc (Some (lname l1, lname l2)) (upd_tr t (tr_set_set (Some f)) s).
  Proof.
    intros orc s t x f l1 l2 V V1 V2 X At [l [h [Vl Vh]]]. unfold set_freqT, bind, get_tr, get_lv, asks. rewrite V, Vh, Vl.
    assert (Hs : match x_set x with Some g => negb (neqb N g (nofQ N 0)) | None => false end = false).
    { destruct X as [->|[g [-> ->]]]; reflexivity. }
    rewrite Hs. cbn [andb]. unfold ret, modify. cbv beta iota.
    change (lv (upd_tr t (tr_set_set (Some f)) s) (x_E1 x)) with (lv s (x_E1 x)). rewrite V1. cbv beta iota.
    change (lv (upd_tr t (tr_set_set (Some f)) s) (x_E2 x)) with (lv s (x_E2 x)). now rewrite V2, At.
  Qed.

  Definition pair (p q u v : string) : Prop := (u = p /\ v = q) \/ (u = q /\ v = p).

  (** [s1] has one more constraint than [s], at a level that had none. *)
  Lemma add_one : forall orc s s1 p q t x f l h b e from, (forall n, oracle_ok (orc n)) -> consistent s ->
    WF s1 -> homes s1 -> s_levels s1 = s_levels s ->
    (forall m a, dget m (g_nodes (s_g0 s1)) = Some (Some a) -> dget m (g_nodes (s_g0 s)) = Some (Some a)) ->
    set_edge N s1 p q t x f l h -> p <> q -> home s (x_lo x) -> home s (x_up x) ->
    (forall u v, In v (set_nbrs s1 u) <-> pair p q u v \/ In v (set_nbrs s u)) ->
    (forall u v, held s u v -> pair p q u v \/ held s1 u v) ->
    (set_nbrs s (lname h) = [] /\ b = x_up x /\ e = nadd N (l_E l) f /\ sat f (l_E l) e) \/
    (set_nbrs s (lname h) <> [] /\ set_nbrs s (lname l) = [] /\ b = x_lo x /\ e = nsub N (l_E h) f /\ sat f e (l_E h)) ->
    (from = None \/ from = Some (p, q) \/ from = Some (q, p)) ->
    let s' := moved_to N x b e (tick s1) in
    enforce N muB orc from s1 = (Ok tt, s') /\ consistent s' /\
    (forall u v, In v (set_nbrs s' u) <-> pair p q u v \/ In v (set_nbrs s u)).
  Proof.
    intros orc s s1 p q t x f l h b e from OK C W1 Hm1 EL EG E1 Npq Hl Hh S1 Hd1 Cs Fr s'.
    pose proof E1 as [Ed [V [Fx [Vl [Vh [Kl [Kh O]]]]]]].
    assert (LV : forall a, lv s1 a = lv s a) by (intros a; unfold lv; now rewrite EL).
    pose proof Vl as Vl0. pose proof Vh as Vh0. rewrite LV in Vl0, Vh0.
    assert (Rest : forall u v, In v (set_nbrs s1 u) -> (u = p /\ v = q) \/ (u = q /\ v = p) \/ held s1 u v).
    { intros u v I. apply S1 in I as [[I|I]|I]; auto. destruct (Hd1 u v) as [[H|H]|H]; auto. now apply C. }
    assert (Mv : moves N x f l h b e).
    { destruct Cs as [[F [-> [-> S]]]|[Fh [Fl [-> [-> S]]]]].
      - left. repeat (split; auto). destruct (l_fixed h) eqn:Fxh; auto. apply (node_fixed s _ h C Hh Vh0) in Fxh as [v I]. rewrite F in I. contradiction.
      - right. split; auto. split.
        + apply (node_fixed s _ h C Hh Vh0). destruct (set_nbrs s (lname h)) as [|v vs]; [congruence|]. exists v. simpl. auto.
        + split; auto. destruct (l_fixed l) eqn:Fxl; auto. apply (node_fixed s _ l C Hl Vl0) in Fxl as [v I]. rewrite Fl in I. contradiction. }
    assert (Bw : exists w o, nm s1 b = Some w /\ ((w = p /\ o = q) \/ (w = q /\ o = p)) /\ set_nbrs s w = []).
    { unfold nm. destruct Cs as [[F [-> _]]|[Fh [Fl [-> _]]]].
      - rewrite Vh. cbn [option_map]. exists (lname h), (lname l). split; [reflexivity|]. split; [|auto]. destruct O as [[<- <-]|[<- <-]]; auto.
      - rewrite Vl. cbn [option_map]. exists (lname l), (lname h). split; [reflexivity|]. split; [|auto]. destruct O as [[<- <-]|[<- <-]]; auto. }
    destruct Bw as [w [o [Bw [Wo Lf]]]].
    assert (Leaf : forall v, In v (set_nbrs s1 w) -> v = o).
    { intros v I. apply S1 in I as [[[E Ev]|[E Ev]]|I]; [| |rewrite Lf in I; contradiction]; destruct Wo as [[-> ->]|[-> ->]]; congruence. }
    destruct (enforce_new N muB orc s1 p q t _ f l h b e w o from OK W1 Hm1 E1 Npq Mv Bw Wo Leaf Rest Fr) as [R Hd].
    fold s' in R, Hd. split; [exact R|].
    assert (Mm : moved s1 s').
    { eapply moved_trans; [apply moved_tick|apply moved_to_moved]. }
    assert (S' : forall u v, In v (set_nbrs s' u) <-> pair p q u v \/ In v (set_nbrs s u)).
    { intros u v. rewrite (set_nbrs_moved N _ _ u Mm). apply S1. }
    split; auto. constructor.
    - exact (homes_moved N _ _ Mm Hm1).
    - intros u v I. apply Hd. now rewrite (set_nbrs_moved N _ _ u Mm) in I.
    - intros a la [la' [Va Da]] Va' Fxa. rewrite Va in Va'. injection Va' as ->.
      unfold s' in Va. rewrite lv_moved_to in Va. change (lv (tick s1) a) with (lv s1 a) in Va. rewrite LV in Va.
      destruct (lv s a) as [l0|] eqn:V0; [|discriminate]. injection Va as <-. cbn in Fxa.
      change (lname (lv_set_fixed _ (lv_set_E _ l0))) with (lname l0) in *.
      assert (Ha : home s a) by (exists l0; split; auto; rewrite (mv_g0 _ _ _ Mm) in Da; exact (EG _ _ Da)).
      unfold pair in S'. apply orb_true_iff in Fxa as [Fxa|Fxa]; [apply orb_true_iff in Fxa as [Fxa|Fxa]|].
      + destruct (cs_fixed _ C a l0 Ha V0 Fxa) as [v I]. exists v. apply S'. auto.
      + apply Nat.eqb_eq in Fxa. subst a. rewrite Vl0 in V0. injection V0 as <-. destruct O as [[-> O2]|[-> O2]]; [exists q|exists p]; apply S'; auto.
      + apply Nat.eqb_eq in Fxa. subst a. rewrite Vh0 in V0. injection V0 as <-. destruct O as [[O2 ->]|[O2 ->]]; [exists p|exists q]; apply S'; auto.
  Qed.

  Lemma home_attached : forall s a l, WF s -> home s a -> lv s a = Some l -> l_attached l = true.
  Proof.
    intros s a l W [l' [V' D]] V. rewrite V in V'. injection V' as <-.
    destruct (go_node _ _ _ _ (wf_g _ _ W LE) _ _ D) as [l' [V' [_ [_ A]]]]. congruence.
  Qed.

  (** The names of a transition's levels, in the order they were given. *)
  Lemma given_order : forall s p q t x l h, WF s -> edge (s_g0 s) p q = Some t -> tr s t = Some x ->
    lv s (x_lo x) = Some l -> lv s (x_up x) = Some h -> home s (x_lo x) -> home s (x_up x) ->
    exists l1 l2, lv s (x_E1 x) = Some l1 /\ lv s (x_E2 x) = Some l2 /\ l_attached l1 = true /\ pair p q (lname l1) (lname l2).
  Proof.
    intros s p q t x l h W Ed V Vl Vh Hl Hh. destruct (edge_names s W t x l h V Vl Vh p q Ed) as [O [Kl [Kh Kx]]].
    pose proof (wf_tr _ _ W _ _ V) as [l1 [l2 [V1 [V2 [_ [_ [UL _]]]]]]]. exists l1, l2. split; auto. split; auto. split.
    - apply (home_attached s (x_E1 x)); auto. destruct UL as [[U L]|[U L]]; congruence.
    - destruct UL as [[U L]|[U L]]; rewrite U in Vh; rewrite L in Vl; rewrite V1 in *; rewrite V2 in *; injection Vl as <-; injection Vh as <-;
        destruct O as [[<- <-]|[<- <-]]; unfold pair; auto.
  Qed.

  (** Constraining a transition for the first time; [b] moves to [e]. *)
  Lemma set_first : forall orc s p q t x f l h b e, (forall n, oracle_ok (orc n)) -> WF s -> consistent s ->
    edge (s_g0 s) p q = Some t -> p <> q -> tr s t = Some x -> x_set x = None -> lv s (x_lo x) = Some l -> lv s (x_up x) = Some h ->
    home s (x_lo x) -> home s (x_up x) ->
    (set_nbrs s (lname h) = [] /\ b = x_up x /\ e = nadd N (l_E l) f /\ sat f (l_E l) e) \/
    (set_nbrs s (lname h) <> [] /\ set_nbrs s (lname l) = [] /\ b = x_lo x /\ e = nsub N (l_E h) f /\ sat f e (l_E h)) ->
    let s' := moved_to N (tr_set_set (Some f) x) b e (tick (upd_tr t (tr_set_set (Some f)) s)) in
    set_frequency N muB orc t f s = (Ok tt, s') /\ consistent s' /\
    (forall u v, In v (set_nbrs s' u) <-> pair p q u v \/ In v (set_nbrs s u)).
  Proof.
    intros orc s p q t x f l h b e OK W C Ed Npq V X0 Vl Vh Hl Hh Cs s'.
    destruct (edge_names s W t x l h V Vl Vh p q Ed) as [O [Kl [Kh Kx]]].
    destruct (given_order s p q t x l h W Ed V Vl Vh Hl Hh) as [l1 [l2 [V1 [V2 [At Fr]]]]].
    assert (Es : set_frequency N muB orc t f s = enforce N muB orc (Some (lname l1, lname l2)) (upd_tr t (tr_set_set (Some f)) s)).
    { unfold set_frequency. cbv beta. unfold bind at 1, get_tr, asks. rewrite V, Kx. apply (set_freqT_eq orc s t x); eauto. }
    rewrite Es. apply (add_one orc s (upd_tr t (tr_set_set (Some f)) s) p q t (tr_set_set (Some f) x) f l h b e); auto.
    - exact (W1 s W t f).
    - apply (homes_s1 s t x V f); auto. apply C.
    - exact (set_edge_s1 s W p q t x l h Ed V Vl Vh f).
    - intros u v. rewrite (set_s1 s W p q t x l h Ed V Vl Vh f). unfold pair. tauto.
    - intros u v H. destruct (held_s1 s W p q t x l h Ed V Vl Vh f u v H) as [?|[?|?]]; unfold pair; auto.
    - destruct Fr as [[-> ->]|[-> ->]]; auto.
  Qed.

  (** [add_transition] with a frequency, for two levels of the atom. *)
  Lemma add_first : forall orc s a1 a2 l1 l2 f A alias, (forall n, oracle_ok (orc n)) -> WF s -> consistent s ->
    home s a1 -> home s a2 -> lv s a1 = Some l1 -> lv s a2 = Some l2 -> lname l1 <> lname l2 -> ~ In (lname l2) (set_nbrs s (lname l1)) ->
    forall lo up l h b e, (lo, up) = (if nltb N (l_E l1) (l_E l2) then (a1, a2) else (a2, a1)) -> lv s lo = Some l -> lv s up = Some h ->
    (set_nbrs s (lname h) = [] /\ b = up /\ e = nadd N (l_E l) f /\ sat f (l_E l) e) \/
    (set_nbrs s (lname h) <> [] /\ set_nbrs s (lname l) = [] /\ b = lo /\ e = nsub N (l_E h) f /\ sat f e (l_E h)) ->
    let t := List.length (s_trans s) in
    exists x s1, let s' := moved_to N x b e (tick s1) in
    add_transition N muB orc (TLevels a1 a2) (Some f) A alias s = (Ok t, s') /\ tr s' t = Some x /\
    x_lo x = lo /\ x_up x = up /\ x_set x = Some f /\ edge (s_g0 s') (lname l1) (lname l2) = Some t /\
    (forall t', t' <> t -> tr s' t' = tr s t') /\ (forall u v, ~ pair (lname l1) (lname l2) u v -> edge (s_g0 s') u v = edge (s_g0 s) u v) /\
    (forall a, lv s1 a = lv s a) /\ s_warn s' = s_warn s /\ WF s' /\ consistent s' /\
    (forall u v, In v (set_nbrs s' u) <-> pair (lname l1) (lname l2) u v \/ In v (set_nbrs s u)).
  Proof.
    intros orc s a1 a2 l1 l2 f A alias OK W C H1 H2 V1 V2 Npq Nset lo up l h b e ELU Vl Vh Cs t.
    assert (HK : forall a la, home s a -> lv s a = Some la -> l_kind la = LE /\ l_attached la = true).
    { intros a la [la' [Va Da]] Va'. rewrite Va' in Va. injection Va as <-. destruct (go_node _ _ _ _ (wf_g _ _ W LE) _ _ Da) as [la' [Va [K [_ At]]]].
      rewrite Va' in Va. injection Va as <-. auto. }
    destruct (HK a1 l1 H1 V1) as [K1 At1]. destruct (HK a2 l2 H2 V2) as [K2 At2].
    destruct (proj1 (new_transition_spec N muB s a1 a2 (Some f) A alias l1 l2 W V1 V2) K1 K2) as [x [j1 [j2 [J1 [J2 [R [O [Sb New]]]]]]]].
    assert (E1 : energy s a1 = Some (l_E l1)) by (unfold Atom.energy; rewrite V1, K1; now apply wf_energyE).
    assert (E2 : energy s a2 = Some (l_E l2)) by (unfold Atom.energy; rewrite V2, K2; now apply wf_energyE).
    unfold tr_rec in R. rewrite V1, E1, E2 in R. injection R as R.
    assert (At : x_attached x = true) by (rewrite <- R; exact At1). assert (Kx : x_kind x = TT) by now rewrite <- R.
    assert (Fx : x_set x = Some f) by now rewrite <- R. assert (Al : x_alias x = alias) by now rewrite <- R.
    assert (LU : x_lo x = lo /\ x_up x = up) by (rewrite <- R; cbn; revert ELU; destruct (nltb N (l_E l1) (l_E l2)); intros ELU; injection ELU as -> ->; auto).
    destruct LU as [Lx Ux]. clear R.
    pose proof (put_trans_spec N s x W O Sb) as P. destruct (put_tr N s x _ P) as [T1 T2]. fold t in T1, T2.
    assert (Pair : pair (lname l1) (lname l2) (lname l) (lname h) /\ (home s lo /\ home s up)).
    { unfold pair. revert ELU. destruct (nltb N (l_E l1) (l_E l2)); intros ELU; injection ELU as -> ->; [rewrite V1 in Vl; rewrite V2 in Vh|rewrite V2 in Vl; rewrite V1 in Vh]; injection Vl as <-; injection Vh as <-; auto. }
    destruct Pair as [Pair [Hlo Hup]].
    set (s0 := put_trans N s x) in *.
    assert (G0 : s_g0 s0 = g_add_edge (lname l) (lname h) t (s_g0 s)).
    { unfold s0, put_trans. rewrite At. unfold put_edge. fold t.
      change (nm (set_trans (s_trans s ++ [x]) s)) with (nm s). unfold nm. rewrite Lx, Ux, Vl, Vh, Kx. reflexivity. }
    assert (GW : graph_wf (s_g0 s)) by exact (go_wf _ _ _ _ (wf_g _ _ W LE)).
    assert (Eg : forall u v, edge (s_g0 s0) u v = if (String.eqb u (lname l) && String.eqb v (lname h)) || (String.eqb u (lname h) && String.eqb v (lname l)) then Some t else edge (s_g0 s) u v).
    { intros u v. rewrite G0. now apply add_edge_edge. }
    assert (Ep : forall u v, pair (lname l1) (lname l2) u v -> edge (s_g0 s0) u v = Some t).
    { intros u v D. rewrite Eg. replace (_ || _) with true; auto. symmetry. rewrite orb_true_iff, !andb_true_iff, !String.eqb_eq.
      unfold pair in *. destruct D as [[-> ->]|[-> ->]], Pair as [[-> ->]|[-> ->]]; auto. }
    assert (En : forall u v, ~ pair (lname l1) (lname l2) u v -> edge (s_g0 s0) u v = edge (s_g0 s) u v).
    { intros u v D. rewrite Eg. replace (_ || _) with false; auto. symmetry. apply not_true_iff_false. rewrite orb_true_iff, !andb_true_iff, !String.eqb_eq.
      intros Q. apply D. unfold pair in *. destruct Q as [[-> ->]|[-> ->]], Pair as [[-> ->]|[-> ->]]; auto. }
    set (s1 := match alias with Some al => set_tal (dset al t (s_tal s)) s0 | None => s0 end).
    assert (S10 : s_levels s1 = s_levels s0 /\ s_trans s1 = s_trans s0 /\ s_g0 s1 = s_g0 s0 /\ s_warn s1 = s_warn s0).
    { unfold s1. destruct alias; repeat split. }
    destruct S10 as [SL [ST [SG SW]]].
    assert (W1 : WF s1).
    { pose proof (pu_wf _ _ _ _ P) as W0. unfold s1. destruct alias as [al|]; [|exact W0].
      rewrite <- (pu_tal _ _ _ _ P). exact (proj1 (WF_tal _ _ al _ _ W0 T1)). }
    assert (V' : tr s1 t = Some x) by (unfold tr in *; rewrite ST; exact T1).
    assert (Told : forall t', t' <> t -> tr s1 t' = tr s t').
    { intros t' D. unfold tr in *. rewrite ST. destruct (Nat.lt_ge_cases t' t) as [L|L]; [now apply T2|].
      rewrite (pu_tr _ _ _ _ P). rewrite (proj2 (nth_error_None (s_trans s) t')) by exact L. apply nth_error_None. rewrite app_length. cbn. unfold t in *. lia. }
    assert (LV : forall a, lv s1 a = lv s a) by (intros a; unfold lv; now rewrite SL, (pu_lv _ _ _ _ P)).
    assert (New' : add_transition N muB orc (TLevels a1 a2) (Some f) A alias s =
      match enforce N muB orc None s1 with (Ok _, s2) => (Ok t, s2) | (Raise ex, s2) => (Raise ex, s2) end).
    { unfold add_transition, bind at 1. rewrite New. clear New. fold s0.
      assert (Jn : forall s2 : st, WF s2 -> tr s2 t = Some x -> s_g0 s2 = s_g0 s0 -> s_levels s2 = s_levels s -> tr_joined s2 t x = s2).
      { intros s2 W2 V2' G2 L2. unfold tr_joined. assert (Ex : tr_set_attached true x = x) by (clear - At; destruct x; cbn in At; subst; reflexivity).
        rewrite Ex, (upd_tr_id _ _ _ _ _ V2' Ex). unfold put_edge. rewrite Kx. cbn [lk graph_of].
        assert (Hn : nm s2 (x_lo x) = Some (lname l) /\ nm s2 (x_up x) = Some (lname h)).
        { unfold nm, lv. rewrite L2. unfold lv in Vl, Vh. rewrite Lx, Ux, Vl, Vh. auto. }
        destruct Hn as [-> ->]. rewrite add_edge_old; [exact (set_graph_id _ LE s2)|exact (go_wf _ _ _ _ (wf_g _ _ W2 LE))|].
        rewrite G2. apply Ep. unfold pair in *. destruct Pair as [[-> ->]|[-> ->]]; auto. }
      assert (Rest : forall s2 : st, WF s2 -> tr s2 t = Some x -> s_g0 s2 = s_g0 s0 -> s_levels s2 = s_levels s ->
         match alias with Some al => set_tal (dset al t (s_tal s2)) s2 | None => s2 end = s1 ->
         bind (tr_add_to_atom N t) (fun _ => bind (get_tr t) (fun y => bind (match x_alias y with Some al => modify (fun s => set_tal (dset al t (s_tal s)) s) | None => ret tt end)
           (fun _ => bind (match x_set y with Some _ => enforce N muB orc None | None => ret tt end) (fun _ => ret t)))) s2 =
         match enforce N muB orc None s1 with (Ok _, s3) => (Ok t, s3) | (Raise ex, s3) => (Raise ex, s3) end).
      { intros s2 W2 V2' G2 L2 Es. unfold bind at 1. rewrite (tr_add_eq _ _ _ _ W2 V2'), (Jn s2 W2 V2' G2 L2), Sb.
        unfold get_tr. rewrite (bind_asks _ _ _ _ _ x) by auto. rewrite Al, Fx. unfold bind, modify, ret. destruct alias; subst s1; rewrite ?Es; reflexivity. }
      assert (Wp := pu_wf _ _ _ _ P). rewrite At. destruct alias as [al|].
      - apply (Rest s1); auto; [exact (pu_lv _ _ _ _ P)|]. unfold s1. cbn [s_tal set_tal]. rewrite dset_same; [reflexivity|].
        rewrite dget_dset. change keqb with String.eqb. now rewrite String.eqb_refl.
      - apply (Rest s1); auto. exact (pu_lv _ _ _ _ P). }
    assert (Is1 : forall t', is_set s1 t' = true <-> t' = t \/ is_set s t' = true).
    { intros t'. unfold is_set. destruct (Nat.eq_dec t' t) as [->|D]; [rewrite V', Fx; tauto|]. rewrite (Told t' D). tauto. }
    assert (Nt : forall u v, edge (s_g0 s) u v <> Some t).
    { intros u v E. destruct (go_edge _ _ _ _ (wf_g _ _ W LE) _ _ _ E) as [y [Vy _]]. apply tr_lt in Vy. unfold t in Vy. lia. }
    assert (Dp : forall u v, pair (lname l1) (lname l2) u v \/ ~ pair (lname l1) (lname l2) u v).
    { intros u v. unfold pair. destruct (string_dec u (lname l1)), (string_dec v (lname l2)), (string_dec u (lname l2)), (string_dec v (lname l1)); tauto. }
    assert (S1 : forall u v, In v (set_nbrs s1 u) <-> pair (lname l1) (lname l2) u v \/ In v (set_nbrs s u)).
    { intros u v. rewrite !set_nbrs_In by auto. rewrite SG. split.
      - intros [t' [E I]]. destruct (Dp u v) as [D|D]; auto. right. rewrite (En u v D) in E. exists t'. split; auto. apply Is1 in I as [->|I]; auto. now apply Nt in E.
      - intros [D|[t' [E I]]]; [exists t; split; [auto|now apply Is1; left]|]. destruct (Dp u v) as [D|D]; [exists t; split; [auto|now apply Is1; left]|].
        exists t'. rewrite (En u v D). split; auto. apply Is1. auto. }
    assert (Nd : forall m a, dget m (g_nodes (s_g0 s1)) = Some (Some a) <-> dget m (g_nodes (s_g0 s)) = Some (Some a)).
    { intros m a. rewrite SG, G0, add_edge_nodes. destruct (dget m (g_nodes (s_g0 s))) as [[a'|]|] eqn:D; try tauto.
      destruct (_ || _); split; discriminate. }
    assert (Hm1 : homes s1).
    { intros u v t' y E I Vy. assert (Go : forall a, home s a -> home s1 a).
      { intros a [la [Va Da]]. exists la. rewrite LV. split; auto. now apply Nd. }
      destruct (Nat.eq_dec t' t) as [->|D].
      - rewrite V' in Vy. injection Vy as <-. rewrite Lx, Ux. auto.
      - rewrite (Told t' D) in Vy. rewrite SG in E. destruct (Dp u v) as [Dv|Dv]; [rewrite (Ep u v Dv) in E; congruence|]. rewrite (En u v Dv) in E.
        apply Is1 in I as [I|I]; [congruence|]. destruct (cs_homes _ C u v t' y E I Vy). auto. }
    assert (E1' : set_edge N s1 (lname l) (lname h) t x f l h).
    { split; [rewrite SG; apply Ep; auto|]. split; auto. split; auto. rewrite !LV, Lx, Ux. split; auto. split; auto.
      assert (l_kind l = LE /\ l_kind h = LE) as [-> ->] by (split; [apply (HK lo)|apply (HK up)]; auto). auto. }
    assert (Pc : forall u v, pair (lname l) (lname h) u v <-> pair (lname l1) (lname l2) u v).
    { intros u v. unfold pair in *. destruct Pair as [[-> ->]|[-> ->]]; tauto. }
    destruct (add_one orc s s1 (lname l) (lname h) t x f l h b e None OK C W1 Hm1) as [R [C' S']].
    - now rewrite SL, (pu_lv _ _ _ _ P).
    - intros m a. apply Nd.
    - exact E1'.
    - unfold pair in Pair. destruct Pair as [[-> ->]|[-> ->]]; auto.
    - now rewrite Lx.
    - now rewrite Ux.
    - intros u v. now rewrite S1, Pc.
    - intros u v [t' [y [f' [l' [h' [[E [Vy [Fy [Vl' [Vh' Oy]]]]] Hy]]]]]]. rewrite Pc. destruct (Dp u v) as [D|D]; auto. right.
      assert (D' : t' <> t) by (intros ->; now apply Nt in E).
      exists t', y, f', l', h'. split; auto. split; [rewrite SG, (En u v D); auto|]. split; [now rewrite Told|]. split; auto. now rewrite !LV.
    - now rewrite Lx, Ux.
    - auto.
    - exists x, s1. cbv zeta. rewrite New', R. split; [reflexivity|].
      assert (Mm : moved s1 (moved_to N x b e (tick s1))) by (eapply moved_trans; [apply moved_tick|apply moved_to_moved]).
      assert (Tr : forall t', tr (moved_to N x b e (tick s1)) t' = tr s1 t') by (intros; unfold tr; now rewrite (mv_trans _ _ _ Mm)).
      rewrite (mv_g0 _ _ _ Mm), SG. rewrite Tr. split; auto. split; auto. split; auto. split; auto.
      split; [apply Ep; unfold pair; auto|]. split; [intros t' D; rewrite Tr; auto|]. split; [auto|]. split; [exact LV|].
      split; [cbn; rewrite SW; apply P|]. split; [eapply moved_WF; eauto|]. split; [exact C'|]. intros u v. now rewrite S', Pc.
  Qed.
End Enforce2.
