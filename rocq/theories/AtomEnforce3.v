(** Changing a set frequency; enforcing everything at once from scratch. *)
From Coq Require Import List Bool ZArith QArith Qcanon Lia String Ascii Permutation.
From Verif Require Import Base PyStr Util UtilProofs Parse Term TermProofs Num Wigner Hyperfine HyperfineProofs
  Graph GraphProofs DfsProofs Rules Atom AtomInv AtomSafe AtomSafe2 AtomSafe3 AtomSafe4 AtomSafe5 AtomSafe6 AtomEnforce AtomEnforce2.
Import ListNotations.

Section Enforce3.
  Context (N : Num) (muB : N).
  Notation st := (st N).
  Notation level := (level N).
  Notation trans := (trans N).
  Notation M := (M N).
  Notation energy := (energy N muB).
  Notation held := (held N).
  Notation home := (home N).
  Notation homes := (homes N).
  Notation sat := (sat N).
  Notation consistent := (consistent N).
  Implicit Types (s : st) (l : level) (x y : trans) (a : nat) (t : nat).

  (** ** Retuning a transition whose upper level is in no other constraint *)

  Lemma set_again : forall orc s p q t x g f l h, (forall n, oracle_ok (orc n)) -> WF s -> consistent s ->
    edge (s_g0 s) p q = Some t -> p <> q -> tr s t = Some x -> x_set x = Some g -> neqb N g (nofQ N 0) = false ->
    lv s (x_lo x) = Some l -> lv s (x_up x) = Some h -> (forall v, In v (set_nbrs s (lname h)) -> v = lname l) ->
    sat f (l_E l) (nadd N (l_E l) f) ->
    let s1 := upd_tr t (tr_set_set (Some f)) (upd_lv (x_up x) (lv_set_fixed false) s) in
    let s' := moved_to N (tr_set_set (Some f) x) (x_up x) (nadd N (l_E l) f) (tick s1) in
    set_frequency N muB orc t f s = (Ok tt, s') /\ consistent s' /\ (forall u, set_nbrs s' u = set_nbrs s u).
  Proof.
    intros orc s p q t x g f l h OK W C Ed Npq V X0 Gz Vl Vh Leaf Sf s1 s'.
    destruct (edge_names N s W t x l h V Vl Vh p q Ed) as [O [Kl [Kh Kx]]].
    assert (Is : is_set s t = true) by (unfold is_set; now rewrite V, X0).
    assert (Ipq : In q (set_nbrs s p)) by (apply set_nbrs_In; eauto).
    destruct (cs_homes _ _ C p q t x Ed Is V) as [Hl Hh].
    destruct (given_order N s p q t x l h W Ed V Vl Vh Hl Hh) as [l1 [l2 [V1 [V2 [At Fr]]]]].
    assert (Dlh : x_lo x <> x_up x).
    { intros E. rewrite E, Vh in Vl. injection Vl as ->. destruct O as [[? ?]|[? ?]]; congruence. }
    assert (Hld : l_fixed l = true /\ l_fixed h = true).
    { destruct (cs_held _ _ C p q Ipq) as [t' [x' [f' [l' [h' [[E [V' [_ [Vl' [Vh' _]]]]] [Fl [Fh _]]]]]]]].
      rewrite Ed in E. injection E as <-. rewrite V in V'. injection V' as <-. rewrite Vl in Vl'. injection Vl' as <-. rewrite Vh in Vh'. injection Vh' as <-. auto. }
    destruct Hld as [Fl Fh].
    set (s0 := upd_lv (x_up x) (lv_set_fixed false) s) in *.
    assert (M0 : moved s s0) by apply moved_fixed.
    assert (W0 : WF s0) by (eapply moved_WF; eauto).
    assert (Lv0 : forall a, lv s0 a = if Nat.eqb (x_up x) a then option_map (lv_set_fixed false) (lv s a) else lv s a) by (intros a; apply lv_upd_lv).
    set (h0 := lv_set_fixed false h).
    assert (Vh0 : lv s0 (x_up x) = Some h0) by (rewrite Lv0, Nat.eqb_refl, Vh; reflexivity).
    assert (Vl0 : lv s0 (x_lo x) = Some l) by (rewrite Lv0; destruct (Nat.eqb_spec (x_up x) (x_lo x)); [congruence|auto]).
    assert (Ed0 : edge (s_g0 s0) p q = Some t) by exact Ed. assert (V0 : tr s0 t = Some x) by exact V.
    assert (Hm1 : homes s1).
    { apply (homes_s1 N s0 t x V0 f); [exact (homes_moved N _ _ M0 (cs_homes _ _ C))| |].
      - exists l. split; auto. destruct Hl as [l' [E D]]. rewrite Vl in E. injection E as <-. exact D.
      - exists h0. split; auto. destruct Hh as [l' [E D]]. rewrite Vh in E. injection E as <-. exact D. }
    assert (S1 : forall u v, In v (set_nbrs s1 u) <-> In v (set_nbrs s u)).
    { intros u v. unfold s1. rewrite (set_s1 N s0 W0 p q t x l h0 Ed0 V0 Vl0 Vh0 f). rewrite (set_nbrs_moved N _ _ u M0).
      split; [|auto]. intros [[-> ->]|[[-> ->]|I]]; auto. now apply set_nbrs_sym. }
    assert (W1 : WF s1) by exact (W1 N s0 W0 t f).
    assert (Rest : forall u v, In v (set_nbrs s1 u) -> (u = p /\ v = q) \/ (u = q /\ v = p) \/ held s1 u v).
    { intros u v I. apply S1 in I. destruct (cs_held _ _ C u v I) as [t' [x' [f' [l' [h' [E' Hs]]]]]].
      assert (D : (u = p /\ v = q) \/ (u = q /\ v = p) \/ (u <> lname h /\ v <> lname h)).
      { destruct (string_dec u (lname h)) as [->|Hu].
        - apply Leaf in I. subst v. destruct O as [[<- <-]|[<- <-]]; auto.
        - destruct (string_dec v (lname h)) as [->|Hv]; auto. apply set_nbrs_sym in I; auto. apply Leaf in I. subst u. destruct O as [[<- <-]|[<- <-]]; auto. }
      destruct D as [D|[D|[D1 D2]]]; auto.
      destruct (held_s1 N s0 W0 p q t x l h0 Ed0 V0 Vl0 Vh0 f u v) as [H|[H|H]]; auto.
      pose proof E' as [Ed' [V' [Fx' [Vl' [Vh' [Kl' [Kh' O']]]]]]].
      assert (Nl : Nat.eqb (x_up x) (x_lo x') = false).
      { apply Nat.eqb_neq. intros E. rewrite <- E, Vh in Vl'. injection Vl' as <-. destruct O' as [[? ?]|[? ?]]; congruence. }
      assert (Nh : Nat.eqb (x_up x) (x_up x') = false).
      { apply Nat.eqb_neq. intros E. rewrite <- E, Vh in Vh'. injection Vh' as <-. destruct O' as [[? ?]|[? ?]]; congruence. }
      exists t', x', f', l', h'. split; auto. split; [exact Ed'|]. split; [exact V'|]. split; auto. rewrite !Lv0, Nl, Nh. auto. }
    assert (E1 : set_edge N s1 p q t (tr_set_set (Some f) x) f l h0) by exact (set_edge_s1 N s0 W0 p q t x l h0 Ed0 V0 Vl0 Vh0 f).
    assert (Es : set_frequency N muB orc t f s = enforce N muB orc (Some (lname l1, lname l2)) s1).
    { unfold set_frequency. cbv beta. unfold bind at 1, get_tr, asks. rewrite V, Kx.
      unfold set_freqT, bind, get_tr, get_lv, asks. rewrite V, Vh, Vl, X0, Gz, Fl, Fh. cbn [negb andb]. unfold modify. cbv beta iota. fold s0 s1.
      assert (Q : forall a la, lv s a = Some la -> exists la', lv s1 a = Some la' /\ lname la' = lname la /\ l_attached la' = l_attached la).
      { intros a la Va. change (lv s1 a) with (lv s0 a). rewrite Lv0, Va. destruct (Nat.eqb (x_up x) a); eexists; (split; [reflexivity|]); auto. }
      destruct (Q _ _ V1) as [l1' [-> [N1 A1]]]. destruct (Q _ _ V2) as [l2' [-> [N2 _]]]. rewrite A1, At, N1, N2. reflexivity. }
    rewrite Es.
    destruct (enforce_new N muB orc s1 p q t (tr_set_set (Some f) x) f l h0 (x_up x) (nadd N (l_E l) f) (lname h) (lname l) (Some (lname l1, lname l2)) OK W1 Hm1 E1 Npq) as [R Hd]; auto.
    - left. auto.
    - change (nm s1 (x_up x)) with (nm s0 (x_up x)). unfold nm. now rewrite Vh0.
    - destruct O as [[<- <-]|[<- <-]]; auto.
    - intros v I. apply S1 in I. auto.
    - destruct Fr as [[-> ->]|[-> ->]]; auto.
    - fold s' in R, Hd. split; [exact R|].
      assert (Mm : moved s1 s') by (eapply moved_trans; [apply moved_tick|apply moved_to_moved]).
      assert (S' : forall u v, In v (set_nbrs s' u) <-> In v (set_nbrs s u)).
      { intros u v. rewrite (set_nbrs_moved N _ _ u Mm). apply S1. }
      split.
      + constructor.
        * exact (homes_moved N _ _ Mm Hm1).
        * intros u v I. apply Hd. now rewrite (set_nbrs_moved N _ _ u Mm) in I.
        * intros a la [la' [Va Da]] Va' Fxa. rewrite Va in Va'. injection Va' as ->.
          unfold s' in Va. rewrite lv_moved_to in Va. change (lv (tick s1) a) with (lv s0 a) in Va. rewrite Lv0 in Va.
          assert (Ha : exists l0, lv s a = Some l0 /\ lname la = lname l0 /\ (l_fixed l0 = true \/ x_lo x = a \/ x_up x = a)).
          { destruct (lv s a) as [l0|] eqn:E0; [|destruct (Nat.eqb (x_up x) a); discriminate]. exists l0. split; auto.
            destruct (Nat.eqb_spec (x_up x) a); cbn [option_map] in Va; injection Va as <-; split; auto.
            cbn in Fxa. apply orb_true_iff in Fxa as [Fxa|Fxa]; [apply orb_true_iff in Fxa as [Fxa|Fxa]|].
            - auto.
            - right. left. now apply Nat.eqb_eq.
            - right. right. now apply Nat.eqb_eq. }
          destruct Ha as [l0 [E0 [En Cases]]]. rewrite En.
          assert (Hm : home s a) by (exists l0; split; auto; rewrite <- En; rewrite (mv_g0 _ _ _ Mm) in Da; exact Da).
          destruct Cases as [Fx|[<-|<-]].
          -- destruct (cs_fixed _ _ C a l0 Hm E0 Fx) as [v I]. exists v. now apply S'.
          -- rewrite Vl in E0. injection E0 as <-. destruct O as [[-> O2]|[-> O2]]; [exists q|exists p]; apply S'; auto. now apply set_nbrs_sym.
          -- rewrite Vh in E0. injection E0 as <-. destruct O as [[O2 ->]|[O2 ->]]; [exists p|exists q]; apply S'; auto. now apply set_nbrs_sym.
      + intros u. rewrite (set_nbrs_moved N _ _ u Mm). unfold set_nbrs. change (s_g0 s1) with (s_g0 s). f_equal.
        apply filter_ext. intros [v t']. cbn [snd]. unfold is_set, s1. rewrite (tr_s1 N s0 t x V0 f t'). change (tr s0 t') with (tr s t').
        destruct (Nat.eqb_spec t t') as [<-|]; [|reflexivity]. rewrite V. cbn. now rewrite X0.
  Qed.

  (** ** Enforcing from scratch *)

  (** The search tree satisfies its edges when no level is fixed yet. *)
  Definition unfixed s (n : string) : Prop := forall a l, home s a -> lv s a = Some l -> lname l = n -> l_fixed l = false.

  Section Fresh.
    (** [Rel f el eu]: what the edge set to [f] ends up satisfying; [Pe]: a
        property of the energies that moving a level keeps. *)
    Context (Rel : N -> N -> N -> Prop) (Pe : N -> Prop) (nice : N -> Prop)
      (Nice : forall f e, nice f -> Pe e -> (Rel f e (nadd N e f) /\ Pe (nadd N e f)) /\ (Rel f (nsub N e f) e /\ Pe (nsub N e f))).
    Definition all_nice s : Prop := (forall u v t x f, edge (s_g0 s) u v = Some t -> tr s t = Some x -> x_set x = Some f -> nice f) /\
      (forall a l, lv s a = Some l -> Pe (l_E l)).
    (** The constrained edge satisfies [Rel] and its levels are fixed. *)
    Definition heldR s (u v : string) : Prop := exists t x f l h, set_edge N s u v t x f l h /\
      l_fixed l = true /\ l_fixed h = true /\ Rel f (l_E l) (l_E h).
    Lemma heldR_sym : forall s u v, WF s -> heldR s u v -> heldR s v u.
    Proof. intros s u v W [t [x [f [l [h [E H]]]]]]. exists t, x, f, l, h. split; auto. now apply set_edge_sym. Qed.
    (** Which end moves, and where to. *)
    Definition movesR x (f : N) l (h : level) (b : nat) (e : N) : Prop :=
      (b = x_up x /\ l_fixed h = false /\ e = nadd N (l_E l) f /\ Rel f (l_E l) e) \/
      (b = x_lo x /\ l_fixed h = true /\ l_fixed l = false /\ e = nsub N (l_E h) f /\ Rel f e (l_E h)).
    Lemma movesR_done : forall s u v x f l h b e, movesR x f l h b e -> edge_done N u v x f l h s = moved_to N x b e s.
    Proof.
      intros s u v x f l h b e [[-> [Fh [-> _]]]|[-> [Fh [Fl [-> _]]]]]; unfold edge_done, moved_to.
      - rewrite Fh, andb_false_r. reflexivity.
      - rewrite Fl, Fh. reflexivity.
    Qed.
    Lemma newR_held : forall s p q t x f l h b e, set_edge N s p q t x f l h -> p <> q -> movesR x f l h b e -> heldR (moved_to N x b e s) p q.
    Proof.
      intros s p q t x f l h b e E Npq Mv. pose proof E as [Ed [V [Fx [Vl [Vh [Kl [Kh O]]]]]]].
      assert (D : x_lo x <> x_up x).
      { intros Eq. rewrite Eq, Vh in Vl. injection Vl as ->. destruct O as [[? ?]|[? ?]]; congruence. }
      pose proof (lv_moved_to N x b e s (x_lo x)) as L1. pose proof (lv_moved_to N x b e s (x_up x)) as L2.
      rewrite Vl in L1. rewrite Vh in L2. cbn [option_map] in L1, L2. rewrite Nat.eqb_refl, orb_true_r in L1. rewrite Nat.eqb_refl, orb_true_r in L2.
      eexists t, x, f, _, _. split.
      - split; [exact Ed|]. split; [exact V|]. split; [exact Fx|]. split; [exact L1|]. split; [exact L2|]. split; [exact Kl|]. split; [exact Kh|]. exact O.
      - cbn. split; auto. split; auto. destruct Mv as [[-> [_ [-> S]]]|[-> [_ [_ [-> S]]]]].
        + rewrite Nat.eqb_refl. destruct (Nat.eqb_spec (x_up x) (x_lo x)); [congruence|]. exact S.
        + rewrite Nat.eqb_refl. destruct (Nat.eqb_spec (x_lo x) (x_up x)); [congruence|]. exact S.
    Qed.

    Lemma step_fresh : forall s u v, WF s -> homes s -> all_nice s -> In v (set_nbrs s u) -> u <> v -> unfixed s v ->
      exists s', enforce_edge N (u, v) s = (Ok tt, s') /\ moved s s' /\ s_warn s' = s_warn s /\ all_nice s' /\ heldR s' u v /\
        (forall a l, lv s a = Some l -> lname l <> u -> lname l <> v -> lv s' a = Some l) /\
        (forall a l, lv s a = Some l -> home s a -> lname l = u -> l_fixed l = true -> lv s' a = Some l).
    Proof.
      intros s u v W H Nc I D Uf. destruct (set_edge_of N s u v W I) as [t [x [f [l [h E]]]]].
      pose proof E as [Ed [V [Fx [Vl [Vh [Kl [Kh O]]]]]]].
      destruct (H u v t x Ed) as [Hl Hh]; auto; [unfold is_set; now rewrite V, Fx|].
      assert (Nf : l_fixed l = false \/ l_fixed h = false).
      { destruct O as [[O1 O2]|[O1 O2]]; [right; apply (Uf (x_up x)); auto|left; apply (Uf (x_lo x)); auto]. }
      destruct Nc as [Nc Pc].
      destruct (Nice f (l_E l)) as [[S1 P1] _]; [eapply Nc; eauto|eapply Pc; eauto|]. destruct (Nice f (l_E h)) as [_ [S2 P2]]; [eapply Nc; eauto|eapply Pc; eauto|].
      assert (Mv : exists b e, movesR x f l h b e /\ Pe e).
      { destruct (l_fixed h) eqn:Fh.
        - destruct Nf as [Fl|]; [|discriminate]. exists (x_lo x), (nsub N (l_E h) f). split; auto. right. auto.
        - exists (x_up x), (nadd N (l_E l) f). split; auto. left. auto. }
      destruct Mv as [b [e [Mv Pe']]]. exists (moved_to N x b e s).
      assert (Bx : b = x_lo x \/ b = x_up x) by (destruct Mv as [[-> _]|[-> _]]; auto).
      assert (Bw : exists w, nm s b = Some w) by (unfold nm; destruct Bx as [->| ->]; rewrite ?Vl, ?Vh; cbn; eauto). destruct Bw as [w Bw].
      rewrite (enforce_edge_eq N s _ _ _ _ _ _ _ E), (movesR_done _ _ _ _ _ _ _ _ _ Mv).
      split; auto. split; [apply moved_to_moved|]. split; auto. split.
      { split; [exact Nc|]. intros a l0 V0. rewrite lv_moved_to in V0. destruct (lv s a) as [l1|] eqn:V1; [|discriminate]. cbn [option_map] in V0.
        injection V0 as <-. cbn. destruct (Nat.eqb b a); [exact Pe'|eapply Pc; eauto]. }
      split; [eapply newR_held; eauto|].
      assert (Same : forall a l0, lv s a = Some l0 -> b <> a -> (l_fixed l0 = true \/ (x_lo x <> a /\ x_up x <> a)) -> lv (moved_to N x b e s) a = Some l0).
      { intros a l0 V0 Nb Hf. rewrite lv_moved_to, V0. cbn [option_map]. destruct (Nat.eqb_spec b a); [congruence|].
        assert (Eo : l_fixed l0 || Nat.eqb (x_lo x) a || Nat.eqb (x_up x) a = l_fixed l0).
        { destruct Hf as [->|[N1 N2]]; auto. apply Nat.eqb_neq in N1, N2. now rewrite N1, N2, !orb_false_r. }
        rewrite Eo. f_equal. destruct l0; reflexivity. }
      split.
      - intros a l0 V0 Nu Nv. apply Same; auto.
        + intros <-. destruct Bx as [->| ->]; rewrite V0 in *; [injection Vl as ->|injection Vh as ->]; destruct O as [[? ?]|[? ?]]; congruence.
        + right. split; intros <-; rewrite V0 in *; [injection Vl as ->|injection Vh as ->]; destruct O as [[? ?]|[? ?]]; congruence.
      - intros a l0 V0 Ha Nu F0. apply Same; auto. intros <-.
        destruct Mv as [[-> [Fh _]]|[-> [_ [Fl _]]]].
        + rewrite Vh in V0. injection V0 as <-. congruence.
        + rewrite Vl in V0. injection V0 as <-. congruence.
    Qed.

    Definition fixedn s (n : string) : Prop := forall a l, home s a -> lv s a = Some l -> lname l = n -> l_fixed l = true.

    Lemma home_moved : forall s s' a, moved s s' -> home s' a -> home s a.
    Proof.
      intros s s' a Mm [l' [V' D]]. destruct (moved_lv_inv _ _ _ _ _ Mm V') as [l [V E]]. exists l. split; auto.
      rewrite (mv_g0 _ _ _ Mm) in D. now rewrite E in D.
    Qed.
    Lemma home_moved' : forall s s' a, moved s s' -> home s a -> home s' a.
    Proof.
      intros s s' a Mm [l [V D]]. destruct (moved_lv _ _ _ _ _ Mm V) as [l' [V' E]]. exists l'. split; auto.
      rewrite (mv_g0 _ _ _ Mm). rewrite E. exact D.
    Qed.

    Lemma held_fixedn : forall s u v, homes s -> heldR s u v -> fixedn s u.
    Proof.
      intros s u v H [t [x [f [l [h [E [Fl [Fh _]]]]]]]] a la Ha Va Ea.
      destruct (end_at N _ _ _ _ _ _ _ _ H E) as [b [lb [O [Hb [Vb Nb]]]]].
      assert (a = b) by (eapply home_fun; eauto; congruence). subst b. rewrite Va in Vb. injection Vb as <-. destruct O as [[_ ->]|[_ ->]]; auto.
    Qed.

    (** A satisfied edge stays so while its levels are left alone. *)
    Lemma held_keep : forall s s' u v, homes s -> moved s s' -> heldR s u v ->
      (forall a l, lv s a = Some l -> home s a -> lname l = u \/ lname l = v -> lv s' a = Some l) -> heldR s' u v.
    Proof.
      intros s s' u v H Mm [t [x [f [l [h [E Hs]]]]]] Same. pose proof E as [Ed [V [Fx [Vl [Vh [Kl [Kh O]]]]]]].
      destruct (H u v t x Ed) as [Hl Hh]; auto; [unfold is_set; now rewrite V, Fx|].
      exists t, x, f, l, h. split; auto. split; [now rewrite (mv_g0 _ _ _ Mm)|]. split; [unfold tr; now rewrite (mv_trans _ _ _ Mm)|].
      split; auto. split; [apply Same; auto; destruct O as [[? ?]|[? ?]]; auto|].
      split; [apply Same; auto; destruct O as [[? ?]|[? ?]]; auto|auto].
    Qed.

    Lemma unfixed_keep : forall s s' n, moved s s' -> unfixed s n ->
      (forall a l, lv s a = Some l -> home s a -> lname l = n -> lv s' a = Some l) -> unfixed s' n.
    Proof.
      intros s s' n Mm U Same a l' Ha V' En. pose proof (home_moved _ _ _ Mm Ha) as Ha0.
      destruct (moved_lv_inv _ _ _ _ _ Mm V') as [l [V E]]. assert (En0 : lname l = n) by (rewrite E in En; exact En).
      rewrite (Same a l V Ha0 En0) in V'. injection V' as <-. now apply (U a).
    Qed.
    Lemma fixedn_keep : forall s s' n, moved s s' -> fixedn s n ->
      (forall a l, lv s a = Some l -> home s a -> lname l = n -> lv s' a = Some l) -> fixedn s' n.
    Proof.
      intros s s' n Mm U Same a l' Ha V' En. pose proof (home_moved _ _ _ Mm Ha) as Ha0.
      destruct (moved_lv_inv _ _ _ _ _ Mm V') as [l [V E]]. assert (En0 : lname l = n) by (rewrite E in En; exact En).
      rewrite (Same a l V Ha0 En0) in V'. injection V' as <-. now apply (U a).
    Qed.

    Lemma run_fresh : forall next V es V', grow next V es V' -> forall s, WF s -> homes s -> all_nice s ->
      (forall u, set_nbrs s u = next u) -> (forall n, In n V -> fixedn s n) -> (forall n, In n V' -> ~ In n V -> unfixed s n) ->
      exists s', forM es (enforce_edge N) s = (Ok tt, s') /\ moved s s' /\ s_warn s' = s_warn s /\ all_nice s' /\
        (forall u v, In (u, v) es -> heldR s' u v) /\
        (forall a l, lv s a = Some l -> home s a -> In (lname l) V \/ ~ In (lname l) V' -> lv s' a = Some l).
    Proof.
      intros next V es V' G. induction G as [V|V u v es V' Iu Nv Nx G IH]; intros s W H Nc Hn Fx Uf.
      - exists s. split; [reflexivity|]. split; [apply moved_refl|]. split; auto. split; [exact Nc|]. split; [intros ? ? []|auto].
      - assert (Iv' : In v V') by (apply (grow_incl _ _ _ _ G); simpl; auto).
        assert (D : u <> v) by (intros ->; contradiction). rewrite <- Hn in Nx.
        destruct (step_fresh s u v W H Nc Nx D (Uf v Iv' Nv)) as [s1 [E1 [M1 [Wn [Nc1 [Hd [K1 K2]]]]]]].
        pose proof (moved_WF _ _ _ W M1) as W1. pose proof (homes_moved N _ _ M1 H) as H1.
        assert (Keep : forall a l, lv s a = Some l -> home s a -> lname l <> v -> (lname l = u -> l_fixed l = true) -> lv s1 a = Some l).
        { intros a l Va Ha Dv Fu. destruct (string_dec (lname l) u) as [E|E]; auto. }
        destruct (IH s1 W1 H1 Nc1) as [s2 [E2 [M2 [Wn2 [Nc2 [Hd2 K]]]]]].
        + intros w. rewrite <- Hn. now rewrite (set_nbrs_moved N _ _ w M1).
        + intros n [<-|I]; [exact (held_fixedn s1 v u H1 (heldR_sym _ _ _ W1 Hd))|].
          destruct (string_dec n u) as [->|Du]; [exact (held_fixedn s1 u v H1 Hd)|].
          apply (fixedn_keep s s1 n M1 (Fx n I)). intros a l Va Ha El. apply Keep; auto; [intros E; congruence|].
          intros _. apply (Fx n I a); auto.
        + intros n I J. apply (unfixed_keep s s1 n M1); [apply Uf; auto; intros Q; apply J; simpl; auto|].
          intros a l Va Ha El. apply K1; auto; intros E; subst n; apply J; rewrite E; simpl; auto.
        + exists s2. cbn [forM]. unfold bind. rewrite E1. split; auto. split; [eapply moved_trans; eauto|]. split; [congruence|]. split; [exact Nc2|]. split.
          * intros u' v' [E|I]; auto. injection E as <- <-. apply (held_keep s1 s2 u v H1 M2 Hd).
            intros a l Va Ha El. apply K; auto. left. destruct El as [->| ->]; simpl; auto.
          * intros a l Va Ha Hl. assert (El : lv s1 a = Some l).
            { apply Keep; auto.
              - intros E. subst v. destruct Hl; auto.
              - intros E. subst u. apply (Fx _ Iu a); auto. }
            apply K; auto; [eapply home_moved'; eauto|]. destruct Hl; simpl; auto.
    Qed.

    Lemma first_fresh : forall next k es V', grow next [k] es V' -> forall s, WF s -> homes s -> all_nice s ->
      (forall u, set_nbrs s u = next u) -> (forall n, In n V' -> unfixed s n) ->
      exists s', forM es (enforce_edge N) s = (Ok tt, s') /\ moved s s' /\ s_warn s' = s_warn s /\ all_nice s' /\
        (forall u v, In (u, v) es -> heldR s' u v) /\
        (forall a l, lv s a = Some l -> home s a -> ~ In (lname l) V' -> lv s' a = Some l).
    Proof.
      intros next k es V' G s W H Nc Hn Uf. inversion G as [|V u v es' V1 Iu Nv Nx G']; subst.
      - exists s. split; [reflexivity|]. split; [apply moved_refl|]. split; auto. split; [exact Nc|]. split; [intros ? ? []|auto].
      - destruct Iu as [<-|[]]. assert (Iv' : In v V') by (apply (grow_incl _ _ _ _ G'); simpl; auto).
        assert (Ik' : In k V') by (apply (grow_incl _ _ _ _ G'); simpl; auto).
        assert (D : k <> v) by (intros ->; apply Nv; simpl; auto). rewrite <- Hn in Nx.
        destruct (step_fresh s k v W H Nc Nx D (Uf v Iv')) as [s1 [E1 [M1 [Wn [Nc1 [Hd [K1 K2]]]]]]].
        pose proof (moved_WF _ _ _ W M1) as W1. pose proof (homes_moved N _ _ M1 H) as H1.
        destruct (run_fresh next _ _ _ G' s1 W1 H1 Nc1) as [s2 [E2 [M2 [Wn2 [Nc2 [Hd2 K]]]]]].
        + intros w. rewrite <- Hn. now rewrite (set_nbrs_moved N _ _ w M1).
        + intros n [<-|[<-|[]]]; [exact (held_fixedn s1 v k H1 (heldR_sym _ _ _ W1 Hd))|exact (held_fixedn s1 k v H1 Hd)].
        + intros n I J. apply (unfixed_keep s s1 n M1); [now apply Uf|].
          intros a l Va Ha El. apply K1; auto; intros E; subst n; apply J; rewrite E; simpl; auto.
        + exists s2. cbn [forM]. unfold bind. rewrite E1. split; auto. split; [eapply moved_trans; eauto|]. split; [congruence|]. split; [exact Nc2|]. split.
          * intros u' v' [E|I]; auto. injection E as <- <-. apply (held_keep s1 s2 k v H1 M2 Hd).
            intros a l Va Ha El. apply K; auto. left. destruct El as [->| ->]; simpl; auto.
          * intros a l Va Ha Hl. apply K; [apply K1; auto; intros E; apply Hl; now rewrite E|eapply home_moved'; eauto|auto].
    Qed.

    (** The components one after the other. *)
    Definition spanned s (c : list string) : Prop := exists k es vis, grow (set_nbrs s) [k] es vis /\
      (forall w, In w vis <-> In w c) /\ (forall w, In w vis <-> reach (set_nbrs s) k w) /\ (forall u v, In (u, v) es -> heldR s u v).

    Lemma comps_fresh : forall o cs n s, oracle_ok o -> WF s -> homes s -> all_nice s -> n = S (List.length (set_nodes s)) ->
      NoDup cs -> (forall c c' w, In c cs -> In c' cs -> In w c -> In w c' -> c = c') ->
      (forall c, In c cs -> c <> [] /\ incl c (set_nodes s) /\ exists n, In n c /\ forall z, In z c <-> reach (set_nbrs s) n z) ->
      (forall c w, In c cs -> In w c -> unfixed s w) ->
      exists s', forM cs (comp_step N muB o n None) s = (Ok tt, s') /\ moved s s' /\ s_warn s' = s_warn s /\ all_nice s' /\
        (forall c, In c cs -> spanned s' c) /\
        (forall a l, lv s a = Some l -> home s a -> (forall c, In c cs -> ~ In (lname l) c) -> lv s' a = Some l).
    Proof.
      intros o cs n. induction cs as [|c cs IH]; intros s O W H Nc En Nd Dj Hc Uf.
      - exists s. split; [reflexivity|]. split; [apply moved_refl|]. split; auto. split; [exact Nc|]. split; [intros ? []|auto].
      - destruct (Hc c (or_introl eq_refl)) as [C1 [C2 [m [Im Rm]]]]. assert (Nc' : ~ In c cs) by (inversion Nd; auto). assert (Nd' : NoDup cs) by (inversion Nd; auto).
        destruct (enforce_comp_eq N muB o s c O W H C1 C2) as [k [es [vis [Ik [Ec [G Rv]]]]]].
        assert (Vc : forall w, In w vis <-> In w c).
        { intros w. rewrite Rv, Rm. apply Rm in Ik. split; intros R; eapply reach_trans; eauto.
          apply reach_sym; auto. intros u v. now apply set_nbrs_sym. }
        destruct (first_fresh (set_nbrs s) k es vis G s W H Nc (fun u => eq_refl)) as [s1 [E1 [M1 [Wn [Nc1 [Hd K1]]]]]].
        { intros w I. apply (Uf c); [simpl; auto|]. now apply Vc. }
        pose proof (moved_WF _ _ _ W M1) as W1. pose proof (homes_moved N _ _ M1 H) as H1.
        assert (Dc : forall c' w, In c' cs -> In w c' -> ~ In w c).
        { intros c' w Ic' Iw Iw'. apply Nc'. rewrite (Dj c c' w) by (simpl; auto). auto. }
        destruct (IH s1 O W1 H1 Nc1) as [s2 [E2 [M2 [Wn2 [Nc2 [Sp K]]]]]]; auto.
        + now rewrite (set_nodes_moved N _ _ M1).
        + intros c' c2 w I1 I2. apply Dj; simpl; auto.
        + intros c' I. rewrite (set_nodes_moved N _ _ M1). destruct (Hc c' (or_intror I)) as [A1 [A2 [m' [A3 A4]]]].
          split; auto. split; auto. exists m'. split; auto. intros z. rewrite A4.
          split; apply reach_perm; intros v; rewrite (set_nbrs_moved N _ _ v M1); apply incl_refl.
        + intros c' w I1 I2. apply (unfixed_keep s s1 w M1); [apply (Uf c'); simpl; auto|].
          intros a l Va Ha El. apply K1; auto. rewrite Vc, El. eapply Dc; eauto.
        + exists s2. cbn [forM]. unfold bind. rewrite comp_step_eq. cbn [touched]. rewrite En, Ec, E1. rewrite En in E2. split; auto.
          split; [eapply moved_trans; eauto|]. split; [congruence|]. split; [exact Nc2|]. split.
          * intros c' [<-|I]; [|auto]. exists k, es, vis. split; [|split; [exact Vc|split]].
            -- assert (Q : forall u, set_nbrs s2 u = set_nbrs s u) by (intros u; rewrite (set_nbrs_moved N _ _ u M2); apply (set_nbrs_moved N _ _ u M1)).
               clear - G Q. induction G; constructor; auto. now rewrite Q.
            -- intros w. rewrite Rv. split; apply reach_perm; intros z; rewrite (set_nbrs_moved N _ _ z M2), (set_nbrs_moved N _ _ z M1); apply incl_refl.
            -- intros u v I. apply (held_keep s1 s2 u v H1 M2 (Hd u v I)). intros a l Va Ha El. apply K; auto.
               intros c' Ic' J. destruct (grow_edge _ _ _ _ _ _ G I) as [_ [Iu [Iv _]]]. apply Vc in Iu, Iv.
               apply (Dc c' _ Ic' J). destruct El as [->| ->]; auto.
          * intros a l Va Ha Hl. apply K; [apply K1; auto; rewrite Vc; apply Hl; simpl; auto|eapply home_moved'; eauto|].
            intros c' I. apply Hl. simpl. auto.
    Qed.

    (** One call, every level unfixed: no warning, and every component has a
        spanning tree of satisfied constraints. *)
    Lemma enforce_fresh : forall orc s, (forall n, oracle_ok (orc n)) -> WF s -> homes s -> all_nice s ->
      (forall n, In n (set_nodes s) -> unfixed s n) ->
      exists s', enforce N muB orc None s = (Ok tt, s') /\ moved s s' /\ s_warn s' = s_warn s /\ all_nice s' /\
        (forall n, In n (set_nodes s) -> exists c, In n c /\ spanned s' c) /\
        (forall a l, lv s a = Some l -> home s a -> ~ In (lname l) (set_nodes s) -> lv s' a = Some l).
    Proof.
      intros orc s OK W H Nc Uf. pose proof (moved_tick N s) as Mt. pose proof (moved_WF _ _ _ W Mt) as Wt. pose proof (homes_moved N _ _ Mt H) as Ht.
      destruct (comps_spec N (tick s) Wt) as [cs [Ec [C1 [C2 C3]]]].
      assert (P := ok_comps _ (OK (s_tick s)) cs).
      assert (Nd : NoDup cs).
      { apply NoDup_nth_error. intros i j L E. destruct (nth_error cs i) as [c|] eqn:Ei; [|apply nth_error_None in Ei; lia].
        destruct (C1 c (nth_error_In _ _ Ei)) as [_ [_ [m [Im _]]]]. symmetry in E. eapply C3; eauto. }
      assert (Dj : forall c c' w, In c cs -> In c' cs -> In w c -> In w c' -> c = c').
      { intros c c' w I1 I2 J1 J2. apply In_nth_error in I1 as [i I1]. apply In_nth_error in I2 as [j I2].
        assert (i = j) by (eapply C3; eauto). congruence. }
      destruct (comps_fresh (orc (s_tick s)) (o_comps (orc (s_tick s)) cs) (S (List.length (set_nodes (tick s)))) (tick s) (OK _) Wt Ht) as [s' [E [Mm [Wn [Nc1 [Sp K]]]]]]; auto.
      - eapply Permutation_NoDup; [apply Permutation_sym, P|auto].
      - intros c c' w I1 I2. apply Dj; eapply Permutation_in; eauto.
      - intros c I. apply C1. eapply Permutation_in; eauto.
      - intros c w I J. apply (Uf w). destruct (C1 c) as [_ [Q _]]; [eapply Permutation_in; eauto|]. apply Q, J.
      - exists s'. split.
        + unfold enforce, bind, gets, modify. cbv beta iota zeta. unfold asks. rewrite Ec. exact E.
        + split; [eapply moved_trans; eauto|]. split; auto. split; [exact Nc1|]. split.
          * intros n I. destruct (C2 n I) as [c [Ic In_]]. exists c. split; auto. apply Sp. eapply Permutation_in; [apply Permutation_sym, P|auto].
          * intros a l Va Ha Nn. apply K; auto. intros c Ic J. apply Nn. destruct (C1 c) as [_ [Q _]]; [eapply Permutation_in; eauto|]. apply Q, J.
    Qed.
  End Fresh.

End Enforce3.

(** ** Graphs without loops *)

Inductive walk (R : string -> string -> Prop) : string -> string -> Prop :=
| walk_nil : forall a, walk R a a
| walk_cons : forall a b c, R a b -> walk R b c -> walk R a c.

(** No edge can be bypassed. *)
Definition loop_free (R : string -> string -> Prop) : Prop :=
  forall a b, R a b -> ~ walk (fun u v => R u v /\ ~ (u = a /\ v = b) /\ ~ (u = b /\ v = a)) a b.

Lemma walk_imp : forall (R R' : string -> string -> Prop) a b, (forall u v, R u v -> R' u v) -> walk R a b -> walk R' a b.
Proof. intros R R' a b H. induction 1; econstructor; eauto. Qed.
Lemma walk_app : forall R a b c, walk R a b -> walk R b c -> walk R a c.
Proof. induction 1; intros; auto. econstructor; eauto. Qed.
Lemma walk_rev : forall (R : string -> string -> Prop) a b, (forall u v, R u v -> R v u) -> walk R a b -> walk R b a.
Proof. intros R a b S. induction 1; [constructor|]. eapply walk_app; eauto. econstructor; [apply S; eauto|constructor]. Qed.

Lemma grow_walk : forall next (R : string -> string -> Prop) k V es V', grow next V es V' -> (forall u v, In (u, v) es -> R u v) ->
  (forall w, In w V -> walk R k w) -> forall w, In w V' -> walk R k w.
Proof.
  intros next R k V es V' G. induction G as [V|V u v es V' Iu Nv Nx G IH]; intros H HV; auto.
  apply IH; [intros; apply H; simpl; auto|]. intros w [<-|I]; auto. eapply walk_app; [apply HV, Iu|].
  econstructor; [apply H; simpl; auto|constructor].
Qed.

(** A tree that reaches both ends of an edge of a loop-free graph has the edge. *)
Lemma tree_all : forall next (R : string -> string -> Prop) k es vis, grow next [k] es vis -> (forall u v, R u v <-> In v (next u)) -> (forall u v, R u v -> R v u) ->
  loop_free R -> forall a b, R a b -> In a vis -> In b vis -> In (a, b) es \/ In (b, a) es.
Proof.
  intros next R k es vis G Hr Sy Lf a b Rab Ia Ib.
  assert (dec : forall p q : string * string, {p = q} + {p <> q}) by (intros; decide equality; apply string_dec).
  destruct (in_dec dec (a, b) es) as [|N1]; auto. destruct (in_dec dec (b, a) es) as [|N2]; auto. exfalso.
  set (T := fun u v => R u v /\ ~ (u = a /\ v = b) /\ ~ (u = b /\ v = a)).
  assert (Ts : forall u v, T u v -> T v u) by (intros u v [? [? ?]]; unfold T; split; [auto|tauto]).
  assert (H : forall w, In w vis -> walk T k w).
  { apply (grow_walk next T k _ _ _ G).
    - intros u v I. assert (Ruv : R u v) by (apply Hr; apply (grow_edge next _ _ _ u v G I)). unfold T. split; [exact Ruv|].
      split; intros [E1 E2]; subst; contradiction.
    - intros w [<-|[]]. constructor. }
  apply (Lf a b Rab). eapply walk_app; [apply walk_rev; [exact Ts|apply H, Ia]|apply H, Ib].
Qed.

Section Forest.
  Context (N : Num) (muB : N) (Rel : N -> N -> N -> Prop) (Pe : N -> Prop) (nice : N -> Prop)
    (Nice : forall f e, nice f -> Pe e -> (Rel f e (nadd N e f) /\ Pe (nadd N e f)) /\ (Rel f (nsub N e f) e /\ Pe (nsub N e f))).
  Implicit Types (s : st N).

  (** One call, no level fixed, no loop: every constraint is met. *)
  Lemma enforce_forest : forall orc s, (forall n, oracle_ok (orc n)) -> WF s -> homes N s -> all_nice N Pe nice s ->
    (forall n, In n (set_nodes s) -> unfixed N s n) -> loop_free (fun u v => In v (set_nbrs s u)) ->
    exists s', enforce N muB orc None s = (Ok tt, s') /\ moved s s' /\ s_warn s' = s_warn s /\ all_nice N Pe nice s' /\
      (forall u v, In v (set_nbrs s u) -> heldR N Rel s' u v) /\
      (forall a l, lv s a = Some l -> home N s a -> ~ In (lname l) (set_nodes s) -> lv s' a = Some l).
  Proof.
    intros orc s OK W H Nc Uf Lf. destruct (enforce_fresh N muB Rel Pe nice Nice orc s OK W H Nc Uf) as [s' [E [Mm [Wn [Nc1 [Sp K]]]]]].
    exists s'. split; auto. split; auto. split; auto. split; auto. split; auto. intros u v I.
    assert (Iu : In u (set_nodes s)) by (apply set_nodes_In; eauto).
    destruct (Sp u Iu) as [c [Ic [k [es [vis [G [Hv [Rv Hd]]]]]]]]. apply Hv in Ic.
    pose proof (moved_WF _ _ _ W Mm) as W'. rewrite <- (set_nbrs_moved N _ _ u Mm) in I.
    assert (Iv : In v vis) by (apply Rv; eapply reach_trans; [apply Rv, Ic|econstructor; [constructor|exact I]]).
    destruct (tree_all _ (fun a b => In b (set_nbrs s' a)) k es vis G) with (a := u) (b := v) as [Q|Q]; auto.
    - tauto.
    - intros; now apply set_nbrs_sym.
    - intros a b R Wk. rewrite (set_nbrs_moved N _ _ a Mm) in R. apply (Lf a b R).
      revert Wk. apply walk_imp. intros y z [R1 R2]. split; auto. now rewrite <- (set_nbrs_moved N _ _ y Mm).
    - apply heldR_sym; auto.
  Qed.
End Forest.
