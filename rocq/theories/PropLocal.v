(** Property C137: setting a frequency concerns only the levels tied to the
    transition by other set frequencies (atom.py:738-744, 800-802, 847-849 and
    1131-1169). *)
From Coq Require Import List Bool ZArith QArith Qcanon Lia String Ascii Permutation.
From Verif Require Import Base PyStr Util UtilProofs Parse Term TermProofs Num Wigner Hyperfine HyperfineProofs
  Graph GraphProofs DfsProofs Rules Atom AtomInv AtomSafe AtomSafe2 AtomSafe3 AtomSafe4 AtomSafe5 AtomSafe6 AtomLevels AtomEnergy
  AtomEnforce AtomEnforce2 AtomEnforce3 AtomEnforce4 AtomExample PropEnforce.
Import ListNotations.

(** [tied s n m]: a chain of transitions with set frequencies leads from the
    level named [n] to the one named [m]. *)
Inductive tied {N} (s : st N) (n : string) : string -> Prop :=
| tied_here : tied s n n
| tied_next : forall u v t f, tied s n u -> constraint s u v t f -> tied s n v.

(** [under s r a]: the level [a] is [r], or one of its sublevels or of theirs;
    [within s r t]: the same for transitions. *)
Inductive under {N} (s : st N) (r : nat) : nat -> Prop :=
| under_here : under s r r
| under_sub : forall p a l, under s r p -> lv s a = Some l -> l_parent l = Some p -> under s r a.
Inductive within {N} (s : st N) (r : nat) : nat -> Prop :=
| within_here : within s r r
| within_sub : forall p t x, within s r p -> tr s t = Some x -> x_parent x = Some p -> within s r t.

Section Local.
  Context (N : Num) (muB : N).
  Notation st := (st N).
  Notation level := (level N).
  Notation trans := (trans N).
  Notation M := (M N).
  Notation energy := (energy N muB).
  Implicit Types (s : st) (l : level) (x y : trans) (a : nat) (t : nat).

  Lemma tied_reach : forall s n m, WF s -> (tied s n m <-> reach (set_nbrs s) n m).
  Proof.
    intros s n m W. split.
    - induction 1 as [|u v t f T IH C]; [constructor|]. econstructor; [exact IH|]. apply nbr_constraint; eauto.
    - induction 1 as [|w v R IH I]; [constructor|]. apply nbr_constraint in I as [t [f C]]; auto. econstructor; eauto.
  Qed.

  (** Only level objects named in [P] change, and only those warn. *)
  Record away (P : string -> Prop) s s' : Prop := mk_away {
    aw_moved : moved s s';
    aw_lv : forall a l, lv s a = Some l -> (l_kind l = LE -> ~ P (lname l)) -> lv s' a = Some l;
    aw_warn : exists ws, s_warn s' = ws ++ s_warn s /\ forall w, In w ws -> exists u v, w = WLoop u v /\ P u /\ P v
  }.

  Lemma away_refl : forall P s, away P s s.
  Proof. intros. constructor; [apply moved_refl|auto|]. exists []. split; [reflexivity|intros ? []]. Qed.
  Lemma away_trans : forall P s1 s2 s3, away P s1 s2 -> away P s2 s3 -> away P s1 s3.
  Proof.
    intros P s1 s2 s3 A B. constructor.
    - eapply moved_trans; [apply A|apply B].
    - intros a l V H. apply (aw_lv _ _ _ B); auto. apply (aw_lv _ _ _ A); auto.
    - destruct (aw_warn _ _ _ A) as [w1 [E1 H1]], (aw_warn _ _ _ B) as [w2 [E2 H2]]. exists (w2 ++ w1). split.
      + now rewrite E2, E1, app_assoc.
      + intros w I. apply in_app_iff in I as [I|I]; auto.
  Qed.
  Lemma away_tick : forall P s, away P s (tick s).
  Proof. intros. constructor; [apply moved_tick|auto|]. exists []. split; [reflexivity|intros ? []]. Qed.

  Lemma upd_other : forall s a b l (h : level) f, lv s a = Some l -> lv s b = Some h -> lname l <> lname h \/ l_kind l <> l_kind h ->
    lv (upd_lv b f s) a = Some l.
  Proof.
    intros s a b l h f V H D. rewrite lv_upd_lv. destruct (Nat.eqb_spec b a) as [->|]; auto. rewrite V in H. injection H as <-. now destruct D.
  Qed.

  Lemma edge_away : forall (P : string -> Prop) s u v t x f l (h : level), set_edge N s u v t x f l h -> P u -> P v -> away P s (edge_done N u v x f l h s).
  Proof.
    intros P s u v t x f l h [E [V [F [Vl [Vh [Kl [Kh O]]]]]]] Pu Pv. constructor; [apply edge_done_moved| |].
    - intros a k Va H. unfold edge_done.
      assert (Nl : a <> x_lo x). { intros ->. rewrite Vl in Va. injection Va as <-. apply H; auto. destruct O as [[-> _]|[-> _]]; auto. }
      assert (Nh : a <> x_up x). { intros ->. rewrite Vh in Va. injection Va as <-. apply H; auto. destruct O as [[_ ->]|[_ ->]]; auto. }
      rewrite !lv_upd_lv. apply not_eq_sym, Nat.eqb_neq in Nl. apply not_eq_sym, Nat.eqb_neq in Nh. rewrite Nl, Nh.
      destruct (_ && _); [exact Va|]. destruct (l_fixed h); rewrite lv_upd_lv, ?Nl, ?Nh; exact Va.
    - unfold edge_done. cbn [s_warn upd_lv]. destruct (_ && _).
      + exists [WLoop u v]. split; [reflexivity|]. intros w [<-|[]]. eauto.
      + exists []. split; [now destruct (l_fixed h)|intros ? []].
  Qed.

  Lemma edges_away : forall (P : string -> Prop) es s, WF s -> (forall u v, In (u, v) es -> In v (set_nbrs s u) /\ P u /\ P v) ->
    away P s (snd (forM es (enforce_edge N) s)).
  Proof.
    intros P. induction es as [|[u v] es IH]; intros s W H; [apply away_refl|].
    destruct (H u v (or_introl eq_refl)) as [Hn [Pu Pv]]. destruct (set_edge_of N s u v W Hn) as [t [x [f [l [h E]]]]].
    cbn [forM]. unfold bind. rewrite (enforce_edge_eq N _ _ _ _ _ _ _ _ E).
    pose proof (edge_done_moved N u v x f l h s) as Mv. eapply away_trans; [eapply edge_away; eauto|].
    apply IH; [eapply moved_WF; eauto|]. intros u' v' I. rewrite (set_nbrs_moved N _ _ u' Mv). apply H. simpl. auto.
  Qed.

  Lemma comp_away : forall (P : string -> Prop) o s c, oracle_ok o -> WF s -> incl c (set_nodes s) ->
    (forall w z, In w c -> reach (set_nbrs s) w z -> P z) ->
    away P s (snd (enforce_comp N muB o (S (List.length (set_nodes s))) c s)).
  Proof.
    intros P o s c O W Ic H. unfold enforce_comp, bind, asks.
    destruct (lowest N muB s (o_nodes o c) None) as [[[a k]|]|] eqn:E; try apply away_refl.
    assert (Ik : In k c).
    { apply lowest_In in E as [I|[? E]]; [|discriminate]. eapply perm_incl; [apply (ok_nodes _ O)|exact I]. }
    destruct (dfs_set N o s k O W (Ic _ Ik)) as [es [vis [Ed [Ed' [G [R He]]]]]]. rewrite Ed'. apply edges_away; auto.
    intros u v I. split; [auto|].
    assert (Ru : reach (set_nbrs s) k u).
    { apply R. destruct (grow_edge _ _ _ _ _ _ G I) as [_ [Iu _]]. exact Iu. }
    split; [exact (H _ _ Ik Ru)|]. apply (H k); auto. eapply reach_step; eauto.
  Qed.

  Lemma enforce_away : forall orc s p q, (forall n, oracle_ok (orc n)) -> WF s ->
    away (reach (set_nbrs s) p) s (snd (enforce N muB orc (Some (p, q)) s)).
  Proof.
    intros orc s p q O W. unfold enforce, bind, gets, modify, asks. cbv beta iota.
    pose proof (moved_tick N s) as Mt. pose proof (moved_WF N _ _ W Mt) as Wt.
    destruct (comps_spec N (tick s) Wt) as [cs [E [C1 [C2 _]]]]. rewrite E.
    eapply away_trans; [apply away_tick|]. change (set_nbrs s) with (set_nbrs (tick s)).
    change (fun (c : list string) (s0 : st) => _) with (comp_step N muB (orc (s_tick s)) (S (List.length (set_nodes (tick s)))) (Some (p, q))).
    assert (Hc : forall c, In c (o_comps (orc (s_tick s)) cs) -> In c cs).
    { intros c I. eapply Permutation_in; [apply (ok_comps _ (O (s_tick s)))|exact I]. }
    set (n := S (List.length (set_nodes (tick s)))). set (P := reach (set_nbrs (tick s)) p).
    assert (G : forall ds s1, incl ds cs -> moved (tick s) s1 ->
      away P s1 (snd (forM ds (comp_step N muB (orc (s_tick s)) n (Some (p, q))) s1))).
    { induction ds as [|c ds IH]; intros s1 Hd M1; [apply away_refl|]. cbn [forM]. unfold bind. rewrite comp_step_eq.
      pose proof (moved_WF N _ _ Wt M1) as W1.
      assert (A : away P s1 (snd (if touched s1 c (Some (p, q)) then enforce_comp N muB (orc (s_tick s)) n c s1 else (Ok tt, s1)))).
      { destruct (touched s1 c (Some (p, q))) eqn:Tc; [|apply away_refl].
        unfold n. rewrite <- (set_nodes_moved N _ _ M1). apply comp_away; auto.
        - rewrite (set_nodes_moved N _ _ M1). apply C1, Hd. simpl. auto.
        - intros w z Iw R. unfold touched in Tc. apply andb_true_iff in Tc as [Tc _]. apply mem_In in Tc.
          destruct (C1 c (Hd c (or_introl eq_refl))) as [_ [_ [m [_ Hm]]]].
          unfold P. eapply reach_trans; [apply (reach_sym _ (fun u v => set_nbrs_sym N _ u v Wt)), Hm, Tc|].
          eapply reach_trans; [apply Hm, Iw|]. eapply reach_perm; [|exact R]. intros v. rewrite (set_nbrs_moved N _ _ v M1). apply incl_refl. }
      destruct (if touched s1 c (Some (p, q)) then _ else _) as [[[]|e] s2]; cbn [snd] in A; auto.
      eapply away_trans; [exact A|]. apply IH; [intros z I; apply Hd; simpl; auto|]. eapply moved_trans; [exact M1|apply A]. }
    apply G; [exact Hc|apply moved_refl].
  Qed.

  (** Energies of a manifold whose records are kept. *)
  Lemma energy_kept : forall s s' a r lr, WF s -> s_I s' = s_I s -> s_B s' = s_B s -> (forall b lb, lv s b = Some lb -> l_kind lb <> LE -> lv s' b = Some lb) ->
    under s r a -> lv s r = Some lr -> l_kind lr = LE -> lv s' r = Some lr -> lv s' a = lv s a /\ energy s' a = energy s a.
  Proof.
    intros s s' a r lr W EI EB H U Vr Kr Vr'.
    assert (G : lv s' a = lv s a /\ (forall l, lv s a = Some l -> l_kind l = LE -> energyE s' a = energyE s a) /\
      (forall l, lv s a = Some l -> l_kind l = LHF -> energyHF s' a = energyHF s a) /\
      (forall l, lv s a = Some l -> l_kind l = LZ -> energyZ N muB s' a = energyZ N muB s a)).
    { induction U as [|p a l U IH V P].
      - split; [congruence|]. unfold energyE. rewrite Vr, Vr'. split; [auto|]. split; intros l E K; injection E as <-; congruence.
      - destruct IH as [Vp [EE [EH EZ]]]. destruct (l_kind l) eqn:K.
        + exfalso. destruct (wf_lv _ _ W _ _ V) as [_ [[_ [Q _]]|[_ [q [lq [z [_ [_ [_ [_ [Q _]]]]]]]]]]]; [congruence|].
          rewrite K in Q. destruct (l_kind lq); discriminate.
        + assert (V' : lv s' a = Some l) by (apply H; congruence).
          destruct (wf_energyHF _ _ _ _ W V K) as [p' [lp [j [f [P' [Vlp [Kp _]]]]]]]. rewrite P in P'. injection P' as <-.
          split; [congruence|]. split; [intros ? E E'; rewrite V in E; injection E as <-; congruence|]. split; [|intros ? E E'; rewrite V in E; injection E as <-; congruence].
          intros _ _ _. unfold energyHF. rewrite V, V', P, Vp, EI, (EE _ Vlp Kp). reflexivity.
        + assert (V' : lv s' a = Some l) by (apply H; congruence).
          destruct (wf_energyZ N muB _ _ _ W V K) as [p' [lp [m [ep [P' [Vlp [Kp _]]]]]]]. rewrite P in P'. injection P' as <-.
          split; [congruence|]. split; [intros ? E E'; rewrite V in E; injection E as <-; congruence|]. split; [intros ? E E'; rewrite V in E; injection E as <-; congruence|].
          intros _ _ _. unfold energyZ. rewrite V, V', P, EB, (EH _ Vlp Kp). reflexivity. }
    destruct G as [Va [EE [EH EZ]]]. split; auto. unfold energy. rewrite Va. destruct (lv s a) as [l|] eqn:V; auto.
    destruct (l_kind l) eqn:K; eauto.
  Qed.

  (** The call is passed on to the fine-structure transition. *)
  Lemma set_root : forall orc s t x r xr f, WF s -> within s r t -> tr s t = Some x -> tr s r = Some xr -> x_kind xr = TT ->
    exists g, set_frequency N muB orc t f s = set_freqT N muB orc r g s.
  Proof.
    intros orc s t x r xr f W Wi V Vr Kr.
    assert (HF : forall u y w, tr s u = Some y -> x_parent y = Some r -> exists g, set_freqHF N muB orc u w s = set_freqT N muB orc r g s).
    { intros u y w Vu Pu. unfold set_freqHF, bind, get_tr, asks. rewrite Vu. destruct (freq_total N muB s u y W Vu) as [g ->]. rewrite Pu.
      destruct (freq_total N muB s r xr W Vr) as [gr ->]. eauto. }
    unfold set_frequency. unfold bind at 1, get_tr, asks at 1. rewrite V. inversion Wi as [|p ? y Wp V' P]; subst.
    - rewrite Vr in V. injection V as <-. rewrite Kr. eauto.
    - rewrite V in V'. injection V' as <-.
      destruct (wf_tr _ _ W _ _ V) as [l1 [l2 [_ [_ [_ [_ [_ [[_ [Q _]]|[q [xq [Q [Vq [Kq [Kx _]]]]]]]]]]]]]]; [congruence|].
      rewrite P in Q. injection Q as <-. destruct (x_kind xq) eqn:K; [| |congruence]; cbn [sub_tkind] in Kx; rewrite Kx.
      + inversion Wp as [|p' ? y' Wp' V' P']; subst; [eauto|]. exfalso. rewrite Vq in V'. injection V' as <-.
        destruct (wf_tr _ _ W _ _ Vq) as [? [? [_ [_ [_ [_ [_ [[_ [Q _]]|[? [x3 [_ [_ [_ [K3 _]]]]]]]]]]]]]]; [congruence|].
        rewrite K in K3. destruct (x_kind x3); discriminate.
      + assert (Pr : x_parent xq = Some r).
        { inversion Wp as [|p' ? y' Wp' V' P']; subst; [rewrite Vr in Vq; injection Vq as <-; congruence|]. rewrite Vq in V'. injection V' as <-.
          rewrite P'. f_equal. destruct (wf_tr _ _ W _ _ Vq) as [? [? [_ [_ [_ [_ [_ [[_ [Q _]]|[q3 [x3 [Q3 [V3 [_ [K3 _]]]]]]]]]]]]]]; [congruence|].
          rewrite P' in Q3. injection Q3 as <-. rewrite K in K3.
          inversion Wp' as [|p4 ? y4 Wp4 V4 P4]; subst; auto. exfalso. rewrite V3 in V4. injection V4 as <-.
          destruct (wf_tr _ _ W _ _ V3) as [? [? [_ [_ [_ [_ [_ [[K5 [Q5 _]]|[? [x5 [_ [_ [_ [K5 _]]]]]]]]]]]]]]; [congruence|].
          rewrite K5 in K3. destruct (x_kind x5); discriminate. }
        unfold set_freqZ. unfold bind at 1, get_tr, asks at 1. rewrite V. unfold bind at 1, asks at 1.
        destruct (freq_total N muB s t x W V) as [g ->]. unfold bind at 1, asks at 1. rewrite P. unfold bind at 1, asks at 1.
        destruct (freq_total N muB s p xq W Vq) as [gp ->]. eauto.
  Qed.

  Lemma set_freqT_away : forall orc s r x l1 l2 f, (forall n, oracle_ok (orc n)) -> WF s -> tr s r = Some x -> x_kind x = TT ->
    lv s (x_E1 x) = Some l1 -> lv s (x_E2 x) = Some l2 ->
    let s' := snd (set_freqT N muB orc r f s) in
    (forall t, t <> r -> tr s' t = tr s t) /\ tr s' r = Some (tr_set_set (Some f) x) /\
    s_g0 s' = s_g0 s /\ s_g1 s' = s_g1 s /\ s_g2 s' = s_g2 s /\ s_lal s' = s_lal s /\ s_tal s' = s_tal s /\ s_I s' = s_I s /\ s_B s' = s_B s /\
    WF s' /\
    (forall a l, lv s a = Some l -> (l_kind l = LE -> lname l <> lname l1 /\ lname l <> lname l2 /\ ~ tied s' (lname l1) (lname l)) -> lv s' a = Some l) /\
    exists ws, s_warn s' = ws ++ s_warn s /\ forall w, In w ws -> exists u v, w = WLoop u v /\ tied s' (lname l1) u /\ tied s' (lname l1) v.
  Proof.
    intros orc s r x l1 l2 f O W V K V1 V2. remember (set_freqT N muB orc r f s) as z eqn:Ez. intros s'.
    destruct (wf_tr _ _ W _ _ V) as [k1 [k2 [W1 [W2 [K1 [K2 [UL _]]]]]]]. rewrite V1 in W1. rewrite V2 in W2. injection W1 as <-. injection W2 as <-. rewrite K in K1, K2.
    assert (H : exists u l, lv s (x_up x) = Some u /\ lv s (x_lo x) = Some l /\ (lname u = lname l1 \/ lname u = lname l2) /\ l_kind u = LE).
    { destruct UL as [[-> ->]|[-> ->]]; eauto 10. }
    destruct H as [u [l [Vu [Vl [Nu Ku]]]]].
    unfold set_freqT in Ez. unfold bind at 1, get_tr, asks at 1 in Ez. rewrite V in Ez. unfold bind at 1, get_lv, asks at 1 in Ez. rewrite Vu in Ez. unfold bind at 1, asks at 1 in Ez. rewrite Vl in Ez.
    set (c := _ && _ && _) in Ez. unfold bind at 1 in Ez.
    replace ((if c then modify (upd_lv (x_up x) (lv_set_fixed false)) else ret tt) s) with (Ok tt, if c then upd_lv (x_up x) (lv_set_fixed false) s else s) in Ez by (now destruct c).
    set (s1 := if c then upd_lv (x_up x) (lv_set_fixed false) s else s) in *. unfold bind at 1, modify in Ez.
    set (s2 := upd_tr r (tr_set_set (Some f)) s1) in *.
    assert (M1 : moved s s1) by (unfold s1; destruct c; [apply moved_fixed|apply moved_refl]).
    assert (W1 : WF s1) by (eapply moved_WF; eauto).
    assert (W2 : WF s2). { unfold s2. apply WF_upd_tr; auto. intros []. repeat split. }
    assert (L : forall a m, lv s a = Some m -> a <> x_up x -> lv s2 a = Some m).
    { intros a m Va D. change (lv s2 a) with (lv s1 a). unfold s1. destruct c; auto. rewrite lv_upd_lv. apply not_eq_sym, Nat.eqb_neq in D. now rewrite D. }
    assert (E12 : exists m1 m2, lv s2 (x_E1 x) = Some m1 /\ lv s2 (x_E2 x) = Some m2 /\ lname m1 = lname l1 /\ lname m2 = lname l2).
    { destruct (moved_lv N _ _ _ _ M1 V1) as [m1 [Vm1 E1]], (moved_lv N _ _ _ _ M1 V2) as [m2 [Vm2 E2]]. exists m1, m2. rewrite E1, E2 at 2. auto. }
    destruct E12 as [m1 [m2 [Vm1 [Vm2 [En1 En2]]]]].
    unfold bind at 1, asks at 1 in Ez. rewrite Vm1 in Ez. unfold bind at 1, asks at 1 in Ez. rewrite Vm2 in Ez.
    assert (T2 : forall t, tr s2 t = if Nat.eqb r t then option_map (tr_set_set (Some f)) (tr s t) else tr s t).
    { intros t. unfold s2. rewrite tr_upd_tr. unfold tr. rewrite (mv_trans _ _ _ M1). reflexivity. }
    assert (A : away (tied s' (lname l1)) s2 s').
    { unfold s'. rewrite Ez. destruct (l_attached m1); [|apply away_refl]. pose proof (enforce_away orc s2 (lname m1) (lname m2) O W2) as A.
      set (s3 := snd (enforce N muB orc (Some (lname m1, lname m2)) s2)) in *. rewrite <- En1. destruct A as [A1 A2 A3].
      assert (R : forall n, tied s3 (lname m1) n <-> reach (set_nbrs s2) (lname m1) n).
      { intros n. rewrite (tied_reach s3) by (eapply moved_WF; eauto). split; apply reach_perm; intros v; rewrite (set_nbrs_moved N _ _ v A1); apply incl_refl. }
      constructor; auto.
      - intros a m Va Hm. apply A2; auto. intros Km Rm. apply (Hm Km), R, Rm.
      - destruct A3 as [ws [Ew Hw]]. exists ws. split; auto. intros w I. destruct (Hw w I) as [p [q [-> [Hp Hq]]]]. exists p, q. rewrite !R. auto. }
    clearbody s'. destruct A as [A1 A2 A3].
    assert (TT' : forall t, tr s' t = tr s2 t) by (intros t; unfold tr; now rewrite (mv_trans _ _ _ A1)).
    split; [intros t D; rewrite TT', T2; apply not_eq_sym, Nat.eqb_neq in D; now rewrite D|].
    split; [rewrite TT', T2, Nat.eqb_refl, V; reflexivity|].
    split; [rewrite (mv_g0 _ _ _ A1); apply (mv_g0 _ _ _ M1)|]. split; [rewrite (mv_g1 _ _ _ A1); apply (mv_g1 _ _ _ M1)|].
    split; [rewrite (mv_g2 _ _ _ A1); apply (mv_g2 _ _ _ M1)|]. split; [rewrite (mv_lal _ _ _ A1); apply (mv_lal _ _ _ M1)|].
    split; [rewrite (mv_tal _ _ _ A1); apply (mv_tal _ _ _ M1)|]. split; [rewrite (mv_I _ _ _ A1); apply (mv_I _ _ _ M1)|].
    split; [rewrite (mv_B _ _ _ A1); apply (mv_B _ _ _ M1)|]. split; [eapply moved_WF; eauto|]. split.
    - intros a m Va Hm. apply A2; [|intros Km; apply Hm; auto]. apply L; auto. intros ->. rewrite Vu in Va. injection Va as <-.
      destruct (Hm Ku) as [D1 [D2 _]]. destruct Nu; contradiction.
    - destruct A3 as [ws [Ew Hw]]. exists ws. split; auto. rewrite Ew. f_equal. unfold s2, s1. now destruct c.
  Qed.

  (** A closed set of names is not left. *)
  Lemma tied_in : forall s (c : list string) n m, WF s -> forallb (fun u => forallb (fun v => mem v c) (set_nbrs s u)) c = true ->
    In n c -> tied s n m -> In m c.
  Proof.
    intros s c n m W H I T. induction T as [|u v t f T IH C]; auto. rewrite forallb_forall in H. specialize (H u IH).
    rewrite forallb_forall in H. apply mem_In, H. apply nbr_constraint; eauto.
  Qed.
End Local.

(** After setting the frequency of a transition [t] (the fine-structure
    transition [r] or one of its lines), every level that is neither an end of
    [r] nor tied to it by other set frequencies is as it was, with all its
    sublevels; so are all other transitions, and every warning is about levels
    tied to it. *)
Theorem C137_partial : forall (N : Num) (muB : N) orc, (forall n, oracle_ok (orc n)) ->
  forall s t x r xr l1 l2 f, reachable N muB orc s -> tr s t = Some x -> within s r t -> tr s r = Some xr -> x_kind xr = TT ->
  lv s (x_E1 xr) = Some l1 -> lv s (x_E2 xr) = Some l2 ->
  let s' := snd (set_frequency N muB orc t f s) in
  let far b := exists lb, lv s b = Some lb /\ l_kind lb = LE /\ lname lb <> lname l1 /\ lname lb <> lname l2 /\ ~ tied s' (lname l1) (lname lb) in
  (forall b a, far b -> under s b a -> lv s' a = lv s a /\ energy N muB s' a = energy N muB s a) /\
  (forall u, u <> r -> tr s' u = tr s u) /\
  (forall u y b c, tr s u = Some y -> far b -> under s b (x_E1 y) -> far c -> under s c (x_E2 y) -> freq N muB s' u = freq N muB s u) /\
  (exists ws, s_warn s' = ws ++ s_warn s /\ forall w, In w ws -> exists u v, w = WLoop u v /\ tied s' (lname l1) u /\ tied s' (lname l1) v).
Proof.
  intros N muB orc O s t x r xr l1 l2 f R V Wi Vr Kr V1 V2 s' far. pose proof (reachable_WF N muB orc O s R) as W.
  destruct (set_root N muB orc s t x r xr f W Wi V Vr Kr) as [g Eg].
  pose proof (set_freqT_away N muB orc s r xr l1 l2 g O W Vr Kr V1 V2) as A. rewrite <- Eg in A. fold s' in A. clearbody s'. cbv zeta in A.
  destruct A as [T1 [T2 [_ [_ [_ [_ [_ [EI [EB [_ [L Wn]]]]]]]]]]].
  assert (E : forall b a, far b -> under s b a -> lv s' a = lv s a /\ energy N muB s' a = energy N muB s a).
  { intros b a [lb [Vb [Kb [D1 [D2 D3]]]]] U. apply (energy_kept N muB s s' a b lb W); auto. intros c lc Vc Kc. apply L; auto. }
  split; [exact E|]. split; [exact T1|]. split; [|exact Wn].
  intros u y b c Vu Fb Ub Fc Uc. destruct (E b _ Fb Ub) as [_ E1]. destruct (E c _ Fc Uc) as [_ E2]. unfold freq. rewrite Vu.
  assert (Eu : exists y', tr s' u = Some y' /\ x_E1 y' = x_E1 y /\ x_E2 y' = x_E2 y).
  { destruct (Nat.eq_dec u r) as [->|D]; [|exists y; rewrite (T1 u D); auto]. rewrite Vr in Vu. injection Vu as <-. rewrite T2. eexists. split; [reflexivity|]. split; reflexivity. }
  destruct Eu as [y' [-> [-> ->]]]. now rewrite E1, E2.
Qed.
Print Assumptions C137_partial.

(** Two pairs of levels, at 0 and 10, 15 and 20.  The first pair's transition
    was made with the frequency 12, which nothing has enforced yet. *)
Local Open Scope nat_scope.
Definition tD := ex_term "5d" "2D" 3.
Definition pairs : st Exact := runx (from 0) [nl tS 0; add 0; nl tP 10; add 1; nl tQ 15; add 2; nl tD 20; add 3;
  ONewTransition Exact 0 1 (Some (Q2Qc 12)) None None; ONewTransition Exact 2 3 None None None; OSubtransitions Exact 1].
Lemma pairs_reachable : forall os, reachable Exact 1%Qc plain (runx pairs os).
Proof. intros os. apply more_reachable, from_reachable. lia. Qed.
Definition energies (s : st Exact) (as_ : list nat) : list (option Q) := map (fun a => option_map this (energy Exact 1%Qc s a)) as_.

(** The line 2 of the second pair is set 3 higher: the second pair follows, the
    first one stays. *)
Example C137_case :
  let s := pairs in let s' := runx s [OSetFreq Exact 2 (Q2Qc 8)] in
  option_map x_parent (tr s 2) = Some (Some 1) /\ option_map x_kind (tr s 1) = Some TT /\
  option_map (fun x => (x_E1 x, x_E2 x)) (tr s 1) = Some (2, 3) /\
  option_map lname (lv s 1) = Some "6p 2P*1/2"%string /\ ~ tied s' "6p 2P*3/2"%string "6p 2P*1/2"%string /\
  tied s' "6p 2P*3/2"%string "5d 2D3/2"%string /\
  energies s [0; 1; 2; 3] = [Some 0; Some (10 # 1); Some (15 # 1); Some (20 # 1)]%Q /\
  energies s' [0; 1; 2; 3] = [Some 0; Some (10 # 1); Some (15 # 1); Some (23 # 1)]%Q.
Proof.
  cbv zeta. do 4 (split; [vm_compute; reflexivity|]).
  assert (W : WF (runx pairs [OSetFreq Exact 2 (Q2Qc 8)])) by (apply (reachable_WF Exact 1%Qc plain plain_ok), pairs_reachable).
  split; [|split; [|split; vm_compute; reflexivity]].
  - intros T. apply (tied_in Exact _ ["6p 2P*3/2"; "5d 2D3/2"]%string) in T; [|auto|vm_compute; reflexivity|simpl; auto].
    destruct T as [T|[T|[]]]; discriminate.
  - assert (H : mem "5d 2D3/2"%string (set_nbrs (runx pairs [OSetFreq Exact 2 (Q2Qc 8)]) "6p 2P*3/2"%string) = true) by (vm_compute; reflexivity).
    apply (proj2 (tied_reach Exact _ _ _ W)). exact (reach_step _ _ _ _ (reach_refl _ _) (proj1 (mem_In _ _) H)).
Qed.

(** With add_transition it is not so: adding a transition with a frequency
    between the second pair moves the first one too. *)
Theorem C137_add_refuted :
  let s := pairs in let s' := runx s [OAddTransition Exact (TLevels 2 3) (Some (Q2Qc 7)) None None] in
  reachable Exact 1%Qc plain s /\
  option_map lname (lv s 1) = Some "6p 2P*1/2"%string /\ ~ tied s' "6p 2P*3/2"%string "6p 2P*1/2"%string /\ ~ tied s' "5d 2D3/2"%string "6p 2P*1/2"%string /\
  energies s [1] = [Some (10 # 1)]%Q /\ energies s' [1] = [Some (12 # 1)]%Q.
Proof.
  cbv zeta. split; [apply from_reachable; lia|]. split; [vm_compute; reflexivity|].
  assert (W : WF (runx pairs [OAddTransition Exact (TLevels 2 3) (Some (Q2Qc 7)) None None])) by (apply (reachable_WF Exact 1%Qc plain plain_ok), pairs_reachable).
  assert (G : forall n, In n ["6p 2P*3/2"; "5d 2D3/2"]%string -> ~ tied (runx pairs [OAddTransition Exact (TLevels 2 3) (Some (Q2Qc 7)) None None]) n "6p 2P*1/2"%string).
  { intros n I T. apply (tied_in Exact _ ["6p 2P*3/2"; "5d 2D3/2"]%string) in T; [|auto|vm_compute; reflexivity|auto].
    destruct T as [T|[T|[]]]; discriminate. }
  split; [apply G; simpl; auto|]. split; [apply G; simpl; auto|]. split; vm_compute; reflexivity.
Qed.
Print Assumptions C137_add_refuted.
