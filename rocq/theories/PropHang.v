(** Property C159: new frequencies on top of frequencies that were enforced
    before (atom.py:1131-1169). *)
From Coq Require Import List Bool ZArith QArith Qcanon Lia String Ascii Permutation Floats.SpecFloat.
From Verif Require Import Base PyStr Util UtilProofs Parse Term TermProofs Num Wigner Hyperfine HyperfineProofs
  Graph GraphProofs DfsProofs Rules Atom AtomInv AtomSafe AtomSafe2 AtomSafe3 AtomSafe4 AtomSafe5 AtomSafe6
  AtomEnforce AtomEnforce2 AtomEnforce3 AtomEnergy AtomExample PropEnforce PropFloat PropRound PropLocal PropOrder PropAnchor.
Import ListNotations.

(** ** The search tree *)

(** What was visited before an edge of the tree. *)
Lemma grow_before : forall next V es V', grow next V es V' -> forall u v, In (u, v) es ->
  exists es1 V1, grow next V es1 V1 /\ In u V1 /\ ~ In v V1.
Proof.
  intros next V es V' G. induction G as [V|V a b es V' Ia Nb Nx G IH]; intros u v I; [destruct I|].
  destruct I as [E|I]; [injection E as <- <-; exists [], V; split; [constructor|auto]|].
  destruct (IH u v I) as [es1 [V1 [G1 [Iu Nv]]]]. exists ((a, b) :: es1), V1. split; [constructor; auto|auto].
Qed.

(** Levels connected to the root by a path inside [F] have their parents in [F],
    when there are no loops. *)
Lemma parents : forall next (R F : string -> string -> Prop) (P : string -> Prop) k es vis, grow next [k] es vis ->
  (forall u v, R u v <-> In v (next u)) -> (forall u v, R u v -> R v u) -> loop_free R ->
  (forall w, P w -> walk (fun u v => R u v /\ P u /\ P v) k w) -> forall u v, In (u, v) es -> P v -> ~ ~ P u.
Proof.
  intros next R F P k es vis G Hr Sy Lf Wk u v I Pv Nu. destruct (grow_before _ _ _ _ G u v I) as [es1 [V1 [G1 [Iu Nv]]]].
  assert (Ruv : R u v) by (apply Hr; apply (grow_edge next _ _ _ u v G I)).
  set (T := fun a b => R a b /\ ~ (a = u /\ b = v) /\ ~ (a = v /\ b = u)).
  assert (Ts : forall a b, T a b -> T b a) by (intros a b [? [? ?]]; unfold T; split; [auto|tauto]).
  assert (W1 : walk T k u).
  { apply (grow_walk next T k [k] es1 V1 G1); auto.
    - intros a b J. destruct (grow_edge next _ _ _ a b G1 J) as [Nx [Ia [Ib _]]]. split; [now apply Hr|]. split; intros [-> ->]; contradiction.
    - intros w [<-|[]]. constructor. }
  assert (W2 : walk T k v).
  { generalize (Wk v Pv). apply walk_imp. intros a b [Rab [Pa Pb]]. split; auto. split; intros [-> ->]; contradiction. }
  apply (Lf u v Ruv). eapply walk_app; [apply walk_rev; [exact Ts|exact W1]|exact W2].
Qed.

Section Hang.
  Context (N : Num) (muB : N) (Pe : N -> Prop) (nice : N -> Prop)
    (Nice : forall f e, nice f -> Pe e -> (sat N f e (nadd N e f) /\ Pe (nadd N e f)) /\ (sat N f (nsub N e f) e /\ Pe (nsub N e f))).
  Notation st := (st N).
  Notation level := (level N).
  Notation trans := (trans N).
  Notation home := (home N).
  Notation homes := (homes N).
  Notation heldS := (heldR N (sat N)).
  Notation all_nice := (all_nice N Pe nice).
  Implicit Types (s : st) (l : level) (x y : trans) (a : nat) (t : nat) (F : string -> Prop).

  (** Edges of the tree: between levels of [F] they are met already, all others
      lead to a level that is not fixed. *)
  Lemma run_mixed : forall F next V es V', grow next V es V' -> forall s, WF s -> homes s -> all_nice s ->
    (forall u, set_nbrs s u = next u) -> (forall n, In n V -> fixedn N s n) ->
    (forall n, In n V' -> ~ In n V -> (F n /\ fixedn N s n) \/ (~ F n /\ unfixed N s n)) ->
    (forall u v, In u V' -> In v V' -> F u -> F v -> In v (next u) -> heldS s u v) ->
    (forall u v, In (u, v) es -> F v -> F u) ->
    exists s', forM es (enforce_edge N) s = (Ok tt, s') /\ moved s s' /\ s_warn s' = s_warn s /\ all_nice s' /\
      (forall u v, In (u, v) es -> heldS s' u v) /\
      (forall a l, lv s a = Some l -> home s a -> In (lname l) V \/ ~ In (lname l) V' \/ F (lname l) -> lv s' a = Some l).
  Proof.
    intros F next V es V' G. induction G as [V|V u v es V' Iu Nv Nx G IH]; intros s W H Nc Hn Fx Uf Met Par.
    - exists s. split; [reflexivity|]. split; [apply moved_refl|]. split; auto. split; [exact Nc|]. split; [intros ? ? []|auto].
    - assert (Iv' : In v V') by (apply (grow_incl _ _ _ _ G); simpl; auto).
      assert (Iu' : In u V') by (apply (grow_incl _ _ _ _ G); simpl; auto).
      assert (D : u <> v) by (intros ->; contradiction).
      assert (Par' : forall p q, In (p, q) es -> F q -> F p) by (intros p q I; apply Par; simpl; auto).
      destruct (Uf v Iv' Nv) as [[Fv Xv]|[Fv Xv]].
      + pose proof (Par u v (or_introl eq_refl) Fv) as Fu. pose proof (Met u v Iu' Iv' Fu Fv Nx) as Hd.
        destruct (IH s W H Nc Hn) as [s2 [E2 [M2 [Wn2 [Nc2 [Hd2 K]]]]]]; auto.
        * intros n [<-|I]; auto.
        * intros n I J. apply Uf; auto. intros Q. apply J. simpl. auto.
        * exists s2. cbn [forM]. unfold bind. rewrite (held_done N s u v Hd). split; auto. split; auto. split; auto. split; auto. split.
          -- intros p q [E|I]; auto. injection E as <- <-. apply (held_keep N (sat N) s s2 u v H M2 Hd).
             intros a l Va Ha [El|El]; apply K; auto; rewrite El; simpl; auto.
          -- intros a l Va Ha Hl. apply K; auto. simpl. tauto.
      + rewrite <- Hn in Nx. destruct (step_fresh N (sat N) Pe nice Nice s u v W H Nc Nx D Xv) as [s1 [E1 [M1 [Wn [Nc1 [Hd [K1 K2]]]]]]].
        pose proof (moved_WF _ _ _ W M1) as W1. pose proof (homes_moved N _ _ M1 H) as H1.
        assert (Keep : forall a l, lv s a = Some l -> home s a -> lname l <> v -> lv s1 a = Some l).
        { intros a l Va Ha Dv. destruct (string_dec (lname l) u) as [E|E]; auto. apply K2; auto. apply (Fx u Iu a); auto. }
        destruct (IH s1 W1 H1 Nc1) as [s2 [E2 [M2 [Wn2 [Nc2 [Hd2 K]]]]]]; auto.
        * intros w. rewrite <- Hn. now rewrite (set_nbrs_moved N _ _ w M1).
        * intros n [<-|I]; [exact (held_fixedn N (sat N) s1 v u H1 (heldR_sym N (sat N) _ _ _ W1 Hd))|].
          apply (fixedn_keep N s s1 n M1 (Fx n I)). intros a l Va Ha El. apply Keep; auto. intros E; congruence.
        * intros n I J. assert (Nn : ~ In n V) by (intros Q; apply J; simpl; auto). assert (Dn : n <> v) by (intros ->; apply J; simpl; auto).
          assert (Kn : forall a l, lv s a = Some l -> home s a -> lname l = n -> lv s1 a = Some l) by (intros a l Va Ha El; apply Keep; auto; congruence).
          destruct (Uf n I Nn) as [[Fn Q]|[Fn Q]]; [left|right]; (split; [exact Fn|]); [now apply (fixedn_keep N s s1 n M1)|now apply (unfixed_keep N s s1 n M1)].
        * intros p q Ip Iq Fp Fq Nq. apply (held_keep N (sat N) s s1 p q H M1 (Met p q Ip Iq Fp Fq Nq)).
          intros a l Va Ha El. apply Keep; auto. intros Q. rewrite Q in El. destruct El as [El|El]; subst; contradiction.
        * exists s2. cbn [forM]. unfold bind. rewrite E1. split; auto. split; [eapply moved_trans; eauto|]. split; [congruence|]. split; [exact Nc2|]. split.
          -- intros u' v' [E|I]; auto. injection E as <- <-. apply (held_keep N (sat N) s1 s2 u v H1 M2 Hd).
             intros a l Va Ha El. apply K; auto. left. destruct El as [->| ->]; simpl; auto.
          -- intros a l Va Ha Hl. assert (El : lv s1 a = Some l).
             { apply Keep; auto. intros E. subst v. destruct Hl as [Q|[Q|Q]]; contradiction. }
             apply K; auto; [eapply home_moved'; eauto|]. simpl. tauto.
  Qed.

  (** A component either has no level of [F], or its lowest level is in [F] and
      connected with all others of [F] inside [F]. *)
  Definition rooted s F (c : list string) : Prop := (forall w, In w c -> ~ F w) \/
    exists a0 l0, home s a0 /\ lv s a0 = Some l0 /\ In (lname l0) c /\ F (lname l0) /\ lowest_of N s a0 l0 c /\
      forall w, In w c -> F w -> walk (fun u v => In v (set_nbrs s u) /\ F u /\ F v) (lname l0) w.

  Lemma comp_mixed : forall F o s c, oracle_ok o -> WF s -> homes s -> all_nice s -> c <> [] -> incl c (set_nodes s) ->
    (exists n, In n c /\ forall z, In z c <-> reach (set_nbrs s) n z) -> loop_free (fun u v => In v (set_nbrs s u)) ->
    (forall w, In w c -> (F w /\ fixedn N s w) \/ (~ F w /\ unfixed N s w)) ->
    (forall u v, In u c -> In v c -> F u -> F v -> In v (set_nbrs s u) -> heldS s u v) -> rooted s F c ->
    exists k es vis s', enforce_comp N muB o (S (List.length (set_nodes s))) c s = (Ok tt, s') /\ grow (set_nbrs s) [k] es vis /\
      (forall w, In w vis <-> In w c) /\ (forall w, In w vis <-> reach (set_nbrs s) k w) /\
      moved s s' /\ s_warn s' = s_warn s /\ all_nice s' /\ (forall u v, In (u, v) es -> heldS s' u v) /\
      (forall a l, lv s a = Some l -> home s a -> ~ In (lname l) c \/ F (lname l) -> lv s' a = Some l).
  Proof.
    intros F o s c O W H Nc C1 C2 [m [Im Rm]] Lf Dec Met Rt.
    assert (Vis : forall k vis, In k c -> (forall w, In w vis <-> reach (set_nbrs s) k w) -> forall w, In w vis <-> In w c).
    { intros k vis Ik Rv w. rewrite Rv, Rm. apply Rm in Ik. split; intros R; eapply reach_trans; eauto.
      apply reach_sym; auto. intros u v. now apply set_nbrs_sym. }
    destruct Rt as [Non|[a0 [l0 [H0 [V0 [I0 [F0 [Lo Wk]]]]]]]].
    - destruct (enforce_comp_eq N muB o s c O W H C1 C2) as [k [es [vis [Ik [Ec [G Rv]]]]]]. pose proof (Vis _ _ Ik Rv) as Vc.
      destruct (first_fresh N (sat N) Pe nice Nice (set_nbrs s) k es vis G s W H Nc (fun u => eq_refl)) as [s1 [E1 [M1 [Wn [Nc1 [Hd K1]]]]]].
      { intros w I. apply Vc in I. destruct (Dec w I) as [[Q _]|[_ Q]]; auto. exfalso. exact (Non w I Q). }
      exists k, es, vis, s1. rewrite Ec. repeat (split; [assumption|]). intros a l Va Ha Q. apply K1; auto. rewrite Vc. intros J. destruct Q as [Q|Q]; auto. exact (Non _ J Q).
    - destruct (enforce_comp_low N muB o s c a0 l0 O W H C2 H0 V0 I0 Lo) as [es [vis [Ec [G Rv]]]]. pose proof (Vis _ _ I0 Rv) as Vc.
      destruct (run_mixed F (set_nbrs s) _ es vis G s W H Nc (fun u => eq_refl)) as [s1 [E1 [M1 [Wn [Nc1 [Hd K1]]]]]].
      + intros n [<-|[]]. destruct (Dec _ I0) as [[_ Q]|[Q _]]; [exact Q|contradiction].
      + intros n I _. apply Dec. now apply Vc.
      + intros u v Iu Iv. apply Vc in Iu, Iv. apply Met; auto.
      + intros u v I Fv. destruct (grow_edge _ _ _ _ _ _ G I) as [_ [Iu [Iv _]]]. apply Vc in Iu, Iv.
        destruct (Dec u Iu) as [[Q _]|[Q _]]; auto. exfalso.
        apply (parents (set_nbrs s) (fun u v => In v (set_nbrs s u)) (fun _ _ => True) (fun w => F w /\ In w c) (lname l0) es vis G) with (u := u) (v := v); auto; try tauto.
        * intros a b. now apply set_nbrs_sym.
        * intros w [Fw Iw]. assert (Cl : forall p q, walk (fun u v => In v (set_nbrs s u) /\ F u /\ F v) p q -> In p c ->
            walk (fun u v => In v (set_nbrs s u) /\ (F u /\ In u c) /\ F v /\ In v c) p q); [|apply Cl; auto].
          clear - Rm. induction 1 as [|p q r [I [Fp Fq]] Wk IH]; intros Ip; [constructor|].
          assert (Iq : In q c) by (apply Rm; eapply reach_trans; [apply Rm, Ip|econstructor; [constructor|exact I]]).
          econstructor; [|apply IH, Iq]. auto.
      + exists (lname l0), es, vis, s1. rewrite Ec. repeat (split; [assumption|]). intros a l Va Ha Q. apply K1; auto. rewrite Vc. tauto.
  Qed.

  Lemma comps_mixed : forall F o cs n s, oracle_ok o -> WF s -> homes s -> all_nice s -> n = S (List.length (set_nodes s)) ->
    NoDup cs -> (forall c c' w, In c cs -> In c' cs -> In w c -> In w c' -> c = c') ->
    (forall c, In c cs -> c <> [] /\ incl c (set_nodes s) /\ exists n, In n c /\ forall z, In z c <-> reach (set_nbrs s) n z) ->
    loop_free (fun u v => In v (set_nbrs s u)) ->
    (forall c w, In c cs -> In w c -> (F w /\ fixedn N s w) \/ (~ F w /\ unfixed N s w)) ->
    (forall c u v, In c cs -> In u c -> In v c -> F u -> F v -> In v (set_nbrs s u) -> heldS s u v) -> (forall c, In c cs -> rooted s F c) ->
    exists s', forM cs (comp_step N muB o n None) s = (Ok tt, s') /\ moved s s' /\ s_warn s' = s_warn s /\ all_nice s' /\
      (forall c, In c cs -> spanned N (sat N) s' c) /\
      (forall a l, lv s a = Some l -> home s a -> (forall c, In c cs -> ~ In (lname l) c) \/ F (lname l) -> lv s' a = Some l).
  Proof.
    intros F o cs n. induction cs as [|c cs IH]; intros s O W H Nc En Nd Dj Hc Lf Dec Met Rt.
    - exists s. split; [reflexivity|]. split; [apply moved_refl|]. split; auto. split; [exact Nc|]. split; [intros ? []|auto].
    - destruct (Hc c (or_introl eq_refl)) as [C1 [C2 C3]]. assert (Nc' : ~ In c cs) by (inversion Nd; auto). assert (Nd' : NoDup cs) by (inversion Nd; auto).
      destruct (comp_mixed F o s c O W H Nc C1 C2 C3 Lf) as [k [es [vis [s1 [Ec [G [Vc [Rv [M1 [Wn [Nc1 [Hd K1]]]]]]]]]]]].
      { intros w I. apply (Dec c); simpl; auto. }
      { intros u v. apply (Met c). simpl. auto. }
      { apply Rt. simpl. auto. }
      pose proof (moved_WF _ _ _ W M1) as W1. pose proof (homes_moved N _ _ M1 H) as H1.
      assert (Dc : forall c' w, In c' cs -> In w c' -> ~ In w c).
      { intros c' w Ic' Iw Iw'. apply Nc'. rewrite (Dj c c' w) by (simpl; auto). auto. }
      assert (Kc : forall c' w, In c' cs -> In w c' -> forall a l, lv s a = Some l -> home s a -> lname l = w -> lv s1 a = Some l).
      { intros c' w Ic' Iw a l Va Ha El. apply K1; auto. left. rewrite El. eapply Dc; eauto. }
      destruct (IH s1 O W1 H1 Nc1) as [s2 [E2 [M2 [Wn2 [Nc2 [Sp K]]]]]]; auto.
      + now rewrite (set_nodes_moved N _ _ M1).
      + intros c' c2 w I1 I2. apply Dj; simpl; auto.
      + intros c' I. rewrite (set_nodes_moved N _ _ M1). destruct (Hc c' (or_intror I)) as [A1 [A2 [m' [A3 A4]]]].
        split; auto. split; auto. exists m'. split; auto. intros z. rewrite A4.
        split; apply reach_perm; intros v; rewrite (set_nbrs_moved N _ _ v M1); apply incl_refl.
      + intros a b R Wk. rewrite (set_nbrs_moved N _ _ a M1) in R. apply (Lf a b R).
        revert Wk. apply walk_imp. intros y z [R1 R2]. split; auto. now rewrite <- (set_nbrs_moved N _ _ y M1).
      + intros c' w I1 I2. destruct (Dec c' w (or_intror I1) I2) as [[Q1 Q2]|[Q1 Q2]]; [left|right]; (split; [exact Q1|]).
        * apply (fixedn_keep N s s1 w M1 Q2). eapply Kc; eauto.
        * apply (unfixed_keep N s s1 w M1 Q2). eapply Kc; eauto.
      + intros c' u v I1 I2 I3 Fu Fv Nx. rewrite (set_nbrs_moved N _ _ u M1) in Nx. apply (held_keep N (sat N) s s1 u v H M1); [apply (Met c'); simpl; auto|].
        intros a l Va Ha [El|El]; [eapply (Kc c' u)|eapply (Kc c' v)]; eauto.
      + intros c' I. destruct (Rt c' (or_intror I)) as [Q|[a0 [l0 [H0 [V0 [I0 [F0 [Lo Wk]]]]]]]]; [left; exact Q|right].
        exists a0, l0. split; [eapply home_moved'; eauto|]. split; [eapply (Kc c'); eauto|]. split; auto. split; auto. split.
        * intros b lb Hb Vb Ib Nb. pose proof (home_moved N _ _ _ M1 Hb) as Hb0. destruct (moved_lv_inv _ _ _ _ _ M1 Vb) as [lq [Vq Eq]].
          assert (El : lname lq = lname lb) by now rewrite Eq. rewrite (Kc c' _ I Ib b lq Vq Hb0 El) in Vb. injection Vb as <-. apply (Lo b); auto.
        * intros w Iw Fw. generalize (Wk w Iw Fw). apply walk_imp. intros u v Q. now rewrite (set_nbrs_moved N _ _ u M1).
      + exists s2. cbn [forM]. unfold bind. rewrite comp_step_eq. cbn [touched]. rewrite En, Ec. rewrite En in E2. split; auto.
        split; [eapply moved_trans; eauto|]. split; [congruence|]. split; [exact Nc2|]. split.
        * intros c' [<-|I]; [|auto]. exists k, es, vis. split; [|split; [exact Vc|split]].
          -- assert (Q : forall u, set_nbrs s2 u = set_nbrs s u) by (intros u; rewrite (set_nbrs_moved N _ _ u M2); apply (set_nbrs_moved N _ _ u M1)).
             clear - G Q. induction G; constructor; auto. now rewrite Q.
          -- intros w. rewrite Rv. split; apply reach_perm; intros z; rewrite (set_nbrs_moved N _ _ z M2), (set_nbrs_moved N _ _ z M1); apply incl_refl.
          -- intros u v I. apply (held_keep N (sat N) s1 s2 u v H1 M2 (Hd u v I)). intros a l Va Ha El. apply K; auto. left.
             intros c' Ic' J. destruct (grow_edge _ _ _ _ _ _ G I) as [_ [Iu [Iv _]]]. apply Vc in Iu, Iv.
             apply (Dc c' _ Ic' J). destruct El as [->| ->]; auto.
        * intros a l Va Ha Hl. apply K; [apply K1; auto|eapply home_moved'; eauto|].
          -- destruct Hl as [Q|Q]; [left; apply Q; simpl; auto|auto].
          -- destruct Hl as [Q|Q]; [left; intros c' I; apply Q; simpl; auto|auto].
  Qed.

  Lemma enforce_mixed : forall F orc s, (forall n, oracle_ok (orc n)) -> WF s -> homes s -> all_nice s ->
    loop_free (fun u v => In v (set_nbrs s u)) ->
    (forall w, In w (set_nodes s) -> (F w /\ fixedn N s w) \/ (~ F w /\ unfixed N s w)) ->
    (forall u v, F u -> F v -> In v (set_nbrs s u) -> heldS s u v) ->
    (forall w, In w (set_nodes s) -> F w -> exists a0 l0, home s a0 /\ lv s a0 = Some l0 /\ F (lname l0) /\
      (forall b lb, home s b -> lv s b = Some lb -> reach (set_nbrs s) (lname l0) (lname lb) -> b <> a0 -> nltb N (l_E l0) (l_E lb) = true /\ nltb N (l_E lb) (l_E l0) = false) /\
      walk (fun u v => In v (set_nbrs s u) /\ F u /\ F v) (lname l0) w) ->
    exists s', enforce N muB orc None s = (Ok tt, s') /\ moved s s' /\ s_warn s' = s_warn s /\ all_nice s' /\
      (forall u v, In v (set_nbrs s u) -> heldS s' u v) /\
      (forall a l, lv s a = Some l -> home s a -> ~ In (lname l) (set_nodes s) \/ F (lname l) -> lv s' a = Some l).
  Proof.
    intros F orc s OK W H Nc Lf Dec Met Rt. pose proof (moved_tick N s) as Mt. pose proof (moved_WF _ _ _ W Mt) as Wt. pose proof (homes_moved N _ _ Mt H) as Ht.
    destruct (comps_spec N (tick s) Wt) as [cs [Ec [C1 [C2 C3]]]].
    assert (P := ok_comps _ (OK (s_tick s)) cs).
    assert (Nd : NoDup cs).
    { apply NoDup_nth_error. intros i j L E. destruct (nth_error cs i) as [c|] eqn:Ei; [|apply nth_error_None in Ei; lia].
      destruct (C1 c (nth_error_In _ _ Ei)) as [_ [_ [m [Im _]]]]. symmetry in E. eapply C3; eauto. }
    assert (Dj : forall c c' w, In c cs -> In c' cs -> In w c -> In w c' -> c = c').
    { intros c c' w I1 I2 J1 J2. apply In_nth_error in I1 as [i I1]. apply In_nth_error in I2 as [j I2].
      assert (i = j) by (eapply C3; eauto). congruence. }
    assert (Back : forall c, In c (o_comps (orc (s_tick s)) cs) -> In c cs) by (intros c I; eapply Permutation_in; eauto).
    destruct (comps_mixed F (orc (s_tick s)) (o_comps (orc (s_tick s)) cs) (S (List.length (set_nodes (tick s)))) (tick s) (OK _) Wt Ht) as [s' [E [Mm [Wn [Nc1 [Sp K]]]]]]; auto.
    - eapply Permutation_NoDup; [apply Permutation_sym, P|auto].
    - intros c c' w I1 I2. apply Dj; auto.
    - intros c w I J. apply (Dec w). destruct (C1 c (Back c I)) as [_ [Q _]]. apply Q, J.
    - intros c u v _ _ _. apply Met.
    - intros c I. apply Back in I. destruct (C1 c I) as [_ [Ic [m [Im Rm]]]].
      assert (Ex : (exists w, In w c /\ F w) \/ (forall w, In w c -> ~ F w)).
      { assert (Dc : forall w, In w c -> F w \/ ~ F w) by (intros w J; destruct (Dec w (Ic w J)) as [[Q _]|[Q _]]; auto).
        clear - Dc. induction c as [|w c IH]; [right; intros ? []|]. destruct (Dc w (or_introl eq_refl)) as [Q|Q]; [left; exists w; simpl; auto|].
        destruct IH as [[z [J Fz]]|Q']; [intros; apply Dc; simpl; auto|left; exists z; simpl; auto|right; intros z [<-|J]; auto]. }
      destruct Ex as [[w [Iw Fw]]|Q]; [|left; exact Q]. right. destruct (Rt w (Ic w Iw) Fw) as [a0 [l0 [H0 [V0 [F0 [Lo Wk]]]]]].
      assert (Up : forall p q, walk (fun u v => In v (set_nbrs s u) /\ F u /\ F v) p q -> reach (set_nbrs s) p q).
      { induction 1 as [|p q r [I' _] _ IH]; [constructor|]. eapply reach_trans; [econstructor; [constructor|exact I']|exact IH]. }
      assert (Sy : forall p q, reach (set_nbrs s) p q -> reach (set_nbrs s) q p) by (intros p q; apply reach_sym; intros u v; now apply set_nbrs_sym).
      assert (R0 : forall z, In z c <-> reach (set_nbrs s) (lname l0) z).
      { intros z. rewrite Rm. apply Rm in Iw. change (set_nbrs (tick s)) with (set_nbrs s) in *. split; intros R.
        - eapply reach_trans; [apply Up, Wk|]. eapply reach_trans; [apply Sy, Iw|exact R].
        - eapply reach_trans; [exact Iw|]. eapply reach_trans; [apply Sy, Up, Wk|exact R]. }
      assert (I0 : In (lname l0) c) by (apply R0; constructor).
      exists a0, l0. split; [exact H0|]. split; [exact V0|]. split; auto. split; auto. split.
      + intros b lb Hb Vb Ib Nb. apply (Lo b lb Hb Vb); auto. now apply R0.
      + intros z Iz Fz. destruct (Rt z (Ic z Iz) Fz) as [a1 [l1 [H1 [V1 [F1 [Lo1 Wk1]]]]]].
        assert (a1 = a0).
        { destruct (Nat.eq_dec a1 a0) as [|Na]; auto. exfalso.
          assert (R1 : reach (set_nbrs s) (lname l0) (lname l1)) by (eapply reach_trans; [apply R0, Iz|apply Sy, Up, Wk1]).
          destruct (Lo a1 l1 H1 V1 R1 Na) as [Q1 _]. destruct (Lo1 a0 l0 H0 V0 (Sy _ _ R1) (fun Q => Na (eq_sym Q))) as [_ Q2]. congruence. }
        subst a1. rewrite V0 in V1. injection V1 as <-. exact Wk1.
    - exists s'. split; [unfold enforce, bind, gets, modify; cbv beta iota zeta; unfold asks; rewrite Ec; exact E|].
      assert (M' : moved s s') by (eapply moved_trans; eauto). split; auto. split; auto. split; [exact Nc1|]. split.
      + intros u v I. assert (Iu : In u (set_nodes s)) by (apply set_nodes_In; eauto).
        destruct (C2 u Iu) as [c [Ic Iuc]]. assert (Ic' : In c (o_comps (orc (s_tick s)) cs)) by (eapply Permutation_in; [apply Permutation_sym, P|auto]).
        destruct (Sp c Ic') as [k [es [vis [G [Hv [Rv Hd]]]]]]. apply Hv in Iuc.
        pose proof (moved_WF _ _ _ W M') as W'. rewrite <- (set_nbrs_moved N _ _ u M') in I.
        assert (Iv : In v vis) by (apply Rv; eapply reach_trans; [apply Rv, Iuc|econstructor; [constructor|exact I]]).
        destruct (tree_all _ (fun p q => In q (set_nbrs s' p)) k es vis G) with (a := u) (b := v) as [Q|Q]; auto.
        * tauto.
        * intros; now apply set_nbrs_sym.
        * intros a b R Wk. rewrite (set_nbrs_moved N _ _ a M') in R. apply (Lf a b R).
          revert Wk. apply walk_imp. intros y z [R1 R2]. split; auto. now rewrite <- (set_nbrs_moved N _ _ y M').
        * apply heldR_sym; auto.
      + intros a l Va Ha Q. apply K; auto. destruct Q as [Q|Q]; auto. left. intros c Ic J. apply Q. destruct (C1 c (Back c Ic)) as [_ [Q' _]]. apply Q', J.
  Qed.
End Hang.

(** ** C159 *)

Local Open Scope Qc_scope.

(** The atom's level named [n] is marked as fixed. *)
Definition pinned {N : Num} (s : st N) (n : string) : Prop := exists a l, home N s a /\ lv s a = Some l /\ lname l = n /\ l_fixed l = true.

(** Constraints between levels of the atom, some of them enforced before.
    Those between two fixed levels are met.  Every fixed level in a constraint
    is connected, by constraints between fixed levels, with the lowest of all
    levels that constraints connect it with. *)
Record hanging muB (s : st Exact) : Prop := mk_hanging {
  hg_home : forall u v t f x, constraint s u v t f -> tr s t = Some x -> home Exact s (x_lo x) /\ home Exact s (x_up x);
  hg_pos : forall u v t f, constraint s u v t f -> 0 <= f;
  hg_met : forall u v t f x, constraint s u v t f -> tr s t = Some x -> pinned s u -> pinned s v ->
    freq Exact muB s t = Some f /\ exists l h, lv s (x_lo x) = Some l /\ lv s (x_up x) = Some h /\ l_E l <= l_E h;
  hg_root : forall n, ~ free s n -> pinned s n -> exists a l, home Exact s a /\ lv s a = Some l /\ l_fixed l = true /\
    (forall b lb, home Exact s b -> lv s b = Some lb -> walk (joined_by s) (lname l) (lname lb) -> b <> a -> l_E l < l_E lb) /\
    walk (fun u v => joined_by s u v /\ pinned s u /\ pinned s v) (lname l) n
}.


Lemma ltb_Exact : forall a b : Qc, a < b -> nltb Exact a b = true /\ nltb Exact b a = false.
Proof. intros a b H. split; [now apply Qc_ltb_lt|]. apply Qc_ltb_ge. now apply Qclt_le_weak. Qed.

Lemma pinned_dec : forall (N : Num) (s : st N) n, WF s -> homes N s -> In n (set_nodes s) ->
  (pinned s n /\ fixedn N s n) \/ (~ pinned s n /\ unfixed N s n).
Proof.
  intros N s n W H I. destruct (set_node_level N (nofQ N 0) s n W H I) as [a [l [D [V [_ [En _]]]]]].
  assert (Ha : home N s a) by (exists l; now rewrite En).
  destruct (l_fixed l) eqn:Fx; [left|right]; split.
  - exists a, l. auto.
  - intros b lb Hb Vb Eb. assert (b = a) by (eapply home_fun; eauto; congruence). subst b. congruence.
  - intros [b [lb [Hb [Vb [Eb Fb]]]]]. assert (b = a) by (eapply home_fun; eauto; congruence). subst b. congruence.
  - intros b lb Hb Vb Eb. assert (b = a) by (eapply home_fun; eauto; congruence). subst b. congruence.
Qed.

(** Any number of new constraints hanging from levels fixed before, and any
    number of groups of constraints none of which was enforced before: one call
    meets all of them, does not warn, and moves neither the fixed levels nor
    those in no constraint. *)
Lemma hanging_meets : forall muB orc, (forall n, oracle_ok (orc n)) -> forall s, WF s ->
  hanging muB s -> loop_free (joined_by s) -> exists s', enforce Exact muB orc None s = (Ok tt, s') /\ moved s s' /\ s_warn s' = s_warn s /\
  (forall u v, In v (set_nbrs s u) -> heldR Exact (sat Exact) s' u v) /\
  (forall a l, home Exact s a -> lv s a = Some l -> free s (lname l) \/ l_fixed l = true -> lv s' a = Some l).
Proof.
  intros muB orc OK s W U Lf.
  assert (H : homes Exact s).
  { intros u v t x E I V. unfold is_set in I. rewrite V in I. destruct (x_set x) as [f|] eqn:F; [|discriminate].
    apply (hg_home _ s U u v t f x); auto. split; eauto. }
  assert (Nc : all_nice Exact (fun _ => True) (fun f : Qc => 0 <= f) s).
  { split; [|auto]. intros u v t x f E V F. apply (hg_pos _ s U u v t f). split; eauto. }
  assert (Nf : forall n, In n (set_nodes s) -> ~ free s n).
  { intros n I F. apply free_nil in F; auto. apply set_nodes_In in I as [v I]; auto. now rewrite F in I. }
  destruct (enforce_mixed Exact muB (fun _ => True) (fun f : Qc => 0 <= f) sat_either (pinned s) orc s OK W H Nc) as [s' [E [Mm [Wn [_ [Hd K]]]]]].
  - intros a b I Wk. apply (Lf a b); [now apply nbr_constraint|]. revert Wk. apply walk_imp. intros u v [H1 H2]. split; auto. now apply nbr_constraint.
  - intros w I. now apply pinned_dec.
  - intros u v Pu Pv I. destruct (set_edge_of Exact s u v W I) as [t [x [f [l [h Se]]]]]. pose proof Se as [Ed [V [Fx [Vl [Vh [Kl [Kh O]]]]]]].
    assert (Cn : constraint s u v t f) by (split; eauto).
    destruct (hg_met _ _ U u v t f x Cn V Pu Pv) as [Q [l' [h' [Vl' [Vh' Le]]]]]. rewrite Vl in Vl'. injection Vl' as <-. rewrite Vh in Vh'. injection Vh' as <-.
    destruct (hg_home _ _ U u v t f x Cn V) as [Hl Hh].
    assert (Fix : forall a l, home Exact s a -> lv s a = Some l -> lname l = u \/ lname l = v -> l_fixed l = true).
    { intros a l1 Ha Va [En|En]; [destruct Pu as [b [lb [Hb [Vb [Eb Fb]]]]]|destruct Pv as [b [lb [Hb [Vb [Eb Fb]]]]]];
        (assert (b = a) by (eapply home_fun; eauto; congruence)); subst b; congruence. }
    exists t, x, f, l, h. split; auto. split; [apply (Fix (x_lo x)); auto; tauto|]. split; [apply (Fix (x_up x)); auto; tauto|].
    apply sat_Exact. split; auto. rewrite (freq_edge muB s u v t x l h) in Q by auto. now injection Q.
  - intros w I Pw. destruct (hg_root _ _ U w (Nf w I) Pw) as [a [l [Ha [Va [Fa [Lo Wk]]]]]]. exists a, l. split; auto. split; auto. split; [exists a, l; auto|]. split.
    + intros b lb Hb Vb R Nb. apply ltb_Exact. apply (Lo b lb); auto. now apply reach_walk.
    + revert Wk. apply walk_imp. intros u v [J Q]. split; auto. now apply nbr_constraint.
  - exists s'. split; auto. split; auto. split; auto. split; auto. intros a l Ha Va Q. apply K; auto. destruct Q as [Q|Q]; [left|right].
    + intros I. exact (Nf _ I Q).
    + exists a, l. auto.
Qed.

Theorem C159_hanging_partial : forall muB orc, (forall n, oracle_ok (orc n)) -> forall s, reachable Exact muB orc s ->
  hanging muB s -> loop_free (joined_by s) -> exists s', enforce Exact muB orc None s = (Ok tt, s') /\
  (forall u v t f, constraint s u v t f -> freq Exact muB s' t = Some f) /\ s_warn s' = s_warn s /\
  (forall a l, home Exact s a -> lv s a = Some l -> free s (lname l) \/ l_fixed l = true -> lv s' a = Some l).
Proof.
  intros muB orc OK s R U Lf. pose proof (reachable_WF Exact muB orc OK s R) as W.
  destruct (hanging_meets muB orc OK s W U Lf) as [s' [E [Mm [Wn [Hd K]]]]]. exists s'. split; auto. split; [|split; auto].
  intros u v t f C. assert (I : In v (set_nbrs s u)) by (apply nbr_constraint; eauto).
  destruct (Hd u v I) as [t' [x' [f' [l [h [[Ed [V' [Fx [Vl [Vh _]]]]] [_ [_ Sa]]]]]]]]. destruct C as [Ec [x [V F]]].
  rewrite (mv_g0 _ _ _ Mm) in Ed. rewrite Ec in Ed. injection Ed as <-. pose proof V' as V2. unfold tr in V2. rewrite (mv_trans _ _ _ Mm) in V2. unfold tr in V. rewrite V in V2. injection V2 as <-.
  rewrite F in Fx. injection Fx as <-. rewrite (freq_edge muB s' u v t x l h); auto.
  - apply sat_Exact in Sa as [_ ->]. reflexivity.
  - eapply moved_WF; eauto.
  - now rewrite (mv_g0 _ _ _ Mm).
Qed.
Print Assumptions C159_hanging_partial.

(** A state that was settled before the new constraints were made is settled
    again, so that C42 and C44 apply to the next calls. *)
Theorem C159_settled : forall muB orc, (forall n, oracle_ok (orc n)) -> forall s, reachable Exact muB orc s ->
  hanging muB s -> loop_free (joined_by s) -> (forall a l, home Exact s a -> lv s a = Some l -> l_fixed l = true -> ~ free s (lname l)) ->
  exists s', enforce Exact muB orc None s = (Ok tt, s') /\ settled muB s'.
Proof.
  intros muB orc OK s R U Lf Fx. pose proof (reachable_WF Exact muB orc OK s R) as W.
  destruct (hanging_meets muB orc OK s W U Lf) as [s' [E [Mm [Wn [Hd K]]]]]. exists s'. split; auto.
  pose proof (moved_WF _ _ _ W Mm) as W'. apply settled_consistent; auto.
  assert (H : homes Exact s).
  { intros u v t x Ed I V. unfold is_set in I. rewrite V in I. destruct (x_set x) as [f|] eqn:F; [|discriminate].
    apply (hg_home _ s U u v t f x); auto. split; eauto. }
  constructor.
  - eapply homes_moved; eauto.
  - intros u v I. rewrite (set_nbrs_moved _ _ _ u Mm) in I. exact (Hd u v I).
  - intros a l' Ha V' F'. rewrite (set_nbrs_moved _ _ _ _ Mm). pose proof (home_moved _ _ _ _ Mm Ha) as Ha0.
    destruct (moved_lv_inv _ _ _ _ _ Mm V') as [l [V El]]. assert (En : lname l' = lname l) by now rewrite El. rewrite En.
    destruct (set_nbrs s (lname l)) as [|m r] eqn:Es; [|exists m; simpl; auto]. exfalso. apply free_nil in Es; auto.
    rewrite (K a l Ha0 V (or_introl Es)) in V'. injection V' as <-. exact (Fx a l Ha0 V F' Es).
Qed.
Print Assumptions C159_settled.

Lemma any_order_hung : forall muB orc orc', (forall n, oracle_ok (orc n)) -> (forall n, oracle_ok (orc' n)) -> forall s, WF s ->
  hanging muB s -> loop_free (joined_by s) -> (forall n, ~ free s n -> exists m, pinned s m /\ walk (joined_by s) m n) ->
  enforce Exact muB orc' None s = enforce Exact muB orc None s.
Proof.
  intros muB orc orc' OK OK' s W U Lf An.
  assert (H : homes Exact s).
  { intros u v t x Ed I V. unfold is_set in I. rewrite V in I. destruct (x_set x) as [f|] eqn:F; [|discriminate].
    apply (hg_home _ s U u v t f x); auto. split; eauto. }
  destruct (hanging_meets muB orc OK s W U Lf) as [s1 [E1 [M1 [Wn1 [Hd1 K1]]]]].
  destruct (hanging_meets muB orc' OK' s W U Lf) as [s2 [E2 [M2 [Wn2 [Hd2 K2]]]]].
  pose proof (homes_moved Exact _ _ M1 H) as H1. pose proof (homes_moved Exact _ _ M2 H) as H2.
  set (P := fun n => forall a l1 l2, home Exact s a -> lv s1 a = Some l1 -> lv s2 a = Some l2 -> lname l1 = n -> l_E l1 = l_E l2).
  assert (Step : forall u v, joined_by s u v -> P u -> P v).
  { intros u v J Pu a l1 l2 Ha V1 V2 En. assert (I : In v (set_nbrs s u)) by now apply nbr_constraint.
    destruct (Hd1 u v I) as [t [x [f [l [h [[Ed [Vt [Fx [Vl [Vh [Kl [Kh O]]]]]]] [_ [_ S1]]]]]]]].
    destruct (Hd2 u v I) as [t' [x' [f' [l' [h' [[Ed' [Vt' [Fx' [Vl' [Vh' [Kl' [Kh' O']]]]]]] [_ [_ S2]]]]]]]].
    rewrite (mv_g0 _ _ _ M1) in Ed. rewrite (mv_g0 _ _ _ M2), Ed in Ed'. injection Ed' as <-.
    unfold tr in Vt, Vt'. rewrite (mv_trans _ _ _ M1) in Vt. rewrite (mv_trans _ _ _ M2), Vt in Vt'. injection Vt' as <-.
    rewrite Fx in Fx'. injection Fx' as <-.
    destruct (H u v t x Ed) as [Hl Hh]; auto; [unfold is_set, tr; now rewrite Vt, Fx|].
    apply sat_Exact in S1 as [A1 B1]. apply sat_Exact in S2 as [A2 B2]. pose proof (abs_order _ _ _ A1 B1) as Q1. pose proof (abs_order _ _ _ A2 B2) as Q2.
    destruct O as [[O1 O2]|[O1 O2]].
    - pose proof (Pu _ _ _ Hl Vl Vl' O1) as Q.
      assert (a = x_up x). { eapply (home_fun Exact s1); [eapply home_moved'; eauto|eapply home_moved'; eauto|exact V1|exact Vh|congruence]. } subst a.
      rewrite Vh in V1. injection V1 as <-. rewrite Vh' in V2. injection V2 as <-. now rewrite Q1, Q2, Q.
    - pose proof (Pu _ _ _ Hh Vh Vh' O2) as Q.
      assert (a = x_lo x). { eapply (home_fun Exact s1); [eapply home_moved'; eauto|eapply home_moved'; eauto|exact V1|exact Vl|congruence]. } subst a.
      rewrite Vl in V1. injection V1 as <-. rewrite Vl' in V2. injection V2 as <-. rewrite Q1, Q2 in Q. exact (cancel_up _ _ _ Q). }
  assert (Far : forall u v, walk (joined_by s) u v -> P u -> P v) by (induction 1; eauto).
  assert (hdec : forall a, home Exact s a \/ ~ home Exact s a).
  { intros a. unfold home. destruct (lv s a) as [l|]; [|right; intros [l [Q _]]; discriminate].
    destruct (dget (lname l) (g_nodes (s_g0 s))) as [[b|]|] eqn:D; [|right; intros [l' [Q D']]; injection Q as <-; congruence..].
    destruct (Nat.eq_dec b a) as [->|Nb]; [left; eauto|right; intros [l' [Q D']]; injection Q as <-; congruence]. }
  assert (Same : forall a, lv s2 a = lv s1 a).
  { intros a. destruct (hdec a) as [Ha|Na].
    2:{ now rewrite (enforce_outside Exact muB orc s a s1 OK W H Na E1), (enforce_outside Exact muB orc' s a s2 OK' W H Na E2). }
    pose proof Ha as [l [V D]]. destruct (in_dec string_dec (lname l) (set_nodes s)) as [I|I].
    2:{ assert (Fr : free s (lname l)) by (intros m t f C; apply I, set_nodes_In; auto; exists m; apply nbr_constraint; eauto).
        now rewrite (K1 a l Ha V (or_introl Fr)), (K2 a l Ha V (or_introl Fr)). }
    destruct (moved_lv _ _ _ _ _ M1 V) as [l1 [V1 Q1]]. destruct (moved_lv _ _ _ _ _ M2 V) as [l2 [V2 Q2]]. rewrite V1, V2.
    assert (N1 : lname l1 = lname l) by now rewrite Q1.
    assert (Fr : ~ free s (lname l)). { intros F. apply free_nil in F; auto. apply set_nodes_In in I as [v I]; auto. now rewrite F in I. }
    destruct (An (lname l) Fr) as [m [[a0 [l0 [H0 [V0 [En0 F0]]]]] Wk]].
    assert (P0 : P m).
    { intros b m1 m2 Hb Vb1 Vb2 Enb. pose proof (home_moved' Exact _ _ _ M1 Hb) as Hb1. pose proof (home_moved' Exact _ _ _ M1 H0) as Ha1.
      pose proof (K1 a0 l0 H0 V0 (or_intror F0)) as Vk1. pose proof (K2 a0 l0 H0 V0 (or_intror F0)) as Vk2.
      assert (b = a0). { eapply (home_fun Exact s1); eauto. congruence. } subst b.
      rewrite Vk1 in Vb1. injection Vb1 as <-. rewrite Vk2 in Vb2. now injection Vb2 as <-. }
    pose proof (Far _ _ Wk P0 a l1 l2 Ha V1 V2 N1) as Ee.
    apply set_nodes_In in I as [v I]; auto.
    assert (F1 : l_fixed l1 = true). { apply (held_fixedn Exact (sat Exact) s1 _ _ H1 (Hd1 _ _ I) a); auto. eapply home_moved'; eauto. }
    assert (F2 : l_fixed l2 = true). { apply (held_fixedn Exact (sat Exact) s2 _ _ H2 (Hd2 _ _ I) a); auto; [eapply home_moved'; eauto|]. now rewrite Q2. }
    rewrite Q1, Q2, F1, F2, Ee. reflexivity. }
  rewrite E1, E2. f_equal. apply st_eq; auto; [now rewrite Wn1, Wn2|].
  pose proof (enforce_frame Exact muB orc None s) as G1. pose proof (enforce_frame Exact muB orc' None s) as G2. rewrite E1 in G1. rewrite E2 in G2. cbn [snd] in G1, G2. now rewrite G1, G2.
Qed.
(** If every constraint is connected with a fixed level, the order in which
    Python visits components, levels and neighbours does not matter at all. *)
Theorem C159_any_order : forall muB orc orc', (forall n, oracle_ok (orc n)) -> (forall n, oracle_ok (orc' n)) -> forall s, reachable Exact muB orc s ->
  hanging muB s -> loop_free (joined_by s) -> (forall n, ~ free s n -> exists m, pinned s m /\ walk (joined_by s) m n) ->
  enforce Exact muB orc' None s = enforce Exact muB orc None s.
Proof. intros muB orc orc' OK OK' s R. apply any_order_hung; auto. exact (reachable_WF Exact muB orc OK s R). Qed.
Print Assumptions C159_any_order.

(** ** Instances *)

Definition joins {N : Num} (s : st N) : list (string * string) := flat_map (fun u => map (fun v => (u, v)) (set_nbrs s u)) (set_nodes s).
Lemma joins_ok : forall (N : Num) (s : st N) u v, WF s -> (joined_by s u v <-> In (u, v) (joins s)).
Proof.
  intros N s u v W. unfold joined_by. rewrite <- nbr_constraint by auto. unfold joins. rewrite in_flat_map. split.
  - intros I. exists u. split; [apply set_nodes_In; eauto|]. now apply (in_map (fun z => (u, z))).
  - intros [w [_ I]]. apply in_map_iff in I as [z [E I]]. now injection E as <- <-.
Qed.

(** A path of four levels. *)
Definition path4 (a b c d : string) : list (string * string) := [(a, b); (b, a); (b, c); (c, b); (c, d); (d, c)].
Lemma path4_loop_free : forall R a b c d, NoDup [a; b; c; d] -> (forall u v, R u v <-> In (u, v) (path4 a b c d)) -> loop_free R.
Proof.
  intros R a b c d Nd HR. assert (Ds : (a <> b /\ a <> c /\ a <> d) /\ (b <> c /\ b <> d) /\ c <> d).
  { inversion Nd as [|? ? N1 Nd1]; subst. inversion Nd1 as [|? ? N2 Nd2]; subst. inversion Nd2 as [|? ? N3 Nd3]; subst. simpl in N1, N2, N3. intuition congruence. }
  assert (HR' : forall u v, R u v -> (u = a /\ v = b) \/ (u = b /\ v = a) \/ (u = b /\ v = c) \/ (u = c /\ v = b) \/ (u = c /\ v = d) \/ (u = d /\ v = c)).
  { intros u v H. apply HR in H. repeat (destruct H as [H|H]; [injection H as <- <-; tauto|]). destruct H. }
  apply cut_loop_free. intros p q H. apply HR' in H.
  destruct H as [[-> ->]|[[-> ->]|[[-> ->]|[[-> ->]|[[-> ->]|[-> ->]]]]]];
    [exists (fun n => n = a)|exists (fun n => n <> a)|exists (fun n => n = a \/ n = b)|exists (fun n => n <> a /\ n <> b)|exists (fun n => n <> d)|exists (fun n => n = d)];
    (split; [intuition congruence|]); (split; [intuition congruence|]); intros u v H Nuv S; apply HR' in H; intuition congruence.
Qed.

Definition metb (s : st Exact) (x : trans Exact) : bool := match x_set x with
  | None => true
  | Some f => homeb s (x_lo x) && homeb s (x_up x) && Qc_leb 0 f && match lv s (x_lo x), lv s (x_up x) with
    | Some l, Some h => negb (l_fixed l && l_fixed h) || (Qc_leb (l_E l) (l_E h) && Qc_eqb (Qc_abs (l_E l - l_E h)) f)
    | _, _ => false end end.
Definition lowestb (s : st Exact) (a : nat) (n : string) : bool := match lv s a with
  | Some la => homeb s a && l_fixed la && String.eqb (lname la) n &&
      forallb (fun b => Nat.eqb b a || match lv s b with Some lb => Qc_ltb (l_E la) (l_E lb) | None => true end) (seq 0 (List.length (s_levels s)))
  | None => false end.
Definition pins (s : st Exact) : list string := map (@lname Exact) (filter (@l_fixed Exact) (s_levels s)).

Lemma hanging_by : forall muB s a r, WF s -> forallb (metb s) (s_trans s) = true -> lowestb s a r = true ->
  (forall n, In n (pins s) -> walk (fun u v => joined_by s u v /\ pinned s u /\ pinned s v) r n) -> hanging muB s.
Proof.
  intros muB s a r W M Lo Wk. rewrite forallb_forall in M.
  assert (Mx : forall t (x : trans Exact) f, tr s t = Some x -> x_set x = Some f -> home Exact s (x_lo x) /\ home Exact s (x_up x) /\ 0 <= f /\
    exists l h, lv s (x_lo x) = Some l /\ lv s (x_up x) = Some h /\ (l_fixed l = true -> l_fixed h = true -> l_E l <= l_E h /\ Qc_abs (l_E l - l_E h) = f)).
  { intros t x f V F. specialize (M x (nth_error_In _ _ V)). unfold metb in M. rewrite F in M.
    apply andb_true_iff in M as [M M4]. apply andb_true_iff in M as [M M3]. apply andb_true_iff in M as [M1 M2].
    split; [now apply homeb_home|]. split; [now apply homeb_home|]. split; [now apply Qle_bool_iff|].
    destruct (lv s (x_lo x)) as [l|]; [|discriminate]. destruct (lv s (x_up x)) as [h|]; [|discriminate]. exists l, h. split; auto. split; auto.
    intros Fl Fh. rewrite Fl, Fh in M4. cbn in M4. apply andb_true_iff in M4 as [Q1 Q2]. split; [now apply Qle_bool_iff|]. now destruct (Qc_eqb_spec (Qc_abs (l_E l - l_E h)) f). }
  constructor.
  - intros u v t f x [_ [y [V F]]] Vx. rewrite Vx in V. injection V as <-. destruct (Mx t x f Vx F) as [Q1 [Q2 _]]. auto.
  - intros u v t f [_ [x [V F]]]. apply (Mx t x f V F).
  - intros u v t f x [Ed [y [V F]]] Vx Pu Pv. rewrite Vx in V. injection V as <-. destruct (Mx t x f Vx F) as [Hl [Hh [_ [l [h [Vl [Vh Q]]]]]]].
    destruct (edge_names Exact s W t x l h Vx Vl Vh u v Ed) as [O _].
    assert (Fix : forall b lb, home Exact s b -> lv s b = Some lb -> lname lb = u \/ lname lb = v -> l_fixed lb = true).
    { intros b l1 Hb Vb [En|En]; [destruct Pu as [b' [lb [Hb' [Vb' [Eb Fb]]]]]|destruct Pv as [b' [lb [Hb' [Vb' [Eb Fb]]]]]];
        (assert (b' = b) by (eapply home_fun; eauto; congruence)); subst b'; congruence. }
    destruct Q as [Le Eq]; [apply (Fix (x_lo x)); auto; intuition auto|apply (Fix (x_up x)); auto; intuition auto|].
    split; [|exists l, h; auto]. now rewrite (freq_edge muB s u v t x l h), Eq by auto.
  - intros n _ [b [lb [Hb [Vb [En Fb]]]]]. unfold lowestb in Lo. destruct (lv s a) as [la|] eqn:Va; [|discriminate].
    apply andb_true_iff in Lo as [Lo L4]. apply andb_true_iff in Lo as [Lo L3]. apply andb_true_iff in Lo as [L1 L2]. apply String.eqb_eq in L3. subst r.
    exists a, la. split; [now apply homeb_home|]. split; auto. split; auto. split.
    + intros c lc Hc Vc _ Nc. rewrite forallb_forall in L4.
      assert (I : In c (seq 0 (List.length (s_levels s)))) by (apply in_seq; split; [lia|]; apply nth_error_Some; unfold lv in Vc; now rewrite Vc).
      specialize (L4 c I). apply orb_true_iff in L4 as [Q|Q]; [apply Nat.eqb_eq in Q; contradiction|]. rewrite Vc in Q. now apply Qc_ltb_lt.
    + apply Wk. subst n. unfold pins. apply in_map. apply filter_In. split; auto. eapply nth_error_In. exact Vb.
Qed.

(** Four levels at 0, 10, 15 and 30.  The lowest step is set and enforced, then
    two more transitions are made with their frequencies. *)
Definition hung : st Exact := runx (from 1) [nl tS 0; add 0; nl tP 10; add 1; nl tQ 15; add 2; nl tD 30; add 3;
  OAddTransition Exact (TLevels 0 1) (Some (Q2Qc 12)) None None; ONewTransition Exact 1 2 (Some (Q2Qc 4)) None None; ONewTransition Exact 2 3 (Some (Q2Qc 20)) None None].
(** The same with the highest step set first. *)
Definition torn : st Exact := runx (from 1) [nl tS 0; add 0; nl tP 10; add 1; nl tQ 15; add 2; nl tD 30; add 3;
  OAddTransition Exact (TLevels 2 3) (Some (Q2Qc 20)) None None; ONewTransition Exact 0 1 (Some (Q2Qc 12)) None None; ONewTransition Exact 1 2 (Some (Q2Qc 4)) None None].
Lemma hung_reachable : reachable Exact 1 plain hung.
Proof. apply from_reachable; lia. Qed.
Lemma torn_reachable : reachable Exact 1 plain torn.
Proof. apply from_reachable; lia. Qed.
Lemma hung_joins : forall u v, joined_by hung u v <-> In (u, v) (path4 "6s 2S1/2" "6p 2P*1/2" "6p 2P*3/2" "5d 2D3/2").
Proof.
  intros u v. rewrite joins_ok by apply case_WF, hung_reachable.
  assert (E : joins hung = path4 "6s 2S1/2" "6p 2P*1/2" "6p 2P*3/2" "5d 2D3/2") by (vm_compute; reflexivity). now rewrite E.
Qed.
Lemma torn_joins : forall u v, joined_by torn u v <-> In (u, v) (path4 "6s 2S1/2" "6p 2P*1/2" "6p 2P*3/2" "5d 2D3/2").
Proof.
  intros u v. rewrite joins_ok by apply case_WF, torn_reachable.
  assert (E : joins torn = [("6s 2S1/2", "6p 2P*1/2"); ("6p 2P*1/2", "6s 2S1/2"); ("6p 2P*1/2", "6p 2P*3/2"); ("6p 2P*3/2", "5d 2D3/2");
    ("6p 2P*3/2", "6p 2P*1/2"); ("5d 2D3/2", "6p 2P*3/2")]%string) by (vm_compute; reflexivity). rewrite E. unfold path4. simpl. tauto.
Qed.
Lemma four_names : NoDup ["6s 2S1/2"; "6p 2P*1/2"; "6p 2P*3/2"; "5d 2D3/2"]%string.
Proof. repeat constructor; simpl; intuition discriminate. Qed.
Definition pinnedb (s : st Exact) (a : nat) (n : string) : bool := homeb s a && match lv s a with Some l => String.eqb (lname l) n && l_fixed l | None => false end.
Lemma pinnedb_ok : forall s a n, pinnedb s a n = true -> pinned s n.
Proof.
  intros s a n H. apply andb_true_iff in H as [H1 H2]. destruct (lv s a) as [l|] eqn:V; [|discriminate]. apply andb_true_iff in H2 as [H2 H3].
  exists a, l. split; [now apply homeb_home|]. split; auto. split; auto. now apply String.eqb_eq.
Qed.
Lemma hung_hanging : hanging 1 hung.
Proof.
  assert (PS : pinned hung "6s 2S1/2") by (apply (pinnedb_ok hung 0); vm_compute; reflexivity).
  assert (PP : pinned hung "6p 2P*1/2") by (apply (pinnedb_ok hung 1); vm_compute; reflexivity).
  assert (J : joined_by hung "6s 2S1/2" "6p 2P*1/2") by (apply hung_joins; simpl; auto).
  apply (hanging_by 1 hung 0 "6s 2S1/2"); [apply case_WF, hung_reachable|vm_compute; reflexivity|vm_compute; reflexivity|].
  intros n I. assert (E : pins hung = ["6s 2S1/2"; "6p 2P*1/2"]%string) by (vm_compute; reflexivity). rewrite E in I.
  destruct I as [<-|[<-|[]]]; [constructor|]. econstructor; [|constructor]. auto.
Qed.
Example C159_case : reachable Exact 1 plain hung /\ hanging 1 hung /\ loop_free (joined_by hung) /\
  pins hung = ["6s 2S1/2"; "6p 2P*1/2"]%string /\
  numbers (map (freq Exact 1 hung) [0; 1; 2]%nat) = [Some 12; Some 3; Some 15]%Q /\
  numbers (map (freq Exact 1 (runx hung [OEnforce Exact])) [0; 1; 2]%nat) = [Some 12; Some 4; Some 20]%Q.
Proof.
  split; [apply hung_reachable|]. split; [apply hung_hanging|]. split; [exact (path4_loop_free _ _ _ _ _ four_names hung_joins)|].
  do 2 (split; [vm_compute; reflexivity|]). vm_compute; reflexivity.
Qed.

Lemma hung_connected : forall n, ~ free hung n -> exists m, pinned hung m /\ walk (joined_by hung) m n.
Proof.
  intros n F. exists "6s 2S1/2"%string. split; [apply (pinnedb_ok hung 0); vm_compute; reflexivity|].
  assert (J1 : joined_by hung "6s 2S1/2" "6p 2P*1/2") by (apply hung_joins; simpl; auto). assert (J2 : joined_by hung "6p 2P*1/2" "6p 2P*3/2") by (apply hung_joins; simpl; auto).
  assert (J3 : joined_by hung "6p 2P*3/2" "5d 2D3/2") by (apply hung_joins; simpl; auto 10).
  assert (W1 : walk (joined_by hung) "6s 2S1/2" "6p 2P*1/2") by (econstructor; [exact J1|constructor]).
  assert (W2 : walk (joined_by hung) "6s 2S1/2" "6p 2P*3/2") by (eapply walk_app; [exact W1|econstructor; [exact J2|constructor]]).
  assert (W3 : walk (joined_by hung) "6s 2S1/2" "5d 2D3/2") by (eapply walk_app; [exact W2|econstructor; [exact J3|constructor]]).
  destruct (string_dec n "6s 2S1/2") as [->|N1]; [constructor|]. destruct (string_dec n "6p 2P*1/2") as [->|N2]; auto. destruct (string_dec n "6p 2P*3/2") as [->|N3]; auto.
  destruct (string_dec n "5d 2D3/2") as [->|N4]; auto.
  exfalso. apply F. intros m t f C. assert (J : joined_by hung n m) by (exists t, f; exact C). apply hung_joins in J. unfold path4 in J. simpl in J. intuition congruence.
Qed.
Example C159_order_case : reachable Exact 1 plain hung /\ (forall n, oracle_ok (back n)) /\ (forall n, ~ free hung n -> exists m, pinned hung m /\ walk (joined_by hung) m n) /\
  back 0 <> plain 0 /\ numbers (map (freq Exact 1 (run Exact 1 back hung [OEnforce Exact])) [0; 1; 2]%nat) = [Some 12; Some 4; Some 20]%Q.
Proof.
  split; [apply hung_reachable|]. split; [apply back_ok|]. split; [apply hung_connected|]. split; [|vm_compute; reflexivity].
  intros E. assert (Q : o_nbrs (back 0) "" ["a"; "b"]%string = o_nbrs (plain 0) "" ["a"; "b"]%string) by now rewrite E. discriminate Q.
Qed.

(** Without the lowest level among the fixed ones it fails: a loop is warned
    about though there is none, and the frequency that links the old constraints
    with the new ones is not met. *)
Theorem C159_torn_refuted : reachable Exact 1 plain torn /\ loop_free (joined_by torn) /\ forallb (metb torn) (s_trans torn) = true /\
  pins torn = ["6p 2P*3/2"; "5d 2D3/2"]%string /\
  map (fun t => option_map (@x_set Exact) (tr torn t)) [0; 1; 2]%nat = [Some (Some (Q2Qc 20)); Some (Some (Q2Qc 12)); Some (Some (Q2Qc 4))] /\
  numbers (map (freq Exact 1 (runx torn [OEnforce Exact])) [0; 1; 2]%nat) = [Some 20; Some 12; Some 3]%Q /\
  s_warn torn = [] /\ s_warn (runx torn [OEnforce Exact]) = [WLoop "6p 2P*1/2" "6p 2P*3/2"].
Proof.
  split; [apply torn_reachable|]. split; [exact (path4_loop_free _ _ _ _ _ four_names torn_joins)|].
  do 5 (split; [vm_compute; reflexivity|]). vm_compute; reflexivity.
Qed.
Print Assumptions C159_torn_refuted.
