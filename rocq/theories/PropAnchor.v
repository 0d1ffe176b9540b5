(** Property C158: the lowest level of a group of constrained levels is the one
    that stays (atom.py:1131-1169). *)
From Coq Require Import List Bool ZArith QArith Qcanon Lia String Ascii Permutation Floats.SpecFloat.
From Verif Require Import Base PyStr Util UtilProofs Parse Term TermProofs Num Wigner Hyperfine HyperfineProofs
  Graph GraphProofs DfsProofs Rules Atom AtomInv AtomSafe AtomSafe2 AtomSafe3 AtomSafe4 AtomSafe5 AtomSafe6
  AtomEnforce AtomEnforce2 AtomEnforce3 AtomExample PropEnforce PropFloat PropRound PropLocal PropOrder.
Import ListNotations.

(** The level [a] of the atom is lower than every level that constraints connect
    it with, and no constraint has it as its upper level. *)
Record anchor {N : Num} (s : st N) (a : nat) : Prop := mk_anchor {
  an_home : home N s a;
  an_low : forall b la lb, lv s a = Some la -> home N s b -> lv s b = Some lb -> walk (joined_by s) (lname la) (lname lb) -> b <> a ->
    nltb N (l_E la) (l_E lb) = true /\ nltb N (l_E lb) (l_E la) = false;
  an_up : forall u v t f x, constraint s u v t f -> tr s t = Some x -> x_up x <> a
}.

Section Anchor.
  Context (N : Num) (muB : N).
  Notation st := (st N).
  Notation level := (level N).
  Notation trans := (trans N).
  Notation energy := (energy N muB).
  Notation home := (home N).
  Notation homes := (homes N).
  Implicit Types (s : st) (l : level) (x y : trans) (a : nat) (t : nat).

  (** ** The search for the lowest *)

  Lemma lowest_min : forall s n0 a0 e0, dget n0 (g_nodes (s_g0 s)) = Some (Some a0) -> energy s a0 = Some e0 -> forall ns cur,
    (forall n, In n ns -> n <> n0 -> exists b eb, dget n (g_nodes (s_g0 s)) = Some (Some b) /\ energy s b = Some eb /\ nltb N e0 eb = true /\ nltb N eb e0 = false) ->
    (In n0 ns /\ (cur = None \/ exists b eb k, cur = Some (Some b, k) /\ energy s b = Some eb /\ nltb N e0 eb = true) \/ cur = Some (Some a0, n0)) ->
    exists o, lowest N muB s ns cur = Some (Some (o, n0)).
  Proof.
    intros s n0 a0 e0 D0 E0. induction ns as [|n ns IH]; intros cur Hn Hc; cbn [lowest].
    - destruct Hc as [[[] _]| ->]. eauto.
    - assert (Hn' : forall m, In m ns -> m <> n0 -> exists b eb, dget m (g_nodes (s_g0 s)) = Some (Some b) /\ energy s b = Some eb /\ nltb N e0 eb = true /\ nltb N eb e0 = false)
        by (intros m I; apply Hn; simpl; auto).
      destruct (string_dec n n0) as [->|Nn].
      + rewrite D0. destruct Hc as [[_ [->|[b [eb [k [-> [Eb L]]]]]]]| ->].
        * apply IH; auto.
        * rewrite E0, Eb, L. apply IH; auto.
        * rewrite E0. apply IH; auto. right. now destruct (nltb N e0 e0).
      + destruct (Hn n (or_introl eq_refl) Nn) as [b [eb [Db [Eb [L1 L2]]]]]. rewrite Db.
        destruct Hc as [[[?|I] Hc]| ->]; [contradiction| |rewrite Eb, E0, L2; apply IH; auto].
        destruct Hc as [->|[c [ec [k [-> [Ec L]]]]]]; [apply IH; auto; left; split; eauto 10|].
        rewrite Eb, Ec. apply IH; auto. left. split; auto. right. destruct (nltb N eb ec); eauto 10.
  Qed.

  (** Every other level of the component is higher. *)
  Definition lowest_of s a0 (l0 : level) (c : list string) : Prop := forall b lb, home s b -> lv s b = Some lb -> In (lname lb) c -> b <> a0 ->
    nltb N (l_E l0) (l_E lb) = true /\ nltb N (l_E lb) (l_E l0) = false.

  Lemma enforce_comp_low : forall o s c a0 l0, oracle_ok o -> WF s -> homes s -> incl c (set_nodes s) ->
    home s a0 -> lv s a0 = Some l0 -> In (lname l0) c -> lowest_of s a0 l0 c ->
    exists es vis, enforce_comp N muB o (S (List.length (set_nodes s))) c s = forM es (enforce_edge N) s /\
      grow (set_nbrs s) [lname l0] es vis /\ (forall w, In w vis <-> reach (set_nbrs s) (lname l0) w).
  Proof.
    intros o s c a0 l0 O W H Ic H0 V0 I0 Lo. unfold enforce_comp, bind at 1, asks at 1.
    destruct (set_node_level N muB s (lname l0) W H (Ic _ I0)) as [a [l [D [V [_ [En Ea]]]]]].
    assert (a = a0). { destruct H0 as [l1 [V1 D1]]. rewrite V0 in V1. injection V1 as <-. rewrite D in D1. now injection D1. } subst a.
    rewrite V0 in V. injection V as <-.
    destruct (lowest_min s (lname l0) a0 (l_E l0) D Ea (o_nodes o c) None) as [o1 E].
    - intros n I Nn. apply (perm_incl _ _ (ok_nodes _ O c)) in I. destruct (set_node_level N muB s n W H (Ic _ I)) as [b [lb [Db [Vb [_ [Eb Enb]]]]]].
      exists b, (l_E lb). split; auto. split; auto. apply (Lo b lb); auto; [exists lb; now rewrite Eb|now rewrite Eb|].
      intros ->. congruence.
    - left. split; auto. eapply Permutation_in; [apply Permutation_sym, (ok_nodes _ O)|exact I0].
    - rewrite E. destruct (dfs_set N o s (lname l0) O W (Ic _ I0)) as [es [vis [_ [Ed [G [R He]]]]]]. exists es, vis. split.
      + unfold bind, asks. now rewrite Ed.
      + split; auto. clear - G O. induction G; constructor; auto. eapply perm_incl; [apply (ok_nbrs _ O)|eauto].
  Qed.

  (** ** Its own component *)

  Let yes3 : N -> N -> N -> Prop := fun _ _ _ => True.
  Let yes : N -> Prop := fun _ => True.
  Lemma yes_nice : forall f e : N, yes f -> yes e -> (yes3 f e (nadd N e f) /\ yes (nadd N e f)) /\ (yes3 f (nsub N e f) e /\ yes (nsub N e f)).
  Proof. repeat split. Qed.
  Lemma all_yes : forall s, all_nice N yes yes s.
  Proof. repeat split. Qed.

  Definition never_up s a0 : Prop := forall u v t x, edge (s_g0 s) u v = Some t -> is_set s t = true -> tr s t = Some x -> x_up x <> a0.
  Lemma never_up_moved : forall s s' a0, moved s s' -> never_up s a0 -> never_up s' a0.
  Proof. intros s s' a0 Mm Nu u v t x. unfold is_set, tr. rewrite (mv_g0 _ _ _ Mm), (mv_trans _ _ _ Mm). apply Nu. Qed.

  Lemma anchored_first : forall s a0 l0 es vis s', WF s -> homes s -> home s a0 -> lv s a0 = Some l0 -> never_up s a0 ->
    grow (set_nbrs s) [lname l0] es vis -> (forall n, In n vis -> unfixed N s n) -> forM es (enforce_edge N) s = (Ok tt, s') ->
    exists l', lv s' a0 = Some l' /\ l_E l' = l_E l0.
  Proof.
    intros s a0 l0 es vis s' W H H0 V0 Nu G Uf E. inversion G as [Ga Gb Gc Gd|V u v es' V1 Iu Nv Nx G' Ga Gb Gc]; subst; [injection E as <-; eauto|].
    destruct Iu as [<-|[]]. assert (Iv' : In v vis) by (apply (grow_incl _ _ _ _ G'); simpl; auto).
    assert (D : lname l0 <> v) by (intros Q; apply Nv; left; exact Q).
    destruct (step_fresh N yes3 yes yes yes_nice s (lname l0) v W H (all_yes s) Nx D (Uf v Iv')) as [s1 [E1 [M1 [_ [_ [Hd [K1 K2]]]]]]].
    pose proof (moved_WF _ _ _ W M1) as W1. pose proof (homes_moved N _ _ M1 H) as H1.
    (* the anchor after the first edge *)
    assert (L1 : exists l1, lv s1 a0 = Some l1 /\ l_E l1 = l_E l0).
    { destruct (set_edge_of N s (lname l0) v W Nx) as [t [x [f [l [h Se]]]]]. pose proof Se as [Ed [Vt [Fx [Vl [Vh [Kl [Kh O]]]]]]].
      assert (Is : is_set s t = true) by (unfold is_set; now rewrite Vt, Fx). destruct (H _ _ t x Ed Is Vt) as [Hl Hh]. pose proof (Nu _ _ t x Ed Is Vt) as Ua.
      destruct O as [[O1 O2]|[O1 O2]].
      2:{ exfalso. apply Ua. eapply home_fun; eauto. }
      assert (Fh : l_fixed h = false) by (apply (Uf v Iv' (x_up x)); auto).
      rewrite (enforce_edge_eq N s _ _ _ _ _ _ _ Se), (movesR_done N yes3 s _ _ x f l h (x_up x) (nadd N (l_E l) f)) in E1 by (left; repeat split; auto).
      injection E1 as <-. rewrite lv_moved_to, V0. cbn [option_map]. eexists. split; [reflexivity|]. cbn.
      destruct (Nat.eqb_spec (x_up x) a0); [contradiction|reflexivity]. }
    destruct L1 as [l1 [Vl1 El1]].
    assert (En1 : lname l1 = lname l0). { destruct (moved_lv_inv _ _ _ _ _ M1 Vl1) as [l [Vq Eq]]. rewrite V0 in Vq. injection Vq as <-. now rewrite Eq. }
    destruct (run_fresh N yes3 yes yes yes_nice (set_nbrs s) _ _ _ G' s1 W1 H1 (all_yes s1)) as [s2 [E2 [_ [_ [_ [_ K]]]]]].
    - intros w. apply (set_nbrs_moved N _ _ w M1).
    - intros n [<-|[<-|[]]]; [exact (held_fixedn N yes3 s1 v (lname l0) H1 (heldR_sym N yes3 _ _ _ W1 Hd))|exact (held_fixedn N yes3 s1 (lname l0) v H1 Hd)].
    - intros n I J. apply (unfixed_keep N s s1 n M1); [now apply Uf|].
      intros a l Va Ha El. apply K1; auto; intros Q; subst n; apply J; rewrite Q; simpl; auto.
    - cbn [forM] in E. unfold bind in E. rewrite E1, E2 in E. injection E as <-. exists l1. split; auto. apply K; auto; [eapply home_moved'; eauto|].
      left. rewrite En1. simpl. auto.
  Qed.

  (** ** All components *)

  Lemma anchored_comps : forall o a0 cs n s l0 s', oracle_ok o -> WF s -> homes s -> n = S (List.length (set_nodes s)) ->
    NoDup cs -> (forall c c' w, In c cs -> In c' cs -> In w c -> In w c' -> c = c') ->
    (forall c, In c cs -> c <> [] /\ incl c (set_nodes s) /\ exists n, In n c /\ forall z, In z c <-> reach (set_nbrs s) n z) ->
    (forall c w, In c cs -> In w c -> unfixed N s w) ->
    home s a0 -> lv s a0 = Some l0 -> never_up s a0 -> (forall c, In c cs -> In (lname l0) c -> lowest_of s a0 l0 c) ->
    forM cs (comp_step N muB o n None) s = (Ok tt, s') -> exists l', lv s' a0 = Some l' /\ l_E l' = l_E l0.
  Proof.
    intros o a0 cs n. induction cs as [|c cs IH]; intros s l0 s' O W H En Nd Dj Hc Uf H0 V0 Nu Lo E; [injection E as <-; eauto|].
    destruct (Hc c (or_introl eq_refl)) as [C1 [C2 [m [Im Rm]]]]. assert (Nc' : ~ In c cs) by (inversion Nd; auto). assert (Nd' : NoDup cs) by (inversion Nd; auto).
    assert (Dc : forall c' w, In c' cs -> In w c' -> ~ In w c).
    { intros c' w Ic' Iw Iw'. apply Nc'. rewrite (Dj c c' w) by (simpl; auto). auto. }
    assert (Vis : forall k vis, In k c -> (forall w, In w vis <-> reach (set_nbrs s) k w) -> forall w, In w vis <-> In w c).
    { intros k vis Ik Rv w. rewrite Rv, Rm. apply Rm in Ik. split; intros R; eapply reach_trans; eauto.
      apply reach_sym; auto. intros u v. now apply set_nbrs_sym. }
    cbn [forM] in E. unfold bind in E. rewrite comp_step_eq in E. cbn [touched] in E. rewrite En in E.
    (* what the rest needs *)
    assert (Rest : forall s1, moved s s1 -> (forall a l, lv s a = Some l -> home s a -> ~ In (lname l) c -> lv s1 a = Some l) ->
      n = S (List.length (set_nodes s1)) /\
      (forall c', In c' cs -> c' <> [] /\ incl c' (set_nodes s1) /\ exists n, In n c' /\ forall z, In z c' <-> reach (set_nbrs s1) n z) /\
      (forall c' w, In c' cs -> In w c' -> unfixed N s1 w)).
    { intros s1 M1 K1. split; [now rewrite (set_nodes_moved N _ _ M1)|]. split.
      - intros c' I. rewrite (set_nodes_moved N _ _ M1). destruct (Hc c' (or_intror I)) as [A1 [A2 [m' [A3 A4]]]].
        split; auto. split; auto. exists m'. split; auto. intros z. rewrite A4.
        split; apply reach_perm; intros v; rewrite (set_nbrs_moved N _ _ v M1); apply incl_refl.
      - intros c' w I1 I2. apply (unfixed_keep N s s1 w M1); [apply (Uf c'); simpl; auto|].
        intros a l Va Ha El. apply K1; auto. rewrite El. eapply Dc; eauto. }
    destruct (in_dec string_dec (lname l0) c) as [I0|I0].
    - destruct (enforce_comp_low o s c a0 l0 O W H C2 H0 V0 I0 (Lo c (or_introl eq_refl) I0)) as [es [vis [Ec [G Rv]]]]. rewrite Ec in E.
      pose proof (Vis _ _ I0 Rv) as Vc.
      destruct (first_fresh N yes3 yes yes yes_nice (set_nbrs s) _ es vis G s W H (all_yes s) (fun u => eq_refl)) as [s1 [E1 [M1 [_ [_ [_ K1]]]]]].
      { intros w I. apply (Uf c); [simpl; auto|]. now apply Vc. }
      destruct (anchored_first s a0 l0 es vis s1 W H H0 V0 Nu G) as [l1 [V1 El1]]; [intros w I; apply (Uf c); [simpl; auto|]; now apply Vc|exact E1|].
      rewrite E1 in E. destruct (Rest s1 M1) as [R1 [R2 R3]]; [intros a l Va Ha Na; apply K1; auto; now rewrite Vc|].
      destruct (comps_fresh N muB yes3 yes yes yes_nice o cs n s1 O (moved_WF _ _ _ W M1) (homes_moved N _ _ M1 H) (all_yes s1) R1 Nd') as [s2 [E2 [_ [_ [_ [_ K]]]]]]; auto.
      { intros c' c2 w I1 I2. apply Dj; simpl; auto. }
      rewrite En in E2. rewrite E2 in E. injection E as <-. exists l1. split; auto. apply K; auto; [eapply home_moved'; eauto|].
      intros c' Ic' J. destruct (moved_lv_inv _ _ _ _ _ M1 V1) as [l [Vq Eq]]. rewrite V0 in Vq. injection Vq as <-. rewrite Eq in J. exact (Dc _ _ Ic' J I0).
    - destruct (enforce_comp_eq N muB o s c O W H C1 C2) as [k [es [vis [Ik [Ec [G Rv]]]]]]. rewrite Ec in E. pose proof (Vis _ _ Ik Rv) as Vc.
      destruct (first_fresh N yes3 yes yes yes_nice (set_nbrs s) _ es vis G s W H (all_yes s) (fun u => eq_refl)) as [s1 [E1 [M1 [_ [_ [_ K1]]]]]].
      { intros w I. apply (Uf c); [simpl; auto|]. now apply Vc. }
      assert (K1' : forall a l, lv s a = Some l -> home s a -> ~ In (lname l) c -> lv s1 a = Some l) by (intros a l Va Ha Na; apply K1; auto; now rewrite Vc).
      rewrite E1 in E. destruct (Rest s1 M1 K1') as [R1 [R2 R3]]. pose proof (K1' _ _ V0 H0 I0) as V1. rewrite <- En in E.
      apply (IH s1 l0 s' O (moved_WF _ _ _ W M1) (homes_moved N _ _ M1 H) R1 Nd'); auto.
      + intros c' c2 w I1 I2. apply Dj; simpl; auto.
      + eapply home_moved'; eauto.
      + eapply never_up_moved; eauto.
      + intros c' Ic' J b lb Hb Vb Ib Nb. destruct (moved_lv_inv _ _ _ _ _ M1 Vb) as [lq [Vq Eq]].
        assert (El : lname lq = lname lb) by now rewrite Eq. pose proof (home_moved N _ _ _ M1 Hb) as Hb0.
        assert (lq = lb). { assert (Q : lv s1 b = Some lq) by (apply K1'; auto; rewrite El; eapply Dc; eauto). rewrite Vb in Q. now injection Q. } subst lq.
        apply (Lo c' (or_intror Ic') J b); auto.
  Qed.

  Lemma reach_walk : forall s u v, WF s -> reach (set_nbrs s) u v -> walk (joined_by s) u v.
  Proof.
    intros s u v W. induction 1 as [|w v R IH I]; [constructor|]. eapply walk_app; [exact IH|]. econstructor; [|constructor]. now apply nbr_constraint.
  Qed.

  Lemma anchor_stays : forall orc s a0 l0 s', (forall n, oracle_ok (orc n)) -> WF s -> fresh_atom (fun _ => True) (fun _ => True) s -> anchor s a0 -> lv s a0 = Some l0 ->
    enforce N muB orc None s = (Ok tt, s') -> exists l', lv s' a0 = Some l' /\ l_E l' = l_E l0.
  Proof.
    intros orc s a0 l0 s' OK W U A V0 E. pose proof (fresh_homes _ _ _ _ U) as H. pose proof (fresh_unfixed _ _ _ _ W U) as Uf.
    pose proof (moved_tick N s) as Mt. pose proof (moved_WF _ _ _ W Mt) as Wt. pose proof (homes_moved N _ _ Mt H) as Ht.
    destruct (comps_spec N (tick s) Wt) as [cs [Ec [C1 [C2 C3]]]].
    assert (P := ok_comps _ (OK (s_tick s)) cs).
    assert (Nd : NoDup cs).
    { apply NoDup_nth_error. intros i j L Q. destruct (nth_error cs i) as [c|] eqn:Ei; [|apply nth_error_None in Ei; lia].
      destruct (C1 c (nth_error_In _ _ Ei)) as [_ [_ [m [Im _]]]]. symmetry in Q. eapply C3; eauto. }
    assert (Dj : forall c c' w, In c cs -> In c' cs -> In w c -> In w c' -> c = c').
    { intros c c' w I1 I2 J1 J2. apply In_nth_error in I1 as [i I1]. apply In_nth_error in I2 as [j I2].
      assert (i = j) by (eapply C3; eauto). congruence. }
    unfold enforce, bind, gets, modify in E. cbv beta iota zeta in E. unfold asks in E. rewrite Ec in E.
    apply (anchored_comps (orc (s_tick s)) a0 (o_comps (orc (s_tick s)) cs) (S (List.length (set_nodes (tick s)))) (tick s) l0 s' (OK _) Wt Ht eq_refl); auto.
    - eapply Permutation_NoDup; [apply Permutation_sym, P|auto].
    - intros c c' w I1 I2. apply Dj; eapply Permutation_in; eauto.
    - intros c I. apply C1. eapply Permutation_in; eauto.
    - intros c w I J. apply (Uf w). destruct (C1 c) as [_ [Q _]]; [eapply Permutation_in; eauto|]. apply Q, J.
    - exact (an_home _ _ A).
    - intros u v t x Ed Is V. change (tr (tick s) t) with (tr s t) in V. change (is_set (tick s) t) with (is_set s t) in Is. unfold is_set in Is. rewrite V in Is.
      destruct (x_set x) as [f|] eqn:F; [|discriminate]. apply (an_up _ _ A u v t f); auto. split; [exact Ed|eauto].
    - intros c I J b lb Hb Vb Ib Nb. apply (an_low _ _ A b l0 lb V0 Hb Vb); auto. apply reach_walk; auto.
      destruct (C1 c) as [_ [_ [m [Im Rm]]]]; [eapply Permutation_in; eauto|]. apply Rm in J, Ib.
      change (reach (set_nbrs (tick s)) (lname l0) (lname lb)). eapply reach_trans; [apply reach_sym; [|exact J]|exact Ib]. intros p q. now apply set_nbrs_sym.
  Qed.
End Anchor.

(** In any arithmetic: when no level is fixed yet, enforcing all set frequencies
    at once leaves every anchor where it is, whatever the constraints are and in
    whatever order Python visits them. *)
Theorem C158_anchor : forall (N : Num) (muB : N) orc, (forall n, oracle_ok (orc n)) -> forall s, reachable N muB orc s ->
  fresh_atom (fun _ => True) (fun _ => True) s -> forall a, anchor s a -> exists s', enforce N muB orc None s = (Ok tt, s') /\
  energy N muB s' a = energy N muB s a.
Proof.
  intros N muB orc OK s R U a A. pose proof (reachable_WF N muB orc OK s R) as W.
  destruct (enforce_fresh N muB (fun _ _ _ => True) (fun _ => True) (fun _ => True) ltac:(repeat split) orc s OK W (fresh_homes _ _ _ _ U) (fresh_nice _ _ _ _ U) (fresh_unfixed _ _ _ _ W U)) as [s' [E [Mm _]]].
  exists s'. split; auto. destruct (an_home _ _ A) as [l [V D]].
  destruct (anchor_stays N muB orc s a l s' OK W U A V E) as [l' [V' El]].
  assert (K : l_kind l = LE) by (destruct (go_node _ _ _ _ (wf_g _ _ W LE) _ _ D) as [l1 [V1 [K _]]]; congruence).
  assert (K' : l_kind l' = LE). { destruct (moved_lv_inv _ _ _ _ _ Mm V') as [l1 [V1 E1]]. rewrite V in V1. injection V1 as <-. now rewrite E1. }
  now rewrite (energy_LE N muB s' a l' V' K'), (energy_LE N muB s a l V K), El.
Qed.
Print Assumptions C158_anchor.


(** ** The result as a whole *)

(** What [enforce_consistency] leaves alone. *)

Definition frame {N} (s : st N) := (s_trans s, s_g0 s, s_g1 s, s_g2 s, s_lal s, s_tal s, s_I s, s_B s, s_tick s).
Definition timed {N A} (m : M N A) : Prop := forall s : st N, frame (snd (m s)) = frame s.
Lemma timed_bind : forall N A B (m : M N A) (k : A -> M N B), timed m -> (forall a, timed (k a)) -> timed (bind m k).
Proof. intros N A B m k Hm Hk s. unfold bind. specialize (Hm s). destruct (m s) as [[a|e] s1]; cbn [snd] in *; auto. rewrite Hk. exact Hm. Qed.
Lemma timed_asks : forall N A ex (f : st N -> option A), timed (asks ex f).
Proof. intros N A ex f s. unfold asks. destruct (f s); reflexivity. Qed.
Lemma timed_forM : forall N A (k : A -> M N unit) l, (forall a, timed (k a)) -> timed (forM l k).
Proof. intros N A k l Hk. induction l as [|a l IH]; [intros s; reflexivity|]. cbn [forM]. apply timed_bind; auto. Qed.
Lemma timed_edge : forall N uv, timed (enforce_edge N uv).
Proof.
  intros N uv. unfold enforce_edge, get_tr, get_lv. repeat (apply timed_bind; [apply timed_asks|intros ?]).
  apply timed_bind; [|intros []; apply timed_bind; intros; intros ?; reflexivity].
  destruct (_ && _); [intros ?; reflexivity|]. unfold set_energyE. destruct (l_fixed _); intros s; reflexivity.
Qed.
Lemma enforce_frame : forall N muB orc from (s : st N), frame (snd (enforce N muB orc from s)) = frame (tick s).
Proof.
  intros N muB orc from s. unfold enforce, gets. unfold bind at 1. unfold bind at 1. unfold modify at 1. unfold bind at 1. unfold bind at 1. unfold asks at 1.
  destruct (components _ _ _ _) as [cs|]; [|reflexivity]. apply timed_forM. intros c.
  apply timed_bind; [intros ?; reflexivity|]. intros []; [|intros ?; reflexivity]. unfold enforce_comp. apply timed_bind; [apply timed_asks|]. intros [[? k]|]; [|intros ?; reflexivity].
  apply timed_bind; [apply timed_asks|]. intros es. apply timed_forM. intros uv. apply timed_edge.
Qed.

Lemma st_eq : forall N (s s' : st N), (forall a, lv s' a = lv s a) -> s_warn s' = s_warn s -> frame s' = frame s -> s' = s.
Proof.
  intros N s s' L Wn F. assert (El : s_levels s' = s_levels s).
  { unfold lv in L. revert L. generalize (s_levels s) (s_levels s'). intros l. induction l as [|x l IH]; intros [|y l'] H; auto.
    - specialize (H 0%nat). discriminate.
    - specialize (H 0%nat). discriminate.
    - pose proof (H 0%nat) as H0. cbn in H0. injection H0 as ->. f_equal. apply IH. intros a. exact (H (S a)). }
  destruct s, s'. unfold frame in F. cbn in *. injection F as -> -> -> -> -> -> -> -> ->. now subst.
Qed.

(** Levels that are not the atom's own are not touched. *)
Section Outside.
  Context (N : Num) (muB : N).
  Implicit Types (s : st N).

  Lemma edges_outside : forall es s a, WF s -> homes N s -> (forall u v, In (u, v) es -> In v (set_nbrs s u)) -> ~ home N s a ->
    exists s', forM es (enforce_edge N) s = (Ok tt, s') /\ moved s s' /\ lv s' a = lv s a.
  Proof.
    induction es as [|[u v] es IH]; intros s a W H Hs Na; [exists s; split; [reflexivity|split; [apply moved_refl|reflexivity]]|].
    destruct (set_edge_of N s u v W (Hs u v (or_introl eq_refl))) as [t [x [f [l [h Se]]]]]. pose proof Se as [Ed [Vt [Fx [Vl [Vh _]]]]].
    destruct (H u v t x Ed) as [Hl Hh]; auto; [unfold is_set; now rewrite Vt, Fx|].
    pose proof (edge_done_moved N u v x f l h s) as M1. set (s1 := edge_done N u v x f l h s) in *.
    assert (L1 : lv s1 a = lv s a).
    { assert (N1 : Nat.eqb (x_lo x) a = false) by (apply Nat.eqb_neq; intros Q; apply Na; now rewrite <- Q).
      assert (N2 : Nat.eqb (x_up x) a = false) by (apply Nat.eqb_neq; intros Q; apply Na; now rewrite <- Q).
      unfold s1, edge_done. rewrite !lv_upd_lv, N1, N2. destruct (_ && _); [reflexivity|]. destruct (l_fixed h); rewrite !lv_upd_lv, ?N1, ?N2; reflexivity. }
    destruct (IH s1 a (moved_WF _ _ _ W M1) (homes_moved N _ _ M1 H)) as [s2 [E2 [M2 L2]]].
    - intros p q I. rewrite (set_nbrs_moved N _ _ p M1). apply Hs. simpl. auto.
    - intros Q. apply Na. eapply home_moved; eauto.
    - exists s2. cbn [forM]. unfold bind. rewrite (enforce_edge_eq N s _ _ _ _ _ _ _ Se). fold s1. split; auto. split; [eapply moved_trans; eauto|congruence].
  Qed.

  Lemma comps_outside : forall o cs n s a, oracle_ok o -> WF s -> homes N s -> n = S (List.length (set_nodes s)) ->
    (forall c, In c cs -> c <> [] /\ incl c (set_nodes s)) -> ~ home N s a ->
    exists s', forM cs (comp_step N muB o n None) s = (Ok tt, s') /\ lv s' a = lv s a.
  Proof.
    intros o cs n. induction cs as [|c cs IH]; intros s a O W H En Hc Na; [exists s; auto|].
    destruct (Hc c (or_introl eq_refl)) as [C1 C2]. destruct (enforce_comp_eq N muB o s c O W H C1 C2) as [k [es [vis [Ik [Ec [G Rv]]]]]].
    destruct (edges_outside es s a W H) as [s1 [E1 [M1 L1]]]; auto; [intros u v I; apply (grow_edge _ _ _ _ _ _ G I)|].
    destruct (IH s1 a O (moved_WF _ _ _ W M1) (homes_moved N _ _ M1 H)) as [s2 [E2 L2]].
    - now rewrite (set_nodes_moved N _ _ M1).
    - intros c' I. rewrite (set_nodes_moved N _ _ M1). apply Hc. simpl. auto.
    - intros Q. apply Na. eapply home_moved; eauto.
    - exists s2. cbn [forM]. unfold bind. rewrite comp_step_eq. cbn [touched]. rewrite En, Ec, E1. rewrite En in E2. split; auto. congruence.
  Qed.

  Lemma enforce_outside : forall orc s a s', (forall n, oracle_ok (orc n)) -> WF s -> homes N s -> ~ home N s a ->
    enforce N muB orc None s = (Ok tt, s') -> lv s' a = lv s a.
  Proof.
    intros orc s a s' OK W H Na E. pose proof (moved_tick N s) as Mt. pose proof (moved_WF _ _ _ W Mt) as Wt. pose proof (homes_moved N _ _ Mt H) as Ht.
    destruct (comps_spec N (tick s) Wt) as [cs [Ec [C1 _]]]. assert (P := ok_comps _ (OK (s_tick s)) cs).
    unfold enforce, bind, gets, modify in E. cbv beta iota zeta in E. unfold asks in E. rewrite Ec in E.
    destruct (comps_outside (orc (s_tick s)) (o_comps (orc (s_tick s)) cs) (S (List.length (set_nodes (tick s)))) (tick s) a (OK _) Wt Ht eq_refl) as [s2 [E2 L]]; auto.
    - intros c I. destruct (C1 c) as [Q1 [Q2 _]]; [eapply Permutation_in; eauto|]. auto.
    - pose proof (eq_trans (eq_sym E) E2) as Q. injection Q as ->. exact L.
  Qed.
End Outside.

Lemma up_down : forall f e : Qc, (e = e - f + f)%Qc.
Proof. intros. ring. Qed.
Definition step_up (f el eu : num Exact) : Prop := eu = nadd Exact el f.
Lemma step_nice : forall f e : num Exact, True -> True -> (step_up f e (nadd Exact e f) /\ True) /\ (step_up f (nsub Exact e f) e /\ True).
Proof. intros f e _ _. repeat split. apply up_down. Qed.
Lemma cancel_up : forall e f g : Qc, (e + f = g + f)%Qc -> e = g.
Proof. intros e f g H. replace e with (e + f - f)%Qc by ring. rewrite H. ring. Qed.

Lemma any_order : forall muB orc orc', (forall n, oracle_ok (orc n)) -> (forall n, oracle_ok (orc' n)) -> forall s, WF s ->
  fresh_atom (fun _ => True) (fun _ => True) s -> loop_free (joined_by s) ->
  (forall n, ~ free s n -> exists a l, anchor s a /\ lv s a = Some l /\ walk (joined_by s) (lname l) n) ->
  enforce Exact muB orc' None s = enforce Exact muB orc None s.
Proof.
  intros muB orc orc' OK OK' s W U Lf An.
  pose proof (fresh_homes _ _ _ _ U) as H.
  assert (Lf' : loop_free (fun u v => In v (set_nbrs s u))).
  { intros a b I Wk. apply (Lf a b); [now apply nbr_constraint|]. revert Wk. apply walk_imp. intros u v [H1 H2]. split; auto. now apply nbr_constraint. }
  destruct (enforce_forest Exact muB step_up (fun _ => True) (fun _ => True) step_nice orc s OK W H (fresh_nice _ _ _ _ U) (fresh_unfixed _ _ _ _ W U) Lf') as [s1 [E1 [M1 [Wn1 [_ [Hd1 K1]]]]]].
  destruct (enforce_forest Exact muB step_up (fun _ => True) (fun _ => True) step_nice orc' s OK' W H (fresh_nice _ _ _ _ U) (fresh_unfixed _ _ _ _ W U) Lf') as [s2 [E2 [M2 [Wn2 [_ [Hd2 K2]]]]]].
  pose proof (homes_moved Exact _ _ M1 H) as H1. pose proof (homes_moved Exact _ _ M2 H) as H2.
  set (P := fun n => forall a l1 l2, home Exact s a -> lv s1 a = Some l1 -> lv s2 a = Some l2 -> lname l1 = n -> l_E l1 = l_E l2).
  assert (Step : forall u v, joined_by s u v -> P u -> P v).
  { intros u v J Pu a l1 l2 Ha V1 V2 En. assert (I : In v (set_nbrs s u)) by now apply nbr_constraint.
    destruct (Hd1 u v I) as [t [x [f [l [h [[Ed [Vt [Fx [Vl [Vh [Kl [Kh O]]]]]]] [_ [_ S1]]]]]]]].
    destruct (Hd2 u v I) as [t' [x' [f' [l' [h' [[Ed' [Vt' [Fx' [Vl' [Vh' [Kl' [Kh' O']]]]]]] [_ [_ S2]]]]]]]].
    rewrite (mv_g0 _ _ _ M1) in Ed. rewrite (mv_g0 _ _ _ M2), Ed in Ed'. injection Ed' as <-.
    unfold tr in Vt, Vt'. rewrite (mv_trans _ _ _ M1) in Vt. rewrite (mv_trans _ _ _ M2), Vt in Vt'. injection Vt' as <-.
    rewrite Fx in Fx'. injection Fx' as <-.
    destruct (H u v t x Ed) as [Hl Hh]; auto; [unfold is_set, tr; now rewrite Vt, Fx|].
    destruct O as [[O1 O2]|[O1 O2]].
    - pose proof (Pu _ _ _ Hl Vl Vl' O1) as Q.
      assert (a = x_up x). { eapply (home_fun Exact s1); [eapply home_moved'; eauto|eapply home_moved'; eauto|exact V1|exact Vh|congruence]. } subst a.
      rewrite Vh in V1. injection V1 as <-. rewrite Vh' in V2. injection V2 as <-. unfold step_up in S1, S2. now rewrite S1, S2, Q.
    - pose proof (Pu _ _ _ Hh Vh Vh' O2) as Q.
      assert (a = x_lo x). { eapply (home_fun Exact s1); [eapply home_moved'; eauto|eapply home_moved'; eauto|exact V1|exact Vl|congruence]. } subst a.
      rewrite Vl in V1. injection V1 as <-. rewrite Vl' in V2. injection V2 as <-. unfold step_up in S1, S2. rewrite S1, S2 in Q. exact (cancel_up _ _ _ Q). }
  assert (Far : forall u v, walk (joined_by s) u v -> P u -> P v) by (induction 1; eauto).
  assert (hdec : forall a, home Exact s a \/ ~ home Exact s a).
  { intros a. unfold home. destruct (lv s a) as [l|]; [|right; intros [l [Q _]]; discriminate].
    destruct (dget (lname l) (g_nodes (s_g0 s))) as [[b|]|] eqn:D; [|right; intros [l' [Q D']]; injection Q as <-; congruence..].
    destruct (Nat.eq_dec b a) as [->|Nb]; [left; eauto|right; intros [l' [Q D']]; injection Q as <-; congruence]. }
  assert (Same : forall a, lv s2 a = lv s1 a).
  { intros a. destruct (hdec a) as [Ha|Na].
    2:{ now rewrite (enforce_outside Exact muB orc s a s1 OK W H Na E1), (enforce_outside Exact muB orc' s a s2 OK' W H Na E2). }
    pose proof Ha as [l [V D]]. destruct (in_dec string_dec (lname l) (set_nodes s)) as [I|I]; [|now rewrite (K1 a l V Ha I), (K2 a l V Ha I)].
    destruct (moved_lv _ _ _ _ _ M1 V) as [l1 [V1 Q1]]. destruct (moved_lv _ _ _ _ _ M2 V) as [l2 [V2 Q2]]. rewrite V1, V2.
    assert (N1 : lname l1 = lname l) by now rewrite Q1. assert (N2 : lname l2 = lname l) by now rewrite Q2.
    assert (Fr : ~ free s (lname l)). { intros F. apply free_nil in F; auto. apply set_nodes_In in I as [v I]; auto. now rewrite F in I. }
    destruct (An (lname l) Fr) as [a0 [l0 [A [V0 Wk]]]].
    assert (P0 : P (lname l0)).
    { intros b m1 m2 Hb Vb1 Vb2 Enb. pose proof (home_moved' Exact _ _ _ M1 Hb) as Hb1. pose proof (home_moved' Exact _ _ _ M1 (an_home _ _ A)) as Ha1.
      destruct (anchor_stays Exact muB orc s a0 l0 s1 OK W U A V0 E1) as [k1 [Vk1 Ek1]].
      destruct (anchor_stays Exact muB orc' s a0 l0 s2 OK' W U A V0 E2) as [k2 [Vk2 Ek2]].
      destruct (moved_lv_inv _ _ _ _ _ M1 Vk1) as [lq [Vq Eq]]. rewrite V0 in Vq. injection Vq as <-.
      assert (b = a0). { eapply (home_fun Exact s1); eauto. rewrite Eq. exact Enb. } subst b.
      rewrite Vk1 in Vb1. injection Vb1 as <-. rewrite Vk2 in Vb2. injection Vb2 as <-. now rewrite Ek1, Ek2. }
    pose proof (Far _ _ Wk P0 a l1 l2 Ha V1 V2 N1) as Ee.
    apply set_nodes_In in I as [v I]; auto.
    assert (F1 : l_fixed l1 = true). { apply (held_fixedn Exact step_up s1 _ _ H1 (Hd1 _ _ I) a); auto. eapply home_moved'; eauto. }
    assert (F2 : l_fixed l2 = true). { apply (held_fixedn Exact step_up s2 _ _ H2 (Hd2 _ _ I) a); auto. eapply home_moved'; eauto. }
    rewrite Q1, Q2, F1, F2, Ee. reflexivity. }
  rewrite E1, E2. f_equal. apply st_eq; auto; [now rewrite Wn1, Wn2|].
  pose proof (enforce_frame Exact muB orc None s) as G1. pose proof (enforce_frame Exact muB orc' None s) as G2. rewrite E1 in G1. rewrite E2 in G2. cbn [snd] in G1, G2. now rewrite G1, G2.
Qed.
(** No level fixed, no loop, and in every group of constrained levels an anchor:
    the order in which Python visits components, levels and neighbours does not
    matter at all. *)
Theorem C158_any_order : forall muB orc orc', (forall n, oracle_ok (orc n)) -> (forall n, oracle_ok (orc' n)) -> forall s, reachable Exact muB orc s ->
  fresh_atom (fun _ => True) (fun _ => True) s -> loop_free (joined_by s) ->
  (forall n, ~ free s n -> exists a l, anchor s a /\ lv s a = Some l /\ walk (joined_by s) (lname l) n) ->
  enforce Exact muB orc' None s = enforce Exact muB orc None s.
Proof. intros muB orc orc' OK OK' s R. apply any_order; auto. exact (reachable_WF Exact muB orc OK s R). Qed.
Print Assumptions C158_any_order.

(** ** Instances *)

Definition anchorb {N : Num} (s : st N) (a : nat) : bool :=
  match lv s a with
  | Some la => match dget (lname la) (g_nodes (s_g0 s)) with Some (Some b) => Nat.eqb b a | _ => false end &&
      forallb (fun b => Nat.eqb b a || match lv s b with Some lb => nltb N (l_E la) (l_E lb) && negb (nltb N (l_E lb) (l_E la)) | None => true end) (seq 0 (List.length (s_levels s))) &&
      forallb (fun x : trans N => match x_set x with Some _ => negb (Nat.eqb (x_up x) a) | None => true end) (s_trans s)
  | None => false
  end.
Lemma anchorb_ok : forall (N : Num) (s : st N) a, anchorb s a = true -> anchor s a.
Proof.
  intros N s a H. unfold anchorb in H. destruct (lv s a) as [la|] eqn:V; [|discriminate]. apply andb_true_iff in H as [H H3]. apply andb_true_iff in H as [H1 H2].
  rewrite forallb_forall in H2, H3. constructor.
  - exists la. split; auto. destruct (dget _ _) as [[b|]|]; try discriminate. apply Nat.eqb_eq in H1. now subst.
  - intros b la' lb Va _ Vb _ Nb. rewrite V in Va. injection Va as <-.
    assert (I : In b (seq 0 (List.length (s_levels s)))) by (apply in_seq; split; [lia|]; apply nth_error_Some; unfold lv in Vb; now rewrite Vb).
    specialize (H2 b I). apply orb_true_iff in H2 as [Q|Q]; [apply Nat.eqb_eq in Q; contradiction|]. rewrite Vb in Q. apply andb_true_iff in Q as [Q1 Q2]. split; auto. now apply negb_true_iff.
  - intros u v t f x [_ [y [Vy F]]] Vx. rewrite Vx in Vy. injection Vy as <-. specialize (H3 x (nth_error_In _ _ Vx)). rewrite F in H3. apply negb_true_iff, Nat.eqb_neq in H3. exact H3.
Qed.
Lemma untouched_fresh : forall s, untouched s -> fresh_atom (fun _ => True) (fun _ => True) s.
Proof. intros s [U1 U2 U3]. constructor; auto. Qed.
Lemma tree_fresh : fresh_atom (fun _ => True) (fun _ => True) tree.
Proof. apply untouched_fresh, untouchedb_ok. vm_compute. reflexivity. Qed.
Lemma tree_lowest : lv tree 0 <> None /\ forall l, lv tree 0 = Some l -> lname l = "6s 2S1/2"%string.
Proof.
  assert (Q : option_map (@lname Exact) (lv tree 0) = Some "6s 2S1/2"%string) by (vm_compute; reflexivity).
  destruct (lv tree 0) as [l|]; [|discriminate]. split; [discriminate|]. intros l' E. injection E as <-. now injection Q.
Qed.
Lemma tree_anchored : forall n, ~ free tree n -> exists a l, anchor tree a /\ lv tree a = Some l /\ walk (joined_by tree) (lname l) n.
Proof.
  intros n F. destruct (lv tree 0) as [l|] eqn:V; [|now destruct tree_lowest]. exists 0%nat, l. split; [apply anchorb_ok; vm_compute; reflexivity|]. split; auto.
  rewrite (proj2 tree_lowest l V).
  assert (J1 : joined_by tree "6s 2S1/2" "6p 2P*1/2") by (apply tree_edges; tauto). assert (J2 : joined_by tree "6p 2P*1/2" "6p 2P*3/2") by (apply tree_edges; tauto).
  assert (W1 : walk (joined_by tree) "6s 2S1/2" "6p 2P*1/2") by (econstructor; [exact J1|constructor]).
  assert (W2 : walk (joined_by tree) "6s 2S1/2" "6p 2P*3/2") by (econstructor; [exact J1|]; econstructor; [exact J2|constructor]).
  destruct (string_dec n "6s 2S1/2") as [->|N1]; [constructor|]. destruct (string_dec n "6p 2P*1/2") as [->|N2]; auto. destruct (string_dec n "6p 2P*3/2") as [->|N3]; auto.
  exfalso. apply F. intros m t f C. assert (J : joined_by tree n m) by (exists t, f; exact C). apply tree_edges in J. intuition congruence.
Qed.
Example C158_case : reachable Exact 1%Qc plain tree /\ fresh_atom (fun _ => True) (fun _ => True) tree /\ loop_free (joined_by tree) /\ anchor tree 0 /\
  (forall n, ~ free tree n -> exists a l, anchor tree a /\ lv tree a = Some l /\ walk (joined_by tree) (lname l) n) /\ (forall n, oracle_ok (back n)) /\
  numbers (map (energy Exact 1%Qc tree) [0; 1; 2]%nat) = [Some 0; Some 10; Some 15]%Q /\
  numbers (map (energy Exact 1%Qc (runx tree [OEnforce Exact])) [0; 1; 2]%nat) = [Some 0; Some 12; Some 15]%Q.
Proof.
  split; [apply from_reachable; lia|]. split; [apply tree_fresh|]. split; [apply tree_loop_free|]. split; [apply anchorb_ok; vm_compute; reflexivity|].
  split; [apply tree_anchored|]. split; [apply back_ok|]. split; vm_compute; reflexivity.
Qed.
(** The upper level of a line, moved below its lower level by hand, is the lowest
    level of the group but does not stay: it is put above the other again. *)
Example C158_upper_case : let s := runx tree [OSetLevel Exact 1 (Q2Qc (-5))] in
  reachable Exact 1%Qc plain s /\ numbers (map (energy Exact 1%Qc s) [0; 1; 2]%nat) = [Some 0; Some (-5); Some 15]%Q /\
  numbers (map (energy Exact 1%Qc (runx s [OEnforce Exact])) [0; 1; 2]%nat) = [Some 0; Some 12; Some 15]%Q.
Proof. cbv zeta. split; [apply more_reachable, from_reachable; lia|]. split; vm_compute; reflexivity. Qed.
