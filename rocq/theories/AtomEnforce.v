(** What enforcing set frequencies does to the energies. *)
From Coq Require Import List Bool ZArith QArith Qcanon Lia String Ascii Permutation.
From Verif Require Import Base PyStr Util UtilProofs Parse Term TermProofs Num Wigner Hyperfine HyperfineProofs
  Graph GraphProofs DfsProofs Rules Atom AtomInv AtomSafe AtomSafe2 AtomSafe3 AtomSafe4 AtomSafe5 AtomSafe6.
Import ListNotations.

Section Enforce.
  Context (N : Num) (muB : N).
  Notation st := (st N).
  Notation level := (level N).
  Notation trans := (trans N).
  Notation M := (M N).
  Notation energy := (energy N muB).
  Implicit Types (s : st) (l : level) (x y : trans) (a : nat) (t : nat).

  (** A transition set to [f] between energies [el] and [eu] is satisfied, and
      recomputing the lower energy gives the same number. *)
  Definition sat (f el eu : N) : Prop := neqb N f (nabs N (nsub N el eu)) = true /\ nsub N eu f = el.

  (** The constrained edge u-v is satisfied and its levels are fixed. *)
  Definition held s (u v : string) : Prop := exists t x f l h, set_edge N s u v t x f l h /\
    l_fixed l = true /\ l_fixed h = true /\ sat f (l_E l) (l_E h).

  (** The level object is the one the atom has under its name. *)
  Definition home s a : Prop := exists l, lv s a = Some l /\ dget (lname l) (g_nodes (s_g0 s)) = Some (Some a).
  Definition homes s : Prop := forall u v t x, edge (s_g0 s) u v = Some t -> is_set s t = true -> tr s t = Some x ->
    home s (x_lo x) /\ home s (x_up x).

  Lemma set_edge_sym : forall s u v t x f l h, WF s -> set_edge N s u v t x f l h -> set_edge N s v u t x f l h.
  Proof.
    intros s u v t x f l h W [E H]. split; [exact (gw_sym _ (go_wf _ _ _ _ (wf_g _ _ W LE)) _ _ _ E)|].
    destruct H as [H1 [H2 [H3 [H4 [H5 [H6 H7]]]]]]. repeat (split; [assumption|]). tauto.
  Qed.
  Lemma held_sym : forall s u v, WF s -> held s u v -> held s v u.
  Proof. intros s u v W [t [x [f [l [h [E H]]]]]]. exists t, x, f, l, h. split; auto. now apply set_edge_sym. Qed.

  Lemma set_edge_fun : forall s u v t x f l h t' x' f' l' h', set_edge N s u v t x f l h -> set_edge N s u v t' x' f' l' h' ->
    t' = t /\ x' = x /\ f' = f /\ l' = l /\ h' = h.
  Proof.
    intros s u v t x f l h t' x' f' l' h' [A1 [A2 [A3 [A4 [A5 _]]]]] [B1 [B2 [B3 [B4 [B5 _]]]]].
    rewrite A1 in B1. injection B1 as <-. rewrite A2 in B2. injection B2 as <-. rewrite A3 in B3. injection B3 as <-.
    rewrite A4 in B4. injection B4 as <-. rewrite A5 in B5. injection B5 as <-. auto.
  Qed.
  Lemma set_edge_nbr : forall s u v t x f l h, WF s -> set_edge N s u v t x f l h -> In v (set_nbrs s u).
  Proof.
    intros s u v t x f l h W [E [V [F _]]]. apply set_nbrs_In; auto. exists t. split; auto. unfold is_set. now rewrite V, F.
  Qed.

  (** ** Edges that are satisfied already *)

  Lemma held_done : forall s u v, held s u v -> enforce_edge N (u, v) s = (Ok tt, s).
  Proof.
    intros s u v [t [x [f [l [h [E [Fl [Fh [S1 S2]]]]]]]]]. rewrite (enforce_edge_eq N s _ _ _ _ _ _ _ E).
    destruct E as [_ [_ [_ [Vl [Vh _]]]]]. unfold edge_done. rewrite Fl, Fh, S1, S2. cbn [andb negb].
    rewrite (upd_lv_id _ s _ _ _ Vl) by now destruct l.
    rewrite (upd_lv_id _ s _ _ _ Vh) by (destruct h; simpl in Fh; now subst).
    rewrite (upd_lv_id _ s _ _ _ Vl) by (destruct l; simpl in Fl; now subst). reflexivity.
  Qed.
  Lemma quiet_edges : forall es s, (forall u v, In (u, v) es -> held s u v) -> forM es (enforce_edge N) s = (Ok tt, s).
  Proof.
    induction es as [|[u v] es IH]; intros s H; [reflexivity|]. cbn [forM]. unfold bind. rewrite held_done by (apply H; simpl; auto).
    apply IH. intros u' v' I. apply H. simpl. auto.
  Qed.

  (** ** The search *)

  Lemma lowest_ok : forall s ns cur, (forall n, In n ns -> exists a e, dget n (g_nodes (s_g0 s)) = Some (Some a) /\ energy s a = Some e) ->
    (cur = None \/ exists a e k, cur = Some (Some a, k) /\ energy s a = Some e) ->
    exists r, lowest N muB s ns cur = Some r /\ (r = None -> ns = [] /\ cur = None).
  Proof.
    intros s. induction ns as [|n ns IH]; intros cur Hn Hc; cbn [lowest]; [eauto|].
    assert (Hn' : forall n, In n ns -> exists a e, dget n (g_nodes (s_g0 s)) = Some (Some a) /\ energy s a = Some e) by (intros m I; apply Hn; simpl; auto).
    destruct (Hn n (or_introl eq_refl)) as [b [eb [Db Eb]]]. rewrite Db.
    assert (Go : forall cur', (exists a e k, cur' = Some (Some a, k) /\ energy s a = Some e) ->
      exists r, lowest N muB s ns cur' = Some r /\ (r = None -> n :: ns = [] /\ cur = None)).
    { intros cur' Hc'. destruct (IH cur' Hn' (or_intror Hc')) as [r [E1 E2]]. exists r. split; auto. intros Er.
      destruct (E2 Er) as [_ E3]. destruct Hc' as [? [? [? [E4 _]]]]. congruence. }
    destruct Hc as [->|[a [e [k [-> Ea]]]]]; [apply Go; eauto 10|]. rewrite Eb, Ea. apply Go. destruct (nltb N eb e); eauto 10.
  Qed.

  Lemma set_node_level : forall s n, WF s -> homes s -> In n (set_nodes s) ->
    exists a l, dget n (g_nodes (s_g0 s)) = Some (Some a) /\ lv s a = Some l /\ l_kind l = LE /\ lname l = n /\ energy s a = Some (l_E l).
  Proof.
    intros s n W H I. apply set_nodes_In in I as [v I]; auto. destruct (set_edge_of N s n v W I) as [t [x [f [l [h E]]]]].
    pose proof E as [Ed [V [Fx [Vl [Vh [Kl [Kh O]]]]]]].
    destruct (H n v t x Ed) as [[l' [V1 D1]] [h' [V2 D2]]]; auto; [unfold is_set; now rewrite V, Fx|].
    rewrite Vl in V1. injection V1 as <-. rewrite Vh in V2. injection V2 as <-.
    destruct O as [[E1 E2]|[E1 E2]].
    - exists (x_lo x), l. rewrite <- E1. repeat (split; auto). unfold Atom.energy. rewrite Vl, Kl. now apply wf_energyE.
    - exists (x_up x), h. rewrite <- E2. repeat (split; auto). unfold Atom.energy. rewrite Vh, Kh. now apply wf_energyE.
  Qed.

  (** One component: a search from one of its nodes. *)
  Lemma enforce_comp_eq : forall o s c, oracle_ok o -> WF s -> homes s -> c <> [] -> incl c (set_nodes s) ->
    exists k es vis, In k c /\ enforce_comp N muB o (S (List.length (set_nodes s))) c s = forM es (enforce_edge N) s /\
      grow (set_nbrs s) [k] es vis /\ (forall w, In w vis <-> reach (set_nbrs s) k w).
  Proof.
    intros o s c O W H Nc Ic. unfold enforce_comp, bind at 1, asks at 1.
    destruct (lowest_ok s (o_nodes o c) None) as [r [E Er]]; auto.
    { intros n I. apply (perm_incl _ _ (ok_nodes _ O c)) in I. destruct (set_node_level s n W H (Ic _ I)) as [a [l [D [_ [_ [_ En]]]]]]. eauto. }
    rewrite E. destruct r as [[a k]|].
    - assert (Ik : In k c).
      { apply lowest_In in E as [I|[? E]]; [|discriminate]. eapply perm_incl; [apply (ok_nodes _ O)|exact I]. }
      destruct (dfs_set N o s k O W (Ic _ Ik)) as [es [vis [_ [Ed [G [R He]]]]]]. exists k, es, vis. split; auto. split.
      + unfold bind, asks. now rewrite Ed.
      + split; auto. clear - G O. induction G; constructor; auto. eapply perm_incl; [apply (ok_nbrs _ O)|eauto].
    - exfalso. destruct Er as [Er _]; auto. pose proof (ok_nodes _ O c) as P. rewrite Er in P. apply Permutation_nil in P. auto.
  Qed.

  (** The components of the constrained graph. *)
  Lemma comps_spec : forall s, WF s -> exists cs, components (S (List.length (set_nodes s))) (set_nbrs s) (set_nodes s) [] = Some cs /\
    (forall c, In c cs -> c <> [] /\ incl c (set_nodes s) /\ exists n, In n c /\ forall w, In w c <-> reach (set_nbrs s) n w) /\
    (forall n, In n (set_nodes s) -> exists c, In c cs /\ In n c) /\
    (forall i j c c' w, nth_error cs i = Some c -> nth_error cs j = Some c' -> In w c -> In w c' -> i = j).
  Proof.
    intros s W. destruct (enforce_comp_list N s W) as [cs [E Hc]]. exists cs. split; auto.
    destruct (components_spec _ _ _ _ _ E) as [S1 S2]. split; [|split].
    - intros c I. destruct (S1 c I) as [n [es [_ [_ Ed]]]].
      assert (In n c) by (apply (dfs_reach _ _ _ _ _ Ed); constructor).
      split; [intros ->; contradiction|]. split; auto. exists n. split; auto. exact (dfs_reach _ _ _ _ _ Ed).
    - intros n I. destruct (S2 n I) as [[]|?]; auto.
    - intros i j c c' w. apply (components_disjoint _ _ _ _ _ (fun u v => set_nbrs_sym N s u v W)) in E; [|intros ? ? []].
      apply (proj2 E).
  Qed.

  (** ** One new constraint at a free level *)

  (** The state after moving [b] to [e] and fixing both ends of [x]. *)
  Definition moved_to x (b : nat) (e : N) s : st :=
    upd_lv (x_lo x) (lv_set_fixed true) (upd_lv (x_up x) (lv_set_fixed true) (upd_lv b (lv_set_E e) s)).

  Lemma moved_to_moved : forall x b e s, moved s (moved_to x b e s).
  Proof.
    intros. unfold moved_to. eapply moved_trans; [|apply moved_fixed]. eapply moved_trans; [|apply moved_fixed]. apply moved_E.
  Qed.

  (** Which end moves, and where to. *)
  Definition moves x (f : N) l (h : level) (b : nat) (e : N) : Prop :=
    (b = x_up x /\ l_fixed h = false /\ e = nadd N (l_E l) f /\ sat f (l_E l) e) \/
    (b = x_lo x /\ l_fixed h = true /\ l_fixed l = false /\ e = nsub N (l_E h) f /\ sat f e (l_E h)).

  Lemma moves_done : forall s u v x f l h b e, moves x f l h b e -> edge_done N u v x f l h s = moved_to x b e s.
  Proof.
    intros s u v x f l h b e [[-> [Fh [-> _]]]|[-> [Fh [Fl [-> _]]]]]; unfold edge_done, moved_to.
    - rewrite Fh, andb_false_r. reflexivity.
    - rewrite Fl, Fh. reflexivity.
  Qed.

  Lemma lv_moved_to : forall x b e s a, lv (moved_to x b e s) a =
    option_map (fun l => lv_set_fixed (l_fixed l || Nat.eqb (x_lo x) a || Nat.eqb (x_up x) a) (lv_set_E (if Nat.eqb b a then e else l_E l) l)) (lv s a).
  Proof.
    intros x b e s a. unfold moved_to. rewrite !lv_upd_lv. destruct (lv s a) as [[]|]; [|destruct (Nat.eqb _ _), (Nat.eqb _ _), (Nat.eqb _ _); reflexivity].
    destruct (Nat.eqb (x_lo x) a), (Nat.eqb (x_up x) a), (Nat.eqb b a); cbn; rewrite ?orb_true_r, ?orb_false_r; reflexivity.
  Qed.

  Section OneNew.
    Context (s : st) (W : WF s) (Hm : homes s) (p q : string) (t : nat) (x : trans) (f : N) (l h : level) (b : nat) (e : N) (w o : string).
    Context (E : set_edge N s p q t x f l h) (Npq : p <> q) (Mv : moves x f l h b e)
      (Bw : nm s b = Some w) (Wo : (w = p /\ o = q) \/ (w = q /\ o = p))
      (Leaf : forall v, In v (set_nbrs s w) -> v = o)
      (Rest : forall u v, In v (set_nbrs s u) -> (u = p /\ v = q) \/ (u = q /\ v = p) \/ held s u v).
    Let s' := moved_to x b e s.

    Lemma ends_differ : x_lo x <> x_up x.
    Proof. destruct E as [_ [_ [_ [Vl [Vh [_ [_ O]]]]]]]. intros Eq. rewrite Eq, Vh in Vl. injection Vl as ->. destruct O as [[? ?]|[? ?]]; congruence. Qed.

    Lemma new_held : held s' p q.
    Proof.
      pose proof ends_differ as D. pose proof E as [Ed [V [Fx [Vl [Vh [Kl [Kh O]]]]]]].
      pose proof (lv_moved_to x b e s (x_lo x)) as L1. pose proof (lv_moved_to x b e s (x_up x)) as L2. fold s' in L1, L2.
      rewrite Vl in L1. rewrite Vh in L2. cbn [option_map] in L1, L2. rewrite Nat.eqb_refl, orb_true_r in L1. rewrite Nat.eqb_refl, orb_true_r in L2.
      eexists t, x, f, _, _. split.
      - split; [exact Ed|]. split; [exact V|]. split; [exact Fx|]. split; [exact L1|]. split; [exact L2|]. split; [exact Kl|]. split; [exact Kh|]. exact O.
      - cbn. split; auto. split; auto. destruct Mv as [[-> [_ [-> S]]]|[-> [_ [_ [-> S]]]]].
        + rewrite Nat.eqb_refl. destruct (Nat.eqb_spec (x_up x) (x_lo x)); [congruence|]. exact S.
        + rewrite Nat.eqb_refl. destruct (Nat.eqb_spec (x_lo x) (x_up x)); [congruence|]. exact S.
    Qed.

    Lemma old_held : forall u v, In v (set_nbrs s u) -> held s u v -> (u = p /\ v = q) \/ (u = q /\ v = p) \/ held s' u v.
    Proof.
      intros u v I [t' [x' [f' [l' [h' [E' [Fl [Fh S]]]]]]]].
      assert (Hw : u <> w /\ v <> w \/ (u = p /\ v = q) \/ (u = q /\ v = p)).
      { destruct (string_dec u w) as [->|Hu].
        - right. apply Leaf in I. subst v. destruct Wo as [[-> ->]|[-> ->]]; auto.
        - destruct (string_dec v w) as [->|Hv]; [|auto]. right. apply set_nbrs_sym in I; auto. apply Leaf in I. subst u. destruct Wo as [[-> ->]|[-> ->]]; auto. }
      destruct Hw as [[Hu Hv]|Hw]; [|tauto]. right. right.
      pose proof E' as [Ed [V [Fx [Vl [Vh [Kl [Kh O]]]]]]].
      assert (B1 : Nat.eqb b (x_lo x') = false).
      { apply Nat.eqb_neq. intros ->. unfold nm in Bw. rewrite Vl in Bw. injection Bw as Bw. destruct O as [[? ?]|[? ?]]; congruence. }
      assert (B2 : Nat.eqb b (x_up x') = false).
      { apply Nat.eqb_neq. intros ->. unfold nm in Bw. rewrite Vh in Bw. injection Bw as Bw. destruct O as [[? ?]|[? ?]]; congruence. }
      pose proof (lv_moved_to x b e s (x_lo x')) as L1. pose proof (lv_moved_to x b e s (x_up x')) as L2. fold s' in L1, L2.
      rewrite Vl in L1. rewrite Vh in L2. cbn [option_map] in L1, L2. rewrite B1, Fl in L1. rewrite B2, Fh in L2.
      eexists t', x', f', _, _. split.
      - split; [exact Ed|]. split; [exact V|]. split; [exact Fx|]. split; [exact L1|]. split; [exact L2|]. split; [exact Kl|]. split; [exact Kh|]. exact O.
      - cbn. split; auto.
    Qed.

    Lemma W' : WF s'.
    Proof. eapply moved_WF; [exact W|apply moved_to_moved]. Qed.

    Lemma all_held : forall u v, In v (set_nbrs s u) -> held s' u v.
    Proof.
      assert (G : forall u v, In v (set_nbrs s u) -> (u = p /\ v = q) \/ (u = q /\ v = p) \/ held s' u v).
      { intros u v I. destruct (Rest u v I) as [H|[H|H]]; [tauto|tauto|]. now apply old_held. }
      intros u v I. destruct (G u v I) as [[-> ->]|[[-> ->]|H]]; auto; [apply new_held|apply held_sym; [apply W'|apply new_held]].
    Qed.

    Definition is_pq (uv : string * string) : bool :=
      (String.eqb (fst uv) p && String.eqb (snd uv) q) || (String.eqb (fst uv) q && String.eqb (snd uv) p).

    Lemma is_pq_spec : forall u v, is_pq (u, v) = true <-> (u = p /\ v = q) \/ (u = q /\ v = p).
    Proof. intros. unfold is_pq. cbn [fst snd]. rewrite orb_true_iff, !andb_true_iff, !String.eqb_eq. tauto. Qed.

    Lemma run_edges : forall es, (forall u v, In (u, v) es -> In v (set_nbrs s u)) ->
      forM es (enforce_edge N) s = (Ok tt, if existsb is_pq es then s' else s).
    Proof.
      induction es as [|[u v] es IH]; intros H; [reflexivity|]. cbn [forM existsb]. unfold bind.
      destruct (is_pq (u, v)) eqn:P.
      - assert (Eu : set_edge N s u v t x f l h) by (apply is_pq_spec in P as [[-> ->]|[-> ->]]; auto; now apply set_edge_sym).
        rewrite (enforce_edge_eq N s _ _ _ _ _ _ _ Eu), (moves_done _ _ _ _ _ _ _ _ _ Mv). fold s'. cbn [orb].
        apply quiet_edges. intros u' v' I. apply all_held. apply H. simpl. auto.
      - rewrite held_done; [cbn [orb]; apply IH; intros u' v' I; apply H; simpl; auto|].
        destruct (Rest u v) as [R|[R|R]]; auto; [apply H; simpl; auto| |];
          (assert (is_pq (u, v) = true) by (apply is_pq_spec; auto); congruence).
    Qed.

    Lemma not_self : w <> o.
    Proof. destruct Wo as [[-> ->]|[-> ->]]; congruence. Qed.

    (** A search that reaches both ends uses the edge. *)
    Lemma grow_uses : forall k es vis, grow (set_nbrs s) [k] es vis -> In w vis -> In o vis -> existsb is_pq es = true.
    Proof.
      intros k es vis G Iw Io. assert (P : In (w, o) es \/ In (o, w) es).
      { destruct (string_dec k w) as [->|Hk].
        - left. assert (Go : forall V es V', grow (set_nbrs s) V es V' -> (forall z, In z V -> z = w) -> In o V' -> In (w, o) es).
          { clear G Iw Io. intros V es0 V' G HV Io. destruct G as [|V u v es0 V' Iu Nv Nx G]; [apply HV in Io; pose proof not_self; congruence|].
            apply HV in Iu. subst u. apply Leaf in Nx. subst v. simpl. auto. }
          eapply Go; [exact G| |exact Io]. intros z [->|[]]. reflexivity.
        - right. apply (grow_In _ _ _ _ _ G) in Iw as [[I|[]]|I]; [congruence|]. apply in_map_iff in I as [[z v] [Ev I]]. cbn [snd] in Ev. subst v.
          destruct (grow_edge _ _ _ _ _ _ G I) as [Nx _]. apply set_nbrs_sym in Nx; auto. apply Leaf in Nx. now subst z. }
      apply existsb_exists. destruct P as [P|P]; eexists; (split; [exact P|]); apply is_pq_spec; destruct Wo as [[-> ->]|[-> ->]]; auto.
    Qed.

    Lemma homes_moved : forall s1 s2, moved s1 s2 -> homes s1 -> homes s2.
    Proof.
      intros s1 s2 Mm H u v t' x' Ed Is V.
      assert (Hh : forall a, home s1 a -> home s2 a).
      { intros a [la [Va Da]]. destruct (moved_lv _ _ _ _ _ Mm Va) as [la' [Va' Ea]]. exists la'. split; auto.
        rewrite (mv_g0 _ _ _ Mm). replace (lname la') with (lname la) by (rewrite Ea; reflexivity). auto. }
      rewrite (mv_g0 _ _ _ Mm) in Ed. unfold is_set, tr in *. rewrite (mv_trans _ _ _ Mm) in *.
      destruct (H u v t' x' Ed Is V). auto.
    Qed.

    Lemma run_comp : forall orc c, oracle_ok orc -> c <> [] -> incl c (set_nodes s) -> (exists n, In n c /\ forall z, In z c <-> reach (set_nbrs s) n z) ->
      enforce_comp N muB orc (S (List.length (set_nodes s))) c s = (Ok tt, if mem p c then s' else s) /\
      enforce_comp N muB orc (S (List.length (set_nodes s'))) c s' = (Ok tt, s').
    Proof.
      intros orc c OK Nc Ic [n [In_ Hr]].
      assert (Hp : In q (set_nbrs s p)) by (eapply set_edge_nbr; eauto).
      assert (Hq : In p (set_nbrs s q)) by (now apply set_nbrs_sym).
      assert (R1 : forall z, In z c -> forall z', In z' c <-> reach (set_nbrs s) z z').
      { intros z Iz z'. rewrite Hr. rewrite Hr in Iz. split; intros R.
        - eapply reach_trans; [|exact R]. apply reach_sym; auto. intros u v. now apply set_nbrs_sym.
        - eapply reach_trans; eauto. }
      split.
      - destruct (enforce_comp_eq orc s c OK W Hm Nc Ic) as [k [es [vis [Ik [-> [G R]]]]]].
        rewrite run_edges; [|intros u v I; apply (grow_edge _ _ _ _ _ _ G I)].
        f_equal. destruct (mem p c) eqn:Mp.
        + apply mem_In in Mp. assert (Ip : In p vis) by (apply R, (R1 k Ik); auto).
          assert (Iq : In q vis) by (apply R; eapply reach_step; [apply R; exact Ip|auto]).
          rewrite (grow_uses k es vis G); auto; destruct Wo as [[-> ->]|[-> ->]]; auto.
        + apply mem_false in Mp. destruct (existsb is_pq es) eqn:Ex; auto. exfalso. apply existsb_exists in Ex as [[u v] [I P]].
          apply is_pq_spec in P. destruct (grow_edge _ _ _ _ _ _ G I) as [_ [Iu [Iv _]]]. apply Mp. apply (R1 k Ik).
          apply R. destruct P as [[-> ->]|[-> ->]]; auto.
      - assert (Mm : moved s s') by apply moved_to_moved.
        destruct (enforce_comp_eq orc s' c OK W' (homes_moved _ _ Mm Hm) Nc) as [k [es [vis [Ik [-> [G R]]]]]].
        { now rewrite (set_nodes_moved N _ _ Mm). }
        apply quiet_edges. intros u v I. apply all_held. destruct (grow_edge _ _ _ _ _ _ G I) as [Nx _].
        now rewrite (set_nbrs_moved N _ _ u Mm) in Nx.
    Qed.

    Lemma run_comps : forall orc from cs, oracle_ok orc ->
      (forall c, In c cs -> c <> [] /\ incl c (set_nodes s) /\ exists n, In n c /\ forall z, In z c <-> reach (set_nbrs s) n z) ->
      forM cs (comp_step N muB orc (S (List.length (set_nodes s))) from) s' = (Ok tt, s') /\
      forM cs (comp_step N muB orc (S (List.length (set_nodes s))) from) s =
        (Ok tt, if existsb (fun c => touched s c from && mem p c) cs then s' else s).
    Proof.
      intros orc from cs OK. assert (Mm : moved s s') by apply moved_to_moved.
      induction cs as [|c cs IH]; intros Hc; [split; reflexivity|].
      destruct (IH (fun c I => Hc c (or_intror I))) as [I1 I2]. destruct (Hc c (or_introl eq_refl)) as [H1 [H2 H3]].
      destruct (run_comp orc c OK H1 H2 H3) as [C1 C2]. rewrite (set_nodes_moved N _ _ Mm) in C2.
      split; cbn [forM existsb]; unfold bind; rewrite comp_step_eq.
      - destruct (touched s' c from); rewrite ?C2; exact I1.
      - destruct (touched s c from); cbn [andb orb]; [|exact I2]. rewrite C1. destruct (mem p c); cbn [orb]; [exact I1|exact I2].
    Qed.
  End OneNew.

  (** Enforcing after one new constraint whose level [w] is in no other. *)
  Lemma enforce_new : forall orc s p q t x f l h b e w o from, (forall n, oracle_ok (orc n)) -> WF s -> homes s ->
    set_edge N s p q t x f l h -> p <> q -> moves x f l h b e -> nm s b = Some w ->
    (w = p /\ o = q) \/ (w = q /\ o = p) -> (forall v, In v (set_nbrs s w) -> v = o) ->
    (forall u v, In v (set_nbrs s u) -> (u = p /\ v = q) \/ (u = q /\ v = p) \/ held s u v) ->
    (from = None \/ from = Some (p, q) \/ from = Some (q, p)) ->
    enforce N muB orc from s = (Ok tt, moved_to x b e (tick s)) /\
    (forall u v, In v (set_nbrs s u) -> held (moved_to x b e (tick s)) u v).
  Proof.
    intros orc s p q t x f l h b e w o from OK W Hm E Npq Mv Bw Wo Leaf Rest Hf.
    pose proof (moved_tick N s) as Mt. pose proof (moved_WF _ _ _ W Mt) as Wt. pose proof (homes_moved _ _ Mt Hm) as Ht.
    assert (Rest' : forall u v, In v (set_nbrs (tick s) u) -> (u = p /\ v = q) \/ (u = q /\ v = p) \/ held (tick s) u v) by exact Rest.
    split; [|exact (all_held (tick s) Wt p q t x f l h b e w o E Npq Mv Bw Wo Leaf Rest')].
    unfold enforce, bind, gets, modify. cbv beta iota zeta. unfold asks.
    destruct (comps_spec (tick s) Wt) as [cs [Ec [C1 [C2 _]]]]. rewrite Ec.
    destruct (run_comps (tick s) Wt Ht p q t x f l h b e w o E Npq Mv Bw Wo Leaf Rest' (orc (s_tick s)) from (o_comps (orc (s_tick s)) cs) (OK _)) as [_ R].
    { intros c I. apply C1. eapply Permutation_in; [apply (ok_comps _ (OK (s_tick s)))|exact I]. }
    etransitivity; [exact R|]. f_equal.
    assert (Hp : In q (set_nbrs (tick s) p)) by (eapply set_edge_nbr; eauto).
    assert (Hq : In p (set_nbrs (tick s) q)) by (now apply set_nbrs_sym).
    destruct (C2 p) as [c [Ic Ip]]; [apply set_nodes_In; eauto|]. destruct (C1 c Ic) as [_ [_ [n [_ Hr]]]].
    assert (Iq : In q c) by (apply Hr; eapply reach_step; [apply Hr; exact Ip|auto]).
    replace (existsb _ _) with true; auto. symmetry. apply existsb_exists. exists c. split; [eapply Permutation_in; [apply Permutation_sym, (ok_comps _ (OK (s_tick s)))|exact Ic]|].
    apply andb_true_iff. split; [|now apply mem_In]. unfold touched.
    destruct Hf as [-> | [-> | ->]]; auto; apply andb_true_iff; split; apply mem_In; auto.
  Qed.
End Enforce.
