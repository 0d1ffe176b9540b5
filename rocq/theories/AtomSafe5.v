(** Enforcement of set frequencies: it only moves and fixes levels. *)
From Coq Require Import List Bool ZArith QArith Qcanon Lia String Ascii Permutation.
From Verif Require Import Base PyStr Util UtilProofs Parse Term TermProofs Num Wigner Hyperfine HyperfineProofs
  Graph GraphProofs DfsProofs Rules Atom AtomInv AtomSafe AtomSafe2 AtomSafe3 AtomSafe4.
Import ListNotations.

Arguments is_set {N}. Arguments set_nbrs {N}. Arguments set_nodes {N}. Arguments touched {N}.

(** The iteration orders are rearrangements. *)
Record oracle_ok (o : oracle) : Prop := mk_oracle_ok {
  ok_comps : forall cs, Permutation (o_comps o cs) cs;
  ok_nodes : forall ns, Permutation (o_nodes o ns) ns;
  ok_nbrs : forall u ns, Permutation (o_nbrs o u ns) ns
}.

Section Safe5.
  Context (N : Num) (muB : N).
  Notation st := (st N).
  Notation level := (level N).
  Notation trans := (trans N).
  Notation M := (M N).
  Notation energy := (energy N muB).
  Implicit Types (s : st) (l : level) (x y : trans) (a : nat) (t : nat).

  (** ** Moving levels *)

  Record moved s s' : Prop := mk_moved {
    mv_trans : s_trans s' = s_trans s;
    mv_g0 : s_g0 s' = s_g0 s; mv_g1 : s_g1 s' = s_g1 s; mv_g2 : s_g2 s' = s_g2 s;
    mv_lal : s_lal s' = s_lal s; mv_tal : s_tal s' = s_tal s; mv_I : s_I s' = s_I s; mv_B : s_B s' = s_B s;
    mv_lv : forall a, match lv s' a, lv s a with
      | Some l', Some l => l' = lv_set_fixed (l_fixed l') (lv_set_E (l_E l') l)
      | None, None => True
      | _, _ => False
      end
  }.

  Lemma moved_lv : forall s s' a l, moved s s' -> lv s a = Some l ->
    exists l', lv s' a = Some l' /\ l' = lv_set_fixed (l_fixed l') (lv_set_E (l_E l') l).
  Proof. intros s s' a l Mv V. pose proof (mv_lv _ _ Mv a) as H. rewrite V in H. destruct (lv s' a); [eauto|contradiction]. Qed.
  Lemma moved_lv_inv : forall s s' a l', moved s s' -> lv s' a = Some l' ->
    exists l, lv s a = Some l /\ l' = lv_set_fixed (l_fixed l') (lv_set_E (l_E l') l).
  Proof. intros s s' a l' Mv V. pose proof (mv_lv _ _ Mv a) as H. rewrite V in H. destruct (lv s a); [eauto|contradiction]. Qed.

  Lemma moved_refl : forall s, moved s s.
  Proof. intros. constructor; auto. intros a. destruct (lv s a) as [[]|]; reflexivity. Qed.
  Lemma moved_trans : forall s1 s2 s3, moved s1 s2 -> moved s2 s3 -> moved s1 s3.
  Proof.
    intros s1 s2 s3 A B. constructor; try (etransitivity; [apply B|apply A]).
    intros a. pose proof (mv_lv _ _ A a) as H1. pose proof (mv_lv _ _ B a) as H2.
    destruct (lv s3 a) as [l3|], (lv s2 a) as [l2|], (lv s1 a) as [l1|]; auto; try contradiction.
    rewrite H2, H1. reflexivity.
  Qed.
  Lemma moved_po : preord moved.
  Proof. constructor; [apply moved_refl|apply moved_trans]. Qed.

  Lemma moved_ext : forall s s', moved s s' -> ext s s'.
  Proof.
    intros s s' Mv. constructor; [apply Mv| |].
    - intros a l V. destruct (moved_lv _ _ _ _ Mv V) as [l' [V' E]]. exists l'. split; auto. rewrite E. repeat split; auto.
    - intros t x V. exists x. unfold tr in *. rewrite (mv_trans _ _ Mv). split; auto. apply xsame_refl.
  Qed.

  Lemma moved_WF : forall s s', WF s -> moved s s' -> WF s'.
  Proof.
    intros s s' W Mv. pose proof (moved_ext _ _ Mv) as X. eapply WF_step; eauto.
    - intros a l' V. left. destruct (moved_lv_inv _ _ _ _ Mv V) as [l [V0 E]]. exists l. split; auto. rewrite E. reflexivity.
    - intros t x V. left. exists x. unfold tr in *. rewrite (mv_trans _ _ Mv) in V. auto.
    - intros []; left; simpl; apply Mv.
    - intros k a E. left. rewrite (mv_lal _ _ Mv) in E. auto.
    - intros k a E. left. rewrite (mv_tal _ _ Mv) in E. auto.
  Qed.

  Lemma moved_upd : forall s a f, (forall l, f l = lv_set_fixed (l_fixed (f l)) (lv_set_E (l_E (f l)) l)) -> moved s (upd_lv a f s).
  Proof.
    intros s a f H. constructor; auto. intros b. rewrite lv_upd_lv. destruct (Nat.eqb a b).
    - destruct (lv s b) as [l|]; simpl; auto.
    - destruct (lv s b) as [[]|]; reflexivity.
  Qed.
  Lemma moved_E : forall s a e, moved s (upd_lv a (lv_set_E e) s).
  Proof. intros. apply moved_upd. intros []. reflexivity. Qed.
  Lemma moved_fixed : forall s a b, moved s (upd_lv a (lv_set_fixed b) s).
  Proof. intros. apply moved_upd. intros []. reflexivity. Qed.
  Lemma moved_warn : forall s w, moved s (add_warn w s).
  Proof. intros. constructor; auto. intros b. change (lv (add_warn w s) b) with (lv s b). destruct (lv s b) as [[]|]; reflexivity. Qed.
  Lemma moved_tick : forall s, moved s (tick s).
  Proof. intros. constructor; auto. intros b. change (lv (tick s) b) with (lv s b). destruct (lv s b) as [[]|]; reflexivity. Qed.

  (** ** The constrained graph *)

  Lemma set_nbrs_moved : forall s s' u, moved s s' -> set_nbrs s' u = set_nbrs s u.
  Proof. intros s s' u Mv. unfold set_nbrs, is_set, tr. now rewrite (mv_trans _ _ Mv), (mv_g0 _ _ Mv). Qed.
  Lemma set_nodes_moved : forall s s', moved s s' -> set_nodes s' = set_nodes s.
  Proof.
    intros s s' Mv. unfold set_nodes. rewrite (mv_g0 _ _ Mv). apply filter_ext. intros u.
    now rewrite (set_nbrs_moved s s').
  Qed.

  Lemma set_nbrs_In : forall s u v, WF s -> (In v (set_nbrs s u) <-> exists t, edge (s_g0 s) u v = Some t /\ is_set s t = true).
  Proof.
    intros s u v W. unfold set_nbrs. rewrite in_map_iff. split.
    - intros [[v' t] [E I]]. simpl in E. subst v'. apply filter_In in I as [I S]. exists t. split; auto.
      unfold edge. apply In_dget_nodup; auto. apply (gw_nbrs _ (go_wf _ _ _ _ (wf_g _ _ W LE))).
    - intros [t [E S]]. exists (v, t). split; auto. apply filter_In. split; auto. unfold edge in E.
      now apply dget_In.
  Qed.

  Lemma set_nbrs_sym : forall s u v, WF s -> In v (set_nbrs s u) -> In u (set_nbrs s v).
  Proof.
    intros s u v W I. apply set_nbrs_In; auto. apply set_nbrs_In in I as [t [E S]]; auto. exists t. split; auto.
    exact (gw_sym _ (go_wf _ _ _ _ (wf_g _ _ W LE)) _ _ _ E).
  Qed.

  Lemma set_nodes_In : forall s u, WF s -> (In u (set_nodes s) <-> exists v, In v (set_nbrs s u)).
  Proof.
    intros s u W. unfold set_nodes. rewrite filter_In. split.
    - intros [_ H]. destruct (set_nbrs s u) as [|v vs]; [discriminate|]. exists v. simpl. auto.
    - intros [v I]. split.
      + apply set_nbrs_In in I as [t [E _]]; auto. unfold edge, nbrs in E.
        apply dget_Some_key. destruct (dget u (g_adj (s_g0 s))); eauto. discriminate.
      + destruct (set_nbrs s u); [contradiction|auto].
  Qed.

  Lemma set_nodes_closed : forall s w, WF s -> incl (set_nbrs s w) (set_nodes s).
  Proof. intros s w W v I. apply set_nodes_In; auto. exists w. now apply set_nbrs_sym. Qed.

  (** ** One edge *)

  (** What enforcing the transition [x] set to [f] along u-v does. *)
  Definition edge_done (u v : string) x f l (h : level) s : st :=
    upd_lv (x_lo x) (lv_set_fixed true) (upd_lv (x_up x) (lv_set_fixed true)
      (if l_fixed l && l_fixed h && negb (neqb N f (nabs N (nsub N (l_E l) (l_E h)))) then add_warn (WLoop u v) s
       else if l_fixed h then upd_lv (x_lo x) (lv_set_E (nsub N (l_E h) f)) s
       else upd_lv (x_up x) (lv_set_E (nadd N (l_E l) f)) s)).

  Lemma edge_done_moved : forall u v x f l h s, moved s (edge_done u v x f l h s).
  Proof.
    intros. unfold edge_done. eapply moved_trans; [|apply moved_fixed]. eapply moved_trans; [|apply moved_fixed].
    destruct (_ && _); [apply moved_warn|]. destruct (l_fixed h); apply moved_E.
  Qed.

  (** The ends of a constrained edge. *)
  Definition set_edge s (u v : string) t x (f : N) l (h : level) : Prop :=
    edge (s_g0 s) u v = Some t /\ tr s t = Some x /\ x_set x = Some f /\ lv s (x_lo x) = Some l /\ lv s (x_up x) = Some h /\
    l_kind l = LE /\ l_kind h = LE /\
    ((lname l = u /\ lname h = v) \/ (lname l = v /\ lname h = u)).

  Lemma set_edge_of : forall s u v, WF s -> In v (set_nbrs s u) -> exists t x f l h, set_edge s u v t x f l h.
  Proof.
    intros s u v W I. apply set_nbrs_In in I as [t [E S]]; auto.
    destruct (go_edge _ _ _ _ (wf_g _ _ W LE) _ _ _ E) as [x [V [K O]]].
    unfold is_set in S. rewrite V in S. destruct (x_set x) as [f|] eqn:Ef; [|discriminate].
    destruct (wf_tr _ _ W _ _ V) as [l1 [l2 [V1 [V2 [K1 [K2 [UL _]]]]]]]. rewrite K in K1, K2.
    assert (H : exists l h, lv s (x_lo x) = Some l /\ lv s (x_up x) = Some h /\ l_kind l = LE /\ l_kind h = LE).
    { destruct UL as [[-> ->]|[-> ->]]; eauto 10. }
    destruct H as [l [h [Vl [Vh [Kl Kh]]]]]. exists t, x, f, l, h. unfold set_edge. unfold nm in O. rewrite Vl, Vh in O. simpl in O.
    repeat (split; auto). destruct O as [[O1 O2]|[O1 O2]]; [left|right]; split; congruence.
  Qed.

  Lemma bind_asks {A B} : forall e (g : st -> option A) (k : A -> M B) s v, g s = Some v -> bind (asks e g) k s = k v s.
  Proof. intros e g k s v E. unfold bind, asks. now rewrite E. Qed.

  Lemma enforce_edge_eq : forall s u v t x f l h, set_edge s u v t x f l h ->
    enforce_edge N (u, v) s = (Ok tt, edge_done u v x f l h s).
  Proof.
    intros s u v t x f l h [E [V [Ef [Vl [Vh [Kl [Kh _]]]]]]]. unfold enforce_edge, get_tr, get_lv.
    rewrite (bind_asks _ _ _ _ _ E), (bind_asks _ _ _ _ _ V), (bind_asks _ _ _ _ _ Ef), (bind_asks _ _ _ _ _ Vl), (bind_asks _ _ _ _ _ Vh).
    rewrite (bind_asks _ _ _ _ _ (wf_energyE _ _ _ _ Vl Kl)), (bind_asks _ _ _ _ _ (wf_energyE _ _ _ _ Vh Kh)).
    unfold edge_done, set_energyE, modify, bind. cbn [fst snd]. destruct (_ && _); [reflexivity|]. destruct (l_fixed h); reflexivity.
  Qed.

  Lemma set_edge_moved : forall s s' u v t x f l h, moved s s' -> set_edge s u v t x f l h ->
    exists l' h', set_edge s' u v t x f l' h'.
  Proof.
    intros s s' u v t x f l h Mv [E [V [Ef [Vl [Vh [Kl [Kh O]]]]]]].
    destruct (moved_lv _ _ _ _ Mv Vl) as [l' [Vl' El]]. destruct (moved_lv _ _ _ _ Mv Vh) as [h' [Vh' Eh]].
    exists l', h'. unfold set_edge, tr. rewrite (mv_g0 _ _ Mv), (mv_trans _ _ Mv). rewrite El, Eh in *.
    repeat (split; auto).
  Qed.

  (** ** A component, and all of them *)

  Definition fine (r : res unit) : Prop := r = Ok tt \/ r = Raise AttributeError.

  Lemma enforce_edges : forall es s, WF s -> (forall u v, In (u, v) es -> In v (set_nbrs s u)) ->
    fst (forM es (enforce_edge N) s) = Ok tt /\ moved s (snd (forM es (enforce_edge N) s)).
  Proof.
    induction es as [|[u v] es IH]; intros s W H; [split; [reflexivity|apply moved_refl]|].
    destruct (set_edge_of s u v W (H u v (or_introl eq_refl))) as [t [x [f [l [h E]]]]].
    cbn [forM]. unfold bind. rewrite (enforce_edge_eq _ _ _ _ _ _ _ _ E).
    pose proof (edge_done_moved u v x f l h s) as Mv. pose proof (moved_WF _ _ W Mv) as W'.
    destruct (IH (edge_done u v x f l h s) W') as [I1 I2].
    { intros u' v' I. rewrite (set_nbrs_moved _ _ u' Mv). apply H. simpl. auto. }
    split; auto. eapply moved_trans; eauto.
  Qed.

  Lemma lowest_In : forall s ns cur o k, lowest N muB s ns cur = Some (Some (o, k)) -> In k ns \/ (exists o', cur = Some (o', k)).
  Proof.
    intros s. induction ns as [|n ns IH]; intros cur o k E; cbn [lowest] in E.
    - injection E as ->. right. eauto.
    - destruct cur as [[[a|] k']|].
      + destruct (match dget n (g_nodes (s_g0 s)) with Some o => o | None => None end) as [b|]; [|discriminate].
        destruct (energy s b), (energy s a); try discriminate.
        apply IH in E as [I|[o' E]]; [left; simpl; auto|]. destruct (nltb N _ _).
        * injection E as _ ->. left. simpl. auto.
        * right. exists o'. auto.
      + apply IH in E as [I|[o' E]]; [left; simpl; auto|]. injection E as _ ->. left. simpl. auto.
      + apply IH in E as [I|[o' E]]; [left; simpl; auto|]. injection E as _ ->. left. simpl. auto.
  Qed.

  Lemma perm_incl : forall (l l' : list string), Permutation l l' -> incl l l'.
  Proof. intros l l' P v I. eapply Permutation_in; eauto. Qed.

  (** The search from a node of the constrained graph. *)
  Lemma dfs_set : forall o s k, oracle_ok o -> WF s -> In k (set_nodes s) ->
    exists es vis, dfs (S (List.length (set_nodes s))) (fun u => o_nbrs o u (set_nbrs s u)) k [k] = Some (es, vis) /\
      dfs_edges (S (List.length (set_nodes s))) (fun u => o_nbrs o u (set_nbrs s u)) k = Some es /\
      grow (fun u => o_nbrs o u (set_nbrs s u)) [k] es vis /\
      (forall w, In w vis <-> reach (set_nbrs s) k w) /\
      (forall u v, In (u, v) es -> In v (set_nbrs s u)).
  Proof.
    intros o s k O W I. set (next := fun u => o_nbrs o u (set_nbrs s u)).
    assert (Hn : forall w, incl (next w) (set_nodes s)).
    { intros w v Iv. apply (set_nodes_closed s w W). eapply perm_incl; [apply (ok_nbrs _ O w)|exact Iv]. }
    assert (Lf : (unvisited (set_nodes s) [k] <= List.length (set_nodes s))%nat).
    { apply unvisited_len. }
    pose proof (dfs_fuel next (set_nodes s) (fun w _ => Hn w) _ k [k] I Lf) as F.
    destruct (dfs (S (List.length (set_nodes s))) next k [k]) as [[es vis]|] eqn:E; [|congruence].
    exists es, vis. destruct (dfs_spec _ _ _ _ _ _ E (or_introl eq_refl)) as [G _].
    split; auto. split; [unfold dfs_edges; now rewrite E|]. split; auto. split.
    - intros w. rewrite (dfs_reach _ _ _ _ _ E). split; apply reach_perm; intros v; unfold next; apply perm_incl; [|apply Permutation_sym]; apply (ok_nbrs _ O).
    - intros u v Iv. destruct (grow_edge _ _ _ _ _ _ G Iv) as [Nx _]. eapply perm_incl; [apply (ok_nbrs _ O u)|exact Nx].
  Qed.

  Lemma enforce_comp_safe : forall o s c, oracle_ok o -> WF s -> incl c (set_nodes s) ->
    fine (fst (enforce_comp N muB o (S (List.length (set_nodes s))) c s)) /\
    moved s (snd (enforce_comp N muB o (S (List.length (set_nodes s))) c s)).
  Proof.
    intros o s c O W Ic. unfold enforce_comp, bind, asks.
    destruct (lowest N muB s (o_nodes o c) None) as [[[a k]|]|] eqn:E.
    - assert (Ik : In k (set_nodes s)).
      { apply lowest_In in E as [I|[? E]]; [|discriminate]. apply Ic. eapply perm_incl; [apply (ok_nodes _ O)|exact I]. }
      destruct (dfs_set o s k O W Ik) as [es [vis [_ [Ed [_ [_ He]]]]]]. rewrite Ed.
      destruct (enforce_edges es s W He) as [H1 H2]. split; [left; exact H1|exact H2].
    - split; [now left|apply moved_refl].
    - split; [now right|apply moved_refl].
  Qed.

  Definition comp_step o (n : nat) from (c : list string) : M unit :=
    bind (gets (fun s => touched s c from)) (fun b => if b : bool then enforce_comp N muB o n c else ret tt).
  Lemma comp_step_eq : forall o n from c s,
    comp_step o n from c s = if touched s c from then enforce_comp N muB o n c s else (Ok tt, s).
  Proof. intros. unfold comp_step, bind, gets. now destruct (touched s c from). Qed.

  Lemma enforce_comps : forall o from n cs s, oracle_ok o -> WF s -> n = S (List.length (set_nodes s)) ->
    (forall c, In c cs -> incl c (set_nodes s)) ->
    fine (fst (forM cs (comp_step o n from) s)) /\ moved s (snd (forM cs (comp_step o n from) s)).
  Proof.
    intros o from n cs. induction cs as [|c cs IH]; intros s O W E Hc.
    - split; [now left|apply moved_refl].
    - cbn [forM]. unfold bind. rewrite comp_step_eq.
      assert (H : let r := (if touched s c from then enforce_comp N muB o n c s else (Ok tt, s)) in fine (fst r) /\ moved s (snd r)).
      { cbv zeta. destruct (touched s c from); [subst n; apply enforce_comp_safe; auto; apply Hc; simpl; auto|].
        split; [now left|apply moved_refl]. }
      destruct (if touched s c from then enforce_comp N muB o n c s else (Ok tt, s)) as [r s1].
      cbv zeta in H. cbn [fst snd] in H. destruct H as [F Mv]. destruct r as [[]|e].
      + pose proof (moved_WF _ _ W Mv) as W1. destruct (IH s1 O W1) as [F2 M2].
        * now rewrite (set_nodes_moved _ _ Mv).
        * intros c' I. rewrite (set_nodes_moved _ _ Mv). apply Hc. simpl. auto.
        * split; [exact F2|]. eapply moved_trans; [exact Mv|exact M2].
      + split; auto.
  Qed.

  Lemma enforce_comp_list : forall s, WF s -> exists cs, components (S (List.length (set_nodes s))) (set_nbrs s) (set_nodes s) [] = Some cs /\
    (forall c, In c cs -> incl c (set_nodes s)).
  Proof.
    intros s W. pose proof (components_fuel (set_nbrs s) (set_nodes s) (List.length (set_nodes s))
      (fun w _ => set_nodes_closed s w W) (le_n _) (set_nodes s) [] (incl_refl _)) as F.
    destruct (components _ _ (set_nodes s) []) as [cs|] eqn:E; [|congruence]. exists cs. split; auto.
    intros c Ic w Iw. destruct (proj1 (components_spec _ _ _ _ _ E) c Ic) as [n [es [In [_ Ed]]]].
    apply (dfs_reach _ _ _ _ _ Ed) in Iw. inversion Iw; subst; auto. eapply set_nodes_closed; eauto.
  Qed.

  (** Enforcement moves and fixes levels, and can only fail with an
      AttributeError (for a node that has no level). *)
  Lemma enforce_moved : forall orc s from, (forall n, oracle_ok (orc n)) -> WF s ->
    fine (fst (enforce N muB orc from s)) /\ moved s (snd (enforce N muB orc from s)).
  Proof.
    intros orc s from O W. unfold enforce, bind, gets, modify, asks. cbv beta iota.
    pose proof (moved_tick s) as Mt. pose proof (moved_WF _ _ W Mt) as Wt.
    destruct (enforce_comp_list (tick s) Wt) as [cs [E Hc]]. rewrite E.
    destruct (enforce_comps (orc (s_tick s)) from _ (o_comps (orc (s_tick s)) cs) (tick s) (O _) Wt eq_refl) as [F Mv].
    { intros c I. apply Hc. eapply Permutation_in; [apply (ok_comps _ (O (s_tick s)))|exact I]. }
    split; [exact F|]. eapply moved_trans; [exact Mt|exact Mv].
  Qed.

  Lemma enforce_safe : forall orc s from, (forall n, oracle_ok (orc n)) -> WF s ->
    safe moved s (enforce N muB orc from) (fun _ _ => True).
  Proof.
    intros orc s from O W. destruct (enforce_moved orc s from O W) as [F Mv]. split; [eapply moved_WF; eauto|]. split; auto.
    destruct F as [F|F]; rewrite F; auto. discriminate.
  Qed.
End Safe5.
