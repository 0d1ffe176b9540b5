(** Property C149: the order in which frequencies are set (atom.py:738-744 and
    1131-1169). *)
From Coq Require Import List Bool ZArith QArith Qcanon Lia String Ascii Permutation.
From Verif Require Import Base PyStr Util UtilProofs Parse Term TermProofs Num Wigner Hyperfine HyperfineProofs
  Graph GraphProofs DfsProofs Rules Atom AtomInv AtomSafe AtomSafe2 AtomSafe3 AtomSafe4 AtomSafe5 AtomSafe6 AtomLevels AtomEnergy
  AtomEnforce AtomEnforce2 AtomEnforce3 AtomEnforce4 AtomExample PropEnforce PropLocal.
Import ListNotations.
Local Open Scope Qc_scope.

(** [t.set_frequency(f)] for all pairs of a list, one after the other. *)
Definition sets (cs : list (nat * Qc)) : list call := map (fun c => CSet (fst c) (snd c)) cs.
Definition set_all muB orc (s : st Exact) (cs : list (nat * Qc)) : st Exact := run Exact muB orc s (map call_op (sets cs)).

(** ** The transitions afterwards *)

Definition put1 (h : list (trans Exact)) (c : nat * Qc) : list (trans Exact) := upd (fst c) (@tr_set_set Exact (Some (snd c))) h.
Lemma upd_swap : forall A (f g : A -> A) i j (l : list A), i <> j -> upd i f (upd j g l) = upd j g (upd i f l).
Proof.
  intros A f g i j l. revert i j. induction l as [|x l IH]; intros i j H; [now destruct i, j|].
  destruct i, j; cbn [upd]; try reflexivity; [congruence|]. rewrite IH by congruence. reflexivity.
Qed.
Lemma put_all_perm : forall cs cs', Permutation cs cs' -> NoDup (map fst cs) -> forall h, fold_left put1 cs h = fold_left put1 cs' h.
Proof.
  intros cs cs' P. induction P as [|c cs cs' P IH|c d cs|cs1 cs2 cs3 P1 IH1 P2 IH2]; intros ND h; cbn [fold_left map] in *; auto.
  - inversion ND; subst. apply IH; auto.
  - inversion ND as [|? ? H1 H2]; subst. f_equal. unfold put1. apply upd_swap. intros E. apply H1. left. exact E.
  - rewrite IH1 by auto. apply IH2. apply (Permutation_NoDup (l := map fst cs1)); auto. now apply Permutation_map.
Qed.

(** ** One order *)

Record done muB (s s' : st Exact) (cs : list (nat * Qc)) : Prop := mk_done {
  dn_settled : settled muB s';
  dn_warn : s_warn s' = s_warn s;
  dn_g0 : s_g0 s' = s_g0 s;
  dn_trans : s_trans s' = fold_left put1 cs (s_trans s);
  dn_nodup : NoDup (map fst cs);
  dn_fresh : forall t f, In (t, f) cs -> exists x, tr s t = Some x /\ x_set x = None;
  dn_con : forall t f, In (t, f) cs -> exists u v, constraint s' u v t f;
  dn_old : forall u v t f, constraint s u v t f -> constraint s' u v t f;
  dn_lv : forall a l, lv s a = Some l -> exists l', lv s' a = Some l' /\ lname l' = lname l /\ l_kind l' = l_kind l;
  dn_free : forall a l, lv s a = Some l -> l_kind l = LE -> free s' (lname l) -> energy Exact muB s' a = energy Exact muB s a
}.

Lemma one_order : forall muB orc, (forall n, oracle_ok (orc n)) -> forall cs s, reachable Exact muB orc s -> settled muB s ->
  first_times muB orc s (sets cs) -> reachable Exact muB orc (set_all muB orc s cs) /\ done muB s (set_all muB orc s cs) cs.
Proof.
  intros muB orc OK cs. induction cs as [|[t f] cs IH]; intros s R Se F.
  - split; auto. constructor; auto; [constructor|intros ? ? []|intros ? ? []|eauto].
  - destruct F as [F Fs]. cbn [sets map fst snd] in *. cbn [first_time] in F. destruct F as [Hf [p [q [x [Ed [Npq [V [X0 [Hl [Hh Fr]]]]]]]]]].
    destruct (set_frequency_core muB orc OK s R Se p q t x f Ed Npq V X0 Hf Hl Hh Fr) as [s1 [b [lb [E [Mm [Ct [Eb [Vb [Fb [_ [Kc [Ke [Wn [R1 Se1]]]]]]]]]]]]]].
    assert (Es : step Exact muB orc s (call_op (CSet t f)) = s1) by (unfold step; cbn [call_op run_op]; now rewrite E).
    rewrite Es in Fs. destruct (IH s1 R1 Se1 Fs) as [R2 D]. fold (sets cs) in *.
    assert (Er : set_all muB orc s ((t, f) :: cs) = set_all muB orc s1 cs).
    { unfold set_all. cbn [sets map fst snd run fold_left]. fold (sets cs). rewrite Es. reflexivity. }
    rewrite Er. split; auto. set (s2 := set_all muB orc s1 cs) in *.
    assert (T1 : forall t', tr s1 t' = tr (upd_tr t (@tr_set_set Exact (Some f)) s) t') by (intros; unfold tr; now rewrite (mv_trans _ _ _ Mm)).
    assert (L1 : forall a l, lv s a = Some l -> exists l', lv s1 a = Some l' /\ lname l' = lname l /\ l_kind l' = l_kind l).
    { intros a l Va. destruct (moved_lv _ _ _ a l Mm Va) as [l' [Va' El]]. exists l'. split; auto. rewrite El. auto. }
    assert (Fresh : forall t' f', In (t', f') cs -> exists y, tr s1 t' = Some y /\ x_set y = None) by (intros; eapply (dn_fresh _ _ _ _ D); eauto).
    assert (Nt : ~ In t (map fst cs)).
    { intros I. apply in_map_iff in I as [[t' f'] [Et I]]. cbn [fst] in Et. subst t'. destruct (Fresh t f' I) as [y [Vy Y0]].
      destruct Ct as [_ [y' [Vy' Y1]]]. rewrite Vy in Vy'. injection Vy' as <-. rewrite Y0 in Y1. discriminate. }
    constructor.
    + apply D.
    + rewrite (dn_warn _ _ _ _ D). exact Wn.
    + rewrite (dn_g0 _ _ _ _ D), (mv_g0 _ _ _ Mm). reflexivity.
    + rewrite (dn_trans _ _ _ _ D), (mv_trans _ _ _ Mm). reflexivity.
    + cbn [map fst]. constructor; auto. apply D.
    + intros t' f' [I|I]; [injection I as <- <-; eauto|]. destruct (Fresh t' f' I) as [y [Vy Y0]].
      assert (N' : t' <> t) by (intros ->; apply Nt; apply in_map_iff; exists (t, f'); auto).
      rewrite T1 in Vy. unfold upd_tr, tr in Vy. cbn [s_trans set_trans] in Vy. rewrite nth_error_upd_neq in Vy by auto. eauto.
    + intros t' f' [I|I]; [injection I as <- <-; exists p, q; apply (dn_old _ _ _ _ D); auto|]. apply (dn_con _ _ _ _ D); auto.
    + intros u v t' f' C. apply (dn_old _ _ _ _ D). apply Kc. exact C.
    + intros a l Va. destruct (L1 a l Va) as [l1 [V1 [E1 K1]]]. destruct (dn_lv _ _ _ _ D a l1 V1) as [l2 [V2 [E2 K2]]]. exists l2. split; auto. split; congruence.
    + intros a l Va Ka Fa. destruct (L1 a l Va) as [l1 [V1 [E1 K1]]]. pose proof Fa as Fa'. rewrite <- E1 in Fa'. rewrite (dn_free _ _ _ _ D a l1 V1); [|rewrite K1; exact Ka|exact Fa']. apply (Ke a l); auto.
      intros ->. rewrite Va in Vb. injection Vb as <-.
      assert (C2 : constraint s2 p q t f) by (apply (dn_old _ _ _ _ D); exact Ct).
      pose proof (reachable_WF Exact muB orc OK s R) as W.
      destruct Hl as [ll [Vl _]], Hh as [lh [Vh _]].
      destruct (edge_names Exact s W t x ll lh V Vl Vh p q Ed) as [Nm _].
      assert (Nl : lname l = p \/ lname l = q).
      { destruct Eb as [->| ->]; [rewrite Va in Vl; injection Vl as <-|rewrite Va in Vh; injection Vh as <-]; destruct Nm as [[? ?]|[? ?]]; auto. }
      destruct Nl as [En|En].
      * apply (Fa q t f). rewrite En. exact C2.
      * apply (Fa p t f). rewrite En. destruct C2 as [E2 X2]. split; auto.
        pose proof (reachable_WF Exact muB orc OK s2 R2) as W2. exact (gw_sym _ (go_wf _ _ _ _ (wf_g _ _ W2 LE)) _ _ _ E2).
Qed.

(** ** Two orders *)

Lemma met_exactly : forall muB (s : st Exact) u v t f x, WF s -> settled muB s -> constraint s u v t f -> tr s t = Some x ->
  exists l h, lv s (x_lo x) = Some l /\ lv s (x_up x) = Some h /\ l_E h = l_E l + f /\
    l_kind l = LE /\ l_kind h = LE /\ (lname l = u /\ lname h = v \/ lname l = v /\ lname h = u) /\ home Exact s (x_lo x) /\ home Exact s (x_up x).
Proof.
  intros muB s u v t f x W Se C V. destruct (se_ends _ _ Se u v t f x C V) as [Hl [Hh [l [h [Vl [Vh [Le _]]]]]]].
  pose proof C as [Ed _]. destruct (edge_names Exact s W t x l h V Vl Vh u v Ed) as [Nm [Kl [Kh _]]].
  exists l, h. split; auto. split; auto. split; [|auto 8].
  pose proof (se_met _ _ Se _ _ _ _ C) as Q. rewrite (freq_edge muB s u v t x l h) in Q by auto. apply (f_equal (fun o => match o with Some q => q | None => 0 end)) in Q.
  cbv iota in Q. apply abs_order; auto.
Qed.

Lemma same_constraints : forall (s1 s2 : st Exact), s_g0 s1 = s_g0 s2 -> s_trans s1 = s_trans s2 ->
  forall u v t f, constraint s1 u v t f -> constraint s2 u v t f.
Proof. intros s1 s2 G T u v t f [E [x [V F]]]. split; [now rewrite <- G|]. exists x. split; auto. unfold tr in *. now rewrite <- T. Qed.

Section Two.
  Variables (muB : Qc) (s1 s2 : st Exact).
  Hypotheses (W1 : WF s1) (W2 : WF s2) (Se1 : settled muB s1) (Se2 : settled muB s2) (G : s_g0 s1 = s_g0 s2) (T : s_trans s1 = s_trans s2).
  Hypothesis L : forall a l1 l2, lv s1 a = Some l1 -> lv s2 a = Some l2 -> lname l1 = lname l2.

  Lemma tied_diff : forall n v, tied s1 n v -> forall a la la', lv s1 a = Some la -> lv s2 a = Some la' -> lname la = n ->
    dget n (g_nodes (s_g0 s1)) = Some (Some a) -> v = n \/
    exists b lb lb', dget v (g_nodes (s_g0 s1)) = Some (Some b) /\ lv s1 b = Some lb /\ lv s2 b = Some lb' /\ l_kind lb = LE /\ l_kind lb' = LE /\
      l_E lb - l_E la = l_E lb' - l_E la'.
  Proof.
    intros n v Tv. induction Tv as [|u v t f Tu IH C]; intros a la la' Va Va' Na Ha; [now left|]. right.
    pose proof C as [_ [x [V _]]].
    destruct (met_exactly muB s1 u v t f x W1 Se1 C V) as [l [h [Vl [Vh [El [Kl [Kh [Nm [Hl Hh]]]]]]]]].
    assert (C' : constraint s2 u v t f) by (eapply same_constraints; eauto).
    assert (V' : tr s2 t = Some x) by (unfold tr in *; now rewrite <- T).
    destruct (met_exactly muB s2 u v t f x W2 Se2 C' V') as [l' [h' [Vl' [Vh' [El' [Kl' [Kh' [_ _]]]]]]]].
    destruct Hl as [l0 [V0 Hl]]. rewrite Vl in V0. injection V0 as <-. destruct Hh as [h0 [V0 Hh]]. rewrite Vh in V0. injection V0 as <-.
    assert (Q : forall b, dget u (g_nodes (s_g0 s1)) = Some (Some b) -> lname l = u -> b = x_lo x) by (intros b Hb <-; congruence).
    assert (Q' : forall b, dget u (g_nodes (s_g0 s1)) = Some (Some b) -> lname h = u -> b = x_up x) by (intros b Hb <-; congruence).
    assert (U : exists b lb lb', dget u (g_nodes (s_g0 s1)) = Some (Some b) /\ lv s1 b = Some lb /\ lv s2 b = Some lb' /\ l_E lb - l_E la = l_E lb' - l_E la').
    { destruct (IH a la la' Va Va' Na Ha) as [->|[b [lb [lb' [H1 [H2 [H3 [_ [_ H4]]]]]]]]]; [exists a, la, la'|exists b, lb, lb']; auto. split; auto. split; auto. split; auto. ring. }
    destruct U as [b [lb [lb' [Hb [Vb [Vb' D]]]]]].
    destruct Nm as [[Nl Nh]|[Nl Nh]].
    - exists (x_up x), h, h'. rewrite <- Nh. split; auto. split; auto. split; auto. split; auto. split; auto.
      pose proof (Q b Hb Nl). subst b. assert (lb = l) by congruence. assert (lb' = l') by congruence. subst lb lb'.
      rewrite El, El'. transitivity (l_E l - l_E la + f); [ring|]. rewrite D. ring.
    - exists (x_lo x), l, l'. rewrite <- Nl. split; auto. split; auto. split; auto. split; auto. split; auto.
      pose proof (Q' b Hb Nh). subst b. assert (lb = h) by congruence. assert (lb' = h') by congruence. subst lb lb'.
      rewrite El, El' in D. transitivity (l_E l + f - l_E la - f); [ring|]. rewrite D. ring.
  Qed.
End Two.

(** Setting the frequencies of distinct transitions in two orders, each of
    which always has a level to move: every frequency is met in both, nothing
    is warned about, levels joined by lines of set frequencies are equally far
    apart, and the levels without such lines stay where they were. *)
Theorem C149_order_partial : forall muB orc, (forall n, oracle_ok (orc n)) -> forall s, reachable Exact muB orc s -> settled muB s ->
  forall cs cs', Permutation cs cs' -> first_times muB orc s (sets cs) -> first_times muB orc s (sets cs') ->
  let s1 := set_all muB orc s cs in let s2 := set_all muB orc s cs' in
  s_warn s1 = s_warn s /\ s_warn s2 = s_warn s /\
  (forall t f, In (t, f) cs -> freq Exact muB s1 t = Some f /\ freq Exact muB s2 t = Some f) /\
  (forall a b la lb, home Exact s a -> home Exact s b -> lv s a = Some la -> lv s b = Some lb -> tied s1 (lname la) (lname lb) ->
     l_kind la = LE -> l_kind lb = LE ->
     exists ea eb ea' eb', energy Exact muB s1 a = Some ea /\ energy Exact muB s1 b = Some eb /\
       energy Exact muB s2 a = Some ea' /\ energy Exact muB s2 b = Some eb' /\ eb - ea = eb' - ea') /\
  (forall a l, lv s a = Some l -> l_kind l = LE -> free s1 (lname l) ->
     energy Exact muB s1 a = energy Exact muB s a /\ energy Exact muB s2 a = energy Exact muB s a).
Proof.
  intros muB orc OK s R Se cs cs' P F F' s1 s2.
  destruct (one_order muB orc OK cs s R Se F) as [R1 D1]. destruct (one_order muB orc OK cs' s R Se F') as [R2 D2]. fold s1 in R1, D1. fold s2 in R2, D2.
  pose proof (reachable_WF Exact muB orc OK s1 R1) as W1. pose proof (reachable_WF Exact muB orc OK s2 R2) as W2.
  assert (G : s_g0 s1 = s_g0 s2) by (rewrite (dn_g0 _ _ _ _ D1), (dn_g0 _ _ _ _ D2); reflexivity).
  assert (T : s_trans s1 = s_trans s2).
  { rewrite (dn_trans _ _ _ _ D1), (dn_trans _ _ _ _ D2). apply put_all_perm; [exact P|apply D1]. }
  split; [apply D1|]. split; [apply D2|]. split; [|split].
  - intros t f I. destruct (dn_con _ _ _ _ D1 t f I) as [u [v C]]. split; [exact (se_met _ _ (dn_settled _ _ _ _ D1) _ _ _ _ C)|].
    apply (se_met _ _ (dn_settled _ _ _ _ D2) u v). eapply same_constraints; eauto.
  - intros a b la lb [la0 [Va0 Ha]] [lb0 [Vb0 Hb]] Va Vb Ti Ka Kb. rewrite Va in Va0. injection Va0 as <-. rewrite Vb in Vb0. injection Vb0 as <-.
    destruct (dn_lv _ _ _ _ D1 a la Va) as [a1 [Va1 [Na1 Ka1]]]. destruct (dn_lv _ _ _ _ D2 a la Va) as [a2 [Va2 [Na2 Ka2]]].
    destruct (dn_lv _ _ _ _ D1 b lb Vb) as [b1 [Vb1 [Nb1 Kb1]]]. destruct (dn_lv _ _ _ _ D2 b lb Vb) as [b2 [Vb2 [Nb2 Kb2]]].
    exists (l_E a1), (l_E b1), (l_E a2), (l_E b2).
    split; [apply energy_LE; [auto|congruence]|]. split; [apply energy_LE; [auto|congruence]|]. split; [apply energy_LE; [auto|congruence]|]. split; [apply energy_LE; [auto|congruence]|].
    assert (Ha1 : dget (lname la) (g_nodes (s_g0 s1)) = Some (Some a)) by (now rewrite (dn_g0 _ _ _ _ D1)).
    assert (Hb1 : dget (lname lb) (g_nodes (s_g0 s1)) = Some (Some b)) by (now rewrite (dn_g0 _ _ _ _ D1)).
    destruct (tied_diff muB s1 s2 W1 W2 (dn_settled _ _ _ _ D1) (dn_settled _ _ _ _ D2) G T _ _ Ti a a1 a2 Va1 Va2 Na1 Ha1) as [E|[c [lc [lc' [Hc [Vc [Vc' [_ [_ Dd]]]]]]]]].
    + rewrite E in Hb1. assert (b = a) by congruence. subst b. assert (b1 = a1) by congruence. assert (b2 = a2) by congruence. subst. ring.
    + assert (c = b) by congruence. subst c. assert (lc = b1) by congruence. assert (lc' = b2) by congruence. subst. exact Dd.
  - intros a l Va Ka Fr. split; [apply (dn_free _ _ _ _ D1 a l); auto|]. apply (dn_free _ _ _ _ D2 a l); auto.
    intros v t f C. apply (Fr v t f). eapply same_constraints; [symmetry; exact G|symmetry; exact T|exact C].
Qed.
Print Assumptions C149_order_partial.

(** ** Cases *)

Local Notation ab := [(0%nat, Q2Qc 12); (1%nat, Q2Qc 3)].
Local Notation ba := [(1%nat, Q2Qc 3); (0%nat, Q2Qc 12)].
Lemma both_orders : first_times 1 plain chain (sets ab) /\ first_times 1 plain chain (sets ba).
Proof.
  split; [exact (proj1 (proj2 C42_case))|]. split; [|split; [|exact I]].
  - apply (firstb_first chain "6p 2P*1/2" "6p 2P*3/2"); [apply case_WF, chain_reachable|vm_compute; reflexivity|apply Qc_ltb_ge; reflexivity].
  - apply (firstb_first _ "6s 2S1/2" "6p 2P*1/2"); [|vm_compute; reflexivity|apply Qc_ltb_ge; reflexivity].
    apply case_WF, (more_reachable chain [call_op (CSet 1 (Q2Qc 3))]), chain_reachable.
Qed.
Example C149_case : reachable Exact 1 plain chain /\ settled 1 chain /\ Permutation ab ba /\
  first_times 1 plain chain (sets ab) /\ first_times 1 plain chain (sets ba) /\
  tied (set_all 1 plain chain ab) "6s 2S1/2" "6p 2P*3/2".
Proof.
  split; [apply chain_reachable|]. split; [apply chain_settled|]. split; [constructor|]. split; [apply both_orders|]. split; [apply both_orders|].
  destruct (one_order 1 plain plain_ok ab chain chain_reachable chain_settled (proj1 both_orders)) as [R _]. pose proof (case_WF _ R) as W.
  assert (C1 : In "6p 2P*1/2"%string (set_nbrs (set_all 1 plain chain ab) "6s 2S1/2")) by (vm_compute; left; reflexivity).
  assert (C2 : In "6p 2P*3/2"%string (set_nbrs (set_all 1 plain chain ab) "6p 2P*1/2")) by (vm_compute; right; left; reflexivity).
  destruct (proj1 (nbr_constraint Exact _ _ _ W) C1) as [t1 [f1 C1']]. destruct (proj1 (nbr_constraint Exact _ _ _ W) C2) as [t2 [f2 C2']].
  eapply tied_next; [eapply tied_next; [apply tied_here|exact C1']|exact C2'].
Qed.

(** ** What depends on the order *)

(** Which end moves depends on what was set before: setting the lower step of
    the chain first leaves the ground level at 0, setting the upper step first
    moves it to -2, though both orders meet both frequencies. *)
Definition numbers (l : list (option (num Exact))) : list (option Q) := map (option_map (fun q : Qc => this q)) l.
Theorem C149_ground_refuted : reachable Exact 1 plain chain /\ settled 1 chain /\
  first_times 1 plain chain (sets ab) /\ first_times 1 plain chain (sets ba) /\
  numbers (map (energy Exact 1 (set_all 1 plain chain ab)) [0; 1; 2]%nat) = [Some 0; Some 12; Some 15]%Q /\
  numbers (map (energy Exact 1 (set_all 1 plain chain ba)) [0; 1; 2]%nat) = [Some (-2 # 1); Some 10; Some 13]%Q.
Proof.
  split; [apply chain_reachable|]. split; [apply chain_settled|]. split; [apply both_orders|]. split; [apply both_orders|].
  split; vm_compute; reflexivity.
Qed.
Print Assumptions C149_ground_refuted.

(** Four levels at 0, 10, 15 and 30 and their three steps: from the bottom up
    all three frequencies are met; with the middle step last it keeps the
    frequency it had and a loop is warned about, though there is none. *)
Definition chain4 : st Exact := runx (from 1) [nl tS 0; add 0; nl tP 10; add 1; nl tQ 15; add 2; nl tD 30; add 3;
  ONewTransition Exact 0 1 None None None; ONewTransition Exact 1 2 None None None; ONewTransition Exact 2 3 None None None].
Theorem C149_middle_refuted :
  let up := set_all 1 plain chain4 [(0%nat, Q2Qc 12); (1%nat, Q2Qc 4); (2%nat, Q2Qc 20)] in
  let last := set_all 1 plain chain4 [(0%nat, Q2Qc 12); (2%nat, Q2Qc 20); (1%nat, Q2Qc 4)] in
  reachable Exact 1 plain chain4 /\ settled 1 chain4 /\
  numbers (map (freq Exact 1 up) [0; 1; 2]%nat) = [Some 12; Some 4; Some 20]%Q /\ s_warn up = [] /\
  numbers (map (freq Exact 1 last) [0; 1; 2]%nat) = [Some 12; Some 3; Some 20]%Q /\ s_warn last = [WLoop "6p 2P*1/2" "6p 2P*3/2"].
Proof.
  cbv zeta. split; [apply from_reachable; lia|]. split; [apply settled_start; [apply unset_free|apply loose_all]; vm_compute; reflexivity|].
  do 3 (split; [vm_compute; reflexivity|]). vm_compute; reflexivity.
Qed.
Print Assumptions C149_middle_refuted.
