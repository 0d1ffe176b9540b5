(** Properties C41-C47: transition frequencies and constraint propagation.
    Exact arithmetic unless said otherwise. *)
From Coq Require Import List Bool ZArith QArith Qcanon Lia String Ascii Permutation.
From Verif Require Import Base PyStr Util UtilProofs Parse Term TermProofs Num Wigner Hyperfine HyperfineProofs
  Graph GraphProofs DfsProofs Rules Atom AtomInv AtomSafe AtomSafe2 AtomSafe3 AtomSafe4 AtomSafe5 AtomSafe6 AtomLevels AtomEnergy
  AtomEnforce AtomEnforce2 AtomEnforce3 AtomEnforce4 AtomExample.
Import ListNotations.
Local Open Scope Qc_scope.

(** ** Arithmetic *)

Lemma Qc_abs_cases : forall a, (0 <= a /\ Qc_abs a = a) \/ (a < 0 /\ Qc_abs a = - a).
Proof.
  intros a. unfold Qc_abs. destruct (Qc_ltb a 0) eqn:E.
  - right. split; auto. now apply Qc_ltb_lt.
  - left. split; auto. now apply Qc_ltb_ge.
Qed.
Lemma Qc_le_opp : forall a, a <= 0 -> 0 <= - a.
Proof. intros a H. apply Qcopp_le_compat in H. exact H. Qed.
Lemma Qc_opp_le : forall a, 0 <= a -> - a <= 0.
Proof. intros a H. apply Qcopp_le_compat in H. exact H. Qed.
Lemma Qc_abs_nonneg : forall a, 0 <= Qc_abs a.
Proof. intros a. destruct (Qc_abs_cases a) as [[H ->]|[H ->]]; auto. apply Qc_le_opp, Qclt_le_weak, H. Qed.
Lemma Qc_abs_opp : forall a, Qc_abs (- a) = Qc_abs a.
Proof.
  intros a. destruct (Qc_abs_cases a) as [[H ->]|[H ->]], (Qc_abs_cases (- a)) as [[K ->]|[K ->]]; auto; try ring.
  - assert (a = 0) as ->; [|ring]. apply Qcle_antisym; auto. apply Qc_opp_le in K. replace a with (- - a) by ring. exact K.
  - exfalso. apply (Qclt_not_le _ _ K). apply Qc_le_opp, Qclt_le_weak, H.
Qed.
Lemma Qc_abs_sym : forall a b, Qc_abs (a - b) = Qc_abs (b - a).
Proof. intros a b. rewrite <- (Qc_abs_opp (a - b)). f_equal. ring. Qed.
Lemma Qc_abs_pos : forall a, 0 <= a -> Qc_abs a = a.
Proof. intros a H. destruct (Qc_abs_cases a) as [[_ E]|[K _]]; auto. exfalso. exact (Qclt_not_le _ _ K H). Qed.
Lemma Qc_diff_pos : forall a b, a <= b <-> 0 <= b - a.
Proof. intros a b. apply Qcle_minus_iff. Qed.

Lemma sat_Exact : forall f a b : Qc, sat Exact f a b <-> a <= b /\ Qc_abs (a - b) = f.
Proof.
  intros f a b. unfold sat. cbn [neqb nsub nabs Exact]. destruct (Qc_eqb_spec f (Qc_abs (a - b))) as [E|E].
  - split; [intros [_ H]|intros [H _]].
    + split; [|now symmetry]. apply (proj2 (Qc_diff_pos a b)). replace (b - a) with f by (rewrite <- H; ring). rewrite E. apply Qc_abs_nonneg.
    + split; auto. rewrite E, Qc_abs_sym, Qc_abs_pos by (exact (proj1 (Qc_diff_pos a b) H)). qeq. ring.
  - split; [intros [H _]; discriminate|intros [_ H]; congruence].
Qed.
Lemma sat_up : forall f e : Qc, 0 <= f -> sat Exact f e (e + f) /\ sat Exact f (e - f) e.
Proof.
  intros f e H. rewrite !sat_Exact, (Qc_abs_sym e), (Qc_abs_sym (e - f)). rewrite (Qc_diff_pos e), (Qc_diff_pos (e - f)).
  replace (e + f - e) with f by ring. replace (e - (e - f)) with f by ring. now rewrite Qc_abs_pos.
Qed.

Lemma abs_order : forall a b g : Qc, a <= b -> Qc_abs (a - b) = g -> b = a + g.
Proof. intros a b g H E. rewrite Qc_abs_sym, Qc_abs_pos in E by (exact (proj1 (Qc_diff_pos a b) H)). rewrite <- E. ring. Qed.
Lemma order_alg : forall e1 e2 d1 d2 m1 m2 f g gr w : Qc, e1 <= e2 -> d1 <= d2 -> m1 <= m2 ->
  Qc_abs (e1 - e2) = g -> Qc_abs (d1 - d2) = gr -> Qc_abs (m1 - m2) = w -> w = gr + (f - g) -> 0 <= f ->
  Qc_abs (e1 + (m1 - d1) - (e2 + (m2 - d2))) = f.
Proof.
  intros e1 e2 d1 d2 m1 m2 f g gr w H1 H2 H3 E1 E2 E3 Ew Hf. rewrite (abs_order _ _ _ H1 E1), (abs_order _ _ _ H2 E2), (abs_order _ _ _ H3 E3), Ew, Qc_abs_sym.
  replace (e1 + g + (m1 + (gr + (f - g)) - (d1 + gr)) - (e1 + (m1 - d1))) with f by ring. now apply Qc_abs_pos.
Qed.

(** ** C41 *)

Theorem C41_frequency : forall muB orc, (forall n, oracle_ok (orc n)) -> forall s, reachable Exact muB orc s ->
  forall t x, tr s t = Some x -> exists e1 e2 lo up f,
  energy Exact muB s (x_E1 x) = Some e1 /\ energy Exact muB s (x_E2 x) = Some e2 /\
  energy Exact muB s (x_lo x) = Some lo /\ energy Exact muB s (x_up x) = Some up /\
  freq Exact muB s t = Some f /\ 0 <= f /\ f = Qc_abs (e1 - e2) /\ f = Qc_abs (up - lo) /\ (lo <= up -> f = up - lo).
Proof.
  intros muB orc OK s R t x V. pose proof (reachable_WF Exact muB orc OK s R) as W.
  destruct (freq_total Exact muB s t x W V) as [f Ef]. pose proof Ef as Ef'. unfold freq in Ef'. rewrite V in Ef'.
  destruct (energy Exact muB s (x_E1 x)) as [e1|] eqn:E1; [|discriminate]. destruct (energy Exact muB s (x_E2 x)) as [e2|] eqn:E2; [|discriminate].
  injection Ef' as Ef'. destruct (wf_tr _ _ W _ _ V) as [l1 [l2 [V1 [V2 [_ [_ [UL _]]]]]]].
  assert (Q : exists lo up, energy Exact muB s (x_lo x) = Some lo /\ energy Exact muB s (x_up x) = Some up /\ f = Qc_abs (up - lo)).
  { destruct UL as [[U L]|[U L]]; rewrite U, L, E1, E2; [exists e1, e2|exists e2, e1]; (split; [reflexivity|]); (split; [reflexivity|]); rewrite <- Ef'; cbn [nabs nsub Exact].
    - apply Qc_abs_sym.
    - reflexivity. }
  destruct Q as [lo [up [El [Eu Fq]]]]. exists e1, e2, lo, up, f. repeat (split; [assumption || reflexivity|]).
  split; [rewrite Fq; apply Qc_abs_nonneg|]. split; [now symmetry|]. split; auto. intros H. rewrite Fq. apply Qc_abs_pos. exact (proj1 (Qc_diff_pos lo up) H).
Qed.
Print Assumptions C41_frequency.
(** The order of the levels does not matter. *)
Theorem C41_symmetric : forall muB orc, (forall n, oracle_ok (orc n)) -> forall s, reachable Exact muB orc s ->
  forall t t' x x', tr s t = Some x -> tr s t' = Some x' -> x_E1 x' = x_E2 x -> x_E2 x' = x_E1 x -> freq Exact muB s t' = freq Exact muB s t.
Proof.
  intros muB orc OK s R t t' x x' V V' E1 E2. unfold freq. rewrite V, V', E1, E2.
  destruct (energy Exact muB s (x_E1 x)), (energy Exact muB s (x_E2 x)); auto. f_equal. apply Qc_abs_sym.
Qed.
Print Assumptions C41_symmetric.
Example C41_case : let s := runx (two 1) [ONewTransition Exact 0 1 None None None; ONewTransition Exact 1 0 None None None; OSubtransitions Exact 0] in
  freq Exact 1 s 0 = Some (Q2Qc 10) /\ freq Exact 1 s 1 = Some (Q2Qc 10) /\ option_map (@x_kind Exact) (tr s 2) = Some THF /\ freq Exact 1 s 2 = Some (Q2Qc 10).
Proof. vm_compute. repeat (split; [reflexivity|]). reflexivity. Qed.

(** ** Constraints *)

(** The atom's transition [t] between the levels named [u] and [v] has the set
    frequency [f].  [home s a]: the level [a] is the one the atom has under its
    name. *)
Definition constraint {N} (s : st N) (u v : string) (t : nat) (f : N) : Prop :=
  edge (s_g0 s) u v = Some t /\ exists x, tr s t = Some x /\ x_set x = Some f.
Definition free {N} (s : st N) (n : string) : Prop := forall m t f, ~ constraint s n m t f.

(** Constraints hold between levels of the atom, in their order, and a level is
    marked as fixed iff it is in a constraint. *)
Record settled muB (s : st Exact) : Prop := mk_settled {
  se_met : forall u v t f, constraint s u v t f -> freq Exact muB s t = Some f;
  se_ends : forall u v t f x, constraint s u v t f -> tr s t = Some x -> home Exact s (x_lo x) /\ home Exact s (x_up x) /\
    exists l h, lv s (x_lo x) = Some l /\ lv s (x_up x) = Some h /\ l_E l <= l_E h /\ l_fixed l = true /\ l_fixed h = true;
  se_fixed : forall a l, home Exact s a -> lv s a = Some l -> l_fixed l = true -> ~ free s (lname l)
}.

Lemma nbr_constraint : forall N (s : st N) u v, WF s -> (In v (set_nbrs s u) <-> exists t f, constraint s u v t f).
Proof.
  intros N s u v W. rewrite set_nbrs_In by auto. unfold is_set, constraint. split.
  - intros [t [E S]]. destruct (tr s t) as [x|] eqn:V; [|discriminate]. destruct (x_set x) as [f|] eqn:F; [|discriminate]. eauto 8.
  - intros [t [f [E [x [V F]]]]]. exists t. now rewrite V, F.
Qed.
Lemma free_nil : forall N (s : st N) n, WF s -> (set_nbrs s n = [] <-> free s n).
Proof.
  intros N s n W. split.
  - intros E m t f C. assert (I : In m (set_nbrs s n)) by (apply nbr_constraint; eauto). now rewrite E in I.
  - intros F. destruct (set_nbrs s n) as [|m r] eqn:E; auto. exfalso.
    assert (I : In m (set_nbrs s n)) by (rewrite E; simpl; auto). apply nbr_constraint in I as [t [f C]]; auto. exact (F _ _ _ C).
Qed.

Lemma energy_LE : forall N muB (s : st N) a l, lv s a = Some l -> l_kind l = LE -> energy N muB s a = Some (l_E l).
Proof. intros N muB s a l V K. unfold energy, energyE. now rewrite V, K. Qed.

Lemma freq_edge : forall muB (s : st Exact) u v t x l h, WF s -> edge (s_g0 s) u v = Some t -> tr s t = Some x ->
  lv s (x_lo x) = Some l -> lv s (x_up x) = Some h -> freq Exact muB s t = Some (Qc_abs (l_E l - l_E h)).
Proof.
  intros muB s u v t x l h W E V Vl Vh. destruct (edge_names Exact s W t x l h V Vl Vh u v E) as [_ [Kl [Kh _]]].
  unfold freq. rewrite V. pose proof (energy_LE Exact muB s _ _ Vl Kl) as El. pose proof (energy_LE Exact muB s _ _ Vh Kh) as Eh.
  destruct (wf_tr _ _ W _ _ V) as [l1 [l2 [_ [_ [_ [_ [UL _]]]]]]].
  destruct UL as [[U L]|[U L]]; rewrite <- U, <- L, El, Eh; f_equal; cbn [nabs nsub Exact]; auto. apply Qc_abs_sym.
Qed.

Lemma settled_consistent : forall muB (s : st Exact), WF s -> (settled muB s <-> consistent Exact s).
Proof.
  intros muB s W. split; intros C.
  - constructor.
    + intros u v t x E S V. unfold is_set in S. rewrite V in S. destruct (x_set x) as [f|] eqn:F; [|discriminate].
      destruct (se_ends _ _ C u v t f x) as [H1 [H2 _]]; auto. split; auto. eauto.
    + intros u v I. destruct (set_edge_of Exact s u v W I) as [t [x [f [l [h E]]]]]. pose proof E as [Ed [V [Fx [Vl [Vh [Kl [Kh O]]]]]]].
      assert (Cn : constraint s u v t f) by (split; eauto).
      destruct (se_ends _ _ C u v t f x Cn V) as [_ [_ [l' [h' [Vl' [Vh' [Le [Fl Fh]]]]]]]].
      rewrite Vl in Vl'. injection Vl' as <-. rewrite Vh in Vh'. injection Vh' as <-.
      exists t, x, f, l, h. split; auto. split; auto. split; auto. apply sat_Exact. split; auto.
      pose proof (se_met _ _ C u v t f Cn) as Q. rewrite (freq_edge muB s u v t x l h) in Q by auto. now injection Q.
    + intros a l H V F. pose proof (se_fixed _ _ C a l H V F) as Nf. destruct (set_nbrs s (lname l)) as [|m r] eqn:E; [|exists m; simpl; auto].
      apply free_nil in E; auto. contradiction.
  - constructor.
    + intros u v t f [E [x [V F]]]. assert (I : In v (set_nbrs s u)) by (apply nbr_constraint; auto; unfold constraint; eauto 8).
      destruct (cs_held _ _ C u v I) as [t' [x' [f' [l [h [[Ed [V' [Fx [Vl [Vh _]]]]] [_ [_ Sa]]]]]]]]. rewrite E in Ed. injection Ed as <-.
      rewrite V in V'. injection V' as <-. rewrite F in Fx. injection Fx as <-. rewrite (freq_edge muB s u v t x l h) by auto.
      apply sat_Exact in Sa as [_ ->]. reflexivity.
    + intros u v t f x Cn V. pose proof Cn as [E [x' [V' F]]]. rewrite V in V'. injection V' as <-.
      destruct (cs_homes _ _ C u v t x E) as [H1 H2]; auto; [unfold is_set; now rewrite V, F|]. split; auto. split; auto.
      assert (I : In v (set_nbrs s u)) by (apply nbr_constraint; eauto).
      destruct (cs_held _ _ C u v I) as [t' [x' [f' [l [h [[Ed [V' [Fx [Vl [Vh _]]]]] [Fl [Fh Sa]]]]]]]]. rewrite E in Ed. injection Ed as <-.
      rewrite V in V'. injection V' as <-. exists l, h. apply sat_Exact in Sa as [Sa _]. auto.
    + intros a l H V F Fr. destruct (cs_fixed _ _ C a l H V F) as [v I]. apply free_nil in Fr; auto. now rewrite Fr in I.
Qed.

Lemma settled_start : forall muB (s : st Exact), (forall n, free s n) -> (forall a l, lv s a = Some l -> l_fixed l = false) -> settled muB s.
Proof.
  intros muB s F X. constructor.
  - intros u v t f C. destruct (F u v t f C).
  - intros u v t f x C. destruct (F u v t f C).
  - intros a l _ V E. rewrite (X a l V) in E. discriminate.
Qed.

Lemma reachable_step : forall N muB orc s o, reachable N muB orc s -> reachable N muB orc (step N muB orc s o).
Proof.
  intros N muB orc s o [i [b [os [H E]]]]. exists i, b, (os ++ [o]). split; auto. rewrite E. unfold run. rewrite fold_left_app. reflexivity.
Qed.

(** What a first-time constraint does. *)
Definition honoured muB (orc : nat -> oracle) (s s' : st Exact) (t b : nat) (f : Qc) : Prop :=
  freq Exact muB s' t = Some f /\
  (forall u v t' g, constraint s u v t' g -> constraint s' u v t' g /\ freq Exact muB s' t' = Some g) /\
  (forall a l, lv s a = Some l -> l_kind l = LE -> a <> b -> energy Exact muB s' a = energy Exact muB s a) /\
  s_warn s' = s_warn s /\ reachable Exact muB orc s' /\ settled muB s'.

Lemma which_end : forall (s : st Exact) (l h : level Exact) (lo up : nat) (f : Qc), WF s -> 0 <= f ->
  free s (lname l) \/ free s (lname h) -> exists b e lb, (b = lo /\ lb = l \/ b = up /\ lb = h) /\ free s (lname lb) /\
  ((set_nbrs s (lname h) = [] /\ b = up /\ e = nadd Exact (l_E l) f /\ sat Exact f (l_E l) e) \/
   (set_nbrs s (lname h) <> [] /\ set_nbrs s (lname l) = [] /\ b = lo /\ e = nsub Exact (l_E h) f /\ sat Exact f e (l_E h))).
Proof.
  intros s l h lo up f W Hf Fr. destruct (set_nbrs s (lname h)) as [|m r] eqn:E.
  - exists up, (nadd Exact (l_E l) f), h. split; auto. split; [now apply free_nil|]. left. destruct (sat_up f (l_E l) Hf). auto.
  - assert (Fl : free s (lname l)). { destruct Fr as [|Fh]; auto. apply free_nil in Fh; auto. congruence. }
    exists lo, (nsub Exact (l_E h) f), l. split; auto. split; auto. right. split; [discriminate|]. split; [now apply free_nil|]. destruct (sat_up f (l_E h) Hf). auto.
Qed.

Lemma set_frequency_core : forall muB orc, (forall n, oracle_ok (orc n)) -> forall s, reachable Exact muB orc s -> settled muB s ->
  forall p q t x f, edge (s_g0 s) p q = Some t -> p <> q -> tr s t = Some x -> x_set x = None -> 0 <= f ->
  home Exact s (x_lo x) -> home Exact s (x_up x) -> free s p \/ free s q ->
  exists s' b lb, set_frequency Exact muB orc t f s = (Ok tt, s') /\ moved (upd_tr t (@tr_set_set Exact (Some f)) s) s' /\ constraint s' p q t f /\
  (b = x_lo x \/ b = x_up x) /\ lv s b = Some lb /\ free s (lname lb) /\ honoured muB orc s s' t b f.
Proof.
  intros muB orc OK s R Se p q t x f Ed Npq V X0 Hf Hl Hh Fr. pose proof (reachable_WF Exact muB orc OK s R) as W.
  pose proof Hl as [l [Vl _]]. pose proof Hh as [h [Vh _]].
  destruct (edge_names Exact s W t x l h V Vl Vh p q Ed) as [O [Kl [Kh _]]].
  destruct (which_end s l h (x_lo x) (x_up x) f W Hf) as [b [e [lb [Bb [Fb Cs]]]]]; [destruct O as [[-> ->]|[-> ->]]; tauto|].
  apply settled_consistent in Se; auto.
  destruct (set_first Exact muB orc s p q t x f l h b e OK W Se Ed Npq V X0 Vl Vh Hl Hh Cs) as [E [C' Nb]].
  set (s' := moved_to Exact _ b e _) in *. exists s', b, lb. split; auto. split; [eapply moved_trans; [apply moved_tick|apply moved_to_moved]|].
  assert (R' : reachable Exact muB orc s').
  { replace s' with (step Exact muB orc s (OSetFreq Exact t f)); [now apply reachable_step|]. unfold step. cbn [run_op]. now rewrite E. }
  pose proof (reachable_WF Exact muB orc OK s' R') as W'. apply (settled_consistent muB s' W') in C'.
  assert (Tr : forall t', tr s' t' = if Nat.eqb t t' then Some (@tr_set_set Exact (Some f) x) else tr s t').
  { intros t'. exact (tr_s1 Exact s t x V f t'). }
  assert (Ct : constraint s' p q t f) by (split; [exact Ed|]; exists (@tr_set_set Exact (Some f) x); now rewrite Tr, Nat.eqb_refl).
  split; auto. split; [tauto|]. split; [destruct Bb as [[-> ->]|[-> ->]]; auto|]. split; auto.
  split; [|split; [|split; [|split; [reflexivity|auto]]]].
  - exact (se_met _ _ C' p q _ _ Ct).
  - intros u v t' g [Eu [x' [V' F']]]. assert (C2 : constraint s' u v t' g); [|split; [exact C2|exact (se_met _ _ C' u v _ _ C2)]]. split; [exact Eu|]. exists x'. rewrite Tr.
    destruct (Nat.eqb_spec t t') as [<-|]; auto. congruence.
  - intros a la Va Ka Na. rewrite (energy_LE _ _ s a la) by auto.
    assert (La : exists la', lv s' a = Some la' /\ l_kind la' = LE /\ l_E la' = l_E la).
    { unfold s'. rewrite (lv_moved_to Exact). change (lv (tick _) a) with (lv s a). rewrite Va. cbn [option_map].
      destruct (Nat.eqb_spec b a); [congruence|]. eexists. split; [reflexivity|]. auto. }
    destruct La as [la' [Va' [Ka' Ea']]]. rewrite (energy_LE _ _ s' a la') by auto. now rewrite Ea'.
Qed.
Theorem C42_set_frequency : forall muB orc, (forall n, oracle_ok (orc n)) -> forall s, reachable Exact muB orc s -> settled muB s ->
  forall p q t x f, edge (s_g0 s) p q = Some t -> p <> q -> tr s t = Some x -> x_set x = None -> 0 <= f ->
  home Exact s (x_lo x) -> home Exact s (x_up x) -> free s p \/ free s q ->
  exists s' b lb, set_frequency Exact muB orc t f s = (Ok tt, s') /\ constraint s' p q t f /\
  (b = x_lo x \/ b = x_up x) /\ lv s b = Some lb /\ free s (lname lb) /\ honoured muB orc s s' t b f.
Proof.
  intros muB orc OK s R Se p q t x f Ed Npq V X0 Hf Hl Hh Fr.
  destruct (set_frequency_core muB orc OK s R Se p q t x f Ed Npq V X0 Hf Hl Hh Fr) as [s' [b [lb [E [_ H]]]]]. exists s', b, lb. auto.
Qed.
Print Assumptions C42_set_frequency.

Theorem C42_add_transition : forall muB orc, (forall n, oracle_ok (orc n)) -> forall s, reachable Exact muB orc s -> settled muB s ->
  forall a1 a2 l1 l2 f A alias, home Exact s a1 -> home Exact s a2 -> lv s a1 = Some l1 -> lv s a2 = Some l2 -> lname l1 <> lname l2 ->
  (forall t g, ~ constraint s (lname l1) (lname l2) t g) -> 0 <= f -> free s (lname l1) \/ free s (lname l2) ->
  exists s' t b lb, add_transition Exact muB orc (TLevels a1 a2) (Some f) A alias s = (Ok t, s') /\ constraint s' (lname l1) (lname l2) t f /\
  (b = a1 \/ b = a2) /\ lv s b = Some lb /\ free s (lname lb) /\ honoured muB orc s s' t b f.
Proof.
  intros muB orc OK s R Se a1 a2 l1 l2 f A alias H1 H2 V1 V2 Npq Nc Hf Fr. pose proof (reachable_WF Exact muB orc OK s R) as W.
  apply settled_consistent in Se; auto.
  assert (Ns : ~ In (lname l2) (set_nbrs s (lname l1))). { intros I. apply nbr_constraint in I as [t [g C]]; auto. exact (Nc t g C). }
  assert (Q : exists lo up l h, (lo, up) = (if nltb Exact (l_E l1) (l_E l2) then (a1, a2) else (a2, a1)) /\ lv s lo = Some l /\ lv s up = Some h /\
    (lo = a1 /\ up = a2 /\ l = l1 /\ h = l2 \/ lo = a2 /\ up = a1 /\ l = l2 /\ h = l1)).
  { destruct (nltb Exact (l_E l1) (l_E l2)); [exists a1, a2, l1, l2|exists a2, a1, l2, l1]; auto 10. }
  destruct Q as [lo [up [l [h [EL [Vl [Vh Q]]]]]]].
  destruct (which_end s l h lo up f W Hf) as [b [e [lb [Bb [Fb Cs]]]]]; [destruct Q as [[_ [_ [-> ->]]]|[_ [_ [-> ->]]]]; tauto|].
  destruct (add_first Exact muB orc s a1 a2 l1 l2 f A alias OK W Se H1 H2 V1 V2 Npq Ns lo up l h b e EL Vl Vh Cs)
    as [x [s1 [E [Vt [Xl [Xu [Xs [Ed [To [Eo [Lv [Wn [W' [C' Nb]]]]]]]]]]]]]].
  set (t := List.length (s_trans s)) in *. set (s' := moved_to Exact x b e (tick s1)) in *. exists s', t, b, lb. split; auto.
  assert (Ct : constraint s' (lname l1) (lname l2) t f) by (split; eauto). split; auto.
  split; [destruct Q as [[-> [-> _]]|[-> [-> _]]]; tauto|]. split; [destruct Bb as [[-> ->]|[-> ->]]; auto|]. split; auto.
  assert (R' : reachable Exact muB orc s').
  { replace s' with (step Exact muB orc s (OAddTransition Exact (TLevels a1 a2) (Some f) A alias)); [now apply reachable_step|].
    unfold step. cbn [run_op]. unfold void. erewrite bind_Ok; [reflexivity|exact E]. }
  apply (settled_consistent muB s' W') in C'.
  split; [|split; [|split; [|split; [exact Wn|auto]]]].
  - exact (se_met _ _ C' _ _ _ _ Ct).
  - intros u v t' g [Eu [x' [V' F']]]. assert (C2 : constraint s' u v t' g); [|split; [exact C2|exact (se_met _ _ C' u v _ _ C2)]].
    assert (Dt : t' <> t) by (intros ->; unfold tr, t in V'; assert (L := proj2 (nth_error_None (s_trans s) (List.length (s_trans s))) (le_n _)); congruence).
    split; [|exists x'; rewrite To; auto]. rewrite Eo; auto. intros [[-> ->]|[-> ->]].
    + apply (Nc t' g). split; eauto.
    + apply (Nc t' g). split; [|eauto]. exact (gw_sym _ (go_wf _ _ _ _ (wf_g _ _ W LE)) _ _ _ Eu).
  - intros a la Va Ka Na. rewrite (energy_LE _ _ s a la) by auto.
    assert (La : exists la', lv s' a = Some la' /\ l_kind la' = LE /\ l_E la' = l_E la).
    { unfold s'. rewrite (lv_moved_to Exact). change (lv (tick s1) a) with (lv s1 a). rewrite Lv, Va. cbn [option_map].
      destruct (Nat.eqb_spec b a); [congruence|]. eexists. split; [reflexivity|]. auto. }
    destruct La as [la' [Va' [Ka' Ea']]]. rewrite (energy_LE _ _ s' a la') by auto. now rewrite Ea'.
Qed.
Print Assumptions C42_add_transition.

(** All histories of such calls. *)
Inductive call := CSet (t : nat) (f : Qc) | CAdd (a1 a2 : nat) (f : Qc) (A : option (Qc * funit)) (alias : option string).
Definition call_op (c : call) : op Exact :=
  match c with CSet t f => OSetFreq Exact t f | CAdd a1 a2 f A alias => OAddTransition Exact (TLevels a1 a2) (Some f) A alias end.
(** The call constrains a transition for the first time, at a free level. *)
Definition first_time (s : st Exact) (c : call) : Prop :=
  match c with
  | CSet t f => 0 <= f /\ exists p q x, edge (s_g0 s) p q = Some t /\ p <> q /\ tr s t = Some x /\ x_set x = None /\
      home Exact s (x_lo x) /\ home Exact s (x_up x) /\ (free s p \/ free s q)
  | CAdd a1 a2 f _ _ => 0 <= f /\ exists l1 l2, home Exact s a1 /\ home Exact s a2 /\ lv s a1 = Some l1 /\ lv s a2 = Some l2 /\
      lname l1 <> lname l2 /\ (forall t g, ~ constraint s (lname l1) (lname l2) t g) /\ (free s (lname l1) \/ free s (lname l2))
  end.
Fixpoint first_times muB orc (s : st Exact) (cs : list call) : Prop :=
  match cs with [] => True | c :: cs' => first_time s c /\ first_times muB orc (step Exact muB orc s (call_op c)) cs' end.
(** What the call asked for. *)
Definition granted muB (s : st Exact) (c : call) : Prop :=
  match c with
  | CSet t f => freq Exact muB s t = Some f
  | CAdd a1 a2 f _ _ => exists n1 n2 t, nm s a1 = Some n1 /\ nm s a2 = Some n2 /\ edge (s_g0 s) n1 n2 = Some t /\ freq Exact muB s t = Some f
  end.

Lemma nm_ext : forall N (s s' : st N) a n, ext s s' -> nm s a = Some n -> nm s' a = Some n.
Proof.
  intros N s s' a n X H. unfold nm in *. destruct (lv s a) as [l|] eqn:V; [|discriminate]. destruct (ext_lv _ _ _ X _ _ V) as [l' [V' L]].
  rewrite V'. destruct (lsame_names _ _ _ L) as [_ [En _]]. cbn [option_map] in *. congruence.
Qed.

Theorem C42_history : forall muB orc, (forall n, oracle_ok (orc n)) -> forall cs s, reachable Exact muB orc s -> settled muB s ->
  first_times muB orc s cs -> let s' := run Exact muB orc s (map call_op cs) in
  settled muB s' /\ s_warn s' = s_warn s /\ (forall c, In c cs -> granted muB s' c) /\
  (forall u v t g, constraint s u v t g -> constraint s' u v t g /\ freq Exact muB s' t = Some g).
Proof.
  intros muB orc OK cs s R Se F.
  assert (H : reachable Exact muB orc (run Exact muB orc s (map call_op cs)) /\ settled muB (run Exact muB orc s (map call_op cs)) /\
    s_warn (run Exact muB orc s (map call_op cs)) = s_warn s /\
    (forall u v t g, constraint s u v t g -> constraint (run Exact muB orc s (map call_op cs)) u v t g) /\
    (forall c, In c cs -> match c with
       | CSet t f => exists u v, constraint (run Exact muB orc s (map call_op cs)) u v t f
       | CAdd a1 a2 f _ _ => exists n1 n2 t, nm (run Exact muB orc s (map call_op cs)) a1 = Some n1 /\ nm (run Exact muB orc s (map call_op cs)) a2 = Some n2 /\
           constraint (run Exact muB orc s (map call_op cs)) n1 n2 t f end)).
  { revert s R Se F. induction cs as [|c cs IH]; intros s R Se F.
    - cbn. repeat (split; auto). intros c [].
    - destruct F as [F Fs]. cbn [map run fold_left]. set (s1 := step Exact muB orc s (call_op c)) in *.
      assert (Q : exists t b f, honoured muB orc s s1 t b f /\ match c with
        | CSet t f => exists u v, constraint s1 u v t f
        | CAdd a1 a2 f _ _ => exists n1 n2 t, nm s1 a1 = Some n1 /\ nm s1 a2 = Some n2 /\ constraint s1 n1 n2 t f end).
      { destruct c as [t f|a1 a2 f A alias]; cbn [first_time] in F.
        - destruct F as [Hf [p [q [x [Ed [Npq [V [X0 [Hl [Hh Fr]]]]]]]]]].
          destruct (C42_set_frequency muB orc OK s R Se p q t x f Ed Npq V X0 Hf Hl Hh Fr) as [s' [b [lb [E [Ct [_ [_ [_ Ho]]]]]]]].
          assert (Es : s1 = s') by (unfold s1, step; cbn [call_op run_op]; now rewrite E). rewrite Es. exists t, b, f. eauto.
        - destruct F as [Hf [l1 [l2 [H1 [H2 [V1 [V2 [Npq [Nc Fr]]]]]]]]].
          destruct (C42_add_transition muB orc OK s R Se a1 a2 l1 l2 f A alias H1 H2 V1 V2 Npq Nc Hf Fr) as [s' [t [b [lb [E [Ct [_ [_ [_ Ho]]]]]]]]].
          assert (Es : s1 = s') by (unfold s1, step; cbn [call_op run_op]; unfold void; erewrite bind_Ok; [reflexivity|exact E]).
          destruct (step_WF Exact muB orc OK s (call_op (CAdd a1 a2 f A alias)) (reachable_WF Exact muB orc OK s R)) as [_ X]. fold s1 in X.
          exists t, b, f. split; [rewrite Es; exact Ho|]. exists (lname l1), (lname l2), t.
          split; [apply (nm_ext _ s s1); auto; unfold nm; now rewrite V1|]. split; [apply (nm_ext _ s s1); auto; unfold nm; now rewrite V2|]. now rewrite Es. }
      destruct Q as [t [b [f [[_ [Kc [_ [Wn [R1 Se1]]]]] Qc]]]]. destruct (IH s1 R1 Se1 Fs) as [R2 [Se2 [Wn2 [K2 G2]]]].
      fold (run Exact muB orc s1 (map call_op cs)) in *.
      destruct (run_WF Exact muB orc OK (map call_op cs) s1 (reachable_WF Exact muB orc OK s1 R1)) as [_ X2].
      split; auto. split; auto. split; [congruence|]. split; [intros; apply K2, Kc; auto|].
      intros c' [<-|I]; [|exact (G2 c' I)]. destruct c as [t' f'|a1 a2 f' A alias].
      + destruct Qc as [u [v C]]. eauto.
      + destruct Qc as [n1 [n2 [t' [N1 [N2 C]]]]]. exists n1, n2, t'. split; [eapply nm_ext; eauto|]. split; [eapply nm_ext; eauto|auto]. }
  destruct H as [R' [Se' [Wn [K G]]]]. split; auto. split; auto. split; [|intros; split; auto; eapply (se_met _ _ Se'), K; eauto].
  intros c I. specialize (G c I). destruct c as [t f|a1 a2 f A alias]; cbn [granted].
  - destruct G as [u [v C]]. exact (se_met _ _ Se' _ _ _ _ C).
  - destruct G as [n1 [n2 [t [N1 [N2 C]]]]]. exists n1, n2, t. split; auto. split; auto. split; [apply C|]. exact (se_met _ _ Se' _ _ _ _ C).
Qed.
Print Assumptions C42_history.

(** Checking the hypotheses on concrete atoms. *)
Definition unset {N} (s : st N) : bool := forallb (fun x => match x_set x with None => true | Some _ => false end) (s_trans s).
Definition loose {N} (s : st N) : bool := forallb (fun l => negb (l_fixed l)) (s_levels s).
Definition homeb {N} (s : st N) (a : nat) : bool :=
  match lv s a with
  | Some l => match dget (lname l) (g_nodes (s_g0 s)) with Some (Some b) => Nat.eqb a b | _ => false end
  | None => false
  end.
Lemma unset_free : forall N (s : st N), unset s = true -> forall n, free s n.
Proof.
  intros N s H n m t f [_ [x [V F]]]. unfold unset in H. rewrite forallb_forall in H.
  specialize (H x (nth_error_In _ _ V)). now rewrite F in H.
Qed.
Lemma loose_all : forall N (s : st N), loose s = true -> forall a l, lv s a = Some l -> l_fixed l = false.
Proof.
  intros N s H a l V. unfold loose in H. rewrite forallb_forall in H. specialize (H l (nth_error_In _ _ V)). now destruct (l_fixed l).
Qed.
Lemma homeb_home : forall N (s : st N) a, homeb s a = true -> home N s a.
Proof.
  intros N s a H. unfold homeb in H. destruct (lv s a) as [l|] eqn:V; [|discriminate]. exists l. split; auto.
  destruct (dget (lname l) (g_nodes (s_g0 s))) as [[b|]|]; try discriminate. apply Nat.eqb_eq in H. now subst.
Qed.
Definition freeb {N} (s : st N) (n : string) : bool := match set_nbrs s n with [] => true | _ => false end.
Definition firstb {N} (s : st N) (p q : string) (t : nat) : bool :=
  match edge (s_g0 s) p q, tr s t with
  | Some t', Some x => Nat.eqb t t' && negb (String.eqb p q) && match x_set x with None => true | _ => false end &&
      homeb s (x_lo x) && homeb s (x_up x) && (freeb s p || freeb s q)
  | _, _ => false
  end.
Lemma freeb_free : forall N (s : st N) n, WF s -> freeb s n = true -> free s n.
Proof. intros N s n W H. apply free_nil; auto. unfold freeb in H. destruct (set_nbrs s n); auto. discriminate. Qed.
Lemma firstb_spec : forall N (s : st N) p q t, WF s -> firstb s p q t = true -> exists x, edge (s_g0 s) p q = Some t /\ p <> q /\ tr s t = Some x /\
  x_set x = None /\ home N s (x_lo x) /\ home N s (x_up x) /\ (free s p \/ free s q).
Proof.
  intros N s p q t W H. unfold firstb in H. destruct (edge (s_g0 s) p q) as [t'|] eqn:E; [|discriminate].
  destruct (tr s t) as [x|] eqn:V; [|discriminate]. rewrite !andb_true_iff, orb_true_iff in H. destruct H as [[[[[H1 H2] H3] H4] H5] H6].
  apply Nat.eqb_eq in H1. subst t'. exists x. split; auto. split; [intros ->; now rewrite String.eqb_refl in H2|].
  split; auto. split; [destruct (x_set x); auto; discriminate|]. split; [now apply homeb_home|]. split; [now apply homeb_home|].
  destruct H6; [left|right]; now apply freeb_free.
Qed.
Lemma firstb_first : forall s p q t f, WF s -> firstb s p q t = true -> 0 <= f -> first_time s (CSet t f).
Proof. intros s p q t f W H Hf. split; auto. exists p, q. now apply firstb_spec. Qed.

(** A chain of three levels at 0, 10 and 15; its steps get the frequencies 12
    and 3. *)
Definition chain : st Exact := runx (from 1) [nl tS 0; add 0; nl tP 10; add 1; nl tQ 15; add 2;
  ONewTransition Exact 0 1 None None None; ONewTransition Exact 1 2 None None None].
Lemma chain_reachable : reachable Exact 1 plain chain.
Proof. apply from_reachable. lia. Qed.
Lemma chain_settled : settled 1 chain.
Proof. apply settled_start; [apply unset_free|apply loose_all]; vm_compute; reflexivity. Qed.
Lemma case_WF : forall s, reachable Exact 1 plain s -> WF s.
Proof. exact (reachable_WF Exact 1 plain plain_ok). Qed.
Example C42_case : settled 1 chain /\ first_times 1 plain chain [CSet 0 (Q2Qc 12); CSet 1 (Q2Qc 3)] /\
  let s' := runx chain (map call_op [CSet 0 (Q2Qc 12); CSet 1 (Q2Qc 3)]) in
  map (energy Exact 1 s') [0; 1; 2]%nat = [Some (Q2Qc 0); Some (Q2Qc 12); Some (Q2Qc 15)] /\
  map (freq Exact 1 s') [0; 1]%nat = [Some (Q2Qc 12); Some (Q2Qc 3)].
Proof.
  split; [apply chain_settled|]. split; [|split; vm_compute; reflexivity]. split; [|split; [|exact I]].
  - apply (firstb_first chain "6s 2S1/2" "6p 2P*1/2"); [apply case_WF, chain_reachable|vm_compute; reflexivity|apply Qc_ltb_ge; reflexivity].
  - apply (firstb_first _ "6p 2P*1/2" "6p 2P*3/2"); [|vm_compute; reflexivity|apply Qc_ltb_ge; reflexivity].
    apply case_WF, (more_reachable chain [call_op (CSet 0 (Q2Qc 12))]), chain_reachable.
Qed.

(** ** C43 *)

Definition joined_by {N} (s : st N) (u v : string) : Prop := exists t f, constraint s u v t f.
(** The constraints are between levels of the atom, the set frequencies are not
    negative, and none of the levels concerned is fixed. *)
Record untouched (s : st Exact) : Prop := mk_untouched {
  un_home : forall u v t f x, constraint s u v t f -> tr s t = Some x -> home Exact s (x_lo x) /\ home Exact s (x_up x);
  un_pos : forall u v t f, constraint s u v t f -> 0 <= f;
  un_loose : forall a l, home Exact s a -> lv s a = Some l -> ~ free s (lname l) -> l_fixed l = false
}.

Lemma untouched_homes : forall s, untouched s -> homes Exact s.
Proof.
  intros s U u v t x E I V. unfold is_set in I. rewrite V in I. destruct (x_set x) as [f|] eqn:F; [|discriminate].
  apply (un_home s U u v t f x); auto. split; eauto.
Qed.
Lemma untouched_nice : forall s, untouched s -> all_nice Exact (fun _ => True) (fun f : Qc => 0 <= f) s.
Proof. intros s U. split; [|auto]. intros u v t x f E V F. apply (un_pos s U u v t f). split; eauto. Qed.
Lemma sat_either : forall f e : Qc, 0 <= f -> True -> (sat Exact f e (nadd Exact e f) /\ True) /\ (sat Exact f (nsub Exact e f) e /\ True).
Proof. intros f e H _. pose proof (sat_up f e H). tauto. Qed.
Lemma untouched_unfixed : forall s, WF s -> untouched s -> forall n, In n (set_nodes s) -> unfixed Exact s n.
Proof.
  intros s W U n I a l H V <-. apply (un_loose s U a l H V). intros F. apply free_nil in F; auto.
  apply set_nodes_In in I as [v I]; auto. now rewrite F in I.
Qed.

Theorem C43_forest : forall muB orc, (forall n, oracle_ok (orc n)) -> forall s, reachable Exact muB orc s ->
  untouched s -> loop_free (joined_by s) -> exists s', enforce Exact muB orc None s = (Ok tt, s') /\
  (forall u v t f, constraint s u v t f -> freq Exact muB s' t = Some f) /\ s_warn s' = s_warn s /\
  (forall a l, home Exact s a -> lv s a = Some l -> free s (lname l) -> lv s' a = Some l).
Proof.
  intros muB orc OK s R U Lf. pose proof (reachable_WF Exact muB orc OK s R) as W.
  destruct (enforce_forest Exact muB (sat Exact) (fun _ => True) (fun f : Qc => 0 <= f) sat_either orc s OK W (untouched_homes s U) (untouched_nice s U) (untouched_unfixed s W U)) as [s' [E [Mm [Wn [_ [Hd K]]]]]].
  { intros a b I Wk. apply (Lf a b); [now apply nbr_constraint|]. revert Wk. apply walk_imp. intros u v [H1 H2]. split; auto. now apply nbr_constraint. }
  exists s'. split; auto. split; [|split; auto].
  - intros u v t f C. assert (I : In v (set_nbrs s u)) by (apply nbr_constraint; eauto).
    destruct (Hd u v I) as [t' [x' [f' [l [h [[Ed [V' [Fx [Vl [Vh _]]]]] [_ [_ Sa]]]]]]]]. destruct C as [Ec [x [V F]]].
    rewrite (mv_g0 _ _ _ Mm) in Ed. rewrite Ec in Ed. injection Ed as <-. pose proof V' as V2. unfold tr in V2. rewrite (mv_trans _ _ _ Mm) in V2. unfold tr in V. rewrite V in V2. injection V2 as <-.
    rewrite F in Fx. injection Fx as <-. rewrite (freq_edge muB s' u v t x l h); auto.
    + apply sat_Exact in Sa as [_ ->]. reflexivity.
    + eapply moved_WF; eauto.
    + now rewrite (mv_g0 _ _ _ Mm).
  - intros a l H V F. apply K; auto. intros I. apply set_nodes_In in I as [v I]; auto. apply nbr_constraint in I as [t [f C]]; auto. exact (F _ _ _ C).
Qed.
Print Assumptions C43_forest.

(** ** C45 *)

(** Starting from levels that are not fixed there never is a warning, whatever
    the constraints are. *)
Theorem C45_never_warns_refuted : forall muB orc, (forall n, oracle_ok (orc n)) -> forall s, reachable Exact muB orc s ->
  untouched s -> exists s', enforce Exact muB orc None s = (Ok tt, s') /\ s_warn s' = s_warn s.
Proof.
  intros muB orc OK s R U. pose proof (reachable_WF Exact muB orc OK s R) as W.
  destruct (enforce_fresh Exact muB (sat Exact) (fun _ => True) (fun f : Qc => 0 <= f) sat_either orc s OK W (untouched_homes s U) (untouched_nice s U) (untouched_unfixed s W U)) as [s' [E [Mm [Wn _]]]]. eauto.
Qed.
Print Assumptions C45_never_warns_refuted.
(** A triangle 10 + 5 <> 20, added one transition at a time.  Whether there is
    a warning depends on the order in which neighbours are visited; there is
    none in the order of insertion. *)
Definition os_triangle : list (op Exact) := [nl tS 0; add 0; nl tP 10; add 1; nl tQ 15; add 2;
  OAddTransition Exact (TLevels 0 1) (Some (Q2Qc 10)) None None;
  OAddTransition Exact (TLevels 1 2) (Some (Q2Qc 5)) None None;
  OAddTransition Exact (TLevels 0 2) (Some (Q2Qc 20)) None None].
Definition back (_ : nat) : oracle := mkOracle (fun c => c) (fun n => n) (fun _ n => rev n).
Lemma back_ok : forall n, oracle_ok (back n).
Proof. intros n. constructor; intros; try apply Permutation_refl. apply Permutation_sym, Permutation_rev. Qed.
Theorem C45_order_refuted :
  let s := runx (from 1) os_triangle in let s' := run Exact 1 back (from 1) os_triangle in
  reachable Exact 1 plain s /\ reachable Exact 1 back s' /\
  map (fun t => option_map (@x_set Exact) (tr s t)) [0; 1; 2]%nat = [Some (Some (Q2Qc 10)); Some (Some (Q2Qc 5)); Some (Some (Q2Qc 20))] /\
  map (freq Exact 1 s) [0; 1; 2]%nat = [Some (Q2Qc 10); Some (Q2Qc 5); Some (Q2Qc 15)] /\ s_warn s = [] /\
  s_warn s' = [WLoop "6s 2S1/2" "6p 2P*3/2"].
Proof.
  cbv zeta. split; [apply from_reachable; lia|]. split; [exists 1%Z, 0, os_triangle; split; [lia|reflexivity]|].
  split; [vm_compute; reflexivity|]. split; [vm_compute; reflexivity|]. split; vm_compute; reflexivity.
Qed.
Print Assumptions C45_order_refuted.

(** ** C44 *)

Theorem C44_upper_leaf_partial : forall muB orc, (forall n, oracle_ok (orc n)) -> forall s, reachable Exact muB orc s -> settled muB s ->
  forall p q t x g f, constraint s p q t g -> tr s t = Some x -> p <> q -> g <> 0 -> 0 <= f ->
  (forall h m t' g', lv s (x_up x) = Some h -> constraint s (lname h) m t' g' -> t' = t) ->
  exists s', set_frequency Exact muB orc t f s = (Ok tt, s') /\ freq Exact muB s' t = Some f /\
  (forall u v t' g', t' <> t -> constraint s u v t' g' -> freq Exact muB s' t' = Some g') /\ s_warn s' = s_warn s /\ settled muB s'.
Proof.
  intros muB orc OK s R Se p q t x g f C V Npq Gz Hf Leaf. pose proof (reachable_WF Exact muB orc OK s R) as W.
  destruct (se_ends _ _ Se p q t g x C V) as [Hl [Hh [l [h [Vl [Vh _]]]]]]. apply settled_consistent in Se; auto. pose proof C as [Ed [x' [V' X0]]].
  rewrite V in V'. injection V' as <-. destruct (edge_names Exact s W t x l h V Vl Vh p q Ed) as [O [Kl [Kh Kx]]].
  assert (Lf : forall v, In v (set_nbrs s (lname h)) -> v = lname l).
  { intros v I. apply nbr_constraint in I as [t' [g' C']]; auto. assert (t' = t) by (eapply Leaf; eauto). subst t'. destruct C' as [Ed' _].
    destruct (edge_names Exact s W t x l h V Vl Vh _ _ Ed') as [O' _]. destruct O' as [[A B]|[A B]]; auto. exfalso.
    destruct O as [[A' B']|[A' B']]; congruence. }
  assert (Gz' : neqb Exact g (nofQ Exact 0) = false).
  { cbn [neqb nofQ Exact]. apply Qc_eqb_false. intros E. apply Gz. rewrite E. apply Qc_is_canon. reflexivity. }
  destruct (set_again Exact muB orc s p q t x g f l h OK W Se Ed Npq V X0 Gz' Vl Vh Lf (proj1 (sat_up f (l_E l) Hf))) as [E [C' Nb]].
  set (s' := moved_to Exact _ _ _ _) in *. exists s'. split; auto.
  assert (W' : WF s').
  { assert (R' : reachable Exact muB orc s'); [|exact (reachable_WF Exact muB orc OK s' R')].
    replace s' with (step Exact muB orc s (OSetFreq Exact t f)); [now apply reachable_step|]. unfold step. cbn [run_op]. now rewrite E. }
  apply (settled_consistent muB s' W') in C'.
  assert (Tr : forall t', tr s' t' = if Nat.eqb t t' then Some (@tr_set_set Exact (Some f) x) else tr s t').
  { intros t'. exact (tr_s1 Exact s t x V f t'). }
  split; [|split; [|split; [reflexivity|auto]]].
  - apply (se_met _ _ C' p q). split; [exact Ed|]. exists (@tr_set_set Exact (Some f) x). now rewrite Tr, Nat.eqb_refl.
  - intros u v t' g' D [Eu [y [Vy Fy]]]. apply (se_met _ _ C' u v). split; [exact Eu|]. exists y. rewrite Tr. destruct (Nat.eqb_spec t t'); [congruence|auto].
Qed.
Print Assumptions C44_upper_leaf_partial.
(** In the chain, re-tuning the lower step breaks the upper one.  The lower
    step was set from 10 to 12, the upper step's 5 is no longer met. *)
Theorem C44_chain_refuted :
  let os := [OSetFreq Exact 0 (Q2Qc 10); OSetFreq Exact 1 (Q2Qc 5)] in
  let s := runx chain os in let s' := runx s [OSetFreq Exact 0 (Q2Qc 12)] in
  reachable Exact 1 plain s /\ map (freq Exact 1 s) [0; 1]%nat = [Some (Q2Qc 10); Some (Q2Qc 5)] /\ s_warn s = [] /\
  map (freq Exact 1 s') [0; 1]%nat = [Some (Q2Qc 12); Some (Q2Qc 3)] /\
  option_map (@x_set Exact) (tr s' 1) = Some (Some (Q2Qc 5)) /\ s_warn s' = [WLoop "6p 2P*1/2" "6p 2P*3/2"].
Proof.
  cbv zeta. split; [apply more_reachable, chain_reachable|]. split; [vm_compute; reflexivity|]. split; [vm_compute; reflexivity|].
  split; [vm_compute; reflexivity|]. split; vm_compute; reflexivity.
Qed.
Print Assumptions C44_chain_refuted.
(** A frequency set to zero cannot be changed any more. *)
Theorem C44_zero_refuted :
  let s := runx chain [OSetFreq Exact 0 (Q2Qc 0)] in let s' := runx s [OSetFreq Exact 0 (Q2Qc 12)] in
  reachable Exact 1 plain s /\ freq Exact 1 s 0 = Some (Q2Qc 0) /\ s_warn s = [] /\
  freq Exact 1 s' 0 = Some (Q2Qc 0) /\ option_map (@x_set Exact) (tr s' 0) = Some (Some (Q2Qc 12)) /\ s_warn s' = [WLoop "6p 2P*1/2" "6s 2S1/2"].
Proof.
  cbv zeta. split; [apply more_reachable, chain_reachable|]. split; [vm_compute; reflexivity|]. split; [vm_compute; reflexivity|].
  split; [vm_compute; reflexivity|]. split; vm_compute; reflexivity.
Qed.
Print Assumptions C44_zero_refuted.

(** ** C47 *)

(** [root s t = Some r]: [r] is the transition between fine-structure levels
    that the subtransition [t] belongs to. *)
Theorem C47_subtransition : forall muB orc, (forall n, oracle_ok (orc n)) -> forall s, reachable Exact muB orc s -> settled muB s ->
  forall t x r xr p q, tr s t = Some x -> root s t = Some r -> tr s r = Some xr -> edge (s_g0 s) p q = Some r -> p <> q ->
  x_set xr = None -> home Exact s (x_lo xr) -> home Exact s (x_up xr) -> free s p \/ free s q ->
  forall e1 e2 d1 d2 g gr f, energy Exact muB s (x_E1 x) = Some e1 -> energy Exact muB s (x_E2 x) = Some e2 ->
  energy Exact muB s (x_E1 xr) = Some d1 -> energy Exact muB s (x_E2 xr) = Some d2 ->
  (x_lo xr = x_E1 xr /\ d1 <= d2 /\ e1 <= e2) \/ (x_lo xr = x_E2 xr /\ d2 <= d1 /\ e2 <= e1) ->
  freq Exact muB s t = Some g -> freq Exact muB s r = Some gr -> 0 <= f -> 0 <= gr + (f - g) ->
  exists s', set_frequency Exact muB orc t f s = (Ok tt, s') /\ freq Exact muB s' t = Some f /\ freq Exact muB s' r = Some (gr + (f - g)) /\ s_warn s' = s_warn s.
Proof.
  intros muB orc OK s R Se t x r xr p q V Rt Vr Ed Npq X0 Hl Hh Fr e1 e2 d1 d2 g gr f E1 E2 D1 D2 Or Eg Er Hf Hw.
  pose proof (reachable_WF Exact muB orc OK s R) as W. set (w := gr + (f - g)).
  destruct (root_tops s t x r W V Rt) as [xr' [Vr' [Kr [T1 T2]]]]. rewrite Vr in Vr'. injection Vr' as <-.
  assert (Es : set_frequency Exact muB orc t f s = set_frequency Exact muB orc r w s).
  { rewrite (set_sub muB orc s t x r f g gr W V Rt Eg Er). destruct (Nat.eqb_spec t r) as [->|]; auto.
    f_equal. unfold w. assert (g = gr) as -> by congruence. symmetry. apply add_sub. }
  rewrite Es. destruct (set_frequency_core muB orc OK s R Se p q r xr w Ed Npq Vr X0 Hw Hl Hh Fr) as [s' [b [lb [E [Mm [C [_ [_ [_ [Fw [_ [_ [Wn [R' Se']]]]]]]]]]]]]].
  exists s'. split; auto. split; [|auto].
  destruct (se_ends _ _ Se' p q r w (@tr_set_set Exact (Some w) xr) C) as [_ [_ [l' [h' [Vl' [Vh' [Le _]]]]]]].
  { unfold tr. rewrite (mv_trans _ _ _ Mm). change (tr (upd_tr r (@tr_set_set Exact (Some w)) s) r = Some (@tr_set_set Exact (Some w) xr)). rewrite tr_upd_tr, Nat.eqb_refl, Vr. reflexivity. }
  cbn [x_lo x_up tr_set_set] in Vl', Vh'.
  destruct (wf_tr _ _ W _ _ V) as [l1 [l2 [V1 [V2 _]]]]. destruct (wf_tr _ _ W _ _ Vr) as [m1 [m2 [U1 [U2 [K1 [K2 [UL _]]]]]]]. rewrite Kr in K1, K2. cbn [lk] in K1, K2.
  set (s1 := upd_tr r (@tr_set_set Exact (Some w)) s) in *. assert (W1 : WF s1) by exact (W1 Exact s W r w).
  destruct (moved_lv Exact s1 s' _ _ Mm U1) as [m1' [U1' _]]. destruct (moved_lv Exact s1 s' _ _ Mm U2) as [m2' [U2' _]].
  pose proof (energy_shift muB s1 s' (x_E1 x) l1 e1 _ m1 m1' W1 Mm V1 E1 T1 U1 U1') as N1.
  pose proof (energy_shift muB s1 s' (x_E2 x) l2 e2 _ m2 m2' W1 Mm V2 E2 T2 U2 U2') as N2.
  assert (Vt : exists y, tr s' t = Some y /\ x_E1 y = x_E1 x /\ x_E2 y = x_E2 x).
  { unfold tr. rewrite (mv_trans _ _ _ Mm). fold (tr s1 t). unfold s1. rewrite tr_upd_tr. destruct (Nat.eqb r t); rewrite V; eexists; (split; [reflexivity|]); auto. }
  destruct Vt as [y [Vy [Y1 Y2]]]. unfold freq. rewrite Vy, Y1, Y2, N1, N2. f_equal. cbn [nabs nsub Exact].
  pose proof (energy_LE Exact muB s _ _ U1 K1) as D1'. rewrite D1 in D1'. injection D1' as D1'. pose proof (energy_LE Exact muB s _ _ U2 K2) as D2'. rewrite D2 in D2'. injection D2' as D2'.
  unfold freq in Eg, Er. rewrite V, E1, E2 in Eg. rewrite Vr, D1, D2 in Er. injection Eg as Eg. injection Er as Er. cbn [nabs nsub Exact] in Eg, Er.
  unfold freq in Fw. assert (Vr2 : tr s' r = Some (@tr_set_set Exact (Some w) xr)).
  { unfold tr. rewrite (mv_trans _ _ _ Mm). fold (tr s1 r). unfold s1. rewrite tr_upd_tr, Nat.eqb_refl, Vr. reflexivity. }
  rewrite Vr2 in Fw. cbn [x_E1 x_E2 tr_set_set] in Fw.
  assert (KM : forall a m m', lv s1 a = Some m -> l_kind m = LE -> lv s' a = Some m' -> energy Exact muB s' a = Some (l_E m')).
  { intros a m m' Va Ka Va'. apply energy_LE; auto. destruct (moved_lv Exact s1 s' _ _ Mm Va) as [m2'' [Va'' Em]]. rewrite Va' in Va''. injection Va'' as <-. now rewrite Em. }
  rewrite (KM _ _ _ U1 K1 U1'), (KM _ _ _ U2 K2 U2') in Fw. injection Fw as Fw. cbn [nabs nsub Exact] in Fw.
  assert (Ws : w = gr + (f - g)) by reflexivity. clearbody w.
  assert (Mo' : (l_E m1' <= l_E m2' /\ d1 <= d2 /\ e1 <= e2) \/ (l_E m2' <= l_E m1' /\ d2 <= d1 /\ e2 <= e1)).
  { destruct Or as [[Lo Or]|[Lo Or]]; [left|right]; (split; [|exact Or]).
    - rewrite Lo, U1' in Vl'. injection Vl' as <-. assert (Up : x_up xr = x_E2 xr) by (destruct UL as [[A B]|[A B]]; congruence).
      rewrite Up, U2' in Vh'. injection Vh' as <-. exact Le.
    - rewrite Lo, U2' in Vl'. injection Vl' as <-. assert (Up : x_up xr = x_E1 xr) by (destruct UL as [[A B]|[A B]]; congruence).
      rewrite Up, U1' in Vh'. injection Vh' as <-. exact Le. }
  rewrite <- D1', <- D2'. destruct Mo' as [[A [B C1]]|[A [B C1]]].
  - exact (order_alg e1 e2 d1 d2 _ _ f g gr w C1 B A Eg Er Fw Ws Hf).
  - rewrite Qc_abs_sym. rewrite Qc_abs_sym in Eg, Er, Fw. exact (order_alg e2 e1 d2 d1 _ _ f g gr w C1 B A Eg Er Fw Ws Hf).
Qed.
Print Assumptions C47_subtransition.

(** ** Instances *)

Definition untouchedb (s : st Exact) : bool :=
  forallb (fun x : trans Exact => match x_set x with None => true | Some f => homeb s (x_lo x) && homeb s (x_up x) && Qc_leb 0 f end) (s_trans s) && loose s.
Lemma untouchedb_ok : forall s, untouchedb s = true -> untouched s.
Proof.
  intros s H. apply andb_true_iff in H as [H L]. rewrite forallb_forall in H. constructor.
  - intros u v t f x [_ [y [V F]]] V'. rewrite V in V'. injection V' as <-. specialize (H _ (nth_error_In _ _ V)). rewrite F, !andb_true_iff in H.
    split; apply homeb_home, H.
  - intros u v t f [_ [y [V F]]]. specialize (H _ (nth_error_In _ _ V)). rewrite F, !andb_true_iff in H. apply Qle_bool_iff, H.
  - intros a l _ V _. exact (loose_all _ s L a l V).
Qed.
(** A graph is loop-free if every edge separates its ends. *)
Lemma cut_loop_free : forall R : string -> string -> Prop,
  (forall a b, R a b -> exists S : string -> Prop, S a /\ ~ S b /\ forall u v, R u v -> ~ (u = a /\ v = b) -> S u -> S v) -> loop_free R.
Proof.
  intros R H a b Rab Wk. destruct (H a b Rab) as [S [Sa [Sb Cl]]].
  assert (Q : forall c d, walk (fun u v => R u v /\ ~ (u = a /\ v = b) /\ ~ (u = b /\ v = a)) c d -> S c -> S d); [|exact (Sb (Q _ _ Wk Sa))].
  induction 1 as [|c d e [Rc [N1 N2]] Wk' IH]; auto. intros Sc. apply IH. eapply Cl; eauto.
Qed.

(** Three transitions made with their frequencies by the constructor: a tree. *)
Definition os_tree : list (op Exact) := [nl tS 0; add 0; nl tP 10; add 1; nl tQ 15; add 2;
  ONewTransition Exact 0 1 (Some (Q2Qc 12)) None None; ONewTransition Exact 1 2 (Some (Q2Qc 3)) None None].
Definition tree : st Exact := runx (from 1) os_tree.
Lemma tree_edges : forall u v, joined_by tree u v <-> (
  (u = "6s 2S1/2" /\ v = "6p 2P*1/2") \/ (u = "6p 2P*1/2" /\ v = "6s 2S1/2") \/ (u = "6p 2P*1/2" /\ v = "6p 2P*3/2") \/ (u = "6p 2P*3/2" /\ v = "6p 2P*1/2"))%string.
Proof.
  assert (W : WF tree) by (apply case_WF, from_reachable; lia). intros u v. unfold joined_by. rewrite <- nbr_constraint by auto. split.
  - intros I. assert (J : In u (set_nodes tree)) by (apply set_nodes_In; eauto).
    assert (En : set_nodes tree = ["6s 2S1/2"; "6p 2P*1/2"; "6p 2P*3/2"]%string) by (vm_compute; reflexivity). rewrite En in J.
    destruct J as [<-|[<-|[<-|[]]]].
    + assert (Q : set_nbrs tree "6s 2S1/2" = ["6p 2P*1/2"]%string) by (vm_compute; reflexivity). rewrite Q in I. destruct I as [<-|[]]; auto.
    + assert (Q : set_nbrs tree "6p 2P*1/2" = ["6s 2S1/2"; "6p 2P*3/2"]%string) by (vm_compute; reflexivity). rewrite Q in I. destruct I as [<-|[<-|[]]]; auto.
    + assert (Q : set_nbrs tree "6p 2P*3/2" = ["6p 2P*1/2"]%string) by (vm_compute; reflexivity). rewrite Q in I. destruct I as [<-|[]]; auto.
  - intros [[-> ->]|[[-> ->]|[[-> ->]|[-> ->]]]]; vm_compute; auto.
Qed.
Lemma tree_loop_free : loop_free (joined_by tree).
Proof.
  apply cut_loop_free. intros a b H. apply tree_edges in H as [[-> ->]|[[-> ->]|[[-> ->]|[-> ->]]]].
  - exists (fun n => n = "6s 2S1/2"%string). split; auto. split; [discriminate|]. intros u v H N S. apply tree_edges in H. subst u. intuition congruence.
  - exists (fun n => n = "6p 2P*1/2" \/ n = "6p 2P*3/2")%string. split; auto. split; [intuition discriminate|]. intros u v H N S. apply tree_edges in H. intuition congruence.
  - exists (fun n => n = "6s 2S1/2" \/ n = "6p 2P*1/2")%string. split; auto. split; [intuition discriminate|]. intros u v H N S. apply tree_edges in H. intuition congruence.
  - exists (fun n => n = "6p 2P*3/2"%string). split; auto. split; [discriminate|]. intros u v H N S. apply tree_edges in H. subst u. intuition congruence.
Qed.
Example C43_case : reachable Exact 1 plain tree /\ untouched tree /\ loop_free (joined_by tree) /\
  map (freq Exact 1 tree) [0; 1]%nat = [Some (Q2Qc 10); Some (Q2Qc 5)] /\
  map (freq Exact 1 (runx tree [OEnforce Exact])) [0; 1]%nat = [Some (Q2Qc 12); Some (Q2Qc 3)].
Proof.
  split; [apply from_reachable; lia|]. split; [apply untouchedb_ok; vm_compute; reflexivity|]. split; [apply tree_loop_free|].
  split; vm_compute; reflexivity.
Qed.
(** A contradictory triangle made the same way: no warning in any order. *)
Definition loop3 : st Exact := runx (from 1) (os_tree ++ [ONewTransition Exact 0 2 (Some (Q2Qc 20)) None None]).
Example C45_case : reachable Exact 1 plain loop3 /\ untouched loop3 /\
  map (freq Exact 1 (runx loop3 [OEnforce Exact])) [0; 1; 2]%nat = [Some (Q2Qc 12); Some (Q2Qc 3); Some (Q2Qc 15)].
Proof. split; [apply from_reachable; lia|]. split; [apply untouchedb_ok; vm_compute; reflexivity|]. vm_compute. reflexivity. Qed.

(** The chain with both steps set; its top level is in one constraint only. *)
Definition chain2 : st Exact := runx chain (map call_op [CSet 0 (Q2Qc 12); CSet 1 (Q2Qc 3)]).
Example C44_case : reachable Exact 1 plain chain2 /\ settled 1 chain2 /\ set_nbrs chain2 "6p 2P*3/2" = ["6p 2P*1/2"]%string /\
  map (freq Exact 1 (runx chain2 [OSetFreq Exact 1 (Q2Qc 7)])) [0; 1]%nat = [Some (Q2Qc 12); Some (Q2Qc 7)].
Proof.
  split; [apply more_reachable, chain_reachable|]. split; [|split; vm_compute; reflexivity].
  apply (C42_history 1 plain plain_ok [CSet 0 (Q2Qc 12); CSet 1 (Q2Qc 3)] chain chain_reachable); apply C42_case.
Qed.

(** F = 0 to F = 1, hyperfine shifts -3 and 1 of the lower level: 13 becomes
    20, the transition itself goes from 10 to 17. *)
Definition hyper : st Exact := runx (two 1) [ONewTransition Exact 0 1 None None None; OSetHf Exact 0 (Q2Qc 4) 0 0; OSubtransitions Exact 0].
Example C47_case : reachable Exact 1 plain hyper /\ settled 1 hyper /\ root hyper 1 = Some 0%nat /\
  option_map (@x_kind Exact) (tr hyper 1) = Some THF /\ map (freq Exact 1 hyper) [0; 1]%nat = [Some (Q2Qc 10); Some (Q2Qc 13)] /\
  map (freq Exact 1 (runx hyper [OSetFreq Exact 1 (Q2Qc 20)])) [0; 1]%nat = [Some (Q2Qc 17); Some (Q2Qc 20)].
Proof.
  split; [apply more_reachable, two_reachable; lia|]. split; [apply settled_start; [apply unset_free|apply loose_all]; vm_compute; reflexivity|].
  split; [vm_compute; reflexivity|]. split; [vm_compute; reflexivity|]. split; vm_compute; reflexivity.
Qed.
