(** Property C157: the order in which Python iterates over sets (atom.py:1131-1169). *)
From Coq Require Import List Bool ZArith QArith Qcanon Lia String Ascii Permutation.
From Verif Require Import Base PyStr Util UtilProofs Parse Term TermProofs Num Wigner Hyperfine HyperfineProofs
  Graph GraphProofs DfsProofs Rules Atom AtomInv AtomSafe AtomSafe2 AtomSafe3 AtomSafe4 AtomSafe5 AtomSafe6 AtomLevels AtomEnergy
  AtomEnforce AtomEnforce2 AtomEnforce3 AtomEnforce4 AtomExample PropEnforce PropLocal PropOrder PropAliasKeys PropFloat PropRound PropAnchor PropHang.
Import ListNotations.
Local Open Scope Qc_scope.

(** ** An atom whose constraints hold *)

(** [enforce_consistency] then does nothing. *)
Lemma enforce_settled : forall N muB orc (s : st N) from, (forall n, oracle_ok (orc n)) -> WF s -> consistent N s ->
  enforce N muB orc from s = (Ok tt, tick s).
Proof.
  intros N muB orc s from OK W C. pose proof (moved_tick N s) as Mt. pose proof (moved_WF _ _ _ W Mt) as Wt.
  assert (Ht : homes N (tick s)) by (apply (homes_moved N _ _ Mt), C).
  assert (Hd : forall u v, In v (set_nbrs (tick s) u) -> held N (tick s) u v).
  { intros u v I. rewrite (set_nbrs_moved N _ _ u Mt) in I. exact (cs_held _ _ C u v I). }
  destruct (comps_spec N (tick s) Wt) as [cs [Ec [C1 _]]].
  unfold enforce, gets. unfold bind at 1. unfold bind at 1. unfold modify at 1. unfold bind at 1. unfold bind at 1.
  unfold asks at 1. rewrite Ec.
  assert (P : forall l, (forall c, In c l -> c <> [] /\ incl c (set_nodes (tick s))) ->
    forM l (comp_step N muB (orc (s_tick s)) (S (List.length (set_nodes (tick s)))) from) (tick s) = (Ok tt, tick s)).
  { intros l. induction l as [|c l IH]; intros Hl; [reflexivity|]. cbn [forM]. unfold bind. rewrite comp_step_eq.
    destruct (Hl c (or_introl eq_refl)) as [Nc Ic].
    destruct (touched (tick s) c from); [|apply IH; intros; apply Hl; simpl; auto].
    destruct (enforce_comp_eq N muB (orc (s_tick s)) (tick s) c (OK _) Wt Ht Nc Ic) as [k [es [vis [_ [E [G _]]]]]]. rewrite E.
    rewrite (quiet_edges N); [apply IH; intros; apply Hl; simpl; auto|]. intros u v I. apply Hd. apply (grow_edge _ _ _ _ _ _ G I). }
  apply P. intros c I. destruct (C1 c) as [Q1 [Q2 _]]; auto. eapply Permutation_in; [apply (ok_comps _ (OK (s_tick s)))|exact I].
Qed.

(** ** Calls whose outcome the iteration order cannot change *)

(** A call of the interface that either does not enforce consistency, or does
    so while all constraints hold, with at most one new constraint, between
    levels of which one is free; or that enforces from scratch a set of
    constraints without loops, with an anchor in every group (C158); or that
    enforces any number of new constraints without loops that hang from fixed
    levels (C159). *)
Definition anchored (s : st Exact) : Prop := fresh_atom (fun _ => True) (fun _ => True) s /\ loop_free (joined_by s) /\
  forall n, ~ PropEnforce.free s n -> exists a l, anchor s a /\ lv s a = Some l /\ walk (joined_by s) (lname l) n.
Definition suspended muB (s : st Exact) : Prop := hanging muB s /\ loop_free (joined_by s) /\
  forall n, ~ PropEnforce.free s n -> exists m, pinned s m /\ walk (joined_by s) m n.
Definition calm_levels muB (s : st Exact) (a b : nat) (f : option (num Exact)) A al : Prop :=
  match f with Some f => settled muB s /\ first_time s (CAdd a b f A al) | None => True end.
Definition calm muB (s : st Exact) (o : op Exact) : Prop :=
  match o with
  | OSetFreq _ t f => settled muB s /\ first_time s (CSet t f)
  | OAddTransition _ (TLevels a b) f A al => calm_levels muB s a b f A al
  | OAddTransition _ (TObj t) _ _ _ => exists x, tr s t = Some x /\ x_set x = None
  | OAddTransition _ (TNames u v) f A al => dget (u, v) (edge_attrs (s_g0 s)) = None /\
      exists a b, levels_get Exact u s = (Ok a, s) /\ levels_get Exact v s = (Ok b, s) /\ calm_levels muB s a b f A al
  | OEnforce _ => settled muB s \/ anchored s \/ suspended muB s
  | _ => True
  end.
Fixpoint calms muB orc (s : st Exact) (os : list (op Exact)) : Prop :=
  match os with [] => True | o :: os' => calm muB s o /\ calms muB orc (step Exact muB orc s o) os' end.


(** All of [add_transition] before the enforcement is the same. *)
Definition late N muB (m : (nat -> oracle) -> M N nat) (s : st N) : Prop := (exists r, forall orc, m orc s = r) \/
  exists t s1, forall orc, m orc s = match enforce N muB orc None s1 with (Ok _, s2) => (Ok t, s2) | (Raise e, s2) => (Raise e, s2) end.
Lemma late_bind : forall N muB A (m : M N A) k s, (forall a s1, late N muB (fun orc => k orc a) s1) -> late N muB (fun orc => bind m (k orc)) s.
Proof.
  intros N muB A m k s H. unfold late, bind. destruct (m s) as [[a|e] s1]; [|left; eexists; intros; reflexivity]. exact (H a s1).
Qed.
Lemma add_split : forall N muB sp f A alias (s : st N), late N muB (fun orc => add_transition N muB orc sp f A alias) s.
Proof.
  intros N muB sp f A alias s. unfold add_transition. apply late_bind. intros t s1. apply late_bind. intros [] s2. apply late_bind. intros x s3. apply late_bind. intros [] s4.
  destruct (x_set x); [right; exists t, s4|left; eexists]; intros orc; reflexivity.
Qed.

Lemma no_enforce : forall N muB t f A alias (s : st N) x, WF s -> tr s t = Some x -> x_set x = None ->
  exists r, forall orc, add_transition N muB orc (TObj t) f A alias s = r.
Proof.
  intros N muB t f A alias s x W V X0.
  exists (match x_subs x with [] => (Ok t, match x_alias x with Some al => set_tal (dset al t (s_tal (tr_joined s t x))) (tr_joined s t x) | None => tr_joined s t x end)
    | _ => (Raise AttributeError, tr_joined s t x) end).
  intros orc. unfold add_transition. unfold ret at 1, bind at 1. cbv beta iota.
  unfold bind at 1. rewrite (tr_add_eq N s t x W V). destruct (tr_joined_spec N s t x W V) as [_ [_ [_ [T _]]]]. destruct (x_subs x); [|reflexivity].
  unfold bind at 1, get_tr, asks. rewrite T, Nat.eqb_refl, V. cbn [option_map].
  change (x_alias (tr_set_attached true x)) with (x_alias x). change (x_set (tr_set_attached true x)) with (x_set x). rewrite X0. destruct (x_alias x); reflexivity.
Qed.
Lemma no_enforce_new : forall N muB a b A alias (s : st N), WF s -> exists r, forall orc, add_transition N muB orc (TLevels a b) None A alias s = r.
Proof.
  intros N muB a b A alias s W.
  assert (H : forall t s1, new_transition N muB a b None A alias s = (Ok t, s1) -> WF s1 /\ exists x, tr s1 t = Some x /\ x_set x = None).
  { intros t s1 E. destruct (lv s a) as [l1|] eqn:V1; [|unfold new_transition, get_lv, bind, asks in E; rewrite V1 in E; discriminate].
    destruct (lv s b) as [l2|] eqn:V2; [|unfold new_transition, get_lv, bind, asks in E; rewrite V1, V2 in E; discriminate].
    destruct (new_transition_spec N muB s a b None A alias l1 l2 W V1 V2) as [S1 S2].
    assert (D : forall k : lkind, k = LE \/ k <> LE) by (intros []; auto; right; discriminate).
    destruct (D (l_kind l1)) as [K1|K1]; [|rewrite S2 in E by auto; discriminate].
    destruct (D (l_kind l2)) as [K2|K2]; [|rewrite S2 in E by auto; discriminate].
    destruct (S1 K1 K2) as [x [j1 [j2 [_ [_ [R [O [Sb New]]]]]]]]. rewrite New in E.
    assert (X0 : x_set x = None). { unfold tr_rec in R. destruct (lv s a), (energy N muB s a), (energy N muB s b); try discriminate. injection R as <-. reflexivity. }
    pose proof (put_trans_spec N s x W O Sb) as P. destruct (put_tr N s x _ P) as [T1 _].
    destruct alias as [al|]; [destruct (x_attached x); [|discriminate]|]; injection E as <- <-.
    - rewrite <- (pu_tal _ _ _ _ P). split; [exact (proj1 (WF_tal _ _ al _ _ (pu_wf _ _ _ _ P) T1))|]. exists x. auto.
    - split; [apply P|]. exists x. auto. }
  assert (E : forall orc, add_transition N muB orc (TLevels a b) None A alias s =
    match new_transition N muB a b None A alias s with (Ok t, s1) => add_transition N muB orc (TObj t) None A alias s1 | (Raise e, s1) => (Raise e, s1) end) by reflexivity.
  destruct (new_transition N muB a b None A alias s) as [[t|e] s1]; [|eauto]. destruct (H t s1 eq_refl) as [W1 [x [V X0]]].
  destruct (no_enforce N muB t None A alias s1 x W1 V X0) as [r Er]. exists r. intros orc. now rewrite E, Er.
Qed.

Lemma calm_levels_same : forall muB orc orc', (forall n, oracle_ok (orc n)) -> (forall n, oracle_ok (orc' n)) -> forall s a b f A al, WF s -> calm_levels muB s a b f A al ->
  add_transition Exact muB orc (TLevels a b) f A al s = add_transition Exact muB orc' (TLevels a b) f A al s.
Proof.
  intros muB orc orc' OK OK' s a b f A al W C. destruct f as [f|]; cbn [calm_levels] in C.
  - destruct C as [Se [Hf [l1 [l2 [H1 [H2 [V1 [V2 [Npq [Nc Fr]]]]]]]]]]. apply settled_consistent in Se; auto.
    assert (Ns : ~ In (lname l2) (set_nbrs s (lname l1))). { intros I. apply nbr_constraint in I as [t [g C]]; auto. exact (Nc t g C). }
    assert (Q : exists lo up l h, (lo, up) = (if nltb Exact (l_E l1) (l_E l2) then (a, b) else (b, a)) /\ lv s lo = Some l /\ lv s up = Some h /\
      (lo = a /\ up = b /\ l = l1 /\ h = l2 \/ lo = b /\ up = a /\ l = l2 /\ h = l1)).
    { destruct (nltb Exact (l_E l1) (l_E l2)); [exists a, b, l1, l2|exists b, a, l2, l1]; auto 10. }
    destruct Q as [lo [up [l [h [EL [Vl [Vh Q]]]]]]].
    destruct (which_end s l h lo up f W Hf) as [bb [e [lb [Bb [Fb Cs]]]]]; [destruct Q as [[_ [_ [-> ->]]]|[_ [_ [-> ->]]]]; tauto|].
    destruct (add_first Exact muB orc s a b l1 l2 f A al OK W Se H1 H2 V1 V2 Npq Ns lo up l h bb e EL Vl Vh Cs)
      as [x [s1 [E [_ [Xl [Xu [_ [_ [_ [_ [Lv [Wn _]]]]]]]]]]]].
    destruct (add_first Exact muB orc' s a b l1 l2 f A al OK' W Se H1 H2 V1 V2 Npq Ns lo up l h bb e EL Vl Vh Cs)
      as [x' [s1' [E' [_ [Xl' [Xu' [_ [_ [_ [_ [Lv' [Wn' _]]]]]]]]]]]].
    destruct (add_split Exact muB (TLevels a b) (Some f) A al s) as [[r Er]|[t [s2 Er]]]; [now rewrite !Er|].
    assert (Fs : forall o r s3, add_transition Exact muB o (TLevels a b) (Some f) A al s = (r, s3) -> frame s3 = frame (tick s2)).
    { intros o r s3 H. rewrite Er in H. rewrite <- (enforce_frame Exact muB o None s2). destruct (enforce Exact muB o None s2) as [[]s4]; injection H as _ <-; reflexivity. }
    rewrite E, E'. f_equal. apply st_eq.
    * intros c. rewrite !(lv_moved_to Exact). change (lv (tick s1) c) with (lv s1 c). change (lv (tick s1') c) with (lv s1' c). now rewrite Lv, Lv', Xl, Xu, Xl', Xu'.
    * now rewrite Wn, Wn'.
    * rewrite (Fs _ _ _ E). now rewrite (Fs _ _ _ E').
  - destruct (no_enforce_new Exact muB a b A al s W) as [r E]. now rewrite !E.
Qed.
Lemma calm_op : forall muB orc orc', (forall n, oracle_ok (orc n)) -> (forall n, oracle_ok (orc' n)) -> forall s o, WF s -> calm muB s o ->
  run_op Exact muB orc o s = run_op Exact muB orc' o s.
Proof.
  intros muB orc orc' OK OK' s o W C.
  destruct o as [| | | | | | | | | | | | | |sp f A al| | | | | | |t f| | | | | |]; try reflexivity; cbn [run_op calm] in *.
  - unfold void, bind. enough (E : add_transition Exact muB orc sp f A al s = add_transition Exact muB orc' sp f A al s) by now rewrite E.
    destruct sp as [t|u v|a b].
    + destruct C as [x [V X0]]. destruct (no_enforce Exact muB t f A al s x W V X0) as [r E]. now rewrite !E.
    + destruct C as [Hk [a [b [Ha [Hb C]]]]]. rewrite (C151_add_partial Exact muB orc s u v a b f A al Ha Hb Hk), (C151_add_partial Exact muB orc' s u v a b f A al Ha Hb Hk).
      exact (calm_levels_same muB orc orc' OK OK' s a b f A al W C).
    + exact (calm_levels_same muB orc orc' OK OK' s a b f A al W C).
  - destruct C as [Se [Hf [p [q [x [Ed [Npq [V [X0 [Hl [Hh Fr]]]]]]]]]]]. pose proof Hl as [l [Vl _]]. pose proof Hh as [h [Vh _]].
    destruct (edge_names Exact s W t x l h V Vl Vh p q Ed) as [O [Kl [Kh _]]]. apply settled_consistent in Se; auto.
    destruct (which_end s l h (x_lo x) (x_up x) f W Hf) as [b [e [lb [Bb [Fb Cs]]]]]; [destruct O as [[-> ->]|[-> ->]]; tauto|].
    destruct (set_first Exact muB orc s p q t x f l h b e OK W Se Ed Npq V X0 Vl Vh Hl Hh Cs) as [E _].
    destruct (set_first Exact muB orc' s p q t x f l h b e OK' W Se Ed Npq V X0 Vl Vh Hl Hh Cs) as [E' _]. now rewrite E, E'.
  - destruct C as [C|[[C1 [C2 C3]]|[C1 [C2 C3]]]]; [apply settled_consistent in C; auto; now rewrite !enforce_settled| |].
    + apply (any_order muB orc' orc OK' OK s W C1 C2 C3).
    + apply (any_order_hung muB orc' orc OK' OK s W C1 C2 C3).
Qed.

(** ** The theorem *)

(** Run the same history under two iteration orders, and let every call that
    enforces consistency either come while all constraints hold and add at most
    one constraint, at a free level, or enforce an anchored set of constraints
    from scratch, or enforce new constraints that hang from fixed levels.  Then
    the two atoms are the same, and every call has the same result.  (Partial:
    for constraints that contradict each other see C157_refuted; groups without
    an anchor are not covered.) *)
Theorem C157_order_partial : forall muB orc orc', (forall n, oracle_ok (orc n)) -> (forall n, oracle_ok (orc' n)) ->
  forall os s, reachable Exact muB orc s -> calms muB orc s os ->
  run Exact muB orc' s os = run Exact muB orc s os /\
  (forall n o, nth_error os n = Some o -> run_op Exact muB orc' o (run Exact muB orc' s (firstn n os)) = run_op Exact muB orc o (run Exact muB orc s (firstn n os))).
Proof.
  intros muB orc orc' OK OK' os. induction os as [|o os IH]; intros s R C; [split; [reflexivity|intros [|n] o H; discriminate]|].
  destruct C as [C Cs]. pose proof (reachable_WF Exact muB orc OK s R) as W. pose proof (calm_op muB orc orc' OK OK' s o W C) as E.
  assert (Es : step Exact muB orc' s o = step Exact muB orc s o) by (unfold step; now rewrite E).
  destruct (IH (step Exact muB orc s o) (reachable_step _ _ _ _ _ R) Cs) as [I1 I2]. unfold run in *. cbn [fold_left]. rewrite Es. split; auto.
  intros [|n] p H; cbn [nth_error firstn fold_left] in *; [injection H as <-; now rewrite E|]. rewrite Es. apply I2. exact H.
Qed.
Print Assumptions C157_order_partial.

(** The settings of a history of C42 are such calls. *)
Lemma first_times_calm : forall muB orc, (forall n, oracle_ok (orc n)) -> forall cs s, reachable Exact muB orc s -> settled muB s ->
  first_times muB orc s cs -> calms muB orc s (map call_op cs).
Proof.
  intros muB orc OK cs. induction cs as [|c cs IH]; intros s R Se F; cbn [map calms first_times] in *; auto. destruct F as [F Fs]. split.
  - destruct c; cbn [call_op calm calm_levels]; auto.
  - apply IH; auto; [now apply reachable_step|]. destruct (C42_history muB orc OK [c] s R Se (conj F I)) as [H _]. exact H.
Qed.
Theorem C157_settings : forall muB orc orc', (forall n, oracle_ok (orc n)) -> (forall n, oracle_ok (orc' n)) ->
  forall cs s, reachable Exact muB orc s -> settled muB s -> first_times muB orc s cs ->
  run Exact muB orc' s (map call_op cs) = run Exact muB orc s (map call_op cs).
Proof. intros muB orc orc' OK OK' cs s R Se F. apply C157_order_partial; auto. now apply first_times_calm. Qed.
Print Assumptions C157_settings.

(** Three levels, frequencies that contradict each other round the triangle,
    and one of them set again: the third level ends up where the neighbours
    that are visited first put it. *)
Theorem C157_refuted :
  let os := os_triangle ++ [OSetFreq Exact 2 (Q2Qc 20)] in
  let s := runx (from 1) os in let s' := run Exact 1 back (from 1) os in
  reachable Exact 1 plain s /\ reachable Exact 1 back s' /\
  map (fun t => option_map (@x_set Exact) (tr s t)) [0; 1; 2]%nat = map (fun t => option_map (@x_set Exact) (tr s' t)) [0; 1; 2]%nat /\
  map (energy Exact 1 s) [0; 1; 2]%nat = map (fun q => Some (Q2Qc q)) [0; 10; 15]%Q /\
  map (energy Exact 1 s') [0; 1; 2]%nat = map (fun q => Some (Q2Qc q)) [0; 10; 20]%Q /\
  s_warn s = [] /\ s_warn s' = [WLoop "6p 2P*3/2" "6p 2P*1/2"; WLoop "6s 2S1/2" "6p 2P*3/2"].
Proof.
  cbv zeta. split; [apply from_reachable; lia|]. split; [exists 1%Z, 0, (os_triangle ++ [OSetFreq Exact 2 (Q2Qc 20)]); split; [lia|reflexivity]|].
  do 4 (split; [vm_compute; reflexivity|]). vm_compute; reflexivity.
Qed.
Print Assumptions C157_refuted.

(** The chain, with both steps set, an enforcement in between, a new line and a
    field: calm under every order, and [back] is another order. *)
Lemma settled_tick : forall muB (s : st Exact), settled muB s -> settled muB (tick s).
Proof. intros muB s [Q1 Q2 Q3]. constructor; [exact Q1|exact Q2|exact Q3]. Qed.
Definition steps (t1 t2 a b : nat) (f g : Qc) : list (op Exact) :=
  [OSetFreq Exact t1 f; OEnforce Exact; OSetFreq Exact t2 g; OSetB Exact (Q2Qc 2); OAddTransition Exact (TLevels a b) None None None].
Lemma steps_calm : forall muB orc, (forall n, oracle_ok (orc n)) -> forall s t1 t2 a b f g, reachable Exact muB orc s -> settled muB s ->
  first_times muB orc s [CSet t1 f; CSet t2 g] -> calms muB orc s (steps t1 t2 a b f g).
Proof.
  intros muB orc OK s t1 t2 a b f g R Se [F1 [F2 _]].
  destruct (C42_history muB orc OK [CSet t1 f] s R Se (conj F1 I)) as [S1 _]. unfold run in S1. cbn [map fold_left call_op] in S1, F2.
  split; [split; [exact Se|exact F1]|]. assert (R1 : reachable Exact muB orc (step Exact muB orc s (OSetFreq Exact t1 f))) by now apply reachable_step.
  set (s1 := step Exact muB orc s (OSetFreq Exact t1 f)) in *. split; [left; exact S1|].
  assert (E2 : step Exact muB orc s1 (OEnforce Exact) = tick s1).
  { unfold step. cbn [run_op]. pose proof (reachable_WF Exact muB orc OK s1 R1) as W. rewrite enforce_settled; [reflexivity|exact OK|exact W|]. now apply (settled_consistent muB). }
  rewrite E2. split; [split; [now apply settled_tick|exact F2]|]. split; [exact I|]. split; exact I.
Qed.
Example C157_case : let os := steps 0 1 0 2 (Q2Qc 12) (Q2Qc 3) in
  (forall n, oracle_ok (back n)) /\ reachable Exact 1 plain chain /\ calms 1 plain chain os /\
  numbers (map (energy Exact 1 (run Exact 1 back chain os)) [0; 1; 2]%nat) = [Some 0; Some 12; Some 15]%Q.
Proof.
  cbv zeta. split; [apply back_ok|]. split; [apply chain_reachable|]. split; [|vm_compute; reflexivity].
  apply steps_calm; [apply plain_ok|apply chain_reachable|apply chain_settled|]. exact (proj1 (proj2 C42_case)).
Qed.
