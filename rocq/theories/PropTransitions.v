(** Properties C29-C35 and C48-C51: looking transitions up, selection rules,
    lists of subtransitions, adding transitions.  Angular momenta are doubled
    integers.  [w6sq] and [w3sq] are the squares of the Wigner symbols. *)
From Coq Require Import List Bool ZArith QArith Qcanon Lia String Ascii Permutation Sorted.
From Verif Require Import Base PyStr Util UtilProofs Parse Term TermProofs Num Wigner WignerProofs Hyperfine HyperfineProofs
  Graph GraphProofs Rules RulesProofs Atom AtomInv AtomSafe AtomSafe2 AtomSafe3 AtomSafe5 AtomSafe6 AtomLevels AtomKeep AtomPaths AtomTrans AtomExample.
Import ListNotations.

(** C29.  [edge g n m = Some t]: the atom has the transition [t] between the
    levels named [n] and [m].  The one named [n] is the lower one. *)
Theorem C29_lookup_partial : forall N muB orc, (forall n, oracle_ok (orc n)) -> forall s, reachable N muB orc s ->
  forall n m a b ea eb t, has_char "="%char n = false -> has_char "="%char m = false ->
  dget n (s_lal s) = None -> dget m (s_lal s) = None ->
  dget n (node_attrs (s_g0 s)) = Some a -> dget m (node_attrs (s_g0 s)) = Some b ->
  energy N muB s a = Some ea -> energy N muB s b = Some eb -> nltb N ea eb = true -> nltb N eb ea = false ->
  edge (s_g0 s) n m = Some t ->
  let found_or_not := if beforeb n m (dkeys (g_nodes (s_g0 s))) then Ok t else Raise KeyError in
  transitions_get N muB (KS n, KS m) s = (found_or_not, s) /\ transitions_get N muB (KS m, KS n) s = (found_or_not, s).
Proof.
  intros N muB orc OK s R n m a b ea eb t En Em An Am Dn Dm Ea Eb L1 L2 E. pose proof (reachable_WF N muB orc OK s R) as W. cbv zeta.
  assert (E' : edge (s_g0 s) m n = Some t) by exact (gw_sym _ (go_wf _ _ _ _ (wf_g _ _ W LE)) _ _ _ E).
  rewrite (trans_get_plain N muB s n m a b ea eb W), (trans_get_plain N muB s m n b a eb ea W) by auto.
  rewrite L1, L2. cbn [fst snd]. rewrite E, E'. destruct (beforeb n m (dkeys (g_nodes (s_g0 s)))); auto.
Qed.
Print Assumptions C29_lookup_partial.
Definition joined (os : list (op Exact)) : st Exact := runx (from 1) (os ++ [ONewTransition Exact 0 1 None None None]).
Example C29_case : let s := joined os_two in
  edge (s_g0 s) "6s 2S1/2" "6p 2P*1/2" = Some 0%nat /\ beforeb "6s 2S1/2" "6p 2P*1/2" (dkeys (g_nodes (s_g0 s))) = true /\
  fst (transitions_get Exact 1%Qc (KS "6p 2P*1/2", KS "6s 2S1/2") s) = Ok 0%nat.
Proof. vm_compute. auto. Qed.
(** The upper level was added first. *)
Theorem C29_refuted : exists s n m t, reachable Exact 1%Qc plain s /\ edge (s_g0 s) n m = Some t /\
  fst (levels_get Exact n s) = Ok 0%nat /\ fst (levels_get Exact m s) = Ok 1%nat /\
  fst (transitions_get Exact 1%Qc (KS n, KS m) s) = Raise KeyError /\ fst (transitions_get Exact 1%Qc (KS m, KS n) s) = Raise KeyError.
Proof.
  exists (joined [nl tP 10; add 0; nl tS 0; add 1]), "6p 2P*1/2"%string, "6s 2S1/2"%string, 0%nat.
  split; [apply from_reachable; lia|]. vm_compute. repeat (split; [reflexivity|]). reflexivity.
Qed.
Print Assumptions C29_refuted.

(** C30 is false in every state: no key with a rank returns a transition. *)
Theorem C30_rank_refuted : forall N muB orc, (forall n, oracle_ok (orc n)) -> forall s, reachable N muB orc s ->
  forall k1 k2, is_int k1 \/ is_int k2 -> exists e, fst (transitions_get N muB (k1, k2) s) = Raise e.
Proof. intros N muB orc OK s R k1 k2 H. now apply rank_fails. Qed.
Print Assumptions C30_rank_refuted.
Theorem C30_valid_ranks : forall N muB orc, (forall n, oracle_ok (orc n)) -> forall s, reachable N muB orc s ->
  forall i j a b, levels_get_int N muB i s = (Ok a, s) -> levels_get_int N muB j s = (Ok b, s) ->
  transitions_get N muB (KI i, KI j) s = (Raise TypeError, s).
Proof. intros N muB orc OK s R i j a b. exact (ranks_TypeError N muB s i j a b (reachable_WF N muB orc OK s R)). Qed.
Print Assumptions C30_valid_ranks.
Example C30_case : let s := joined os_two in
  fst (levels_get_int Exact 1%Qc 0 s) = Ok 0%nat /\ fst (levels_get_int Exact 1%Qc 1 s) = Ok 1%nat /\
  edge (s_g0 s) "6s 2S1/2" "6p 2P*1/2" = Some 0%nat /\ fst (transitions_get Exact 1%Qc (KI 0, KI 1) s) = Raise TypeError.
Proof. vm_compute. auto. Qed.

(** C31.  The pair is first tried the other way round. *)
Theorem C31_lookup_partial : forall N muB orc, (forall n, oracle_ok (orc n)) -> forall s, reachable N muB orc s ->
  forall t x k cs s', tr s t = Some x -> subtransitions N muB t s = (Ok cs, s') ->
  let between lo up c := In c cs /\ exists y llo lup, tr s' c = Some y /\ x_parent y = Some t /\
    lv s' (x_lo y) = Some llo /\ lv s' (x_up y) = Some lup /\ lshort llo = lo /\ lshort lup = up in
  (exists c, tr_getitem N muB t k s = (Ok c, s') /\ between (snd k) (fst k) c) \/
  ((forall c, ~ between (snd k) (fst k) c) /\ exists c, tr_getitem N muB t k s = (Ok c, s') /\ between (fst k) (snd k) c) \/
  ((forall c, ~ between (snd k) (fst k) c) /\ (forall c, ~ between (fst k) (snd k) c) /\ tr_getitem N muB t k s = (Raise KeyError, s')).
Proof.
  intros N muB orc OK s R t x k cs s' V E. cbv zeta. pose proof (reachable_WF N muB orc OK s R) as W.
  destruct (tr_lookup N muB s t x k cs s' W V E) as [[c [H1 [H2 H3]]]|[H [[c [H1 [H2 H3]]]|[H1 H2]]]].
  - left. eauto.
  - right. left. split; [|eauto]. intros c' [I S]. exact (H c' I S).
  - right. right. split; [|split; auto]; intros c' [I S]; [exact (H c' I S)|exact (H1 c' I S)].
Qed.
Print Assumptions C31_lookup_partial.
(** Both F=0 to F=1 and F=1 to F=0 exist; asking for the former gives the latter. *)
Theorem C31_refuted : exists s t, reachable Exact 1%Qc plain s /\
  let s' := snd (subtransitions Exact 1%Qc t s) in
  let ends c := option_map (fun y => (option_map (@lshort Exact) (lv s' (x_lo y)), option_map (@lshort Exact) (lv s' (x_up y)))) (tr s' c) in
  (exists cs, fst (subtransitions Exact 1%Qc t s) = Ok cs /\ map ends cs =
     [Some (Some "F=0", Some "F=1"); Some (Some "F=1", Some "F=0"); Some (Some "F=1", Some "F=1")]%string) /\
  exists c, fst (tr_getitem Exact 1%Qc t ("F=0", "F=1")%string s) = Ok c /\ ends c = Some (Some "F=1", Some "F=0")%string.
Proof.
  exists (joined os_two), 0%nat. split; [apply from_reachable; lia|]. cbv zeta.
  split; [exists [2; 3; 4]%nat|exists 3%nat]; split; vm_compute; reflexivity.
Qed.
Print Assumptions C31_refuted.

(** C32.  [odd l]: the text of the leading component carries a star. *)
Definition odd {N} (l : level N) : Prop := exists tm, lead l = Some tm /\ In "*"%char (list_ascii_of_string (t_term tm)).
Lemma parity_odd : forall N (l1 l2 : level N), lead l1 <> None -> lead l2 <> None -> (l_parity l1 = l_parity l2 <-> (odd l1 <-> odd l2)).
Proof.
  assert (H : forall N (l : level N), lead l <> None -> (l_parity l = (-1)%Z /\ odd l) \/ (l_parity l = 1%Z /\ ~ odd l)).
  { intros N l H. unfold odd, l_parity, t_parity. destruct (lead l) as [tm|]; [|contradiction].
    pose proof (has_char_In "*" (t_term tm)) as E. destruct (has_char "*" (t_term tm)).
    - left. split; auto. exists tm. split; auto. now apply E.
    - right. split; auto. intros [tm' [X Y]]. injection X as <-. apply E in Y. discriminate Y. }
  intros N l1 l2 H1 H2. destruct (H N l1 H1) as [[-> A]|[-> A]], (H N l2 H2) as [[-> B]|[-> B]]; intuition discriminate.
Qed.
Theorem C32_marks : forall N muB orc, (forall n, oracle_ok (orc n)) -> forall s, reachable N muB orc s ->
  forall t x, tr s t = Some x -> x_kind x = TT -> exists l1 l2 j1 j2,
  lv s (x_E1 x) = Some l1 /\ lv s (x_E2 x) = Some l2 /\ l_J l1 = Some j1 /\ l_J l2 = Some j2 /\ (0 <= j1)%Z /\ (0 <= j2)%Z /\
  (aE1 (x_allowed x) = true <-> ~ (odd l1 <-> odd l2) /\ (Z.abs (j1 - j2) <= 2)%Z) /\
  (aM1 (x_allowed x) = true <-> (odd l1 <-> odd l2) /\ (Z.abs (j1 - j2) <= 2)%Z) /\
  (aE2 (x_allowed x) = true <-> (odd l1 <-> odd l2) /\ x_E1 x <> x_E2 x /\ (Z.abs (j1 - j2) <= 4)%Z).
Proof.
  intros N muB orc OK s R t x V K. pose proof (reachable_WF N muB orc OK s R) as W.
  destruct (wf_tr _ _ W _ _ V) as [l1 [l2 [V1 [V2 [_ [_ [_ [[_ [_ [j1 [j2 [J1 [J2 A]]]]]]|[p [xp [_ [_ [_ [Kp _]]]]]]]]]]]]]].
  2: { rewrite K in Kp. destruct (x_kind xp); discriminate. }
  destruct (wf_J _ _ _ _ W V1) as [j1' [J1' P1]]. destruct (wf_J _ _ _ _ W V2) as [j2' [J2' P2]].
  assert (j1' = j1) by congruence. assert (j2' = j2) by congruence. subst j1' j2'.
  exists l1, l2, j1, j2. rewrite A. destruct (allowed_T_spec j1 j2 (l_parity l1) (l_parity l2) (Nat.eqb (x_E1 x) (x_E2 x))) as [H1 [H2 H3]].
  assert (L1 : lead l1 <> None) by (unfold l_J in J1; destruct (lead l1); [discriminate|discriminate J1]).
  assert (L2 : lead l2 <> None) by (unfold l_J in J2; destruct (lead l2); [discriminate|discriminate J2]).
  rewrite H1, H2, H3, (parity_odd _ _ _ L1 L2), Nat.eqb_neq. repeat (split; auto).
Qed.
Print Assumptions C32_marks.
(** The marks are the textbook rule whenever J and J' are both integral or both
    half-integral and large enough. *)
Theorem C32_triangle_partial : forall N muB orc, (forall n, oracle_ok (orc n)) -> forall s, reachable N muB orc s ->
  forall t x l1 l2 j1 j2, tr s t = Some x -> x_kind x = TT -> lv s (x_E1 x) = Some l1 -> lv s (x_E2 x) = Some l2 ->
  l_J l1 = Some j1 -> l_J l2 = Some j2 -> Z.Even (j1 + j2) -> x_E1 x <> x_E2 x ->
  ((2 <= j1 + j2)%Z -> (aE1 (x_allowed x) = true <-> ~ (odd l1 <-> odd l2) /\ triangle j1 j2 2)) /\
  ((2 <= j1 + j2)%Z -> (aM1 (x_allowed x) = true <-> (odd l1 <-> odd l2) /\ triangle j1 j2 2)) /\
  ((4 <= j1 + j2)%Z -> (aE2 (x_allowed x) = true <-> (odd l1 <-> odd l2) /\ triangle j1 j2 4)).
Proof.
  intros N muB orc OK s R t x l1 l2 j1 j2 V K V1 V2 J1 J2 Ev Ne.
  destruct (C32_marks N muB orc OK s R t x V K) as [m1 [m2 [i1 [i2 [U1 [U2 [I1 [I2 [_ [_ [H1 [H2 H3]]]]]]]]]]]].
  assert (m1 = l1) by congruence. assert (m2 = l2) by congruence. subst. assert (i1 = j1) by congruence. assert (i2 = j2) by congruence. subst.
  rewrite H1, H2, H3. unfold triangle.
  assert (E2 : Z.Even (j1 + j2 + 2)) by (destruct Ev as [k ->]; exists (k + 1)%Z; lia).
  assert (E4 : Z.Even (j1 + j2 + 4)) by (destruct Ev as [k ->]; exists (k + 2)%Z; lia).
  repeat split; intros; intuition (auto; try lia).
Qed.
Print Assumptions C32_triangle_partial.
Example C32_case : let s := joined os_two in
  option_map (fun x => (x_kind x, x_allowed x)) (tr s 0) = Some (TT, (true, false, false)).
Proof. vm_compute. reflexivity. Qed.
(** J = 0 to J = 0 is marked E1. *)
Definition t0 := ex_term "5s2" "1S" 0.
Definition t0' := ex_term "5s5p" "3P*" 0.
Theorem C32_refuted : exists s, reachable Exact 1%Qc plain s /\
  option_map (fun x => (x_kind x, x_allowed x)) (tr s 0) = Some (TT, (true, false, false)) /\
  option_map (@l_J Exact) (lv s 0) = Some (Some 0%Z) /\ option_map (@l_J Exact) (lv s 1) = Some (Some 0%Z) /\
  option_map (fun x => (x_E1 x, x_E2 x)) (tr s 0) = Some (0, 1)%nat /\ ~ triangle 0 0 2.
Proof.
  exists (joined [nl t0 0; add 0; nl t0' 10; add 1]). split; [apply from_reachable; lia|]. repeat (split; [vm_compute; reflexivity|]).
  unfold triangle. lia.
Qed.
Print Assumptions C32_refuted.

(** C33 *)
Theorem C33_hyperfine_sound : forall N muB orc, (forall n, oracle_ok (orc n)) -> forall s, reachable N muB orc s ->
  forall t cs s' x, subtransitions N muB t s = (Ok cs, s') -> tr s' t = Some x -> x_kind x = TT ->
  forall c, In c cs -> exists y l1 l2 j1 j2 f1 f2 k, tr s' c = Some y /\ lv s' (x_E1 y) = Some l1 /\ lv s' (x_E2 y) = Some l2 /\
    l_parent l1 = Some (x_E1 x) /\ l_parent l2 = Some (x_E2 x) /\
    l_J l1 = Some j1 /\ l_J l2 = Some j2 /\ l_F l1 = Some f1 /\ l_F l2 = Some f2 /\
    ((k = 1%Z /\ (aE1 (x_allowed x) = true \/ aM1 (x_allowed x) = true)) \/ (k = 2%Z /\ aE2 (x_allowed x) = true)) /\
    triangle f1 f2 (2 * k) /\ triangle j1 j2 (2 * k) /\ ~ (f1 = 0 /\ f2 = 0)%Z /\ w6sq j1 j2 (2 * k) f2 f1 (s_I s') <> 0%Qc.
Proof.
  intros N muB orc OK s R t cs s' x E V K c I. pose proof (reachable_WF N muB orc OK s R) as W.
  destruct (listed_HF N muB s t cs s' x W E V K c I) as [y [l1 [l2 [j1 [j2 [f1 [f2 [k [H1 [H2 [H3 [H4 [H5 [H6 [H7 [H8 [H9 [Rk Z]]]]]]]]]]]]]]]]]].
  exists y, l1, l2, j1, j2, f1, f2, k. destruct (w6nz_tri _ _ _ _ _ _ Z) as [T1 [_ [_ T2]]].
  split; auto. split; auto. split; auto. split; auto. split; auto. split; auto. split; auto. split; auto. split; auto. split; [exact Rk|].
  split; [now apply triangle_swap|]. split; auto. split; [|now apply w6nz_sq].
  intros [-> ->]. destruct T2 as [T2 _]. destruct Rk as [[-> _]|[-> _]]; lia.
Qed.
Print Assumptions C33_hyperfine_sound.
Example C33_case : let s := joined os_two in
  option_map (fun x => (x_kind x, x_allowed x)) (tr s 0) = Some (TT, (true, false, false)) /\
  fst (subtransitions Exact 1%Qc 0 s) = Ok [2; 3; 4]%nat.
Proof. vm_compute. auto. Qed.

(** C34.  [t] is listed for the first time; its sublevels do not overlap in
    energy: all those of one level are below all those of the other. *)
Lemma filter_HF : forall N (s : st N) x b1 b2 l1 l2 j1 j2 f1 f2 k, x_kind x = TT -> lv s b1 = Some l1 -> lv s b2 = Some l2 ->
  l_J l1 = Some j1 -> l_J l2 = Some j2 -> l_F l1 = Some f1 -> l_F l2 = Some f2 ->
  rank_allowed (x_allowed x) k -> w6sq j1 j2 (2 * k) f2 f1 (s_I s) <> 0%Qc ->
  (aM1 (x_allowed x) = true -> aE2 (x_allowed x) = true -> (Z.abs (f1 - f2) <= 2)%Z) ->
  pair_filter N s x (b1, b2) = true /\ any_type (sub_allowed N s x l1 l2) = true.
Proof.
  intros N s x b1 b2 l1 l2 j1 j2 f1 f2 k K V1 V2 J1 J2 F1 F2 Rk Z B. apply w6nz_sq in Z. split.
  - destruct (w6nz_tri _ _ _ _ _ _ Z) as [_ [_ [_ [[T _] _]]]]. unfold pair_filter. cbn [fst snd]. rewrite V1, V2. unfold pair_attr. rewrite K, F1, F2.
    unfold pair_ok. destruct (any_type (x_allowed x)); auto. apply Z.leb_le.
    destruct (aE2 (x_allowed x)) eqn:E2, (aM1 (x_allowed x)) eqn:M1; cbn [andb negb]; destruct Rk as [[-> Rk]|[-> Rk]]; try lia; try congruence;
      specialize (B eq_refl eq_refl); lia.
  - unfold sub_allowed. rewrite K, J1, J2, F1, F2. cbn [onum]. apply allowed_HF_spec. exists k. auto.
Qed.
Theorem C34_complete_partial : forall N muB orc, (forall n, oracle_ok (orc n)) -> forall s, reachable N muB orc s ->
  forall t x cs s', tr s t = Some x -> x_kind x = TT -> x_subs x = [] -> subtransitions N muB t s = (Ok cs, s') ->
  exists bs1 bs2, sublevels N (x_E1 x) s' = (Ok bs1, s') /\ sublevels N (x_E2 x) s' = (Ok bs2, s') /\
  forall below, (forall b1 b2 e1 e2, In b1 bs1 -> In b2 bs2 -> energy N muB s' b1 = Some e1 -> energy N muB s' b2 = Some e2 -> nltb N e1 e2 = below) ->
  forall b1 b2 l1 l2 j1 j2 f1 f2 k, In b1 bs1 -> In b2 bs2 -> lv s' b1 = Some l1 -> lv s' b2 = Some l2 ->
  l_J l1 = Some j1 -> l_J l2 = Some j2 -> l_F l1 = Some f1 -> l_F l2 = Some f2 ->
  rank_allowed (x_allowed x) k -> w6sq j1 j2 (2 * k) f2 f1 (s_I s') <> 0%Qc ->
  (aM1 (x_allowed x) = true -> aE2 (x_allowed x) = true -> (Z.abs (f1 - f2) <= 2)%Z) ->
  exists c y, In c cs /\ tr s' c = Some y /\ x_E1 y = b1 /\ x_E2 y = b2.
Proof.
  intros N muB orc OK s R t x cs s' V K X E. pose proof (reachable_WF N muB orc OK s R) as W.
  assert (K' : x_kind x <> TZ) by congruence.
  destruct (listed_named N muB s t x cs s' W V K' X E) as [bs1 [bs2 [S1 [S2 _]]]]. exists bs1, bs2. split; auto. split; auto.
  intros below U b1 b2 l1 l2 j1 j2 f1 f2 k I1 I2 V1 V2 J1 J2 F1 F2 Rk Z B.
  destruct (filter_HF N s' x b1 b2 l1 l2 j1 j2 f1 f2 k) as [P A]; auto.
  exact (nothing_missing N muB s t x cs s' W V K' X E bs1 bs2 below S1 S2 U b1 b2 l1 l2 I1 I2 V1 V2 P A).
Qed.
Print Assumptions C34_complete_partial.
(** Without the assumption on energies some listed subtransition still has the
    short names of the pair, lower sublevel first. *)
Theorem C34_named_partial : forall N muB orc, (forall n, oracle_ok (orc n)) -> forall s, reachable N muB orc s ->
  forall t x cs s', tr s t = Some x -> x_kind x = TT -> x_subs x = [] -> subtransitions N muB t s = (Ok cs, s') ->
  exists bs1 bs2, sublevels N (x_E1 x) s' = (Ok bs1, s') /\ sublevels N (x_E2 x) s' = (Ok bs2, s') /\
  forall b1 b2 l1 l2 e1 e2 j1 j2 f1 f2 k, In b1 bs1 -> In b2 bs2 -> lv s' b1 = Some l1 -> lv s' b2 = Some l2 ->
  energy N muB s' b1 = Some e1 -> energy N muB s' b2 = Some e2 ->
  l_J l1 = Some j1 -> l_J l2 = Some j2 -> l_F l1 = Some f1 -> l_F l2 = Some f2 ->
  rank_allowed (x_allowed x) k -> w6sq j1 j2 (2 * k) f2 f1 (s_I s') <> 0%Qc ->
  (aM1 (x_allowed x) = true -> aE2 (x_allowed x) = true -> (Z.abs (f1 - f2) <= 2)%Z) ->
  exists c, In c cs /\ sub_between N s' t (lshort (if nltb N e1 e2 then l1 else l2)) (lshort (if nltb N e1 e2 then l2 else l1)) c.
Proof.
  intros N muB orc OK s R t x cs s' V K X E. pose proof (reachable_WF N muB orc OK s R) as W.
  assert (K' : x_kind x <> TZ) by congruence.
  destruct (listed_named N muB s t x cs s' W V K' X E) as [bs1 [bs2 [S1 [S2 H]]]]. exists bs1, bs2. split; auto. split; auto.
  intros b1 b2 l1 l2 e1 e2 j1 j2 f1 f2 k I1 I2 V1 V2 E1 E2 J1 J2 F1 F2 Rk Z B.
  destruct (filter_HF N s' x b1 b2 l1 l2 j1 j2 f1 f2 k) as [P A]; auto. exact (H b1 b2 l1 l2 e1 e2 I1 I2 V1 V2 E1 E2 P A).
Qed.
Print Assumptions C34_named_partial.

(** What is listed of a transition, as F values. *)
Definition listed_F (s : st Exact) (t : nat) : option (list (option Z * option Z)) :=
  let s' := snd (subtransitions Exact 1%Qc t s) in
  let F a := match lv s' a with Some l => l_F l | None => None end in
  match fst (subtransitions Exact 1%Qc t s) with
  | Ok cs => Some (map (fun c => match tr s' c with Some y => (F (x_E1 y), F (x_E2 y)) | None => (None, None) end) cs)
  | Raise _ => None
  end.
Example C34_case : listed_F (joined os_two) 0 = Some [(Some 0, Some 2); (Some 2, Some 0); (Some 2, Some 2)]%Z /\ w6sq 1 1 2 0 2 1 <> 0%Qc.
Proof. split; [vm_compute; reflexivity|]. apply w6nz_sq. vm_compute. reflexivity. Qed.
(** An M1 + E2 transition: F=0 to F=2 is missing. *)
Definition tD := ex_term "5d" "2D" 3.
Definition tD' := ex_term "6d" "2D" 3.
Theorem C34_refuted : exists s, reachable Exact 1%Qc plain s /\
  option_map (fun x => (x_kind x, x_allowed x, x_E1 x, x_E2 x)) (tr s 0) = Some (TT, (false, true, true), 0, 1)%nat /\
  option_map (@l_J Exact) (lv s 0) = Some (Some 3%Z) /\ option_map (@l_J Exact) (lv s 1) = Some (Some 3%Z) /\ s_I s = 3%Z /\
  In 0%Z (F_range 3 3) /\ In 4%Z (F_range 3 3) /\ w6sq 3 3 (2 * 2) 4 0 3 <> 0%Qc /\
  exists ps, listed_F s 0 = Some ps /\ ~ In (Some 0, Some 4)%Z ps.
Proof.
  exists (runx (from 3) [nl tD 0; add 0; nl tD' 10; add 1; ONewTransition Exact 0 1 None None None]).
  split; [apply from_reachable; lia|]. do 4 (split; [vm_compute; reflexivity|]).
  split; [vm_compute; auto|]. split; [vm_compute; auto|]. split; [apply w6nz_sq; vm_compute; reflexivity|].
  eexists. split; [vm_compute; reflexivity|]. cbn [In]. intuition discriminate.
Qed.
Print Assumptions C34_refuted.

(** Overlapping hyperfine structure: F=0 to F=1 and F=1 to F=0 get the same key
    and only one of them is listed. *)
Theorem C34_overlap_refuted : exists s, reachable Exact 1%Qc plain s /\
  option_map (fun x => (x_kind x, x_allowed x, x_E1 x, x_E2 x)) (tr s 0) = Some (TT, (true, false, false), 0, 1)%nat /\
  option_map (@l_J Exact) (lv s 0) = Some (Some 1%Z) /\ option_map (@l_J Exact) (lv s 1) = Some (Some 1%Z) /\ s_I s = 1%Z /\
  w6sq 1 1 2 2 0 1 <> 0%Qc /\ listed_F s 0 = Some [(Some 2, Some 0); (Some 2, Some 2)]%Z.
Proof.
  exists (joined [ONewLevel Exact [tS] 0%Qc (Q2Qc 100) 0%Qc 0%Qc 0%Qc None false; add 0; nl tP 1; add 1]).
  split; [apply from_reachable; lia|]. do 4 (split; [vm_compute; reflexivity|]).
  split; [apply w6nz_sq; vm_compute; reflexivity|vm_compute; reflexivity].
Qed.
Print Assumptions C34_overlap_refuted.

(** C35, soundness. *)
Theorem C35_zeeman_sound : forall N muB orc, (forall n, oracle_ok (orc n)) -> forall s, reachable N muB orc s ->
  forall t cs s' x, subtransitions N muB t s = (Ok cs, s') -> tr s' t = Some x -> x_kind x = THF ->
  forall c, In c cs -> exists y l1 l2 f1 f2 m1 m2 k q, tr s' c = Some y /\ lv s' (x_E1 y) = Some l1 /\ lv s' (x_E2 y) = Some l2 /\
    l_parent l1 = Some (x_E1 x) /\ l_parent l2 = Some (x_E2 x) /\
    l_F l1 = Some f1 /\ l_F l2 = Some f2 /\ l_mF l1 = Some m1 /\ l_mF l2 = Some m2 /\
    ((k = 1%Z /\ (aE1 (x_allowed x) = true \/ aM1 (x_allowed x) = true)) \/ (k = 2%Z /\ aE2 (x_allowed x) = true)) /\
    (- k <= q <= k)%Z /\ w3sq f2 (2 * k) f1 (- m2) (2 * q) m1 <> 0%Qc /\ (Z.abs (m1 - m2) <= 2 * k)%Z /\
    ~ (k = 1 /\ f1 = f2 /\ m1 = 0 /\ m2 = 0)%Z.
Proof.
  intros N muB orc OK s R t cs s' x E V K c I. pose proof (reachable_WF N muB orc OK s R) as W.
  destruct (listed_Z N muB s t cs s' x W E V K c I) as [y [l1 [l2 [f1 [f2 [m1 [m2 [k [h [H1 [H2 [H3 [H4 [H5 [H6 [H7 [H8 [H9 [Rk [Bh Z]]]]]]]]]]]]]]]]]]]].
  exists y, l1, l2, f1, f2, m1, m2, k, h. destruct (w3nz_rules _ _ _ _ _ _ Z) as [_ [_ [_ [_ S]]]].
  split; auto. split; auto. split; auto. split; auto. split; auto. split; auto. split; auto. split; auto. split; auto. split; [exact Rk|]. split; auto.
  split; [now apply w3nz_sq|]. split; [lia|]. intros [-> [-> [-> ->]]]. exact (w3_stretched0 _ _ Z).
Qed.
Print Assumptions C35_zeeman_sound.
(** Completeness, with the same restrictions as C34. *)
Theorem C35_zeeman_complete_partial : forall N muB orc, (forall n, oracle_ok (orc n)) -> forall s, reachable N muB orc s ->
  forall t x cs s', tr s t = Some x -> x_kind x = THF -> x_subs x = [] -> subtransitions N muB t s = (Ok cs, s') ->
  exists bs1 bs2, sublevels N (x_E1 x) s' = (Ok bs1, s') /\ sublevels N (x_E2 x) s' = (Ok bs2, s') /\
  forall below, (forall b1 b2 e1 e2, In b1 bs1 -> In b2 bs2 -> energy N muB s' b1 = Some e1 -> energy N muB s' b2 = Some e2 -> nltb N e1 e2 = below) ->
  forall b1 b2 l1 l2 f1 f2 m1 m2 k q, In b1 bs1 -> In b2 bs2 -> lv s' b1 = Some l1 -> lv s' b2 = Some l2 ->
  l_F l1 = Some f1 -> l_F l2 = Some f2 -> l_mF l1 = Some m1 -> l_mF l2 = Some m2 ->
  rank_allowed (x_allowed x) k -> (- k <= q <= k)%Z -> w3sq f2 (2 * k) f1 (- m2) (2 * q) m1 <> 0%Qc ->
  (aM1 (x_allowed x) = true -> aE2 (x_allowed x) = true -> (Z.abs (m1 - m2) <= 2)%Z) ->
  exists c y, In c cs /\ tr s' c = Some y /\ x_E1 y = b1 /\ x_E2 y = b2.
Proof.
  intros N muB orc OK s R t x cs s' V K X E. pose proof (reachable_WF N muB orc OK s R) as W.
  assert (K' : x_kind x <> TZ) by congruence.
  destruct (listed_named N muB s t x cs s' W V K' X E) as [bs1 [bs2 [S1 [S2 _]]]]. exists bs1, bs2. split; auto. split; auto.
  intros below U b1 b2 l1 l2 f1 f2 m1 m2 k q I1 I2 V1 V2 F1 F2 M1 M2 Rk Bq Z B. apply w3nz_sq in Z.
  assert (P : pair_filter N s' x (b1, b2) = true).
  { destruct (w3nz_rules _ _ _ _ _ _ Z) as [_ [_ [_ [_ S]]]]. unfold pair_filter. cbn [fst snd]. rewrite V1, V2. unfold pair_attr. rewrite K, M1, M2.
    unfold pair_ok. destruct (any_type (x_allowed x)); auto. apply Z.leb_le.
    destruct (aE2 (x_allowed x)) eqn:Q2, (aM1 (x_allowed x)) eqn:Q1; cbn [andb negb]; destruct Rk as [[-> Rk]|[-> Rk]]; try lia; try congruence;
      specialize (B eq_refl eq_refl); lia. }
  assert (A : any_type (sub_allowed N s' x l1 l2) = true).
  { unfold sub_allowed. rewrite K, F1, F2, M1, M2. cbn [onum]. apply allowed_Z_spec. exists k, q. auto. }
  exact (nothing_missing N muB s t x cs s' W V K' X E bs1 bs2 below S1 S2 U b1 b2 l1 l2 I1 I2 V1 V2 P A).
Qed.
Print Assumptions C35_zeeman_complete_partial.
Definition listed_m (s : st Exact) (t : nat) : option (list (option Z * option Z)) :=
  let s' := snd (subtransitions Exact 1%Qc t s) in
  let F a := match lv s' a with Some l => l_mF l | None => None end in
  match fst (subtransitions Exact 1%Qc t s) with
  | Ok cs => Some (map (fun c => match tr s' c with Some y => (F (x_E1 y), F (x_E2 y)) | None => (None, None) end) cs)
  | Raise _ => None
  end.
(** F=1 to F=1: everything but 0 to 0. *)
Example C35_case : let s := runx (joined os_two) [OSubtransitions Exact 0] in
  listed_m s 4 = Some [(Some (-2), Some (-2)); (Some (-2), Some 0); (Some 0, Some (-2)); (Some 0, Some 2); (Some 2, Some 0); (Some 2, Some 2)]%Z /\
  w3sq 2 2 2 0 0 0 = 0%Qc.
Proof. split; [vm_compute; reflexivity|]. apply Qc_is_canon. reflexivity. Qed.
(** An M1 + E2 transition F=1 to F=1: mF=-1 to mF=1 is missing although the
    quadrupole coefficient does not vanish. *)
Theorem C35_refuted : exists s, reachable Exact 1%Qc plain s /\
  option_map (fun x => (x_kind x, x_allowed x)) (tr s 1) = Some (THF, (false, true, true)) /\
  w3sq 2 (2 * 2) 2 (- 2) (2 * 2) (-2) <> 0%Qc /\
  exists ps, listed_m s 1 = Some ps /\ In (Some (-2), Some (-2))%Z ps /\ ~ In (Some (-2), Some 2)%Z ps.
Proof.
  exists (runx (from 1) [nl tD 0; add 0; nl tD' 10; add 1; ONewTransition Exact 0 1 None None None; OSubtransitions Exact 0]).
  split; [apply from_reachable; lia|]. split; [vm_compute; reflexivity|]. split; [apply w3nz_sq; vm_compute; reflexivity|].
  eexists. split; [vm_compute; reflexivity|]. cbn [In]. split; [auto|]. intuition discriminate.
Qed.
Print Assumptions C35_refuted.

(** C48.  Whatever is added and whether or not it raises, the levels of the
    atom stay the same. *)
Theorem C48_levels_partial : forall N muB orc, (forall n, oracle_ok (orc n)) -> forall s, reachable N muB orc s ->
  forall sp f A alias, tspec_ok N s sp ->
  node_attrs (s_g0 (snd (add_transition N muB orc sp f A alias s))) = node_attrs (s_g0 s).
Proof.
  intros N muB orc OK s R sp f A alias O. pose proof (reachable_WF N muB orc OK s R) as W.
  destruct (add_transition_R N muB (still N) (still_carrier N) orc OK s sp f A alias W O) as [_ [St _]]; [|exact (sl_nodes _ _ _ St)].
  intros u v s'. constructor; auto.
  - constructor; auto; intros i z V; exists z; (split; [exact V|]); [apply lsame_refl|apply xsame_refl].
  - intros a l l' V V'. change (lv (add_warn (WDup u v) s') a) with (lv s' a) in V'. assert (l' = l) by congruence. subst. auto.
Qed.
Print Assumptions C48_levels_partial.
Example C48_case : let s := two 1 in
  fst (add_transition Exact 1%Qc plain (TLevels 0 1) None None None s) = Ok 0%nat /\
  node_attrs (s_g0 (snd (add_transition Exact 1%Qc plain (TLevels 0 1) None None None s))) = [("6s 2S1/2", 0%nat); ("6p 2P*1/2", 1%nat)]%string.
Proof. vm_compute. auto. Qed.
(** Levels that were never added are not added. *)
Theorem C48_refuted : exists s, reachable Exact 1%Qc plain s /\
  let s' := snd (add_transition Exact 1%Qc plain (TLevels 0 1) None None None s) in
  fst (add_transition Exact 1%Qc plain (TLevels 0 1) None None None s) = Ok 0%nat /\ edge (s_g0 s') "6s 2S1/2" "6p 2P*1/2" = Some 0%nat /\
  fst (levels_get Exact "6s 2S1/2" s') = Raise KeyError /\ fst (levels_get Exact "6p 2P*1/2" s') = Raise KeyError.
Proof.
  exists (runx (from 1) [nl tS 0; nl tP 10]). split; [apply from_reachable; lia|]. vm_compute. repeat (split; [reflexivity|]). reflexivity.
Qed.
Print Assumptions C48_refuted.

(** C49, for a transition whose frequency was not fixed. *)
Theorem C49_again_partial : forall N muB orc, (forall n, oracle_ok (orc n)) -> forall s, reachable N muB orc s ->
  forall t x u v, tr s t = Some x -> x_attached x = true -> x_set x = None ->
  nm s (x_lo x) = Some u -> nm s (x_up x) = Some v -> edge (graph_of (lk (x_kind x)) s) u v = Some t ->
  (forall al, x_alias x = Some al -> dget al (s_tal s) = Some t) ->
  forall f A alias, add_transition N muB orc (TObj t) f A alias s = (match x_subs x with [] => Ok t | _ => Raise AttributeError end, s).
Proof. intros N muB orc OK s R t x u v. exact (add_again N muB orc s t x u v (reachable_WF N muB orc OK s R)). Qed.
Print Assumptions C49_again_partial.
Definition xs_of (s : st Exact) (t : nat) := option_map (fun x => (x_attached x, match x_set x with None => true | _ => false end, x_alias x, x_subs x)) (tr s t).
Example C49_case : let s := joined os_two in
  xs_of s 0 = Some (true, true, None, []) /\ fst (add_transition Exact 1%Qc plain (TObj 0) None None None s) = Ok 0%nat.
Proof. vm_compute. auto. Qed.
(** After the subtransitions were listed, adding raises. *)
Theorem C49_refuted : exists s, reachable Exact 1%Qc plain s /\ edge (s_g0 s) "6s 2S1/2" "6p 2P*1/2" = Some 0%nat /\
  fst (add_transition Exact 1%Qc plain (TObj 0) None None None s) = Raise AttributeError.
Proof.
  exists (runx (joined os_two) [OSubtransitions Exact 0]). split; [apply more_reachable, from_reachable; lia|]. split; vm_compute; reflexivity.
Qed.
Print Assumptions C49_refuted.

(** C50.  No transition between levels is added or removed, ever. *)
Theorem C50_nothing_added_partial : forall N muB orc, (forall n, oracle_ok (orc n)) -> forall s, reachable N muB orc s ->
  forall al, s_g0 (snd (populate_transitions N muB al s)) = s_g0 s.
Proof.
  intros N muB orc OK s R al. destruct (populate_transitions_safe N muB s al (reachable_WF N muB orc OK s R)) as [_ [L _]].
  exact (fr_g0 _ _ _ (lo_frame _ _ _ L)).
Qed.
Print Assumptions C50_nothing_added_partial.
(** It raises where a transition is missing. *)
Theorem C50_refuted : exists s, reachable Exact 1%Qc plain s /\
  aE1 (allowed_T 1 1 1 (-1) false) = true /\ edge (s_g0 s) "6s 2S1/2" "6p 2P*1/2" = None /\
  fst (populate_transitions Exact 1%Qc (true, false, false) s) = Raise KeyError /\
  edge (s_g0 (snd (populate_transitions Exact 1%Qc (true, false, false) s))) "6s 2S1/2" "6p 2P*1/2" = None.
Proof.
  exists (two 1). split; [apply two_reachable; lia|]. vm_compute. repeat (split; [reflexivity|]). reflexivity.
Qed.
Print Assumptions C50_refuted.

(** C51 *)
Theorem C51_linked : forall N muB orc, (forall n, oracle_ok (orc n)) -> forall s, reachable N muB orc s ->
  forall n a, dget n (s_lal s) = None -> has_char "="%char n = false -> dget n (node_attrs (s_g0 s)) = Some a ->
  exists d, linked_levels N muB 3 n s = (Ok d, s) /\ NoDup (dkeys d) /\
    (forall m t, In (m, t) d <-> m <> n /\ edge (s_g0 s) n m = Some t) /\
    (forall m t, In (m, t) d -> exists x, tr s t = Some x /\ x_kind x = TT /\
       ((nm s (x_lo x) = Some n /\ nm s (x_up x) = Some m) \/ (nm s (x_lo x) = Some m /\ nm s (x_up x) = Some n))).
Proof.
  intros N muB orc OK s R n a A E D. pose proof (reachable_WF N muB orc OK s R) as W.
  destruct (linked_name N muB s n a W A E D) as [d [H1 [H2 H3]]]. exists d. split; auto. split; auto. split; auto.
  intros m t I. apply H3 in I. destruct I as [_ I]. destruct (go_edge _ _ _ _ (wf_g _ _ W LE) _ _ _ I) as [x [V [K H]]].
  exists x. split; auto. split; [|auto]. destruct (x_kind x); [auto|discriminate|discriminate].
Qed.
Print Assumptions C51_linked.
Example C51_case : let s := runx (joined os_two) [nl tQ 20; add 2; ONewTransition Exact 2 0 None None None; ONewTransition Exact 0 0 None None None] in
  fst (linked_levels Exact 1%Qc 3 "6s 2S1/2" s) = Ok [("6p 2P*1/2", 0%nat); ("6p 2P*3/2", 1%nat)]%string.
Proof. vm_compute. reflexivity. Qed.
