(** Property C160: configuration scripts of atoms (species/*.py). *)
From Coq Require Import List Bool ZArith QArith Qcanon Lia String Ascii.
From Verif Require Import Base PyStr Util UtilProofs Parse Term TermProofs Num Wigner Hyperfine HyperfineProofs
  Graph GraphProofs DfsProofs Rules Atom AtomInv AtomSafe AtomSafe2 AtomSafe3 AtomSafe4 AtomSafe5 AtomSafe6 AtomLevels AtomKeep AtomPaths
  AtomTrans AtomEnforce AtomEnforce2 AtomEnforce3 AtomEnergy AtomExample PropEnforce.
Import ListNotations.
Local Open Scope Qc_scope.

(** ** The scripts *)

(** Statements of a script after the atom was generated from the tables
    (species/Yb_II_171.py:37-52, Yb_II_173.py:38-50, Yb_II_174.py:38-52).
    Frequencies are in Hz.  Generating the atom and saving it are modelled in
    other files; the test of __name__ is left out. *)
Inductive stmt :=
| Retune (u v : string) (f : Qc)
    (** atom.transitions[(u, v)].set_frequency(f) *)
| Join (by_atom : bool) (u v : string) (A : Qc * funit) (f : option Qc)
    (** t = Transition(atom.levels[u], atom.levels[v], A=A); t.add_to_atom(atom)
        or, if [by_atom], t = atom.add_transition((atom.levels[u], atom.levels[v]), A=A);
        then t.set_frequency(f) if there is an [f] *)
| JoinTwo (u v : string) (A : Qc * funit)
    (** t = atom.add_transition(atom.levels[u], atom.levels[v], A=A): a second
        positional argument that Atom.add_transition (atom.py:937) does not take *)
| Quad (u k1 k2 : string) (q : Qc).
    (** atom.levels[u][k1][k2].quadratic_zeeman = q *)

Section Exec.
  Variable muB : Qc.
  Variable orc : nat -> oracle.

  Definition exec (i : stmt) : M Exact unit :=
    match i with
    | Retune u v f => bind (transitions_get Exact muB (KS u, KS v)) (fun t => set_frequency Exact muB orc t f)
    | Join by_atom u v A f =>
        bind (levels_get Exact u) (fun a => bind (levels_get Exact v) (fun b =>
        bind (if by_atom then add_transition Exact muB orc (TLevels a b) None (Some A) None
              else bind (new_transition Exact muB a b None (Some A) None) (fun t => bind (tr_add_to_atom Exact t) (fun _ => ret t))) (fun t =>
        match f with Some f => set_frequency Exact muB orc t f | None => ret tt end)))
    | JoinTwo u v A => bind (levels_get Exact u) (fun _ => bind (levels_get Exact v) (fun _ => raise TypeError))
    | Quad u k1 k2 q => bind (levels_get Exact u) (fun a => bind (getitem Exact a k1) (fun b => bind (getitem Exact b k2) (fun c =>
        modify (upd_lv c (@lv_set_qz Exact q)))))
    end.
  Fixpoint script (is : list stmt) : M Exact unit :=
    match is with [] => ret tt | i :: is' => bind (exec i) (fun _ => script is') end.
End Exec.

Definition D3 : string := "4f14.5d 2D3/2".
Definition K1 : string := "4f13.(2F*<7/2>).5d.6s.(3D) 3[3/2]*1/2".
Definition S1 : string := "4f14.6s 2S1/2".
Definition P1 : string := "4f14.6p 2P*1/2".
Definition D5 : string := "4f14.5d 2D5/2".
Definition F7 : string := "4f13.(2F*).6s2 2F*7/2".
Definition K3 : string := "4f13.(2F*<7/2>).5d.6s.(1D) 1[3/2]*3/2".
Definition MHz (n : Z) : Qc := Q2Qc (n * 1000000 # 1).

(** species/Yb_II_171.py:37-52. *)
Definition Yb171 : list stmt :=
  [Retune D3 K1 (MHz 320567693); Retune S1 P1 (MHz 811294110);
   Join true S1 D5 (Q2Qc 22, uHz) (Some (MHz 729476090));
   JoinTwo F7 K3 (Q2Qc 50, ukHz);
   Quad S1 "F=0" "mF=0" (Q2Qc (-155305 # 1000)); Quad S1 "F=1" "mF=0" (Q2Qc (155305 # 1000))].
(** species/Yb_II_173.py:38-50. *)
Definition Yb173 : list stmt :=
  [Retune D3 K1 (MHz 320570339); Retune S1 P1 (MHz 811292506);
   Join false S1 D5 (Q2Qc 22, uHz) (Some (MHz 729476090)); Join false F7 K3 (Q2Qc 50, ukHz) None].
(** species/Yb_II_174.py:38-52. *)
Definition Yb174 : list stmt :=
  [Retune D3 K1 (MHz 320571752); Retune S1 P1 (MHz 811291801);
   Join false S1 D5 (Q2Qc 22, uHz) (Some (MHz 729475280)); Join false F7 K3 (Q2Qc 50, ukHz) (Some (MHz 394423900))].

(** ** What a script needs and what it achieves *)

(** [n] is the name of a level of the atom and nothing else. *)
Definition plain_name (s : st Exact) (n : string) : Prop := has_char "="%char n = false /\ dget n (s_lal s) = None /\
  exists a l, lv s a = Some l /\ lname l = n /\ dget n (g_nodes (s_g0 s)) = Some (Some a).
(** There is a transition between the levels of the atom called [u] and [v]. *)
Definition line (s : st Exact) (u v : string) : Prop :=
  exists t x, edge (s_g0 s) u v = Some t /\ tr s t = Some x /\ home Exact s (x_lo x) /\ home Exact s (x_up x).
(** The lower one of the two levels was added first. *)
Definition lower_first muB (s : st Exact) (u v : string) : Prop :=
  forall a b ea eb, dget u (g_nodes (s_g0 s)) = Some (Some a) -> dget v (g_nodes (s_g0 s)) = Some (Some b) ->
  energy Exact muB s a = Some ea -> energy Exact muB s b = Some eb ->
  (if Qc_ltb eb ea then beforeb v u (dkeys (g_nodes (s_g0 s))) else beforeb u v (dkeys (g_nodes (s_g0 s)))) = true.
Definition ready muB (s : st Exact) (i : stmt) : Prop :=
  match i with
  | Retune u v f => plain_name s u /\ plain_name s v /\ u <> v /\ 0 <= f /\ line s u v /\ lower_first muB s u v
  | Join _ u v _ f => plain_name s u /\ plain_name s v /\ u <> v /\ match f with Some f => 0 <= f | None => True end
  | _ => False
  end.
(** The two levels a statement is about. *)
Definition ends (i : stmt) : string * string :=
  match i with Retune u v _ => (u, v) | Join _ u v _ _ => (u, v) | JoinTwo u v _ => (u, v) | Quad u _ _ _ => (u, u) end.
(** Transitions of the atom are retuned before their levels are used for other
    frequencies, and every statement has a level no frequency was set for. *)
Fixpoint fresh (used : list string) (is : list stmt) : Prop :=
  match is with
  | [] => True
  | Retune u v _ :: is' => ~ In u used /\ ~ In v used /\ fresh (u :: v :: used) is'
  | Join _ u v _ (Some _) :: is' => (~ In u used \/ ~ In v used) /\ fresh (u :: v :: used) is'
  | Join _ u v _ None :: is' => (~ In u used \/ ~ In v used) /\ (forall i, In i is' -> ends i <> (u, v) /\ ends i <> (v, u)) /\ fresh used is'
  | _ => False
  end.
(** What a statement asks for. *)
Definition done muB (s : st Exact) (i : stmt) : Prop :=
  match i with
  | Retune u v f => exists t, edge (s_g0 s) u v = Some t /\ freq Exact muB s t = Some f
  | Join _ u v A f => exists t x, edge (s_g0 s) u v = Some t /\ tr s t = Some x /\ x_A x = Some (fst A * Q2Qc (unit_Q (snd A)), uHz) /\
      match f with Some f => freq Exact muB s t = Some f | None => True end
  | _ => False
  end.

(** ** One statement *)

Section Steps.
  Variable muB : Qc.
  Variable orc : nat -> oracle.
  Hypothesis OK : forall n, oracle_ok (orc n).
  Notation reach := (reachable Exact muB orc).
  Implicit Types s : st Exact.

  Record keeps (ns : list string) (js : list (string * string)) (s s' : st Exact) : Prop := mk_keeps {
    k_reach : reach s';
    k_settled : settled muB s';
    k_warn : s_warn s' = s_warn s;
    k_lal : s_lal s' = s_lal s;
    k_keys : dkeys (g_nodes (s_g0 s')) = dkeys (g_nodes (s_g0 s));
    k_nodes : forall m a, dget m (g_nodes (s_g0 s')) = Some (Some a) <-> dget m (g_nodes (s_g0 s)) = Some (Some a);
    k_lv : forall a l, lv s a = Some l -> exists l', lv s' a = Some l' /\ lname l' = lname l;
    k_qz : forall a l, lv s a = Some l -> exists l', lv s' a = Some l' /\ l_qz l' = l_qz l;
    k_hf : forall a l, lv s a = Some l -> exists l', lv s' a = Some l' /\ l_hfA l' = l_hfA l /\ l_hfB l' = l_hfB l /\ l_hfC l' = l_hfC l;
    k_tr : forall t x, tr s t = Some x -> exists x', tr s' t = Some x' /\ x_A x' = x_A x;
    k_con : forall u v t g, constraint s u v t g -> constraint s' u v t g;
    k_line : forall u v, line s u v -> line s' u v;
    k_free : forall n, ~ In n ns -> free s n -> free s' n;
    k_energy : forall a l, home Exact s a -> lv s a = Some l -> ~ In (lname l) ns -> energy Exact muB s' a = energy Exact muB s a;
    k_edge : forall u v t, ~ In (u, v) js -> ~ In (v, u) js -> edge (s_g0 s) u v = Some t -> edge (s_g0 s') u v = Some t
  }.

  Lemma home_keeps : forall s s' a, (forall m b, dget m (g_nodes (s_g0 s')) = Some (Some b) <-> dget m (g_nodes (s_g0 s)) = Some (Some b)) ->
    (forall b l, lv s b = Some l -> exists l', lv s' b = Some l' /\ lname l' = lname l) -> home Exact s a -> home Exact s' a.
  Proof.
    intros s s' a Nd L [l [V D]]. destruct (L a l V) as [l' [V' E]]. exists l'. split; auto. rewrite E. now apply Nd.
  Qed.
  Lemma keeps_refl : forall s, reach s -> settled muB s -> keeps [] [] s s.
  Proof. intros s R Se. constructor; eauto; try reflexivity. Qed.
  Lemma keeps_trans : forall ns js ns' js' s1 s2 s3, keeps ns js s1 s2 -> keeps ns' js' s2 s3 -> keeps (ns ++ ns') (js ++ js') s1 s3.
  Proof.
    intros ns js ns' js' s1 s2 s3 A B. constructor.
    - apply B.
    - apply B.
    - rewrite (k_warn _ _ _ _ B). apply A.
    - rewrite (k_lal _ _ _ _ B). apply A.
    - rewrite (k_keys _ _ _ _ B). apply A.
    - intros m a. rewrite (k_nodes _ _ _ _ B). apply A.
    - intros a l V. destruct (k_lv _ _ _ _ A a l V) as [l' [V' E]]. destruct (k_lv _ _ _ _ B a l' V') as [l2 [V2 E2]]. exists l2. split; [auto|congruence].
    - intros a l V. destruct (k_qz _ _ _ _ A a l V) as [l' [V' E]]. destruct (k_qz _ _ _ _ B a l' V') as [l2 [V2 E2]]. exists l2. split; [auto|congruence].
    - intros a l V. destruct (k_hf _ _ _ _ A a l V) as [l' [V' [E1 [E2 E3]]]]. destruct (k_hf _ _ _ _ B a l' V') as [l2 [V2 [F1 [F2 F3]]]]. exists l2.
      split; [auto|]. rewrite F1, F2, F3. auto.
    - intros t x V. destruct (k_tr _ _ _ _ A t x V) as [x' [V' E]]. destruct (k_tr _ _ _ _ B t x' V') as [x2 [V2 E2]]. exists x2. split; [auto|congruence].
    - intros. apply B, A; auto.
    - intros. apply B, A; auto.
    - intros n I F. apply B; [intros I'; apply I, in_or_app; auto|]. apply A; [intros I'; apply I, in_or_app; auto|auto].
    - intros a l H V I. destruct (k_lv _ _ _ _ A a l V) as [l' [V' E]].
      rewrite (k_energy _ _ _ _ B a l'); auto.
      + apply (k_energy _ _ _ _ A a l); auto. intros I'; apply I, in_or_app; auto.
      + apply (home_keeps s1 s2); auto; apply A.
      + rewrite E. intros I'; apply I, in_or_app; auto.
    - intros u v t N1 N2 E. apply B; [intros I; apply N1, in_or_app; auto|intros I; apply N2, in_or_app; auto|].
      apply A; auto; [intros I; apply N1, in_or_app; auto|intros I; apply N2, in_or_app; auto].
  Qed.

  Lemma line_keeps : forall s s', (forall a, home Exact s a -> home Exact s' a) -> (forall u v, edge (s_g0 s') u v = edge (s_g0 s) u v) ->
    (forall t x, tr s t = Some x -> exists x', tr s' t = Some x' /\ x_lo x' = x_lo x /\ x_up x' = x_up x) -> forall u v, line s u v -> line s' u v.
  Proof.
    intros s s' H E T u v [t [x [Ed [V [Hl Hu]]]]]. destruct (T t x V) as [x' [V' [L U]]]. exists t, x'. rewrite E, L, U. auto.
  Qed.

  (** Setting a frequency for the first time. *)
  Lemma set_keeps : forall s u v t f, reach s -> settled muB s -> line s u v -> edge (s_g0 s) u v = Some t -> u <> v -> 0 <= f ->
    free s u \/ free s v -> exists s', set_frequency Exact muB orc t f s = (Ok tt, s') /\ keeps [u; v] [] s s' /\ constraint s' u v t f.
  Proof.
    intros s u v t f R Se [t0 [x [Ed0 [V [Hl Hu]]]]] Ed Nuv Hf Fr. rewrite Ed in Ed0. injection Ed0 as <-.
    pose proof (reachable_WF Exact muB orc OK s R) as W.
    assert (X0 : x_set x = None).
    { destruct (x_set x) as [g|] eqn:X; auto. destruct Fr as [Fr|Fr].
      - destruct (Fr v t g). split; eauto.
      - destruct (Fr u t g). split; [|eauto]. exact (gw_sym _ (go_wf _ _ _ _ (wf_g _ _ W LE)) _ _ _ Ed). }
    destruct (set_frequency_core muB orc OK s R Se u v t x f Ed Nuv V X0 Hf Hl Hu Fr) as [s' [b [lb [E [Mv [Ct [Bb [Vb [Fb [Hfr [Hc [He [Wn [R' Se']]]]]]]]]]]]]].
    exists s'. split; auto. split; auto.
    assert (Tr : forall t', tr s' t' = if Nat.eqb t t' then Some (@tr_set_set Exact (Some f) x) else tr s t').
    { intros t'. unfold tr at 1. rewrite (mv_trans _ _ _ Mv). exact (tr_s1 Exact s t x V f t'). }
    assert (G : s_g0 s' = s_g0 s) by exact (mv_g0 _ _ _ Mv).
    assert (Lv : forall a l, lv s a = Some l -> exists l', lv s' a = Some l' /\ lname l' = lname l).
    { intros a l Va. destruct (moved_lv _ _ _ a l Mv Va) as [l' [Va' El]]. exists l'. split; auto. rewrite El. reflexivity. }
    assert (Nd : forall m a, dget m (g_nodes (s_g0 s')) = Some (Some a) <-> dget m (g_nodes (s_g0 s)) = Some (Some a)) by (intros; now rewrite G).
    pose proof Hl as [l [Vl _]]. pose proof Hu as [h [Vh _]].
    assert (Pr : forall p q, edge (s_g0 s) p q = Some t -> In p [u; v]).
    { intros p q Ep. destruct (edge_names Exact s W t x l h V Vl Vh p q Ep) as [O _]. destruct (edge_names Exact s W t x l h V Vl Vh u v Ed) as [O' _].
      simpl. destruct O as [[? ?]|[? ?]], O' as [[? ?]|[? ?]]; subst; auto. }
    constructor; auto.
    - rewrite (mv_lal _ _ _ Mv). reflexivity.
    - now rewrite G.
    - intros a la Va. destruct (moved_lv _ _ _ a la Mv Va) as [l' [Va' El]]. exists l'. split; auto. rewrite El. reflexivity.
    - intros a la Va. destruct (moved_lv _ _ _ a la Mv Va) as [l' [Va' El]]. exists l'. split; auto. rewrite El. auto.
    - intros t' x' V'. rewrite Tr. destruct (Nat.eqb_spec t t') as [<-|]; [|eauto]. rewrite V in V'. injection V' as <-. eexists. split; reflexivity.
    - intros. apply Hc; auto.
    - apply line_keeps; [intros a; apply home_keeps; auto|intros; now rewrite G|]. intros t' x' V'. rewrite Tr.
      destruct (Nat.eqb_spec t t') as [<-|]; [|eauto]. rewrite V in V'. injection V' as <-. eexists. split; [reflexivity|split; reflexivity].
    - intros n Nn F m t' g [Ee [x' [V' X']]]. rewrite G in Ee. rewrite Tr in V'. destruct (Nat.eqb_spec t t') as [<-|].
      + exact (Nn (Pr n m Ee)).
      + apply (F m t' g). split; eauto.
    - intros a la [la' [Va Da]] Va' Na. rewrite Va in Va'. injection Va' as ->.
      destruct (go_node _ _ _ _ (wf_g _ _ W LE) _ _ Da) as [la' [Va' [K _]]]. rewrite Va in Va'. injection Va' as <-.
      apply (He a la); auto. intros ->. apply Na. rewrite Va in Vb. injection Vb as <-.
      destruct (edge_names Exact s W t x l h V Vl Vh u v Ed) as [O' _].
      simpl. destruct Bb as [->| ->]; [rewrite Va in Vl; injection Vl as ->|rewrite Va in Vh; injection Vh as ->];
        destruct O' as [[? ?]|[? ?]]; subst; auto.
    - intros u' v' t' _ _ Ee. now rewrite G.
  Qed.

  (** A new transition between two levels of the atom. *)
  Lemma join_keeps : forall s a b la lb A, reach s -> settled muB s -> lv s a = Some la -> lv s b = Some lb -> home Exact s a -> home Exact s b ->
    lname la <> lname lb -> (forall t g, ~ constraint s (lname la) (lname lb) t g) ->
    exists s' x, let t := List.length (s_trans s) in
    bind (new_transition Exact muB a b None (Some A) None) (fun t => bind (tr_add_to_atom Exact t) (fun _ => ret t)) s = (Ok t, s') /\
    add_transition Exact muB orc (TLevels a b) None (Some A) None s = (Ok t, s') /\
    keeps [] [(lname la, lname lb)] s s' /\ edge (s_g0 s') (lname la) (lname lb) = Some t /\ tr s' t = Some x /\
    x_A x = Some (fst A * Q2Qc (unit_Q (snd A)), uHz) /\ line s' (lname la) (lname lb).
  Proof.
    intros s a1 a2 l1 l2 A R Se V1 V2 H1 H2 Npq Nc. pose proof (reachable_WF Exact muB orc OK s R) as W. cbv zeta. set (t := List.length (s_trans s)).
    assert (HK : forall a la, home Exact s a -> lv s a = Some la -> l_kind la = LE /\ l_attached la = true).
    { intros a la [la' [Va Da]] Va'. rewrite Va' in Va. injection Va as <-. destruct (go_node _ _ _ _ (wf_g _ _ W LE) _ _ Da) as [la' [Va [K [_ At]]]].
      rewrite Va' in Va. injection Va as <-. auto. }
    destruct (HK a1 l1 H1 V1) as [K1 At1]. destruct (HK a2 l2 H2 V2) as [K2 At2].
    destruct (proj1 (new_transition_spec Exact muB s a1 a2 None (Some A) None l1 l2 W V1 V2) K1 K2) as [x [j1 [j2 [J1 [J2 [Rr [O [Sb New]]]]]]]].
    assert (E1 : energy Exact muB s a1 = Some (l_E l1)) by (apply energy_LE; auto).
    assert (E2 : energy Exact muB s a2 = Some (l_E l2)) by (apply energy_LE; auto).
    unfold tr_rec in Rr. rewrite V1, E1, E2 in Rr. injection Rr as Rr.
    assert (At : x_attached x = true) by (rewrite <- Rr; exact At1). assert (Kx : x_kind x = TT) by now rewrite <- Rr.
    assert (Fx : x_set x = None) by now rewrite <- Rr. assert (Al : x_alias x = None) by now rewrite <- Rr.
    assert (Ax : x_A x = Some (fst A * Q2Qc (unit_Q (snd A)), uHz)) by now rewrite <- Rr.
    assert (Q : exists l h, lv s (x_lo x) = Some l /\ lv s (x_up x) = Some h /\ home Exact s (x_lo x) /\ home Exact s (x_up x) /\
      (lname l = lname l1 /\ lname h = lname l2 \/ lname l = lname l2 /\ lname h = lname l1)).
    { rewrite <- Rr. cbn [x_lo x_up]. destruct (Qc_ltb (l_E l1) (l_E l2)); [exists l1, l2|exists l2, l1]; repeat (split; [assumption|]); auto. }
    destruct Q as [l [h [Vl [Vh [Hlo [Hup Pair]]]]]]. clear Rr.
    pose proof (put_trans_spec Exact s x W O Sb) as P. destruct (put_tr Exact s x _ P) as [T1 T2]. fold t in T1, T2.
    set (s0 := put_trans Exact s x) in *.
    assert (G0 : s_g0 s0 = g_add_edge (lname l) (lname h) t (s_g0 s)).
    { unfold s0, put_trans. rewrite At. unfold put_edge. fold t.
      change (nm (set_trans (s_trans s ++ [x]) s)) with (nm s). unfold nm. rewrite Vl, Vh, Kx. reflexivity. }
    assert (GW : graph_wf (s_g0 s)) by exact (go_wf _ _ _ _ (wf_g _ _ W LE)).
    assert (Eg : forall u v, edge (s_g0 s0) u v = if (String.eqb u (lname l) && String.eqb v (lname h)) || (String.eqb u (lname h) && String.eqb v (lname l)) then Some t else edge (s_g0 s) u v).
    { intros u v. rewrite G0. now apply add_edge_edge. }
    pose (pr := fun u v => u = lname l1 /\ v = lname l2 \/ u = lname l2 /\ v = lname l1).
    assert (Ep : forall u v, pr u v -> edge (s_g0 s0) u v = Some t).
    { intros u v D. rewrite Eg. replace (_ || _) with true; auto. symmetry. rewrite orb_true_iff, !andb_true_iff, !String.eqb_eq.
      unfold pr in *. destruct D as [[-> ->]|[-> ->]], Pair as [[-> ->]|[-> ->]]; auto. }
    assert (En : forall u v, ~ pr u v -> edge (s_g0 s0) u v = edge (s_g0 s) u v).
    { intros u v D. rewrite Eg. replace (_ || _) with false; auto. symmetry. apply not_true_iff_false. rewrite orb_true_iff, !andb_true_iff, !String.eqb_eq.
      intros Q. apply D. unfold pr in *. destruct Q as [[-> ->]|[-> ->]], Pair as [[-> ->]|[-> ->]]; auto. }
    assert (Dp : forall u v, pr u v \/ ~ pr u v).
    { intros u v. unfold pr. destruct (string_dec u (lname l1)), (string_dec v (lname l2)), (string_dec u (lname l2)), (string_dec v (lname l1)); tauto. }
    assert (W0 : WF s0) by exact (pu_wf _ _ _ _ P).
    assert (L0 : s_levels s0 = s_levels s) by exact (pu_lv _ _ _ _ P).
    assert (Jn : tr_joined s0 t x = s0).
    { unfold tr_joined. assert (Ex : tr_set_attached true x = x) by (clear - At; destruct x; cbn in At; subst; reflexivity).
      rewrite Ex, (upd_tr_id _ _ _ _ _ T1 Ex). unfold put_edge. rewrite Kx. cbn [lk graph_of].
      assert (Hn : nm s0 (x_lo x) = Some (lname l) /\ nm s0 (x_up x) = Some (lname h)).
      { unfold nm, lv. rewrite L0. unfold lv in Vl, Vh. rewrite Vl, Vh. auto. }
      destruct Hn as [-> ->]. rewrite add_edge_old; [exact (set_graph_id _ LE s0)|exact (go_wf _ _ _ _ (wf_g _ _ W0 LE))|].
      apply Ep. unfold pr. destruct Pair as [[-> ->]|[-> ->]]; auto. }
    assert (Ad : tr_add_to_atom Exact t s0 = (Ok tt, s0)) by (rewrite (tr_add_eq _ _ _ _ W0 T1), Jn, Sb; reflexivity).
    assert (Add : add_transition Exact muB orc (TLevels a1 a2) None (Some A) None s = (Ok t, s0)).
    { unfold add_transition. erewrite bind_Ok; [|rewrite New; reflexivity]. erewrite bind_Ok; [|exact Ad].
      unfold get_tr. rewrite (bind_asks _ _ _ _ _ x) by auto. rewrite Al, Fx. reflexivity. }
    assert (R0 : reach s0).
    { replace s0 with (step Exact muB orc s (OAddTransition Exact (TLevels a1 a2) None (Some A) None)); [now apply reachable_step|].
      unfold step. cbn [run_op]. unfold void. erewrite bind_Ok; [reflexivity|exact Add]. }
    assert (LV : forall a, lv s0 a = lv s a) by (intros a; unfold lv; now rewrite L0).
    assert (To : forall t' y, tr s t' = Some y -> t' <> t /\ tr s0 t' = Some y).
    { intros t' y Vy. pose proof (tr_lt _ _ _ _ Vy) as L. split; [unfold t; lia|]. now rewrite T2. }
    assert (Tn : forall t' y, tr s0 t' = Some y -> t' <> t -> tr s t' = Some y).
    { intros t' y Vy D. rewrite <- (T2 t'); auto. pose proof (tr_lt _ _ _ _ Vy) as L. rewrite (pu_tr _ _ _ _ P), app_length in L. cbn in L. unfold t in *. lia. }
    assert (Nd : forall m a, dget m (g_nodes (s_g0 s0)) = Some (Some a) <-> dget m (g_nodes (s_g0 s)) = Some (Some a)).
    { intros m a. rewrite G0, add_edge_nodes. destruct (dget m (g_nodes (s_g0 s))) as [[a'|]|] eqn:D; try tauto.
      destruct (_ || _); split; discriminate. }
    assert (Ho : forall a, home Exact s a <-> home Exact s0 a).
    { intros a. unfold home. rewrite LV. split; intros [la [Va Da]]; exists la; (split; [auto|now apply Nd]). }
    assert (Cn : forall u v t' g, constraint s0 u v t' g <-> constraint s u v t' g).
    { intros u v t' g. split; intros [Ee [y [Vy Xy]]].
      - destruct (Nat.eq_dec t' t) as [->|D]; [rewrite T1 in Vy; injection Vy as <-; congruence|].
        destruct (Dp u v) as [D'|D']; [rewrite (Ep u v D') in Ee; congruence|]. rewrite (En u v D') in Ee. split; eauto.
      - destruct (Dp u v) as [D'|D'].
        + exfalso. destruct D' as [[-> ->]|[-> ->]]; [apply (Nc t' g); split; eauto|].
          apply (Nc t' g). split; [|eauto]. exact (gw_sym _ GW _ _ _ Ee).
        + split; [now rewrite (En u v D')|]. exists y. split; auto. now apply To. }
    assert (Ks : dkeys (g_nodes (s_g0 s0)) = dkeys (g_nodes (s_g0 s))).
    { assert (Me : forall a la, home Exact s a -> lv s a = Some la -> dmem (lname la) (g_nodes (s_g0 s)) = true).
      { intros a la [la' [Va Da]] Va'. rewrite Va in Va'. injection Va' as ->. unfold dmem. now rewrite Da. }
      rewrite G0. destruct (add_edge_keys (lname l) (lname h) t (s_g0 s) GW) as [-> _].
      unfold g_touch at 2. rewrite (Me _ _ Hlo Vl). unfold g_touch. now rewrite (Me _ _ Hup Vh). }
    assert (Enr : forall a la, home Exact s a -> lv s a = Some la -> energy Exact muB s0 a = energy Exact muB s a).
    { intros a la H V. destruct (HK a la H V) as [K _]. rewrite (energy_LE _ _ s0 a la), (energy_LE _ _ s a la); auto. now rewrite LV. }
    exists s0, x. split.
    { erewrite bind_Ok; [|rewrite New; reflexivity]. erewrite bind_Ok; [|exact Ad]. reflexivity. }
    split; auto. split.
    { constructor; auto.
      - (* settled *)
        constructor.
        + intros u v t' g C0. pose proof (proj1 (Cn u v t' g) C0) as C. pose proof (se_met _ _ Se u v t' g C) as Fq. pose proof C as [Ee [y [Vy _]]].
          destruct (To t' y Vy) as [_ Vy']. destruct (se_ends _ _ Se u v t' g y C Vy) as [_ [_ [ll [hh [Vll [Vhh _]]]]]].
          rewrite (freq_edge muB s u v t' y ll hh W Ee Vy Vll Vhh) in Fq.
          rewrite (freq_edge muB s0 u v t' y ll hh W0); auto; [apply C0|now rewrite LV|now rewrite LV].
        + intros u v t' g y C Vy. apply Cn in C. pose proof C as [_ [y' [Vy' _]]]. destruct (To t' y' Vy') as [_ Vy2]. rewrite Vy in Vy2. injection Vy2 as <-.
          destruct (se_ends _ _ Se u v t' g y C Vy') as [A1 [A2 A3]]. rewrite !LV. split; [now apply Ho|]. split; [now apply Ho|auto].
        + intros a la Ha Va Fa F. apply Ho in Ha. rewrite LV in Va. apply (se_fixed _ _ Se a la Ha Va Fa). intros m t' g C. apply (F m t' g). now apply Cn.
      - exact (pu_warn _ _ _ _ P).
      - exact (pu_lal _ _ _ _ P).
      - intros a la Va. exists la. now rewrite LV.
      - intros a la Va. exists la. now rewrite LV.
      - intros a la Va. exists la. now rewrite LV.
      - intros t' y Vy. exists y. split; auto. now apply To.
      - intros. now apply Cn.
      - intros u v [t' [y [Ee [Vy [A1 A2]]]]]. destruct (Dp u v) as [D|D].
        + exists t, x. split; [now apply Ep|]. split; auto. split; now apply Ho.
        + exists t', y. rewrite (En u v D). split; auto. split; [now apply To|]. split; now apply Ho.
      - intros n _ F m t' g C. apply (F m t' g). now apply Cn.
      - intros a la Ha Va _. eauto.
      - intros u v t' N1 N2 Ee. rewrite (En u v); auto. intros [[-> ->]|[-> ->]]; [apply N1|apply N2]; simpl; auto. }
    assert (Et : edge (s_g0 s0) (lname l1) (lname l2) = Some t) by (apply Ep; left; auto).
    split; auto. split; auto. split; auto. exists t, x. split; auto. split; auto. split; now apply Ho.
  Qed.

  Lemma plain_get : forall s n, WF s -> plain_name s n -> exists a l, lv s a = Some l /\ lname l = n /\ home Exact s a /\
    dget n (g_nodes (s_g0 s)) = Some (Some a) /\ dget n (node_attrs (s_g0 s)) = Some a /\ levels_get Exact n s = (Ok a, s).
  Proof.
    intros s n W [E [A [a [l [V [L D]]]]]]. exists a, l. split; auto. split; auto. split; [exists l; now rewrite L|]. split; auto.
    assert (Da : dget n (node_attrs (s_g0 s)) = Some a) by (rewrite node_attrs_get, D; [reflexivity|exact (go_wf _ _ _ _ (wf_g _ _ W LE))]).
    split; auto. now apply get_node.
  Qed.

  (** The levels whose frequencies a statement sets, and the transition it replaces. *)
  Definition used_by (i : stmt) : list string :=
    match i with Retune u v _ => [u; v] | Join _ u v _ (Some _) => [u; v] | _ => [] end.
  Definition joins (i : stmt) : list (string * string) := match i with Join _ u v _ _ => [(u, v)] | _ => [] end.
  (** What is recorded for a statement that was executed. *)
  Definition recorded (s : st Exact) (i : stmt) : Prop :=
    match i with
    | Retune u v f => exists t, constraint s u v t f
    | Join _ u v A f => exists t x, edge (s_g0 s) u v = Some t /\ tr s t = Some x /\ x_A x = Some (fst A * Q2Qc (unit_Q (snd A)), uHz) /\
        match f with Some f => constraint s u v t f | None => True end
    | _ => False
    end.
  Lemma recorded_done : forall s i, settled muB s -> recorded s i -> done muB s i.
  Proof.
    intros s [u v f|w u v A f|u v A|u k1 k2 q] Se H; cbn in *; auto.
    - destruct H as [t C]. exists t. split; [apply C|]. exact (se_met _ _ Se _ _ _ _ C).
    - destruct H as [t [x [E [V [Ax C]]]]]. exists t, x. repeat (split; auto). destruct f as [f|]; auto. exact (se_met _ _ Se _ _ _ _ C).
  Qed.
  Lemma recorded_keeps : forall ns js s s' i, keeps ns js s s' -> recorded s i ->
    (match i with Join _ u v _ None => ~ In (u, v) js /\ ~ In (v, u) js | _ => True end) -> recorded s' i.
  Proof.
    intros ns js s s' [u v f|w u v A f|u v A|u k1 k2 q] K H J; cbn in *; auto.
    - destruct H as [t C]. exists t. exact (k_con _ _ _ _ K _ _ _ _ C).
    - destruct H as [t [x [E [V [Ax C]]]]]. destruct (k_tr _ _ _ _ K t x V) as [x' [V' Ax']]. exists t, x'. rewrite Ax'. destruct f as [f|].
      + pose proof (k_con _ _ _ _ K _ _ _ _ C) as C'. split; [apply C'|auto].
      + split; auto. apply (k_edge _ _ _ _ K); tauto.
  Qed.

  Lemma exec_ready : forall s i, reach s -> settled muB s -> ready muB s i ->
    (match i with Retune u v _ => free s u | Join _ u v _ _ => free s u \/ free s v | _ => True end) ->
    exists s', exec muB orc i s = (Ok tt, s') /\ keeps (used_by i) (joins i) s s' /\ recorded s' i.
  Proof.
    intros s i R Se Rd Fr. pose proof (reachable_WF Exact muB orc OK s R) as W.
    destruct i as [u v f|w u v A f|u v A|u k1 k2 q]; cbn [ready exec used_by joins] in *; try contradiction.
    - destruct Rd as [Pu [Pv [N [Hf [Ln Lf]]]]]. destruct (plain_get s u W Pu) as [a [la [Va [La [Ha [Na [Da Ga]]]]]]]. destruct (plain_get s v W Pv) as [b [lb [Vb [Lb [Hb [Nb [Db Gb]]]]]]].
      destruct Pu as [Eu [Au _]]. destruct Pv as [Ev [Av _]].
      destruct (go_node _ _ _ _ (wf_g _ _ W LE) _ _ Na) as [ka [Wa [Ka _]]]. rewrite Va in Wa. injection Wa as <-.
      destruct (go_node _ _ _ _ (wf_g _ _ W LE) _ _ Nb) as [kb [Wb [Kb _]]]. rewrite Vb in Wb. injection Wb as <-.
      pose proof (energy_LE Exact muB s a la Va Ka) as Ea. pose proof (energy_LE Exact muB s b lb Vb Kb) as Eb.
      pose proof (Lf a b _ _ Na Nb Ea Eb) as Bf. pose proof Ln as [t [x [Ed _]]].
      assert (G : transitions_get Exact muB (KS u, KS v) s = (Ok t, s)).
      { rewrite (trans_get_plain Exact muB s u v a b _ _ W Eu Ev Au Av Da Db Ea Eb). cbv zeta. change (nltb Exact (l_E lb) (l_E la)) with (Qc_ltb (l_E lb) (l_E la)).
        destruct (Qc_ltb (l_E lb) (l_E la)); cbn [fst snd]; rewrite Bf, Ed; reflexivity. }
      destruct (set_keeps s u v t f R Se Ln Ed N Hf (or_introl Fr)) as [s' [E [K C]]]. exists s'. erewrite bind_Ok by exact G. split; auto. split; auto.
      cbn. eauto.
    - destruct Rd as [Pu [Pv [N Hf]]]. destruct (plain_get s u W Pu) as [a [la [Va [La [Ha [Na [Da Ga]]]]]]]. destruct (plain_get s v W Pv) as [b [lb [Vb [Lb [Hb [Nb [Db Gb]]]]]]].
      destruct (join_keeps s a b la lb A R Se Va Vb Ha Hb) as [s1 [x [E1 [E2 [K [Ed [V [Ax Ln]]]]]]]]; [congruence| |].
      { intros t g C. rewrite La, Lb in C. destruct Fr as [F|F]; [exact (F v t g C)|]. apply (F u t g). destruct C as [C1 C2]. split; auto.
        exact (gw_sym _ (go_wf _ _ _ _ (wf_g _ _ W LE)) _ _ _ C1). }
      rewrite La, Lb in *. set (t := List.length (s_trans s)) in *. erewrite bind_Ok by exact Ga. erewrite bind_Ok by exact Gb.
      assert (E : (if w then add_transition Exact muB orc (TLevels a b) None (Some A) None
              else bind (new_transition Exact muB a b None (Some A) None) (fun t => bind (tr_add_to_atom Exact t) (fun _ => ret t))) s = (Ok t, s1)) by (destruct w; auto).
      erewrite bind_Ok by exact E. destruct f as [f|].
      + destruct (set_keeps s1 u v t f) as [s' [E' [K' C']]]; auto; [apply K|apply K| |].
        { destruct Fr as [F|F]; [left|right]; apply (k_free _ _ _ _ K); auto. }
        exists s'. split; auto. split; [exact (keeps_trans [] [(u, v)] [u; v] [] s s1 s' K K')|].
        destruct (k_tr _ _ _ _ K' t x V) as [x' [V' Ax']]. exists t, x'. split; [apply C'|]. split; auto. split; [rewrite Ax'; exact Ax|auto].
      + exists s1. split; [reflexivity|]. split; auto. exists t, x. auto.
  Qed.

  Lemma plain_keeps : forall ns js s s' n, keeps ns js s s' -> plain_name s n -> plain_name s' n.
  Proof.
    intros ns js s s' n K [E [A [a [l [V [L D]]]]]]. split; auto. split; [now rewrite (k_lal _ _ _ _ K)|].
    destruct (k_lv _ _ _ _ K a l V) as [l' [V' L']]. exists a, l'. split; auto. split; [congruence|]. now apply (k_nodes _ _ _ _ K).
  Qed.
  Lemma lower_first_keeps : forall ns js s s' u v, reach s -> keeps ns js s s' -> plain_name s u -> plain_name s v -> ~ In u ns -> ~ In v ns ->
    lower_first muB s u v -> lower_first muB s' u v.
  Proof.
    intros ns js s s' u v R K Pu Pv Nu Nv Lf a b ea eb Da Db Ea Eb. pose proof (reachable_WF Exact muB orc OK s R) as W. rewrite (k_keys _ _ _ _ K).
    apply (k_nodes _ _ _ _ K) in Da. apply (k_nodes _ _ _ _ K) in Db.
    destruct (plain_get s u W Pu) as [a' [la [Va [La [Ha [Ga _]]]]]]. destruct (plain_get s v W Pv) as [b' [lb [Vb [Lb [Hb [Gb _]]]]]].
    rewrite Da in Ga. injection Ga as <-. rewrite Db in Gb. injection Gb as <-.
    apply (Lf a b ea eb); auto.
    - rewrite <- (k_energy _ _ _ _ K a la); auto. now rewrite La.
    - rewrite <- (k_energy _ _ _ _ K b lb); auto. now rewrite Lb.
  Qed.

  Definition both {X} (f : stmt -> list X) (is : list stmt) : list X := flat_map f is.
  Lemma script_ready : forall is used s, reach s -> settled muB s -> (forall n, ~ In n used -> free s n) ->
    (forall i, In i is -> ready muB s i) -> fresh used is ->
    exists s', script muB orc is s = (Ok tt, s') /\ keeps (both used_by is) (both joins is) s s' /\ (forall i, In i is -> recorded s' i).
  Proof.
    intros is. induction is as [|i is IH]; intros used s R Se Fr Rd Fs.
    - exists s. split; [reflexivity|]. split; [now apply keeps_refl|intros i []].
    - assert (Q : (match i with Retune u v _ => free s u | Join _ u v _ _ => free s u \/ free s v | _ => True end) /\
        fresh (used_by i ++ used) is /\ (match i with Retune u v _ => ~ In u used /\ ~ In v used | Join _ u v _ None => forall j, In j is -> ends j <> (u, v) /\ ends j <> (v, u) | _ => True end)).
      { destruct i as [u v f|w u v A [f|]|u v A|u k1 k2 q]; cbn [fresh used_by app] in *; try contradiction.
        - destruct Fs as [N1 [N2 Fs]]. auto.
        - destruct Fs as [[N|N] Fs]; auto.
        - destruct Fs as [[N|N] [D Fs]]; auto. }
      destruct Q as [Q [Fs' D]]. destruct (exec_ready s i R Se (Rd i (or_introl eq_refl)) Q) as [s1 [E [K Rc]]].
      assert (Mn : forall us, fresh us is -> forall j u v f, In j is -> j = Retune u v f -> ~ In u us /\ ~ In v us).
      { clear. induction is as [|i is IH]; intros us Fs j u v f I Ej; [destruct I|]. destruct I as [->|I].
        - subst j. cbn in Fs. tauto.
        - assert (Sub : exists us', incl us us' /\ fresh us' is).
          { destruct i as [u' v' f'|w u' v' A [f'|]|u' v' A|u' k1 k2 q]; cbn [fresh] in Fs; try contradiction.
            - exists (u' :: v' :: us). split; [intros z; simpl; auto|tauto].
            - exists (u' :: v' :: us). split; [intros z; simpl; auto|tauto].
            - exists us. split; [intros z; auto|tauto]. }
          destruct Sub as [us' [Inc Fs']]. destruct (IH us' Fs' j u v f I Ej). split; intros I'; [apply H|apply H0]; now apply Inc. }
      destruct (IH (used_by i ++ used) s1) as [s' [E' [K' Rc']]].
      + apply K.
      + apply K.
      + intros n N. apply (k_free _ _ _ _ K); [intros I; apply N, in_or_app; auto|]. apply Fr. intros I. apply N, in_or_app; auto.
      + intros j I. pose proof (Rd j (or_intror I)) as Rj. destruct j as [u v f|w u v A f|u v A|u k1 k2 q]; cbn [ready] in *; auto.
        * destruct Rj as [Pu [Pv [N [Hf [Ln Lf]]]]]. destruct (Mn _ Fs' _ u v f I eq_refl) as [Nu Nv].
          split; [eapply plain_keeps; eauto|]. split; [eapply plain_keeps; eauto|]. split; auto. split; auto. split; [now apply (k_line _ _ _ _ K)|].
          apply (lower_first_keeps (used_by i) (joins i) s s1); auto; intros I'; [apply Nu|apply Nv]; apply in_or_app; auto.
        * destruct Rj as [Pu [Pv [N Hf]]]. split; [eapply plain_keeps; eauto|]. split; [eapply plain_keeps; eauto|]. auto.
      + exact Fs'.
      + exists s'. cbn [script]. erewrite bind_Ok by exact E. split; auto. split; [exact (keeps_trans _ _ _ _ s s1 s' K K')|].
        intros j [<-|I]; auto. apply (recorded_keeps _ _ s1 s' i K' Rc). destruct i as [u v f|w u v A [f|]|u v A|u k1 k2 q]; auto.
        assert (Jn : forall p, In p (both joins is) -> exists j, In j is /\ ends j = p).
        { intros p I. apply in_flat_map in I as [j [I J]]. exists j. split; auto. destruct j; cbn in J; try contradiction. destruct J as [<-|[]]. reflexivity. }
        split; intros I; destruct (Jn _ I) as [j [Ij Ej]]; destruct (D j Ij); congruence.
  Qed.
End Steps.

(** C160.  A script that starts from an atom whose frequencies are settled ends
    without an error, and the atom is what the script says. *)
Theorem C160_script_partial : forall muB orc, (forall n, oracle_ok (orc n)) -> forall is used s,
  reachable Exact muB orc s -> settled muB s -> (forall n, ~ In n used -> free s n) -> (forall i, In i is -> ready muB s i) -> fresh used is ->
  exists s', script muB orc is s = (Ok tt, s') /\ reachable Exact muB orc s' /\ settled muB s' /\ s_warn s' = s_warn s /\
  (forall i, In i is -> done muB s' i) /\
  (forall u v t g, constraint s u v t g -> constraint s' u v t g /\ freq Exact muB s' t = Some g) /\
  (forall t x, tr s t = Some x -> exists x', tr s' t = Some x' /\ x_A x' = x_A x) /\
  (forall a l, home Exact s a -> lv s a = Some l -> (forall i, In i is -> fst (ends i) <> lname l /\ snd (ends i) <> lname l) ->
     energy Exact muB s' a = energy Exact muB s a).
Proof.
  intros muB orc OK is used s R Se Fr Rd Fs. destruct (script_ready muB orc OK is used s R Se Fr Rd Fs) as [s' [E [K Rc]]].
  exists s'. pose proof (k_settled _ _ _ _ _ _ K) as Se'. split; auto. split; [apply K|]. split; auto. split; [apply K|].
  split; [intros i I; apply recorded_done; auto|]. split.
  { intros u v t g C. pose proof (k_con _ _ _ _ _ _ K _ _ _ _ C) as C'. split; auto. exact (se_met _ _ Se' _ _ _ _ C'). }
  split; [apply K|]. intros a l H V N. apply (k_energy _ _ _ _ _ _ K a l); auto. intros I. apply in_flat_map in I as [i [I J]].
  destruct (N i I) as [N1 N2]. destruct i as [u v f|w u v A [f|]|u v A|u k1 k2 q]; cbn in *; intuition congruence.
Qed.
Print Assumptions C160_script_partial.


(** An atom with the levels and transitions that the scripts of species/ talk about. *)
Record ytterbium muB (s : st Exact) : Prop := mk_ytterbium {
  yb_names : forall n, In n [D3; K1; S1; P1; D5; F7; K3] -> plain_name s n;
  yb_lines : line s D3 K1 /\ line s S1 P1;
  yb_order : lower_first muB s D3 K1 /\ lower_first muB s S1 P1
}.
Lemma MHz_pos : forall n, (0 <= n)%Z -> 0 <= MHz n.
Proof.
  intros n H. unfold MHz, Qcle. cbn [this Q2Qc]. rewrite !Qred_correct. unfold Qle. cbn. lia.
Qed.
Ltac names := try discriminate; repeat match goal with |- ~ _ => intro end; cbn [In] in *; repeat match goal with H : _ \/ _ |- _ => destruct H end; try contradiction; try discriminate.
Lemma Yb_fresh : forall is, In is [Yb173; Yb174; firstn 3 Yb171] -> fresh [] is.
Proof.
  intros is [<-|[<-|[<-|[]]]]; cbn [fresh Yb171 Yb173 Yb174 firstn]; repeat split; first [solve [names]|left; solve [names]|right; solve [names]|idtac].
Qed.
Lemma Yb_ready : forall muB s, ytterbium muB s -> forall is, In is [Yb173; Yb174; firstn 3 Yb171] -> forall i, In i is -> ready muB s i.
Proof.
  intros muB s Y is I i J. destruct Y as [N [L1 L2] [O1 O2]].
  assert (ND3 : plain_name s D3) by (apply N; simpl; auto). assert (NK1 : plain_name s K1) by (apply N; simpl; auto).
  assert (NS1 : plain_name s S1) by (apply N; simpl; auto). assert (NP1 : plain_name s P1) by (apply N; simpl; auto).
  assert (ND5 : plain_name s D5) by (apply N; simpl; auto 10). assert (NF7 : plain_name s F7) by (apply N; simpl; auto 10).
  assert (NK3 : plain_name s K3) by (apply N; simpl; auto 10). clear N.
  assert (H : forall n, (0 <= n)%Z -> 0 <= MHz n) by exact MHz_pos.
  destruct I as [<-|[<-|[<-|[]]]]; cbn [In Yb171 Yb173 Yb174 firstn] in J;
    repeat match goal with J : _ \/ _ |- _ => destruct J as [<-|J] end; try contradiction; cbn [ready];
    repeat (split; [first [assumption|discriminate|apply H; lia]|]); first [assumption|exact I|apply H; lia|idtac]; auto.
Qed.

(** The scripts for 173Yb and 174Yb. *)
Theorem C160_Yb173_Yb174 : forall muB orc, (forall n, oracle_ok (orc n)) -> forall s, reachable Exact muB orc s -> ytterbium muB s ->
  settled muB s -> (forall n, free s n) -> forall is, In is [Yb173; Yb174] ->
  exists s', script muB orc is s = (Ok tt, s') /\ settled muB s' /\ s_warn s' = s_warn s /\ (forall i, In i is -> done muB s' i).
Proof.
  intros muB orc OK s R Y Se Fr is I. assert (I' : In is [Yb173; Yb174; firstn 3 Yb171]) by (simpl in *; tauto).
  destruct (C160_script_partial muB orc OK is [] s R Se (fun n _ => Fr n) (Yb_ready muB s Y is I') (Yb_fresh is I')) as [s' [E [_ [Se' [Wn [D _]]]]]]. eauto 10.
Qed.
Print Assumptions C160_Yb173_Yb174.

(** The script for 171Yb stops at its fourth statement: neither the quadratic
    Zeeman coefficients nor the file are written. *)
Theorem C160_Yb171_refuted : forall muB orc, (forall n, oracle_ok (orc n)) -> forall s, reachable Exact muB orc s -> ytterbium muB s ->
  settled muB s -> (forall n, free s n) ->
  exists s', script muB orc Yb171 s = (Raise TypeError, s') /\ (forall i, In i (firstn 3 Yb171) -> done muB s' i) /\
  (forall a l, lv s a = Some l -> exists l', lv s' a = Some l' /\ l_qz l' = l_qz l).
Proof.
  intros muB orc OK s R Y Se Fr. assert (I' : In (firstn 3 Yb171) [Yb173; Yb174; firstn 3 Yb171]) by (simpl; tauto).
  destruct (script_ready muB orc OK _ [] s R Se (fun n _ => Fr n) (Yb_ready muB s Y _ I') (Yb_fresh _ I')) as [s' [E [K Rc]]].
  exists s'. split; [|split].
  - assert (App : forall is js (z z' : st Exact), script muB orc is z = (Ok tt, z') -> script muB orc (is ++ js) z = script muB orc js z').
    { intros is. induction is as [|i is IH]; intros js z z' H; cbn [script app] in *; [injection H as <-; reflexivity|].
      unfold bind in *. destruct (exec muB orc i z) as [[[]|e] z1]; [now apply IH|discriminate]. }
    replace Yb171 with (firstn 3 Yb171 ++ skipn 3 Yb171) by apply firstn_skipn. rewrite (App _ _ _ _ E).
    pose proof (reachable_WF Exact muB orc OK s' (k_reach _ _ _ _ _ _ K)) as W'.
    assert (NF : plain_name s' F7) by (apply (plain_keeps muB orc _ _ s s' F7 K), Y; simpl; auto 10).
    assert (NK : plain_name s' K3) by (apply (plain_keeps muB orc _ _ s s' K3 K), Y; simpl; auto 10).
    destruct (plain_get s' F7 W' NF) as [a [la [_ [_ [_ [_ [_ Ga]]]]]]]. destruct (plain_get s' K3 W' NK) as [b [lb [_ [_ [_ [_ [_ Gb]]]]]]].
    cbn [skipn Yb171 script exec]. unfold bind at 1 2. rewrite Ga. unfold bind at 1. rewrite Gb. reflexivity.
  - intros i I. apply recorded_done; [apply K|auto].
  - apply K.
Qed.
Print Assumptions C160_Yb171_refuted.

(** ** Instances *)

Definition plainb (s : st Exact) (n : string) : bool :=
  negb (has_char "="%char n) && negb (dmem n (s_lal s)) &&
  match dget n (g_nodes (s_g0 s)) with
  | Some (Some a) => match lv s a with Some l => String.eqb (lname l) n | None => false end
  | _ => false
  end.
Definition lineb (s : st Exact) (u v : string) : bool :=
  match edge (s_g0 s) u v with
  | Some t => match tr s t with Some x => homeb s (x_lo x) && homeb s (x_up x) | None => false end
  | None => false
  end.
Definition lowerb muB (s : st Exact) (u v : string) : bool :=
  match dget u (g_nodes (s_g0 s)), dget v (g_nodes (s_g0 s)) with
  | Some (Some a), Some (Some b) =>
      match energy Exact muB s a, energy Exact muB s b with
      | Some ea, Some eb => if Qc_ltb eb ea then beforeb v u (dkeys (g_nodes (s_g0 s))) else beforeb u v (dkeys (g_nodes (s_g0 s)))
      | _, _ => false
      end
  | _, _ => false
  end.
Definition ytterbiumb muB (s : st Exact) : bool :=
  forallb (plainb s) [D3; K1; S1; P1; D5; F7; K3] && (lineb s D3 K1 && lineb s S1 P1) && (lowerb muB s D3 K1 && lowerb muB s S1 P1).
Lemma plainb_spec : forall s n, plainb s n = true -> plain_name s n.
Proof.
  intros s n H. unfold plainb in H. apply andb_true_iff in H as [H H3]. apply andb_true_iff in H as [H1 H2].
  split; [now apply negb_true_iff|]. split.
  - apply negb_true_iff in H2. unfold dmem in H2. destruct (dget n (s_lal s)); [discriminate|reflexivity].
  - destruct (dget n (g_nodes (s_g0 s))) as [[a|]|] eqn:D; try discriminate. destruct (lv s a) as [l|] eqn:V; [|discriminate].
    exists a, l. split; auto. split; [now apply String.eqb_eq|auto].
Qed.
Lemma lineb_spec : forall s u v, lineb s u v = true -> line s u v.
Proof.
  intros s u v H. unfold lineb in H. destruct (edge (s_g0 s) u v) as [t|] eqn:E; [|discriminate]. destruct (tr s t) as [x|] eqn:V; [|discriminate].
  apply andb_true_iff in H as [H1 H2]. exists t, x. split; auto. split; auto. split; now apply homeb_home.
Qed.
Lemma lowerb_spec : forall muB s u v, lowerb muB s u v = true -> lower_first muB s u v.
Proof.
  intros muB s u v H a b ea eb Da Db Ea Eb. unfold lowerb in H. now rewrite Da, Db, Ea, Eb in H.
Qed.
Lemma ytterbium_by : forall muB s, ytterbiumb muB s = true -> ytterbium muB s.
Proof.
  intros muB s H. unfold ytterbiumb in H. apply andb_true_iff in H as [H H3]. apply andb_true_iff in H as [H1 H2].
  apply andb_true_iff in H2 as [H2 H2']. apply andb_true_iff in H3 as [H3 H3']. constructor.
  - intros n I. rewrite forallb_forall in H1. apply plainb_spec. auto.
  - split; now apply lineb_spec.
  - split; now apply lowerb_spec.
Qed.

(** Seven levels of Yb II, in the order of their energies (here in THz), and the
    transitions that the scripts expect. *)
Definition yb_ops : list (op Exact) :=
  [nl (ex_term "4f14.6s" "2S" 1) 0; add 0; nl (ex_term "4f13.(2F*).6s2" "2F*" 7) 641000000000000; add 1;
   nl (ex_term "4f14.5d" "2D" 3) 688000000000000; add 2; nl (ex_term "4f14.5d" "2D" 5) 729000000000000; add 3;
   nl (ex_term "4f14.6p" "2P*" 1) 811000000000000; add 4; nl (ex_term "4f13.(2F*<7/2>).5d.6s.(3D)" "3[3/2]*" 1) 1009000000000000; add 5;
   nl (ex_term "4f13.(2F*<7/2>).5d.6s.(1D)" "1[3/2]*" 3) 1035000000000000; add 6;
   ONewTransition Exact 2 5 None None None; ONewTransition Exact 0 4 None (Some (Q2Qc 120000000, uHz)) None].
Definition yb : st Exact := runx (from 0) yb_ops.
Lemma yb_reachable : reachable Exact 1 plain yb.
Proof. apply from_reachable. lia. Qed.
Lemma yb_settled : settled 1 yb.
Proof. apply settled_start; [apply unset_free|apply loose_all]; vm_compute; reflexivity. Qed.
Lemma yb_free : forall n, free yb n.
Proof. apply unset_free. vm_compute. reflexivity. Qed.
Lemma yb_ytterbium : ytterbium 1 yb.
Proof. apply ytterbium_by. vm_compute. reflexivity. Qed.
Example C160_case : exists s', script 1 plain Yb174 yb = (Ok tt, s') /\ settled 1 s' /\ s_warn s' = s_warn yb /\ (forall i, In i Yb174 -> done 1 s' i).
Proof. apply (C160_Yb173_Yb174 1 plain plain_ok yb yb_reachable yb_ytterbium yb_settled yb_free). simpl. auto. Qed.
Example C160_energies : map (energy Exact 1 (snd (script 1 plain Yb174 yb))) [0; 1; 2; 3; 4; 5; 6]%nat =
  map (fun z => Some (Q2Qc (z * 1000000 # 1))) [0; 641000000; 688000000; 729475280; 811291801; 1008571752; 1035423900]%Z.
Proof. vm_compute. reflexivity. Qed.
Example C160_error_case : exists s', script 1 plain Yb171 yb = (Raise TypeError, s') /\ (forall i, In i (firstn 3 Yb171) -> done 1 s' i) /\
  (forall a l, lv yb a = Some l -> exists l', lv s' a = Some l' /\ l_qz l' = l_qz l).
Proof. apply (C160_Yb171_refuted 1 plain plain_ok yb yb_reachable yb_ytterbium yb_settled yb_free). Qed.
