(** Property C138: enforce_consistency restricted to a level or a transition
    (atom.py:1131-1169, whose documentation promises it). *)
From Coq Require Import List Bool ZArith QArith Qcanon Lia String Ascii Permutation.
From Verif Require Import Base PyStr Util UtilProofs Parse Term TermProofs Num Wigner Hyperfine HyperfineProofs
  Graph GraphProofs DfsProofs Rules Atom AtomInv AtomSafe AtomSafe2 AtomSafe3 AtomSafe4 AtomSafe5 AtomSafe6 AtomLevels AtomEnergy
  AtomEnforce AtomEnforce2 AtomEnforce3 AtomEnforce4 AtomExample DictView PropEnforce PropDictView PropLocal Restrict.
Import ListNotations.
Local Open Scope nat_scope.

Section Restrict.
  Context (N : Num) (muB : N) (orc : nat -> oracle) (OK : forall n, oracle_ok (orc n)).
  Notation st := (st N).
  Notation level := (level N).
  Notation trans := (trans N).
  Notation M := (M N).
  Notation energy := (energy N muB).
  Implicit Types (s : st) (l : level) (x y : trans) (a : nat) (t : nat).

  (** The set frequencies, the energies and the warnings are as they were. *)
  Definition idle s s' : Prop :=
    (forall b l, lv s b = Some l -> energy s' b = energy s b /\ exists l', lv s' b = Some l' /\ l_fixed l' = l_fixed l) /\
    (forall t x, tr s t = Some x -> freq N muB s' t = freq N muB s t /\ exists x', tr s' t = Some x' /\ x_set x' = x_set x) /\
    s_g0 s' = s_g0 s /\ s_warn s' = s_warn s.

  Lemma frame_idle : forall s s', WF s -> frame s s' -> idle s s'.
  Proof.
    intros s s' W F. assert (E : forall b l, lv s b = Some l -> energy s' b = energy s b).
    { intros b l V. apply frame_energy; auto. congruence. }
    split; [|split; [|split; apply F]].
    - intros b l V. split; [eauto|]. destruct (fr_lv _ _ _ F _ _ V) as [l' [V' El]]. exists l'. split; auto. now rewrite El.
    - intros t x V. destruct (fr_tr _ _ _ F _ _ V) as [x' [V' Ex]]. destruct (wf_tr _ _ W _ _ V) as [l1 [l2 [V1 [V2 _]]]]. split.
      + unfold freq. rewrite V, V'. replace (x_E1 x') with (x_E1 x) by (now rewrite Ex). replace (x_E2 x') with (x_E2 x) by (now rewrite Ex).
        now rewrite (E _ _ V1), (E _ _ V2).
      + exists x'. split; auto. now rewrite Ex.
  Qed.
  Lemma idle_tick : forall s s', idle (tick s) s' -> idle s s'.
  Proof. auto. Qed.

  Lemma forM_cons {A} : forall (c : A) ds (f : A -> M unit) s,
    forM (c :: ds) f s = match f c s with (Ok _, s') => forM ds f s' | (Raise e, s') => (Raise e, s') end.
  Proof. intros. cbn [forM]. unfold bind. destruct (f c s) as [[?|?] ?]; reflexivity. Qed.

  (** A test that answers no and only looks. *)
  Lemma skip_all : forall (J : st -> Prop) tg n o cs s, WF s -> J s ->
    (forall s1 c, WF s1 -> J s1 -> exists s2, wanted N muB tg c s1 = (Ok false, s2) /\ WF s2 /\ frame s1 s2 /\ J s2) ->
    exists s', forM cs (fun c => bind (wanted N muB tg c) (fun b => if b : bool then enforce_comp N muB o n c else ret tt)) s = (Ok tt, s') /\ frame s s' /\ WF s'.
  Proof.
    intros J tg n o. induction cs as [|c cs IH]; intros s W Js H.
    - exists s. split; [reflexivity|]. split; [apply frame_refl|auto].
    - destruct (H s c W Js) as [s2 [E [W2 [F J2]]]]. destruct (IH s2 W2 J2 H) as [s' [E' [F' W']]]. exists s'. split.
      + cbn [forM]. unfold bind at 1. rewrite (bind_Ok _ _ _ _ _ _ E). exact E'.
      + split; [eapply frame_trans; eauto|auto].
  Qed.

  Lemma enforce_split : forall tg s, WF s -> exists cs, components (S (List.length (set_nodes s))) (set_nbrs s) (set_nodes s) [] = Some cs /\
    enforce_consistency N muB orc tg s =
    forM (o_comps (orc (s_tick s)) cs) (fun c => bind (wanted N muB tg c) (fun b => if b : bool then enforce_comp N muB (orc (s_tick s)) (S (List.length (set_nodes s))) c else ret tt)) (tick s).
  Proof.
    intros tg s W. destruct (comps_spec N s W) as [cs [E _]]. exists cs. split; auto.
    unfold enforce_consistency, bind at 1 2 3 4, gets at 1 2, modify, asks at 1.
    change (components (S (List.length (set_nodes (tick s)))) (set_nbrs (tick s)) (set_nodes (tick s)) []) with (components (S (List.length (set_nodes s))) (set_nbrs s) (set_nodes s) []).
    rewrite E. reflexivity.
  Qed.

  Lemma same_forM {A} : forall (f g : A -> M unit) cs s, (forall c s1, f c s1 = g c s1) -> forM cs f s = forM cs g s.
  Proof. intros f g cs. induction cs as [|c cs IH]; intros s H; [reflexivity|]. rewrite !forM_cons, H. destruct (g c s) as [[]]; auto. Qed.
  Lemma enforce_eq : forall from s, WF s -> forall cs, components (S (List.length (set_nodes s))) (set_nbrs s) (set_nodes s) [] = Some cs ->
    enforce N muB orc from s = forM (o_comps (orc (s_tick s)) cs) (comp_step N muB (orc (s_tick s)) (S (List.length (set_nodes s))) from) (tick s).
  Proof.
    intros from s W cs E. unfold enforce. unfold bind at 1 2 3 4, gets at 1 2, modify, asks at 1.
    change (components (S (List.length (set_nodes (tick s)))) (set_nbrs (tick s)) (set_nodes (tick s)) []) with (components (S (List.length (set_nodes s))) (set_nbrs s) (set_nodes s) []).
    rewrite E. reflexivity.
  Qed.

  (** Without an argument, everything is enforced (C42-C47 and C142 say how). *)
  Theorem C138_everything : forall s, reachable N muB orc s -> enforce_consistency N muB orc TaNone s = enforce N muB orc None s.
  Proof.
    intros s R. pose proof (reachable_WF N muB orc OK s R) as W. destruct (enforce_split TaNone s W) as [cs [E ->]].
    rewrite (enforce_eq None s W cs E). apply same_forM. intros c s1. now rewrite comp_step_eq.
  Qed.

  (** Given the names of two levels joined by a set frequency, the levels linked
      with them are made consistent as set_frequency does it, and only those:
      [tied] is the chain of set frequencies. *)
  Theorem C138_names : forall s p q, reachable N muB orc s ->
    enforce_consistency N muB orc (TaPair p q) s = enforce N muB orc (Some (p, q)) s /\
    (forall a l, lv s a = Some l -> (l_kind l = LE -> ~ tied s p (lname l)) -> lv (snd (enforce_consistency N muB orc (TaPair p q) s)) a = Some l).
  Proof.
    intros s p q R. pose proof (reachable_WF N muB orc OK s R) as W.
    assert (Eq : enforce_consistency N muB orc (TaPair p q) s = enforce N muB orc (Some (p, q)) s).
    { destruct (enforce_split (TaPair p q) s W) as [cs [E ->]].
      rewrite (enforce_eq (Some (p, q)) s W cs E). apply same_forM. intros c s1. reflexivity. }
    split; [exact Eq|]. intros a l V H. rewrite Eq. destruct (enforce_away N muB orc s p q OK W) as [_ Aw _]. apply Aw; auto.
    intros K T. apply (H K). now apply tied_reach.
  Qed.

  (** Given a level of the atom or a hyperfine level, nothing is enforced,
      whatever the set frequencies say. *)
  Theorem C138_level_refuted : forall s a l, reachable N muB orc s -> lv s a = Some l -> l_attached l = true -> l_kind l <> LZ ->
    exists s', enforce_consistency N muB orc (TaLevel a) s = (Ok tt, s') /\ idle s s'.
  Proof.
    intros s a l R V A K. pose proof (reachable_WF N muB orc OK s R) as W. destruct (enforce_split (TaLevel a) s W) as [cs [_ ->]].
    pose proof (moved_WF N _ _ W (moved_tick N s)) as Wt.
    destruct (skip_all (fun s1 => exists l1, lv s1 a = Some l1 /\ l_attached l1 = true /\ l_kind l1 <> LZ) (TaLevel a)
      (S (List.length (set_nodes s))) (orc (s_tick s)) (o_comps (orc (s_tick s)) cs) (tick s) Wt) as [s' [E [F _]]].
    - exists l. auto.
    - intros s1 c W1 [l1 [V1 [A1 K1]]]. destruct (number_WF N s1 a l1 W1 V1 A1) as [n [s2 [_ [_ [B [W2 [L [l2 [V2 [K2 [_ [_ A2]]]]]]]]]]]].
      exists s2. split; [|split; [exact W2|split; [apply L|exists l2; rewrite K2; auto]]].
      unfold wanted. rewrite (bind_Ok _ _ _ _ _ _ B). destruct (l_kind l1); [reflexivity|reflexivity|congruence].
    - exists s'. split; auto. apply (frame_idle (tick s)); auto.
  Qed.

  (** Given a Zeeman level, everything is enforced, as without an argument. *)
  Theorem C138_zeeman_refuted : forall s a l, reachable N muB orc s -> lv s a = Some l -> l_kind l = LZ ->
    enforce_consistency N muB orc (TaLevel a) s = enforce N muB orc None s.
  Proof.
    intros s a l R V K. pose proof (reachable_WF N muB orc OK s R) as W. destruct (enforce_split (TaLevel a) s W) as [cs [E ->]].
    pose proof (moved_WF N _ _ W (moved_tick N s)) as Wt. destruct (comps_spec N s W) as [cs' [E' [C1 _]]]. rewrite E in E'. injection E' as <-.
    assert (En : enforce N muB orc None s = forM (o_comps (orc (s_tick s)) cs) (comp_step N muB (orc (s_tick s)) (S (List.length (set_nodes s))) None) (tick s)).
    { unfold enforce. unfold bind at 1 2 3 4, gets at 1 2, modify, asks at 1.
      change (components (S (List.length (set_nodes (tick s)))) (set_nbrs (tick s)) (set_nodes (tick s)) []) with (components (S (List.length (set_nodes s))) (set_nbrs s) (set_nodes s) []).
      rewrite E. reflexivity. }
    rewrite En. clear En. set (n := S (List.length (set_nodes s))). set (o := orc (s_tick s)).
    assert (Hc : forall c, In c (o_comps o cs) -> incl c (set_nodes s)).
    { intros c I. apply C1. eapply Permutation_in; [apply (ok_comps _ (OK (s_tick s)))|exact I]. }
    assert (G : forall ds s1, (forall c, In c ds -> incl c (set_nodes s)) -> moved s s1 ->
      forM ds (fun c => bind (wanted N muB (TaLevel a) c) (fun b => if b : bool then enforce_comp N muB o n c else ret tt)) s1 =
      forM ds (comp_step N muB o n None) s1).
    { induction ds as [|c ds IH]; intros s1 Hd M1; [reflexivity|]. rewrite !forM_cons, comp_step_eq. cbn [touched].
      pose proof (moved_WF N _ _ W M1) as W1. destruct (moved_lv N _ _ _ _ M1 V) as [l1 [V1 El]].
      assert (K1 : l_kind l1 = LZ) by (rewrite El; exact K).
      assert (B : wanted N muB (TaLevel a) c s1 = (Ok true, s1)).
      { unfold wanted, lv_bool, lv_len. assert (Ls : l_subs l1 = []).
        { destruct (wf_subs _ _ W1 _ _ V1) as [Z|[_ F]]; auto. unfold sub_range in F. rewrite K1 in F. now inversion F. }
        destruct (wf_parent _ _ _ _ W1 V1) as [A1 _]; [congruence|].
        unfold lazy_sublevels, populate_sublevels, get_lv, bind, asks, ret. rewrite V1, Ls, A1, V1, K1, V1, Ls. cbn [dvals map forM]. unfold ret. now rewrite V1, Ls. }
      rewrite (bind_Ok _ _ _ _ _ _ B). destruct (enforce_comp_safe N muB o s1 c (OK _) W1) as [_ M2].
      { rewrite (set_nodes_moved N _ _ M1). apply Hd. simpl. auto. }
      rewrite (set_nodes_moved N _ _ M1) in M2. fold n in M2. destruct (enforce_comp N muB o n c s1) as [[[]|e] s2]; auto.
      apply IH; [intros d I; apply Hd; simpl; auto|]. eapply moved_trans; eauto. }
    apply G; [exact Hc|apply moved_tick].
  Qed.

  (** Given a transition whose lines have been computed, nothing is enforced. *)
  Theorem C138_trans_refuted : forall s t x, reachable N muB orc s -> tr s t = Some x -> x_subs x <> [] ->
    exists s', enforce_consistency N muB orc (TaTrans t) s = (Ok tt, s') /\ idle s s'.
  Proof.
    intros s t x R V Xs. pose proof (reachable_WF N muB orc OK s R) as W. destruct (enforce_split (TaTrans t) s W) as [cs [_ ->]].
    pose proof (moved_WF N _ _ W (moved_tick N s)) as Wt.
    destruct (skip_all (fun s1 => tr s1 t = Some x) (TaTrans t)
      (S (List.length (set_nodes s))) (orc (s_tick s)) (o_comps (orc (s_tick s)) cs) (tick s) Wt V) as [s' [E [F _]]].
    - intros s1 c W1 V1. exists s1. split; [|split; [exact W1|split; [apply frame_refl|exact V1]]].
      unfold wanted, tr_bool, tr_len, lazy_subtransitions, bind, get_tr, asks. rewrite V1. destruct (x_subs x) as [|p d] eqn:D; [contradiction|].
      unfold ret. rewrite V1, D. reflexivity.
    - exists s'. split; auto. apply (frame_idle (tick s)); auto.
  Qed.

  (** Given a Zeeman line, the call fails as soon as any frequency is set. *)
  Theorem C138_line_refuted : forall s t x u v c f, reachable N muB orc s -> tr s t = Some x -> x_kind x = TZ -> constraint s u v c f ->
    fst (enforce_consistency N muB orc (TaTrans t) s) = Raise AssertionError.
  Proof.
    intros s t x u v c0 f R V K C. pose proof (reachable_WF N muB orc OK s R) as W. destruct (enforce_split (TaTrans t) s W) as [cs [E ->]].
    pose proof (moved_WF N _ _ W (moved_tick N s)) as Wt. destruct (comps_spec N s W) as [cs' [E' [_ [C2 _]]]]. rewrite E in E'. injection E' as <-.
    destruct (C2 u) as [c [Ic _]]. { apply set_nodes_In; auto. exists v. apply nbr_constraint; eauto. }
    assert (Ic' : In c (o_comps (orc (s_tick s)) cs)) by (eapply Permutation_in; [apply Permutation_sym, (ok_comps _ (OK (s_tick s)))|exact Ic]).
    destruct (o_comps (orc (s_tick s)) cs) as [|d ds]; [contradiction|]. cbn [forM]. unfold bind, wanted, tr_bool, tr_len, bind.
    now rewrite (zeeman_WF N muB (tick s) t x Wt V K).
  Qed.
End Restrict.
Print Assumptions C138_everything.
Print Assumptions C138_names.
Print Assumptions C138_level_refuted.
Print Assumptions C138_zeeman_refuted.
Print Assumptions C138_trans_refuted.
Print Assumptions C138_line_refuted.

(** The atom [pairs], whose transition 0 is to have the frequency 12 but has 10.
    Its level 0, and its lines listed first, change nothing; the names of its
    levels do, and so does a Zeeman level; a Zeeman line fails. *)
Definition listed : st Exact := runx pairs [OSubtransitions Exact 0; OSublevels Exact 2; OSublevels Exact 6; OSubtransitions Exact 3].
Definition f_of (s : st Exact) (t : nat) : option Q := option_map this (freq Exact 1%Qc s t).
Example C138_case :
  let s := listed in let after tg := snd (enforce_consistency Exact 1%Qc plain tg s) in
  reachable Exact 1%Qc plain s /\
  option_map (fun x : trans Exact => option_map this (x_set x : option Qc)) (tr s 0) = Some (Some (12 # 1)%Q) /\ f_of s 0 = Some (10 # 1)%Q /\
  option_map l_kind (lv s 0) = Some LE /\ f_of (after (TaLevel 0)) 0 = Some (10 # 1)%Q /\
  option_map (fun x => negb (Nat.eqb (List.length (x_subs x)) 0)) (tr s 0) = Some true /\ f_of (after (TaTrans 0)) 0 = Some (10 # 1)%Q /\
  f_of (after (TaPair "6s 2S1/2" "6p 2P*1/2")) 0 = Some (12 # 1)%Q /\
  option_map l_kind (lv s 8) = Some LZ /\ f_of (after (TaLevel 8)) 0 = Some (12 # 1)%Q /\
  option_map x_kind (tr s 4) = Some TZ /\ fst (enforce_consistency Exact 1%Qc plain (TaTrans 4) s) = Raise AssertionError.
Proof. cbv zeta. split; [apply more_reachable, from_reachable; lia|]. do 10 (split; [vm_compute; reflexivity|]). vm_compute. reflexivity. Qed.
