(** Property C141: printing. *)
From Coq Require Import List Bool ZArith QArith Qcanon Lia String Ascii Permutation.
From Verif Require Import Base Num PyStr Util UtilProofs Regex Parse Term TermProofs Hyperfine HyperfineProofs Graph GraphProofs Rules Atom AtomInv
  AtomSafe AtomSafe2 AtomSafe3 AtomSafe5 AtomSafe6 AtomLevels AtomKeep AtomAlias AtomPaths AtomTrans AtomExample Views DictView PropViews PropDictView
  Sequence PropSequence Printing.
Import ListNotations.
Local Open Scope string_scope.

Section P.
  Context (N : Num) (muB : num N) (orc : nat -> oracle) (OK : forall n, oracle_ok (orc n)).
  Notation st := (st N).
  Implicit Types s : st.

  (** The text of a level carries its type, name and energy, and printing
      changes nothing.  The number of sublevels is right or 0. *)
  Theorem C141_level_partial : forall s a l, reachable N muB orc s -> lv s a = Some l ->
    exists e n, energy N muB s a = Some e /\ level_repr N muB a s = (Ok (mkLevelText N (l_kind l) (lname l) e n), s) /\
      (n = 0%nat \/ exists s', lv_len N a s = (Ok n, s')).
  Proof.
    intros s a l R V. pose proof (reachable_WF N muB orc OK s R) as W.
    destruct (wf_energy _ muB _ _ _ W V) as [e E]. exists e, (List.length (l_subs l)). split; auto. split.
    - unfold level_repr, get_lv, bind, asks, ret. rewrite V. cbv beta iota. now rewrite E.
    - destruct (l_subs l) as [|p d] eqn:D; [now left|right]. exists s.
      unfold lv_len, lazy_sublevels, bind, get_lv, asks, ret. rewrite V. cbv beta iota. rewrite D. cbv beta iota. rewrite V. cbv beta iota. now rewrite D.
  Qed.

  Theorem C141_transition : forall s t x, reachable N muB orc s -> tr s t = Some x ->
    exists u v f, nm s (x_E1 x) = Some u /\ nm s (x_E2 x) = Some v /\ freq N muB s t = Some f /\
      trans_repr N muB t s = (Ok (mkTransText N (x_kind x) (u ++ " -> " ++ v) f (x_A x)), s).
  Proof.
    intros s t x R V. pose proof (reachable_WF N muB orc OK s R) as W.
    destruct (freq_total N muB s t x W V) as [f F].
    destruct (wf_tr _ _ W _ _ V) as [l1 [l2 [V1 [V2 _]]]]. exists (lname l1), (lname l2), f.
    assert (E1 : nm s (x_E1 x) = Some (lname l1)) by (unfold nm; now rewrite V1).
    assert (E2 : nm s (x_E2 x) = Some (lname l2)) by (unfold nm; now rewrite V2).
    split; auto. split; auto. split; auto. unfold trans_repr, trans_name, get_tr, bind, asks, ret. cbv beta. rewrite !V. cbv beta iota.
    rewrite ?V. cbv beta iota. rewrite E1, E2. cbv beta iota. now rewrite F.
  Qed.

  (** The text of an atom carries twice its nuclear spin and the number of
      its levels. *)
  Theorem C141_atom : forall s, reachable N muB orc s -> atom_repr N s = (Ok (s_I s, List.length (level_keys N s)), s).
  Proof.
    intros s R. destruct (C96_views N muB orc OK s R) as [L _]. unfold atom_repr, bind, gets, ret. now rewrite L.
  Qed.

  (** The texts of [atom.levels] and [atom.transitions] carry their numbers
      and types, unless there is nothing in them. *)
  Theorem C141_views_partial : forall s, reachable N muB orc s ->
    (level_keys N s <> [] -> levels_repr N s = (Ok (List.length (level_keys N s), LE), s)) /\
    (level_keys N s = [] -> levels_repr N s = (Raise IndexError, s)) /\
    (trans_keys N s <> [] -> transitions_repr N s = (Ok (List.length (trans_keys N s), TT), s)) /\
    (trans_keys N s = [] -> transitions_repr N s = (Raise IndexError, s)).
  Proof.
    intros s R. destruct (C96_views N muB orc OK s R) as [L1 [L2 [_ [_ L3]]]]. destruct (C97_views N muB orc OK s R) as [T1 [T2 [_ [_ [_ T3]]]]].
    assert (L0 : level_keys N s = [] -> level_values N s = []) by (intros E; rewrite E in L1; cbn in L1; destruct (level_values N s); [auto|cbn in L2; congruence]).
    assert (T0 : trans_keys N s = [] -> trans_values N s = []) by (intros E; rewrite E in T1; cbn in T1; destruct (trans_values N s); [auto|cbn in T2; congruence]).
    unfold levels_repr, transitions_repr, bind, gets, ret, raise. split; [|split; [|split]].
    - intros E. destruct (level_keys N s) as [|k ks] eqn:K; [congruence|]. destruct (L3 0%nat k eq_refl) as [a [l [H1 [H2 [_ [H4 _]]]]]].
      destruct (level_values N s) as [|a' vs]; [discriminate H1|]. injection H1 as ->. unfold get_lv, asks. rewrite H2, H4. now rewrite <- L1.
    - intros E. now rewrite (L0 E).
    - intros E. destruct (trans_keys N s) as [|[u v] ks] eqn:K; [congruence|]. destruct (T3 0%nat u v eq_refl) as [t [x [H1 [H2 [H3 _]]]]].
      destruct (trans_values N s) as [|t' vs]; [discriminate H1|]. injection H1 as ->. unfold get_tr, asks. rewrite H2, H3. now rewrite <- T1.
    - intros E. now rewrite (T0 E).
  Qed.

  (** What [repr] of the leading term of a level of the atom shows is the key of
      that level; [str] shows the end of it. *)
  Theorem C141_term : forall s a l t, reachable N muB orc s -> In a (level_values N s) -> lv s a = Some l -> lead l = Some t ->
    exists key i conf, term_repr t = "Term(" ++ key ++ ")" /\ nth_error (level_keys N s) i = Some key /\ nth_error (level_values N s) i = Some a /\
      key = conf ++ " " ++ term_str t.
  Proof.
    intros s a l t R I V L. destruct (C96_views N muB orc OK s R) as [L1 [L2 [_ [_ H]]]].
    apply In_nth_error in I as [i I]. destruct (nth_error (level_keys N s) i) as [k|] eqn:K.
    - destruct (H i k K) as [a' [l' [I' [V' [Nm _]]]]]. rewrite I in I'. injection I' as <-. rewrite V in V'. injection V' as <-.
      exists k, i, (t_conf t). unfold lname in Nm. rewrite L in Nm. subst k. split; [reflexivity|]. split; auto.
    - apply nth_error_None in K. assert (nth_error (level_values N s) i <> None) as X by congruence. apply nth_error_Some in X. lia.
  Qed.
End P.
Print Assumptions C141_level_partial.
Print Assumptions C141_term.
Print Assumptions C141_transition.
Print Assumptions C141_atom.
Print Assumptions C141_views_partial.

(** The texts of a MultiTerm show the leading term. *)
Theorem C141_multiterm : forall show ts t, In t ts -> exists lead, In lead ts /\ (forall u, In u ts -> (t_pct u <= t_pct lead)%Qc) /\
  mt_str show (multiterm ts) = Ok (t_term_name lead ++ " (" ++ show (t_pct lead) ++ ")") /\
  mt_full_name show (multiterm ts) = Ok (t_name lead ++ " (" ++ show (t_pct lead) ++ "%)").
Proof.
  intros show ts t I. destruct (multiterm_leading ts t I) as [lead [rest [E [Il [_ At]]]]]. exists lead. split; auto. split.
  - intros u Iu. destruct (multiterm_leading ts u Iu) as [lead' [rest' [E' [_ [L _]]]]]. rewrite E in E'. injection E' as <- <-. exact L.
  - unfold mt_str, mt_full_name. rewrite !At. rewrite E. split; reflexivity.
Qed.
Print Assumptions C141_multiterm.

(** [repr] of a MultiTerm always fails. *)
Theorem C141_repr_refuted : forall ts, mt_repr (multiterm ts) = Raise TypeError.
Proof. reflexivity. Qed.
Print Assumptions C141_repr_refuted.

(** A level with two sublevels is printed with none before they are read, and
    with two afterwards. *)
Theorem C141_count_refuted : exists s a, reachable Exact 1%Qc plain s /\ fst (lv_len Exact a s) = Ok 2%nat /\
  rmap (fun t => lt_subs Exact t) (fst (level_repr Exact 1%Qc a s)) = Ok 0%nat /\
  rmap (fun t => lt_subs Exact t) (fst (level_repr Exact 1%Qc a (snd (lv_len Exact a s)))) = Ok 2%nat.
Proof.
  exists (two 1), 0%nat. split; [apply from_reachable; lia|]. split; [vm_compute; reflexivity|]. split; vm_compute; reflexivity.
Qed.
Print Assumptions C141_count_refuted.

(** The views of an atom without levels cannot be printed. *)
Theorem C141_empty_refuted : exists s, reachable Exact 1%Qc plain s /\ fst (atom_repr Exact s) = Ok (1%Z, 0%nat) /\
  fst (levels_repr Exact s) = Raise IndexError /\ fst (transitions_repr Exact s) = Raise IndexError.
Proof. exists (runx (from 1) []). split; [apply from_reachable; lia|]. repeat split. Qed.
Print Assumptions C141_empty_refuted.

Example C141_case : reachable Exact 1%Qc plain s_view /\ fst (levels_repr Exact s_view) = Ok (2%nat, LE) /\
  fst (transitions_repr Exact s_view) = Ok (3%nat, TT) /\ fst (atom_repr Exact s_view) = Ok (1%Z, 2%nat) /\
  rmap (fun t => tt_name Exact t) (fst (trans_repr Exact 1%Qc 0 s_view)) = Ok "6p 2P*1/2 -> 6s 2S1/2" /\
  rmap (fun t => lt_name Exact t) (fst (level_repr Exact 1%Qc 1 s_view)) = Ok "6s 2S1/2" /\
  level_values Exact s_view = [0; 1]%nat /\ option_map (fun l => option_map term_repr (lead l)) (lv s_view 1) = Some (Some "Term(6s 2S1/2)").
Proof. split; [apply from_reachable; lia|]. do 6 (split; [vm_compute; reflexivity|]). vm_compute; reflexivity. Qed.
