(** C150: the order in which levels are put into an atom. *)
From Coq Require Import List Bool ZArith QArith Qcanon Lia String Ascii Permutation Sorted.
From Verif Require Import Base Num PyStr Util UtilProofs Regex Parse Term TermProofs Hyperfine HyperfineProofs Graph GraphProofs Rules Atom AtomInv AtomSafe AtomSafe2 AtomSafe3 AtomSafe4 AtomSafe5 AtomSafe6 AtomLevels AtomKeep AtomAlias AtomPaths AtomTrans AtomEnergy AtomExample Views PropViews AtomSame.
Import ListNotations.
Local Open Scope list_scope.

Lemma NoDup_tail_app {A} : forall l r : list A, NoDup (l ++ r) -> NoDup r.
Proof. induction l as [|x l IH]; intros r H; auto. inversion H; auto. Qed.

Section Build.
  Context (N : Num) (muB : num N) (orc : nat -> oracle) (OK : forall n, oracle_ok (orc n)).
  Implicit Types (s : st N) (a b t : nat).

  (** [atom.add_level(l)] for each of [ls] in turn. *)
  Definition adds (ls : list nat) : list (op N) := map (fun a => OAddLevel N a false None) ls.
  Definition own_alias s a : list string :=
    match lv s a with Some l => match l_alias l with Some al => [al] | None => [] end | None => [] end.
  (** EnergyLevels that have no sublevels yet, with distinct names and distinct
      aliases of their own. *)
  Record parts s (ls : list nat) : Prop := mk_parts {
    pt_lv : forall a, In a ls -> exists l, lv s a = Some l /\ l_kind l = LE /\ l_subs l = [];
    pt_names : NoDup (map (nm s) ls);
    pt_alias : NoDup (flat_map (own_alias s) ls)
  }.

  Lemma parts_perm : forall s ls ls', Permutation ls ls' -> parts s ls -> parts s ls'.
  Proof.
    intros s ls ls' P []. constructor.
    - intros a I. apply pt_lv0. now apply (Permutation_in _ (Permutation_sym P)).
    - now apply (Permutation_NoDup (Permutation_map (nm s) P)).
    - now apply (Permutation_NoDup (Permutation_flat_map (own_alias s) P)).
  Qed.
  Lemma parts_next : forall s a l ls, lv s a = Some l -> parts s (a :: ls) -> parts (put N a l s) ls.
  Proof.
    intros s a l ls L [P1 P2 P3]. cbn [map] in P2. cbn [flat_map] in P3. inversion P2 as [|x r Nx P2']; subst.
    assert (Nb : forall b, In b ls -> b <> a) by (intros b I ->; apply Nx; now apply in_map).
    assert (E : forall b, In b ls -> lv (put N a l s) b = lv s b) by (intros b I; apply put_lv; auto).
    constructor.
    - intros b I. rewrite E by auto. apply P1. now right.
    - rewrite (map_ext_in (nm (put N a l s)) (nm s)); auto. intros b I. unfold nm. now rewrite E.
    - apply NoDup_tail_app in P3. clear - P3 E. rewrite flat_map_concat_map in *. rewrite (map_ext_in (own_alias (put N a l s)) (own_alias s)); auto. intros b I. unfold own_alias. now rewrite E.
  Qed.
  Lemma later : forall s os, reachable N muB orc s -> reachable N muB orc (run N muB orc s os).
  Proof. intros s os [I [B [os' [H ->]]]]. exists I, B, (os' ++ os). split; auto. unfold run. now rewrite fold_left_app. Qed.
  Lemma step_put : forall s a l, lv s a = Some l -> l_kind l = LE -> l_subs l = [] -> step N muB orc s (OAddLevel N a false None) = put N a l s.
  Proof. intros s a l L K Sb. unfold step. cbn [run_op]. unfold void, bind. rewrite (add_level_put N s a l) by (repeat split; auto). reflexivity. Qed.
  Lemma put_trans : forall s a l, s_trans (put N a l s) = s_trans s.
  Proof. intros. unfold put. destruct (l_alias l); reflexivity. Qed.
  Lemma same_self : forall s, reachable N muB orc s -> (forall x, In x (s_trans s) -> x_set x = None) -> same N s s.
  Proof.
    intros s R U. pose proof (reachable_WF N muB orc OK s R) as W. constructor; auto. intros k. pose proof (go_wf _ _ _ _ (wf_g _ _ W k)) as GW.
    apply gsame_refl; [apply GW|rewrite (gw_keys _ GW); apply GW].
  Qed.
  Lemma calm_adds : forall ls, forallb (calm N) (adds ls) = true.
  Proof. induction ls; auto. Qed.
  Lemma adds_same : forall ls ls', Permutation ls ls' -> forall s, reachable N muB orc s -> (forall x, In x (s_trans s) -> x_set x = None) -> parts s ls ->
    same N (run N muB orc s (adds ls)) (run N muB orc s (adds ls')).
  Proof.
    intros ls ls' P. induction P as [|a l l' P IH|x y l|l l' l'' P1 IH1 P2 IH2]; intros s R U Pt.
    - now apply same_self.
    - destruct (pt_lv _ _ Pt a (or_introl eq_refl)) as [v [L [K Sb]]]. unfold run, adds. cbn [map fold_left]. rewrite (step_put s a v) by auto. apply IH.
      + rewrite <- (step_put s a v) by auto. apply (later s [_] R).
      + now rewrite put_trans.
      + now apply parts_next.
    - destruct (pt_lv _ _ Pt y (or_introl eq_refl)) as [v [L [K Sb]]]. destruct (pt_lv _ _ Pt x (or_intror (or_introl eq_refl))) as [w [L' [K' Sb']]].
      pose proof (pt_names _ _ Pt) as Nn. cbn [map] in Nn. inversion Nn as [|n r Ny _]; subst. pose proof (pt_alias _ _ Pt) as Na. cbn [flat_map] in Na.
      assert (Nxy : y <> x) by (intros ->; apply Ny; now left).
      assert (Nl : lname v <> lname w) by (intros E; apply Ny; left; unfold nm; rewrite L, L'; cbn; now rewrite E).
      unfold run, adds. cbn [map fold_left]. rewrite (step_put s y v) by auto. rewrite (step_put s x w) by auto.
      rewrite (step_put (put N y v s) x w) by (auto; rewrite put_lv; auto). rewrite (step_put (put N x w s) y v) by (auto; rewrite put_lv; auto).
      apply (same_run N muB orc (adds l)); [apply calm_adds|]. apply put_swap; auto.
      + apply (reachable_WF N muB orc OK s R).
      + intros al E E'. unfold own_alias in Na. rewrite L, L', E, E' in Na. cbn in Na. inversion Na as [|n' r' Hn _]; subst. apply Hn. now left.
    - eapply same_trans; [apply IH1; auto|]. apply IH2; auto. eapply parts_perm; eauto.
  Qed.

  (** What a user can see of an atom, other than the order of its levels and
      the direction of its transitions: every level and transition, found by
      any key, with the same energy, frequency, sublevels and neighbours. *)
  Definition alike s s' : Prop :=
    (forall key, fst (levels_get N key s) = fst (levels_get N key s')) /\
    (forall a, lv s a = lv s' a) /\ (forall t, tr s t = tr s' t) /\
    (forall a, energy N muB s a = energy N muB s' a) /\ (forall t, freq N muB s t = freq N muB s' t) /\
    (forall u v, edge (s_g0 s) u v = edge (s_g0 s') u v) /\
    (forall a key, fst (getitem N a key s) = fst (getitem N a key s')) /\
    (forall a, fst (sublevels N a s) = fst (sublevels N a s')) /\
    (forall t, fst (subtransitions N muB t s) = fst (subtransitions N muB t s')) /\
    (forall t k, fst (tr_getitem N muB t k s) = fst (tr_getitem N muB t k s')) /\
    (forall key, fst (linked_levels N muB 3 key s) = fst (linked_levels N muB 3 key s')) /\
    (forall key, fst (total_rate N muB key s) = fst (total_rate N muB key s')) /\
    (forall key, fst (branching N muB key s) = fst (branching N muB key s')) /\
    Permutation (level_keys N s) (level_keys N s') /\ Permutation (level_values N s) (level_values N s').

  Lemma same_attrs : forall s s', same N s s' -> Permutation (node_attrs (s_g0 s)) (node_attrs (s_g0 s')).
  Proof.
    intros s s' S. pose proof (sm_g _ _ _ S LE) as G. cbn [graph_of] in G.
    apply NoDup_Permutation.
    - apply (NoDup_map_inv fst). change (NoDup (dkeys (node_attrs (s_g0 s)))). unfold node_attrs. apply somes_nodup. apply G.
    - apply (NoDup_map_inv fst). change (NoDup (dkeys (node_attrs (s_g0 s')))). unfold node_attrs. apply somes_nodup. apply G.
    - assert (X : forall g h k v, gsame g h -> In (k, v) (node_attrs g) -> In (k, v) (node_attrs h)).
      { intros g h k v Gh I. apply dget_In. rewrite <- (gsame_attr g h k Gh). apply In_dget_nodup; auto. unfold node_attrs. apply somes_nodup. apply Gh. }
      intros [k v]. split; apply X; auto. destruct G. constructor; auto.
  Qed.
  Lemma same_alike : forall s s', same N s s' -> alike s s'.
  Proof.
    intros s s' S. repeat split; intros; try (now apply resp_levels_get); auto using same_at_lv, same_at_tr, same_energy, same_freq.
    - apply gsame_edge. apply (sm_g _ _ _ S LE).
    - now apply resp_getitem.
    - now apply resp_sublevels.
    - now apply resp_subtransitions.
    - now apply resp_tr_getitem.
    - now apply resp_linked.
    - now apply resp_total_rate.
    - now apply resp_branching.
    - apply (Permutation_map fst). now apply same_attrs.
    - apply (Permutation_map snd). now apply same_attrs.
  Qed.

  (** Two atoms into which the same levels are put in different orders, and
      that then go through the same calls, cannot be told apart: the calls have
      the same outcomes, and at the end everything is alike. *)
  Theorem C150_order_partial : forall s ls ls' os, reachable N muB orc s -> (forall x, In x (s_trans s) -> x_set x = None) ->
    parts s ls -> Permutation ls ls' -> forallb (calm N) os = true ->
    alike (run N muB orc (run N muB orc s (adds ls)) os) (run N muB orc (run N muB orc s (adds ls')) os) /\
    (forall o, calm N o = true -> fst (run_op N muB orc o (run N muB orc (run N muB orc s (adds ls)) os)) = fst (run_op N muB orc o (run N muB orc (run N muB orc s (adds ls')) os))).
  Proof.
    intros s ls ls' os R U Pt P C.
    assert (S : same N (run N muB orc (run N muB orc s (adds ls)) os) (run N muB orc (run N muB orc s (adds ls')) os)) by (apply same_run; auto; now apply adds_same).
    split; [now apply same_alike|]. intros o Co. now apply (resp_op N muB orc o Co).
  Qed.

End Build.

(** Sorted without ties, a list is determined by its members. *)
Lemma sorted_unique {A} (key : A -> option Qc) : forall l r : list A, Permutation l r -> NoDup l ->
  (forall a b e, In a l -> In b l -> key a = Some e -> key b = Some e -> a = b) -> (forall a, In a l -> key a <> None) ->
  StronglySorted (fun a b => forall x y, key a = Some x -> key b = Some y -> (x <= y)%Qc) l ->
  StronglySorted (fun a b => forall x y, key a = Some x -> key b = Some y -> (x <= y)%Qc) r -> l = r.
Proof.
  induction l as [|a l IH]; intros r P Nd U Nn Sl Sr; [apply Permutation_nil in P; auto|].
  destruct r as [|b r]; [apply Permutation_sym, Permutation_nil in P; discriminate|].
  inversion Sl as [|? ? Sl' Fl]; subst. inversion Sr as [|? ? Sr' Fr]; subst. inversion Nd as [|? ? Na Nd']; subst.
  assert (E : a = b).
  { assert (Ib : In b (a :: l)) by (apply (Permutation_in _ (Permutation_sym P)); now left).
    assert (Ia : In a (b :: r)) by (apply (Permutation_in _ P); now left).
    destruct Ib as [|Ib]; auto. destruct Ia as [|Ia]; auto.
    destruct (key a) as [x|] eqn:Ka; [|exfalso; apply (Nn a); auto; now left].
    destruct (key b) as [y|] eqn:Kb; [|exfalso; apply (Nn b); auto; now right].
    rewrite Forall_forall in Fl, Fr. assert (x = y) by (apply Qcle_antisym; [apply (Fl b Ib); auto|apply (Fr a Ia); auto]). subst y.
    apply (U a b x); auto; [now left|now right]. }
  subst b. f_equal. apply IH; auto.
  - now apply Permutation_cons_inv in P.
  - intros c d e Ic Id. apply U; now right.
  - intros c Ic. apply Nn. now right.
Qed.

(** [atom.levels[i]] is the same level in both, if no two levels of the atom
    have the same energy; exact arithmetic. *)
Theorem C150_index : forall muB orc, (forall n, oracle_ok (orc n)) -> forall (s : st Exact) ls ls' os, reachable Exact muB orc s -> (forall x, In x (s_trans s) -> x_set x = None) ->
  parts Exact s ls -> Permutation ls ls' -> forallb (calm Exact) os = true ->
  let s1 := run Exact muB orc (run Exact muB orc s (adds Exact ls)) os in
  let s2 := run Exact muB orc (run Exact muB orc s (adds Exact ls')) os in
  (forall a b e, In a (level_values Exact s1) -> In b (level_values Exact s1) -> energy Exact muB s1 a = Some e -> energy Exact muB s1 b = Some e -> a = b) ->
  forall i, fst (levels_get_int Exact muB i s1) = fst (levels_get_int Exact muB i s2).
Proof.
  intros muB orc OK s ls ls' os R U Pt P C s1 s2 D i.
  assert (R1 : reachable Exact muB orc s1) by (apply later, later; auto). assert (R2 : reachable Exact muB orc s2) by (apply later, later; auto).
  destruct (C150_order_partial Exact muB orc OK s ls ls' os R U Pt P C) as [[_ [_ [_ [He [_ [_ [_ [_ [_ [_ [_ [_ [_ [_ Pv]]]]]]]]]]]]]] _].
  assert (Nd : NoDup (level_values Exact s1)).
  { pose proof (reachable_WF Exact muB orc OK s1 R1) as W. apply (NoDup_map_inv (nm s1)). unfold level_values, dvals. rewrite map_map.
    assert (Ek : map (fun x => nm s1 (snd x)) (node_attrs (s_g0 s1)) = map Some (dkeys (node_attrs (s_g0 s1)))).
    { unfold dkeys. rewrite map_map. apply map_ext_in. intros [k v] I. cbn [fst snd].
      assert (Dk : dget k (node_attrs (s_g0 s1)) = Some v) by (apply In_dget_nodup; auto; apply node_attrs_nodup, (wf_g _ _ W LE)).
      rewrite node_attrs_get in Dk by apply (wf_g _ _ W LE). destruct (dget k (g_nodes (s_g0 s1))) as [o|] eqn:Eo; [|discriminate]. subst o.
      destruct (go_node _ _ _ _ (wf_g _ _ W LE) k v Eo) as [l [L [_ [Hn _]]]]. unfold nm. rewrite L. cbn. now rewrite Hn. }
    rewrite Ek. apply FinFun.Injective_map_NoDup; [intros x y Hxy; congruence|]. apply node_attrs_nodup, (wf_g _ _ W LE). }
  fold s1 s2 in He, Pv. destruct (ranked_by muB orc OK s1 R1) as [r1 [B1 [_ [P1 S1]]]]. destruct (ranked_by muB orc OK s2 R2) as [r2 [B2 [_ [P2 S2]]]].
  assert (E : r1 = r2).
  { apply (sorted_unique (energy Exact muB s1)).
    - eapply Permutation_trans; [exact P1|]. eapply Permutation_trans; [exact Pv|]. now apply Permutation_sym.
    - apply (Permutation_NoDup (Permutation_sym P1)); auto.
    - intros a b e Ia Ib. apply D; [apply (Permutation_in _ P1 Ia)|apply (Permutation_in _ P1 Ib)].
    - intros a Ia. destruct (levels_by_energy muB orc OK s1 R1) as [r [Pr [_ [Hr _]]]]. apply Hr. apply (Permutation_in _ (Permutation_sym Pr)). apply (Permutation_in _ P1 Ia).
    - exact S1.
    - clear - S2 He. induction S2 as [|x l S IH F]; constructor; auto. rewrite Forall_forall in *. intros y Iy eb ec. rewrite !He. now apply F. }
  unfold levels_get_int, bind, asks. rewrite B1, B2, E. destruct (py_nth r2 i); reflexivity.
Qed.

(** Three levels, the second with an alias, made and not yet added. *)
Definition loose : st Exact := runx (from 1) [nl tS 0; ONewLevel Exact [tP] (Q2Qc 10) 0%Qc 0%Qc 0%Qc 0%Qc (Some "p"%string) false; nl tQ 20].
Definition then_do : list (op Exact) :=
  [OAddTransition Exact (TLevels 0 1) None (Some (Q2Qc 5, uHz)) None; OAddTransition Exact (TLevels 2 0) None (Some (Q2Qc 7, uHz)) None; OSublevels Exact 0; OSetLevel Exact 1 (Q2Qc 12)].
Lemma loose_parts : parts Exact loose [0; 1; 2]%nat.
Proof.
  constructor.
  - intros a [<-|[<-|[<-|[]]]]; eexists; (split; [vm_compute; reflexivity|split; vm_compute; reflexivity]).
  - replace (map (nm loose) [0; 1; 2]%nat) with (map Some ["6s 2S1/2"; "6p 2P*1/2"; "6p 2P*3/2"]%string) by (vm_compute; reflexivity).
    repeat constructor; cbn; intuition discriminate.
  - replace (flat_map (own_alias Exact loose) [0; 1; 2]%nat) with ["p"%string] by (vm_compute; reflexivity). repeat constructor. intros [].
Qed.
Example C150_case : reachable Exact 1%Qc plain loose /\ s_trans loose = [] /\ parts Exact loose [0; 1; 2]%nat /\ Permutation [0; 1; 2]%nat [2; 0; 1]%nat /\
  forallb (calm Exact) then_do = true /\
  (let s1 := runx (runx loose (adds Exact [0; 1; 2]%nat)) then_do in let s2 := runx (runx loose (adds Exact [2; 0; 1]%nat)) then_do in
   fst (levels_get Exact "p" s2) = Ok 1%nat /\
   level_keys Exact s1 = ["6s 2S1/2"; "6p 2P*1/2"; "6p 2P*3/2"]%string /\ level_keys Exact s2 = ["6p 2P*3/2"; "6s 2S1/2"; "6p 2P*1/2"]%string /\
   match fst (branching Exact 1%Qc "6p 2P*3/2" s2) with Ok d => map (fun kv => (fst kv, this (snd kv))) d | Raise _ => [] end = [("6s 2S1/2"%string, 1%Q)] /\
   match fst (linked_levels Exact 1%Qc 3 "6s 2S1/2" s1) with Ok d => dkeys d | Raise _ => [] end = ["6p 2P*1/2"; "6p 2P*3/2"]%string /\
   match fst (linked_levels Exact 1%Qc 3 "6s 2S1/2" s2) with Ok d => dkeys d | Raise _ => [] end = ["6p 2P*1/2"; "6p 2P*3/2"]%string).
Proof.
  split; [apply from_reachable; lia|]. split; [vm_compute; reflexivity|]. split; [exact loose_parts|].
  split; [apply (perm_trans (l' := [0; 2; 1]%nat)); [apply perm_skip, perm_swap|apply perm_swap]|]. split; [reflexivity|].
  cbv zeta. do 5 (split; [vm_compute; reflexivity|]). vm_compute. reflexivity.
Qed.

(** With ties, the order shows: [atom.levels[0]] of two levels of energy 10. *)
Theorem C150_tie_refuted : exists s ls ls', reachable Exact 1%Qc plain s /\ s_trans s = [] /\ parts Exact s ls /\ Permutation ls ls' /\
  fst (levels_get_int Exact 1%Qc 0 (runx s (adds Exact ls))) = Ok 0%nat /\ fst (levels_get_int Exact 1%Qc 0 (runx s (adds Exact ls'))) = Ok 1%nat.
Proof.
  exists (runx (from 1) [nl tS 10; nl tP 10]), [0; 1]%nat, [1; 0]%nat. split; [apply from_reachable; lia|]. split; [vm_compute; reflexivity|]. split.
  { constructor.
    - intros a [<-|[<-|[]]]; eexists; (split; [vm_compute; reflexivity|split; vm_compute; reflexivity]).
    - replace (map (nm (runx (from 1) [nl tS 10; nl tP 10])) [0; 1]%nat) with (map Some ["6s 2S1/2"; "6p 2P*1/2"]%string) by (vm_compute; reflexivity).
      repeat constructor; cbn; intuition discriminate.
    - replace (flat_map (own_alias Exact (runx (from 1) [nl tS 10; nl tP 10])) [0; 1]%nat) with (@nil string) by (vm_compute; reflexivity). constructor. }
  split; [apply perm_swap|]. split; vm_compute; reflexivity.
Qed.

(** And so it does in [atom.transitions[(a, b)]]: with the same levels and the
    same transition the lookup succeeds or raises KeyError, according to which
    level was added first. *)
Theorem C150_direction_refuted : exists s ls ls' os k, reachable Exact 1%Qc plain s /\ s_trans s = [] /\ parts Exact s ls /\ Permutation ls ls' /\ forallb (calm Exact) os = true /\
  fst (transitions_get Exact 1%Qc k (runx (runx s (adds Exact ls)) os)) = Ok 0%nat /\
  fst (transitions_get Exact 1%Qc k (runx (runx s (adds Exact ls')) os)) = Raise KeyError.
Proof.
  exists loose, [0; 1; 2]%nat, [1; 0; 2]%nat, [OAddTransition Exact (TLevels 0 1) None None None], (KS "6s 2S1/2", KS "6p 2P*1/2"). split; [apply from_reachable; lia|].
  split; [vm_compute; reflexivity|]. split; [exact loose_parts|]. split; [apply perm_swap|]. split; [reflexivity|]. split; vm_compute; reflexivity.
Qed.
Print Assumptions C150_order_partial.
Print Assumptions C150_index.
Print Assumptions C150_tie_refuted.
Print Assumptions C150_direction_refuted.
