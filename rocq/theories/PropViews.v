(** Properties C96-C100: the dict-like views of an atom, slices, and atoms made
    from lists of levels and transitions. *)
From Coq Require Import List Bool ZArith QArith Qcanon Lia String Ascii Permutation Sorted.
From Verif Require Import Base PyStr Util Term Num Graph GraphProofs Rules Atom AtomInv AtomSafe AtomSafe2 AtomSafe3 AtomSafe5 AtomSafe6
  AtomKeep AtomLevels AtomPaths AtomHist AtomEnergy AtomAlias AtomNames AtomFresh AtomTrans AtomExample PropTables Views.
Import ListNotations.
Local Open Scope string_scope.
Local Open Scope list_scope.

Lemma nth_ext_list {A} : forall l r : list A, (forall i, nth_error l i = nth_error r i) -> l = r.
Proof.
  induction l as [|x l IH]; intros [|y r] H; auto.
  - specialize (H 0%nat). discriminate.
  - specialize (H 0%nat). discriminate.
  - f_equal; [specialize (H 0%nat); now injection H|]. apply IH. intros i. exact (H (S i)).
Qed.

Section V.
  Context (N : Num) (muB : num N) (orc : nat -> oracle) (OK : forall n, oracle_ok (orc n)).
  Notation st := (st N).
  Implicit Types s : st.

  (** ** C96: the view of levels *)

  (** The n-th key is the name of the n-th value, a fine-structure level of the
      atom; no key and no value occurs twice. *)
  Theorem C96_views : forall s, reachable N muB orc s ->
    List.length (level_keys N s) = level_len N s /\ List.length (level_values N s) = level_len N s /\
    NoDup (level_keys N s) /\ NoDup (level_values N s) /\
    forall i k, nth_error (level_keys N s) i = Some k ->
      exists a l, nth_error (level_values N s) i = Some a /\ lv s a = Some l /\ lname l = k /\ l_kind l = LE /\ l_attached l = true.
  Proof.
    intros s R. pose proof (reachable_WF N muB orc OK s R) as W. assert (Nd : NoDup (level_keys N s)) by (apply node_attrs_nodup, (wf_g _ _ W LE)).
    assert (H : forall i k, nth_error (level_keys N s) i = Some k ->
      exists a l, nth_error (level_values N s) i = Some a /\ lv s a = Some l /\ lname l = k /\ l_kind l = LE /\ l_attached l = true).
    { intros i k Hi. unfold level_keys, level_values, dkeys, dvals in *. rewrite nth_error_map in *. destruct (nth_error (node_attrs (s_g0 s)) i) as [[k' a]|] eqn:E; [|discriminate].
      injection Hi as Hi. cbn [fst] in Hi. subst k'. apply nth_error_In in E. apply In_dget_nodup in E; [|exact Nd]. destruct (node_inv _ _ _ _ W E) as [l [V [K [Nl At]]]].
      exists a, l. repeat split; auto. }
    split; [unfold level_keys, level_len, dkeys; now rewrite map_length|]. split; [unfold level_values, level_len, dvals; now rewrite map_length|].
    split; [exact Nd|]. split; [|exact H].
    apply NoDup_nth_error. intros i j Li Hij.
    assert (Lk : List.length (level_keys N s) = List.length (level_values N s)) by (unfold level_keys, level_values, dkeys, dvals; now rewrite !map_length).
    destruct (nth_error (level_keys N s) i) as [k|] eqn:Ei; [|apply nth_error_None in Ei; lia].
    destruct (H i k Ei) as [a [l [Va [Vl [Nl _]]]]]. rewrite Va in Hij. symmetry in Hij.
    assert (Lj : (j < List.length (level_values N s))%nat) by (apply nth_error_Some; congruence).
    destruct (nth_error (level_keys N s) j) as [k'|] eqn:Ej; [|apply nth_error_None in Ej; lia].
    destruct (H j k' Ej) as [a' [l' [Va' [Vl' [Nl' _]]]]]. assert (a' = a) by congruence. subst a'. assert (l' = l) by congruence. subst l'.
    apply (proj1 (NoDup_nth_error (level_keys N s)) Nd i j); [lia|]. congruence.
  Qed.
  (** Looking up a key gives the value next to it, if the key is no alias. *)
  Theorem C96_lookup_partial : forall s i k a, reachable N muB orc s -> nth_error (level_keys N s) i = Some k -> nth_error (level_values N s) i = Some a ->
    dget k (s_lal s) = None -> has_char "="%char k = false -> levels_get N k s = (Ok a, s).
  Proof.
    intros s i k a R Hk Ha Al Ch. pose proof (reachable_WF N muB orc OK s R) as W. rewrite get_plain by auto.
    assert (D : dget k (node_attrs (s_g0 s)) = Some a); [|now rewrite D].
    apply In_dget_nodup; [apply node_attrs_nodup, (wf_g _ _ W LE)|]. unfold level_keys, level_values, dkeys, dvals in *. rewrite nth_error_map in *.
    destruct (nth_error (node_attrs (s_g0 s)) i) as [[k' a']|] eqn:E; [|discriminate]. cbn in Hk, Ha. injection Hk as ->. injection Ha as ->. now apply nth_error_In in E.
  Qed.

  (** ** C97: the view of transitions *)

  Theorem C97_views : forall s, reachable N muB orc s ->
    List.length (trans_keys N s) = trans_len N s /\ List.length (trans_values N s) = trans_len N s /\
    NoDup (trans_keys N s) /\ NoDup (trans_values N s) /\
    (forall u v, In (u, v) (trans_keys N s) -> In (v, u) (trans_keys N s) -> u = v) /\
    forall i u v, nth_error (trans_keys N s) i = Some (u, v) ->
      exists t x, nth_error (trans_values N s) i = Some t /\ tr s t = Some x /\ x_kind x = TT /\
        ((nm s (x_E1 x) = Some u /\ nm s (x_E2 x) = Some v) \/ (nm s (x_E1 x) = Some v /\ nm s (x_E2 x) = Some u)) /\
        edge (s_g0 s) u v = Some t /\ edge (s_g0 s) v u = Some t.
  Proof.
    intros s R. pose proof (reachable_WF N muB orc OK s R) as W. pose proof (wf_g _ _ W LE) as G. cbn [graph_of] in G. pose proof (go_wf _ _ _ _ G) as Wg.
    assert (Nd : NoDup (trans_keys N s)) by (now apply edge_attrs_nodup).
    assert (An : forall u v, In (u, v) (trans_keys N s) -> In (v, u) (trans_keys N s) -> u = v).
    { intros u v H1 H2. unfold trans_keys, dkeys in *. apply in_map_iff in H1 as [[[u1 v1] t1] [E1 H1]]. apply in_map_iff in H2 as [[[u2 v2] t2] [E2 H2]].
      cbn [fst] in E1, E2. injection E1 as -> ->. injection E2 as -> ->. apply edge_attrs_In in H1 as [_ B1]; auto. apply edge_attrs_In in H2 as [_ B2]; auto.
      now apply before_antisym in B1. }
    assert (H : forall i u v, nth_error (trans_keys N s) i = Some (u, v) ->
      exists t x, nth_error (trans_values N s) i = Some t /\ tr s t = Some x /\ x_kind x = TT /\
        ((nm s (x_E1 x) = Some u /\ nm s (x_E2 x) = Some v) \/ (nm s (x_E1 x) = Some v /\ nm s (x_E2 x) = Some u)) /\
        edge (s_g0 s) u v = Some t /\ edge (s_g0 s) v u = Some t).
    { intros i u v Hi. unfold trans_keys, trans_values, dkeys, dvals in *. rewrite nth_error_map in *. destruct (nth_error (edge_attrs (s_g0 s)) i) as [[k t]|] eqn:E; [|discriminate].
      injection Hi as Hi. cbn [fst] in Hi. subst k. apply nth_error_In in E. apply edge_attrs_In in E as [E _]; [|exact Wg].
      destruct (go_edge _ _ _ _ G _ _ _ E) as [x [Tx [Kx En]]]. exists t, x. split; [reflexivity|]. split; [exact Tx|]. split; [destruct (x_kind x); auto; discriminate|]. split.
      - destruct (wf_tr _ _ W _ _ Tx) as [l1 [l2 [_ [_ [_ [_ [[[U L]|[U L]] _]]]]]]]; rewrite U, L in En; tauto.
      - split; [exact E|]. now apply (gw_sym _ Wg). }
    split; [unfold trans_keys, trans_len, dkeys; now rewrite map_length|]. split; [unfold trans_values, trans_len, dvals; now rewrite map_length|].
    split; [exact Nd|]. split; [|split; [exact An|exact H]].
    apply NoDup_nth_error. intros i j Li Hij.
    assert (Lk : List.length (trans_keys N s) = List.length (trans_values N s)) by (unfold trans_keys, trans_values, dkeys, dvals; now rewrite !map_length).
    destruct (nth_error (trans_keys N s) i) as [[u v]|] eqn:Ei; [|apply nth_error_None in Ei; lia].
    destruct (H i u v Ei) as [t [x [Vt [Tx [_ [Nx _]]]]]]. rewrite Vt in Hij. symmetry in Hij.
    assert (Lj : (j < List.length (trans_values N s))%nat) by (apply nth_error_Some; congruence).
    destruct (nth_error (trans_keys N s) j) as [[u' v']|] eqn:Ej; [|apply nth_error_None in Ej; lia].
    destruct (H j u' v' Ej) as [t' [x' [Vt' [Tx' [_ [Nx' _]]]]]]. assert (t' = t) by congruence. subst t'. assert (x' = x) by congruence. subst x'.
    apply (proj1 (NoDup_nth_error (trans_keys N s)) Nd i j); [lia|].
    assert (Sw : (u' = u /\ v' = v) \/ (u' = v /\ v' = u)) by (destruct Nx as [[? ?]|[? ?]], Nx' as [[? ?]|[? ?]]; [left|right|right|left]; split; congruence).
    destruct Sw as [[-> ->]|[-> ->]]; [congruence|]. assert (u = v) by (apply An; eapply nth_error_In; eauto). subst v. congruence.
  Qed.
  (** list_names hides exactly the transitions of a level to itself. *)
  Theorem C97_names : forall s, trans_names N false s = trans_keys N s /\
    forall u v, In (u, v) (trans_names N true s) <-> In (u, v) (trans_keys N s) /\ u <> v.
  Proof.
    intros s. split; [reflexivity|]. intros u v. unfold trans_names. rewrite filter_In. cbn [fst snd]. destruct (String.eqb_spec u v) as [->|Ne]; cbn; intuition congruence.
  Qed.

  (** ** C99: assigning a level *)

  (** [levels[key] = level] makes [levels[key]] that level, for as long as the
      alias is not given away, adds its name to the keys, and leaves the other
      names and aliases alone. *)
  Theorem C99_partial : forall s key a l, reachable N muB orc s -> lv s a = Some l -> l_kind l = LE ->
    exists s', levels_setitem N key a s = (Ok a, s') /\
      (forall os, unbound N muB orc key s' os -> levels_get N key (run N muB orc s' os) = (Ok a, run N muB orc s' os)) /\
      dget (lname l) (node_attrs (s_g0 s')) = Some a /\
      (forall k, k <> lname l -> dget k (node_attrs (s_g0 s')) = dget k (node_attrs (s_g0 s))) /\
      (forall k, k <> key -> dget k (s_lal s') = dget k (s_lal s)).
  Proof.
    intros s key a l R V K. pose proof (reachable_WF N muB orc OK s R) as W. destruct (add_level_ok N s a l false (Some key) W V) as [s' [E [W' [X Ad]]]].
    exists s'. split; [exact E|]. assert (Dk : dget key (s_lal s') = Some a) by (rewrite (ad_lal _ _ _ _ _ _ _ Ad); cbn; now rewrite dget_dset_eq).
    split; [|split; [|split]].
    - intros os U. apply get_alias. rewrite alias_kept by auto. exact Dk.
    - rewrite node_attrs_get by apply (wf_g _ _ W' LE). rewrite (ad_g0 _ _ _ _ _ _ _ Ad), K, add_node_nodes, String.eqb_refl. reflexivity.
    - intros k Nk. rewrite !node_attrs_get by (apply (wf_g _ _ W' LE) || apply (wf_g _ _ W LE)). rewrite (ad_g0 _ _ _ _ _ _ _ Ad), K, add_node_nodes.
      destruct (String.eqb_spec k (lname l)); [contradiction|reflexivity].
    - intros k Nk. rewrite (ad_lal _ _ _ _ _ _ _ Ad). cbn. now rewrite dget_dset_neq.
  Qed.
  (** [levels.append(level)] adds the level under its own name and, if it has
      one, under its alias; its sublevels are made only when first asked for. *)
  Theorem C99_append : forall s a l, reachable N muB orc s -> lv s a = Some l -> l_kind l = LE ->
    exists s' l', levels_append N a s = (Ok a, s') /\
      lv s' a = Some l' /\ l_attached l' = true /\ l_subs l' = l_subs l /\ l_alias l' = l_alias l /\
      dget (lname l) (node_attrs (s_g0 s')) = Some a /\
      (forall k, k <> lname l -> dget k (node_attrs (s_g0 s')) = dget k (node_attrs (s_g0 s))) /\
      (forall k, l_alias l = Some k -> dget k (s_lal s') = Some a) /\
      (forall k, l_alias l <> Some k -> dget k (s_lal s') = dget k (s_lal s)).
  Proof.
    intros s a l R V K. pose proof (reachable_WF N muB orc OK s R) as W. destruct (add_level_ok N s a l false None W V) as [s' [E [W' [X Ad]]]].
    destruct (ad_lv _ _ _ _ _ _ _ Ad) as [l' [V' L']]. exists s', l'. pose proof (ad_lal _ _ _ _ _ _ _ Ad) as La. cbn in La.
    split; [exact E|]. split; [exact V'|]. split; [rewrite L'; reflexivity|]. split; [now apply (ad_subs _ _ _ _ _ _ _ Ad)|]. split; [rewrite L'; reflexivity|].
    split; [|split; [|split]].
    - rewrite node_attrs_get by apply (wf_g _ _ W' LE). rewrite (ad_g0 _ _ _ _ _ _ _ Ad), K, add_node_nodes, String.eqb_refl. reflexivity.
    - intros k Nk. rewrite !node_attrs_get by (apply (wf_g _ _ W' LE) || apply (wf_g _ _ W LE)). rewrite (ad_g0 _ _ _ _ _ _ _ Ad), K, add_node_nodes.
      destruct (String.eqb_spec k (lname l)); [contradiction|reflexivity].
    - intros k Hk. rewrite La, Hk. apply dget_dset_eq.
    - intros k Hk. rewrite La. destruct (l_alias l) as [al|]; auto. apply dget_dset_neq. congruence.
  Qed.
  (** The assigned key is not one of the keys, and cannot be deleted, unless it
      is the name of a level. *)
  Theorem C99_delete_refuted : forall s key a l, reachable N muB orc s -> lv s a = Some l -> l_kind l = LE ->
    key <> lname l -> dget key (g_nodes (s_g0 s)) = None ->
    let s' := snd (levels_setitem N key a s) in ~ In key (level_keys N s') /\ del_level N key s' = (Raise NetworkXError, s').
  Proof.
    intros s key a l R V K Nk Nn. pose proof (reachable_WF N muB orc OK s R) as W. destruct (add_level_ok N s a l false (Some key) W V) as [s' [E [W' [X Ad]]]].
    unfold levels_setitem. rewrite E. cbn [snd]. assert (D : dget key (g_nodes (s_g0 s')) = None).
    { rewrite (ad_g0 _ _ _ _ _ _ _ Ad), K, add_node_nodes. destruct (String.eqb_spec key (lname l)); [contradiction|exact Nn]. }
    split.
    - intros H. apply somes_keys_sub in H. apply dget_None in D. now apply D.
    - unfold del_level, g_remove_node, dmem. now rewrite D.
  Qed.
End V.
Print Assumptions C96_views.
Print Assumptions C96_lookup_partial.
Print Assumptions C97_views.
Print Assumptions C97_names.
Print Assumptions C99_partial.
Print Assumptions C99_append.
Print Assumptions C99_delete_refuted.

Definition s_view : st Exact := runx (from 1) [nl tP 10; add 0; nl tS 0; add 1; OAddTransition Exact (TLevels 0 1) None None None; OPopulateInternal Exact].
Example C96_case : reachable Exact 1%Qc plain s_view /\ level_keys Exact s_view = ["6p 2P*1/2"; "6s 2S1/2"]%string /\ level_values Exact s_view = [0; 1]%nat /\ level_len Exact s_view = 2%nat /\
  fst (levels_get Exact "6s 2S1/2" s_view) = Ok 1%nat.
Proof. split; [apply from_reachable; lia|]. vm_compute. repeat match goal with |- _ /\ _ => split end; reflexivity. Qed.
(** An alias equal to the name of another level hides that level. *)
Theorem C96_refuted : exists s i k a, reachable Exact 1%Qc plain s /\ nth_error (level_keys Exact s) i = Some k /\ nth_error (level_values Exact s) i = Some a /\
  exists b, fst (levels_get Exact k s) = Ok b /\ b <> a.
Proof.
  exists (runx (two 1) [OAlias Exact 0 "6p 2P*1/2"]), 1%nat, "6p 2P*1/2"%string, 1%nat. split; [apply more_reachable, two_reachable; lia|].
  split; [vm_compute; reflexivity|]. split; [vm_compute; reflexivity|]. exists 0%nat. split; [vm_compute; reflexivity|discriminate].
Qed.
Print Assumptions C96_refuted.
Example C97_case : trans_keys Exact s_view = [("6p 2P*1/2", "6s 2S1/2"); ("6p 2P*1/2", "6p 2P*1/2"); ("6s 2S1/2", "6s 2S1/2")]%string /\
  trans_names Exact true s_view = [("6p 2P*1/2", "6s 2S1/2")]%string /\ trans_len Exact s_view = 3%nat.
Proof. vm_compute. repeat match goal with |- _ /\ _ => split end; reflexivity. Qed.
(** The ends of a listed transition need not be levels of the atom. *)
Theorem C97_refuted : exists s u v, reachable Exact 1%Qc plain s /\ trans_keys Exact s = [(u, v)] /\ level_keys Exact s = [].
Proof.
  exists (runx (from 1) [nl tS 0; nl tP 10; OAddTransition Exact (TLevels 0 1) None None None]), "6s 2S1/2"%string, "6p 2P*1/2"%string.
  split; [apply from_reachable; lia|]. vm_compute. split; reflexivity.
Qed.
Print Assumptions C97_refuted.
Example C99_case :
  let s := runx (two 1) [nl tQ 20] in
  let s' := snd (levels_setitem Exact "D2" 2 s) in
  fst (levels_setitem Exact "D2" 2 s) = Ok 2%nat /\ fst (levels_get Exact "D2" s') = Ok 2%nat /\ fst (levels_get Exact "6p 2P*3/2" s') = Ok 2%nat /\
  level_keys Exact s' = ["6s 2S1/2"; "6p 2P*1/2"; "6p 2P*3/2"]%string /\ fst (del_level Exact "D2" s') = Raise NetworkXError.
Proof. vm_compute. repeat match goal with |- _ /\ _ => split end; reflexivity. Qed.

(** ** C98: slices *)

Definition pick {A} (l : list A) (i : Z) : list A := match nth_error l (Z.to_nat i) with Some x => [x] | None => [] end.
Lemma py_slice_eq {A} : forall (l : list A) sl, sl_step sl <> Some 0%Z ->
  py_slice l sl = Ok (flat_map (pick l) (let '(a, b, c) := indices (Z.of_nat (List.length l)) sl in range a b c)).
Proof.
  intros l sl H. unfold py_slice. destruct (sl_step sl) as [[|p|p]|]; [congruence| | |]; destruct (indices (Z.of_nat (List.length l)) sl) as [[a b] c]; reflexivity.
Qed.
Lemma take_seq {A} : forall (l : list A) c j, flat_map (fun k => match nth_error l k with Some x => [x] | None => [] end) (seq j c) = firstn c (skipn j l).
Proof.
  intros l c. induction c as [|c IH]; intros j; [reflexivity|]. cbn [seq flat_map]. rewrite IH. clear IH. revert j. induction l as [|x l IH]; intros [|j]; cbn [nth_error skipn].
  - now rewrite firstn_nil.
  - now rewrite !firstn_nil.
  - reflexivity.
  - apply IH.
Qed.
Lemma range_one : forall (a b : nat), range (Z.of_nat a) (Z.of_nat b) 1 = map Z.of_nat (seq a (b - a)).
Proof.
  intros a b. unfold range. cbn [Z.ltb Z.compare]. rewrite Z.div_1_r. replace (Z.to_nat (Z.of_nat b - Z.of_nat a + 1 - 1)) with (b - a)%nat by lia.
  rewrite <- (Nat.add_0_l a) at 2. generalize (b - a)%nat as c. intros c. generalize 0%nat as j. induction c as [|c IH]; intros j; [reflexivity|]. cbn [seq map]. f_equal; [lia|]. apply IH.
Qed.
Lemma pick_nat {A} : forall (l : list A) js, flat_map (pick l) (map Z.of_nat js) = flat_map (fun k => match nth_error l k with Some x => [x] | None => [] end) js.
Proof. intros l js. induction js as [|j js IH]; [reflexivity|]. cbn [map flat_map]. rewrite IH. unfold pick. now rewrite Nat2Z.id. Qed.

(** Where a bound falls: negative values count from the end, others are cut at
    the ends of the list. *)
Definition place (n : nat) (z : Z) : nat := Z.to_nat (if (z <? 0)%Z then z + Z.of_nat n else Z.min z (Z.of_nat n)).
Lemma bound_place : forall n z, bound (Z.of_nat n) 0 (Z.of_nat n) z = Z.of_nat (place n z).
Proof. intros n z. unfold bound, place. destruct (Z.ltb_spec z 0); lia. Qed.
Definition cutoff (n : nat) (o : option Z) (d : nat) : nat := match o with Some z => place n z | None => d end.
Lemma slice_plain {A} : forall (l : list A) a b, py_slice l (mkSlice a b None) =
  Ok (let n := List.length l in let i := cutoff n a 0 in let j := cutoff n b n in firstn (j - i) (skipn i l)).
Proof.
  intros l a b. rewrite py_slice_eq by discriminate. f_equal. unfold indices. cbn [sl_step sl_start sl_stop]. cbn [Z.ltb Z.compare]. cbv zeta.
  set (n := List.length l).
  assert (Ea : match a with Some v => bound (Z.of_nat n) 0 (Z.of_nat n) v | None => 0%Z end = Z.of_nat (cutoff n a 0)) by (destruct a; [apply bound_place|reflexivity]).
  assert (Eb : match b with Some v => bound (Z.of_nat n) 0 (Z.of_nat n) v | None => Z.of_nat n end = Z.of_nat (cutoff n b n)) by (destruct b; [apply bound_place|reflexivity]).
  rewrite Ea, Eb, range_one, pick_nat. apply take_seq.
Qed.
Lemma slice_back {A} : forall l : list A, py_slice l (mkSlice None None (Some (-1)%Z)) = Ok (rev l).
Proof.
  intros l. rewrite py_slice_eq by discriminate. f_equal. unfold indices. cbn [sl_step sl_start sl_stop]. cbn [Z.ltb Z.compare]. cbv zeta. unfold range. cbn [Z.ltb Z.compare].
  change (- (-1))%Z with 1%Z. rewrite Z.div_1_r. replace (Z.to_nat (Z.of_nat (List.length l) - 1 - -1 - -1 - 1)) with (List.length l) by lia.
  induction l as [|x l IH] using rev_ind; [reflexivity|]. rewrite rev_unit, app_length, Nat.add_comm. cbn [List.length Nat.add seq map flat_map].
  unfold pick at 1. replace (Z.to_nat (Z.of_nat (S (List.length l)) - 1 + Z.of_nat 0 * -1)) with (List.length l) by lia. rewrite nth_error_app2, Nat.sub_diag by lia. cbn [nth_error app]. f_equal.
  rewrite <- IH. rewrite <- seq_shift, map_map. rewrite !flat_map_concat_map, !map_map. f_equal. apply map_ext_in. intros k Hk. apply in_seq in Hk. unfold pick.
  replace (Z.to_nat (Z.of_nat (S (List.length l)) - 1 + Z.of_nat (S k) * -1)) with (Z.to_nat (Z.of_nat (List.length l) - 1 + Z.of_nat k * -1)) by lia.
  rewrite nth_error_app1 by lia. reflexivity.
Qed.

Lemma flat_one {A B} : forall (f : A -> list B) (g : A -> B) l, (forall x, In x l -> f x = [g x]) -> flat_map f l = map g l.
Proof. intros f g l H. induction l as [|x l IH]; [reflexivity|]. cbn [flat_map map]. rewrite (H x (or_introl eq_refl)), IH; [reflexivity|]. intros y Hy. apply H. now right. Qed.
Lemma slice_step {A} : forall (l : list A) a b c, (0 < c)%Z -> exists r', py_slice l (mkSlice a b (Some c)) = Ok r' /\
  let n := List.length l in
  forall k, let p := (cutoff n a 0 + k * Z.to_nat c)%nat in nth_error r' k = if (p <? cutoff n b n)%nat then nth_error l p else None.
Proof.
  intros l a b c Hc. rewrite py_slice_eq by (intros X; cbn in X; injection X; lia). eexists. split; [reflexivity|]. unfold indices. cbn [sl_step sl_start sl_stop]. assert (Hz : (c <? 0)%Z = false) by (apply Z.ltb_ge; lia). rewrite !Hz. cbv zeta.
  set (n := List.length l).
  assert (Ea : match a with Some v => bound (Z.of_nat n) 0 (Z.of_nat n) v | None => 0%Z end = Z.of_nat (cutoff n a 0)) by (destruct a; [apply bound_place|reflexivity]).
  assert (Eb : match b with Some v => bound (Z.of_nat n) 0 (Z.of_nat n) v | None => Z.of_nat n end = Z.of_nat (cutoff n b n)) by (destruct b; [apply bound_place|reflexivity]).
  rewrite Ea, Eb. assert (Hb : (cutoff n b n <= n)%nat) by (unfold cutoff, place; destruct b as [z|]; [destruct (Z.ltb_spec z 0); lia|lia]).
  set (i := cutoff n a 0) in *. set (j := cutoff n b n) in *. unfold range. rewrite Hz.
  set (m := Z.to_nat _). assert (Hm : forall k, (k < m)%nat <-> (i + k * Z.to_nat c < j)%nat).
  { intros k. unfold m. clear - Hc. assert (Hq := Z.div_mod (Z.of_nat j - Z.of_nat i + c - 1) c ltac:(lia)). assert (Hr := Z.mod_pos_bound (Z.of_nat j - Z.of_nat i + c - 1) c Hc).
    set (q := ((Z.of_nat j - Z.of_nat i + c - 1) / c)%Z) in *. set (r := ((Z.of_nat j - Z.of_nat i + c - 1) mod c)%Z) in *. split; intros H; nia. }
  clearbody m. assert (W : flat_map (pick l) (map (fun k => Z.of_nat i + Z.of_nat k * c)%Z (seq 0 m)) = flat_map (fun k => match nth_error l (i + k * Z.to_nat c) with Some x => [x] | None => [] end) (seq 0 m)).
  { rewrite !flat_map_concat_map, map_map. f_equal. apply map_ext. intros k. unfold pick. replace (Z.to_nat (Z.of_nat i + Z.of_nat k * c)) with (i + k * Z.to_nat c)%nat by nia. reflexivity. }
  rewrite W. clear W. intros k. cbv zeta. destruct l as [|d l0].
  { assert (j = 0)%nat by (cbn in n; lia). assert (m = 0)%nat by (destruct m as [|m]; [reflexivity|]; assert (X := proj1 (Hm 0%nat) ltac:(lia)); lia). subst m. cbn [seq flat_map]. destruct k; destruct (_ <? j)%nat eqn:X; try reflexivity; apply Nat.ltb_lt in X; lia. }
  rewrite (flat_one _ (fun k => nth (i + k * Z.to_nat c) (d :: l0) d)).
  - rewrite nth_error_map. destruct (Nat.ltb_spec (i + k * Z.to_nat c) j) as [H|H].
    + assert (Hk := proj2 (Hm k) H). rewrite (nth_error_nth' _ 0%nat) by (now rewrite seq_length). rewrite seq_nth by exact Hk. cbn [option_map Nat.add]. symmetry. apply nth_error_nth'. fold n. lia.
    + assert (Hk : (m <= k)%nat) by (destruct (Nat.lt_ge_cases k m) as [X|X]; [apply Hm in X; lia|exact X]). rewrite (proj2 (nth_error_None (seq 0 m) k)); [reflexivity|now rewrite seq_length].
  - intros x Hx. apply in_seq in Hx. assert (X := proj1 (Hm x) ltac:(lia)). rewrite (nth_error_nth' _ d) by (fold n; lia). reflexivity.
Qed.

(** The rank meant by a bound of a slice that runs downwards; -1 is before the first. *)
Definition rank_down (n : nat) (o : option Z) (d : Z) : Z :=
  match o with Some v => if (v <? 0)%Z then Z.max (v + Z.of_nat n) (-1) else Z.min v (Z.of_nat n - 1) | None => d end.
Lemma slice_down {A} : forall (l : list A) a b c, (c < 0)%Z -> exists r', py_slice l (mkSlice a b (Some c)) = Ok r' /\
  let n := List.length l in
  forall k, let p := (rank_down n a (Z.of_nat n - 1) + Z.of_nat k * c)%Z in nth_error r' k = if (rank_down n b (-1) <? p)%Z then nth_error l (Z.to_nat p) else None.
Proof.
  intros l a b c Hc. rewrite py_slice_eq by (intros X; cbn in X; injection X; lia). eexists. split; [reflexivity|]. unfold indices. cbn [sl_step sl_start sl_stop]. assert (Hz : (c <? 0)%Z = true) by (apply Z.ltb_lt; lia). rewrite !Hz. cbv zeta.
  set (n := List.length l).
  assert (Ea : match a with Some v => bound (Z.of_nat n) (-1) (Z.of_nat n - 1) v | None => (Z.of_nat n - 1)%Z end = rank_down n a (Z.of_nat n - 1)) by (destruct a; reflexivity).
  assert (Eb : match b with Some v => bound (Z.of_nat n) (-1) (Z.of_nat n - 1) v | None => (-1)%Z end = rank_down n b (-1)) by (destruct b; reflexivity).
  rewrite Ea, Eb.
  assert (Hi : (rank_down n a (Z.of_nat n - 1) <= Z.of_nat n - 1)%Z) by (unfold rank_down; destruct a as [z|]; [destruct (Z.ltb_spec z 0); lia|lia]).
  assert (Hj : (-1 <= rank_down n b (-1))%Z) by (unfold rank_down; destruct b as [z|]; [destruct (Z.ltb_spec z 0); lia|lia]).
  set (i := rank_down n a (Z.of_nat n - 1)) in *. set (j := rank_down n b (-1)) in *. unfold range. rewrite Hz.
  set (m := Z.to_nat _). assert (Hm : forall k, (k < m)%nat <-> (j < i + Z.of_nat k * c)%Z).
  { intros k. unfold m. clear - Hc. assert (Hq := Z.div_mod (i - j - c - 1) (- c) ltac:(lia)). assert (Hr := Z.mod_pos_bound (i - j - c - 1) (- c) ltac:(lia)).
    set (q := ((i - j - c - 1) / - c)%Z) in *. set (r := ((i - j - c - 1) mod - c)%Z) in *. split; intros H; nia. }
  clearbody m. intros k. cbv zeta. destruct l as [|d l0].
  { assert (i <= -1)%Z by (cbn in n; lia). assert (m = 0)%nat by (destruct m as [|m]; [reflexivity|]; assert (X := proj1 (Hm 0%nat) ltac:(lia)); lia). subst m. cbn [seq map flat_map].
    destruct (Z.ltb_spec j (i + Z.of_nat k * c)); [nia|]. now destruct k. }
  rewrite (flat_one _ (fun z => nth (Z.to_nat z) (d :: l0) d)).
  - rewrite map_map, nth_error_map. destruct (Z.ltb_spec j (i + Z.of_nat k * c)) as [H|H].
    + assert (Hk := proj2 (Hm k) H). rewrite (nth_error_nth' _ 0%nat) by (now rewrite seq_length). rewrite seq_nth by exact Hk. cbn [option_map Nat.add]. symmetry. apply nth_error_nth'. fold n. nia.
    + assert (Hk : (m <= k)%nat) by (destruct (Nat.lt_ge_cases k m) as [X|X]; [apply Hm in X; lia|exact X]). rewrite (proj2 (nth_error_None (seq 0 m) k)); [reflexivity|now rewrite seq_length].
  - intros x Hx. apply in_map_iff in Hx as [y [<- Hy]]. apply in_seq in Hy. assert (X := proj1 (Hm y) ltac:(lia)). unfold pick. rewrite (nth_error_nth' _ d) by (fold n; nia). reflexivity.
Qed.

Section Slices.
  Context (muB : num Exact) (orc : nat -> oracle) (OK : forall n, oracle_ok (orc n)).
  (** [r] lists the levels by rank: [levels[i]] is the i-th of [r]. *)
  Definition ranked (s : st Exact) (r : list nat) : Prop :=
    List.length r = level_len Exact s /\ forall i, (i < List.length r)%nat -> exists b, nth_error r i = Some b /\ levels_get_int Exact muB (Z.of_nat i) s = (Ok b, s).
  Lemma ranked_by : forall s, reachable Exact muB orc s -> exists r, by_energy Exact muB s = Some r /\ ranked s r /\ Permutation r (level_values Exact s) /\
    StronglySorted (fun b c => forall eb ec, energy Exact muB s b = Some eb -> energy Exact muB s c = Some ec -> (eb <= ec)%Qc) r.
  Proof.
    intros s R. destruct (levels_by_energy muB orc OK s R) as [r [P [S [_ [G1 G2]]]]]. exists r. split; [|split; [|split; [exact P|exact S]]].
    - destruct (by_energy Exact muB s) as [l|] eqn:B.
      + f_equal. apply nth_ext_list. intros i. assert (L : levels_get_int Exact muB (Z.of_nat i) s = (match nth_error l i with Some x => Ok x | None => Raise IndexError end, s)).
        { unfold levels_get_int, bind, asks. rewrite B. unfold py_nth. assert (Hz : (Z.of_nat i <? 0)%Z = false) by (apply Z.ltb_ge; lia). rewrite !Hz, Nat2Z.id. destruct (nth_error l i); reflexivity. }
        destruct (Nat.lt_ge_cases i (List.length r)) as [Hi|Hi].
        * destruct (G1 i Hi) as [b [Eb [Lb _]]]. rewrite L in Lb. rewrite Eb. apply (f_equal fst) in Lb. cbn [fst] in Lb. destruct (nth_error l i); [congruence|discriminate].
        * rewrite (proj2 (nth_error_None r i)) by lia. assert (X := G2 (Z.of_nat i) (or_intror (proj1 (Nat2Z.inj_le _ _) Hi))). rewrite L in X. apply (f_equal fst) in X. cbn [fst] in X. destruct (nth_error l i); [discriminate|reflexivity].
      + exfalso. assert (L : forall i, levels_get_int Exact muB i s = (Raise Dangling, s)) by (intros i; unfold levels_get_int, bind, asks; now rewrite B).
        assert (X := G2 (Z.of_nat (List.length r)) (or_intror (Z.le_refl _))). rewrite L in X. discriminate.
    - split; [unfold level_len; rewrite (Permutation_length P); unfold level_values, dvals; now rewrite map_length|]. intros i Hi. destruct (G1 i Hi) as [b [Eb [Lb _]]]. exists b. auto.
  Qed.
  Lemma slice_at : forall s r sl, by_energy Exact muB s = Some r -> levels_slice Exact muB sl s = (py_slice r sl, s).
  Proof. intros s r sl B. unfold levels_slice, bind, asks. now rewrite B. Qed.

  (** [levels[:]] lists all levels by energy; [levels[i]] is its i-th. *)
  Theorem C98_all : forall s, reachable Exact muB orc s -> exists r, levels_slice Exact muB (mkSlice None None None) s = (Ok r, s) /\ ranked s r /\
    Permutation r (level_values Exact s) /\
    StronglySorted (fun b c => forall eb ec, energy Exact muB s b = Some eb -> energy Exact muB s c = Some ec -> (eb <= ec)%Qc) r.
  Proof.
    intros s R. destruct (ranked_by s R) as [r [B [K [P S]]]]. exists r. split; [|auto]. rewrite (slice_at s r _ B), slice_plain. cbn [cutoff]. cbv zeta. now rewrite Nat.sub_0_r, firstn_all.
  Qed.
  (** Every plain slice is the part of it between the two bounds. *)
  Theorem C98_part : forall s a b r, reachable Exact muB orc s -> ranked s r ->
    levels_slice Exact muB (mkSlice a b None) s =
      (Ok (let n := List.length r in let i := cutoff n a 0 in let j := cutoff n b n in firstn (j - i) (skipn i r)), s).
  Proof.
    intros s a b r R [L K]. destruct (ranked_by s R) as [r' [B [[L' K'] _]]]. rewrite (slice_at s r' _ B), slice_plain.
    assert (r' = r) as ->; [|reflexivity]. apply nth_ext_list. intros i. destruct (Nat.lt_ge_cases i (List.length r)) as [Hi|Hi].
    - destruct (K i Hi) as [x [Ex Lx]]. destruct (K' i ltac:(lia)) as [y [Ey Ly]]. rewrite Ex, Ey. rewrite Lx in Ly. apply (f_equal fst) in Ly. cbn in Ly. congruence.
    - rewrite (proj2 (nth_error_None r i)) by lia. apply nth_error_None. lia.
  Qed.
  (** Cutting anywhere, also at a negative or too large position, loses nothing
      and repeats nothing. *)
  Theorem C98_cut : forall s k, reachable Exact muB orc s -> exists u v,
    levels_slice Exact muB (mkSlice None (Some k) None) s = (Ok u, s) /\ levels_slice Exact muB (mkSlice (Some k) None None) s = (Ok v, s) /\
    levels_slice Exact muB (mkSlice None None None) s = (Ok (u ++ v), s).
  Proof.
    intros s k R. destruct (ranked_by s R) as [r [B [K _]]]. rewrite !(slice_at s r _ B), !slice_plain. cbn [cutoff]. cbv zeta. cbn [skipn].
    set (p := place (List.length r) k). exists (firstn p r), (skipn p r). rewrite !Nat.sub_0_r.
    assert (Hp : (p <= List.length r)%nat) by (unfold p, place; destruct (Z.ltb_spec k 0); lia). split; [reflexivity|]. split.
    - do 2 f_equal. apply firstn_all2. rewrite skipn_length. lia.
    - now rewrite firstn_all, firstn_skipn.
  Qed.
  (** [levels[::-1]] is the same list backwards. *)
  Theorem C98_back : forall s r, reachable Exact muB orc s -> levels_slice Exact muB (mkSlice None None None) s = (Ok r, s) ->
    levels_slice Exact muB (mkSlice None None (Some (-1)%Z)) s = (Ok (rev r), s).
  Proof.
    intros s r R E. destruct (C98_all s R) as [r0 [E0 _]]. assert (r0 = r) by congruence. subst r0. destruct (ranked_by s R) as [r' [B _]].
    rewrite (slice_at s r' _ B) in E. rewrite (slice_at s r' _ B), slice_back. rewrite slice_plain in E. cbn [cutoff] in E. cbv zeta in E. rewrite Nat.sub_0_r in E. cbn [skipn] in E. rewrite firstn_all in E. congruence.
  Qed.
  (** With a step [c > 0] the k-th element is that of rank start plus k times
      [c], for as long as this stays below the stop. *)
  Theorem C98_step : forall s a b c r, reachable Exact muB orc s -> (0 < c)%Z -> levels_slice Exact muB (mkSlice None None None) s = (Ok r, s) ->
    exists r', levels_slice Exact muB (mkSlice a b (Some c)) s = (Ok r', s) /\
      let n := List.length r in
      forall k, let p := (cutoff n a 0 + k * Z.to_nat c)%nat in nth_error r' k = if (p <? cutoff n b n)%nat then nth_error r p else None.
  Proof.
    intros s a b c r R Hc E. destruct (ranked_by s R) as [r0 [B _]]. rewrite (slice_at s r0 _ B) in E. rewrite (slice_at s r0 _ B).
    rewrite slice_plain in E. cbn [cutoff] in E. cbv zeta in E. rewrite Nat.sub_0_r in E. cbn [skipn] in E. rewrite firstn_all in E. assert (r0 = r) by congruence. subst r0.
    destruct (slice_step r a b c Hc) as [r' [E' K]]. exists r'. rewrite E'. auto.
  Qed.
  (** With a step [c < 0] the k-th element is that of rank start plus k times
      [c], for as long as this stays above the stop. *)
  Theorem C98_down : forall s a b c r, reachable Exact muB orc s -> (c < 0)%Z -> levels_slice Exact muB (mkSlice None None None) s = (Ok r, s) ->
    exists r', levels_slice Exact muB (mkSlice a b (Some c)) s = (Ok r', s) /\
      let n := List.length r in
      forall k, let p := (rank_down n a (Z.of_nat n - 1) + Z.of_nat k * c)%Z in nth_error r' k = if (rank_down n b (-1) <? p)%Z then nth_error r (Z.to_nat p) else None.
  Proof.
    intros s a b c r R Hc E. destruct (ranked_by s R) as [r0 [B _]]. rewrite (slice_at s r0 _ B) in E. rewrite (slice_at s r0 _ B).
    rewrite slice_plain in E. cbn [cutoff] in E. cbv zeta in E. rewrite Nat.sub_0_r in E. cbn [skipn] in E. rewrite firstn_all in E. assert (r0 = r) by congruence. subst r0.
    destruct (slice_down r a b c Hc) as [r' [E' K]]. exists r'. rewrite E'. auto.
  Qed.
  (** There is no step 0. *)
  Theorem C98_zero : forall s a b, reachable Exact muB orc s -> levels_slice Exact muB (mkSlice a b (Some 0%Z)) s = (Raise ValueError, s).
  Proof. intros s a b R. destruct (ranked_by s R) as [r0 [B _]]. rewrite (slice_at s r0 _ B). reflexivity. Qed.
End Slices.
Print Assumptions C98_down.
Print Assumptions C98_zero.
Print Assumptions C98_step.
Print Assumptions C98_all.
Print Assumptions C98_part.
Print Assumptions C98_cut.
Print Assumptions C98_back.
Example C98_case :
  let s := runx (from 1) [nl tP 10; add 0; nl tS 0; add 1; nl tQ 5; add 2] in
  let sl a b c := fst (levels_slice Exact 1%Qc (mkSlice a b c) s) in
  sl None None None = Ok [1; 2; 0]%nat /\ sl (Some 1%Z) None None = Ok [2; 0]%nat /\ sl (Some (-1)%Z) (Some 7%Z) None = Ok [0]%nat /\
  sl None (Some (-5)%Z) None = Ok [] /\ sl None None (Some (-1)%Z) = Ok [0; 2; 1]%nat /\ sl None None (Some 2%Z) = Ok [1; 0]%nat /\ sl None None (Some 0%Z) = Raise ValueError /\
  sl (Some 9%Z) None (Some (-2)%Z) = Ok [0; 1]%nat /\ sl None (Some (-3)%Z) (Some (-2)%Z) = Ok [0]%nat.
Proof. vm_compute. repeat match goal with |- _ /\ _ => split end; reflexivity. Qed.

(** ** C100: an atom made from lists of levels and transitions *)

Section Init.
  Context (N : Num) (muB : num N) (orc : nat -> oracle) (OK : forall n, oracle_ok (orc n)).
  Notation st := (st N).
  Implicit Types (s : st).
  Definition given (ls : list nat) : list (nat * bool * option string) := map (fun a => (a, false, None)) ls.
  (** The name and the alias of an object. *)
  Definition named s (ls : list nat) : list (string * nat) := flat_map (fun a => match lv s a with Some l => [(lname l, a)] | None => [] end) ls.
  Definition aliased s (ls : list nat) : list (string * nat) :=
    flat_map (fun a => match lv s a with Some l => match l_alias l with Some al => [(al, a)] | None => [] end | None => [] end) ls.
  (** The names of the two ends of a transition, with the transition. *)
  Definition ends s (ts : list nat) : list (string * string * nat) :=
    flat_map (fun t => match tr s t with Some x => match nm s (x_lo x), nm s (x_up x) with Some u, Some v => [(u, v, t)] | _, _ => [] end | None => [] end) ts.
  Definition talias s (ts : list nat) : list (string * nat) :=
    flat_map (fun t => match tr s t with Some x => match x_alias x with Some al => [(al, t)] | None => [] end | None => [] end) ts.
  Definition bound_to {V} (ps : list (string * V)) (d : dict string V) : dict string V := fold_left (fun d p => dset (fst p) (snd p) d) ps d.
  Definition a_level s (a : nat) : Prop := exists l, lv s a = Some l /\ l_kind l = LE.
  (** A transition between levels, without sublevel transitions and without a
      set frequency. *)
  Definition a_transition s (t : nat) : Prop := exists x, tr s t = Some x /\ x_kind x = TT /\ x_subs x = [] /\ x_set x = None.

  Lemma reachable_runs : forall os s, reachable N muB orc s -> reachable N muB orc (run N muB orc s os).
  Proof. intros os s [i [b [os' [H E]]]]. exists i, b, (os' ++ os). split; [exact H|]. rewrite E. unfold run. now rewrite fold_left_app. Qed.
  Lemma init_levels : forall ls s, WF s -> Forall (a_level s) ls ->
    exists s', forM ls (fun a => void N (add_level N a false None)) s = (Ok tt, s') /\ WF s' /\ ext s s' /\ s' = run N muB orc s (adds N (given ls)) /\
      s_trans s' = s_trans s /\ s_tal s' = s_tal s /\ s_lal s' = bound_to (aliased s ls) (s_lal s) /\ forall u v, edge (s_g0 s') u v = edge (s_g0 s) u v.
  Proof.
    induction ls as [|a ls IH]; intros s W F; [exists s; split; [reflexivity|]; split; [exact W|]; split; [apply ext_refl|]; repeat split|]. destruct (Forall_inv F) as [l [V K]]. assert (F' := Forall_inv_tail F).
    destruct (add_level_ok N s a l false None W V) as [s1 [E1 [W1 [X1 A1]]]].
    assert (F1 : Forall (a_level s1) ls).
    { rewrite Forall_forall in *. intros b Hb. destruct (F' b Hb) as [lb [Vb Kb]]. destruct (ext_lv _ _ _ X1 _ _ Vb) as [lb' [Vb' S']]. exists lb'. split; [exact Vb'|]. destruct S' as [-> _]. exact Kb. }
    destruct (IH s1 W1 F1) as [s' [E' [W' [X' [R' [T' [Ta' [La' Ed']]]]]]]]. exists s'.
    assert (Al : aliased s1 ls = aliased s ls).
    { unfold aliased. rewrite !flat_map_concat_map. f_equal. apply map_ext_in. intros b Hb. rewrite Forall_forall in F'. destruct (F' b Hb) as [lb [Vb Kb]]. rewrite Vb.
      destruct (Nat.eq_dec b a) as [Ha|Nb]; [subst b|].
      - destruct (ad_lv _ _ _ _ _ _ _ A1) as [l' [Vl' El']]. rewrite Vl'. assert (lb = l) by congruence. subst lb. rewrite El'. reflexivity.
      - destruct (ad_other _ _ _ _ _ _ _ A1 b lb Nb Vb) as [lb' [Vb' [Eb' _]]]. rewrite Vb', Eb'. reflexivity. }
    assert (St : void N (add_level N a false None) s = (Ok tt, s1)) by (unfold void, bind; rewrite E1; reflexivity).
    split; [cbn [forM]; unfold bind; rewrite St; exact E'|]. split; [exact W'|]. split; [eapply ext_trans; eassumption|]. split; [|split; [|split; [|split]]].
    - rewrite R'. cbn [given map adds]. unfold run at 2. cbn [fold_left]. fold (given ls). f_equal. unfold step. cbn [run_op fst snd]. now rewrite St.
    - rewrite T'. apply A1.
    - rewrite Ta'. apply A1.
    - rewrite La', Al, (ad_lal _ _ _ _ _ _ _ A1). unfold aliased at 2. cbn [flat_map]. rewrite V. unfold bound_to. rewrite fold_left_app. fold (aliased s ls). destruct (l_alias l); reflexivity.
    - intros u v. rewrite Ed', (ad_g0 _ _ _ _ _ _ _ A1), K. apply add_node_edge. apply (wf_g _ _ W LE).
  Qed.
  Lemma init_trans : forall ts s, WF s -> Forall (a_transition s) ts ->
    exists s', forM ts (fun t => void N (add_transition N muB orc (TObj t) None None None)) s = (Ok tt, s') /\ WF s' /\ s_levels s' = s_levels s /\
      node_attrs (s_g0 s') = node_attrs (s_g0 s) /\ s_lal s' = s_lal s /\ s_tal s' = bound_to (talias s ts) (s_tal s) /\
      (exists os, s' = run N muB orc s os) /\
      (forall t, In t ts -> exists x, tr s t = Some x /\ tr s' t = Some (tr_set_attached true x)) /\ (forall t, ~ In t ts -> tr s' t = tr s t) /\
      forall u v, edge (s_g0 s') u v = last_between u v (ends s ts) (edge (s_g0 s) u v).
  Proof.
    induction ts as [|t ts IH]; intros s W F.
    { exists s. split; [reflexivity|]. split; [exact W|]. split; [reflexivity|]. split; [reflexivity|]. split; [reflexivity|]. split; [reflexivity|]. split; [now exists []|]. split; [intros ? []|]. split; reflexivity. }
    destruct (Forall_inv F) as [x [V [Kx [Sx Se]]]]. assert (F' := Forall_inv_tail F). destruct (tr_joined_spec _ s t x W V) as [W0 [X0 [L0 [T0 [La0 [Ta0 [I0 [B0 _]]]]]]]].
    set (s0 := tr_joined s t x) in *.
    set (s1 := match x_alias x with Some al => set_tal (dset al t (s_tal s0)) s0 | None => s0 end).
    assert (E1 : void N (add_transition N muB orc (TObj t) None None None) s = (Ok tt, s1)).
    { unfold void, add_transition. unfold bind at 1 2 3. unfold ret at 1. cbn beta iota. rewrite (tr_add_eq _ _ _ _ W V), Sx. fold s0. unfold bind, get_tr, asks. rewrite T0, Nat.eqb_refl, V. cbn [option_map]. cbn [x_alias x_set tr_set_attached].
      unfold s1. destruct (x_alias x); cbn [modify]; rewrite Se; reflexivity. }
    assert (Lv1 : s_levels s1 = s_levels s) by (unfold s1; destruct (x_alias x); exact L0).
    assert (G1 : s_g0 s1 = s_g0 s0) by (unfold s1; destruct (x_alias x); reflexivity).
    assert (Tr1 : forall c, tr s1 c = tr s0 c) by (unfold s1; destruct (x_alias x); reflexivity).
    assert (R1 : s1 = run N muB orc s [OAddTransition N (TObj t) None None None]) by (unfold run; cbn [fold_left]; unfold step; cbn [run_op]; now rewrite E1).
    assert (W1 : WF s1) by (rewrite R1; apply (run_WF N muB orc OK); exact W).
    assert (Nm1 : forall b, nm s1 b = nm s b) by (intros b; unfold nm, lv; now rewrite Lv1).
    assert (F1 : Forall (a_transition s1) ts).
    { rewrite Forall_forall in *. intros c Hc. destruct (F' c Hc) as [y [Vy [Ky [Sy Sy']]]]. unfold a_transition. rewrite Tr1, T0, Vy. destruct (Nat.eqb t c); cbn [option_map]; eexists; (split; [reflexivity|]); auto. }
    assert (Lo : forall c y1, tr s1 c = Some y1 -> exists y, tr s c = Some y /\ x_lo y1 = x_lo y /\ x_up y1 = x_up y /\ x_alias y1 = x_alias y).
    { intros c y1 H. rewrite Tr1, T0 in H. destruct (tr s c) as [y|]; destruct (Nat.eqb t c); cbn [option_map] in H; try discriminate; exists y; (split; [reflexivity|]); apply (f_equal (fun o => match o with Some z => z | None => y end)) in H; cbn in H; subst y1; auto. }
    assert (Nx : forall c, tr s c = None -> tr s1 c = None) by (intros c H; rewrite Tr1, T0, H; now destruct (Nat.eqb t c)).
    assert (Es : ends s1 ts = ends s ts /\ talias s1 ts = talias s ts).
    { unfold ends, talias. rewrite !flat_map_concat_map. split; f_equal; apply map_ext; intros c.
      - destruct (tr s1 c) as [y1|] eqn:Vc; [destruct (Lo c y1 Vc) as [y [-> [-> [-> _]]]]; now rewrite !Nm1|].
        destruct (tr s c) as [y|] eqn:Vc'; [|reflexivity]. exfalso. rewrite Tr1, T0, Vc' in Vc. destruct (Nat.eqb t c); discriminate.
      - destruct (tr s1 c) as [y1|] eqn:Vc; [destruct (Lo c y1 Vc) as [y [-> [_ [_ ->]]]]; reflexivity|].
        destruct (tr s c) as [y|] eqn:Vc'; [|reflexivity]. exfalso. rewrite Tr1, T0, Vc' in Vc. destruct (Nat.eqb t c); discriminate. }
    destruct Es as [Es Ts].
    destruct (static_ends _ _ _ (wf_tr _ _ W _ _ V)) as [lo [up [Vlo [Vup _]]]].
    destruct (IH s1 W1 F1) as [s' [E' [W' [L' [Na' [La' [Ta' [[os R'] [Tin' [Tout' Ed']]]]]]]]]]. exists s'.
    split; [cbn [forM]; unfold bind; rewrite E1; exact E'|]. split; [exact W'|]. split; [congruence|].
    split; [|split; [|split; [|split; [|split; [|split]]]]].
    - rewrite Na', G1. unfold s0, tr_joined. now rewrite put_edge_attrs.
    - rewrite La'. unfold s1. destruct (x_alias x); exact La0.
    - rewrite Ta', Ts. unfold talias at 2. cbn [flat_map]. rewrite V. unfold bound_to. rewrite fold_left_app. fold (talias s ts). unfold s1. destruct (x_alias x); cbn [fold_left fst snd s_tal set_tal]; now rewrite <- Ta0.
    - exists (OAddTransition N (TObj t) None None None :: os). rewrite R', R1. reflexivity.
    - intros c [->|Hc].
      + exists x. split; [exact V|]. destruct (in_dec Nat.eq_dec c ts) as [Hi|Hi].
        * destruct (Tin' c Hi) as [y [Vy Vy']]. rewrite Vy'. rewrite Tr1, T0, Nat.eqb_refl, V in Vy. apply (f_equal (fun o => match o with Some z => z | None => x end)) in Vy. cbn in Vy. subst y. reflexivity.
        * rewrite (Tout' c Hi), Tr1, T0, Nat.eqb_refl, V. reflexivity.
      + destruct (Tin' c Hc) as [y [Vy Vy']]. rewrite Vy'. rewrite Tr1, T0 in Vy. destruct (Nat.eqb t c); [|exists y; auto].
        destruct (tr s c) as [z|]; [|discriminate]. exists z. split; [reflexivity|]. apply (f_equal (fun o => match o with Some z => z | None => x end)) in Vy. cbn in Vy. subst y. reflexivity.
    - intros c Hc. rewrite Tout' by (intros X; apply Hc; now right). rewrite Tr1, T0. destruct (Nat.eqb_spec t c) as [<-|]; [exfalso; apply Hc; now left|reflexivity].
    - intros u v. rewrite Ed', Es. unfold ends at 2. cbn [flat_map]. rewrite V. unfold nm. rewrite Vlo, Vup. cbn [option_map]. cbn [app]. unfold last_between at 2. cbn [fold_left fst snd]. fold (ends s ts). unfold last_between. f_equal.
      rewrite G1. unfold s0, tr_joined, put_edge. change (x_lo (tr_set_attached true x)) with (x_lo x). change (x_up (tr_set_attached true x)) with (x_up x). change (x_kind (tr_set_attached true x)) with (x_kind x).
      assert (Nl : nm (upd_tr t (tr_set_attached true) s) (x_lo x) = Some (lname lo)) by (change (nm s (x_lo x) = Some (lname lo)); unfold nm; now rewrite Vlo).
      assert (Nu : nm (upd_tr t (tr_set_attached true) s) (x_up x) = Some (lname up)) by (change (nm s (x_up x) = Some (lname up)); unfold nm; now rewrite Vup).
      rewrite Nl, Nu, Kx. cbn [lk graph_of set_graph s_g0]. change (s_g0 (upd_tr t (tr_set_attached true) s)) with (s_g0 s). apply add_edge_edge. apply (wf_g _ _ W LE).
  Qed.

  (** [transitions.append(t)]: [t] becomes the transition between its levels, in
      either order of them, is listed, and nothing else changes between levels. *)
  Theorem C97_append : forall s t x u v, reachable N muB orc s -> tr s t = Some x -> x_kind x = TT -> x_subs x = [] -> x_set x = None ->
    nm s (x_lo x) = Some u -> nm s (x_up x) = Some v ->
    exists s', trans_append N muB orc t s = (Ok t, s') /\ edge (s_g0 s') u v = Some t /\ edge (s_g0 s') v u = Some t /\
      In t (trans_values N s') /\ (In (u, v) (trans_keys N s') \/ In (v, u) (trans_keys N s')) /\
      (forall u' v', ~ (u' = u /\ v' = v) -> ~ (u' = v /\ v' = u) -> edge (s_g0 s') u' v' = edge (s_g0 s) u' v') /\
      level_keys N s' = level_keys N s /\ level_values N s' = level_values N s.
  Proof.
    intros s t x u v R V Kx Sx Se Nu Nv. pose proof (reachable_WF N muB orc OK s R) as W.
    assert (F : Forall (a_transition s) [t]) by (constructor; [exists x; auto|constructor]).
    destruct (init_trans [t] s W F) as [s' [E [W' [L' [Na' [_ [_ [_ [_ [_ Ed]]]]]]]]]].
    assert (Es : ends s [t] = [(u, v, t)]) by (unfold ends; cbn [flat_map]; rewrite V, Nu, Nv; reflexivity). rewrite Es in Ed.
    assert (Ep : exists t', trans_append N muB orc t s = (Ok t', s')).
    { cbn [forM] in E. unfold void in E. unfold bind in E. unfold trans_append. destruct (add_transition N muB orc (TObj t) None None None s) as [[t'|e] s1]; [|discriminate].
      exists t'. unfold ret in E. cbv beta iota in E. apply (f_equal snd) in E. cbn [snd] in E. now rewrite E. }
    destruct Ep as [t' Ep].
    assert (t' = t).
    { revert Ep. unfold trans_append, add_transition. unfold bind at 1 2. unfold ret at 1. cbv beta iota. destruct (tr_add_to_atom N t s) as [[[]|e] s1]; [|discriminate].
      unfold bind. destruct (get_tr t s1) as [[y|e] s2]; [|discriminate]. destruct (x_alias y); destruct (x_set y); cbn [modify ret]; try (destruct (enforce _ _ _ _ _) as [[?|?] ?]);
      intros H; apply (f_equal (fun p => match fst p with Ok c => Some c | Raise _ => None end)) in H; cbn [fst ret] in H; congruence. }
    subst t'. exists s'. split; [exact Ep|].
    assert (E1 : edge (s_g0 s') u v = Some t) by (rewrite Ed; unfold last_between; cbn [fold_left fst snd]; now rewrite !String.eqb_refl).
    pose proof (go_wf _ _ _ _ (wf_g _ _ W' LE)) as Wg. cbn [graph_of] in Wg.
    assert (E2 : edge (s_g0 s') v u = Some t) by (now apply (gw_sym _ Wg)).
    split; [exact E1|]. split; [exact E2|].
    assert (I : In ((u, v), t) (edge_attrs (s_g0 s')) \/ In ((v, u), t) (edge_attrs (s_g0 s'))).
    { rewrite !edge_attrs_In by exact Wg. destruct (before_total u v (dkeys (g_nodes (s_g0 s')))); auto.
      - destruct (dget u (g_nodes (s_g0 s'))) eqn:D; [apply dget_Some_key; eauto|exfalso; exact (edge_node _ _ _ _ Wg E1 D)].
      - destruct (dget v (g_nodes (s_g0 s'))) eqn:D; [apply dget_Some_key; eauto|exfalso; exact (edge_node _ _ _ _ Wg E2 D)]. }
    split; [unfold trans_values, dvals; apply in_map_iff; destruct I as [I|I]; [exists ((u, v), t)|exists ((v, u), t)]; auto|].
    split; [unfold trans_keys, dkeys; destruct I as [I|I]; [left|right]; apply in_map_iff; eexists; split; try exact I; reflexivity|].
    split; [|unfold level_keys, level_values; now rewrite Na'].
    intros u' v' N1 N2. rewrite Ed. unfold last_between. cbn [fold_left fst snd].
    destruct (String.eqb_spec u' u), (String.eqb_spec v' v); cbn [andb orb]; try (exfalso; tauto);
    destruct (String.eqb_spec u' v), (String.eqb_spec v' u); cbn [andb orb]; try (exfalso; tauto); reflexivity.
  Qed.

  (** An atom made from lists contains exactly the given levels, by name and by
      alias, and exactly the given transitions, the later of two with the same
      ends or the same alias. *)
  Theorem C100_partial : forall s ls ts, reachable N muB orc s -> s_g0 s = g_empty -> Forall (a_level s) ls -> Forall (a_transition s) ts ->
    exists s', atom_init N muB orc ls ts s = (Ok tt, s') /\ reachable N muB orc s' /\
      level_keys N s' = first_seen (map fst (named s ls)) /\
      (forall k, dget k (node_attrs (s_g0 s')) = last_for k (named s ls)) /\
      s_lal s' = bound_to (aliased s ls) (s_lal s) /\
      (forall u v, edge (s_g0 s') u v = last_between u v (ends s ts) None) /\
      s_tal s' = bound_to (talias s ts) (s_tal s) /\
      (forall t, In t ts -> exists x, tr s t = Some x /\ tr s' t = Some (tr_set_attached true x)) /\
      (forall t, ~ In t ts -> tr s' t = tr s t).
  Proof.
    intros s ls ts R E F1 F2. assert (W := reachable_WF N muB orc OK s R).
    destruct (init_levels ls s W F1) as [s1 [E1 [W1 [X1 [R1 [T1 [Ta1 [La1 Ed1]]]]]]]].
    assert (Tr1 : forall c, tr s1 c = tr s c) by (intros c; unfold tr; now rewrite T1).
    assert (Hq : forall q, In q (given ls) -> lv s (fst (fst q)) <> None).
    { intros q Hq. apply in_map_iff in Hq. destruct Hq as [a [<- Ha]]. cbn [fst]. rewrite Forall_forall in F1. destruct (F1 a Ha) as [l [V _]]. rewrite V. discriminate. }
    destruct (adds_ok N muB orc OK s (given ls) W E Hq) as [Hk Hd]. rewrite <- R1 in Hk, Hd.
    assert (Nd : additions N s (given ls) = named s ls).
    { unfold additions, named, given. rewrite !flat_map_concat_map, map_map. f_equal. apply map_ext_in. intros a Ha. cbn [fst]. rewrite Forall_forall in F1. destruct (F1 a Ha) as [l [-> ->]]. reflexivity. }
    rewrite Nd in Hk, Hd.
    assert (F2' : Forall (a_transition s1) ts) by (rewrite Forall_forall in *; intros t Ht; unfold a_transition; rewrite Tr1; now apply F2).
    destruct (init_trans ts s1 W1 F2') as [s' [E' [W' [L' [Na' [La' [Ta' [[os R'] [Tin [Tout Ed]]]]]]]]]]. exists s'.
    assert (Es : ends s1 ts = ends s ts).
    { unfold ends. rewrite !flat_map_concat_map. f_equal. apply map_ext_in. intros c Hc. rewrite Tr1. rewrite Forall_forall in F2. destruct (F2 c Hc) as [x [V _]]. rewrite V.
      destruct (static_ends _ _ _ (wf_tr _ _ W _ _ V)) as [lo [up [Vlo [Vup _]]]]. unfold nm. rewrite Vlo, Vup.
      destruct (ext_lv _ _ _ X1 _ _ Vlo) as [lo' [-> Sl]]. destruct (ext_lv _ _ _ X1 _ _ Vup) as [up' [-> Su]]. cbn [option_map].
      now rewrite (proj1 (proj2 (lsame_names _ _ _ Sl))), (proj1 (proj2 (lsame_names _ _ _ Su))). }
    assert (Ts : talias s1 ts = talias s ts) by (unfold talias; rewrite !flat_map_concat_map; f_equal; apply map_ext; intros c; now rewrite Tr1).
    split; [unfold atom_init; unfold bind; rewrite E1; exact E'|]. split.
    { rewrite R', R1. apply reachable_runs, reachable_runs, R. }
    split; [unfold level_keys; now rewrite Na'|]. split; [intros k; now rewrite Na'|]. split; [now rewrite La'|]. split.
    { intros u v. rewrite Ed, Es, Ed1, E. reflexivity. }
    split; [now rewrite Ta', Ts, Ta1|]. split.
    - intros t Ht. destruct (Tin t Ht) as [x [Vx Vx']]. exists x. rewrite Tr1 in Vx. auto.
    - intros t Ht. rewrite (Tout t Ht). apply Tr1.
  Qed.
End Init.
Print Assumptions C97_append.
(** A transition made before its levels are added is appended. *)
Example C97_append_case : let s := runx (from 1) [nl tS 0; nl tP 10; ONewTransition Exact 0 1 None None None; add 0; add 1] in
  let r := trans_append Exact 1%Qc plain 0 s in reachable Exact 1%Qc plain s /\
  option_map (fun x => (x_kind x, x_subs x, x_lo x, x_up x)) (tr s 0) = Some (TT, [], 0, 1)%nat /\ trans_keys Exact s = [] /\
  fst r = Ok 0%nat /\ trans_values Exact (snd r) = [0]%nat /\ trans_keys Exact (snd r) = [("6s 2S1/2", "6p 2P*1/2")]%string.
Proof. cbv zeta. split; [apply from_reachable; lia|]. do 4 (split; [vm_compute; reflexivity|]). vm_compute. reflexivity. Qed.
Print Assumptions C100_partial.
Definition made : st Exact := runx (from 1) [nl tS 0; nl tP 10; nl tQ 20; ONewTransition Exact 0 1 None None None; ONewTransition Exact 0 2 None None (Some "D2"%string)].
Lemma made_reachable : reachable Exact 1%Qc plain made.
Proof. apply from_reachable; lia. Qed.
Example C100_case : s_g0 made = g_empty /\ (forallb (fun a => match lv made a with Some l => if lkind_eq_dec (l_kind l) LE then true else false | None => false end) [2; 0; 1]%nat &&
    forallb (fun t => match tr made t with Some x => match x_kind x, x_subs x, x_set x with TT, [], None => true | _, _, _ => false end | None => false end) [0; 1]%nat = true) /\
  let s' := snd (atom_init Exact 1%Qc plain [2; 0; 1]%nat [0; 1]%nat made) in
  level_keys Exact s' = ["6p 2P*3/2"; "6s 2S1/2"; "6p 2P*1/2"]%string /\ edge (s_g0 s') "6p 2P*1/2" "6s 2S1/2" = Some 0%nat /\ edge (s_g0 s') "6p 2P*3/2" "6p 2P*1/2" = None /\
  dget "D2"%string (s_tal s') = Some 1%nat.
Proof. vm_compute. repeat match goal with |- _ /\ _ => split end; reflexivity. Qed.
(** The levels of a given transition are not added with it. *)
Theorem C100_refuted : exists s ts, reachable Exact 1%Qc plain s /\ s_g0 s = g_empty /\
  fst (atom_init Exact 1%Qc plain [] ts s) = Ok tt /\ let s' := snd (atom_init Exact 1%Qc plain [] ts s) in trans_len Exact s' = 1%nat /\ level_len Exact s' = 0%nat.
Proof. exists made, [0%nat]. split; [apply made_reachable|]. vm_compute. repeat match goal with |- _ /\ _ => split end; reflexivity. Qed.
Print Assumptions C100_refuted.
