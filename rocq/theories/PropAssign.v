(** Property C139: assigning sublevels and lines (atom.py:200-202, 677-678). *)
From Coq Require Import List Bool ZArith QArith Qcanon Lia String Ascii Permutation.
From Verif Require Import Base PyStr Util UtilProofs Parse Term TermProofs Num Wigner Hyperfine HyperfineProofs
  Graph GraphProofs DfsProofs Rules Atom AtomInv AtomSafe AtomSafe2 AtomSafe3 AtomSafe4 AtomSafe5 AtomSafe6 AtomLevels
  AtomExample DictView PropDictView.
Import ListNotations.
Local Open Scope nat_scope.
Local Open Scope string_scope.

Section Assign.
  Context (N : Num) (muB : N).
  Notation st := (st N).
  Notation level := (level N).
  Notation trans := (trans N).
  Notation M := (M N).
  Notation energy := (energy N muB).
  Implicit Types (s : st) (l : level) (x y : trans) (a : nat) (t : nat).

  Lemma dset_ne {K V} `{Eqb K} : forall (k : K) (v : V) d, dset k v d <> [].
  Proof. intros k v [|[k' v'] d]; cbn; [discriminate|]. destruct (keqb k k'); discriminate. Qed.

  (** [level[key] = b] where the sublevels of the level have been read: [b] is
      then found under the key, the other keys lead where they did, [b] has the
      level as its parent, and no other record, graph or energy changes. *)
  Theorem C139_sublevel_partial : forall s a l b lb key, lv s a = Some l -> l_subs l <> [] -> lv s b = Some lb -> b <> a ->
    (s_I s = 0%Z -> contains "mJ" key = false) ->
    exists s2 kvs, lv_setitem N a key b s = (Ok tt, s2) /\ lv_items N a s2 = (Ok kvs, s2) /\
      getitem N a key s2 = (Ok b, s2) /\
      (forall k, k <> key -> (s_I s = 0%Z -> contains "mJ" k = false) -> (forall c, getitem N a k s2 = (Ok c, s2) <-> getitem N a k s = (Ok c, s))) /\
      (forall k c, NoDup (map fst (l_subs l)) -> (In (k, c) kvs <-> (k = key /\ c = b) \/ (k <> key /\ In (k, c) (l_subs l)))) /\
      (exists lb', lv s2 b = Some lb' /\ l_parent lb' = Some a /\ l_term lb' = l_term lb /\ l_kind lb' = l_kind lb /\ l_attached lb' = l_attached lb /\
         l_alias lb' = l_alias lb /\ l_fixed lb' = l_fixed lb /\ l_subs lb' = l_subs lb /\ l_E lb' = l_E lb /\ l_hfA lb' = l_hfA lb /\ l_hfB lb' = l_hfB lb /\
         l_hfC lb' = l_hfC lb /\ l_lande lb' = l_lande lb /\ l_gF lb' = l_gF lb /\ l_qz lb' = l_qz lb) /\
      (forall c, c <> a -> c <> b -> lv s2 c = lv s c) /\ (forall t, tr s2 t = tr s t) /\ (forall g, graph_of g s2 = graph_of g s) /\
      (forall c lc, lv s c = Some lc -> c <> b -> l_parent lc <> Some b -> (forall p lp, l_parent lc = Some p -> lv s p = Some lp -> l_parent lp <> Some b) ->
        energy s2 c = energy s c).
  Proof.
    intros s a l b lb key V Ne Vb D Hm.
    set (s1 := upd_lv b (lv_set_parent N (Some a)) s). set (s2 := upd_lv a (fun l => lv_set_subs (dset key b (l_subs l)) l) s1).
    assert (Lv : forall c, lv s2 c = if Nat.eqb a c then Some (lv_set_subs (dset key b (l_subs l)) l) else if Nat.eqb b c then Some (lv_set_parent N (Some a) lb) else lv s c).
    { intros c. unfold s2. rewrite lv_upd_lv. unfold s1. rewrite lv_upd_lv. destruct (Nat.eqb_spec a c) as [<-|].
      - destruct (Nat.eqb_spec b a) as [->|]; [congruence|]. rewrite V. reflexivity.
      - destruct (Nat.eqb_spec b c) as [<-|]; auto. now rewrite Vb. }
    assert (V2 : lv s2 a = Some (lv_set_subs (dset key b (l_subs l)) l)) by (rewrite Lv; now rewrite Nat.eqb_refl).
    assert (P2 : lazy_sublevels N a s2 = (Ok tt, s2)) by (apply (lazy_pure N s2 a _ V2); apply dset_ne).
    assert (P : lazy_sublevels N a s = (Ok tt, s)) by (now apply (lazy_pure N s a l)).
    assert (G : forall k, (s_I s = 0%Z -> contains "mJ" k = false) -> getitem N a k s2 = (match dget k (dset key b (l_subs l)) with Some c => Ok c | None => Raise KeyError end, s2)).
    { intros k Hk. unfold getitem. cbn [lv_getitem]. rewrite (bind_Ok _ _ _ _ _ _ P2). unfold bind, get_lv, asks, gets. rewrite V2.
      change (s_I s2) with (s_I s). replace ((s_I s =? 0)%Z && contains "mJ" k) with false.
      - cbn [l_subs lv_set_subs]. destruct (dget k _); reflexivity.
      - destruct (Z.eqb_spec (s_I s) 0); auto. now rewrite Hk. }
    assert (G0 : forall k, (s_I s = 0%Z -> contains "mJ" k = false) -> getitem N a k s = (match dget k (l_subs l) with Some c => Ok c | None => Raise KeyError end, s)).
    { intros k Hk. unfold getitem. cbn [lv_getitem]. rewrite (bind_Ok _ _ _ _ _ _ P). unfold bind, get_lv, asks, gets. rewrite V.
      replace ((s_I s =? 0)%Z && contains "mJ" k) with false.
      - destruct (dget k _); reflexivity.
      - destruct (Z.eqb_spec (s_I s) 0); auto. now rewrite Hk. }
    exists s2, (dset key b (l_subs l)). split; [reflexivity|]. split; [destruct (view_lazy N s2 a _ s2 P2 V2) as [X _]; exact X|].
    split; [rewrite G by auto; now rewrite dget_dset_eq|].
    split. { intros k Nk Hk c. rewrite G, G0 by auto. rewrite dget_dset_neq by auto. destruct (dget k (l_subs l)); split; intros E; try discriminate; f_equal; congruence. }
    split. { intros k c Nd. assert (Nd2 : NoDup (dkeys (dset key b (l_subs l)))) by (now apply NoDup_dset). split.
      - intros I. apply (In_dget_nodup _ _ _ Nd2) in I. destruct (string_dec k key) as [->|Nk].
        + rewrite dget_dset_eq in I. injection I as <-. auto.
        + rewrite dget_dset_neq in I by auto. right. split; auto. now apply dget_In.
      - intros [[-> ->]|[Nk I]]; apply dget_In; [apply dget_dset_eq|]. rewrite dget_dset_neq by auto. now apply In_dget_nodup. }
    assert (Eab : Nat.eqb a b = false) by (apply Nat.eqb_neq; congruence).
    split. { exists (lv_set_parent N (Some a) lb). split; [rewrite Lv, Eab, Nat.eqb_refl; reflexivity|]. repeat split. }
    split. { intros c Ca Cb. rewrite Lv. apply not_eq_sym, Nat.eqb_neq in Ca. apply not_eq_sym, Nat.eqb_neq in Cb. now rewrite Ca, Cb. }
    split; [reflexivity|]. split; [intros []; reflexivity|].
    assert (L0 : forall c lc, lv s c = Some lc -> c <> b -> exists d, lv s2 c = Some (lv_set_subs d lc)).
    { intros c lc Vc Cb. rewrite Lv. destruct (Nat.eqb_spec a c) as [<-|]; [rewrite V in Vc; injection Vc as <-; eauto|].
      destruct (Nat.eqb_spec b c); [congruence|]. exists (l_subs lc). rewrite Vc. f_equal. now destruct lc. }
    assert (LN : forall c, lv s c = None -> lv s2 c = None).
    { intros c Vc. rewrite Lv. destruct (Nat.eqb_spec a c); [congruence|]. destruct (Nat.eqb_spec b c); congruence. }
    assert (EE : forall c, c <> b -> energyE s2 c = energyE s c).
    { intros c Cb. unfold energyE. destruct (lv s c) as [lc|] eqn:Vc; [destruct (L0 c lc Vc Cb) as [d ->]; reflexivity|now rewrite (LN c Vc)]. }
    assert (EH : forall c lc, lv s c = Some lc -> c <> b -> l_parent lc <> Some b -> energyHF s2 c = energyHF s c).
    { intros c lc Vc Cb Pb. unfold energyHF. destruct (L0 c lc Vc Cb) as [d ->]. rewrite Vc. cbn [l_parent lv_set_subs]. destruct (l_parent lc) as [p|]; auto.
      rewrite EE by congruence. destruct (lv s p) as [lp|] eqn:Vp; [destruct (L0 p lp Vp) as [d' ->]; [congruence|reflexivity]|now rewrite (LN p Vp)]. }
    intros c lc Vc Cb Pb Pp. unfold energy. destruct (L0 c lc Vc Cb) as [d E2]. rewrite E2, Vc. cbn [l_kind lv_set_subs]. destruct (l_kind lc).
    - auto.
    - eauto.
    - unfold energyZ. rewrite E2, Vc. cbn [l_parent lv_set_subs]. destruct (l_parent lc) as [p|] eqn:Ep; auto.
      destruct (lv s p) as [lp|] eqn:Vp.
      + rewrite (EH p lp Vp); [reflexivity|congruence|eapply Pp; eauto].
      + unfold energyHF. rewrite Vp, (LN p Vp). reflexivity.
  Qed.

  (** Where they have not been read, the assigned one stays the only sublevel
      for ever: the hyperfine or Zeeman structure is not made any more. *)
  Theorem C139_unread_refuted : forall s a l b lb key, lv s a = Some l -> l_subs l = [] -> lv s b = Some lb -> b <> a ->
    exists s2, lv_setitem N a key b s = (Ok tt, s2) /\ lv_items N a s2 = (Ok [(key, b)], s2) /\
      forall k, k <> key -> (s_I s = 0%Z -> contains "mJ" k = false) -> getitem N a k s2 = (Raise KeyError, s2).
  Proof.
    intros s a l b lb key V Ne Vb D.
    set (s1 := upd_lv b (lv_set_parent N (Some a)) s). set (s2 := upd_lv a (fun l => lv_set_subs (dset key b (l_subs l)) l) s1).
    assert (V2 : lv s2 a = Some (lv_set_subs [(key, b)] l)).
    { unfold s2. rewrite lv_upd_lv, Nat.eqb_refl. unfold s1. rewrite lv_upd_lv. destruct (Nat.eqb_spec b a); [congruence|]. rewrite V. cbn [option_map]. now rewrite Ne. }
    assert (P2 : lazy_sublevels N a s2 = (Ok tt, s2)) by (apply (lazy_pure N s2 a _ V2); discriminate).
    exists s2. split; [reflexivity|]. split; [destruct (view_lazy N s2 a _ s2 P2 V2) as [X _]; exact X|].
    intros k Nk Hk. unfold getitem. cbn [lv_getitem]. rewrite (bind_Ok _ _ _ _ _ _ P2). unfold bind, get_lv, asks, gets. rewrite V2.
    change (s_I s2) with (s_I s). replace ((s_I s =? 0)%Z && contains "mJ" k) with false.
    - cbn [l_subs lv_set_subs dget]. change keqb with String.eqb. apply String.eqb_neq in Nk. now rewrite Nk.
    - destruct (Z.eqb_spec (s_I s) 0); auto. now rewrite Hk.
  Qed.

  (** [t[k] = c] where the lines have been read: [c] is then found under the key
      turned round, and under the key itself if there is no line under the key
      turned round. *)
  Theorem C139_line_partial : forall s t x k c, tr s t = Some x -> x_subs x <> [] ->
    exists s2 kvs, tr_setitem N t k c s = (Ok tt, s2) /\ tr_items N muB t s2 = (Ok kvs, s2) /\
      tr_getitem N muB t (snd k, fst k) s2 = (Ok c, s2) /\
      (~ In (snd k, fst k) (map fst (x_subs x)) -> tr_getitem N muB t k s2 = (Ok c, s2)) /\
      (forall k' , k' <> k -> (snd k', fst k') <> k -> forall d, tr_getitem N muB t k' s2 = (Ok d, s2) <-> tr_getitem N muB t k' s = (Ok d, s)) /\
      (forall k' d, NoDup (map fst (x_subs x)) -> (In (k', d) kvs <-> (k' = k /\ d = c) \/ (k' <> k /\ In (k', d) (x_subs x)))) /\
      (forall u, u <> t -> tr s2 u = tr s u) /\ (forall a, lv s2 a = lv s a) /\ (forall g, graph_of g s2 = graph_of g s).
  Proof.
    intros s t x k c V Ne. set (s2 := upd_tr t (fun x => tr_set_subs (dset k c (x_subs x)) x) s).
    assert (V2 : tr s2 t = Some (tr_set_subs (dset k c (x_subs x)) x)) by (unfold s2; now rewrite tr_upd_tr, Nat.eqb_refl, V).
    assert (P2 : lazy_subtransitions N muB t s2 = (Ok tt, s2)) by (apply (lazy_sub_pure N muB s2 t _ V2); apply dset_ne).
    assert (P : lazy_subtransitions N muB t s = (Ok tt, s)) by (now apply (lazy_sub_pure N muB s t x)).
    assert (G : forall q, tr_getitem N muB t q s2 = (match dget (snd q, fst q) (dset k c (x_subs x)) with Some c => Ok c | None => match dget q (dset k c (x_subs x)) with Some c => Ok c | None => Raise KeyError end end, s2)).
    { intros q. unfold tr_getitem. rewrite (bind_Ok _ _ _ _ _ _ P2). unfold bind, get_tr, asks, ret. rewrite V2. cbn [x_subs tr_set_subs]. destruct (dget (snd q, fst q) _); auto. now destruct (dget q _). }
    assert (G0 : forall q, tr_getitem N muB t q s = (match dget (snd q, fst q) (x_subs x) with Some c => Ok c | None => match dget q (x_subs x) with Some c => Ok c | None => Raise KeyError end end, s)).
    { intros q. unfold tr_getitem. rewrite (bind_Ok _ _ _ _ _ _ P). unfold bind, get_tr, asks, ret. rewrite V. destruct (dget (snd q, fst q) _); auto. now destruct (dget q _). }
    exists s2, (dset k c (x_subs x)). split; [reflexivity|]. split; [destruct (view_lines N muB s2 t _ s2 P2 V2) as [X _]; exact X|].
    split; [rewrite G; destruct k as [k1 k2]; cbn [fst snd]; now rewrite dget_dset_eq|].
    split. { intros Nr. rewrite G. destruct (keqb_spec (snd k, fst k) k) as [E|E]; [rewrite E, dget_dset_eq; reflexivity|].
      rewrite (dget_dset_neq _ _ _ _ E), dget_dset_eq. apply dget_pair in Nr. now rewrite Nr. }
    split. { intros q Nq Nr d. rewrite G, G0. rewrite !dget_dset_neq by auto.
      destruct (dget (snd q, fst q) (x_subs x)); [|destruct (dget q (x_subs x))]; split; intros E; try discriminate; f_equal; congruence. }
    split. { intros q d Nd. assert (Nd2 : NoDup (dkeys (dset k c (x_subs x)))) by (now apply NoDup_dset). split.
      - intros I. apply (In_dget_nodup _ _ _ Nd2) in I. destruct (keqb_spec q k) as [->|Nk].
        + rewrite dget_dset_eq in I. injection I as <-. auto.
        + rewrite dget_dset_neq in I by auto. right. split; auto. now apply dget_In.
      - intros [[-> ->]|[Nk I]]; apply dget_In; [apply dget_dset_eq|]. rewrite dget_dset_neq by auto. now apply In_dget_nodup. }
    split; [intros u D; unfold s2; rewrite tr_upd_tr; destruct (Nat.eqb_spec t u); congruence|]. split; [reflexivity|]. intros []; reflexivity.
  Qed.

  Theorem C139_unread_line_refuted : forall s t x k c, tr s t = Some x -> x_subs x = [] ->
    exists s2, tr_setitem N t k c s = (Ok tt, s2) /\ subtransitions N muB t s2 = (Ok [c], s2).
  Proof.
    intros s t x k c V Ne. set (s2 := upd_tr t (fun x => tr_set_subs (dset k c (x_subs x)) x) s).
    assert (V2 : tr s2 t = Some (tr_set_subs [(k, c)] x)) by (unfold s2; rewrite tr_upd_tr, Nat.eqb_refl, V; cbn [option_map]; now rewrite Ne).
    assert (P2 : lazy_subtransitions N muB t s2 = (Ok tt, s2)) by (apply (lazy_sub_pure N muB s2 t _ V2); discriminate).
    exists s2. split; [reflexivity|]. destruct (view_lines N muB s2 t _ s2 P2 V2) as [_ [_ [_ X]]]. exact X.
  Qed.
End Assign.
Print Assumptions C139_sublevel_partial.
Print Assumptions C139_unread_refuted.
Print Assumptions C139_line_partial.
Print Assumptions C139_unread_line_refuted.

(** The sublevel F=1 of level 1 is assigned to level 0, whose sublevels have
    been read or not. *)
Definition read1 : st Exact := runx (two 1) [OSublevels Exact 1].
Definition read01 : st Exact := runx read1 [OSublevels Exact 0].
Example C139_case :
  reachable Exact 1%Qc plain read1 /\ reachable Exact 1%Qc plain read01 /\
  option_map l_subs (lv read1 1) = Some [("F=0", 2); ("F=1", 3)] /\
  option_map l_subs (lv read1 0) = Some [] /\ option_map l_subs (lv read01 0) = Some [("F=0", 4); ("F=1", 5)] /\
  fst (lv_items Exact 0 (snd (lv_setitem Exact 0 "F=1" 3 read01))) = Ok [("F=0", 4); ("F=1", 3)] /\
  fst (lv_items Exact 0 (snd (lv_setitem Exact 0 "F=1" 3 read1))) = Ok [("F=1", 3)] /\
  fst (getitem Exact 0 "F=0" (snd (lv_setitem Exact 0 "F=1" 3 read1))) = Raise KeyError.
Proof.
  split; [apply more_reachable, two_reachable; lia|]. split; [apply more_reachable, more_reachable, two_reachable; lia|].
  do 5 (split; [vm_compute; reflexivity|]). vm_compute. reflexivity.
Qed.
(** The same with lines: 0 is the transition between the two levels. *)
Example C139_line_case :
  let s := runx (two 1) [ONewTransition Exact 0 1 None None None] in let s' := runx s [OSubtransitions Exact 0] in
  reachable Exact 1%Qc plain s' /\
  fst (subtransitions Exact 1%Qc 0 s') = Ok [2; 3; 4] /\ fst (tr_keys Exact 1%Qc 0 s') = Ok [("F=0", "F=1"); ("F=1", "F=0"); ("F=1", "F=1")] /\
  fst (tr_getitem Exact 1%Qc 0 ("F=1", "F=1") (snd (tr_setitem Exact 0 ("F=1", "F=1") 2 s'))) = Ok 2 /\
  fst (tr_getitem Exact 1%Qc 0 ("F=0", "F=1") (snd (tr_setitem Exact 0 ("F=0", "F=1") 4 s'))) = Ok 3 /\
  fst (subtransitions Exact 1%Qc 0 (snd (tr_setitem Exact 0 ("F=1", "F=1") 0 s))) = Ok [0].
Proof.
  cbv zeta. split; [apply more_reachable, more_reachable, two_reachable; lia|]. do 4 (split; [vm_compute; reflexivity|]). vm_compute. reflexivity.
Qed.
