(** Properties C125-C127: levels and transitions as dictionaries. *)
From Coq Require Import List Bool ZArith QArith Qcanon Lia String Ascii Permutation.
From Verif Require Import Base Num PyStr Util UtilProofs Regex Parse Term TermProofs Hyperfine HyperfineProofs Graph GraphProofs Rules Atom AtomInv
  AtomSafe AtomSafe2 AtomSafe3 AtomSafe5 AtomSafe6 AtomLevels AtomKeep AtomAlias AtomPaths AtomTrans AtomExample DictView.
Import ListNotations.
Local Open Scope string_scope.
Local Open Scope list_scope.

Section View.
  Context (N : Num) (muB : num N) (orc : nat -> oracle) (OK : forall n, oracle_ok (orc n)).
  Implicit Types s : st N.

  Lemma view_lazy : forall s a l' s', lazy_sublevels N a s = (Ok tt, s') -> lv s' a = Some l' ->
    lv_items N a s = (Ok (l_subs l'), s') /\ lv_len N a s = (Ok (List.length (l_subs l')), s') /\ lv_keys N a s = (Ok (dkeys (l_subs l')), s') /\
    sublevels N a s = (Ok (dvals (l_subs l')), s').
  Proof.
    intros s a l' s' E V. unfold lv_items, lv_len, lv_keys, sublevels. rewrite !(bind_Ok _ _ _ _ _ _ E). unfold bind, get_lv, asks, ret. now rewrite V.
  Qed.

  (** ** C125: levels *)

  (** [len], [keys], [values] and [items] of a level of the atom agree, the
      keys are distinct, and [level[key]] is the value of the item. *)
  Theorem C125_items : forall s a l, reachable N muB orc s -> lv s a = Some l -> l_attached l = true ->
    exists kvs s', lv_items N a s = (Ok kvs, s') /\ lv_len N a s = (Ok (List.length kvs), s') /\
      lv_keys N a s = (Ok (map fst kvs), s') /\ sublevels N a s = (Ok (map snd kvs), s') /\ NoDup (map fst kvs) /\
      (forall key b, In (key, b) kvs -> getitem N a key s = (Ok b, s')) /\
      (forall key, ~ In key (map fst kvs) -> (s_I s = 0%Z -> contains "mJ" key = false) -> getitem N a key s = (Raise KeyError, s')).
  Proof.
    intros s a l R V A. pose proof (reachable_WF N muB orc OK s R) as W.
    destruct (lazy_ok N s a l W V A) as [l' [s' [E [W' [L' [V' [S' F']]]]]]].
    destruct (view_lazy s a l' s' E V') as [H1 [H2 [H3 H4]]]. exists (l_subs l'), s'. repeat (split; [assumption|]).
    pose proof (full_nodup N s' a l' F') as Nd. split; [exact Nd|]. split.
    - intros key b I. rewrite (getitem_plain N s a l l' s' key W V E V').
      + now rewrite (In_dget_nodup _ _ _ Nd I).
      + assert (Ik : In key (dkeys (l_subs l'))) by (change key with (fst (key, b)); now apply in_map).
        rewrite (full_keys N s' a l' F') in Ik. apply in_map_iff in Ik as [z [<- _]]. now rewrite no_mJ, andb_false_r.
    - intros key Nk Hm. rewrite (getitem_plain N s a l l' s' key W V E V').
      + destruct (dget key (l_subs l')) eqn:D; [|reflexivity]. apply dget_In in D. destruct Nk. change key with (fst (key, n)). now apply in_map.
      + destruct (Z.eqb_spec (s_I s) 0) as [E0|]; [|reflexivity]. now rewrite Hm.
  Qed.

  Lemma number_WF : forall s a l, WF s -> lv s a = Some l -> l_attached l = true ->
    exists n s', lv_len N a s = (Ok n, s') /\
      match l_kind l with
      | LE => exists j, l_J l = Some j /\ Z.of_nat n = (Z.min j (s_I s) + 1)%Z
      | LHF => exists f, l_F l = Some f /\ Z.of_nat n = (f + 1)%Z
      | LZ => n = 0%nat
      end /\
      lv_bool N a s = (Ok (match l_kind l with LZ => false | _ => true end), s') /\
      WF s' /\ lookl s s' /\ exists l', lv s' a = Some l' /\ lsame l l'.
  Proof.
    intros s a l W V A.
    destruct (lazy_ok N s a l W V A) as [l' [s' [E [W' [L' [V' [S' F']]]]]]].
    destruct (view_lazy s a l' s' E V') as [_ [H2 _]]. exists (List.length (l_subs l')), s'. split; [exact H2|].
    assert (Ln : List.length (l_subs l') = List.length (sub_range s l)).
    { destruct F' as [_ F']. apply Forall2_len in F'. rewrite <- F'. f_equal. apply lsame_range; auto. apply L'. }
    assert (Hn : match l_kind l with
      | LE => exists j, l_J l = Some j /\ Z.of_nat (List.length (l_subs l')) = (Z.min j (s_I s) + 1)%Z
      | LHF => exists f, l_F l = Some f /\ Z.of_nat (List.length (l_subs l')) = (f + 1)%Z
      | LZ => List.length (l_subs l') = 0%nat end /\ (List.length (l_subs l') = 0%nat <-> l_kind l = LZ)).
    { pose proof (wf_I _ _ W) as HI. destruct (wf_J _ _ _ _ W V) as [j [Ej Hj]]. rewrite Ln. unfold sub_range. destruct (l_kind l) eqn:K.
      - rewrite Ej. rewrite F_range_steps by auto. rewrite steps_length. split; [exists j; split; auto; lia|]. split; [lia|discriminate].
      - destruct (wf_F _ _ _ _ W V) as [j' [f [_ [Ef [_ F0]]]]]; [congruence|]. rewrite Ef.
        split; [exists f; split; auto; now apply mF_range_length|]. pose proof (mF_range_length f F0). split; [lia|discriminate].
      - split; [reflexivity|]. split; auto. }
    destruct Hn as [Hn Hz]. split; [exact Hn|]. split; [|split; [exact W'|split; [exact L'|exists l'; auto]]]. unfold lv_bool. rewrite (bind_Ok _ _ _ _ _ _ H2). unfold ret. f_equal. f_equal.
    destruct (List.length (l_subs l')) eqn:El; cbn [Nat.eqb negb].
    - now rewrite (proj1 Hz eq_refl).
    - destruct (l_kind l); auto. now discriminate (proj2 Hz eq_refl).
  Qed.
  (** The number of sublevels: the smaller one of 2I+1 and 2J+1 hyperfine
      sublevels, 2F+1 Zeeman sublevels, none below those; and a Zeeman sublevel
      is false as a condition while every other level is true. *)
  Theorem C125_number : forall s a l, reachable N muB orc s -> lv s a = Some l -> l_attached l = true ->
    exists n s', lv_len N a s = (Ok n, s') /\
      match l_kind l with
      | LE => exists j, l_J l = Some j /\ Z.of_nat n = (Z.min j (s_I s) + 1)%Z
      | LHF => exists f, l_F l = Some f /\ Z.of_nat n = (f + 1)%Z
      | LZ => n = 0%nat
      end /\
      lv_bool N a s = (Ok (match l_kind l with LZ => false | _ => true end), s').
  Proof.
    intros s a l R V A. destruct (number_WF s a l (reachable_WF N muB orc OK s R) V A) as [n [s' [H1 [H2 [H3 _]]]]]. exists n, s'. auto.
  Qed.

  (** [key in level] tells whether [level[key]] works, for every key that is
      not a name of a state by mJ. *)
  Theorem C125_contains_partial : forall s a l key, reachable N muB orc s -> lv s a = Some l -> l_attached l = true ->
    (s_I s = 0%Z -> contains "mJ" key = false) ->
    exists b s', lv_contains N a key s = (Ok b, s') /\ (if b then exists c, getitem N a key s = (Ok c, s') else getitem N a key s = (Raise KeyError, s')).
  Proof.
    intros s a l key R V A Hm. destruct (C125_items s a l R V A) as [kvs [s' [_ [_ [Hk [_ [_ [G1 G2]]]]]]]].
    exists (existsb (String.eqb key) (map fst kvs)), s'. split; [unfold lv_contains; now rewrite (bind_Ok _ _ _ _ _ _ Hk)|].
    destruct (existsb (String.eqb key) (map fst kvs)) eqn:B.
    - apply existsb_exists in B as [k [I E]]. apply String.eqb_eq in E. subst k. apply in_map_iff in I as [[k b] [Ek I]]. cbn [fst] in Ek. subst k. exists b. now apply G1.
    - apply G2; auto. intros I. assert (existsb (String.eqb key) (map fst kvs) = true); [|congruence]. apply existsb_exists. exists key. split; auto. apply String.eqb_refl.
  Qed.

  (** Levels outside the atom have none of this. *)
  Theorem C125_loose : forall s a l, reachable N muB orc s -> lv s a = Some l -> l_attached l = false ->
    lv_items N a s = (Raise AttributeError, s) /\ lv_len N a s = (Raise AttributeError, s) /\ lv_keys N a s = (Raise AttributeError, s) /\
    lv_bool N a s = (Raise AttributeError, s) /\ forall key, lv_contains N a key s = (Raise AttributeError, s).
  Proof.
    intros s a l R V A. pose proof (reachable_WF N muB orc OK s R) as W.
    assert (E : lazy_sublevels N a s = (Raise AttributeError, s)).
    { unfold lazy_sublevels, get_lv, bind, asks. rewrite V. destruct (wf_subs _ _ W _ _ V) as [Es|[A' _]]; [|congruence]. now rewrite Es, A. }
    unfold lv_contains, lv_bool, lv_items, lv_len, lv_keys, bind. rewrite E. auto 6.
  Qed.
End View.

(** ** C126: transitions *)

Section Lines.
  Context (N : Num) (muB : num N) (orc : nat -> oracle) (OK : forall n, oracle_ok (orc n)).
  Implicit Types s : st N.

  Lemma view_lines : forall s t x' s', lazy_subtransitions N muB t s = (Ok tt, s') -> tr s' t = Some x' ->
    tr_items N muB t s = (Ok (x_subs x'), s') /\ tr_len N muB t s = (Ok (List.length (x_subs x')), s') /\ tr_keys N muB t s = (Ok (dkeys (x_subs x')), s') /\
    subtransitions N muB t s = (Ok (dvals (x_subs x')), s').
  Proof.
    intros s t x' s' E V. unfold tr_items, tr_len, tr_keys, subtransitions. rewrite !(bind_Ok _ _ _ _ _ _ E). unfold bind, get_tr, asks, ret. now rewrite V.
  Qed.
  Lemma lazy_of_list : forall s t cs s', subtransitions N muB t s = (Ok cs, s') -> lazy_subtransitions N muB t s = (Ok tt, s').
  Proof.
    intros s t cs s' E. unfold subtransitions, bind in E. destruct (lazy_subtransitions N muB t s) as [[[]|e] s1]; [|discriminate].
    unfold get_tr, asks, ret in E. destruct (tr s1 t); [|discriminate]. now injection E as _ ->.
  Qed.
  Lemma dget_pair : forall (k : string * string) (d : dict (string * string) nat), dget k d = None <-> ~ In k (dkeys d).
  Proof. intros k d. rewrite <- dmem_false. unfold dmem. destruct (dget k d); split; congruence. Qed.

  (** [len], [keys], [values] and [items] of a transition agree; the keys are
      distinct and are the names of the two sublevels of the line.  [t[key]]
      first looks for the key turned round. *)
  Theorem C126_items : forall s t x cs s', reachable N muB orc s -> tr s t = Some x -> subtransitions N muB t s = (Ok cs, s') ->
    exists kvs, tr_items N muB t s = (Ok kvs, s') /\ tr_len N muB t s = (Ok (List.length kvs), s') /\
      tr_keys N muB t s = (Ok (map fst kvs), s') /\ map snd kvs = cs /\ NoDup (map fst kvs) /\
      (forall k c, In (k, c) kvs -> exists y lo up, tr s' c = Some y /\ x_parent y = Some t /\
         lv s' (x_lo y) = Some lo /\ lv s' (x_up y) = Some up /\ k = (lshort lo, lshort up)) /\
      (forall k c, In (k, c) kvs -> tr_getitem N muB t (snd k, fst k) s = (Ok c, s')) /\
      (forall k c, In (k, c) kvs -> ~ In (snd k, fst k) (map fst kvs) -> tr_getitem N muB t k s = (Ok c, s')) /\
      (forall k, ~ In k (map fst kvs) -> ~ In (snd k, fst k) (map fst kvs) -> tr_getitem N muB t k s = (Raise KeyError, s')).
  Proof.
    intros s t x cs s' R V E. pose proof (reachable_WF N muB orc OK s R) as W. pose proof (lazy_of_list s t cs s' E) as L.
    destruct (safe_Ok _ _ _ _ _ _ _ (lazy_sub_safe N muB s t x W V) L) as [W' [Lo _]].
    destruct (fr_tr _ _ _ (lo_frame _ _ _ Lo) _ _ V) as [x' [V' _]].
    destruct (view_lines s t x' s' L V') as [H1 [H2 [H3 H4]]]. exists (x_subs x'). repeat (split; [assumption|]).
    split; [rewrite E in H4; now injection H4 as ->|]. destruct (wf_tsubs _ _ W' _ _ V') as [Nd Hs]. split; [exact Nd|].
    assert (G : forall k, tr_getitem N muB t k s = (match dget (snd k, fst k) (x_subs x') with Some c => Ok c | None => match dget k (x_subs x') with Some c => Ok c | None => Raise KeyError end end, s')).
    { intros k. unfold tr_getitem. rewrite (bind_Ok _ _ _ _ _ _ L). unfold bind, get_tr, asks, ret. rewrite V'. destruct (dget (snd k, fst k) (x_subs x')); auto. now destruct (dget k (x_subs x')). }
    split; [|split; [|split]].
    - intros k c I. destruct (Hs k c I) as [y [lo [up [T1 [T2 [_ [_ [_ [T3 [T4 T5]]]]]]]]]]. exists y, lo, up. auto 6.
    - intros [k1 k2] c I. rewrite G. cbn [fst snd]. now rewrite (In_dget_nodup _ _ _ Nd I).
    - intros [k1 k2] c I Nr. rewrite G. apply dget_pair in Nr. rewrite Nr. now rewrite (In_dget_nodup _ _ _ Nd I).
    - intros [k1 k2] Nk Nr. rewrite G. apply dget_pair in Nr, Nk. rewrite Nr. now rewrite Nk.
  Qed.

  Lemma zeeman_WF : forall s t x, WF s -> tr s t = Some x -> x_kind x = TZ -> lazy_subtransitions N muB t s = (Raise AssertionError, s).
  Proof.
    intros s t x W V K.
    destruct (wf_tr _ _ W _ _ V) as [l1 [l2 [V1 [_ [K1 _]]]]]. rewrite K in K1. cbn [lk] in K1.
      assert (Xs : x_subs x = []).
      { destruct (wf_tsubs _ _ W _ _ V) as [_ Hs]. destruct (x_subs x) as [|[k c] d]; auto. destruct (Hs k c (or_introl eq_refl)) as [y [lo [up [_ [_ [_ [Nz _]]]]]]]. congruence. }
      assert (Ls : l_subs l1 = []).
      { destruct (wf_subs _ _ W _ _ V1) as [E|[_ F]]; auto. unfold sub_range in F. rewrite K1 in F. now inversion F. }
      assert (Sl : sublevels N (x_E1 x) s = (Ok [], s)).
      { destruct (wf_parent _ _ _ _ W V1) as [A _]; [congruence|]. unfold sublevels, lazy_sublevels, populate_sublevels, get_lv, bind, asks, ret. rewrite V1, Ls, A, V1, K1, V1, Ls. cbn [dvals map forM]. unfold ret. now rewrite V1, Ls. }
      unfold lazy_subtransitions. unfold bind at 1, get_tr at 1, asks at 1. rewrite V, Xs. rewrite (bind_Ok _ _ _ _ _ _ Sl). reflexivity.
  Qed.

  (** Zeeman lines have no dictionary: the length, the keys and even the use
      as a condition raise AssertionError. *)
  Theorem C126_zeeman_refuted : forall s t x, reachable N muB orc s -> tr s t = Some x -> x_kind x = TZ ->
    tr_len N muB t s = (Raise AssertionError, s) /\ tr_keys N muB t s = (Raise AssertionError, s) /\ tr_bool N muB t s = (Raise AssertionError, s) /\
    tr_items N muB t s = (Raise AssertionError, s) /\ subtransitions N muB t s = (Raise AssertionError, s).
  Proof.
    intros s t x R V K. pose proof (reachable_WF N muB orc OK s R) as W.
    pose proof (zeeman_WF s t x W V K) as L.
    unfold tr_len, tr_keys, tr_bool, tr_items, tr_len, subtransitions, bind. rewrite L. auto 6.
  Qed.
End Lines.

(** ** C127: deleting sublevels and lines *)

Section Delete.
  Context (N : Num) (muB : num N) (orc : nat -> oracle) (OK : forall n, oracle_ok (orc n)).
  Implicit Types s : st N.

  (** [del level[key]] takes away that sublevel and nothing else when the
      sublevels have been looked at and another one is left. *)
  Theorem C127_sublevel_partial : forall s a l kvs s' key b, reachable N muB orc s -> lv s a = Some l -> l_attached l = true ->
    lv_items N a s = (Ok kvs, s') -> In (key, b) kvs -> (2 <= List.length kvs)%nat ->
    exists s2, lv_del N a key s' = (Ok tt, s2) /\
      lv_items N a s2 = (Ok (filter (fun kv => negb (String.eqb key (fst kv))) kvs), s2) /\
      getitem N a key s2 = (Raise KeyError, s2) /\ lv_del N a key s2 = (Raise KeyError, s2) /\
      (forall k c, In (k, c) kvs -> k <> key -> getitem N a k s2 = (Ok c, s2)) /\
      (forall c, c <> a -> lv s2 c = lv s' c) /\ (forall t, tr s2 t = tr s' t) /\ (forall k, graph_of k s2 = graph_of k s') /\
      (forall c, energy N muB s2 c = energy N muB s' c).
  Proof.
    intros s a l kvs s' key b R V A E I Ln. pose proof (reachable_WF N muB orc OK s R) as W.
    destruct (lazy_ok N s a l W V A) as [l' [s1 [E1 [W1 [L1 [V1 [S1 F1]]]]]]].
    destruct (view_lazy N s a l' s1 E1 V1) as [H1 _]. rewrite E in H1. injection H1 as -> ->. clear E.
    pose proof (full_nodup N s1 a l' F1) as Nd.
    assert (Ik : forall k c, In (k, c) (l_subs l') -> contains "mJ" k = false).
    { intros k c Ic. assert (Ik : In k (dkeys (l_subs l'))) by (change k with (fst (k, c)); now apply in_map).
      rewrite (full_keys N s1 a l' F1) in Ik. apply in_map_iff in Ik as [z [<- _]]. apply no_mJ. }
    set (s2 := upd_lv a (fun l => lv_set_subs (ddel key (l_subs l)) l) s1).
    assert (V2 : lv s2 a = Some (lv_set_subs (ddel key (l_subs l')) l')) by (unfold s2; now rewrite lv_upd_lv, Nat.eqb_refl, V1).
    assert (Ne : ddel key (l_subs l') <> []).
    { intros Z. assert (H : incl (dkeys (l_subs l')) [key]).
      { intros k Hk. destruct (String.eqb_spec key k) as [->|Hn]; [now left|]. assert (X : In k (dkeys (ddel key (l_subs l')))).
        { rewrite dkeys_ddel. apply filter_In. split; auto. change keqb with String.eqb. apply String.eqb_neq in Hn. now rewrite Hn. }
        rewrite Z in X. destruct X. }
      pose proof (NoDup_incl_length Nd H) as X. unfold dkeys in X. rewrite map_length in X. cbn in X. lia. }
    assert (P2 : lazy_sublevels N a s2 = (Ok tt, s2)) by (now apply (lazy_pure N s2 a _ V2)).
    assert (G : forall k, contains "mJ" k = false -> getitem N a k s2 = (match dget k (ddel key (l_subs l')) with Some c => Ok c | None => Raise KeyError end, s2)).
    { intros k Hk. unfold getitem. cbn [lv_getitem]. rewrite (bind_Ok _ _ _ _ _ _ P2). unfold bind, get_lv, asks, gets. rewrite V2, Hk, andb_false_r. cbn [l_subs lv_set_subs]. destruct (dget k _); reflexivity. }
    exists s2. split.
    { unfold lv_del, bind, get_lv, asks. rewrite V1. unfold dmem. rewrite (In_dget_nodup _ _ _ Nd I). reflexivity. }
    split. { destruct (view_lazy N s2 a _ s2 P2 V2) as [X _]. rewrite X. reflexivity. }
    split. { rewrite (G key (Ik key b I)), dget_ddel. change keqb with String.eqb. now rewrite String.eqb_refl. }
    split. { unfold lv_del, bind, get_lv, asks. rewrite V2. cbn [l_subs lv_set_subs]. unfold dmem. rewrite dget_ddel. change keqb with String.eqb. now rewrite String.eqb_refl. }
    split. { intros k c Ic Nk. rewrite (G k (Ik k c Ic)), dget_ddel. change keqb with String.eqb. apply String.eqb_neq in Nk. rewrite Nk. now rewrite (In_dget_nodup _ _ _ Nd Ic). }
    assert (Lv : forall c, lv s2 c = if Nat.eqb a c then option_map (fun l => lv_set_subs (ddel key (l_subs l)) l) (lv s1 c) else lv s1 c) by (intros c; unfold s2; apply lv_upd_lv).
    split. { intros c Hc. rewrite Lv. destruct (Nat.eqb_spec a c); congruence. }
    split; [reflexivity|]. split; [intros []; reflexivity|].
    assert (E1' : forall c, energyE s2 c = energyE s1 c) by (intros c; unfold energyE; rewrite Lv; destruct (Nat.eqb a c); auto; now destruct (lv s1 c)).
    assert (E2' : forall c, energyHF s2 c = energyHF s1 c).
    { intros c. unfold energyHF. rewrite Lv. destruct (Nat.eqb a c); destruct (lv s1 c) as [lc|]; cbn [option_map]; auto; cbn [l_parent lv_set_subs];
        destruct (l_parent lc) as [p|]; auto; rewrite E1', Lv; destruct (Nat.eqb a p); destruct (lv s1 p); reflexivity. }
    intros c. unfold energy. rewrite Lv. destruct (Nat.eqb a c) eqn:Eac; destruct (lv s1 c) as [lc|] eqn:Vc; cbn [option_map]; auto; cbn [l_kind lv_set_subs];
      destruct (l_kind lc); auto; unfold energyZ; rewrite Lv, Eac, Vc; cbn [option_map]; cbn [l_parent lv_set_subs]; destruct (l_parent lc); auto; now rewrite E2'.
  Qed.

  (** A sublevel that has not been looked at cannot be deleted. *)
  Theorem C127_unread_refuted : forall s a l key, lv s a = Some l -> l_subs l = [] -> lv_del N a key s = (Raise KeyError, s).
  Proof. intros s a l key V E. unfold lv_del, bind, get_lv, asks. rewrite V, E. reflexivity. Qed.

  (** Deleting the only sublevel has no lasting effect: a new one is made when
      the level is next looked at. *)
  Theorem C127_only_refuted : forall s a l kvs s' key b, reachable N muB orc s -> lv s a = Some l -> l_attached l = true ->
    lv_items N a s = (Ok kvs, s') -> kvs = [(key, b)] ->
    exists s2 c s3, lv_del N a key s' = (Ok tt, s2) /\ lv_items N a s2 = (Ok [(key, c)], s3) /\ c <> b.
  Proof.
    intros s a l kvs s' key b R V A E K. pose proof (reachable_WF N muB orc OK s R) as W.
    destruct (lazy_ok N s a l W V A) as [l' [s1 [E1 [W1 [L1 [V1 [S1 F1]]]]]]].
    destruct (view_lazy N s a l' s1 E1 V1) as [H1 _]. rewrite E in H1. injection H1 as -> ->. clear E.
    set (s2 := upd_lv a (fun l => lv_set_subs (ddel key (l_subs l)) l) s1).
    assert (Dl : ddel key (l_subs l') = []) by (rewrite K; cbn; change keqb with String.eqb; now rewrite String.eqb_refl).
    assert (V2 : lv s2 a = Some (lv_set_subs [] l')) by (unfold s2; rewrite lv_upd_lv, Nat.eqb_refl, V1; cbn [option_map]; now rewrite Dl).
    set (l2 := lv_set_subs [] l') in *.
    assert (X : ext s1 s2).
    { constructor; auto.
      - intros c lc Vc. unfold s2. rewrite lv_upd_lv, Vc. destruct (Nat.eqb a c); cbn [option_map]; eexists; split; eauto; repeat split; auto.
      - intros t x Vx. exists x. split; auto. apply xsame_refl. }
    assert (W2 : WF s2).
    { apply (WF_step N s1 s2); auto; try (intros []; left; reflexivity).
      - intros c lc Vc. unfold s2 in Vc. rewrite lv_upd_lv in Vc. destruct (Nat.eqb_spec a c) as [<-|]; [|left; eauto].
        right. rewrite V1 in Vc. cbn [option_map] in Vc. rewrite Dl in Vc. injection Vc as <-.
        split; [|left; reflexivity]. apply (lvl_ok_ext _ s1 s2 l' l2 X); [repeat split; auto|]. exact (wf_lv _ _ W1 _ _ V1).
      - intros t x' Vx. left. exists x'. auto. }
    assert (A2 : l_attached l2 = true) by (apply F1).
    destruct (lazy_ok N s2 a l2 W2 V2 A2) as [l3 [s3 [E3 [W3 [L3 [V3 [S3 F3]]]]]]].
    destruct (view_lazy N s2 a l3 s3 E3 V3) as [H3 _].
    assert (Kz : l_kind l2 <> LZ).
    { intros Kz. pose proof (proj2 F1) as F. unfold sub_range in F. change (l_kind l2) with (l_kind l') in Kz. rewrite Kz in F. inversion F as [Q|]. rewrite K in *. congruence. }
    assert (Sn : map snd (l_subs l3) = seq (List.length (s_levels s2)) (List.length (sub_range s2 l2))).
    { unfold lazy_sublevels, get_lv in E3. unfold bind at 1, asks in E3. rewrite V2 in E3. change (l_subs l2) with (@nil (string * nat)) in E3. cbv iota in E3. rewrite A2 in E3.
      destruct (populate_ok N s2 a l2 W2 V2) as [s4 E4]. unfold bind at 1 in E3. rewrite E4 in E3.
      destruct (safe_Ok _ _ _ _ _ _ _ (populate_safe_gen N (fun _ _ => True) s2 a l2 (fun _ => I) W2 V2 A2 (fun _ _ => I)) E4) as [W4 [_ [l4 [V4 [F4 [_ Q4]]]]]].
      unfold bind, asks in E3. rewrite V4 in E3.
      assert (Hl : forall bs s5 s6, (forall c, In c bs -> exists lc, lv s5 c = Some lc) -> forM bs (add_node N) s5 = (Ok tt, s6) -> s_levels s6 = s_levels s5).
      { induction bs as [|c bs IH]; intros s5 s6 Hc Ef; [now injection Ef as <-|]. cbn [forM] in Ef. destruct (Hc c (or_introl eq_refl)) as [lc Vc].
        unfold bind in Ef. rewrite (add_node_eq N s5 c lc Vc) in Ef. set (s7 := set_graph _ _ s5) in Ef. assert (E7 : s_levels s7 = s_levels s5) by (unfold s7; destruct (l_kind lc); reflexivity).
        rewrite <- E7. apply IH; auto. intros c' Ic. destruct (Hc c' (or_intror Ic)) as [lc' Vc']. exists lc'. unfold lv in *. now rewrite E7. }
      assert (E5 : s_levels s3 = s_levels s4).
      { eapply Hl; [|exact E3]. intros c Ic. destruct (full_child _ _ _ _ _ F4 Ic) as [z [k [_ [_ [_ [lc [Vc _]]]]]]]. eauto. }
      assert (V34 : lv s3 a = Some l4) by (unfold lv in *; now rewrite E5). rewrite V34 in V3. injection V3 as <-. now apply Q4. }
    assert (Er : sub_range s2 l2 = sub_range s1 l') by reflexivity.
    assert (Lr : List.length (sub_range s1 l') = 1%nat) by (destruct F1 as [_ F1]; apply Forall2_len in F1; rewrite F1, K; reflexivity).
    assert (Kk : dkeys (l_subs l3) = [key]).
    { rewrite (full_keys N s3 a l3 F3). replace (map (sub_key (l_kind l3)) (sub_range s3 l3)) with (dkeys (l_subs l')); [now rewrite K|].
      rewrite (full_keys N s1 a l' F1). destruct S3 as [K3 S3']. rewrite K3. change (l_kind l2) with (l_kind l'). f_equal. rewrite <- Er. symmetry. apply lsame_range; [apply L3|repeat split; auto; apply S3']. }
    rewrite Er, Lr in Sn. cbn [seq] in Sn. destruct (l_subs l3) as [|[k3 c3] [|]] eqn:E3s; try discriminate. cbn [map snd] in Sn. injection Sn as Sn. cbn [dkeys map fst] in Kk. injection Kk as Kk. subst k3.
    exists s2, c3, s3. split; [|split; [exact H3|]].
    - unfold lv_del, bind, get_lv, asks. rewrite V1.
      replace (dmem key (l_subs l')) with true by (rewrite K; unfold dmem; cbn [dget]; now rewrite keqb_refl). reflexivity.
    - intros ->. assert (Hb : exists lb, lv s1 b = Some lb).
      { destruct (full_child N s1 a l' b F1) as [z [k [_ [_ [_ [lb [Vb _]]]]]]]; [unfold dvals; rewrite K; now left|eauto]. }
      destruct Hb as [lb Vb]. unfold lv in Vb. assert (b < List.length (s_levels s1))%nat by (apply nth_error_Some; congruence).
      rewrite upd_length in Sn. lia.
  Qed.

  (** [del t[key]] takes away that line and nothing else when the lines have
      been looked at and another one is left; the key must be in the order of
      the dictionary. *)
  Theorem C127_line_partial : forall s t x kvs s' k c, reachable N muB orc s -> tr s t = Some x ->
    tr_items N muB t s = (Ok kvs, s') -> In (k, c) kvs -> (2 <= List.length kvs)%nat ->
    exists s2, tr_del N t k s' = (Ok tt, s2) /\
      tr_items N muB t s2 = (Ok (filter (fun kv => negb (keqb k (fst kv))) kvs), s2) /\ tr_del N t k s2 = (Raise KeyError, s2) /\
      (~ In (snd k, fst k) (map fst kvs) -> tr_del N t (snd k, fst k) s' = (Raise KeyError, s') /\ tr_getitem N muB t k s2 = (Raise KeyError, s2)) /\
      (forall k' c', In (k', c') kvs -> k' <> k -> tr_getitem N muB t (snd k', fst k') s2 = (Ok c', s2)) /\
      (forall u, u <> t -> tr s2 u = tr s' u) /\ (forall a, lv s2 a = lv s' a) /\ (forall g, graph_of g s2 = graph_of g s').
  Proof.
    intros s t x kvs s' k c R V E I Ln. pose proof (reachable_WF N muB orc OK s R) as W.
    assert (L : lazy_subtransitions N muB t s = (Ok tt, s')).
    { unfold tr_items, bind in E. destruct (lazy_subtransitions N muB t s) as [[[]|e] s1]; [|discriminate].
      unfold get_tr, asks, ret in E. destruct (tr s1 t); [|discriminate]. now injection E as _ ->. }
    destruct (safe_Ok _ _ _ _ _ _ _ (lazy_sub_safe N muB s t x W V) L) as [W' [Lo _]].
    destruct (fr_tr _ _ _ (lo_frame _ _ _ Lo) _ _ V) as [x' [V' _]].
    destruct (view_lines N muB s t x' s' L V') as [H1 _]. rewrite E in H1. injection H1 as ->. clear E.
    destruct (wf_tsubs _ _ W' _ _ V') as [Nd _].
    set (s2 := upd_tr t (fun x => tr_set_subs (ddel k (x_subs x)) x) s').
    assert (V2 : tr s2 t = Some (tr_set_subs (ddel k (x_subs x')) x')) by (unfold s2; now rewrite tr_upd_tr, Nat.eqb_refl, V').
    assert (Kr : forall u v : string * string, keqb u v = true <-> u = v) by (intros u v; destruct (keqb_spec u v); split; congruence).
    assert (Rf : keqb k k = true) by now apply Kr.
    assert (Ne : ddel k (x_subs x') <> []).
    { intros Z. assert (H : incl (dkeys (x_subs x')) [k]).
      { intros k' Hk. destruct (keqb k k') eqn:B; [apply Kr in B; subst; now left|]. assert (X : In k' (dkeys (ddel k (x_subs x')))) by (rewrite dkeys_ddel; apply filter_In; now rewrite B).
        rewrite Z in X. destruct X. }
      pose proof (NoDup_incl_length Nd H) as X. unfold dkeys in X. rewrite map_length in X. cbn in X. lia. }
    assert (P2 : lazy_subtransitions N muB t s2 = (Ok tt, s2)) by (now apply (lazy_sub_pure N muB s2 t _ V2)).
    assert (G : forall q, tr_getitem N muB t q s2 = (match dget (snd q, fst q) (ddel k (x_subs x')) with Some c => Ok c | None => match dget q (ddel k (x_subs x')) with Some c => Ok c | None => Raise KeyError end end, s2)).
    { intros q. unfold tr_getitem. rewrite (bind_Ok _ _ _ _ _ _ P2). unfold bind, get_tr, asks, ret. rewrite V2. cbn [x_subs tr_set_subs]. destruct (dget (snd q, fst q) _); auto. now destruct (dget q _). }
    exists s2. split.
    { unfold tr_del, bind, get_tr, asks. rewrite V'. unfold dmem. rewrite (In_dget_nodup _ _ _ Nd I). reflexivity. }
    split. { destruct (view_lines N muB s2 t _ s2 P2 V2) as [X _]. rewrite X. reflexivity. }
    split. { unfold tr_del, bind, get_tr, asks. rewrite V2. cbn [x_subs tr_set_subs]. unfold dmem. rewrite dget_ddel, Rf. reflexivity. }
    split.
    { intros Nr. split.
      - unfold tr_del, bind, get_tr, asks. rewrite V'. unfold dmem. apply dget_pair in Nr. rewrite Nr. reflexivity.
      - rewrite G, !dget_ddel, Rf. apply dget_pair in Nr. rewrite Nr. now destruct (keqb (snd k, fst k) k). }
    split. { intros [k1 k2] c' I' Nk. rewrite G. cbn [fst snd]. rewrite dget_ddel. destruct (keqb (k1, k2) k) eqn:B; [apply Kr in B; congruence|]. now rewrite (In_dget_nodup _ _ _ Nd I'). }
    split. { intros u Hu. unfold s2. rewrite tr_upd_tr. destruct (Nat.eqb_spec t u); congruence. }
    split; [reflexivity|]. intros []; reflexivity.
  Qed.
End Delete.

(** ** Cases and refutations *)

(** With I = 0 [level["mJ=1/2"]] is a sublevel, and yet ["mJ=1/2" in level] is
    false and the name is not among the keys. *)
Theorem C125_mJ_refuted : exists s a l, reachable Exact 1%Qc plain s /\ lv s a = Some l /\ l_attached l = true /\
  (exists c, fst (getitem Exact a "mJ=1/2" s) = Ok c) /\ fst (lv_contains Exact a "mJ=1/2" s) = Ok false /\ fst (lv_keys Exact a s) = Ok ["F=1/2"].
Proof.
  exists (two 0), 0%nat. destruct (lv (two 0) 0%nat) as [l|] eqn:E; [|vm_compute in E; discriminate]. exists l.
  split; [apply two_reachable; lia|]. split; [reflexivity|]. split.
  - assert (X : option_map (@l_attached Exact) (lv (two 0) 0%nat) = Some true) by (vm_compute; reflexivity). rewrite E in X. now injection X.
  - split; [exists 4%nat|split]; vm_compute; reflexivity.
Qed.
Print Assumptions C125_mJ_refuted.

(** The two levels of [two 1] have the keys F=0 and F=1. *)
Example C125_case : reachable Exact 1%Qc plain (two 1) /\ option_map (@l_attached Exact) (lv (two 1) 0%nat) = Some true /\
  fst (lv_items Exact 0%nat (two 1)) = Ok [("F=0", 2%nat); ("F=1", 3%nat)] /\
  fst (lv_contains Exact 0%nat "F=1" (two 1)) = Ok true /\ fst (lv_contains Exact 0%nat "F=2" (two 1)) = Ok false.
Proof. split; [apply two_reachable; lia|]. repeat split; vm_compute; reflexivity. Qed.
Print Assumptions C125_items.
Print Assumptions C125_number.
Print Assumptions C125_contains_partial.
Print Assumptions C125_loose.
Print Assumptions C126_items.
Print Assumptions C126_zeeman_refuted.

(** The two levels joined by a transition. *)
Definition linked (os : list (op Exact)) : st Exact := runx (from 1) (os ++ [ONewTransition Exact 0 1 None None None]).

(** The key of the first item gives the second item; the key of a line turned
    round works in [t[...]] and is not [in t]. *)
Theorem C126_refuted : exists s t, reachable Exact 1%Qc plain s /\
  fst (tr_items Exact 1%Qc t s) = Ok [(("F=0", "F=1"), 2%nat); (("F=1", "F=0"), 3%nat); (("F=1", "F=1"), 4%nat)] /\
  fst (tr_getitem Exact 1%Qc t ("F=0", "F=1") s) = Ok 3%nat.
Proof. exists (linked os_two), 0%nat. split; [apply from_reachable; lia|]. split; vm_compute; reflexivity. Qed.
Print Assumptions C126_refuted.

(** Both levels have a hyperfine line, one has F=0 and F=1, the other one F=1 and F=2. *)
Definition wide : st Exact := linked [nl tS 0; add 0; nl tQ 10; add 1].
Theorem C126_contains_refuted : exists s t k, reachable Exact 1%Qc plain s /\
  fst (tr_getitem Exact 1%Qc t k s) = Ok 3%nat /\ fst (tr_contains Exact 1%Qc t k s) = Ok false /\ fst (tr_contains Exact 1%Qc t (snd k, fst k) s) = Ok true.
Proof. exists wide, 0%nat, ("F=2", "F=1"). split; [apply from_reachable; lia|]. repeat split; vm_compute; reflexivity. Qed.
Print Assumptions C126_contains_refuted.

Print Assumptions C127_sublevel_partial.
Print Assumptions C127_unread_refuted.
Print Assumptions C127_only_refuted.
Print Assumptions C127_line_partial.
(** Of F=0 and F=1 the second one stays; the only sublevel with I = 0 is
    replaced; of the three lines two stay. *)
Example C127_case :
  fst (lv_items Exact 0%nat (snd (lv_del Exact 0%nat "F=0" (snd (lv_items Exact 0%nat (two 1)))))) = Ok [("F=1", 3%nat)] /\
  fst (lv_items Exact 0%nat (two 0)) = Ok [("F=1/2", 2%nat)] /\
  fst (lv_items Exact 0%nat (snd (lv_del Exact 0%nat "F=1/2" (snd (lv_items Exact 0%nat (two 0)))))) = Ok [("F=1/2", 3%nat)] /\
  fst (lv_contains Exact 0%nat "F=0" (two 1)) = Ok true /\ fst (lv_del Exact 0%nat "F=0" (two 1)) = Raise KeyError /\
  fst (tr_items Exact 1%Qc 0%nat (snd (tr_del Exact 0%nat ("F=0", "F=1") (snd (tr_items Exact 1%Qc 0%nat wide))))) =
    Ok [(("F=1", "F=1"), 2%nat); (("F=1", "F=2"), 3%nat)].
Proof. repeat split; vm_compute; reflexivity. Qed.
