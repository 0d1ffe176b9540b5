(** Names and aliases over whole histories: C26, C28. *)
From Coq Require Import List Bool ZArith QArith Qcanon Lia String Ascii Permutation Sorted.
From Verif Require Import Base PyStr Util UtilProofs Parse Term TermProofs Num Wigner Hyperfine HyperfineProofs
  Graph GraphProofs DfsProofs Rules Atom AtomInv AtomSafe AtomSafe2 AtomSafe3 AtomSafe4 AtomSafe5 AtomSafe6 AtomLevels AtomKeep AtomPaths AtomHist AtomAlias AtomSub.
Import ListNotations.

(** Names in order of first appearance. *)
Definition first_seen (ks : list string) : list string :=
  fold_left (fun acc k => if in_dec string_dec k acc then acc else acc ++ [k]) ks [].
(** The last entry of a list of (name, level) pairs with a given name. *)
Definition last_for (k : string) (ps : list (string * nat)) : option nat :=
  fold_left (fun cur p => if string_dec (fst p) k then Some (snd p) else cur) ps None.

Lemma lkind_eq_dec : forall k k' : lkind, {k = k'} + {k <> k'}.
Proof. decide equality. Defined.

Lemma fold_dset_keys : forall ps (d : dict string nat),
  dkeys (fold_left (fun d p => dset (fst p) (snd p) d) ps d) =
  fold_left (fun acc k => if in_dec string_dec k acc then acc else acc ++ [k]) (map fst ps) (dkeys d).
Proof.
  induction ps as [|[k v] ps IH]; intros d; cbn [fold_left map fst snd]; auto. rewrite IH. f_equal.
  destruct (in_dec string_dec k (dkeys d)) as [H|H]; [now rewrite dkeys_dset_old|now rewrite dkeys_dset_new].
Qed.
Lemma fold_dset_get : forall k ps (d : dict string nat),
  dget k (fold_left (fun d p => dset (fst p) (snd p) d) ps d) =
  fold_left (fun cur p => if string_dec (fst p) k then Some (snd p) else cur) ps (dget k d).
Proof.
  induction ps as [|[k' v] ps IH]; intros d; cbn [fold_left fst snd]; auto. rewrite IH. f_equal. rewrite dget_dset.
  destruct (string_dec k' k) as [->|H]; [now rewrite keqb_refl|now rewrite keqb_neq by congruence].
Qed.

Lemma flat_map_ext' {A B} : forall (f g : A -> list B) r, (forall q, In q r -> f q = g q) -> flat_map f r = flat_map g r.
Proof.
  induction r as [|q r IH]; intros H; auto. cbn [flat_map]. rewrite H, IH; auto; intros; try apply H; simpl; auto.
Qed.

Section Names.
  Context (N : Num) (muB : N) (orc : nat -> oracle) (OK : forall n, oracle_ok (orc n)).
  Notation st := (st N).
  Notation level := (level N).
  Notation trans := (trans N).
  Notation M := (M N).
  Notation op := (op N).
  Notation step := (step N muB orc).
  Notation run := (run N muB orc).
  Implicit Types (s : st) (l : level) (x y : trans) (a : nat) (t : nat).

  (** The level a name stands for after a history, when it stood for [cur]. *)
  Fixpoint owner (k : string) s (os : list op) (cur : option nat) : option nat :=
    match os with
    | [] => cur
    | o :: os' =>
        owner k (step s o) os'
          match o with
          | OAddLevel _ a _ _ =>
              match lv s a with
              | Some l => if lkind_eq_dec (l_kind l) LE then if string_dec (lname l) k then Some a else cur else cur
              | None => cur
              end
          | ODelLevel _ key => if string_dec key k then None else cur
          | _ => cur
          end
    end.

  Lemma owner_names : forall os k s d, dget k (names_after N muB orc s os d) = owner k s os (dget k d).
  Proof.
    induction os as [|o os IH]; intros k s d; auto. cbn [names_after owner]. rewrite IH. f_equal.
    destruct o; auto; cbn [named].
    - destruct (lv s a) as [l|]; auto. destruct (lkind_eq_dec (l_kind l) LE) as [->|H]; [|now destruct (l_kind l)].
      rewrite dget_dset. destruct (string_dec (lname l) k) as [<-|H]; [now rewrite keqb_refl|now rewrite keqb_neq by congruence].
    - rewrite dget_ddel. destruct (string_dec key k) as [<-|H]; [now rewrite keqb_refl|now rewrite keqb_neq by congruence].
  Qed.

  Lemma owner_ok : forall s os k, WF s -> dget k (node_attrs (s_g0 (run s os))) = owner k s os (dget k (node_attrs (s_g0 s))).
  Proof. intros s os k W. rewrite run_names by auto. apply owner_names. Qed.

  Lemma owner_get : forall s os k, WF s -> has_char "=" k = false -> dget k (s_lal (run s os)) = None ->
    levels_get N k (run s os) =
      (match owner k s os (dget k (node_attrs (s_g0 s))) with Some a => Ok a | None => Raise KeyError end, run s os).
  Proof. intros s os k W H A. rewrite get_plain by auto. now rewrite owner_ok. Qed.

  (** Additions alone. *)
  Definition adds (ads : list (nat * bool * option string)) : list op :=
    map (fun q => OAddLevel N (fst (fst q)) (snd (fst q)) (snd q)) ads.
  Definition additions s (ads : list (nat * bool * option string)) : list (string * nat) :=
    flat_map (fun q => match lv s (fst (fst q)) with
                       | Some l => if lkind_eq_dec (l_kind l) LE then [(lname l, fst (fst q))] else []
                       | None => [] end) ads.

  Lemma adds_names : forall ads s d, WF s -> (forall q, In q ads -> lv s (fst (fst q)) <> None) ->
    names_after N muB orc s (adds ads) d = fold_left (fun d p => dset (fst p) (snd p) d) (additions s ads) d.
  Proof.
    induction ads as [|[[a p] al] ads IH]; intros s d W H; auto.
    assert (X : ext s (step s (OAddLevel N a p al))).
    { destruct (step_invalid N muB orc s (OAddLevel N a p al) W) as [V|E]; [|rewrite E; apply ext_refl]. apply (run_op_safe N muB orc OK s _ W V). }
    cbn [adds map names_after]. fold (adds ads). rewrite IH.
    - unfold additions. cbn [flat_map]. rewrite fold_left_app. f_equal.
      + apply flat_map_ext'. intros q Hq. specialize (H q (or_intror Hq)). destruct (lv s (fst (fst q))) as [l|] eqn:V; [|congruence].
        destruct (ext_lv _ _ _ X _ _ V) as [l' [V' S']]. cbn [fst snd]. rewrite V'. rewrite (proj1 (proj2 (lsame_names _ _ _ S'))). destruct S' as [-> _]. reflexivity.
      + cbn [fst snd named]. destruct (lv s a) as [l|]; auto. destruct (lkind_eq_dec (l_kind l) LE) as [->|K]; auto. now destruct (l_kind l).
    - apply step_WF; auto.
    - intros q Hq. specialize (H q (or_intror Hq)). destruct (lv s (fst (fst q))) as [l|] eqn:V; [|congruence].
      destruct (ext_lv _ _ _ X _ _ V) as [l' [V' _]]. cbn [fst snd]. now rewrite V'.
  Qed.

  Lemma adds_level : forall ads, forallb (level_op N) (adds ads) = true.
  Proof. induction ads; auto. Qed.

  (** From an atom without levels, additions give the names in the order they
      were first used, each standing for the last level added under it. *)
  Lemma adds_ok : forall s ads, WF s -> s_g0 s = g_empty -> (forall q, In q ads -> lv s (fst (fst q)) <> None) ->
    dkeys (node_attrs (s_g0 (run s (adds ads)))) = first_seen (map fst (additions s ads)) /\
    forall k, dget k (node_attrs (s_g0 (run s (adds ads)))) = last_for k (additions s ads).
  Proof.
    intros s ads W E H. rewrite (run_level_ops N muB orc OK) by (auto using adds_level; unfold no_bare; rewrite E; discriminate).
    rewrite adds_names by auto. rewrite E. split; [rewrite fold_dset_keys; reflexivity|intros k; rewrite fold_dset_get; reflexivity].
  Qed.

  (** Aliases. *)
  Fixpoint unbound (al : string) s (os : list op) : Prop :=
    match os with [] => True | o :: os' => ~ binds N s o al /\ unbound al (step s o) os' end.
  Lemma alias_kept : forall os s al, WF s -> unbound al s os -> dget al (s_lal (run s os)) = dget al (s_lal s).
  Proof.
    induction os as [|o os IH]; intros s al W [] ; auto. rewrite run_cons, IH by (auto; now apply step_WF). now apply step_alias_kept.
  Qed.
  Lemma alias_stays : forall s a l al, WF s -> lv s a = Some l -> l_attached l = true ->
    exists s', set_alias N a al s = (Ok tt, s') /\ WF s' /\
      forall os, unbound al s' os -> levels_get N al (run s' os) = (Ok a, run s' os).
  Proof.
    intros s a l al W V A. destruct (set_alias_spec _ s a l al W V A) as [s' [E [W' [_ E']]]]. exists s'. split; auto. split; auto.
    intros os U. apply get_alias. rewrite alias_kept by auto. rewrite E'. cbn. now rewrite dget_dset_eq.
  Qed.

  (** ** mJ keys and deletions, as stated *)

  Lemma mJ_exact : forall s, reachable N muB orc s ->
    forall n a l j m, dget n (node_attrs (s_g0 s)) = Some a -> lv s a = Some l -> l_J l = Some j -> has_char "=" n = false ->
    dget (n ++ " mJ=" ++ half_label m)%string (s_lal s) = None ->
    let r := fst (levels_get N (n ++ " mJ=" ++ half_label m) s) in
    let answers := Z.even (s_I s) = true /\ (s_I s <= 2 * j)%Z /\ (- j <= m <= j)%Z /\ Z.even (j + m) = true in
    (answers -> exists c, r = Ok c) /\ (~ answers -> r = Raise KeyError) /\
    (s_I s <> 0%Z -> fst (getitem N a ("mJ=" ++ half_label m) s) = Raise KeyError).
  Proof.
    intros s R n a l j m Hn V Ej He Hal r answers. assert (W : WF s) by (eapply reachable_WF; eauto).
    destruct (wf_J _ _ _ _ W V) as [j' [Ej' Hj]]. rewrite Ej in Ej'. injection Ej' as <-. pose proof (wf_I _ _ W) as HI.
    assert (Q : answers <-> tri j (s_I s) j = true /\ In m (mF_range j)).
    { unfold answers. rewrite mF_range_In. unfold tri. rewrite !andb_true_iff, !Z.leb_le.
      replace (j + s_I s + j)%Z with (s_I s + 2 * j)%Z by lia. rewrite Z.even_add_mul_2.
      split; intros; repeat split; try tauto; lia. }
    split; [|split].
    - intros A. destruct (mJ_lookup N s n a l j m W Hn V Ej He Hal) as [[c [E _]]|[_ E]]; [eauto|]. apply Q in A. contradiction.
    - intros A. destruct (mJ_lookup N s n a l j m W Hn V Ej He Hal) as [[c [_ E]]|[E _]]; auto. apply Q in E. contradiction.
    - intros H. apply mJ_item with l; auto. destruct (node_inv N s n a W Hn) as [l0 [V0 H0]]. rewrite V in V0. injection V0 as <-. apply H0.
  Qed.

  Lemma deleted_paths : forall s, reachable N muB orc s ->
    forall n a l, dget n (node_attrs (s_g0 s)) = Some a -> lv s a = Some l ->
    exists s', del_level N n s = (Ok tt, s') /\
      (forall key, dget key (s_lal s') = None -> fst (levels_get N key s') <> Ok a) /\
      (forall f m, has_char "=" n = false ->
        forall key, In key (paths n f m) -> dget key (s_lal s') = None -> fst (levels_get N key s') = Raise KeyError) /\
      (forall k, k <> n -> dget k (node_attrs (s_g0 s')) = dget k (node_attrs (s_g0 s))) /\
      (forall u v t, In ((u, v), t) (edge_attrs (s_g0 s')) <-> In ((u, v), t) (edge_attrs (s_g0 s)) /\ u <> n /\ v <> n) /\
      (forall u v t x, In ((u, v), t) (edge_attrs (s_g0 s')) -> tr s' t = Some x -> nm s' (x_lo x) <> Some n /\ nm s' (x_up x) <> Some n).
  Proof.
    intros s R n a l Hn V. assert (W : WF s) by (eapply reachable_WF; eauto).
    destruct (deleted N s n a l W Hn V) as [s' [E [_ [El [G1 [G2 [G3 [G4 G5]]]]]]]]. exists s'. rewrite El. split; auto. split; auto.
    split; [|auto]. intros f m He key Hk Hal. destruct (G2 f m) as [H1 [H2 [H3 H4]]].
    destruct Hk as [<-|[<-|[<-|[<-|[]]]]]; auto. rewrite get_plain by (auto; congruence).
    unfold node, asks in H1. destruct (dget n (node_attrs (s_g0 s'))); [discriminate|reflexivity].
  Qed.
End Names.
