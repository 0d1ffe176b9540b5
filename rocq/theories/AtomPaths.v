(** The access paths to a level, and what a history may do to them. *)
From Coq Require Import List Bool ZArith QArith Qcanon Lia String Ascii Permutation Sorted.
From Verif Require Import Base PyStr Util UtilProofs Parse Term TermProofs Num Wigner Hyperfine HyperfineProofs
  Graph GraphProofs DfsProofs Rules Atom AtomInv AtomSafe AtomSafe2 AtomSafe3 AtomSafe4 AtomSafe5 AtomSafe6 AtomLevels AtomKeep.
Import ListNotations.

(** ** Strings *)

Section Strings.
  Local Open Scope string_scope.

  Lemma split_unique : forall c u v x y, has_char c u = false -> has_char c v = false ->
    u ++ String c v = x ++ String c y -> x = u /\ y = v.
  Proof.
    intros c. induction u as [|d u IH]; intros v x y Hu Hv E.
    - destruct x as [|e x]; simpl in E.
      + injection E as ->. auto.
      + injection E as <- E. rewrite E in Hv. rewrite has_char_app in Hv. simpl in Hv. rewrite Ascii.eqb_refl in Hv.
        destruct (has_char c x); discriminate.
    - simpl in Hu. apply orb_false_iff in Hu as [Hd Hu]. destruct x as [|e x]; simpl in E.
      + injection E as -> E. rewrite Ascii.eqb_refl in Hd. discriminate.
      + injection E as -> E. destruct (IH v x y Hu Hv E) as [-> ->]. auto.
  Qed.

  Lemma last_app1 : forall x y c d, x ++ String c "" = y ++ String d "" -> c = d.
  Proof.
    intros x y c d E. apply (f_equal (last_of "-")) in E. rewrite !last_of_app in E. exact E.
  Qed.
  Lemma last_app2 : forall x y b c d e, x ++ String b (String c "") = y ++ String d (String e "") -> b = d /\ c = e.
  Proof.
    intros x y b c d e E. change (String b (String c "")) with (String b "" ++ String c "") in E.
    change (String d (String e "")) with (String d "" ++ String e "") in E. rewrite <- !append_assoc in E.
    pose proof (last_app1 _ _ _ _ E) as ->. apply append_inj_r in E. apply last_app1 in E. auto.
  Qed.

  (** A key with a single '=', preceded by the characters [p q]. *)
  Lemma one_eq : forall u p q v b c, has_char "=" u = false -> p <> "="%char -> q <> "="%char -> has_char "=" v = false ->
    contains (String b (String c "=")) (u ++ String p (String q (String "=" v))) = true -> b = p /\ c = q.
  Proof.
    intros u p q v b c Hu Hp Hq Hv C. apply contains_spec in C as [x [y E]].
    assert (E' : (u ++ String p (String q "")) ++ String "=" v = (x ++ String b (String c "")) ++ String "=" y).
    { rewrite !append_assoc. exact E. }
    apply split_unique in E' as [E1 _]; auto.
    - apply last_app2 in E1. exact E1.
    - rewrite has_char_app, Hu. simpl. destruct (Ascii.eqb_spec p "="); [congruence|]. destruct (Ascii.eqb_spec q "="); [congruence|]. reflexivity.
  Qed.

  Lemma key_F_plain : forall n f, has_char "=" n = false ->
    contains "mF=" (n ++ " F=" ++ half_label f) = false /\ contains "mJ=" (n ++ " F=" ++ half_label f) = false /\
    contains "F=" (n ++ " F=" ++ half_label f) = true.
  Proof.
    intros n f Hn. assert (Hl : has_char "=" (half_label f) = false) by (apply half_label_free; reflexivity).
    repeat split.
    - destruct (contains "mF=" _) eqn:C; auto. apply one_eq in C as [C _]; auto; discriminate.
    - destruct (contains "mJ=" _) eqn:C; auto. apply one_eq in C as [C _]; auto; discriminate.
    - change (" F=" ++ half_label f) with (" " ++ ("F=" ++ half_label f)). rewrite <- append_assoc. apply contains_self_mid.
  Qed.
  Lemma key_mJ_plain : forall n m, has_char "=" n = false ->
    contains "mF=" (n ++ " mJ=" ++ half_label m) = false /\ contains "mJ=" (n ++ " mJ=" ++ half_label m) = true.
  Proof.
    intros n m Hn. assert (Hl : has_char "=" (half_label m) = false) by (apply half_label_free; reflexivity).
    split.
    - destruct (contains "mF=" _) eqn:C; auto. change (n ++ " mJ=" ++ half_label m) with (n ++ " " ++ String "m" (String "J" (String "=" (half_label m)))) in C.
      rewrite <- append_assoc in C. apply one_eq in C as [_ C]; auto; try discriminate. rewrite has_char_app, Hn. reflexivity.
    - change (" mJ=" ++ half_label m) with (" " ++ ("mJ=" ++ half_label m)). rewrite <- append_assoc. apply contains_self_mid.
  Qed.
  Lemma key_mF_has : forall n f m, contains "mF=" (n ++ " F=" ++ half_label f ++ " mF=" ++ half_label m) = true.
  Proof.
    intros n f m. apply contains_app_r. change (contains "mF=" ((" F=" ++ half_label f) ++ " " ++ "mF=" ++ half_label m) = true).
    apply contains_app_r, contains_app_r. apply contains_app_l. reflexivity.
  Qed.
  Lemma rsplit_mJ : forall n m, rsplit1 " mJ=" (n ++ " mJ=" ++ half_label m) = Some (n, half_label m).
  Proof.
    intros n m. apply rsplit1_app; [discriminate|auto|].
    change (contains " mJ=" (substring 1 (S (String.length ("mJ=" ++ half_label m))) (String " " ("mJ=" ++ half_label m))) = false).
    cbn [substring]. destruct (contains " mJ=" _) eqn:C; auto.
    apply (contains_char " ") in C; [|reflexivity].
    assert (S : forall z, substring 0 (S (String.length z)) z = z) by (induction z; simpl; congruence).
    rewrite S in C. rewrite has_char_app, half_label_free in C by reflexivity. discriminate.
  Qed.

  Lemma replace2_none : forall a b c d s, has_char b s = false -> replace2 a b c d s = s.
  Proof.
    intros a b c d. induction s as [|x s IH]; intros H; auto. simpl in H. apply orb_false_iff in H as [Hx H].
    destruct s as [|y s]; auto. change (replace2 a b c d (String x (String y s))) with
      (if Ascii.eqb x a && Ascii.eqb y b then String c (String d (replace2 a b c d s)) else String x (replace2 a b c d (String y s))).
    pose proof H as H'. simpl in H'. apply orb_false_iff in H' as [Hy _]. rewrite Hy, andb_false_r. now rewrite IH.
  Qed.
  Lemma replace_mJ : forall m, replace2 "m" "J" "m" "F" ("mJ=" ++ half_label m) = "mF=" ++ half_label m.
  Proof.
    intros m. change (replace2 "m" "J" "m" "F" ("mJ=" ++ half_label m)) with
      (String "m" (String "F" (replace2 "m" "J" "m" "F" (String "=" (half_label m))))).
    rewrite replace2_none; [reflexivity|]. simpl. apply half_label_free. reflexivity.
  Qed.
End Strings.

Section Paths.
  Context (N : Num) (muB : N).
  Notation st := (st N).
  Notation level := (level N).
  Notation trans := (trans N).
  Notation M := (M N).
  Notation energy := (energy N muB).
  Implicit Types (s : st) (l : level) (x y : trans) (a : nat) (t : nat).

  (** ** levels[key] *)

  Lemma get_alias : forall s key a, dget key (s_lal s) = Some a -> levels_get N key s = (Ok a, s).
  Proof. intros s key a E. unfold levels_get, bind, gets. now rewrite E. Qed.

  Lemma no_eq_contains : forall p key, has_char "=" p = true -> has_char "=" key = false -> contains p key = false.
  Proof. intros p key Hp Hk. destruct (contains p key) eqn:C; auto. apply (contains_char "=") in C; auto. congruence. Qed.

  Lemma get_plain : forall s key, dget key (s_lal s) = None -> has_char "=" key = false ->
    levels_get N key s = (match dget key (node_attrs (s_g0 s)) with Some a => Ok a | None => Raise KeyError end, s).
  Proof.
    intros s key E H. unfold levels_get, bind, gets. rewrite E. rewrite !no_eq_contains by auto.
    unfold node, asks. destruct (dget key (node_attrs (s_g0 s))); reflexivity.
  Qed.

  Lemma get_F : forall s n a f, dget n (node_attrs (s_g0 s)) = Some a -> has_char "=" n = false ->
    dget (n ++ " F=" ++ half_label f)%string (s_lal s) = None ->
    levels_get N (n ++ " F=" ++ half_label f) s = getitem N a (F_key f) s.
  Proof.
    intros s n a f En Hn Hal. unfold levels_get. unfold bind at 1, gets. rewrite Hal.
    destruct (key_F_plain n f Hn) as [-> [-> ->]]. unfold bind, asks, node, asks. rewrite name_split1. cbn [fst snd]. now rewrite En.
  Qed.

  Lemma get_mF : forall s n a f m, dget n (node_attrs (s_g0 s)) = Some a ->
    dget (n ++ " F=" ++ half_label f ++ " mF=" ++ half_label m)%string (s_lal s) = None ->
    levels_get N (n ++ " F=" ++ half_label f ++ " mF=" ++ half_label m) s =
    bind (getitem N a (F_key f)) (fun b => getitem N b (mF_key m)) s.
  Proof.
    intros s n a f m En Hal. unfold levels_get. unfold bind at 1, gets. rewrite Hal. rewrite key_mF_has.
    unfold bind, asks, node, asks. rewrite name_split2. cbn [fst snd]. rewrite En. reflexivity.
  Qed.

  Lemma get_mJ : forall s n a l m, dget n (node_attrs (s_g0 s)) = Some a -> lv s a = Some l -> has_char "=" n = false ->
    dget (n ++ " mJ=" ++ half_label m)%string (s_lal s) = None ->
    levels_get N (n ++ " mJ=" ++ half_label m) s =
    bind (getitem N a ("F=" ++ frac (l_J l))) (fun b => getitem N b (mF_key m)) s.
  Proof.
    intros s n a l m En V Hn Hal. unfold levels_get. unfold bind at 1, gets. rewrite Hal.
    destruct (key_mJ_plain n m Hn) as [-> ->]. unfold bind, asks, node, get_lv, asks. rewrite rsplit_mJ. cbn [fst snd]. rewrite En, V. reflexivity.
  Qed.

  (** level['mJ=m'] without nuclear spin *)
  Lemma item_mJ : forall s a l m, WF s -> s_I s = 0%Z -> lv s a = Some l ->
    getitem N a ("mJ=" ++ half_label m) s =
    bind (getitem N a ("F=" ++ frac (l_J l))) (fun b => getitem N b (mF_key m)) s.
  Proof.
    intros s a l m W E0 V. destruct (wf_J _ _ _ _ W V) as [j [EJ _]].
    unfold getitem. cbn [lv_getitem]. unfold bind.
    destruct (lazy_safe _ s a l W V) as [W1 [L1 H1]].
    destruct (lazy_sublevels N a s) as [[[]|e] s1] eqn:El; cbn [fst snd] in *; auto.
    destruct H1 as [l1 [V1 [S1 _]]]. assert (E1 : s_I s1 = 0%Z) by (rewrite <- E0; apply L1).
    destruct (lsame_names _ _ _ S1) as [_ [_ [_ [J1 _]]]].
    unfold get_lv, asks, gets, raise. rewrite V1, E1, J1, EJ. cbn [Z.eqb andb].
    change (contains "mJ" ("mJ=" ++ half_label m)) with true. cbn iota.
    change ("F=" ++ frac (Some j))%string with (F_key j). rewrite (no_mJ LE j : contains "mJ" (F_key j) = false).
    destruct (dget (F_key j) (l_subs l1)) as [b|]; auto. rewrite replace_mJ.
    destruct (lazy_sublevels N b s1) as [[[]|e] s2]; auto.
    destruct (lv s2 b) as [lb|]; auto.
    change ("mF=" ++ half_label m)%string with (mF_key m). rewrite (no_mJ LHF m : contains "mJ" (mF_key m) = false). rewrite andb_false_r. reflexivity.
  Qed.

  (** ** What listing sublevels gives *)

  Lemma sub_key_name : forall s a l z b (lb : level), WF s -> lv s a = Some l -> l_kind l <> LZ -> child s a l z b -> lv s b = Some lb ->
    lname lb = (lname l ++ " " ++ sub_key (l_kind l) z)%string.
  Proof. intros s a l z b lb W V K C Vb. pose proof (lname_child _ _ _ _ _ _ _ W V C Vb) as H. destruct (l_kind l); auto; congruence. Qed.

  (** The state in which the sublevels of [a] exist, and what every key gives. *)
  Lemma items : forall s a l, WF s -> lv s a = Some l -> l_attached l = true ->
    exists l' s', sublevels N a s = (Ok (dvals (l_subs l')), s') /\ WF s' /\ lookl s s' /\ lv s' a = Some l' /\ lsame l l' /\ full s' a l' /\
      forall key, ((s_I s =? 0)%Z && contains "mJ" key) = false ->
        getitem N a key s = (match dget key (l_subs l') with Some b => Ok b | None => Raise KeyError end, s').
  Proof.
    intros s a l W V A. destruct (sublevels_ok _ s a l W V A) as [l' [s' [E1 [E2 [W' [L' [V' [S' F']]]]]]]].
    exists l', s'. split; auto. split; auto. split; auto. split; auto. split; auto. split; auto. intros key C. eapply getitem_plain; eauto.
  Qed.

  Lemma items_spec : forall s a l, WF s -> lv s a = Some l -> l_attached l = true ->
    exists bs s', sublevels N a s = (Ok bs, s') /\ WF s' /\ lookl s s' /\
      Forall2 (fun z b => getitem N a (sub_key (l_kind l) z) s = (Ok b, s') /\ child s' a l z b) (sub_range s l) bs /\
      forall key, (forall z, In z (sub_range s l) -> key <> sub_key (l_kind l) z) -> ((s_I s =? 0)%Z && contains "mJ" key) = false ->
        getitem N a key s = (Raise KeyError, s').
  Proof.
    intros s a l W V A. destruct (items s a l W V A) as [l' [s' [E [W' [L' [V' [S' [F' G]]]]]]]].
    exists (dvals (l_subs l')), s'. split; auto. split; auto. split; auto.
    assert (Ei : s_I s' = s_I s) by (apply L').
    assert (Er : sub_range s' l' = sub_range s l) by (now apply lsame_range).
    pose proof S' as [K' [_ [T' _]]]. split.
    - pose proof (full_values _ _ _ _ F') as H. rewrite Er, K' in H. eapply Forall2_imp; [|exact H].
      intros z b [D [lb [Vb [Kb [Pb Tb]]]]]. split.
      + rewrite G, D; auto. now rewrite no_mJ, andb_false_r.
      + exists lb. rewrite <- K', <- T'. auto.
    - intros key H C. rewrite G by auto. rewrite (full_other _ s' a l' key F'); auto. rewrite Er, K'. auto.
  Qed.

  (** ** Resolved paths *)

  Definition resolved s (n : string) a (f : Z) (b : nat) (m : Z) (c : nat) : Prop :=
    dget n (node_attrs (s_g0 s)) = Some a /\
    (exists la, lv s a = Some la /\ l_kind la = LE /\ dget (F_key f) (l_subs la) = Some b) /\
    (exists lb, lv s b = Some lb /\ l_kind lb = LHF /\ l_parent lb = Some a /\ dget (mF_key m) (l_subs lb) = Some c).

  Lemma dget_nonempty {V} : forall (d : dict string V) k v, dget k d = Some v -> d <> [].
  Proof. intros [|? ?] k v H; discriminate. Qed.

  Lemma item_present : forall s a l key b, WF s -> lv s a = Some l -> dget key (l_subs l) = Some b ->
    getitem N a key s = (Ok b, s).
  Proof.
    intros s a l key b W V D. pose proof (dget_nonempty _ _ _ D) as Hn.
    assert (C : contains "mJ" key = false).
    { pose proof (full_nonempty _ _ _ _ W V Hn) as F. assert (I : In key (dkeys (l_subs l))) by (apply dget_Some_key; eauto).
      rewrite (full_keys _ _ _ _ F) in I. apply in_map_iff in I as [z [<- _]]. apply no_mJ. }
    rewrite (getitem_plain _ s a l l s key); auto; [now rewrite D|eapply lazy_pure; eauto|]. rewrite C. apply andb_false_r.
  Qed.

  Lemma resolved_paths : forall s n a f b m c, WF s -> resolved s n a f b m c -> has_char "=" n = false ->
    (forall key, dget key (s_lal s) = None \/ key <> n /\ key <> (n ++ " F=" ++ half_label f)%string /\
       key <> (n ++ " F=" ++ half_label f ++ " mF=" ++ half_label m)%string /\ key <> (n ++ " mJ=" ++ half_label m)%string) ->
    levels_get N n s = (Ok a, s) /\
    levels_get N (n ++ " F=" ++ half_label f) s = (Ok b, s) /\
    getitem N a (F_key f) s = (Ok b, s) /\
    levels_get N (n ++ " F=" ++ half_label f ++ " mF=" ++ half_label m) s = (Ok c, s) /\
    getitem N b (mF_key m) s = (Ok c, s) /\
    (s_I s = 0%Z -> levels_get N (n ++ " mJ=" ++ half_label m) s = (Ok c, s) /\ getitem N a ("mJ=" ++ half_label m) s = (Ok c, s)).
  Proof.
    intros s n a f b m c W [Hn [[la [Va [Ka Da]]] [lb [Vb [Kb [Pb Db]]]]]] He Hal.
    pose proof (item_present _ _ _ _ _ W Va Da) as Ga. pose proof (item_present _ _ _ _ _ W Vb Db) as Gb.
    assert (E1 : dget n (s_lal s) = None) by (destruct (Hal n) as [H|H]; [auto|intuition congruence]).
    assert (E2 : dget (n ++ " F=" ++ half_label f)%string (s_lal s) = None) by (destruct (Hal (n ++ " F=" ++ half_label f)%string) as [H|H]; [auto|intuition congruence]).
    assert (E3 : dget (n ++ " F=" ++ half_label f ++ " mF=" ++ half_label m)%string (s_lal s) = None)
      by (destruct (Hal (n ++ " F=" ++ half_label f ++ " mF=" ++ half_label m)%string) as [H|H]; [auto|intuition congruence]).
    assert (E4 : dget (n ++ " mJ=" ++ half_label m)%string (s_lal s) = None) by (destruct (Hal (n ++ " mJ=" ++ half_label m)%string) as [H|H]; [auto|intuition congruence]).
    split; [rewrite get_plain by auto; now rewrite Hn|].
    split; [rewrite (get_F s n a) by auto; exact Ga|]. split; auto.
    split; [rewrite (get_mF s n a) by auto; unfold bind; now rewrite Ga|]. split; auto.
    intros E0.
    assert (Ef : F_key f = ("F=" ++ frac (l_J la))%string).
    { pose proof (dget_nonempty _ _ _ Da) as Hs. pose proof (full_nonempty _ _ _ _ W Va Hs) as F.
      destruct (wf_J _ _ _ _ W Va) as [j [Ej Hj]]. rewrite Ej. change ("F=" ++ frac (Some j))%string with (F_key j). f_equal.
      assert (I : In (F_key f) (dkeys (l_subs la))) by (apply dget_Some_key; eauto). rewrite (full_keys _ _ _ _ F), Ka in I. apply in_map_iff in I as [z [Ez I]].
      unfold sub_key in Ez. apply F_key_inj in Ez. subst z. unfold sub_range in I. rewrite Ka, Ej, E0 in I.
      apply F_range_In in I; [|lia|lia]. unfold tri in I. rewrite !andb_true_iff, !Z.leb_le in I. lia. }
    split.
    - rewrite (get_mJ s n a la m Hn Va He E4). rewrite <- Ef. unfold bind. now rewrite Ga.
    - rewrite (item_mJ s a la m W E0 Va). rewrite <- Ef. unfold bind. now rewrite Ga.
  Qed.

  (** Looking a Zeeman sublevel up resolves its paths. *)
  Lemma resolve : forall s n a l j f m, WF s -> dget n (node_attrs (s_g0 s)) = Some a -> lv s a = Some l -> l_J l = Some j ->
    has_char "=" n = false -> dget (n ++ " F=" ++ half_label f ++ " mF=" ++ half_label m)%string (s_lal s) = None ->
    In f (F_range j (s_I s)) -> In m (mF_range f) ->
    exists b c s1, levels_get N (n ++ " F=" ++ half_label f ++ " mF=" ++ half_label m) s = (Ok c, s1) /\ WF s1 /\ lookl s s1 /\
      resolved s1 n a f b m c /\
      (exists lb, lv s1 b = Some lb /\ l_F lb = Some f /\ lname lb = (lname l ++ " F=" ++ half_label f)%string) /\
      (exists lc, lv s1 c = Some lc /\ l_F lc = Some f /\ l_mF lc = Some m /\ lname lc = (lname l ++ " F=" ++ half_label f ++ " mF=" ++ half_label m)%string).
  Proof.
    intros s n a l j f m W Hn V Ej He Hal If Im.
    destruct (wf_g _ _ W LE) as [_ Hnodes _]. pose proof Hn as Hn0.
    rewrite node_attrs_get in Hn0 by apply (wf_g _ _ W LE). destruct (dget n (g_nodes (s_g0 s))) as [o|] eqn:Eo; [|discriminate]. subst o.
    destruct (Hnodes n a Eo) as [l0 [V0 [K [_ A]]]]. rewrite V in V0. injection V0 as <-.
    rewrite (get_mF s n a) by auto.
    destruct (items s a l W V A) as [la [s1 [E1 [W1 [L1 [V1 [S1 [F1 G1]]]]]]]].
    pose proof S1 as [K1 [_ [T1 _]]]. assert (I1 : s_I s1 = s_I s) by (apply L1).
    assert (R1 : sub_range s1 la = F_range j (s_I s)).
    { rewrite (lsame_range _ _ _ _ _ I1 S1). unfold sub_range. now rewrite K, Ej. }
    destruct (full_key _ s1 a la f F1) as [b [Db Cb]]; [now rewrite R1|].
    rewrite K1, K in Db. unfold sub_key in Db.
    assert (Gb : getitem N a (F_key f) s = (Ok b, s1)).
    { rewrite G1; [now rewrite Db|]. rewrite (no_mJ LE f : contains "mJ" (F_key f) = false). apply andb_false_r. }
    destruct (child_level _ _ _ _ _ _ W1 Cb) as [lb [Vb [Ab [Kb [_ Pb]]]]]. rewrite K1, K in Kb. unfold sub_kind in Kb.
    destruct (child_numbers _ s1 a la f b lb W1 V1 Cb Vb) as [Nb _]. rewrite K1, K in Nb. destruct Nb as [Fb _].
    destruct (items s1 b lb W1 Vb Ab) as [lb2 [s2 [E2 [W2 [L2 [Vb2 [S2 [F2 G2]]]]]]]].
    pose proof S2 as [K2 [P2 [T2 _]]]. assert (I2 : s_I s2 = s_I s1) by (apply L2).
    assert (R2 : sub_range s2 lb2 = mF_range f).
    { rewrite (lsame_range _ _ _ _ _ I2 S2). unfold sub_range. now rewrite Kb, Fb. }
    destruct (full_key _ s2 b lb2 m F2) as [c [Dc Cc]]; [now rewrite R2|].
    rewrite K2, Kb in Dc. unfold sub_key in Dc.
    assert (Gc : getitem N b (mF_key m) s1 = (Ok c, s2)).
    { rewrite G2; [now rewrite Dc|]. rewrite (no_mJ LHF m : contains "mJ" (mF_key m) = false). apply andb_false_r. }
    destruct (child_level _ _ _ _ _ _ W2 Cc) as [lc [Vc _]].
    destruct (child_numbers _ s2 b lb2 m c lc W2 Vb2 Cc Vc) as [Nc _]. rewrite K2, Kb in Nc. destruct Nc as [Fc Mc].
    pose proof (lsame_names _ _ _ S1) as [_ [Nm1 _]]. pose proof (lsame_names _ _ _ S2) as [_ [Nm2 [_ [_ [Ef2 _]]]]].
    pose proof (sub_key_name s1 a la f b lb W1 V1) as Nb. rewrite K1, K in Nb. specialize (Nb ltac:(discriminate) Cb Vb). cbn [sub_key] in Nb.
    pose proof (sub_key_name s2 b lb2 m c lc W2 Vb2) as Nc. rewrite K2, Kb in Nc. specialize (Nc ltac:(discriminate) Cc Vc). cbn [sub_key] in Nc.
    exists b, c, s2. split; [unfold bind; rewrite Gb; exact Gc|]. split; auto. split; [eapply lookl_po; eauto|].
    destruct (fr_lv _ _ _ (lo_frame _ _ _ (proj1 L2)) _ _ V1) as [la2 [Va2 Ea2]].
    assert (Sa2 : l_subs la2 = l_subs la).
    { eapply lo_subs; [exact (proj1 L2)|exact V1| |exact Va2]. exact (dget_nonempty _ _ _ Db). }
    split; [|split].
    - split; [rewrite (fr_g0 _ _ _ (lo_frame _ _ _ (proj1 L2))), (fr_g0 _ _ _ (lo_frame _ _ _ (proj1 L1))); auto|].
      split; [exists la2|exists lb2].
      + split; auto. split; [rewrite Ea2; cbn; congruence|]. now rewrite Sa2.
      + split; auto. split; [congruence|]. split; [congruence|auto].
    - exists lb2. split; auto. split; [congruence|]. rewrite Nm2, Nb, Nm1. reflexivity.
    - exists lc. split; auto. split; [congruence|]. split; auto. rewrite Nc, Nm2, Nb, Nm1. unfold F_key, mF_key.
      rewrite !append_assoc. reflexivity.
  Qed.
End Paths.
