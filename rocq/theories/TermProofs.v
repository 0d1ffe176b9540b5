(** Proofs about terms and MultiTerms. *)
From Coq Require Import List Bool ZArith QArith Qcanon Lia String Ascii Permutation Sorted.
From Verif Require Import Base PyStr Util UtilProofs Regex Parse Term.
Import ListNotations.
Local Open Scope string_scope.

(** ** Half-integers *)

Lemma q_double_half : forall q z, (q == z # 2)%Q -> q_double q = Some z.
Proof.
  intros q z E. unfold q_double.
  assert (E2 : (q * (2 # 1) == z # 1)%Q) by (rewrite E; unfold Qeq; simpl; lia).
  rewrite (q_is_int_proper _ _ E2), (q_trunc_proper _ _ E2).
  unfold q_is_int, q_trunc. cbn [Qnum Qden]. now rewrite Z.mod_1_r, Z.quot_1_r.
Qed.

Lemma half_of_label : forall z, half_of (VStr (half_label z)) = Ok (Some z).
Proof.
  intros z. destruct (half_label_ok z) as [q [H E]]. unfold half_of. rewrite H.
  now rewrite (q_double_half q z E).
Qed.

Lemma half_of_num : forall q z, (q == z # 2)%Q -> half_of (VNum q) = Ok (Some z).
Proof. intros q z E. unfold half_of, frac_to_float. now rewrite (q_double_half q z E). Qed.

(** ** Names *)

(** Characters that occur in labels. *)
Definition label_char (c : ascii) : bool := is_digit c || Ascii.eqb c "/" || Ascii.eqb c "-".

Lemma zstr_label : forall z, all_chars label_char (zstr z) = true.
Proof.
  assert (N : forall z, (0 <= z)%Z -> all_chars label_char (zstr z) = true).
  { intros z Hz. apply all_chars_imp with is_digit; [|now apply zstr_digits].
    intros a Ha. unfold label_char. now rewrite Ha. }
  intros z. destruct (Z.lt_ge_cases z 0).
  - rewrite zstr_neg by auto. cbn [all_chars]. rewrite N by lia. reflexivity.
  - now apply N.
Qed.

Lemma half_label_chars : forall z, all_chars label_char (half_label z) = true.
Proof.
  intros z. unfold half_label. destruct (Z.even z); [apply zstr_label|].
  rewrite all_chars_app, zstr_label. reflexivity.
Qed.

Fixpoint last_of (d : ascii) (s : string) : ascii :=
  match s with EmptyString => d | String a s' => last_of a s' end.

Lemma last_of_app : forall s d c t, last_of d (s ++ String c t) = last_of c t.
Proof. induction s; simpl; auto. Qed.

(** A string splits in only one way into a part that does not end in a label
    character, followed by label characters. *)
Lemma label_split : forall a b x y,
  label_char (last_of "-" a) = false -> label_char (last_of "-" b) = false ->
  all_chars label_char x = true -> all_chars label_char y = true ->
  a ++ x = b ++ y -> a = b /\ x = y.
Proof.
  assert (K : forall a b x y d, label_char (last_of d a) = false -> label_char (last_of d b) = false ->
     all_chars label_char x = true -> all_chars label_char y = true ->
     a ++ x = b ++ y -> a = b /\ x = y).
  { induction a as [|c a IH]; intros b x y d Ha Hb Hx Hy E.
    - destruct b as [|c b]; [auto|]. exfalso. cbn [append] in E. subst x.
      cbn [last_of] in *.
      change (String c (b ++ y)) with (String c b ++ y) in Hx.
      rewrite all_chars_app in Hx. apply andb_true_iff in Hx as [Hx _].
      clear - Hx Hb. revert c Hx Hb. induction b; intros c Hx Hb; cbn in *.
      + rewrite andb_true_r in Hx. congruence.
      + apply andb_true_iff in Hx as [_ Hx]. eapply IHb; eauto.
    - destruct b as [|c' b].
      + exfalso. cbn [append] in E. subst y. cbn [last_of] in Ha.
        change (String c (a ++ x)) with (String c a ++ x) in Hy.
        rewrite all_chars_app in Hy. apply andb_true_iff in Hy as [Hy _].
        clear - Hy Ha. revert c Hy Ha. induction a; intros c Hx Hb; cbn in *.
        * rewrite andb_true_r in Hx. congruence.
        * apply andb_true_iff in Hx as [_ Hx]. eapply IHa; eauto.
      + cbn [append] in E. injection E as <- E. cbn [last_of] in *.
        destruct (IH b x y c) as [-> ->]; auto. }
  intros. eapply K; eauto.
Qed.

(** Splitting at the first occurrence of a character. *)
Lemma first_split : forall c a b x y,
  has_char c a = false -> has_char c b = false ->
  a ++ String c x = b ++ String c y -> a = b /\ x = y.
Proof.
  induction a as [|d a IH]; intros b x y Ha Hb E.
  - destruct b as [|e b]; cbn [append] in E; [now injection E as ->|].
    injection E as -> E. cbn [has_char] in Hb. now rewrite Ascii.eqb_refl in Hb.
  - destruct b as [|e b]; cbn [append] in E.
    + injection E as -> E. cbn [has_char] in Ha. now rewrite Ascii.eqb_refl in Ha.
    + injection E as -> E. cbn [has_char] in *.
      apply orb_false_iff in Ha as [_ Ha]. apply orb_false_iff in Hb as [_ Hb].
      destruct (IH b x y Ha Hb E) as [-> ->]. auto.
Qed.

(** The number of '=' tells the depth. *)
Fixpoint count (c : ascii) (s : string) : nat :=
  match s with EmptyString => 0 | String a s' => (if Ascii.eqb a c then 1 else 0) + count c s' end.
Lemma count_app : forall c a b, count c (a ++ b) = (count c a + count c b)%nat.
Proof. induction a; intros; cbn [append count]; auto. rewrite IHa. lia. Qed.
Lemma count_free : forall c s, has_char c s = false -> count c s = 0%nat.
Proof.
  induction s; cbn [has_char count]; intros; auto. apply orb_false_iff in H as [H1 H2].
  rewrite H1. auto.
Qed.
Lemma half_label_free : forall c z, label_char c = false -> has_char c (half_label z) = false.
Proof. intros. apply all_chars_has with label_char; auto using half_label_chars. Qed.

(** Well-formed notation: a configuration has no blank and no '='; a term
    symbol has no '=' and does not end in a character of a J label. *)
Definition conf_ok (s : string) : bool := negb (has_char " " s) && negb (has_char "=" s).
Definition symbol_ok (s : string) : bool := negb (has_char "=" s) && negb (label_char (last_of "-" s)).

Definition show_F (o : option Z) : string := match o with Some f => " F=" ++ half_label f | None => "" end.
Definition show_mF (o : option Z) : string := match o with Some m => " mF=" ++ half_label m | None => "" end.
Definition depth (F mF : option Z) : nat :=
  (match F with Some _ => 1 | None => 0 end + match mF with Some _ => 1 | None => 0 end)%nat.

(** The three depths at which names are used: a level, a hyperfine level,
    a Zeeman level. *)
Definition depth_ok (F mF : option Z) : Prop := F = None -> mF = None.

Lemma name_inj : forall c s j F m c' s' j' F' m',
  conf_ok c = true -> conf_ok c' = true -> symbol_ok s = true -> symbol_ok s' = true ->
  depth_ok F m -> depth_ok F' m' ->
  c ++ " " ++ s ++ half_label j ++ show_F F ++ show_mF m =
  c' ++ " " ++ s' ++ half_label j' ++ show_F F' ++ show_mF m' ->
  c = c' /\ s = s' /\ j = j' /\ F = F' /\ m = m'.
Proof.
  intros c s j F m c' s' j' F' m' C C' S S' D D' E.
  unfold conf_ok, symbol_ok in *.
  apply andb_true_iff in C as [C1 C2]. apply andb_true_iff in C' as [C1' C2'].
  apply andb_true_iff in S as [S1 S2]. apply andb_true_iff in S' as [S1' S2'].
  rewrite negb_true_iff in *.
  assert (N : depth F m = depth F' m').
  { apply (f_equal (count "=")) in E. rewrite !count_app in E.
    rewrite (count_free _ _ C2), (count_free _ _ C2'), (count_free _ _ S1), (count_free _ _ S1') in E.
    rewrite !(count_free "=" (half_label _)) in E by (apply half_label_free; reflexivity).
    assert (KF : forall F, count "=" (show_F F) = match F with Some _ => 1 | None => 0 end%nat).
    { intros [f|]; auto. unfold show_F. rewrite count_app, (count_free _ (half_label f)) by (apply half_label_free; reflexivity). reflexivity. }
    assert (Km : forall F, count "=" (show_mF F) = match F with Some _ => 1 | None => 0 end%nat).
    { intros [f|]; auto. unfold show_mF. rewrite count_app, (count_free _ (half_label f)) by (apply half_label_free; reflexivity). reflexivity. }
    rewrite !KF, !Km in E. unfold depth. exact E. }
  cbn [append] in E. apply first_split in E as [-> E]; auto.
  assert (J : forall s s' j j' , label_char (last_of "-" s) = false -> label_char (last_of "-" s') = false ->
     s ++ half_label j = s' ++ half_label j' -> s = s' /\ j = j').
  { intros s0 s0' j0 j0' H1 H2 H3. apply label_split in H3 as [-> H3]; auto using half_label_chars.
    apply half_label_inj in H3. auto. }
  destruct F as [f|], m as [mm|], F' as [f'|], m' as [mm'|]; try discriminate N;
    try (exfalso; (specialize (D eq_refl) || specialize (D' eq_refl)); discriminate).
  - cbn [show_F show_mF append] in E.
    (* cut at the last '=' twice *)
    assert (E2 : ((s ++ half_label j) ++ " F=" ++ half_label f ++ " mF") ++ String "=" (half_label mm)
               = ((s' ++ half_label j') ++ " F=" ++ half_label f' ++ " mF") ++ String "=" (half_label mm')).
    { cbn [append]. rewrite !append_assoc. cbn [append]. rewrite !append_assoc. exact E. }
    pose proof (f_equal (rsplit_char "=") E2) as E3.
    rewrite !rsplit_char_app in E3 by (apply half_label_free; reflexivity). injection E3 as E3 E4.
    apply half_label_inj in E4. subst mm'.
    assert (E5 : ((s ++ half_label j) ++ " F") ++ String "=" (half_label f ++ " mF")
               = ((s' ++ half_label j') ++ " F") ++ String "=" (half_label f' ++ " mF")).
    { rewrite !append_assoc. cbn [append]. rewrite !append_assoc in E3. exact E3. }
    pose proof (f_equal (rsplit_char "=") E5) as E6.
    rewrite !rsplit_char_app in E6
      by (rewrite has_char_app, half_label_free by reflexivity; reflexivity). injection E6 as E6 E7.
    apply append_inj_r in E7. apply half_label_inj in E7. subst f'.
    apply append_inj_r in E6. apply J in E6 as [-> ->]; auto.
  - cbn [show_F show_mF append] in E. rewrite !append_nil_r in E.
    assert (E5 : ((s ++ half_label j) ++ " F") ++ String "=" (half_label f)
               = ((s' ++ half_label j') ++ " F") ++ String "=" (half_label f')).
    { rewrite !append_assoc. cbn [append]. exact E. }
    pose proof (f_equal (rsplit_char "=") E5) as E6.
    rewrite !rsplit_char_app in E6 by (apply half_label_free; reflexivity). injection E6 as E6 E7.
    apply half_label_inj in E7. subst f'.
    apply append_inj_r in E6. apply J in E6 as [-> ->]; auto.
  - cbn [show_F show_mF append] in E. rewrite !append_nil_r in E. apply J in E as [-> ->]; auto.
Qed.

(** *** Taking names apart *)

Lemma name_split1 : forall base f, rsplit_char " " (base ++ " F=" ++ half_label f) = Some (base, "F=" ++ half_label f).
Proof.
  intros. change (base ++ " F=" ++ half_label f) with (base ++ String " " ("F=" ++ half_label f)).
  apply rsplit_char_app. rewrite has_char_app, half_label_free by reflexivity. reflexivity.
Qed.

Lemma name_split2 : forall base f m,
  rsplit_char2 " " (base ++ " F=" ++ half_label f ++ " mF=" ++ half_label m)
  = Some (base, "F=" ++ half_label f, "mF=" ++ half_label m).
Proof.
  intros. unfold rsplit_char2.
  replace (base ++ " F=" ++ half_label f ++ " mF=" ++ half_label m)
    with ((base ++ " F=" ++ half_label f) ++ String " " ("mF=" ++ half_label m))
    by (rewrite !append_assoc; reflexivity).
  rewrite rsplit_char_app by (rewrite has_char_app, half_label_free by reflexivity; reflexivity).
  now rewrite name_split1.
Qed.

(** ** Equality *)

Lemma opt_eqb_refl : forall o, opt_eqb Qeq_bool o o = true.
Proof. intros [q|]; simpl; auto using Qeq_bool_refl. Qed.
Lemma opt_eqb_sym : forall a b, opt_eqb Qeq_bool a b = opt_eqb Qeq_bool b a.
Proof. intros [p|] [q|]; simpl; auto. apply Qeq_bool_comm. Qed.
Lemma opt_eqb_trans : forall a b c, opt_eqb Qeq_bool a b = true -> opt_eqb Qeq_bool b c = true ->
  opt_eqb Qeq_bool a c = true.
Proof. intros [p|] [q|] [r|]; simpl; auto; try discriminate. apply Qeq_bool_trans. Qed.

Lemma qnums_eqb_refl : forall a, qnums_eqb a a = true.
Proof. intros. unfold qnums_eqb. now rewrite !opt_eqb_refl. Qed.
Lemma qnums_eqb_sym : forall a b, qnums_eqb a b = qnums_eqb b a.
Proof.
  intros. unfold qnums_eqb.
  now rewrite (opt_eqb_sym (q_lc a)), (opt_eqb_sym (q_sc a)), (opt_eqb_sym (q_lo a)), (opt_eqb_sym (q_so a)),
    (opt_eqb_sym (q_jc a)), (opt_eqb_sym (q_jo a)), (opt_eqb_sym (q_l a)), (opt_eqb_sym (q_s a)), (opt_eqb_sym (q_k a)).
Qed.
Lemma qnums_eqb_trans : forall a b c, qnums_eqb a b = true -> qnums_eqb b c = true -> qnums_eqb a c = true.
Proof.
  intros a b c. unfold qnums_eqb. rewrite !andb_true_iff.
  intros H K. decompose [and] H. decompose [and] K. repeat split; eapply opt_eqb_trans; eauto.
Qed.

Lemma term_eqb_refl : forall a, term_eqb a a = true.
Proof. intros. unfold term_eqb. now rewrite qnums_eqb_refl, !String.eqb_refl. Qed.
Lemma term_eqb_sym : forall a b, term_eqb a b = term_eqb b a.
Proof.
  intros. unfold term_eqb. now rewrite qnums_eqb_sym, (String.eqb_sym (t_conf a)), (String.eqb_sym (t_term a)).
Qed.
Lemma term_eqb_trans : forall a b c, term_eqb a b = true -> term_eqb b c = true -> term_eqb a c = true.
Proof.
  intros a b c. unfold term_eqb. rewrite !andb_true_iff, !String.eqb_eq.
  intros [[H1 H2] H3] [[K1 K2] K3]. repeat split; try congruence. eapply qnums_eqb_trans; eauto.
Qed.

Lemma new_term_qn : forall conf tm J F mF pct t, new_term conf tm J F mF pct None = Ok t ->
  t_conf t = conf /\ t_term t = tm /\ t_pct t = pct /\ get_quantum_nums conf tm = Ok (t_qn t) /\
  half_of J = Ok (t_J t) /\ half_of F = Ok (t_F t) /\ half_of mF = Ok (t_mF t).
Proof.
  intros conf tm J F mF pct t. unfold new_term, rbind.
  destruct (half_of J); try discriminate. destruct (half_of F); try discriminate.
  destruct (half_of mF); try discriminate. destruct (get_quantum_nums conf tm); try discriminate.
  intros E. injection E as <-. repeat split.
Qed.

Lemma default_term_eqb : forall conf tm J F mF pct t conf' tm' J' F' mF' pct' t',
  new_term conf tm J F mF pct None = Ok t -> new_term conf' tm' J' F' mF' pct' None = Ok t' ->
  (term_eqb t t' = true <-> conf = conf' /\ tm = tm').
Proof.
  intros conf tm J F mF pct t conf' tm' J' F' mF' pct' t' H H'.
  apply new_term_qn in H as (H1&H2&_&H4&_). apply new_term_qn in H' as (H1'&H2'&_&H4'&_).
  unfold term_eqb. rewrite !andb_true_iff, !String.eqb_eq. split.
  - intros [[_ A] B]. split; congruence.
  - intros [-> ->]. rewrite H4 in H4'. injection H4' as <-.
    repeat split; [apply qnums_eqb_refl|congruence|congruence].
Qed.

Lemma term_eq_ignores_J : exists a b,
  new_term "6s" "2S" (VStr "1/2") VNone VNone (Q2Qc 100) None = Ok a /\
  new_term "6s" "2S" (VStr "3/2") VNone VNone (Q2Qc 100) None = Ok b /\
  term_eqb a b = true /\ t_J a <> t_J b /\ t_name a <> t_name b.
Proof.
  do 2 eexists. split; [reflexivity|]. split; [reflexivity|].
  split; [reflexivity|]. split; discriminate.
Qed.

(** *** MultiTerm equality *)

Lemma mt_eq_list_len : forall a b, List.length a = List.length b ->
  mt_eq_list a b = Ok (map (fun p => term_eqb (fst p) (snd p)) (combine a b)).
Proof.
  induction a; intros [|y b] H; simpl in *; try discriminate; auto.
  rewrite IHa by lia. reflexivity.
Qed.

Lemma mt_eqb_len : forall a b, List.length a = List.length b ->
  mt_eqb a b = Ok (forallb (fun p => term_eqb (fst p) (snd p)) (combine a b)).
Proof.
  intros. unfold mt_eqb. rewrite mt_eq_list_len by auto. simpl. f_equal.
  induction (combine a b); simpl; auto. now rewrite IHl.
Qed.

Lemma mt_eqb_ok_iff : forall a b, is_ok (mt_eqb a b) = true <-> (List.length a <= List.length b)%nat.
Proof.
  unfold mt_eqb. induction a; intros b; simpl.
  - split; [intros; lia|auto].
  - destruct b; simpl; [split; [discriminate|lia]|].
    specialize (IHa b). destruct (mt_eq_list a0 b); simpl in *; rewrite IHa; split; lia.
Qed.

Lemma mt_eqb_refl : forall a, mt_eqb a a = Ok true.
Proof.
  intros. rewrite mt_eqb_len by auto. f_equal. induction a; simpl; auto. now rewrite term_eqb_refl.
Qed.

Lemma mt_eqb_sym : forall a b, List.length a = List.length b -> mt_eqb a b = mt_eqb b a.
Proof.
  intros a b L. rewrite !mt_eqb_len by auto. f_equal. revert b L.
  induction a; intros [|y b] L; simpl in *; try discriminate; auto.
  rewrite term_eqb_sym. f_equal. apply IHa. lia.
Qed.

Lemma mt_eqb_trans : forall a b c, List.length a = List.length b -> List.length b = List.length c ->
  mt_eqb a b = Ok true -> mt_eqb b c = Ok true -> mt_eqb a c = Ok true.
Proof.
  intros a b c L1 L2. rewrite !mt_eqb_len by congruence. intros H K.
  injection H as H. injection K as K. f_equal. revert b c L1 L2 H K.
  induction a; intros [|y b] [|z c] L1 L2 H K; simpl in *; try discriminate; auto.
  apply andb_true_iff in H as [H1 H2]. apply andb_true_iff in K as [K1 K2].
  rewrite (term_eqb_trans _ _ _ H1 K1). simpl. eapply IHa with b; eauto.
Qed.

Lemma mt_eq_not_symmetric : exists a b,
  mt_eqb (multiterm a) (multiterm b) = Ok true /\ mt_eqb (multiterm b) (multiterm a) = Raise IndexError.
Proof.
  set (t := mkTerm "6s" "2S" (Q2Qc 90) (Some 1%Z) None None no_qnums).
  set (u := mkTerm "5d" "2D" (Q2Qc 10) (Some 3%Z) None None no_qnums).
  exists [t], [t; u]. split; reflexivity.
Qed.

(** ** MultiTerm contents *)

Lemma pct_ge_total : forall a b, pct_ge a b = true \/ pct_ge b a = true.
Proof.
  intros. unfold pct_ge, Qc_leb. rewrite !Qle_bool_iff. destruct (Qlt_le_dec (t_pct b) (t_pct a)); auto using Qlt_le_weak.
Qed.
Lemma pct_ge_trans : forall a b c, pct_ge a b = true -> pct_ge b c = true -> pct_ge a c = true.
Proof.
  intros a b c. unfold pct_ge, Qc_leb. rewrite !Qle_bool_iff. intros. eapply Qle_trans; eauto.
Qed.

Lemma pct_ge_total' : forall a b, pct_ge a b = false -> pct_ge b a = true.
Proof. intros a b H. destruct (pct_ge_total a b); auto. congruence. Qed.

Lemma multiterm_sorted : forall ts, StronglySorted (fun a b => (t_pct b <= t_pct a)%Qc) (multiterm ts).
Proof.
  intros ts. pose proof (isort_strongly_sorted pct_ge pct_ge_total' pct_ge_trans ts) as H.
  unfold multiterm. induction H; constructor; auto.
  eapply Forall_impl; [|exact H0]. intros b. unfold pct_ge, Qc_leb. now rewrite Qle_bool_iff.
Qed.

Lemma multiterm_perm : forall ts, Permutation ts (multiterm ts).
Proof. intros. apply isort_perm. Qed.

Lemma multiterm_stable : forall p ts,
  filter (fun t => Qc_eqb (t_pct t) p) (multiterm ts) = filter (fun t => Qc_eqb (t_pct t) p) ts.
Proof.
  intros. apply isort_stable. intros x y Hx Hy.
  destruct (Qc_eqb_spec (t_pct x) p); try discriminate. destruct (Qc_eqb_spec (t_pct y) p); try discriminate.
  unfold pct_ge, Qc_leb. rewrite Qle_bool_iff. rewrite e, e0. apply Qle_refl.
Qed.

(** The leading term: a component with the largest percentage, the first such
    in the order given. *)
Lemma multiterm_leading : forall ts t, In t ts -> exists lead rest,
  multiterm ts = lead :: rest /\ In lead ts /\ (t_pct t <= t_pct lead)%Qc /\ (forall A (attr : term -> A), mt_attr attr (multiterm ts) = Ok (attr lead)).
Proof.
  intros ts t H. pose proof (multiterm_sorted ts) as S. pose proof (multiterm_perm ts) as P.
  destruct (multiterm ts) as [|lead rest] eqn:E.
  { apply Permutation_sym, Permutation_nil in P. subst. destruct H. }
  exists lead, rest. split; auto. split.
  { eapply Permutation_in; [apply Permutation_sym; exact P|now left]. }
  split; auto.
  destruct (Permutation_in _ P H) as [HH|HH]; [subst; apply Qcle_refl|].
  inversion S; subst. rewrite Forall_forall in H3. auto.
Qed.

Lemma multiterm_id : forall ts, multiterm (multiterm ts) = multiterm ts.
Proof. intros. apply isort_id. apply isort_sorted. exact pct_ge_total'. Qed.

Lemma term_copy_pct : forall F m t, t_pct (term_copy F m t) = t_pct t.
Proof. intros. unfold term_copy. now destruct (t_F t). Qed.

Lemma mt_copy_multiterm : forall F m ts, mt_copy F m (multiterm ts) = map (term_copy F m) (multiterm ts).
Proof.
  intros. unfold mt_copy. unfold multiterm at 1.
  rewrite (isort_map pct_ge pct_ge); [|intros; unfold pct_ge; now rewrite !term_copy_pct].
  f_equal. apply multiterm_id.
Qed.

Lemma term_copy_keeps : forall F m t,
  let c := term_copy F m t in
  t_conf c = t_conf t /\ t_term c = t_term t /\ t_pct c = t_pct t /\ t_J c = t_J t /\ t_qn c = t_qn t /\
  t_mF c = m /\ t_F c = match t_F t with Some f => Some f | None => F end.
Proof. intros F m t c. subst c. unfold term_copy. destruct (t_F t); repeat split. Qed.

(** ** terms_dict *)

Lemma fold_dset_keys : forall mt (d : dict Qc term) k,
  In k (dkeys (fold_left (fun d t => dset (t_pct t) t d) mt d)) <-> In k (dkeys d) \/ In k (map t_pct mt).
Proof.
  induction mt; simpl; intros; [tauto|].
  rewrite IHmt, In_dkeys_dset. split; intros; intuition; subst; auto.
Qed.

Lemma fold_dset_nodup : forall mt (d : dict Qc term), NoDup (dkeys d) ->
  NoDup (dkeys (fold_left (fun d t => dset (t_pct t) t d) mt d)).
Proof. induction mt; simpl; intros; auto. apply IHmt. now apply NoDup_dset. Qed.

Lemma terms_dict_keys : forall mt, NoDup (dkeys (terms_dict mt)) /\
  forall p, In p (dkeys (terms_dict mt)) <-> In p (map t_pct mt).
Proof.
  intros. split.
  - apply fold_dset_nodup. constructor.
  - intros p. unfold terms_dict. rewrite fold_dset_keys. simpl. tauto.
Qed.

Lemma terms_dict_distinct : forall mt, NoDup (map t_pct mt) ->
  terms_dict mt = map (fun t => (t_pct t, t)) mt.
Proof.
  assert (K : forall mt (d : dict Qc term), NoDup (dkeys d ++ map t_pct mt) ->
     fold_left (fun d t => dset (t_pct t) t d) mt d = (d ++ map (fun t => (t_pct t, t)) mt)%list).
  { induction mt; simpl; intros d N; [now rewrite app_nil_r|].
    rewrite dset_new.
    - rewrite IHmt; [now rewrite <- app_assoc|].
      unfold dkeys in *. rewrite map_app. simpl. now rewrite <- app_assoc.
    - apply NoDup_remove_2 in N. intros I. apply N. apply in_or_app. now left. }
  intros mt N. apply K. exact N.
Qed.

Lemma terms_dict_length : forall mt, List.length (terms_dict mt) = List.length (nodup Qc_eq_dec (map t_pct mt)).
Proof.
  intros. destruct (terms_dict_keys mt) as [N K].
  rewrite <- (map_length fst). change (map fst (terms_dict mt)) with (dkeys (terms_dict mt)).
  apply Nat.le_antisymm; apply NoDup_incl_length; auto using NoDup_nodup.
  - intros p Hp. apply nodup_In. now apply K.
  - intros p Hp. apply nodup_In in Hp. now apply K.
Qed.

Lemma terms_dict_full_iff : forall mt, List.length (terms_dict mt) = List.length mt <-> NoDup (map t_pct mt).
Proof.
  intros. rewrite terms_dict_length. split.
  - intros H. rewrite <- (map_length t_pct mt) in H.
    destruct (ListDec.NoDup_dec Qc_eq_dec (map t_pct mt)) as [?|N]; auto. exfalso.
    revert H N. generalize (map t_pct mt). intros l. clear.
    assert (Hle : forall l, (List.length (nodup Qc_eq_dec l) <= List.length l)%nat).
    { clear. induction l; simpl; auto. destruct (in_dec Qc_eq_dec a l); simpl; lia. }
    induction l as [|x l IH]; intros H N; [apply N; constructor|].
    simpl in H. destruct (in_dec Qc_eq_dec x l).
    + specialize (Hle l). simpl in H. lia.
    + simpl in H. apply IH; [lia|]. intros N'. apply N. now constructor.
  - intros N. rewrite nodup_fixed_point by auto. apply map_length.
Qed.

Lemma terms_dict_ties : exists ts, List.length (terms_dict (multiterm ts)) <> List.length ts.
Proof.
  exists [mkTerm "6s" "2S" (Q2Qc 50) (Some 1%Z) None None no_qnums;
          mkTerm "5d" "2D" (Q2Qc 50) (Some 1%Z) None None no_qnums].
  discriminate.
Qed.

Lemma t_name_show : forall t j, t_J t = Some j ->
  t_name t = t_conf t ++ " " ++ t_term t ++ half_label j ++ show_F (t_F t) ++ show_mF (t_mF t).
Proof. intros t j H. unfold t_name, t_term_name, frac. now rewrite H. Qed.

Lemma t_name_inj : forall a b,
  conf_ok (t_conf a) = true -> conf_ok (t_conf b) = true ->
  symbol_ok (t_term a) = true -> symbol_ok (t_term b) = true ->
  t_J a <> None -> t_J b <> None ->
  depth_ok (t_F a) (t_mF a) -> depth_ok (t_F b) (t_mF b) ->
  t_name a = t_name b ->
  t_conf a = t_conf b /\ t_term a = t_term b /\ t_J a = t_J b /\ t_F a = t_F b /\ t_mF a = t_mF b.
Proof.
  intros a b C1 C2 S1 S2 J1 J2 D1 D2 E.
  destruct (t_J a) as [j|] eqn:Ja; [|congruence]. destruct (t_J b) as [j'|] eqn:Jb; [|congruence].
  rewrite (t_name_show a j), (t_name_show b j') in E by auto.
  destruct (name_inj _ _ _ _ _ _ _ _ _ _ C1 C2 S1 S2 D1 D2 E) as (E1&E2&E3&E4&E5).
  subst. repeat split; auto.
Qed.

Lemma t_name_split : forall t,
  match t_F t, t_mF t with
  | Some f, Some m => rsplit_char2 " " (t_name t) =
       Some (t_name (mkTerm (t_conf t) (t_term t) (t_pct t) (t_J t) None None (t_qn t)),
             t_short_name (mkTerm (t_conf t) (t_term t) (t_pct t) (t_J t) (Some f) None (t_qn t)),
             t_short_name t)
  | Some f, None => rsplit_char " " (t_name t) =
       Some (t_name (mkTerm (t_conf t) (t_term t) (t_pct t) (t_J t) None None (t_qn t)), t_short_name t)
  | _, _ => True
  end.
Proof.
  intros [c s p J F m q]. destruct F as [f|]; [|exact I]. cbn [t_F t_mF].
  destruct m as [m|]; unfold t_name, t_term_name, t_short_name; cbn [t_conf t_term t_F t_mF t_J].
  - rewrite !append_nil_r.
    replace (c ++ " " ++ s ++ frac J ++ (" F=" ++ half_label f) ++ " mF=" ++ half_label m)
      with ((c ++ " " ++ s ++ frac J) ++ " F=" ++ half_label f ++ " mF=" ++ half_label m)
      by (rewrite !append_assoc; reflexivity).
    apply name_split2.
  - rewrite !append_nil_r.
    replace (c ++ " " ++ s ++ frac J ++ " F=" ++ half_label f)
      with ((c ++ " " ++ s ++ frac J) ++ " F=" ++ half_label f)
      by (rewrite !append_assoc; reflexivity).
    apply name_split1.
Qed.

Lemma names_collide : exists a b, t_name a = t_name b /\ t_conf a <> t_conf b /\ t_J a <> None /\
  symbol_ok (t_term a) = true /\ symbol_ok (t_term b) = true.
Proof.
  exists (mkTerm "6s 6p" "2P" (Q2Qc 100) (Some 1%Z) None None no_qnums),
         (mkTerm "6s" "6p 2P" (Q2Qc 100) (Some 1%Z) None None no_qnums).
  repeat split; discriminate.
Qed.

Lemma has_char_In : forall c s, has_char c s = true <-> In c (list_ascii_of_string s).
Proof.
  intros c. induction s as [|d s IH]; [split; [discriminate|intros []]|].
  cbn [has_char list_ascii_of_string In]. rewrite orb_true_iff, IH, Ascii.eqb_eq. intuition auto.
Qed.
