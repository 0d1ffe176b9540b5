(** Proofs about the LK and JJ parsers (continuation of ParseProofs.v). *)
From Coq Require Import List Bool ZArith QArith Lia String Ascii.
From Verif Require Import Base PyStr Util UtilProofs Regex Parse ParseProofs.
Import ListNotations.
Local Open Scope string_scope.

(** [free c s]: the character [c] does not occur in [s]. *)
Definition free (c : ascii) (s : string) : bool := negb (has_char c s).

Lemma free_app : forall c a b, free c (a ++ b) = free c a && free c b.
Proof. intros. unfold free. now rewrite has_char_app, negb_orb. Qed.

Lemma free_cons : forall c a s, free c (String a s) = negb (Ascii.eqb a c) && free c s.
Proof. intros. unfold free. cbn [has_char]. now rewrite negb_orb. Qed.

Lemma free_head : forall c a s, free c (String a s) = true -> is_char c a = false.
Proof.
  intros. rewrite free_cons in H. apply andb_true_iff in H as [H _].
  apply negb_true_iff in H. exact H.
Qed.

(** ** LK *)

Definition lk_caps (m : string) (c : ascii) : caps := [(1%nat, m); (2%nat, String c "")].

Lemma re_LKconf_hit : forall m c odd r,
  m <> "" -> all_chars is_digit m = true -> is_digit c = false -> is_upper c = true ->
  match_at re_LKconf ("(" ++ m ++ String c (star_mark odd ++ ")" ++ r)) = Some (lk_caps m c, r).
Proof.
  intros m c odd r Nm Am Dc Uc. unfold match_at, re_LKconf. cbn [rmatch rchr append].
  change (is_char "(" "(") with true. cbv iota.
  apply plus_greedy_run; auto. rewrite Uc, consumed_app, consumed_cons.
  destruct odd; reflexivity.
Qed.

Lemma re_LKconf_skip : forall p s, p <> "" -> free "(" p = true -> match_at re_LKconf (p ++ s) = None.
Proof.
  intros [|a p] s N F; [congruence|]. apply free_head in F.
  unfold match_at, re_LKconf. cbn [rmatch rchr append]. now rewrite F.
Qed.

Lemma findall_LKconf_skip : forall p s, free "(" p = true -> findall re_LKconf (p ++ s) = findall re_LKconf s.
Proof.
  intros. apply findall_skip; [simpl; lia|]. intros p1 p2 -> N. apply re_LKconf_skip; auto.
  rewrite free_app in H. now apply andb_true_iff in H.
Qed.

Lemma findall_LKconf_end : forall p, free "(" p = true -> findall re_LKconf p = [].
Proof. intros. rewrite <- (append_nil_r p). rewrite findall_LKconf_skip by auto. reflexivity. Qed.

Lemma findall_LKconf_core : forall p s2 i c odd r,
  free "(" p = true -> (0 <= s2)%Z -> orbital_letter i c ->
  findall re_LKconf (p ++ "(" ++ ls_symbol s2 c odd ++ ")" ++ r) =
  lk_caps (mult s2) c :: findall re_LKconf r.
Proof.
  intros p s2 i c odd r Hp Hs Hc. destruct (orbital_letter_cases i c Hc) as (U&D&_).
  rewrite findall_LKconf_skip by auto.
  apply findall_hit; [simpl; lia|].
  unfold ls_symbol. rewrite append_assoc. cbn [append].
  apply re_LKconf_hit; auto using mult_nonempty, mult_digits.
Qed.

Lemma re_LKterm_hit : forall c oddL m j r,
  is_upper c = true -> m <> "" -> all_chars is_digit m = true ->
  j <> "" -> all_chars not_newline j = true -> has_char "]" j = false ->
  match_at re_LKterm (String c (star_mark oddL ++ " " ++ m ++ "[" ++ j ++ "]" ++ r)) =
  Some ([(1%nat, String c ""); (2%nat, m); (3%nat, j)], r).
Proof.
  intros c oddL m j r Uc Nm Am Nj Aj Hj. unfold match_at, re_LKterm. cbn [rmatch rchr append].
  rewrite Uc, consumed_cons.
  assert (K : forall cc, cc = [(1%nat, String c "")] ->
    plus false is_digit (fun s' =>
      match s' with
      | String a s'0 => if is_char "[" a then
          plus true not_newline (fun s'1 => match s'1 with
             | String a0 s'2 => if is_char "]" a0 then
                 Some (dset 3%nat (consumed s'0 s'1) (dset 2%nat (consumed (m ++ String "[" (j ++ String "]" r)) s') cc), s'2) else None
             | EmptyString => None end) s'0
         else None
      | EmptyString => None end) (m ++ String "[" (j ++ String "]" r))
    = Some ([(1%nat, String c ""); (2%nat, m); (3%nat, j)], r)).
  { intros cc ->. apply plus_greedy_run; auto.
    change (is_char "[" "[") with true. cbv iota. rewrite consumed_app.
    apply (plus_lazy_group "]" j r (fun g s => Some (dset 3%nat g (dset 2%nat m [(1%nat, String c "")]), s))); auto. }
  specialize (K _ eq_refl).
  destruct oddL; cbn [star_mark append].
  - change (is_char "*" "*") with true. cbv iota. change (is_char " " " ") with true. cbv iota.
    match goal with |- context[plus false is_digit ?k ?s] =>
      replace (plus false is_digit k s) with (Some ([(1%nat, String c ""); (2%nat, m); (3%nat, j)], r))
        by (symmetry; exact K) end.
    reflexivity.
  - change (is_char "*" " ") with false. cbv iota. change (is_char " " " ") with true. cbv iota.
    match goal with |- context[plus false is_digit ?k ?s] =>
      replace (plus false is_digit k s) with (Some ([(1%nat, String c ""); (2%nat, m); (3%nat, j)], r))
        by (symmetry; exact K) end.
    reflexivity.
Qed.

Lemma findall_LKterm : forall i c oddL s2 k odd, (0 <= s2)%Z -> orbital_letter i c ->
  findall re_LKterm (lk_symbol c oddL s2 k odd) =
  [[(1%nat, String c ""); (2%nat, mult s2); (3%nat, half_label k)]].
Proof.
  intros i c oddL s2 k odd Hs Hc. destruct (orbital_letter_cases i c Hc) as (U&D&_).
  unfold lk_symbol.
  rewrite findall_hit with (c := [(1%nat, String c ""); (2%nat, mult s2); (3%nat, half_label k)])
                           (s' := star_mark odd).
  - f_equal. destruct odd; reflexivity.
  - simpl; lia.
  - apply re_LKterm_hit; auto using mult_nonempty, mult_digits, half_label_nonempty, half_label_notnl.
    apply half_label_no; [reflexivity|discriminate|discriminate].
Qed.

Lemma coupling_LK : forall i c oddL s2 k odd, orbital_letter i c ->
  get_term_coupling (lk_symbol c oddL s2 k odd) = CLK.
Proof.
  intros i c oddL s2 k odd Hc. destruct (orbital_letter_cases i c Hc) as (_&_&HL&_).
  unfold get_term_coupling, lk_symbol. cbn [head_in_letters]. rewrite HL.
  replace (has_char "[" _) with true; auto. symmetry.
  cbn [has_char append]. rewrite has_char_app. cbn [append has_char].
  rewrite has_char_app. cbn [has_char]. rewrite Ascii.eqb_refl. rewrite !orb_true_r. reflexivity.
Qed.

Lemma quantum_nums_LK_electron : forall p q sc lc cc oddc lo co L cL oddL so k odd,
  free "(" p = true -> free "(" q = true -> (0 <= sc)%Z -> (0 <= so)%Z ->
  orbital_letter lc cc -> orbital_letter lo co -> orbital_letter L cL ->
  get_quantum_nums (p ++ "(" ++ ls_symbol sc cc oddc ++ ")" ++ q ++ String (small co) "")
                   (lk_symbol cL oddL so k odd) =
  Ok (mkQN (whole lc) (half sc) (whole lo) (half so) None None (whole L) None (half k)).
Proof.
  intros p q sc lc cc oddc lo co L cL oddL so k odd Hp Hq Hsc Hso Hlc Hlo HL.
  destruct (orbital_letter_cases lo co Hlo) as (_&_&_&_&_&_&_&_&_&_&_&_&Np&_).
  unfold get_quantum_nums. rewrite (coupling_LK L) by auto. unfold parse_LK_term.
  rewrite (findall_LKconf_core p sc lc cc oddc) by auto.
  rewrite findall_LKconf_end.
  2:{ rewrite free_app, Hq, free_cons. destruct (Ascii.eqb_spec (small co) "("); [congruence|reflexivity]. }
  replace (p ++ "(" ++ ls_symbol sc cc oddc ++ ")" ++ q ++ String (small co) "")
    with ((p ++ "(" ++ ls_symbol sc cc oddc ++ ")" ++ q) ++ String (small co) "")
    by (now rewrite !append_assoc).
  rewrite last_char_app. cbn [rbind].
  rewrite (findall_LKterm L) by auto. cbn [rbind].
  change (grp 1 (lk_caps (mult sc) cc)) with (mult sc).
  change (grp 2 (lk_caps (mult sc) cc)) with (String cc "").
  change (grp 1 [(1%nat, String cL ""); (2%nat, mult so); (3%nat, half_label k)]) with (String cL "").
  change (grp 2 [(1%nat, String cL ""); (2%nat, mult so); (3%nat, half_label k)]) with (mult so).
  change (grp 3 [(1%nat, String cL ""); (2%nat, mult so); (3%nat, half_label k)]) with (half_label k).
  rewrite !frac_of_half, !spin_of_mult. cbn [rbind].
  rewrite (l_of_letter lc cc), (l_of_letter L cL), (l_of_small lo co) by auto. reflexivity.
Qed.

Lemma quantum_nums_LK_terms : forall p q sc lc cc oddc s2 lo co oddo L cL oddL so k odd,
  free "(" p = true -> free "(" q = true -> (0 <= sc)%Z -> (0 <= s2)%Z -> (0 <= so)%Z ->
  orbital_letter lc cc -> orbital_letter lo co -> orbital_letter L cL ->
  get_quantum_nums (p ++ "(" ++ ls_symbol sc cc oddc ++ ")" ++ q ++ "(" ++ ls_symbol s2 co oddo ++ ")")
                   (lk_symbol cL oddL so k odd) =
  Ok (mkQN (whole lc) (half sc) (whole lo) (half so) None None (whole L) None (half k)).
Proof.
  intros p q sc lc cc oddc s2 lo co oddo L cL oddL so k odd Hp Hq Hsc Hs2 Hso Hlc Hlo HL.
  unfold get_quantum_nums. rewrite (coupling_LK L) by auto. unfold parse_LK_term.
  rewrite (findall_LKconf_core p sc lc cc oddc) by auto.
  replace (q ++ "(" ++ ls_symbol s2 co oddo ++ ")") with (q ++ "(" ++ ls_symbol s2 co oddo ++ ")" ++ "") by reflexivity.
  rewrite (findall_LKconf_core q s2 lo co oddo) by auto.
  change (findall re_LKconf "") with (@nil caps).
  rewrite (findall_LKterm L) by auto. cbn [rbind].
  change (grp 1 (lk_caps (mult sc) cc)) with (mult sc).
  change (grp 2 (lk_caps (mult sc) cc)) with (String cc "").
  change (grp 2 (lk_caps (mult s2) co)) with (String co "").
  change (grp 1 [(1%nat, String cL ""); (2%nat, mult so); (3%nat, half_label k)]) with (String cL "").
  change (grp 2 [(1%nat, String cL ""); (2%nat, mult so); (3%nat, half_label k)]) with (mult so).
  change (grp 3 [(1%nat, String cL ""); (2%nat, mult so); (3%nat, half_label k)]) with (half_label k).
  rewrite !frac_of_half, !spin_of_mult. cbn [rbind].
  rewrite (l_of_letter lc cc), (l_of_letter L cL), (l_of_letter lo co) by auto. reflexivity.
Qed.

(** ** JJ *)

(** No closing parenthesis of [s] is followed by [<] or [*<]. *)
Fixpoint no_close_angle (s : string) : bool :=
  match s with
  | EmptyString => true
  | String a s' =>
      (if Ascii.eqb a ")" then negb (prefix "<" s' || prefix "*<" s') else true) && no_close_angle s'
  end.

Lemma no_close_app : forall a b, free ")" a = true -> no_close_angle (a ++ b) = no_close_angle b.
Proof.
  induction a; intros; cbn [append no_close_angle]; auto.
  rewrite free_cons in H. apply andb_true_iff in H as [H1 H2].
  apply negb_true_iff in H1. rewrite H1. simpl. auto.
Qed.

Lemma no_close_suffix : forall a b, no_close_angle (a ++ b) = true -> no_close_angle b = true.
Proof. induction a; cbn [append no_close_angle]; intros; auto. apply andb_true_iff in H as [_ H]. auto. Qed.

(** The tail [\*?<(.+?)>] of the pattern. *)
Definition jj_tail : re :=
  RCat (ROpt (rchr "*")) (RCat (rchr "<") (RCat (RGrp 3 (RPlus true not_newline)) (rchr ">"))).

Lemma jj_tail_fail {X} : forall s c (k : string -> caps -> option X),
  prefix "<" s = false -> prefix "*<" s = false -> rmatch jj_tail s c k = None.
Proof.
  intros s c k H1 H2. unfold jj_tail. cbn [rmatch rchr].
  destruct s as [|a s]; auto.
  assert (E1 : is_char "<" a = false).
  { unfold is_char. destruct (Ascii.eqb_spec a "<"); auto. subst. cbn in H1. destruct s; discriminate. }
  rewrite E1. destruct (is_char "*" a) eqn:E2; auto.
  unfold is_char in E2. apply Ascii.eqb_eq in E2. subst.
  destruct s as [|b s]; auto. destruct (is_char "<" b) eqn:E3; auto.
  unfold is_char in E3. apply Ascii.eqb_eq in E3. subst. cbn in H2. destruct s; discriminate.
Qed.

Lemma re_JJ_eq : re_JJ =
  RCat (RAlt (RCat (RGrp 1 (RPlus false is_digit)) (RGrp 2 (RChr is_alpha)))
             (RCat (rchr "(") (RCat (RPlus true not_newline) (rchr ")")))) jj_tail.
Proof. reflexivity. Qed.

(** Second alternative fails when no closing parenthesis is followed by an
    angle bracket. *)
Lemma jj_paren_fail {X} : forall t c (k : string -> caps -> option X), no_close_angle t = true ->
  rmatch (RCat (rchr "(") (RCat (RPlus true not_newline) (rchr ")"))) t c
         (fun s c' => rmatch jj_tail s c' k) = None.
Proof.
  intros t c k H. cbn [rmatch rchr]. destruct t as [|a t]; auto.
  destruct (is_char "(" a); auto.
  apply plus_fail. intros d r -> Nd Ad. destruct r as [|b r]; auto.
  destruct (is_char ")" b) eqn:E; auto.
  unfold is_char in E. apply Ascii.eqb_eq in E. subst b.
  change (String a (d ++ String ")" r)) with (String a d ++ String ")" r) in H.
  apply no_close_suffix in H. cbn [no_close_angle] in H.
  rewrite Ascii.eqb_refl in H. apply andb_true_iff in H as [H _].
  apply negb_true_iff, orb_false_iff in H as [H1 H2].
  now apply (jj_tail_fail r c k).
Qed.

Lemma angle_free_prefix : forall s b t, free "<" s = true -> b <> "<"%char -> b <> "*"%char ->
  prefix "<" (s ++ String b t) = false /\ prefix "*<" (s ++ String b t) = false.
Proof.
  intros s b t F N1 N2. split.
  - destruct (prefix "<" _) eqn:E; auto. apply prefix_spec in E as [r E].
    destruct s; cbn in E; injection E; intros; subst; [congruence|].
    rewrite free_cons in F. now rewrite Ascii.eqb_refl in F.
  - destruct (prefix "*<" _) eqn:E; auto. apply prefix_spec in E as [r E].
    destruct s as [|x [|y s]]; cbn in E; injection E; intros; subst.
    + congruence.
    + congruence.
    + rewrite !free_cons in F. rewrite Ascii.eqb_refl in F. rewrite andb_false_r in F. discriminate.
Qed.

(** First alternative fails on a stretch without [<] that ends in a separator
    character. *)
Lemma jj_letter_fail {X} : forall p b t c (k : string -> caps -> option X),
  free "<" p = true -> is_digit b = false -> is_alpha b = false -> b <> "<"%char -> b <> "*"%char ->
  rmatch (RCat (RGrp 1 (RPlus false is_digit)) (RGrp 2 (RChr is_alpha))) (p ++ String b t) c
         (fun s c' => rmatch jj_tail s c' k) = None.
Proof.
  intros p b t c k F Db Ab N1 N2. cbn [rmatch]. apply plus_fail.
  intros d r E Nd Ad. destruct (split_run _ _ _ _ _ _ Ad Db E) as [p3 [-> ->]].
  rewrite free_app in F. apply andb_true_iff in F as [_ F].
  destruct p3 as [|a p3]; cbn [append]; [now rewrite Ab|].
  destruct (is_alpha a); auto.
  rewrite free_cons in F. apply andb_true_iff in F as [_ F].
  destruct (angle_free_prefix p3 b t F N1 N2) as [H1 H2].
  now apply (jj_tail_fail (p3 ++ String b t)).
Qed.

Lemma re_JJ_skip : forall p b t,
  free "<" p = true -> is_digit b = false -> is_alpha b = false -> b <> "<"%char -> b <> "*"%char ->
  no_close_angle (p ++ String b t) = true ->
  match_at re_JJ (p ++ String b t) = None.
Proof.
  intros p b t F Db Ab N1 N2 C. unfold match_at. rewrite re_JJ_eq.
  set (kk := fun (s' : string) (c : caps) => Some (c, s')).
  change (rmatch (RCat (RAlt (RCat (RGrp 1 (RPlus false is_digit)) (RGrp 2 (RChr is_alpha)))
             (RCat (rchr "(") (RCat (RPlus true not_newline) (rchr ")")))) jj_tail) (p ++ String b t) [] kk)
    with (match rmatch (RCat (RGrp 1 (RPlus false is_digit)) (RGrp 2 (RChr is_alpha))) (p ++ String b t) []
                 (fun s c' => rmatch jj_tail s c' kk) with
          | Some x => Some x
          | None => rmatch (RCat (rchr "(") (RCat (RPlus true not_newline) (rchr ")"))) (p ++ String b t) []
                 (fun s c' => rmatch jj_tail s c' kk)
          end).
  rewrite jj_letter_fail by auto. now apply jj_paren_fail.
Qed.

(** Hit: [m c *? < j >]. *)
Definition jj_caps (m : string) (c : ascii) (j : string) : caps :=
  [(1%nat, m); (2%nat, String c ""); (3%nat, j)].

Lemma re_JJ_hit : forall m c odd j r,
  m <> "" -> all_chars is_digit m = true -> is_digit c = false -> is_alpha c = true ->
  j <> "" -> all_chars not_newline j = true -> has_char ">" j = false ->
  match_at re_JJ (m ++ String c (star_mark odd ++ "<" ++ j ++ ">" ++ r)) =
  Some (jj_caps m c j, r).
Proof.
  intros m c odd j r Nm Am Dc Uc Nj Aj Hj. unfold match_at, re_JJ. cbn [rmatch rchr].
  assert (K : plus true not_newline
      (fun s' => match s' with
         | String a s'0 => if is_char ">" a then
              Some (dset 3%nat (consumed (j ++ String ">" r) s') [(1%nat, m); (2%nat, String c "")], s'0) else None
         | EmptyString => None end) (j ++ String ">" r) = Some (jj_caps m c j, r)).
  { apply (plus_lazy_group ">" j r (fun g s => Some (dset 3%nat g [(1%nat, m); (2%nat, String c "")], s))); auto. }
  rewrite (plus_greedy_run _ _ _ _ (jj_caps m c j, r)); auto.
  rewrite Uc, consumed_app, consumed_cons.
  destruct odd; cbn [star_mark append].
  - change (is_char "*" "*") with true. cbv iota. change (is_char "<" "<") with true. cbv iota.
    match goal with |- context[plus true not_newline ?k ?s] =>
      replace (plus true not_newline k s) with (Some (jj_caps m c j, r)) by (symmetry; exact K) end.
    reflexivity.
  - change (is_char "*" "<") with false. cbv iota. change (is_char "<" "<") with true. cbv iota.
    match goal with |- context[plus true not_newline ?k ?s] =>
      replace (plus true not_newline k s) with (Some (jj_caps m c j, r)) by (symmetry; exact K) end.
    reflexivity.
Qed.

Lemma findall_JJ_skip : forall p b t,
  free "<" p = true -> is_digit b = false -> is_alpha b = false -> b <> "<"%char -> b <> "*"%char ->
  no_close_angle (p ++ String b t) = true ->
  findall re_JJ (p ++ String b t) = findall re_JJ t.
Proof.
  intros p b t F Db Ab N1 N2 C.
  replace (p ++ String b t) with ((p ++ String b "") ++ t) by (now rewrite append_assoc).
  apply findall_skip; [simpl; lia|].
  intros p1 p2 E N.
  assert (exists p3, p2 = p3 ++ String b "" /\ exists p4, p = p4 ++ p3) as [p3 [-> [p4 ->]]].
  { clear - E N. revert p1 p2 E N. induction p; intros p1 p2 E N.
    - exists "". split; [|now exists ""]. destruct p1; [auto|]. injection E as -> E.
      destruct p1, p2; simpl in *; congruence.
    - cbn [append] in E. destruct p1.
      + exists (String a p). split; auto. now exists "".
      + injection E as -> E. destruct (IHp p1 p2 E N) as [p3 [-> [p4 ->]]].
        exists p3. split; auto. now exists (String a0 p4). }
  rewrite append_assoc. cbn [append]. rewrite append_assoc in C.
  apply re_JJ_skip; auto.
  - rewrite free_app in F. now apply andb_true_iff in F.
  - now apply no_close_suffix in C.
Qed.

Lemma is_alpha_not_digit : forall c, is_alpha c = true -> is_digit c = false.
Proof.
  intros c. unfold is_alpha, is_upper, is_lower, is_digit.
  intros H. apply not_true_is_false. rewrite andb_true_iff, !Nat.leb_le.
  rewrite orb_true_iff, !andb_true_iff, !Nat.leb_le in H. lia.
Qed.

Lemma findall_JJ_hit : forall s2 c odd j r, (0 <= s2)%Z -> is_alpha c = true ->
  findall re_JJ (ancestor s2 c odd j ++ r) = jj_caps (mult s2) c (half_label j) :: findall re_JJ r.
Proof.
  intros s2 c odd j r Hs Ac. apply findall_hit; [simpl; lia|].
  unfold ancestor. rewrite !append_assoc. cbn [append].
  rewrite !append_assoc. cbn [append]. rewrite append_assoc. cbn [append].
  apply re_JJ_hit; auto using mult_nonempty, mult_digits, half_label_nonempty, half_label_notnl, is_alpha_not_digit.
  apply half_label_no; [reflexivity|discriminate|discriminate].
Qed.

Lemma ancestor_free_close : forall s2 c odd j, (0 <= s2)%Z -> is_alpha c = true ->
  free ")" (ancestor s2 c odd j) = true.
Proof.
  intros s2 c odd j Hs Ac. unfold ancestor. rewrite free_app, free_cons.
  unfold free at 1. rewrite digits_no by (auto using mult_digits).
  destruct (Ascii.eqb_spec c ")"); [subst; discriminate|].
  rewrite !free_app.
  unfold free. rewrite half_label_no by (reflexivity || discriminate).
  destruct odd; reflexivity.
Qed.

(** An outer electron [{n}{l}<{j}>] in a JJ configuration. *)
Definition electron (n : Z) (c : ascii) (j : Z) : string :=
  ancestor (n - 1) (small c) false j.

Lemma findall_JJ_conf : forall p sc lc cc oddc jc q X,
  free "<" p = true -> free ")" p = true -> free "<" q = true -> free ")" q = true ->
  (0 <= sc)%Z -> orbital_letter lc cc -> no_close_angle (q ++ "." ++ X) = true ->
  findall re_JJ (p ++ "(" ++ ancestor sc cc oddc jc ++ ")." ++ q ++ "." ++ X) =
  jj_caps (mult sc) cc (half_label jc) :: findall re_JJ X.
Proof.
  intros p sc lc cc oddc jc q X F1 F2 F3 F4 Hs Hc C.
  destruct (orbital_letter_cases lc cc Hc) as (U&D&_).
  assert (Ac : is_alpha cc = true) by (unfold is_alpha; now rewrite U).
  assert (C1 : no_close_angle (ancestor sc cc oddc jc ++ ")." ++ q ++ "." ++ X) = true).
  { rewrite no_close_app by (now apply ancestor_free_close).
    cbn [append] in *. cbn [no_close_angle].
    change (Ascii.eqb ")" ")") with true. change (Ascii.eqb "." ")") with false. cbv iota.
    rewrite C. reflexivity. }
  change (p ++ "(" ++ ancestor sc cc oddc jc ++ ")." ++ q ++ "." ++ X)
    with (p ++ String "(" (ancestor sc cc oddc jc ++ ")." ++ q ++ "." ++ X)).
  rewrite findall_JJ_skip; auto; try discriminate.
  2:{ rewrite no_close_app by auto. cbn [no_close_angle].
      change (Ascii.eqb "(" ")") with false. cbv iota. exact C1. }
  rewrite findall_JJ_hit by auto. f_equal.
  change (")." ++ q ++ "." ++ X) with ((")." ++ q) ++ String "." X).
  apply findall_JJ_skip; auto; try discriminate.
Qed.

Lemma coupling_JJ : forall jc jo odd, get_term_coupling (jj_symbol jc jo odd) = CJJ.
Proof.
  intros. unfold get_term_coupling, jj_symbol.
  replace (has_char "[" _) with false.
  2:{ symmetry. cbn [append has_char]. rewrite has_char_app. cbn [append has_char]. rewrite has_char_app.
      rewrite !half_label_no by (reflexivity || discriminate). destruct odd; reflexivity. }
  cbn [append has_char]. reflexivity.
Qed.

Lemma quantum_nums_JJ_terms : forall p q sc lc cc oddc jc so lo co oddo jo a b odd,
  free "<" p = true -> free ")" p = true -> free "<" q = true -> free ")" q = true ->
  (0 <= sc)%Z -> (0 <= so)%Z -> orbital_letter lc cc -> orbital_letter lo co ->
  get_quantum_nums (p ++ "(" ++ ancestor sc cc oddc jc ++ ")." ++ q ++ "." ++ "(" ++ ancestor so co oddo jo ++ ")")
                   (jj_symbol a b odd) =
  Ok (mkQN (whole lc) (half sc) (whole lo) (half so) (half jc) (half jo) None None None).
Proof.
  intros p q sc lc cc oddc jc so lo co oddo jo a b odd F1 F2 F3 F4 Hsc Hso Hlc Hlo.
  destruct (orbital_letter_cases lo co Hlo) as (U&D&_).
  destruct (orbital_letter_cases lc cc Hlc) as (Uc&_).
  assert (Ac : is_alpha co = true) by (unfold is_alpha; now rewrite U).
  unfold get_quantum_nums. rewrite coupling_JJ. unfold parse_JJ_term.
  rewrite (findall_JJ_conf p sc lc cc oddc jc q) by
    (auto; rewrite no_close_app by auto; cbn [append no_close_angle];
     change (Ascii.eqb "." ")") with false; change (Ascii.eqb "(" ")") with false; cbv iota; cbn [andb];
     rewrite no_close_app by (now apply ancestor_free_close); reflexivity).
  change ("(" ++ ancestor so co oddo jo ++ ")") with ("" ++ String "(" (ancestor so co oddo jo ++ ")")).
  rewrite findall_JJ_skip; auto; try discriminate.
  2:{ cbn [append no_close_angle]. change (Ascii.eqb "(" ")") with false. cbv iota. cbn [andb].
      rewrite no_close_app by (now apply ancestor_free_close). reflexivity. }
  rewrite findall_JJ_hit by auto.
  change (findall re_JJ ")") with (@nil caps). cbv iota.
  change (grp 1 (jj_caps (mult sc) cc (half_label jc))) with (mult sc).
  change (grp 2 (jj_caps (mult sc) cc (half_label jc))) with (String cc "").
  change (grp 3 (jj_caps (mult sc) cc (half_label jc))) with (half_label jc).
  change (grp 1 (jj_caps (mult so) co (half_label jo))) with (mult so).
  change (grp 2 (jj_caps (mult so) co (half_label jo))) with (String co "").
  change (grp 3 (jj_caps (mult so) co (half_label jo))) with (half_label jo).
  rewrite !frac_of_half. cbn [rbind].
  rewrite (l_of_letter lc cc), (l_of_letter lo co) by auto. cbn [rbind].
  unfold jj_spin, s_isupper. rewrite U, Uc, !spin_of_mult. reflexivity.
Qed.

(** With a single outer electron the parser reports spin 0 for it. *)
Lemma quantum_nums_JJ_electron : forall p q sc lc cc oddc jc n lo co jo a b odd,
  free "<" p = true -> free ")" p = true -> free "<" q = true -> free ")" q = true ->
  (0 <= sc)%Z -> (1 <= n)%Z -> orbital_letter lc cc -> orbital_letter lo co ->
  get_quantum_nums (p ++ "(" ++ ancestor sc cc oddc jc ++ ")." ++ q ++ "." ++ electron n co jo)
                   (jj_symbol a b odd) =
  Ok (mkQN (whole lc) (half sc) (whole lo) (Some 0%Q) (half jc) (half jo) None None None).
Proof.
  intros p q sc lc cc oddc jc n lo co jo a b odd F1 F2 F3 F4 Hsc Hn Hlc Hlo.
  destruct (orbital_letter_cases lo co Hlo) as (_&_&_&L&U&D&_).
  destruct (orbital_letter_cases lc cc Hlc) as (Uc&_).
  assert (Ac : is_alpha (small co) = true) by (unfold is_alpha; now rewrite L, orb_true_r).
  unfold get_quantum_nums. rewrite coupling_JJ. unfold parse_JJ_term, electron.
  rewrite (findall_JJ_conf p sc lc cc oddc jc q); auto.
  2:{ rewrite no_close_app by auto. cbn [append no_close_angle].
     change (Ascii.eqb "." ")") with false. cbv iota. cbn [andb].
     rewrite <- (append_nil_r (ancestor _ _ _ _)).
     rewrite no_close_app by (apply ancestor_free_close; auto; lia). reflexivity. }
  rewrite <- (append_nil_r (ancestor (n - 1) _ _ _)).
  rewrite findall_JJ_hit by (auto; lia).
  change (findall re_JJ "") with (@nil caps). cbv iota.
  change (grp 1 (jj_caps (mult sc) cc (half_label jc))) with (mult sc).
  change (grp 2 (jj_caps (mult sc) cc (half_label jc))) with (String cc "").
  change (grp 3 (jj_caps (mult sc) cc (half_label jc))) with (half_label jc).
  change (grp 2 (jj_caps (mult (n - 1)) (small co) (half_label jo))) with (String (small co) "").
  change (grp 3 (jj_caps (mult (n - 1)) (small co) (half_label jo))) with (half_label jo).
  rewrite !frac_of_half. cbn [rbind].
  rewrite (l_of_letter lc cc), (l_of_small lo co) by auto. cbn [rbind].
  unfold jj_spin, s_isupper, s_islower. rewrite U, L, Uc, !spin_of_mult. reflexivity.
Qed.

(** ** Ancestors written in the term *)

Lemma angle_free_none : forall s, free "<" s = true -> prefix "<" s = false /\ prefix "*<" s = false.
Proof.
  intros s F. split.
  - destruct (prefix "<" s) eqn:E; auto. apply prefix_spec in E as [r ->]. cbn [append] in F. now rewrite free_cons, Ascii.eqb_refl in F.
  - destruct (prefix "*<" s) eqn:E; auto. apply prefix_spec in E as [r ->]. cbn [append] in F.
    rewrite !free_cons, Ascii.eqb_refl in F. cbn [negb andb] in F. now rewrite andb_false_r in F.
Qed.

Lemma free_no_close : forall s, free "<" s = true -> no_close_angle s = true.
Proof.
  induction s as [|a s IH]; intros F; auto. rewrite free_cons in F. apply andb_true_iff in F as [_ F]. cbn [no_close_angle].
  rewrite IH by auto. destruct (angle_free_none s F) as [-> ->]. now destruct (Ascii.eqb a ")").
Qed.

Lemma re_JJ_free : forall s, free "<" s = true -> match_at re_JJ s = None.
Proof.
  intros s F. unfold match_at. rewrite re_JJ_eq.
  set (kk := fun (s' : string) (c : caps) => Some (c, s')).
  change (rmatch (RCat (RAlt (RCat (RGrp 1 (RPlus false is_digit)) (RGrp 2 (RChr is_alpha)))
             (RCat (rchr "(") (RCat (RPlus true not_newline) (rchr ")")))) jj_tail) s [] kk)
    with (match rmatch (RCat (RGrp 1 (RPlus false is_digit)) (RGrp 2 (RChr is_alpha))) s []
                 (fun s c' => rmatch jj_tail s c' kk) with
          | Some x => Some x
          | None => rmatch (RCat (rchr "(") (RCat (RPlus true not_newline) (rchr ")"))) s []
                 (fun s c' => rmatch jj_tail s c' kk)
          end).
  assert (H : rmatch (RCat (RGrp 1 (RPlus false is_digit)) (RGrp 2 (RChr is_alpha))) s [] (fun s c' => rmatch jj_tail s c' kk) = None).
  { cbn [rmatch]. apply plus_fail. intros d r -> Nd Ad. rewrite free_app in F. apply andb_true_iff in F as [_ F].
    destruct r as [|a r]; auto. destruct (is_alpha a); auto. rewrite free_cons in F. apply andb_true_iff in F as [_ F].
    destruct (angle_free_none r F). now apply (jj_tail_fail r). }
  rewrite H. apply jj_paren_fail. now apply free_no_close.
Qed.

Lemma findall_JJ_none : forall s, free "<" s = true -> findall re_JJ s = [].
Proof. intros s F. apply findall_none. intros p1 p2 ->. apply re_JJ_free. rewrite free_app in F. now apply andb_true_iff in F as [_ F]. Qed.

(** [(2F*<7/2>,3D<2>)*] *)
Definition jj_long_symbol (sc : Z) (cc : ascii) (oddc : bool) (jc so : Z) (co : ascii) (oddo : bool) (jo : Z) (odd : bool) : string :=
  "(" ++ ancestor sc cc oddc jc ++ "," ++ ancestor so co oddo jo ++ ")" ++ star_mark odd.

Lemma ancestor_free_bracket : forall s2 c odd j, (0 <= s2)%Z -> is_alpha c = true -> has_char "[" (ancestor s2 c odd j) = false.
Proof.
  intros s2 c odd j Hs Ac. unfold ancestor. rewrite has_char_app. rewrite digits_no by (auto using mult_digits). cbn [append has_char orb].
  destruct (Ascii.eqb_spec c "["); [subst; discriminate|]. cbn [orb]. rewrite has_char_app. cbn [append has_char].
  rewrite has_char_app, half_label_no by (reflexivity || discriminate). destruct odd; reflexivity.
Qed.

Lemma quantum_nums_JJ_long : forall conf sc lc cc oddc jc so lo co oddo jo odd,
  free "<" conf = true -> (0 <= sc)%Z -> (0 <= so)%Z -> orbital_letter lc cc -> orbital_letter lo co ->
  get_quantum_nums conf (jj_long_symbol sc cc oddc jc so co oddo jo odd) =
  Ok (mkQN (whole lc) (half sc) (whole lo) (half so) (half jc) (half jo) None None None).
Proof.
  intros conf sc lc cc oddc jc so lo co oddo jo odd F Hsc Hso Hlc Hlo.
  destruct (orbital_letter_cases lo co Hlo) as (U&D&_).
  destruct (orbital_letter_cases lc cc Hlc) as (Uc&_).
  assert (Ac : is_alpha co = true) by (unfold is_alpha; now rewrite U).
  assert (Acc : is_alpha cc = true) by (unfold is_alpha; now rewrite Uc).
  assert (Cp : get_term_coupling (jj_long_symbol sc cc oddc jc so co oddo jo odd) = CJJ).
  { unfold get_term_coupling, jj_long_symbol.
    replace (has_char "[" _) with false; [reflexivity|].
    symmetry. cbn [append has_char orb]. rewrite has_char_app, ancestor_free_bracket by auto. cbn [append has_char orb].
    rewrite has_char_app, ancestor_free_bracket by auto. destruct odd; reflexivity. }
  unfold get_quantum_nums. rewrite Cp. unfold parse_JJ_term. rewrite (findall_JJ_none conf F).
  assert (E3 : no_close_angle (ancestor so co oddo jo ++ ")" ++ star_mark odd) = true).
  { rewrite no_close_app by (now apply ancestor_free_close). destruct odd; reflexivity. }
  assert (E2 : no_close_angle ("" ++ String "," (ancestor so co oddo jo ++ ")" ++ star_mark odd)) = true).
  { cbn [append no_close_angle]. change (Ascii.eqb "," ")") with false. exact E3. }
  assert (E1 : no_close_angle ("" ++ String "(" (ancestor sc cc oddc jc ++ "," ++ ancestor so co oddo jo ++ ")" ++ star_mark odd)) = true).
  { cbn [append no_close_angle]. change (Ascii.eqb "(" ")") with false. cbn [andb].
    rewrite no_close_app by (now apply ancestor_free_close). exact E2. }
  unfold jj_long_symbol.
  change ("(" ++ ancestor sc cc oddc jc ++ "," ++ ancestor so co oddo jo ++ ")" ++ star_mark odd)
    with ("" ++ String "(" (ancestor sc cc oddc jc ++ "," ++ ancestor so co oddo jo ++ ")" ++ star_mark odd)).
  rewrite (findall_JJ_skip "" "("); auto; try discriminate.
  rewrite findall_JJ_hit by auto.
  change ("," ++ ancestor so co oddo jo ++ ")" ++ star_mark odd) with ("" ++ String "," (ancestor so co oddo jo ++ ")" ++ star_mark odd)).
  rewrite (findall_JJ_skip "" ","); auto; try discriminate.
  rewrite findall_JJ_hit by auto.
  replace (findall re_JJ (")" ++ star_mark odd)) with (@nil caps) by (destruct odd; reflexivity). cbv iota.
  change (grp 1 (jj_caps (mult sc) cc (half_label jc))) with (mult sc).
  change (grp 2 (jj_caps (mult sc) cc (half_label jc))) with (String cc "").
  change (grp 3 (jj_caps (mult sc) cc (half_label jc))) with (half_label jc).
  change (grp 1 (jj_caps (mult so) co (half_label jo))) with (mult so).
  change (grp 2 (jj_caps (mult so) co (half_label jo))) with (String co "").
  change (grp 3 (jj_caps (mult so) co (half_label jo))) with (half_label jo).
  rewrite !frac_of_half. cbn [rbind].
  rewrite (l_of_letter lc cc), (l_of_letter lo co) by auto. cbn [rbind].
  unfold jj_spin, s_isupper. rewrite U, Uc, !spin_of_mult. reflexivity.
Qed.

(** A JJ symbol with J values only, and no ancestors in the configuration. *)
Lemma quantum_nums_JJ_bare : forall conf jc jo odd, free "<" conf = true ->
  get_quantum_nums conf (jj_symbol jc jo odd) = Raise ValueError.
Proof.
  intros conf jc jo odd F. unfold get_quantum_nums. rewrite coupling_JJ. unfold parse_JJ_term.
  rewrite (findall_JJ_none conf F), findall_JJ_none; [reflexivity|].
  unfold jj_symbol, free. cbn [append has_char]. rewrite has_char_app. cbn [append has_char]. rewrite has_char_app.
  rewrite !half_label_no by (reflexivity || discriminate). destruct odd; reflexivity.
Qed.
