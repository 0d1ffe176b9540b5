(** Proofs about the term-symbol parsers.  The notations being parsed are
    defined here by printing functions that do not refer to the parsers. *)
From Coq Require Import List Bool ZArith QArith Lia String Ascii.
From Verif Require Import Base PyStr Util UtilProofs Regex Parse.
Import ListNotations.
Local Open Scope string_scope.

(** ** Printing NIST notation *)

(** The parity mark. *)
Definition star_mark (odd : bool) : string := if odd then "*" else "".

(** The letters of spectroscopic notation in their standard order: s, p, d, f
    and then alphabetically from g, leaving out j and the letters already
    used. *)
Definition alphabet : string := "ABCDEFGHIJKLMNOPQRSTUVWXYZ".
Fixpoint sfilter (f : ascii -> bool) (s : string) : string :=
  match s with
  | EmptyString => EmptyString
  | String a s' => if f a then String a (sfilter f s') else sfilter f s'
  end.
Definition spectro_letters : string :=
  "SPDF" ++ sfilter (fun a => (code "F" <? code a)%nat && negb (has_char a "JSP")) alphabet.

(** [orbital_letter i c]: [c] is the capital letter for [L = i]. *)
Definition orbital_letter (i : Z) (c : ascii) : Prop :=
  (0 <= i <= 20)%Z /\ String.get (Z.to_nat i) spectro_letters = Some c.

(** The small letter of an electron. *)
Definition small (c : ascii) : ascii := ascii_of_nat (code c + 32).

(** A spin is given by its double [s2]; [{2S+1}]. *)
Definition mult (s2 : Z) : string := zstr (s2 + 1).

Definition half (z : Z) : option Q := Some (Qred (z # 2)).
Definition whole (z : Z) : option Q := Some (inject_Z z).

(** [{2S+1}{L}] with parity mark, e.g. [2P*]. *)
Definition ls_symbol (s2 : Z) (c : ascii) (odd : bool) : string :=
  mult s2 ++ String c (star_mark odd).
(** [{2S+1}[K]], e.g. [3[5/2]*]. *)
Definition jk_symbol (s2 k : Z) (odd : bool) : string :=
  mult s2 ++ "[" ++ half_label k ++ "]" ++ star_mark odd.
(** [{L} {2S+1}[K]], e.g. [P 2[3/2]]. *)
Definition lk_symbol (c : ascii) (oddL : bool) (s2 k : Z) (odd : bool) : string :=
  String c (star_mark oddL ++ " " ++ mult s2 ++ "[" ++ half_label k ++ "]" ++ star_mark odd).
(** [(Jc,Jo)], e.g. [(7/2,1/2)*]. *)
Definition jj_symbol (jc jo : Z) (odd : bool) : string :=
  "(" ++ half_label jc ++ "," ++ half_label jo ++ ")" ++ star_mark odd.

(** An ancestor term with its J: [2F*<7/2>]; without: [3P]. *)
Definition ancestor (s2 : Z) (c : ascii) (odd : bool) (j : Z) : string :=
  mult s2 ++ String c (star_mark odd ++ "<" ++ half_label j ++ ">").
Definition no_upper (s : string) : bool := all_chars (fun a => negb (is_upper a)) s.

(** ** Letters *)

Lemma spectro_letters_eq : spectro_letters = letters.
Proof. reflexivity. Qed.

Lemma get_nth_char : forall n s, String.get n s = nth_char n s.
Proof. induction n; destruct s; simpl; auto. Qed.

Lemma orbital_letter_let_to_l : forall i c, orbital_letter i c ->
  let_to_l (String c "") = Ok (Some i).
Proof.
  intros i c [Hi Hg]. rewrite spectro_letters_eq, get_nth_char in Hg.
  now apply letter_index.
Qed.

(** Facts checked for each of the 21 letters. *)
Lemma orbital_letter_cases : forall i c, orbital_letter i c ->
  is_upper c = true /\ is_digit c = false /\ has_char c letters = true /\
  is_lower (small c) = true /\ is_upper (small c) = false /\ is_digit (small c) = false /\
  let_to_l (String (small c) "") = Ok (Some i) /\ not_newline c = true /\
  c <> "["%char /\ c <> "("%char /\ c <> "<"%char /\ small c <> "["%char /\ small c <> "("%char
  /\ c <> "*"%char.
Proof.
  intros i c [Hi Hg]. rewrite spectro_letters_eq, get_nth_char in Hg.
  assert (Hn : (Z.to_nat i < 21)%nat) by lia.
  assert (Ei : i = Z.of_nat (Z.to_nat i)) by lia.
  rewrite Ei. revert Hn Hg. generalize (Z.to_nat i). intros n Hn Hg. clear - Hn Hg.
  do 21 (destruct n; [injection Hg as <-; repeat split; try reflexivity; discriminate|]). lia.
Qed.

(** ** Character facts *)

Lemma mult_digits : forall s2, (0 <= s2)%Z -> all_chars is_digit (mult s2) = true.
Proof. intros. apply zstr_digits. lia. Qed.
Lemma mult_nonempty : forall s2, mult s2 <> "".
Proof. intros. apply zstr_nonempty. Qed.

Lemma digit_not_newline : forall c, is_digit c = true -> not_newline c = true.
Proof.
  intros c. unfold is_digit, not_newline. rewrite andb_true_iff, !Nat.leb_le.
  intros. destruct (Nat.eqb_spec (code c) 10); [lia|auto].
Qed.

Lemma half_label_chars : forall (f : ascii -> bool) z,
  (forall c, is_digit c = true -> f c = true) -> f "-"%char = true -> f "/"%char = true ->
  all_chars f (half_label z) = true.
Proof.
  intros f z Hd Hm Hs.
  assert (Hz : forall w, all_chars f (zstr w) = true).
  { intros w. destruct (Z.ltb_spec w 0).
    - rewrite zstr_neg by auto. cbn [all_chars]. rewrite Hm.
      apply all_chars_imp with is_digit; auto. apply zstr_digits; lia.
    - apply all_chars_imp with is_digit; auto. apply zstr_digits; lia. }
  unfold half_label. destruct (Z.even z); auto.
  rewrite all_chars_app, Hz. cbn [all_chars]. rewrite Hs, Hd by reflexivity. auto.
Qed.

Lemma half_label_nonempty : forall z, half_label z <> "".
Proof.
  intros z. unfold half_label. destruct (Z.even z); [apply zstr_nonempty|].
  destruct (zstr z) eqn:E; [now apply zstr_nonempty in E | discriminate].
Qed.

Lemma half_label_no : forall c z, is_digit c = false -> c <> "-"%char -> c <> "/"%char ->
  has_char c (half_label z) = false.
Proof.
  intros c z Hc H1 H2. apply all_chars_has with (fun a => negb (is_char c a)).
  - apply half_label_chars; unfold is_char.
    + intros a Ha. destruct (Ascii.eqb_spec a c); subst; [congruence|auto].
    + destruct (Ascii.eqb_spec "-" c); [congruence|auto].
    + destruct (Ascii.eqb_spec "/" c); [congruence|auto].
  - unfold is_char. now rewrite Ascii.eqb_refl.
Qed.

Lemma half_label_notnl : forall z, all_chars not_newline (half_label z) = true.
Proof. intros. apply half_label_chars; try reflexivity. apply digit_not_newline. Qed.

(** ** Numbers read back *)

Lemma spin_of_mult : forall s2, spin_of (mult s2) = Ok (Qred (s2 # 2)).
Proof.
  intros. unfold spin_of, mult. rewrite pyfloat_zstr. f_equal.
  apply Qred_complete. unfold Qeq. simpl. lia.
Qed.

Lemma frac_of_half : forall z, frac_of (half_label z) = Ok (half z).
Proof.
  intros. unfold frac_of. destruct (half_label_ok z) as [q [-> E]]. simpl.
  unfold half. now rewrite (Qred_complete _ _ E).
Qed.

Lemma l_of_letter : forall i c, orbital_letter i c -> l_of (String c "") = Ok (whole i).
Proof. intros. unfold l_of. now rewrite (orbital_letter_let_to_l i c H). Qed.

Lemma l_of_small : forall i c, orbital_letter i c -> l_of (String (small c) "") = Ok (whole i).
Proof.
  intros. unfold l_of. destruct (orbital_letter_cases i c H) as (_&_&_&_&_&_&->&_). reflexivity.
Qed.

(** ** Generic matching lemmas *)

(** A run of class [f] ends before the first character outside [f]. *)
Lemma split_run : forall f d p b s r, all_chars f d = true -> f b = false ->
  p ++ String b s = d ++ r -> exists p3, p = d ++ p3 /\ r = p3 ++ String b s.
Proof.
  induction d; intros p b s r A B E.
  - exists p. auto.
  - simpl in A. apply andb_true_iff in A as [Fa A].
    destruct p as [|x p]; simpl in E; injection E as E1 E2.
    + congruence.
    + subst. destruct (IHd _ _ _ _ A B E2) as [p3 [-> ->]]. exists p3. auto.
Qed.

(** [\d+] followed by something that needs a character of class [g] fails on
    a stretch without such characters. *)
Lemma digits_then_fail {X} : forall g p b s c (k : string -> caps -> option X) n,
  all_chars (fun a => negb (g a)) p = true -> is_digit b = false -> g b = false ->
  rmatch (RGrp n (RPlus false is_digit)) (p ++ String b s) c
    (fun s' c' => match s' with String a s'' => if g a then k s'' c' else None | EmptyString => None end)
  = None.
Proof.
  intros g p b s c k n Hp Hb Hg. cbn [rmatch]. apply plus_fail.
  intros d r E Nd Ad. destruct (split_run _ _ _ _ _ _ Ad Hb E) as [p3 [-> ->]].
  rewrite all_chars_app in Hp. apply andb_true_iff in Hp as [_ Hp].
  destruct p3 as [|a p3]; cbn [append]; [now rewrite Hg|].
  simpl in Hp. apply andb_true_iff in Hp as [Ha _]. apply negb_true_iff in Ha. now rewrite Ha.
Qed.

Lemma digits_then_fail_end {X} : forall g p c (k : string -> caps -> option X) n,
  all_chars (fun a => negb (g a)) p = true ->
  rmatch (RGrp n (RPlus false is_digit)) p c
    (fun s' c' => match s' with String a s'' => if g a then k s'' c' else None | EmptyString => None end)
  = None.
Proof.
  intros g p c k n Hp. cbn [rmatch]. apply plus_fail.
  intros d r -> Nd Ad. rewrite all_chars_app in Hp. apply andb_true_iff in Hp as [_ Hp].
  destruct r as [|a r]; auto.
  simpl in Hp. apply andb_true_iff in Hp as [Ha _]. apply negb_true_iff in Ha. now rewrite Ha.
Qed.

Lemma no_upper_suffix : forall p q f, all_chars f (p ++ q) = true -> all_chars f q = true.
Proof. intros. rewrite all_chars_app in H. now apply andb_true_iff in H. Qed.

(** ** LS terms *)

Lemma re_LS_hit : forall m c r, m <> "" -> all_chars is_digit m = true ->
  is_digit c = false -> is_upper c = true ->
  match_at re_LS (m ++ String c r) = Some ([(1%nat, m); (2%nat, String c "")], r).
Proof.
  intros m c r Nm Am Dc Uc. unfold match_at, re_LS. cbn [rmatch].
  apply plus_greedy_run; auto. rewrite Uc. rewrite consumed_app, consumed_cons. reflexivity.
Qed.

Lemma parse_LS_ok : forall s2 i c odd, (0 <= s2)%Z -> orbital_letter i c ->
  parse_LS_term (ls_symbol s2 c odd) = Ok (whole i, Qred (s2 # 2)).
Proof.
  intros s2 i c odd Hs Hc. destruct (orbital_letter_cases i c Hc) as (U&D&_).
  unfold parse_LS_term, findall, ls_symbol.
  rewrite findall_n_hit with (c := [(1%nat, mult s2); (2%nat, String c "")]) (s' := star_mark odd).
  2:{ apply re_LS_hit; auto using mult_nonempty, mult_digits. }
  rewrite findall_n_none.
  2:{ intros p1 p2 E. unfold match_at, re_LS. cbn [rmatch]. apply plus_fail.
      intros d r -> Nd Ad. exfalso. destruct odd; simpl in E.
      - destruct p1 as [|x p1]; simpl in E.
        + destruct d; [congruence|]. injection E as <- E. discriminate.
        + injection E as <- E. destruct p1, d; simpl in E; try congruence; discriminate.
      - destruct p1, d; simpl in E; try congruence; discriminate. }
  change (grp 1 [(1%nat, mult s2); (2%nat, String c "")]) with (mult s2).
  change (grp 2 [(1%nat, mult s2); (2%nat, String c "")]) with (String c "").
  rewrite spin_of_mult. simpl. rewrite (l_of_letter i c Hc). reflexivity.
Qed.

Lemma digits_no : forall ch s, all_chars is_digit s = true -> is_digit ch = false -> has_char ch s = false.
Proof. intros. eapply all_chars_has; eauto. Qed.

Lemma coupling_LS : forall s2 i c odd, (0 <= s2)%Z -> orbital_letter i c ->
  get_term_coupling (ls_symbol s2 c odd) = CLS.
Proof.
  intros s2 i c odd Hs Hc. destruct (orbital_letter_cases i c Hc) as (U&D&_&_&_&_&_&_&N1&N2&_).
  assert (H1 : forall ch, is_digit ch = false -> c <> ch -> has_char ch (star_mark odd) = false ->
                 has_char ch (ls_symbol s2 c odd) = false).
  { intros ch Dc Nc Hst. unfold ls_symbol. rewrite has_char_app.
    rewrite digits_no by (auto using mult_digits). cbn [has_char orb]. rewrite Hst.
    destruct (Ascii.eqb_spec c ch); [congruence|auto]. }
  unfold get_term_coupling.
  rewrite !H1; auto; try (destruct odd; reflexivity).
  unfold ls_symbol. rewrite length_append. cbn [String.length].
  pose proof (mult_nonempty s2). destruct (mult s2); [congruence|]. cbn [String.length].
  destruct (Nat.ltb_spec 1 (S (String.length s) + S (String.length (star_mark odd)))); [auto|lia].
Qed.

Lemma quantum_nums_LS : forall conf s2 i c odd, (0 <= s2)%Z -> orbital_letter i c ->
  get_quantum_nums conf (ls_symbol s2 c odd) =
  Ok (mkQN None None None None None None (whole i) (half s2) None).
Proof.
  intros. unfold get_quantum_nums. rewrite (coupling_LS s2 i c odd) by auto.
  rewrite (parse_LS_ok s2 i c odd) by auto. reflexivity.
Qed.

(** ** JK terms *)

Definition jk_caps (m : string) (c : ascii) (j : string) : caps :=
  [(1%nat, m); (2%nat, String c ""); (3%nat, j)].

(** A constituent with its J in angle brackets. *)
Lemma re_JKconf_hit : forall m c odd j r,
  m <> "" -> all_chars is_digit m = true -> is_digit c = false -> is_upper c = true ->
  j <> "" -> all_chars not_newline j = true -> has_char ">" j = false ->
  match_at re_JKconf (m ++ String c (star_mark odd ++ "<" ++ j ++ ">" ++ r)) =
  Some (jk_caps m c j, r).
Proof.
  intros m c odd j r Nm Am Dc Uc Nj Aj Hj. unfold match_at, re_JKconf. cbn [rmatch rchr].
  apply plus_greedy_run; auto. rewrite Uc, consumed_app, consumed_cons.
  assert (K : forall cc, cc = [(1%nat, m); (2%nat, String c "")] ->
    plus true not_newline
      (fun s' => match s' with
         | String a s'0 => if is_char ">" a then
              Some (dset 3%nat (consumed (j ++ ">" ++ r) s') cc, s'0) else None
         | EmptyString => None end) (j ++ ">" ++ r) = Some (jk_caps m c j, r)).
  { intros cc ->.
    destruct j as [|a j]; [congruence|]. cbn [append plus star].
    cbn [all_chars] in Aj. apply andb_true_iff in Aj as [-> Aj].
    cbn [has_char] in Hj. apply orb_false_iff in Hj as [Ha Hj].
    apply lstar_first; auto.
    - intros d1 d2 -> Nd. destruct d2 as [|b d2]; [congruence|]. cbn [append].
      rewrite has_char_app in Hj. apply orb_false_iff in Hj as [_ Hj]. cbn [has_char] in Hj.
      apply orb_false_iff in Hj as [Hj _]. unfold is_char. now rewrite Hj.
    - unfold is_char. rewrite Ascii.eqb_refl.
      change (String a (j ++ String ">" r)) with (String a j ++ String ">" r).
      rewrite consumed_app. reflexivity. }
  specialize (K _ eq_refl).
  destruct odd; cbn [star_mark append].
  - change (is_char "*" "*") with true. cbv iota. change (is_char "<" "<") with true. cbv iota.
    match goal with |- context[plus true not_newline ?k ?s] =>
      replace (plus true not_newline k s) with (Some (jk_caps m c j, r)) by (symmetry; exact K) end.
    reflexivity.
  - change (is_char "*" "<") with false. cbv iota. change (is_char "<" "<") with true. cbv iota.
    match goal with |- context[plus true not_newline ?k ?s] =>
      replace (plus true not_newline k s) with (Some (jk_caps m c j, r)) by (symmetry; exact K) end.
    reflexivity.
Qed.

(** A constituent without J, at the end of the configuration. *)
Lemma re_JKconf_hit_plain : forall m c odd b r,
  m <> "" -> all_chars is_digit m = true -> is_digit c = false -> is_upper c = true ->
  b <> "<"%char -> b <> "*"%char ->
  match_at re_JKconf (m ++ String c (star_mark odd ++ String b r)) =
  Some ([(1%nat, m); (2%nat, String c "")], String b r).
Proof.
  intros m c odd b r Nm Am Dc Uc Nb Nb2. unfold match_at, re_JKconf. cbn [rmatch rchr].
  apply plus_greedy_run; auto. rewrite Uc, consumed_app, consumed_cons.
  assert (E1 : is_char "<" b = false) by (unfold is_char; destruct (Ascii.eqb_spec b "<"); congruence).
  assert (E2 : is_char "*" b = false) by (unfold is_char; destruct (Ascii.eqb_spec b "*"); congruence).
  destruct odd; cbn [star_mark append].
  - change (is_char "*" "*") with true. cbv iota. rewrite E1. reflexivity.
  - rewrite E2, E1. reflexivity.
Qed.

Lemma re_JKconf_skip : forall p b s, no_upper p = true -> is_digit b = false -> is_upper b = false ->
  match_at re_JKconf (p ++ String b s) = None.
Proof.
  intros p b s Hp Db Ub. unfold match_at, re_JKconf. cbn [rmatch].
  apply plus_fail. intros d r E Nd Ad.
  destruct (split_run _ _ _ _ _ _ Ad Db E) as [p3 [-> ->]].
  unfold no_upper in Hp. apply no_upper_suffix in Hp.
  destruct p3 as [|a p3]; cbn [append]; [now rewrite Ub|].
  cbn [all_chars] in Hp. apply andb_true_iff in Hp as [Ha _]. apply negb_true_iff in Ha. now rewrite Ha.
Qed.

Lemma re_JKconf_skip_end : forall p, no_upper p = true -> match_at re_JKconf p = None.
Proof.
  intros p Hp. unfold match_at, re_JKconf. cbn [rmatch].
  apply plus_fail. intros d r -> Nd Ad.
  unfold no_upper in Hp. apply no_upper_suffix in Hp.
  destruct r as [|a r]; auto.
  cbn [all_chars] in Hp. apply andb_true_iff in Hp as [Ha _]. apply negb_true_iff in Ha. now rewrite Ha.
Qed.

(** Skipping a lower-case stretch that ends in a separator. *)
Lemma findall_JK_skip : forall p b s n, no_upper p = true -> is_digit b = false -> is_upper b = false ->
  findall_n (String.length p + S n) re_JKconf (p ++ String b s) = findall_n n re_JKconf s.
Proof.
  intros p b s n Hp Db Ub.
  rewrite findall_n_skip.
  - cbn [findall_n].
    assert (E : match_at re_JKconf (String b s) = None) by (apply (re_JKconf_skip "" b s); auto).
    rewrite E. reflexivity.
  - intros p1 p2 -> _. apply re_JKconf_skip; auto. unfold no_upper in *. eapply no_upper_suffix; eauto.
Qed.

Lemma findall_JK_none : forall q n, no_upper q = true -> findall_n n re_JKconf q = [].
Proof.
  intros. apply findall_n_none. intros p1 p2 ->. apply re_JKconf_skip_end.
  unfold no_upper in *. eapply no_upper_suffix; eauto.
Qed.

(** The pattern consumes something whenever it matches, so the fuel of
    [findall] is irrelevant. *)
Lemma gstar_shorter {X} : forall f (k : string -> option (X * string)) s δ,
  (forall s' x r, k s' = Some (x, r) -> (String.length r + δ <= String.length s')%nat) ->
  match gstar f k s with Some (_, r) => (String.length r + δ <= String.length s)%nat | None => True end.
Proof.
  intros f k s δ H. induction s; cbn [gstar].
  - destruct (k "") as [[x r]|] eqn:K; eauto.
  - destruct (f a).
    + destruct (gstar f k s) as [[x r]|]; [simpl; lia|].
      destruct (k (String a s)) as [[x r]|] eqn:K; eauto.
    + destruct (k (String a s)) as [[x r]|] eqn:K; eauto.
Qed.

Lemma lstar_shorter {X} : forall f (k : string -> option (X * string)) s δ,
  (forall s' x r, k s' = Some (x, r) -> (String.length r + δ <= String.length s')%nat) ->
  match lstar f k s with Some (_, r) => (String.length r + δ <= String.length s)%nat | None => True end.
Proof.
  intros f k s δ H. induction s; cbn [lstar].
  - destruct (k "") as [[x r]|] eqn:K; eauto.
  - destruct (k (String a s)) as [[x r]|] eqn:K; [eauto|].
    destruct (f a); auto. destruct (lstar f k s) as [[x r]|]; auto. simpl; lia.
Qed.

(** Least number of characters a pattern consumes. *)
Fixpoint min_len (r : re) : nat :=
  match r with
  | RChr _ => 1
  | RCat a b => min_len a + min_len b
  | RAlt a b => Nat.min (min_len a) (min_len b)
  | ROpt _ => 0
  | RPlus _ _ => 1
  | RStar _ _ => 0
  | RGrp _ a => min_len a
  end.

Lemma rmatch_shorter : forall {X} r s c (k : string -> caps -> option (X * string)) δ x s',
  (forall s' c' x r, k s' c' = Some (x, r) -> (String.length r + δ <= String.length s')%nat) ->
  rmatch r s c k = Some (x, s') -> (String.length s' + δ + min_len r <= String.length s)%nat.
Proof.
  induction r; cbn [rmatch min_len]; intros s c k δ x s' H E.
  - destruct s; [discriminate|]. destruct (f a); [|discriminate]. apply H in E. simpl. lia.
  - eapply IHr1 with (δ := (δ + min_len r2)%nat) in E; [lia|].
    intros s1 c1 x1 r E1. eapply IHr2 in E1; eauto. lia.
  - destruct (rmatch r1 s c k) as [[x1 s1]|] eqn:E1.
    + injection E as -> ->. eapply IHr1 in E1; eauto. lia.
    + eapply IHr2 in E; eauto. lia.
  - destruct (rmatch r s c k) as [[x1 s1]|] eqn:E1.
    + injection E as -> ->. eapply IHr in E1; eauto. lia.
    + apply H in E. lia.
  - destruct s; [discriminate|]. cbn [plus] in E. destruct (f a); [|discriminate].
    destruct lazy; cbn [star] in E.
    + pose proof (lstar_shorter f (fun s0 => k s0 c) s δ (fun s0 => H s0 c)) as G. rewrite E in G. simpl; lia.
    + pose proof (gstar_shorter f (fun s0 => k s0 c) s δ (fun s0 => H s0 c)) as G. rewrite E in G. simpl; lia.
  - destruct lazy; cbn [star] in E.
    + pose proof (lstar_shorter f (fun s0 => k s0 c) s δ (fun s0 => H s0 c)) as G. rewrite E in G. lia.
    + pose proof (gstar_shorter f (fun s0 => k s0 c) s δ (fun s0 => H s0 c)) as G. rewrite E in G. lia.
  - eapply IHr in E; eauto.
Qed.

Lemma match_at_shorter : forall r s c s', (0 < min_len r)%nat ->
  match_at r s = Some (c, s') -> (String.length s' < String.length s)%nat.
Proof.
  intros r s c s' Hr E. unfold match_at in E.
  eapply rmatch_shorter with (δ := 0%nat) in E; [lia|].
  intros s1 c1 x r1 E1. injection E1 as _ ->. lia.
Qed.

(** Any fuel larger than the length gives the result of [findall]. *)
Lemma findall_fuel : forall r s n, (0 < min_len r)%nat -> (String.length s < n)%nat ->
  findall r s = findall_n n r s.
Proof.
  intros. unfold findall. apply findall_n_fuel; try lia.
  intros. eapply match_at_shorter; eauto.
Qed.

(** [findall] rules. *)
Lemma findall_hit : forall r s c s', (0 < min_len r)%nat ->
  match_at r s = Some (c, s') -> findall r s = c :: findall r s'.
Proof.
  intros r s c s' Hr E. pose proof (match_at_shorter _ _ _ _ Hr E) as L.
  unfold findall at 1. rewrite findall_n_hit with (c := c) (s' := s') by auto.
  f_equal. symmetry. apply findall_fuel; auto.
Qed.

Lemma findall_skip : forall r p s, (0 < min_len r)%nat ->
  (forall p1 p2, p = p1 ++ p2 -> p2 <> "" -> match_at r (p2 ++ s) = None) ->
  findall r (p ++ s) = findall r s.
Proof.
  intros r p s Hr H. rewrite (findall_fuel r (p ++ s) (String.length p + S (String.length s))); auto.
  - now rewrite findall_n_skip.
  - rewrite length_append. lia.
Qed.

Lemma findall_none : forall r s, (forall p1 p2, s = p1 ++ p2 -> match_at r p2 = None) -> findall r s = [].
Proof. intros. unfold findall. now apply findall_n_none. Qed.

(** ** Configurations for JK terms *)

Lemma no_upper_app : forall a b, no_upper (a ++ b) = no_upper a && no_upper b.
Proof. intros. apply all_chars_app. Qed.

Lemma findall_JKconf_core : forall p s2 i c odd j r,
  no_upper p = true -> (0 <= s2)%Z -> orbital_letter i c ->
  findall re_JKconf (p ++ "(" ++ ancestor s2 c odd j ++ r) =
  jk_caps (mult s2) c (half_label j) :: findall re_JKconf r.
Proof.
  intros p s2 i c odd j r Hp Hs Hc. destruct (orbital_letter_cases i c Hc) as (U&D&_).
  change (p ++ "(" ++ ancestor s2 c odd j ++ r) with (p ++ String "(" (ancestor s2 c odd j ++ r)).
  replace (p ++ String "(" (ancestor s2 c odd j ++ r)) with ((p ++ "(") ++ (ancestor s2 c odd j ++ r))
    by (now rewrite append_assoc).
  rewrite findall_skip.
  - apply findall_hit; [simpl; lia|].
    unfold ancestor. rewrite !append_assoc. cbn [append].
    rewrite !append_assoc. cbn [append]. rewrite append_assoc. cbn [append].
    apply re_JKconf_hit; auto using mult_nonempty, mult_digits, half_label_nonempty, half_label_notnl.
    apply half_label_no; [reflexivity|discriminate|discriminate].
  - simpl; lia.
  - intros p1 p2 E N.
    assert (exists p3, p2 = p3 ++ "(" /\ no_upper p3 = true) as [p3 [-> H3]].
    { clear - E N Hp. revert p1 p2 E N. induction p; intros p1 p2 E N.
      - exists "". destruct p1; [auto|]. injection E as -> E. destruct p1, p2; simpl in *; congruence.
      - cbn [append] in E. destruct p1.
        + exists (String a p). auto.
        + injection E as -> E. apply (IHp) with p1; auto.
          unfold no_upper in *. cbn [all_chars] in Hp. now apply andb_true_iff in Hp. }
    rewrite append_assoc. cbn [append]. apply re_JKconf_skip; auto.
Qed.

Lemma findall_JKconf_tail : forall q, no_upper q = true -> findall re_JKconf q = [].
Proof.
  intros. apply findall_none. intros p1 p2 ->. apply re_JKconf_skip_end.
  rewrite no_upper_app in H. now apply andb_true_iff in H.
Qed.

Lemma last_char_app : forall s c, last_char (s ++ String c "") = Ok (String c "").
Proof.
  induction s as [|a s IH]; intros; [reflexivity|].
  cbn [append]. specialize (IH c). destruct s; [reflexivity|]. exact IH.
Qed.

Lemma findall_JKconf_plain : forall q s2 i c odd,
  no_upper q = true -> (0 <= s2)%Z -> orbital_letter i c ->
  findall re_JKconf (q ++ "(" ++ ls_symbol s2 c odd ++ ")") =
  [[(1%nat, mult s2); (2%nat, String c "")]].
Proof.
  intros q s2 i c odd Hp Hs Hc. destruct (orbital_letter_cases i c Hc) as (U&D&_).
  replace (q ++ "(" ++ ls_symbol s2 c odd ++ ")") with ((q ++ "(") ++ (ls_symbol s2 c odd ++ ")"))
    by (now rewrite append_assoc).
  rewrite findall_skip.
  - rewrite findall_hit with (c := [(1%nat, mult s2); (2%nat, String c "")]) (s' := ")").
    + f_equal.
    + simpl; lia.
    + unfold ls_symbol. rewrite !append_assoc. cbn [append].
      apply re_JKconf_hit_plain; auto using mult_nonempty, mult_digits; discriminate.
  - simpl; lia.
  - intros p1 p2 E N.
    assert (exists p3, p2 = p3 ++ "(" /\ no_upper p3 = true) as [p3 [-> H3]].
    { clear - E N Hp. revert p1 p2 E N. induction q; intros p1 p2 E N.
      - exists "". destruct p1; [auto|]. injection E as -> E. destruct p1, p2; simpl in *; congruence.
      - cbn [append] in E. destruct p1.
        + exists (String a q). auto.
        + injection E as -> E. apply (IHq) with p1; auto.
          unfold no_upper in *. cbn [all_chars] in Hp. now apply andb_true_iff in Hp. }
    rewrite append_assoc. cbn [append]. apply re_JKconf_skip; auto.
Qed.

(** ** The bracketed K of JK and LK terms *)

Lemma plus_lazy_group {X} : forall (cl : ascii) j r (F : string -> string -> option X) x,
  j <> "" -> all_chars not_newline j = true -> has_char cl j = false ->
  F j r = Some x ->
  plus true not_newline
    (fun s' => match s' with
       | String a s'0 => if is_char cl a then F (consumed (j ++ String cl r) s') s'0 else None
       | EmptyString => None end) (j ++ String cl r) = Some x.
Proof.
  intros cl j r F x Nj Aj Hj HF.
  destruct j as [|a j]; [congruence|]. cbn [append plus star].
  cbn [all_chars] in Aj. apply andb_true_iff in Aj as [-> Aj].
  cbn [has_char] in Hj. apply orb_false_iff in Hj as [Ha Hj].
  apply lstar_first; auto.
  - intros d1 d2 -> Nd. destruct d2 as [|b d2]; [congruence|]. cbn [append].
    rewrite has_char_app in Hj. apply orb_false_iff in Hj as [_ Hj]. cbn [has_char] in Hj.
    apply orb_false_iff in Hj as [Hj _]. unfold is_char. now rewrite Hj.
  - unfold is_char. rewrite Ascii.eqb_refl.
    change (String a (j ++ String cl r)) with (String a j ++ String cl r).
    now rewrite consumed_app.
Qed.

Lemma re_JKterm_hit : forall m j r,
  m <> "" -> all_chars is_digit m = true ->
  j <> "" -> all_chars not_newline j = true -> has_char "]" j = false ->
  match_at re_JKterm (m ++ "[" ++ j ++ "]" ++ r) = Some ([(1%nat, m); (2%nat, j)], r).
Proof.
  intros m j r Nm Am Nj Aj Hj. unfold match_at, re_JKterm. cbn [rmatch rchr append].
  apply plus_greedy_run; auto.
  change (is_char "[" "[") with true. cbv iota.
  rewrite consumed_app.
  apply (plus_lazy_group "]" j r (fun g s => Some (dset 2%nat g (dset 1%nat m []), s))); auto.
Qed.

Lemma star_mark_no_digit_prefix : forall odd p1 p2 (d r : string), star_mark odd = p1 ++ d ++ r ->
  p2 = d ++ r -> d <> "" -> all_chars is_digit d = true -> False.
Proof.
  intros odd p1 p2 d r E _ N A. destruct d as [|a d]; [congruence|].
  cbn [all_chars] in A. apply andb_true_iff in A as [Fa _].
  assert (H : has_char a (star_mark odd) = true).
  { rewrite E, has_char_app, has_char_app. cbn [has_char]. rewrite Ascii.eqb_refl.
    now rewrite !orb_true_r. }
  destruct odd; cbn [star_mark has_char] in H; [|discriminate]. rewrite orb_false_r in H.
  apply Ascii.eqb_eq in H. subst. discriminate.
Qed.

Lemma findall_JKterm : forall s2 k odd, (0 <= s2)%Z ->
  findall re_JKterm (jk_symbol s2 k odd) = [[(1%nat, mult s2); (2%nat, half_label k)]].
Proof.
  intros s2 k odd Hs. unfold jk_symbol.
  rewrite findall_hit with (c := [(1%nat, mult s2); (2%nat, half_label k)]) (s' := star_mark odd).
  - f_equal. apply findall_none. intros p1 p2 E. unfold match_at, re_JKterm. cbn [rmatch].
    apply plus_fail. intros d r -> N A. exfalso.
    eapply star_mark_no_digit_prefix; eauto.
  - simpl; lia.
  - apply re_JKterm_hit; auto using mult_nonempty, mult_digits, half_label_nonempty, half_label_notnl.
    apply half_label_no; [reflexivity|discriminate|discriminate].
Qed.

Lemma coupling_JK : forall s2 k odd, (0 <= s2)%Z -> get_term_coupling (jk_symbol s2 k odd) = CJK.
Proof.
  intros s2 k odd Hs. unfold get_term_coupling, jk_symbol.
  rewrite has_char_app. cbn [append has_char]. rewrite Ascii.eqb_refl, orb_true_r.
  pose proof (mult_digits s2 Hs) as D. pose proof (mult_nonempty s2) as N.
  destruct (mult s2) as [|a m]; [congruence|]. cbn [append head_in_letters].
  cbn [all_chars] in D. apply andb_true_iff in D as [D _].
  rewrite all_chars_has with (f := fun a => negb (is_digit a)); auto. now rewrite D.
Qed.

(** A JK term over a configuration with one ancestor and an outer electron. *)
Lemma quantum_nums_JK_electron : forall p q sc lc cc oddc jc lo co so k odd,
  no_upper p = true -> no_upper q = true -> (0 <= sc)%Z -> (0 <= so)%Z ->
  orbital_letter lc cc -> orbital_letter lo co ->
  get_quantum_nums (p ++ "(" ++ ancestor sc cc oddc jc ++ ")" ++ q ++ String (small co) "")
                   (jk_symbol so k odd) =
  Ok (mkQN (whole lc) (half sc) (whole lo) (half so) (half jc) None None None (half k)).
Proof.
  intros p q sc lc cc oddc jc lo co so k odd Hp Hq Hsc Hso Hlc Hlo.
  destruct (orbital_letter_cases lo co Hlo) as (_&_&_&L&U&_).
  unfold get_quantum_nums. rewrite coupling_JK by auto. unfold parse_JK_term.
  rewrite (findall_JKconf_core p sc lc cc oddc jc) by auto.
  rewrite findall_JKconf_tail.
  2:{ rewrite !no_upper_app, Hq. unfold no_upper. cbn [all_chars]. rewrite U. reflexivity. }
  replace (p ++ "(" ++ ancestor sc cc oddc jc ++ ")" ++ q ++ String (small co) "")
    with ((p ++ "(" ++ ancestor sc cc oddc jc ++ ")" ++ q) ++ String (small co) "")
    by (now rewrite !append_assoc).
  rewrite last_char_app. cbn [rbind].
  rewrite findall_JKterm by auto. cbn [rbind].
  change (grp 1 (jk_caps (mult sc) cc (half_label jc))) with (mult sc).
  change (grp 2 (jk_caps (mult sc) cc (half_label jc))) with (String cc "").
  change (grp 3 (jk_caps (mult sc) cc (half_label jc))) with (half_label jc).
  change (grp 1 [(1%nat, mult so); (2%nat, half_label k)]) with (mult so).
  change (grp 2 [(1%nat, mult so); (2%nat, half_label k)]) with (half_label k).
  rewrite !frac_of_half, !spin_of_mult. cbn [rbind].
  rewrite (l_of_letter lc cc), (l_of_small lo co) by auto. reflexivity.
Qed.

(** A JK term over a configuration with two ancestor terms. *)
Lemma quantum_nums_JK_terms : forall p q sc lc cc oddc jc s2 lo co oddo so k odd,
  no_upper p = true -> no_upper q = true -> (0 <= sc)%Z -> (0 <= s2)%Z -> (0 <= so)%Z ->
  orbital_letter lc cc -> orbital_letter lo co ->
  get_quantum_nums (p ++ "(" ++ ancestor sc cc oddc jc ++ ")" ++ q ++ "(" ++ ls_symbol s2 co oddo ++ ")")
                   (jk_symbol so k odd) =
  Ok (mkQN (whole lc) (half sc) (whole lo) (half so) (half jc) None None None (half k)).
Proof.
  intros p q sc lc cc oddc jc s2 lo co oddo so k odd Hp Hq Hsc Hs2 Hso Hlc Hlo.
  unfold get_quantum_nums. rewrite coupling_JK by auto. unfold parse_JK_term.
  rewrite (findall_JKconf_core p sc lc cc oddc jc) by auto.
  replace (")" ++ q ++ "(" ++ ls_symbol s2 co oddo ++ ")")
    with ((")" ++ q) ++ "(" ++ ls_symbol s2 co oddo ++ ")") by (now rewrite !append_assoc).
  rewrite (findall_JKconf_plain (")" ++ q) s2 lo co) by auto.
  rewrite findall_JKterm by auto. cbn [rbind].
  change (grp 1 (jk_caps (mult sc) cc (half_label jc))) with (mult sc).
  change (grp 2 (jk_caps (mult sc) cc (half_label jc))) with (String cc "").
  change (grp 3 (jk_caps (mult sc) cc (half_label jc))) with (half_label jc).
  change (grp 2 [(1%nat, mult s2); (2%nat, String co "")]) with (String co "").
  change (grp 1 [(1%nat, mult so); (2%nat, half_label k)]) with (mult so).
  change (grp 2 [(1%nat, mult so); (2%nat, half_label k)]) with (half_label k).
  rewrite !frac_of_half, !spin_of_mult. cbn [rbind].
  rewrite (l_of_letter lc cc), (l_of_letter lo co) by auto. reflexivity.
Qed.
