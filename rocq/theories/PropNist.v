(** Properties C91-C95: what is read out of the cells of a NIST table. *)
From Coq Require Import List Bool ZArith QArith Qcanon Lia String Ascii DecimalString.
From Verif Require Import Base PyStr Util Regex Parse ParseProofs ParseProofs2 Term TermProofs IO PropIO Tables PropTables Nist.
Import ListNotations.
Local Open Scope string_scope.

Lemma all_chars_app : forall f a b, all_chars f (a ++ b) = all_chars f a && all_chars f b.
Proof. intros f a b. induction a as [|x a IH]; [reflexivity|]. cbn [append all_chars]. now rewrite IH, andb_assoc. Qed.
Lemma append_inj_r : forall a b c, a ++ c = b ++ c -> a = b.
Proof.
  intros a b c E. apply (f_equal (fun s => stake (String.length s - String.length c) s)) in E.
  rewrite !length_append in E. replace (String.length a + String.length c - String.length c)%nat with (String.length a) in E by lia.
  replace (String.length b + String.length c - String.length c)%nat with (String.length b) in E by lia. now rewrite !stake_app in E.
Qed.

(** ** C91: cells *)

(** No character of the class at either end. *)
Definition clean (p : ascii -> bool) (v : string) : Prop :=
  (forall c r, v = String c r -> p c = false) /\ (forall r c, v = r ++ String c "" -> p c = false).

Lemma lstrip_app : forall p a v, all_chars p a = true -> (forall c r, v = String c r -> p c = false) -> lstrip p (a ++ v) = v.
Proof.
  intros p a v. induction a as [|x a IH]; intros A H.
  - cbn [append]. destruct v as [|c r]; [reflexivity|]. cbn [lstrip]. now rewrite (H c r eq_refl).
  - cbn [append lstrip all_chars] in *. apply andb_true_iff in A as [-> A]. now apply IH.
Qed.
Lemma rstrip_all : forall p b, all_chars p b = true -> rstrip p b = "".
Proof. intros p b. induction b as [|x b IH]; intros A; [reflexivity|]. cbn [all_chars rstrip] in *. apply andb_true_iff in A as [A1 A2]. now rewrite IH, A1. Qed.
Lemma rstrip_app : forall p v b, all_chars p b = true -> (forall r c, v = r ++ String c "" -> p c = false) -> rstrip p (v ++ b) = v.
Proof.
  intros p v b B. induction v as [|x v IH]; intros H; [now apply rstrip_all|]. cbn [append rstrip].
  rewrite IH by (intros r c E; apply (H (String x r) c); cbn [append]; now rewrite E).
  destruct v as [|y v]; [|reflexivity]. now rewrite (H "" x eq_refl).
Qed.
Lemma lstrip_inv : forall p s, exists a, s = a ++ lstrip p s /\ all_chars p a = true /\ forall c r, lstrip p s = String c r -> p c = false.
Proof.
  intros p s. induction s as [|x s [a [E [A H]]]].
  - exists "". repeat split. discriminate.
  - cbn [lstrip]. destruct (p x) eqn:P.
    + exists (String x a). split; [cbn [append]; now rewrite <- E|]. split; [cbn [all_chars]; now rewrite P|exact H].
    + exists "". repeat split. intros c r Ec. injection Ec as <- _. exact P.
Qed.
Lemma snoc_inj : forall r r' c c', r ++ String c "" = r' ++ String c' "" -> r = r' /\ c = c'.
Proof.
  induction r as [|x r IH]; intros [|y r'] c c' E; cbn [append] in E.
  - injection E as ->. auto.
  - destruct r'; discriminate.
  - destruct r; discriminate.
  - injection E as -> E. destruct (IH _ _ _ E) as [-> ->]. auto.
Qed.
Lemma rstrip_inv : forall p s, exists b, s = rstrip p s ++ b /\ all_chars p b = true /\ forall r c, rstrip p s = r ++ String c "" -> p c = false.
Proof.
  intros p s. induction s as [|x s [b [E [B H]]]].
  - exists "". repeat split. intros [|y r] c X; discriminate.
  - cbn [rstrip]. destruct (rstrip p s) as [|y r] eqn:R.
    + cbn [append] in E. destruct (p x) eqn:P.
      * exists (String x b). split; [cbn [append]; now rewrite <- E|]. split; [cbn [all_chars]; now rewrite P|]. intros [|z r] c X; discriminate.
      * exists b. split; [cbn [append]; now rewrite <- E|]. split; [exact B|]. intros r' c X. change (String x "") with ("" ++ String x "") in X. apply snoc_inj in X as [_ <-]. exact P.
    + exists b. split; [cbn [append]; cbn [append] in E; now rewrite <- E|]. split; [exact B|]. intros [|z r'] c X; [discriminate|]. injection X as <- X. now apply (H r' c).
Qed.

(** Every cell is its cleaned text with blanks, equals signs, quotes and
    question marks around it, and no such character is left at the ends. *)
Theorem C91_inside : forall s, exists a b, s = a ++ clean_cell s ++ b /\ all_chars junk a = true /\ all_chars junk b = true /\ clean junk (clean_cell s).
Proof.
  intros s. unfold clean_cell, strip. destruct (lstrip_inv junk s) as [a [Ea [Aa Ha]]]. destruct (rstrip_inv junk (lstrip junk s)) as [b [Eb [Bb Hb]]].
  exists a, b. split; [rewrite <- Eb; exact Ea|]. split; [exact Aa|]. split; [exact Bb|]. split; [|exact Hb].
  intros c r E. rewrite E in Eb. cbn [append] in Eb. now apply (Ha c (r ++ b)).
Qed.
Print Assumptions C91_inside.
(** A value wrapped like NIST does comes out as it was, if it has no such
    character at its own ends. *)
Theorem C91_partial : forall a v b, all_chars junk a = true -> all_chars junk b = true -> clean junk v -> clean_cell (a ++ v ++ b) = v.
Proof.
  intros a v b A B [H1 H2]. unfold clean_cell, strip. destruct v as [|c v].
  - cbn [append]. assert (X : lstrip junk (a ++ b) = lstrip junk b \/ all_chars junk (a ++ b) = true) by (right; rewrite all_chars_app, A; exact B).
    assert (Y : forall s, all_chars junk s = true -> lstrip junk s = "").
    { induction s as [|x s IH]; intros S; [reflexivity|]. cbn [all_chars lstrip] in *. apply andb_true_iff in S as [-> S]. now apply IH. }
    rewrite Y by (rewrite all_chars_app, A; exact B). reflexivity.
  - rewrite lstrip_app; [now apply rstrip_app|exact A|]. intros c' r E. cbn [append] in E. injection E as <- _. now apply (H1 c v).
Qed.
Print Assumptions C91_partial.
Definition wrap (v : string) : string := "=" ++ String "034" (v ++ String "034" "").
Theorem C91_wrapped_partial : forall v, clean junk v -> clean_cell (wrap v) = v.
Proof. intros v C. change (wrap v) with (("=" ++ String "034" "") ++ v ++ String "034" ""). apply C91_partial; [reflexivity|reflexivity|exact C]. Qed.
Print Assumptions C91_wrapped_partial.
Example C91_case : clean junk "3d10.4s (2S<1/2>)" /\ clean_cell (wrap "3d10.4s (2S<1/2>)") = "3d10.4s (2S<1/2>)".
Proof.
  split; [|vm_compute; reflexivity]. split; intros x y E; [injection E as <- _; reflexivity|].
  change "3d10.4s (2S<1/2>)" with ("3d10.4s (2S<1/2>" ++ String ")" "") in E. apply snoc_inj in E as [_ <-]. reflexivity.
Qed.
(** A question mark at the end of a term is lost. *)
Theorem C91_refuted : exists v, v = "3P?" /\ clean_cell (wrap v) = "3P".
Proof. eexists. split; [reflexivity|]. vm_compute. reflexivity. Qed.
Print Assumptions C91_refuted.

(** ** C92: leading percentages *)

Definition plainb (s : string) : bool := all_chars not_newline s.
(** A word: not empty, without blanks, colons and newlines. *)
Definition wordc (a : ascii) : bool := not_blank a && not_newline a && negb (Ascii.eqb a ":").
Definition word (s : string) : Prop := s <> "" /\ all_chars wordc s = true.
Definition blanks (s : string) : Prop := s <> "" /\ all_chars blank s = true.
Definition digits (s : string) : Prop := s <> "" /\ all_chars is_digit s = true.

Lemma all_imp : forall (f g : ascii -> bool) s, (forall a, f a = true -> g a = true) -> all_chars f s = true -> all_chars g s = true.
Proof. intros f g s H. induction s as [|a s IH]; intros A; [reflexivity|]. cbn [all_chars] in *. apply andb_true_iff in A as [A1 A2]. now rewrite H, IH. Qed.
Lemma no_colon : forall f s, (forall a, f a = true -> Ascii.eqb a ":" = false) -> all_chars f s = true -> has_char ":" s = false.
Proof. intros f s H. induction s as [|a s IH]; intros A; [reflexivity|]. cbn [all_chars has_char] in *. apply andb_true_iff in A as [A1 A2]. now rewrite H, IH. Qed.
Lemma blank_nn : forall a, blank a = true -> not_newline a = true.
Proof. intros a H. apply Ascii.eqb_eq in H. subst. reflexivity. Qed.
Lemma blank_nc : forall a, blank a = true -> Ascii.eqb a ":" = false.
Proof. intros a H. apply Ascii.eqb_eq in H. subst. reflexivity. Qed.
Lemma digit_all : forall a, is_digit a = true -> not_newline a = true /\ Ascii.eqb a ":" = false /\ blank a = false.
Proof. intros a H. destruct a as [[] [] [] [] [] [] [] []]; try discriminate H; repeat split. Qed.
Lemma blank_nd : forall a, blank a = true -> is_digit a = false.
Proof. intros a H. apply Ascii.eqb_eq in H. subst. reflexivity. Qed.
Lemma wordc_all : forall a, wordc a = true -> blank a = false /\ not_newline a = true /\ Ascii.eqb a ":" = false.
Proof.
  intros a H. unfold wordc, not_blank in H. apply andb_true_iff in H as [H H3]. apply andb_true_iff in H as [H1 H2].
  apply negb_true_iff in H1, H3. auto.
Qed.

Section Colon.
  Context {X : Type} (K : string -> option X).
  Definition colon (s : string) : option X := match s with String a s' => if is_char ":" a then K s' else None | EmptyString => None end.
  Lemma colon_none : forall s, has_char ":" s = false -> colon s = None.
  Proof. intros [|a s] H; [reflexivity|]. cbn [has_char colon] in *. apply orb_false_iff in H as [H _]. unfold is_char. now rewrite H. Qed.
  Lemma suffix_free : forall d r, has_char ":" (d ++ r) = false -> has_char ":" r = false.
  Proof. intros d r H. rewrite has_char_app in H. now apply orb_false_iff in H. Qed.
  Lemma dots_none : forall s, has_char ":" s = false -> gstar not_newline colon s = None.
  Proof. intros s H. apply gstar_fail. intros d r -> _. apply colon_none. now apply suffix_free in H. Qed.
  Lemma dots_colon : forall y rest x, plainb y = true -> has_char ":" rest = false -> K rest = Some x ->
    gstar not_newline colon (y ++ String ":" rest) = Some x.
  Proof.
    intros y rest x P H E. induction y as [|a y IH].
    - cbn [append gstar]. change (not_newline ":") with true. cbv iota. rewrite dots_none by exact H. exact E.
    - cbn [plainb all_chars append gstar] in *. apply andb_true_iff in P as [-> P]. cbv iota. now rewrite IH.
  Qed.
  Definition mid (s : string) : option X := gstar blank (gstar not_newline colon) s.
  Lemma mid_none : forall s, has_char ":" s = false -> mid s = None.
  Proof. intros s H. apply gstar_fail. intros d r -> _. apply dots_none. now apply suffix_free in H. Qed.
  Lemma mid_colon : forall y rest x, plainb y = true -> has_char ":" rest = false -> K rest = Some x -> mid (y ++ String ":" rest) = Some x.
  Proof.
    intros y rest x P H E. unfold mid. induction y as [|a y IH].
    - cbn [append gstar]. change (blank ":") with false. cbv iota. apply (dots_colon "" rest x); auto.
    - pose proof P as P0. cbn [plainb all_chars append gstar] in *. apply andb_true_iff in P as [P1 P2]. destruct (blank a); [now rewrite IH|].
      apply (dots_colon (String a y) rest x); auto.
  Qed.
  Lemma some_mid : forall a y rest x, plainb (String a y) = true -> has_char ":" rest = false -> K rest = Some x ->
    plus true not_newline mid (String a y ++ String ":" rest) = Some x.
  Proof.
    intros a y rest x P H E. cbn [plainb all_chars append plus star] in *. apply andb_true_iff in P as [-> P].
    pose proof (mid_colon y rest x P H E) as Mc. destruct (y ++ String ":" rest); cbn [lstar]; now rewrite Mc.
  Qed.
  Lemma none_mid : forall rest, has_char ":" rest = false -> plus true not_newline mid (String ":" rest) = None.
  Proof.
    intros rest H. cbn [plus]. change (not_newline ":") with true. cbv iota. cbn [star]. apply lstar_fail. intros d r -> _. apply mid_none. now apply suffix_free in H.
  Qed.
  (** The blanks after the first percentage, then at least one character
      before the colon. *)
  Lemma gap : forall b y rest x, blanks b -> plainb y = true -> (forall a r, y = String a r -> blank a = false) ->
    (y <> "" \/ (2 <= String.length b)%nat) -> has_char ":" rest = false -> K rest = Some x ->
    plus false blank (plus true not_newline mid) (b ++ y ++ String ":" rest) = Some x.
  Proof.
    intros b y rest x [Nb Ab] P Hy D H E. destruct y as [|a y].
    - destruct D as [D|D]; [congruence|]. cbn [append]. destruct b as [|b0 b]; [congruence|]. cbn [all_chars append plus star] in *. apply andb_true_iff in Ab as [-> Ab].
      cbv iota. assert (Nb' : b <> "") by (intros ->; cbn in D; lia). clear D Nb. revert Nb' Ab. induction b as [|b1 b IH]; intros Nb Ab; [congruence|].
      cbn [all_chars append gstar] in *. apply andb_true_iff in Ab as [B1 Ab]. rewrite B1. destruct b as [|b2 b].
      + cbn [append gstar]. change (blank ":") with false. cbv iota. rewrite none_mid by exact H. change (String b1 (String ":" rest)) with (String b1 "" ++ String ":" rest). apply some_mid; [|exact H|exact E].
        cbn [plainb all_chars]. now rewrite (blank_nn b1 B1).
      + rewrite IH; [reflexivity|discriminate|exact Ab].
    - apply plus_greedy_run; auto; [cbn [append]; now apply (Hy a y)|]. now apply some_mid.
  Qed.
End Colon.

(** The second component. *)
Definition tail_of (o : option (string * string)) : string := match o with Some (b, t) => b ++ t | None => "" end.
Definition tail_ok (o : option (string * string)) : Prop := match o with Some (b, t) => blanks b /\ word t | None => True end.
Definition tail_term (o : option (string * string)) : option string := option_map snd o.

Lemma end_word : forall (f : caps) s, word s -> at_end s f = None.
Proof.
  intros f [|a [|b s]] [N W]; [congruence| |reflexivity]. cbn [all_chars] in W. apply andb_true_iff in W as [W _]. apply wordc_all in W as [_ [W _]].
  unfold not_newline in W. cbn [at_end]. destruct (Nat.eqb (code a) 10); [discriminate|reflexivity].
Qed.
Lemma word_suffix : forall d1 d2, all_chars wordc (d1 ++ d2) = true -> d2 <> "" -> word d2.
Proof. intros d1 d2 H N. rewrite all_chars_app in H. apply andb_true_iff in H as [_ H]. now split. Qed.
Lemma star_word : forall {X} (k : string -> option X) s r, word s -> gstar blank k (s ++ r) = k (s ++ r).
Proof. intros X k [|a s] r [N W]; [congruence|]. cbn [all_chars append gstar] in *. apply andb_true_iff in W as [W _]. apply wordc_all in W as [-> _]. reflexivity. Qed.
Lemma plus_word : forall {X} (k : string -> option X) s r, word s -> plus false blank k (s ++ r) = None.
Proof. intros X k [|a s] r [N W]; [congruence|]. cbn [all_chars append plus] in *. apply andb_true_iff in W as [W _]. apply wordc_all in W as [-> _]. reflexivity. Qed.
Lemma last_word : forall {X} (k : string -> option X) t x, word t -> k "" = Some x -> (forall s, word s -> k s = None) -> plus true not_newline k t = Some x.
Proof.
  intros X k [|a t] x [N W] E H; [congruence|]. cbn [all_chars] in W. apply andb_true_iff in W as [Wa W]. cbn [plus]. destruct (wordc_all _ Wa) as [_ [-> _]]. cbv iota. cbn [star].
  rewrite <- (append_nil_r t). apply lstar_first.
  - apply (all_imp wordc); [intros; now apply wordc_all|exact W].
  - intros d1 d2 -> Nd. rewrite append_nil_r. apply H. now apply word_suffix in W.
  - exact E.
Qed.

Lemma second_ok : forall b Q b2 conf o c, all_chars blank b = true -> digits Q -> blanks b2 -> word conf -> tail_ok o ->
  rmatch re_second (b ++ Q ++ b2 ++ conf ++ tail_of o) c at_end =
  Some (match tail_term o with Some t => dset 4%nat t (dset 3%nat conf (dset 2%nat Q c)) | None => dset 3%nat conf (dset 2%nat Q c) end).
Proof.
  intros b Q b2 conf o c B [NQ DQ] [N2 B2] Wc To. unfold re_second, rcat. cbn [rmatch].
  apply gstar_run; [exact B|destruct Q as [|q Q]; [congruence|]; cbn [all_chars append] in *; apply andb_true_iff in DQ as [DQ _]; now apply digit_all|].
  apply plus_greedy_run; [exact NQ|exact DQ|destruct b2 as [|q b2]; [congruence|]; cbn [all_chars append] in *; apply andb_true_iff in B2 as [B2 _]; now apply blank_nd|].
  rewrite consumed_app.
  apply plus_greedy_run; [exact N2|exact B2|destruct Wc as [Nc Wc]; destruct conf as [|q conf]; [congruence|]; cbn [all_chars append] in *; apply andb_true_iff in Wc as [Wc _]; now apply wordc_all|].
  pose proof Wc as [Nc Ac]. destruct conf as [|a conf]; [congruence|]. cbn [all_chars] in Ac. apply andb_true_iff in Ac as [Wa Ac].
  set (conf0 := String a conf). cbn [plus append]. change (String a (conf ++ tail_of o)) with (conf0 ++ tail_of o).
  match goal with |- plus true not_newline ?k _ = ?r => change ((if not_newline a then lstar not_newline k (conf ++ tail_of o) else None) = r) end.
  destruct (wordc_all _ Wa) as [_ [-> _]]. cbv iota. apply lstar_first.
  - apply (all_imp wordc); [intros; now apply wordc_all|exact Ac].
  - intros d1 d2 E Nd. rewrite E in Ac. apply word_suffix in Ac; [|exact Nd]. rewrite plus_word by exact Ac. unfold star. rewrite star_word by exact Ac.
    destruct d2 as [|u d2]; [congruence|]. destruct (d2 ++ tail_of o) as [|v r] eqn:Er.
    + destruct d2; [|discriminate]. cbn [append] in *. rewrite Er. now apply end_word.
    + cbn [append]. rewrite Er. reflexivity.
  - rewrite consumed_app. unfold star. destruct o as [[b3 t]|]; cbn [tail_of tail_term option_map snd].
    + destruct To as [[N3 B3] Wt].
      assert (E : plus false blank (fun s' => plus true not_newline (fun s'0 => gstar blank (fun s'1 => at_end s'1 (dset 4%nat (consumed s' s'0) (dset 3%nat conf0 (dset 2%nat Q c)))) s'0) s') (b3 ++ t)
                  = Some (dset 4%nat t (dset 3%nat conf0 (dset 2%nat Q c)))); [|rewrite E; reflexivity].
      apply plus_greedy_run; [exact N3|exact B3| |].
      * destruct Wt as [Nt At]. destruct t as [|q t]; [congruence|]. cbn [all_chars] in At. apply andb_true_iff in At as [At _]. now apply wordc_all.
      * apply last_word; [exact Wt| |].
        -- cbn [gstar at_end]. rewrite <- (append_nil_r t) at 1. now rewrite consumed_app.
        -- intros s Ws. match goal with |- gstar blank ?k s = _ => pose proof (star_word k s "" Ws) as S1; rewrite append_nil_r in S1; rewrite S1 end. now apply end_word.
    + reflexivity.
Qed.

Definition gap_ok (b y : string) : Prop :=
  blanks b /\ plainb y = true /\ (forall a r, y = String a r -> blank a = false) /\ (y <> "" \/ (2 <= String.length b)%nat).
(** A cell with two components as NIST prints it: percentage, blanks, whatever
    is said about the first component, a colon, percentage, configuration and
    possibly a term. *)
Definition cell (P b1 y b Q b2 conf : string) (o : option (string * string)) : string :=
  P ++ b1 ++ y ++ ":" ++ b ++ Q ++ b2 ++ conf ++ tail_of o.

Lemma cell_match : forall P b1 y b Q b2 conf o, digits P -> gap_ok b1 y -> all_chars blank b = true -> digits Q -> blanks b2 -> word conf -> tail_ok o ->
  rmatch re_pct (cell P b1 y b Q b2 conf o) [] at_end =
  Some (match tail_term o with Some t => dset 4%nat t (dset 3%nat conf (dset 2%nat Q (dset 1%nat P []))) | None => dset 3%nat conf (dset 2%nat Q (dset 1%nat P [])) end).
Proof.
  intros P b1 y b Q b2 conf o [NP DP] [[N1 B1] [Py [Hy D]]] B HQ HB Wc To.
  unfold re_pct. cbn [rcat]. unfold cell. cbn [rmatch]. unfold rchr. cbn [rmatch].
  pose proof (second_ok b Q b2 conf o (dset 1%nat P []) B HQ HB Wc To) as S2.
  set (rest := b ++ Q ++ b2 ++ conf ++ tail_of o) in *.
  assert (Hr : has_char ":" rest = false).
  { unfold rest. rewrite !has_char_app. destruct HQ as [_ DQ], HB as [_ HB], Wc as [_ Wc].
    rewrite (no_colon blank b), (no_colon is_digit Q), (no_colon blank b2), (no_colon wordc conf); auto; try (intros; now apply digit_all); try (intros; now apply wordc_all); try apply blank_nc.
    destruct o as [[b3 t]|]; [|reflexivity]. destruct To as [[_ B3] [_ Wt]]. cbn [tail_of]. rewrite has_char_app, (no_colon blank b3), (no_colon wordc t); auto; [intros; now apply wordc_all|apply blank_nc]. }
  apply (gstar_run blank _ "" (P ++ b1 ++ y ++ ":" ++ rest)); [reflexivity| |].
  { destruct P as [|q P]; [congruence|]. cbn [append all_chars] in *. apply andb_true_iff in DP as [DP _]. now apply digit_all. }
  apply plus_greedy_run; [exact NP|exact DP| |].
  { destruct b1 as [|q b1]; [congruence|]. cbn [append all_chars] in *. apply andb_true_iff in B1 as [B1 _]. now apply blank_nd. }
  rewrite consumed_app.
  apply (gap (fun s' => rmatch re_second s' (dset 1%nat P []) at_end) b1 y rest); auto. now split.
Qed.

(** The cell is read back as printed. *)
Theorem C92_partial : forall P b1 y b Q b2 conf o, digits P -> gap_ok b1 y -> all_chars blank b = true -> digits Q -> blanks b2 -> word conf -> tail_ok o ->
  percentages (cell P b1 y b Q b2 conf o) = mkParts (pyfloat P) (Some (pyfloat Q, conf, tail_term o)).
Proof.
  intros P b1 y b Q b2 conf o HP HG B HQ HB Wc To. unfold percentages.
  assert (S : search re_pct (cell P b1 y b Q b2 conf o) = rmatch re_pct (cell P b1 y b Q b2 conf o) [] at_end).
  { pose proof (cell_match P b1 y b Q b2 conf o HP HG B HQ HB Wc To) as M0. destruct (cell P b1 y b Q b2 conf o); cbn [search]; now rewrite M0. }
  rewrite S, (cell_match P b1 y b Q b2 conf o) by assumption. destruct o as [[b3 t]|]; reflexivity.
Qed.
Print Assumptions C92_partial.
(** The percentages are the printed numbers. *)
Corollary C92_numbers_partial : forall p b1 y b q b2 conf o, (0 <= p)%Z -> (0 <= q)%Z -> gap_ok b1 y -> all_chars blank b = true -> blanks b2 -> word conf -> tail_ok o ->
  percentages (cell (zstr p) b1 y b (zstr q) b2 conf o) = mkParts (Some (p # 1)%Q) (Some (Some (q # 1)%Q, conf, tail_term o)).
Proof.
  intros p b1 y b q b2 conf o Hp Hq G B HB Wc To. assert (D : forall z, (0 <= z)%Z -> digits (zstr z)) by (intros z Hz; split; [apply zstr_nonempty|now apply zstr_digits]).
  rewrite C92_partial by auto. now rewrite !pyfloat_zstr.
Qed.
Print Assumptions C92_numbers_partial.
Example C92_case :
  let c := cell "35" "  " "3[5/2]*       " "    " "30" "      " "(2F*<7/2>)(3F)" (Some (" ", "3[3/2]*")) in
  c = "35  3[5/2]*       :    30      (2F*<7/2>)(3F) 3[3/2]*" /\ gap_ok "  " "3[5/2]*       " /\ word "(2F*<7/2>)(3F)" /\ tail_ok (Some (" ", "3[3/2]*")) /\
  percentages c = mkParts (Some (35 # 1)%Q) (Some (Some (30 # 1)%Q, "(2F*<7/2>)(3F)", Some "3[3/2]*")) /\
  percentages "81                :    11  (2F*<5/2>).5d2.(1D)            1[7/2]*" = mkParts (Some (81 # 1)%Q) (Some (Some (11 # 1)%Q, "(2F*<5/2>).5d2.(1D)", Some "1[7/2]*")).
Proof.
  assert (W : forall s, s <> "" -> all_chars wordc s = true -> word s) by (intros; now split).
  cbv zeta. split; [reflexivity|]. split; [|split; [|split; [|split]]].
  - split; [split; [discriminate|reflexivity]|]. split; [reflexivity|]. split; [intros a r E; injection E as <- _; reflexivity|left; discriminate].
  - apply W; [discriminate|reflexivity].
  - split; [split; [discriminate|reflexivity]|apply W; [discriminate|reflexivity]].
  - rewrite C92_partial; [reflexivity| | | | | | |]; try (split; [discriminate|reflexivity]); try reflexivity.
    + split; [split; [discriminate|reflexivity]|]. split; [reflexivity|]. split; [intros a r E; injection E as <- _; reflexivity|left; discriminate].
    + split; (split; [discriminate|reflexivity]).
  - vm_compute. reflexivity.
Qed.
(** Without a colon, that is, when only one component is given, the printed
    percentage is ignored and 100 is used. *)
Lemma pct_needs_colon : forall s, has_char ":" s = false -> search re_pct s = None.
Proof.
  intros s H.
  assert (R : forall s, has_char ":" s = false -> rmatch re_pct s [] at_end = None).
  { clear. intros s H. unfold re_pct. cbn [rcat]. cbn [rmatch]. unfold rchr. cbn [rmatch]. apply gstar_fail. intros d r -> _. apply suffix_free in H.
    apply plus_fail. intros d' r' -> _ _. apply suffix_free in H. apply plus_fail. intros d2 r2 -> _ _. apply suffix_free in H.
    apply plus_fail. intros d3 r3 -> _ _. apply suffix_free in H.
    match goal with |- star false blank (fun s' => star false not_newline (fun s'0 => _) s') _ = None => idtac end.
    unfold star. apply gstar_fail. intros d4 r4 -> _. apply suffix_free in H. apply gstar_fail. intros d5 r5 -> _. apply suffix_free in H.
    destruct r5 as [|a r5]; [reflexivity|]. cbn [has_char] in H. apply orb_false_iff in H as [H _]. unfold is_char. now rewrite H. }
  induction s as [|a s IH]; cbn [search]; rewrite R by exact H; [reflexivity|]. apply IH. cbn [has_char] in H. now apply orb_false_iff in H.
Qed.
Theorem C92_one_refuted : forall s, has_char ":" s = false -> percentages s = mkParts (Some 100%Q) None.
Proof. intros s H. unfold percentages. now rewrite pct_needs_colon. Qed.
Print Assumptions C92_one_refuted.
Example C92_one_case : has_char ":" "62  3P*" = false /\ p_first (percentages "62  3P*") = Some 100%Q.
Proof. split; [reflexivity|]. now rewrite C92_one_refuted. Qed.
(** One blank before the colon is not enough: nothing is read. *)
Theorem C92_blank_refuted : percentages "81 : 11  (1D)  1[7/2]" = mkParts (Some 100%Q) None.
Proof. vm_compute. reflexivity. Qed.
Print Assumptions C92_blank_refuted.

(** ** C93: levels read from a csv file *)

(** Without [columns] every file is refused. *)
Theorem C93_default_refuted : forall file, load_level_data file None = Raise KeyError.
Proof.
  intros file. unfold load_level_data. destruct (all_ok _ default_columns) as [df|] eqn:E; [|reflexivity].
  assert (H : forall (cols : list (string * string)) df, all_ok (fun kc => option_map (fun v : list string => (fst kc, v)) (dget (snd kc) file)) cols = Some df -> map fst df = map fst cols).
  { clear. induction cols as [|[k c] cols IH]; intros df E; cbn [all_ok] in E; [injection E as <-; reflexivity|]. cbn [fst snd] in E. destruct (dget c file) as [v|]; [|discriminate]. cbn [option_map] in E.
    destruct (all_ok _ cols) as [r|] eqn:Er; [|discriminate]. injection E as <-. cbn [map fst]. f_equal. now apply IH. }
  apply H in E. destruct (dget "Level (cm-1)" df) as [v|] eqn:D; [|reflexivity]. exfalso.
  apply dget_In in D. apply (in_map fst) in D. rewrite E in D. cbn in D. repeat (destruct D as [D|D]; [discriminate|]). exact D.
Qed.
Print Assumptions C93_default_refuted.

Definition foreign (a : ascii) : bool := negb (num_char a || Ascii.eqb a "-" || Ascii.eqb a "+").
(** A cell with one plain number in it and anything but digits, points and
    signs around it. *)
Definition holds (c : string) (q : Q) : Prop :=
  exists a n b, c = a ++ n ++ b /\ all_chars foreign a = true /\ all_chars foreign b = true /\ all_chars num_char n = true /\ pyfloat n = Some q.

Lemma keep_app : forall p a b, keep p (a ++ b) = keep p a ++ keep p b.
Proof. intros p a b. induction a as [|x a IH]; [reflexivity|]. cbn [append keep]. rewrite IH. destruct (p x); reflexivity. Qed.
Lemma keep_none : forall p a, all_chars (fun x => negb (p x)) a = true -> keep p a = "".
Proof. intros p a. induction a as [|x a IH]; intros H; [reflexivity|]. cbn [all_chars keep] in *. apply andb_true_iff in H as [H1 H2]. apply negb_true_iff in H1. rewrite H1. now apply IH. Qed.
Lemma keep_all : forall p a, all_chars p a = true -> keep p a = a.
Proof. intros p a. induction a as [|x a IH]; intros H; [reflexivity|]. cbn [all_chars keep] in *. apply andb_true_iff in H as [-> H2]. now rewrite IH. Qed.
Lemma foreign_num : forall x, foreign x = true -> num_char x = false.
Proof. intros x H. unfold foreign in H. apply negb_true_iff, orb_false_iff in H as [H _]. now apply orb_false_iff in H. Qed.
Lemma keep_foreign : forall a, all_chars foreign a = true -> keep num_char a = "".
Proof. intros a H. apply keep_none. apply (all_imp foreign); [|exact H]. intros x Hx. now rewrite foreign_num. Qed.
Lemma holds_keep : forall c q, holds c q -> pyfloat (keep num_char c) = Some q.
Proof. intros c q [a [n [b [-> [A [B [Nn P]]]]]]]. rewrite !keep_app, (keep_foreign a), (keep_foreign b), (keep_all _ n), append_nil_r by assumption. exact P. Qed.

Lemma uint_digits : forall s d, uint_val s = Some d -> all_chars is_digit s = true.
Proof.
  unfold uint_val. induction s as [|a s IH]; intros d H; [reflexivity|]. cbn [NilEmpty.uint_of_string] in H. destruct (NilEmpty.uint_of_string s) as [d'|] eqn:E.
  - cbn [all_chars]. rewrite (IH d' eq_refl), andb_true_r. destruct a as [[] [] [] [] [] [] [] []]; try discriminate H; reflexivity.
  - exfalso. destruct a as [[] [] [] [] [] [] [] []]; discriminate H.
Qed.
Lemma cut_first_join : forall c s ip o, cut_first c s = (ip, o) -> s = ip ++ match o with Some f => String c f | None => "" end.
Proof.
  intros c s. induction s as [|a s IH]; intros ip o H; cbn [cut_first] in H; [injection H as <- <-; reflexivity|].
  destruct (Ascii.eqb_spec a c) as [->|Ne]; [injection H as <- <-; reflexivity|]. destruct (cut_first c s) as [u v] eqn:E. injection H as <- <-. cbn [append]. now rewrite (IH u v eq_refl) at 1.
Qed.
Lemma pyfloat_no_foreign : forall x s q, foreign x = true -> has_char x s = true -> pyfloat s = Some q -> False.
Proof.
  intros x s q F Hx P. unfold pyfloat in P.
  assert (Nx : forall b : string, has_char x b = true -> (let '(ip, fpo) := cut_first "." b in exists di df, uint_val ip = Some di /\ uint_val (match fpo with Some f => f | None => EmptyString end) = Some df) -> False).
  { intros b Hb H. destruct (cut_first "." b) as [ip fpo] eqn:C. destruct H as [di [df [U1 U2]]]. apply cut_first_join in C. rewrite C in Hb.
    apply uint_digits in U1, U2. assert (D : is_digit x = false /\ Ascii.eqb "." x = false).
    { pose proof (foreign_num x F) as N0. unfold num_char in N0. apply orb_false_iff in N0 as [N1 N2]. split; [exact N1|]. rewrite Ascii.eqb_sym. exact N2. }
    rewrite has_char_app in Hb. rewrite (all_chars_has is_digit x ip) in Hb by (auto; apply D). cbn [orb] in Hb. destruct fpo as [f|]; [|discriminate]. cbn [has_char] in Hb.
    rewrite (all_chars_has is_digit x f) in Hb by (auto; apply D). destruct D as [_ D]. rewrite D in Hb. discriminate. }
  assert (Sx : forall a, (Ascii.eqb a "-" = true \/ Ascii.eqb a "+" = true) -> Ascii.eqb a x = false).
  { intros a Ha. destruct (Ascii.eqb_spec a x) as [->|]; [|reflexivity]. unfold foreign in F. destruct Ha as [Ha|Ha]; rewrite Ha, ?orb_true_r in F; discriminate. }
  destruct s as [|a s]; [discriminate Hx|].
  assert (K : forall neg (b : string), has_char x b = true -> (let '(ip, fpo) := cut_first "." b in
      let fp := match fpo with Some f => f | None => EmptyString end in
      match uint_val ip, uint_val fp with
      | Some di, Some df =>
        match di, df with
        | Decimal.Nil, Decimal.Nil => None
        | _, _ =>
          let den := Pos.pow 10 (Pos.of_nat (String.length fp)) in
          let den := match fp with EmptyString => 1%positive | _ => den end in
          let num := (Z.of_uint di * Zpos den + Z.of_uint df)%Z in
          Some ((if (neg:bool) then (- num)%Z else num) # den)
        end
      | _, _ => None
      end) = Some q -> False).
  { intros neg b Hb Hq. apply (Nx b Hb). destruct (cut_first "." b) as [ip fpo]. cbv zeta in Hq. destruct (uint_val ip) as [di|]; [|discriminate].
    destruct (uint_val match fpo with Some f => f | None => EmptyString end) as [df|]; [|discriminate]. exists di, df. auto. }
  cbn [has_char] in Hx. destruct (Ascii.eqb a "-") eqn:E1; [|destruct (Ascii.eqb a "+") eqn:E2].
  - rewrite (Sx a) in Hx by auto. exact (K true s Hx P).
  - rewrite (Sx a) in Hx by auto. exact (K false s Hx P).
  - exact (K false (String a s) Hx P).
Qed.
Lemma holds_direct : forall c q q', holds c q -> pyfloat c = Some q' -> q' = q.
Proof.
  intros c q q' [a [n [b [-> [A [B [Nn P]]]]]]] Q.
  assert (E : forall s, all_chars foreign s = true -> (forall x, has_char x s = true -> has_char x (a ++ n ++ b) = true) -> s = "").
  { intros [|x s] F H; [reflexivity|]. exfalso. cbn [all_chars] in F. apply andb_true_iff in F as [F _]. apply (pyfloat_no_foreign x (a ++ n ++ b) q' F); [|exact Q]. apply H. cbn [has_char]. now rewrite Ascii.eqb_refl. }
  assert (a = "") as -> by (apply E; [exact A|intros x H; now rewrite has_char_app, H]).
  assert (b = "") as -> by (apply E; [exact B|intros x H; rewrite !has_char_app, H; now rewrite !orb_true_r]).
  cbn [append] in Q. rewrite append_nil_r in Q. congruence.
Qed.

(** Cells with one unsigned number each give these numbers. *)
Theorem C93_partial : forall cells qs, Forall2 holds cells qs -> level_column cells = Ok qs.
Proof.
  intros cells qs F. unfold level_column.
  assert (K : all_ok pyfloat (map (keep num_char) cells) = Some qs).
  { induction F as [|c q cells qs H F IH]; [reflexivity|]. cbn [map all_ok]. now rewrite (holds_keep c q H), IH. }
  destruct (all_ok pyfloat cells) as [qs'|] eqn:E; [|now rewrite K]. f_equal. clear K.
  revert qs' E. induction F as [|c q cells qs H F IH]; intros qs' E; cbn [all_ok] in E; [now injection E as <-|].
  destruct (pyfloat c) as [q0|] eqn:Pc; [|discriminate]. destruct (all_ok pyfloat cells) as [r|]; [|discriminate]. injection E as <-.
  f_equal; [now apply (holds_direct c)|now apply IH].
Qed.
Print Assumptions C93_partial.
Example C93_case : Forall2 holds ["[12.5]"; "0.00"; "(31)?"] [(125 # 10)%Q; (0 # 100)%Q; (31 # 1)%Q] /\ level_column ["[12.5]"; "0.00"; "(31)?"] = Ok [(125 # 10)%Q; (0 # 100)%Q; (31 # 1)%Q].
Proof.
  assert (F : Forall2 holds ["[12.5]"; "0.00"; "(31)?"] [(125 # 10)%Q; (0 # 100)%Q; (31 # 1)%Q]); [|split; [exact F|now apply C93_partial]].
  repeat constructor.
  - exists "[", "12.5", "]". repeat split.
  - exists "", "0.00", "". repeat split.
  - exists "(", "31", ")?". repeat split.
Qed.
(** The sign is lost as soon as some cell is not a bare number. *)
Theorem C93_sign_refuted : forall n q c q', all_chars num_char n = true -> pyfloat n = Some q -> holds c q' -> pyfloat c = None ->
  level_column ["-" ++ n; c] = Ok [q; q'].
Proof.
  intros n q c q' Nn P H Nc. unfold level_column. assert (E : all_ok pyfloat ["-" ++ n; c] = None).
  { cbn [all_ok]. rewrite Nc. now destruct (pyfloat ("-" ++ n)). }
  rewrite E. cbn [map all_ok]. rewrite (holds_keep c q' H). change (keep num_char ("-" ++ n)) with (keep num_char n). now rewrite keep_all, P.
Qed.
Print Assumptions C93_sign_refuted.
Example C93_sign_case : level_column ["-12.5"; "3"] = Ok [(-125 # 10)%Q; (3 # 1)%Q] /\ level_column ["-12.5"; "[3]"] = Ok [(125 # 10)%Q; (3 # 1)%Q].
Proof. split; reflexivity. Qed.

(** ** C94: terms of jj-coupled second components *)

Definition angled (u : string) : bool := negb (String.eqb u "") && free ">" u && all_chars not_newline u.
Lemma angle_hit : forall u s, angled u = true -> match_at angle ("<" ++ u ++ ">" ++ s) = Some ([(1%nat, u)], s).
Proof.
  intros u s H. unfold angled in H. rewrite !andb_true_iff in H. destruct H as [[U1 U2] U3]. apply negb_true_iff, String.eqb_neq in U1.
  unfold match_at, angle, rcat. cbn [rmatch rchr append]. change (is_char "<" "<") with true. cbv iota. apply (plus_lazy_first not_newline _ u (String ">" s)); auto.
  - intros d1 d2 -> N. destruct d2 as [|b d2]; [congruence|]. cbn [append]. apply free_suffix in U2. now rewrite (free_head _ _ _ U2).
  - change (is_char ">" ">") with true. cbv iota. rewrite consumed_app. reflexivity.
Qed.
Lemma angle_miss : forall p s, p <> "" -> free "<" p = true -> match_at angle (p ++ s) = None.
Proof. intros [|a p] s N F; [congruence|]. apply free_head in F. unfold match_at, angle, rcat. cbn [rmatch rchr append]. now rewrite F. Qed.
(** A configuration with J values in angle brackets: [p<j1>q1<j2>q2...]. *)
Fixpoint angles (p : string) (l : list (string * string)) : string :=
  match l with [] => p | (j, q) :: r => p ++ "<" ++ j ++ ">" ++ angles q r end.
Definition angles_ok (p : string) (l : list (string * string)) : bool := free "<" p && forallb (fun x => angled (fst x) && free "<" (snd x)) l.
Lemma find_angles : forall l p n, angles_ok p l = true -> (String.length (angles p l) < n)%nat -> map (grp 1) (findall_n n angle (angles p l)) = map fst l.
Proof.
  induction l as [|[j q] l IH]; intros p n H L; unfold angles_ok in H; cbn [forallb fst snd] in H; rewrite !andb_true_iff in H.
  - destruct H as [F _]. cbn [angles]. rewrite findall_n_none; [reflexivity|]. intros p1 p2 ->. apply free_suffix in F. destruct p2 as [|a p2]; [reflexivity|].
    rewrite <- (append_nil_r (String a p2)). apply angle_miss; [discriminate|exact F].
  - destruct H as [F [[A Fq] R]]. cbn [angles] in *. rewrite !length_append in L. cbn [String.length] in L.
    replace n with (String.length p + S (n - S (String.length p)))%nat by lia. rewrite findall_n_skip.
    + rewrite (findall_n_hit angle _ _ _ _ (angle_hit j (angles q l) A)). cbn [map fst]. f_equal. apply IH; [unfold angles_ok; now rewrite Fq|lia].
    + intros p1 p2 -> N. apply angle_miss; [exact N|]. now apply free_suffix in F.
Qed.
Lemma jj_angles : forall p l, angles_ok p l = true -> jj_values (angles p l) = map fst l.
Proof. intros p l H. unfold jj_values, findall. apply find_angles; [exact H|lia]. Qed.

(** What is wanted of a row. *)
Definition row_term (r : option string * option string) (t : string) : Prop :=
  match r with
  | (_, Some t') => t = t'
  | (None, None) => t = ""
  | (Some c, None) => exists p j1 q1 j2 q2 l, c = angles p ((j1, q1) :: (j2, q2) :: l) /\ angles_ok p ((j1, q1) :: (j2, q2) :: l) = true /\ t = "(" ++ j1 ++ ", " ++ j2 ++ ")"
  end.
(** If every configuration without a term names at least two J values, its
    term is the pair of the first two; other rows keep their term. *)
Theorem C94_partial : forall rows ts, Forall2 row_term rows ts -> second_terms rows = ts.
Proof.
  intros rows ts F. unfold second_terms.
  assert (J : forall r t, row_term r t -> match r with (Some c, None) => jj_term c = Some t | (_, Some t') => t' = t | (None, None) => t = "" end).
  { intros [[c|] [t'|]] t H; cbn [row_term] in H; auto. destruct H as [p [j1 [q1 [j2 [q2 [l [-> [A ->]]]]]]]]. unfold jj_term. rewrite (jj_angles p ((j1, q1) :: (j2, q2) :: l) A). reflexivity. }
  assert (O : forallb (fun r => match r with (Some c, None) => match jj_term c with Some _ => true | None => false end | _ => true end) rows = true).
  { apply forallb_forall. induction F as [|r t rows ts H F IH]; [contradiction|]. intros x [<-|Hx]; [|now apply IH]. apply J in H. destruct r as [[c|] [t'|]]; auto. now rewrite H. }
  rewrite O. clear O. induction F as [|r t rows ts H F IH]; [reflexivity|]. cbn [map]. f_equal; [|exact IH]. apply J in H. destruct r as [[c|] [t'|]]; auto. now rewrite H.
Qed.
Print Assumptions C94_partial.
Example C94_case : Forall2 row_term [(Some "(2F*<5/2>)(3F*<2>)", None); (Some "5d.6s", Some "3D"); (None, None)] ["(5/2, 2)"; "3D"; ""] /\
  second_terms [(Some "(2F*<5/2>)(3F*<2>)", None); (Some "5d.6s", Some "3D"); (None, None)] = ["(5/2, 2)"; "3D"; ""].
Proof.
  assert (F : Forall2 row_term [(Some "(2F*<5/2>)(3F*<2>)", None); (Some "5d.6s", Some "3D"); (None, None)] ["(5/2, 2)"; "3D"; ""]); [|split; [exact F|now apply C94_partial]].
  repeat constructor. exists "(2F*", "5/2", ")(3F*", "2", ")", (@nil (string * string)). repeat split.
Qed.
(** Whatever the other rows are, a row that has a term keeps it, and a row
    with neither a configuration nor a term has none. *)
Theorem C94_kept : forall rows, List.length (second_terms rows) = List.length rows /\
  (forall n c t, nth_error rows n = Some (c, Some t) -> nth_error (second_terms rows) n = Some t) /\
  (forall n, nth_error rows n = Some (None, None) -> nth_error (second_terms rows) n = Some "").
Proof.
  intros rows. unfold second_terms. split; [apply map_length|]. split.
  - intros n c t H. erewrite map_nth_error by exact H. now destruct c.
  - intros n H. erewrite map_nth_error by exact H. reflexivity.
Qed.
Print Assumptions C94_kept.
Example C94_kept_case : nth_error [(Some "2p6.20p", None); (Some "5d.6s", Some "3D")] 1 = Some (Some "5d.6s", Some "3D") /\
  second_terms [(Some "2p6.20p", None); (Some "5d.6s", Some "3D"); (None, None)] = [""; "3D"; ""].
Proof. split; reflexivity. Qed.
(** One configuration with fewer J values leaves all the other terms empty. *)
Theorem C94_refuted : forall rows c, In (Some c, None) rows -> (List.length (jj_values c) < 2)%nat ->
  forall c' t, In ((c', None), t) (combine rows (second_terms rows)) -> t = "".
Proof.
  intros rows c H L c' t Ht. unfold second_terms in Ht.
  assert (O : forallb (fun r : option string * option string => match r with (Some c0, None) => match jj_term c0 with Some _ => true | None => false end | _ => true end) rows = false).
  { apply not_true_is_false. intros O. rewrite forallb_forall in O. specialize (O _ H). cbv beta iota in O. unfold jj_term in O. destruct (jj_values c) as [|a [|b r]]; cbn in L; [discriminate|discriminate|lia]. }
  rewrite O in Ht. clear O H. induction rows as [|r rows IH]; [contradiction|]. cbn [map combine] in Ht. destruct Ht as [Ht|Ht]; [|now apply IH].
  injection Ht as Hr <-. destruct r as [[c1|] [t1|]]; auto; discriminate.
Qed.
Print Assumptions C94_refuted.
Example C94_refuted_case : (List.length (jj_values "2p6.20p") < 2)%nat /\
  second_terms [(Some "(2F*<5/2>)(3F*<2>)", None); (Some "2p6.20p", None)] = [""; ""].
Proof. split; [vm_compute; lia|vm_compute; reflexivity]. Qed.

(** ** C95: terms given only among the percentages *)

Definition re_rest : re :=
  rcat [RStar false blank; RPlus false is_digit; RPlus false blank; RPlus true not_newline;
        ROpt (RCat (RPlus false blank) (RPlus true not_newline)); RStar false blank].
Lemma rest_ok : forall b Q b2 conf o c, all_chars blank b = true -> digits Q -> blanks b2 -> word conf -> tail_ok o ->
  rmatch re_rest (b ++ Q ++ b2 ++ conf ++ tail_of o) c at_end = Some c.
Proof.
  intros b Q b2 conf o c B [NQ DQ] [N2 B2] Wc To. unfold re_rest, rcat. cbn [rmatch].
  apply gstar_run; [exact B|destruct Q as [|q Q]; [congruence|]; cbn [all_chars append] in *; apply andb_true_iff in DQ as [DQ _]; now apply digit_all|].
  apply plus_greedy_run; [exact NQ|exact DQ|destruct b2 as [|q b2]; [congruence|]; cbn [all_chars append] in *; apply andb_true_iff in B2 as [B2 _]; now apply blank_nd|].
  apply plus_greedy_run; [exact N2|exact B2|destruct Wc as [Nc Wc]; destruct conf as [|q conf]; [congruence|]; cbn [all_chars append] in *; apply andb_true_iff in Wc as [Wc _]; now apply wordc_all|].
  pose proof Wc as [Nc Ac]. apply plus_lazy_first.
  - exact Nc.
  - apply (all_imp wordc); [intros; now apply wordc_all|exact Ac].
  - intros d1 d2 -> Nd. apply word_suffix in Ac; [|exact Nd]. rewrite plus_word by exact Ac. unfold star. rewrite star_word by exact Ac.
    destruct d2 as [|u d2]; [congruence|]. destruct (d2 ++ tail_of o) as [|v r] eqn:Er.
    + destruct d2; [|discriminate]. cbn [append] in *. rewrite Er. now apply end_word.
    + cbn [append]. rewrite Er. reflexivity.
  - unfold star. destruct o as [[b3 t]|]; cbn [tail_of].
    + destruct To as [[N3 B3] Wt].
      assert (E : plus false blank (fun s' => plus true not_newline (fun s'0 => gstar blank (fun s'1 => at_end s'1 c) s'0) s') (b3 ++ t) = Some c); [|rewrite E; reflexivity].
      apply plus_greedy_run; [exact N3|exact B3| |].
      * destruct Wt as [Nt At]. destruct t as [|q t]; [congruence|]. cbn [all_chars] in At. apply andb_true_iff in At as [At _]. now apply wordc_all.
      * apply last_word; [exact Wt|reflexivity|].
        intros s Ws. match goal with |- gstar blank ?k s = _ => pose proof (star_word k s "" Ws) as S1; rewrite append_nil_r in S1; rewrite S1 end. now apply end_word.
    + reflexivity.
Qed.

Section Colon2.
  Context {X : Type} (K : string -> option X).
  Definition colon2 (s : string) : option X := match s with String a s' => if is_char " " a then colon K s' else None | EmptyString => None end.
  Lemma colon2_none : forall s, has_char ":" s = false -> colon2 s = None.
  Proof. intros [|a s] H; [reflexivity|]. cbn [has_char colon2] in *. apply orb_false_iff in H as [_ H]. rewrite colon_none by exact H. now destruct (is_char " " a). Qed.
  Lemma dots2_none : forall s, has_char ":" s = false -> gstar not_newline colon2 s = None.
  Proof. intros s H. apply gstar_fail. intros d r -> _. apply colon2_none. now apply suffix_free in H. Qed.
  Lemma dots2_bare : forall rest, has_char ":" rest = false -> gstar not_newline colon2 (String ":" rest) = None.
  Proof. intros rest H. cbn [gstar]. change (not_newline ":") with true. cbv iota. rewrite dots2_none by exact H. reflexivity. Qed.
  Lemma blanks_colon : forall b rest x, blanks b -> has_char ":" rest = false -> K rest = Some x -> gstar blank (gstar not_newline colon2) (b ++ String ":" rest) = Some x.
  Proof.
    intros b rest x [Nb Ab] H E. revert Nb Ab. induction b as [|b1 b IH]; intros Nb Ab; [congruence|]. cbn [all_chars append] in *. apply andb_true_iff in Ab as [B1 Ab].
    destruct b as [|b2 b].
    - apply Ascii.eqb_eq in B1. subst b1. cbn [append]. 
      assert (E1 : gstar not_newline colon2 (String " " (String ":" rest)) = Some x).
      { change (gstar not_newline colon2 (String " " (String ":" rest))) with (match gstar not_newline colon2 (String ":" rest) with Some y => Some y | None => K rest end). now rewrite dots2_bare. }
      change (gstar blank (gstar not_newline colon2) (String " " (String ":" rest))) with
        (match gstar not_newline colon2 (String ":" rest) with Some y => Some y | None => gstar not_newline colon2 (String " " (String ":" rest)) end).
      now rewrite dots2_bare.
    - cbn [gstar]. rewrite B1. cbn [append] in IH. cbn [append]. now rewrite IH.
  Qed.
End Colon2.

(** A row whose own term is empty or a star gets the word after its first
    percentage. *)
Theorem C95_partial : forall P b1 T b2 b Q b3 conf o, digits P -> blanks b1 -> word T -> blanks b2 -> all_chars blank b = true -> digits Q -> blanks b3 -> word conf -> tail_ok o ->
  forall term, term = "" \/ term = "*" -> first_term term (P ++ b1 ++ T ++ b2 ++ ":" ++ b ++ Q ++ b3 ++ conf ++ tail_of o) = T.
Proof.
  intros P b1 T b2 b Q b3 conf o [NP DP] [N1 B1] [NT WT] B2 B HQ HB Wc To term Ht. unfold first_term.
  assert (E0 : String.eqb term "" || String.eqb term "*" = true) by (destruct Ht as [->| ->]; reflexivity). rewrite E0. clear E0 Ht.
  pose proof (rest_ok b Q b3 conf o (dset 1%nat T []) B HQ HB Wc To) as S2. set (rest := b ++ Q ++ b3 ++ conf ++ tail_of o) in *.
  assert (Hr : has_char ":" rest = false).
  { unfold rest. rewrite !has_char_app. destruct HQ as [_ DQ], HB as [_ HB], Wc as [_ Wc].
    rewrite (no_colon blank b), (no_colon is_digit Q), (no_colon blank b3), (no_colon wordc conf); auto; try (intros; now apply digit_all); try (intros; now apply wordc_all); try apply blank_nc.
    destruct o as [[b4 t]|]; [|reflexivity]. destruct To as [[_ B4] [_ Wt]]. cbn [tail_of]. rewrite has_char_app, (no_colon blank b4), (no_colon wordc t); auto; [intros; now apply wordc_all|apply blank_nc]. }
  assert (R : rmatch re_first (P ++ b1 ++ T ++ b2 ++ ":" ++ rest) [] at_end = Some (dset 1%nat T [])).
  { unfold re_first. cbn [rcat]. cbn [rmatch]. unfold rchr. cbn [rmatch].
    apply (gstar_run blank _ "" (P ++ b1 ++ T ++ b2 ++ ":" ++ rest)); [reflexivity| |].
    { destruct P as [|q P]; [congruence|]. cbn [append all_chars] in *. apply andb_true_iff in DP as [DP _]. now apply digit_all. }
    apply plus_greedy_run; [exact NP|exact DP| |].
    { destruct b1 as [|q b1]; [congruence|]. cbn [append all_chars] in *. apply andb_true_iff in B1 as [B1 _]. now apply blank_nd. }
    apply plus_greedy_run; [exact N1|exact B1| |].
    { destruct T as [|q T]; [congruence|]. cbn [append all_chars] in *. apply andb_true_iff in WT as [WT _]. now apply wordc_all. }
    apply plus_greedy_run; [exact NT| | |].
    { apply (all_imp wordc); [|exact WT]. intros a Ha. unfold not_blank. apply wordc_all in Ha as [-> _]. reflexivity. }
    { destruct B2 as [N2 B2]. destruct b2 as [|q b2]; [congruence|]. cbn [append all_chars] in *. apply andb_true_iff in B2 as [B2 _]. unfold not_blank. now rewrite B2. }
    rewrite consumed_app.
    apply (blanks_colon (fun s' => rmatch re_rest s' (dset 1%nat T []) at_end) b2 rest); auto. }
  assert (S : search re_first (P ++ b1 ++ T ++ b2 ++ ":" ++ rest) = Some (dset 1%nat T [])).
  { revert R. generalize (P ++ b1 ++ T ++ b2 ++ ":" ++ rest). intros s R. destruct s; cbn [search]; now rewrite R. }
  rewrite S. reflexivity.
Qed.
Print Assumptions C95_partial.
(** A term that is there is kept. *)
Theorem C95_kept : forall term cell, term <> "" -> term <> "*" -> first_term term cell = term.
Proof. intros term c N1 N2. unfold first_term. apply String.eqb_neq in N1, N2. now rewrite N1, N2. Qed.
Print Assumptions C95_kept.
Example C95_case : first_term "" "36  (7/2,1)       :    25  (2F*<7/2>).5d.6p.(1P*<1>)" = "(7/2,1)".
Proof.
  apply (C95_partial "36" "  " "(7/2,1)" "       " "    " "25" "  " "(2F*<7/2>).5d.6p.(1P*<1>)" None); try (split; [discriminate|reflexivity]); [reflexivity|exact I|auto].
Qed.
(** With one component, or with the colon next to the term, the term is lost. *)
Theorem C95_refuted : first_term "" "36  (7/2,1)" = "" /\ first_term "*" "36  (7/2,1): 25  5d.6p" = "".
Proof. split; vm_compute; reflexivity. Qed.
Print Assumptions C95_refuted.

(** ** C116: the letters that number terms *)

(** No lower-case letter stands before a blank. *)
Definition unlabelled (t : string) : Prop := forall p c r, t = p ++ String c (String " " r) -> is_lower c = false.
(** A label in front of a term is removed, and so are further ones; a term
    without labels is unchanged. *)
Theorem C116_labels : forall t, unlabelled t ->
  drop_labels t = t /\ (forall c, is_lower c = true -> drop_labels (String c (String " " t)) = t) /\
  forall ls, Forall (fun c => is_lower c = true) ls -> drop_labels (fold_right (fun c s => String c (String " " s)) t ls) = t.
Proof.
  intros t U. assert (E : drop_labels t = t).
  { induction t as [|a [|b t] IH]; try reflexivity. change (drop_labels (String a (String b t))) with
      (if is_lower a && Ascii.eqb b " " then drop_labels t else String a (drop_labels (String b t))).
    rewrite IH.
    - destruct (Ascii.eqb_spec b " ") as [->|N]; [|now rewrite andb_false_r]. now rewrite (U "" a t eq_refl).
    - intros p c r Q. apply (U (String a p) c r). cbn [append]. now rewrite Q. }
  split; [exact E|]. assert (S : forall c s, is_lower c = true -> drop_labels (String c (String " " s)) = drop_labels s).
  { intros c s L. cbn [drop_labels]. now rewrite L. }
  split; [intros c L; now rewrite S|]. intros ls F. induction F as [|c ls L F IH]; [exact E|]. cbn [fold_right]. now rewrite S.
Qed.
Print Assumptions C116_labels.
Example C116_case : unlabelled "3F*" /\ drop_labels "a 3F*" = "3F*" /\ drop_labels "(7/2, 1)*" = "(7/2, 1)*".
Proof.
  split; [|split; reflexivity]. intros p c r E. destruct p as [|a [|b [|d p]]]; cbn in E; injection E; try discriminate.
  intros K. exfalso. apply (f_equal String.length) in K. rewrite length_append in K. cbn in K. lia.
Qed.
