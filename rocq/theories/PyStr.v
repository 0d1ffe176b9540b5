(** Python string operations used by Atom-Toolkit, on Coq strings.
    Characters are 8-bit; the only non-ASCII character the code prints is the
    arrow in transition names, which no lookup uses. *)
From Coq Require Import List Bool ZArith QArith Lia String Ascii.
From Coq Require Import Decimal DecimalString DecimalZ DecimalN.
Import ListNotations.
Local Open Scope string_scope.

(** ** Basic tests *)

(** [c in s] for a single character. *)
Fixpoint has_char (c : ascii) (s : string) : bool :=
  match s with
  | EmptyString => false
  | String a s' => Ascii.eqb a c || has_char c s'
  end.

(** [p in s] for strings. *)
Fixpoint contains (p s : string) : bool :=
  prefix p s ||
  match s with
  | EmptyString => false
  | String _ s' => contains p s'
  end.

(** [s.split(c)[0]] and the rest after the first separator. *)
Fixpoint cut_first (c : ascii) (s : string) : string * option string :=
  match s with
  | EmptyString => (EmptyString, None)
  | String a s' =>
      if Ascii.eqb a c then (EmptyString, Some s')
      else let '(l, r) := cut_first c s' in (String a l, r)
  end.

(** [s.split(c)]: all the fields. *)
Fixpoint split_all (c : ascii) (s : string) : list string :=
  match s with
  | EmptyString => [EmptyString]
  | String a s' =>
      if Ascii.eqb a c then EmptyString :: split_all c s'
      else match split_all c s' with
           | f :: fs => String a f :: fs
           | [] => [String a EmptyString]
           end
  end.

(** [s.rsplit(sep, maxsplit=1)]: [None] if the separator does not occur, i.e.
    if the result has a single field. *)
Fixpoint rsplit1 (sep s : string) : option (string * string) :=
  match s with
  | EmptyString => None
  | String a s' =>
      match rsplit1 sep s' with
      | Some (l, r) => Some (String a l, r)
      | None =>
          if prefix sep s
          then Some (EmptyString, substring (String.length sep) (String.length s - String.length sep) s)
          else None
      end
  end.

(** [s.rsplit(c, maxsplit=1)] for a single-character separator. *)
Fixpoint rsplit_char (c : ascii) (s : string) : option (string * string) :=
  match s with
  | EmptyString => None
  | String a s' =>
      match rsplit_char c s' with
      | Some (l, r) => Some (String a l, r)
      | None => if Ascii.eqb a c then Some (EmptyString, s') else None
      end
  end.

(** [s.rsplit(c, maxsplit=2)] unpacked into three names. *)
Definition rsplit_char2 (c : ascii) (s : string) : option (string * string * string) :=
  match rsplit_char c s with
  | None => None
  | Some (l, z) =>
      match rsplit_char c l with
      | None => None
      | Some (m, h) => Some (m, h, z)
      end
  end.

(** [s.replace(p, r)] for a two-character pattern [ab] and replacement [cd]
    (the only use in the code is ['mJ' -> 'mF']). *)
Fixpoint replace2 (a b c d : ascii) (s : string) : string :=
  match s with
  | String x ((String y s'') as s') =>
      if Ascii.eqb x a && Ascii.eqb y b
      then String c (String d (replace2 a b c d s''))
      else String x (replace2 a b c d s')
  | _ => s
  end.

(** ** Characters *)

Definition code (a : ascii) : nat := nat_of_ascii a.
Definition is_digit (a : ascii) : bool := (48 <=? code a)%nat && (code a <=? 57)%nat.
Definition is_upper (a : ascii) : bool := (65 <=? code a)%nat && (code a <=? 90)%nat.
Definition is_lower (a : ascii) : bool := (97 <=? code a)%nat && (code a <=? 122)%nat.
Definition to_upper (a : ascii) : ascii :=
  if is_lower a then ascii_of_nat (code a - 32) else a.

Fixpoint all_chars (f : ascii -> bool) (s : string) : bool :=
  match s with
  | EmptyString => true
  | String a s' => f a && all_chars f s'
  end.

(** ** Integers as decimal strings: [str(int)] and back *)

Definition zstr (z : Z) : string := NilZero.string_of_int (Z.to_int z).

Definition uint_val (s : string) : option uint := NilEmpty.uint_of_string s.

(** [float(s)] on the literals [[+-]?digits[.digits]].  Python also accepts
    surrounding blanks, underscores, exponents, 'inf' and 'nan'; such strings
    are outside the model and treated as rejected. *)
Definition pyfloat (s : string) : option Q :=
  let '(neg, body) :=
    match s with
    | String a r =>
        if Ascii.eqb a "-" then (true, r)
        else if Ascii.eqb a "+" then (false, r)
        else (false, s)
    | EmptyString => (false, s)
    end in
  let '(ip, fpo) := cut_first "." body in
  let fp := match fpo with Some f => f | None => EmptyString end in
  match uint_val ip, uint_val fp with
  | Some di, Some df =>
      match di, df with
      | Nil, Nil => None
      | _, _ =>
          let den := Pos.pow 10 (Pos.of_nat (String.length fp)) in
          let den := match fp with EmptyString => 1%positive | _ => den end in
          let num := (Z.of_uint di * Zpos den + Z.of_uint df)%Z in
          Some ((if neg then (- num)%Z else num) # den)
      end
  | _, _ => None
  end.

(** ** Lemmas *)

Lemma append_nil_r : forall s : string, s ++ "" = s.
Proof. induction s; simpl; congruence. Qed.

Lemma append_assoc : forall a b c : string, (a ++ b) ++ c = a ++ (b ++ c).
Proof. induction a; simpl; intros; congruence. Qed.

Lemma length_append : forall a b : string, String.length (a ++ b) = (String.length a + String.length b)%nat.
Proof. induction a; simpl; intros; auto. Qed.

Lemma append_inj_l : forall a b c : string, a ++ b = a ++ c -> b = c.
Proof. induction a; simpl; intros; auto. injection H; auto. Qed.

Lemma append_inj_len : forall a b c d : string,
  String.length a = String.length c -> a ++ b = c ++ d -> a = c /\ b = d.
Proof.
  induction a; destruct c; simpl; intros d L E; try discriminate; auto.
  injection E as -> E. injection L as L. destruct (IHa b c d L E). split; congruence.
Qed.

Lemma append_inj_r : forall a b c : string, a ++ c = b ++ c -> a = b.
Proof.
  intros. assert (L : String.length a = String.length b).
  { apply (f_equal String.length) in H. rewrite !length_append in H. lia. }
  now destruct (append_inj_len _ _ _ _ L H).
Qed.

Lemma has_char_app : forall c a b, has_char c (a ++ b) = has_char c a || has_char c b.
Proof. induction a; simpl; intros; auto. now rewrite IHa, orb_assoc. Qed.

Lemma all_chars_app : forall f a b, all_chars f (a ++ b) = all_chars f a && all_chars f b.
Proof. induction a; simpl; intros; auto. now rewrite IHa, andb_assoc. Qed.

Lemma all_chars_has : forall f c s, all_chars f s = true -> f c = false -> has_char c s = false.
Proof.
  induction s; simpl; intros; auto. apply andb_true_iff in H as [? ?].
  rewrite IHs by auto. destruct (Ascii.eqb_spec a c); [subst; congruence | reflexivity].
Qed.

Lemma all_chars_imp : forall (f g : ascii -> bool) s,
  (forall c, f c = true -> g c = true) -> all_chars f s = true -> all_chars g s = true.
Proof.
  induction s; simpl; intros; auto. apply andb_true_iff in H0 as [? ?].
  rewrite (H a) by auto. auto.
Qed.

Lemma cut_first_none : forall c s, has_char c s = false -> cut_first c s = (s, None).
Proof.
  induction s; simpl; intros; auto. apply orb_false_iff in H as [-> H].
  now rewrite IHs.
Qed.

Lemma cut_first_app : forall c a b, has_char c a = false ->
  cut_first c (a ++ String c b) = (a, Some b).
Proof.
  induction a; simpl; intros.
  - now rewrite Ascii.eqb_refl.
  - apply orb_false_iff in H as [-> H]. now rewrite IHa.
Qed.

Lemma split_all_none : forall c s, has_char c s = false -> split_all c s = [s].
Proof.
  induction s; simpl; intros; auto. apply orb_false_iff in H as [-> H].
  now rewrite IHs.
Qed.

Lemma split_all_app : forall c a b, has_char c a = false ->
  split_all c (a ++ String c b) = a :: split_all c b.
Proof.
  induction a; simpl; intros.
  - now rewrite Ascii.eqb_refl.
  - apply orb_false_iff in H as [-> H]. now rewrite IHa.
Qed.

Lemma split_all_nonnil : forall c s, split_all c s <> [].
Proof.
  destruct s; simpl; [discriminate|].
  destruct (Ascii.eqb a c); [discriminate|]. destruct (split_all c s); discriminate.
Qed.

Lemma rsplit_char_none : forall c s, has_char c s = false <-> rsplit_char c s = None.
Proof.
  induction s; simpl; [tauto|].
  rewrite orb_false_iff, IHs.
  destruct (rsplit_char c s) as [[l r]|].
  - split; [intros [_ ?]|]; discriminate.
  - destruct (Ascii.eqb a c); split; auto; intros [? ?] || intros ?; discriminate.
Qed.

Lemma rsplit_char_app : forall c a b, has_char c b = false ->
  rsplit_char c (a ++ String c b) = Some (a, b).
Proof.
  induction a; simpl; intros.
  - rewrite (proj1 (rsplit_char_none c b)) by auto. now rewrite Ascii.eqb_refl.
  - now rewrite IHa.
Qed.

Lemma rsplit_char_inv : forall c s l r, rsplit_char c s = Some (l, r) ->
  s = l ++ String c r /\ has_char c r = false.
Proof.
  induction s; simpl; intros l r E; [discriminate|].
  destruct (rsplit_char c s) as [[l' r']|] eqn:Er.
  - injection E as <- <-. destruct (IHs _ _ eq_refl) as [-> ?]. split; auto.
  - destruct (Ascii.eqb_spec a c); [|discriminate]. injection E as <- <-. subst.
    split; auto. now apply rsplit_char_none.
Qed.

Lemma prefix_app : forall p s, prefix p (p ++ s) = true.
Proof.
  induction p; simpl; intros; auto.
  - destruct s; reflexivity.
  - destruct (ascii_dec a a); [auto|congruence].
Qed.

Lemma prefix_spec : forall p s, prefix p s = true <-> exists r, s = p ++ r.
Proof.
  induction p; simpl; intros.
  - split; [eexists; eauto | destruct s; auto].
  - destruct s as [|b s].
    + split; [discriminate | intros [r E]; discriminate].
    + cbn [prefix]. destruct (ascii_dec a b).
      * subst. rewrite IHp. split; intros [r E]; exists r; [congruence | now injection E].
      * split; [discriminate | intros [r E]; injection E; congruence].
Qed.

Lemma contains_spec : forall p s, contains p s = true <-> exists a b, s = a ++ p ++ b.
Proof.
  induction s.
  - cbn [contains]. rewrite orb_false_r, prefix_spec. split.
    + intros [r E]. exists "", r. auto.
    + intros [x [y E]]. exists y. destruct x; [auto|discriminate].
  - cbn [contains]. rewrite orb_true_iff, prefix_spec, IHs. split.
    + intros [[r E]|[x [y E]]].
      * exists "", r; auto.
      * exists (String a x), y. simpl. congruence.
    + intros [[|c x] [y E]].
      * left. exists y. auto.
      * right. injection E as -> E. eauto.
Qed.

Lemma contains_app_l : forall p a b, contains p a = true -> contains p (a ++ b) = true.
Proof.
  intros. apply contains_spec in H as [x [y ->]]. apply contains_spec.
  exists x, (y ++ b). now rewrite !append_assoc.
Qed.

Lemma contains_app_r : forall p a b, contains p b = true -> contains p (a ++ b) = true.
Proof.
  intros. apply contains_spec in H as [x [y ->]]. apply contains_spec.
  exists (a ++ x), y. now rewrite !append_assoc.
Qed.

Lemma contains_char : forall c p s, contains p s = true -> has_char c p = true -> has_char c s = true.
Proof.
  intros. apply contains_spec in H as [x [y ->]].
  rewrite !has_char_app, H0. now destruct (has_char c x).
Qed.

Lemma contains_self_mid : forall p a b, contains p (a ++ p ++ b) = true.
Proof. intros. apply contains_spec. eauto. Qed.

Lemma substring_full : forall s, substring 0 (String.length s) s = s.
Proof. induction s; simpl; congruence. Qed.

Lemma substring_skip : forall p s, substring (String.length p) (String.length s) (p ++ s) = s.
Proof. induction p; simpl; auto using substring_full. Qed.

(** The rightmost occurrence of [sep] splits the string. *)
Lemma rsplit1_app : forall sep a b, sep <> "" ->
  (forall x y, b = x ++ y -> x <> "" \/ True) ->
  contains sep (substring 1 (String.length sep + String.length b) (sep ++ b)) = false ->
  rsplit1 sep (a ++ sep ++ b) = Some (a, b).
Proof.
  assert (N : forall sep s, contains sep s = false -> sep <> "" -> rsplit1 sep s = None).
  { induction s; simpl; intros C Hs; auto.
    apply orb_false_iff in C as [C1 C2].
    rewrite IHs by auto. now rewrite C1. }
  intros sep a b Hsep _ Hc. induction a as [|x a IH].
  - change ("" ++ sep ++ b) with (sep ++ b).
    assert (Hlen : substring (String.length sep) (String.length (sep ++ b) - String.length sep) (sep ++ b) = b).
    { rewrite length_append. replace (_ + _ - _)%nat with (String.length b) by lia. apply substring_skip. }
    assert (Hp : prefix sep (sep ++ b) = true) by apply prefix_app.
    destruct sep as [|c sep]; [congruence|].
    cbn [append] in *. cbn [rsplit1].
    replace (substring 1 (String.length (String c sep) + String.length b) (String c (sep ++ b)))
      with (sep ++ b) in Hc.
    2:{ cbn [substring String.length Nat.add].
        replace (S (String.length sep + String.length b)) with (S (String.length (sep ++ b)))
          by (now rewrite length_append).
        generalize (sep ++ b). intros s. clear.
        assert (forall k, substring 0 (k + String.length s) s = s) as E.
        { induction s; intros; simpl. - now destruct (k + 0)%nat. 
          - rewrite Nat.add_succ_r. now rewrite IHs. }
        symmetry. apply (E 1%nat). }
    rewrite N by auto. rewrite Hp. now rewrite Hlen.
  - simpl. now rewrite IH.
Qed.

(** ** Decimal strings *)

Lemma string_of_uint_digits : forall d, all_chars is_digit (NilEmpty.string_of_uint d) = true.
Proof. induction d; simpl; auto. Qed.

Lemma zstr_nonneg : forall z, (0 <= z)%Z ->
  zstr z = NilEmpty.string_of_uint (N.to_uint (Z.to_N z)) /\ N.to_uint (Z.to_N z) <> Nil.
Proof.
  intros z Hz. unfold zstr.
  assert (NN : forall n, N.to_uint n <> Nil).
  { intros n E. destruct n; [discriminate|]. simpl in E.
    apply (f_equal N.of_uint) in E. change (Pos.to_uint p) with (N.to_uint (N.pos p)) in E.
    rewrite DecimalN.Unsigned.of_to in E. discriminate. }
  split; [|apply NN].
  destruct z; simpl.
  - reflexivity.
  - specialize (NN (N.pos p)). simpl in NN. destruct (Pos.to_uint p); try reflexivity. congruence.
  - lia.
Qed.

Lemma zstr_digits : forall z, (0 <= z)%Z -> all_chars is_digit (zstr z) = true.
Proof. intros. destruct (zstr_nonneg z H) as [-> _]. apply string_of_uint_digits. Qed.

Lemma zstr_neg : forall z, (z < 0)%Z -> zstr z = String "-" (zstr (- z)).
Proof.
  intros z Hz. destruct z; try lia. simpl. unfold zstr. simpl. reflexivity.
Qed.

Lemma zstr_nonempty : forall z, zstr z <> "".
Proof.
  intros z. destruct (Z.ltb_spec z 0).
  - rewrite zstr_neg by auto. discriminate.
  - destruct (zstr_nonneg z H) as [-> N]. destruct (N.to_uint _); try discriminate. congruence.
Qed.

Lemma uint_val_zstr : forall z, (0 <= z)%Z ->
  exists d, uint_val (zstr z) = Some d /\ d <> Nil /\ Z.of_uint d = z.
Proof.
  intros z Hz. destruct (zstr_nonneg z Hz) as [-> N].
  exists (N.to_uint (Z.to_N z)). split; [apply NilEmpty.usu|]. split; auto.
  assert (E : forall d, Z.of_uint d = Z.of_N (N.of_uint d)).
  { intros d. unfold Z.of_uint, N.of_uint. reflexivity. }
  rewrite E, DecimalN.Unsigned.of_to. lia.
Qed.

Lemma zstr_no_char : forall c z, is_digit c = false -> c <> "-"%char -> has_char c (zstr z) = false.
Proof.
  intros c z Hc Hm.
  destruct (Z.ltb_spec z 0).
  - rewrite zstr_neg by auto. cbn [has_char].
    rewrite (all_chars_has is_digit c (zstr (- z))) by (auto; apply zstr_digits; lia).
    destruct (Ascii.eqb_spec "-" c); [congruence|auto].
  - eapply all_chars_has; eauto. apply zstr_digits; auto.
Qed.

Lemma zstr_head_digit : forall z c s, (0 <= z)%Z -> zstr z = String c s -> is_digit c = true.
Proof.
  intros. pose proof (zstr_digits z H). rewrite H0 in H1. simpl in H1.
  now apply andb_true_iff in H1.
Qed.

Lemma pyfloat_zstr : forall z, pyfloat (zstr z) = Some (z # 1).
Proof.
  intros z.
  assert (P : forall z, (0 <= z)%Z -> forall neg,
     (let '(ip, fpo) := cut_first "." (zstr z) in
      let fp := match fpo with Some f => f | None => EmptyString end in
      match uint_val ip, uint_val fp with
      | Some di, Some df =>
        match di, df with
        | Nil, Nil => None
        | _, _ =>
          let den := Pos.pow 10 (Pos.of_nat (String.length fp)) in
          let den := match fp with EmptyString => 1%positive | _ => den end in
          let num := (Z.of_uint di * Zpos den + Z.of_uint df)%Z in
          Some ((if (neg:bool) then (- num)%Z else num) # den)
        end
      | _, _ => None
      end) = Some ((if neg then (-z)%Z else z) # 1)).
  { intros w Hw neg.
    rewrite cut_first_none by (apply zstr_no_char; [reflexivity | discriminate]).
    destruct (uint_val_zstr w Hw) as [d [E [N V]]]. rewrite E.
    cbv zeta. change (uint_val "") with (Some Nil). cbv iota.
    assert (R : (Z.of_uint d * 1 + Z.of_uint Nil)%Z = w) by (rewrite V; change (Z.of_uint Nil) with 0%Z; lia).
    destruct d; try congruence; rewrite R; reflexivity. }
  unfold pyfloat.
  destruct (Z.ltb_spec z 0).
  - rewrite zstr_neg by auto. rewrite Ascii.eqb_refl.
    pose proof (P (- z)%Z ltac:(lia) true) as X. cbv iota in X. rewrite Z.opp_involutive in X. exact X.
  - destruct (zstr z) eqn:E; [now apply zstr_nonempty in E|].
    pose proof (zstr_head_digit z a s ltac:(lia) E).
    destruct (Ascii.eqb_spec a "-"); [subst; discriminate|].
    destruct (Ascii.eqb_spec a "+"); [subst; discriminate|].
    rewrite <- E. exact (P z ltac:(lia) false).
Qed.

Lemma zstr_inj : forall a b, zstr a = zstr b -> a = b.
Proof.
  intros. apply (f_equal pyfloat) in H. rewrite !pyfloat_zstr in H. now injection H.
Qed.
