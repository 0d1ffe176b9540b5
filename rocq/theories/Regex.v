(** A backtracking matcher for the fragment of Python's [re] used by
    Atom-Toolkit: character classes, concatenation, alternation, greedy
    optional parts, greedy and lazy repetition of a character class, and
    numbered groups.  [findall] follows [re.findall]. *)
From Coq Require Import List Bool Arith Lia String Ascii.
From Verif Require Import Base PyStr.
Import ListNotations.
Local Open Scope string_scope.

Inductive re : Type :=
| RChr (f : ascii -> bool)                 (* one character of a class *)
| RCat (a b : re)
| RAlt (a b : re)
| ROpt (a : re)                            (* (...)? greedy *)
| RPlus (lazy : bool) (f : ascii -> bool)  (* f+ or f+? *)
| RStar (lazy : bool) (f : ascii -> bool)
| RGrp (n : nat) (a : re).                 (* numbered group *)

Definition caps := dict nat string.

(** The part of [s] consumed when [s'] remains. *)
Fixpoint stake (n : nat) (s : string) : string :=
  match n, s with
  | S n', String a s' => String a (stake n' s')
  | _, _ => EmptyString
  end.
Definition consumed (s s' : string) : string := stake (String.length s - String.length s') s.

Section Match.
  Context {X : Type}.

  (** f* greedy / lazy, with the continuation to be tried after it. *)
  Fixpoint gstar (f : ascii -> bool) (k : string -> option X) (s : string) : option X :=
    match s with
    | String a s' =>
        if f a then match gstar f k s' with Some x => Some x | None => k s end else k s
    | EmptyString => k s
    end.

  Fixpoint lstar (f : ascii -> bool) (k : string -> option X) (s : string) : option X :=
    match k s with
    | Some x => Some x
    | None => match s with
              | String a s' => if f a then lstar f k s' else None
              | EmptyString => None
              end
    end.

  Definition star (lazy : bool) := if lazy then lstar else gstar.

  Definition plus (lazy : bool) (f : ascii -> bool) (k : string -> option X) (s : string) : option X :=
    match s with
    | String a s' => if f a then star lazy f k s' else None
    | EmptyString => None
    end.

  Fixpoint rmatch (r : re) (s : string) (c : caps) (k : string -> caps -> option X) : option X :=
    match r with
    | RChr f => match s with
                | String a s' => if f a then k s' c else None
                | EmptyString => None
                end
    | RCat a b => rmatch a s c (fun s' c' => rmatch b s' c' k)
    | RAlt a b => match rmatch a s c k with Some x => Some x | None => rmatch b s c k end
    | ROpt a => match rmatch a s c k with Some x => Some x | None => k s c end
    | RPlus z f => plus z f (fun s' => k s' c) s
    | RStar z f => star z f (fun s' => k s' c) s
    | RGrp n a => rmatch a s c (fun s' c' => k s' (dset n (consumed s s') c'))
    end.
End Match.

(** A match at the very start of [s]: the groups and what remains. *)
Definition match_at (r : re) (s : string) : option (caps * string) :=
  rmatch r s [] (fun s' c => Some (c, s')).

(** [re.findall]: all matches from left to right, non overlapping.  All the
    patterns used consume at least one character; the fuel is the length. *)
Fixpoint findall_n (fuel : nat) (r : re) (s : string) : list caps :=
  match fuel with
  | O => []
  | S n =>
      match match_at r s with
      | Some (c, s') => c :: findall_n n r s'
      | None => match s with
                | EmptyString => []
                | String _ s' => findall_n n r s'
                end
      end
  end.
Definition findall (r : re) (s : string) : list caps := findall_n (S (String.length s)) r s.

(** Group text; a group that took no part in the match is the empty string. *)
Definition grp (n : nat) (c : caps) : string :=
  match dget n c with Some s => s | None => EmptyString end.

(** ** Classes *)
Definition is_char (c a : ascii) : bool := Ascii.eqb a c.
Definition is_alpha (a : ascii) : bool := is_upper a || is_lower a.
Definition not_newline (a : ascii) : bool := negb (Nat.eqb (code a) 10).

Definition rchr (c : ascii) : re := RChr (is_char c).
Fixpoint rcat (l : list re) : re :=
  match l with
  | [] => RStar false (fun _ => false)
  | [r] => r
  | r :: l' => RCat r (rcat l')
  end.

(** ** Lemmas *)

Lemma stake_app : forall a b, stake (String.length a) (a ++ b) = a.
Proof. induction a; simpl; intros; [now destruct b | now rewrite IHa]. Qed.

Lemma consumed_app : forall a b, consumed (a ++ b) b = a.
Proof.
  intros. unfold consumed. rewrite length_append.
  replace (_ + _ - _)%nat with (String.length a) by lia. apply stake_app.
Qed.

Lemma consumed_cons : forall x b, consumed (String x b) b = String x "".
Proof. intros. change (String x b) with (String x "" ++ b). apply consumed_app. Qed.

(** Greedy repetition takes a whole run if the continuation then succeeds. *)
Lemma gstar_run {X} : forall f (k : string -> option X) d r x,
  all_chars f d = true ->
  match r with String a _ => f a = false | EmptyString => True end ->
  k r = Some x -> gstar f k (d ++ r) = Some x.
Proof.
  induction d; simpl; intros r x A H K.
  - destruct r; simpl; auto. now rewrite H.
  - apply andb_true_iff in A as [-> A]. now rewrite (IHd r x).
Qed.

Lemma plus_greedy_run {X} : forall f (k : string -> option X) d r x,
  d <> "" -> all_chars f d = true ->
  match r with String a _ => f a = false | EmptyString => True end ->
  k r = Some x -> plus false f k (d ++ r) = Some x.
Proof.
  intros f k [|a d] r x N A H K; [congruence|]. simpl in *.
  apply andb_true_iff in A as [-> A]. now apply gstar_run.
Qed.

(** Repetition fails if the continuation fails everywhere it can be tried. *)
Lemma gstar_fail {X} : forall f (k : string -> option X) s,
  (forall d r, s = d ++ r -> all_chars f d = true -> k r = None) -> gstar f k s = None.
Proof.
  induction s; simpl; intros H.
  - apply (H "" ""); auto.
  - destruct (f a) eqn:E.
    + rewrite IHs.
      * apply (H "" (String a s)); auto.
      * intros d r -> A. apply (H (String a d) r); auto. simpl. now rewrite E.
    + apply (H "" (String a s)); auto.
Qed.

Lemma lstar_fail {X} : forall f (k : string -> option X) s,
  (forall d r, s = d ++ r -> all_chars f d = true -> k r = None) -> lstar f k s = None.
Proof.
  induction s; intros H; simpl.
  - now rewrite (H "" "").
  - rewrite (H "" (String a s)) by auto.
    destruct (f a) eqn:E; auto.
    apply IHs. intros d r -> A. apply (H (String a d) r); auto. simpl. now rewrite E.
Qed.

Lemma plus_fail {X} : forall z f (k : string -> option X) s,
  (forall d r, s = d ++ r -> d <> "" -> all_chars f d = true -> k r = None) -> plus z f k s = None.
Proof.
  intros z f k [|a s] H; auto. simpl. destruct (f a) eqn:E; auto.
  destruct z; [apply lstar_fail | apply gstar_fail];
    intros d r -> A; apply (H (String a d) r); auto; try discriminate; simpl; now rewrite E.
Qed.

(** Lazy repetition stops at the first position where the continuation
    succeeds. *)
Lemma lstar_first {X} : forall f (k : string -> option X) d r x,
  all_chars f d = true ->
  (forall d1 d2, d = d1 ++ d2 -> d2 <> "" -> k (d2 ++ r) = None) ->
  k r = Some x -> lstar f k (d ++ r) = Some x.
Proof.
  induction d; intros r x A H K.
  - simpl. destruct r; simpl; now rewrite K.
  - simpl in A. apply andb_true_iff in A as [Fa A].
    cbn [append lstar].
    assert (E : k (String a (d ++ r)) = None) by (apply (H "" (String a d)); auto; discriminate).
    rewrite E, Fa. apply IHd; auto.
    intros d1 d2 -> N. apply (H (String a d1) d2); auto.
Qed.

(** [plus] lazily followed by a fixed closing character that does not occur
    in the run. *)
Lemma plus_lazy_until {X} : forall f (c : ascii) (k : string -> option X) d r x,
  d <> "" -> all_chars f d = true -> has_char c d = false ->
  k r = Some x ->
  plus true f (fun s => match s with
                        | String a s' => if is_char c a then k s' else None
                        | EmptyString => None end) (d ++ String c r) = Some x.
Proof.
  intros f c k [|a d] r x N A H K; [congruence|]. simpl in A, H.
  apply andb_true_iff in A as [Fa A]. apply orb_false_iff in H as [_ H].
  cbn [append plus star]. rewrite Fa.
  apply lstar_first; auto.
  - intros d1 d2 -> Nd. destruct d2 as [|b d2]; [congruence|]. simpl.
    rewrite has_char_app in H. apply orb_false_iff in H as [_ H]. simpl in H.
    apply orb_false_iff in H as [H _]. unfold is_char. now rewrite H.
  - unfold is_char. now rewrite Ascii.eqb_refl.
Qed.

(** Stepping through a string where the pattern does not match. *)
Lemma findall_n_skip : forall r p s n,
  (forall p1 p2, p = p1 ++ p2 -> p2 <> "" -> match_at r (p2 ++ s) = None) ->
  findall_n (String.length p + n) r (p ++ s) = findall_n n r s.
Proof.
  induction p; intros s n H; [reflexivity|].
  assert (E : match_at r (String a (p ++ s)) = None) by (apply (H "" (String a p)); auto; discriminate).
  cbn [String.length Nat.add findall_n append]. rewrite E.
  apply IHp. intros p1 p2 -> N. apply (H (String a p1) p2); auto.
Qed.

Lemma findall_n_hit : forall r s n c s',
  match_at r s = Some (c, s') -> findall_n (S n) r s = c :: findall_n n r s'.
Proof. intros. cbn [findall_n]. now rewrite H. Qed.

Lemma findall_n_none : forall r s n,
  (forall p1 p2, s = p1 ++ p2 -> match_at r p2 = None) -> findall_n n r s = [].
Proof.
  intros r s n. revert s. induction n; intros; cbn [findall_n]; auto.
  rewrite (H "" s) by auto. destruct s; auto.
  apply IHn. intros p1 p2 ->. apply (H (String a p1)); auto.
Qed.

(** More fuel does not change the result once the string is exhausted; used
    to normalise the fuel of [findall]. *)
Lemma findall_n_fuel : forall r, (forall s c s', match_at r s = Some (c, s') -> (String.length s' < String.length s)%nat) ->
  forall n m s, (String.length s < n)%nat -> (String.length s < m)%nat ->
  findall_n n r s = findall_n m r s.
Proof.
  intros r Hr. induction n; intros m s Hn Hm; [lia|]. destruct m; [lia|]. simpl.
  destruct (match_at r s) as [[c s']|] eqn:E.
  - f_equal. pose proof (Hr _ _ _ E). apply IHn; lia.
  - destruct s; auto. simpl in *. apply IHn; lia.
Qed.
