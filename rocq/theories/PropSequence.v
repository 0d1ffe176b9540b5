(** Property C140: a MultiTerm is the sequence of its components. *)
From Coq Require Import List Bool ZArith QArith Qcanon Lia String Ascii Permutation Sorted.
From Verif Require Import Base PyStr Util UtilProofs Regex Parse ParseProofs Term TermProofs Sequence.
Import ListNotations.
Local Open Scope Z_scope.

(** *** Indexing *)

Lemma getitem_nat : forall mt n, mt_getitem mt (Z.of_nat n) =
  match nth_error mt n with Some t => Ok t | None => Raise IndexError end.
Proof.
  intros mt n. unfold mt_getitem. destruct (Z.ltb_spec (Z.of_nat n) 0); [lia|]. cbv zeta.
  destruct (Z.ltb_spec (Z.of_nat n) 0); [lia|]. now rewrite Nat2Z.id.
Qed.
Lemma getitem_neg : forall mt k, (0 < k <= List.length mt)%nat ->
  mt_getitem mt (- Z.of_nat k) = mt_getitem mt (Z.of_nat (List.length mt - k)).
Proof.
  intros mt k H. rewrite getitem_nat. unfold mt_getitem, mt_len. destruct (Z.ltb_spec (- Z.of_nat k) 0); [|lia]. cbv zeta.
  destruct (Z.ltb_spec (- Z.of_nat k + Z.of_nat (List.length mt)) 0); [lia|].
  now replace (Z.to_nat (- Z.of_nat k + Z.of_nat (List.length mt))) with (List.length mt - k)%nat by lia.
Qed.
Lemma getitem_range : forall mt i, (exists t, mt_getitem mt i = Ok t /\ In t mt) \/
  (mt_getitem mt i = Raise IndexError /\ (i < - mt_len mt \/ mt_len mt <= i)).
Proof.
  intros mt i. unfold mt_getitem. set (j := if i <? 0 then i + mt_len mt else i). unfold mt_len in *. cbv zeta.
  destruct (Z.ltb_spec j 0) as [L|L].
  - right. split; auto. unfold j in L. destruct (Z.ltb_spec i 0); lia.
  - destruct (nth_error mt (Z.to_nat j)) as [t|] eqn:E.
    + left. exists t. split; auto. eapply nth_error_In; eauto.
    + right. split; auto. apply nth_error_None in E. unfold j in *. destruct (Z.ltb_spec i 0); lia.
Qed.
Lemma getitem_ok : forall mt i, - mt_len mt <= i < mt_len mt -> exists t, mt_getitem mt i = Ok t /\ In t mt.
Proof. intros mt i H. destruct (getitem_range mt i) as [X|[_ X]]; auto; lia. Qed.
Lemma getitem_err : forall mt i, i < - mt_len mt \/ mt_len mt <= i -> mt_getitem mt i = Raise IndexError.
Proof.
  intros mt i H. unfold mt_getitem. cbv zeta. unfold mt_len in *. destruct (Z.ltb_spec i 0).
  - destruct (Z.ltb_spec (i + Z.of_nat (List.length mt)) 0); [auto|lia].
  - destruct (Z.ltb_spec i 0); [lia|]. destruct (nth_error mt (Z.to_nat i)) eqn:E; auto.
    assert (nth_error mt (Z.to_nat i) <> None) as X by congruence. apply nth_error_Some in X. lia.
Qed.

(** *** Iteration *)

Lemma iter_from : forall mt n k, (k <= List.length mt)%nat -> (List.length mt - k < n)%nat ->
  mt_iter_from n mt (Z.of_nat k) = Ok (skipn k mt).
Proof.
  intros mt n. induction n as [|n IH]; intros k K L; [lia|]. cbn [mt_iter_from]. rewrite getitem_nat.
  destruct (nth_error mt k) as [t|] eqn:E.
  - assert (k < List.length mt)%nat by (apply nth_error_Some; congruence).
    replace (Z.of_nat k + 1) with (Z.of_nat (S k)) by lia. rewrite IH by lia. cbn [rbind]. f_equal.
    clear - E. revert k E. induction mt as [|x mt IH]; intros [|k] E; try discriminate E; cbn in *; [now injection E as ->|auto].
  - apply nth_error_None in E. now rewrite skipn_all2.
Qed.
Lemma mt_iter_ok : forall mt, mt_iter mt = Ok mt.
Proof. intros mt. unfold mt_iter. change 0 with (Z.of_nat 0). now rewrite iter_from by lia. Qed.

Lemma reversed_from : forall mt n, (n <= List.length mt)%nat -> mt_reversed_from n mt = Ok (rev (firstn n mt)).
Proof.
  intros mt n. induction n as [|n IH]; intros L; [reflexivity|]. cbn [mt_reversed_from]. rewrite getitem_nat, IH by lia.
  destruct (nth_error mt n) as [t|] eqn:E; [|apply nth_error_None in E; lia]. cbn [rbind]. f_equal.
  assert (X : firstn (S n) mt = (firstn n mt ++ [t])%list).
  { clear - E. revert n E. induction mt as [|x mt IH]; intros [|n] E; try discriminate E; cbn in *; [now injection E as ->|].
    now rewrite (IH n). }
  now rewrite X, rev_app_distr.
Qed.
Lemma mt_reversed_ok : forall mt, mt_reversed mt = Ok (rev mt).
Proof. intros mt. unfold mt_reversed, mt_len. rewrite Nat2Z.id, reversed_from, firstn_all; auto. Qed.

(** C140: [len(mt)] is the number of terms given; [mt[i]] is a component for
    every index from -len to len-1 and an IndexError for every other; a
    negative index counts from the end. *)
Theorem C140_items : forall ts, let mt := multiterm ts in let n := Z.of_nat (List.length ts) in
  mt_len mt = n /\
  (forall i, 0 <= i < n -> exists t, In t ts /\ mt_getitem mt i = Ok t /\ mt_getitem mt (i - n) = Ok t) /\
  (forall i, mt_getitem mt i = Raise IndexError <-> i < - n \/ n <= i) /\
  (forall i j t u, 0 <= i <= j -> mt_getitem mt i = Ok t -> mt_getitem mt j = Ok u -> (t_pct u <= t_pct t)%Qc).
Proof.
  intros ts mt n. assert (L : List.length mt = List.length ts) by (symmetry; apply Permutation_length, multiterm_perm).
  assert (N : mt_len mt = n) by (unfold mt_len, n; now rewrite L). split; auto. split; [|split].
  - intros i H. destruct (getitem_ok mt i) as [t [E I]]; [lia|]. exists t. split; [|split; auto].
    + eapply Permutation_in; [apply Permutation_sym, multiterm_perm|exact I].
    + replace (i - n) with (- Z.of_nat (List.length mt - Z.to_nat i)) by (unfold n in *; lia).
      rewrite getitem_neg by (unfold n in *; lia). rewrite <- E. f_equal. unfold n in *. lia.
  - intros i. split.
    + intros E. destruct (getitem_range mt i) as [[t [X _]]|[_ X]]; [congruence|lia].
    + intros H. apply getitem_err. lia.
  - intros i j t u H E1 E2. replace i with (Z.of_nat (Z.to_nat i)) in E1 by lia. replace j with (Z.of_nat (Z.to_nat j)) in E2 by lia.
    rewrite getitem_nat in E1, E2. destruct (nth_error mt (Z.to_nat i)) as [t'|] eqn:T; [|discriminate E1].
    destruct (nth_error mt (Z.to_nat j)) as [u'|] eqn:U; [|discriminate E2]. injection E1 as <-. injection E2 as <-.
    pose proof (multiterm_sorted ts) as S. fold mt in S. assert (K : (Z.to_nat i <= Z.to_nat j)%nat) by lia.
    clear - S T U K. revert T U K. generalize (Z.to_nat i) (Z.to_nat j). intros a. revert a. induction S as [|x l S IH F]; intros a b T U K.
    + destruct a; discriminate T.
    + destruct a as [|a].
      * injection T as <-. destruct b as [|b]; [injection U as <-; apply Qcle_refl|]. rewrite Forall_forall in F. eapply F, nth_error_In, U.
      * destruct b as [|b]; [lia|]. apply (IH a b); auto; lia.
Qed.
Print Assumptions C140_items.

(** [list(mt)] and [list(reversed(mt))]: every component once, by decreasing
    percentage or in the opposite order, and [list(mt)[i]] is [mt[i]]. *)
Theorem C140_iteration : forall ts, exists l,
  mt_iter (multiterm ts) = Ok l /\ mt_reversed (multiterm ts) = Ok (rev l) /\ Permutation ts l /\
  StronglySorted (fun a b => (t_pct b <= t_pct a)%Qc) l /\
  forall n t, nth_error l n = Some t <-> mt_getitem (multiterm ts) (Z.of_nat n) = Ok t.
Proof.
  intros ts. exists (multiterm ts). rewrite mt_iter_ok, mt_reversed_ok. split; auto. split; auto. split; [apply multiterm_perm|].
  split; [apply multiterm_sorted|]. intros n t. rewrite getitem_nat. destruct (nth_error _ n); split; congruence.
Qed.
Print Assumptions C140_iteration.

Example C140_case :
  let a := mkTerm "6s" "2S" (Q2Qc 30) (Some 1%Z) None None no_qnums in
  let b := mkTerm "5d" "2D" (Q2Qc 60) (Some 1%Z) None None no_qnums in
  let mt := multiterm [a; b; a] in
  mt_getitem mt 0 = Ok b /\ mt_getitem mt (-1) = Ok a /\ mt_getitem mt 3 = Raise IndexError /\ mt_getitem mt (-4) = Raise IndexError /\
  mt_reversed mt = Ok [a; a; b] /\ mt_contains mt (WTerm a) = Ok true /\ mt_index mt (WTerm a) 0 None = Ok 1 /\
  mt_index mt (WTerm a) (-1) None = Ok 2 /\ mt_index mt (WTerm b) 1 None = Raise ValueError /\
  mt_index mt (WTerm a) 0 (Some (-2)) = Raise ValueError /\ mt_count mt (WTerm a) = Ok 2.
Proof. vm_compute. repeat split. Qed.

(** *** Looking for a term *)

(** What is looked for compares with a component without an error: a Term, or
    a MultiTerm with components (through its leading term, C122). *)
Definition comparable (x : wanted_term) : Prop := match x with WTerm _ => True | WMulti b => b <> [] | WOther => False end.
(** The term it stands for. *)
Definition stands (x : wanted_term) (t : term) : Prop := match x with WTerm u => u = t | WMulti (u :: _) => u = t | _ => False end.

Lemma same_stands : forall x, comparable x -> exists t, stands x t /\ forall v, same_term v x = Ok (term_eqb v t).
Proof.
  intros [t|[|u b]|] C; cbn in C; try contradiction.
  - exists t. split; reflexivity.
  - exists u. split; [reflexivity|]. intros v. cbn. unfold term_eqb_mt. cbn [mt_attr rbind]. unfold term_eqb.
    destruct (qnums_eqb _ _); cbn [negb andb]; auto. destruct (String.eqb (t_conf v) _); reflexivity.
Qed.

Lemma contains_ok : forall t x, (forall v, same_term v x = Ok (term_eqb v t)) -> forall l, contains_in l x = Ok (existsb (fun v => term_eqb v t) l).
Proof.
  intros t x H. induction l as [|v l IH]; [reflexivity|]. cbn [contains_in existsb]. rewrite H. cbn [rbind].
  destruct (term_eqb v t); [reflexivity|exact IH].
Qed.
Lemma count_ok : forall t x, (forall v, same_term v x = Ok (term_eqb v t)) ->
  forall l, count_in l x = Ok (Z.of_nat (List.length (filter (fun v => term_eqb v t) l))).
Proof.
  intros t x H. induction l as [|v l IH]; [reflexivity|]. cbn [count_in filter]. rewrite H, IH. cbn [rbind].
  destruct (term_eqb v t); cbn [List.length]; f_equal; lia.
Qed.

(** [x in mt] tells whether some component equals x, and [mt.count(x)] how
    many do; neither raises. *)
Theorem C140_contains : forall ts x t, stands x t ->
  (mt_contains (multiterm ts) x = Ok true <-> exists v, In v ts /\ term_eqb v t = true) /\
  (mt_contains (multiterm ts) x = Ok false <-> forall v, In v ts -> term_eqb v t = false) /\
  mt_count (multiterm ts) x = Ok (Z.of_nat (List.length (filter (fun v => term_eqb v t) ts))).
Proof.
  intros ts x t S. assert (C : comparable x) by (destruct x as [|[|]|]; cbn in *; auto; congruence).
  destruct (same_stands x C) as [t' [S' H]].
  assert (t' = t) as -> by (destruct x as [|[|]|]; cbn in *; try contradiction; congruence).
  unfold mt_contains, mt_count. rewrite mt_iter_ok. cbn [rbind]. rewrite (contains_ok t x H), (count_ok t x H).
  pose proof (multiterm_perm ts) as P.
  assert (E : existsb (fun v => term_eqb v t) (multiterm ts) = existsb (fun v => term_eqb v t) ts).
  { apply eq_true_iff_eq. rewrite !existsb_exists. split; intros [v [I V]]; exists v; split; auto;
      (eapply Permutation_in; [|exact I]); auto using Permutation_sym. }
  rewrite E. clear E. split; [|split].
  - rewrite <- existsb_exists. split; congruence.
  - split.
    + intros X. apply (f_equal (fun r => match r with Ok b => b | _ => true end)) in X. intros v I.
      destruct (term_eqb v t) eqn:V; auto. rewrite <- X. symmetry. apply existsb_exists. eauto.
    + intros X. f_equal. apply not_true_is_false. rewrite existsb_exists. intros [v [I V]]. rewrite (X v I) in V. discriminate V.
  - do 2 f_equal. apply Permutation_length. clear - P. induction P as [|y l l' P IH|y z l|]; cbn [filter]; auto.
    + destruct (term_eqb y t); auto.
    + destruct (term_eqb y t), (term_eqb z t); auto using perm_swap.
    + eapply Permutation_trans; eauto.
Qed.
Print Assumptions C140_contains.

Lemma index_from : forall x t, (forall v, same_term v x = Ok (term_eqb v t)) ->
  forall mt stop n i, 0 <= i -> (mt_len mt - i < Z.of_nat n) -> (0 < n)%nat ->
  (exists k v, mt_index_from n mt x stop i = Ok k /\ i <= k /\ (match stop with Some e => k < e | None => True end) /\
     mt_getitem mt k = Ok v /\ term_eqb v t = true /\
     forall j w, i <= j < k -> mt_getitem mt j = Ok w -> term_eqb w t = false) \/
  (mt_index_from n mt x stop i = Raise ValueError /\
     forall j w, i <= j -> (match stop with Some e => j < e | None => True end) -> mt_getitem mt j = Ok w -> term_eqb w t = false).
Proof.
  intros x t H mt stop n. induction n as [|n IH]; intros i I L N; [lia|]. cbn [mt_index_from].
  destruct (match stop with None => true | Some k => i <? k end) eqn:B.
  2:{ right. split; auto. destruct stop as [e|]; [|discriminate B]. apply Z.ltb_ge in B. intros; lia. }
  assert (B' : match stop with Some e => i < e | None => True end) by (destruct stop; auto; now apply Z.ltb_lt).
  destruct (getitem_range mt i) as [[v [E Iv]]|[E R]]; rewrite E.
  - rewrite H. cbn [rbind]. destruct (term_eqb v t) eqn:V.
    + left. exists i, v. repeat split; auto; try lia.
    + assert (K : i < mt_len mt) by (destruct (Z.ltb_spec i (mt_len mt)) as [|G]; auto; rewrite (getitem_err mt i) in E by lia; discriminate E).
      destruct (IH (i + 1)) as [[k [u [E1 [E2 [E3 [E4 [E5 E6]]]]]]]|[E1 E2]]; try lia.
      * left. exists k, u. repeat split; auto; try lia. intros j w J W. destruct (Z.eq_dec j i) as [->|]; [congruence|].
        apply (E6 j w); auto; lia.
      * right. split; auto. intros j w J1 J2 W. destruct (Z.eq_dec j i) as [->|]; [congruence|]. apply (E2 j w); auto; lia.
  - right. split; auto. intros j w J1 _ W. rewrite getitem_err in W by lia. discriminate W.
Qed.

(** [mt.index(x, start, stop)] is the first index from start on and before
    stop (negative ones count from the end) with a component equal to x, and
    a ValueError if there is none. *)
Definition from_end (n k : Z) : Z := if k <? 0 then k + n else k.
Theorem C140_index : forall ts x t start stop, stands x t -> let mt := multiterm ts in let n := Z.of_nat (List.length ts) in
  let hit := fun k => 0 <= k /\ from_end n start <= k /\ (match stop with Some e => k < from_end n e | None => True end) /\
                      exists v, mt_getitem mt k = Ok v /\ term_eqb v t = true in
  (forall k, mt_index mt x start stop = Ok k <-> hit k /\ forall j, hit j -> k <= j) /\
  (mt_index mt x start stop = Raise ValueError <-> forall k, ~ hit k) /\
  (mt_index mt x start stop = Raise ValueError \/ exists k, mt_index mt x start stop = Ok k).
Proof.
  intros ts x t start stop S mt n hit. assert (C : comparable x) by (destruct x as [|[|]|]; cbn in *; auto; congruence).
  destruct (same_stands x C) as [t' [S' H]].
  assert (t' = t) as -> by (destruct x as [|[|]|]; cbn in *; try contradiction; congruence).
  assert (L : mt_len mt = n) by (unfold mt_len, n, mt; f_equal; symmetry; apply Permutation_length, multiterm_perm).
  assert (Ln : Z.of_nat (List.length mt) = n) by exact L.
  set (i := if start <? 0 then Z.max (mt_len mt + start) 0 else start).
  set (e := match stop with Some k => Some (if k <? 0 then k + mt_len mt else k) | None => None end).
  assert (I : 0 <= i) by (unfold i; destruct (Z.ltb_spec start 0); lia).
  assert (Hi : forall k, i <= k <-> 0 <= k /\ from_end n start <= k).
  { intros k. unfold i, from_end. rewrite L. destruct (Z.ltb_spec start 0); lia. }
  assert (He : forall k, match e with Some e' => k < e' | None => True end <-> match stop with Some e' => k < from_end n e' | None => True end).
  { intros k. unfold e, from_end. rewrite L. destruct stop; reflexivity. }
  destruct (index_from x t H mt e (Datatypes.S (List.length mt)) i) as [[k [v [E1 [E2 [E3 [E4 [E5 E6]]]]]]]|[E1 E2]]; auto; try lia.
  - assert (Hk : hit k) by (unfold hit; apply Hi in E2; apply He in E3; repeat split; try tauto; eauto).
    assert (Low : forall j, hit j -> k <= j).
    { intros j [J1 [J2 [J3 [w [W1 W2]]]]]. destruct (Z.leb_spec k j) as [|G]; auto. rewrite (E6 j w) in W2; auto; [discriminate W2|].
      split; auto. now apply Hi. }
    change (mt_index mt x start stop) with (mt_index_from (Datatypes.S (List.length mt)) mt x e i). rewrite E1. split; [|split; eauto].
    + intros k'. split.
      * intros X. injection X as <-. auto.
      * intros [Hk' Low']. f_equal. specialize (Low k' Hk'). specialize (Low' k Hk). lia.
    + split; [discriminate|]. intros X. destruct (X k Hk).
  - assert (No : forall k, ~ hit k).
    { intros j [J1 [J2 [J3 [w [W1 W2]]]]]. rewrite (E2 j w) in W2; auto; [discriminate W2|now apply Hi|now apply He]. }
    change (mt_index mt x start stop) with (mt_index_from (Datatypes.S (List.length mt)) mt x e i). rewrite E1. split; [|split; auto].
    + intros k. split; [discriminate|]. intros [X _]. destruct (No k X).
    + split; auto.
Qed.
Print Assumptions C140_index.

(** Anything else cannot be looked for: [x in mt] of an object that is neither
    a Term nor a MultiTerm is an AttributeError, and of an empty MultiTerm an
    IndexError, unless the sequence is empty. *)
Theorem C140_other_refuted : forall ts, ts <> [] ->
  mt_contains (multiterm ts) WOther = Raise AttributeError /\ mt_count (multiterm ts) WOther = Raise AttributeError /\
  mt_index (multiterm ts) WOther 0 None = Raise AttributeError /\ mt_contains (multiterm ts) (WMulti (multiterm [])) = Raise IndexError.
Proof.
  intros ts N. unfold mt_contains, mt_count, mt_index. rewrite mt_iter_ok. cbn [rbind].
  destruct (multiterm ts) as [|v l] eqn:E.
  - apply (f_equal (@List.length term)) in E. rewrite <- (Permutation_length (multiterm_perm ts)) in E. destruct ts; [congruence|discriminate E].
  - repeat split.
Qed.
Print Assumptions C140_other_refuted.
