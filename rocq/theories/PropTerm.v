(** Properties C07-C11: terms and MultiTerms. *)
From Coq Require Import List Bool ZArith QArith Qcanon Lia String Ascii Permutation Sorted.
From Verif Require Import Base PyStr Util UtilProofs Regex Parse ParseProofs Term TermProofs.
Import ListNotations.
Local Open Scope string_scope.

(** C07: names.  Configurations without blank and '=', term symbols without
    '=' that do not end like a J label (every NIST symbol, see the cases). *)
Theorem C07_names_identify : forall a b,
  conf_ok (t_conf a) = true -> conf_ok (t_conf b) = true ->
  symbol_ok (t_term a) = true -> symbol_ok (t_term b) = true ->
  t_J a <> None -> t_J b <> None ->
  depth_ok (t_F a) (t_mF a) -> depth_ok (t_F b) (t_mF b) ->
  t_name a = t_name b ->
  t_conf a = t_conf b /\ t_term a = t_term b /\ t_J a = t_J b /\ t_F a = t_F b /\ t_mF a = t_mF b.
Proof. exact t_name_inj. Qed.
Print Assumptions C07_names_identify.
Example C07_case :
  t_name (mkTerm "4f13.(2F*<7/2>).6s2" "2[5/2]" (Q2Qc 100) (Some 5%Z) (Some 4%Z) (Some (-2)%Z) no_qnums)
  = "4f13.(2F*<7/2>).6s2 2[5/2]5/2 F=2 mF=-1"
  /\ conf_ok "4f13.(2F*<7/2>).6s2" = true
  /\ symbol_ok "2[5/2]" = true /\ symbol_ok "2P*" = true /\ symbol_ok "(7/2,1/2)*" = true
  /\ symbol_ok "D 3[5/2]" = true /\ symbol_ok "1S" = true.
Proof. repeat split. Qed.

(** A name is taken apart by the splitting the level lookup uses. *)
Theorem C07_names_split : forall t,
  match t_F t, t_mF t with
  | Some f, Some m => rsplit_char2 " " (t_name t) =
       Some (t_name (mkTerm (t_conf t) (t_term t) (t_pct t) (t_J t) None None (t_qn t)),
             t_short_name (mkTerm (t_conf t) (t_term t) (t_pct t) (t_J t) (Some f) None (t_qn t)),
             t_short_name t)
  | Some f, None => rsplit_char " " (t_name t) =
       Some (t_name (mkTerm (t_conf t) (t_term t) (t_pct t) (t_J t) None None (t_qn t)), t_short_name t)
  | _, _ => True
  end.
Proof. exact t_name_split. Qed.
Print Assumptions C07_names_split.
Example C07_split_case :
  rsplit_char2 " " "6s2.6p D 3[5/2]5/2 F=2 mF=-1" = Some ("6s2.6p D 3[5/2]5/2", "F=2", "mF=-1").
Proof. reflexivity. Qed.

(** The restriction on configurations is needed. *)
Example C07_blank_needed : exists a b, t_name a = t_name b /\ t_conf a <> t_conf b /\ t_J a <> None /\
  symbol_ok (t_term a) = true /\ symbol_ok (t_term b) = true.
Proof. exact names_collide. Qed.

(** C08: Term equality compares configuration, symbol and quantum numbers
    only. *)
Theorem C08_default_terms_partial : forall conf tm J F mF pct t conf' tm' J' F' mF' pct' t',
  new_term conf tm J F mF pct None = Ok t -> new_term conf' tm' J' F' mF' pct' None = Ok t' ->
  (term_eqb t t' = true <-> conf = conf' /\ tm = tm').
Proof. exact default_term_eqb. Qed.
Print Assumptions C08_default_terms_partial.
Example C08_case : exists t, new_term "6s" "2S" (VStr "1/2") (VNum 1) VNone (Q2Qc 100) None = Ok t
  /\ t_name t = "6s 2S1/2 F=1".
Proof. eexists; split; reflexivity. Qed.

Lemma opt_eqb_spec : forall a b : option Q, opt_eqb Qeq_bool a b = true <->
  match a, b with Some x, Some y => x == y | None, None => True | _, _ => False end.
Proof.
  intros [x|] [y|]; cbn [opt_eqb]; try (split; [discriminate|tauto]).
  - apply Qeq_bool_iff.
  - split; auto.
Qed.

(** Terms with given quantum numbers, as in a term built by hand or copied:
    equal exactly when configuration, symbol and all nine given numbers are. *)
Theorem C08_given_partial : forall conf tm J F mF pct q t conf' tm' J' F' mF' pct' q' t',
  new_term conf tm J F mF pct (Some q) = Ok t -> new_term conf' tm' J' F' mF' pct' (Some q') = Ok t' ->
  (term_eqb t t' = true <-> conf = conf' /\ tm = tm' /\
    forall f, In f [q_lc; q_sc; q_lo; q_so; q_jc; q_jo; q_l; q_s; q_k] ->
      match f q, f q' with Some x, Some y => x == y | None, None => True | _, _ => False end).
Proof.
  assert (K : forall conf tm J F mF pct q t, new_term conf tm J F mF pct (Some q) = Ok t ->
    t_conf t = conf /\ t_term t = tm /\ t_qn t = q).
  { intros conf tm J F mF pct q t. unfold new_term, rbind.
    destruct (half_of J); try discriminate. destruct (half_of F); try discriminate.
    destruct (half_of mF); try discriminate. intros E. injection E as <-. repeat split. }
  intros conf tm J F mF pct q t conf' tm' J' F' mF' pct' q' t' H H'.
  apply K in H. apply K in H'. destruct H as [<- [<- <-]]. destruct H' as [<- [<- <-]].
  unfold term_eqb, qnums_eqb. rewrite !andb_true_iff, !String.eqb_eq, !opt_eqb_spec. split.
  - intros E. split; [tauto|split; [tauto|]]. intros f In. cbn [List.In] in In.
    repeat (destruct In as [<-|In]; [tauto|]). contradiction.
  - intros [E1 [E2 E]]. repeat split; auto; apply E; cbn [List.In]; tauto.
Qed.
Print Assumptions C08_given_partial.
Example C08_case3 : exists a b,
  new_term "6s" "2S" (VStr "1/2") VNone VNone (Q2Qc 100) (Some (mkQN None None None None None None (Some 0%Q) (Some (1#2)%Q) None)) = Ok a /\
  new_term "6s" "2S" (VStr "1/2") VNone VNone (Q2Qc 100) (Some (mkQN None None None None None None (Some 1%Q) (Some (1#2)%Q) None)) = Ok b /\
  term_eqb a b = false.
Proof. do 2 eexists. split; [reflexivity|]. split; reflexivity. Qed.

Theorem C08_refuted : exists a b,
  new_term "6s" "2S" (VStr "1/2") VNone VNone (Q2Qc 100) None = Ok a /\
  new_term "6s" "2S" (VStr "3/2") VNone VNone (Q2Qc 100) None = Ok b /\
  term_eqb a b = true /\ t_J a <> t_J b /\ t_name a <> t_name b.
Proof. exact term_eq_ignores_J. Qed.
Print Assumptions C08_refuted.

(** C09: between MultiTerms with equally many components, equality is an
    equivalence; it raises exactly when the left one is longer. *)
Theorem C09_reflexive : forall a, mt_eqb a a = Ok true.
Proof. exact mt_eqb_refl. Qed.
Print Assumptions C09_reflexive.
Theorem C09_symmetric_partial : forall a b, List.length a = List.length b -> mt_eqb a b = mt_eqb b a.
Proof. exact mt_eqb_sym. Qed.
Print Assumptions C09_symmetric_partial.
Theorem C09_transitive_partial : forall a b c, List.length a = List.length b -> List.length b = List.length c ->
  mt_eqb a b = Ok true -> mt_eqb b c = Ok true -> mt_eqb a c = Ok true.
Proof. exact mt_eqb_trans. Qed.
Print Assumptions C09_transitive_partial.
Theorem C09_raises_iff_partial : forall a b, is_ok (mt_eqb a b) = true <-> (List.length a <= List.length b)%nat.
Proof. exact mt_eqb_ok_iff. Qed.
Print Assumptions C09_raises_iff_partial.
(** The only exception is IndexError. *)
Theorem C09_exception_partial : forall a b, mt_eqb a b = Raise IndexError <-> (List.length b < List.length a)%nat.
Proof.
  unfold mt_eqb. induction a as [|x a IH]; intros [|y b]; cbn [mt_eq_list rmap List.length]; try (split; [discriminate|lia]).
  - split; [lia|reflexivity].
  - specialize (IH b). destruct (mt_eq_list a b) as [l|e]; cbn [rbind rmap] in *; [split; [discriminate|intros H]|].
    + assert (X : (List.length b < List.length a)%nat) by lia. apply IH in X. discriminate X.
    + rewrite IH. lia.
Qed.
Print Assumptions C09_exception_partial.
Theorem C09_refuted : exists a b,
  mt_eqb (multiterm a) (multiterm b) = Ok true /\ mt_eqb (multiterm b) (multiterm a) = Raise IndexError.
Proof. exact mt_eq_not_symmetric. Qed.
Print Assumptions C09_refuted.

(** C10 *)
Theorem C10_components : forall ts,
  Permutation ts (multiterm ts) /\
  StronglySorted (fun a b => (t_pct b <= t_pct a)%Qc) (multiterm ts) /\
  forall p, filter (fun t => Qc_eqb (t_pct t) p) (multiterm ts) = filter (fun t => Qc_eqb (t_pct t) p) ts.
Proof. exact (fun ts => conj (multiterm_perm ts) (conj (multiterm_sorted ts) (fun p => multiterm_stable p ts))). Qed.
Print Assumptions C10_components.

Theorem C10_leading : forall ts t, In t ts -> exists lead rest,
  multiterm ts = lead :: rest /\ In lead ts /\ (t_pct t <= t_pct lead)%Qc /\
  (forall A (attr : term -> A), mt_attr attr (multiterm ts) = Ok (attr lead)).
Proof. exact multiterm_leading. Qed.
Print Assumptions C10_leading.
(** Without components there is nothing to ask. *)
Theorem C10_empty : forall ts A (attr : term -> A), (mt_attr attr (multiterm ts) = Raise IndexError <-> ts = []) /\
  (ts <> [] -> exists t, In t ts /\ mt_attr attr (multiterm ts) = Ok (attr t)).
Proof.
  intros [|t ts] A attr; [split; [split; reflexivity|congruence]|].
  destruct (multiterm_leading (t :: ts) t (or_introl eq_refl)) as [lead [rest [_ [H1 [_ H3]]]]]. rewrite H3.
  split; [split; discriminate|eauto].
Qed.
Print Assumptions C10_empty.
Example C10_case :
  let a := mkTerm "6s" "2S" (Q2Qc 30) (Some 1%Z) None None no_qnums in
  let b := mkTerm "5d" "2D" (Q2Qc 60) (Some 1%Z) None None no_qnums in
  let c := mkTerm "6p" "2P" (Q2Qc 30) (Some 1%Z) None None no_qnums in
  multiterm [a; b; c] = [b; a; c].
Proof. reflexivity. Qed.

(** Parity is odd exactly when the leading component's text carries a star. *)
Theorem C10_parity : forall ts t, In t ts -> exists lead p, In lead ts /\ (t_pct t <= t_pct lead)%Qc /\
  mt_attr t_parity (multiterm ts) = Ok p /\
  (p = (-1)%Z <-> In "*"%char (list_ascii_of_string (t_term lead))) /\
  (p = 1%Z <-> ~ In "*"%char (list_ascii_of_string (t_term lead))).
Proof.
  intros ts t H. destruct (multiterm_leading ts t H) as [lead [rest [_ [H1 [H2 H3]]]]].
  exists lead, (t_parity lead). split; auto. split; auto. split; auto. pose proof (has_char_In "*" (t_term lead)) as E.
  unfold t_parity. destruct (has_char "*" (t_term lead)).
  - split; [split; [intros _; now apply E|auto]|]. split; [discriminate|intros X; exfalso; now apply X, E].
  - split; [split; [discriminate|intros X; apply E in X; discriminate X]|]. split; [intros _ X; apply E in X; discriminate X|auto].
Qed.
Print Assumptions C10_parity.

Theorem C10_copy : forall F m ts, mt_copy F m (multiterm ts) = map (term_copy F m) (multiterm ts).
Proof. exact mt_copy_multiterm. Qed.
Print Assumptions C10_copy.

Theorem C10_copy_component : forall F m t,
  let c := term_copy F m t in
  t_conf c = t_conf t /\ t_term c = t_term t /\ t_pct c = t_pct t /\ t_J c = t_J t /\ t_qn c = t_qn t /\
  t_mF c = m /\ t_F c = match t_F t with Some f => Some f | None => F end.
Proof. exact term_copy_keeps. Qed.
Print Assumptions C10_copy_component.

(** C11: one entry per distinct percentage. *)
Theorem C11_entries_partial : forall mt, List.length (terms_dict mt) = List.length mt <-> NoDup (map t_pct mt).
Proof. exact terms_dict_full_iff. Qed.
Print Assumptions C11_entries_partial.
Theorem C11_distinct_partial : forall mt, NoDup (map t_pct mt) ->
  terms_dict mt = map (fun t => (t_pct t, t)) mt.
Proof. exact terms_dict_distinct. Qed.
Print Assumptions C11_distinct_partial.
Example C11_case :
  let a := mkTerm "6s" "2S" (Q2Qc 30) (Some 1%Z) None None no_qnums in
  let b := mkTerm "5d" "2D" (Q2Qc 60) (Some 1%Z) None None no_qnums in
  List.length (terms_dict (multiterm [a; b])) = 2%nat.
Proof. reflexivity. Qed.
Theorem C11_refuted : exists ts, List.length (terms_dict (multiterm ts)) <> List.length ts.
Proof. exact terms_dict_ties. Qed.
Print Assumptions C11_refuted.

(** C122: a Term and a MultiTerm compare through a component of largest
    percentage, in either order, and the other components do not matter. *)
Theorem C122_leading : forall ts t x, In x ts -> exists lead, In lead ts /\ (forall y, In y ts -> (t_pct y <= t_pct lead)%Qc) /\
  mt_eqb_term (multiterm ts) t = Ok (term_eqb lead t) /\ term_eqb_mt t (multiterm ts) = Ok (term_eqb lead t).
Proof.
  intros ts t x I. destruct (multiterm_leading ts x I) as [lead [rest [E [Il [_ At]]]]]. exists lead. split; auto. split.
  - intros y Iy. destruct (multiterm_leading ts y Iy) as [lead' [rest' [E' [_ [L _]]]]]. rewrite E in E'. injection E' as <- <-. exact L.
  - unfold mt_eqb_term, term_eqb_mt. rewrite !At. cbn [rbind]. split; auto. rewrite (term_eqb_sym lead t). unfold term_eqb.
    destruct (qnums_eqb _ _); cbn [negb andb]; auto. destruct (String.eqb (t_conf t) _); reflexivity.
Qed.
Print Assumptions C122_leading.
Theorem C122_symmetric : forall ts t, mt_eqb_term (multiterm ts) t = term_eqb_mt t (multiterm ts).
Proof.
  intros [|x ts] t; [reflexivity|]. destruct (C122_leading (x :: ts) t x (or_introl eq_refl)) as [lead [_ [_ [-> ->]]]]. reflexivity.
Qed.
Print Assumptions C122_symmetric.
(** With one component it is the comparison of terms. *)
Theorem C122_single : forall a t, mt_eqb_term (multiterm [a]) t = Ok (term_eqb a t) /\
  mt_eqb (multiterm [a]) (multiterm [t]) = Ok (term_eqb a t).
Proof.
  intros a t. split; [reflexivity|]. change (Ok (term_eqb a t && true) = Ok (term_eqb a t)). now rewrite andb_true_r.
Qed.
Print Assumptions C122_single.
(** An empty MultiTerm cannot be compared with a term. *)
Theorem C122_empty_refuted : forall t, mt_eqb_term (multiterm []) t = Raise IndexError /\ term_eqb_mt t (multiterm []) = Raise IndexError /\
  mt_eqb (multiterm []) (multiterm [t]) = Ok true.
Proof. intros t. repeat split. Qed.
Print Assumptions C122_empty_refuted.
(** Equality is not transitive across the two classes. *)
Theorem C122_transitive_refuted : exists a b t, mt_eqb_term (multiterm a) t = Ok true /\ term_eqb_mt t (multiterm b) = Ok true /\
  mt_eqb (multiterm a) (multiterm b) = Ok false.
Proof.
  set (x := mkTerm "6s" "2S" (Q2Qc 60) (Some 1%Z) None None no_qnums).
  set (y := mkTerm "5d" "2D" (Q2Qc 40) (Some 1%Z) None None no_qnums).
  set (z := mkTerm "6p" "2P" (Q2Qc 40) (Some 1%Z) None None no_qnums).
  exists [x; y], [x; z], x. repeat split.
Qed.
Print Assumptions C122_transitive_refuted.
