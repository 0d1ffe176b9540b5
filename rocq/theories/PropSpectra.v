(** Properties C117-C121: what the spectrum plots show. *)
From Coq Require Import List Bool ZArith QArith Qcanon Lia String Ascii Permutation.
From Verif Require Import Base PyStr Util Term Num Wigner WignerProofs Graph GraphProofs Rules RulesProofs StrengthSums Atom AtomInv AtomSafe AtomSafe2 AtomSafe3 AtomSafe5 AtomSafe6
  AtomLevels AtomKeep AtomPaths AtomTrans AtomStrength AtomExample PropStrength Spectra.
Import ListNotations.
Local Open Scope string_scope.
Local Open Scope list_scope.

Arguments c_line {N}. Arguments c_freq {N}. Arguments c_ampl {N}. Arguments c_label {N}.

Lemma bind_done : forall N {A B} (m : M N A) (k : A -> M N B) s r s', bind m k s = (Ok r, s') -> exists v s1, m s = (Ok v, s1) /\ k v s1 = (Ok r, s').
Proof. intros N A B m k s r s' E. unfold bind in E. destruct (m s) as [[v|e] s1]; [eauto|discriminate E]. Qed.

Section S.
  Context (N : Num) (muB : num N).
  Notation st := (st N).
  Implicit Types s : st.

  (** [ts] are asked for their subtransitions one after the other: [cs] is the
      list of all of them. *)
  Inductive lists : st -> list nat -> list nat -> st -> Prop :=
  | lists_nil : forall s, lists s [] [] s
  | lists_cons : forall s t ts c cs s1 s2, subtransitions N muB t s = (Ok c, s1) -> lists s1 ts cs s2 -> lists s (t :: ts) (c ++ cs) s2.

  (** The curve of [t], seen in [s]. *)
  Record drawn s (height : trans N -> N) (t : nat) (c : curve N) : Prop := mk_drawn {
    d_line : c_line c = t;
    d_tr : exists y lo up e1 e2, tr s t = Some y /\ lv s (x_lo y) = Some lo /\ lv s (x_up y) = Some up /\
      energy N muB s (x_E1 y) = Some e1 /\ energy N muB s (x_E2 y) = Some e2 /\
      c_freq c = nabs N (nsub N e1 e2) /\ c_ampl c = height y /\ c_label c = (lshort lo, lshort up)
  }.

  Lemma draw_ok : forall s p t y, WF s -> tr s t = Some y -> paint N p t s = (Ok tt, s) ->
    exists c, draw N muB ShapeObj p None t s = (Ok c, s) /\ drawn s (@x_rel N) t c.
  Proof.
    intros s p t y W V P. destruct (wf_tr _ _ W _ _ V) as [l1 [l2 [V1 [V2 [_ [_ [Ud _]]]]]]].
    destruct (wf_energy N muB _ _ _ W V1) as [e1 E1]. destruct (wf_energy N muB _ _ _ W V2) as [e2 E2].
    assert (Ends : exists lo up, lv s (x_lo y) = Some lo /\ lv s (x_up y) = Some up) by (destruct Ud as [[-> ->]|[-> ->]]; eauto).
    destruct Ends as [lo [up [Vl Vu]]].
    exists (mkCurve N t (nabs N (nsub N e1 e2)) (x_rel y) (lshort lo, lshort up)). split.
    - assert (Fq : freq N muB s t = Some (nabs N (nsub N e1 e2))) by (unfold freq; now rewrite V, E1, E2).
      unfold draw, get_tr, get_lv, bind, asks, ret. rewrite V, Fq. cbv beta iota. rewrite Vl, Vu, P. reflexivity.
    - constructor; [reflexivity|]. exists y, lo, up, e1, e2. repeat (split; auto).
  Qed.
  Lemma mapM_ok {A B} : forall (f : A -> M N B) (P : A -> B -> Prop) s l, (forall a, In a l -> exists b, f a s = (Ok b, s) /\ P a b) ->
    exists r, mapM N f l s = (Ok r, s) /\ Forall2 P l r.
  Proof.
    induction l as [|a l IH]; intros H; cbn [mapM].
    - exists []. split; [reflexivity|constructor].
    - destruct (H a (or_introl eq_refl)) as [b [E Pb]]. destruct IH as [r [Er Pr]]; [intros x I; apply H; now right|].
      exists (b :: r). unfold bind, ret. rewrite E, Er. split; [reflexivity|now constructor].
  Qed.
  Lemma Forall2_in_r {A B} (P : A -> B -> Prop) : forall l r, Forall2 P l r -> forall b, In b r -> exists a, In a l /\ P a b.
  Proof. intros l r F. induction F as [|a b l r H F IH]; intros b' []; [subst; exists a; cbn; auto|]. destruct (IH b' H0) as [a' [I P']]. exists a'. cbn. auto. Qed.
  Lemma existsb_self : forall l t, In t l -> existsb (Nat.eqb t) l = true.
  Proof. intros l t I. apply existsb_exists. exists t. split; auto. apply Nat.eqb_refl. Qed.
  Lemma draws : forall s p ls, WF s -> (p = PFun \/ p = PTable ls) -> Forall (fun t => tr s t <> None) ls ->
    exists r, mapM N (draw N muB ShapeObj p None) ls s = (Ok r, s) /\ Forall2 (drawn s (@x_rel N)) ls r.
  Proof.
    intros s p ls W P F. apply mapM_ok. intros t I. rewrite Forall_forall in F. specialize (F t I).
    destruct (tr s t) as [y|] eqn:V; [|contradiction]. apply (draw_ok s p t y W V).
    destruct P as [->| ->]; [reflexivity|]. unfold paint. now rewrite existsb_self.
  Qed.
  Lemma drawn_lines : forall s h ls r, Forall2 (drawn s h) ls r -> map c_line r = ls.
  Proof. intros s h ls r F. induction F as [|t c ls r D F IH]; [reflexivity|]. cbn. rewrite IH. f_equal. now destruct D. Qed.

  Lemma table_ok : forall (num : level N -> option Z) s ls, (forall t, In t ls -> exists y lo up, tr s t = Some y /\
      lv s (x_lo y) = Some lo /\ lv s (x_up y) = Some up /\ num lo <> None /\ num up <> None) -> table N num ls s = (Ok tt, s).
  Proof.
    intros num s ls. induction ls as [|t ls IH]; intros H; [reflexivity|]. unfold table in *. cbn [forM].
    destruct (H t (or_introl eq_refl)) as [y [lo [up [V [Vl [Vu [N1 N2]]]]]]].
    unfold bind at 1. unfold get_tr, get_lv, bind, asks, ret. rewrite V, Vl, Vu. destruct (num lo); [|contradiction]. destruct (num up); [|contradiction].
    apply IH. intros t' I. apply H. now right.
  Qed.

  (** What is listed: every line is in the final state, below its transition. *)
  Definition sub_of s (t c : nat) : Prop := exists x y, tr s t = Some x /\ tr s c = Some y /\ x_parent y = Some t /\ x_kind y = sub_tkind (x_kind x) /\ x_kind x <> TZ.
  Lemma sub_of_look : forall s s' t c, look s s' -> sub_of s t c -> sub_of s' t c.
  Proof.
    intros s s' t c L [x [y [V [Vy [P [K Kz]]]]]]. destruct (ext_tr _ _ _ (look_ext _ _ _ L) _ _ V) as [x' [V' S]]. destruct (ext_tr _ _ _ (look_ext _ _ _ L) _ _ Vy) as [y' [Vy' Sy]].
    destruct S as [Sk _]. destruct Sy as [Sk' [Sp _]]. exists x', y'. rewrite Sk, Sk', Sp. auto.
  Qed.
  Lemma subs_listed : forall s t cs s', WF s -> subtransitions N muB t s = (Ok cs, s') -> WF s' /\ look s s' /\ (forall c, In c cs -> sub_of s' t c) /\
    exists x, tr s t = Some x.
  Proof.
    intros s t cs s' W E.
    assert (Ht : exists x0, tr s t = Some x0).
    { unfold subtransitions, lazy_subtransitions, get_tr, bind, asks in E. destruct (tr s t); eauto. discriminate E. }
    destruct Ht as [x V]. destruct (safe_Ok _ _ _ _ _ _ _ (subtransitions_safe N muB s t x W V) E) as [W' [L [x' [V' [-> _]]]]].
    split; auto. split; auto. split; eauto. intros c I. destruct (listed_ends N muB s t _ s' x' W E V' c I) as [y [_ [_ [H1 [H2 [H3 [H4 _]]]]]]].
    exists x', y. auto.
  Qed.
  Lemma lists_ok : forall s ts cs s', lists s ts cs s' -> WF s -> WF s' /\ look s s' /\
    (forall c, In c cs -> exists t, In t ts /\ sub_of s' t c).
  Proof.
    intros s ts cs s' H. induction H as [s|s t ts c cs s1 s2 E H IH]; intros W.
    - split; auto. split; [apply look_po|]. intros ? [].
    - destruct (subs_listed _ _ _ _ W E) as [W1 [L1 [S [x V]]]]. destruct (IH W1) as [W2 [L2 S2]].
      split; auto. split; [exact (look_trans _ _ _ _ L1 L2)|].
      intros c' I. apply in_app_iff in I. destruct I as [I|I].
      + exists t. split; [now left|]. exact (sub_of_look _ _ _ _ L2 (S c' I)).
      + destruct (S2 c' I) as [t' [It St]]. exists t'. split; auto. now right.
  Qed.
  Lemma lists_all : forall s ts cs s', lists s ts cs s' -> all_lines N muB ts s = (Ok cs, s').
  Proof.
    intros s ts cs s' H. unfold all_lines, bind, ret. induction H as [s|s t ts c cs s1 s2 E H IH]; [reflexivity|].
    cbn [mapM]. unfold bind, ret. rewrite E. destruct (mapM N (subtransitions N muB) ts s1) as [[r|e] s3]; [|discriminate IH].
    cbn [List.concat]. injection IH as <- <-. reflexivity.
  Qed.
  Lemma all_lists : forall ts s cs s', all_lines N muB ts s = (Ok cs, s') -> lists s ts cs s'.
  Proof.
    unfold all_lines, bind, ret. induction ts as [|t ts IH]; intros s cs s' H; cbn [mapM] in H.
    - cbn in H. injection H as <- <-. constructor.
    - unfold bind, ret in H. destruct (subtransitions N muB t s) as [[c|e] s1] eqn:E; [|discriminate H].
      specialize (IH s1). destruct (mapM N (subtransitions N muB) ts s1) as [[r|e] s3]; [|discriminate H]. cbn [List.concat] in H. injection H as <- <-.
      apply (lists_cons s t ts c _ s1 s3 E). now apply IH.
  Qed.

  (** The quantum numbers a line of the given kind has. *)
  Lemma line_ends : forall s c y, WF s -> tr s c = Some y -> exists lo up, lv s (x_lo y) = Some lo /\ lv s (x_up y) = Some up /\
    l_kind lo = lk (x_kind y) /\ l_kind up = lk (x_kind y) /\
    (x_kind y <> TT -> l_F lo <> None /\ l_F up <> None) /\ (x_kind y = TZ -> l_mF lo <> None /\ l_mF up <> None) /\
    (x_kind y = THF -> l_mF lo = None /\ l_mF up = None).
  Proof.
    intros s c y W V. destruct (static_ends _ _ _ (wf_tr _ _ W _ _ V)) as [lo [up [Vl [Vu [Kl Ku]]]]]. exists lo, up. split; auto. split; auto.
    split; auto. split; auto.
    assert (H : forall a l, lv s a = Some l -> l_kind l = lk (x_kind y) -> (x_kind y <> TT -> l_F l <> None) /\ (x_kind y = TZ -> l_mF l <> None) /\ (x_kind y = THF -> l_mF l = None)).
    { intros a l Va Ka. destruct (wf_lead _ _ _ _ W Va) as [tm [j [H1 [H2 [H3 H4]]]]]. unfold l_F, l_mF. rewrite H1. rewrite Ka in H4.
      destruct (x_kind y); cbn [lk] in H4.
      - repeat split; congruence.
      - destruct H4 as [f [-> [_ [_ ->]]]]. repeat split; congruence.
      - destruct H4 as [f [m [-> [_ [_ [-> _]]]]]]. repeat split; congruence. }
    destruct (H _ _ Vl Kl) as [A1 [A2 A3]]. destruct (H _ _ Vu Ku) as [B1 [B2 B3]]. repeat split; auto.
  Qed.

  (** ** The hyperfine spectrum *)

  Lemma col_in : forall c ss, In c ss -> col_is (ColStr c) ss = true.
  Proof. intros c ss I. unfold col_is. apply existsb_exists. exists c. split; auto. apply String.eqb_refl. Qed.

  Lemma spectrum_lines : forall s ls c sh o k, WF s -> ls <> [] -> k <> TT -> (forall t, In t ls -> exists y, tr s t = Some y /\ x_kind y = k) ->
    (k = THF -> c = "l" \/ c = "u") -> (k = TZ -> c = "l" \/ c = "u" \/ c = "transition_type") ->
    plot_spectrum N muB (Many ls) (Some sh) (ColStr c) o s = mapM N (draw N muB sh (PTable ls) (o_ampl N o)) ls s.
  Proof.
    intros s ls c sh o k W Ne Kt H C1 C2. destruct ls as [|l0 ls]; [congruence|]. destruct (H l0 (or_introl eq_refl)) as [y0 [V0 K0]].
    unfold plot_spectrum, choose_shape, get_tr, bind, asks, ret. rewrite V0, K0.
    destruct k; [congruence| |].
    - rewrite (col_in c ["l"; "u"]) by (cbn; destruct (C1 eq_refl) as [->| ->]; auto).
      rewrite (table_ok (@l_F N) s (l0 :: ls)); [reflexivity|]. intros t I. destruct (H t I) as [y [V K]].
      destruct (line_ends s t y W V) as [lo [up [Vl [Vu [_ [_ [F _]]]]]]]. exists y, lo, up. rewrite K in F. destruct F; [congruence|]. auto.
    - rewrite (col_in c ["l"; "u"; "transition_type"]) by (cbn; destruct (C2 eq_refl) as [->|[->| ->]]; auto).
      rewrite (table_ok (@l_mF N) s (l0 :: ls)); [reflexivity|]. intros t I. destruct (H t I) as [y [V K]].
      destruct (line_ends s t y W V) as [lo [up [Vl [Vu [_ [_ [_ [F _]]]]]]]]. exists y, lo, up. destruct F; auto.
  Qed.

  (** [lists]: the lines of one transition are its subtransitions. *)
  Lemma lists_one : forall s t cs s', subtransitions N muB t s = (Ok cs, s') -> lists s [t] cs s'.
  Proof. intros s t cs s' E. rewrite <- (app_nil_r cs). apply (lists_cons s t [] cs [] s' s' E). constructor. Qed.

  Definition tg_list (tg : target) : list nat := match tg with One t => [t] | Many ts => ts end.
  Lemma hyperfine_eq : forall s tg cs s' sh c o, lists s (tg_list tg) cs s' -> plot_hyperfine N muB tg sh c o s = plot_spectrum N muB (Many cs) sh c o s'.
  Proof.
    intros s tg cs s' sh c o H. unfold plot_hyperfine, bind. destruct tg as [t|ts]; cbn [tg_list] in H.
    - inversion H as [|? ? ? c0 cs0 s1 s2 E H0]; subst. inversion H0; subst. now rewrite E, app_nil_r.
    - now rewrite (lists_all _ _ _ _ H).
  Qed.

  Lemma sub_kinds : forall s ts cs s' k, WF s -> lists s ts cs s' -> (forall t, In t ts -> exists x, tr s' t = Some x /\ x_kind x = k) ->
    WF s' /\ forall c, In c cs -> exists y, tr s' c = Some y /\ x_kind y = sub_tkind k.
  Proof.
    intros s ts cs s' k W H K. destruct (lists_ok _ _ _ _ H W) as [W' [_ S]]. split; auto. intros c I.
    destruct (S c I) as [t [It [x [y [V [Vy [_ [Ky _]]]]]]]]. exists y. split; auto. destruct (K t It) as [x' [V' K']]. assert (x' = x) by congruence. subst. now rewrite Ky.
  Qed.
End S.

(** C117.  Every hyperfine line of the given fine-structure transitions is drawn
    once, at its frequency and with its relative strength as height, labelled
    with the F of its lower and of its upper level. *)
Theorem C117_lines_partial : forall N muB orc, (forall n, oracle_ok (orc n)) -> forall s, reachable N muB orc s ->
  forall tg cs s' c, lists N muB s (tg_list tg) cs s' -> cs <> [] -> (forall t, In t (tg_list tg) -> exists x, tr s' t = Some x /\ x_kind x = TT) ->
  c = "l" \/ c = "u" ->
  exists curves, plot_hyperfine N muB tg (Some ShapeObj) (ColStr c) (no_options N) s = (Ok curves, s') /\ map c_line curves = cs /\
  forall k, In k curves -> exists y lo up f1 f2 e1 e2, tr s' (c_line k) = Some y /\ lv s' (x_lo y) = Some lo /\ lv s' (x_up y) = Some up /\
    l_F lo = Some f1 /\ l_F up = Some f2 /\ c_label k = (F_key f1, F_key f2) /\ c_ampl k = x_rel y /\
    energy N muB s' (x_E1 y) = Some e1 /\ energy N muB s' (x_E2 y) = Some e2 /\ c_freq k = nabs N (nsub N e1 e2).
Proof.
  intros N muB orc OK s R tg cs s' c L Ne K C. pose proof (reachable_WF N muB orc OK s R) as W.
  destruct (sub_kinds N muB _ _ _ _ TT W L K) as [W' S]. cbn [sub_tkind] in S.
  rewrite (hyperfine_eq N muB _ _ _ _ _ _ _ L), (spectrum_lines N muB s' cs c ShapeObj _ THF W' Ne) by (auto; discriminate).
  cbn [o_ampl no_options]. destruct (draws N muB s' (PTable cs) cs W') as [r [E F]]; [auto|apply Forall_forall; intros t I; destruct (S t I) as [y [-> _]]; discriminate|].
  exists r. split; auto. split; [exact (drawn_lines _ _ _ _ _ _ F)|].
  intros k I. destruct (Forall2_in_r _ _ _ F k I) as [t [It D]]. destruct D as [<- [y [lo [up [e1 [e2 [H1 [H2 [H3 [H4 [H5 [H6 [H7 H8]]]]]]]]]]]]].
  destruct (S _ It) as [y' [Vy Ky]]. assert (y' = y) by congruence. subst y'.
  destruct (line_ends N s' _ y W' H1) as [lo' [up' [G1 [G2 [G3 [G4 [G5 [_ G6]]]]]]]]. assert (lo' = lo) by congruence. assert (up' = up) by congruence. subst lo' up'.
  destruct G5 as [F1 F2]; [congruence|]. destruct (G6 Ky) as [M1 M2]. rewrite Ky in G3, G4. cbn [lk] in G3, G4.
  destruct (l_F lo) as [f1|] eqn:E1; [|congruence]. destruct (l_F up) as [f2|] eqn:E2; [|congruence].
  rewrite (lshort_numbers N s' _ lo W' H2), (lshort_numbers N s' _ up W' H3), M1, M2, E1, E2 in H8 by congruence.
  exists y, lo, up, f1, f2, e1, e2. repeat (split; auto).
Qed.
Print Assumptions C117_lines_partial.
(** No two lines of one transition get the same label. *)
Lemma labels_keys : forall N muB (s : st N) t x cs r, WF s -> tr s t = Some x -> cs = dvals (x_subs x) -> Forall2 (drawn N muB s (@x_rel N)) cs r ->
  map c_label r = dkeys (x_subs x).
Proof.
  intros N muB s t x cs r W V -> F. destruct (wf_tsubs _ _ W _ _ V) as [_ S]. revert r F. induction (x_subs x) as [|[k c] d IH]; intros r F; cbn in F.
  - inversion F. reflexivity.
  - inversion F as [|? cv ? r' D F' E1 E2]; subst. cbn [map dkeys fst]. fold (@dkeys (string * string) nat). f_equal; [|apply IH; auto; intros k' c' I; apply S; now right].
    destruct (S k c (or_introl eq_refl)) as [y [lo [up [H1 [_ [_ [_ [_ [H2 [H3 ->]]]]]]]]]].
    destruct D as [_ [y' [lo' [up' [e1 [e2 [G1 [G2 [G3 [_ [_ [_ [_ ->]]]]]]]]]]]]]. assert (y' = y) by congruence. subst y'. congruence.
Qed.
Lemma listed_keys : forall N muB (s : st N) t cs s', WF s -> subtransitions N muB t s = (Ok cs, s') -> exists x, tr s' t = Some x /\ cs = dvals (x_subs x) /\ NoDup (dkeys (x_subs x)).
Proof.
  intros N muB s t cs s' W E.
  assert (Ht : exists x0, tr s t = Some x0).
  { unfold subtransitions, lazy_subtransitions, get_tr, bind, asks in E. destruct (tr s t); eauto. discriminate E. }
  destruct Ht as [x V]. destruct (safe_Ok _ _ _ _ _ _ _ (subtransitions_safe N muB s t x W V) E) as [W' [L [x' [V' [-> _]]]]].
  exists x'. split; auto. split; auto. apply (wf_tsubs _ _ W' _ _ V').
Qed.
Theorem C117_labels_partial : forall N muB orc, (forall n, oracle_ok (orc n)) -> forall s, reachable N muB orc s ->
  forall t x c curves s', tr s t = Some x -> x_kind x = TT -> c = "l" \/ c = "u" ->
  plot_hyperfine N muB (One t) (Some ShapeObj) (ColStr c) (no_options N) s = (Ok curves, s') -> NoDup (map c_label curves).
Proof.
  intros N muB orc OK s R t x c curves s' V K C E. pose proof (reachable_WF N muB orc OK s R) as W.
  destruct (subtransitions N muB t s) as [[cs|e] s1] eqn:Es; [|unfold plot_hyperfine, bind in E; rewrite Es in E; discriminate E].
  rewrite (hyperfine_eq N muB s (One t) cs s1 _ _ _ (lists_one N muB _ _ _ _ Es)) in E.
  destruct cs as [|c0 cs]; [discriminate E|]. destruct (listed_keys N muB s t _ s1 W Es) as [x' [V' [Ec Nd]]].
  destruct (sub_kinds N muB s [t] (c0 :: cs) s1 TT W (lists_one N muB _ _ _ _ Es)) as [W' S].
  { intros t' [<-|[]]. destruct (subs_listed N muB _ _ _ _ W Es) as [_ [L _]]. destruct (ext_tr _ _ _ (look_ext _ _ _ L) _ _ V) as [x2 [V2 [S2 _]]].
    exists x2. split; auto. congruence. }
  cbn [sub_tkind] in S. rewrite (spectrum_lines N muB s1 (c0 :: cs) c ShapeObj _ THF W') in E by (auto; discriminate). cbn [o_ampl no_options] in E.
  destruct (draws N muB s1 (PTable (c0 :: cs)) (c0 :: cs) W') as [r [Er F]]; [auto|apply Forall_forall; intros u I; destruct (S u I) as [y [-> _]]; discriminate|].
  rewrite Er in E. injection E as <- <-. now rewrite (labels_keys N muB s1 t x' _ r W' V' Ec F).
Qed.
Print Assumptions C117_labels_partial.
(** The yellow-line pattern of the two levels of [os_two]: three curves. *)
Example C117_case : let s := rated 1 os_two in
  option_map (@x_kind Exact) (tr s 0) = Some TT /\
  match fst (plot_hyperfine Exact 1%Qc (One 0) (Some ShapeObj) (ColStr "l") (no_options Exact) s) with
  | Ok cs => Some (map (fun k => (c_line k, show (@c_freq Exact k), show (@c_ampl Exact k), c_label k)) cs)
  | Raise _ => None
  end = Some [(2%nat, (10, 1), (1, 2), ("F=0", "F=1")); (3%nat, (10, 1), (1, 2), ("F=1", "F=0")); (4%nat, (10, 1), (1, 1), ("F=1", "F=1"))]%Z.
Proof. vm_compute. auto. Qed.

(** A transition without lines is an IndexError instead of an empty plot. *)
Theorem C117_empty_refuted : forall N muB s tg s' sh c o, lists N muB s (tg_list tg) [] s' -> plot_hyperfine N muB tg (Some sh) c o s = (Raise IndexError, s').
Proof. intros N muB s tg s' sh c o L. rewrite (hyperfine_eq N muB _ _ _ _ _ _ _ L). reflexivity. Qed.
Print Assumptions C117_empty_refuted.
(** J = 0 to J = 0. *)
Example C117_empty_case : let s := runx (from 1) [nl (ex_term "5s2" "1S" 0) 0; add 0; nl (ex_term "5s5p" "3P*" 0) 10; add 1; ONewTransition Exact 0 1 None None None] in
  fst (subtransitions Exact 1%Qc 0 s) = Ok [] /\
  fst (plot_hyperfine Exact 1%Qc (One 0) (Some ShapeObj) (ColStr "l") (no_options Exact) s) = Raise IndexError.
Proof. vm_compute. auto. Qed.

(** Any other colouring, such as None or a function, is a NameError. *)
Lemma mapM_first : forall N {A B} (f : A -> M N B) a l s e s', f a s = (Raise e, s') -> mapM N f (a :: l) s = (Raise e, s').
Proof. intros N A B f a l s e s' E. cbn [mapM]. unfold bind. now rewrite E. Qed.
Lemma draw_before : forall N muB s sh p t y, WF s -> tr s t = Some y ->
  draw N muB sh p None t s =
    match sh with
    | ShapeClass => (Raise TypeError, s)
    | ShapeFails e => (Raise e, s)
    | ShapeObj => match paint N p t s with (Raise e, s1) => (Raise e, s1) | (Ok _, s1) =>
        match draw N muB ShapeObj PFun None t s with (Ok c, _) => (Ok c, s1) | (Raise e, _) => (Raise e, s1) end end
    end.
Proof.
  intros N muB s sh p t y W V. destruct (draw_ok N muB s PFun t y W V eq_refl) as [c [E _]].
  destruct (wf_tr _ _ W _ _ V) as [l1 [l2 [V1 [V2 [_ [_ [Ud _]]]]]]].
  destruct (wf_energy N muB _ _ _ W V1) as [e1 E1]. destruct (wf_energy N muB _ _ _ W V2) as [e2 E2].
  assert (Ends : exists lo up, lv s (x_lo y) = Some lo /\ lv s (x_up y) = Some up) by (destruct Ud as [[-> ->]|[-> ->]]; eauto).
  destruct Ends as [lo [up [Vl Vu]]].
  assert (Fq : freq N muB s t = Some (nabs N (nsub N e1 e2))) by (unfold freq; now rewrite V, E1, E2).
  unfold draw, get_tr, get_lv, bind, asks, ret in *. rewrite V, Fq in *. cbv beta iota in *. destruct sh; try reflexivity.
  rewrite Vl, Vu in *. destruct (paint N p t s) as [[[]|e] s1]; reflexivity.
Qed.
Theorem C117_colouring_refuted : forall N muB orc, (forall n, oracle_ok (orc n)) -> forall s, reachable N muB orc s ->
  forall tg cs s' c, lists N muB s (tg_list tg) cs s' -> cs <> [] -> (forall t, In t (tg_list tg) -> exists x, tr s' t = Some x /\ x_kind x = TT) ->
  c <> ColStr "l" -> c <> ColStr "u" ->
  plot_hyperfine N muB tg (Some ShapeObj) c (no_options N) s = (Raise NameError, s').
Proof.
  intros N muB orc OK s R tg cs s' c L Ne K C1 C2. pose proof (reachable_WF N muB orc OK s R) as W.
  destruct (sub_kinds N muB _ _ _ _ TT W L K) as [W' S]. cbn [sub_tkind] in S. rewrite (hyperfine_eq N muB _ _ _ _ _ _ _ L).
  destruct cs as [|c0 cs]; [congruence|]. destruct (S c0 (or_introl eq_refl)) as [y [V Ky]].
  assert (Cn : col_is c ["l"; "u"] = false).
  { destruct c as [|t|]; auto. cbn. destruct (String.eqb_spec t "l") as [->|_]; [congruence|]. destruct (String.eqb_spec t "u") as [->|_]; [congruence|]. reflexivity. }
  unfold plot_spectrum, choose_shape, get_tr, bind, asks, ret. rewrite V, Ky, Cn. cbn [plot_transitions].
  apply (mapM_first N). cbn [o_ampl no_options]. rewrite (draw_before N muB s' ShapeObj PUnset c0 y W' V). reflexivity.
Qed.
Print Assumptions C117_colouring_refuted.

(** ** C118: default arguments *)

(** With their default line shape neither function draws a line. *)
Theorem C118_hyperfine_refuted : forall N muB orc, (forall n, oracle_ok (orc n)) -> forall s, reachable N muB orc s ->
  forall tg r s', (forall t, In t (tg_list tg) -> exists x, tr s t = Some x /\ x_kind x = TT) -> plot_hyperfine_default N muB tg s = (r, s') -> exists e, r = Raise e.
Proof.
  intros N muB orc OK s R tg r s' K E. pose proof (reachable_WF N muB orc OK s R) as W. unfold plot_hyperfine_default in E.
  assert (H : forall cs s1, lists N muB s (tg_list tg) cs s1 -> exists e, r = Raise e).
  { intros cs s1 L. assert (K' : forall t, In t (tg_list tg) -> exists x, tr s1 t = Some x /\ x_kind x = TT).
    { intros t I. destruct (K t I) as [x [V Kx]]. destruct (lists_ok N muB _ _ _ _ L W) as [_ [Lo _]].
      destruct (ext_tr _ _ _ (look_ext _ _ _ Lo) _ _ V) as [x' [V' [S' _]]]. exists x'. split; auto. congruence. }
    destruct (sub_kinds N muB _ _ _ _ TT W L K') as [W' S]. cbn [sub_tkind] in S. rewrite (hyperfine_eq N muB _ _ _ _ _ _ _ L) in E.
    destruct cs as [|c0 cs]; [unfold plot_spectrum, bind, choose_shape, ret, raise in E; injection E as <- _; eauto|].
    rewrite (spectrum_lines N muB s1 (c0 :: cs) "l" ShapeClass _ THF W') in E by (auto; discriminate). destruct (S c0 (or_introl eq_refl)) as [y [V _]].
    rewrite (mapM_first N _ c0 cs s1 TypeError s1) in E; [injection E as <- _; eauto|]. cbn [o_ampl no_options]. now rewrite (draw_before N muB s1 _ _ c0 y W' V). }
  unfold plot_hyperfine, bind in E. destruct tg as [t|ts]; cbn [tg_list] in *.
  - destruct (subtransitions N muB t s) as [[cs|e] s1] eqn:Es; [exact (H cs s1 (lists_one N muB _ _ _ _ Es))|]. injection E as <- _. eauto.
  - destruct (all_lines N muB ts s) as [[cs|e] s1] eqn:Es; [exact (H cs s1 (all_lists N muB _ _ _ _ Es))|]. injection E as <- _. eauto.
Qed.
Print Assumptions C118_hyperfine_refuted.
Theorem C118_zeeman_refuted : forall N muB orc, (forall n, oracle_ok (orc n)) -> forall s, reachable N muB orc s ->
  forall tg curves s', plot_zeeman_default N muB tg s = (Ok curves, s') -> curves = [].
Proof.
  intros N muB orc OK s R tg curves s' E. unfold plot_zeeman_default, plot_zeeman in E. apply bind_done in E. destruct E as [ls [s1 [_ E]]].
  apply bind_done in E. destruct E as [p [s2 [_ E]]]. cbn [plot_transitions] in E. destruct ls as [|t ls]; [cbn in E; unfold ret in E; congruence|].
  exfalso. cbn [mapM] in E. apply bind_done in E. destruct E as [c [s3 [E _]]]. unfold draw in E.
  apply bind_done in E. destruct E as [x [s4 [_ E]]]. apply bind_done in E. destruct E as [f [s5 [_ E]]]. apply bind_done in E. destruct E as [a [s6 [_ E]]].
  discriminate E.
Qed.
Print Assumptions C118_zeeman_refuted.
Example C118_case : fst (plot_hyperfine_default Exact 1%Qc (One 0) (rated 1 os_two)) = Raise TypeError /\
  fst (plot_zeeman_default Exact 1%Qc (One 0) (rated 1 os_two)) = Raise TypeError.
Proof. vm_compute. auto. Qed.

(** ** C119: plot_spectrum *)

(** Fine-structure transitions in a list: any colouring. *)
Theorem C119_list_partial : forall N muB orc, (forall n, oracle_ok (orc n)) -> forall s, reachable N muB orc s ->
  forall ts c, ts <> [] -> (forall t, In t ts -> exists x, tr s t = Some x /\ x_kind x = TT) ->
  exists curves, plot_spectrum N muB (Many ts) (Some ShapeObj) c (no_options N) s = (Ok curves, s) /\ map c_line curves = ts /\
  forall k, In k curves -> exists y e1 e2, tr s (c_line k) = Some y /\ c_ampl k = x_rel y /\
    energy N muB s (x_E1 y) = Some e1 /\ energy N muB s (x_E2 y) = Some e2 /\ c_freq k = nabs N (nsub N e1 e2).
Proof.
  intros N muB orc OK s R ts c Ne K. pose proof (reachable_WF N muB orc OK s R) as W. destruct ts as [|t0 ts]; [congruence|].
  destruct (K t0 (or_introl eq_refl)) as [x0 [V0 K0]]. unfold plot_spectrum, choose_shape, get_tr, bind, asks, ret. rewrite V0, K0. cbn [plot_transitions o_ampl no_options].
  destruct (draws N muB s PFun (t0 :: ts) W) as [r [E F]]; [auto|apply Forall_forall; intros t I; destruct (K t I) as [y [-> _]]; discriminate|].
  exists r. split; auto. split; [exact (drawn_lines _ _ _ _ _ _ F)|].
  intros k I. destruct (Forall2_in_r _ _ _ F k I) as [t [It D]]. destruct D as [<- [y [lo [up [e1 [e2 [H1 [H2 [H3 [H4 [H5 [H6 [H7 H8]]]]]]]]]]]]].
  exists y, e1, e2. repeat (split; auto).
Qed.
Print Assumptions C119_list_partial.
Example C119_case : match fst (plot_spectrum Exact 1%Qc (Many [0%nat]) (Some ShapeObj) ColNone (no_options Exact) (rated 1 os_two)) with
  | Ok cs => Some (map (fun k => (c_line k, show (@c_freq Exact k), show (@c_ampl Exact k), c_label k)) cs) | Raise _ => None end
  = Some [(0%nat, (10, 1), (1, 1), ("2S1/2", "2P*1/2"))]%Z.
Proof. vm_compute. reflexivity. Qed.
(** One transition given by itself is never drawn, whatever the arguments. *)
Theorem C119_single_refuted : forall N muB orc, (forall n, oracle_ok (orc n)) -> forall s, reachable N muB orc s ->
  forall t sh c o r s', plot_spectrum N muB (One t) sh c o s = (r, s') -> exists e, r = Raise e.
Proof.
  intros N muB orc OK s R t sh c o r s' E. pose proof (reachable_WF N muB orc OK s R) as W. destruct r as [cs|e]; [|eauto]. exfalso.
  unfold plot_spectrum in E. apply bind_done in E. destruct E as [ls [s1 [E1 E]]]. apply bind_done in E. destruct E as [sh' [s2 [E2 E]]].
  destruct ls as [|l0 ls]; [discriminate E|]. destruct (subs_listed N muB s t _ s1 W E1) as [W1 [_ [S _]]].
  destruct (S l0 (or_introl eq_refl)) as [x [y [_ [V [_ [Ky _]]]]]].
  assert (s2 = s1).
  { unfold choose_shape, ret, raise in E2. destruct sh as [sh0|]; [congruence|]. destruct (o_temp N o); try congruence. destruct (o_mass N o); congruence. }
  subst s2. apply bind_done in E. destruct E as [y' [s3 [E3 E]]]. unfold get_tr, asks in E3. rewrite V in E3. injection E3 as <- <-.
  apply bind_done in E. destruct E as [p [s4 [E4 _]]]. rewrite Ky in E4. destruct (x_kind x); discriminate E4.
Qed.
Print Assumptions C119_single_refuted.

(** The functions that draw lines do so only for lists: given one transition,
    [plot_transitions] raises an AttributeError, unless it has no lines. *)
Theorem C119_direct_refuted : forall N muB s t sh p ad cs s', subtransitions N muB t s = (Ok cs, s') ->
  plot_transitions N muB (One t) sh p ad s = (match cs with [] => Ok [] | _ => Raise AttributeError end, s').
Proof. intros N muB s t sh p ad cs s' E. cbn [plot_transitions]. unfold bind. rewrite E. destruct cs; reflexivity. Qed.
Print Assumptions C119_direct_refuted.
Example C119_direct_case : let s := rated 1 os_two in
  match fst (subtransitions Exact 1%Qc 0 s) with Ok (_ :: _) => True | _ => False end /\
  fst (plot_transitions Exact 1%Qc (One 0) ShapeObj PFun None s) = Raise AttributeError.
Proof. vm_compute. auto. Qed.

(** A list of fine-structure transitions without a line shape: at temperature
    zero, and with a mass and a laser linewidth at any other one, every line is
    drawn once.  A temperature without mass, a mass without linewidth and a
    missing temperature (the default) are errors of three kinds. *)
Theorem C118_chosen_partial : forall N muB orc, (forall n, oracle_ok (orc n)) -> forall s, reachable N muB orc s ->
  forall ts c o, ts <> [] -> (forall t, In t ts -> exists x, tr s t = Some x /\ x_kind x = TT) -> o_ampl N o = None ->
  match o_temp N o, o_mass N o, o_linewidth N o with
  | TempZero, _, _ | TempOther, true, true =>
      exists curves, plot_spectrum N muB (Many ts) None c o s = (Ok curves, s) /\ map c_line curves = ts
  | TempOther, false, _ => plot_spectrum N muB (Many ts) None c o s = (Raise AssertionError, s)
  | TempOther, true, false => plot_spectrum N muB (Many ts) None c o s = (Raise ZeroDivisionError, s)
  | TempNone, _, _ => plot_spectrum N muB (Many ts) None c o s = (Raise AttributeError, s)
  end.
Proof.
  intros N muB orc OK s R ts c o Ne K A. pose proof (reachable_WF N muB orc OK s R) as W. destruct ts as [|t0 ts]; [congruence|].
  destruct (K t0 (or_introl eq_refl)) as [x0 [V0 K0]].
  assert (P : forall sh, choose_shape N None o s = (Ok sh, s) ->
    plot_spectrum N muB (Many (t0 :: ts)) None c o s = mapM N (draw N muB sh PFun None) (t0 :: ts) s).
  { intros sh E. unfold plot_spectrum. unfold bind at 1, ret at 1. unfold bind at 1. rewrite E. unfold bind at 1, get_tr, asks. rewrite V0. unfold bind at 1. rewrite K0. unfold ret at 1. cbn [plot_transitions]. now rewrite A. }
  assert (D : forall sh, choose_shape N None o s = (Ok sh, s) -> sh = ShapeObj ->
    exists curves, plot_spectrum N muB (Many (t0 :: ts)) None c o s = (Ok curves, s) /\ map c_line curves = t0 :: ts).
  { intros sh E ->. rewrite (P _ E).
    destruct (draws N muB s PFun (t0 :: ts) W) as [r [Er F]]; [auto|apply Forall_forall; intros t I; destruct (K t I) as [y [-> _]]; discriminate|].
    exists r. split; auto. exact (drawn_lines _ _ _ _ _ _ F). }
  unfold choose_shape in *. destruct (o_temp N o) eqn:T.
  - unfold plot_spectrum, choose_shape, bind, ret. now rewrite T.
  - eapply D; reflexivity.
  - destruct (o_mass N o) eqn:Ms; [|unfold plot_spectrum, choose_shape, bind, ret; now rewrite T, Ms].
    destruct (o_linewidth N o) eqn:Lw; [eapply D; reflexivity|].
    rewrite (P (ShapeFails ZeroDivisionError)) by reflexivity. apply (mapM_first N). now rewrite (draw_before N muB s _ _ t0 x0 W V0).
Qed.
Print Assumptions C118_chosen_partial.
Example C118_chosen_case : let s := rated 1 os_two in
  option_map (@x_kind Exact) (tr s 0) = Some TT /\
  fst (plot_spectrum Exact 1%Qc (Many [0%nat]) None ColNone (no_options Exact) s) = Raise AttributeError /\
  fst (plot_spectrum Exact 1%Qc (Many [0%nat]) None ColNone (mkOptions Exact TempOther true false None) s) = Raise ZeroDivisionError /\
  match fst (plot_spectrum Exact 1%Qc (Many [0%nat]) None ColNone (mkOptions Exact TempOther true true None) s) with Ok [k] => c_line k = 0%nat | _ => False end.
Proof. vm_compute. auto. Qed.

(** ** C120: Zeeman spectra *)

(** The colourings that work: the three named ones and a function. *)
Definition z_colour (c : colouring) : Prop := c = ColStr "l" \/ c = ColStr "u" \/ c = ColStr "transition_type" \/ c = ColFun.
Section Z.
  Context (N : Num) (muB : num N).
  Notation st := (st N).
  Implicit Types s : st.

  Lemma mF_table : forall s ls, WF s -> (forall t, In t ls -> exists y, tr s t = Some y /\ x_kind y = TZ) -> table N (@l_mF N) ls s = (Ok tt, s).
  Proof.
    intros s ls W H. apply table_ok. intros t I. destruct (H t I) as [y [V K]].
    destruct (line_ends N s t y W V) as [lo [up [Vl [Vu [_ [_ [_ [F _]]]]]]]]. exists y, lo, up. destruct F; auto.
  Qed.
  Lemma zeeman_draws : forall s ls c, WF s -> (forall t, In t ls -> exists y, tr s t = Some y /\ x_kind y = TZ) -> z_colour c ->
    exists curves, bind (if col_is c ["l"; "u"; "transition_type"] then bind (table N (@l_mF N) ls) (fun _ => ret (PTable ls)) else ret (match c with ColFun => PFun | _ => PNone end))
      (fun p => plot_transitions N muB (Many ls) ShapeObj p None) s = (Ok curves, s) /\ Forall2 (drawn N muB s (@x_rel N)) ls curves.
  Proof.
    intros s ls c W H C. pose proof (mF_table s ls W H) as T. assert (F : Forall (fun t => tr s t <> None) ls) by (apply Forall_forall; intros t I; destruct (H t I) as [y [-> _]]; discriminate).
    destruct (draws N muB s (PTable ls) ls W (or_intror eq_refl) F) as [r [E D]]. destruct (draws N muB s PFun ls W (or_introl eq_refl) F) as [r' [E' D']].
    unfold bind, ret. destruct C as [->|[->|[->| ->]]]; cbn [col_is existsb String.eqb Ascii.eqb Bool.eqb orb].
    1-3: exists r; split; [|exact D]; cbn; rewrite T; exact E.
    exists r'. split; [exact E'|exact D'].
  Qed.
  (** What the curve of a Zeeman line shows. *)
  Definition shows s (k : curve N) : Prop := exists y lo up m1 m2 e1 e2, tr s (c_line k) = Some y /\ lv s (x_lo y) = Some lo /\ lv s (x_up y) = Some up /\
    l_mF lo = Some m1 /\ l_mF up = Some m2 /\ c_label k = (mF_key m1, mF_key m2) /\ c_ampl k = x_rel y /\
    energy N muB s (x_E1 y) = Some e1 /\ energy N muB s (x_E2 y) = Some e2 /\ c_freq k = nabs N (nsub N e1 e2).
  Lemma drawn_shows : forall s ls r, WF s -> (forall t, In t ls -> exists y, tr s t = Some y /\ x_kind y = TZ) -> Forall2 (drawn N muB s (@x_rel N)) ls r -> Forall (shows s) r.
  Proof.
    intros s ls r W S F. apply Forall_forall. intros k I. destruct (Forall2_in_r _ _ _ F k I) as [t [It D]].
    destruct D as [<- [y [lo [up [e1 [e2 [H1 [H2 [H3 [H4 [H5 [H6 [H7 H8]]]]]]]]]]]]].
    destruct (S _ It) as [y' [Vy Ky]]. assert (y' = y) by congruence. subst y'.
    destruct (line_ends N s _ y W H1) as [lo' [up' [G1 [G2 [G3 [G4 [_ [G5 _]]]]]]]]. assert (lo' = lo) by congruence. assert (up' = up) by congruence. subst lo' up'.
    destruct (G5 Ky) as [F1 F2]. rewrite Ky in G3, G4. cbn [lk] in G3, G4.
    destruct (l_mF lo) as [m1|] eqn:E1; [|congruence]. destruct (l_mF up) as [m2|] eqn:E2; [|congruence].
    rewrite (lshort_numbers N s _ lo W H2), (lshort_numbers N s _ up W H3), E1, E2 in H8 by congruence.
    exists y, lo, up, m1, m2, e1, e2. repeat (split; auto).
  Qed.
End Z.

(** A hyperfine transition: one curve for each Zeeman line, no label twice. *)
Theorem C120_hyperfine_partial : forall N muB orc, (forall n, oracle_ok (orc n)) -> forall s, reachable N muB orc s ->
  forall t x cs s' c, tr s t = Some x -> x_kind x = THF -> subtransitions N muB t s = (Ok cs, s') -> z_colour c ->
  exists curves, plot_zeeman N muB (One t) (Some ShapeObj) c None s = (Ok curves, s') /\ map c_line curves = cs /\ NoDup (map c_label curves) /\ Forall (shows N muB s') curves.
Proof.
  intros N muB orc OK s R t x cs s' c V K Es C. pose proof (reachable_WF N muB orc OK s R) as W.
  destruct (listed_keys N muB s t cs s' W Es) as [x' [V' [Ec Nd]]].
  destruct (sub_kinds N muB s [t] cs s' THF W (lists_one N muB _ _ _ _ Es)) as [W' S].
  { intros t' [<-|[]]. destruct (subs_listed N muB _ _ _ _ W Es) as [_ [L _]]. destruct (ext_tr _ _ _ (look_ext _ _ _ L) _ _ V) as [x2 [V2 [S2 _]]].
    exists x2. split; auto. congruence. }
  cbn [sub_tkind] in S. destruct (zeeman_draws N muB s' cs c W' S C) as [r [E F]]. exists r. split.
  - unfold plot_zeeman. rewrite (AtomLevels.bind_Ok N _ _ s cs s'); [exact E|]. unfold get_tr, bind, asks. rewrite V, K. exact Es.
  - split; [exact (drawn_lines _ _ _ _ _ _ F)|]. split; [|exact (drawn_shows N muB s' cs r W' S F)]. now rewrite (labels_keys N muB s' t x' cs r W' V' Ec F).
Qed.
Print Assumptions C120_hyperfine_partial.
(** A fine-structure transition: the Zeeman lines of all its hyperfine lines. *)
Theorem C120_whole_partial : forall N muB orc, (forall n, oracle_ok (orc n)) -> forall s, reachable N muB orc s ->
  forall t x hs s1 cs s' c, tr s t = Some x -> x_kind x = TT -> subtransitions N muB t s = (Ok hs, s1) -> lists N muB s1 hs cs s' -> z_colour c ->
  exists curves, plot_zeeman N muB (One t) (Some ShapeObj) c None s = (Ok curves, s') /\ map c_line curves = cs /\ Forall (shows N muB s') curves.
Proof.
  intros N muB orc OK s R t x hs s1 cs s' c V K Eh L C. pose proof (reachable_WF N muB orc OK s R) as W.
  destruct (sub_kinds N muB s [t] hs s1 TT W (lists_one N muB _ _ _ _ Eh)) as [W1 S1].
  { intros t' [<-|[]]. destruct (subs_listed N muB _ _ _ _ W Eh) as [_ [Lo _]]. destruct (ext_tr _ _ _ (look_ext _ _ _ Lo) _ _ V) as [x2 [V2 [S2 _]]].
    exists x2. split; auto. congruence. }
  cbn [sub_tkind] in S1. destruct (lists_ok N muB _ _ _ _ L W1) as [_ [Lo _]].
  destruct (sub_kinds N muB s1 hs cs s' THF W1 L) as [W' S].
  { intros h I. destruct (S1 h I) as [y [Vy Ky]]. destruct (ext_tr _ _ _ (look_ext _ _ _ Lo) _ _ Vy) as [y' [Vy' [Sy _]]]. exists y'. split; auto. congruence. }
  cbn [sub_tkind] in S. destruct (zeeman_draws N muB s' cs c W' S C) as [r [E F]]. exists r. split.
  - unfold plot_zeeman. rewrite (AtomLevels.bind_Ok N _ _ s cs s'); [exact E|]. unfold get_tr, bind, asks. rewrite V, K, Eh. exact (lists_all N muB _ _ _ _ L).
  - split; [exact (drawn_lines _ _ _ _ _ _ F)|exact (drawn_shows N muB s' cs r W' S F)].
Qed.
Print Assumptions C120_whole_partial.
Definition plotted (r : res (list (curve Exact))) : option (list (nat * (string * string))) :=
  match r with Ok cs => Some (map (fun k => (c_line k, c_label k)) cs) | Raise _ => None end.
Example C120_case : let s := split_up 1 os_two in option_map (@x_kind Exact) (tr s 2) = Some THF /\
  plotted (fst (plot_zeeman Exact 1%Qc (One 2) (Some ShapeObj) (ColStr "transition_type") None s)) =
  Some [(5%nat, ("mF=0", "mF=-1")); (6%nat, ("mF=0", "mF=0")); (7%nat, ("mF=0", "mF=1"))].
Proof. vm_compute. auto. Qed.
(** The lines of different hyperfine lines have the same label: the label with F
    and mF is defined but not used. *)
Theorem C120_labels_refuted : exists s, reachable Exact 1%Qc plain s /\ option_map (@x_kind Exact) (tr s 0) = Some TT /\
  exists ks, plotted (fst (plot_zeeman Exact 1%Qc (One 0) (Some ShapeObj) (ColStr "transition_type") None s)) = Some ks /\ ~ NoDup (map snd ks).
Proof.
  exists (rated 1 os_two). split; [apply from_reachable; lia|]. split; [vm_compute; reflexivity|].
  eexists. split; [vm_compute; reflexivity|]. intros H. cbn [map snd] in H.
  repeat match goal with H : NoDup (_ :: _) |- _ => apply NoDup_cons_iff in H; destruct H end.
  repeat match goal with H : ~ In _ _ |- _ => first [exfalso; apply H; cbn; tauto|clear H] end.
Qed.
Print Assumptions C120_labels_refuted.
(** Any other colouring is a TypeError as soon as there is a line. *)
Theorem C120_colouring_refuted : forall N muB orc, (forall n, oracle_ok (orc n)) -> forall s, reachable N muB orc s ->
  forall t x cs s' c, tr s t = Some x -> x_kind x = THF -> subtransitions N muB t s = (Ok cs, s') -> cs <> [] -> ~ z_colour c ->
  plot_zeeman N muB (One t) (Some ShapeObj) c None s = (Raise TypeError, s').
Proof.
  intros N muB orc OK s R t x cs s' c V K Es Ne C. pose proof (reachable_WF N muB orc OK s R) as W.
  destruct (subs_listed N muB _ _ _ _ W Es) as [W' [_ [S _]]].
  assert (Cn : col_is c ["l"; "u"; "transition_type"] = false).
  { destruct c as [|u|]; auto. cbn. destruct (String.eqb_spec u "l") as [->|_]; [exfalso; apply C; red; auto|].
    destruct (String.eqb_spec u "u") as [->|_]; [exfalso; apply C; red; auto|]. destruct (String.eqb_spec u "transition_type") as [->|_]; [exfalso; apply C; red; auto|reflexivity]. }
  destruct cs as [|c0 cs]; [congruence|]. destruct (S c0 (or_introl eq_refl)) as [x' [y [_ [Vy _]]]].
  unfold plot_zeeman. rewrite (AtomLevels.bind_Ok N _ _ s (c0 :: cs) s') by (unfold get_tr, bind, asks; rewrite V, K; exact Es).
  rewrite Cn. unfold bind at 1, ret at 1. cbn [plot_transitions]. apply (mapM_first N). rewrite (draw_before N muB s' _ _ c0 y W' Vy).
  destruct c; try reflexivity. exfalso. apply C. red. auto.
Qed.
Print Assumptions C120_colouring_refuted.
(** A list of fine-structure transitions is accepted by the types but not drawn. *)
Theorem C120_list_refuted : forall N muB orc, (forall n, oracle_ok (orc n)) -> forall s, reachable N muB orc s ->
  forall ts cs s' c sh ad, lists N muB s ts cs s' -> cs <> [] -> (forall t, In t ts -> exists x, tr s' t = Some x /\ x_kind x = TT) ->
  c = ColStr "l" \/ c = ColStr "u" \/ c = ColStr "transition_type" ->
  plot_zeeman N muB (Many ts) sh c ad s = (Raise TypeError, s').
Proof.
  intros N muB orc OK s R ts cs s' c sh ad L Ne K C. pose proof (reachable_WF N muB orc OK s R) as W.
  destruct (sub_kinds N muB _ _ _ _ TT W L K) as [W' S]. cbn [sub_tkind] in S.
  assert (T : table N (@l_mF N) cs s' = (Raise TypeError, s')).
  { destruct cs as [|c0 cs]; [congruence|]. destruct (S c0 (or_introl eq_refl)) as [y [V Ky]]. destruct (line_ends N s' _ y W' V) as [lo [up [Vl [Vu [_ [_ [_ [_ F]]]]]]]].
    destruct (F Ky) as [F1 _]. unfold table. cbn [forM]. unfold bind at 1, get_tr, get_lv, bind, asks. rewrite V, Vl, Vu, F1. reflexivity. }
  unfold plot_zeeman. rewrite (AtomLevels.bind_Ok N _ _ s cs s') by exact (lists_all N muB _ _ _ _ L).
  destruct C as [->|[->| ->]]; unfold bind; cbn; rewrite T; reflexivity.
Qed.
Print Assumptions C120_list_refuted.
(** No line is drawn without a line shape, or with a class as the line shape. *)
Theorem C120_noshape_refuted : forall N muB orc, (forall n, oracle_ok (orc n)) -> forall s, reachable N muB orc s ->
  forall t x cs s' c, tr s t = Some x -> x_kind x = THF -> subtransitions N muB t s = (Ok cs, s') -> cs <> [] ->
  plot_zeeman N muB (One t) None c None s = (Raise AttributeError, s') /\ plot_zeeman N muB (One t) (Some ShapeClass) c None s = (Raise TypeError, s').
Proof.
  intros N muB orc OK s R t x cs s' c V K Es Ne. pose proof (reachable_WF N muB orc OK s R) as W.
  destruct (sub_kinds N muB s [t] cs s' THF W (lists_one N muB _ _ _ _ Es)) as [W' S].
  { intros t' [<-|[]]. destruct (subs_listed N muB _ _ _ _ W Es) as [_ [L _]]. destruct (ext_tr _ _ _ (look_ext _ _ _ L) _ _ V) as [x2 [V2 [S2 _]]].
    exists x2. split; auto. congruence. }
  cbn [sub_tkind] in S. pose proof (mF_table N s' cs W' S) as T.
  destruct cs as [|c0 cs]; [congruence|]. destruct (S c0 (or_introl eq_refl)) as [y [Vy _]].
  assert (P : forall sh, bind (if col_is c ["l"; "u"; "transition_type"] then bind (table N (@l_mF N) (c0 :: cs)) (fun _ => ret (PTable (c0 :: cs))) else ret (match c with ColFun => PFun | _ => PNone end))
      (fun p => plot_transitions N muB (Many (c0 :: cs)) sh p None) s' = plot_transitions N muB (Many (c0 :: cs)) sh (if col_is c ["l"; "u"; "transition_type"] then PTable (c0 :: cs) else match c with ColFun => PFun | _ => PNone end) None s').
  { intros sh. destruct (col_is c ["l"; "u"; "transition_type"]); unfold bind, ret; [|reflexivity]. now rewrite T. }
  unfold plot_zeeman. split; (rewrite (AtomLevels.bind_Ok N _ _ s (c0 :: cs) s'); [rewrite P; cbn [plot_transitions]; apply (mapM_first N); now rewrite (draw_before N muB s' _ _ c0 y W' Vy)|];
    unfold get_tr, bind, asks; rewrite V, K; exact Es).
Qed.
Print Assumptions C120_noshape_refuted.
(** A Zeeman transition has no lines of its own. *)
Theorem C120_line_refuted : forall N muB orc, (forall n, oracle_ok (orc n)) -> forall s, reachable N muB orc s ->
  forall t x sh c ad r s', tr s t = Some x -> x_kind x = TZ -> plot_zeeman N muB (One t) sh c ad s = (r, s') -> exists e, r = Raise e.
Proof.
  intros N muB orc OK s R t x sh c ad r s' V K E. pose proof (reachable_WF N muB orc OK s R) as W. destruct r as [cs|e]; [|eauto]. exfalso.
  unfold plot_zeeman in E. apply bind_done in E. destruct E as [ls [s1 [E1 _]]]. apply bind_done in E1. destruct E1 as [x' [s2 [G E1]]].
  unfold get_tr, asks in G. rewrite V in G. injection G as <- <-. rewrite K in E1.
  destruct (safe_Ok _ _ _ _ _ _ _ (subtransitions_safe N muB s t x W V) E1) as [W1 [L [x' [V' [-> _]]]]].
  unfold subtransitions, lazy_subtransitions in E1. apply bind_done in E1. destruct E1 as [[] [s3 [E1 _]]]. apply bind_done in E1. destruct E1 as [x2 [s4 [G E1]]].
  unfold get_tr, asks in G. rewrite V in G. injection G as <- <-.
  destruct (wf_tsubs _ _ W _ _ V) as [_ S]. destruct (x_subs x) as [|[k c0] d] eqn:X.
  - apply bind_done in E1. destruct E1 as [b1 [s5 [E5 E1]]]. destruct (wf_tr _ _ W _ _ V) as [l1 [l2 [V1 [_ [K1 _]]]]]. rewrite K in K1. cbn [lk] in K1.
    destruct (safe_Ok _ _ _ _ _ _ _ (sublevels_safe N s _ _ W V1) E5) as [W5 [L5 [l1' [V5 [S5 [F5 ->]]]]]].
    assert (Z : l_subs l1' = []).
    { apply (full_LZ N s5 (x_E1 x)); auto. destruct S5 as [S5 _]. congruence. }
    rewrite Z in E1. discriminate E1.
  - destruct (S k c0 (or_introl eq_refl)) as [y [lo [up [_ [_ [_ [Kx _]]]]]]]. congruence.
Qed.
Print Assumptions C120_line_refuted.

(** Transitions of different configurations can have the same label. *)
Theorem C119_labels_refuted : exists s, reachable Exact 1%Qc plain s /\ (forall t, In t [0; 1]%nat -> option_map (@x_kind Exact) (tr s t) = Some TT) /\
  plotted (fst (plot_spectrum Exact 1%Qc (Many [0; 1]%nat) (Some ShapeObj) ColNone (no_options Exact) s)) =
    Some [(0%nat, ("2S1/2", "2P*1/2")); (1%nat, ("2S1/2", "2P*1/2"))].
Proof.
  exists (runx (from 1) (os_two ++ [nl (ex_term "7p" "2P*" 1) 20; add 2; ONewTransition Exact 0 1 None None None; ONewTransition Exact 0 2 None None None])).
  split; [apply from_reachable; lia|]. split; [intros t [<-|[<-|[]]]; vm_compute; reflexivity|vm_compute; reflexivity].
Qed.
Print Assumptions C119_labels_refuted.

(** ** C121: heights *)

(** The transition has an A coefficient and is listed for the first time: the
    height of every curve, times A, is the A coefficient of its line, and the
    heights of an E1 or M1 multiplet add up to 2I + 1. *)
Theorem C121_heights_partial : forall muB orc, (forall n, oracle_ok (orc n)) -> forall s, reachable Exact muB orc s ->
  forall t x v u c curves s', tr s t = Some x -> x_kind x = TT -> x_subs x = [] -> x_A x = Some (v, u) -> c = "l" \/ c = "u" ->
  plot_hyperfine Exact muB (One t) (Some ShapeObj) (ColStr c) (no_options Exact) s = (Ok curves, s') ->
  (forall k, In k curves -> exists y, tr s' (c_line k) = Some y /\ x_A y = Some ((v * c_ampl k)%Qc, u) /\ (0 <= c_ampl k)%Qc) /\
  forall m1 m2 j1 j2, aE1 (x_allowed x) = true \/ aM1 (x_allowed x) = true ->
  lv s' (x_E1 x) = Some m1 -> lv s' (x_E2 x) = Some m2 -> l_J m1 = Some j1 -> l_J m2 = Some j2 -> triangle j1 j2 2 ->
  exists bs1 bs2, sublevels Exact (x_E1 x) s' = (Ok bs1, s') /\ sublevels Exact (x_E2 x) s' = (Ok bs2, s') /\
  (separate muB s' bs1 bs2 -> sums (fun k : curve Exact => c_ampl k) curves = QcZ (s_I s' + 1)).
Proof.
  intros muB orc OK s R t x v u c curves s' V K X A C E. pose proof (reachable_WF Exact muB orc OK s R) as W.
  destruct (subtransitions Exact muB t s) as [[cs|e] s1] eqn:Es; [|unfold plot_hyperfine, bind in E; rewrite Es in E; discriminate E].
  pose proof (lists_one Exact muB _ _ _ _ Es) as L.
  assert (Ne : cs <> []) by (intros ->; rewrite (hyperfine_eq Exact muB s (One t) [] s1 _ _ _ L) in E; discriminate E).
  destruct (C117_lines_partial Exact muB orc OK s R (One t) cs s1 c L Ne) as [r [Er [El D]]]; [|exact C|].
  { intros t' [<-|[]]. destruct (subs_listed Exact muB _ _ _ _ W Es) as [_ [Lo _]]. destruct (ext_tr _ _ _ (look_ext _ _ _ Lo) _ _ V) as [x2 [V2 [S2 _]]].
    exists x2. split; auto. congruence. }
  rewrite Er in E. injection E as <- <-. split.
  - intros k I. destruct (D k I) as [y [lo [up [f1 [f2 [e1 [e2 [Vy [_ [_ [_ [_ [_ [Ha _]]]]]]]]]]]]]]. exists y. split; auto.
    destruct (C38_rate muB orc OK s R t x v u cs s1 V X A Es (c_line k)) as [y' [Vy' [Ay P]]]; [rewrite <- El; now apply in_map|].
    assert (y' = y) by congruence. subst y'. rewrite Ha. auto.
  - intros m1 m2 j1 j2 Dp M1 M2 J1 J2 T. destruct (C36_sum_rule_partial muB orc OK s R t x (v, u) cs s1 m1 m2 j1 j2 V K X A Dp Es M1 M2 J1 J2 T) as [bs1 [bs2 [S1 [S2 H]]]].
    exists bs1, bs2. split; auto. split; auto. intros Sp. destruct (H Sp) as [_ [_ <-]]. rewrite <- El. clear - D.
    induction r as [|k r IH]; [reflexivity|]. cbn [sums fold_right map]. fold (sums (fun k : curve Exact => c_ampl k) r) (sums (rel_strength s1) (map c_line r)).
    rewrite IH by (intros k' I; apply D; now right). f_equal. destruct (D k (or_introl eq_refl)) as [y [lo [up [f1 [f2 [e1 [e2 [Vy [_ [_ [_ [_ [_ [Ha _]]]]]]]]]]]]]].
    unfold rel_strength. now rewrite Vy, Ha.
Qed.
Print Assumptions C121_heights_partial.
(** [C36_case] has the three curves of [C117_case]: 1/2 + 1/2 + 1 = 2I + 1. *)
Example C121_case : let s := rated 1 os_two in option_map (fun x => (x_kind x, x_subs x, x_allowed x)) (tr s 0) = Some (TT, [], (true, false, false)) /\
  match tr s 0 with Some x => match x_A x with Some (v, u) => (show v, u) = ((1, 1)%Z, uHz) | None => False end | None => False end /\
  (let s' := snd (subtransitions Exact 1%Qc 0 s) in apartb s' [2; 3]%nat [4; 5]%nat = true).
Proof. vm_compute. auto. Qed.

(** Without an A coefficient all lines are drawn with the height 1. *)
Theorem C121_unrated_refuted : forall N muB orc, (forall n, oracle_ok (orc n)) -> forall s, reachable N muB orc s ->
  forall t x c curves s', tr s t = Some x -> x_kind x = TT -> x_subs x = [] -> x_A x = None -> c = "l" \/ c = "u" ->
  plot_hyperfine N muB (One t) (Some ShapeObj) (ColStr c) (no_options N) s = (Ok curves, s') -> forall k, In k curves -> c_ampl k = nofQ N 1.
Proof.
  intros N muB orc OK s R t x c curves s' V K X A C E k I. pose proof (reachable_WF N muB orc OK s R) as W.
  destruct (subtransitions N muB t s) as [[cs|e] s1] eqn:Es; [|unfold plot_hyperfine, bind in E; rewrite Es in E; discriminate E].
  pose proof (lists_one N muB _ _ _ _ Es) as L.
  assert (Ne : cs <> []) by (intros ->; rewrite (hyperfine_eq N muB s (One t) [] s1 _ _ _ L) in E; discriminate E).
  destruct (C117_lines_partial N muB orc OK s R (One t) cs s1 c L Ne) as [r [Er [El D]]]; [|exact C|].
  { intros t' [<-|[]]. destruct (subs_listed N muB _ _ _ _ W Es) as [_ [Lo _]]. destruct (ext_tr _ _ _ (look_ext _ _ _ Lo) _ _ V) as [x2 [V2 [S2 _]]].
    exists x2. split; auto. congruence. }
  rewrite Er in E. injection E as <- <-. destruct (D k I) as [y [lo [up [f1 [f2 [e1 [e2 [Vy [_ [_ [_ [_ [_ [Ha _]]]]]]]]]]]]]].
  destruct (listed_exact N muB s t x cs s1 W V ltac:(congruence) X Es) as [bs1 [bs2 [_ [_ [_ [_ [_ [_ [_ [O _]]]]]]]]]].
  destruct (O (c_line k)) as [y' [l1 [l2 [V' [_ [_ [_ [_ [Rl _]]]]]]]]]; [rewrite <- El; now apply in_map|]. assert (y' = y) by congruence. subst y'. now rewrite Ha, Rl, A.
Qed.
Print Assumptions C121_unrated_refuted.
Example C121_unrated_case : let s := runx (from 1) (os_two ++ [ONewTransition Exact 0 1 None None None]) in
  match fst (plot_hyperfine Exact 1%Qc (One 0) (Some ShapeObj) (ColStr "l") (no_options Exact) s) with
  | Ok cs => Some (map (fun k => (show (@c_ampl Exact k), c_label k)) cs)
  | Raise _ => None
  end = Some [((1, 1), ("F=0", "F=1")); ((1, 1), ("F=1", "F=0")); ((1, 1), ("F=1", "F=1"))]%Z.
Proof. vm_compute. auto. Qed.

(** ** Factors given by the user *)

(** Every height is multiplied by the factor given for the names of the levels;
    a line without a factor is a KeyError. *)
Theorem C121_factors : forall N muB orc, (forall n, oracle_ok (orc n)) -> forall s, reachable N muB orc s ->
  forall ts d, (forall t, In t ts -> tr s t <> None) ->
  (exists curves, plot_transitions N muB (Many ts) ShapeObj PFun (Some d) s = (Ok curves, s) /\ map c_line curves = ts /\
     forall k, In k curves -> exists y n1 n2 v, tr s (c_line k) = Some y /\ nm s (x_E1 y) = Some n1 /\ nm s (x_E2 y) = Some n2 /\
       dget (n1, n2) d = Some v /\ c_ampl k = nmul N (x_rel y) v) \/
  (plot_transitions N muB (Many ts) ShapeObj PFun (Some d) s = (Raise KeyError, s) /\
     exists t y n1 n2, In t ts /\ tr s t = Some y /\ nm s (x_E1 y) = Some n1 /\ nm s (x_E2 y) = Some n2 /\ dget (n1, n2) d = None).
Proof.
  intros N muB orc OK s R ts d H. pose proof (reachable_WF N muB orc OK s R) as W. cbn [plot_transitions].
  induction ts as [|t ts IH].
  - left. exists []. repeat split; auto. intros k [].
  - destruct (tr s t) as [y|] eqn:V; [|exfalso; apply (H t); cbn; auto].
    destruct (wf_tr _ _ W _ _ V) as [l1 [l2 [V1 [V2 [_ [_ [Ud _]]]]]]].
    destruct (wf_energy N muB _ _ _ W V1) as [e1 E1]. destruct (wf_energy N muB _ _ _ W V2) as [e2 E2].
    assert (Ends : exists lo up, lv s (x_lo y) = Some lo /\ lv s (x_up y) = Some up) by (destruct Ud as [[-> ->]|[-> ->]]; eauto).
    destruct Ends as [lo [up [Vl Vu]]].
    assert (Fq : freq N muB s t = Some (nabs N (nsub N e1 e2))) by (unfold freq; now rewrite V, E1, E2).
    pose proof (nm_lv _ _ _ _ V1) as N1. pose proof (nm_lv _ _ _ _ V2) as N2.
    assert (Dr : draw N muB ShapeObj PFun (Some d) t s = match dget (lname l1, lname l2) d with
              | Some v => (Ok (mkCurve N t (nabs N (nsub N e1 e2)) (nmul N (x_rel y) v) (lshort lo, lshort up)), s) | None => (Raise KeyError, s) end).
    { unfold draw, tname, get_tr, get_lv, bind, asks, ret. rewrite V, Fq, N1, N2. destruct (dget (lname l1, lname l2) d); [|reflexivity]. rewrite Vl, Vu. reflexivity. }
    cbn [mapM]. unfold bind, ret. rewrite Dr. destruct (dget (lname l1, lname l2) d) as [v|] eqn:G.
    + destruct IH as [[r [Er [El D]]]|[Er [t' [y' [n1 [n2 [I' D]]]]]]]; [intros t' I'; apply H; now right| |].
      * left. rewrite Er. eexists. split; [reflexivity|]. split; [cbn; now rewrite El|]. intros k [<-|I]; [|now apply D].
        exists y, (lname l1), (lname l2), v. auto.
      * right. rewrite Er. split; [reflexivity|]. exists t', y', n1, n2. split; [now right|exact D].
    + right. split; [reflexivity|]. exists t, y, (lname l1), (lname l2). repeat split; auto. now left.
Qed.
Print Assumptions C121_factors.
Example C121_factors_case : let s := rated 1 os_two in
  match fst (plot_transitions Exact 1%Qc (Many [0%nat]) ShapeObj PFun (Some [(("6s 2S1/2", "6p 2P*1/2"), Q2Qc 3)]) s) with
  | Ok cs => Some (map (fun k => show (@c_ampl Exact k)) cs) | Raise _ => None end = Some [(3, 1)]%Z /\
  fst (plot_transitions Exact 1%Qc (Many [0%nat]) ShapeObj PFun (Some []) s) = Raise KeyError.
Proof. vm_compute. auto. Qed.
