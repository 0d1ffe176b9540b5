(** Property C145: the aliases of transitions, over whole histories.  As long
    as no other transition carries the alias, [atom.transitions[alias]] is the
    transition that was given it, whatever else is done to the atom; giving an
    alias changes no other lookup. *)
From Coq Require Import List Bool ZArith QArith Qcanon Lia String Ascii.
From Verif Require Import Base Num PyStr Util UtilProofs Regex Parse Term TermProofs Hyperfine HyperfineProofs Graph GraphProofs Rules Atom
  AtomInv AtomSafe AtomSafe2 AtomSafe3 AtomSafe4 AtomSafe5 AtomSafe6 AtomLevels AtomKeep AtomPaths AtomHist AtomNames AtomExample.
Import ListNotations.

Section TrAlias.
  Context (N : Num) (muB : N) (orc : nat -> oracle) (OK : forall n, oracle_ok (orc n)).
  Notation st := (st N).
  Notation level := (level N).
  Notation trans := (trans N).
  Notation M := (M N).
  Notation energy := (energy N muB).
  Notation step := (step N muB orc).
  Notation run := (run N muB orc).
  Implicit Types (s : st) (l : level) (x y : trans) (a : nat) (t : nat) (o : op N).

  (** No transition but [t] carries the alias. *)
  Definition only al t s : Prop := forall t' x', tr s t' = Some x' -> x_alias x' = Some al -> t' = t.

  (** ** What operations do to a binding *)

  Record holds al t0 s s' : Prop := mk_holds {
    ho_tr : forall t x, tr s t = Some x -> exists x', tr s' t = Some x' /\ x_alias x' = x_alias x;
    ho_al : only al t0 s' -> dget al (s_tal s) = Some t0 -> dget al (s_tal s') = Some t0
  }.
  Lemma holds_same : forall al t0 s s', s_trans s' = s_trans s -> s_tal s' = s_tal s -> holds al t0 s s'.
  Proof. intros al t0 s s' E1 E2. constructor; [intros t x V; exists x; unfold tr in *; rewrite E1; auto|rewrite E2; auto]. Qed.
  Lemma holds_upd : forall al t0 s t f, (forall x, x_alias (f x) = x_alias x) -> holds al t0 s (upd_tr t f s).
  Proof.
    intros al t0 s t f H. constructor; auto. intros t' x V. rewrite tr_upd_tr, V. destruct (Nat.eqb t t'); cbn [option_map]; eauto.
  Qed.

  Lemma holds_carrier : forall al t0, carrier N (holds al t0).
  Proof.
    intros al t0. constructor.
    - constructor; [intros s; now apply holds_same|]. intros s1 s2 s3 A B. constructor.
      + intros t x V. destruct (ho_tr _ _ _ _ A _ _ V) as [x2 [V2 E2]]. destruct (ho_tr _ _ _ _ B _ _ V2) as [x3 [V3 E3]]. exists x3. split; congruence.
      + intros U E. apply (ho_al _ _ _ _ B U). apply (ho_al _ _ _ _ A); auto. intros t x V Ea.
        destruct (ho_tr _ _ _ _ B _ _ V) as [x3 [V3 E3]]. apply (U _ _ V3). congruence.
    - intros s s' W [F _]. constructor; [|rewrite (fr_tal _ _ _ F); auto]. intros t x V. destruct (fr_tr _ _ _ F _ _ V) as [x' [V' E']].
      exists x'. split; auto. now rewrite E'.
    - intros s s' W Mv. apply holds_same; apply Mv.
    - intros s x W O E. pose proof (put_trans_spec _ s x W O E) as P. destruct (put_tr _ _ _ _ P) as [T To].
      constructor; [|rewrite (pu_tal _ _ _ _ P); auto]. intros t y V. exists y. split; auto. rewrite To; auto.
      apply nth_error_Some. unfold tr in V. congruence.
    - intros s t x W V. destruct (tr_joined_spec _ s t x W V) as [_ [_ [_ [T [_ [Ta _]]]]]]. constructor; [|rewrite Ta; auto].
      intros c y Vc. rewrite T, Vc. destruct (Nat.eqb t c); cbn [option_map]; eauto.
    - intros s k t x V Ea. constructor; [intros c y Vc; exists y; auto|]. intros U D. cbn [s_tal set_tal]. rewrite dget_dset.
      destruct (keqb al k) eqn:E; auto. apply String.eqb_eq in E. subst k. f_equal. exact (U _ _ V Ea).
    - intros s t f. now apply holds_upd.
  Qed.

  Lemma step_holds : forall s o al t0, WF s -> only al t0 (step s o) -> dget al (s_tal s) = Some t0 -> dget al (s_tal (step s o)) = Some t0.
  Proof.
    intros s o al t0 W U D. destruct (quiet N o) eqn:Q.
    - assert (H : holds al t0 s (step s o)).
      { apply (quiet_R N muB (holds al t0) (holds_carrier al t0) orc OK s o W Q). intros u v s'. now apply holds_same. }
      exact (ho_al _ _ _ _ H U D).
    - destruct (invalid_unchanged N muB orc s o W) as [V|Eq]; [|now rewrite Eq].
      destruct o; try discriminate; cbn [op_valid] in V.
      + unfold step. cbn [run_op]. unfold void, new_level, bind. destruct ts as [|tm ts']; [exact D|].
        destruct (forallb plain_term (tm :: ts')); exact D.
      + destruct V as [l V]. destruct (step_add N muB orc s a l populate alias W V) as [_ Ad]. now rewrite (ad_tal _ _ _ _ _ _ _ Ad).
      + unfold step. cbn [run_op]. unfold del_level. destruct (g_remove_node key (s_g0 s)); exact D.
      + unfold step. cbn [run_op]. unfold set_alias, bind, modify, get_lv, asks. destruct (lv _ a) as [l'|]; [|exact D].
        destruct (l_attached l'); exact D.
      + exact D.
      + exact D.
      + exact D.
      + exact D.
      + destruct V as [x V]. unfold step in *. cbn [run_op] in *. unfold tr_alias, bind, modify, get_tr, asks in *.
        assert (V1 : tr (upd_tr t (tr_set_alias (Some al0)) s) t = Some (tr_set_alias (Some al0) x)) by (rewrite tr_upd_tr, Nat.eqb_refl, V; reflexivity).
        rewrite V1 in *. destruct (x_attached (tr_set_alias (Some al0) x)); [|exact D]. cbn [snd s_tal set_tal] in *. rewrite dget_dset.
        destruct (keqb al al0) eqn:E; [|exact D]. apply String.eqb_eq in E. subst al0. f_equal. exact (U t _ V1 eq_refl).
      + exact D.
  Qed.

  (** The alias is on no other transition at any moment of the history. *)
  Fixpoint alone al t s (os : list (op N)) : Prop :=
    match os with [] => True | o :: os' => only al t (step s o) /\ alone al t (step s o) os' end.
  Lemma run_holds : forall os s al t0, WF s -> alone al t0 s os -> dget al (s_tal s) = Some t0 -> dget al (s_tal (run s os)) = Some t0.
  Proof.
    induction os as [|o os IH]; intros s al t0 W U D; auto. destruct U as [U1 U2]. rewrite run_cons.
    apply IH; auto; [now apply step_WF|now apply step_holds].
  Qed.

  Lemma bound_found : forall s al t, dget al (s_tal s) = Some t -> transitions_get_str N muB al s = (Ok t, s).
  Proof. intros s al t D. unfold transitions_get_str, bind, gets. cbv beta iota. now rewrite D. Qed.
End TrAlias.

(** ** Lookups do not read the aliases of transitions *)

Section Sim.
  Context (N : Num) (muB : N).
  Notation st := (st N).
  Notation level := (level N).
  Notation trans := (trans N).
  Notation M := (M N).
  Implicit Types (s : st) (l : level) (x y : trans) (a : nat) (t : nat).

  Definition tunal x x' : Prop := x' = tr_set_alias (x_alias x') x.
  Record unt s s' : Prop := mk_unt {
    ut_tr : Forall2 tunal (s_trans s) (s_trans s');
    ut_rest : s' = set_tal (s_tal s') (set_trans (s_trans s') s)
  }.
  Definition simt {A} (Rv : A -> A -> Prop) (m m' : M A) : Prop := forall s s', unt s s' ->
    unt (snd (m s)) (snd (m' s')) /\
    match fst (m s), fst (m' s') with Ok v, Ok v' => Rv v v' | Raise e, Raise e' => e = e' | _, _ => False end.

  Lemma simt_bind {A B} : forall (Rv : A -> A -> Prop) (Rw : B -> B -> Prop) m m' k k', simt Rv m m' ->
    (forall v v', Rv v v' -> simt Rw (k v) (k' v')) -> simt Rw (bind m k) (bind m' k').
  Proof.
    intros Rv Rw m m' k k' H1 H2 s s' U. unfold bind. destruct (H1 s s' U) as [U1 H].
    destruct (m s) as [[v|e] s1], (m' s') as [[v'|e'] s1']; cbn [fst snd] in *; try contradiction.
    - apply H2; auto.
    - subst. auto.
  Qed.
  Lemma simt_eq {A B} : forall (Rw : B -> B -> Prop) (m : M A) k k', simt eq m m -> (forall v, simt Rw (k v) (k' v)) -> simt Rw (bind m k) (bind m k').
  Proof. intros Rw m k k' H1 H2. eapply simt_bind; [exact H1|]. intros v v' <-. apply H2. Qed.
  Lemma simt_ret {A} : forall (Rv : A -> A -> Prop) v v', Rv v v' -> simt Rv (ret v) (ret v').
  Proof. intros Rv v v' H s s' U. simpl. auto. Qed.
  Lemma simt_raise {A} : forall (Rv : A -> A -> Prop) e, simt Rv (raise e) (raise e).
  Proof. intros Rv e s s' U. simpl. auto. Qed.
  Lemma simt_asks {A} : forall (Rv : A -> A -> Prop) e f f', (forall s s', unt s s' ->
    match f s, f' s' with Some v, Some v' => Rv v v' | None, None => True | _, _ => False end) -> simt Rv (asks e f) (asks e f').
  Proof. intros Rv e f f' H s s' U. unfold asks. specialize (H s s' U). destruct (f s), (f' s'); simpl; auto; contradiction. Qed.
  (** Whatever does not read the transitions. *)
  Definition blind {A} (f : st -> A) : Prop := forall d ts s, f (set_tal d (set_trans ts s)) = f s.
  Lemma simt_blind {A} : forall e (f : st -> option A), blind f -> simt eq (asks e f) (asks e f).
  Proof. intros e f H. apply simt_asks. intros s s' U. rewrite (ut_rest _ _ U), H. destruct (f s); auto. Qed.
  Lemma simt_gets {A} : forall (f : st -> A), blind f -> simt eq (gets f) (gets f).
  Proof. intros f H s s' U. unfold gets. simpl. split; auto. now rewrite (ut_rest _ _ U), H. Qed.
  Lemma simt_modify : forall f f', (forall s s', unt s s' -> unt (f s) (f' s')) -> simt eq (modify f) (modify f').
  Proof. intros f f' H s s' U. unfold modify. simpl. auto. Qed.
  Lemma simt_forM {A} : forall (vs : list A) f f', (forall v, simt eq (f v) (f' v)) -> simt eq (forM vs f) (forM vs f').
  Proof.
    intros vs f f' H. induction vs as [|v vs IH]; simpl; [now apply simt_ret|].
    eapply simt_bind; [apply H|]. intros _ _ _. exact IH.
  Qed.

  Lemma ut_get : forall s s' t, unt s s' -> match tr s t, tr s' t with Some x, Some x' => tunal x x' | None, None => True | _, _ => False end.
  Proof.
    intros s s' t U. unfold tr. generalize (ut_tr _ _ U). generalize (s_trans s) (s_trans s'). intros ls ls' F. revert t.
    induction F; intros [|t]; simpl; auto. apply IHF.
  Qed.
  Lemma simt_get_tr : forall t, simt tunal (get_tr t) (get_tr t).
  Proof. intros t. apply simt_asks. intros s s' U. now apply ut_get. Qed.
  Lemma simt_get_lv : forall a, simt eq (get_lv a) (get_lv a).
  Proof. intros a. apply simt_blind. intros d ts s. reflexivity. Qed.
  Lemma simt_pure {A} : forall e (o : option A), simt eq (asks e (fun _ : st => o)) (asks e (fun _ => o)).
  Proof. intros e o. apply simt_blind. intros d ts s. reflexivity. Qed.

  Local Ltac utr U := let E := fresh in pose proof (ut_rest _ _ U) as E; match type of E with ?s' = set_tal _ (set_trans _ ?s) => clear - E; destruct s, s' end;
    unfold set_tal, set_trans in E; cbn in E; injection E; intros; subst; reflexivity.

  Lemma ut_same : forall s s' f, unt s s' -> (forall z, s_trans (f z) = s_trans z) ->
    (forall d ts z, f (set_tal d (set_trans ts z)) = set_tal d (set_trans ts (f z))) -> unt (f s) (f s').
  Proof.
    intros s s' f U H1 H2. constructor; [rewrite !H1; apply U|]. rewrite (ut_rest _ _ U) at 1. rewrite H2, H1. f_equal.
    rewrite (ut_rest _ _ U), H2. reflexivity.
  Qed.
  Lemma ut_upd : forall s s' t f, unt s s' -> (forall x x', tunal x x' -> tunal (f x) (f x')) -> unt (upd_tr t f s) (upd_tr t f s').
  Proof.
    intros s s' t f U H. constructor.
    - cbn. pose proof (ut_tr _ _ U) as F. revert t. induction F; intros [|t]; simpl; auto.
    - utr U.
  Qed.
  Lemma ut_app : forall s s' x, unt s s' -> unt (set_trans (s_trans s ++ [x]) s) (set_trans (s_trans s' ++ [x]) s').
  Proof.
    intros s s' x U. constructor.
    - cbn. apply Forall2_app; [apply U|]. constructor; auto. destruct x; reflexivity.
    - utr U.
  Qed.
  Lemma ut_graph : forall s s' k g, unt s s' -> unt (set_graph k (g (graph_of k s)) s) (set_graph k (g (graph_of k s')) s').
  Proof. intros s s' k g U. constructor; [destruct k; apply U|destruct k; utr U]. Qed.
  Lemma ut_upd_lv : forall s s' a f, unt s s' -> unt (upd_lv a f s) (upd_lv a f s').
  Proof. intros s s' a f U. constructor; [apply U|utr U]. Qed.
  Lemma ut_install : forall s s' a keys new, unt s s' -> unt (install a keys new s) (install a keys new s').
  Proof. intros s s' a keys new U. constructor; [apply U|utr U]. Qed.
  Lemma ut_I : forall s s', unt s s' -> s_I s' = s_I s.
  Proof. intros s s' U. now rewrite (ut_rest _ _ U). Qed.

  Lemma tunal_fields : forall x x', tunal x x' -> x_kind x' = x_kind x /\ x_parent x' = x_parent x /\ x_E1 x' = x_E1 x /\ x_E2 x' = x_E2 x /\
    x_up x' = x_up x /\ x_lo x' = x_lo x /\ x_attached x' = x_attached x /\ x_A x' = x_A x /\ x_rel x' = x_rel x /\ x_allowed x' = x_allowed x /\
    x_subs x' = x_subs x.
  Proof. intros x x' H. rewrite H. repeat split. Qed.

  Lemma simt_populate : forall a, simt eq (populate_sublevels N a) (populate_sublevels N a).
  Proof.
    intros a. unfold populate_sublevels. apply simt_eq; [apply simt_get_lv|]. intros l. destruct (l_kind l).
    - destruct (l_attached l); [|now apply simt_ret]. apply simt_eq; [apply simt_pure|]. intros j.
      apply simt_modify. intros s s' U. rewrite (ut_I _ _ U).
      replace (mkHF N s' a l j) with (mkHF N s a l j) by (rewrite (ut_rest _ _ U); reflexivity). now apply ut_install.
    - apply simt_eq; [apply simt_pure|]. intros p. apply simt_eq; [apply simt_get_lv|]. intros lm.
      apply simt_eq; [apply simt_pure|]. intros j. apply simt_eq; [apply simt_pure|]. intros f.
      apply simt_modify. intros s s' U. replace (mkZ N s' a l lm j f) with (mkZ N s a l lm j f) by (rewrite (ut_rest _ _ U); reflexivity). now apply ut_install.
    - now apply simt_ret.
  Qed.
  Lemma simt_add_node : forall a, simt eq (add_node N a) (add_node N a).
  Proof. intros a. unfold add_node. apply simt_eq; [apply simt_get_lv|]. intros l. apply simt_modify. intros s s' U. now apply ut_graph. Qed.
  Lemma simt_lazy : forall a, simt eq (lazy_sublevels N a) (lazy_sublevels N a).
  Proof.
    intros a. unfold lazy_sublevels. apply simt_eq; [apply simt_get_lv|]. intros l. destruct (l_subs l); [|now apply simt_ret].
    destruct (l_attached l); [|apply simt_raise]. apply simt_eq; [apply simt_populate|]. intros _.
    apply simt_eq; [apply simt_get_lv|]. intros l2. apply simt_forM. apply simt_add_node.
  Qed.
  Lemma simt_sublevels : forall a, simt eq (sublevels N a) (sublevels N a).
  Proof.
    intros a. unfold sublevels. apply simt_eq; [apply simt_lazy|]. intros _. apply simt_eq; [apply simt_get_lv|]. intros l. now apply simt_ret.
  Qed.
  Lemma simt_getitem : forall fuel a key, simt eq (lv_getitem N fuel a key) (lv_getitem N fuel a key).
  Proof.
    induction fuel as [|fuel IH]; intros a key; cbn [lv_getitem]; [apply simt_raise|].
    apply simt_eq; [apply simt_lazy|]. intros _. apply simt_eq; [apply simt_get_lv|]. intros l.
    apply simt_eq; [apply simt_gets; intros d ts s; reflexivity|]. intros i.
    destruct ((i =? 0)%Z && contains "mJ" key); [|apply simt_pure]. apply simt_eq; [apply simt_pure|]. intros b. apply IH.
  Qed.
  Lemma simt_node : forall key, simt eq (node N key) (node N key).
  Proof. intros key. apply simt_blind. intros d ts s. reflexivity. Qed.
  Lemma simt_levels_get : forall key, simt eq (levels_get N key) (levels_get N key).
  Proof.
    intros key. unfold levels_get. apply simt_eq; [apply simt_gets; intros d ts s; reflexivity|]. intros [a|]; [now apply simt_ret|].
    destruct (contains "mF=" key).
    - apply simt_eq; [apply simt_pure|]. intros p. apply simt_eq; [apply simt_node|]. intros b.
      apply simt_eq; [apply simt_getitem|]. intros c. apply simt_getitem.
    - destruct (contains "mJ=" key).
      + apply simt_eq; [apply simt_pure|]. intros p. apply simt_eq; [apply simt_node|]. intros b.
        apply simt_eq; [apply simt_get_lv|]. intros l. apply simt_eq; [apply simt_getitem|]. intros c. apply simt_getitem.
      + destruct (contains "F=" key); [|apply simt_node].
        apply simt_eq; [apply simt_pure|]. intros p. apply simt_eq; [apply simt_node|]. intros b. apply simt_getitem.
  Qed.
  Lemma blind_energy : forall a, blind (fun s => energy N muB s a).
  Proof. intros a d ts s. reflexivity. Qed.
  Lemma blind_order : blind (by_energy N muB).
  Proof.
    intros d ts s. unfold by_energy. change (dvals (node_attrs (s_g0 (set_tal d (set_trans ts s))))) with (dvals (node_attrs (s_g0 s))).
    replace (with_energy N muB (set_tal d (set_trans ts s)) (dvals (node_attrs (s_g0 s)))) with (with_energy N muB s (dvals (node_attrs (s_g0 s)))); [reflexivity|].
    induction (dvals (node_attrs (s_g0 s))) as [|a r IH]; cbn [with_energy]; auto. rewrite IH. reflexivity.
  Qed.
  Lemma simt_key : forall k, simt eq (levels_get_key N muB k) (levels_get_key N muB k).
  Proof.
    intros [k|i]; cbn [levels_get_key]; [apply simt_levels_get|]. unfold levels_get_int. apply simt_eq; [apply simt_blind, blind_order|].
    intros r. apply simt_pure.
  Qed.

  Lemma simt_add_edge : forall t, simt eq (add_edge N t) (add_edge N t).
  Proof.
    intros t. unfold add_edge. eapply simt_bind; [apply simt_get_tr|]. intros x x' H.
    destruct (tunal_fields _ _ H) as [-> [_ [_ [_ [-> [-> _]]]]]].
    apply simt_eq; [apply simt_blind; intros d ts s; reflexivity|]. intros u.
    apply simt_eq; [apply simt_blind; intros d ts s; reflexivity|]. intros v. apply simt_modify. intros s s' U. now apply ut_graph.
  Qed.
  Lemma simt_new_trans : forall k parent e1 e2 f A rel al, simt eq (new_trans N muB k parent e1 e2 f A rel al None) (new_trans N muB k parent e1 e2 f A rel al None).
  Proof.
    intros k parent e1 e2 f A rel al. unfold new_trans. apply simt_eq; [apply simt_get_lv|]. intros l1.
    apply simt_eq; [apply simt_blind, blind_energy|]. intros v1. apply simt_eq; [apply simt_blind, blind_energy|]. intros v2.
    cbv zeta. eapply (simt_bind eq).
    { intros s s' U. unfold gets. cbn [fst snd]. split; auto. now rewrite (Forall2_len _ _ _ (ut_tr _ _ U)). }
    intros t _ <-. apply simt_eq; [apply simt_modify; intros s s' U; now apply ut_app|]. intros _.
    apply simt_eq; [destruct (l_attached l1); [apply simt_add_edge|now apply simt_ret]|]. intros _.
    apply simt_eq; [now apply simt_ret|]. intros _. now apply simt_ret.
  Qed.
  Lemma simt_new_HF : forall t a b, simt eq (new_HF N muB t a b) (new_HF N muB t a b).
  Proof.
    intros t a b. unfold new_HF. eapply simt_bind; [apply simt_get_tr|]. intros x x' H.
    destruct (tunal_fields _ _ H) as [_ [_ [_ [_ [_ [_ [_ [-> [_ [-> _]]]]]]]]]].
    apply simt_eq; [apply simt_get_lv|]. intros l1. apply simt_eq; [apply simt_get_lv|]. intros l2.
    apply simt_eq; [apply simt_gets; intros d ts s; reflexivity|]. intros i.
    do 4 (apply simt_eq; [apply simt_pure|]; intros ?). apply simt_new_trans.
  Qed.
  Lemma simt_new_Z : forall t a b, simt eq (new_Z N muB t a b) (new_Z N muB t a b).
  Proof.
    intros t a b. unfold new_Z. eapply simt_bind; [apply simt_get_tr|]. intros x x' H.
    destruct (tunal_fields _ _ H) as [_ [_ [_ [_ [_ [_ [_ [-> [_ [-> _]]]]]]]]]].
    apply simt_eq; [apply simt_get_lv|]. intros l1. apply simt_eq; [apply simt_get_lv|]. intros l2.
    do 4 (apply simt_eq; [apply simt_pure|]; intros ?). apply simt_new_trans.
  Qed.
  Lemma tunal_subs : forall g x x', tunal x x' -> tunal (tr_set_subs (g (x_subs x)) x) (tr_set_subs (g (x_subs x')) x').
  Proof. intros g x x' H. rewrite H. destruct x; reflexivity. Qed.
  Lemma simt_new_sub : forall t ab, simt eq (new_sub N muB t ab) (new_sub N muB t ab).
  Proof.
    intros t ab. unfold new_sub. eapply simt_bind; [apply simt_get_tr|]. intros x x' H. destruct (tunal_fields _ _ H) as [-> _].
    apply simt_eq; [destruct (x_kind x); [apply simt_new_HF|apply simt_new_Z|apply simt_raise]|]. intros c.
    eapply simt_bind; [apply simt_get_tr|]. intros y y' Hy. destruct (tunal_fields _ _ Hy) as [_ [_ [_ [_ [-> [-> [_ [_ [_ [-> _]]]]]]]]]].
    destruct (any_type (x_allowed y)); [|now apply simt_ret].
    apply simt_eq; [apply simt_get_lv|]. intros lo. apply simt_eq; [apply simt_get_lv|]. intros up.
    apply simt_modify. intros s s' U. apply ut_upd; auto. intros z z' Hz. apply (tunal_subs (dset (lshort lo, lshort up) c)). exact Hz.
  Qed.
  Lemma simt_populate_sub : forall t, simt eq (populate_subtransitions N muB t) (populate_subtransitions N muB t).
  Proof.
    intros t. unfold populate_subtransitions. eapply simt_bind; [apply simt_get_tr|]. intros x x' H.
    assert (Pf : forall s ab, pair_filter N s x' ab = pair_filter N s x ab) by (intros s ab; rewrite H; reflexivity).
    destruct (tunal_fields _ _ H) as [-> [_ [-> [-> _]]]].
    assert (B : simt eq (bind (sublevels N (x_E1 x)) (fun r1 => bind (sublevels N (x_E2 x)) (fun r2 =>
                  bind (gets (fun s => filter (pair_filter N s x) (list_prod r1 r2))) (fun pairs => forM pairs (new_sub N muB t)))))
                (bind (sublevels N (x_E1 x)) (fun r1 => bind (sublevels N (x_E2 x)) (fun r2 =>
                  bind (gets (fun s => filter (pair_filter N s x') (list_prod r1 r2))) (fun pairs => forM pairs (new_sub N muB t)))))).
    { apply simt_eq; [apply simt_sublevels|]. intros r1. apply simt_eq; [apply simt_sublevels|]. intros r2.
      eapply (simt_bind eq).
      - intros s s' U. unfold gets. cbn [fst snd]. split; auto. rewrite (filter_ext _ _ (Pf s')). rewrite (ut_rest _ _ U). reflexivity.
      - intros ps _ <-. apply simt_forM. apply simt_new_sub. }
    destruct (x_kind x); [exact B|exact B|now apply simt_ret].
  Qed.
  Lemma simt_tr_add : forall t, simt eq (tr_add_to_atom N t) (tr_add_to_atom N t).
  Proof.
    intros t. unfold tr_add_to_atom. apply simt_eq.
    { apply simt_modify. intros s s' U. apply ut_upd; auto. intros x x' H. rewrite H. destruct x; reflexivity. }
    intros _. apply simt_eq; [apply simt_add_edge|]. intros _. eapply simt_bind; [apply simt_get_tr|]. intros x x' H.
    destruct (tunal_fields _ _ H) as [_ [_ [_ [_ [_ [_ [_ [_ [_ [_ ->]]]]]]]]]]. destruct (x_subs x); [now apply simt_ret|apply simt_raise].
  Qed.
  Lemma simt_join : forall b t, simt eq (tr_join N b t) (tr_join N b t).
  Proof.
    intros [|] t; unfold tr_join; [apply simt_tr_add|]. apply simt_eq; [|intros _; apply simt_raise].
    apply simt_modify. intros s s' U. apply ut_upd; auto. intros x x' H. rewrite H. destruct x; reflexivity.
  Qed.
  Lemma simt_lazy_sub : forall t, simt eq (lazy_subtransitions N muB t) (lazy_subtransitions N muB t).
  Proof.
    intros t. unfold lazy_subtransitions. eapply simt_bind; [apply simt_get_tr|]. intros x x' H.
    destruct (tunal_fields _ _ H) as [_ [_ [-> [-> [_ [_ [_ [_ [_ [_ ->]]]]]]]]]]. destruct (x_subs x); [|now apply simt_ret].
    apply simt_eq; [apply simt_sublevels|]. intros r1. apply simt_eq; [destruct r1; [apply simt_raise|now apply simt_ret]|]. intros _.
    apply simt_eq; [apply simt_sublevels|]. intros r2. apply simt_eq; [destruct r2; [apply simt_raise|now apply simt_ret]|]. intros _.
    apply simt_eq; [apply simt_populate_sub|]. intros _. eapply simt_bind; [apply simt_get_tr|]. intros y y' Hy.
    destruct (tunal_fields _ _ Hy) as [_ [_ [_ [_ [_ [_ [-> [_ [_ [_ ->]]]]]]]]]]. apply simt_forM. apply simt_join.
  Qed.
  Lemma simt_tr_getitem : forall t k, simt eq (tr_getitem N muB t k) (tr_getitem N muB t k).
  Proof.
    intros t k. unfold tr_getitem. apply simt_eq; [apply simt_lazy_sub|]. intros _. eapply simt_bind; [apply simt_get_tr|]. intros x x' H.
    destruct (tunal_fields _ _ H) as [_ [_ [_ [_ [_ [_ [_ [_ [_ [_ ->]]]]]]]]]]. destruct (dget _ (x_subs x)); [now apply simt_ret|apply simt_pure].
  Qed.
  Lemma simt_edge_at : forall u v, simt eq (edge_at N u v) (edge_at N u v).
  Proof. intros u v. apply simt_blind. intros d ts s. reflexivity. Qed.

  Lemma simt_transitions_get : forall k, simt eq (transitions_get N muB k) (transitions_get N muB k).
  Proof.
    intros k. unfold transitions_get. apply simt_eq; [apply simt_key|]. intros a. apply simt_eq; [apply simt_blind, blind_energy|]. intros ea.
    apply simt_eq; [apply simt_key|]. intros b. apply simt_eq; [apply simt_blind, blind_energy|]. intros eb. cbv zeta.
    destruct (fst k) as [k0|i]; [|apply simt_raise]. destruct (contains "mF=" k0).
    - do 4 (apply simt_eq; [apply simt_pure|]; intros ?). apply simt_eq; [apply simt_edge_at|]. intros t.
      apply simt_eq; [apply simt_tr_getitem|]. intros h. apply simt_tr_getitem.
    - destruct (contains "mJ=" k0).
      + do 4 (apply simt_eq; [apply simt_pure|]; intros ?).
        do 2 (apply simt_eq; [apply simt_node|]; intros ?; apply simt_eq; [apply simt_get_lv|]; intros ?).
        apply simt_eq; [apply simt_edge_at|]. intros t. apply simt_eq; [apply simt_tr_getitem|]. intros h. apply simt_tr_getitem.
      + destruct (contains "F=" k0).
        * do 4 (apply simt_eq; [apply simt_pure|]; intros ?). apply simt_eq; [apply simt_edge_at|]. intros t. apply simt_tr_getitem.
        * destruct (if nltb N eb ea then _ else _); [|apply simt_raise]. destruct (if nltb N eb ea then _ else _); [apply simt_edge_at|apply simt_raise].
  Qed.

  Lemma unt_alias : forall s t al d, unt s (set_tal d (upd_tr t (tr_set_alias al) s)).
  Proof.
    intros s t al d. constructor; [|destruct s; reflexivity]. cbn. generalize (s_trans s). intros ls. revert t.
    induction ls as [|x ls IH]; intros [|t]; simpl; constructor; auto; try (destruct x; reflexivity).
    clear. induction ls as [|y ls IH]; constructor; auto. destruct y; reflexivity.
  Qed.

  Lemma simt_fst {A} : forall (m : M A) s s', simt eq m m -> unt s s' -> fst (m s') = fst (m s).
  Proof. intros m s s' H U. destruct (H s s' U) as [_ H']. destruct (fst (m s)), (fst (m s')); congruence || contradiction. Qed.
  Lemma simt_str : forall s s' k, unt s s' -> dget k (s_tal s') = dget k (s_tal s) ->
    fst (transitions_get_str N muB k s') = fst (transitions_get_str N muB k s).
  Proof.
    intros s s' k U E. unfold transitions_get_str.
    rewrite (bind_Ok _ (gets (fun z : st => dget k (s_tal z))) _ s' _ _ eq_refl), (bind_Ok _ (gets (fun z : st => dget k (s_tal z))) _ s _ _ eq_refl), E.
    destruct (dget k (s_tal s)) as [a|]; [reflexivity|]. apply simt_fst; auto. destruct k as [|c [|d r]].
    - apply simt_raise.
    - apply simt_eq; [apply simt_levels_get|]. intros _. apply simt_raise.
    - apply simt_transitions_get.
  Qed.
End Sim.

(** C145.  [t.alias = al] on a transition of the atom: from then on
    [atom.transitions[al]] is [t], whatever is done, unless another transition
    is given the same alias. *)
Theorem C145_alias_stays : forall N muB orc, (forall n, oracle_ok (orc n)) -> forall s, reachable N muB orc s ->
  forall t x al, tr s t = Some x -> x_attached x = true ->
  exists s', tr_alias N t al s = (Ok tt, s') /\
    forall os, alone N muB orc al t s' os ->
      transitions_get_str N muB al (run N muB orc s' os) = (Ok t, run N muB orc s' os).
Proof.
  intros N muB orc OK s R t x al V A. pose proof (reachable_WF N muB orc OK s R) as W.
  assert (V1 : tr (upd_tr t (tr_set_alias (Some al)) s) t = Some (tr_set_alias (Some al) x)) by (rewrite tr_upd_tr, Nat.eqb_refl, V; reflexivity).
  destruct (WF_upd_tr _ s t (tr_set_alias (Some al)) W) as [W1 _]; [repeat split; auto|].
  destruct (WF_tal _ _ al t _ W1 V1) as [W2 _].
  eexists. split; [unfold tr_alias, bind, modify, get_tr, asks; rewrite V1; change (x_attached (tr_set_alias (Some al) x)) with (x_attached x); rewrite A; reflexivity|].
  intros os U. apply bound_found. apply run_holds; auto. cbn [s_tal set_tal]. apply dget_dset_eq.
Qed.
Print Assumptions C145_alias_stays.

(** Every other lookup gives what it gave before. *)
Theorem C145_other_lookups : forall N muB s t al,
  (forall k, fst (transitions_get N muB k (snd (tr_alias N t al s))) = fst (transitions_get N muB k s)) /\
  (forall k, k <> al -> fst (transitions_get_str N muB k (snd (tr_alias N t al s))) = fst (transitions_get_str N muB k s)) /\
  (forall k, fst (levels_get N k (snd (tr_alias N t al s))) = fst (levels_get N k s)).
Proof.
  intros N muB s t al.
  assert (H : unt N s (snd (tr_alias N t al s)) /\ forall k, k <> al -> dget k (s_tal (snd (tr_alias N t al s))) = dget k (s_tal s)).
  { unfold tr_alias, bind, modify, get_tr, asks.
    assert (U0 : unt N s (upd_tr t (tr_set_alias (Some al)) s)) by (pose proof (unt_alias N s t (Some al) (s_tal s)) as H; destruct s; exact H).
    destruct (tr _ t) as [x|]; cbn [snd]; [|split; auto]. destruct (x_attached x); cbn [snd]; [|split; auto].
    split; [apply unt_alias|]. intros k Hk. cbn [s_tal set_tal]. rewrite dget_dset, keqb_neq; auto. }
  destruct H as [U E]. split; [|split].
  - intros k. apply (simt_fst N); [apply simt_transitions_get|exact U].
  - intros k Hk. apply simt_str; auto.
  - intros k. apply (simt_fst N); [apply simt_levels_get|exact U].
Qed.
Print Assumptions C145_other_lookups.

(** [Transition(E1, E2, alias=al)] *)
Theorem C145_created : forall N muB orc, (forall n, oracle_ok (orc n)) -> forall s, reachable N muB orc s ->
  forall e1 e2 f A al t s', new_transition N muB e1 e2 f A (Some al) s = (Ok t, s') ->
  option_map x_alias (tr s' t) = Some (Some al) /\
  forall os, alone N muB orc al t s' os ->
    transitions_get_str N muB al (run N muB orc s' os) = (Ok t, run N muB orc s' os).
Proof.
  intros N muB orc OK s R e1 e2 f A al t s' E. pose proof (reachable_WF N muB orc OK s R) as W.
  destruct (lv s e1) as [l1|] eqn:V1; [|unfold new_transition, bind, get_lv, asks in E; rewrite V1 in E; discriminate].
  destruct (lv s e2) as [l2|] eqn:V2; [|unfold new_transition, bind, get_lv, asks in E; rewrite V1, V2 in E; discriminate].
  destruct (new_transition_spec _ muB s e1 e2 f A (Some al) l1 l2 W V1 V2) as [S1 S2].
  assert (D : (l_kind l1 = LE /\ l_kind l2 = LE) \/ (l_kind l1 <> LE \/ l_kind l2 <> LE)).
  { destruct (l_kind l1), (l_kind l2); try (right; left; congruence); try (right; right; congruence); auto. }
  destruct D as [[K1 K2]|D]; [|rewrite (S2 D) in E; discriminate].
  destruct (S1 K1 K2) as [x [j1 [j2 [_ [_ [Er [O [Es Eq]]]]]]]]. rewrite Eq in E. destruct (x_attached x); [|discriminate].
  apply pair_equal_spec in E as [Et <-]. injection Et as <-.
  pose proof (put_trans_spec _ s x W O Es) as P. destruct (put_tr _ _ _ _ P) as [T _].
  assert (Ea : x_alias x = Some al).
  { unfold tr_rec in Er. rewrite V1 in Er. destruct (energy N muB s e1); [|discriminate]. destruct (energy N muB s e2); [|discriminate].
    injection Er as <-. reflexivity. }
  split.
  - change (option_map x_alias (tr (put_trans N s x) (List.length (s_trans s))) = Some (Some al)). rewrite T. cbn [option_map]. now rewrite Ea.
  - intros os U. apply bound_found. apply run_holds; auto.
    + destruct (WF_tal _ (put_trans _ s x) al (List.length (s_trans s)) x (pu_wf _ _ _ _ P) T) as [W2 _]. now rewrite (pu_tal _ _ _ _ P) in W2.
    + cbn [s_tal set_tal]. apply dget_dset_eq.
Qed.
Print Assumptions C145_created.

(** [atom.add_transition(...)] registers the transition it returns under the
    alias this transition carries. *)
Theorem C145_added_partial : forall N muB orc, (forall n, oracle_ok (orc n)) -> forall s, reachable N muB orc s ->
  forall sp f A alias t x al s', tspec_ok N s sp -> add_transition N muB orc sp f A alias s = (Ok t, s') ->
  tr s' t = Some x -> x_alias x = Some al ->
  forall os, alone N muB orc al t s' os ->
    transitions_get_str N muB al (run N muB orc s' os) = (Ok t, run N muB orc s' os).
Proof.
  intros N muB orc OK s R sp f A alias t x al s' O E V Ea os U. pose proof (reachable_WF N muB orc OK s R) as W.
  destruct (add_transition_R N muB (still N) (still_carrier N) orc OK s sp f A alias W O) as [W' _].
  { intros u v s1. constructor; auto.
    - constructor; auto; intros i z Vz; exists z; (split; [exact Vz|]); [apply lsame_refl|apply xsame_refl].
    - intros a l l' Vl Vl'. change (lv (add_warn (WDup u v) s1) a) with (lv s1 a) in Vl'. assert (l' = l) by congruence. subst. auto. }
  rewrite E in W'. cbn [snd] in W'. apply bound_found. apply run_holds; auto.
  assert (S : safe ext s (add_transition N muB orc sp f A alias)
                (fun t s' => forall x al, tr s' t = Some x -> x_alias x = Some al -> dget al (s_tal s') = Some t)).
  { pose proof (ext_po N) as epo. unfold add_transition. eapply (safe_bind _ _ epo) with (Q := fun t s' => is_tr s' t).
    { destruct sp as [t0|a b|a b].
      - apply (safe_ret _ _ epo); auto.
      - apply (safe_gets _ _ s). destruct (dmem (a, b) (edge_attrs (s_g0 s))).
        + pose proof (moved_warn N s (WDup a b)) as Mw. pose proof (moved_WF _ _ _ W Mw) as Ww.
          apply (safe_modify _ _ epo); auto; [now apply moved_ext|].
          eapply safe_weaken; [apply look_ext|]. eapply (safe_conseq _); [apply (transitions_get_safe N muB _ (KS a, KS b) Ww)|].
          cbv beta. intros c s1 _ _ [H _]. exact H.
        + eapply (safe_bind_w N ext lookl); [exact epo|intros s1 s2 L; apply look_ext, L|apply levels_get_safe; auto|].
          cbv beta. intros b1 s1 W1 L1 [F1 _].
          eapply (safe_bind_w N ext lookl); [exact epo|intros s2 s3 L; apply look_ext, L|apply levels_get_safe; auto|].
          cbv beta. intros b2 s2 W2 L2 [[lb2 [V2 _]] _].
          destruct (found_look _ _ _ _ (lo_frame _ _ _ (lookl_look _ _ _ L2)) F1) as [lb1 [V1 _]].
          eapply (safe_conseq _); [eapply new_transition_safe; eauto|].
          cbv beta. intros t1 s1' _ _ [_ [_ [x1 [V1' _]]]]. exists x1. auto.
      - destruct O as [[la Va] [lb Vb]]. eapply (safe_conseq _); [eapply new_transition_safe; eauto|].
        cbv beta. intros t1 s1 _ _ [_ [_ [x1 [V1 _]]]]. exists x1. auto. }
    cbv beta. intros t1 s1 W1 X1 [x1 V1].
    eapply (safe_bind _ _ epo); [eapply tr_add_safe; eauto|]. cbv beta. intros [] s2 W2 X2 _.
    destruct (ext_tr _ _ _ X2 _ _ V1) as [x2 [V2 _]]. unfold get_tr. apply (safe_asks _ _ s2 _ _ _ _ _ V2).
    set (G := fun s3 : st N => tr s3 t1 = Some x2 /\ forall b, x_alias x2 = Some b -> dget b (s_tal s3) = Some t1).
    eapply (safe_bind _ _ epo) with (Q := fun _ s3 => G s3).
    { destruct (x_alias x2) as [b|] eqn:Eb; [|apply (safe_ret _ _ epo); auto; split; [exact V2|congruence]].
      destruct (WF_tal _ s2 b t1 x2 W2 V2) as [W3 X3]. apply (safe_modify_last _ _); auto. split; [exact V2|].
      intros b' Hb. assert (b' = b) by congruence. subst b'. cbn [s_tal set_tal]. apply dget_dset_eq. }
    intros [] s3 W3 X3 G3.
    eapply (safe_bind _ _ epo) with (Q := fun _ s4 => G s4).
    { destruct (x_set x2); [|apply (safe_ret _ _ epo); auto].
      eapply safe_weaken; [apply moved_ext|]. eapply (safe_conseq _); [apply enforce_safe; auto|].
      cbv beta. intros [] s4 _ Mv _. destruct G3 as [G1 G2]. unfold G, tr. rewrite (mv_trans _ _ _ Mv), (mv_tal _ _ _ Mv). auto. }
    intros [] s4 W4 X4 [G1 G2]. apply (safe_ret _ _ epo); auto. intros x' b Vx Eb. assert (x' = x2) by congruence. subst. auto. }
  destruct S as [_ [_ S]]. rewrite E in S. cbn [fst snd] in S. eauto.
Qed.
Print Assumptions C145_added_partial.

(** But an alias given to [add_transition] is lost when the transition is
    there already, or is given as a Transition. *)
Theorem C145_add_refuted : exists s, reachable Exact 1%Qc plain s /\
  (let r := add_transition Exact 1%Qc plain (TNames "6s 2S1/2" "6p 2P*1/2") None None (Some "D1 line"%string) s in
   fst r = Ok 0%nat /\ option_map x_alias (tr (snd r) 0) = Some None /\ fst (transitions_get_str Exact 1%Qc "D1 line" (snd r)) = Raise KeyError) /\
  (let r := add_transition Exact 1%Qc plain (TObj 0) None None (Some "D1 line"%string) s in
   fst r = Ok 0%nat /\ option_map x_alias (tr (snd r) 0) = Some None /\ fst (transitions_get_str Exact 1%Qc "D1 line" (snd r)) = Raise KeyError).
Proof.
  exists (runx (from 1) (os_two ++ [ONewTransition Exact 0 1 None None None])). split; [apply from_reachable; lia|].
  cbv zeta. split; (split; [vm_compute; reflexivity|]; split; vm_compute; reflexivity).
Qed.
Print Assumptions C145_add_refuted.

Definition onlyb (al : string) (t : nat) (s : st Exact) : bool :=
  forallb (fun i => Nat.eqb i t || match tr s i with Some x => match x_alias x with Some b => negb (String.eqb b al) | None => true end | None => true end)
    (seq 0 (List.length (s_trans s))).
Lemma onlyb_only : forall al t s, onlyb al t s = true -> only Exact al t s.
Proof.
  intros al t s H i x V Ea. unfold onlyb in H. rewrite forallb_forall in H. specialize (H i). rewrite V, Ea, String.eqb_refl in H.
  cbn [negb] in H. rewrite orb_false_r in H. apply Nat.eqb_eq, H. apply in_seq. split; [lia|]. cbn [plus]. apply nth_error_Some. unfold tr in V. congruence.
Qed.

(** Reading lines, naming another transition, adding the first one again and
    deleting one of its levels do not touch its alias; naming another one alike
    does. *)
Example C145_case :
  let s := snd (tr_alias Exact 0 "D1" (runx (from 1) (os_two ++ [ONewTransition Exact 0 1 None None None]))) in
  let os := [OSubtransitions Exact 0; ONewTransition Exact 0 0 None None (Some "rf"%string); OTAlias Exact 0 "ref"; OAddTransition Exact (TObj 0) None None None;
             ODelLevel Exact "6s 2S1/2"; OTAlias Exact 1 "D1"] in
  alone Exact 1%Qc plain "D1" 0 s (firstn 5 os) /\ fst (transitions_get_str Exact 1%Qc "D1" (runx s (firstn 5 os))) = Ok 0%nat /\
  fst (transitions_get_str Exact 1%Qc "D1" (runx s os)) = Ok 1%nat.
Proof.
  cbv zeta. split; [|split; vm_compute; reflexivity]. cbn [firstn alone].
  do 5 (split; [apply onlyb_only; vm_compute; reflexivity|]). exact I.
Qed.
