(** Properties C123-C124: transition tables from files, and tables with
    frequencies. *)
From Coq Require Import List Bool ZArith QArith Qcanon Lia String Ascii Permutation.
From Verif Require Import Base Num PyStr Util UtilProofs Regex Parse Term TermProofs Graph GraphProofs DfsProofs Rules Atom AtomInv
  AtomSafe AtomSafe2 AtomSafe3 AtomSafe5 AtomSafe6 AtomLevels AtomKeep AtomAlias AtomPaths AtomTrans AtomEnforce AtomEnforce2 AtomExample Tables PropTables
  PropEnforce FreqTable.
Import ListNotations.
Local Open Scope string_scope.
Local Open Scope list_scope.

(** ** Enforcing with frequencies that are not quantities *)

Section Raw.
  Context (N : Num) (muB : num N).
  Notation st := (st N).
  Implicit Types (s : st) (t : nat).

  Lemma raw_edge : forall raw u v s t, edge (s_g0 s) u v = Some t ->
    enforce_edge_raw N raw (u, v) s = if existsb (Nat.eqb t) raw then (Raise AttributeError, s) else enforce_edge N (u, v) s.
  Proof.
    intros raw u v s t E. unfold enforce_edge_raw, bind, asks. cbn [fst snd]. rewrite E. now destruct (existsb (Nat.eqb t) raw).
  Qed.

  Lemma raw_edges : forall raw es s, WF s -> (forall u v, In (u, v) es -> In v (set_nbrs s u)) ->
    fine (fst (forM es (enforce_edge_raw N raw) s)) /\ moved s (snd (forM es (enforce_edge_raw N raw) s)) /\
    (forall u v t, In (u, v) es -> edge (s_g0 s) u v = Some t -> In t raw -> fst (forM es (enforce_edge_raw N raw) s) = Raise AttributeError).
  Proof.
    intros raw. induction es as [|[u v] es IH]; intros s W H.
    - split; [now left|]. split; [apply moved_refl|]. intros ? ? ? [].
    - destruct (set_edge_of N s u v W (H u v (or_introl eq_refl))) as [t [x [f [l [h E]]]]].
      cbn [forM]. unfold bind. rewrite (raw_edge raw u v s t) by apply E.
      destruct (existsb (Nat.eqb t) raw) eqn:Er.
      + cbn [fst snd]. split; [now right|]. split; [apply moved_refl|auto].
      + rewrite (enforce_edge_eq N _ _ _ _ _ _ _ _ E).
        pose proof (edge_done_moved N u v x f l h s) as Mv. pose proof (moved_WF _ _ _ W Mv) as W'.
        destruct (IH (edge_done N u v x f l h s) W') as [I1 [I2 I3]].
        { intros u' v' I. rewrite (set_nbrs_moved _ _ _ u' Mv). apply H. now right. }
        split; auto. split; [eapply moved_trans; eauto|].
        intros u' v' t' [I|I] Ed It.
        * injection I as <- <-. rewrite (proj1 E) in Ed. injection Ed as <-.
          assert (existsb (Nat.eqb t) raw = true); [|congruence]. apply existsb_exists. exists t. split; auto. apply Nat.eqb_refl.
        * apply (I3 u' v' t'); auto. now rewrite (mv_g0 _ _ _ Mv).
  Qed.

  (** [t] is a set transition between [w], which has no other, and [o]. *)
  Definition dangling_raw raw s (w o : string) t : Prop :=
    edge (s_g0 s) w o = Some t /\ In t raw /\ In o (set_nbrs s w) /\ (forall v, In v (set_nbrs s w) -> v = o) /\ w <> o.

  Lemma grow_leaf : forall next w o k es vis, grow next [k] es vis -> In w vis -> In o vis -> w <> o ->
    (forall v, In v (next w) -> v = o) -> (forall u, In w (next u) -> u = o) -> In (w, o) es \/ In (o, w) es.
  Proof.
    intros next w o k es vis G Iw Io Nwo L1 L2. destruct (string_dec k w) as [->|Hk].
    - left. inversion G as [V|V u v es0 V' Iu Nv Nx G0]; subst.
      + destruct Io as [E|[]]. congruence.
      + destruct Iu as [<-|[]]. apply L1 in Nx. subst v. now left.
    - right. apply (grow_In _ _ _ _ _ G) in Iw as [[I|[]]|I]; [congruence|]. apply in_map_iff in I as [[z v] [Ev I]]. cbn [snd] in Ev. subst v.
      destruct (grow_edge _ _ _ _ _ _ G I) as [Nx _]. apply L2 in Nx. now subst z.
  Qed.

  Lemma lowest_some : forall s ns cur, lowest N muB s ns cur = Some None -> cur = None /\ ns = [].
  Proof.
    intros s. induction ns as [|n ns IH]; intros cur E; cbn [lowest] in E; [injection E as ->; auto|].
    destruct cur as [[[a|] k]|].
    - destruct (match dget n (g_nodes (s_g0 s)) with Some o => o | None => None end) as [b|]; [|discriminate].
      destruct (energy N muB s b), (energy N muB s a); try discriminate. apply IH in E as [E _]. destruct (nltb N _ _); discriminate.
    - apply IH in E as [E _]. discriminate.
    - apply IH in E as [E _]. discriminate.
  Qed.

  Lemma raw_comp : forall raw o s c, oracle_ok o -> WF s -> incl c (set_nodes s) ->
    let r := enforce_comp_raw N muB raw o (S (List.length (set_nodes s))) c s in
    fine (fst r) /\ moved s (snd r) /\
    ((exists n, In n c /\ forall z, In z c <-> reach (set_nbrs s) n z) ->
     forall w v t, dangling_raw raw s w v t -> In w c -> fst r = Raise AttributeError).
  Proof.
    intros raw o s c O W Ic r. subst r. unfold enforce_comp_raw, bind, asks.
    destruct (lowest N muB s (o_nodes o c) None) as [[[a k]|]|] eqn:E.
    - assert (Ikc : In k c).
      { apply lowest_In in E as [I|[? E]]; [|discriminate]. eapply perm_incl; [apply (ok_nodes _ O)|exact I]. }
      destruct (dfs_set N o s k O W (Ic _ Ikc)) as [es [vis [_ [Ed [G [Rv He]]]]]]. rewrite Ed.
      destruct (raw_edges raw es s W He) as [H1 [H2 H3]]. split; auto. split; auto.
      intros [n [In_ Hr]] w v t [Ew [It [Iv [Lf Nwv]]]] Iwc.
      assert (Sy : forall u z, In z (set_nbrs s u) -> In u (set_nbrs s z)) by (intros; now apply set_nbrs_sym).
      assert (Rk : forall z, In z c -> reach (set_nbrs s) k z).
      { intros z Iz. apply Hr in Iz. apply Hr in Ikc. eapply reach_trans; [apply reach_sym; [exact Sy|exact Ikc]|exact Iz]. }
      assert (Ivc : In v c) by (apply Hr; eapply reach_step; [apply Hr; exact Iwc|exact Iv]).
      destruct (grow_leaf _ w v k es vis G) as [P|P]; auto.
      + apply Rv. auto.
      + apply Rv. auto.
      + intros z I. apply Lf. eapply perm_incl; [apply (ok_nbrs _ O w)|exact I].
      + intros z I. apply Lf. apply Sy. eapply perm_incl; [apply (ok_nbrs _ O z)|exact I].
      + exact (H3 _ _ _ P Ew It).
      + apply (H3 _ _ t P); auto. exact (gw_sym _ (go_wf _ _ _ _ (wf_g _ _ W LE)) _ _ _ Ew).
    - split; [now left|]. split; [apply moved_refl|]. intros _ w v t _ Iwc. exfalso. apply lowest_some in E as [_ E].
      pose proof (ok_nodes _ O c) as P. rewrite E in P. apply Permutation_nil in P. subst c. destruct Iwc.
    - split; [now right|]. split; [apply moved_refl|auto].
  Qed.

  Lemma dangling_moved : forall raw s s' w o t, moved s s' -> dangling_raw raw s w o t -> dangling_raw raw s' w o t.
  Proof. intros raw s s' w o t Mv [H1 [H2 [H3 [H4 H5]]]]. unfold dangling_raw. rewrite (mv_g0 _ _ _ Mv), (set_nbrs_moved _ _ _ w Mv). auto 6. Qed.

  Lemma raw_comps : forall raw o n cs s, oracle_ok o -> WF s -> n = S (List.length (set_nodes s)) ->
    (forall c, In c cs -> incl c (set_nodes s) /\ exists m, In m c /\ forall z, In z c <-> reach (set_nbrs s) m z) ->
    let r := forM cs (enforce_comp_raw N muB raw o n) s in
    fine (fst r) /\ moved s (snd r) /\
    forall w v t c, dangling_raw raw s w v t -> In c cs -> In w c -> fst r = Raise AttributeError.
  Proof.
    intros raw o n cs. induction cs as [|c cs IH]; intros s O W E Hc; cbv zeta.
    - split; [now left|]. split; [apply moved_refl|]. intros ? ? ? ? _ [].
    - cbn [forM]. unfold bind. subst n. destruct (Hc c (or_introl eq_refl)) as [Ic Rc].
      pose proof (raw_comp raw o s c O W Ic) as [F [Mv K]].
      destruct (enforce_comp_raw N muB raw o (S (List.length (set_nodes s))) c s) as [r s1]. cbn [fst snd] in *. destruct r as [[]|e].
      + pose proof (moved_WF _ _ _ W Mv) as W1. destruct (IH s1 O W1) as [F2 [M2 K2]].
        * now rewrite (set_nodes_moved _ _ _ Mv).
        * intros c' I. destruct (Hc c' (or_intror I)) as [I1 [m [I2 I3]]]. rewrite (set_nodes_moved _ _ _ Mv). split; auto. exists m. split; auto.
          intros z. rewrite I3. split; apply reach_perm; intros y; rewrite (set_nbrs_moved _ _ _ y Mv); apply incl_refl.
        * split; [exact F2|]. split; [eapply moved_trans; [exact Mv|exact M2]|].
          intros w v t c' D [<-|I] Iw; [specialize (K Rc w v t D Iw); discriminate|]. apply (K2 w v t c'); auto. now apply (dangling_moved raw s).
      + cbn [fst snd]. split; auto. split; auto. intros. destruct F as [F|F]; [discriminate|now injection F as ->].
  Qed.

  Lemma raw_enforce : forall orc raw s w o t, (forall n, oracle_ok (orc n)) -> WF s -> dangling_raw raw s w o t ->
    fst (enforce_raw N muB orc raw s) = Raise AttributeError /\ moved s (snd (enforce_raw N muB orc raw s)).
  Proof.
    intros orc raw s w o t O W D. unfold enforce_raw, bind, gets, modify, asks. cbv beta iota.
    pose proof (moved_tick N s) as Mt. pose proof (moved_WF _ _ _ W Mt) as Wt.
    destruct (comps_spec N (tick s) Wt) as [cs [E [Hc [Cov _]]]]. rewrite E.
    assert (P : Permutation (o_comps (orc (s_tick s)) cs) cs) by apply (ok_comps _ (O (s_tick s))).
    destruct (raw_comps raw (orc (s_tick s)) _ (o_comps (orc (s_tick s)) cs) (tick s) (O _) Wt eq_refl) as [F [Mv K]].
    { intros c I. destruct (Hc c) as [_ ?]; auto. eapply Permutation_in; eauto. }
    pose proof (dangling_moved raw s _ w o t Mt D) as Dt.
    destruct (Cov w) as [c [Ic Iw]]. { apply set_nodes_In; auto. exists o. apply Dt. }
    split; [|eapply moved_trans; [exact Mt|exact Mv]]. apply (K w o t c Dt); auto.
    eapply Permutation_in; [apply Permutation_sym, P|exact Ic].
  Qed.

  (** Without such frequencies it is the enforcement of the atom. *)
  Lemma raw_nil : forall orc s, enforce_raw N muB orc [] s = enforce N muB orc None s.
  Proof.
    intros orc s.
    assert (B : forall A C (m1 m2 : M N A) (k1 k2 : A -> M N C), (forall s0, m1 s0 = m2 s0) -> (forall v s1, k1 v s1 = k2 v s1) -> forall s0, bind m1 k1 s0 = bind m2 k2 s0).
    { intros A C m1 m2 k1 k2 E1 E2 s0. unfold bind. rewrite E1. destruct (m2 s0) as [[]]; auto. }
    assert (Fm : forall A (f g : A -> M N unit) l, (forall x s0, f x s0 = g x s0) -> forall s0, forM l f s0 = forM l g s0).
    { intros A f g l E. induction l as [|x l IH]; intros s0; [reflexivity|]. cbn [forM]. now apply B. }
    unfold enforce_raw, enforce. apply B; auto. intros n s1. apply B; auto. intros _ s2. apply B; auto. intros fuel s3. apply B; auto. intros cs s4.
    apply Fm. intros c s5. unfold gets, touched. change (enforce_comp_raw N muB [] (orc n) fuel c s5 = enforce_comp N muB (orc n) fuel c s5).
    unfold enforce_comp_raw, enforce_comp. apply B; auto. intros [[a k]|] s6; auto. apply B; auto. intros es s7. apply Fm. intros [u v] s8.
    destruct (edge (s_g0 s8) u v) as [t|] eqn:Ed; [now rewrite (raw_edge [] u v s8 t) by auto|].
    unfold enforce_edge_raw, enforce_edge, bind, asks. cbn [fst snd]. now rewrite Ed.
  Qed.

  (** One row whose two levels are in the atom: the transition is made and
      joined, then the frequencies are enforced if the row has one. *)
  Lemma one_frow : forall orc raw r f s kl ku a b, WF s -> usable N s r -> row_ends N s r = Some (kl, ku, a, b) ->
    exists x, let s1 := put_trans N s x in
    let raw' := if is_raw N f then List.length (s_trans s) :: raw else raw in
    new_transition N muB a b (given N f) (xr_A N r) None s = (Ok (List.length (s_trans s)), s1) /\
    tr_add_to_atom N (List.length (s_trans s)) s1 = (Ok tt, s1) /\
    load_frow N muB orc raw (r, f) s =
      match given N f with
      | None => (Ok raw', s1)
      | Some _ => (match fst (enforce_raw N muB orc raw' s1) with Ok _ => Ok raw' | Raise KeyError => Ok raw | Raise e => Raise e end,
                   snd (enforce_raw N muB orc raw' s1))
      end /\
    WF s1 /\ tr s1 (List.length (s_trans s)) = Some x /\ x_set x = given N f /\ x_alias x = None /\ s_trans s1 = s_trans s ++ [x] /\ s_levels s1 = s_levels s /\
    (forall u v, edge (s_g0 s1) u v =
       if (String.eqb u kl && String.eqb v ku) || (String.eqb u ku && String.eqb v kl) then Some (List.length (s_trans s)) else edge (s_g0 s) u v).
  Proof.
    intros orc raw r f s kl ku a b W [kl0 [ku0 [K [Hl [Hu [Al Au]]]]]] Er. unfold row_ends in Er. rewrite K in Er.
    destruct (dget kl0 (node_attrs (s_g0 s))) as [a0|] eqn:Da; [|discriminate]. destruct (dget ku0 (node_attrs (s_g0 s))) as [b0|] eqn:Db; [|discriminate].
    injection Er as -> -> -> ->.
    unfold row_keys in K. destruct (j_label (xr_jl N r)) as [jl|] eqn:Jl; [|discriminate]. destruct (j_label (xr_ju N r)) as [ju|] eqn:Ju; [|discriminate]. injection K as Kl Ku.
    assert (Gl : levels_get N kl s = (Ok a, s)) by (rewrite get_plain by auto; now rewrite Da).
    assert (Gu : levels_get N ku s = (Ok b, s)) by (rewrite get_plain by auto; now rewrite Db).
    destruct (node_inv _ _ _ _ W Da) as [la [Va [Ka [Na Aa]]]]. destruct (node_inv _ _ _ _ W Db) as [lb [Vb [Kb [Nb Ab]]]].
    destruct (proj1 (new_transition_spec N muB s a b (given N f) (xr_A N r) None la lb W Va Vb) Ka Kb) as [x [ja [jb [Ja [Jb [R [St [Su Eq]]]]]]]].
    unfold tr_rec in R. rewrite Va in R. destruct (energy N muB s a) as [ea|] eqn:Ea; [|discriminate]. destruct (energy N muB s b) as [eb|] eqn:Eb; [|discriminate].
    rewrite Aa in R. injection R as R. exists x. cbv zeta.
    pose proof (put_trans_spec N s x W St Su) as P.
    assert (Xa : x_attached x = true) by (now rewrite <- R). assert (Xk : x_kind x = TT) by (now rewrite <- R).
    assert (Xs : x_set x = given N f) by (now rewrite <- R). assert (Xl : x_alias x = None) by (now rewrite <- R).
    set (u := if nltb N ea eb then kl else ku). set (v := if nltb N ea eb then ku else kl).
    assert (Nu : nm s (x_lo x) = Some u) by (unfold u; rewrite <- R; cbn [x_lo]; unfold nm; destruct (nltb N ea eb); [rewrite Va|rewrite Vb]; cbn; congruence).
    assert (Nv : nm s (x_up x) = Some v) by (unfold v; rewrite <- R; cbn [x_up]; unfold nm; destruct (nltb N ea eb); [rewrite Vb|rewrite Va]; cbn; congruence).
    assert (G0 : s_g0 (put_trans N s x) = g_add_edge u v (List.length (s_trans s)) (s_g0 s)).
    { unfold put_trans. rewrite Xa. unfold put_edge. change (nm (set_trans (s_trans s ++ [x]) s) (x_lo x)) with (nm s (x_lo x)).
      change (nm (set_trans (s_trans s ++ [x]) s) (x_up x)) with (nm s (x_up x)). rewrite Nu, Nv, Xk. reflexivity. }
    assert (Wg : graph_wf (s_g0 s)) by apply (wf_g _ _ W LE).
    assert (Ed : forall p q, edge (s_g0 (put_trans N s x)) p q =
      if (String.eqb p kl && String.eqb q ku) || (String.eqb p ku && String.eqb q kl) then Some (List.length (s_trans s)) else edge (s_g0 s) p q).
    { intros p q. rewrite G0, add_edge_edge by auto. unfold u, v. destruct (nltb N ea eb); [reflexivity|]. now rewrite orb_comm. }
    assert (V : tr (put_trans N s x) (List.length (s_trans s)) = Some x).
    { unfold tr. rewrite (pu_tr _ _ _ _ P). rewrite nth_error_app2, Nat.sub_diag by lia. reflexivity. }
    assert (Jo : tr_joined (put_trans N s x) (List.length (s_trans s)) x = put_trans N s x).
    { unfold tr_joined. assert (Ex : tr_set_attached true x = x) by (clear - Xa; destruct x; cbn in Xa; subst; reflexivity). rewrite Ex, (upd_tr_id _ _ _ _ _ V Ex).
      unfold put_edge. assert (N1 : nm (put_trans N s x) (x_lo x) = Some u) by (unfold nm, lv; rewrite (pu_lv _ _ _ _ P); exact Nu).
      assert (N2 : nm (put_trans N s x) (x_up x) = Some v) by (unfold nm, lv; rewrite (pu_lv _ _ _ _ P); exact Nv).
      rewrite N1, N2, add_edge_old; [apply set_graph_id|exact (go_wf _ _ _ _ (wf_g _ _ (pu_wf _ _ _ _ P) _))|].
      rewrite Xk. cbn [lk graph_of]. rewrite G0, add_edge_edge by auto. now rewrite !String.eqb_refl. }
    assert (Ad : tr_add_to_atom N (List.length (s_trans s)) (put_trans N s x) = (Ok tt, put_trans N s x)).
    { rewrite (tr_add_eq _ _ _ _ (pu_wf _ _ _ _ P) V), Jo, Su. reflexivity. }
    split; [exact Eq|]. split; [exact Ad|]. split; [|repeat (split; [first [exact V|exact Xs|exact Xl|apply P]|]); exact Ed].
    change ((xr_cl N r ++ " " ++ xr_tl N r ++ jl)%string = kl) in Kl. change ((xr_cu N r ++ " " ++ xr_tu N r ++ ju)%string = ku) in Ku.
    unfold load_frow. rewrite Jl, Ju, Kl, Ku. unfold bind at 1. rewrite Gl. unfold bind at 1. rewrite Gu. unfold bind at 1. rewrite Eq.
    unfold bind at 1. rewrite Ad. unfold bind at 1. destruct (given N f); [|reflexivity].
    destruct (enforce_raw N muB orc (if is_raw N f then List.length (s_trans s) :: raw else raw) (put_trans N s x)) as [[[]|[]] s']; reflexivity.
  Qed.

  (** A row whose levels are not both in the atom is skipped. *)
  Lemma skip_frow : forall orc raw r f s, usable N s r -> row_ends N s r = None -> load_frow N muB orc raw (r, f) s = (Ok raw, s).
  Proof.
    intros orc raw r f s [kl [ku [K [Hl [Hu [Al Au]]]]]] Er. unfold row_ends in Er. rewrite K in Er.
    unfold row_keys in K. destruct (j_label (xr_jl N r)) as [jl|] eqn:Jl; [|discriminate]. destruct (j_label (xr_ju N r)) as [ju|] eqn:Ju; [|discriminate]. injection K as Kl Ku.
    change ((xr_cl N r ++ " " ++ xr_tl N r ++ jl)%string = kl) in Kl. change ((xr_cu N r ++ " " ++ xr_tu N r ++ ju)%string = ku) in Ku.
    unfold load_frow. rewrite Jl, Ju, Kl, Ku. unfold bind at 1. rewrite (get_plain N s kl) by auto.
    destruct (dget kl (node_attrs (s_g0 s))); [|reflexivity]. unfold bind at 1. rewrite (get_plain N s ku) by auto.
    destruct (dget ku (node_attrs (s_g0 s))); [discriminate|reflexivity].
  Qed.
End Raw.

(** ** C123: reading a table of transitions *)

(** The cells of the column that [cols] names for [k]. *)
Definition holds (file : dict string (list cell)) (cols : dict string string) (k : string) (c : list cell) : Prop :=
  exists name, dget k cols = Some name /\ dget name file = Some c.
(** The same for an optional column with two keys, of which the first wins. *)
Definition chosen (cols : dict string string) (k k' : string) : option string :=
  match dget k cols with Some n => Some n | None => dget k' cols end.
Definition holds_opt (file : dict string (list cell)) (cols : dict string string) (k k' : string) (o : option (list cell)) : Prop :=
  match chosen cols k k' with
  | None => o = None
  | Some name => exists c, dget name file = Some c /\ o = Some c
  end.

Lemma dmem_dget {A} : forall k (d : dict string A), dmem k d = match dget k d with Some _ => true | None => false end.
Proof. intros. reflexivity. Qed.

Lemma synonym_get : forall new old cols k, new <> old -> dget k (synonym new old cols) = if String.eqb k new then chosen cols new old else dget k cols.
Proof.
  intros new old cols k H. unfold synonym, chosen. rewrite !dmem_dget. destruct (dget new cols) as [v|] eqn:En; cbn [negb andb].
  - destruct (String.eqb_spec k new) as [->|]; auto.
  - destruct (dget old cols) as [v|] eqn:Eo; cbn [andb].
    + destruct (String.eqb_spec k new) as [->|Hk]; [apply dget_dset_eq|now apply dget_dset_neq].
    + destruct (String.eqb_spec k new) as [->|]; auto.
Qed.
Lemma used_get : forall cols k, dget k (columns_used cols) =
  if String.eqb k "A" then chosen cols "A" "A_coeff" else if String.eqb k "freq" then chosen cols "freq" "frequency" else dget k cols.
Proof.
  intros cols k. unfold columns_used. rewrite synonym_get by discriminate. unfold chosen at 1. rewrite !synonym_get by discriminate.
  cbn [String.eqb Ascii.eqb Bool.eqb]. reflexivity.
Qed.
Lemma column_holds : forall file cols k c, column file cols k = Ok c <-> holds file cols k c.
Proof.
  intros file cols k c. unfold column, holds. destruct (dget k cols) as [n|]; [|split; [discriminate|intros [n [E _]]; discriminate]].
  destruct (dget n file) as [c'|] eqn:E.
  - split; [intros H; injection H as ->; eauto|]. intros [n' [H1 H2]]. injection H1 as <-. congruence.
  - split; [discriminate|]. intros [n' [H1 H2]]. injection H1 as <-. congruence.
Qed.
Lemma column_used_holds : forall file cols k c, In k ["conf_l"; "term_l"; "j_l"; "conf_u"; "term_u"; "j_u"] ->
  (column file (columns_used cols) k = Ok c <-> holds file cols k c).
Proof.
  intros file cols k c H. rewrite column_holds. unfold holds. rewrite used_get.
  cbn [In] in H. destruct H as [<-|[<-|[<-|[<-|[<-|[<-|[]]]]]]]; reflexivity.
Qed.
Lemma column_cases : forall file cols k, (exists c, column file cols k = Ok c) \/ column file cols k = Raise KeyError.
Proof. intros. unfold column. destruct (dget k cols) as [n|]; auto. destruct (dget n file); eauto. Qed.
Lemma maybe_cases : forall file cols k, (exists c, maybe_column file cols k = Ok c) \/ maybe_column file cols k = Raise KeyError.
Proof.
  intros. unfold maybe_column. destruct (dmem k cols); [|left; eauto]. destruct (column_cases file cols k) as [[c ->]| ->]; cbn [rbind]; eauto.
Qed.
Lemma maybe_holds : forall file cols k k' o, (k = "A" /\ k' = "A_coeff") \/ (k = "freq" /\ k' = "frequency") ->
  (maybe_column file (columns_used cols) k = Ok o <-> holds_opt file cols k k' o).
Proof.
  intros file cols k k' o H. assert (G : dget k (columns_used cols) = chosen cols k k').
  { rewrite used_get. destruct H as [[-> ->]|[-> ->]]; reflexivity. }
  unfold maybe_column, holds_opt, column. rewrite dmem_dget, G. destruct (chosen cols k k') as [n|]; [|split; congruence].
  destruct (dget n file) as [c|]; cbn [rbind]; [|split; [discriminate|intros [c [E _]]; discriminate]].
  split; [intros E; injection E as <-; eauto|]. intros [c' [E ->]]. congruence.
Qed.

(** The table has one row for every line of the file, and each field is the
    cell of the column that [columns] names for it; "freq" and "A" may be
    named by their long forms, and the short form wins when both are given. *)
Theorem C123_rows : forall file n cols cl tl jl cu tu ju f a,
  holds file cols "conf_l" cl -> holds file cols "term_l" tl -> holds file cols "j_l" jl ->
  holds file cols "conf_u" cu -> holds file cols "term_u" tu -> holds file cols "j_u" ju ->
  holds_opt file cols "freq" "frequency" f -> holds_opt file cols "A" "A_coeff" a ->
  exists rows, fst (load_transition_data file n (Some cols)) = Ok rows /\ List.length rows = n /\
  forall i, (i < n)%nat -> exists r, nth_error rows i = Some r /\
    lr_cl r = nth i cl CNaN /\ lr_tl r = nth i tl CNaN /\ lr_jl r = nth i jl CNaN /\
    lr_cu r = nth i cu CNaN /\ lr_tu r = nth i tu CNaN /\ lr_ju r = nth i ju CNaN /\
    lr_f r = option_map (fun c => nth i c CNaN) f /\ lr_A r = option_map (fun c => nth i c CNaN) a.
Proof.
  intros file n cols cl tl jl cu tu ju f a H1 H2 H3 H4 H5 H6 Hf Ha.
  apply column_used_holds in H1, H2, H3, H4, H5, H6; try (cbn [In]; tauto).
  apply maybe_holds in Hf; [|now right]. apply maybe_holds in Ha; [|now left].
  unfold load_transition_data. cbn [fst]. rewrite H1, H2, H3, H4, H5, H6, Hf, Ha. cbn [rbind]. eexists. split; [reflexivity|].
  split; [now rewrite map_length, seq_length|]. intros i Hi. rewrite nth_error_map.
  assert (E : nth_error (seq 0 n) i = Some i). { rewrite (nth_error_nth' _ 0%nat) by (now rewrite seq_length). now rewrite seq_nth. }
  rewrite E. cbn [option_map]. eexists. split; [reflexivity|]. cbn. auto 10.
Qed.

(** Otherwise it is a KeyError, never anything else. *)
Theorem C123_missing : forall file n cols,
  ((exists rows, fst (load_transition_data file n (Some cols)) = Ok rows) <->
   (forall k, In k ["conf_l"; "term_l"; "j_l"; "conf_u"; "term_u"; "j_u"] -> exists c, holds file cols k c) /\
   (exists f, holds_opt file cols "freq" "frequency" f) /\ (exists a, holds_opt file cols "A" "A_coeff" a)) /\
  ((exists rows, fst (load_transition_data file n (Some cols)) = Ok rows) \/ fst (load_transition_data file n (Some cols)) = Raise KeyError).
Proof.
  intros file n cols. split; [split|].
  - intros [rows H]. unfold load_transition_data in H. cbn [fst] in H.
    assert (C : forall A B (m : res A) (k : A -> res B) z, rbind m k = Ok z -> exists y, m = Ok y /\ k y = Ok z) by (intros A B [y|] k z E; [eauto|discriminate]).
    repeat match goal with E : rbind _ _ = Ok _ |- _ => apply C in E as [? [? ?]] end.
    split; [|split].
    + intros k I. cbn [In] in I. destruct I as [<-|[<-|[<-|[<-|[<-|[<-|[]]]]]]]; eexists; apply column_used_holds; eauto; cbn [In]; tauto.
    + eexists. apply maybe_holds; eauto.
    + eexists. apply maybe_holds; eauto.
  - intros [Hk [[f Hf] [a Ha]]].
    destruct (Hk "conf_l") as [cl ?]; [cbn [In]; tauto|]. destruct (Hk "term_l") as [tl ?]; [cbn [In]; tauto|]. destruct (Hk "j_l") as [jl ?]; [cbn [In]; tauto|].
    destruct (Hk "conf_u") as [cu ?]; [cbn [In]; tauto|]. destruct (Hk "term_u") as [tu ?]; [cbn [In]; tauto|]. destruct (Hk "j_u") as [ju ?]; [cbn [In]; tauto|].
    destruct (C123_rows file n cols cl tl jl cu tu ju f a) as [rows [E _]]; auto. eauto.
  - unfold load_transition_data. cbn [fst].
    repeat match goal with |- context [rbind (column ?g ?c ?k) _] => destruct (column_cases g c k) as [[? ->]| ->]; cbn [rbind]; [|now right] end.
    repeat match goal with |- context [rbind (maybe_column ?g ?c ?k) _] => destruct (maybe_cases g c k) as [[? ->]| ->]; cbn [rbind]; [|now right] end.
    left. eauto.
Qed.

(** The default of [columns] is not usable: the file is read and then the
    call fails. *)
Theorem C123_default_refuted : forall file n, fst (load_transition_data file n None) = Raise TypeError.
Proof. reflexivity. Qed.

(** The caller's dictionary is changed: it then has the short forms too.
    Reusing it gives the same table, even after the caller has named another
    column under the long form. *)
Theorem C123_reuse_refuted : forall file n cols cols' name, snd (load_transition_data file n (Some cols)) = Some cols' ->
  dget "freq" cols' = chosen cols "freq" "frequency" /\ dget "A" cols' = chosen cols "A" "A_coeff" /\
  (forall k, k <> "freq" -> k <> "A" -> dget k cols' = dget k cols) /\
  (dget "frequency" cols <> None ->
   fst (load_transition_data file n (Some (dset "frequency" name cols'))) = fst (load_transition_data file n (Some cols))).
Proof.
  intros file n cols cols' name H. cbn [snd load_transition_data] in H. injection H as <-.
  split; [now rewrite used_get|]. split; [now rewrite used_get|]. split.
  { intros k H1 H2. rewrite used_get. apply String.eqb_neq in H1, H2. now rewrite H1, H2. }
  intros Hf. unfold load_transition_data. cbn [fst].
  assert (Fq : dget "freq" (columns_used cols) = chosen cols "freq" "frequency") by now rewrite used_get.
  assert (E : forall k, k <> "frequency" -> dget k (columns_used (dset "frequency" name (columns_used cols))) = dget k (columns_used cols)).
  { intros k Hk. rewrite used_get. unfold chosen. rewrite !(dget_dset_neq "A"), (dget_dset_neq "A_coeff"), (dget_dset_neq "freq"), (dget_dset_neq k) by congruence.
    rewrite Fq. unfold chosen. rewrite !used_get. cbn [String.eqb Ascii.eqb Bool.eqb]. unfold chosen.
    destruct (String.eqb_spec k "A"); [destruct (dget "A" cols), (dget "A_coeff" cols); reflexivity|].
    destruct (String.eqb_spec k "freq"); [|reflexivity]. destruct (dget "freq" cols), (dget "frequency" cols); congruence. }
  assert (C : forall k, k <> "frequency" -> column file (columns_used (dset "frequency" name (columns_used cols))) k = column file (columns_used cols) k).
  { intros k Hk. unfold column. now rewrite E. }
  assert (Mc : forall k, k <> "frequency" -> maybe_column file (columns_used (dset "frequency" name (columns_used cols))) k = maybe_column file (columns_used cols) k).
  { intros k Hk. unfold maybe_column. now rewrite !dmem_dget, E, C. }
  now rewrite !C, !Mc by discriminate.
Qed.
Print Assumptions C123_rows.
Print Assumptions C123_missing.
Print Assumptions C123_reuse_refuted.

Definition file_x : dict string (list cell) :=
  [("Lower", [CStr "6s"; CStr "6s"]); ("LT", [CStr "2S"; CStr "2S"]); ("LJ", [CNum (1 # 2); CNum (1 # 2)]);
   ("Upper", [CStr "6p"; CStr "6p"]); ("UT", [CStr "2P*"; CStr "2P*"]); ("UJ", [CNum (1 # 2); CNum (3 # 2)]);
   ("nu", [CNum 811; CNaN]); ("gamma", [CNum 19; CNum 25])].
Definition columns_x : dict string string :=
  [("conf_l", "Lower"); ("term_l", "LT"); ("j_l", "LJ"); ("conf_u", "Upper"); ("term_u", "UT"); ("j_u", "UJ"); ("frequency", "nu"); ("A_coeff", "gamma")].
Example C123_case :
  holds file_x columns_x "conf_l" [CStr "6s"; CStr "6s"] /\ holds_opt file_x columns_x "freq" "frequency" (Some [CNum 811; CNaN]) /\
  option_map (map lr_f) (match fst (load_transition_data file_x 2 (Some columns_x)) with Ok rows => Some rows | Raise _ => None end) = Some [Some (CNum 811); Some CNaN] /\
  fst (load_transition_data file_x 2 (Some (ddel "j_l" columns_x))) = Raise KeyError /\
  snd (load_transition_data file_x 2 (Some columns_x)) <> Some columns_x /\
  dget "frequency" columns_x <> None.
Proof.
  split; [exists "Lower"; vm_compute; auto|]. split; [vm_compute; eauto|]. split; [reflexivity|]. split; [reflexivity|]. split; vm_compute; discriminate.
Qed.

(** ** C124: tables with frequencies *)

Section Freqs.
  Context (N : Num) (muB : num N) (orc : nat -> oracle) (OK : forall n, oracle_ok (orc n)).
  Implicit Types s : st N.

  (** No transition of the atom at [p] has a set frequency, except perhaps one
      to [q]. *)
  Definition nothing_else s (p q : string) : Prop :=
    forall w t x, edge (s_g0 s) p w = Some t -> tr s t = Some x -> x_set x <> None -> w = q.

  Lemma raw_row : forall s raw r v kl ku a b, WF s -> usable N s r -> row_ends N s r = Some (kl, ku, a, b) ->
    kl <> ku -> nothing_else s kl ku \/ nothing_else s ku kl ->
    exists s', load_frow N muB orc raw (r, FRaw N v) s = (Raise AttributeError, s') /\
      edge (s_g0 s') kl ku = Some (List.length (s_trans s)) /\ edge (s_g0 s') ku kl = Some (List.length (s_trans s)) /\
      List.length (s_trans s') = S (List.length (s_trans s)).
  Proof.
    intros s raw r v kl ku a b W U Er Nk Fr.
    destruct (one_frow N muB orc raw r (FRaw N v) s kl ku a b W U Er) as [x [_ [_ [L [W1 [V [Xs [_ [T1 [L1 Ed]]]]]]]]]].
    set (s1 := put_trans N s x) in *. cbn [is_raw given] in *. rewrite L. clear L. set (t := List.length (s_trans s)) in *.
    assert (Ekl : edge (s_g0 s1) kl ku = Some t) by (rewrite Ed, !String.eqb_refl; reflexivity).
    assert (Eku : edge (s_g0 s1) ku kl = Some t) by (rewrite Ed, !String.eqb_refl, orb_true_r; reflexivity).
    assert (St : is_set s1 t = true) by (unfold is_set; now rewrite V, Xs).
    assert (Q : forall p q, (p = kl /\ q = ku) \/ (p = ku /\ q = kl) -> nothing_else s p q -> dangling_raw N (t :: raw) s1 p q t).
    { intros p q Hpq Nt. assert (Epq : edge (s_g0 s1) p q = Some t) by (destruct Hpq as [[-> ->]|[-> ->]]; auto).
      split; [exact Epq|]. split; [now left|]. split; [apply set_nbrs_In; eauto|]. split; [|destruct Hpq as [[-> ->]|[-> ->]]; congruence].
      intros w I. apply set_nbrs_In in I as [t' [E' S']]; auto. rewrite Ed in E'.
      destruct ((String.eqb p kl && String.eqb w ku) || (String.eqb p ku && String.eqb w kl)) eqn:B.
      - apply orb_true_iff in B as [B|B]; apply andb_true_iff in B as [B1 B2]; apply String.eqb_eq in B1, B2;
          destruct Hpq as [[P1 P2]|[P1 P2]]; congruence.
      - destruct (go_edge _ _ _ _ (wf_g _ _ W LE) _ _ _ E') as [x' [V' _]]. apply (Nt w t' x'); auto.
        assert (V1 : tr s1 t' = Some x') by (unfold tr in *; rewrite T1; rewrite nth_error_app1; auto; apply nth_error_Some; congruence).
        unfold is_set in S'. rewrite V1 in S'. destruct (x_set x'); congruence. }
    assert (D : exists p q, dangling_raw N (t :: raw) s1 p q t) by (destruct Fr as [Fr|Fr]; [exists kl, ku|exists ku, kl]; apply Q; auto).
    destruct D as [p [q D]]. destruct (raw_enforce N muB orc (t :: raw) s1 p q t OK W1 D) as [Ex Mv].
    rewrite Ex. eexists. split; [reflexivity|]. rewrite (mv_g0 _ _ _ Mv). split; [exact Ekl|]. split; [exact Eku|].
    rewrite (mv_trans _ _ _ Mv). now rewrite T1, app_length, Nat.add_1_r.
  Qed.

  (** A row with a number (or NaN) in the frequency cell whose two levels are
      in the atom raises AttributeError, unless both levels are already tied
      down by other frequencies; and the transition stays in the atom. *)
  Theorem C124_number_refuted : forall s raw r v kl ku a b, reachable N muB orc s -> usable N s r -> row_ends N s r = Some (kl, ku, a, b) ->
    kl <> ku -> nothing_else s kl ku \/ nothing_else s ku kl ->
    exists s', load_frow N muB orc raw (r, FRaw N v) s = (Raise AttributeError, s') /\
      edge (s_g0 s') kl ku = Some (List.length (s_trans s)) /\ edge (s_g0 s') ku kl = Some (List.length (s_trans s)) /\
      List.length (s_trans s') = S (List.length (s_trans s)).
  Proof. intros s raw r v kl ku a b R. apply raw_row. exact (reachable_WF N muB orc OK s R). Qed.

  (** Rows without frequencies: as for a table without the column. *)
  Lemma load_none : forall rows s, WF s -> Forall (usable N s) rows ->
    load_frows N muB orc [] (map (fun r => (r, FNone N)) rows) s =
    (match fst (populate_transitions_df N muB orc rows s) with Ok _ => Ok [] | Raise e => Raise e end, snd (populate_transitions_df N muB orc rows s)).
  Proof.
    induction rows as [|r rows IH]; intros s W F; [reflexivity|]. inversion F as [|? ? U F']; subst.
    pose proof (one_trans N muB orc s r W U) as O. unfold populate_transitions_df in *. cbn [map load_frows forM]. unfold bind.
    destruct (row_ends N s r) as [[[[kl ku] a] b]|] eqn:Er.
    - destruct O as [x [Rx [L [_ [W1 [A1 _]]]]]]. rewrite L.
      destruct (one_frow N muB orc [] r (FNone N) s kl ku a b W U Er) as [x' [Nt [_ [L' _]]]]. cbn [given is_raw] in *.
      assert (Ex : put_trans N s x' = put_trans N s x).
      { assert (K : load_trans_row N muB orc r s = (Ok tt, put_trans N s x')); [|congruence].
        pose proof (one_trans N muB orc s r W U) as O2. rewrite Er in O2. destruct O2 as [y [_ [L2 [Ro _]]]]. rewrite L2. f_equal. rewrite <- Ro.
        unfold run. cbn [fold_left]. unfold step. cbn [run_op]. unfold void, bind. rewrite Nt. unfold ret. cbn [snd].
        pose proof (one_frow N muB orc [] r (FNone N) s kl ku a b W U Er) as [x2 [Nt2 [Ad2 [_ [W2 [V2 [Xs2 [Xl2 _]]]]]]]]. cbn [given is_raw] in *.
        assert (E2 : put_trans N s x' = put_trans N s x2) by congruence. rewrite E2.
        unfold add_transition. unfold bind at 1, ret at 1. unfold bind at 1. rewrite Ad2. unfold get_tr. rewrite (bind_asks _ _ _ _ _ x2) by auto.
        rewrite Xl2, Xs2. reflexivity. }
      rewrite L', Ex. apply IH; auto. rewrite Forall_forall in *. intros r' Hr. apply (proj1 (alike_row N muB s _ r' A1)). now apply F'.
    - destruct O as [_ L]. rewrite L, (skip_frow N muB orc [] r (FNone N) s U Er). now apply IH.
  Qed.
  Theorem C124_no_frequency : forall rows s, reachable N muB orc s -> Forall (usable N s) rows ->
    load_frows N muB orc [] (map (fun r => (r, FNone N)) rows) s = (Ok [], snd (populate_transitions_df N muB orc rows s)).
  Proof.
    intros rows s R F. pose proof (reachable_WF N muB orc OK s R) as W. rewrite load_none by auto.
    destruct (C88_loaded N muB orc OK rows s R F) as [s' [E _]]. now rewrite E.
  Qed.

  (** A frequency that is a Quantity: as adding the transition by hand. *)
  Theorem C124_quantity : forall s r f kl ku a b, reachable N muB orc s -> usable N s r -> row_ends N s r = Some (kl, ku, a, b) ->
    load_frow N muB orc [] (r, FQty N f) s =
    (match fst (add_transition N muB orc (TLevels a b) (Some f) (xr_A N r) None s) with Ok _ => Ok [] | Raise KeyError => Ok [] | Raise e => Raise e end,
     snd (add_transition N muB orc (TLevels a b) (Some f) (xr_A N r) None s)).
  Proof.
    intros s r f kl ku a b R U Er. pose proof (reachable_WF N muB orc OK s R) as W.
    destruct (one_frow N muB orc [] r (FQty N f) s kl ku a b W U Er) as [x [Nt [Ad [L [W1 [V [Xs [Xl _]]]]]]]]. cbn [given is_raw] in *.
    assert (E : add_transition N muB orc (TLevels a b) (Some f) (xr_A N r) None s =
      bind (enforce N muB orc None) (fun _ => ret (List.length (s_trans s))) (put_trans N s x)).
    { unfold add_transition. unfold bind at 1. rewrite Nt. unfold bind at 1. rewrite Ad. unfold get_tr. rewrite (bind_asks _ _ _ _ _ x) by auto.
      rewrite Xl, Xs. reflexivity. }
    rewrite L, E, raw_nil. unfold bind, ret. destruct (enforce N muB orc None (put_trans N s x)) as [[[]|[]] s']; reflexivity.
  Qed.

  (** A table read from a file with a frequency column cannot be loaded into
      an atom without set frequencies as soon as one of its rows joins two
      different levels of the atom. *)
  Theorem C124_file_refuted : forall file n cols rows frs s, fst (load_transition_data file n (Some cols)) = Ok rows ->
    chosen cols "freq" "frequency" <> None -> map (frow_of N) rows = map Some frs ->
    reachable N muB orc s -> (forall p q t x, edge (s_g0 s) p q = Some t -> tr s t = Some x -> x_set x = None) ->
    Forall (fun rf => usable N s (fst rf)) frs ->
    (forall rf kl ku a b, In rf frs -> row_ends N s (fst rf) = Some (kl, ku, a, b) -> kl <> ku) ->
    (exists rf, In rf frs /\ row_ends N s (fst rf) <> None) ->
    fst (load_frows N muB orc [] frs s) = Raise AttributeError.
  Proof.
    intros file n cols rows frs s L Hc Ef R Ns U Hd Hx. pose proof (reachable_WF N muB orc OK s R) as W.
    assert (Rw : forall rf, In rf frs -> exists v, snd rf = FRaw N v).
    { intros rf I. assert (I2 : In (Some rf) (map (frow_of N) rows)) by (rewrite Ef; apply in_map_iff; eauto).
      apply in_map_iff in I2 as [lr [El Il]].
      assert (Sf : lr_f lr <> None).
      { unfold load_transition_data in L. cbn [fst] in L.
        assert (C : forall A B (m : res A) (k : A -> res B) z, rbind m k = Ok z -> exists y, m = Ok y /\ k y = Ok z) by (intros A B [y|] k z E; [eauto|discriminate]).
        do 6 (apply C in L as [? [_ L]]). apply C in L as [f [Hf L]]. apply C in L as [? [_ L]]. injection L as <-. apply in_map_iff in Il as [i [<- _]]. cbn [lr_f].
        assert (HO : holds_opt file cols "freq" "frequency" f) by (apply maybe_holds; [now right|exact Hf]).
        unfold holds_opt in HO. destruct (chosen cols "freq" "frequency"); [|congruence]. destruct HO as [c [_ ->]]. discriminate. }
      unfold frow_of in El. destruct (lr_cl lr), (lr_tl lr), (cell_v (lr_jl lr)), (lr_cu lr), (lr_tu lr), (cell_v (lr_ju lr)); try discriminate.
      destruct (lr_f lr); [|congruence]. destruct (lr_A lr) as [[]|]; try discriminate; injection El as <-; eexists; reflexivity. }
    clear Ef L. induction frs as [|[r f] frs IH]; [destruct Hx as [? [[] _]]|]. inversion U as [|? ? U1 U2]; subst. cbn [load_frows].
    destruct (row_ends N s r) as [[[[kl ku] a] b]|] eqn:Er.
    - destruct (Rw (r, f) (or_introl eq_refl)) as [v Ev]. cbn [snd] in Ev. subst f.
      destruct (raw_row s [] r v kl ku a b W U1 Er) as [s' [E _]]; [eapply Hd; [left; reflexivity|exact Er]|left; intros w t x E1 E2 E3; exfalso; eapply E3, Ns; eauto|].
      now rewrite E.
    - rewrite (skip_frow N muB orc [] r f s U1 Er). apply IH; auto.
      + intros rf kl ku a b I. apply Hd. now right.
      + destruct Hx as [rf [[<-|I] H]]; [cbn [fst] in H; congruence|eauto].
      + intros rf I. apply Rw. now right.
  Qed.
  (** A file without a frequency column loads, and a row that is the last one
      between two levels gives their transition the rate of its cell, in MHz. *)
  Theorem C124_rates : forall file n cols rows frs s name col, fst (load_transition_data file n (Some cols)) = Ok rows ->
    chosen cols "freq" "frequency" = None -> chosen cols "A" "A_coeff" = Some name -> dget name file = Some col ->
    map (frow_of N) rows = map Some frs -> reachable N muB orc s -> Forall (fun rf => usable N s (fst rf)) frs ->
    forall i rf q kl ku a b, nth_error frs i = Some rf -> row_ends N s (fst rf) = Some (kl, ku, a, b) -> nth i col CNaN = CNum q ->
    (forall j rf' k1 k2 a' b', (i < j)%nat -> nth_error frs j = Some rf' -> row_ends N s (fst rf') = Some (k1, k2, a', b') -> ~ (k1 = kl /\ k2 = ku) /\ ~ (k1 = ku /\ k2 = kl)) ->
    exists s' t x, load_frows N muB orc [] frs s = (Ok [], s') /\ edge (s_g0 s') kl ku = Some t /\ tr s' t = Some x /\ x_set x = None /\
      x_A x = Some (nmul N (nofQ N q) (nofQ N 1000000), uHz).
  Proof.
    intros file n cols rows frs s name col L Cf Ca Dc Ef R U i rf q kl ku a b Hi Er Hq Hl.
    assert (Hrow : forall k lr, nth_error rows k = Some lr -> lr_f lr = None /\ lr_A lr = Some (nth k col CNaN)).
    { intros k lr Hk. unfold load_transition_data in L. cbn [fst] in L.
      assert (C : forall A B (m : res A) (h : A -> res B) z, rbind m h = Ok z -> exists y, m = Ok y /\ h y = Ok z) by (intros A B [y|] h z E; [eauto|discriminate]).
      do 6 (apply C in L as [? [_ L]]). apply C in L as [f [Hf L]]. apply C in L as [A [HA L]]. injection L as <-.
      assert (HO : holds_opt file cols "freq" "frequency" f) by (apply maybe_holds; [now right|exact Hf]). unfold holds_opt in HO. rewrite Cf in HO. subst f.
      assert (HP : holds_opt file cols "A" "A_coeff" A) by (apply maybe_holds; [now left|exact HA]). unfold holds_opt in HP. rewrite Ca in HP. destruct HP as [c [Ec ->]].
      assert (c = col) by congruence. subst c. rewrite nth_error_map in Hk. destruct (nth_error (seq 0 n) k) as [m|] eqn:Em; [|discriminate]. injection Hk as <-. cbn [lr_f lr_A option_map]. split; auto.
      assert (m = k). { assert (Lt : (k < n)%nat) by (rewrite <- (seq_length n 0); apply nth_error_Some; congruence). rewrite (nth_error_nth' _ 0%nat) in Em by (now rewrite seq_length). rewrite seq_nth in Em by auto. injection Em as <-. lia. }
      subst m. reflexivity. }
    assert (Hfr : forall k rf', nth_error frs k = Some rf' -> exists lr, nth_error rows k = Some lr /\ frow_of N lr = Some rf').
    { intros k rf' Hk. assert (E : nth_error (map (frow_of N) rows) k = Some (Some rf')) by (rewrite Ef, nth_error_map, Hk; reflexivity).
      rewrite nth_error_map in E. destruct (nth_error rows k) as [lr|]; [|discriminate]. injection E as E. eauto. }
    assert (Nf : frs = map (fun r => (r, FNone N)) (map fst frs)).
    { assert (H : forall rf', In rf' frs -> snd rf' = FNone N).
      { intros rf' I. apply In_nth_error in I as [k Hk]. destruct (Hfr k rf' Hk) as [lr [Hr E]]. destruct (Hrow k lr Hr) as [Ff _].
        unfold frow_of in E. rewrite Ff in E. destruct (lr_cl lr), (lr_tl lr), (cell_v (lr_jl lr)), (lr_cu lr), (lr_tu lr), (cell_v (lr_ju lr)), (lr_A lr) as [[]|]; try discriminate; injection E as <-; reflexivity. }
      clear - H. induction frs as [|[r f] frs IH]; auto. cbn [map fst]. rewrite <- IH by (intros; apply H; now right). pose proof (H (r, f) (or_introl eq_refl)) as E. cbn in E. now subst. }
    set (xs := map fst frs). assert (Ux : Forall (usable N s) xs).
    { unfold xs. apply Forall_forall. intros r I. apply in_map_iff in I as [rf' [<- I]]. rewrite Forall_forall in U. auto. }
    assert (Nx : forall k, nth_error xs k = option_map fst (nth_error frs k)) by (intros; apply nth_error_map).
    assert (Hx : nth_error xs i = Some (fst rf)) by (rewrite Nx, Hi; reflexivity).
    destruct (nth_error_split xs i Hx) as [pre [post [Es Lp]]].
    destruct (C88_last N muB orc OK pre (fst rf) post s kl ku a b R) as [s' [t [x [E [E1 [_ [V [_ [_ [_ [Xs Xa]]]]]]]]]]]; auto; [rewrite <- Es; auto| |].
    { intros r' k1 k2 a' b' I Er'. apply In_nth_error in I as [k Hk].
      assert (Hj : nth_error xs (S i + k) = Some r') by (rewrite Es, nth_error_app2 by lia; replace (S i + k - List.length pre)%nat with (S k) by lia; exact Hk).
      rewrite Nx in Hj. destruct (nth_error frs (S i + k)) as [rf'|] eqn:Hf; [|discriminate]. injection Hj as <-. eapply (Hl (S i + k)%nat); eauto. lia. }
    exists s', t, x. split.
    - rewrite Nf. fold xs. rewrite C124_no_frequency by auto. rewrite Es, E. reflexivity.
    - split; auto. split; auto. split; auto. rewrite Xa. destruct (Hfr i rf Hi) as [lr [Hr Elr]]. destruct (Hrow i lr Hr) as [_ FA]. rewrite Hq in FA.
      unfold frow_of in Elr. rewrite FA in Elr. destruct (lr_cl lr), (lr_tl lr), (cell_v (lr_jl lr)), (lr_cu lr), (lr_tu lr), (cell_v (lr_ju lr)); try discriminate; injection Elr as <-; reflexivity.
  Qed.
End Freqs.
Print Assumptions C124_number_refuted.
Print Assumptions C124_no_frequency.
Print Assumptions C124_quantity.
Print Assumptions C124_file_refuted.
Print Assumptions C124_rates.

(** A frequency in a table is honoured when it is a Quantity: the transition
    has it, and so have the others theirs. *)
Theorem C124_honoured : forall muB orc, (forall n, oracle_ok (orc n)) -> forall s, reachable Exact muB orc s -> settled muB s ->
  forall r f kl ku a b l1 l2, usable Exact s r -> row_ends Exact s r = Some (kl, ku, a, b) -> home Exact s a -> home Exact s b ->
  lv s a = Some l1 -> lv s b = Some l2 -> lname l1 <> lname l2 ->
  (forall t g, ~ constraint s (lname l1) (lname l2) t g) -> (0 <= f)%Qc -> free s (lname l1) \/ free s (lname l2) ->
  exists s' t e, load_frow Exact muB orc [] (r, FQty Exact f) s = (Ok [], s') /\ constraint s' (lname l1) (lname l2) t f /\ (e = a \/ e = b) /\ honoured muB orc s s' t e f.
Proof.
  intros muB orc OK s R Se r f kl ku a b l1 l2 U Er H1 H2 V1 V2 Nn Nc Hf Fr.
  destruct (C42_add_transition muB orc OK s R Se a b l1 l2 f (xr_A Exact r) None H1 H2 V1 V2 Nn Nc Hf Fr) as [s' [t [e [le [E [C [He [_ [_ Ho]]]]]]]]].
  exists s', t, e. split; [|auto].
  assert (E' : add_transition Exact muB orc (TLevels a b) (@Some (num Exact) f) (xr_A Exact r) None s = (Ok t, s')) by exact E.
  refine (eq_trans (C124_quantity Exact muB orc OK s r f kl ku a b R U Er) _). rewrite E'. reflexivity.
Qed.
Print Assumptions C124_honoured.

Definition row_x : xrow Exact := mkXrow Exact "6s" "2S" (VNum (1 # 2)) "6p" "2P*" (VNum (1 # 2)) None.
Lemma row_x_usable : usable Exact (two 1) row_x.
Proof. exists "6s 2S1/2", "6p 2P*1/2". vm_compute. repeat match goal with |- _ /\ _ => split end; reflexivity. Qed.
Lemma two_unset : forall p q t x, edge (s_g0 (two 1)) p q = Some t -> tr (two 1) t = Some x -> x_set x = None.
Proof.
  intros p q t x _ V. assert (E : forallb (fun y : trans Exact => match x_set y with None => true | Some _ => false end) (s_trans (two 1)) = true) by (vm_compute; reflexivity).
  rewrite forallb_forall in E. unfold tr in V. apply nth_error_In in V. specialize (E x V). destruct (x_set x); congruence.
Qed.
Example C124_case : reachable Exact 1%Qc plain (two 1) /\ usable Exact (two 1) row_x /\
  option_map (fun e => (fst (fst (fst e)), snd (fst (fst e)))) (row_ends Exact (two 1) row_x) = Some ("6s 2S1/2", "6p 2P*1/2") /\
  nothing_else Exact (two 1) "6s 2S1/2" "6p 2P*1/2" /\
  fst (load_frows Exact 1%Qc plain [] [(row_x, FRaw Exact (Q2Qc 5))] (two 1)) = Raise AttributeError /\
  fst (load_frows Exact 1%Qc plain [] [(row_x, FQty Exact (Q2Qc 5))] (two 1)) = Ok [] /\
  fst (load_frows Exact 1%Qc plain [] [(row_x, FNone Exact)] (two 1)) = Ok [].
Proof.
  split; [apply two_reachable; lia|]. split; [exact row_x_usable|]. split; [vm_compute; reflexivity|].
  split; [intros w t x E V Nx; exfalso; apply Nx; exact (two_unset _ _ _ _ E V)|]. vm_compute. repeat match goal with |- _ /\ _ => split end; reflexivity.
Qed.
Example C124_file_case :
  (exists rows frs, fst (load_transition_data file_x 2 (Some columns_x)) = Ok rows /\ map (frow_of Exact) rows = map Some frs /\ List.length frs = 2%nat /\
    Forall (fun rf => usable Exact (two 1) (fst rf)) frs /\
    map (fun rf => match row_ends Exact (two 1) (fst rf) with Some _ => true | None => false end) frs = [true; false]) /\
  chosen columns_x "freq" "frequency" <> None.
Proof.
  split; [|discriminate]. eexists. eexists [(mkXrow Exact "6s" "2S" (VNum (1 # 2)) "6p" "2P*" (VNum (1 # 2)) (Some (nofQ Exact 19, uMHz)), FRaw Exact (nofQ Exact 0));
    (mkXrow Exact "6s" "2S" (VNum (1 # 2)) "6p" "2P*" (VNum (3 # 2)) (Some (nofQ Exact 25, uMHz)), FRaw Exact (nofQ Exact 0))].
  split; [reflexivity|]. split; [reflexivity|]. split; [reflexivity|]. split.
  - repeat constructor; cbn [fst]; [exists "6s 2S1/2", "6p 2P*1/2"|exists "6s 2S1/2", "6p 2P*3/2"]; vm_compute; repeat match goal with |- _ /\ _ => split end; reflexivity.
  - vm_compute. reflexivity.
Qed.

(** The same file read without its frequency column. *)
Definition columns_y : dict string string := ddel "freq" (ddel "frequency" columns_x).
Example C124_rates_case : chosen columns_y "freq" "frequency" = None /\
  exists name col rows frs, chosen columns_y "A" "A_coeff" = Some name /\ dget name file_x = Some col /\ nth 0 col CNaN = CNum 19 /\
    fst (load_transition_data file_x 2 (Some columns_y)) = Ok rows /\ map (frow_of Exact) rows = map Some frs /\
    Forall (fun rf => usable Exact (two 1) (fst rf)) frs /\
    option_map (fun rf => match row_ends Exact (two 1) (fst rf) with Some _ => true | None => false end) (nth_error frs 0) = Some true /\
    (exists r, fst (load_frows Exact 1%Qc plain [] frs (two 1)) = Ok r).
Proof.
  split; [reflexivity|]. eexists. eexists. eexists. eexists [(mkXrow Exact "6s" "2S" (VNum (1 # 2)) "6p" "2P*" (VNum (1 # 2)) (Some (nofQ Exact 19, uMHz)), FNone Exact);
    (mkXrow Exact "6s" "2S" (VNum (1 # 2)) "6p" "2P*" (VNum (3 # 2)) (Some (nofQ Exact 25, uMHz)), FNone Exact)].
  split; [reflexivity|]. split; [reflexivity|]. split; [reflexivity|]. split; [reflexivity|]. split; [reflexivity|]. split; [|split].
  - repeat constructor; cbn [fst]; [exists "6s 2S1/2", "6p 2P*1/2"|exists "6s 2S1/2", "6p 2P*3/2"]; vm_compute; repeat match goal with |- _ /\ _ => split end; reflexivity.
  - vm_compute. reflexivity.
  - exists []. vm_compute. reflexivity.
Qed.
