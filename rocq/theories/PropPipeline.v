(** Property C161: from the tables to a configured atom. *)
From Coq Require Import List Bool ZArith QArith Qcanon Lia String Ascii.
From Verif Require Import Base PyStr Util UtilProofs Parse Term TermProofs Num Wigner Hyperfine HyperfineProofs
  Graph GraphProofs DfsProofs Rules Atom AtomInv AtomSafe AtomSafe2 AtomSafe3 AtomSafe4 AtomSafe5 AtomSafe6 AtomLevels AtomKeep AtomPaths
  AtomTrans AtomEnforce AtomEnforce2 AtomEnforce3 AtomEnergy AtomOrder AtomExample PropEnforce IO PropIO Tables PropTables PropSpecies.
Import ListNotations.
Local Open Scope Qc_scope.

(** ** Lists of names *)

Lemma beforeb_at : forall names i j u v, NoDup names -> nth_error names i = Some u -> nth_error names j = Some v -> (i < j)%nat -> beforeb u v names = true.
Proof.
  induction names as [|x names IH]; intros i j u v Nd Hi Hj L; [destruct i; discriminate|]. inversion Nd as [|? ? Nx Nd']; subst. cbn [beforeb].
  destruct i as [|i]; [injection Hi as ->; now rewrite String.eqb_refl|]. destruct j as [|j]; [lia|]. cbn in Hi, Hj.
  rewrite (IH i j u v) by (auto; lia). apply orb_true_iff. right. rewrite andb_true_r, negb_true_iff. apply String.eqb_neq. intros ->.
  apply Nx. eapply nth_error_In; eauto.
Qed.
(** Names without a level do not matter. *)
Lemma beforeb_somes : forall (d : dict string (option nat)) u v a b, dget u d = Some (Some a) -> dget v d = Some (Some b) ->
  beforeb u v (dkeys d) = beforeb u v (dkeys (somes d)).
Proof.
  induction d as [|[k o] d IH]; intros u v a b Du Dv; [discriminate|].
  assert (Du' : (if String.eqb u k then Some o else dget u d) = Some (Some a)) by exact Du.
  assert (Dv' : (if String.eqb v k then Some o else dget v d) = Some (Some b)) by exact Dv. clear Du Dv.
  cbn [dkeys map fst beforeb]. rewrite (String.eqb_sym u k) in Du'. rewrite (String.eqb_sym v k) in Dv'.
  destruct (String.eqb k u) eqn:Eu.
  - injection Du' as ->. cbn [somes dkeys map fst beforeb]. now rewrite Eu.
  - destruct (String.eqb k v) eqn:Ev.
    + injection Dv' as ->. cbn [somes dkeys map fst beforeb]. now rewrite Eu, Ev.
    + specialize (IH u v a b Du' Dv'). unfold dkeys in *. cbn [orb negb andb]. destruct o as [c|]; cbn [somes map fst beforeb]; [rewrite Eu, Ev; cbn [orb negb andb]|]; exact IH.
Qed.
Lemma last_between_some : forall es u v c, (exists n, In (u, v, n) es \/ In (v, u, n) es) \/ (exists t, c = Some t) -> exists t, last_between u v es c = Some t.
Proof.
  unfold last_between. induction es as [|[[p q] m] es IH]; intros u v c H; cbn [fold_left].
  - destruct H as [[n [[]|[]]]|H]; exact H.
  - apply IH. cbn [fst snd]. destruct H as [[n [[E|I]|[E|I]]]|[t ->]].
    + injection E as -> -> ->. right. exists n. now rewrite !String.eqb_refl.
    + left. eauto.
    + injection E as -> -> ->. right. exists n. now rewrite !String.eqb_refl, orb_true_r.
    + left. eauto.
    + right. destruct (_ || _); eauto.
Qed.
Lemma drawn_In : forall (s : st Exact) rows n r kl ku a b, In r rows -> row_ends Exact s r = Some (kl, ku, a, b) -> exists m, In (kl, ku, m) (drawn Exact s n rows).
Proof.
  intros s rows. induction rows as [|q rows IH]; intros n r kl ku a b I E; [destruct I|]. cbn [drawn]. destruct I as [->|I].
  - rewrite E. exists n. now left.
  - destruct (row_ends Exact s q) as [[[[p p'] c] c']|].
    + destruct (IH (S n) r kl ku a b I E) as [m J]. exists m. now right.
    + exact (IH n r kl ku a b I E).
Qed.

(** ** What the tables have to contain *)

Notation table := (list (trow Exact * list term)).
Definition names (rt : table) : list string := map (@lname Exact) (rows_lv Exact rt).
(** The row of the table of levels with a name. *)
Definition row_at (rt : table) (i : nat) (n : string) (E : Qc) : Prop :=
  exists r ts, nth_error rt i = Some (r, ts) /\ lname (row_lv Exact r ts) = n /\ r_E Exact r = E.
(** The table of levels has the row of the lower level before that of the upper
    one, and the table of transitions a row with both. *)
Definition listed (rt : table) (rows : list (xrow Exact)) (u v : string) : Prop :=
  (exists i j Ei Ej, row_at rt i u Ei /\ row_at rt j v Ej /\ ((i < j)%nat /\ Ei <= Ej \/ (j < i)%nat /\ Ej < Ei)) /\
  exists r, In r rows /\ (row_keys Exact r = Some (u, v) \/ row_keys Exact r = Some (v, u)).
Definition covered (rt : table) (rows : list (xrow Exact)) (i : stmt) : Prop :=
  match i with
  | Retune u v f => has_char "="%char u = false /\ has_char "="%char v = false /\ u <> v /\ 0 <= f /\ listed rt rows u v
  | Join _ u v _ f => has_char "="%char u = false /\ has_char "="%char v = false /\ u <> v /\ In u (names rt) /\ In v (names rt) /\
      match f with Some f => 0 <= f | None => True end
  | _ => False
  end.

(** The constants a file of hyperfine constants has for a level: those of the
    last row with its name.  A row comes with the values of its three numbers. *)
Definition constants (k : string) (hf : list (csv_row Exact)) : Qc * Qc * Qc :=
  fold_left (fun cur r => let '(n, (_, A), (_, B), (_, C)) := r in if String.eqb n k then (A, B, C) else cur) hf (0, 0, 0).
Definition hf_text (hf : list (csv_row Exact)) : string := write_csv (map (fields Exact) hf).
Definition file_rows (hf : option (list (csv_row Exact))) : list (csv_row Exact) := match hf with Some rs => rs | None => [] end.

Section Pipeline.
  Variable muB : Qc.
  Variable orc : nat -> oracle.
  Hypothesis OK : forall n, oracle_ok (orc n).
  Variable parse : string -> res Exact.
  Notation reach := (reachable Exact muB orc).
  Implicit Types s : st Exact.

  Record made (rt : table) (hf : list (csv_row Exact)) (rows : list (xrow Exact)) s : Prop := mk_made {
    md_reach : reach s;
    md_lv : forall i r ts, nth_error rt i = Some (r, ts) ->
      exists A B C, lv s i = Some (@lv_set_hf Exact A B C (row_lv Exact r ts)) /\ constants (lname (row_lv Exact r ts)) hf = (A, B, C);
    md_all : forall i l, lv s i = Some l -> exists r ts, nth_error rt i = Some (r, ts);
    md_lal : s_lal s = [];
    md_unset : no_set s;
    md_keys : dkeys (node_attrs (s_g0 s)) = names rt;
    md_node : forall i r ts, nth_error rt i = Some (r, ts) -> dget (lname (row_lv Exact r ts)) (g_nodes (s_g0 s)) = Some (Some i);
    md_edge : forall r u v, In r rows -> row_keys Exact r = Some (u, v) -> u <> v -> In u (names rt) -> In v (names rt) ->
      exists t, edge (s_g0 s) u v = Some t
  }.

  (** The file of hyperfine constants changes these constants only. *)
  Lemma hf_reach : forall rs s, reach s -> Forall (row_fine Exact parse) rs -> forall s', apply_hf_csv Exact parse (hf_text rs) s = (Ok tt, s') -> reach s'.
  Proof.
    intros rs s R F s' E. unfold apply_hf_csv, hf_text in E. rewrite C83_csv in E.
    2:{ apply Forall_forall. intros r H. apply in_map_iff in H as [[[[n [x A]] [y B]] [z C]] [<- _]]. discriminate. }
    revert s R E. induction F as [|[[[n [x A]] [y B]] [z C]] rs [H [PA [PB PC]]] F IH]; intros s R E.
    - cbn in E. injection E as <-. exact R.
    - cbn [map forM] in E. cbn [fields] in E. unfold bind in E at 1. rewrite (apply_target Exact parse s n x y z A B C H PA PB PC) in E.
      refine (IH _ _ E). destruct (target Exact s n) as [a|]; auto.
      exact (reachable_step Exact muB orc s (OSetHf Exact a A B C) R).
  Qed.
  Lemma hf_on : forall s k i, (forall n, target Exact s n = Some i <-> n = k) -> forall rs l,
    exists A B C, fold_left (row_on Exact s i) rs l = @lv_set_hf Exact A B C l /\
      fold_left (fun cur (r : csv_row Exact) => let '(n, (_, A), (_, B), (_, C)) := r in if String.eqb n k then (A, B, C) else cur) rs (l_hfA l, l_hfB l, l_hfC l) = (A, B, C).
  Proof.
    intros s k i T rs. induction rs as [|[[[n [x A]] [y B]] [z C]] rs IH]; intros l.
    - exists (l_hfA l), (l_hfB l), (l_hfC l). split; [destruct l; reflexivity|reflexivity].
    - cbn [fold_left row_on]. destruct (String.eqb_spec n k) as [->|Nk].
      + assert (Tk : target Exact s k = Some i) by now apply T. rewrite Tk, Nat.eqb_refl. destruct (IH (@lv_set_hf Exact A B C l)) as [A' [B' [C' [E1 E2]]]].
        exists A', B', C'. rewrite E1. split; [destruct l; reflexivity|exact E2].
      + assert (Q : match target Exact s n with Some a => if Nat.eqb a i then @lv_set_hf Exact A B C l else l | None => l end = l).
        { destruct (target Exact s n) as [a|] eqn:Ta; [|reflexivity]. destruct (Nat.eqb_spec a i) as [->|]; [|reflexivity]. apply T in Ta. congruence. }
        rewrite Q. apply IH.
  Qed.

  Definition fine (hf : option (list (csv_row Exact))) : Prop := Forall (row_fine Exact parse) (file_rows hf).

  Lemma generated : forall I B rt hf rows, (0 <= I)%Z -> Forall (fun p => readable Exact (fst p) (snd p)) rt -> NoDup (names rt) -> fine hf ->
    Forall (fun r => exists kl ku, row_keys Exact r = Some (kl, ku) /\ has_char "="%char kl = false /\ has_char "="%char ku = false) rows ->
    exists s, generate_full Exact muB orc parse (map fst rt) None (option_map hf_text hf) (TDf Exact rows) (init Exact I B) = (Ok tt, s) /\ made rt (file_rows hf) rows s.
  Proof.
    intros I B rt hf rows HI F Nd Hf Fx.
    destruct (C84_loaded Exact muB orc I B rt HI F) as [s00 [E00 [R00 [L00 [T00 [A00 [Ks Gs]]]]]]].
    destruct (C84_partial Exact muB orc I B rt HI F Nd) as [s0' [E0' [_ [_ Row]]]]. rewrite E00 in E0'. injection E0' as <-.
    assert (W00 : WF s00) by exact (reachable_WF Exact muB orc OK s00 R00).
    assert (Tg : forall i r ts, nth_error rt i = Some (r, ts) -> forall n, target Exact s00 n = Some i <-> n = lname (row_lv Exact r ts)).
    { intros i r ts H n. destruct (Row i r ts H) as [D _]. unfold target. rewrite A00. cbn [dget]. split; [|intros ->; exact D].
      intros D'. assert (Wg : graph_wf (s_g0 s00)) by exact (go_wf _ _ _ _ (wf_g _ _ W00 LE)).
      assert (Nn : forall m c, dget m (node_attrs (s_g0 s00)) = Some c -> exists l, lv s00 c = Some l /\ lname l = m).
      { intros m c Dm. rewrite node_attrs_get in Dm by auto. destruct (dget m (g_nodes (s_g0 s00))) as [[c'|]|] eqn:Dg; try discriminate. injection Dm as ->.
        destruct (go_node _ _ _ _ (wf_g _ _ W00 LE) _ _ Dg) as [l [V [_ [Nm _]]]]. exists l. split; auto. }
      destruct (Nn n i D') as [l1 [V1 <-]]. destruct (Nn _ i D) as [l2 [V2 <-]]. congruence. }
    (* the file *)
    assert (H0 : exists s0, (match hf with Some rs => apply_hf_csv Exact parse (hf_text rs) s00 = (Ok tt, s0) | None => s00 = s0 end) /\ reach s0 /\ s0 = set_levels (s_levels s0) s00 /\
        (forall i r ts, nth_error rt i = Some (r, ts) ->
           exists A B C, lv s0 i = Some (@lv_set_hf Exact A B C (row_lv Exact r ts)) /\ constants (lname (row_lv Exact r ts)) (file_rows hf) = (A, B, C)) /\
        (forall i l, lv s0 i = Some l -> exists r ts, nth_error rt i = Some (r, ts))).
    { assert (Lv0 : forall i, lv s00 i = option_map (fun p => row_lv Exact (fst p) (snd p)) (nth_error rt i)).
      { intros i. unfold lv. rewrite L00. unfold rows_lv. apply nth_error_map. }
      destruct hf as [rs|]; cbn [option_map file_rows].
      - destruct (C57_rows Exact parse s00 rs Hf) as [s0 [E [S L]]]. exists s0. pose proof (hf_reach rs s00 R00 Hf s0 E) as R0.
        change (write_csv (map (fields Exact) rs)) with (hf_text rs) in E. split; [exact E|]. split; auto. split; auto. split.
        + intros i r ts H. destruct (hf_on s00 _ i (Tg i r ts H) rs (row_lv Exact r ts)) as [A [B' [C [E1 E2]]]]. exists A, B', C.
          split; [|exact E2]. rewrite L, Lv0, H. cbn [option_map fst snd]. now rewrite E1.
        + intros i l V. rewrite L, Lv0 in V. destruct (nth_error rt i) as [[r ts]|]; [eauto|discriminate].
      - exists s00. split; [reflexivity|]. split; auto. split; [destruct s00; reflexivity|]. split.
        + intros i r ts H. exists 0, 0, 0. split; [|reflexivity]. rewrite Lv0, H. reflexivity.
        + intros i l V. rewrite Lv0 in V. destruct (nth_error rt i) as [[r ts]|]; [eauto|discriminate]. }
    destruct H0 as [s0 [E0 [R0 [S0 [V0 All0]]]]].
    assert (G0 : s_g0 s0 = s_g0 s00) by (rewrite S0; reflexivity). assert (A0 : s_lal s0 = []) by (rewrite S0; exact A00).
    assert (T0 : s_trans s0 = []) by (rewrite S0; exact T00).
    destruct (C88_loaded Exact muB orc OK rows s0 R0) as [s1 [E1 [R1 [L1 [Na1 [A1 [_ [T1 Eg1]]]]]]]].
    { rewrite Forall_forall in *. intros r Hr. destruct (Fx r Hr) as [kl [ku [K [H1 H2]]]]. exists kl, ku. rewrite A0. repeat split; auto. }
    destruct (C90_internal Exact muB orc OK s1 R1) as [s2 [E2 [R2 [L2 [Na2 [A2 [_ [_ [Eg2 _]]]]]]]]].
    exists s2. split.
    { unfold generate_full. unfold bind at 1. rewrite E00. destruct hf as [rs|]; cbn [option_map]; unfold bind at 1; [rewrite E0|unfold ret at 1; rewrite E0]; unfold bind at 1; rewrite E1; exact E2. }
    assert (U1 : no_set s1).
    { intros t x V. unfold tr in V. rewrite T1, T0 in V. apply nth_error_In in V. cbn [app] in V. apply in_flat_map in V as [r [_ V]].
      unfold row_trans in V. destruct (row_ends Exact s0 r) as [[[[? ?] a] b]|]; [|destruct V].
      destruct (lv s0 a); [|destruct V]. destruct (lv s0 b); [|destruct V]. destruct (energy Exact muB s0 a); [|destruct V]. destruct (energy Exact muB s0 b); [|destruct V].
      destruct (l_J _); [|destruct V]. destruct (l_J _); [|destruct V]. destruct V as [<-|[]]. reflexivity. }
    assert (LV2 : forall i, lv s2 i = lv s0 i) by (intros i; unfold lv; congruence).
    assert (Na : node_attrs (s_g0 s2) = node_attrs (s_g0 s00)) by congruence.
    constructor; auto.
    - intros i r ts H. rewrite LV2. auto.
    - intros i l V. rewrite LV2 in V. eauto.
    - congruence.
    - apply (grows_no_set s1); auto.
      replace s2 with (step Exact muB orc s1 (OPopulateInternal Exact)); [now apply step_grows|].
      unfold step. cbn [run_op]. unfold void. now rewrite E2.
    - rewrite Na, Ks. now apply first_seen_nodup.
    - intros i r ts H. destruct (Row i r ts H) as [D _]. rewrite <- Na in D.
      rewrite node_attrs_get in D by exact (go_wf _ _ _ _ (wf_g _ _ (reachable_WF Exact muB orc OK s2 R2) LE)).
      destruct (dget _ (g_nodes (s_g0 s2))) as [[c|]|]; congruence.
    - intros r u v Ir Kr Nuv Iu Iv. rewrite (Eg2 u v Nuv), Eg1.
      assert (At : forall n, In n (names rt) -> exists i, dget n (node_attrs (s_g0 s0)) = Some i).
      { intros n H. unfold names, rows_lv in H. rewrite map_map in H. apply in_map_iff in H as [[q qs] [<- H]]. apply In_nth_error in H as [i H].
        exists i. rewrite G0. now apply (Row i q qs). }
      destruct (At u Iu) as [a Da]. destruct (At v Iv) as [b Db].
      destruct (drawn_In s0 rows (List.length (s_trans s0)) r u v a b Ir) as [m J].
      { unfold row_ends. now rewrite Kr, Da, Db. }
      apply last_between_some. left. exists m. now left.
  Qed.

  Section Made.
    Variables (rt : table) (hf : list (csv_row Exact)) (rows : list (xrow Exact)) (s : st Exact).
    Hypothesis Nd : NoDup (names rt).
    Hypothesis MD : made rt hf rows s.

    Lemma made_free : forall n, free s n.
    Proof. intros n m t f [_ [x [V X]]]. rewrite (md_unset _ _ _ _ MD t x V) in X. discriminate. Qed.
    Lemma made_settled : settled muB s.
    Proof.
      apply settled_start; [exact made_free|]. intros a l V. destruct (md_all _ _ _ _ MD a l V) as [r [ts H]].
      destruct (md_lv _ _ _ _ MD a r ts H) as [A [B [C [V' _]]]]. rewrite V in V'. injection V' as ->. reflexivity.
    Qed.
    Lemma made_lv : forall i r ts, nth_error rt i = Some (r, ts) -> exists l, lv s i = Some l /\ lname l = lname (row_lv Exact r ts) /\ l_kind l = LE /\
      l_E l = r_E Exact r /\ constants (lname (row_lv Exact r ts)) hf = (l_hfA l, l_hfB l, l_hfC l).
    Proof.
      intros i r ts H. destruct (md_lv _ _ _ _ MD i r ts H) as [A [B [C [V E]]]]. eexists. split; [exact V|]. split; [reflexivity|]. split; [reflexivity|]. split; [reflexivity|exact E].
    Qed.
    Lemma made_energy : forall i r ts, nth_error rt i = Some (r, ts) -> energy Exact muB s i = Some (r_E Exact r).
    Proof. intros i r ts H. destruct (made_lv i r ts H) as [l [V [_ [K [E _]]]]]. rewrite (energy_LE Exact muB s i l V K). now rewrite E. Qed.
    Lemma made_home : forall a l, lv s a = Some l -> home Exact s a.
    Proof.
      intros a l V. destruct (md_all _ _ _ _ MD a l V) as [r [ts H]]. destruct (made_lv a r ts H) as [l' [V' [Nm _]]]. exists l'. split; auto. rewrite Nm.
      exact (md_node _ _ _ _ MD a r ts H).
    Qed.
    Lemma made_name : forall n, In n (names rt) -> has_char "="%char n = false -> plain_name s n.
    Proof.
      intros n I E. split; auto. rewrite (md_lal _ _ _ _ MD). split; [reflexivity|].
      unfold names, rows_lv in I. rewrite map_map in I. apply in_map_iff in I as [[r ts] [<- H]]. apply In_nth_error in H as [i H].
      destruct (made_lv i r ts H) as [l [V [Nm _]]]. exists i, l. split; auto. split; auto. exact (md_node _ _ _ _ MD i r ts H).
    Qed.
    Lemma row_name : forall i n E, row_at rt i n E -> In n (names rt) /\ nth_error (names rt) i = Some n /\
      dget n (g_nodes (s_g0 s)) = Some (Some i) /\ energy Exact muB s i = Some E.
    Proof.
      intros i n E [r [ts [H [<- <-]]]].
      assert (Hn : nth_error (names rt) i = Some (lname (row_lv Exact r ts))) by (unfold names, rows_lv; now rewrite map_map, nth_error_map, H).
      split; [eapply nth_error_In; eauto|]. split; auto. split; [exact (md_node _ _ _ _ MD i r ts H)|now apply (made_energy i r ts)].
    Qed.
    Lemma made_line : forall u v, u <> v -> (exists t, edge (s_g0 s) u v = Some t) -> line s u v.
    Proof.
      intros u v Nuv [t E]. pose proof (reachable_WF Exact muB orc OK s (md_reach _ _ _ _ MD)) as W.
      destruct (go_edge _ _ _ _ (wf_g _ _ W LE) _ _ _ E) as [x [V _]]. exists t, x. split; auto. split; auto.
      destruct (wf_tr _ _ W _ _ V) as [l1 [l2 [V1 [V2 [_ [_ [UL _]]]]]]].
      destruct UL as [[-> ->]|[-> ->]]; split; eapply made_home; eauto.
    Qed.
    Lemma made_ready : forall i, covered rt rows i -> ready muB s i.
    Proof.
      intros [u v f|w u v A f|u v A|u k1 k2 q] C; cbn [covered ready] in *; try contradiction.
      - destruct C as [Eu [Ev [Nuv [Hf [[i [j [Ei [Ej [Ri [Rj O]]]]]] [r [Ir Kr]]]]]]].
        destruct (row_name i u Ei Ri) as [Iu [Nu [Du Enu]]]. destruct (row_name j v Ej Rj) as [Iv [Nv [Dv Env]]].
        split; [now apply made_name|]. split; [now apply made_name|]. split; auto. split; auto. split.
        + apply made_line; auto. destruct Kr as [Kr|Kr]; [exact (md_edge _ _ _ _ MD r u v Ir Kr Nuv Iu Iv)|].
          destruct (md_edge _ _ _ _ MD r v u Ir Kr (not_eq_sym Nuv) Iv Iu) as [t E]. exists t.
          exact (gw_sym _ (go_wf _ _ _ _ (wf_g _ _ (reachable_WF Exact muB orc OK s (md_reach _ _ _ _ MD)) LE)) _ _ _ E).
        + intros a b ea eb Da Db Ea Eb. rewrite Du in Da. injection Da as <-. rewrite Dv in Db. injection Db as <-.
          rewrite Enu in Ea. rewrite Env in Eb. injection Ea as <-. injection Eb as <-.
          assert (Bf : forall p q m n cp cq, dget p (g_nodes (s_g0 s)) = Some (Some cp) -> dget q (g_nodes (s_g0 s)) = Some (Some cq) ->
            nth_error (names rt) m = Some p -> nth_error (names rt) n = Some q -> (m < n)%nat -> beforeb p q (dkeys (g_nodes (s_g0 s))) = true).
          { intros p q m n cp cq Dp Dq Np Nq L. rewrite (beforeb_somes _ p q cp cq Dp Dq). change (somes (g_nodes (s_g0 s))) with (node_attrs (s_g0 s)).
            rewrite (md_keys _ _ _ _ MD). exact (beforeb_at _ m n p q Nd Np Nq L). }
          destruct O as [[L LE]|[L LT]].
          * replace (Qc_ltb Ej Ei) with false; [eauto|]. symmetry. apply not_true_iff_false. rewrite Qc_ltb_lt. intros H. exact (Qcle_not_lt _ _ LE H).
          * replace (Qc_ltb Ej Ei) with true; [eauto|]. symmetry. now apply Qc_ltb_lt.
      - destruct C as [Eu [Ev [Nuv [Iu [Iv Hf]]]]]. split; [now apply made_name|]. split; [now apply made_name|]. auto.
    Qed.
  End Made.
End Pipeline.

(** The beginning and the rest of a configuration file: an atom is made from the
    first [n] rows of a table of levels, maybe a file of hyperfine constants, and
    a table of transitions, and the script is run on it (species/Yb_II_171.py:20-52,
    Yb_II_173.py:20-50, Yb_II_174.py:20-52). *)
Definition configure muB orc parse (all : table) (n : Z) (hf : option (list (csv_row Exact))) (rows : list (xrow Exact)) (is : list stmt) : M Exact unit :=
  bind (generate_full Exact muB orc parse (map fst all) (Some n) (option_map hf_text hf) (TDf Exact rows)) (fun _ => script muB orc is).
(** Every row can be read, and no two rows for levels have the same name. *)
Definition well_formed (parse : string -> res Exact) (rt : table) (hf : option (list (csv_row Exact))) (rows : list (xrow Exact)) : Prop :=
  Forall (fun p => readable Exact (fst p) (snd p)) rt /\ NoDup (names rt) /\ fine parse hf /\
  Forall (fun r => exists kl ku, row_keys Exact r = Some (kl, ku) /\ has_char "="%char kl = false /\ has_char "="%char ku = false) rows.

Lemma configure_made : forall muB orc parse, (forall n, oracle_ok (orc n)) -> forall all n hf rows is I B, (0 <= I)%Z ->
  well_formed parse (firstn (Z.to_nat n) all) hf rows ->
  exists s, made muB orc (firstn (Z.to_nat n) all) (file_rows hf) rows s /\ configure muB orc parse all n hf rows is (init Exact I B) = script muB orc is s.
Proof.
  intros muB orc parse OK all n hf rows is I B HI [F [Nd [Hf Fx]]]. destruct (generated muB orc OK parse I B _ hf rows HI F Nd Hf Fx) as [s [E MD]].
  exists s. split; auto. unfold configure. erewrite bind_Ok; [reflexivity|]. rewrite <- E. unfold generate_full. unfold bind at 1 4.
  now rewrite C85_first, firstn_map.
Qed.

(** C161.  What the tables say about the levels of a script is all it needs: the
    script ends, every frequency is what it says, the other levels are where the
    table has them, and the hyperfine constants are those of the file. *)
Theorem C161_configured_partial : forall muB orc parse, (forall n, oracle_ok (orc n)) -> forall all n hf rows is I B, (0 <= I)%Z ->
  let rt := firstn (Z.to_nat n) all in
  well_formed parse rt hf rows -> (forall i, In i is -> covered rt rows i) -> fresh [] is ->
  exists s, configure muB orc parse all n hf rows is (init Exact I B) = (Ok tt, s) /\ reachable Exact muB orc s /\ settled muB s /\
    (forall i, In i is -> done muB s i) /\
    (forall i k E, row_at rt i k E -> exists l, lv s i = Some l /\ lname l = k) /\
    (forall i k E, row_at rt i k E -> exists l, lv s i = Some l /\ constants k (file_rows hf) = (l_hfA l, l_hfB l, l_hfC l)) /\
    (forall i k E, row_at rt i k E -> (forall j, In j is -> fst (ends j) <> k /\ snd (ends j) <> k) -> energy Exact muB s i = Some E) /\
    (forall k, In k (names rt) -> has_char "="%char k = false -> plain_name s k).
Proof.
  intros muB orc parse OK all n hf rows is I B HI rt WFt Cv Fs. destruct (configure_made muB orc parse OK all n hf rows is I B HI WFt) as [s [MD E]].
  fold rt in MD. pose proof WFt as [_ [Nd _]]. fold rt in Nd.
  destruct (script_ready muB orc OK is [] s (md_reach _ _ _ _ _ _ MD) (made_settled muB orc rt _ rows s MD) (fun n _ => made_free muB orc rt _ rows s MD n)
    (fun i H => made_ready muB orc OK rt _ rows s Nd MD i (Cv i H)) Fs) as [s' [E' [K Rc]]].
  exists s'. rewrite E. split; auto. split; [apply K|]. split; [apply K|]. split; [|split; [|split; [|split]]].
  - intros i H. apply recorded_done; [apply K|auto].
  - intros i k e [r [ts [H [<- _]]]]. destruct (made_lv muB orc rt _ rows s MD i r ts H) as [l [V [<- _]]]. exact (k_lv _ _ _ _ _ _ K i l V).
  - intros i k e [r [ts [H [<- _]]]]. destruct (made_lv muB orc rt _ rows s MD i r ts H) as [l [V [_ [_ [_ Hc]]]]].
    destruct (k_hf _ _ _ _ _ _ K i l V) as [l' [V' [E1 [E2 E3]]]]. exists l'. split; auto. rewrite Hc, E1, E2, E3. reflexivity.
  - intros i k e Rw N. destruct (row_name muB orc rt _ rows s MD i k e Rw) as [_ [_ [_ En]]]. destruct Rw as [r [ts [H [Nm _]]]].
    destruct (made_lv muB orc rt _ rows s MD i r ts H) as [l [V [Nl _]]]. rewrite <- En.
    apply (k_energy _ _ _ _ _ _ K i l (made_home muB orc rt _ rows s MD i _ V) V). rewrite Nl, Nm. intros J.
    apply in_flat_map in J as [j [Ij J]]. destruct (N j Ij) as [N1 N2]. destruct j as [u v f|w u v A [f|]|u v A|u k1 k2 q]; cbn in *; intuition congruence.
  - intros k Ik Ek. apply (plain_keeps muB orc _ _ s s' k K). now apply (made_name muB orc rt _ rows s MD).
Qed.
Print Assumptions C161_configured_partial.

(** A table that has the upper level first: the transition is made but cannot be
    asked for, and the script stops with a KeyError at its first statement. *)
Theorem C161_order_refuted : forall muB orc parse, (forall n, oracle_ok (orc n)) -> forall all n hf rows u v f is I B, (0 <= I)%Z ->
  let rt := firstn (Z.to_nat n) all in
  well_formed parse rt hf rows -> has_char "="%char u = false -> has_char "="%char v = false ->
  (exists i j Ei Ej, row_at rt i u Ei /\ row_at rt j v Ej /\ (j < i)%nat /\ Ei <= Ej) ->
  (exists r, In r rows /\ row_keys Exact r = Some (u, v)) ->
  exists s, configure muB orc parse all n hf rows (Retune u v f :: is) (init Exact I B) = (Raise KeyError, s) /\ line s u v /\
    no_set s /\ plain_name s u /\ plain_name s v.
Proof.
  intros muB orc parse OK all n hf rows u v f is I B HI rt WFt Eu Ev [i [j [Ei [Ej [Ri [Rj [L Le]]]]]]] [r [Ir Kr]].
  destruct (configure_made muB orc parse OK all n hf rows (Retune u v f :: is) I B HI WFt) as [s [MD E]]. fold rt in MD. pose proof WFt as [_ [Nd _]]. fold rt in Nd.
  pose proof (reachable_WF Exact muB orc OK s (md_reach _ _ _ _ _ _ MD)) as W.
  destruct (row_name muB orc rt _ rows s MD i u Ei Ri) as [Iu [Nu [Du Enu]]]. destruct (row_name muB orc rt _ rows s MD j v Ej Rj) as [Iv [Nv [Dv Env]]].
  assert (Nuv : u <> v).
  { intros ->. pose proof (proj1 (NoDup_nth_error (names rt)) Nd i j) as Q. rewrite Nu, Nv in Q. specialize (Q ltac:(apply nth_error_Some; congruence) eq_refl). lia. }
  exists s. split; [|split; [|split; [exact (md_unset _ _ _ _ _ _ MD)|split; now apply (made_name muB orc rt _ rows s MD)]]].
  2:{ apply (made_line muB orc OK rt _ rows s MD); auto. exact (md_edge _ _ _ _ _ _ MD r u v Ir Kr Nuv Iu Iv). }
  rewrite E. cbn [script exec].
  assert (G : transitions_get Exact muB (KS u, KS v) s = (Raise KeyError, s)).
  { assert (Wg : graph_wf (s_g0 s)) by exact (go_wf _ _ _ _ (wf_g _ _ W LE)).
    rewrite (trans_get_plain Exact muB s u v i j Ei Ej W Eu Ev); auto; try (now rewrite (md_lal _ _ _ _ _ _ MD)); try (rewrite node_attrs_get by auto; now rewrite ?Du, ?Dv).
    cbv zeta. change (nltb Exact Ej Ei) with (Qc_ltb Ej Ei). replace (Qc_ltb Ej Ei) with false by (symmetry; now apply Qc_ltb_ge). cbn [fst snd].
    rewrite (beforeb_somes _ u v i j Du Dv). change (somes (g_nodes (s_g0 s))) with (node_attrs (s_g0 s)). rewrite (md_keys _ _ _ _ _ _ MD).
    replace (beforeb u v (names rt)) with false; [reflexivity|]. symmetry. apply not_true_iff_false. intros Bf.
    pose proof (beforeb_at _ j i v u Nd Nv Nu L) as Bf'. apply beforeb_spec in Bf. apply beforeb_spec in Bf'.
    exact (Nuv (before_antisym _ _ _ Bf Bf')). }
  unfold bind at 1 2. now rewrite G.
Qed.
Print Assumptions C161_order_refuted.

(** The configurations of 173Yb and 174Yb, for any tables with the levels and
    transitions they are about. *)
Definition yb_tables parse (rt : table) hf (rows : list (xrow Exact)) : Prop :=
  well_formed parse rt hf rows /\ (forall k, In k [S1; D5; F7; K3] -> In k (names rt)) /\ listed rt rows D3 K1 /\ listed rt rows S1 P1.
Lemma yb_covered : forall parse rt hf rows, yb_tables parse rt hf rows -> forall is, In is [Yb173; Yb174; firstn 3 Yb171] -> forall i, In i is -> covered rt rows i.
Proof.
  intros parse rt hf rows [_ [Nm [L1 L2]]] is H i Hi.
  assert (NS1 : In S1 (names rt)) by (apply Nm; simpl; auto). assert (ND5 : In D5 (names rt)) by (apply Nm; simpl; auto).
  assert (NF7 : In F7 (names rt)) by (apply Nm; simpl; auto). assert (NK3 : In K3 (names rt)) by (apply Nm; simpl; auto). clear Nm.
  assert (P : forall n, (0 <= n)%Z -> 0 <= MHz n) by exact MHz_pos.
  destruct H as [<-|[<-|[<-|[]]]]; cbn [In Yb171 Yb173 Yb174 firstn] in Hi; repeat match goal with H : _ \/ _ |- _ => destruct H as [<-|H] end; try contradiction;
    cbn [covered]; (split; [reflexivity|]); (split; [reflexivity|]); (split; [discriminate|]);
    repeat (split; [first [assumption|apply P; lia]|]); first [assumption|exact I|apply P; lia].
Qed.
Theorem C161_Yb173_Yb174 : forall muB orc parse, (forall n, oracle_ok (orc n)) -> forall all hf rows I B is, (0 <= I)%Z -> In is [Yb173; Yb174] ->
  yb_tables parse (firstn 300 all) hf rows ->
  exists s, configure muB orc parse all 300 hf rows is (init Exact I B) = (Ok tt, s) /\ settled muB s /\ (forall i, In i is -> done muB s i) /\
    (forall i k E, row_at (firstn 300 all) i k E -> exists l, lv s i = Some l /\ lname l = k /\ constants k (file_rows hf) = (l_hfA l, l_hfB l, l_hfC l)).
Proof.
  intros muB orc parse OK all hf rows I B is HI Hi T. assert (Hi' : In is [Yb173; Yb174; firstn 3 Yb171]) by (simpl in *; tauto).
  destruct (C161_configured_partial muB orc parse OK all 300 hf rows is I B HI (proj1 T) (yb_covered _ _ _ _ T is Hi') (Yb_fresh is Hi')) as [s [E [R [Se [D [N [H _]]]]]]].
  exists s. split; auto. split; auto. split; auto. intros i k e Rw. destruct (N i k e Rw) as [l [V Nm]]. destruct (H i k e Rw) as [l' [V' Hc]].
  rewrite V in V'. injection V' as <-. eauto.
Qed.
Print Assumptions C161_Yb173_Yb174.

(** The configuration of 171Yb fails with all such tables. *)
Theorem C161_Yb171_refuted : forall muB orc parse, (forall n, oracle_ok (orc n)) -> forall all hf rows I B, (0 <= I)%Z ->
  yb_tables parse (firstn 300 all) hf rows ->
  exists s, configure muB orc parse all 300 hf rows Yb171 (init Exact I B) = (Raise TypeError, s) /\ (forall i, In i (firstn 3 Yb171) -> done muB s i) /\
    (forall i k E, row_at (firstn 300 all) i k E -> exists l, lv s i = Some l /\ l_qz l = 0).
Proof.
  intros muB orc parse OK all hf rows I B HI T. destruct (configure_made muB orc parse OK all 300 hf rows Yb171 I B HI (proj1 T)) as [s [MD E]].
  change (Z.to_nat 300) with 300%nat in MD. pose proof T as [[_ [Nd _]] _].
  assert (Rd : forall i, In i (firstn 3 Yb171) -> ready muB s i).
  { intros i Hi. apply (made_ready muB orc OK _ _ rows s Nd MD). apply (yb_covered _ _ _ _ T (firstn 3 Yb171)); simpl; auto. }
  pose proof (Rd _ (or_introl eq_refl)) as [ND3 [NK1 [_ [_ [L1 O1]]]]]. pose proof (Rd _ (or_intror (or_introl eq_refl))) as [NS1 [NP1 [_ [_ [L2 O2]]]]].
  assert (Pn : forall k, In k [S1; D5; F7; K3] -> plain_name s k).
  { intros k Hk. apply (made_name muB orc _ _ rows s MD); [now apply T|]. destruct Hk as [<-|[<-|[<-|[<-|[]]]]]; reflexivity. }
  assert (Y : ytterbium muB s).
  { constructor; auto. intros k Hk. destruct Hk as [<-|[<-|[<-|[<-|[<-|[<-|[<-|[]]]]]]]]; auto; apply Pn; simpl; auto. }
  destruct (C160_Yb171_refuted muB orc OK s (md_reach _ _ _ _ _ _ MD) Y (made_settled muB orc _ _ rows s MD) (made_free muB orc _ _ rows s MD)) as [s' [E' [D Q]]].
  exists s'. rewrite E. split; auto. split; auto. intros i k e [r [ts [H _]]]. destruct (md_lv _ _ _ _ _ _ MD i r ts H) as [A [B' [C [V _]]]].
  destruct (Q i _ V) as [l [V' Eq]]. exists l. split; auto.
Qed.
Print Assumptions C161_Yb171_refuted.

(** ** Instances *)

(** Eight levels of Yb II in the form of the tables (energies in THz), and some
    transitions. *)
Definition with_terms : list (trow Exact) -> table := map (fun r => (r, terms_of r)).
Definition yb_rows : list (trow Exact) :=
  [row1 "4f14.6s" "2S" "1/2" 0; row1 "4f13.(2F*).6s2" "2F*" "7/2" 641000000000000; row1 "4f14.5d" "2D" "3/2" 688000000000000;
   row1 "4f14.5d" "2D" "5/2" 729000000000000; row1 "4f14.6p" "2P*" "1/2" 811000000000000;
   row1 "4f14.6p" "2P*" "3/2" 911000000000000;
   row1 "4f13.(2F*<7/2>).5d.6s.(3D)" "3[3/2]*" "1/2" 1009000000000000; row1 "4f13.(2F*<7/2>).5d.6s.(1D)" "1[3/2]*" "3/2" 1035000000000000].
Definition yb_xrows : list (xrow Exact) :=
  [mkXrow Exact "4f14.5d" "2D" (VStr "1.5") "4f13.(2F*<7/2>).5d.6s.(3D)" "3[3/2]*" (VStr "0.5") (Some (Q2Qc 3, uMHz));
   mkXrow Exact "4f14.6s" "2S" (VStr "0.5") "4f14.6p" "2P*" (VStr "0.5") (Some (Q2Qc 120, uMHz));
   mkXrow Exact "4f14.6s" "2S" (VStr "0.5") "9p" "2P*" (VStr "1.5") None].
Definition yb_all : table := with_terms yb_rows.
Fixpoint distinctb (ks : list string) : bool := match ks with [] => true | k :: ks' => negb (existsb (String.eqb k) ks') && distinctb ks' end.
Lemma distinctb_spec : forall ks, distinctb ks = true -> NoDup ks.
Proof.
  induction ks as [|k ks IH]; intros H; constructor; cbn [distinctb] in H; apply andb_true_iff in H as [H1 H2]; auto.
  intros I. apply negb_true_iff in H1. apply not_true_iff_false in H1. apply H1, existsb_exists. exists k. split; auto. apply String.eqb_refl.
Qed.
Definition yb_hf : list (csv_row Exact) :=
  [(S1, ("-7/1", Q2Qc (-7)), ("0/1", 0), ("0/1", 0)); (P1, ("2/1", Q2Qc 2), ("0/1", 0), ("0/1", 0)); ("9p 2P*1/2", ("3/1", Q2Qc 3), ("0/1", 0), ("0/1", 0));
   (S1, ("-3/1", Q2Qc (-3)), ("5/1", Q2Qc 5), ("0/1", 0))]%string.
Lemma yb_well_formed : forall hf rs, fine parse_q hf -> forallb readableb rs = true -> distinctb (names (with_terms rs)) = true -> well_formed parse_q (with_terms rs) hf yb_xrows.
Proof.
  intros hf rs Hf H1 H2. split; [now apply readableb_ok|]. split; [now apply distinctb_spec|]. split; auto.
  repeat (constructor; [eexists; eexists; split; [vm_compute; reflexivity|]; split; reflexivity|]). constructor.
Qed.
Lemma yb_hf_fine : fine parse_q (Some yb_hf).
Proof. repeat (constructor; [split; [reflexivity|]; split; [vm_compute; reflexivity|]; split; vm_compute; reflexivity|]). constructor. Qed.
Lemma yb_all_tables : forall hf, fine parse_q hf -> yb_tables parse_q (firstn 300 yb_all) hf yb_xrows.
Proof.
  intros hf Hf.
  change (firstn 300 yb_all) with (with_terms yb_rows). split; [apply yb_well_formed; [exact Hf| |]; vm_compute; reflexivity|]. split; [|split].
  - assert (E : names (with_terms yb_rows) = [S1; F7; D3; D5; P1; "4f14.6p 2P*3/2"%string; K1; K3]) by (vm_compute; reflexivity).
    rewrite E. intros k [<-|[<-|[<-|[<-|[]]]]]; simpl; tauto.
  - split; [|eexists; split; [left; reflexivity|left; vm_compute; reflexivity]].
    exists 2%nat, 6%nat, (Q2Qc 688000000000000), (Q2Qc 1009000000000000).
    split; [eexists; eexists; split; [reflexivity|]; split; vm_compute; reflexivity|]. split; [eexists; eexists; split; [reflexivity|]; split; vm_compute; reflexivity|].
    left. split; [lia|]. unfold Qcle. vm_compute. discriminate.
  - split; [|eexists; split; [right; left; reflexivity|left; vm_compute; reflexivity]].
    exists 0%nat, 4%nat, (Q2Qc 0), (Q2Qc 811000000000000).
    split; [eexists; eexists; split; [reflexivity|]; split; vm_compute; reflexivity|]. split; [eexists; eexists; split; [reflexivity|]; split; vm_compute; reflexivity|].
    left. split; [lia|]. unfold Qcle. vm_compute. discriminate.
Qed.
Lemma no_hf_fine : fine parse_q None.
Proof. constructor. Qed.
Example C161_case : exists s, configure 1 plain parse_q yb_all 300 (Some yb_hf) yb_xrows Yb173 (init Exact 5 0) = (Ok tt, s) /\ settled 1 s /\ (forall i, In i Yb173 -> done 1 s i) /\
  (forall i k E, row_at (firstn 300 yb_all) i k E -> exists l, lv s i = Some l /\ lname l = k /\ constants k yb_hf = (l_hfA l, l_hfB l, l_hfC l)).
Proof. apply (C161_Yb173_Yb174 1 plain parse_q plain_ok yb_all (Some yb_hf) yb_xrows 5 0 Yb173); [lia|simpl; auto|exact (yb_all_tables _ yb_hf_fine)]. Qed.
Example C161_constants : map (fun k => let '(A, B, C) := constants k yb_hf in (this A, this B, this C)) [S1; P1; D3] = [(-3 # 1, 5 # 1, 0); (2 # 1, 0, 0); (0, 0, 0)]%Q.
Proof. vm_compute. reflexivity. Qed.
Example C161_energies : map (energy Exact 1 (snd (configure 1 plain parse_q yb_all 300 None yb_xrows Yb174 (init Exact 0 0)))) [0; 1; 2; 3; 4; 5; 6; 7]%nat =
  map (fun z => Some (Q2Qc (z * 1000000 # 1))) [0; 641000000; 688000000; 729475280; 811291801; 911000000; 1008571752; 1035423900]%Z.
Proof. vm_compute. reflexivity. Qed.
Example C161_error_case : exists s, configure 1 plain parse_q yb_all 300 (Some yb_hf) yb_xrows Yb171 (init Exact 1 0) = (Raise TypeError, s) /\
  (forall i, In i (firstn 3 Yb171) -> done 1 s i) /\ (forall i k E, row_at (firstn 300 yb_all) i k E -> exists l, lv s i = Some l /\ l_qz l = 0).
Proof. apply (C161_Yb171_refuted 1 plain parse_q plain_ok yb_all (Some yb_hf) yb_xrows 1 0); [lia|exact (yb_all_tables _ yb_hf_fine)]. Qed.
(** The same rows from the highest to the lowest. *)
Example C161_order_case : exists s, configure 1 plain parse_q (with_terms (rev yb_rows)) 300 None yb_xrows Yb174 (init Exact 0 0) = (Raise KeyError, s) /\
  line s D3 K1 /\ no_set s /\ plain_name s D3 /\ plain_name s K1.
Proof.
  apply C161_order_refuted; [exact plain_ok|lia| | | | |].
  - change (firstn (Z.to_nat 300) (with_terms (rev yb_rows))) with (with_terms (rev yb_rows)). apply yb_well_formed; [exact no_hf_fine| |]; vm_compute; reflexivity.
  - reflexivity.
  - reflexivity.
  - exists 5%nat, 1%nat, (Q2Qc 688000000000000), (Q2Qc 1009000000000000).
    split; [eexists; eexists; split; [reflexivity|]; split; vm_compute; reflexivity|]. split; [eexists; eexists; split; [reflexivity|]; split; vm_compute; reflexivity|].
    split; [lia|]. unfold Qcle. vm_compute. discriminate.
  - eexists. split; [left; reflexivity|]. vm_compute. reflexivity.
Qed.

(** C161, the file of hyperfine constants: a row that cannot be read. *)

(** The row ends the reading of the file with [e]: it has not four fields, or
    its first number cannot be read.  (A KeyError is ignored.) *)
Definition stops (parse : string -> res Exact) (row : list string) (e : exn) : Prop :=
  List.length row <> 4%nat /\ e = ValueError \/
  exists n x y z, row = [n; x; y; z] /\ parse x = Raise e /\ e <> KeyError.
Definition hf_text_with (rs : list (csv_row Exact)) (rest : list (list string)) : string := write_csv (map (fields Exact) rs ++ rest).

(** A TypeError is as good as the end of the file: the rows after it are not
    read, and no exception tells.  Any other exception ends the generation, and
    there is no atom, whichever way transitions are to be found. *)
Theorem C161_unreadable_row : forall muB orc parse, (forall n, oracle_ok (orc n)) -> forall rt rs row rest tr e I B, (0 <= I)%Z ->
  Forall (fun p => readable Exact (fst p) (snd p)) rt -> fine parse (Some rs) -> Forall (fun r => r <> []) (row :: rest) -> stops parse row e ->
  (e = TypeError -> generate_full Exact muB orc parse (map fst rt) None (Some (hf_text_with rs (row :: rest))) tr (init Exact I B) =
                    generate_full Exact muB orc parse (map fst rt) None (Some (hf_text rs)) tr (init Exact I B)) /\
  (e <> TypeError -> fst (generate_full Exact muB orc parse (map fst rt) None (Some (hf_text_with rs (row :: rest))) tr (init Exact I B)) = Raise e).
Proof.
  intros muB orc parse OK rt rs row rest tr e I B HI F Hf Ne St.
  destruct (C84_loaded Exact muB orc I B rt HI F) as [s0 [E0 _]].
  destruct (C57_rows Exact parse s0 rs Hf) as [s1 [E1 _]].
  assert (Nf : Forall (fun r : list string => r <> []) (map (fields Exact) rs)).
  { apply Forall_forall. intros r H. apply in_map_iff in H as [[[[n [x A]] [y B']] [z C]] [<- _]]. discriminate. }
  assert (Row : apply_row Exact parse row s1 = (Raise e, s1)).
  { destruct St as [[Ln ->]|[n [x [y [z [-> [P Nk]]]]]]].
    - destruct row as [|? [|? [|? [|? [|? ?]]]]]; try reflexivity. cbn in Ln. congruence.
    - unfold apply_row, assign. unfold bind. rewrite P. destruct e; try reflexivity. congruence. }
  assert (E2 : apply_hf_csv Exact parse (hf_text_with rs (row :: rest)) s0 = (Raise e, s1)).
  { unfold apply_hf_csv, hf_text_with in *. rewrite C83_csv by (apply Forall_app; auto). rewrite C83_csv in E1 by auto.
    rewrite (forM_app_ok Exact _ _ _ _ _ E1). cbn [forM]. unfold bind at 1. now rewrite Row. }
  change (write_csv (map (fields Exact) rs)) with (hf_text rs) in E1.
  split.
  - intros ->. unfold generate_full. unfold bind at 1 4. rewrite E0. unfold bind at 1 3. now rewrite E1, E2.
  - intros Ny. unfold generate_full. unfold bind at 1. rewrite E0. unfold bind at 1. rewrite E2. destruct e; try reflexivity. congruence.
Qed.
Print Assumptions C161_unreadable_row.

(** A row with an empty field too many, and a reader of numbers that knows no
    dash. *)
Definition parse_dash (x : string) : res Exact := if String.eqb x "-" then Raise TypeError else parse_q x.
Lemma yb_hf_dash : fine parse_dash (Some yb_hf).
Proof. repeat (constructor; [split; [reflexivity|]; split; [vm_compute; reflexivity|]; split; vm_compute; reflexivity|]). constructor. Qed.
Example C161_unreadable_case : forall tr,
  fst (generate_full Exact 1 plain parse_q (map fst (with_terms yb_rows)) None (Some (hf_text_with yb_hf [[P1; "1/1"; "0/1"; "0/1"; ""]]%string)) tr (init Exact 1 0)) = Raise ValueError /\
  generate_full Exact 1 plain parse_dash (map fst (with_terms yb_rows)) None (Some (hf_text_with yb_hf [[P1; "-"; "0/1"; "0/1"]; [P1; "9/1"; "9/1"; "9/1"]]%string)) tr (init Exact 1 0) =
  generate_full Exact 1 plain parse_dash (map fst (with_terms yb_rows)) None (Some (hf_text yb_hf)) tr (init Exact 1 0).
Proof.
  intros tr. assert (F : Forall (fun p => readable Exact (fst p) (snd p)) (with_terms yb_rows)) by (apply readableb_ok; vm_compute; reflexivity). split.
  - refine (proj2 (C161_unreadable_row 1 plain parse_q plain_ok (with_terms yb_rows) yb_hf _ [] tr ValueError 1 0 _ F yb_hf_fine _ _) _); [lia| | |discriminate].
    + constructor; [discriminate|constructor].
    + left. split; [cbn; lia|reflexivity].
  - refine (proj1 (C161_unreadable_row 1 plain parse_dash plain_ok (with_terms yb_rows) yb_hf _ _ tr TypeError 1 0 _ F yb_hf_dash _ _) eq_refl); [lia| |].
    + repeat (constructor; [discriminate|]). constructor.
    + right. exists P1, "-"%string, "0/1"%string, "0/1"%string. repeat split; discriminate.
Qed.
