(** Properties C84-C93: atoms made from tables. *)
From Coq Require Import List Bool ZArith QArith Qcanon Lia String Ascii Permutation Sorted.
From Verif Require Import Base Num PyStr Util UtilProofs Regex Parse Term TermProofs Hyperfine HyperfineProofs Graph GraphProofs Rules Atom AtomInv
  AtomSafe AtomSafe2 AtomSafe3 AtomSafe5 AtomSafe6 AtomLevels AtomKeep AtomHist AtomNames AtomAlias AtomPaths AtomTrans AtomExample IO PropIO Tables.
Import ListNotations.
Local Open Scope string_scope.
Local Open Scope list_scope.

Lemma upd_last {A} : forall (f : A -> A) l x, upd (List.length l) f (l ++ [x]) = l ++ [f x].
Proof. intros f l x. induction l as [|y l IH]; [reflexivity|]. cbn [List.length app upd]. now rewrite IH. Qed.
Lemma seq_S_app : forall n, seq 0 (S n) = seq 0 n ++ [n].
Proof. intros. now rewrite seq_S. Qed.

Lemma first_seen_nodup : forall ks, NoDup ks -> first_seen ks = ks.
Proof.
  assert (G : forall ks acc, NoDup (acc ++ ks) -> fold_left (fun acc k => if in_dec string_dec k acc then acc else acc ++ [k]) ks acc = acc ++ ks).
  { induction ks as [|k ks IH]; intros acc Nd; [now rewrite app_nil_r|]. cbn [fold_left].
    destruct (in_dec string_dec k acc) as [H|H].
    - apply NoDup_remove_2 in Nd. destruct Nd. apply in_or_app. now left.
    - rewrite IH by (now rewrite <- app_assoc). now rewrite <- app_assoc. }
  intros ks Nd. exact (G ks [] Nd).
Qed.

Section Load.
  Context (N : Num) (muB : num N) (orc : nat -> oracle) (OK : forall n, oracle_ok (orc n)).
  Implicit Types s : st N.

  (** ** C85: the first rows *)

  Definition load_one (r : trow N) : M N unit :=
    skip_key N (bind (row_level N r) (fun a => void N (add_level N a false None))).
  Lemma load_row_nth : forall tbl i s, load_row N tbl i s = match nth_error tbl i with Some r => load_one r s | None => (Ok tt, s) end.
  Proof. intros. unfold load_row, load_one, skip_key, bind at 1, asks. destruct (nth_error tbl i); reflexivity. Qed.
  Lemma load_rows : forall tbl n k s, forM (seq k n) (load_row N tbl) s = forM (firstn n (skipn k tbl)) load_one s.
  Proof.
    intros tbl n. induction n as [|n IH]; intros k s; [now rewrite firstn_O|].
    cbn [seq forM]. unfold bind at 1. rewrite load_row_nth. destruct (nth_error tbl k) as [r|] eqn:E.
    - assert (Sk : skipn k tbl = r :: skipn (S k) tbl).
      { clear - E. revert tbl E. induction k as [|k IH]; intros [|x tbl] E; try discriminate; [injection E as ->; reflexivity|]. now apply IH. }
      rewrite Sk. cbn [firstn forM]. unfold bind at 1. destruct (load_one r s) as [[u|e] s1]; [apply IH|reflexivity].
    - apply nth_error_None in E. rewrite IH, !skipn_all2 by lia. now rewrite !firstn_nil.
  Qed.
  Definition wanted (tbl : list (trow N)) (num : option Z) : list (trow N) := match num with Some n => firstn (Z.to_nat n) tbl | None => tbl end.
  Lemma from_dataframe_eq : forall tbl num s, from_dataframe N tbl num s = forM (wanted tbl num) load_one s.
  Proof. intros tbl num s. unfold from_dataframe. rewrite load_rows. cbn [skipn]. destruct num; [reflexivity|]. now rewrite firstn_all. Qed.

  (** num_levels loads the first rows, and no more than there are. *)
  Theorem C85_first : forall tbl n s, from_dataframe N tbl (Some n) s = from_dataframe N (firstn (Z.to_nat n) tbl) None s.
  Proof. intros. now rewrite !from_dataframe_eq. Qed.
  Theorem C85_all : forall tbl n s, (Z.of_nat (List.length tbl) <= n)%Z -> from_dataframe N tbl (Some n) s = from_dataframe N tbl None s.
  Proof. intros tbl n s H. rewrite C85_first, firstn_all2 by lia. reflexivity. Qed.

  (** ** C84: one level per row *)

  (** The row can be read: it has a component with a configuration, symbols
      that parse, and a J. *)
  Definition readable (r : trow N) (ts : list term) : Prop := row_terms N r = Ok ts /\ ts <> [] /\ forallb plain_term ts = true.
  Definition row_lv (r : trow N) (ts : list term) : level N :=
    mkLevel N LE None (multiterm ts) true None false [] (r_E N r) (nofQ N 0) (nofQ N 0) (nofQ N 0) (r_g N r) (nofQ N 0) (nofQ N 0).

  Lemma load_one_eq : forall r ts s, readable r ts ->
    load_one r s = (Ok tt, set_g0 (g_add_node (lname (row_lv r ts)) (List.length (s_levels s)) (s_g0 s)) (set_levels (s_levels s ++ [row_lv r ts]) s)).
  Proof.
    intros r ts s [E [Ne P]]. unfold load_one, skip_key, row_level. unfold bind at 1 2. rewrite E. unfold new_level. destruct ts as [|t ts]; [congruence|]. rewrite P.
    unfold bind at 1, gets. unfold bind at 1, modify at 1. unfold ret at 1.
    set (l := mkLevel N LE None (multiterm (t :: ts)) false None false [] (r_E N r) (nofQ N 0) (nofQ N 0) (nofQ N 0) (r_g N r) (nofQ N 0) (nofQ N 0)).
    set (s1 := set_levels (s_levels s ++ [l]) s).
    assert (V : lv s1 (List.length (s_levels s)) = Some l) by (unfold lv, s1; cbn; rewrite nth_error_app2, Nat.sub_diag by lia; reflexivity).
    unfold void, bind at 1. unfold add_level, bind at 1. rewrite (lv_add_eq _ _ _ _ V). cbn [l l_subs dvals map forM]. unfold ret at 1.
    unfold bind at 1, ret at 1. unfold bind at 1, get_lv, asks.
    assert (V2 : lv (joined N s1 (List.length (s_levels s)) l) (List.length (s_levels s)) = Some (lv_set_attached true l)).
    { unfold joined. cbn [l_kind l]. change (lv (upd_lv (List.length (s_levels s)) (lv_set_attached true) s1) (List.length (s_levels s)) = Some (lv_set_attached true l)).
      rewrite lv_upd_lv, Nat.eqb_refl, V. reflexivity. }
    rewrite V2. cbn [l_alias lv_set_attached l]. unfold bind, ret. f_equal.
    unfold joined. cbn [l_kind l set_graph graph_of]. unfold upd_lv, s1. cbn [s_levels set_levels]. rewrite upd_last. reflexivity.
  Qed.

  (** The ways of the public interface used. *)
  Definition row_ops (i : nat) (rt : trow N * list term) : list (op N) :=
    [ONewLevel N (snd rt) (r_E N (fst rt)) (nofQ N 0) (nofQ N 0) (nofQ N 0) (r_g N (fst rt)) None false; OAddLevel N i false None].
  Lemma row_ops_eq : forall r ts s, readable r ts -> run N muB orc s (row_ops (List.length (s_levels s)) (r, ts)) = snd (load_one r s).
  Proof.
    intros r ts s R. pose proof R as [E [Ne P]]. rewrite (load_one_eq r ts s R). rewrite <- (f_equal snd (load_one_eq r ts s R)).
    unfold load_one, skip_key, row_level. unfold bind at 1 2. rewrite E. unfold row_ops, run. cbn [fold_left step run_op fst snd].
    unfold step. cbn [run_op]. unfold new_level. destruct ts as [|t ts]; [congruence|]. rewrite P. unfold void. unfold bind, gets, modify, ret. cbn [fst snd].
    destruct (add_level N _ _ _ _) as [[u|e] s1]; [reflexivity|]. destruct e; reflexivity.
  Qed.

  (** All rows. *)
  Definition rows_lv (rt : list (trow N * list term)) : list (level N) := map (fun p => row_lv (fst p) (snd p)) rt.
  Fixpoint nodes_from (n : nat) (ls : list (level N)) (g : graph) : graph :=
    match ls with [] => g | l :: ls' => nodes_from (S n) ls' (g_add_node (lname l) n g) end.
  Lemma load_all : forall rt s, Forall (fun p => readable (fst p) (snd p)) rt ->
    forM (map fst rt) load_one s = (Ok tt, set_g0 (nodes_from (List.length (s_levels s)) (rows_lv rt) (s_g0 s)) (set_levels (s_levels s ++ rows_lv rt) s)).
  Proof.
    induction rt as [|[r ts] rt IH]; intros s F.
    - cbn. rewrite app_nil_r. destruct s. reflexivity.
    - inversion F as [|? ? R F']; subst. cbn [map forM fst]. unfold bind at 1. rewrite (load_one_eq r ts s R). rewrite IH by auto.
      cbn [s_levels set_g0 set_levels s_g0 rows_lv map nodes_from fst snd]. rewrite app_length, Nat.add_1_r, <- app_assoc. reflexivity.
  Qed.
  Lemma load_all_run : forall rt s, Forall (fun p => readable (fst p) (snd p)) rt ->
    exists os, snd (forM (map fst rt) load_one s) = run N muB orc s os.
  Proof.
    induction rt as [|[r ts] rt IH]; intros s F; [now exists []|]. inversion F as [|? ? R F']; subst. cbn [map forM fst]. unfold bind at 1.
    pose proof (row_ops_eq r ts s R) as Ro. destruct (load_one r s) as [u s1] eqn:E. rewrite (load_one_eq r ts s R) in E. injection E as <- E. cbn [snd] in Ro.
    destruct (IH s1 F') as [os Eo]. exists (row_ops (List.length (s_levels s)) (r, ts) ++ os). unfold run in *. rewrite fold_left_app, Ro. exact Eo.
  Qed.

  Lemma nodes_from_attrs : forall ls n g, graph_wf g -> (forall k, dget k (g_nodes g) <> Some None) ->
    node_attrs (nodes_from n ls g) = fold_left (fun d p => dset (fst p) (snd p) d) (combine (map (@lname N) ls) (seq n (List.length ls))) (node_attrs g).
  Proof.
    induction ls as [|l ls IH]; intros n g W B; [reflexivity|]. cbn [nodes_from map List.length seq combine fold_left fst snd]. rewrite IH.
    - now rewrite add_node_bare.
    - now apply add_node_wf.
    - intros k. unfold g_add_node. cbn [g_nodes]. rewrite dget_dset. destruct (keqb k (lname l)) eqn:E; [discriminate|].
      unfold g_touch. destruct (dmem (lname l) (g_nodes g)); [apply B|]. cbn [g_nodes]. rewrite dget_dset, E. apply B.
  Qed.

  Lemma map_fst_combine : forall {A B} (l : list A) (m : list B), List.length l = List.length m -> map fst (combine l m) = l.
  Proof. induction l as [|x l IH]; intros [|y m] H; try discriminate; [reflexivity|]. cbn. f_equal. apply IH. now injection H. Qed.

  (** What the atom holds afterwards: a level for every row, in the order of
      the table; the names in the order of their first row; and for each name
      the last row of that name. *)
  Theorem C84_loaded : forall I B rt, (0 <= I)%Z -> Forall (fun p => readable (fst p) (snd p)) rt ->
    exists s, from_dataframe N (map fst rt) None (init N I B) = (Ok tt, s) /\ reachable N muB orc s /\
      s_levels s = rows_lv rt /\ s_trans s = [] /\ s_lal s = [] /\
      (let names := map (@lname N) (rows_lv rt) in
       dkeys (node_attrs (s_g0 s)) = first_seen names /\
       forall k, dget k (node_attrs (s_g0 s)) = last_for k (combine names (seq 0 (List.length rt)))).
  Proof.
    intros I B rt HI F. rewrite from_dataframe_eq. cbn [wanted]. pose proof (load_all rt (init N I B) F) as E. destruct (load_all_run rt (init N I B) F) as [os Eo].
    eexists. split; [exact E|]. rewrite E in Eo. cbn [snd] in Eo.
    split; [exists I, B, os; split; [exact HI|exact Eo]|]. split; [reflexivity|]. split; [reflexivity|]. split; [reflexivity|].
    cbn [s_g0 set_g0 set_levels init s_levels List.length]. rewrite nodes_from_attrs by (first [apply graph_wf_empty|intros k; discriminate]).
    assert (Len : List.length (rows_lv rt) = List.length rt) by apply map_length. rewrite Len. split; [|intros k; now rewrite fold_dset_get].
    rewrite fold_dset_keys. rewrite map_fst_combine by (now rewrite map_length, seq_length). reflexivity.
  Qed.

  Lemma last_for_nodup : forall ps k v, NoDup (map fst ps) -> In (k, v) ps -> last_for k ps = Some v.
  Proof.
    intros ps k v Nd Hi. unfold last_for.
    assert (G : forall (qs : list (string * nat)) c, ~ In k (map fst qs) -> fold_left (fun cur p => if string_dec (fst p) k then Some (snd p) else cur) qs c = c).
    { induction qs as [|[a b] qs IH]; intros c H; [reflexivity|]. cbn [fold_left fst snd]. destruct (string_dec a k) as [->|E]; [destruct H; now left|]. apply IH. intros X; apply H; now right. }
    generalize (@None nat). induction ps as [|[a b] ps IH]; intros c; [destruct Hi|]. inversion Nd as [|? ? Ni Nd']; subst. cbn [fold_left fst snd].
    destruct Hi as [E|Hi].
    - injection E as -> ->. destruct (string_dec k k) as [_|X]; [|congruence]. now apply G.
    - now apply IH.
  Qed.
  Lemma combine_nth : forall {A} (l : list A) n i x, nth_error l i = Some x -> In (x, n + i)%nat (combine l (seq n (List.length l))).
  Proof.
    induction l as [|y l IH]; intros n [|i] x E; try discriminate; cbn [List.length seq combine].
    - injection E as ->. rewrite Nat.add_0_r. now left.
    - right. replace (n + S i)%nat with (S n + i)%nat by lia. now apply IH.
  Qed.
  (** With a name of its own, every row is the level of that name, with its
      energy, J and g-value, and there are as many levels as rows. *)
  Theorem C84_partial : forall I B rt, (0 <= I)%Z -> Forall (fun p => readable (fst p) (snd p)) rt ->
    NoDup (map (@lname N) (rows_lv rt)) ->
    exists s, from_dataframe N (map fst rt) None (init N I B) = (Ok tt, s) /\ reachable N muB orc s /\
      List.length (node_attrs (s_g0 s)) = List.length rt /\
      forall i r ts, nth_error rt i = Some (r, ts) ->
        let k := lname (row_lv r ts) in
        dget k (node_attrs (s_g0 s)) = Some i /\ energy N muB s i = Some (r_E N r) /\
        (exists l, lv s i = Some l /\ l_lande l = r_g N r /\ l_term l = multiterm ts) /\
        (has_char "=" k = false -> levels_get N k s = (Ok i, s)).
  Proof.
    intros I B rt HI F Nd. destruct (C84_loaded I B rt HI F) as [s [E [R [Lv [_ [La [Ks G]]]]]]]. exists s. split; [exact E|]. split; [exact R|]. split.
    { assert (Len : List.length (dkeys (node_attrs (s_g0 s))) = List.length rt).
      { rewrite Ks. rewrite first_seen_nodup by exact Nd. unfold rows_lv. now rewrite !map_length. }
      unfold dkeys in Len. now rewrite map_length in Len. }
    intros i r ts Hi k.
    assert (Hl : nth_error (rows_lv rt) i = Some (row_lv r ts)) by (unfold rows_lv; now rewrite nth_error_map, Hi).
    assert (V : lv s i = Some (row_lv r ts)) by (unfold lv; now rewrite Lv).
    assert (D : dget k (node_attrs (s_g0 s)) = Some i).
    { rewrite G. apply last_for_nodup.
      - rewrite map_fst_combine; [exact Nd|]. unfold rows_lv. now rewrite !map_length, seq_length.
      - assert (Hn : nth_error (map (@lname N) (rows_lv rt)) i = Some k) by (now rewrite nth_error_map, Hl).
        pose proof (combine_nth _ 0 _ _ Hn) as C. unfold rows_lv in C. rewrite !map_length in C. exact C. }
    split; [exact D|]. split; [unfold energy, energyE; now rewrite V|]. split; [exists (row_lv r ts); auto|].
    intros H. rewrite get_plain; [now rewrite D|now rewrite La|exact H].
  Qed.

  (** A row that cannot be read for any other reason than a missing key stops
      the loading, with the rows above it loaded; one with a missing key is
      passed over. *)
  Lemma forM_app_ok : forall {A} (f : A -> M N unit) xs ys s s1, forM xs f s = (Ok tt, s1) -> forM (xs ++ ys) f s = forM ys f s1.
  Proof.
    intros A f. induction xs as [|x xs IH]; intros ys s s1 E; [injection E as <-; reflexivity|]. cbn [app forM] in *. unfold bind in *.
    destruct (f x s) as [[u|e] s']; [now apply IH|discriminate].
  Qed.
  Theorem C84_unreadable : forall rt r rest s e, Forall (fun p => readable (fst p) (snd p)) rt -> row_terms N r = Raise e ->
    exists s1, from_dataframe N (map fst rt) None s = (Ok tt, s1) /\
      from_dataframe N (map fst rt ++ r :: rest) None s =
        (if match e with KeyError => true | _ => false end then from_dataframe N rest None s1 else (Raise e, s1)).
  Proof.
    intros rt r rest s e F E. rewrite !from_dataframe_eq. cbn [wanted]. eexists. split; [now apply load_all|].
    rewrite (forM_app_ok _ _ _ _ _ (load_all rt s F)). cbn [forM]. unfold bind at 1. unfold load_one at 1, skip_key, row_level. unfold bind at 1 2. rewrite E.
    destruct e; reflexivity || now rewrite from_dataframe_eq.
  Qed.

  (** ** C86: the name of a loaded level *)

  (** The components of a row that are used. *)
  Definition used (r : trow N) : list (string * string * Qc) :=
    flat_map (fun p => match fst (fst p) with Some c => [(c, snd (fst p), snd p)] | None => [] end) (r_parts N r).
  Lemma parts_used : forall J ps ts, parts_terms J ps = Ok ts ->
    map (fun t => (t_conf t, t_term t, t_pct t)) ts = flat_map (fun p => match fst (fst p) with Some c => [(c, snd (fst p), snd p)] | None => [] end) ps /\
    (forall t, In t ts -> half_of J = Ok (t_J t) /\ t_F t = None /\ t_mF t = None).
  Proof.
    intros J ps. induction ps as [|[[[c|] tm] p] ps IH]; intros ts E; cbn [parts_terms flat_map fst snd app] in *.
    - injection E as <-. split; [reflexivity|intros t []].
    - destruct (new_term c tm J VNone VNone p None) as [t|e] eqn:Et; [|discriminate]. cbn [rbind] in E.
      destruct (parts_terms J ps) as [ts'|e]; [|discriminate]. injection E as <-. destruct (IH ts' eq_refl) as [Em Hs].
      apply new_term_qn in Et. destruct Et as [Ec [Etm [Ep [_ [Ej [Ef Emf]]]]]]. split; [cbn [map]; now rewrite Em, Ec, Etm, Ep|].
      intros t' [<-|Ht]; [|now apply Hs]. split; [exact Ej|]. split; [now injection Ef|now injection Emf].
    - now apply IH.
  Qed.
  Lemma row_name : forall r ts, readable r ts -> exists c tm p, In (c, tm, p) (used r) /\
    (forall c' tm' p', In (c', tm', p') (used r) -> (p' <= p)%Qc) /\
    exists j, half_of (r_J N r) = Ok (Some j) /\ lname (row_lv r ts) = (c ++ " " ++ tm ++ half_label j)%string /\ l_J (row_lv r ts) = Some j.
  Proof.
    intros r ts [E [Ne P]]. destruct (parts_used _ _ _ E) as [Em Hs]. destruct ts as [|t0 ts]; [congruence|].
    destruct (multiterm_leading (t0 :: ts) t0 (or_introl eq_refl)) as [ld [rest [Ml [Il _]]]].
    exists (t_conf ld), (t_term ld), (t_pct ld). fold (used r) in Em. split; [rewrite <- Em; change (t_conf ld, t_term ld, t_pct ld) with ((fun t => (t_conf t, t_term t, t_pct t)) ld); now apply in_map|]. split.
    - intros c' tm' p' H. rewrite <- Em in H. apply in_map_iff in H. destruct H as [t [Et Ht]]. injection Et as <- <- <-.
      destruct (multiterm_leading _ t Ht) as [ld' [rest' [Ml' [_ [Le _]]]]]. rewrite Ml in Ml'. injection Ml' as <- _. exact Le.
    - destruct (Hs ld Il) as [Hj [Hf Hm]]. rewrite forallb_forall in P. specialize (P ld Il). unfold plain_term in P.
      destruct (t_J ld) as [j|] eqn:J; [|discriminate]. exists j. split; [exact Hj|].
      unfold lname, l_J, lead, row_lv. cbn [l_term]. rewrite Ml. split; [|exact J].
      unfold t_name, t_term_name. rewrite J, Hf, Hm. cbn [frac]. now rewrite append_nil_r.
  Qed.

  (** A level is named after a component of the largest percentage, and has
      the J of its row. *)
  Theorem C86_largest : forall r ts, readable r ts -> exists c tm p j, In (c, tm, p) (used r) /\
    (forall c' tm' p', In (c', tm', p') (used r) -> (p' <= p)%Qc) /\
    half_of (r_J N r) = Ok (Some j) /\ l_J (row_lv r ts) = Some j /\ lname (row_lv r ts) = (c ++ " " ++ tm ++ half_label j)%string.
  Proof.
    intros r ts R. destruct (row_name r ts R) as [c [tm [p [H1 [H2 [j [H3 [H4 H5]]]]]]]]. exists c, tm, p, j. auto.
  Qed.
  (** The first component is the name when its percentage is the largest. *)
  Theorem C86_partial : forall r ts c tm p rest, readable r ts -> used r = (c, tm, p) :: rest ->
    (forall c' tm' p', In (c', tm', p') rest -> (p' <= p)%Qc) ->
    exists j, half_of (r_J N r) = Ok (Some j) /\ lname (row_lv r ts) = (c ++ " " ++ tm ++ half_label j)%string.
  Proof.
    intros r ts c tm p rest [E [Ne P]] U Mx. destruct (parts_used _ _ _ E) as [Em Hs]. fold (used r) in Em. rewrite U in Em.
    destruct ts as [|t0 ts]; [congruence|]. cbn [map] in Em. injection Em as Ec Et Ep Em.
    assert (Ml : exists l, multiterm (t0 :: ts) = t0 :: l).
    { exists (multiterm ts). unfold multiterm, isort. cbn [fold_right]. fold (isort pct_ge ts). destruct (isort pct_ge ts) as [|t1 l] eqn:Ei; [reflexivity|]. cbn [insert].
      assert (H1 : In t1 ts). { apply (Permutation_in t1 (Permutation_sym (isort_perm pct_ge ts))). rewrite Ei. now left. }
      assert (X : pct_ge t0 t1 = true).
      { unfold pct_ge, Qc_leb. apply Qle_bool_iff. rewrite Ep. apply (Mx (t_conf t1) (t_term t1)). rewrite <- Em. apply (in_map (fun t => (t_conf t, t_term t, t_pct t)) _ _ H1). }
      now rewrite X. }
    destruct Ml as [l Ml]. destruct (Hs t0 (or_introl eq_refl)) as [Hj [Hf Hm]]. rewrite forallb_forall in P. specialize (P t0 (or_introl eq_refl)). unfold plain_term in P.
    destruct (t_J t0) as [j|] eqn:J; [|discriminate]. exists j. split; [exact Hj|].
    unfold lname, lead, row_lv. cbn [l_term]. rewrite Ml. unfold t_name, t_term_name. rewrite J, Hf, Hm, Ec, Et. cbn [frac]. now rewrite append_nil_r.
  Qed.
End Load.
Print Assumptions C84_loaded.
Print Assumptions C84_partial.
Print Assumptions C84_unreadable.
Print Assumptions C85_first.
Print Assumptions C86_partial.

(** *** Cases *)

Definition terms_of (r : trow Exact) : list term := match row_terms Exact r with Ok ts => ts | Raise _ => [] end.
Definition readableb (r : trow Exact) : bool := match row_terms Exact r with Ok (t :: ts) => forallb plain_term (t :: ts) | _ => false end.
Lemma readableb_ok : forall tbl, forallb readableb tbl = true -> Forall (fun p => readable Exact (fst p) (snd p)) (map (fun r => (r, terms_of r)) tbl).
Proof.
  intros tbl H. apply Forall_forall. intros p Hp. apply in_map_iff in Hp. destruct Hp as [r [<- Hr]]. rewrite forallb_forall in H. specialize (H r Hr).
  unfold readableb in H. unfold readable, terms_of. cbn [fst snd]. destruct (row_terms Exact r) as [[|t ts]|e]; try discriminate. split; [reflexivity|]. split; [discriminate|exact H].
Qed.
Definition row1 (c tm j : string) (E : Z) : trow Exact := mkRow Exact [(Some c, tm, Q2Qc 100)] (VStr j) (Q2Qc (E # 1)) (Q2Qc 1).
Definition tbl_ok : list (trow Exact) :=
  [row1 "6s" "2S" "1/2" 0; mkRow Exact [(Some "6p", "2P*", Q2Qc 90); (None, "", 0%Qc); (Some "5d6p", "2P*", Q2Qc 10)] (VStr "3/2") (Q2Qc (7 # 2)) (Q2Qc (4 # 3))].
Example C84_case : Forall (fun p => readable Exact (fst p) (snd p)) (map (fun r => (r, terms_of r)) tbl_ok) /\
  map (@lname Exact) (rows_lv Exact (map (fun r => (r, terms_of r)) tbl_ok)) = ["6s 2S1/2"; "6p 2P*3/2"] /\
  (let s := snd (from_dataframe Exact tbl_ok None (from 1)) in
   fst (levels_get Exact "6p 2P*3/2" s) = Ok 1%nat /\ option_map this (energy Exact 1%Qc s 1) = Some (7 # 2)%Q /\ List.length (node_attrs (s_g0 s)) = 2%nat).
Proof. split; [apply readableb_ok; vm_compute; reflexivity|]. vm_compute. repeat match goal with |- _ /\ _ => split end; reflexivity. Qed.
(** A second row with the name of the first takes its place: the energy of the
    first can no longer be asked for. *)
Theorem C84_refuted : exists tbl s, Forall (fun p => readable Exact (fst p) (snd p)) (map (fun r => (r, terms_of r)) tbl) /\
  from_dataframe Exact tbl None (from 1) = (Ok tt, s) /\ List.length tbl = 2%nat /\
  node_attrs (s_g0 s) = [("6s 2S1/2", 1%nat)] /\ map (fun l : level Exact => this (l_E l)) (s_levels s) = [0; 5]%Q.
Proof.
  exists [row1 "6s" "2S" "1/2" 0; row1 "6s" "2S" "1/2" 5], (snd (from_dataframe Exact [row1 "6s" "2S" "1/2" 0; row1 "6s" "2S" "1/2" 5] None (from 1))).
  split; [apply readableb_ok; vm_compute; reflexivity|]. split.
  - assert (H : fst (from_dataframe Exact [row1 "6s" "2S" "1/2" 0; row1 "6s" "2S" "1/2" 5] None (from 1)) = Ok tt) by (vm_compute; reflexivity).
    rewrite <- H. apply surjective_pairing.
  - vm_compute. repeat match goal with |- _ /\ _ => split end; reflexivity.
Qed.
Print Assumptions C84_refuted.
Example C84_unreadable_case : row_terms Exact (row1 "6s" "2S" "1/x" 0) = Raise ValueError /\
  fst (from_dataframe Exact (tbl_ok ++ [row1 "6s" "2S" "1/x" 0; row1 "7s" "2S" "1/2" 9])%list None (from 1)) = Raise ValueError.
Proof. vm_compute. split; reflexivity. Qed.
Example C85_case : List.length (s_levels (snd (from_dataframe Exact tbl_ok (Some 1%Z) (from 1)))) = 1%nat /\
  List.length (s_levels (snd (from_dataframe Exact tbl_ok (Some 10%Z) (from 1)))) = 2%nat /\ fst (from_dataframe Exact tbl_ok (Some 10%Z) (from 1)) = Ok tt.
Proof. vm_compute. repeat match goal with |- _ /\ _ => split end; reflexivity. Qed.
Example C86_case : exists r ts c tm p rest, readable Exact r ts /\ used Exact r = (c, tm, p) :: rest /\ rest <> [] /\
  lname (row_lv Exact r ts) = "6p 2P*3/2" /\ c = "6p".
Proof.
  exists (nth 1 tbl_ok (row1 "" "" "" 0)), (terms_of (nth 1 tbl_ok (row1 "" "" "" 0))), "6p", "2P*", (Q2Qc 90), [("5d6p", "2P*", Q2Qc 10)].
  split.
  - assert (F : Forall (fun p => readable Exact (fst p) (snd p)) (map (fun r => (r, terms_of r)) tbl_ok)) by (apply readableb_ok; vm_compute; reflexivity).
    rewrite Forall_forall in F. apply (F (nth 1 tbl_ok (row1 "" "" "" 0), terms_of (nth 1 tbl_ok (row1 "" "" "" 0)))). right. now left.
  - split; [reflexivity|]. split; [discriminate|]. vm_compute. split; reflexivity.
Qed.
(** The first component of the table is not always the name. *)
Definition row_mixed : trow Exact := mkRow Exact [(Some "6s2", "1S", Q2Qc 40); (Some "6p2", "1S", Q2Qc 60)] (VStr "0") 0%Qc 0%Qc.
Theorem C86_refuted : exists r ts c tm p rest, readable Exact r ts /\ used Exact r = (c, tm, p) :: rest /\
  (c ++ " " ++ tm ++ "0")%string = "6s2 1S0" /\ lname (row_lv Exact r ts) = "6p2 1S0" /\
  fst (levels_get Exact "6s2 1S0" (snd (from_dataframe Exact [r] None (from 1)))) = Raise KeyError.
Proof.
  exists row_mixed, (terms_of row_mixed), "6s2", "1S", (Q2Qc 40), [("6p2", "1S", Q2Qc 60)]. split.
  - assert (F : Forall (fun p => readable Exact (fst p) (snd p)) (map (fun r => (r, terms_of r)) [row_mixed])) by (apply readableb_ok; vm_compute; reflexivity).
    inversion F; subst; assumption.
  - split; [reflexivity|]. vm_compute. repeat match goal with |- _ /\ _ => split end; reflexivity.
Qed.
Print Assumptions C86_refuted.

(** ** C87: a missing g-value *)

(** With a value in the table all Zeeman energies are finite: each is the sum
    of the three layers. *)
Theorem C87_partial : forall g muB Bf qz E A B C i j f m, (0 <= f)%Z ->
  z_level_np muB Bf qz E A B C i j f m (loaded_g (Some g)) =
  Fin (E + hf_shift Exact i j f A B C + z_shift Exact muB (compute_gF Exact i j f g) m Bf qz).
Proof. intros. now apply z_level_value. Qed.
Print Assumptions C87_partial.
Example C87_case : z_level_np (qci 10) (qci 2) 0 (qci 100) (qci 4) 0 0 1 1 2 2 (loaded_g (Some (qci 2))) = Fin (qci 121).
Proof. vm_compute. apply f_equal. apply Qc_is_canon. reflexivity. Qed.
(** Without one, no sublevel with F > 0 has an energy, not even in zero field,
    although a g-value could be computed from the term. *)
Theorem C87_refuted : forall muB Bf qz E A B C i j f m, (0 < f)%Z ->
  z_level_np muB Bf qz E A B C i j f m (loaded_g None) = NaN.
Proof.
  intros. unfold z_level_np, loaded_g, gF_np. destruct (Z.eqb_spec f 0); [lia|]. cbn [np_scale np_add]. reflexivity.
Qed.
Print Assumptions C87_refuted.
Example C87_refuted_case : exists t, new_term "6s" "2S" (VStr "1/2") VNone VNone 1%Qc None = Ok t /\
  match compute_gJ [t] with Some (Fin g) => Some (this g) | _ => None end = Some (20023 # 10000)%Q.
Proof. eexists. split; [vm_compute; reflexivity|]. vm_compute. reflexivity. Qed.

(** ** C88: transition tables *)

Section Trans.
  Context (N : Num) (muB : num N) (orc : nat -> oracle) (OK : forall n, oracle_ok (orc n)).
  Implicit Types s : st N.

  (** The names a row stands for. *)
  Definition row_keys (r : xrow N) : option (string * string) :=
    match j_label (xr_jl N r), j_label (xr_ju N r) with
    | Ok jl, Ok ju => Some ((xr_cl N r ++ " " ++ xr_tl N r ++ jl)%string, (xr_cu N r ++ " " ++ xr_tu N r ++ ju)%string)
    | _, _ => None
    end.
  (** They are plain names, not used as aliases. *)
  Definition usable s (r : xrow N) : Prop := exists kl ku, row_keys r = Some (kl, ku) /\
    has_char "=" kl = false /\ has_char "=" ku = false /\ dget kl (s_lal s) = None /\ dget ku (s_lal s) = None.
  (** The two levels, when both are in the atom. *)
  Definition row_ends s (r : xrow N) : option (string * string * nat * nat) :=
    match row_keys r with
    | Some (kl, ku) =>
        match dget kl (node_attrs (s_g0 s)), dget ku (node_attrs (s_g0 s)) with
        | Some a, Some b => Some (kl, ku, a, b)
        | _, _ => None
        end
    | None => None
    end.
  (** The transition of a row: upper and lower level by energy, the
      linewidth in Hz, the types allowed between the two levels. *)
  Definition row_trans s (r : xrow N) : option (trans N) :=
    match row_ends s r with
    | Some (_, _, a, b) =>
        match lv s a, lv s b, energy N muB s a, energy N muB s b with
        | Some la, Some lb, Some ea, Some eb =>
            match l_J la, l_J lb with
            | Some ja, Some jb =>
                Some (mkTrans N TT None a b (if nltb N ea eb then b else a) (if nltb N ea eb then a else b) true None
                        (option_map (fun q => (nmul N (fst q) (nofQ N (unit_Q (snd q))), uHz)) (xr_A N r)) (nofQ N 1)
                        (allowed_T ja jb (l_parity la) (l_parity lb) (Nat.eqb a b)) None [])
            | _, _ => None
            end
        | _, _, _, _ => None
        end
    | None => None
    end.

  (** The same levels, names and aliases. *)
  Definition alike s s' : Prop := s_levels s' = s_levels s /\ node_attrs (s_g0 s') = node_attrs (s_g0 s) /\
    s_lal s' = s_lal s /\ s_tal s' = s_tal s /\ s_I s' = s_I s /\ s_B s' = s_B s.
  Lemma alike_refl : forall s, alike s s.
  Proof. intros s. repeat split. Qed.
  Lemma alike_trans : forall s1 s2 s3, alike s1 s2 -> alike s2 s3 -> alike s1 s3.
  Proof. intros s1 s2 s3 [A1 [A2 [A3 [A4 [A5 A6]]]]] [B1 [B2 [B3 [B4 [B5 B6]]]]]. repeat split; congruence. Qed.
  Lemma alike_energy : forall s s' a, alike s s' -> lv s' a = lv s a /\ energy N muB s' a = energy N muB s a.
  Proof.
    intros s s' a [A1 [_ [_ [_ [A5 A6]]]]]. assert (V : forall b, lv s' b = lv s b) by (intros b; unfold lv; now rewrite A1). split; [apply V|].
    assert (E1 : forall b, energyE s' b = energyE s b) by (intros b; unfold energyE; now rewrite V).
    assert (E2 : forall b, energyHF s' b = energyHF s b).
    { intros b. unfold energyHF. rewrite V. destruct (lv s b) as [l|]; [|reflexivity]. destruct (l_parent l) as [p|]; [|reflexivity]. now rewrite V, E1, A5. }
    unfold energy, energyZ. rewrite V. destruct (lv s a) as [l|]; [|reflexivity]. destruct (l_kind l); auto.
    destruct (l_parent l) as [p|]; [|reflexivity]. now rewrite E2, A6.
  Qed.
  Lemma alike_row : forall s s' r, alike s s' -> (usable s r -> usable s' r) /\ row_ends s' r = row_ends s r /\ row_trans s' r = row_trans s r.
  Proof.
    intros s s' r A. pose proof A as [A1 [A2 [A3 _]]].
    assert (E : row_ends s' r = row_ends s r) by (unfold row_ends; now rewrite A2). split; [|split; [exact E|]].
    - intros [kl [ku H]]. exists kl, ku. now rewrite A3.
    - unfold row_trans. rewrite E. destruct (row_ends s r) as [[[[kl ku] a] b]|]; [|reflexivity].
      destruct (alike_energy s s' a A) as [-> ->]. destruct (alike_energy s s' b A) as [-> ->]. reflexivity.
  Qed.

  (** One row. *)
  Lemma one_trans : forall s r, WF s -> usable s r ->
    match row_ends s r with
    | Some (kl, ku, a, b) => exists x, row_trans s r = Some x /\
        load_trans_row N muB orc r s = (Ok tt, put_trans N s x) /\
        run N muB orc s [ONewTransition N a b None (xr_A N r) None; OAddTransition N (TObj (List.length (s_trans s))) None None None] = put_trans N s x /\
        WF (put_trans N s x) /\ alike s (put_trans N s x) /\ s_trans (put_trans N s x) = (s_trans s ++ [x])%list /\
        forall u v, edge (s_g0 (put_trans N s x)) u v =
          if (String.eqb u kl && String.eqb v ku) || (String.eqb u ku && String.eqb v kl) then Some (List.length (s_trans s)) else edge (s_g0 s) u v
    | None => row_trans s r = None /\ load_trans_row N muB orc r s = (Ok tt, s)
    end.
  Proof.
    intros s r W [kl [ku [K [Hl [Hu [Al Au]]]]]]. unfold row_trans, row_ends. rewrite K.
    unfold row_keys in K. destruct (j_label (xr_jl N r)) as [jl|] eqn:Jl; [|discriminate]. destruct (j_label (xr_ju N r)) as [ju|] eqn:Ju; [|discriminate]. injection K as Kl Ku.
    assert (L0 : load_trans_row N muB orc r s = skip_key N (
      bind (levels_get N kl) (fun e1 => bind (levels_get N ku) (fun e2 =>
      bind (new_transition N muB e1 e2 None (xr_A N r) None) (fun t => void N (add_transition N muB orc (TObj t) None None None))))) s).
    { subst kl ku. unfold load_trans_row. unfold bind at 1. rewrite Jl. unfold bind at 1. rewrite Ju. reflexivity. }
    assert (Gl : levels_get N kl s = (match dget kl (node_attrs (s_g0 s)) with Some a => Ok a | None => Raise KeyError end, s)) by (now apply get_plain).
    assert (Gu : levels_get N ku s = (match dget ku (node_attrs (s_g0 s)) with Some a => Ok a | None => Raise KeyError end, s)) by (now apply get_plain).
    assert (L1 : load_trans_row N muB orc r s = match dget kl (node_attrs (s_g0 s)), dget ku (node_attrs (s_g0 s)) with
      | Some a, Some b => skip_key N (bind (new_transition N muB a b None (xr_A N r) None) (fun t => void N (add_transition N muB orc (TObj t) None None None))) s
      | _, _ => (Ok tt, s) end).
    { rewrite L0. unfold skip_key, bind at 1. rewrite Gl. destruct (dget kl (node_attrs (s_g0 s))); [|reflexivity].
      unfold bind at 1. rewrite Gu. destruct (dget ku (node_attrs (s_g0 s))); reflexivity. }
    rewrite L1. clear L0 L1.
    destruct (dget kl (node_attrs (s_g0 s))) as [a|] eqn:Da; [|split; reflexivity].
    destruct (dget ku (node_attrs (s_g0 s))) as [b|] eqn:Db; [|split; reflexivity].
    destruct (node_inv _ _ _ _ W Da) as [la [Va [Ka [Na Aa]]]]. destruct (node_inv _ _ _ _ W Db) as [lb [Vb [Kb [Nb Ab]]]].
    destruct (proj1 (new_transition_spec N muB s a b None (xr_A N r) None la lb W Va Vb) Ka Kb) as [x [ja [jb [Ja [Jb [R [St [Su Eq]]]]]]]].
    rewrite Va, Vb. unfold tr_rec in R. rewrite Va in R. destruct (energy N muB s a) as [ea|] eqn:Ea; [|discriminate]. destruct (energy N muB s b) as [eb|] eqn:Eb; [|discriminate].
    rewrite Aa in R. injection R as R. rewrite Ja, Jb. exists x. split; [now rewrite <- R|].
    pose proof (put_trans_spec N s x W St Su) as P.
    assert (Xa : x_attached x = true) by (now rewrite <- R). assert (Xk : x_kind x = TT) by (now rewrite <- R).
    assert (Xs : x_set x = None) by (now rewrite <- R). assert (Xl : x_alias x = None) by (now rewrite <- R).
    set (u := if nltb N ea eb then kl else ku). set (v := if nltb N ea eb then ku else kl).
    assert (Nu : nm s (x_lo x) = Some u) by (unfold u; rewrite <- R; cbn [x_lo]; unfold nm; destruct (nltb N ea eb); [rewrite Va|rewrite Vb]; cbn; congruence).
    assert (Nv : nm s (x_up x) = Some v) by (unfold v; rewrite <- R; cbn [x_up]; unfold nm; destruct (nltb N ea eb); [rewrite Vb|rewrite Va]; cbn; congruence).
    assert (G0 : s_g0 (put_trans N s x) = g_add_edge u v (List.length (s_trans s)) (s_g0 s)).
    { unfold put_trans. rewrite Xa. unfold put_edge. change (nm (set_trans (s_trans s ++ [x]) s) (x_lo x)) with (nm s (x_lo x)).
      change (nm (set_trans (s_trans s ++ [x]) s) (x_up x)) with (nm s (x_up x)). rewrite Nu, Nv, Xk. reflexivity. }
    assert (Wg : graph_wf (s_g0 s)) by apply (wf_g _ _ W LE).
    assert (Ed : forall p q, edge (s_g0 (put_trans N s x)) p q =
      if (String.eqb p kl && String.eqb q ku) || (String.eqb p ku && String.eqb q kl) then Some (List.length (s_trans s)) else edge (s_g0 s) p q).
    { intros p q. rewrite G0, add_edge_edge by auto. unfold u, v. destruct (nltb N ea eb); [reflexivity|]. now rewrite orb_comm. }
    assert (Ag : add_transition N muB orc (TObj (List.length (s_trans s))) None None None (put_trans N s x) = (Ok (List.length (s_trans s)), put_trans N s x)).
    { rewrite (add_again N muB orc (put_trans N s x) (List.length (s_trans s)) x u v (pu_wf _ _ _ _ P)); auto.
      - now rewrite Su.
      - unfold tr. rewrite (pu_tr _ _ _ _ P). rewrite nth_error_app2, Nat.sub_diag by lia. reflexivity.
      - unfold nm, lv. rewrite (pu_lv _ _ _ _ P). exact Nu.
      - unfold nm, lv. rewrite (pu_lv _ _ _ _ P). exact Nv.
      - rewrite Xk. cbn [lk graph_of]. rewrite G0, add_edge_edge by auto. now rewrite !String.eqb_refl.
      - rewrite Xl. discriminate. }
    split; [|split; [|split; [apply P|split; [|split; [apply P|exact Ed]]]]].
    - unfold skip_key. unfold bind at 1. rewrite Eq. unfold void, bind at 1. rewrite Ag. reflexivity.
    - unfold run. cbn [fold_left]. unfold step. cbn [run_op]. unfold void, bind. rewrite Eq. cbn [snd ret]. unfold ret at 1. cbn [snd]. rewrite Ag. reflexivity.
    - repeat split; try apply P. rewrite G0. apply add_edge_attrs.
  Qed.

  (** The edges drawn by the rows, numbered from [n]. *)
  Fixpoint drawn s (n : nat) (rows : list (xrow N)) : list (string * string * nat) :=
    match rows with
    | [] => []
    | r :: rows' => match row_ends s r with Some (kl, ku, _, _) => (kl, ku, n) :: drawn s (S n) rows' | None => drawn s n rows' end
    end.
  (** The last one between two names. *)
  Definition last_between (u v : string) (es : list (string * string * nat)) (cur : option nat) : option nat :=
    fold_left (fun cur e => if (String.eqb u (fst (fst e)) && String.eqb v (snd (fst e))) || (String.eqb u (snd (fst e)) && String.eqb v (fst (fst e)))
                            then Some (snd e) else cur) es cur.

  Lemma load_trans : forall rows s, WF s -> Forall (usable s) rows ->
    exists s', populate_transitions_df N muB orc rows s = (Ok tt, s') /\ WF s' /\ alike s s' /\
      (exists os, s' = run N muB orc s os) /\
      s_trans s' = (s_trans s ++ flat_map (fun r => match row_trans s r with Some x => [x] | None => [] end) rows)%list /\
      forall u v, edge (s_g0 s') u v = last_between u v (drawn s (List.length (s_trans s)) rows) (edge (s_g0 s) u v).
  Proof.
    induction rows as [|r rows IH]; intros s W F.
    - exists s. split; [reflexivity|]. split; [exact W|]. split; [apply alike_refl|]. split; [now exists []|]. split; [now rewrite app_nil_r|reflexivity].
    - inversion F as [|? ? U F']; subst. pose proof (one_trans s r W U) as O. unfold populate_transitions_df in *. cbn [forM flat_map drawn]. unfold bind at 1.
      destruct (row_ends s r) as [[[[kl ku] a] b]|].
      + destruct O as [x [Rx [L [Ro [W1 [A1 [T1 E1]]]]]]]. rewrite L, Rx.
        destruct (IH (put_trans N s x) W1) as [s' [Es [W' [A' [[os Eo] [T' E']]]]]].
        { rewrite Forall_forall in *. intros r' Hr. apply (proj1 (alike_row s _ r' A1)). now apply F'. }
        exists s'. split; [exact Es|]. split; [exact W'|]. split; [eapply alike_trans; eassumption|]. split.
        { eexists ([ONewTransition N a b None (xr_A N r) None; OAddTransition N (TObj (List.length (s_trans s))) None None None] ++ os)%list.
          rewrite Eo, <- Ro. unfold run. now rewrite fold_left_app. }
        assert (X1 : forall rs, flat_map (fun r => match row_trans (put_trans N s x) r with Some x => [x] | None => [] end) rs = flat_map (fun r => match row_trans s r with Some x => [x] | None => [] end) rs).
        { intros rs. apply flat_map_ext. intros r'. now rewrite (proj2 (proj2 (alike_row s _ r' A1))). }
        assert (X2 : forall rs n, drawn (put_trans N s x) n rs = drawn s n rs).
        { induction rs as [|r' rs IHr]; intros n; [reflexivity|]. cbn [drawn]. rewrite (proj1 (proj2 (alike_row s _ r' A1))). destruct (row_ends s r') as [[[[? ?] ?] ?]|]; now rewrite IHr. }
        split; [rewrite T', X1, T1, <- app_assoc; reflexivity|].
        intros u v. rewrite E', X2, T1, app_length, Nat.add_1_r. cbn [last_between fold_left fst snd]. now rewrite E1.
      + destruct O as [Rx L]. rewrite L, Rx. exact (IH s W F').
  Qed.

  (** The transitions are added in the order of the table; rows naming a level
      the atom does not have are passed over; levels, names and aliases stay;
      between any two levels the last row counts, or what was there before. *)
  Theorem C88_loaded : forall rows s, reachable N muB orc s -> Forall (usable s) rows ->
    exists s', populate_transitions_df N muB orc rows s = (Ok tt, s') /\ reachable N muB orc s' /\
      s_levels s' = s_levels s /\ node_attrs (s_g0 s') = node_attrs (s_g0 s) /\ s_lal s' = s_lal s /\ s_tal s' = s_tal s /\
      s_trans s' = (s_trans s ++ flat_map (fun r => match row_trans s r with Some x => [x] | None => [] end) rows)%list /\
      forall u v, edge (s_g0 s') u v = last_between u v (drawn s (List.length (s_trans s)) rows) (edge (s_g0 s) u v).
  Proof.
    intros rows s R F. destruct (load_trans rows s (reachable_WF N muB orc OK s R) F) as [s' [E [_ [[A1 [A2 [A3 [A4 _]]]] [[os Eo] [T' E']]]]]].
    exists s'. repeat split; auto. destruct R as [I [B [os0 [HI Es]]]]. exists I, B, (os0 ++ os)%list. split; [exact HI|]. rewrite Eo, Es. unfold run. now rewrite fold_left_app.
  Qed.

  Lemma populate_app : forall xs ys s s1, populate_transitions_df N muB orc xs s = (Ok tt, s1) ->
    populate_transitions_df N muB orc (xs ++ ys) s = populate_transitions_df N muB orc ys s1.
  Proof. intros. unfold populate_transitions_df in *. now apply forM_app_ok. Qed.
  (** A row without a number J ends the loading: what the rows before it gave
      is kept, the rows after it are not looked at. *)
  Theorem C88_missing : forall pre r post s, reachable N muB orc s -> Forall (usable s) pre ->
    xr_jl N r = VNone \/ (exists q, xr_jl N r = VNum q) /\ xr_ju N r = VNone ->
    exists s1, populate_transitions_df N muB orc pre s = (Ok tt, s1) /\ reachable N muB orc s1 /\
      populate_transitions_df N muB orc (pre ++ r :: post) s = (Raise TypeError, s1).
  Proof.
    intros pre r post s R F J. destruct (C88_loaded pre s R F) as [s1 [E [R1 _]]]. exists s1. split; [exact E|]. split; [exact R1|].
    rewrite (populate_app pre _ _ _ E). unfold populate_transitions_df. cbn [forM]. unfold bind at 1. unfold load_trans_row.
    destruct J as [J|[[q Jl] J]]; unfold bind at 1; [now rewrite J|]. rewrite Jl. cbn [j_label py_float rbind]. unfold bind at 1. now rewrite J.
  Qed.
  (** A row that is the last one between two levels of the atom gives the
      transition found between them. *)
  Theorem C88_last : forall pre r post s kl ku a b, reachable N muB orc s -> Forall (usable s) (pre ++ r :: post) ->
    row_ends s r = Some (kl, ku, a, b) ->
    (forall r' k1 k2 a' b', In r' post -> row_ends s r' = Some (k1, k2, a', b') -> ~ (k1 = kl /\ k2 = ku) /\ ~ (k1 = ku /\ k2 = kl)) ->
    exists s' t x, populate_transitions_df N muB orc (pre ++ r :: post) s = (Ok tt, s') /\
      edge (s_g0 s') kl ku = Some t /\ edge (s_g0 s') ku kl = Some t /\ tr s' t = Some x /\
      x_E1 x = a /\ x_E2 x = b /\ x_attached x = true /\ x_set x = None /\
      x_A x = option_map (fun q => (nmul N (fst q) (nofQ N (unit_Q (snd q))), uHz)) (xr_A N r).
  Proof.
    intros pre r post s kl ku a b R F Er Hp. apply Forall_app in F as [F1 F2]. inversion F2 as [|? ? U F3]; subst.
    destruct (load_trans pre s (reachable_WF N muB orc OK s R) F1) as [s1 [E1 [W1 [A1 _]]]].
    destruct (alike_row s s1 r A1) as [U1 [Er1 _]]. specialize (U1 U). rewrite Er in Er1.
    pose proof (one_trans s1 r W1 U1) as O. rewrite Er1 in O. destruct O as [x [Rx [L [_ [W2 [A2 [T2 E2]]]]]]].
    pose proof (alike_trans _ _ _ A1 A2) as A3.
    destruct (load_trans post (put_trans N s1 x) W2) as [s' [E3 [W3 [_ [_ [T3 E4]]]]]].
    { rewrite Forall_forall in *. intros r' Hr. apply (proj1 (alike_row s _ r' A3)). now apply F3. }
    exists s', (List.length (s_trans s1)), x. split.
    { rewrite (populate_app pre _ _ _ E1). unfold populate_transitions_df. cbn [forM]. unfold bind at 1. rewrite L. exact E3. }
    assert (Same : forall n u v c, (u = kl /\ v = ku) \/ (u = ku /\ v = kl) -> last_between u v (drawn (put_trans N s1 x) n post) c = c).
    { intros n u v c Huv. clear - muB Hp Huv A3. revert n c Hp. induction post as [|r' post IH]; intros n c Hp; [reflexivity|]. cbn [drawn].
      rewrite (proj1 (proj2 (alike_row s _ r' A3))). destruct (row_ends s r') as [[[[k1 k2] a'] b']|] eqn:Er'.
      - cbn [last_between fold_left fst snd]. destruct (Hp r' k1 k2 a' b' (or_introl eq_refl) Er') as [H1 H2].
        destruct ((String.eqb u k1 && String.eqb v k2) || (String.eqb u k2 && String.eqb v k1)) eqn:C.
        + exfalso. apply orb_true_iff in C as [C|C]; apply andb_true_iff in C as [C1 C2]; apply String.eqb_eq in C1, C2; subst; destruct Huv as [[? ?]|[? ?]]; subst; tauto.
        + apply IH. intros r0 ? ? ? ? Hi. apply Hp. now right.
      - apply IH. intros r0 ? ? ? ? Hi. apply Hp. now right. }
    split; [rewrite E4, Same by auto; rewrite E2, !String.eqb_refl; reflexivity|].
    split; [rewrite E4, Same by auto; rewrite E2, !String.eqb_refl, orb_comm; reflexivity|].
    split; [unfold tr; rewrite T3, T2, <- app_assoc, nth_error_app2, Nat.sub_diag by lia; reflexivity|].
    unfold row_trans in Rx. rewrite Er1 in Rx. destruct (lv s1 a) as [la|]; [|discriminate]. destruct (lv s1 b) as [lb|]; [|discriminate].
    destruct (energy N muB s1 a); [|discriminate]. destruct (energy N muB s1 b); [|discriminate]. destruct (l_J la); [|discriminate]. destruct (l_J lb); [|discriminate].
    injection Rx as <-. repeat split.
  Qed.

  (** ** C90: internal transitions *)

  Lemma one_internal : forall s n a, WF s -> dget n (node_attrs (s_g0 s)) = Some a ->
    exists s', bind (new_transition N muB a a None None None) (fun t => tr_add_to_atom N t) s = (Ok tt, s') /\ WF s' /\ alike s s' /\
      (exists x, s_trans s' = (s_trans s ++ [x])%list /\ x_E1 x = a /\ x_E2 x = a /\ x_A x = None /\ x_attached x = true) /\
      forall u v, edge (s_g0 s') u v = if String.eqb u n && String.eqb v n then Some (List.length (s_trans s)) else edge (s_g0 s) u v.
  Proof.
    intros s n a W D. destruct (node_inv _ _ _ _ W D) as [la [Va [Ka [Na Aa]]]].
    destruct (proj1 (new_transition_spec N muB s a a None None None la la W Va Va) Ka Ka) as [x [ja [jb [Ja [Jb [R [St [Su Eq]]]]]]]].
    unfold tr_rec in R. rewrite Va in R. destruct (energy N muB s a) as [ea|] eqn:Ea; [|discriminate]. rewrite Aa in R. injection R as R.
    pose proof (put_trans_spec N s x W St Su) as P. exists (put_trans N s x).
    assert (Xa : x_attached x = true) by (now rewrite <- R). assert (Xk : x_kind x = TT) by (now rewrite <- R).
    assert (Xl : x_lo x = a) by (rewrite <- R; cbn [x_lo]; now destruct (nltb N ea ea)).
    assert (Xu : x_up x = a) by (rewrite <- R; cbn [x_up]; now destruct (nltb N ea ea)).
    assert (Nn : nm s a = Some n) by (unfold nm; rewrite Va; cbn; now rewrite Na).
    assert (G0 : s_g0 (put_trans N s x) = g_add_edge n n (List.length (s_trans s)) (s_g0 s)).
    { unfold put_trans. rewrite Xa. unfold put_edge. rewrite Xl, Xu. change (nm (set_trans (s_trans s ++ [x]) s) a) with (nm s a). rewrite Nn, Xk. reflexivity. }
    assert (Wg : graph_wf (s_g0 s)) by apply (wf_g _ _ W LE).
    assert (Ed : forall u v, edge (s_g0 (put_trans N s x)) u v = if String.eqb u n && String.eqb v n then Some (List.length (s_trans s)) else edge (s_g0 s) u v).
    { intros u v. rewrite G0, add_edge_edge by auto. now rewrite orb_diag. }
    assert (Tx : tr (put_trans N s x) (List.length (s_trans s)) = Some x).
    { unfold tr. rewrite (pu_tr _ _ _ _ P). rewrite nth_error_app2, Nat.sub_diag by lia. reflexivity. }
    split; [|split; [apply P|split; [|split; [|exact Ed]]]].
    - unfold bind. rewrite Eq. rewrite (tr_add_eq _ _ _ _ (pu_wf _ _ _ _ P) Tx), Su. f_equal.
      unfold tr_joined. assert (Ex : tr_set_attached true x = x) by (clear - Xa; destruct x; cbn in Xa; subst; reflexivity).
      rewrite Ex, (upd_tr_id _ _ _ _ _ Tx Ex). unfold put_edge. rewrite Xl, Xu.
      assert (Nn' : nm (put_trans N s x) a = Some n) by (unfold nm, lv; rewrite (pu_lv _ _ _ _ P); exact Nn). rewrite Nn'.
      rewrite add_edge_old; [apply set_graph_id| |].
      + exact (go_wf _ _ _ _ (wf_g _ _ (pu_wf _ _ _ _ P) _)).
      + rewrite Xk. cbn [lk graph_of]. rewrite Ed, !String.eqb_refl. reflexivity.
    - repeat split; try apply P. rewrite G0. apply add_edge_attrs.
    - exists x. split; [apply P|]. rewrite <- R. repeat split.
  Qed.
  Lemma all_internal : forall ls s, WF s -> NoDup (dkeys ls) ->
    (forall n a, In (n, a) ls -> dget n (node_attrs (s_g0 s)) = Some a) ->
    exists s', forM (dvals ls) (fun a => bind (new_transition N muB a a None None None) (fun t => tr_add_to_atom N t)) s = (Ok tt, s') /\ WF s' /\ alike s s' /\
      (exists xs, s_trans s' = (s_trans s ++ xs)%list /\ map (fun x => (x_E1 x, x_E2 x)) xs = map (fun a => (a, a)) (dvals ls)) /\
      (forall u v, u <> v -> edge (s_g0 s') u v = edge (s_g0 s) u v) /\
      (forall u, ~ In u (dkeys ls) -> edge (s_g0 s') u u = edge (s_g0 s) u u) /\
      (forall n a, In (n, a) ls -> exists t x, edge (s_g0 s') n n = Some t /\ tr s' t = Some x /\ x_E1 x = a /\ x_E2 x = a).
  Proof.
    induction ls as [|[n a] ls IH]; intros s W Nd H.
    - exists s. split; [reflexivity|]. split; [exact W|]. split; [apply alike_refl|]. split; [exists []; split; [now rewrite app_nil_r|reflexivity]|]. repeat split; auto. intros ? ? [].
    - destruct (one_internal s n a W (H n a (or_introl eq_refl))) as [s1 [E1 [W1 [A1 [[x [T1 [X1 [X2 _]]]] G1]]]]]. cbn [dkeys map fst] in Nd. apply NoDup_cons_iff in Nd as [Ni Nd'].
      destruct (IH s1 W1 Nd') as [s' [E' [W' [A' [[xs [T' Xs]] [G2 [G3 G4]]]]]]].
      { intros m c Hm. pose proof A1 as [_ [-> _]]. apply H. now right. }
      exists s'. cbn [dvals map forM snd]. unfold bind at 1. rewrite E1. split; [exact E'|]. split; [exact W'|]. split; [eapply alike_trans; eassumption|].
      split; [exists (x :: xs); split; [rewrite T', T1, <- app_assoc; reflexivity|cbn [map]; rewrite Xs, X1, X2; reflexivity]|].
      assert (Nk : ~ In n (dkeys ls)) by exact Ni.
      split; [|split].
      + intros u v Ne. rewrite G2, G1 by auto. destruct (String.eqb_spec u n), (String.eqb_spec v n); cbn [andb]; auto. congruence.
      + intros u Nu. cbn [dkeys map fst] in Nu. rewrite G3, G1 by (intros I; apply Nu; now right). destruct (String.eqb_spec u n) as [->|]; [exfalso; apply Nu; now left|reflexivity].
      + intros m c [E|Hm]; [|now apply G4]. injection E as <- <-. exists (List.length (s_trans s)), x. split; [rewrite G3, G1, !String.eqb_refl by exact Nk; reflexivity|].
        split; [unfold tr; rewrite T', T1, <- app_assoc, nth_error_app2, Nat.sub_diag by lia; reflexivity|auto].
  Qed.
End Trans.
Print Assumptions C88_loaded.
Print Assumptions C88_last.

Section Whole.
  Context (N : Num) (muB : num N) (orc : nat -> oracle) (OK : forall n, oracle_ok (orc n)).
  Implicit Types s : st N.

  (** Every level gets one transition to itself, in the order of the levels;
      nothing between different levels changes, and no level. *)
  Theorem C90_internal : forall s, reachable N muB orc s ->
    exists s', populate_internal N muB s = (Ok tt, s') /\ reachable N muB orc s' /\
      s_levels s' = s_levels s /\ node_attrs (s_g0 s') = node_attrs (s_g0 s) /\ s_lal s' = s_lal s /\ s_tal s' = s_tal s /\
      (exists xs, s_trans s' = (s_trans s ++ xs)%list /\ map (fun x => (x_E1 x, x_E2 x)) xs = map (fun a => (a, a)) (dvals (node_attrs (s_g0 s)))) /\
      (forall u v, u <> v -> edge (s_g0 s') u v = edge (s_g0 s) u v) /\
      (forall n a, dget n (node_attrs (s_g0 s)) = Some a -> exists t x, edge (s_g0 s') n n = Some t /\ tr s' t = Some x /\ x_E1 x = a /\ x_E2 x = a).
  Proof.
    intros s R. pose proof (reachable_WF N muB orc OK s R) as W.
    assert (Nd : NoDup (dkeys (node_attrs (s_g0 s)))) by (apply node_attrs_nodup; apply (wf_g _ _ W LE)).
    destruct (all_internal N muB (node_attrs (s_g0 s)) s W Nd) as [s' [E [_ [[A1 [A2 [A3 [A4 _]]]] [X [G1 [_ G3]]]]]]].
    { intros n a H. now apply In_dget_nodup. }
    exists s'. split; [exact E|]. split.
    - destruct R as [I [B [os [HI Es]]]]. exists I, B, (os ++ [OPopulateInternal N])%list. split; [exact HI|].
      unfold run. rewrite fold_left_app. cbn [fold_left]. change (s' = step N muB orc (run N muB orc (init N I B) os) (OPopulateInternal N)). rewrite <- Es.
      unfold step. cbn [run_op]. unfold populate_internal, bind at 1, gets. rewrite E. reflexivity.
    - repeat split; auto. intros n a D. apply G3. now apply dget_In in D.
  Qed.

  (** ** C50: the lookup of a level with itself comes first *)

  Lemma first_square : forall (W : Z -> list nat) js, flat_map (fun j => list_prod (W j) (W (j + 2 * 0)%Z)) js = [] \/
    exists j a rest, In j js /\ In a (W j) /\ flat_map (fun j => list_prod (W j) (W (j + 2 * 0)%Z)) js = (a, a) :: rest.
  Proof.
    intros W. induction js as [|j js IH]; [now left|]. cbn [flat_map]. replace (j + 2 * 0)%Z with j by lia. destruct (W j) as [|a l] eqn:E.
    - destruct IH as [->|[j' [a [rest [H1 [H2 H3]]]]]]; [now left|]. right. exists j', a, rest. split; [now right|]. split; [exact H2|]. cbn. exact H3.
    - right. exists j, a. eexists. split; [now left|]. split; [rewrite E; now left|]. cbn. reflexivity.
  Qed.
  (** As long as some level with J up to 20 is in the atom and no level has a
      transition to itself, populate_transitions raises, and does nothing. *)
  Theorem C50_always_refuted : forall s al n a l j, reachable N muB orc s -> aE1 al || aM1 al = true ->
    (forall m b, dget m (node_attrs (s_g0 s)) = Some b -> has_char "=" m = false /\ dget m (s_lal s) = None /\ edge (s_g0 s) m m = None) ->
    dget n (node_attrs (s_g0 s)) = Some a -> lv s a = Some l -> l_J l = Some j -> (0 <= j <= 40)%Z ->
    populate_transitions N muB al s = (Raise KeyError, s).
  Proof.
    intros s al n a l j R Al H D V J Hj. pose proof (reachable_WF N muB orc OK s R) as W.
    assert (Ad : exists ds, allowed_deltas al = 0%Z :: ds).
    { unfold allowed_deltas. cbn [filter]. change (0 / 2)%nat with 0%nat. cbv beta iota. cbn [Nat.add]. rewrite Al. eexists. cbn [map]. reflexivity. }
    destruct Ad as [ds Ad]. unfold populate_transitions. rewrite Ad. cbn [forM]. unfold bind at 1, bind at 1, gets.
    destruct (first_square (with_J N s) (firstn (42 - Z.to_nat (2 * 0 + 1)) j_values)) as [Em|[j' [b [rest [_ [Ib Eq]]]]]].
    - exfalso. assert (I : In (a, a) (level_pairs N s 0)).
      { unfold level_pairs. apply in_flat_map. exists j. split.
        - change (firstn (42 - Z.to_nat (2 * 0 + 1)) j_values) with (map Z.of_nat (seq 0 41)). replace j with (Z.of_nat (Z.to_nat j)) by lia. apply in_map, in_seq. lia.
        - assert (Ia : In a (with_J N s j)).
          { unfold with_J. apply filter_In. split; [apply dget_In in D; change a with (snd (n, a)); now apply in_map|]. rewrite V, J. apply Z.eqb_refl. }
          apply in_prod; [exact Ia|]. now replace (j + 2 * 0)%Z with j by lia. }
      unfold level_pairs in I. rewrite Em in I. destruct I.
    - unfold level_pairs. rewrite Eq. cbn [forM]. unfold bind at 1.
      assert (Pb : populate_pair N muB al (b, b) s = (Raise KeyError, s)); [|unfold populate_pair in *; now rewrite Pb].
      unfold with_J in Ib. apply filter_In in Ib as [Ib _]. apply in_map_iff in Ib as [[m b'] [Eb Im]]. cbn [snd] in Eb. subst b'.
      assert (Dm : dget m (node_attrs (s_g0 s)) = Some b) by (apply In_dget_nodup; [apply node_attrs_nodup; apply (wf_g _ _ W LE)|exact Im]).
      destruct (H m b Dm) as [H1 [H2 H3]]. destruct (node_inv _ _ _ _ W Dm) as [lb [Vb [Kb [Nb _]]]].
      assert (Nm : nm s b = Some m) by (unfold nm; rewrite Vb; cbn; now rewrite Nb).
      unfold populate_pair. cbn [fst snd]. unfold bind at 1, asks at 1. rewrite Nm. unfold bind at 1, asks at 1. rewrite Nm. unfold bind at 1.
      assert (Eb : exists e, energy N muB s b = Some e) by (unfold energy, energyE; rewrite Vb, Kb; eauto). destruct Eb as [e Eb].
      rewrite (trans_get_plain N muB s m m b b e e W H1 H1 H2 H2 Dm Dm Eb Eb). cbv zeta. rewrite H3. destruct (beforeb _ _ _); reflexivity.
  Qed.

  (** ** C89: the whole generation *)

  Context (parse : string -> res (num N)).

  (** With a table of transitions: the levels of the level table, between any
      two of them the last row of the transition table, and for each the
      transition to itself. *)
  Theorem C89_partial : forall I B rt rows, (0 <= I)%Z -> Forall (fun p => readable N (fst p) (snd p)) rt ->
    Forall (fun r => exists kl ku, row_keys N r = Some (kl, ku) /\ has_char "=" kl = false /\ has_char "=" ku = false) rows ->
    exists s0 s, from_dataframe N (map fst rt) None (init N I B) = (Ok tt, s0) /\
      generate_full N muB orc parse (map fst rt) None None (TDf N rows) (init N I B) = (Ok tt, s) /\ reachable N muB orc s /\
      s_levels s = rows_lv N rt /\ node_attrs (s_g0 s) = node_attrs (s_g0 s0) /\
      (forall u v, u <> v -> edge (s_g0 s) u v = last_between u v (drawn N s0 0 rows) None) /\
      (forall n a, dget n (node_attrs (s_g0 s)) = Some a -> exists t x, edge (s_g0 s) n n = Some t /\ tr s t = Some x /\ x_E1 x = a /\ x_E2 x = a).
  Proof.
    intros I B rt rows HI F Fx. destruct (C84_loaded N muB orc I B rt HI F) as [s0 [E0 [R0 [L0 [T0 [A0 _]]]]]].
    destruct (C88_loaded N muB orc OK rows s0 R0) as [s1 [E1 [R1 [L1 [Na1 [_ [_ [_ G1]]]]]]]].
    { rewrite Forall_forall in *. intros r Hr. destruct (Fx r Hr) as [kl [ku [K [H1 H2]]]]. exists kl, ku. rewrite A0. repeat split; auto. }
    destruct (C90_internal s1 R1) as [s2 [E2 [R2 [L2 [Na2 [_ [_ [_ [G2 G3]]]]]]]]].
    exists s0, s2. split; [exact E0|]. split.
    { unfold generate_full. unfold bind at 1. rewrite E0. unfold bind at 1, ret at 1. unfold bind at 1. rewrite E1. exact E2. }
    split; [exact R2|]. split; [congruence|]. split; [congruence|]. split; [|now rewrite Na2].
    intros u v Ne. rewrite G2, G1, T0 by exact Ne. cbn [List.length]. f_equal.
    (* no edge before *)
    assert (Eg : s_g0 s0 = nodes_from N 0 (rows_lv N rt) g_empty).
    { rewrite from_dataframe_eq in E0. cbn [wanted] in E0. rewrite (load_all N rt (init N I B) F) in E0.
      apply (f_equal (fun p => s_g0 (snd p))) in E0. symmetry. exact E0. }
    rewrite Eg. clear.
    assert (X : forall ls n g, graph_wf g -> edge (nodes_from N n ls g) u v = edge g u v).
    { induction ls as [|l ls IH]; intros n g Wg; [reflexivity|]. cbn [nodes_from]. rewrite IH by (now apply add_node_wf). now rewrite add_node_edge. }
    rewrite X by apply graph_wf_empty. reflexivity.
  Qed.

  Lemma last_for_ex : forall ps k v, In (k, v) ps -> exists w, last_for k ps = Some w.
  Proof.
    unfold last_for. intros ps k v. generalize (@None nat).
    assert (G : forall (qs : list (string * nat)) w, exists w', fold_left (fun cur p => if string_dec (fst p) k then Some (snd p) else cur) qs (Some w) = Some w').
    { induction qs as [|[a b] qs IH]; intros w; [now exists w|]. cbn [fold_left fst snd]. destruct (string_dec a k); apply IH. }
    induction ps as [|[a b] ps IH]; intros c H; [destruct H|]. cbn [fold_left fst snd]. destruct H as [E|H]; [|now apply IH].
    injection E as -> ->. destruct (string_dec k k); [apply G|congruence].
  Qed.
  Lemma last_for_In : forall ps k w, last_for k ps = Some w -> In (k, w) ps.
  Proof.
    unfold last_for. intros ps k w.
    assert (G : forall (qs : list (string * nat)) c, fold_left (fun cur p => if string_dec (fst p) k then Some (snd p) else cur) qs c = Some w -> c = Some w \/ In (k, w) qs).
    { induction qs as [|[a b] qs IH]; intros c E; [now left|]. cbn [fold_left fst snd] in E. destruct (string_dec a k) as [->|].
      - destruct (IH _ E) as [X|X]; [injection X as ->; right; now left|right; now right].
      - destruct (IH _ E) as [X|X]; [now left|right; now right]. }
    intros E. destruct (G _ _ E) as [X|X]; [discriminate|exact X].
  Qed.

  (** Without one, and with any level of J up to 20, generation fails: so it
      does with the default arguments, with df given as None, and with a csv
      file. *)
  Theorem C89_refuted : forall I B rt r ts, (0 <= I)%Z -> Forall (fun p => readable N (fst p) (snd p)) rt ->
    (forall q qs, In (q, qs) rt -> has_char "=" (lname (row_lv N q qs)) = false /\ exists j, l_J (row_lv N q qs) = Some j /\ (j <= 40)%Z) ->
    In (r, ts) rt ->
    fst (generate_full N muB orc parse (map fst rt) None None (TNothing N) (init N I B)) = Raise KeyError /\
    fst (generate_full N muB orc parse (map fst rt) None None (TDfNone N) (init N I B)) = Raise KeyError /\
    fst (generate_full N muB orc parse (map fst rt) None None (TCsv N) (init N I B)) = Raise NotImplementedError.
  Proof.
    intros I B rt r ts HI F H Ir. destruct (C84_loaded N muB orc I B rt HI F) as [s0 [E0 [R0 [L0 [T0 [A0 [_ G0]]]]]]].
    assert (Ed : forall u v, edge (s_g0 s0) u v = None).
    { intros u v. assert (Eg : s_g0 s0 = nodes_from N 0 (rows_lv N rt) g_empty).
      { rewrite from_dataframe_eq in E0. cbn [wanted] in E0. rewrite (load_all N rt (init N I B) F) in E0.
        apply (f_equal (fun p => s_g0 (snd p))) in E0. symmetry. exact E0. }
      rewrite Eg. clear.
      assert (X : forall ls n g, graph_wf g -> edge (nodes_from N n ls g) u v = edge g u v).
      { induction ls as [|l ls IH]; intros n g Wg; [reflexivity|]. cbn [nodes_from]. rewrite IH by (now apply add_node_wf). now rewrite add_node_edge. }
      rewrite X by apply graph_wf_empty. reflexivity. }
    assert (Nth : forall k c, In (k, c) (combine (map (@lname N) (rows_lv N rt)) (seq 0 (List.length rt))) -> exists q qs, In (q, qs) rt /\ k = lname (row_lv N q qs) /\ lv s0 c = Some (row_lv N q qs)).
    { intros k c Hi. unfold lv. rewrite L0. clear - Hi. revert Hi. unfold rows_lv.
      assert (X : forall rx n, In (k, c) (combine (map (@lname N) (map (fun p => row_lv N (fst p) (snd p)) rx)) (seq n (List.length rx))) ->
        exists q qs, In (q, qs) rx /\ k = lname (row_lv N q qs) /\ (n <= c)%nat /\ nth_error (map (fun p => row_lv N (fst p) (snd p)) rx) (c - n) = Some (row_lv N q qs)).
      { induction rx as [|[q qs] rx IH]; intros n Hi; [destruct Hi|]. cbn [map List.length seq combine fst snd] in *. destruct Hi as [E|Hi].
        - injection E as <- <-. exists q, qs. split; [now left|]. rewrite Nat.sub_diag. auto.
        - destruct (IH (S n) Hi) as [q' [qs' [I' [Ek [Le Nt]]]]]. exists q', qs'. split; [now right|]. split; [exact Ek|]. split; [lia|].
          replace (c - n)%nat with (S (c - S n)) by lia. exact Nt. }
      intros Hi. destruct (X rt 0%nat Hi) as [q [qs [I' [Ek [_ Nt]]]]]. rewrite Nat.sub_0_r in Nt. eauto. }
    assert (Row : forall m b, dget m (node_attrs (s_g0 s0)) = Some b -> exists q qs, In (q, qs) rt /\ m = lname (row_lv N q qs) /\ lv s0 b = Some (row_lv N q qs)).
    { intros m b D. rewrite G0 in D. apply last_for_In in D. now apply Nth. }
    assert (P : forall al, aE1 al || aM1 al = true -> populate_transitions N muB al s0 = (Raise KeyError, s0)).
    { intros al Al. set (k := lname (row_lv N r ts)).
      assert (Ik : exists c, In (k, c) (combine (map (@lname N) (rows_lv N rt)) (seq 0 (List.length rt)))).
      { apply In_nth_error in Ir as [i Hi]. exists (0 + i)%nat.
        assert (Hn : nth_error (map (@lname N) (rows_lv N rt)) i = Some k) by (unfold rows_lv; now rewrite !nth_error_map, Hi).
        pose proof (combine_nth _ 0 _ _ Hn) as C. unfold rows_lv in C. rewrite !map_length in C. exact C. }
      destruct Ik as [c Ic]. destruct (last_for_ex _ _ _ Ic) as [w Hw]. rewrite <- G0 in Hw. destruct (Row k w Hw) as [q [qs [Iq [Ek Vq]]]].
      destruct (H q qs Iq) as [_ [j [Jq Hj]]].
      assert (J0 : (0 <= j)%Z). { destruct (wf_J _ _ _ _ (reachable_WF N muB orc OK s0 R0) Vq) as [j' [Ej' Hj']]. rewrite Jq in Ej'. injection Ej' as <-. exact Hj'. }
      apply (C50_always_refuted s0 al k w (row_lv N q qs) j R0 Al); auto.
      intros m b D. destruct (Row m b D) as [q' [qs' [Iq' [-> _]]]]. split; [apply (H q' qs' Iq')|]. split; [now rewrite A0|apply Ed]. }
    unfold generate_full. unfold bind. rewrite E0. unfold ret. rewrite !P by reflexivity. auto.
  Qed.
End Whole.
Print Assumptions C90_internal.
Print Assumptions C50_always_refuted.
Print Assumptions C89_partial.
Print Assumptions C89_refuted.

(** *** Cases *)

Definition rtx : list (trow Exact * list term) := map (fun r => (r, terms_of r)) tbl_ok.
Definition rows_x : list (xrow Exact) :=
  [mkXrow Exact "6s" "2S" (VStr "0.5") "6p" "2P*" (VStr "1.5") (Some (Q2Qc 3, uMHz));
   mkXrow Exact "6s" "2S" (VStr "0.5") "9p" "2P*" (VStr "1.5") None].
Example C89_case : Forall (fun p => readable Exact (fst p) (snd p)) rtx /\
  map (row_keys Exact) rows_x = [Some ("6s 2S1/2", "6p 2P*3/2"); Some ("6s 2S1/2", "9p 2P*3/2")] /\
  (let s := snd (generate_full Exact 1%Qc plain (fun _ => Ok 0%Qc) tbl_ok None None (TDf Exact rows_x) (from 1)) in
   edge (s_g0 s) "6s 2S1/2" "6p 2P*3/2" = Some 0%nat /\ edge (s_g0 s) "6s 2S1/2" "6s 2S1/2" = Some 1%nat /\ edge (s_g0 s) "6s 2S1/2" "9p 2P*3/2" = None /\
   map (fun x : trans Exact => option_map (fun q => (this (fst q), snd q)) (x_A x)) (s_trans s) = [Some (3000000 # 1, uHz)%Q; None; None]).
Proof. split; [apply readableb_ok; vm_compute; reflexivity|]. vm_compute. repeat match goal with |- _ /\ _ => split end; reflexivity. Qed.
Example C89_refuted_case : forallb (fun p => negb (has_char "=" (lname (row_lv Exact (fst p) (snd p)))) && match l_J (row_lv Exact (fst p) (snd p)) with Some j => (j <=? 40)%Z | None => false end) rtx = true /\
  fst (generate_full Exact 1%Qc plain (fun _ => Ok 0%Qc) tbl_ok None None (TNothing Exact) (from 1)) = Raise KeyError.
Proof. vm_compute. split; reflexivity. Qed.
Example C90_case : reachable Exact 1%Qc plain (two 1) /\ edge (s_g0 (two 1)) "6s 2S1/2" "6s 2S1/2" = None /\
  edge (s_g0 (snd (populate_internal Exact 1%Qc (two 1)))) "6s 2S1/2" "6s 2S1/2" = Some 0%nat /\
  edge (s_g0 (snd (populate_internal Exact 1%Qc (two 1)))) "6p 2P*1/2" "6p 2P*1/2" = Some 1%nat /\
  edge (s_g0 (snd (populate_internal Exact 1%Qc (two 1)))) "6s 2S1/2" "6p 2P*1/2" = None.
Proof. split; [apply two_reachable; lia|]. vm_compute. repeat match goal with |- _ /\ _ => split end; reflexivity. Qed.

(** Labels with a stroke are not numbers: a table with J written as in the
    names of the levels stops at its first half-integer J. *)
Lemma uint_free : forall s, has_char "/" s = true -> uint_val s = None.
Proof.
  intros s. unfold uint_val. induction s as [|a s IH]; intros H; [discriminate|]. cbn [has_char] in H. cbn [DecimalString.NilEmpty.uint_of_string].
  destruct (Ascii.eqb_spec a "/") as [->|Ne].
  - cbn. destruct (DecimalString.NilEmpty.uint_of_string s); reflexivity.
  - rewrite IH by exact H. destruct a as [[] [] [] [] [] [] [] []]; reflexivity.
Qed.
Lemma cut_free : forall c d s, has_char d s = true -> c <> d ->
  has_char d (fst (cut_first c s)) = true \/ exists r, snd (cut_first c s) = Some r /\ has_char d r = true.
Proof.
  intros c d s. induction s as [|a s IH]; intros H Ne; [discriminate|]. cbn [has_char cut_first] in *.
  destruct (Ascii.eqb_spec a c) as [->|Na].
  - right. cbn. exists s. split; [reflexivity|]. apply orb_true_iff in H as [H|H]; [apply Ascii.eqb_eq in H; congruence|exact H].
  - destruct (cut_first c s) as [l r]. cbn [fst snd has_char] in *. apply orb_true_iff in H as [H|H]; [left; now rewrite H|].
    destruct (IH H Ne) as [X|X]; [left; now rewrite X, orb_true_r|now right].
Qed.
Lemma pyfloat_slash : forall s, has_char "/" s = true -> pyfloat s = None.
Proof.
  intros s H. unfold pyfloat.
  assert (B : forall body, has_char "/" body = true -> let '(ip, fpo) := cut_first "." body in
    match uint_val ip, uint_val (match fpo with Some f => f | None => "" end) with Some _, Some _ => False | _, _ => True end).
  { intros body Hb. destruct (cut_free "." "/" body Hb ltac:(discriminate)) as [X|[r [X Y]]]; destruct (cut_first "." body) as [ip fpo]; cbn [fst snd] in X.
    - now rewrite uint_free.
    - subst fpo. rewrite (uint_free r Y). now destruct (uint_val ip). }
  set (nb := match s with String a r => if Ascii.eqb a "-" then (true, r) else if Ascii.eqb a "+" then (false, r) else (false, s) | EmptyString => (false, s) end).
  assert (Hb : has_char "/" (snd nb) = true).
  { unfold nb. destruct s as [|a s]; [discriminate|]. cbn [has_char] in H. destruct (Ascii.eqb_spec a "-") as [->|]; [exact H|]. destruct (Ascii.eqb_spec a "+") as [->|]; exact H. }
  destruct nb as [neg body]. cbn [snd] in Hb. specialize (B body Hb). destruct (cut_first "." body) as [ip fpo].
  destruct (uint_val ip); [|reflexivity]. destruct (uint_val _); [destruct B|reflexivity].
Qed.
Theorem C88_refuted : forall N muB orc r rest s z, Z.even z = false -> xr_jl N r = VStr (half_label z) ->
  populate_transitions_df N muB orc (r :: rest) s = (Raise ValueError, s).
Proof.
  intros N muB orc r rest s z O J. unfold populate_transitions_df. cbn [forM]. unfold bind at 1. unfold load_trans_row, bind at 1. rewrite J.
  unfold j_label, py_float. rewrite pyfloat_slash; [reflexivity|]. unfold half_label. rewrite O. rewrite has_char_app. cbn. now rewrite orb_true_r.
Qed.
Print Assumptions C88_refuted.
(** The first of two rows is loaded, the second has no J. *)
Example C88_missing_case : let s := snd (from_dataframe Exact tbl_ok None (from 1)) in
  let r := nth 0 rows_x (mkXrow Exact "" "" VNone "" "" VNone None) in
  usable Exact s r /\
  (let out := populate_transitions_df Exact 1%Qc plain [r; mkXrow Exact "6s" "2S" (VNum (1 # 2)) "6p" "2P*" VNone None; r] s in
   fst out = Raise TypeError /\ List.length (s_trans (snd out)) = 1%nat).
Proof.
  cbv zeta. split; [exists "6s 2S1/2", "6p 2P*3/2"; vm_compute; repeat match goal with |- _ /\ _ => split end; reflexivity|].
  split; vm_compute; reflexivity.
Qed.
Example C88_case : usable Exact (snd (from_dataframe Exact tbl_ok None (from 1))) (nth 0 rows_x (mkXrow Exact "" "" VNone "" "" VNone None)) /\
  Z.even 1 = false /\ half_label 1 = "1/2" /\
  fst (populate_transitions_df Exact 1%Qc plain [mkXrow Exact "6s" "2S" (VStr "1/2") "6p" "2P*" (VStr "3/2") None] (snd (from_dataframe Exact tbl_ok None (from 1)))) = Raise ValueError.
Proof.
  split; [exists "6s 2S1/2", "6p 2P*3/2"; vm_compute; repeat match goal with |- _ /\ _ => split end; reflexivity|]. vm_compute. repeat match goal with |- _ /\ _ => split end; reflexivity.
Qed.
