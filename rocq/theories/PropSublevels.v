(** Properties C12, C13, C21 and C23-C28: sublevels, access paths, names and
    aliases.  Angular momenta are doubled integers; [half_label z] prints z/2.
    Every theorem quantifies over all states reachable by the public
    operations, in any order, whatever they raised. *)
From Coq Require Import List Bool ZArith QArith Qcanon Lia String Ascii Permutation Sorted.
From Verif Require Import Base PyStr Util Parse Term Num Wigner Hyperfine HyperfineProofs Graph GraphProofs Rules Atom AtomInv AtomSafe5 AtomSafe6
  AtomPaths AtomHist AtomEnergy AtomAlias AtomSub AtomNames AtomFresh AtomExample.
Import ListNotations.

(** C12 *)
Theorem C12_F_sublevels : forall N muB orc, (forall n, oracle_ok (orc n)) -> forall s, reachable N muB orc s ->
  forall a l j, lv s a = Some l -> l_kind l = LE -> l_attached l = true -> l_J l = Some j ->
  exists bs fs s', sublevels N a s = (Ok bs, s') /\ StronglySorted Z.lt fs /\
    (forall f, In f fs <-> (Z.abs (j - s_I s) <= f <= j + s_I s)%Z /\ Z.even (j + s_I s + f) = true) /\
    Forall2 (fun f b => getitem N a ("F=" ++ half_label f) s = (Ok b, s') /\
      exists lb, lv s' b = Some lb /\ l_kind lb = LHF /\ l_parent lb = Some a /\ l_J lb = Some j /\ l_F lb = Some f /\ l_mF lb = None /\
        lname lb = (lname l ++ " F=" ++ half_label f)%string) fs bs /\
    forall key, (forall f, In f fs -> key <> ("F=" ++ half_label f)%string) -> (s_I s = 0%Z -> contains "mJ" key = false) ->
      getitem N a key s = (Raise KeyError, s').
Proof.
  intros N muB orc OK s R a l j V K A Ej. pose proof (reachable_WF N muB orc OK s R) as W.
  destruct (sublevels_F N s a l j W V K A Ej) as [bs [s' [E [_ [_ [F G]]]]]].
  exists bs, (F_range j (s_I s)), s'. split; [exact E|]. split; [apply F_range_sorted|]. split; [|split; [exact F|exact G]].
  intros f. destruct (wf_J _ _ _ _ W V) as [j' [Ej' Hj]]. rewrite Ej in Ej'. injection Ej' as <-. rewrite F_range_In by (auto; apply (wf_I _ _ W)).
  unfold tri. rewrite !andb_true_iff, !Z.leb_le. tauto.
Qed.
Print Assumptions C12_F_sublevels.
Example C12_case : F_range 3 2 = [1; 3; 5]%Z /\
  (let s := runx (from 2) [nl tQ 0; add 0] in
   fst (sublevels Exact 0 s) = Ok [1; 2; 3]%nat /\ fst (getitem Exact 0 "F=3/2" s) = Ok 2%nat /\ fst (getitem Exact 0 "F=7/2" s) = Raise KeyError).
Proof. vm_compute. auto. Qed.

(** C13 *)
Theorem C13_mF_sublevels : forall N muB orc, (forall n, oracle_ok (orc n)) -> forall s, reachable N muB orc s ->
  forall b l j f, lv s b = Some l -> l_kind l = LHF -> l_J l = Some j -> l_F l = Some f ->
  exists cs ms s', sublevels N b s = (Ok cs, s') /\ StronglySorted Z.lt ms /\
    (forall m, In m ms <-> (- f <= m <= f)%Z /\ Z.even (f + m) = true) /\
    Forall2 (fun m c => getitem N b ("mF=" ++ half_label m) s = (Ok c, s') /\
      exists lc, lv s' c = Some lc /\ l_kind lc = LZ /\ l_parent lc = Some b /\ l_J lc = Some j /\ l_F lc = Some f /\ l_mF lc = Some m /\
        lname lc = (lname l ++ " mF=" ++ half_label m)%string) ms cs /\
    forall key, (forall m, In m ms -> key <> ("mF=" ++ half_label m)%string) -> (s_I s = 0%Z -> contains "mJ" key = false) ->
      getitem N b key s = (Raise KeyError, s').
Proof.
  intros N muB orc OK s R b l j f V K Ej Ef. pose proof (reachable_WF N muB orc OK s R) as W.
  destruct (sublevels_mF N s b l j f W V K Ej Ef) as [cs [s' [E [_ [_ [F G]]]]]].
  exists cs, (mF_range f), s'. split; [exact E|]. split; [apply mF_range_sorted|]. split; [|split; [exact F|exact G]].
  apply mF_range_In.
Qed.
Print Assumptions C13_mF_sublevels.
(** All Zeeman states of a manifold: (2I+1)(2J+1) distinct objects, one for
    every F and mF. *)
Theorem C13_count : forall N muB orc, (forall n, oracle_ok (orc n)) -> forall s, reachable N muB orc s ->
  forall a l j, lv s a = Some l -> l_kind l = LE -> l_attached l = true -> l_J l = Some j ->
  exists cs s', zeeman_states N a s = (Ok cs, s') /\ NoDup cs /\ Z.of_nat (List.length cs) = ((s_I s + 1) * (j + 1))%Z /\
    Forall2 (fun fm c => exists b lc, lv s' c = Some lc /\ l_kind lc = LZ /\ l_parent lc = Some b /\ l_J lc = Some j /\
      l_F lc = Some (fst fm) /\ l_mF lc = Some (snd fm) /\
      lname lc = ((lname l ++ " F=" ++ half_label (fst fm)) ++ " mF=" ++ half_label (snd fm))%string)
      (flat_map (fun f => map (pair f) (mF_range f)) (F_range j (s_I s))) cs.
Proof.
  intros N muB orc OK s R a l j V K A Ej. exact (zeeman_spec N s a l j (reachable_WF N muB orc OK s R) V K A Ej).
Qed.
Print Assumptions C13_count.
Example C13_case : mF_range 3 = [-3; -1; 1; 3]%Z /\
  (let s := runx (from 2) [nl tQ 0; add 0] in
   exists cs, fst (zeeman_states Exact 0 s) = Ok cs /\ List.length cs = 12%nat).
Proof. split; [reflexivity|]. eexists. split; vm_compute; reflexivity. Qed.

(** C21, in exact arithmetic.  [top s a] is the fine-structure level whose
    manifold [a] belongs to. *)
Theorem C21_rigid : forall muB orc, (forall n, oracle_ok (orc n)) -> forall s, reachable Exact muB orc s ->
  forall a l e v, lv s a = Some l -> energy Exact muB s a = Some e ->
  exists s', set_energy Exact muB a v s = (Ok tt, s') /\ energy Exact muB s' a = Some v /\
    forall b eb, energy Exact muB s b = Some eb ->
      (top s b = top s a -> energy Exact muB s' b = Some (eb + (v - e))%Qc) /\
      (top s b <> top s a -> energy Exact muB s' b = Some eb).
Proof.
  intros muB orc OK s R a l e v V E. pose proof (reachable_WF Exact muB orc OK s R) as W.
  destruct (rigid muB s a l e v W V E) as [s' [Es [_ [Ea G]]]]. exists s'. split; [exact Es|]. split; [exact Ea|].
  intros b eb Eb. pose proof (G b eb Eb) as H.
  assert (Vb : exists lb, lv s b = Some lb) by (unfold energy in Eb; destruct (lv s b); [eauto|discriminate]).
  destruct Vb as [lb Vb]. destruct (top_level muB s b lb W Vb) as [r' [_ [T' _]]]. destruct (top_level muB s a l W V) as [r [_ [T _]]].
  rewrite T, T' in *. destruct (Nat.eqb_spec r r') as [->|Hr]; split; intros; auto; congruence.
Qed.
Print Assumptions C21_rigid.
(** A Zeeman sublevel is moved: its manifold follows, the other level stays. *)
Example C21_case :
  let s := runx (two 1) [OSublevels Exact 0; OSublevels Exact 2] in
  option_map (@l_kind Exact) (lv s 4) = Some LZ /\ top s 4 = Some 0%nat /\ top s 3 = Some 0%nat /\ top s 1 = Some 1%nat.
Proof. vm_compute. auto. Qed.

(** C22.  [calm]: g-values and A coefficients are assigned only while nothing
    has been derived from them (no sublevel, no subtransition exists yet). *)
Theorem C22_zeeman_shift_partial : forall N muB orc, (forall n, oracle_ok (orc n)) ->
  forall i B os, (0 <= i)%Z -> calm N muB orc (init N i B) os -> let s := run N muB orc (init N i B) os in
  forall c lc, lv s c = Some lc -> l_kind lc = LZ ->
  exists b lb a la j f m e, l_parent lc = Some b /\ lv s b = Some lb /\ l_parent lb = Some a /\ lv s a = Some la /\
    l_J lb = Some j /\ l_F lb = Some f /\ l_mF lc = Some m /\ energy N muB s b = Some e /\
    energy N muB s c = Some (nadd N e (z_shift N muB (compute_gF N (s_I s) j f (l_lande la)) m (s_B s) (l_qz lc))).
Proof. exact current_shift. Qed.
Print Assumptions C22_zeeman_shift_partial.
Theorem C22_linewidth_partial : forall N muB orc, (forall n, oracle_ok (orc n)) ->
  forall i B os, (0 <= i)%Z -> calm N muB orc (init N i B) os -> let s := run N muB orc (init N i B) os in
  forall t x, tr s t = Some x ->
  match x_kind x with
  | TT => True
  | THF => exists p xp l1 l2 j1 j2 f1 f2, x_parent x = Some p /\ tr s p = Some xp /\
      lv s (x_E1 x) = Some l1 /\ lv s (x_E2 x) = Some l2 /\
      l_J l1 = Some j1 /\ l_J l2 = Some j2 /\ l_F l1 = Some f1 /\ l_F l2 = Some f2 /\
      x_A x = option_map (scale_A N (nofQ N (this (hf_factor (x_allowed xp) (s_I s) j1 j2 f1 f2)))) (x_A xp)
  | TZ => exists p xp l1 l2 f1 f2 m1 m2, x_parent x = Some p /\ tr s p = Some xp /\
      lv s (x_E1 x) = Some l1 /\ lv s (x_E2 x) = Some l2 /\
      l_F l1 = Some f1 /\ l_F l2 = Some f2 /\ l_mF l1 = Some m1 /\ l_mF l2 = Some m2 /\
      x_A x = option_map (scale_A N (nofQ N (this (z_factor (x_allowed xp) f1 f2 m1 m2)))) (x_A xp)
  end.
Proof. intros N muB orc _. exact (current_width N muB orc). Qed.
Print Assumptions C22_linewidth_partial.
(** In every history, later assignments never reach what already exists:
    g-factors and linewidths of existing objects stay as they were created. *)
Theorem C22_frozen : forall N muB orc s o, match o with OSetA _ _ _ => False | _ => True end ->
  (forall a l, lv s a = Some l -> exists l', lv (step N muB orc s o) a = Some l' /\ l_gF l' = l_gF l) /\
  (forall t x, tr s t = Some x -> exists x', tr (step N muB orc s o) t = Some x' /\ x_A x' = x_A x).
Proof. exact frozen. Qed.
Print Assumptions C22_frozen.
(** The same assignments and accesses in another order give another energy. *)
Theorem C22_order_refuted : exists os os' c, Permutation os os' /\
  let s := runx (from 1) os in let s' := runx (from 1) os' in
  option_map (@l_lande Exact) (lv s 0) = option_map (@l_lande Exact) (lv s' 0) /\ s_B s = s_B s' /\
  fst (levels_get Exact "6s 2S1/2 F=1 mF=1" s) = Ok c /\ fst (levels_get Exact "6s 2S1/2 F=1 mF=1" s') = Ok c /\
  energy Exact 1%Qc s c = Some (Q2Qc 0) /\ energy Exact 1%Qc s' c = Some (Q2Qc 1).
Proof.
  exists ([nl tS 0; add 0; OSetB Exact 1%Qc] ++ [OLevel Exact "6s 2S1/2 F=1 mF=1"; OSetLande Exact 0 (Q2Qc 2)]),
         ([nl tS 0; add 0; OSetB Exact 1%Qc] ++ [OSetLande Exact 0 (Q2Qc 2); OLevel Exact "6s 2S1/2 F=1 mF=1"]), 5%nat.
  split; [apply Permutation_app_head, perm_swap|]. cbv zeta.
  split; [vm_compute; reflexivity|]. split; [vm_compute; reflexivity|]. split; [vm_compute; reflexivity|]. split; [vm_compute; reflexivity|].
  split; vm_compute; apply f_equal, Qc_is_canon; reflexivity.
Qed.
Print Assumptions C22_order_refuted.
Example C22_case :
  let os := [nl tS 0; OSetLande Exact 0 (Q2Qc 2); add 0; nl tP 5; add 1; ONewTransition Exact 0 1 None None None; OSetA Exact 0 (Some (Q2Qc 9, uHz));
             OSetB Exact 1%Qc; OSubtransitions Exact 0; OLevel Exact "6s 2S1/2 F=1 mF=1"; OSetLevel Exact 1 (Q2Qc 7)] in
  calm Exact 1%Qc plain (from 1) os /\ exists lc, lv (runx (from 1) os) 8 = Some lc /\ l_kind lc = LZ.
Proof.
  cbv zeta. split.
  - cbn [calm calm_op nl add]. repeat split.
    + intros b lb V. apply (map_nth_error l_parent) in V.
      match type of V with nth_error ?x _ = _ => assert (M : x = [None]) by (vm_compute; reflexivity); rewrite M in V end.
      destruct b as [|[|]]; [injection V as V; rewrite <- V|discriminate V..]. discriminate.
    + intros x V. apply (map_nth_error x_kind) in V.
      match type of V with nth_error ?x _ = _ => assert (M : x = [TT]) by (vm_compute; reflexivity); rewrite M in V end.
      now injection V as V; rewrite <- V.
    + intros u y V. apply (map_nth_error x_parent) in V.
      match type of V with nth_error ?x _ = _ => assert (M : x = [None]) by (vm_compute; reflexivity); rewrite M in V end.
      destruct u as [|[|]]; [injection V as V; rewrite <- V|discriminate V..]. discriminate.
  - match goal with |- exists lc, lv ?s 8 = _ /\ _ => assert (M : option_map l_kind (lv s 8) = Some LZ) by (vm_compute; reflexivity); destruct (lv s 8) as [l|] end;
      [exists l; split; [reflexivity|now injection M as ->] | discriminate M].
Qed.

(** C23.  [gentle_run n a P s os]: no operation of the history renames,
    deletes or repopulates level [a] called [n], or binds an alias in [P]. *)
Theorem C23_same_object_partial : forall N muB orc, (forall n, oracle_ok (orc n)) -> forall s, reachable N muB orc s ->
  forall n a l j f m al,
  dget n (node_attrs (s_g0 s)) = Some a -> lv s a = Some l -> l_J l = Some j ->
  In f (F_range j (s_I s)) -> In m (mF_range f) -> has_char "="%char n = false ->
  (forall k, In k [n; n ++ " F=" ++ half_label f; n ++ " F=" ++ half_label f ++ " mF=" ++ half_label m; n ++ " mJ=" ++ half_label m]%string ->
     dget k (s_lal s) = None) ->
  dget al (s_lal s) = Some a ->
  exists b c s1,
    levels_get N (n ++ " F=" ++ half_label f ++ " mF=" ++ half_label m) s = (Ok c, s1) /\
    (exists lb lc, lv s1 b = Some lb /\ l_F lb = Some f /\ lv s1 c = Some lc /\ l_F lc = Some f /\ l_mF lc = Some m) /\
    forall os, gentle_run N muB orc n a (fun k => k = al \/
        In k [n; n ++ " F=" ++ half_label f; n ++ " F=" ++ half_label f ++ " mF=" ++ half_label m; n ++ " mJ=" ++ half_label m]%string) s1 os ->
      let s2 := run N muB orc s1 os in
      levels_get N n s2 = (Ok a, s2) /\
      levels_get N al s2 = (Ok a, s2) /\
      levels_get N (n ++ " F=" ++ half_label f) s2 = (Ok b, s2) /\
      getitem N a ("F=" ++ half_label f) s2 = (Ok b, s2) /\
      levels_get N (n ++ " F=" ++ half_label f ++ " mF=" ++ half_label m) s2 = (Ok c, s2) /\
      getitem N b ("mF=" ++ half_label m) s2 = (Ok c, s2) /\
      (s_I s = 0%Z -> levels_get N (n ++ " mJ=" ++ half_label m) s2 = (Ok c, s2) /\
                      getitem N a ("mJ=" ++ half_label m) s2 = (Ok c, s2)).
Proof. exact paths_agree. Qed.
Print Assumptions C23_same_object_partial.
(** An alias, an interleaving of accesses, moves and a deletion elsewhere. *)
Example C23_case :
  let s := runx (two 1) [OAlias Exact 0 "g"] in
  let s1 := snd (levels_get Exact "6s 2S1/2 F=1 mF=-1" s) in
  let os := [OSublevels Exact 0; OSetLevel Exact 0 (Q2Qc 3); OAlias Exact 1 "e"; ODelLevel Exact "6p 2P*1/2"; OItem Exact 0 "F=0"] in
  dget "6s 2S1/2"%string (node_attrs (s_g0 s)) = Some 0%nat /\ dget "g"%string (s_lal s) = Some 0%nat /\
  forallb (fun k => match dget k (s_lal s) with None => true | _ => false end) (paths "6s 2S1/2" 2 (-2)) = true /\
  gentle_run Exact 1%Qc plain "6s 2S1/2" 0 (fun k => k = "g" \/ In k (paths "6s 2S1/2" 2 (-2)))%string s1 os /\
  map (fun k => fst (levels_get Exact k (runx s1 os))) ["6s 2S1/2"; "g"; "6s 2S1/2 F=1"; "6s 2S1/2 F=1 mF=-1"]%string =
    [Ok 0; Ok 0; Ok 3; Ok 4]%nat.
Proof.
  cbv zeta. split; [vm_compute; reflexivity|]. split; [vm_compute; reflexivity|]. split; [vm_compute; reflexivity|]. split; [|vm_compute; reflexivity].
  cbn [gentle_run gentle]. repeat split; try discriminate. intros [H|H]; [discriminate|].
  vm_compute in H. repeat destruct H as [H|H]; try discriminate; contradiction.
Qed.
(** Without the restriction: adding a level again with populate_sublevels =
    True builds new sublevels, and the same path then gives another object. *)
Theorem C23_readd_refuted : exists s, reachable Exact 1%Qc plain s /\
  exists o b b', fst (levels_get Exact "6s 2S1/2 F=1" s) = Ok b /\
    fst (levels_get Exact "6s 2S1/2 F=1" (runx s [o])) = Ok b' /\ b <> b'.
Proof.
  exists (runx (two 1) [OSublevels Exact 0]). split.
  - apply more_reachable, two_reachable; lia.
  - exists (OAddLevel Exact 0 true None). eexists. eexists. split; [vm_compute; reflexivity|]. split; [vm_compute; reflexivity|discriminate].
Qed.
Print Assumptions C23_readd_refuted.

(** C24.  The code answers exactly when F = J is a sublevel: I integral and
    at most 2J, and m one of the projections of J. *)
Theorem C24_mJ_lookup_partial : forall N muB orc, (forall n, oracle_ok (orc n)) -> forall s, reachable N muB orc s ->
  forall n a l j m, dget n (node_attrs (s_g0 s)) = Some a -> lv s a = Some l -> l_J l = Some j -> has_char "="%char n = false ->
  dget (n ++ " mJ=" ++ half_label m)%string (s_lal s) = None ->
  let r := fst (levels_get N (n ++ " mJ=" ++ half_label m) s) in
  let answers := Z.even (s_I s) = true /\ (s_I s <= 2 * j)%Z /\ (- j <= m <= j)%Z /\ Z.even (j + m) = true in
  (answers -> exists c, r = Ok c) /\ (~ answers -> r = Raise KeyError) /\
  (s_I s <> 0%Z -> fst (getitem N a ("mJ=" ++ half_label m) s) = Raise KeyError).
Proof. exact mJ_exact. Qed.
Print Assumptions C24_mJ_lookup_partial.
(** So the property as stated fails for I = 1. *)
Theorem C24_nuclear_spin_refuted : exists s c, reachable Exact 1%Qc plain s /\ s_I s = 2%Z /\
  fst (levels_get Exact "6p 2P*3/2 mJ=1/2" s) = Ok c /\
  exists l, lv (snd (levels_get Exact "6p 2P*3/2 mJ=1/2" s)) c = Some l /\ lname l = "6p 2P*3/2 F=3/2 mF=1/2"%string.
Proof.
  exists (runx (from 2) [nl tQ 0; add 0]). eexists. split; [apply from_reachable; lia|]. split; [vm_compute; reflexivity|]. split; [vm_compute; reflexivity|].
  eexists. split; vm_compute; reflexivity.
Qed.
Print Assumptions C24_nuclear_spin_refuted.

(** C25, in exact arithmetic. *)
Theorem C25_by_energy : forall muB orc, (forall n, oracle_ok (orc n)) -> forall s, reachable Exact muB orc s ->
  exists r, Permutation r (dvals (node_attrs (s_g0 s))) /\
    StronglySorted (fun b c => forall eb ec, energy Exact muB s b = Some eb -> energy Exact muB s c = Some ec -> (eb <= ec)%Qc) r /\
    (forall b, In b r -> energy Exact muB s b <> None) /\
    (forall i, (i < List.length r)%nat -> exists b, nth_error r i = Some b /\
       levels_get_int Exact muB (Z.of_nat i) s = (Ok b, s) /\ levels_get_int Exact muB (Z.of_nat i - Z.of_nat (List.length r)) s = (Ok b, s)) /\
    (forall z, (z < - Z.of_nat (List.length r) \/ Z.of_nat (List.length r) <= z)%Z -> levels_get_int Exact muB z s = (Raise IndexError, s)).
Proof. exact levels_by_energy. Qed.
Print Assumptions C25_by_energy.
Example C25_case : let s := runx (from 1) [nl tP 10; add 0; nl tS 0; add 1; nl tQ 5; add 2] in
  map (fun i => fst (levels_get_int Exact 1%Qc i s)) [0; 1; 2; -1; 3]%Z = [Ok 1; Ok 2; Ok 0; Ok 0; Raise IndexError]%nat.
Proof. vm_compute. reflexivity. Qed.

(** C26.  Additions alone, to an atom without levels. *)
Theorem C26_additions : forall N muB orc, (forall n, oracle_ok (orc n)) -> forall s, reachable N muB orc s -> s_g0 s = g_empty ->
  forall ads, (forall q, In q ads -> lv s (fst (fst q)) <> None) ->
  let s' := run N muB orc s (adds N ads) in
  dkeys (node_attrs (s_g0 s')) = first_seen (map fst (additions N s ads)) /\
  forall k, dget k (node_attrs (s_g0 s')) = last_for k (additions N s ads).
Proof. intros N muB orc OK s R E ads H. exact (adds_ok N muB orc OK s ads (reachable_WF N muB orc OK s R) E H). Qed.
Print Assumptions C26_additions.
(** Any history: a name stands for the last fine-structure level added under
    it and not deleted since. *)
Theorem C26_history : forall N muB orc, (forall n, oracle_ok (orc n)) -> forall s, reachable N muB orc s ->
  forall os k, has_char "="%char k = false -> dget k (s_lal (run N muB orc s os)) = None ->
  levels_get N k (run N muB orc s os) =
    (match owner N muB orc k s os (dget k (node_attrs (s_g0 s))) with Some a => Ok a | None => Raise KeyError end, run N muB orc s os).
Proof. intros N muB orc OK s R os k. apply owner_get; auto. eapply reachable_WF; eauto. Qed.
Print Assumptions C26_history.
Example C26_case :
  let s := runx (from 1) [nl tS 0; nl tP 1; nl tS 2] in
  let ads := [(1, false, None); (0, true, None); (2, false, Some "x"%string)]%nat in
  s_g0 s = g_empty /\ first_seen (map fst (additions Exact s ads)) = ["6p 2P*1/2"; "6s 2S1/2"]%string /\
  last_for "6s 2S1/2" (additions Exact s ads) = Some 2%nat /\
  owner Exact 1%Qc plain "6s 2S1/2" s (adds Exact ads ++ [ODelLevel Exact "6s 2S1/2"; add 0]) None = Some 0%nat /\
  owner Exact 1%Qc plain "6s 2S1/2" s (adds Exact ads ++ [ODelLevel Exact "6s 2S1/2"]) None = None.
Proof. vm_compute. repeat (split; [reflexivity|]). reflexivity. Qed.

(** C27.  [edge_attrs] lists the transitions of the atom with the names of
    their levels.  Not through an alias: see below. *)
Theorem C27_deleted_partial : forall N muB orc, (forall n, oracle_ok (orc n)) -> forall s, reachable N muB orc s ->
  forall n a l, dget n (node_attrs (s_g0 s)) = Some a -> lv s a = Some l ->
  exists s', del_level N n s = (Ok tt, s') /\
    (forall key, dget key (s_lal s') = None -> fst (levels_get N key s') <> Ok a) /\
    (forall f m, has_char "="%char n = false ->
      forall key, In key (paths n f m) -> dget key (s_lal s') = None -> fst (levels_get N key s') = Raise KeyError) /\
    (forall k, k <> n -> dget k (node_attrs (s_g0 s')) = dget k (node_attrs (s_g0 s))) /\
    (forall u v t, In ((u, v), t) (edge_attrs (s_g0 s')) <-> In ((u, v), t) (edge_attrs (s_g0 s)) /\ u <> n /\ v <> n) /\
    (forall u v t x, In ((u, v), t) (edge_attrs (s_g0 s')) -> tr s' t = Some x -> nm s' (x_lo x) <> Some n /\ nm s' (x_up x) <> Some n).
Proof. exact deleted_paths. Qed.
Print Assumptions C27_deleted_partial.
Example C27_case : let s := runx (two 1) [OSublevels Exact 0; ONewTransition Exact 0 1 None None None; ODelLevel Exact "6s 2S1/2"] in
  map (fun k => fst (levels_get Exact k s)) ["6s 2S1/2"; "6s 2S1/2 F=0"; "6s 2S1/2 F=1 mF=0"; "6p 2P*1/2"]%string =
    [Raise KeyError; Raise KeyError; Raise KeyError; Ok 1%nat].
Proof. vm_compute. reflexivity. Qed.
(** An alias set before survives the deletion and still gives the level. *)
Theorem C27_alias_refuted : exists s n a al, reachable Exact 1%Qc plain s /\ dget n (node_attrs (s_g0 s)) = Some a /\
  fst (del_level Exact n s) = Ok tt /\ fst (levels_get Exact al (snd (del_level Exact n s))) = Ok a.
Proof.
  exists (runx (two 1) [OAlias Exact 0 "g"]), "6s 2S1/2"%string, 0%nat, "g"%string. split.
  - apply more_reachable, two_reachable; lia.
  - split; [vm_compute; reflexivity|]. split; vm_compute; reflexivity.
Qed.
Print Assumptions C27_alias_refuted.

(** C28 *)
Theorem C28_alias_stays : forall N muB orc, (forall n, oracle_ok (orc n)) -> forall s, reachable N muB orc s ->
  forall a l al, lv s a = Some l -> l_attached l = true ->
  exists s', set_alias N a al s = (Ok tt, s') /\
    forall os, unbound N muB orc al s' os -> levels_get N al (run N muB orc s' os) = (Ok a, run N muB orc s' os).
Proof.
  intros N muB orc OK s R a l al V A. destruct (alias_stays N muB orc OK s a l al) as [s' [E [_ G]]]; eauto. eapply reachable_WF; eauto.
Qed.
Print Assumptions C28_alias_stays.
Theorem C28_other_lookups : forall N muB orc, (forall n, oracle_ok (orc n)) -> forall s, reachable N muB orc s ->
  forall a l al key, lv s a = Some l -> l_attached l = true -> key <> al ->
  fst (levels_get N key (snd (set_alias N a al s))) = fst (levels_get N key s).
Proof. intros N muB orc OK s R a l al key. apply alias_frame. eapply reachable_WF; eauto. Qed.
Print Assumptions C28_other_lookups.
Example C28_case :
  let s := snd (set_alias Exact 0 "g" (two 1)) in
  let os := [OSublevels Exact 0; OAlias Exact 1 "e"; ODelLevel Exact "6s 2S1/2"; nl tQ 3; OAddLevel Exact 4 true (Some "h"%string)] in
  unbound Exact 1%Qc plain "g" s os /\ fst (levels_get Exact "g" (runx s os)) = Ok 0%nat /\
  fst (levels_get Exact "g" (runx s [OAlias Exact 1 "g"])) = Ok 1%nat.
Proof.
  cbv zeta. split; [|split; vm_compute; reflexivity].
  cbn [unbound binds]. repeat split; try (intros H; exact H); try discriminate. intros [l [_ H]]. discriminate.
Qed.
