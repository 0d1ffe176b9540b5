(** The strengths of the listed subtransitions (C36-C38). *)
From Coq Require Import List Bool ZArith QArith Qcanon Lia String Ascii Permutation Sorted.
From Verif Require Import Base PyStr Util UtilProofs Parse Term TermProofs Num Wigner WignerProofs WignerOne WignerSym Hyperfine HyperfineProofs
  Graph GraphProofs DfsProofs Rules RulesProofs StrengthSums Atom AtomInv AtomSafe AtomSafe2 AtomSafe3 AtomSafe4 AtomSafe5 AtomSafe6 AtomLevels AtomKeep
  AtomPaths AtomSub AtomTrans.
Import ListNotations.

Section Listed.
  Context (N : Num) (muB : N).
  Notation st := (st N).
  Notation level := (level N).
  Notation trans := (trans N).
  Implicit Types (s : st) (l : level) (x y : trans) (a t : nat).
  Notation energy := (energy N muB).
  Notation sub_rec := (sub_rec N muB).
  Notation fill := (fill N muB).
  Notation tkey := (tkey N).

  Lemma fill_val : forall ps s t x n d k c, In (k, c) (fill s t x n ps d) -> In (k, c) d \/
    exists i ab y, nth_error ps i = Some ab /\ c = (n + i)%nat /\ sub_rec s t x ab = Some y /\ any_type (x_allowed y) = true /\ k = tkey s y.
  Proof.
    induction ps as [|ab ps IH]; intros s t x n d k c I; cbn [AtomSafe3.fill] in I; auto.
    apply IH in I as [I|[i [ab' [y [E [Ec [R A]]]]]]].
    - destruct (sub_rec s t x ab) as [y|] eqn:R; auto. destruct (any_type (x_allowed y)) eqn:A; auto.
      apply dset_In in I as [[-> ->]|I]; auto. right. exists 0%nat, ab, y. rewrite Nat.add_0_r. auto.
    - right. exists (S i), ab', y. split; auto. split; [lia|auto].
  Qed.

  Lemma sub_rec_rel : forall s t x ab y, sub_rec s t x ab = Some y -> exists l1 l2, lv s (fst ab) = Some l1 /\ lv s (snd ab) = Some l2 /\
    x_rel y = match x_A x with Some _ => sub_factor N s x l1 l2 | None => nofQ N 1 end /\
    x_A y = option_map (scale_A N (sub_factor N s x l1 l2)) (x_A x).
  Proof.
    intros s t x [b1 b2] y R. unfold AtomSafe3.sub_rec in R. cbn [fst snd] in *.
    destruct (lv s b1) as [l1|] eqn:V1; [|discriminate]. destruct (lv s b2) as [l2|] eqn:V2; [|discriminate].
    unfold tr_rec in R. rewrite V1 in R. destruct (energy s b1) as [v1|] eqn:E1; [|discriminate]. destruct (energy s b2) as [v2|] eqn:E2; [|discriminate].
    injection R as <-. exists l1, l2. auto.
  Qed.

  Lemma sub_factor_same : forall s s' x l1 l2 l1' l2', s_I s' = s_I s -> lsame l1 l1' -> lsame l2 l2' -> sub_factor N s' x l1' l2' = sub_factor N s x l1 l2.
  Proof.
    intros s s' x l1 l2 l1' l2' I S1 S2. destruct (lsame_names _ _ _ S1) as [_ [_ [_ [Q1 [Q2 [Q3 _]]]]]]. destruct (lsame_names _ _ _ S2) as [_ [_ [_ [R1 [R2 [R3 _]]]]]].
    unfold sub_factor. now rewrite Q1, Q2, Q3, R1, R2, R3, I.
  Qed.

  (** What is listed the first time, exactly. *)
  Lemma listed_exact : forall s t x cs s', WF s -> tr s t = Some x -> x_kind x <> TZ -> x_subs x = [] -> subtransitions N muB t s = (Ok cs, s') ->
    exists bs1 bs2, sublevels N (x_E1 x) s' = (Ok bs1, s') /\ sublevels N (x_E2 x) s' = (Ok bs2, s') /\
      NoDup bs1 /\ NoDup bs2 /\ NoDup cs /\ s_I s' = s_I s /\ WF s' /\
      (forall c, In c cs -> exists y l1 l2, tr s' c = Some y /\ In (x_E1 y) bs1 /\ In (x_E2 y) bs2 /\ lv s' (x_E1 y) = Some l1 /\ lv s' (x_E2 y) = Some l2 /\
         x_rel y = match x_A x with Some _ => sub_factor N s' x l1 l2 | None => nofQ N 1 end /\
         x_A y = option_map (scale_A N (sub_factor N s' x l1 l2)) (x_A x)) /\
      (forall c c' y y', In c cs -> In c' cs -> tr s' c = Some y -> tr s' c' = Some y' -> x_E1 y = x_E1 y' -> x_E2 y = x_E2 y' -> c = c') /\
      (exists m1 m2, lv s' (x_E1 x) = Some m1 /\ lv s' (x_E2 x) = Some m2 /\ l_attached m1 = true /\ l_attached m2 = true /\
         l_kind m1 = lk (x_kind x) /\ l_kind m2 = lk (x_kind x)).
  Proof.
    intros s t x cs s' W V K X E.
    destruct (safe_Ok _ _ _ _ _ _ _ (subtransitions_safe N muB s t x W V) E) as [W' [L [x' [V' [-> [_ H]]]]]]. specialize (H X).
    destruct H as [s1 [m1 [m2 [x2 [b [Lo1 [W1 [M1 [M2 [F1 [F2 [T1 [_ [T2 [-> [G Lo2]]]]]]]]]]]]]]]]. rewrite V' in T2. injection T2 as ->.
    destruct (wf_tr _ _ W1 _ _ T1) as [m1' [m2' [N1 [N2 [N3 [N4 _]]]]]]. assert (m1' = m1) by congruence. assert (m2' = m2) by congruence. subst m1' m2'.
    destruct (tkind_lk _ K) as [K0 _]. assert (Kz1 : l_kind m1 <> LZ) by congruence. assert (Kz2 : l_kind m2 <> LZ) by congruence.
    assert (Fr : frame s1 s') by exact (lo_frame _ _ _ Lo2).
    pose proof (full_dvals_nodup _ _ _ _ W1 M1 Kz1 F1) as D1. pose proof (full_dvals_nodup _ _ _ _ W1 M2 Kz2 F2) as D2.
    assert (Dp : NoDup (sub_pairs N s1 x m1 m2)) by (apply NoDup_filter, NoDup_pairs; auto).
    exists (dvals (l_subs m1)), (dvals (l_subs m2)).
    split; [exact (sublevels_stable _ _ _ _ W1 M1 Kz1 F1 s' Lo2)|]. split; [exact (sublevels_stable _ _ _ _ W1 M2 Kz2 F2 s' Lo2)|].
    split; auto. split; auto.
    assert (I' : s_I s' = s_I s1) by exact (fr_I _ _ _ Fr).
    assert (Val : forall k c, In (k, c) (fill s1 t x (List.length (s_trans s1)) (sub_pairs N s1 x m1 m2) []) ->
      exists i ab y, nth_error (sub_pairs N s1 x m1 m2) i = Some ab /\ c = (List.length (s_trans s1) + i)%nat /\ sub_rec s1 t x ab = Some y /\ k = tkey s1 y).
    { intros k c I. destruct (fill_val _ _ _ _ _ _ _ _ I) as [[]|[i [ab [y [A1 [A2 [A3 [_ A4]]]]]]]]. exists i, ab, y. auto. }
    assert (Own : forall c, In c (dvals (fill s1 t x (List.length (s_trans s1)) (sub_pairs N s1 x m1 m2) [])) ->
      exists i ab y b0, nth_error (sub_pairs N s1 x m1 m2) i = Some ab /\ c = (List.length (s_trans s1) + i)%nat /\ sub_rec s1 t x ab = Some y /\
        tr s' c = Some (tr_set_attached b0 y) /\ x_E1 y = fst ab /\ x_E2 y = snd ab).
    { intros c I. apply in_map_iff in I as [[k c'] [Ec I]]. cbn in Ec. subst c'. destruct (Val _ _ I) as [i [ab [y [A1 [-> [A3 A4]]]]]].
      destruct (G _ _ A1) as [y' [b' [R T']]]. assert (y' = y) by congruence. subst y'. exists i, ab, y, b'.
      destruct (sub_rec_inv _ _ _ _ _ _ _ A3) as [? [? [? [? [_ [_ [_ [_ [E1 [E2 _]]]]]]]]]]. auto 10. }
    cbn [x_subs tr_set_subs].
    split.
    { assert (ND : NoDup (dkeys (fill s1 t x (List.length (s_trans s1)) (sub_pairs N s1 x m1 m2) []))).
      { destruct (wf_tsubs _ _ W' _ _ V') as [ND _]. exact ND. }
      revert Val ND. generalize (fill s1 t x (List.length (s_trans s1)) (sub_pairs N s1 x m1 m2) []). intros d Val ND. clear Own.
      assert (U : forall k k' c, In (k, c) d -> In (k', c) d -> k = k').
      { intros k k' c Ik Ik'. destruct (Val _ _ Ik) as [i [ab [y [A1 [A2 [A3 A4]]]]]]. destruct (Val _ _ Ik') as [i' [ab' [y' [B1 [B2 [B3 B4]]]]]].
        assert (i = i') by lia. subst i'. congruence. }
      clear -ND U. induction d as [|[k c] d IH]; cbn [dvals map snd]; [constructor|]. cbn [dkeys map fst] in ND. inversion ND; subst. constructor.
      - intros I. apply in_map_iff in I as [[k' c'] [Ec I]]. cbn in Ec. subst c'. assert (k = k') by (eapply U; [now left|right; eauto]). subst k'.
        apply H1. apply in_map_iff. now exists (k, c).
      - apply IH; auto. intros; eapply U; right; eauto. }
    split; [rewrite I'; exact (fr_I _ _ _ (lo_frame _ _ _ (proj1 Lo1)))|]. split; auto.
    split; [|split].
    - intros c I. destruct (Own c I) as [i [ab [y [b0 [A1 [-> [A3 [A4 [A5 A6]]]]]]]]].
      destruct (sub_rec_rel _ _ _ _ _ A3) as [l1 [l2 [V1 [V2 [Rl Ra]]]]].
      destruct (ext_lv _ _ _ (look_ext _ _ _ Lo2) _ _ V1) as [l1' [V1' S1]]. destruct (ext_lv _ _ _ (look_ext _ _ _ Lo2) _ _ V2) as [l2' [V2' S2]].
      apply nth_error_In in A1. apply filter_In in A1 as [A1 _]. destruct ab as [b1 b2]. apply in_prod_iff in A1 as [I1 I2]. cbn [fst snd] in *.
      exists (tr_set_attached b0 y), l1', l2'. cbn. rewrite A5, A6. split; auto. split; auto. split; auto. split; auto. split; auto.
      rewrite (sub_factor_same s1 s' x l1 l2 l1' l2'); auto.
    - intros c c' y y' I I2 Vc Vc' E1 E2. destruct (Own c I) as [i [ab [z [b0 [A1 [-> [A3 [A4 [A5 A6]]]]]]]]].
      destruct (Own c' I2) as [i' [ab' [z' [b0' [B1 [-> [B3 [B4 [B5 B6]]]]]]]]].
      rewrite Vc in A4. injection A4 as ->. rewrite Vc' in B4. injection B4 as ->. cbn in E1, E2.
      assert (ab = ab') by (destruct ab, ab'; cbn in *; congruence). subst ab'.
      f_equal. eapply NoDup_nth_error; [exact Dp| |congruence]. apply nth_error_Some. congruence.
    - destruct (ext_lv _ _ _ (look_ext _ _ _ Lo2) _ _ M1) as [l1' [V1' S1]]. destruct (ext_lv _ _ _ (look_ext _ _ _ Lo2) _ _ M2) as [l2' [V2' S2]].
      exists l1', l2'. split; auto. split; auto. destruct F1 as [At1 _], F2 as [At2 _]. destruct S1 as [Sk1 [_ [_ Sa1]]], S2 as [Sk2 [_ [_ Sa2]]].
      split; auto. split; auto. split; congruence.
  Qed.
End Listed.

(** ** Sums over what is listed, in exact arithmetic *)

Section Sum.
  Notation st := (st Exact).
  Implicit Types (s : st) (x y : trans Exact).
  (** [t.rel_strength] *)
  Definition rel_strength s (c : nat) : Qc := match tr s c with Some y => x_rel y | None => 0%Qc end.
  (** The subtransitions in [cs] whose E_1 (E_2) is the sublevel [b]. *)
  Definition at_1 s (b : nat) (cs : list nat) : list nat := filter (fun c => match tr s c with Some y => Nat.eqb (x_E1 y) b | None => false end) cs.
  Definition at_2 s (b : nat) (cs : list nat) : list nat := filter (fun c => match tr s c with Some y => Nat.eqb (x_E2 y) b | None => false end) cs.
  Definition pairf s x (b1 b2 : nat) : Qc := match lv s b1, lv s b2 with Some l1, Some l2 => sub_factor Exact s x l1 l2 | _, _ => 0%Qc end.

  Definition e1 s c := match tr s c with Some y => x_E1 y | None => 0%nat end.
  Definition e2 s c := match tr s c with Some y => x_E2 y | None => 0%nat end.

  Lemma NoDup_map_inj {A B} : forall (f : A -> B) u, (forall i j, In i u -> In j u -> f i = f j -> i = j) -> NoDup u -> NoDup (map f u).
  Proof.
    induction u as [|i u IH]; intros H D; cbn [map]; [constructor|]. inversion D; subst. constructor.
    - intros I. apply in_map_iff in I as [j [Ej Ij]]. apply H2. assert (j = i) by (apply H; auto; [now right|now left]). now subst.
    - apply IH; auto. intros; apply H; auto; now right.
  Qed.

  Lemma pair_dec : forall u w : nat * nat, {u = w} + {u <> w}.
  Proof. decide equality; apply Nat.eq_dec. Qed.

  Lemma sum_at : forall s x cs bs1 bs2 v, x_A x = Some v -> NoDup cs -> NoDup bs1 -> NoDup bs2 ->
    (forall c, In c cs -> exists y l1 l2, tr s c = Some y /\ In (x_E1 y) bs1 /\ In (x_E2 y) bs2 /\ lv s (x_E1 y) = Some l1 /\ lv s (x_E2 y) = Some l2 /\
       x_rel y = match x_A x with Some _ => sub_factor Exact s x l1 l2 | None => nofQ Exact 1 end /\
       x_A y = option_map (scale_A Exact (sub_factor Exact s x l1 l2)) (x_A x)) ->
    (forall c c' y y', In c cs -> In c' cs -> tr s c = Some y -> tr s c' = Some y' -> x_E1 y = x_E1 y' -> x_E2 y = x_E2 y' -> c = c') ->
    (forall b1 b2 l1 l2, In b1 bs1 -> In b2 bs2 -> lv s b1 = Some l1 -> lv s b2 = Some l2 -> sub_factor Exact s x l1 l2 <> 0%Qc ->
       exists c y, In c cs /\ tr s c = Some y /\ x_E1 y = b1 /\ x_E2 y = b2) ->
    (forall b1, In b1 bs1 -> sums (rel_strength s) (at_1 s b1 cs) = sums (pairf s x b1) bs2) /\
    (forall b2, In b2 bs2 -> sums (rel_strength s) (at_2 s b2 cs) = sums (fun b1 => pairf s x b1 b2) bs1) /\
    sums (rel_strength s) cs = sums (fun b1 => sums (pairf s x b1) bs2) bs1.
  Proof.
    intros s x cs bs1 bs2 v A Dc D1 D2 O U Z.
    assert (Rl : forall c, In c cs -> rel_strength s c = pairf s x (e1 s c) (e2 s c)).
    { intros c I. destruct (O c I) as [y [l1 [l2 [T [_ [_ [V1 [V2 [R _]]]]]]]]]. unfold rel_strength, e1, e2, pairf. now rewrite T, V1, V2, R, A. }
    assert (In1 : forall c, In c cs -> In (e1 s c) bs1 /\ In (e2 s c) bs2).
    { intros c I. destruct (O c I) as [y [l1 [l2 [T [I1 [I2 _]]]]]]. unfold e1, e2. rewrite T. auto. }
    assert (Un : forall c c', In c cs -> In c' cs -> e1 s c = e1 s c' -> e2 s c = e2 s c' -> c = c').
    { intros c c' I I' E1 E2. destruct (O c I) as [y [? [? [T _]]]]. destruct (O c' I') as [y' [? [? [T' _]]]]. unfold e1, e2 in *. rewrite T, T' in *. eauto. }
    assert (Ze : forall b1 b2, In b1 bs1 -> In b2 bs2 -> pairf s x b1 b2 <> 0%Qc -> exists c, In c cs /\ e1 s c = b1 /\ e2 s c = b2).
    { intros b1 b2 I1 I2 H. unfold pairf in H. destruct (lv s b1) as [l1|] eqn:V1; [|contradiction]. destruct (lv s b2) as [l2|] eqn:V2; [|contradiction].
      destruct (Z b1 b2 l1 l2 I1 I2 V1 V2 H) as [c [y [Ic [T [E1 E2]]]]]. exists c. unfold e1, e2. rewrite T. auto. }
    assert (A1 : forall b c, In c (at_1 s b cs) <-> In c cs /\ e1 s c = b).
    { intros b c. unfold at_1, e1. rewrite filter_In. split; intros [I H]; split; auto; destruct (O c I) as [y [? [? [T _]]]]; rewrite T in *; [now apply Nat.eqb_eq|now apply Nat.eqb_eq]. }
    assert (A2 : forall b c, In c (at_2 s b cs) <-> In c cs /\ e2 s c = b).
    { intros b c. unfold at_2, e2. rewrite filter_In. split; intros [I H]; split; auto; destruct (O c I) as [y [? [? [T _]]]]; rewrite T in *; [now apply Nat.eqb_eq|now apply Nat.eqb_eq]. }
    split; [|split].
    - intros b1 I1. rewrite (sums_ext _ (fun c => pairf s x b1 (e2 s c))).
      2: { intros c I. apply A1 in I as [I <-]. auto. }
      rewrite <- (sums_map (e2 s)). apply (sums_supp Nat.eq_dec); auto.
      + apply NoDup_map_inj; [|now apply NoDup_filter]. intros c c' I I' E. apply A1 in I as [I <-]. apply A1 in I' as [I' E']. apply Un; auto.
      + intros b2 I Nb. exfalso. apply Nb. apply in_map_iff in I as [c [<- I]]. apply A1 in I as [I _]. now apply In1.
      + intros b2 I Nb. destruct (Qc_eq_dec (pairf s x b1 b2) 0) as [|Nz]; auto. exfalso. apply Nb.
        destruct (Ze b1 b2 I1 I Nz) as [c [Ic [E1 E2]]]. apply in_map_iff. exists c. split; auto. apply A1. auto.
    - intros b2 I2. rewrite (sums_ext _ (fun c => pairf s x (e1 s c) b2)).
      2: { intros c I. apply A2 in I as [I <-]. auto. }
      rewrite <- (sums_map (e1 s) (fun b1 => pairf s x b1 b2)). apply (sums_supp Nat.eq_dec); auto.
      + apply NoDup_map_inj; [|now apply NoDup_filter]. intros c c' I I' E. apply A2 in I as [I <-]. apply A2 in I' as [I' E']. apply Un; auto.
      + intros b1 I Nb. exfalso. apply Nb. apply in_map_iff in I as [c [<- I]]. apply A2 in I as [I _]. now apply In1.
      + intros b1 I Nb. destruct (Qc_eq_dec (pairf s x b1 b2) 0) as [|Nz]; auto. exfalso. apply Nb.
        destruct (Ze b1 b2 I I2 Nz) as [c [Ic [E1 E2]]]. apply in_map_iff. exists c. split; auto. apply A2. auto.
    - rewrite <- (sums_prod (fun ab => pairf s x (fst ab) (snd ab))).
      rewrite (sums_ext _ (fun c => (fun ab => pairf s x (fst ab) (snd ab)) (e1 s c, e2 s c))) by auto.
      rewrite <- (sums_map (fun c => (e1 s c, e2 s c)) (fun ab => pairf s x (fst ab) (snd ab))).
      apply (sums_supp pair_dec); auto using NoDup_pairs.
      + apply NoDup_map_inj; auto. intros c c' I I' E. injection E as E1 E2. auto.
      + intros [b1 b2] I Nb. exfalso. apply Nb. apply in_map_iff in I as [c [E I]]. injection E as <- <-. apply in_prod_iff. auto.
      + intros [b1 b2] I Nb. apply in_prod_iff in I as [I1 I2]. cbn [fst snd]. destruct (Qc_eq_dec (pairf s x b1 b2) 0) as [|Nz]; auto. exfalso. apply Nb.
        destruct (Ze b1 b2 I1 I2 Nz) as [c [Ic [E1 E2]]]. apply in_map_iff. exists c. split; [now rewrite E1, E2|auto].
  Qed.

  Lemma exact_factor : forall s x l1 l2, sub_factor Exact s x l1 l2 =
    match x_kind x with
    | TT => hf_factor (x_allowed x) (s_I s) (onum (l_J l1)) (onum (l_J l2)) (onum (l_F l1)) (onum (l_F l2))
    | _ => z_factor (x_allowed x) (onum (l_F l1)) (onum (l_F l2)) (onum (l_mF l1)) (onum (l_mF l2))
    end.
  Proof. intros. unfold sub_factor. cbn [nofQ Exact]. apply Qc_is_canon. cbn [this Q2Qc]. apply Qred_correct. Qed.
  Lemma sums_Forall2 {A} : forall (P : Z -> A -> Prop) (h : A -> Qc) (g : Z -> Qc) zs bs, Forall2 P zs bs -> (forall z b, In b bs -> P z b -> h b = g z) -> sums h bs = sums g zs.
  Proof.
    intros P h g zs bs F. induction F as [|z b zs bs H F IH]; intros E; auto. rewrite !sums_cons, IH, (E z b); auto; [now left|]. intros; apply E; auto. now right.
  Qed.
  Lemma Forall2_In_r {A B} : forall (P : A -> B -> Prop) zs bs b, Forall2 P zs bs -> In b bs -> exists z, In z zs /\ P z b.
  Proof. intros P zs bs b F. induction F; intros I; [contradiction|]. destruct I as [->|I]; [exists x; split; auto; now left|]. destruct (IHF I) as [z [Iz Hz]]. exists z. split; auto. now right. Qed.

  Lemma wf_tri_JF : forall s b lb j f, WF s -> lv s b = Some lb -> l_kind lb <> LE -> l_J lb = Some j -> l_F lb = Some f -> tri (s_I s) j f = true /\ (0 <= j)%Z /\ (0 <= f)%Z.
  Proof.
    intros s b lb j f W V K J F. destruct (wf_F _ _ _ _ W V K) as [j' [f' [J' [F' [I' Hf]]]]]. assert (j' = j) by congruence. assert (f' = f) by congruence. subst.
    destruct (wf_J _ _ _ _ W V) as [j' [J2 Hj]]. assert (j' = j) by congruence. subst. apply F_range_In in I'; auto; [|apply (wf_I _ _ W)].
    rewrite tri_12. auto.
  Qed.

  Section Rules.
    Context (muB : Qc).
    Variables (s : st) (t : nat) (x : trans Exact) (cs : list nat) (s' : st).
    Hypothesis (W : WF s) (V : tr s t = Some x) (X : x_subs x = []) (E : subtransitions Exact muB t s = (Ok cs, s')).
    Hypothesis (Dp : dipole (x_allowed x)).

    Lemma factor_HF : forall b1 b2 l1 l2, x_kind x = TT -> WF s' -> lv s' b1 = Some l1 -> lv s' b2 = Some l2 -> l_kind l1 = LHF -> l_kind l2 = LHF ->
      sub_factor Exact s' x l1 l2 <> 0%Qc -> pair_filter Exact s' x (b1, b2) = true /\ any_type (sub_allowed Exact s' x l1 l2) = true.
    Proof.
      intros b1 b2 l1 l2 K W' V1 V2 K1 K2 Nz. rewrite exact_factor, K in Nz.
      destruct (wf_F _ _ _ _ W' V1) as [j1 [f1 [J1 [F1 _]]]]; [congruence|]. destruct (wf_F _ _ _ _ W' V2) as [j2 [f2 [J2 [F2 _]]]]; [congruence|].
      rewrite J1, J2, F1, F2 in Nz. cbn [onum] in Nz. rewrite hf_dipole in Nz by auto. rewrite <- w6_turn, w6sq_strength in Nz.
      apply Qcmult_nz_iff in Nz as [_ Nz]. apply Qcmult_nz_iff in Nz as [_ Nz]. apply w6nz_sq in Nz.
      destruct (w6nz_tri _ _ _ _ _ _ Nz) as [_ [_ [_ [[T _] _]]]]. split.
      - unfold pair_filter. cbn [fst snd]. rewrite V1, V2. unfold pair_attr. rewrite K, F1, F2.
        unfold pair_ok. destruct (any_type (x_allowed x)); auto. apply Z.leb_le. destruct (aE2 (x_allowed x) && negb (aM1 (x_allowed x))); lia.
      - unfold sub_allowed. rewrite K, J1, J2, F1, F2. cbn [onum]. apply allowed_HF_spec. exists 1%Z. split; auto. left. auto.
    Qed.
    Lemma factor_Z : forall b1 b2 l1 l2, x_kind x = THF -> WF s' -> lv s' b1 = Some l1 -> lv s' b2 = Some l2 -> l_kind l1 = LZ -> l_kind l2 = LZ ->
      sub_factor Exact s' x l1 l2 <> 0%Qc -> pair_filter Exact s' x (b1, b2) = true /\ any_type (sub_allowed Exact s' x l1 l2) = true.
    Proof.
      intros b1 b2 l1 l2 K W' V1 V2 K1 K2 Nz. rewrite exact_factor, K in Nz.
      destruct (wf_mF _ _ _ _ W' V1 K1) as [f1 [m1 [F1 [M1 _]]]]. destruct (wf_mF _ _ _ _ W' V2 K2) as [f2 [m2 [F2 [M2 _]]]].
      rewrite F1, F2, M1, M2 in Nz. cbn [onum] in Nz. rewrite z_dipole in Nz by auto. rewrite !(w3sq_strength f1 f2) in Nz.
      assert (Q : exists h, (-1 <= h <= 1)%Z /\ w3sq f2 2 f1 (- m2) (2 * h) m1 <> 0%Qc).
      { change (- (-2))%Z with (2 * 1)%Z in Nz. change (- (0))%Z with (2 * 0)%Z in Nz. change (- (2))%Z with (2 * -1)%Z in Nz.
        destruct (Qc_eq_dec (w3sq f2 2 f1 (- m2) (2 * 1) m1) 0) as [Z1|]; [|exists 1%Z; split; [lia|auto]].
        destruct (Qc_eq_dec (w3sq f2 2 f1 (- m2) (2 * 0) m1) 0) as [Z2|]; [|exists 0%Z; split; [lia|auto]].
        exists (-1)%Z. split; [lia|]. intros Z3. apply Nz. rewrite Z1, Z2, Z3. apply Qc_is_canon. reflexivity. }
      destruct Q as [h [Hh Q]]. apply w3nz_sq in Q. destruct (w3nz_rules _ _ _ _ _ _ Q) as [_ [_ [_ [_ S]]]]. split.
      - unfold pair_filter. cbn [fst snd]. rewrite V1, V2. unfold pair_attr. rewrite K, M1, M2.
        unfold pair_ok. destruct (any_type (x_allowed x)); auto. apply Z.leb_le. destruct (aE2 (x_allowed x) && negb (aM1 (x_allowed x))); lia.
      - unfold sub_allowed. rewrite K, F1, F2, M1, M2. cbn [onum]. apply allowed_Z_spec. exists 1%Z, h. split; [left; auto|auto].
    Qed.
  End Rules.
End Sum.

(** No sublevel of the one level is above one of the other: all pairs are
    ordered the same way. *)
Definition separate (muB : Qc) (s : st Exact) (bs1 bs2 : list nat) : Prop :=
  exists below, forall b1 b2 e1 e2, In b1 bs1 -> In b2 bs2 -> energy Exact muB s b1 = Some e1 -> energy Exact muB s b2 = Some e2 -> nltb Exact e1 e2 = below.

Lemma sum_rule_HF : forall muB s t x cs s' v m1 m2 j1 j2, WF s -> tr s t = Some x -> x_kind x = TT -> x_subs x = [] -> x_A x = Some v -> dipole (x_allowed x) ->
  subtransitions Exact muB t s = (Ok cs, s') -> lv s' (x_E1 x) = Some m1 -> lv s' (x_E2 x) = Some m2 -> l_J m1 = Some j1 -> l_J m2 = Some j2 -> tri j1 j2 2 = true ->
  exists bs1 bs2, sublevels Exact (x_E1 x) s' = (Ok bs1, s') /\ sublevels Exact (x_E2 x) s' = (Ok bs2, s') /\
  (separate muB s' bs1 bs2 ->
    (forall b lb f, In b bs1 -> lv s' b = Some lb -> l_F lb = Some f -> sums (rel_strength s') (at_1 s' b cs) = frac (f + 1) (j1 + 1)) /\
    (forall b lb f, In b bs2 -> lv s' b = Some lb -> l_F lb = Some f -> sums (rel_strength s') (at_2 s' b cs) = frac (f + 1) (j2 + 1)) /\
    sums (rel_strength s') cs = QcZ (s_I s' + 1)).
Proof.
  intros muB s t x cs s' v m1 m2 j1 j2 W V K X A Dp E M1 M2 J1 J2 T.
  assert (K' : x_kind x <> TZ) by congruence.
  destruct (listed_exact Exact muB s t x cs s' W V K' X E) as [bs1 [bs2 [S1 [S2 [D1 [D2 [Dc [I' [W' [O [U [m1' [m2' [M1' [M2' [At1 [At2 [Kk1 Kk2]]]]]]]]]]]]]]]]]].
  assert (m1' = m1) by congruence. assert (m2' = m2) by congruence. subst m1' m2'. rewrite K in Kk1, Kk2. cbn [lk] in Kk1, Kk2.
  exists bs1, bs2. split; auto. split; auto. intros [below Ap].
  destruct (sublevels_F Exact s' _ m1 j1 W' M1 Kk1 At1 J1) as [c1 [z1 [Q1 [_ [_ [F1 _]]]]]]. rewrite S1 in Q1. injection Q1 as <- <-.
  destruct (sublevels_F Exact s' _ m2 j2 W' M2 Kk2 At2 J2) as [c2 [z2 [Q2 [_ [_ [F2 _]]]]]]. rewrite S2 in Q2. injection Q2 as <- <-.
  assert (L1 : forall b, In b bs1 -> exists lb f, lv s' b = Some lb /\ l_kind lb = LHF /\ l_J lb = Some j1 /\ l_F lb = Some f).
  { intros b I. destruct (Forall2_In_r _ _ _ _ F1 I) as [f [_ [_ [lb [B1 [B2 [_ [B3 [B4 _]]]]]]]]]. exists lb, f. auto. }
  assert (L2 : forall b, In b bs2 -> exists lb f, lv s' b = Some lb /\ l_kind lb = LHF /\ l_J lb = Some j2 /\ l_F lb = Some f).
  { intros b I. destruct (Forall2_In_r _ _ _ _ F2 I) as [f [_ [_ [lb [B1 [B2 [_ [B3 [B4 _]]]]]]]]]. exists lb, f. auto. }
  destruct (sum_at s' x cs bs1 bs2 v A Dc D1 D2 O U) as [H1 [H2 H3]].
  { intros b1 b2 l1 l2 I1 I2 V1 V2 Nz. destruct (L1 b1 I1) as [l1' [f1 [B1 [B2 _]]]]. destruct (L2 b2 I2) as [l2' [f2 [B1' [B2' _]]]].
    assert (l1' = l1) by congruence. assert (l2' = l2) by congruence. subst.
    destruct (factor_HF x s' Dp b1 b2 l1 l2 K W' V1 V2 B2 B2' Nz) as [P An].
    exact (nothing_missing Exact muB s t x cs s' W V K' X E bs1 bs2 below S1 S2 Ap b1 b2 l1 l2 I1 I2 V1 V2 P An). }
  assert (Pf : forall b1 b2 l1 l2 f1 f2, lv s' b1 = Some l1 -> lv s' b2 = Some l2 -> l_J l1 = Some j1 -> l_J l2 = Some j2 -> l_F l1 = Some f1 -> l_F l2 = Some f2 ->
    pairf s' x b1 b2 = hf_factor (x_allowed x) (s_I s') j1 j2 f1 f2).
  { intros b1 b2 l1 l2 f1 f2 V1 V2 G1 G2 G3 G4. unfold pairf. rewrite V1, V2, exact_factor, K, G1, G2, G3, G4. reflexivity. }
  pose proof (wf_I _ _ W') as HI.
  destruct (wf_J _ _ _ _ W' M1) as [j1' [Ej1 Hj1]]. destruct (wf_J _ _ _ _ W' M2) as [j2' [Ej2 Hj2]].
  assert (j1' = j1) by congruence. assert (j2' = j2) by congruence. subst j1' j2'.
  split; [|split].
  - intros b lb f I Vb Ff. destruct (L1 b I) as [lb' [f' [B1 [B2 [B3 B4]]]]]. assert (lb' = lb) by congruence. subst lb'. assert (f' = f) by congruence. subst f'.
    rewrite H1 by auto. destruct (wf_tri_JF _ _ _ _ _ W' B1 ltac:(congruence) B3 B4) as [Tr [Hj Hf]].
    rewrite <- (hf_from (x_allowed x) (s_I s') j1 j2 f Dp HI Hj2 Tr T).
    eapply sums_Forall2; [exact F2|]. intros f2 b2 _ [_ [lb2 [C1 [_ [_ [C2 [C3 _]]]]]]]. eapply Pf; eauto.
  - intros b lb f I Vb Ff. destruct (L2 b I) as [lb' [f' [B1 [B2 [B3 B4]]]]]. assert (lb' = lb) by congruence. subst lb'. assert (f' = f) by congruence. subst f'.
    rewrite H2 by auto. destruct (wf_tri_JF _ _ _ _ _ W' B1 ltac:(congruence) B3 B4) as [Tr [Hj Hf]].
    rewrite <- (hf_to (x_allowed x) (s_I s') j1 j2 f Dp HI Hj1 Tr T).
    eapply sums_Forall2; [exact F1|]. intros f1 b1 _ [_ [lb1 [C1 [_ [_ [C2 [C3 _]]]]]]]. eapply Pf; eauto.
  - rewrite H3. rewrite <- (hf_total (x_allowed x) (s_I s') j1 j2 Dp HI Hj1 Hj2 T).
    eapply sums_Forall2; [exact F1|]. intros f1 b1 _ [_ [lb1 [C1 [_ [_ [C2 [C3 _]]]]]]].
    eapply sums_Forall2; [exact F2|]. intros f2 b2 _ [_ [lb2 [G1 [_ [_ [G2 [G3 _]]]]]]]. eapply Pf; eauto.
Qed.

Lemma dipole_HF : forall i j1 j2 f1 f2 a, dipole (allowed_HF i j1 j2 f1 f2 a) -> tri f1 2 f2 = true.
Proof.
  intros i j1 j2 f1 f2 a H. assert (Z : w6nz j1 j2 2 f2 f1 i = true).
  { unfold dipole, allowed_HF, aE1, aM1 in H. cbn [fst snd] in H. rewrite !andb_true_iff in H. tauto. }
  unfold w6nz in Z. apply andb_true_iff in Z as [Z _]. unfold w6_tri in Z. rewrite !andb_true_iff in Z. destruct Z as [_ Z].
  rewrite tri_23, tri_12. exact Z.
Qed.

Lemma sum_rule_Z : forall muB s t x cs s' v m1 m2 f1 f2, WF s -> tr s t = Some x -> x_kind x = THF -> x_subs x = [] -> x_A x = Some v -> dipole (x_allowed x) ->
  subtransitions Exact muB t s = (Ok cs, s') -> lv s' (x_E1 x) = Some m1 -> lv s' (x_E2 x) = Some m2 -> l_F m1 = Some f1 -> l_F m2 = Some f2 ->
  exists bs1 bs2, sublevels Exact (x_E1 x) s' = (Ok bs1, s') /\ sublevels Exact (x_E2 x) s' = (Ok bs2, s') /\
  (separate muB s' bs1 bs2 ->
    (forall b, In b bs1 -> sums (rel_strength s') (at_1 s' b cs) = frac 1 (f1 + 1)) /\
    (forall b, In b bs2 -> sums (rel_strength s') (at_2 s' b cs) = frac 1 (f2 + 1)) /\
    sums (rel_strength s') cs = 1%Qc).
Proof.
  intros muB s t x cs s' v m1 m2 f1 f2 W V K X A Dp E M1 M2 F1 F2.
  assert (K' : x_kind x <> TZ) by congruence.
  destruct (listed_exact Exact muB s t x cs s' W V K' X E) as [bs1 [bs2 [S1 [S2 [D1 [D2 [Dc [I' [W' [O [U [m1' [m2' [M1' [M2' [At1 [At2 [Kk1 Kk2]]]]]]]]]]]]]]]]]].
  assert (m1' = m1) by congruence. assert (m2' = m2) by congruence. subst m1' m2'. rewrite K in Kk1, Kk2. cbn [lk] in Kk1, Kk2.
  exists bs1, bs2. split; auto. split; auto. intros [below Ap].
  destruct (wf_J _ _ _ _ W' M1) as [j1 [J1 _]]. destruct (wf_J _ _ _ _ W' M2) as [j2 [J2 _]].
  assert (T : tri f1 2 f2 = true).
  { destruct (wf_tr _ _ W _ _ V) as [n1 [n2 [G1 [G2 [_ [_ [_ Q0]]]]]]]. destruct Q0 as [[G _]|Q0]; [congruence|].
    destruct Q0 as [p [xp [_ [_ [_ [_ [_ [_ Q0]]]]]]]]. destruct Q0 as [[_ Q]|[G _]]; [|congruence].
    destruct Q as [i1 [i2 [g1 [g2 [_ [_ [Y1 [Y2 Al]]]]]]]]. rewrite Al in Dp. apply dipole_HF in Dp.
    destruct (safe_Ok _ _ _ _ _ _ _ (subtransitions_safe Exact muB s t x W V) E) as [_ [L _]].
    destruct (ext_lv _ _ _ (look_ext _ _ _ L) _ _ G1) as [n1' [N1 Y3]]. destruct (ext_lv _ _ _ (look_ext _ _ _ L) _ _ G2) as [n2' [N2 Y4]].
    destruct (lsame_names _ _ _ Y3) as [_ [_ [_ [_ [Y5 _]]]]]. destruct (lsame_names _ _ _ Y4) as [_ [_ [_ [_ [Y6 _]]]]].
    assert (n1' = m1) by congruence. assert (n2' = m2) by congruence. subst. assert (g1 = f1) by congruence. assert (g2 = f2) by congruence. now subst. }
  destruct (sublevels_mF Exact s' _ m1 j1 f1 W' M1 Kk1 J1 F1) as [c1 [z1 [Q1 [_ [_ [G1 _]]]]]]. rewrite S1 in Q1. injection Q1 as <- <-.
  destruct (sublevels_mF Exact s' _ m2 j2 f2 W' M2 Kk2 J2 F2) as [c2 [z2 [Q2 [_ [_ [G2 _]]]]]]. rewrite S2 in Q2. injection Q2 as <- <-.
  assert (L1 : forall b, In b bs1 -> exists lb m, lv s' b = Some lb /\ l_kind lb = LZ /\ l_F lb = Some f1 /\ l_mF lb = Some m /\ In m (mF_range f1)).
  { intros b I. destruct (Forall2_In_r _ _ _ _ G1 I) as [m [Im [_ [lb [B1 [B2 [_ [B3 [B4 [B5 _]]]]]]]]]]. exists lb, m. auto. }
  assert (L2 : forall b, In b bs2 -> exists lb m, lv s' b = Some lb /\ l_kind lb = LZ /\ l_F lb = Some f2 /\ l_mF lb = Some m /\ In m (mF_range f2)).
  { intros b I. destruct (Forall2_In_r _ _ _ _ G2 I) as [m [Im [_ [lb [B1 [B2 [_ [B3 [B4 [B5 _]]]]]]]]]]. exists lb, m. auto. }
  destruct (sum_at s' x cs bs1 bs2 v A Dc D1 D2 O U) as [H1 [H2 H3]].
  { intros b1 b2 l1 l2 I1 I2 V1 V2 Nz. destruct (L1 b1 I1) as [l1' [? [B1 [B2 _]]]]. destruct (L2 b2 I2) as [l2' [? [B1' [B2' _]]]].
    assert (l1' = l1) by congruence. assert (l2' = l2) by congruence. subst.
    destruct (factor_Z x s' Dp b1 b2 l1 l2 K W' V1 V2 B2 B2' Nz) as [P An].
    exact (nothing_missing Exact muB s t x cs s' W V K' X E bs1 bs2 below S1 S2 Ap b1 b2 l1 l2 I1 I2 V1 V2 P An). }
  assert (Pf : forall b1 b2 l1 l2 n1 n2, lv s' b1 = Some l1 -> lv s' b2 = Some l2 -> l_F l1 = Some f1 -> l_F l2 = Some f2 -> l_mF l1 = Some n1 -> l_mF l2 = Some n2 ->
    pairf s' x b1 b2 = z_factor (x_allowed x) f1 f2 n1 n2).
  { intros b1 b2 l1 l2 n1 n2 V1 V2 C1 C2 C3 C4. unfold pairf. rewrite V1, V2, exact_factor, K, C1, C2, C3, C4. reflexivity. }
  assert (Pr : forall f m, In m (mF_range f) -> proj_ok f m = true).
  { intros f m I. apply mF_range_In in I. unfold proj_ok. rewrite andb_true_iff, Z.leb_le. split; [lia|tauto]. }
  assert (Hf1 : (0 <= f1)%Z) by (apply tri_elim in T as [? [? [? T]]]; lia).
  split; [|split].
  - intros b I. destruct (L1 b I) as [lb [m [B1 [B2 [B3 [B4 B5]]]]]]. rewrite H1 by auto. rewrite <- (z_from (x_allowed x) f1 f2 m Dp T (Pr _ _ B5)).
    eapply sums_Forall2; [exact G2|]. intros m' b2 _ [_ [lb2 [C1 [_ [_ [_ [C2 [C3 _]]]]]]]]. eapply Pf; eauto.
  - intros b I. destruct (L2 b I) as [lb [m [B1 [B2 [B3 [B4 B5]]]]]]. rewrite H2 by auto. rewrite <- (z_to (x_allowed x) f1 f2 m Dp T (Pr _ _ B5)).
    eapply sums_Forall2; [exact G1|]. intros m' b2 _ [_ [lb2 [C1 [_ [_ [_ [C2 [C3 _]]]]]]]]. eapply (Pf b2 b lb2 lb); eauto.
  - rewrite H3. rewrite <- (z_total (x_allowed x) f1 f2 Dp Hf1 T).
    eapply sums_Forall2; [exact G1|]. intros n1 b1 _ [_ [lb1 [C1 [_ [_ [_ [C2 [C3 _]]]]]]]].
    eapply sums_Forall2; [exact G2|]. intros n2 b2 _ [_ [lb2 [Y1 [_ [_ [_ [Y2 [Y3 _]]]]]]]]. eapply Pf; eauto.
Qed.
