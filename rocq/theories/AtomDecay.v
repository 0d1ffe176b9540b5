(** What linked_levels, compute_branching_ratios and state_lifetime return
    (C52-C56). *)
From Coq Require Import List Bool ZArith QArith Qcanon Lia String Ascii Permutation Reals Qreals Lra.
From Verif Require Import Base PyStr Util UtilProofs Parse Term TermProofs Num Wigner Hyperfine HyperfineProofs
  Graph GraphProofs DfsProofs Rules StrengthSums Atom AtomInv AtomSafe AtomSafe2 AtomSafe3 AtomSafe4 AtomSafe5 AtomSafe6 AtomLevels AtomKeep AtomTrans AtomEnergy.
Import ListNotations.

(** Atom.state_lifetime: atom.py:1098-1108, in seconds; None is infinite. *)
Definition state_lifetime (muB : Qc) (key : string) : M Exact (option R) :=
  bind (total_rate Exact muB key) (fun r : Qc => ret (if Qc_eq_bool r 0 then None else Some (1 / (Q2R r / (2 * PI)))%R)).

Section Linked.
  Context (N : Num) (muB : N).
  Notation st := (st N).
  Implicit Types (s : st) (a : nat) (t : nat) (x : trans N).

  (** Level [m] is joined with the level named [n] by [t], whose upper level
      is named [n]. *)
  Definition channel s (k : lkind) (n m : string) t x : Prop :=
    m <> n /\ edge (graph_of k s) n m = Some t /\ tr s t = Some x /\ nm s (x_up x) = Some n.

  (** The kind of the level the key names. *)
  Definition kind_of_key s (key : string) (k : lkind) : Prop :=
    exists a s1 l, levels_get N key s = (Ok a, s1) /\ lv s1 a = Some l /\ l_kind l = k.

  Lemma linked_any : forall fuel s key d s', WF s -> linked_levels N muB fuel key s = (Ok d, s') ->
    WF s' /\ exists k nb, kind_of_key s key k /\ dget key (g_adj (graph_of k s')) = Some nb /\ d = filter (fun kt => negb (String.eqb (fst kt) key)) nb.
  Proof.
    intros [|fuel] s key d s' W E; [discriminate|].
    destruct (safe_Ok _ _ _ _ _ _ _ (linked_safe N muB (S fuel) s key W) E) as [W' _]. split; auto.
    cbn [linked_levels] in E. unfold bind at 1 in E. destruct (levels_get N key s) as [[a|] s1] eqn:E1; [|discriminate].
    unfold bind at 1, get_lv, asks at 1 in E. destruct (lv s1 a) as [l|] eqn:V; [|discriminate].
    unfold bind at 1 in E. match type of E with match ?m with _ => _ end = _ => destruct m as [[u|] s3]; [|discriminate] end.
    unfold bind, asks, ret in E. destruct (dget key (g_adj (graph_of (l_kind l) s3))) as [nb|] eqn:D; [|discriminate].
    injection E as <- <-. exists (l_kind l), nb. split; [exists a, s1, l; auto|auto].
  Qed.

  Lemma linked_spec : forall fuel s key d s', WF s -> linked_levels N muB fuel key s = (Ok d, s') ->
    WF s' /\ NoDup (dkeys d) /\ exists k, kind_of_key s key k /\ (forall m t, In (m, t) d <-> m <> key /\ edge (graph_of k s') key m = Some t) /\
      (forall m t, In (m, t) d -> exists x, tr s' t = Some x /\ lk (x_kind x) = k /\
         ((nm s' (x_lo x) = Some key /\ nm s' (x_up x) = Some m) \/ (nm s' (x_lo x) = Some m /\ nm s' (x_up x) = Some key))).
  Proof.
    intros fuel s key d s' W E. destruct (linked_any _ _ _ _ _ W E) as [W' [k [nb [KK [D ->]]]]].
    pose proof (wf_g _ _ W' k) as G. pose proof (go_wf _ _ _ _ G) as GW.
    assert (Nb : nbrs (graph_of k s') key = nb) by (unfold nbrs; now rewrite D).
    assert (ND : NoDup (dkeys nb)) by (rewrite <- Nb; apply (gw_nbrs _ GW)).
    split; auto. split; [now apply filter_keys|]. exists k. split; auto.
    assert (H : forall m t, In (m, t) (filter (fun kt => negb (String.eqb (fst kt) key)) nb) <-> m <> key /\ edge (graph_of k s') key m = Some t).
    { intros m t. rewrite filter_In. cbn [fst]. rewrite negb_true_iff, String.eqb_neq. unfold edge. rewrite Nb. split.
      - intros [I H]. split; auto. now apply In_dget_nodup.
      - intros [H I]. split; auto. now apply dget_In. }
    split; auto. intros m t I. apply H in I as [_ I]. destruct (go_edge _ _ _ _ G _ _ _ I) as [x [V [K O]]]. exists x. auto.
  Qed.

  (** *** compute_branching_ratios *)

  Definition from_key s (key : string) (nt : string * nat) : bool :=
    match tr s (snd nt) with
    | Some x => match nm s (x_up x) with Some u => String.eqb u key | None => false end
    | None => false
    end.
  Definition A_of s t : option (N * funit) := match tr s t with Some x => x_A x | None => None end.

  Lemma A_coeffs_eq : forall s key d, WF s -> (forall m t, In (m, t) d -> is_tr s t) ->
    A_coeffs N s key d = Ok (map (fun nt => (fst nt, A_of s (snd nt))) (filter (from_key s key) d)).
  Proof.
    intros s key d W. induction d as [|[m t] d IH]; intros H; cbn [A_coeffs filter map]; auto.
    destruct (H m t (or_introl eq_refl)) as [x V]. rewrite V. destruct (tr_ends _ _ _ _ W V) as [lo [up [Vl Vu]]].
    assert (Nu : nm s (x_up x) = Some (lname up)) by (unfold nm; now rewrite Vu). rewrite Nu.
    rewrite IH by (intros m' t' I'; apply (H m' t'); right; exact I'). cbn [rbind]. 
    replace (from_key s key (m, t)) with (String.eqb (lname up) key) by (unfold from_key; cbn [snd]; now rewrite V, Nu).
    destruct (String.eqb (lname up) key); auto. cbn [map fst snd]. replace (A_of s t) with (x_A x) by (unfold A_of; now rewrite V). reflexivity.
  Qed.

  Lemma magnitudes_eq : forall (c : dict string (option (N * funit))), (forall m q, In (m, q) c -> exists v u, q = Some (v, u)) ->
    exists r, magnitudes N c = Ok r /\ Forall2 (fun mq mv => fst mq = fst mv /\ exists u, snd mq = Some (snd mv, u)) c r.
  Proof.
    induction c as [|[m q] c IH]; intros H; cbn [magnitudes]; [exists []; auto|].
    destruct (H m q (or_introl eq_refl)) as [v [u ->]]. destruct IH as [r [E F]]; [intros m' q' I'; apply (H m' q'); right; exact I'|].
    rewrite E. cbn [rbind fst]. exists ((m, v) :: r). split; auto. constructor; [cbn [fst snd]; eauto|exact F].
  Qed.
  Lemma magnitudes_none : forall (c : dict string (option (N * funit))), (exists m, In (m, None) c) <-> magnitudes N c = Raise AttributeError.
  Proof.
    induction c as [|[m [q|]] c IH]; cbn [magnitudes].
    - split; [intros [m []]|discriminate].
    - destruct (magnitudes N c) as [r|e]; cbn [rbind].
      + split; [|discriminate]. intros [m' [H|H]]; [discriminate|]. assert (E : Ok r = Raise AttributeError) by (apply IH; eauto). discriminate.
      + split.
        * intros [m' [H|H]]; [discriminate|]. apply IH. eauto.
        * intros H. destruct IH as [_ IH]. destruct (IH H) as [m' I]. exists m'. now right.
    - split; auto. intros _. exists m. now left.
  Qed.
  Lemma magnitudes_some : forall (c : dict string (option (N * funit))), (forall m, ~ In (m, None) c) -> exists r, magnitudes N c = Ok r.
  Proof.
    induction c as [|[m [q|]] c IH]; cbn [magnitudes]; intros H; [eauto| |exfalso; apply (H m); now left].
    destruct IH as [r ->]; [intros m' I; apply (H m'); now right|]. cbn [rbind]. eauto.
  Qed.
End Linked.
Arguments channel {N}.
Arguments kind_of_key {N}.
Arguments from_key {N}.
Arguments A_of {N}.

(** *** Sums *)

Local Open Scope Qc_scope.

Lemma fold_plus : forall l c, fold_left Qcplus l c = c + sums (fun v => v) l.
Proof.
  induction l as [|v l IH]; intros c; cbn [fold_left sums fold_right]; [ring|]. rewrite IH. unfold sums. cbn [fold_right]. ring.
Qed.
Lemma sums_nonneg : forall l, (forall v, In v l -> 0 <= v) -> 0 <= sums (fun v => v) l.
Proof.
  induction l as [|v l IH]; intros H; unfold sums; cbn [fold_right]; [apply Qcle_refl|].
  rewrite <- (Qcplus_0_l 0). apply Qcplus_le_compat; [apply H; now left|]. apply IH. intros w I. apply H. now right.
Qed.
Lemma sums_In : forall l v, (forall v, In v l -> 0 <= v) -> In v l -> v <= sums (fun v => v) l.
Proof.
  induction l as [|w l IH]; intros v H I; [destruct I|]. unfold sums. cbn [fold_right]. fold (sums (fun v => v) l).
  destruct I as [->|I].
  - rewrite <- (Qcplus_0_r v) at 1. apply Qcplus_le_compat; [apply Qcle_refl|]. apply sums_nonneg. intros u J. apply H. now right.
  - rewrite <- (Qcplus_0_l v). apply Qcplus_le_compat; [apply H; now left|]. apply IH; auto. intros u J. apply H. now right.
Qed.
Lemma sums_div : forall l T, sums (fun v => v) (map (fun v => v / T) l) = sums (fun v => v) l / T.
Proof.
  intros l T. unfold Qcdiv. induction l as [|v l IH]; unfold sums; cbn [map fold_right]; [ring|]. unfold sums in IH. rewrite IH. ring.
Qed.

(** *** The ratios *)

Section Ratios.
  Context (muB : Qc).
  Notation st := (st Exact).
  Implicit Types (s : st) (a : nat) (t : nat) (x : trans Exact).

  Lemma filter_In_key : forall s key d m t, In (m, t) (filter (from_key s key) d) <->
    In (m, t) d /\ exists x, tr s t = Some x /\ nm s (x_up x) = Some key.
  Proof.
    intros s key d m t. rewrite filter_In. unfold from_key. cbn [snd]. split; intros [I H]; split; auto.
    - destruct (tr s t) as [x|]; [|discriminate]. exists x. split; auto. destruct (nm s (x_up x)) as [u|]; [|discriminate].
      apply String.eqb_eq in H. now subst.
    - destruct H as [x [-> ->]]. apply String.eqb_refl.
  Qed.

  Lemma keys_of : forall (s : st) (f : string * nat -> option (Qc * funit)) (d : dict string nat) (r : dict string Qc),
    Forall2 (fun (mq : string * option (Qc * funit)) (mv : string * Qc) => fst mq = fst mv /\ exists u, snd mq = Some (snd mv, u)) (map (fun nt => (fst nt, f nt)) d) r ->
    dkeys r = dkeys d /\ (forall m w, In (m, w) r <-> exists t u, In (m, t) d /\ f (m, t) = Some (w, u)).
  Proof.
    intros s f d. induction d as [|[m t] d IH]; intros r F; cbn [map] in F; inversion F as [|? [m' w] ? r' [E1 [u E2]] F']; subst.
    - split; auto. intros m w. split; [intros []|intros [t [u [[] _]]]].
    - cbn [fst snd] in *. destruct (IH _ F') as [K H]. split; [cbn [dkeys map fst]; unfold dkeys in K; now rewrite K, E1|].
      intros m0 w0. cbn [In]. rewrite H. split.
      + intros [E|[t0 [u0 [I Ef]]]]; [injection E as <- <-; exists t, u; subst; auto|exists t0, u0; auto].
      + intros [t0 [u0 [[E|I] Ef]]]; [left; injection E as <- <-; rewrite Ef in E2; injection E2 as <-; now subst|right; eauto].
  Qed.

  Lemma branching_spec : forall s key d s', WF s -> linked_levels Exact muB 3 key s = (Ok d, s') ->
    (forall m t x, In (m, t) d -> tr s' t = Some x -> nm s' (x_up x) = Some key -> exists v u, x_A x = Some (v, u)) ->
    exists ds : dict string Qc, NoDup (dkeys ds) /\
      (forall m w, In (m, w) ds <-> exists t x u, In (m, t) d /\ tr s' t = Some x /\ nm s' (x_up x) = Some key /\ x_A x = Some (w, u)) /\
      branching Exact muB key s = (Ok (map (fun mv => (fst mv, snd mv / sums (fun v => v) (dvals ds))) ds), s').
  Proof.
    intros s key d s' W E H. destruct (linked_spec _ _ _ _ _ _ _ W E) as [W' [ND [k [KK [Hd Ht]]]]].
    assert (T : forall m t, In (m, t) d -> is_tr s' t) by (intros m t I; destruct (Ht m t I) as [x [V _]]; exists x; auto).
    pose proof (A_coeffs_eq Exact s' key d W' T) as EA.
    destruct (magnitudes_eq Exact (map (fun nt => (fst nt, A_of s' (snd nt))) (filter (from_key s' key) d))) as [r [Er F]].
    { intros m q I. apply in_map_iff in I as [[m' t] [Eq I]]. cbn [fst snd] in Eq. injection Eq as <- <-.
      apply filter_In_key in I as [I [x [V Nx]]]. unfold A_of. rewrite V. destruct (H _ _ _ I V Nx) as [v [u ->]]. eauto. }
    pose proof (keys_of s' (fun nt => A_of s' (snd nt)) (filter (from_key s' key) d) r F) as [K I]. exists r. split.
    - rewrite K. now apply filter_keys.
    - split.
      + intros m w. rewrite I. split.
        * intros [t [u [It Ef]]]. apply filter_In_key in It as [It [x [V Nx]]]. exists t, x, u. unfold A_of in Ef. cbn [snd] in Ef. rewrite V in Ef. auto.
        * intros [t [x [u [It [V [Nx Ax]]]]]]. exists t, u. split; [apply filter_In_key; split; eauto|]. unfold A_of. cbn [snd]. now rewrite V.
      + unfold branching. erewrite bind_Ok by exact E. rewrite EA. cbn [rbind]. rewrite Er. cbn [rbind]. f_equal. f_equal.
        unfold sumN. assert (Es : fold_left (nadd Exact) (dvals r) (nofQ Exact 0) = sums (fun v : Qc => v) (dvals r)).
        { change (fold_left Qcplus (dvals r) (Q2Qc 0) = sums (fun v : Qc => v) (dvals r)). rewrite fold_plus. ring. }
        rewrite Es. reflexivity.
  Qed.

  Lemma branching_missing : forall s key d s', WF s -> linked_levels Exact muB 3 key s = (Ok d, s') ->
    ((exists m t x, In (m, t) d /\ tr s' t = Some x /\ nm s' (x_up x) = Some key /\ x_A x = None) <->
      branching Exact muB key s = (Raise AttributeError, s')) /\
    ((forall m t x, In (m, t) d -> tr s' t = Some x -> nm s' (x_up x) = Some key -> x_A x <> None) ->
      exists r, branching Exact muB key s = (Ok r, s')).
  Proof.
    intros s key d s' W E. destruct (linked_spec _ _ _ _ _ _ _ W E) as [W' [ND [k [KK [Hd Ht]]]]].
    assert (T : forall m t, In (m, t) d -> is_tr s' t) by (intros m t I; destruct (Ht m t I) as [x [V _]]; exists x; auto).
    pose proof (A_coeffs_eq Exact s' key d W' T) as EA. set (c := map (fun nt => (fst nt, A_of s' (snd nt))) (filter (from_key s' key) d)) in *.
    assert (I : (exists m, In (m, None) c) <-> exists m t x, In (m, t) d /\ tr s' t = Some x /\ nm s' (x_up x) = Some key /\ x_A x = None).
    { split.
      - intros [m I]. apply in_map_iff in I as [[m' t] [Eq I]]. cbn [fst snd] in Eq. injection Eq as <- Ea.
        apply filter_In_key in I as [I [x [V Nx]]]. exists m', t, x. unfold A_of in Ea. rewrite V in Ea. auto.
      - intros [m [t [x [I [V [Nx Ax]]]]]]. exists m. apply in_map_iff. exists (m, t). cbn [fst snd]. unfold A_of. rewrite V, Ax. split; auto.
        apply filter_In_key. split; eauto. }
    assert (B : branching Exact muB key s = (rbind (magnitudes Exact c) (fun m => Ok (map (fun nv => (fst nv, ndiv Exact (snd nv) (sumN Exact (dvals m)))) m)), s')).
    { unfold branching. erewrite bind_Ok by exact E. rewrite EA. reflexivity. }
    rewrite B, <- I. split.
    - rewrite magnitudes_none. destruct (magnitudes Exact c) as [r|e]; cbn [rbind]; split; try discriminate; intros H; now inversion H.
    - intros H. destruct (magnitudes_some Exact c) as [r ->]; [|cbn [rbind]; eauto].
      intros m Im. destruct I as [I _]. destruct I as [m' [t [x [It [V [Nx Ax]]]]]]; eauto. exact (H _ _ _ It V Nx Ax).
  Qed.

  (** *** The lifetime *)

  Definition rate (q : Qc * funit) : Qc := fst q * Q2Qc (unit_Q (snd q)).

  Lemma sum_A_spec : forall s a (d : dict string nat) c, NoDup (dkeys d) ->
    (forall m t, In (m, t) d -> exists x, tr s t = Some x /\ (x_up x = a -> x_A x <> None)) ->
    exists ds : dict string Qc, NoDup (dkeys ds) /\ (forall k, In k (dkeys ds) -> In k (dkeys d)) /\
      (forall m w, In (m, w) ds <-> exists t x q, In (m, t) d /\ tr s t = Some x /\ x_up x = a /\ x_A x = Some q /\ w = rate q) /\
      sum_A Exact s a (dvals d) c = Ok (c + sums (fun v => v) (dvals ds)).
  Proof.
    intros s a d. induction d as [|[m t] d IH]; intros c ND H; cbn [dvals map sum_A].
    - exists []. split; [constructor|]. split; [intros k []|]. split; [intros m w; split; [intros []|intros [t [x [q [[] _]]]]]|].
      f_equal. unfold dvals, sums. cbn [map fold_right]. symmetry. apply Qcplus_0_r.
    - inversion ND as [|? ? N1 N2]; subst. destruct (H m t (or_introl eq_refl)) as [x [V A]]. cbn [snd]. rewrite V.
      assert (H' : forall m t, In (m, t) d -> exists x, tr s t = Some x /\ (x_up x = a -> x_A x <> None)) by (intros m' t' I; apply (H m' t'); now right).
      destruct (Nat.eqb_spec (x_up x) a) as [U|U].
      + destruct (x_A x) as [q|] eqn:Aq; [|now destruct (A U)]. destruct (IH (c + rate q) N2 H') as [ds [D1 [D2 [D3 D4]]]].
        exists ((m, rate q) :: ds). split; [constructor; auto|]. split; [|split].
        * intros k [<-|I]; [now left|right; auto].
        * intros m0 w. cbn [In]. rewrite D3. split.
          -- intros [E|[t0 [x0 [q0 [I R]]]]]; [injection E as <- <-; exists t, x, q; auto|exists t0, x0, q0; auto].
          -- intros [t0 [x0 [q0 [[E|I] [V0 [U0 [A0 ->]]]]]]].
             ++ injection E as <- <-. left. assert (x0 = x) by congruence. subst. assert (q0 = q) by congruence. now subst.
             ++ right. exists t0, x0, q0. auto.
        * etransitivity; [exact D4|]. f_equal. unfold dvals, sums. cbn [map fold_right snd]. symmetry. apply Qcplus_assoc.
      + destruct (IH c N2 H') as [ds [D1 [D2 [D3 D4]]]]. exists ds. split; auto. split; [intros k I; right; auto|]. split; auto.
        intros m0 w. rewrite D3. split.
        * intros [t0 [x0 [q0 [I R]]]]. exists t0, x0, q0. split; [now right|auto].
        * intros [t0 [x0 [q0 [[E|I] [V0 [U0 R]]]]]]; [|exists t0, x0, q0; auto]. injection E as <- <-. congruence.
  Qed.

  Lemma sum_A_missing : forall s a ts c, (forall t, In t ts -> is_tr s t) ->
    (exists t x, In t ts /\ tr s t = Some x /\ x_up x = a /\ x_A x = None) -> sum_A Exact s a ts c = Raise TypeError.
  Proof.
    intros s a ts. induction ts as [|t ts IH]; intros c T [t0 [x0 [I [V0 [U0 A0]]]]]; [destruct I|]. cbn [sum_A].
    destruct (T t (or_introl eq_refl)) as [x V]. rewrite V. assert (T' : forall t, In t ts -> is_tr s t) by (intros t' I'; apply T; now right).
    destruct I as [->|I].
    - assert (x0 = x) by congruence. subst x0. now rewrite U0, Nat.eqb_refl, A0.
    - destruct (Nat.eqb (x_up x) a); [destruct (x_A x); auto|]; apply IH; eauto 8.
  Qed.
End Ratios.

Section Names.
  Context (muB : Qc).
  Notation st := (st Exact).
  Implicit Types (s : st) (a : nat) (t : nat) (x : trans Exact).

  Lemma magnitudes_keys : forall (c : dict string (option (Qc * funit))) r, magnitudes Exact c = Ok r -> dkeys r = dkeys c.
  Proof.
    induction c as [|[m [q|]] c IH]; cbn [magnitudes]; intros r E; [now injection E as <-| |discriminate].
    destruct (magnitudes Exact c) as [r'|]; [|discriminate]. cbn [rbind] in E. injection E as <-. cbn [dkeys map fst]. f_equal. now apply IH.
  Qed.

  Lemma branching_entries : forall s key r s', WF s -> branching Exact muB key s = (Ok r, s') ->
    exists k, kind_of_key s key k /\ WF s' /\ (forall m v, In (m, v) r -> exists t x, channel s' k key m t x /\ nm s' (x_lo x) = Some m /\ lk (x_kind x) = k).
  Proof.
    intros s key r s' W E. unfold branching, bind in E. destruct (linked_levels Exact muB 3 key s) as [[d|] s1] eqn:L; [|discriminate].
    destruct (linked_spec _ _ _ _ _ _ _ W L) as [W' [ND [k [KK [Hd Ht]]]]].
    assert (T : forall m t, In (m, t) d -> is_tr s1 t) by (intros m t I; destruct (Ht m t I) as [x [V _]]; exists x; auto).
    rewrite (A_coeffs_eq Exact s1 key d W' T) in E. cbn [rbind] in E.
    match type of E with context [magnitudes Exact ?c0] => set (c := c0) in * end.
    destruct (magnitudes Exact c) as [mg|] eqn:Em; [|discriminate]. cbn [rbind] in E. injection E as <- <-.
    exists k. split; auto. split; auto. intros m v I.
    assert (Im : In m (dkeys mg)) by (apply in_map_iff in I as [[m' w] [Ew I]]; injection Ew as <- _; apply in_map_iff; exists (m', w); auto).
    rewrite (magnitudes_keys _ _ Em) in Im. unfold c, dkeys in Im. rewrite map_map in Im. apply in_map_iff in Im as [[m' t] [<- Im]]. cbn [fst] in *.
    apply filter_In_key in Im as [Im [x [V Nx]]]. exists t, x. destruct (Ht _ _ Im) as [x' [V' [K' H']]].
    assert (x' = x) by congruence. subst x'. apply Hd in Im. split; [unfold channel; tauto|]. split; auto.
    destruct H' as [[A B]|[A B]]; auto. destruct Im as [Im _]. congruence.
  Qed.

  Lemma total_rate_name : forall s n a, WF s -> dget n (s_lal s) = None -> has_char "=" n = false -> dget n (node_attrs (s_g0 s)) = Some a ->
    (forall m t x, m <> n -> edge (s_g0 s) n m = Some t -> tr s t = Some x -> x_up x = a -> x_A x <> None) ->
    exists ds : dict string Qc, NoDup (dkeys ds) /\
      (forall m w, In (m, w) ds <-> exists t x q, m <> n /\ edge (s_g0 s) n m = Some t /\ tr s t = Some x /\ x_up x = a /\ x_A x = Some q /\ w = rate q) /\
      total_rate Exact muB n s = (Ok (sums (fun v => v) (dvals ds)), s).
  Proof.
    intros s n a W Al He D H. destruct (linked_name Exact muB s n a W Al He D) as [d [E [ND Hd]]].
    assert (Ht : forall m t, In (m, t) d -> exists x, tr s t = Some x /\ (x_up x = a -> x_A x <> None)).
    { intros m t I. apply Hd in I as [Hm I]. destruct (go_edge _ _ _ _ (wf_g _ _ W LE) _ _ _ I) as [x [V _]]. exists x. split; auto. intros U. eauto. }
    destruct (sum_A_spec s a d 0 ND Ht) as [ds [D1 [_ [D3 D4]]]]. exists ds. split; auto. split.
    - intros m w. rewrite D3. split; intros [t [x [q R]]]; exists t, x, q; rewrite Hd in *; tauto.
    - unfold total_rate. erewrite bind_Ok by exact E. erewrite bind_Ok by (apply get_node; eauto).
      f_equal. etransitivity; [exact D4|]. f_equal. apply Qcplus_0_l.
  Qed.

  Lemma total_rate_key : forall s key d s1 a s2, WF s -> linked_levels Exact muB 3 key s = (Ok d, s1) -> levels_get Exact key s1 = (Ok a, s2) ->
    (forall m t x, In (m, t) d -> tr s2 t = Some x -> x_up x = a -> x_A x <> None) ->
    exists ds : dict string Qc, NoDup (dkeys ds) /\
      (forall m w, In (m, w) ds <-> exists t x q, In (m, t) d /\ tr s2 t = Some x /\ x_up x = a /\ x_A x = Some q /\ w = rate q) /\
      total_rate Exact muB key s = (Ok (sums (fun v => v) (dvals ds)), s2).
  Proof.
    intros s key d s1 a s2 W E1 E2 H. destruct (linked_spec _ _ _ _ _ _ _ W E1) as [W1 [ND [k [KK [Hd Ht]]]]].
    destruct (safe_Ok _ _ _ _ _ _ _ (levels_get_safe Exact s1 key W1) E2) as [W2 [L _]].
    assert (Ht2 : forall m t, In (m, t) d -> exists x, tr s2 t = Some x /\ (x_up x = a -> x_A x <> None)).
    { intros m t I. destruct (Ht _ _ I) as [x [V _]]. destruct (ext_tr _ _ _ (look_ext _ _ _ (proj1 L)) _ _ V) as [x2 [V2 _]]. exists x2. split; eauto. }
    destruct (sum_A_spec s2 a d 0 ND Ht2) as [ds [D1 [_ [D3 D4]]]]. exists ds. split; auto. split; auto.
    unfold total_rate. erewrite bind_Ok by exact E1. erewrite bind_Ok by exact E2. f_equal. etransitivity; [exact D4|]. f_equal. apply Qcplus_0_l.
  Qed.

  (** *** A new channel *)

  Lemma new_edge : forall s e1 e2 f A l1 l2, WF s -> lv s e1 = Some l1 -> lv s e2 = Some l2 -> l_kind l1 = LE -> l_kind l2 = LE -> l_attached l1 = true ->
    exists x, x_A x = option_map (to_Hz Exact) A /\ x_kind x = TT /\ ((x_up x = e2 /\ x_lo x = e1) \/ (x_up x = e1 /\ x_lo x = e2)) /\
      exists s', new_transition Exact muB e1 e2 f A None s = (Ok (List.length (s_trans s)), s') /\ WF s' /\
      s_levels s' = s_levels s /\ s_lal s' = s_lal s /\ node_attrs (s_g0 s') = node_attrs (s_g0 s) /\
      tr s' (List.length (s_trans s)) = Some x /\ (forall t, (t < List.length (s_trans s))%nat -> tr s' t = tr s t) /\
      forall n m, edge (s_g0 s') n m =
        if (String.eqb n (lname l1) && String.eqb m (lname l2)) || (String.eqb n (lname l2) && String.eqb m (lname l1))
        then Some (List.length (s_trans s)) else edge (s_g0 s) n m.
  Proof.
    intros s e1 e2 f A l1 l2 W V1 V2 K1 K2 At. destruct (new_transition_spec Exact muB s e1 e2 f A None l1 l2 W V1 V2) as [S1 _].
    destruct (S1 K1 K2) as [x [j1 [j2 [_ [_ [Rc [O [E Eq]]]]]]]]. pose proof (put_trans_spec _ s x W O E) as P. destruct (put_tr _ _ _ _ P) as [T To].
    unfold tr_rec in Rc. rewrite V1 in Rc. destruct (energy Exact muB s e1) as [v1|]; [|discriminate]. destruct (energy Exact muB s e2) as [v2|]; [|discriminate].
    injection Rc as Rc.
    assert (UL : (x_up x = e2 /\ x_lo x = e1) \/ (x_up x = e1 /\ x_lo x = e2)) by (rewrite <- Rc; cbn [x_up x_lo]; destruct (Qc_ltb v1 v2); auto).
    assert (Xat : x_attached x = true) by (rewrite <- Rc; exact At).
    exists x. split; [now rewrite <- Rc|]. split; [now rewrite <- Rc|]. split; auto.
    assert (Kx : x_kind x = TT) by (now rewrite <- Rc).
    exists (put_trans Exact s x). split; [exact Eq|]. split; [apply P|]. split; [apply P|]. split; [apply P|]. split.
    { unfold put_trans. rewrite Xat. rewrite put_edge_attrs. reflexivity. }
    split; auto. split; auto. intros n m. unfold put_trans. rewrite Xat. unfold put_edge.
    assert (N1 : nm (set_trans (s_trans s ++ [x]) s) e1 = Some (lname l1)) by (unfold nm, lv in *; cbn [s_levels set_trans]; rewrite V1; reflexivity).
    assert (N2 : nm (set_trans (s_trans s ++ [x]) s) e2 = Some (lname l2)) by (unfold nm, lv in *; cbn [s_levels set_trans]; rewrite V2; reflexivity).
    pose proof (go_wf _ _ _ _ (wf_g _ _ W LE)) as GW. cbn [graph_of] in GW.
    destruct UL as [[-> ->]|[-> ->]]; rewrite N1, N2, Kx; cbn [lk graph_of set_graph s_g0 set_trans set_g0]; rewrite add_edge_edge by auto; auto.
    now rewrite orb_comm.
  Qed.
End Names.
