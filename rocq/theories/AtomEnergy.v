(** Energies of manifolds, and levels in order of energy. *)
From Coq Require Import List Bool ZArith QArith Qcanon Lia String Ascii Permutation Sorted.
From Verif Require Import Base PyStr Util UtilProofs Parse Term TermProofs Num Wigner Hyperfine HyperfineProofs
  Graph GraphProofs DfsProofs Rules Atom AtomInv AtomSafe AtomSafe2 AtomSafe3 AtomSafe4 AtomSafe5 AtomSafe6 AtomLevels AtomKeep AtomPaths AtomHist.
Import ListNotations.

Lemma Qc_ltb_lt : forall a b : Qc, Qc_ltb a b = true <-> a < b.
Proof.
  intros a b. unfold Qc_ltb, Qclt. rewrite negb_true_iff. split.
  - intros H. apply Qnot_le_lt. intros L. apply Qle_bool_iff in L. congruence.
  - intros H. destruct (Qle_bool b a) eqn:E; auto. apply Qle_bool_iff in E. exfalso. apply (Qlt_not_le _ _ H E).
Qed.
Lemma Qc_ltb_ge : forall a b : Qc, Qc_ltb a b = false <-> b <= a.
Proof.
  intros a b. unfold Qc_ltb, Qcle. rewrite negb_false_iff. apply Qle_bool_iff.
Qed.

Lemma add_sub : forall e v : Qc, e + (v - e) = v.
Proof. intros. ring. Qed.

Lemma add_swap : forall e d z : Qc, e + d + z = e + z + d.
Proof. intros. ring. Qed.
Lemma move_sum : forall E e v : Qc, E + (v - e) - E = v - e.
Proof. intros. ring. Qed.
Lemma move_swap : forall e E d, e + (E + d - E) = e + d.
Proof. intros. ring. Qed.

Section Energy.
  Notation N := Exact.
  Context (muB : Qc).
  Notation st := (st N).
  Notation level := (level N).
  Implicit Types (s : st) (l : level) (a : nat).

  (** ** Order *)

  Lemma isort_pairs : forall r : list (Qc * nat),
    StronglySorted (fun x y => fst x <= fst y) (isort (fun x y => negb (nltb N (fst y) (fst x))) r).
  Proof.
    intros r.
    assert (H : StronglySorted (fun x y => negb (nltb N (fst y) (fst x)) = true) (isort (fun x y => negb (nltb N (fst y) (fst x))) r)).
    { apply isort_strongly_sorted; intros x y.
      - rewrite negb_false_iff. change (nltb N) with Qc_ltb. intros L. apply Qc_ltb_lt in L. rewrite negb_true_iff. apply Qc_ltb_ge. now apply Qclt_le_weak.
      - intros z. rewrite !negb_true_iff. change (nltb N) with Qc_ltb. rewrite !Qc_ltb_ge. intros. eapply Qcle_trans; eauto. }
    induction H; constructor; auto. eapply Forall_impl; [|exact H0]. intros y Hy. cbv beta in Hy.
    rewrite negb_true_iff in Hy. now apply Qc_ltb_ge in Hy.
  Qed.

  Lemma sorted_map_snd : forall (E : nat -> option Qc) (r : list (Qc * nat)), Forall (fun ea => E (snd ea) = Some (fst ea)) r ->
    StronglySorted (fun x y => fst x <= fst y) r ->
    StronglySorted (fun b c => forall eb ec, E b = Some eb -> E c = Some ec -> eb <= ec) (map snd r).
  Proof.
    intros E r F S. induction S as [|[e b] r S IH H]; simpl; constructor; inversion F; subst; auto.
    rewrite Forall_map. rewrite Forall_forall in *. intros [e' c] I eb ec Eb Ec. cbn [snd] in *.
    assert (E' : E c = Some e') by (apply (H3 (e', c)); auto). assert (E0 : E b = Some e) by auto.
    rewrite Eb in E0. rewrite Ec in E'. injection E0 as ->. injection E' as ->. apply (H (e', c) I).
  Qed.

  Lemma by_energy_sorted : forall s, WF s -> exists r, by_energy N muB s = Some r /\ Permutation r (dvals (node_attrs (s_g0 s))) /\
    StronglySorted (fun b c => forall eb ec, energy N muB s b = Some eb -> energy N muB s c = Some ec -> eb <= ec) r.
  Proof.
    intros s W. destruct (with_energy_total N muB s (dvals (node_attrs (s_g0 s))) W) as [r [E [Em F]]].
    - intros a I. destruct (nodes_levels N s LE a W I) as [n [l [V _]]]. eauto.
    - unfold by_energy. rewrite E. eexists; split; eauto. split.
      + rewrite <- Em. apply Permutation_map, Permutation_sym, isort_perm.
      + apply sorted_map_snd; [|apply isort_pairs]. rewrite Forall_forall in *. intros x I. apply F. now apply isort_In in I.
  Qed.

  Lemma levels_get_int_spec : forall s, WF s -> exists r, Permutation r (dvals (node_attrs (s_g0 s))) /\
    StronglySorted (fun b c => forall eb ec, energy N muB s b = Some eb -> energy N muB s c = Some ec -> eb <= ec) r /\
    (forall i, (i < List.length r)%nat -> levels_get_int N muB (Z.of_nat i) s = (match nth_error r i with Some b => Ok b | None => Raise IndexError end, s)) /\
    (forall i, (i < List.length r)%nat -> levels_get_int N muB (Z.of_nat i - Z.of_nat (List.length r)) s =
       (match nth_error r i with Some b => Ok b | None => Raise IndexError end, s)) /\
    (forall z, (z < - Z.of_nat (List.length r) \/ Z.of_nat (List.length r) <= z)%Z -> levels_get_int N muB z s = (Raise IndexError, s)).
  Proof.
    intros s W. destruct (by_energy_sorted s W) as [r [E [P S]]]. exists r. split; auto. split; auto.
    assert (G : forall z, levels_get_int N muB z s = (match py_nth r z with Some b => Ok b | None => Raise IndexError end, s)).
    { intros z. unfold levels_get_int, bind, asks. rewrite E. destruct (py_nth r z); reflexivity. }
    split; [|split].
    - intros i Hi. rewrite G. unfold py_nth.
      destruct (Z.ltb_spec (Z.of_nat i) 0); [lia|]. destruct (Z.ltb_spec (Z.of_nat i) 0); [lia|]. now rewrite Nat2Z.id.
    - intros i Hi. rewrite G. unfold py_nth.
      destruct (Z.ltb_spec (Z.of_nat i - Z.of_nat (List.length r)) 0); [|lia].
      destruct (Z.ltb_spec (Z.of_nat i - Z.of_nat (List.length r) + Z.of_nat (List.length r)) 0); [lia|].
      replace (Z.of_nat i - Z.of_nat (List.length r) + Z.of_nat (List.length r))%Z with (Z.of_nat i) by lia. now rewrite Nat2Z.id.
    - intros z Hz. rewrite G. unfold py_nth. destruct (Z.ltb_spec z 0).
      + destruct (Z.ltb_spec (z + Z.of_nat (List.length r)) 0); [reflexivity|lia].
      + destruct (Z.ltb_spec z 0); [lia|]. replace (nth_error r (Z.to_nat z)) with (@None nat); auto.
        symmetry. apply nth_error_None. lia.
  Qed.

  (** ** Manifolds *)

  (** The fine-structure level at the top of [a]'s manifold. *)
  Definition top s a : option nat :=
    match lv s a with
    | Some l =>
        match l_kind l, l_parent l with
        | LE, _ => Some a
        | LHF, p => p
        | LZ, Some p => match lv s p with Some lp => l_parent lp | None => None end
        | LZ, None => None
        end
    | None => None
    end.

  (** Energy relative to the top. *)
  Definition offset s a : Qc :=
    match top s a with
    | Some r => match energy N muB s a, energy N muB s r with Some e, Some er => e - er | _, _ => 0 end
    | None => 0
    end.

  Lemma top_level : forall s a l, WF s -> lv s a = Some l -> exists r lr, top s a = Some r /\ lv s r = Some lr /\ l_kind lr = LE /\
    energy N muB s r = Some (l_E lr).
  Proof.
    intros s a l W V. assert (G : forall r (lr : level), lv s r = Some lr -> l_kind lr = LE -> energy N muB s r = Some (l_E lr)).
    { intros r lr Vr Kr. unfold energy. rewrite Vr, Kr. unfold energyE. now rewrite Vr, Kr. }
    unfold top. rewrite V. destruct (l_kind l) eqn:K.
    - exists a, l. auto.
    - destruct (wf_energyHF _ _ _ _ W V K) as [p [lp [j [f [P [Vp [Kp _]]]]]]]. rewrite P. exists p, lp. auto.
    - destruct (wf_energyZ Exact muB _ _ _ W V K) as [p [lp [m [e [P [Vp [Kp _]]]]]]]. rewrite P, Vp.
      destruct (wf_energyHF _ _ _ _ W Vp Kp) as [q [lq [j [f [Q [Vq [Kq _]]]]]]]. rewrite Q. exists q, lq. auto.
  Qed.

  (** Changing the stored energy of one fine-structure level. *)
  Lemma energy_moved : forall s r (lr : level) v, WF s -> lv s r = Some lr -> l_kind lr = LE ->
    forall a l e, lv s a = Some l -> energy N muB s a = Some e ->
    energy N muB (upd_lv r (lv_set_E v) s) a =
      Some (match top s a with Some r' => if Nat.eqb r r' then e + (v - l_E lr) else e | None => e end).
  Proof.
    intros s r lr v W Vr Kr a l e V E. set (s' := upd_lv r (lv_set_E v) s).
    assert (L : forall b, lv s' b = if Nat.eqb r b then option_map (lv_set_E v) (lv s b) else lv s b) by (intros b; apply lv_upd_lv).
    assert (EE : forall b (lb : level), lv s b = Some lb -> l_kind lb = LE -> energyE s' b = Some (if Nat.eqb r b then v else l_E lb)).
    { intros b lb Vb Kb. unfold energyE. rewrite L, Vb. destruct (Nat.eqb r b); simpl; rewrite Kb; reflexivity. }
    assert (HF : forall b (lb : level) p, lv s b = Some lb -> l_kind lb = LHF -> l_parent lb = Some p ->
       exists eb, energyHF s b = Some eb /\ energyHF s' b = Some (if Nat.eqb r p then eb + (v - l_E lr) else eb)).
    { intros b lb p Vb Kb Pb. destruct (wf_energyHF _ _ _ _ W Vb Kb) as [p' [lp [j [f [P [Vp [Kp [EJ [EF [_ [_ EH]]]]]]]]]]].
      rewrite P in Pb. injection Pb as ->. eexists. split; [exact EH|].
      assert (Hb : Nat.eqb r b = false) by (apply Nat.eqb_neq; intros ->; congruence).
      unfold energyHF. rewrite L, Hb, Vb, P, EJ, EF, (EE p lp Vp Kp), L, Vp. destruct (Nat.eqb_spec r p) as [->|Hp]; simpl; [|reflexivity].
      rewrite Vr in Vp. injection Vp as <-. f_equal. qeq. ring. }
    unfold energy in *. unfold top. rewrite V in *. rewrite L, V. destruct (l_kind l) eqn:K.
    - unfold energyE in E. rewrite V, K in E. injection E as <-. rewrite (Nat.eqb_sym r a).
      replace (energyE s' a) with (Some (if Nat.eqb r a then v else l_E l)) by (symmetry; now apply EE). rewrite (Nat.eqb_sym r a).
      destruct (Nat.eqb_spec a r) as [->|Ha]; simpl; rewrite K; auto. rewrite Vr in V. injection V as <-. f_equal. symmetry. apply add_sub.
    - destruct (wf_energyHF _ _ _ _ W V K) as [p [lp [j [f [P [Vp [Kp [_ [_ [_ [_ EH]]]]]]]]]]].
      destruct (HF a l p V K P) as [eb [E1 E2]]. rewrite E1 in E. injection E as ->. rewrite P.
      assert (Hb : Nat.eqb r a = false) by (apply Nat.eqb_neq; intros ->; congruence). rewrite Hb, K. exact E2.
    - destruct (wf_energyZ Exact muB _ _ _ W V K) as [p [lp [m [ep [P [Vp [Kp [EM [Ep EZ]]]]]]]]].
      destruct (wf_energyHF _ _ _ _ W Vp Kp) as [q [lq [j [f [Q [Vq [Kq _]]]]]]].
      destruct (HF p lp q Vp Kp Q) as [eb [E1 E2]]. rewrite Ep in E1. injection E1 as <-.
      assert (Hb : Nat.eqb r a = false) by (apply Nat.eqb_neq; intros ->; congruence). rewrite Hb, K.
      rewrite EZ in E. injection E as <-. unfold energyZ. rewrite L, Hb, V, P, EM, E2, Vp, Q. change (s_B s') with (s_B s).
      destruct (Nat.eqb r q); auto. f_equal. apply add_swap.
  Qed.

  (** What [level.level = v] does. *)
  Lemma set_energy_eq : forall s a l e v, WF s -> lv s a = Some l -> energy N muB s a = Some e ->
    exists r lr, top s a = Some r /\ lv s r = Some lr /\ l_kind lr = LE /\
      set_energy N muB a v s = (Ok tt, upd_lv r (@lv_set_E N (l_E lr + (v - e))) s).
  Proof.
    intros s a l e v W V E. unfold set_energy, get_lv. unfold bind at 1, asks at 1. rewrite V. unfold top, energy in *. rewrite V in *.
    assert (HF : forall b (lb : level) eb w, lv s b = Some lb -> l_kind lb = LHF -> energyHF s b = Some eb ->
      exists p lp, l_parent lb = Some p /\ lv s p = Some lp /\ l_kind lp = LE /\
        set_energyHF N b w s = (Ok tt, upd_lv p (@lv_set_E N (l_E lp + (w - eb))) s)).
    { intros b lb eb w Vb Kb Eb. destruct (wf_energyHF _ _ _ _ W Vb Kb) as [p [lp [j [f [P [Vp [Kp [_ [_ [_ [_ EH]]]]]]]]]]].
      exists p, lp. split; auto. split; auto. split; auto.
      unfold set_energyHF, get_lv, bind, asks. rewrite Vb, Eb, P. unfold energyE. rewrite Vp, Kp. reflexivity. }
    destruct (l_kind l) eqn:K.
    - exists a, l. repeat (split; auto). unfold energyE in E. rewrite V, K in E. injection E as <-.
      unfold set_energyE, modify. rewrite add_sub. reflexivity.
    - destruct (HF a l e v V K E) as [p [lp [P [Vp [Kp Es]]]]]. exists p, lp. auto.
    - destruct (wf_energyZ Exact muB _ _ _ W V K) as [p [lp [m [ep [P [Vp [Kp [EM [Ep EZ]]]]]]]]].
      destruct (HF p lp ep (ep + (v - e)) Vp Kp Ep) as [q [lq [Q [Vq [Kq Es]]]]]. exists q, lq. rewrite P, Vp. split; auto. split; auto. split; auto.
      unfold set_energyZ, get_lv, bind, asks. rewrite V, E, P, Ep. cbn [nadd nsub Exact]. rewrite Es.
      rewrite move_sum. reflexivity.
  Qed.

  Lemma rigid : forall s a l e v, WF s -> lv s a = Some l -> energy N muB s a = Some e ->
    exists s', set_energy N muB a v s = (Ok tt, s') /\ WF s' /\ energy N muB s' a = Some v /\
      forall b eb, energy N muB s b = Some eb ->
        energy N muB s' b = Some (if match top s a, top s b with Some r, Some r' => Nat.eqb r r' | _, _ => false end then eb + (v - e) else eb).
  Proof.
    intros s a l e v W V E. destruct (set_energy_eq s a l e v W V E) as [r [lr [T [Vr [Kr Es]]]]].
    eexists. split; [exact Es|]. destruct (set_energy_safe Exact muB s a l v W V) as [W' _]. rewrite Es in W'. cbn [snd] in W'. split; auto.
    assert (G : forall b eb, energy N muB s b = Some eb ->
        energy N muB (upd_lv r (@lv_set_E N (l_E lr + (v - e))) s) b =
          Some (if match top s b with Some r' => Nat.eqb r r' | _ => false end then eb + (v - e) else eb)).
    { intros b eb Eb. assert (Vb : exists lb, lv s b = Some lb) by (unfold energy in Eb; destruct (lv s b); [eauto|discriminate]).
      destruct Vb as [lb Vb]. rewrite (energy_moved s r lr _ W Vr Kr b lb eb Vb Eb). f_equal.
      destruct (top s b) as [r'|]; auto. destruct (Nat.eqb r r'); auto. apply move_swap. }
    split.
    - rewrite (G a e E), T, Nat.eqb_refl. rewrite add_sub. reflexivity.
    - intros b eb Eb. rewrite T. now apply G.
  Qed.

  Lemma levels_by_energy : forall orc, (forall n, oracle_ok (orc n)) -> forall s, reachable N muB orc s ->
    exists r, Permutation r (dvals (node_attrs (s_g0 s))) /\
      StronglySorted (fun b c => forall eb ec, energy N muB s b = Some eb -> energy N muB s c = Some ec -> eb <= ec) r /\
      (forall b, In b r -> energy N muB s b <> None) /\
      (forall i, (i < List.length r)%nat -> exists b, nth_error r i = Some b /\
         levels_get_int N muB (Z.of_nat i) s = (Ok b, s) /\ levels_get_int N muB (Z.of_nat i - Z.of_nat (List.length r)) s = (Ok b, s)) /\
      (forall z, (z < - Z.of_nat (List.length r) \/ Z.of_nat (List.length r) <= z)%Z -> levels_get_int N muB z s = (Raise IndexError, s)).
  Proof.
    intros orc OK s R. assert (W : WF s) by (eapply reachable_WF; eauto).
    destruct (levels_get_int_spec s W) as [r [P [S [G1 [G2 G3]]]]]. exists r. split; auto. split; auto. split.
    { intros b Hb. eapply Permutation_in in Hb; [|exact P]. unfold dvals in Hb. apply in_map_iff in Hb as [[k b'] [Eb Hb]]. cbn in Eb. subst b'.
      assert (D : dget k (node_attrs (s_g0 s)) = Some b) by (apply In_dget_nodup; auto; apply node_attrs_nodup, (wf_g _ _ W LE)).
      rewrite node_attrs_get in D by apply (wf_g _ _ W LE). destruct (dget k (g_nodes (s_g0 s))) as [o|] eqn:Eo; [|discriminate]. subst o.
      destruct (wf_g _ _ W LE) as [_ Hn _]. destruct (Hn k b Eo) as [l0 [V0 [K _]]]. unfold energy, energyE. rewrite V0, K. intros H0; discriminate H0. }
    split; auto. intros i Hi. destruct (nth_error r i) as [b|] eqn:Eb; [|apply nth_error_None in Eb; lia]. exists b. split; auto.
    rewrite (G1 i Hi), (G2 i Hi), Eb. auto.
  Qed.
End Energy.
