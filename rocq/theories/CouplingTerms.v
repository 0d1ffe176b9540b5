(** The basis conversions of parsed terms. *)
From Coq Require Import List Bool ZArith QArith Qcanon Reals Qreals Lia Lra String Ascii.
From Verif Require Import Base PyStr Util UtilProofs Regex Parse ParseProofs ParseProofs2 Term Num Wigner WignerProofs WignerOne WignerSym WignerZero Hyperfine HyperfineProofs
  Rules RulesProofs StrengthSums StrengthPos WignerOrth WignerNorm Strengths StrengthProofs Coupling WignerNine CouplingProofs CouplingList.
Import ListNotations.
Local Open Scope Z_scope.

(** ** What a list of components says *)

(** The percentages add up to 100, up to [e] for each entry. *)
Definition adds_up (e : R) (r : option (res (list (string * fl)))) : Prop :=
  exists es t, r = Some (Ok es) /\ total es = Some t /\ (Rabs (t - 100) <= e * INR (List.length es))%R.

(** The entries have different names, each the symbol of a term that the core
    and the outer term can form and that has a level of the given J. *)
Definition real_terms (lc sc lo so j : Z) (r : option (res (list (string * fl)))) : Prop :=
  exists es, r = Some (Ok es) /\ NoDup (map fst es) /\
    forall c, In c es -> exists l s a, orbital_letter l a /\ fst c = ls_symbol s a false /\
      triangle (2 * lc) (2 * lo) (2 * l) /\ triangle sc so s /\ triangle (2 * l) s j.

Lemma Forall2_In_r : forall A B (P : A -> B -> Prop) l m y, Forall2 P l m -> In y m -> exists x, In x l /\ P x y.
Proof. induction 1 as [|a b l m H F IH]; intros I; [destruct I|]. destruct I as [<-|I]; [exists a; split; auto; now left|]. destruct (IH I) as [x [X P']]. exists x; split; auto. now right. Qed.
Lemma nodup_prod : forall A B (u : list A) (v : list B), NoDup u -> NoDup v -> NoDup (list_prod u v).
Proof.
  intros A B u v Hu Hv. induction Hu as [|x u NI Hu IH]; [constructor|]. cbn [list_prod].
  assert (G : forall w, NoDup w -> incl w v -> NoDup (map (fun y => (x, y)) w ++ list_prod u v)).
  { induction w as [|y w IW]; intros ND IC; [exact IH|]. inversion ND as [|? ? NI' ND']; subst. cbn [map app]. constructor.
    - rewrite in_app_iff. intros [I|I].
      + apply in_map_iff in I as [y' [E I]]. apply NI'. inversion E; subst; exact I.
      + apply in_prod_iff in I. tauto.
    - apply IW; auto. intros z Hz. apply IC. now right. }
  apply G; auto. apply incl_refl.
Qed.
Lemma F_range_ne : forall a b, 0 <= a -> 0 <= b -> F_range a b <> [].
Proof. intros a b Ha Hb E. assert (I : In (a + b) (F_range a b)) by (apply F_range_In; auto; apply tri_spec; split; [lia|exists (a + b); ring]). now rewrite E in I. Qed.

Section Lists.
  Variable (rnd : R -> R).
  Lemma spec_of_sets : forall (f : Z * Z -> R) g, NoDup g -> g <> [] -> (forall l s, In (l, s) g -> 0 <= s /\ exists i, l = 2 * i /\ 0 <= i <= 20) ->
    dot (map f g) (map f g) = 1%R ->
    exists es, sets_to_list rnd (map (fun p => (p, Some (f p))) g) = Ok es /\ NoDup (map fst es) /\
      (forall e, (forall x, Rabs (rnd x - x) <= e)%R -> exists t, total es = Some t /\ (Rabs (t - 100) <= e * INR (List.length es))%R) /\
      (forall c, In c es -> exists l s a, In (2 * l, s) g /\ f (2 * l, s) <> 0%R /\ orbital_letter l a /\ fst c = ls_symbol s a false).
  Proof.
    intros f g ND NE HG D. destruct (list_of_sets rnd f g NE) as [es [E F]]; [intros; eapply HG; eauto|].
    exists es. split; auto. split; [|split].
    - eapply names_distinct; [exact F| |].
      + assert (W : forall w, NoDup w -> incl w g -> NoDup (map fst (filter nonzero (map (fun p => (p, f p)) w)))).
        { induction w as [|q w IW]; intros NW IC; [constructor|]. inversion NW as [|? ? NI NW']; subst. cbn [map filter].
          assert (IC' : incl w g) by (intros z Z; apply IC; now right). destruct (nonzero (q, f q)); auto. cbn [map fst]. constructor; auto.
          intros I. apply in_map_iff in I as [[q' x] [E' I]]. cbn in E'. subst q'. apply filter_In in I as [I _]. apply in_map_iff in I as [q' [E' I]]. inversion E'; subst. contradiction. }
        apply W; auto. apply incl_refl.
      + intros [[l s] x] I. apply filter_In in I as [I _]. apply in_map_iff in I as [q [E' I]]. inversion E'; subst. cbn [fst snd].
        destruct (HG l s) as [S [i [L _]]]; eauto.
    - intros e He. destruct (total_near rnd e _ _ He F) as [t [T B]]. exists t. split; auto. rewrite Rsums_nonzero, Rsums_map in B. cbn [snd] in B.
      rewrite dot_map in D. rewrite D in B. now rewrite Rmult_1_r in B.
    - intros c I. destruct (Forall2_In_r _ _ _ _ _ _ F I) as [[[l s] x] [J [a [A1 [A2 _]]]]].
      apply filter_In in J as [J N]. apply in_map_iff in J as [q [E' J]]. inversion E'; subst. destruct (HG l s J) as [_ [i [-> _]]].
      rewrite (Z.mul_comm 2 i), Z.div_mul in A1 by lia. exists i, s, a. split; auto. split; auto.
      intros Z. unfold nonzero in N. cbn [snd] in N. destruct (Req_EM_T (f (2 * i, s)) 0); [discriminate|contradiction].
  Qed.

  Lemma grid_ok : forall lc sc lo so, 0 <= lc -> 0 <= sc -> 0 <= lo -> 0 <= so -> lc + lo <= 20 ->
    NoDup (grid (F_range (2 * lc) (2 * lo)) (F_range sc so)) /\ grid (F_range (2 * lc) (2 * lo)) (F_range sc so) <> [] /\
    (forall l s, In (l, s) (grid (F_range (2 * lc) (2 * lo)) (F_range sc so)) -> 0 <= s /\ exists i, l = 2 * i /\ 0 <= i <= 20).
  Proof.
    intros lc sc lo so H1 H2 H3 H4 B. split; [apply nodup_prod; apply F_range_nodup|]. split.
    - pose proof (F_range_ne (2 * lc) (2 * lo) ltac:(lia) ltac:(lia)) as N1. pose proof (F_range_ne sc so H2 H4) as N2. unfold grid.
      destruct (F_range (2 * lc) (2 * lo)); [congruence|]. destruct (F_range sc so); [congruence|]. discriminate.
    - intros l s I. apply in_prod_iff in I as [I J]. apply F_range_In in I; [|lia|lia]. apply F_range_In in J; auto.
      split; [apply tri_nn in J; tauto|]. apply tri_spec in I as [I [n E]]. exists (n - lc - lo). lia.
  Qed.

  Lemma JJ_list : forall j jc jo lc sc lo so, 0 <= lc -> 0 <= lo -> lc + lo <= 20 ->
    tri (2 * lc) sc jc = true -> tri (2 * lo) so jo = true -> tri jc jo j = true ->
    let r := Some (sets_to_list rnd (JJ_to_LS j jc jo (2 * lc) sc (2 * lo) so)) in
    (forall e, (forall x, Rabs (rnd x - x) <= e)%R -> adds_up e r) /\ real_terms lc sc lo so j r.
  Proof.
    intros j jc jo lc sc lo so H1 H2 B T1 T2 T3 r. pose proof (tri_nn _ _ _ T1) as N1. pose proof (tri_nn _ _ _ T2) as N2.
    destruct (grid_ok lc sc lo so) as [G1 [G2 G3]]; try tauto.
    destruct (spec_of_sets (JJ_amp j jc jo (2 * lc) sc (2 * lo) so) _ G1 G2 G3) as [es [E [ND [A C]]]].
    { rewrite JJ_dot; auto. now rewrite !Z.eqb_refl. }
    assert (R : r = Some (Ok es)).
    { unfold r. rewrite <- E. unfold JJ_to_LS. f_equal. f_equal. apply map_ext. intros [l s]. reflexivity. }
    split.
    - intros e He. destruct (A e He) as [t [T S]]. exists es, t. auto.
    - exists es. split; auto. split; auto. intros c I. destruct (C c I) as [l [s [a [I' [NZ [L Nm]]]]]]. exists l, s, a. split; auto. split; auto.
      apply in_prod_iff in I' as [I1 I2]. apply F_range_In in I1; [|lia|lia]. apply F_range_In in I2; try tauto. rewrite <- !tri_spec. repeat split; auto.
      unfold JJ_amp in NZ. destruct (w9_tri (2 * lc) sc jc (2 * lo) so jo (2 * l) s j) eqn:W.
      + unfold w9_tri in W. rewrite !andb_true_iff in W. tauto.
      + exfalso. apply NZ. unfold w9R. rewrite W. ring.
  Qed.

  Lemma JK_list : forall j jc k lc sc lo so, 0 <= lc -> 0 <= lo -> lc + lo <= 20 ->
    tri (2 * lc) sc jc = true -> tri jc (2 * lo) k = true -> tri k so j = true ->
    let r := Some (sets_to_list rnd (JK_to_LS j jc k (2 * lc) sc (2 * lo) so)) in
    (forall e, (forall x, Rabs (rnd x - x) <= e)%R -> adds_up e r) /\ real_terms lc sc lo so j r.
  Proof.
    intros j jc k lc sc lo so H1 H2 B T1 T2 T3 r. pose proof (tri_nn _ _ _ T1) as N1. pose proof (tri_nn _ _ _ T3) as N2.
    destruct (grid_ok lc sc lo so) as [G1 [G2 G3]]; try tauto.
    destruct (spec_of_sets (JK_amp j jc k (2 * lc) sc (2 * lo) so) _ G1 G2 G3) as [es [E [ND [A C]]]].
    { rewrite JK_dot; auto. now rewrite !Z.eqb_refl. }
    assert (R : r = Some (Ok es)).
    { unfold r. rewrite <- E. unfold JK_to_LS. f_equal. f_equal. apply map_ext_in. intros [l s] I.
      apply in_prod_iff in I as [I _]. apply F_range_In in I; [|lia|lia]. apply even_sum in I as [n I]. destruct (even_sum _ _ _ T3) as [m M3].
      unfold minus_one_pow. replace (Z.even (- (2 * lc) - 2 * lo - 2 * sc - so - k - l - j)) with true; [reflexivity|].
      symmetry. apply Z.even_spec. exists (- n - m - sc). lia. }
    split.
    - intros e He. destruct (A e He) as [t [T S]]. exists es, t. auto.
    - exists es. split; auto. split; auto. intros c I. destruct (C c I) as [l [s [a [I' [NZ [L Nm]]]]]]. exists l, s, a. split; auto. split; auto.
      apply in_prod_iff in I' as [I1 I2]. apply F_range_In in I1; [|lia|lia]. apply F_range_In in I2; try tauto. rewrite <- !tri_spec. repeat split; auto.
      unfold JK_amp in NZ. destruct (Req_EM_T (w6R (2 * l) sc k so j s) 0) as [Z|Z]; [exfalso; apply NZ; rewrite Z; ring|].
      apply w6R_tri in Z. rewrite tri_23. tauto.
  Qed.

  Lemma LK_list : forall j l k sc so, 0 <= l <= 20 -> tri (2 * l) sc k = true -> tri k so j = true ->
    let r := Some (sets_to_list rnd (LK_to_LS j (2 * l) k sc so)) in
    (forall e, (forall x, Rabs (rnd x - x) <= e)%R -> adds_up e r) /\
    exists es, r = Some (Ok es) /\ NoDup (map fst es) /\
      forall c, In c es -> exists s a, orbital_letter l a /\ fst c = ls_symbol s a false /\ triangle sc so s /\ triangle (2 * l) s j.
  Proof.
    intros j l k sc so H1 T1 T2 r. pose proof (tri_nn _ _ _ T1) as N1. pose proof (tri_nn _ _ _ T2) as N2.
    destruct (spec_of_sets (LK_amp j k sc so) (grid [2 * l] (F_range sc so))) as [es [E [ND [A C]]]].
    { apply nodup_prod; [repeat constructor; auto|apply F_range_nodup]. }
    { pose proof (F_range_ne sc so ltac:(lia) ltac:(lia)) as N. unfold grid. destruct (F_range sc so); [congruence|discriminate]. }
    { intros l' s I. apply in_prod_iff in I as [[<-|[]] I]. apply F_range_In in I; try tauto. apply tri_nn in I. split; [tauto|]. now exists l. }
    { rewrite LK_dot; auto. now rewrite !Z.eqb_refl. }
    assert (R : r = Some (Ok es)).
    { unfold r. rewrite <- E. unfold LK_to_LS. f_equal. f_equal. apply map_ext. intros [l' s]. reflexivity. }
    split.
    - intros e He. destruct (A e He) as [t [T S]]. exists es, t. auto.
    - exists es. split; auto. split; auto. intros c I. destruct (C c I) as [l' [s [a [I' [NZ [L Nm]]]]]].
      apply in_prod_iff in I' as [[I1|[]] I2]. assert (l' = l) by lia. subst l'. exists s, a. split; auto. split; auto.
      apply F_range_In in I2; try tauto. rewrite <- !tri_spec. split; auto.
      unfold LK_amp in NZ. destruct (Req_EM_T (w6R (2 * l) sc k so j s) 0) as [Z|Z]; [exfalso; apply NZ; rewrite Z; ring|].
      apply w6R_tri in Z. rewrite tri_23. tauto.
  Qed.

  (** ** Arguments *)

  Lemma arg_half : forall z f, arg (ParseProofs.half z) f = f z.
  Proof.
    intros z f. unfold arg, ParseProofs.half, doubled.
    assert (E : (Qred (z # 2) * (2 # 1) == z # 1)%Q) by (rewrite Qred_correct; unfold Qeq; cbn; lia).
    unfold Qeq in E. cbn [Qnum Qden] in E. unfold q_is_int, q_trunc. set (x := (Qred (z # 2) * (2 # 1))%Q) in *.
    assert (M : Qnum x = z * Zpos (Qden x)) by lia. rewrite M.
    rewrite Z_mod_mult, Z.quot_mul by lia. reflexivity.
  Qed.
  Lemma arg_whole : forall z f, arg (whole z) f = f (2 * z).
  Proof.
    intros z f. unfold arg, whole, doubled, q_is_int, q_trunc. cbn [Qmult inject_Z Qnum Qden Pos.mul].
    rewrite Z.mod_1_r, Z.quot_1_r. cbn [Z.eqb]. f_equal. ring.
  Qed.
  Lemma arg_zero : forall f, arg (Some 0%Q) f = f 0.
  Proof. reflexivity. Qed.
End Lists.
