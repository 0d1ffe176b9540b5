(** Property C129: several atoms in one program. *)
From Coq Require Import List Bool ZArith QArith Qcanon Lia String Sorted.
From Verif Require Import Base Num PyStr Util UtilProofs Term Hyperfine HyperfineProofs Atom AtomInv Wigner Isotopes.
Import ListNotations.
Local Open Scope string_scope.
Local Open Scope list_scope.

Arguments i_kind {N}. Arguments i_parent {N}. Arguments i_name {N}. Arguments i_J {N}. Arguments i_F {N}. Arguments i_mF {N}.
Arguments i_atom {N}. Arguments i_subs {N}. Arguments i_E {N}. Arguments i_hfA {N}. Arguments i_hfB {N}. Arguments i_hfC {N}.
Arguments i_g {N}. Arguments i_gF {N}. Arguments i_qz {N}. Arguments p_I {N}. Arguments p_B {N}. Arguments nodes_of {N}.
Arguments lev {N}. Arguments iso {N}. Arguments w_lv {N}. Arguments w_at {N}. Arguments I_of {N}. Arguments B_of {N}.
Arguments on_lv {N}. Arguments on_at {N}. Arguments set_atom {N}. Arguments set_isubs {N}. Arguments set_iE {N}. Arguments set_ihf {N}.
Arguments i_populate {N}. Arguments i_node {N}. Arguments i_sublevels {N}. Arguments i_join {N}. Arguments i_add {N}. Arguments i_install {N}.
Arguments i_step {N}. Arguments i_run {N}.

Section Iso.
  Context (N : Num) (muB : num N).
  Implicit Types (w : world N) (l : ilevel N) (p : isotope N).

  Definition irange w l : list Z :=
    match i_kind l, I_of w l with
    | LE, Some i => F_range (i_J l) i
    | LHF, Some _ => mF_range (i_F l)
    | _, _ => []
    end.
  Definition ikey (k : lkind) (z : Z) : string := match k with LE => F_key z | _ => mF_key z end.
  (** The level [c] is the sublevel [z] of the level [l] at [a]. *)
  Definition ichild w (a : nat) l (z : Z) (c : nat) : Prop :=
    exists lc, lev w c = Some lc /\ i_kind lc = sub_kind (i_kind l) /\ i_parent lc = Some a /\ i_J lc = i_J l /\ i_atom lc = i_atom l /\
      match i_kind l with LE => i_F lc = z | _ => i_F lc = i_F l /\ i_mF lc = z end.
  Definition ikids w (a : nat) l : Prop :=
    i_subs l = [] \/ (i_atom l <> None /\ Forall2 (fun z kc => fst kc = ikey (i_kind l) z /\ ichild w a l z (snd kc)) (irange w l) (i_subs l)).
  Definition ipar w l : Prop :=
    match i_kind l with
    | LE => i_parent l = None
    | _ => exists q lp, i_parent l = Some q /\ lev w q = Some lp /\ i_kind l = sub_kind (i_kind lp) /\ i_kind lp <> LZ /\ i_atom l = i_atom lp /\ i_atom l <> None /\
        i_J l = i_J lp /\
        match i_kind l with
        | LHF => forall i, I_of w l = Some i -> i_gF l = compute_gF N i (i_J l) (i_F l) (i_g lp)
        | _ => i_F l = i_F lp /\ i_gF l = i_gF lp
        end
    end.
  Record Good w : Prop := mkGood {
    g_atom : forall a l i, lev w a = Some l -> i_atom l = Some i -> iso w i <> None;
    g_kids : forall a l, lev w a = Some l -> ikids w a l;
    g_par : forall a l, lev w a = Some l -> ipar w l;
    g_node : forall i p k n a, iso w i = Some p -> dget n (nodes_of k p) = Some a ->
      exists l, lev w a = Some l /\ i_atom l = Some i /\ i_kind l = k /\ i_name l = n
  }.

  Definition same l l' : Prop :=
    i_kind l' = i_kind l /\ i_parent l' = i_parent l /\ i_name l' = i_name l /\ i_J l' = i_J l /\ i_F l' = i_F l /\ i_mF l' = i_mF l /\
    (i_atom l <> None -> i_atom l' = i_atom l) /\ i_g l' = i_g l /\ i_gF l' = i_gF l /\ i_qz l' = i_qz l.
  Lemma same_refl : forall l, same l l.
  Proof. intros. repeat split; auto. Qed.
  Record wext w w' : Prop := mk_wext {
    we_lv : forall a l, lev w a = Some l -> exists l', lev w' a = Some l' /\ same l l';
    we_at : forall i p, iso w i = Some p -> exists p', iso w' i = Some p' /\ p_I p' = p_I p
  }.
  Lemma wext_refl : forall w, wext w w.
  Proof. intros. constructor; eauto using same_refl. Qed.
  Lemma same_trans : forall a b c, same a b -> same b c -> same a c.
  Proof.
    intros a b c [A1 [A2 [A3 [A4 [A5 [A6 [A7 [A8 [A9 A10]]]]]]]]] [B1 [B2 [B3 [B4 [B5 [B6 [B7 [B8 [B9 B10]]]]]]]]]. repeat split; try congruence.
    intros H. rewrite B7; [auto|rewrite A7; auto].
  Qed.
  Lemma wext_trans : forall a b c, wext a b -> wext b c -> wext a c.
  Proof.
    intros a b c [A1 A2] [B1 B2]. constructor.
    - intros x l V. destruct (A1 x l V) as [l1 [V1 S1]]. destruct (B1 x l1 V1) as [l2 [V2 S2]]. exists l2. split; auto. eapply same_trans; eauto.
    - intros i p V. destruct (A2 i p V) as [p1 [V1 S1]]. destruct (B2 i p1 V1) as [p2 [V2 S2]]. exists p2. split; auto. congruence.
  Qed.

  Lemma I_ext : forall w w' a l l', Good w -> wext w w' -> lev w a = Some l -> same l l' -> i_atom l <> None -> I_of w' l' = I_of w l.
  Proof.
    intros w w' a l l' G X V S A. unfold I_of. destruct S as [_ [_ [_ [_ [_ [_ [S _]]]]]]]. rewrite (S A). destruct (i_atom l) as [i|] eqn:E; [|congruence].
    pose proof (g_atom _ G a l i V E) as H. destruct (iso w i) as [p|] eqn:P; [|congruence]. destruct (we_at _ _ X i p P) as [p' [-> P']]. cbn. now rewrite P'.
  Qed.
  Lemma range_ext : forall w w' a l l', Good w -> wext w w' -> lev w a = Some l -> same l l' -> i_atom l <> None -> irange w' l' = irange w l.
  Proof.
    intros w w' a l l' G X V S A. unfold irange. rewrite (I_ext w w' a l l' G X V S A). destruct S as [-> [_ [_ [-> [-> _]]]]]. reflexivity.
  Qed.
  Lemma child_ext : forall w w' a l l' z c, wext w w' -> same l l' -> i_atom l <> None -> ichild w a l z c -> ichild w' a l' z c.
  Proof.
    intros w w' a l l' z c X S A [lc [V [K [P [J [At Z]]]]]]. destruct (we_lv _ _ X c lc V) as [lc' [V' S']]. exists lc'.
    destruct S as [S1 [S2 [S3 [S4 [S5 [S6 [S7 _]]]]]]]. destruct S' as [T1 [T2 [T3 [T4 [T5 [T6 [T7 _]]]]]]].
    rewrite S1, S4, S5, (S7 A). split; auto. repeat split; try congruence.
    - rewrite T7 by congruence. auto.
    - destruct (i_kind l); [congruence|split; destruct Z; congruence|split; destruct Z; congruence].
  Qed.
  Lemma kids_ext : forall w w' a l l', Good w -> wext w w' -> lev w a = Some l -> same l l' -> i_subs l' = i_subs l -> ikids w' a l'.
  Proof.
    intros w w' a l l' G X V S E. destruct (g_kids _ G a l V) as [K|[A K]]; [left; congruence|]. right.
    assert (A' : i_atom l' <> None) by (destruct S as [_ [_ [_ [_ [_ [_ [S _]]]]]]]; now rewrite S). split; auto.
    rewrite (range_ext w w' a l l' G X V S A), E. pose proof S as [S1 _]. rewrite S1. eapply Forall2_imp; [|exact K]. intros z kc [H1 H2]. split; auto.
    exact (child_ext w w' a l l' z (snd kc) X S A H2).
  Qed.
  Lemma par_ext : forall w w' a l l', Good w -> wext w w' -> lev w a = Some l -> same l l' -> ipar w' l'.
  Proof.
    intros w w' a l l' G X V S. pose proof (g_par _ G a l V) as P. unfold ipar in *.
    pose proof (fun A => I_ext w w' a l l' G X V S A) as EI.
    destruct S as [S1 [S2 [_ [S4 [S5 [_ [S7 [S8 [S9 _]]]]]]]]]. rewrite S1, S2.
    destruct (i_kind l); auto; destruct P as [q [lp [P1 [P2 [P3 [P4 [P5 [P6 [P7 P8]]]]]]]]];
      destruct (we_lv _ _ X q lp P2) as [lp' [V' [T1 [_ [_ [T4 [T5 [_ [T7 [T8 [T9 _]]]]]]]]]]];
      exists q, lp'; rewrite T1, (S7 P6), T7 by congruence; (repeat split; auto; try congruence).
    - intros i H. rewrite (EI P6) in H. rewrite S9, S4, S5, T8. auto.
    - destruct P8. congruence.
    - destruct P8. congruence.
  Qed.

  (** New and changed levels are checked, the others stay good. *)
  Lemma Good_step : forall w w', Good w -> wext w w' ->
    (forall a l', lev w' a = Some l' -> (exists l, lev w a = Some l /\ same l l' /\ i_subs l' = i_subs l /\ (i_atom l = None -> i_atom l' = None)) \/
       ((forall i, i_atom l' = Some i -> iso w' i <> None) /\ ikids w' a l' /\ ipar w' l')) ->
    (forall i p' k n a, iso w' i = Some p' -> dget n (nodes_of k p') = Some a ->
       (exists p, iso w i = Some p /\ dget n (nodes_of k p) = Some a) \/
       exists l, lev w' a = Some l /\ i_atom l = Some i /\ i_kind l = k /\ i_name l = n) ->
    Good w'.
  Proof.
    intros w w' G X H Hn. constructor.
    - intros a l' i V A. destruct (H a l' V) as [[l [Vl [S [_ Na]]]]|[H1 _]]; auto.
      destruct (i_atom l) as [j|] eqn:E; [|rewrite (Na eq_refl) in A; discriminate].
      assert (j = i) by (destruct S as [_ [_ [_ [_ [_ [_ [S _]]]]]]]; rewrite S in A by congruence; congruence). subst j.
      pose proof (g_atom _ G a l i Vl E) as P. destruct (iso w i) as [p|] eqn:Ep; [|congruence]. destruct (we_at _ _ X i p Ep) as [p' [-> _]]. discriminate.
    - intros a l' V. destruct (H a l' V) as [[l [Vl [S [Es _]]]]|[_ [H2 _]]]; auto. eapply kids_ext; eauto.
    - intros a l' V. destruct (H a l' V) as [[l [Vl [S [Es _]]]]|[_ [_ H2]]]; auto. eapply par_ext; eauto.
    - intros i p' k n a P D. destruct (Hn i p' k n a P D) as [[p [Pp Dp]]|K]; auto.
      destruct (g_node _ G i p k n a Pp Dp) as [l [V [A [K Nm]]]]. destruct (we_lv _ _ X a l V) as [l' [V' [S1 [_ [S3 [_ [_ [_ [S7 _]]]]]]]]].
      exists l'. repeat split; auto; try congruence. rewrite S7 by congruence. auto.
  Qed.

  (** ** Nodes *)

  (** The heap is the same and only nodes of the atom [i] differ. *)
  Record noded (i : nat) w w' : Prop := mk_noded {
    nd_lv : w_lv w' = w_lv w;
    nd_other : forall j, j <> i -> iso w' j = iso w j;
    nd_self : forall p, iso w i = Some p -> exists p', iso w' i = Some p' /\ p_I p' = p_I p /\ p_B p' = p_B p
  }.
  Lemma noded_refl : forall i w, noded i w w.
  Proof. intros. constructor; eauto. Qed.
  Lemma noded_trans : forall i a b c, noded i a b -> noded i b c -> noded i a c.
  Proof.
    intros i a b c [A1 A2 A3] [B1 B2 B3]. constructor; try congruence.
    - intros j H. rewrite B2, A2; auto.
    - intros p P. destruct (A3 p P) as [p1 [P1 [I1 F1]]]. destruct (B3 p1 P1) as [p2 [P2 [I2 F2]]]. exists p2. repeat split; congruence.
  Qed.
  Lemma noded_lev : forall i w w' a, noded i w w' -> lev w' a = lev w a.
  Proof. intros i w w' a [E _ _]. unfold lev. now rewrite E. Qed.
  Lemma noded_wext : forall i w w', noded i w w' -> wext w w'.
  Proof.
    intros i w w' H. constructor.
    - intros a l V. exists l. rewrite (noded_lev _ _ _ _ H). split; auto. apply same_refl.
    - intros j p P. destruct (Nat.eq_dec j i) as [->|Ne].
      + destruct (nd_self _ _ _ H p P) as [p' [P' [E _]]]. eauto.
      + exists p. rewrite (nd_other _ _ _ H j Ne). auto.
  Qed.

  Lemma set_node_get : forall k k' n m a p, dget m (nodes_of k (set_node N k' n a p)) =
    if match k, k' with LE, LE | LHF, LHF | LZ, LZ => true | _, _ => false end then (if keqb m n then Some a else dget m (nodes_of k p)) else dget m (nodes_of k p).
  Proof. intros [] [] n m a p; cbn [nodes_of set_node p_n0 p_n1 p_n2]; auto; apply dget_dset. Qed.

  Lemma node_good : forall w i a l, Good w -> lev w a = Some l -> i_atom l = Some i -> Good (i_node i a w) /\ noded i w (i_node i a w).
  Proof.
    intros w i a l G V A. unfold i_node. rewrite V. set (w' := on_at i _ w).
    assert (Ni : noded i w w').
    { constructor; auto.
      - intros j Ne. unfold w', iso, on_at. cbn. apply nth_error_upd_neq. auto.
      - intros p P. unfold w', iso, on_at in *. cbn. rewrite nth_error_upd_eq, P. cbn. eexists. split; [reflexivity|]. destruct (i_kind l); auto. }
    split; auto. apply (Good_step w w' G (noded_wext _ _ _ Ni)).
    - intros b lb Vb. left. rewrite (noded_lev _ _ _ _ Ni) in Vb. exists lb. repeat split; auto.
    - intros j p' k n b P D. destruct (Nat.eq_dec j i) as [->|Ne]; [|left; rewrite (nd_other _ _ _ Ni j Ne) in P; eauto].
      unfold w', iso, on_at in P. cbn in P. rewrite nth_error_upd_eq in P. fold (iso w i) in P. destruct (iso w i) as [p|] eqn:Ep; [|discriminate]. cbn in P.
      injection P as <-. rewrite set_node_get in D.
      destruct k eqn:Ek, (i_kind l) eqn:El; cbv iota in D; eauto; (destruct (keqb_spec n (i_name l)) as [->|_]; [|eauto]); injection D as <-; right; exists l; rewrite (noded_lev _ _ _ _ Ni); auto.
  Qed.
  Lemma nodes_good : forall cs w i, Good w -> (forall c, In c cs -> exists l, lev w c = Some l /\ i_atom l = Some i) ->
    Good (fold_left (fun w c => i_node i c w) cs w) /\ noded i w (fold_left (fun w c => i_node i c w) cs w).
  Proof.
    induction cs as [|c cs IH]; intros w i G H; cbn [fold_left]; [split; auto using noded_refl|].
    destruct (H c (or_introl eq_refl)) as [l [V A]]. destruct (node_good w i c l G V A) as [G1 N1].
    destruct (IH (i_node i c w) i G1) as [G2 N2].
    - intros c' I. rewrite (noded_lev _ _ _ _ N1). apply H. now right.
    - split; auto. eapply noded_trans; eauto.
  Qed.

  (** ** add_to_atom for a level that is in the atom already *)
  Lemma set_atom_id : forall w a l i, lev w a = Some l -> i_atom l = Some i -> on_lv a (set_atom (Some i)) w = w.
  Proof.
    intros w a l i V A. unfold on_lv. destruct w as [ls at_]. cbn. f_equal. unfold lev in V. cbn in V. revert a V.
    induction ls as [|x ls IH]; intros [|a] V; cbn in *; auto; try discriminate.
    - injection V as ->. f_equal. rewrite <- A. now destruct l.
    - f_equal. auto.
  Qed.
  Lemma kids_atom : forall w a l c, Good w -> lev w a = Some l -> In c (dvals (i_subs l)) -> exists lc, lev w c = Some lc /\ i_atom lc = i_atom l.
  Proof.
    intros w a l c G V I. destruct (g_kids _ G a l V) as [E|[_ F]]; [rewrite E in I; destruct I|].
    unfold dvals in I. apply in_map_iff in I as [kc [<- I]]. induction F as [|z kc' zs kcs [_ H] F IH]; [destruct I|].
    destruct I as [->|I]; [|auto]. destruct H as [lc [Vc [_ [_ [_ [Ac _]]]]]]. eauto.
  Qed.
  Lemma join_owned : forall fuel w i a l, Good w -> lev w a = Some l -> i_atom l = Some i ->
    Good (i_join fuel i a w) /\ noded i w (i_join fuel i a w).
  Proof.
    induction fuel as [|fuel IH]; intros w i a l G V A; cbn [i_join]; [split; auto using noded_refl|].
    rewrite (set_atom_id w a l i V A). destruct (node_good w i a l G V A) as [G1 N1]. rewrite (noded_lev _ _ _ _ N1), V.
    assert (H : forall cs w1, Good w1 -> noded i w w1 -> (forall c, In c cs -> exists lc, lev w c = Some lc /\ i_atom lc = Some i) ->
      Good (fold_left (fun w c => i_join fuel i c w) cs w1) /\ noded i w (fold_left (fun w c => i_join fuel i c w) cs w1)).
    { induction cs as [|c cs IHc]; intros w1 Gw Nw H; cbn [fold_left]; auto.
      destruct (H c (or_introl eq_refl)) as [lc [Vc Ac]]. destruct (IH w1 i c lc Gw) as [G2 N2]; auto; [now rewrite (noded_lev _ _ _ _ Nw)|].
      apply IHc; auto; [eapply noded_trans; eauto|]. intros c' I. apply H. now right. }
    apply H; auto. intros c I. destruct (kids_atom w a l c G V I) as [lc [Vc Ac]]. exists lc. split; auto. congruence.
  Qed.
  Lemma joins_owned : forall cs fuel w i, Good w -> (forall c, In c cs -> exists l, lev w c = Some l /\ i_atom l = Some i) ->
    Good (fold_left (fun w c => i_join fuel i c w) cs w) /\ noded i w (fold_left (fun w c => i_join fuel i c w) cs w).
  Proof.
    induction cs as [|c cs IH]; intros fuel w i G H; cbn [fold_left]; [split; auto using noded_refl|].
    destruct (H c (or_introl eq_refl)) as [l [V A]]. destruct (join_owned fuel w i c l G V A) as [G1 N1].
    destruct (IH fuel (i_join fuel i c w) i G1) as [G2 N2].
    - intros c' I. rewrite (noded_lev _ _ _ _ N1). apply H. now right.
    - split; auto. eapply noded_trans; eauto.
  Qed.

  (** ** Frames and populate_sublevels *)

  (** Only levels of the atom [j] and new levels differ; other atoms are the same. *)
  Definition frm (j : nat) w w' : Prop :=
    (forall i b l, lev w b = Some l -> i_atom l = Some i -> i <> j -> lev w' b = Some l) /\ (forall i, i <> j -> iso w' i = iso w i).
  Lemma frm_refl : forall j w, frm j w w.
  Proof. split; auto. Qed.
  Lemma frm_trans : forall j a b c, frm j a b -> frm j b c -> frm j a c.
  Proof. intros j a b c [A1 A2] [B1 B2]. split; eauto. intros i H. rewrite B2; auto. Qed.
  Lemma noded_frm : forall j w w', noded j w w' -> frm j w w'.
  Proof. intros j w w' H. split; [|apply (nd_other _ _ _ H)]. intros i b l V _ _. now rewrite (noded_lev _ _ _ _ H). Qed.

  Lemma key_inj : forall k a b, ikey k a = ikey k b -> a = b.
  Proof. intros [] a b; [apply F_key_inj|apply mF_key_inj|apply mF_key_inj]. Qed.
  Lemma irange_nodup : forall w l, NoDup (irange w l).
  Proof.
    intros w l. unfold irange. destruct (i_kind l), (I_of w l); try constructor; apply StronglySorted_NoDup; [apply F_range_sorted|apply mF_range_sorted].
  Qed.
  Lemma lev_lt : forall w a l, lev w a = Some l -> (a < List.length (w_lv w))%nat.
  Proof. intros w a l V. apply nth_error_Some. unfold lev in V. congruence. Qed.
  Lemma map_fst_combine {A B} : forall (u : list A) (v : list B), List.length u = List.length v -> map fst (combine u v) = u.
  Proof. induction u as [|x u IH]; intros [|y v] L; simpl in *; try discriminate; auto. f_equal. apply IH. lia. Qed.

  Lemma nth_error_Forall2_r {A B} (R : A -> B -> Prop) : forall u v n y, Forall2 R u v -> nth_error v n = Some y -> exists x, nth_error u n = Some x /\ R x y.
  Proof.
    intros u v n y F. revert n. induction F as [|x' y' u v H F IH]; intros [|n] E; simpl in *; try discriminate; [|auto].
    injection E as <-. eauto.
  Qed.

  Definition fresh w (a : nat) l (z : Z) lc : Prop :=
    i_kind lc = sub_kind (i_kind l) /\ i_parent lc = Some a /\ i_J lc = i_J l /\ i_atom lc = i_atom l /\ i_subs lc = [] /\ ipar w lc /\
    match i_kind l with LE => i_F lc = z | _ => i_F lc = i_F l /\ i_mF lc = z end.

  Lemma install_good : forall w a l i new, Good w -> lev w a = Some l -> i_atom l = Some i ->
    Forall2 (fresh w a l) (irange w l) new ->
    let w' := i_install a (map (ikey (i_kind l)) (irange w l)) new w in
    Good w' /\ wext w w' /\ frm i w w' /\ w_at w' = w_at w /\
    exists d, lev w' a = Some (set_isubs d l) /\ Forall2 (fun z kc => fst kc = ikey (i_kind l) z /\ ichild w' a l z (snd kc)) (irange w l) d.
  Proof.
    intros w a l i new G V A F w'.
    set (keys := map (ikey (i_kind l)) (irange w l)) in *. set (n := List.length (w_lv w)). set (d := combine keys (seq n (List.length new))).
    assert (Len : List.length (irange w l) = List.length new) by (eapply Forall2_len; eauto).
    assert (Ek : map fst d = keys) by (apply map_fst_combine; unfold keys; now rewrite map_length, seq_length).
    assert (Nd : NoDup keys) by (apply NoDup_map_inj; [apply key_inj|apply irange_nodup]).
    assert (Ed : fold_left (fun d kc => dset (fst kc) (snd kc) d) d (i_subs l) = d).
    { destruct (g_kids _ G a l V) as [E|[_ O]].
      - rewrite E. rewrite fold_dset_new; auto. now rewrite Ek.
      - apply (fold_dset_same d (i_subs l) []); [simpl; now rewrite Ek|]. rewrite Ek. unfold keys. clear - O. induction O; simpl; auto. destruct H as [-> _]. now f_equal. }
    assert (Lt : (a < n)%nat) by (eapply lev_lt; eauto).
    assert (V' : lev w' a = Some (set_isubs d l)).
    { unfold w', i_install, lev, on_lv. cbn [w_lv]. rewrite nth_error_upd_eq, nth_error_app1 by (fold n; lia). unfold lev in V. rewrite V. cbn [option_map]. fold n d. now rewrite Ed. }
    assert (Vo : forall b, (b < n)%nat -> b <> a -> lev w' b = lev w b).
    { intros b Lb Ne. unfold w', i_install, lev, on_lv. cbn [w_lv]. rewrite nth_error_upd_neq by auto. apply nth_error_app1. auto. }
    assert (Vn : forall b, (n <= b)%nat -> lev w' b = nth_error new (b - n)).
    { intros b Lb. unfold w', i_install, lev, on_lv. cbn [w_lv]. rewrite nth_error_upd_neq by lia. apply nth_error_app2. auto. }
    assert (Sm : same l (set_isubs d l)) by (repeat split; auto).
    assert (X : wext w w').
    { constructor; [|intros j p P; exists p; auto]. intros b lb Vb. destruct (Nat.eq_dec b a) as [->|Ne].
      - exists (set_isubs d l). split; auto. assert (lb = l) by congruence. now subst.
      - exists lb. rewrite Vo; auto; [split; auto; apply same_refl|eapply lev_lt; eauto]. }
    assert (Fs : Forall2 (fun z kc => fst kc = ikey (i_kind l) z /\ ichild w' a l z (snd kc)) (irange w l) d).
    { unfold d, keys. assert (H : forall zs ns m, Forall2 (fresh w a l) zs ns -> (forall j lb, nth_error ns j = Some lb -> lev w' (m + j) = Some lb) ->
        Forall2 (fun z kc => fst kc = ikey (i_kind l) z /\ ichild w' a l z (snd kc)) zs (combine (map (ikey (i_kind l)) zs) (seq m (List.length ns)))).
      { induction zs as [|z zs IH]; intros ns m H Hv; inversion H; subst; simpl; constructor.
        - simpl. split; auto. destruct H2 as [C1 [C2 [C3 [C4 [C5 [C6 C7]]]]]]. exists y. repeat split; auto. rewrite <- (Nat.add_0_r m). now apply Hv.
        - apply IH; auto. intros j lb E. replace (S m + j)%nat with (m + S j)%nat by lia. now apply Hv. }
      apply H; auto. intros j lb E. rewrite Vn by lia. replace (n + j - n)%nat with j by lia. auto. }
    split; [|split; [exact X|split; [|split; [reflexivity|exists d; auto]]]].
    - apply (Good_step w w' G X); [|intros j p' k m b P D; left; exists p'; auto].
      intros b lb Vb. destruct (Nat.lt_ge_cases b n) as [Lb|Lb]; [destruct (Nat.eq_dec b a) as [->|Ne]|].
      + right. assert (lb = set_isubs d l) by congruence. subst lb. split; [|split].
        * intros j Aj. cbn in Aj. pose proof (g_atom _ G a l j V Aj) as H. exact H.
        * right. cbn [i_atom set_isubs]. split; [congruence|]. cbn [i_subs i_kind set_isubs]. change (irange w' (set_isubs d l)) with (irange w l).
          eapply Forall2_imp; [|exact Fs]. intros z kc [H1 H2]. split; auto.
        * eapply par_ext; eauto.
      + left. exists lb. rewrite Vo in Vb by auto. repeat split; auto.
      + right. rewrite Vn in Vb by auto. destruct (nth_error_Forall2_r _ _ _ _ _ F Vb) as [z [_ [C1 [C2 [C3 [C4 [C5 [C6 C7]]]]]]]]. split; [|split].
        * intros j Aj. rewrite C4 in Aj. exact (g_atom _ G a l j V Aj).
        * left. auto.
        * unfold ipar in C6 |- *. destruct (i_kind lb); auto; destruct C6 as [q [lp [P1 [P2 [P3 [P4 [P5 [P6 [P7 P8]]]]]]]]];
            destruct (we_lv _ _ X q lp P2) as [lp' [V2 [T1 [_ [_ [T4 [T5 [_ [T7 [T8 [T9 _]]]]]]]]]]]; exists q, lp'; rewrite T1, T7 by congruence; (repeat split; auto; try congruence).
          -- intros k H. rewrite T8. apply P8. exact H.
          -- destruct P8; congruence.
          -- destruct P8; congruence.
    - split; auto. intros j b lb Vb Ab Ne. rewrite Vo; auto; [eapply lev_lt; eauto|]. intros ->. congruence.
  Qed.

  Definition filled w (a : nat) l (d : dict string nat) : Prop :=
    Forall2 (fun z kc => fst kc = ikey (i_kind l) z /\ ichild w a l z (snd kc)) (irange w l) d.
  Lemma Forall2_map_r {A B} (R : A -> B -> Prop) (g : A -> B) : forall u, (forall x, R x (g x)) -> Forall2 R u (map g u).
  Proof. induction u; simpl; constructor; auto. Qed.
  Lemma set_isubs_id : forall l, set_isubs (i_subs l) l = l.
  Proof. now intros []. Qed.

  Lemma pop_good : forall w a l i, Good w -> lev w a = Some l -> i_atom l = Some i ->
    let w' := i_populate a w in
    Good w' /\ wext w w' /\ frm i w w' /\ w_at w' = w_at w /\ exists d, lev w' a = Some (set_isubs d l) /\ filled w' a l d.
  Proof.
    intros w a l i G V A. cbv zeta.
    assert (Hi : exists s, I_of w l = Some s).
    { unfold I_of. rewrite A. pose proof (g_atom _ G a l i V A) as H. destruct (iso w i); [cbn; eauto|congruence]. }
    destruct Hi as [sp Hs].
    assert (Stay : irange w l = [] -> Good w /\ wext w w /\ frm i w w /\ w_at w = w_at w /\ exists d, lev w a = Some (set_isubs d l) /\ filled w a l d).
    { intros E. split; [exact G|]. split; [apply wext_refl|]. split; [apply frm_refl|]. split; auto. exists (i_subs l). rewrite set_isubs_id. split; auto.
      unfold filled. rewrite E. destruct (g_kids _ G a l V) as [K|[_ K]]; [rewrite K; constructor|]. now rewrite E in K. }
    assert (Inst : forall new, Forall2 (fresh w a l) (irange w l) new ->
      let w' := i_install a (map (ikey (i_kind l)) (irange w l)) new w in
      Good w' /\ wext w w' /\ frm i w w' /\ w_at w' = w_at w /\ exists d, lev w' a = Some (set_isubs d l) /\ filled w' a l d).
    { intros new F w'. destruct (install_good w a l i new G V A F) as [G' [X [Fr [At [d [V' Fd]]]]]]. split; auto. split; auto. split; auto. split; auto.
      exists d. split; auto. }
    unfold i_populate. rewrite V, Hs. destruct (i_kind l) eqn:K.
    - replace (F_range (i_J l) sp) with (irange w l) by (unfold irange; now rewrite K, Hs). apply Inst. apply Forall2_map_r. intros z.
      unfold fresh. rewrite K. cbn [new_hf i_kind i_parent i_J i_atom i_subs i_F sub_kind]. repeat split; auto.
      exists a, l. cbn [new_hf i_kind i_parent i_J i_atom i_subs i_F i_gF]. rewrite K. (repeat split; auto; try congruence).
      intros s' E. change (I_of w (new_hf N a l sp z)) with (I_of w l) in E. congruence.
    - pose proof (g_par _ G a l V) as P. unfold ipar in P. rewrite K in P. destruct P as [q [lp [P1 [P2 [P3 [P4 [P5 [P6 [P7 P8]]]]]]]]]. rewrite P1, P2.
      replace (mF_range (i_F l)) with (irange w l) by (unfold irange; now rewrite K, Hs). apply Inst. apply Forall2_map_r. intros z.
      unfold fresh. rewrite K. cbn [new_z i_kind i_parent i_J i_atom i_subs i_F i_mF sub_kind]. repeat split; auto.
      exists a, l. cbn [new_z i_kind i_parent i_J i_atom i_subs i_F i_gF]. rewrite K. repeat split; auto; try congruence.
      symmetry. rewrite (P8 sp Hs). reflexivity.
    - apply Stay. unfold irange. rewrite K. now destruct (I_of w l).
  Qed.

  Lemma filled_atom : forall w a l d c, filled w a l d -> In c (dvals d) -> exists lc, lev w c = Some lc /\ i_atom lc = i_atom l.
  Proof.
    intros w a l d c F H. unfold dvals in H. apply in_map_iff in H as [kc [<- H]]. unfold filled in F. induction F as [|z kc' zs kcs [_ C] F IH]; [destruct H|].
    destruct H as [->|H]; [|auto]. destruct C as [lc [Vc [_ [_ [_ [Ac _]]]]]]. eauto.
  Qed.
  Lemma filled_noded : forall i w w' a l d, noded i w w' -> Good w -> lev w a = Some l -> i_atom l <> None -> filled w a l d -> filled w' a l d.
  Proof.
    intros i w w' a l d H G V A F. unfold filled in *. rewrite (range_ext w w' a l l G (noded_wext _ _ _ H) V (same_refl l) A).
    eapply Forall2_imp; [|exact F]. intros z kc [H1 H2]. split; auto. exact (child_ext w w' a l l z (snd kc) (noded_wext _ _ _ H) (same_refl l) A H2).
  Qed.
  Lemma filled_subs : forall w a l d d', filled w a l d -> filled w a (set_isubs d' l) d.
  Proof. auto. Qed.

  (** [level.sublevels()] returns the levels of the nuclear spin of the level's atom. *)
  Lemma sub_good : forall w a l i, Good w -> lev w a = Some l -> i_atom l = Some i ->
    exists d w', i_sublevels a w = (Ok (dvals d), w') /\ Good w' /\ wext w w' /\ frm i w w' /\ lev w' a = Some (set_isubs d l) /\ filled w' a l d.
  Proof.
    intros w a l i G V A. unfold i_sublevels. rewrite V. destruct (i_subs l) as [|x d] eqn:Es.
    - rewrite A. destruct (pop_good w a l i G V A) as [G1 [X1 [F1 [_ [d [V1 Fd]]]]]]. rewrite V1. cbn [i_subs set_isubs].
      assert (Ha : forall c, In c (dvals d) -> exists lc, lev (i_populate a w) c = Some lc /\ i_atom lc = Some i)
        by (intros c H; rewrite <- A; eapply filled_atom; eauto).
      destruct (nodes_good (dvals d) (i_populate a w) i G1 Ha) as [G2 N2]. exists d. eexists. split; [reflexivity|]. split; auto.
      split; [eapply wext_trans; [exact X1|eapply noded_wext; eauto]|]. split; [eapply frm_trans; [exact F1|now apply noded_frm]|].
      rewrite (noded_lev _ _ _ _ N2). split; auto. apply (filled_subs _ _ (set_isubs d l) d (i_subs l)). 
      eapply filled_noded; eauto. cbn. congruence.
    - exists (x :: d), w. split; auto. split; auto. split; [apply wext_refl|]. split; [apply frm_refl|]. rewrite <- Es, set_isubs_id. split; auto.
      unfold filled. destruct (g_kids _ G a l V) as [K|[_ K]]; [congruence|]. now rewrite Es in *.
  Qed.

  (** ** add_to_atom for a level that is in no atom yet *)
  Lemma join_new : forall w i a l, Good w -> lev w a = Some l -> i_kind l = LE -> i_atom l = None -> iso w i <> None ->
    Good (i_join 3 i a w) /\ wext w (i_join 3 i a w) /\ frm i w (i_join 3 i a w) /\ lev (i_join 3 i a w) a = Some (set_atom (Some i) l).
  Proof.
    intros w i a l G V K A P.
    assert (Es : i_subs l = []) by (destruct (g_kids _ G a l V) as [E|[H _]]; [auto|congruence]).
    set (w0 := on_lv a (set_atom (Some i)) w).
    assert (V0 : lev w0 a = Some (set_atom (Some i) l)) by (unfold w0, lev, on_lv; cbn [w_lv]; rewrite nth_error_upd_eq; unfold lev in V; now rewrite V).
    assert (Vo : forall b, b <> a -> lev w0 b = lev w b) by (intros b Ne; unfold w0, lev, on_lv; cbn [w_lv]; apply nth_error_upd_neq; auto).
    assert (X : wext w w0).
    { constructor; [|intros j p Pj; exists p; auto]. intros b lb Vb. destruct (Nat.eq_dec b a) as [->|Ne].
      - assert (lb = l) by congruence. subst. eexists. split; [exact V0|]. repeat split; auto. intros H. congruence.
      - exists lb. rewrite Vo by auto. split; auto. apply same_refl. }
    assert (G0 : Good w0).
    { apply (Good_step w w0 G X); [|intros j p' k m b Pj D; left; exists p'; auto]. intros b lb Vb. destruct (Nat.eq_dec b a) as [->|Ne].
      - right. assert (lb = set_atom (Some i) l) by congruence. subst lb. split; [|split].
        + intros j E. cbn in E. injection E as <-. exact P.
        + left. exact Es.
        + unfold ipar. cbn. rewrite K. pose proof (g_par _ G a l V) as Pl. unfold ipar in Pl. now rewrite K in Pl.
      - left. exists lb. rewrite Vo in Vb by auto. repeat split; auto. }
    assert (F0 : frm i w w0).
    { split; auto. intros j b lb Vb Ab Ne. rewrite Vo; auto. intros ->. congruence. }
    cbn [i_join]. fold w0. destruct (node_good w0 i a _ G0 V0 eq_refl) as [G1 N1]. rewrite (noded_lev _ _ _ _ N1), V0. cbn [i_subs set_atom]. rewrite Es. cbn [dvals map fold_left].
    split; auto. split; [eapply wext_trans; [exact X|eapply noded_wext; eauto]|]. split; [eapply frm_trans; [exact F0|now apply noded_frm]|].
    now rewrite (noded_lev _ _ _ _ N1).
  Qed.

  Lemma set_atom_same : forall l i, i_atom l = Some i -> set_atom (Some i) l = l.
  Proof. intros [] i E. cbn in *. now subst. Qed.
  Lemma join_good : forall w i a l, Good w -> lev w a = Some l -> i_kind l = LE -> (i_atom l = None \/ i_atom l = Some i) -> iso w i <> None ->
    Good (i_join 3 i a w) /\ wext w (i_join 3 i a w) /\ frm i w (i_join 3 i a w) /\ lev (i_join 3 i a w) a = Some (set_atom (Some i) l).
  Proof.
    intros w i a l G V K [A|A] P; [now apply join_new|]. destruct (join_owned 3 w i a l G V A) as [G1 N1]. split; auto.
    split; [eapply noded_wext; eauto|]. split; [now apply noded_frm|]. rewrite (noded_lev _ _ _ _ N1), V. now rewrite set_atom_same.
  Qed.

  Lemma add_good : forall w i a l pop, Good w -> lev w a = Some l -> i_kind l = LE -> (i_atom l = None \/ i_atom l = Some i) -> iso w i <> None ->
    Good (i_add i a pop w) /\ wext w (i_add i a pop w) /\ frm i w (i_add i a pop w) /\
    exists l', lev (i_add i a pop w) a = Some l' /\ i_atom l' = Some i /\ i_kind l' = LE.
  Proof.
    intros w i a l pop G V K A P. destruct (join_good w i a l G V K A P) as [G1 [X1 [F1 V1]]]. unfold i_add. destruct pop.
    - destruct (pop_good _ a _ i G1 V1 eq_refl) as [G2 [X2 [F2 [_ [d [V2 _]]]]]].
      destruct (sub_good _ a _ i G2 V2 eq_refl) as [d3 [w3 [E3 [G3 [X3 [F3 [V3 Fd3]]]]]]]. rewrite E3.
      assert (Ha : forall c, In c (dvals d3) -> exists lc, lev w3 c = Some lc /\ i_atom lc = Some i)
        by (intros c H; destruct (filled_atom _ _ _ _ c Fd3 H) as [lc [Vc Ac]]; eauto).
      destruct (joins_owned (dvals d3) 3 w3 i G3 Ha) as [G4 N4]. split; auto.
      split; [|split].
      + eapply wext_trans; [exact X1|]. eapply wext_trans; [exact X2|]. eapply wext_trans; [exact X3|]. eapply noded_wext; eauto.
      + eapply frm_trans; [exact F1|]. eapply frm_trans; [exact F2|]. eapply frm_trans; [exact F3|]. now apply noded_frm.
      + rewrite (noded_lev _ _ _ _ N4). eexists. split; [exact V3|]. auto.
    - split; auto. split; auto. split; auto. eexists. split; [exact V1|]. auto.
  Qed.

  (** ** Programs in which every level has at most one atom *)

  (** A level is added to one atom only, and values are set on EnergyLevels. *)
  Definition allowed w (o : iop N) : Prop :=
    match o with
    | IAdd _ i a _ => exists l, lev w a = Some l /\ i_kind l = LE /\ iso w i <> None /\ (i_atom l = None \/ i_atom l = Some i)
    | ISetE _ a _ | ISetHf _ a _ _ _ => exists l, lev w a = Some l /\ i_kind l = LE
    | _ => True
    end.
  Inductive owned : world N -> Prop :=
  | own_start : owned (nothing N)
  | own_step : forall w o, owned w -> allowed w o -> owned (i_step w o).
  (** The atom an operation is about. *)
  Definition concerns w (o : iop N) : option nat :=
    match o with
    | IAtom _ _ _ | INew _ _ _ _ _ _ _ _ => None
    | IAdd _ i _ _ | ISetB _ i _ => Some i
    | ISub _ a | ISetE _ a _ | ISetHf _ a _ _ _ => match lev w a with Some l => i_atom l | None => None end
    end.

  Lemma lev_on : forall w a b f, lev (on_lv a f w) b = if Nat.eqb a b then option_map f (lev w b) else lev w b.
  Proof. intros. unfold lev, on_lv. cbn [w_lv]. apply nth_error_upd. Qed.
  Lemma iso_on : forall w i j f, iso (on_at i f w) j = if Nat.eqb i j then option_map f (iso w j) else iso w j.
  Proof. intros. unfold iso, on_at. cbn [w_at]. apply nth_error_upd. Qed.

  (** Setting a value of an EnergyLevel. *)
  Lemma set_good : forall w a l f, Good w -> lev w a = Some l ->
    (same l (f l) /\ i_atom (f l) = i_atom l /\ i_subs (f l) = i_subs l) -> Good (on_lv a f w) /\ wext w (on_lv a f w).
  Proof.
    intros w a l f G V [S [A Es]]. assert (X : wext w (on_lv a f w)).
    { constructor; [|intros j p P; exists p; auto]. intros b lb Vb. rewrite lev_on. destruct (Nat.eqb_spec a b) as [<-|Ne].
      - rewrite V. cbn. eexists. split; [reflexivity|]. assert (lb = l) by congruence. now subst.
      - exists lb. split; auto. apply same_refl. }
    split; auto. apply (Good_step w _ G X); [|intros j p' k m b P D; left; exists p'; auto]. intros b lb Vb. left. rewrite lev_on in Vb.
    destruct (Nat.eqb_spec a b) as [<-|Ne].
    - rewrite V in Vb. cbn in Vb. injection Vb as <-. exists l. split; auto. split; auto. split; auto. congruence.
    - exists lb. split; auto. split; [apply same_refl|]. auto.
  Qed.

  Lemma iso_lt : forall w i p, iso w i = Some p -> (i < List.length (w_at w))%nat.
  Proof. intros w a l V. apply nth_error_Some. unfold iso in V. congruence. Qed.
  Lemma Good_nothing : Good (nothing N).
  Proof. constructor; intros; unfold lev, iso in *; cbn in *; repeat match goal with H : nth_error [] ?x = _ |- _ => destruct x; discriminate end. Qed.

  Lemma step_good : forall w o, Good w -> allowed w o -> Good (i_step w o) /\ wext w (i_step w o).
  Proof.
    intros w o G H. destruct o as [sp B|name J E A B C g|i a pop|a|i B|a v|a A B C]; cbn [i_step].
    - assert (X : wext w (mkW N (w_lv w) (w_at w ++ [mkIso N sp B [] [] []]))).
      { constructor; [intros b lb Vb; exists lb; split; auto; apply same_refl|]. intros j p P. exists p. split; auto. unfold iso in *. cbn [w_at]. rewrite nth_error_app1; auto. eapply iso_lt; eauto. }
      split; auto. apply (Good_step w _ G X); [intros b lb Vb; left; exists lb; split; auto; split; [apply same_refl|auto]|].
      intros j p' k m b P D. unfold iso in P. cbn [w_at] in P. destruct (Nat.lt_ge_cases j (List.length (w_at w))) as [L|L].
      + left. exists p'. rewrite nth_error_app1 in P by auto. auto.
      + rewrite nth_error_app2 in P by auto. destruct (j - List.length (w_at w))%nat as [|x]; [|destruct x; discriminate]. cbn in P. injection P as <-. destruct k; discriminate.
    - set (l0 := mkI N LE None name J 0 0 None [] E A B C g _ _).
      assert (X : wext w (mkW N (w_lv w ++ [l0]) (w_at w))).
      { constructor; [|intros j p P; exists p; auto]. intros b lb Vb. exists lb. split; [|apply same_refl]. unfold lev in *. cbn [w_lv]. rewrite nth_error_app1; auto. eapply lev_lt; eauto. }
      split; auto. apply (Good_step w _ G X); [|intros j p' k m b P D; left; exists p'; auto].
      intros b lb Vb. unfold lev in Vb. cbn [w_lv] in Vb. destruct (Nat.lt_ge_cases b (List.length (w_lv w))) as [L|L].
      + left. exists lb. rewrite nth_error_app1 in Vb by auto. split; auto. split; [apply same_refl|auto].
      + right. rewrite nth_error_app2 in Vb by auto. destruct (b - List.length (w_lv w))%nat as [|x]; [|destruct x; discriminate]. cbn in Vb. injection Vb as <-.
        split; [intros j Aj; discriminate|]. split; [left; reflexivity|]. reflexivity.
    - destruct H as [l [V [K [P A]]]]. destruct (add_good w i a l pop G V K A P) as [G' [X _]]. auto.
    - unfold i_sublevels. destruct (lev w a) as [l|] eqn:V; [|split; [exact G|apply wext_refl]]. destruct (i_atom l) as [i|] eqn:A.
      + destruct (sub_good w a l i G V A) as [d [w' [E [G' [X _]]]]]. unfold i_sublevels in E. rewrite V, A in E. rewrite E. auto.
      + destruct (i_subs l); (split; [exact G|apply wext_refl]).
    - set (f := fun p => _). assert (X : wext w (on_at i f w)).
      { constructor; [intros b lb Vb; exists lb; split; auto; apply same_refl|]. intros j p P. rewrite iso_on, P. destruct (Nat.eqb i j); cbn [option_map]; eexists; split; reflexivity. }
      split; auto. apply (Good_step w _ G X); [intros b lb Vb; left; exists lb; split; auto; split; [apply same_refl|auto]|].
      intros j p' k m b P D. left. rewrite iso_on in P. destruct (Nat.eqb i j); [|eauto]. destruct (iso w j) as [p|] eqn:Ep; [|discriminate]. cbn [option_map] in P. injection P as <-.
      exists p. split; [reflexivity|]. destruct k; exact D.
    - destruct H as [l [V K]]. apply (set_good w a l _ G V). repeat split; auto.
    - destruct H as [l [V K]]. apply (set_good w a l _ G V). repeat split; auto.
  Qed.
  Lemma owned_good : forall w, owned w -> Good w.
  Proof. induction 1 as [|w o O IH A]; [apply Good_nothing|]. now apply step_good. Qed.

  Lemma Forall2_vals {B} (R S : Z -> B -> Prop) (d : list (string * B)) (k : Z -> string) : forall zs, Forall2 (fun z kc => fst kc = k z /\ R z (snd kc)) zs d ->
    (forall z c, R z c -> S z c) -> Forall2 S zs (map snd d).
  Proof. intros zs F H. induction F as [|z kc zs d [_ Hk] F IH]; simpl; constructor; auto. Qed.

  (** ** C129: the sublevels of a level are those of its own atom *)
  Theorem C129_owned : forall w, owned w -> forall a l i p, lev w a = Some l -> i_kind l = LE -> i_atom l = Some i -> iso w i = Some p ->
    exists cs w', i_sublevels a w = (Ok cs, w') /\
      Forall2 (fun F c => (exists lc, lev w' c = Some lc /\ i_kind lc = LHF /\ i_F lc = F /\ i_atom lc = Some i) /\
                 i_energyHF N w' c = Some (nadd N (i_E l) (hf_shift N (p_I p) (i_J l) F (i_hfA l) (i_hfB l) (i_hfC l))))
        (F_range (i_J l) (p_I p)) cs.
  Proof.
    intros w O a l i p V K A P. pose proof (owned_good w O) as G. destruct (sub_good w a l i G V A) as [d [w' [E [G' [X [Fr [V' F]]]]]]].
    exists (dvals d), w'. split; auto. destruct (we_at _ _ X i p P) as [p' [P' EI]].
    assert (Hr : irange w' l = F_range (i_J l) (p_I p)) by (unfold irange, I_of; rewrite K, A, P'; cbn [option_map]; now rewrite EI).
    unfold filled in F. rewrite Hr, K in F. unfold dvals. eapply Forall2_vals; [exact F|]. intros z c [lc [Vc [Kc [Pc [Jc [Ac Fc]]]]]]. rewrite K in *.
    split; [exists lc; repeat split; auto; congruence|]. unfold i_energyHF. rewrite Vc, Pc. unfold I_of. rewrite Ac, A, P'. cbn [option_map]. rewrite V'.
    unfold i_energyE. rewrite V'. cbn [option_map i_E i_hfA i_hfB i_hfC set_isubs]. now rewrite EI, Jc, Fc.
  Qed.

  Theorem C129_zeeman : forall w, owned w -> forall a l i p, lev w a = Some l -> i_kind l = LHF -> i_atom l = Some i -> iso w i = Some p ->
    exists q lq e cs w', i_parent l = Some q /\ lev w q = Some lq /\ i_energyHF N w a = Some e /\ i_sublevels a w = (Ok cs, w') /\
      Forall2 (fun m c => exists lc, lev w' c = Some lc /\ i_kind lc = LZ /\ i_mF lc = m /\ i_atom lc = Some i /\
                 i_energyZ N muB w' c = Some (nadd N e (z_shift N muB (compute_gF N (p_I p) (i_J l) (i_F l) (i_g lq)) m (p_B p) (i_qz lc))))
        (mF_range (i_F l)) cs.
  Proof.
    intros w O a l i p V K A P. pose proof (owned_good w O) as G. destruct (sub_good w a l i G V A) as [d [w' [E [G' [X [Fr [V' F]]]]]]].
    pose proof (g_par _ G a l V) as Pl. unfold ipar in Pl. rewrite K in Pl. destruct Pl as [q [lq [P1 [P2 [P3 [P4 [P5 [P6 [P7 P8]]]]]]]]].
    assert (HI : I_of w l = Some (p_I p)) by (unfold I_of; now rewrite A, P). specialize (P8 _ HI).
    assert (Ep : exists p', iso w' i = Some p' /\ p_I p' = p_I p /\ p_B p' = p_B p).
    { unfold i_sublevels in E. rewrite V in E. destruct (i_subs l) as [|x d0]; [|injection E as _ <-; eauto]. rewrite A in E.
      destruct (pop_good w a l i G V A) as [G1 [X1 [F1 [At [d1 [V1 Fd]]]]]]. rewrite V1 in E. cbn [i_subs set_isubs] in E.
      assert (Ha : forall c, In c (dvals d1) -> exists lc, lev (i_populate a w) c = Some lc /\ i_atom lc = Some i)
        by (intros c H; rewrite <- A; eapply filled_atom; eauto).
      destruct (nodes_good (dvals d1) (i_populate a w) i G1 Ha) as [G2 N2]. injection E as _ <-. apply (nd_self _ _ _ N2). unfold iso in *. now rewrite At. }
    destruct Ep as [p' [P' [EI EB]]].
    assert (Kq : i_kind lq = LE) by (destruct (i_kind lq); cbn in P3; congruence).
    assert (Vq' : lev w' q = Some lq).
    { unfold i_sublevels in E. rewrite V in E. destruct (i_subs l) as [|x d0]; [|injection E as _ <-; auto]. rewrite A in E.
      destruct (pop_good w a l i G V A) as [G1 [X1 [F1 [At [d1 [V1 Fd]]]]]]. rewrite V1 in E. cbn [i_subs set_isubs] in E.
      assert (Ha : forall c, In c (dvals d1) -> exists lc, lev (i_populate a w) c = Some lc /\ i_atom lc = Some i)
        by (intros c H; rewrite <- A; eapply filled_atom; eauto).
      destruct (nodes_good (dvals d1) (i_populate a w) i G1 Ha) as [G2 N2]. injection E as _ <-. rewrite (noded_lev _ _ _ _ N2).
      assert (Ne : q <> a) by (intros ->; congruence).
      unfold i_populate. rewrite V, K, HI, P1, P2. unfold i_install. rewrite lev_on. destruct (Nat.eqb_spec a q); [congruence|]. unfold lev. cbn [w_lv].
      rewrite nth_error_app1; auto. eapply lev_lt; eauto. }
    exists q, lq. eexists. exists (dvals d), w'. split; auto. split; auto. split; [unfold i_energyHF, i_energyE; rewrite V, P1, HI, P2; reflexivity|]. split; auto.
    assert (Hr : irange w' l = mF_range (i_F l)) by (unfold irange, I_of; now rewrite K, A, P').
    unfold filled in F. rewrite Hr, K in F. unfold dvals. eapply Forall2_vals; [exact F|]. intros z c [lc [Vc [Kc [Pc [Jc [Ac Fc]]]]]]. rewrite K in *. destruct Fc as [Fc Mc].
    exists lc. split; auto. split; auto. split; auto. split; [congruence|].
    pose proof (g_par _ G' c lc Vc) as Gc. unfold ipar in Gc. rewrite Kc in Gc. cbn [sub_kind] in Gc. destruct Gc as [a' [l' [Q1 [Q2 [_ [_ [_ [_ [_ [_ Q8]]]]]]]]]].
    assert (a' = a) by congruence. subst a'. assert (l' = set_isubs d l) by congruence. subst l'. cbn [i_gF set_isubs] in Q8.
    unfold i_energyZ. rewrite Vc, Pc. unfold B_of. rewrite Ac, A, P'. cbn [option_map]. unfold i_energyHF. rewrite V'. cbn [i_parent set_isubs]. rewrite P1.
    unfold I_of. cbn [i_atom set_isubs]. rewrite A, P'. cbn [option_map]. rewrite Vq'. unfold i_energyE. rewrite Vq'. cbn [option_map i_J i_F set_isubs].
    now rewrite EI, EB, Q8, P8, Mc.
  Qed.

  (** The graphs of an atom hold its own levels, under their names. *)
  Theorem C129_nodes : forall w, owned w -> forall i p k n a, iso w i = Some p -> dget n (nodes_of k p) = Some a ->
    exists l, lev w a = Some l /\ i_atom l = Some i /\ i_kind l = k /\ i_name l = n.
  Proof. intros w O. apply (g_node _ (owned_good w O)). Qed.

  (** An operation about another atom changes nothing of the atom [i]. *)
  Theorem C129_frame : forall w o i b l, owned w -> allowed w o -> concerns w o <> Some i -> lev w b = Some l -> i_atom l = Some i ->
    let w' := i_step w o in
    lev w' b = Some l /\ iso w' i = iso w i /\
    i_energyE N w' b = i_energyE N w b /\ i_energyHF N w' b = i_energyHF N w b /\ i_energyZ N muB w' b = i_energyZ N muB w b.
  Proof.
    intros w o i b l O Al Ne V A w'. pose proof (owned_good w O) as G.
    assert (H : (forall c lc, lev w c = Some lc -> i_atom lc = Some i -> lev w' c = Some lc) /\ iso w' i = iso w i).
    { assert (Fr : forall j w1, frm j w w1 -> j <> i -> (forall c lc, lev w c = Some lc -> i_atom lc = Some i -> lev w1 c = Some lc) /\ iso w1 i = iso w i)
        by (intros j w1 [F1 F2] Nj; split; eauto).
      assert (On : forall a0 f, (forall l0, lev w a0 = Some l0 -> i_atom l0 <> Some i) -> (forall c lc, lev w c = Some lc -> i_atom lc = Some i -> lev (on_lv a0 f w) c = Some lc) /\ iso (on_lv a0 f w) i = iso w i).
      { intros a0 f H. split; auto. intros c lc Vc Ac. rewrite lev_on. destruct (Nat.eqb_spec a0 c) as [->|_]; auto. exfalso. eapply H; eauto. }
      unfold w'. destruct o as [sp B|name J E A' B C g|j a pop|a|j B|a v|a A' B C]; cbn [i_step concerns allowed] in *.
      - split; auto. unfold iso. cbn [w_at]. apply nth_error_app1. pose proof (g_atom _ G b l i V A) as P. unfold iso in P. now apply nth_error_Some.
      - split; auto. intros c lc Vc _. unfold lev. cbn [w_lv]. rewrite nth_error_app1; auto. eapply lev_lt; eauto.
      - destruct Al as [la [Va [K [P Aa]]]]. destruct (add_good w j a la pop G Va K Aa P) as [_ [_ [F _]]]. apply (Fr j); [exact F|congruence].
      - destruct (lev w a) as [la|] eqn:Va; [|unfold i_sublevels; rewrite Va; auto]. destruct (i_atom la) as [j|] eqn:Aa.
        + destruct (sub_good w a la j G Va Aa) as [d [w1 [E [_ [_ [F _]]]]]]. rewrite E. apply (Fr j); [exact F|congruence].
        + unfold i_sublevels. rewrite Va, Aa. destruct (i_subs la); auto.
      - split; auto. rewrite iso_on. destruct (Nat.eqb_spec j i); [congruence|auto].
      - apply On. intros l0 V0. rewrite V0 in Ne. auto.
      - apply On. intros l0 V0. rewrite V0 in Ne. auto. }
    destruct H as [H P]. pose proof (H b l V A) as V'. split; auto. split; auto.
    assert (EE : forall c lc, lev w c = Some lc -> i_atom lc = Some i -> i_energyE N w' c = i_energyE N w c) by (intros c lc Vc Ac; unfold i_energyE; now rewrite Vc, (H c lc Vc Ac)).
    assert (Par : forall c lc, lev w c = Some lc -> i_atom lc = Some i -> i_parent lc = None \/ exists q lq, i_parent lc = Some q /\ lev w q = Some lq /\ i_atom lq = Some i).
    { intros c lc Vc Ac. pose proof (g_par _ G c lc Vc) as Q. unfold ipar in Q. destruct (i_kind lc); auto; right; destruct Q as [q [lq [Q1 [Q2 [_ [_ [Q5 _]]]]]]]; exists q, lq; repeat split; auto; congruence. }
    assert (EH : forall c lc, lev w c = Some lc -> i_atom lc = Some i -> i_energyHF N w' c = i_energyHF N w c).
    { intros c lc Vc Ac. unfold i_energyHF. rewrite Vc, (H c lc Vc Ac). unfold I_of. rewrite Ac, P. destruct (Par c lc Vc Ac) as [->|[q [lq [-> [Vq Aq]]]]]; auto.
      now rewrite (EE q lq Vq Aq), Vq, (H q lq Vq Aq). }
    split; [eauto|]. split; [eauto|]. unfold i_energyZ. rewrite V, V'. unfold B_of. rewrite A, P. destruct (Par b l V A) as [->|[q [lq [-> [Vq Aq]]]]]; auto.
    now rewrite (EH q lq Vq Aq).
  Qed.

  (** ** A level added to two atoms *)
  Lemma node_lev : forall i a w b, lev (i_node i a w) b = lev w b.
  Proof. intros i a w b. unfold i_node. destruct (lev w a); auto. Qed.
  Lemma join_keeps : forall n i a w b, option_map i_subs (lev (i_join n i a w) b) = option_map i_subs (lev w b) /\
    (option_map i_atom (lev w b) = Some (Some i) -> option_map i_atom (lev (i_join n i a w) b) = Some (Some i)).
  Proof.
    induction n as [|n IH]; intros i a w b; cbn [i_join]; auto. set (w1 := i_node i a _).
    assert (H1 : forall c, option_map i_subs (lev w1 c) = option_map i_subs (lev w c) /\ (option_map i_atom (lev w c) = Some (Some i) -> option_map i_atom (lev w1 c) = Some (Some i))).
    { intros c. unfold w1. rewrite node_lev, lev_on. destruct (Nat.eqb a c); auto. destruct (lev w c); cbn; auto. }
    assert (H2 : forall cs w2, option_map i_subs (lev (fold_left (fun w c => i_join n i c w) cs w2) b) = option_map i_subs (lev w2 b) /\
      (option_map i_atom (lev w2 b) = Some (Some i) -> option_map i_atom (lev (fold_left (fun w c => i_join n i c w) cs w2) b) = Some (Some i))).
    { induction cs as [|c cs IHc]; intros w2; cbn [fold_left]; auto. destruct (IHc (i_join n i c w2)) as [E1 E2]. destruct (IH i c w2 b) as [E3 E4]. split; [congruence|auto]. }
    destruct (H1 b) as [E1 E2]. destruct (lev w1 a) as [l|]; auto. destruct (H2 (dvals (i_subs l)) w1) as [E3 E4]. split; [congruence|auto].
  Qed.
  Lemma join_self : forall n i a w l, lev w a = Some l -> option_map i_atom (lev (i_join (S n) i a w) a) = Some (Some i).
  Proof.
    intros n i a w l V. cbn [i_join]. set (w1 := i_node i a _).
    assert (V1 : lev w1 a = Some (set_atom (Some i) l)) by (unfold w1; rewrite node_lev, lev_on, Nat.eqb_refl, V; reflexivity).
    rewrite V1. cbn [i_subs set_atom]. assert (H : forall cs w2, option_map i_atom (lev w2 a) = Some (Some i) -> option_map i_atom (lev (fold_left (fun w c => i_join n i c w) cs w2) a) = Some (Some i)).
    { induction cs as [|c cs IHc]; intros w2 H2; cbn [fold_left]; auto. apply IHc. now apply join_keeps. }
    apply H. now rewrite V1.
  Qed.

  (** Adding a level whose sublevels exist to a second atom with another
      nuclear spin keeps the sublevels of the first nuclear spin. *)
  Theorem C129_shared_refuted : forall w a l i j p p', owned w -> lev w a = Some l -> i_kind l = LE -> i_atom l = Some i -> i_subs l <> [] ->
    iso w i = Some p -> iso w j = Some p' -> (0 <= i_J l)%Z -> (0 <= p_I p)%Z -> (0 <= p_I p')%Z -> p_I p <> p_I p' ->
    exists l', lev (i_step w (IAdd N j a false)) a = Some l' /\ i_atom l' = Some j /\
      dkeys (i_subs l') = map F_key (F_range (i_J l) (p_I p)) /\ dkeys (i_subs l') <> map F_key (F_range (i_J l) (p_I p')).
  Proof.
    intros w a l i j p p' O V K A S P P' HJ HI HI' Ne. pose proof (owned_good w O) as G. cbn [i_step]. unfold i_add.
    destruct (join_keeps 3 j a w a) as [E1 _]. pose proof (join_self 2 j a w l V) as E2. rewrite V in E1. cbn [option_map] in E1.
    destruct (lev (i_join 3 j a w) a) as [l'|] eqn:V'; [|discriminate]. cbn [option_map] in E1, E2. injection E1 as E1. injection E2 as E2. exists l'. split; auto. split; auto.
    assert (Ks : dkeys (i_subs l') = map F_key (F_range (i_J l) (p_I p))).
    { rewrite E1. destruct (g_kids _ G a l V) as [E|[_ F]]; [congruence|]. replace (F_range (i_J l) (p_I p)) with (irange w l) by (unfold irange, I_of; now rewrite K, A, P).
      rewrite K in F. unfold dkeys. clear - F. induction F as [|z kc zs d [H _] F IH]; simpl; auto. cbn in H. now rewrite H, IH. }
    split; auto. rewrite Ks. intros E. assert (E' : F_range (i_J l) (p_I p) = F_range (i_J l) (p_I p')).
    { revert E. generalize (F_range (i_J l) (p_I p)) (F_range (i_J l) (p_I p')). induction l0 as [|x u IH]; intros [|y v] E; try discriminate; auto.
      simpl in E. assert (H := f_equal (hd EmptyString) E). cbn [hd] in H. apply F_key_inj in H. assert (H2 := f_equal (@tl string) E). cbn [tl] in H2. f_equal; auto. }
    apply Ne. assert (M : forall s1 s2 : Z, (0 <= s1 -> 0 <= s2 -> F_range (i_J l) s1 = F_range (i_J l) s2 -> s1 <= s2)%Z).
    { intros s1 s2 H1 H2 H. assert (Hin : In (i_J l + s1)%Z (F_range (i_J l) s2)) by (rewrite <- H; apply F_range_In; [lia|lia|]; unfold tri; replace (i_J l + s1 + (i_J l + s1))%Z with (2 * (i_J l + s1))%Z by lia; rewrite Z.even_mul, !andb_true_iff, !Z.leb_le; repeat split; auto; lia).
      apply F_range_In in Hin; [|lia|lia]. unfold tri in Hin. rewrite !andb_true_iff, !Z.leb_le in Hin. lia. }
    apply Z.le_antisymm; apply M; auto.
  Qed.
End Iso.

(** Two isotopes with nuclear spins 1/2 and 3/2; the first has a level with
    [J = 1/2] and its sublevels, the second a level of its own. *)
Definition one_level : list (iop Exact) :=
  [IAtom Exact 1 (Q2Qc 2); IAtom Exact 3 (Q2Qc 5); INew Exact "6s 2S1/2" 1 (Q2Qc 0) (Q2Qc 3) (Q2Qc 0) (Q2Qc 0) (Q2Qc 2); IAdd Exact 0 0 true].
Definition two_levels : list (iop Exact) :=
  one_level ++ [INew Exact "5d 2D3/2" 3 (Q2Qc 7) (Q2Qc 1) (Q2Qc 1) (Q2Qc 0) (Q2Qc 1); IAdd Exact 1 3 false; ISub Exact 3; ISub Exact 2].
Fixpoint check_run (w : world Exact) (os : list (iop Exact)) : bool :=
  match os with
  | [] => true
  | o :: os =>
      match o with
      | IAdd _ i a _ =>
          match lev w a, iso w i with
          | Some l, Some _ => match i_kind l, i_atom l with LE, None => true | LE, Some j => Nat.eqb j i | _, _ => false end
          | _, _ => false
          end
      | ISetE _ a _ | ISetHf _ a _ _ _ => match lev w a with Some l => match i_kind l with LE => true | _ => false end | None => false end
      | _ => true
      end && check_run (i_step w o) os
  end.
Lemma check_owned : forall os w, owned Exact w -> check_run w os = true -> owned Exact (i_run w os).
Proof.
  induction os as [|o os IH]; intros w O H; [exact O|]. cbn [check_run] in H. apply andb_true_iff in H as [H1 H2].
  change (i_run w (o :: os)) with (i_run (i_step w o) os). apply IH; auto. constructor; auto.
  destruct o; cbn [allowed]; auto.
  - destruct (lev w a) as [l|]; [|discriminate]. destruct (iso w i) as [p|]; [|discriminate]. destruct (i_kind l) eqn:K; try discriminate.
    exists l. split; auto. split; auto. split; [discriminate|]. destruct (i_atom l) as [j|]; auto. right. apply Nat.eqb_eq in H1. congruence.
  - destruct (lev w a) as [l|]; [|discriminate]. destruct (i_kind l) eqn:K; try discriminate. eauto.
  - destruct (lev w a) as [l|]; [|discriminate]. destruct (i_kind l) eqn:K; try discriminate. eauto.
Qed.

Example C129_case : owned Exact (i_run (nothing Exact) two_levels) /\
  option_map (fun l => (i_kind l, i_atom l, dkeys (i_subs l))) (lev (i_run (nothing Exact) two_levels) 0) = Some (LE, Some 0%nat, ["F=0"; "F=1"]) /\
  option_map (fun l => (i_kind l, i_atom l, dkeys (i_subs l))) (lev (i_run (nothing Exact) two_levels) 3) = Some (LE, Some 1%nat, ["F=0"; "F=1"; "F=2"; "F=3"]) /\
  option_map (fun l => (i_kind l, i_atom l, dkeys (i_subs l))) (lev (i_run (nothing Exact) two_levels) 2) = Some (LHF, Some 0%nat, ["mF=-1"; "mF=0"; "mF=1"]) /\
  option_map this (i_energyHF Exact (i_run (nothing Exact) two_levels) 2) = Some (3 # 4)%Q /\
  option_map this (i_energyZ Exact (Q2Qc 1) (i_run (nothing Exact) two_levels) 10) = Some (11 # 4)%Q.
Proof.
  split; [apply check_owned; [constructor|vm_compute; reflexivity]|]. repeat split; vm_compute; reflexivity.
Qed.
(** The operation on the second isotope that the frame theorem is about. *)
Example C129_frame_case : allowed Exact (i_run (nothing Exact) two_levels) (ISetE Exact 3 (Q2Qc 9)) /\
  concerns Exact (i_run (nothing Exact) two_levels) (ISetE Exact 3 (Q2Qc 9)) = Some 1%nat /\
  option_map i_atom (lev (i_run (nothing Exact) two_levels) 2) = Some (Some 0%nat).
Proof.
  assert (H : option_map i_kind (lev (i_run (nothing Exact) two_levels) 3) = Some LE) by (vm_compute; reflexivity).
  split; [|split; vm_compute; reflexivity]. cbn [allowed]. destruct (lev (i_run (nothing Exact) two_levels) 3) as [l|]; [|discriminate]. exists l. split; auto. now injection H.
Qed.

(** Adding the level of the first isotope to the second one moves the
    hyperfine sublevels that the graph of the first isotope still holds. *)
Theorem C129_energy_refuted : exists (w : world Exact) (p : isotope Exact) c, owned Exact w /\
  let w' := i_step w (IAdd Exact 1 0 false) in
  iso w 0 = Some p /\ iso w' 0 = Some p /\ dget "6s 2S1/2 F=1" (nodes_of LHF p) = Some c /\
  i_energyHF Exact w' c <> i_energyHF Exact w c.
Proof.
  set (w := i_run (nothing Exact) one_level).
  assert (O : owned Exact w) by (apply check_owned; [constructor|vm_compute; reflexivity]).
  assert (D : option_map (fun p => dget "6s 2S1/2 F=1" (nodes_of LHF p)) (iso w 0) = Some (Some 2%nat)) by (vm_compute; reflexivity).
  assert (E : option_map this (i_energyHF Exact w 2) = Some (3 # 4)%Q) by (vm_compute; reflexivity).
  assert (E' : option_map this (i_energyHF Exact (i_step w (IAdd Exact 1 0 false)) 2) = Some (- 15 # 4)%Q) by (vm_compute; reflexivity).
  assert (S : iso (i_step w (IAdd Exact 1 0 false)) 0 = iso w 0) by (vm_compute; reflexivity).
  destruct (iso w 0) as [p|] eqn:P; [|discriminate]. cbn [option_map] in D. injection D as D.
  exists w, p, 2%nat. split; auto. split; auto. split; auto. split; auto. intros H. rewrite H, E in E'. discriminate.
Qed.

Print Assumptions C129_owned.
Print Assumptions C129_frame.
Print Assumptions C129_shared_refuted.
Print Assumptions C129_energy_refuted.
