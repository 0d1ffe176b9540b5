(** C155: only differences of energies matter, in whatever unit. *)
From Coq Require Import List Bool ZArith QArith Qcanon Lia String Ascii.
From Verif Require Import Base Num PyStr Util UtilProofs Regex Parse Term TermProofs Hyperfine HyperfineProofs Graph GraphProofs Rules StrengthSums Atom AtomInv AtomSafe AtomSafe2 AtomSafe3 AtomSafe4 AtomSafe5 AtomSafe6 AtomLevels AtomKeep AtomAlias AtomPaths AtomTrans AtomEnergy AtomDecay AtomExample Views PropViews PropDecay PropFloat.
Import ListNotations.
Local Open Scope list_scope.

Section Affine.
  Context (muB : Qc) (orc : nat -> oracle).
  (** The new unit is [k] times as small as the old one, and the old origin is
      at [c] on the new scale. *)
  Context (k c : Qc) (K : (0 < k)%Qc).

  Definition aff (e : Qc) : Qc := (k * e + c)%Qc.
  Definition dil (f : Qc) : Qc := (k * f)%Qc.

  (** *** Numbers *)
  Lemma k0 : k <> 0%Qc.
  Proof. intros E. rewrite E in K. apply (Qclt_not_eq _ _ K). reflexivity. Qed.
  Lemma k_lt : forall x y, Qc_ltb (k * x) (k * y) = Qc_ltb x y.
  Proof.
    intros x y. destruct (Qc_ltb x y) eqn:E.
    - apply Qc_ltb_lt in E. apply Qc_ltb_lt. rewrite (Qcmult_comm k x), (Qcmult_comm k y). now apply Qcmult_lt_compat_r.
    - apply Qc_ltb_ge in E. apply Qc_ltb_ge. rewrite (Qcmult_comm k x), (Qcmult_comm k y). apply Qcmult_le_compat_r; auto. now apply Qclt_le_weak.
  Qed.
  Lemma k_eq : forall x y, Qc_eqb (k * x) (k * y) = Qc_eqb x y.
  Proof.
    intros x y. destruct (Qc_eqb_spec x y) as [->|D]; [apply Qc_eqb_true|]. apply Qc_eqb_false. intros E. apply D.
    apply (f_equal (fun z => / k * z)%Qc) in E.
    now rewrite !Qcmult_assoc, (Qcmult_comm (/ k) k), (Qcmult_inv_r k k0), !Qcmult_1_l in E.
  Qed.
  Lemma le_add : forall x y z : Qc, (x + z <= y + z)%Qc <-> (x <= y)%Qc.
  Proof.
    intros x y z. split; intros H; [|apply Qcplus_le_compat; auto; apply Qcle_refl].
    replace x with (x + z + - z)%Qc by ring. replace y with (y + z + - z)%Qc by ring. apply Qcplus_le_compat; auto. apply Qcle_refl.
  Qed.
  Lemma lt_add : forall x y z, Qc_ltb (x + z) (y + z) = Qc_ltb x y.
  Proof.
    intros x y z. destruct (Qc_ltb x y) eqn:E.
    - destruct (Qc_ltb (x + z) (y + z)) eqn:E'; auto. apply Qc_ltb_ge in E'. apply le_add in E'. apply Qc_ltb_ge in E'. congruence.
    - apply Qc_ltb_ge in E. apply Qc_ltb_ge. now apply le_add.
  Qed.
  Lemma aff_lt : forall x y, Qc_ltb (aff x) (aff y) = Qc_ltb x y.
  Proof. intros. unfold aff. now rewrite lt_add, k_lt. Qed.
  Lemma abs_k : forall x, Qc_abs (k * x) = (k * Qc_abs x)%Qc.
  Proof. intros x. unfold Qc_abs. rewrite <- (k_lt x 0). replace (k * 0)%Qc with 0%Qc by ring. destruct (Qc_ltb (k * x) 0); [ring|reflexivity]. Qed.
  Lemma aff_abs : forall x y, Qc_abs (aff x - aff y) = dil (Qc_abs (x - y)).
  Proof. intros. unfold dil. rewrite <- abs_k. apply f_equal. unfold aff. ring. Qed.

  (** *** The state on the new scale *)
  Implicit Types (s : st Exact) (l : level Exact) (x : trans Exact) (a t : nat).
  Definition upl l : level Exact :=
    lv_set_E ((match l_kind l with LE => aff (l_E l) | _ => l_E l end) : Exact)
      (lv_set_hf (dil (l_hfA l) : Exact) (dil (l_hfB l) : Exact) (dil (l_hfC l) : Exact) (lv_set_qz ((l_qz l / k)%Qc : Exact) l)).
  Definition upx x : trans Exact := tr_set_set (option_map dil (x_set x) : option Exact) x.
  Definition up s : st Exact := set_B (dil (s_B s) : Exact) (set_levels (map upl (s_levels s)) (set_trans (map upx (s_trans s)) s)).

  Lemma lv_up : forall s a, lv (up s) a = option_map upl (lv s a).
  Proof. intros. unfold lv, up. cbn [s_levels set_B set_levels set_trans]. apply nth_error_map. Qed.
  Lemma tr_up : forall s t, tr (up s) t = option_map upx (tr s t).
  Proof. intros. unfold tr, up. cbn [s_trans set_B set_levels set_trans]. apply nth_error_map. Qed.
  Lemma nm_up : forall s a, nm (up s) a = nm s a.
  Proof. intros. unfold nm. rewrite lv_up. destruct (lv s a); reflexivity. Qed.
  Lemma energyE_up : forall s a, energyE (up s) a = option_map aff (energyE s a).
  Proof.
    intros. unfold energyE. rewrite lv_up. destruct (lv s a) as [l|]; [|reflexivity]. cbn [option_map]. change (l_kind (upl l)) with (l_kind l).
    destruct (l_kind l) eqn:El; auto. unfold upl. cbn. now rewrite El.
  Qed.
  Lemma energyHF_up : forall s a, energyHF (up s) a = option_map aff (energyHF s a).
  Proof.
    intros. unfold energyHF. rewrite lv_up. destruct (lv s a) as [l|]; [|reflexivity]. cbn [option_map].
    change (l_parent (upl l)) with (l_parent l). change (l_J (upl l)) with (l_J l). change (l_F (upl l)) with (l_F l).
    destruct (l_parent l) as [p|], (l_J l) as [j|], (l_F l) as [f|]; auto. rewrite lv_up, energyE_up. destruct (lv s p) as [lp|]; [|reflexivity].
    cbn [option_map]. destruct (energyE s p) as [e|]; [|reflexivity]. cbn [option_map]. apply f_equal.
    change (s_I (up s)) with (s_I s). unfold hf_shift. cbn [nadd nmul Exact upl lv_set_E lv_set_hf lv_set_qz l_hfA l_hfB l_hfC].
    set (u := IdotJ _ _ _ _). set (v := FE2 _ _ _ _). set (w := FM3 _ _ _ _). clearbody u v w. change (num Exact) with Qc in *.
    assert (Al : forall e A B C u v w : Qc, (aff e + (dil A * u + dil B * v + dil C * w) = aff (e + (A * u + B * v + C * w)))%Qc) by (intros; unfold aff, dil; ring).
    apply Al.
  Qed.
  Lemma energyZ_up : forall s a, energyZ Exact muB (up s) a = option_map aff (energyZ Exact muB s a).
  Proof.
    intros. unfold energyZ. rewrite lv_up. destruct (lv s a) as [l|]; [|reflexivity]. cbn [option_map].
    change (l_parent (upl l)) with (l_parent l). change (l_mF (upl l)) with (l_mF l).
    destruct (l_parent l) as [p|], (l_mF l) as [m|]; auto. rewrite energyHF_up. destruct (energyHF s p) as [e|]; [|reflexivity]. cbn [option_map]. apply f_equal.
    unfold z_shift. change (s_B (up s)) with (dil (s_B s)). change (l_qz (upl l)) with ((l_qz l / k)%Qc). change (l_gF (upl l)) with (l_gF l).
    cbn [nadd nmul Exact]. set (h := nhalf Exact m). clearbody h. change (num Exact) with Qc in *.
    assert (Al : forall e g h b B q : Qc, (aff e + (g * h * b * dil B + q / k * (dil B * dil B)) = aff (e + (g * h * b * B + q * (B * B))))%Qc)
      by (intros; unfold aff, dil; field; apply k0).
    apply Al.
  Qed.
  Lemma energy_up : forall s a, energy Exact muB (up s) a = option_map aff (energy Exact muB s a).
  Proof.
    intros. unfold energy. rewrite lv_up. destruct (lv s a) as [l|]; [|reflexivity]. cbn [option_map]. change (l_kind (upl l)) with (l_kind l).
    destruct (l_kind l); [apply energyE_up|apply energyHF_up|apply energyZ_up].
  Qed.
  Lemma freq_up : forall s t, freq Exact muB (up s) t = option_map dil (freq Exact muB s t).
  Proof.
    intros. unfold freq. rewrite tr_up. destruct (tr s t) as [x|]; [|reflexivity]. cbn [option_map].
    change (x_E1 (upx x)) with (x_E1 x). change (x_E2 (upx x)) with (x_E2 x). rewrite !energy_up.
    destruct (energy Exact muB s (x_E1 x)), (energy Exact muB s (x_E2 x)); auto. cbn [option_map]. apply f_equal. apply aff_abs.
  Qed.

  (** *** Computations that do the same on both scales *)
  Definition eqv {A} (m m' : M Exact A) : Prop := forall s, m' (up s) = (fst (m s), up (snd (m s))).
  Lemma eqv_bind {A B} : forall (m m' : M Exact A) (f f' : A -> M Exact B), eqv m m' -> (forall r, eqv (f r) (f' r)) -> eqv (bind m f) (bind m' f').
  Proof. intros m m' f f' Hm Hf s. unfold bind. rewrite Hm. destruct (m s) as [[r|e] s1]; cbn [fst snd]; [apply Hf|reflexivity]. Qed.
  Lemma eqv_ret {A} : forall r : A, eqv (ret r) (ret r).
  Proof. intros r s. reflexivity. Qed.
  Lemma eqv_raise {A} : forall e, eqv (@raise Exact A e) (raise e).
  Proof. intros e s. reflexivity. Qed.
  Lemma eqv_modify : forall f f' : st Exact -> st Exact, (forall s, f' (up s) = up (f s)) -> eqv (modify f) (modify f').
  Proof. intros f f' H s. unfold modify. cbn [fst snd]. now rewrite H. Qed.
  Lemma eqv_asks {A} : forall e (f f' : st Exact -> option A), (forall s, f' (up s) = f s) -> eqv (asks e f) (asks e f').
  Proof. intros e f f' H s. unfold asks. rewrite H. destruct (f s); reflexivity. Qed.
  Lemma eqv_gets {A} : forall (f f' : st Exact -> A), (forall s, f' (up s) = f s) -> eqv (gets f) (gets f').
  Proof. intros f f' H s. unfold gets. now rewrite H. Qed.
  Lemma eqv_forM {A} : forall (f f' : A -> M Exact unit) (l0 : list A), (forall r, eqv (f r) (f' r)) -> eqv (forM l0 f) (forM l0 f').
  Proof. intros f f' l0 H. induction l0 as [|r l0 IH]; cbn [forM]; [apply eqv_ret|]. apply eqv_bind; auto. Qed.
  (** The result may change. *)
  Lemma eqv_asks_map {A B C} : forall e (h : A -> B) (f : st Exact -> option A) (f' : st Exact -> option B) (g : A -> M Exact C) g',
    (forall s, f' (up s) = option_map h (f s)) -> (forall r, eqv (g r) (g' (h r))) -> eqv (bind (asks e f) g) (bind (asks e f') g').
  Proof. intros e h f f' g g' H Hg s. unfold bind, asks. rewrite H. destruct (f s) as [r|]; cbn [option_map fst snd]; [apply Hg|reflexivity]. Qed.
  Lemma eqv_lv {C} : forall a (g g' : level Exact -> M Exact C), (forall l, eqv (g l) (g' (upl l))) -> eqv (bind (get_lv a) g) (bind (get_lv a) g').
  Proof. intros a g g' H. apply (eqv_asks_map Dangling upl); auto. intros s. apply lv_up. Qed.
  Lemma eqv_tr {C} : forall t (g g' : trans Exact -> M Exact C), (forall x, eqv (g x) (g' (upx x))) -> eqv (bind (get_tr t) g) (bind (get_tr t) g').
  Proof. intros t g g' H. apply (eqv_asks_map Dangling upx); auto. intros s. apply tr_up. Qed.
  Lemma eqv_energy {C} : forall e a (g g' : Qc -> M Exact C), (forall v, eqv (g v) (g' (aff v))) ->
    eqv (bind (asks e (fun s => energy Exact muB s a)) g) (bind (asks e (fun s => energy Exact muB s a)) g').
  Proof. intros e a g g' H. apply (eqv_asks_map e aff); auto. intros s. apply energy_up. Qed.
  Lemma eqv_freq {C} : forall e t (g g' : Qc -> M Exact C), (forall v, eqv (g v) (g' (dil v))) ->
    eqv (bind (asks e (fun s => freq Exact muB s t)) g) (bind (asks e (fun s => freq Exact muB s t)) g').
  Proof. intros e t g g' H. apply (eqv_asks_map e dil); auto. intros s. apply freq_up. Qed.
  Lemma eqv_same {A} : forall (m m' m'' : M Exact A), m'' = m' -> eqv m m' -> eqv m m''.
  Proof. intros; now subst. Qed.

  (** *** Updates *)
  Lemma upd_map {A} : forall (h f f' : A -> A) n (l0 : list A), (forall r, f' (h r) = h (f r)) -> upd n f' (map h l0) = map h (upd n f l0).
  Proof. intros h f f' n l0 H. revert n. induction l0 as [|r l0 IH]; intros [|n]; cbn [upd map]; auto; [now rewrite H|now rewrite IH]. Qed.
  Lemma upd_lv_up : forall a f f' s, (forall l, f' (upl l) = upl (f l)) -> upd_lv a f' (up s) = up (upd_lv a f s).
  Proof.
    intros a f f' s H. unfold upd_lv, up. cbn [s_levels set_B set_levels set_trans s_trans]. rewrite (upd_map upl f f'); auto.
  Qed.
  Lemma upd_tr_up : forall a f f' s, (forall x, f' (upx x) = upx (f x)) -> upd_tr a f' (up s) = up (upd_tr a f s).
  Proof.
    intros a f f' s H. unfold upd_tr, up. cbn [s_levels set_B set_levels set_trans s_trans]. rewrite (upd_map upx f f'); auto.
  Qed.
  Lemma set_graph_up : forall kd g s, set_graph kd g (up s) = up (set_graph kd g s).
  Proof. intros [] g s; reflexivity. Qed.
  Lemma graph_up : forall kd s, graph_of kd (up s) = graph_of kd s.
  Proof. intros [] s; reflexivity. Qed.

  (** *** The interface, one function after the other *)
  Ltac pj := repeat match goal with
    | |- context [l_kind (upl ?l)] => change (l_kind (upl l)) with (l_kind l)
    | |- context [l_parent (upl ?l)] => change (l_parent (upl l)) with (l_parent l)
    | |- context [l_term (upl ?l)] => change (l_term (upl l)) with (l_term l)
    | |- context [l_attached (upl ?l)] => change (l_attached (upl l)) with (l_attached l)
    | |- context [l_alias (upl ?l)] => change (l_alias (upl l)) with (l_alias l)
    | |- context [l_fixed (upl ?l)] => change (l_fixed (upl l)) with (l_fixed l)
    | |- context [l_subs (upl ?l)] => change (l_subs (upl l)) with (l_subs l)
    | |- context [lname (upl ?l)] => change (lname (upl l)) with (lname l)
    | |- context [lshort (upl ?l)] => change (lshort (upl l)) with (lshort l)
    | |- context [l_J (upl ?l)] => change (l_J (upl l)) with (l_J l)
    | |- context [l_F (upl ?l)] => change (l_F (upl l)) with (l_F l)
    | |- context [l_mF (upl ?l)] => change (l_mF (upl l)) with (l_mF l)
    | |- context [l_parity (upl ?l)] => change (l_parity (upl l)) with (l_parity l)
    | |- context [l_lande (upl ?l)] => change (l_lande (upl l)) with (l_lande l)
    | |- context [l_gF (upl ?l)] => change (l_gF (upl l)) with (l_gF l)
    | |- context [lead (upl ?l)] => change (lead (upl l)) with (lead l)
    | |- context [x_kind (upx ?x)] => change (x_kind (upx x)) with (x_kind x)
    | |- context [x_parent (upx ?x)] => change (x_parent (upx x)) with (x_parent x)
    | |- context [x_E1 (upx ?x)] => change (x_E1 (upx x)) with (x_E1 x)
    | |- context [x_E2 (upx ?x)] => change (x_E2 (upx x)) with (x_E2 x)
    | |- context [x_up (upx ?x)] => change (x_up (upx x)) with (x_up x)
    | |- context [x_lo (upx ?x)] => change (x_lo (upx x)) with (x_lo x)
    | |- context [x_attached (upx ?x)] => change (x_attached (upx x)) with (x_attached x)
    | |- context [x_alias (upx ?x)] => change (x_alias (upx x)) with (x_alias x)
    | |- context [x_A (upx ?x)] => change (x_A (upx x)) with (x_A x)
    | |- context [x_rel (upx ?x)] => change (x_rel (upx x)) with (x_rel x)
    | |- context [x_allowed (upx ?x)] => change (x_allowed (upx x)) with (x_allowed x)
    | |- context [x_subs (upx ?x)] => change (x_subs (upx x)) with (x_subs x)
    | |- context [x_set (upx ?x)] => change (x_set (upx x)) with (option_map dil (x_set x) : option Exact)
    end.
  Ltac simp := lazymatch goal with
    | |- eqv (bind (get_lv _) _) _ => apply eqv_lv; intro; pj
    | |- eqv (bind (get_tr _) _) _ => apply eqv_tr; intro; pj
    | |- eqv (bind (asks _ (fun s => energy Exact muB s _)) _) _ => apply eqv_energy; intro
    | |- eqv (bind (asks _ (fun s => freq Exact muB s _)) _) _ => apply eqv_freq; intro
    | |- eqv (bind _ _) _ => apply eqv_bind; [|intro]
    | |- eqv (ret _) _ => apply eqv_ret
    | |- eqv (raise _) _ => apply eqv_raise
    | |- eqv (forM _ _) _ => apply eqv_forM; intro
    | |- eqv (asks _ _) _ => apply eqv_asks; intro; try reflexivity; try apply nm_up
    | |- eqv (gets _) _ => apply eqv_gets; intro; try reflexivity
    | |- eqv (modify (upd_lv _ _)) _ => apply eqv_modify; intro; apply upd_lv_up; intro; try reflexivity
    | |- eqv (modify (upd_tr _ _)) _ => apply eqv_modify; intro; apply upd_tr_up; intro; try reflexivity
    | |- eqv (modify _) _ => apply eqv_modify; intro; try reflexivity
    | |- eqv (match ?r with _ => _ end) _ => destruct r
    end.
  Ltac go := repeat simp.

  Lemma upl_new : forall l, l_kind l <> LE -> l_hfA l = 0%Qc -> l_hfB l = 0%Qc -> l_hfC l = 0%Qc -> l_qz l = 0%Qc -> upl l = l.
  Proof.
    intros [kd p ts at_ al fx sb e A B C g gF q] H. cbn. intros -> -> -> ->. unfold upl. cbn.
    assert (dil 0 = 0%Qc) as E0 by (unfold dil; ring). assert (0 / k = 0)%Qc as E1 by (field; apply k0). rewrite E0. change (Q2Qc 0) with 0%Qc. rewrite E1.
    destruct kd; [now destruct H| |]; reflexivity.
  Qed.
  Lemma mkHF_up : forall s p l j f, upl (mkHF Exact s p l j f) = mkHF Exact (up s) p (upl l) j f.
  Proof. intros. rewrite upl_new; try reflexivity. discriminate. Qed.
  Lemma mkZ_up : forall s p l lm j f m, upl (mkZ Exact s p l lm j f m) = mkZ Exact (up s) p (upl l) (upl lm) j f m.
  Proof. intros. rewrite upl_new; try reflexivity. discriminate. Qed.
  Lemma install_up : forall a ks new new' s, new' = map upl new -> install a ks new' (up s) = up (install a ks new s).
  Proof.
    intros a ks new new' s ->. unfold install. rewrite !map_length. change (s_levels (up s)) with (map upl (s_levels s)). rewrite map_length.
    match goal with |- upd_lv a ?f _ = _ => rewrite <- (upd_lv_up a f f) by (intros l; reflexivity) end.
    f_equal. unfold up. cbn [s_levels set_B set_levels set_trans s_trans]. now rewrite map_app.
  Qed.

  Lemma new_level_up : forall ts E A B C g al b, eqv (new_level Exact ts E A B C g al b) (new_level Exact ts (aff E) (dil A) (dil B) (dil C) g al b).
  Proof.
    intros. unfold new_level. go.
    - change (s_levels (up s)) with (map upl (s_levels s)). now rewrite map_length.
    - unfold up. cbn [s_levels set_B set_levels set_trans s_trans]. rewrite map_app. cbn [map].
      assert (upl (mkLevel Exact LE None (multiterm (t :: ts)) b al false [] E A B C g (nofQ Exact 0) (nofQ Exact 0)) =
        mkLevel Exact LE None (multiterm (t :: ts)) b al false [] (aff E : Exact) (dil A : Exact) (dil B : Exact) (dil C : Exact) g (nofQ Exact 0) (nofQ Exact 0)) as ->; [|reflexivity].
      unfold upl. cbn. assert (0 / k = 0)%Qc as E1 by (field; apply k0). change (Q2Qc 0) with 0%Qc. now rewrite E1.
  Qed.
  Lemma populate_sublevels_up : forall a, eqv (populate_sublevels Exact a) (populate_sublevels Exact a).
  Proof.
    intros. unfold populate_sublevels. go.
    - change (s_I (up s)) with (s_I s). apply install_up. rewrite map_map. apply map_ext. intros f. symmetry. apply mkHF_up.
    - apply install_up. rewrite map_map. apply map_ext. intros m. symmetry. apply mkZ_up.
  Qed.
  Lemma add_node_up : forall a, eqv (add_node Exact a) (add_node Exact a).
  Proof. intros. unfold add_node. go. rewrite graph_up. apply set_graph_up. Qed.
  Lemma lazy_sublevels_up : forall a, eqv (lazy_sublevels Exact a) (lazy_sublevels Exact a).
  Proof. intros. unfold lazy_sublevels. go; auto using populate_sublevels_up, add_node_up. Qed.
  Lemma sublevels_up : forall a, eqv (sublevels Exact a) (sublevels Exact a).
  Proof. intros. unfold sublevels. go; auto using lazy_sublevels_up. Qed.
  Lemma lv_getitem_up : forall fuel a key, eqv (lv_getitem Exact fuel a key) (lv_getitem Exact fuel a key).
  Proof. induction fuel as [|fuel IH]; intros; cbn [lv_getitem]; go; auto using lazy_sublevels_up. Qed.
  Lemma getitem_up : forall a key, eqv (getitem Exact a key) (getitem Exact a key).
  Proof. intros. apply lv_getitem_up. Qed.
  Lemma set_alias_up : forall a al, eqv (set_alias Exact a al) (set_alias Exact a al).
  Proof. intros. unfold set_alias. go. Qed.
  Lemma lv_add_to_atom_up : forall fuel a, eqv (lv_add_to_atom Exact fuel a) (lv_add_to_atom Exact fuel a).
  Proof. induction fuel as [|fuel IH]; intros; cbn [lv_add_to_atom]; go; auto using add_node_up. Qed.
  Lemma add_level_up : forall a p al, eqv (add_level Exact a p al) (add_level Exact a p al).
  Proof. intros. unfold add_level. go; auto using lv_add_to_atom_up, set_alias_up, populate_sublevels_up, sublevels_up. Qed.
  Lemma del_level_up : forall key, eqv (del_level Exact key) (del_level Exact key).
  Proof. intros key s. unfold del_level. change (s_g0 (up s)) with (s_g0 s). destruct (g_remove_node key (s_g0 s)); reflexivity. Qed.
  Lemma levels_get_up : forall key, eqv (levels_get Exact key) (levels_get Exact key).
  Proof. intros. unfold levels_get, node. go; auto using getitem_up. Qed.

  Lemma with_energy_up : forall s ls, with_energy Exact muB (up s) ls = option_map (map (fun p => (aff (fst p), snd p))) (with_energy Exact muB s ls).
  Proof.
    intros s ls. induction ls as [|a ls IH]; cbn [with_energy]; auto. rewrite energy_up, IH.
    destruct (energy Exact muB s a); auto. cbn [option_map]. destruct (with_energy Exact muB s ls); auto.
  Qed.
  Lemma isort_map {A B} : forall (h : A -> B) (le : A -> A -> bool) (le' : B -> B -> bool) ls, (forall p q, le' (h p) (h q) = le p q) ->
    isort le' (map h ls) = map h (isort le ls).
  Proof.
    intros h le le' ls H. assert (I : forall p ls, insert le' (h p) (map h ls) = map h (insert le p ls)).
    { intros p ls0. induction ls0 as [|q ls0 IH]; cbn [insert map]; auto. rewrite H. destruct (le p q); cbn [map]; auto. now rewrite IH. }
    induction ls as [|p ls IH]; auto. unfold isort in *. cbn [fold_right map]. now rewrite IH, I.
  Qed.
  Lemma by_energy_up : forall s, by_energy Exact muB (up s) = by_energy Exact muB s.
  Proof.
    intros s. unfold by_energy. change (s_g0 (up s)) with (s_g0 s). rewrite with_energy_up. destruct (with_energy Exact muB s _) as [ls|]; auto. cbn [option_map].
    apply f_equal. rewrite (isort_map _ (fun p q : Exact * nat => negb (nltb Exact (fst q) (fst p)))).
    - rewrite map_map. apply map_ext. reflexivity.
    - intros p q. cbn [fst]. apply f_equal. apply aff_lt.
  Qed.
  Lemma levels_get_int_up : forall i, eqv (levels_get_int Exact muB i) (levels_get_int Exact muB i).
  Proof. intros. unfold levels_get_int. go. apply by_energy_up. Qed.

  Lemma add_edge_up : forall t, eqv (add_edge Exact t) (add_edge Exact t).
  Proof. intros. unfold add_edge. go. rewrite graph_up. apply set_graph_up. Qed.
  Lemma new_trans_up : forall kd p e1 e2 f A rel ty al, eqv (new_trans Exact muB kd p e1 e2 f A rel ty al) (new_trans Exact muB kd p e1 e2 (option_map dil f) A rel ty al).
  Proof.
    intros. unfold new_trans. do 3 simp. change (nltb Exact) with Qc_ltb. rewrite !aff_lt. go; auto using add_edge_up.
    - change (s_trans (up s)) with (map upx (s_trans s)). now rewrite map_length.
    - unfold up. cbn [s_levels set_B set_levels set_trans s_trans]. now rewrite map_app.
  Qed.
  Lemma new_transition_up : forall e1 e2 f A al, eqv (new_transition Exact muB e1 e2 f A al) (new_transition Exact muB e1 e2 (option_map dil f) A al).
  Proof. intros. unfold new_transition. go; auto using new_trans_up. Qed.
  Lemma new_HF_up : forall t a b, eqv (new_HF Exact muB t a b) (new_HF Exact muB t a b).
  Proof. intros. unfold new_HF. go; apply new_trans_up with (f := None). Qed.
  Lemma new_Z_up : forall t a b, eqv (new_Z Exact muB t a b) (new_Z Exact muB t a b).
  Proof. intros. unfold new_Z. go; apply new_trans_up with (f := None). Qed.
  Lemma new_sub_up : forall t ab, eqv (new_sub Exact muB t ab) (new_sub Exact muB t ab).
  Proof. intros. unfold new_sub. go; auto using new_HF_up, new_Z_up. Qed.
  Lemma pair_filter_up : forall s x ab, pair_filter Exact (up s) (upx x) ab = pair_filter Exact s x ab.
  Proof. intros s x [a b]. unfold pair_filter. cbn [fst snd]. rewrite !lv_up. destruct (lv s a) as [la|], (lv s b) as [lb|]; auto. Qed.
  Lemma populate_sub_up : forall t, eqv (populate_subtransitions Exact muB t) (populate_subtransitions Exact muB t).
  Proof.
    intros. unfold populate_subtransitions. go; auto using sublevels_up, new_sub_up; apply filter_ext; intros ab; apply pair_filter_up.
  Qed.
  Lemma tr_add_up : forall t, eqv (tr_add_to_atom Exact t) (tr_add_to_atom Exact t).
  Proof. intros. unfold tr_add_to_atom. go; auto using add_edge_up. Qed.
  Lemma tr_join_up : forall b t, eqv (tr_join Exact b t) (tr_join Exact b t).
  Proof. intros. unfold tr_join. go; auto using tr_add_up. Qed.
  Lemma lazy_subtr_up : forall t, eqv (lazy_subtransitions Exact muB t) (lazy_subtransitions Exact muB t).
  Proof. intros. unfold lazy_subtransitions. go; auto using sublevels_up, populate_sub_up, tr_join_up. Qed.
  Lemma subtransitions_up : forall t, eqv (subtransitions Exact muB t) (subtransitions Exact muB t).
  Proof. intros. unfold subtransitions. go; auto using lazy_subtr_up. Qed.
  Lemma tr_getitem_up : forall t key, eqv (tr_getitem Exact muB t key) (tr_getitem Exact muB t key).
  Proof. intros. unfold tr_getitem. go; auto using lazy_subtr_up. Qed.
  Lemma tr_alias_up : forall t al, eqv (tr_alias Exact t al) (tr_alias Exact t al).
  Proof. intros. unfold tr_alias. go. Qed.

  Lemma is_set_up : forall s t, is_set (up s) t = is_set s t.
  Proof. intros. unfold is_set. rewrite tr_up. destruct (tr s t) as [x|]; auto. cbn [option_map]. pj. destruct (x_set x); reflexivity. Qed.
  Lemma set_nbrs_up : forall s u, set_nbrs (up s) u = set_nbrs s u.
  Proof. intros. unfold set_nbrs. change (s_g0 (up s)) with (s_g0 s). apply f_equal. apply filter_ext. intros vt. apply is_set_up. Qed.
  Lemma set_nodes_up : forall s, set_nodes (up s) = set_nodes s.
  Proof. intros. unfold set_nodes. change (s_g0 (up s)) with (s_g0 s). apply filter_ext. intros u. now rewrite set_nbrs_up. Qed.
  Lemma touched_up : forall s cc from, touched (up s) cc from = touched s cc from.
  Proof. intros s cc [[u v]|]; auto. unfold touched. now rewrite set_nbrs_up. Qed.
  Lemma lowest_up : forall s ns cur, lowest Exact muB (up s) ns cur = lowest Exact muB s ns cur.
  Proof.
    intros s ns. induction ns as [|n ns IH]; intros cur; cbn [lowest]; auto. change (s_g0 (up s)) with (s_g0 s).
    destruct cur as [[[a|] key]|]; auto. destruct (match dget n (g_nodes (s_g0 s)) with Some o => o | None => None end) as [b|]; auto. rewrite !energy_up.
    destruct (energy Exact muB s b) as [eb|], (energy Exact muB s a) as [ea|]; auto. cbn [option_map]. change (nltb Exact) with Qc_ltb. rewrite aff_lt. auto.
  Qed.
  Lemma dfs_ext : forall (f g : string -> list string), (forall u, f u = g u) -> forall fuel u vis, dfs fuel f u vis = dfs fuel g u vis.
  Proof.
    intros f g H fuel. induction fuel as [|fuel IH]; intros u vis; cbn [dfs]; auto. rewrite H. generalize (g u) vis. intros cs.
    induction cs as [|v cs IC]; intros vis'; auto. destruct (mem v vis'); auto. rewrite IH. destruct (dfs fuel g v (v :: vis')) as [[es v1]|]; auto. now rewrite IC.
  Qed.
  Lemma components_ext : forall (f g : string -> list string), (forall u, f u = g u) -> forall fuel ns seen, components fuel f ns seen = components fuel g ns seen.
  Proof.
    intros f g H fuel ns. induction ns as [|n ns IH]; intros seen; cbn [components]; auto. rewrite IH, (dfs_ext f g H). destruct (mem n seen); auto.
    destruct (dfs fuel g n [n]) as [[es cc]|]; auto. now rewrite IH.
  Qed.

  Lemma upd_at {A} : forall (h f f' : A -> A) n (l0 : list A), (forall r, nth_error l0 n = Some r -> f' (h r) = h (f r)) -> upd n f' (map h l0) = map h (upd n f l0).
  Proof. intros h f f' n l0. revert n. induction l0 as [|r l0 IH]; intros [|n] H; cbn [upd map]; auto; [now rewrite (H r eq_refl)|now rewrite IH]. Qed.
  Lemma set_E_up : forall s a e v, energyE s a = Some e -> upd_lv a (lv_set_E (aff v : Exact)) (up s) = up (upd_lv a (lv_set_E (v : Exact)) s).
  Proof.
    intros s a e v H. unfold upd_lv, up. cbn [s_levels set_B set_levels set_trans s_trans]. rewrite (upd_at upl (lv_set_E (v : Exact))); auto.
    intros l E. unfold energyE, lv in H. rewrite E in H. unfold upl. cbn. destruct (l_kind l); [reflexivity|discriminate H|discriminate H].
  Qed.
  Lemma set_energyHF_up : forall a v, eqv (set_energyHF Exact a v) (set_energyHF Exact a (aff v)).
  Proof.
    intros. unfold set_energyHF, set_energyE. simp. apply (eqv_asks_map Dangling aff); [intros; apply energyHF_up|]. intros e. simp; [simp|].
    intros s. unfold bind, asks. rewrite energyE_up. destruct (energyE s r) as [ep|] eqn:Ep; [|reflexivity]. cbn [option_map]. unfold modify. cbn [fst snd].
    rewrite <- (set_E_up s r ep _ Ep). cbn [nadd nsub Exact].
    assert (Al : forall p v e : Qc, (aff p + (aff v - aff e) = aff (p + (v - e)))%Qc) by (intros; unfold aff; ring). now rewrite Al.
  Qed.
  Lemma set_energyZ_up : forall a v, eqv (set_energyZ Exact muB a v) (set_energyZ Exact muB a (aff v)).
  Proof.
    intros. unfold set_energyZ. simp. apply (eqv_asks_map Dangling aff); [intros; apply energyZ_up|]. intros e. simp; [simp|].
    apply (eqv_asks_map Dangling aff); [intros; apply energyHF_up|]. intros ep. cbn [nadd nsub Exact]. change (num Exact) with Qc in *.
    assert (Al : forall p v e : Qc, (aff p + (aff v - aff e) = aff (p + (v - e)))%Qc) by (intros; unfold aff; ring). rewrite Al. apply set_energyHF_up.
  Qed.
  Lemma set_energy_up : forall a v, eqv (set_energy Exact muB a v) (set_energy Exact muB a (aff v)).
  Proof.
    intros a v s. unfold set_energy. unfold bind, get_lv, asks. rewrite lv_up. destruct (lv s a) as [l|] eqn:El; [|reflexivity]. cbn [option_map]. pj.
    destruct (l_kind l) eqn:Kl; [|apply set_energyHF_up|apply set_energyZ_up].
    unfold set_energyE, modify. cbn [fst snd]. now rewrite (set_E_up s a (l_E l) v) by (unfold energyE; now rewrite El, Kl).
  Qed.

  Lemma enforce_edge_up : forall uv, eqv (enforce_edge Exact uv) (enforce_edge Exact uv).
  Proof.
    intros. unfold enforce_edge. simp; [simp|]. simp. apply (eqv_asks_map Dangling dil); [reflexivity|]. intros f. do 2 simp.
    intros s. unfold bind, asks. rewrite energyE_up. destruct (energyE s (x_lo x)) as [el|] eqn:El; [|reflexivity]. cbn [option_map]. rewrite energyE_up.
    destruct (energyE s (x_up x)) as [eu|] eqn:Eu; [|reflexivity]. cbn [option_map]. unfold set_energyE, bind, modify. cbn [neqb nabs nsub nadd Exact].
    rewrite aff_abs. change (dil f) with (k * f)%Qc at 1. change (dil (Qc_abs (el - eu))) with (k * Qc_abs (el - eu))%Qc. rewrite k_eq.
    assert (Al : forall e f : Qc, (aff e - dil f = aff (e - f))%Qc) by (intros; unfold aff, dil; ring).
    assert (Ar : forall e f : Qc, (aff e + dil f = aff (e + f))%Qc) by (intros; unfold aff, dil; ring).
    destruct (_ && _ && _); [|destruct (l_fixed _)]; cbn [fst snd].
    - change (add_warn (WLoop (fst uv) (snd uv)) (up s)) with (up (add_warn (WLoop (fst uv) (snd uv)) s)).
      now rewrite !(upd_lv_up _ (lv_set_fixed true) (lv_set_fixed true)) by reflexivity.
    - f_equal. rewrite Al, (set_E_up s _ el _ El).  now rewrite !(upd_lv_up _ (lv_set_fixed true) (lv_set_fixed true)) by reflexivity.
    - f_equal. rewrite Ar, (set_E_up s _ eu _ Eu).  now rewrite !(upd_lv_up _ (lv_set_fixed true) (lv_set_fixed true)) by reflexivity.
  Qed.
  Lemma enforce_comp_up : forall o fuel cc, eqv (enforce_comp Exact muB o fuel cc) (enforce_comp Exact muB o fuel cc).
  Proof.
    intros. unfold enforce_comp. go; auto using enforce_edge_up; [apply lowest_up|].
    unfold dfs_edges. erewrite dfs_ext; [reflexivity|]. intros u. cbn beta. now rewrite set_nbrs_up.
  Qed.
  Lemma enforce_up : forall from, eqv (enforce Exact muB orc from) (enforce Exact muB orc from).
  Proof.
    intros. unfold enforce. go; auto using enforce_comp_up; [now rewrite set_nodes_up| |apply touched_up].
    rewrite set_nodes_up. apply components_ext. intros u. apply set_nbrs_up.
  Qed.
  Lemma set_freqT_up : forall t f, eqv (set_freqT Exact muB orc t f) (set_freqT Exact muB orc t (dil f)).
  Proof.
    intros. unfold set_freqT. do 3 simp.
    assert (E : match (option_map dil (x_set x) : option Exact) with Some g => negb (neqb Exact g (nofQ Exact 0)) | None => false end =
      match x_set x with Some g => negb (neqb Exact g (nofQ Exact 0)) | None => false end).
    { destruct (x_set x) as [g|]; auto. cbn [option_map]. apply f_equal. cbn [neqb nofQ Exact]. change (Q2Qc 0) with 0%Qc.
      replace 0%Qc with (k * 0)%Qc at 1 by ring. apply k_eq. }
    rewrite E. go; auto using enforce_up.
  Qed.
  Lemma dil_move : forall p v e : Qc, (dil p + (dil v - dil e) = dil (p + (v - e)))%Qc.
  Proof. intros. unfold dil. ring. Qed.
  Lemma set_freqHF_up : forall t f, eqv (set_freqHF Exact muB orc t f) (set_freqHF Exact muB orc t (dil f)).
  Proof.
    intros. unfold set_freqHF. do 3 simp; [simp|]. simp. cbn [nadd nsub Exact]. rewrite dil_move. apply set_freqT_up.
  Qed.
  Lemma set_freqZ_up : forall t f, eqv (set_freqZ Exact muB orc t f) (set_freqZ Exact muB orc t (dil f)).
  Proof.
    intros. unfold set_freqZ. do 3 simp; [simp|]. simp. cbn [nadd nsub Exact]. rewrite dil_move. apply set_freqHF_up.
  Qed.
  Lemma set_frequency_up : forall t f, eqv (set_frequency Exact muB orc t f) (set_frequency Exact muB orc t (dil f)).
  Proof. intros. unfold set_frequency. go; auto using set_freqT_up, set_freqHF_up, set_freqZ_up. Qed.
  Lemma levels_get_key_up : forall key, eqv (levels_get_key Exact muB key) (levels_get_key Exact muB key).
  Proof. intros [key|i]; cbn [levels_get_key]; auto using levels_get_up, levels_get_int_up. Qed.
  Lemma transitions_get_up : forall key, eqv (transitions_get Exact muB key) (transitions_get Exact muB key).
  Proof.
    intros. unfold transitions_get. simp; [apply levels_get_key_up|]. do 2 simp; [apply levels_get_key_up|]. simp.
    change (nltb Exact) with Qc_ltb. rewrite aff_lt. unfold edge_at, node. cbv zeta. go; auto using tr_getitem_up.
  Qed.
  Lemma transitions_get_str_up : forall key, eqv (transitions_get_str Exact muB key) (transitions_get_str Exact muB key).
  Proof. intros. unfold transitions_get_str. go; auto using levels_get_up, transitions_get_up. Qed.
  Lemma add_transition_up : forall sp f A al, eqv (add_transition Exact muB orc sp f A al) (add_transition Exact muB orc sp (option_map dil f) A al).
  Proof.
    intros. unfold add_transition. simp.
    - go; auto using transitions_get_up, levels_get_up, new_transition_up.
    - simp; [apply tr_add_up|]. do 2 simp; [go|]. simp; [|go]. destruct (x_set x); cbn [option_map]; auto using enforce_up; go.
  Qed.
  Lemma linked_up : forall fuel key, eqv (linked_levels Exact muB fuel key) (linked_levels Exact muB fuel key).
  Proof.
    induction fuel as [|fuel IH]; intros; cbn [linked_levels]; go; auto using levels_get_up, populate_sub_up.
  Qed.
  Lemma sum_A_up : forall s a ts tot, sum_A Exact (up s) a ts tot = sum_A Exact s a ts tot.
  Proof.
    intros s a ts. induction ts as [|t ts IH]; intros tot; cbn [sum_A]; auto. rewrite tr_up. destruct (tr s t) as [x|]; auto. cbn [option_map]. pj.
    destruct (Nat.eqb (x_up x) a); auto. destruct (x_A x); auto.
  Qed.
  Lemma A_coeffs_up : forall s key d, A_coeffs Exact (up s) key d = A_coeffs Exact s key d.
  Proof.
    intros s key d. induction d as [|[n t] d IH]; cbn [A_coeffs]; auto. rewrite tr_up. destruct (tr s t) as [x|]; auto. cbn [option_map]. pj. rewrite nm_up, IH. reflexivity.
  Qed.
  Lemma total_rate_up : forall key, eqv (total_rate Exact muB key) (total_rate Exact muB key).
  Proof. intros. unfold total_rate. simp; [apply linked_up|]. simp; [apply levels_get_up|]. intros s. cbn [fst snd]. now rewrite sum_A_up. Qed.
  Lemma branching_up : forall key, eqv (branching Exact muB key) (branching Exact muB key).
  Proof. intros. unfold branching. simp; [apply linked_up|]. intros s. cbn [fst snd]. now rewrite A_coeffs_up. Qed.
  Lemma with_J_up : forall s j, with_J Exact (up s) j = with_J Exact s j.
  Proof. intros. unfold with_J. change (s_g0 (up s)) with (s_g0 s). apply filter_ext. intros a. rewrite lv_up. destruct (lv s a); reflexivity. Qed.
  Lemma level_pairs_up : forall s d, level_pairs Exact (up s) d = level_pairs Exact s d.
  Proof. intros. unfold level_pairs. apply flat_map_ext. intros j. now rewrite !with_J_up. Qed.
  Lemma populate_transitions_up : forall al, eqv (populate_transitions Exact muB al) (populate_transitions Exact muB al).
  Proof. intros. unfold populate_transitions, populate_pair. go; auto using transitions_get_up. apply level_pairs_up. Qed.
  Lemma populate_internal_up : eqv (populate_internal Exact muB) (populate_internal Exact muB).
  Proof. unfold populate_internal. go; auto using tr_add_up. apply new_transition_up with (f := None). Qed.

  (** ** Histories *)

  (** The same use of the interface with its numbers on the new scale.  A
      coefficients and g-values are not energies. *)
  Definition rescaled (o : op Exact) : op Exact :=
    match o with
    | ONewLevel _ ts E A B C g al b => ONewLevel Exact ts (aff E) (dil A) (dil B) (dil C) g al b
    | OSetLevel _ a v => OSetLevel Exact a (aff v)
    | OSetHf _ a A B C => OSetHf Exact a (dil A) (dil B) (dil C)
    | OSetQz _ a q => OSetQz Exact a (q / k)%Qc
    | OSetB _ b => OSetB Exact (dil b)
    | ONewTransition _ e1 e2 f A al => ONewTransition Exact e1 e2 (option_map dil f) A al
    | OAddTransition _ sp f A al => OAddTransition Exact sp (option_map dil f) A al
    | OSetFreq _ t f => OSetFreq Exact t (dil f)
    | _ => o
    end.
  Lemma run_op_up : forall o, eqv (run_op Exact muB orc o) (run_op Exact muB orc (rescaled o)).
  Proof.
    assert (V : forall A (m m' : M Exact A), eqv m m' -> eqv (void Exact m) (void Exact m')) by (intros; unfold void; apply eqv_bind; auto; intros; apply eqv_ret).
    intros []; cbn [run_op rescaled]; try apply V; auto using new_level_up, add_level_up, del_level_up, levels_get_up, levels_get_int_up, getitem_up, sublevels_up,
      set_alias_up, set_energy_up, new_transition_up, add_transition_up, transitions_get_up, transitions_get_str_up, tr_getitem_up, subtransitions_up, tr_alias_up,
      set_frequency_up, enforce_up, linked_up, total_rate_up, branching_up, populate_transitions_up, populate_internal_up; simp.
  Qed.
  Lemma run_up : forall os s, run Exact muB orc (up s) (map rescaled os) = up (run Exact muB orc s os).
  Proof.
    intros os. induction os as [|o os IH]; intros s; auto. unfold run in *. cbn [map fold_left]. rewrite <- IH. f_equal.
    unfold step. now rewrite run_op_up.
  Qed.
End Affine.

(** Write the energies of an atom in a unit that is 1/k of the old one and
    from another origin, and the field, the quadratic shifts, the hyperfine
    constants and the frequencies to match.  Then any sequence of uses of the
    interface does the same things: the same calls fail with the same
    exceptions, energies and frequencies are the old ones on the new scale,
    names, aliases, links, warnings and A coefficients are the same, and so are
    rates and branching ratios. *)
Theorem C155_scale : forall muB orc (k c : Qc), (0 < k)%Qc -> forall i B os,
  let s := run Exact muB orc (init Exact i B) os in
  let s' := run Exact muB orc (init Exact i (k * B)%Qc) (map (rescaled k c) os) in
  (forall a, energy Exact muB s' a = option_map (fun e => k * e + c)%Qc (energy Exact muB s a)) /\
  (forall t, freq Exact muB s' t = option_map (fun f => k * f)%Qc (freq Exact muB s t)) /\
  (forall o, fst (run_op Exact muB orc (rescaled k c o) s') = fst (run_op Exact muB orc o s)) /\
  (forall key, fst (levels_get Exact key s') = fst (levels_get Exact key s)) /\
  (forall n, fst (levels_get_int Exact muB n s') = fst (levels_get_int Exact muB n s)) /\
  (forall key, fst (transitions_get Exact muB key s') = fst (transitions_get Exact muB key s)) /\
  (forall key, fst (linked_levels Exact muB 3 key s') = fst (linked_levels Exact muB 3 key s)) /\
  (forall key, fst (total_rate Exact muB key s') = fst (total_rate Exact muB key s)) /\
  (forall key, fst (branching Exact muB key s') = fst (branching Exact muB key s)) /\
  (forall a, nm s' a = nm s a) /\ (forall kd, graph_of kd s' = graph_of kd s) /\ s_lal s' = s_lal s /\ s_tal s' = s_tal s /\ s_warn s' = s_warn s /\
  (forall t, option_map (fun x => (x_up x, x_lo x, x_A x, x_alias x, x_subs x)) (tr s' t) = option_map (fun x => (x_up x, x_lo x, x_A x, x_alias x, x_subs x)) (tr s t)).
Proof.
  intros muB orc k c K i B os s s'. assert (E : s' = up k c s) by exact (run_up muB orc k c K os (init Exact i B)). rewrite E. clearbody s. clear E s'.
  split; [intros; now apply energy_up|]. split; [intros; now apply freq_up|].
  split; [intros o; now rewrite (run_op_up muB orc k c K)|]. split; [intros key; now rewrite (levels_get_up k c K)|].
  split; [intros n; now rewrite (levels_get_int_up muB k c K)|]. split; [intros key; now rewrite (transitions_get_up muB k c K)|].
  split; [intros key; now rewrite (linked_up muB k c K)|]. split; [intros key; now rewrite (total_rate_up muB k c K)|].
  split; [intros key; now rewrite (branching_up muB k c K)|]. split; [intros; apply nm_up|]. split; [intros []; reflexivity|]. do 3 (split; [reflexivity|]).
  intros t. rewrite tr_up. destruct (tr s t); reflexivity.
Qed.
Print Assumptions C155_scale.

(** The same history with every energy counted from an origin that lies [c]
    lower. *)
Definition raised (c : Qc) (o : op Exact) : op Exact :=
  match o with
  | ONewLevel _ ts E A B C g al b => ONewLevel Exact ts (E + c)%Qc A B C g al b
  | OSetLevel _ a v => OSetLevel Exact a (v + c)%Qc
  | _ => o
  end.
Theorem C155_origin : forall muB orc (c : Qc) i B os,
  let s := run Exact muB orc (init Exact i B) os in let s' := run Exact muB orc (init Exact i B) (map (raised c) os) in
  (forall a, energy Exact muB s' a = option_map (fun e => e + c)%Qc (energy Exact muB s a)) /\
  (forall t, freq Exact muB s' t = freq Exact muB s t) /\
  (forall o, fst (run_op Exact muB orc (raised c o) s') = fst (run_op Exact muB orc o s)) /\
  (forall key, fst (levels_get Exact key s') = fst (levels_get Exact key s)) /\
  (forall n, fst (levels_get_int Exact muB n s') = fst (levels_get_int Exact muB n s)) /\
  (forall key, fst (transitions_get Exact muB key s') = fst (transitions_get Exact muB key s)) /\
  (forall t, tr s' t = tr s t) /\ s_warn s' = s_warn s.
Proof.
  assert (D : forall q, dil 1 q = q) by (intros; unfold dil; ring). assert (Q : forall q : Qc, (q / 1 = q)%Qc) by (intros; field; discriminate).
  assert (F : forall c q, aff 1 c q = (q + c)%Qc) by (intros; unfold aff; ring). assert (O : forall q, option_map (dil 1) q = q) by (intros [q|]; cbn; auto; now rewrite D).
  assert (R : forall c o, raised c o = rescaled 1 c o) by (intros c []; cbn [raised rescaled]; auto; now rewrite ?D, ?Q, ?F, ?O).
  intros muB orc c i B os s s'. assert (K : (0 < 1)%Qc) by reflexivity. destruct (C155_scale muB orc 1 c K i B os) as [H1 [H2 [H3 [H4 [H5 [H6 _]]]]]].
  assert (E : s' = up 1 c s).
  { unfold s'. rewrite (map_ext _ _ (R c)). unfold s. rewrite <- (run_up muB orc 1 c K os (init Exact i B)). apply (f_equal (fun z => run Exact muB orc z _)). unfold up, init. cbn. now rewrite D. }
  rewrite E. clearbody s. clear E s' H1 H2 H3 H4 H5 H6.
  split; [intros a; rewrite (energy_up muB 1 c K); destruct (energy Exact muB s a); cbn; auto; now rewrite F|].
  split; [intros t; rewrite (freq_up muB 1 c K); apply O|].
  split; [intros o; rewrite R; now rewrite (run_op_up muB orc 1 c K)|]. split; [intros key; now rewrite (levels_get_up 1 c K)|].
  split; [intros n; now rewrite (levels_get_int_up muB 1 c K)|]. split; [intros key; now rewrite (transitions_get_up muB 1 c K)|]. split; [|reflexivity].
  intros t. rewrite tr_up. destruct (tr s t) as [[]|]; auto. unfold upx, tr_set_set. cbn. now rewrite O.
Qed.
Print Assumptions C155_origin.

(** A history with a line whose frequency is set and a field: energies and
    frequencies on the two scales. *)
Definition measured : list (op Exact) :=
  os_two ++ [OSetB Exact (Q2Qc 3); ONewTransition Exact 0 1 None None None; OSetHf Exact 0 (Q2Qc 4) 0 0; OSubtransitions Exact 0; OSetFreq Exact 1 (Q2Qc 20)].
Example C155_case : (0 < Q2Qc (1 # 2))%Qc /\
  (let s := runx (from 1) measured in let s' := runx (init Exact 1 (Q2Qc (1 # 2) * 0)%Qc) (map (rescaled (Q2Qc (1 # 2)) (Q2Qc 7)) measured) in
   map (energy Exact 1 s) [0; 1; 2; 3]%nat = map (fun q => Some (Q2Qc q)) [0; 17; -3; 1]%Q /\ map (freq Exact 1 s) [0; 1]%nat = map (fun q => Some (Q2Qc q)) [17; 20]%Q /\
   map (energy Exact 1 s') [0; 1; 2; 3]%nat = map (fun q => Some (Q2Qc q)) [7; 31 # 2; 11 # 2; 15 # 2]%Q /\ map (freq Exact 1 s') [0; 1]%nat = map (fun q => Some (Q2Qc q)) [17 # 2; 10]%Q).
Proof. split; [reflexivity|]. cbv zeta. do 3 (split; [vm_compute; reflexivity|]). vm_compute; reflexivity. Qed.

(** In doubles the origin does matter: from one that lies 2^53 lower, levels 1
    apart are at the same energy. *)
Example C155_doubles :
  let s e0 e1 := runf fromf [nlf tS e0; addf 0; nlf tP e1; addf 1; ONewTransition Binary64 0 1 None None None] in
  freqf (s 0 1)%Q 0%nat = Some (f_ofZ 1) /\ freqf (s 9007199254740992 9007199254740993)%Q 0%nat = Some (f_ofZ 0).
Proof. cbv zeta. split; vm_compute; reflexivity. Qed.
