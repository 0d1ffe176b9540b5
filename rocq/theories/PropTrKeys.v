(** Property C130: lines are looked up in an atom under the names of their
    levels. *)
From Coq Require Import List Bool ZArith QArith Qcanon Lia String Ascii Permutation Sorted.
From Verif Require Import Base PyStr Util UtilProofs Parse Term TermProofs Num Wigner Hyperfine HyperfineProofs
  Graph GraphProofs Rules Atom AtomInv AtomSafe AtomSafe2 AtomSafe3 AtomSafe4 AtomSafe5 AtomSafe6 AtomLevels AtomKeep AtomPaths AtomTrans
  AtomExample PropTransitions.
Import ListNotations.

(** The names of the sublevels of the level named [n]. *)
Definition fkey (n : string) (f : Z) : string := (n ++ " F=" ++ half_label f)%string.
Definition zkey (n : string) (f m : Z) : string := (n ++ " F=" ++ half_label f ++ " mF=" ++ half_label m)%string.
Definition jkey (n : string) (m : Z) : string := (n ++ " mJ=" ++ half_label m)%string.
Definition F_is (f : Z) : string := ("F=" ++ half_label f)%string.
Definition mF_is (m : Z) : string := ("mF=" ++ half_label m)%string.

(** Looking up [p] gave the level of energy [e1], then [q] that of energy [e2]. *)
Definition two_levels {N : Num} (muB : N) (s : st N) (p q : string) (e1 e2 : N) (s2 : st N) : Prop :=
  exists a b s1, levels_get N p s = (Ok a, s1) /\ energy N muB s1 a = Some e1 /\
    levels_get N q s1 = (Ok b, s2) /\ energy N muB s2 b = Some e2.
(** Either order of the names; the one of the lower level is [p]. *)
Definition lower_first {N : Num} (muB : N) (s : st N) (p q k1 k2 : string) (s2 : st N) : Prop :=
  exists e1 e2, two_levels muB s k1 k2 e1 e2 s2 /\
    ((k1 = p /\ k2 = q /\ nltb N e2 e1 = false) \/ (k1 = q /\ k2 = p /\ nltb N e2 e1 = true)).

Section Keys.
  Context (N : Num) (muB : N).
  Notation st := (st N).
  Implicit Types (s : st) (n m p q : string) (t c h : nat).

  Lemma mJ_has : forall n (m : Z), has_char "=" n = false -> contains "mF=" (jkey n m) = false /\ contains "mJ=" (jkey n m) = true.
  Proof. intros n m. apply key_mJ_plain. Qed.

  Lemma two_WF : forall s p q e1 e2 s2, WF s -> two_levels muB s p q e1 e2 s2 -> WF s2 /\ look s s2.
  Proof.
    intros s p q e1 e2 s2 W (a & b & s1 & E1 & _ & E2 & _).
    destruct (get_key_pure N muB s (KS p) a s1 E1 W) as [W1 [L1 _]].
    destruct (get_key_pure N muB s1 (KS q) b s2 E2 W1) as [W2 [L2 _]].
    split; auto. eapply look_trans; eauto.
  Qed.
  Lemma edge_kept : forall s s2 n m t, WF s2 -> look s s2 -> edge (s_g0 s) n m = Some t ->
    beforeb n m (dkeys (g_nodes (s_g0 s))) = true -> edge_at N n m s2 = (Ok t, s2).
  Proof.
    intros s s2 n m t W L E B. unfold edge_at, asks. rewrite edge_attrs_get by exact (go_wf _ _ _ _ (wf_g _ _ W LE)).
    rewrite (fr_g0 _ _ _ (lo_frame _ _ _ L)), B, E. reflexivity.
  Qed.

  Lemma get_hf : forall s n m t f g k1 k2 s2, WF s -> has_char "=" n = false -> has_char "=" m = false ->
    edge (s_g0 s) n m = Some t -> beforeb n m (dkeys (g_nodes (s_g0 s))) = true ->
    lower_first muB s (fkey n f) (fkey m g) k1 k2 s2 ->
    transitions_get N muB (KS k1, KS k2) s = tr_getitem N muB t (F_is f, F_is g) s2.
  Proof.
    intros s n m t f g k1 k2 s2 W Hn Hm Ht Bf H. destruct H as (e1 & e2 & T & C).
    destruct (two_WF _ _ _ _ _ _ W T) as [W2 L2]. pose proof (edge_kept _ _ _ _ _ W2 L2 Ht Bf) as G.
    destruct T as (xa & xb & s1 & E1 & Ea & E2 & Eb). unfold transitions_get. cbn [fst snd levels_get_key].
    rewrite (bind_Ok _ _ _ _ _ _ (E1 : levels_get_key N muB (KS k1) s = _)), (bind_asks _ _ _ _ _ _ Ea), (bind_Ok _ _ _ _ _ _ (E2 : levels_get_key N muB (KS k2) s1 = _)), (bind_asks _ _ _ _ _ _ Eb). cbv zeta.
    destruct (key_F_plain n f Hn) as [N1 [N2 N3]]. destruct (key_F_plain m g Hm) as [M1 [M2 M3]].
    fold (fkey n f) in *. fold (fkey m g) in *.
    destruct C as [[-> [-> ->]]|[-> [-> ->]]]; rewrite ?N1, ?N2, ?N3, ?M1, ?M2, ?M3; cbn [as_str];
      unfold fkey; unfold bind at 1 2 3 4; unfold asks; cbn [as_str]; rewrite !name_split1; cbn [fst snd];
      rewrite (bind_Ok _ _ _ _ _ _ G); reflexivity.
  Qed.
  Lemma get_z : forall s n m t f g u v k1 k2 s2, WF s ->
    edge (s_g0 s) n m = Some t -> beforeb n m (dkeys (g_nodes (s_g0 s))) = true ->
    lower_first muB s (zkey n f u) (zkey m g v) k1 k2 s2 ->
    transitions_get N muB (KS k1, KS k2) s =
      bind (tr_getitem N muB t (F_is f, F_is g)) (fun h => tr_getitem N muB h (mF_is u, mF_is v)) s2.
  Proof.
    intros s n m t f g u v k1 k2 s2 W Ht Bf H. destruct H as (e1 & e2 & T & C).
    destruct (two_WF _ _ _ _ _ _ W T) as [W2 L2]. pose proof (edge_kept _ _ _ _ _ W2 L2 Ht Bf) as G.
    destruct T as (xa & xb & s1 & E1 & Ea & E2 & Eb). unfold transitions_get. cbn [fst snd levels_get_key].
    rewrite (bind_Ok _ _ _ _ _ _ (E1 : levels_get_key N muB (KS k1) s = _)), (bind_asks _ _ _ _ _ _ Ea), (bind_Ok _ _ _ _ _ _ (E2 : levels_get_key N muB (KS k2) s1 = _)), (bind_asks _ _ _ _ _ _ Eb). cbv zeta.
    pose proof (key_mF_has n f u) as N1. pose proof (key_mF_has m g v) as M1.
    fold (zkey n f u) in *. fold (zkey m g v) in *.
    destruct C as [[-> [-> ->]]|[-> [-> ->]]]; rewrite ?N1, ?M1; cbn [as_str];
      unfold zkey; unfold bind at 1 2 3 4; unfold asks; cbn [as_str]; rewrite !name_split2; cbn [fst snd];
      rewrite (bind_Ok _ _ _ _ _ _ G); reflexivity.
  Qed.
  Lemma get_mJ_line : forall s n m t u v k1 k2 s2 a b la lb j j', WF s -> has_char "=" n = false -> has_char "=" m = false ->
    edge (s_g0 s) n m = Some t -> beforeb n m (dkeys (g_nodes (s_g0 s))) = true ->
    dget n (node_attrs (s_g0 s)) = Some a -> dget m (node_attrs (s_g0 s)) = Some b ->
    lv s a = Some la -> lv s b = Some lb -> l_J la = Some j -> l_J lb = Some j' ->
    lower_first muB s (jkey n u) (jkey m v) k1 k2 s2 ->
    transitions_get N muB (KS k1, KS k2) s =
      bind (tr_getitem N muB t (F_is j, F_is j')) (fun h => tr_getitem N muB h (mF_is u, mF_is v)) s2.
  Proof.
    intros s n m t u v k1 k2 s2 a b la lb j j' W Hn Hm Ht Bf Da Db Va Vb Ja Jb H. destruct H as (e1 & e2 & T & C).
    destruct (two_WF _ _ _ _ _ _ W T) as [W2 L2]. pose proof (edge_kept _ _ _ _ _ W2 L2 Ht Bf) as G.
    destruct T as (xa & xb & s1 & E1 & Ea & E2 & Eb). unfold transitions_get. cbn [fst snd levels_get_key].
    rewrite (bind_Ok _ _ _ _ _ _ (E1 : levels_get_key N muB (KS k1) s = _)), (bind_asks _ _ _ _ _ _ Ea), (bind_Ok _ _ _ _ _ _ (E2 : levels_get_key N muB (KS k2) s1 = _)), (bind_asks _ _ _ _ _ _ Eb). cbv zeta.
    destruct (mJ_has n u Hn) as [N1 N2]. destruct (mJ_has m v Hm) as [M1 M2].
    destruct (fr_lv _ _ _ (lo_frame _ _ _ L2) _ _ Va) as [la2 [Va2 Ea2]]. destruct (fr_lv _ _ _ (lo_frame _ _ _ L2) _ _ Vb) as [lb2 [Vb2 Eb2]].
    assert (Ja2 : l_J la2 = Some j) by (rewrite Ea2; exact Ja). assert (Jb2 : l_J lb2 = Some j') by (rewrite Eb2; exact Jb).
    assert (Ga : node N n s2 = (Ok a, s2)) by (unfold node, asks; rewrite (fr_g0 _ _ _ (lo_frame _ _ _ L2)), Da; reflexivity).
    assert (Gb : node N m s2 = (Ok b, s2)) by (unfold node, asks; rewrite (fr_g0 _ _ _ (lo_frame _ _ _ L2)), Db; reflexivity).
    assert (Ka : get_lv a s2 = (Ok la2, s2)) by (unfold get_lv, asks; now rewrite Va2).
    assert (Kb : get_lv b s2 = (Ok lb2, s2)) by (unfold get_lv, asks; now rewrite Vb2).
    destruct C as [[-> [-> ->]]|[-> [-> ->]]]; rewrite ?N1, ?N2, ?M1, ?M2; cbn [as_str];
      unfold jkey; unfold bind at 1 2 3 4; unfold asks; cbn [as_str]; rewrite !rsplit_mJ; cbn [fst snd];
      rewrite (bind_Ok _ _ _ _ _ _ Ga), (bind_Ok _ _ _ _ _ _ Ka), (bind_Ok _ _ _ _ _ _ Gb), (bind_Ok _ _ _ _ _ _ Kb), (bind_Ok _ _ _ _ _ _ G), Ja2, Jb2;
      reflexivity.
  Qed.

  (** [c] is a line of [t] between sublevels with these short names. *)
  Definition line s t (lo up : string) c : Prop := sub_between N s t lo up c.
  Lemma line_kept : forall s s' t lo up c, look s s' -> line s t lo up c -> line s' t lo up c.
  Proof.
    intros s s' t lo up c L (y & l1 & l2 & H1 & H2 & H3 & H4 & H5 & H6).
    destruct (fr_tr _ _ _ (lo_frame _ _ _ L) _ _ H1) as [y' [V' Ey]].
    destruct (fr_lv _ _ _ (lo_frame _ _ _ L) _ _ H3) as [l1' [V1 E1]]. destruct (fr_lv _ _ _ (lo_frame _ _ _ L) _ _ H4) as [l2' [V2 E2]].
    exists y', l1', l2'. rewrite Ey at 2 3 4. cbn [x_parent x_lo x_up tr_set_subs tr_set_attached]. rewrite E1 at 2. rewrite E2 at 2. auto 7.
  Qed.
  Lemma item_line : forall s t x k c s', WF s -> tr s t = Some x -> tr_getitem N muB t k s = (Ok c, s') ->
    WF s' /\ look s s' /\ (line s' t (fst k) (snd k) c \/ line s' t (snd k) (fst k) c).
  Proof.
    intros s t x k c s' W V E. destruct (safe_Ok _ _ _ _ _ _ _ (tr_getitem_safe N muB s t x k W V) E) as [W' [L _]].
    split; auto. split; auto.
    destruct (subtransitions N muB t s) as [[cs|e] s1] eqn:F.
    - destruct (tr_lookup N muB s t x k cs s1 W V F) as [[c' [H1 [H2 H3]]]|[H [[c' [H1 [H2 H3]]]|[H1 H2]]]]; rewrite E in *.
      + injection H1 as -> ->. auto.
      + injection H1 as -> ->. auto.
      + discriminate.
    - exfalso. unfold subtransitions, tr_getitem in *. unfold bind in *. destruct (lazy_subtransitions N muB t s) as [[[]|e'] s3] eqn:G; [|discriminate E].
      destruct (ext_tr _ _ _ (look_ext _ _ _ (proj1 (proj2 (lazy_sub_safe N muB s t x W V)))) _ _ V) as [x1 [V1 _]].
      rewrite G in V1. cbn [snd] in V1. unfold get_tr, asks in F. rewrite V1 in F. discriminate F.
  Qed.
End Keys.

(** C130.  [t] joins the levels named [n] and [m], and [n] was added first.  The
    pair of names, in either order, is looked up among the lines of [t], first
    the wrong way round. *)
Theorem C130_hyperfine_partial : forall N muB orc, (forall n, oracle_ok (orc n)) -> forall s, reachable N muB orc s ->
  forall n m t f g k1 k2 s2 cs s', has_char "="%char n = false -> has_char "="%char m = false ->
  edge (s_g0 s) n m = Some t -> beforeb n m (dkeys (g_nodes (s_g0 s))) = true ->
  lower_first muB s (fkey n f) (fkey m g) k1 k2 s2 -> subtransitions N muB t s2 = (Ok cs, s') ->
  let between lo up c := In c cs /\ exists y llo lup, tr s' c = Some y /\ x_parent y = Some t /\
    lv s' (x_lo y) = Some llo /\ lv s' (x_up y) = Some lup /\ lshort llo = F_is lo /\ lshort lup = F_is up in
  let r := transitions_get N muB (KS k1, KS k2) s in
  (exists c, r = (Ok c, s') /\ between g f c) \/
  ((forall c, ~ between g f c) /\ exists c, r = (Ok c, s') /\ between f g c) \/
  ((forall c, ~ between g f c) /\ (forall c, ~ between f g c) /\ r = (Raise KeyError, s')).
Proof.
  intros N muB orc OK s R n m t f g k1 k2 s2 cs s' Hn Hm Ht Bf H E. cbv zeta. pose proof (reachable_WF N muB orc OK s R) as W.
  rewrite (get_hf N muB s n m t f g k1 k2 s2 W Hn Hm Ht Bf H).
  destruct H as (e1 & e2 & T & _). destruct (two_WF N muB _ _ _ _ _ _ W T) as [W2 L2].
  pose proof (edge_kept N s s2 n m t W2 L2 Ht Bf) as G. unfold edge_at, asks in G.
  destruct (dget (n, m) (edge_attrs (s_g0 s2))) as [t'|] eqn:Q; [|discriminate G]. injection G as ->.
  destruct (edge_at_tr N s2 n m t W2 Q) as [x [V _]].
  destruct (tr_lookup N muB s2 t x (F_is f, F_is g) cs s' W2 V E) as [[c [H1 [H2 H3]]]|[H [[c [H1 [H2 H3]]]|[H1 H2]]]].
  - left. exists c. auto.
  - right. left. split; [|exists c; auto]. intros c' [I S]. exact (H c' I S).
  - right. right. split; [|split; auto]; intros c' [I S]; [exact (H c' I S)|exact (H1 c' I S)].
Qed.
Print Assumptions C130_hyperfine_partial.

(** A Zeeman line: the lookups of the transition, of its hyperfine line and of
    the line of that one.  The result is a line between the numbers asked for,
    perhaps with the ends exchanged. *)
Theorem C130_zeeman_partial : forall N muB orc, (forall n, oracle_ok (orc n)) -> forall s, reachable N muB orc s ->
  forall n m t f g u v k1 k2 s2, edge (s_g0 s) n m = Some t -> beforeb n m (dkeys (g_nodes (s_g0 s))) = true ->
  lower_first muB s (zkey n f u) (zkey m g v) k1 k2 s2 ->
  let r := transitions_get N muB (KS k1, KS k2) s in
  r = bind (tr_getitem N muB t (F_is f, F_is g)) (fun h => tr_getitem N muB h (mF_is u, mF_is v)) s2 /\
  forall c s', r = (Ok c, s') -> exists h y yh l1 l2 h1 h2,
    tr s' c = Some y /\ x_parent y = Some h /\ tr s' h = Some yh /\ x_parent yh = Some t /\
    lv s' (x_lo y) = Some l1 /\ lv s' (x_up y) = Some l2 /\ lv s' (x_lo yh) = Some h1 /\ lv s' (x_up yh) = Some h2 /\
    ((lshort h1 = F_is f /\ lshort h2 = F_is g) \/ (lshort h1 = F_is g /\ lshort h2 = F_is f)) /\
    ((lshort l1 = mF_is u /\ lshort l2 = mF_is v) \/ (lshort l1 = mF_is v /\ lshort l2 = mF_is u)).
Proof.
  intros N muB orc OK s R n m t f g u v k1 k2 s2 Ht Bf H. cbv zeta. pose proof (reachable_WF N muB orc OK s R) as W.
  rewrite (get_z N muB s n m t f g u v k1 k2 s2 W Ht Bf H). split; auto. intros c s' E.
  destruct H as (e1 & e2 & T & _). destruct (two_WF N muB _ _ _ _ _ _ W T) as [W2 L2].
  pose proof (edge_kept N s s2 n m t W2 L2 Ht Bf) as G. unfold edge_at, asks in G.
  destruct (dget (n, m) (edge_attrs (s_g0 s2))) as [t'|] eqn:Q; [|discriminate G]. injection G as ->.
  destruct (edge_at_tr N s2 n m t W2 Q) as [x [V _]]. unfold bind in E.
  destruct (tr_getitem N muB t (F_is f, F_is g) s2) as [[h|e] s3] eqn:E1; [|discriminate E].
  destruct (item_line N muB s2 t x _ h s3 W2 V E1) as [W3 [L3 A]]. cbn [fst snd] in A.
  assert (Vh : exists xh, tr s3 h = Some xh) by (destruct A as [(y & _ & _ & A & _)|(y & _ & _ & A & _)]; eauto). destruct Vh as [xh Vh].
  destruct (item_line N muB s3 h xh _ c s' W3 Vh E) as [W4 [L4 B]]. cbn [fst snd] in B.
  assert (A' : line N s' t (F_is f) (F_is g) h \/ line N s' t (F_is g) (F_is f) h) by (destruct A as [A|A]; [left|right]; eapply line_kept; eauto).
  destruct A' as [(yh & h1 & h2 & P1 & P2 & P3 & P4 & P5 & P6)|(yh & h1 & h2 & P1 & P2 & P3 & P4 & P5 & P6)];
  destruct B as [(y & l1 & l2 & Q1 & Q2 & Q3 & Q4 & Q5 & Q6)|(y & l1 & l2 & Q1 & Q2 & Q3 & Q4 & Q5 & Q6)];
  exists h, y, yh, l1, l2, h1, h2; repeat (split; [assumption|]); auto.
Qed.
Print Assumptions C130_zeeman_partial.

(** Without nuclear spin F is J and the key mJ stands for both. *)
Theorem C130_mJ_partial : forall N muB orc, (forall n, oracle_ok (orc n)) -> forall s, reachable N muB orc s ->
  forall n m t u v k1 k2 s2 a b la lb j j', has_char "="%char n = false -> has_char "="%char m = false ->
  edge (s_g0 s) n m = Some t -> beforeb n m (dkeys (g_nodes (s_g0 s))) = true ->
  dget n (node_attrs (s_g0 s)) = Some a -> dget m (node_attrs (s_g0 s)) = Some b ->
  lv s a = Some la -> lv s b = Some lb -> l_J la = Some j -> l_J lb = Some j' ->
  lower_first muB s (jkey n u) (jkey m v) k1 k2 s2 ->
  transitions_get N muB (KS k1, KS k2) s =
    bind (tr_getitem N muB t (F_is j, F_is j')) (fun h => tr_getitem N muB h (mF_is u, mF_is v)) s2.
Proof.
  intros N muB orc OK s R n m t u v k1 k2 s2 a b la lb j j' Hn Hm Ht Bf Da Db Va Vb Ja Jb H.
  exact (get_mJ_line N muB s n m t u v k1 k2 s2 a b la lb j j' (reachable_WF N muB orc OK s R) Hn Hm Ht Bf Da Db Va Vb Ja Jb H).
Qed.
Print Assumptions C130_mJ_partial.

(** The names of the ends of a line, lower one first. *)
Definition ends_of (r : res nat * st Exact) : option (string * string) :=
  match r with
  | (Ok c, s) => match tr s c with
                 | Some y => match lv s (x_lo y), lv s (x_up y) with Some a, Some b => Some (lname a, lname b) | _, _ => None end
                 | None => None
                 end
  | _ => None
  end.
Example C130_case : let s := joined os_two in
  ends_of (transitions_get Exact 1%Qc (KS "6s 2S1/2 F=1", KS "6p 2P*1/2 F=1") s) = Some ("6s 2S1/2 F=1", "6p 2P*1/2 F=1")%string /\
  ends_of (transitions_get Exact 1%Qc (KS "6p 2P*1/2 F=1 mF=1", KS "6s 2S1/2 F=1 mF=1") s) = Some ("6s 2S1/2 F=1 mF=1", "6p 2P*1/2 F=1 mF=1")%string /\
  fst (transitions_get Exact 1%Qc (KS "6s 2S1/2 F=0", KS "6p 2P*1/2 F=0") s) = Raise KeyError.
Proof. vm_compute. auto. Qed.

(** Both lines exist; asking for one, in either order, gives the other. *)
Theorem C130_refuted : exists s, reachable Exact 1%Qc plain s /\
  let get (p q : string) := ends_of (transitions_get Exact 1%Qc (KS p, KS q) s) in
  get "6s 2S1/2 F=0"%string "6p 2P*1/2 F=1"%string = Some ("6s 2S1/2 F=1", "6p 2P*1/2 F=0")%string /\
  get "6p 2P*1/2 F=1"%string "6s 2S1/2 F=0"%string = Some ("6s 2S1/2 F=1", "6p 2P*1/2 F=0")%string /\
  get "6s 2S1/2 F=1"%string "6p 2P*1/2 F=0"%string = Some ("6s 2S1/2 F=0", "6p 2P*1/2 F=1")%string /\
  get "6s 2S1/2 F=1 mF=0"%string "6p 2P*1/2 F=1 mF=1"%string = Some ("6s 2S1/2 F=1 mF=1", "6p 2P*1/2 F=1 mF=0")%string.
Proof. exists (joined os_two). split; [apply from_reachable; lia|]. vm_compute. auto. Qed.
Print Assumptions C130_refuted.
