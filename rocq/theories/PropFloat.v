(** Setting frequencies in IEEE binary64 arithmetic (C46). *)
From Coq Require Import List Bool ZArith QArith Qcanon Lia String Ascii Permutation Floats.SpecFloat.
From Verif Require Import Base PyStr Util UtilProofs Parse Term TermProofs Num Wigner Hyperfine HyperfineProofs
  Graph GraphProofs DfsProofs Rules Atom AtomInv AtomSafe AtomSafe2 AtomSafe3 AtomSafe4 AtomSafe5 AtomSafe6 AtomKeep AtomPaths AtomTrans
  AtomEnforce AtomEnforce2 AtomEnforce3 AtomExample PropEnforce FloatInt.
Import ListNotations.
Local Open Scope Z_scope.

Notation fl := f_ofZ (only parsing).

(** ** A warning without a contradiction *)

(** Three levels at 0.1, 0.2 and 0.5, the steps between them to be given the
    frequencies 0.2 and 0.1; no level is over-determined.  After the first
    setting the first frequency reads 0.20000000000000004; the second setting
    warns about the first. *)
Definition runf := run Binary64 (f_ofZ 1) plain.
Definition freqf := freq Binary64 (f_ofZ 1).
Definition energyf := energy Binary64 (f_ofZ 1).
Definition nlf (t : term) (E : Q) : op Binary64 := ONewLevel Binary64 [t] (f_ofQ E) (f_ofZ 0) (f_ofZ 0) (f_ofZ 0) (f_ofZ 0) None false.
Definition addf (a : nat) : op Binary64 := OAddLevel Binary64 a false None.
Definition fromf : st Binary64 := init Binary64 1 (f_ofZ 0).
Lemma fromf_reachable : forall os, reachable Binary64 (f_ofZ 1) plain (runf fromf os).
Proof. intros os. exists 1, (f_ofZ 0), os. split; [lia|reflexivity]. Qed.
Definition chainf (e0 e1 e2 : Q) : list (op Binary64) := [nlf tS e0; addf 0; nlf tP e1; addf 1; nlf tQ e2; addf 2;
  ONewTransition Binary64 0 1 None None None; ONewTransition Binary64 1 2 None None None].
Theorem C46_warns_refuted :
  let s := runf fromf (chainf (1 # 10) (2 # 10) (5 # 10) ++ [OSetFreq Binary64 0 (f_ofQ (2 # 10))]) in
  let s' := runf s [OSetFreq Binary64 1 (f_ofQ (1 # 10))] in
  reachable Binary64 (f_ofZ 1) plain s /\ s_warn s = [] /\ s_warn s' = [WLoop "6s 2S1/2" "6p 2P*1/2"] /\
  f_ofQ (2 # 10) = S754_finite false 7205759403792794 (-55) /\
  freqf s 0 = Some (S754_finite false 7205759403792795 (-55)) /\ freqf s' 0 = Some (S754_finite false 7205759403792795 (-55)).
Proof.
  cbv zeta. split; [apply fromf_reachable|]. split; [vm_compute; reflexivity|]. split; [vm_compute; reflexivity|].
  split; [vm_compute; reflexivity|]. split; vm_compute; reflexivity.
Qed.
Print Assumptions C46_warns_refuted.
(** Levels at 0.1, 2 and 3: giving the first step the frequency 1000 is exact,
    but giving the second step the frequency 1 then moves the lowest level to
    0.10000000000002274, without a warning. *)
Theorem C46_moves_refuted :
  let s := runf fromf (chainf (1 # 10) 2 3 ++ [OSetFreq Binary64 0 (f_ofQ 1000)]) in
  let s' := runf s [OSetFreq Binary64 1 (f_ofQ 1)] in
  reachable Binary64 (f_ofZ 1) plain s /\ s_warn s' = [] /\ freqf s 0 = Some (f_ofQ 1000) /\
  energyf s 0 = Some (f_ofQ (1 # 10)) /\ f_ofQ (1 # 10) = S754_finite false 7205759403792794 (-56) /\
  energyf s' 0 = Some (S754_finite false 7205759403794432 (-56)).
Proof.
  cbv zeta. split; [apply fromf_reachable|]. split; [vm_compute; reflexivity|]. split; [vm_compute; reflexivity|].
  split; [vm_compute; reflexivity|]. split; vm_compute; reflexivity.
Qed.
Print Assumptions C46_moves_refuted.

(** ** Integers *)

(** [int_within B x]: the float [x] has an integer value of size at most [B]. *)
Definition int_within (B : Z) (x : spec_float) : Prop := exists z, Z.abs z <= B /\ x = f_ofZ z.

(** The energies of the atom's levels are integers of size at most [B], the
    constraints hold between levels of the atom, in their order, and a level is
    marked as fixed iff it is in a constraint. *)
Record settledZ (B : Z) (s : st Binary64) : Prop := mk_settledZ {
  sz_int : forall a l, home Binary64 s a -> lv s a = Some l -> int_within B (l_E l);
  sz_ends : forall u v t f x, constraint s u v t f -> tr s t = Some x -> home Binary64 s (x_lo x) /\ home Binary64 s (x_up x) /\
    exists l h a b, lv s (x_lo x) = Some l /\ lv s (x_up x) = Some h /\ l_fixed l = true /\ l_fixed h = true /\
      l_E l = f_ofZ a /\ l_E h = f_ofZ b /\ f = f_ofZ (b - a) /\ - B <= a <= b /\ b <= B;
  sz_fixed : forall a l, home Binary64 s a -> lv s a = Some l -> l_fixed l = true -> ~ free s (lname l)
}.

Lemma twice : 2 ^ 53 = 2 * 2 ^ 52.
Proof. reflexivity. Qed.
Lemma satZ : forall a b, Z.abs a < 2 ^ 53 -> Z.abs b < 2 ^ 53 -> 0 <= b - a < 2 ^ 53 -> sat Binary64 (f_ofZ (b - a)) (f_ofZ a) (f_ofZ b).
Proof.
  intros a b Ha Hb H. split; cbn [neqb nabs nsub Binary64].
  - rewrite sub_exact by (unfold small; pose proof twice; lia). rewrite abs_exact by (unfold small; pose proof twice; lia). replace (Z.abs (a - b)) with (b - a) by (pose proof twice; lia).
    apply eqb_refl_int. unfold small. (pose proof twice; lia).
  - rewrite sub_exact by (unfold small; pose proof twice; lia). f_equal. (pose proof twice; lia).
Qed.

Lemma settledZ_consistent : forall B (s : st Binary64), WF s -> B < 2 ^ 52 -> settledZ B s -> consistent Binary64 s.
Proof.
  intros B s W HB C. constructor.
  - intros u v t x E S V. unfold is_set in S. rewrite V in S. destruct (x_set x) as [f|] eqn:F; [|discriminate].
    destruct (sz_ends _ _ C u v t f x) as [H1 [H2 _]]; auto. split; auto. eauto.
  - intros u v I. destruct (set_edge_of Binary64 s u v W I) as [t [x [f [l [h E]]]]]. pose proof E as [Ed [V [Fx [Vl [Vh [Kl [Kh O]]]]]]].
    assert (Cn : constraint s u v t f) by (split; eauto).
    destruct (sz_ends _ _ C u v t f x Cn V) as [H1 [H2 [l' [h' [a [b [Vl' [Vh' [Fl [Fh [El [Eh [Ef [La Lb]]]]]]]]]]]]]].
    rewrite Vl in Vl'. injection Vl' as <-. rewrite Vh in Vh'. injection Vh' as <-.
    exists t, x, f, l, h. split; auto. split; auto. split; auto. rewrite Ef, El, Eh. apply satZ; (pose proof twice; lia).
  - intros a l H V F. pose proof (sz_fixed _ _ C a l H V F) as Nf. destruct (set_nbrs s (lname l)) as [|m r] eqn:E; [|exists m; simpl; auto].
    apply free_nil in E; auto. contradiction.
Qed.

Lemma freqZ : forall muB (s : st Binary64) u v t x l h a b, WF s -> edge (s_g0 s) u v = Some t -> tr s t = Some x ->
  lv s (x_lo x) = Some l -> lv s (x_up x) = Some h -> l_E l = f_ofZ a -> l_E h = f_ofZ b -> Z.abs a < 2 ^ 52 -> Z.abs b < 2 ^ 52 ->
  freq Binary64 muB s t = Some (f_ofZ (Z.abs (b - a))).
Proof.
  intros muB s u v t x l h a b W E V Vl Vh Ea Eb Ha Hb. destruct (edge_names Binary64 s W t x l h V Vl Vh u v E) as [_ [Kl [Kh _]]].
  unfold freq. rewrite V. pose proof (energy_LE Binary64 muB s _ _ Vl Kl) as El. pose proof (energy_LE Binary64 muB s _ _ Vh Kh) as Eh.
  destruct (wf_tr _ _ W _ _ V) as [l1 [l2 [_ [_ [_ [_ [UL _]]]]]]].
  destruct UL as [[U L]|[U L]]; rewrite <- U, <- L, El, Eh, Ea, Eb; f_equal; cbn [nabs nsub Binary64]; rewrite sub_exact by (unfold small; pose proof twice; lia);
    rewrite abs_exact by (unfold small; pose proof twice; lia); f_equal; (pose proof twice; lia).
Qed.

Lemma settledZ_met : forall muB B (s : st Binary64) u v t f, WF s -> B < 2 ^ 52 -> settledZ B s -> constraint s u v t f -> freq Binary64 muB s t = Some f.
Proof.
  intros muB B s u v t f W HB Se Cn. pose proof Cn as [E [x [V F]]].
  destruct (sz_ends _ _ Se u v t f x Cn V) as [H1 [H2 [l' [h' [a [b [Vl' [Vh' [Fl [Fh [El [Eh [Ef [La Lb]]]]]]]]]]]]]].
  rewrite (freqZ muB s u v t x l' h' a b) by (auto; lia). replace (Z.abs (b - a)) with (b - a) by lia. now rewrite Ef.
Qed.

(** Setting the frequency of one of the atom's transitions for the first time,
    when one of its levels is in no constraint. *)
Theorem C46_integers_partial : forall muB orc, (forall n, oracle_ok (orc n)) -> forall B s, reachable Binary64 muB orc s -> settledZ B s ->
  forall p q t x k, edge (s_g0 s) p q = Some t -> p <> q -> tr s t = Some x -> x_set x = None -> 0 <= k -> B + k < 2 ^ 52 ->
  home Binary64 s (x_lo x) -> home Binary64 s (x_up x) -> free s p \/ free s q ->
  exists s' b lb, set_frequency Binary64 muB orc t (f_ofZ k) s = (Ok tt, s') /\ constraint s' p q t (f_ofZ k) /\
  (b = x_lo x \/ b = x_up x) /\ lv s b = Some lb /\ free s (lname lb) /\
  freq Binary64 muB s' t = Some (f_ofZ k) /\
  (forall u v t' g, constraint s u v t' g -> constraint s' u v t' g /\ freq Binary64 muB s' t' = Some g) /\
  (forall a l, lv s a = Some l -> l_kind l = LE -> a <> b -> energy Binary64 muB s' a = energy Binary64 muB s a) /\
  s_warn s' = s_warn s /\ reachable Binary64 muB orc s' /\ settledZ (B + k) s'.
Proof.
  intros muB orc OK B s R Se p q t x k Ed Npq V X0 Hk HB Hl Hh Fr. pose proof (reachable_WF Binary64 muB orc OK s R) as W.
  pose proof Hl as [l [Vl _]]. pose proof Hh as [h [Vh _]].
  destruct (edge_names Binary64 s W t x l h V Vl Vh p q Ed) as [O [Kl [Kh _]]].
  destruct (sz_int _ _ Se _ _ Hl Vl) as [zl [Bl Zl]]. destruct (sz_int _ _ Se _ _ Hh Vh) as [zh [Bh Zh]].
  assert (Dlh : x_lo x <> x_up x).
  { intros E. rewrite E, Vh in Vl. injection Vl as ->. destruct O as [[? ?]|[? ?]]; congruence. }
  assert (Wh : exists b e lb zb, (b = x_lo x /\ lb = l \/ b = x_up x /\ lb = h) /\ free s (lname lb) /\ e = f_ofZ zb /\ Z.abs zb <= B + k /\
    (b = x_lo x /\ zb = zh - k \/ b = x_up x /\ zb = zl + k) /\
    ((set_nbrs s (lname h) = [] /\ b = x_up x /\ e = nadd Binary64 (l_E l) (f_ofZ k) /\ sat Binary64 (f_ofZ k) (l_E l) e) \/
     (set_nbrs s (lname h) <> [] /\ set_nbrs s (lname l) = [] /\ b = x_lo x /\ e = nsub Binary64 (l_E h) (f_ofZ k) /\ sat Binary64 (f_ofZ k) e (l_E h)))).
  { destruct (set_nbrs s (lname h)) as [|m r] eqn:E.
    - exists (x_up x), (f_ofZ (zl + k)), h, (zl + k). split; auto. split; [now apply free_nil|]. split; auto. split; [lia|]. split; auto. left.
      split; auto. split; auto. rewrite Zl. cbn [nadd Binary64]. rewrite add_exact by (unfold small; pose proof twice; lia). split; auto.
      replace k with (zl + k - zl) at 1 by (pose proof twice; lia). apply satZ; (pose proof twice; lia).
    - assert (Fl : free s (lname l)).
      { assert (Fr' : free s (lname l) \/ free s (lname h)) by (destruct O as [[-> ->]|[-> ->]]; tauto).
        destruct Fr' as [|Fh]; auto. apply free_nil in Fh; auto. congruence. }
      exists (x_lo x), (f_ofZ (zh - k)), l, (zh - k). split; auto. split; auto. split; auto. split; [lia|]. split; auto. right.
      split; [discriminate|]. split; [now apply free_nil|]. split; auto. rewrite Zh. cbn [nsub Binary64]. rewrite sub_exact by (unfold small; pose proof twice; lia). split; auto.
      replace k with (zh - (zh - k)) at 1 by (pose proof twice; lia). apply satZ; (pose proof twice; lia). }
  destruct Wh as [b [e [lb [zb [Bb [Fb [Ez [Bz [Cz Cs]]]]]]]]].
  assert (Cn0 : consistent Binary64 s) by (apply (settledZ_consistent B); auto; lia).
  destruct (set_first Binary64 muB orc s p q t x (f_ofZ k) l h b e OK W Cn0 Ed Npq V X0 Vl Vh Hl Hh Cs) as [E [C' Nb]].
  set (s' := moved_to Binary64 _ b e _) in *.
  assert (R' : reachable Binary64 muB orc s').
  { replace s' with (step Binary64 muB orc s (OSetFreq Binary64 t (f_ofZ k))); [now apply reachable_step|]. unfold step. cbn [run_op]. now rewrite E. }
  pose proof (reachable_WF Binary64 muB orc OK s' R') as W'.
  assert (Tr : forall t', tr s' t' = if Nat.eqb t t' then Some (@tr_set_set Binary64 (Some (f_ofZ k)) x) else tr s t').
  { intros t'. exact (tr_s1 Binary64 s t x V (f_ofZ k) t'). }
  assert (Lv : forall a, lv s' a = option_map (fun l0 : level Binary64 => lv_set_fixed (l_fixed l0 || Nat.eqb (x_lo x) a || Nat.eqb (x_up x) a)
      (@lv_set_E Binary64 (if Nat.eqb b a then e else l_E l0) l0)) (lv s a)).
  { intros a. unfold s'. rewrite (lv_moved_to Binary64). reflexivity. }
  assert (Hm : forall a, home Binary64 s' a <-> home Binary64 s a).
  { intros a. unfold home. rewrite Lv. change (s_g0 s') with (s_g0 s). split.
    - intros [la [Va Da]]. destruct (lv s a) as [la0|]; [|discriminate]. injection Va as <-. exists la0. auto.
    - intros [la [Va Da]]. rewrite Va. eexists. split; [reflexivity|exact Da]. }
  assert (Ct : constraint s' p q t (f_ofZ k)) by (split; [exact Ed|]; exists (@tr_set_set Binary64 (Some (f_ofZ k)) x); now rewrite Tr, Nat.eqb_refl).
  assert (Old : forall u v t' g, constraint s u v t' g -> constraint s' u v t' g).
  { intros u v t' g [Eu [x' [V' F']]]. split; [exact Eu|]. exists x'. rewrite Tr. destruct (Nat.eqb_spec t t') as [<-|]; auto. congruence. }
  assert (New : forall u v t' g, constraint s' u v t' g -> t' = t /\ g = f_ofZ k \/ t' <> t /\ constraint s u v t' g).
  { intros u v t' g [Eu [x' [V' F']]]. rewrite Tr in V'. destruct (Nat.eqb_spec t t') as [<-|Nt].
    - left. split; auto. injection V' as <-. cbn in F'. now injection F'.
    - right. split; auto. split; [exact Eu|]. eauto. }
  assert (Se' : settledZ (B + k) s').
  { constructor.
    - intros a la Ha Va. rewrite Lv in Va. destruct (lv s a) as [la0|] eqn:Va0; [|discriminate]. injection Va as <-. cbn.
      destruct (Nat.eqb_spec b a) as [<-|]; [exists zb; auto|]. apply Hm in Ha. destruct (sz_int _ _ Se _ _ Ha Va0) as [z [Bz' Ez']]. exists z. split; [lia|auto].
    - intros u v t' f x' Cn V'. destruct (New u v t' f Cn) as [[-> ->]|[Nt Cn']].
      + rewrite Tr, Nat.eqb_refl in V'. injection V' as <-. cbn [tr_set_set x_lo x_up]. rewrite !Hm. split; auto. split; auto.
        rewrite !Lv, Vl, Vh. cbn [option_map]. rewrite !Nat.eqb_refl, !orb_true_r. eexists _, _, (if Nat.eqb b (x_lo x) then zh - k else zl), (if Nat.eqb b (x_lo x) then zh else zl + k).
        split; [reflexivity|]. split; [reflexivity|]. cbn [l_fixed l_E lv_set_fixed lv_set_E].
        destruct Cz as [[-> ->]|[-> ->]]; rewrite Nat.eqb_refl.
        * destruct (Nat.eqb_spec (x_lo x) (x_up x)); [congruence|]. repeat (split; auto); try (pose proof twice; lia). f_equal. (pose proof twice; lia).
        * destruct (Nat.eqb_spec (x_up x) (x_lo x)); [congruence|]. repeat (split; auto); try (pose proof twice; lia). f_equal. (pose proof twice; lia).
      + rewrite Tr in V'. destruct (Nat.eqb_spec t t'); [congruence|].
        destruct (sz_ends _ _ Se u v t' f x' Cn' V') as [H1 [H2 [l' [h' [a' [b' [Vl' [Vh' [Fl' [Fh' [El' [Eh' [Ef' [La Lb]]]]]]]]]]]]]].
        rewrite !Hm. split; auto. split; auto.
        assert (Nbe : b <> x_lo x' /\ b <> x_up x').
        { pose proof Cn' as [Eu _]. destruct (edge_names Binary64 s W t' x' l' h' V' Vl' Vh' u v Eu) as [O' _].
          assert (Nf : ~ free s (lname l') /\ ~ free s (lname h')).
          { assert (Cs' : constraint s v u t' f) by (destruct Cn' as [Eu' K]; split; auto; exact (gw_sym _ (go_wf _ _ _ _ (wf_g _ _ W LE)) _ _ _ Eu')).
            destruct O' as [[<- <-]|[<- <-]]; split; intros Fx; eapply Fx; eauto. }
          assert (Vb : lv s b = Some lb) by (destruct Bb as [[-> ->]|[-> ->]]; auto).
          split; intros ->; rewrite Vb in *; [injection Vl' as ->|injection Vh' as ->]; tauto. } destruct Nbe as [N1 N2].
        rewrite !Lv, Vl', Vh'. cbn [option_map]. destruct (Nat.eqb_spec b (x_lo x')); [congruence|]. destruct (Nat.eqb_spec b (x_up x')); [congruence|].
        rewrite Fl', Fh'. cbn [orb]. eexists _, _, a', b'. split; [reflexivity|]. split; [reflexivity|]. cbn. repeat (split; auto); (pose proof twice; lia).
    - intros a la Ha Va Fa Fr'. apply (cs_fixed _ _ C' a la Ha Va) in Fa as [v I]. apply free_nil in Fr'; auto. now rewrite Fr' in I. }
  exists s', b, lb. split; auto. split; auto. split; [tauto|]. split; [destruct Bb as [[-> ->]|[-> ->]]; auto|]. split; auto.
  split; [eapply settledZ_met; eauto|]. split; [intros; split; eauto; eapply settledZ_met; eauto|].
  split; [|split; [reflexivity|auto]].
  intros a la Va Ka Na. rewrite (energy_LE _ _ s a la) by auto.
  assert (La : exists la', lv s' a = Some la' /\ l_kind la' = LE /\ l_E la' = l_E la).
  { rewrite Lv, Va. cbn [option_map]. destruct (Nat.eqb_spec b a); [congruence|]. eexists. split; [reflexivity|]. auto. }
  destruct La as [la' [Va' [Ka' Ea']]]. rewrite (energy_LE _ _ s' a la') by auto. now rewrite Ea'.
Qed.
Print Assumptions C46_integers_partial.

(** All histories of such calls, as long as the sum of the frequencies and the
    largest energy stays below 2^52. *)
Definition firstZ (s : st Binary64) (t : nat) (k : Z) : Prop := 0 <= k /\ exists p q x, edge (s_g0 s) p q = Some t /\ p <> q /\ tr s t = Some x /\
  x_set x = None /\ home Binary64 s (x_lo x) /\ home Binary64 s (x_up x) /\ (free s p \/ free s q).
Definition setZ (c : nat * Z) : op Binary64 := OSetFreq Binary64 (fst c) (f_ofZ (snd c)).
Fixpoint firstsZ muB orc (s : st Binary64) (cs : list (nat * Z)) : Prop :=
  match cs with [] => True | c :: cs' => firstZ s (fst c) (snd c) /\ firstsZ muB orc (step Binary64 muB orc s (setZ c)) cs' end.
Fixpoint total (cs : list (nat * Z)) : Z := match cs with [] => 0 | c :: cs' => snd c + total cs' end.

Theorem C46_history_partial : forall muB orc, (forall n, oracle_ok (orc n)) -> forall cs B s, reachable Binary64 muB orc s -> settledZ B s ->
  firstsZ muB orc s cs -> B + total cs < 2 ^ 52 -> let s' := run Binary64 muB orc s (map setZ cs) in
  s_warn s' = s_warn s /\ (forall t k, In (t, k) cs -> freq Binary64 muB s' t = Some (f_ofZ k)) /\
  (forall u v t g, constraint s u v t g -> freq Binary64 muB s' t = Some g) /\ settledZ (B + total cs) s'.
Proof.
  intros muB orc OK cs B s R Se F HB s'.
  assert (H : reachable Binary64 muB orc s' /\ settledZ (B + total cs) s' /\ s_warn s' = s_warn s /\
    (forall u v t g, constraint s u v t g -> constraint s' u v t g) /\ (forall t k, In (t, k) cs -> exists u v, constraint s' u v t (f_ofZ k))).
  { unfold s'; clear s'. revert B s R Se F HB. induction cs as [|[t k] cs IH]; intros B s R Se F HB.
    - cbn. replace (B + 0) with B by lia. repeat (split; auto). intros t k [].
    - destruct F as [[Hk [p [q [x [Ed [Npq [V [X0 [Hl [Hh Fr]]]]]]]]]] Fs]. cbn [fst snd total] in *.
      assert (Ht : 0 <= total cs).
      { clear - Fs. revert Fs. generalize (step Binary64 muB orc s (setZ (t, k))). induction cs as [|c cs IH]; intros s' Fs; cbn; [lia|].
        destruct Fs as [[? _] Fs]. apply IH in Fs. lia. }
      destruct (C46_integers_partial muB orc OK B s R Se p q t x k Ed Npq V X0 Hk ltac:(lia) Hl Hh Fr)
        as [s1 [b [lb [E [Ct [_ [_ [_ [_ [Kc [_ [Wn [R1 Se1]]]]]]]]]]]]].
      assert (Es : step Binary64 muB orc s (setZ (t, k)) = s1) by (unfold step, setZ; cbn [run_op fst snd]; now rewrite E).
      cbn [map run fold_left]. rewrite Es in *.
      destruct (IH (B + k) s1 R1 Se1 Fs ltac:(lia)) as [R2 [Se2 [Wn2 [K2 G2]]]]. fold (run Binary64 muB orc s1 (map setZ cs)) in *.
      replace (B + (k + total cs)) with (B + k + total cs) by lia. split; auto. split; auto. split; [congruence|].
      split; [intros; apply K2; now apply Kc|]. intros t' k' [I|I]; [injection I as <- <-; exists p, q; now apply K2|auto]. }
  destruct H as [R' [Se' [Wn [Kc G]]]]. pose proof (reachable_WF Binary64 muB orc OK s' R') as W'. split; auto.
  split; [|split; [|auto]].
  - intros t k I. destruct (G t k I) as [u [v C]]. eapply settledZ_met; eauto.
  - intros u v t g C. eapply settledZ_met; eauto.
Qed.
Print Assumptions C46_history_partial.

(** Levels at 0, 10 and 15; the steps get the frequencies 12 and 3. *)
Definition chainZ : st Binary64 := runf fromf (chainf 0 10 15).
Lemma settledZ_start : forall zs B (s : st Binary64), unset s = true -> loose s = true -> map (@l_E Binary64) (s_levels s) = map f_ofZ zs ->
  Forall (fun z => Z.abs z <= B) zs -> settledZ B s.
Proof.
  intros zs B s Un Lo E Bd. constructor.
  - intros a l _ V. assert (I : In (l_E l) (map f_ofZ zs)) by (rewrite <- E; apply in_map, (nth_error_In _ _ V)).
    apply in_map_iff in I as [z [Ez I]]. rewrite Forall_forall in Bd. exists z. auto.
  - intros u v t f x C. destruct (unset_free _ _ Un _ _ _ _ C).
  - intros a l _ V F. rewrite (loose_all _ _ Lo _ _ V) in F. discriminate.
Qed.
Lemma chainZ_settled : settledZ 15 chainZ.
Proof. apply (settledZ_start [0; 10; 15]); [vm_compute; reflexivity|vm_compute; reflexivity|vm_compute; reflexivity|]. repeat constructor; lia. Qed.
Example C46_case : reachable Binary64 (f_ofZ 1) plain chainZ /\ settledZ 15 chainZ /\ firstsZ (f_ofZ 1) plain chainZ [(0%nat, 12); (1%nat, 3)] /\
  15 + total [(0%nat, 12); (1%nat, 3)] < 2 ^ 52 /\
  map (energyf (runf chainZ (map setZ [(0%nat, 12); (1%nat, 3)]))) [0; 1; 2]%nat = [Some (f_ofZ 0); Some (f_ofZ 12); Some (f_ofZ 15)].
Proof.
  pose proof (reachable_WF Binary64 (f_ofZ 1) plain plain_ok) as RW.
  split; [apply fromf_reachable|]. split; [apply chainZ_settled|]. split; [|split; [reflexivity|vm_compute; reflexivity]]. split; [|split; [|exact I]].
  - split; [cbn; lia|]. exists "6s 2S1/2"%string, "6p 2P*1/2"%string. apply firstb_spec; [apply RW, fromf_reachable|vm_compute; reflexivity].
  - split; [cbn; lia|]. exists "6p 2P*1/2"%string, "6p 2P*3/2"%string. apply firstb_spec; [apply RW, reachable_step, fromf_reachable|vm_compute; reflexivity].
Qed.
