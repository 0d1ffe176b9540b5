(** What the readable lists contain, and completeness of the conversions. *)
From Coq Require Import List Bool ZArith QArith Qcanon Reals Qreals Lia Lra String Ascii.
From Verif Require Import Base PyStr Util UtilProofs Parse ParseProofs Term Num Wigner WignerProofs WignerOne WignerSym WignerZero Hyperfine HyperfineProofs Rules RulesProofs StrengthSums StrengthPos
  WignerOrth WignerNorm Strengths StrengthProofs Coupling WignerNine CouplingProofs.
Import ListNotations.
Local Open Scope Z_scope.

(** ** The other direction: sums over the coupled states *)

Lemma LK_complete : forall j l s s' sc so G, tri l s j = true -> tri sc so s = true -> tri l s' j = true -> tri sc so s' = true ->
  NoDup G -> (forall k, tri l sc k = true -> tri k so j = true -> In k G) ->
  Rsums (fun k => LK_amp j k sc so (l, s) * LK_amp j k sc so (l, s'))%R G = if s =? s' then 1%R else 0%R.
Proof.
  intros j l s s' sc so G T1 T2 T1' T2' ND HG.
  pose proof (tri_nn _ _ _ T1) as N1. pose proof (tri_nn _ _ _ T2) as N2. pose proof (tri_nn _ _ _ T1') as N1'.
  rewrite (Rsums_ext _ (fun k => (sqrt (IZR (s + 1)) * sqrt (IZR (s' + 1))) * (IZR (k + 1) * (w6R l sc k so j s * w6R l sc k so j s')))%R).
  - rewrite Rsums_scale, w6R_orth; auto.
    + destruct (Z.eqb_spec s s') as [E|E]; [subst s'|ring]. rewrite sqrt_sqrt by (apply IZR_le; lia). field. apply not_0_IZR. lia.
    + now rewrite tri_23.
    + now rewrite tri_12.
    + now rewrite tri_23.
    + now rewrite tri_12.
    + intros k U V. apply HG; auto. rewrite (tri_231 k so j). exact V.
  - intros k _. unfold LK_amp. destruct (tri l sc k) eqn:U.
    + apply tri_nn in U. rewrite !(Z.mul_comm (k + 1)).
      transitivity ((sqrt (IZR ((s + 1) * (k + 1))) * sqrt (IZR ((s' + 1) * (k + 1)))) * (w6R l sc k so j s * w6R l sc k so j s'))%R; [ring|].
      rewrite sqrt_two by lia. ring.
    + rewrite (w6R_zero l sc k so j s); [ring|]. unfold w6_tri. now rewrite U.
Qed.

Lemma w6R_tri : forall a b c d e f, w6R a b c d e f <> 0%R -> tri a b c = true /\ tri a e f = true /\ tri d b f = true /\ tri d e c = true.
Proof.
  intros a b c d e f H. destruct (w6_tri a b c d e f) eqn:E; [|now rewrite w6R_zero in H].
  unfold w6_tri in E. rewrite !andb_true_iff in E. tauto.
Qed.

Lemma JK_complete : forall j l l' s s' lc sc lo so G K, tri lc lo l = true -> tri sc so s = true -> tri l s j = true ->
  tri lc lo l' = true -> tri sc so s' = true -> tri l' s' j = true ->
  NoDup G -> (forall jc, tri lc sc jc = true -> In jc G) -> NoDup K -> (forall k, tri k so j = true -> In k K) ->
  Rsums (fun k => Rsums (fun jc => JK_amp j jc k lc sc lo so (l, s) * JK_amp j jc k lc sc lo so (l', s')) G)%R K
  = if (l =? l') && (s =? s') then 1%R else 0%R.
Proof.
  intros j l l' s s' lc sc lo so G K T1 T2 T3 T1' T2' T3' NDG HG NDK HK.
  pose proof (tri_nn _ _ _ T1) as N1. pose proof (tri_nn _ _ _ T2) as N2. pose proof (tri_nn _ _ _ T3) as N3.
  pose proof (tri_nn _ _ _ T1') as N1'. pose proof (tri_nn _ _ _ T2') as N2'.
  rewrite (Rsums_ext _ (fun k => if l =? l' then (sqrt (IZR (s + 1)) * sqrt (IZR (s' + 1))) * (IZR (k + 1) * (w6R l sc k so j s * w6R l sc k so j s')) else 0)%R).
  - destruct (Z.eqb_spec l l') as [E|E]; [subst l'|cbn [andb]; apply Rsums_0; auto]. cbn [andb].
    rewrite Rsums_scale, w6R_orth; auto.
    + destruct (Z.eqb_spec s s') as [E|E]; [subst s'|ring]. rewrite sqrt_sqrt by (apply IZR_le; lia). field. apply not_0_IZR. lia.
    + now rewrite tri_23.
    + now rewrite tri_12.
    + now rewrite tri_23.
    + now rewrite tri_12.
    + intros k U V. apply HK. rewrite (tri_231 k so j). exact V.
  - intros k _. destruct (w6_tri l sc k so j s) eqn:U.
    2:{ rewrite Rsums_0; [|intros jc _; unfold JK_amp; rewrite (w6R_zero _ _ _ _ _ _ U); ring].
        rewrite (w6R_zero _ _ _ _ _ _ U). destruct (l =? l'); ring. }
    destruct (w6_tri l' sc k so j s') eqn:U'.
    2:{ rewrite Rsums_0; [|intros jc _; unfold JK_amp; rewrite (w6R_zero _ _ _ _ _ _ U'); ring].
        destruct (Z.eqb_spec l l') as [E|E]; [subst l'|reflexivity]. rewrite (w6R_zero _ _ _ _ _ _ U'); ring. }
    unfold w6_tri in U, U'. rewrite !andb_true_iff in U, U'. destruct U as [[[U1 U2] U3] U4]. destruct U' as [[[U1' U2'] U3'] U4'].
    pose proof (tri_nn _ _ _ U1) as N4.
    set (g := Rc (sgn ((- lc - lo - 2 * sc - so - k - l - j) / 2))). set (g' := Rc (sgn ((- lc - lo - 2 * sc - so - k - l' - j) / 2))).
    rewrite (Rsums_ext _ (fun jc => (g * g' * (sqrt (IZR ((l + 1) * (s + 1))) * sqrt (IZR ((l' + 1) * (s' + 1)))) * IZR (k + 1) * (w6R l sc k so j s * w6R l' sc k so j s'))
                                   * (IZR (jc + 1) * (w6R sc lc jc lo k l * w6R sc lc jc lo k l')))%R).
    + rewrite Rsums_scale, w6R_orth; auto.
      * destruct (Z.eqb_spec l l') as [E|E]; [subst l'|ring]. replace g' with g by reflexivity. unfold g. rewrite Rc_sgn2.
        rewrite !(Z.mul_comm (l + 1)), sqrt_two by lia. field. apply not_0_IZR. lia.
      * rewrite (tri_231 l sc k) in U1. exact U1.
      * now rewrite tri_12.
      * rewrite (tri_231 l' sc k) in U1'. exact U1'.
      * now rewrite tri_12.
      * intros jc V _. apply HG. now rewrite tri_12.
    + intros jc _. unfold JK_amp. fold g. fold g'. destruct (tri sc lc jc) eqn:V.
      * apply tri_nn in V.
        transitivity (g * g' * (sqrt (IZR ((jc + 1) * (l + 1) * (k + 1) * (s + 1))) * sqrt (IZR ((jc + 1) * (l' + 1) * (k + 1) * (s' + 1))))
                    * (w6R sc lc jc lo k l * w6R sc lc jc lo k l') * (w6R l sc k so j s * w6R l' sc k so j s'))%R; [ring|].
        replace ((jc + 1) * (l + 1) * (k + 1) * (s + 1)) with (((l + 1) * (s + 1)) * ((jc + 1) * (k + 1))) by ring.
        replace ((jc + 1) * (l' + 1) * (k + 1) * (s' + 1)) with (((l' + 1) * (s' + 1)) * ((jc + 1) * (k + 1))) by ring.
        rewrite sqrt_two by nia. rewrite (mult_IZR (jc + 1)). ring.
      * rewrite (w6R_zero sc lc jc lo k l); [ring|]. unfold w6_tri. now rewrite V.
Qed.

(** The 9j symbol and its transpose. *)
Lemma w6_sum_cols12 : forall a b c d e f, w6_sum a b c d e f = w6_sum b a c e d f.
Proof.
  intros. symmetry. unfold w6_sum.
  replace (b + a + c) with (a + b + c) by ring. replace (b + d + f) with (d + b + f) by ring. replace (e + a + f) with (a + e + f) by ring. replace (e + d + c) with (d + e + c) by ring.
  replace (b + a + e + d) with (a + b + d + e) by ring. replace (a + c + d + f) with (c + a + f + d) by ring. replace (c + b + f + e) with (b + c + e + f) by ring.
  unfold sum_range.
  match goal with |- sumr (Z.to_nat (?h1 - ?l1 + 1)) _ _ = sumr (Z.to_nat (?h2 - ?l2 + 1)) _ _ => replace h1 with h2 by lia; replace l1 with l2 by lia end.
  apply sumr_ext. intros z. unfold w6_term.
  replace (b + a + c) with (a + b + c) by ring. replace (b + d + f) with (d + b + f) by ring. replace (e + a + f) with (a + e + f) by ring. replace (e + d + c) with (d + e + c) by ring.
  replace (b + a + e + d) with (a + b + d + e) by ring. replace (a + c + d + f) with (c + a + f + d) by ring. replace (c + b + f + e) with (b + c + e + f) by ring.
  f_equal. f_equal. ring.
Qed.
Lemma w6_sum_flip12 : forall d f e b h x, w6_sum d f e b h x = w6_sum b h e d f x.
Proof. intros. rewrite (w6_sum_cols' d f), (w6_sum_cols12 d e), (w6_sum_flip e d), (w6_sum_cols12 e b), (w6_sum_cols' b e). reflexivity. Qed.

Lemma w9_sum_transpose : forall a b c d e f g h j, w9_sum a b c d e f g h j = w9_sum a d g b e h c f j.
Proof.
  intros. apply (sums_ext (fun x => w9_part a b c d e f g h j x) (fun x => w9_part a d g b e h c f j x)). intros x _.
  unfold w9_part. rewrite <- (andb_assoc (tri a j x) (tri d h x)), (andb_comm (tri d h x)), andb_assoc.
  destruct (tri a j x && tri b f x && tri d h x); auto. rewrite (w6_sum_flip12 d f). ring.
Qed.
Lemma w9R_transpose : forall a b c d e f g h j, w9R a b c d e f g h j = w9R a d g b e h c f j.
Proof.
  intros. unfold w9R. replace (w9_tri a d g b e h c f j) with (w9_tri a b c d e f g h j).
  2: { unfold w9_tri. destruct (tri a b c), (tri d e f), (tri g h j), (tri a d g), (tri b e h), (tri c f j); reflexivity. }
  destruct (w9_tri a b c d e f g h j); auto. rewrite (w9_sum_transpose a b). f_equal. f_equal; [f_equal; f_equal; ring|].
  f_equal. f_equal. unfold w9_delta. ring.
Qed.
Lemma w9R_tri : forall a b c d e f g h j, w9R a b c d e f g h j <> 0%R -> w9_tri a b c d e f g h j = true.
Proof. intros a b c d e f g h j H. unfold w9R in H. destruct (w9_tri a b c d e f g h j); auto. Qed.

Lemma JJ_complete : forall j l l' s s' lc sc lo so G H, tri lc lo l = true -> tri sc so s = true -> tri l s j = true ->
  tri lc lo l' = true -> tri sc so s' = true -> tri l' s' j = true ->
  NoDup G -> (forall jc, tri lc sc jc = true -> In jc G) -> NoDup H -> (forall jo, tri lo so jo = true -> In jo H) ->
  Rsums (fun jc => Rsums (fun jo => JJ_amp j jc jo lc sc lo so (l, s) * JJ_amp j jc jo lc sc lo so (l', s')) H)%R G
  = if (l =? l') && (s =? s') then 1%R else 0%R.
Proof.
  intros j l l' s s' lc sc lo so G H T1 T2 T3 T1' T2' T3' NDG HG NDH HH.
  pose proof (tri_nn _ _ _ T1) as N1. pose proof (tri_nn _ _ _ T2) as N2. pose proof (tri_nn _ _ _ T1') as N1'. pose proof (tri_nn _ _ _ T2') as N2'.
  set (K := (sqrt (IZR ((l + 1) * (s + 1))) * sqrt (IZR ((l' + 1) * (s' + 1))))%R).
  transitivity (K * Rsums (fun g => Rsums (fun h => IZR (g + 1) * IZR (h + 1) * (w9R lc lo l sc so s g h j * w9R lc lo l' sc so s' g h j)) H) G)%R.
  - rewrite <- Rsums_scale. apply Rsums_ext. intros jc _. rewrite <- Rsums_scale. apply Rsums_ext. intros jo _. unfold JJ_amp.
    rewrite !(w9R_transpose lc sc jc lo so jo). destruct (w9_tri lc lo l sc so s jc jo j) eqn:E.
    + unfold w9_tri in E. rewrite !andb_true_iff in E. destruct E as [[[[[_ _] E] _] _] _]. apply tri_nn in E.
      transitivity ((sqrt (IZR ((jc + 1) * (jo + 1) * (l + 1) * (s + 1))) * sqrt (IZR ((jc + 1) * (jo + 1) * (l' + 1) * (s' + 1)))) * (w9R lc lo l sc so s jc jo j * w9R lc lo l' sc so s' jc jo j))%R; [ring|].
      replace ((jc + 1) * (jo + 1) * (l + 1) * (s + 1)) with (((l + 1) * (s + 1)) * ((jc + 1) * (jo + 1))) by ring.
      replace ((jc + 1) * (jo + 1) * (l' + 1) * (s' + 1)) with (((l' + 1) * (s' + 1)) * ((jc + 1) * (jo + 1))) by ring.
      rewrite sqrt_two by nia. rewrite (mult_IZR (jc + 1)). unfold K. ring.
    + unfold w9R at 1 3. rewrite E. ring.
  - rewrite w9R_orth; auto.
    destruct (Z.eqb_spec l l') as [E|E]; [|cbn [andb]; ring]. destruct (Z.eqb_spec s s') as [E'|E']; [|cbn [andb]; ring]. cbn [andb]. subst l' s'.
    unfold K. rewrite sqrt_sqrt by (apply IZR_le; nia). rewrite mult_IZR. field. split; apply not_0_IZR; lia.
Qed.

(** ** The readable lists *)

(** A component: L, twice S, and the square of the amplitude. *)
Definition named (rnd : R -> R) (p : Z * Z * R) (c : string * fl) : Prop :=
  let '(l, s, x) := p in exists a, orbital_letter (l / 2) a /\ fst c = ls_symbol s a false /\ snd c = Some (rnd (100 * x ^ 2)%R).

Lemma letter_at : forall i, 0 <= i <= 20 -> exists a, orbital_letter i a /\ str_index letters i = Ok (String a EmptyString).
Proof.
  intros i H. destruct (String.get (Z.to_nat i) spectro_letters) as [a|] eqn:E.
  - exists a. split; [now split|].
    assert (C : i = 0 \/ i = 1 \/ i = 2 \/ i = 3 \/ i = 4 \/ i = 5 \/ i = 6 \/ i = 7 \/ i = 8 \/ i = 9 \/ i = 10 \/ i = 11 \/ i = 12 \/ i = 13 \/ i = 14 \/ i = 15 \/ i = 16 \/ i = 17 \/ i = 18 \/ i = 19 \/ i = 20) by lia.
    repeat (destruct C as [->|C]; [vm_compute in E; apply (f_equal (fun o => match o with Some c => c | None => a end)) in E; rewrite <- E; reflexivity|]).
    subst i. vm_compute in E. apply (f_equal (fun o => match o with Some c => c | None => a end)) in E; rewrite <- E; reflexivity.
  - exfalso. assert (C : i = 0 \/ i = 1 \/ i = 2 \/ i = 3 \/ i = 4 \/ i = 5 \/ i = 6 \/ i = 7 \/ i = 8 \/ i = 9 \/ i = 10 \/ i = 11 \/ i = 12 \/ i = 13 \/ i = 14 \/ i = 15 \/ i = 16 \/ i = 17 \/ i = 18 \/ i = 19 \/ i = 20) by lia.
    repeat (destruct C as [->|C]; [discriminate E|]). subst i. discriminate E.
Qed.

(** The sets with a non-zero amplitude. *)
Definition nonzero (p : Z * Z * R) : bool := if Req_EM_T (snd p) 0 then false else true.

Lemma list_of_sets : forall rnd (f : Z * Z -> R) (g : list (Z * Z)), g <> [] -> (forall l s, In (l, s) g -> exists i, l = 2 * i /\ 0 <= i <= 20) ->
  exists entries, sets_to_list rnd (map (fun p => (p, Some (f p))) g) = Ok entries /\
    Forall2 (named rnd) (filter nonzero (map (fun p => (p, f p)) g)) entries.
Proof.
  intros rnd f g NE HG. unfold sets_to_list. destruct (map (fun p => (p, Some (f p))) g) eqn:M; [destruct g; [congruence|discriminate M]|]. rewrite <- M. clear M NE p l.
  induction g as [|[l s] g IH]; [exists []; split; [reflexivity|constructor]|].
  destruct IH as [es [E F]]; [intros; eapply HG; right; eauto|].
  cbn [map filter]. unfold nonzero at 1. cbn [fl_nonzero snd]. destruct (Req_EM_T (f (l, s)) 0) as [Z|Z]; [exists es; split; assumption|].
  destruct (HG l s) as [i [-> Hi]]; [now left|]. destruct (letter_at i Hi) as [a [Ha Hs]].
  cbn [rmapM]. replace (Z.quot (2 * i) 2) with i by (rewrite Z.mul_comm, Z.quot_mul; lia). rewrite Hs. cbn [rbind]. rewrite E. cbn [rbind].
  eexists; split; [reflexivity|]. constructor; auto. cbn [named fst snd]. exists a. replace (2 * i / 2) with i by (rewrite Z.mul_comm, Z.div_mul; lia). auto.
Qed.

(** The sum of the entries of a list without nan. *)
Fixpoint total (es : list (string * fl)) : fl :=
  match es with
  | [] => Some 0%R
  | (_, Some x) :: es' => option_map (fun t => (x + t)%R) (total es')
  | (_, None) :: _ => None
  end.

Lemma total_near : forall rnd e ps es, (forall x, Rabs (rnd x - x) <= e)%R -> Forall2 (named rnd) ps es ->
  exists t, total es = Some t /\ (Rabs (t - 100 * Rsums (fun p => snd p * snd p)%R ps) <= e * INR (List.length es))%R.
Proof.
  intros rnd e ps es He F. induction F as [|[[l s] x] [n v] ps es H F [t [T B]]].
  - exists 0%R. split; auto. cbn. rewrite Rmult_0_r, Rminus_0_r, Rabs_R0. lra.
  - destruct H as [a [_ [_ H]]]. cbn [snd] in H. subst v. exists (rnd (100 * x ^ 2) + t)%R. cbn [total]. rewrite T. split; auto.
    rewrite Rsums_cons. cbn [List.length snd]. rewrite S_INR. pose proof (He (100 * x ^ 2)%R) as H.
    replace (rnd (100 * x ^ 2) + t - 100 * (x * x + Rsums (fun p => snd p * snd p) ps))%R
      with ((rnd (100 * x ^ 2) - 100 * x ^ 2) + (t - 100 * Rsums (fun p => snd p * snd p) ps))%R by ring.
    eapply Rle_trans; [apply Rabs_triang|]. lra.
Qed.
Lemma Rsums_nonzero : forall ps, Rsums (fun p => snd p * snd p)%R (filter nonzero ps) = Rsums (fun p => snd p * snd p)%R ps.
Proof.
  induction ps as [|p ps IH]; auto. cbn [filter]. unfold nonzero at 1. destruct (Req_EM_T (snd p) 0) as [Z|Z]; rewrite ?Rsums_cons, IH; auto. rewrite Z. ring.
Qed.

Lemma ls_symbol_inj : forall s a i s' a' i', 0 <= s -> 0 <= s' -> orbital_letter i a -> orbital_letter i' a' ->
  ls_symbol s a false = ls_symbol s' a' false -> i = i' /\ s = s'.
Proof.
  intros s a i s' a' i' Hs Hs' Ha Ha' E. pose proof (quantum_nums_LS "" s i a false Hs Ha) as P. pose proof (quantum_nums_LS "" s' i' a' false Hs' Ha') as P'.
  rewrite E in P. rewrite P in P'. split.
  - apply (f_equal (fun r => match r with Ok q => match q_l q with Some x => Qnum x | None => 0 end | Raise _ => 0 end)) in P'. cbn in P'. exact P'.
  - apply (f_equal (fun r => match r with Ok q => q_s q | Raise _ => None end)) in P'. cbn [q_s] in P'. unfold ParseProofs.half in P'.
    assert (Q : Qred (s # 2) = Qred (s' # 2)) by congruence. assert (QE : (s # 2 == s' # 2)%Q) by (rewrite <- (Qred_correct (s # 2)), Q; apply Qred_correct).
    unfold Qeq in QE. cbn in QE. lia.
Qed.

Lemma names_distinct : forall rnd ps es, Forall2 (named rnd) ps es -> NoDup (map fst ps) ->
  (forall p, In p ps -> 0 <= snd (fst p) /\ exists i, fst (fst p) = 2 * i) -> NoDup (map fst es).
Proof.
  intros rnd ps es F. induction F as [|p c ps es H F IH]; intros ND HP; [constructor|].
  cbn [map] in *. inversion ND as [|? ? NI ND']; subst. constructor; [|apply IH; auto; intros; apply HP; now right].
  intros I. apply NI. clear IH ND ND' NI. destruct (HP p) as [P1 [i P2]]; [now left|].
  assert (HP' : forall p0, In p0 ps -> 0 <= snd (fst p0) /\ exists i0, fst (fst p0) = 2 * i0) by (intros; apply HP; now right). clear HP.
  induction F as [|q d ps es Hq F IH]; [destruct I|]. cbn [map] in *. destruct I as [I|I]; [left|right; apply IH; auto; intros; apply HP'; now right].
  destruct p as [[l s] x], q as [[l' s'] x']. destruct H as [a [A1 [A2 _]]], Hq as [a' [A1' [A2' _]]]. destruct (HP' (l', s', x')) as [P1' [i' P2']]; [now left|].
  cbn [fst snd] in *. rewrite A2, A2' in I. destruct (ls_symbol_inj _ _ _ _ _ _ P1' P1 A1' A1 I) as [E1 E2].
  subst. replace i with i'; auto. rewrite !(Z.mul_comm 2), !Z.div_mul in E1 by lia. exact E1.
Qed.
