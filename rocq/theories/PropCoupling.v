(** Properties C101-C105: conversion of JJ, JK and LK coupled terms to LS
    coupling.  Angular momenta are doubled integers except L, lc and lo, which
    are integers; [rnd] is any rounding of the percentages. *)
From Coq Require Import List Bool ZArith QArith Qcanon Reals Qreals Lia Lra String Ascii.
From Verif Require Import Base PyStr Util UtilProofs Regex Parse ParseProofs ParseProofs2 Term Num Wigner WignerProofs WignerOne WignerSym WignerZero Hyperfine HyperfineProofs
  Rules RulesProofs StrengthSums StrengthPos WignerOrth WignerNorm Strengths StrengthProofs Coupling WignerNine CouplingProofs CouplingList CouplingTerms.
Import ListNotations.
Local Open Scope Z_scope.
Local Open Scope string_scope.

(** The ways of writing a state that the parser understands (C06). *)
Definition JK_text (sc lc jc lo so k : Z) (conf term : string) : Prop :=
  exists p q cc oddc co odd, no_upper p = true /\ no_upper q = true /\ orbital_letter lc cc /\ orbital_letter lo co /\ term = jk_symbol so k odd /\
    (conf = p ++ "(" ++ ancestor sc cc oddc jc ++ ")" ++ q ++ String (small co) "" \/
     exists s2 oddo, 0 <= s2 /\ conf = p ++ "(" ++ ancestor sc cc oddc jc ++ ")" ++ q ++ "(" ++ ls_symbol s2 co oddo ++ ")").
Definition LK_text (sc lc lo L so k : Z) (conf term : string) : Prop :=
  exists p q cc oddc co cL oddL odd, free "(" p = true /\ free "(" q = true /\ orbital_letter lc cc /\ orbital_letter lo co /\ orbital_letter L cL /\
    term = lk_symbol cL oddL so k odd /\
    (conf = p ++ "(" ++ ls_symbol sc cc oddc ++ ")" ++ q ++ String (small co) "" \/
     exists s2 oddo, 0 <= s2 /\ conf = p ++ "(" ++ ls_symbol sc cc oddc ++ ")" ++ q ++ "(" ++ ls_symbol s2 co oddo ++ ")").
Definition JJ_text (sc lc jc so lo jo : Z) (conf term : string) : Prop :=
  exists p q cc oddc co oddo a b odd, free "<" p = true /\ free ")" p = true /\ free "<" q = true /\ free ")" q = true /\
    orbital_letter lc cc /\ orbital_letter lo co /\ term = jj_symbol a b odd /\
    conf = p ++ "(" ++ ancestor sc cc oddc jc ++ ")." ++ q ++ "." ++ "(" ++ ancestor so co oddo jo ++ ")".
(** A single outer electron [nl<jo>]. *)
Definition JJ_electron (sc lc jc n lo jo : Z) (conf term : string) : Prop :=
  exists p q cc oddc co a b odd, free "<" p = true /\ free ")" p = true /\ free "<" q = true /\ free ")" q = true /\
    orbital_letter lc cc /\ orbital_letter lo co /\ term = jj_symbol a b odd /\
    conf = p ++ "(" ++ ancestor sc cc oddc jc ++ ")." ++ q ++ "." ++ electron n co jo.

Lemma JK_read : forall rnd sc lc jc lo so k conf term j, 0 <= sc -> 0 <= so -> JK_text sc lc jc lo so k conf term ->
  term_to_LS rnd conf term j = Some (sets_to_list rnd (JK_to_LS j jc k (2 * lc) sc (2 * lo) so)) /\ 0 <= lc /\ 0 <= lo.
Proof.
  intros rnd sc lc jc lo so k conf term j Hc Ho (p & q & cc & oddc & co & odd & P & Q & Lc & Lo & T & C). split; [|destruct Lc, Lo; lia].
  assert (E : get_quantum_nums conf term = Ok (mkQN (whole lc) (ParseProofs.half sc) (whole lo) (ParseProofs.half so) (ParseProofs.half jc) None None None (ParseProofs.half k))).
  { subst term. destruct C as [->|[s2 [oddo [S ->]]]]; [now apply quantum_nums_JK_electron|now apply quantum_nums_JK_terms]. }
  unfold term_to_LS. rewrite E, T, coupling_JK by auto. cbn [q_jc q_k q_lc q_sc q_lo q_so]. rewrite !arg_half, !arg_whole, !arg_half, !arg_whole, !arg_half. reflexivity.
Qed.
Lemma LK_read : forall rnd sc lc lo L so k conf term j, 0 <= sc -> 0 <= so -> LK_text sc lc lo L so k conf term ->
  term_to_LS rnd conf term j = Some (sets_to_list rnd (LK_to_LS j (2 * L) k sc so)) /\ 0 <= L <= 20.
Proof.
  intros rnd sc lc lo L so k conf term j Hc Ho (p & q & cc & oddc & co & cL & oddL & odd & P & Q & Lc & Lo & LL & T & C). split; [|destruct LL; lia].
  assert (E : get_quantum_nums conf term = Ok (mkQN (whole lc) (ParseProofs.half sc) (whole lo) (ParseProofs.half so) None None (whole L) None (ParseProofs.half k))).
  { subst term. destruct C as [->|[s2 [oddo [S ->]]]]; [now apply quantum_nums_LK_electron|now apply quantum_nums_LK_terms]. }
  unfold term_to_LS. rewrite E, T, (coupling_LK L) by auto. cbn [q_l q_k q_lc q_sc q_lo q_so]. rewrite !arg_whole, !arg_half. reflexivity.
Qed.
Lemma JJ_read : forall rnd sc lc jc so lo jo conf term j, 0 <= sc -> 0 <= so -> JJ_text sc lc jc so lo jo conf term ->
  term_to_LS rnd conf term j = Some (sets_to_list rnd (JJ_to_LS j jc jo (2 * lc) sc (2 * lo) so)) /\ 0 <= lc /\ 0 <= lo.
Proof.
  intros rnd sc lc jc so lo jo conf term j Hc Ho (p & q & cc & oddc & co & oddo & a & b & odd & P1 & P2 & Q1 & Q2 & Lc & Lo & T & C). split; [|destruct Lc, Lo; lia].
  assert (E : get_quantum_nums conf term = Ok (mkQN (whole lc) (ParseProofs.half sc) (whole lo) (ParseProofs.half so) (ParseProofs.half jc) (ParseProofs.half jo) None None None)).
  { subst term. subst conf. now apply quantum_nums_JJ_terms. }
  unfold term_to_LS. rewrite E, T, coupling_JJ. cbn [q_jc q_jo q_lc q_sc q_lo q_so]. rewrite !arg_half, !arg_whole, !arg_half, !arg_whole, !arg_half. reflexivity.
Qed.
Lemma JJ_read_electron : forall rnd sc lc jc n lo jo conf term j, 0 <= sc -> 1 <= n -> JJ_electron sc lc jc n lo jo conf term ->
  term_to_LS rnd conf term j = Some (sets_to_list rnd (JJ_to_LS j jc jo (2 * lc) sc (2 * lo) 0)) /\ 0 <= lc /\ 0 <= lo.
Proof.
  intros rnd sc lc jc n lo jo conf term j Hc Hn (p & q & cc & oddc & co & a & b & odd & P1 & P2 & Q1 & Q2 & Lc & Lo & T & C). split; [|destruct Lc, Lo; lia].
  assert (E : get_quantum_nums conf term = Ok (mkQN (whole lc) (ParseProofs.half sc) (whole lo) (Some 0%Q) (ParseProofs.half jc) (ParseProofs.half jo) None None None)).
  { subst term. subst conf. now apply quantum_nums_JJ_electron. }
  unfold term_to_LS. rewrite E, T, coupling_JJ. cbn [q_jc q_jo q_lc q_sc q_lo q_so]. rewrite !arg_half, !arg_whole, !arg_half, !arg_whole. reflexivity.
Qed.

(** C101.  The percentages of a possible state add up to 100.  With [e = 0]
    ([rnd] the identity) exactly; rounding to two digits has [e = 1/200]. *)
Theorem C101_JK : forall rnd e sc lc jc lo so k conf term j, (forall x, Rabs (rnd x - x) <= e)%R ->
  0 <= sc -> 0 <= so -> JK_text sc lc jc lo so k conf term -> lc + lo <= 20 ->
  triangle (2 * lc) sc jc -> triangle jc (2 * lo) k -> triangle k so j -> adds_up e (term_to_LS rnd conf term j).
Proof.
  intros rnd e sc lc jc lo so k conf term j He Hc Ho X B T1 T2 T3. destruct (JK_read rnd _ _ _ _ _ _ _ _ j Hc Ho X) as [-> [P Q]].
  apply tri_spec in T1, T2, T3. now apply JK_list.
Qed.
Print Assumptions C101_JK.
Theorem C101_LK : forall rnd e sc lc lo L so k conf term j, (forall x, Rabs (rnd x - x) <= e)%R ->
  0 <= sc -> 0 <= so -> LK_text sc lc lo L so k conf term ->
  triangle (2 * L) sc k -> triangle k so j -> adds_up e (term_to_LS rnd conf term j).
Proof.
  intros rnd e sc lc lo L so k conf term j He Hc Ho X T1 T2. destruct (LK_read rnd _ _ _ _ _ _ _ _ j Hc Ho X) as [-> P].
  apply tri_spec in T1, T2. now apply LK_list.
Qed.
Print Assumptions C101_LK.
Theorem C101_JJ_terms : forall rnd e sc lc jc so lo jo conf term j, (forall x, Rabs (rnd x - x) <= e)%R ->
  0 <= sc -> 0 <= so -> JJ_text sc lc jc so lo jo conf term -> lc + lo <= 20 ->
  triangle (2 * lc) sc jc -> triangle (2 * lo) so jo -> triangle jc jo j -> adds_up e (term_to_LS rnd conf term j).
Proof.
  intros rnd e sc lc jc so lo jo conf term j He Hc Ho X B T1 T2 T3. destruct (JJ_read rnd _ _ _ _ _ _ _ _ j Hc Ho X) as [-> [P Q]].
  apply tri_spec in T1, T2, T3. now apply JJ_list.
Qed.
Print Assumptions C101_JJ_terms.
Example C101_case :
  JK_text 1 3 7 2 2 5 "4f13.(2F*<7/2>).5d.6s.(3D)" "3[5/2]*" /\ triangle 6 1 7 /\ triangle 7 4 5 /\ triangle 5 2 3 /\
  LK_text 1 1 3 2 1 5 "3s2.3p.(2P*).4f" "D 2[5/2]" /\ triangle 4 1 5 /\ triangle 5 1 4 /\
  JJ_text 1 3 7 2 2 4 "4f13.(2F*<7/2>).5d.6s.(3D<2>)" "(7/2,2)*" /\ triangle 6 1 7 /\ triangle 4 2 4 /\ triangle 7 4 5.
Proof.
  split. { exists "4f13.", ".5d.6s.", "F"%char, true, "D"%char, true. repeat split; try (reflexivity || lia). right. exists 2, false. split; [lia|reflexivity]. }
  split. { apply tri_spec; reflexivity. }
  split. { apply tri_spec; reflexivity. }
  split. { apply tri_spec; reflexivity. }
  split. { exists "3s2.3p.", ".4", "P"%char, true, "F"%char, "D"%char, false, false. repeat split; try (reflexivity || lia). left. reflexivity. }
  split. { apply tri_spec; reflexivity. }
  split. { apply tri_spec; reflexivity. }
  split. { exists "4f13.", "5d.6s", "F"%char, true, "D"%char, false, 7, 4, true. repeat split; (reflexivity || lia). }
  split. { apply tri_spec; reflexivity. }
  split. { apply tri_spec; reflexivity. }
  apply tri_spec; reflexivity.
Qed.

(** For a single outer electron, written as [nl<jo>] with [jo] a half-integer,
    the list is always empty: its percentages add up to 0. *)
Lemma all_zero : forall rnd sets, sets <> [] -> (forall p, In p sets -> snd p = Some 0%R) -> sets_to_list rnd sets = Ok [].
Proof.
  intros rnd sets NE H. unfold sets_to_list. replace (filter (fun p => fl_nonzero (snd p)) sets) with (@nil (Z * Z * fl)); [destruct sets; [congruence|reflexivity]|].
  symmetry. clear NE. induction sets as [|p sets IH]; auto. cbn [filter]. pose proof (H p (or_introl eq_refl)) as Hp. destruct p as [ls a]. cbn [snd] in Hp |- *. subst a. cbn [fl_nonzero].
  destruct (Req_EM_T 0 0) as [_|N]; [|now elim N]. apply IH. intros q I. apply H. now right.
Qed.
Lemma no_entries : forall rnd j jc jo lc sc lo so, 0 <= lc -> 0 <= sc -> 0 <= lo -> 0 <= so -> tri lc sc jc && tri lo so jo && tri jc jo j = false ->
  sets_to_list rnd (JJ_to_LS j jc jo lc sc lo so) = Ok [].
Proof.
  intros rnd j jc jo lc sc lo so H1 H2 H3 H4 NT. apply all_zero; unfold JJ_to_LS.
  - pose proof (F_range_ne lc lo H1 H3) as N1. pose proof (F_range_ne sc so H2 H4) as N2. unfold grid.
    destruct (F_range lc lo); [congruence|]. destruct (F_range sc so); [congruence|]. discriminate.
  - intros p I. apply in_map_iff in I as [[l s] [<- _]]. cbn [snd]. f_equal.
    unfold w9R, w9_tri. destruct (tri lc sc jc), (tri lo so jo), (tri jc jo j); try discriminate NT; cbn [andb]; rewrite ?andb_false_r; ring.
Qed.

Theorem C101_JJ_electron_refuted : forall rnd sc lc jc n lo jo conf term j, 0 <= sc -> 1 <= n -> Z.Odd jo ->
  JJ_electron sc lc jc n lo jo conf term -> term_to_LS rnd conf term j = Some (Ok []).
Proof.
  intros rnd sc lc jc n lo jo conf term j Hc Hn O X. destruct (JJ_read_electron rnd _ _ _ _ _ _ _ _ j Hc Hn X) as [-> [P Q]].
  rewrite no_entries; auto; try lia. replace (tri (2 * lo) 0 jo) with false; [now rewrite andb_false_r|].
  symmetry. apply not_true_is_false. intros T. apply tri_spec in T as [_ [m T]]. destruct O as [i O]. lia.
Qed.
Print Assumptions C101_JJ_electron_refuted.
(** A test input of the repository; its state is possible. *)
Example C101_electron_case : JJ_electron 1 2 5 4 1 3 "3d9.(2D<5/2>).3p6.4p<3/2>" "(5/2,3/2)*" /\ Z.Odd 3 /\
  triangle 4 1 5 /\ triangle 2 1 3 /\ triangle 5 3 6.
Proof.
  split. { exists "3d9.", "3p6", "D"%char, false, "P"%char, 5, 3, true. repeat split; (reflexivity || lia). }
  split; [now exists 1|]. rewrite <- !tri_spec. repeat split; reflexivity.
Qed.

(** C102.  States of the same J that differ in the coupled numbers are
    orthogonal, each has norm 1, and both arrays list the same L and S. *)
Definition inner (u v : list (Z * Z * fl)) (r : R) : Prop :=
  map fst u = map fst v /\ exists x y, amps u = Some x /\ amps v = Some y /\ dot x y = r.

Theorem C102_JJ : forall j jc jo jc' jo' lc sc lo so, triangle lc sc jc -> triangle lo so jo -> triangle jc jo j ->
  triangle lc sc jc' -> triangle lo so jo' -> triangle jc' jo' j ->
  (jc = jc' /\ jo = jo' -> inner (JJ_to_LS j jc jo lc sc lo so) (JJ_to_LS j jc' jo' lc sc lo so) 1) /\
  (~ (jc = jc' /\ jo = jo') -> inner (JJ_to_LS j jc jo lc sc lo so) (JJ_to_LS j jc' jo' lc sc lo so) 0).
Proof.
  intros j jc jo jc' jo' lc sc lo so T1 T2 T3 T1' T2' T3'. apply tri_spec in T1, T2, T3, T1', T2', T3'.
  assert (I : forall r, r = (if ((jc =? jc') && (jo =? jo'))%Z then 1%R else 0%R) -> inner (JJ_to_LS j jc jo lc sc lo so) (JJ_to_LS j jc' jo' lc sc lo so) r).
  { intros r ->. split; [unfold JJ_to_LS; rewrite !map_map; apply map_ext; intros [l s]; reflexivity|].
    do 2 eexists. split; [apply JJ_amps|]. split; [apply JJ_amps|]. now apply JJ_dot. }
  split; intros E; apply I.
  - destruct E as [-> ->]. now rewrite !Z.eqb_refl.
  - destruct (Z.eqb_spec jc jc'), (Z.eqb_spec jo jo'); cbn [andb]; auto. tauto.
Qed.
Print Assumptions C102_JJ.
Theorem C102_JK : forall j jc k jc' k' lc sc lo so, triangle lc sc jc -> triangle jc lo k -> triangle k so j ->
  triangle lc sc jc' -> triangle jc' lo k' -> triangle k' so j ->
  (jc = jc' /\ k = k' -> inner (JK_to_LS j jc k lc sc lo so) (JK_to_LS j jc' k' lc sc lo so) 1) /\
  (~ (jc = jc' /\ k = k') -> inner (JK_to_LS j jc k lc sc lo so) (JK_to_LS j jc' k' lc sc lo so) 0).
Proof.
  intros j jc k jc' k' lc sc lo so T1 T2 T3 T1' T2' T3'. apply tri_spec in T1, T2, T3, T1', T2', T3'.
  assert (N : 0 <= lc /\ 0 <= lo) by (apply tri_nn in T1; apply tri_nn in T2; lia).
  assert (I : forall r, r = (if ((jc =? jc') && (k =? k'))%Z then 1%R else 0%R) -> inner (JK_to_LS j jc k lc sc lo so) (JK_to_LS j jc' k' lc sc lo so) r).
  { intros r ->. split; [unfold JK_to_LS; rewrite !map_map; apply map_ext; intros [l s]; reflexivity|].
    do 2 eexists. split; [apply JK_amps; tauto|]. split; [apply JK_amps; tauto|]. now apply JK_dot. }
  split; intros E; apply I.
  - destruct E as [-> ->]. now rewrite !Z.eqb_refl.
  - destruct (Z.eqb_spec jc jc'), (Z.eqb_spec k k'); cbn [andb]; auto. tauto.
Qed.
Print Assumptions C102_JK.
Theorem C102_LK : forall j l k k' sc so, triangle l sc k -> triangle k so j -> triangle l sc k' -> triangle k' so j ->
  (k = k' -> inner (LK_to_LS j l k sc so) (LK_to_LS j l k' sc so) 1) /\
  (k <> k' -> inner (LK_to_LS j l k sc so) (LK_to_LS j l k' sc so) 0).
Proof.
  intros j l k k' sc so T1 T2 T1' T2'. apply tri_spec in T1, T2, T1', T2'.
  assert (I : forall r, r = (if (k =? k')%Z then 1%R else 0%R) -> inner (LK_to_LS j l k sc so) (LK_to_LS j l k' sc so) r).
  { intros r ->. split; [unfold LK_to_LS; rewrite !map_map; apply map_ext; intros [l' s]; reflexivity|].
    do 2 eexists. split; [apply LK_amps|]. split; [apply LK_amps|]. now apply LK_dot. }
  split; intros E; apply I.
  - subst k'. now rewrite !Z.eqb_refl.
  - destruct (Z.eqb_spec k k'); auto. contradiction.
Qed.
Print Assumptions C102_LK.
(** JJ: (7/2, 2), (5/2, 2) and (7/2, 3) for J = 5/2. *)
Example C102_case : triangle 6 1 7 /\ triangle 4 2 4 /\ triangle 7 4 5 /\ triangle 6 1 5 /\ triangle 5 4 5 /\ triangle 4 2 6 /\ triangle 7 6 5.
Proof. rewrite <- !tri_spec. repeat split; reflexivity. Qed.

(** The other way round: an LS state is made up of the coupled states in the
    same manner.  [f] are its amplitudes in the states of the given J. *)
Theorem C102_JJ_complete : forall j l s lc sc lo so, triangle lc lo l -> triangle sc so s -> triangle l s j ->
  exists f : Z -> Z -> R,
    (forall jc jo, In (l, s, Some (f jc jo)) (JJ_to_LS j jc jo lc sc lo so)) /\
    Rsums (fun jc => Rsums (fun jo => f jc jo ^ 2)%R (F_range lo so)) (F_range lc sc) = 1%R.
Proof.
  intros j l s lc sc lo so T1 T2 T3. apply tri_spec in T1, T2, T3. pose proof (tri_nn _ _ _ T1). pose proof (tri_nn _ _ _ T2).
  exists (fun jc jo => JJ_amp j jc jo lc sc lo so (l, s)). split.
  - intros jc jo. unfold JJ_to_LS. apply in_map_iff. exists (l, s). split; [reflexivity|]. apply in_prod_iff. split; apply F_range_In; tauto.
  - rewrite (Rsums_ext _ (fun jc => Rsums (fun jo => JJ_amp j jc jo lc sc lo so (l, s) * JJ_amp j jc jo lc sc lo so (l, s))%R (F_range lo so))).
    + rewrite JJ_complete; auto; try apply F_range_nodup; try (intros; apply F_range_In; tauto). now rewrite !Z.eqb_refl.
    + intros. apply Rsums_ext. intros. ring.
Qed.
Print Assumptions C102_JJ_complete.
Theorem C102_LK_complete : forall j l s sc so, triangle l s j -> triangle sc so s ->
  exists f : Z -> R, (forall k, In (l, s, Some (f k)) (LK_to_LS j l k sc so)) /\ Rsums (fun k => f k ^ 2)%R (F_range l sc) = 1%R.
Proof.
  intros j l s sc so T1 T2. apply tri_spec in T1, T2. pose proof (tri_nn _ _ _ T1). pose proof (tri_nn _ _ _ T2).
  exists (fun k => LK_amp j k sc so (l, s)). split.
  - intros k. unfold LK_to_LS. apply in_map_iff. exists (l, s). split; [reflexivity|]. apply in_prod_iff. split; [now left|]. apply F_range_In; tauto.
  - rewrite (Rsums_ext _ (fun k => LK_amp j k sc so (l, s) * LK_amp j k sc so (l, s))%R) by (intros; ring).
    rewrite LK_complete; auto; try apply F_range_nodup; try (intros; apply F_range_In; tauto). now rewrite !Z.eqb_refl.
Qed.
Print Assumptions C102_LK_complete.
Theorem C102_JK_complete : forall j l s lc sc lo so, triangle lc lo l -> triangle sc so s -> triangle l s j ->
  exists f : Z -> Z -> R,
    (forall jc k, triangle k so j -> In (l, s, Some (f jc k)) (JK_to_LS j jc k lc sc lo so)) /\
    Rsums (fun k => Rsums (fun jc => f jc k ^ 2)%R (F_range lc sc)) (F_range so j) = 1%R.
Proof.
  intros j l s lc sc lo so T1 T2 T3. apply tri_spec in T1, T2, T3. pose proof (tri_nn _ _ _ T1). pose proof (tri_nn _ _ _ T2). pose proof (tri_nn _ _ _ T3).
  exists (fun jc k => JK_amp j jc k lc sc lo so (l, s)). split.
  - intros jc k T. apply tri_spec in T. unfold JK_to_LS. apply in_map_iff. exists (l, s). split; [|apply in_prod_iff; split; apply F_range_In; tauto].
    destruct (even_sum _ _ _ T1) as [n I]. destruct (even_sum _ _ _ T) as [m M3]. unfold minus_one_pow.
    replace (Z.even (- lc - lo - 2 * sc - so - k - l - j)) with true; [reflexivity|]. symmetry. apply Z.even_spec. exists (- n - m - sc). lia.
  - rewrite (Rsums_ext _ (fun k => Rsums (fun jc => JK_amp j jc k lc sc lo so (l, s) * JK_amp j jc k lc sc lo so (l, s))%R (F_range lc sc))).
    + rewrite JK_complete; auto; try apply F_range_nodup; try (intros; apply F_range_In; tauto); [now rewrite !Z.eqb_refl|].
      intros k T. apply F_range_In; try tauto. now rewrite (tri_231 k so j) in T.
    + intros. apply Rsums_ext. intros. ring.
Qed.
Print Assumptions C102_JK_complete.
Example C102_complete_case : triangle 6 4 8 /\ triangle 1 2 3 /\ triangle 8 3 5.
Proof. rewrite <- !tri_spec. repeat split; reflexivity. Qed.

(** C103.  Every entry is a term that exists, and no term is listed twice. *)
Theorem C103_JK : forall rnd sc lc jc lo so k conf term j, 0 <= sc -> 0 <= so -> JK_text sc lc jc lo so k conf term -> lc + lo <= 20 ->
  triangle (2 * lc) sc jc -> triangle jc (2 * lo) k -> triangle k so j -> real_terms lc sc lo so j (term_to_LS rnd conf term j).
Proof.
  intros rnd sc lc jc lo so k conf term j Hc Ho X B T1 T2 T3. destruct (JK_read rnd _ _ _ _ _ _ _ _ j Hc Ho X) as [-> [P Q]].
  apply tri_spec in T1, T2, T3. now apply JK_list.
Qed.
Print Assumptions C103_JK.
Theorem C103_LK : forall rnd sc lc lo L so k conf term j, 0 <= sc -> 0 <= so -> LK_text sc lc lo L so k conf term ->
  triangle (2 * L) sc k -> triangle k so j ->
  exists es, term_to_LS rnd conf term j = Some (Ok es) /\ NoDup (map fst es) /\
    forall c, In c es -> exists s a, orbital_letter L a /\ fst c = ls_symbol s a false /\ triangle sc so s /\ triangle (2 * L) s j.
Proof.
  intros rnd sc lc lo L so k conf term j Hc Ho X T1 T2. destruct (LK_read rnd _ _ _ _ _ _ _ _ j Hc Ho X) as [-> P].
  apply tri_spec in T1, T2. now apply LK_list.
Qed.
Print Assumptions C103_LK.
Theorem C103_JJ_terms : forall rnd sc lc jc so lo jo conf term j, 0 <= sc -> 0 <= so -> JJ_text sc lc jc so lo jo conf term -> lc + lo <= 20 ->
  triangle (2 * lc) sc jc -> triangle (2 * lo) so jo -> triangle jc jo j -> real_terms lc sc lo so j (term_to_LS rnd conf term j).
Proof.
  intros rnd sc lc jc so lo jo conf term j Hc Ho X B T1 T2 T3. destruct (JJ_read rnd _ _ _ _ _ _ _ _ j Hc Ho X) as [-> [P Q]].
  apply tri_spec in T1, T2, T3. now apply JJ_list.
Qed.
Print Assumptions C103_JJ_terms.
(** An LS coupled term is its own expansion. *)
Theorem C103_LS : forall rnd conf s2 i c odd j, 0 <= s2 -> orbital_letter i c ->
  term_to_LS rnd conf (ls_symbol s2 c odd) j = Some (Ok [(ls_symbol s2 c odd, Some 100%R)]).
Proof. intros. unfold term_to_LS. rewrite (quantum_nums_LS conf s2 i c odd), (coupling_LS s2 i c odd) by auto. reflexivity. Qed.
Print Assumptions C103_LS.

(** C104.  A state that does not exist should be rejected: the code has a
    message for it.  The list is empty instead. *)
Theorem C104_JJ_refuted : forall rnd sc lc jc so lo jo conf term j, 0 <= sc -> 0 <= so -> JJ_text sc lc jc so lo jo conf term ->
  ~ (triangle (2 * lc) sc jc /\ triangle (2 * lo) so jo /\ triangle jc jo j) -> term_to_LS rnd conf term j = Some (Ok []).
Proof.
  intros rnd sc lc jc so lo jo conf term j Hc Ho X N. destruct (JJ_read rnd _ _ _ _ _ _ _ _ j Hc Ho X) as [-> [P Q]].
  rewrite no_entries; auto; try lia. rewrite <- !tri_spec in N. apply not_true_is_false. rewrite !andb_true_iff. tauto.
Qed.
Print Assumptions C104_JJ_refuted.
Example C104_JJ_case : JJ_text 1 3 7 2 2 4 "4f13.(2F*<7/2>).5d.6s.(3D<2>)" "(7/2,2)*" /\ ~ triangle 7 4 1.
Proof.
  split. { exists "4f13.", "5d.6s", "F"%char, true, "D"%char, false, 7, 4, true. repeat split; (reflexivity || lia). }
  intros [H _]. lia.
Qed.

(** JK with a J that cannot be: the entries are nan, all the terms of the
    grid appear. *)
Theorem C104_JK_refuted : forall rnd sc lc jc lo so k conf term j, 0 <= sc -> 0 <= so -> JK_text sc lc jc lo so k conf term -> lc + lo <= 20 ->
  Z.Odd (so + k + j) -> exists es, term_to_LS rnd conf term j = Some (Ok es) /\ es <> [] /\ forall c, In c es -> snd c = None.
Proof.
  intros rnd sc lc jc lo so k conf term j Hc Ho X B O. destruct (JK_read rnd _ _ _ _ _ _ _ _ j Hc Ho X) as [-> [P Q]].
  destruct (grid_ok lc sc lo so) as [_ [NE HG]]; auto. unfold JK_to_LS. assert (E2 : forall l s, In (l, s) (grid (F_range (2 * lc) (2 * lo)) (F_range sc so)) ->
    minus_one_pow (- (2 * lc) - 2 * lo - 2 * sc - so - k - l - j) = None).
  { intros l s I. destruct (HG l s I) as [_ [i [-> _]]]. unfold minus_one_pow. replace (Z.even (- (2 * lc) - 2 * lo - 2 * sc - so - k - 2 * i - j)) with false; auto.
    symmetry. rewrite <- Z.negb_odd. apply negb_false_iff. apply Z.odd_spec. destruct O as [m O]. exists (- lc - lo - sc - i - m - 1). lia. }
  revert NE HG E2. generalize (grid (F_range (2 * lc) (2 * lo)) (F_range sc so)). intros g NE HG E2.
  rewrite (map_ext_in _ (fun p : Z * Z => (p, None : fl)) g).
  2: { intros [l s] I. unfold fl_scale. now rewrite (E2 l s I). }
  assert (W : forall w, incl w g -> exists es, rmapM (fun p => let '(l, s, a) := p in
               rbind (str_index letters (Z.quot l 2)) (fun c => Ok ((zstr (s + 1) ++ c)%string, percent rnd a)))
            (filter (fun p => fl_nonzero (snd p)) (map (fun p : Z * Z => (p, None : fl)) w)) = Ok es /\ List.length es = List.length w /\ forall c, In c es -> snd c = None).
  { induction w as [|[l s] w IH]; intros IC; [exists []; repeat split; intros c []|]. destruct IH as [es [E [L F]]]; [intros z Z; apply IC; now right|].
    destruct (HG l s) as [_ [i [-> Hi]]]; [apply IC; now left|]. destruct (letter_at i Hi) as [a [_ Hs]].
    cbn [map filter fl_nonzero snd rmapM]. replace (Z.quot (2 * i) 2) with i by (rewrite Z.mul_comm, Z.quot_mul; lia). rewrite Hs. cbn [rbind]. rewrite E. cbn [rbind].
    eexists; split; [reflexivity|]. split; [cbn; now rewrite L|]. intros c [<-|I]; [reflexivity|auto]. }
  destruct (W g (incl_refl g)) as [es [E [L F]]]. exists es. split; [|split; auto; intros Z; subst es; destruct g; [congruence|discriminate L]].
  f_equal. unfold sets_to_list. destruct (map (fun p : Z * Z => (p, None : fl)) g) eqn:M'; [destruct g; [congruence|discriminate]|]. exact E.
Qed.
Print Assumptions C104_JK_refuted.
Example C104_JK_case : JK_text 1 3 7 2 2 5 "4f13.(2F*<7/2>).5d.6s.(3D)" "3[5/2]*" /\ Z.Odd (2 + 5 + 2).
Proof.
  split. { exists "4f13.", ".5d.6s.", "F"%char, true, "D"%char, true. repeat split; try (reflexivity || lia). right. exists 2, false. split; [lia|reflexivity]. }
  now exists 4.
Qed.

(** ** C105: the default g-value of coupled levels *)

Lemma gJ_sets_map : forall j (f : Z * Z -> R) g, gJ_sets j (map (fun p => (p, Some (f p))) g) = Some (Rsums (fun p => f p * lande_R (fst p) (snd p) j)%R g).
Proof. induction g as [|[l s] g IH]; [reflexivity|]. cbn [map gJ_sets]. rewrite IH. reflexivity. Qed.
Lemma num_half : forall A z (f : Z -> option A), num (ParseProofs.half z) f = f z.
Proof.
  intros A z f. unfold num, ParseProofs.half, doubled.
  assert (E : (Qred (z # 2) * (2 # 1) == z # 1)%Q) by (rewrite Qred_correct; unfold Qeq; cbn; lia).
  unfold Qeq in E. cbn [Qnum Qden] in E. unfold q_is_int, q_trunc. set (x := (Qred (z # 2) * (2 # 1))%Q) in *.
  assert (Q : Qnum x = (z * Zpos (Qden x))%Z) by lia. rewrite Q. rewrite Z_mod_mult, Z.quot_mul by lia. reflexivity.
Qed.
Lemma num_whole : forall A z (f : Z -> option A), num (whole z) f = f (2 * z)%Z.
Proof.
  intros A z f. unfold num, whole, doubled, q_is_int, q_trunc. cbn [Qmult inject_Z Qnum Qden Pos.mul].
  rewrite Z.mod_1_r, Z.quot_1_r. cbn [Z.eqb]. f_equal. ring.
Qed.

(** A state whose ancestor is written without its J is read, and rejected. *)
Theorem C104_missing_partial : exists conf term q, get_quantum_nums conf term = Ok q /\ q_jc q = None /\
  forall rnd j, term_to_LS rnd conf term j = Some (Raise TypeError).
Proof. exists "4f13.(2F*<>).(3P)", "2[3/2]". eexists. split; [reflexivity|]. split; reflexivity. Qed.
Print Assumptions C104_missing_partial.

(** An LK level of a single LS term: the value is that of the term, or its
    negative, times the percentage. *)
Lemma Rsums_only {A} : forall (f h : A -> R) g, Rsums (fun p => f p * f p)%R g = 1%R -> NoDup g -> forall a, In a g -> (forall p, In p g -> p <> a -> f p = 0%R) ->
  (f a = 1 \/ f a = -1)%R /\ Rsums (fun p => f p * h p)%R g = (f a * h a)%R.
Proof.
  intros f h g S ND a I Z.
  assert (X : forall k : A -> R, Rsums (fun p => f p * k p)%R g = (f a * k a)%R).
  { clear S. intros k. induction g as [|x g IH]; [destruct I|]. inversion ND as [|? ? NI ND']; subst. rewrite Rsums_cons. destruct I as [->|I].
    - rewrite Rsums_0; [ring|]. intros p Ip. rewrite Z; [ring|now right|]. intros ->. contradiction.
    - rewrite IH; auto; [|intros; apply Z; auto; now right]. rewrite (Z x); [ring|now left|]. intros ->. contradiction. }
  split; [|apply X]. rewrite X in S. assert (E : ((f a - 1) * (f a + 1) = 0)%R) by lra. apply Rmult_integral in E as [E|E]; [left|right]; lra.
Qed.

Theorem C105_pure_partial : forall t sc lc lo L so k j s, 0 <= sc -> 0 <= so -> LK_text sc lc lo L so k (t_conf t) (t_term t) ->
  get_quantum_nums (t_conf t) (t_term t) = Ok (t_qn t) -> t_J t = Some j -> 0 < j ->
  triangle (2 * L) sc k -> triangle k so j -> triangle sc so s ->
  (forall s', triangle sc so s' -> triangle (2 * L) s' j -> s' = s) ->
  exists x, (x = 1 \/ x = -1)%R /\ gJ_coupled t = Some (Some (x * lande_R (2 * L) s j * Rc (t_pct t)))%R.
Proof.
  intros t sc lc lo L so k j s Hc Ho X Q J Pj T1 T2 T3 U. pose proof X as (p & q & cc & oddc & co & cL & oddL & odd & P & Q' & Lc & Lo & LL & T & C).
  assert (E : t_qn t = mkQN (whole lc) (ParseProofs.half sc) (whole lo) (ParseProofs.half so) None None (whole L) None (ParseProofs.half k)).
  { assert (E' : get_quantum_nums (t_conf t) (t_term t) = Ok (mkQN (whole lc) (ParseProofs.half sc) (whole lo) (ParseProofs.half so) None None (whole L) None (ParseProofs.half k))).
    { rewrite T. destruct C as [->|[s2 [oddo [S ->]]]]; [now apply quantum_nums_LK_electron|now apply quantum_nums_LK_terms]. }
    rewrite Q in E'. congruence. }
  apply tri_spec in T1, T2, T3.
  assert (D : Rsums (fun p => LK_amp j k sc so p * LK_amp j k sc so p)%R (grid [2 * L]%Z (F_range sc so)) = 1%R).
  { rewrite <- dot_map, LK_dot; auto. now rewrite Z.eqb_refl. }
  assert (ND : NoDup (grid [2 * L]%Z (F_range sc so))) by (apply nodup_prod; [repeat constructor; auto|apply F_range_nodup]).
  destruct (Rsums_only _ (fun p => lande_R (fst p) (snd p) j) _ D ND (2 * L, s)%Z) as [V1 V2].
  { apply in_prod_iff. split; [now left|]. apply F_range_In; auto. }
  { intros [l s'] I N. apply in_prod_iff in I as [[<-|[]] I]. apply F_range_In in I; auto. unfold LK_amp.
    destruct (Req_EM_T (w6R (2 * L) sc k so j s') 0) as [Z0|Z0]; [rewrite Z0; ring|]. exfalso. apply N. apply f_equal. apply w6R_tri in Z0.
    apply U; rewrite <- tri_spec; auto. rewrite tri_23. tauto. }
  exists (LK_amp j k sc so (2 * L, s)%Z). split; auto.
  unfold gJ_coupled. rewrite J. destruct (Z.ltb_spec 0 j); [|lia]. unfold t_coupling. rewrite T, (coupling_LK L) by auto. rewrite E. cbn [q_l q_k q_sc q_so].
  rewrite num_whole, !num_half. cbn [option_map]. unfold LK_to_LS.
  rewrite (map_ext _ (fun p => (p, Some (LK_amp j k sc so p)))) by (intros [l s']; reflexivity).
  rewrite gJ_sets_map. unfold fl_scale. cbn [option_map]. do 2 f_equal. rewrite V2. reflexivity.
Qed.
Print Assumptions C105_pure_partial.

(** A level that mixes a singlet and a triplet: its g-value is outside the
    range of those of its components. *)
Definition lk_term : term := mkTerm "2p.(2P*).4s" "P 2[3/2]" 1%Qc (Some 2%Z) None None
  (mkQN (Some 1%Q) (Some (1 # 2)) (Some 0%Q) (Some (1 # 2)) None None (Some 1%Q) None (Some (3 # 2))).
Lemma lk_value : exists a b, gJ_coupled lk_term = Some (Some (a * lande_R 2 0 2 + b * lande_R 2 2 2))%R /\ (a * a = 2 / 3 /\ b * b = 1 / 3)%R.
Proof.
  exists (LK_amp 2 3 1 1 (2, 0)%Z), (LK_amp 2 3 1 1 (2, 2)%Z). split; [|split].
  - change (gJ_coupled lk_term) with (Some (fl_scale (gJ_sets 2 (LK_to_LS 2 2 3 1 1)) (Rc 1%Qc))).
    unfold LK_to_LS. rewrite (map_ext _ (fun p => (p, Some (LK_amp 2 3 1 1 p)))) by (intros [l s']; reflexivity).
    rewrite gJ_sets_map. change (grid [2]%Z (F_range 1 1)) with [(2, 0); (2, 2)]%Z. rewrite !Rsums_cons. cbn [Rsums fold_right fst snd fl_scale option_map].
    do 2 f_equal. change 1%Qc with (QcZ 1). rewrite Rc_Z. ring.
  - unfold LK_amp. transitivity ((sqrt (IZR ((3 + 1) * (0 + 1))) * sqrt (IZR ((3 + 1) * (0 + 1)))) * (w6R 2 1 3 1 2 0 * w6R 2 1 3 1 2 0))%R; [ring|].
    rewrite sqrt_sqrt by (apply IZR_le; lia). rewrite w6R_sq. replace (w6sq 2 1 3 1 2 0) with (frac 1 6) by (apply Qc_is_canon; vm_compute; reflexivity).
    unfold frac, Qcdiv. rewrite Rc_mul, Rc_inv by (apply QcZ_nz; lia). rewrite !Rc_Z. cbn. lra.
  - unfold LK_amp. transitivity ((sqrt (IZR ((3 + 1) * (2 + 1))) * sqrt (IZR ((3 + 1) * (2 + 1)))) * (w6R 2 1 3 1 2 2 * w6R 2 1 3 1 2 2))%R; [ring|].
    rewrite sqrt_sqrt by (apply IZR_le; lia). rewrite w6R_sq. replace (w6sq 2 1 3 1 2 2) with (frac 1 36) by (apply Qc_is_canon; vm_compute; reflexivity).
    unfold frac, Qcdiv. rewrite Rc_mul, Rc_inv by (apply QcZ_nz; lia). rewrite !Rc_Z. cbn. lra.
Qed.
Theorem C105_mixture_refuted : exists t g, new_term (t_conf t) (t_term t) (VNum 1) VNone VNone 1%Qc None = Ok t /\
  gJ_coupled t = Some (Some g) /\ (1 = lande_R 2 0 2 /\ lande_R 2 0 2 < lande_R 2 2 2)%R /\
  (g < lande_R 2 0 2 \/ lande_R 2 2 2 < g)%R.
Proof.
  destruct lk_value as [a [b [E [A B]]]]. exists lk_term. eexists. split; [reflexivity|]. split; [exact E|].
  assert (L0 : lande_R 2 0 2 = 1%R) by (unfold lande_R; lra). assert (L2 : lande_R 2 2 2 = (30023 / 20000)%R) by (unfold lande_R; lra).
  rewrite L0, L2. split; [lra|].
  destruct (Rle_or_lt 0 a) as [P|P]; destruct (Rle_or_lt 0 b) as [P'|P'].
  - right. assert (8 / 10 < a)%R by nra. assert (5 / 10 < b)%R by nra. lra.
  - left. assert (a < 9 / 10)%R by nra. lra.
  - left. assert (b < 6 / 10)%R by nra. lra.
  - left. lra.
Qed.
Print Assumptions C105_mixture_refuted.
Example C105_pure_case : LK_text 1 1 0 1 1 3 "2p.(2P*).4s" "P 2[3/2]" /\ triangle 2 1 3 /\ triangle 3 1 4 /\ triangle 1 1 2 /\
  (forall s', triangle 1 1 s' -> triangle 2 s' 4 -> s' = 2).
Proof.
  split. { exists "2p.", ".4", "P"%char, true, "S"%char, "P"%char, false, false. repeat split; try (reflexivity || lia). left. reflexivity. }
  rewrite <- !tri_spec. repeat split. intros s' [H1 _] [H2 _]. lia.
Qed.

(** ** C110: JJ and JK expansions refer to the same LS states *)

(** A number written as a rational times a square root. *)
Definition rooted (r : R) (s q : Qc) : Prop := (0 <= Rc q)%R /\ r = (Rc s * sqrt (Rc q))%R.
Lemma rooted_mul : forall r s q r' s' q', rooted r s q -> rooted r' s' q' -> rooted (r * r')%R (s * s')%Qc (q * q')%Qc.
Proof.
  intros r s q r' s' q' [P ->] [P' ->]. split; rewrite ?Rc_mul; [now apply Rmult_le_pos|]. rewrite sqrt_mult by auto. ring.
Qed.
Lemma rooted_w6 : forall a b c d e f, w6_tri a b c d e f = true -> rooted (w6R a b c d e f) (w6_sum a b c d e f) (delta2 a b c * delta2 a e f * delta2 d b f * delta2 d e c)%Qc.
Proof.
  intros a b c d e f T. split; [|unfold w6R; rewrite T; ring]. rewrite !Rc_mul. pose proof (dpos a b c). pose proof (dpos a e f). pose proof (dpos d b f). pose proof (dpos d e c).
  apply Rlt_le, Rmult_lt_0_compat; auto. apply Rmult_lt_0_compat; auto. now apply Rmult_lt_0_compat.
Qed.
Lemma rooted_w9 : forall a b c d e f g h j, w9_tri a b c d e f g h j = true ->
  rooted (w9R a b c d e f g h j) (sgn (a + b + d + f + h + j) * w9_sum a b c d e f g h j)%Qc (w9_delta a b c d e f g h j).
Proof.
  intros a b c d e f g h j T. split; [|unfold w9R; rewrite T, Rc_mul; ring]. unfold w9_delta. rewrite !Rc_mul.
  pose proof (dpos a b c). pose proof (dpos d e f). pose proof (dpos g h j). pose proof (dpos a d g). pose proof (dpos b e h). pose proof (dpos c f j).
  apply Rlt_le. apply Rmult_lt_0_compat; auto. apply Rmult_lt_0_compat; auto. apply Rmult_lt_0_compat; auto. apply Rmult_lt_0_compat; auto. now apply Rmult_lt_0_compat.
Qed.
Lemma rooted_root : forall n, 0 <= n -> rooted (sqrt (IZR n)) 1%Qc (QcZ n).
Proof. intros n H. split; rewrite Rc_Z; [now apply IZR_le|]. change 1%Qc with (QcZ 1). rewrite Rc_Z. ring. Qed.
Lemma rooted_rat : forall q, rooted (Rc q) q 1%Qc.
Proof. intros q. change 1%Qc with (QcZ 1). split; rewrite Rc_Z; [lra|]. rewrite sqrt_1. ring. Qed.
Lemma rooted_value : forall r s q, rooted r s q -> (0 <= s)%Qc -> r = sqrt (Rc (s * s * q)%Qc).
Proof.
  intros r s q [P ->] H. assert (P' : (0 <= Rc s)%R) by (destruct (Qc_eq_dec s 0) as [->|N]; [rewrite Rc_0; lra|now apply Rlt_le, Rc_pos]).
  rewrite !Rc_mul. rewrite sqrt_mult, sqrt_square; auto. now apply Rmult_le_pos.
Qed.
Lemma rooted_pair : forall j jc jo jc' k lc sc lo so l s, w9_tri lc sc jc lo so jo l s j = true -> w6_tri sc lc jc' lo k l = true -> w6_tri l sc k so j s = true ->
  0 <= (jc + 1) * (jo + 1) * (l + 1) * (s + 1) -> 0 <= (jc' + 1) * (l + 1) * (k + 1) * (s + 1) ->
  exists sg q, rooted (JJ_amp j jc jo lc sc lo so (l, s) * JK_amp j jc' k lc sc lo so (l, s))%R sg q /\
    sg = (sgn (lc + sc + lo + jo + s + j) * w9_sum lc sc jc lo so jo l s j * 1 * (sgn ((- lc - lo - 2 * sc - so - k - l - j) / 2) * (1 * w6_sum sc lc jc' lo k l * w6_sum l sc k so j s)))%Qc /\
    q = (w9_delta lc sc jc lo so jo l s j * QcZ ((jc + 1) * (jo + 1) * (l + 1) * (s + 1)) * (1 * (QcZ ((jc' + 1) * (l + 1) * (k + 1) * (s + 1)) *
        (delta2 sc lc jc' * delta2 sc k l * delta2 lo lc l * delta2 lo k jc') * (delta2 l sc k * delta2 l j s * delta2 so sc s * delta2 so j k))))%Qc.
Proof.
  intros j jc jo jc' k lc sc lo so l s T1 T2 T3 H1 H2. do 2 eexists. split; [|split; reflexivity]. unfold JJ_amp, JK_amp.
  apply rooted_mul; [apply rooted_mul; [now apply rooted_w9|now apply rooted_root]|].
  apply rooted_mul; [apply rooted_rat|]. apply rooted_mul; [apply rooted_mul; [now apply rooted_root|now apply rooted_w6]|now apply rooted_w6].
Qed.

(** Two p electrons, J = 0: the JJ state (1/2, 1/2) and the JK state with core
    J = 3/2 and K = 1/2 are states of different core J.  Their expansions are
    not orthogonal, the overlap squared is 8/9: in JK_to_LS the phase
    (-1)^(L + sc - K) is missing that exchanges sc and L. *)
Theorem C110_refuted : exists j jc jo jc' k lc sc lo so r, triangle lc sc jc /\ triangle lo so jo /\ triangle jc jo j /\
  triangle lc sc jc' /\ triangle jc' lo k /\ triangle k so j /\ jc <> jc' /\
  inner (JJ_to_LS j jc jo lc sc lo so) (JK_to_LS j jc' k lc sc lo so) r /\ (r * r = 8 / 9)%R.
Proof.
  set (f := fun p => (JJ_amp 0 1 1 2 1 2 1 p * JK_amp 0 3 1 2 1 2 1 p)%R).
  exists 0, 1, 1, 3, 1, 2, 1, 2, 1, (Rsums f (grid (F_range 2 2) (F_range 1 1))).
  rewrite <- !tri_spec. do 6 (split; [reflexivity|]). split; [lia|]. split.
  - split; [unfold JJ_to_LS, JK_to_LS; rewrite !map_map; apply map_ext; intros [l s]; reflexivity|].
    do 2 eexists. split; [apply JJ_amps|]. split; [apply JK_amps; [lia|lia|reflexivity]|]. apply dot_map.
  - change (grid (F_range 2 2) (F_range 1 1)) with [(0, 0); (0, 2); (2, 0); (2, 2); (4, 0); (4, 2)].
    assert (Z : forall l s, w9_tri 2 1 1 2 1 1 l s 0 = false -> f (l, s) = 0%R) by (intros l s T; unfold f, JJ_amp, w9R; rewrite T; ring).
    assert (V : forall l s, w9_tri 2 1 1 2 1 1 l s 0 = true -> l = s -> (l = 0 \/ l = 2) -> f (l, s) = sqrt (2 / 9)).
    { intros l s T E C. assert (Q : Rc (frac 2 9) = (2 / 9)%R) by (unfold frac, Qcdiv; rewrite Rc_mul, Rc_inv by (apply QcZ_nz; lia); now rewrite !Rc_Z).
      rewrite <- Q. subst s. destruct C as [-> | ->].
      - destruct (rooted_pair 0 1 1 3 1 2 1 2 1 0 0 eq_refl eq_refl eq_refl ltac:(lia) ltac:(lia)) as [sg [q [H [-> ->]]]].
        unfold f. rewrite (rooted_value _ _ _ H); [|vm_compute; discriminate]. apply f_equal, f_equal, Qc_is_canon. vm_compute. reflexivity.
      - destruct (rooted_pair 0 1 1 3 1 2 1 2 1 2 2 eq_refl eq_refl eq_refl ltac:(lia) ltac:(lia)) as [sg [q [H [-> ->]]]].
        unfold f. rewrite (rooted_value _ _ _ H); [|vm_compute; discriminate]. apply f_equal, f_equal, Qc_is_canon. vm_compute. reflexivity. }
    rewrite !Rsums_cons. rewrite (V 0 0), (V 2 2), (Z 0 2), (Z 2 0), (Z 4 0), (Z 4 2) by (reflexivity || auto). cbn [Rsums fold_right].
    pose proof (sqrt_sqrt (2 / 9) ltac:(lra)) as S. nra.
Qed.
Print Assumptions C110_refuted.
