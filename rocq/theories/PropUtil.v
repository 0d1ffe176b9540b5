(** Properties C01-C06: labels, letters and term symbols.  Every theorem is
    closed by a lemma proved elsewhere; beside each one an example meets its
    hypotheses. *)
From Coq Require Import List Bool ZArith QArith Lia String Ascii.
From Verif Require Import Base PyStr Util UtilProofs Regex Parse ParseProofs ParseProofs2 PropUtilLemmas.
Import ListNotations.
Local Open Scope string_scope.

(** C01 *)
Theorem C01_label_round_trip : forall x z, (x == z # 2)%Q ->
  exists s y, float_to_frac (VNum x) = Ok (Some s) /\
              frac_to_float (VStr s) = Ok (Some y) /\ (y == x)%Q.
Proof. exact frac_round_trip. Qed.
Print Assumptions C01_label_round_trip.
Example C01_case : float_to_frac (VNum (-7 # 2)) = Ok (Some "-7/2") /\
                   frac_to_float (VStr "-7/2") = Ok (Some ((-7 # 1) / (2 # 1))%Q).
Proof. split; reflexivity. Qed.

Theorem C01_labels_distinct : forall x y a b, (x == a # 2)%Q -> (y == b # 2)%Q ->
  float_to_frac (VNum x) = float_to_frac (VNum y) -> (x == y)%Q.
Proof. exact frac_label_inj. Qed.
Print Assumptions C01_labels_distinct.

(** C02: the label denotes the number exactly for half-integers; other numbers
    get a wrong label silently. *)
Theorem C02_exact_labels_partial : forall q,
  (exists s y, float_to_frac (VNum q) = Ok (Some s) /\
               frac_to_float (VStr s) = Ok (Some y) /\ (y == q)%Q)
  <-> exists z, (q == z # 2)%Q.
Proof. exact frac_exact_domain. Qed.
Print Assumptions C02_exact_labels_partial.

Theorem C02_refuted : exists q s y,
  float_to_frac (VNum q) = Ok (Some s) /\ frac_to_float (VStr s) = Ok (Some y) /\ ~ (y == q)%Q.
Proof. exact float_to_frac_lossy. Qed.
Print Assumptions C02_refuted.

(** Texts with a stroke: the quotient of the two numbers, and otherwise an
    exception. *)
Theorem C02_fraction_partial : forall a b x y, has_char "/" a = false -> has_char "/" b = false -> pyfloat a = Some x -> pyfloat b = Some y ->
  (~ (y == 0)%Q -> exists z, frac_to_float (VStr (a ++ "/" ++ b)) = Ok (Some z) /\ (z * y == x)%Q) /\
  ((y == 0)%Q -> frac_to_float (VStr (a ++ "/" ++ b)) = Raise ZeroDivisionError).
Proof.
  intros a b x y Ha Hb Ea Eb.
  assert (E : frac_to_float (VStr (a ++ "/" ++ b)) = if Qeq_bool y 0 then Raise ZeroDivisionError else Ok (Some (x / y)%Q)).
  { unfold frac_to_float. destruct (a ++ "/" ++ b)%string eqn:Es; [destruct a; discriminate|]. rewrite <- Es.
    rewrite has_char_app. change (has_char "/" ("/" ++ b)) with true. rewrite orb_true_r. cbn [append]. rewrite split_all_app, split_all_none by auto. now rewrite Ea, Eb. }
  rewrite E. split; intros H.
  - destruct (Qeq_bool y 0) eqn:B; [apply Qeq_bool_iff in B; contradiction|]. exists (x / y)%Q. split; [reflexivity|]. now field.
  - apply Qeq_bool_iff in H. now rewrite H.
Qed.
Theorem C02_malformed_partial : forall a b, has_char "/" a = false ->
  (pyfloat a = None \/ has_char "/" b = true \/ pyfloat b = None) -> frac_to_float (VStr (a ++ "/" ++ b)) = Raise ValueError.
Proof.
  intros a b Ha H. unfold frac_to_float. destruct (a ++ "/" ++ b)%string eqn:Es; [destruct a; discriminate|]. rewrite <- Es.
  rewrite has_char_app. change (has_char "/" ("/" ++ b)) with true. rewrite orb_true_r. cbn [append]. rewrite split_all_app by auto.
  destruct (has_char "/" b) eqn:Hb.
  - assert (L : exists p q r, split_all "/" b = p :: q :: r).
    { clear - Hb. induction b as [|c b IH]; [discriminate|]. cbn [has_char split_all] in *. destruct (Ascii.eqb_spec c "/") as [->|].
      - destruct (split_all "/" b) eqn:E; [now apply split_all_nonnil in E|eauto].
      - apply orb_true_iff in Hb as [Hb|Hb]; [discriminate|]. destruct (IH Hb) as [p [q [r ->]]]. eauto. }
    destruct L as [p [q [r ->]]]. reflexivity.
  - rewrite split_all_none by auto. destruct H as [H|[H|H]]; [now rewrite H|discriminate|rewrite H; now destruct (pyfloat a)].
Qed.
Print Assumptions C02_fraction_partial.
Print Assumptions C02_malformed_partial.
Example C02_fraction_case : frac_to_float (VStr "3/0") = Raise ZeroDivisionError /\ frac_to_float (VStr "3/2/2") = Raise ValueError /\
  frac_to_float (VStr "x/2") = Raise ValueError /\ pyfloat "3" = Some 3%Q /\ pyfloat "0.0" = Some (0 # 10)%Q.
Proof. vm_compute. auto. Qed.

(** C03 *)
Theorem C03_letter_round_trip : forall q i, (q == i # 1)%Q -> (0 <= i <= 20)%Z ->
  exists s, l_to_let (VNum q) = Ok s /\ let_to_l s = Ok (Some i).
Proof. exact l_round_trip. Qed.
Print Assumptions C03_letter_round_trip.

Theorem C03_letter_back : forall c i, let_to_l (String c "") = Ok (Some i) ->
  (0 <= i <= 20)%Z /\ l_to_let (VNum (i # 1)) = Ok (String (to_upper c) "") /\
  orbital_letter i (to_upper c).
Proof. exact letter_round_trip. Qed.
Print Assumptions C03_letter_back.
Example C03_case : let_to_l "g" = Ok (Some 4%Z) /\ l_to_let (VNum (4 # 1)) = Ok "G".
Proof. split; reflexivity. Qed.

(** Which strings are rejected: everything but the empty string (which gives
    None) and the 21 letters in either case. *)
Theorem C03_let_to_l_rejects : forall s,
  let_to_l s = Raise ValueError <->
  s <> "" /\ forall c i, s = String c "" -> ~ orbital_letter i (to_upper c).
Proof. exact let_to_l_rejects. Qed.
Print Assumptions C03_let_to_l_rejects.
Example C03_reject_case : let_to_l "j" = Raise ValueError /\ let_to_l "SS" = Raise ValueError.
Proof. split; reflexivity. Qed.

(** Integers above 20 and non-integers are rejected; -21..-1 are not. *)
Theorem C03_l_to_let_range_partial : forall q,
  is_ok (l_to_let (VNum q)) = true <-> exists i, (q == i # 1)%Q /\ (-21 <= i <= 20)%Z.
Proof. exact l_to_let_accepts. Qed.
Print Assumptions C03_l_to_let_range_partial.

Theorem C03_negative_refuted : exists i s, (i < 0)%Z /\ l_to_let (VNum (i # 1)) = Ok s.
Proof. exact l_to_let_negative. Qed.
Print Assumptions C03_negative_refuted.

(** C04 *)
Theorem C04_LS : forall s2 i c odd, (0 <= s2)%Z -> orbital_letter i c ->
  get_term_coupling (ls_symbol s2 c odd) = CLS.
Proof. exact coupling_LS. Qed.
Theorem C04_JK : forall s2 k odd, (0 <= s2)%Z -> get_term_coupling (jk_symbol s2 k odd) = CJK.
Proof. exact coupling_JK. Qed.
Theorem C04_LK : forall i c oddL s2 k odd, orbital_letter i c ->
  get_term_coupling (lk_symbol c oddL s2 k odd) = CLK.
Proof. exact coupling_LK. Qed.
Theorem C04_JJ : forall jc jo odd, get_term_coupling (jj_symbol jc jo odd) = CJJ.
Proof. exact coupling_JJ. Qed.
(** Short texts are in no scheme and have no quantum numbers; longer ones are
    in one. *)
Theorem C04_unknown : forall t, (String.length t <= 1)%nat -> t <> "[" -> t <> "(" ->
  get_term_coupling t = CUnknown /\ forall conf, get_quantum_nums conf t = Ok no_qnums.
Proof.
  intros t L N1 N2. assert (E : get_term_coupling t = CUnknown).
  { destruct t as [|c [|d t]]; [reflexivity| |cbn in L; lia]. unfold get_term_coupling. cbn [has_char String.length].
    destruct (Ascii.eqb_spec c "[") as [->|]; [congruence|]. destruct (Ascii.eqb_spec c "(") as [->|]; [congruence|]. reflexivity. }
  split; auto. intros conf. unfold get_quantum_nums. now rewrite E.
Qed.
Theorem C04_known : forall t, (2 <= String.length t)%nat -> get_term_coupling t <> CUnknown.
Proof.
  intros t L. unfold get_term_coupling. destruct (has_char "[" t); [destruct (head_in_letters t); discriminate|]. destruct (has_char "(" t); [discriminate|].
  destruct (Nat.ltb_spec 1 (String.length t)); [discriminate|lia].
Qed.
Print Assumptions C04_unknown.
Print Assumptions C04_known.
Print Assumptions C04_LS.
Print Assumptions C04_JK.
Print Assumptions C04_LK.
Print Assumptions C04_JJ.
Example C04_case :
  (ls_symbol 1 "P" true, jk_symbol 1 3 false, lk_symbol "D" true 2 5 false, jj_symbol 7 1 true)
  = ("2P*", "2[3/2]", "D* 3[5/2]", "(7/2,1/2)*") /\ orbital_letter 1 "P" /\ orbital_letter 2 "D".
Proof. repeat split; (reflexivity || lia). Qed.

(** C05 *)
Theorem C05_LS_parses : forall conf s2 i c odd, (0 <= s2)%Z -> orbital_letter i c ->
  get_quantum_nums conf (ls_symbol s2 c odd) =
  Ok (mkQN None None None None None None (whole i) (half s2) None).
Proof. exact quantum_nums_LS. Qed.
Print Assumptions C05_LS_parses.
Example C05_case : get_quantum_nums "4f14.6p" "2P*" =
  Ok (mkQN None None None None None None (Some 1%Q) (Some (1 # 2)) None).
Proof. reflexivity. Qed.

(** C06 *)
Theorem C06_JK_electron : forall p q sc lc cc oddc jc lo co so k odd,
  no_upper p = true -> no_upper q = true -> (0 <= sc)%Z -> (0 <= so)%Z ->
  orbital_letter lc cc -> orbital_letter lo co ->
  get_quantum_nums (p ++ "(" ++ ancestor sc cc oddc jc ++ ")" ++ q ++ String (small co) "")
                   (jk_symbol so k odd) =
  Ok (mkQN (whole lc) (half sc) (whole lo) (half so) (half jc) None None None (half k)).
Proof. exact quantum_nums_JK_electron. Qed.
Print Assumptions C06_JK_electron.
Example C06_JK_electron_case :
  "4f13.(2F*<7/2>).6s2.6p" = "4f13." ++ "(" ++ ancestor 1 "F" true 7 ++ ")" ++ ".6s2.6" ++ String (small "P") ""
  /\ no_upper "4f13." = true /\ no_upper ".6s2.6" = true /\ orbital_letter 3 "F".
Proof. repeat split; (reflexivity || lia). Qed.

Theorem C06_JK_terms : forall p q sc lc cc oddc jc s2 lo co oddo so k odd,
  no_upper p = true -> no_upper q = true -> (0 <= sc)%Z -> (0 <= s2)%Z -> (0 <= so)%Z ->
  orbital_letter lc cc -> orbital_letter lo co ->
  get_quantum_nums (p ++ "(" ++ ancestor sc cc oddc jc ++ ")" ++ q ++ "(" ++ ls_symbol s2 co oddo ++ ")")
                   (jk_symbol so k odd) =
  Ok (mkQN (whole lc) (half sc) (whole lo) (half so) (half jc) None None None (half k)).
Proof. exact quantum_nums_JK_terms. Qed.
Print Assumptions C06_JK_terms.
Example C06_JK_terms_case :
  get_quantum_nums "4f13.(2F*<7/2>).5d.6s.(3D)" "3[5/2]*" =
  Ok (mkQN (Some 3%Q) (Some (1#2)) (Some 2%Q) (Some 1%Q) (Some (7#2)) None None None (Some (5#2))).
Proof. reflexivity. Qed.

Theorem C06_LK_electron : forall p q sc lc cc oddc lo co L cL oddL so k odd,
  free "(" p = true -> free "(" q = true -> (0 <= sc)%Z -> (0 <= so)%Z ->
  orbital_letter lc cc -> orbital_letter lo co -> orbital_letter L cL ->
  get_quantum_nums (p ++ "(" ++ ls_symbol sc cc oddc ++ ")" ++ q ++ String (small co) "")
                   (lk_symbol cL oddL so k odd) =
  Ok (mkQN (whole lc) (half sc) (whole lo) (half so) None None (whole L) None (half k)).
Proof. exact quantum_nums_LK_electron. Qed.
Print Assumptions C06_LK_electron.
Example C06_LK_electron_case :
  get_quantum_nums "3s2.3p.(2P*).4f" "D 2[5/2]" =
  Ok (mkQN (Some 1%Q) (Some (1#2)) (Some 3%Q) (Some (1#2)) None None (Some 2%Q) None (Some (5#2))).
Proof. reflexivity. Qed.

Theorem C06_LK_terms : forall p q sc lc cc oddc s2 lo co oddo L cL oddL so k odd,
  free "(" p = true -> free "(" q = true -> (0 <= sc)%Z -> (0 <= s2)%Z -> (0 <= so)%Z ->
  orbital_letter lc cc -> orbital_letter lo co -> orbital_letter L cL ->
  get_quantum_nums (p ++ "(" ++ ls_symbol sc cc oddc ++ ")" ++ q ++ "(" ++ ls_symbol s2 co oddo ++ ")")
                   (lk_symbol cL oddL so k odd) =
  Ok (mkQN (whole lc) (half sc) (whole lo) (half so) None None (whole L) None (half k)).
Proof. exact quantum_nums_LK_terms. Qed.
Print Assumptions C06_LK_terms.
Example C06_LK_terms_case :
  get_quantum_nums "5d6.(3P).7s.8p.(3P*)" "P* 3[2]" =
  Ok (mkQN (Some 1%Q) (Some 1%Q) (Some 1%Q) (Some 1%Q) None None (Some 1%Q) None (Some 2%Q)).
Proof. reflexivity. Qed.

Theorem C06_JJ_terms : forall p q sc lc cc oddc jc so lo co oddo jo a b odd,
  free "<" p = true -> free ")" p = true -> free "<" q = true -> free ")" q = true ->
  (0 <= sc)%Z -> (0 <= so)%Z -> orbital_letter lc cc -> orbital_letter lo co ->
  get_quantum_nums (p ++ "(" ++ ancestor sc cc oddc jc ++ ")." ++ q ++ "." ++ "(" ++ ancestor so co oddo jo ++ ")")
                   (jj_symbol a b odd) =
  Ok (mkQN (whole lc) (half sc) (whole lo) (half so) (half jc) (half jo) None None None).
Proof. exact quantum_nums_JJ_terms. Qed.
Print Assumptions C06_JJ_terms.
Example C06_JJ_terms_case :
  get_quantum_nums "4f13.(2F*<7/2>).5d.6s.(3D<2>)" "(7/2,2)*" =
  Ok (mkQN (Some 3%Q) (Some (1#2)) (Some 2%Q) (Some 1%Q) (Some (7#2)) (Some 2%Q) None None None).
Proof. reflexivity. Qed.

(** The ancestors may be in the term instead of the configuration. *)
Theorem C06_JJ_long : forall conf sc lc cc oddc jc so lo co oddo jo odd,
  free "<" conf = true -> (0 <= sc)%Z -> (0 <= so)%Z -> orbital_letter lc cc -> orbital_letter lo co ->
  get_quantum_nums conf ("(" ++ ancestor sc cc oddc jc ++ "," ++ ancestor so co oddo jo ++ ")" ++ star_mark odd) =
  Ok (mkQN (whole lc) (half sc) (whole lo) (half so) (half jc) (half jo) None None None).
Proof. exact quantum_nums_JJ_long. Qed.
Print Assumptions C06_JJ_long.
Example C06_JJ_long_case :
  get_quantum_nums "4f13.5d.6s" "(2F*<7/2>,3D<2>)*" =
  Ok (mkQN (Some 3%Q) (Some (1#2)) (Some 2%Q) (Some 1%Q) (Some (7#2)) (Some 2%Q) None None None).
Proof. reflexivity. Qed.
(** If they are in neither, parsing raises. *)
Theorem C06_JJ_bare : forall conf jc jo odd, free "<" conf = true ->
  get_quantum_nums conf (jj_symbol jc jo odd) = Raise ValueError.
Proof. exact quantum_nums_JJ_bare. Qed.
Print Assumptions C06_JJ_bare.
Example C06_JJ_bare_case : free "<" "6p2" = true /\ jj_symbol 1 3 false = "(1/2,3/2)".
Proof. split; reflexivity. Qed.

(** JJ with one outer electron: everything but its spin. *)
Theorem C06_JJ_electron_partial : forall p q sc lc cc oddc jc n lo co jo a b odd,
  free "<" p = true -> free ")" p = true -> free "<" q = true -> free ")" q = true ->
  (0 <= sc)%Z -> (1 <= n)%Z -> orbital_letter lc cc -> orbital_letter lo co ->
  get_quantum_nums (p ++ "(" ++ ancestor sc cc oddc jc ++ ")." ++ q ++ "." ++ electron n co jo)
                   (jj_symbol a b odd) =
  Ok (mkQN (whole lc) (half sc) (whole lo) (Some 0%Q) (half jc) (half jo) None None None).
Proof. exact quantum_nums_JJ_electron. Qed.
Print Assumptions C06_JJ_electron_partial.

(** The spin of a single electron is 1/2; the parser says 0. *)
Theorem C06_JJ_electron_spin_refuted : exists conf term qn,
  conf = "4f13.(2F*<7/2>).6s2." ++ electron 6 "P" 1 /\ term = jj_symbol 7 1 false /\
  get_quantum_nums conf term = Ok qn /\ q_so qn <> half 1.
Proof. exact JJ_electron_spin. Qed.
Print Assumptions C06_JJ_electron_spin_refuted.
