(** Small lemmas finishing C02, C03 and C06. *)
From Coq Require Import List Bool ZArith QArith Lia String Ascii.
From Verif Require Import Base PyStr Util UtilProofs Regex Parse ParseProofs ParseProofs2.
Import ListNotations.
Local Open Scope string_scope.

Lemma float_to_frac_lossy : exists q s y,
  float_to_frac (VNum q) = Ok (Some s) /\ frac_to_float (VStr s) = Ok (Some y) /\ ~ (y == q)%Q.
Proof.
  exists (3 # 10), "0/2", ((0 # 1) / (2 # 1))%Q.
  split; [reflexivity|split; [reflexivity|]]. intros H. discriminate H.
Qed.

Lemma get_nth : forall s n, String.get n s = nth_char n s.
Proof. induction s; destruct n; simpl; auto. Qed.

Lemma l_round_trip : forall q i, (q == i # 1)%Q -> (0 <= i <= 20)%Z ->
  exists s, l_to_let (VNum q) = Ok s /\ let_to_l s = Ok (Some i).
Proof.
  intros q i E H. destruct (l_to_let_char q i E H) as [c [H1 H2]].
  exists (String c ""). split; auto. now apply letter_index.
Qed.

Lemma letter_round_trip : forall c i, let_to_l (String c "") = Ok (Some i) ->
  (0 <= i <= 20)%Z /\ l_to_let (VNum (i # 1)) = Ok (String (to_upper c) "") /\
  orbital_letter i (to_upper c).
Proof.
  intros c i H. pose proof (let_to_l_char c) as K. rewrite H in K. destruct K as [K1 K2].
  split; auto. split.
  - destruct (l_to_let_char (i # 1) i) as [d [H1 H2]]; auto using Qeq_refl.
    rewrite K2 in H2. injection H2 as <-. exact H1.
  - split; auto. now rewrite get_nth.
Qed.

Lemma to_upper_idem : forall c, to_upper (to_upper c) = to_upper c.
Proof.
  intros [b0 b1 b2 b3 b4 b5 b6 b7].
  destruct b0, b1, b2, b3, b4, b5, b6, b7; reflexivity.
Qed.

Lemma let_to_l_rejects : forall s,
  let_to_l s = Raise ValueError <->
  s <> "" /\ forall c i, s = String c "" -> ~ orbital_letter i (to_upper c).
Proof.
  intros s. split.
  - intros H. split; [intros ->; discriminate|].
    intros c i -> [Hi Hc].
    pose proof (let_to_l_char c) as K. rewrite H in K. destruct K as [_ K].
    rewrite get_nth in Hc. apply letter_index in Hc; auto.
    pose proof (let_to_l_char (to_upper c)) as K2. rewrite Hc in K2. destruct K2 as [_ K2].
    rewrite to_upper_idem in K2.
    clear - K K2. revert K K2.
    change spectro_letters with letters. generalize letters. generalize (Z.to_nat i).
    intros n l. revert n. induction l; intros n K K2; [destruct n; discriminate|].
    cbn [has_char] in K. apply orb_false_iff in K as [K1 K3].
    destruct n; cbn [nth_char] in K2.
    + injection K2 as ->. now rewrite Ascii.eqb_refl in K1.
    + eauto.
  - intros [N H]. destruct s as [|c [|d s]]; [congruence| |reflexivity].
    pose proof (let_to_l_char c) as K. destruct (let_to_l (String c "")) as [[i|]|e] eqn:E.
    + destruct (letter_round_trip c i E) as (_&_&O). now apply H in O.
    + contradiction.
    + destruct K as [-> _]. reflexivity.
Qed.

Lemma l_to_let_accepts : forall q,
  is_ok (l_to_let (VNum q)) = true <-> exists i, (q == i # 1)%Q /\ (-21 <= i <= 20)%Z.
Proof.
  intros q. split.
  - destruct (l_to_let (VNum q)) eqn:E; [|discriminate]. intros _. eapply l_to_let_range; eauto.
  - intros [i [E H]]. unfold l_to_let.
    rewrite (q_is_int_proper _ _ E), (q_trunc_proper _ _ E).
    unfold q_is_int, q_trunc. cbn [Qnum Qden]. rewrite Z.mod_1_r. cbn [Z.eqb].
    rewrite Z.quot_1_r. unfold str_index. rewrite letters_length.
    set (j := if (i <? 0)%Z then (i + Z.of_nat 21)%Z else i).
    assert (Hj : (0 <= j <= 20)%Z) by (subst j; destruct (Z.ltb_spec i 0); lia).
    destruct (Z.ltb_spec j 0); [lia|].
    destruct (l_to_let_char (j # 1) j) as [c [_ Hc]]; auto using Qeq_refl. now rewrite Hc.
Qed.

Lemma l_to_let_negative : exists i s, (i < 0)%Z /\ l_to_let (VNum (i # 1)) = Ok s.
Proof. exists (-1)%Z, "Z". split; [lia|reflexivity]. Qed.

Lemma JJ_electron_spin : exists conf term qn,
  conf = "4f13.(2F*<7/2>).6s2." ++ electron 6 "P" 1 /\ term = jj_symbol 7 1 false /\
  get_quantum_nums conf term = Ok qn /\ q_so qn <> half 1.
Proof.
  do 3 eexists. split; [reflexivity|split; [reflexivity|split; [reflexivity|]]].
  intros H. discriminate H.
Qed.
