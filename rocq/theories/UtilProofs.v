(** Proofs about the scalar helpers of util.py. *)
From Coq Require Import List Bool ZArith QArith Qreduction Lia String Ascii.
From Verif Require Import Base PyStr Util.
Import ListNotations.
Local Open Scope string_scope.

Lemma q_is_int_half : forall z, q_is_int (z # 2) = Z.even z.
Proof.
  intros. unfold q_is_int. simpl. rewrite Zmod_even. destruct (Z.even z); reflexivity.
Qed.

Lemma num_to_frac_half : forall z, num_to_frac (z # 2) = half_label z.
Proof.
  intros z. unfold num_to_frac, half_label. rewrite q_is_int_half.
  destruct (Z.even z) eqn:E.
  - unfold q_trunc. cbn [Qnum Qden]. f_equal.
    apply Z.even_spec in E as [k ->].
    rewrite Z.mul_comm, Z.quot_mul, Z.div_mul; lia.
  - unfold q_trunc. cbn [Qnum Qden Qmult].
    replace (Zpos (2 * 1)) with 2%Z by reflexivity.
    rewrite Z.quot_mul by lia. reflexivity.
Qed.

(** Any rational equal to [z/2] prints the same way. *)
Lemma q_is_int_proper : forall p q, (p == q)%Q -> q_is_int p = q_is_int q.
Proof.
  intros [a b] [c d] E. unfold Qeq in E. simpl in E. unfold q_is_int. simpl.
  apply eq_true_iff_eq. rewrite !Z.eqb_eq.
  rewrite !Z.mod_divide by lia.
  split; intros [k Hk]; exists k; subst; nia.
Qed.

Lemma q_trunc_proper : forall p q, (p == q)%Q -> q_trunc p = q_trunc q.
Proof.
  intros [a b] [c d] E. unfold Qeq in E. cbn [Qnum Qden] in E. unfold q_trunc. cbn [Qnum Qden].
  rewrite <- (Z.quot_mul_cancel_r a (Zpos b) (Zpos d)) by lia.
  rewrite E.
  rewrite (Z.mul_comm (Zpos b) (Zpos d)).
  now rewrite Z.quot_mul_cancel_r by lia.
Qed.

Lemma num_to_frac_proper : forall p q, (p == q)%Q -> num_to_frac p = num_to_frac q.
Proof.
  intros p q E. unfold num_to_frac.
  rewrite (q_is_int_proper _ _ E), (q_trunc_proper _ _ E).
  assert (E2 : (p * (2#1) == q * (2#1))%Q) by (now rewrite E).
  now rewrite (q_trunc_proper _ _ E2).
Qed.

Lemma half_label_slash : forall z, has_char "/" (half_label z) = negb (Z.even z).
Proof.
  intros. unfold half_label. destruct (Z.even z).
  - apply zstr_no_char; [reflexivity|discriminate].
  - rewrite has_char_app. simpl. now rewrite orb_true_r.
Qed.

Lemma half_label_ok : forall z,
  exists q, frac_to_float (VStr (half_label z)) = Ok (Some q) /\ (q == z # 2)%Q.
Proof.
  intros z. pose proof (half_label_slash z) as Hs.
  destruct (Z.even z) eqn:E.
  - unfold half_label in *. rewrite E in *. simpl in Hs.
    exists ((z / 2)%Z # 1). split.
    + unfold frac_to_float. destruct (zstr (z / 2)) eqn:Z0; [now apply zstr_nonempty in Z0|].
      rewrite Hs. rewrite <- Z0, pyfloat_zstr. reflexivity.
    + apply Z.even_spec in E as [k ->]. rewrite Z.mul_comm, Z.div_mul by lia.
      unfold Qeq. simpl. lia.
  - unfold half_label in *. rewrite E in *. simpl in Hs.
    exists ((z # 1) / (2 # 1))%Q. split.
    + unfold frac_to_float.
      destruct (zstr z ++ "/2") eqn:Z0.
      { destruct (zstr z); discriminate. }
      rewrite Hs. rewrite <- Z0.
      rewrite split_all_app by (apply zstr_no_char; [reflexivity|discriminate]).
      simpl (split_all "/" "2"). cbv iota.
      rewrite pyfloat_zstr. reflexivity.
    + unfold Qeq. simpl. lia.
Qed.

Lemma frac_round_trip : forall x z, (x == z # 2)%Q ->
  exists s y, float_to_frac (VNum x) = Ok (Some s) /\
              frac_to_float (VStr s) = Ok (Some y) /\ (y == x)%Q.
Proof.
  intros x z E. destruct (half_label_ok z) as [q [Hq Eq]].
  exists (half_label z), q. split; [|split; auto].
  - simpl. now rewrite (num_to_frac_proper _ _ E), num_to_frac_half.
  - now rewrite Eq, E.
Qed.

Lemma half_label_inj : forall a b, half_label a = half_label b -> a = b.
Proof.
  intros a b E.
  destruct (half_label_ok a) as [p [Hp Ep]], (half_label_ok b) as [q [Hq Eq]].
  rewrite E in Hp. rewrite Hp in Hq. injection Hq as ->.
  rewrite Ep in Eq. unfold Qeq in Eq. simpl in Eq. lia.
Qed.

Lemma frac_label_inj : forall x y a b, (x == a # 2)%Q -> (y == b # 2)%Q ->
  float_to_frac (VNum x) = float_to_frac (VNum y) -> (x == y)%Q.
Proof.
  intros x y a b Ex Ey E. simpl in E. injection E as E.
  rewrite (num_to_frac_proper _ _ Ex), (num_to_frac_proper _ _ Ey), !num_to_frac_half in E.
  apply half_label_inj in E. subst. now rewrite Ex, Ey.
Qed.

(** The printed label denotes the number exactly for half-integers. *)
Lemma num_to_frac_value : forall q,
  exists y, frac_to_float (VStr (num_to_frac q)) = Ok (Some y) /\
            exists z, (y == z # 2)%Q.
Proof.
  intros q. unfold num_to_frac. destruct (q_is_int q) eqn:E.
  - exists (q_trunc q # 1). split.
    + unfold frac_to_float. destruct (zstr (q_trunc q)) eqn:Z0; [now apply zstr_nonempty in Z0|].
      rewrite <- Z0.
      rewrite zstr_no_char by (reflexivity || discriminate).
      now rewrite pyfloat_zstr.
    + exists (2 * q_trunc q)%Z. unfold Qeq. cbn [Qnum Qden]. lia.
  - set (n := q_trunc (q * (2#1))). exists ((n # 1) / (2 # 1))%Q. split.
    + unfold frac_to_float. destruct (zstr n ++ "/2") eqn:Z0; [destruct (zstr n); discriminate|].
      rewrite <- Z0.
      rewrite has_char_app. simpl (has_char "/" "/2"). rewrite orb_true_r.
      rewrite split_all_app by (apply zstr_no_char; [reflexivity|discriminate]).
      simpl (split_all "/" "2"). cbv iota. now rewrite pyfloat_zstr.
    + exists n. unfold Qeq. simpl. lia.
Qed.

Lemma frac_exact_domain : forall q,
  (exists s y, float_to_frac (VNum q) = Ok (Some s) /\
               frac_to_float (VStr s) = Ok (Some y) /\ (y == q)%Q)
  <-> exists z, (q == z # 2)%Q.
Proof.
  intros q. split.
  - intros [s [y [H1 [H2 H3]]]]. simpl in H1. injection H1 as <-.
    destruct (num_to_frac_value q) as [y' [H4 [z Hz]]].
    rewrite H4 in H2. injection H2 as ->. exists z. now rewrite <- H3.
  - intros [z Hz]. now apply frac_round_trip with z.
Qed.

(** ** Letters *)

Lemma letters_length : String.length letters = 21%nat.
Proof. reflexivity. Qed.

Lemma l_to_let_char : forall q i, (q == i # 1)%Q -> (0 <= i <= 20)%Z ->
  exists c, l_to_let (VNum q) = Ok (String c EmptyString) /\ nth_char (Z.to_nat i) letters = Some c.
Proof.
  intros q i E Hi.
  assert (Hc : exists c, nth_char (Z.to_nat i) letters = Some c).
  { assert (Z.to_nat i < 21)%nat by lia. revert H. generalize (Z.to_nat i). intros n Hn.
    do 21 (destruct n; [eexists; reflexivity|]). lia. }
  destruct Hc as [c Hc]. exists c. split; auto.
  unfold l_to_let. rewrite (q_is_int_proper _ _ E), (q_trunc_proper _ _ E).
  unfold q_is_int, q_trunc. cbn [Qnum Qden]. rewrite Z.mod_1_r. cbn [Z.eqb].
  rewrite Z.quot_1_r. unfold str_index.
  destruct (Z.ltb_spec i 0); [lia|]. destruct (Z.ltb_spec i 0); [lia|].
  now rewrite Hc.
Qed.

Lemma letter_index : forall i, (0 <= i <= 20)%Z -> forall c,
  nth_char (Z.to_nat i) letters = Some c ->
  let_to_l (String c EmptyString) = Ok (Some i).
Proof.
  intros i Hi c.
  assert (Hn : (Z.to_nat i < 21)%nat) by lia.
  assert (Ei : i = Z.of_nat (Z.to_nat i)) by lia.
  rewrite Ei at 2. revert Hn. generalize (Z.to_nat i). intros n Hn.
  do 21 (destruct n; [intros E; injection E as <-; reflexivity|]). lia.
Qed.

(** Exhaustive over the 256 characters: [let_to_l] accepts exactly the 21
    letters in either case. *)
Lemma let_to_l_char : forall c,
  match let_to_l (String c EmptyString) with
  | Ok (Some i) => (0 <= i <= 20)%Z /\ nth_char (Z.to_nat i) letters = Some (to_upper c)
  | Ok None => False
  | Raise e => e = ValueError /\ has_char (to_upper c) letters = false
  end.
Proof.
  intros [b0 b1 b2 b3 b4 b5 b6 b7].
  destruct b0, b1, b2, b3, b4, b5, b6, b7; vm_compute;
    first [split; [split; let X := fresh in intros X; discriminate X | reflexivity] | split; reflexivity].
Qed.

Lemma l_to_let_range : forall q s, l_to_let (VNum q) = Ok s ->
  exists i, (q == i # 1)%Q /\ (-21 <= i <= 20)%Z.
Proof.
  intros q s. unfold l_to_let. destruct (q_is_int q) eqn:E; [|discriminate].
  intros H.
  assert (Hq : (q == q_trunc q # 1)%Q).
  { unfold q_is_int in E. apply Z.eqb_eq in E. unfold q_trunc, Qeq. cbn [Qnum Qden].
    apply Z.mod_divide in E as [k Hk]; [|lia].
    rewrite Hk, Z.quot_mul by lia. lia. }
  exists (q_trunc q). split; auto.
  assert (Hnth : forall n c, nth_char n letters = Some c -> (n < 21)%nat).
  { intros n c Hc. destruct (Nat.lt_ge_cases n 21); auto. exfalso.
    do 21 (destruct n; [lia|]). destruct n; discriminate Hc. }
  unfold str_index in H. rewrite letters_length in H.
  destruct (Z.ltb_spec (q_trunc q) 0) as [Hneg|Hpos].
  - destruct (Z.ltb_spec (q_trunc q + Z.of_nat 21) 0); [discriminate|]. lia.
  - destruct (Z.ltb_spec (q_trunc q) 0); [lia|].
    destruct (nth_char _ _) eqn:Hc; [|discriminate].
    apply Hnth in Hc. lia.
Qed.
