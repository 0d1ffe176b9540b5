(** Properties C14-C20: hyperfine and Zeeman energies.  Angular momenta are
    doubled integers [i j f m]; [qch z] is the number z/2. *)
From Coq Require Import List Bool ZArith QArith Qcanon Lia String Sorted.
From Verif Require Import Base PyStr Util Parse Term Num Wigner Hyperfine HyperfineProofs.
Import ListNotations.
Local Open Scope Qc_scope.

(** C14 *)
Theorem C14_centre_of_gravity : forall i j A B C, (0 <= i)%Z -> (0 <= j)%Z ->
  sumQ (map (fun f => ((1 + 1) * qch f + 1) * hf_shift Exact i j f A B C) (F_range j i)) = 0.
Proof. exact centre_of_gravity. Qed.
Print Assumptions C14_centre_of_gravity.
(** The weighted mean of the energies is the energy of the level. *)
Theorem C14_mean_energy : forall i j E A B C, (0 <= i)%Z -> (0 <= j)%Z ->
  sumQ (map (fun f => ((1 + 1) * qch f + 1) * (E + hf_shift Exact i j f A B C)) (F_range j i))
  = ((1 + 1) * qch i + 1) * ((1 + 1) * qch j + 1) * E.
Proof. exact mean_energy. Qed.
Print Assumptions C14_mean_energy.
(** I = 3/2, J = 3/2 with all three constants. *)
Example C14_case :
  map (fun f => hf_shift Exact 3 3 f (qci 4) (qci 4) (qci 1)) (F_range 3 3)
  = [qci (-80); qci 32; qci (-20); qci 12].
Proof. repeat (apply f_equal2; [apply Qc_is_canon; reflexivity|]). reflexivity. Qed.

(** C15: for neighbouring sublevels (F-1 is a sublevel as well). *)
Theorem C15_interval_rule : forall i j f A,
  hf_shift Exact i j f A 0 0 - hf_shift Exact i j (f - 2) A 0 0 = A * qch f.
Proof. exact interval_rule. Qed.
Print Assumptions C15_interval_rule.
Example C15_case : F_range 1 3 = [2; 4]%Z /\
  hf_shift Exact 3 1 4 (qci 3) 0 0 - hf_shift Exact 3 1 2 (qci 3) 0 0 = qci 6.
Proof. split; [reflexivity|]. apply Qc_is_canon. reflexivity. Qed.

(** C16: A and B as in the standard definition; the octupole term of the
    stretched level is C*(2I-1) instead of C. *)
Theorem C16_stretched_partial : forall i j A B C, (0 <= i)%Z -> (0 <= j)%Z ->
  hf_shift Exact i j (i + j) A B C =
  A * (qch i * qch j)
  + (if (2 <=? i)%Z && (2 <=? j)%Z then B / ((1 + 1) * (1 + 1)) else 0)
  + (if (3 <=? i)%Z && (3 <=? j)%Z then C * ((1 + 1) * qch i - 1) else 0).
Proof. exact stretched_shift. Qed.
Print Assumptions C16_stretched_partial.
Example C16_case : hf_shift Exact 5 3 8 (qci 4) (qci 8) (qci 1) = qci 21.
Proof. apply Qc_is_canon. reflexivity. Qed.
(** Wrong for every I, J >= 3/2 and every C other than 0. *)
Theorem C16_refuted : forall i j A B C, (3 <= i)%Z -> (3 <= j)%Z -> C <> 0 ->
  hf_shift Exact i j (i + j) A B C <> A * (qch i * qch j) + B / ((1 + 1) * (1 + 1)) + C.
Proof. exact stretched_wrong. Qed.
Print Assumptions C16_refuted.
(** With C = 0 the shift is symmetric in I and J. *)
Theorem C16_symmetric_partial : forall i j f A B,
  hf_shift Exact i j f A B 0 = hf_shift Exact j i f A B 0.
Proof. exact hf_shift_sym. Qed.
Print Assumptions C16_symmetric_partial.

(** C17 *)
Theorem C17_F_zero : forall i j g, compute_gF Exact i j 0 g = 0.
Proof. exact gF_zero. Qed.
Print Assumptions C17_F_zero.
Theorem C17_no_nuclear_spin : forall j g, (0 < j)%Z -> F_range j 0 = [j] /\ compute_gF Exact 0 j j g = g.
Proof. exact gF_no_spin_range. Qed.
Print Assumptions C17_no_nuclear_spin.
Theorem C17_stretched : forall i j g, (0 <= i)%Z -> (0 <= j)%Z -> (0 < i + j)%Z ->
  qch (i + j) * compute_gF Exact i j (i + j) g = qch j * g.
Proof. exact gF_stretched. Qed.
Print Assumptions C17_stretched.
Theorem C17_weighted_sum : forall i j g, (0 <= i)%Z -> (0 <= j)%Z ->
  sumQ (map (fun f => ((1 + 1) * qch f + 1) * (qch f * (qch f + 1)) * compute_gF Exact i j f g) (F_range j i))
  = g * qch j * (qch j + 1) * ((1 + 1) * qch i + 1) * ((1 + 1) * qch j + 1).
Proof. exact gF_sum. Qed.
Print Assumptions C17_weighted_sum.
Example C17_case : map (fun f => compute_gF Exact 3 1 f (qci 2)) (F_range 1 3) = [qch (-1); qch 1].
Proof. change (F_range 1 3) with [2; 4]%Z. cbn [map].
  repeat (apply f_equal2; [apply Qc_is_canon; reflexivity|]). reflexivity. Qed.

(** C18 *)
Theorem C18_equal_spacing : forall muB gF m B,
  z_shift Exact muB gF (m + 2) B 0 - z_shift Exact muB gF m B 0 = gF * muB * B.
Proof. exact z_spacing. Qed.
Print Assumptions C18_equal_spacing.
Theorem C18_antisymmetric : forall muB gF m B,
  z_shift Exact muB gF (- m) B 0 = - z_shift Exact muB gF m B 0.
Proof. exact z_antisym. Qed.
Print Assumptions C18_antisymmetric.
Theorem C18_sum_zero : forall muB gF B F, (0 <= F)%Z ->
  sumQ (map (fun m => z_shift Exact muB gF m B 0) (mF_range F)) = 0.
Proof. exact z_sum_zero. Qed.
Print Assumptions C18_sum_zero.
Theorem C18_zero_field : forall muB gF m qz, z_shift Exact muB gF m 0 qz = 0.
Proof. exact z_zero_field. Qed.
Print Assumptions C18_zero_field.
Example C18_case : map (fun m => z_shift Exact (qci 10) (qch 1) m (qci 2) 0) (mF_range 3) = [qci (-15); qci (-5); qci 5; qci 15].
Proof. change (mF_range 3) with [-3; -1; 1; 3]%Z. cbn [map].
  repeat (apply f_equal2; [apply Qc_is_canon; reflexivity|]). reflexivity. Qed.

(** C19: the textbook value times the percentage, which is 100 by default. *)
Theorem C19_scaled_partial : forall t l s j,
  t_coupling t = CLS -> q_l (t_qn t) = Some l -> q_s (t_qn t) = Some s -> t_J t = Some j -> (0 < j)%Z ->
  compute_gJ [t] = Some (Fin (t_pct t * lande_textbook (Q2Qc l) (Q2Qc s) (qch j))).
Proof. exact compute_gJ_single. Qed.
Print Assumptions C19_scaled_partial.
(** Several components: the quantum numbers l and s of the leading one, the J
    of each, summed over the percentages present. *)
Theorem C19_components_partial : forall lead rest l s,
  q_l (t_qn lead) = Some l -> q_s (t_qn lead) = Some s ->
  (forall t, In t (lead :: rest) -> t_coupling t = CLS /\ exists j, t_J t = Some j /\ (0 < j)%Z) ->
  exists g, compute_gJ (lead :: rest) = Some (Fin g) /\
  g = sumQ (map (fun e => fst e * lande_textbook (Q2Qc l) (Q2Qc s)
                            (qch (match t_J (snd e) with Some j => j | None => 0%Z end))) (terms_dict (lead :: rest))).
Proof. exact compute_gJ_value. Qed.
Print Assumptions C19_components_partial.
(** A 2S1/2 level with the default percentage gets about 200, not about 2. *)
Theorem C19_refuted : exists t,
  new_term "6s"%string "2S"%string (VStr "1/2"%string) VNone VNone (Q2Qc 100) None = Ok t /\
  compute_gJ [t] = Some (Fin (Q2Qc (20023 # 100))) /\
  lande_textbook 0 (qch 1) (qch 1) = Q2Qc (20023 # 10000).
Proof. exact gJ_default_100. Qed.
Print Assumptions C19_refuted.

(** C20: finite for every J > 0, or with an explicit g-value. *)
Theorem C20_finite_partial : forall lead rest l s,
  q_l (t_qn lead) = Some l -> q_s (t_qn lead) = Some s ->
  (forall t, In t (lead :: rest) -> t_coupling t = CLS /\ exists j, t_J t = Some j /\ (0 < j)%Z) ->
  exists g, compute_gJ (lead :: rest) = Some g /\
  forall muB Bf qz E A B C i j f m, np_finite (z_level_np muB Bf qz E A B C i j f m g) = true.
Proof. exact finite_LS. Qed.
Print Assumptions C20_finite_partial.
(** The finite value is the sum of the energies of the three layers. *)
Theorem C20_value_partial : forall muB Bf qz E A B C i j f m g, (0 <= f)%Z ->
  z_level_np muB Bf qz E A B C i j f m (Fin g) =
  Fin (E + hf_shift Exact i j f A B C + z_shift Exact muB (compute_gF Exact i j f g) m Bf qz).
Proof. exact z_level_value. Qed.
Print Assumptions C20_value_partial.
Example C20_case : z_level_np (qci 10) (qci 2) 0 (qci 100) (qci 4) 0 0 1 1 2 2 (Fin (qci 2)) = Fin (qci 121).
Proof. vm_compute. apply f_equal. apply Qc_is_canon. reflexivity. Qed.
(** J = 0 and I > 0: no Zeeman sublevel has an energy, at any field. *)
Theorem C20_refuted : forall t l muB Bf qz E A B C i f m,
  t_coupling t = CLS -> q_l (t_qn t) = Some l -> q_s (t_qn t) = Some l -> t_J t = Some 0%Z ->
  (0 < i)%Z -> In f (F_range 0 i) ->
  exists g, compute_gJ [t] = Some g /\ z_level_np muB Bf qz E A B C i 0 f m g = NaN.
Proof. exact J0_nan. Qed.
(** Without a field the energy is not the hyperfine energy either. *)
Theorem C20_zero_field_refuted : forall g muB qz E A B C i j f m, np_finite g = false -> (0 < f)%Z ->
  z_level_np muB 0 qz E A B C i j f m g = NaN.
Proof.
  intros g muB qz E A B C i j f m H Hf. unfold z_level_np, gF_np. destruct (Z.eqb_spec f 0); [lia|].
  assert (K : forall c x, np_finite x = false -> np_finite (np_scale c x) = false) by (intros c [] Hx; cbn in *; try discriminate; auto; now destruct (Qc_eqb c 0)).
  assert (Z0 : forall x, np_finite x = false -> np_scale 0 x = NaN) by (intros [] Hx; cbn in *; try discriminate; reflexivity).
  rewrite Z0 by (repeat apply K; exact H). reflexivity.
Qed.
Print Assumptions C20_zero_field_refuted.
Print Assumptions C20_refuted.
Example C20_refuted_case : exists t, new_term "6s2"%string "1S"%string (VStr "0"%string) VNone VNone (Q2Qc 100) None = Ok t /\
  t_coupling t = CLS /\ q_l (t_qn t) = q_s (t_qn t) /\ t_J t = Some 0%Z /\ F_range 0 1 = [1%Z].
Proof. exact singlet_case. Qed.
