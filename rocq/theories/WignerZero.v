(** Where the Wigner symbols of rank one vanish although no triangle rule is
    broken. *)
From Coq Require Import List Bool ZArith QArith Qcanon Lia.
From Verif Require Import Base Wigner WignerProofs WignerOne.
Import ListNotations.
Local Open Scope Z_scope.

Lemma frac_nz : forall n d, n <> 0 -> d <> 0 -> frac n d <> 0%Qc.
Proof. intros n d Hn Hd. unfold frac. apply Qcdiv_nz; now apply QcZ_nz. Qed.
Lemma tri_2 : forall b g, tri 2 b g = true -> g = b - 2 /\ 2 <= b \/ g = b /\ 1 <= b \/ g = b + 2 /\ 0 <= b.
Proof. intros b g H. apply tri_elim in H as [x [y [z H]]]. lia. Qed.

Lemma w6_zero : forall i b c e g, w6_tri i b c 2 e g = true ->
  (w6sq i b c 2 e g = 0%Qc <-> e = c /\ g = b /\ i * (i + 2) = b * (b + 2) + c * (c + 2)).
Proof.
  intros i b c e g H. unfold w6_tri in H. rewrite !andb_true_iff in H. destruct H as [[[T1 T2] T3] T4].
  apply tri_elim in T1 as [x [y [z [Hx [Hy [Hz [-> [-> ->]]]]]]]].
  apply tri_2 in T3. rewrite tri_23 in T4. apply tri_2 in T4. apply tri_elim in T2 as [x' [y' [z' T2]]].
  assert (Q : forall n d, w6sq (y + z) (x + z) (x + y) 2 e g = frac n d -> n <> 0 -> d <> 0 ->
    ~ (e = x + y /\ g = x + z /\ (y + z) * (y + z + 2) = (x + z) * (x + z + 2) + (x + y) * (x + y + 2)) ->
    (w6sq (y + z) (x + z) (x + y) 2 e g = 0%Qc <-> e = x + y /\ g = x + z /\ (y + z) * (y + z + 2) = (x + z) * (x + z + 2) + (x + y) * (x + y + 2))).
  { intros n d E Hn Hd N. split; [|tauto]. rewrite E. intros H. exfalso. now apply (frac_nz n d). }
  destruct T4 as [[-> L]|[[-> L]|[-> L]]], T3 as [[-> L']|[[-> L']|[-> L']]].
  - eapply Q; [exact (w6_dd x y z Hx Hy Hz)|pnz|pnz|lia].
  - eapply Q; [exact (w6_d0 x y z Hx Hy Hz)|pnz|pnz|lia].
  - eapply Q; [exact (w6_du x y z Hx Hy Hz)|pnz|pnz|lia].
  - eapply Q; [exact (w6_0d x y z Hx Hy Hz)|pnz|pnz|lia].
  - clear Q. pose proof (w6_00 x y z Hx Hy Hz) as E. cbv zeta in E. rewrite E. clear E. split.
    + intros H. split; auto. split; auto. destruct (Z.eq_dec (y * z - (x + y + z + 2) * x) 0) as [N|N]; [nia|].
      exfalso. revert H. apply frac_nz; [nia|pnz].
    + intros [_ [_ H]]. replace (y * z - (x + y + z + 2) * x) with 0 by nia. apply frac_0l.
  - eapply Q; [exact (w6_0u x y z Hx Hy Hz)|pnz|pnz|lia].
  - eapply Q; [exact (w6_ud x y z Hx Hy Hz)|pnz|pnz|lia].
  - eapply Q; [exact (w6_u0 x y z Hx Hy Hz)|pnz|pnz|lia].
  - eapply Q; [exact (w6_uu x y z Hx Hy Hz)|pnz|pnz|lia].
Qed.

Lemma w3_zero : forall a c m n p, w3_ok a 2 c m n p = true -> (w3sq a 2 c m n p = 0%Qc <-> a = c /\ m = 0 /\ n = 0).
Proof.
  intros a c m n p H. unfold w3_ok in H. rewrite !andb_true_iff, Z.eqb_eq in H. destruct H as [[[[Ta Pa] Pn] Pc] Es].
  apply proj_elim in Pa as [u [v [Hu [Hv [-> ->]]]]]. apply proj_elim in Pn as [h [h' [Hh [Hh' [E2 ->]]]]].
  apply proj_elim in Pc as [w [w' [Hw [Hw' [-> ->]]]]]. rewrite tri_12 in Ta. apply tri_2 in Ta.
  assert (En : exists d, h - h' = 2 * d /\ (d = -1 \/ d = 0 \/ d = 1)) by (exists (h - 1); lia). destruct En as [d [En Hd]].
  assert (Ep : w - w' = - (u - v) - 2 * d) by lia. rewrite En. clear En Es.
  assert (Q : forall n e, w3sq (u + v) 2 (w + w') (u - v) (2 * d) (w - w') = frac n e -> e <> 0 -> (n = 0 <-> u + v = w + w' /\ u - v = 0 /\ 2 * d = 0) ->
    (w3sq (u + v) 2 (w + w') (u - v) (2 * d) (w - w') = 0%Qc <-> u + v = w + w' /\ u - v = 0 /\ 2 * d = 0)).
  { intros n e E He Hn. rewrite <- Hn, E. split; [|intros ->; apply frac_0l]. intros Z. destruct (Z.eq_dec n 0) as [N|N]; auto. exfalso. now apply (frac_nz n e). }
  destruct Ta as [[Ec L]|[[Ec L]|[Ec L]]]; rewrite Ec, Ep in Q |- *.
  - pose proof (w3_down u v d Hu Hv L Hd) as E. eapply Q; [exact E|pnz|].
    destruct Hd as [-> | [-> | ->]]; cbn [Z.eqb Pos.eqb]; nia.
  - pose proof (w3_same u v d Hu Hv L Hd) as E. eapply Q; [exact E|pnz|].
    destruct Hd as [-> | [-> | ->]]; cbn [Z.eqb Pos.eqb]; nia.
  - pose proof (w3_up u v d Hu Hv Hd) as E. eapply Q; [exact E|pnz|].
    destruct Hd as [-> | [-> | ->]]; cbn [Z.eqb Pos.eqb]; nia.
Qed.
