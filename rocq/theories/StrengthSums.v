(** Sums of relative line strengths over the sublevels of a manifold. *)
From Coq Require Import List Bool ZArith QArith Qcanon Lia Permutation Sorted.
From Verif Require Import Base Util Term Num Wigner WignerProofs WignerOne WignerSym Hyperfine HyperfineProofs Rules RulesProofs.
Import ListNotations.
Local Open Scope Z_scope.

(** [sum(h(x) for x in l)] *)
Definition sums {A} (h : A -> Qc) (l : list A) : Qc := fold_right (fun x acc => (h x + acc)%Qc) 0%Qc l.

Section Sums.
  Context {A : Type}.
  Implicit Types (l u v : list A) (h g : A -> Qc).
  Lemma sums_cons : forall h x l, sums h (x :: l) = (h x + sums h l)%Qc.
  Proof. reflexivity. Qed.
  Lemma sums_app : forall h u v, sums h (u ++ v) = (sums h u + sums h v)%Qc.
  Proof. induction u; intros v; cbn [app]; [cbn; ring|]. rewrite !sums_cons, IHu. ring. Qed.
  Lemma sums_perm : forall h u v, Permutation u v -> sums h u = sums h v.
  Proof. intros h u v P. induction P; rewrite ?sums_cons; try congruence. ring. Qed.
  Lemma sums_ext : forall h g l, (forall x, In x l -> h x = g x) -> sums h l = sums g l.
  Proof. induction l; intros E; auto. rewrite !sums_cons, IHl, E; auto; [now left|intros; apply E; now right]. Qed.
  Lemma sums_0 : forall h l, (forall x, In x l -> h x = 0%Qc) -> sums h l = 0%Qc.
  Proof. induction l; intros E; auto. rewrite sums_cons, IHl, E; [ring|now left|intros; apply E; now right]. Qed.
  Lemma sums_add : forall h g l, sums (fun x => h x + g x)%Qc l = (sums h l + sums g l)%Qc.
  Proof. induction l; [cbn; ring|]. rewrite !sums_cons, IHl. ring. Qed.
  Lemma sums_scale : forall c h l, sums (fun x => c * h x)%Qc l = (c * sums h l)%Qc.
  Proof. induction l; [cbn; ring|]. rewrite !sums_cons, IHl. ring. Qed.
  Lemma sums_filter : forall h (p : A -> bool) l, sums h (filter p l) = sums (fun x => if p x then h x else 0%Qc) l.
  Proof. induction l; auto. cbn [filter]. rewrite sums_cons. destruct (p a); rewrite ?sums_cons, IHl; ring. Qed.

  Hypothesis dec : forall x y : A, {x = y} + {x <> y}.
  (** Two lists that differ only in elements where [h] vanishes. *)
  Lemma sums_supp : forall h u v, NoDup u -> NoDup v -> (forall x, In x u -> ~ In x v -> h x = 0%Qc) -> (forall x, In x v -> ~ In x u -> h x = 0%Qc) ->
    sums h u = sums h v.
  Proof.
    intros h u v Du Dv Hu Hv. set (inb := fun w x => if in_dec dec x w then true else false).
    assert (R : forall w1 w2, (forall x, In x w1 -> ~ In x w2 -> h x = 0%Qc) -> sums h w1 = sums h (filter (inb w2) w1)).
    { intros w1 w2 H. rewrite sums_filter. apply sums_ext. intros x I. unfold inb. destruct (in_dec dec x w2); auto. }
    rewrite (R u v), (R v u) by auto. apply sums_perm. apply NoDup_Permutation; try (now apply NoDup_filter).
    intros x. rewrite !filter_In. unfold inb. destruct (in_dec dec x v), (in_dec dec x u); intuition discriminate.
  Qed.
End Sums.
Lemma sums_map {A B} : forall (g : A -> B) (h : B -> Qc) l, sums h (map g l) = sums (fun x => h (g x)) l.
Proof. induction l; auto. cbn [map]. now rewrite !sums_cons, IHl. Qed.
Lemma sums_swap {A B} : forall (h : A -> B -> Qc) u v, sums (fun x => sums (h x) v) u = sums (fun y => sums (fun x => h x y) u) v.
Proof.
  induction u; intros v; [cbn [sums fold_right]; rewrite sums_0; auto|]. rewrite sums_cons, IHu. rewrite <- sums_add. apply sums_ext. auto.
Qed.
Lemma sums_const {A} : forall c (l : list A), sums (fun _ => c) l = (QcZ (Z.of_nat (List.length l)) * c)%Qc.
Proof.
  induction l; [cbn; rewrite QcZ_0; ring|]. rewrite sums_cons, IHl. cbn [List.length]. rewrite Nat2Z.inj_succ, <- Z.add_1_r, QcZ_add, QcZ_1. ring.
Qed.
Lemma sums_prod {A B} : forall (h : A * B -> Qc) u v, sums h (list_prod u v) = sums (fun x => sums (fun y => h (x, y)) v) u.
Proof.
  induction u; intros v; auto. cbn [list_prod]. now rewrite sums_app, sums_map, sums_cons, IHu.
Qed.

Lemma sorted_NoDup : forall l, StronglySorted Z.lt l -> NoDup l.
Proof.
  induction 1 as [|x l S IH F]; constructor; auto. intros I. rewrite Forall_forall in F. specialize (F _ I). lia.
Qed.

(** ** Hyperfine *)

Lemma w6_turn : forall i j1 f1 f2 j2 k, w6sq j2 f2 i f1 j1 k = w6sq i j1 f1 k f2 j2.
Proof. intros. rewrite (w6sq_cols j2), (w6sq_cols' f2), (w6sq_cols f2), (w6sq_flip i). reflexivity. Qed.
Lemma w6_tri_no : forall a b c d e f, w6_tri a b c d e f = false -> w6sq a b c d e f = 0%Qc.
Proof. intros a b c d e f H. unfold w6sq. now rewrite H. Qed.

Lemma hf_sym : forall a i j1 j2 f1 f2, hf_factor a i j1 j2 f1 f2 = hf_factor a i j2 j1 f2 f1.
Proof.
  intros. assert (E : forall k, w6sq j2 f2 i f1 j1 k = w6sq j1 f1 i f2 j2 k).
  { intros. rewrite w6_turn. rewrite (w6sq_flip i). symmetry. rewrite w6_turn. rewrite w6sq_cols'. reflexivity. }
  unfold hf_factor. rewrite !E. rewrite (Z.mul_comm (f1 + 1)). reflexivity.
Qed.
Lemma F_range_nodup : forall j i, NoDup (F_range j i).
Proof. intros. apply sorted_NoDup, F_range_sorted. Qed.
Lemma mF_range_nodup : forall f, NoDup (mF_range f).
Proof. intros. apply sorted_NoDup, mF_range_sorted. Qed.

Definition dipole (a : types) : Prop := aE1 a = true \/ aM1 a = true.
Lemma hf_dipole : forall a i j1 j2 f1 f2, dipole a -> hf_factor a i j1 j2 f1 f2 = (QcZ (f1 + 1) * (QcZ (f2 + 1) * w6sq i j1 f1 2 f2 j2))%Qc.
Proof.
  intros a i j1 j2 f1 f2 H. unfold hf_factor. replace (aE1 a || aM1 a) with true by (destruct H as [-> | ->]; rewrite ?orb_true_r; reflexivity).
  rewrite QcZ_mul, w6_turn. ring.
Qed.

Lemma hf_from : forall a i j1 j2 f1, dipole a -> 0 <= i -> 0 <= j2 -> tri i j1 f1 = true -> tri j1 j2 2 = true ->
  sums (hf_factor a i j1 j2 f1) (F_range j2 i) = frac (f1 + 1) (j1 + 1).
Proof.
  intros a i j1 j2 f1 H Hi H2 T1 T2.
  rewrite (sums_supp Z.eq_dec _ _ [f1 - 2; f1; f1 + 2] (F_range_nodup j2 i)).
  - cbn [sums fold_right]. rewrite !(hf_dipole a) by auto.
    rewrite <- (Z.mul_1_r (f1 + 1)), <- frac_scale. rewrite <- (w6_sum_rule i j1 f1 j2 T1).
    + rewrite (Z.mul_1_r (f1 + 1)). replace (f1 - 2 + 1) with (f1 - 1) by lia. replace (f1 + 2 + 1) with (f1 + 3) by lia. ring.
    + rewrite tri_12, tri_23. exact T2.
  - repeat constructor; cbn; lia.
  - intros f2 I N. rewrite (hf_dipole a) by auto. rewrite w6_tri_no; [ring|]. unfold w6_tri.
    destruct (tri 2 f2 f1) eqn:T; rewrite ?andb_false_r; auto. exfalso. apply N.
    apply tri_elim in T as [x [y [z T]]]. cbn [In]. lia.
  - intros f2 I N. rewrite (hf_dipole a) by auto. rewrite w6_tri_no; [ring|]. unfold w6_tri.
    destruct (tri i f2 j2) eqn:T; rewrite ?andb_false_r; auto. exfalso. apply N. apply F_range_In; auto.
    rewrite tri_12, tri_23. exact T.
Qed.
Lemma hf_to : forall a i j1 j2 f2, dipole a -> 0 <= i -> 0 <= j1 -> tri i j2 f2 = true -> tri j1 j2 2 = true ->
  sums (fun f1 => hf_factor a i j1 j2 f1 f2) (F_range j1 i) = frac (f2 + 1) (j2 + 1).
Proof.
  intros a i j1 j2 f2 H Hi H1 T1 T2. rewrite (sums_ext _ (hf_factor a i j2 j1 f2)) by (intros; apply hf_sym). apply hf_from; auto. now rewrite tri_12.
Qed.
Lemma sum_F : forall j i, 0 <= j -> 0 <= i -> sums (fun f => QcZ (f + 1)) (F_range j i) = QcZ ((i + 1) * (j + 1)).
Proof.
  intros j i Hj Hi. rewrite <- (zeeman_count j i Hj Hi). assert (P : forall f, In f (F_range j i) -> 0 <= f).
  { intros f I. apply F_range_In in I; auto. apply tri_elim in I as [x [y [z I]]]. lia. }
  revert P. generalize (F_range j i). induction l as [|f l IH]; intros P; [cbn; now rewrite QcZ_0|].
  cbn [map zsum]. rewrite sums_cons, IH by (intros f0 I0; apply P; now right). rewrite mF_range_length by (apply P; now left). rewrite (QcZ_add (f + 1)). reflexivity.
Qed.
Lemma hf_total : forall a i j1 j2, dipole a -> 0 <= i -> 0 <= j1 -> 0 <= j2 -> tri j1 j2 2 = true ->
  sums (fun f1 => sums (hf_factor a i j1 j2 f1) (F_range j2 i)) (F_range j1 i) = QcZ (i + 1).
Proof.
  intros a i j1 j2 H Hi H1 H2 T. rewrite (sums_ext _ (fun f => frac 1 (j1 + 1) * QcZ (f + 1))%Qc).
  - rewrite sums_scale, sum_F by auto. unfold frac. rewrite QcZ_mul, QcZ_1. field. apply QcZ_nz. lia.
  - intros f I. apply F_range_In in I; auto. rewrite hf_from; auto; [|now rewrite tri_12].
    unfold frac. rewrite QcZ_1. unfold Qcdiv. ring.
Qed.

(** ** Zeeman *)

Lemma sumq_1 : forall g, sumq 1 g = (g (-2)%Z + g 0%Z + g 2%Z)%Qc.
Proof. intros. unfold sumq, qs. cbn [Z.mul Z.add Z.to_nat Pos.to_nat Pos.iter_op Nat.add seq map fold_right Pos.mul Pos.add]. change (g (-2)%Z + (g 0%Z + (g 2%Z + 0)) = g (-2)%Z + g 0%Z + g 2%Z)%Qc. ring. Qed.
Lemma z_dipole : forall a f1 f2 m1 m2, dipole a ->
  z_factor a f1 f2 m1 m2 = (w3sq f1 2 f2 (- m1) (-2) m2 + w3sq f1 2 f2 (- m1) 0 m2 + w3sq f1 2 f2 (- m1) 2 m2)%Qc.
Proof.
  intros a f1 f2 m1 m2 H. unfold z_factor. replace (aE1 a || aM1 a) with true by (destruct H as [-> | ->]; rewrite ?orb_true_r; reflexivity). apply sumq_1.
Qed.
Lemma z_sym : forall a f1 f2 m1 m2, dipole a -> z_factor a f1 f2 m1 m2 = z_factor a f2 f1 m2 m1.
Proof.
  intros. rewrite !z_dipole by auto. rewrite !(w3sq_strength f1 f2). change (- (-2)) with 2. change (- 0) with 0. change (- (2)) with (-2). ring.
Qed.
Lemma w3_one : forall f1 f2 m1 q, sums (w3sq f1 2 f2 (- m1) q) (mF_range f2) = w3sq f1 2 f2 (- m1) q (m1 - q).
Proof.
  intros. rewrite (sums_supp Z.eq_dec _ _ [m1 - q] (mF_range_nodup f2)).
  - cbn. ring.
  - repeat constructor; cbn; auto.
  - intros m2 I N. apply w3sq_no. unfold w3_ok. destruct (Z.eqb_spec (- m1 + q + m2) 0) as [E|E]; [|now rewrite andb_false_r].
    exfalso. apply N. left. lia.
  - intros m2 [<-|[]] N. apply w3_ok_proj. destruct (proj_ok f2 (m1 - q)) eqn:P; auto. exfalso. apply N. apply mF_range_In.
    unfold proj_ok in P. rewrite andb_true_iff, Z.leb_le in P. destruct P as [P1 P2]. split; [lia|exact P2].
Qed.
Lemma z_from : forall a f1 f2 m1, dipole a -> tri f1 2 f2 = true -> proj_ok f1 m1 = true ->
  sums (z_factor a f1 f2 m1) (mF_range f2) = frac 1 (f1 + 1).
Proof.
  intros a f1 f2 m1 H T P. rewrite (sums_ext _ _ _ (fun m2 _ => z_dipole a f1 f2 m1 m2 H)). rewrite !sums_add, !w3_one.
  rewrite <- (w3_sum_rule f1 f2 (- m1) T).
  - replace (- - m1 + 2) with (m1 - -2) by lia. replace (- - m1) with (m1 - 0) by lia. replace (m1 - 0 - 2) with (m1 - 2) by lia. reflexivity.
  - unfold proj_ok in *. rewrite Z.abs_opp, Z.even_add, Z.even_opp, <- Z.even_add. exact P.
Qed.
Lemma z_to : forall a f1 f2 m2, dipole a -> tri f1 2 f2 = true -> proj_ok f2 m2 = true ->
  sums (fun m1 => z_factor a f1 f2 m1 m2) (mF_range f1) = frac 1 (f2 + 1).
Proof.
  intros a f1 f2 m2 H T P. rewrite (sums_ext _ (z_factor a f2 f1 m2)) by (intros; now apply z_sym). apply z_from; auto. now rewrite tri_12, tri_23, tri_12.
Qed.
Lemma z_total : forall a f1 f2, dipole a -> 0 <= f1 -> tri f1 2 f2 = true ->
  sums (fun m1 => sums (z_factor a f1 f2 m1) (mF_range f2)) (mF_range f1) = 1%Qc.
Proof.
  intros a f1 f2 H H1 T. rewrite (sums_ext _ (fun _ => frac 1 (f1 + 1))).
  - rewrite sums_const, mF_range_length by auto. unfold frac. rewrite QcZ_1. field. apply QcZ_nz. lia.
  - intros m I. apply z_from; auto. apply mF_range_In in I. unfold proj_ok. rewrite andb_true_iff, Z.leb_le. split; [lia|tauto].
Qed.
