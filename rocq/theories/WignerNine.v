(** The 9j symbol: the sum of the squares over the last row. *)
From Coq Require Import List Bool ZArith QArith Qcanon Lia Reals String.
From Verif Require Import Base Util Term Num Wigner WignerProofs WignerOne WignerSym Hyperfine HyperfineProofs Rules RulesProofs StrengthSums WignerOrth WignerNorm Strengths Coupling.
Import ListNotations.
Local Open Scope Z_scope.

Definition w9sq (a b c d e f g h j : Z) : Qc :=
  if w9_tri a b c d e f g h j
  then (w9_delta a b c d e f g h j * (w9_sum a b c d e f g h j * w9_sum a b c d e f g h j))%Qc else 0%Qc.

Lemma sums_scale_r {A} : forall (h : A -> Qc) c l, sums (fun x => h x * c)%Qc l = (sums h l * c)%Qc.
Proof. intros h c l. rewrite (sums_ext _ (fun x => c * h x)%Qc) by (intros; ring). rewrite sums_scale. ring. Qed.
Lemma sums_one : forall (X : list Z) (f : Z -> Qc) x, NoDup X -> In x X -> sums (fun z => if x =? z then f z else 0%Qc) X = f x.
Proof.
  intros X f x ND I. rewrite (sums_supp Z.eq_dec _ X [x] ND).
  - cbn. rewrite Z.eqb_refl. ring.
  - repeat constructor; auto.
  - intros z _ N. destruct (Z.eqb_spec x z) as [E|E]; auto. exfalso. apply N. now left.
  - intros z [<-|[]] N. contradiction.
Qed.

(** The square of a combination of orthogonal columns. *)
Lemma square_orth : forall (G X : list Z) (w : Z -> Qc) (R : Z -> Z -> Qc) (V n : Z -> Qc) (good : Z -> bool), NoDup X ->
  (forall x, good x = false -> V x = 0%Qc) ->
  (forall x y, good x = true -> good y = true -> sums (fun g => w g * (R g x * R g y))%Qc G = if x =? y then n x else 0%Qc) ->
  forall V' : Z -> Qc, (forall x, good x = false -> V' x = 0%Qc) ->
  sums (fun g => w g * (sums (fun x => V x * R g x) X * sums (fun x => V' x * R g x) X))%Qc G = sums (fun x => V x * V' x * n x)%Qc X.
Proof.
  intros G X w R V n good ND HV HO V' HV'.
  transitivity (sums (fun g => sums (fun x => sums (fun y => (V x * V' y) * (w g * (R g x * R g y)))%Qc X) X) G).
  { apply sums_ext. intros g _. rewrite <- sums_scale_r, <- sums_scale. apply sums_ext. intros x _. rewrite <- !sums_scale. apply sums_ext. intros y _. ring. }
  rewrite sums_swap. apply sums_ext. intros x Ix.
  transitivity (sums (fun y => V x * V' y * (if x =? y then n x else 0))%Qc X).
  { rewrite sums_swap. apply sums_ext. intros y _. rewrite sums_scale.
    destruct (good x) eqn:Gx; [|rewrite (HV x Gx); ring]. destruct (good y) eqn:Gy; [|rewrite (HV' y Gy); ring]. now rewrite HO. }
  rewrite (sums_ext _ (fun y => if x =? y then (V x * V' y * n x)%Qc else 0%Qc)) by (intros y _; destruct (x =? y); ring).
  rewrite (sums_one X (fun y => V x * V' y * n x)%Qc x ND Ix). reflexivity.
Qed.

Lemma tri_nn : forall a b c, tri a b c = true -> 0 <= a /\ 0 <= b /\ 0 <= c.
Proof. intros a b c T. apply tri_elim in T as [x [y [z T]]]. lia. Qed.

(** Permuted arguments of the triangles. *)
Lemma tri_321 : forall a b c, tri a b c = tri c b a.
Proof. intros. now rewrite tri_12, tri_23, tri_12. Qed.
Lemma tri_231 : forall a b c, tri a b c = tri b c a.
Proof. intros. now rewrite tri_12, tri_23. Qed.
Lemma delta2_231 : forall a b c, delta2 a b c = delta2 b c a.
Proof. intros. now rewrite delta2_12, delta2_23. Qed.

(** Symmetries of Racah's sum. *)
Lemma w6_sum_flip : forall a b c d e f, w6_sum a b c d e f = w6_sum a e f d b c.
Proof.
  intros. symmetry. unfold w6_sum.
  replace (a + e + d + b) with (a + b + d + e) by ring. replace (e + f + b + c) with (b + c + e + f) by ring. replace (f + a + c + d) with (c + a + f + d) by ring.
  unfold sum_range.
  match goal with |- sumr (Z.to_nat (?h1 - ?l1 + 1)) _ _ = sumr (Z.to_nat (?h2 - ?l2 + 1)) _ _ => replace h1 with h2 by lia; replace l1 with l2 by lia end.
  apply sumr_ext. intros z. unfold w6_term.
  replace (a + e + d + b) with (a + b + d + e) by ring. replace (e + f + b + c) with (b + c + e + f) by ring. replace (f + a + c + d) with (c + a + f + d) by ring.
  f_equal. f_equal. ring.
Qed.
Lemma w6_sum_cols' : forall a b c d e f, w6_sum a b c d e f = w6_sum a c b d f e.
Proof.
  intros. symmetry. unfold w6_sum. replace (a + c + b) with (a + b + c) by ring. replace (a + f + e) with (a + e + f) by ring.
  replace (d + c + e) with (d + e + c) by ring. replace (d + f + b) with (d + b + f) by ring.
  replace (a + c + d + f) with (c + a + f + d) by ring. replace (c + b + f + e) with (b + c + e + f) by ring. replace (b + a + e + d) with (a + b + d + e) by ring.
  unfold sum_range.
  match goal with |- sumr (Z.to_nat (?h1 - ?l1 + 1)) _ _ = sumr (Z.to_nat (?h2 - ?l2 + 1)) _ _ => replace h1 with h2 by lia; replace l1 with l2 by lia end.
  apply sumr_ext. intros z. unfold w6_term.
  replace (a + c + b) with (a + b + c) by ring. replace (a + f + e) with (a + e + f) by ring.
  replace (d + c + e) with (d + e + c) by ring. replace (d + f + b) with (d + b + f) by ring.
  replace (a + c + d + f) with (c + a + f + d) by ring. replace (c + b + f + e) with (b + c + e + f) by ring. replace (b + a + e + d) with (a + b + d + e) by ring.
  f_equal. f_equal. ring.
Qed.

(** The product of two 9j symbols without the triangle coefficients of the
    first two rows and the last column; summed over the last row. *)
Section Nine.
  Variables (a b d e j : Z).

  Lemma nine_g : forall c f c' f' h G, tri b e h = true ->
    NoDup G -> (forall g, tri a d g = true -> tri h j g = true -> In g G) -> 0 <= a -> 0 <= j ->
    sums (fun g => wgt a d h j g * (w9_sum a b c d e f g h j * w9_sum a b c' d e f' g h j))%Qc G
    = sums (fun x => if tri a j x && tri b f x && tri d h x && tri b f' x
                     then QcZ (x + 1) * (delta2 a j x * delta2 d h x) * (delta2 b f x * delta2 b f' x)
                          * (w6_sum a b c f j x * w6_sum a b c' f' j x) * (w6_sum d f e b h x * w6_sum d f' e b h x)
                     else 0)%Qc (F_range a j).
  Proof.
    intros c f c' f' h G Th ND HG Ha Hj.
    set (V := fun c f x => if tri a j x && tri b f x && tri d h x
      then (QcZ (x + 1) * (delta2 a j x * delta2 b f x * delta2 d h x) * (w6_sum a b c f j x * w6_sum d f e b h x))%Qc else 0%Qc).
    assert (P : forall c f g, w9_sum a b c d e f g h j = sums (fun x => V c f x * w6_sum a d g h j x)%Qc (F_range a j)).
    { intros c0 f0 g. unfold w9_sum. apply sums_ext. intros x _. unfold w9_part, V. destruct (tri a j x && tri b f0 x && tri d h x); ring. }
    rewrite (sums_ext _ (fun g => wgt a d h j g * (sums (fun x => V c f x * w6_sum a d g h j x) (F_range a j) * sums (fun x => V c' f' x * w6_sum a d g h j x) (F_range a j)))%Qc)
      by (intros g _; now rewrite !P).
    rewrite (square_orth G (F_range a j) (wgt a d h j) (fun g x => w6_sum a d g h j x) (V c f) (fun x => / wgt a j h d x)%Qc (fun x => tri a j x && tri d h x)).
    - apply sums_ext. intros x _. unfold V, wgt. rewrite (tri_12 h d x), (delta2_12 h d x).
      destruct (tri a j x) eqn:T1; cbn [andb]; [|ring]. destruct (tri d h x) eqn:T2; rewrite ?andb_true_r, ?andb_false_r; cbn [andb]; [|ring].
      destruct (tri b f x) eqn:T3; cbn [andb]; [|ring]. destruct (tri b f' x) eqn:T4; cbn [andb]; [|ring].
      field. repeat split; try apply delta2_nz. apply QcZ_nz. apply tri_nn in T1. lia.
    - apply F_range_nodup.
    - intros x Hx. unfold V. destruct (tri a j x); cbn [andb] in *; auto. destruct (tri b f x); cbn [andb]; auto. now rewrite Hx.
    - intros x y Hx Hy. apply andb_true_iff in Hx, Hy. destruct Hx as [X1 X2]. destruct Hy as [Y1 Y2].
      apply w6_orth; auto; now rewrite tri_12.
    - intros x Hx. unfold V. destruct (tri a j x); cbn [andb] in *; auto. destruct (tri b f' x); cbn [andb]; auto. now rewrite Hx.
  Qed.

  (** Orthogonality of the 9j symbols. *)
  Lemma nine_orth : forall c f c' f' G H, tri a b c = true -> tri d e f = true -> tri c f j = true ->
    tri a b c' = true -> tri d e f' = true -> tri c' f' j = true ->
    NoDup G -> (forall g, tri a d g = true -> In g G) -> NoDup H -> (forall h, tri b e h = true -> In h H) ->
    sums (fun h => if tri b e h then QcZ (h + 1) * delta2 b e h * sums (fun g => wgt a d h j g * (w9_sum a b c d e f g h j * w9_sum a b c' d e f' g h j)) G else 0)%Qc H
    = if (c =? c') && (f =? f') then (/ (QcZ (c + 1) * QcZ (f + 1) * (delta2 a b c * delta2 d e f * delta2 c f j)))%Qc else 0%Qc.
  Proof.
    intros c f c' f' G H T1 T2 T3 T1' T2' T3' NDG HG NDH HH.
    assert (Ha : 0 <= a /\ 0 <= b) by (apply tri_nn in T1; tauto). assert (Hj : 0 <= j) by (apply tri_nn in T3; tauto).
    set (B := fun x => if tri a j x && tri b f x && tri b f' x
      then (QcZ (x + 1) * delta2 a j x * (delta2 b f x * delta2 b f' x) * (w6_sum a b c f j x * w6_sum a b c' f' j x))%Qc else 0%Qc).
    transitivity (sums (fun h => sums (fun x => B x * (wgt d x b e h * (w6_sum d x h b e f * w6_sum d x h b e f')))%Qc (F_range a j)) H).
    { apply sums_ext. intros h _. destruct (tri b e h) eqn:Th.
      - rewrite nine_g; auto; [|tauto]. rewrite <- sums_scale. apply sums_ext. intros x _. unfold B, wgt. rewrite Th, (tri_23 d h x), (delta2_23 d h x).
        rewrite !(w6_sum_flip d _ e b h x), !(w6_sum_cols' d h x b _ e).
        destruct (tri a j x); cbn [andb]; [|ring]. destruct (tri b f x); cbn [andb]; [|ring]. destruct (tri d x h); cbn [andb]; [|destruct (tri b f' x); ring].
        destruct (tri b f' x); ring.
      - symmetry. apply sums_0. intros x _. unfold wgt. rewrite Th, andb_false_r. ring. }
    rewrite sums_swap.
    transitivity (sums (fun x => B x * (if f =? f' then / wgt d e b x f else 0))%Qc (F_range a j)).
    { apply sums_ext. intros x _. rewrite sums_scale. unfold B.
      destruct (tri a j x) eqn:U1; cbn [andb]; [|ring]. destruct (tri b f x) eqn:U2; cbn [andb]; [|ring]. destruct (tri b f' x) eqn:U3; cbn [andb]; [|ring].
      rewrite w6_orth; auto; now rewrite tri_23. }
    destruct (Z.eqb_spec f f') as [E|E]; [|rewrite andb_false_r; apply sums_0; intros; ring]. subst f'. rewrite andb_true_r.
    pose proof (w6_orth a j f b c c' (F_range a j) T1 ltac:(rewrite (tri_231 f j c), (tri_231 j c f); exact T3) T1' ltac:(rewrite (tri_231 f j c'), (tri_231 j c' f); exact T3') (F_range_nodup a j)) as O.
    assert (O' : forall x, tri a j x = true -> tri f b x = true -> In x (F_range a j)) by (intros x U _; apply F_range_In; tauto).
    specialize (O O'). clear O'.
    rewrite (sums_ext _ (fun x => / (QcZ (f + 1) * delta2 d e f) * (wgt a j f b x * (w6_sum a j x f b c * w6_sum a j x f b c')))%Qc).
    - rewrite sums_scale, O. destruct (c =? c'); [|ring]. unfold wgt. rewrite T1, (tri_231 f j c), (tri_231 j c f), T3. cbn [andb].
      rewrite (delta2_231 f j c), (delta2_231 j c f). field.
      repeat split; try apply delta2_nz; apply QcZ_nz; apply tri_nn in T1; apply tri_nn in T2; lia.
    - intros x _. unfold B, wgt. rewrite (tri_12 f b x), (delta2_12 f b x), T2, (tri_23 b x f), (delta2_23 b x f).
      rewrite !(w6_sum_flip a b _ f j x).
      destruct (tri a j x); cbn [andb]; [|ring]. destruct (tri b f x); cbn [andb]; [|ring].
      field. repeat split; try apply delta2_nz; apply QcZ_nz; apply tri_nn in T2; lia.
  Qed.
End Nine.

(** The squares add up to 1/((2c+1)(2f+1)). *)
Theorem w9_norm : forall a b c d e f j G H, tri a b c = true -> tri d e f = true -> tri c f j = true ->
  NoDup G -> (forall g, tri a d g = true -> In g G) -> NoDup H -> (forall h, tri b e h = true -> In h H) ->
  sums (fun g => sums (fun h => QcZ ((g + 1) * (h + 1)) * w9sq a b c d e f g h j)%Qc H) G = frac 1 ((c + 1) * (f + 1)).
Proof.
  intros a b c d e f j G H T1 T2 T3 NDG HG NDH HH.
  pose proof (nine_orth a b d e j c f c f G H T1 T2 T3 T1 T2 T3 NDG HG NDH HH) as E. rewrite !Z.eqb_refl in E. cbn [andb] in E.
  rewrite sums_swap.
  rewrite (sums_ext _ (fun h => (delta2 a b c * delta2 d e f * delta2 c f j) *
    (if tri b e h then QcZ (h + 1) * delta2 b e h * sums (fun g => wgt a d h j g * (w9_sum a b c d e f g h j * w9_sum a b c d e f g h j)) G else 0))%Qc).
  - rewrite sums_scale, E. unfold frac. rewrite QcZ_1, QcZ_mul. field.
    repeat split; try apply delta2_nz; apply QcZ_nz; apply tri_nn in T1; apply tri_nn in T2; lia.
  - intros h _. destruct (tri b e h) eqn:Th.
    + rewrite <- !sums_scale. apply sums_ext. intros g _. unfold w9sq, w9_tri, wgt, w9_delta. rewrite T1, T2, T3, Th.
      rewrite (tri_12 g h j), (tri_23 h g j), (delta2_12 g h j), (delta2_23 h g j). rewrite QcZ_mul.
      destruct (tri h j g); cbn [andb]; rewrite ?andb_false_r; cbn [andb]; [|ring]. destruct (tri a d g); cbn [andb]; ring.
    + rewrite sums_0; [ring|]. intros g _. unfold w9sq, w9_tri. rewrite Th. rewrite !andb_false_r. cbn [andb]. ring.
Qed.
