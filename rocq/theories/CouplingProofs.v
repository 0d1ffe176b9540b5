(** The basis conversions are orthogonal. *)
From Coq Require Import List Bool ZArith QArith Qcanon Reals Qreals Lia Lra String.
From Verif Require Import Base PyStr Util Parse Term Num Wigner WignerProofs WignerOne WignerSym WignerZero Hyperfine HyperfineProofs Rules RulesProofs StrengthSums StrengthPos
  WignerOrth WignerNorm Strengths StrengthProofs Coupling WignerNine.
Import ListNotations.
Local Open Scope Z_scope.

(** ** Sums of real numbers *)

Definition Rsums {A} (f : A -> R) (l : list A) : R := fold_right (fun x acc => (f x + acc)%R) 0%R l.
Lemma Rsums_cons {A} : forall (f : A -> R) x l, Rsums f (x :: l) = (f x + Rsums f l)%R.
Proof. reflexivity. Qed.
Lemma Rsums_ext {A} : forall (f g : A -> R) l, (forall x, In x l -> f x = g x) -> Rsums f l = Rsums g l.
Proof. induction l as [|x l IH]; intros E; auto. rewrite !Rsums_cons, IH, E; auto; [now left|intros; apply E; now right]. Qed.
Lemma Rsums_0 {A} : forall (f : A -> R) l, (forall x, In x l -> f x = 0%R) -> Rsums f l = 0%R.
Proof. induction l as [|x l IH]; intros E; auto. rewrite Rsums_cons, IH, E; [ring|now left|intros; apply E; now right]. Qed.
Lemma Rsums_scale {A} : forall c (f : A -> R) l, Rsums (fun x => c * f x)%R l = (c * Rsums f l)%R.
Proof. induction l as [|x l IH]; [cbn; ring|]. rewrite !Rsums_cons, IH. ring. Qed.
Lemma Rsums_app {A} : forall (f : A -> R) u v, Rsums f (u ++ v) = (Rsums f u + Rsums f v)%R.
Proof. induction u as [|x u IH]; intros v; cbn [app]; [cbn; ring|]. rewrite !Rsums_cons, IH. ring. Qed.
Lemma Rsums_map {A B} : forall (g : A -> B) (f : B -> R) l, Rsums f (map g l) = Rsums (fun x => f (g x)) l.
Proof. induction l as [|x l IH]; auto. cbn [map]. now rewrite !Rsums_cons, IH. Qed.
Lemma Rsums_prod {A B} : forall (f : A * B -> R) u v, Rsums f (list_prod u v) = Rsums (fun x => Rsums (fun y => f (x, y)) v) u.
Proof. induction u as [|x u IH]; intros v; auto. cbn [list_prod]. now rewrite Rsums_app, Rsums_map, Rsums_cons, IH. Qed.
Lemma Rsums_swap {A B} : forall (f : A -> B -> R) u v, Rsums (fun x => Rsums (f x) v) u = Rsums (fun y => Rsums (fun x => f x y) u) v.
Proof.
  induction u as [|x u IH]; intros v; [cbn [Rsums fold_right]; rewrite Rsums_0; auto|].
  rewrite Rsums_cons, IH. clear IH. induction v as [|y v IH]; [cbn; ring|].
  rewrite !(Rsums_cons _ y v), <- IH. rewrite (Rsums_cons (fun x0 => f x0 y)). ring.
Qed.
Lemma Rc_sums {A} : forall (f : A -> Qc) l, Rc (sums f l) = Rsums (fun x => Rc (f x)) l.
Proof. induction l as [|x l IH]; [apply Rc_0|]. now rewrite sums_cons, Rc_add, IH, Rsums_cons. Qed.

Lemma Rc_inv : forall a, a <> 0%Qc -> Rc (/ a)%Qc = (/ Rc a)%R.
Proof.
  intros a H. assert (E : (Rc (/ a)%Qc * Rc a = 1)%R).
  { rewrite <- Rc_mul, Qcmult_inv_l by assumption. change 1%Qc with (QcZ 1). apply Rc_Z. }
  assert (Rc a <> 0%R) by (intros Z; rewrite Z in E; lra). field_simplify_eq; auto.
Qed.
Lemma Rc_pos : forall a, (0 <= a)%Qc -> a <> 0%Qc -> (0 < Rc a)%R.
Proof.
  intros a H N. pose proof (Rc_nonneg a H) as P. destruct P as [P|P]; auto. exfalso. apply N. apply Rc_inj. now rewrite Rc_0.
Qed.
Lemma dpos : forall a b c, (0 < Rc (delta2 a b c))%R.
Proof. intros. apply Rc_pos; [apply delta2_nonneg|apply delta2_nz]. Qed.

(** [sqrt (x u) sqrt (x v) = x sqrt u sqrt v] *)
Lemma sqrt_common : forall x u v, (0 <= x)%R -> (0 <= u)%R -> (0 <= v)%R -> (sqrt (x * u) * sqrt (x * v) = x * (sqrt u * sqrt v))%R.
Proof.
  intros x u v X U V. rewrite !sqrt_mult by assumption. pose proof (sqrt_sqrt x X) as E.
  transitivity ((sqrt x * sqrt x) * (sqrt u * sqrt v))%R; [ring|]. now rewrite E.
Qed.

(** ** Orthogonality of the 6j symbols as real numbers *)

Lemma w6R_orth : forall a b c d y z G, tri a d y = true -> tri c b y = true -> tri a d z = true -> tri c b z = true ->
  NoDup G -> (forall x, tri a b x = true -> tri c d x = true -> In x G) ->
  Rsums (fun x => IZR (x + 1) * (w6R a b x c d y * w6R a b x c d z))%R G = if y =? z then (/ IZR (y + 1))%R else 0%R.
Proof.
  intros a b c d y z G Ty Uy Tz Uz ND HG. pose proof (w6_orth a b c d y z G Ty Uy Tz Uz ND HG) as E.
  set (cy := (Rc (delta2 a d y) * Rc (delta2 c b y))%R). set (cz := (Rc (delta2 a d z) * Rc (delta2 c b z))%R).
  assert (Py : (0 < cy)%R) by (apply Rmult_lt_0_compat; apply dpos). assert (Pz : (0 < cz)%R) by (apply Rmult_lt_0_compat; apply dpos).
  rewrite (Rsums_ext _ (fun x => (sqrt cy * sqrt cz) * Rc (wgt a b c d x * (w6_sum a b x c d y * w6_sum a b x c d z)))%R).
  - rewrite Rsums_scale, <- Rc_sums, E. destruct (Z.eqb_spec y z) as [F|F]; [|rewrite Rc_0; ring].
    subst z. unfold cz. fold cy. rewrite sqrt_sqrt by lra. unfold wgt. rewrite Ty, Uy. cbn [andb].
    apply tri_nn in Ty. assert (N : QcZ (y + 1) <> 0%Qc) by (apply QcZ_nz; lia).
    rewrite Rc_inv by (apply Qcmult_nz; [apply Qcmult_nz; [exact N|apply delta2_nz]|apply delta2_nz]). rewrite !Rc_mul, Rc_Z. unfold cy.
    pose proof (dpos a d y). pose proof (dpos c b y). assert (IZR (y + 1) <> 0%R) by (apply not_0_IZR; lia).
    field. repeat split; lra.
  - intros x _. unfold w6R, w6_tri, wgt. rewrite Ty, Uy, Tz, Uz. rewrite !andb_true_r.
    destruct (tri a b x); cbn [andb]; [|rewrite !Rc_mul, Rc_0; ring]. destruct (tri c d x); [|rewrite !Rc_mul, Rc_0; ring].
    rewrite !Rc_mul, Rc_Z.
    replace (Rc (delta2 a b x) * Rc (delta2 a d y) * Rc (delta2 c b y) * Rc (delta2 c d x))%R with ((Rc (delta2 a b x) * Rc (delta2 c d x)) * cy)%R by (unfold cy; ring).
    replace (Rc (delta2 a b x) * Rc (delta2 a d z) * Rc (delta2 c b z) * Rc (delta2 c d x))%R with ((Rc (delta2 a b x) * Rc (delta2 c d x)) * cz)%R by (unfold cz; ring).
    set (X := (Rc (delta2 a b x) * Rc (delta2 c d x))%R).
    assert (PX : (0 <= X)%R) by (apply Rlt_le, Rmult_lt_0_compat; apply dpos).
    pose proof (sqrt_common X cy cz PX (Rlt_le _ _ Py) (Rlt_le _ _ Pz)) as S.
    transitivity (IZR (x + 1) * ((sqrt (X * cy) * sqrt (X * cz)) * (Rc (w6_sum a b x c d y) * Rc (w6_sum a b x c d z))))%R; [ring|].
    rewrite S. unfold X. ring.
Qed.

Lemma w6R_flip : forall a b c d e f, w6R a b c d e f = w6R a e f d b c.
Proof.
  intros. unfold w6R. replace (w6_tri a e f d b c) with (w6_tri a b c d e f).
  2: { unfold w6_tri. destruct (tri a b c), (tri a e f), (tri d b f), (tri d e c); reflexivity. }
  destruct (w6_tri a b c d e f); auto. rewrite (w6_sum_flip a b). f_equal. f_equal. f_equal. ring.
Qed.
Lemma w6R_zero : forall a b c d e f, w6_tri a b c d e f = false -> w6R a b c d e f = 0%R.
Proof. intros a b c d e f H. unfold w6R. now rewrite H. Qed.

(** ** Amplitude vectors *)

(** The amplitudes, if none is nan. *)
Fixpoint amps (sets : list (Z * Z * fl)) : option (list R) :=
  match sets with
  | [] => Some []
  | (_, _, Some x) :: rest => match amps rest with Some xs => Some (x :: xs) | None => None end
  | (_, _, None) :: _ => None
  end.
Fixpoint dot (u v : list R) : R := match u, v with x :: u', y :: v' => (x * y + dot u' v')%R | _, _ => 0%R end.

Lemma amps_map {A} : forall (k : A -> Z * Z) (f : A -> fl) (g : A -> R) l, (forall p, In p l -> f p = Some (g p)) ->
  amps (map (fun p => (k p, f p)) l) = Some (map g l).
Proof.
  induction l as [|p l IH]; intros H; [reflexivity|]. cbn [map amps]. rewrite (H p) by now left. destruct (k p).
  rewrite IH by (intros q I; apply H; now right). reflexivity.
Qed.
Lemma dot_map {A} : forall (f g : A -> R) l, dot (map f l) (map g l) = Rsums (fun p => f p * g p)%R l.
Proof. induction l as [|p l IH]; [reflexivity|]. cbn [map dot]. now rewrite IH. Qed.

Definition JJ_amp (j jc jo lc sc lo so : Z) (p : Z * Z) : R :=
  let '(l, s) := p in (w9R lc sc jc lo so jo l s j * sqrt (IZR ((jc + 1) * (jo + 1) * (l + 1) * (s + 1))))%R.
Definition JK_amp (j jc k lc sc lo so : Z) (p : Z * Z) : R :=
  let '(l, s) := p in
  (Rc (sgn ((- lc - lo - 2 * sc - so - k - l - j) / 2)) *
   (sqrt (IZR ((jc + 1) * (l + 1) * (k + 1) * (s + 1))) * w6R sc lc jc lo k l * w6R l sc k so j s))%R.
Definition LK_amp (j k sc so : Z) (p : Z * Z) : R := let '(l, s) := p in (sqrt (IZR ((k + 1) * (s + 1))) * w6R l sc k so j s)%R.

Lemma JJ_amps : forall j jc jo lc sc lo so, amps (JJ_to_LS j jc jo lc sc lo so) = Some (map (JJ_amp j jc jo lc sc lo so) (grid (F_range lc lo) (F_range sc so))).
Proof.
  intros. unfold JJ_to_LS.
  rewrite (map_ext _ (fun p => (p, Some (JJ_amp j jc jo lc sc lo so p)))) by (intros [l s]; reflexivity).
  now apply (amps_map (fun p => p)).
Qed.
Lemma LK_amps : forall j l k sc so, amps (LK_to_LS j l k sc so) = Some (map (LK_amp j k sc so) (grid [l] (F_range sc so))).
Proof.
  intros. unfold LK_to_LS.
  rewrite (map_ext _ (fun p => (p, Some (LK_amp j k sc so p)))) by (intros [l' s]; reflexivity).
  now apply (amps_map (fun p => p)).
Qed.
Lemma even_sum : forall a b c, tri a b c = true -> exists n, a + b + c = 2 * n.
Proof. intros a b c T. apply tri_elim in T as [x [y [z T]]]. exists (x + y + z). lia. Qed.
Lemma JK_amps : forall j jc k lc sc lo so, 0 <= lc -> 0 <= lo -> tri k so j = true ->
  amps (JK_to_LS j jc k lc sc lo so) = Some (map (JK_amp j jc k lc sc lo so) (grid (F_range lc lo) (F_range sc so))).
Proof.
  intros j jc k lc sc lo so Hlc Hlo T. unfold JK_to_LS.
  erewrite map_ext; [apply (amps_map (fun p => p) (fun p => let '(l, s) := p in fl_scale (minus_one_pow (- lc - lo - 2 * sc - so - k - l - j))
                  (sqrt (IZR ((jc + 1) * (l + 1) * (k + 1) * (s + 1))) * w6R sc lc jc lo k l * w6R l sc k so j s)%R))|intros [l s]; reflexivity].
  intros [l s] I. apply in_prod_iff in I. destruct I as [I _]. apply F_range_In in I; auto.
  apply even_sum in I as [n I]. apply even_sum in T as [m T].
  unfold minus_one_pow. replace (Z.even (- lc - lo - 2 * sc - so - k - l - j)) with true; [reflexivity|].
  symmetry. apply Z.even_spec. exists (- n - m - sc). lia.
Qed.

Lemma sqrt_two : forall x u v, 0 <= x -> 0 <= u -> 0 <= v -> (sqrt (IZR (u * x)) * sqrt (IZR (v * x)) = sqrt (IZR u) * sqrt (IZR v) * IZR x)%R.
Proof.
  intros x u v X U V. rewrite !mult_IZR. rewrite !(Rmult_comm _ (IZR x)). rewrite sqrt_common by now apply IZR_le. ring.
Qed.

(** LK: the states with different K (and the same L, J and spins). *)
Lemma LK_dot : forall j l k k' sc so, tri l sc k = true -> tri k so j = true -> tri l sc k' = true -> tri k' so j = true ->
  dot (map (LK_amp j k sc so) (grid [l] (F_range sc so))) (map (LK_amp j k' sc so) (grid [l] (F_range sc so))) = if k =? k' then 1%R else 0%R.
Proof.
  intros j l k k' sc so T1 T2 T1' T2'. rewrite dot_map. unfold grid. rewrite Rsums_prod. cbn [Rsums fold_right]. rewrite Rplus_0_r.
  pose proof (tri_nn _ _ _ T1) as N1. pose proof (tri_nn _ _ _ T2) as N2. pose proof (tri_nn _ _ _ T1') as N1'.
  rewrite (Rsums_ext _ (fun s => (sqrt (IZR (k + 1)) * sqrt (IZR (k' + 1))) * (IZR (s + 1) * (w6R l j s so sc k * w6R l j s so sc k')))%R).
  - rewrite Rsums_scale, w6R_orth.
    + destruct (Z.eqb_spec k k') as [E|E]; [subst k'|ring]. rewrite sqrt_sqrt by (apply IZR_le; lia).
      field. apply not_0_IZR. lia.
    + exact T1.
    + rewrite (tri_231 so j k), (tri_231 j k so). exact T2.
    + exact T1'.
    + rewrite (tri_231 so j k'), (tri_231 j k' so). exact T2'.
    + apply F_range_nodup.
    + intros s _ U. apply F_range_In; try tauto. now rewrite tri_12.
  - intros s I. unfold LK_amp. apply F_range_In in I; try tauto. apply tri_nn in I.
    rewrite !(w6R_flip l sc _ so j s).
    transitivity ((sqrt (IZR ((k + 1) * (s + 1))) * sqrt (IZR ((k' + 1) * (s + 1)))) * (w6R l j s so sc k * w6R l j s so sc k'))%R; [ring|].
    rewrite sqrt_two by lia. ring.
Qed.

(** JK: the states with different Jc or K. *)
Lemma JK_dot : forall j jc jc' k k' lc sc lo so,
  tri lc sc jc = true -> tri jc lo k = true -> tri k so j = true -> tri lc sc jc' = true -> tri jc' lo k' = true -> tri k' so j = true ->
  dot (map (JK_amp j jc k lc sc lo so) (grid (F_range lc lo) (F_range sc so))) (map (JK_amp j jc' k' lc sc lo so) (grid (F_range lc lo) (F_range sc so)))
  = if (jc =? jc') && (k =? k') then 1%R else 0%R.
Proof.
  intros j jc jc' k k' lc sc lo so T1 T2 T3 T1' T2' T3'. rewrite dot_map. unfold grid. rewrite Rsums_prod.
  pose proof (tri_nn _ _ _ T1) as N1. pose proof (tri_nn _ _ _ T2) as N2. pose proof (tri_nn _ _ _ T3) as N3. pose proof (tri_nn _ _ _ T1') as N1'. pose proof (tri_nn _ _ _ T2') as N2'.
  rewrite (Rsums_ext _ (fun l => if k =? k' then (sqrt (IZR (jc + 1)) * sqrt (IZR (jc' + 1))) * (IZR (l + 1) * (w6R sc k l lo lc jc * w6R sc k l lo lc jc')) else 0)%R).
  - destruct (Z.eqb_spec k k') as [E|E]; [subst k'; rewrite andb_true_r|rewrite andb_false_r; apply Rsums_0; auto].
    rewrite Rsums_scale, w6R_orth.
    + destruct (Z.eqb_spec jc jc') as [E|E]; [subst jc'|ring]. rewrite sqrt_sqrt by (apply IZR_le; lia). field. apply not_0_IZR. lia.
    + now rewrite tri_12.
    + rewrite (tri_231 lo k jc), (tri_231 k jc lo). exact T2.
    + now rewrite tri_12.
    + rewrite (tri_231 lo k jc'), (tri_231 k jc' lo). exact T2'.
    + apply F_range_nodup.
    + intros l _ U. apply F_range_In; try tauto. now rewrite tri_12.
  - intros l I. apply F_range_In in I; try tauto. pose proof (tri_nn _ _ _ I) as NI.
    rewrite !(w6R_flip sc k l lo lc).
    destruct (tri sc k l) eqn:U.
    2:{ rewrite Rsums_0.
        - destruct (k =? k'); [|reflexivity]. rewrite (w6R_zero sc lc jc lo k l); [ring|]. unfold w6_tri. rewrite U. now rewrite andb_false_r.
        - intros s _. unfold JK_amp. rewrite (w6R_zero sc lc jc lo k l); [ring|]. unfold w6_tri. rewrite U. now rewrite andb_false_r. }
    destruct (tri sc k' l) eqn:U'.
    2:{ rewrite Rsums_0.
        - destruct (Z.eqb_spec k k') as [E|E]; [subst k'; congruence|reflexivity].
        - intros s _. unfold JK_amp. rewrite (w6R_zero sc lc jc' lo k' l); [ring|]. unfold w6_tri. rewrite U'. now rewrite andb_false_r. }
    set (g := Rc (sgn ((- lc - lo - 2 * sc - so - k - l - j) / 2))). set (g' := Rc (sgn ((- lc - lo - 2 * sc - so - k' - l - j) / 2))).
    rewrite (Rsums_ext _ (fun s => (g * g' * (sqrt (IZR ((jc + 1) * (k + 1))) * sqrt (IZR ((jc' + 1) * (k' + 1)))) * IZR (l + 1) * (w6R sc lc jc lo k l * w6R sc lc jc' lo k' l))
                                   * (IZR (s + 1) * (w6R l j s so sc k * w6R l j s so sc k')))%R).
    + rewrite Rsums_scale, w6R_orth.
      * destruct (Z.eqb_spec k k') as [E|E]; [subst k'|ring]. replace g' with g by reflexivity. unfold g. rewrite Rc_sgn2.
        rewrite sqrt_two by lia. field. apply not_0_IZR. lia.
      * rewrite (tri_231 l sc k). exact U.
      * rewrite (tri_231 so j k), (tri_231 j k so). exact T3.
      * rewrite (tri_231 l sc k'). exact U'.
      * rewrite (tri_231 so j k'), (tri_231 j k' so). exact T3'.
      * apply F_range_nodup.
      * intros s _ V. apply F_range_In; try tauto. now rewrite tri_12.
    + intros s J. apply F_range_In in J; try tauto. apply tri_nn in J. unfold JK_amp. fold g. fold g'. rewrite !(w6R_flip l sc _ so j s).
      transitivity (g * g' * (sqrt (IZR ((jc + 1) * (l + 1) * (k + 1) * (s + 1))) * sqrt (IZR ((jc' + 1) * (l + 1) * (k' + 1) * (s + 1))))
                    * (w6R sc lc jc lo k l * w6R sc lc jc' lo k' l) * (w6R l j s so sc k * w6R l j s so sc k'))%R; [ring|].
      replace ((jc + 1) * (l + 1) * (k + 1) * (s + 1)) with (((jc + 1) * (k + 1)) * ((l + 1) * (s + 1))) by ring.
      replace ((jc' + 1) * (l + 1) * (k' + 1) * (s + 1)) with (((jc' + 1) * (k' + 1)) * ((l + 1) * (s + 1))) by ring.
      rewrite sqrt_two by nia. rewrite (mult_IZR (l + 1)). ring.
Qed.

(** ** Orthogonality of the 9j symbols as real numbers *)

Lemma sgn_add : forall a b, sgn (a + b) = (sgn a * sgn b)%Qc.
Proof. intros a b. replace (a + b) with (a - (0 - b)) by ring. rewrite sgn_sub, sgn_sub. change (sgn 0) with 1%Qc. ring. Qed.

Lemma w9R_orth : forall a b d e j c f c' f' G H, tri a b c = true -> tri d e f = true -> tri c f j = true ->
  tri a b c' = true -> tri d e f' = true -> tri c' f' j = true ->
  NoDup G -> (forall g, tri a d g = true -> In g G) -> NoDup H -> (forall h, tri b e h = true -> In h H) ->
  Rsums (fun g => Rsums (fun h => IZR (g + 1) * IZR (h + 1) * (w9R a b c d e f g h j * w9R a b c' d e f' g h j)) H)%R G
  = if (c =? c') && (f =? f') then (/ (IZR (c + 1) * IZR (f + 1)))%R else 0%R.
Proof.
  intros a b d e j c f c' f' G H T1 T2 T3 T1' T2' T3' NDG HG NDH HH.
  pose proof (nine_orth a b d e j c f c' f' G H T1 T2 T3 T1' T2' T3' NDG HG NDH HH) as E.
  set (cy := (Rc (delta2 a b c) * Rc (delta2 d e f) * Rc (delta2 c f j))%R).
  set (cz := (Rc (delta2 a b c') * Rc (delta2 d e f') * Rc (delta2 c' f' j))%R).
  assert (Py : (0 < cy)%R) by (apply Rmult_lt_0_compat; [apply Rmult_lt_0_compat|]; apply dpos). assert (Pz : (0 < cz)%R) by (apply Rmult_lt_0_compat; [apply Rmult_lt_0_compat|]; apply dpos).
  rewrite Rsums_swap.
  rewrite (Rsums_ext _ (fun h => (Rc (sgn (f + f')) * (sqrt cy * sqrt cz)) * Rc (if tri b e h then QcZ (h + 1) * delta2 b e h * sums (fun g => wgt a d h j g * (w9_sum a b c d e f g h j * w9_sum a b c' d e f' g h j)) G else 0)%Qc)%R).
  - rewrite Rsums_scale, <- Rc_sums, E. destruct (Z.eqb_spec c c') as [F|F]; [|cbn [andb]; rewrite Rc_0; ring].
    destruct (Z.eqb_spec f f') as [F'|F']; [|cbn [andb]; rewrite Rc_0; ring]. cbn [andb]. subst c' f'. replace cz with cy by reflexivity.
    rewrite sqrt_sqrt by lra. apply tri_nn in T1. apply tri_nn in T2.
    assert (N1 : QcZ (c + 1) <> 0%Qc) by (apply QcZ_nz; lia). assert (N2 : QcZ (f + 1) <> 0%Qc) by (apply QcZ_nz; lia).
    rewrite Rc_inv by (apply Qcmult_nz; [apply Qcmult_nz; assumption|apply Qcmult_nz; [apply Qcmult_nz|]; apply delta2_nz]).
    rewrite sgn_add. rewrite !Rc_mul, Rc_sgn2, !Rc_Z. unfold cy. pose proof (dpos a b c). pose proof (dpos d e f). pose proof (dpos c f j).
    assert (IZR (c + 1) <> 0%R) by (apply not_0_IZR; lia). assert (IZR (f + 1) <> 0%R) by (apply not_0_IZR; lia).
    field. repeat split; try assumption; lra.
  - intros h _. destruct (tri b e h) eqn:Th.
    + rewrite !Rc_mul, Rc_Z, Rc_sums.
      transitivity ((Rc (sgn (f + f')) * (sqrt cy * sqrt cz) * (IZR (h + 1) * Rc (delta2 b e h))) *
        Rsums (fun g => Rc (wgt a d h j g * (w9_sum a b c d e f g h j * w9_sum a b c' d e f' g h j))) G)%R; [|ring].
      rewrite <- Rsums_scale. apply Rsums_ext. intros g _. unfold w9R, w9_tri, wgt. rewrite T1, T2, T3, T1', T2', T3', Th.
      rewrite (tri_12 g h j), (tri_23 h g j).
      destruct (tri h j g); cbn [andb]; rewrite ?andb_false_r; cbn [andb]; [|rewrite !Rc_mul, Rc_0; ring].
      destruct (tri a d g); cbn [andb]; [|rewrite !Rc_mul, Rc_0; ring].
      unfold w9_delta. rewrite (delta2_12 g h j), (delta2_23 h g j). rewrite !Rc_mul, Rc_Z.
      set (X := (Rc (delta2 h j g) * Rc (delta2 a d g) * Rc (delta2 b e h))%R).
      assert (PX : (0 <= X)%R) by (apply Rlt_le; apply Rmult_lt_0_compat; [apply Rmult_lt_0_compat|]; apply dpos).
      replace (Rc (delta2 a b c) * Rc (delta2 d e f) * Rc (delta2 h j g) * Rc (delta2 a d g) * Rc (delta2 b e h) * Rc (delta2 c f j))%R with (X * cy)%R by (unfold X, cy; ring).
      replace (Rc (delta2 a b c') * Rc (delta2 d e f') * Rc (delta2 h j g) * Rc (delta2 a d g) * Rc (delta2 b e h) * Rc (delta2 c' f' j))%R with (X * cz)%R by (unfold X, cz; ring).
      pose proof (sqrt_common X cy cz PX (Rlt_le _ _ Py) (Rlt_le _ _ Pz)) as S.
      assert (SG : (Rc (sgn (a + b + d + f + h + j)) * Rc (sgn (a + b + d + f' + h + j)) = Rc (sgn (f + f')))%R).
      { rewrite <- Rc_mul, <- sgn_add. replace (a + b + d + f + h + j + (a + b + d + f' + h + j)) with ((f + f') + 2 * (a + b + d + h + j)) by ring.
        rewrite sgn_add. replace (2 * (a + b + d + h + j)) with ((a + b + d + h + j) + (a + b + d + h + j)) by ring. rewrite (sgn_add (a + b + d + h + j)).
        rewrite !Rc_mul, Rc_sgn2. ring. }
      transitivity (IZR (g + 1) * IZR (h + 1) * ((Rc (sgn (a + b + d + f + h + j)) * Rc (sgn (a + b + d + f' + h + j))) * (sqrt (X * cy) * sqrt (X * cz)) * (Rc (w9_sum a b c d e f g h j) * Rc (w9_sum a b c' d e f' g h j))))%R; [ring|].
      rewrite S, SG. unfold X. ring.
    + rewrite Rc_0, Rmult_0_r. apply Rsums_0. intros g _. unfold w9R, w9_tri. rewrite Th. rewrite !andb_false_r. cbn [andb]. ring.
Qed.

(** JJ: the states with different Jc or Jo. *)
Lemma JJ_dot : forall j jc jc' jo jo' lc sc lo so,
  tri lc sc jc = true -> tri lo so jo = true -> tri jc jo j = true -> tri lc sc jc' = true -> tri lo so jo' = true -> tri jc' jo' j = true ->
  dot (map (JJ_amp j jc jo lc sc lo so) (grid (F_range lc lo) (F_range sc so))) (map (JJ_amp j jc' jo' lc sc lo so) (grid (F_range lc lo) (F_range sc so)))
  = if (jc =? jc') && (jo =? jo') then 1%R else 0%R.
Proof.
  intros j jc jc' jo jo' lc sc lo so T1 T2 T3 T1' T2' T3'. rewrite dot_map. unfold grid. rewrite Rsums_prod.
  pose proof (tri_nn _ _ _ T1) as N1. pose proof (tri_nn _ _ _ T2) as N2. pose proof (tri_nn _ _ _ T1') as N1'. pose proof (tri_nn _ _ _ T2') as N2'.
  set (K := (sqrt (IZR ((jc + 1) * (jo + 1))) * sqrt (IZR ((jc' + 1) * (jo' + 1))))%R).
  transitivity (K * Rsums (fun g => Rsums (fun h => IZR (g + 1) * IZR (h + 1) * (w9R lc sc jc lo so jo g h j * w9R lc sc jc' lo so jo' g h j)) (F_range sc so)) (F_range lc lo))%R.
  - rewrite <- Rsums_scale. apply Rsums_ext. intros l I. rewrite <- Rsums_scale. apply Rsums_ext. intros s J.
    apply F_range_In in I; try tauto. apply tri_nn in I. apply F_range_In in J; try tauto. apply tri_nn in J. unfold JJ_amp.
    transitivity ((sqrt (IZR ((jc + 1) * (jo + 1) * (l + 1) * (s + 1))) * sqrt (IZR ((jc' + 1) * (jo' + 1) * (l + 1) * (s + 1)))) * (w9R lc sc jc lo so jo l s j * w9R lc sc jc' lo so jo' l s j))%R; [ring|].
    rewrite <- !(Z.mul_assoc _ (l + 1) (s + 1)). rewrite sqrt_two by nia. rewrite (mult_IZR (l + 1)). unfold K. ring.
  - rewrite w9R_orth; auto; try apply F_range_nodup.
    + destruct (Z.eqb_spec jc jc') as [E|E]; [|cbn [andb]; ring]. destruct (Z.eqb_spec jo jo') as [E'|E']; [|cbn [andb]; ring]. cbn [andb]. subst jc' jo'.
      unfold K. rewrite sqrt_sqrt by (apply IZR_le; nia). rewrite mult_IZR. field. split; apply not_0_IZR; lia.
    + intros g Tg. now apply F_range_In.
    + intros h Th. now apply F_range_In.
Qed.
