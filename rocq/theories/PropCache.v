(** Property C135: basis conversions give the same answer at any time. *)
From Coq Require Import List Bool ZArith Reals Lia Lra String.
From Verif Require Import Base PyStr Util Parse Term Wigner WignerProofs Hyperfine HyperfineProofs RulesProofs Strengths Coupling CouplingProofs CouplingList CouplingTerms PropCoupling Cache.
Import ListNotations.
Local Open Scope Z_scope.

(** Every entry of the memo is an array, and different keys have different ones. *)
Record good (m : memo) : Prop := mk_good {
  gd_in : forall k a, find k (m_memo m) = Some a -> (a < List.length (m_arrays m))%nat;
  gd_inj : forall k k' a, find k (m_memo m) = Some a -> find k' (m_memo m) = Some a -> k = k'
}.
Lemma put_len {A} : forall n (v : A) l, List.length (put n v l) = List.length l.
Proof. induction n as [|n IH]; intros v [|x l]; cbn; auto. Qed.
Lemma put_other {A} : forall n n' (v d : A) l, n <> n' -> nth n' (put n v l) d = nth n' l d.
Proof.
  induction n as [|n IH]; intros [|n'] v d [|x l] H; cbn; auto; try congruence. all: apply IH; congruence.
Qed.
Lemma put_same {A} : forall n (v d : A) l, (n < List.length l)%nat -> nth n (put n v l) d = v.
Proof. induction n as [|n IH]; intros v d [|x l] H; cbn in *; auto; try lia. apply IH. lia. Qed.
Lemma good_empty : good empty.
Proof. constructor; cbn; discriminate. Qed.
Lemma good_call : forall k m, good m -> good (snd (call k m)).
Proof.
  intros k m [I J]. unfold call. destruct (find k (m_memo m)) as [a|] eqn:F; cbn [snd]; [now constructor|]. constructor; cbn [m_memo m_arrays find].
  - intros k' a. rewrite app_length. cbn. destruct (key_eq_dec k' k); [intros E; injection E as <-; lia|]. intros E. apply I in E. lia.
  - intros k1 k2 a. destruct (key_eq_dec k1 k), (key_eq_dec k2 k); try congruence.
    + intros E E2. injection E as <-. apply I in E2. lia.
    + intros E E2. injection E2 as <-. apply I in E. lia.
    + apply J.
Qed.
Lemma good_write : forall a v m, good m -> good (write a v m).
Proof.
  intros a v m [I J]. unfold write. destruct (Nat.eqb _ _); constructor; cbn [m_memo m_arrays]; auto. intros k b. rewrite put_len. apply I.
Qed.
Lemma readable_memo : forall rnd k m, snd (readable rnd k m) = snd (call k m).
Proof. intros. unfold readable. now destruct (call k m). Qed.
Lemma gJ_memo : forall j k m, snd (gJ j k m) = snd (call k m).
Proof. intros. unfold gJ. now destruct (call k m). Qed.
Lemma good_do : forall rnd o m, good m -> good (do rnd m o).
Proof.
  intros rnd [k|a v|k|j k] m H; cbn [do]; rewrite ?readable_memo, ?gJ_memo; auto using good_call, good_write.
Qed.
Lemma does_app : forall rnd m os os', does rnd m (os ++ os') = does rnd (does rnd m os) os'.
Proof. intros. apply fold_left_app. Qed.
Lemma good_does : forall rnd os m, good m -> good (does rnd m os).
Proof. intros rnd. induction os as [|o os IH]; intros m H; cbn; auto. apply IH, good_do, H. Qed.

Lemma find_call : forall k m, find k (m_memo (snd (call k m))) = Some (fst (call k m)).
Proof.
  intros k m. unfold call. destruct (find k (m_memo m)) as [a|] eqn:F; cbn; auto. destruct (key_eq_dec k k); [reflexivity|congruence].
Qed.
Lemma find_keep : forall k k' m a, find k (m_memo m) = Some a -> find k (m_memo (snd (call k' m))) = Some a.
Proof.
  intros k k' m a E. unfold call. destruct (find k' (m_memo m)) eqn:F; cbn; auto. destruct (key_eq_dec k k'); [congruence|exact E].
Qed.
Lemma find_write : forall a v m, m_memo (write a v m) = m_memo m.
Proof. intros. unfold write. now destruct (Nat.eqb _ _). Qed.
Lemma find_do : forall rnd o k m a, find k (m_memo m) = Some a -> find k (m_memo (do rnd m o)) = Some a.
Proof.
  intros rnd [k'|b v|k'|j k'] k m a E; cbn [do]; rewrite ?readable_memo, ?gJ_memo, ?find_write; auto using find_keep.
Qed.
Lemma find_does : forall rnd os k m a, find k (m_memo m) = Some a -> find k (m_memo (does rnd m os)) = Some a.
Proof. intros rnd. induction os as [|o os IH]; intros k m a E; cbn; auto. apply IH, find_do, E. Qed.
Lemma call_found : forall k m a, find k (m_memo m) = Some a -> call k m = (a, m).
Proof. intros k m a E. unfold call. now rewrite E. Qed.

(** A call adds an array and changes none. *)
Lemma content_call : forall k m a, (a < List.length (m_arrays m))%nat -> content a (snd (call k m)) = content a m.
Proof.
  intros k m a H. unfold call. destruct (find k (m_memo m)); cbn [snd]; auto. unfold content. cbn [m_arrays]. now rewrite app_nth1.
Qed.
Lemma content_new : forall k m, find k (m_memo m) = None -> content (fst (call k m)) (snd (call k m)) = convert k.
Proof.
  intros k m E. unfold call. rewrite E. cbn [fst snd]. unfold content. cbn [m_arrays]. rewrite app_nth2, Nat.sub_diag by lia. reflexivity.
Qed.

(** ** Statements *)

(** [for every] program: the array of a key is made once; the same key gives
    the same array, different keys different ones. *)
Theorem C135_once : forall rnd os os' k k',
  let m := does rnd empty os in let m' := does rnd (snd (call k m)) os' in
  fst (call k m') = fst (call k m) /\ (k <> k' -> fst (call k' m') <> fst (call k m)).
Proof.
  intros rnd os os' k k' m m'. pose proof (find_does rnd os' k _ _ (find_call k m)) as F. fold m' in F.
  split; [now rewrite (call_found _ _ _ F)|]. intros Hk E.
  assert (G : good m') by (apply good_does, good_call, good_does, good_empty).
  pose proof (find_keep k k' m' _ F) as F1. pose proof (find_call k' m') as F2. rewrite E in F2.
  apply Hk. exact (gd_inj _ (good_call k' m' G) _ _ _ F1 F2).
Qed.
Print Assumptions C135_once.

(** Making readable lists and g-values writes to no array. *)
Theorem C135_internal : forall rnd m o a, match o with Write _ _ => False | _ => True end ->
  (a < List.length (m_arrays m))%nat -> content a (do rnd m o) = content a m.
Proof.
  intros rnd m [k|b v|k|j k] a Ho H; cbn [do]; rewrite ?readable_memo, ?gJ_memo; try contradiction; now apply content_call.
Qed.
Print Assumptions C135_internal.

(** No write of the program was to the array that was then the one of [k]. *)
Definition spared (rnd : R -> R) (k : key) (os : list act) : Prop :=
  forall os1 a v os2, os = os1 ++ Write a v :: os2 -> fst (call k (does rnd empty os1)) <> a.

Lemma spared_inv : forall rnd k os, spared rnd k os -> forall a, find k (m_memo (does rnd empty os)) = Some a ->
  content a (does rnd empty os) = convert k.
Proof.
  intros rnd k os. induction os as [|o os IH] using rev_ind; intros Sp a F; [discriminate|].
  assert (Sp' : spared rnd k os).
  { intros os1 b v os2 ->. apply (Sp os1 b v (os2 ++ [o])). now rewrite <- app_assoc. }
  specialize (IH Sp'). rewrite does_app in *. set (m := does rnd empty os) in *. cbn [does fold_left] in *.
  assert (G : good m) by apply good_does, good_empty.
  assert (C : forall k', find k (m_memo (snd (call k' m))) = Some a -> content a (snd (call k' m)) = convert k).
  { intros k' F'. destruct (find k (m_memo m)) as [b|] eqn:E.
    - rewrite (find_keep _ _ _ _ E) in F'. injection F' as <-. rewrite content_call by (eapply gd_in; eauto). now apply IH.
    - unfold call in F'. destruct (find k' (m_memo m)) eqn:E'; cbn [snd m_memo find] in F'; [congruence|].
      destruct (key_eq_dec k k') as [<-|]; [|congruence]. pose proof (content_new k m E') as C. unfold call in *. rewrite E' in *. cbn [fst snd] in *.
      injection F' as <-. exact C. }
  destruct o as [k'|b v|k'|j k']; cbn [do] in *; rewrite ?readable_memo, ?gJ_memo in *; auto.
  rewrite find_write in F. specialize (IH a F). unfold write. destruct (Nat.eqb _ _); auto. unfold content in *. cbn [m_arrays].
  rewrite put_other; auto. intros ->. apply (Sp os a v []); auto. fold m. now rewrite (call_found _ _ _ F).
Qed.

(** If nothing was written to the array of a key, the conversion, the readable
    list and the g-value are what a fresh program computes, whatever was
    called and written before. *)
Theorem C135_partial : forall rnd os k, spared rnd k os -> let m := does rnd empty os in
  content (fst (call k m)) (snd (call k m)) = convert k /\
  fst (readable rnd k m) = sets_to_list rnd (convert k) /\
  (forall j, fst (gJ j k m) = gJ_sets j (convert k)).
Proof.
  intros rnd os k Sp m.
  assert (C : content (fst (call k m)) (snd (call k m)) = convert k).
  { destruct (find k (m_memo m)) as [a|] eqn:F; [|now apply content_new]. rewrite (call_found _ _ _ F). cbn [fst snd]. now apply (spared_inv rnd k os Sp). }
  split; auto. unfold readable, gJ. destruct (call k m) as [a m']. cbn [fst snd] in *. rewrite C. auto.
Qed.
Print Assumptions C135_partial.
(** In particular each of the three conversions gives its own result. *)
Corollary C135_conversions : forall rnd os, let m := does rnd empty os in let got := fun k => content (fst (call k m)) (snd (call k m)) in
  (forall j jc jo lc sc lo so, spared rnd (KJJ j jc jo lc sc lo so) os -> got (KJJ j jc jo lc sc lo so) = JJ_to_LS j jc jo lc sc lo so) /\
  (forall j jc k lc sc lo so, spared rnd (KJK j jc k lc sc lo so) os -> got (KJK j jc k lc sc lo so) = JK_to_LS j jc k lc sc lo so) /\
  (forall j l k sc so, spared rnd (KLK j l k sc so) os -> got (KLK j l k sc so) = LK_to_LS j l k sc so).
Proof. intros rnd os m got. split; [|split]; intros; exact (proj1 (C135_partial rnd os _ H)). Qed.
Print Assumptions C135_conversions.
(** Two conversions, of which one array is doubled. *)
Definition first := KLK 5 4 5 1 2.
Definition other := KLK 5 4 3 1 2.
Lemma last_write : forall os1 o1 o2 a b v w os2, (forall c u, o1 <> Write c u) -> (forall c u, o2 <> Write c u) ->
  [o1; o2; Write a v] = os1 ++ Write b w :: os2 -> os1 = [o1; o2] /\ a = b.
Proof.
  intros [|p1 [|p2 [|p3 os1]]] o1 o2 a b v w os2 H1 H2 E; cbn in E.
  - destruct (H1 b w). congruence.
  - destruct (H2 b w). congruence.
  - split; congruence.
  - exfalso. apply (f_equal (@List.length act)) in E. cbn in E. rewrite app_length in E. cbn in E. lia.
Qed.
Example C135_case : forall rnd v, spared rnd other [Call first; Readable other; Write 0 v] /\ first <> other /\
  List.length (convert first) = 2%nat /\ fst (call other (does rnd empty [Call first])) = 1%nat.
Proof.
  intros rnd v. split; [|repeat split; discriminate].
  intros os1 a w os2 E. apply last_write in E as [-> <-]; try discriminate.
Qed.

(** Not for the array itself: [LK_to_LS(...)[2] *= 0] empties the readable list
    of every such state for the rest of the program. *)
Definition zeroed (v : array) : array := map (fun p => (fst p, Some 0%R)) v.
Lemma norm_zero : forall sets x, amps sets = Some x -> (forall p, In p sets -> fl_nonzero (snd p) = false) -> dot x x = 0%R.
Proof.
  induction sets as [|[[l s] [y|]] sets IH]; intros x E H; cbn [amps] in E; try discriminate.
  - injection E as <-. reflexivity.
  - destruct (amps sets) as [xs|]; [|discriminate]. injection E as <-. cbn [dot].
    rewrite (IH xs) by (auto; intros q I; apply H; now right). specialize (H _ (or_introl eq_refl)). cbn in H.
    destruct (Req_EM_T y 0); [subst; ring|discriminate].
Qed.
Theorem C135_refuted : forall rnd os j l k sc so, triangle l sc k -> triangle k so j ->
  let key := KLK j l k sc so in let m := does rnd empty os in spared rnd key os ->
  fst (readable rnd key m) <> Ok [] /\
  let a := fst (call key m) in
  fst (readable rnd key (does rnd m [Call key; Write a (zeroed (convert key))])) = Ok [].
Proof.
  intros rnd os j l k sc so T1 T2 key m Sp. pose proof (C135_partial rnd os key Sp) as [C [Rd _]]. fold m in C, Rd.
  assert (Nz : exists x, amps (convert key) = Some x /\ dot x x = 1%R).
  { destruct (proj1 (C102_LK j l k k sc so T1 T2 T1 T2) eq_refl) as [_ [x [y [E1 [E2 D]]]]]. exists x. split; auto. congruence. }
  destruct Nz as [x [Ex D]].
  assert (Ne : convert key <> []) by (intros E; rewrite E in Ex; injection Ex as <-; cbn in D; lra).
  split.
  - rewrite Rd. unfold sets_to_list. intros E. assert (F : filter (fun p => fl_nonzero (snd p)) (convert key) = []).
    { destruct (convert key) as [|p0 ps]; [congruence|]. destruct (filter _ (p0 :: ps)) as [|q qs]; auto. cbn [rmapM] in E.
      destruct q as [[l0 s0] a0]. destruct (str_index letters (Z.quot l0 2)); cbn [rbind] in E; [|discriminate].
      destruct (rmapM _ qs); discriminate. }
    assert (Z0 : dot x x = 0%R).
    { apply (norm_zero (convert key)); auto. intros p I. destruct (fl_nonzero (snd p)) eqn:Np; auto.
      assert (In p (filter (fun p => fl_nonzero (snd p)) (convert key))) as I' by (apply filter_In; auto). rewrite F in I'. contradiction. }
    lra.
  - intros a. cbn [does fold_left do]. unfold write, a. rewrite C. unfold zeroed at 1. rewrite map_length, Nat.eqb_refl.
    set (m1 := snd (call key m)) in *. unfold readable.
    assert (F : find key (m_memo m1) = Some (fst (call key m))) by apply find_call.
    rewrite (call_found key (mkMemo _ _) (fst (call key m))) by exact F. cbn [fst]. unfold content. cbn [m_arrays].
    rewrite put_same by (apply (gd_in m1) with key; auto; apply good_call, good_does, good_empty). apply all_zero.
    + unfold zeroed. intros E. apply map_eq_nil in E. contradiction.
    + intros p I. apply in_map_iff in I as [q [<- _]]. reflexivity.
Qed.
Print Assumptions C135_refuted.
Example C135_zero_case : forall rnd, triangle 4 1 5 /\ triangle 5 2 5 /\ spared rnd first [Call other; Readable other].
Proof.
  intros rnd. rewrite <- !tri_spec. repeat split. intros [|o1 [|o2 [|o3 os1]]] a v os2 E; cbn in E; try discriminate.
Qed.
