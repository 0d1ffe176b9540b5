(** Common ground for the model: Python exceptions as values, ordered
    dictionaries, stable sorting.  Nothing here is specific to Atom-Toolkit. *)
From Coq Require Import List Bool ZArith Lia String Permutation Sorted.
Import ListNotations.
Local Open Scope list_scope.

(** ** Exceptions as values *)

(** The exception classes that the modelled code can raise.  [OutOfFuel] is
    not a Python exception: it marks a loop bound of the model that turned
    out too small, and neither is [Dangling], which marks an unallocated heap
    address (proved unreachable where it matters). *)
Inductive exn : Type :=
| KeyError | ValueError | TypeError | AttributeError | IndexError
| ZeroDivisionError | AssertionError | NetworkXError | DimensionalityError
| NotImplementedError | NameError | OutOfFuel | Dangling.

(** The outcome of a call: a value, or the exception that leaves it. *)
Inductive res (A : Type) : Type :=
| Ok (a : A)
| Raise (e : exn).
Arguments Ok {A} a.
Arguments Raise {A} e.

(** Equality of exception classes. *)
Definition exn_eqb (a b : exn) : bool :=
  match a, b with
  | KeyError, KeyError | ValueError, ValueError | TypeError, TypeError
  | AttributeError, AttributeError | IndexError, IndexError
  | ZeroDivisionError, ZeroDivisionError | AssertionError, AssertionError
  | NetworkXError, NetworkXError | DimensionalityError, DimensionalityError
  | NotImplementedError, NotImplementedError | NameError, NameError | OutOfFuel, OutOfFuel | Dangling, Dangling => true
  | _, _ => false
  end.

(** Statements in sequence: an exception skips the rest. *)
Definition rbind {A B} (m : res A) (f : A -> res B) : res B :=
  match m with Ok a => f a | Raise e => Raise e end.

(** A pure step after a call. *)
Definition rmap {A B} (f : A -> B) (m : res A) : res B :=
  match m with Ok a => Ok (f a) | Raise e => Raise e end.

(** [ok_or e o]: the value of an optional, or the exception [e]. *)
Definition ok_or {A} (e : exn) (o : option A) : res A :=
  match o with Some a => Ok a | None => Raise e end.

(** A list comprehension whose body may raise. *)
Fixpoint rmapM {A B} (f : A -> res B) (l : list A) : res (list B) :=
  match l with
  | [] => Ok []
  | x :: l' => rbind (f x) (fun y => rbind (rmapM f l') (fun ys => Ok (y :: ys)))
  end.

Declare Scope res_scope.
Delimit Scope res_scope with res.
Notation "x <-- m ;; f" := (rbind m (fun x => f))
  (at level 61, m at next level, right associativity) : res_scope.
Notation "' p <-- m ;; f" := (rbind m (fun p => f))
  (at level 61, p pattern, m at next level, right associativity) : res_scope.

(** The call returns. *)
Definition is_ok {A} (m : res A) : bool := match m with Ok _ => true | _ => false end.

(** ** Decidable equality of keys *)

Class Eqb (K : Type) := {
  keqb : K -> K -> bool;
  keqb_spec : forall x y, reflect (x = y) (keqb x y)
}.

#[global] Instance Eqb_string : Eqb string := {| keqb := String.eqb; keqb_spec := String.eqb_spec |}.
#[global] Instance Eqb_nat : Eqb nat := {| keqb := Nat.eqb; keqb_spec := Nat.eqb_spec |}.
#[global] Instance Eqb_Z : Eqb Z := {| keqb := Z.eqb; keqb_spec := Z.eqb_spec |}.

#[global] Instance Eqb_prod {A B} `{Eqb A} `{Eqb B} : Eqb (A * B).
Proof.
  refine {| keqb := fun x y => keqb (fst x) (fst y) && keqb (snd x) (snd y) |}.
  intros [a b] [c d]; simpl.
  destruct (keqb_spec a c); destruct (keqb_spec b d); simpl; constructor; congruence.
Defined.

Lemma keqb_refl {K} `{Eqb K} : forall x : K, keqb x x = true.
Proof. intros x; destruct (keqb_spec x x); congruence. Qed.

Lemma keqb_neq {K} `{Eqb K} : forall x y : K, x <> y -> keqb x y = false.
Proof. intros x y Hn; destruct (keqb_spec x y); congruence. Qed.

(** ** Python dictionaries: association lists in insertion order *)

Section Dict.
  Context {K V : Type} `{Eqb K}.

  (** A dict is the list of its items in insertion order. *)
  Definition dict := list (K * V).

  (** [d.get(k)] *)
  Fixpoint dget (k : K) (d : dict) : option V :=
    match d with
    | [] => None
    | (k', v) :: d' => if keqb k k' then Some v else dget k d'
    end.

  (** [d[k] = v]: an existing key keeps its place. *)
  Fixpoint dset (k : K) (v : V) (d : dict) : dict :=
    match d with
    | [] => [(k, v)]
    | (k', v') :: d' => if keqb k k' then (k', v) :: d' else (k', v') :: dset k v d'
    end.

  (** [del d[k]] *)
  Definition ddel (k : K) (d : dict) : dict :=
    filter (fun kv => negb (keqb k (fst kv))) d.

  (** [k in d] *)
  Definition dmem (k : K) (d : dict) : bool :=
    match dget k d with Some _ => true | None => false end.

  (** [d.keys()] and [d.values()] *)
  Definition dkeys (d : dict) : list K := map fst d.
  Definition dvals (d : dict) : list V := map snd d.

  Lemma dget_dset_eq : forall k v d, dget k (dset k v d) = Some v.
  Proof.
    induction d as [|[k' v'] d IH]; simpl.
    - now rewrite keqb_refl.
    - destruct (keqb k k') eqn:E; simpl; rewrite E; auto.
  Qed.

  Lemma dget_dset_neq : forall k k' v d, k <> k' -> dget k (dset k' v d) = dget k d.
  Proof.
    induction d as [|[k2 v2] d IH]; intros Hn; simpl.
    - now rewrite keqb_neq.
    - destruct (keqb k' k2) eqn:E; simpl.
      + destruct (keqb_spec k' k2); try discriminate. subst.
        rewrite keqb_neq; auto.
      + destruct (keqb k k2); auto.
  Qed.

  Lemma dget_dset : forall k k' v d,
    dget k (dset k' v d) = if keqb k k' then Some v else dget k d.
  Proof.
    intros. destruct (keqb_spec k k').
    - subst. apply dget_dset_eq.
    - now apply dget_dset_neq.
  Qed.

  Lemma dget_In : forall k v d, dget k d = Some v -> In (k, v) d.
  Proof.
    induction d as [|[k' v'] d IH]; simpl; intros E; try discriminate.
    destruct (keqb_spec k k'); [injection E as <-; subst; auto | right; auto].
  Qed.

  Lemma dget_None : forall k d, dget k d = None <-> ~ In k (dkeys d).
  Proof.
    induction d as [|[k' v'] d IH]; simpl.
    - split; auto.
    - destruct (keqb_spec k k').
      + subst. split; [discriminate | intros N; exfalso; apply N; auto].
      + rewrite IH. split; intros N; [intros [E|E]; [congruence|auto] | intros E; apply N; auto].
  Qed.

  Lemma dget_Some_key : forall k d, In k (dkeys d) <-> exists v, dget k d = Some v.
  Proof.
    intros. destruct (dget k d) eqn:E.
    - split; eauto. intros _. apply dget_In in E. unfold dkeys.
      change k with (fst (k, v)). now apply in_map.
    - split; [intros N; apply dget_None in E; contradiction | intros [v E']; discriminate].
  Qed.

  Lemma In_dget_nodup : forall k v d, NoDup (dkeys d) -> In (k, v) d -> dget k d = Some v.
  Proof.
    induction d as [|[k' v'] d IH]; simpl; intros N I; [contradiction|].
    inversion N; subst.
    destruct I as [E|I].
    - injection E as -> ->. now rewrite keqb_refl.
    - destruct (keqb_spec k k').
      + subst. exfalso. apply H2. change k' with (fst (k', v)). now apply in_map.
      + now apply IH.
  Qed.

  Lemma dkeys_dset_old : forall k v d, In k (dkeys d) -> dkeys (dset k v d) = dkeys d.
  Proof.
    induction d as [|[k' v'] d IH]; simpl; intros I; [contradiction|].
    destruct (keqb_spec k k'); simpl; [reflexivity|].
    f_equal. apply IH. destruct I; [congruence|auto].
  Qed.

  Lemma dset_new : forall k v d, ~ In k (dkeys d) -> dset k v d = d ++ [(k, v)].
  Proof.
    induction d as [|[k' v'] d IH]; simpl; intros I; [reflexivity|].
    destruct (keqb_spec k k').
    - subst. exfalso; auto.
    - f_equal. apply IH. auto.
  Qed.

  Lemma dkeys_dset_new : forall k v d, ~ In k (dkeys d) -> dkeys (dset k v d) = dkeys d ++ [k].
  Proof. intros. rewrite dset_new by auto. unfold dkeys. now rewrite map_app. Qed.

  Lemma In_dkeys_dset : forall k k' v d, In k (dkeys (dset k' v d)) <-> k = k' \/ In k (dkeys d).
  Proof.
    intros. rewrite !dget_Some_key. setoid_rewrite dget_dset.
    destruct (keqb_spec k k'); subst; split; intros X; eauto.
    destruct X; [congruence|auto].
  Qed.

  Lemma NoDup_dset : forall k v d, NoDup (dkeys d) -> NoDup (dkeys (dset k v d)).
  Proof.
    intros k v d N. destruct (dget k d) eqn:E.
    - rewrite dkeys_dset_old; auto. apply dget_Some_key; eauto.
    - apply dget_None in E. rewrite dkeys_dset_new by auto.
      apply Permutation_NoDup with (k :: dkeys d).
      + apply Permutation_cons_append.
      + now constructor.
  Qed.

  Lemma dget_ddel : forall k k' d, dget k (ddel k' d) = if keqb k k' then None else dget k d.
  Proof.
    induction d as [|[k2 v2] d IH]; simpl.
    - now destruct (keqb k k').
    - destruct (keqb_spec k' k2); simpl.
      + subst. rewrite IH. destruct (keqb_spec k k2); auto.
      + rewrite IH. destruct (keqb_spec k k2); auto.
        subst. rewrite keqb_neq; auto.
  Qed.

  Lemma dkeys_ddel : forall k d, dkeys (ddel k d) = filter (fun x => negb (keqb k x)) (dkeys d).
  Proof.
    induction d as [|[k2 v2] d IH]; simpl; auto.
    destruct (keqb k k2); simpl; rewrite IH; auto.
  Qed.

  Lemma NoDup_ddel : forall k d, NoDup (dkeys d) -> NoDup (dkeys (ddel k d)).
  Proof. intros. rewrite dkeys_ddel. now apply NoDup_filter. Qed.

End Dict.
Arguments dict K V : clear implicits.

(** ** Stable sorting (Python's [sorted]) *)

Section Sort.
  Context {A : Type} (le : A -> A -> bool).

  (** Insert before the first element that is not strictly smaller: keeps the
      relative order of equal elements when used from the right. *)
  Fixpoint insert (x : A) (l : list A) : list A :=
    match l with
    | [] => [x]
    | y :: l' => if le x y then x :: y :: l' else y :: insert x l'
    end.

  (** [sorted(l, key=...)], stable: atom_helpers.py:43. *)
  Definition isort (l : list A) : list A := fold_right insert [] l.

  Lemma insert_perm : forall x l, Permutation (x :: l) (insert x l).
  Proof.
    induction l as [|y l IH]; simpl; auto.
    destruct (le x y); auto.
    eapply perm_trans; [apply perm_swap|]. now constructor.
  Qed.

  Lemma isort_perm : forall l, Permutation l (isort l).
  Proof.
    induction l as [|x l IH]; simpl; auto.
    eapply perm_trans; [|apply insert_perm]. now constructor.
  Qed.

  Lemma isort_length : forall l, List.length (isort l) = List.length l.
  Proof. intros. symmetry. apply Permutation_length, isort_perm. Qed.

  Lemma isort_In : forall x l, In x (isort l) <-> In x l.
  Proof.
    intros; split; intros I.
    - eapply Permutation_in; [apply Permutation_sym, isort_perm | exact I].
    - eapply Permutation_in; [apply isort_perm | exact I].
  Qed.

  Hypothesis le_total : forall x y, le x y = false -> le y x = true.
  Hypothesis le_trans : forall x y z, le x y = true -> le y z = true -> le x z = true.

  Lemma insert_hd : forall x y l, HdRel (fun a b => le a b = true) y l ->
    le y x = true -> HdRel (fun a b => le a b = true) y (insert x l).
  Proof.
    intros x y [|z l] Hd L; simpl; [auto|].
    destruct (le x z); constructor; auto. now inversion Hd.
  Qed.

  Lemma insert_sorted : forall x l, Sorted (fun a b => le a b = true) l ->
    Sorted (fun a b => le a b = true) (insert x l).
  Proof.
    induction l as [|y l IH]; simpl; intros S; [auto|].
    destruct (le x y) eqn:E; [auto|].
    inversion S; subst. constructor; auto.
    apply insert_hd; auto.
  Qed.

  Lemma isort_sorted : forall l, Sorted (fun a b => le a b = true) (isort l).
  Proof. induction l; simpl; auto using insert_sorted. Qed.

  Lemma isort_strongly_sorted : forall l, StronglySorted (fun a b => le a b = true) (isort l).
  Proof.
    intros. apply Sorted_StronglySorted; [intros ? ? ?; apply le_trans | apply isort_sorted].
  Qed.
End Sort.

(** A sorted list is left alone. *)
Lemma isort_id {A} (le : A -> A -> bool) : forall l,
  Sorted (fun a b => le a b = true) l -> isort le l = l.
Proof.
  induction l as [|x l IH]; simpl; intros S; auto.
  inversion S; subst. rewrite IH by auto.
  destruct l as [|y l]; simpl; auto.
  inversion H2; subst. now rewrite H0.
Qed.

(** Stability: elements of one equivalence class keep their order. *)
Lemma isort_stable {A} (le : A -> A -> bool) (P : A -> bool) :
  (forall x y, P x = true -> P y = true -> le x y = true) ->
  forall l, filter P (isort le l) = filter P l.
Proof.
  intros HP.
  assert (K : forall x l, filter P (insert le x l) = filter P (x :: l)).
  { induction l as [|y l IH]; [auto|]. simpl. destruct (le x y) eqn:E; [auto|].
    simpl in *. rewrite IH. destruct (P x) eqn:Px, (P y) eqn:Py; auto.
    rewrite HP in E; auto. discriminate. }
  induction l as [|x l IH]; auto.
  change (isort le (x :: l)) with (insert le x (isort le l)).
  rewrite K. simpl. now rewrite IH.
Qed.

(** Mapping a key-preserving function commutes with sorting. *)
Lemma isort_map {A B} (le : A -> A -> bool) (le' : B -> B -> bool) (f : A -> B) :
  (forall x y, le' (f x) (f y) = le x y) ->
  forall l, isort le' (map f l) = map f (isort le l).
Proof.
  intros Hf. 
  assert (Hi : forall x l, insert le' (f x) (map f l) = map f (insert le x l)).
  { induction l as [|y l IH]; simpl; auto. rewrite Hf. destruct (le x y); simpl; congruence. }
  induction l as [|x l IH]; simpl; auto. now rewrite IH, Hi.
Qed.

(** ** Small list facts *)

Lemma nth_error_map_eq {A B} (f : A -> B) : forall l n,
  nth_error (map f l) n = option_map f (nth_error l n).
Proof. induction l; destruct n; simpl; auto. Qed.

(** Update of a list at an index (heap cells). *)
Fixpoint upd {A} (n : nat) (f : A -> A) (l : list A) : list A :=
  match l, n with
  | [], _ => []
  | x :: l', O => f x :: l'
  | x :: l', S n' => x :: upd n' f l'
  end.

Lemma upd_length {A} : forall n (f : A -> A) l, List.length (upd n f l) = List.length l.
Proof. induction n; destruct l; simpl; auto. Qed.

Lemma nth_error_upd_eq {A} : forall n (f : A -> A) l,
  nth_error (upd n f l) n = option_map f (nth_error l n).
Proof. induction n; destruct l; simpl; auto. Qed.

Lemma nth_error_upd_neq {A} : forall n m (f : A -> A) l,
  n <> m -> nth_error (upd n f l) m = nth_error l m.
Proof. induction n; destruct l, m; simpl; intros; auto; congruence. Qed.

Lemma nth_error_upd {A} : forall n m (f : A -> A) l,
  nth_error (upd n f l) m = if Nat.eqb n m then option_map f (nth_error l m) else nth_error l m.
Proof.
  intros. destruct (Nat.eqb_spec n m); [subst; apply nth_error_upd_eq | now apply nth_error_upd_neq].
Qed.

Lemma nth_error_app_last {A} : forall (l : list A) x, nth_error (l ++ [x]) (List.length l) = Some x.
Proof. intros. rewrite nth_error_app2 by lia. now rewrite Nat.sub_diag. Qed.

Lemma nth_error_app_old {A} : forall (l : list A) x n y,
  nth_error l n = Some y -> nth_error (l ++ [x]) n = Some y.
Proof.
  intros. rewrite nth_error_app1; auto. apply nth_error_Some. congruence.
Qed.

Lemma Forall2_imp {A B} (P Q : A -> B -> Prop) : (forall x y, P x y -> Q x y) ->
  forall l m, Forall2 P l m -> Forall2 Q l m.
Proof. intros H. induction 1; constructor; auto. Qed.

Lemma Forall2_len {A B} (P : A -> B -> Prop) : forall l m, Forall2 P l m -> List.length l = List.length m.
Proof. induction 1; simpl; auto. Qed.
