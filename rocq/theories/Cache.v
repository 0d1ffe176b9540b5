(** Model of the memo of the basis conversions:
    [@functools.lru_cache(maxsize=None)] on [JJ_to_LS], [JK_to_LS] and
    [LK_to_LS], [atomtoolkit/transition_strengths.py], lines 146-184, and their
    callers [readable_..._to_LS], [atomtoolkit/util.py], lines 95-109, and
    [compute_gJ], [atomtoolkit/atom.py], lines 333-360.  The conversions return
    numpy arrays, which can be written to; the memo holds the array itself.
    The arrays of different functions are in different memos; the key says
    which one.  Angular momenta are doubled integers, as in [Coupling].  A
    write keeps the shape of the array and writes integers to the first two
    rows, which is enough to show what a write does. *)
From Coq Require Import List Bool ZArith Reals Lia String.
From Verif Require Import Base Coupling.
Import ListNotations.
Local Open Scope Z_scope.

(** transition_strengths.py:147, 161, 176: the function and its arguments. *)
Inductive key :=
| KJJ (j jc jo lc sc lo so : Z)
| KJK (j jc k lc sc lo so : Z)
| KLK (j l k sc so : Z).
Definition key_eq_dec : forall k k' : key, {k = k'} + {k <> k'}.
Proof. decide equality; apply Z.eq_dec. Defined.
Definition array : Type := list (Z * Z * fl).
Definition convert (k : key) : array :=
  match k with
  | KJJ j jc jo lc sc lo so => JJ_to_LS j jc jo lc sc lo so
  | KJK j jc k lc sc lo so => JK_to_LS j jc k lc sc lo so
  | KLK j l k sc so => LK_to_LS j l k sc so
  end.

(** The memo, and the arrays in the order they were made. *)
Record memo : Type := mkMemo { m_memo : list (key * nat); m_arrays : list array }.
Definition empty : memo := mkMemo [] [].
Fixpoint find (k : key) (d : list (key * nat)) : option nat :=
  match d with
  | [] => None
  | (k', a) :: d' => if key_eq_dec k k' then Some a else find k d'
  end.
Definition content (a : nat) (m : memo) : array := nth a (m_arrays m) [].

(** A call: which array it returns. *)
Definition call (k : key) (m : memo) : nat * memo :=
  match find k (m_memo m) with
  | Some a => (a, m)
  | None => (List.length (m_arrays m), mkMemo ((k, List.length (m_arrays m)) :: m_memo m) (m_arrays m ++ [convert k]))
  end.
Fixpoint put {A} (n : nat) (v : A) (l : list A) : list A :=
  match l, n with
  | [], _ => []
  | _ :: l', O => v :: l'
  | x :: l', S n' => x :: put n' v l'
  end.
(** [array[...] = ...] *)
Definition write (a : nat) (v : array) (m : memo) : memo :=
  if Nat.eqb (List.length v) (List.length (content a m)) then mkMemo (m_memo m) (put a v (m_arrays m)) else m.
(** util.py:95-109 *)
Definition readable (rnd : R -> R) (k : key) (m : memo) : res (list (string * fl)) * memo :=
  let '(a, m') := call k m in (sets_to_list rnd (content a m'), m').
(** atom.py:333-360: one component, the factor of its percentage left out. *)
Definition gJ (j : Z) (k : key) (m : memo) : fl * memo :=
  let '(a, m') := call k m in (gJ_sets j (content a m'), m').

(** What a program does with them. *)
Inductive act :=
| Call (k : key)
| Write (a : nat) (v : array)
| Readable (k : key)
| GJ (j : Z) (k : key).
Definition do (rnd : R -> R) (m : memo) (o : act) : memo :=
  match o with
  | Call k => snd (call k m)
  | Write a v => write a v m
  | Readable k => snd (readable rnd k m)
  | GJ j k => snd (gJ j k m)
  end.
Definition does (rnd : R -> R) (m : memo) (os : list act) : memo := fold_left (do rnd) os m.
