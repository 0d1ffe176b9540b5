(** Concrete atoms used to show that the theorems have instances. *)
From Coq Require Import List Bool ZArith QArith Qcanon Lia String Permutation.
From Verif Require Import Base PyStr Util Parse Term Num Wigner Hyperfine Graph Rules Atom AtomInv AtomSafe5 AtomSafe6.
Import ListNotations.

(** Sets are enumerated in the order they were built. *)
Definition plain (_ : nat) : oracle := mkOracle (fun c => c) (fun n => n) (fun _ n => n).
Lemma plain_ok : forall n, oracle_ok (plain n).
Proof. intros n. constructor; intros; apply Permutation_refl. Qed.

Definition ex_term (conf tm : string) (j : Z) : term := mkTerm conf tm (Q2Qc 100) (Some j) None None no_qnums.
Definition tS := ex_term "6s" "2S" 1.
Definition tP := ex_term "6p" "2P*" 1.
Definition tQ := ex_term "6p" "2P*" 3.

(** EnergyLevel(term, level = E), not yet in an atom. *)
Definition nl (t : term) (E : Z) : op Exact := ONewLevel Exact [t] (Q2Qc (E # 1)) 0%Qc 0%Qc 0%Qc 0%Qc None false.
Definition add (a : nat) : op Exact := OAddLevel Exact a false None.

Definition runx := run Exact 1%Qc plain.
Definition from (i : Z) : st Exact := init Exact i 0%Qc.

Lemma from_reachable : forall i os, (0 <= i)%Z -> reachable Exact 1%Qc plain (runx (from i) os).
Proof. intros i os H. exists i, 0%Qc, os. auto. Qed.

(** Nuclear spin 1/2, two levels of angular momentum 1/2. *)
Definition os_two : list (op Exact) := [nl tS 0; add 0; nl tP 10; add 1].
Definition two (i : Z) : st Exact := runx (from i) os_two.
Lemma two_reachable : forall i, (0 <= i)%Z -> reachable Exact 1%Qc plain (two i).
Proof. intros. now apply from_reachable. Qed.
Lemma more_reachable : forall s os, reachable Exact 1%Qc plain s -> reachable Exact 1%Qc plain (runx s os).
Proof.
  intros s os [i [b [os' [H E]]]]. exists i, b, (os' ++ os). split; auto. rewrite E. unfold runx, run. now rewrite fold_left_app.
Qed.
