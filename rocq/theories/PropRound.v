(** Frequencies that are set are met up to rounding (C142). *)
From Coq Require Import List Bool ZArith QArith Qcanon Lia String Ascii Permutation Reals Floats.SpecFloat.
From Verif Require Import Base PyStr Util UtilProofs Parse Term TermProofs Num Wigner Hyperfine HyperfineProofs
  Graph GraphProofs DfsProofs Rules Atom AtomInv AtomSafe AtomSafe2 AtomSafe3 AtomSafe4 AtomSafe5 AtomSafe6 AtomKeep AtomPaths AtomTrans
  AtomEnforce AtomEnforce2 AtomEnforce3 AtomExample PropEnforce PropFloat FloatRound.
Import ListNotations.
Local Open Scope nat_scope.

(** The constraints are between levels of the atom and none of these levels is
    fixed; [Pf] holds for the set frequencies and [Pe] for the energies. *)
Record fresh_atom {N : Num} (Pf Pe : N -> Prop) (s : st N) : Prop := mk_fresh_atom {
  fa_home : forall u v t f x, constraint s u v t f -> tr s t = Some x -> home N s (x_lo x) /\ home N s (x_up x);
  fa_freq : forall u v t f, constraint s u v t f -> Pf f;
  fa_energy : forall a l, lv s a = Some l -> Pe (l_E l);
  fa_loose : forall a l, home N s a -> lv s a = Some l -> ~ free s (lname l) -> l_fixed l = false
}.

Lemma fresh_homes : forall (N : Num) (Pf Pe : N -> Prop) (s : st N), fresh_atom Pf Pe s -> homes N s.
Proof.
  intros N Pf Pe s U u v t x E I V. unfold is_set in I. rewrite V in I. destruct (x_set x) as [f|] eqn:F; [|discriminate].
  apply (fa_home _ _ s U u v t f x); auto. split; eauto.
Qed.
Lemma fresh_nice : forall (N : Num) (Pf Pe : N -> Prop) (s : st N), fresh_atom Pf Pe s -> all_nice N Pe Pf s.
Proof.
  intros N Pf Pe s U. split; [|exact (fa_energy _ _ s U)]. intros u v t x f E V F. apply (fa_freq _ _ s U u v t f). split; eauto.
Qed.
Lemma fresh_unfixed : forall (N : Num) (Pf Pe : N -> Prop) (s : st N), WF s -> fresh_atom Pf Pe s -> forall n, In n (set_nodes s) -> unfixed N s n.
Proof.
  intros N Pf Pe s W U n I a l H V <-. apply (fa_loose _ _ s U a l H V). intros F. apply free_nil in F; auto.
  apply set_nodes_In in I as [v I]; auto. now rewrite F in I.
Qed.

(** In any arithmetic: for every constraint one end has been computed from the
    other end and the frequency. *)
Definition computed {N : Num} (f el eu : N) : Prop := eu = nadd N el f \/ el = nsub N eu f.

Lemma forest_any : forall (N : Num) (muB : N) orc (Pf Pe : N -> Prop), (forall n, oracle_ok (orc n)) ->
  (forall f e : N, Pf f -> Pe e -> Pe (nadd N e f) /\ Pe (nsub N e f)) -> forall s, reachable N muB orc s ->
  fresh_atom Pf Pe s -> loop_free (joined_by s) -> exists s', enforce N muB orc None s = (Ok tt, s') /\ s_warn s' = s_warn s /\
  (forall u v t f x, constraint s u v t f -> tr s t = Some x -> tr s' t = Some x /\
     exists el eu, energy N muB s' (x_lo x) = Some el /\ energy N muB s' (x_up x) = Some eu /\ computed f el eu /\ Pe el /\ Pe eu /\
     (freq N muB s' t = Some (nabs N (nsub N el eu)) \/ freq N muB s' t = Some (nabs N (nsub N eu el)))) /\
  (forall a l, home N s a -> lv s a = Some l -> free s (lname l) -> lv s' a = Some l).
Proof.
  intros N muB orc Pf Pe OK Cl s R U Lf. pose proof (reachable_WF N muB orc OK s R) as W.
  destruct (enforce_forest N muB computed Pe Pf) with (orc := orc) (s := s) as [s' [E [Mm [Wn [Nc [Hd K]]]]]]; auto.
  - intros f e Hf He. destruct (Cl f e Hf He) as [C1 C2]. split; split; auto; [left|right]; reflexivity.
  - eapply fresh_homes; eauto.
  - eapply fresh_nice; eauto.
  - eapply fresh_unfixed; eauto.
  - intros a b I Wk. apply (Lf a b); [now apply nbr_constraint|]. revert Wk. apply walk_imp. intros u v [H1 H2]. split; auto. now apply nbr_constraint.
  - exists s'. split; auto. split; auto. split.
    + intros u v t f x C V. assert (I : In v (set_nbrs s u)) by (apply nbr_constraint; eauto).
      assert (V2 : tr s' t = Some x) by (unfold tr; rewrite (mv_trans _ _ _ Mm); exact V). split; auto.
      destruct (Hd u v I) as [t' [x' [f' [l [h [[Ed [V' [Fx [Vl [Vh [Kl [Kh O]]]]]]] [_ [_ Sa]]]]]]]]. destruct C as [Ec [x0 [V0 F]]].
      rewrite (mv_g0 _ _ _ Mm) in Ed. rewrite Ec in Ed. injection Ed as <-. rewrite V2 in V'. injection V' as <-. rewrite V in V0. injection V0 as <-.
      rewrite F in Fx. injection Fx as <-. pose proof (energy_LE N muB s' _ _ Vl Kl) as El. pose proof (energy_LE N muB s' _ _ Vh Kh) as Eh.
      exists (l_E l), (l_E h). split; auto. split; auto. split; auto. split; [eapply (proj2 Nc); eauto|]. split; [eapply (proj2 Nc); eauto|].
      unfold freq. rewrite V2. pose proof (moved_WF _ _ _ W Mm) as W'. destruct (wf_tr _ _ W' _ _ V2) as [l1 [l2 [_ [_ [_ [_ [UL _]]]]]]].
      destruct UL as [[Ux Lx]|[Ux Lx]]; rewrite <- Ux, <- Lx, El, Eh; auto.
    + intros a l H V F. apply K; auto. intros I. apply set_nodes_In in I as [v I]; auto. apply nbr_constraint in I as [t [f C]]; auto. exact (F _ _ _ C).
Qed.

(** Whatever the arithmetic does: the call succeeds, says nothing, gives every
    constrained pair of levels energies one of which is the other plus or minus
    the frequency as computed, and moves no level without constraints. *)
Theorem C142_any_arithmetic : forall (N : Num) (muB : N) orc, (forall n, oracle_ok (orc n)) -> forall s, reachable N muB orc s ->
  fresh_atom (fun _ => True) (fun _ => True) s -> loop_free (joined_by s) -> exists s', enforce N muB orc None s = (Ok tt, s') /\ s_warn s' = s_warn s /\
  (forall u v t f x, constraint s u v t f -> tr s t = Some x -> exists el eu,
     energy N muB s' (x_lo x) = Some el /\ energy N muB s' (x_up x) = Some eu /\ (eu = nadd N el f \/ el = nsub N eu f)) /\
  (forall a l, home N s a -> lv s a = Some l -> free s (lname l) -> lv s' a = Some l).
Proof.
  intros N muB orc OK s R U Lf. destruct (forest_any N muB orc (fun _ => True) (fun _ => True) OK ltac:(auto) s R U Lf) as [s' [E [Wn [H K]]]].
  exists s'. split; auto. split; auto. split; auto. intros u v t f x C V. destruct (H u v t f x C V) as [_ [el [eu [A [B [D _]]]]]]. exists el, eu. auto.
Qed.
Print Assumptions C142_any_arithmetic.

(** In binary64: the frequency read back differs from the one that was set by at
    most three half-units in the last place of the larger of the two energies,
    unless it overflows. *)
Theorem C142_rounding : forall muB orc, (forall n, oracle_ok (orc n)) -> forall s, reachable Binary64 muB orc s ->
  @fresh_atom Binary64 double double s -> loop_free (joined_by s) -> exists s', enforce Binary64 muB orc None s = (Ok tt, s') /\ s_warn s' = s_warn s /\
  (forall u v t f x, constraint s u v t f -> tr s t = Some x -> exists el eu g,
     energy Binary64 muB s' (x_lo x) = Some el /\ energy Binary64 muB s' (x_up x) = Some eu /\ freq Binary64 muB s' t = Some g /\
     (finite g -> Rabs (valR g - Rabs (valR f)) <= / 2 ^ 53 * (3 * Rmax (Rabs (valR el)) (Rabs (valR eu))))%R).
Proof.
  intros muB orc OK s R U Lf. destruct (forest_any Binary64 muB orc (double : Binary64 -> Prop) (double : Binary64 -> Prop) OK) with (s := s) as [s' [E [Wn [H K]]]]; auto.
  - intros f e Hf He. split; [now apply double_add|now apply double_sub].
  - exists s'. split; auto. split; auto. intros u v t f x C V. destruct (H u v t f x C V) as [_ [el [eu [A [B [D [Dl [Du G]]]]]]]].
    pose proof (fa_freq _ _ s U u v t f C) as Df. exists el, eu.
    destruct G as [G|G]; rewrite G; eexists; (split; [exact A|]); (split; [exact B|]); (split; [reflexivity|]); intros Fg.
    + apply (made_close f el eu el eu Df Dl Du D); auto.
    + apply (made_close f el eu eu el Df Dl Du D); auto.
Qed.
Print Assumptions C142_rounding.

(** ** An instance *)

Definition doubleb (x : spec_float) : bool := valid_binary fprec femax x.
Definition freshb (s : st Binary64) : bool :=
  forallb (fun x : trans Binary64 => match x_set x with None => true | Some f => homeb s (x_lo x) && homeb s (x_up x) && doubleb f end) (s_trans s) &&
  forallb (fun l : level Binary64 => doubleb (l_E l)) (s_levels s) && loose s.
Lemma freshb_ok : forall s, freshb s = true -> @fresh_atom Binary64 double double s.
Proof.
  intros s H. apply andb_true_iff in H as [H L]. apply andb_true_iff in H as [H D]. rewrite forallb_forall in H, D. constructor.
  - intros u v t f x [_ [y [V F]]] V'. rewrite V in V'. injection V' as <-. specialize (H _ (nth_error_In _ _ V)). rewrite F, !andb_true_iff in H.
    split; apply homeb_home, H.
  - intros u v t f [_ [y [V F]]]. specialize (H _ (nth_error_In _ _ V)). rewrite F, !andb_true_iff in H. apply H.
  - intros a l V. exact (D _ (nth_error_In _ _ V)).
  - intros a l _ V _. exact (loose_all _ s L a l V).
Qed.

(** Levels at 0.1, 0.2 and 0.5 with steps of 0.2 and 0.1; the first frequency
    reads 0.20000000000000004 afterwards. *)
Definition treef : st Binary64 := runf fromf [nlf tS (1 # 10); addf 0; nlf tP (2 # 10); addf 1; nlf tQ (5 # 10); addf 2;
  ONewTransition Binary64 0 1 (Some (f_ofQ (2 # 10))) None None; ONewTransition Binary64 1 2 (Some (f_ofQ (1 # 10))) None None].
Lemma treef_edges : forall u v, joined_by treef u v <-> (
  (u = "6s 2S1/2" /\ v = "6p 2P*1/2") \/ (u = "6p 2P*1/2" /\ v = "6s 2S1/2") \/ (u = "6p 2P*1/2" /\ v = "6p 2P*3/2") \/ (u = "6p 2P*3/2" /\ v = "6p 2P*1/2"))%string.
Proof.
  assert (W : WF treef) by (apply (reachable_WF Binary64 (f_ofZ 1) plain plain_ok), fromf_reachable).
  intros u v. unfold joined_by. rewrite <- nbr_constraint by auto. split.
  - intros I. assert (J : In u (set_nodes treef)) by (apply (proj2 (set_nodes_In Binary64 treef u W)); exists v; exact I).
    assert (En : set_nodes treef = ["6s 2S1/2"; "6p 2P*1/2"; "6p 2P*3/2"]%string) by (vm_compute; reflexivity). rewrite En in J.
    destruct J as [<-|[<-|[<-|[]]]].
    + assert (Q : set_nbrs treef "6s 2S1/2" = ["6p 2P*1/2"]%string) by (vm_compute; reflexivity). rewrite Q in I. destruct I as [<-|[]]; auto.
    + assert (Q : set_nbrs treef "6p 2P*1/2" = ["6s 2S1/2"; "6p 2P*3/2"]%string) by (vm_compute; reflexivity). rewrite Q in I. destruct I as [<-|[<-|[]]]; auto.
    + assert (Q : set_nbrs treef "6p 2P*3/2" = ["6p 2P*1/2"]%string) by (vm_compute; reflexivity). rewrite Q in I. destruct I as [<-|[]]; auto.
  - intros [[-> ->]|[[-> ->]|[[-> ->]|[-> ->]]]]; vm_compute; auto.
Qed.
Lemma treef_loop_free : loop_free (joined_by treef).
Proof.
  intros a b H Wk. apply treef_edges, tree_edges in H. apply (tree_loop_free a b H). revert Wk. apply walk_imp.
  intros u v [E Hn]. split; auto. now apply tree_edges, treef_edges.
Qed.
Example C142_case : reachable Binary64 (f_ofZ 1) plain treef /\ @fresh_atom Binary64 double double treef /\ loop_free (joined_by treef) /\
  freqf (runf treef [OEnforce Binary64]) 0 = Some (S754_finite false 7205759403792795 (-55)) /\ f_ofQ (2 # 10) = S754_finite false 7205759403792794 (-55) /\
  s_warn (runf treef [OEnforce Binary64]) = [].
Proof.
  split; [apply fromf_reachable|]. split; [apply freshb_ok; vm_compute; reflexivity|]. split; [apply treef_loop_free|].
  split; [vm_compute; reflexivity|]. split; vm_compute; reflexivity.
Qed.
