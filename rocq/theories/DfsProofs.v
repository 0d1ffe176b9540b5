(** Depth-first search: the edges form a tree grown from the root, everything
    reachable is visited, and the fuel given by the model always suffices. *)
From Coq Require Import List Bool ZArith Lia String Permutation.
From Verif Require Import Base Graph GraphProofs.
Import ListNotations.

Lemma mem_In : forall x l, mem x l = true <-> In x l.
Proof.
  intros. unfold mem. rewrite existsb_exists. split.
  - intros [y [I E]]. apply String.eqb_eq in E. now subst.
  - intros I. exists x. split; auto. apply String.eqb_refl.
Qed.
Lemma mem_false : forall x l, mem x l = false <-> ~ In x l.
Proof. intros. rewrite <- mem_In. destruct (mem x l); split; congruence. Qed.

Section Dfs.
  Context (next : string -> list string).

  (** [grow V es V']: starting from the visited nodes [V], the edges [es] each
      lead from a visited node to a new neighbour of it; [V'] is visited then. *)
  Inductive grow : list string -> list (string * string) -> list string -> Prop :=
  | grow_nil : forall V, grow V [] V
  | grow_cons : forall V u v es V', In u V -> ~ In v V -> In v (next u) -> grow (v :: V) es V' -> grow V ((u, v) :: es) V'.

  Lemma grow_app : forall V es V1 es' V2, grow V es V1 -> grow V1 es' V2 -> grow V (es ++ es') V2.
  Proof. induction 1; simpl; intros; auto. econstructor; eauto. Qed.

  Lemma grow_visited : forall V es V', grow V es V' -> V' = rev (map snd es) ++ V.
  Proof. induction 1; simpl; auto. rewrite IHgrow. now rewrite <- app_assoc. Qed.

  Lemma grow_incl : forall V es V', grow V es V' -> incl V V'.
  Proof. intros V es V' G. rewrite (grow_visited _ _ _ G). intros x I. apply in_app_iff. auto. Qed.

  Lemma grow_In : forall V es V' w, grow V es V' -> (In w V' <-> In w V \/ In w (map snd es)).
  Proof.
    intros V es V' w G. rewrite (grow_visited _ _ _ G), in_app_iff, <- in_rev. tauto.
  Qed.

  Lemma grow_edge : forall V es V' u v, grow V es V' -> In (u, v) es -> In v (next u) /\ In u V' /\ In v V' /\ ~ In v V.
  Proof.
    induction 1 as [|V u0 v0 es V' Iu Nv Nx G IH]; simpl; [tauto|]. intros [E|I].
    - injection E as -> ->. repeat split; auto.
      + apply (grow_incl _ _ _ G). simpl. auto.
      + apply (grow_incl _ _ _ G). simpl. auto.
    - destruct (IH I) as [H1 [H2 [H3 H4]]]. repeat split; auto. intros J. apply H4. simpl. auto.
  Qed.

  Lemma grow_nodup : forall V es V', grow V es V' -> NoDup V -> NoDup V'.
  Proof. induction 1; auto. intros. apply IHgrow. constructor; auto. Qed.

  (** The loop inside [dfs]. *)
  Fixpoint dfs_go (rec : string -> list string -> option (list (string * string) * list string)) (u : string)
      (cs : list string) (vis : list string) : option (list (string * string) * list string) :=
    match cs with
    | [] => Some ([], vis)
    | c :: cs' =>
        if mem c vis then dfs_go rec u cs' vis
        else match rec c (c :: vis) with
             | None => None
             | Some (es, vis1) =>
                 match dfs_go rec u cs' vis1 with
                 | None => None
                 | Some (es', vis2) => Some (((u, c) :: es) ++ es', vis2)
                 end
             end
    end.

  Lemma dfs_S : forall fuel u vis, dfs (S fuel) next u vis = dfs_go (dfs fuel next) u (next u) vis.
  Proof.
    intros. cbn [dfs]. generalize (next u). intros cs. revert vis. induction cs as [|c cs IH]; intros vis; cbn [dfs_go]; auto.
    destruct (mem c vis); auto. destruct (dfs fuel next c (c :: vis)) as [[es vis1]|]; auto. now rewrite IH.
  Qed.

  (** Everything next to what was newly visited is visited. *)
  Definition closed_over (vis vis' : list string) (w : string) : Prop := forall v, In v (next w) -> In v vis'.

  Lemma dfs_spec : forall fuel u vis es vis', dfs fuel next u vis = Some (es, vis') -> In u vis ->
    grow vis es vis' /\ (forall w, w = u \/ (In w vis' /\ ~ In w vis) -> incl (next w) vis').
  Proof.
    induction fuel as [|fuel IH]; [discriminate|]. intros u vis es vis' E Iu. rewrite dfs_S in E.
    assert (Go : forall cs vis es vis', dfs_go (dfs fuel next) u cs vis = Some (es, vis') -> In u vis -> incl cs (next u) ->
      grow vis es vis' /\ incl cs vis' /\ (forall w, In w vis' -> ~ In w vis -> incl (next w) vis')).
    { clear vis es vis' E Iu. induction cs as [|c cs IHc]; intros vis es vis' E Iu Hc; cbn [dfs_go] in E.
      - injection E as <- <-. split; [constructor|]. split; [intros w []|]. intros w I1 I2. contradiction.
      - destruct (mem c vis) eqn:Mc.
        + destruct (IHc _ _ _ E Iu) as [G [C1 C2]]; [intros z Iz; apply Hc; simpl; auto|]. split; auto. split; auto.
          intros z [<-|Iz]; auto. apply (grow_incl _ _ _ G). now apply mem_In.
        + destruct (dfs fuel next c (c :: vis)) as [[es1 vis1]|] eqn:E1; [|discriminate].
          destruct (dfs_go (dfs fuel next) u cs vis1) as [[es2 vis2]|] eqn:E2; [|discriminate]. injection E as <- <-.
          destruct (IH _ _ _ _ E1 (or_introl eq_refl)) as [G1 C1].
          assert (Iu1 : In u vis1) by (apply (grow_incl _ _ _ G1); simpl; auto).
          destruct (IHc _ _ _ E2 Iu1) as [G2 [C2 C3]]; [intros z Iz; apply Hc; simpl; auto|].
          apply mem_false in Mc. split; [|split].
          * simpl. constructor; auto; [apply Hc; simpl; auto|]. eapply grow_app; eauto.
          * intros z [<-|Iz]; auto. apply (grow_incl _ _ _ G2), (grow_incl _ _ _ G1). simpl. auto.
          * intros w Iw Nw. destruct (in_dec string_dec w vis1) as [I1|N1]; [|now apply C3].
            intros z Iz. apply (grow_incl _ _ _ G2).
            destruct (string_dec w c) as [->|Hw]; [apply (C1 c); auto|].
            apply (C1 w); auto. right. split; auto. intros [E|I]; congruence. }
    destruct (Go _ _ _ _ E Iu (incl_refl _)) as [G [C1 C2]]. split; auto.
    intros w [->|[I1 I2]]; auto.
  Qed.

  (** Fuel. *)
  Definition unvisited (U vis : list string) : nat := List.length (filter (fun w => negb (mem w vis)) U).

  Lemma unvisited_len : forall U vis, (unvisited U vis <= List.length U)%nat.
  Proof. intros U vis. unfold unvisited. induction U as [|w U IH]; simpl; auto. destruct (negb _); simpl; lia. Qed.

  Lemma unvisited_le : forall U vis vis', incl vis vis' -> (unvisited U vis' <= unvisited U vis)%nat.
  Proof.
    intros U vis vis' H. unfold unvisited. induction U as [|w U IH]; simpl; auto.
    destruct (mem w vis) eqn:E1; simpl.
    - assert (mem w vis' = true) as -> by (apply mem_In, H, mem_In; auto). auto.
    - destruct (mem w vis'); simpl; lia.
  Qed.

  Lemma unvisited_lt : forall U vis c, In c U -> ~ In c vis -> (unvisited U (c :: vis) < unvisited U vis)%nat.
  Proof.
    intros U vis c I Nc. induction U as [|w U IH]; [contradiction|]. unfold unvisited. simpl.
    destruct I as [->|I].
    - rewrite String.eqb_refl. simpl. apply mem_false in Nc. rewrite Nc. simpl.
      pose proof (unvisited_le U vis (c :: vis)) as H. unfold unvisited in H. simpl in H.
      assert (incl vis (c :: vis)) by (intros z Iz; simpl; auto). specialize (H H0). lia.
    - specialize (IH I). unfold unvisited in IH. simpl in IH.
      destruct (String.eqb w c); simpl; destruct (mem w vis); simpl; lia.
  Qed.

  Lemma dfs_fuel : forall U, (forall w, In w U -> incl (next w) U) -> forall fuel u vis, In u U ->
    (unvisited U vis <= fuel)%nat -> dfs (S fuel) next u vis <> None.
  Proof.
    intros U HU. induction fuel as [|fuel IH]; intros u vis Iu L; rewrite dfs_S.
    - assert (V : forall w, In w U -> In w vis).
      { intros w Iw. apply mem_In. destruct (mem w vis) eqn:E; auto. exfalso.
        pose proof (unvisited_lt U vis w Iw). apply mem_false in E. specialize (H E). lia. }
      assert (G : forall cs, incl cs U -> dfs_go (dfs 0 next) u cs vis = Some ([], vis)).
      { induction cs as [|c cs IHc]; intros Hc; simpl; auto.
        assert (mem c vis = true) as -> by (apply mem_In, V, Hc; simpl; auto). apply IHc. intros z Iz. apply Hc. simpl. auto. }
      rewrite G; [discriminate|]. now apply HU.
    - assert (G : forall cs vis, incl cs U -> (unvisited U vis <= S fuel)%nat -> dfs_go (dfs (S fuel) next) u cs vis <> None).
      { induction cs as [|c cs IHc]; intros vis' Hc Lv; cbn [dfs_go]; [discriminate|].
        destruct (mem c vis') eqn:Mc; [apply IHc; auto; intros z Iz; apply Hc; simpl; auto|].
        apply mem_false in Mc. assert (Ic : In c U) by (apply Hc; simpl; auto).
        pose proof (unvisited_lt U vis' c Ic Mc) as Lt.
        destruct (dfs (S fuel) next c (c :: vis')) as [[es1 vis1]|] eqn:E1; [|exfalso; revert E1; apply IH; auto; lia].
        destruct (dfs_spec _ _ _ _ _ E1 (or_introl eq_refl)) as [G1 _].
        assert (L1 : (unvisited U vis1 <= S fuel)%nat).
        { pose proof (unvisited_le U (c :: vis') vis1 (grow_incl _ _ _ G1)). lia. }
        specialize (IHc vis1). destruct (dfs_go (dfs (S fuel) next) u cs vis1) as [[]|]; [discriminate|].
        exfalso. apply IHc; auto. intros z Iz; apply Hc; simpl; auto. }
      apply G; auto.
  Qed.

  (** ** Components *)

  Inductive reach (u : string) : string -> Prop :=
  | reach_refl : reach u u
  | reach_step : forall w v, reach u w -> In v (next w) -> reach u v.

  Lemma reach_trans : forall u v w, reach u v -> reach v w -> reach u w.
  Proof. intros u v w A B. induction B; auto. econstructor; eauto. Qed.

  Lemma grow_reach : forall V es V' u, grow V es V' -> (forall w, In w V -> reach u w) -> forall w, In w V' -> reach u w.
  Proof.
    induction 1 as [|V u0 v0 es V' Iu Nv Nx G IH]; intros H; auto. apply IH. intros w [<-|I]; auto.
    econstructor; eauto.
  Qed.

  Lemma dfs_reach : forall fuel u es vis, dfs fuel next u [u] = Some (es, vis) -> forall w, In w vis <-> reach u w.
  Proof.
    intros fuel u es vis E w. destruct (dfs_spec _ _ _ _ _ E (or_introl eq_refl)) as [G C]. split.
    - apply (grow_reach _ _ _ u G). intros z [<-|[]]. constructor.
    - induction 1 as [|w v R IH Iv]; [apply (grow_incl _ _ _ G); simpl; auto|].
      destruct (string_dec w u) as [->|Hw]; [apply (C u); auto|].
      apply (C w); auto. right. split; auto. intros [E'|[]]; congruence.
  Qed.

  (** The components are the classes of reachability of the nodes [ns]. *)
  Lemma components_spec : forall fuel ns seen cs, components fuel next ns seen = Some cs ->
    (forall c, In c cs -> exists n es, In n ns /\ ~ In n seen /\ dfs fuel next n [n] = Some (es, c)) /\
    (forall n, In n ns -> In n seen \/ exists c, In c cs /\ In n c).
  Proof.
    induction ns as [|n ns IH]; intros seen cs E; cbn [components] in E.
    - injection E as <-. split; intros ? [].
    - destruct (mem n seen) eqn:Mn.
      + destruct (IH _ _ E) as [H1 H2]. split.
        * intros c Ic. destruct (H1 c Ic) as [m [es [Im Hm]]]. exists m, es. split; [right|]; auto.
        * intros m [<-|Im]; [left; now apply mem_In|]. auto.
      + destruct (dfs fuel next n [n]) as [[es c]|] eqn:Ed; [|discriminate].
        destruct (components fuel next ns (c ++ seen)) as [cs'|] eqn:Ec; [|discriminate]. injection E as <-.
        destruct (IH _ _ Ec) as [H1 H2]. apply mem_false in Mn. split.
        * intros c' [<-|Ic]; [exists n, es; repeat split; simpl; auto|].
          destruct (H1 c' Ic) as [m [es' [Im [Nm Hm]]]]. exists m, es'. split; [right; auto|]. split; auto.
          intros I. apply Nm, in_app_iff. auto.
        * intros m [<-|Im].
          -- right. exists c. split; [left; auto|]. apply (dfs_reach _ _ _ _ Ed). constructor.
          -- destruct (H2 m Im) as [I|[c' [I1 I2]]].
             ++ apply in_app_iff in I as [I|I]; auto. right. exists c. split; [left; auto|auto].
             ++ right. exists c'. split; [right; auto|auto].
  Qed.

  Lemma components_fuel : forall U fuel, (forall w, In w U -> incl (next w) U) -> (List.length U <= fuel)%nat ->
    forall ns seen, incl ns U -> components (S fuel) next ns seen <> None.
  Proof.
    intros U fuel HU L. induction ns as [|n ns IH]; intros seen Hn; cbn [components]; [discriminate|].
    assert (Hn' : incl ns U) by (intros z Iz; apply Hn; simpl; auto).
    destruct (mem n seen); auto.
    assert (F : dfs (S fuel) next n [n] <> None).
    { apply (dfs_fuel U HU); [apply Hn; simpl; auto|]. unfold unvisited.
      assert (Lf : forall f (l : list string), (List.length (filter f l) <= List.length l)%nat).
      { intros f l. induction l; simpl; auto. destruct (f a); simpl; lia. }
      etransitivity; [apply Lf|auto]. }
    destruct (dfs (S fuel) next n [n]) as [[es c]|]; [|congruence].
    specialize (IH (c ++ seen) Hn'). destruct (components (S fuel) next ns (c ++ seen)); [discriminate|congruence].
  Qed.
End Dfs.

(** Permuting the neighbours does not change what is reachable. *)
Lemma reach_perm : forall next next' u w, (forall v, incl (next v) (next' v)) -> reach next u w -> reach next' u w.
Proof. intros next next' u w H. induction 1; [constructor|]. econstructor; eauto. now apply H. Qed.

Lemma reach_sym : forall next, (forall u v, In v (next u) -> In u (next v)) -> forall u v, reach next u v -> reach next v u.
Proof.
  intros next S u v R. induction R as [|w v R IH I]; [constructor|].
  eapply reach_trans; [|exact IH]. eapply reach_step; [apply reach_refl|]. auto.
Qed.

(** Distinct components are disjoint when neighbourhood is symmetric. *)
Lemma components_disjoint : forall next fuel ns seen cs, (forall u v, In v (next u) -> In u (next v)) ->
  (forall u v, In u seen -> In v (next u) -> In v seen) ->
  components fuel next ns seen = Some cs ->
  (forall c w, In c cs -> In w c -> ~ In w seen) /\
  (forall i j c c' w, nth_error cs i = Some c -> nth_error cs j = Some c' -> In w c -> In w c' -> i = j).
Proof.
  intros next fuel. induction ns as [|n ns IH]; intros seen cs S C E; cbn [components] in E.
  - injection E as <-. split; [intros c w []|]. intros [|i] j c c' w Hi; discriminate.
  - destruct (mem n seen) eqn:Mn; [eauto|]. apply mem_false in Mn.
    destruct (dfs fuel next n [n]) as [[es c0]|] eqn:Ed; [|discriminate].
    destruct (components fuel next ns (c0 ++ seen)) as [cs'|] eqn:Ec; [|discriminate]. injection E as <-.
    assert (Cr : forall u v, reach next u v -> In u seen -> In v seen).
    { intros u v R. induction R; auto. intros I. apply (C w); auto. }
    assert (Cc : forall u v, In u (c0 ++ seen) -> In v (next u) -> In v (c0 ++ seen)).
    { intros u v I Iv. apply in_app_iff in I as [I|I]; apply in_app_iff; [left|right; eapply C; eauto].
      apply (dfs_reach _ _ _ _ _ Ed). apply (dfs_reach _ _ _ _ _ Ed) in I. econstructor; eauto. }
    destruct (IH _ _ S Cc Ec) as [H1 H2].
    assert (D0 : forall w, In w c0 -> ~ In w seen).
    { intros w I J. apply Mn. apply (Cr w); auto. apply (reach_sym _ S). now apply (dfs_reach _ _ _ _ _ Ed). }
    assert (D1 : forall c w, In c cs' -> In w c -> ~ In w c0).
    { intros c w I J K. apply (H1 c w I J), in_app_iff. auto. }
    split.
    + intros c w [<-|I] J; auto. intros K. apply (H1 c w I J), in_app_iff. auto.
    + intros [|i] [|j] c c' w Hi Hj I J; simpl in Hi, Hj; auto.
      * injection Hi as <-. apply nth_error_In in Hj. exfalso. eapply D1; eauto.
      * injection Hj as <-. apply nth_error_In in Hi. exfalso. eapply D1; eauto.
      * f_equal. eapply H2; eauto.
Qed.
