(** Properties C131-C133 and a further refutation of C71: what a diagram draws. *)
From Coq Require Import List Bool ZArith QArith Qcanon Lia String Arith.
From Verif Require Import Base PyStr Util Term Num Hyperfine Graph Rules Atom AtomInv AtomSafe6 AtomExample AtomLevels Grotrian GrotrianProofs Render PropRender.
Import ListNotations.
Local Open Scope Qc_scope.

(** [ts]: the tables of the prompts, each computed after the previous one. *)
Inductive tables (muB : Qc) : list prompt -> st Exact -> list (list row) -> st Exact -> Prop :=
| tables_nil : forall s, tables muB [] s [] s
| tables_cons : forall p ps k s t s1 ts s2, pr_strategy p = Some k -> table muB k (pr_level p) (pr_opts p) s = (Ok t, s1) ->
    tables muB ps s1 ts s2 -> tables muB (p :: ps) s (t :: ts) s2.
(** The rows of a table in the style of its prompt. *)
Definition styled (ps : list prompt) (ts : list (list row)) : list srow :=
  List.concat (map (fun pt => map (fun r => (r, pr_style (fst pt))) (snd pt)) (combine ps ts)).
(** A line in its own colour and width. *)
Definition own_seg (r : row) (c : style) : seg := mkSeg (r_p0 r) (r_p1 r) (get black (st_color c)) (get (qc 2) (st_lw c)).

Lemma build_tables : forall muB ps ls s ls' s', build muB ps ls s = (Ok tt, ls', s') -> exists ts, tables muB ps s ts s' /\ ls' = ls ++ styled ps ts.
Proof.
  intros muB. induction ps as [|p ps IH]; intros ls s ls' s' E; cbn [build] in E.
  - injection E as <- <-. exists []. split; [constructor|]. unfold styled. cbn. now rewrite app_nil_r.
  - destruct (pr_strategy p) as [k|] eqn:K; [|discriminate E]. destruct (table muB k (pr_level p) (pr_opts p) s) as [[t|e] s1] eqn:T; [|discriminate E].
    destruct (IH _ _ _ _ E) as [ts [H ->]]. exists (t :: ts). split; [econstructor; eauto|].
    unfold styled. cbn [combine map List.concat fst snd]. now rewrite <- app_assoc.
Qed.
Lemma styled_rows : forall muB ps s ts s', tables muB ps s ts s' -> map fst (styled ps ts) = List.concat ts.
Proof.
  intros muB ps s ts s' T. induction T as [|p ps k s t s1 ts s2 K E T IH]; auto. unfold styled in *. cbn [combine map List.concat fst snd].
  rewrite map_app, map_map, IH. cbn [fst]. now rewrite map_id.
Qed.
Lemma render_inv : forall muB known d s pic d' s', render_all muB known d s = (Ok pic, d', s') ->
  exists ts s1, tables muB (d_levels d) s ts s1 /\ d' = mkDiagram (d_levels d) (d_lines d ++ styled (d_levels d) ts) (d_trans d) /\
    pc_segs pic = level_collection (d_lines d') /\ pc_rects pic = flat_map row_rect (d_lines d') /\ pc_brackets pic = bracket_collection (d_lines d') /\
    mapM (draw_arrow known (map fst (d_lines d'))) (d_trans d) s1 = (Ok (pc_arrows pic), s').
Proof.
  intros muB known d s pic d' s' E. unfold render_all in E. destruct (build muB (d_levels d) (d_lines d) s) as [[[[]|e] ls] s1] eqn:B; [|discriminate E].
  destruct (build_tables _ _ _ _ _ _ B) as [ts [T ->]].
  destruct (mapM _ _ s1) as [[ar|e] s2] eqn:A; [|discriminate E]. injection E as <- <- <-. exists ts, s1. cbn [pc_segs pc_rects pc_brackets pc_arrows d_lines].
  repeat (split; [auto|]). exact A.
Qed.

(** ** Collections *)

Lemma number_at : forall A (l : list A) i k x, In (k, x) (number i l) <-> exists j, k = (i + j)%nat /\ nth_error l j = Some x.
Proof.
  intros A. induction l as [|y l IH]; intros i k x; cbn [number].
  - split; [intros []|]. intros [[|j] [_ E]]; discriminate E.
  - cbn [In]. rewrite IH. split.
    + intros [E|[j [-> E]]]; [injection E as -> ->; exists 0%nat; split; auto; lia|exists (S j); split; auto; lia].
    + intros [[|j] [-> E]]; [left; injection E as ->; f_equal; lia|right; exists j; split; auto; lia].
Qed.
Lemma number_map : forall A B (f : A -> B) l i, number i (map f l) = map (fun p => (fst p, f (snd p))) (number i l).
Proof. intros A B f. induction l as [|x l IH]; intros i; auto. cbn [number map fst snd]. now rewrite IH. Qed.
Lemma nth_number : forall A (l : list A) i j, nth_error (number i l) j = option_map (fun x => ((i + j)%nat, x)) (nth_error l j).
Proof.
  intros A. induction l as [|x l IH]; intros i [|j]; cbn [number nth_error option_map]; auto; [now rewrite Nat.add_0_r|].
  rewrite IH. destruct (nth_error l j); cbn [option_map]; auto. do 2 f_equal. lia.
Qed.
Lemma number_len : forall A (l : list A) i, List.length (number i l) = List.length l.
Proof. intros A. induction l as [|x l IH]; intros i; cbn [number List.length]; auto. Qed.
Lemma turn_at : forall A (d : A) l i x, nth_error l i = Some x -> turn d l i = x.
Proof.
  intros A d l i x E. assert (H : (i < List.length l)%nat) by (apply nth_error_Some; congruence).
  unfold turn. rewrite Nat.mod_small by auto. now apply nth_error_nth.
Qed.
Lemma nth_ext' : forall A (l l' : list A), (forall i, nth_error l i = nth_error l' i) -> l = l'.
Proof.
  intros A. induction l as [|x l IH]; intros [|y l'] H; auto; [specialize (H 0%nat); discriminate H|specialize (H 0%nat); discriminate H|].
  pose proof (H 0%nat) as E. injection E as ->. f_equal. apply IH. intros i. exact (H (S i)).
Qed.
Lemma collection_own : forall rs, level_collection rs = map (fun r => own_seg (fst r) (snd r)) (filter (fun r => r_show (fst r)) rs).
Proof.
  intros rs. unfold level_collection. cbv zeta. unfold srow. generalize (filter (fun r : row * style => r_show (fst r)) rs). intros vs. apply nth_ext'. intros i.
  rewrite number_map, map_map. rewrite !nth_error_map, nth_number. destruct (nth_error vs i) as [r|] eqn:E; [|reflexivity]. cbn [option_map fst snd].
  rewrite (turn_at _ black (map (fun r => get black (st_color (snd r))) vs) (0 + i) (get black (st_color (snd r)))) by (rewrite nth_error_map; cbn [Nat.add]; rewrite E; reflexivity).
  rewrite (turn_at _ (qc 2) (map (fun r => get (qc 2) (st_lw (snd r))) vs) (0 + i) (get (qc 2) (st_lw (snd r)))) by (rewrite nth_error_map; cbn [Nat.add]; rewrite E; reflexivity).
  reflexivity.
Qed.

Definition shown (ps : list prompt) (ts : list (list row)) : list seg :=
  List.concat (map (fun pt => map (fun r => own_seg r (pr_style (fst pt))) (filter r_show (snd pt))) (combine ps ts)).
Lemma shown_styled : forall ps ts, level_collection (styled ps ts) = shown ps ts.
Proof.
  intros ps ts. rewrite collection_own. unfold styled, shown. induction (combine ps ts) as [|[p t] l IH]; auto.
  cbn [map List.concat fst snd]. rewrite filter_app, map_app, IH. f_equal.
  induction t as [|r t IHt]; auto. cbn [map filter fst]. destruct (r_show r); cbn [map fst snd]; now rewrite IHt.
Qed.
Lemma collection_app : forall l l', level_collection (l ++ l') = level_collection l ++ level_collection l'.
Proof. intros l l'. rewrite !collection_own, filter_app, map_app. reflexivity. Qed.

(** C131.  The first picture of a diagram: the visible rows of the table of
    every prompt, in the colour and width of the prompt, black and 2 by default. *)
Theorem C131_lines : forall muB known d s pic d' s', d_lines d = [] -> render_all muB known d s = (Ok pic, d', s') ->
  exists ts s1, tables muB (d_levels d) s ts s1 /\ pc_segs pic = shown (d_levels d) ts /\
    List.length (pc_arrows pic) = List.length (d_trans d).
Proof.
  intros muB known d s pic d' s' L E. destruct (render_inv _ _ _ _ _ _ _ E) as [ts [s1 [T [-> [P [_ [_ A]]]]]]]. exists ts, s1. split; auto.
  cbn [d_lines] in P. rewrite L in P. cbn [app] in P. rewrite shown_styled in P. split; auto.
  clear - A. revert A. generalize (pc_arrows pic). generalize (map fst (d_lines (mkDiagram (d_levels d) (d_lines d ++ styled (d_levels d) ts) (d_trans d)))).
  intros rs. revert s1. induction (d_trans d) as [|x l IH]; intros s1 ar A; cbn [mapM] in A.
  - unfold ret in A. injection A as <- _. reflexivity.
  - unfold bind in A. destruct (draw_arrow known rs x s1) as [[v|e] s2]; [|discriminate A].
    destruct (mapM (draw_arrow known rs) l s2) as [[vs|e] s3] eqn:Q; [|discriminate A]. unfold ret in A. injection A as <- <-. cbn [List.length]. f_equal. eauto.
Qed.
Print Assumptions C131_lines.

(** A name that is no strategy is only noticed when the diagram is drawn. *)
Theorem C131_unknown_refuted : forall muB known a name o c d s, named_strategy name = None ->
  exists e d' s', render_all muB known (add_level a name o c d) s = (Raise e, d', s').
Proof.
  intros muB known a name o c d s H. unfold render_all, add_level. cbn [d_levels d_lines d_trans].
  assert (B : forall ps ls s, exists e ls' s', build muB (ps ++ [mkPrompt a (named_strategy name) o c]) ls s = (Raise e, ls', s')).
  { induction ps as [|p ps IH]; intros ls s0; cbn [app build].
    - cbn [pr_strategy]. rewrite H. eauto.
    - destruct (pr_strategy p) as [k|]; eauto. destruct (table muB k (pr_level p) (pr_opts p) s0) as [[t|e] s1]; eauto. }
  destruct (B (d_levels d) (d_lines d) s) as [e [ls' [s' ->]]]. eauto.
Qed.
Print Assumptions C131_unknown_refuted.

(** The names of the strategies, and what a diagram of one level shows. *)
Definition documented : list (option string * strategy) :=
  [(None, SGross); (Some "g", SGross); (Some "gross", SGross); (Some "hf", SHyperfine); (Some "hyperfine", SHyperfine);
   (Some "z", SZeeman); (Some "zeeman", SZeeman)]%string.
Theorem C131_names : forall muB known a name k o c s pic d' s', In (name, k) documented ->
  render_all muB known (add_level a name o c new_diagram) s = (Ok pic, d', s') ->
  exists t, table muB k a o s = (Ok t, s') /\ pc_segs pic = map (fun r => own_seg r c) (filter r_show t).
Proof.
  intros muB known a name k o c s pic d' s' I E. destruct (render_inv _ _ _ _ _ _ _ E) as [ts [s1 [T [-> [P [_ [_ A]]]]]]].
  unfold add_level, new_diagram in *. cbn [d_levels d_lines d_trans app] in *. cbn [mapM] in A. unfold ret in A. injection A as _ <-.
  assert (K : named_strategy name = Some k).
  { repeat (destruct I as [I|I]; [injection I as <- <-; reflexivity|]). destruct I. }
  inversion T as [|p ps k' s0 t s2 ts' s3 K' E' T']; subst. inversion T'; subst. cbn [pr_strategy pr_level pr_opts] in *.
  rewrite K in K'. injection K' as <-. exists t. split; auto.
  rewrite shown_styled in P. rewrite P. unfold shown. cbn. now rewrite ?app_nil_r.
Qed.
Print Assumptions C131_names.

(** Arrows are drawn in the order in which the transitions were added. *)
Lemma mapM_snoc : forall A B (f : A -> M Exact B) l x s, Grotrian.mapM f (l ++ [x]) s =
  match Grotrian.mapM f l s with
  | (Ok r, s1) => match f x s1 with (Ok y, s2) => (Ok (r ++ [y]), s2) | (Raise e, s2) => (Raise e, s2) end
  | (Raise e, s1) => (Raise e, s1)
  end.
Proof.
  intros A B f. induction l as [|a l IH]; intros x s; cbn [app Grotrian.mapM].
  - unfold bind, ret. destruct (f x s) as [[y|e] s2]; reflexivity.
  - unfold bind. destruct (f a s) as [[y|e] s1]; [|reflexivity]. rewrite IH.
    destruct (Grotrian.mapM f l s1) as [[r|e] s2]; [|reflexivity]. unfold ret. destruct (f x s2) as [[z|e] s3]; reflexivity.
Qed.
Theorem C131_arrows : forall muB known t k d s pic d' s', render_all muB known (add_transition t k d) s = (Ok pic, d', s') ->
  exists pic0 d0 s0 p, render_all muB known d s = (Ok pic0, d0, s0) /\ pc_arrows pic = pc_arrows pic0 ++ [p] /\
    pc_segs pic = pc_segs pic0 /\ pc_rects pic = pc_rects pic0 /\ pc_brackets pic = pc_brackets pic0 /\
    arrow (map fst (d_lines d')) t (ak_n0 k) (ak_n1 k) (ak_off0 k) (ak_off1 k) (get (None, None) (ak_over k)) s0 = (Ok p, s').
Proof.
  intros muB known t k d s pic d' s' E. unfold render_all, add_transition in *. cbn [d_levels d_lines d_trans] in *.
  destruct (build muB (d_levels d) (d_lines d) s) as [[[[]|e] ls] s1]; [|discriminate E]. rewrite mapM_snoc in E.
  destruct (Grotrian.mapM (draw_arrow known (map fst ls)) (d_trans d) s1) as [[ar|e] s2]; [|discriminate E].
  destruct (draw_arrow known (map fst ls) (t, k) s2) as [[p|e] s3] eqn:Dr; [|discriminate E]. injection E as <- <- <-.
  eexists _, _, s2, p. split; [reflexivity|]. cbn [pc_arrows pc_segs pc_rects pc_brackets d_lines]. do 4 (split; [reflexivity|]).
  unfold draw_arrow, bind in Dr. cbn [fst snd] in Dr. destruct (arrow _ _ _ _ _ _ _ s2) as [[q|e] s4]; [|discriminate Dr].
  destruct (forallb _ _); unfold ret, raise in Dr; [|discriminate Dr]. injection Dr as -> ->. reflexivity.
Qed.
Print Assumptions C131_arrows.

(** ** Boxes *)

Definition of_kind (p : string -> bool) (r : srow) : bool := match r_bbox (fst r) with Some s => p s | None => false end.
Definition wants_rect : srow -> bool := of_kind (fun s => String.eqb s "rect" || String.eqb s "rectangle").
Definition wants_bracket : srow -> bool := of_kind (String.eqb "bracket").
Lemma of_kind_eq : forall s, String.eqb "bracket" s = String.eqb s "bracket".
Proof. intros s. apply String.eqb_sym. Qed.

(** C132.  One rectangle per row that wants one; it covers the box. *)
Theorem C132_rectangles : forall muB known d s pic d' s', render_all muB known d s = (Ok pic, d', s') ->
  Forall2 (fun r c => let b := r_box (fst r) in rc_at c = (b_x0 b, b_y0 b) /\ (fst (rc_at c) + rc_w c, snd (rc_at c) + rc_h c) = (b_x1 b, b_y1 b) /\
     rc_alpha c = get (qc (1 # 5)) (st_alpha (snd r)) /\ rc_color c = st_rcolor (snd r) /\ rc_fill c = get true (st_fill (snd r)))
    (filter wants_rect (d_lines d')) (pc_rects pic).
Proof.
  intros muB known d s pic d' s' E. destruct (render_inv _ _ _ _ _ _ _ E) as [ts [s1 [_ [_ [_ [P _]]]]]]. rewrite P. clear P.
  induction (d_lines d') as [|r l IH]; cbn [filter flat_map]; [constructor|].
  unfold row_rect at 1, wants_rect at 1, of_kind, is_rect. destruct (r_bbox (fst r)) as [k|]; [|exact IH].
  destruct (String.eqb k "rect" || String.eqb k "rectangle"); [|exact IH]. constructor; [|exact IH].
  cbv zeta. cbn [rc_at rc_w rc_h rc_alpha rc_color rc_fill fst snd]. split; auto. split; [|auto]. f_equal; ring.
Qed.
Print Assumptions C132_rectangles.

(** Two polygons per row with brackets: the left side and the right side of its
    box with ticks of length [h] to the inside. *)
Definition sides_of (r : srow) : list (list pt) :=
  let b := r_box (fst r) in let h := get (qc (1 # 20)) (st_h (snd r)) in
  [[(b_x0 b + h, b_y0 b); (b_x0 b, b_y0 b); (b_x0 b, b_y1 b); (b_x0 b + h, b_y1 b)];
   [(b_x1 b - h, b_y0 b); (b_x1 b, b_y0 b); (b_x1 b, b_y1 b); (b_x1 b - h, b_y1 b)]].
Lemma bracket_rows : forall rs, flat_map row_brackets rs = flat_map sides_of (filter wants_bracket rs).
Proof.
  induction rs as [|r l IH]; auto. cbn [flat_map filter]. rewrite IH. unfold row_brackets, wants_bracket at 2, of_kind, is_rect.
  destruct (r_bbox (fst r)) as [k|]; auto. rewrite of_kind_eq. destruct (String.eqb_spec k "bracket") as [->|NE]; [reflexivity|].
  destruct (String.eqb k "rect" || String.eqb k "rectangle"); reflexivity.
Qed.
Theorem C132_brackets : forall muB known d s pic d' s', render_all muB known d s = (Ok pic, d', s') ->
  map pl_pts (pc_brackets pic) = flat_map sides_of (filter wants_bracket (d_lines d')) /\
  forall r h, In r (d_lines d') -> h = get (qc (1 # 20)) (st_h (snd r)) -> 0 <= h <= b_x1 (r_box (fst r)) - b_x0 (r_box (fst r)) ->
    b_y0 (r_box (fst r)) <= b_y1 (r_box (fst r)) -> forall l p, In l (sides_of r) -> In p l -> in_box (r_box (fst r)) p.
Proof.
  intros muB known d s pic d' s' E. destruct (render_inv _ _ _ _ _ _ _ E) as [ts [s1 [_ [_ [_ [_ [P _]]]]]]]. split.
  - rewrite P. unfold bracket_collection. rewrite map_map. cbn [pl_pts]. rewrite <- bracket_rows. clear.
    generalize 0%nat. induction (flat_map row_brackets (d_lines d')) as [|x l IH]; intros i; auto. cbn [number map fst snd]. now rewrite IH.
  - intros r h _ Eh [H1 H2] Hy l p Il Ip. unfold sides_of in Il. rewrite <- Eh in Il. unfold in_box. destruct (r_box (fst r)) as [x0 y0 x1 y1]. cbn [b_x0 b_y0 b_x1 b_y1] in *.
    assert (Hx : x0 <= x1). { apply Qcle_trans with (x0 + h); [rewrite <- (Qcplus_0_r x0) at 1; apply Qcplus_le_compat; [apply Qcle_refl|auto]|].
      replace x1 with (x0 + (x1 - x0)) by ring. apply Qcplus_le_compat; [apply Qcle_refl|auto]. }
    assert (A1 : x0 <= x0 + h) by (rewrite <- (Qcplus_0_r x0) at 1; apply Qcplus_le_compat; [apply Qcle_refl|auto]).
    assert (A2 : x0 + h <= x1) by (replace x1 with (x0 + (x1 - x0)) by ring; apply Qcplus_le_compat; [apply Qcle_refl|auto]).
    assert (A3 : x1 - h <= x1). { replace x1 with (x1 - h + h) at 2 by ring. rewrite <- (Qcplus_0_r (x1 - h)) at 1. apply Qcplus_le_compat; [apply Qcle_refl|auto]. }
    assert (A4 : x0 <= x1 - h). { replace x0 with (x0 + h - h) by ring. unfold Qcminus. apply Qcplus_le_compat; [auto|apply Qcle_refl]. }
    destruct Il as [<-|[<-|[]]]; destruct Ip as [<-|[<-|[<-|[<-|[]]]]]; cbn [fst snd]; repeat split; auto using Qcle_refl.
Qed.
Print Assumptions C132_brackets.

(** All brackets are drawn in one colour and width if the levels agree on them. *)
Theorem C132_colors_partial : forall muB known d s pic d' s' c w, render_all muB known d s = (Ok pic, d', s') ->
  (forall r, In r (d_lines d') -> r_bbox (fst r) <> None -> r_bbox (fst r) <> Some ""%string -> get shade (st_bcolor (snd r)) = c /\ get 1 (st_blw (snd r)) = w) ->
  forall p, In p (pc_brackets pic) -> pl_color p = c /\ pl_lw p = w.
Proof.
  intros muB known d s pic d' s' c w E H p I. destruct (render_inv _ _ _ _ _ _ _ E) as [ts [s1 [_ [_ [_ [_ [P _]]]]]]]. rewrite P in I.
  unfold bracket_collection in I. apply in_map_iff in I as [[i l] [<- I]]. cbn [pl_color pl_lw fst snd].
  assert (Q : exists r, In r (filter framed (d_lines d'))).
  { apply number_at in I as [j [_ I]]. apply nth_error_In in I. apply in_flat_map in I as [r [Ir I]]. exists r. apply filter_In. split; auto.
    unfold row_brackets in I. unfold framed. destruct (r_bbox (fst r)) as [k|]; [|destruct I]. destruct (String.eqb_spec k ""); [subst k; destruct I|reflexivity]. }
  assert (T : forall A (def v : A) f, (forall r, In r (filter framed (d_lines d')) -> f r = v) -> turn def (map f (filter framed (d_lines d'))) i = v).
  { intros A def v f Hf. unfold turn. destruct Q as [r0 Q]. set (l0 := map f _).
    assert (Hl : (0 < List.length l0)%nat) by (unfold l0; rewrite map_length; destruct (filter framed (d_lines d')); [destruct Q|cbn; lia]).
    pose proof (Nat.mod_upper_bound i (List.length l0) ltac:(lia)) as Hb. pose proof (nth_In l0 def Hb) as Hin.
    apply in_map_iff in Hin. destruct Hin as [r [Er Ir]]. rewrite <- Er. auto. }
  split; apply T; intros r Ir; apply filter_In in Ir as [Ir B]; apply H; auto; unfold framed in B; intros X; rewrite X in B; try (cbn in B); discriminate B.
Qed.
Print Assumptions C132_colors_partial.
(** Without further options for brackets they are black with opacity 4/5 and of
    width 1. *)
Corollary C132_default : forall muB known d s pic d' s', render_all muB known d s = (Ok pic, d', s') ->
  (forall r, In r (d_lines d') -> r_bbox (fst r) <> None -> st_bcolor (snd r) = None /\ st_blw (snd r) = None) ->
  forall p, In p (pc_brackets pic) -> pl_color p = [0; 0; 0; Q2Qc (4 # 5)]%Qc /\ pl_lw p = 1%Qc.
Proof.
  intros muB known d s pic d' s' E H. apply (C132_colors_partial muB known d s pic d' s' _ _ E).
  intros r I B _. destruct (H r I B) as [-> ->]. split; reflexivity.
Qed.
Print Assumptions C132_default.

(** False otherwise, for every diagram: the right bracket of the first level
    with brackets has the colour of the next level with a box. *)
Theorem C132_colors_refuted : forall muB known d s pic d' s', render_all muB known d s = (Ok pic, d', s') ->
  forall r0 r1 l, filter framed (d_lines d') = r0 :: r1 :: l -> wants_bracket r0 = true ->
  exists p, nth_error (pc_brackets pic) 1 = Some p /\ nth_error (sides_of r0) 1 = Some (pl_pts p) /\ pl_color p = get shade (st_bcolor (snd r1)).
Proof.
  intros muB known d s pic d' s' E r0 r1 l B W. destruct (render_inv _ _ _ _ _ _ _ E) as [ts [s1 [_ [_ [_ [_ [P _]]]]]]]. rewrite P.
  assert (F : forall rs, filter framed rs = r0 :: r1 :: l -> exists u, flat_map row_brackets rs = sides_of r0 ++ u).
  { induction rs as [|r rs IH]; intros Hf; [discriminate Hf|]. cbn [filter] in Hf. destruct (framed r) eqn:Hr.
    - injection Hf as -> Hf. rewrite bracket_rows. cbn [filter]. rewrite W. cbn [flat_map]. eauto.
    - destruct (IH Hf) as [u Hu]. exists u. cbn [flat_map]. rewrite Hu. replace (row_brackets r) with (@nil (list pt)); auto.
      unfold row_brackets. unfold framed in Hr. destruct (r_bbox (fst r)) as [k|]; auto. destruct (String.eqb_spec k ""); [subst k; reflexivity|discriminate Hr]. }
  destruct (F _ B) as [u Hu]. unfold bracket_collection. rewrite B, Hu. eexists. split; [reflexivity|]. split; [reflexivity|].
  cbn [pl_color fst snd]. apply turn_at. reflexivity.
Qed.
Print Assumptions C132_colors_refuted.

(** ** Drawing again *)

(** C133 is false: a diagram that was drawn before is drawn with all the lines
    of the earlier pictures. *)
Theorem C133_refuted : forall muB known d s pic d' s' s2 pic2 d2 s3, render_all muB known d s = (Ok pic, d', s') ->
  render_all muB known d' s2 = (Ok pic2, d2, s3) ->
  exists ts s4, tables muB (d_levels d) s2 ts s4 /\ pc_segs pic2 = pc_segs pic ++ shown (d_levels d) ts.
Proof.
  intros muB known d s pic d' s' s2 pic2 d2 s3 E1 E2. destruct (render_inv _ _ _ _ _ _ _ E1) as [ts [s1 [T [-> [P _]]]]].
  destruct (render_inv _ _ _ _ _ _ _ E2) as [ts2 [s4 [T2 [-> [P2 _]]]]]. cbn [d_lines d_levels] in *. exists ts2, s4. split; auto.
  rewrite P2, P, collection_app, shown_styled. reflexivity.
Qed.
Print Assumptions C133_refuted.

(** And the arrow between two gross levels stays where they were first drawn,
    whatever has happened to them since. *)
Lemma first_app : forall a l l', has_row a l = true -> first_box a (l ++ l') = first_box a l.
Proof.
  intros a l l'. unfold has_row, first_box. induction l as [|r l IH]; intros H; [discriminate H|]. cbn [existsb find app] in *.
  destruct (Nat.eqb (r_level r) a); auto.
Qed.
Theorem C133_stale_refuted : forall muB known d s pic d' s' s2 pic2 d2 s3, render_all muB known d s = (Ok pic, d', s') ->
  render_all muB known d' s2 = (Ok pic2, d2, s3) ->
  forall s4 t x lo up k, tr s4 t = Some x -> lv s4 (x_lo x) = Some lo -> lv s4 (x_up x) = Some up -> l_kind lo = LE -> l_kind up = LE ->
  In (x_lo x) (map (fun r => r_level (fst r)) (d_lines d')) -> In (x_up x) (map (fun r => r_level (fst r)) (d_lines d')) ->
  draw_arrow known (map fst (d_lines d2)) (t, k) s4 = draw_arrow known (map fst (d_lines d')) (t, k) s4.
Proof.
  intros muB known d s pic d' s' s2 pic2 d2 s3 E1 E2 s4 t x lo up k T Vl Vu Kl Ku Il Iu.
  destruct (render_inv _ _ _ _ _ _ _ E2) as [ts2 [s5 [_ [-> _]]]]. cbn [d_lines]. rewrite map_app.
  assert (H : forall a, In a (map (fun r => r_level (fst r)) (d_lines d')) -> has_row a (map fst (d_lines d')) = true).
  { intros a I. unfold has_row. apply existsb_exists. apply in_map_iff in I as [r [<- I]]. exists (fst r). split; [now apply in_map|apply Nat.eqb_refl]. }
  assert (P : forall a l n off o, lv s4 a = Some l -> l_kind l = LE -> In a (map (fun r => r_level (fst r)) (d_lines d')) ->
    level_pos (map fst (d_lines d') ++ map fst (styled (d_levels d') ts2)) a n off o s4 = level_pos (map fst (d_lines d')) a n off o s4 /\
    snd (level_pos (map fst (d_lines d')) a n off o s4) = s4).
  { intros a l n off o V K I. unfold level_pos. rewrite !(bind_Ok _ (get_lv a) _ s4 l s4) by (unfold get_lv, asks; now rewrite V).
    rewrite K, !(bind_Ok _ (manifold a) _ s4 a s4) by (eapply manifold_E; eauto). unfold of_res, try_pos. rewrite first_app by auto. auto. }
  destruct (P _ lo (ak_n0 k) (ak_off0 k) (fst (get (None, None) (ak_over k))) Vl Kl Il) as [P1 Q1].
  destruct (P _ up (ak_n1 k) (ak_off1 k) (snd (get (None, None) (ak_over k))) Vu Ku Iu) as [P2 Q2].
  unfold draw_arrow, arrow. cbv zeta. cbn [fst snd]. unfold bind, get_tr, asks. rewrite T. cbv beta iota.
  unfold srow in *. rewrite P1.
  destruct (level_pos (map fst (d_lines d')) (x_lo x) (ak_n0 k) (ak_off0 k) (fst (get (None, None) (ak_over k))) s4) as [[p|e] s6]; auto.
  cbn [snd] in Q1. subst s6. rewrite P2. reflexivity.
Qed.
Print Assumptions C133_stale_refuted.

(** A diagram that could not be drawn keeps the rows of the levels before the
    one that failed; drawing it again repeats them. *)
Theorem C133_failed_refuted : forall muB known d s e d' s', render_all muB known d s = (Raise e, d', s') ->
  exists ps ps' ts s1, d_levels d = ps ++ ps' /\ tables muB ps s ts s1 /\ d_lines d' = d_lines d ++ styled ps ts /\
    d_levels d' = d_levels d /\ d_trans d' = d_trans d /\
    match ps' with
    | [] => mapM (draw_arrow known (map fst (d_lines d'))) (d_trans d) s1 = (Raise e, s')
    | p :: _ => match pr_strategy p with Some k => table muB k (pr_level p) (pr_opts p) s1 = (Raise e, s') | None => e = TypeError /\ s' = s1 end
    end.
Proof.
  intros muB known d s e d' s' E. unfold render_all in E.
  assert (B : forall ps ls s e ls' s', build muB ps ls s = (Raise e, ls', s') ->
    exists p1 p p2 ts s1, ps = p1 ++ p :: p2 /\ tables muB p1 s ts s1 /\ ls' = ls ++ styled p1 ts /\
      match pr_strategy p with Some k => table muB k (pr_level p) (pr_opts p) s1 = (Raise e, s') | None => e = TypeError /\ s' = s1 end).
  { clear. induction ps as [|p ps IH]; intros ls s e ls' s' E; cbn [build] in E; [discriminate E|].
    destruct (pr_strategy p) as [k|] eqn:K.
    - destruct (table muB k (pr_level p) (pr_opts p) s) as [[t|e1] s1] eqn:T.
      + destruct (IH _ _ _ _ _ E) as [p1 [q [p2 [ts [s2 [-> [Ht [-> F]]]]]]]]. exists (p :: p1), q, p2, (t :: ts), s2.
        split; [reflexivity|]. split; [econstructor; eauto|]. split; auto. unfold styled. cbn [combine map List.concat fst snd]. now rewrite <- app_assoc.
      + injection E as <- <- <-. exists [], p, ps, [], s. repeat (split; [constructor || reflexivity|]). rewrite K.
        split; [unfold styled; cbn; now rewrite app_nil_r|exact T].
    - injection E as <- <- <-. exists [], p, ps, [], s. repeat (split; [constructor || reflexivity|]). rewrite K.
      split; [unfold styled; cbn; now rewrite app_nil_r|auto]. }
  destruct (build muB (d_levels d) (d_lines d) s) as [[[[]|e1] ls] s1] eqn:Bd.
  - destruct (build_tables _ _ _ _ _ _ Bd) as [ts [T ->]].
    destruct (mapM _ _ s1) as [[ar|e2] s2] eqn:A; [discriminate E|]. injection E as <- <- <-. exists (d_levels d), [], ts, s1.
    rewrite app_nil_r. cbn [d_lines d_levels d_trans]. auto 10.
  - injection E as <- <- <-. destruct (B _ _ _ _ _ _ Bd) as [p1 [p [p2 [ts [s2 [Ed [T [-> F]]]]]]]]. exists p1, (p :: p2), ts, s2.
    cbn [d_lines d_levels d_trans]. auto 10.
Qed.
Print Assumptions C133_failed_refuted.

(** C131: a keyword of an arrow that matplotlib does not know. *)
Theorem C131_keyword_refuted : forall muB known n d s t k, known n = false -> In (t, k) (d_trans d) -> In n (ak_rest k) ->
  exists e d' s', render_all muB known d s = (Raise e, d', s').
Proof.
  intros muB known n d s t k Hk I Ho. unfold render_all. destruct (build muB (d_levels d) (d_lines d) s) as [[[[]|e] ls] s1]; [|eauto].
  assert (A : forall rs l s, In (t, k) l -> exists e s', mapM (draw_arrow known rs) l s = (Raise e, s')).
  { intros rs. induction l as [|x l IH]; intros s0 []; cbn [mapM]; unfold bind.
    - subst x. unfold draw_arrow, bind. cbn [fst snd]. destruct (arrow _ _ _ _ _ _ _ s0) as [[v|e] s2]; [|eauto].
      destruct (forallb known _) eqn:Fb; [exfalso|unfold raise; eauto]. rewrite forallb_forall in Fb.
      rewrite (Fb n) in Hk; [discriminate|]. destruct (ak_over k); [right|]; auto.
    - destruct (draw_arrow known rs x s0) as [[v|e] s2]; [|eauto]. destruct (IH s2 H) as [e [s3 ->]]. eauto. }
  destruct (A (map fst ls) (d_trans d) s1 I) as [e [s2 ->]]. eauto.
Qed.
Print Assumptions C131_keyword_refuted.

(** C71: an arrow with override_bbox is never drawn. *)
Theorem C71_keyword_refuted : forall muB known, known "override_bbox"%string = false ->
  forall d s t k, In (t, k) (d_trans d) -> ak_over k <> None -> exists e d' s', render_all muB known d s = (Raise e, d', s').
Proof.
  intros muB known Hk d s t k I Ho. unfold render_all. destruct (build muB (d_levels d) (d_lines d) s) as [[[[]|e] ls] s1]; [|eauto].
  assert (A : forall rs l s, In (t, k) l -> exists e s', mapM (draw_arrow known rs) l s = (Raise e, s')).
  { intros rs. induction l as [|x l IH]; intros s0 []; cbn [mapM]; unfold bind.
    - subst x. unfold draw_arrow, bind. cbn [fst snd]. destruct (arrow _ _ _ _ _ _ _ s0) as [[v|e] s2]; [|eauto].
      destruct (ak_over k) as [o|]; [|contradiction]. cbn [forallb]. rewrite Hk. cbn [andb]. unfold raise. eauto.
    - destruct (draw_arrow known rs x s0) as [[v|e] s2]; [|eauto]. destruct (IH s2 H) as [e [s3 ->]]. eauto. }
  destruct (A (map fst ls) (d_trans d) s1 I) as [e [s2 ->]]. eauto.
Qed.
Print Assumptions C71_keyword_refuted.

(** ** Cases: 6s 2S1/2 with its hyperfine structure and the gross 6p 2P*1/2 of
    a nucleus of spin 1/2, both with brackets, red and blue; an arrow. *)
Definition red : color := [1; 0; 0; 1].
Definition blue : color := [0; 0; 1; 1].
Definition in_brackets (o : opts) : opts :=
  mkOpts (o_width o) (o_x0 o) (o_x1 o) (o_y0 o) (o_y1 o) (o_offset o) (o_squeeze o) (o_hf o) (o_z o)
    (o_spacing o) (o_sub o) (o_pad o) (o_fill o) (Some "bracket"%string).
Definition in_color (c : color) : style := mkStyle (Some c) None None None None None (Some c) None.
Definition drawing : Render.diagram :=
  add_transition 0 plain_arrow (add_level 1 None (in_brackets (opts_with 1 1 (Value 1))) (in_color blue)
    (add_level 0 (Some "hf"%string) (in_brackets (opts_with 1 1 (Value 1))) (in_color red) new_diagram)).
Definition colors_of (p : res picture * Render.diagram * st Exact) : option (list (list Q) * list (list Q)) :=
  match fst (fst p) with
  | Ok p => Some (map (fun g => map this (sg_color g)) (pc_segs p), map (fun g => map this (pl_color g)) (pc_brackets p))
  | Raise _ => None
  end.
Definition ends_at (p : res picture * Render.diagram * st Exact) : option (list (option (Q * Q) * option (Q * Q))) :=
  match fst (fst p) with Ok p => Some (map (fun a => (spot (fst a), spot (snd a))) (pc_arrows p)) | Raise _ => None end.
Definition in_red : list Q := [1; 0; 0; 1]%Q.
Definition in_blue : list Q := [0; 0; 1; 1]%Q.
Example C131_case : option_map fst (colors_of (render_all 1 (fun _ => true) drawing joined)) = Some [in_red; in_red; in_blue].
Proof. vm_compute. reflexivity. Qed.
Example C132_case : option_map snd (colors_of (render_all 1 (fun _ => true) drawing joined)) = Some [in_red; in_blue; in_red; in_blue].
Proof. vm_compute. reflexivity. Qed.
(** Drawn again after the levels have moved: three old lines and three new ones.
    The arrow still joins the old places. *)
Definition moved : st Exact := runx (snd (render_all 1 (fun _ => true) drawing joined)) [OSetLevel Exact 1 (Q2Qc 70000000000000)].
Definition again : Render.diagram := snd (fst (render_all 1 (fun _ => true) drawing joined)).
Example C133_case : option_map (fun p => List.length (fst p)) (colors_of (render_all 1 (fun _ => true) again moved)) = Some 6%nat /\
  ends_at (render_all 1 (fun _ => true) again moved) = ends_at (render_all 1 (fun _ => true) drawing joined) /\
  ends_at (render_all 1 (fun _ => true) drawing moved) <> ends_at (render_all 1 (fun _ => true) drawing joined).
Proof. vm_compute. split; [reflexivity|]. split; [reflexivity|discriminate]. Qed.
Example C71_keyword_case : In (0%nat, mkAkw 5 5 (0, 0) (0, 0) (Some (None, Some "gross"%string)) []) (d_trans (add_transition 0 (mkAkw 5 5 (0, 0) (0, 0) (Some (None, Some "gross"%string)) []) drawing)).
Proof. right. left. reflexivity. Qed.
(** A keyword that is misspelt. *)
Example C131_keyword_case : exists e d' s',
  render_all 1 (String.eqb "color") (add_transition 0 (mkAkw 5 5 (0, 0) (0, 0) None ["color"; "colour"]%string) drawing) joined = (Raise e, d', s').
Proof. apply (C131_keyword_refuted 1 (String.eqb "color") "colour" _ joined 0 (mkAkw 5 5 (0, 0) (0, 0) None ["color"; "colour"]%string)); [reflexivity|right; left; reflexivity|right; left; reflexivity]. Qed.
(** The second level has an impossible spacing: the row of the first one stays. *)
Definition bad_second : Render.diagram :=
  add_level 1 None (opts_with 1 1 (Value (qc 2))) plain_style (add_level 0 (Some "g"%string) (opts_with 1 1 (Value 1)) plain_style new_diagram).
Example C133_failed_case : match render_all 1 (fun _ => true) bad_second joined with
  | (Raise e, d', _) => e = AssertionError /\ map (fun r => r_level (fst r)) (d_lines d') = [0%nat] | _ => False end.
Proof. vm_compute. auto. Qed.

(** ** What add_level and add_transition draw without keyword arguments *)

(** Lines are opaque black and 2 wide, rectangles are filled in matplotlib's
    colour at one fifth, brackets are dark grey and 1 wide. *)
Theorem C131_default_look : forall muB known d s pic d' s', d_lines d = [] -> render_all muB known d s = (Ok pic, d', s') ->
  (forall p, In p (d_levels d) -> pr_style p = plain_style) ->
  (forall g, In g (pc_segs pic) -> sg_color g = [0; 0; 0; 1] /\ sg_lw g = Q2Qc 2) /\
  (forall r, In r (pc_rects pic) -> rc_alpha r = Q2Qc (1 # 5) /\ rc_color r = None /\ rc_fill r = true) /\
  (forall b, In b (pc_brackets pic) -> pl_color b = [0; 0; 0; Q2Qc (4 # 5)] /\ pl_lw b = 1).
Proof.
  intros muB known d s pic d' s' L E H. pose proof (render_inv _ _ _ _ _ _ _ E) as [ts [s1 [T [D [P1 [P2 _]]]]]].
  assert (St : forall r, In r (d_lines d') -> snd r = plain_style).
  { subst d'. cbn [d_lines]. rewrite L. cbn [app]. intros r I. unfold styled in I. apply in_concat in I as [l [Il I]]. apply in_map_iff in Il as [[p t] [<- Ic]].
    cbn [fst snd] in I. apply in_map_iff in I as [q [<- _]]. cbn [snd]. apply H. now apply in_combine_l in Ic. }
  split; [|split].
  - intros g I. rewrite P1, collection_own in I. apply in_map_iff in I as [r [<- I]]. apply filter_In in I as [I _]. rewrite (St r I). split; reflexivity.
  - intros r I. rewrite P2 in I. apply in_flat_map in I as [q [Iq I]]. pose proof (St q Iq) as Sq. unfold row_rect in I. rewrite Sq in I.
    destruct (r_bbox (fst q)) as [k|]; [|contradiction]. destruct (is_rect k); [|contradiction]. destruct I as [<-|[]]. repeat split.
  - intros b I. apply (C132_colors_partial _ _ _ _ _ _ _ _ _ E); auto. intros r Ir _ _. rewrite (St r Ir). split; reflexivity.
Qed.
Print Assumptions C131_default_look.

(** The arrow of a transition goes from the middle of the box of its lower
    level to the middle of that of its upper level. *)
Definition middle (b : box) : pt := ((b_x0 b + b_x1 b) / Q2Qc 2, (b_y0 b + b_y1 b) / Q2Qc 2).
Lemma box_middle : forall b, box_pos b 5 (0, 0) = Ok (middle b).
Proof.
  intros b. unfold box_pos, middle. cbn [pos_dict fst snd]. unfold qc.
  assert (E : Q2Qc (1 # 2) = / Q2Qc 2) by (apply Qc_is_canon; reflexivity). rewrite E. unfold Qcdiv.
  apply (f_equal Ok). apply f_equal2; ring.
Qed.
Theorem C131_default_arrow : forall known rs s t x lo up b0 b1, tr s t = Some x ->
  lv s (x_lo x) = Some lo -> lv s (x_up x) = Some up -> l_kind lo = LE -> l_kind up = LE ->
  first_box (x_lo x) rs = Ok b0 -> first_box (x_up x) rs = Ok b1 ->
  draw_arrow known rs (t, plain_arrow) s = (Ok (Some (middle b0), Some (middle b1)), s).
Proof.
  intros known rs s t x lo up b0 b1 T V0 V1 K0 K1 F0 F1.
  assert (P : forall a l b, lv s a = Some l -> l_kind l = LE -> first_box a rs = Ok b -> level_pos rs a 5 (0, 0) None s = (Ok (Some (middle b)), s)).
  { intros a l b V K F. unfold level_pos, manifold, bind, get_lv, asks, of_res, ret. rewrite V, K. unfold try_pos. rewrite F. cbn [rbind]. rewrite box_middle. cbn. rewrite ?V, ?K. reflexivity. }
  unfold draw_arrow, arrow, bind, get_tr, asks. cbn [fst snd ak_n0 ak_n1 ak_off0 ak_off1 ak_over ak_rest plain_arrow get]. rewrite T.
  rewrite (P _ _ _ V0 K0 F0), (P _ _ _ V1 K1 F1). reflexivity.
Qed.
Print Assumptions C131_default_arrow.
Definition bare : Render.diagram :=
  add_transition 0 plain_arrow (add_level 1 None (opts_with 1 1 (Value 1)) plain_style (add_level 0 None (opts_with 1 1 (Value 1)) plain_style new_diagram)).
Example C131_default_case : match render_all 1 (fun _ => true) bare joined with
  | (Ok pic, _, _) => map sg_color (pc_segs pic) = [black; black] /\ List.length (pc_arrows pic) = 1%nat
  | _ => False
  end.
Proof. vm_compute. split; reflexivity. Qed.
