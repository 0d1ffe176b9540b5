(** Properties C57-C60 and C82: files. *)
From Coq Require Import List Bool ZArith QArith Qcanon Lia String Ascii DecimalString DecimalZ DecimalPos.
From Verif Require Import Base Num PyStr Util Regex Parse ParseProofs ParseProofs2 Term Graph Atom AtomInv Graph GraphProofs AtomSafe AtomSafe5 AtomSafe6 AtomAlias AtomLevels AtomPaths AtomTrans AtomExample IO.
Import ListNotations.
Local Open Scope string_scope.

(** ** C58 *)

Lemma split_free : forall c b, free c b = true -> split_all c b = [b].
Proof.
  intros c b. induction b as [|a b IH]; intros F; [reflexivity|]. rewrite free_cons in F. apply andb_true_iff in F as [F1 F2].
  cbn [split_all]. apply negb_true_iff in F1. now rewrite F1, IH.
Qed.
Lemma split_cons : forall c b r, free c b = true -> split_all c (b ++ String c r) = b :: split_all c r.
Proof.
  intros c b r. induction b as [|a b IH]; intros F.
  - cbn. now rewrite Ascii.eqb_refl.
  - rewrite free_cons in F. apply andb_true_iff in F as [F1 F2]. cbn [append split_all]. apply negb_true_iff in F1. now rewrite F1, IH.
Qed.
Lemma split_ne : forall c s, split_all c s <> [].
Proof. intros c [|a s]; cbn; [discriminate|]. destruct (Ascii.eqb a c); [discriminate|]. destruct (split_all c s); discriminate. Qed.

(** File names with at most one dot are handled as documented. *)
Theorem C58_partial : forall n b e, free "." b = true -> free "." e = true ->
  save_name n (Some b) = b ++ ".atom" /\ save_name b None = b ++ ".atom" /\
  save_name n (Some (b ++ ".atom")) = b ++ ".atom" /\
  (e <> "atom" -> save_name n (Some (b ++ "." ++ e)) = b ++ "." ++ e ++ ".atom").
Proof.
  intros n b e Fb Fe. unfold save_name. rewrite split_free by auto. cbn [nth_error]. split; [reflexivity|]. split; [reflexivity|]. split.
  - change (b ++ ".atom") with (b ++ String "." "atom"). rewrite split_cons, split_free by auto. reflexivity.
  - intros Ne. change (b ++ "." ++ e) with (b ++ String "." e). rewrite split_cons, split_free by auto. cbn [nth_error].
    destruct (String.eqb_spec e "atom"); [contradiction|]. now rewrite append_assoc.
Qed.
Print Assumptions C58_partial.
(** A relative path is given a second ending, and a name with another ending
    after ".atom" is given none. *)
Theorem C58_refuted : forall n p,
  save_name n (Some ("./" ++ p ++ ".atom")) = "./" ++ p ++ ".atom.atom" /\
  (free "." p = true -> save_name n (Some (p ++ ".atom.bak")) = p ++ ".atom.bak").
Proof.
  intros n p. unfold save_name. split.
  - change (split_all "." ("./" ++ p ++ ".atom")) with ("" :: split_all "." (String "/" (p ++ ".atom"))). cbn [nth_error].
    assert (E : exists f r, split_all "." (String "/" (p ++ ".atom")) = String "/" f :: r).
    { cbn [split_all]. change (Ascii.eqb "/" ".") with false. cbv iota. destruct (split_all "." (p ++ ".atom")); eauto. }
    destruct E as [f [r ->]]. cbn [nth_error]. change (String.eqb (String "/" f) "atom") with false. cbv iota. now rewrite !append_assoc.
  - intros F. change (p ++ ".atom.bak") with (p ++ String "." "atom.bak"). rewrite split_cons by auto. reflexivity.
Qed.
Print Assumptions C58_refuted.
Example C58_case : save_name "Yb" (Some "yb171.atom") = "yb171.atom" /\ save_name "Yb" None = "Yb.atom" /\ save_name "Yb" (Some "171.5.atom") = "171.5.atom.atom".
Proof. vm_compute. auto. Qed.

(** ** C59 *)

Section Limit.
  Context {row : Type} (has_level : row -> bool) (term : row -> string).
  Notation limit_cut := (limit_cut has_level term).
  Notation good := (fun p : Z * row => has_level (snd p)).
  Notation islim := (fun p : Z * row => String.eqb (term (snd p)) "Limit").

  Lemma label_app : forall (a b : list row) i, label i (a ++ b)%list = (label i a ++ label (i + Z.of_nat (List.length a)) b)%list.
  Proof.
    induction a as [|x a IH]; intros b i; cbn; [now rewrite Z.add_0_r|]. rewrite IH. do 3 f_equal. lia.
  Qed.
  Lemma label_range : forall (rows : list row) i p, In p (label i rows) -> (i <= fst p < i + Z.of_nat (List.length rows))%Z /\ In (snd p) rows.
  Proof.
    induction rows as [|x rows IH]; intros i p H; [destruct H|]. cbn in H. destruct H as [<-|H]; cbn [fst snd List.length]; [split; [lia|now left]|].
    apply IH in H as [H1 H2]. split; [lia|now right].
  Qed.
  Lemma label_snd : forall (rows : list row) i, map snd (filter good (label i rows)) = filter has_level rows.
  Proof. induction rows as [|x rows IH]; intros i; [reflexivity|]. cbn. destruct (has_level x); cbn; now rewrite IH. Qed.

  Theorem C59_partial : forall pre l post, has_level l = true -> term l = "Limit" ->
    (forall r, In r pre -> has_level r = true -> term r <> "Limit") ->
    limit_cut (pre ++ l :: post)%list = Ok (filter has_level pre).
  Proof.
    intros pre l post Hl Tl Hp. unfold IO.limit_cut. rewrite label_app. cbn [label Z.add]. set (k := Z.of_nat (List.length pre)).
    rewrite filter_app. cbn [filter snd]. rewrite Hl. set (P := filter good (label 0 pre)). set (Q := filter good (label (k + 1) post)).
    assert (HP : forall p, In p P -> (0 <= fst p < k)%Z /\ islim p = false).
    { intros p H. apply filter_In in H as [H1 H2]. apply label_range in H1 as [H1 H3]. split; [unfold k; lia|]. apply String.eqb_neq. auto. }
    assert (HQ : forall p, In p Q -> (k < fst p)%Z).
    { intros p H. apply filter_In in H as [H1 _]. apply label_range in H1 as [H1 _]. lia. }
    assert (E : idxmax term (P ++ (k, l) :: Q)%list = Some k).
    { unfold idxmax. assert (F : find islim (P ++ (k, l) :: Q)%list = Some (k, l)).
      { clearbody P. induction P as [|p P IH]; cbn [find app].
        - cbn [snd]. now rewrite Tl.
        - rewrite (proj2 (HP p (or_introl eq_refl))). apply IH. intros q Hq. apply HP. now right. }
      now rewrite F. }
    rewrite E. f_equal. unfold upto. rewrite filter_app. cbn [filter fst]. replace (k <=? k - 1)%Z with false by (symmetry; apply Z.leb_gt; lia).
    assert (EP : filter (fun p : Z * row => (fst p <=? k - 1)%Z) P = P).
    { clearbody P. induction P as [|p P IH]; [reflexivity|]. cbn [filter]. replace (fst p <=? k - 1)%Z with true by (symmetry; apply Z.leb_le; pose proof (HP p (or_introl eq_refl)); lia).
      f_equal. apply IH; [intros q Hq; apply HP; now right|]. clear -E HP. unfold idxmax in *. cbn [find app] in E. rewrite (proj2 (HP p (or_introl eq_refl))) in E.
      destruct (find islim (P ++ (k, l) :: Q)%list) as [x|] eqn:F; [exact E|]. cbn in E. exfalso.
      assert (H := HP p (or_introl eq_refl)). injection E as E. lia. }
    assert (EQ : filter (fun p : Z * row => (fst p <=? k - 1)%Z) Q = []).
    { clearbody Q. clear E. induction Q as [|p Q IH]; [reflexivity|]. cbn [filter]. replace (fst p <=? k - 1)%Z with false by (symmetry; apply Z.leb_gt; pose proof (HQ p (or_introl eq_refl)); lia).
      apply IH. intros q Hq. apply HQ. now right. }
    rewrite EP, EQ, app_nil_r. apply label_snd.
  Qed.

  (** Without such a row the whole table is lost. *)
  Theorem C59_refuted : forall rows, (forall r, In r rows -> has_level r = true -> term r <> "Limit") ->
    limit_cut rows = if existsb has_level rows then Ok [] else Raise ValueError.
  Proof.
    intros rows H. unfold IO.limit_cut. set (P := filter good (label 0 rows)).
    assert (HP : forall p, In p P -> islim p = false).
    { intros p Hp. apply filter_In in Hp as [H1 H2]. apply label_range in H1 as [H1 H3]. apply String.eqb_neq. auto. }
    assert (F : find islim P = None).
    { clearbody P. induction P as [|p P IH]; [reflexivity|]. cbn [find]. rewrite (HP p (or_introl eq_refl)). apply IH. intros q Hq. apply HP. now right. }
    assert (S : existsb has_level rows = match P with [] => false | _ => true end).
    { assert (G : forall l i, existsb has_level l = match filter good (label i l) with [] => false | _ => true end).
      { induction l as [|x l IH]; intros i; [reflexivity|]. cbn. destruct (has_level x); [reflexivity|apply IH]. }
      apply G. }
    rewrite S. unfold idxmax. rewrite F. destruct P as [|p P'] eqn:EP; [reflexivity|]. cbn [hd_error option_map]. f_equal.
    assert (M : forall q, In q (p :: P') -> (fst p <= fst q)%Z).
    { assert (G : forall l i p P', filter good (label i l) = p :: P' -> forall q, In q (p :: P') -> (fst p <= fst q)%Z).
      { induction l as [|x l IH]; intros i u U E q Hq; [discriminate|]. cbn in E. destruct (has_level x).
        - injection E as <- <-. destruct Hq as [<-|Hq]; [lia|]. apply filter_In in Hq as [Hq _]. apply label_range in Hq as [Hq _]. cbn. lia.
        - eapply IH; eauto. }
      apply (G rows 0%Z). exact EP. }
    assert (Z : upto (fst p - 1) (p :: P') = []).
    { unfold upto. revert M. generalize (p :: P'). intros l M. induction l as [|q l IH]; [reflexivity|]. cbn [filter].
      replace (fst q <=? fst p - 1)%Z with false by (symmetry; apply Z.leb_gt; pose proof (M q (or_introl eq_refl)); lia). apply IH. intros r Hr. apply M. now right. }
    now rewrite Z.
  Qed.
End Limit.
Print Assumptions C59_partial.
Print Assumptions C59_refuted.
Example C59_case : limit_cut (fun r => fst r) (fun r => snd r) [(true, "2S"); (false, "x"); (true, "2P*"); (true, "Limit"); (true, "auto")] = Ok [(true, "2S"); (true, "2P*")] /\
  limit_cut (fun r => fst r) (fun r => snd r) [(true, "2S"); (true, "2P*")] = Ok [].
Proof. vm_compute. auto. Qed.

(** ** C82: alternative J *)

Fixpoint join (sep : string) (l : list string) : string :=
  match l with [] => "" | [x] => x | x :: r => x ++ sep ++ join sep r end.
Lemma replace_or_free : forall b s, free " " b = true -> replace_or (b ++ s) = b ++ replace_or s.
Proof.
  induction b as [|a b IH]; intros s F; [reflexivity|]. rewrite free_cons in F. apply andb_true_iff in F as [F1 F2]. apply negb_true_iff in F1.
  cbn [append]. specialize (IH s F2). destruct (b ++ s) as [|c [|d r]] eqn:E.
  - cbn. destruct b, s; try discriminate. reflexivity.
  - cbn [replace_or] in *. now rewrite <- IH.
  - cbn [replace_or]. rewrite F1. cbn [andb]. f_equal. exact IH.
Qed.

Lemma replace_or_space : forall s, match s with String a _ => a <> "o"%char | "" => True end -> replace_or (String " " s) = String " " (replace_or s).
Proof.
  intros [|a [|b s']] H; try reflexivity. cbn [replace_or]. destruct (Ascii.eqb_spec a "o"); [contradiction|]. reflexivity.
Qed.

(** "j1 or j2 or j3" gives one row per alternative, and so does "j1,j2,j3". *)
Theorem C82_explode : forall j js, Forall (fun j => free " " j = true /\ free "," j = true /\ free "o" j = true) (j :: js) ->
  explode_J (join " or " (j :: js)) = j :: map (append " ") js /\
  explode_J (join "," (j :: js)) = j :: js.
Proof.
  intros j js H. unfold explode_J. split; revert j H; induction js as [|k js IH]; intros j H; inversion_clear H as [|? ? [H1 [H2 H4]] H3].
  - cbn [join map]. rewrite <- (append_nil_r j) at 1. rewrite replace_or_free by auto. cbn [replace_or]. rewrite append_nil_r. now apply split_free.
  - change (join " or " (j :: k :: js)) with (j ++ " or " ++ join " or " (k :: js)). rewrite replace_or_free by auto.
    change (replace_or (" or " ++ join " or " (k :: js))) with (String "," (replace_or (String " " (join " or " (k :: js))))).
    rewrite split_cons by auto. cbn [map]. f_equal. rewrite replace_or_space.
    + cbn [split_all]. change (Ascii.eqb " " ",") with false. cbv iota. rewrite (IH k H3). reflexivity.
    + inversion_clear H3 as [|? ? [_ [_ K]] _]. destruct k as [|a k].
      * destruct js; [exact I|discriminate].
      * rewrite free_cons in K. apply andb_true_iff in K as [K _]. apply negb_true_iff in K. apply Ascii.eqb_neq in K. destruct js; exact K.
  - cbn [join]. rewrite <- (append_nil_r j) at 1. rewrite replace_or_free by auto. cbn [replace_or]. rewrite append_nil_r. now apply split_free.
  - change (join "," (j :: k :: js)) with (j ++ String "," (join "," (k :: js))). rewrite replace_or_free by auto.
    replace (replace_or (String "," (join "," (k :: js)))) with (String "," (replace_or (join "," (k :: js)))).
    + rewrite split_cons by auto. f_equal. exact (IH k H3).
    + symmetry. apply (replace_or_free ","). reflexivity.
Qed.
Print Assumptions C82_explode.
Example C82_case : explode_J "3/2 or 5/2" = ["3/2"; " 5/2"] /\ explode_J "1,2,3" = ["1"; "2"; "3"].
Proof. vm_compute. auto. Qed.

(** ** C60 *)

Definition plain_text (s : string) : bool := free "(" s && free ")" s && free "{" s && free "}" s.
Definition inner (s : string) : bool := negb (String.eqb s "") && free "(" s && free ")" s && all_chars not_newline s.
Lemma inner_inv : forall s, inner s = true -> s <> "" /\ free "(" s = true /\ free ")" s = true /\ all_chars not_newline s = true.
Proof.
  intros s H. unfold inner in H. rewrite !andb_true_iff in H. destruct H as [[[H1 H2] H3] H4]. split; auto.
  intros ->. discriminate.
Qed.
Lemma plain_inv : forall s, plain_text s = true -> free "(" s = true /\ free ")" s = true /\ free "{" s = true /\ free "}" s = true.
Proof. intros s H. unfold plain_text in H. rewrite !andb_true_iff in H. tauto. Qed.

(** [conf p [(t1, p1); ...]] is p(t1)p1...; [terms [u1; ...]] is (u1)(u2)... *)
Fixpoint conf (p : string) (l : list (string * string)) : string :=
  match l with [] => p | (t, q) :: r => p ++ "(" ++ t ++ ")" ++ conf q r end.
Definition terms (us : list string) : string := fold_right (fun u s => "(" ++ u ++ ")" ++ s) "" us.
(** The terms in place of those of the configuration. *)
Fixpoint fill (p : string) (l : list (string * string)) (us : list string) : string :=
  match l, us with (_, q) :: r, u :: us' => p ++ "(" ++ u ++ ")" ++ fill q r us' | _, _ => p end.

Lemma plus_lazy_first {X} : forall f (k : string -> option X) d r x, d <> "" -> all_chars f d = true ->
  (forall d1 d2, d = d1 ++ d2 -> d2 <> "" -> k (d2 ++ r) = None) -> k r = Some x -> plus true f k (d ++ r) = Some x.
Proof.
  intros f k [|a d] r x N A H K; [congruence|]. cbn [all_chars] in A. apply andb_true_iff in A as [Fa A]. cbn [append plus star]. rewrite Fa.
  apply lstar_first; auto. intros d1 d2 -> Nd. apply (H (String a d1) d2); auto.
Qed.
Lemma lstar_some {X} : forall f (k : string -> option X) d r, all_chars f d = true -> k r <> None -> lstar f k (d ++ r) <> None.
Proof.
  intros f k d r A K. induction d as [|a d IH]; cbn [append].
  - destruct r; cbn [lstar]; destruct (k _) eqn:E; try discriminate; contradiction.
  - cbn [all_chars] in A. apply andb_true_iff in A as [Fa A]. cbn [lstar]. destruct (k (String a (d ++ r))); [discriminate|]. rewrite Fa. auto.
Qed.
Lemma gstar_some {X} : forall f (k : string -> option X) d r, all_chars f d = true -> k r <> None -> gstar f k (d ++ r) <> None.
Proof.
  intros f k d r A K. induction d as [|a d IH]; cbn [append].
  - destruct r as [|b r]; cbn; auto. destruct (f b); auto. destruct (gstar f k r); [discriminate|auto].
  - cbn [all_chars] in A. apply andb_true_iff in A as [Fa A]. cbn [gstar]. rewrite Fa. destruct (gstar f k (d ++ r)); [discriminate|]. now specialize (IH A).
Qed.
Lemma plus_some {X} : forall z f (k : string -> option X) d r, d <> "" -> all_chars f d = true -> k r <> None -> plus z f k (d ++ r) <> None.
Proof.
  intros z f k [|a d] r N A K; [congruence|]. cbn [all_chars] in A. apply andb_true_iff in A as [Fa A]. cbn [append plus]. rewrite Fa.
  destruct z; [now apply lstar_some|now apply gstar_some].
Qed.
Lemma free_suffix : forall c d1 d2, free c (d1 ++ d2) = true -> free c d2 = true.
Proof. intros c d1 d2 H. rewrite free_app in H. now apply andb_true_iff in H. Qed.

Lemma paren_hit : forall t s, inner t = true -> match_at re_paren ("(" ++ t ++ ")" ++ s) = Some ([(1%nat, t)], s).
Proof.
  intros t s H. apply inner_inv in H as [H1 [H2 [H3 H4]]]. unfold match_at, re_paren, rcat, any1. cbn [rmatch rchr append].
  change (is_char "(" "(") with true. cbv iota. apply (plus_lazy_first not_newline _ t (String ")" s)); auto.
  - intros d1 d2 -> N. destruct d2 as [|b d2]; [congruence|]. cbn [append]. apply free_suffix in H3. now rewrite (free_head _ _ _ H3).
  - change (is_char ")" ")") with true. cbv iota. rewrite consumed_app. reflexivity.
Qed.
Lemma paren_skip : forall p s, p <> "" -> free "(" p = true -> match_at re_paren (p ++ s) = None.
Proof.
  intros [|a p] s N F; [congruence|]. apply free_head in F. unfold match_at, re_paren, rcat, any1. cbn [rmatch rchr append]. now rewrite F.
Qed.
Lemma paren_end : forall p, free "(" p = true -> match_at re_paren p = None.
Proof. intros [|a p] F; [reflexivity|]. rewrite <- (append_nil_r (String a p)). apply paren_skip; [discriminate|auto]. Qed.

Lemma findall_terms : forall us, forallb inner us = true -> map (grp 1) (findall re_paren (terms us)) = us.
Proof.
  induction us as [|u us IH]; intros H; [reflexivity|]. cbn [forallb] in H. apply andb_true_iff in H as [H1 H2].
  cbn [terms fold_right]. rewrite (findall_hit re_paren _ [(1%nat, u)] (terms us)); [|cbn; lia|now apply paren_hit]. cbn [map]. rewrite IH by auto. reflexivity.
Qed.

Lemma sub_skip : forall rep p s n, free "(" p = true -> sub_n (String.length p + n) re_paren rep (p ++ s) = p ++ sub_n n re_paren rep s.
Proof.
  intros rep p s n. induction p as [|a p IH]; intros F; [reflexivity|]. cbn [String.length Nat.add sub_n].
  rewrite (paren_skip (String a p) s) by (auto; discriminate). cbn [append]. f_equal. apply IH. rewrite free_cons in F. now apply andb_true_iff in F.
Qed.
Lemma sub_end : forall rep p n, free "(" p = true -> sub_n n re_paren rep p = p.
Proof.
  intros rep p n. revert p. induction n as [|n IH]; intros p F; [reflexivity|]. cbn [sub_n]. rewrite paren_end by auto. destruct p as [|a p]; [reflexivity|].
  f_equal. apply IH. rewrite free_cons in F. now apply andb_true_iff in F.
Qed.
(** The template. *)
Fixpoint template (p : string) (l : list (string * string)) : string :=
  match l with [] => p | (_, q) :: r => p ++ "({})" ++ template q r end.
Lemma sub_conf : forall l p n, free "(" p = true -> forallb (fun x => inner (fst x) && free "(" (snd x)) l = true ->
  (String.length (conf p l) < n)%nat -> sub_n n re_paren "({})" (conf p l) = template p l.
Proof.
  induction l as [|[t q] l IH]; intros p n Fp H L; [now apply sub_end|]. cbn [forallb fst snd] in H. rewrite !andb_true_iff in H. destruct H as [[H1 H2] H3].
  cbn [conf template] in *. rewrite !length_append in L. cbn [String.length] in L.
  replace n with (String.length p + S (n - S (String.length p)))%nat by lia. rewrite sub_skip by auto. f_equal. cbn [sub_n]. rewrite paren_hit by auto.
  f_equal. apply IH; auto. lia.
Qed.

Lemma rmap_rmap : forall {A B C} (f : A -> B) (g : B -> C) r, rmap g (rmap f r) = rmap (fun x => g (f x)) r.
Proof. intros A B C f g [a|e]; reflexivity. Qed.
Lemma rmap_ext : forall {A B} (f g : A -> B) r, (forall x, f x = g x) -> rmap f r = rmap g r.
Proof. intros A B f g [a|e] H; cbn; [now rewrite H|reflexivity]. Qed.
Lemma format_plain : forall p s args, free "{" p = true -> free "}" p = true -> format (p ++ s) args = rmap (append p) (format s args).
Proof.
  intros p s args. induction p as [|a p IH]; intros F G; cbn [append]; [destruct (format s args); reflexivity|].
  rewrite free_cons in F, G. apply andb_true_iff in F as [F1 F2]. apply andb_true_iff in G as [G1 G2]. apply negb_true_iff in F1. apply negb_true_iff in G1.
  cbn [format]. rewrite F1, G1, IH, rmap_rmap by auto. reflexivity.
Qed.
Lemma format_template : forall l p us, free "{" p = true -> free "}" p = true -> forallb (fun x => free "{" (snd x) && free "}" (snd x)) l = true ->
  format (template p l) us = if (List.length l <=? List.length us)%nat then Ok (fill p l us) else Raise IndexError.
Proof.
  induction l as [|[t q] l IH]; intros p us Fp Gp H.
  - cbn [template List.length Nat.leb fill]. rewrite <- (append_nil_r p) at 1. rewrite format_plain by auto. cbn. now rewrite append_nil_r.
  - cbn [forallb fst snd] in H. rewrite !andb_true_iff in H. destruct H as [[H1 H2] H3]. cbn [template List.length]. rewrite format_plain by auto.
    destruct us as [|u us]; [reflexivity|]. cbn [List.length Nat.leb fill].
    change (format ("({})" ++ template q l) (u :: us)) with (rmap (String "(") (rmap (append u) (rmap (String ")") (format (template q l) us)))).
    rewrite IH by auto. destruct (List.length l <=? List.length us)%nat; reflexivity.
Qed.

Lemma two_hit : forall u v r, inner u = true -> inner v = true -> is_match re_two ("(" ++ u ++ ")" ++ "(" ++ v ++ ")" ++ r) = true.
Proof.
  intros u v r Hu Hv. apply inner_inv in Hu as [U1 [U2 [U3 U4]]]. apply inner_inv in Hv as [V1 [V2 [V3 V4]]].
  unfold is_match. destruct (match_at re_two _) eqn:E; [reflexivity|]. exfalso. revert E. unfold match_at, re_two, rcat, any1. cbn [rmatch rchr append].
  change (is_char "(" "(") with true. cbv iota. apply (plus_some true not_newline _ u (String ")" (String "(" (v ++ String ")" r)))); auto.
  cbn. apply (plus_some true not_newline _ v (String ")" r)); auto. cbn. discriminate.
Qed.
Lemma adjacent : forall d r, contains ")(" (d ++ String ")" (String "(" r)) = true.
Proof.
  induction d as [|a d IH]; intros r; [cbn; destruct r; reflexivity|]. cbn [append contains]. rewrite IH. apply orb_true_r.
Qed.
Lemma two_miss : forall s, contains ")(" s = false -> is_match re_two s = false.
Proof.
  intros s H. unfold is_match. assert (E : match_at re_two s = None); [|now rewrite E]. unfold match_at, re_two, rcat, any1. cbn [rmatch rchr].
  destruct s as [|a s]; [reflexivity|]. destruct (is_char "(" a); [|reflexivity]. cbn [contains] in H. apply orb_false_iff in H as [_ H].
  apply plus_fail. intros d r -> _ _. destruct r as [|b [|c r]]; auto.
  - destruct (is_char ")" b); reflexivity.
  - destruct (is_char ")" b) eqn:B; [|reflexivity]. destruct (is_char "(" c) eqn:C; [|reflexivity]. exfalso.
    apply Ascii.eqb_eq in B. apply Ascii.eqb_eq in C. subst b c. rewrite adjacent in H. discriminate.
Qed.
Lemma head_miss : forall r s, (exists r', r = RCat (rchr "(") r') -> match s with String a _ => a <> "("%char | "" => True end -> is_match r s = false.
Proof.
  intros r s [r' ->] H. unfold is_match, match_at. cbn [rmatch rchr]. destruct s as [|a s]; [reflexivity|]. unfold is_char. destruct (Ascii.eqb_spec a "("); [contradiction|]. reflexivity.
Qed.
Lemma mid_hit : forall u m v r, u <> "" -> m <> "" -> v <> "" -> all_chars not_newline u = true -> all_chars not_newline m = true -> all_chars not_newline v = true ->
  is_match re_mid ("(" ++ u ++ ")" ++ m ++ "(" ++ v ++ ")" ++ r) = true.
Proof.
  intros u m v r U M V U' M' V'. unfold is_match. destruct (match_at re_mid _) eqn:E; [reflexivity|]. exfalso. revert E.
  unfold match_at, re_mid, rcat, any1. cbn [rmatch rchr append]. change (is_char "(" "(") with true. cbv iota.
  apply (plus_some true not_newline _ u (String ")" (m ++ String "(" (v ++ String ")" r)))); auto. change (is_char ")" ")") with true. cbv iota.
  apply (plus_some false not_newline _ m (String "(" (v ++ String ")" r))); auto. change (is_char "(" "(") with true. cbv iota.
  apply (plus_some true not_newline _ v (String ")" r)); auto. cbn. discriminate.
Qed.
Lemma cut_first_free : forall c p r, free c p = true -> fst (cut_first c (p ++ String c r)) = p.
Proof.
  intros c p r. induction p as [|a p IH]; intros F; cbn [append cut_first]; [now rewrite Ascii.eqb_refl|].
  rewrite free_cons in F. apply andb_true_iff in F as [F1 F2]. apply negb_true_iff in F1. rewrite F1. specialize (IH F2). destruct (cut_first c (p ++ String c r)). cbn in *. now rewrite IH.
Qed.

(** The documented shapes: terms only, a configuration lacking its beginning,
    and a complete configuration. *)
Theorem C60_partial :
  (forall p l u v us, plain_text p = true -> forallb (fun x => inner (fst x) && plain_text (snd x)) l = true -> forallb inner (u :: v :: us) = true ->
     reconstitute (conf p l) (Some (terms (u :: v :: us))) =
       if (List.length l <=? 2 + List.length us)%nat then Ok (Some (fill p l (u :: v :: us))) else Raise IndexError) /\
  (forall p x u m v r, free "(" p = true -> u <> "" -> m <> "" -> v <> "" -> all_chars not_newline (u ++ m ++ v) = true ->
     let c1 := "(" ++ u ++ ")" ++ m ++ "(" ++ v ++ ")" ++ r in contains ")(" c1 = false ->
     reconstitute (p ++ "(" ++ x) (Some c1) = Ok (Some (p ++ c1))) /\
  (forall c0 c1, match c1 with String a _ => a <> "("%char | "" => True end -> reconstitute c0 (Some c1) = Ok (Some c1)) /\
  (forall c0, reconstitute c0 None = Ok None).
Proof.
  split; [|split; [|split]].
  - intros p l u v us Hp Hl Hu. unfold reconstitute.
    assert (M : is_match re_two (terms (u :: v :: us)) = true).
    { cbn [forallb] in Hu. rewrite !andb_true_iff in Hu. apply (two_hit u v (terms us)); tauto. }
    rewrite M, findall_terms by auto. apply plain_inv in Hp as [P1 [P2 [P3 P4]]]. unfold re_sub. rewrite sub_conf; [|auto| |lia].
    + rewrite format_template; auto.
      * cbn [List.length]. destruct (_ <=? _)%nat; reflexivity.
      * clear -Hl. induction l as [|[t q] l IH]; [reflexivity|]. cbn [forallb fst snd] in *. rewrite !andb_true_iff in *. destruct Hl as [[_ Hq] Hl]. apply plain_inv in Hq. tauto.
    + clear -Hl. induction l as [|[t q] l IH]; [reflexivity|]. cbn [forallb fst snd] in *. rewrite !andb_true_iff in *. destruct Hl as [[Ht Hq] Hl]. apply plain_inv in Hq. tauto.
  - intros p x u m v r Fp U M V A c1 C. unfold reconstitute. rewrite two_miss by exact C. rewrite !all_chars_app, !andb_true_iff in A. destruct A as [A1 [A2 A3]].
    unfold c1. rewrite mid_hit by auto. do 3 f_equal. apply (cut_first_free "(" p x Fp).
  - intros c0 c1 H. unfold reconstitute. rewrite !head_miss; auto; eexists; reflexivity.
  - reflexivity.
Qed.
Print Assumptions C60_partial.
(** A configuration that lacks only its beginning, but has two adjacent terms,
    is taken for a list of terms: its orbitals are replaced by those of c0. *)
Theorem C60_refuted :
  reconstitute "4f13.(2F*).5d2.(3P)" (Some "(2F*).5d.6s.(3D)(4F)") = Ok (Some "4f13.(2F*).5d2.(3D)").
Proof. vm_compute. reflexivity. Qed.
Example C60_case : reconstitute "4f13.(2F*<7/2>).5d2.(3P)" (Some "(2F*<7/2>)(3F)") = Ok (Some "4f13.(2F*<7/2>).5d2.(3F)") /\
  reconstitute "4f13.(2F*<7/2>).5d.6s.(3D)" (Some "(2F*<5/2>).5d2.(1D)") = Ok (Some "4f13.(2F*<5/2>).5d2.(1D)") /\
  reconstitute "4f14.6s" (Some "4f14.5d") = Ok (Some "4f14.5d").
Proof. vm_compute. auto. Qed.

(** ** csv files *)

Lemma snoc_app : forall (f : string) a s, (f ++ chr1 a) ++ s = f ++ String a s.
Proof. intros. rewrite append_assoc. reflexivity. Qed.
Lemma special_inv : forall a, special a = false -> Ascii.eqb a "," = false /\ Ascii.eqb a dq = false /\ Ascii.eqb a cr = false /\ Ascii.eqb a lf = false.
Proof. intros a H. unfold special in H. apply orb_false_iff in H as [H H4]. apply orb_false_iff in H as [H H3]. apply orb_false_iff in H as [H1 H2]. auto. Qed.

(** An unquoted field. *)
Lemma read_plain : forall f fld row s, all_chars (fun a => negb (special a)) f = true ->
  read_from InField fld row (f ++ s) = read_from InField (fld ++ f) row s.
Proof.
  induction f as [|a f IH]; intros fld row s H; [now rewrite append_nil_r|]. cbn [all_chars] in H. apply andb_true_iff in H as [H1 H2].
  apply negb_true_iff, special_inv in H1 as [A [B [C D]]]. cbn [append read_from]. rewrite A, C, D. rewrite IH, snoc_app by auto. reflexivity.
Qed.
(** A quoted field. *)
Lemma read_doubled : forall f fld row s, read_from InQuoted fld row (doubled f ++ String dq s) = read_from QuoteInQuoted (fld ++ f) row s.
Proof.
  induction f as [|a f IH]; intros fld row s.
  - cbn [doubled append]. cbn [read_from]. change (Ascii.eqb dq dq) with true. cbv iota. now rewrite append_nil_r.
  - cbn [doubled]. destruct (Ascii.eqb_spec a dq) as [->|Na].
    + cbn [append read_from]. change (Ascii.eqb dq dq) with true. cbv iota. rewrite IH, snoc_app. reflexivity.
    + cbn [append read_from]. apply Ascii.eqb_neq in Na. rewrite Na. rewrite IH, snoc_app. reflexivity.
Qed.

Definition at_end (s : string) : Prop := exists r, s = String "," r \/ s = String cr r.
(** Reading a written field up to the separator or the end of the line. *)
Lemma read_field : forall f row a r, Ascii.eqb a "," = true \/ Ascii.eqb a cr = true ->
  read_from StartField "" row (write_field f ++ String a r) = read_from InField f row (String a r).
Proof.
  intros f row a r Ha. assert (Q : Ascii.eqb a dq = false).
  { destruct Ha as [Ha|Ha]; apply Ascii.eqb_eq in Ha; subst a; reflexivity. }
  unfold write_field. destruct (all_chars _ f) eqn:E.
  - destruct f as [|b f].
    + cbn [append]. cbn [read_from]. rewrite Q. reflexivity.
    + cbn [all_chars] in E. apply andb_true_iff in E as [E1 E2]. apply negb_true_iff, special_inv in E1 as [A [B [C D]]].
      change (String b f ++ String a r) with (String b (f ++ String a r)). 
      assert (S : read_from StartField "" row (String b (f ++ String a r)) = read_from InField (chr1 b) row (f ++ String a r)) by (cbn [read_from]; rewrite A, B, C, D; reflexivity).
      rewrite S, read_plain by auto. reflexivity.
  - unfold quoted. change (String dq (doubled f ++ String dq "") ++ String a r) with (String dq ((doubled f ++ String dq "") ++ String a r)). rewrite append_assoc.
    change (read_from StartField "" row (String dq (doubled f ++ String dq "" ++ String a r))) with (read_from InQuoted "" row (doubled f ++ String dq (String a r))).
    rewrite read_doubled. cbn [append]. cbn [read_from]. rewrite Q. reflexivity.
Qed.
Lemma read_fields : forall fs row s, fs <> [] -> read_from StartField "" row (write_fields fs ++ s) = (row ++ fs)%list :: read_from StartRecord "" [] s.
Proof.
  induction fs as [|f fs IH]; intros row s N; [congruence|]. destruct fs as [|g fs].
  - cbn [write_fields]. rewrite append_assoc. unfold crlf. cbn [append]. rewrite (read_field f row cr) by (right; apply Ascii.eqb_refl). reflexivity.
  - change (write_fields (f :: g :: fs)) with (write_field f ++ String "," (write_fields (g :: fs))). rewrite append_assoc. cbn [append].
    rewrite (read_field f row ",") by (left; apply Ascii.eqb_refl).
    change (read_from InField f row (String "," (write_fields (g :: fs) ++ s))) with (read_from StartField "" (row ++ [f]) (write_fields (g :: fs) ++ s)).
    rewrite IH by discriminate. rewrite <- app_assoc. reflexivity.
Qed.
(** The first character of a written row is no line break. *)
Lemma row_start : forall l, l <> [] -> exists a s, write_row l = String a s /\ Ascii.eqb a cr = false /\ Ascii.eqb a lf = false.
Proof.
  intros l N. assert (W : forall f x, f <> "" -> exists a s, write_field f ++ x = String a s /\ Ascii.eqb a cr = false /\ Ascii.eqb a lf = false).
  { intros f x Nf. unfold write_field. destruct (all_chars _ f) eqn:E.
    - destruct f as [|b f]; [congruence|]. cbn [all_chars] in E. apply andb_true_iff in E as [E1 _]. apply negb_true_iff, special_inv in E1 as [_ [_ [C D]]]. exists b, (f ++ x). auto.
    - unfold quoted. exists dq. eexists. split; [reflexivity|]. split; reflexivity. }
  destruct l as [|f [|g l]]; [congruence| |].
  - destruct f as [|b f].
    + exists dq. eexists. split; [reflexivity|]. split; reflexivity.
    + apply (W (String b f) crlf). discriminate.
  - change (write_row (f :: g :: l)) with (match f with "" => write_fields (f :: g :: l) | _ => write_fields (f :: g :: l) end).
    assert (E : (match f with "" => write_fields (f :: g :: l) | _ => write_fields (f :: g :: l) end) = write_field f ++ String "," (write_fields (g :: l))) by (destruct f; reflexivity).
    rewrite E. destruct f as [|b f]; [|apply W; discriminate]. exists ","%char. eexists. split; [reflexivity|]. split; reflexivity.
Qed.
Lemma read_row : forall l s, l <> [] -> read_from StartRecord "" [] (write_row l ++ s) = l :: read_from StartRecord "" [] s.
Proof.
  intros l s N. destruct (row_start l N) as [a [x [E [A B]]]].
  assert (S : read_from StartRecord "" [] (write_row l ++ s) = read_from StartField "" [] (write_row l ++ s)).
  { rewrite E. cbn [append read_from]. now rewrite A, B. }
  rewrite S. destruct l as [|f l]; [congruence|]. destruct f as [|b f].
  - destruct l as [|g l]; [reflexivity|]. exact (read_fields ("" :: g :: l) [] s ltac:(discriminate)).
  - assert (E2 : write_row (String b f :: l) = write_fields (String b f :: l)) by (destruct l; reflexivity). rewrite E2. exact (read_fields (String b f :: l) [] s ltac:(discriminate)).
Qed.

(** Whatever the fields contain, reading a written file gives back the rows. *)
Theorem C83_csv : forall rows, Forall (fun r => r <> []) rows -> read_csv (write_csv rows) = rows.
Proof.
  intros rows H. unfold read_csv. induction H as [|r rows Hr _ IH]; [reflexivity|]. cbn [write_csv fold_right]. rewrite read_row by auto. f_equal. exact IH.
Qed.
Print Assumptions C83_csv.
Example C83_case : write_csv [["(7/2, 1)"; "a""b"]; [""]] = String dq "(7/2, 1)" ++ String dq ("," ++ String dq ("a" ++ String dq (String dq ("b" ++ String dq crlf)))) ++ String dq (String dq crlf) /\
  read_csv ("x, y" ++ String lf (String lf "z")) = [["x"; " y"]; []; ["z"]].
Proof. vm_compute. auto. Qed.

(** ** C57 *)

Section Hf.
  Context (N : Num) (muB : num N) (orc : nat -> oracle).
  Context (show : N -> string) (parse : string -> res N).
  Implicit Types s : st N.

  (** No level's name is the alias of another level, and names contain no "=". *)
  Definition unshadowed s : Prop := forall n a, dget n (node_attrs (s_g0 s)) = Some a -> has_char "=" n = false /\ (dget n (s_lal s) = None \/ dget n (s_lal s) = Some a).

  Lemma get_own : forall s n a, unshadowed s -> dget n (node_attrs (s_g0 s)) = Some a -> levels_get N n s = (Ok a, s).
  Proof. intros s n a U D. destruct (U n a D) as [H [A|A]]; [now apply get_node|now apply get_alias]. Qed.

  Lemma unshadowed_hf : forall s a f, unshadowed s -> unshadowed (upd_lv a f s).
  Proof. intros s a f U. exact U. Qed.

  Lemma upd_twice {A} : forall n (f g : A -> A) l, upd n g (upd n f l) = upd n (fun x => g (f x)) l.
  Proof. induction n as [|n IH]; intros f g [|x l]; cbn; auto. now rewrite IH. Qed.
  Lemma upd_lv_twice : forall s a f g, upd_lv a g (upd_lv a f s) = upd_lv a (fun x => g (f x)) s.
  Proof. intros. unfold upd_lv. cbn. unfold set_levels. cbn. now rewrite upd_twice. Qed.

  (** One row. *)
  Lemma apply_one : forall s n a x y z A B C, unshadowed s -> dget n (node_attrs (s_g0 s)) = Some a ->
    parse x = Ok A -> parse y = Ok B -> parse z = Ok C ->
    apply_row N parse [n; x; y; z] s = (Ok tt, upd_lv a (lv_set_hf A B C) s).
  Proof.
    intros s n a x y z A B C U D PA PB PC. unfold apply_row, assign.
    unfold bind. rewrite PA. rewrite (get_own s n a U D). unfold modify. rewrite PB.
    rewrite (get_own (upd_lv a (set_hfA N A) s) n a (unshadowed_hf _ _ _ U) D). rewrite PC.
    rewrite (get_own (upd_lv a (set_hfB N B) (upd_lv a (set_hfA N A) s)) n a U D). rewrite !upd_lv_twice. reflexivity.
  Qed.

  (** All rows: [G] gives the three constants written for a level. *)
  Section All.
    Context (G : level N -> num N * num N * num N) (show_parse : forall v, parse (show v) = Ok v).
    Definition g_row (l : level N) : list string := [lname l; show (fst (fst (G l))); show (snd (fst (G l))); show (snd (G l))].
    Definition g_set (l : level N) : level N := lv_set_hf (fst (fst (G l))) (snd (fst (G l))) (snd (G l)) l.
    Lemma apply_all : forall s0, WF s0 -> unshadowed s0 -> forall nodes done s,
      (forall n a, In (n, a) nodes -> dget n (node_attrs (s_g0 s0)) = Some a) ->
      s = set_levels (s_levels s) s0 -> (forall a, lv s a = option_map (fun l => if existsb (Nat.eqb a) done then g_set l else l) (lv s0 a)) ->
      exists s', forM (map g_row (flat_map (fun a => match lv s0 a with Some l => [l] | None => [] end) (map snd nodes))) (apply_row N parse) s = (Ok tt, s') /\
        s' = set_levels (s_levels s') s0 /\ forall a, lv s' a = option_map (fun l => if existsb (Nat.eqb a) (map snd nodes ++ done) then g_set l else l) (lv s0 a).
    Proof.
      intros s0 W U nodes. induction nodes as [|[n a] nodes IH]; intros done s Hn Hs Hl.
      - exists s. auto.
      - pose proof (Hn n a (or_introl eq_refl)) as D. destruct (node_inv _ _ _ _ W D) as [l [V [_ [Nm _]]]]. cbn [map snd flat_map]. rewrite V. cbn [app map forM].
        unfold g_row at 1. rewrite Nm.
        assert (Us : unshadowed s) by (rewrite Hs; exact U). assert (Ds : dget n (node_attrs (s_g0 s)) = Some a) by (rewrite Hs; exact D).
        rewrite (bind_Ok _ _ _ s tt (upd_lv a (lv_set_hf (fst (fst (G l))) (snd (fst (G l))) (snd (G l))) s)) by (apply apply_one; auto).
        destruct (IH (a :: done) (upd_lv a (lv_set_hf (fst (fst (G l))) (snd (fst (G l))) (snd (G l))) s)) as [s' [E1 [E2 E3]]].
        + intros m b H. apply Hn. now right.
        + rewrite Hs at 1. reflexivity.
        + intros b. rewrite lv_upd_lv, (Nat.eqb_sym a b). cbn [existsb]. destruct (Nat.eqb_spec b a) as [->|Nb].
          * rewrite Hl, V. cbn [option_map orb]. f_equal. destruct (existsb (Nat.eqb a) done); reflexivity.
          * rewrite Hl. reflexivity.
        + exists s'. split; [exact E1|]. split; [exact E2|]. intros b. rewrite E3. destruct (lv s0 b); [|reflexivity]. cbn [option_map]. f_equal.
          rewrite !existsb_app. cbn [app existsb]. rewrite existsb_app. destruct (existsb (Nat.eqb b) (map snd nodes)), (Nat.eqb b a); reflexivity.
    Qed.
  End All.

  Definition in_atom s a : bool := existsb (Nat.eqb a) (dvals (node_attrs (s_g0 s))).
  (** The level after applying the file. *)
  Definition rewritten (blank : bool) (defA : N) (l : level N) : level N :=
    if blank then lv_set_hf (nofQ N 0) (nofQ N 0) (nofQ N 0) l
    else lv_set_hf (if neqb N (l_hfA l) (nofQ N 0) then defA else l_hfA l) (l_hfB l) (l_hfC l) l.

  (** Writing the constants of an atom and reading them back changes no more
      than the default says: levels without an A constant get [defA]; a blank
      file sets everything to zero. *)
  Theorem C57_csv : (forall v, parse (show v) = Ok v) -> (forall n, oracle_ok (orc n)) -> forall s, reachable N muB orc s -> unshadowed s -> forall blank defA,
    exists s', apply_hf_csv N parse (generate_hf_csv N show blank defA s) s = (Ok tt, s') /\ s' = set_levels (s_levels s') s /\
      forall a, lv s' a = option_map (fun l => if in_atom s a then rewritten blank defA l else l) (lv s a).
  Proof.
    intros PS OK s R U blank defA. pose proof (reachable_WF N muB orc OK s R) as W.
    set (G := fun l : level N => if blank then (nofQ N 0, nofQ N 0, nofQ N 0) else (if neqb N (l_hfA l) (nofQ N 0) then defA else l_hfA l, l_hfB l, l_hfC l)).
    assert (E : hf_rows N show blank defA s = map (g_row G) (atom_levels N s)).
    { unfold hf_rows, g_row, G, hf_row. destruct blank; reflexivity. }
    unfold apply_hf_csv, generate_hf_csv. rewrite C83_csv.
    - rewrite E. destruct (apply_all G PS s W U (node_attrs (s_g0 s)) [] s) as [s' [E1 [E2 E3]]].
      + intros n a H. apply In_dget_nodup; auto. apply node_attrs_nodup, (wf_g _ _ W LE).
      + destruct s; reflexivity.
      + intros a. cbn. destruct (lv s a); reflexivity.
      + exists s'. split; [exact E1|]. split; [exact E2|]. intros a. rewrite E3. destruct (lv s a); [|reflexivity]. cbn [option_map]. rewrite app_nil_r. unfold in_atom, dvals.
        destruct (existsb _ _); [|reflexivity]. unfold g_set, G, rewritten. destruct blank; reflexivity.
    - rewrite E. apply Forall_forall. intros r H. apply in_map_iff in H as [l [<- _]]. discriminate.
  Qed.
  (** What a name without "=" stands for. *)
  Definition target s n : option nat := match dget n (s_lal s) with Some a => Some a | None => dget n (node_attrs (s_g0 s)) end.
  Lemma get_target : forall s n, has_char "=" n = false -> levels_get N n s = (match target s n with Some a => Ok a | None => Raise KeyError end, s).
  Proof. intros s n H. unfold target. destruct (dget n (s_lal s)) as [a|] eqn:A; [now apply get_alias|now apply get_plain]. Qed.
  Lemma apply_target : forall s n x y z A B C, has_char "=" n = false -> parse x = Ok A -> parse y = Ok B -> parse z = Ok C ->
    apply_row N parse [n; x; y; z] s = (Ok tt, match target s n with Some a => upd_lv a (lv_set_hf A B C) s | None => s end).
  Proof.
    intros s n x y z A B C H PA PB PC. unfold apply_row, assign, bind. rewrite PA, get_target by auto. destruct (target s n) as [a|] eqn:T; [|reflexivity].
    unfold modify. rewrite PB, get_target by auto. change (target (upd_lv a (set_hfA N A) s) n) with (target s n). rewrite T.
    rewrite PC, get_target by auto. change (target (upd_lv a (set_hfB N B) (upd_lv a (set_hfA N A) s)) n) with (target s n). rewrite T.
    rewrite !upd_lv_twice. reflexivity.
  Qed.

  (** What a whole file does to the level [i]: each row that names it replaces
      its three constants, in order; rows that name no level, or another one,
      do nothing to it. *)
  Definition csv_row : Type := string * (string * N) * (string * N) * (string * N).
  Definition fields (r : csv_row) : list string := let '(n, (x, _), (y, _), (z, _)) := r in [n; x; y; z].
  Definition row_fine (r : csv_row) : Prop := let '(n, (x, A), (y, B), (z, C)) := r in has_char "=" n = false /\ parse x = Ok A /\ parse y = Ok B /\ parse z = Ok C.
  Definition row_on s (i : nat) (l : level N) (r : csv_row) : level N :=
    let '(n, (_, A), (_, B), (_, C)) := r in
    match target s n with Some a => if Nat.eqb a i then lv_set_hf A B C l else l | None => l end.
  Theorem C57_rows : forall s rows, Forall row_fine rows ->
    exists s', apply_hf_csv N parse (write_csv (map fields rows)) s = (Ok tt, s') /\ s' = set_levels (s_levels s') s /\
      forall i, lv s' i = option_map (fun l => fold_left (row_on s i) rows l) (lv s i).
  Proof.
    intros s rows F. unfold apply_hf_csv. rewrite C83_csv.
    2:{ apply Forall_forall. intros r H. apply in_map_iff in H as [[[[n [x A]] [y B]] [z C]] [<- _]]. discriminate. }
    assert (G : forall s0, s0 = set_levels (s_levels s0) s -> exists s', forM (map fields rows) (apply_row N parse) s0 = (Ok tt, s') /\ s' = set_levels (s_levels s') s /\
      forall i, lv s' i = option_map (fun l => fold_left (row_on s i) rows l) (lv s0 i)).
    { induction F as [|[[[n [x A]] [y B]] [z C]] rows [H [PA [PB PC]]] F IH]; intros s0 E0.
      - exists s0. split; [reflexivity|]. split; [exact E0|]. intros i. cbn. destruct (lv s0 i); reflexivity.
      - cbn [map forM]. cbn [fields]. rewrite (bind_Ok _ _ _ s0 tt _ (apply_target s0 n x y z A B C H PA PB PC)).
        assert (T : target s0 n = target s n) by (rewrite E0; reflexivity). rewrite T.
        destruct (IH (match target s n with Some a => upd_lv a (lv_set_hf A B C) s0 | None => s0 end)) as [s' [E1 [E2 E3]]].
        { destruct (target s n); [|exact E0]. rewrite E0 at 1. reflexivity. }
        exists s'. split; [exact E1|]. split; [exact E2|]. intros i. rewrite E3. cbn [fold_left row_on]. destruct (target s n) as [a|] eqn:Ta.
        + rewrite lv_upd_lv. destruct (Nat.eqb a i); destruct (lv s0 i); reflexivity.
        + destruct (lv s0 i); reflexivity. }
    apply G. destruct s; reflexivity.
  Qed.
  Lemma forM_ok_app : forall {A} (f : A -> M N unit) xs ys s s1, forM xs f s = (Ok tt, s1) -> forM (xs ++ ys) f s = forM ys f s1.
  Proof.
    intros A f xs. induction xs as [|x xs IH]; intros ys s s1 E; cbn [forM app] in *; [now injection E as ->|].
    unfold bind in *. destruct (f x s) as [[u|e] s2]; [|discriminate]. now apply IH.
  Qed.
  Lemma lv_upd : forall s a f i, lv (upd_lv a f s) i = if Nat.eqb a i then option_map f (lv s i) else lv s i.
  Proof. intros. apply lv_upd_lv. Qed.
  (** An unreadable B constant ends the call in the middle of a level: the rows
      before are applied, the level has the new A and its old B and C, and the
      rows after are not read. *)
  Theorem C57_torn_refuted : forall s pre n x y z A e rest a, Forall row_fine pre -> has_char "=" n = false -> target s n = Some a ->
    parse x = Ok A -> parse y = Raise e -> e <> KeyError -> Forall (fun r => r <> []) rest ->
    exists s', apply_hf_csv N parse (write_csv (map fields pre ++ [n; x; y; z] :: rest)) s = (Raise e, s') /\ s' = set_levels (s_levels s') s /\
      forall i, lv s' i = option_map (fun l => let l1 := fold_left (row_on s i) pre l in if Nat.eqb a i then lv_set_hf A (l_hfB l1) (l_hfC l1) l1 else l1) (lv s i).
  Proof.
    intros s pre n x y z A e rest a F H T PA PB Ne Hr.
    assert (Hp : Forall (fun r => r <> []) (map fields pre)).
    { apply Forall_forall. intros r I. apply in_map_iff in I as [[[[n' [x' A']] [y' B']] [z' C']] [<- _]]. discriminate. }
    destruct (C57_rows s pre F) as [s1 [E1 [E2 E3]]]. unfold apply_hf_csv in *. rewrite C83_csv in E1 by auto.
    rewrite C83_csv by (apply Forall_app; split; auto; constructor; auto; discriminate). rewrite (forM_ok_app _ _ _ _ _ E1). cbn [forM].
    assert (T1 : target s1 n = Some a) by (rewrite E2; exact T).
    exists (upd_lv a (fun l => lv_set_hf A (l_hfB l) (l_hfC l) l) s1). split; [|split].
    - unfold bind at 1. unfold apply_row, assign. unfold bind. rewrite PA, get_target, T1 by auto. unfold modify. rewrite PB. destruct e; try reflexivity. congruence.
    - rewrite E2. reflexivity.
    - intros i. rewrite lv_upd, E3. destruct (lv s i) as [l|]; cbn [option_map]; [|now destruct (Nat.eqb a i)]. now destruct (Nat.eqb a i).
  Qed.
  (** A row for a level the atom does not have is passed over only if its
      constants can be read. *)
  Theorem C57_unknown_refuted : forall s n x y z e rest, has_char "=" n = false -> target s n = None -> Forall (fun r => r <> []) rest ->
    (parse x = Raise e -> e <> KeyError -> apply_hf_csv N parse (write_csv ([n; x; y; z] :: rest)) s = (Raise e, s)) /\
    (forall A, parse x = Ok A -> apply_hf_csv N parse (write_csv ([n; x; y; z] :: rest)) s = apply_hf_csv N parse (write_csv rest) s).
  Proof.
    intros s n x y z e rest H T Hr. assert (Hc : Forall (fun r : list string => r <> []) ([n; x; y; z] :: rest)) by (constructor; auto; discriminate).
    unfold apply_hf_csv. rewrite !C83_csv by auto. cbn [forM]. split.
    - intros P Ne. unfold bind at 1. unfold apply_row, assign, bind. rewrite P. destruct e; try reflexivity. congruence.
    - intros A P. unfold bind at 1. unfold apply_row, assign, bind. rewrite P, get_target, T by auto. reflexivity.
  Qed.
End Hf.
Print Assumptions C57_csv.
Print Assumptions C57_rows.
Print Assumptions C57_torn_refuted.
Print Assumptions C57_unknown_refuted.

(** With the default [defA] of zero nothing changes at all. *)
Theorem C57_partial : forall muB orc show parse, (forall v : Qc, parse (show v) = Ok v) -> (forall n, oracle_ok (orc n)) ->
  forall s, reachable Exact muB orc s -> unshadowed Exact s ->
  apply_hf_csv Exact parse (generate_hf_csv Exact show false 0%Qc s) s = (Ok tt, s).
Proof.
  intros muB orc show parse PS OK s R U. destruct (C57_csv Exact muB orc show parse PS OK s R U false 0%Qc) as [s' [E [S L]]]. rewrite E. f_equal.
  rewrite S. transitivity (set_levels (s_levels s) s); [|destruct s; reflexivity]. f_equal.
  assert (Q : forall a, nth_error (s_levels s') a = nth_error (s_levels s) a).
  { intros a. specialize (L a). unfold lv in L. rewrite L. destruct (nth_error (s_levels s) a) as [l|]; [|reflexivity]. cbn [option_map]. f_equal.
    destruct (in_atom Exact s a); [|reflexivity]. unfold rewritten. change (neqb Exact (l_hfA l) (nofQ Exact 0)) with (Qc_eqb (l_hfA l) (Q2Qc 0)).
    destruct (Qc_eqb_spec (l_hfA l) (Q2Qc 0)) as [Z|Z].
    - change 0%Qc with (Q2Qc 0). rewrite <- Z. destruct l; reflexivity.
    - destruct l; reflexivity. }
  revert Q. generalize (s_levels s') (s_levels s). clear. induction l as [|x l IH]; intros [|y m] Q; auto.
  - specialize (Q O). discriminate.
  - specialize (Q O). discriminate.
  - pose proof (Q O) as Q0. cbn in Q0. f_equal; [congruence|]. apply IH. intros a. exact (Q (S a)).
Qed.
Print Assumptions C57_partial.

(** A way of writing fractions that can be read back. *)
Definition show_q (v : Qc) : string := DecimalString.NilZero.string_of_int (Z.to_int (Qnum v)) ++ "/" ++ DecimalString.NilZero.string_of_uint (Pos.to_uint (Qden v)).
Definition parse_q (s : string) : res Qc :=
  match split_all "/" s with
  | [n; d] => match DecimalString.NilZero.int_of_string n, DecimalString.NilZero.uint_of_string d with
              | Some n, Some d => Ok (Q2Qc (Z.of_int n # match Pos.of_uint d with Npos p => p | N0 => 1%positive end))
              | _, _ => Raise ValueError
              end
  | _ => Raise ValueError
  end.
Lemma uint_free : forall u, free "/" (DecimalString.NilEmpty.string_of_uint u) = true.
Proof. induction u; cbn [DecimalString.NilEmpty.string_of_uint]; try reflexivity; rewrite free_cons, IHu; reflexivity. Qed.
Lemma zuint_free : forall u, free "/" (DecimalString.NilZero.string_of_uint u) = true.
Proof. intros u. unfold DecimalString.NilZero.string_of_uint. destruct u; try apply uint_free. reflexivity. Qed.
Lemma int_free : forall u, free "/" (DecimalString.NilZero.string_of_int u) = true.
Proof. intros [u|u]; cbn [DecimalString.NilZero.string_of_int]; [apply zuint_free|]. rewrite free_cons, zuint_free. reflexivity. Qed.
Lemma parse_show_q : forall v, parse_q (show_q v) = Ok v.
Proof.
  intros v. unfold parse_q, show_q. cbn [append]. rewrite split_cons by apply int_free. rewrite split_free by apply zuint_free.
  assert (Dn : Pos.to_uint (Qden v) <> Decimal.Nil) by apply DecimalPos.Unsigned.to_uint_nonnil.
  rewrite DecimalString.NilZero.usu by exact Dn.
  rewrite DecimalString.NilZero.isi.
  - rewrite DecimalZ.of_to, DecimalPos.Unsigned.of_to. f_equal. apply Qc_is_canon. cbn [this Q2Qc]. rewrite Qred_correct. destruct v as [[n d] c]. reflexivity.
  - destruct (Qnum v); cbn; intros E; inversion E. now apply (DecimalPos.Unsigned.to_uint_nonnil p).
  - destruct (Qnum v); cbn; intros E; inversion E. now apply (DecimalPos.Unsigned.to_uint_nonnil p).
Qed.

(** Two levels with constants of their own. *)
Definition with_hf : st Exact := runx (two 1) [OSetHf Exact 0 (Q2Qc 5) (Q2Qc (1#2)) 0%Qc; OSetHf Exact 1 0%Qc (Q2Qc 7) 0%Qc].
Definition hfs (s : st Exact) : list (Q * Q * Q) := map (fun l : level Exact => (this (l_hfA l), this (l_hfB l), this (l_hfC l))) (atom_levels Exact s).
(** In units of one half. *)
Definition triples (l : list (Z * Z * Z)) : list (Q * Q * Q) := map (fun '(a, b, c) => (Qred (a # 2), Qred (b # 2), Qred (c # 2))) l.
Definition unshadowedb (s : st Exact) : bool :=
  forallb (fun '(n, a) => negb (has_char "=" n) && match dget n (s_lal s) with None => true | Some b => Nat.eqb a b end) (node_attrs (s_g0 s)).
Lemma unshadowedb_ok : forall s, unshadowedb s = true -> unshadowed Exact s.
Proof.
  intros s H n a D. unfold unshadowedb in H. rewrite forallb_forall in H. apply dget_In in D. apply H in D.
  apply andb_true_iff in D as [D1 D2]. split; [now apply negb_true_iff|]. destruct (dget n (s_lal s)); auto. apply Nat.eqb_eq in D2. subst. auto.
Qed.
Example C57_case : reachable Exact 1%Qc plain with_hf /\ unshadowed Exact with_hf /\ (forall n, oracle_ok (plain n)) /\ (forall v, parse_q (show_q v) = Ok v) /\
  hfs with_hf = triples [(10, 1, 0)%Z; (0, 14, 0)%Z] /\
  hfs (snd (apply_hf_csv Exact parse_q (generate_hf_csv Exact show_q false (Q2Qc 3) with_hf) with_hf)) = triples [(10, 1, 0)%Z; (6, 14, 0)%Z] /\
  hfs (snd (apply_hf_csv Exact parse_q (generate_hf_csv Exact show_q true (Q2Qc 3) with_hf) with_hf)) = triples [(0, 0, 0)%Z; (0, 0, 0)%Z].
Proof.
  split; [now apply more_reachable, two_reachable|]. split; [apply unshadowedb_ok; vm_compute; reflexivity|]. split; [exact plain_ok|]. split; [exact parse_show_q|].
  vm_compute. repeat match goal with |- _ /\ _ => split end; reflexivity.
Qed.

(** A file with a name the atom does not have, and one that names a level twice. *)
Definition some_rows : list (csv_row Exact) :=
  let q (z : Z) := (show_q (Q2Qc (z # 1)), Q2Qc (z # 1)) in
  [("6d 2D5/2", q 9%Z, q 9%Z, q 9%Z); ("6s 2S1/2", q 4%Z, q 5%Z, q 6%Z); ("6p 2P*1/2", q 1%Z, q 2%Z, q 3%Z); ("6s 2S1/2", q 7%Z, q 8%Z, q (-9)%Z)].
Example C57_rows_case : Forall (row_fine Exact parse_q) some_rows /\
  fst (apply_hf_csv Exact parse_q (write_csv (map (fields Exact) some_rows)) with_hf) = Ok tt /\
  hfs (snd (apply_hf_csv Exact parse_q (write_csv (map (fields Exact) some_rows)) with_hf)) = triples [(14, 16, -18)%Z; (2, 4, 6)%Z].
Proof.
  split.
  - repeat (apply Forall_cons; [repeat split; try reflexivity; apply parse_show_q|]). apply Forall_nil.
  - vm_compute. repeat match goal with |- _ /\ _ => split end; reflexivity.
Qed.

(** When a level has the name of another as its alias, writing the constants
    and reading them back gives it the constants of the other. *)
Definition aliased : st Exact := runx with_hf [OAlias Exact 0 (match lv with_hf 1 with Some l => lname l | None => "" end)].
Theorem C57_refuted : reachable Exact 1%Qc plain aliased /\ hfs aliased = triples [(10, 1, 0)%Z; (0, 14, 0)%Z] /\
  fst (apply_hf_csv Exact parse_q (generate_hf_csv Exact show_q false 0%Qc aliased) aliased) = Ok tt /\
  hfs (snd (apply_hf_csv Exact parse_q (generate_hf_csv Exact show_q false 0%Qc aliased) aliased)) = triples [(0, 14, 0)%Z; (0, 14, 0)%Z].
Proof.
  split; [now apply more_reachable, more_reachable, two_reachable|].
  vm_compute. repeat match goal with |- _ /\ _ => split end; reflexivity.
Qed.
Print Assumptions C57_refuted.

(** A file whose second row cannot be read to the end. *)
Example C57_torn_case : target Exact with_hf "6s 2S1/2" = Some 0%nat /\ parse_q "4/1" = Ok (Q2Qc 4) /\ parse_q "four" = Raise ValueError /\
  fst (apply_hf_csv Exact parse_q (write_csv [["6p 2P*1/2"; "1/1"; "2/1"; "3/1"]; ["6s 2S1/2"; "4/1"; "four"; "4/1"]; ["6p 2P*1/2"; "9/1"; "9/1"; "9/1"]]) with_hf) = Raise ValueError /\
  hfs (snd (apply_hf_csv Exact parse_q (write_csv [["6p 2P*1/2"; "1/1"; "2/1"; "3/1"]; ["6s 2S1/2"; "4/1"; "four"; "4/1"]; ["6p 2P*1/2"; "9/1"; "9/1"; "9/1"]]) with_hf)) = triples [(8, 1, 0)%Z; (2, 4, 6)%Z] /\
  target Exact with_hf "6d 2D5/2" = None /\
  fst (apply_hf_csv Exact parse_q (write_csv [["6d 2D5/2"; "four"; "4/1"; "4/1"]]) with_hf) = Raise ValueError /\
  fst (apply_hf_csv Exact parse_q (write_csv [["6d 2D5/2"; "4/1"; "four"; "4/1"]]) with_hf) = Ok tt.
Proof. vm_compute. repeat match goal with |- _ /\ _ => split end; reflexivity. Qed.
