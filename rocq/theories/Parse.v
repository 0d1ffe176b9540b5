(** Model of the term-symbol parsers, [atomtoolkit/util.py] lines 129-264. *)
From Coq Require Import List Bool ZArith QArith Lia String Ascii.
From Verif Require Import Base PyStr Util Regex.
Import ListNotations.
Local Open Scope string_scope.

(** The nine quantum numbers [lc, sc, lo, so, jc, jo, l, s, k] of
    util.py:148; [None] is Python's [None].  Rationals are kept reduced so that
    equality of tuples is equality of values. *)
Record qnums : Type := mkQN {
  q_lc : option Q; q_sc : option Q; q_lo : option Q; q_so : option Q;
  q_jc : option Q; q_jo : option Q; q_l : option Q; q_s : option Q; q_k : option Q
}.
Definition no_qnums : qnums := mkQN None None None None None None None None None.

(** ** The regular expressions *)

(** util.py:160  [(\d+)([A-Z])] *)
Definition re_LS : re := RCat (RGrp 1 (RPlus false is_digit)) (RGrp 2 (RChr is_upper)).

(** util.py:181  [(\d+)([A-Z])\*?(?:<(.+?)>)?] *)
Definition re_JKconf : re :=
  RCat (RGrp 1 (RPlus false is_digit)) (RCat (RGrp 2 (RChr is_upper))
    (RCat (ROpt (rchr "*"))
       (ROpt (RCat (rchr "<") (RCat (RGrp 3 (RPlus true not_newline)) (rchr ">")))))).

(** util.py:188  [(\d+)\[(.+?)]] *)
Definition re_JKterm : re :=
  RCat (RGrp 1 (RPlus false is_digit)) (RCat (rchr "[")
    (RCat (RGrp 2 (RPlus true not_newline)) (rchr "]"))).

(** util.py:211,213  [(?:(\d+)([A-Za-z])|\(.+?\))\*?<(.+?)>] *)
Definition re_JJ : re :=
  RCat (RAlt (RCat (RGrp 1 (RPlus false is_digit)) (RGrp 2 (RChr is_alpha)))
             (RCat (rchr "(") (RCat (RPlus true not_newline) (rchr ")"))))
    (RCat (ROpt (rchr "*")) (RCat (rchr "<") (RCat (RGrp 3 (RPlus true not_newline)) (rchr ">")))).

(** util.py:251  [\((\d+)([A-Z])\*?\)] *)
Definition re_LKconf : re :=
  RCat (rchr "(") (RCat (RGrp 1 (RPlus false is_digit)) (RCat (RGrp 2 (RChr is_upper))
    (RCat (ROpt (rchr "*")) (rchr ")")))).

(** util.py:258  [([A-Z])\*? ?(\d+)\[(.+?)]] *)
Definition re_LKterm : re :=
  RCat (RGrp 1 (RChr is_upper)) (RCat (ROpt (rchr "*")) (RCat (ROpt (rchr " "))
    (RCat (RGrp 2 (RPlus false is_digit)) (RCat (rchr "[")
      (RCat (RGrp 3 (RPlus true not_newline)) (rchr "]")))))).

(** ** Helpers *)

(** [(float(ss) - 1) / 2] *)
Definition spin_of (ss : string) : res Q :=
  match pyfloat ss with
  | Some m => Ok (Qred ((m - 1) / (2 # 1)))
  | None => Raise ValueError
  end.

(** [let_to_l] as the parsers call it: util.py:9-18. *)
Definition l_of (s : string) : res (option Q) :=
  rmap (option_map inject_Z) (let_to_l s).

(** [frac_to_float] as the parsers call it: util.py:34-50. *)
Definition frac_of (s : string) : res (option Q) :=
  rmap (option_map Qred) (frac_to_float (VStr s)).

(** [s[-1]] *)
Fixpoint last_char (s : string) : res string :=
  match s with
  | EmptyString => Raise IndexError
  | String a EmptyString => Ok (String a EmptyString)
  | String _ s' => last_char s'
  end.

(** [s.isupper()] / [s.islower()] for the one-character (or empty) group. *)
Definition s_isupper (s : string) : bool :=
  match s with String a EmptyString => is_upper a | _ => false end.
Definition s_islower (s : string) : bool :=
  match s with String a EmptyString => is_lower a | _ => false end.

Local Open Scope res_scope.

(** util.py:151-163 [parse_LS_term]: returns (l, s). *)
Definition parse_LS_term (term : string) : res (option Q * Q) :=
  match findall re_LS term with
  | [c] =>
      s <-- spin_of (grp 1 c) ;;
      l <-- l_of (grp 2 c) ;;
      Ok (l, s)
  | _ => Raise ValueError
  end.

(** util.py:166-197 [parse_JK_term]: (lc, sc, lo, so, jc, k). *)
Definition parse_JK_term (conf term : string) : res (option Q * Q * option Q * Q * option Q * option Q) :=
  '(scs, lcs, jcs, los) <--
    match findall re_JKconf conf with
    | [c1; c2] => Ok (grp 1 c1, grp 2 c1, grp 3 c1, grp 2 c2)
    | [c1] => los <-- last_char conf ;; Ok (grp 1 c1, grp 2 c1, grp 3 c1, los)
    | _ => Raise ValueError
    end ;;
  '(sos, ks) <-- match findall re_JKterm term with
                 | [c] => Ok (grp 1 c, grp 2 c)
                 | _ => Raise ValueError end ;;
  jc <-- frac_of jcs ;;
  k <-- frac_of ks ;;
  sc <-- spin_of scs ;;
  so <-- spin_of sos ;;
  lc <-- l_of lcs ;;
  lo <-- l_of los ;;
  Ok (lc, sc, lo, so, jc, k).

(** util.py:220-231: spin of a constituent from its letter's case. *)
Definition jj_spin (ss ls : string) : res (option Q) :=
  if s_isupper ls then rmap Some (spin_of ss)
  else if s_islower ls then Ok (Some 0%Q)
  else Ok None.

(** util.py:200-233 [parse_JJ_term]: (lc, sc, lo, so, jc, jo). *)
Definition parse_JJ_term (conf term : string)
  : res (option Q * option Q * option Q * option Q * option Q * option Q) :=
  let parts := findall re_JJ conf in
  let parts := match parts with [] => findall re_JJ term | _ => parts end in
  match parts with
  | [c; o] =>
      jc <-- frac_of (grp 3 c) ;;
      jo <-- frac_of (grp 3 o) ;;
      lc <-- l_of (grp 2 c) ;;
      lo <-- l_of (grp 2 o) ;;
      sc <-- jj_spin (grp 1 c) (grp 2 c) ;;
      so <-- jj_spin (grp 1 o) (grp 2 o) ;;
      Ok (lc, sc, lo, so, jc, jo)
  | _ => Raise ValueError
  end.

(** util.py:236-267 [parse_LK_term]: (lc, sc, lo, so, l, k). *)
Definition parse_LK_term (conf term : string) : res (option Q * Q * option Q * Q * option Q * option Q) :=
  '(scs, lcs, los) <--
    match findall re_LKconf conf with
    | [c1; c2] => Ok (grp 1 c1, grp 2 c1, grp 2 c2)
    | [c1] => los <-- last_char conf ;; Ok (grp 1 c1, grp 2 c1, los)
    | _ => Raise ValueError
    end ;;
  '(ls, sos, ks) <-- match findall re_LKterm term with
                     | [c] => Ok (grp 1 c, grp 2 c, grp 3 c)
                     | _ => Raise ValueError end ;;
  k <-- frac_of ks ;;
  sc <-- spin_of scs ;;
  so <-- spin_of sos ;;
  l <-- l_of ls ;;
  lc <-- l_of lcs ;;
  lo <-- l_of los ;;
  Ok (lc, sc, lo, so, l, k).

(** util.py:133-148 [get_quantum_nums]. *)
Definition get_quantum_nums (conf term : string) : res qnums :=
  match get_term_coupling term with
  | CLS =>
      '(l, s) <-- parse_LS_term term ;;
      Ok (mkQN None None None None None None l (Some s) None)
  | CJK =>
      '(lc, sc, lo, so, jc, k) <-- parse_JK_term conf term ;;
      Ok (mkQN lc (Some sc) lo (Some so) jc None None None k)
  | CJJ =>
      '(lc, sc, lo, so, jc, jo) <-- parse_JJ_term conf term ;;
      Ok (mkQN lc sc lo so jc jo None None None)
  | CLK =>
      '(lc, sc, lo, so, l, k) <-- parse_LK_term conf term ;;
      Ok (mkQN lc (Some sc) lo (Some so) None None l None k)
  | CUnknown => Ok no_qnums
  end.

(** Sanity checks on inputs of the repository's tests (tests/test_util.py). *)
Example parse_LS_example :
  get_quantum_nums "6s" "2S" = Ok (mkQN None None None None None None (Some 0%Q) (Some (1 # 2)) None).
Proof. reflexivity. Qed.
Example parse_JK_example :
  get_quantum_nums "4f13.(2F*<7/2>).5d2.(3P)" "2[3/2]" =
  Ok (mkQN (Some 3%Q) (Some (1 # 2)) (Some 1%Q) (Some (1 # 2)) (Some (7 # 2)) None None None (Some (3 # 2))).
Proof. reflexivity. Qed.
