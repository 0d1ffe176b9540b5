(** Numbers of the model.  The code computes with Python floats.  Structural
    theorems hold for any record of operations; arithmetic theorems use exact
    rationals; rounding theorems use IEEE binary64. *)
From Coq Require Import List Bool ZArith QArith Qcanon Lia Floats.SpecFloat.
From Verif Require Import Base Util Term.
Import ListNotations.

Record Num : Type := {
  num :> Type;
  nadd : num -> num -> num;
  nsub : num -> num -> num;
  nmul : num -> num -> num;
  ndiv : num -> num -> num;
  nopp : num -> num;
  nabs : num -> num;
  nltb : num -> num -> bool;
  neqb : num -> num -> bool;
  (** A literal of the program, or a half-integer. *)
  nofQ : Q -> num
}.

(** The half-integer [z/2]. *)
Definition nhalf (N : Num) (z : Z) : N := nofQ N (z # 2).
Definition nint (N : Num) (z : Z) : N := nofQ N (z # 1).

(** ** Exact rationals *)

Definition Qc_abs (x : Qc) : Qc := if Qc_ltb x 0 then Qcopp x else x.

Definition Exact : Num := {|
  num := Qc;
  nadd := Qcplus; nsub := Qcminus; nmul := Qcmult; ndiv := Qcdiv;
  nopp := Qcopp; nabs := Qc_abs;
  nltb := Qc_ltb; neqb := Qc_eqb; nofQ := Q2Qc
|}.

(** ** IEEE binary64, round to nearest even *)

Definition fprec : Z := 53.
Definition femax : Z := 1024.

(** Integers and quotients rounded to binary64. *)
Definition f_ofZ (z : Z) : spec_float := binary_normalize fprec femax z 0 false.
Definition f_ofQ (q : Q) : spec_float := SFdiv fprec femax (f_ofZ (Qnum q)) (f_ofZ (Zpos (Qden q))).

Definition Binary64 : Num := {|
  num := spec_float;
  nadd := SFadd fprec femax; nsub := SFsub fprec femax; nmul := SFmul fprec femax;
  ndiv := SFdiv fprec femax; nopp := SFopp; nabs := SFabs;
  nltb := SFltb; neqb := SFeqb; nofQ := f_ofQ
|}.
