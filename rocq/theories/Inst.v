(** Inst.v -- concrete number types: integers, rationals and IEEE-754 binary64.

    Integers are unbounded (no wrap-around).  The rationals serve as exact loss type.
    binary64 is the bit-exact executable specification [SpecFloat] of Coq's standard library
    (round to nearest even), which is defined without axioms.                                *)
From Coq Require Import ZArith QArith Qreduction.
From Coq.Floats Require Import SpecFloat.
From Verif Require Import Base Num M_Mat.
Set Implicit Arguments.

(** integer dissimilarities, e.g. [u32], [i64] *)
Global Instance NumN_Z : NumN Z := {|
  nzero := 0%Z; nadd := Z.add; nltb := Z.ltb; neqb := Z.eqb; nis_zero := Z.eqb 0
|}.

(** integer losses, e.g. [i64]; the division of Rust's integers truncates *)
Global Instance NumL_Z : NumL Z := {|
  lzero := 0%Z; lone := 1%Z; ladd := Z.add; lsub := Z.sub; lneg := Z.opp; ldiv := Z.quot;
  lltb := Z.ltb; lleb := Z.leb; lfrom_u32 := Z.of_N
|}.

Global Instance FromN_Z_Z : FromN Z Z := {| lfrom := fun x => x |}.

(** exact rationals *)
Definition Qltb (a b : Q) : bool := negb (Qle_bool b a).

Global Instance NumN_Q : NumN Q := {|
  nzero := 0%Q; nadd := fun a b => Qred (a + b); nltb := Qltb; neqb := Qeq_bool;
  nis_zero := Qeq_bool 0
|}.

Global Instance NumL_Q : NumL Q := {|
  lzero := 0%Q; lone := 1%Q; ladd := fun a b => Qred (a + b); lsub := fun a b => Qred (a - b);
  lneg := Qopp; ldiv := fun a b => Qred (a / b);
  lltb := Qltb; lleb := Qle_bool; lfrom_u32 := fun n => inject_Z (Z.of_N n)
|}.

Global Instance FromN_Q_Q : FromN Q Q := {| lfrom := fun x => x |}.
Global Instance FromN_Z_Q : FromN Z Q := {| lfrom := inject_Z |}.

(** IEEE-754 binary64, the type [f64] *)
Definition f64 := spec_float.
Definition fprec : Z := 53%Z.
Definition femax : Z := 1024%Z.
Definition f64_of_Z (z : Z) : f64 := binary_normalize fprec femax z 0 false.

Global Instance NumN_f64 : NumN f64 := {|
  nzero := S754_zero false; nadd := SFadd fprec femax; nltb := SFltb; neqb := SFeqb;
  nis_zero := SFeqb (S754_zero false)
|}.

Global Instance NumL_f64 : NumL f64 := {|
  lzero := S754_zero false; lone := f64_of_Z 1; ladd := SFadd fprec femax;
  lsub := SFsub fprec femax; lneg := SFopp; ldiv := SFdiv fprec femax;
  lltb := SFltb; lleb := SFleb; lfrom_u32 := fun n => f64_of_Z (Z.of_N n)
|}.

Global Instance FromN_f64_f64 : FromN f64 f64 := {| lfrom := fun x => x |}.
(** [f64: From<i32>], [From<u32>] *)
Global Instance FromN_Z_f64 : FromN Z f64 := {| lfrom := f64_of_Z |}.

(** A matrix given by its rows, for examples. *)
Definition mat_of_rows {Nt} (rows : list (list Nt)) : Mat Nt :=
  mat_of_array2 {| a_rows := length rows; a_cols := length (hd [] rows); a_cells := concat rows |}.
