(** M_Mat.v -- model of src/arrayadapter.rs *)
From Verif Require Import Base Num.
Set Implicit Arguments.

(** The trait [ArrayAdapter<N>] (arrayadapter.rs:7-14). *)
Record Mat (Nt : Type) := mkMat {
  mlen : nat;                          (* fn len(&self) -> usize *)
  msquare : res bool;                  (* fn is_square(&self) -> bool *)
  mget : nat -> nat -> res Nt          (* fn get(&self, x, y) -> N *)
}.

(** [ndarray::ArrayBase<A, Ix2>], arrayadapter.rs:16-35.  Simplification: the array is kept in
    row-major order; ndarray strides and views are not modelled, only shape and elements. *)
Record Array2 (Nt : Type) := mkArray2 {
  a_rows : nat;
  a_cols : nat;
  a_cells : list Nt
}.

(** arrayadapter.rs:23-34: [len] is [shape()[0]], [is_square] compares the two extents,
    [get] is [self[[x, y]].clone()], which panics when out of bounds. *)
Definition mat_of_array2 {Nt} (a : Array2 Nt) : Mat Nt := {|
  mlen := a_rows a;
  msquare := Ok (a_rows a =? a_cols a);
  mget := fun x y =>
    if (x <? a_rows a) && (y <? a_cols a) then idx (a_cells a) (x * a_cols a + y)
    else Panic P_index
|}.

(** [LowerTriangle<N>], arrayadapter.rs:46-52 *)
Record LowerTriangle (Nt : Type) := mkLT {
  lt_n : nat;
  lt_data : list Nt
}.

(** [usize] arithmetic on a 64-bit target.  [checked = true] is a build with overflow checks
    (debug), [checked = false] wraps around (release). *)
Definition usize_bound : N := 18446744073709551616%N.   (* 2^64 *)
Definition usize_sub (checked : bool) (a b : N) : res N :=
  if (b <=? a)%N then Ok (a - b)%N
  else if checked then Panic P_overflow else Ok (a + usize_bound - b)%N.
Definition usize_mul (checked : bool) (a b : N) : res N :=
  if (a * b <? usize_bound)%N then Ok (a * b)%N
  else if checked then Panic P_overflow else Ok ((a * b) mod usize_bound)%N.
Definition usize_add (checked : bool) (a b : N) : res N :=
  if (a + b <? usize_bound)%N then Ok (a + b)%N
  else if checked then Panic P_overflow else Ok ((a + b) mod usize_bound)%N.

(** [(y * (y - 1)) >> 1], arrayadapter.rs:61,66,67 *)
Definition tri_offset (checked : bool) (y : N) : res N :=
  p <- usize_sub checked y 1 ;;
  m <- usize_mul checked y p ;;
  Ok (N.shiftr m 1).

(** arrayadapter.rs:59-62: [self.data.len() == (self.n * (self.n - 1)) >> 1] *)
Definition lt_is_square {Nt} (checked : bool) (t : LowerTriangle Nt) : res bool :=
  e <- tri_offset checked (N.of_nat (lt_n t)) ;;
  Ok (N.of_nat (length (lt_data t)) =? e)%N.

(** Element [data[((y * (y - 1)) >> 1) + x]], arrayadapter.rs:66,67 *)
Definition lt_cell {Nt} (checked : bool) (t : LowerTriangle Nt) (hi lo : nat) : res Nt :=
  o <- tri_offset checked (N.of_nat hi) ;;
  i <- usize_add checked o (N.of_nat lo) ;;
  if (i <? N.of_nat (length (lt_data t)))%N then idx (lt_data t) (N.to_nat i)
  else Panic P_index.

(** arrayadapter.rs:63-70 *)
Definition lt_get {Nt} `{NumN Nt} (checked : bool) (t : LowerTriangle Nt) (x y : nat) : res Nt :=
  match x ?= y with
  | Lt => lt_cell checked t y x
  | Gt => lt_cell checked t x y
  | Eq => Ok nzero
  end.

(** arrayadapter.rs:53-71 *)
Definition mat_of_lt {Nt} `{NumN Nt} (checked : bool) (t : LowerTriangle Nt) : Mat Nt := {|
  mlen := lt_n t;
  msquare := lt_is_square checked t;
  mget := lt_get checked t
|}.
