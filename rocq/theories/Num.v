(** Num.v -- the number types.  The Rust code is generic in the dissimilarity type [N]
    (bounds [Zero + PartialOrd + Clone]) and the loss type [L]
    (bounds [AddAssign + Signed + Zero + PartialOrd + Clone + From<N>] or [Float]).
    The classes list the operations those bounds provide and that the code uses, no laws.
    [a > b] is [b < a] and [a >= b] is [b <= a], as for every derived [PartialOrd].
    [a += b] is [a = a + b].                                                              *)
From Coq Require Import NArith.

Class NumN (Nt : Type) := {
  nzero : Nt;                 (* N::zero() *)
  nadd : Nt -> Nt -> Nt;      (* a + b, from the Zero bound *)
  nltb : Nt -> Nt -> bool;    (* a < b *)
  neqb : Nt -> Nt -> bool;    (* a == b *)
  nis_zero : Nt -> bool       (* N::is_zero(&a) *)
}.

Class NumL (Lt : Type) := {
  lzero : Lt;                 (* L::zero() *)
  lone : Lt;                  (* L::one() *)
  ladd : Lt -> Lt -> Lt;      (* a + b *)
  lsub : Lt -> Lt -> Lt;      (* a - b *)
  lneg : Lt -> Lt;            (* -a *)
  ldiv : Lt -> Lt -> Lt;      (* a / b *)
  lltb : Lt -> Lt -> bool;    (* a < b *)
  lleb : Lt -> Lt -> bool;    (* a <= b *)
  lfrom_u32 : N -> Lt         (* <L as From<u32>>::from *)
}.

Class FromN (Nt Lt : Type) := {
  lfrom : Nt -> Lt            (* <L as From<N>>::from *)
}.
