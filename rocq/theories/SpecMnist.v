(** SpecMnist.v -- what the example program examples/mnist-kmedoids.rs should compute, without floating point: images
    of bytes and their squared Euclidean distances. *)
From Coq Require Import List ZArith QArith Permutation.
From Coq.Floats Require Import SpecFloat.
From Verif Require Import Num Inst.
Import ListNotations.
Open Scope Z_scope.

(** the big-endian notation of a 32-bit number *)
Definition be32 (x : Z) : list Z := [x / 2 ^ 24; x / 2 ^ 16 mod 256; x / 2 ^ 8 mod 256; x mod 256].

Definition is_byte (x : Z) : Prop := 0 <= x < 256.

(** images of [w] pixels *)
Definition images (w : nat) (imgs : list (list Z)) : Prop :=
  forall p, In p imgs -> length p = w /\ forall x, In x p -> is_byte x.

(** a file of images *)
Definition mnist_file (content : list Z) (rows cols : Z) (imgs : list (list Z)) : Prop :=
  0 <= rows < 2 ^ 32 /\ 0 <= cols < 2 ^ 32 /\ Z.of_nat (length imgs) < 2 ^ 32 /\ images (Z.to_nat (rows * cols)) imgs /\
  exists magic, length magic = 4%nat /\
    content = magic ++ be32 (Z.of_nat (length imgs)) ++ be32 rows ++ be32 cols ++ concat imgs.

(** squared distance of two images, as integers *)
Fixpoint sq_dist (p q : list Z) : Z :=
  match p, q with
  | a :: p', b :: q' => (a - b) * (a - b) + sq_dist p' q'
  | _, _ => 0
  end.

(** the square of the Euclidean distance of image [x] and image [y] with pixels scaled to [0, 1) *)
Definition euclid2 (imgs : list (list Z)) (x y : nat) : Q :=
  (inject_Z (sq_dist (nth x imgs []) (nth y imgs [])) / inject_Z (2 ^ 16))%Q.

(** [s] is the sum of the numbers [l], computed in [f64] in some order with some parentheses, and with any number of
    zeros added *)
Inductive summed : list f64 -> f64 -> Prop :=
| summed_zero : summed [] (S754_zero false)
| summed_one x : summed [x] x
| summed_add l l1 l2 s1 s2 : summed l1 s1 -> summed l2 s2 -> Permutation l (l1 ++ l2) ->
    summed l (SFadd fprec femax s1 s2).

(** a scalar product adds the products of the components, each rounded *)
Definition scalar_product (dot : list f64 -> list f64 -> f64) : Prop :=
  forall a b, length a = length b ->
    summed (map (fun p => SFmul fprec femax (fst p) (snd p)) (combine a b)) (dot a b).
