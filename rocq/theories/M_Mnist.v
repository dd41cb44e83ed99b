(** M_Mnist.v -- model of the example program examples/mnist-kmedoids.rs: images are read from a file of bytes, their
    Euclidean distances are computed in [f64], and FasterPAM is run on them. *)
From Coq Require Import ZArith.
From Coq.Floats Require Import SpecFloat.
From Verif Require Import Base Num M_Mat M_Util M_Fasterpam M_Orlib Inst.
Set Implicit Arguments.

(** byteorder: [read_u32::<BigEndian>()] on a slice, which is advanced by four bytes; too few bytes are an error, and
    the program panics (mnist-kmedoids.rs:30-33).  Bytes are integers from 0 to 255. *)
Definition read_u32 (file : list Z) : res (N * list Z) :=
  match file with
  | a :: b :: c :: d :: rest => Ok (Z.to_N (((a * 256 + b) * 256 + c) * 256 + d), rest)
  | _ => Panic P_unwrap
  end.

(** mnist-kmedoids.rs:37, [*x as f64 / 256.0] *)
Definition pixel (x : Z) : f64 := SFdiv fprec femax (f64_of_Z x) (f64_of_Z 256).

(** ndarray: [train_data.row(m)] of an array with [w] columns in standard layout *)
Definition img_row (w : nat) (cells : list f64) (m : nat) : list f64 := firstn w (skipn (m * w) cells).

Section Mnist.
  (** ndarray: [dist.dot(&dist)]; the order in which the products are added is not fixed here *)
  Variable dot : list f64 -> list f64 -> f64.

  (** mnist-kmedoids.rs:42-44 *)
  Definition l2 (w : nat) (train : list f64) (m n : nat) : f64 :=
    let dist := map (fun p => SFsub fprec femax (fst p) (snd p)) (combine (img_row w train m) (img_row w train n)) in
    SFadd fprec femax (S754_zero false) (SFsqrt fprec femax (dot dist dist)).

  (** mnist-kmedoids.rs:41-47, one step of the inner loop *)
  Definition dist_cell (w : nat) (train : list f64) (m : nat) (mat : Array2 f64) (n : nat) : res (Array2 f64) :=
    let l2sum := l2 w train m n in
    mat1 <- a_set mat m n l2sum ;;
    a_set mat1 n m l2sum.

  (** mnist-kmedoids.rs:40-48 *)
  Definition dist_matrix (w len : nat) (train : list f64) : res (Array2 f64) :=
    foldM (fun mat m => foldM (dist_cell w train m) (seq m (len - m)) mat) (seq 0 len)
      (mkArray2 len len (repeat (S754_zero false) (len * len))).

  (** mnist-kmedoids.rs:15-52, [read_mnist] after the file was read.  [from_shape_vec] needs exactly as many bytes as
      the shape has cells; the product is compared in [N], where it cannot overflow.  The size of the matrix
      ([len * len] cells) is not limited here. *)
  Definition read_mnist (content : list Z) : res (Array2 f64) :=
    '(_, file) <- read_u32 content ;;
    '(len, file) <- read_u32 file ;;
    '(rows, file) <- read_u32 file ;;
    '(cols, img_vec) <- read_u32 file ;;
    _ <- assertb (N.of_nat (length img_vec) =? len * (rows * cols))%N P_unwrap ;;
    dist_matrix (N.to_nat (rows * cols)) (N.to_nat len) (map pixel img_vec).

  (** mnist-kmedoids.rs:54-66, [main] without the measurement and the output.  [sample n k] is the result of
      [random_initialization(n, k, ..)]; it panics for [k > n]. *)
  Definition mnist_main (sample : nat -> nat -> list nat) (content : list Z) : res (pam_result f64) :=
    data <- read_mnist content ;;
    _ <- assertb (10 <=? a_rows data) P_assert ;;
    fasterpam (mat_of_array2 data) (sample (a_rows data) 10) 100.
End Mnist.
