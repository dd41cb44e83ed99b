(** M_Bench.v -- model of the benchmarks benches/bench.rs: a random symmetric matrix of [i32], clustered into five
    clusters with [i32] losses by eight of the functions. *)
From Coq Require Import ZArith.
From Verif Require Import Base Num M_Mat M_Util M_Fasterpam M_Pam M_Alternating M_ParFasterpam M_Orlib.
Set Implicit Arguments.

Section Bench.
  Context {T Lt : Type} `{HT : NumN T} `{HL : NumL Lt} `{HF : FromN T Lt}.
  (** the constant [SIZE] (bench.rs:11), which is 100 *)
  Variable size : nat.
  (** The results of the calls of [rng.gen_range(1..10000)], numbered in the order of the calls. *)
  Variable gen : nat -> T.

  (** bench.rs:18-22, one step of the inner loop; the second component counts the calls of the generator *)
  Definition bench_cell (i : nat) (s : Array2 T * nat) (j : nat) : res (Array2 T * nat) :=
    let '(mat, c) := s in
    let v := gen c in
    mat1 <- a_set mat i j v ;;
    mat2 <- a_set mat1 j i v ;;
    Ok (mat2, S c).

  (** bench.rs:16-23 (repeated at 35-42, 55-62, 74-81, 93-100, 112-119, 130-137, 148-155): the matrix *)
  Definition bench_matrix : res (Array2 T) :=
    s <- foldM (fun s i => foldM (bench_cell i) (seq (i + 1) (size - (i + 1))) s) (seq 0 size)
           (mkArray2 size size (repeat nzero (size * size)), 0) ;;
    Ok (fst s).

  (** bench.rs:25, the initial medoids *)
  Definition bench_med : list nat := [0; 1; 2; 3; 4].

  (** bench.rs:13-30 *)
  Definition bench_fasterpam : res (pam_result Lt) :=
    mat <- bench_matrix ;; fasterpam (mat_of_array2 mat) bench_med 100.
  (** bench.rs:32-49; [order] is the order in which the generator shuffles the candidates *)
  Definition bench_rand_fasterpam (order : list nat) : res (pam_result Lt) :=
    mat <- bench_matrix ;; rand_fasterpam (mat_of_array2 mat) order bench_med 100.
  (** bench.rs:51-69; [orc] is the scheduling, see M_ParFasterpam.v *)
  Definition bench_par_fasterpam (orc : oracle) (order : list nat) : res (pam_result Lt) :=
    mat <- bench_matrix ;; par_fasterpam (mat_of_array2 mat) orc order bench_med 100.
  (** bench.rs:71-88 *)
  Definition bench_fastpam1 : res (pam_result Lt) :=
    mat <- bench_matrix ;; fastpam1 (mat_of_array2 mat) bench_med 100.
  (** bench.rs:90-107 *)
  Definition bench_pam_swap : res (pam_result Lt) :=
    mat <- bench_matrix ;; pam_swap (mat_of_array2 mat) bench_med 100.
  (** bench.rs:109-125 *)
  Definition bench_pam_build : res (Lt * list nat * list nat) :=
    mat <- bench_matrix ;; pam_build (mat_of_array2 mat) 5.
  (** bench.rs:127-143 *)
  Definition bench_pam : res (pam_result Lt) :=
    mat <- bench_matrix ;; pam (mat_of_array2 mat) 5 100.
  (** bench.rs:145-162 *)
  Definition bench_alternating : res (pam_result Lt) :=
    mat <- bench_matrix ;; alternating (mat_of_array2 mat) bench_med 100.
End Bench.
