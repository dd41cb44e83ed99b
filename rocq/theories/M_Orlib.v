(** M_Orlib.v -- model of the example program examples/orlib-kmedoids.rs: a graph is read from a file, all distances
    are computed by Floyd's algorithm, and FasterPAM is run on them. *)
From Coq Require Import ZArith.
From Verif Require Import Base Num M_Mat M_Util M_Fasterpam.
Set Implicit Arguments.

(** ndarray: [mat[[x, y]]] *)
Definition a_get {T} (a : Array2 T) (x y : nat) : res T :=
  if (x <? a_rows a) && (y <? a_cols a) then idx (a_cells a) (x * a_cols a + y) else Panic P_index.

(** ndarray: [mat[[x, y]] = v] *)
Definition a_set {T} (a : Array2 T) (x y : nat) (v : T) : res (Array2 T) :=
  if (x <? a_rows a) && (y <? a_cols a) then
    cells <- upd (a_cells a) (x * a_cols a + y) v ;; Ok (mkArray2 (a_rows a) (a_cols a) cells)
  else Panic P_index.

Section Orlib.
  Context {T : Type} `{HT : NumN T}.
  (** [a + b] of the element type.  Machine integers panic (builds with overflow checks) or wrap around. *)
  Variable add : T -> T -> res T.

  (** orlib-kmedoids.rs:29-33, the body of the innermost loop *)
  Definition floyd_cell (i x : nat) (mat : Array2 T) (y : nat) : res (Array2 T) :=
    a <- a_get mat x i ;;
    b <- a_get mat i y ;;
    m <- add a b ;;
    c <- a_get mat x y ;;
    if nltb m c then
      mat1 <- a_set mat y x m ;;
      a_set mat1 x y m
    else Ok mat.

  (** orlib-kmedoids.rs:28-34 *)
  Definition floyd_row (n i : nat) (mat : Array2 T) (x : nat) : res (Array2 T) :=
    foldM (floyd_cell i x) (seq (x + 1) (n - (x + 1))) mat.

  (** orlib-kmedoids.rs:27-35 *)
  Definition floyd_stage (n : nat) (mat : Array2 T) (i : nat) : res (Array2 T) :=
    foldM (floyd_row n i) (seq 0 n) mat.

  (** orlib-kmedoids.rs:19-37 *)
  Definition all_pairs_shortest_path (mat : Array2 T) : res (Array2 T) :=
    let n := a_rows mat in
    _ <- assertb (n =? a_cols mat) P_assert ;;
    foldM (floyd_stage n) (seq 0 n) mat.

  (** [str::parse] for [usize] and for the element type; [None] is an error.  The file is given as lines of
      tokens ([split_whitespace]); input/output errors are not modelled. *)
  Variable Tok : Type.
  Variable parse_usize : Tok -> option N.
  Variable parse_T : Tok -> option T.
  (** overflow checks, as in M_Mat.v *)
  Variable checked : bool.

  (** orlib-kmedoids.rs:52-55, [collect::<Result<Vec<usize>, ParseIntError>>] *)
  Fixpoint parse_all (l : list Tok) : option (list N) :=
    match l with
    | [] => Some []
    | t :: l' =>
        match parse_usize t with
        | None => None
        | Some a => match parse_all l' with None => None | Some r => Some (a :: r) end
        end
    end.

  (** [split.next().expect(..)] *)
  Definition next_tok (l : list Tok) : res (Tok * list Tok) :=
    match l with [] => Panic P_unwrap | t :: l' => Ok (t, l') end.

  (** [mat[[x1 - 1, x2 - 1]] = d], orlib-kmedoids.rs:68,69.  The comparison is made in [N]: [0 - 1] wrapped
      around is out of bounds. *)
  Definition set_edge (mat : Array2 T) (x1 x2 : N) (d : T) : res (Array2 T) :=
    i <- usize_sub checked x1 1 ;;
    j <- usize_sub checked x2 1 ;;
    if ((i <? N.of_nat (a_rows mat)) && (j <? N.of_nat (a_cols mat)))%N then a_set mat (N.to_nat i) (N.to_nat j) d
    else Panic P_index.

  (** orlib-kmedoids.rs:61-70, one line; [Ok None] is a return with [Err] by the operator [?] *)
  Definition read_edge (mat : Array2 T) (ln : list Tok) : res (option (Array2 T)) :=
    '(t1, r1) <- next_tok ln ;;
    match parse_usize t1 with
    | None => Ok None
    | Some x1 =>
        '(t2, r2) <- next_tok r1 ;;
        match parse_usize t2 with
        | None => Ok None
        | Some x2 =>
            _ <- assertb (negb (x1 =? x2)%N) P_assert ;;
            '(t3, _) <- next_tok r2 ;;
            match parse_T t3 with
            | None => Ok None
            | Some d =>
                mat1 <- set_edge mat x1 x2 d ;;
                mat2 <- set_edge mat1 x2 x1 d ;;
                Ok (Some mat2)
            end
        end
    end.

  (** orlib-kmedoids.rs:61-70, the loop *)
  Fixpoint read_edges (lines : list (list Tok)) (mat : Array2 T) : res (option (Array2 T)) :=
    match lines with
    | [] => Ok (Some mat)
    | ln :: lines' =>
        o <- read_edge mat ln ;;
        match o with None => Ok None | Some mat' => read_edges lines' mat' end
    end.

  (** orlib-kmedoids.rs:71-73 *)
  Definition zero_diagonal (n : nat) (mat : Array2 T) : res (Array2 T) :=
    foldM (fun mat x => a_set mat x x nzero) (seq 0 n) mat.

  (** orlib-kmedoids.rs:39-79, [read_orlib]; the pair is [Problem { data, k }] *)
  Definition read_orlib (first_line : list Tok) (lines : list (list Tok)) (default_value : T) : res (option (Array2 T * nat)) :=
    match parse_all first_line with
    | None => Ok None
    | Some first =>
        _ <- assertb (length first =? 3) P_assert ;;
        n <- idx first 0 ;;
        k <- idx first 2 ;;
        let n := N.to_nat n in
        let mat := mkArray2 n n (repeat default_value (n * n)) in
        o <- read_edges lines mat ;;
        match o with
        | None => Ok None
        | Some mat =>
            mat <- zero_diagonal n mat ;;
            mat <- all_pairs_shortest_path mat ;;
            Ok (Some (mat, N.to_nat k))
        end
    end.
End Orlib.

(** orlib-kmedoids.rs:81-96, [main] without the measurement and the output.  [sample n k] is the result of
    [random_initialization(n, k, ..)]; it panics for [k > n]. *)
Definition orlib_main {T Lt Tok} `{HT : NumN T} `{HL : NumL Lt} `{HF : FromN T Lt} (add : T -> T -> res T)
    (parse_usize : Tok -> option N) (parse_T : Tok -> option T) (checked : bool) (default_value : T)
    (sample : nat -> nat -> list nat) (first_line : list Tok) (lines : list (list Tok)) : res (option (pam_result Lt)) :=
  o <- read_orlib add parse_usize parse_T checked first_line lines default_value ;;
  match o with
  | None => Ok None
  | Some (data, k) =>
      _ <- assertb (k <=? a_rows data) P_assert ;;
      r <- fasterpam (mat_of_array2 data) (sample (a_rows data) k) 100 ;;
      Ok (Some r)
  end.
