(** SpecGraph.v -- walks and distances in graphs, for the example program which reads a graph (C73).  Nothing here
    refers to the model.  The objects are [0 .. n-1], the lengths of the edges are integers. *)
From Coq Require Import List Arith ZArith Bool.
Import ListNotations.
Open Scope Z_scope.

(** ** complete graphs: [w x y] is the length of the edge from [x] to [y] *)

(** the length of the walk from [x] over the objects [p] to [y] *)
Fixpoint walk_len (w : nat -> nat -> Z) (x : nat) (p : list nat) (y : nat) : Z :=
  match p with
  | [] => w x y
  | z :: p' => w x z + walk_len w z p' y
  end.

(** [d] is the length of the shortest walks from [x] to [y] *)
Definition shortest (w : nat -> nat -> Z) (n x y : nat) (d : Z) : Prop :=
  (exists p, (forall z, In z p -> (z < n)%nat) /\ walk_len w x p y = d) /\
  forall p, (forall z, In z p -> (z < n)%nat) -> d <= walk_len w x p y.

(** ** graphs given by a list of edges *)

(** an undirected edge: its ends and its length *)
Definition edge := (nat * nat * Z)%type.
Definition joins (x y : nat) (e : edge) : bool :=
  match e with (a, b, _) => ((a =? x) && (b =? y) || (a =? y) && (b =? x))%nat end.

(** the length of the edge between [x] and [y]; if there are several entries for it, the last one counts *)
Definition edge_len (E : list edge) (x y : nat) : option Z :=
  match find (joins x y) (rev E) with Some (_, _, d) => Some d | None => None end.

(** [d] is the length of the walk from [x] over [p] to [y] along edges *)
Fixpoint is_walk (E : list edge) (x : nat) (p : list nat) (y : nat) (d : Z) : Prop :=
  match p with
  | [] => edge_len E x y = Some d
  | z :: p' => exists d1 d2, edge_len E x z = Some d1 /\ is_walk E z p' y d2 /\ d = d1 + d2
  end.

(** [y] can be reached from [x], and [d] is their distance *)
Definition graph_dist (E : list edge) (x y : nat) (d : Z) : Prop :=
  (x = y /\ d = 0) \/
  (x <> y /\ (exists p, is_walk E x p y d) /\ forall p d', is_walk E x p y d' -> d <= d').

(** ends below [n], no loops, lengths in [0 .. m] *)
Definition simple_graph (n : nat) (m : Z) (E : list edge) : Prop :=
  forall a b d, In (a, b, d) E -> (a < n)%nat /\ (b < n)%nat /\ a <> b /\ 0 <= d <= m.
