(** Spec.v -- the mathematical notions the properties are stated with.  Nothing here refers to
    the model of the code.  Dissimilarities and losses are rational numbers. *)
From Coq Require Import List Arith QArith Qminmax Permutation.
Import ListNotations.
Set Implicit Arguments.
Open Scope Q_scope.

(** [v o m] is the dissimilarity of object [o] to object [m]. *)
Definition diss := nat -> nat -> Q.

Definition sumQ {A} (f : A -> Q) (l : list A) : Q := fold_right (fun x s => f x + s) 0 l.

(** ** Total deviation, the objective of k-medoids *)

(** smallest element of a list *)
Fixpoint minQ (l : list Q) : Q :=
  match l with
  | [] => 0
  | [x] => x
  | x :: l' => Qmin x (minQ l')
  end.

(** distance of [o] to its nearest medoid *)
Definition mindist (v : diss) (o : nat) (med : list nat) : Q := minQ (map (v o) med).

(** sum over all [n] objects *)
Definition tdev (v : diss) (n : nat) (med : list nat) : Q :=
  sumQ (fun o => mindist v o med) (seq 0 n).

(** the medoid number [a] is a nearest one for [o] *)
Definition nearest (v : diss) (o : nat) (med : list nat) (a : nat) : Prop :=
  (a < length med)%nat /\
  forall c, (c < length med)%nat -> v o (nth a med 0%nat) <= v o (nth c med 0%nat).

(** cost of an assignment: the sum of the dissimilarities to the assigned medoids *)
Definition assigned_cost (v : diss) (n : nat) (med assi : list nat) : Q :=
  sumQ (fun o => v o (nth (nth o assi 0%nat) med 0%nat)) (seq 0 n).

(** sum of the dissimilarities of [m] to all objects (row [m]) *)
Definition row_total (v : diss) (n m : nat) : Q := sumQ (fun i => v m i) (seq 0 n).

(** replace medoid number [b] by object [j] *)
Definition swap (med : list nat) (b j : nat) : list nat :=
  firstn b med ++ j :: skipn (S b) med.

(** no single swap lowers the total deviation *)
Definition swap_optimal (v : diss) (n : nat) (med : list nat) : Prop :=
  forall b j, (b < length med)%nat -> (j < n)%nat -> tdev v n med <= tdev v n (swap med b j).

(** ** Inputs *)

(** [v] is a dissimilarity on [n] objects: non-negative, zero on the diagonal *)
Definition dissimilarity (n : nat) (v : diss) : Prop :=
  (forall i, (i < n)%nat -> v i i == 0) /\
  (forall i j, (i < n)%nat -> (j < n)%nat -> 0 <= v i j).

Definition symmetric (n : nat) (v : diss) : Prop :=
  forall i j, (i < n)%nat -> (j < n)%nat -> v i j == v j i.

(** a (pseudo-)metric *)
Definition metric (n : nat) (v : diss) : Prop :=
  dissimilarity n v /\ symmetric n v /\
  forall i j l, (i < n)%nat -> (j < n)%nat -> (l < n)%nat -> v i l <= v i j + v j l.

(** all dissimilarities are integers *)
Definition integral (n : nat) (v : diss) : Prop :=
  forall i j, (i < n)%nat -> (j < n)%nat -> exists z, v i j == inject_Z z.

(** [k] different objects *)
Definition medoids (n k : nat) (med : list nat) : Prop :=
  length med = k /\ NoDup med /\ forall m, In m med -> (m < n)%nat.

(** sizes accepted by the library: [1 <= k <= n], and everything fits into a [u32] *)
Definition sizes (n k : nat) : Prop :=
  (1 <= k <= n)%nat /\ (N.of_nat n <= 4294967295)%N /\ (N.of_nat k < 4294967295)%N.

(** ** Clusters *)

(** sum of the dissimilarities of [m] to the objects [i < n] with [assi[i] = c] *)
Definition cluster_cost (v : diss) (n : nat) (assi : list nat) (c m : nat) : Q :=
  sumQ (fun i => if Nat.eqb (nth i assi 0%nat) c then v m i else 0) (seq 0 n).

(** ** Greedy construction *)

(** every medoid is chosen so that the total deviation of the medoids so far is smallest *)
Definition greedy (v : diss) (n : nat) (meds : list nat) : Prop :=
  forall i y, (i < length meds)%nat -> (y < n)%nat ->
    tdev v n (firstn (S i) meds) <= tdev v n (firstn i meds ++ [y]).

(** likewise, but object 0 is never considered after the first medoid *)
Definition greedy_but_0 (v : diss) (n : nat) (meds : list nat) : Prop :=
  forall i y, (i < length meds)%nat -> (y < n)%nat -> (i = 0%nat \/ y <> 0%nat) ->
    tdev v n (firstn (S i) meds) <= tdev v n (firstn i meds ++ [y]).

(** ** Silhouette (Rousseeuw 1987).  In [Q], [x / 0] is [0]. *)

(** the objects of cluster [c], without [i] *)
Definition others (assi : list nat) (i c : nat) : list nat :=
  filter (fun j => andb (negb (Nat.eqb j i)) (Nat.eqb (nth j assi 0%nat) c)) (seq 0 (length assi)).

(** mean dissimilarity of [i] to some objects *)
Definition mean_diss (v : diss) (i : nat) (l : list nat) : Q :=
  sumQ (v i) l / inject_Z (Z.of_nat (length l)).

(** mean dissimilarity to the other objects of the own cluster *)
Definition sil_a (v : diss) (assi : list nat) (i : nat) : Q :=
  mean_diss v i (others assi i (nth i assi 0%nat)).

(** smallest mean dissimilarity to another cluster *)
Definition sil_b (v : diss) (assi : list nat) (i : nat) : Q :=
  minQ (map (fun c => mean_diss v i (others assi i c))
            (filter (fun c => negb (Nat.eqb c (nth i assi 0%nat))) assi)).

(** silhouette of one object, [0] if it is alone in its cluster *)
Definition sil_object (v : diss) (assi : list nat) (i : nat) : Q :=
  match others assi i (nth i assi 0%nat) with
  | [] => 0
  | _ => (sil_b v assi i - sil_a v assi i) / Qmax (sil_a v assi i) (sil_b v assi i)
  end.

(** average silhouette *)
Definition sil_mean (v : diss) (assi : list nat) : Q :=
  sumQ (sil_object v assi) (seq 0 (length assi)) / inject_Z (Z.of_nat (length assi)).

(** every medoid belongs to its own cluster, every other object to the first of the nearest medoids *)
Definition assigned_first (v : diss) (n : nat) (med assi : list nat) : Prop :=
  length assi = n /\ forall o, (o < n)%nat ->
    let a := nth o assi 0%nat in
    (a < length med)%nat /\ (In o med -> nth a med 0%nat = o) /\
    (~ In o med -> nearest v o med a /\ forall c, (c < a)%nat -> v o (nth a med 0%nat) < v o (nth c med 0%nat)).

(** no swap of a medoid for another object raises the silhouette of the clustering *)
Definition clustering_sil_optimal (v : diss) (n : nat) (med : list nat) (value : Q) : Prop :=
  forall b j assi, (b < length med)%nat -> (j < n)%nat -> ~ In j med ->
    assigned_first v n (swap med b j) assi -> sil_mean v assi <= value.

(** the labels are [0 .. K-1], all of them in use *)
Definition dense (K : nat) (assi : list nat) : Prop := forall c, In c assi <-> (c < K)%nat.

(** ** Medoid silhouette *)
Fixpoint insertQ (x : Q) (l : list Q) : list Q :=
  match l with
  | [] => [x]
  | y :: l' => if Qle_bool x y then x :: l else y :: insertQ x l'
  end.
Definition sortQ (l : list Q) : list Q := fold_right insertQ [] l.

(** ratio of the distances to the nearest and to the second nearest medoid *)
Definition near_ratio (v : diss) (o : nat) (med : list nat) : Q :=
  let s := sortQ (map (v o) med) in nth 0 s 0 / nth 1 s 0.

(** average medoid silhouette, at least two medoids *)
Definition med_sil (v : diss) (n : nat) (med : list nat) : Q :=
  1 - sumQ (fun o => near_ratio v o med) (seq 0 n) / inject_Z (Z.of_nat n).

(** no swap of a medoid for another object raises the medoid silhouette.  (Replacing a medoid by a
    copy of another one may raise it: the smaller set of medoids can be better separated.) *)
Definition sil_optimal (v : diss) (n : nat) (med : list nat) : Prop :=
  forall b j, (b < length med)%nat -> (j < n)%nat -> ~ In j med ->
    med_sil v n (swap med b j) <= med_sil v n med.

(** [med'] is [med] without one of its elements, in any order *)
Definition drop_one (med med' : list nat) : Prop := exists x, Permutation med (x :: med').
