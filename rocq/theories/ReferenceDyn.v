(** ReferenceDyn.v -- the reference algorithm for dynmsc: local search, then drop a medoid, and so on.
    Part of the specification: nothing here refers to the model. *)
From Coq Require Import QArith Lia.
From Verif Require Import Base Spec Reference.
Set Implicit Arguments.
Open Scope nat_scope.

(** drop the medoid at position [b]; the last one takes its place *)
Definition drop_at (med : list nat) (b : nat) : list nat :=
  firstn (length med - 1) (swap med b (last med 0)).

(** the first of the results of a drop with the smallest medoid silhouette *)
Definition worst_drop (v : diss) (n : nat) (med : list nat) : list nat :=
  first_best (fun a b => sil_better v n b a) (map (drop_at med) (seq 1 (length med - 1))) (drop_at med 0).

(** [t] searches with first improvement; between two of them a medoid is dropped *)
Fixpoint shrink (v : diss) (n maxiter t : nat) (med : list nat) : list (list nat * nat * nat) :=
  match t with
  | 0 => []
  | S t => let r := eager_swaps (sil_better v n) (seq 0 n) med maxiter in
           r :: shrink v n maxiter t (worst_drop v n (fst (fst r)))
  end.

(** the medoids at the end of search number [j] *)
Definition end_of (runs : list (list nat * nat * nat)) (j : nat) : list nat := fst (fst (nth j runs ([], 0, 0))).

(** the first of the best end points *)
Definition best_run (v : diss) (n : nat) (runs : list (list nat * nat * nat)) : list nat :=
  match map (fun r => fst (fst r)) runs with
  | [] => []
  | m :: ms => first_best (sil_better v n) ms m
  end.

Definition all_swapped (runs : list (list nat * nat * nat)) : nat := list_sum (map (fun r => snd (fst r)) runs).
Definition all_passes (runs : list (list nat * nat * nat)) : nat := list_sum (map snd runs).
