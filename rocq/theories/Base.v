(** Base.v -- the panic monad, slices and loops used by the model.

    Rust constructs and their counterparts here:
    - a computation that may panic            : [res A]
    - [v[i]], [v[i] = x]                      : [idx], [upd]
    - [assert!(b, "...")]                     : [assertb b reason]
    - [for x in xs { ... }]                   : [foldM]
    - [for] with [break] / [continue]         : [forM] ([Next] / [Break])
    - [while iter < maxiter { iter += 1; ..}] : [whileM maxiter]
    - [xs.iter().enumerate()]                 : [enum xs]
    - [.map(f)] with a panicking closure      : [mapM]
    - [.reduce(f)]                            : [reduce f]                     *)
From Coq Require Export List Arith Bool Lia NArith.
Export ListNotations.
Set Implicit Arguments.

(** Why a computation panicked. *)
Inductive panic : Type :=
| P_not_square     (* "Dissimilarity matrix is not square" *)
| P_n_too_large    (* "N is too large" *)
| P_invalid_k      (* "invalid N", also "k must be 2" *)
| P_k_gt_n         (* "k must be at most N" *)
| P_assert         (* any other assert! *)
| P_index          (* slice / matrix index out of bounds *)
| P_unwrap         (* unwrap() on None *)
| P_overflow.      (* integer overflow in a build with overflow checks *)

Inductive res (A : Type) : Type :=
| Ok (a : A)
| Panic (p : panic).
Arguments Ok {A} a.
Arguments Panic {A} p.

Definition bind {A B} (m : res A) (f : A -> res B) : res B :=
  match m with Ok a => f a | Panic p => Panic p end.

Declare Scope res_scope.
Delimit Scope res_scope with res.
Notation "x <- m ;; k" := (bind m (fun x => k))
  (at level 61, m at next level, right associativity) : res_scope.
Notation "' pat <- m ;; k" := (bind m (fun x => match x with pat => k end))
  (at level 61, pat pattern, m at next level, right associativity) : res_scope.
Open Scope res_scope.

Definition assertb (b : bool) (p : panic) : res unit :=
  if b then Ok tt else Panic p.

Definition unwrap {A} (o : option A) : res A :=
  match o with Some a => Ok a | None => Panic P_unwrap end.

(** [v[i]] *)
Definition idx {A} (l : list A) (i : nat) : res A :=
  match nth_error l i with Some a => Ok a | None => Panic P_index end.

(** [v[i] = x] on a list known to be long enough *)
Fixpoint set_nth {A} (l : list A) (i : nat) (x : A) : list A :=
  match l, i with
  | [], _ => []
  | _ :: l', 0 => x :: l'
  | y :: l', S i' => y :: set_nth l' i' x
  end.

(** [v[i] = x] *)
Definition upd {A} (l : list A) (i : nat) (x : A) : res (list A) :=
  if i <? length l then Ok (set_nth l i x) else Panic P_index.

Definition enum {A} (l : list A) : list (nat * A) := combine (seq 0 (length l)) l.

Fixpoint foldM {A S} (f : S -> A -> res S) (l : list A) (s : S) : res S :=
  match l with
  | [] => Ok s
  | a :: l' => s' <- f s a ;; foldM f l' s'
  end.

Fixpoint mapM {A B} (f : A -> res B) (l : list A) : res (list B) :=
  match l with
  | [] => Ok []
  | a :: l' => b <- f a ;; bs <- mapM f l' ;; Ok (b :: bs)
  end.

(** Outcome of a loop body. *)
Inductive ctl (S : Type) : Type :=
| Next (s : S)
| Break (s : S).
Arguments Next {S} s.
Arguments Break {S} s.

Fixpoint forM {A S} (body : S -> A -> res (ctl S)) (l : list A) (s : S) : res S :=
  match l with
  | [] => Ok s
  | a :: l' =>
      c <- body s a ;;
      match c with
      | Next s' => forM body l' s'
      | Break s' => Ok s'
      end
  end.

(** [while iter < maxiter { iter += 1; body }] where [iter] starts at 0 and is changed
    nowhere else: the body runs at most [maxiter] times. *)
Fixpoint whileM {S} (fuel : nat) (body : S -> res (ctl S)) (s : S) : res S :=
  match fuel with
  | 0 => Ok s
  | S fuel' =>
      c <- body s ;;
      match c with
      | Next s' => whileM fuel' body s'
      | Break s' => Ok s'
      end
  end.

(** [Iterator::reduce] *)
Definition reduce {A} (f : A -> A -> A) (l : list A) : option A :=
  match l with [] => None | x :: xs => Some (fold_left f xs x) end.

(** The constant [u32::MAX]; only compared in binary. *)
Definition u32_max : N := 4294967295%N.

(** A [u32] medoid number; [None] is the marker value [u32::MAX].  The code asserts
    [k < u32::MAX], so no real medoid number [m as u32] equals the marker. *)
Definition u32idx := option nat.

(** [i as usize] *)
Definition as_usize (i : u32idx) : nat :=
  match i with Some m => m | None => N.to_nat u32_max end.

(** [i == b as u32] *)
Definition ieqb (i : u32idx) (b : nat) : bool :=
  match i with Some m => m =? b | None => false end.

(** [i == u32::MAX] *)
Definition is_marker (i : u32idx) : bool :=
  match i with Some _ => false | None => true end.
