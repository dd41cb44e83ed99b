(** M_Util.v -- model of src/util.rs and src/initialization.rs *)
From Verif Require Import Base Num M_Mat.
Set Implicit Arguments.

(** [DistancePair<N>], util.rs:6-23 *)
Record dpair (Nt : Type) := DP { di : u32idx; dd : Nt }.
Arguments DP {Nt} di dd.

(** [Rec<N>], util.rs:25-46 *)
Record Rec (Nt : Type) := mkRec { near : dpair Nt; seco : dpair Nt }.
Arguments mkRec {Nt} near seco.

(** [Reco<N>], util.rs:48-72 *)
Record Reco (Nt : Type) := mkReco { near3 : dpair Nt; seco3 : dpair Nt; third3 : dpair Nt }.
Arguments mkReco {Nt} near3 seco3 third3.

(** [v[i] += x] *)
Definition add_at {Lt} `{NumL Lt} (v : list Lt) (i : nat) (x : Lt) : res (list Lt) :=
  y <- idx v i ;; upd v i (ladd y x).

(** util.rs:76-89, [find_min]; [a.next().unwrap()] panics on an empty iterator *)
Definition find_min {Lt} `{NumL Lt} (a : list Lt) : res (nat * Lt) :=
  match a with
  | [] => Panic P_unwrap
  | x :: xs =>
      Ok (fold_left (fun best '(ik, iv) => if lltb iv (snd best) then (ik, iv) else best)
                    (combine (seq 1 (length xs)) xs) (0, x))
  end.

(** util.rs:93-106, [find_max] *)
Definition find_max {Lt} `{NumL Lt} (a : list Lt) : res (nat * Lt) :=
  match a with
  | [] => Panic P_unwrap
  | x :: xs =>
      Ok (fold_left (fun best '(ik, iv) => if lltb (snd best) iv then (ik, iv) else best)
                    (combine (seq 1 (length xs)) xs) (0, x))
  end.

Section Choose.
  Context {Nt Lt : Type} `{NumN Nt} `{NumL Lt} `{FromN Nt Lt}.
  Variable M : Mat Nt.

  (** util.rs:123-128 and 131-136: sum of [mat.get(c, i)] over the other members [i] of
      cluster [m] *)
  Definition member_sum (assi : list nat) (m c : nat) : res Lt :=
    foldM (fun s '(i, a) =>
             if negb (c =? i) && (a =? m)
             then d <- mget M c i ;; Ok (ladd s (lfrom d))
             else Ok s)
          (enum assi) lzero.

  (** util.rs:110-145, [choose_medoid_within_partition];
      returns (the changed [med], whether it changed, the sum) *)
  Definition choose_medoid_within_partition (assi : list nat) (med : list nat) (m : nat)
    : res (list nat * bool * Lt) :=
    first <- idx med m ;;
    sumb <- member_sum assi m first ;;
    '(best, sumb) <-
      foldM (fun bs '(j, aj) =>
               if negb (j =? first) && (aj =? m) then
                 sumj <- member_sum assi m j ;;
                 (if lltb sumj (snd bs) then Ok (j, sumj) else Ok bs)
               else Ok bs)
            (enum assi) (first, sumb) ;;
    med' <- upd med m best ;;
    Ok (med', negb (best =? first), sumb).
End Choose.

Section DebugAssert.
  Context {Nt : Type} `{NumN Nt}.
  Variable M : Mat Nt.

  (** [a <= b] on [N]; only used by the debug assertions *)
  Variable nleb : Nt -> Nt -> bool.

  (** util.rs:148-168, [debug_assert_assignment] with the cargo feature "assertions" *)
  Definition debug_assert_assignment (med : list nat) (data : list (Rec Nt)) : res unit :=
    foldM (fun _ o =>
      r <- idx data o ;;
      m1 <- idx med (as_usize (di (near r))) ;; d1 <- mget M o m1 ;;
      _ <- assertb (neqb d1 (dd (near r))) P_assert ;;
      m2 <- idx med (as_usize (di (seco r))) ;; d2 <- mget M o m2 ;;
      _ <- assertb (neqb d2 (dd (seco r))) P_assert ;;
      assertb (nleb (dd (near r)) (dd (seco r))) P_assert) (seq 0 (mlen M)) tt.

  (** util.rs:171-199, [debug_assert_assignment_th] with the cargo feature "assertions" *)
  Definition debug_assert_assignment_th (med : list nat) (data : list (Reco Nt)) : res unit :=
    foldM (fun _ o =>
      r <- idx data o ;;
      m1 <- idx med (as_usize (di (near3 r))) ;; d1 <- mget M o m1 ;;
      _ <- assertb (neqb d1 (dd (near3 r))) P_assert ;;
      m2 <- idx med (as_usize (di (seco3 r))) ;; d2 <- mget M o m2 ;;
      _ <- assertb (neqb d2 (dd (seco3 r))) P_assert ;;
      m3 <- idx med (as_usize (di (third3 r))) ;; d3 <- mget M o m3 ;;
      _ <- assertb (neqb d3 (dd (third3 r))) P_assert ;;
      _ <- assertb (nleb (dd (near3 r)) (dd (seco3 r))) P_assert ;;
      assertb (nleb (dd (seco3 r)) (dd (third3 r))) P_assert) (seq 0 (mlen M)) tt.
End DebugAssert.

(** initialization.rs:38-40, [first_k] *)
Definition first_k (k : nat) : list nat := seq 0 k.
