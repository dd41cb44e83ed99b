(** M_ParFasterpam.v -- model of src/par_fasterpam.rs.

    What rayon decides at run time is an input of the model:
    - the shape of every reduction of [reduce_with] ([rtree]),
    - the number of worker threads and the order in which the spawned tasks obtain the mutex
      ([sched]).
    Both may differ from call to call; a call is identified by the iteration and the candidate.
    Simplification: the closures are executed in order; they touch disjoint elements of [data]. *)
From Verif Require Import Base Num M_Mat M_Util M_Fasterpam.
Set Implicit Arguments.

(** How rayon splits a [reduce_with]: sequentially, or at position [p] into two halves. *)
Inductive rtree : Type :=
| RSeq
| RSplit (p : nat) (l r : rtree).

(** rayon's [reduce_with]: the halves are combined with [op], an empty half is dropped. *)
Fixpoint treduce {A} (op : A -> A -> A) (t : rtree) (l : list A) : option A :=
  match t with
  | RSeq => reduce op l
  | RSplit p t1 t2 =>
      match treduce op t1 (firstn p l), treduce op t2 (skipn p l) with
      | Some a, Some b => Some (op a b)
      | Some a, None => Some a
      | None, x => x
      end
  end.

(** [rayon::current_num_threads()] and the order in which the tasks merge their results *)
Record sched := mkSched { s_parts : nat; s_order : list nat }.

(** All choices of the scheduler in one run *)
Record oracle := mkOracle {
  o_init : rtree;                    (* reduction in par_initial_assignment *)
  o_find : nat -> nat -> sched;      (* par_find_best_swap, by iteration and candidate *)
  o_swap : nat -> nat -> rtree       (* reduction in par_do_swap, likewise *)
}.

Section ParFasterpam.
  Context {Nt Lt : Type} `{NumN Nt} `{NumL Lt} `{FromN Nt Lt}.
  Variable M : Mat Nt.

  (** par_fasterpam.rs:97-130.  The closure (lines 114-126) is that of the sequential
      [initial_assignment]. *)
  Definition par_initial_assignment (t : rtree) (med : list nat) : res (Lt * list (Rec Nt)) :=
    _ <- check_input M (length med) ;;
    firstcenter <- idx med 0 ;;
    rs <- mapM (ia_obj (Lt := Lt) M med firstcenter) (seq 0 (mlen M)) ;;
    loss <- unwrap (treduce ladd t (map snd rs)) ;;
    Ok (loss, map fst rs).

  (** par_fasterpam.rs:151-166, task number [x]: its own [loss] and [lagg].  The loop body
      (lines 156-165) is that of the sequential [find_best_swap]. *)
  Definition par_task (length : nat) (data : list (Rec Nt)) (j stepsize x : nat)
    : res (list Lt * Lt) :=
    let start := x * stepsize in
    let end_ := Nat.min (start + stepsize) (mlen M) in
    foldM (fbs_step M j) (skipn start (firstn end_ (enum data))) (repeat lzero length, lzero).

  (** par_fasterpam.rs:134-176 *)
  Definition par_find_best_swap (s : sched) (removal_loss : list Lt) (data : list (Rec Nt))
      (j : nat) : res (Lt * nat) :=
    let stepsize := (mlen M + s_parts s - 1) / s_parts s in
    '(ploss, acc) <-
      foldM (fun '(ploss, acc) x =>
               '(loss, lagg) <- par_task (length removal_loss) data j stepsize x ;;
               Ok (map (fun '(a, b) => ladd a b) (combine ploss loss), ladd acc lagg))
            (s_order s) (removal_loss, lzero) ;;
    '(b, bloss) <- find_min ploss ;;
    Ok (ladd bloss acc, b).

  (** par_fasterpam.rs:198-228, the closure for object [o]; unlike the sequential version the
      test [reco.seco.i == b] (line 220) comes before [doj < reco.seco.d] (line 223) *)
  Definition par_do_swap_obj (med : list nat) (b j : nat) (oreco : nat * Rec Nt)
    : res (Rec Nt * Lt) :=
    let '(o, reco) := oreco in
    if o =? j then
      let se := if negb (ieqb (di (near reco)) b) then near reco else seco reco in
      Ok (mkRec (DP (Some b) nzero) se, lzero)
    else
      doj <- mget M o j ;;
      reco' <-
        (if ieqb (di (near reco)) b then
           if nltb doj (dd (seco reco)) then
             Ok (mkRec (DP (Some b) doj) (seco reco))
           else
             s <- update_second_nearest M med (as_usize (di (seco reco))) b o doj ;;
             Ok (mkRec (seco reco) s)
         else
           if nltb doj (dd (near reco)) then
             Ok (mkRec (DP (Some b) doj) (near reco))
           else if ieqb (di (seco reco)) b then
             s <- update_second_nearest M med (as_usize (di (near reco))) b o doj ;;
             Ok (mkRec (near reco) s)
           else if nltb doj (dd (seco reco)) then
             Ok (mkRec (near reco) (DP (Some b) doj))
           else Ok reco) ;;
      Ok (reco', lfrom (dd (near reco'))).

  (** par_fasterpam.rs:180-231 *)
  Definition par_do_swap (t : rtree) (med : list nat) (data : list (Rec Nt)) (b j : nat)
    : res (list nat * list (Rec Nt) * Lt) :=
    _ <- assertb (b <? length med) P_assert ;;
    _ <- assertb (j <? mlen M) P_assert ;;
    med' <- upd med b j ;;
    rs <- mapM (par_do_swap_obj med' b j) (enum data) ;;
    loss <- unwrap (treduce ladd t (map snd rs)) ;;
    Ok (med', map fst rs, loss).

  (** par_fasterpam.rs:70-86 *)
  Definition par_cand (orc : oracle) (st : fpst Nt Lt) (j : nat) : res (ctl (fpst Nt Lt)) :=
    if j =? fp_last st then Ok (Break st) else
    rj <- idx (fp_data st) j ;;
    mj <- idx (fp_med st) (as_usize (di (near rj))) ;;
    if j =? mj then Ok (Next st) else
    '(change, b) <- par_find_best_swap (o_find orc (fp_iter st) j) (fp_rl st) (fp_data st) j ;;
    if lleb lzero change then Ok (Next st) else
    '(med', data', loss') <- par_do_swap (o_swap orc (fp_iter st) j) (fp_med st) (fp_data st) b j ;;
    rl' <- update_removal_loss data' (fp_rl st) ;;
    Ok (Next (mkFp med' data' rl' loss' j (S (fp_swaps st)) (fp_iter st))).

  (** par_fasterpam.rs:67-90, one iteration *)
  Definition par_iteration (orc : oracle) (order : list nat) (st : fpst Nt Lt)
    : res (ctl (fpst Nt Lt)) :=
    let swaps_before := fp_swaps st in
    let lastloss := fp_loss st in
    st' <- forM (par_cand orc) order
                (mkFp (fp_med st) (fp_data st) (fp_rl st) (fp_loss st) (fp_last st)
                      (fp_swaps st) (S (fp_iter st))) ;;
    if (fp_swaps st' =? swaps_before) || lleb lastloss (fp_loss st')
    then Ok (Break st') else Ok (Next st').

  (** par_fasterpam.rs:43-93; [order] is the result of the shuffle at line 66 *)
  Definition par_fasterpam (orc : oracle) (order : list nat) (med : list nat) (maxiter : nat)
    : res (pam_result Lt) :=
    if length med =? 1 then single_medoid M med else
    '(loss, data) <- par_initial_assignment (o_init orc) med ;;
    rl <- update_removal_loss data (repeat lzero (length med)) ;;
    st <- whileM maxiter (par_iteration orc order) (mkFp med data rl loss (mlen M) 0 0) ;;
    Ok (mkPR (fp_loss st) (assignment_of (fp_data st)) (fp_iter st) (fp_swaps st) (fp_med st)).
End ParFasterpam.
