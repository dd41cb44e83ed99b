(** CheckedFacts.v -- a function of M_Checked.v panics with an overflow, or does what the function without the
    checks does: for operations each of which panics with an overflow or gives the result of the unchecked one. *)
From Coq Require Import ZArith Lia.
From Verif Require Import Base Num M_Mat M_Util M_Fasterpam M_Pam M_Alternating M_ParFasterpam M_Checked Hoare Adapter.
Set Implicit Arguments.

Lemma rle_bindL T C (x : res T) (y : T) (f : T -> res C) (m' : res C) :
  rle x (Ok y) -> rle (f y) m' -> rle (bind x f) m'.
Proof. intros [->| ->] h; [left; reflexivity|exact h]. Qed.

Lemma rle_ret T C (m : res T) (m' : res T) (f : T -> C) : rle m m' ->
  rle (bind m (fun x => Ok (f x))) (bind m' (fun x => Ok (f x))).
Proof. intros h. apply rle_bind; [exact h|]. intros. apply rle_refl. Qed.

Section Facts.
  Context {Nt Lt : Type} `{HN : NumN Nt} `{HL : NumL Lt} `{HF : FromN Nt Lt}.
  Variable A : arith Lt.
  Variable M : Mat Nt.
  Hypothesis hadd : forall a b, rle (cadd A a b) (Ok (ladd a b)).
  Hypothesis hsub : forall a b, rle (csub A a b) (Ok (lsub a b)).
  Hypothesis hneg : forall a, rle (cneg A a) (Ok (lneg a)).
  Hint Resolve hadd hsub hneg : rle.

  Local Ltac cstep :=
    match goal with
    | |- rle (bind (cadd A _ _) _) _ => eapply rle_bindL; [apply hadd|]
    | |- rle (bind (csub A _ _) _) _ => eapply rle_bindL; [apply hsub|]
    | |- rle (bind (cneg A _) _) _ => eapply rle_bindL; [apply hneg|]
    | _ => rstep
    | |- rle (if ?b then _ else _) _ => destruct b
    end.
  Local Ltac cgo := cbv zeta; repeat cstep.

  Lemma foldM_cadd l a : rle (foldM (cadd A) l a) (Ok (fold_left ladd l a)).
  Proof.
    revert a. induction l as [|x l IH]; intros a; cbn [foldM fold_left]; [apply rle_refl|].
    eapply rle_bindL; [apply hadd|]. apply IH.
  Qed.
  Lemma rle_reduce l : rle (reduce_c A l) (Ok (reduce ladd l)).
  Proof.
    destruct l as [|x l]; cbn [reduce_c reduce]; [apply rle_refl|].
    eapply rle_bindL; [apply foldM_cadd|]. apply rle_refl.
  Qed.
  Lemma rle_treduce t l : rle (treduce_c A t l) (Ok (treduce ladd t l)).
  Proof.
    revert l. induction t as [|p t1 IH1 t2 IH2]; intros l; cbn [treduce_c treduce]; [apply rle_reduce|].
    eapply rle_bindL; [apply IH1|]. eapply rle_bindL; [apply IH2|].
    destruct (treduce ladd t1 (firstn p l)), (treduce ladd t2 (skipn p l)); try apply rle_refl.
    eapply rle_bindL; [apply hadd|]. apply rle_refl.
  Qed.

  Lemma rle_add_at v i x : rle (add_at_c A v i x) (add_at v i x).
  Proof. unfold add_at_c, add_at. cgo. Qed.
  Hint Resolve rle_add_at : rle.
  Lemma rle_member_sum assi m c : rle (member_sum_c A M assi m c) (member_sum M assi m c).
  Proof. unfold member_sum_c, member_sum. cgo. Qed.
  Hint Resolve rle_member_sum : rle.
  Lemma rle_choose assi med m : rle (choose_c A M assi med m) (choose_medoid_within_partition M assi med m).
  Proof. unfold choose_c, choose_medoid_within_partition. cgo. Qed.
  Hint Resolve rle_choose : rle.
  Lemma rle_initial med : rle (initial_assignment_c A M med) (initial_assignment M med).
  Proof.
    unfold initial_assignment_c, initial_assignment. cgo. eapply rle_bindL; [apply rle_reduce|]. apply rle_refl.
  Qed.
  Hint Resolve rle_initial : rle.
  Lemma rle_fbs_step j st p : rle (fbs_step_c A M j st p) (fbs_step M j st p).
  Proof. unfold fbs_step_c, fbs_step. cgo. Qed.
  Hint Resolve rle_fbs_step : rle.
  Lemma rle_find_best_swap rl data j : rle (find_best_swap_c A M rl data j) (find_best_swap M rl data j).
  Proof. unfold find_best_swap_c, find_best_swap. cgo. Qed.
  Hint Resolve rle_find_best_swap : rle.
  Lemma rle_update_removal_loss (data : list (Rec Nt)) loss : rle (update_removal_loss_c A data loss) (update_removal_loss data loss).
  Proof. unfold update_removal_loss_c, update_removal_loss. cgo. Qed.
  Hint Resolve rle_update_removal_loss : rle.
  Lemma rle_do_swap med data b j : rle (do_swap_c A M med data b j) (do_swap M med data b j).
  Proof. unfold do_swap_c, do_swap. cgo. eapply rle_bindL; [apply rle_reduce|]. apply rle_refl. Qed.
  Hint Resolve rle_do_swap : rle.
  Lemma rle_fp_cand st j : rle (fp_cand_c A M st j) (fp_cand M st j).
  Proof. unfold fp_cand_c, fp_cand. cgo. Qed.
  Hint Resolve rle_fp_cand : rle.
  Lemma rle_fp_iteration order st : rle (fp_iteration_c A M order st) (fp_iteration M order st).
  Proof. unfold fp_iteration_c, fp_iteration. cgo. Qed.
  Hint Resolve rle_fp_iteration : rle.
  Lemma rle_single med : rle (single_medoid_c A M med) (single_medoid M med).
  Proof. unfold single_medoid_c, single_medoid. cgo. Qed.
  Hint Resolve rle_single : rle.
  Lemma rle_fasterpam_order order med maxiter : rle (fasterpam_order_c A M order med maxiter) (fasterpam_order M order med maxiter).
  Proof. unfold fasterpam_order_c, fasterpam_order. cgo. Qed.
  Lemma rle_fasterpam med maxiter : rle (fasterpam_c A M med maxiter) (fasterpam M med maxiter).
  Proof. apply rle_fasterpam_order. Qed.

  Lemma rle_fastpam1_cand med data rl best j : rle (fastpam1_cand_c A M med data rl best j) (fastpam1_cand M med data rl best j).
  Proof. unfold fastpam1_cand_c, fastpam1_cand. cgo. Qed.
  Hint Resolve rle_fastpam1_cand : rle.
  Lemma rle_swap_best st rl best : rle (swap_best_c A M st rl best) (swap_best M st rl best).
  Proof. unfold swap_best_c, swap_best. cgo. Qed.
  Hint Resolve rle_swap_best : rle.
  Lemma rle_fastpam1 med maxiter : rle (fastpam1_c A M med maxiter) (fastpam1 M med maxiter).
  Proof. unfold fastpam1_c, fastpam1, fastpam1_iteration_c, fastpam1_iteration. cgo. Qed.

  Lemma rle_pam_change_step j m acc p : rle (pam_change_step_c A M j m acc p) (pam_change_step M j m acc p).
  Proof. unfold pam_change_step_c, pam_change_step. cgo. Qed.
  Hint Resolve rle_pam_change_step : rle.
  Lemma rle_find_best_swap_pam med data j : rle (find_best_swap_pam_c A M med data j) (find_best_swap_pam M med data j).
  Proof. unfold find_best_swap_pam_c, find_best_swap_pam. cgo. Qed.
  Hint Resolve rle_find_best_swap_pam : rle.
  Lemma rle_pam_cand med data best j : rle (pam_cand_c A M med data best j) (pam_cand M med data best j).
  Proof. unfold pam_cand_c, pam_cand. cgo. Qed.
  Hint Resolve rle_pam_cand : rle.
  Lemma rle_pam_optimize med data maxiter loss : rle (pam_optimize_c A M med data maxiter loss) (pam_optimize M med data maxiter loss).
  Proof. unfold pam_optimize_c, pam_optimize, pam_iteration_c, pam_iteration. cgo. Qed.
  Hint Resolve rle_pam_optimize : rle.
  Lemma rle_pam_swap med maxiter : rle (pam_swap_c A M med maxiter) (pam_swap M med maxiter).
  Proof. unfold pam_swap_c, pam_swap. cgo. Qed.

  Lemma rle_build_first_sum i : rle (build_first_sum_c A M i) (build_first_sum M i).
  Proof. unfold build_first_sum_c, build_first_sum. cgo. Qed.
  Hint Resolve rle_build_first_sum : rle.
  Lemma rle_build_next_sum dn i : rle (build_next_sum_c A M dn i) (build_next_sum M dn i).
  Proof. unfold build_next_sum_c, build_next_sum. cgo. Qed.
  Hint Resolve rle_build_next_sum : rle.
  Lemma rle_build_step k st l : rle (build_step_c A M k st l) (build_step M k st l).
  Proof.
    unfold build_step_c, build_step, build_next_c, build_next. cgo.
    match goal with rs : list _ |- _ =>
      assert (h : rle (foldM (fun s x => match snd x with Some v => cadd A s v | None => Ok s end) rs lzero)
        (Ok (fold_left (fun s x => match snd x with Some v => ladd s v | None => s end) rs lzero)))
    end.
    { generalize (lzero : Lt). match goal with rs : list _ |- _ => induction rs as [|[r [v|]] rs IH] end;
      intros z; cbn [foldM fold_left snd bind].
      - apply rle_refl.
      - eapply rle_bindL; [apply hadd|]. apply IH.
      - apply IH. }
    eapply rle_bindL; [exact h|]. apply rle_refl.
  Qed.
  Hint Resolve rle_build_step : rle.
  Lemma rle_build_init k : rle (pam_build_initialize_c A M k) (pam_build_initialize M k).
  Proof. unfold pam_build_initialize_c, pam_build_initialize, build_first_c, build_first. cgo. Qed.
  Hint Resolve rle_build_init : rle.
  Lemma rle_pam_build k : rle (pam_build_c A M k) (pam_build M k).
  Proof. unfold pam_build_c, pam_build. cgo. Qed.
  Lemma rle_pam k maxiter : rle (pam_c A M k maxiter) (pam M k maxiter).
  Proof. unfold pam_c, pam. cgo. Qed.

  Lemma rle_assign_nearest med : rle (assign_nearest_c A M med) (assign_nearest M med).
  Proof. unfold assign_nearest_c, assign_nearest. cgo. eapply rle_bindL; [apply rle_reduce|]. apply rle_refl. Qed.
  Hint Resolve rle_assign_nearest : rle.
  Lemma rle_alternating med maxiter : rle (alternating_c A M med maxiter) (alternating M med maxiter).
  Proof.
    unfold alternating_c, alternating, alt_iteration_c, alt_iteration, alt_medoids_c, alt_medoids. cgo.
  Qed.

  Lemma rle_par_initial t med : rle (par_initial_assignment_c A M t med) (par_initial_assignment M t med).
  Proof.
    unfold par_initial_assignment_c, par_initial_assignment. cgo. eapply rle_bindL; [apply rle_treduce|]. apply rle_refl.
  Qed.
  Hint Resolve rle_par_initial : rle.
  Lemma rle_par_task k data j st x : rle (par_task_c A M k data j st x) (par_task M k data j st x).
  Proof. unfold par_task_c, par_task. cgo. Qed.
  Hint Resolve rle_par_task : rle.
  Lemma mapM_cadd (l : list (Lt * Lt)) : rle (mapM (fun '(a, b) => cadd A a b) l) (Ok (map (fun '(a, b) => ladd a b) l)).
  Proof.
    induction l as [|[a b] l IH]; cbn [mapM map]; [apply rle_refl|].
    eapply rle_bindL; [apply hadd|]. eapply rle_bindL; [apply IH|]. apply rle_refl.
  Qed.
  Lemma rle_par_find_best_swap s rl data j : rle (par_find_best_swap_c A M s rl data j) (par_find_best_swap M s rl data j).
  Proof.
    unfold par_find_best_swap_c, par_find_best_swap. cgo. eapply rle_bindL; [apply mapM_cadd|]. cgo.
  Qed.
  Hint Resolve rle_par_find_best_swap : rle.
  Lemma rle_par_do_swap t med data b j : rle (par_do_swap_c A M t med data b j) (par_do_swap M t med data b j).
  Proof. unfold par_do_swap_c, par_do_swap. cgo. eapply rle_bindL; [apply rle_treduce|]. apply rle_refl. Qed.
  Hint Resolve rle_par_do_swap : rle.
  Lemma rle_par_cand orc st j : rle (par_cand_c A M orc st j) (par_cand M orc st j).
  Proof. unfold par_cand_c, par_cand. cgo. Qed.
  Hint Resolve rle_par_cand : rle.
  Lemma rle_par_fasterpam orc order med maxiter :
    rle (par_fasterpam_c A M orc order med maxiter) (par_fasterpam M orc order med maxiter).
  Proof. unfold par_fasterpam_c, par_fasterpam, par_iteration_c, par_iteration. cgo. Qed.
End Facts.
