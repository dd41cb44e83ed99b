(** CostFacts.v -- the counting functions of M_Cost.v compute the same as those of the model. *)
From Verif Require Import Base Num M_Mat M_Util M_Fasterpam M_Pam M_Alternating M_Silhouette M_Msc M_Pammedsil M_Cost.
Set Implicit Arguments.

Lemma snd_cbind A B (m : cres A) (f : A -> cres B) : snd (cbind m f) = bind (snd m) (fun a => snd (f a)).
Proof. unfold cbind. destruct (snd m); auto. Qed.

Lemma bind_ext A B (m m' : res A) (f g : A -> res B) :
  m = m' -> (forall a, f a = g a) -> bind m f = bind m' g.
Proof. intros -> h. destruct m'; simpl; auto. Qed.

Lemma snd_cfoldM A S (f : S -> A -> cres S) g l s :
  (forall s a, snd (f s a) = g s a) -> snd (cfoldM f l s) = foldM g l s.
Proof.
  intros h. revert s. induction l; intros s; cbn [cfoldM foldM]; auto.
  rewrite snd_cbind. apply bind_ext; auto.
Qed.

Lemma snd_cmapM A B (f : A -> cres B) g l :
  (forall a, snd (f a) = g a) -> snd (cmapM f l) = mapM g l.
Proof.
  intros h. induction l; cbn [cmapM mapM]; auto.
  rewrite snd_cbind. apply bind_ext; auto. intros b. rewrite snd_cbind. apply bind_ext; auto.
Qed.

Lemma snd_cforM A S (f : S -> A -> cres (ctl S)) g l s :
  (forall s a, snd (f s a) = g s a) -> snd (cforM f l s) = forM g l s.
Proof.
  intros h. revert s. induction l; intros s; cbn [cforM forM]; auto.
  rewrite snd_cbind. apply bind_ext; auto. intros [s'|s']; auto.
Qed.

Lemma snd_cwhileM S fuel (f : S -> cres (ctl S)) g s :
  (forall s, snd (f s) = g s) -> snd (cwhileM fuel f s) = whileM fuel g s.
Proof.
  intros h. revert s. induction fuel; intros s; cbn [cwhileM whileM]; auto.
  rewrite snd_cbind. apply bind_ext; auto. intros [s'|s']; auto.
Qed.

Create HintDb er.

Ltac er := repeat first
  [ reflexivity
  | solve [eauto with er]
  | rewrite snd_cbind; apply bind_ext; [|intros]
  | apply snd_cfoldM; intros
  | apply snd_cmapM; intros
  | apply snd_cforM; intros
  | apply snd_cwhileM; intros
  | match goal with |- snd (match ?x with _ => _ end) = _ => destruct x end
  | match goal with |- snd ((match ?x with _ => _ end) _) = _ => destruct x end ].

Section Same.
  Context {Nt Lt : Type} `{NumN Nt} `{NumL Lt} `{FromN Nt Lt}.
  Variable M : Mat Nt.

  Lemma member_sum_same assi m c : snd (member_sum_n M assi m c) = member_sum M assi m c.
  Proof. unfold member_sum_n, member_sum. er. Qed.
  Hint Resolve member_sum_same : er.

  Lemma choose_medoid_within_partition_same assi med m : snd (choose_medoid_within_partition_n M assi med m) = choose_medoid_within_partition M assi med m.
  Proof. unfold choose_medoid_within_partition_n, choose_medoid_within_partition. er. Qed.
  Hint Resolve choose_medoid_within_partition_same : er.

  Lemma ia_step_same i cur mme : snd (ia_step_n M i cur mme) = ia_step M i cur mme.
  Proof. unfold ia_step_n, ia_step. er. Qed.
  Hint Resolve ia_step_same : er.

  Lemma ia_obj_same med firstcenter i : snd (ia_obj_n M med firstcenter i) = ia_obj M med firstcenter i.
  Proof. unfold ia_obj_n, ia_obj. er. Qed.
  Hint Resolve ia_obj_same : er.

  Lemma initial_assignment_same med : snd (initial_assignment_n M med) = initial_assignment M med.
  Proof. unfold initial_assignment_n, initial_assignment. er. Qed.
  Hint Resolve initial_assignment_same : er.

  Lemma fbs_step_same j st oreco : snd (fbs_step_n M j st oreco) = fbs_step M j st oreco.
  Proof. unfold fbs_step_n, fbs_step. er. Qed.
  Hint Resolve fbs_step_same : er.

  Lemma find_best_swap_same removal_loss data j : snd (find_best_swap_n M removal_loss data j) = find_best_swap M removal_loss data j.
  Proof. unfold find_best_swap_n, find_best_swap. er. Qed.
  Hint Resolve find_best_swap_same : er.

  Lemma update_second_nearest_same med n b o doj : snd (update_second_nearest_n M med n b o doj) = update_second_nearest M med n b o doj.
  Proof. unfold update_second_nearest_n, update_second_nearest. er. Qed.
  Hint Resolve update_second_nearest_same : er.

  Lemma do_swap_obj_same med b j oreco : snd (do_swap_obj_n M med b j oreco) = do_swap_obj M med b j oreco.
  Proof. unfold do_swap_obj_n, do_swap_obj. er. Qed.
  Hint Resolve do_swap_obj_same : er.

  Lemma do_swap_same med data b j : snd (do_swap_n M med data b j) = do_swap M med data b j.
  Proof. unfold do_swap_n, do_swap. er. Qed.
  Hint Resolve do_swap_same : er.

  Lemma fp_cand_same st j : snd (fp_cand_n M st j) = fp_cand M st j.
  Proof. unfold fp_cand_n, fp_cand. er. Qed.
  Hint Resolve fp_cand_same : er.

  Lemma fp_iteration_same order st : snd (fp_iteration_n M order st) = fp_iteration M order st.
  Proof. unfold fp_iteration_n, fp_iteration. er. Qed.
  Hint Resolve fp_iteration_same : er.

  Lemma single_medoid_same med : snd (single_medoid_n M med) = single_medoid M med.
  Proof. unfold single_medoid_n, single_medoid. er. Qed.
  Hint Resolve single_medoid_same : er.

  Lemma fasterpam_order_same order med maxiter : snd (fasterpam_order_n M order med maxiter) = fasterpam_order M order med maxiter.
  Proof. unfold fasterpam_order_n, fasterpam_order. er. Qed.
  Hint Resolve fasterpam_order_same : er.

  Lemma fastpam1_cand_same med data rl best j : snd (fastpam1_cand_n M med data rl best j) = fastpam1_cand M med data rl best j.
  Proof. unfold fastpam1_cand_n, fastpam1_cand. er. Qed.
  Hint Resolve fastpam1_cand_same : er.

  Lemma swap_best_same st rl best : snd (swap_best_n M st rl best) = swap_best M st rl best.
  Proof. unfold swap_best_n, swap_best. er. Qed.
  Hint Resolve swap_best_same : er.

  Lemma fastpam1_iteration_same st0 : snd (fastpam1_iteration_n M st0) = fastpam1_iteration M st0.
  Proof. unfold fastpam1_iteration_n, fastpam1_iteration. er. Qed.
  Hint Resolve fastpam1_iteration_same : er.

  Lemma fastpam1_same med maxiter : snd (fastpam1_n M med maxiter) = fastpam1 M med maxiter.
  Proof. unfold fastpam1_n, fastpam1. er. Qed.
  Hint Resolve fastpam1_same : er.

  Lemma pam_change_step_same j m acc oreco : snd (pam_change_step_n M j m acc oreco) = pam_change_step M j m acc oreco.
  Proof. unfold pam_change_step_n, pam_change_step. er. Qed.
  Hint Resolve pam_change_step_same : er.

  Lemma find_best_swap_pam_same med data j : snd (find_best_swap_pam_n M med data j) = find_best_swap_pam M med data j.
  Proof. unfold find_best_swap_pam_n, find_best_swap_pam. er. Qed.
  Hint Resolve find_best_swap_pam_same : er.

  Lemma pam_cand_same med data best j : snd (pam_cand_n M med data best j) = pam_cand M med data best j.
  Proof. unfold pam_cand_n, pam_cand. er. Qed.
  Hint Resolve pam_cand_same : er.

  Lemma pam_iteration_same st0 : snd (pam_iteration_n M st0) = pam_iteration M st0.
  Proof. unfold pam_iteration_n, pam_iteration. er. Qed.
  Hint Resolve pam_iteration_same : er.

  Lemma pam_optimize_same med data maxiter loss : snd (pam_optimize_n M med data maxiter loss) = pam_optimize M med data maxiter loss.
  Proof. unfold pam_optimize_n, pam_optimize. er. Qed.
  Hint Resolve pam_optimize_same : er.

  Lemma pam_swap_same med maxiter : snd (pam_swap_n M med maxiter) = pam_swap M med maxiter.
  Proof. unfold pam_swap_n, pam_swap. er. Qed.
  Hint Resolve pam_swap_same : er.

  Lemma build_first_sum_same i : snd (build_first_sum_n M i) = build_first_sum M i.
  Proof. unfold build_first_sum_n, build_first_sum. er. Qed.
  Hint Resolve build_first_sum_same : er.

  Lemma build_first_same k : snd (build_first_n M k) = build_first M k.
  Proof. unfold build_first_n, build_first. er. Qed.
  Hint Resolve build_first_same : er.

  Lemma build_next_sum_same dn i : snd (build_next_sum_n M dn i) = build_next_sum M dn i.
  Proof. unfold build_next_sum_n, build_next_sum. er. Qed.
  Hint Resolve build_next_sum_same : er.

  Lemma build_next_same k dn cands : snd (build_next_n M k dn cands) = build_next M k dn cands.
  Proof. unfold build_next_n, build_next. er. Qed.
  Hint Resolve build_next_same : er.

  Lemma build_upd_obj_same l bj jrec : snd (build_upd_obj_n M l bj jrec) = build_upd_obj M l bj jrec.
  Proof. unfold build_upd_obj_n, build_upd_obj. er. Qed.
  Hint Resolve build_upd_obj_same : er.

  Lemma build_step_same k st l : snd (build_step_n M k st l) = build_step M k st l.
  Proof. unfold build_step_n, build_step. er. Qed.
  Hint Resolve build_step_same : er.

  Lemma pam_build_initialize_same k : snd (pam_build_initialize_n M k) = pam_build_initialize M k.
  Proof. unfold pam_build_initialize_n, pam_build_initialize. er. Qed.
  Hint Resolve pam_build_initialize_same : er.

  Lemma pam_same k maxiter : snd (pam_n M k maxiter) = pam M k maxiter.
  Proof. unfold pam_n, pam. er. Qed.
  Hint Resolve pam_same : er.

  Lemma an_obj_same med firstcenter i : snd (an_obj_n M med firstcenter i) = an_obj M med firstcenter i.
  Proof. unfold an_obj_n, an_obj. er. Qed.
  Hint Resolve an_obj_same : er.

  Lemma assign_nearest_same med : snd (assign_nearest_n M med) = assign_nearest M med.
  Proof. unfold assign_nearest_n, assign_nearest. er. Qed.
  Hint Resolve assign_nearest_same : er.

  Lemma alt_medoids_same assi med : snd (alt_medoids_n (Lt := Lt) M assi med) = alt_medoids (Lt := Lt) M assi med.
  Proof. unfold alt_medoids_n, alt_medoids. er. Qed.
  Hint Resolve alt_medoids_same : er.

  Lemma alt_iteration_same st : snd (alt_iteration_n M st) = alt_iteration M st.
  Proof. unfold alt_iteration_n, alt_iteration. er. Qed.
  Hint Resolve alt_iteration_same : er.

  Lemma alternating_same med maxiter : snd (alternating_n M med maxiter) = alternating M med maxiter.
  Proof. unfold alternating_n, alternating. er. Qed.
  Hint Resolve alternating_same : er.

  Lemma sil_buf_same assi i : snd (sil_buf_n M assi i) = sil_buf M assi i.
  Proof. unfold sil_buf_n, sil_buf. er. Qed.
  Hint Resolve sil_buf_same : er.

  Lemma sil_step_same samples assi st iai : snd (sil_step_n M samples assi st iai) = sil_step M samples assi st iai.
  Proof. unfold sil_step_n, sil_step. er. Qed.
  Hint Resolve sil_step_same : er.

  Lemma silhouette_same assi samples : snd (silhouette_n M assi samples) = silhouette M assi samples.
  Proof. unfold silhouette_n, silhouette. er. Qed.
  Hint Resolve silhouette_same : er.

  Lemma par_silhouette_same assi : snd (par_silhouette_n M assi) = par_silhouette M assi.
  Proof. unfold par_silhouette_n, par_silhouette. er. Qed.
  Hint Resolve par_silhouette_same : er.

  Lemma ms_best_same meds i : snd (ms_best_n M meds i) = ms_best M meds i.
  Proof. unfold ms_best_n, ms_best. er. Qed.
  Hint Resolve ms_best_same : er.

  Lemma ms_step_same meds samples st i : snd (ms_step_n M meds samples st i) = ms_step M meds samples st i.
  Proof. unfold ms_step_n, ms_step. er. Qed.
  Hint Resolve ms_step_same : er.

  Lemma medoid_silhouette_same meds samples : snd (medoid_silhouette_n M meds samples) = medoid_silhouette M meds samples.
  Proof. unfold medoid_silhouette_n, medoid_silhouette. er. Qed.
  Hint Resolve medoid_silhouette_same : er.

  Lemma ia3_step_same i cur mme : snd (ia3_step_n M i cur mme) = ia3_step M i cur mme.
  Proof. unfold ia3_step_n, ia3_step. er. Qed.
  Hint Resolve ia3_step_same : er.

  Lemma ia3_obj_same med firstcenter i : snd (ia3_obj_n M med firstcenter i) = ia3_obj M med firstcenter i.
  Proof. unfold ia3_obj_n, ia3_obj. er. Qed.
  Hint Resolve ia3_obj_same : er.

  Lemma initial_assignment3_same med : snd (initial_assignment3_n M med) = initial_assignment3 M med.
  Proof. unfold initial_assignment3_n, initial_assignment3. er. Qed.
  Hint Resolve initial_assignment3_same : er.

  Lemma fbs3_step_same j st oreco : snd (fbs3_step_n M j st oreco) = fbs3_step M j st oreco.
  Proof. unfold fbs3_step_n, fbs3_step. er. Qed.
  Hint Resolve fbs3_step_same : er.

  Lemma find_best_swap3_same removal_loss data j : snd (find_best_swap3_n M removal_loss data j) = find_best_swap3 M removal_loss data j.
  Proof. unfold find_best_swap3_n, find_best_swap3. er. Qed.
  Hint Resolve find_best_swap3_same : er.

  Lemma update_third_nearest_same med n s b o doj : snd (update_third_nearest_n M med n s b o doj) = update_third_nearest M med n s b o doj.
  Proof. unfold update_third_nearest_n, update_third_nearest. er. Qed.
  Hint Resolve update_third_nearest_same : er.

  Lemma do_swap3_obj_same med b j oreco : snd (do_swap3_obj_n M med b j oreco) = do_swap3_obj M med b j oreco.
  Proof. unfold do_swap3_obj_n, do_swap3_obj. er. Qed.
  Hint Resolve do_swap3_obj_same : er.

  Lemma do_swap3_same med data b j : snd (do_swap3_n M med data b j) = do_swap3 M med data b j.
  Proof. unfold do_swap3_n, do_swap3. er. Qed.
  Hint Resolve do_swap3_same : er.

  Lemma msc_cand_same st j : snd (msc_cand_n M st j) = msc_cand M st j.
  Proof. unfold msc_cand_n, msc_cand. er. Qed.
  Hint Resolve msc_cand_same : er.

  Lemma msc_iteration_same st : snd (msc_iteration_n M st) = msc_iteration M st.
  Proof. unfold msc_iteration_n, msc_iteration. er. Qed.
  Hint Resolve msc_iteration_same : er.

  Lemma ia2_obj_same m0 m1 i : snd (ia2_obj_n M m0 m1 i) = ia2_obj M m0 m1 i.
  Proof. unfold ia2_obj_n, ia2_obj. er. Qed.
  Hint Resolve ia2_obj_same : er.

  Lemma initial_assignment_k2_same med : snd (initial_assignment_k2_n M med) = initial_assignment_k2 M med.
  Proof. unfold initial_assignment_k2_n, initial_assignment_k2. er. Qed.
  Hint Resolve initial_assignment_k2_same : er.

  Lemma fbs2_step_same j pl od : snd (fbs2_step_n M j pl od) = fbs2_step M j pl od.
  Proof. unfold fbs2_step_n, fbs2_step. er. Qed.
  Hint Resolve fbs2_step_same : er.

  Lemma find_best_swap_k2_same data j : snd (find_best_swap_k2_n M data j) = find_best_swap_k2 M data j.
  Proof. unfold find_best_swap_k2_n, find_best_swap_k2. er. Qed.
  Hint Resolve find_best_swap_k2_same : er.

  Lemma do_swap2_obj_same b j oad : snd (do_swap2_obj_n M b j oad) = do_swap2_obj M b j oad.
  Proof. unfold do_swap2_obj_n, do_swap2_obj. er. Qed.
  Hint Resolve do_swap2_obj_same : er.

  Lemma do_swap_k2_same med assi data b j : snd (do_swap_k2_n M med assi data b j) = do_swap_k2 M med assi data b j.
  Proof. unfold do_swap_k2_n, do_swap_k2. er. Qed.
  Hint Resolve do_swap_k2_same : er.

  Lemma k2_cand_same st j : snd (k2_cand_n M st j) = k2_cand M st j.
  Proof. unfold k2_cand_n, k2_cand. er. Qed.
  Hint Resolve k2_cand_same : er.

  Lemma k2_iteration_same st : snd (k2_iteration_n M st) = k2_iteration M st.
  Proof. unfold k2_iteration_n, k2_iteration. er. Qed.
  Hint Resolve k2_iteration_same : er.

  Lemma fastermsc_k2_same med maxiter : snd (fastermsc_k2_n M med maxiter) = fastermsc_k2 M med maxiter.
  Proof. unfold fastermsc_k2_n, fastermsc_k2. er. Qed.
  Hint Resolve fastermsc_k2_same : er.

  Lemma fastermsc_same med maxiter : snd (fastermsc_n M med maxiter) = fastermsc M med maxiter.
  Proof. unfold fastermsc_n, fastermsc. er. Qed.
  Hint Resolve fastermsc_same : er.

  Lemma fastmsc_cand_same med data rl best j : snd (fastmsc_cand_n M med data rl best j) = fastmsc_cand M med data rl best j.
  Proof. unfold fastmsc_cand_n, fastmsc_cand. er. Qed.
  Hint Resolve fastmsc_cand_same : er.

  Lemma swap_best3_same st rl best : snd (swap_best3_n M st rl best) = swap_best3 M st rl best.
  Proof. unfold swap_best3_n, swap_best3. er. Qed.
  Hint Resolve swap_best3_same : er.

  Lemma fastmsc_iteration_same st0 : snd (fastmsc_iteration_n M st0) = fastmsc_iteration M st0.
  Proof. unfold fastmsc_iteration_n, fastmsc_iteration. er. Qed.
  Hint Resolve fastmsc_iteration_same : er.

  Lemma fastmsc_k2_cand_same st best j : snd (fastmsc_k2_cand_n M st best j) = fastmsc_k2_cand M st best j.
  Proof. unfold fastmsc_k2_cand_n, fastmsc_k2_cand. er. Qed.
  Hint Resolve fastmsc_k2_cand_same : er.

  Lemma fastmsc_k2_iteration_same st0 : snd (fastmsc_k2_iteration_n M st0) = fastmsc_k2_iteration M st0.
  Proof. unfold fastmsc_k2_iteration_n, fastmsc_k2_iteration. er. Qed.
  Hint Resolve fastmsc_k2_iteration_same : er.

  Lemma fastmsc_k2_same med maxiter : snd (fastmsc_k2_n M med maxiter) = fastmsc_k2 M med maxiter.
  Proof. unfold fastmsc_k2_n, fastmsc_k2. er. Qed.
  Hint Resolve fastmsc_k2_same : er.

  Lemma fastmsc_same med maxiter : snd (fastmsc_n M med maxiter) = fastmsc M med maxiter.
  Proof. unfold fastmsc_n, fastmsc. er. Qed.
  Hint Resolve fastmsc_same : er.

  Lemma pms_step_same j m acc oreco : snd (pms_step_n M j m acc oreco) = pms_step M j m acc oreco.
  Proof. unfold pms_step_n, pms_step. er. Qed.
  Hint Resolve pms_step_same : er.

  Lemma pms2_step_same j m acc oreco : snd (pms2_step_n M j m acc oreco) = pms2_step M j m acc oreco.
  Proof. unfold pms2_step_n, pms2_step. er. Qed.
  Hint Resolve pms2_step_same : er.

  Lemma find_best_swap_pms_same step step' (med : list nat) data j :
    (forall j m s p, snd (step j m s p) = step' j m s p) ->
    snd (find_best_swap_pms_n (Lt := Lt) step med data j) = find_best_swap_pms step' med data j.
  Proof. intros h. unfold find_best_swap_pms_n, find_best_swap_pms. er. Qed.

  Lemma pms_cand_same med data best j : snd (pms_cand_n M med data best j) = pms_cand M med data best j.
  Proof. unfold pms_cand_n, pms_cand. er. apply find_best_swap_pms_same. intros. destruct (length med =? 2); auto with er. Qed.
  Hint Resolve pms_cand_same : er.

  Lemma pms_iteration_same st0 : snd (pms_iteration_n M st0) = pms_iteration M st0.
  Proof. unfold pms_iteration_n, pms_iteration. er. Qed.
  Hint Resolve pms_iteration_same : er.

  Lemma pammedsil_optimize_same med data maxiter loss : snd (pammedsil_optimize_n M med data maxiter loss) = pammedsil_optimize M med data maxiter loss.
  Proof. unfold pammedsil_optimize_n, pammedsil_optimize. er. Qed.
  Hint Resolve pammedsil_optimize_same : er.

  Lemma pammedsil_swap_same med maxiter : snd (pammedsil_swap_n M med maxiter) = pammedsil_swap M med maxiter.
  Proof. unfold pammedsil_swap_n, pammedsil_swap. er. Qed.
  Hint Resolve pammedsil_swap_same : er.

End Same.
