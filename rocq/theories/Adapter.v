(** Adapter.v -- the results depend on nothing but the entries of the matrix.

    [rle m m'] : [m] is poisoned (it has read outside the n x n matrix) or equal to [m'].  All
    functions of the model preserve it; so if a function does not read outside the matrix
    [restrict n D] (which the no-panic theorems tell), it gives the same for every adapter with the
    entries [D]. *)
From Coq Require Import ZArith Lia.
From Verif Require Import Base Num M_Mat M_Util M_Fasterpam M_Pam M_Alternating M_ParFasterpam M_Silhouette
  M_Msc M_Pammedsil M_Pamsil M_Dynmsc Hoare Spec Laws.
Set Implicit Arguments.

Definition rle {A} (m m' : res A) : Prop := m = Panic P_overflow \/ m = m'.

Lemma rle_refl A (m : res A) : rle m m. Proof. right. auto. Qed.

Lemma rle_bind A B (m m' : res A) (f f' : A -> res B) : rle m m' -> (forall a, rle (f a) (f' a)) ->
  rle (bind m f) (bind m' f').
Proof.
  intros [->| ->] h; [left; auto|]. destruct m' as [a|p]; cbn [bind]; [apply h|apply rle_refl].
Qed.

Lemma rle_foldM A S (f f' : S -> A -> res S) l : (forall s a, rle (f s a) (f' s a)) ->
  forall s, rle (foldM f l s) (foldM f' l s).
Proof.
  intros h. induction l as [|a l IH]; intros s; cbn [foldM]; [apply rle_refl|]. apply rle_bind; auto.
Qed.

Lemma rle_mapM A B (f f' : A -> res B) l : (forall a, rle (f a) (f' a)) -> rle (mapM f l) (mapM f' l).
Proof.
  intros h. induction l as [|a l IH]; cbn [mapM]; [apply rle_refl|].
  apply rle_bind; auto. intros b. apply rle_bind; auto. intros bs. apply rle_refl.
Qed.

Lemma rle_forM A S (f f' : S -> A -> res (ctl S)) l : (forall s a, rle (f s a) (f' s a)) ->
  forall s, rle (forM f l s) (forM f' l s).
Proof.
  intros h. induction l as [|a l IH]; intros s; cbn [forM]; [apply rle_refl|].
  apply rle_bind; auto. intros [s'|s']; [apply IH|apply rle_refl].
Qed.

Lemma rle_whileM S (f f' : S -> res (ctl S)) fuel : (forall s, rle (f s) (f' s)) ->
  forall s, rle (whileM fuel f s) (whileM fuel f' s).
Proof.
  intros h. induction fuel as [|fuel IH]; intros s; cbn [whileM]; [apply rle_refl|].
  apply rle_bind; auto. intros [s'|s']; [apply IH|apply rle_refl].
Qed.

Create HintDb rle discriminated.
Global Hint Constants Opaque : rle.

Ltac rstep :=
  match goal with
  | |- forall _, _ => intro
  | |- rle ?a ?a => apply rle_refl
  | |- rle _ _ => solve [auto 2 with rle nocore]
  | |- rle (bind _ _) (bind _ _) => apply rle_bind
  | |- rle (foldM _ _ _) (foldM _ _ _) => apply rle_foldM
  | |- rle (mapM _ _) (mapM _ _) => apply rle_mapM
  | |- rle (forM _ _ _) (forM _ _ _) => apply rle_forM
  | |- rle (whileM _ _ _) (whileM _ _ _) => apply rle_whileM
  | |- rle (if ?b then _ else _) (if ?b then _ else _) => destruct b
  | |- rle (match ?x with _ => _ end) (match ?x with _ => _ end) => destruct x
  | |- rle ((match ?x with _ => _ end) _) _ => destruct x
  | |- rle (let _ := _ in _) _ => cbv zeta
  end.
Ltac rgo := cbv zeta; repeat rstep.

Section Rle.
  Context {Nt Lt : Type} `{HN : NumN Nt} `{HL : NumL Lt} `{HF : FromN Nt Lt}.
  Variables M M' : Mat Nt.
  Hypothesis hlen : mlen M = mlen M'.
  Hypothesis hsq : msquare M = msquare M'.
  Hypothesis hget : forall x y, rle (mget M x y) (mget M' x y).
  Hint Resolve hget : rle.

  Ltac rf f := unfold f; rewrite ?hlen, ?hsq; rgo.

  (** util.rs, fasterpam.rs *)
  Lemma rle_member_sum assi m c : rle (member_sum (Lt := Lt) M assi m c) (member_sum M' assi m c).
  Proof. rf @member_sum. Qed.
  Hint Resolve rle_member_sum : rle.
  Lemma rle_choose assi med m :
    rle (choose_medoid_within_partition (Lt := Lt) M assi med m) (choose_medoid_within_partition M' assi med m).
  Proof. rf @choose_medoid_within_partition. Qed.
  Hint Resolve rle_choose : rle.
  Lemma rle_check k : rle (check_input M k) (check_input M' k).
  Proof. rf @check_input. Qed.
  Hint Resolve rle_check : rle.
  Lemma rle_ia_obj med c i : rle (ia_obj (Lt := Lt) M med c i) (ia_obj M' med c i).
  Proof. unfold ia_obj, ia_step. rgo. Qed.
  Hint Resolve rle_ia_obj : rle.
  Lemma rle_ia med : rle (initial_assignment (Lt := Lt) M med) (initial_assignment M' med).
  Proof. rf @initial_assignment. Qed.
  Hint Resolve rle_ia : rle.
  Lemma rle_fbs_step j st x : rle (fbs_step (Lt := Lt) M j st x) (fbs_step M' j st x).
  Proof. rf @fbs_step. Qed.
  Hint Resolve rle_fbs_step : rle.
  Lemma rle_fbs rl data j : rle (find_best_swap (Lt := Lt) M rl data j) (find_best_swap M' rl data j).
  Proof. rf @find_best_swap. Qed.
  Hint Resolve rle_fbs : rle.
  Lemma rle_usn med n b o doj : rle (update_second_nearest M med n b o doj) (update_second_nearest M' med n b o doj).
  Proof. rf @update_second_nearest. Qed.
  Hint Resolve rle_usn : rle.
  Lemma rle_do_swap_obj med b j x : rle (do_swap_obj (Lt := Lt) M med b j x) (do_swap_obj M' med b j x).
  Proof. rf @do_swap_obj. Qed.
  Hint Resolve rle_do_swap_obj : rle.
  Lemma rle_do_swap med data b j : rle (do_swap (Lt := Lt) M med data b j) (do_swap M' med data b j).
  Proof. rf @do_swap. Qed.
  Hint Resolve rle_do_swap : rle.
  Lemma rle_fp_cand st j : rle (fp_cand (Lt := Lt) M st j) (fp_cand M' st j).
  Proof. rf @fp_cand. Qed.
  Hint Resolve rle_fp_cand : rle.
  Lemma rle_fp_iteration order st : rle (fp_iteration (Lt := Lt) M order st) (fp_iteration M' order st).
  Proof. rf @fp_iteration. Qed.
  Hint Resolve rle_fp_iteration : rle.
  Lemma rle_single med : rle (single_medoid (Lt := Lt) M med) (single_medoid M' med).
  Proof. rf @single_medoid. Qed.
  Hint Resolve rle_single : rle.
  Lemma rle_rand order med maxiter : rle (rand_fasterpam (Lt := Lt) M order med maxiter) (rand_fasterpam M' order med maxiter).
  Proof. unfold rand_fasterpam. rf @fasterpam_order. Qed.
  Lemma rle_fasterpam med maxiter : rle (fasterpam (Lt := Lt) M med maxiter) (fasterpam M' med maxiter).
  Proof. unfold fasterpam. rewrite hlen. apply rle_rand. Qed.

  (** par_fasterpam.rs *)
  Lemma rle_pia t med : rle (par_initial_assignment (Lt := Lt) M t med) (par_initial_assignment M' t med).
  Proof. rf @par_initial_assignment. Qed.
  Hint Resolve rle_pia : rle.
  Lemma rle_par_task l data j s x : rle (par_task (Lt := Lt) M l data j s x) (par_task M' l data j s x).
  Proof. rf @par_task. Qed.
  Hint Resolve rle_par_task : rle.
  Lemma rle_pfbs s rl data j : rle (par_find_best_swap (Lt := Lt) M s rl data j) (par_find_best_swap M' s rl data j).
  Proof. rf @par_find_best_swap. Qed.
  Hint Resolve rle_pfbs : rle.
  Lemma rle_pds_obj med b j x : rle (par_do_swap_obj (Lt := Lt) M med b j x) (par_do_swap_obj M' med b j x).
  Proof. rf @par_do_swap_obj. Qed.
  Hint Resolve rle_pds_obj : rle.
  Lemma rle_pds t med data b j : rle (par_do_swap (Lt := Lt) M t med data b j) (par_do_swap M' t med data b j).
  Proof. rf @par_do_swap. Qed.
  Hint Resolve rle_pds : rle.
  Lemma rle_par_cand orc st j : rle (par_cand (Lt := Lt) M orc st j) (par_cand M' orc st j).
  Proof. rf @par_cand. Qed.
  Hint Resolve rle_par_cand : rle.
  Lemma rle_par_it orc order st : rle (par_iteration (Lt := Lt) M orc order st) (par_iteration M' orc order st).
  Proof. rf @par_iteration. Qed.
  Hint Resolve rle_par_it : rle.
  Lemma rle_par orc order med maxiter :
    rle (par_fasterpam (Lt := Lt) M orc order med maxiter) (par_fasterpam M' orc order med maxiter).
  Proof. rf @par_fasterpam. Qed.

  (** fastpam1.rs, pam.rs *)
  Lemma rle_f1_cand med data rl best j : rle (fastpam1_cand (Lt := Lt) M med data rl best j) (fastpam1_cand M' med data rl best j).
  Proof. rf @fastpam1_cand. Qed.
  Hint Resolve rle_f1_cand : rle.
  Lemma rle_swap_best st rl best : rle (swap_best (Lt := Lt) M st rl best) (swap_best M' st rl best).
  Proof. rf @swap_best. Qed.
  Hint Resolve rle_swap_best : rle.
  Lemma rle_f1_it st : rle (fastpam1_iteration (Lt := Lt) M st) (fastpam1_iteration M' st).
  Proof. rf @fastpam1_iteration. Qed.
  Hint Resolve rle_f1_it : rle.
  Lemma rle_fastpam1 med maxiter : rle (fastpam1 (Lt := Lt) M med maxiter) (fastpam1 M' med maxiter).
  Proof. rf @fastpam1. Qed.
  Lemma rle_pcs j m acc x : rle (pam_change_step (Lt := Lt) M j m acc x) (pam_change_step M' j m acc x).
  Proof. rf @pam_change_step. Qed.
  Hint Resolve rle_pcs : rle.
  Lemma rle_fbsp med data j : rle (find_best_swap_pam (Lt := Lt) M med data j) (find_best_swap_pam M' med data j).
  Proof. rf @find_best_swap_pam. Qed.
  Hint Resolve rle_fbsp : rle.
  Lemma rle_pam_cand med data best j : rle (pam_cand (Lt := Lt) M med data best j) (pam_cand M' med data best j).
  Proof. rf @pam_cand. Qed.
  Hint Resolve rle_pam_cand : rle.
  Lemma rle_pam_it st : rle (pam_iteration (Lt := Lt) M st) (pam_iteration M' st).
  Proof. rf @pam_iteration. Qed.
  Hint Resolve rle_pam_it : rle.
  Lemma rle_pam_opt med data maxiter loss : rle (pam_optimize (Lt := Lt) M med data maxiter loss) (pam_optimize M' med data maxiter loss).
  Proof. rf @pam_optimize. Qed.
  Hint Resolve rle_pam_opt : rle.
  Lemma rle_pam_swap med maxiter : rle (pam_swap (Lt := Lt) M med maxiter) (pam_swap M' med maxiter).
  Proof. rf @pam_swap. Qed.
  Lemma rle_build_first k : rle (build_first (Lt := Lt) M k) (build_first M' k).
  Proof. unfold build_first, build_first_sum. rewrite ?hlen. rgo. Qed.
  Hint Resolve rle_build_first : rle.
  Lemma rle_build_next k dn c : rle (build_next (Lt := Lt) M k dn c) (build_next M' k dn c).
  Proof. unfold build_next, build_next_sum. rgo. Qed.
  Hint Resolve rle_build_next : rle.
  Lemma rle_buo l bj x : rle (build_upd_obj (Lt := Lt) M l bj x) (build_upd_obj M' l bj x).
  Proof. rf @build_upd_obj. Qed.
  Hint Resolve rle_buo : rle.
  Lemma rle_build_step k st l : rle (build_step (Lt := Lt) M k st l) (build_step M' k st l).
  Proof. rf @build_step. Qed.
  Hint Resolve rle_build_step : rle.
  Lemma rle_build_init k : rle (pam_build_initialize (Lt := Lt) M k) (pam_build_initialize M' k).
  Proof. rf @pam_build_initialize. Qed.
  Hint Resolve rle_build_init : rle.
  Lemma rle_pam_build k : rle (pam_build (Lt := Lt) M k) (pam_build M' k).
  Proof. rf @pam_build. Qed.
  Lemma rle_pam k maxiter : rle (pam (Lt := Lt) M k maxiter) (pam M' k maxiter).
  Proof. rf @pam. Qed.

  (** alternating.rs *)
  Lemma rle_an med : rle (assign_nearest (Lt := Lt) M med) (assign_nearest M' med).
  Proof. unfold assign_nearest, an_obj. rewrite hlen. rgo. Qed.
  Hint Resolve rle_an : rle.
  Lemma rle_alternating med maxiter : rle (alternating (Lt := Lt) M med maxiter) (alternating M' med maxiter).
  Proof. unfold alternating, alt_iteration, alt_medoids. rgo. Qed.

  (** silhouette.rs, par_silhouette.rs *)
  Lemma rle_sil_buf assi i : rle (sil_buf (Lt := Lt) M assi i) (sil_buf M' assi i).
  Proof. rf @sil_buf. Qed.
  Hint Resolve rle_sil_buf : rle.
  Lemma rle_silhouette assi samples : rle (silhouette (Lt := Lt) M assi samples) (silhouette M' assi samples).
  Proof. unfold silhouette, sil_step. rewrite hsq. rgo. Qed.
  Hint Resolve rle_silhouette : rle.
  Lemma rle_par_silhouette assi : rle (par_silhouette (Lt := Lt) M assi) (par_silhouette M' assi).
  Proof. rf @par_silhouette. Qed.
  Lemma rle_medoid_silhouette meds samples : rle (medoid_silhouette (Lt := Lt) M meds samples) (medoid_silhouette M' meds samples).
  Proof. unfold medoid_silhouette, ms_step, ms_best. rewrite hsq, hlen. rgo. Qed.

  (** fastermsc.rs, fastmsc.rs *)
  Lemma rle_ia3_obj med c i : rle (ia3_obj (Lt := Lt) M med c i) (ia3_obj M' med c i).
  Proof. unfold ia3_obj, ia3_step. rgo. Qed.
  Hint Resolve rle_ia3_obj : rle.
  Lemma rle_ia3 med : rle (initial_assignment3 (Lt := Lt) M med) (initial_assignment3 M' med).
  Proof. rf @initial_assignment3. Qed.
  Hint Resolve rle_ia3 : rle.
  Lemma rle_fbs3 rl data j : rle (find_best_swap3 (Lt := Lt) M rl data j) (find_best_swap3 M' rl data j).
  Proof. unfold find_best_swap3, fbs3_step. rgo. Qed.
  Hint Resolve rle_fbs3 : rle.
  Lemma rle_utn med n s b o doj : rle (update_third_nearest M med n s b o doj) (update_third_nearest M' med n s b o doj).
  Proof. rf @update_third_nearest. Qed.
  Hint Resolve rle_utn : rle.
  Lemma rle_ds3_obj med b j x : rle (do_swap3_obj (Lt := Lt) M med b j x) (do_swap3_obj M' med b j x).
  Proof. rf @do_swap3_obj. Qed.
  Hint Resolve rle_ds3_obj : rle.
  Lemma rle_ds3 med data b j : rle (do_swap3 (Lt := Lt) M med data b j) (do_swap3 M' med data b j).
  Proof. rf @do_swap3. Qed.
  Hint Resolve rle_ds3 : rle.
  Lemma rle_msc_it st : rle (msc_iteration (Lt := Lt) M st) (msc_iteration M' st).
  Proof. unfold msc_iteration, msc_cand. rewrite hlen. rgo. Qed.
  Hint Resolve rle_msc_it : rle.
  Lemma rle_iak2 med : rle (initial_assignment_k2 (Lt := Lt) M med) (initial_assignment_k2 M' med).
  Proof. unfold initial_assignment_k2, ia2_obj. rewrite hlen, hsq. rgo. Qed.
  Hint Resolve rle_iak2 : rle.
  Lemma rle_fbsk2 data j : rle (find_best_swap_k2 (Lt := Lt) M data j) (find_best_swap_k2 M' data j).
  Proof. unfold find_best_swap_k2, fbs2_step. rgo. Qed.
  Hint Resolve rle_fbsk2 : rle.
  Lemma rle_dsk2 med assi data b j : rle (do_swap_k2 (Lt := Lt) M med assi data b j) (do_swap_k2 M' med assi data b j).
  Proof. unfold do_swap_k2, do_swap2_obj. rewrite hlen. rgo. Qed.
  Hint Resolve rle_dsk2 : rle.
  Lemma rle_fasterk2 med maxiter : rle (fastermsc_k2 (Lt := Lt) M med maxiter) (fastermsc_k2 M' med maxiter).
  Proof. unfold fastermsc_k2, k2_iteration, k2_cand, to_silhouette. rewrite hlen. rgo. Qed.
  Hint Resolve rle_fasterk2 : rle.
  Lemma rle_fastermsc med maxiter : rle (fastermsc (Lt := Lt) M med maxiter) (fastermsc M' med maxiter).
  Proof. unfold fastermsc, to_silhouette. rewrite hlen. rgo. Qed.
  Lemma rle_sb3 st rl best : rle (swap_best3 (Lt := Lt) M st rl best) (swap_best3 M' st rl best).
  Proof. rf @swap_best3. Qed.
  Hint Resolve rle_sb3 : rle.
  Lemma rle_fastk2 med maxiter : rle (fastmsc_k2 (Lt := Lt) M med maxiter) (fastmsc_k2 M' med maxiter).
  Proof. unfold fastmsc_k2, fastmsc_k2_iteration, fastmsc_k2_cand, to_silhouette. rewrite hlen. rgo. Qed.
  Hint Resolve rle_fastk2 : rle.
  Lemma rle_fastmsc med maxiter : rle (fastmsc (Lt := Lt) M med maxiter) (fastmsc M' med maxiter).
  Proof. unfold fastmsc, fastmsc_iteration, fastmsc_cand, to_silhouette. rewrite hlen. rgo. Qed.

  (** pammedsil.rs *)
  Lemma rle_pms_step j m acc x : rle (pms_step (Lt := Lt) M j m acc x) (pms_step M' j m acc x).
  Proof. rf @pms_step. Qed.
  Lemma rle_pms2_step j m acc x : rle (pms2_step (Lt := Lt) M j m acc x) (pms2_step M' j m acc x).
  Proof. rf @pms2_step. Qed.
  Hint Resolve rle_pms_step rle_pms2_step : rle.
  Lemma rle_pms_it st : rle (pms_iteration (Lt := Lt) M st) (pms_iteration M' st).
  Proof.
    unfold pms_iteration, pms_cand, find_best_swap_pms. rewrite hlen. rgo; destruct (length _ =? 2); rgo.
  Qed.
  Hint Resolve rle_pms_it : rle.
  Lemma rle_pms_opt med data maxiter loss : rle (pammedsil_optimize (Lt := Lt) M med data maxiter loss) (pammedsil_optimize M' med data maxiter loss).
  Proof. unfold pammedsil_optimize, to_silhouette. rewrite hlen. rgo. Qed.
  Hint Resolve rle_pms_opt : rle.
  Lemma rle_pms_swap med maxiter : rle (pammedsil_swap (Lt := Lt) M med maxiter) (pammedsil_swap M' med maxiter).
  Proof. rf @pammedsil_swap. Qed.
  Lemma rle_pms_build k : rle (pammedsil_build_initialize (Lt := Lt) M k) (pammedsil_build_initialize M' k).
  Proof. unfold pammedsil_build_initialize, build3_step, build3_upd_obj. rewrite hlen. rgo. Qed.
  Hint Resolve rle_pms_build : rle.
  Lemma rle_pammedsil k maxiter : rle (pammedsil (Lt := Lt) M k maxiter) (pammedsil M' k maxiter).
  Proof. rf @pammedsil. Qed.

  (** pamsil.rs *)
  Lemma rle_pamsil_it st : rle (pamsil_iteration (Lt := Lt) M st) (pamsil_iteration M' st).
  Proof. unfold pamsil_iteration, pamsil_pos, pamsil_cand. rewrite hlen. rgo. Qed.
  Hint Resolve rle_pamsil_it : rle.
  Lemma rle_pamsil_opt med assi maxiter : rle (pamsil_optimize (Lt := Lt) M med assi maxiter) (pamsil_optimize M' med assi maxiter).
  Proof. rf @pamsil_optimize. Qed.
  Hint Resolve rle_pamsil_opt : rle.
  Lemma rle_pamsil_swap med maxiter : rle (pamsil_swap (Lt := Lt) M med maxiter) (pamsil_swap M' med maxiter).
  Proof. rf @pamsil_swap. Qed.
  Lemma rle_pamsil k maxiter : rle (pamsil (Lt := Lt) M k maxiter) (pamsil M' k maxiter).
  Proof.
    unfold pamsil, pamsil_build_initialize, pamsil_build_step, pamsil_upd_obj. rewrite hlen. rgo.
  Qed.

  (** dynmsc.rs *)
  Lemma rle_remove_med med data b : rle (remove_med (Lt := Lt) M med data b) (remove_med M' med data b).
  Proof. unfold remove_med, remove_med_obj, update_third_nearest_without_new. rgo. Qed.
  Hint Resolve rle_remove_med : rle.
  Lemma rle_dynmsc med mink maxiter : rle (dynmsc (Lt := Lt) M med mink maxiter) (dynmsc M' med mink maxiter).
  Proof. unfold dynmsc, dyn_round, to_silhouette. rewrite hlen. rgo. Qed.
End Rle.

(** The n x n matrix with the entries [D], poisoned outside. *)
Definition restrict {Nt} (n : nat) (D : nat -> nat -> Nt) : Mat Nt := {|
  mlen := n;
  msquare := Ok true;
  mget := fun x y => if (x <? n) && (y <? n) then Ok (D x y) else Panic P_overflow
|}.

Lemma restrict_matrix {Nt} n (D : nat -> nat -> Nt) : is_matrix (restrict n D) n D.
Proof.
  split; [auto|]. split; [auto|]. intros x y hx hy. cbn [restrict mget].
  apply Nat.ltb_lt in hx, hy. rewrite hx, hy. auto.
Qed.

(** [f] gives the same for all adapters with the entries [D] if it does not panic on [restrict n D] *)
Lemma adapter_same {Nt A} (f : Mat Nt -> res A) n D (M M' : Mat Nt) :
  (forall M M', mlen M = mlen M' -> msquare M = msquare M' -> (forall x y, rle (mget M x y) (mget M' x y)) ->
     rle (f M) (f M')) ->
  is_matrix M n D -> is_matrix M' n D -> f (restrict n D) <> Panic P_overflow -> f M = f M'.
Proof.
  intros hf h h' hp.
  assert (g : forall M, is_matrix M n D -> f (restrict n D) = f M).
  { intros X (q1 & q2 & q3). destruct (hf (restrict n D) X) as [e|e]; auto; [|congruence].
    intros x y. cbn [restrict mget]. destruct ((x <? n) && (y <? n)) eqn:e; [|left; auto].
    apply andb_prop in e as [e1 e2]. apply Nat.ltb_lt in e1, e2. right. symmetry. auto. }
  rewrite <- (g M h). apply g. auto.
Qed.
