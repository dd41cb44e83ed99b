(** CheckedSilFacts.v -- a function of M_CheckedSil.v panics with an arithmetic panic, or does what the function without
    the checks does. *)
From Coq Require Import ZArith Lia.
From Verif Require Import Base Num M_Mat M_Util M_Fasterpam M_Pam M_Alternating M_ParFasterpam M_Silhouette M_Pamsil
  M_Checked M_CheckedSil Hoare Adapter CheckedFacts Bounded.
Set Implicit Arguments.
Open Scope nat_scope.

Section Facts.
  Context {Nt Lt : Type} `{HN : NumN Nt} `{HL : NumL Lt} `{HF : FromN Nt Lt}.
  Variable C : sarith Lt.
  Variable M : Mat Nt.
  Hypothesis hadd : forall a b, rle (cadd (loss_arith C) a b) (Ok (ladd a b)).
  Hypothesis hsub : forall a b, rle (csub (loss_arith C) a b) (Ok (lsub a b)).
  Hypothesis hneg : forall a, rle (cneg (loss_arith C) a) (Ok (lneg a)).
  Hypothesis hdiv : forall a b, rle (cdiv C a b) (Ok (ldiv a b)).
  Hypothesis hinc : forall c, rle (cinc C c) (Ok (S c)).

  Lemma rle_assign_nearest' med : rle (assign_nearest_c (loss_arith C) M med) (assign_nearest M med).
  Proof. apply rle_assign_nearest; auto. Qed.
  Lemma rle_choose' assi med m : rle (choose_c (loss_arith C) M assi med m) (choose_medoid_within_partition M assi med m).
  Proof. apply rle_choose; auto. Qed.
  Lemma rle_build_first' k : rle (build_first_c (loss_arith C) M k) (build_first M k).
  Proof.
    unfold build_first_c, build_first. apply rle_foldM. intros s i. apply rle_bind; [apply rle_build_first_sum; auto|].
    intros x. apply rle_refl.
  Qed.
  Lemma rle_build_next' k dn cands : rle (build_next_c (loss_arith C) M k dn cands) (build_next M k dn cands).
  Proof.
    unfold build_next_c, build_next. apply rle_foldM. intros s i. apply rle_bind; [apply rle_build_next_sum; auto|].
    intros x. apply rle_refl.
  Qed.

  Lemma rle_checked_div x y : rle (checked_div_c C x y) (Ok (checked_div x y)).
  Proof. unfold checked_div_c, checked_div. destruct (lltb lzero y); [apply (hdiv x y)|apply rle_refl]. Qed.
  Lemma rle_sil_buf assi i : rle (sil_buf_c C M assi i) (sil_buf M assi i).
  Proof.
    unfold sil_buf_c, sil_buf. apply rle_foldM. intros b [j aj]. cbv zeta. destruct (negb (i =? j)); [|apply rle_refl].
    apply rle_bind; [apply rle_refl|]. intros p. eapply rle_bindL; [apply hinc|]. apply rle_bind; [apply rle_refl|].
    intros d. eapply rle_bindL; [apply hadd|]. apply rle_refl.
  Qed.
  Lemma rle_means (l : list (nat * (nat * Lt))) :
    rle (mapM (fun '(_, p) => buf_mean_c C p) l) (Ok (map (fun '(_, p) => buf_mean p) l)).
  Proof.
    induction l as [|[i p] l IH]; cbn [mapM map]; [apply rle_refl|].
    eapply rle_bindL; [apply rle_checked_div|]. eapply rle_bindL; [exact IH|]. apply rle_refl.
  Qed.
  Lemma rle_sil_of_buf buf ai : rle (sil_of_buf_c C buf ai) (sil_of_buf buf ai).
  Proof.
    unfold sil_of_buf_c, sil_of_buf. apply rle_bind; [apply rle_refl|]. intros p. destruct (0 <? fst p); [|apply rle_refl].
    eapply rle_bindL; [apply rle_checked_div|]. eapply rle_bindL; [apply rle_means|]. cbv zeta.
    eapply rle_bindL; [apply hsub|]. apply rle_checked_div.
  Qed.
  Lemma rle_silhouette assi samples : rle (silhouette_c C M assi samples) (silhouette M assi samples).
  Proof.
    unfold silhouette_c, silhouette. apply rle_bind; [apply rle_refl|]. intros sq. apply rle_bind; [apply rle_refl|]. intros _.
    apply rle_bind.
    - apply rle_forM. intros st [i ai]. unfold sil_step_c, sil_step. apply rle_bind; [apply rle_sil_buf|]. intros buf.
      destruct (length buf =? 1); [apply rle_refl|]. apply rle_bind; [apply rle_sil_of_buf|]. intros s.
      apply rle_bind; [apply rle_refl|]. intros vec. eapply rle_bindL; [apply hadd|]. apply rle_refl.
    - intros st. destruct (sl_done st); [apply rle_refl|]. apply rle_bind; [apply rle_refl|]. intros _.
      eapply rle_bindL; [apply hdiv|]. apply rle_refl.
  Qed.
  Lemma rle_par_silhouette assi : rle (par_silhouette_c C M assi) (par_silhouette M assi).
  Proof.
    unfold par_silhouette_c, par_silhouette. apply rle_bind; [apply rle_refl|]. intros sq. apply rle_bind; [apply rle_refl|]. intros _.
    apply rle_bind.
    - apply rle_mapM. intros [i ai]. apply rle_bind; [apply rle_sil_buf|]. intros buf. apply rle_sil_of_buf.
    - intros ss. eapply rle_bindL; [apply foldM_cadd; auto|]. apply hdiv.
  Qed.
  Lemma rle_medoid_silhouette med samples : rle (medoid_silhouette_c C M med samples) (medoid_silhouette M med samples).
  Proof.
    unfold medoid_silhouette_c, medoid_silhouette. do 3 (apply rle_bind; [apply rle_refl|]; intros ?). cbv zeta.
    destruct (length med =? 1); [apply rle_refl|]. apply rle_bind; [apply rle_refl|]. intros _. apply rle_bind.
    - apply rle_foldM. intros [loss sil] i. unfold ms_step_c, ms_step. apply rle_bind; [apply rle_refl|]. intros best.
      destruct (negb (nis_zero (fst best))); [|apply rle_refl]. cbv zeta. eapply rle_bindL; [apply hdiv|].
      apply rle_bind; [destruct samples; [eapply rle_bindL; [apply hsub|]|]; apply rle_refl|]. intros sil'.
      eapply rle_bindL; [apply hadd|]. apply rle_refl.
    - intros [loss sil]. eapply rle_bindL; [apply hdiv|]. eapply rle_bindL; [apply hsub|]. apply rle_refl.
  Qed.

  Lemma rle_pamsil_cand m medm st j : rle (pamsil_cand_c C M m medm st j) (pamsil_cand M m medm st j).
  Proof.
    unfold pamsil_cand_c, pamsil_cand. destruct (j =? medm); [apply rle_refl|]. do 2 (apply rle_bind; [apply rle_refl|]; intros ?).
    destruct (j =? _); [apply rle_refl|]. apply rle_bind; [apply rle_refl|]. intros med'.
    apply rle_bind; [apply rle_assign_nearest'|]. intros [l a']. apply rle_bind; [apply rle_silhouette|]. intros [s v]. apply rle_refl.
  Qed.
  Lemma rle_pamsil_optimize med assi maxiter : rle (pamsil_optimize_c C M med assi maxiter) (pamsil_optimize M med assi maxiter).
  Proof.
    unfold pamsil_optimize_c, pamsil_optimize. destruct (length med =? 1).
    - apply rle_bind; [apply rle_choose'|]. intros [[md s] l]. apply rle_refl.
    - apply rle_bind; [apply rle_silhouette|]. intros [s v]. apply rle_bind.
      + apply rle_whileM. intros st. unfold pamsil_iteration_c, pamsil_iteration. apply rle_bind.
        * apply rle_foldM. intros st' m. unfold pamsil_pos_c, pamsil_pos. apply rle_bind; [apply rle_refl|]. intros medm.
          apply rle_bind; [apply rle_foldM; intros; apply rle_pamsil_cand|]. intros st2. apply rle_refl.
        * intros s'. apply rle_refl.
      + intros st. apply rle_bind; [apply rle_assign_nearest'|]. intros [l a]. apply rle_refl.
  Qed.
  Lemma rle_pamsil_swap med maxiter : rle (pamsil_swap_c C M med maxiter) (pamsil_swap M med maxiter).
  Proof.
    unfold pamsil_swap_c, pamsil_swap. apply rle_bind; [apply rle_assign_nearest'|]. intros [l a]. apply rle_pamsil_optimize.
  Qed.
  Lemma rle_build_loss b data : exists x, rle (pamsil_build_loss_c C b data) (Ok x).
  Proof.
    unfold pamsil_build_loss_c. generalize (lzero : Lt). induction (enum data) as [|[j d] l IH]; intros s; cbn [foldM].
    - exists s. apply rle_refl.
    - destruct (j =? b); cbn [bind]; [apply IH|]. destruct (hadd s (lfrom d)) as [->| ->]; cbn [bind]; [|apply IH].
      exists s. left. reflexivity.
  Qed.
  Lemma rle_pamsil_build k : rle (pamsil_build_initialize_c C M k) (pamsil_build_initialize M k).
  Proof.
    unfold pamsil_build_initialize_c, pamsil_build_initialize. apply rle_bind; [apply rle_build_first'|]. intros best.
    apply rle_bind; [apply rle_refl|]. intros data. apply rle_bind; [|intros [a b]; apply rle_refl].
    apply rle_foldM. intros [meds dt] i. unfold pamsil_build_step_c, pamsil_build_step. apply rle_bind; [apply rle_build_next'|].
    intros b. apply rle_bind; [apply rle_refl|]. intros _. apply rle_bind; [apply rle_refl|]. intros dt'.
    destruct (rle_build_loss (snd b) dt') as [x hx]. eapply rle_bindL; [exact hx|]. apply rle_refl.
  Qed.
  Lemma rle_pamsil k maxiter : rle (pamsil_c C M k maxiter) (pamsil M k maxiter).
  Proof.
    unfold pamsil_c, pamsil. apply rle_bind; [apply rle_refl|]. intros _. apply rle_bind; [apply rle_pamsil_build|].
    intros meds. apply rle_pamsil_optimize.
  Qed.
End Facts.

(** ** the arithmetic of a release build: only a division may panic *)
Lemma rr_eq A (x y : res A) : rr eq x y -> x = y.
Proof. destruct x, y; cbn; intros h; try tauto; congruence. Qed.

Section Release.
  Context {Nt Lt : Type} `{HN : NumN Nt} `{HL : NumL Lt} `{HF : FromN Nt Lt}.
  Variable C : sarith Lt.
  Variable M : Mat Nt.
  Hypothesis HA : loss_arith C = {| cadd := fun a b => Ok (ladd a b); csub := fun a b => Ok (lsub a b); cneg := fun a => Ok (lneg a) |}.
  Hypothesis hdiv : forall a b, lltb lzero b = true -> cdiv C a b = Ok (ldiv a b).
  Hypothesis hinc : forall c, (N.of_nat c < u32_max)%N -> cinc C c = Ok (S c).
  Hypothesis hpos : forall c, (0 < c <= u32_max)%N -> lltb (lzero : Lt) (lfrom_u32 c) = true.

  Lemma foldM_ok_ladd (l : list Lt) s : foldM (fun a b => Ok (ladd a b)) l s = Ok (fold_left ladd l s).
  Proof. revert s. induction l as [|x l IH]; intros s; cbn [foldM fold_left bind]; auto. Qed.
  Lemma reduce_rel (l : list Lt) : reduce_c (loss_arith C) l = Ok (reduce ladd l).
  Proof. rewrite HA. destruct l as [|x l]; cbn [reduce_c reduce cadd]; [reflexivity|]. rewrite foldM_ok_ladd. reflexivity. Qed.
  Lemma assign_nearest_rel med : assign_nearest_c (loss_arith C) M med = assign_nearest M med.
  Proof.
    unfold assign_nearest_c, assign_nearest. destruct (check_input M (length med)); cbn [bind]; [|reflexivity].
    destruct (idx med 0); cbn [bind]; [|reflexivity]. destruct (mapM _ _); cbn [bind]; [|reflexivity].
    rewrite reduce_rel. reflexivity.
  Qed.
  Lemma choose_rel assi med m : choose_c (loss_arith C) M assi med m = choose_medoid_within_partition M assi med m.
  Proof. rewrite HA. reflexivity. Qed.
  Lemma build_first_rel k : build_first_c (loss_arith C) M k = build_first M k.
  Proof. rewrite HA. reflexivity. Qed.
  Lemma foldM_ext'' T St (f g : St -> T -> res St) l s : (forall s a, f s a = g s a) -> foldM f l s = foldM g l s.
  Proof. intros h. revert s. induction l as [|a l IH]; intros s; cbn [foldM]; [reflexivity|]. rewrite h. destruct (g s a); cbn [bind]; auto. Qed.
  Lemma build_next_rel k dn cands : build_next_c (loss_arith C) M k dn cands = build_next M k dn cands.
  Proof.
    rewrite HA. unfold build_next_c, build_next. apply foldM_ext''. intros s i. f_equal.
    unfold build_next_sum_c, build_next_sum. destruct (idx dn i) as [d0|]; cbn [bind cneg]; [|reflexivity].
    apply foldM_ext''. intros x [j dj]. destruct (negb (j =? i)); [|reflexivity]. destruct (mget M j i) as [d|]; cbn [bind]; [|reflexivity].
    destruct (nltb d dj); reflexivity.
  Qed.

  Lemma In_grow (b : list (nat * Lt)) a p : In p (M_Silhouette.grow b a) -> In p b \/ fst p = 0.
  Proof. unfold M_Silhouette.grow. intros h. apply in_app_or in h as [h|h]; [auto|]. apply repeat_spec in h. subst p. auto. Qed.
  Lemma In_set_nth' T (l : list T) i a x : In x (set_nth l i a) -> x = a \/ In x l.
  Proof. revert i. induction l as [|y l IH]; intros [|i]; cbn; try tauto; intros [h|h]; auto. apply IH in h. tauto. Qed.

  (** the counters do not exceed the number of objects *)
  Lemma sil_buf_rel assi i : (N.of_nat (length assi) <= u32_max)%N ->
    rr (fun b b' => b = b' /\ forall p, In p b -> fst p <= length assi) (sil_buf_c C M assi i) (sil_buf M assi i).
  Proof.
    intros hl. unfold sil_buf_c, sil_buf. eapply rr_mono.
    - apply rr_foldM with (I := fun t (b b' : list (nat * Lt)) => b = b' /\ forall p, In p b -> fst p <= t).
      + intros t [j a] b b' ht [<- hb]. cbv zeta.
        assert (hlt : t < length assi). { rewrite <- (length_enum assi). apply nth_error_Some. congruence. }
        assert (hg : forall p, In p (M_Silhouette.grow b a) -> fst p <= t).
        { intros p hp. apply In_grow in hp as [hp|hp]; [auto|lia]. }
        destruct (negb (i =? j)); [|cbn [rr]; split; [auto|]; intros p hp; specialize (hg p hp); lia].
        destruct (idx (M_Silhouette.grow b a) a) as [p|q] eqn:ep; cbn [bind rr]; [|auto].
        assert (hp : fst p <= t). { apply hg. unfold idx in ep. destruct (nth_error (M_Silhouette.grow b a) a) eqn:e; [|discriminate]. injection ep as <-. eapply nth_error_In; eauto. }
        rewrite hinc by lia. cbn [bind]. destruct (mget M i j) as [d|q]; cbn [bind rr]; [|auto].
        rewrite HA. cbn [cadd bind]. unfold upd. destruct (a <? _); cbn [rr]; [|auto]. split; [auto|].
        intros x hx. apply In_set_nth' in hx as [->|hx]; [cbn; lia|]. specialize (hg x hx). lia.
      + split; [auto|]. intros p [].
    - cbv beta. rewrite length_enum. auto.
  Qed.

  Lemma checked_div_rel x y : checked_div_c C x y = Ok (checked_div x y).
  Proof. unfold checked_div_c, checked_div. destruct (lltb lzero y) eqn:e; auto. Qed.
  Lemma buf_mean_rel p : buf_mean_c C p = Ok (buf_mean p).
  Proof. apply checked_div_rel. Qed.
  Lemma means_rel (l : list (nat * (nat * Lt))) :
    mapM (fun '(_, p) => buf_mean_c C p) l = Ok (map (fun '(_, p) => buf_mean p) l).
  Proof.
    induction l as [|[i p] l IH]; cbn [mapM map]; [reflexivity|]. rewrite buf_mean_rel. cbn [bind].
    rewrite IH. reflexivity.
  Qed.
  Lemma sil_of_buf_rel buf ai : sil_of_buf_c C buf ai = sil_of_buf buf ai.
  Proof.
    unfold sil_of_buf_c, sil_of_buf. destruct (idx buf ai) as [p|q]; cbn [bind]; [|reflexivity].
    destruct (0 <? fst p); [|reflexivity]. rewrite buf_mean_rel. cbn [bind]. rewrite means_rel. cbn [bind].
    cbv zeta. rewrite HA. cbn [csub bind]. rewrite checked_div_rel. reflexivity.
  Qed.

  Lemma forM_ext' T St (f g : St -> T -> res (ctl St)) l s : (forall s a, f s a = g s a) -> forM f l s = forM g l s.
  Proof. intros h. revert s. induction l as [|a l IH]; intros s; cbn [forM]; [reflexivity|]. rewrite h. destruct (g s a) as [[x|x]|p]; cbn [bind]; auto. Qed.

  Lemma sil_buf_rel' assi i : (N.of_nat (length assi) <= u32_max)%N -> sil_buf_c C M assi i = sil_buf M assi i.
  Proof. intros h. apply rr_eq. eapply rr_mono; [apply sil_buf_rel; auto|]. intros a a' [e _]. exact e. Qed.

  Lemma u32_pos (assi : list nat) : 1 <= length assi -> (N.of_nat (length assi) <= u32_max)%N ->
    lltb (lzero : Lt) (lfrom_u32 (as_u32 (length assi))) = true.
  Proof. intros h1 h2. unfold as_u32, u32_max in *. rewrite N.mod_small by lia. apply hpos. unfold u32_max. lia. Qed.

  Lemma silhouette_rel assi samples : 1 <= length assi -> (N.of_nat (length assi) <= u32_max)%N ->
    silhouette_c C M assi samples = silhouette M assi samples.
  Proof.
    intros h1 h2. unfold silhouette_c, silhouette. destruct (msquare M); cbn [bind]; [|reflexivity].
    destruct (assertb _ _); cbn [bind]; [|reflexivity].
    rewrite (@forM_ext' _ _ (sil_step_c C M samples assi) (sil_step M samples assi)).
    - destruct (forM _ _ _) as [st|q]; cbn [bind]; [|reflexivity]. destruct (sl_done st); [reflexivity|].
      destruct (assertb _ _); cbn [bind]; [|reflexivity]. rewrite hdiv by (apply u32_pos; auto). reflexivity.
    - intros st [i ai]. unfold sil_step_c, sil_step. rewrite sil_buf_rel' by auto. destruct (sil_buf M assi i) as [b|q]; cbn [bind]; [|reflexivity].
      destruct (length b =? 1); [reflexivity|]. rewrite sil_of_buf_rel. destruct (sil_of_buf b ai); cbn [bind]; [|reflexivity].
      rewrite HA. reflexivity.
  Qed.
  Lemma par_silhouette_rel assi : 1 <= length assi -> (N.of_nat (length assi) <= u32_max)%N ->
    par_silhouette_c C M assi = par_silhouette M assi.
  Proof.
    intros h1 h2. unfold par_silhouette_c, par_silhouette. destruct (msquare M); cbn [bind]; [|reflexivity].
    destruct (assertb _ _); cbn [bind]; [|reflexivity].
    rewrite (@mapM_ext _ _ (fun '(i, ai) => buf <- sil_buf_c C M assi i ;; sil_of_buf_c C buf ai)
      (fun '(i, ai) => buf <- sil_buf M assi i ;; sil_of_buf buf ai)).
    - destruct (mapM _ _) as [ss|q]; cbn [bind]; [|reflexivity]. rewrite HA. cbn [cadd]. rewrite foldM_ok_ladd. cbn [bind].
      apply hdiv, u32_pos; auto.
    - intros [i ai] _. rewrite sil_buf_rel' by auto. destruct (sil_buf M assi i); cbn [bind]; [|reflexivity]. apply sil_of_buf_rel.
  Qed.

  Hypothesis hn : (N.of_nat (mlen M) <= u32_max)%N.

  Lemma assign_nearest_len med l a : assign_nearest (Lt := Lt) M med = Ok (l, a) -> length a = mlen M /\ 1 <= mlen M.
  Proof.
    unfold assign_nearest. destruct (check_input M (length med)) as [u|q] eqn:ec; cbn [bind]; [|discriminate].
    destruct (idx med 0) as [fc|q] eqn:ei; cbn [bind]; [|discriminate].
    destruct (mapM _ _) as [rs|q] eqn:em; cbn [bind]; [|discriminate]. intros h. injection h as _ <-.
    rewrite map_length, (mapM_len _ _ em), seq_length. split; [auto|].
    unfold check_input in ec. destruct (msquare M) as [sq|]; cbn [bind] in ec; [|discriminate].
    destruct (assertb sq _); cbn [bind] in ec; [|discriminate].
    destruct (assertb (N.of_nat (mlen M) <=? u32_max)%N _); cbn [bind] in ec; [|discriminate].
    destruct (assertb ((0 <? length med) && _) _) as [[]|] eqn:e1; cbn [bind] in ec; [|discriminate].
    destruct (length med <=? mlen M) eqn:e2; [|discriminate]. apply Nat.leb_le in e2.
    destruct (0 <? length med) eqn:e3; [|discriminate]. apply Nat.ltb_lt in e3. lia.
  Qed.

  Lemma pamsil_cand_rel m medm st j : pamsil_cand_c C M m medm st j = pamsil_cand M m medm st j.
  Proof.
    unfold pamsil_cand_c, pamsil_cand. destruct (j =? medm); [reflexivity|]. destruct (idx (ps_assi st) j); cbn [bind]; [|reflexivity].
    destruct (idx _ _); cbn [bind]; [|reflexivity]. destruct (j =? _); [reflexivity|]. destruct (upd _ _ _) as [med'|]; cbn [bind]; [|reflexivity].
    rewrite assign_nearest_rel. destruct (assign_nearest M med') as [[l a']|q] eqn:ea; cbn [bind]; [|reflexivity].
    apply assign_nearest_len in ea as [ea e1]. rewrite silhouette_rel by (rewrite ea; auto). reflexivity.
  Qed.
  Lemma whileM_ext' St (f g : St -> res (ctl St)) fuel s : (forall s, f s = g s) -> whileM fuel f s = whileM fuel g s.
  Proof. intros h. revert s. induction fuel as [|fuel IH]; intros s; cbn [whileM]; [reflexivity|]. rewrite h. destruct (g s) as [[x|x]|p]; cbn [bind]; auto. Qed.

  Lemma pamsil_iteration_rel st : pamsil_iteration_c C M st = pamsil_iteration M st.
  Proof.
    unfold pamsil_iteration_c, pamsil_iteration. rewrite (@foldM_ext'' _ _ (pamsil_pos_c C M) (pamsil_pos M)); [reflexivity|].
    intros s m. unfold pamsil_pos_c, pamsil_pos. destruct (idx (ps_med s) m) as [medm|]; cbn [bind]; [|reflexivity].
    rewrite (@foldM_ext'' _ _ (pamsil_cand_c C M m medm) (pamsil_cand M m medm)); [reflexivity|]. intros. apply pamsil_cand_rel.
  Qed.
  Lemma pamsil_optimize_rel med assi maxiter : 1 <= length assi -> (N.of_nat (length assi) <= u32_max)%N ->
    pamsil_optimize_c C M med assi maxiter = pamsil_optimize M med assi maxiter.
  Proof.
    intros h1 h2. unfold pamsil_optimize_c, pamsil_optimize. rewrite choose_rel, silhouette_rel by auto.
    destruct (length med =? 1); [reflexivity|]. destruct (silhouette M assi false) as [[s v]|]; cbn [bind]; [|reflexivity].
    rewrite (@whileM_ext' _ (pamsil_iteration_c C M) (pamsil_iteration M)) by apply pamsil_iteration_rel.
    destruct (whileM _ _ _) as [st|]; cbn [bind]; [|reflexivity]. rewrite assign_nearest_rel. reflexivity.
  Qed.
  Lemma pamsil_swap_rel med maxiter : pamsil_swap_c C M med maxiter = pamsil_swap M med maxiter.
  Proof.
    unfold pamsil_swap_c, pamsil_swap. rewrite assign_nearest_rel. destruct (assign_nearest M med) as [[l a]|] eqn:e; cbn [bind]; [|reflexivity].
    apply assign_nearest_len in e as [e e1]. apply pamsil_optimize_rel; rewrite e; auto.
  Qed.
  Lemma build_loss_rel b data : exists x, pamsil_build_loss_c C b data = Ok x.
  Proof.
    unfold pamsil_build_loss_c. rewrite HA. cbn [cadd]. generalize (lzero : Lt).
    induction (enum data) as [|[j d] l IH]; intros s; cbn [foldM]; [eauto|]. destruct (j =? b); cbn [bind]; apply IH.
  Qed.
  Lemma pamsil_rel k maxiter : pamsil_c C M k maxiter = pamsil M k maxiter.
  Proof.
    unfold pamsil_c, pamsil. destruct (check_input M k) as [u|] eqn:ec; cbn [bind]; [|reflexivity].
    assert (h1 : 1 <= mlen M).
    { unfold check_input in ec. destruct (msquare M) as [sq|]; cbn [bind] in ec; [|discriminate].
      destruct (assertb sq _); cbn [bind] in ec; [|discriminate].
      destruct (assertb (N.of_nat (mlen M) <=? u32_max)%N _); cbn [bind] in ec; [|discriminate].
      destruct (assertb ((0 <? k) && _) _) as [[]|] eqn:e1; cbn [bind] in ec; [|discriminate].
      destruct (k <=? mlen M) eqn:e2; [|discriminate]. apply Nat.leb_le in e2.
      destruct (0 <? k) eqn:e3; [|discriminate]. apply Nat.ltb_lt in e3. lia. }
    assert (hb : pamsil_build_initialize_c C M k = pamsil_build_initialize M k).
    { unfold pamsil_build_initialize_c, pamsil_build_initialize. rewrite build_first_rel.
      destruct (build_first M k) as [best|]; cbn [bind]; [|reflexivity]. destruct (mapM _ _); cbn [bind]; [|reflexivity].
      rewrite (@foldM_ext'' _ _ (pamsil_build_step_c C M k) (pamsil_build_step (Lt := Lt) M k)); [reflexivity|].
      intros [meds data] i. unfold pamsil_build_step_c, pamsil_build_step. rewrite build_next_rel.
      destruct (build_next M k data _) as [b|]; cbn [bind]; [|reflexivity]. destruct (assertb _ _); cbn [bind]; [|reflexivity].
      destruct (mapM _ _) as [d'|]; cbn [bind]; [|reflexivity]. destruct (build_loss_rel (snd b) d') as [x ->]. reflexivity. }
    rewrite hb. destruct (pamsil_build_initialize M k); cbn [bind]; [|reflexivity].
    apply pamsil_optimize_rel; rewrite repeat_length; auto.
  Qed.
End Release.
