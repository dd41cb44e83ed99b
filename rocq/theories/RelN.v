(** RelN.v -- the dissimilarity type.

    The functions of the model use few operations on the dissimilarities.  If these agree for two types
    ([R a a'] : the number [a] of the one corresponds to [a'] of the other), then the runs on
    corresponding matrices give the same results, or the same panic, for any loss type.  Only fastermsc,
    fastmsc and dynmsc add two dissimilarities; all others need nothing of the addition. *)
From Coq Require Import ZArith Lia.
From Verif Require Import Base Num M_Mat M_Util M_Fasterpam M_Pam M_Alternating M_ParFasterpam M_Silhouette
  M_Msc M_Pammedsil M_Pamsil M_Dynmsc M_CheckedMsc Hoare ParFacts Bounded.
Set Implicit Arguments.
Open Scope nat_scope.

Definition prod_r {A A' B B'} (RA : A -> A' -> Prop) (RB : B -> B' -> Prop) (p : A * B) (p' : A' * B') : Prop :=
  RA (fst p) (fst p') /\ RB (snd p) (snd p').

Lemma rr_foldM2 A A' S S' (RA : A -> A' -> Prop) (RS : S -> S' -> Prop) f f' l l' :
  (forall s s' a a', RS s s' -> RA a a' -> rr RS (f s a) (f' s' a')) -> Forall2 RA l l' ->
  forall s s', RS s s' -> rr RS (foldM f l s) (foldM f' l' s').
Proof.
  intros h hl. induction hl as [|a a' l l' ha hl IH]; intros s s' hs; cbn [foldM]; [exact hs|].
  eapply rr_bind; [apply h; eauto|]. intros. apply IH. auto.
Qed.

Lemma rr_forM2 A A' S S' (RA : A -> A' -> Prop) (RS : S -> S' -> Prop) f f' l l' :
  (forall s s' a a', RS s s' -> RA a a' -> rr (rc RS) (f s a) (f' s' a')) -> Forall2 RA l l' ->
  forall s s', RS s s' -> rr RS (forM f l s) (forM f' l' s').
Proof.
  intros h hl. induction hl as [|a a' l l' ha hl IH]; intros s s' hs; cbn [forM]; [exact hs|].
  eapply rr_bind; [apply h; eauto|]. intros [b|b] [b'|b']; cbn [rc]; try tauto. apply IH.
Qed.

Lemma rr_mapM2 A A' C C' (RA : A -> A' -> Prop) (RC : C -> C' -> Prop) f f' l l' :
  (forall a a', RA a a' -> rr RC (f a) (f' a')) -> Forall2 RA l l' -> rr (Forall2 RC) (mapM f l) (mapM f' l').
Proof.
  intros h hl. induction hl as [|a a' l l' ha hl IH]; cbn [mapM]; [cbn [rr]; auto|].
  eapply rr_bind; [apply h; auto|]. intros b b' hb. eapply rr_bind; [exact IH|]. intros. cbn [rr]. auto.
Qed.

Lemma F2_eq A (l : list A) : Forall2 eq l l.
Proof. induction l; auto. Qed.
Lemma eq_F2 A (l l' : list A) : Forall2 eq l l' -> l = l'.
Proof. induction 1; congruence. Qed.
Lemma F2_len A A' (R : A -> A' -> Prop) l l' : Forall2 R l l' -> length l = length l'.
Proof. induction 1; simpl; congruence. Qed.
Lemma F2_combine A A' B B' (R : A -> A' -> Prop) (S : B -> B' -> Prop) l l' m m' :
  Forall2 R l l' -> Forall2 S m m' -> Forall2 (prod_r R S) (combine l m) (combine l' m').
Proof.
  intros h. revert m m'. induction h; intros m m' hm; cbn [combine]; auto.
  destruct hm; auto. constructor; [split|]; auto.
Qed.
Lemma F2_enum A A' (R : A -> A' -> Prop) l l' : Forall2 R l l' -> Forall2 (prod_r eq R) (enum l) (enum l').
Proof. intros h. unfold enum. rewrite <- (F2_len h). apply F2_combine; auto. apply F2_eq. Qed.
Lemma F2_map A A' B B' (R : A -> A' -> Prop) (S : B -> B' -> Prop) f f' l l' :
  Forall2 R l l' -> (forall a a', R a a' -> S (f a) (f' a')) -> Forall2 S (map f l) (map f' l').
Proof. intros h hf. induction h; cbn [map]; auto. Qed.
Lemma F2_map_eq A A' B (R : A -> A' -> Prop) (f : A -> B) f' l l' :
  Forall2 R l l' -> (forall a a', R a a' -> f a = f' a') -> map f l = map f' l'.
Proof. intros h hf. apply eq_F2. eapply F2_map; eauto. Qed.
Lemma F2_skipn A A' (R : A -> A' -> Prop) k l l' : Forall2 R l l' -> Forall2 R (skipn k l) (skipn k l').
Proof. intros h. revert k. induction h; intros [|k]; cbn [skipn]; auto. Qed.
Lemma F2_firstn A A' (R : A -> A' -> Prop) k l l' : Forall2 R l l' -> Forall2 R (firstn k l) (firstn k l').
Proof. intros h. revert k. induction h; intros [|k]; cbn [firstn]; auto. Qed.
Lemma rr_idx A A' (R : A -> A' -> Prop) l l' i : Forall2 R l l' -> rr R (idx l i) (idx l' i).
Proof.
  intros h. revert i. induction h; intros [|i]; try exact eq_refl; [exact H|]. apply (IHh i).
Qed.
Lemma rr_refl A (m : res A) : rr eq m m.
Proof. destruct m; cbn [rr]; auto. Qed.
Lemma rr_eq A (m m' : res A) : rr eq m m' -> m = m'.
Proof. destruct m, m'; cbn [rr]; intros; subst; auto; tauto. Qed.
Lemma F2_fold A A' S (R : A -> A' -> Prop) (f : S -> A -> S) f' l l' :
  Forall2 R l l' -> (forall s a a', R a a' -> f s a = f' s a') -> forall s, fold_left f l s = fold_left f' l' s.
Proof. intros h hf. induction h; intros s; cbn [fold_left]; auto. rewrite (hf s x y); auto. Qed.

(** as [rr], or the left-hand side panics with an overflow, if that is allowed *)
Definition ro {A A'} (may : Prop) (R : A -> A' -> Prop) (m : res A) (m' : res A') : Prop :=
  may /\ m = Panic P_overflow \/ rr R m m'.
Lemma ro_rr A A' may (R : A -> A' -> Prop) m m' : rr R m m' -> ro may R m m'.
Proof. right. auto. Qed.
Lemma ro_bind A A' C C' may (R : A -> A' -> Prop) (S : C -> C' -> Prop) m m' f f' :
  ro may R m m' -> (forall a a', R a a' -> ro may S (f a) (f' a')) -> ro may S (bind m f) (bind m' f').
Proof.
  intros [[h ->]|h] hf; [left; auto|]. destruct m, m'; cbn [rr] in h; try tauto; [apply hf; auto|right; exact h].
Qed.
Lemma ro_bindr A A' C C' may (R : A -> A' -> Prop) (S : C -> C' -> Prop) m m' f f' :
  rr R m m' -> (forall a a', R a a' -> ro may S (f a) (f' a')) -> ro may S (bind m f) (bind m' f').
Proof. intros h. apply ro_bind. apply ro_rr. exact h. Qed.
Lemma ro_foldM2 A A' S S' may (RA : A -> A' -> Prop) (RS : S -> S' -> Prop) f f' l l' :
  (forall s s' a a', RS s s' -> RA a a' -> ro may RS (f s a) (f' s' a')) -> Forall2 RA l l' ->
  forall s s', RS s s' -> ro may RS (foldM f l s) (foldM f' l' s').
Proof.
  intros h hl. induction hl as [|a a' l l' ha hl IH]; intros s s' hs; cbn [foldM]; [right; exact hs|].
  eapply ro_bind; [apply h; eauto|]. intros. apply IH. auto.
Qed.
Lemma ro_forM2 A A' S S' may (RA : A -> A' -> Prop) (RS : S -> S' -> Prop) f f' l l' :
  (forall s s' a a', RS s s' -> RA a a' -> ro may (rc RS) (f s a) (f' s' a')) -> Forall2 RA l l' ->
  forall s s', RS s s' -> ro may RS (forM f l s) (forM f' l' s').
Proof.
  intros h hl. induction hl as [|a a' l l' ha hl IH]; intros s s' hs; cbn [forM]; [right; exact hs|].
  eapply ro_bind; [apply h; eauto|]. intros [b|b] [b'|b']; cbn [rc]; try tauto; [apply IH|right; auto].
Qed.
Lemma ro_whileM S S' may (R : S -> S' -> Prop) (f : S -> res (ctl S)) (f' : S' -> res (ctl S')) fuel :
  (forall s s', R s s' -> ro may (rc R) (f s) (f' s')) ->
  forall s s', R s s' -> ro may R (whileM fuel f s) (whileM fuel f' s').
Proof.
  intros h. induction fuel as [|fuel IH]; intros s s' h0; cbn [whileM]; [right; exact h0|].
  eapply ro_bind; [apply h; exact h0|]. intros [b|b] [b'|b']; cbn [rc]; try tauto; [apply IH|right; auto].
Qed.
Lemma ro_eq A may (m m' : res A) : ro may eq m m' -> may /\ m = Panic P_overflow \/ m = m'.
Proof. intros [h|h]; [left; auto|right; apply rr_eq; exact h]. Qed.

Section Rel.
  Context {Nt Nt' Lt : Type} `{HN : NumN Nt} `{HN' : NumN Nt'} `{HL : NumL Lt} `{HF : FromN Nt Lt} `{HF' : FromN Nt' Lt}.
  Variable R : Nt -> Nt' -> Prop.
  Hypothesis Rzero : R nzero nzero.
  Hypothesis Rltb : forall a a' b b', R a a' -> R b b' -> nltb a b = nltb a' b'.
  Hypothesis Reqb : forall a a' b b', R a a' -> R b b' -> neqb a b = neqb a' b'.
  Hypothesis Riszero : forall a a', R a a' -> nis_zero a = nis_zero a'.
  Hypothesis Rfrom : forall a a', R a a' -> lfrom a = lfrom a'.

  Variable M : Mat Nt.
  Variable M' : Mat Nt'.
  Hypothesis Rlen : mlen M = mlen M'.
  Hypothesis Rsq : msquare M = msquare M'.
  Hypothesis Rget : forall x y, rr R (mget M x y) (mget M' x y).

  Definition rdp (p : dpair Nt) (p' : dpair Nt') : Prop := di p = di p' /\ R (dd p) (dd p').
  Definition rrec (p : Rec Nt) (p' : Rec Nt') : Prop := rdp (near p) (near p') /\ rdp (seco p) (seco p').
  Definition rreco (p : Reco Nt) (p' : Reco Nt') : Prop :=
    rdp (near3 p) (near3 p') /\ rdp (seco3 p) (seco3 p') /\ rdp (third3 p) (third3 p').
  Definition rfp (s : fpst Nt Lt) (s' : fpst Nt' Lt) : Prop :=
    fp_med s = fp_med s' /\ Forall2 rrec (fp_data s) (fp_data s') /\ fp_rl s = fp_rl s' /\ fp_loss s = fp_loss s' /\
    fp_last s = fp_last s' /\ fp_swaps s = fp_swaps s' /\ fp_iter s = fp_iter s'.
  Definition rp (s : pst Nt Lt) (s' : pst Nt' Lt) : Prop :=
    p_med s = p_med s' /\ Forall2 rrec (p_data s) (p_data s') /\ p_rl s = p_rl s' /\ p_loss s = p_loss s' /\
    p_swaps s = p_swaps s' /\ p_iter s = p_iter s'.
  Definition rb (s : bst Nt Lt) (s' : bst Nt' Lt) : Prop :=
    b_meds s = b_meds s' /\ Forall2 rrec (b_data s) (b_data s') /\ b_loss s = b_loss s'.
  Definition rb3 (s : b3st Nt Lt) (s' : b3st Nt' Lt) : Prop :=
    b3_meds s = b3_meds s' /\ Forall2 rreco (b3_data s) (b3_data s') /\ b3_loss s = b3_loss s'.
  Definition rm (s : mst Nt Lt) (s' : mst Nt' Lt) : Prop :=
    m_med s = m_med s' /\ Forall2 rreco (m_data s) (m_data s') /\ m_rl s = m_rl s' /\ m_loss s = m_loss s' /\
    m_last s = m_last s' /\ m_swaps s = m_swaps s' /\ m_iter s = m_iter s'.
  Definition rk (s : kst Nt Lt) (s' : kst Nt' Lt) : Prop :=
    k_med s = k_med s' /\ k_assi s = k_assi s' /\ Forall2 (prod_r R R) (k_data s) (k_data s') /\ k_loss s = k_loss s' /\
    k_last s = k_last s' /\ k_swaps s = k_swaps s' /\ k_iter s = k_iter s'.
  Definition ry (s : dst Nt Lt) (s' : dst Nt' Lt) : Prop :=
    y_med s = y_med s' /\ Forall2 rreco (y_data s) (y_data s') /\ y_rl s = y_rl s' /\ y_loss s = y_loss s' /\
    y_losses s = y_losses s' /\ y_best s = y_best s' /\ y_assi s = y_assi s' /\ y_meds s = y_meds s' /\
    y_iter s = y_iter s' /\ y_swaps s = y_swaps s'.

  Lemma Rratio a a' b b' : R a a' -> R b b' -> (ratio a b : Lt) = ratio a' b'.
  Proof. intros ha hb. unfold ratio. rewrite (Riszero ha), (Riszero hb), (Rfrom ha), (Rfrom hb). reflexivity. Qed.

  Create HintDb rel discriminated.
  Hint Constants Opaque : rel.

  (** take the related data apart *)
  Ltac open :=
    repeat (first
      [ progress subst
      | match goal with
        | h : _ /\ _ |- _ => destruct h
        | h : prod_r _ _ (_, _) (_, _) |- _ => destruct h as [? ?]; cbn [fst snd] in *
        | h : prod_r _ _ ?p ?p' |- _ => destruct p, p'; destruct h as [? ?]; cbn [fst snd] in *
        | h : rdp ?p ?p' |- _ => destruct p, p'; destruct h as [? ?]; cbn [di dd] in *
        | h : rrec ?p ?p' |- _ => destruct p, p'; destruct h as [? ?]; cbn [near seco] in *
        | h : rreco ?p ?p' |- _ => destruct p, p'; destruct h as (? & ? & ?); cbn [near3 seco3 third3] in *
        | h : rfp ?p ?p' |- _ => destruct p, p'; unfold rfp in h; cbn [fp_med fp_data fp_rl fp_loss fp_last fp_swaps fp_iter] in *
        | h : rp ?p ?p' |- _ => destruct p, p'; unfold rp in h; cbn [p_med p_data p_rl p_loss p_swaps p_iter] in *
        | h : rb ?p ?p' |- _ => destruct p, p'; unfold rb in h; cbn [b_meds b_data b_loss] in *
        | h : rb3 ?p ?p' |- _ => destruct p, p'; unfold rb3 in h; cbn [b3_meds b3_data b3_loss] in *
        | h : rm ?p ?p' |- _ => destruct p, p'; unfold rm in h; cbn [m_med m_data m_rl m_loss m_last m_swaps m_iter] in *
        | h : rk ?p ?p' |- _ => destruct p, p'; unfold rk in h; cbn [k_med k_assi k_data k_loss k_last k_swaps k_iter] in *
        | h : ry ?p ?p' |- _ => destruct p, p'; unfold ry in h;
            cbn [y_med y_data y_rl y_loss y_losses y_best y_assi y_meds y_iter y_swaps] in *
        | h : rc _ ?c ?c' |- _ => destruct c, c'; cbn [rc] in h; try (exfalso; exact h)
        end ]).
  (** express the left-hand side with the numbers of the right-hand side *)
  Ltac same :=
    repeat (match goal with
    | ha : R ?a ?a', hb : R ?b ?b' |- context [nltb ?a ?b] => rewrite (Rltb ha hb)
    | ha : R ?a ?a', hb : R ?b ?b' |- context [neqb ?a ?b] => rewrite (Reqb ha hb)
    | ha : R ?a ?a', hb : R ?b ?b' |- context [ratio ?a ?b] => rewrite (Rratio ha hb)
    | ha : R ?a ?a' |- context [nis_zero ?a] => rewrite (Riszero ha)
    | ha : R ?a ?a' |- context [lfrom ?a] => rewrite (Rfrom ha)
    end).
  Ltac fin :=
    unfold prod_r, rdp, rrec, rreco, rfp, rp, rb, rb3, rm, rk, ry;
    cbn [rc fst snd di dd near seco near3 seco3 third3 fp_med fp_data fp_rl fp_loss fp_last fp_swaps fp_iter
      p_med p_data p_rl p_loss p_swaps p_iter b_meds b_data b_loss b3_meds b3_data b3_loss
      m_med m_data m_rl m_loss m_last m_swaps m_iter k_med k_assi k_data k_loss k_last k_swaps k_iter
      y_med y_data y_rl y_loss y_losses y_best y_assi y_meds y_iter y_swaps];
    repeat split; auto using F2_eq; try congruence.
  Ltac rproj := cbv zeta; cbn [fst snd di dd near seco near3 seco3 third3 p_med p_data p_rl p_loss p_swaps p_iter
    m_med m_data m_rl m_loss m_last m_swaps m_iter k_med k_assi k_data k_loss k_last k_swaps k_iter
    b_meds b_data b_loss b3_meds b3_data b3_loss].
  Ltac step :=
    match goal with
    | |- forall _, _ => intro
    | |- rr _ (Panic _) (Panic _) => exact eq_refl
    | |- rr _ (Ok _) (Ok _) => cbn [rr]; solve [fin]
    | |- rr _ (Ok ?x) (Ok ?y) => match x with context [if ?b then _ else _] => match y with context [if b then _ else _] => destruct b end end
    | |- rr _ _ _ => solve [eauto 3 with rel nocore]
    | |- rr _ ?a ?a => first [apply rr_refl | eapply rr_mono; [apply rr_refl|intros; subst; solve [fin]]]
    | |- rr _ (bind ?m _) (bind ?m _) => eapply rr_bind; [apply rr_refl|intros; subst; open; same]
    | |- rr _ (bind _ _) (bind _ _) => eapply rr_bind; [solve [eauto 3 with rel nocore]|intros; open; same]
    | |- rr _ (if ?b then _ else _) (if ?b then _ else _) => destruct b
    | |- rr _ (match ?x with _ => _ end) (match ?x with _ => _ end) => destruct x
    end.
  Ltac go := cbv zeta; repeat (step; cbv zeta).
  Hint Resolve Rget rr_refl : rel.

  Lemma r_check k : check_input M k = check_input M' k.
  Proof. unfold check_input. rewrite Rlen, Rsq. reflexivity. Qed.

  Lemma r_member_sum assi m c : rr eq (member_sum (Lt := Lt) M assi m c) (member_sum M' assi m c).
  Proof.
    unfold member_sum. eapply rr_foldM2 with (RA := eq); [|apply F2_eq|reflexivity].
    intros s s' [i a] x -> <-. go.
  Qed.
  Hint Resolve r_member_sum : rel.
  Lemma r_choose assi med m :
    rr eq (choose_medoid_within_partition (Lt := Lt) M assi med m) (choose_medoid_within_partition M' assi med m).
  Proof.
    unfold choose_medoid_within_partition. go. eapply rr_bind.
    - eapply rr_foldM2 with (RA := eq) (RS := eq); [|apply F2_eq|reflexivity].
      intros s s' [i b] x -> <-. go.
    - intros [best sumb] ? <-. go.
  Qed.
  Hint Resolve r_choose : rel.

  Lemma r_ia_obj med c i : rr (prod_r rrec eq) (ia_obj (Lt := Lt) M med c i) (ia_obj M' med c i).
  Proof.
    unfold ia_obj. step. eapply rr_bind.
    - eapply rr_foldM2 with (RA := eq) (RS := rrec); [|apply F2_eq|fin].
      intros s s' [m me] x hs <-. unfold ia_step. open. go.
    - intros. open. same. go.
  Qed.
  Hint Resolve r_ia_obj : rel.

  (** ** fasterpam.rs *)
  Lemma r_firsts A A' (RA : A -> A' -> Prop) (l : list (A * Lt)) l' : Forall2 (prod_r RA eq) l l' ->
    map snd l = map snd l' /\ Forall2 RA (map fst l) (map fst l').
  Proof.
    intros h. split; [eapply F2_map_eq|eapply F2_map]; try exact h; intros a a' [h1 h2]; auto.
  Qed.

  Lemma r_ia med : rr (prod_r eq (Forall2 rrec)) (initial_assignment (Lt := Lt) M med) (initial_assignment M' med).
  Proof.
    unfold initial_assignment. rewrite r_check, Rlen. do 2 step.
    eapply rr_bind; [eapply rr_mapM2 with (RA := eq); [intros ? ? <-; apply r_ia_obj|apply F2_eq]|].
    intros rs rs' h. apply r_firsts in h as [-> h]. go.
  Qed.
  Hint Resolve r_ia : rel.

  Lemma r_fbs_step j st o r r' : rrec r r' -> rr eq (fbs_step (Lt := Lt) M j st (o, r)) (fbs_step M' j st (o, r')).
  Proof. intros h. unfold fbs_step. destruct st. open. go. Qed.

  Lemma r_fbs rl data data' j : Forall2 rrec data data' ->
    rr eq (find_best_swap (Lt := Lt) M rl data j) (find_best_swap M' rl data' j).
  Proof.
    intros h. unfold find_best_swap. eapply rr_bind.
    - eapply rr_foldM2 with (RA := prod_r eq rrec) (RS := eq); [|apply F2_enum; exact h|reflexivity].
      intros st ? [o r] [o' r'] <- [e hr]. cbn [fst snd] in *. subst o'. apply r_fbs_step. exact hr.
    - intros [ploss acc] ? <-. go.
  Qed.
  Hint Resolve r_fbs : rel.

  Lemma r_url data data' (rl : list Lt) : Forall2 rrec data data' ->
    rr eq (update_removal_loss data rl) (update_removal_loss data' rl).
  Proof.
    intros h. unfold update_removal_loss. eapply rr_foldM2 with (RA := rrec); [|exact h|reflexivity].
    intros l ? r r' <- hr. open. same. go.
  Qed.
  Hint Resolve r_url : rel.

  Lemma r_usn med n b o d d' : R d d' -> rr rdp (update_second_nearest M med n b o d) (update_second_nearest M' med n b o d').
  Proof.
    intros h. unfold update_second_nearest. eapply rr_foldM2 with (RA := eq); [|apply F2_eq|fin].
    intros s s' [i mi] ? hs <-. open. go.
  Qed.
  Hint Resolve r_usn : rel.

  Lemma r_do_swap_obj med b j o r r' : rrec r r' ->
    rr (prod_r rrec eq) (do_swap_obj (Lt := Lt) M med b j (o, r)) (do_swap_obj M' med b j (o, r')).
  Proof.
    intros h. unfold do_swap_obj. open. destruct (o =? j); [cbv zeta; destruct (ieqb _ _); go|].
    step. eapply rr_bind with (R := rrec); [go|]. intros. open. same. go.
  Qed.

  Lemma r_do_swap med data data' b j : Forall2 rrec data data' ->
    rr (prod_r (prod_r eq (Forall2 rrec)) eq) (do_swap (Lt := Lt) M med data b j) (do_swap M' med data' b j).
  Proof.
    intros h. unfold do_swap. rewrite Rlen. do 3 step.
    eapply rr_bind; [eapply rr_mapM2; [|apply F2_enum; exact h]|].
    - intros [o r] [o' r'] [e hr]. cbn [fst snd] in *. subst o'. apply r_do_swap_obj. exact hr.
    - intros rs rs' hr. apply r_firsts in hr as [-> hr]. go.
  Qed.
  Hint Resolve r_do_swap : rel.

  Hint Extern 2 (rr _ (idx ?l _) (idx ?l' _)) => eapply rr_idx; eassumption : rel.

  Lemma r_fp_cand st st' j : rfp st st' -> rr (rc rfp) (fp_cand M st j) (fp_cand M' st' j).
  Proof. intros h. unfold fp_cand. open. go. Qed.

  Lemma r_assignment data data' : Forall2 rrec data data' -> assignment_of data = assignment_of data'.
  Proof. intros h. unfold assignment_of. eapply F2_map_eq; [exact h|]. intros. open. reflexivity. Qed.

  Lemma r_fp_iteration order st st' : rfp st st' -> rr (rc rfp) (fp_iteration M order st) (fp_iteration M' order st').
  Proof.
    intros h. unfold fp_iteration. cbv zeta. eapply rr_bind.
    - eapply rr_forM2 with (RA := eq) (RS := rfp); [|apply F2_eq|open; fin].
      intros s s' a ? hs <-. apply r_fp_cand. exact hs.
    - intros. open. go.
  Qed.

  Lemma r_single med : rr eq (single_medoid (Lt := Lt) M med) (single_medoid M' med).
  Proof. unfold single_medoid. rewrite Rlen. go. Qed.
  Hint Resolve r_single : rel.

  Theorem r_fasterpam order med maxiter :
    fasterpam_order (Lt := Lt) M order med maxiter = fasterpam_order M' order med maxiter.
  Proof.
    apply rr_eq. unfold fasterpam_order. rewrite Rlen. destruct (_ =? _); [go|]. do 2 step.
    eapply rr_bind; [eapply rr_whileM; [apply r_fp_iteration|fin]|].
    intros. open. cbn [rr]. erewrite r_assignment by eassumption. reflexivity.
  Qed.

  (** ** par_fasterpam.rs *)
  Lemma r_par_ia t med : rr (prod_r eq (Forall2 rrec)) (par_initial_assignment (Lt := Lt) M t med) (par_initial_assignment M' t med).
  Proof.
    unfold par_initial_assignment. rewrite r_check, Rlen. do 2 step.
    eapply rr_bind; [eapply rr_mapM2 with (RA := eq); [intros ? ? <-; apply r_ia_obj|apply F2_eq]|].
    intros rs rs' h. apply r_firsts in h as [-> h]. go.
  Qed.
  Hint Resolve r_par_ia : rel.

  Lemma r_par_fbs s rl data data' j : Forall2 rrec data data' ->
    rr eq (par_find_best_swap (Lt := Lt) M s rl data j) (par_find_best_swap M' s rl data' j).
  Proof.
    intros h. unfold par_find_best_swap. rewrite Rlen. cbv zeta. eapply rr_bind.
    - eapply rr_foldM2 with (RA := eq) (RS := eq); [|apply F2_eq|reflexivity].
      intros [ploss acc] ? x ? <- <-. eapply rr_bind.
      + unfold par_task. rewrite Rlen. cbv zeta.
        eapply rr_foldM2 with (RA := prod_r eq rrec) (RS := eq); [|apply F2_skipn, F2_firstn, F2_enum; exact h|reflexivity].
        intros st ? [o r] [o' r'] <- [e hr]. cbn [fst snd] in *. subst o'. apply r_fbs_step. exact hr.
      + intros [l g] ? <-. go.
    - intros [ploss acc] ? <-. go.
  Qed.
  Hint Resolve r_par_fbs : rel.

  Lemma r_par_do_swap_obj med b j o r r' : rrec r r' ->
    rr (prod_r rrec eq) (par_do_swap_obj (Lt := Lt) M med b j (o, r)) (par_do_swap_obj M' med b j (o, r')).
  Proof.
    intros h. unfold par_do_swap_obj. open. destruct (o =? j); [cbv zeta; destruct (ieqb _ _); go|].
    step. eapply rr_bind with (R := rrec); [go|]. intros. open. same. go.
  Qed.

  Lemma r_par_do_swap t med data data' b j : Forall2 rrec data data' ->
    rr (prod_r (prod_r eq (Forall2 rrec)) eq) (par_do_swap (Lt := Lt) M t med data b j) (par_do_swap M' t med data' b j).
  Proof.
    intros h. unfold par_do_swap. rewrite Rlen. do 3 step.
    eapply rr_bind; [eapply rr_mapM2; [|apply F2_enum; exact h]|].
    - intros [o r] [o' r'] [e hr]. cbn [fst snd] in *. subst o'. apply r_par_do_swap_obj. exact hr.
    - intros rs rs' hr. apply r_firsts in hr as [-> hr]. go.
  Qed.
  Hint Resolve r_par_do_swap : rel.

  Lemma r_par_cand orc st st' j : rfp st st' -> rr (rc rfp) (par_cand M orc st j) (par_cand M' orc st' j).
  Proof. intros h. unfold par_cand. open. go. Qed.

  Lemma r_par_iteration orc order st st' : rfp st st' -> rr (rc rfp) (par_iteration M orc order st) (par_iteration M' orc order st').
  Proof.
    intros h. unfold par_iteration. cbv zeta. eapply rr_bind.
    - eapply rr_forM2 with (RA := eq) (RS := rfp); [|apply F2_eq|open; fin].
      intros s s' a ? hs <-. apply r_par_cand. exact hs.
    - intros. open. go.
  Qed.

  Theorem r_par_fasterpam orc order med maxiter :
    par_fasterpam (Lt := Lt) M orc order med maxiter = par_fasterpam M' orc order med maxiter.
  Proof.
    apply rr_eq. unfold par_fasterpam. rewrite Rlen. destruct (_ =? _); [go|]. do 2 step.
    eapply rr_bind; [eapply rr_whileM; [apply r_par_iteration|fin]|].
    intros. open. cbn [rr]. erewrite r_assignment by eassumption. reflexivity.
  Qed.

  (** ** fastpam1.rs, pam.rs *)
  Lemma r_fp1_cand med data data' rl best j : Forall2 rrec data data' ->
    rr eq (fastpam1_cand (Lt := Lt) M med data rl best j) (fastpam1_cand M' med data' rl best j).
  Proof. intros h. unfold fastpam1_cand. go. Qed.

  Lemma r_swap_best st st' rl best : rp st st' -> rr (rc rp) (swap_best M st rl best) (swap_best M' st' rl best).
  Proof. intros h. unfold swap_best. destruct best as [x [[b j]|]]; cbn [fst snd]; open; go.
Qed.

  Lemma r_fastpam1_iteration st st' : rp st st' -> rr (rc rp) (fastpam1_iteration M st) (fastpam1_iteration M' st').
  Proof.
    intros h. unfold fastpam1_iteration. rewrite Rlen. open. rproj.
    step. eapply rr_bind.
    - eapply rr_foldM2 with (RA := eq) (RS := eq); [|apply F2_eq|reflexivity].
      intros s ? x ? <- <-. apply r_fp1_cand. assumption.
    - intros best ? <-. apply r_swap_best. fin.
  Qed.

  Theorem r_fastpam1 med maxiter : fastpam1 (Lt := Lt) M med maxiter = fastpam1 M' med maxiter.
  Proof.
    apply rr_eq. unfold fastpam1. destruct (_ =? _); [go|]. step.
    eapply rr_bind; [eapply rr_whileM; [apply r_fastpam1_iteration|fin]|].
    intros. open. cbn [rr]. erewrite r_assignment by eassumption. reflexivity.
  Qed.

  Lemma r_pam_change_step j m acc o r r' : rrec r r' ->
    rr eq (pam_change_step (Lt := Lt) M j m acc (o, r)) (pam_change_step M' j m acc (o, r')).
  Proof. intros h. unfold pam_change_step. open. go. Qed.

  Lemma r_fbs_pam med data data' j : Forall2 rrec data data' ->
    rr eq (find_best_swap_pam (Lt := Lt) M med data j) (find_best_swap_pam M' med data' j).
  Proof.
    intros h. unfold find_best_swap_pam. step.
    eapply rr_foldM2 with (RA := eq) (RS := eq); [|apply F2_eq|reflexivity].
    intros best ? m ? <- <-. eapply rr_bind with (R := eq).
    - eapply rr_foldM2 with (RA := prod_r eq rrec) (RS := eq); [|apply F2_enum; exact h|same; reflexivity].
      intros st ? [o r] [o' r'] <- [e hr]. cbn [fst snd] in *. subst o'. apply r_pam_change_step. exact hr.
    - intros acc ? <-. go.
  Qed.
  Hint Resolve r_fbs_pam : rel.

  Lemma r_pam_cand med data data' best j : Forall2 rrec data data' ->
    rr eq (pam_cand (Lt := Lt) M med data best j) (pam_cand M' med data' best j).
  Proof. intros h. unfold pam_cand. go. Qed.

  Lemma r_pam_iteration st st' : rp st st' -> rr (rc rp) (pam_iteration M st) (pam_iteration M' st').
  Proof.
    intros h. unfold pam_iteration. rewrite Rlen. open. rproj.
    eapply rr_bind.
    - eapply rr_foldM2 with (RA := eq) (RS := eq); [|apply F2_eq|reflexivity].
      intros s ? x ? <- <-. apply r_pam_cand. assumption.
    - intros best ? <-. apply r_swap_best. fin.
  Qed.

  Lemma r_pam_optimize med data data' maxiter loss : Forall2 rrec data data' ->
    rr eq (pam_optimize (Lt := Lt) M med data maxiter loss) (pam_optimize M' med data' maxiter loss).
  Proof.
    intros h. unfold pam_optimize. destruct (_ =? _); [go|].
    eapply rr_bind; [eapply rr_whileM; [apply r_pam_iteration|fin]|].
    intros. open. cbn [rr]. erewrite r_assignment by eassumption. reflexivity.
  Qed.
  Hint Resolve r_pam_optimize : rel.

  Theorem r_pam_swap med maxiter : pam_swap (Lt := Lt) M med maxiter = pam_swap M' med maxiter.
  Proof. apply rr_eq. unfold pam_swap. go. Qed.

  Lemma r_build_first k : rr eq (build_first (Lt := Lt) M k) (build_first M' k).
  Proof.
    unfold build_first. rewrite Rlen. eapply rr_foldM2 with (RA := eq) (RS := eq); [|apply F2_eq|reflexivity].
    intros best ? i ? <- <-. eapply rr_bind with (R := eq).
    - unfold build_first_sum. rewrite Rlen. eapply rr_foldM2 with (RA := eq) (RS := eq); [|apply F2_eq|reflexivity].
      intros s ? j ? <- <-. go.
    - intros sum ? <-. go.
  Qed.
  Hint Resolve r_build_first : rel.

  Lemma r_build_next k dn dn' cands : Forall2 R dn dn' -> rr eq (build_next (Lt := Lt) M k dn cands) (build_next M' k dn' cands).
  Proof.
    intros h. unfold build_next. eapply rr_foldM2 with (RA := eq) (RS := eq); [|apply F2_eq|reflexivity].
    intros best ? i ? <- <-. eapply rr_bind with (R := eq).
    - unfold build_next_sum. step.
      eapply rr_foldM2 with (RA := prod_r eq R) (RS := eq); [|apply F2_enum; exact h|same; reflexivity].
      intros s ? [o r] [o' r'] <- [e hr]. cbn [fst snd] in *. subst o'. go.
    - intros sum ? <-. go.
  Qed.

  Lemma r_build_upd_obj l bj o r r' : rrec r r' ->
    rr (prod_r rrec eq) (build_upd_obj (Lt := Lt) M l bj (o, r)) (build_upd_obj M' l bj (o, r')).
  Proof.
    intros h. unfold build_upd_obj. open. destruct (o =? bj); [go|]. step. rproj. same.
    destruct (nltb _ _); [rproj; same; go|]. destruct (_ || _); rproj; same; go.
  Qed.

  Lemma enum_fst A A' (RA : A -> A' -> Prop) l l' : Forall2 RA l l' -> map fst (enum l) = map fst (enum l').
  Proof. intros h. apply F2_enum in h. eapply F2_map_eq; [exact h|]. intros ? ? [? ?]. auto. Qed.

  Lemma r_build_step k st st' l : rb st st' -> rr (rc rb) (build_step M k st l) (build_step M' k st' l).
  Proof.
    intros h. unfold build_step. open.
    match goal with h : Forall2 rrec _ _ |- _ => rename h into hd end.
    rewrite (enum_fst hd). eapply rr_bind.
    { apply r_build_next. eapply F2_map; [exact hd|]. intros. open. assumption. }
    intros best ? <-. destruct (lleb _ _); [go|].
    eapply rr_bind; [eapply rr_mapM2; [|apply F2_enum; exact hd]|].
    - intros [o r] [o' r'] [e hr]. cbn [fst snd] in *. subst o'. apply r_build_upd_obj. exact hr.
    - intros rs rs' hr. cbn [rr rc].
      assert (e : fold_left (fun s x => match snd x with Some v => ladd s v | None => s end) rs lzero =
        fold_left (fun s x => match snd x with Some v => ladd s v | None => s end) rs' lzero).
      { eapply F2_fold; [exact hr|]. intros s [a b] [a' b'] [_ e]. cbn [snd] in *. subst. reflexivity. }
      rewrite e. unfold rb. rproj. split; [auto|]. split; [|auto].
      eapply F2_map; [exact hr|]. intros ? ? [? ?]. auto.
  Qed.

  Lemma r_pam_build_initialize k : rr rb (pam_build_initialize (Lt := Lt) M k) (pam_build_initialize M' k).
  Proof.
    unfold pam_build_initialize. rewrite Rlen, Rsq. do 3 step.
    eapply rr_bind.
    { eapply rr_mapM2 with (RA := eq) (RC := rrec); [|apply F2_eq]. intros j ? <-. go. }
    intros data data' hd. eapply rr_forM2 with (RA := eq); [|apply F2_eq|fin].
    intros s s' l ? hs <-. apply r_build_step. exact hs.
  Qed.
  Hint Resolve r_pam_build_initialize : rel.

  Theorem r_pam_build k : pam_build (Lt := Lt) M k = pam_build M' k.
  Proof.
    apply rr_eq. unfold pam_build. rewrite r_check. do 2 step. cbn [rr]. erewrite r_assignment by eassumption. reflexivity.
  Qed.

  Theorem r_pam k maxiter : pam (Lt := Lt) M k maxiter = pam M' k maxiter.
  Proof. apply rr_eq. unfold pam. rewrite r_check. do 2 step. apply r_pam_optimize. assumption. Qed.

  (** ** alternating.rs *)
  Lemma r_an_obj med c i : rr eq (an_obj (Lt := Lt) M med c i) (an_obj M' med c i).
  Proof.
    unfold an_obj. step. eapply rr_bind with (R := prod_r eq R).
    - eapply rr_foldM2 with (RA := eq); [|apply F2_eq|fin].
      intros s s' [m mm] ? hs <-. open. go.
    - intros. open. same. go.
  Qed.

  Lemma r_assign med : rr eq (assign_nearest (Lt := Lt) M med) (assign_nearest M' med).
  Proof.
    unfold assign_nearest. rewrite r_check, Rlen. do 2 step.
    eapply rr_bind; [eapply rr_mapM2 with (RA := eq) (RC := eq); [intros ? ? <-; apply r_an_obj|apply F2_eq]|].
    intros rs rs' h. apply eq_F2 in h. subst. go.
  Qed.
  Hint Resolve r_assign : rel.

  Lemma r_alt_iteration st : rr eq (alt_iteration (Lt := Lt) M st) (alt_iteration M' st).
  Proof.
    unfold alt_iteration. eapply rr_bind with (R := eq).
    - unfold alt_medoids. eapply rr_foldM2 with (RA := eq); [|apply F2_eq|reflexivity].
      intros [m c] ? i ? <- <-. eapply rr_bind; [apply r_choose|]. intros [[a b] d] ? <-. go.
    - intros [m c] ? <-. destruct c; [|go]. cbn [negb]. eapply rr_bind; [apply r_assign|]. intros [a b] ? <-. go.
  Qed.

  Theorem r_alternating med maxiter : alternating (Lt := Lt) M med maxiter = alternating M' med maxiter.
  Proof.
    apply rr_eq. unfold alternating. eapply rr_bind; [apply r_assign|]. intros [l a] ? <-.
    eapply rr_bind; [eapply rr_whileM with (R := eq); [|reflexivity]|].
    - intros s ? <-. eapply rr_mono; [apply r_alt_iteration|]. intros c ? <-. destruct c; reflexivity.
    - intros s ? <-. go.
  Qed.

  (** ** silhouette.rs, par_silhouette.rs *)
  Lemma r_sil_buf assi i : rr eq (sil_buf (Lt := Lt) M assi i) (sil_buf M' assi i).
  Proof.
    unfold sil_buf. eapply rr_foldM2 with (RA := eq); [|apply F2_eq|reflexivity].
    intros b ? [j aj] ? <- <-. go.
  Qed.
  Hint Resolve r_sil_buf : rel.

  Theorem r_silhouette assi samples : silhouette (Lt := Lt) M assi samples = silhouette M' assi samples.
  Proof.
    apply rr_eq. unfold silhouette. rewrite Rsq. do 2 step. eapply rr_bind with (R := eq).
    - eapply rr_forM2 with (RA := eq); [|apply F2_eq|reflexivity].
      intros st ? [j aj] ? <- <-. unfold sil_step. step. destruct (_ =? _); [cbn [rr rc]; reflexivity|].
      step. destruct samples; (eapply rr_bind; [apply rr_refl|]; intros ? ? <-; cbn [rr rc]; reflexivity).
    - intros st ? <-. go.
  Qed.

  Theorem r_par_silhouette assi : par_silhouette (Lt := Lt) M assi = par_silhouette M' assi.
  Proof.
    apply rr_eq. unfold par_silhouette. rewrite Rsq. do 2 step. eapply rr_bind.
    - eapply rr_mapM2 with (RA := eq) (RC := eq); [|apply F2_eq]. intros [j aj] ? <-. go.
    - intros ss ss' h. apply eq_F2 in h. subst. go.
  Qed.

  Theorem r_medoid_silhouette meds samples : medoid_silhouette (Lt := Lt) M meds samples = medoid_silhouette M' meds samples.
  Proof.
    apply rr_eq. unfold medoid_silhouette. rewrite Rsq, Rlen. do 3 step. cbv zeta. destruct (_ =? _); [go|]. step.
    eapply rr_bind with (R := eq); [|intros [l s] ? <-; go].
    eapply rr_foldM2 with (RA := eq); [|apply F2_eq|reflexivity].
    intros [l s] ? i ? <- <-. unfold ms_step. eapply rr_bind with (R := prod_r R R).
    - unfold ms_best. do 4 step. eapply rr_foldM2 with (RA := eq); [|apply F2_eq|].
      + intros b b' m ? hb <-. open. go.
      + destruct (nltb _ _); fin.
    - intros. open. same. go.
  Qed.

  (** ** fastermsc.rs and fastmsc.rs without the search for the best swap of three and more medoids *)
  Lemma r_ia3_obj med c i : rr (prod_r rreco eq) (ia3_obj (Lt := Lt) M med c i) (ia3_obj M' med c i).
  Proof.
    unfold ia3_obj. step. eapply rr_bind.
    - eapply rr_foldM2 with (RA := eq) (RS := rreco); [|apply F2_eq|fin].
      intros s s' [m me] x hs <-. unfold ia3_step. open. go.
    - intros. open. same. go.
  Qed.

  Lemma r_ia3 med : rr (prod_r eq (Forall2 rreco)) (initial_assignment3 (Lt := Lt) M med) (initial_assignment3 M' med).
  Proof.
    unfold initial_assignment3. rewrite r_check, Rlen. do 2 step.
    eapply rr_bind; [eapply rr_mapM2 with (RA := eq); [intros ? ? <-; apply r_ia3_obj|apply F2_eq]|].
    intros rs rs' h. apply r_firsts in h as [-> h]. go.
  Qed.
  Hint Resolve r_ia3 : rel.

  Lemma r_url3 data data' (rl : list Lt) : Forall2 rreco data data' ->
    rr eq (update_removal_loss3 data rl) (update_removal_loss3 data' rl).
  Proof.
    intros h. unfold update_removal_loss3. eapply rr_foldM2 with (RA := rreco); [|exact h|reflexivity].
    intros l ? r r' <- hr. open. rproj. same. go.
  Qed.
  Hint Resolve r_url3 : rel.

  Lemma r_utn med n s b o d d' : R d d' -> rr rdp (update_third_nearest M med n s b o d) (update_third_nearest M' med n s b o d').
  Proof.
    intros h. unfold update_third_nearest. eapply rr_foldM2 with (RA := eq); [|apply F2_eq|fin].
    intros x x' [i mi] ? hs <-. open. go.
  Qed.
  Hint Resolve r_utn : rel.

  Lemma r_do_swap3_obj med b j o r r' : rreco r r' ->
    rr (prod_r rreco eq) (do_swap3_obj (Lt := Lt) M med b j (o, r)) (do_swap3_obj M' med b j (o, r')).
  Proof.
    intros h. unfold do_swap3_obj. open. rproj.
    destruct (o =? j); [destruct (ieqb _ b); cbn [negb]; [go|destruct (ieqb _ b); cbn [negb]; go]|].
    step. rproj. eapply rr_bind with (R := rreco); [same; go|]. intros. open. same. go.
  Qed.

  Lemma r_do_swap3 med data data' b j : Forall2 rreco data data' ->
    rr (prod_r (prod_r eq (Forall2 rreco)) eq) (do_swap3 (Lt := Lt) M med data b j) (do_swap3 M' med data' b j).
  Proof.
    intros h. unfold do_swap3. rewrite Rlen. do 3 step.
    eapply rr_bind; [eapply rr_mapM2; [|apply F2_enum; exact h]|].
    - intros [o r] [o' r'] [e hr]. cbn [fst snd] in *. subst o'. apply r_do_swap3_obj. exact hr.
    - intros rs rs' hr. apply r_firsts in hr as [-> hr]. go.
  Qed.
  Hint Resolve r_do_swap3 : rel.

  Lemma r_assignment3 data data' : Forall2 rreco data data' -> assignment3_of data = assignment3_of data'.
  Proof. intros h. unfold assignment3_of. eapply F2_map_eq; [exact h|]. intros. open. reflexivity. Qed.

  Lemma r_sil_of (loss : Lt) : to_silhouette M loss = to_silhouette M' loss.
  Proof. unfold to_silhouette. rewrite Rlen. reflexivity. Qed.

  Lemma r_swap_best3 st st' rl best : rm st st' -> rr (rc rm) (swap_best3 M st rl best) (swap_best3 M' st' rl best).
  Proof. intros h. unfold swap_best3. destruct best as [x [[b j]|]]; cbn [fst snd]; open; go. Qed.

  Lemma r_pairs (l : list (nat * (Nt * Nt) * Lt)) l' : Forall2 (prod_r (prod_r eq (prod_r R R)) eq) l l' ->
    map snd l = map snd l' /\ map (fun r => fst (fst r)) l = map (fun r => fst (fst r)) l' /\
    Forall2 (prod_r R R) (map (fun r => snd (fst r)) l) (map (fun r => snd (fst r)) l').
  Proof.
    intros h. repeat split; [eapply F2_map_eq|eapply F2_map_eq|eapply F2_map]; try exact h;
      intros ? ? [[? ?] ?]; auto.
  Qed.

  Definition r_assi2 (x : Lt * list nat * list (Nt * Nt)) (x' : Lt * list nat * list (Nt' * Nt')) : Prop :=
    fst x = fst x' /\ Forall2 (prod_r R R) (snd x) (snd x').

  Lemma r_ia2 med : rr (prod_r eq (Forall2 (prod_r R R))) (initial_assignment_k2 (Lt := Lt) M med) (initial_assignment_k2 M' med).
  Proof.
    unfold initial_assignment_k2. rewrite Rsq, Rlen. do 6 step.
    eapply rr_bind; [eapply rr_mapM2 with (RA := eq) (RC := prod_r (prod_r eq (prod_r R R)) eq); [|apply F2_eq]|].
    - intros i ? <-. unfold ia2_obj. go.
    - intros rs rs' h. apply r_pairs in h as (-> & -> & h). go.
  Qed.

  Lemma r_fbs2 data data' j : Forall2 (prod_r R R) data data' ->
    rr eq (find_best_swap_k2 (Lt := Lt) M data j) (find_best_swap_k2 M' data' j).
  Proof.
    intros h. unfold find_best_swap_k2. eapply rr_bind.
    - eapply rr_foldM2 with (RA := prod_r eq (prod_r R R)) (RS := eq); [|apply F2_enum; exact h|reflexivity].
      intros st ? [o [d0 d1]] [o' [d0' d1']] <- [e hr]. cbn [fst snd] in *. subst o'. unfold fbs2_step. open. go.
    - intros pl ? <-. go.
  Qed.
  Hint Resolve r_fbs2 : rel.

  Lemma r_do_swap2 med assi data data' b j : Forall2 (prod_r R R) data data' ->
    rr (prod_r (prod_r eq (Forall2 (prod_r R R))) eq) (do_swap_k2 (Lt := Lt) M med assi data b j) (do_swap_k2 M' med assi data' b j).
  Proof.
    intros h. unfold do_swap_k2. rewrite Rlen. do 3 step.
    eapply rr_bind; [eapply rr_mapM2 with (RC := prod_r (prod_r eq (prod_r R R)) eq);
      [|apply F2_enum, F2_combine; [apply F2_eq|exact h]]|].
    - intros [o [a0 [d0 d1]]] [o' [a1 [d0' d1']]] [e hr]. cbn [fst snd] in *. subst o'. unfold do_swap2_obj. open. go.
    - intros rs rs' hr. apply r_pairs in hr as (-> & -> & hr). go.
  Qed.

  Hint Resolve r_do_swap2 : rel.

  Lemma r_k2_cand st st' j : rk st st' -> rr (rc rk) (k2_cand M st j) (k2_cand M' st' j).
  Proof. intros h. unfold k2_cand. open. go. Qed.

  Lemma r_k2_iteration st st' : rk st st' -> rr (rc rk) (k2_iteration M st) (k2_iteration M' st').
  Proof.
    intros h. unfold k2_iteration. rewrite Rlen. cbv zeta. eapply rr_bind.
    - eapply rr_forM2 with (RA := eq) (RS := rk); [|apply F2_eq|open; fin].
      intros s s' a ? hs <-. apply r_k2_cand. exact hs.
    - intros. open. go.
  Qed.

  Lemma r_fastermsc_k2 med maxiter : rr eq (fastermsc_k2 (Lt := Lt) M med maxiter) (fastermsc_k2 M' med maxiter).
  Proof.
    unfold fastermsc_k2. rewrite Rlen. step. eapply rr_bind; [apply r_ia2|]. intros [[? ?] ?] [[? ?] ?] [e ?]. cbn [fst snd] in *. injection e as <- <-.
    eapply rr_bind; [eapply rr_whileM; [apply r_k2_iteration|fin]|].
    intros. open. rproj. rewrite r_sil_of. go.
  Qed.
  Hint Resolve r_fastermsc_k2 : rel.

  Lemma r_fastmsc_k2_iteration st st' : rk st st' -> rr (rc rk) (fastmsc_k2_iteration M st) (fastmsc_k2_iteration M' st').
  Proof.
    intros h. unfold fastmsc_k2_iteration. rewrite Rlen. open. rproj. eapply rr_bind with (R := eq).
    - eapply rr_foldM2 with (RA := eq) (RS := eq); [|apply F2_eq|reflexivity].
      intros best ? j ? <- <-. unfold fastmsc_k2_cand. rproj. do 2 step. destruct (_ =? _); [go|]. step. go.
    - intros [x [[b j]|]] ? <-; rproj; destruct (negb _); go.
  Qed.

  Lemma r_fastmsc_k2 med maxiter : rr eq (fastmsc_k2 (Lt := Lt) M med maxiter) (fastmsc_k2 M' med maxiter).
  Proof.
    unfold fastmsc_k2. step. eapply rr_bind; [apply r_ia2|]. intros [[? ?] ?] [[? ?] ?] [e ?]. cbn [fst snd] in *. injection e as <- <-.
    eapply rr_bind; [eapply rr_whileM; [apply r_fastmsc_k2_iteration|fin]|].
    intros. open. rproj. rewrite r_sil_of. go.
  Qed.
  Hint Resolve r_fastmsc_k2 : rel.

  (** ** pammedsil.rs *)
  Lemma r_pms_step j m acc o r r' : rreco r r' -> rr eq (pms_step (Lt := Lt) M j m acc (o, r)) (pms_step M' j m acc (o, r')).
  Proof. intros h. unfold pms_step. open. rproj. go. Qed.
  Lemma r_pms2_step j m acc o r r' : rreco r r' -> rr eq (pms2_step (Lt := Lt) M j m acc (o, r)) (pms2_step M' j m acc (o, r')).
  Proof. intros h. unfold pms2_step. open. rproj. go. Qed.

  Lemma r_pms_cand med data data' best j : Forall2 rreco data data' ->
    rr eq (pms_cand (Lt := Lt) M med data best j) (pms_cand M' med data' best j).
  Proof.
    intros h. unfold pms_cand. do 2 step. destruct (_ =? _); [go|]. eapply rr_bind with (R := eq); [|intros [c b] ? <-; go].
    unfold find_best_swap_pms. step.
    eapply rr_foldM2 with (RA := eq) (RS := eq); [|apply F2_eq|reflexivity].
    intros bb ? m ? <- <-. eapply rr_bind with (R := eq).
    - eapply rr_foldM2 with (RA := prod_r eq rreco) (RS := eq); [|apply F2_enum; exact h|rproj; same; reflexivity].
      intros st ? [o r] [o' r'] <- [e hr]. cbn [fst snd] in *. subst o'.
      destruct (length med =? 2); [apply r_pms2_step|apply r_pms_step]; exact hr.
    - intros acc ? <-. go.
  Qed.

  Lemma r_pms_iteration st st' : rm st st' -> rr (rc rm) (pms_iteration M st) (pms_iteration M' st').
  Proof.
    intros h. unfold pms_iteration. rewrite Rlen. open. rproj. eapply rr_bind.
    - eapply rr_foldM2 with (RA := eq) (RS := eq); [|apply F2_eq|reflexivity].
      intros s ? x ? <- <-. apply r_pms_cand. assumption.
    - intros best ? <-. apply r_swap_best3. fin.
  Qed.

  Lemma r_pammedsil_optimize med data data' maxiter loss : Forall2 rreco data data' ->
    rr eq (pammedsil_optimize (Lt := Lt) M med data maxiter loss) (pammedsil_optimize M' med data' maxiter loss).
  Proof.
    intros h. unfold pammedsil_optimize. destruct (_ =? _); [go|].
    eapply rr_bind; [eapply rr_whileM; [apply r_pms_iteration|fin]|].
    intros. open. rproj. erewrite r_assignment3 by eassumption. rewrite r_sil_of. go.
  Qed.
  Hint Resolve r_pammedsil_optimize : rel.

  Theorem r_pammedsil_swap med maxiter : pammedsil_swap (Lt := Lt) M med maxiter = pammedsil_swap M' med maxiter.
  Proof. apply rr_eq. unfold pammedsil_swap. go. Qed.

  Lemma r_build3_upd_obj l bj o r r' : rreco r r' ->
    rr (prod_r rreco eq) (build3_upd_obj (Lt := Lt) M l bj (o, r)) (build3_upd_obj M' l bj (o, r')).
  Proof.
    intros h. unfold build3_upd_obj. open. eapply rr_bind with (R := rreco); [go|]. intros. open. same. go.
  Qed.

  Lemma r_build3_step k st st' l : rb3 st st' -> rr (rc rb3) (build3_step M k st l) (build3_step M' k st' l).
  Proof.
    intros h. unfold build3_step. open.
    match goal with h : Forall2 rreco _ _ |- _ => rename h into hd end.
    rewrite (enum_fst hd). eapply rr_bind.
    { apply r_build_next. eapply F2_map; [exact hd|]. intros. open. assumption. }
    intros best ? <-. destruct (lleb _ _); [go|].
    eapply rr_bind; [eapply rr_mapM2; [|apply F2_enum; exact hd]|].
    - intros [o r] [o' r'] [e hr]. cbn [fst snd] in *. subst o'. apply r_build3_upd_obj. exact hr.
    - intros rs rs' hr. cbn [rr rc].
      assert (e : fold_left (fun s x => ladd s (snd x)) rs lzero = fold_left (fun s x => ladd s (snd x)) rs' lzero).
      { eapply F2_fold; [exact hr|]. intros s [a b] [a' b'] [_ e]. cbn [snd] in *. subst. reflexivity. }
      rewrite e. unfold rb3. rproj. split; [auto|]. split; [|auto].
      eapply F2_map; [exact hr|]. intros ? ? [? ?]. auto.
  Qed.

  Theorem r_pammedsil k maxiter : pammedsil (Lt := Lt) M k maxiter = pammedsil M' k maxiter.
  Proof.
    apply rr_eq. unfold pammedsil. rewrite r_check. step. eapply rr_bind with (R := rb3).
    - unfold pammedsil_build_initialize. rewrite Rlen. step. eapply rr_bind.
      { eapply rr_mapM2 with (RA := eq) (RC := rreco); [|apply F2_eq]. intros j ? <-. go. }
      intros data data' hd. eapply rr_forM2 with (RA := eq); [|apply F2_eq|fin].
      intros s s' l ? hs <-. apply r_build3_step. exact hs.
    - intros. open. apply r_pammedsil_optimize. assumption.
  Qed.

  (** ** pamsil.rs *)
  Lemma r_pamsil_pos st m : rr eq (pamsil_pos (Lt := Lt) M st m) (pamsil_pos M' st m).
  Proof.
    unfold pamsil_pos. rewrite Rlen. step. eapply rr_bind with (R := eq); [|intros s ? <-; go].
    eapply rr_foldM2 with (RA := eq); [|apply F2_eq|reflexivity].
    intros s ? j ? <- <-. unfold pamsil_cand. destruct (_ =? _); [go|]. do 2 step. destruct (_ =? _); [go|]. step.
    eapply rr_bind; [apply r_assign|]. intros [x assi] ? <-. rewrite r_silhouette. go.
  Qed.

  Lemma r_pamsil_iteration st : rr eq (pamsil_iteration (Lt := Lt) M st) (pamsil_iteration M' st).
  Proof.
    unfold pamsil_iteration. eapply rr_bind with (R := eq); [|intros s ? <-; go].
    eapply rr_foldM2 with (RA := eq); [|apply F2_eq|reflexivity].
    intros s ? j ? <- <-. apply r_pamsil_pos.
  Qed.

  Lemma r_pamsil_optimize med assi maxiter : rr eq (pamsil_optimize (Lt := Lt) M med assi maxiter) (pamsil_optimize M' med assi maxiter).
  Proof.
    unfold pamsil_optimize. destruct (_ =? _); [go|]. rewrite r_silhouette. step.
    match goal with |- context [let (_, _) := ?x in _] => destruct x end.
    eapply rr_bind; [eapply rr_whileM with (R := eq); [|reflexivity]|].
    - intros s ? <-. eapply rr_mono; [apply r_pamsil_iteration|]. intros c ? <-. destruct c; reflexivity.
    - intros s ? <-. eapply rr_bind; [apply r_assign|]. intros [x a0] ? <-. go.
  Qed.

  Theorem r_pamsil_swap med maxiter : pamsil_swap (Lt := Lt) M med maxiter = pamsil_swap M' med maxiter.
  Proof.
    apply rr_eq. unfold pamsil_swap. eapply rr_bind; [apply r_assign|]. intros [x a0] ? <-. apply r_pamsil_optimize.
  Qed.

  Theorem r_pamsil k maxiter : pamsil (Lt := Lt) M k maxiter = pamsil M' k maxiter.
  Proof.
    apply rr_eq. unfold pamsil. rewrite r_check, Rlen. step. eapply rr_bind with (R := eq); [|intros meds ? <-; apply r_pamsil_optimize].
    unfold pamsil_build_initialize. rewrite Rlen. step.
    eapply rr_bind; [eapply rr_mapM2 with (RA := eq) (RC := R); [intros ? ? <-; apply Rget|apply F2_eq]|].
    intros data data' hd. eapply rr_bind with (R := prod_r eq (Forall2 R)).
    - eapply rr_foldM2 with (RA := eq); [|apply F2_eq|fin].
      intros [meds ds] [meds' ds'] l ? [e hs] <-. cbn [fst snd] in *. subst meds'. unfold pamsil_build_step.
      rewrite (enum_fst hs). eapply rr_bind; [apply r_build_next; exact hs|]. intros best ? <-. step.
      eapply rr_bind; [eapply rr_mapM2 with (RC := R); [|apply F2_enum; exact hs]|].
      + intros [o r] [o' r'] [e' hr]. cbn [fst snd] in *. subst o'. unfold pamsil_upd_obj. go.
      + intros d d' h. go.
    - intros. open. go.
  Qed.

  (** ** the functions which add dissimilarities *)
  Hypothesis Rsum : forall a a' b b', R a a' -> R b b' ->
    nis_zero (nadd a b) = nis_zero (nadd a' b') /\ lfrom (nadd a b) = lfrom (nadd a' b').

  Lemma Rratio_sum a a' b b' c c' : R a a' -> R b b' -> R c c' -> (ratio (nadd a b) c : Lt) = ratio (nadd a' b') c'.
  Proof.
    intros ha hb hc. unfold ratio. destruct (Rsum ha hb) as [e1 e2].
    rewrite e1, e2, (Riszero hc), (Rfrom hc). reflexivity.
  Qed.

  Lemma r_fbs3_step j st o r r' : rreco r r' -> rr eq (fbs3_step (Lt := Lt) M j st (o, r)) (fbs3_step M' j st (o, r')).
  Proof.
    intros h. unfold fbs3_step. destruct st. open. rproj. step.
    repeat match goal with
    | ha : R ?a ?a', hb : R ?b ?b', hc : R ?c ?c' |- context [ratio (nadd ?a ?b) ?c] => rewrite (Rratio_sum ha hb hc)
    end. same. go.
  Qed.

  Lemma r_fbs3 rl data data' j : Forall2 rreco data data' ->
    rr eq (find_best_swap3 (Lt := Lt) M rl data j) (find_best_swap3 M' rl data' j).
  Proof.
    intros h. unfold find_best_swap3. eapply rr_bind.
    - eapply rr_foldM2 with (RA := prod_r eq rreco) (RS := eq); [|apply F2_enum; exact h|reflexivity].
      intros st ? [o r] [o' r'] <- [e hr]. cbn [fst snd] in *. subst o'. apply r_fbs3_step. exact hr.
    - intros [ploss acc] ? <-. go.
  Qed.
  Hint Resolve r_fbs3 : rel.

  Lemma r_msc_cand st st' j : rm st st' -> rr (rc rm) (msc_cand M st j) (msc_cand M' st' j).
  Proof. intros h. unfold msc_cand. open. go. Qed.

  Lemma r_msc_iteration st st' : rm st st' -> rr (rc rm) (msc_iteration M st) (msc_iteration M' st').
  Proof.
    intros h. unfold msc_iteration. rewrite Rlen. cbv zeta. eapply rr_bind.
    - eapply rr_forM2 with (RA := eq) (RS := rm); [|apply F2_eq|open; fin].
      intros s s' a ? hs <-. apply r_msc_cand. exact hs.
    - intros. open. go.
  Qed.

  Theorem r_fastermsc med maxiter : fastermsc (Lt := Lt) M med maxiter = fastermsc M' med maxiter.
  Proof.
    apply rr_eq. unfold fastermsc. rewrite Rlen. destruct (_ =? _); [go|]. destruct (_ =? _); [go|]. do 2 step.
    eapply rr_bind; [eapply rr_whileM; [apply r_msc_iteration|fin]|].
    intros. open. rproj. erewrite r_assignment3 by eassumption. rewrite r_sil_of. go.
  Qed.

  Lemma r_fastmsc_iteration st st' : rm st st' -> rr (rc rm) (fastmsc_iteration M st) (fastmsc_iteration M' st').
  Proof.
    intros h. unfold fastmsc_iteration. rewrite Rlen. open. rproj. step. eapply rr_bind.
    - eapply rr_foldM2 with (RA := eq) (RS := eq); [|apply F2_eq|reflexivity].
      intros s ? x ? <- <-. unfold fastmsc_cand. go.
    - intros best ? <-. apply r_swap_best3. fin.
  Qed.

  Theorem r_fastmsc med maxiter : fastmsc (Lt := Lt) M med maxiter = fastmsc M' med maxiter.
  Proof.
    apply rr_eq. unfold fastmsc. destruct (_ =? _); [go|]. destruct (_ =? _); [go|]. step.
    eapply rr_bind; [eapply rr_whileM; [apply r_fastmsc_iteration|fin]|].
    intros. open. rproj. erewrite r_assignment3 by eassumption. rewrite r_sil_of. go.
  Qed.

  (** ** dynmsc.rs *)
  Lemma r_utwn med n s b o : rr rdp (update_third_nearest_without_new M med n s b o) (update_third_nearest_without_new M' med n s b o).
  Proof.
    unfold update_third_nearest_without_new. eapply rr_foldM2 with (RA := eq); [|apply F2_eq|fin].
    intros x x' [i mi] ? hs <-. open. go.
  Qed.
  Hint Resolve r_utwn : rel.

  Lemma r_renumber l b p p' : rdp p p' -> rdp (renumber l b p) (renumber l b p').
  Proof. intros h. unfold renumber. open. rproj. destruct (ieqb _ _); fin. Qed.

  Lemma r_remove_med_obj med l b o r r' : rreco r r' ->
    rr (prod_r rreco eq) (remove_med_obj (Lt := Lt) M med l b (o, r)) (remove_med_obj M' med l b (o, r')).
  Proof.
    intros h. unfold remove_med_obj. destruct r as [ne se th], r' as [ne' se' th'], h as (h1 & h2 & h3). rproj.
    cbn [near3 seco3 third3] in *.
    pose proof (r_renumber l b h1) as g1. pose proof (r_renumber l b h2) as g2. pose proof (r_renumber l b h3) as g3.
    rewrite <- (proj1 h1), <- (proj1 h2), <- (proj1 h3), <- (proj1 g1), <- (proj1 g2), <- (proj1 g3).
    eapply rr_bind with (R := rreco).
    - destruct (ieqb _ b); [|destruct (ieqb _ b); [|destruct (ieqb _ b)]].
      1, 2, 3: eapply rr_bind; [apply r_utwn|]; intros; cbn [rr]; unfold rreco; cbn [near3 seco3 third3]; auto.
      cbn [rr]. unfold rreco. cbn [near3 seco3 third3]. auto.
    - intros. open. rproj. same. go.
  Qed.

  Lemma r_remove_med med data data' b : Forall2 rreco data data' ->
    rr (prod_r (prod_r eq (Forall2 rreco)) eq) (remove_med (Lt := Lt) M med data b) (remove_med M' med data' b).
  Proof.
    intros h. unfold remove_med. cbv zeta. do 3 step.
    eapply rr_bind; [eapply rr_mapM2; [|apply F2_enum; exact h]|].
    - intros [o r] [o' r'] [e hr]. cbn [fst snd] in *. subst o'. apply r_remove_med_obj. exact hr.
    - intros rs rs' hr. apply r_firsts in hr as [-> hr]. go.
  Qed.

  Lemma r_dyn_round mink maxiter st st' : ry st st' -> rr (rc ry) (dyn_round M mink maxiter st) (dyn_round M' mink maxiter st').
  Proof.
    intros h. unfold dyn_round. rewrite Rlen. open. cbv zeta.
    destruct (negb _); [go|]. step.
    eapply rr_bind; [eapply rr_whileM; [apply r_msc_iteration|fin]|].
    intros. open. rproj. rewrite r_sil_of. step. erewrite r_assignment3 by eassumption.
    destruct (snd (min_removal _)); [|exact eq_refl].
    eapply rr_bind; [apply r_remove_med; eassumption|]. intros. open. go.
  Qed.

  Theorem r_dynmsc med mink maxiter : dynmsc (Lt := Lt) M med mink maxiter = dynmsc M' med mink maxiter.
  Proof.
    apply rr_eq. unfold dynmsc. rewrite Rlen. cbv zeta. destruct (_ =? _); [go|]. step.
    eapply rr_bind; [eapply rr_whileM; [apply r_dyn_round|fin]|].
    intros s s' hs. eapply rr_bind with (R := ry).
    - destruct (_ <=? _); [|exact hs]. open. go.
    - intros t t' ht. open. destruct (_ <=? _); go.
  Qed.

  (** ** the same with an addition of dissimilarities which may panic (M_CheckedMsc.v) *)
  Variable may : Prop.
  Variable plus : Nt -> Nt -> res Nt.
  Hypothesis Rplus : forall a a' b b', R a a' -> R b b' ->
    may /\ plus a b = Panic P_overflow \/
    exists s, plus a b = Ok s /\ nis_zero s = nis_zero (nadd a' b') /\ lfrom s = lfrom (nadd a' b').

  Lemma Rratio_plus n n' b b' : R n n' -> R b b' ->
    may /\ plus n b = Panic P_overflow \/
    exists s, plus n b = Ok s /\ forall c c', R c c' -> (ratio s c : Lt) = ratio (nadd n' b') c'.
  Proof.
    intros hn hb. destruct (Rplus hn hb) as [hm|(s & e0 & e1 & e2)]; [left; exact hm|right].
    exists s. split; [exact e0|]. intros c c' hc. unfold ratio. rewrite e1, e2, (Riszero hc), (Rfrom hc). reflexivity.
  Qed.

  Lemma o_fbs3_step j st o r r' : rreco r r' ->
    ro may eq (fbs3_step_c (Lt := Lt) plus M j st (o, r)) (fbs3_step M' j st (o, r')).
  Proof.
    intros h. unfold fbs3_step_c, fbs3_step. destruct st. open. rproj.
    eapply ro_bindr; [apply Rget|]. intros doj doj' hd. same.
    assert (e : forall n n' c c', R n n' -> R c c' ->
      may /\ plus n doj = Panic P_overflow \/ exists s, plus n doj = Ok s /\ (ratio s c : Lt) = ratio (nadd n' doj') c').
    { intros n n' c c' hn hc. destruct (Rratio_plus hn hd) as [hm|(s & es & er)]; [left; exact hm|right; exists s; auto]. }
    match goal with hn : R ?n ?n', hc : R ?c ?c' |- context [nadd ?n' _] =>
      match goal with |- context [ratio (nadd n' _) c'] => specialize (e n n' c c' hn hc) end end.
    destruct (nltb doj' _); [|destruct (nltb doj' _); [|apply ro_rr; go]].
    all: destruct e as [[hm ->]|(s & -> & er)]; [left; auto|cbn [bind]; rewrite er; apply ro_rr; go].
  Qed.

  Lemma o_fbs3 rl data data' j : Forall2 rreco data data' ->
    ro may eq (find_best_swap3_c (Lt := Lt) plus M rl data j) (find_best_swap3 M' rl data' j).
  Proof.
    intros h. unfold find_best_swap3_c, find_best_swap3. eapply ro_bind.
    - eapply ro_foldM2 with (RA := prod_r eq rreco) (RS := eq); [|apply F2_enum; exact h|reflexivity].
      intros st ? [o r] [o' r'] <- [e hr]. cbn [fst snd] in *. subst o'. apply o_fbs3_step. exact hr.
    - intros [ploss acc] ? <-. apply ro_rr. go.
  Qed.

  Lemma o_msc_cand st st' j : rm st st' -> ro may (rc rm) (msc_cand_c plus M st j) (msc_cand M' st' j).
  Proof.
    intros h. unfold msc_cand_c, msc_cand. open. rproj. destruct (_ =? _); [apply ro_rr; go|].
    eapply ro_bindr; [apply rr_idx; eassumption|]. intros. open. rproj.
    eapply ro_bindr; [apply rr_refl|]. intros mj ? <-. destruct (_ =? _); [apply ro_rr; go|].
    eapply ro_bind; [apply o_fbs3; eassumption|]. intros [change b] ? <-. apply ro_rr. go.
  Qed.

  Lemma o_msc_iteration st st' : rm st st' -> ro may (rc rm) (msc_iteration_c plus M st) (msc_iteration M' st').
  Proof.
    intros h. unfold msc_iteration_c, msc_iteration. rewrite Rlen. cbv zeta. eapply ro_bind.
    - eapply ro_forM2 with (RA := eq) (RS := rm); [|apply F2_eq|open; fin].
      intros s s' a ? hs <-. apply o_msc_cand. exact hs.
    - intros. apply ro_rr. open. go.
  Qed.

  Theorem o_fastermsc med maxiter :
    ro may eq (fastermsc_c (Lt := Lt) plus M med maxiter) (fastermsc M' med maxiter).
  Proof.
    unfold fastermsc_c, fastermsc. rewrite Rlen. destruct (_ =? _); [apply ro_rr; go|]. destruct (_ =? _); [apply ro_rr; go|].
    eapply ro_bindr; [solve [eauto 3 with rel nocore]|]. intros. open.
    eapply ro_bindr; [solve [eauto 3 with rel nocore]|]. intros rl ? <-.
    eapply ro_bind; [eapply ro_whileM; [apply o_msc_iteration|fin]|].
    intros. apply ro_rr. open. rproj. erewrite r_assignment3 by eassumption. rewrite r_sil_of. go.
  Qed.

  Lemma o_fastmsc_iteration st st' : rm st st' -> ro may (rc rm) (fastmsc_iteration_c plus M st) (fastmsc_iteration M' st').
  Proof.
    intros h. unfold fastmsc_iteration_c, fastmsc_iteration. rewrite Rlen. open. rproj.
    eapply ro_bindr; [solve [eauto 3 with rel nocore]|]. intros rl ? <-. eapply ro_bind.
    - eapply ro_foldM2 with (RA := eq) (RS := eq); [|apply F2_eq|reflexivity].
      intros s ? x ? <- <-. unfold fastmsc_cand_c, fastmsc_cand.
      eapply ro_bindr; [apply rr_idx; eassumption|]. intros. open. rproj.
      eapply ro_bindr; [apply rr_refl|]. intros mj ? <-. destruct (_ =? _); [apply ro_rr; go|].
      eapply ro_bind; [apply o_fbs3; eassumption|]. intros [change b] ? <-. apply ro_rr. go.
    - intros best ? <-. apply ro_rr. apply r_swap_best3. fin.
  Qed.

  Theorem o_fastmsc med maxiter : ro may eq (fastmsc_c (Lt := Lt) plus M med maxiter) (fastmsc M' med maxiter).
  Proof.
    unfold fastmsc_c, fastmsc. destruct (_ =? _); [apply ro_rr; go|]. destruct (_ =? _); [apply ro_rr; go|].
    eapply ro_bindr; [solve [eauto 3 with rel nocore]|]. intros. open.
    eapply ro_bind; [eapply ro_whileM; [apply o_fastmsc_iteration|fin]|].
    intros. apply ro_rr. open. rproj. erewrite r_assignment3 by eassumption. rewrite r_sil_of. go.
  Qed.

  Lemma o_dyn_round mink maxiter st st' : ry st st' ->
    ro may (rc ry) (dyn_round_c plus M mink maxiter st) (dyn_round M' mink maxiter st').
  Proof.
    intros h. unfold dyn_round_c, dyn_round. rewrite Rlen. open. cbv zeta.
    destruct (negb _); [apply ro_rr; go|].
    eapply ro_bindr; [solve [eauto 3 with rel nocore]|]. intros rl ? <-.
    eapply ro_bind; [eapply ro_whileM; [apply o_msc_iteration|fin]|].
    intros. apply ro_rr. open. rproj. rewrite r_sil_of. step. erewrite r_assignment3 by eassumption.
    destruct (snd (min_removal _)); [|exact eq_refl].
    eapply rr_bind; [apply r_remove_med; eassumption|]. intros. open. go.
  Qed.

  Theorem o_dynmsc med mink maxiter :
    ro may eq (dynmsc_c (Lt := Lt) plus M med mink maxiter) (dynmsc M' med mink maxiter).
  Proof.
    unfold dynmsc_c, dynmsc. rewrite Rlen. cbv zeta. destruct (_ =? _); [apply ro_rr; go|].
    eapply ro_bindr; [solve [eauto 3 with rel nocore]|]. intros. open.
    eapply ro_bind; [eapply ro_whileM; [apply o_dyn_round|fin]|].
    intros s s' hs. apply ro_rr. eapply rr_bind with (R := ry).
    - destruct (_ <=? _); [|exact hs]. open. go.
    - intros t t' ht. open. destruct (_ <=? _); go.
  Qed.
End Rel.
