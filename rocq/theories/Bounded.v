(** Bounded.v -- loss types of limited range and precision.

    A run with a loss type which represents the integers of magnitude at most [B] exactly (machine
    integers, floating point numbers) is compared with the run over the unbounded integers: if
    [3 * n * m <= B] for dissimilarities up to [m], both take the same decisions, and all losses
    represent the exact ones.  In particular nothing overflows and nothing is rounded. *)
From Coq Require Import ZArith Lia Permutation.
From Verif Require Import Base Num M_Mat M_Util M_Fasterpam M_Pam M_Alternating M_ParFasterpam Inst Hoare ParFacts.
Set Implicit Arguments.
Open Scope Z_scope.

(** ** two computations with related results, or the same panic *)
Definition rr {A A'} (R : A -> A' -> Prop) (m : res A) (m' : res A') : Prop :=
  match m, m' with
  | Ok a, Ok a' => R a a'
  | Panic p, Panic p' => p = p'
  | _, _ => False
  end.

Lemma rr_bind A A' C C' (R : A -> A' -> Prop) (S : C -> C' -> Prop) m m' f f' :
  rr R m m' -> (forall a a', R a a' -> rr S (f a) (f' a')) -> rr S (bind m f) (bind m' f').
Proof. destruct m, m'; simpl; try tauto; auto. Qed.

Lemma rr_mono A A' (R S : A -> A' -> Prop) m m' : rr R m m' -> (forall a a', R a a' -> S a a') -> rr S m m'.
Proof. destruct m, m'; simpl; auto. Qed.

(** the same computation on both sides *)
Lemma rr_same A (m : res A) : rr (fun a a' => a = a' /\ m = Ok a) m m.
Proof. destruct m; simpl; auto. Qed.

Lemma rr_foldM A S S' (f : S -> A -> res S) (f' : S' -> A -> res S') l (I : nat -> S -> S' -> Prop) :
  (forall t a s s', nth_error l t = Some a -> I t s s' -> rr (I (Datatypes.S t)) (f s a) (f' s' a)) ->
  forall s s', I 0%nat s s' -> rr (I (length l)) (foldM f l s) (foldM f' l s').
Proof.
  revert I. induction l as [|a l IH]; intros I h s s' h0; cbn [foldM length]; [exact h0|].
  eapply rr_bind; [apply (h 0%nat a s s' eq_refl h0)|]. intros b b' hb.
  apply (IH (fun t => I (Datatypes.S t))); [|exact hb]. intros t x y y' hx. apply (h (Datatypes.S t)). exact hx.
Qed.

Lemma rr_mapM A C C' (R : C -> C' -> Prop) (f : A -> res C) (f' : A -> res C') l :
  (forall a, In a l -> rr R (f a) (f' a)) -> rr (Forall2 R) (mapM f l) (mapM f' l).
Proof.
  induction l as [|a l IH]; intros h; cbn [mapM]; [simpl; auto|].
  eapply rr_bind; [apply h; simpl; auto|]. intros b b' hb.
  eapply rr_bind; [apply IH; intros; apply h; simpl; auto|]. intros bs bs' hbs. simpl. auto.
Qed.

Definition rc {S S'} (R : S -> S' -> Prop) (c : ctl S) (c' : ctl S') : Prop :=
  match c, c' with Next s, Next s' => R s s' | Break s, Break s' => R s s' | _, _ => False end.

Lemma rr_forM A S S' (R : S -> S' -> Prop) (f : S -> A -> res (ctl S)) (f' : S' -> A -> res (ctl S')) l :
  (forall a s s', In a l -> R s s' -> rr (rc R) (f s a) (f' s' a)) ->
  forall s s', R s s' -> rr R (forM f l s) (forM f' l s').
Proof.
  induction l as [|a l IH]; intros h s s' h0; cbn [forM]; [exact h0|].
  eapply rr_bind; [apply h; simpl; auto|]. intros [b|b] [b'|b']; simpl; try tauto.
  intros hb. apply IH; auto. intros; apply h; simpl; auto.
Qed.

Lemma rr_whileM S S' (R : S -> S' -> Prop) (f : S -> res (ctl S)) (f' : S' -> res (ctl S')) fuel :
  (forall s s', R s s' -> rr (rc R) (f s) (f' s')) ->
  forall s s', R s s' -> rr R (whileM fuel f s) (whileM fuel f' s').
Proof.
  intros h. induction fuel as [|fuel IH]; intros s s' h0; cbn [whileM]; [exact h0|].
  eapply rr_bind; [apply h; exact h0|]. intros [b|b] [b'|b']; simpl; try tauto. apply IH.
Qed.

Lemma foldM_unary A S (f : S -> A -> res S) (P : S -> Prop) l :
  (forall s a s', In a l -> P s -> f s a = Ok s' -> P s') -> forall s s', P s -> foldM f l s = Ok s' -> P s'.
Proof.
  induction l as [|a l IH]; intros h s s' h0; cbn [foldM]; [congruence|].
  intros e. apply bind_ok in e as (b & e1 & e2). apply (IH) with (s := b) (3 := e2).
  - intros. eapply h; simpl; eauto.
  - eapply h; simpl; eauto.
Qed.

(** ** representation of the integers up to B *)
Record Repr {Lt} `{NumL Lt} (B : Z) (rep : Lt -> Z -> Prop) : Prop := {
  rp_zero : rep lzero 0;
  rp_add : forall a b x y, rep a x -> rep b y -> Z.abs (x + y) <= B -> rep (ladd a b) (x + y);
  rp_sub : forall a b x y, rep a x -> rep b y -> Z.abs (x - y) <= B -> rep (lsub a b) (x - y);
  rp_neg : forall a x, rep a x -> Z.abs x <= B -> rep (lneg a) (- x);
  rp_lt : forall a b x y, rep a x -> rep b y -> lltb a b = (x <? y);
  rp_le : forall a b x y, rep a x -> rep b y -> lleb a b = (x <=? y)
}.

Section Bounded.
  Context {Nt Lt : Type} `{HNN : NumN Nt} `{HNL : NumL Lt} `{HFN : FromN Nt Lt} `{HFZ : FromN Nt Z}.
  Variable M : Mat Nt.
  Variable B m : Z.
  Variable rep : Lt -> Z -> Prop.
  Hypothesis HR : Repr B rep.
  Local Notation n := (Z.of_nat (mlen M)).
  Local Notation val := (fun d : Nt => lfrom d : Z).

  (** the integer of the dissimilarity [d] is in range, and [Lt::from(d)] represents it *)
  Definition okd (d : Nt) : Prop := 0 <= val d <= m /\ rep (lfrom d) (val d).

  Hypothesis Hget : forall x y d, mget M x y = Ok d -> okd d.
  Hypothesis Hzero : okd nzero.
  Hypothesis HB : 3 * n * m <= B.

  Definition bd (b : Z) (a : Lt) (x : Z) : Prop := rep a x /\ Z.abs x <= b.

  Lemma m0 : 0 <= m.
  Proof. destruct Hzero as [h _]. lia. Qed.

  Lemma bd_mono b c a x : bd b a x -> b <= c -> bd c a x.
  Proof. intros [h1 h2] h. split; auto. lia. Qed.
  Lemma bd_zero b : 0 <= b -> bd b lzero 0.
  Proof. split; [apply (rp_zero HR)|lia]. Qed.
  Lemma bd_add b c a x a' x' : bd b a x -> bd c a' x' -> b + c <= B -> bd (b + c) (ladd a a') (x + x').
  Proof. intros [h1 h2] [h3 h4] h. split; [apply (rp_add HR); auto; lia|lia]. Qed.
  Lemma bd_from d : okd d -> bd m (lfrom d) (val d).
  Proof. intros [h1 h2]. split; auto. lia. Qed.
  Lemma bd_diff d d' : okd d -> okd d' -> m <= B -> bd m (lsub (lfrom d) (lfrom d')) (val d - val d').
  Proof. intros [h1 h2] [h3 h4] h. split; [apply (rp_sub HR); auto; lia|lia]. Qed.
  Lemma bd_neg b a x : bd b a x -> b <= B -> bd b (lneg a) (- x).
  Proof. intros [h1 h2] h. split; [apply (rp_neg HR); auto; lia|lia]. Qed.
  Lemma bd_lt b c a x a' x' : bd b a x -> bd c a' x' -> lltb a a' = lltb x x'.
  Proof. intros [h1 _] [h2 _]. apply (rp_lt HR); auto. Qed.
  Lemma bd_le b c a x a' x' : bd b a x -> bd c a' x' -> lleb a a' = lleb x x'.
  Proof. intros [h1 _] [h2 _]. apply (rp_le HR); auto. Qed.

  (** a sum of at most [n] terms *)
  Lemma fold_bd (l : list Lt) (l' : list Z) b : Forall2 (bd m) l l' -> forall a x, bd b a x ->
    b + Z.of_nat (length l) * m <= B ->
    bd (b + Z.of_nat (length l) * m) (fold_left ladd l a) (fold_left ladd l' x).
  Proof.
    intros h. revert b. induction h as [|y y' l l' hy hl IH]; intros b a x ha hb; cbn [fold_left length] in *.
    - eapply bd_mono; eauto. lia.
    - pose proof m0. rewrite Nat2Z.inj_succ in *. eapply bd_mono; [apply IH with (b := b + m)|]; try nia.
      apply bd_add; auto. nia.
  Qed.

  Lemma reduce_bd (l : list Lt) (l' : list Z) : Forall2 (bd m) l l' -> Z.of_nat (length l) * m <= B ->
    rr (bd (Z.of_nat (length l) * m)) (unwrap (reduce ladd l)) (unwrap (reduce ladd l')).
  Proof.
    intros h hb. destruct h as [|y y' l l' hy hl]; cbn [reduce unwrap rr length]; auto.
    cbn [length] in hb. rewrite Nat2Z.inj_succ in *.
    eapply bd_mono; [apply fold_bd with (b := m); eauto; lia|lia].
  Qed.

  Lemma idx_rr A A' (R : A -> A' -> Prop) l l' i : Forall2 R l l' -> rr R (idx l i) (idx l' i).
  Proof.
    intros h. unfold idx. revert i. induction h as [|a a' l l' ha hl IH]; intros [|i]; cbn; auto.
  Qed.

  Lemma Forall2_len A A' (R : A -> A' -> Prop) l l' : Forall2 R l l' -> length l = length l'.
  Proof. induction 1; simpl; congruence. Qed.

  Lemma upd_rr A A' (R : A -> A' -> Prop) l l' i a a' : Forall2 R l l' -> R a a' ->
    rr (Forall2 R) (upd l i a) (upd l' i a').
  Proof.
    intros h ha. unfold upd. rewrite <- (Forall2_len h). destruct (i <? length l)%nat; simpl; auto.
    revert i. induction h as [|b b' l l' hb hl IH]; intros [|i]; cbn; auto.
  Qed.

  Lemma Forall2_mono A A' (R S : A -> A' -> Prop) l l' : Forall2 R l l' -> (forall a a', R a a' -> S a a') ->
    Forall2 S l l'.
  Proof. induction 1; auto. Qed.

  Lemma add_at_rr l l' i x x' b c : Forall2 (bd b) l l' -> bd c x x' -> 0 <= c -> b + c <= B ->
    rr (Forall2 (bd (b + c))) (add_at l i x) (add_at l' i x').
  Proof.
    intros h hx hc hb. unfold add_at. eapply rr_bind; [apply idx_rr; exact h|].
    intros y y' hy. apply upd_rr.
    - eapply Forall2_mono; [exact h|]. intros a a' ha. eapply bd_mono; [exact ha|lia].
    - apply bd_add; auto.
  Qed.

  Lemma find_min_rr l l' b : Forall2 (bd b) l l' ->
    rr (fun p p' => fst p = fst p' /\ bd b (snd p) (snd p')) (find_min l) (find_min l').
  Proof.
    intros h. unfold find_min. destruct h as [|y y' l l' hy hl]; cbn [rr]; auto.
    rewrite <- (Forall2_len hl).
    assert (G : forall t (p : nat * Lt) (p' : nat * Z), fst p = fst p' /\ bd b (snd p) (snd p') ->
      let f := fold_left (fun best '(ik, iv) => if lltb iv (snd best) then (ik, iv) else best)
                         (combine (seq t (length l)) l) p in
      let f' := fold_left (fun best '(ik, iv) => if lltb iv (snd best) then (ik, iv) else best)
                         (combine (seq t (length l)) l') p' in
      fst f = fst f' /\ bd b (snd f) (snd f')).
    { induction hl as [|z z' l l' hz hl IH]; intros t p p' hp; cbn [length seq combine fold_left]; auto.
      apply IH. rewrite (bd_lt hz (proj2 hp)). destruct (lltb z' (snd p')); auto. }
    apply G. auto.
  Qed.

  (** ** choose_medoid_within_partition *)
  Lemma nm k : (k <= mlen M)%nat -> Z.of_nat k * m <= B.
  Proof. intros h. pose proof m0. nia. Qed.

  Lemma mb : (1 <= mlen M)%nat -> m <= B.
  Proof. intros h. pose proof m0. nia. Qed.

  Lemma member_sum_rr assi c i : (length assi <= mlen M)%nat ->
    rr (bd (n * m)) (member_sum (Lt := Lt) M assi c i) (member_sum (Lt := Z) M assi c i).
  Proof.
    intros hl. pose proof m0. unfold member_sum.
    eapply rr_mono; [apply rr_foldM with (I := fun t s s' => bd (Z.of_nat t * m) s s')|].
    - intros t [j a] s s' ht hs.
      assert (htn : (t < mlen M)%nat).
      { assert (t < length (enum assi))%nat by (apply nth_error_Some; congruence).
        unfold enum in *. rewrite combine_length, seq_length in *. lia. }
      destruct (negb (i =? j)%nat && (a =? c)%nat).
      + destruct (mget M i j) as [d|p] eqn:e; cbn [bind rr]; auto.
        rewrite Nat2Z.inj_succ. eapply bd_mono; [apply bd_add; [exact hs|apply bd_from; eauto|]|]; nia.
      + cbn [rr]. eapply bd_mono; [exact hs|nia].
    - apply bd_zero. lia.
    - cbv beta. intros s s' hs. eapply bd_mono; [exact hs|].
      assert (length (enum assi) <= mlen M)%nat by (unfold enum; rewrite combine_length, seq_length; lia). nia.
  Qed.

  Lemma choose_rr assi med c : (length assi <= mlen M)%nat ->
    rr (fun p p' => fst p = fst p' /\ bd (n * m) (snd p) (snd p'))
       (choose_medoid_within_partition (Lt := Lt) M assi med c)
       (choose_medoid_within_partition (Lt := Z) M assi med c).
  Proof.
    intros hl. unfold choose_medoid_within_partition.
    destruct (idx med c) as [first|p]; cbn [bind rr]; auto.
    eapply rr_bind; [apply member_sum_rr; auto|]. intros s s' hs.
    eapply rr_bind.
    - apply rr_foldM with (I := fun _ (p : nat * Lt) (p' : nat * Z) => fst p = fst p' /\ bd (n * m) (snd p) (snd p')).
      + intros t [j a] p p' _ hp. destruct (negb (j =? first)%nat && (a =? c)%nat); [|exact hp].
        eapply rr_bind; [apply member_sum_rr; auto|]. intros x x' hx.
        rewrite (bd_lt hx (proj2 hp)). destruct (lltb x' (snd p')); simpl; auto.
      + auto.
    - intros [b x] [b' x'] [e hx]. cbn [fst snd] in *. subst b'.
      destruct (upd med c b) as [med'|p]; cbn [bind rr fst snd]; auto.
  Qed.

  (** ** results *)
  Definition same_result (r : pam_result Lt) (r' : pam_result Z) : Prop :=
    r_assi r = r_assi r' /\ r_iter r = r_iter r' /\ r_swaps r = r_swaps r' /\ r_med r = r_med r' /\
    bd (n * m) (r_loss r) (r_loss r').

  Lemma single_rr med : rr same_result (single_medoid (Lt := Lt) M med) (single_medoid (Lt := Z) M med).
  Proof.
    unfold single_medoid. eapply rr_bind; [apply choose_rr; rewrite repeat_length; auto|].
    intros [[md sw] l] [[md' sw'] l'] [e hl]. cbn [fst snd] in *. injection e as <- <-.
    simpl. repeat split; auto; apply hl.
  Qed.

  (** ** fasterpam *)
  Definition okr (r : Rec Nt) : Prop := okd (dd (near r)) /\ okd (dd (seco r)).
  Definition okdata (data : list (Rec Nt)) : Prop := length data = mlen M /\ Forall okr data.

  Lemma ia_fold_okr i l r r' : okr r -> foldM (ia_step M i) l r = Ok r' -> okr r'.
  Proof.
    apply foldM_unary. intros s [c me] s' _ [h1 h2] e. unfold ia_step in e.
    apply bind_ok in e as (d & e1 & e2). apply Hget in e1. injection e2 as <-.
    destruct (nltb d (dd (near s)) || (i =? me)%nat); [split; auto|].
    destruct (is_marker (di (seco s)) || nltb d (dd (seco s))); split; auto.
  Qed.

  Definition same_rec (p : Rec Nt * Lt) (p' : Rec Nt * Z) : Prop :=
    fst p = fst p' /\ okr (fst p) /\ bd m (snd p) (snd p').

  Lemma ia_obj_rr med fc i : rr same_rec (ia_obj (Lt := Lt) M med fc i) (ia_obj (Lt := Z) M med fc i).
  Proof.
    unfold ia_obj. destruct (mget M i fc) as [d0|p] eqn:e0; cbn [bind rr]; auto. apply Hget in e0.
    destruct (foldM (ia_step M i) _ _) as [cur|p] eqn:e; cbn [bind rr]; auto.
    apply ia_fold_okr in e; [|split; auto]. split; [auto|]. split; [auto|]. apply bd_from. apply e.
  Qed.

  Lemma same_recs rs rs' : Forall2 same_rec rs rs' ->
    map fst rs = map fst rs' /\ Forall okr (map fst rs) /\ Forall2 (bd m) (map snd rs) (map snd rs').
  Proof.
    induction 1 as [|p p' rs rs' (h1 & h2 & h3) hrs (IH1 & IH2 & IH3)]; cbn [map]; auto.
    split; [congruence|]. split; auto.
  Qed.

  Lemma mapM_len A C (f : A -> res C) l bs : mapM f l = Ok bs -> length bs = length l.
  Proof.
    revert bs. induction l as [|a l IH]; intros bs; cbn [mapM]; [intros [= <-]; auto|].
    intros e. apply bind_ok in e as (b & _ & e). apply bind_ok in e as (bs' & e1 & e2).
    injection e2 as <-. simpl. f_equal. auto.
  Qed.

  Lemma mapM_rr A C C' (R : C -> C' -> Prop) (f : A -> res C) (f' : A -> res C') l :
    (forall a, In a l -> rr R (f a) (f' a)) ->
    rr (fun bs bs' => Forall2 R bs bs' /\ length bs = length l) (mapM f l) (mapM f' l).
  Proof.
    intros h. pose proof (rr_mapM R f f' l h) as h1.
    destruct (mapM f l) eqn:e; destruct (mapM f' l); simpl in *; auto. split; auto. eapply mapM_len; eauto.
  Qed.

  (** a loss and the records, on both sides *)
  Definition same_ld (p : Lt * list (Rec Nt)) (p' : Z * list (Rec Nt)) : Prop :=
    snd p = snd p' /\ okdata (snd p) /\ bd (n * m) (fst p) (fst p').

  Lemma initial_assignment_rr med :
    rr same_ld (initial_assignment (Lt := Lt) M med) (initial_assignment (Lt := Z) M med).
  Proof.
    unfold initial_assignment. destruct (check_input M (length med)) as [u|p]; cbn [bind rr]; auto.
    destruct (idx med 0) as [fc|p]; cbn [bind rr]; auto.
    eapply rr_bind; [apply mapM_rr; intros; apply ia_obj_rr|].
    intros rs rs' [h hl]. rewrite seq_length in hl. destruct (same_recs h) as (h1 & h2 & h3).
    eapply rr_bind; [apply reduce_bd; [exact h3|rewrite map_length, hl; apply nm; lia]|].
    intros x x' hx. rewrite map_length, hl in hx. cbn [rr]. split; [exact h1|]. split; [|exact hx].
    split; [cbn [snd]; rewrite map_length; auto|exact h2].
  Qed.

  Lemma repeat_bd k b : 0 <= b -> Forall2 (bd b) (repeat lzero k) (repeat lzero k).
  Proof. intros h. induction k as [|k IH]; cbn [repeat]; constructor; auto. apply bd_zero. auto. Qed.

  Lemma update_removal_loss_rr data rl rl' : okdata data -> length rl = length rl' ->
    rr (Forall2 (bd (n * m))) (update_removal_loss data rl) (update_removal_loss (Lt := Z) data rl').
  Proof.
    intros [hl hd] hrl. pose proof m0. unfold update_removal_loss.
    eapply rr_mono; [apply rr_foldM with (I := fun t => Forall2 (bd (Z.of_nat t * m)))|].
    - intros t r s s' ht hs. assert (htn : (t < mlen M)%nat) by (rewrite <- hl; apply nth_error_Some; congruence).
      rewrite Forall_forall in hd. destruct (hd r) as [r1 r2]; [eapply nth_error_In; eauto|].
      rewrite Nat2Z.inj_succ, Z.mul_succ_l.
      apply add_at_rr; auto; [apply bd_diff; auto; apply mb; lia|nia].
    - rewrite hrl. apply repeat_bd. lia.
    - cbv beta. intros s s' hs. rewrite hl in hs. exact hs.
  Qed.

  Lemma nth_error_enum_lt A (l : list A) t p : nth_error (enum l) t = Some p -> (t < length l)%nat /\ In (snd p) l.
  Proof.
    intros h. split.
    - assert (t < length (enum l))%nat by (apply nth_error_Some; congruence).
      unfold enum in *. rewrite combine_length, seq_length in *. lia.
    - apply nth_error_In in h. destruct p as [i a]. apply in_combine_r in h. exact h.
  Qed.

  Lemma fbs_step_rr j (pl : list Lt) (acc : Lt) pl' acc' b c p : okr (snd p) -> m <= B ->
    Forall2 (bd b) pl pl' -> bd c acc acc' -> b + m <= B -> c + m <= B ->
    rr (fun s s' => Forall2 (bd (b + m)) (fst s) (fst s') /\ bd (c + m) (snd s) (snd s'))
       (fbs_step (Lt := Lt) M j (pl, acc) p) (fbs_step (Lt := Z) M j (pl', acc') p).
  Proof.
    intros [r1 r2] hm hpl hacc hb hc. pose proof m0. destruct p as [o r]. cbn [snd] in *. unfold fbs_step.
    destruct (mget M o j) as [doj|q] eqn:e; cbn [bind rr]; auto. apply Hget in e.
    destruct (nltb doj (dd (near r))).
    - eapply rr_bind; [apply add_at_rr; eauto; apply bd_diff; auto|]. intros q q' hq. cbn [rr fst snd].
      split; [exact hq|]. apply bd_add; auto. apply bd_diff; auto.
    - destruct (nltb doj (dd (seco r))).
      + eapply rr_bind; [apply add_at_rr; eauto; apply bd_diff; auto|]. intros q q' hq. cbn [rr fst snd].
        split; [exact hq|]. eapply bd_mono; [exact hacc|lia].
      + cbn [rr fst snd]. split; [|eapply bd_mono; [exact hacc|lia]].
        eapply Forall2_mono; [exact hpl|]. intros a a' ha. eapply bd_mono; [exact ha|lia].
  Qed.

  Lemma fbs_fold_rr j (l : list (nat * Rec Nt)) b c : (forall p, In p l -> okr (snd p)) ->
    b + Z.of_nat (length l) * m <= B -> c + Z.of_nat (length l) * m <= B -> 0 <= b -> 0 <= c ->
    forall (pl : list Lt) (acc : Lt) pl' acc', Forall2 (bd b) pl pl' -> bd c acc acc' ->
    rr (fun s s' => Forall2 (bd (b + Z.of_nat (length l) * m)) (fst s) (fst s') /\
                    bd (c + Z.of_nat (length l) * m) (snd s) (snd s'))
       (foldM (fbs_step (Lt := Lt) M j) l (pl, acc)) (foldM (fbs_step (Lt := Z) M j) l (pl', acc')).
  Proof.
    intros hd hb hc h0 h0' pl acc pl' acc' hpl hacc. pose proof m0.
    apply rr_foldM with (I := fun t (s : list Lt * Lt) (s' : list Z * Z) =>
      Forall2 (bd (b + Z.of_nat t * m)) (fst s) (fst s') /\ bd (c + Z.of_nat t * m) (snd s) (snd s')).
    - intros t p [q ac] [q' ac'] ht [hq ha]. cbn [fst snd] in *.
      assert (htl : (t < length l)%nat) by (apply nth_error_Some; congruence).
      eapply rr_mono; [apply fbs_step_rr with (b := b + Z.of_nat t * m) (c := c + Z.of_nat t * m); auto; try nia|].
      + apply hd. eapply nth_error_In; eauto.
      + cbv beta. intros s s' hs. rewrite Nat2Z.inj_succ, Z.mul_succ_l, !Z.add_assoc. exact hs.
    - cbn [fst snd]. rewrite Z.mul_0_l, !Z.add_0_r. auto.
  Qed.

  Lemma okdata_enum data p : okdata data -> In p (enum data) -> okr (snd p).
  Proof.
    intros [_ hd] hp. rewrite Forall_forall in hd. apply hd. destruct p as [i a]. apply in_combine_r in hp. exact hp.
  Qed.

  Lemma enum_len A (l : list A) : length (enum l) = length l.
  Proof. unfold enum. rewrite combine_length, seq_length. lia. Qed.

  (** a change of the loss and a medoid number *)
  Definition same_change (p : Lt * nat) (p' : Z * nat) : Prop := snd p = snd p' /\ bd B (fst p) (fst p').

  Lemma find_best_swap_rr rl rl' data j : okdata data -> Forall2 (bd (n * m)) rl rl' ->
    rr same_change (find_best_swap (Lt := Lt) M rl data j) (find_best_swap (Lt := Z) M rl' data j).
  Proof.
    intros hd hrl. pose proof m0. unfold find_best_swap.
    assert (hl : length (enum data) = mlen M) by (rewrite enum_len; apply hd).
    eapply rr_bind; [apply fbs_fold_rr with (b := n * m) (c := 0); rewrite ?hl; try nia; auto|].
    - intros p. apply okdata_enum. auto.
    - apply bd_zero. lia.
    - rewrite hl. intros [pl ac] [pl' ac'] [h1 h2]. cbn [fst snd] in *.
      eapply rr_bind; [apply find_min_rr; exact h1|]. intros [b x] [b' x'] [e hx]. cbn [fst snd] in *. subst b'.
      cbn [rr]. split; [auto|]. cbn [fst]. eapply bd_mono; [apply bd_add; [exact hx|exact h2|nia]|nia].
  Qed.

  Lemma update_second_nearest_okd med a b o doj s : okd doj ->
    update_second_nearest M med a b o doj = Ok s -> okd (dd s).
  Proof.
    intros h. unfold update_second_nearest. apply foldM_unary with (P := fun s : dpair Nt => okd (dd s)); auto.
    intros x [i mi] x' _ hx e. destruct ((i =? a)%nat || (i =? b)%nat); [injection e as <-; auto|].
    apply bind_ok in e as (d & e1 & e2). apply Hget in e1. injection e2 as <-.
    destruct (nltb d (dd x)); auto.
  Qed.

  Lemma do_swap_obj_rr med b j p : okr (snd p) ->
    rr same_rec (do_swap_obj (Lt := Lt) M med b j p) (do_swap_obj (Lt := Z) M med b j p).
  Proof.
    intros [r1 r2]. destruct p as [o r]. cbn [snd] in *. unfold do_swap_obj.
    destruct (o =? j)%nat.
    - cbn [rr]. split; [auto|]. split; [split; cbn [near seco dd fst]; auto; destruct (negb _); auto|].
      apply bd_zero. apply m0.
    - destruct (mget M o j) as [doj|q] eqn:e; cbn [bind rr]; auto. apply Hget in e.
      match goal with |- rr _ (bind ?x _) (bind ?x _) =>
        assert (hx : forall r', x = Ok r' -> okr r'); [|destruct x as [r'|q]; cbn [bind rr]; auto]
      end.
      + intros r' e'. destruct (ieqb (di (near r)) b).
        * destruct (nltb doj (dd (seco r))); [injection e' as <-; split; auto|].
          apply bind_ok in e' as (s & e1 & e2). apply update_second_nearest_okd in e1; auto.
          injection e2 as <-. split; auto.
        * destruct (nltb doj (dd (near r))); [injection e' as <-; split; auto|].
          destruct (nltb doj (dd (seco r))); [injection e' as <-; split; auto|].
          destruct (ieqb (di (seco r)) b); [|injection e' as <-; split; auto].
          apply bind_ok in e' as (s & e1 & e2). apply update_second_nearest_okd in e1; auto.
          injection e2 as <-. split; auto.
      + split; [auto|]. split; [apply hx; auto|]. apply bd_from. apply hx. auto.
  Qed.

  (** medoids, records and loss *)
  Definition same_mdl (p : list nat * list (Rec Nt) * Lt) (p' : list nat * list (Rec Nt) * Z) : Prop :=
    fst p = fst p' /\ okdata (snd (fst p)) /\ bd (n * m) (snd p) (snd p').

  Lemma do_swap_rr med data b j : okdata data ->
    rr same_mdl (do_swap (Lt := Lt) M med data b j) (do_swap (Lt := Z) M med data b j).
  Proof.
    intros hd. unfold do_swap.
    destruct (assertb (b <? length med)%nat P_assert) as [u|p]; cbn [bind rr]; auto.
    destruct (assertb (j <? mlen M)%nat P_assert) as [u'|p]; cbn [bind rr]; auto.
    destruct (upd med b j) as [med'|p]; cbn [bind rr]; auto.
    eapply rr_bind; [apply mapM_rr; intros p hp; apply do_swap_obj_rr; eapply okdata_enum; eauto|].
    intros rs rs' [h hl]. rewrite enum_len, (proj1 hd) in hl. destruct (same_recs h) as (h1 & h2 & h3).
    eapply rr_bind; [apply reduce_bd; [exact h3|rewrite map_length, hl; apply nm; lia]|].
    intros x x' hx. rewrite map_length, hl in hx. cbn [rr]. split; [cbn [fst]; congruence|].
    split; [|exact hx]. split; [cbn [fst snd]; rewrite map_length; auto|exact h2].
  Qed.

  Record same_fp (s : fpst Nt Lt) (s' : fpst Nt Z) : Prop := {
    sf_med : fp_med s = fp_med s';
    sf_data : fp_data s = fp_data s';
    sf_last : fp_last s = fp_last s';
    sf_swaps : fp_swaps s = fp_swaps s';
    sf_iter : fp_iter s = fp_iter s';
    sf_ok : okdata (fp_data s);
    sf_rl : Forall2 (bd (n * m)) (fp_rl s) (fp_rl s');
    sf_loss : bd (n * m) (fp_loss s) (fp_loss s')
  }.

  Lemma fp_cand_rr s s' j : same_fp s s' -> rr (rc same_fp) (fp_cand M s j) (fp_cand M s' j).
  Proof.
    intros hs. pose proof hs as [e1 e2 e3 e4 e5 hok hrl hloss]. unfold fp_cand. rewrite <- e1, <- e2, <- e3, <- e4, <- e5.
    destruct (j =? fp_last s)%nat; [exact hs|].
    destruct (idx (fp_data s) j) as [rj|p]; cbn [bind rr]; auto.
    destruct (idx (fp_med s) (as_usize (di (near rj)))) as [mj|p]; cbn [bind rr]; auto.
    destruct (j =? mj)%nat; [exact hs|].
    eapply rr_bind; [apply find_best_swap_rr; auto|]. intros [x b] [x' b'] [eb hx]. cbn [fst snd] in *. subst b'.
    assert (h0 : bd 0 lzero 0) by (apply bd_zero; lia). rewrite (bd_le h0 hx). change 0 with (lzero : Z).
    destruct (lleb lzero x'); [exact hs|].
    eapply rr_bind; [apply do_swap_rr; auto|]. intros [[md dt] l] [[md' dt'] l'] (e & hd & hl). cbn [fst snd] in *.
    injection e as <- <-.
    eapply rr_bind; [apply update_removal_loss_rr; [exact hd|eapply Forall2_len; eauto]|].
    intros r r' hr. cbn [rr rc]. constructor; cbn; auto.
  Qed.

  Lemma fp_iteration_rr order s s' : same_fp s s' ->
    rr (rc same_fp) (fp_iteration M order s) (fp_iteration M order s').
  Proof.
    intros hs. pose proof hs as [e1 e2 e3 e4 e5 hok hrl hloss]. unfold fp_iteration.
    eapply rr_bind.
    - apply rr_forM with (R := same_fp).
      + intros j t t' _ ht. apply fp_cand_rr. exact ht.
      + constructor; cbn; auto.
    - intros t t' ht. pose proof ht as [f1 f2 f3 f4 f5 gok grl gloss].
      rewrite <- f4, <- e4, (bd_le hloss gloss).
      destruct (_ || _); cbn [rr rc]; exact ht.
  Qed.

  Theorem fasterpam_order_rr order med maxiter :
    rr same_result (fasterpam_order (Lt := Lt) M order med maxiter) (fasterpam_order (Lt := Z) M order med maxiter).
  Proof.
    unfold fasterpam_order. destruct (length med =? 1)%nat; [apply single_rr|].
    eapply rr_bind; [apply initial_assignment_rr|]. intros [l d] [l' d'] (e & hd & hl). cbn [fst snd] in *. subst d'.
    eapply rr_bind; [apply update_removal_loss_rr; [exact hd|rewrite !repeat_length; auto]|]. intros rl rl' hrl.
    eapply rr_bind; [apply rr_whileM with (R := same_fp); [intros; apply fp_iteration_rr; auto|constructor; cbn; auto]|].
    intros t t' [f1 f2 f3 f4 f5 gok grl gloss]. cbn [rr]. repeat split; cbn; try apply gloss; congruence.
  Qed.

  (** ** fastpam1 and pam *)
  Record same_p (s : pst Nt Lt) (s' : pst Nt Z) : Prop := {
    sp_med : p_med s = p_med s';
    sp_data : p_data s = p_data s';
    sp_swaps : p_swaps s = p_swaps s';
    sp_iter : p_iter s = p_iter s';
    sp_ok : okdata (p_data s);
    sp_rl : Forall2 (bd (n * m)) (p_rl s) (p_rl s');
    sp_loss : bd (n * m) (p_loss s) (p_loss s')
  }.

  Definition same_best {A} (p : Lt * A) (p' : Z * A) : Prop := snd p = snd p' /\ bd B (fst p) (fst p').

  Lemma B0 : 0 <= B.
  Proof. pose proof m0. nia. Qed.

  Lemma best0 A (x : A) : same_best (lzero, x) (lzero, x).
  Proof. split; auto. apply bd_zero. apply B0. Qed.

  Lemma fastpam1_cand_rr med data rl rl' best best' j : okdata data -> Forall2 (bd (n * m)) rl rl' ->
    same_best best best' ->
    rr same_best (fastpam1_cand (Lt := Lt) M med data rl best j) (fastpam1_cand (Lt := Z) M med data rl' best' j).
  Proof.
    intros hd hrl hb. unfold fastpam1_cand. destruct (idx data j) as [rj|p]; cbn [bind rr]; auto.
    destruct (idx med _) as [mj|p]; cbn [bind rr]; auto. destruct (j =? mj)%nat; [exact hb|].
    eapply rr_bind; [apply find_best_swap_rr; eauto|]. intros [x b] [x' b'] [eb hx]. cbn [fst snd] in *. subst b'.
    rewrite (bd_le (proj2 hb) hx). destruct (lleb (fst best') x'); cbn [rr]; [exact hb|]. split; auto.
  Qed.

  Lemma swap_best_rr s s' rl rl' best best' : same_p s s' -> Forall2 (bd (n * m)) rl rl' -> same_best best best' ->
    rr (rc same_p) (swap_best M s rl best) (swap_best M s' rl' best').
  Proof.
    intros hs hrl [e hb]. pose proof hs as [e1 e2 e3 e4 hok hr hl]. unfold swap_best.
    assert (h0 : bd 0 lzero 0) by (apply bd_zero; lia). rewrite (bd_lt hb h0). change 0 with (lzero : Z).
    destruct (lltb (fst best') lzero); [|cbn [rr rc]; constructor; cbn; auto].
    rewrite <- e, <- e1, <- e2. destruct (snd best) as [[b j]|]; [|cbn [rr]; auto].
    eapply rr_bind; [apply do_swap_rr; auto|]. intros [[md dt] l] [[md' dt'] l'] (f & hd & hl'). cbn [fst snd] in *.
    injection f as <- <-. rewrite (bd_le hl hl').
    destruct (lleb (p_loss s') l'); cbn [rr rc]; constructor; cbn; auto.
  Qed.

  Theorem fastpam1_rr med maxiter :
    rr same_result (fastpam1 (Lt := Lt) M med maxiter) (fastpam1 (Lt := Z) M med maxiter).
  Proof.
    unfold fastpam1. pose proof m0. destruct (length med =? 1)%nat; [apply single_rr|].
    eapply rr_bind; [apply initial_assignment_rr|]. intros [l d] [l' d'] (e & hd & hl). cbn [fst snd] in *. subst d'.
    eapply rr_bind.
    - apply rr_whileM with (R := same_p).
      + intros s s' [e1 e2 e3 e4 hok hr hls]. unfold fastpam1_iteration. cbn [p_med p_data p_rl p_loss p_swaps p_iter].
        rewrite <- e1, <- e2, <- e3, <- e4.
        eapply rr_bind; [apply update_removal_loss_rr; [exact hok|eapply Forall2_len; eauto]|]. intros rl rl' hrl.
        eapply rr_bind.
        * apply rr_foldM with (I := fun _ => same_best); [|apply best0].
          intros t j b b' _ hb. apply fastpam1_cand_rr; auto.
        * intros b b' hb. apply swap_best_rr; auto. constructor; cbn; auto.
      + constructor; cbn [p_med p_data p_rl p_loss p_swaps p_iter]; auto. apply repeat_bd. nia.
    - intros t t' [f1 f2 f3 f4 gok grl gloss]. cbn [rr]. repeat split; cbn; try apply gloss; congruence.
  Qed.

  Lemma okdata_idx data j r : okdata data -> idx data j = Ok r -> okr r /\ (1 <= mlen M)%nat.
  Proof.
    intros [hl hd] e. unfold idx in e. destruct (nth_error data j) as [x|] eqn:ex; [|discriminate]. injection e as ->.
    rewrite Forall_forall in hd. split; [apply hd; eapply nth_error_In; eauto|].
    assert (j < length data)%nat by (apply nth_error_Some; congruence). lia.
  Qed.

  Lemma pam_change_step_rr j q (acc : Lt) acc' p c : okr (snd p) -> m <= B -> bd c acc acc' -> c + m <= B ->
    rr (bd (c + m)) (pam_change_step (Lt := Lt) M j q acc p) (pam_change_step (Lt := Z) M j q acc' p).
  Proof.
    intros [r1 r2] hm hacc hc. destruct p as [o r]. cbn [snd] in *. unfold pam_change_step. pose proof m0.
    assert (hacc1 : bd (c + m) acc acc') by (eapply bd_mono; [exact hacc|lia]).
    destruct (o =? j)%nat; [exact hacc1|].
    destruct (mget M o j) as [doj|e0] eqn:e; cbn [bind rr]; auto. apply Hget in e.
    destruct (_ =? q)%nat; [|destruct (nltb doj (dd (near r)))]; auto.
    - destruct (nltb doj (dd (seco r))); apply bd_add; auto; apply bd_diff; auto.
    - apply bd_add; auto. apply bd_diff; auto.
  Qed.

  Lemma find_best_swap_pam_rr med data j : okdata data ->
    rr same_best (find_best_swap_pam (Lt := Lt) M med data j) (find_best_swap_pam (Lt := Z) M med data j).
  Proof.
    intros hd. unfold find_best_swap_pam. pose proof m0. destruct (idx data j) as [rj|p] eqn:e; cbn [bind rr]; auto.
    destruct (okdata_idx _ hd e) as [hr h1].
    apply rr_foldM with (I := fun _ => same_best); [|apply best0].
    intros t q b b' _ hb. eapply rr_bind.
    - apply rr_foldM with (I := fun t => bd (m + Z.of_nat t * m)).
      + intros i p s s' hi hs. destruct (nth_error_enum_lt _ _ hi) as [hi1 hi2]. rewrite (proj1 hd) in hi1.
        rewrite Nat2Z.inj_succ, Z.mul_succ_l, Z.add_assoc.
        apply pam_change_step_rr; auto; [|apply mb; auto|nia].
        destruct hd as [_ hd]. rewrite Forall_forall in hd. auto.
      + rewrite Z.mul_0_l, Z.add_0_r. apply bd_neg; [apply bd_from; apply hr|apply mb; auto].
    - cbv beta. rewrite enum_len, (proj1 hd). intros x x' hx. rewrite (bd_lt hx (proj2 hb)).
      destruct (lltb x' (fst b')); cbn [rr]; [|exact hb]. split; auto. cbn [fst]. eapply bd_mono; [exact hx|nia].
  Qed.

  Lemma pam_cand_rr med data best best' j : okdata data -> same_best best best' ->
    rr same_best (pam_cand (Lt := Lt) M med data best j) (pam_cand (Lt := Z) M med data best' j).
  Proof.
    intros hd hb. unfold pam_cand. destruct (idx data j) as [rj|p]; cbn [bind rr]; auto.
    destruct (idx med _) as [mj|p]; cbn [bind rr]; auto. destruct (j =? mj)%nat; [exact hb|].
    eapply rr_bind; [apply find_best_swap_pam_rr; eauto|]. intros [x b] [x' b'] [eb hx]. cbn [fst snd] in *. subst b'.
    rewrite (bd_le (proj2 hb) hx). destruct (lleb (fst best') x'); cbn [rr]; [exact hb|]. split; auto.
  Qed.

  Lemma pam_optimize_rr med data maxiter l l' : okdata data -> bd (n * m) l l' ->
    rr same_result (pam_optimize M med data maxiter l) (pam_optimize (Lt := Z) M med data maxiter l').
  Proof.
    intros hd hl. unfold pam_optimize. destruct (length med =? 1)%nat; [apply single_rr|].
    eapply rr_bind.
    - apply rr_whileM with (R := same_p).
      + intros s s' [e1 e2 e3 e4 hok hr hls]. unfold pam_iteration. cbn [p_med p_data p_rl p_loss p_swaps p_iter].
        rewrite <- e1, <- e2, <- e3, <- e4.
        eapply rr_bind.
        * apply rr_foldM with (I := fun _ => same_best); [|apply best0].
          intros t j b b' _ hb. apply pam_cand_rr; auto.
        * intros b b' hb. apply swap_best_rr; auto. constructor; cbn; auto.
      + constructor; cbn; auto.
    - intros t t' [f1 f2 f3 f4 gok grl gloss]. cbn [rr]. repeat split; cbn; try apply gloss; congruence.
  Qed.

  Theorem pam_swap_rr med maxiter :
    rr same_result (pam_swap (Lt := Lt) M med maxiter) (pam_swap (Lt := Z) M med maxiter).
  Proof.
    unfold pam_swap.
    eapply rr_bind; [apply initial_assignment_rr|]. intros [l d] [l' d'] (e & hd & hl). cbn [fst snd] in *. subst d'.
    apply pam_optimize_rr; auto.
  Qed.

  (** ** BUILD *)
  Lemma build_first_sum_rr i : rr (bd (n * m)) (build_first_sum (Lt := Lt) M i) (build_first_sum (Lt := Z) M i).
  Proof.
    unfold build_first_sum. pose proof m0.
    eapply rr_mono; [apply rr_foldM with (I := fun t => bd (Z.of_nat t * m))|].
    - intros t j s s' ht hs.
      assert (htn : (t < mlen M)%nat) by (rewrite <- (seq_length (mlen M) 0); apply nth_error_Some; congruence).
      rewrite Nat2Z.inj_succ, Z.mul_succ_l. destruct (negb (j =? i)%nat).
      + destruct (mget M j i) as [d|p] eqn:e; cbn [bind rr]; auto. apply bd_add; [auto|apply bd_from; eauto|nia].
      + cbn [rr]. eapply bd_mono; [exact hs|lia].
    - apply bd_zero. lia.
    - cbv beta. rewrite seq_length. auto.
  Qed.

  Lemma build_first_rr k :
    rr (fun p p' => snd p = snd p' /\ bd (n * m) (fst p) (fst p')) (build_first (Lt := Lt) M k) (build_first (Lt := Z) M k).
  Proof.
    unfold build_first. pose proof m0.
    apply rr_foldM with (I := fun _ (p : Lt * nat) (p' : Z * nat) => snd p = snd p' /\ bd (n * m) (fst p) (fst p')).
    - intros t i b b' _ hb. eapply rr_bind; [apply build_first_sum_rr|]. intros x x' hx.
      rewrite (bd_lt hx (proj2 hb)). destruct (_ || _); cbn [rr]; auto.
    - split; auto. apply bd_zero. nia.
  Qed.

  Lemma build_next_sum_rr dn i : length dn = mlen M -> Forall okd dn ->
    rr (bd B) (build_next_sum (Lt := Lt) M dn i) (build_next_sum (Lt := Z) M dn i).
  Proof.
    intros hl hd. unfold build_next_sum. pose proof m0. rewrite Forall_forall in hd.
    destruct (idx dn i) as [d0|p] eqn:e0; cbn [bind rr]; auto.
    unfold idx in e0. destruct (nth_error dn i) as [x|] eqn:ex; [|discriminate]. injection e0 as ->.
    assert (h1 : (1 <= mlen M)%nat).
    { assert (i < length dn)%nat by (apply nth_error_Some; congruence). lia. }
    eapply rr_mono; [apply rr_foldM with (I := fun t => bd (m + Z.of_nat t * m))|].
    - intros t [j dj] s s' ht hs. destruct (nth_error_enum_lt _ _ ht) as [ht1 ht2]. rewrite hl in ht1. cbn [snd] in *.
      rewrite Nat2Z.inj_succ, Z.mul_succ_l, Z.add_assoc.
      assert (hs1 : bd (m + Z.of_nat t * m + m) s s') by (eapply bd_mono; [exact hs|lia]).
      destruct (negb (j =? i)%nat); [|exact hs1].
      destruct (mget M j i) as [d|p] eqn:e; cbn [bind rr]; auto. apply Hget in e.
      destruct (nltb d dj); auto. apply bd_add; [auto|apply bd_diff; auto; apply mb; auto|nia].
    - rewrite Z.mul_0_l, Z.add_0_r. apply bd_neg; [apply bd_from; apply hd; eapply nth_error_In; eauto|apply mb; auto].
    - cbv beta. rewrite enum_len, hl. intros s s' hs. eapply bd_mono; [exact hs|nia].
  Qed.

  Lemma build_next_rr k dn cands : length dn = mlen M -> Forall okd dn ->
    rr same_best (build_next (Lt := Lt) M k dn cands) (build_next (Lt := Z) M k dn cands).
  Proof.
    intros hl hd. unfold build_next. apply rr_foldM with (I := fun _ => same_best); [|apply best0].
    intros t i b b' _ hb. eapply rr_bind; [apply build_next_sum_rr; auto|]. intros x x' hx.
    rewrite (bd_lt hx (proj2 hb)). destruct (_ || _); cbn [rr]; [split|]; auto.
  Qed.

  Definition same_opt (o : option Lt) (o' : option Z) : Prop :=
    match o, o' with Some a, Some x => bd m a x | None, None => True | _, _ => False end.

  Lemma build_upd_obj_rr l bj p : okr (snd p) ->
    rr (fun q q' => fst q = fst q' /\ okr (fst q) /\ same_opt (snd q) (snd q'))
       (build_upd_obj (Lt := Lt) M l bj p) (build_upd_obj (Lt := Z) M l bj p).
  Proof.
    intros [r1 r2]. destruct p as [j r]. cbn [snd] in *. unfold build_upd_obj.
    destruct (j =? bj)%nat; [cbn [rr fst snd]; split; [auto|]; split; [split|]; auto; exact I|].
    destruct (mget M j bj) as [d|e0] eqn:e; cbn [bind rr]; auto. apply Hget in e. cbn [fst snd]. split; [auto|].
    match goal with |- okr ?r' /\ _ => assert (hr : okr r') end.
    { destruct (nltb d (dd (near r))); [split; auto|]. destruct (_ || _); split; auto. }
    split; [exact hr|]. apply bd_from. apply hr.
  Qed.

  Record same_b (s : bst Nt Lt) (s' : bst Nt Z) : Prop := {
    sb_meds : b_meds s = b_meds s';
    sb_data : b_data s = b_data s';
    sb_ok : okdata (b_data s);
    sb_loss : bd (n * m) (b_loss s) (b_loss s')
  }.

  Lemma build_step_rr k s s' l : same_b s s' ->
    rr (rc same_b) (build_step M k s l) (build_step M k s' l).
  Proof.
    intros hs. pose proof hs as [e1 e2 hok hl]. unfold build_step. pose proof m0. rewrite <- e1, <- e2.
    eapply rr_bind.
    - apply build_next_rr; [rewrite map_length; apply hok|]. destruct hok as [_ hd].
      rewrite Forall_forall in *. intros d hin. apply in_map_iff in hin as (r & <- & hr). apply hd. auto.
    - intros [x b] [x' b'] [e hx]. cbn [fst snd] in *. subst b'.
      assert (h0 : bd 0 lzero 0) by (apply bd_zero; lia). rewrite (bd_le h0 hx). change 0 with (lzero : Z).
      destruct (lleb lzero x'); [exact hs|].
      eapply rr_bind; [apply mapM_rr; intros p hp; apply build_upd_obj_rr; eapply okdata_enum; eauto|].
      intros rs rs' [h hlen]. rewrite enum_len, (proj1 hok) in hlen.
      assert (G : map fst rs = map fst rs' /\ Forall okr (map fst rs)).
      { clear -h. induction h as [|p p' rs rs' (h1 & h2 & h3) hrs (IH1 & IH2)]; cbn [map]; auto.
        split; [congruence|]. auto. }
      cbn [rr rc]. constructor; cbn [b_meds b_data b_loss].
      + auto.
      + apply G.
      + split; [rewrite map_length; auto|apply G].
      + rewrite <- hlen.
        assert (F : forall t a x, bd (Z.of_nat t * m) a x -> (t + length rs <= mlen M)%nat ->
          bd (Z.of_nat (t + length rs) * m)
             (fold_left (fun s x => match snd x with Some v => ladd s v | None => s end) rs a)
             (fold_left (fun s x => match snd x with Some v => ladd s v | None => s end) rs' x)).
        { clear hlen G. induction h as [|[p o] [p' o'] rs rs' (h1 & h2 & h3) hrs IH]; intros t a y ha ht; cbn [fold_left length] in *.
          - rewrite Nat.add_0_r. exact ha.
          - rewrite <- Nat.add_succ_comm in *. apply IH; [|lia].
            rewrite Nat2Z.inj_succ, Z.mul_succ_l. cbn [snd] in *. destruct o, o'; cbn in h3; try tauto.
            + apply bd_add; auto. nia.
            + eapply bd_mono; [exact ha|lia]. }
        apply (F 0%nat); [apply bd_zero; lia|lia].
  Qed.

  Lemma pam_build_initialize_rr k :
    rr same_b (pam_build_initialize (Lt := Lt) M k) (pam_build_initialize (Lt := Z) M k).
  Proof.
    unfold pam_build_initialize. destruct (msquare M) as [sq|p]; cbn [bind rr]; auto.
    destruct (assertb sq P_not_square) as [u|p]; cbn [bind rr]; auto.
    eapply rr_bind; [apply build_first_rr|]. intros [x b] [x' b'] [e hx]. cbn [fst snd] in *. subst b'.
    eapply rr_bind.
    - apply mapM_rr with (R := fun r r' => r = r' /\ okr r). intros j _.
      destruct (mget M j b) as [d|p] eqn:e; cbn [bind rr]; auto. split; [auto|]. split; cbn; eauto.
    - intros rs rs' [h hl]. rewrite seq_length in hl.
      assert (G : rs = rs' /\ Forall okr rs).
      { clear -h. induction h as [|p p' rs rs' (h1 & h2) hrs (IH1 & IH2)]; auto. split; [congruence|auto]. }
      destruct G as [<- G]. apply rr_forM with (R := same_b).
      + intros l s s' _ hs. apply build_step_rr. exact hs.
      + constructor; cbn; auto. split; auto.
  Qed.

  Theorem pam_build_rr k :
    rr (fun r r' => snd r = snd r' /\ snd (fst r) = snd (fst r') /\ bd (n * m) (fst (fst r)) (fst (fst r')))
       (pam_build (Lt := Lt) M k) (pam_build (Lt := Z) M k).
  Proof.
    unfold pam_build. destruct (check_input M k) as [u|p]; cbn [bind rr]; auto.
    eapply rr_bind; [apply pam_build_initialize_rr|]. intros s s' [e1 e2 hok hl]. cbn [rr fst snd].
    split; [auto|]. split; [congruence|auto].
  Qed.

  Theorem pam_rr k maxiter : rr same_result (pam (Lt := Lt) M k maxiter) (pam (Lt := Z) M k maxiter).
  Proof.
    unfold pam. destruct (check_input M k) as [u|p]; cbn [bind rr]; auto.
    eapply rr_bind; [apply pam_build_initialize_rr|]. intros s s' [e1 e2 hok hl]. rewrite <- e1, <- e2.
    apply pam_optimize_rr; auto.
  Qed.

  (** ** alternating *)
  Lemma an_obj_rr med fc i :
    rr (fun p p' => fst p = fst p' /\ bd m (snd p) (snd p')) (an_obj (Lt := Lt) M med fc i) (an_obj (Lt := Z) M med fc i).
  Proof.
    unfold an_obj. destruct (mget M i fc) as [d0|p] eqn:e0; cbn [bind rr]; auto. apply Hget in e0.
    match goal with |- rr _ (bind ?x _) _ => destruct x as [b|p] eqn:e; cbn [bind rr]; auto end.
    cbn [fst snd]. split; [auto|]. apply bd_from.
    eapply foldM_unary with (P := fun b : nat * Nt => okd (snd b)) in e; auto.
    intros s [q mm] s' _ hs e'. apply bind_ok in e' as (d & e1 & e2). apply Hget in e1. injection e2 as <-.
    destruct (_ || _); auto.
  Qed.

  Lemma assign_nearest_rr med :
    rr (fun p p' => snd p = snd p' /\ length (snd p) = mlen M /\ bd (n * m) (fst p) (fst p'))
       (assign_nearest (Lt := Lt) M med) (assign_nearest (Lt := Z) M med).
  Proof.
    unfold assign_nearest. destruct (check_input M (length med)) as [u|p]; cbn [bind rr]; auto.
    destruct (idx med 0) as [fc|p]; cbn [bind rr]; auto. pose proof m0.
    eapply rr_bind; [apply mapM_rr; intros; apply an_obj_rr|].
    intros rs rs' [h hl]. rewrite seq_length in hl. cbn [rr fst snd].
    assert (G : map fst rs = map fst rs' /\ Forall2 (bd m) (map snd rs) (map snd rs')).
    { clear -h. induction h as [|p p' rs rs' (h1 & h2) hrs (IH1 & IH2)]; cbn [map]; auto. split; [congruence|auto]. }
    destruct G as [g1 g2]. split; [exact g1|]. split; [rewrite map_length; exact hl|].
    assert (hr : rr (bd (n * m)) (unwrap (reduce ladd (map snd rs))) (unwrap (reduce ladd (map snd rs')))).
    { rewrite <- hl, <- (map_length snd rs). apply reduce_bd; auto. rewrite map_length, hl. apply nm. lia. }
    destruct (reduce ladd (map snd rs)), (reduce ladd (map snd rs')); simpl in hr; try tauto. apply bd_zero. nia.
  Qed.

  Theorem alternating_rr med maxiter :
    rr same_result (alternating (Lt := Lt) M med maxiter) (alternating (Lt := Z) M med maxiter).
  Proof.
    unfold alternating.
    eapply rr_bind; [apply assign_nearest_rr|]. intros [l a] [l' a'] (e & ha & hl). cbn [fst snd] in *. subst a'.
    eapply rr_bind.
    - apply rr_whileM with (R := fun (s : ast Lt) (s' : ast Z) => al_med s = al_med s' /\ al_assi s = al_assi s' /\
        al_iter s = al_iter s' /\ length (al_assi s) = mlen M /\ bd (n * m) (al_loss s) (al_loss s')).
      + intros s s' (e1 & e2 & e3 & hs & hls). unfold alt_iteration. rewrite <- e1, <- e2, <- e3.
        eapply rr_bind with (R := fun p p' => p = p').
        * unfold alt_medoids. apply rr_foldM with (I := fun _ (p p' : list nat * bool) => p = p'); auto.
          intros t i [md c] p' _ <-. eapply rr_bind; [apply choose_rr; lia|].
          intros [[md1 c1] x] [[md1' c1'] x'] [f _]. cbn [fst] in f. injection f as <- <-. cbn [rr]. auto.
        * intros [md c] p' <-. destruct (negb c); [cbn [rr rc]; repeat split; cbn; auto; apply hls|].
          eapply rr_bind; [apply assign_nearest_rr|]. intros [l1 a1] [l1' a1'] (f & ha1 & hl1). cbn [fst snd] in *.
          subst a1'. cbn [rr rc]. repeat split; cbn; auto; apply hl1.
      + cbn. auto.
    - intros s s' (e1 & e2 & e3 & hs & hls). cbn [rr]. repeat split; cbn; auto; apply hls.
  Qed.

  (** ** par_fasterpam *)
  Lemma Forall2_firstn A A' (R : A -> A' -> Prop) l l' p : Forall2 R l l' -> Forall2 R (firstn p l) (firstn p l').
  Proof. intros h. revert p. induction h; intros [|p]; cbn [firstn]; auto. Qed.
  Lemma Forall2_skipn A A' (R : A -> A' -> Prop) l l' p : Forall2 R l l' -> Forall2 R (skipn p l) (skipn p l').
  Proof. intros h. revert p. induction h; intros [|p]; cbn [skipn]; auto. Qed.

  Lemma treduce_bd t (l : list Lt) (l' : list Z) : Forall2 (bd m) l l' -> Z.of_nat (length l) * m <= B ->
    rr (bd (Z.of_nat (length l) * m)) (unwrap (treduce ladd t l)) (unwrap (treduce ladd t l')).
  Proof.
    revert l l'. pose proof m0. induction t as [|p t1 IH1 t2 IH2]; intros l l' h hb; cbn [treduce]; [apply reduce_bd; auto|].
    assert (hlen : length l = (length (firstn p l) + length (skipn p l))%nat) by (rewrite <- app_length, firstn_skipn; auto).
    rewrite hlen, Nat2Z.inj_add, Z.mul_add_distr_r in *.
    specialize (IH1 _ _ (Forall2_firstn p h) ltac:(nia)). specialize (IH2 _ _ (Forall2_skipn p h) ltac:(nia)).
    destruct (treduce ladd t1 (firstn p l)), (treduce ladd t1 (firstn p l'));
    destruct (treduce ladd t2 (skipn p l)), (treduce ladd t2 (skipn p l')); simpl in *; try tauto; try discriminate.
    - apply bd_add; auto.
    - eapply bd_mono; [exact IH1|nia].
    - eapply bd_mono; [exact IH2|nia].
  Qed.

  Lemma par_initial_rr t med :
    rr same_ld (par_initial_assignment (Lt := Lt) M t med) (par_initial_assignment (Lt := Z) M t med).
  Proof.
    unfold par_initial_assignment. destruct (check_input M (length med)) as [u|p]; cbn [bind rr]; auto.
    destruct (idx med 0) as [fc|p]; cbn [bind rr]; auto.
    eapply rr_bind; [apply mapM_rr; intros; apply ia_obj_rr|].
    intros rs rs' [h hl]. rewrite seq_length in hl. destruct (same_recs h) as (h1 & h2 & h3).
    eapply rr_bind; [apply treduce_bd; [exact h3|rewrite map_length, hl; apply nm; lia]|].
    intros x x' hx. rewrite map_length, hl in hx. cbn [rr]. split; [exact h1|]. split; [|exact hx].
    split; [cbn [snd]; rewrite map_length; auto|exact h2].
  Qed.

  Lemma par_do_swap_obj_rr med b j p : okr (snd p) ->
    rr same_rec (par_do_swap_obj (Lt := Lt) M med b j p) (par_do_swap_obj (Lt := Z) M med b j p).
  Proof.
    intros [r1 r2]. destruct p as [o r]. cbn [snd] in *. unfold par_do_swap_obj.
    destruct (o =? j)%nat.
    - cbn [rr]. split; [auto|]. split; [split; cbn [near seco dd fst]; auto; destruct (negb _); auto|].
      apply bd_zero. apply m0.
    - destruct (mget M o j) as [doj|q] eqn:e; cbn [bind rr]; auto. apply Hget in e.
      match goal with |- rr _ (bind ?x _) (bind ?x _) =>
        assert (hx : forall r', x = Ok r' -> okr r'); [|destruct x as [r'|q]; cbn [bind rr]; auto]
      end.
      + intros r' e'. destruct (ieqb (di (near r)) b).
        * destruct (nltb doj (dd (seco r))); [injection e' as <-; split; auto|].
          apply bind_ok in e' as (s & e1 & e2). apply update_second_nearest_okd in e1; auto.
          injection e2 as <-. split; auto.
        * destruct (nltb doj (dd (near r))); [injection e' as <-; split; auto|].
          destruct (ieqb (di (seco r)) b).
          -- apply bind_ok in e' as (s & e1 & e2). apply update_second_nearest_okd in e1; auto.
             injection e2 as <-. split; auto.
          -- destruct (nltb doj (dd (seco r))); injection e' as <-; split; auto.
      + split; [auto|]. split; [apply hx; auto|]. apply bd_from. apply hx. auto.
  Qed.

  Lemma par_do_swap_rr t med data b j : okdata data ->
    rr same_mdl (par_do_swap (Lt := Lt) M t med data b j) (par_do_swap (Lt := Z) M t med data b j).
  Proof.
    intros hd. unfold par_do_swap.
    destruct (assertb (b <? length med)%nat P_assert) as [u|p]; cbn [bind rr]; auto.
    destruct (assertb (j <? mlen M)%nat P_assert) as [u'|p]; cbn [bind rr]; auto.
    destruct (upd med b j) as [med'|p]; cbn [bind rr]; auto.
    eapply rr_bind; [apply mapM_rr; intros p hp; apply par_do_swap_obj_rr; eapply okdata_enum; eauto|].
    intros rs rs' [h hl]. rewrite enum_len, (proj1 hd) in hl. destruct (same_recs h) as (h1 & h2 & h3).
    eapply rr_bind; [apply treduce_bd; [exact h3|rewrite map_length, hl; apply nm; lia]|].
    intros x x' hx. rewrite map_length, hl in hx. cbn [rr]. split; [cbn [fst]; congruence|].
    split; [|exact hx]. split; [cbn [fst snd]; rewrite map_length; auto|exact h2].
  Qed.

  Lemma combine_bd b c l l' r r' : Forall2 (bd b) l l' -> Forall2 (bd c) r r' -> b + c <= B ->
    Forall2 (bd (b + c)) (map (fun '(x, y) => ladd x y) (combine l r)) (map (fun '(x, y) => ladd x y) (combine l' r')).
  Proof.
    intros h h2 hb. revert r r' h2. induction h as [|x x' l l' hx hl IH]; intros r r' h2; cbn [combine map]; auto.
    destruct h2 as [|y y' r r' hy hr]; cbn [combine map]; constructor; auto. apply bd_add; auto.
  Qed.

  (** what a task does depends only on its objects *)
  Lemma par_task_rr k data j st x : okdata data ->
    let c := Z.of_nat (length (chunk st (enum data) x)) in c * m <= B ->
    rr (fun s s' => Forall2 (bd (c * m)) (fst s) (fst s') /\ bd (c * m) (snd s) (snd s'))
       (par_task (Lt := Lt) M k data j st x) (par_task (Lt := Z) M k data j st x).
  Proof.
    intros hd c hc. unfold par_task.
    assert (e : skipn (x * st) (firstn (Nat.min (x * st + st) (mlen M)) (enum data)) = chunk st (enum data) x).
    { unfold chunk. rewrite enum_len, (proj1 hd). auto. }
    rewrite e. apply (@fbs_fold_rr j (chunk st (enum data) x) 0 0); try lia; try (fold c; lia).
    - intros p hp. apply In_chunk in hp. eapply okdata_enum; eauto.
    - apply repeat_bd. lia.
    - apply bd_zero. lia.
  Qed.

  Definition clen (data : list (Rec Nt)) st (l : list nat) : nat := length (flat_map (chunk st (enum data)) l).

  Lemma par_find_best_swap_rr s rl rl' data j : sched_ok s -> okdata data -> Forall2 (bd (n * m)) rl rl' ->
    rr same_change (par_find_best_swap (Lt := Lt) M s rl data j) (par_find_best_swap (Lt := Z) M s rl' data j).
  Proof.
    intros [h1 h2] hd hrl. pose proof m0. unfold par_find_best_swap.
    set (st := ((mlen M + s_parts s - 1) / s_parts s)%nat).
    assert (htot : clen data st (s_order s) = mlen M).
    { unfold clen, st. rewrite <- (proj1 hd), <- (enum_len data) at 1. rewrite (Permutation_length (chunks_cover (enum data) h1 h2)).
      rewrite enum_len. apply hd. }
    rewrite <- (Forall2_len hrl).
    assert (F : forall l done, done ++ l = s_order s ->
      forall (pl : list Lt) (ac : Lt) pl' ac', Forall2 (bd (n * m + Z.of_nat (clen data st done) * m)) pl pl' ->
      bd (Z.of_nat (clen data st done) * m) ac ac' ->
      rr (fun p p' => Forall2 (bd (n * m + n * m)) (fst p) (fst p') /\ bd (n * m) (snd p) (snd p'))
        (foldM (fun '(ploss, acc) x =>
               '(loss, lagg) <- par_task M (length rl) data j st x ;;
               Ok (map (fun '(a, b) => ladd a b) (combine ploss loss), ladd acc lagg)) l (pl, ac))
        (foldM (fun '(ploss, acc) x =>
               '(loss, lagg) <- par_task M (length rl) data j st x ;;
               Ok (map (fun '(a, b) => ladd a b) (combine ploss loss), ladd acc lagg)) l (pl', ac'))).
    { induction l as [|x l IH]; intros done hdone pl ac pl' ac' hpl hac; cbn [foldM].
      - rewrite app_nil_r in hdone. subst done. rewrite htot in *. cbn [rr fst snd]. auto.
      - assert (hc : (clen data st done + length (chunk st (enum data) x) <= mlen M)%nat).
        { rewrite <- htot, <- hdone. unfold clen. rewrite flat_map_app, app_length. cbn [flat_map]. rewrite app_length. lia. }
        assert (hc' : clen data st (done ++ [x]) = (clen data st done + length (chunk st (enum data) x))%nat).
        { unfold clen. rewrite flat_map_app, app_length. cbn [flat_map]. rewrite app_nil_r. auto. }
        eapply rr_bind with (R := fun p p' => Forall2 (bd (n * m + Z.of_nat (clen data st (done ++ [x])) * m)) (fst p) (fst p') /\
           bd (Z.of_nat (clen data st (done ++ [x])) * m) (snd p) (snd p')).
        + eapply rr_bind; [apply par_task_rr; [exact hd|apply nm; lia]|].
          intros [lo la] [lo' la'] [g1 g2]. cbn [fst snd] in *. cbn [rr fst snd].
          rewrite hc', Nat2Z.inj_add, Z.mul_add_distr_r, Z.add_assoc. split; [apply combine_bd|apply bd_add]; auto; nia.
        + intros [pl1 ac1] [pl1' ac1'] [g1 g2]. cbn [fst snd] in *. apply (IH (done ++ [x])); auto.
          rewrite <- app_assoc. exact hdone. }
    eapply rr_bind; [apply (F (s_order s) []); auto|].
    - unfold clen. cbn [flat_map length]. rewrite Z.mul_0_l, Z.add_0_r. exact hrl.
    - apply bd_zero. unfold clen. cbn. lia.
    - intros [pl ac] [pl' ac'] [g1 g2]. cbn [fst snd] in *.
      eapply rr_bind; [apply find_min_rr; exact g1|]. intros [b x] [b' x'] [e hx]. cbn [fst snd] in *. subst b'.
      cbn [rr]. split; [auto|]. cbn [fst]. eapply bd_mono; [apply bd_add; [exact hx|exact g2|nia]|nia].
  Qed.

  Lemma par_cand_rr orc s s' j : oracle_ok orc -> same_fp s s' ->
    rr (rc same_fp) (par_cand M orc s j) (par_cand M orc s' j).
  Proof.
    intros ho hs. pose proof hs as [e1 e2 e3 e4 e5 hok hrl hloss]. unfold par_cand. rewrite <- e1, <- e2, <- e3, <- e4, <- e5.
    destruct (j =? fp_last s)%nat; [exact hs|].
    destruct (idx (fp_data s) j) as [rj|p]; cbn [bind rr]; auto.
    destruct (idx (fp_med s) (as_usize (di (near rj)))) as [mj|p]; cbn [bind rr]; auto.
    destruct (j =? mj)%nat; [exact hs|].
    eapply rr_bind; [apply par_find_best_swap_rr; auto|]. intros [x b] [x' b'] [eb hx]. cbn [fst snd] in *. subst b'.
    assert (h0 : bd 0 lzero 0) by (apply bd_zero; lia). rewrite (bd_le h0 hx). change 0 with (lzero : Z).
    destruct (lleb lzero x'); [exact hs|].
    eapply rr_bind; [apply par_do_swap_rr; auto|]. intros [[md dt] l] [[md' dt'] l'] (e & hd & hl). cbn [fst snd] in *.
    injection e as <- <-.
    eapply rr_bind; [apply update_removal_loss_rr; [exact hd|eapply Forall2_len; eauto]|].
    intros r r' hr. cbn [rr rc]. constructor; cbn; auto.
  Qed.

  Theorem par_fasterpam_rr orc order med maxiter : oracle_ok orc ->
    rr same_result (par_fasterpam (Lt := Lt) M orc order med maxiter) (par_fasterpam (Lt := Z) M orc order med maxiter).
  Proof.
    intros ho. unfold par_fasterpam. destruct (length med =? 1)%nat; [apply single_rr|].
    eapply rr_bind; [apply par_initial_rr|]. intros [l d] [l' d'] (e & hd & hl). cbn [fst snd] in *. subst d'.
    eapply rr_bind; [apply update_removal_loss_rr; [exact hd|rewrite !repeat_length; auto]|]. intros rl rl' hrl.
    eapply rr_bind; [apply rr_whileM with (R := same_fp); [|constructor; cbn; auto]|].
    - intros s s' hs. pose proof hs as [e1 e2 e3 e4 e5 hok hr hloss]. unfold par_iteration.
      eapply rr_bind.
      + apply rr_forM with (R := same_fp).
        * intros j t t' _ ht. apply par_cand_rr; auto.
        * constructor; cbn; auto.
      + intros t t' ht. pose proof ht as [f1 f2 f3 f4 f5 gok grl gloss].
        rewrite <- f4, <- e4, (bd_le hloss gloss).
        destruct (_ || _); cbn [rr rc]; exact ht.
    - intros t t' [f1 f2 f3 f4 f5 gok grl gloss]. cbn [rr]. repeat split; cbn; try apply gloss; congruence.
  Qed.
End Bounded.
