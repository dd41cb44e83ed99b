(** Nested.v -- facts about the BUILD loops for two numbers of medoids (used in P_Nested.v).  They hold for any numeric types
    and any matrix. *)
From Coq Require Import Lia.
From Verif Require Import Base Num M_Mat M_Util M_Fasterpam M_Pam M_Pammedsil M_Pamsil Hoare.
Set Implicit Arguments.

Lemma bind_Ok A B (m : res A) (f : A -> res B) y : bind m f = Ok y -> exists x, m = Ok x /\ f x = Ok y.
Proof. destruct m; cbn; [eauto|discriminate]. Qed.

Lemma mapM_Ok A B (f : A -> res B) l bs : mapM f l = Ok bs ->
  length bs = length l /\ forall i a, nth_error l i = Some a -> exists b, nth_error bs i = Some b /\ f a = Ok b.
Proof.
  revert bs. induction l as [|a l IH]; cbn [mapM]; intros bs e.
  - injection e as <-. split; [reflexivity|]. intros [|i] x h; discriminate h.
  - apply bind_Ok in e as (b & e1 & e). apply bind_Ok in e as (bs' & e2 & e). injection e as <-.
    destruct (IH _ e2) as [h1 h2]. split; [cbn; congruence|]. intros [|i] x h; cbn in *; [|auto]. injection h as <-. eauto.
Qed.

(** A loop over a longer list: the loop over the first part ends in a state from which the rest goes on, unless it has left the
    loop already. *)
Lemma forM_app A S (f : S -> A -> res (ctl S)) l1 l2 s s' : forM f (l1 ++ l2) s = Ok s' ->
  exists s1, forM f l1 s = Ok s1 /\
    (s1 = s' \/ (forM f l2 s1 = Ok s' /\ forall I : nat -> S -> Prop, I 0 s ->
       (forall i a t t', I i t -> f t a = Ok (Next t') -> I (i + 1) t') -> I (length l1) s1)).
Proof.
  revert s. induction l1 as [|a l1 IH]; cbn [forM app]; intros s e.
  - exists s. split; [reflexivity|]. right. split; [exact e|]. auto.
  - apply bind_Ok in e as (c & e1 & e). rewrite e1. cbn [bind]. destruct c as [t|t].
    + destruct (IH t e) as (s1 & h1 & h2). exists s1. split; [exact h1|]. destruct h2 as [h2|[h2 h3]]; [left; exact h2|].
      right. split; [exact h2|]. intros I h0 hs. cbn [length]. apply (h3 (fun i => I (Datatypes.S i))).
      * apply (hs 0 a s t h0 e1).
      * intros i b t0 t1. apply (hs (Datatypes.S i)).
    + injection e as <-. exists t. split; [reflexivity|]. left. reflexivity.
Qed.
(** what every step preserves, also the one which leaves the loop *)
Lemma forM_keeps A S (f : S -> A -> res (ctl S)) (R : S -> Prop) l s s' : forM f l s = Ok s' -> R s ->
  (forall t a c, In a l -> R t -> f t a = Ok c -> match c with Next t' => R t' | Break t' => R t' end) -> R s'.
Proof.
  revert s. induction l as [|a l IH]; cbn [forM]; intros s e hr hs; [injection e as <-; exact hr|].
  apply bind_Ok in e as (c & e1 & e). pose proof (hs s a c (or_introl eq_refl) hr e1) as h. destruct c as [t|t].
  - apply (IH t e h). intros t0 b c0 hb. apply hs. right. exact hb.
  - injection e as <-. exact h.
Qed.
Lemma forM_same A S (f g : S -> A -> res (ctl S)) (R : S -> Prop) l s : R s -> (forall t a, R t -> f t a = g t a) ->
  (forall t a t', R t -> f t a = Ok (Next t') -> R t') -> forM f l s = forM g l s.
Proof.
  intros h0 he hk. revert s h0. induction l as [|a l IH]; cbn [forM]; intros s h0; [reflexivity|].
  rewrite <- (he s a h0). destruct (f s a) as [c|] eqn:e; cbn [bind]; [|reflexivity]. destruct c as [t|t]; [|reflexivity].
  apply IH. apply (hk s a t h0 e).
Qed.

Section Nested.
  Context {Nt Lt : Type} `{NumN Nt} `{NumL Lt} `{FromN Nt Lt}.
  Variable M : Mat Nt.

  Lemma build_first_k k k' : 1 <= mlen M -> build_first (Lt := Lt) M k = build_first M k'.
  Proof.
    intros hn. unfold build_first. destruct (mlen M) as [|m] eqn:e; [lia|]. cbn [seq foldM].
    destruct (build_first_sum M 0); cbn [bind]; reflexivity.
  Qed.
  Lemma build_next_k k k' (dn : list Nt) l : build_next (Lt := Lt) M k dn (0 :: l) = build_next M k' dn (0 :: l).
  Proof. unfold build_next. cbn [foldM]. destruct (build_next_sum M dn 0); cbn [bind]; reflexivity. Qed.
  Lemma enum_zero T (l : list T) : 1 <= length l -> exists l', map fst (enum l) = 0 :: l'.
  Proof. intros hl. rewrite map_fst_enum. destruct l as [|x l]; [cbn in hl; lia|]. cbn [length seq]. eauto. Qed.

  (** *** PAM's BUILD *)
  Lemma build_step_k k k' (st : bst Nt Lt) l : 1 <= length (b_data st) -> build_step M k st l = build_step M k' st l.
  Proof. intros hl. unfold build_step. destruct (enum_zero _ hl) as (l' & ->). rewrite (build_next_k k k'). reflexivity. Qed.

  (** one step: one more medoid; the objects stay in their clusters or move to the new one *)
  Lemma build_step_next k (st : bst Nt Lt) l st' : build_step M k st l = Ok (Next st') ->
    (exists m, b_meds st' = b_meds st ++ [m]) /\ length (b_data st') = length (b_data st) /\
    forall o r', nth_error (b_data st') o = Some r' -> exists r, nth_error (b_data st) o = Some r /\
      (di (near r') = di (near r) \/ di (near r') = Some l).
  Proof.
    unfold build_step. intros e. apply bind_Ok in e as (best & e1 & e). destruct (lleb lzero (fst best)); [discriminate e|].
    apply bind_Ok in e as (rs & e2 & e). injection e as <-. cbn [b_meds b_data]. split; [eauto|].
    destruct (mapM_Ok _ _ e2) as [h1 h2]. rewrite length_enum in h1. split; [rewrite map_length; exact h1|].
    intros o r' ho. rewrite nth_error_map in ho. destruct (nth_error rs o) as [b|] eqn:eb; [|discriminate ho]. cbn in ho. injection ho as <-.
    assert (hlt : o < length (b_data st)) by (rewrite <- h1; apply nth_error_Some; congruence).
    destruct (nth_error (b_data st) o) as [r|] eqn:er; [|apply nth_error_None in er; lia]. exists r. split; [reflexivity|].
    assert (hen : nth_error (enum (b_data st)) o = Some (o, r)) by (rewrite nth_error_enum, er; reflexivity).
    destruct (h2 o (o, r) hen) as (b' & eb' & hf). rewrite eb in eb'. injection eb' as <-.
    unfold build_upd_obj in hf. destruct (o =? snd best); [injection hf as <-; right; reflexivity|].
    apply bind_Ok in hf as (dj & _ & hf). injection hf as <-. cbn [fst].
    destruct (nltb dj (dd (near r))); [right; reflexivity|]. destruct (is_marker (di (seco r)) || nltb dj (dd (seco r))); left; reflexivity.
  Qed.
  Lemma build_step_break k (st : bst Nt Lt) l st' : build_step M k st l = Ok (Break st') -> st' = st.
  Proof.
    unfold build_step. intros e. apply bind_Ok in e as (best & e1 & e). destruct (lleb lzero (fst best)); [injection e as <-; reflexivity|].
    apply bind_Ok in e as (rs & e2 & e). discriminate e.
  Qed.

  (** what the steps with numbers from [k] on change of a state *)
  Definition grown (k : nat) (st st' : bst Nt Lt) : Prop :=
    (exists t, b_meds st' = b_meds st ++ t) /\ (st' = st \/ length (b_meds st) < length (b_meds st')) /\
    length (b_data st') = length (b_data st) /\
    forall o r', nth_error (b_data st') o = Some r' -> exists r, nth_error (b_data st) o = Some r /\
      (di (near r') = di (near r) \/ exists l, di (near r') = Some l /\ k <= l).

  Lemma steps_grown k k' ls (st st' : bst Nt Lt) : (forall l, In l ls -> k <= l) -> forM (build_step M k') ls st = Ok st' -> grown k st st'.
  Proof.
    intros hls e. apply (forM_keeps _ (grown k st) _ _ e).
    - split; [exists []; rewrite app_nil_r; reflexivity|]. split; [left; reflexivity|]. split; [reflexivity|]. eauto.
    - intros t l c hl (g1 & g0 & g2 & g3) es. destruct c as [t'|t']; [|apply build_step_break in es; subst; split; auto].
      destruct (build_step_next _ _ _ es) as ((m & m1) & m2 & m3). destruct g1 as (tl & g1). split; [|split; [|split]].
      + exists (tl ++ [m]). rewrite m1, g1, app_assoc. reflexivity.
      + right. rewrite m1, g1, !app_length. cbn. lia.
      + congruence.
      + intros o r' ho. destruct (m3 o r' ho) as (r & hr & hd). destruct (g3 o r hr) as (r0 & hr0 & hd0). exists r0. split; [exact hr0|].
        destruct hd as [hd|hd]; [rewrite hd; exact hd0|right; exists l; auto].
  Qed.

  Lemma build_nested k k' st' : 1 <= k <= k' -> 1 <= mlen M -> pam_build_initialize (Lt := Lt) M k' = Ok st' ->
    exists st, pam_build_initialize M k = Ok st /\ grown k st st' /\ length (b_data st) = mlen M /\
      (st = st' /\ length (b_meds st) <= k \/ length (b_meds st) = k).
  Proof.
    intros hk hn. unfold pam_build_initialize. rewrite (build_first_k k' k hn). intros e.
    apply bind_Ok in e as (sq & -> & e). cbn [bind]. apply bind_Ok in e as (u & -> & e). cbn [bind].
    apply bind_Ok in e as (best & -> & e). cbn [bind]. apply bind_Ok in e as (data & ed & e). rewrite ed. cbn [bind].
    destruct (mapM_Ok _ _ ed) as [hl _]. rewrite seq_length in hl.
    set (s0 := mkB [snd best] data (fst best)) in *.
    assert (hsame : forall ls, forM (build_step M k) ls s0 = forM (build_step M k') ls s0).
    { intros ls. apply forM_same with (R := fun st => length (b_data st) = mlen M); [exact hl| |].
      - intros t a ht. apply build_step_k. lia.
      - intros t a t' ht et. destruct (build_step_next _ _ _ et) as (_ & h2 & _). lia. }
    replace (seq 1 (k' - 1)) with (seq 1 (k - 1) ++ seq k (k' - k)) in e.
    2: { replace (k' - 1) with ((k - 1) + (k' - k)) by lia. rewrite seq_app. f_equal. f_equal. lia. }
    apply forM_app in e as (st & e1 & hst). exists st. rewrite hsame. split; [exact e1|].
    assert (hd : length (b_data st) = mlen M /\ length (b_meds st) <= k).
    { assert (g : grown 1 s0 st) by (refine (@steps_grown 1 k' (seq 1 (k - 1)) s0 st _ e1); intros l hin; apply in_seq in hin; lia).
      destruct g as (_ & _ & g2 & _). split; [rewrite g2; exact hl|].
      assert (G : forall ls s t, forM (build_step M k') ls s = Ok t -> length (b_meds t) <= length (b_meds s) + length ls).
      { clear. induction ls as [|l ls IH]; cbn [forM]; intros s t e; [injection e as <-; lia|].
        apply bind_Ok in e as (c & e1 & e). destruct c as [u|u].
        - destruct (build_step_next _ _ _ e1) as ((m & hm) & _). apply IH in e. rewrite hm, app_length in e. cbn in *. lia.
        - apply build_step_break in e1. injection e as <-. subst. cbn. lia. }
      apply G in e1. cbn [s0 b_meds length] in e1. rewrite seq_length in e1. lia. }
    destruct hst as [->|[e2 hI]].
    - split; [refine (@steps_grown k k' [] st' st' _ eq_refl); intros l []|]. split; [apply hd|]. left. split; [reflexivity|apply hd].
    - split; [refine (@steps_grown k k' (seq k (k' - k)) st st' _ e2); intros l hin; apply in_seq in hin; lia|].
      split; [apply hd|]. right. specialize (hI (fun i t => length (b_meds t) = 1 + i)). cbn beta in hI. rewrite hI, seq_length; [lia|reflexivity|].
      intros i a t t' ht et. destruct (build_step_next _ _ _ et) as ((m & hm) & _). rewrite hm, app_length. cbn. lia.
  Qed.

  (** *** PAMMEDSIL's BUILD *)
  Lemma best_or_default k k' (dn : list Nt) l b : build_next (Lt := Lt) M k dn l = Ok b ->
    exists b', build_next M k' dn l = Ok b' /\ (b' = b \/ fst b = lzero /\ fst b' = lzero).
  Proof.
    unfold build_next. assert (G : forall l b1 b2 b, b2 = b1 \/ fst b1 = (lzero : Lt) /\ fst b2 = lzero ->
      foldM (fun best i => sum <- build_next_sum M dn i ;; Ok (if (i =? 0) || lltb sum (fst best) then (sum, i) else best)) l b1 = Ok b ->
      exists b', foldM (fun best i => sum <- build_next_sum M dn i ;; Ok (if (i =? 0) || lltb sum (fst best) then (sum, i) else best)) l b2 = Ok b' /\
        (b' = b \/ fst b = lzero /\ fst b' = lzero)).
    { clear. induction l as [|i l IH]; cbn [foldM]; intros b1 b2 b h e; [injection e as <-; eauto|].
      apply bind_Ok in e as (c & e1 & e). apply bind_Ok in e1 as (sum & es & e1). injection e1 as <-. rewrite es. cbn [bind].
      assert (hf : fst b2 = fst b1) by (destruct h as [->|[h1 h2]]; congruence). rewrite hf.
      revert e. apply IH. destruct ((i =? 0) || lltb sum (fst b1)); auto. }
    intros e. apply (G l (lzero, k) (lzero, k') b); auto.
  Qed.

  Lemma build3_step_k k k' (st : b3st Nt Lt) l c : lleb (lzero : Lt) lzero = true -> build3_step M k st l = Ok c -> build3_step M k' st l = Ok c.
  Proof.
    intros hz e. unfold build3_step in *. apply bind_Ok in e as (b & eb & e).
    destruct (best_or_default k k' _ _ eb) as (b' & -> & hb). cbn [bind].
    destruct hb as [->|[h1 h2]]; [exact e|]. rewrite h1, hz in e. rewrite h2, hz. exact e.
  Qed.
  Lemma build3_steps_k k k' ls (st st' : b3st Nt Lt) : lleb (lzero : Lt) lzero = true ->
    forM (build3_step M k) ls st = Ok st' -> forM (build3_step M k') ls st = Ok st'.
  Proof.
    intros hz. revert st. induction ls as [|l ls IH]; cbn [forM]; intros st e; [exact e|].
    apply bind_Ok in e as (c & e1 & e). rewrite (build3_step_k k k' st l hz e1). cbn [bind]. destruct c; auto.
  Qed.
  Lemma build3_step_next k (st : b3st Nt Lt) l st' : build3_step M k st l = Ok (Next st') ->
    (exists m, b3_meds st' = b3_meds st ++ [m]) /\ length (b3_data st') = length (b3_data st) /\
    forall o r', nth_error (b3_data st') o = Some r' -> exists r, nth_error (b3_data st) o = Some r /\
      (di (near3 r') = di (near3 r) \/ di (near3 r') = Some l).
  Proof.
    unfold build3_step. intros e. apply bind_Ok in e as (best & e1 & e). destruct (lleb lzero (fst best)); [discriminate e|].
    apply bind_Ok in e as (rs & e2 & e). injection e as <-. cbn [b3_meds b3_data]. split; [eauto|].
    destruct (mapM_Ok _ _ e2) as [h1 h2]. rewrite length_enum in h1. split; [rewrite map_length; exact h1|].
    intros o r' ho. rewrite nth_error_map in ho. destruct (nth_error rs o) as [b|] eqn:eb; [|discriminate ho]. cbn in ho. injection ho as <-.
    assert (hlt : o < length (b3_data st)) by (rewrite <- h1; apply nth_error_Some; congruence).
    destruct (nth_error (b3_data st) o) as [r|] eqn:er; [|apply nth_error_None in er; lia]. exists r. split; [reflexivity|].
    assert (hen : nth_error (enum (b3_data st)) o = Some (o, r)) by (rewrite nth_error_enum, er; reflexivity).
    destruct (h2 o (o, r) hen) as (b' & eb' & hf). rewrite eb in eb'. injection eb' as <-.
    unfold build3_upd_obj in hf. apply bind_Ok in hf as (r1 & hr & hf). injection hf as <-. cbn [fst].
    destruct (o =? snd best); [injection hr as <-; right; reflexivity|].
    apply bind_Ok in hr as (dj & _ & hr). injection hr as <-.
    destruct (nltb dj (dd (near3 r))); [right; reflexivity|].
    destruct (is_marker (di (seco3 r)) || nltb dj (dd (seco3 r))); [left; reflexivity|].
    destruct (is_marker (di (third3 r)) || nltb dj (dd (third3 r))); left; reflexivity.
  Qed.
  Lemma build3_step_break k (st : b3st Nt Lt) l st' : build3_step M k st l = Ok (Break st') -> st' = st.
  Proof.
    unfold build3_step. intros e. apply bind_Ok in e as (best & e1 & e). destruct (lleb lzero (fst best)); [injection e as <-; reflexivity|].
    apply bind_Ok in e as (rs & e2 & e). discriminate e.
  Qed.
  Definition grown3 (k : nat) (st st' : b3st Nt Lt) : Prop :=
    (exists t, b3_meds st' = b3_meds st ++ t) /\ (st' = st \/ length (b3_meds st) < length (b3_meds st')) /\
    length (b3_data st') = length (b3_data st) /\
    forall o r', nth_error (b3_data st') o = Some r' -> exists r, nth_error (b3_data st) o = Some r /\
      (di (near3 r') = di (near3 r) \/ exists l, di (near3 r') = Some l /\ k <= l).
  Lemma steps_grown3 k k' ls (st st' : b3st Nt Lt) : (forall l, In l ls -> k <= l) -> forM (build3_step M k') ls st = Ok st' -> grown3 k st st'.
  Proof.
    intros hls e. apply (forM_keeps _ (grown3 k st) _ _ e).
    - split; [exists []; rewrite app_nil_r; reflexivity|]. split; [left; reflexivity|]. split; [reflexivity|]. eauto.
    - intros t l c hl (g1 & g0 & g2 & g3) es. destruct c as [t'|t']; [|apply build3_step_break in es; subst; split; auto].
      destruct (build3_step_next _ _ _ es) as ((m & m1) & m2 & m3). destruct g1 as (tl & g1). split; [|split; [|split]].
      + exists (tl ++ [m]). rewrite m1, g1, app_assoc. reflexivity.
      + right. rewrite m1, g1, !app_length. cbn. lia.
      + congruence.
      + intros o r' ho. destruct (m3 o r' ho) as (r & hr & hd). destruct (g3 o r hr) as (r0 & hr0 & hd0). exists r0. split; [exact hr0|].
        destruct hd as [hd|hd]; [rewrite hd; exact hd0|right; exists l; auto].
  Qed.
  Lemma build3_nested k k' st' : lleb (lzero : Lt) lzero = true -> 1 <= k <= k' -> 1 <= mlen M ->
    pammedsil_build_initialize (Lt := Lt) M k' = Ok st' ->
    exists st, pammedsil_build_initialize M k = Ok st /\ grown3 k st st' /\ length (b3_data st) = mlen M /\
      (st = st' /\ length (b3_meds st) <= k \/ length (b3_meds st) = k).
  Proof.
    intros hz hk hn. unfold pammedsil_build_initialize. rewrite (build_first_k k' k hn). intros e.
    apply bind_Ok in e as (best & -> & e). cbn [bind]. apply bind_Ok in e as (data & ed & e). rewrite ed. cbn [bind].
    destruct (mapM_Ok _ _ ed) as [hl _]. rewrite seq_length in hl.
    set (s0 := mkB3 [snd best] data (fst best)) in *.
    replace (seq 1 (k' - 1)) with (seq 1 (k - 1) ++ seq k (k' - k)) in e.
    2: { replace (k' - 1) with ((k - 1) + (k' - k)) by lia. rewrite seq_app. f_equal. f_equal. lia. }
    apply forM_app in e as (st & e1 & hst). exists st. split; [apply (build3_steps_k k' k _ _ hz e1)|].
    assert (hd : length (b3_data st) = mlen M /\ length (b3_meds st) <= k).
    { assert (g : grown3 1 s0 st) by (refine (@steps_grown3 1 k' (seq 1 (k - 1)) s0 st _ e1); intros l hin; apply in_seq in hin; lia).
      destruct g as (_ & _ & g2 & _). split; [rewrite g2; exact hl|].
      assert (G : forall ls s t, forM (build3_step M k') ls s = Ok t -> length (b3_meds t) <= length (b3_meds s) + length ls).
      { clear. induction ls as [|l ls IH]; cbn [forM]; intros s t e; [injection e as <-; lia|].
        apply bind_Ok in e as (c & e1 & e). destruct c as [u|u].
        - destruct (build3_step_next _ _ _ e1) as ((m & hm) & _). apply IH in e. rewrite hm, app_length in e. cbn in *. lia.
        - apply build3_step_break in e1. injection e as <-. subst. cbn. lia. }
      apply G in e1. cbn [s0 b3_meds length] in e1. rewrite seq_length in e1. lia. }
    destruct hst as [->|[e2 hI]].
    - split; [refine (@steps_grown3 k k' [] st' st' _ eq_refl); intros l []|]. split; [apply hd|]. left. split; [reflexivity|apply hd].
    - split; [refine (@steps_grown3 k k' (seq k (k' - k)) st st' _ e2); intros l hin; apply in_seq in hin; lia|].
      split; [apply hd|]. right. specialize (hI (fun i t => length (b3_meds t) = 1 + i)). cbn beta in hI. rewrite hI, seq_length; [lia|reflexivity|].
      intros i a t t' ht et. destruct (build3_step_next _ _ _ et) as ((m & hm) & _). rewrite hm, app_length. cbn. lia.
  Qed.

  (** *** PAMSIL's BUILD *)
  Lemma pamsil_step k (st st' : list nat * list Nt) l : pamsil_build_step (Lt := Lt) M k st l = Ok st' ->
    (exists m, fst st' = fst st ++ [m]) /\ length (snd st') = length (snd st).
  Proof.
    unfold pamsil_build_step. destruct st as [meds data]. intros e. apply bind_Ok in e as (best & e1 & e).
    apply bind_Ok in e as (u & _ & e). apply bind_Ok in e as (d' & e2 & e). injection e as <-. cbn [fst snd]. split; [eauto|].
    destruct (mapM_Ok _ _ e2) as [h _]. rewrite length_enum in h. exact h.
  Qed.
  Lemma pamsil_steps_k k k' ls (st st' : list nat * list Nt) : 1 <= length (snd st) ->
    foldM (pamsil_build_step (Lt := Lt) M k) ls st = Ok st' -> foldM (pamsil_build_step (Lt := Lt) M k') ls st = Ok st'.
  Proof.
    revert st. induction ls as [|l ls IH]; cbn [foldM]; intros st hl e; [exact e|].
    apply bind_Ok in e as (t & e1 & e). pose proof (pamsil_step _ _ _ e1) as [_ hlen].
    assert (e2 : pamsil_build_step (Lt := Lt) M k' st l = Ok t).
    { rewrite <- e1. unfold pamsil_build_step. destruct st as [meds data]. cbn [snd] in hl.
      destruct (enum_zero _ hl) as (l' & ->). rewrite (build_next_k k' k). reflexivity. }
    rewrite e2. cbn [bind]. apply IH; [lia|exact e].
  Qed.
  Lemma pamsil_steps_grow k ls (st st' : list nat * list Nt) : foldM (pamsil_build_step (Lt := Lt) M k) ls st = Ok st' ->
    (exists t, fst st' = fst st ++ t) /\ length (fst st') = length (fst st) + length ls.
  Proof.
    revert st. induction ls as [|l ls IH]; cbn [foldM]; intros st e.
    - injection e as <-. split; [exists []; rewrite app_nil_r; reflexivity|cbn; lia].
    - apply bind_Ok in e as (t & e1 & e). destruct (pamsil_step _ _ _ e1) as [(m & hm) _]. destruct (IH t e) as [(tl & h1) h2].
      split; [exists (m :: tl); rewrite h1, hm, <- app_assoc; reflexivity|]. rewrite h2, hm, app_length. cbn. lia.
  Qed.
  Lemma pamsil_nested k k' meds' : 1 <= k <= k' -> 1 <= mlen M -> pamsil_build_initialize (Lt := Lt) M k' = Ok meds' ->
    length meds' = k' /\ pamsil_build_initialize (Lt := Lt) M k = Ok (firstn k meds').
  Proof.
    intros hk hn. unfold pamsil_build_initialize. rewrite (build_first_k k' k hn). intros e.
    apply bind_Ok in e as (best & -> & e). cbn [bind]. apply bind_Ok in e as (data & ed & e). rewrite ed. cbn [bind].
    destruct (mapM_Ok _ _ ed) as [hl _]. rewrite seq_length in hl. apply bind_Ok in e as ([ms da] & e & e'). injection e' as <-.
    pose proof (pamsil_steps_grow _ _ _ e) as [_ hlen]. cbn [fst length] in hlen. rewrite seq_length in hlen. split; [lia|].
    replace (seq 1 (k' - 1)) with (seq 1 (k - 1) ++ seq k (k' - k)) in e.
    2: { replace (k' - 1) with ((k - 1) + (k' - k)) by lia. rewrite seq_app. f_equal. f_equal. lia. }
    rewrite foldM_app in e. apply bind_Ok in e as ([m1 d1] & e1 & e2).
    assert (hd : 1 <= length (snd ([snd best], data))) by (cbn [snd]; lia). rewrite (pamsil_steps_k _ k _ _ hd e1). cbn [bind]. f_equal.
    destruct (pamsil_steps_grow _ _ _ e1) as [_ h1]. destruct (pamsil_steps_grow _ _ _ e2) as [(t & h2) _]. cbn [fst length] in *.
    rewrite seq_length in h1. subst ms. rewrite firstn_app. replace (k - length m1) with 0 by lia. rewrite firstn_O, app_nil_r.
    symmetry. apply firstn_all2. lia.
  Qed.
End Nested.
