(** IterLimit.v -- what the iteration limit does: a run with a smaller limit is the beginning of one with a larger limit.  For every
    numeric type, without any law, and for every matrix. *)
From Verif Require Import Base Num M_Mat M_Util M_Fasterpam M_Pam M_Alternating M_ParFasterpam M_Silhouette M_Msc M_Pammedsil M_Pamsil M_Dynmsc Hoare.
Set Implicit Arguments.
Open Scope nat_scope.

(** the state inside [Next] or [Break] *)
Definition state_of {S} (c : ctl S) : S := match c with Next s => s | Break s => s end.

Section Cut.
  Variables (T : Type) (f : T -> res (ctl T)) (it sw : T -> nat).
  Hypothesis Step : forall s c, f s = Ok c -> it (state_of c) = S (it s) /\ sw s <= sw (state_of c).

  Lemma while_iter m : forall s s', whileM m f s = Ok s' -> it s <= it s' <= it s + m /\ sw s <= sw s'.
  Proof.
    induction m as [|m IH]; intros s s' e; cbn [whileM] in e; [injection e as <-; lia|].
    apply bind_ok in e as (c & ec & e). apply Step in ec. destruct c as [s1|s1]; cbn [state_of] in ec.
    - apply IH in e. lia.
    - injection e as <-. lia.
  Qed.

  Lemma while_stop m : forall m' s s', whileM m f s = Ok s' -> it s' < it s + m -> m <= m' -> whileM m' f s = Ok s'.
  Proof.
    induction m as [|m IH]; intros m' s s' e hlt hm; [exfalso; cbn [whileM] in e; injection e as <-; lia|].
    destruct m' as [|m']; [lia|]. cbn [whileM] in e |- *. apply bind_ok in e as (c & ec & e). rewrite ec. cbn [bind].
    apply Step in ec. destruct c as [s1|s1]; cbn [state_of] in ec; [|exact e]. apply (IH m' _ _ e); lia.
  Qed.

  Lemma while_cut m : forall m' s s', m <= m' -> whileM m' f s = Ok s' -> exists s1, whileM m f s = Ok s1 /\
    (s1 = s' \/ (it s1 = it s + m /\ it s1 < it s' /\ sw s1 <= sw s')).
  Proof.
    induction m as [|m IH]; intros m' s s' hm e.
    - exists s. split; [reflexivity|]. destruct m' as [|m']; cbn [whileM] in e; [left; congruence|right].
      apply bind_ok in e as (c & ec & e). apply Step in ec. destruct c as [s1|s1]; cbn [state_of] in ec.
      + apply while_iter in e. lia.
      + injection e as <-. lia.
    - destruct m' as [|m']; [lia|]. cbn [whileM] in e |- *. apply bind_ok in e as (c & ec & e). rewrite ec. cbn [bind].
      apply Step in ec. destruct c as [s1|s1]; cbn [state_of] in ec.
      + destruct (IH m' s1 s' ltac:(lia) e) as (s2 & e2 & h). exists s2. split; [exact e2|]. destruct h as [h|h]; [auto|right; lia].
      + exists s1. split; [reflexivity|]. left. congruence.
  Qed.
End Cut.

Lemma forM_rel A T (R : T -> T -> Prop) (body : T -> A -> res (ctl T)) l :
  (forall s, R s s) -> (forall s1 s2 s3, R s1 s2 -> R s2 s3 -> R s1 s3) ->
  (forall s a c, body s a = Ok c -> R s (state_of c)) -> forall s s', forM body l s = Ok s' -> R s s'.
Proof.
  intros hr ht hb. induction l as [|a l IH]; intros s s' e; cbn [forM] in e; [injection e as <-; auto|].
  apply bind_ok in e as (c & ec & e). apply hb in ec. destruct c as [s1|s1]; cbn [state_of] in ec.
  - apply (ht _ _ _ ec), IH, e.
  - injection e as <-. exact ec.
Qed.

(** follow the control flow of a computation which did not panic *)
Ltac flow e :=
  repeat first
    [ progress cbn [bind fst snd] in e
    | match type of e with
      | bind _ _ = Ok _ => let x := fresh "x" in let h := fresh "h" in apply bind_ok in e as (x & h & e)
      | (if ?b then _ else _) = Ok _ => destruct b
      | match ?x with _ => _ end = Ok _ => destruct x
      end
    | discriminate e ];
  try (injection e as <-).

Section Runs.
  Context {Nt Lt : Type} `{HN : NumN Nt} `{HL : NumL Lt} `{HF : FromN Nt Lt}.
  Variable M : Mat Nt.

  Lemma fp_cand_counts (st : fpst Nt Lt) j c : fp_cand M st j = Ok c ->
    fp_iter (state_of c) = fp_iter st /\ fp_swaps st <= fp_swaps (state_of c).
  Proof. unfold fp_cand. intros e. flow e; cbn; lia. Qed.

  Lemma fp_counts order (st : fpst Nt Lt) c : fp_iteration M order st = Ok c ->
    fp_iter (state_of c) = S (fp_iter st) /\ fp_swaps st <= fp_swaps (state_of c).
  Proof.
    unfold fp_iteration. intros e. apply bind_ok in e as (s & e1 & e).
    apply (@forM_rel _ _ (fun s1 s2 : fpst Nt Lt => fp_iter s2 = fp_iter s1 /\ fp_swaps s1 <= fp_swaps s2)) in e1;
      [|lia|lia|intros; eapply fp_cand_counts; eassumption].
    cbn in e1. flow e; cbn; lia.
  Qed.

  Lemma par_cand_counts orc (st : fpst Nt Lt) j c : par_cand M orc st j = Ok c ->
    fp_iter (state_of c) = fp_iter st /\ fp_swaps st <= fp_swaps (state_of c).
  Proof. unfold par_cand. intros e. flow e; cbn; lia. Qed.

  Lemma par_counts orc order (st : fpst Nt Lt) c : par_iteration M orc order st = Ok c ->
    fp_iter (state_of c) = S (fp_iter st) /\ fp_swaps st <= fp_swaps (state_of c).
  Proof.
    unfold par_iteration. intros e. apply bind_ok in e as (s & e1 & e).
    apply (@forM_rel _ _ (fun s1 s2 : fpst Nt Lt => fp_iter s2 = fp_iter s1 /\ fp_swaps s1 <= fp_swaps s2)) in e1;
      [|lia|lia|intros; eapply par_cand_counts; eassumption].
    cbn in e1. flow e; cbn; lia.
  Qed.

  Lemma swap_best_counts (st : pst Nt Lt) rl best c : swap_best M st rl best = Ok c ->
    p_iter (state_of c) = p_iter st /\ p_swaps st <= p_swaps (state_of c).
  Proof. unfold swap_best. intros e. flow e; cbn; lia. Qed.
  Lemma fastpam1_counts (st : pst Nt Lt) c : fastpam1_iteration M st = Ok c ->
    p_iter (state_of c) = S (p_iter st) /\ p_swaps st <= p_swaps (state_of c).
  Proof.
    unfold fastpam1_iteration. intros e. apply bind_ok in e as (rl & _ & e). apply bind_ok in e as (b & _ & e).
    apply swap_best_counts in e. exact e.
  Qed.
  Lemma pam_counts (st : pst Nt Lt) c : pam_iteration M st = Ok c ->
    p_iter (state_of c) = S (p_iter st) /\ p_swaps st <= p_swaps (state_of c).
  Proof.
    unfold pam_iteration. intros e. apply bind_ok in e as (b & _ & e). apply swap_best_counts in e. exact e.
  Qed.

  Lemma alt_counts (st : ast Lt) c : alt_iteration M st = Ok c -> al_iter (state_of c) = S (al_iter st) /\ 0 <= 0.
  Proof. unfold alt_iteration. intros e. flow e; cbn; lia. Qed.

  Lemma msc_cand_counts (st : mst Nt Lt) j c : msc_cand M st j = Ok c ->
    m_iter (state_of c) = m_iter st /\ m_swaps st <= m_swaps (state_of c).
  Proof. unfold msc_cand. intros e. flow e; cbn; lia. Qed.
  Lemma msc_counts (st : mst Nt Lt) c : msc_iteration M st = Ok c ->
    m_iter (state_of c) = S (m_iter st) /\ m_swaps st <= m_swaps (state_of c).
  Proof.
    unfold msc_iteration. intros e. apply bind_ok in e as (s & e1 & e).
    apply (@forM_rel _ _ (fun s1 s2 : mst Nt Lt => m_iter s2 = m_iter s1 /\ m_swaps s1 <= m_swaps s2)) in e1;
      [|lia|lia|intros; eapply msc_cand_counts; eassumption].
    cbn in e1. flow e; cbn; lia.
  Qed.
  Lemma k2_cand_counts (st : kst Nt Lt) j c : k2_cand M st j = Ok c ->
    k_iter (state_of c) = k_iter st /\ k_swaps st <= k_swaps (state_of c).
  Proof. unfold k2_cand. intros e. flow e; cbn; lia. Qed.
  Lemma k2_counts (st : kst Nt Lt) c : k2_iteration M st = Ok c ->
    k_iter (state_of c) = S (k_iter st) /\ k_swaps st <= k_swaps (state_of c).
  Proof.
    unfold k2_iteration. intros e. apply bind_ok in e as (s & e1 & e).
    apply (@forM_rel _ _ (fun s1 s2 : kst Nt Lt => k_iter s2 = k_iter s1 /\ k_swaps s1 <= k_swaps s2)) in e1;
      [|lia|lia|intros; eapply k2_cand_counts; eassumption].
    cbn in e1. flow e; cbn; lia.
  Qed.
  Lemma fastmsc_k2_counts (st : kst Nt Lt) c : fastmsc_k2_iteration M st = Ok c ->
    k_iter (state_of c) = S (k_iter st) /\ k_swaps st <= k_swaps (state_of c).
  Proof. unfold fastmsc_k2_iteration. intros e. flow e; cbn; lia. Qed.
  Lemma swap_best3_counts (st : mst Nt Lt) rl best c : swap_best3 M st rl best = Ok c ->
    m_iter (state_of c) = m_iter st /\ m_swaps st <= m_swaps (state_of c).
  Proof. unfold swap_best3. intros e. flow e; cbn; lia. Qed.
  Lemma fastmsc_counts (st : mst Nt Lt) c : fastmsc_iteration M st = Ok c ->
    m_iter (state_of c) = S (m_iter st) /\ m_swaps st <= m_swaps (state_of c).
  Proof.
    unfold fastmsc_iteration. intros e. apply bind_ok in e as (rl & _ & e). apply bind_ok in e as (b & _ & e).
    apply swap_best3_counts in e. exact e.
  Qed.
  Lemma pms_counts (st : mst Nt Lt) c : pms_iteration M st = Ok c ->
    m_iter (state_of c) = S (m_iter st) /\ m_swaps st <= m_swaps (state_of c).
  Proof.
    unfold pms_iteration. intros e. apply bind_ok in e as (b & _ & e). apply swap_best3_counts in e. exact e.
  Qed.
  Lemma pamsil_counts (st : pslst Lt) c : pamsil_iteration M st = Ok c ->
    pl_iter (state_of c) = S (pl_iter st) /\ pl_swaps st <= pl_swaps (state_of c).
  Proof. unfold pamsil_iteration. intros e. flow e; cbn; lia. Qed.

  (** ** whole runs *)
  Definition cuts_off (run : nat -> res (pam_result Lt)) : Prop := forall m m' r', m <= m' -> run m' = Ok r' ->
    exists r, run m = Ok r /\ (r = r' \/ (r_iter r = m /\ m < r_iter r' /\ r_swaps r <= r_swaps r')).
  Definition stops_at (run : nat -> res (pam_result Lt)) : Prop := forall m m' r, run m = Ok r -> r_iter r < m -> m <= m' ->
    run m' = Ok r.
  Definition limits run := cuts_off run /\ stops_at run.

  Lemma limits_const r : limits (fun _ => r).
  Proof.
    split; [intros m m' r' _ e; exists r'; auto|intros m m' p e _ _; exact e].
  Qed.
  Lemma limits_ext run run' : (forall m, run m = run' m) -> limits run' -> limits run.
  Proof.
    intros h [h1 h2]. split.
    - intros m m' r' hm e. rewrite h in e. destruct (h1 _ _ _ hm e) as (r & e1 & h3). exists r. rewrite h. auto.
    - intros m m' r e. rewrite h in e |- *. apply h2. exact e.
  Qed.
  Lemma limits_bind A (x : res A) (run : A -> nat -> res (pam_result Lt)) : (forall a, limits (run a)) -> limits (fun m => bind x (fun a => run a m)).
  Proof.
    intros h. destruct x as [a|p]; cbn [bind]; [apply h|]. split; [intros m m' r' _ e; discriminate|intros m m' r e; discriminate].
  Qed.
  Lemma limits_if (b : bool) run1 run2 : limits run1 -> limits run2 -> limits (fun m => if b then run1 m else run2 m).
  Proof. intros h1 h2. destruct b; assumption. Qed.
  Lemma limits_while T (f : T -> res (ctl T)) (it sw : T -> nat) s0 (out : T -> pam_result Lt) :
    (forall s c, f s = Ok c -> it (state_of c) = S (it s) /\ sw s <= sw (state_of c)) -> it s0 = 0 ->
    (forall s, r_iter (out s) = it s /\ r_swaps (out s) = sw s) ->
    limits (fun m => bind (whileM m f s0) (fun st => Ok (out st))).
  Proof.
    intros hf h0 ho. split.
    - intros m m' r' hm e. apply bind_ok in e as (s' & e & er). injection er as <-.
      destruct (@while_cut _ f it sw hf m m' s0 s' hm e) as (s1 & e1 & h). exists (out s1). rewrite e1. split; [reflexivity|].
      destruct h as [->|h]; [auto|right]. rewrite !(proj1 (ho _)), !(proj2 (ho _)). lia.
    - intros m m' r e hlt hm. apply bind_ok in e as (s & e & er). injection er as <-. rewrite (proj1 (ho _)) in hlt.
      rewrite (@while_stop _ f it sw hf m m' s0 s e ltac:(lia) hm). reflexivity.
  Qed.

  Lemma fasterpam_order_limits order med : limits (fasterpam_order M order med).
  Proof.
    unfold fasterpam_order. apply limits_if; [apply limits_const|]. apply limits_bind. intros [loss data]. apply limits_bind. intros rl.
    apply limits_while with (it := @fp_iter Nt Lt) (sw := @fp_swaps Nt Lt); [intros; eapply fp_counts; eassumption|reflexivity|auto].
  Qed.
  Lemma par_limits orc order med : limits (par_fasterpam M orc order med).
  Proof.
    unfold par_fasterpam. apply limits_if; [apply limits_const|]. apply limits_bind. intros [loss data]. apply limits_bind. intros rl.
    apply limits_while with (it := @fp_iter Nt Lt) (sw := @fp_swaps Nt Lt); [intros; eapply par_counts; eassumption|reflexivity|auto].
  Qed.
  Lemma fastpam1_limits med : limits (fastpam1 M med).
  Proof.
    unfold fastpam1. apply limits_if; [apply limits_const|]. apply limits_bind. intros [loss data].
    apply limits_while with (it := @p_iter Nt Lt) (sw := @p_swaps Nt Lt); [intros; eapply fastpam1_counts; eassumption|reflexivity|auto].
  Qed.
  Lemma pam_optimize_limits med data loss : limits (fun m => pam_optimize M med data m loss).
  Proof.
    unfold pam_optimize. apply limits_if; [apply limits_const|].
    apply limits_while with (it := @p_iter Nt Lt) (sw := @p_swaps Nt Lt); [intros; eapply pam_counts; eassumption|reflexivity|auto].
  Qed.
  Lemma pam_swap_limits med : limits (pam_swap M med).
  Proof. unfold pam_swap. apply limits_bind. intros [loss data]. apply pam_optimize_limits. Qed.
  Lemma pam_limits k : limits (pam M k).
  Proof. unfold pam. apply limits_bind. intros _. apply limits_bind. intros st. apply pam_optimize_limits. Qed.
  Lemma alternating_limits med : limits (alternating M med).
  Proof.
    unfold alternating. apply limits_bind. intros [loss assi].
    apply limits_while with (it := @al_iter Lt) (sw := fun _ => 0); [intros; eapply alt_counts; eassumption|reflexivity|auto].
  Qed.
  Lemma fastermsc_limits med : limits (fastermsc M med).
  Proof.
    unfold fastermsc. apply limits_if; [apply limits_const|]. apply limits_if.
    - unfold fastermsc_k2. apply limits_bind. intros _. apply limits_bind. intros [[loss assi] data].
      apply limits_while with (it := @k_iter Nt Lt) (sw := @k_swaps Nt Lt); [intros; eapply k2_counts; eassumption|reflexivity|auto].
    - apply limits_bind. intros [loss data]. apply limits_bind. intros rl.
      apply limits_while with (it := @m_iter Nt Lt) (sw := @m_swaps Nt Lt); [intros; eapply msc_counts; eassumption|reflexivity|auto].
  Qed.
  Lemma fastmsc_limits med : limits (fastmsc M med).
  Proof.
    unfold fastmsc. apply limits_if; [apply limits_const|]. apply limits_if.
    - unfold fastmsc_k2. apply limits_bind. intros _. apply limits_bind. intros [[loss assi] data].
      apply limits_while with (it := @k_iter Nt Lt) (sw := @k_swaps Nt Lt); [intros; eapply fastmsc_k2_counts; eassumption|reflexivity|auto].
    - apply limits_bind. intros [loss data].
      apply limits_while with (it := @m_iter Nt Lt) (sw := @m_swaps Nt Lt); [intros; eapply fastmsc_counts; eassumption|reflexivity|auto].
  Qed.
  Lemma pammedsil_optimize_limits med data loss : limits (fun m => pammedsil_optimize M med data m loss).
  Proof.
    unfold pammedsil_optimize. apply limits_if; [apply limits_const|].
    apply limits_while with (it := @m_iter Nt Lt) (sw := @m_swaps Nt Lt); [intros; eapply pms_counts; eassumption|reflexivity|auto].
  Qed.
  Lemma pammedsil_swap_limits med : limits (pammedsil_swap M med).
  Proof. unfold pammedsil_swap. apply limits_bind. intros [loss data]. apply pammedsil_optimize_limits. Qed.
  Lemma pammedsil_limits k : limits (pammedsil M k).
  Proof. unfold pammedsil. apply limits_bind. intros _. apply limits_bind. intros st. apply pammedsil_optimize_limits. Qed.

  (** pamsil assigns the objects to the final medoids after the loop, so that the runs with different limits end differently *)
  Definition compares (run : nat -> res (pam_result Lt)) : Prop := forall m m' r r', m <= m' -> run m = Ok r -> run m' = Ok r' ->
    r = r' \/ (r_iter r = m /\ m < r_iter r' /\ r_swaps r <= r_swaps r').
  Lemma compares_bind A (x : res A) (run : A -> nat -> res (pam_result Lt)) :
    (forall a, compares (run a) /\ stops_at (run a)) -> compares (fun m => bind x (fun a => run a m)) /\ stops_at (fun m => bind x (fun a => run a m)).
  Proof.
    intros h. destruct x as [a|p]; cbn [bind]; [apply h|]. split; [intros m m' r r' _ e; discriminate|intros m m' r e; discriminate].
  Qed.
  Lemma pamsil_optimize_limits med assi : compares (pamsil_optimize M med assi) /\ stops_at (pamsil_optimize M med assi).
  Proof.
    unfold pamsil_optimize. destruct (length med =? 1).
    - split; [intros m m' r r' _ e e'; left; congruence|intros m m' p e _ _; exact e].
    - apply compares_bind. intros [sil x]. split.
      + intros m m' r r' hm e e'. apply bind_ok in e as (s & e & er). apply bind_ok in e' as (s' & e' & er').
        destruct (@while_cut _ _ (@pl_iter Lt) (@pl_swaps Lt) pamsil_counts m m' _ _ hm e') as (s1 & e1 & h).
        rewrite e in e1. injection e1 as <-. destruct h as [->|h]; [left; congruence|right].
        flow er. flow er'. cbn in *. lia.
      + intros m m' r e hlt hm. apply bind_ok in e as (s & e & er).
        rewrite (@while_stop _ _ (@pl_iter Lt) (@pl_swaps Lt) pamsil_counts m m' _ _ e); [exact er| |exact hm].
        clear - er hlt. flow er. cbn in *. exact hlt.
  Qed.
  Lemma pamsil_swap_limits med : compares (pamsil_swap M med) /\ stops_at (pamsil_swap M med).
  Proof. unfold pamsil_swap. apply compares_bind. intros [l assi]. apply pamsil_optimize_limits. Qed.
  Lemma pamsil_limits k : compares (pamsil M k) /\ stops_at (pamsil M k).
  Proof. unfold pamsil. apply compares_bind. intros _. apply compares_bind. intros meds. apply pamsil_optimize_limits. Qed.

  (** ** DynMSC: the limit holds for every number of medoids, the iterations are counted together *)
  Lemma fastermsc_k2_limits med : limits (fastermsc_k2 M med).
  Proof.
    unfold fastermsc_k2. apply limits_bind. intros _. apply limits_bind. intros [[loss assi] data].
    apply limits_while with (it := @k_iter Nt Lt) (sw := @k_swaps Nt Lt); [intros; eapply k2_counts; eassumption|reflexivity|auto].
  Qed.

  Lemma dyn_round_stop mk m m' (st : dst Nt Lt) c : dyn_round M mk m st = Ok c -> y_iter (state_of c) < m -> m <= m' ->
    dyn_round M mk m' st = Ok c.
  Proof.
    unfold dyn_round. destruct (negb ((3 <=? length (y_med st)) && (mk <=? length (y_med st)))); [auto|]. intros e hlt hm.
    apply bind_ok in e as (rl & e1 & e). rewrite e1. cbn [bind]. apply bind_ok in e as (s & e2 & e).
    assert (hs : m_iter s < m).
    { destruct (upd (y_losses st) (length (y_med st) - mk) (to_silhouette M (m_loss s))) as [ls|]; cbn [bind] in e; [|discriminate].
      destruct (snd (min_removal (m_rl s))) as [b|]; [|discriminate].
      apply bind_ok in e as ([[md dt] l] & _ & e). injection e as <-. cbn in hlt. lia. }
    rewrite (@while_stop _ (msc_iteration M) (@m_iter Nt Lt) (@m_swaps Nt Lt) msc_counts m m' _ _ e2 hs hm). exact e.
  Qed.
  Lemma dyn_round_iter mk m (st : dst Nt Lt) c : dyn_round M mk m st = Ok c -> y_iter st <= y_iter (state_of c).
  Proof.
    unfold dyn_round. destruct (negb ((3 <=? length (y_med st)) && (mk <=? length (y_med st)))); [intros [= <-]; cbn; lia|]. intros e.
    flow e; cbn; lia.
  Qed.
  Lemma dyn_while_iter mk m k : forall (st st' : dst Nt Lt), whileM k (dyn_round M mk m) st = Ok st' -> y_iter st <= y_iter st'.
  Proof.
    induction k as [|k IH]; intros st st' e; cbn [whileM] in e; [injection e as <-; lia|].
    apply bind_ok in e as (c & ec & e). apply dyn_round_iter in ec. destruct c as [s|s]; cbn [state_of] in ec.
    - apply IH in e. lia.
    - injection e as <-. exact ec.
  Qed.
  Lemma dyn_while_stop mk m m' k : m <= m' -> forall (st st' : dst Nt Lt), whileM k (dyn_round M mk m) st = Ok st' -> y_iter st' < m ->
    whileM k (dyn_round M mk m') st = Ok st'.
  Proof.
    intros hm. induction k as [|k IH]; intros st st' e hlt; [exact e|]. cbn [whileM] in e |- *.
    apply bind_ok in e as (c & ec & e).
    assert (hc : y_iter (state_of c) < m).
    { destruct c as [s|s]; cbn [state_of]; [apply dyn_while_iter in e; lia|injection e as <-; exact hlt]. }
    rewrite (@dyn_round_stop mk m m' st c ec hc hm). cbn [bind]. destruct c as [s|s]; [apply IH; assumption|exact e].
  Qed.

  Lemma dynmsc_stop med mink m m' (r : dyn_result Lt) : dynmsc M med mink m = Ok r -> r_iter (d_res r) < m -> m <= m' ->
    dynmsc M med mink m' = Ok r.
  Proof.
    unfold dynmsc. destruct (length med =? 1); [auto|]. intros e hlt hm.
    apply bind_ok in e as ([loss data] & e1 & e). rewrite e1. cbn [bind].
    apply bind_ok in e as (st & e2 & e). apply bind_ok in e as (st2 & e3 & e). apply bind_ok in e as (ls & e4 & e).
    injection e as <-. cbn [d_res r_iter] in hlt.
    destruct (Nat.min (Nat.max mink 1) (length med) <=? 2) eqn:eb.
    - apply bind_ok in e3 as (p & e5 & e3). apply bind_ok in e3 as (ls2 & e6 & e3). injection e3 as <-. cbn [y_iter] in hlt.
      rewrite (dyn_while_stop _ _ hm _ e2 ltac:(lia)). cbn [bind].
      rewrite (proj2 (fastermsc_k2_limits (y_med st)) m m' p e5 ltac:(lia) hm). cbn [bind]. rewrite e6. cbn [bind]. rewrite e4. reflexivity.
    - injection e3 as <-. rewrite (dyn_while_stop _ _ hm _ e2 hlt). cbn [bind]. rewrite e4. reflexivity.
  Qed.
End Runs.
