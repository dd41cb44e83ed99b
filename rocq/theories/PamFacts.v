(** PamFacts.v -- fastpam1 and the swap phase of pam. *)
From Coq Require Import ZArith QArith Lqa Lia.
From Verif Require Import Base Num M_Mat M_Util M_Fasterpam M_Pam Hoare Spec SpecFacts Laws PamShape
  PamExact Reference LocalSearch FpFacts ChooseFacts.
Set Implicit Arguments.
Open Scope nat_scope.

Lemma whileM_succ S (body : S -> res (ctl S)) m s0 s :
  whileM m body s0 = Ok s ->
  whileM (Datatypes.S m) body s0 = Ok s \/
  whileM (Datatypes.S m) body s0 = (c <- body s ;; match c with Next s' => Ok s' | Break s' => Ok s' end).
Proof.
  revert s0. induction m; intros s0 h.
  - simpl in h. injection h as <-. right. simpl. destruct (body s0) as [[s'|s']|]; auto.
  - cbn [whileM] in h. apply bind_ok in h as (c & e & h).
    destruct c as [s'|s'].
    + apply IHm in h.
      assert (e' : whileM (Datatypes.S (Datatypes.S m)) body s0 = whileM (Datatypes.S m) body s').
      { cbn [whileM]. rewrite e. auto. }
      rewrite e'. exact h.
    + left. cbn [whileM]. rewrite e. auto.
Qed.

Section Shape.
  Context {Nt Lt : Type} `{HNN : NumN Nt} `{HNL : NumL Lt} `{HFN : FromN Nt Lt}.
  Variable M : Mat Nt.
  Variable n : nat.
  Variable D : nat -> nat -> Nt.
  Hypothesis HM : is_matrix M n D.
  (** the only law needed: [0 < 0] is false *)
  Hypothesis zero_irrefl : lltb (lzero : Lt) lzero = false.

  Record p_inv (k : nat) (st : pst Nt Lt) : Prop := {
    pi_len : length (p_med st) = k;
    pi_inr : inr n (p_med st);
    pi_data : data_ok n D (p_med st) (p_data st)
  }.

  (** an evaluated best swap: initial, or with valid indices *)
  Definition best_valid (k : nat) (best : best_swap) : Prop :=
    match snd best with
    | None => fst best = (lzero : Lt)
    | Some (b, j) => b < k /\ j < n
    end.

  Lemma swap_best_shape k st rl best :
    1 <= n -> p_inv k st -> best_valid k best ->
    oks (swap_best M st rl best) (fun c => let s := match c with Next s => s | Break s => s end in
      p_inv k s /\ p_rl s = rl /\ p_iter s = p_iter st /\
      (p_swaps s = p_swaps st \/ p_swaps s = S (p_swaps st))).
  Proof.
    intros hn hi hb. unfold swap_best. pose proof hi as [i1 i2 i3].
    destruct (lltb (fst best) lzero) eqn:e.
    - unfold best_valid in hb. destruct (snd best) as [[b j]|] eqn:es.
      + destruct hb as [hb hj].
        assert (hb' : b < length (p_med st)) by lia.
        pose proof (do_swap_ok (Lt := Lt) HM hn i2 hj hb' i3) as hs.
        apply oks_inv in hs as ([[med' data'] loss'] & -> & -> & hd & _). cbn [bind].
        destruct (lleb (p_loss st) loss'); cbn [oks p_rl p_iter p_swaps];
          (split; [constructor; cbn [p_med p_data]; auto; [rewrite length_set_nth; auto|
                   apply inr_set_nth; auto]|auto]).
      + rewrite hb in e. congruence.
    - cbn [oks p_rl p_iter p_swaps]. split; [constructor; auto|auto].
  Qed.

  Lemma fastpam1_cand_shape k st rl best j :
    1 <= k -> p_inv k st -> length rl = k -> best_valid k best -> j < n ->
    oks (fastpam1_cand M (p_med st) (p_data st) rl best j) (best_valid k).
  Proof.
    intros hk [i1 i2 i3] hl hb hj. unfold fastpam1_cand.
    destruct (nth_error_ex (p_data st) (i := j)) as [r hr]; [destruct i3; lia|].
    rewrite (idx_some _ _ hr). cbn [bind].
    destruct (rec2_near (proj2 i3 j r hr)) as (a & ea & ha).
    rewrite ea. cbn [as_usize]. rewrite idx_nth with (d := 0) by auto. cbn [bind].
    destruct (j =? nth a (p_med st) 0); [auto|].
    assert (hf : oks (find_best_swap M rl (p_data st) j) (fun p => snd p < length (p_med st))).
    { apply find_best_swap_idx with (n := n) (D := D); auto; lia. }
    apply oks_inv in hf as ([change b] & -> & hb'). cbn [bind].
    destruct (lleb (fst best) change); cbn [oks]; auto.
    unfold best_valid. cbn [snd] in *. split; lia.
  Qed.

  Lemma pam_change_shape med data j m acc :
    data_ok n D med data -> j < n ->
    oks (foldM (pam_change_step (Lt := Lt) M j m) (enum data) acc) (fun _ => True).
  Proof.
    intros [hl hd] hj. apply foldM_inv; auto. intros [o r] s hin _.
    apply In_enum in hin. apply nth_error_lt in hin. unfold pam_change_step.
    destruct (o =? j); simpl; auto. rewrite (get_ok HM) by lia. simpl. auto.
  Qed.

  Lemma pam_cand_shape k st best j :
    p_inv k st -> best_valid k best -> j < n ->
    oks (pam_cand M (p_med st) (p_data st) best j) (best_valid k).
  Proof.
    intros [i1 i2 i3] hb hj. unfold pam_cand.
    destruct (nth_error_ex (p_data st) (i := j)) as [r hr]; [destruct i3; lia|].
    rewrite (idx_some _ _ hr). cbn [bind].
    destruct (rec2_near (proj2 i3 j r hr)) as (a & ea & ha).
    rewrite ea. cbn [as_usize]. rewrite idx_nth with (d := 0) by auto. cbn [bind].
    destruct (j =? nth a (p_med st) 0); [auto|].
    unfold find_best_swap_pam. rewrite (idx_some _ _ hr). cbn [bind].
    eapply oks_bind.
    - apply foldM_inv with (I := fun (p : Lt * option nat) =>
        match snd p with None => fst p = lzero | Some b => b < k end); [reflexivity|].
      intros m s hm hs. apply in_seq in hm.
      eapply oks_bind; [eapply pam_change_shape; eauto|].
      intros acc _. cbn [oks]. destruct (lltb acc (fst s)); auto. cbn [snd]. lia.
    - intros [change [b|]] hcb; cbn [fst snd] in hcb; cbn [fst snd];
        destruct (lleb (fst best) change); cbn [oks]; auto; unfold best_valid; cbn [fst snd]; auto.
  Qed.

  Lemma fastpam1_iteration_shape k st :
    1 <= n -> 1 <= k -> p_inv k st -> length (p_rl st) = k ->
    oks (fastpam1_iteration M st) (fun c => let s := match c with Next s => s | Break s => s end in
      p_inv k s /\ length (p_rl s) = k /\ p_iter s = S (p_iter st) /\
      (p_swaps s = p_swaps st \/ p_swaps s = S (p_swaps st))).
  Proof.
    intros hn hk hi hl. unfold fastpam1_iteration. cbn [p_med p_data p_rl p_loss p_swaps p_iter].
    set (st1 := mkP (p_med st) (p_data st) (p_rl st) (p_loss st) (p_swaps st) (S (p_iter st))).
    assert (hi1 : p_inv k st1) by (destruct hi; constructor; auto).
    pose proof hi as [i1 i2 i3].
    assert (hu : oks (update_removal_loss (p_data st) (p_rl st)) (fun rl => length rl = length (p_med st))).
    { apply update_removal_loss_len with (n := n) (D := D); auto. congruence. }
    apply oks_inv in hu as (rl & -> & hrl). cbn [bind].
    eapply oks_bind with (P := best_valid k).
    - apply foldM_inv; [reflexivity|]. intros j best hj hb. apply in_seq in hj.
      rewrite (len_n HM) in hj. apply fastpam1_cand_shape; auto; lia.
    - intros best hb. eapply oks_mono; [apply swap_best_shape with (k := k); auto|].
      cbv zeta. intros c (h1 & h2 & h3 & h4). split; [auto|]. split; [congruence|].
      cbn [p_iter p_swaps] in *. auto.
  Qed.

  Lemma pam_iteration_shape k st :
    1 <= n -> p_inv k st ->
    oks (pam_iteration M st) (fun c => let s := match c with Next s => s | Break s => s end in
      p_inv k s /\ p_iter s = S (p_iter st) /\
      (p_swaps s = p_swaps st \/ p_swaps s = S (p_swaps st))).
  Proof.
    intros hn hi. unfold pam_iteration. cbn [p_med p_data p_rl p_loss p_swaps p_iter].
    set (st1 := mkP (p_med st) (p_data st) (p_rl st) (p_loss st) (p_swaps st) (S (p_iter st))).
    assert (hi1 : p_inv k st1) by (destruct hi; constructor; auto).
    eapply oks_bind with (P := best_valid k).
    - apply foldM_inv; [reflexivity|]. intros j best hj hb. apply in_seq in hj.
      rewrite (len_n HM) in hj. apply pam_cand_shape; auto; lia.
    - intros best hb. eapply oks_mono; [apply swap_best_shape with (k := k); auto|].
      cbv zeta. intros c (h1 & h2 & h3 & h4). split; [auto|]. cbn [p_iter p_swaps] in *. auto.
  Qed.

  (** facts about the returned values that hold for every numeric type *)
  Definition res_shape (k maxiter : nat) (r : pam_result Lt) : Prop :=
    length (r_med r) = k /\ inr n (r_med r) /\ length (r_assi r) = n /\
    (forall a, In a (r_assi r) -> a < k) /\
    r_iter r <= maxiter /\ r_swaps r <= r_iter r.

  Lemma assignment_of_shape k med data :
    length med = k -> data_ok n D med data ->
    length (assignment_of data) = n /\ forall a, In a (assignment_of data) -> a < k.
  Proof.
    intros hl hd. split; [unfold assignment_of; rewrite map_length; apply hd|].
    intros a ha. apply in_map_iff in ha as (r & <- & hr). rewrite <- hl.
    eapply data_near; eauto.
  Qed.

  Lemma pam_optimize_shape med data maxiter loss :
    1 <= n -> 2 <= length med -> inr n med -> data_ok n D med data ->
    oks (pam_optimize (Lt := Lt) M med data maxiter loss) (res_shape (length med) maxiter).
  Proof.
    intros hn hk hin hd. unfold pam_optimize.
    replace (length med =? 1) with false by (symmetry; apply Nat.eqb_neq; lia).
    eapply oks_bind with (P := fun st => p_inv (length med) st /\ p_iter st <= maxiter /\
      p_swaps st <= p_iter st).
    - apply whileM_oks with (I := fun i st => p_inv (length med) st /\ p_iter st = i /\
        p_swaps st <= p_iter st).
      + cbn. split; [constructor; auto|auto].
      + intros i st hlt (h1 & h2 & h3). eapply oks_mono; [apply pam_iteration_shape; eauto|].
        intros [s|s] (g1 & g2 & g3); cbv zeta in *; (split; [auto|]); split; lia.
      + intros st (h1 & h2 & h3). split; [auto|]. split; lia.
    - intros st (h1 & h2 & h3). cbn [oks]. destruct h1 as [i1 i2 i3].
      destruct (assignment_of_shape i1 i3).
      unfold res_shape. cbn [r_med r_assi r_iter r_swaps]. auto 10.
  Qed.

  Lemma fastpam1_shape med maxiter :
    sizes n (length med) -> inr n med -> 2 <= length med ->
    oks (fastpam1 (Lt := Lt) M med maxiter) (res_shape (length med) maxiter).
  Proof.
    intros hs hin hk. assert (hn : 1 <= n) by (destruct hs; lia).
    unfold fastpam1.
    replace (length med =? 1) with false by (symmetry; apply Nat.eqb_neq; lia).
    pose proof (initial_assignment_ok (Lt := Lt) HM hs hin hk) as h.
    apply oks_inv in h as ([loss data] & -> & hd & _). cbn [bind fst snd] in *.
    eapply oks_bind with (P := fun st => p_inv (length med) st /\ p_iter st <= maxiter /\
      p_swaps st <= p_iter st).
    - apply whileM_oks with (I := fun i st => p_inv (length med) st /\ length (p_rl st) = length med /\
        p_iter st = i /\ p_swaps st <= p_iter st).
      + cbn. split; [constructor; auto|]. split; [apply repeat_length|auto].
      + intros i st hlt (h1 & hr & h2 & h3).
        eapply oks_mono; [apply fastpam1_iteration_shape with (k := length med); auto; lia|].
        intros [s|s] (g1 & g2 & g3 & g4); cbv zeta in *; (split; [auto|]);
          [split; [auto|]|]; split; lia.
      + intros st (h1 & hr & h2 & h3). split; [auto|]. split; lia.
    - intros st (h1 & h2 & h3). cbn [oks]. destruct h1 as [i1 i2 i3].
      destruct (assignment_of_shape i1 i3).
      unfold res_shape. cbn [r_med r_assi r_iter r_swaps]. auto 10.
  Qed.
End Shape.

Section Exact.
  Context {Nt Lt : Type} `{HLL : LossLaws Nt Lt}.
  Variable M : Mat Nt.
  Variable n : nat.
  Variable D : nat -> nat -> Nt.
  Hypothesis HD : diss_matrix M n D.
  Local Notation v := (vals D).

  Record p_good (k : nat) (st : pst Nt Lt) : Prop := {
    pg_inv : p_inv n D k st;
    pg_own : data_own (p_med st) (p_data st);
    pg_nodup : NoDup (p_med st);
    pg_loss : (vL (p_loss st) == tdev v n (p_med st))%Q
  }.

  Definition delta (med : list nat) (b j : nat) : Q := (tdev v n (swap med b j) - tdev v n med)%Q.

  (** the first best strict improvement among candidates [j < t], in lexicographic order *)
  Definition best_ok (med : list nat) (t : nat) (best : @best_swap Lt) : Prop :=
    (snd best = None /\ (vL (fst best) == 0)%Q /\
     forall j c, j < t -> c < length med -> (0 <= delta med c j)%Q) \/
    (exists b j, snd best = Some (b, j) /\ b < length med /\ j < t /\
       (vL (fst best) == delta med b j)%Q /\ (delta med b j < 0)%Q /\
       (forall j' c, j' < t -> c < length med -> (delta med b j <= delta med c j')%Q) /\
       (forall j' c, j' < j -> c < length med -> (delta med b j < delta med c j')%Q) /\
       (forall c, c < b -> (delta med b j < delta med c j)%Q)).

  Lemma best_ok_unique med t b1 b2 : best_ok med t b1 -> best_ok med t b2 ->
    snd b1 = snd b2 /\ (vL (fst b1) == vL (fst b2))%Q.
  Proof.
    intros [(h1 & h2 & h3)|(b & j & h1 & h2 & h3 & h4 & h5 & h6 & h7 & h8)]
           [(g1 & g2 & g3)|(b' & j' & g1 & g2 & g3 & g4 & g5 & g6 & g7 & g8)].
    - split; [congruence|lra].
    - specialize (h3 j' b' g3 g2). lra.
    - specialize (g3 j b h3 h2). lra.
    - assert (j = j' /\ b = b') as [-> ->].
      { assert (ej : j = j').
        { destruct (lt_eq_lt_dec j j') as [[hlt|]|hlt]; auto.
          - specialize (g7 j b hlt h2). specialize (h6 j' b' g3 g2). lra.
          - specialize (h7 j' b' hlt g2). specialize (g6 j b h3 h2). lra. }
        subst j'. split; auto.
        destruct (lt_eq_lt_dec b b') as [[hlt|]|hlt]; auto.
        - specialize (g8 b hlt). specialize (h6 j b' g3 g2). lra.
        - specialize (h8 b' hlt). specialize (g6 j b h3 h2). lra. }
      split; [congruence|lra].
  Qed.

  (** candidate [j] evaluated: [best] updated *)
  Lemma best_ok_medoid med j best : In j med -> best_ok med j best -> best_ok med (S j) best.
  Proof.
    intros hj hb.
    assert (hd : forall c, c < length med -> (0 <= delta med c j)%Q).
    { intros c hc. unfold delta. pose proof (tdev_swap_medoid v n med j hc hj). lra. }
    destruct hb as [(h1 & h2 & h3)|(b & j0 & h1 & h2 & h3 & h4 & h5 & h6 & h7 & h8)].
    - left. split; [auto|]. split; [auto|]. intros j' c hlt hc.
      destruct (Nat.eq_dec j' j) as [->|]; [auto|]. apply h3; auto. lia.
    - right. exists b, j0. split; [auto|]. split; [auto|]. split; [lia|]. split; [auto|].
      split; [auto|]. split; [|auto]. intros j' c hlt hc.
      destruct (Nat.eq_dec j' j) as [->|]; [specialize (hd c hc); lra|]. apply h6; auto. lia.
  Qed.

  Lemma best_ok_keep med j best :
    (forall c, c < length med -> (vL (fst best) <= delta med c j)%Q) ->
    best_ok med j best -> best_ok med (S j) best.
  Proof.
    intros hd hb.
    destruct hb as [(h1 & h2 & h3)|(b & j0 & h1 & h2 & h3 & h4 & h5 & h6 & h7 & h8)].
    - left. split; [auto|]. split; [auto|]. intros j' c hlt hc.
      destruct (Nat.eq_dec j' j) as [->|]; [specialize (hd c hc); lra|]. apply h3; auto. lia.
    - right. exists b, j0. split; [auto|]. split; [auto|]. split; [lia|]. split; [auto|].
      split; [auto|]. split; [|auto]. intros j' c hlt hc.
      destruct (Nat.eq_dec j' j) as [->|]; [specialize (hd c hc); lra|]. apply h6; auto. lia.
  Qed.

  Lemma best_ok_new med j best change b :
    b < length med -> (vL change == delta med b j)%Q -> (vL change < vL (fst best))%Q ->
    (forall c, c < length med -> (delta med b j <= delta med c j)%Q) ->
    (forall c, c < b -> (delta med b j < delta med c j)%Q) ->
    best_ok med j best -> best_ok med (S j) (change, Some (b, j)).
  Proof.
    intros hb hc hlt hmin hfst hbest. right. exists b, j. cbn [fst snd].
    assert (h0 : (vL (fst best) <= 0)%Q).
    { destruct hbest as [(_ & h & _)|(b0 & j0 & _ & _ & _ & h4 & h5 & _)]; lra. }
    assert (hall : forall j' c, j' < j -> c < length med -> (vL (fst best) <= delta med c j')%Q).
    { intros j' c hj' hc'.
      destruct hbest as [(_ & h & h3)|(b0 & j0 & _ & _ & _ & h4 & h5 & h6 & _)].
      - specialize (h3 j' c hj' hc'). lra.
      - specialize (h6 j' c hj' hc'). lra. }
    split; [auto|]. split; [auto|]. split; [lia|]. split; [auto|]. split; [lra|].
    split; [|split; [|auto]].
    - intros j' c hj' hc'. destruct (Nat.eq_dec j' j) as [->|]; [auto|].
      assert (hlt' : j' < j) by lia. specialize (hall j' c hlt' hc'). lra.
    - intros j' c hj' hc'. specialize (hall j' c hj' hc'). lra.
  Qed.

  Lemma fastpam1_cand_ok k st rl best j :
    1 <= k -> p_good k st -> length rl = k -> rl_ok (p_data st) rl -> j < n ->
    best_ok (p_med st) j best ->
    oks (fastpam1_cand M (p_med st) (p_data st) rl best j) (best_ok (p_med st) (S j)).
  Proof.
    intros hk [[i1 i2 i3] g2 g3 g4] hl hrl hj hb. unfold fastpam1_cand.
    destruct (nth_error_ex (p_data st) (i := j)) as [r hr]; [destruct i3; lia|].
    rewrite (idx_some _ _ hr). cbn [bind].
    destruct (rec2_near (proj2 i3 j r hr)) as (a & ea & ha).
    rewrite ea. cbn [as_usize]. rewrite idx_nth with (d := 0) by auto. cbn [bind].
    destruct (j =? nth a (p_med st) 0) eqn:em.
    { apply Nat.eqb_eq in em. cbn [oks]. apply best_ok_medoid; auto. rewrite em. apply nth_In. auto. }
    assert (hl' : length rl = length (p_med st)) by congruence.
    assert (hk' : 1 <= length (p_med st)) by lia.
    pose proof (find_best_swap_ok HD i2 i3 hl' hk' hj hrl) as hf.
    apply oks_inv in hf as ([change b] & -> & b1 & b2 & b3 & b4). cbn [fst snd bind] in *.
    destruct (lleb (fst best) change) eqn:e; cbn [oks].
    - apply lleb_spec in e. apply best_ok_keep; auto. intros c hc. specialize (b3 c hc).
      unfold delta. lra.
    - assert (hlt : (vL change < vL (fst best))%Q).
      { apply Qnot_le_lt. intros h. apply lleb_spec in h. congruence. }
      apply best_ok_new with (best := best); auto.
      + intros c hc. specialize (b3 c hc). unfold delta. lra.
      + intros c hc. specialize (b4 c hc). unfold delta. lra.
  Qed.

  (** pam.rs:201-235 computes the change of the total deviation *)
  Definition pam_term (j m : nat) (p : nat * Rec Nt) : Q :=
    let '(o, r) := p in
    if o =? j then 0%Q else
    (if as_usize (di (near r)) =? m then
       (if Qlt_le_dec (v o j) (vN (dd (seco r))) then v o j else vN (dd (seco r))) - vN (dd (near r))
     else if Qlt_le_dec (v o j) (vN (dd (near r))) then v o j - vN (dd (near r)) else 0)%Q.

  Lemma pam_delta med data j m r :
    inr n med -> data_ok n D med data -> m < length med -> j < n -> nth_error data j = Some r ->
    (- vN (dd (near r)) + sumQ (pam_term j m) (enum data) == delta med m j)%Q.
  Proof.
    intros hin [hl hd] hm hj hr. destruct (emb_vals HD) as [he hg]. unfold delta, tdev.
    rewrite !(sumQ_enum data) by auto. rewrite <- sumQ_minus.
    assert (E : (- vN (dd (near r)) ==
                 sumQ (fun p : nat * Rec Nt => if fst p =? j then - vN (dd (near (snd p))) else 0) (enum data))%Q).
    { rewrite (sumQ_index _ (fun i => if i =? j then (- vN (dd (near r)))%Q else 0%Q)).
      - rewrite length_enum. symmetry. apply sumQ_single. lia.
      - intros i [o ro] h. rewrite nth_error_enum in h.
        destruct (nth_error data i) eqn:h'; [|discriminate]. injection h as <- <-. cbn [fst snd].
        destruct (i =? j) eqn:eij; [|reflexivity].
        apply Nat.eqb_eq in eij. subst i. rewrite hr in h'. injection h' as ->. reflexivity. }
    rewrite E, <- sumQ_plus. apply sumQ_ext. intros [o ro] h. apply In_enum in h. cbn [fst snd].
    assert (ho : o < n) by (rewrite <- hl; apply nth_error_lt with (1 := h)).
    destruct (rec2_x HD (hd _ _ h)) as (a & s & hxx).
    rewrite (mindist_swap j hxx hm). destruct (rec_x_near hxx) as [-> _].
    destruct hxx as (h1 & h2 & h3 & h4 & h5 & h6 & h7 & [m1 m2]).
    assert (hle := m1 s h2).
    unfold pam_term. rewrite h4, h6, h7. cbn [as_usize].
    change (vN (D o (nth a med 0))) with (v o (nth a med 0)).
    change (vN (D o (nth s med 0))) with (v o (nth s med 0)).
    rewrite (Nat.eqb_sym m a).
    destruct (o =? j) eqn:eo.
    + apply Nat.eqb_eq in eo. subst o. pose proof (emb_diag he hj) as hz.
      assert (p1 : (0 <= v j (nth a med 0%nat))%Q) by (apply (emb_pos he); auto using inr_nth).
      assert (p2 : (0 <= v j (nth s med 0%nat))%Q) by (apply (emb_pos he); auto using inr_nth).
      destruct (a =? m).
      * destruct (Qlt_le_dec (v j j) (v j (nth s med 0))); lra.
      * destruct (Qlt_le_dec (v j j) (v j (nth a med 0))); lra.
    + destruct (a =? m).
      * destruct (Qlt_le_dec (v o j) (v o (nth s med 0))); lra.
      * destruct (Qlt_le_dec (v o j) (v o (nth a med 0))); lra.
  Qed.

  Lemma pam_change_ok med data j m (acc : Lt) r :
    inr n med -> data_ok n D med data -> m < length med -> j < n -> nth_error data j = Some r ->
    (vL acc == - vN (dd (near r)))%Q ->
    oks (foldM (pam_change_step M j m) (enum data) acc) (fun x => (vL x == delta med m j)%Q).
  Proof.
    intros hin [hl hd] hm hj hr hacc. pose proof (proj1 HD) as HM.
    eapply oks_mono.
    - apply foldM_oks with (I := fun pre (x : Lt) =>
        (vL x == vL acc + sumQ (pam_term j m) pre)%Q).
      + simpl. lra.
      + intros pre [o ro] post x e hx.
        assert (hro : nth_error data o = Some ro).
        { apply In_enum. rewrite e. apply in_or_app. simpl. auto. }
        assert (ho : o < n) by (rewrite <- hl; apply nth_error_lt with (1 := hro)).
        destruct (rec2_x HD (hd _ _ hro)) as (a & s & hxx).
        destruct hxx as (h1 & h2 & h3 & h4 & h5 & h6 & h7 & _).
        assert (ha : nth a med 0 < n) by auto using inr_nth.
        assert (hs : nth s med 0 < n) by auto using inr_nth.
        assert (E : (sumQ (pam_term j m) (pre ++ [(o, ro)]) == sumQ (pam_term j m) pre + pam_term j m (o, ro))%Q).
        { rewrite sumQ_app. simpl. lra. }
        unfold pam_change_step. unfold pam_term in E at 3.
        destruct (o =? j) eqn:eo; [cbn [oks]; rewrite E; lra|].
        rewrite (get_ok HM) by auto. cbn [bind oks]. rewrite E.
        rewrite h4, h6, h7. cbn [as_usize].
        rewrite !(nltb_dec HD) by auto.
        change (vN (D o (nth a med 0))) with (v o (nth a med 0)).
        change (vN (D o (nth s med 0))) with (v o (nth s med 0)).
        destruct (a =? m).
        * destruct (Qlt_le_dec (v o j) (v o (nth s med 0)));
            rewrite vL_add, vL_sub, !(vL_D HD) by auto; lra.
        * destruct (Qlt_le_dec (v o j) (v o (nth a med 0)));
            rewrite ?vL_add, ?vL_sub, ?(vL_D HD) by auto; lra.
    - intros x hx. rewrite hx, hacc. apply pam_delta; [auto|split; auto|auto|auto|auto].
  Qed.

  Lemma pam_cand_ok k st best j :
    p_good k st -> j < n -> best_ok (p_med st) j best ->
    oks (pam_cand M (p_med st) (p_data st) best j) (best_ok (p_med st) (S j)).
  Proof.
    intros [[i1 i2 i3] g2 g3 g4] hj hb. unfold pam_cand.
    destruct (nth_error_ex (p_data st) (i := j)) as [r hr]; [destruct i3; lia|].
    rewrite (idx_some _ _ hr). cbn [bind].
    destruct (rec2_near (proj2 i3 j r hr)) as (a & ea & ha).
    rewrite ea. cbn [as_usize]. rewrite idx_nth with (d := 0) by auto. cbn [bind].
    destruct (j =? nth a (p_med st) 0) eqn:em.
    { apply Nat.eqb_eq in em. cbn [oks]. apply best_ok_medoid; auto. rewrite em. apply nth_In. auto. }
    unfold find_best_swap_pam. rewrite (idx_some _ _ hr). cbn [bind].
    assert (hn : okN (dd (near r))).
    { destruct (rec2_x HD (proj2 i3 j r hr)) as (a' & s' & h1 & _ & _ & _ & _ & -> & _).
      apply okD with (1 := HD); auto using inr_nth. }
    eapply oks_bind.
    - apply foldM_seq with (I := fun t (p : Lt * option nat) =>
        match snd p with
        | None => (vL (fst p) == 0)%Q /\ forall c, c < t -> (0 <= delta (p_med st) c j)%Q
        | Some b => b < t /\ (vL (fst p) == delta (p_med st) b j)%Q /\ (delta (p_med st) b j < 0)%Q /\
            (forall c, c < t -> (delta (p_med st) b j <= delta (p_med st) c j)%Q) /\
            (forall c, c < b -> (delta (p_med st) b j < delta (p_med st) c j)%Q)
        end).
      + cbn [fst snd]. split; [apply vL_zero|]. intros; lia.
      + intros m p hm hp.
        eapply oks_bind; [eapply pam_change_ok with (med := p_med st) (r := r); eauto|].
        { rewrite vL_neg, vL_from by auto. reflexivity. }
        intros acc hacc. cbv beta in hacc. cbn [oks]. destruct (lltb acc (fst p)) eqn:el.
        * apply lltb_spec in el. cbn [fst snd]. destruct (snd p) as [b|] eqn:es.
          -- destruct hp as (p1 & p2 & p3 & p4 & p5).
             split; [lia|]. split; [auto|]. split; [lra|]. split.
             ++ intros c hc. destruct (Nat.eq_dec c m) as [->|]; [lra|].
                specialize (p4 c ltac:(lia)). lra.
             ++ intros c hc. specialize (p4 c hc). lra.
          -- destruct hp as (p1 & p2). split; [lia|]. split; [auto|]. split; [lra|]. split.
             ++ intros c hc. destruct (Nat.eq_dec c m) as [->|]; [lra|].
                specialize (p2 c ltac:(lia)). lra.
             ++ intros c hc. specialize (p2 c hc). lra.
        * assert (hle : (vL (fst p) <= vL acc)%Q).
          { apply Qnot_lt_le. intros h. apply lltb_spec in h. congruence. }
          destruct (snd p) as [b|] eqn:es.
          -- destruct hp as (p1 & p2 & p3 & p4 & p5).
             split; [lia|]. split; [auto|]. split; [auto|]. split; [|auto].
             intros c hc. destruct (Nat.eq_dec c m) as [->|]; [lra|]. apply p4. lia.
          -- destruct hp as (p1 & p2). split; [auto|].
             intros c hc. destruct (Nat.eq_dec c m) as [->|]; [lra|]. apply p2. lia.
    - assert (h0 : (vL (fst best) <= 0)%Q).
      { destruct hb as [(_ & h & _)|(b0 & j0 & _ & _ & _ & h4 & h5 & _)]; lra. }
      intros [change ob] hp. cbn [fst snd] in hp.
      destruct (lleb (fst best) change) eqn:e; cbn [oks].
      + apply lleb_spec in e. apply best_ok_keep; auto. intros c hc.
        destruct ob as [b|].
        * destruct hp as (p1 & p2 & p3 & p4 & p5). specialize (p4 c hc). lra.
        * destruct hp as (p1 & p2). specialize (p2 c hc). lra.
      + assert (hlt : (vL change < vL (fst best))%Q).
        { apply Qnot_le_lt. intros h. apply lleb_spec in h. congruence. }
        destruct ob as [b|].
        * destruct hp as (p1 & p2 & p3 & p4 & p5). apply best_ok_new with (best := best); auto.
        * destruct hp as (p1 & p2). lra.
  Qed.

  (** the reference step: the best of all swaps, if it is an improvement *)
  Definition dev_best (m : list nat) : option (list nat) := improve (dev_better v n) (all_swaps n m) m.

  (** one iteration: the best swap is performed, or there is none *)
  Definition steep_step (k : nat) (st : pst Nt Lt) (c : ctl (pst Nt Lt)) : Prop :=
    match c with
    | Break s => p_good k s /\ swap_optimal v n (p_med s) /\ p_med s = p_med st /\
                 p_data s = p_data st /\ p_loss s = p_loss st /\
                 p_swaps s = p_swaps st /\ p_iter s = S (p_iter st) /\ dev_best (p_med st) = None
    | Next s => p_good k s /\ (exists b j, b < k /\ j < n /\ p_med s = swap (p_med st) b j /\
                  forall b' j', b' < k -> j' < n -> (tdev v n (p_med s) <= tdev v n (swap (p_med st) b' j'))%Q) /\
                (tdev v n (p_med s) < tdev v n (p_med st))%Q /\
                p_swaps s = S (p_swaps st) /\ p_iter s = S (p_iter st) /\ dev_best (p_med st) = Some (p_med s)
    end.

  Lemma swap_best_ok k st rl best :
    1 <= n -> p_good k st -> best_ok (p_med st) n best ->
    oks (swap_best M st rl best) (fun c =>
      p_rl (match c with Next s => s | Break s => s end) = rl /\
      match c with
      | Break s => p_good k s /\ swap_optimal v n (p_med s) /\ p_med s = p_med st /\
                   p_data s = p_data st /\ p_loss s = p_loss st /\
                   p_swaps s = p_swaps st /\ p_iter s = p_iter st /\ dev_best (p_med st) = None
      | Next s => p_good k s /\ (exists b j, b < k /\ j < n /\ p_med s = swap (p_med st) b j /\
                    forall b' j', b' < k -> j' < n -> (tdev v n (p_med s) <= tdev v n (swap (p_med st) b' j'))%Q) /\
                  (tdev v n (p_med s) < tdev v n (p_med st))%Q /\
                  p_swaps s = S (p_swaps st) /\ p_iter s = p_iter st /\ dev_best (p_med st) = Some (p_med s)
      end).
  Proof.
    intros hn hg hb. pose proof hg as [[i1 i2 i3] g2 g3 g4]. unfold swap_best.
    pose proof (proj1 HD) as HM. destruct (emb_vals HD) as [he hdg].
    destruct hb as [(h1 & h2 & h3)|(b & j & h1 & h2 & h3 & h4 & h5 & h6 & h7 & h8)].
    - assert (e : lltb (fst best) lzero = false).
      { destruct (lltb (fst best) lzero) eqn:e; auto. apply lltb_spec in e.
        rewrite vL_zero in e. lra. }
      rewrite e. cbn [oks]. cbn. split; [auto|]. split; [constructor; auto; constructor; auto|].
      assert (hopt : forall b j, b < length (p_med st) -> j < n ->
                (tdev v n (p_med st) <= tdev v n (swap (p_med st) b j))%Q).
      { intros b j hb hj. specialize (h3 j b hj hb). unfold delta in h3. lra. }
      split; [exact hopt|]. do 5 (split; [auto|]).
      apply steep_none with (f := tdev v n); auto.
    - assert (e : lltb (fst best) lzero = true).
      { apply lltb_spec. rewrite vL_zero. lra. }
      rewrite e, h1.
      assert (hjm : ~ In j (p_med st)).
      { intros hjm. pose proof (tdev_swap_medoid v n (p_med st) j h2 hjm). unfold delta in h5. lra. }
      pose proof (do_swap_ok (Lt := Lt) HM hn i2 h3 h2 i3) as hs.
      apply oks_inv in hs as ([[med' data'] loss'] & -> & -> & s1 & s2 & s3 & s4). cbn [bind].
      assert (hloss : (vL loss' == tdev v n (set_nth (p_med st) b j))%Q).
      { eapply near_sum0_tdev with (b := b); eauto. apply inr_set_nth; auto. }
      assert (hlt : (tdev v n (set_nth (p_med st) b j) < tdev v n (p_med st))%Q).
      { unfold delta in h5. rewrite swap_set_nth in h5 by auto. lra. }
      assert (e2 : lleb (p_loss st) loss' = false).
      { destruct (lleb (p_loss st) loss') eqn:e2; auto. apply lleb_spec in e2. lra. }
      rewrite e2. cbn [oks p_rl p_med p_data p_loss p_swaps p_iter].
      split; [auto|]. split; [|split; [|split; [auto|split; [auto|split; [auto|]]]]].
      + constructor; cbn [p_med p_data p_loss].
        * constructor; cbn [p_med p_data]; auto; [rewrite length_set_nth; auto|apply inr_set_nth; auto].
        * eapply s4; eauto.
        * apply NoDup_set_nth; auto.
        * auto.
      + exists b, j. rewrite swap_set_nth by auto. split; [lia|]. split; [auto|]. split; [auto|].
        intros b' j' hb' hj'. rewrite <- swap_set_nth by auto.
        specialize (h6 j' b' hj' ltac:(lia)). unfold delta in h6. lra.
      + unfold dev_best. rewrite <- swap_set_nth in hlt |- * by auto. unfold delta in *.
        apply steep_some with (f := tdev v n); auto.
        * intros j' c hj' _ hc. specialize (h6 j' c hj' hc). lra.
        * intros j' c hj' _ hc. specialize (h7 j' c hj' hc). lra.
        * intros c hc. specialize (h8 c hc). lra.
  Qed.

  Definition inc_iter (st : pst Nt Lt) : pst Nt Lt :=
    mkP (p_med st) (p_data st) (p_rl st) (p_loss st) (p_swaps st) (S (p_iter st)).

  Lemma inc_good k st : p_good k st -> p_good k (inc_iter st).
  Proof. intros [[] ? ? ?]. constructor; auto. constructor; auto. Qed.

  Lemma fastpam1_best_ok k st :
    1 <= k -> p_good k st -> length (p_rl st) = k ->
    oks (rl <- update_removal_loss (p_data st) (p_rl st) ;;
         best <- foldM (fastpam1_cand M (p_med st) (p_data st) rl) (seq 0 (mlen M)) (lzero, None) ;;
         Ok (rl, best)) (fun p => length (fst p) = k /\ best_ok (p_med st) n (snd p)).
  Proof.
    intros hk hg hl. pose proof hg as [[i1 i2 i3] g2 g3 g4].
    assert (hl' : length (p_rl st) = length (p_med st)) by congruence.
    pose proof (update_removal_loss_ok HD (p_rl st) i2 i3 hl') as hu.
    apply oks_inv in hu as (rl & -> & hrl1 & hrl2). cbn [bind].
    rewrite (len_n (proj1 HD)).
    eapply oks_bind with (P := best_ok (p_med st) n).
    - apply foldM_seq with (I := best_ok (p_med st)).
      + left. cbn [fst snd]. split; [auto|]. split; [apply vL_zero|]. intros; lia.
      + intros j best hj hb. apply fastpam1_cand_ok with (k := k); auto. congruence.
    - intros best hb. cbn [oks fst snd]. split; [congruence|auto].
  Qed.

  Lemma pam_best_ok k st :
    p_good k st ->
    oks (foldM (pam_cand M (p_med st) (p_data st)) (seq 0 (mlen M)) (lzero, None))
        (best_ok (p_med st) n).
  Proof.
    intros hg. rewrite (len_n (proj1 HD)). apply foldM_seq with (I := best_ok (p_med st)).
    - left. cbn [fst snd]. split; [auto|]. split; [apply vL_zero|]. intros; lia.
    - intros j best hj hb. apply pam_cand_ok with (k := k); auto.
  Qed.

  Lemma fastpam1_iteration_ok k st :
    1 <= n -> 1 <= k -> p_good k st -> length (p_rl st) = k ->
    oks (fastpam1_iteration M st) (fun c =>
      length (p_rl (match c with Next s => s | Break s => s end)) = k /\ steep_step k st c).
  Proof.
    intros hn hk hg hl. unfold fastpam1_iteration. fold (inc_iter st).
    pose proof (fastpam1_best_ok hk (inc_good hg) hl) as h.
    apply oks_inv in h as ([rl best] & e & h1 & h2). cbn [fst snd] in *.
    apply bind_ok in e as (rl' & e1 & e). apply bind_ok in e as (best' & e2 & e).
    injection e as -> ->. rewrite e1. cbn [bind]. rewrite e2. cbn [bind].
    eapply oks_mono; [apply (swap_best_ok rl hn (inc_good hg) h2)|].
    intros [s|s] (q1 & q2); (split; [congruence|]); exact q2.
  Qed.

  Lemma pam_iteration_ok k st :
    1 <= n -> p_good k st -> oks (pam_iteration M st) (steep_step k st).
  Proof.
    intros hn hg. unfold pam_iteration. fold (inc_iter st).
    eapply oks_bind; [apply (pam_best_ok (inc_good hg))|]. intros best hb.
    eapply oks_mono; [apply (swap_best_ok _ hn (inc_good hg) hb)|].
    intros [s|s] (q1 & q2); exact q2.
  Qed.

  (** fastpam1 and pam make the same moves *)
  Definition same_but_rl (s1 s2 : pst Nt Lt) : Prop :=
    p_med s1 = p_med s2 /\ p_data s1 = p_data s2 /\ p_loss s1 = p_loss s2 /\
    p_swaps s1 = p_swaps s2 /\ p_iter s1 = p_iter s2.

  Lemma swap_best_same st1 st2 rl1 rl2 b1 b2 med :
    same_but_rl st1 st2 -> best_ok med n b1 -> best_ok med n b2 ->
    match swap_best M st1 rl1 b1, swap_best M st2 rl2 b2 with
    | Ok (Next s1), Ok (Next s2) => same_but_rl s1 s2
    | Ok (Break s1), Ok (Break s2) => same_but_rl s1 s2
    | Panic p1, Panic p2 => p1 = p2
    | _, _ => False
    end.
  Proof.
    intros (h1 & h2 & h3 & h4 & h5) hb1 hb2.
    destruct (best_ok_unique hb1 hb2) as [e1 e2]. unfold swap_best.
    assert (e3 : lltb (fst b1) lzero = lltb (fst b2) lzero).
    { destruct (lltb (fst b1) lzero) eqn:x1; destruct (lltb (fst b2) lzero) eqn:x2; auto.
      - apply lltb_spec in x1. rewrite e2 in x1. apply lltb_spec in x1. congruence.
      - apply lltb_spec in x2. rewrite <- e2 in x2. apply lltb_spec in x2. congruence. }
    rewrite e1, e3, h1, h2, h3, h4, h5.
    destruct (lltb (fst b2) lzero); [|unfold same_but_rl; cbn; auto].
    destruct (snd b2) as [[b j]|]; [|auto].
    destruct (do_swap M (p_med st2) (p_data st2) b j) as [[[m' d'] l']|p]; cbn [bind]; [|auto].
    destruct (lleb (p_loss st2) l'); unfold same_but_rl; cbn; auto.
  Qed.

  Lemma iterations_same k st1 st2 :
    1 <= n -> 1 <= k -> p_good k st1 -> length (p_rl st1) = k -> same_but_rl st1 st2 ->
    match fastpam1_iteration M st1, pam_iteration M st2 with
    | Ok (Next s1), Ok (Next s2) => same_but_rl s1 s2 /\ p_good k s1 /\ length (p_rl s1) = k
    | Ok (Break s1), Ok (Break s2) => same_but_rl s1 s2
    | _, _ => False
    end.
  Proof.
    intros hn hk hg hl hs. pose proof hs as (h1 & h2 & h3 & h4 & h5).
    pose proof (fastpam1_iteration_ok hn hk hg hl) as hok.
    unfold fastpam1_iteration in *. fold (inc_iter st1) in *.
    pose proof (fastpam1_best_ok hk (inc_good hg) hl) as hb1.
    apply oks_inv in hb1 as ([rl best] & e & hr1 & hb1). cbn [fst snd] in *.
    apply bind_ok in e as (rl' & e1 & e). apply bind_ok in e as (best' & e2 & e).
    injection e as -> ->. rewrite e1 in *. cbn [bind] in *. rewrite e2 in *. cbn [bind] in *.
    unfold pam_iteration. fold (inc_iter st2). 
    pose proof (pam_best_ok (inc_good hg)) as hb2.
    apply oks_inv in hb2 as (best2 & e3 & hb2).
    cbn [inc_iter p_med p_data p_loss p_swaps p_iter p_rl] in *.
    rewrite h1, h2 in e3. rewrite e3. cbn [bind].
    assert (hs' : same_but_rl (inc_iter st1) (inc_iter st2)).
    { unfold same_but_rl, inc_iter. cbn. auto 10. }
    pose proof (swap_best_same rl (p_rl (inc_iter st2)) hs' hb1 hb2) as hsame.
    cbn [inc_iter p_rl] in hsame. fold (inc_iter st1) in *. fold (inc_iter st2) in *.
    destruct (swap_best M (inc_iter st1) rl best) as [[s1|s1]|]; [| |contradiction].
    - destruct (swap_best M (inc_iter st2) (p_rl st2) best2) as [[s2|s2]|]; try contradiction.
      cbn [oks] in hok. destruct hok as (q1 & q2 & _). auto.
    - destruct (swap_best M (inc_iter st2) (p_rl st2) best2) as [[s2|s2]|]; try contradiction. auto.
  Qed.

  Lemma runs_same k maxiter st1 st2 :
    1 <= n -> 1 <= k -> p_good k st1 -> length (p_rl st1) = k -> same_but_rl st1 st2 ->
    match whileM maxiter (fastpam1_iteration M) st1, whileM maxiter (pam_iteration M) st2 with
    | Ok s1, Ok s2 => same_but_rl s1 s2
    | _, _ => False
    end.
  Proof.
    intros hn hk. revert st1 st2. induction maxiter; intros st1 st2 hg hl hs; [exact hs|].
    cbn [whileM]. pose proof (iterations_same hn hk hg hl hs) as h.
    destruct (fastpam1_iteration M st1) as [[s1|s1]|]; [| |contradiction];
      destruct (pam_iteration M st2) as [[s2|s2]|]; try contradiction; cbn [bind]; auto.
    destruct h as (q1 & q2 & q3). apply IHmaxiter; auto.
  Qed.

  (** summary of a steepest-descent run *)
  Record sd_summary (med : list nat) (maxiter : nat) (r : pam_result Lt) : Prop := {
    ss_medoids : medoids n (length med) (r_med r);
    ss_assi_len : length (r_assi r) = n;
    ss_nearest : forall o, o < n -> nearest v o (r_med r) (nth o (r_assi r) 0);
    ss_own : forall c, c < length med -> nth (nth c (r_med r) 0) (r_assi r) 0 = c;
    ss_loss : (vL (r_loss r) == tdev v n (r_med r))%Q;
    ss_obj : (tdev v n (r_med r) <= tdev v n med)%Q;
    ss_strict : 0 < r_swaps r -> (tdev v n (r_med r) < tdev v n med)%Q;
    ss_same : r_swaps r = 0 -> r_med r = med;
    ss_iter : r_iter r <= maxiter;
    ss_end : (r_iter r = S (r_swaps r) /\ swap_optimal v n (r_med r)) \/
             (r_iter r = r_swaps r /\ r_iter r = maxiter);
    ss_ref : (r_med r, r_swaps r, r_iter r) = best_swaps (dev_better v n) n med maxiter
  }.

  Lemma assi_facts med data :
    inr n med -> data_ok n D med data -> data_own med data ->
    length (assignment_of data) = n /\
    (forall o, o < n -> nearest v o med (nth o (assignment_of data) 0)) /\
    (forall c, c < length med -> nth (nth c med 0) (assignment_of data) 0 = c).
  Proof.
    intros i2 [hl hd] g2.
    assert (hn : forall o, o < n -> exists r, nth_error data o = Some r /\
               nth o (assignment_of data) 0 = as_usize (di (near r))).
    { intros o ho. destruct (nth_error_ex data (i := o)) as [r hr]; [lia|].
      exists r. split; auto. apply nth_error_nth. unfold assignment_of.
      rewrite nth_error_map, hr. auto. }
    split; [unfold assignment_of; rewrite map_length; auto|]. split.
    - intros o ho. destruct (hn o ho) as (r & hr & ->).
      destruct (rec2_x HD (hd o r hr)) as (a & s & hx).
      destruct (rec_x_near hx) as [_ hnear].
      destruct hx as (_ & _ & _ & -> & _). auto.
    - intros c hc. assert (hcn : nth c med 0 < n) by (apply inr_nth; auto; lia).
      destruct (hn _ hcn) as (r & hr & ->).
      rewrite (g2 _ r hr c); auto.
  Qed.

  Definition steep_mu (k : nat) (f : list nat -> nat) (st : pst Nt Lt) := f (p_med st).

  Lemma steep_run k med maxiter body (good : pst Nt Lt -> Prop) (f : list nat -> nat) st0 :
    length med = k -> measure_ok n D k f ->
    (forall st, good st -> p_good k st) ->
    (forall st, good st -> oks (body st) (fun c =>
        good (match c with Next s => s | Break s => s end) /\ steep_step k st c)) ->
    good st0 -> p_med st0 = med -> p_swaps st0 = 0 -> p_iter st0 = 0 ->
    oks (whileM maxiter body st0) (fun st =>
      good st /\
      let r := mkPR (p_loss st) (assignment_of (p_data st)) (p_iter st) (p_swaps st) (p_med st) in
      sd_summary med maxiter r /\ r_swaps r + f (r_med r) <= f med).
  Proof.
    intros hk hf hgood hbody hg0 hm hs hi.
    eapply oks_mono.
    - apply steepest with (body := body) (swaps := @p_swaps Nt Lt) (iter := @p_iter Nt Lt)
        (obj := fun st => tdev v n (p_med st)) (good := good)
        (optimal := fun st => swap_optimal v n (p_med st))
        (mu := fun st => f (p_med st)) (core := @p_med Nt Lt) (bestf := dev_best); auto.
      intros st hg. eapply oks_mono; [apply hbody; auto|].
      intros [s|s] [h1 h2].
      + destruct h2 as (q1 & q2 & q3 & q4 & q5). split; [auto|]. split; [auto|]. split; [|auto].
        pose proof (hgood st hg) as [[i1 i2 i3] g2 g3 g4].
        destruct q1 as [[j1 j2 j3] l2 l3 l4]. apply hf; [split; auto|split; auto|auto].
      + destruct h2 as (q1 & q2 & q3 & q4 & q5 & q6 & q7 & q8). rewrite q3. rewrite q3 in q2. auto 10.
    - intros st [h1 h2 h3 h4 h5 h6 h7 h8]. cbv zeta. split; [auto|].
      pose proof (hgood st h1) as [[i1 i2 i3] g2 g3 g4].
      destruct (assi_facts i2 i3 g2) as (a1 & a2 & a3).
      cbv beta in *. rewrite hm in *.
      split; [|cbn [r_swaps r_med]; exact h6].
      constructor; cbn [r_med r_assi r_loss r_swaps r_iter]; auto.
      + rewrite hk. split; auto.
      + intros c hc. apply a3. congruence.
  Qed.

  Lemma fastpam1_ok med maxiter f :
    sizes n (length med) -> medoids n (length med) med -> 2 <= length med ->
    measure_ok n D (length med) f ->
    oks (fastpam1 M med maxiter) (fun r => sd_summary med maxiter r /\ r_swaps r + f (r_med r) <= f med).
  Proof.
    intros hs (hl & hnd & hin) hk hf. assert (hn : 1 <= n) by (destruct hs; lia).
    unfold fastpam1.
    replace (length med =? 1) with false by (symmetry; apply Nat.eqb_neq; lia).
    pose proof (proj1 HD) as HM. destruct (emb_vals HD) as [he hdg].
    pose proof (initial_assignment_ok (Lt := Lt) HM hs hin hk) as h.
    apply oks_inv in h as ([loss data] & -> & hd & hsum & hown). cbn [bind fst snd] in *.
    eapply oks_bind.
    - apply steep_run with (med := med) (k := length med) (f := f)
        (good := fun st => p_good (length med) st /\ length (p_rl st) = length med); auto.
      + intros st [h _]. auto.
      + intros st [h1 h2]. eapply oks_mono; [apply (fastpam1_iteration_ok hn) with (2 := h1); auto; lia|].
        intros [s|s] [q1 q2]; (split; [|exact q2]); split; auto; apply q2.
      + cbn. split; [|apply repeat_length]. constructor; cbn; auto.
        * constructor; auto.
        * eauto.
        * eapply near_sum_tdev; eauto.
    - intros st [_ h]. exact h.
  Qed.

  Lemma pam_optimize_ok med data maxiter loss f :
    1 <= n -> medoids n (length med) med -> 2 <= length med ->
    data_ok n D med data -> data_own med data -> (vL loss == tdev v n med)%Q ->
    measure_ok n D (length med) f ->
    oks (pam_optimize M med data maxiter loss) (fun r =>
      sd_summary med maxiter r /\ r_swaps r + f (r_med r) <= f med).
  Proof.
    intros hn (hl & hnd & hin) hk hd hown hloss hf. unfold pam_optimize.
    replace (length med =? 1) with false by (symmetry; apply Nat.eqb_neq; lia).
    eapply oks_bind.
    - apply steep_run with (med := med) (k := length med) (f := f)
        (good := p_good (length med)); auto.
      + intros st h1. eapply oks_mono; [apply (pam_iteration_ok hn h1)|].
        intros [s|s] q; (split; [|exact q]); apply q.
      + constructor; cbn; auto. constructor; auto.
    - intros st [_ h]. exact h.
  Qed.

  Lemma pam_swap_ok med maxiter f :
    sizes n (length med) -> medoids n (length med) med -> 2 <= length med ->
    measure_ok n D (length med) f ->
    oks (pam_swap M med maxiter) (fun r => sd_summary med maxiter r /\ r_swaps r + f (r_med r) <= f med).
  Proof.
    intros hs hm hk hf. pose proof hm as (hl & hnd & hin).
    assert (hn : 1 <= n) by (destruct hs; lia).
    pose proof (proj1 HD) as HM. destruct (emb_vals HD) as [he hdg].
    unfold pam_swap.
    pose proof (initial_assignment_ok (Lt := Lt) HM hs hin hk) as h.
    apply oks_inv in h as ([loss data] & -> & hd & hsum & hown). cbn [bind fst snd] in *.
    apply pam_optimize_ok; auto.
    - eauto.
    - eapply near_sum_tdev; eauto.
  Qed.

  Lemma fastpam1_pam_swap med maxiter :
    sizes n (length med) -> medoids n (length med) med -> 2 <= length med ->
    exists r, fastpam1 (Lt := Lt) M med maxiter = Ok r /\ pam_swap M med maxiter = Ok r.
  Proof.
    intros hs (hl & hnd & hin) hk. assert (hn : 1 <= n) by (destruct hs; lia).
    pose proof (proj1 HD) as HM. destruct (emb_vals HD) as [he hdg].
    unfold fastpam1, pam_swap, pam_optimize.
    replace (length med =? 1) with false by (symmetry; apply Nat.eqb_neq; lia).
    pose proof (initial_assignment_ok (Lt := Lt) HM hs hin hk) as h.
    apply oks_inv in h as ([loss data] & -> & hd & hsum & hown). cbn [bind fst snd] in *.
    assert (hg0 : forall rl, p_good (length med) (mkP med data rl loss 0 0)).
    { intros rl. constructor; cbn; auto.
      - constructor; auto.
      - eauto.
      - eapply near_sum_tdev; eauto. }
    pose proof (runs_same (k := length med) maxiter
      (st1 := mkP med data (repeat lzero (length med)) loss 0 0)
      (st2 := mkP med data [] loss 0 0) hn ltac:(lia) (hg0 _) (repeat_length _ _)) as h.
    assert (hsame : same_but_rl (mkP med data (repeat lzero (length med)) loss 0 0)
                                (mkP med data [] loss 0 0)) by (unfold same_but_rl; auto 10).
    specialize (h hsame).
    destruct (whileM maxiter (fastpam1_iteration M) _) as [s1|]; [|contradiction].
    destruct (whileM maxiter (pam_iteration M) _) as [s2|]; [|contradiction].
    destruct h as (q1 & q2 & q3 & q4 & q5). cbn [bind]. eexists. split; [reflexivity|].
    rewrite q1, q2, q3, q4, q5. auto.
  Qed.

  (** one more iteration performs the best swap *)
  Lemma steep_next k body (good : pst Nt Lt -> Prop) st0 m s s' :
    (forall st, good st -> oks (body st) (fun c =>
        good (match c with Next s => s | Break s => s end) /\ steep_step k st c)) ->
    good st0 -> (forall s, whileM m body st0 = Ok s -> good s) ->
    whileM m body st0 = Ok s -> whileM (S m) body st0 = Ok s' ->
    s' = s \/
    (p_med s' = p_med s /\ swap_optimal v n (p_med s)) \/
    (exists b j, b < k /\ j < n /\ p_med s' = swap (p_med s) b j /\
       (tdev v n (p_med s') < tdev v n (p_med s))%Q /\
       forall b' j', b' < k -> j' < n -> (tdev v n (p_med s') <= tdev v n (swap (p_med s) b' j'))%Q).
  Proof.
    intros hbody hg hgs e1 e2. destruct (whileM_succ _ _ _ e1) as [e|e].
    - left. congruence.
    - rewrite e2 in e. symmetry in e. apply bind_ok in e as (c & ec & e).
      pose proof (hbody s (hgs s e1)) as hb. rewrite ec in hb. cbn [oks] in hb.
      destruct hb as [_ hb]. right.
      destruct c as [s2|s2]; injection e as <-.
      + destruct hb as (_ & (b & j & h1 & h2 & h3 & h4) & h5 & _). right. exists b, j. auto 10.
      + destruct hb as (_ & h2 & h3 & _). left. rewrite h3 in h2. auto.
  Qed.
End Exact.
