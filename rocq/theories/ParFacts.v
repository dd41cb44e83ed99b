(** ParFacts.v -- par_fasterpam: no panic for any number type and scheduling; equal to
    rand_fasterpam with the same candidate order under exact arithmetic. *)
From Coq Require Import ZArith QArith Lqa Lia Permutation.
From Verif Require Import Base Num M_Mat M_Util M_Fasterpam M_ParFasterpam Hoare Spec SpecFacts Laws
  PamShape PamExact LocalSearch FpFacts BuildFacts.
Set Implicit Arguments.
Open Scope nat_scope.

(** ** reductions *)
Lemma treduce_some A (op : A -> A -> A) t l : l <> [] -> exists x, treduce op t l = Some x.
Proof.
  revert l. induction t as [|p t1 IH1 t2 IH2]; intros l hl; simpl.
  - apply reduce_some. auto.
  - destruct (firstn p l) as [|x xs] eqn:e1.
    + destruct (skipn p l) as [|y ys] eqn:e2.
      * rewrite <- (firstn_skipn p l), e1, e2 in hl. destruct hl. auto.
      * destruct (IH2 (y :: ys)) as [z ->]; [discriminate|].
        destruct (treduce op t1 []); eauto.
    + destruct (IH1 (x :: xs)) as [z ->]; [discriminate|].
      destruct (treduce op t2 (skipn p l)); eauto.
Qed.

Lemma treduce_nil A (op : A -> A -> A) t : treduce op t [] = None.
Proof.
  induction t as [|p t1 IH1 t2 IH2]; simpl; auto.
  rewrite firstn_nil, skipn_nil, IH1, IH2. auto.
Qed.

(** ** the tasks cover all objects *)
Definition chunk {A} (st : nat) (l : list A) (x : nat) : list A :=
  skipn (x * st) (firstn (Nat.min (x * st + st) (length l)) l).

Lemma chunks_prefix A st (l : list A) t : flat_map (chunk st l) (seq 0 t) = firstn (t * st) l.
Proof.
  induction t as [|t IH]; [auto|].
  rewrite seq_S, flat_map_app, IH. simpl. rewrite app_nil_r. unfold chunk.
  assert (e : forall m, firstn (Nat.min m (length l)) l = firstn m l).
  { intros m. destruct (le_lt_dec m (length l)); [rewrite Nat.min_l by lia; auto|].
    rewrite Nat.min_r, firstn_all, firstn_all2 by lia. auto. }
  rewrite e. rewrite Nat.add_comm.
  rewrite <- (firstn_skipn (t * st) (firstn (st + t * st) l)) at 2. f_equal.
  rewrite firstn_firstn, Nat.min_l by lia. auto.
Qed.

Lemma div_up n p : 1 <= p -> n <= p * ((n + p - 1) / p).
Proof.
  intros hp. pose proof (Nat.div_mod (n + p - 1) p ltac:(lia)) as h.
  pose proof (Nat.mod_upper_bound (n + p - 1) p ltac:(lia)). lia.
Qed.

Lemma chunks_cover A (l : list A) p order : 1 <= p -> Permutation order (seq 0 p) ->
  Permutation (flat_map (chunk ((length l + p - 1) / p) l) order) l.
Proof.
  intros hp ho. rewrite (Permutation_flat_map _ ho), chunks_prefix, firstn_all2; auto.
  apply div_up. auto.
Qed.

Lemma In_chunk A st (l : list A) x y : In y (chunk st l x) -> In y l.
Proof.
  intros h. unfold chunk in h.
  rewrite <- (firstn_skipn (Nat.min (x * st + st) (length l)) l). apply in_or_app. left.
  rewrite <- (firstn_skipn (x * st) (firstn _ l)). apply in_or_app. auto.
Qed.

(** ** every schedule the thread pool can produce *)
Definition sched_ok (s : sched) : Prop :=
  1 <= s_parts s /\ Permutation (s_order s) (seq 0 (s_parts s)).
Definition oracle_ok (orc : oracle) : Prop := forall i j, sched_ok (o_find orc i j).

Section Shape.
  Context {Nt Lt : Type} `{HNN : NumN Nt} `{HNL : NumL Lt} `{HFN : FromN Nt Lt}.
  Variable M : Mat Nt.
  Variable n : nat.
  Variable D : nat -> nat -> Nt.
  Hypothesis HM : is_matrix M n D.

  (** all cached medoid numbers are valid *)
  Definition ix_rec (k : nat) (r : Rec Nt) : Prop :=
    exists a s, di (near r) = Some a /\ di (seco r) = Some s /\ a < k /\ s < k.
  Definition ix_data (k : nat) (data : list (Rec Nt)) : Prop :=
    length data = n /\ forall r, In r data -> ix_rec k r.

  Lemma par_initial_shape t med :
    sizes n (length med) -> inr n med -> 2 <= length med ->
    oks (par_initial_assignment (Lt := Lt) M t med) (fun p => ix_data (length med) (snd p)).
  Proof.
    intros hs hin hk. unfold par_initial_assignment.
    rewrite (check_input_ok HM hs). cbn [bind]. rewrite idx_nth with (d := 0) by lia. cbn [bind].
    assert (hn : 1 <= n) by (destruct hs; lia).
    rewrite (len_n HM). eapply oks_bind.
    { apply mapM_seq. intros o ho. apply (ia_obj_ok (Lt := Lt) HM hin ho). lia. }
    intros rs [hl hr]. cbv beta in hr.
    destruct (treduce_some ladd t (l := map snd rs)) as [x ->].
    { destruct rs; simpl in *; [lia|discriminate]. }
    cbn [bind unwrap oks snd]. split; [rewrite map_length; auto|].
    intros r h. apply in_map_iff in h as (p & <- & hp). apply In_nth_error in hp as [o hp].
    destruct (hr o p hp) as [_ hrec].
    destruct hrec as (a & s & h1 & h2 & _ & [h3 _] & [h4 _] & _). exists a, s. auto.
  Qed.

  Lemma url_shape k data (rl : list Lt) : length rl = k -> ix_data k data ->
    oks (update_removal_loss data rl) (fun rl' => length rl' = k).
  Proof.
    intros hl [_ hd]. unfold update_removal_loss. apply foldM_inv; [rewrite repeat_length; auto|].
    intros r s hr hs. destruct (hd r hr) as (a & b & -> & _ & ha & _). cbn [as_usize].
    rewrite add_at_ok by lia. cbn [oks]. rewrite length_set_nth. auto.
  Qed.

  Lemma par_task_shape k data j st x : ix_data k data -> j < n ->
    oks (par_task (Lt := Lt) M k data j st x) (fun p => length (fst p) = k).
  Proof.
    intros [hl hd] hj. unfold par_task. rewrite (len_n HM).
    apply foldM_inv with (I := fun p : list Lt * Lt => length (fst p) = k).
    - cbn [fst]. apply repeat_length.
    - intros [o r] [pl acc] h hp. cbn [fst] in hp.
      rewrite <- hl in h. replace (length data) with (length (enum data)) in h by apply length_enum.
      apply In_chunk in h. apply In_enum in h.
      assert (ho : o < n) by (rewrite <- hl; apply nth_error_lt with (1 := h)).
      destruct (hd r (nth_error_In _ _ h)) as (a & b & ea & _ & ha & _).
      unfold fbs_step. rewrite (get_ok HM) by auto. cbn [bind]. rewrite ea. cbn [as_usize].
      destruct (nltb _ _); [|destruct (nltb _ _)].
      + rewrite add_at_ok by lia. cbn [bind oks fst]. rewrite length_set_nth. auto.
      + rewrite add_at_ok by lia. cbn [bind oks fst]. rewrite length_set_nth. auto.
      + auto.
  Qed.

  Lemma par_fbs_shape k s (rl : list Lt) data j : 1 <= k -> length rl = k -> ix_data k data -> j < n ->
    oks (par_find_best_swap M s rl data j) (fun p => snd p < k).
  Proof.
    intros hk hl hd hj. unfold par_find_best_swap. eapply oks_bind.
    - apply foldM_inv with (I := fun p : list Lt * Lt => length (fst p) = k); [auto|].
      intros x [pl acc] _ hp. cbn [fst] in hp. rewrite hl. eapply oks_bind; [apply par_task_shape; auto|].
      intros [loss lagg] hlo. cbn [fst] in hlo. cbn [oks fst].
      rewrite map_length, combine_length, hp, hlo. apply Nat.min_id.
    - intros [pl acc] hp. cbn [fst] in hp.
      eapply oks_bind; [apply find_min_idx; intros ->; simpl in hp; lia|].
      intros [b bl] [hb _]. cbn [fst] in hb. cbn [oks snd]. lia.
  Qed.

  Lemma usn_shape med a b o d : inr n med -> o < n -> b < length med ->
    oks (update_second_nearest M med a b o d) (fun s => exists c, di s = Some c /\ c < length med).
  Proof.
    intros hin ho hb. unfold update_second_nearest.
    apply foldM_inv with (I := fun s : dpair Nt => exists c, di s = Some c /\ c < length med).
    - exists b. auto.
    - intros [i mi] s h hs. apply In_enum in h. destruct (_ || _); [auto|].
      rewrite (get_ok HM); [|auto|apply hin; apply nth_error_In with (1 := h)]. cbn [bind oks].
      destruct (nltb _ _); [|auto]. exists i. split; [auto|]. apply nth_error_lt with (1 := h).
  Qed.

  Lemma par_do_swap_shape t k med data b j :
    1 <= n -> length med = k -> inr n med -> j < n -> b < k -> ix_data k data ->
    oks (par_do_swap (Lt := Lt) M t med data b j) (fun '(med', data', _) =>
      med' = set_nth med b j /\ ix_data k data').
  Proof.
    intros hn hlm hin hj hb [hl hd]. unfold par_do_swap.
    replace (b <? length med) with true by (symmetry; apply Nat.ltb_lt; lia).
    rewrite (len_n HM). apply Nat.ltb_lt in hj as hj0. rewrite hj0. cbn [bind assertb].
    rewrite upd_ok by lia. cbn [bind]. eapply oks_bind.
    { apply mapM_enum with (R := fun o r (p : Rec Nt * Lt) => ix_rec k (fst p)).
      intros o r hr. assert (ho : o < n) by (rewrite <- hl; apply nth_error_lt with (1 := hr)).
      destruct (hd r (nth_error_In _ _ hr)) as (a & s & ea & es & ha & hs).
      assert (hin' : inr n (set_nth med b j)) by (apply inr_set_nth; auto).
      assert (hb' : b < length (set_nth med b j)) by (rewrite length_set_nth; lia).
      unfold par_do_swap_obj. rewrite ea, es. cbn [ieqb as_usize].
      destruct (o =? j).
      { cbn [oks fst]. destruct (negb _); [exists b, a|exists b, s]; cbn [near seco di]; auto. }
      rewrite (get_ok HM) by auto. cbn [bind].
      eapply oks_bind with (P := fun r' => ix_rec k r').
      - destruct (a =? b); [destruct (nltb _ _)|destruct (nltb _ _); [|destruct (s =? b); [|destruct (nltb _ _)]]].
        + exists b, s. cbn. auto.
        + eapply oks_bind; [apply usn_shape; auto|]. intros q (c & hc & hlt).
          rewrite length_set_nth, hlm in hlt. exists s, c. cbn [near seco]. auto.
        + exists b, a. cbn. auto.
        + eapply oks_bind; [apply usn_shape; auto|]. intros q (c & hc & hlt).
          rewrite length_set_nth, hlm in hlt. exists a, c. cbn [near seco]. auto.
        + exists a, b. cbn. auto.
        + exists a, s. auto.
      - intros r' hr'. exact hr'. }
    intros rs [hlr hr].
    destruct (treduce_some ladd t (l := map snd rs)) as [x ->].
    { destruct rs; simpl in *; [lia|discriminate]. }
    cbn [bind unwrap oks]. split; [auto|]. split; [rewrite map_length; lia|].
    intros r h. apply in_map_iff in h as (p & <- & hp). apply In_nth_error in hp as [o hp].
    destruct (nth_error_ex data (i := o)) as [r0 h0]; [rewrite <- hlr; apply nth_error_lt with (1 := hp)|].
    apply (hr o r0 p h0 hp).
  Qed.

  Record par_inv (k : nat) (st : fpst Nt Lt) : Prop := {
    pv_len : length (fp_med st) = k;
    pv_inr : inr n (fp_med st);
    pv_data : ix_data k (fp_data st);
    pv_rl : length (fp_rl st) = k
  }.

  Lemma par_cand_shape orc k st j : 1 <= n -> 1 <= k -> j < n -> par_inv k st ->
    oks (par_cand M orc st j) (fun c => match c with
      | Break s => s = st
      | Next s => par_inv k s /\ fp_iter s = fp_iter st /\ fp_swaps s <= S (fp_swaps st)
      end).
  Proof.
    intros hn hk hj hi. pose proof hi as [h1 h2 h3 h4]. unfold par_cand.
    destruct (j =? fp_last st); [cbn; auto|].
    destruct (nth_error_ex (fp_data st) (i := j)) as [r hr]; [destruct h3; lia|].
    rewrite (idx_some _ _ hr). cbn [bind].
    destruct (proj2 h3 r (nth_error_In _ _ hr)) as (a & s & ea & es & ha & hs).
    rewrite ea. cbn [as_usize]. rewrite idx_nth with (d := 0) by lia. cbn [bind].
    destruct (j =? _); [cbn; auto|].
    pose proof (par_fbs_shape (o_find orc (fp_iter st) j) (fp_rl st) hk h4 h3 hj) as hf.
    apply oks_inv in hf as ([ch b] & -> & hb). cbn [bind snd] in *.
    destruct (lleb lzero ch); [cbn; auto|].
    pose proof (par_do_swap_shape (o_swap orc (fp_iter st) j) hn h1 h2 hj hb h3) as hd.
    apply oks_inv in hd as ([[med' data'] loss'] & -> & -> & hd). cbn [bind].
    pose proof (url_shape (fp_rl st) h4 hd) as hu. apply oks_inv in hu as (rl' & -> & hu). cbn [bind oks].
    split; [|cbn; auto]. constructor; cbn; auto.
    - rewrite length_set_nth. auto.
    - apply inr_set_nth; auto.
  Qed.

  Lemma par_fasterpam_shape orc order med maxiter :
    sizes n (length med) -> inr n med -> 2 <= length med -> (forall j, In j order -> j < n) ->
    oks (par_fasterpam (Lt := Lt) M orc order med maxiter) (fun r =>
      length (r_med r) = length med /\ inr n (r_med r) /\ length (r_assi r) = n /\
      (forall o, o < n -> nth o (r_assi r) 0 < length med) /\ r_iter r <= maxiter /\
      r_swaps r <= length order * r_iter r).
  Proof.
    intros hs hin hk ho. unfold par_fasterpam.
    replace (length med =? 1) with false by (symmetry; apply Nat.eqb_neq; lia).
    assert (hn : 1 <= n) by (destruct hs; lia).
    pose proof (par_initial_shape (o_init orc) hs hin hk) as h.
    apply oks_inv in h as ([loss data] & -> & hd). cbn [bind snd] in *.
    pose proof (url_shape (repeat lzero (length med)) (repeat_length _ _) hd) as hu.
    apply oks_inv in hu as (rl & -> & hrl). cbn [bind].
    eapply oks_bind.
    - apply whileM_oks with (I := fun i st => par_inv (length med) st /\ fp_iter st = i /\
                                     fp_swaps st <= length order * i)
        (J := fun st => par_inv (length med) st /\ fp_iter st <= maxiter /\
                        fp_swaps st <= length order * fp_iter st).
      + cbn. split; [constructor; auto|]. auto with arith.
      + intros i st hlt (hi & hit & hsw). unfold par_iteration.
        eapply oks_bind with (P := fun st' => par_inv (length med) st' /\ fp_iter st' = S i /\
                                   fp_swaps st' <= length order * i + length order).
        * apply forM_oks with (I := fun pre st' => par_inv (length med) st' /\ fp_iter st' = S i /\
                                   fp_swaps st' <= length order * i + length pre).
          -- split; [destruct hi; constructor; auto|]. cbn. split; lia.
          -- intros pre j post s e (his & hsi & hss).
             assert (hjn : j < n) by (apply ho; rewrite e; apply in_or_app; simpl; auto).
             assert (hle : length pre <= length order) by (rewrite e, app_length; lia).
             eapply oks_mono; [apply par_cand_shape with (k := length med); auto; lia|].
             intros [s'|s']; [intros (c1 & c2 & c3)|intros ->]; rewrite ?app_length; cbn [length].
             ++ split; [auto|]. split; lia.
             ++ split; [auto|]. split; lia.
          -- intros s (c1 & c2 & c3). auto.
        * intros st' (c1 & c2 & c3). destruct (_ || _); cbn [oks].
          -- split; [auto|]. rewrite c2. split; lia.
          -- split; [auto|]. split; [auto|]. lia.
      + intros st (c1 & c2 & c3). split; [auto|]. rewrite c2. auto.
    - intros st ([i1 i2 [i3 i3'] i4] & c2 & c3). cbn [oks r_med r_assi r_iter r_swaps].
      split; [auto|]. split; [auto|]. split; [unfold assignment_of; rewrite map_length; auto|].
      split; [|auto]. intros o hoo.
      destruct (nth_error_ex (fp_data st) (i := o)) as [r hr]; [lia|].
      destruct (i3' r (nth_error_In _ _ hr)) as (a & s & ea & _ & ha & _).
      rewrite (nth_error_nth (assignment_of (fp_data st)) o 0 (x := a)); [auto|].
      unfold assignment_of. rewrite nth_error_map, hr. simpl. rewrite ea. auto.
  Qed.
End Shape.

Section Exact.
  Context {Nt Lt : Type} `{HLL : LossLaws Nt Lt}.
  Variable M : Mat Nt.
  Variable n : nat.
  Variable D : nat -> nat -> Nt.
  Hypothesis HD : diss_matrix M n D.
  Local Notation v := (vals D).

  Lemma treduce_sum t (l : list Lt) x : treduce ladd t l = Some x -> (vL x == sumQ vL l)%Q.
  Proof.
    revert l x. induction t as [|p t1 IH1 t2 IH2]; intros l x h; simpl in h.
    - apply reduce_sum. auto.
    - rewrite <- (firstn_skipn p l), sumQ_app.
      destruct (treduce ladd t1 (firstn p l)) as [a|] eqn:e1;
        destruct (treduce ladd t2 (skipn p l)) as [b|] eqn:e2; try discriminate.
      + injection h as <-. rewrite vL_add, (IH1 _ _ e1), (IH2 _ _ e2). reflexivity.
      + injection h as <-. rewrite (IH1 _ _ e1). destruct (skipn p l) as [|y ys].
        * cbn. lra.
        * destruct (treduce_some ladd t2 (l := y :: ys)) as [z hz]; [discriminate|congruence].
      + injection h as <-. rewrite (IH2 _ _ e2). destruct (firstn p l) as [|y ys].
        * cbn. lra.
        * destruct (treduce_some ladd t1 (l := y :: ys)) as [z hz]; [discriminate|congruence].
  Qed.

  (** parallel and sequential reduction give the same value *)
  Lemma reduce_same t (l : list Lt) : l <> [] ->
    exists x y, treduce ladd t l = Some x /\ reduce ladd l = Some y /\ (vL x == vL y)%Q.
  Proof.
    intros hl. destruct (treduce_some ladd t hl) as [x hx]. destruct (reduce_some ladd hl) as [y hy].
    exists x, y. split; [auto|]. split; [auto|].
    rewrite (treduce_sum _ _ hx), (reduce_sum _ hy). reflexivity.
  Qed.

  Lemma par_fbs_ok s med data (rl : list Lt) j :
    inr n med -> data_ok n D med data -> length rl = length med -> 1 <= length med -> j < n ->
    rl_ok data rl -> sched_ok s ->
    oks (par_find_best_swap M s rl data j) (best_slot n D med j).
  Proof.
    intros hin hdata hrl hk hj hrlok [hp hperm]. pose proof hdata as [hl hd].
    pose proof (proj1 HD) as HM. unfold par_find_best_swap. rewrite (len_n HM).
    set (st := (n + s_parts s - 1) / s_parts s).
    eapply oks_bind.
    - apply foldM_oks with (I := fun pre (p : list Lt * Lt) => length (fst p) = length med /\
        forall c, c < length med -> (vL (nth c (fst p) lzero) + vL (snd p) ==
          vL (nth c rl lzero) + sumQ (part_of D j c) (flat_map (chunk st (enum data)) pre))%Q).
      + split; [auto|]. intros c _. cbn. rewrite vL_zero. lra.
      + intros pre x post [pl acc] e [h1 h2]. cbn [fst snd] in *.
        eapply oks_bind.
        { unfold par_task. rewrite (len_n HM), hrl, <- hl, <- (length_enum data).
          apply (fbs_fold HD) with (med := med) (data := data); auto.
          - apply repeat_length.
          - intros o r h. apply In_enum. apply In_chunk in h. auto. }
        intros [loss lagg] [h3 h4]. cbn [oks fst snd] in *.
        split; [rewrite map_length, combine_length; lia|].
        intros c hc. rewrite flat_map_app, sumQ_app. cbn [flat_map]. rewrite app_nil_r.
        rewrite (nth_indep _ lzero (ladd lzero lzero)) by (rewrite map_length, combine_length; lia).
        change (ladd lzero lzero) with ((fun '(a, b) => ladd a b) ((lzero, lzero) : Lt * Lt)).
        rewrite map_nth, combine_nth by lia.
        specialize (h2 c hc). specialize (h4 c).
        assert (hz : nth c (repeat (lzero : Lt) (length med)) lzero = lzero).
        { apply nth_repeat. }
        rewrite hz, vL_zero in h4. rewrite !vL_add. unfold chunk at 2. fold st in h4. lra.
    - intros [pl acc] [h1 h2]. cbn [fst snd] in *. apply fbs_choose; auto.
      intros c hc. rewrite (h2 c hc). pose proof (hrlok c) as hc'. rewrite hc'.
      assert (hs : (sumQ (part_of D j c) (flat_map (chunk st (enum data)) (s_order s)) ==
                    sumQ (part_of D j c) (enum data))%Q).
      { apply sumQ_perm. unfold st. rewrite <- hl, <- (length_enum data).
        apply chunks_cover; auto. }
      rewrite hs. apply (part_delta HD hin hj hc hdata).
  Qed.

  Lemma best_slot_unique med j (p q : Lt * nat) :
    best_slot n D med j p -> best_slot n D med j q -> snd p = snd q /\ (vL (fst p) == vL (fst q))%Q.
  Proof.
    intros (p1 & p2 & p3 & p4) (q1 & q2 & q3 & q4).
    assert (e : snd p = snd q).
    { destruct (lt_eq_lt_dec (snd p) (snd q)) as [[h|h]|h]; [|auto|].
      - specialize (q4 _ h). specialize (p3 _ q1). lra.
      - specialize (p4 _ h). specialize (q3 _ p1). lra. }
    split; [auto|]. rewrite p2, q2, e. reflexivity.
  Qed.

  Lemma usn_stay med a b o d : inr n med -> o < n ->
    (forall i, i < length med -> i <> a -> i <> b -> nltb (D o (nth i med 0)) d = false) ->
    update_second_nearest M med a b o d = Ok (DP (Some b) d).
  Proof.
    intros hin ho h. pose proof (proj1 HD) as HM. unfold update_second_nearest.
    assert (G : oks (foldM (fun (s : dpair Nt) '(i, mi) =>
             if (i =? a) || (i =? b) then Ok s
             else d <- mget M o mi ;; Ok (if nltb d (dd s) then DP (Some i) d else s))
          (enum med) (DP (Some b) d)) (fun s => s = DP (Some b) d)).
    { apply foldM_inv; [auto|]. intros [i mi] s hi ->. apply In_enum in hi.
      destruct ((i =? a) || (i =? b)) eqn:e; [cbn; auto|].
      apply orb_false_iff in e as [e1 e2]. apply Nat.eqb_neq in e1, e2.
      rewrite (get_ok HM); [|auto|apply hin; apply nth_error_In with (1 := hi)]. cbn [bind oks dd].
      rewrite <- (nth_error_nth _ _ 0 hi). rewrite h; auto. apply nth_error_lt with (1 := hi). }
    apply oks_inv in G as (s & -> & ->). auto.
  Qed.

  Lemma par_do_swap_obj_eq med b j o r :
    inr n med -> o < n -> j < n -> b < length med -> rec2 n D (length med) med o r ->
    par_do_swap_obj (Lt := Lt) M (set_nth med b j) b j (o, r) =
    do_swap_obj (Lt := Lt) M (set_nth med b j) b j (o, r).
  Proof.
    intros hin ho hj hb hrec. pose proof (proj1 HD) as HM. destruct (emb_vals HD) as [he hg].
    destruct (rec2_x HD hrec) as (a & s & h1 & h2 & h3 & h4 & h5 & h6 & h7 & [m1 m2]).
    unfold par_do_swap_obj, do_swap_obj. rewrite h4, h5. cbn [ieqb as_usize].
    destruct (o =? j); [auto|]. rewrite (get_ok HM) by auto. cbn [bind].
    destruct (a =? b); [auto|]. destruct (nltb (D o j) (dd (near r))); [auto|].
    destruct (nltb (D o j) (dd (seco r))) eqn:e2; [|destruct (s =? b); auto].
    destruct (s =? b) eqn:esb; [|auto]. apply Nat.eqb_eq in esb. subst s.
    rewrite usn_stay; auto using inr_set_nth.
    intros i hi hia hib. rewrite length_set_nth in hi. rewrite nth_set_nth_neq by auto.
    assert (hin1 : nth i med 0 < n) by (apply inr_nth; auto).
    assert (hin2 : nth b med 0 < n) by (apply inr_nth; auto).
    rewrite h7 in e2. apply (emb_true he) in e2; auto.
    destruct (nltb (D o (nth i med 0)) (D o j)) eqn:e; [|auto].
    apply (emb_true he) in e; auto. specialize (m2 i hi hia). lra.
  Qed.

  Lemma mapM_same A B (f g : A -> res B) l :
    (forall a, In a l -> f a = g a) -> mapM f l = mapM g l.
  Proof.
    induction l as [|a l IH]; intros h; simpl; [auto|].
    rewrite (h a) by (simpl; auto). destruct (g a); simpl; [|auto]. rewrite IH; auto.
    intros x hx. apply h. simpl. auto.
  Qed.

  Lemma par_do_swap_same t med data b j :
    1 <= n -> inr n med -> j < n -> b < length med -> data_ok n D med data ->
    exists data' loss loss',
      do_swap (Lt := Lt) M med data b j = Ok (set_nth med b j, data', loss) /\
      par_do_swap (Lt := Lt) M t med data b j = Ok (set_nth med b j, data', loss') /\
      (vL loss == vL loss')%Q.
  Proof.
    intros hn hin hj hb [hl hd]. pose proof (proj1 HD) as HM.
    assert (hdata : data_ok n D med data) by (split; auto).
    pose proof (do_swap_ok (Lt := Lt) HM hn hin hj hb hdata) as h.
    apply oks_inv in h as ([[med' data'] loss] & e & -> & _). rewrite e.
    unfold par_do_swap. unfold do_swap in e.
    apply Nat.ltb_lt in hb as hb0. rewrite hb0 in *.
    rewrite (len_n HM) in *. apply Nat.ltb_lt in hj as hj0. rewrite hj0 in *. cbn [bind assertb] in *.
    rewrite upd_ok in * by auto. cbn [bind] in *.
    rewrite (mapM_same (par_do_swap_obj M (set_nth med b j) b j)
                       (do_swap_obj M (set_nth med b j) b j) (enum data)).
    2:{ intros [o r] h. apply In_enum in h.
        assert (ho : o < n) by (rewrite <- hl; apply nth_error_lt with (1 := h)).
        apply par_do_swap_obj_eq; auto. }
    destruct (mapM (do_swap_obj M (set_nth med b j) b j) (enum data)) as [rs|]; [|discriminate].
    cbn [bind] in *. destruct (reduce ladd (map snd rs)) as [y|] eqn:er; [|discriminate].
    destruct (reduce_same t (l := map snd rs)) as (x & y' & -> & ey & hxy).
    { intros h. rewrite h in er. discriminate. }
    cbn [unwrap bind] in *. injection e as e1 e2. subst data' loss.
    exists (map fst rs), y, x. split; [auto|]. split; [auto|].
    rewrite er in ey. injection ey as <-. symmetry. auto.
  Qed.

  (** two states which differ at most in the representation of the loss *)
  Definition sim (s t : fpst Nt Lt) : Prop :=
    fp_med t = fp_med s /\ fp_data t = fp_data s /\ fp_rl t = fp_rl s /\ fp_last t = fp_last s /\
    fp_swaps t = fp_swaps s /\ fp_iter t = fp_iter s /\ (vL (fp_loss s) == vL (fp_loss t))%Q.

  Definition simc (c d : ctl (fpst Nt Lt)) : Prop :=
    match c, d with
    | Next s, Next t => sim s t
    | Break s, Break t => sim s t
    | _, _ => False
    end.

  Lemma par_cand_sim orc k st st' j :
    oracle_ok orc -> 1 <= n -> 1 <= k -> j < n -> fp_good n D k st -> sim st st' ->
    exists c c', fp_cand M st j = Ok c /\ par_cand M orc st' j = Ok c' /\ simc c c'.
  Proof.
    intros ho hn hk hj hg (s1 & s2 & s3 & s4 & s5 & s6 & s7).
    pose proof hg as [g1 g2 g3 g4 g5]. pose proof g1 as [i1 i2 i3 i4].
    pose proof (proj1 HD) as HM.
    unfold par_cand, fp_cand. rewrite s1, s2, s3, s4, s5, s6.
    assert (hss : sim st st') by (repeat split; auto).
    destruct (j =? fp_last st); [exists (Break st), (Break st'); auto|].
    destruct (nth_error_ex (fp_data st) (i := j)) as [r hr]; [destruct i3; lia|].
    rewrite (idx_some _ _ hr). cbn [bind].
    destruct (rec2_near (proj2 i3 j r hr)) as (a & ea & ha).
    rewrite ea. cbn [as_usize]. rewrite idx_nth with (d := 0) by auto. cbn [bind].
    destruct (j =? _); [exists (Next st), (Next st'); auto|].
    assert (hl : length (fp_rl st) = length (fp_med st)) by congruence.
    assert (hk' : 1 <= length (fp_med st)) by lia.
    pose proof (find_best_swap_ok HD i2 i3 hl hk' hj g4) as hb.
    pose proof (par_fbs_ok i2 i3 hl hk' hj g4 (ho (fp_iter st) j)) as hb'.
    apply oks_inv in hb as ([ch b] & -> & hb). apply oks_inv in hb' as ([ch' b'] & -> & hb').
    destruct (best_slot_unique hb hb') as [eb hch]. cbn [fst snd] in eb, hch. subst b'. cbn [bind].
    assert (el : lleb lzero ch' = lleb lzero ch).
    { destruct (lleb lzero ch) eqn:e.
      - apply lleb_spec in e. apply lleb_spec. lra.
      - destruct (lleb lzero ch') eqn:e'; [|auto]. apply lleb_spec in e'.
        assert (hx : lleb lzero ch = true) by (apply lleb_spec; lra). congruence. }
    rewrite el. destruct (lleb lzero ch); [exists (Next st), (Next st'); auto|].
    destruct (par_do_swap_same (o_swap orc (fp_iter st) j) hn i2 hj (proj1 hb) i3)
      as (data' & loss & loss' & e1 & e2 & e3). cbn [snd] in e1, e2.
    rewrite e1, e2. cbn [bind].
    pose proof (do_swap_ok (Lt := Lt) HM hn i2 hj (proj1 hb) i3) as hd.
    cbn [snd] in hd. rewrite e1 in hd. destruct hd as (_ & hd & _).
    assert (hl' : length (fp_rl st) = length (set_nth (fp_med st) b j)) by (rewrite length_set_nth; auto).
    pose proof (update_removal_loss_len (fp_rl st) hd hl') as hu.
    apply oks_inv in hu as (rl' & -> & _). cbn [bind].
    eexists. eexists. split; [reflexivity|]. split; [reflexivity|]. repeat split; auto.
  Qed.

  Lemma par_for_sim orc k order st st' :
    oracle_ok orc -> 1 <= n -> 1 <= k -> (forall j, In j order -> j < n) ->
    fp_good n D k st -> sim st st' ->
    exists s s', forM (fp_cand M) order st = Ok s /\ forM (par_cand M orc) order st' = Ok s' /\
      sim s s' /\ fp_good n D k s.
  Proof.
    intros ho hn hk. revert st st'. induction order as [|j order IH]; intros st st' hin hg hs.
    - exists st, st'. auto.
    - assert (hj : j < n) by (apply hin; simpl; auto).
      destruct (par_cand_sim ho hn hk hj hg hs) as (c & c' & e1 & e2 & hc).
      pose proof (fp_cand_spec HD hn hk hj (@measure_better _ _ _ n D k) hg) as hsp.
      cbn [forM]. rewrite e1 in *. rewrite e2. cbn [bind oks] in *.
      destruct c as [s|s], c' as [s'|s']; try contradiction.
      + apply IH; [intros; apply hin; simpl; auto|apply hsp|auto].
      + destruct hsp as [-> _]. exists st, s'. auto.
  Qed.

  Lemma par_while_sim orc k order maxiter st st' :
    oracle_ok orc -> 1 <= n -> 1 <= k -> (forall j, In j order -> j < n) ->
    fp_good n D k st -> sim st st' ->
    exists s s', whileM maxiter (fp_iteration M order) st = Ok s /\
      whileM maxiter (par_iteration M orc order) st' = Ok s' /\ sim s s' /\ fp_good n D k s.
  Proof.
    intros ho hn hk hin. revert st st'. induction maxiter as [|mi IH]; intros st st' hg hs.
    - exists st, st'. auto.
    - cbn [whileM]. unfold fp_iteration at 1, par_iteration at 1.
      pose proof hs as (s1 & s2 & s3 & s4 & s5 & s6 & s7).
      set (t := mkFp (fp_med st) (fp_data st) (fp_rl st) (fp_loss st) (fp_last st)
                     (fp_swaps st) (S (fp_iter st))).
      set (t' := mkFp (fp_med st') (fp_data st') (fp_rl st') (fp_loss st') (fp_last st')
                     (fp_swaps st') (S (fp_iter st'))).
      assert (ht : sim t t') by (repeat split; cbn; auto; congruence).
      assert (hgt : fp_good n D k t).
      { destruct hg as [[] ? ? ? ?]. constructor; auto. constructor; auto. }
      destruct (par_for_sim order ho hn hk hin hgt ht) as (s & s' & -> & -> & hss & hgs).
      cbn [bind]. pose proof hss as (q1 & q2 & q3 & q4 & q5 & q6 & q7).
      assert (el : lleb (fp_loss st') (fp_loss s') = lleb (fp_loss st) (fp_loss s)).
      { destruct (lleb (fp_loss st) (fp_loss s)) eqn:e.
        - apply lleb_spec in e. apply lleb_spec. lra.
        - destruct (lleb (fp_loss st') (fp_loss s')) eqn:e'; [|auto]. apply lleb_spec in e'.
          assert (hx : lleb (fp_loss st) (fp_loss s) = true) by (apply lleb_spec; lra). congruence. }
      rewrite el, q5, s5. destruct (_ || _); cbn [bind].
      + exists s, s'. auto.
      + apply IH; auto.
  Qed.

  Lemma par_fasterpam_rand orc order med maxiter :
    sizes n (length med) -> medoids n (length med) med -> (forall j, In j order -> j < n) ->
    oracle_ok orc ->
    exists r r', rand_fasterpam (Lt := Lt) M order med maxiter = Ok r /\
      par_fasterpam (Lt := Lt) M orc order med maxiter = Ok r' /\ same_result r r'.
  Proof.
    intros hs hm ho hor. pose proof (proj1 HD) as HM.
    assert (hn : 1 <= n /\ 1 <= length med) by (destruct hs; lia). destruct hn as [hn hk].
    unfold rand_fasterpam, fasterpam_order, par_fasterpam.
    destruct (length med =? 1) eqn:e1.
    - apply Nat.eqb_eq in e1. pose proof (ChooseFacts.single_medoid_shape (Lt := Lt) HM e1 (proj2 (proj2 hm))) as h.
      apply oks_inv in h as (r & -> & _). exists r, r. split; [auto|]. split; [auto|].
      repeat split; reflexivity.
    - apply Nat.eqb_neq in e1. assert (hk2 : 2 <= length med) by lia.
      destruct (fp_initial HD hs hm hk2) as (loss & data & rl & ei & er & hg).
      rewrite ei. cbn [bind]. rewrite er. cbn [bind].
      unfold initial_assignment in ei. unfold par_initial_assignment.
      rewrite (check_input_ok HM hs) in *. cbn [bind] in *.
      destruct (idx med 0) as [fc|]; [|discriminate]. cbn [bind] in *.
      destruct (mapM (ia_obj M med fc) (seq 0 (mlen M))) as [rs|] eqn:ers; [|discriminate].
      cbn [bind] in *. destruct (reduce ladd (map snd rs)) as [y|] eqn:ere; [|discriminate].
      destruct (reduce_same (o_init orc) (l := map snd rs)) as (x & y' & -> & ey & hxy).
      { intros h. rewrite h in ere. discriminate. }
      cbn [bind unwrap] in *. injection ei as e2 e3. subst y data. rewrite er. cbn [bind].
      rewrite ere in ey. injection ey as <-.
      destruct (par_while_sim (orc := orc) (k := length med) order maxiter
        (st := mkFp med (map fst rs) rl loss (mlen M) 0 0)
        (st' := mkFp med (map fst rs) rl x (mlen M) 0 0)) as (s & s' & -> & -> & hss & _); auto.
      { repeat split; auto. cbn. symmetry. auto. }
      cbn [bind]. eexists. eexists. split; [reflexivity|]. split; [reflexivity|].
      destruct hss as (q1 & q2 & q3 & q4 & q5 & q6 & q7). unfold same_result.
      cbn [r_med r_assi r_iter r_swaps r_loss]. rewrite q1, q2, q5, q6. auto 10.
  Qed.
End Exact.
