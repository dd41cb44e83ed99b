(** CostMore.v -- the counting functions of M_Cost2.v compute the same as those of the model, and how many entries
    of the matrix they read. *)
From Coq Require Import Lia Permutation.
From Verif Require Import Base Num M_Mat M_Util M_Fasterpam M_Pam M_Alternating M_Silhouette M_Msc M_Pammedsil M_Pamsil
  M_Dynmsc M_ParFasterpam M_Cost M_Cost2 Hoare Spec SilFacts ParFacts CostFacts CostBounds CostExact.
Set Implicit Arguments.

Section Same.
  Context {Nt Lt : Type} `{HNN : NumN Nt} `{HNL : NumL Lt} `{HFN : FromN Nt Lt}.
  Variable M : Mat Nt.

  Hint Resolve build_first_same build_next_same pammedsil_optimize_same assign_nearest_same silhouette_same
    choose_medoid_within_partition_same single_medoid_same initial_assignment3_same msc_iteration_same fastermsc_k2_same
    ia_obj_same fbs_step_same update_second_nearest_same : er.

  Lemma build3_upd_obj_same l bj jrec : snd (build3_upd_obj_n (Lt := Lt) M l bj jrec) = build3_upd_obj M l bj jrec.
  Proof. unfold build3_upd_obj_n, build3_upd_obj. er. Qed.
  Hint Resolve build3_upd_obj_same : er.

  Lemma build3_step_same k st l : snd (build3_step_n (Lt := Lt) M k st l) = build3_step M k st l.
  Proof. unfold build3_step_n, build3_step. er. Qed.
  Hint Resolve build3_step_same : er.

  Lemma pammedsil_build_initialize_same k : snd (pammedsil_build_initialize_n (Lt := Lt) M k) = pammedsil_build_initialize M k.
  Proof. unfold pammedsil_build_initialize_n, pammedsil_build_initialize. er. Qed.
  Hint Resolve pammedsil_build_initialize_same : er.

  Lemma pammedsil_same k maxiter : snd (pammedsil_n (Lt := Lt) M k maxiter) = pammedsil M k maxiter.
  Proof. unfold pammedsil_n, pammedsil. er. Qed.

  Lemma pamsil_cand_same m medm st j : snd (pamsil_cand_n (Lt := Lt) M m medm st j) = pamsil_cand M m medm st j.
  Proof. unfold pamsil_cand_n, pamsil_cand. er. Qed.
  Hint Resolve pamsil_cand_same : er.

  Lemma pamsil_pos_same st m : snd (pamsil_pos_n (Lt := Lt) M st m) = pamsil_pos M st m.
  Proof. unfold pamsil_pos_n, pamsil_pos. er. Qed.
  Hint Resolve pamsil_pos_same : er.

  Lemma pamsil_iteration_same st : snd (pamsil_iteration_n (Lt := Lt) M st) = pamsil_iteration M st.
  Proof. unfold pamsil_iteration_n, pamsil_iteration. er. Qed.
  Hint Resolve pamsil_iteration_same : er.

  Lemma pamsil_optimize_same med assi maxiter : snd (pamsil_optimize_n (Lt := Lt) M med assi maxiter) = pamsil_optimize M med assi maxiter.
  Proof. unfold pamsil_optimize_n, pamsil_optimize. er. Qed.
  Hint Resolve pamsil_optimize_same : er.

  Lemma pamsil_swap_same med maxiter : snd (pamsil_swap_n (Lt := Lt) M med maxiter) = pamsil_swap M med maxiter.
  Proof. unfold pamsil_swap_n, pamsil_swap. er. Qed.

  Lemma pamsil_upd_obj_same bj jd : snd (pamsil_upd_obj_n M bj jd) = pamsil_upd_obj M bj jd.
  Proof. unfold pamsil_upd_obj_n, pamsil_upd_obj. er. Qed.
  Hint Resolve pamsil_upd_obj_same : er.

  Lemma pamsil_build_step_same k st l : snd (pamsil_build_step_n (Lt := Lt) M k st l) = pamsil_build_step (Lt := Lt) M k st l.
  Proof. unfold pamsil_build_step_n, pamsil_build_step. er. Qed.
  Hint Resolve pamsil_build_step_same : er.

  Lemma pamsil_build_initialize_same k : snd (pamsil_build_initialize_n (Lt := Lt) M k) = pamsil_build_initialize (Lt := Lt) M k.
  Proof. unfold pamsil_build_initialize_n, pamsil_build_initialize. er. Qed.
  Hint Resolve pamsil_build_initialize_same : er.

  Lemma pamsil_same k maxiter : snd (pamsil_n (Lt := Lt) M k maxiter) = pamsil M k maxiter.
  Proof. unfold pamsil_n, pamsil. er. Qed.

  Lemma update_third_nearest_without_new_same med n s b o :
    snd (update_third_nearest_without_new_n M med n s b o) = update_third_nearest_without_new M med n s b o.
  Proof. unfold update_third_nearest_without_new_n, update_third_nearest_without_new. er. Qed.
  Hint Resolve update_third_nearest_without_new_same : er.

  Lemma remove_med_obj_same med l b oreco : snd (remove_med_obj_n (Lt := Lt) M med l b oreco) = remove_med_obj M med l b oreco.
  Proof. unfold remove_med_obj_n, remove_med_obj. cbv zeta. er. Qed.
  Hint Resolve remove_med_obj_same : er.

  Lemma remove_med_same med data b : snd (remove_med_n (Lt := Lt) M med data b) = remove_med M med data b.
  Proof. unfold remove_med_n, remove_med. cbv zeta. er. Qed.
  Hint Resolve remove_med_same : er.

  Lemma dyn_round_same mk maxiter st : snd (dyn_round_n (Lt := Lt) M mk maxiter st) = dyn_round M mk maxiter st.
  Proof. unfold dyn_round_n, dyn_round. cbv zeta. er. Qed.
  Hint Resolve dyn_round_same : er.

  Lemma dynmsc_same med mink maxiter : snd (dynmsc_n (Lt := Lt) M med mink maxiter) = dynmsc M med mink maxiter.
  Proof. unfold dynmsc_n, dynmsc. cbv zeta. er. Qed.

  Lemma par_initial_assignment_same t med : snd (par_initial_assignment_n (Lt := Lt) M t med) = par_initial_assignment M t med.
  Proof. unfold par_initial_assignment_n, par_initial_assignment. er. Qed.
  Hint Resolve par_initial_assignment_same : er.

  Lemma par_task_same l data j step x : snd (par_task_n (Lt := Lt) M l data j step x) = par_task M l data j step x.
  Proof. unfold par_task_n, par_task. cbv zeta. er. Qed.
  Hint Resolve par_task_same : er.

  Lemma par_find_best_swap_same s rl data j : snd (par_find_best_swap_n (Lt := Lt) M s rl data j) = par_find_best_swap M s rl data j.
  Proof. unfold par_find_best_swap_n, par_find_best_swap. cbv zeta. er. Qed.
  Hint Resolve par_find_best_swap_same : er.

  Lemma par_do_swap_obj_same med b j oreco : snd (par_do_swap_obj_n (Lt := Lt) M med b j oreco) = par_do_swap_obj M med b j oreco.
  Proof. unfold par_do_swap_obj_n, par_do_swap_obj. er. Qed.
  Hint Resolve par_do_swap_obj_same : er.

  Lemma par_do_swap_n_same t med data b j : snd (par_do_swap_n (Lt := Lt) M t med data b j) = par_do_swap M t med data b j.
  Proof. unfold par_do_swap_n, par_do_swap. er. Qed.
  Hint Resolve par_do_swap_n_same : er.

  Lemma par_cand_same orc st j : snd (par_cand_n (Lt := Lt) M orc st j) = par_cand M orc st j.
  Proof. unfold par_cand_n, par_cand. er. Qed.
  Hint Resolve par_cand_same : er.

  Lemma par_iteration_same orc order st : snd (par_iteration_n (Lt := Lt) M orc order st) = par_iteration M orc order st.
  Proof. unfold par_iteration_n, par_iteration. cbv zeta. er. Qed.
  Hint Resolve par_iteration_same : er.

  Lemma par_fasterpam_same orc order med maxiter :
    snd (par_fasterpam_n (Lt := Lt) M orc order med maxiter) = par_fasterpam M orc order med maxiter.
  Proof. unfold par_fasterpam_n, par_fasterpam. er. Qed.
End Same.

(** ** BUILD *)
Section Build.
  Context {Nt Lt : Type} `{HNN : NumN Nt} `{HNL : NumL Lt} `{HFN : FromN Nt Lt}.
  Variable M : Mat Nt.
  Notation n := (mlen M).

  Lemma build_first_sum_cost i : i < n -> cok (build_first_sum_n (Lt := Lt) M i) (fun c _ => c = n - 1).
  Proof.
    intros hi. unfold build_first_sum_n. eapply cok_mono.
    - apply cok_fold with (I := fun _ => True) (w := fun j => if j =? i then 0 else 1); auto.
      intros j s' _ _. destruct (j =? i); cbn [negb]; [apply cok_ret; auto|apply cok_get1; auto].
    - intros c x [-> _]. rewrite sum_but by lia. auto.
  Qed.

  Lemma build_first_best k : 1 <= n -> cok (build_first_n (Lt := Lt) M k) (fun c best => c = n * (n - 1) /\ snd best < n).
  Proof.
    intros hn. unfold build_first_n. destruct n as [|m] eqn:e; [lia|]. cbn [seq cfoldM]. rewrite <- e.
    eapply cok_bind with (P := fun c b => c = n - 1 /\ snd b < n).
    - eapply cok_bind; [apply build_first_sum_cost; lia|]. intros c x ->. cbn [Nat.eqb orb].
      apply cok_ret. cbn [snd]. lia.
    - intros c b [-> hb]. eapply cok_mono.
      + apply cok_fold with (I := fun b : Lt * nat => snd b < n) (w := fun _ => n - 1); auto.
        intros i s hi hs. apply in_seq in hi. eapply cok_bind; [apply build_first_sum_cost; lia|]. intros c x ->.
        apply cok_ret. destruct ((i =? 0) || lltb x (fst s)); cbn [snd]; lia.
      + cbv beta. intros c b' [-> hb']. rewrite list_sum_const, seq_length. split; [nia|auto].
  Qed.

  Lemma build_next_sum_cost dn i : i < length dn ->
    cok (build_next_sum_n (Lt := Lt) M dn i) (fun c _ => c = length dn - 1).
  Proof.
    intros hi. unfold build_next_sum_n. eapply cok_bind; [apply cok_idx|]. intros c d0 [-> _].
    eapply cok_mono;
      [apply cok_fold with (I := fun _ => True) (w := fun p : nat * Nt => if fst p =? i then 0 else 1); auto|].
    - intros [j dj] s' _ _. cbn [fst]. destruct (j =? i); cbn [negb]; [apply cok_ret; auto|apply cok_get1; auto].
    - intros c x [-> _]. rewrite (map_enum (fun j => if j =? i then 0 else 1)), sum_but by lia. lia.
  Qed.

  (** the scan for the best candidate *)
  Definition next_step (dn : list Nt) (best : Lt * nat) (i : nat) : cres (Lt * nat) :=
    cbind (build_next_sum_n (Lt := Lt) M dn i) (fun sum => cret (if (i =? 0) || lltb sum (fst best) then (sum, i) else best)).

  Lemma next_scan dn cands b0 : (forall i, In i cands -> i < length dn) ->
    cok (cfoldM (next_step dn) cands b0) (fun c b => c = (length dn - 1) * length cands /\ (snd b < length dn \/ b = b0)).
  Proof.
    intros hc. eapply cok_mono.
    - apply cok_fold with (I := fun b : Lt * nat => snd b < length dn \/ b = b0) (w := fun _ => length dn - 1); [auto|].
      intros i s hi hs. specialize (hc i hi). unfold next_step.
      eapply cok_bind; [apply build_next_sum_cost; auto|]. intros c x ->.
      apply cok_ret. split; [lia|]. destruct ((i =? 0) || lltb x (fst s)); [left; cbn [snd]; lia|auto].
    - cbv beta. intros c b [-> hb]. rewrite list_sum_const. auto.
  Qed.

  Lemma build_next_best k dn : 1 <= length dn ->
    cok (build_next_n (Lt := Lt) M k dn (seq 0 (length dn))) (fun c best => c = length dn * (length dn - 1) /\ snd best < length dn).
  Proof.
    intros hn. change (build_next_n (Lt := Lt) M k dn (seq 0 (length dn)))
      with (cfoldM (next_step dn) (seq 0 (length dn)) (lzero, k)).
    destruct (length dn) as [|m] eqn:e; [lia|]. cbn [seq cfoldM].
    eapply cok_bind with (P := fun c b => c = m /\ snd b < S m).
    - unfold next_step. eapply cok_bind; [apply build_next_sum_cost; lia|]. intros c x ->. cbn [Nat.eqb orb].
      apply cok_ret. cbn [snd]. lia.
    - intros c b [-> hb]. eapply cok_mono.
      + apply next_scan. intros i hi. apply in_seq in hi. lia.
      + cbv beta. rewrite e, seq_length. intros c b' [-> [hb'| ->]]; split; nia.
  Qed.

  (** updating the records costs one entry for every object but the new medoid *)
  Lemma upd_cost A B (f : nat * A -> cres B) bj (l : list A) : bj < length l ->
    (forall p, cok (f p) (fun c _ => c = if fst p =? bj then 0 else 1)) ->
    cok (cmapM f (enum l)) (fun c r => c = length l - 1 /\ length r = length l).
  Proof.
    intros hb h. eapply cok_mono.
    - apply cok_map with (w := fun p : nat * A => if fst p =? bj then 0 else 1). intros p _. apply h.
    - cbv beta. intros c r [-> hr]. rewrite length_enum in hr. split; [|auto].
      rewrite (map_enum (fun j => if j =? bj then 0 else 1)), sum_but by lia. auto.
  Qed.

  (** BUILD of PAM *)
  Lemma build_step_exact k st l : 1 <= n -> b_len M st ->
    cok (build_step_n (Lt := Lt) M k st l) (fun c x =>
      (x = Break st /\ c = n * (n - 1)) \/
      (exists s, x = Next s /\ b_len M s /\ length (b_meds s) = S (length (b_meds st)) /\ c = n * n - 1)).
  Proof.
    intros hn hl. unfold build_step_n. rewrite map_fst_enum.
    assert (h0 := @build_next_best k (map (fun r => dd (near r)) (b_data st))). unfold b_len in hl. rewrite map_length, hl in h0. rewrite hl.
    eapply cok_bind; [apply h0; auto|]. intros c best [-> hb]. destruct (lleb lzero (fst best)).
    - apply cok_ret. left. split; [auto|lia].
    - eapply cok_bind.
      + apply upd_cost with (bj := snd best); [rewrite hl; auto|]. intros [j recj]. unfold build_upd_obj_n. cbn [fst].
        destruct (j =? snd best); [apply cok_ret; auto|].
        eapply cok_bind; [apply cok_get with (Q := fun c _ => c = 1); auto|]. intros c d ->. apply cok_ret. auto.
      + cbv beta. intros c rs [-> hrs]. apply cok_ret. right. eexists. split; [reflexivity|].
        unfold b_len. cbn [b_meds b_data]. rewrite map_length, app_length, hrs. cbn [length].
        rewrite hl. split; [auto|]. split; [lia|]. nia.
  Qed.

  Lemma build_exact k : 1 <= n -> 1 <= k -> cok (pam_build_initialize_n (Lt := Lt) M k) (fun c st =>
    b_len M st /\ 1 <= length (b_meds st) <= k /\
    c = n * n + (length (b_meds st) - 1) * (n * n - 1) + if length (b_meds st) <? k then n * (n - 1) else 0).
  Proof.
    intros hn hk. unfold pam_build_initialize_n.
    eapply cok_bind; [apply cok_lift with (Q := fun c _ => c = 0); auto|]. intros c sq ->.
    eapply cok_bind; [apply cok_lift with (Q := fun c _ => c = 0); auto|]. intros c u ->.
    eapply cok_bind; [apply build_first_best; auto|]. intros c best [-> hb].
    eapply cok_bind; [apply cok_map with (w := fun _ => 1); intros j _; apply cok_get1; auto|].
    intros c data [-> hd]. rewrite list_sum_const. rewrite seq_length in *.
    assert (G : forall m l s, 1 <= length (b_meds s) -> b_len M s ->
      cok (cforM (build_step_n (Lt := Lt) M k) (seq l m) s) (fun c s' =>
        b_len M s' /\ length (b_meds s) <= length (b_meds s') <= length (b_meds s) + m /\
        c = (length (b_meds s') - length (b_meds s)) * (n * n - 1) +
            if length (b_meds s') <? length (b_meds s) + m then n * (n - 1) else 0)).
    { induction m as [|m IH]; intros l s h1 hl; cbn [seq cforM].
      - apply cok_ret. split; [auto|]. split; [lia|]. rewrite Nat.sub_diag, Nat.add_0_r, Nat.ltb_irrefl. auto.
      - eapply cok_bind; [apply build_step_exact; auto|]. intros c x [[-> ->]|(s' & -> & hl' & hm & ->)].
        + apply cok_ret. split; [auto|]. split; [lia|].
          destruct (Nat.ltb_spec (length (b_meds s)) (length (b_meds s) + S m)); [|lia]. rewrite Nat.sub_diag. lia.
        + eapply cok_mono; [apply IH; [lia|auto]|]. cbv beta. intros c s'' (g1 & g2 & ->). split; [auto|].
          split; [lia|]. rewrite hm in *. replace (length (b_meds s) + S m) with (S (length (b_meds s)) + m) by lia.
          replace (length (b_meds s'') - length (b_meds s)) with (S (length (b_meds s'') - S (length (b_meds s)))) by lia.
          cbn [Nat.mul]. lia. }
    eapply cok_mono; [apply G; [cbn; lia|unfold b_len; cbn [b_data]; auto]|].
    cbv beta. cbn [b_meds length]. intros c s (g1 & g2 & ->). split; [auto|]. split; [lia|].
    replace (1 + (k - 1)) with k by lia. nia.
  Qed.

  (** BUILD of PAMMEDSIL never tries object 0 after the first medoid *)
  Definition b3_len (st : b3st Nt Lt) : Prop := length (b3_data st) = n.

  Lemma build3_step_exact k st l : 1 <= n -> lleb (lzero : Lt) lzero = true -> b3_len st ->
    cok (build3_step_n (Lt := Lt) M k st l) (fun c x =>
      (x = Break st /\ c = (n - 1) * (n - 1)) \/
      (exists s, x = Next s /\ b3_len s /\ length (b3_meds s) = S (length (b3_meds st)) /\ c = n * (n - 1))).
  Proof.
    intros hn hz hl. unfold build3_step_n. rewrite map_fst_enum, hl.
    eapply cok_bind.
    - apply (@next_scan (map (fun r => dd (near3 r)) (b3_data st)) (skipn 1 (seq 0 n)) (lzero, k)).
      rewrite map_length, hl. intros i hi.
      assert (hi' : In i (seq 0 n)) by (rewrite <- (firstn_skipn 1 (seq 0 n)); apply in_or_app; auto). apply in_seq in hi'. lia.
    - cbv beta. rewrite map_length, hl, length_skip1, seq_length. intros c best [-> hb].
      destruct (lleb lzero (fst best)) eqn:e.
      + apply cok_ret. left. split; [auto|lia].
      + assert (hb' : snd best < n) by (destruct hb as [hb|hb]; [auto|rewrite hb in e; cbn [fst] in e; congruence]).
        eapply cok_bind.
        * apply upd_cost with (bj := snd best); [rewrite hl; auto|]. intros [j recj]. unfold build3_upd_obj_n. cbn [fst].
          eapply cok_bind with (P := fun c _ => c = if j =? snd best then 0 else 1).
          -- destruct (j =? snd best); [apply cok_ret; auto|]. apply cok_get1. auto.
          -- intros c r ->. apply cok_ret. lia.
        * cbv beta. intros c rs [-> hrs]. apply cok_ret. right. eexists. split; [reflexivity|].
          unfold b3_len. cbn [b3_meds b3_data]. rewrite map_length, app_length, hrs. cbn [length].
          rewrite hl. split; [auto|]. split; [lia|]. nia.
  Qed.

  Lemma build3_exact k : 1 <= n -> 1 <= k -> lleb (lzero : Lt) lzero = true ->
    cok (pammedsil_build_initialize_n (Lt := Lt) M k) (fun c st =>
      b3_len st /\ 1 <= length (b3_meds st) <= k /\
      c = n * n + (length (b3_meds st) - 1) * (n * (n - 1)) + if length (b3_meds st) <? k then (n - 1) * (n - 1) else 0).
  Proof.
    intros hn hk hz. unfold pammedsil_build_initialize_n.
    eapply cok_bind; [apply build_first_best; auto|]. intros c best [-> hb].
    eapply cok_bind; [apply cok_map with (w := fun _ => 1); intros j _; apply cok_get1; auto|].
    intros c data [-> hd]. rewrite list_sum_const. rewrite seq_length in *.
    assert (G : forall m l s, 1 <= length (b3_meds s) -> b3_len s ->
      cok (cforM (build3_step_n (Lt := Lt) M k) (seq l m) s) (fun c s' =>
        b3_len s' /\ length (b3_meds s) <= length (b3_meds s') <= length (b3_meds s) + m /\
        c = (length (b3_meds s') - length (b3_meds s)) * (n * (n - 1)) +
            if length (b3_meds s') <? length (b3_meds s) + m then (n - 1) * (n - 1) else 0)).
    { induction m as [|m IH]; intros l s h1 hl; cbn [seq cforM].
      - apply cok_ret. split; [auto|]. split; [lia|]. rewrite Nat.sub_diag, Nat.add_0_r, Nat.ltb_irrefl. auto.
      - eapply cok_bind; [apply build3_step_exact; auto|]. intros c x [[-> ->]|(s' & -> & hl' & hm & ->)].
        + apply cok_ret. split; [auto|]. split; [lia|].
          destruct (Nat.ltb_spec (length (b3_meds s)) (length (b3_meds s) + S m)); [|lia]. rewrite Nat.sub_diag. lia.
        + eapply cok_mono; [apply IH; [lia|auto]|]. cbv beta. intros c s'' (g1 & g2 & ->). split; [auto|].
          split; [lia|]. rewrite hm in *. replace (length (b3_meds s) + S m) with (S (length (b3_meds s)) + m) by lia.
          replace (length (b3_meds s'') - length (b3_meds s)) with (S (length (b3_meds s'') - S (length (b3_meds s)))) by lia.
          cbn [Nat.mul]. lia. }
    eapply cok_mono; [apply G; [cbn; lia|unfold b3_len; cbn [b3_data]; auto]|].
    cbv beta. cbn [b3_meds length]. intros c s (g1 & g2 & ->). split; [auto|]. split; [lia|].
    replace (1 + (k - 1)) with k by lia. nia.
  Qed.

  (** BUILD of PAMSIL always chooses [k] objects *)
  Definition ps_built (m : nat) (st : list nat * list Nt) : Prop :=
    length (fst st) = m /\ length (snd st) = n /\ forall x, In x (fst st) -> x < n.

  Lemma pamsil_build_exact k : 1 <= n -> 1 <= k -> cok (pamsil_build_initialize_n (Lt := Lt) M k) (fun c meds =>
    length meds = k /\ (forall x, In x meds -> x < n) /\ c = n * n + (k - 1) * (n * n - 1)).
  Proof.
    intros hn hk. unfold pamsil_build_initialize_n.
    eapply cok_bind; [apply build_first_best; auto|]. intros c best [-> hb].
    eapply cok_bind; [apply cok_map with (w := fun _ => 1); intros j _; apply cok_get; auto|].
    intros c data [-> hd]. rewrite list_sum_const. rewrite seq_length in *.
    assert (G : forall m l s q, ps_built q s ->
      cok (cfoldM (pamsil_build_step_n (Lt := Lt) M k) (seq l m) s) (fun c s' => ps_built (q + m) s' /\ c = m * (n * n - 1))).
    { induction m as [|m IH]; intros l s q hs; cbn [seq cfoldM].
      - apply cok_ret. rewrite Nat.add_0_r. auto.
      - eapply cok_bind with (P := fun c s' => ps_built (S q) s' /\ c = n * n - 1).
        + destruct s as [meds dn]. destruct hs as (h1 & h2 & h3). cbn [fst snd] in *. unfold pamsil_build_step_n.
          rewrite map_fst_enum. assert (h0 := @build_next_best k dn). rewrite h2 in *.
          eapply cok_bind; [apply h0; auto|]. intros c b [-> hbn].
          eapply cok_bind; [apply cok_lift with (Q := fun c _ => c = 0); auto|]. intros c u ->.
          eapply cok_bind.
          * apply upd_cost with (bj := snd b); [rewrite h2; auto|]. intros [j dj]. unfold pamsil_upd_obj_n. cbn [fst].
            destruct (j =? snd b); [apply cok_ret; auto|apply cok_get1; auto].
          * cbv beta. intros c dn' [-> hdn]. apply cok_ret. unfold ps_built. cbn [fst snd]. rewrite app_length, h1, hdn, h2. cbn [length].
            split; [|nia]. split; [lia|]. split; [auto|]. intros x hx. apply in_app_or in hx as [hx|[<-|[]]]; auto.
        + intros c s' [hs' ->]. eapply cok_mono; [apply IH; eauto|]. cbv beta. intros c s'' [hs'' ->].
          replace (q + S m) with (S q + m) by lia. split; [auto|]. lia. }
    eapply cok_bind.
    - apply G with (q := 1). split; [auto|]. split; [auto|]. intros x [<-|[]]. auto.
    - cbv beta. intros c [meds d'] [(h1 & h2 & h3) ->]. cbn [fst snd] in *. apply cok_ret. split; [lia|]. split; [auto|]. nia.
  Qed.
End Build.
