(** P_IterLimit.v -- property C93: what the iteration limit does.
    Every theorem is followed by a concrete input which meets its hypotheses. *)
From Coq Require Import ZArith QArith Lqa Lia.
From Verif Require Import Base Num M_Mat M_Util M_Fasterpam M_Pam M_Alternating M_ParFasterpam M_Silhouette M_Msc M_Pammedsil M_Pamsil M_Dynmsc
  Inst Hoare Spec SpecFacts Laws PamShape PamExact FpMain PamMain AltFacts MscExact MscFacts MscMain IterLimit Ex P_Fasterpam P_Pam P_Msc.
From Verif Require P_Reference.
Open Scope nat_scope.

(** A run with a larger limit did not panic: neither does one with a smaller limit.  It returns the same, or it was cut off: it took
    all iterations it was allowed, the longer run took more, and did not undo swaps. *)
Definition only_cuts_off {Lt} (run : nat -> res (pam_result Lt)) : Prop :=
  forall m m' r', m <= m' -> run m' = Ok r' ->
    exists r, run m = Ok r /\ (r = r' \/ (r_iter r = m /\ m < r_iter r' /\ r_swaps r <= r_swaps r')).
(** A run which stopped before its limit does the same with every larger limit. *)
Definition done_is_done {Lt} (run : nat -> res (pam_result Lt)) : Prop :=
  forall m m' r, run m = Ok r -> r_iter r < m -> m <= m' -> run m' = Ok r.

(** C93.  For every numeric type, without any law (rounding, NaN), every matrix and every list of medoids, valid or not. *)
Theorem C93_limit {Nt Lt : Type} `{HN : NumN Nt} `{HL : NumL Lt} `{HF : FromN Nt Lt} (M : Mat Nt) med k order orc :
  let good (run : nat -> res (pam_result Lt)) := only_cuts_off run /\ done_is_done run in
  good (fasterpam M med) /\ good (rand_fasterpam M order med) /\ good (par_fasterpam M orc order med) /\
  good (fastpam1 M med) /\ good (pam_swap M med) /\ good (pam M k) /\ good (alternating M med) /\
  good (fastermsc M med) /\ good (fastmsc M med) /\ good (pammedsil_swap M med) /\ good (pammedsil M k).
Proof.
  intros good.
  refine (conj (fasterpam_order_limits _ _ _) (conj (fasterpam_order_limits _ _ _) (conj (par_limits _ _ _ _) (conj (fastpam1_limits _ _)
    (conj (pam_swap_limits _ _) (conj (pam_limits _ _) (conj (alternating_limits _ _) (conj (fastermsc_limits _ _)
    (conj (fastmsc_limits _ _) (conj (pammedsil_swap_limits _ _) (pammedsil_limits _ _))))))))))).
Qed.
Print Assumptions C93_limit.

(** one iteration is not enough here: the run with limit 1 is cut off *)
Example C93_value :
  fasterpam (Lt := Z) m6 [0; 1; 3] 1 = Ok (mkPR 1%Z [1; 1; 0; 2; 0; 0] 1 2 [4; 1; 3]) /\
  fasterpam (Lt := Z) m6 [0; 1; 3] 2 = Ok (mkPR 1%Z [1; 1; 0; 2; 0; 0] 2 2 [4; 1; 3]) /\
  fasterpam (Lt := Z) m6 [0; 1; 3] 10 = Ok (mkPR 1%Z [1; 1; 0; 2; 0; 0] 2 2 [4; 1; 3]).
Proof. vm_compute. auto. Qed.

(** pamsil assigns the objects once more after the loop: here the two runs are compared if both return. *)
Theorem C93_pamsil {Nt Lt : Type} `{HN : NumN Nt} `{HL : NumL Lt} `{HF : FromN Nt Lt} (M : Mat Nt) med k :
  let good (run : nat -> res (pam_result Lt)) :=
    (forall m m' r r', m <= m' -> run m = Ok r -> run m' = Ok r' ->
       r = r' \/ (r_iter r = m /\ m < r_iter r' /\ r_swaps r <= r_swaps r')) /\ done_is_done run in
  good (pamsil_swap M med) /\ good (pamsil M k).
Proof. intros good. exact (conj (pamsil_swap_limits _ _) (pamsil_limits _ _)). Qed.
Print Assumptions C93_pamsil.

(** DynMSC has the limit for every number of medoids and counts the iterations together: if all of them together are fewer than
    the limit, a larger limit changes nothing. *)
Theorem C93_dynmsc {Nt Lt : Type} `{HN : NumN Nt} `{HL : NumL Lt} `{HF : FromN Nt Lt} (M : Mat Nt) med mink m m' (r : dyn_result Lt) :
  dynmsc M med mink m = Ok r -> r_iter (d_res r) < m -> m <= m' -> dynmsc M med mink m' = Ok r.
Proof. apply dynmsc_stop. Qed.
Print Assumptions C93_dynmsc.
Example C93_dynmsc_case : exists r, dynmsc (Lt := Q) m6 [0; 1; 3] 2 10 = Ok r /\ r_iter (d_res r) < 10 /\
  dynmsc (Lt := Q) m6 [0; 1; 3] 2 50 = Ok r.
Proof.
  destruct (dynmsc (Lt := Q) m6 [0; 1; 3] 2 10) as [r|p] eqn:e; [|vm_compute in e; discriminate]. exists r.
  assert (h : r_iter (d_res r) < 10) by (vm_compute in e; injection e as <-; vm_compute; lia).
  split; [reflexivity|]. split; [exact h|]. apply (C93_dynmsc _ _ _ _ _ _ e h). lia.
Qed.

(** C93, exact arithmetic: allowing more iterations never makes the result worse. *)
Theorem C93_more_pam {Nt Lt : Type} `{HLL : LossLaws Nt Lt} (M : Mat Nt) n D order med m m' :
  diss_matrix M n D -> sizes n (length med) -> medoids n (length med) med -> 2 <= length med ->
  NoDup order -> (forall j, In j order -> j < n) -> m <= m' ->
  let better (run : nat -> res (pam_result Lt)) :=
    exists r r', run m = Ok r /\ run m' = Ok r' /\ (vL (r_loss r') <= vL (r_loss r))%Q in
  better (fasterpam M med) /\ better (rand_fasterpam M order med) /\ better (fastpam1 M med) /\ better (pam_swap M med).
Proof.
  intros hd hs hm hk hnd ho hmm better.
  destruct (P_Reference.C58_resume_pam (Lt := Lt) M n D order med m (m' - m) hd hs hm hk hnd ho)
    as ((a1 & b1 & c1 & p1 & q1 & w1 & _ & _ & l1 & _) & (a2 & b2 & c2 & p2 & q2 & w2 & _ & _ & l2 & _) &
        (a3 & b3 & c3 & p3 & q3 & w3 & _ & _ & l3 & _) & (a4 & b4 & c4 & p4 & q4 & w4 & _ & _ & l4 & _)).
  replace (m + (m' - m)) with m' in * by lia.
  assert (hmd : forall md, medoids n (length med) md -> sizes n (length md) /\ medoids n (length md) md /\ 2 <= length md).
  { intros md h. rewrite (proj1 h). auto. }
  split; [|split; [|split]].
  - exists a1, c1. split; [exact p1|]. split; [exact w1|].
    destruct (fasterpam_all (Lt := Lt) hd m hs hm) as (r & e & h). rewrite p1 in e. injection e as <-.
    destruct (hmd _ (fa_medoids h)) as (u1 & u2 & u3).
    destruct (fasterpam_all (Lt := Lt) hd (m' - m) u1 u2) as (r' & e' & h'). rewrite q1 in e'. injection e' as <-.
    rewrite <- l1, (fa_loss h' (or_introl u3)), (fa_loss h (or_introl hk)). exact (fa_obj h' (or_introl u3)).
  - exists a2, c2. split; [exact p2|]. split; [exact w2|].
    destruct (rand_fasterpam_all (Lt := Lt) hd m hs hm hnd ho) as (r & e & h). rewrite p2 in e. injection e as <-.
    destruct (hmd _ (fa_medoids h)) as (u1 & u2 & u3).
    destruct (rand_fasterpam_all (Lt := Lt) hd (m' - m) u1 u2 hnd ho) as (r' & e' & h'). rewrite q2 in e'. injection e' as <-.
    rewrite <- l2, (fa_loss h' (or_introl u3)), (fa_loss h (or_introl hk)). exact (fa_obj h' (or_introl u3)).
  - exists a3, c3. split; [exact p3|]. split; [exact w3|].
    destruct (fastpam1_all (Lt := Lt) hd m hs hm) as (r & e & _ & h). rewrite p3 in e. injection e as <-.
    destruct (hmd _ (sa_medoids h)) as (u1 & u2 & u3).
    destruct (fastpam1_all (Lt := Lt) hd (m' - m) u1 u2) as (r' & e' & _ & h'). rewrite q3 in e'. injection e' as <-.
    rewrite <- l3, (sa_loss h' (or_introl u3)), (sa_loss h (or_introl hk)). exact (sa_obj h' (or_introl u3)).
  - exists a4, c4. split; [exact p4|]. split; [exact w4|].
    destruct (fastpam1_all (Lt := Lt) hd m hs hm) as (r & _ & e & h). rewrite p4 in e. injection e as <-.
    destruct (hmd _ (sa_medoids h)) as (u1 & u2 & u3).
    destruct (fastpam1_all (Lt := Lt) hd (m' - m) u1 u2) as (r' & _ & e' & h'). rewrite q4 in e'. injection e' as <-.
    rewrite <- l4, (sa_loss h' (or_introl u3)), (sa_loss h (or_introl hk)). exact (sa_obj h' (or_introl u3)).
Qed.
Print Assumptions C93_more_pam.
Lemma le1_9 : 1 <= 9. Proof. lia. Qed.
Definition C93_pam_case := C93_more_pam (Lt := Z) m6 6 d6 P_Reference.order6 [0; 1; 3] 1 9 m6_diss s63 k63 le23
  P_Reference.order6_nodup P_Reference.order6_lt le1_9.

(** the same for the parallel version and any schedule, and for the alternating algorithm on symmetric matrices *)
Theorem C93_more_par_alternating {Nt Lt : Type} `{HLL : LossLaws Nt Lt} (M : Mat Nt) n D order orc med m m' :
  diss_matrix M n D -> sizes n (length med) -> medoids n (length med) med -> 2 <= length med ->
  NoDup order -> (forall j, In j order -> j < n) -> valid_oracle orc -> m <= m' ->
  let better (run : nat -> res (pam_result Lt)) :=
    exists r r', run m = Ok r /\ run m' = Ok r' /\ (vL (r_loss r') <= vL (r_loss r))%Q in
  better (par_fasterpam M orc order med) /\ (symmetric n (vals D) -> better (alternating M med)).
Proof.
  intros hd hs hm hk hnd ho hor hmm better. split.
  - destruct (C93_more_pam (Lt := Lt) M n D order med m m' hd hs hm hk hnd ho hmm) as (_ & (r & r' & e & e' & h) & _).
    destruct (C13_schedule_independent (Lt := Lt) M n D orc order med m hd hs hm ho hor) as (p & q & e1 & e2 & _ & _ & _ & _ & h1).
    destruct (C13_schedule_independent (Lt := Lt) M n D orc order med m' hd hs hm ho hor) as (p' & q' & e1' & e2' & _ & _ & _ & _ & h1').
    rewrite e in e1. injection e1 as <-. rewrite e' in e1'. injection e1' as <-.
    exists q, q'. rewrite <- h1, <- h1'. auto.
  - intros hsym. destruct (P_Reference.C58_resume_alternating (Lt := Lt) M n D med m (m' - m) hd hs hm)
      as (a & b & c & p & q & w & _ & _ & l & _). replace (m + (m' - m)) with m' in w by lia.
    exists a, c. split; [exact p|]. split; [exact w|].
    pose proof (alternating_ok (Lt := Lt) hd m hs hm) as h. apply oks_elim with (2 := p) in h.
    assert (hl : length (r_med a) = length med) by apply (as_medoids h).
    assert (hs' : sizes n (length (r_med a))) by (rewrite hl; exact hs).
    assert (hm' : medoids n (length (r_med a)) (r_med a)) by (rewrite hl; apply (as_medoids h)).
    pose proof (alternating_ok (Lt := Lt) hd (m' - m) hs' hm') as h'. apply oks_elim with (2 := q) in h'.
    rewrite <- l, (cl_loss (as_clustering h')), (cl_loss (as_clustering h)). exact (as_obj h' hsym).
Qed.
Print Assumptions C93_more_par_alternating.
Lemma nd302 : NoDup [3; 0; 4]. Proof. repeat constructor; simpl; lia. Qed.
Lemma lt304 : forall j, In j [3; 0; 4] -> j < 5. Proof. intros j [<-|[<-|[<-|[]]]]; lia. Qed.
Definition C93_par_case := C93_more_par_alternating (Lt := Z) m5 5 d5 [3; 0; 4] orc2 [0; 1; 2] 1 9 m5_diss s53 k53 le23 nd302 lt304 orc2_ok le1_9.
Definition C93_alternating_case := proj2 C93_par_case m5_sym.

Theorem C93_more_msc {Nt Lt : Type} `{HLL : LossLaws Nt Lt} `{HAL : !AddLaws Nt} `{HDL : !DivLaws Nt Lt} (M : Mat Nt) n D med m m' :
  diss_matrix M n D -> sizes n (length med) -> medoids n (length med) med -> 2 <= length med -> m <= m' ->
  let better (run : nat -> res (pam_result Lt)) :=
    exists r r', run m = Ok r /\ run m' = Ok r' /\ (vL (r_loss r) <= vL (r_loss r'))%Q in
  better (fastermsc M med) /\ better (fastmsc M med) /\ better (pammedsil_swap M med).
Proof.
  intros hd hs hm hk hmm better.
  destruct (P_Reference.C58_resume_msc (Lt := Lt) M n D med m (m' - m) hd hs hm hk)
    as ((a1 & b1 & c1 & p1 & q1 & w1 & _ & _ & l1 & _) & (a2 & b2 & c2 & p2 & q2 & w2 & _ & _ & l2 & _) &
        (a3 & b3 & c3 & p3 & q3 & w3 & _ & _ & l3 & _)).
  replace (m + (m' - m)) with m' in * by lia.
  assert (hmd : forall md, medoids n (length med) md -> sizes n (length md) /\ medoids n (length md) md /\ 2 <= length md).
  { intros md h. rewrite (proj1 h). auto. }
  split; [|split].
  - exists a1, c1. split; [exact p1|]. split; [exact w1|].
    destruct (fastermsc_all (Lt := Lt) hd m hs hm hk) as (r & e & h & _). rewrite p1 in e. injection e as <-.
    destruct (hmd _ (ms_medoids h)) as (u1 & u2 & u3).
    destruct (fastermsc_all (Lt := Lt) hd (m' - m) u1 u2 u3) as (r' & e' & h' & _). rewrite q1 in e'. injection e' as <-.
    rewrite <- l1, (ms_value h'), (ms_value h). exact (ms_obj h').
  - exists a2, c2. split; [exact p2|]. split; [exact w2|].
    destruct (fastmsc_all (Lt := Lt) hd m hs hm hk) as (r & e & h & _). rewrite p2 in e. injection e as <-.
    destruct (hmd _ (ms_medoids h)) as (u1 & u2 & u3).
    destruct (fastmsc_all (Lt := Lt) hd (m' - m) u1 u2 u3) as (r' & e' & h' & _). rewrite q2 in e'. injection e' as <-.
    rewrite <- l2, (ms_value h'), (ms_value h). exact (ms_obj h').
  - exists a3, c3. split; [exact p3|]. split; [exact w3|].
    destruct (pammedsil_swap_all (Lt := Lt) hd m hs hm hk) as (r & e & h & _). rewrite p3 in e. injection e as <-.
    destruct (hmd _ (ms_medoids h)) as (u1 & u2 & u3).
    destruct (pammedsil_swap_all (Lt := Lt) hd (m' - m) u1 u2 u3) as (r' & e' & h' & _). rewrite q3 in e'. injection e' as <-.
    rewrite <- l3, (ms_value h'), (ms_value h). exact (ms_obj h').
Qed.
Print Assumptions C93_more_msc.
Definition C93_msc_case := C93_more_msc (Lt := Q) m6 6 d6 [0; 1; 3] 1 9 m6_diss s63 k63 le23 le1_9.

(** This does not hold for DynMSC: the better medoids found with more iterations may be a worse start for fewer medoids. *)
Definition rows_dyn : list (list Z) :=
  [[0; 4; 1; 6; 6; 5]; [4; 0; 3; 4; 3; 8]; [1; 3; 0; 7; 6; 2]; [6; 4; 7; 0; 3; 3]; [6; 3; 6; 3; 0; 1]; [5; 8; 2; 3; 1; 0]]%Z.
Theorem C93_more_dynmsc_refuted : exists (M : Mat Z) D (r r' : dyn_result Q), diss_matrix M 6 D /\ symmetric 6 (vals D) /\
  medoids 6 3 [0; 1; 2] /\ dynmsc M [0; 1; 2] 2 1 = Ok r /\ dynmsc M [0; 1; 2] 2 10 = Ok r' /\
  (r_loss (d_res r') < r_loss (d_res r))%Q.
Proof.
  exists (mat_of_rows rows_dyn), (entries rows_dyn). do 2 eexists.
  split; [apply rows_diss; [lia|reflexivity]|]. split; [apply rows_sym; reflexivity|]. split; [apply meds_ok; reflexivity|].
  split; [vm_compute; reflexivity|]. split; [vm_compute; reflexivity|]. vm_compute. reflexivity.
Qed.
Print Assumptions C93_more_dynmsc_refuted.
