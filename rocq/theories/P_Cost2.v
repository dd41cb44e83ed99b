(** P_Cost2.v -- property C82: how many dissimilarities the remaining algorithms read.  Every theorem is followed by a
    concrete input which meets its hypotheses. *)
From Coq Require Import ZArith QArith Lqa Lia Permutation.
From Verif Require Import Base Num M_Mat M_Util M_Fasterpam M_Pam M_Alternating M_Silhouette M_Msc M_Pammedsil M_Pamsil
  M_Dynmsc M_ParFasterpam M_Cost M_Cost2 Inst Hoare Spec SpecFacts Laws ParFacts CostFacts CostBounds CostMore CostMore2
  Ex P_Pam P_Msc P_Cost.
Open Scope nat_scope.

(** The counting functions are the functions of the model: they return the same, or panic in the same way. *)
Theorem C82_same {Nt Lt : Type} `{HNN : NumN Nt} `{HNL : NumL Lt} `{HFN : FromN Nt Lt} (M : Mat Nt) :
  (forall k, snd (pammedsil_build_initialize_n (Lt := Lt) M k) = pammedsil_build_initialize M k) /\
  (forall k maxiter, snd (pammedsil_n (Lt := Lt) M k maxiter) = pammedsil M k maxiter) /\
  (forall med maxiter, snd (pamsil_swap_n (Lt := Lt) M med maxiter) = pamsil_swap M med maxiter) /\
  (forall k, snd (pamsil_build_initialize_n (Lt := Lt) M k) = pamsil_build_initialize (Lt := Lt) M k) /\
  (forall k maxiter, snd (pamsil_n (Lt := Lt) M k maxiter) = pamsil M k maxiter) /\
  (forall med mink maxiter, snd (dynmsc_n (Lt := Lt) M med mink maxiter) = dynmsc M med mink maxiter) /\
  (forall orc order med maxiter, snd (par_fasterpam_n (Lt := Lt) M orc order med maxiter) = par_fasterpam M orc order med maxiter).
Proof.
  split; [intros; apply pammedsil_build_initialize_same|]. split; [intros; apply pammedsil_same|].
  split; [intros; apply pamsil_swap_same|]. split; [intros; apply pamsil_build_initialize_same|].
  split; [intros; apply pamsil_same|]. split; [intros; apply dynmsc_same|]. intros; apply par_fasterpam_same.
Qed.
Print Assumptions C82_same.

(** BUILD, exactly: [n n] entries for the first medoid; for every further one PAM and PAMSIL read [n n - 1] entries,
    PAMMEDSIL, which does not try object 0 (pammedsil.rs:296), [n (n - 1)]; and if BUILD gives up early, one
    more search without an update.  Nothing is assumed about the numbers, but that [0 >= 0] for PAMMEDSIL. *)
Theorem C82_build {Nt Lt : Type} `{HNN : NumN Nt} `{HNL : NumL Lt} `{HFN : FromN Nt Lt} (M : Mat Nt) k :
  1 <= k -> 1 <= mlen M -> let n := mlen M in
  (forall st : bst Nt Lt, pam_build_initialize M k = Ok st -> let l := length (b_meds st) in
     reads (pam_build_initialize_n (Lt := Lt) M k) = n * n + (l - 1) * (n * n - 1) + (if l <? k then n * (n - 1) else 0)) /\
  (forall meds, pamsil_build_initialize (Lt := Lt) M k = Ok meds -> length meds = k /\
     reads (pamsil_build_initialize_n (Lt := Lt) M k) = n * n + (k - 1) * (n * n - 1)) /\
  (lleb (lzero : Lt) lzero = true ->
   forall st : b3st Nt Lt, pammedsil_build_initialize M k = Ok st -> let l := length (b3_meds st) in
     reads (pammedsil_build_initialize_n (Lt := Lt) M k) =
       n * n + (l - 1) * (n * (n - 1)) + (if l <? k then (n - 1) * (n - 1) else 0)).
Proof.
  intros hk hn n. split; [|split].
  - intros st e l. rewrite <- pam_build_initialize_same in e. exact (proj2 (proj2 (build_exact M hn hk e))).
  - intros meds e. rewrite <- pamsil_build_initialize_same in e.
    destruct (pamsil_build_exact M hn hk e) as (h1 & _ & h2). auto.
  - intros hz st e l. rewrite <- pammedsil_build_initialize_same in e. exact (proj2 (proj2 (build3_exact M hn hk hz e))).
Qed.
Print Assumptions C82_build.
Lemma le16 : 1 <= mlen m6. Proof. unfold m6. cbn. lia. Qed.
Definition C82_build_case := C82_build (Lt := Z) m6 3 (le_S _ _ (le_S _ _ (le_n 1))) le16.
Example C82_build_value :
  reads (pam_build_initialize_n (Lt := Z) m6 3) = 106 /\ reads (pamsil_build_initialize_n (Lt := Z) m6 3) = 106 /\
  reads (pammedsil_build_initialize_n (Lt := Q) m6 3) = 96.
Proof. vm_compute. auto. Qed.

(** PAMMEDSIL with BUILD, as for PAM *)
Theorem C82_pammedsil {Nt Lt : Type} `{HNN : NumN Nt} `{HNL : NumL Lt} `{HFN : FromN Nt Lt} (M : Mat Nt) k maxiter
    (r : pam_result Lt) :
  lleb (lzero : Lt) lzero = true -> 1 <= mlen M -> pammedsil M k maxiter = Ok r -> let n := mlen M in
  reads (pammedsil_n (Lt := Lt) M k maxiter) <= n * n * k * (1 + r_iter r) + n * k * r_swaps r.
Proof.
  intros hz hn e n. rewrite <- pammedsil_same in e. pose proof (pammedsil_cost M k maxiter hz hn e) as h. cbv beta in h.
  unfold reads. fold n in h. nia.
Qed.
Print Assumptions C82_pammedsil.
Example C82_pammedsil_case : exists r, pammedsil (Lt := Q) m6 3 10 = Ok r /\ lleb (lzero : Q) lzero = true /\
  r_iter r = 1 /\ reads (pammedsil_n (Lt := Q) m6 3 10) = 141.
Proof. eexists. split; [vm_compute; reflexivity|]. vm_compute. auto. Qed.

(** PAMSIL recomputes the assignment and the Silhouette of all objects for each swap it considers: [n (n + k - 1)] entries,
    for at least [k (n - k)] and at most [k (n - 1)] swaps in each iteration. *)
Theorem C82_pamsil {Nt Lt : Type} `{HNN : NumN Nt} `{HNL : NumL Lt} `{HFN : FromN Nt Lt} (M : Mat Nt) med maxiter
    (r : pam_result Lt) :
  2 <= length med -> (forall m, In m med -> m < mlen M) -> pamsil_swap M med maxiter = Ok r ->
  let n := mlen M in let k := length med in let e := n * (n + k - 1) in
  n * k + e + k * (n - k) * e * r_iter r <= reads (pamsil_swap_n (Lt := Lt) M med maxiter) <=
  n * k + e + k * (n - 1) * e * r_iter r.
Proof.
  intros hk hin er n k e. rewrite <- pamsil_swap_same in er. pose proof (pamsil_swap_cost M med maxiter hk hin er) as h.
  cbv beta in h. fold k n in h. assert (ev : eval M k = e).
  { unfold eval, e. fold n. destruct n as [|m]; [reflexivity|]. replace (S m + k - 1) with (m + k) by lia.
    replace (S m - 1) with m by lia. nia. }
  unfold reads. rewrite ev in h.
  assert (h1 : forall x y, k * (e * x) * y = k * x * e * y) by (intros; nia). rewrite !h1 in h. exact h.
Qed.
Print Assumptions C82_pamsil.
Lemma in_med3 : forall m, In m [0; 1; 3] -> m < mlen m6.
Proof. intros m h. unfold m6. cbn in *. lia. Qed.
Example C82_pamsil_case : exists r, pamsil_swap (Lt := Q) m6 [0; 1; 3] 10 = Ok r /\ 2 <= length [0; 1; 3] /\
  r_iter r = 2 /\ reads (pamsil_swap_n (Lt := Q) m6 [0; 1; 3] 10) = 1026.
Proof. eexists. split; [vm_compute; reflexivity|]. split; [cbn; lia|]. vm_compute. auto. Qed.

(** PAMSIL with BUILD: the Silhouette before the first iteration is that of one cluster and reads only [n - 1] entries. *)
Theorem C82_pamsil_build {Nt Lt : Type} `{HNN : NumN Nt} `{HNL : NumL Lt} `{HFN : FromN Nt Lt} (M : Mat Nt) k maxiter
    (r : pam_result Lt) :
  2 <= k -> 1 <= mlen M -> pamsil M k maxiter = Ok r ->
  let n := mlen M in let e := n * (n + k - 1) in let start := n * n + (k - 1) * (n * n - 1) + (n - 1) + n * k in
  start + k * (n - k) * e * r_iter r <= reads (pamsil_n (Lt := Lt) M k maxiter) <= start + k * (n - 1) * e * r_iter r.
Proof.
  intros hk hn er n e start. rewrite <- pamsil_same in er. pose proof (pamsil_cost M maxiter hk hn er) as h.
  cbv beta zeta in h. fold n in h. fold start in h. assert (ev : eval M k = e).
  { unfold eval, e. fold n. destruct n as [|m]; [reflexivity|]. replace (S m + k - 1) with (m + k) by lia.
    replace (S m - 1) with m by lia. nia. }
  unfold reads. rewrite ev in h.
  assert (h1 : forall x y, k * (e * x) * y = k * x * e * y) by (intros; nia). rewrite !h1 in h. exact h.
Qed.
Print Assumptions C82_pamsil_build.
Example C82_pamsil_build_case : exists r, pamsil (Lt := Q) m6 3 10 = Ok r /\ 2 <= 3 /\ 1 <= mlen m6 /\ r_iter r = 2 /\
  reads (pamsil_n (Lt := Q) m6 3 10) = 993.
Proof. eexists. split; [vm_compute; reflexivity|]. split; [lia|]. split; [apply le16|]. vm_compute. auto. Qed.

(** DynMSC reuses its cache when it removes a medoid: all numbers of clusters from [k] downwards together need at most
    [n k] entries for each of the [k] numbers of clusters and for each swap, and [n n] for each iteration. *)
Theorem C82_dynmsc {Nt Lt : Type} `{HNN : NumN Nt} `{HNL : NumL Lt} `{HFN : FromN Nt Lt} (M : Mat Nt) med mink maxiter
    (r : dyn_result Lt) :
  2 <= length med -> dynmsc M med mink maxiter = Ok r -> let n := mlen M in let k := length med in
  n * k <= reads (dynmsc_n (Lt := Lt) M med mink maxiter) <=
  n * k * (k + r_swaps (d_res r)) + n * n * r_iter (d_res r).
Proof.
  intros hk e n k. rewrite <- dynmsc_same in e. exact (dynmsc_cost M med mink maxiter hk e).
Qed.
Print Assumptions C82_dynmsc.
Example C82_dynmsc_case : exists r, dynmsc (Lt := Q) m6 [0; 1; 3; 4] 2 10 = Ok r /\ 2 <= length [0; 1; 3; 4] /\
  r_swaps (d_res r) = 6 /\ r_iter (d_res r) = 7 /\ reads (dynmsc_n (Lt := Q) m6 [0; 1; 3; 4] 2 10) = 188.
Proof. eexists. split; [vm_compute; reflexivity|]. split; [cbn; lia|]. vm_compute. auto. Qed.

(** The parallel FasterPAM needs no more than the sequential one (C80_faster), whatever the number of threads and the
    order in which they finish: each candidate costs exactly [n] entries. *)
Theorem C82_par {Nt Lt : Type} `{HNN : NumN Nt} `{HNL : NumL Lt} `{HFN : FromN Nt Lt} (M : Mat Nt) orc order med maxiter :
  valid_oracle orc -> 2 <= length med -> let n := mlen M in let k := length med in
  (forall i j (rl : list Lt) data r, length data = n -> par_find_best_swap M (o_find orc i j) rl data j = Ok r ->
     reads (par_find_best_swap_n M (o_find orc i j) rl data j) = n) /\
  (forall r : pam_result Lt, par_fasterpam M orc order med maxiter = Ok r ->
     n * k <= reads (par_fasterpam_n (Lt := Lt) M orc order med maxiter) <=
     n * k * (1 + r_swaps r) + n * length order * r_iter r).
Proof.
  intros ho hk n k. split.
  - intros i j rl data r hl e. rewrite <- par_find_best_swap_same in e.
    exact (par_find_best_swap_cost M rl data j (ho i j) hl e).
  - intros r e. rewrite <- par_fasterpam_same in e. exact (par_fasterpam_cost M order med maxiter ho hk e).
Qed.
Print Assumptions C82_par.
Definition C82_par_case := C82_par (Lt := Z) m6 P_Pam.orc2 [0; 1; 2; 3; 4; 5] [0; 1; 3] 10 orc2_ok le23.
Example C82_par_value : fst (par_fasterpam_n (Lt := Z) m6 P_Pam.orc2 [0; 1; 2; 3; 4; 5] [0; 1; 3] 10) = 62.
Proof. vm_compute. reflexivity. Qed.
