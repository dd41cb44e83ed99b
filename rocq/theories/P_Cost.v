(** P_Cost.v -- property C80: how many dissimilarities each algorithm reads.  Every theorem is followed by a
    concrete input which meets its hypotheses. *)
From Coq Require Import ZArith QArith Lqa Lia Permutation.
From Verif Require Import Base Num M_Mat M_Util M_Fasterpam M_Pam M_Alternating M_Silhouette M_Msc M_Pammedsil M_Cost
  Inst Hoare Spec SpecFacts Laws PamShape PamFacts PamMain SilFacts MscFacts MscMain CostFacts CostBounds CostExact Ex P_Pam P_Msc.
Open Scope nat_scope.

(** the number of calls of [mat.get] *)
Definition reads {A : Type} (m : cres A) : nat := fst m.

(** The counting functions are the functions of the model: they return the same, or panic in the same way. *)
Theorem C80_same {Nt Lt : Type} `{HNN : NumN Nt} `{HNL : NumL Lt} `{HFN : FromN Nt Lt} (M : Mat Nt) :
  (forall order med maxiter, snd (fasterpam_order_n (Lt := Lt) M order med maxiter) = fasterpam_order M order med maxiter) /\
  (forall med maxiter, snd (fastpam1_n (Lt := Lt) M med maxiter) = fastpam1 M med maxiter) /\
  (forall med maxiter, snd (pam_swap_n (Lt := Lt) M med maxiter) = pam_swap M med maxiter) /\
  (forall k, snd (pam_build_initialize_n (Lt := Lt) M k) = pam_build_initialize M k) /\
  (forall k maxiter, snd (pam_n (Lt := Lt) M k maxiter) = pam M k maxiter) /\
  (forall med maxiter, snd (alternating_n (Lt := Lt) M med maxiter) = alternating M med maxiter) /\
  (forall assi samples, snd (silhouette_n (Lt := Lt) M assi samples) = silhouette M assi samples) /\
  (forall assi, snd (par_silhouette_n (Lt := Lt) M assi) = par_silhouette M assi) /\
  (forall meds samples, snd (medoid_silhouette_n (Lt := Lt) M meds samples) = medoid_silhouette M meds samples) /\
  (forall med maxiter, snd (fastermsc_n (Lt := Lt) M med maxiter) = fastermsc M med maxiter) /\
  (forall med maxiter, snd (fastmsc_n (Lt := Lt) M med maxiter) = fastmsc M med maxiter) /\
  (forall med maxiter, snd (pammedsil_swap_n (Lt := Lt) M med maxiter) = pammedsil_swap M med maxiter).
Proof.
  split; [intros; apply fasterpam_order_same|]. split; [intros; apply fastpam1_same|].
  split; [intros; apply pam_swap_same|]. split; [intros; apply pam_build_initialize_same|].
  split; [intros; apply pam_same|]. split; [intros; apply alternating_same|].
  split; [intros; apply silhouette_same|]. split; [intros; apply par_silhouette_same|].
  split; [intros; apply medoid_silhouette_same|]. split; [intros; apply fastermsc_same|].
  split; [intros; apply fastmsc_same|]. intros; apply pammedsil_swap_same.
Qed.
Print Assumptions C80_same.
Example C80_same_case : snd (fastpam1_n (Lt := Z) m6 [0; 1; 3] 10) = Ok (mkPR 1%Z [1; 1; 0; 2; 0; 0] 2 1 [4; 1; 3]).
Proof. rewrite (proj1 (proj2 (C80_same (Lt := Z) m6))). vm_compute. reflexivity. Qed.

(** FasterPAM and FasterMSC, whatever the number types: [n k] reads to set up, then at most [n] for each candidate
    and [n k] for each swap. *)
Theorem C80_faster {Nt Lt : Type} `{HNN : NumN Nt} `{HNL : NumL Lt} `{HFN : FromN Nt Lt} (M : Mat Nt) order med maxiter :
  2 <= length med -> let n := mlen M in let k := length med in
  (forall r : pam_result Lt, fasterpam_order M order med maxiter = Ok r ->
     n * k <= reads (fasterpam_order_n (Lt := Lt) M order med maxiter) <=
     n * k * (1 + r_swaps r) + n * length order * r_iter r) /\
  (forall r : pam_result Lt, fastermsc M med maxiter = Ok r ->
     n * k <= reads (fastermsc_n (Lt := Lt) M med maxiter) <= n * k * (1 + r_swaps r) + n * n * r_iter r).
Proof.
  intros hk n k. split; intros r e.
  - rewrite <- fasterpam_order_same in e. exact (fasterpam_order_cost M order med maxiter hk e).
  - rewrite <- fastermsc_same in e. exact (fastermsc_cost M med maxiter hk e).
Qed.
Print Assumptions C80_faster.
Definition C80_faster_case := C80_faster (Lt := Z) m6 [0; 1; 2; 3; 4; 5] [0; 1; 3] 10 le23.
Example C80_faster_value :
  fasterpam_order_n (Lt := Z) m6 [0; 1; 2; 3; 4; 5] [0; 1; 3] 10 = (62, Ok (mkPR 1%Z [1; 1; 0; 2; 0; 0] 2 2 [4; 1; 3])).
Proof. vm_compute. reflexivity. Qed.

(** FastPAM1 reads [n] entries for each candidate of each iteration, PAM reads [k (n-1)]; both [n k] to
    set up and at most [n k] for each swap. *)
Theorem C80_fastpam1_pam {Nt Lt : Type} `{HO : OrdLaws Nt} `{HNL : NumL Lt} `{HFN : FromN Nt Lt} (M : Mat Nt) n D med maxiter :
  diss_matrix M n D -> sizes n (length med) -> medoids n (length med) med -> 2 <= length med ->
  lltb (lzero : Lt) lzero = false -> let k := length med in
  (forall r : pam_result Lt, fastpam1 M med maxiter = Ok r ->
     n * k + n * (n - k) * r_iter r <= reads (fastpam1_n (Lt := Lt) M med maxiter) <=
     n * k * (1 + r_swaps r) + n * (n - k) * r_iter r) /\
  (forall r : pam_result Lt, pam_swap M med maxiter = Ok r ->
     n * k + k * (n - 1) * (n - k) * r_iter r <= reads (pam_swap_n (Lt := Lt) M med maxiter) <=
     n * k * (1 + r_swaps r) + k * (n - 1) * (n - k) * r_iter r).
Proof.
  intros hd hs hm hk hz k. split; intros r e.
  - rewrite <- fastpam1_same in e. exact (fastpam1_cost hd hz maxiter hs hm hk e).
  - rewrite <- pam_swap_same in e. exact (pam_swap_cost hd hz maxiter hs hm hk e).
Qed.
Print Assumptions C80_fastpam1_pam.
Definition C80_fastpam1_pam_case := C80_fastpam1_pam (Lt := Z) m6 6 d6 [0; 1; 3] 10 m6_diss s63 k63 le23 eq_refl.

(** "This is faster than PAM" (fastpam1.rs:10): with exact losses FastPAM1 and PAM make the same moves, and PAM reads
    exactly [k (n-1) - n] more entries for each candidate of each iteration, so always more if there is a candidate. *)
Theorem C80_faster_than_pam {Nt Lt : Type} `{HLL : LossLaws Nt Lt} (M : Mat Nt) n D med maxiter :
  diss_matrix M n D -> sizes n (length med) -> medoids n (length med) med -> 2 <= length med -> let k := length med in
  exists r : pam_result Lt, fastpam1 M med maxiter = Ok r /\ pam_swap M med maxiter = Ok r /\
    reads (pam_swap_n (Lt := Lt) M med maxiter) =
      reads (fastpam1_n (Lt := Lt) M med maxiter) + (k * (n - 1) - n) * (n - k) * r_iter r /\
    (k < n -> 0 < maxiter -> reads (fastpam1_n (Lt := Lt) M med maxiter) < reads (pam_swap_n (Lt := Lt) M med maxiter)).
Proof.
  intros hd hs hm hk k. destruct (fastpam1_all (Lt := Lt) hd maxiter hs hm) as (r & e & e' & h). exists r.
  split; [exact e|]. split; [exact e'|].
  pose proof (pam_reads_more hd maxiter hs hm hk e) as hr. fold k in hr. unfold reads.
  assert (hkn : k <= n) by (destruct hs as ((_ & h2) & _); exact h2).
  assert (hge : n <= k * (n - 1)) by (unfold k in *; nia).
  assert (heq : fst (pam_swap_n (Lt := Lt) M med maxiter) =
    fst (fastpam1_n (Lt := Lt) M med maxiter) + (k * (n - 1) - n) * (n - k) * r_iter r).
  { destruct (Nat.le_exists_sub _ _ hge) as (d & hd' & _). rewrite hd' in *. rewrite Nat.add_sub. nia. }
  split; [exact heq|]. intros hlt hmi. rewrite heq.
  assert (hi : 0 < r_iter r) by (destruct (sa_end h hk) as [[h1 _]|[h1 h2]]; lia).
  assert (hp : 0 < (k * (n - 1) - n) * (n - k)) by (unfold k in *; apply Nat.mul_pos_pos; nia). nia.
Qed.
Print Assumptions C80_faster_than_pam.
Definition C80_faster_than_pam_case := C80_faster_than_pam (Lt := Z) m6 6 d6 [0; 1; 3] 10 m6_diss s63 k63 le23.
Example C80_faster_than_pam_value :
  fst (fastpam1_n (Lt := Z) m6 [0; 1; 3] 10) = 61 /\ fst (pam_swap_n (Lt := Z) m6 [0; 1; 3] 10) = 115.
Proof. vm_compute. auto. Qed.

(** The same for FastMSC and PAMMEDSIL.  With two medoids FastMSC has code of its own; its bound needs no law. *)
Theorem C80_fastmsc_pammedsil {Nt Lt : Type} `{HO : OrdLaws Nt} `{HNL : NumL Lt} `{HFN : FromN Nt Lt} (M : Mat Nt) n D med maxiter :
  diss_matrix M n D -> sizes n (length med) -> medoids n (length med) med -> 2 <= length med ->
  lltb (lzero : Lt) lzero = false -> let k := length med in
  (forall r : pam_result Lt, fastmsc M med maxiter = Ok r ->
     n * k <= reads (fastmsc_n (Lt := Lt) M med maxiter) <= n * k * (1 + r_swaps r) + n * n * r_iter r /\
     (3 <= k -> n * k + n * (n - k) * r_iter r <= reads (fastmsc_n (Lt := Lt) M med maxiter) <=
        n * k * (1 + r_swaps r) + n * (n - k) * r_iter r)) /\
  (forall r : pam_result Lt, pammedsil_swap M med maxiter = Ok r ->
     n * k + k * (n - 1) * (n - k) * r_iter r <= reads (pammedsil_swap_n (Lt := Lt) M med maxiter) <=
     n * k * (1 + r_swaps r) + k * (n - 1) * (n - k) * r_iter r).
Proof.
  intros hd hs hm hk hz k. split; intros r e.
  - rewrite <- fastmsc_same in e. split.
    + pose proof (fastmsc_cost_le M med maxiter hk e) as h. rewrite (len_n (proj1 hd)) in h. exact h.
    + intros hk3. exact (fastmsc_cost hd hz maxiter hs hm hk3 e).
  - rewrite <- pammedsil_swap_same in e. exact (pammedsil_swap_cost hd hz maxiter hs hm hk e).
Qed.
Print Assumptions C80_fastmsc_pammedsil.
Definition C80_fastmsc_pammedsil_case := C80_fastmsc_pammedsil (Lt := Q) m6 6 d6 [0; 1; 3] 10 m6_diss s63 k63 le23 eq_refl.

(** fastmsc.rs:10-15 against PAMMEDSIL *)
Theorem C80_faster_than_pammedsil {Nt Lt : Type} `{HLL : LossLaws Nt Lt} `{HAL : !AddLaws Nt} `{HDL : !DivLaws Nt Lt}
    (M : Mat Nt) n D med maxiter :
  diss_matrix M n D -> sizes n (length med) -> medoids n (length med) med -> 3 <= length med -> let k := length med in
  exists r : pam_result Lt, fastmsc M med maxiter = Ok r /\ pammedsil_swap M med maxiter = Ok r /\
    reads (pammedsil_swap_n (Lt := Lt) M med maxiter) =
      reads (fastmsc_n (Lt := Lt) M med maxiter) + (k * (n - 1) - n) * (n - k) * r_iter r.
Proof.
  intros hd hs hm hk k. destruct (fastmsc_pammedsil_swap (Lt := Lt) hd maxiter hs hm hk) as (r & e & e'). exists r.
  split; [exact e|]. split; [exact e'|].
  pose proof (pammedsil_reads_more hd maxiter hs hm hk e) as hr. fold k in hr. unfold reads.
  assert (hkn : k <= n) by (destruct hs as ((_ & h2) & _); exact h2).
  assert (hge : n <= k * (n - 1)) by (unfold k in *; nia).
  destruct (Nat.le_exists_sub _ _ hge) as (d & hd' & _). rewrite hd' in *. rewrite Nat.add_sub. nia.
Qed.
Print Assumptions C80_faster_than_pammedsil.
Definition C80_faster_than_pammedsil_case := C80_faster_than_pammedsil (Lt := Q) m6 6 d6 [0; 1; 3] 10 m6_diss s63 k63 le33.
Example C80_faster_than_pammedsil_value :
  fst (fastmsc_n (Lt := Q) m6 [0; 1; 3] 10) = 59 /\ fst (pammedsil_swap_n (Lt := Q) m6 [0; 1; 3] 10) = 113.
Proof. vm_compute. auto. Qed.

(** One medoid: every other object is compared with every object, once. *)
Theorem C80_single {Nt Lt : Type} `{HNN : NumN Nt} `{HNL : NumL Lt} `{HFN : FromN Nt Lt} (M : Mat Nt) order x maxiter :
  x < mlen M -> let n := mlen M in
  (forall r : pam_result Lt, fasterpam_order M order [x] maxiter = Ok r ->
     reads (fasterpam_order_n (Lt := Lt) M order [x] maxiter) = n * (n - 1)) /\
  (forall r : pam_result Lt, fastpam1 M [x] maxiter = Ok r -> reads (fastpam1_n (Lt := Lt) M [x] maxiter) = n * (n - 1)) /\
  (forall r : pam_result Lt, pam_swap M [x] maxiter = Ok r -> reads (pam_swap_n (Lt := Lt) M [x] maxiter) = n * n) /\
  (forall r : pam_result Lt, fastermsc M [x] maxiter = Ok r -> reads (fastermsc_n (Lt := Lt) M [x] maxiter) = n * (n - 1)) /\
  (forall r : pam_result Lt, fastmsc M [x] maxiter = Ok r -> reads (fastmsc_n (Lt := Lt) M [x] maxiter) = n * (n - 1)) /\
  (forall r : pam_result Lt, pammedsil_swap M [x] maxiter = Ok r ->
     reads (pammedsil_swap_n (Lt := Lt) M [x] maxiter) = n * n).
Proof.
  intros hx n. assert (hin : forall m, In m [x] -> m < n) by (intros m [<-|[]]; exact hx).
  assert (hs : forall r : pam_result Lt, snd (single_medoid_n M [x]) = Ok r -> fst (single_medoid_n (Lt := Lt) M [x]) = n * (n - 1)).
  { intros r e. exact (single_cost M [x] e hin). }
  assert (h2 : forall r : pam_result Lt, snd (pam_swap_n M [x] maxiter) = Ok r -> fst (pam_swap_n (Lt := Lt) M [x] maxiter) = n * n).
  { assert (G : cok (pam_swap_n (Lt := Lt) M [x] maxiter) (fun c _ => c = n * n)); [|intros r e; exact (G r e)].
    unfold pam_swap_n. eapply cok_bind; [apply initial_cost|]. intros c [loss data] (-> & _).
    change (pam_optimize_n M [x] data maxiter loss) with (single_medoid_n (Lt := Lt) M [x]).
    intros r e. rewrite (hs r e). cbn [length]. fold n. nia. }
  assert (h3 : forall r : pam_result Lt, snd (pammedsil_swap_n M [x] maxiter) = Ok r ->
    fst (pammedsil_swap_n (Lt := Lt) M [x] maxiter) = n * n).
  { assert (G : cok (pammedsil_swap_n (Lt := Lt) M [x] maxiter) (fun c _ => c = n * n)); [|intros r e; exact (G r e)].
    unfold pammedsil_swap_n. eapply cok_bind; [apply initial3_cost|]. intros c [loss data] (-> & _).
    change (pammedsil_optimize_n M [x] data maxiter loss) with (single_medoid_n (Lt := Lt) M [x]).
    intros r e. rewrite (hs r e). cbn [length]. fold n. nia. }
  split; [intros r e; rewrite <- fasterpam_order_same in e; exact (hs r e)|].
  split; [intros r e; rewrite <- fastpam1_same in e; exact (hs r e)|].
  split; [intros r e; rewrite <- pam_swap_same in e; exact (h2 r e)|].
  split; [intros r e; rewrite <- fastermsc_same in e; exact (hs r e)|].
  split; [intros r e; rewrite <- fastmsc_same in e; exact (hs r e)|].
  intros r e. rewrite <- pammedsil_swap_same in e. exact (h3 r e).
Qed.
Print Assumptions C80_single.
Lemma lt16 : 1 < mlen m6. Proof. unfold m6. cbn. lia. Qed.
Definition C80_single_case := C80_single (Lt := Z) m6 [0; 1; 2; 3; 4; 5] 1 10 lt16.

(** BUILD reads at most [n n] entries for each medoid; PAM no more than [n n k (1 + iterations)], and [n k] for each swap. *)
Theorem C80_build_pam {Nt Lt : Type} `{HNN : NumN Nt} `{HNL : NumL Lt} `{HFN : FromN Nt Lt} (M : Mat Nt) k maxiter :
  1 <= k -> let n := mlen M in
  (forall st : bst Nt Lt, pam_build_initialize M k = Ok st -> reads (pam_build_initialize_n (Lt := Lt) M k) <= n * n * k) /\
  (forall r : pam_result Lt, pam M k maxiter = Ok r ->
     reads (pam_n (Lt := Lt) M k maxiter) <= n * n * k * (1 + r_iter r) + n * k * r_swaps r).
Proof.
  intros hk n. split.
  - intros st e. rewrite <- pam_build_initialize_same in e. exact (proj1 (proj2 (build_cost M hk e))).
  - intros r e. rewrite <- pam_same in e. pose proof (pam_cost M k maxiter e) as h. cbv beta in h. unfold reads.
    fold n in h. nia.
Qed.
Print Assumptions C80_build_pam.
Definition C80_build_pam_case := C80_build_pam (Lt := Z) m6 3 10 (le_S _ _ (le_S _ _ (le_n 1))).

(** Alternating: "fairly fast (O(n^2), like the FasterPAM method)" (alternating.rs:9): at most [n (n + k)] for each iteration. *)
Theorem C80_alternating {Nt Lt : Type} `{HNN : NumN Nt} `{HNL : NumL Lt} `{HFN : FromN Nt Lt} (M : Mat Nt) med maxiter
    (r : pam_result Lt) :
  alternating M med maxiter = Ok r -> let n := mlen M in let k := length med in
  n * k <= reads (alternating_n (Lt := Lt) M med maxiter) <= n * k + n * (n + k) * r_iter r.
Proof.
  intros e n k. rewrite <- alternating_same in e. pose proof (alternating_cost M med maxiter e) as h. cbv beta in h.
  unfold reads. fold n k in h. rewrite Nat.mul_add_distr_l. exact h.
Qed.
Print Assumptions C80_alternating.
Example C80_alternating_value : exists r, alternating_n (Lt := Z) m6 [0; 1; 3] 10 = (50, Ok r) /\ r_iter r = 2.
Proof. vm_compute. eexists. split; reflexivity. Qed.

(** The Silhouette reads every ordered pair of different objects, unless all labels are 0: then it stops after the first
    object.  The Medoid Silhouette reduces "the run time from O(N^2) to O(Nk)" (silhouette.rs:102): [n k]. *)
Theorem C80_silhouettes {Nt Lt : Type} `{HNN : NumN Nt} `{HNL : NumL Lt} `{HFN : FromN Nt Lt} (M : Mat Nt) assi meds samples :
  let N := length assi in
  (forall r, silhouette (Lt := Lt) M assi samples = Ok r -> (exists a, In a assi /\ a <> 0) ->
     reads (silhouette_n (Lt := Lt) M assi samples) = N * (N - 1)) /\
  (forall r, silhouette (Lt := Lt) M assi samples = Ok r -> (forall a, In a assi -> a = 0) ->
     reads (silhouette_n (Lt := Lt) M assi samples) = N - 1) /\
  (forall r, par_silhouette (Lt := Lt) M assi = Ok r -> reads (par_silhouette_n (Lt := Lt) M assi) = N * (N - 1)) /\
  (forall r, medoid_silhouette (Lt := Lt) M meds samples = Ok r -> 2 <= length meds ->
     reads (medoid_silhouette_n (Lt := Lt) M meds samples) = mlen M * length meds) /\
  (forall r, medoid_silhouette (Lt := Lt) M meds samples = Ok r -> length meds = 1 ->
     reads (medoid_silhouette_n (Lt := Lt) M meds samples) = 0).
Proof.
  intros N. split; [|split; [|split; [|split]]]; intros r e.
  - intros (a & ha & hne). rewrite <- silhouette_same in e. pose proof (silhouette_cost_exact M assi samples e) as h.
    cbv beta in h. unfold reads. rewrite h. destruct (Nat.eqb_spec (width assi) 1) as [ew|]; [|auto].
    apply width_one in ew as [_ ew]. exfalso. exact (hne (ew a ha)).
  - intros h0. rewrite <- silhouette_same in e. pose proof (silhouette_cost_exact M assi samples e) as h.
    cbv beta in h. unfold reads, N. rewrite h. destruct (Nat.eqb_spec (width assi) 1) as [ew|ew]; [auto|].
    destruct assi as [|a l]; [auto|]. exfalso. apply ew. apply width_one. split; [discriminate|auto].
  - rewrite <- par_silhouette_same in e. exact (par_silhouette_cost M assi e).
  - intros hk. rewrite <- medoid_silhouette_same in e. pose proof (medoid_silhouette_cost M meds samples e) as h.
    cbv beta in h. unfold reads. rewrite h. destruct (Nat.eqb_spec (length meds) 1); [lia|auto].
  - intros hk. rewrite <- medoid_silhouette_same in e. pose proof (medoid_silhouette_cost M meds samples e) as h.
    cbv beta in h. unfold reads. rewrite h, hk. auto.
Qed.
Print Assumptions C80_silhouettes.
Example C80_silhouettes_value :
  fst (silhouette_n (Lt := Q) m6 [1; 1; 0; 2; 0; 0] true) = 30 /\ fst (silhouette_n (Lt := Q) m6 [0; 0; 0; 0; 0; 0] true) = 5 /\
  fst (medoid_silhouette_n (Lt := Q) m6 [4; 1; 3] true) = 18.
Proof. vm_compute. auto. Qed.
