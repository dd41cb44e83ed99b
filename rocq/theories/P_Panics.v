(** P_Panics.v -- property C48: the documented panics of the silhouette-based algorithms (fastermsc,
    fastmsc, pammedsil, pamsil, dynmsc) and of the silhouette functions.  No law on the numbers is
    assumed.  [rejected] is the precondition of C10 (P_Pam.v). *)
From Coq Require Import ZArith QArith Lqa Lia.
From Verif Require Import Base Num M_Mat M_Util M_Fasterpam M_Pam M_Alternating M_Silhouette M_Msc M_Pammedsil M_Pamsil M_Dynmsc
  Inst Hoare Spec SpecFacts Laws PamShape ChooseFacts FpFacts PamFacts PamMain Ex P_Pam.
Open Scope nat_scope.

(** C48.  With a medoid list of length other than 1, and other than 2 for fastermsc and fastmsc. *)
Theorem C48_msc_panics {Nt Lt : Type} `{HN : NumN Nt} `{HL : NumL Lt} `{HF : FromN Nt Lt}
    (M : Mat Nt) med mink maxiter p :
  rejected M (length med) p ->
  (length med <> 1 -> length med <> 2 ->
     fastermsc (Lt := Lt) M med maxiter = Panic p /\ fastmsc (Lt := Lt) M med maxiter = Panic p) /\
  (length med <> 1 -> dynmsc (Lt := Lt) M med mink maxiter = Panic p) /\
  pammedsil_swap (Lt := Lt) M med maxiter = Panic p /\ pamsil_swap (Lt := Lt) M med maxiter = Panic p.
Proof.
  intros h. apply (check_rejects (M := M)) in h. split; [|split; [|split]].
  - intros h1 h2. apply Nat.eqb_neq in h1, h2.
    unfold fastermsc, fastmsc, initial_assignment3. rewrite h1, h2, h. auto.
  - intros h1. apply Nat.eqb_neq in h1. unfold dynmsc, initial_assignment3. rewrite h1, h. auto.
  - unfold pammedsil_swap, initial_assignment3. rewrite h. auto.
  - unfold pamsil_swap, assign_nearest. rewrite h. auto.
Qed.
Print Assumptions C48_msc_panics.

(** The same with the BUILD initialization, for every k. *)
Theorem C48_build_panics {Nt Lt : Type} `{HN : NumN Nt} `{HL : NumL Lt} `{HF : FromN Nt Lt}
    (M : Mat Nt) k maxiter p :
  rejected M k p ->
  pammedsil (Lt := Lt) M k maxiter = Panic p /\ pamsil (Lt := Lt) M k maxiter = Panic p.
Proof.
  intros h. apply (check_rejects (M := M)) in h. unfold pammedsil, pamsil. rewrite h. auto.
Qed.
Print Assumptions C48_build_panics.

(** Two medoids: fastermsc and fastmsc check that the matrix is square, and nothing about k and n.
    For distinct medoids k > n panics nevertheless, with another message, as the matrix has no such
    column (the hypothesis on [mget] holds for ndarray and for LowerTriangle). *)
Theorem C48_k2_panics {Nt Lt : Type} `{HN : NumN Nt} `{HL : NumL Lt} `{HF : FromN Nt Lt}
    (M : Mat Nt) a b maxiter :
  (msquare M = Ok false ->
     fastermsc (Lt := Lt) M [a; b] maxiter = Panic P_not_square /\
     fastmsc (Lt := Lt) M [a; b] maxiter = Panic P_not_square) /\
  (msquare M = Ok true -> (4294967295 < N.of_nat (mlen M))%N ->
     fastermsc (Lt := Lt) M [a; b] maxiter = Panic P_n_too_large /\
     fastmsc (Lt := Lt) M [a; b] maxiter = Panic P_n_too_large) /\
  (msquare M = Ok true -> (forall x y, mlen M <= y -> exists p, mget M x y = Panic p) ->
     mlen M < 2 -> a <> b ->
     exists p, fastermsc (Lt := Lt) M [a; b] maxiter = Panic p /\
               fastmsc (Lt := Lt) M [a; b] maxiter = Panic p).
Proof.
  split; [|split].
  - intros h. unfold fastermsc, fastmsc, fastermsc_k2, fastmsc_k2, initial_assignment_k2.
    cbn [length Nat.eqb bind assertb]. rewrite h. auto.
  - intros h hn. unfold fastermsc, fastmsc, fastermsc_k2, fastmsc_k2, initial_assignment_k2.
    cbn [length Nat.eqb bind assertb]. rewrite h. cbn [bind assertb].
    replace (N.of_nat (mlen M) <=? u32_max)%N with false by (symmetry; apply N.leb_gt; exact hn). auto.
  - intros hsq hout hn hab.
    assert (e : exists p, initial_assignment_k2 (Lt := Lt) M [a; b] = Panic p).
    { unfold initial_assignment_k2. rewrite hsq. cbn [bind assertb].
      replace (N.of_nat (mlen M) <=? u32_max)%N with true
        by (symmetry; apply N.leb_le; unfold u32_max; lia).
      destruct (mlen M) as [|[|n]] eqn:en; [exists P_unwrap; reflexivity| |lia].
      assert (h : exists p, ia2_obj (Lt := Lt) M a b 0 = Panic p).
      { unfold ia2_obj. destruct a as [|a].
        - destruct (hout 0 b) as (p & e); [lia|]. destruct (mget M 0 0) as [d|q]; [|exists q; reflexivity].
          exists p. cbn [bind]. rewrite e. reflexivity.
        - destruct (hout 0 (S a)) as (p & e); [lia|]. exists p. rewrite e. reflexivity. }
      destruct h as (p & h). exists p. cbn. rewrite h. reflexivity. }
    destruct e as (p & e). exists p. unfold fastermsc, fastmsc, fastermsc_k2, fastmsc_k2.
    cbn [length Nat.eqb bind assertb]. rewrite e. auto.
Qed.
Print Assumptions C48_k2_panics.

(** With twice the same medoid they return a result for k = 2 > n = 1. *)
Theorem C48_k2_k_gt_n_refuted : exists (M : Mat Z) (r r2 : pam_result Q), mlen M = 1 /\ msquare M = Ok true /\
  fastermsc M [0; 0] 10 = Ok r /\ fastmsc M [0; 0] 10 = Ok r2.
Proof.
  exists (mat_of_array2 (mkArray2 1 1 [0]%Z)). do 2 eexists. repeat split; vm_compute; reflexivity.
Qed.
Print Assumptions C48_k2_k_gt_n_refuted.

(** With one medoid fastermsc, fastmsc and dynmsc check nothing: no panic on a matrix which is not
    square, nor for n = 0. *)
Theorem C48_single_refuted :
  (exists (M : Mat Z) (r r2 : pam_result Q) (r3 : dyn_result Q), msquare M = Ok false /\
     fastermsc M [0] 10 = Ok r /\ fastmsc M [0] 10 = Ok r2 /\ dynmsc M [0] 1 10 = Ok r3) /\
  (exists (M : Mat Z) (r r2 : pam_result Q) (r3 : dyn_result Q), mlen M = 0 /\ msquare M = Ok true /\
     fastermsc M [0] 10 = Ok r /\ fastmsc M [0] 10 = Ok r2 /\ dynmsc M [0] 1 10 = Ok r3).
Proof.
  split; [exists (mat_of_array2 (mkArray2 1 2 [0; 1]%Z))|exists (mat_of_array2 (mkArray2 0 0 []%Z))];
    do 3 eexists; repeat split; vm_compute; reflexivity.
Qed.
Print Assumptions C48_single_refuted.

(** The silhouette functions: only "not square" is documented.  medoid_silhouette also rejects more
    medoids than objects and, for n > 0, no medoids. *)
Theorem C48_silhouette_panics {Nt Lt : Type} `{HN : NumN Nt} `{HL : NumL Lt} `{HF : FromN Nt Lt}
    (M : Mat Nt) assi meds samples :
  (msquare M = Ok false ->
     silhouette (Lt := Lt) M assi samples = Panic P_not_square /\
     par_silhouette (Lt := Lt) M assi = Panic P_not_square /\
     medoid_silhouette (Lt := Lt) M meds samples = Panic P_not_square) /\
  (msquare M = Ok true -> (4294967295 < N.of_nat (mlen M))%N ->
     medoid_silhouette (Lt := Lt) M meds samples = Panic P_n_too_large) /\
  (msquare M = Ok true -> (N.of_nat (mlen M) <= 4294967295)%N -> length meds <> 1 ->
     (mlen M < length meds -> medoid_silhouette (Lt := Lt) M meds samples = Panic P_k_gt_n) /\
     (meds = [] -> 0 < mlen M -> medoid_silhouette (Lt := Lt) M meds samples = Panic P_index)).
Proof.
  split; [|split].
  - intros h. unfold silhouette, par_silhouette, medoid_silhouette. rewrite h. auto.
  - intros h hn. unfold medoid_silhouette. rewrite h. cbn [bind assertb].
    replace (N.of_nat (mlen M) <=? u32_max)%N with false by (symmetry; apply N.leb_gt; exact hn). reflexivity.
  - intros h hn h1. apply Nat.eqb_neq in h1. unfold medoid_silhouette. rewrite h. cbn [bind assertb].
    replace (N.of_nat (mlen M) <=? u32_max)%N with true by (symmetry; apply N.leb_le; exact hn).
    cbn [bind assertb]. rewrite h1. split.
    + intros hl. replace (length meds <=? mlen M) with false by (symmetry; apply Nat.leb_gt; lia). reflexivity.
    + intros -> hp. cbn [length Nat.leb bind assertb]. destruct (mlen M); [lia|]. reflexivity.
Qed.
Print Assumptions C48_silhouette_panics.

(** Conversely a result is only ever returned for valid sizes. *)
Theorem C48_result_valid {Nt Lt : Type} `{HN : NumN Nt} `{HL : NumL Lt} `{HF : FromN Nt Lt}
    (M : Mat Nt) med mink k maxiter (r : pam_result Lt) (rd : dyn_result Lt) :
  ((length med <> 1 /\ length med <> 2 /\ (fastermsc M med maxiter = Ok r \/ fastmsc M med maxiter = Ok r)) \/
   (length med <> 1 /\ dynmsc M med mink maxiter = Ok rd) \/
   pammedsil_swap M med maxiter = Ok r \/ pamsil_swap M med maxiter = Ok r ->
   msquare M = Ok true /\ sizes (mlen M) (length med)) /\
  (pammedsil M k maxiter = Ok r \/ pamsil M k maxiter = Ok r -> msquare M = Ok true /\ sizes (mlen M) k).
Proof.
  assert (h3 : forall x, initial_assignment3 (Lt := Lt) M med = Ok x -> msquare M = Ok true /\ sizes (mlen M) (length med)).
  { intros x h. apply bind_ok in h as ([] & e & _). apply check_input_valid. auto. }
  split.
  - intros [(h1 & h2 & h)|[(h1 & h)|[h|h]]].
    + apply Nat.eqb_neq in h1, h2. unfold fastermsc, fastmsc in h. rewrite h1, h2 in h.
      destruct h as [h|h]; apply bind_ok in h as (x & e & _); eapply h3; eauto.
    + apply Nat.eqb_neq in h1. unfold dynmsc in h. rewrite h1 in h.
      apply bind_ok in h as (x & e & _); eapply h3; eauto.
    + apply bind_ok in h as (x & e & _); eapply h3; eauto.
    + apply bind_ok in h as (x & e & _). eapply assign_nearest_valid; eauto.
  - intros [h|h]; apply bind_ok in h as ([] & e & _); apply check_input_valid; auto.
Qed.
Print Assumptions C48_result_valid.

Definition C48_case := C48_msc_panics (Lt := Q) wide [0; 1; 1] 1 10 P_not_square (or_introl (conj eq_refl eq_refl)).
Definition C48_case_k_gt_n := C48_msc_panics (Lt := Q) m5 [0; 1; 2; 3; 4; 0; 1] 2 10 P_k_gt_n C10_k_gt_n.
Definition C48_case_build := C48_build_panics (Lt := Q) m5 0 10 P_invalid_k C10_k_zero.
Definition C48_case_k2 := proj1 (C48_k2_panics (Lt := Q) wide 0 1 10) eq_refl.
Definition C48_case_sil := proj1 (C48_silhouette_panics (Lt := Q) wide [0; 1] [0; 1] true) eq_refl.
Example C48_case_valid : exists r : pam_result Q, pammedsil m5 3 10 = Ok r.
Proof. eexists. vm_compute. reflexivity. Qed.
