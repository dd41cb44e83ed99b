(** P_Debug.v -- property C42: the internal assertions of debug builds with the cargo feature
    "assertions".  Every theorem is followed by a concrete input which meets its hypotheses. *)
From Coq Require Import ZArith QArith Lqa Lia.
From Coq.Floats Require Import SpecFloat.
From Verif Require Import Base Num M_Mat M_Util M_Fasterpam M_Pam M_Alternating M_ParFasterpam M_Silhouette M_Msc
  M_Pammedsil M_Dynmsc M_Debug Inst Hoare Spec Laws PamShape PamMain FloatFacts FloatMain DebugFacts Ex P_Pam P_Float.
Open Scope nat_scope.

(** C42, PAM family: with exact comparisons (integers, finite floats) no internal assertion fails on
    any dissimilarity matrix, so that builds with and without assertions compute the same; whatever
    the arithmetic of the losses is. *)
Theorem C42_pam_family {Nt Lt : Type} `{HO : OrdLaws Nt} `{HL : NumL Lt} `{HF : FromN Nt Lt}
    (M : Mat Nt) n D (nleb : Nt -> Nt -> bool) med maxiter order orc :
  (forall a b, okN a -> okN b -> (nleb a b = true <-> (vN a <= vN b)%Q)) ->
  diss_matrix M n D -> sizes n (length med) -> (forall m, In m med -> m < n) ->
  fasterpam_dbg M nleb med maxiter = fasterpam (Lt := Lt) M med maxiter /\
  fasterpam_order_dbg M nleb order med maxiter = rand_fasterpam (Lt := Lt) M order med maxiter /\
  par_fasterpam_dbg M nleb orc order med maxiter = par_fasterpam (Lt := Lt) M orc order med maxiter /\
  fastpam1_dbg M nleb med maxiter = fastpam1 (Lt := Lt) M med maxiter /\
  pam_swap_dbg M nleb med maxiter = pam_swap (Lt := Lt) M med maxiter /\
  (forall k, pam_dbg M nleb k maxiter = pam (Lt := Lt) M k maxiter).
Proof.
  intros hl hd hs hin. pose proof (proj1 hd) as hM.
  split; [apply (fasterpam_order_dbg_eq (Lt := Lt) hM hd hl _ maxiter hs hin)|].
  split; [apply (fasterpam_order_dbg_eq (Lt := Lt) hM hd hl _ maxiter hs hin)|].
  split; [apply (par_fasterpam_dbg_eq (Lt := Lt) hM hd hl _ _ maxiter hs hin)|].
  split; [apply (fastpam1_dbg_eq (Lt := Lt) hM hd hl maxiter hs hin)|].
  split; [apply (pam_swap_dbg_eq (Lt := Lt) hM hd hl maxiter hs hin)|].
  intros k. destruct (check_input M k) as [[]|p] eqn:e.
  - apply check_input_valid in e as [_ hk]. rewrite (len_n hM) in hk.
    apply (pam_dbg_eq (Lt := Lt) hM hd hl maxiter hk).
  - unfold pam_dbg, pam. rewrite e. reflexivity.
Qed.
Print Assumptions C42_pam_family.
Definition C42_pam_case := C42_pam_family (Lt := f64) _ 5 _ SFleb [0; 1] 10 [3; 0; 2] (orc2 [1; 0]) le_ok_f64 f1_diss s52
  (proj2 (proj2 k52)).

(** C42, medoid silhouette family: likewise for any number of medoids in fastermsc and fastmsc, and
    for any number other than two in pammedsil_swap and dynmsc. *)
Theorem C42_msc_family {Nt Lt : Type} `{HO : OrdLaws Nt} `{HL : NumL Lt} `{HF : FromN Nt Lt}
    (M : Mat Nt) n D (nleb : Nt -> Nt -> bool) med mink maxiter :
  (forall a b, okN a -> okN b -> (nleb a b = true <-> (vN a <= vN b)%Q)) ->
  diss_matrix M n D -> sizes n (length med) -> (forall m, In m med -> m < n) ->
  fastermsc_dbg M nleb med maxiter = fastermsc (Lt := Lt) M med maxiter /\
  fastmsc_dbg M nleb med maxiter = fastmsc (Lt := Lt) M med maxiter /\
  (length med <> 2 ->
     pammedsil_swap_dbg M nleb med maxiter = pammedsil_swap (Lt := Lt) M med maxiter /\
     dynmsc_dbg M nleb med mink maxiter = dynmsc (Lt := Lt) M med mink maxiter).
Proof.
  intros hl hd hs hin. pose proof (proj1 hd) as hM.
  split; [apply (fastermsc_dbg_eq (Lt := Lt) hM hd hl maxiter hs hin)|].
  split; [apply (fastmsc_dbg_eq (Lt := Lt) hM hd hl maxiter hs hin)|].
  intros h2. split; [apply (pammedsil_swap_dbg_eq (Lt := Lt) hM hd hl maxiter hs hin h2)|].
  apply (dynmsc_dbg_eq (Lt := Lt) hM hd hl mink maxiter hs hin h2).
Qed.
Print Assumptions C42_msc_family.
Definition C42_msc_case := C42_msc_family (Lt := Q) m6 6 d6 Z.leb [0; 1; 3] 1 10 le_ok_Z m6_diss s63
  (proj2 (proj2 k63)).

(** C42, pammedsil: the outcome depends on whether BUILD finds exactly two medoids. *)
Theorem C42_pammedsil {Nt Lt : Type} `{HO : OrdLaws Nt} `{HL : NumL Lt} `{HF : FromN Nt Lt}
    (M : Mat Nt) n D (nleb : Nt -> Nt -> bool) k maxiter :
  lleb (lzero : Lt) lzero = true ->
  (forall a b, okN a -> okN b -> (nleb a b = true <-> (vN a <= vN b)%Q)) ->
  diss_matrix M n D -> sizes n k ->
  exists st : b3st Nt Lt, pammedsil_build_initialize M k = Ok st /\
    (length (b3_meds st) <> 2 -> pammedsil_dbg M nleb k maxiter = pammedsil (Lt := Lt) M k maxiter) /\
    (length (b3_meds st) = 2 -> exists p, pammedsil_dbg (Lt := Lt) M nleb k maxiter = Panic p).
Proof.
  intros hz hl hd hs. pose proof (proj1 hd) as hM.
  destruct (pammedsil_dbg_eq (Lt := Lt) hM hd hl hz maxiter hs) as (st & e & h). exists st. split; [exact e|].
  destruct (Nat.eqb_spec (length (b3_meds st)) 2) as [e2|e2]; split; intros h2; auto; contradiction.
Qed.
Print Assumptions C42_pammedsil.
Definition C42_pammedsil_case := C42_pammedsil (Lt := Q) m6 6 d6 Z.leb 3 10 eq_refl le_ok_Z m6_diss s63.

(** C42, numbers of medoids which the algorithms reject: builds with and without assertions stop
    alike, before any internal assertion is reached. *)
Theorem C42_rejected {Nt Lt : Type} `{HN : NumN Nt} `{HL : NumL Lt} `{HF : FromN Nt Lt}
    (M : Mat Nt) n D (nleb : Nt -> Nt -> bool) med mink maxiter order orc :
  is_matrix M n D -> length med <> 1 -> ~ sizes n (length med) ->
  exists p,
  fasterpam_dbg (Lt := Lt) M nleb med maxiter = Panic p /\ fasterpam (Lt := Lt) M med maxiter = Panic p /\
  fasterpam_order_dbg (Lt := Lt) M nleb order med maxiter = Panic p /\
  rand_fasterpam (Lt := Lt) M order med maxiter = Panic p /\
  par_fasterpam_dbg (Lt := Lt) M nleb orc order med maxiter = Panic p /\
  par_fasterpam (Lt := Lt) M orc order med maxiter = Panic p /\
  fastpam1_dbg (Lt := Lt) M nleb med maxiter = Panic p /\ fastpam1 (Lt := Lt) M med maxiter = Panic p /\
  pam_swap_dbg (Lt := Lt) M nleb med maxiter = Panic p /\ pam_swap (Lt := Lt) M med maxiter = Panic p /\
  pam_dbg (Lt := Lt) M nleb (length med) maxiter = Panic p /\
  pam (Lt := Lt) M (length med) maxiter = Panic p /\
  pammedsil_swap_dbg (Lt := Lt) M nleb med maxiter = Panic p /\
  pammedsil_swap (Lt := Lt) M med maxiter = Panic p /\
  pammedsil_dbg (Lt := Lt) M nleb (length med) maxiter = Panic p /\
  pammedsil (Lt := Lt) M (length med) maxiter = Panic p /\
  dynmsc_dbg (Lt := Lt) M nleb med mink maxiter = Panic p /\
  dynmsc (Lt := Lt) M med mink maxiter = Panic p /\
  (length med <> 2 ->
     fastermsc_dbg (Lt := Lt) M nleb med maxiter = Panic p /\ fastermsc (Lt := Lt) M med maxiter = Panic p /\
  fastmsc_dbg (Lt := Lt) M nleb med maxiter = Panic p /\ fastmsc (Lt := Lt) M med maxiter = Panic p).
Proof.
  intros hM h1 hs. destruct (check_input M (length med)) as [[]|p] eqn:e.
  - apply check_input_valid in e as [_ hk]. rewrite (len_n hM) in hk. contradiction.
  - exists p. apply Nat.eqb_neq in h1.
    do 18 (split; [unfold fasterpam_dbg, fasterpam, fasterpam_order_dbg, rand_fasterpam, fasterpam_order,
      par_fasterpam_dbg, par_fasterpam, fastpam1_dbg, fastpam1, pam_swap_dbg, pam_swap, pam_dbg, pam,
      pammedsil_swap_dbg, pammedsil_swap, pammedsil_dbg, pammedsil, dynmsc_dbg, dynmsc,
      initial_assignment, initial_assignment3, par_initial_assignment;
      rewrite ?h1, ?e; reflexivity|]).
    intros h2. apply Nat.eqb_neq in h2.
    unfold fastermsc_dbg, fastermsc, fastmsc_dbg, fastmsc, initial_assignment3.
    rewrite ?h1, ?h2, ?e. auto.
Qed.
Print Assumptions C42_rejected.
Lemma not_sizes_67 : ~ sizes 6 (length [0; 1; 2; 3; 4; 5; 0]).
Proof. intros [h _]. cbn in h. lia. Qed.
Definition C42_rejected_case := C42_rejected (Lt := Q) m6 6 d6 Z.leb [0; 1; 2; 3; 4; 5; 0] 1 10 [3; 0; 2]
  (orc2 [1; 0]) (proj1 m6_diss) ltac:(discriminate) not_sizes_67.

(** C42 is refuted for pammedsil_swap and dynmsc: with two medoids the check of the third nearest
    medoid, which does not exist, panics on every input, for every numeric type. *)
Theorem C42_two_medoids_panic {Nt Lt : Type} `{HN : NumN Nt} `{HL : NumL Lt} `{HF : FromN Nt Lt}
    (M : Mat Nt) n D (nleb : Nt -> Nt -> bool) med mink maxiter :
  is_matrix M n D -> sizes n (length med) -> (forall m, In m med -> m < n) -> length med = 2 ->
  (exists p, pammedsil_swap_dbg (Lt := Lt) M nleb med maxiter = Panic p /\ (p = P_assert \/ p = P_index)) /\
  (exists p, dynmsc_dbg (Lt := Lt) M nleb med mink maxiter = Panic p /\ (p = P_assert \/ p = P_index)).
Proof. intros hM hs hin h2. exact (two_medoids_panic (Lt := Lt) nleb hM mink maxiter hs hin h2). Qed.
Print Assumptions C42_two_medoids_panic.

Theorem C42_two_medoids_refuted :
  exists (M : Mat Z) (D : nat -> nat -> Z) (med : list nat),
    diss_matrix M 6 D /\ sizes 6 (length med) /\ medoids 6 (length med) med /\
    (exists r : pam_result Q, pammedsil_swap M med 10 = Ok r) /\
    (exists r : dyn_result Q, dynmsc M med 1 10 = Ok r) /\
    (exists p, pammedsil_swap_dbg (Lt := Q) M Z.leb med 10 = Panic p) /\
    (exists p, dynmsc_dbg (Lt := Q) M Z.leb med 1 10 = Panic p).
Proof.
  exists m6, d6, [0; 1]. split; [exact m6_diss|]. split; [exact s62|]. split; [exact k62|].
  destruct (C42_two_medoids_panic (Lt := Q) m6 6 d6 Z.leb [0; 1] 1 10 (proj1 m6_diss) s62 (proj2 (proj2 k62)) eq_refl)
    as [(p & e & _) (q & f & _)].
  split; [eexists; vm_compute; reflexivity|]. split; [eexists; vm_compute; reflexivity|].
  split; [exists p; exact e|exists q; exact f].
Qed.
Print Assumptions C42_two_medoids_refuted.
