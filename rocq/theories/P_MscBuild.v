(** P_MscBuild.v -- pammedsil with its BUILD initialization: C32 and its parts of C24, C25, C28, C29. *)
From Coq Require Import ZArith QArith Lqa Lia.
From Verif Require Import Base Num M_Mat M_Util M_Fasterpam M_Pam M_Silhouette M_Msc M_Pammedsil Inst Hoare
  Spec SpecFacts Laws PamShape PamExact LocalSearch ChooseFacts FpFacts PamFacts BuildFacts PamMain SortFacts SilFacts
  MscShape MscExact MscFacts MscK2 MscMain BuildMsc Ex P_Pam P_Msc.
Open Scope nat_scope.

Definition same_but_value {Nt Lt} `{HLL : LossLaws Nt Lt} (r r' : pam_result Lt) : Prop :=
  r_med r = r_med r' /\ r_assi r = r_assi r' /\ r_iter r = r_iter r' /\ r_swaps r = r_swaps r' /\
  (vL (r_loss r) == vL (r_loss r'))%Q.

(** C32, what does hold: BUILD yields between 1 and k distinct medoids, greedily chosen among all
    objects for the first, and among all objects but object 0 for the others.  There are fewer than
    k only if every object but 0 is at distance 0 from a medoid.  The result is then that of
    pammedsil_swap from these medoids. *)
Theorem C32_build_greedy_but_0 {Nt Lt : Type} `{HLL : LossLaws Nt Lt} `{HAL : !AddLaws Nt} `{HDL : !DivLaws Nt Lt}
    (M : Mat Nt) n D k maxiter :
  diss_matrix M n D -> sizes n k ->
  exists meds (r r' : pam_result Lt),
    pammedsil M k maxiter = Ok r /\ pammedsil_swap M meds maxiter = Ok r' /\ same_but_value r r' /\
    1 <= length meds <= k /\ medoids n (length meds) meds /\ greedy_but_0 (vals D) n meds /\
    (length meds = k \/ forall y, 1 <= y < n -> (mindist (vals D) y meds == 0)%Q) /\
    (maxiter = 0 -> 2 <= length meds -> r_med r = meds).
Proof.
  intros hd hs. destruct (pammedsil_ok (Lt := Lt) hd maxiter hs) as (meds & r & r' & e & e' & h1 & h2 & h3 & h4 & h5 & h6).
  exists meds, r, r'. split; [auto|]. split; [auto|]. split; [exact h1|]. split; [auto|]. split; [auto|].
  split; [auto|]. split; [auto|]. intros -> hk.
  assert (hsl : sizes n (length meds)).
  { destruct hs as (a1 & a2 & a3). split; [lia|]. split; [auto|]. lia. }
  destruct (pammedsil_swap_all (Lt := Lt) hd 0 hsl h3 hk) as (q & eq & q1 & _ & q2 & _).
  rewrite e' in eq. injection eq as <-. destruct h1 as (-> & _). apply (ms_same q1).
  destruct q2 as [[q2 _]|[q2 q3]]; [pose proof (ms_iter q1); lia|lia].
Qed.
Print Assumptions C32_build_greedy_but_0.
Definition C32_case := C32_build_greedy_but_0 (Lt := Q) m6 6 d6 3 0 m6_diss s63.

(** C32, refuted: object 0 is never chosen after the first medoid.  Three points on a line: PAM
    BUILD reaches total deviation 1 with 2 medoids, pammedsil only 9. *)
Definition rows_line : list (list Z) := [[0; 9; 10]; [9; 0; 1]; [10; 1; 0]]%Z.
Theorem C32_build_greedy_refuted : exists (M : Mat Z) D (r : pam_result Q) loss assi meds,
  diss_matrix M 3 D /\ symmetric 3 (vals D) /\ pammedsil M 2 0 = Ok r /\
  pam_build (Lt := Q) M 2 = Ok (loss, assi, meds) /\
  ~ greedy (vals D) 3 (r_med r) /\ (tdev (vals D) 3 meds < tdev (vals D) 3 (r_med r))%Q.
Proof.
  exists (mat_of_rows rows_line), (entries rows_line). do 4 eexists.
  split; [apply rows_diss; [lia|reflexivity]|]. split; [apply rows_sym; reflexivity|].
  split; [vm_compute; reflexivity|]. split; [vm_compute; reflexivity|]. cbn [r_med]. split.
  - intros h. specialize (h 1 0 ltac:(simpl; lia) ltac:(lia)). revert h. vm_compute. congruence.
  - vm_compute. reflexivity.
Qed.
Print Assumptions C32_build_greedy_refuted.

(** ... and it may return fewer than k medoids though the total deviation is not 0. *)
Theorem C32_build_number_refuted : exists (M : Mat Z) D (r : pam_result Q),
  diss_matrix M 3 D /\ symmetric 3 (vals D) /\ pammedsil M 3 10 = Ok r /\
  length (r_med r) < 3 /\ (0 < tdev (vals D) 3 (r_med r))%Q.
Proof.
  exists (mat_of_rows rows_line), (entries rows_line). eexists.
  split; [apply rows_diss; [lia|reflexivity]|]. split; [apply rows_sym; reflexivity|].
  split; [vm_compute; reflexivity|]. cbn [r_med]. split; [simpl; lia|vm_compute; reflexivity].
Qed.
Print Assumptions C32_build_number_refuted.

(** C24, C25, C28 for pammedsil, when BUILD found at least two medoids. *)
Theorem C24_pammedsil_value {Nt Lt : Type} `{HLL : LossLaws Nt Lt} `{HAL : !AddLaws Nt} `{HDL : !DivLaws Nt Lt}
    (M : Mat Nt) n D k maxiter (r : pam_result Lt) :
  diss_matrix M n D -> sizes n k -> pammedsil M k maxiter = Ok r -> 2 <= length (r_med r) ->
  value_is_medoid_silhouette (Lt := Lt) M n (vals D) (pammedsil M k maxiter) /\
  msc_consistent n (vals D) (length (r_med r)) r /\
  (forall c, c < length (r_med r) -> nth (nth c (r_med r) 0) (r_assi r) 0 = c) /\
  (r_iter r < maxiter -> sil_optimal (vals D) n (r_med r)).
Proof.
  intros hd hs er hk. destruct (pammedsil_ok (Lt := Lt) hd maxiter hs) as (meds & q & r' & e & e' & h1 & h2 & h3 & h4 & h5 & h6).
  rewrite er in e. injection e as <-.
  assert (hsl : sizes n (length meds)).
  { destruct hs as (a1 & a2 & a3). split; [lia|]. split; [auto|]. lia. }
  destruct h1 as (g1 & g2 & g3 & g4 & g5).
  assert (hk2 : 2 <= length meds).
  { destruct (Nat.eq_dec (length meds) 1) as [hl1|]; [|lia]. exfalso.
    destruct meds as [|x [|]]; simpl in hl1; try lia. assert (hx : x < n) by (apply h3; simpl; auto).
    destruct (msc_single (Lt := Lt) (proj1 hd) maxiter hsl hx) as (_ & _ & hx'). rewrite hx' in e'.
    destruct (single_returns (Lt := Lt) (proj1 hd) hx) as (q & eq & q1 & _). rewrite e' in eq. injection eq as <-.
    rewrite g1 in hk. lia. }
  destruct (pammedsil_swap_all (Lt := Lt) hd maxiter hsl h3 hk2) as (q & eq & q1 & q2 & q3 & _).
  rewrite e' in eq. injection eq as <-.
  pose proof (proj1 (ms_medoids q1)) as hl.
  assert (hq : msc_summary n D meds maxiter r).
  { destruct q1. rewrite <- g1, <- ?g2, <- ?g3, <- ?g4 in *. constructor; rewrite ?g5; auto. }
  rewrite er. split; [eapply summary_value; eauto|].
  rewrite g1, hl. split; [|split].
  - destruct hq. split; [auto|]. split; auto.
  - intros c hc. rewrite g2. apply q2. lia.
  - intros hi. rewrite <- g1. apply (ms_opt hq). auto.
Qed.
Print Assumptions C24_pammedsil_value.
Definition C24_pammedsil_run : pam_result Q :=
  Eval vm_compute in match pammedsil (Lt := Q) m6 3 10 with Ok r => r | Panic _ => mkPR 0%Q [] 0 0 [] end.
Lemma C24_pammedsil_run_ok : pammedsil (Lt := Q) m6 3 10 = Ok C24_pammedsil_run.
Proof. vm_compute. reflexivity. Qed.
Lemma C24_pammedsil_run_med : 2 <= length (r_med C24_pammedsil_run).
Proof. apply Nat.leb_le. reflexivity. Qed.
Definition C24_pammedsil_case := C24_pammedsil_value (Lt := Q) m6 6 d6 3 10 C24_pammedsil_run m6_diss s63
  C24_pammedsil_run_ok C24_pammedsil_run_med.

(** C29 for pammedsil: it returns for all numbers, with between 1 and k medoids. *)
Theorem C29_pammedsil_no_panic {Nt Lt : Type} `{HN : NumN Nt} `{HL : NumL Lt} `{HF : FromN Nt Lt}
    (M : Mat Nt) n D k maxiter :
  is_matrix M n D -> sizes n k ->
  lltb (lzero : Lt) lzero = false -> lleb (lzero : Lt) lzero = true ->
  exists l, 1 <= l <= k /\ returns n (pammedsil (Lt := Lt) M k maxiter) l.
Proof. intros hm hs h1 h2. exact (pammedsil_shape hm h1 h2 maxiter hs). Qed.
Print Assumptions C29_pammedsil_no_panic.
Definition C29_pammedsil_case := C29_pammedsil_no_panic (Lt := f64) mf 4 df 3 10 mf_matrix s43 eq_refl eq_refl.
