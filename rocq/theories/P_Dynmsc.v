(** P_Dynmsc.v -- DynMSC: C30, C31, C41 and its part of C29.  Every theorem is followed by a
    concrete input which meets its hypotheses. *)
From Coq Require Import ZArith QArith Lqa Lia.
From Verif Require Import Base Num M_Mat M_Util M_Fasterpam M_Silhouette M_Msc M_Dynmsc Inst Hoare
  Spec SpecFacts Laws PamShape PamExact LocalSearch ChooseFacts FpFacts PamFacts PamMain SortFacts SilFacts
  MscShape MscExact MscFacts MscK2 MscMain DynShape DynFacts DynExact Ex P_Pam P_Msc.
Open Scope nat_scope.

(** C29, dynmsc: for every numeric type, matrix, in-range medoid list, minimum and iteration limit
    it returns normally; one loss for each number of medoids; and the assignment is either the
    placeholder [[0; n]] beside the initial medoids and a zero loss, or complete and in range. *)
Theorem C29_dynmsc_no_panic {Nt Lt : Type} `{HN : NumN Nt} `{HL : NumL Lt} `{HF : FromN Nt Lt}
    (M : Mat Nt) n D med mink maxiter :
  is_matrix M n D -> sizes n (length med) -> (forall m, In m med -> m < n) ->
  exists r : dyn_result Lt, dynmsc M med mink maxiter = Ok r /\
    length (d_losses r) = length med - Nat.min (Nat.max mink 1) (length med) + 1 /\
    Nat.min (Nat.max mink 1) (length med) <= length (r_med (d_res r)) <= length med /\
    (forall m, In m (r_med (d_res r)) -> m < n) /\
    (r_assi (d_res r) = [0; n] /\ r_med (d_res r) = med /\ r_loss (d_res r) = lzero \/
     length (r_assi (d_res r)) = n /\
     forall o, o < n -> nth o (r_assi (d_res r)) 0 < length (r_med (d_res r))).
Proof. intros hM hs hin. exact (dynmsc_shape hM maxiter mink hs hin). Qed.
Print Assumptions C29_dynmsc_no_panic.
Definition C29_dyn_case := C29_dynmsc_no_panic (Lt := f64) mf 4 df [3; 1; 3] 1 10 mf_matrix s43 i43.

(** C30.  One loss for each number of medoids from the minimum to the maximum; the returned loss is
    the largest of them and is the one listed for the returned number of medoids; the losses start
    (at the largest number) with that of fastermsc. *)
Theorem C30_dynmsc_best {Nt Lt : Type} `{HLL : LossLaws Nt Lt} `{HAL : !AddLaws Nt} `{HDL : !DivLaws Nt Lt}
    (M : Mat Nt) n D med mink maxiter :
  diss_matrix M n D -> sizes n (length med) -> medoids n (length med) med -> 2 <= length med ->
  let k := length med in let mk := Nat.min (Nat.max mink 1) k in
  exists (r : dyn_result Lt) (f : pam_result Lt),
    dynmsc M med mink maxiter = Ok r /\ fastermsc M med maxiter = Ok f /\
    let c := length (r_med (d_res r)) in
    length (d_losses r) = k - mk + 1 /\
    nth (k - mk) (d_losses r) lzero = r_loss f /\
    (forall x, In x (d_losses r) -> (vL x <= vL (r_loss (d_res r)))%Q) /\
    mk <= c /\ 2 <= c <= k /\ nth (c - mk) (d_losses r) lzero = r_loss (d_res r) /\
    medoids n c (r_med (d_res r)) /\
    length (r_assi (d_res r)) = n /\ (forall o, o < n -> nth o (r_assi (d_res r)) 0 < c) /\
    (3 <= c -> forall i, i < c -> nth (nth i (r_med (d_res r)) 0) (r_assi (d_res r)) 0 = i) /\
    (0 < vL (r_loss (d_res r)))%Q /\
    r_iter (d_res r) <= (k - 1) * maxiter /\ r_swaps (d_res r) <= n * r_iter (d_res r).
Proof.
  intros hd hs hm hk k mk. destruct (dynmsc_ok (Lt := Lt) hd maxiter hs hm mink hk) as (r & e & hf & hg).
  destruct (df_first hf) as (f & ef & h1). exists r, f.
  split; [auto|]. split; [auto|]. destruct hg; cbv zeta. destruct dg_k. repeat split; auto; try lia; try apply dg_med.
Qed.
Print Assumptions C30_dynmsc_best.
Definition C30_case := C30_dynmsc_best (Lt := Q) m6 6 d6 [0; 1; 3] 1 10 m6_diss s63 k63 le23.

(** C30, what is listed: the loss for c medoids is the value which c medoids attain, for every
    c >= 2 when there are at most four initial medoids; the entry for one medoid is 0. *)
Theorem C30_dynmsc_losses {Nt Lt : Type} `{HLL : LossLaws Nt Lt} `{HAL : !AddLaws Nt} `{HDL : !DivLaws Nt Lt}
    (M : Mat Nt) n D med mink maxiter :
  diss_matrix M n D -> sizes n (length med) -> medoids n (length med) med -> 2 <= length med <= 4 ->
  let k := length med in let mk := Nat.min (Nat.max mink 1) k in
  exists r : dyn_result Lt, dynmsc M med mink maxiter = Ok r /\
    (forall c, mk <= c -> 2 <= c <= k -> exists meds, medoids n c meds /\
       (vL (nth (c - mk) (d_losses r) lzero) == med_sil (vals D) n meds)%Q) /\
    (mk = 1 -> nth 0 (d_losses r) lzero = lzero).
Proof.
  intros hd hs hm hk k mk. destruct (dynmsc_ok (Lt := Lt) hd maxiter hs hm mink (proj1 hk)) as (r & e & hf & hg).
  fold k in hf. fold mk in hf. assert (hmk : 1 <= mk <= k) by (unfold mk, k; lia).
  exists r. split; [auto|]. split.
  - intros c h1 h2. destruct (Nat.eq_dec c 2) as [->|hc].
    + destruct (df_two hf h1) as (med2 & r2 & t1 & t2 & t3).
      destruct (two_medoids hd hs hm (proj1 hk) hmk t1) as (u1 & u2 & u3).
      destruct (k2_good hd maxiter u1 u2 u3 t2) as (w1 & _).
      exists (r_med r2). pose proof (ms_medoids w1) as wm. rewrite u1 in wm. split; [auto|].
      rewrite t3. apply (ms_value w1).
    + destruct (df_three hf h1) as (s & s1 & s2); [fold k; lia|].
      assert (h3 : 3 <= length med) by (fold k; lia).
      destruct (rounds_shape hd hs hm h3 s1) as (m1 & _). exists (m_med s). split; [auto|].
      rewrite s2. assert (hc3 : 3 <= c) by lia. assert (hc4 : c = length med \/ length med <= 4) by lia.
      destruct (rounds_good hd hs hm h3 hc3 s1 hc4) as [g1 g2 g3 g4 g5]. auto.
  - intros hm1. apply (df_one hf). lia.
Qed.
Print Assumptions C30_dynmsc_losses.
Lemma le234 : 2 <= 3 <= 4. Proof. lia. Qed.
Definition C30_losses_case := C30_dynmsc_losses (Lt := Q) m6 6 d6 [0; 1; 3] 1 10 m6_diss s63 k63 le234.

(** C30: with a minimum which is not below the number of initial medoids, dynmsc is fastermsc. *)
Theorem C30_dynmsc_is_fastermsc {Nt Lt : Type} `{HLL : LossLaws Nt Lt} `{HAL : !AddLaws Nt} `{HDL : !DivLaws Nt Lt}
    (M : Mat Nt) n D med mink maxiter :
  diss_matrix M n D -> sizes n (length med) -> medoids n (length med) med -> length med <= Nat.max mink 1 ->
  exists p : pam_result Lt, fastermsc M med maxiter = Ok p /\ dynmsc M med mink maxiter = Ok (mkDR p [r_loss p]).
Proof.
  intros hd hs hm hmk. destruct (Nat.eq_dec (length med) 1) as [h1|h1].
  - destruct med as [|x [|]]; cbn [length] in h1; try lia.
    assert (hx : x < n) by (apply hm; simpl; auto).
    destruct (single_returns (Lt := Lt) (proj1 hd) hx) as (p & e & _). exists p.
    destruct (msc_single (Lt := Lt) (proj1 hd) maxiter hs hx) as (-> & _).
    split; [auto|]. unfold dynmsc. cbn [length Nat.eqb]. rewrite e. auto.
  - assert (hk : 2 <= length med) by (destruct hs; lia).
    destruct (dynmsc_ok (Lt := Lt) hd maxiter hs hm mink hk) as (r & e & hf & hg).
    replace (Nat.min (Nat.max mink 1) (length med)) with (length med) in * by lia.
    destruct (df_top hf eq_refl) as (p & e1 & e2 & e3 & e4 & e5). exists p. split; [auto|]. rewrite e. f_equal.
    pose proof (df_first hf) as (p' & e1' & e6). rewrite e1 in e1'. injection e1' as <-.
    assert (hp : lltb lzero (r_loss p) = true).
    { apply lltb_spec. rewrite vL_zero. pose proof (dg_nth hg) as hn. pose proof (dg_pos hg) as hpos.
      destruct (dg_k hg) as [k1 k2]. replace (length (r_med (d_res r)) - length med) with 0 in hn by lia.
      rewrite e2 in hn. cbn [nth] in hn. rewrite hn. auto. }
    destruct r as [q l]. cbn [d_res d_losses] in *. rewrite (e5 hp), e2. auto.
Qed.
Print Assumptions C30_dynmsc_is_fastermsc.
Definition C30_top_case := C30_dynmsc_is_fastermsc (Lt := Q) m6 6 d6 [0; 1; 3] 3 10 m6_diss s63 k63 (le_n 3).

(** C31.  The returned loss is the medoid silhouette of the returned medoids, every object is
    assigned to a nearest of them, and (with enough iterations) no swap improves them: whenever
    there are at most four initial medoids, or none was removed, or all but two were. *)
Theorem C31_dynmsc_value {Nt Lt : Type} `{HLL : LossLaws Nt Lt} `{HAL : !AddLaws Nt} `{HDL : !DivLaws Nt Lt}
    (M : Mat Nt) n D med mink maxiter (r : dyn_result Lt) :
  diss_matrix M n D -> sizes n (length med) -> medoids n (length med) med -> 2 <= length med ->
  dynmsc M med mink maxiter = Ok r ->
  let p := d_res r in let c := length (r_med p) in
  length med <= 4 \/ c = length med \/ c = 2 ->
  (vL (r_loss p) == med_sil (vals D) n (r_med p))%Q /\
  (forall o, o < n -> nearest (vals D) o (r_med p) (nth o (r_assi p) 0)) /\
  (n ^ c < maxiter -> sil_optimal (vals D) n (r_med p)).
Proof.
  intros hd hs hm hk er p c hc. destruct (dynmsc_ok (Lt := Lt) hd maxiter hs hm mink hk) as (r' & e & hf & hg).
  rewrite er in e. injection e as <-. apply (dg_value hg). fold p. fold c. tauto.
Qed.
Print Assumptions C31_dynmsc_value.
Definition run_c31 : dyn_result Q := Eval vm_compute in
  match dynmsc (Lt := Q) m6 [0; 1; 3] 1 10 with Ok r => r | Panic _ => mkDR (mkPR 0%Q [] 0 0 []) [] end.
Lemma run_c31_ok : dynmsc (Lt := Q) m6 [0; 1; 3] 1 10 = Ok run_c31.
Proof. vm_compute. reflexivity. Qed.
Definition C31_case := C31_dynmsc_value m6 6 d6 [0; 1; 3] 1 10 run_c31 m6_diss s63 k63 le23 run_c31_ok (or_introl (le_S _ _ (le_n 3))).

(** C31, refuted for five initial medoids: dynmsc reports 67/72 for medoids whose medoid silhouette
    is 19/24 (the third-nearest entries are wrong after a removal). *)
Definition rows_dyn : list (list Z) :=
  [[0;6;6;1;2;4];[6;0;1;1;1;1];[6;1;0;1;6;1];[1;1;1;0;5;4];[2;1;6;5;0;6];[4;1;1;4;6;0]]%Z.
Theorem C31_dynmsc_value_refuted : exists (M : Mat Z) D (r : dyn_result Q),
  diss_matrix M 6 D /\ symmetric 6 (vals D) /\ medoids 6 5 [5; 3; 2; 4; 1] /\
  dynmsc M [5; 3; 2; 4; 1] 1 100 = Ok r /\
  (r_loss (d_res r) == 67 # 72)%Q /\ (med_sil (vals D) 6 (r_med (d_res r)) == 19 # 24)%Q.
Proof.
  exists (mat_of_rows rows_dyn), (entries rows_dyn). eexists.
  split; [apply rows_diss; [lia|reflexivity]|]. split; [apply rows_sym; reflexivity|].
  split; [apply meds_ok; reflexivity|]. split; [vm_compute; reflexivity|].
  split; vm_compute; reflexivity.
Qed.
Print Assumptions C31_dynmsc_value_refuted.

(** C31, the placeholder: without a zero diagonal the silhouettes may all be 0; dynmsc then returns
    the assignment [[0; n]] for four objects. *)
Definition rows_ones : list (list Z) := [[1;1;1;1];[1;1;1;1];[1;1;1;1];[1;1;1;1]]%Z.
Theorem C31_dynmsc_placeholder_refuted : exists (M : Mat Z) D (r : dyn_result Q),
  is_matrix M 4 D /\ symmetric 4 (vals D) /\ medoids 4 3 [0; 1; 2] /\
  dynmsc M [0; 1; 2] 1 0 = Ok r /\ r_assi (d_res r) = [0; 4] /\ length (r_assi (d_res r)) <> 4.
Proof.
  exists (mat_of_rows rows_ones), (entries rows_ones). eexists.
  split; [apply rows_matrix; [lia|reflexivity]|]. split; [apply rows_sym; reflexivity|].
  split; [apply meds_ok; reflexivity|]. split; [vm_compute; reflexivity|].
  split; [reflexivity|]. vm_compute. congruence.
Qed.
Print Assumptions C31_dynmsc_placeholder_refuted.

(** C41.  Which medoid is dropped.  Without swaps in between (maxiter = 0), the loss listed for one
    medoid less is the medoid silhouette of the WORST choice of a medoid to drop ... *)
Theorem C41_dynmsc_drops_for_least_silhouette {Nt Lt : Type} `{HLL : LossLaws Nt Lt} `{HAL : !AddLaws Nt} `{HDL : !DivLaws Nt Lt}
    (M : Mat Nt) n D med mink :
  diss_matrix M n D -> sizes n (length med) -> medoids n (length med) med -> 3 <= length med ->
  Nat.max mink 1 < length med ->
  exists (r : dyn_result Lt) med', dynmsc M med mink 0 = Ok r /\ drop_one med med' /\
    (vL (nth (length med - 1 - Nat.max mink 1) (d_losses r) lzero) == med_sil (vals D) n med')%Q /\
    forall med'', drop_one med med'' -> (med_sil (vals D) n med' <= med_sil (vals D) n med'')%Q.
Proof. intros hd hs hm h3 hlt. exact (first_removal hd hs hm mink h3 eq_refl hlt). Qed.
Print Assumptions C41_dynmsc_drops_for_least_silhouette.
Definition C41_case := C41_dynmsc_drops_for_least_silhouette (Lt := Q) m6 6 d6 [0; 1; 3] 2 m6_diss s63 k63 le33 le33.

(** ... so the claim that it drops the medoid whose removal costs least is false. *)
Definition rows_drop : list (list Z) :=
  [[0;1;9;9;9];[1;0;9;9;9];[9;9;0;9;9];[9;9;9;0;9];[9;9;9;9;0]]%Z.
Theorem C41_dynmsc_drops_for_best_refuted : exists (M : Mat Z) D (r : dyn_result Q) med'',
  diss_matrix M 5 D /\ symmetric 5 (vals D) /\ medoids 5 3 [0; 1; 2] /\
  dynmsc M [0; 1; 2] 2 0 = Ok r /\ drop_one [0; 1; 2] med'' /\
  (nth 0 (d_losses r) 0 < med_sil (vals D) 5 med'')%Q.
Proof.
  exists (mat_of_rows rows_drop), (entries rows_drop). eexists. exists [1; 2].
  split; [apply rows_diss; [lia|reflexivity]|]. split; [apply rows_sym; reflexivity|].
  split; [apply meds_ok; reflexivity|]. split; [vm_compute; reflexivity|].
  split; [exists 0; apply Permutation.Permutation_refl|]. vm_compute. reflexivity.
Qed.
Print Assumptions C41_dynmsc_drops_for_best_refuted.
