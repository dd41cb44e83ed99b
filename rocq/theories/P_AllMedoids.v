(** P_AllMedoids.v -- property C90: as many medoids as objects.  Every object is its own cluster, there is nothing to swap, the loss
    is zero and the medoid silhouette is one; so DynMSC started with all objects as medoids returns all objects.
    Every theorem is followed by a concrete input which meets its hypotheses. *)
From Coq Require Import ZArith QArith Lqa Lia.
From Coq.Floats Require Import SpecFloat.
From Verif Require Import Base Num M_Mat M_Util M_Fasterpam M_Pam M_Alternating M_ParFasterpam M_Silhouette M_Msc M_Pammedsil M_Dynmsc
  Inst Hoare Spec SpecFacts Laws PamShape PamExact MscExact SilFacts MscShape MscFacts DynShape DynFacts DynExact FloatFacts FloatRound FloatSil AllMedoids
  Ex P_Fasterpam P_Pam P_Msc P_Dynmsc P_Float.
Open Scope nat_scope.

(** the result is [loss], the given medoids, each object assigned to itself, no swap, and one iteration if any is allowed *)
Definition own_medoids {Lt : Type} (n : nat) (med : list nat) (maxiter : nat) (loss : Lt) (r : res (pam_result Lt)) : Prop :=
  exists p, r = Ok p /\ r_loss p = loss /\ r_med p = med /\ r_swaps p = 0 /\ r_iter p = Nat.min 1 maxiter /\
    length (r_assi p) = n /\ forall o, o < n -> nth_error med (nth o (r_assi p) 0) = Some o.

(** C90, PAM family.  Exact comparisons; of the arithmetic of the losses only that zero plus zero is zero, that the zero
    dissimilarity converts to it, and that it is not below itself: integers, rationals, binary64. *)
Theorem C90_pam_family {Nt Lt : Type} `{HO : OrdLaws Nt} `{HL : NumL Lt} `{HF : FromN Nt Lt}
    (M : Mat Nt) n D med maxiter order orc :
  lfrom (nzero : Nt) = (lzero : Lt) -> ladd (lzero : Lt) lzero = lzero -> lltb (lzero : Lt) lzero = false ->
  diss_matrix M n D -> sizes n n -> medoids n n med -> 2 <= n -> (forall j, In j order -> j < n) ->
  own_medoids n med maxiter (lzero : Lt) (fasterpam M med maxiter) /\
  own_medoids n med maxiter (lzero : Lt) (rand_fasterpam M order med maxiter) /\
  own_medoids n med maxiter (lzero : Lt) (par_fasterpam M orc order med maxiter) /\
  own_medoids n med maxiter (lzero : Lt) (fastpam1 M med maxiter) /\
  own_medoids n med maxiter (lzero : Lt) (pam_swap M med maxiter) /\
  own_medoids n med maxiter (lzero : Lt) (alternating M med maxiter).
Proof.
  intros hf ha hlt hd hs (hl & hnd & hin) hn ho.
  assert (hz : ladd (lfrom (nzero : Nt)) (lfrom (nzero : Nt)) = (lfrom (nzero : Nt) : Lt)) by (rewrite hf; exact ha).
  assert (conv : forall r, stays (Nt := Nt) (Lt := Lt) n med maxiter r -> own_medoids n med maxiter (lzero : Lt) r).
  { intros r (assi & -> & h1 & h2). eexists. split; [reflexivity|]. cbn [r_loss r_med r_swaps r_iter r_assi]. auto 10. }
  split; [|split; [|split; [|split; [|split]]]]; apply conv.
  - unfold fasterpam. rewrite (len_n (proj1 hd)). apply (fasterpam_stays hd hs hl hnd hin hn hz). intros j hj. apply in_seq in hj. lia.
  - apply (fasterpam_stays hd hs hl hnd hin hn hz). exact ho.
  - apply (par_stays hd hs hl hnd hin hn hz). exact ho.
  - apply (fastpam1_stays hd hs hl hnd hin hn hz hlt).
  - apply (pam_swap_stays hd hs hl hnd hin hn hz hlt).
  - apply (alternating_stays hd hs hl hnd hin hn hz).
Qed.
Print Assumptions C90_pam_family.

(** an input with duplicate objects: also they keep to themselves *)
Lemma s66 : sizes 6 6. Proof. apply sizes_ok. reflexivity. Qed.
Lemma k66 : medoids 6 6 [3; 0; 5; 1; 2; 4]. Proof. apply meds_ok. reflexivity. Qed.
Lemma in_302 : forall j, In j [3; 0; 2] -> j < 6. Proof. intros j [<-|[<-|[<-|[]]]]; lia. Qed.
Lemma le26 : 2 <= 6. Proof. lia. Qed.
Definition C90_pam_case := C90_pam_family (Lt := Z) m6 6 d6 [3; 0; 5; 1; 2; 4] 10 [3; 0; 2] (orc2 [1; 0]) eq_refl eq_refl eq_refl
  m6_diss s66 k66 le26 in_302.
Example C90_pam_value : fasterpam (Lt := Z) m6 [3; 0; 5; 1; 2; 4] 10 = Ok (mkPR 0%Z [1; 3; 4; 0; 5; 2] 1 0 [3; 0; 5; 1; 2; 4]).
Proof. vm_compute. reflexivity. Qed.
Lemma s55 : sizes 5 5. Proof. apply sizes_ok. reflexivity. Qed.
Lemma k55 : medoids 5 5 [3; 0; 1; 2; 4]. Proof. apply meds_ok. reflexivity. Qed.
Lemma le25 : 2 <= 5. Proof. lia. Qed.
Lemma in_302_5 : forall j, In j [3; 0; 2] -> j < 5. Proof. intros j [<-|[<-|[<-|[]]]]; lia. Qed.
Definition C90_pam_f64_case := C90_pam_family (Lt := f64) _ 5 _ [3; 0; 1; 2; 4] 10 [3; 0; 2] (orc2 [1; 0]) eq_refl eq_refl eq_refl
  f1_diss s55 k55 le25 in_302_5.

(** C90, medoid silhouette *)
Theorem C90_msc_family {Nt Lt : Type} `{HO : OrdLaws Nt} `{HL : NumL Lt} `{HF : FromN Nt Lt}
    (M : Mat Nt) n D med maxiter :
  ladd (lzero : Lt) lzero = lzero -> lltb (lzero : Lt) lzero = false ->
  diss_matrix M n D -> sizes n n -> medoids n n med -> 3 <= n ->
  let one := lsub lone (ldiv lzero (lfrom_u32 (N.of_nat n))) : Lt in
  own_medoids n med maxiter one (fastermsc M med maxiter) /\
  own_medoids n med maxiter one (fastmsc M med maxiter) /\
  own_medoids n med maxiter one (pammedsil_swap M med maxiter).
Proof.
  intros ha hlt hd hs (hl & hnd & hin) hn one. assert (hn2 : 2 <= n) by lia.
  assert (conv : forall r, stays3 (Lt := Lt) M n med maxiter r -> own_medoids n med maxiter one r).
  { intros r (assi & -> & h1 & h2). eexists. split; [reflexivity|]. cbn [r_loss r_med r_swaps r_iter r_assi].
    split; [unfold to_silhouette; rewrite (len_n (proj1 hd)), as_u32_small by apply hs; reflexivity|auto 10]. }
  split; [|split]; apply conv.
  - apply (fastermsc_stays hd hs hl hnd hin hn2 ha maxiter hn).
  - apply (fastmsc_stays hd hs hl hnd hin hn2 hlt ha maxiter hn).
  - apply (pammedsil_swap_stays hd hs hl hnd hin hn2 hlt ha maxiter).
Qed.
Print Assumptions C90_msc_family.
Lemma le36 : 3 <= 6. Proof. lia. Qed.
Lemma le35 : 3 <= 5. Proof. lia. Qed.
Definition C90_msc_case := C90_msc_family (Lt := Q) m6 6 d6 [3; 0; 5; 1; 2; 4] 10 eq_refl eq_refl m6_diss s66 k66 le36.
Definition C90_msc_f64_case := C90_msc_family (Lt := f64) _ 5 _ [3; 0; 1; 2; 4] 10 eq_refl eq_refl f1_diss s55 k55 le35.

(** the value they return is one, exactly so in binary64 *)
Theorem C90_one {Nt Lt : Type} `{HLL : LossLaws Nt Lt} `{HDL : !DivLaws Nt Lt} n : 1 <= n ->
  (vL (lsub lone (ldiv lzero (lfrom_u32 (N.of_nat n)))) == 1)%Q.
Proof.
  intros hn. rewrite vL_sub, vL_one, vL_div, vL_zero; [unfold Qdiv; lra|].
  rewrite vL_u32, nat_N_Z. intros c. apply (proj1 (inject_Z_injective _ 0)) in c. lia.
Qed.
Print Assumptions C90_one.
Definition C90_one_case := C90_one (Nt := Z) (Lt := Q) 6 (le_n_S 0 5 (Nat.le_0_l 5)).
Theorem C90_one_f64 n : 1 <= n -> (N.of_nat n <= 4294967295)%N -> (lsub lone (ldiv lzero (lfrom_u32 (N.of_nat n))) : f64) = lone.
Proof.
  intros hn hu. cbn [lfrom_u32 ldiv lzero NumL_f64]. rewrite nat_N_Z. destruct (@of_nat_val n (fits_u32 n hu)) as [f1 f2].
  destruct (f64_of_Z (Z.of_nat n)) as [b|b| |b m e] eqn:en.
  - exfalso. change (f64_val (S754_zero b)) with 0%Q in f2. symmetry in f2. apply (proj1 (inject_Z_injective _ 0)) in f2. lia.
  - destruct f1.
  - destruct f1.
  - destruct b; [|reflexivity]. exfalso.
    assert (h : (0 < f64_val (S754_finite true m e))%Q).
    { rewrite f2. change 0%Q with (inject_Z 0). unfold cnt. rewrite <- Zlt_Qlt. lia. }
    cbn [f64_val] in h. rewrite neg_val in h. pose proof (f64_pos m e). lra.
Qed.
Print Assumptions C90_one_f64.
Lemma le15 : 1 <= 5. Proof. lia. Qed.
Lemma u32_5 : (N.of_nat 5 <= 4294967295)%N. Proof. discriminate. Qed.
Definition C90_one_f64_case := C90_one_f64 5 le15 u32_5.

(** C90, DynMSC.  With exact arithmetic and no two objects at distance zero, DynMSC started with all objects returns all of them,
    whatever the smallest number of medoids; the best silhouette is one and every other recorded one is smaller. *)
Theorem C90_dynmsc {Nt Lt : Type} `{HLL : LossLaws Nt Lt} `{HAL : !AddLaws Nt} `{HDL : !DivLaws Nt Lt}
    (M : Mat Nt) n D med mink maxiter :
  ladd (lzero : Lt) lzero = lzero ->
  diss_matrix M n D -> (forall x y, x < n -> y < n -> x <> y -> (0 < vals D x y)%Q) ->
  sizes n n -> medoids n n med -> 3 <= n ->
  exists r : dyn_result Lt, dynmsc M med mink maxiter = Ok r /\
    (vL (r_loss (d_res r)) == 1)%Q /\ r_med (d_res r) = med /\ length (r_assi (d_res r)) = n /\
    (forall o, o < n -> nth_error med (nth o (r_assi (d_res r)) 0) = Some o) /\
    (let mk := Nat.min (Nat.max mink 1) n in forall c, mk <= c < n -> (vL (nth (c - mk) (d_losses r) lzero) < 1)%Q).
Proof.
  intros hz hd hpos hs hm hn. pose proof hm as (hl & hnd & hin). assert (hn2 : 2 <= n) by lia.
  assert (hs' : sizes n (length med)) by (rewrite hl; exact hs).
  assert (hm' : medoids n (length med) med) by (rewrite hl; exact hm).
  assert (hk : 2 <= length med) by lia.
  destruct (dynmsc_ok (Lt := Lt) hd maxiter hs' hm' mink hk) as (r & e & hf & hg). rewrite hl in hf, hg.
  set (mk := Nat.min (Nat.max mink 1) n) in *. assert (hmk : 1 <= mk <= n) by (unfold mk; lia). clearbody mk.
  assert (hmk' : 1 <= mk <= length med) by lia.
  assert (hnz : (0 < inject_Z (Z.of_nat n))%Q) by (change 0%Q with (inject_Z 0); rewrite <- Zlt_Qlt; lia).
  assert (hsil : forall x : Lt, (vL (to_silhouette M x) == 1 - vL x / inject_Z (Z.of_nat n))%Q).
  { intros x. unfold to_silhouette. rewrite (len_n (proj1 hd)), as_u32_small by apply hs.
    rewrite vL_sub, vL_one, vL_div, vL_u32, nat_N_Z; [reflexivity|]. rewrite vL_u32, nat_N_Z. intros c. lra. }
  assert (hfull : forall s, DynFacts.rounds M n med maxiter n s -> m_med s = med /\ (vL (to_silhouette M (m_loss s) : Lt) == 1)%Q /\
            length (assignment3_of (m_data s)) = n /\ forall o, o < n -> nth_error med (nth o (assignment3_of (m_data s)) 0) = Some o).
  { intros s hr. destruct (first_round hd hs hl hnd hin hn2 hz hr eq_refl hn) as (q1 & q2 & q3).
    split; [exact q1|]. split; [|exact q3]. rewrite hsil, q2, vL_zero. unfold Qdiv. lra. }
  assert (hless : forall c s, 3 <= c < n -> DynFacts.rounds M n med maxiter c s -> (vL (to_silhouette M (m_loss s) : Lt) < 1)%Q).
  { intros c s hc hr. pose proof (rounds_stage (proj1 hd) hs' hin ltac:(lia) hr) as hst. destruct (sg_inv hst) as [i1 i2 i3 i4].
    pose proof (sg_sum hst (proj2 (emb_vals hd)) (proj2 (nis_zero_spec nzero okN_zero) vN_zero)) as hsum.
    pose proof (ratios_below hd hpos i3 hsum ltac:(lia) i2) as hp. rewrite hsil.
    assert (0 < vL (m_loss s) / inject_Z (Z.of_nat n))%Q by (apply Qlt_shift_div_l; [exact hnz|lra]). lra. }
  assert (htwo : forall med2 r2, two (Lt := Lt) M n med maxiter med2 -> fastermsc_k2 M med2 maxiter = Ok r2 -> (vL (r_loss r2) < 1)%Q).
  { intros med2 r2 h2 e2. destruct (two_medoids hd hs' hm' hk hmk' h2) as (t1 & t2 & t3). destruct (k2_good hd maxiter t1 t2 t3 e2) as [q1 _].
    rewrite (ms_value q1). destruct (ms_medoids q1) as (m1 & _ & m3). apply (med_sil_below hd hpos); [lia|exact m3]. }
  exists r. split; [exact e|].
  assert (hge : (1 <= vL (r_loss (d_res r)))%Q).
  { destruct (df_three hf (c := n)) as (s & s1 & s2); [lia|lia|].
    destruct (hfull s s1) as (_ & q & _). rewrite <- q, <- s2. apply (dg_max hg). apply nth_In. rewrite (dg_len hg). lia. }
  assert (hbest : (vL (r_loss (d_res r)) == 1)%Q /\ r_med (d_res r) = med /\ length (r_assi (d_res r)) = n /\
            forall o, o < n -> nth_error med (nth o (r_assi (d_res r)) 0) = Some o).
  { destruct (df_best hf) as [(b1 & _)|[(c & s & c1 & c2 & c3 & c4 & c5 & c6 & c7)|(med2 & r2 & c1 & c2 & c3 & c4 & c5 & c6 & c7)]].
    - exfalso. rewrite b1, vL_zero in hge. lra.
    - destruct (Nat.eq_dec c n) as [->|hc].
      + destruct (hfull s c3) as (q1 & q2 & q3 & q4). rewrite c5, c6, c7. auto.
      + exfalso. rewrite c5 in hge. pose proof (hless c s ltac:(lia) c3). lra.
    - exfalso. rewrite c5 in hge. pose proof (htwo med2 r2 c2 c3). lra. }
  destruct hbest as (q1 & q2 & q3 & q4). split; [exact q1|]. split; [exact q2|]. split; [exact q3|]. split; [exact q4|].
  intros mk' c hc. subst mk'. destruct (le_lt_dec 3 c) as [h3|h3].
  - destruct (df_three hf (c := c)) as (s & s1 & s2); [lia|lia|]. rewrite s2. apply (hless c s); [lia|exact s1].
  - destruct (Nat.eq_dec c 2) as [->|h2].
    + destruct (df_two hf) as (med2 & r2 & t1 & t2 & t3); [lia|]. rewrite t3. apply (htwo med2 r2 t1 t2).
    + assert (mk = 1 /\ c = 1) as [-> ->] by lia. rewrite Nat.sub_diag, (df_one hf) by lia. rewrite vL_zero. lra.
Qed.
Print Assumptions C90_dynmsc.

(** objects at pairwise positive distances *)
Definition rows4 : list (list Z) := [[0;2;7;9];[2;0;6;8];[7;6;0;1];[9;8;1;0]]%Z.
Definition m4 : Mat Z := mat_of_rows rows4.
Definition d4 : nat -> nat -> Z := entries rows4.
Lemma m4_diss : diss_matrix m4 4 d4. Proof. apply rows_diss; [lia|reflexivity]. Qed.
Lemma m4_pos : forall x y, x < 4 -> y < 4 -> x <> y -> (0 < vals d4 x y)%Q.
Proof. intros [|[|[|[|x]]]] [|[|[|[|y]]]] hx hy hne; try lia; reflexivity. Qed.
Lemma s44 : sizes 4 4. Proof. apply sizes_ok. reflexivity. Qed.
Lemma k44 : medoids 4 4 [3; 0; 1; 2]. Proof. apply meds_ok. reflexivity. Qed.
Lemma le34 : 3 <= 4. Proof. lia. Qed.
Definition C90_dynmsc_case := C90_dynmsc (Lt := Q) m4 4 d4 [3; 0; 1; 2] 1 10 eq_refl m4_diss m4_pos s44 k44 le34.

(** C90, BUILD.  With exact arithmetic and no two objects at distance zero, BUILD finds as many medoids as asked for; all objects
    with loss zero if asked for all. *)
Theorem C90_pam_build {Nt Lt : Type} `{HLL : LossLaws Nt Lt} (M : Mat Nt) n D k :
  diss_matrix M n D -> (forall x y, x < n -> y < n -> x <> y -> (0 < vals D x y)%Q) -> sizes n k ->
  exists (loss : Lt) assi meds, pam_build M k = Ok (loss, assi, meds) /\ medoids n k meds /\
    (k < n -> (0 < vL loss)%Q) /\
    (k = n -> (vL loss == 0)%Q /\ forall o, o < n -> nth_error meds (nth o assi 0) = Some o).
Proof.
  intros hd hpos hs. destruct (C16_pam_build (Lt := Lt) M n D k hd hs) as (l & a & ms & e & h1 & h2 & h3 & _ & _ & h6 & h7 & h8 & h9).
  assert (hk : k <= n) by apply hs. pose proof (proj2 (proj1 (emb_vals hd))) as he.
  assert (hnn : forall o, o < n -> (0 <= vals D o (nth (nth o a 0%nat) ms 0%nat))%Q).
  { intros o ho. apply (proj2 he); [exact ho|]. apply h3, nth_In. apply (h8 o ho). }
  assert (hout : length ms < n -> (0 < vL l)%Q).
  { intros hlt. destruct (outside ms hlt) as (o & ho & hno). rewrite h6. unfold assigned_cost.
    assert (hp : (0 < vals D o (nth (nth o a 0%nat) ms 0%nat))%Q).
    { assert (hi : In (nth (nth o a 0) ms 0) ms) by (apply nth_In; apply (h8 o ho)).
      apply hpos; [exact ho|apply h3; exact hi|intros c; apply hno; rewrite c; exact hi]. }
    assert (hge : (vals D o (nth (nth o a 0%nat) ms 0%nat) <= sumQ (fun o => vals D o (nth (nth o a 0%nat) ms 0%nat)) (seq 0 n))%Q).
    { apply (Greedy.sumQ_ge_one (fun o => vals D o (nth (nth o a 0%nat) ms 0%nat))); [apply in_seq; lia|].
      intros y hy. apply in_seq in hy. apply hnn. lia. }
    lra. }
  assert (hlen : length ms = k).
  { destruct (le_lt_dec k (length ms)) as [hle|hlt]; [lia|]. exfalso. pose proof (h9 hlt). pose proof (hout ltac:(lia)). lra. }
  exists l, a, ms. split; [exact e|]. split; [split; [exact hlen|split; assumption]|]. split; [intros hlt; apply hout; lia|].
  intros ->.
  assert (hown : forall o, o < n -> nth_error ms (nth o a 0) = Some o).
  { intros o ho. destruct (h8 o ho) as [q1 q2]. rewrite (nth_error_nth' ms 0 q1). f_equal.
    destruct (Nat.eq_dec (nth (nth o a 0) ms 0) o) as [|hne]; [assumption|exfalso].
    assert (hi : In o ms).
    { apply (NoDup_length_incl h2 (l' := seq 0 n)); [rewrite seq_length; lia| |apply in_seq; lia].
      intros x hx. apply in_seq. pose proof (h3 x hx). lia. }
    apply (In_nth _ _ 0) in hi as (c & hc & ec). pose proof (q2 c hc) as q3. rewrite ec in q3.
    pose proof (proj1 he o ho). pose proof (hpos o _ ho (h3 _ (nth_In ms 0 q1)) (fun z => hne (eq_sym z))). lra. }
  split; [|exact hown]. rewrite h6. unfold assigned_cost. rewrite <- (sumQ_zero (seq 0 n)). apply sumQ_ext.
  intros o ho. apply in_seq in ho. pose proof (hown o ltac:(lia)) as q. rewrite (nth_error_nth ms _ 0 q). apply (proj1 he). lia.
Qed.
Print Assumptions C90_pam_build.
Definition C90_pam_build_case := C90_pam_build (Lt := Z) m4 4 d4 4 m4_diss m4_pos s44.

(** PAMMEDSIL asked for all objects may return fewer: its BUILD does not consider the object 0 after the first step. *)
Theorem C90_pammedsil_refuted : exists (M : Mat Z) D (r : pam_result Q),
  diss_matrix M 4 D /\ (forall x y, x < 4 -> y < 4 -> x <> y -> (0 < vals D x y)%Q) /\ sizes 4 4 /\
  pammedsil M 4 100 = Ok r /\ length (r_med r) = 3 /\ (r_loss r < 1)%Q.
Proof.
  exists m4, d4. eexists. split; [exact m4_diss|]. split; [exact m4_pos|]. split; [exact s44|].
  split; [vm_compute; reflexivity|]. split; [reflexivity|]. vm_compute. reflexivity.
Qed.
Print Assumptions C90_pammedsil_refuted.
