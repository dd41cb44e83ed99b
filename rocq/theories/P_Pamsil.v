(** P_Pamsil.v -- PAMSIL: C33 to C36 and its part of C11.  Every theorem is followed by a concrete
    input which meets its hypotheses. *)
From Coq Require Import ZArith QArith Lqa Lia.
From Verif Require Import Base Num M_Mat M_Util M_Fasterpam M_Pam M_Alternating M_Silhouette M_Pamsil Inst Hoare
  Spec SpecFacts Laws PamShape PamExact LocalSearch ChooseFacts FpFacts PamFacts BuildFacts AltFacts PamMain SilFacts
  PamsilFacts Ex P_Pam.
Open Scope nat_scope.

Lemma swap_in (n : nat) med b j : (forall m, In m med -> m < n) -> j < n -> b < length med ->
  (forall m, In m (swap med b j) -> m < n) /\ length (swap med b j) = length med.
Proof.
  intros hin hj hb. rewrite swap_set_nth by auto. split; [|apply length_set_nth].
  intros m hm. apply set_nth_In in hm as [->|hm]; auto.
Qed.

Lemma swap_distinct n med b j : medoids n (length med) med -> j < n -> b < length med -> ~ In j med ->
  medoids n (length (swap med b j)) (swap med b j).
Proof.
  intros (h1 & h2 & h3) hj hb hno. destruct (swap_in n med b j h3 hj hb) as [q1 q2].
  split; [auto|]. split; [|auto]. rewrite swap_set_nth by auto. apply NoDup_set_nth; auto.
Qed.

Section Swap.
  Context {Nt Lt : Type} `{HN : NumN Nt} `{HL : NumL Lt} `{HF : FromN Nt Lt}.

  Lemma pamsil_swap_wk (M : Mat Nt) n D med maxiter : is_matrix M n D -> sizes n (length med) -> 2 <= length med ->
    (forall m, In m med -> m < n) ->
    exists sil0, sv M med = Ok sil0 /\ exists assi0, assi_ok n (length med) assi0 /\
      silhouette (Lt := Lt) M assi0 false = Ok (sil0, []) /\
      pamsil_swap M med maxiter = pamsil_optimize M med assi0 maxiter /\
      wk (pamsil_swap (Lt := Lt) M med maxiter) (pfin M n (length med) maxiter med sil0).
  Proof.
    intros hm hs hk hin. destruct (sv_ok (Lt := Lt) hm hs eq_refl hin) as (loss & assi & s & e1 & e2 & e3 & e4).
    exists s. split; [auto|]. exists assi. split; [auto|]. split; [auto|].
    assert (e : pamsil_swap (Lt := Lt) M med maxiter = pamsil_optimize M med assi maxiter).
    { unfold pamsil_swap. rewrite e1. reflexivity. }
    split; [auto|]. rewrite e. eapply optimize_wk; eauto. apply (val_sv M (k := length med) eq_refl hin e3).
  Qed.

  Lemma sv_sil (M : Mat Nt) n D med (loss : Lt) assi s : is_matrix M n D -> length assi = n ->
    assign_nearest M med = Ok (loss, assi) -> (sv M med = Ok s <-> silhouette M assi false = Ok (s, [])).
  Proof.
    intros hm hl e. unfold sv. rewrite e. cbn [bind].
    pose proof (silhouette_oks (Lt := Lt) hm assi false ltac:(lia)) as h.
    apply oks_inv in h as ([x vec] & -> & h). cbn [snd] in h. destruct vec; [|discriminate]. cbn [bind].
    split; intros q; injection q as <-; auto.
  Qed.

  Definition single_medoid_at (M : Mat Nt) n x : res (pam_result Lt) :=
    '(med', swapped, loss) <- choose_medoid_within_partition M (repeat 0 n) [x] 0 ;;
    Ok (mkPR loss (repeat 0 n) 1 (if swapped then 1 else 0) med').

  Lemma single_medoid_at_eq (M : Mat Nt) n D x : is_matrix M n D -> single_medoid (Lt := Lt) M [x] = single_medoid_at M n x.
  Proof. intros hm. unfold single_medoid, single_medoid_at. rewrite (proj1 hm). reflexivity. Qed.

  Lemma pamsil_single (M : Mat Nt) n D x maxiter : is_matrix M n D -> sizes n 1 -> x < n ->
    pamsil_swap (Lt := Lt) M [x] maxiter = single_medoid M [x].
  Proof.
    intros hm hs hx. unfold pamsil_swap.
    assert (hin : inr n [x]) by (intros m [<-|[]]; auto).
    pose proof (assign_nearest_ok (Lt := Lt) hm (med := [x]) hs hin) as h.
    apply oks_inv in h as ([loss assi] & -> & h1 & h2 & _). cbn [snd] in *. cbn [bind].
    assert (e : assi = repeat 0 n).
    { apply nth_ext with (d := 0) (d' := 0); [rewrite repeat_length; auto|]. intros o ho. rewrite nth_repeat.
      destruct (h2 o ltac:(lia)) as (h & _). simpl in h. lia. }
    rewrite e. symmetry. apply single_medoid_at_eq with D; auto.
  Qed.
End Swap.

(** C33.  Whenever pamsil_swap returns, in whatever number type: the value is what silhouette
    gives for the returned assignment, and this is assign_nearest's for the returned medoids. *)
Theorem C33_pamsil_swap_consistent {Nt Lt : Type} `{HN : NumN Nt} `{HL : NumL Lt} `{HF : FromN Nt Lt}
    (M : Mat Nt) n D med maxiter (r : pam_result Lt) :
  is_matrix M n D -> sizes n (length med) -> 2 <= length med -> (forall m, In m med -> m < n) ->
  pamsil_swap M med maxiter = Ok r ->
  silhouette M (r_assi r) false = Ok (r_loss r, []) /\
  (exists loss : Lt, assign_nearest M (r_med r) = Ok (loss, r_assi r)) /\
  length (r_med r) = length med /\ (forall m, In m (r_med r) -> m < n) /\
  length (r_assi r) = n /\ (forall o, o < n -> nth o (r_assi r) 0 < length med) /\
  r_iter r <= maxiter /\ r_swaps r <= r_iter r <= r_swaps r + 1 /\ (r_swaps r = 0 -> r_med r = med).
Proof.
  intros hm hs hk hin e.
  destruct (pamsil_swap_wk (Lt := Lt) M n D med maxiter hm hs hk hin) as (sil0 & e0 & assi0 & a0 & e1 & e2 & h).
  rewrite e in h. destruct h as (st & assi & loss & hr & q1 & q2 & q3 & q4 & q5 & q6).
  destruct hr as [[l1 l2 l3 l4] p1 p2 p3 p4 p5 p6 p7]. cbn [pl_med pl_sil] in p2.
  assert (hsv : sv M (r_med r) = Ok (r_loss r)).
  { rewrite q1, q2. destruct (Nat.eq_dec (pl_swaps st) 0) as [h0|h0]; [|apply p3; lia].
    destruct (p2 h0) as [-> ->]. auto. }
  destruct q6 as [q6 q7].
  rewrite q3, q4. split; [|split; [eauto|split; [congruence|split; [rewrite q2; auto|]]]].
  - apply (sv_sil M n D (r_med r) loss); auto.
  - split; [auto|]. split; [auto|]. split; [auto|]. split; [|intros h; rewrite q2; apply p2; auto].
    destruct p5 as [(p5 & _)|(p5 & p5')]; lia.
Qed.
Print Assumptions C33_pamsil_swap_consistent.
Definition run_f64 : pam_result f64 := Eval vm_compute in
  match pamsil_swap (Lt := f64) mf [0; 1] 10 with Ok r => r | Panic _ => mkPR fnan [] 0 0 [] end.
Lemma run_f64_ok : pamsil_swap (Lt := f64) mf [0; 1] 10 = Ok run_f64.
Proof. vm_compute. reflexivity. Qed.
Definition C33_case := C33_pamsil_swap_consistent mf 4 df [0; 1] 10 run_f64 mf_matrix s42 (le_n 2) i42 run_f64_ok.

(** C33, exact arithmetic: every object is assigned to a nearest medoid, the value is at least that
    of the initial clustering, and, if the medoids are distinct, it is the silhouette by definition. *)
Theorem C33_pamsil_swap_improves {Nt Lt : Type} `{HLL : LossLaws Nt Lt} `{HDL : !DivLaws Nt Lt}
    (M : Mat Nt) n D med maxiter (r : pam_result Lt) assi0 :
  diss_matrix M n D -> sizes n (length med) -> 2 <= length med -> medoids n (length med) med ->
  pamsil_swap M med maxiter = Ok r -> assigned_first (vals D) n med assi0 ->
  (forall o, o < n -> nearest (vals D) o (r_med r) (nth o (r_assi r) 0)) /\
  (sil_mean (vals D) assi0 <= vL (r_loss r))%Q /\
  (0 < r_swaps r -> (sil_mean (vals D) assi0 < vL (r_loss r))%Q /\ (0 < vL (r_loss r))%Q) /\
  (NoDup (r_med r) -> assigned_first (vals D) n (r_med r) (r_assi r) /\
                      (vL (r_loss r) == sil_mean (vals D) (r_assi r))%Q) /\
  r_swaps r < n ^ length med.
Proof.
  intros hd hs hk hmed e ha. pose proof (proj1 hd) as hm. pose proof (proj2 (proj2 hmed)) as hin.
  destruct (pamsil_swap_wk (Lt := Lt) M n D med maxiter hm hs hk hin) as (sil0 & e0 & assi1 & a0 & e1 & e2 & h).
  rewrite e in h. destruct h as (st & assi & loss & hr & q1 & q2 & q3 & q4 & q5 & q6).
  destruct hr as [[l1 l2 l3 l4] p1 p2 p3 p4 p5 p6 p7]. cbn [pl_med pl_sil] in *.
  pose proof (sv_mean hd hs hk hmed e0 ha) as hs0.
  assert (hf : ordf M n (length med) (vL : Lt -> Q)) by apply ordf_vL.
  assert (hsr : sizes n (length (r_med r))) by (rewrite q2, l1; auto).
  assert (hinr : inr n (r_med r)) by (rewrite q2; auto).
  destruct (emb_vals hd) as [he _].
  split; [|split; [|split; [|split]]].
  - intros o ho. pose proof (assign_nearest_ok (Lt := Lt) hm hsr hinr) as h. rewrite q5 in h.
    destruct h as (_ & h & _). cbn [snd] in h. apply (h o ho). auto.
  - rewrite <- hs0, q1. destruct (Nat.eq_dec (pl_swaps st) 0) as [h0|h0].
    + destruct (p2 h0) as [_ ->]. lra.
    + destruct (p4 _ hf ltac:(lia)) as [h1 _]. lra.
  - intros h. rewrite q1, <- hs0. pose proof (p4 _ hf ltac:(lia)) as h'. rewrite vL_zero in h'. auto.
  - intros hnd. assert (hmr : medoids n (length (r_med r)) (r_med r)) by (split; auto).
    pose proof (assign_first (Lt := Lt) hd hsr hmr) as h. rewrite q5 in h. cbn [oks snd] in h.
    split; [auto|]. assert (hkr : 2 <= length (r_med r)) by (rewrite q2, l1; auto).
    apply (sv_mean hd hsr hkr hmr) with (2 := h). rewrite q2, q1.
    destruct (Nat.eq_dec (pl_swaps st) 0) as [h0|h0]; [|apply p3; lia].
    destruct (p2 h0) as [-> ->]. auto.
  - rewrite q4. specialize (p6 _ hf).
    pose proof (above_bound_lt M (k := length med) vL eq_refl hin e0). lia.
Qed.
Print Assumptions C33_pamsil_swap_improves.
Definition assi63 : list nat := Eval vm_compute in
  match assign_nearest (Lt := Q) m6 [0; 1; 3] with Ok (_, a) => a | Panic _ => [] end.
Lemma assi63_ok : assigned_first (vals d6) 6 [0; 1; 3] assi63.
Proof.
  assert (h : assign_nearest (Lt := Q) m6 [0; 1; 3] = Ok (6%Q, assi63)) by (vm_compute; reflexivity).
  pose proof (assign_first (Lt := Q) m6_diss (med := [0; 1; 3]) s63 k63) as q. rewrite h in q. exact q.
Qed.
Definition run_q63 : pam_result Q := Eval vm_compute in
  match pamsil_swap (Lt := Q) m6 [0; 1; 3] 1000 with Ok r => r | Panic _ => mkPR 0%Q [] 0 0 [] end.
Lemma run_q63_ok : pamsil_swap (Lt := Q) m6 [0; 1; 3] 1000 = Ok run_q63.
Proof. vm_compute. reflexivity. Qed.
Definition C33_improves_case :=
  C33_pamsil_swap_improves m6 6 d6 [0; 1; 3] 1000 run_q63 assi63 m6_diss s63 le23 k63 run_q63_ok assi63_ok.

(** C33, the medoids: distinct initial medoids may become equal ones, even for distinct objects. *)
Definition rows_dup : list (list Z) := [[0; 4; 1; 5]; [4; 0; 6; 5]; [1; 6; 0; 1]; [5; 5; 1; 0]]%Z.
Theorem C33_pamsil_swap_distinct_refuted : exists (M : Mat Z) D (r : pam_result Q),
  diss_matrix M 4 D /\ symmetric 4 (vals D) /\ (forall x y, x < 4 -> y < 4 -> x <> y -> (0 < vals D x y)%Q) /\
  medoids 4 3 [1; 0; 3] /\ pamsil_swap M [1; 0; 3] 10 = Ok r /\ ~ NoDup (r_med r).
Proof.
  exists (mat_of_rows rows_dup), (entries rows_dup). eexists.
  split; [apply rows_diss; [lia|reflexivity]|]. split; [apply rows_sym; reflexivity|].
  split.
  { intros x y hx hy hne. do 4 (destruct x as [|x]; [do 4 (destruct y as [|y]; [try lia; reflexivity|]); lia|]). lia. }
  split; [apply meds_ok; reflexivity|]. split; [vm_compute; reflexivity|]. cbn [r_med].
  intros h. inversion h as [|? ? h1 _]; subst. apply h1. simpl. auto.
Qed.
Print Assumptions C33_pamsil_swap_distinct_refuted.

(** C34.  It returns normally, except when the initial silhouette is negative and no swap has a
    positive one. *)
Theorem C34_pamsil_swap_returns {Nt Lt : Type} `{HLL : LossLaws Nt Lt} `{HDL : !DivLaws Nt Lt}
    (M : Mat Nt) n D med maxiter assi0 :
  diss_matrix M n D -> sizes n (length med) -> 2 <= length med -> medoids n (length med) med ->
  assigned_first (vals D) n med assi0 ->
  (exists r : pam_result Lt, pamsil_swap M med maxiter = Ok r) \/
  (pamsil_swap (Lt := Lt) M med maxiter = Panic P_index /\ 0 < maxiter /\ (sil_mean (vals D) assi0 < 0)%Q /\
   clustering_sil_optimal (vals D) n med 0).
Proof.
  intros hd hs hk hmed ha. pose proof (proj1 hd) as hm. pose proof (proj2 (proj2 hmed)) as hin.
  destruct (pamsil_swap_wk (Lt := Lt) M n D med maxiter hm hs hk hin) as (sil0 & e0 & assi1 & a0 & e1 & e2 & _).
  destruct (pamsil_swap M med maxiter) as [r|p] eqn:e; [left; eauto|]. right. symmetry in e2.
  apply (optimize_loop hm hs maxiter p hk eq_refl e1 hin a0 (val_sv M (k := length med) eq_refl hin e0)) in e2.
  assert (hf : ordf M n (length med) (vL : Lt -> Q)) by apply ordf_vL.
  apply (loop_panic hm hs (f := vL)) in e2; [|auto|constructor; auto; apply (val_sv M (k := length med) eq_refl hin e0)]. cbn [pl_sil pl_med] in e2.
  destruct e2 as (-> & q1 & q2 & q3). rewrite vL_zero in q2. split; [auto|]. split; [auto|].
  split; [rewrite <- (sv_mean hd hs hk hmed e0 ha); auto|].
  intros b j assi hb hj hno haf.
  pose proof (swap_distinct n med b j hmed hj hb hno) as hsd. destruct (swap_in n med b j hin hj hb) as [i1 i2].
  assert (hsr : sizes n (length (swap med b j))) by (rewrite i2; auto).
  destruct (sv_ok (Lt := Lt) hm hsr eq_refl i1) as (_ & _ & s & _ & _ & e3 & _).
  rewrite <- (sv_mean hd hsr ltac:(lia) hsd e3 haf). rewrite swap_set_nth in e3 by auto.
  pose proof (q3 b j s hb hj hno e3 vL hf) as h. rewrite vL_zero in h. auto.
Qed.
Print Assumptions C34_pamsil_swap_returns.
Definition C34_case := C34_pamsil_swap_returns (Lt := Q) m6 6 d6 [0; 1; 3] 10 assi63 m6_diss s63 le23 k63 assi63_ok.

(** C34: ... and then it does panic. *)
Theorem C34_pamsil_swap_panics {Nt Lt : Type} `{HLL : LossLaws Nt Lt} `{HDL : !DivLaws Nt Lt}
    (M : Mat Nt) n D med maxiter assi0 :
  diss_matrix M n D -> sizes n (length med) -> 2 <= length med -> medoids n (length med) med ->
  assigned_first (vals D) n med assi0 -> 0 < maxiter -> (sil_mean (vals D) assi0 < 0)%Q ->
  (forall b j (loss s : Lt) assi, b < length med -> j < n -> assign_nearest M (swap med b j) = Ok (loss, assi) ->
     silhouette M assi false = Ok (s, []) -> (vL s <= 0)%Q) ->
  pamsil_swap (Lt := Lt) M med maxiter = Panic P_index.
Proof.
  intros hd hs hk hmed ha hi hneg hall. pose proof (proj1 hd) as hm. pose proof (proj2 (proj2 hmed)) as hin.
  destruct (pamsil_swap_wk (Lt := Lt) M n D med maxiter hm hs hk hin) as (sil0 & e0 & assi1 & a0 & e1 & -> & _).
  apply (optimize_loop hm hs maxiter P_index hk eq_refl e1 hin a0 (val_sv M (k := length med) eq_refl hin e0)).
  destruct maxiter as [|maxiter]; [lia|]. apply (loop_panics hm hs); [constructor; auto; apply (val_sv M (k := length med) eq_refl hin e0)| |].
  - cbn [pl_sil]. destruct (lleb lzero sil0) eqn:e; [|auto]. apply lleb_spec in e. rewrite vL_zero in e.
    rewrite (sv_mean hd hs hk hmed e0 ha) in e. lra.
  - cbn [pl_med]. intros b j s hb hj e. apply lleb_spec. rewrite vL_zero. rewrite <- swap_set_nth in e by auto.
    destruct (swap_in n med b j hin hj hb) as [i1 i2].
    assert (hsr : sizes n (length (swap med b j))) by (rewrite i2; auto).
    destruct (sv_ok (Lt := Lt) hm hsr eq_refl i1) as (loss & assi & s' & e3 & e4 & e5 & _).
    rewrite e in e5. injection e5 as <-. eapply hall; eauto.
Qed.
Print Assumptions C34_pamsil_swap_panics.

(** C34, refuted: a valid input on which it panics (med[k] is out of bounds). *)
Definition rows_neg : list (list Z) := [[0; 1; 1; 2]; [1; 0; 1; 2]; [1; 1; 0; 2]; [2; 2; 2; 0]]%Z.
Theorem C34_pamsil_swap_no_panic_refuted : exists (M : Mat Z) D,
  diss_matrix M 4 D /\ symmetric 4 (vals D) /\ medoids 4 3 [2; 1; 0] /\ sizes 4 3 /\
  pamsil_swap (Lt := Q) M [2; 1; 0] 1 = Panic P_index.
Proof.
  exists (mat_of_rows rows_neg), (entries rows_neg).
  split; [apply rows_diss; [lia|reflexivity]|]. split; [apply rows_sym; reflexivity|].
  split; [apply meds_ok; reflexivity|]. split; [apply sizes_ok; reflexivity|]. vm_compute. reflexivity.
Qed.
Print Assumptions C34_pamsil_swap_no_panic_refuted.

(** the panic theorem applies to this input *)
Lemma mneg_diss : diss_matrix (mat_of_rows rows_neg) 4 (entries rows_neg).
Proof. apply rows_diss; [lia|reflexivity]. Qed.
Lemma kneg : medoids 4 3 [2; 1; 0]. Proof. apply meds_ok. reflexivity. Qed.
Lemma assi_neg : assigned_first (vals (entries rows_neg)) 4 [2; 1; 0] [2; 1; 0; 0].
Proof.
  assert (h : assign_nearest (Lt := Q) (mat_of_rows rows_neg) [2; 1; 0] = Ok (2%Q, [2; 1; 0; 0])) by (vm_compute; reflexivity).
  pose proof (assign_first (Lt := Q) mneg_diss (med := [2; 1; 0]) s43 kneg) as q. rewrite h in q. exact q.
Qed.
Lemma neg_swaps : forall b j (loss s : Q) assi, b < 3 -> j < 4 ->
  assign_nearest (mat_of_rows rows_neg) (swap [2; 1; 0] b j) = Ok (loss, assi) ->
  silhouette (mat_of_rows rows_neg) assi false = Ok (s, []) -> (s <= 0)%Q.
Proof.
  intros b j loss s assi hb hj e1 e2.
  assert (h : match sv (Lt := Q) (mat_of_rows rows_neg) (swap [2; 1; 0] b j) with Ok s => Qle_bool s 0 | Panic _ => false end = true).
  { do 3 (destruct b as [|b]; [do 4 (destruct j as [|j]; [vm_compute; reflexivity|]); lia|]). lia. }
  unfold sv in h. rewrite e1 in h. cbn [bind] in h. rewrite e2 in h. cbn [bind] in h. apply Qle_bool_iff. auto.
Qed.
Definition C34_panics_case := C34_pamsil_swap_panics (Lt := Q) (mat_of_rows rows_neg) 4 (entries rows_neg) [2; 1; 0] 1
  [2; 1; 0; 0] mneg_diss s43 le23 kneg assi_neg (le_n 1) ltac:(vm_compute; reflexivity) neg_swaps.

(** C34, C11: with one medoid pamsil_swap never panics, in any number type ... *)
Theorem C34_pamsil_swap_single {Nt Lt : Type} `{HN : NumN Nt} `{HL : NumL Lt} `{HF : FromN Nt Lt}
    (M : Mat Nt) n D x maxiter :
  is_matrix M n D -> sizes n 1 -> x < n -> returns n (pamsil_swap (Lt := Lt) M [x] maxiter) 1.
Proof. intros hm hs hx. rewrite (pamsil_single M n D x maxiter hm hs hx). apply (single_returns hm hx). Qed.
Print Assumptions C34_pamsil_swap_single.
Definition C34_single_case := C34_pamsil_swap_single (Lt := f64) mf 4 df 1 10 mf_matrix s41 (le_S _ _ le23).

(** ... and with exact arithmetic it minimises the sum of dissimilarities. *)
Theorem C11_pamsil_single_medoid {Nt Lt : Type} `{HLL : LossLaws Nt Lt} (M : Mat Nt) n D x maxiter :
  diss_matrix M n D -> sizes n 1 -> x < n ->
  best_single (Lt := Lt) n (vals D) x (pamsil_swap M [x] maxiter).
Proof.
  intros hd hs hx. rewrite (pamsil_single M n D x maxiter (proj1 hd) hs hx).
  pose proof (single_medoid_ok (Lt := Lt) hd (med := [x]) eq_refl) as h.
  assert (hin : inr n [x]) by (intros m [<-|[]]; auto). specialize (h hin).
  apply oks_inv in h as (r & e & h1 & h2 & best & h3 & h4 & h5 & h6 & _ & h7 & h8).
  exists r, best. auto 12.
Qed.
Print Assumptions C11_pamsil_single_medoid.
Definition C11_pamsil_case := C11_pamsil_single_medoid (Lt := Q) m6 6 d6 1 10 m6_diss (sizes_ok 6 1 eq_refl)
  (le_S _ _ (le_S _ _ (le_S _ _ (le_S _ _ (le_n 2))))).

Theorem C11_pamsil_single {Nt Lt : Type} `{HLL : LossLaws Nt Lt} (M : Mat Nt) n D maxiter :
  diss_matrix M n D -> sizes n 1 ->
  exists x, x < n /\ best_single (Lt := Lt) n (vals D) x (pamsil M 1 maxiter).
Proof.
  intros hd hs. pose proof (proj1 hd) as hm. assert (hn : 1 <= n) by (destruct hs; lia).
  pose proof (pamsil_build_ok (Lt := Lt) hd hn (le_n 1)) as h. apply oks_inv in h as (meds & eb & b1 & b2 & _).
  destruct meds as [|x [|]]; try discriminate. exists x. assert (hx : x < n) by (apply b2; simpl; auto).
  split; [auto|]. unfold pamsil. rewrite (check_input_ok hm hs). cbn [bind]. rewrite eb. cbn [bind].
  rewrite (proj1 hm). change (pamsil_optimize (Lt := Lt) M [x] (repeat 0 n) maxiter) with
    (single_medoid_at (Lt := Lt) M n x).
  rewrite <- (single_medoid_at_eq (Lt := Lt) M n D x hm).
  rewrite <- (pamsil_single M n D x maxiter hm hs hx). apply C11_pamsil_single_medoid; auto.
Qed.
Print Assumptions C11_pamsil_single.
Definition C11_pamsil_one_case := C11_pamsil_single (Lt := Q) m6 6 d6 10 m6_diss (sizes_ok 6 1 eq_refl).

(** C35.  When it stops before the iteration limit, and in any case if the limit is at least n^k, no
    swap for an object which is no medoid has a larger silhouette: as computed by the library, and
    (distinct medoids) by the definition of the silhouette. *)
Theorem C35_pamsil_swap_local_optimum {Nt Lt : Type} `{HLL : LossLaws Nt Lt} `{HDL : !DivLaws Nt Lt}
    (M : Mat Nt) n D med maxiter (r : pam_result Lt) :
  diss_matrix M n D -> sizes n (length med) -> 2 <= length med -> medoids n (length med) med ->
  pamsil_swap M med maxiter = Ok r -> r_iter r < maxiter \/ n ^ length med <= maxiter ->
  (forall b j (loss s : Lt) assi, b < length med -> j < n -> ~ In j (r_med r) ->
     assign_nearest M (swap (r_med r) b j) = Ok (loss, assi) -> silhouette M assi false = Ok (s, []) ->
     (vL s <= vL (r_loss r))%Q) /\
  (NoDup (r_med r) -> clustering_sil_optimal (vals D) n (r_med r) (vL (r_loss r))) /\
  (0 <= vL (r_loss r))%Q.
Proof.
  intros hd hs hk hmed e hit. pose proof (proj1 hd) as hm. pose proof (proj2 (proj2 hmed)) as hin.
  destruct (pamsil_swap_wk (Lt := Lt) M n D med maxiter hm hs hk hin) as (sil0 & e0 & assi1 & a0 & e1 & e2 & h).
  rewrite e in h. destruct h as (st & assi & loss & hr & q1 & q2 & q3 & q4 & q5 & q6).
  destruct hr as [[l1 l2 l3 l4] p1 p2 p3 p4 p5 p6 p7]. cbn [pl_med pl_sil] in *.
  assert (hf : ordf M n (length med) (vL : Lt -> Q)) by apply ordf_vL.
  pose proof (above_bound_lt M (k := length med) vL eq_refl hin e0) as hab. specialize (p6 _ hf).
  destruct p5 as [(p5 & hopt & hpos)|(p5 & p5')]; [|exfalso; lia].
  assert (A : forall b j s, b < length med -> j < n -> ~ In j (r_med r) -> sv M (swap (r_med r) b j) = Ok s ->
    (vL s <= vL (r_loss r))%Q).
  { intros b j s hb hj hno es. rewrite q2 in *. rewrite q1. rewrite swap_set_nth in es by lia.
    exact (hopt b j s hb hj hno es vL hf). }
  assert (B : forall b j, b < length med -> j < n -> sizes n (length (swap (r_med r) b j)) /\
    (forall m, In m (swap (r_med r) b j) -> m < n) /\ length (swap (r_med r) b j) = length med).
  { intros b j hb hj. rewrite q2. destruct (swap_in n (pl_med st) b j l2 hj ltac:(lia)) as [i1 i2].
    rewrite i2, l1. auto. }
  split; [|split].
  - intros b j loss' s assi' hb hj hno ea es. apply A with b j; auto.
    destruct (B b j hb hj) as (b1 & b2 & b3). apply (sv_sil M n D _ loss' assi' s hm); auto.
    pose proof (assign_nearest_ok (Lt := Lt) hm b1 b2) as h. rewrite ea in h. apply h.
  - intros hnd b j assi' hb hj hno haf. rewrite q2, l1 in hb. destruct (B b j hb hj) as (b1 & b2 & b3).
    assert (hmr : medoids n (length (r_med r)) (r_med r)) by (split; [auto|split; [auto|rewrite q2; auto]]).
    pose proof (swap_distinct n (r_med r) b j hmr hj ltac:(rewrite q2, l1; auto) hno) as hsd.
    destruct (sv_ok (Lt := Lt) hm b1 eq_refl b2) as (_ & _ & s & _ & _ & e3 & _).
    rewrite <- (sv_mean hd b1 ltac:(lia) hsd e3 haf). apply A with b j; auto.
  - rewrite q1. specialize (hpos _ hf). rewrite vL_zero in hpos. auto.
Qed.
Print Assumptions C35_pamsil_swap_local_optimum.
Definition C35_case := C35_pamsil_swap_local_optimum m6 6 d6 [0; 1; 3] 1000 run_q63 m6_diss s63 le23 k63 run_q63_ok
  (or_introl (proj1 (Nat.ltb_lt (r_iter run_q63) 1000) eq_refl)).

(** C36.  pamsil: never panics; BUILD is greedy; the value of the swap phase is that of the returned
    clustering if a swap was made, else 0; on early termination no swap is better. *)
Theorem C36_pamsil_consistent {Nt Lt : Type} `{HLL : LossLaws Nt Lt} `{HDL : !DivLaws Nt Lt}
    (M : Mat Nt) n D k maxiter :
  diss_matrix M n D -> sizes n k -> 2 <= k ->
  exists (r : pam_result Lt) meds loss, pamsil M k maxiter = Ok r /\
    length meds = k /\ (forall m, In m meds -> m < n) /\ greedy (vals D) n meds /\
    (NoDup meds \/ (tdev (vals D) n meds == 0)%Q) /\
    length (r_med r) = k /\ (forall m, In m (r_med r) -> m < n) /\
    assign_nearest M (r_med r) = Ok (loss, r_assi r) /\
    (forall o, o < n -> nearest (vals D) o (r_med r) (nth o (r_assi r) 0)) /\
    (r_swaps r = 0 -> r_med r = meds /\ r_loss r = lzero) /\
    (0 < r_swaps r -> silhouette M (r_assi r) false = Ok (r_loss r, []) /\ (0 < vL (r_loss r))%Q) /\
    r_iter r <= maxiter /\ r_swaps r <= n ^ k /\
    (r_iter r < maxiter \/ n ^ k < maxiter ->
     forall b j (loss s : Lt) assi, b < k -> j < n -> ~ In j (r_med r) ->
       assign_nearest M (swap (r_med r) b j) = Ok (loss, assi) -> silhouette M assi false = Ok (s, []) ->
       (vL s <= vL (r_loss r))%Q).
Proof.
  intros hd hs hk. pose proof (proj1 hd) as hm. assert (hn : 1 <= n /\ 1 <= k) by (destruct hs; lia). destruct hn as [hn hk1].
  pose proof (pamsil_build_ok (Lt := Lt) hd hn hk1) as h. apply oks_inv in h as (meds & eb & b1 & b2 & b3 & b4 & b5).
  assert (ez : silhouette (Lt := Lt) M (repeat 0 n) false = Ok (lzero, [])).
  { change (@nil Lt) with (repeat (lzero : Lt) (if false then length (repeat 0 n) else 0)). apply silhouette_one.
    - apply width_one. split; [destruct n; [lia|discriminate]|]. intros a h. apply repeat_spec in h. auto.
    - apply hm.
    - pose proof (sil_buf_oks (Lt := Lt) hm (repeat 0 n) (i := 0)) as h. rewrite repeat_length in h.
      specialize (h (le_n n) hn). apply oks_inv in h as (b & -> & _). eauto. }
  assert (ha : assi_ok n k (repeat 0 n)).
  { split; [apply repeat_length|]. intros o ho. rewrite nth_repeat. lia. }
  assert (hf : ordf M n k (vL : Lt -> Q)) by apply ordf_vL.
  assert (e : pamsil (Lt := Lt) M k maxiter = pamsil_optimize M meds (repeat 0 n) maxiter).
  { unfold pamsil. rewrite (check_input_ok hm hs). cbn [bind]. rewrite eb. cbn [bind]. rewrite (proj1 hm). auto. }
  pose proof (optimize_wk hm hs maxiter hk b1 b2 ha (val_zero M n k) ez) as h.
  destruct (pamsil_optimize M meds (repeat 0 n) maxiter) as [r|p] eqn:eo.
  2: { exfalso. apply (optimize_loop hm hs maxiter p hk b1 ez b2 ha (val_zero M n k)) in eo.
       apply (loop_panic hm hs (f := vL)) in eo; [|auto|constructor; auto; apply val_zero]. cbn [pl_sil] in eo. lra. }
  destruct h as (st & assi & loss & hr & q1 & q2 & q3 & q4 & q5 & q6).
  destruct hr as [[l1 l2 l3 l4] p1 p2 p3 p4 p5 p6 p7]. cbn [pl_med pl_sil] in *.
  specialize (p6 _ hf). pose proof (above_bound M n k vL (vL (lzero : Lt))) as hab.
  destruct q6 as [q6 q7]. exists r, meds, loss. rewrite q3, q4.
  assert (hsr : sizes n (length (r_med r))) by (rewrite q2, l1; auto).
  assert (hinr : inr n (r_med r)) by (rewrite q2; auto).
  destruct (emb_vals hd) as [he _].
  do 5 (split; [auto|]). split; [congruence|]. split; [auto|]. split; [auto|].
  split.
  { intros o ho. pose proof (assign_nearest_ok (Lt := Lt) hm hsr hinr) as h. rewrite q5 in h.
    destruct h as (_ & h & _). cbn [snd] in h. apply (h o ho). auto. }
  split; [intros h; rewrite q1, q2; auto|]. split.
  { intros h. split; [apply (sv_sil M n D (r_med r) loss); auto; rewrite q1, q2; auto|].
    destruct (p4 _ hf h) as [_ h']. rewrite vL_zero in h'. rewrite q1. auto. }
  split; [auto|]. split; [lia|].
  intros hit b j loss' s assi' hb hj hno ea es.
  destruct p5 as [(p5 & hopt & hpos)|(p5 & p5')]; [|exfalso; lia].
  destruct (swap_in n (r_med r) b j hinr hj ltac:(rewrite q2, l1; auto)) as [i1 i2].
  assert (hsw : sizes n (length (swap (r_med r) b j))) by (rewrite i2; auto).
  apply (sv_sil M n D (swap (r_med r) b j) loss' assi' s hm) in es; [| |auto].
  - rewrite q2 in *. rewrite swap_set_nth in es by lia. rewrite q1. exact (hopt b j s hb hj hno es vL hf).
  - pose proof (assign_nearest_ok (Lt := Lt) hm hsw i1) as h. rewrite ea in h. apply h.
Qed.
Print Assumptions C36_pamsil_consistent.
Definition C36_case := C36_pamsil_consistent (Lt := Q) m6 6 d6 3 10 m6_diss s63 le23.

(** C36, refuted: (1) without a swap the value is 0, whatever the silhouette is; also after
    convergence. *)
Definition rows_star : list (list Z) := [[0; 0; 0; 0]; [0; 0; 1; 2]; [0; 1; 0; 2]; [0; 2; 2; 0]]%Z.
Definition rows_worse : list (list Z) :=
  [[0; 6; 9; 8; 3]; [6; 0; 1; 4; 2]; [9; 1; 0; 1; 6]; [8; 4; 1; 0; 8]; [3; 2; 6; 8; 0]]%Z.
Theorem C36_pamsil_value_refuted : exists (M M' : Mat Z) D D' (r r' : pam_result Q) s s',
  diss_matrix M 5 D /\ symmetric 5 (vals D) /\ pamsil M 3 0 = Ok r /\
  silhouette M (r_assi r) false = Ok (s, []) /\ (r_loss r == 0)%Q /\ (0 < s)%Q /\
  diss_matrix M' 4 D' /\ symmetric 4 (vals D') /\ pamsil M' 3 100 = Ok r' /\
  silhouette M' (r_assi r') false = Ok (s', []) /\ (r_loss r' == 0)%Q /\ (s' == -3 # 4)%Q.
Proof.
  exists (mat_of_rows rows_worse), (mat_of_rows rows_star), (entries rows_worse), (entries rows_star). do 4 eexists.
  split; [apply rows_diss; [lia|reflexivity]|]. split; [apply rows_sym; reflexivity|].
  split; [vm_compute; reflexivity|]. split; [vm_compute; reflexivity|]. split; [reflexivity|]. split; [vm_compute; reflexivity|].
  split; [apply rows_diss; [lia|reflexivity]|]. split; [apply rows_sym; reflexivity|].
  split; [vm_compute; reflexivity|]. split; [vm_compute; reflexivity|]. split; vm_compute; reflexivity.
Qed.
Print Assumptions C36_pamsil_value_refuted.

(** (2) the first swap may worsen the silhouette of the BUILD clustering: 437/1050 to 8/25 *)
Theorem C36_pamsil_improves_refuted : exists (M : Mat Z) D meds (r : pam_result Q) loss assi s,
  diss_matrix M 5 D /\ symmetric 5 (vals D) /\ pamsil_build_initialize (Lt := Q) M 3 = Ok meds /\
  assign_nearest (Lt := Q) M meds = Ok (loss, assi) /\ silhouette (Lt := Q) M assi false = Ok (s, []) /\
  pamsil M 3 1 = Ok r /\ r_swaps r = 1 /\ (s == 437 # 1050)%Q /\ (r_loss r == 8 # 25)%Q.
Proof.
  exists (mat_of_rows rows_worse), (entries rows_worse). do 5 eexists.
  split; [apply rows_diss; [lia|reflexivity]|]. split; [apply rows_sym; reflexivity|].
  split; [vm_compute; reflexivity|]. split; [vm_compute; reflexivity|]. split; [vm_compute; reflexivity|].
  split; [vm_compute; reflexivity|]. split; [reflexivity|]. split; vm_compute; reflexivity.
Qed.
Print Assumptions C36_pamsil_improves_refuted.

(** (3) the medoids may coincide: one object serves as both medoids, and two objects are assigned
    to it under a number which it does not have itself *)
Definition rows_three : list (list Z) := [[0; 7; 5]; [7; 0; 3]; [5; 3; 0]]%Z.
Theorem C36_pamsil_distinct_refuted : exists (M : Mat Z) D (r : pam_result Q),
  diss_matrix M 3 D /\ symmetric 3 (vals D) /\ pamsil M 2 100 = Ok r /\
  r_med r = [0; 0] /\ r_assi r = [1; 0; 0] /\ (0 < r_loss r)%Q.
Proof.
  exists (mat_of_rows rows_three), (entries rows_three). eexists.
  split; [apply rows_diss; [lia|reflexivity]|]. split; [apply rows_sym; reflexivity|].
  split; [vm_compute; reflexivity|]. split; [reflexivity|]. split; [reflexivity|]. vm_compute. reflexivity.
Qed.
Print Assumptions C36_pamsil_distinct_refuted.
