(** P_FloatSep.v -- property C71: when no two sets of medoids have nearly the same total deviation, rounding
    does not change what the algorithms do.  Concrete inputs which meet the hypotheses stand below the theorems. *)
From Coq Require Import ZArith QArith Qabs Lqa Lia Permutation.
From Coq.Floats Require Import SpecFloat.
From Verif Require Import Base Num M_Mat M_Util M_Fasterpam M_Pam M_ParFasterpam M_Alternating Inst Hoare Spec SpecFacts Laws
  FloatFacts FloatRound PamShape PamFacts ParFacts Reference LocalSearch RefFacts FloatMain FloatSil FloatFmt FloatSwap FloatPar
  FloatQuality FloatSep TermFloat Float32 Float32Loss Ex P_Fasterpam P_Pam P_Float P_Reference P_Bounded P_Rounding P_Term P_FloatOpt
  P_FloatBuild P_Float32 P_Float32Loss.
Open Scope nat_scope.

(** The run makes the choices of the search [x], which is carried out in exact arithmetic; the loss it
    returns is off by at most [e], and if it ends before the limit then no swap is an improvement. *)
Definition follows (v : diss) (n k maxiter : nat) (e : Q) (x : list nat * nat * nat) (m : res (pam_result f64)) : Prop :=
  exists r, m = Ok r /\ (r_med r, r_swaps r, r_iter r) = x /\ off_by e (tdev v n (r_med r)) (r_loss r) /\
    medoids n k (r_med r) /\ (r_iter r < maxiter -> swap_optimal v n (r_med r)).
Definition follows32 (v : diss) (n k maxiter : nat) (e : Q) (x : list nat * nat * nat) (m : res (pam_result f32)) : Prop :=
  exists r, m = Ok r /\ (r_med r, r_swaps r, r_iter r) = x /\ off_by32 e (tdev v n (r_med r)) (r_loss r) /\
    medoids n k (r_med r) /\ (r_iter r < maxiter -> swap_optimal v n (r_med r)).

(** C71.  fasterpam, rand_fasterpam and par_fasterpam, for every order of the candidates and every scheduling:
    it is enough that no swap changes the total deviation by [rounding n mx] or less. *)
Theorem C71_fasterpam {Nt : Type} `{HO : OrdLaws Nt} `{HF : FromN Nt f64} (M : Mat Nt) n D order orc med maxiter mx :
  diss_matrix M n D -> exact_from n D -> at_most n D mx -> sizes n (length med) -> medoids n (length med) med ->
  2 <= length med -> lfrom (nzero : Nt) = S754_zero false -> Permutation order (seq 0 n) -> valid_oracle orc ->
  swaps_apart (tdev (vals D) n) n (length med) (rounding n mx) ->
  let ok := follows (vals D) n (length med) maxiter (rounding n mx) in
  ok (eager_swaps (dev_better (vals D) n) (seq 0 n) med maxiter) (fasterpam M med maxiter) /\
  ok (eager_swaps (dev_better (vals D) n) order med maxiter) (rand_fasterpam M order med maxiter) /\
  ok (eager_swaps (dev_better (vals D) n) order med maxiter) (par_fasterpam M orc order med maxiter).
Proof.
  intros HD he hm hs hmed hk hz hp hor hsep. destruct (f64_fits n D mx _ hm hs) as (f1 & f2 & f3 & f4). cbv zeta.
  assert (hperm : forall o, Permutation o (seq 0 n) -> NoDup o /\ (forall j, In j o -> j < n) /\ (forall j, j < n -> In j o)).
  { intros o h. split; [apply (Permutation_NoDup (Permutation_sym h)), seq_NoDup|]. split; intros j hj.
    - apply (Permutation_in _ h) in hj. apply in_seq in hj. lia.
    - apply (Permutation_in _ (Permutation_sym h)). apply in_seq. lia. }
  assert (G : forall o run, Permutation o (seq 0 n) ->
    (exists r, run = Ok r /\ eager_result (Lt := f64) n D (rounding n mx) o med maxiter r) ->
    follows (vals D) n (length med) maxiter (rounding n mx) (eager_swaps (dev_better (vals D) n) o med maxiter) run).
  { intros o run ho (r & e & h1 & h2 & h3 & h4). exists r. split; [exact e|]. split; [exact h1|]. split; [exact h2|].
    split; [exact h3|]. intros hlt b j hb hj. rewrite (proj1 h3) in hb. apply h4; auto. apply (hperm o ho). exact hj. }
  assert (R : forall o, Permutation o (seq 0 n) -> exists r, rand_fasterpam M o med maxiter = Ok r /\
    eager_result (Lt := f64) n D (rounding n mx) o med maxiter r).
  { intros o ho. destruct (hperm o ho) as (p1 & p2 & _).
    exact (rand_fasterpam_sep HD (exact_in_f64 he) f1 f2 f3 f4 (eps_le n mx) hz maxiter hs hmed hk p1 p2 hsep). }
  split; [|split].
  - apply G; [apply Permutation_refl|].
    assert (e : fasterpam M med maxiter = rand_fasterpam M (seq 0 n) med maxiter :> res (pam_result f64)).
    { unfold fasterpam, rand_fasterpam. rewrite (proj1 (proj1 HD)). reflexivity. }
    rewrite e. apply R. apply Permutation_refl.
  - apply G; [exact hp|]. apply R. exact hp.
  - apply G; [exact hp|]. destruct (hperm order hp) as (p1 & p2 & _).
    exact (par_fasterpam_sep HD (exact_in_f64 he) f1 f2 f3 f4 (eps_le n mx) hz maxiter hs hmed hk p1 p2 hor hsep).
Qed.
Print Assumptions C71_fasterpam.

(** fastpam1 and the swap phase of PAM compare all swaps, so no two sets may nearly tie. *)
Theorem C71_fastpam1_pam {Nt : Type} `{HO : OrdLaws Nt} `{HF : FromN Nt f64} (M : Mat Nt) n D med maxiter mx :
  diss_matrix M n D -> exact_from n D -> at_most n D mx -> sizes n (length med) -> medoids n (length med) med ->
  2 <= length med -> lfrom (nzero : Nt) = S754_zero false ->
  sets_apart (tdev (vals D) n) n (length med) (rounding n mx) ->
  let ok := follows (vals D) n (length med) maxiter (rounding n mx) (best_swaps (dev_better (vals D) n) n med maxiter) in
  ok (fastpam1 M med maxiter) /\ ok (pam_swap M med maxiter).
Proof.
  intros HD he hm hs hmed hk hz hsep. destruct (f64_fits n D mx _ hm hs) as (f1 & f2 & f3 & f4). cbv zeta.
  exact (fastpam1_pam_sep HD (exact_in_f64 he) f1 f2 f3 f4 (eps_le n mx) hz maxiter hs hmed hk hsep).
Qed.
Print Assumptions C71_fastpam1_pam.

(** BUILD and pam *)
Theorem C71_pam {Nt : Type} `{HO : OrdLaws Nt} `{HF : FromN Nt f64} (M : Mat Nt) n D k maxiter mx :
  diss_matrix M n D -> exact_from n D -> at_most n D mx -> sizes n k -> k < n -> lfrom (nzero : Nt) = S754_zero false ->
  (forall i, 1 <= i <= k -> sets_apart (tdev (vals D) n) n i (rounding n mx)) ->
  let start := greedy_start (vals D) n (seq 0 n) k in
  length start = k /\
  (exists loss assi, pam_build M k = Ok (loss, assi, start) /\ off_by (rounding n mx) (tdev (vals D) n start) loss) /\
  (2 <= k -> follows (vals D) n k maxiter (rounding n mx)
     (best_swaps (dev_better (vals D) n) n start maxiter) (pam M k maxiter)).
Proof.
  intros HD he hm hs hk hz hsep. destruct (f64_fits n D mx _ hm hs) as (f1 & f2 & f3 & f4). cbv zeta.
  destruct (pam_build_sep HD (exact_in_f64 he) f1 f2 f3 f4 (eps_le n mx) hs hk hsep) as [hl hb].
  split; [exact hl|]. split; [exact hb|].
  intros h2. rewrite <- hl at 1. exact (pam_sep HD (exact_in_f64 he) f1 f2 f3 f4 (eps_le n mx) hz maxiter hs hk hsep h2).
Qed.
Print Assumptions C71_pam.

(** the same for losses of type [f32] *)
Theorem C71_f32 {Nt : Type} `{HO : OrdLaws Nt} `{HF : FromN Nt f32} (M : Mat Nt) n D order orc med maxiter mx :
  diss_matrix M n D -> exact_from32 n D -> fits32 n D mx -> sizes n (length med) -> medoids n (length med) med ->
  2 <= length med < n -> lfrom (nzero : Nt) = (lzero : f32) -> Permutation order (seq 0 n) -> valid_oracle orc ->
  let e := rounding32 n mx in let k := length med in
  let eager := eager_swaps (dev_better (vals D) n) in let start := greedy_start (vals D) n (seq 0 n) k in
  (swaps_apart (tdev (vals D) n) n k e ->
     follows32 (vals D) n k maxiter e (eager (seq 0 n) med maxiter) (fasterpam M med maxiter) /\
     follows32 (vals D) n k maxiter e (eager order med maxiter) (rand_fasterpam M order med maxiter) /\
     follows32 (vals D) n k maxiter e (eager order med maxiter) (par_fasterpam M orc order med maxiter)) /\
  (sets_apart (tdev (vals D) n) n k e ->
     follows32 (vals D) n k maxiter e (best_swaps (dev_better (vals D) n) n med maxiter) (fastpam1 M med maxiter) /\
     follows32 (vals D) n k maxiter e (best_swaps (dev_better (vals D) n) n med maxiter) (pam_swap M med maxiter)) /\
  ((forall i, 1 <= i <= k -> sets_apart (tdev (vals D) n) n i e) ->
     length start = k /\
     (exists loss assi, pam_build M k = Ok (loss, assi, start) /\ off_by32 e (tdev (vals D) n start) loss) /\
     follows32 (vals D) n k maxiter e (best_swaps (dev_better (vals D) n) n start maxiter) (pam M k maxiter)).
Proof.
  intros HD he hm hs hmed [hk hkn] hz hp hor. destruct (f32_fits n D mx _ hm hs) as (f1 & f2 & f3 & f4). cbv zeta.
  split; [|split].
  - intros hsep.
    assert (hperm : forall o, Permutation o (seq 0 n) -> NoDup o /\ (forall j, In j o -> j < n) /\ (forall j, j < n -> In j o)).
    { intros o h. split; [apply (Permutation_NoDup (Permutation_sym h)), seq_NoDup|]. split; intros j hj.
      - apply (Permutation_in _ h) in hj. apply in_seq in hj. lia.
      - apply (Permutation_in _ (Permutation_sym h)). apply in_seq. lia. }
    assert (G : forall o run, Permutation o (seq 0 n) ->
      (exists r, run = Ok r /\ eager_result (Lt := f32) n D (rounding32 n mx) o med maxiter r) ->
      follows32 (vals D) n (length med) maxiter (rounding32 n mx) (eager_swaps (dev_better (vals D) n) o med maxiter) run).
    { intros o run ho (r & e & h1 & h2 & h3 & h4). exists r. split; [exact e|]. split; [exact h1|]. split; [exact h2|].
      split; [exact h3|]. intros hlt b j hb hj. rewrite (proj1 h3) in hb. apply h4; auto. apply (hperm o ho). exact hj. }
    assert (R : forall o, Permutation o (seq 0 n) -> exists r, rand_fasterpam M o med maxiter = Ok r /\
      eager_result (Lt := f32) n D (rounding32 n mx) o med maxiter r).
    { intros o ho. destruct (hperm o ho) as (p1 & p2 & _).
      exact (rand_fasterpam_sep HD (exact_in_f32 n D he) f1 f2 f3 f4 (eps_le32 n mx) hz maxiter hs hmed hk p1 p2 hsep). }
    split; [|split].
    + apply G; [apply Permutation_refl|].
      assert (e : fasterpam M med maxiter = rand_fasterpam M (seq 0 n) med maxiter :> res (pam_result f32)).
      { unfold fasterpam, rand_fasterpam. rewrite (proj1 (proj1 HD)). reflexivity. }
      rewrite e. apply R. apply Permutation_refl.
    + apply G; [exact hp|]. apply R. exact hp.
    + apply G; [exact hp|]. destruct (hperm order hp) as (p1 & p2 & _).
      exact (par_fasterpam_sep HD (exact_in_f32 n D he) f1 f2 f3 f4 (eps_le32 n mx) hz maxiter hs hmed hk p1 p2 hor hsep).
  - intros hsep. exact (fastpam1_pam_sep HD (exact_in_f32 n D he) f1 f2 f3 f4 (eps_le32 n mx) hz maxiter hs hmed hk hsep).
  - intros hsep. destruct (pam_build_sep HD (exact_in_f32 n D he) f1 f2 f3 f4 (eps_le32 n mx) hs hkn hsep) as [hl hb].
    split; [exact hl|]. split; [exact hb|]. rewrite <- hl at 1.
    exact (pam_sep HD (exact_in_f32 n D he) f1 f2 f3 f4 (eps_le32 n mx) hz maxiter hs hkn hsep hk).
Qed.
Print Assumptions C71_f32.

(** So the run with binary64 losses does what a run in exact arithmetic does on the same dissimilarities, in
    whatever type they are held there. *)
Definition same_steps {L1 L2 : Type} (m1 : res (pam_result L1)) (m2 : res (pam_result L2)) : Prop :=
  exists r1 r2, m1 = Ok r1 /\ m2 = Ok r2 /\ r_med r1 = r_med r2 /\ r_swaps r1 = r_swaps r2 /\ r_iter r1 = r_iter r2.

Lemma follows_finds {L2 : Type} v n k maxiter e x y (m1 : res (pam_result f64)) (m2 : res (pam_result L2)) :
  follows v n k maxiter e x m1 -> finds y m2 -> x = y -> same_steps m1 m2.
Proof.
  intros (r1 & e1 & h1 & _) (r2 & e2 & h2) exy. exists r1, r2. split; [exact e1|]. split; [exact e2|].
  rewrite <- exy in h2. rewrite <- h1 in h2. injection h2 as h2 h3 h4. auto.
Qed.

Theorem C71_like_exact {Nt : Type} `{HO : OrdLaws Nt} `{HF : FromN Nt f64} {N2 L2 : Type} `{HLL : LossLaws N2 L2}
    (M : Mat Nt) n D (M2 : Mat N2) D2 order orc med maxiter mx :
  diss_matrix M n D -> exact_from n D -> at_most n D mx -> sizes n (length med) -> medoids n (length med) med ->
  2 <= length med < n -> lfrom (nzero : Nt) = S754_zero false -> Permutation order (seq 0 n) -> valid_oracle orc ->
  diss_matrix M2 n D2 -> (forall i j, i < n -> j < n -> (vals D2 i j == vals D i j)%Q) ->
  (swaps_apart (tdev (vals D) n) n (length med) (rounding n mx) ->
     same_steps (fasterpam (Lt := f64) M med maxiter) (fasterpam (Lt := L2) M2 med maxiter) /\
     same_steps (rand_fasterpam (Lt := f64) M order med maxiter) (rand_fasterpam (Lt := L2) M2 order med maxiter) /\
     same_steps (par_fasterpam (Lt := f64) M orc order med maxiter) (par_fasterpam (Lt := L2) M2 orc order med maxiter)) /\
  (sets_apart (tdev (vals D) n) n (length med) (rounding n mx) ->
     same_steps (fastpam1 (Lt := f64) M med maxiter) (fastpam1 (Lt := L2) M2 med maxiter) /\
     same_steps (pam_swap (Lt := f64) M med maxiter) (pam_swap (Lt := L2) M2 med maxiter)) /\
  ((forall i, 1 <= i <= length med -> sets_apart (tdev (vals D) n) n i (rounding n mx)) ->
     same_steps (pam (Lt := f64) M (length med) maxiter) (pam (Lt := L2) M2 (length med) maxiter)).
Proof.
  intros HD he hm hs hmed [hk hkn] hz hp hor HD2 hv.
  assert (h01 : (0 < 1)%Q) by lra.
  assert (hv' : forall i j, i < n -> j < n -> (vals D2 i j == 1 * vals D i j)%Q) by (intros; rewrite hv by auto; ring).
  assert (hdev : forall a b, inr n a -> inr n b -> dev_better (vals D2) n a b = dev_better (vals D) n a b).
  { intros a b ha hb. apply dev_scale with (c := 1%Q); auto. }
  assert (heag : forall o, Permutation o (seq 0 n) ->
    eager_swaps (dev_better (vals D) n) o med maxiter = eager_swaps (dev_better (vals D2) n) o med maxiter).
  { intros o ho. symmetry. apply eager_scale with (n := n); [auto|exact (proj2 (proj2 hmed))|].
    intros j hj. apply (Permutation_in _ ho) in hj. apply in_seq in hj. lia. }
  assert (hbest : forall m, inr n m -> best_swaps (dev_better (vals D) n) n m maxiter = best_swaps (dev_better (vals D2) n) n m maxiter).
  { intros m hin. symmetry. apply best_scale; auto. }
  split; [|split].
  - intros hsep.
    destruct (C71_fasterpam M n D order orc med maxiter mx HD he hm hs hmed hk hz hp hor hsep) as (a1 & a2 & a3).
    assert (p1 : NoDup order) by (apply (Permutation_NoDup (Permutation_sym hp)), seq_NoDup).
    assert (p2 : forall j, In j order -> j < n) by (intros j hj; apply (Permutation_in _ hp) in hj; apply in_seq in hj; lia).
    pose proof (C52_fasterpam_is_eager_search (Lt := L2) M2 n D2 med maxiter HD2 hs hmed hk) as b1.
    destruct (C52_rand_fasterpam_is_eager_search (Lt := L2) M2 n D2 order med maxiter orc HD2 hs hmed hk p1 p2 hor) as [b2 b3].
    split; [|split]; (eapply follows_finds; [eassumption|eassumption|apply heag; auto using Permutation_refl]).
  - intros hsep. destruct (C71_fastpam1_pam M n D med maxiter mx HD he hm hs hmed hk hz hsep) as (a1 & a2).
    destruct (C53_pam_is_steepest_descent (Lt := L2) M2 n D2 med maxiter HD2 hs hmed hk) as [b1 b2].
    split; (eapply follows_finds; [eassumption|eassumption|apply hbest; exact (proj2 (proj2 hmed))]).
  - intros hsep. destruct (C71_pam M n D (length med) maxiter mx HD he hm hs hkn hz hsep) as (hl & _ & a). specialize (a hk).
    assert (hstart : greedy_start (vals D2) n (seq 0 n) (length med) = greedy_start (vals D) n (seq 0 n) (length med) /\
      inr n (greedy_start (vals D) n (seq 0 n) (length med))).
    { unfold greedy_start. destruct (@next_scale (vals D) (vals D2) n 1%Q h01 hv' []) as [e1 e2]; [intros m []|lia|].
      rewrite e1. apply (@grow_scale (vals D) (vals D2) n 1%Q h01 hv').
      - intros y hy. apply in_seq in hy. lia.
      - intros m [<-|[]]. exact e2. }
    destruct hstart as [es hin].
    assert (hl2 : 2 <= length (greedy_start (vals D2) n (seq 0 n) (length med))) by (rewrite es, hl; exact hk).
    pose proof (C53_pam_is_greedy_descent (Lt := L2) M2 n D2 (length med) maxiter HD2 hs hl2) as b.
    eapply follows_finds; [exact a|exact b|]. rewrite es. apply hbest. exact hin.
Qed.
Print Assumptions C71_like_exact.

(** ** A matrix without near ties *)
Definition same_setb (a b : list nat) : bool :=
  forallb (fun x => existsb (Nat.eqb x) b) a && forallb (fun x => existsb (Nat.eqb x) a) b.
Lemma same_setb_spec a b : same_setb a b = true -> same_set a b.
Proof.
  intros h. apply andb_true_iff in h as [h1 h2]. rewrite forallb_forall in h1, h2.
  intros x. split; intros hx; [apply h1 in hx|apply h2 in hx]; apply existsb_exists in hx as (y & hy & e); apply Nat.eqb_eq in e; subst; auto.
Qed.
Definition nodupb (l : list nat) : bool := if list_eq_dec Nat.eq_dec (nodup Nat.eq_dec l) l then true else false.
(** the sets of [k] medoids, with their values *)
Definition valued (f : list nat -> Q) (n k : nat) : list (list nat * Q) :=
  map (fun l => (l, Qred (f l))) (filter nodupb (all_lists n k)).
Definition apartb (f : list nat -> Q) (n k : nat) (e : Q) : bool :=
  let l := valued f n k in
  forallb (fun p => forallb (fun q => same_setb (fst p) (fst q) || Qlt_bool e (Qabs (snd p - snd q))) l) l.
Lemma apartb_spec f n k e : apartb f n k e = true -> sets_apart f n k e.
Proof.
  intros h a b (a1 & a2 & a3) (b1 & b2 & b3) hne. unfold apartb in h.
  assert (hin : forall m, length m = k -> NoDup m -> (forall x, In x m -> x < n) -> In (m, Qred (f m)) (valued f n k)).
  { intros m m1 m2 m3. apply in_map_iff. exists m. split; [auto|]. apply filter_In. split; [apply in_all_lists; auto|].
    unfold nodupb. rewrite nodup_fixed_point by auto. destruct (list_eq_dec Nat.eq_dec m m); tauto. }
  rewrite forallb_forall in h. specialize (h _ (hin a a1 a2 a3)). cbn [fst snd] in h.
  rewrite forallb_forall in h. specialize (h _ (hin b b1 b2 b3)). cbn [fst snd] in h.
  apply orb_true_iff in h as [h|h]; [apply same_setb_spec in h; contradiction|].
  apply Qlt_bool_iff in h. rewrite !Qred_correct in h. exact h.
Qed.

Definition rows_az : list (list Z) :=
  [[0; 34; 9; 31; 12]; [34; 0; 8; 33; 13]; [9; 8; 0; 31; 3]; [31; 33; 31; 0; 21]; [12; 13; 3; 21; 0]]%Z.
Definition rows_a : list (list f64) := Eval vm_compute in map (map tenth) rows_az.
Definition a_diss : diss_matrix (mat_of_rows rows_a) 5 (fentries rows_a) := frows_diss 5 rows_a ltac:(lia) eq_refl.
Definition a_exact := f64_exact_from _ _ _ (diss_nonneg _ _ _ a_diss).
Lemma a_at_most : at_most 5 (fentries rows_a) 4.
Proof.
  split; [vm_compute; discriminate|]. intros x y hx hy.
  do 5 (destruct x; [do 5 (destruct y; [vm_compute; discriminate|]); lia|]). lia.
Qed.
Lemma a_apart i : 1 <= i <= 3 -> sets_apart (tdev (vals (fentries rows_a)) 5) 5 i (rounding 5 4).
Proof. intros h. apply apartb_spec. do 4 (destruct i; [try lia; vm_compute; reflexivity|]). lia. Qed.
Definition a_apart2 := a_apart 2 ltac:(lia).
Definition C71_case_fasterpam := C71_fasterpam _ 5 _ [4; 2; 0; 1; 3] P_Pam.orc2 [0; 1] 10 4 a_diss a_exact a_at_most s52 k52
  (le_n 2) eq_refl perm5' P_Pam.orc2_ok (sets_swaps a_apart2).
Example C71_value_fasterpam :
  eager_swaps (dev_better (vals (fentries rows_a)) 5) [4; 2; 0; 1; 3] [0; 1] 10 = ([2; 3], 3, 3) /\
  eager_swaps (dev_better (vals (fentries rows_a)) 5) (seq 0 5) [0; 1] 10 = ([3; 2], 2, 2).
Proof. vm_compute. auto. Qed.
Definition C71_case_fastpam1_pam := C71_fastpam1_pam _ 5 _ [0; 1] 10 4 a_diss a_exact a_at_most s52 k52 (le_n 2) eq_refl a_apart2.
Definition C71_case_pam := C71_pam _ 5 _ 2 10 4 a_diss a_exact a_at_most s52 ltac:(lia) eq_refl (fun i h => a_apart i ltac:(lia)).
Example C71_value_pam : greedy_start (vals (fentries rows_a)) 5 (seq 0 5) 2 = [4; 3] /\
  best_swaps (dev_better (vals (fentries rows_a)) 5) 5 [4; 3] 10 = ([2; 3], 1, 2) /\
  best_swaps (dev_better (vals (fentries rows_a)) 5) 5 [0; 1] 10 = ([2; 3], 3, 4).
Proof. vm_compute. auto. Qed.

(** the same matrix in integers, with [f32] losses *)
Definition az_diss : diss_matrix (mat_of_rows rows_az) 5 (entries rows_az) := rows_diss (n := 5) rows_az ltac:(lia) eq_refl.
Lemma az_fits : fits32 5 (entries rows_az) 34.
Proof.
  split; [lia|]. split; [vm_compute; discriminate|]. intros x y hx hy.
  do 5 (destruct x; [do 5 (destruct y; [vm_compute; discriminate|]); lia|]). lia.
Qed.
Lemma az_exact : exact_from32 5 (entries rows_az).
Proof.
  apply (exact_from_Z32 _ _ _ az_diss). intros x y hx hy.
  do 5 (destruct x; [do 5 (destruct y; [vm_compute; discriminate|]); lia|]). lia.
Qed.
Lemma az_apart i : 1 <= i <= 3 -> sets_apart (tdev (vals (entries rows_az)) 5) 5 i (rounding32 5 34).
Proof. intros h. apply apartb_spec. do 4 (destruct i; [try lia; vm_compute; reflexivity|]). lia. Qed.
Lemma le225 : 2 <= 2 < 5. Proof. lia. Qed.
Definition C71_case_f32 := C71_f32 _ 5 _ [4; 2; 0; 1; 3] P_Pam.orc2 [0; 1] 10 34 az_diss az_exact az_fits s52 k52 le225 eq_refl
  perm5' P_Pam.orc2_ok.
Definition C71_case_f32_eager := proj1 C71_case_f32 (sets_swaps (az_apart 2 ltac:(lia))).
Definition C71_case_f32_steep := proj1 (proj2 C71_case_f32) (az_apart 2 ltac:(lia)).
Definition C71_case_f32_pam := proj2 (proj2 C71_case_f32) (fun i h => az_apart i ltac:(simpl in h; lia)).

(** and the numbers which the entries of [rows_a] stand for as rational numbers *)
Definition rows_aq : list (list Q) := Eval vm_compute in map (map (fun x => Qred (f64_val x))) rows_a.
Definition aq (i j : nat) : Q := nth j (nth i rows_aq []) 0%Q.
Lemma aq_diss : diss_matrix (mat_of_rows rows_aq) 5 aq.
Proof.
  split; [split; [reflexivity|split; [reflexivity|]]|split].
  - intros x y hx hy.
    do 5 (destruct x as [|x]; [do 5 (destruct y as [|y]; [reflexivity|]); lia|]). lia.
  - intros x hx. do 5 (destruct x as [|x]; [reflexivity|]). lia.
  - intros x y hx hy. split; [exact I|].
    do 5 (destruct x as [|x]; [do 5 (destruct y as [|y]; [vm_compute; discriminate|]); lia|]). lia.
Qed.
Lemma aq_same i j : i < 5 -> j < 5 -> (vals aq i j == vals (fentries rows_a) i j)%Q.
Proof.
  intros hi hj. do 5 (destruct i as [|i]; [do 5 (destruct j as [|j]; [vm_compute; reflexivity|]); lia|]). lia.
Qed.
Definition C71_case_like_exact := C71_like_exact (L2 := Q) _ 5 _ _ aq [4; 2; 0; 1; 3] P_Pam.orc2 [0; 1] 10 4 a_diss a_exact a_at_most
  s52 k52 le225 eq_refl perm5' P_Pam.orc2_ok aq_diss aq_same.
Definition C71_case_like_exact_eager := proj1 C71_case_like_exact (sets_swaps a_apart2).
Definition C71_case_like_exact_steep := proj1 (proj2 C71_case_like_exact) a_apart2.
Definition C71_case_like_exact_pam := proj2 (proj2 C71_case_like_exact) (fun i h => a_apart i ltac:(simpl in h; lia)).

(** Ties are decided by the rounding errors: on this metric on four objects the swap algorithms perform a
    swap in binary64 where there is none which lowers the total deviation. *)
Theorem C71_ties_refuted : exists (M : Mat f64) n D med,
  diss_matrix M n D /\ no_negative_zero n D /\ metric n (vals D) /\ at_most n D 1 /\
  sizes n (length med) /\ medoids n (length med) med /\
  forall maxiter, 1 <= maxiter ->
    eager_swaps (dev_better (vals D) n) (seq 0 n) med maxiter = (med, 0, 1) /\
    best_swaps (dev_better (vals D) n) n med maxiter = (med, 0, 1) /\
    exists r, fasterpam (Lt := f64) M med maxiter = Ok r /\ fastpam1 M med maxiter = Ok r /\ r_swaps r = 1 /\
      r_med r <> med.
Proof.
  exists (mat_of_rows rows_stall), 4, (fentries rows_stall), [0; 1].
  split; [apply stall_diss|]. split.
  { intros i j hi hj. do 4 (destruct i; [do 4 (destruct j; [vm_compute; discriminate|]); lia|]). lia. }
  split; [exact stall_metric|]. split; [exact stall_at_most|]. split; [exact s42|]. split; [exact k42|].
  intros maxiter hm. destruct maxiter as [|f]; [lia|].
  split; [destruct f; vm_compute; reflexivity|]. split; [destruct f; vm_compute; reflexivity|].
  destruct f as [|f]; (eexists; split; [vm_compute; reflexivity|]; split; [vm_compute; reflexivity|]; split; [reflexivity|discriminate]).
Qed.
Print Assumptions C71_ties_refuted.
