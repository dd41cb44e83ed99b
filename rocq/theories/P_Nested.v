(** P_Nested.v -- property C89: BUILD is incremental.  The medoids it chooses for k are the first k of those it chooses for any
    larger number, and more medoids only move objects to the added clusters; so one run of BUILD serves all smaller numbers.
    Every theorem is followed by a concrete input which meets its hypotheses. *)
From Coq Require Import ZArith QArith Lqa Lia.
From Coq.Floats Require Import SpecFloat.
From Verif Require Import Base Num M_Mat M_Util M_Fasterpam M_Pam M_Msc M_Pammedsil M_Pamsil Inst Hoare Spec SpecFacts Laws
  PamShape PamMain PamFacts BuildFacts Reference Nested Ex P_Fasterpam P_Pam.
Open Scope nat_scope.

(** the clusters [a'] arise from [a] by moving objects to clusters numbered [k] and above *)
Definition only_added_clusters_grow (n k : nat) (a a' : list nat) : Prop :=
  length a = n /\ length a' = n /\ forall o, o < n -> nth o a' 0 = nth o a 0 \/ k <= nth o a' 0.

Lemma nth_map_error T (f : T -> nat) l o r : nth_error l o = Some r -> nth o (map f l) 0 = f r.
Proof. intros h. apply nth_error_nth. rewrite nth_error_map, h. reflexivity. Qed.

(** C89, PAM's BUILD; any numeric types (with NaN, say) and any matrix.  If BUILD had stopped early before, nothing changes. *)
Theorem C89_build {Nt Lt : Type} `{HN : NumN Nt} `{HL : NumL Lt} `{HF : FromN Nt Lt} (M : Mat Nt) k k' (loss' : Lt) assi' meds' :
  1 <= k <= k' -> pam_build M k' = Ok (loss', assi', meds') ->
  exists (loss : Lt) assi, pam_build M k = Ok (loss, assi, firstn k meds') /\ only_added_clusters_grow (mlen M) k assi assi' /\
    (length meds' <= k -> loss = loss' /\ assi = assi').
Proof.
  intros hk e. unfold pam_build in e. apply bind_Ok in e as (u & ec & e). apply bind_Ok in e as (st' & eb & e). injection e as <- <- <-.
  assert (hc : check_input M k = Ok tt /\ 1 <= mlen M).
  { unfold check_input in *. apply bind_Ok in ec as (sq & -> & ec). cbn [bind]. apply bind_Ok in ec as (u1 & -> & ec). cbn [bind].
    apply bind_Ok in ec as (u2 & -> & ec). cbn [bind]. unfold assertb in *.
    destruct ((0 <? k') && (N.of_nat k' <? u32_max)%N) eqn:e1; [|discriminate ec]. cbn [bind] in ec.
    destruct (k' <=? mlen M) eqn:e2; [|discriminate ec]. apply andb_prop in e1 as [e1 e3]. apply N.ltb_lt in e3. apply Nat.leb_le in e2.
    assert (h1 : (0 <? k) = true) by (apply Nat.ltb_lt; lia). assert (h2 : (N.of_nat k <? u32_max)%N = true) by (apply N.ltb_lt; lia).
    assert (h3 : (k <=? mlen M) = true) by (apply Nat.leb_le; lia). rewrite h1, h2, h3. cbn. split; [reflexivity|lia]. }
  destruct hc as [hc hn]. destruct (build_nested M hk hn eb) as (st & e & ((t & g1) & g0 & g2 & g3) & hd & hcase).
  exists (b_loss st), (assignment_of (b_data st)). unfold pam_build. rewrite hc, e. cbn [bind].
  assert (hf : firstn k (b_meds st') = b_meds st).
  { destruct hcase as [[-> hl]|hl]; [apply firstn_all2; exact hl|]. rewrite g1, <- hl, firstn_app, firstn_all, Nat.sub_diag, firstn_O.
    apply app_nil_r. }
  rewrite hf. split; [reflexivity|]. split.
  - unfold only_added_clusters_grow, assignment_of. rewrite !map_length. split; [exact hd|]. split; [lia|]. intros o ho.
    destruct (nth_error (b_data st') o) as [r'|] eqn:er; [|apply nth_error_None in er; lia].
    destruct (g3 o r' er) as (r & er0 & h). rewrite (nth_map_error _ _ _ _ _ er), (nth_map_error _ _ _ _ _ er0).
    destruct h as [->|(l & -> & hl)]; [left; reflexivity|right; exact hl].
  - intros hle. destruct hcase as [[-> _]|hl]; [split; reflexivity|]. destruct g0 as [->|g0]; [split; reflexivity|lia].
Qed.
Print Assumptions C89_build.

(** PAMMEDSIL's BUILD (which leaves out object 0 and stops early as well) *)
Theorem C89_pammedsil_build {Nt Lt : Type} `{HN : NumN Nt} `{HL : NumL Lt} `{HF : FromN Nt Lt} (M : Mat Nt) k k' (st' : b3st Nt Lt) :
  lleb (lzero : Lt) lzero = true -> 1 <= k <= k' -> 1 <= mlen M -> pammedsil_build_initialize M k' = Ok st' ->
  exists st : b3st Nt Lt, pammedsil_build_initialize M k = Ok st /\ b3_meds st = firstn k (b3_meds st') /\
    only_added_clusters_grow (mlen M) k (assignment3_of (b3_data st)) (assignment3_of (b3_data st')) /\
    (length (b3_meds st') <= k -> st = st').
Proof.
  intros hz hk hn eb. destruct (build3_nested M hz hk hn eb) as (st & e & ((t & g1) & g0 & g2 & g3) & hd & hcase).
  exists st. split; [exact e|]. split.
  { symmetry. destruct hcase as [[-> hl]|hl]; [apply firstn_all2; exact hl|]. rewrite g1, <- hl, firstn_app, firstn_all, Nat.sub_diag, firstn_O.
    apply app_nil_r. }
  split.
  - unfold only_added_clusters_grow, assignment3_of. rewrite !map_length. split; [exact hd|]. split; [lia|]. intros o ho.
    destruct (nth_error (b3_data st') o) as [r'|] eqn:er; [|apply nth_error_None in er; lia].
    destruct (g3 o r' er) as (r & er0 & h). rewrite (nth_map_error _ _ _ _ _ er), (nth_map_error _ _ _ _ _ er0).
    destruct h as [->|(l & -> & hl)]; [left; reflexivity|right; exact hl].
  - intros hle. destruct hcase as [[-> _]|hl]; [reflexivity|]. destruct g0 as [->|g0]; [reflexivity|lia].
Qed.
Print Assumptions C89_pammedsil_build.

(** PAMSIL's BUILD, which never stops early *)
Theorem C89_pamsil_build {Nt Lt : Type} `{HN : NumN Nt} `{HL : NumL Lt} `{HF : FromN Nt Lt} (M : Mat Nt) k k' meds' :
  1 <= k <= k' -> 1 <= mlen M -> pamsil_build_initialize (Lt := Lt) M k' = Ok meds' ->
  length meds' = k' /\ pamsil_build_initialize (Lt := Lt) M k = Ok (firstn k meds').
Proof. intros hk hn e. exact (pamsil_nested M hk hn e). Qed.
Print Assumptions C89_pamsil_build.

(** Exact arithmetic: each added medoid reduces the loss; and nearest medoids stay nearest among the first [k]. *)
Lemma grow_add v n c a b meds : grow v n c (a + b) meds = grow v n c b (grow v n c a meds) \/ grow v n c (a + b) meds = grow v n c a meds.
Proof.
  revert meds. induction a as [|a IH]; intros meds; cbn [Nat.add grow]; [left; reflexivity|].
  destruct (improve (dev_better v n) (map (fun y => meds ++ [y]) c) meds) as [m|]; [apply IH|right; reflexivity].
Qed.
Lemma grow_less v n c t meds : grow v n c t meds = meds \/ (tdev v n (grow v n c t meds) < tdev v n meds)%Q.
Proof.
  revert meds. induction t as [|t IH]; intros meds; cbn [grow]; [left; reflexivity|].
  destruct (improve (dev_better v n) (map (fun y => meds ++ [y]) c) meds) as [m|] eqn:e; [right|left; reflexivity].
  assert (h : (tdev v n m < tdev v n meds)%Q).
  { unfold improve in e. destruct (dev_better v n _ meds) eqn:eb in e; [|discriminate e]. injection e as <-. apply Qlt_bool_iff. exact eb. }
  destruct (IH m) as [->|h2]; [exact h|]. lra.
Qed.

Theorem C89_build_loss {Nt Lt : Type} `{HLL : LossLaws Nt Lt} (M : Mat Nt) n D k k' :
  diss_matrix M n D -> sizes n k' -> 1 <= k <= k' ->
  exists (loss loss' : Lt) assi assi' meds', pam_build M k = Ok (loss, assi, firstn k meds') /\ pam_build M k' = Ok (loss', assi', meds') /\
    ((vL loss' == vL loss)%Q /\ length meds' <= k \/ (vL loss' < vL loss)%Q /\ k < length meds').
Proof.
  intros hd hs hk. assert (hs0 : sizes n k) by (destruct hs as (s1 & s2 & s3); split; [lia|split; [exact s2|lia]]).
  pose proof (pam_build_ok (Lt := Lt) hd hs) as h. apply oks_inv in h as ([[l' a'] m'] & e' & h1 & (_ & h2 & _) & _ & h5 & _ & _ & _ & h9).
  pose proof (pam_build_ok (Lt := Lt) hd hs0) as h. apply oks_inv in h as ([[l a] m] & e & g1 & _ & _ & g5 & _ & _ & _ & g9).
  destruct (C89_build M k k' l' a' m' hk e') as (l0 & a0 & e0 & _ & hsame). rewrite e in e0. injection e0 as <- <- ->.
  exists l, l', a, a', m'. split; [exact e|]. split; [exact e'|].
  destruct (le_lt_dec (length m') k) as [hle|hlt]; [left; destruct (hsame hle) as [-> _]; split; [reflexivity|exact hle]|right].
  split; [|exact hlt]. rewrite h5, g5.
  assert (hne : m' <> firstn k m').
  { intros h. apply (f_equal (@length nat)) in h. rewrite firstn_length in h. lia. }
  replace (k' - 1) with ((k - 1) + (k' - k)) in h9 by lia.
  destruct (grow_add (vals D) n (seq 0 n) (k - 1) (k' - k) [best_next (vals D) n []]) as [h|h]; rewrite <- h9, <- g9 in h; [|congruence].
  rewrite h at 1. destruct (grow_less (vals D) n (seq 0 n) (k' - k) (firstn k m')) as [h0|h0]; [congruence|exact h0].
Qed.
Print Assumptions C89_build_loss.

(** ** Concrete inputs *)
Lemma run_4 : pam_build (Lt := Z) m6 4 = Ok (0%Z, [1; 1; 2; 3; 0; 0], [5; 1; 2; 3]).
Proof. vm_compute. reflexivity. Qed.
Definition C89_case := C89_build (Lt := Z) m6 2 4 _ _ _ (ltac:(lia) : 1 <= 2 <= 4) run_4.
Example C89_value : pam_build (Lt := Z) m6 2 = Ok (2%Z, [1; 1; 0; 1; 0; 0], [5; 1]).
Proof. vm_compute. reflexivity. Qed.
(** the early stop: no fifth medoid *)
Lemma run_5 : pam_build (Lt := Z) m6 5 = Ok (0%Z, [1; 1; 2; 3; 0; 0], [5; 1; 2; 3]).
Proof. vm_compute. reflexivity. Qed.
Definition C89_case_stopped := C89_build (Lt := Z) m6 4 5 _ _ _ (ltac:(lia) : 1 <= 4 <= 5) run_5.
(** binary64 *)
Definition run_f : f64 * list nat * list nat := Eval vm_compute in match pam_build (Lt := f64) mf 3 with Ok r => r | Panic _ => (S754_nan, [], []) end.
Lemma run_f_ok : pam_build (Lt := f64) mf 3 = Ok (fst (fst run_f), snd (fst run_f), snd run_f).
Proof. vm_compute. reflexivity. Qed.
Definition C89_case_f64 := C89_build (Lt := f64) mf 2 3 _ _ _ (ltac:(lia) : 1 <= 2 <= 3) run_f_ok.
Definition run_med : b3st Z Q := Eval vm_compute in
  match pammedsil_build_initialize (Lt := Q) m6 4 with Ok st => st | Panic _ => mkB3 [] [] 0%Q end.
Lemma run_med_ok : pammedsil_build_initialize (Lt := Q) m6 4 = Ok run_med.
Proof. vm_compute. reflexivity. Qed.
Lemma m6_len : 1 <= mlen m6.
Proof. vm_compute. lia. Qed.
Definition C89_pammedsil_case := C89_pammedsil_build (Lt := Q) m6 2 4 run_med eq_refl (ltac:(lia) : 1 <= 2 <= 4) m6_len run_med_ok.
Lemma run_sil_ok : pamsil_build_initialize (Lt := Q) m6 4 = Ok [5; 1; 2; 3].
Proof. vm_compute. reflexivity. Qed.
Definition C89_pamsil_case := C89_pamsil_build (Lt := Q) m6 2 4 _ (ltac:(lia) : 1 <= 2 <= 4) m6_len run_sil_ok.
Definition C89_loss_case := C89_build_loss (Lt := Z) m6 6 d6 2 3 m6_diss s63 (ltac:(lia) : 1 <= 2 <= 3).

(** ** What does not hold *)

(** After SWAP, more medoids may mean a larger loss: pam stops at 8 with two medoids, but at 9 with three. *)
Definition rows_more : list (list Z) :=
  [[0;6;8;1;9;5;5;1;8];[6;0;1;6;8;4;1;9;1];[8;1;0;1;5;2;4;8;1];[1;6;1;0;5;5;6;3;1];[9;8;5;5;0;5;9;1;1];
   [5;4;2;5;5;0;5;5;4];[5;1;4;6;9;5;0;1;8];[1;9;8;3;1;5;1;0;9];[8;1;1;1;1;4;8;9;0]]%Z.
Theorem C89_pam_refuted : exists (M : Mat Z) D (r2 r3 : pam_result Z), diss_matrix M 9 D /\ symmetric 9 (vals D) /\
  pam M 2 100 = Ok r2 /\ pam M 3 100 = Ok r3 /\ length (r_med r2) = 2 /\ length (r_med r3) = 3 /\
  r_iter r2 < 100 /\ r_iter r3 < 100 /\ (r_loss r2 < r_loss r3)%Z.
Proof.
  exists (mat_of_rows rows_more), (entries rows_more). do 2 eexists.
  split; [apply rows_diss; [lia|reflexivity]|]. split; [apply rows_sym; reflexivity|].
  split; [vm_compute; reflexivity|]. split; [vm_compute; reflexivity|]. cbn [r_med r_iter r_loss].
  split; [reflexivity|]. split; [reflexivity|]. split; [lia|]. split; [lia|reflexivity].
Qed.
Print Assumptions C89_pam_refuted.
