(** P_Adapter.v -- properties C37 to C39: matrix adapters and initialisation.
    Every theorem is followed by a concrete input which meets its hypotheses. *)
From Coq Require Import ZArith QArith Lqa Lia.
From Verif Require Import Base Num M_Mat M_Util M_Fasterpam M_Pam M_Alternating M_ParFasterpam M_Silhouette
  M_Msc M_Pammedsil M_Pamsil M_Dynmsc Inst Hoare Spec Laws PamShape SilFacts FpMain PamMain MscMain PamsilFacts
  LtFacts Adapter Ex P_Fasterpam P_Pam P_Silhouette P_Msc P_MscBuild P_Dynmsc P_Pamsil.
Open Scope nat_scope.

(** C37.  With n(n-1)/2 elements, n <= 2^32, in builds with and without overflow checks: square; zero
    diagonal, symmetric, element x(x-1)/2 + y at (x, y) for y < x; and each element belongs to
    exactly one such pair. *)
Theorem C37_lower_triangle {Nt : Type} `{HN : NumN Nt} (checked : bool) (t : LowerTriangle Nt) n :
  lt_n t = n -> 1 <= n -> (N.of_nat n <= 2 ^ 32)%N -> length (lt_data t) = n * (n - 1) / 2 ->
  let M := mat_of_lt checked t in
  mlen M = n /\ msquare M = Ok true /\
  (forall x, x < n -> mget M x x = Ok nzero) /\
  (forall x y, y < x -> x < n -> x * (x - 1) / 2 + y < length (lt_data t) /\
     mget M x y = Ok (nth (x * (x - 1) / 2 + y) (lt_data t) nzero) /\
     mget M y x = Ok (nth (x * (x - 1) / 2 + y) (lt_data t) nzero)) /\
  (forall i, i < length (lt_data t) -> exists x y, y < x /\ x < n /\ i = x * (x - 1) / 2 + y /\
     forall x' y', y' < x' -> i = x' * (x' - 1) / 2 + y' -> x' = x /\ y' = y).
Proof.
  intros e hn hb hl. change (2 ^ 32)%N with 4294967296%N in hb. fold (tri n) in hl.
  destruct (lt_matrix checked t e hn hb hl) as (h1 & h2 & h3). cbv zeta.
  split; [exact h1|]. split; [exact h2|]. split; [|split].
  - intros x hx. rewrite h3 by auto. unfold lt_entry. rewrite Nat.compare_refl. auto.
  - intros x y hy hx. fold (tri x). split; [rewrite hl; apply tri_bound; auto|].
    rewrite !h3 by lia. unfold lt_entry.
    rewrite (proj2 (Nat.compare_gt_iff x y) hy), (proj2 (Nat.compare_lt_iff y x) hy). auto.
  - intros i hi. rewrite hl in hi. destruct (tri_surj n hi) as (x & y & q1 & q2 & q3). exists x, y.
    split; [auto|]. split; [auto|]. split; [auto|].
    intros x' y' q4 q5. fold (tri x') in q5. apply tri_inj; auto. lia.
Qed.
Print Assumptions C37_lower_triangle.
Definition lt4 : LowerTriangle f64 := mkLT 4 [fz 1; fz 2; fz 3; fnan; fz 5; fz 6].
Definition C37_case := C37_lower_triangle true lt4 4 eq_refl (proj1 (Nat.leb_le 1 4) eq_refl) ltac:(discriminate) eq_refl.

(** is_square says whether the data has the right length; reading outside panics *)
Theorem C37_is_square {Nt : Type} `{HN : NumN Nt} (checked : bool) (t : LowerTriangle Nt) n :
  lt_n t = n -> 1 <= n -> (N.of_nat n <= 2 ^ 32)%N ->
  exists b, msquare (mat_of_lt checked t) = Ok b /\ (b = true <-> length (lt_data t) = n * (n - 1) / 2) /\
    (b = true -> forall x y, y < x -> n <= x -> (N.of_nat x <= 2 ^ 32)%N ->
       mget (mat_of_lt checked t) x y = Panic P_index /\ mget (mat_of_lt checked t) y x = Panic P_index).
Proof.
  intros e hn hb. change (2 ^ 32)%N with 4294967296%N in *. exists (length (lt_data t) =? tri n).
  split; [apply lt_square_iff; auto|]. split; [apply Nat.eqb_eq|].
  intros hl x y hy hx hx'. apply Nat.eqb_eq in hl. cbn [mat_of_lt mget]. unfold lt_get.
  rewrite (proj2 (Nat.compare_gt_iff x y) hy), (proj2 (Nat.compare_lt_iff y x) hy).
  rewrite lt_cell_ok by auto. assert (h : idx (lt_data t) (tri x + y) = Panic P_index); [|auto].
  unfold idx. assert (h : nth_error (lt_data t) (tri x + y) = None); [|rewrite h; auto].
  apply nth_error_None. rewrite hl. pose proof (tri_mono hx). lia.
Qed.
Print Assumptions C37_is_square.
Definition C37_square_case := C37_is_square false lt4 4 eq_refl (proj1 (Nat.leb_le 1 4) eq_refl) ltac:(discriminate).

(** C37, refuted: the diagonal is not checked against n; n = 0 overflows; and beyond 2^32, without
    overflow checks, data of the wrong length counts as square (with them, it panics). *)
Theorem C37_bounds_refuted {Nt : Type} `{HN : NumN Nt} :
  (exists t : LowerTriangle Nt, msquare (mat_of_lt true t) = Ok true /\ mlen (mat_of_lt true t) = 1 /\
     forall x, mget (mat_of_lt true t) x x = Ok nzero) /\
  (exists t : LowerTriangle Nt, mlen (mat_of_lt true t) = 0 /\ msquare (mat_of_lt true t) = Panic P_overflow /\
     msquare (mat_of_lt false t) = Ok true) /\
  (exists t : LowerTriangle Nt, N.of_nat (lt_n t) = (2 ^ 32 + 1)%N /\ N.of_nat (length (lt_data t)) = (2 ^ 31)%N /\
     msquare (mat_of_lt false t) = Ok true /\ msquare (mat_of_lt true t) = Panic P_overflow).
Proof.
  split; [|split].
  - exists (mkLT 1 []). split; [reflexivity|]. split; [reflexivity|]. intros x. cbn [mat_of_lt mget]. unfold lt_get.
    rewrite Nat.compare_refl. auto.
  - exists (mkLT 0 []). split; [reflexivity|]. split; reflexivity.
  - exists (mkLT (N.to_nat (2 ^ 32 + 1)) (repeat nzero (N.to_nat (2 ^ 31)))). cbn [lt_n lt_data mat_of_lt msquare].
    unfold lt_is_square. cbn [lt_n lt_data]. rewrite repeat_length, !N2Nat.id. repeat (split; [reflexivity|]). reflexivity.
Qed.
Print Assumptions C37_bounds_refuted.

(** An Array2 with n rows and n columns of given elements. *)
Theorem C37_array2 {Nt : Type} (a : Array2 Nt) n d :
  a_rows a = n -> a_cols a = n -> length (a_cells a) = n * n ->
  is_matrix (mat_of_array2 a) n (fun x y => nth (x * n + y) (a_cells a) d) /\
  (forall x y, n <= x \/ n <= y -> mget (mat_of_array2 a) x y = Panic P_index).
Proof.
  intros e1 e2 e3. split; [split; [auto|split]|].
  - cbn [mat_of_array2 msquare]. rewrite e1, e2, Nat.eqb_refl. auto.
  - intros x y hx hy. cbn [mat_of_array2 mget]. rewrite e1, e2. apply Nat.ltb_lt in hx as hx', hy as hy'.
    rewrite hx', hy'. cbn [andb]. apply idx_nth. rewrite e3. nia.
  - intros x y h. cbn [mat_of_array2 mget]. rewrite e1, e2.
    destruct h as [h|h]; apply Nat.ltb_ge in h; rewrite h; rewrite ?andb_false_r; auto.
Qed.
Print Assumptions C37_array2.
Definition arr3 : Array2 Z := mkArray2 3 3 [0; 1; 2; 1; 0; 3; 2; 3; 0]%Z.
Definition C37_array_case := C37_array2 arr3 3 0%Z eq_refl eq_refl eq_refl.

(** C38.  Two adapters with the same entries: the same results, in any number type. *)
Lemma not_poison A (m : res A) a : m = Ok a -> m <> Panic P_overflow. Proof. congruence. Qed.

Theorem C38_pam_family {Nt Lt : Type} `{HN : NumN Nt} `{HL : NumL Lt} `{HF : FromN Nt Lt}
    (M M' : Mat Nt) n D med maxiter order orc :
  is_matrix M n D -> is_matrix M' n D -> sizes n (length med) -> (forall m, In m med -> m < n) ->
  (forall j, In j order -> j < n) -> lltb (lzero : Lt) lzero = false ->
  fasterpam (Lt := Lt) M med maxiter = fasterpam M' med maxiter /\
  rand_fasterpam (Lt := Lt) M order med maxiter = rand_fasterpam M' order med maxiter /\
  par_fasterpam (Lt := Lt) M orc order med maxiter = par_fasterpam M' orc order med maxiter /\
  fastpam1 (Lt := Lt) M med maxiter = fastpam1 M' med maxiter /\
  pam_swap (Lt := Lt) M med maxiter = pam_swap M' med maxiter /\
  alternating (Lt := Lt) M med maxiter = alternating M' med maxiter.
Proof.
  intros h h' hs hin ho hz.
  destruct (C09_no_panic (Lt := Lt) (restrict n D) n D med maxiter order orc (restrict_matrix n D) hs hin ho hz)
    as ((r1 & e1 & _) & (r2 & e2 & _) & (r3 & e3 & _) & (r4 & e4 & _) & (r5 & e5 & _) & (r6 & e6 & _)).
  apply not_poison in e1, e2, e3, e4, e5, e6.
  split; [|split; [|split; [|split; [|split]]]].
  - apply (adapter_same (fun M => fasterpam M med maxiter)) with n D; auto. intros. apply rle_fasterpam; auto.
  - apply (adapter_same (fun M => rand_fasterpam M order med maxiter)) with n D; auto. intros. apply rle_rand; auto.
  - apply (adapter_same (fun M => par_fasterpam M orc order med maxiter)) with n D; auto. intros. apply rle_par; auto.
  - apply (adapter_same (fun M => fastpam1 M med maxiter)) with n D; auto. intros. apply rle_fastpam1; auto.
  - apply (adapter_same (fun M => pam_swap M med maxiter)) with n D; auto. intros. apply rle_pam_swap; auto.
  - apply (adapter_same (fun M => alternating M med maxiter)) with n D; auto. intros. apply rle_alternating; auto.
Qed.
Print Assumptions C38_pam_family.

Theorem C38_build {Nt Lt : Type} `{HN : NumN Nt} `{HL : NumL Lt} `{HF : FromN Nt Lt} (M M' : Mat Nt) n D k maxiter :
  is_matrix M n D -> is_matrix M' n D -> sizes n k -> lltb (lzero : Lt) lzero = false -> lleb (lzero : Lt) lzero = true ->
  pam (Lt := Lt) M k maxiter = pam M' k maxiter /\ pam_build (Lt := Lt) M k = pam_build M' k /\
  pammedsil (Lt := Lt) M k maxiter = pammedsil M' k maxiter.
Proof.
  intros h h' hs hz hz'. pose proof (restrict_matrix n D) as h0.
  destruct (C09_pam_no_panic (Lt := Lt) (restrict n D) n D k maxiter h0 hs hz) as ((r1 & e1 & _) & (l & a & m & e2 & _)).
  destruct (C29_pammedsil_no_panic (Lt := Lt) (restrict n D) n D k maxiter h0 hs hz hz') as (l' & _ & r3 & e3 & _).
  apply not_poison in e1, e2, e3. split; [|split].
  - apply (adapter_same (fun M => pam M k maxiter)) with n D; auto. intros. apply rle_pam; auto.
  - apply (adapter_same (fun M => pam_build M k)) with n D; auto. intros. apply rle_pam_build; auto.
  - apply (adapter_same (fun M => pammedsil M k maxiter)) with n D; auto. intros. apply rle_pammedsil; auto.
Qed.
Print Assumptions C38_build.

Theorem C38_msc {Nt Lt : Type} `{HN : NumN Nt} `{HL : NumL Lt} `{HF : FromN Nt Lt}
    (M M' : Mat Nt) n D med mink maxiter :
  is_matrix M n D -> is_matrix M' n D -> sizes n (length med) -> (forall m, In m med -> m < n) ->
  lltb (lzero : Lt) lzero = false ->
  fastermsc (Lt := Lt) M med maxiter = fastermsc M' med maxiter /\
  pammedsil_swap (Lt := Lt) M med maxiter = pammedsil_swap M' med maxiter /\
  dynmsc (Lt := Lt) M med mink maxiter = dynmsc M' med mink maxiter /\
  (length med <> 2 \/ (forall x, x < n -> D x x = nzero) /\ nis_zero (nzero : Nt) = true /\ lltb (lzero : Lt) (ladd lzero lzero) = false ->
   fastmsc (Lt := Lt) M med maxiter = fastmsc M' med maxiter).
Proof.
  intros h h' hs hin hz. pose proof (restrict_matrix n D) as h0.
  destruct (C29_msc_no_panic (Lt := Lt) (restrict n D) n D med maxiter h0 hs hin hz) as ((r1 & e1 & _) & (r2 & e2 & _) & q).
  destruct (C29_dynmsc_no_panic (Lt := Lt) (restrict n D) n D med mink maxiter h0 hs hin) as (r3 & e3 & _).
  apply not_poison in e1, e2, e3. split; [|split; [|split]].
  - apply (adapter_same (fun M => fastermsc M med maxiter)) with n D; auto. intros. apply rle_fastermsc; auto.
  - apply (adapter_same (fun M => pammedsil_swap M med maxiter)) with n D; auto. intros. apply rle_pms_swap; auto.
  - apply (adapter_same (fun M => dynmsc M med mink maxiter)) with n D; auto. intros. apply rle_dynmsc; auto.
  - intros hc. assert (e4 : exists r, fastmsc (Lt := Lt) (restrict n D) med maxiter = Ok r).
    { destruct hc as [hc|(c1 & c2 & c3)]; [destruct (q hc) as (r & e & _)|
        destruct (C29_fastmsc_k2_no_panic (Lt := Lt) _ n D med maxiter h0 hs hin c1 hz c2 c3) as (r & e & _)]; eauto. }
    destruct e4 as (r4 & e4). apply not_poison in e4.
    apply (adapter_same (fun M => fastmsc M med maxiter)) with n D; auto. intros. apply rle_fastmsc; auto.
Qed.
Print Assumptions C38_msc.

Lemma medoid_silhouette_shape {Nt Lt : Type} `{HN : NumN Nt} `{HL : NumL Lt} `{HF : FromN Nt Lt} (M : Mat Nt) n D meds samples :
  is_matrix M n D -> sizes n (length meds) -> (forall m, In m meds -> m < n) ->
  exists p, medoid_silhouette (Lt := Lt) M meds samples = Ok p.
Proof.
  intros hm hs hin. unfold medoid_silhouette. rewrite (proj1 (proj2 hm)), (proj1 hm). cbn [bind assertb].
  assert (e1 : (N.of_nat n <=? u32_max)%N = true) by (apply N.leb_le; unfold u32_max; destruct hs; lia).
  rewrite e1. cbn [bind assertb].
  destruct (length meds =? 1) eqn:e; [eauto|]. apply Nat.eqb_neq in e.
  replace (length meds <=? n) with true by (symmetry; apply Nat.leb_le; destruct hs; lia). cbn [bind assertb].
  assert (h : oks (foldM (ms_step (Lt := Lt) M meds samples) (seq 0 n) (lzero, repeat lone (if samples then n else 0)))
    (fun p => length (snd p) = if samples then n else 0)).
  { apply foldM_seq with (I := fun _ (p : Lt * list Lt) => length (snd p) = if samples then n else 0).
    - apply repeat_length.
    - intros i [loss sil] hi hl. cbn [snd] in hl. unfold ms_step.
      assert (hb : oks (ms_best M meds i) (fun _ => True)).
      { unfold ms_best. assert (hk : 2 <= length meds) by (destruct hs; lia).
        rewrite !idx_nth with (d := 0) by lia. cbn [bind].
        rewrite !(proj2 (proj2 hm)) by (auto; apply hin, nth_In; lia). cbn [bind].
        apply foldM_oks with (I := fun _ _ => True); auto. intros s l1 m l2 e2 _.
        rewrite (proj2 (proj2 hm)); [exact I|auto|]. apply hin.
        rewrite <- (firstn_skipn 2 meds), e2. apply in_or_app. right. apply in_or_app. right. left. auto. }
      eapply oks_bind; [exact hb|]. intros best _. destruct (negb _); [|exact hl].
      destruct samples; [|exact hl]. rewrite upd_ok by lia. cbn [bind oks snd]. rewrite length_set_nth. auto. }
  apply oks_inv in h as ([loss sil] & -> & _). cbn [bind]. eauto.
Qed.

Theorem C38_silhouettes {Nt Lt : Type} `{HN : NumN Nt} `{HL : NumL Lt} `{HF : FromN Nt Lt}
    (M M' : Mat Nt) n D assi meds samples :
  is_matrix M n D -> is_matrix M' n D -> length assi <= n -> sizes n (length meds) -> (forall m, In m meds -> m < n) ->
  silhouette (Lt := Lt) M assi samples = silhouette M' assi samples /\
  par_silhouette (Lt := Lt) M assi = par_silhouette M' assi /\
  medoid_silhouette (Lt := Lt) M meds samples = medoid_silhouette M' meds samples.
Proof.
  intros h h' hl hs hin. pose proof (restrict_matrix n D) as h0.
  pose proof (silhouette_oks (Lt := Lt) h0 assi samples hl) as e1. apply oks_inv in e1 as (r1 & e1 & _).
  destruct (medoid_silhouette_shape (Lt := Lt) _ n D meds samples h0 hs hin) as (r3 & e3).
  apply not_poison in e1, e3. split; [|split].
  - apply (adapter_same (fun M => silhouette M assi samples)) with n D; auto. intros. apply rle_silhouette; auto.
  - apply (adapter_same (fun M => par_silhouette M assi)) with n D; auto; [intros; apply rle_par_silhouette; auto|].
    unfold par_silhouette. cbn [restrict msquare bind assertb].
    assert (e2 : oks (mapM (fun '(i, ai) => buf <- sil_buf (Lt := Lt) (restrict n D) assi i;; sil_of_buf buf ai) (enum assi)) (fun _ => True)).
    { eapply oks_mono; [apply mapM_enum with (R := fun _ _ _ => True)|auto].
      intros i a ha. pose proof (nth_error_lt _ _ ha) as hi.
      apply (sil_value_oks (Lt := Lt) h0 assi i hl ha). }
    apply oks_inv in e2 as (x & -> & _). cbn [bind]. discriminate.
  - apply (adapter_same (fun M => medoid_silhouette M meds samples)) with n D; auto. intros. apply rle_medoid_silhouette; auto.
Qed.
Print Assumptions C38_silhouettes.

(** PAMSIL: equal results, and equal panics. *)
Theorem C38_pamsil {Nt Lt : Type} `{HLL : LossLaws Nt Lt} `{HDL : !DivLaws Nt Lt} (M M' : Mat Nt) n D k med maxiter :
  diss_matrix M n D -> diss_matrix M' n D -> sizes n k -> 2 <= k -> medoids n k med ->
  pamsil (Lt := Lt) M k maxiter = pamsil M' k maxiter /\
  pamsil_swap (Lt := Lt) M med maxiter = pamsil_swap M' med maxiter.
Proof.
  intros h h' hs hk hmed. assert (h0 : diss_matrix (restrict n D) n D) by (split; [apply restrict_matrix|apply h]).
  destruct (C36_pamsil_consistent (Lt := Lt) _ n D k maxiter h0 hs hk) as (r & _ & _ & e1 & _). apply not_poison in e1.
  split.
  - apply (adapter_same (fun M => pamsil M k maxiter)) with n D; auto; [|apply h|apply h']. intros. apply rle_pamsil; auto.
  - apply (adapter_same (fun M => pamsil_swap M med maxiter)) with n D; auto; [|apply h|apply h'|].
    + intros. apply rle_pamsil_swap; auto.
    + destruct hmed as (hl & hnd & hin). subst k.
      pose proof (assign_first (Lt := Lt) h0 hs (conj eq_refl (conj hnd hin))) as ha.
      apply oks_inv in ha as (p & _ & ha).
      destruct (C34_pamsil_swap_returns (Lt := Lt) _ n D med maxiter _ h0 hs hk (conj eq_refl (conj hnd hin)) ha)
        as [(x & ->)|(-> & _)]; discriminate.
Qed.
Print Assumptions C38_pamsil.

(** concrete pairs of adapters: a triangle and an array, binary64 with a NaN *)
Definition ar4 : Array2 f64 := mkArray2 4 4
  [fz 0; fz 1; fz 2; fnan; fz 1; fz 0; fz 3; fz 5; fz 2; fz 3; fz 0; fz 6; fnan; fz 5; fz 6; fz 0].
Lemma lt4_matrix : is_matrix (mat_of_lt true lt4) 4 (lt_entry lt4).
Proof. apply lt_matrix; [reflexivity|lia|discriminate|reflexivity]. Qed.
Lemma ar4_matrix : is_matrix (mat_of_array2 ar4) 4 (lt_entry lt4).
Proof.
  split; [reflexivity|]. split; [reflexivity|].
  intros x y hx hy. do 4 (destruct x as [|x]; [do 4 (destruct y as [|y]; [reflexivity|]); lia|]). lia.
Qed.
Definition C38_case := C38_pam_family (Lt := f64) (mat_of_lt true lt4) (mat_of_array2 ar4) 4 (lt_entry lt4) [3; 1; 3] 10
  [2; 0] (mkOracle (RSplit 2 RSeq RSeq) (fun _ _ => mkSched 2 [1; 0]) (fun _ _ => RSeq))
  lt4_matrix ar4_matrix s43 i43 (fun j h => ltac:(simpl in h; lia)) eq_refl.
Definition C38_build_case := C38_build (Lt := f64) (mat_of_lt true lt4) (mat_of_array2 ar4) 4 (lt_entry lt4) 3 10
  lt4_matrix ar4_matrix s43 eq_refl eq_refl.
Definition C38_msc_case := C38_msc (Lt := f64) (mat_of_lt true lt4) (mat_of_array2 ar4) 4 (lt_entry lt4) [3; 1; 3] 1 10
  lt4_matrix ar4_matrix s43 i43 eq_refl.
Definition C38_silhouettes_case := C38_silhouettes (Lt := f64) (mat_of_lt true lt4) (mat_of_array2 ar4) 4 (lt_entry lt4)
  [0; 1; 1; 0] [3; 1; 3] true lt4_matrix ar4_matrix (le_n 4) s43 i43.
Definition lt3 : LowerTriangle Z := mkLT 3 [1; 2; 3]%Z.
Lemma lt3_diss c : diss_matrix (mat_of_lt c lt3) 3 (lt_entry lt3).
Proof.
  split; [apply lt_matrix; [reflexivity|lia|discriminate|reflexivity]|]. split.
  - intros x hx. unfold lt_entry. rewrite Nat.compare_refl. reflexivity.
  - intros x y hx hy. split; [exact I|].
    do 3 (destruct x as [|x]; [do 3 (destruct y as [|y]; [apply Qle_bool_iff; reflexivity|]); lia|]). lia.
Qed.
Definition C38_pamsil_case := C38_pamsil (Lt := Q) (mat_of_lt true lt3) (mat_of_lt false lt3) 3 (lt_entry lt3) 2 [0; 2] 10
  (lt3_diss true) (lt3_diss false) (sizes_ok 3 2 eq_refl) (le_n 2) (meds_ok 3 2 [0; 2] eq_refl).

(** C39.  first_k gives valid initial medoids. *)
Theorem C39_first_k (n k : nat) : k <= n -> medoids n k (first_k k) /\ (forall i, i < k -> nth i (first_k k) n = i).
Proof.
  intros h. unfold first_k. split; [split; [apply seq_length|split; [apply seq_NoDup|]]|].
  - intros m hm. apply in_seq in hm. lia.
  - intros i hi. rewrite seq_nth; auto.
Qed.
Print Assumptions C39_first_k.
Definition C39_case := C39_first_k 5 3 (le_S _ _ (le_S _ _ (le_n 3))).

(** ... on which e.g. fasterpam works as stated in C01 to C05 *)
Theorem C39_first_k_fasterpam {Nt Lt : Type} `{HLL : LossLaws Nt Lt} (M : Mat Nt) n D k maxiter :
  diss_matrix M n D -> sizes n k -> 2 <= k ->
  exists r : pam_result Lt, fasterpam M (first_k k) maxiter = Ok r /\ medoids n k (r_med r) /\
    (forall o, o < n -> nearest (vals D) o (r_med r) (nth o (r_assi r) 0)) /\
    (vL (r_loss r) == tdev (vals D) n (r_med r))%Q /\
    (vL (r_loss r) <= tdev (vals D) n (first_k k))%Q.
Proof.
  intros hd hs hk2. assert (hk : k <= n) by (destruct hs; lia).
  pose proof (proj1 (C39_first_k n k hk)) as hm. pose proof (proj1 hm) as hl.
  rewrite <- hl in hs, hk2, hm at 1.
  destruct (fasterpam_all (Lt := Lt) hd maxiter hs hm) as (r & e & h). exists r.
  split; [exact e|]. split; [rewrite <- hl; exact (fa_medoids h)|]. split; [exact (fa_nearest h)|].
  rewrite (fa_loss h (or_introl hk2)). split; [reflexivity|exact (fa_obj h (or_introl hk2))].
Qed.
Print Assumptions C39_first_k_fasterpam.
Definition C39_fasterpam_case := C39_first_k_fasterpam (Lt := Q) m6 6 d6 3 10 m6_diss s63 le23.
