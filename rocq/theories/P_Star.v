(** P_Star.v -- property C98: on metric data the clusters are star-shaped, and those of points on a line are intervals.
    Every theorem is followed by a concrete input which meets its hypotheses. *)
From Coq Require Import ZArith QArith Qabs Lqa Lia Permutation.
From Coq.Floats Require Import SpecFloat.
From Verif Require Import Base Num M_Mat M_Util M_Fasterpam M_Pam M_Alternating M_ParFasterpam M_Msc M_Pammedsil Inst Hoare Spec SpecFacts Laws
  PamShape PamExact Ex P_Fasterpam P_Pam P_Msc P_Approx P_Float.
Open Scope nat_scope.

(** Whatever lies on a shortest way from an object to its medoid is at least as close to this medoid as to any other one, and
    is in the same cluster unless another medoid is equally close. *)
Definition star_shaped (v : diss) (n : nat) (med assi : list nat) : Prop :=
  forall x y, x < n -> y < n -> let m := nth (nth x assi 0) med 0 in
    (v x y + v y m == v x m)%Q ->
    (forall m', In m' med -> (v y m <= v y m')%Q) /\
    ((forall m', In m' med -> m' <> m -> ~ (v y m' == v y m)%Q) -> nth y assi 0 = nth x assi 0).

(** [pos]: the places on a line.  Between two objects of a cluster there are only objects which are at least as close to its medoid
    as to any other one. *)
Definition on_line (n : nat) (v : diss) (pos : nat -> Q) : Prop :=
  forall x y, x < n -> y < n -> (v x y == Qabs (pos x - pos y))%Q.
Definition intervals (n : nat) (v : diss) (pos : nat -> Q) (med assi : list nat) : Prop :=
  forall x y z, x < n -> y < n -> z < n -> nth x assi 0 = nth z assi 0 -> (pos x <= pos y)%Q -> (pos y <= pos z)%Q ->
    let m := nth (nth x assi 0) med 0 in
    (forall m', In m' med -> (v y m <= v y m')%Q) /\
    ((forall m', In m' med -> m' <> m -> ~ (v y m' == v y m)%Q) -> nth y assi 0 = nth x assi 0).

Definition star_and_intervals {Lt} (v : diss) (n : nat) (r : pam_result Lt) : Prop :=
  (metric n v -> star_shaped v n (r_med r) (r_assi r)) /\
  (forall pos, on_line n v pos -> intervals n v pos (r_med r) (r_assi r)).

(** an object whose nearest medoid is unique is assigned to it *)
Lemma assigned_unique v n med assi y c : medoids n (length med) med -> nearest v y med (nth y assi 0) -> c < length med ->
  (forall m', In m' med -> (v y (nth c med 0%nat) <= v y m')%Q) ->
  (forall m', In m' med -> m' <> nth c med 0 -> ~ (v y m' == v y (nth c med 0%nat))%Q) -> nth y assi 0 = c.
Proof.
  intros (_ & hnd & _) (h1 & h2) hc hmin huniq.
  assert (hin : In (nth (nth y assi 0) med 0) med) by (apply nth_In; exact h1).
  destruct (Nat.eq_dec (nth (nth y assi 0) med 0) (nth c med 0)) as [e|hne].
  - apply (proj1 (NoDup_nth med 0) hnd); auto.
  - exfalso. apply (huniq _ hin hne). apply Qle_antisym; [apply h2; exact hc|apply hmin; exact hin].
Qed.

Lemma nearest_star v n med assi : medoids n (length med) med -> (forall o, o < n -> nearest v o med (nth o assi 0)) ->
  metric n v -> star_shaped v n med assi.
Proof.
  intros hm hne (_ & _ & htri) x y hx hy m hbt. destruct (hne x hx) as (h1 & h2).
  assert (hmin : forall m', In m' med -> (v y m <= v y m')%Q).
  { intros m' hm'. destruct (In_nth _ _ 0 hm') as (c & hc & ec). specialize (h2 c hc). rewrite ec in h2. fold m in h2.
    pose proof (htri x y m' hx hy (proj2 (proj2 hm) m' hm')). lra. }
  split; [exact hmin|]. intros hu. apply (assigned_unique v n med assi y (nth x assi 0) hm (hne y hy) h1 hmin hu).
Qed.

Lemma line_metric n v pos : dissimilarity n v -> on_line n v pos -> metric n v.
Proof.
  intros hv hl. split; [exact hv|]. split.
  - intros x y hx hy. rewrite (hl x y hx hy), (hl y x hy hx). rewrite (Qabs_Qminus (pos x) (pos y)). reflexivity.
  - intros x y z hx hy hz. rewrite (hl x z hx hz), (hl x y hx hy), (hl y z hy hz).
    setoid_replace (pos x - pos z)%Q with ((pos x - pos y) + (pos y - pos z))%Q by ring. apply Qabs_triangle.
Qed.

Lemma nearest_intervals v n med assi pos : dissimilarity n v -> medoids n (length med) med ->
  (forall o, o < n -> nearest v o med (nth o assi 0)) -> on_line n v pos -> intervals n v pos med assi.
Proof.
  intros hv hm hne hl x y z hx hy hz e hxy hyz m. pose proof (nearest_star v n med assi hm hne (line_metric n v pos hv hl)) as hs.
  destruct (hne x hx) as (h1 & _).
  assert (hmn : m < n) by (apply hm, nth_In; exact h1).
  assert (A : forall a b, (0 <= a - b)%Q -> (Qabs (a - b) == a - b)%Q) by (intros; apply Qabs_pos; assumption).
  assert (B : forall a b, (a - b <= 0)%Q -> (Qabs (a - b) == - (a - b))%Q) by (intros; apply Qabs_neg; assumption).
  destruct (Qlt_le_dec (pos y) (pos m)) as [hlt|hge].
  - apply (hs x y hx hy). fold m. rewrite (hl x y hx hy), (hl y m hy hmn), (hl x m hx hmn).
    rewrite !B by lra. ring.
  - unfold m. rewrite e. apply (hs z y hz hy). rewrite <- e. fold m. rewrite (hl z y hz hy), (hl y m hy hmn), (hl z m hz hmn).
    rewrite !A by lra. ring.
Qed.

Lemma assigned_star {Lt} v n k (r : pam_result Lt) : dissimilarity n v -> medoids n k (r_med r) ->
  (forall o, o < n -> nearest v o (r_med r) (nth o (r_assi r) 0)) -> star_and_intervals v n r.
Proof.
  intros hv hm hne. assert (hm' : medoids n (length (r_med r)) (r_med r)) by (destruct hm as (h1 & h2 & h3); split; auto).
  split; [intros hme; apply nearest_star; auto|]. intros pos hl. apply nearest_intervals; auto.
Qed.

(** C98, whatever the arithmetic of the loss type, stopped at any limit. *)
Theorem C98_pam_family {Nt Lt : Type} `{HO : OrdLaws Nt} `{HL : NumL Lt} `{HF : FromN Nt Lt} (M : Mat Nt) n D med maxiter order orc :
  diss_matrix M n D -> sizes n (length med) -> medoids n (length med) med -> (forall j, In j order -> j < n) ->
  lfrom (nzero : Nt) = (lzero : Lt) -> lltb (lzero : Lt) lzero = false ->
  exists r1 r2 r3 r4 r5 r6 : pam_result Lt,
    fasterpam M med maxiter = Ok r1 /\ rand_fasterpam M order med maxiter = Ok r2 /\ par_fasterpam M orc order med maxiter = Ok r3 /\
    fastpam1 M med maxiter = Ok r4 /\ pam_swap M med maxiter = Ok r5 /\ alternating M med maxiter = Ok r6 /\
    forall r, In r [r1; r2; r3; r4; r5; r6] -> star_and_intervals (vals D) n r.
Proof.
  intros hd hs hm ho hz hi. pose proof (proj2 (proj1 (emb_vals hd))) as hv.
  destruct (C40_fasterpam (Lt := Lt) M n D med maxiter order hd hs hm ho) as (r1 & r2 & e1 & e2 & w1 & w2 & _).
  destruct (C40_par_fasterpam (Lt := Lt) M n D med maxiter order orc hd hs hm ho) as (r3 & e3 & w3 & _).
  destruct (C40_fastpam1_pam (Lt := Lt) M n D med maxiter hd hs hm hz hi) as (r4 & r5 & e4 & e5 & w4 & w5 & _).
  destruct (C40_alternating (Lt := Lt) M n D med maxiter hd hs hm) as (r6 & e6 & w6 & _).
  exists r1, r2, r3, r4, r5, r6. split; [exact e1|]. split; [exact e2|]. split; [exact e3|]. split; [exact e4|]. split; [exact e5|].
  split; [exact e6|].
  assert (G : forall r : pam_result Lt, well_assigned n (length med) (vals D) r -> star_and_intervals (vals D) n r).
  { intros r (q1 & _ & q3 & _). apply assigned_star with (k := length med); auto. }
  intros r [<-|[<-|[<-|[<-|[<-|[<-|[]]]]]]]; apply G; assumption.
Qed.
Print Assumptions C98_pam_family.
(** five points on a line; integer dissimilarities, binary64 losses *)
Definition rows_ln : list (list Z) :=
  [[0; 1; 2; 3; 10]; [1; 0; 1; 2; 9]; [2; 1; 0; 1; 8]; [3; 2; 1; 0; 7]; [10; 9; 8; 7; 0]]%Z.
Definition m_ln : Mat Z := mat_of_rows rows_ln.
Lemma ln_diss : diss_matrix m_ln 5 (entries rows_ln). Proof. apply rows_diss; [lia|reflexivity]. Qed.
Lemma ln_line : on_line 5 (vals (entries rows_ln)) (fun x => nth x [0; 1; 2; 3; 10]%Q 0%Q).
Proof. intros x y hx hy. do 5 (destruct x as [|x]; [do 5 (destruct y as [|y]; [vm_compute; reflexivity|]); lia|]). lia. Qed.
Definition C98_case := C98_pam_family (Lt := f64) m_ln 5 (entries rows_ln) [0; 1] 10 [3; 0; 2] (P_Float.orc2 [1; 0]) ln_diss s52 k52
  (fun j h => ltac:(simpl in h; lia)) eq_refl eq_refl.
(** not every partition is star-shaped, so this is about the algorithms *)
Example C98_not_always : ~ intervals 5 (vals (entries rows_ln)) (fun x => nth x [0; 1; 2; 3; 10]%Q 0%Q) [0; 2] [0; 0; 1; 0; 1].
Proof.
  intros h. destruct (h 0 2 3 ltac:(lia) ltac:(lia) ltac:(lia) eq_refl ltac:(vm_compute; discriminate) ltac:(vm_compute; discriminate)) as [h1 _].
  specialize (h1 2 ltac:(simpl; auto)). vm_compute in h1. apply h1. reflexivity.
Qed.

(** C98, medoid silhouette *)
Theorem C98_msc_family {Nt Lt : Type} `{HO : OrdLaws Nt} `{HL : NumL Lt} `{HF : FromN Nt Lt} (M : Mat Nt) n D med maxiter :
  diss_matrix M n D -> sizes n (length med) -> medoids n (length med) med -> 2 <= length med ->
  lltb (lzero : Lt) lzero = false -> lltb (lzero : Lt) (ladd lzero lzero) = false ->
  (exists r : pam_result Lt, pammedsil_swap M med maxiter = Ok r /\ star_and_intervals (vals D) n r) /\
  (3 <= length med \/ (forall i j, i < n -> j < n -> i <> j -> (0 < vals D i j)%Q) ->
   exists r1 r2 : pam_result Lt, fastermsc M med maxiter = Ok r1 /\ fastmsc M med maxiter = Ok r2 /\
     star_and_intervals (vals D) n r1 /\ star_and_intervals (vals D) n r2).
Proof.
  intros hd hs hm hk hi hz. pose proof (proj2 (proj1 (emb_vals hd))) as hv.
  assert (G : forall r : pam_result Lt, well_assigned n (length med) (vals D) r -> star_and_intervals (vals D) n r).
  { intros r (q1 & _ & q3 & _). apply assigned_star with (k := length med); auto. }
  destruct (C40_medoid_silhouette (Lt := Lt) M n D med maxiter hd hs hm hk hi hz) as ((r & e & w) & h). split.
  - exists r. split; [exact e|]. apply G. exact w.
  - intros hc. destruct (h hc) as (r1 & r2 & e1 & e2 & w1 & w2). exists r1, r2. split; [exact e1|]. split; [exact e2|].
    split; apply G; assumption.
Qed.
Print Assumptions C98_msc_family.
Definition C98_case_msc := C98_msc_family (Lt := f64) m_ln 5 (entries rows_ln) [0; 1; 2] 10 ln_diss s53 k53 (le_S _ _ (le_n 2)) eq_refl eq_refl.
