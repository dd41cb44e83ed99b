(** Ex.v -- concrete inputs on which the hypotheses of the theorems are met. *)
From Coq Require Import ZArith QArith Lqa Lia.
From Verif Require Import Base Num M_Mat Inst Hoare Spec Laws.
Set Implicit Arguments.
Open Scope nat_scope.

(** entries of a matrix given by rows *)
Definition entries (rows : list (list Z)) (x y : nat) : Z := nth y (nth x rows []) 0%Z.

Definition square_b (n : nat) (rows : list (list Z)) : bool :=
  (length rows =? n) && forallb (fun r => length r =? n) rows.
Definition rows_ok (n : nat) (rows : list (list Z)) : bool :=
  square_b n rows &&
  forallb (fun i => (entries rows i i =? 0)%Z) (seq 0 n) &&
  forallb (fun i => forallb (fun j => (0 <=? entries rows i j)%Z) (seq 0 n)) (seq 0 n).
Definition sym_b (n : nat) (rows : list (list Z)) : bool :=
  forallb (fun i => forallb (fun j => (entries rows i j =? entries rows j i)%Z) (seq 0 n)) (seq 0 n).
Definition meds_b (n k : nat) (med : list nat) : bool :=
  (length med =? k) && forallb (fun m => m <? n) med &&
  forallb (fun i => forallb (fun j => (i =? j) || negb (nth i med 0 =? nth j med 0)) (seq 0 k)) (seq 0 k).

Lemma forallb_seq (f : nat -> bool) n : forallb f (seq 0 n) = true -> forall i, i < n -> f i = true.
Proof. intros h i hi. rewrite forallb_forall in h. apply h. apply in_seq. lia. Qed.

Lemma concat_rows A n (rows : list (list A)) x y : (forall r, In r rows -> length r = n) ->
  x < length rows -> y < n -> nth_error (concat rows) (x * n + y) = nth_error (nth x rows []) y.
Proof.
  revert x. induction rows as [|r rows IH]; intros x h hx hy; simpl in *; [lia|].
  assert (hr : length r = n) by auto. destruct x as [|x]; simpl.
  - apply nth_error_app1. lia.
  - rewrite nth_error_app2 by lia. rewrite hr.
    replace (n + x * n + y - n) with (x * n + y) by lia. apply IH; auto. lia.
Qed.

Lemma rows_matrix n rows : 1 <= n -> square_b n rows = true -> is_matrix (mat_of_rows rows) n (entries rows).
Proof.
  intros hn h. apply andb_true_iff in h as [h1 h2]. apply Nat.eqb_eq in h1.
  rewrite forallb_forall in h2.
  assert (hl : forall r, In r rows -> length r = n) by (intros r hr; apply Nat.eqb_eq; auto).
  assert (hc : length (hd [] rows) = n).
  { destruct rows; simpl in *; [lia|]. auto. }
  split; [exact h1|]. split.
  - simpl. rewrite h1, hc, Nat.eqb_refl. auto.
  - intros x y hx hy. simpl. rewrite h1, hc.
    apply Nat.ltb_lt in hx as hx'. apply Nat.ltb_lt in hy as hy'. rewrite hx', hy'. simpl.
    apply idx_some. rewrite concat_rows by (auto; lia). unfold entries.
    apply nth_error_nth'. rewrite hl; auto. apply nth_In. lia.
Qed.

Lemma rows_diss n rows : 1 <= n -> rows_ok n rows = true -> diss_matrix (mat_of_rows rows) n (entries rows).
Proof.
  intros hn h. apply andb_true_iff in h as [h h3]. apply andb_true_iff in h as [h1 h2].
  split; [apply rows_matrix; auto|]. split.
  - intros x hx. apply Z.eqb_eq. exact (forallb_seq _ h2 hx).
  - intros x y hx hy. split; [exact I|].
    pose proof (forallb_seq _ h3 hx) as h4. pose proof (forallb_seq _ h4 hy) as h5.
    cbv beta in h5. apply Z.leb_le in h5. unfold vals. simpl. rewrite Zle_Qle in h5. exact h5.
Qed.

Lemma rows_sym n rows : sym_b n rows = true -> symmetric n (vals (entries rows)).
Proof.
  intros h i j hi hj. pose proof (forallb_seq _ h hi) as h4. pose proof (forallb_seq _ h4 hj) as h5.
  cbv beta in h5. apply Z.eqb_eq in h5. unfold vals. rewrite h5. reflexivity.
Qed.

Lemma meds_ok n k med : meds_b n k med = true -> medoids n k med.
Proof.
  intros h. apply andb_true_iff in h as [h h3]. apply andb_true_iff in h as [h1 h2].
  apply Nat.eqb_eq in h1. rewrite forallb_forall in h2. split; [auto|]. split.
  - apply (NoDup_nth med 0). intros i j hi hj e. rewrite h1 in *.
    pose proof (forallb_seq _ h3 hi) as h4. pose proof (forallb_seq _ h4 hj) as h5.
    cbv beta in h5. apply orb_true_iff in h5 as [h5|h5]; [apply Nat.eqb_eq; auto|].
    apply negb_true_iff, Nat.eqb_neq in h5. congruence.
  - intros m hm. apply Nat.ltb_lt. auto.
Qed.

Lemma sizes_ok n k : (1 <=? k) && (k <=? n) && (n <=? 1000) = true -> sizes n k.
Proof.
  intros h. apply andb_true_iff in h as [h h3]. apply andb_true_iff in h as [h1 h2].
  apply Nat.leb_le in h1, h2, h3. unfold sizes. lia.
Qed.

(** the matrix of the repository's unit tests *)
Definition rows5 : list (list Z) :=
  [[0; 1; 2; 4; 7]; [1; 0; 3; 5; 8]; [2; 3; 0; 6; 9]; [4; 5; 6; 0; 1]; [7; 8; 9; 1; 0]]%Z.
Definition m5 : Mat Z := mat_of_rows rows5.
Definition d5 := entries rows5.
Lemma m5_diss : diss_matrix m5 5 d5.
Proof. apply rows_diss; [lia|reflexivity]. Qed.
Lemma m5_sym : symmetric 5 (vals d5).
Proof. apply rows_sym. reflexivity. Qed.

(** an asymmetric matrix with duplicate points and ties *)
Definition rows6 : list (list Z) :=
  [[0; 0; 3; 3; 5; 2]; [0; 0; 4; 1; 5; 2]; [3; 2; 0; 6; 1; 1]; [3; 1; 7; 0; 2; 2];
   [5; 5; 1; 2; 0; 0]; [2; 2; 3; 3; 0; 0]]%Z.
Definition m6 : Mat Z := mat_of_rows rows6.
Definition d6 := entries rows6.
Lemma m6_diss : diss_matrix m6 6 d6.
Proof. apply rows_diss; [lia|reflexivity]. Qed.

Lemma s51 : sizes 5 1. Proof. apply sizes_ok. reflexivity. Qed.
Lemma s52 : sizes 5 2. Proof. apply sizes_ok. reflexivity. Qed.
Lemma s53 : sizes 5 3. Proof. apply sizes_ok. reflexivity. Qed.
Lemma s62 : sizes 6 2. Proof. apply sizes_ok. reflexivity. Qed.
Lemma s63 : sizes 6 3. Proof. apply sizes_ok. reflexivity. Qed.
Lemma k51 : medoids 5 1 [1]. Proof. apply meds_ok. reflexivity. Qed.
Lemma k52 : medoids 5 2 [0; 1]. Proof. apply meds_ok. reflexivity. Qed.
Lemma k53 : medoids 5 3 [0; 1; 2]. Proof. apply meds_ok. reflexivity. Qed.
Lemma k62 : medoids 6 2 [0; 1]. Proof. apply meds_ok. reflexivity. Qed.
Lemma k63 : medoids 6 3 [0; 1; 3]. Proof. apply meds_ok. reflexivity. Qed.

(** inputs for the law-free theorems: binary64 with NaN, infinity, negative and non-zero diagonal *)
Definition fnan : f64 := SpecFloat.S754_nan.
Definition finf : f64 := SpecFloat.S754_infinity false.
Definition fz (z : Z) : f64 := f64_of_Z z.
Definition rowsf : list (list f64) :=
  [[fz 0; fnan; fz (-2); fz 1]; [fz 1; fz 3; finf; fz 2]; [fnan; fz 2; fz 0; fz 7]; [fz 1; fz 1; fz 4; fnan]].
Definition mf : Mat f64 := mat_of_rows rowsf.
Definition df (x y : nat) : f64 := nth y (nth x rowsf []) fnan.
Lemma mf_matrix : is_matrix mf 4 df.
Proof.
  split; [reflexivity|]. split; [reflexivity|].
  intros x y hx hy. do 4 (destruct x as [|x]; [do 4 (destruct y as [|y]; [reflexivity|]); lia|]). lia.
Qed.
Lemma s41 : sizes 4 1. Proof. apply sizes_ok. reflexivity. Qed.
Lemma s42 : sizes 4 2. Proof. apply sizes_ok. reflexivity. Qed.
Lemma s43 : sizes 4 3. Proof. apply sizes_ok. reflexivity. Qed.
Lemma i41 : forall m, In m [2] -> m < 4. Proof. simpl. lia. Qed.
Lemma i42 : forall m, In m [0; 1] -> m < 4. Proof. simpl. lia. Qed.
Lemma i43 : forall m, In m [3; 1; 3] -> m < 4. Proof. simpl. lia. Qed.
