(** P_IntSil.v -- property C84: silhouettes with an integer loss type.

    [silhouette], [par_silhouette], [medoid_silhouette] and [pamsil] do not ask for a floating point
    loss type: [i64] is accepted (silhouette.rs:41-48, par_silhouette.rs:44-52,
    silhouette.rs:135-142, pamsil.rs:82-91), and the
    documentation of pamsil mentions it.  The divisions then truncate.  The model is run with
    [Lt = Z] (Inst.v, [ldiv] is [Z.quot]; machine integers: P_IntSilMachine.v).
    Every theorem is followed by a concrete input which meets its hypotheses. *)
From Coq Require Import ZArith QArith Qminmax Lqa Lia Permutation.
From Verif Require Import Base Num M_Mat M_Util M_Fasterpam M_Pam M_Alternating M_Silhouette M_Pamsil Inst Hoare Spec SpecFacts
  Laws SortFacts PamShape PamExact Reference LocalSearch FpFacts ChooseFacts BuildFacts AltFacts SilFacts PamsilFacts Ex P_Silhouette.
Open Scope nat_scope.

(** ** Specification, on integers only *)
Definition sumZ (f : nat -> Z) (l : list nat) : Z := fold_right (fun x s => f x + s)%Z 0%Z l.

(** the mean dissimilarity of [i] to the other objects of label [c] is below 1 (or there are none) *)
Definition small (D : nat -> nat -> Z) (assi : list nat) (i c : nat) : bool :=
  (sumZ (D i) (others assi i c) <? Z.max 1 (Z.of_nat (length (others assi i c))))%Z.

(** the labels other than [c], up to the largest one *)
Definition other_labels (assi : list nat) (c : nat) : list nat :=
  filter (fun x => negb (x =? c)) (seq 0 (S (list_max assi))).

(** what is left of the silhouette of an object *)
Definition int_sample (D : nat -> nat -> Z) (assi : list nat) (i : nat) : Z :=
  let own := nth i assi 0 in
  match others assi i own, other_labels assi own with
  | [], _ => 0%Z
  | _, [] => 0%Z
  | _, rest => ((if existsb (small D assi i) rest then 0 else 1) - (if small D assi i own then 0 else 1))%Z
  end.

(** ** Lemmas *)
Lemma width_list_max l : l <> [] -> width l = S (list_max l).
Proof.
  induction l as [|a l IH]; [congruence|]. intros _. destruct l as [|b l].
  - simpl. lia.
  - specialize (IH ltac:(congruence)). change (width (a :: b :: l)) with (Nat.max (S a) (width (b :: l))).
    change (list_max (a :: b :: l)) with (Nat.max a (list_max (b :: l))). rewrite IH. lia.
Qed.

Lemma quot_frac x y : (0 <= x -> 0 < y -> Z.quot x y = 0 <-> x < y)%Z.
Proof.
  intros hx hy. rewrite Z.quot_div_nonneg by lia. split; intros h.
  - apply Z.div_small_iff in h; lia.
  - apply Z.div_small. lia.
Qed.

Lemma quot_one x y : (0 < y -> y <= x < 2 * y -> Z.quot x y = 1)%Z.
Proof. intros hy h. rewrite Z.quot_div_nonneg by lia. symmetry. apply Z.div_unique with (x - y)%Z; lia. Qed.

Lemma ratio_sgn (a b : Z) : (0 <= a -> 0 <= b ->
  checked_div (b - a) (if b <? a then a else b) = (if b =? 0 then 0 else 1) - (if a =? 0 then 0 else 1))%Z.
Proof.
  intros ha hb. unfold checked_div. cbn [lltb NumL_Z ldiv lzero].
  destruct (Z.ltb_spec b a), (Z.eqb_spec a 0), (Z.eqb_spec b 0); try lia.
  - subst b. destruct (Z.ltb_spec 0 a); [|lia]. replace (0 - a)%Z with (- a)%Z by lia.
    rewrite Z.quot_opp_l, Z.quot_same by lia. reflexivity.
  - destruct (Z.ltb_spec 0 a); [|lia]. replace (b - a)%Z with (- (a - b))%Z by lia.
    rewrite Z.quot_opp_l by lia. rewrite (proj2 (quot_frac (a - b) a ltac:(lia) ltac:(lia))) by lia. reflexivity.
  - subst. reflexivity.
  - subst a. destruct (Z.ltb_spec 0 b); [|lia]. rewrite Z.sub_0_r, Z.quot_same by lia. reflexivity.
  - destruct (Z.ltb_spec 0 b); [|lia]. rewrite (proj2 (quot_frac (b - a) b ltac:(lia) ltac:(lia))) by lia. reflexivity.
Qed.

Lemma sumZ_Q f l : (inject_Z (sumZ f l) == sumQ (fun x => inject_Z (f x)) l)%Q.
Proof. induction l; simpl; [reflexivity|]. rewrite inject_Z_plus, IHl. reflexivity. Qed.

Lemma sumZ_ge f c l : (forall x, In x l -> (c <= f x)%Z) -> (c * Z.of_nat (length l) <= sumZ f l)%Z.
Proof.
  induction l as [|a l IH]; intros h; cbn [sumZ fold_right length]; [lia|].
  pose proof (h a (or_introl eq_refl)). specialize (IH (fun x hx => h x (or_intror hx))). unfold sumZ in IH. lia.
Qed.

Lemma sumZ_ext f g l : (forall x, In x l -> f x = g x) -> sumZ f l = sumZ g l.
Proof. induction l as [|a l IH]; intros h; simpl; [auto|]. rewrite h, IH; simpl; auto. intros x hx. apply h. simpl. auto. Qed.

Lemma fold_add_sum (ss : list Z) x : fold_left Z.add ss x = (x + fold_right Z.add 0 ss)%Z.
Proof. revert x. induction ss as [|y ss IH]; intros x; simpl; [lia|]. rewrite IH. lia. Qed.

Lemma sumZ_map f l : fold_right Z.add 0%Z (map f l) = sumZ f l.
Proof. induction l; simpl; auto. rewrite IHl. auto. Qed.

Lemma fold_minZ (ts : list Z) t : (forall x, In x (t :: ts) -> (0 <= x)%Z) ->
  let m := fold_left (fun x y => if (y <? x)%Z then y else x) ts t in
  (0 <= m)%Z /\ (m =? 0)%Z = existsb (Z.eqb 0) (t :: ts).
Proof.
  revert t. induction ts as [|y ts IH]; intros t h; cbv zeta; cbn [fold_left].
  - split; [apply h; simpl; auto|]. cbn. rewrite Bool.orb_false_r. apply Z.eqb_sym.
  - pose proof (h t ltac:(simpl; auto)). pose proof (h y ltac:(simpl; auto)).
    destruct (IH (if (y <? t)%Z then y else t)) as [q1 q2].
    { intros x [<-|hx]; [destruct (y <? t)%Z; auto|]. apply h. simpl. auto. }
    cbv zeta in q1, q2. split; [exact q1|]. rewrite q2. cbn [existsb]. rewrite Bool.orb_assoc. f_equal.
    destruct (Z.ltb_spec y t), (Z.eqb_spec 0 y), (Z.eqb_spec 0 t); subst; cbn; auto; try lia;
      destruct (Z.eqb_spec 0 t); destruct (Z.eqb_spec 0 y); auto; lia.
Qed.

Section Int.
  Variable M : Mat Z.
  Variable n : nat.
  Variable D : nat -> nat -> Z.
  Hypothesis HD : nonneg_matrix M n D.
  Let HM : is_matrix M n D := proj1 HD.

  Lemma D_pos x y : x < n -> y < n -> (0 <= D x y)%Z.
  Proof. intros hx hy. destruct (proj2 HD x y hx hy) as [_ h]. unfold vals in h. cbn in h. change 0%Q with (inject_Z 0) in h. rewrite <- Zle_Qle in h. exact h. Qed.

  Definition meanZ (assi : list nat) (i c : nat) : Z :=
    buf_mean (length (others assi i c), sumZ (D i) (others assi i c)).

  Lemma sum_pos assi i c : length assi = n -> i < n -> (0 <= sumZ (D i) (others assi i c))%Z.
  Proof.
    intros hl hi. pose proof (sumZ_ge (D i) 0 (others assi i c)) as h. apply h.
    intros x hx. apply others_lt in hx. apply D_pos; lia.
  Qed.

  Lemma meanZ_small assi i c : length assi = n -> i < n ->
    (0 <= meanZ assi i c)%Z /\ (meanZ assi i c =? 0)%Z = small D assi i c.
  Proof.
    intros hl hi. pose proof (sum_pos assi i c hl hi) as hs. unfold meanZ, buf_mean, checked_div, small.
    cbn [fst snd lltb NumL_Z ldiv lzero lfrom_u32]. rewrite nat_N_Z.
    set (s := sumZ _ _) in *. set (m := length _).
    destruct (Z.ltb_spec 0 (Z.of_nat m)) as [h|h].
    - split; [apply Z.quot_pos; lia|]. rewrite Z.max_r by lia.
      pose proof (quot_frac s (Z.of_nat m) hs h) as hq.
      destruct (Z.eqb_spec (Z.quot s (Z.of_nat m)) 0), (Z.ltb_spec s (Z.of_nat m)); auto; tauto || lia.
    - split; [lia|]. rewrite Z.max_l by lia. assert (hm : m = 0) by lia.
      assert (e : s = 0%Z).
      { unfold s. subst m. apply length_zero_iff_nil in hm. rewrite hm. reflexivity. }
      rewrite e. reflexivity.
  Qed.

  Lemma sil_value_int assi i : length assi = n -> i < n -> width assi <> 1 ->
    sil_value (Lt := Z) M assi (i, nth i assi 0) = Ok (int_sample D assi i).
  Proof.
    intros hl hi hw. assert (hne : assi <> []) by (intros ->; simpl in hl; lia).
    unfold sil_value. cbn [fst snd].
    pose proof (sil_buf_ok (Lt := Z) HD assi (i := i) ltac:(lia) hi) as h.
    apply oks_inv in h as (buf & -> & h1 & h2). cbn [bind].
    assert (he : forall c, nth c buf (0, 0%Z) = (length (others assi i c), sumZ (D i) (others assi i c))).
    { intros c. destruct (h2 c) as [q1 q2]. change lzero with 0%Z in *. destruct (nth c buf (0, 0%Z)) as [x y].
      cbn [fst snd] in *. subst x. f_equal. cbn in q2. apply inject_Z_injective. rewrite q2, sumZ_Q. reflexivity. }
    assert (hown : nth i assi 0 < width assi) by (apply width_ge, nth_In; lia).
    unfold sil_of_buf. rewrite (@idx_nth _ _ _ (0, 0%Z)) by lia. rewrite he. cbn [bind fst].
    unfold int_sample, other_labels. rewrite <- width_list_max by auto.
    set (own := nth i assi 0) in *.
    destruct (others assi i own) as [|j js] eqn:eo; [reflexivity|]. rewrite <- eo.
    destruct (Nat.ltb_spec 0 (length (others assi i own))) as [hp|hp]; [|rewrite eo in hp; simpl in hp; lia].
    assert (ef : map (fun '(_, p) => buf_mean p) (filter (fun '(i0, _) => negb (i0 =? own)) (enum buf)) =
                 map (meanZ assi i) (filter (fun x => negb (x =? own)) (seq 0 (width assi)))).
    { unfold enum. rewrite (@filter_enum _ (fun c => negb (c =? own)) buf 0 (0, 0%Z)), h1, map_map. apply map_ext.
      intros c. rewrite Nat.sub_0_r, he. reflexivity. }
    rewrite ef. clear ef.
    destruct (filter (fun x => negb (x =? own)) (seq 0 (width assi))) as [|c cs] eqn:er.
    - exfalso. (* a second label exists *)
      assert (hin : In (if own =? 0 then 1 else 0) (filter (fun x => negb (x =? own)) (seq 0 (width assi)))).
      { apply filter_In. destruct (Nat.eqb_spec own 0) as [e|e]; (split; [apply in_seq|]).
        - lia.
        - rewrite e. reflexivity.
        - lia.
        - destruct own; [lia|reflexivity]. }
      rewrite er in hin. destruct hin.
    - cbn [map]. rewrite (eo : others assi i own = j :: js). rewrite <- eo.
      pose proof (fold_minZ (map (meanZ assi i) cs) (meanZ assi i c)) as hf.
      destruct hf as [q1 q2].
      { intros x hx. change (meanZ assi i c :: map (meanZ assi i) cs) with (map (meanZ assi i) (c :: cs)) in hx.
        apply in_map_iff in hx as (y & <- & _). apply meanZ_small; auto. }
      cbv zeta in q1, q2. cbn [lltb NumL_Z].
      destruct (meanZ_small assi i own hl hi) as [q3 q4]. f_equal.
      change (buf_mean (length (others assi i own), sumZ (D i) (others assi i own))) with (meanZ assi i own).
      cbn [lsub NumL_Z]. rewrite ratio_sgn by auto. rewrite q2, q4.
      replace (existsb (Z.eqb 0) (meanZ assi i c :: map (meanZ assi i) cs)) with (existsb (small D assi i) (c :: cs)).
      + destruct (existsb (small D assi i) (c :: cs)), (small D assi i own); reflexivity.
      + change (meanZ assi i c :: map (meanZ assi i) cs) with (map (meanZ assi i) (c :: cs)).
        generalize (c :: cs) as l. induction l as [|x l IH]; [reflexivity|]. cbn [existsb map]. rewrite IH. f_equal.
        rewrite <- (proj2 (meanZ_small assi i x hl hi)). apply Z.eqb_sym.
  Qed.

  Lemma one_label assi i : width assi = 1 -> int_sample D assi i = 0%Z.
  Proof.
    intros hw. assert (hne : assi <> []) by (intros ->; simpl in hw; lia).
    assert (ha : nth i assi 0 = 0).
    { destruct (Nat.lt_ge_cases i (length assi)) as [h|h]; [|apply nth_overflow; auto].
      apply (nth_In _ 0) in h. apply (proj1 (width_one assi) hw). auto. }
    unfold int_sample, other_labels. rewrite <- width_list_max, hw, ha by auto. simpl.
    destruct (others assi i 0); reflexivity.
  Qed.

  Lemma sil_values_int assi : length assi = n -> width assi <> 1 ->
    mapM (sil_value (Lt := Z) M assi) (enum assi) = Ok (map (int_sample D assi) (seq 0 n)).
  Proof.
    intros hl hw.
    pose proof (@mapM_enum _ _ (sil_value (Lt := Z) M assi) assi (fun i _ s => s = int_sample D assi i)) as h.
    apply oks_inv in h as (ss & -> & h1 & h2).
    - f_equal. apply nth_ext with 0%Z (int_sample D assi 0); [rewrite map_length, seq_length; lia|].
      intros i hi. rewrite map_nth with (d := 0), seq_nth by lia. cbn [Nat.add].
      destruct (nth_error ss i) as [s|] eqn:e.
      + destruct (nth_error assi i) as [a|] eqn:ea.
        * rewrite (nth_error_nth _ _ _ e). apply (h2 i a s); auto.
        * apply nth_error_None in ea. lia.
      + apply nth_error_None in e. lia.
    - intros i a e. pose proof (nth_error_lt _ _ e). rewrite <- (nth_error_nth _ _ 0 e).
      rewrite sil_value_int by (auto; lia). cbn. auto.
  Qed.
End Int.

(** ** C84, silhouette *)

(** The exact result, for any labels (the largest label determines the number of clusters). *)
Theorem C84_silhouette_integer (M : Mat Z) n D assi samples :
  nonneg_matrix M n D -> length assi = n -> 1 <= n -> (N.of_nat n <= 4294967295)%N ->
  silhouette (Lt := Z) M assi samples =
    Ok (Z.quot (sumZ (int_sample D assi) (seq 0 n)) (Z.of_nat n),
        if samples then map (int_sample D assi) (seq 0 n) else []) /\
  ((exists c, In c assi /\ c <> 0) ->
   par_silhouette (Lt := Z) M assi = Ok (Z.quot (sumZ (int_sample D assi) (seq 0 n)) (Z.of_nat n))).
Proof.
  intros hd hl hn hu. assert (hs : width assi <> 1 -> silhouette (Lt := Z) M assi samples =
    Ok (Z.quot (sumZ (int_sample D assi) (seq 0 n)) (Z.of_nat n),
        if samples then map (int_sample D assi) (seq 0 n) else [])).
  { intros hw. rewrite silhouette_eq by auto. rewrite (proj1 (proj2 (proj1 hd))). cbn [bind assertb].
    rewrite (sil_values_int M n D hd assi hl hw). cbn [bind]. rewrite as_u32_small, hl by lia.
    cbn [ldiv ladd lzero lfrom_u32 NumL_Z]. rewrite fold_add_sum, sumZ_map, nat_N_Z, Z.add_0_l. reflexivity. }
  destruct (Nat.eq_dec (width assi) 1) as [hw|hw].
  - split.
    + pose proof (sil_buf_oks (Lt := Z) (proj1 hd) assi (i := 0) ltac:(lia) ltac:(lia)) as hb.
      apply oks_inv in hb as (b & eb & _).
      rewrite (silhouette_one (Lt := Z) M assi samples hw (proj1 (proj2 (proj1 hd)))) by eauto.
      assert (e0 : forall l, map (int_sample D assi) l = repeat 0%Z (length l)).
      { induction l; simpl; auto. rewrite IHl, one_label; auto. }
      rewrite <- sumZ_map, e0, seq_length, hl.
      replace (fold_right Z.add 0%Z (repeat 0%Z n)) with 0%Z by (clear; induction n as [|x IH]; simpl; auto).
      rewrite Z.quot_0_l by lia. destruct samples; reflexivity.
    + intros (c & hc & hc0). exfalso. apply (proj1 (width_one assi) hw) in hc. auto.
  - split; [auto|]. intros _. rewrite (par_silhouette_eq (Lt := Z) M assi samples hw), hs by auto. reflexivity.
Qed.
Print Assumptions C84_silhouette_integer.
Definition C84_silhouette_case := C84_silhouette_integer m5 5 d5 [0; 0; 0; 1; 1] true (diss_nonneg _ _ _ m5_diss) eq_refl
  ltac:(lia) ltac:(vm_compute; discriminate).
Example C84_silhouette_value : silhouette (Lt := Z) m5 [0; 0; 0; 1; 1] true = Ok (0%Z, repeat 0%Z 5).
Proof. vm_compute. reflexivity. Qed.

Lemma int_sample_range D assi i : int_sample D assi i = (-1)%Z \/ int_sample D assi i = 0%Z \/ int_sample D assi i = 1%Z.
Proof.
  unfold int_sample. cbv zeta. destruct (others assi i (nth i assi 0)); [auto|].
  destruct (other_labels assi (nth i assi 0)) as [|c cs]; [auto|].
  destruct (existsb (small D assi i) (c :: cs)), (small D assi i (nth i assi 0)); simpl; auto.
Qed.

Lemma avg_cases (f : nat -> Z) n : (forall i, f i = (-1)%Z \/ f i = 0%Z \/ f i = 1%Z) -> 1 <= n ->
  let s := Z.quot (sumZ f (seq 0 n)) (Z.of_nat n) in
  (s = (-1)%Z \/ s = 0%Z \/ s = 1%Z) /\
  (s = 1%Z <-> forall i, i < n -> f i = 1%Z) /\ (s = (-1)%Z <-> forall i, i < n -> f i = (-1)%Z).
Proof.
  intros hf hn s.
  assert (h : forall l, (- Z.of_nat (length l) <= sumZ f l <= Z.of_nat (length l))%Z /\
            (sumZ f l = Z.of_nat (length l) <-> forall i, In i l -> f i = 1%Z) /\
            ((sumZ f l = - Z.of_nat (length l))%Z <-> forall i, In i l -> f i = (-1)%Z)).
  { induction l as [|a l IH]; [simpl; repeat split; intros; tauto || lia|].
    destruct IH as (q1 & q2 & q3). cbn [sumZ fold_right length]. fold (sumZ f l). pose proof (hf a) as ha.
    split; [lia|]. split; split.
    - intros e i [<-|hi]; [lia|]. apply q2; auto. lia.
    - intros e. rewrite (e a) by (simpl; auto). rewrite (proj2 q2); [lia|]. intros i hi. apply e. simpl. auto.
    - intros e i [<-|hi]; [lia|]. apply q3; auto. lia.
    - intros e. rewrite (e a) by (simpl; auto). rewrite (proj2 q3); [lia|]. intros i hi. apply e. simpl. auto. }
  destruct (h (seq 0 n)) as (q1 & q2 & q3). rewrite seq_length in *.
  assert (hin : forall P : nat -> Prop, (forall i, In i (seq 0 n) -> P i) <-> forall i, i < n -> P i).
  { intros P. split; intros g i hi; apply g; [apply in_seq; lia|apply in_seq in hi; lia]. }
  rewrite (hin (fun i => f i = 1%Z)) in q2. rewrite (hin (fun i => f i = (-1)%Z)) in q3.
  unfold s. set (t := sumZ f (seq 0 n)) in *. set (m := Z.of_nat n) in *. assert (hm : (1 <= m)%Z) by lia.
  destruct (Z.eq_dec t m) as [e|e].
  - rewrite e, Z.quot_same by lia. split; [auto|]. split; [tauto|]. split; [lia|]. intros g. apply q3 in g. lia.
  - destruct (Z.eq_dec t (- m)) as [e'|e'].
    + rewrite e', Z.quot_opp_l, Z.quot_same by lia. split; [auto|]. split; [|tauto].
      split; [lia|]. intros g. apply q2 in g. lia.
    + assert (e0 : Z.quot t m = 0%Z).
      { destruct (Z.le_ge_cases 0 t); [apply quot_frac; lia|].
        replace t with (- (- t))%Z by lia. rewrite Z.quot_opp_l by lia. rewrite (proj2 (quot_frac (- t) m ltac:(lia) ltac:(lia))); lia. }
      rewrite e0. split; [auto|]. split; (split; [lia|]); intros g; [apply q2 in g|apply q3 in g]; lia.
Qed.

(** The value is -1, 0 or 1, and 1 (-1) only if every single object has 1 (-1). *)
Theorem C84_silhouette_values (M : Mat Z) n D assi :
  nonneg_matrix M n D -> length assi = n -> 1 <= n -> (N.of_nat n <= 4294967295)%N ->
  exists (value : Z) vec, silhouette M assi true = Ok (value, vec) /\ length vec = n /\
    (forall i, i < n -> In (nth i vec 0%Z) [-1; 0; 1]%Z) /\ In value [-1; 0; 1]%Z /\
    (value = 1%Z <-> forall i, i < n -> nth i vec 0%Z = 1%Z) /\
    (value = (-1)%Z <-> forall i, i < n -> nth i vec 0%Z = (-1)%Z).
Proof.
  intros hd hl hn hu. destruct (C84_silhouette_integer M n D assi true hd hl hn hu) as [e _]. do 2 eexists. split; [exact e|].
  assert (hnth : forall i, i < n -> nth i (map (int_sample D assi) (seq 0 n)) 0%Z = int_sample D assi i).
  { intros i hi. rewrite nth_indep with (d' := int_sample D assi 0) by (rewrite map_length, seq_length; auto).
    rewrite map_nth, seq_nth; auto. }
  destruct (avg_cases (int_sample D assi) n (int_sample_range D assi) hn) as (q1 & q2 & q3). cbv zeta in q1, q2, q3.
  split; [rewrite map_length, seq_length; auto|].
  split; [intros i hi; rewrite hnth by auto; destruct (int_sample_range D assi i) as [->|[->| ->]]; simpl; auto|].
  split; [destruct q1 as [->|[->| ->]]; simpl; auto|].
  split; [rewrite q2|rewrite q3]; (split; intros g i hi; [rewrite hnth by auto|rewrite <- hnth by auto]; auto).
Qed.
Print Assumptions C84_silhouette_values.
Definition C84_values_case := C84_silhouette_values m5 5 d5 [0; 0; 0; 1; 1] (diss_nonneg _ _ _ m5_diss) eq_refl
  ltac:(lia) ltac:(vm_compute; discriminate).

(** different objects are at distance 1 or more *)
Definition apart (n : nat) (D : nat -> nat -> Z) : Prop := forall i j, i < n -> j < n -> i <> j -> (1 <= D i j)%Z.

Lemma others_spec assi i c j : In j (others assi i c) <-> j < length assi /\ j <> i /\ nth j assi 0 = c.
Proof.
  unfold others. rewrite filter_In, in_seq, Bool.andb_true_iff, Bool.negb_true_iff, Nat.eqb_neq, Nat.eqb_eq. lia.
Qed.

Lemma apart_small n D assi i c : apart n D -> length assi = n -> i < n ->
  small D assi i c = true <-> others assi i c = [].
Proof.
  intros ha hl hi. unfold small. rewrite Z.ltb_lt. split.
  - intros h. pose proof (sumZ_ge (D i) 1 (others assi i c)) as hs.
    assert (hx : forall x, In x (others assi i c) -> (1 <= D i x)%Z).
    { intros x hx. apply others_spec in hx as (h1 & h2 & _). apply ha; lia. }
    specialize (hs hx). apply length_zero_iff_nil. lia.
  - intros ->. reflexivity.
Qed.

Lemma apart_sample n D assi i : apart n D -> length assi = n -> i < n -> (int_sample D assi i <= 0)%Z.
Proof.
  intros ha hl hi. unfold int_sample. destruct (others assi i (nth i assi 0)) eqn:eo; [lia|].
  destruct (other_labels _ _); [lia|]. destruct (small D assi i (nth i assi 0)) eqn:es.
  - apply (apart_small n) in es; auto. congruence.
  - destruct (existsb _ _); lia.
Qed.

Lemma list_max_dense K assi : 1 <= K -> dense K assi -> S (list_max assi) = K.
Proof.
  intros hk hd. assert (hne : assi <> []) by (intros ->; assert (h : In 0 []) by (apply hd; lia); destruct h).
  rewrite <- width_list_max by auto. apply Nat.le_antisymm.
  - pose proof (width_in hne) as h. apply hd in h. lia.
  - assert (h : In (K - 1) assi) by (apply hd; lia). apply width_ge in h. lia.
Qed.

Lemma apart_dense_sample n D assi K i : apart n D -> length assi = n -> i < n -> 1 <= K -> dense K assi ->
  int_sample D assi i = 0%Z.
Proof.
  intros ha hl hi hk hde. unfold int_sample. destruct (others assi i (nth i assi 0)) eqn:eo; [auto|].
  destruct (other_labels assi (nth i assi 0)) as [|c cs] eqn:el; [auto|].
  assert (es : small D assi i (nth i assi 0) = false).
  { destruct (small _ _ _ _) eqn:es; auto. apply (apart_small n) in es; auto. congruence. }
  rewrite es. destruct (existsb (small D assi i) (c :: cs)) eqn:ee; [|reflexivity]. exfalso.
  rewrite <- el in ee. apply existsb_exists in ee as (x & hx & ee). apply (apart_small n) in ee; auto.
  unfold other_labels in hx. apply filter_In in hx as [hx hne]. apply in_seq in hx.
  rewrite (list_max_dense K assi hk hde) in hx. assert (hin : In x assi) by (apply hde; lia).
  apply In_nth with (d := 0) in hin as (j & hj & ej).
  assert (h : In j (others assi i x)).
  { apply others_spec. split; [auto|]. split; [|auto]. intros ->. rewrite ej, Nat.eqb_refl in hne. discriminate. }
  rewrite ee in h. destruct h.
Qed.

(** Integer dissimilarities of different objects are 1 or more.  Then no labelling gets a positive value,
    and every labelling without unused labels gets 0: the value does not depend on the clustering. *)
Theorem C84_silhouette_distinct (M : Mat Z) n D assi samples :
  nonneg_matrix M n D -> apart n D -> length assi = n -> 1 <= n -> (N.of_nat n <= 4294967295)%N ->
  exists (value : Z) vec, silhouette M assi samples = Ok (value, vec) /\ (value <= 0)%Z /\
    (forall i, (nth i vec 0 <= 0)%Z) /\
    forall K, 2 <= K -> dense K assi ->
      value = 0%Z /\ (forall i, nth i vec 0%Z = 0%Z) /\ par_silhouette M assi = Ok 0%Z.
Proof.
  intros hd ha hl hn hu. destruct (C84_silhouette_integer M n D assi samples hd hl hn hu) as [e ep].
  do 2 eexists. split; [exact e|].
  assert (hnth : forall i, let x := nth i (if samples then map (int_sample D assi) (seq 0 n) else []) 0%Z in
                 (exists j, j < n /\ x = int_sample D assi j) \/ x = 0%Z).
  { intros i x. unfold x. destruct samples; [|destruct i; auto].
    destruct (Nat.lt_ge_cases i n) as [h|h].
    - left. exists i. split; [auto|]. rewrite nth_indep with (d' := int_sample D assi 0) by (rewrite map_length, seq_length; auto).
      rewrite map_nth, seq_nth; auto.
    - right. apply nth_overflow. rewrite map_length, seq_length. auto. }
  split.
  { destruct (avg_cases (int_sample D assi) n (int_sample_range D assi) hn) as ([q1|[q1|q1]] & q2 & _); cbv zeta in *;
      [lia|lia|]. pose proof (proj1 q2 q1 0 ltac:(lia)) as h. pose proof (apart_sample n D assi 0 ha hl ltac:(lia)). lia. }
  split.
  { intros i. destruct (hnth i) as [(j & hj & ->)| ->]; [|lia]. apply (apart_sample n); auto. }
  intros K hk hde.
  assert (h0 : forall i, i < n -> int_sample D assi i = 0%Z) by (intros i hi; apply (apart_dense_sample n D assi K); auto; lia).
  assert (hs : sumZ (int_sample D assi) (seq 0 n) = 0%Z).
  { rewrite (sumZ_ext _ (fun _ => 0%Z)) by (intros x hx; apply in_seq in hx; apply h0; lia).
    generalize (seq 0 n). induction l; simpl; auto. }
  rewrite hs, Z.quot_0_l in * by lia. split; [auto|]. split.
  - intros i. destruct (hnth i) as [(j & hj & ->)| ->]; auto.
  - apply ep. exists 1. split; [apply hde; lia|lia].
Qed.
Print Assumptions C84_silhouette_distinct.

(** ** C84, medoid silhouette *)

(** With two or more medoids the value is 1, whatever the medoids; the single values are 0 for objects
    in the middle between their two nearest medoids, and 1 for all others. *)
Theorem C84_medoid_silhouette (M : Mat Z) n D med samples :
  diss_matrix M n D -> sizes n (length med) -> 2 <= length med -> medoids n (length med) med ->
  exists vec, medoid_silhouette (Lt := Z) M med samples = Ok (1%Z, vec) /\
    (samples = true -> length vec = n /\
     forall i, i < n -> nth i vec 0%Z = if Qeq_bool (near_ratio (vals D) i med) 1 then 0%Z else 1%Z).
Proof.
  intros hd hs hk (_ & hnd & hin). pose proof (diss_nonneg _ _ _ hd) as hnn. pose proof (proj1 hd) as hm.
  destruct hs as (hs1 & hs2 & _). unfold medoid_silhouette. rewrite (proj1 (proj2 hm)), (proj1 hm). cbn [bind assertb].
  assert (e1 : (N.of_nat n <=? u32_max)%N = true) by (apply N.leb_le; unfold u32_max; lia).
  rewrite e1. cbn [bind assertb].
  replace (length med =? 1) with false by (symmetry; apply Nat.eqb_neq; lia).
  replace (length med <=? n) with true by (symmetry; apply Nat.leb_le; lia). cbn [bind assertb].
  set (t := fun i => if Qeq_bool (near_ratio (vals D) i med) 1 then 1%Z else 0%Z).
  assert (ht : forall i, (0 <= t i <= 1)%Z) by (intros i; unfold t; destruct (Qeq_bool _ _); lia).
  assert (hstep : forall i (loss : Z) sil, i < n -> (samples = true -> i < length sil /\ nth i sil 0%Z = 1%Z) ->
    ms_step (Lt := Z) M med samples (loss, sil) i = Ok ((loss + t i)%Z, if samples then set_nth sil i (1 - t i)%Z else sil)).
  { intros i loss sil hi hsl. unfold ms_step.
    pose proof (ms_best_ok hnn med hk hin hi) as h. apply oks_inv in h as ([x y] & -> & hb). cbn [bind fst snd].
    pose proof (best_two_ratio hb) as hr. pose proof (best_two_pos hnn hin hi hb) as hp. cbn [fst snd vN OrdLaws_Z] in hr, hp.
    change 0%Q with (inject_Z 0) in hp. rewrite <- !Zle_Qle in hp.
    cbn [nis_zero NumN_Z]. destruct (Z.eqb_spec 0 x) as [ex|ex]; cbn [negb].
    - assert (et : t i = 0%Z).
      { unfold t. destruct (Qeq_bool _ _) eqn:e; auto. apply Qeq_bool_iff in e. exfalso. rewrite hr, <- ex in e.
        unfold Qdiv in e. change (inject_Z 0) with 0%Q in e. lra. }
      rewrite et, Z.add_0_r, Z.sub_0_r. destruct samples; [|reflexivity]. destruct (hsl eq_refl) as [q1 q2].
      f_equal. f_equal. clear - q1 q2. revert i q1 q2. induction sil as [|z sil IH]; intros [|i] q1 q2; simpl in *; try lia.
      + congruence.
      + f_equal. apply IH; auto. lia.
    - cbn [lfrom FromN_Z_Z ldiv lsub ladd lone NumL_Z].
      assert (hy : (0 < y)%Z) by lia.
      assert (et : Z.quot x y = t i).
      { unfold t. destruct (Qeq_bool (near_ratio (vals D) i med) 1) eqn:e.
        - apply Qeq_bool_iff in e. rewrite hr in e. assert (exy : x = y).
          { apply inject_Z_injective. assert (h0 : ~ (inject_Z y == 0)%Q).
            { change 0%Q with (inject_Z 0). intros c. apply (proj1 (inject_Z_injective _ _)) in c. lia. }
            rewrite <- (Qmult_1_l (inject_Z y)), <- e. field. auto. }
          rewrite exy. apply Z.quot_same. lia.
        - apply quot_frac; try lia. destruct (Z.eq_dec x y) as [exy|exy]; [|lia]. exfalso.
          assert (h : Qeq_bool (near_ratio (vals D) i med) 1 = true); [|congruence].
          apply Qeq_bool_iff. rewrite hr, exy. field. change 0%Q with (inject_Z 0). intros c.
          apply (proj1 (inject_Z_injective _ _)) in c. lia. }
      rewrite et. destruct samples; [|reflexivity]. destruct (hsl eq_refl) as [q1 _]. rewrite upd_ok by auto. reflexivity. }
  assert (hl : oks (foldM (ms_step (Lt := Z) M med samples) (seq 0 n) (0%Z, repeat 1%Z (if samples then n else 0)))
    (fun p => fst p = sumZ t (seq 0 n) /\ (samples = true -> length (snd p) = n /\ forall i, i < n -> nth i (snd p) 0%Z = (1 - t i)%Z))).
  { eapply oks_mono.
    - apply foldM_seq with (I := fun u (p : Z * list Z) => fst p = sumZ t (seq 0 u) /\
        (samples = true -> length (snd p) = n /\ forall i, i < n -> nth i (snd p) 0%Z = if i <? u then (1 - t i)%Z else 1%Z)).
      + split; [reflexivity|]. intros ->. cbn [snd]. split; [apply repeat_length|]. intros i hi.
        rewrite nth_indep with (d' := 1%Z) by (rewrite repeat_length; auto). rewrite nth_repeat. reflexivity.
      + intros i [loss sil] hi (q1 & q2). cbn [fst snd] in *. rewrite hstep; auto.
        * cbn [oks fst snd]. split.
          { rewrite q1, seq_S. clear. cbn [Nat.add]. generalize (seq 0 i). induction l as [|a l IH]; cbn [sumZ fold_right app].
            - lia.
            - fold (sumZ t l). fold (sumZ t (l ++ [i])). lia. }
          intros ->. destruct (q2 eq_refl) as [q3 q4]. rewrite length_set_nth. split; [auto|]. intros j hj.
          rewrite nth_set_nth by lia. destruct (Nat.eqb_spec j i) as [->|hji].
          -- replace (i <? S i) with true by (symmetry; apply Nat.ltb_lt; lia). reflexivity.
          -- rewrite q4 by auto. destruct (Nat.ltb_spec j i), (Nat.ltb_spec j (S i)); auto; lia.
        * intros ->. destruct (q2 eq_refl) as [q3 q4]. split; [lia|]. rewrite q4 by auto. rewrite Nat.ltb_irrefl. reflexivity.
    - intros [loss sil] [q1 q2]. cbn [fst snd] in *. split; [auto|]. intros h. destruct (q2 h) as [q3 q4]. split; [auto|].
      intros i hi. rewrite q4 by auto. destruct (Nat.ltb_spec i n); [auto|lia]. }
  apply oks_inv in hl as ([loss sil] & e & q1 & q2). cbn [fst snd] in *. change lzero with 0%Z. change lone with 1%Z. rewrite e. cbn [bind].
  assert (hlt : (0 <= loss < Z.of_nat n)%Z).
  { destruct med as [|m med']; [simpl in hk; lia|]. assert (hm0 : m < n) by (apply hin; simpl; auto).
    assert (tm : t m = 0%Z).
    { unfold t. destruct (Qeq_bool (near_ratio (vals D) m (m :: med')) 1) eqn:ee; auto. apply Qeq_bool_iff in ee. exfalso.
      pose proof (ms_best_ok hnn (m :: med') hk hin hm0) as h. apply oks_inv in h as ([x y] & _ & hb).
      pose proof (best_two_ratio hb) as hr. pose proof (best_two_pos hnn hin hm0 hb) as hp. destruct hb as (_ & _ & rest & hpm & _ & hle).
      cbn [fst snd vN OrdLaws_Z] in *. rewrite firstn_all in hpm.
      assert (hin0 : In (inject_Z 0) (inject_Z x :: inject_Z y :: rest)).
      { apply (Permutation_in _ hpm). cbn [map]. left. unfold vals. rewrite (proj1 (proj2 hd)) by auto. reflexivity. }
      assert (hx0 : (inject_Z x == 0)%Q).
      { destruct hin0 as [h|[h|h]].
        - rewrite h. reflexivity.
        - rewrite h in hp. change (inject_Z 0) with 0%Q in hp. lra.
        - apply hle in h. change (inject_Z 0) with 0%Q in h. lra. }
      rewrite hr, hx0 in ee. unfold Qdiv in ee. lra. }
    subst loss. split.
    - pose proof (sumZ_ge t 0 (seq 0 n) (fun x _ => proj1 (ht x))). lia.
    - assert (hg : forall l, (sumZ t l <= Z.of_nat (length l))%Z /\ (In m l -> (sumZ t l < Z.of_nat (length l))%Z)).
      { induction l as [|a l [IH1 IH2]]; cbn [sumZ fold_right length In]; [split; [lia|tauto]|]. fold (sumZ t l).
        pose proof (ht a). split; [lia|]. intros [->|h]; [lia|]. specialize (IH2 h). lia. }
      destruct (hg (seq 0 n)) as [_ h]. rewrite seq_length in h. apply h. apply in_seq. lia. }
  exists sil. split.
  - cbn [lsub ldiv lfrom_u32 NumL_Z]. rewrite as_u32_small by lia. rewrite nat_N_Z.
    rewrite (proj2 (quot_frac loss (Z.of_nat n) ltac:(lia) ltac:(lia))) by lia. reflexivity.
  - intros h. destruct (q2 h) as [q3 q4]. split; [auto|]. intros i hi. rewrite q4 by auto. unfold t. destruct (Qeq_bool _ _); reflexivity.
Qed.
Print Assumptions C84_medoid_silhouette.
Definition C84_medoid_case := C84_medoid_silhouette m6 6 d6 [0; 1; 3] true m6_diss s63 (le_S _ _ (le_n 2)) k63.

(** ** C84, pamsil *)

Lemma sv_nonpos M n D k med (s : Z) : diss_matrix M n D -> apart n D -> sizes n k -> length med = k -> inr n med ->
  sv (Lt := Z) M med = Ok s -> (s <= 0)%Z.
Proof.
  intros hd ha hs hl hin e.
  destruct (sv_ok (Lt := Z) (proj1 hd) hs hl hin) as (loss & assi & s' & _ & e2 & e3 & hassi & _).
  rewrite e in e3. injection e3 as <-.
  assert (hn : 1 <= n) by (destruct hs; lia).
  destruct (C84_silhouette_distinct M n D assi false (diss_nonneg _ _ _ hd) ha hassi hn (proj1 (proj2 hs))) as (value & vec & q & hv & _).
  rewrite e2 in q. injection q as -> _. auto.
Qed.

(** The optimization of the silhouette never changes the medoids of BUILD: no swap is made, one iteration
    is counted, and the value is 0. *)
Theorem C84_pamsil_integer (M : Mat Z) n D k maxiter :
  diss_matrix M n D -> apart n D -> sizes n k -> 2 <= k ->
  exists (r : pam_result Z) (loss : Z), pamsil M k maxiter = Ok r /\
    pamsil_build_initialize (Lt := Z) M k = Ok (r_med r) /\ greedy (vals D) n (r_med r) /\
    r_loss r = 0%Z /\ r_swaps r = 0 /\ r_iter r = Nat.min 1 maxiter /\
    assign_nearest M (r_med r) = Ok (loss, r_assi r).
Proof.
  intros hd ha hs hk. pose proof (proj1 hd) as hm. assert (hn : 1 <= n /\ 1 <= k) by (destruct hs; lia). destruct hn as [hn hk1].
  pose proof (pamsil_build_ok (Lt := Z) hd hn hk1) as h. apply oks_inv in h as (meds & eb & b1 & b2 & b3 & b4 & b5).
  assert (ez : silhouette (Lt := Z) M (repeat 0 n) false = Ok (0%Z, [])).
  { destruct (C20_one_cluster (Lt := Z) M n D (repeat 0 n) false hm) as (vec & e & ->).
    - rewrite repeat_length. lia.
    - intros a h. apply repeat_spec in h. auto.
    - exact e. }
  assert (hassi : assi_ok n k (repeat 0 n)).
  { split; [apply repeat_length|]. intros o ho. rewrite nth_repeat. lia. }
  destruct (sv_ok (Lt := Z) hm hs b1 b2) as (loss & assi' & s & e1 & _).
  assert (hlv : linv M n k (mkPsl meds (repeat 0 n) 0%Z 0 0)) by (constructor; cbn [pl_med pl_assi pl_sil]; auto; left; reflexivity).
  assert (hw : exists st, whileM maxiter (pamsil_iteration M) (mkPsl meds (repeat 0 n) 0%Z 0 0) = Ok st /\
    pl_med st = meds /\ pl_sil st = 0%Z /\ pl_swaps st = 0 /\ pl_iter st = Nat.min 1 maxiter).
  { destruct maxiter as [|maxiter]; cbn [whileM]; [eexists; split; [reflexivity|]; auto|].
    pose proof (iteration_cases hm hs hlv) as h.
    destruct (pamsil_iteration M (mkPsl meds (repeat 0 n) 0%Z 0 0)) as [[st|st]|p]; cbn [bind].
    - exfalso. destruct h as (_ & _ & _ & _ & _ & _ & _ & (b & j & s' & hb & hj & es & hle) & _). cbn [pl_med] in es.
      assert (hs' : (s' <= 0)%Z).
      { apply (sv_nonpos M n D k (set_nth meds b j) s' hd ha hs); [| |auto].
        - rewrite length_set_nth. auto.
        - apply swap_inr; auto. }
      cbn in hle. apply Z.leb_gt in hle. lia.
    - destruct h as (_ & q1 & q2 & q3 & q4 & _). exists st. cbn [pl_med pl_sil pl_swaps pl_iter] in *.
      split; [auto|]. split; [auto|]. split; [auto|]. split; [auto|]. rewrite q4. simpl. auto.
    - exfalso. destruct h as (_ & h & _). cbn in h. discriminate. }
  destruct hw as (st & ew & w1 & w2 & w3 & w4).
  unfold pamsil. rewrite (check_input_ok hm hs). cbn [bind]. rewrite eb. cbn [bind]. rewrite (proj1 hm).
  unfold pamsil_optimize. rewrite b1. destruct (Nat.eqb_spec k 1); [lia|]. rewrite ez. cbn [bind]. rewrite ew. cbn [bind].
  rewrite w1, e1. cbn [bind]. eexists. exists loss. split; [reflexivity|]. cbn [r_med r_loss r_swaps r_iter r_assi]. auto 10.
Qed.
Print Assumptions C84_pamsil_integer.

Definition apartb (n : nat) (D : nat -> nat -> Z) : bool :=
  forallb (fun i => forallb (fun j => (i =? j) || (1 <=? D i j)%Z) (seq 0 n)) (seq 0 n).
Lemma apartb_ok n D : apartb n D = true -> apart n D.
Proof.
  intros h i j hi hj hij. unfold apartb in h. rewrite forallb_forall in h.
  specialize (h i ltac:(apply in_seq; lia)). rewrite forallb_forall in h. specialize (h j ltac:(apply in_seq; lia)).
  apply Bool.orb_prop in h as [h|h]; [apply Nat.eqb_eq in h; congruence|]. apply Z.leb_le in h. auto.
Qed.

Definition C84_distinct_case := C84_silhouette_distinct m5 5 d5 [0; 0; 0; 1; 1] true (diss_nonneg _ _ _ m5_diss)
  (apartb_ok 5 d5 eq_refl) eq_refl ltac:(lia) ltac:(vm_compute; discriminate).
Definition C84_pamsil_case := C84_pamsil_integer m5 5 d5 2 10 m5_diss (apartb_ok 5 d5 eq_refl) s52 (le_n 2).

(** C84, refuted: with an integer loss type, pamsil does not find a local optimum of the silhouette, not
    even of the (true) silhouette of its own start.  Here it returns the clustering [1;0;0;0;0], and one swap
    leads to a clustering with a larger silhouette, which pamsil finds with exact fractions. *)
Definition rows_int : list (list Z) :=
  [[0; 6; 9; 8; 3]; [6; 0; 1; 4; 2]; [9; 1; 0; 1; 6]; [8; 4; 1; 0; 8]; [3; 2; 6; 8; 0]]%Z.
Theorem C84_pamsil_optimal_refuted : exists (M : Mat Z) D (ri : pam_result Z) (rq : pam_result Q) (s : Q),
  diss_matrix M 5 D /\ symmetric 5 (vals D) /\ apart 5 D /\
  pamsil M 2 100 = Ok ri /\ pamsil M 2 100 = Ok rq /\ r_med rq = swap (r_med ri) 0 2 /\
  silhouette M (r_assi ri) false = Ok (s, []) /\ (s < r_loss rq)%Q /\
  (r_loss rq == sil_mean (vals D) (r_assi rq))%Q /\
  silhouette M (r_assi rq) false = Ok (r_loss ri, []) /\ silhouette M (r_assi ri) false = Ok (r_loss ri, []).
Proof.
  exists (mat_of_rows rows_int), (entries rows_int). do 3 eexists.
  split; [apply rows_diss; [lia|reflexivity]|]. split; [apply rows_sym; reflexivity|]. split; [apply apartb_ok; reflexivity|].
  split; [vm_compute; reflexivity|]. split; [vm_compute; reflexivity|]. split; [reflexivity|].
  split; [vm_compute; reflexivity|]. split; [vm_compute; reflexivity|]. split; [vm_compute; reflexivity|].
  split; vm_compute; reflexivity.
Qed.
Print Assumptions C84_pamsil_optimal_refuted.
