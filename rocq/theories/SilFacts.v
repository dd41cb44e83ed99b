(** SilFacts.v -- facts about src/silhouette.rs and src/par_silhouette.rs *)
From Coq Require Import ZArith QArith Qminmax Lqa Lia Permutation.
From Verif Require Import Base Num M_Mat M_Util M_Silhouette Hoare Spec SpecFacts Laws SortFacts.
Set Implicit Arguments.
Open Scope nat_scope.

(** [S] of the largest label *)
Fixpoint width (l : list nat) : nat :=
  match l with [] => 0 | a :: l' => Nat.max (S a) (width l') end.

Lemma width_ge l a : In a l -> a < width l.
Proof. induction l; cbn [In width]; intros h; [tauto|]. destruct h as [->|h]; [lia|]. apply IHl in h. lia. Qed.

Lemma width_in l : l <> [] -> In (pred (width l)) l.
Proof.
  induction l as [|a l IH]; [congruence|]. intros _. destruct l as [|b l].
  - simpl. auto.
  - specialize (IH ltac:(congruence)). assert (h : 0 < width (b :: l)) by (cbn [width]; lia).
    change (width (a :: b :: l)) with (Nat.max (S a) (width (b :: l))).
    destruct (Nat.max_spec (S a) (width (b :: l))) as [[_ ->]|[_ ->]]; simpl; auto.
Qed.

Lemma width_one l : width l = 1 <-> l <> [] /\ forall a, In a l -> a = 0.
Proof.
  split.
  - intros h. split; [intros ->; simpl in h; lia|]. intros a ha. apply width_ge in ha. lia.
  - intros [h1 h2]. pose proof (width_in h1) as h. apply h2 in h as h3.
    destruct l as [|a l]; [congruence|]. pose proof (@width_ge (a :: l) a (or_introl eq_refl)). lia.
Qed.

Section Shape.
  Context {Nt Lt : Type} `{HNN : NumN Nt} `{HNL : NumL Lt} `{HFN : FromN Nt Lt}.
  Variable M : Mat Nt.

  Lemma length_grow (buf : list (nat * Lt)) a : length (grow buf a) = Nat.max (length buf) (S a).
  Proof. unfold grow. rewrite app_length, repeat_length. lia. Qed.

  Lemma nth_grow (buf : list (nat * Lt)) a c : nth c (grow buf a) (0, lzero) = nth c buf (0, lzero).
  Proof.
    unfold grow. destruct (Nat.lt_ge_cases c (length buf)).
    - rewrite app_nth1; auto.
    - rewrite app_nth2, nth_repeat, nth_overflow; auto.
  Qed.

  Lemma sil_buf_len_gen i l (buf buf' : list (nat * Lt)) :
    foldM (fun buf '(j, aj) =>
             let buf := grow buf aj in
             if negb (i =? j) then
               p <- idx buf aj ;;
               d <- mget M i j ;;
               upd buf aj (S (fst p), ladd (snd p) (lfrom d))
             else Ok buf) l buf = Ok buf' ->
    length buf' = Nat.max (length buf) (width (map snd l)).
  Proof.
    revert buf. induction l as [|[j a] l IH]; intros buf h.
    - cbn in h. injection h as <-. simpl. lia.
    - cbn [foldM] in h. apply bind_ok in h as (b1 & e & h). apply IH in h. rewrite h. cbn [map snd width].
      assert (hb : length b1 = Nat.max (length buf) (S a)).
      { destruct (negb (i =? j)).
        - apply bind_ok in e as (p & _ & e). apply bind_ok in e as (d & _ & e).
          unfold upd in e. destruct (_ <? _); [|discriminate]. injection e as <-.
          rewrite length_set_nth. apply length_grow.
        - injection e as <-. apply length_grow. }
      lia.
  Qed.

  Lemma sil_buf_len assi i (buf : list (nat * Lt)) : sil_buf M assi i = Ok buf -> length buf = width assi.
  Proof. intros h. apply sil_buf_len_gen in h. rewrite map_snd_enum in h. simpl in h. exact h. Qed.

  (** ** one cluster *)
  Lemma silhouette_one assi samples : width assi = 1 ->
    msquare M = Ok true -> (exists buf, sil_buf (Lt := Lt) M assi 0 = Ok buf) ->
    silhouette (Lt := Lt) M assi samples = Ok (lzero, repeat lzero (if samples then length assi else 0)).
  Proof.
    intros hw hsq [buf e]. unfold silhouette. rewrite hsq. cbn [bind assertb].
    destruct assi as [|a assi]; [simpl in hw; lia|].
    change (enum (a :: assi)) with ((0, a) :: combine (seq 1 (length assi)) assi).
    cbn [forM sil_step]. rewrite e. cbn [bind]. rewrite (sil_buf_len _ _ e), hw. reflexivity.
  Qed.

  (** ** the sequential loop *)
  Definition sil_value (assi : list nat) (iai : nat * nat) : res Lt :=
    buf <- sil_buf M assi (fst iai) ;; sil_of_buf buf (snd iai).

  (** store the values with [samples] *)
  Fixpoint store (l : list (nat * nat)) (ss : list Lt) (vec : list Lt) : list Lt :=
    match l, ss with
    | (i, _) :: l', s :: ss' => store l' ss' (set_nth vec i s)
    | _, _ => vec
    end.

  Lemma sil_loop assi (samples : bool) l st : width assi <> 1 ->
    (samples = true -> forall i a, In (i, a) l -> i < length (sl_vec st)) ->
    sl_done st = false ->
    forM (sil_step M samples assi) l st =
      (ss <- mapM (sil_value assi) l ;;
       Ok (mkSl false (fold_left ladd ss (sl_sum st)) (if samples then store l ss (sl_vec st) else sl_vec st))).
  Proof.
    intros hw. revert st. induction l as [|[i a] l IH]; intros st hl hd.
    - destruct st as [d s v]. cbn in *. subst d. destruct samples; reflexivity.
    - cbn [forM sil_step mapM]. unfold sil_value at 1. cbn [fst snd].
      destruct (sil_buf M assi i) as [buf|p] eqn:e; cbn [bind]; [|reflexivity].
      rewrite (sil_buf_len _ _ e). apply Nat.eqb_neq in hw as hw'. rewrite hw'.
      destruct (sil_of_buf buf a) as [s|p] eqn:e2; cbn [bind]; [|reflexivity].
      assert (hup : exists vec, (if samples then upd (sl_vec st) i s else Ok (sl_vec st)) = Ok vec /\
                vec = (if samples then set_nth (sl_vec st) i s else sl_vec st)).
      { destruct samples; eauto. eexists. split; [|reflexivity]. apply upd_ok. eapply hl; simpl; auto. }
      destruct hup as (vec & -> & hv). cbn [bind]. rewrite IH.
      + cbn [sl_sum sl_vec]. rewrite hv.
        destruct (mapM (sil_value assi) l) as [ss|p] eqn:e3; cbn [bind fold_left store]; [|reflexivity].
        destruct samples; reflexivity.
      + cbn [sl_vec]. intros hs i' a' hin. rewrite hv. subst samples. rewrite length_set_nth. eapply hl; simpl; eauto.
      + reflexivity.
  Qed.

  Lemma store_enum_gen (assi : list nat) (ss vec : list Lt) s : length ss = length assi -> length vec = s + length assi ->
    store (combine (seq s (length assi)) assi) ss vec = firstn s vec ++ ss.
  Proof.
    revert ss vec s. induction assi as [|a assi IH]; intros ss vec s h1 h2; simpl in *.
    - destruct ss; [|discriminate]. rewrite app_nil_r. symmetry. apply firstn_all2. lia.
    - destruct ss as [|x ss]; [discriminate|]. simpl in h1. rewrite IH by (rewrite ?length_set_nth; lia).
      replace (firstn (S s) (set_nth vec s x)) with (firstn s vec ++ [x]); [rewrite <- app_assoc; reflexivity|].
      clear - h2. assert (hs : s < length vec) by lia. clear h2. revert vec hs.
      induction s; intros [|y vec] hs; simpl in *; try lia; auto. f_equal. apply IHs. lia.
  Qed.

  Lemma store_enum (assi : list nat) (ss vec : list Lt) : length ss = length assi -> length vec = length assi ->
    store (enum assi) ss vec = ss.
  Proof. intros h1 h2. unfold enum. rewrite store_enum_gen; auto. Qed.

  Lemma mapM_length A B (f : A -> res B) l bs : mapM f l = Ok bs -> length bs = length l.
  Proof.
    revert bs. induction l; cbn; intros bs h; [injection h as <-; auto|].
    apply bind_ok in h as (b & _ & h). apply bind_ok in h as (bs' & e & h). injection h as <-. simpl. auto.
  Qed.

  (** the whole function, when there is more than one cluster *)
  Lemma silhouette_eq assi (samples : bool) : width assi <> 1 ->
    silhouette (Lt := Lt) M assi samples =
      (sq <- msquare M ;; _ <- assertb sq P_not_square ;;
       ss <- mapM (sil_value assi) (enum assi) ;;
       Ok (ldiv (fold_left ladd ss lzero) (lfrom_u32 (as_u32 (length assi))), if samples then ss else [])).
  Proof.
    intros hw. unfold silhouette. destruct (msquare M) as [sq|p]; cbn [bind]; [|reflexivity].
    destruct (assertb sq P_not_square) as [[]|p]; cbn [bind]; [|reflexivity].
    rewrite sil_loop; auto.
    - destruct (mapM (sil_value assi) (enum assi)) as [ss|p] eqn:e; cbn [bind sl_done sl_vec sl_sum]; [|reflexivity].
      apply mapM_length in e. rewrite length_enum in e. destruct samples; cbn [negb orb].
      + rewrite store_enum, e, Nat.eqb_refl; auto. apply repeat_length.
      + reflexivity.
    - cbn [sl_vec]. intros -> i a hin. rewrite repeat_length. apply In_enum, nth_error_lt in hin. auto.
  Qed.

  Lemma par_silhouette_eq assi (samples : bool) : width assi <> 1 ->
    par_silhouette (Lt := Lt) M assi = (p <- silhouette M assi samples ;; Ok (fst p)).
  Proof.
    intros hw. rewrite silhouette_eq by auto. unfold par_silhouette.
    destruct (msquare M) as [sq|p]; cbn [bind]; [|reflexivity].
    destruct (assertb sq P_not_square) as [[]|p]; cbn [bind]; [|reflexivity].
    rewrite (@mapM_ext _ _ _ (sil_value assi)) by (intros [i a] _; reflexivity).
    destruct (mapM (sil_value assi) (enum assi)); reflexivity.
  Qed.

  (** ** no panic *)
  Variable n : nat.
  Variable D : nat -> nat -> Nt.
  Hypothesis HM : is_matrix M n D.

  Lemma sil_buf_oks assi i : length assi <= n -> i < n ->
    oks (sil_buf (Lt := Lt) M assi i) (fun buf => length buf = width assi).
  Proof.
    intros hl hi.
    assert (h : oks (sil_buf (Lt := Lt) M assi i) (fun _ => True)).
    { unfold sil_buf. apply foldM_inv; auto. intros [j a] buf hin _.
      apply In_enum, nth_error_lt in hin. destruct (negb (i =? j)); [|exact I].
      rewrite (@idx_nth _ _ _ (0, lzero)) by (rewrite length_grow; lia). cbn [bind].
      rewrite (proj2 (proj2 HM)) by lia. cbn [bind].
      rewrite upd_ok by (rewrite length_grow; lia). exact I. }
    apply oks_inv in h as (buf & e & _). rewrite e. cbn. eapply sil_buf_len; eauto.
  Qed.

  Lemma sil_value_oks assi i a : length assi <= n -> nth_error assi i = Some a ->
    oks (sil_value assi (i, a)) (fun _ => True).
  Proof.
    intros hl e. unfold sil_value. apply nth_error_lt in e as hi. cbn [fst snd].
    eapply oks_bind; [apply sil_buf_oks; auto; lia|]. intros buf hb. unfold sil_of_buf.
    rewrite (@idx_nth _ _ _ (0, lzero)) by (rewrite hb; apply width_ge; eapply nth_error_In; eauto).
    cbn [bind]. destruct (0 <? _); exact I.
  Qed.

  Lemma silhouette_oks assi samples : length assi <= n ->
    oks (silhouette (Lt := Lt) M assi samples) (fun p => length (snd p) = if samples then length assi else 0).
  Proof.
    intros hl. destruct (Nat.eq_dec (width assi) 1) as [h1|h1].
    - rewrite silhouette_one; auto.
      + cbn. apply repeat_length.
      + apply HM.
      + destruct assi as [|a assi]; [simpl in h1; lia|]. simpl in hl.
        pose proof (@sil_buf_oks (a :: assi) 0 hl ltac:(lia)) as h. apply oks_inv in h as (b & -> & _). eauto.
    - rewrite silhouette_eq by auto. rewrite (proj1 (proj2 HM)). cbn [bind assertb].
      pose proof (@mapM_enum _ _ (sil_value assi) assi (fun _ _ _ => True)) as h.
      apply oks_inv in h as (ss & -> & hs & _).
      + cbn. destruct samples; auto.
      + intros i x e. apply sil_value_oks; auto.
  Qed.
End Shape.

(** ** exact arithmetic *)
Section Exact.
  Context {Nt Lt : Type} `{HDL : DivLaws Nt Lt}.
  Variable M : Mat Nt.
  Variable n : nat.
  Variable D : nat -> nat -> Nt.
  Hypothesis HD : nonneg_matrix M n D.
  Notation v := (vals D).

  Let HM : is_matrix M n D := proj1 HD.

  Lemma sl_vL_D x y : x < n -> y < n -> (vL (lfrom (D x y)) == v x y)%Q.
  Proof. intros hx hy. apply vL_from. apply HD; auto. Qed.

  Lemma sl_fold_sum (l : list Lt) x : (vL (fold_left ladd l x) == vL x + sumQ vL l)%Q.
  Proof. revert x. induction l as [|y l IH]; intros x; simpl; [lra|]. rewrite IH, vL_add. lra. Qed.

  Lemma vL_count c : (vL (lfrom_u32 (N.of_nat c)) == inject_Z (Z.of_nat c))%Q.
  Proof. rewrite vL_u32, nat_N_Z. reflexivity. Qed.

  Lemma checked_div_ok (x y : Lt) : (0 <= vL y)%Q -> (vL (checked_div x y) == vL x / vL y)%Q.
  Proof.
    intros h. unfold checked_div. destruct (lltb lzero y) eqn:e.
    - apply lltb_spec in e. rewrite vL_zero in e. apply vL_div. lra.
    - assert (h0 : (vL y == 0)%Q).
      { destruct (Qlt_le_dec 0 (vL y)) as [c|c]; [|lra].
        rewrite <- vL_zero in c. apply lltb_spec in c. congruence. }
      rewrite h0, vL_zero. unfold Qdiv. change (/ 0)%Q with 0%Q. lra.
  Qed.

  (** the first [t] objects of cluster [c], without [i] *)
  Definition others_to (assi : list nat) (i c t : nat) : list nat :=
    filter (fun j => andb (negb (j =? i)) (nth j assi 0 =? c)) (seq 0 t).

  Definition entry_ok (i : nat) (l : list nat) (p : nat * Lt) : Prop :=
    fst p = length l /\ (vL (snd p) == sumQ (v i) l)%Q.

  Lemma sil_buf_ok assi i : length assi <= n -> i < n ->
    oks (sil_buf (Lt := Lt) M assi i) (fun buf => length buf = width assi /\
      forall c, entry_ok i (others assi i c) (nth c buf (0, lzero))).
  Proof.
    intros hl hi.
    assert (h : oks (sil_buf (Lt := Lt) M assi i) (fun buf =>
       forall c, entry_ok i (others_to assi i c (length assi)) (nth c buf (0, lzero)))).
    { unfold sil_buf. apply foldM_enum with (I := fun t (buf : list (nat * Lt)) =>
        forall c, entry_ok i (others_to assi i c t) (nth c buf (0, lzero))).
      - intros c. split; destruct c; simpl; auto; apply vL_zero.
      - intros j a buf e hb. apply nth_error_lt in e as hj. apply nth_error_nth with (d := 0) in e as ea.
        assert (hoth : forall c, others_to assi i c (S j) =
            others_to assi i c j ++ (if negb (j =? i) && (a =? c) then [j] else [])).
        { intros c. unfold others_to. rewrite seq_S, filter_app. simpl. rewrite ea.
          destruct (negb (j =? i) && (a =? c)); auto. }
        cbv zeta. rewrite (Nat.eqb_sym i j). destruct (j =? i) eqn:ej; cbn [negb].
        + cbn [oks]. intros c. rewrite hoth. simpl. rewrite app_nil_r. rewrite nth_grow. apply hb.
        + rewrite (@idx_nth _ _ _ (0, lzero)) by (rewrite length_grow; lia). cbn [bind].
          rewrite (proj2 (proj2 HM)) by lia. cbn [bind].
          rewrite upd_ok by (rewrite length_grow; lia). cbn [oks]. intros c. rewrite hoth.
          rewrite nth_set_nth by (rewrite length_grow; lia). rewrite !nth_grow.
          simpl negb. cbn [andb]. rewrite (Nat.eqb_sym c a). destruct (a =? c) eqn:ec.
          * apply Nat.eqb_eq in ec as <-. destruct (hb a) as [q1 q2]. split; cbn [fst snd].
            -- rewrite app_length, q1. simpl. lia.
            -- rewrite vL_add, q2, sumQ_app, sl_vL_D by lia. simpl. lra.
          * rewrite app_nil_r. apply hb. }
    apply oks_inv in h as (buf & e & h). rewrite e. cbn [oks]. split; [eapply sil_buf_len; eauto|exact h].
  Qed.

  Lemma others_lt assi i c j : In j (others assi i c) -> j < length assi.
  Proof. intros h. apply filter_In in h as [h _]. apply in_seq in h. lia. Qed.

  Lemma entry_sum_pos assi i c p : length assi <= n -> i < n -> entry_ok i (others assi i c) p -> (0 <= vL (snd p))%Q.
  Proof.
    intros hl hi [_ ->]. apply sumQ_nonneg. intros j hj. apply others_lt in hj. apply HD; lia.
  Qed.

  Lemma buf_mean_ok i l p : entry_ok i l p -> (vL (buf_mean p) == mean_diss v i l)%Q.
  Proof.
    intros [h1 h2]. unfold buf_mean.
    assert (hp : (0 <= vL (lfrom_u32 (N.of_nat (fst p))))%Q).
    { rewrite vL_count. change 0%Q with (inject_Z 0). rewrite <- Zle_Qle. lia. }
    rewrite checked_div_ok by exact hp. rewrite vL_count, h1, h2. reflexivity.
  Qed.

  Lemma mean_diss_pos i l : i < n -> (forall j, In j l -> j < n) -> (0 <= mean_diss v i l)%Q.
  Proof.
    intros hi hl. unfold mean_diss. destruct l as [|j l].
    - unfold Qdiv. simpl. lra.
    - apply Qle_shift_div_l.
      + change 0%Q with (inject_Z 0). rewrite <- Zlt_Qlt. simpl length. lia.
      + assert (h : (0 <= sumQ (v i) (j :: l))%Q); [|lra]. apply sumQ_nonneg. intros x hx. apply HD; auto.
  Qed.

  (** the hack to get the minimum *)
  Lemma fold_min (ts : list Lt) t :
    (vL (fold_left (fun x y => if lltb y x then y else x) ts t) == minQ (map vL (t :: ts)))%Q.
  Proof.
    revert t. induction ts as [|y ts IH]; intros t; [simpl; reflexivity|].
    cbn [fold_left]. rewrite IH. clear IH.
    assert (hm : forall x, (minQ (map vL (x :: ts)) == match ts with [] => vL x | _ => Qmin (vL x) (minQ (map vL ts)) end)%Q).
    { intros x. destruct ts; simpl; reflexivity. }
    change (minQ (map vL (t :: y :: ts))) with (Qmin (vL t) (minQ (map vL (y :: ts)))).
    rewrite (hm y), (hm _).
    destruct (lltb y t) eqn:e.
    - apply lltb_spec in e. destruct ts.
      + rewrite Q.min_r; lra.
      + destruct (Q.min_spec (vL y) (minQ (map vL (l :: ts)))) as [[q1 q2]|[q1 q2]]; rewrite q2; symmetry; apply Q.min_r; lra.
    - assert (h : (vL t <= vL y)%Q).
      { apply Qnot_lt_le. intros c. apply lltb_spec in c. congruence. }
      destruct ts.
      + rewrite Q.min_l; lra.
      + rewrite Q.min_assoc. rewrite (Q.min_l (vL t) (vL y)) by exact h. reflexivity.
  Qed.

  Definition buf_ok (assi : list nat) (i : nat) (buf : list (nat * Lt)) : Prop :=
    length buf = width assi /\ forall c, entry_ok i (others assi i c) (nth c buf (0, lzero)).

  (** [b] as computed *)
  Definition buf_b (buf : list (nat * Lt)) (ai : nat) : Lt :=
    match map (fun '(_, p) => buf_mean p) (filter (fun '(i, _) => negb (i =? ai)) (enum buf)) with
    | [] => lzero
    | t :: ts => fold_left (fun x y => if lltb y x then y else x) ts t
    end.

  Definition code_b (assi : list nat) (i ai : nat) : Q :=
    minQ (map (fun c => mean_diss v i (others assi i c))
              (filter (fun c => negb (c =? ai)) (seq 0 (width assi)))).

  Lemma filter_enum A (f : nat -> bool) (l : list A) s (d : A) :
    filter (fun '(i, _) => f i) (combine (seq s (length l)) l) =
    map (fun c => (c, nth (c - s) l d)) (filter f (seq s (length l))).
  Proof.
    revert s. induction l as [|a l IH]; intros s; cbn [length seq combine filter map]; [reflexivity|].
    rewrite IH. assert (hm : forall l', (forall c, In c l' -> S s <= c) ->
        map (fun c => (c, nth (c - S s) l d)) l' = map (fun c => (c, nth (c - s) (a :: l) d)) l').
    { intros l' hl. apply map_ext_in. intros c hc. apply hl in hc. f_equal.
      replace (c - s) with (S (c - S s)) by lia. reflexivity. }
    rewrite hm.
    - destruct (f s); cbn [map]; [|reflexivity]. f_equal. rewrite Nat.sub_diag. reflexivity.
    - intros c hc. apply filter_In in hc as [hc _]. apply in_seq in hc. lia.
  Qed.

  Lemma buf_b_ok assi i ai buf : buf_ok assi i buf -> (vL (buf_b buf ai) == code_b assi i ai)%Q.
  Proof.
    intros [hl hb]. unfold buf_b, code_b, enum. rewrite (@filter_enum _ (fun c => negb (c =? ai)) buf 0 (0, lzero)), hl.
    set (cs := filter (fun c => negb (c =? ai)) (seq 0 (width assi))).
    rewrite map_map. destruct cs as [|c cs]; cbn [map]; [apply vL_zero|].
    rewrite fold_min.
    assert (hm : forall l, map vL (map (fun x => buf_mean (nth (x - 0) buf (0, lzero))) l) =
       map (fun x => vL (buf_mean (nth (x - 0) buf (0, lzero)))) l) by (intros l; rewrite map_map; reflexivity).
    change (buf_mean (nth (c - 0) buf (0, lzero)) :: map (fun x => buf_mean (nth (x - 0) buf (0, lzero))) cs)
      with (map (fun x => buf_mean (nth (x - 0) buf (0, lzero))) (c :: cs)).
    rewrite hm. change (mean_diss v i (others assi i c) :: map (fun c0 => mean_diss v i (others assi i c0)) cs)
      with (map (fun c0 => mean_diss v i (others assi i c0)) (c :: cs)).
    assert (hx : forall x, (vL (buf_mean (nth (x - 0) buf (0%nat, lzero))) == mean_diss v i (others assi i x))%Q).
    { intros x. rewrite Nat.sub_0_r. apply buf_mean_ok. apply hb. }
    apply minQ_equiv; [discriminate| |].
    - intros y hy. apply in_map_iff in hy as (x & <- & hy). eexists. split; [apply in_map; exact hy|]. apply hx.
    - intros y hy. apply in_map_iff in hy as (x & <- & hy). eexists. split; [apply in_map_iff; exists x; split; [reflexivity|exact hy]|]. apply hx.
  Qed.

  Lemma code_b_pos assi i ai : length assi <= n -> i < n -> (0 <= code_b assi i ai)%Q.
  Proof.
    intros hl hi. unfold code_b. destruct (filter _ _) as [|c cs]; [simpl; lra|].
    apply minQ_glb; [discriminate|]. intros x hx. apply in_map_iff in hx as (y & <- & _).
    apply mean_diss_pos; auto. intros j hj. apply others_lt in hj. lia.
  Qed.

  (** the silhouette of one object as computed, for any labels *)
  Definition code_sil (assi : list nat) (i ai : nat) : Q :=
    match others assi i ai with
    | [] => 0
    | _ => (code_b assi i ai - mean_diss v i (others assi i ai)) /
           Qmax (mean_diss v i (others assi i ai)) (code_b assi i ai)
    end%Q.

  Lemma sil_of_buf_ok assi i ai buf : length assi <= n -> nth_error assi i = Some ai -> buf_ok assi i buf ->
    oks (sil_of_buf buf ai) (fun s => (vL s == code_sil assi i ai)%Q).
  Proof.
    intros hl e hb. unfold sil_of_buf. pose proof hb as [hb1 hb2].
    apply nth_error_lt in e as hi.
    rewrite (@idx_nth _ _ _ (0, lzero)) by (rewrite hb1; apply width_ge; eapply nth_error_In; eauto).
    cbn [bind]. destruct (hb2 ai) as [q1 _]. rewrite q1. unfold code_sil.
    pose proof (buf_mean_ok (hb2 ai)) as ha. fold (buf_b buf ai). pose proof (buf_b_ok ai hb) as hbb.
    assert (hap : (0 <= mean_diss v i (others assi i ai))%Q).
    { apply mean_diss_pos; [lia|]. intros j hj. apply others_lt in hj. lia. }
    pose proof (@code_b_pos assi i ai hl ltac:(lia)) as hbp.
    destruct (others assi i ai) as [|o os] eqn:eo; cbn [length].
    - simpl. apply vL_zero.
    - replace (0 <? S (length os)) with true by (symmetry; apply Nat.ltb_lt; lia). cbn [oks].
      set (a := buf_mean (nth ai buf (0, lzero))) in *. set (b := buf_b buf ai) in *.
      set (A := mean_diss v i (o :: os)) in *. set (B := code_b assi i ai) in *.
      assert (hmax : (vL (if lltb b a then a else b) == Qmax A B)%Q).
      { destruct (lltb b a) eqn:el.
        - apply lltb_spec in el. rewrite Q.max_l by lra. exact ha.
        - assert (h : (vL a <= vL b)%Q) by (apply Qnot_lt_le; intros c; apply lltb_spec in c; congruence).
          rewrite Q.max_r by lra. exact hbb. }
      rewrite checked_div_ok.
      + rewrite hmax, vL_sub, ha, hbb. reflexivity.
      + rewrite hmax. pose proof (Q.le_max_l A B). lra.
  Qed.

  Lemma code_sil_range assi i ai : length assi <= n -> i < n -> (-1 <= code_sil assi i ai <= 1)%Q.
  Proof.
    intros hl hi. unfold code_sil.
    assert (hap : (0 <= mean_diss v i (others assi i ai))%Q).
    { apply mean_diss_pos; [lia|]. intros j hj. apply others_lt in hj. lia. }
    pose proof (@code_b_pos assi i ai hl hi) as hbp.
    destruct (others assi i ai); [lra|].
    set (A := mean_diss v i (n0 :: l)) in *. set (B := code_b assi i ai) in *.
    pose proof (Q.le_max_l A B). pose proof (Q.le_max_r A B).
    destruct (Qlt_le_dec 0 (Qmax A B)) as [h|h].
    - split; [apply Qle_shift_div_l|apply Qle_shift_div_r]; lra.
    - assert (e : (Qmax A B == 0)%Q) by lra. rewrite e. unfold Qdiv. change (/ 0)%Q with 0%Q. lra.
  Qed.

  (** dense labels: the code's [b] is the textbook one *)
  Lemma dense_width K assi : 1 <= K -> dense K assi -> width assi = K.
  Proof.
    intros hk h. assert (hne : assi <> []).
    { intros ->. apply (proj2 (h 0)). lia. }
    pose proof (width_in hne) as h1. apply h in h1.
    pose proof (width_ge assi (pred K) (proj2 (h (pred K)) ltac:(lia))) as h2.
    destruct assi as [|a assi]; [congruence|]. pose proof (@width_ge (a :: assi) a (or_introl eq_refl)). lia.
  Qed.

  Lemma code_sil_dense K assi i ai : 2 <= K -> dense K assi -> nth_error assi i = Some ai ->
    (code_sil assi i ai == sil_object v assi i)%Q.
  Proof.
    intros hk hd e. apply nth_error_nth with (d := 0) in e as ea. unfold code_sil, sil_object, sil_a. rewrite ea.
    assert (hb : (code_b assi i ai == sil_b v assi i)%Q).
    { unfold code_b, sil_b. rewrite ea, (@dense_width K assi) by (auto; lia).
      assert (hin : forall c, In c (filter (fun c => negb (c =? ai)) (seq 0 K)) <->
                              In c (filter (fun c => negb (c =? ai)) assi)).
      { intros c. rewrite !filter_In, in_seq, (hd c). split; intros [h1 h2]; (split; [lia|exact h2]). }
      apply minQ_equiv.
      - assert (hc : exists c, c < K /\ c <> ai) by (destruct ai; [exists 1|exists 0]; lia).
        destruct hc as (c & h1 & h2). intros hn. apply map_eq_nil in hn.
        assert (hx : In c (filter (fun c => negb (c =? ai)) (seq 0 K))).
        { apply filter_In. split; [apply in_seq; lia|]. apply negb_true_iff, Nat.eqb_neq. auto. }
        rewrite hn in hx. destruct hx.
      - intros x hx. apply in_map_iff in hx as (c & <- & hc). eexists. split; [|reflexivity].
        apply (in_map (fun c => mean_diss v i (others assi i c))). apply hin. auto.
      - intros x hx. apply in_map_iff in hx as (c & <- & hc). eexists. split; [|reflexivity].
        apply (in_map (fun c => mean_diss v i (others assi i c))). apply hin. auto. }
    destruct (others assi i ai); [reflexivity|]. rewrite hb. reflexivity.
  Qed.

  Lemma as_u32_small m : (N.of_nat m <= 4294967295)%N -> as_u32 m = N.of_nat m.
  Proof. intros h. unfold as_u32. apply N.mod_small. lia. Qed.

  (** the values of all objects *)
  Lemma sil_values_ok assi : length assi <= n ->
    oks (mapM (sil_value (Lt := Lt) M assi) (enum assi)) (fun ss => length ss = length assi /\
      forall i, i < length assi -> (vL (nth i ss lzero) == code_sil assi i (nth i assi 0%nat))%Q).
  Proof.
    intros hl. eapply oks_mono.
    - apply mapM_enum with (R := fun i a s => (vL s == code_sil assi i a)%Q).
      intros i a e. unfold sil_value. cbn [fst snd]. apply nth_error_lt in e as hi.
      eapply oks_bind; [apply sil_buf_ok; auto; lia|]. intros buf hb. apply sil_of_buf_ok; auto.
    - intros ss [h1 h2]. split; [auto|]. intros i hi.
      destruct (nth_error_ex ss (i := i) ltac:(lia)) as [s es].
      destruct (nth_error_ex assi hi) as [a ea].
      rewrite (nth_error_nth _ _ lzero es), (nth_error_nth _ _ 0 ea). eapply h2; eauto.
  Qed.

  Lemma sum_nth (ss : list Lt) (f : nat -> Q) : (forall i, i < length ss -> (vL (nth i ss lzero) == f i)%Q) ->
    (sumQ vL ss == sumQ f (seq 0 (length ss)))%Q.
  Proof.
    intros h. apply sumQ_index. intros i a e. rewrite <- (nth_error_nth _ _ lzero e). apply h.
    apply nth_error_lt in e. auto.
  Qed.

  Definition code_mean (assi : list nat) : Q :=
    (sumQ (fun i => code_sil assi i (nth i assi 0%nat)) (seq 0 (length assi)) / inject_Z (Z.of_nat (length assi)))%Q.

  Lemma silhouette_ok assi samples : 1 <= length assi <= n -> (N.of_nat (length assi) <= 4294967295)%N ->
    width assi <> 1 ->
    oks (silhouette (Lt := Lt) M assi samples) (fun p =>
      (vL (fst p) == code_mean assi)%Q /\
      length (snd p) = (if samples then length assi else 0) /\
      forall i, i < length (snd p) -> (vL (nth i (snd p) lzero) == code_sil assi i (nth i assi 0%nat))%Q).
  Proof.
    intros hl hu hw. rewrite silhouette_eq by auto. rewrite (proj1 (proj2 HM)). cbn [bind assertb].
    pose proof (@sil_values_ok assi ltac:(lia)) as h. apply oks_inv in h as (ss & -> & h1 & h2).
    cbn [bind oks fst snd]. split; [|split].
    - rewrite as_u32_small by auto. rewrite vL_div.
      + rewrite vL_count, sl_fold_sum, vL_zero. unfold code_mean. rewrite sum_nth with (f := fun i => code_sil assi i (nth i assi 0%nat)).
        * rewrite h1, Qplus_0_l. reflexivity.
        * rewrite h1. auto.
      + rewrite vL_count. change 0%Q with (inject_Z 0). intros c. apply (proj1 (inject_Z_injective _ _)) in c. lia.
    - destruct samples; auto.
    - destruct samples; simpl; [|intros; lia]. rewrite h1. auto.
  Qed.

  (** ** medoid silhouette *)
  Lemma not_nltb a b : okN a -> okN b -> nltb a b = false -> (vN b <= vN a)%Q.
  Proof.
    intros ha hb e. apply Qnot_lt_le. intros c. apply nltb_spec in c; auto. congruence.
  Qed.

  Definition best_two (meds : list nat) (i t : nat) (best : Nt * Nt) : Prop :=
    okN (fst best) /\ okN (snd best) /\
    two_least (map (v i) (firstn t meds)) (vN (fst best)) (vN (snd best)).

  Lemma firstn_snoc A (l : list A) t x : nth_error l t = Some x -> firstn (S t) l = firstn t l ++ [x].
  Proof.
    revert t. induction l as [|y l IH]; intros [|t] h; simpl in *; try discriminate.
    - injection h as ->. auto.
    - f_equal. auto.
  Qed.

  Lemma ms_best_ok meds i : 2 <= length meds -> (forall m, In m meds -> m < n) -> i < n ->
    oks (ms_best M meds i) (best_two meds i (length meds)).
  Proof.
    intros hk hin hi. unfold ms_best.
    destruct meds as [|m0 [|m1 meds]]; simpl in hk; try lia.
    assert (h0 : m0 < n) by (apply hin; simpl; auto). assert (h1 : m1 < n) by (apply hin; simpl; auto).
    cbn [idx nth_error bind skipn]. rewrite !(proj2 (proj2 HM)) by auto. cbn [bind].
    destruct (proj2 HD i m0 hi h0) as [o0 _]. destruct (proj2 HD i m1 hi h1) as [o1 _].
    eapply oks_mono.
    - apply foldM_oks with (I := fun pre (best : Nt * Nt) => okN (fst best) /\ okN (snd best) /\
        two_least (map (v i) (m0 :: m1 :: pre)) (vN (fst best)) (vN (snd best))).
      + destruct (nltb (D i m0) (D i m1)) eqn:e; cbn [fst snd].
        * apply nltb_spec in e; auto. split; [auto|]. split; [auto|]. apply two_least_pair. unfold vals. lra.
        * apply not_nltb in e; auto. split; [auto|]. split; [auto|]. apply two_least_pair'. auto.
      + intros pre m post [b1 b2] e (q1 & q2 & q3). cbn [fst snd] in *.
        assert (hm : m < n) by (apply hin; simpl; rewrite e; right; right; apply in_or_app; simpl; auto).
        rewrite (proj2 (proj2 HM)) by auto. cbn [bind oks].
        destruct (proj2 HD i m hi hm) as [om _].
        change (m0 :: m1 :: pre ++ [m]) with ((m0 :: m1 :: pre) ++ [m]). rewrite map_app. cbn [map].
        destruct (two_least_snoc (v i m) q3) as (t1 & t2 & t3).
        destruct (nltb (D i m) b1) eqn:e1; cbn [fst snd].
        * apply nltb_spec in e1; auto. split; [auto|]. split; [auto|]. apply t1. unfold vals. lra.
        * apply not_nltb in e1; auto. destruct (nltb (D i m) b2) eqn:e2; cbn [fst snd].
          -- apply nltb_spec in e2; auto. split; [auto|]. split; [auto|]. apply t2. unfold vals. lra.
          -- apply not_nltb in e2; auto.
    - intros best h. unfold best_two. rewrite firstn_all. exact h.
  Qed.

  Lemma best_two_ratio meds i best : best_two meds i (length meds) best ->
    (near_ratio v i meds == vN (fst best) / vN (snd best))%Q.
  Proof.
    intros (h1 & h2 & h3). rewrite firstn_all in h3. unfold near_ratio.
    destruct (two_least_sort h3) as [-> ->]. reflexivity.
  Qed.

  Lemma best_two_pos meds i best : (forall m, In m meds -> m < n) -> i < n ->
    best_two meds i (length meds) best -> (0 <= vN (fst best) <= vN (snd best))%Q.
  Proof.
    intros hin hi (h1 & h2 & rest & hp & hle & _). rewrite firstn_all in hp.
    assert (h : In (vN (fst best)) (map (v i) meds)) by (apply (Permutation_in _ (Permutation_sym hp)); simpl; auto).
    apply in_map_iff in h as (m & e & hm). split; [|auto]. rewrite <- e. apply HD; auto.
  Qed.

  (** the contribution of one object *)
  Lemma ms_step_ok meds samples loss sil i : 2 <= length meds -> (forall m, In m meds -> m < n) -> i < n ->
    (samples = true -> i < length sil /\ (vL (nth i sil lzero) == 1)%Q) ->
    oks (ms_step (Lt := Lt) M meds samples (loss, sil) i) (fun p =>
      (vL (fst p) == vL loss + near_ratio v i meds)%Q /\ length (snd p) = length sil /\
      (samples = false -> snd p = sil) /\
      (forall j, j <> i -> nth j (snd p) lzero = nth j sil lzero) /\
      (samples = true -> (vL (nth i (snd p) lzero) == 1 - near_ratio v i meds)%Q)).
  Proof.
    intros hk hin hi hs. unfold ms_step.
    eapply oks_bind; [apply ms_best_ok; auto|]. intros best hb.
    pose proof (best_two_pos hin hi hb) as hp. pose proof (best_two_ratio hb) as hr.
    destruct hb as (o1 & o2 & _).
    destruct (nis_zero (fst best)) eqn:ez; cbn [negb].
    - apply nis_zero_spec in ez; auto.
      assert (e0 : (near_ratio v i meds == 0)%Q) by (rewrite hr, ez; unfold Qdiv; lra).
      cbn [oks fst snd]. rewrite e0. split; [lra|]. split; [auto|]. split; [auto|]. split; [auto|].
      intros h. destruct (hs h) as [_ ->]. lra.
    - assert (hnz : ~ (vN (fst best) == 0)%Q).
      { intros c. apply nis_zero_spec in c; auto. congruence. }
      assert (hq : (vL (ldiv (lfrom (fst best)) (lfrom (snd best))) == near_ratio v i meds)%Q).
      { rewrite vL_div; rewrite !vL_from by auto; [rewrite hr; reflexivity|]. lra. }
      destruct samples.
      + destruct (hs eq_refl) as [hl _]. rewrite upd_ok by auto. cbn [bind oks fst snd].
        rewrite vL_add, hq. split; [lra|]. split; [apply length_set_nth|]. split; [discriminate|].
        split; [intros j hj; apply nth_set_nth_neq; auto|].
        intros _. rewrite nth_set_nth_eq by auto. rewrite vL_sub, vL_one, hq. lra.
      + cbn [bind oks fst snd]. rewrite vL_add, hq. split; [lra|]. split; [auto|]. split; [auto|].
        split; [auto|discriminate].
  Qed.

  Lemma medoid_silhouette_ok meds samples : 2 <= length meds <= n -> (N.of_nat n <= 4294967295)%N ->
    (forall m, In m meds -> m < n) ->
    oks (medoid_silhouette (Lt := Lt) M meds samples) (fun p =>
      (vL (fst p) == med_sil v n meds)%Q /\ length (snd p) = (if samples then n else 0) /\
      forall i, i < length (snd p) -> (vL (nth i (snd p) lzero) == 1 - near_ratio v i meds)%Q).
  Proof.
    intros hk hn hin. unfold medoid_silhouette. rewrite (proj1 (proj2 HM)), (proj1 HM). cbn [bind assertb].
    assert (e1 : (N.of_nat n <=? u32_max)%N = true) by (apply N.leb_le; unfold u32_max; lia).
    rewrite e1. cbn [bind assertb].
    replace (length meds =? 1) with false by (symmetry; apply Nat.eqb_neq; lia).
    replace (length meds <=? n) with true by (symmetry; apply Nat.leb_le; lia). cbn [bind assertb].
    eapply oks_bind.
    - apply foldM_seq with (I := fun t (p : Lt * list Lt) =>
        (vL (fst p) == sumQ (fun o => near_ratio v o meds) (seq 0 t))%Q /\
        length (snd p) = (if samples then n else 0) /\
        forall i, i < length (snd p) -> (vL (nth i (snd p) lzero) == if i <? t then 1 - near_ratio v i meds else 1)%Q).
      + cbn [fst snd seq sumQ fold_right]. split; [apply vL_zero|]. split; [apply repeat_length|].
        intros i hi. rewrite repeat_length in hi. rewrite nth_indep with (d' := lone) by (rewrite repeat_length; auto).
        rewrite nth_repeat. apply vL_one.
      + intros i [loss sil] hi (h1 & h2 & h3). cbn [fst snd] in *.
        eapply oks_mono.
        * apply ms_step_ok; auto; [lia|]. intros ->. split; [lia|]. rewrite h3 by lia.
          rewrite Nat.ltb_irrefl. reflexivity.
        * intros [loss' sil'] (q1 & q2 & q3 & q4 & q5). cbn [fst snd] in *.
          split; [rewrite q1, h1, sumQ_seq_S; reflexivity|]. split; [lia|].
          intros j hj. destruct (Nat.eq_dec j i) as [->|hji].
          -- destruct samples; [|simpl in *; lia]. rewrite q5 by auto.
             replace (i <? S i) with true by (symmetry; apply Nat.ltb_lt; lia). reflexivity.
          -- rewrite q4, h3 by lia. destruct (j <? i) eqn:e2.
             ++ apply Nat.ltb_lt in e2. replace (j <? S i) with true by (symmetry; apply Nat.ltb_lt; lia). reflexivity.
             ++ apply Nat.ltb_ge in e2. replace (j <? S i) with false by (symmetry; apply Nat.ltb_ge; lia). reflexivity.
    - intros [loss sil] (h1 & h2 & h3). cbn [fst snd] in *. cbn [oks fst snd]. split; [|split; [auto|]].
      + assert (hnz : ~ (inject_Z (Z.of_nat n) == 0)%Q).
        { change 0%Q with (inject_Z 0). intros c. apply (proj1 (inject_Z_injective _ _)) in c. lia. }
        rewrite vL_sub, vL_one. rewrite as_u32_small by auto. rewrite vL_div by (rewrite vL_count; auto).
        rewrite vL_count, h1. reflexivity.
      + intros i hi. rewrite h3 by auto.
        replace (i <? n) with true; [reflexivity|]. symmetry. apply Nat.ltb_lt. destruct samples; lia.
  Qed.
End Exact.
