(** CostBounds.v -- how many entries of the matrix the counting functions of M_Cost.v read. *)
From Coq Require Import Lia Permutation.
From Verif Require Import Base Num M_Mat M_Util M_Fasterpam M_Pam M_Alternating M_Silhouette M_Msc M_Pammedsil M_Cost
  Hoare CostFacts.
Set Implicit Arguments.

(** ** rules *)

(** if [m] does not panic then its result and the number of entries read satisfy [Q] *)
Definition cok {A} (m : cres A) (Q : nat -> A -> Prop) : Prop := forall a, snd m = Ok a -> Q (fst m) a.

Lemma cok_ret A (a : A) (Q : nat -> A -> Prop) : Q 0 a -> cok (cret a) Q.
Proof. intros h b e. cbn in e. injection e as <-. exact h. Qed.

Lemma cok_panic A p (Q : nat -> A -> Prop) : cok (cpanic p) Q.
Proof. intros b e. discriminate. Qed.

Lemma cok_lift A (m : res A) (Q : nat -> A -> Prop) : (forall a, m = Ok a -> Q 0 a) -> cok (lift m) Q.
Proof. intros h b e. apply h. exact e. Qed.

Lemma cok_bind A B (m : cres A) (f : A -> cres B) (P : nat -> A -> Prop) (Q : nat -> B -> Prop) :
  cok m P -> (forall c a, P c a -> cok (f a) (fun c' b => Q (c + c') b)) -> cok (cbind m f) Q.
Proof.
  intros h h' b. unfold cbind. destruct (snd m) as [a|p] eqn:e; [|discriminate].
  cbn [fst snd]. intros eb. apply (h' _ a (h a e) b eb).
Qed.

Lemma cok_mono A (m : cres A) (P Q : nat -> A -> Prop) :
  cok m P -> (forall c a, P c a -> Q c a) -> cok m Q.
Proof. intros h h' a e. auto. Qed.

Lemma cok_and A (m : cres A) (P Q : nat -> A -> Prop) : cok m P -> cok m Q -> cok m (fun c a => P c a /\ Q c a).
Proof. intros h h' a e. auto. Qed.

Lemma cok_true A (m : cres A) : cok m (fun _ _ => True).
Proof. intros a e. exact I. Qed.

Lemma cok_oks A (m : cres A) r (P : A -> Prop) : snd m = r -> oks r P -> cok m (fun _ a => P a).
Proof. intros <- h a e. rewrite e in h. exact h. Qed.

(** what is known about the result can be used *)
Lemma cok_with A (m : cres A) r (P : A -> Prop) (Q : nat -> A -> Prop) :
  snd m = r -> oks r P -> cok m Q -> cok m (fun c a => P a /\ Q c a).
Proof. intros e h h'. apply cok_and; [apply cok_oks with r|]; auto. Qed.

Definition state {S} (c : ctl S) : S := match c with Next s => s | Break s => s end.

Lemma cok_fold A S (f : S -> A -> cres S) (I : S -> Prop) (w : A -> nat) l s :
  I s -> (forall a s, In a l -> I s -> cok (f s a) (fun c s' => c = w a /\ I s')) ->
  cok (cfoldM f l s) (fun c s' => c = list_sum (map w l) /\ I s').
Proof.
  revert s. induction l as [|a l IH]; intros s hi h; cbn [cfoldM map list_sum fold_right].
  - apply cok_ret. auto.
  - eapply cok_bind; [apply h; simpl; auto|]. intros c s' [-> hi'].
    eapply cok_mono; [apply IH; auto; intros; apply h; simpl; auto|].
    intros c' s'' [-> hi'']. split; [reflexivity|auto].
Qed.

Lemma cok_fold_le A S (f : S -> A -> cres S) (I : S -> Prop) (w : A -> nat) l s :
  I s -> (forall a s, In a l -> I s -> cok (f s a) (fun c s' => c <= w a /\ I s')) ->
  cok (cfoldM f l s) (fun c s' => c <= list_sum (map w l) /\ I s').
Proof.
  revert s. induction l as [|a l IH]; intros s hi h; cbn [cfoldM map].
  - apply cok_ret. auto.
  - eapply cok_bind; [apply h; simpl; auto|]. intros c s' [hc hi'].
    eapply cok_mono; [apply IH; auto; intros; apply h; simpl; auto|].
    intros c' s'' [hc' hi'']. split; [cbn; unfold list_sum in *; lia|auto].
Qed.

Lemma cok_map A B (f : A -> cres B) (w : A -> nat) l :
  (forall a, In a l -> cok (f a) (fun c _ => c = w a)) ->
  cok (cmapM f l) (fun c bs => c = list_sum (map w l) /\ length bs = length l).
Proof.
  induction l as [|a l IH]; intros h; cbn [cmapM map].
  - apply cok_ret. auto.
  - eapply cok_bind; [apply h; simpl; auto|]. intros c b ->.
    eapply cok_bind; [apply IH; intros; apply h; simpl; auto|]. intros c' bs [-> hl].
    apply cok_ret. cbn [length list_sum fold_right]. split; [cbn; unfold list_sum; lia|auto].
Qed.

Lemma cok_map_le A B (f : A -> cres B) (w : A -> nat) l :
  (forall a, In a l -> cok (f a) (fun c _ => c <= w a)) ->
  cok (cmapM f l) (fun c bs => c <= list_sum (map w l) /\ length bs = length l).
Proof.
  induction l as [|a l IH]; intros h; cbn [cmapM map].
  - apply cok_ret. auto.
  - eapply cok_bind; [apply h; simpl; auto|]. intros c b hc.
    eapply cok_bind; [apply IH; intros; apply h; simpl; auto|]. intros c' bs [hc' hl].
    apply cok_ret. cbn [length]. split; [cbn; unfold list_sum in *; lia|auto].
Qed.

(** between two states, [lo] grows by at most the number of entries read, and [up] by at least that *)
Definition within {S} (lo up : S -> nat) (c : nat) (s s' : S) : Prop := lo s' <= c + lo s /\ c + up s <= up s'.

Lemma within_trans S (lo up : S -> nat) c c' s s' s'' :
  within lo up c s s' -> within lo up c' s' s'' -> within lo up (c + c') s s''.
Proof. unfold within. lia. Qed.

Lemma cok_for A S (f : S -> A -> cres (ctl S)) (I : S -> Prop) (up : S -> nat) w l s :
  I s -> (forall a s, In a l -> I s -> cok (f s a) (fun c x => I (state x) /\ c + up s <= w + up (state x))) ->
  cok (cforM f l s) (fun c s' => I s' /\ c + up s <= w * length l + up s').
Proof.
  revert s. induction l as [|a l IH]; intros s hi h; cbn [cforM length].
  - apply cok_ret. split; [auto|lia].
  - eapply cok_bind; [apply h; simpl; auto|]. intros c [s'|s'] [hi' hc]; cbn [state] in *.
    + eapply cok_mono; [apply IH; auto; intros; apply h; simpl; auto|].
      intros c' s'' [hi'' hc']. split; [auto|nia].
    + apply cok_ret. split; [auto|nia].
Qed.

Lemma cok_for_grow A S (f : S -> A -> cres (ctl S)) (I : S -> Prop) (g : S -> nat) l s :
  I s -> (forall a s, In a l -> I s -> cok (f s a) (fun _ x => I (state x) /\ g (state x) <= 1 + g s)) ->
  cok (cforM f l s) (fun _ s' => g s' <= length l + g s).
Proof.
  revert s. induction l as [|a l IH]; intros s hi h; cbn [cforM length].
  - apply cok_ret. lia.
  - eapply cok_bind; [apply h; simpl; auto|]. intros c [s'|s'] [hi' hc]; cbn [state] in *.
    + eapply cok_mono; [apply IH; auto; intros; apply h; simpl; auto|]. cbv beta. intros. lia.
    + apply cok_ret. lia.
Qed.

Lemma cok_while S fuel (f : S -> cres (ctl S)) (I : S -> Prop) (lo up : S -> nat) s :
  I s -> (forall s, I s -> cok (f s) (fun c x => I (state x) /\ within lo up c s (state x))) ->
  cok (cwhileM fuel f s) (fun c s' => I s' /\ within lo up c s s').
Proof.
  revert s. induction fuel as [|m IH]; intros s hi h; cbn [cwhileM].
  - apply cok_ret. unfold within. split; [auto|lia].
  - eapply cok_bind; [apply h; auto|]. intros c [s'|s'] [hi' hc]; cbn [state] in *.
    + eapply cok_mono; [apply IH; auto|]. intros c' s'' [hi'' hc']. split; [auto|]. eapply within_trans; eauto.
    + apply cok_ret. rewrite Nat.add_0_r. auto.
Qed.

(** ** sums *)
Lemma list_sum_const A (l : list A) w : list_sum (map (fun _ => w) l) = w * length l.
Proof. induction l; cbn [map length]; [cbn; lia|]. cbn. unfold list_sum in *. lia. Qed.

Lemma list_sum_le A (f g : A -> nat) l : (forall a, In a l -> f a <= g a) -> list_sum (map f l) <= list_sum (map g l).
Proof.
  induction l; intros h; [cbn; lia|]. cbn. pose proof (h a (or_introl eq_refl)).
  assert (list_sum (map f l) <= list_sum (map g l)) by (apply IHl; intros; apply h; simpl; auto).
  unfold list_sum in *. lia.
Qed.

Lemma list_sum_lt A (f g : A -> nat) l a : (forall a, In a l -> f a <= g a) -> In a l -> f a < g a ->
  list_sum (map f l) < list_sum (map g l).
Proof.
  induction l as [|x l IH]; intros h hin hlt; [destruct hin|]. cbn.
  pose proof (h x (or_introl eq_refl)) as h1.
  assert (h2 : list_sum (map f l) <= list_sum (map g l)) by (apply list_sum_le; intros; apply h; simpl; auto).
  destruct hin as [->|hin].
  - unfold list_sum in *. lia.
  - assert (h3 : list_sum (map f l) < list_sum (map g l)) by (apply IH; auto; intros; apply h; simpl; auto).
    unfold list_sum in *. lia.
Qed.

(** all but the [b]-th of [s .. s+m-1] *)
Lemma sum_but m s b : s <= b < s + m -> list_sum (map (fun i => if i =? b then 0 else 1) (seq s m)) = m - 1.
Proof.
  revert s. induction m; intros s h; [lia|]. cbn [seq map].
  destruct (Nat.eqb_spec s b) as [->|ne].
  - transitivity (0 + list_sum (map (fun i => if i =? b then 0 else 1) (seq (S b) m))); [reflexivity|].
    assert (G : forall m s, b < s -> list_sum (map (fun i => if i =? b then 0 else 1) (seq s m)) = m).
    { clear. induction m; intros s h; [reflexivity|]. cbn [seq map]. destruct (Nat.eqb_spec s b); [lia|].
      transitivity (1 + list_sum (map (fun i => if i =? b then 0 else 1) (seq (S s) m))); [reflexivity|].
      rewrite IHm by lia. auto. }
    rewrite G by lia. lia.
  - transitivity (1 + list_sum (map (fun i => if i =? b then 0 else 1) (seq (S s) m))); [reflexivity|].
    rewrite IHm by lia. lia.
Qed.

Lemma map_enum A (f : nat -> nat) (l : list A) : map (fun p => f (fst p)) (enum l) = map f (seq 0 (length l)).
Proof. rewrite <- map_fst_enum, map_map. reflexivity. Qed.

Lemma map_enum_snd A B (f : A -> B) (l : list A) : map f l = map (fun p => f (snd p)) (enum l).
Proof. rewrite <- (map_snd_enum l) at 1. rewrite map_map. reflexivity. Qed.

(** the objects which are no medoids *)
Lemma sum_out n k (med : list nat) w : length med = k -> NoDup med -> (forall m, In m med -> m < n) ->
  list_sum (map (fun j => if in_dec Nat.eq_dec j med then 0 else w) (seq 0 n)) = w * (n - k).
Proof.
  intros hl hnd hin.
  assert (G : forall l, list_sum (map (fun j => if in_dec Nat.eq_dec j med then 0 else w) l)
    + w * length (filter (fun j => if in_dec Nat.eq_dec j med then true else false) l) = w * length l).
  { induction l as [|a l IH]; [cbn; lia|]. cbn [map filter length].
    destruct (in_dec Nat.eq_dec a med); cbn [length]; cbn; unfold list_sum in *; lia. }
  assert (P : length (filter (fun j => if in_dec Nat.eq_dec j med then true else false) (seq 0 n)) = k).
  { rewrite <- hl. apply Permutation_length. apply NoDup_Permutation.
    - apply NoDup_filter, seq_NoDup.
    - auto.
    - intros x. rewrite filter_In, in_seq. destruct (in_dec Nat.eq_dec x med) as [i|i].
      + split; [tauto|]. intros _. pose proof (hin x i). split; [lia|auto].
      + split; [intros [_ e]; discriminate|tauto]. }
  specialize (G (seq 0 n)). rewrite P, seq_length in G. nia.
Qed.

Section Bounds.
  Context {Nt Lt : Type} `{NumN Nt} `{NumL Lt} `{FromN Nt Lt}.
  Variable M : Mat Nt.
  Local Notation n := (mlen M).

  Lemma cok_get x y (Q : nat -> Nt -> Prop) : (forall d, mget M x y = Ok d -> Q 1 d) -> cok (cget M x y) Q.
  Proof. intros h d e. apply h. exact e. Qed.

  (** read one entry, then nothing *)
  Lemma cok_get1 B x y (f : Nt -> B) (Q : nat -> B -> Prop) :
    (forall d, Q 1 (f d)) -> cok (cbind (cget M x y) (fun d => cret (f d))) Q.
  Proof. intros h. eapply cok_bind; [apply cok_get with (Q := fun c _ => c = 1); auto|]. intros c d ->. apply cok_ret. apply h. Qed.

  Lemma length_skip1 A (l : list A) : length (skipn 1 l) = length l - 1.
  Proof. apply skipn_length. Qed.

  (** *** util.rs *)
  Definition members (assi : list nat) (m c : nat) : nat :=
    list_sum (map (fun p : nat * nat => if negb (c =? fst p) && (snd p =? m) then 1 else 0) (enum assi)).

  Lemma member_sum_cost assi m c : cok (member_sum_n (Lt := Lt) M assi m c) (fun k _ => k = members assi m c).
  Proof.
    eapply cok_mono.
    - apply cok_fold with (I := fun _ => True) (w := fun p : nat * nat => if negb (c =? fst p) && (snd p =? m) then 1 else 0); auto.
      intros [i a] s _ _. cbn [fst snd]. destruct (negb (c =? i) && (a =? m)).
      + apply cok_get1. auto.
      + apply cok_ret. auto.
    - intros k x [-> _]. reflexivity.
  Qed.

  (** the size of a cluster *)
  Definition size (assi : list nat) (m : nat) : nat := list_sum (map (fun a => if a =? m then 1 else 0) assi).

  Lemma members_le assi m c : members assi m c <= size assi m.
  Proof.
    unfold members, size. rewrite (map_enum_snd (fun a => if a =? m then 1 else 0) assi).
    apply list_sum_le. intros [i a] _. cbn [fst snd]. destruct (c =? i), (a =? m); cbn; lia.
  Qed.

  Lemma members_all k c : c < k -> members (repeat 0 k) 0 c = k - 1.
  Proof.
    intros h. unfold members. transitivity (list_sum (map (fun i => if i =? c then 0 else 1) (seq 0 (length (repeat 0 k))))).
    - rewrite <- map_enum. f_equal. apply map_ext_in. intros [i a] hin. cbn [fst snd].
      apply in_combine_r, repeat_spec in hin as ->. rewrite Nat.eqb_sym. destruct (i =? c); reflexivity.
    - rewrite repeat_length. apply sum_but. lia.
  Qed.

  Lemma choose_cost assi med m :
    cok (choose_medoid_within_partition_n (Lt := Lt) M assi med m) (fun c r =>
      exists first, nth_error med m = Some first /\ length (fst (fst r)) = length med /\
        c = members assi m first + list_sum (map (fun p : nat * nat =>
              if negb (fst p =? first) && (snd p =? m) then members assi m (fst p) else 0) (enum assi))).
  Proof.
    unfold choose_medoid_within_partition_n.
    eapply cok_bind; [apply cok_lift with (Q := fun c a => c = 0 /\ nth_error med m = Some a)|].
    { unfold idx. intros a. destruct (nth_error med m); [|discriminate]. intros e. injection e as ->. auto. }
    intros c first [-> hf].
    eapply cok_bind; [apply member_sum_cost|]. intros c sumb ->.
    eapply cok_bind.
    - apply cok_fold with (I := fun _ => True)
        (w := fun p : nat * nat => if negb (fst p =? first) && (snd p =? m) then members assi m (fst p) else 0); auto.
      intros [j aj] s _ _. cbn [fst snd]. destruct (negb (j =? first) && (aj =? m)).
      + eapply cok_bind; [apply member_sum_cost|]. intros c x ->.
        destruct (lltb x (snd s)); apply cok_ret; auto.
      + apply cok_ret; auto.
    - intros c [best sumb'] [-> _]. eapply cok_bind; [apply cok_lift with (Q := fun c a => c = 0 /\ length a = length med)|].
      { unfold upd. intros a. destruct (m <? length med); [|discriminate]. intros e. injection e as <-. rewrite length_set_nth. auto. }
      intros c med' [-> hl]. apply cok_ret. exists first. cbn [fst snd]. split; [auto|]. split; [auto|]. lia.
  Qed.

  Lemma members_lt assi m j : In (j, m) (enum assi) -> members assi m j + 1 <= size assi m.
  Proof.
    intros hin. unfold members, size. rewrite (map_enum_snd (fun a => if a =? m then 1 else 0) assi).
    rewrite Nat.add_1_r. apply list_sum_lt with (a := (j, m)); auto.
    - intros [i a] _. cbn [fst snd]. destruct (j =? i), (a =? m); cbn; lia.
    - cbn [fst snd]. rewrite !Nat.eqb_refl. cbn. lia.
  Qed.

  Lemma choose_cost_le assi med m :
    cok (choose_medoid_within_partition_n (Lt := Lt) M assi med m) (fun c r =>
      length (fst (fst r)) = length med /\ c <= size assi m * size assi m).
  Proof.
    eapply cok_mono; [apply choose_cost|]. intros c r (first & _ & hl & ->). split; [auto|].
    assert (h : list_sum (map (fun p : nat * nat =>
              if negb (fst p =? first) && (snd p =? m) then members assi m (fst p) else 0) (enum assi))
            <= (size assi m - 1) * size assi m).
    { transitivity (list_sum (map (fun a => if a =? m then size assi m - 1 else 0) assi)).
      - rewrite (map_enum_snd (fun a => if a =? m then size assi m - 1 else 0) assi). apply list_sum_le.
        intros [i a] hi. cbn [fst snd]. destruct (Nat.eqb_spec a m) as [->|]; [|rewrite Bool.andb_false_r; lia].
        pose proof (members_lt _ _ _ hi). destruct (i =? first); cbn; lia.
      - generalize (size assi m - 1) at 1 2. intros z. unfold size. induction assi as [|a l IH]; [cbn; lia|].
        cbn. destruct (a =? m); unfold list_sum in *; cbn in *; lia. }
    pose proof (members_le assi m first). nia.
  Qed.

  (** *** fasterpam.rs *)
  Lemma single_cost med : cok (single_medoid_n (Lt := Lt) M med) (fun c r =>
    (forall m, In m med -> m < n) -> c = n * (n - 1)).
  Proof.
    unfold single_medoid_n. eapply cok_bind; [apply choose_cost|].
    intros c [[med' sw] loss] (first & hf & _ & ->). apply cok_ret. intros hin.
    apply nth_error_In, hin in hf. rewrite members_all by auto.
    assert (e : list_sum (map (fun p : nat * nat => if negb (fst p =? first) && (snd p =? 0)
                  then members (repeat 0 n) 0 (fst p) else 0) (enum (repeat 0 n)))
            = (n - 1) * (n - 1)).
    { rewrite map_ext_in with (g := fun p : nat * nat => (fun i => (n - 1) * (if i =? first then 0 else 1)) (fst p)).
      - rewrite (map_enum (fun i => (n - 1) * (if i =? first then 0 else 1))), repeat_length.
        assert (G : forall (f : nat -> nat) a l, list_sum (map (fun i => a * f i) l) = a * list_sum (map f l)).
        { induction l; [cbn; lia|]. cbn. unfold list_sum in *. lia. }
        rewrite (G (fun i => if i =? first then 0 else 1)), sum_but; lia.
      - intros [i a] hi. cbn [fst snd]. pose proof hi as hi'. apply in_combine_r, repeat_spec in hi as ->.
        apply in_combine_l, in_seq in hi'. rewrite repeat_length in hi'. rewrite members_all by lia.
        destruct (i =? first); cbn; lia. }
    rewrite e. nia.
  Qed.

  Lemma ia_obj_cost med fc i : cok (ia_obj_n (Lt := Lt) M med fc i) (fun c _ => c = 1 + (length med - 1)).
  Proof.
    unfold ia_obj_n. eapply cok_bind; [apply cok_get with (Q := fun c _ => c = 1); auto|]. intros c d ->.
    eapply cok_bind.
    - apply cok_fold with (I := fun _ => True) (w := fun _ => 1); auto.
      intros [m me] s _ _. unfold ia_step_n. apply cok_get1. auto.
    - intros c cur [-> _]. apply cok_ret. rewrite list_sum_const, length_skip1, length_enum. lia.
  Qed.

  Lemma initial_cost med : cok (initial_assignment_n (Lt := Lt) M med) (fun c p =>
    c = n * length med /\ length (snd p) = n /\ 1 <= length med).
  Proof.
    unfold initial_assignment_n. eapply cok_bind; [apply cok_lift with (Q := fun c _ => c = 0); auto|]. intros c u ->.
    eapply cok_bind; [apply cok_lift with (Q := fun c _ => c = 0 /\ 1 <= length med)|].
    { unfold idx. intros a. destruct med; [discriminate|]. cbn. split; [auto|lia]. }
    intros c fc [-> hk]. eapply cok_bind; [apply cok_map; intros a _; apply ia_obj_cost|].
    intros c rs [-> hl]. eapply cok_bind; [apply cok_lift with (Q := fun c _ => c = 0); auto|].
    intros c loss ->. apply cok_ret. rewrite list_sum_const, seq_length. cbn [snd]. rewrite map_length, hl, seq_length. nia.
  Qed.

  Lemma find_best_swap_cost (rl : list Lt) data j : cok (find_best_swap_n M rl data j) (fun c _ => c = length data).
  Proof.
    unfold find_best_swap_n. eapply cok_bind.
    - apply cok_fold with (I := fun _ => True) (w := fun _ => 1); auto.
      intros [o reco] [pl acc] _ _. unfold fbs_step_n.
      eapply cok_bind; [apply cok_get with (Q := fun c _ => c = 1); auto|]. intros c d ->.
      destruct (nltb d (dd (near reco))); [|destruct (nltb d (dd (seco reco)))].
      1,2: eapply cok_bind; [apply cok_lift with (Q := fun c _ => c = 0); auto|]; intros c l ->; apply cok_ret; auto.
      apply cok_ret. auto.
    - intros c [pl acc] [-> _]. eapply cok_bind; [apply cok_lift with (Q := fun c _ => c = 0); auto|].
      intros c [b bl] ->. apply cok_ret. rewrite list_sum_const, length_enum. lia.
  Qed.

  Lemma second_cost med x b o d : b < length med ->
    cok (update_second_nearest_n M med x b o d) (fun c _ => c <= length med - 1).
  Proof.
    intros hb. unfold update_second_nearest_n. eapply cok_mono.
    - apply cok_fold_le with (I := fun _ => True) (w := fun p : nat * nat => if fst p =? b then 0 else 1); auto.
      intros [i mi] s _ _. cbn [fst]. destruct (i =? x), (i =? b); cbn [orb].
      1,2,3: apply cok_ret; split; [lia|auto].
      apply cok_get1. auto.
    - intros c r [hc _]. rewrite (map_enum (fun i => if i =? b then 0 else 1)), sum_but in hc by lia. lia.
  Qed.

  Lemma do_swap_obj_cost med b j p : b < length med ->
    cok (do_swap_obj_n (Lt := Lt) M med b j p) (fun c _ => c <= length med).
  Proof.
    intros hb. destruct p as [o reco]. unfold do_swap_obj_n. destruct (o =? j).
    - apply cok_ret. lia.
    - eapply cok_bind; [apply cok_get with (Q := fun c _ => c = 1); auto|]. intros c d ->.
      eapply cok_bind with (P := fun c _ => c <= length med - 1).
      + destruct (ieqb (di (near reco)) b).
        * destruct (nltb d (dd (seco reco))); [apply cok_ret; lia|].
          eapply cok_bind; [apply second_cost; auto|]. intros c s hc. apply cok_ret. cbv beta in *. lia.
        * destruct (nltb d (dd (near reco))); [apply cok_ret; lia|].
          destruct (nltb d (dd (seco reco))); [apply cok_ret; lia|].
          destruct (ieqb (di (seco reco)) b); [|apply cok_ret; lia].
          eapply cok_bind; [apply second_cost; auto|]. intros c s hc. apply cok_ret. cbv beta in *. lia.
      + intros c r hc. apply cok_ret. cbv beta in *. lia.
  Qed.

  Lemma do_swap_cost med data b j : cok (do_swap_n (Lt := Lt) M med data b j) (fun c r =>
    c <= length data * length med /\ length (fst (fst r)) = length med /\ length (snd (fst r)) = length data).
  Proof.
    unfold do_swap_n. eapply cok_bind; [apply cok_lift with (Q := fun c _ => c = 0 /\ b < length med)|].
    { unfold assertb. intros a. destruct (Nat.ltb_spec b (length med)); [auto|discriminate]. }
    intros c u [-> hb]. eapply cok_bind; [apply cok_lift with (Q := fun c _ => c = 0); auto|]. intros c u' ->.
    eapply cok_bind; [apply cok_lift with (Q := fun c a => c = 0 /\ length a = length med)|].
    { unfold upd. intros a. destruct (b <? length med); [|discriminate]. intros e. injection e as <-. rewrite length_set_nth. auto. }
    intros c med' [-> hl]. eapply cok_bind; [apply cok_map_le with (w := fun _ => length med'); intros p _; apply do_swap_obj_cost; rewrite hl; auto|].
    intros c rs [hc hlr]. eapply cok_bind; [apply cok_lift with (Q := fun c _ => c = 0); auto|].
    intros c' loss ->. apply cok_ret. cbn [fst snd]. rewrite map_length, hlr, length_enum.
    rewrite list_sum_const, length_enum in hc. split; [nia|auto].
  Qed.

  (** the lengths of the lists in a state *)
  Definition fp_len (k : nat) (st : fpst Nt Lt) : Prop := length (fp_med st) = k /\ length (fp_data st) = n.

  Lemma fp_cand_cost k st j : fp_len k st ->
    cok (fp_cand_n M st j) (fun c x => fp_len k (state x) /\ fp_iter (state x) = fp_iter st /\
      c + n * k * fp_swaps st <= n + n * k * fp_swaps (state x)).
  Proof.
    intros [h1 h2]. unfold fp_cand_n. destruct (j =? fp_last st).
    - apply cok_ret. cbn [state]. split; [split; auto|]. split; [auto|lia].
    - eapply cok_bind; [apply cok_lift with (Q := fun c _ => c = 0); auto|]. intros c rj ->.
      eapply cok_bind; [apply cok_lift with (Q := fun c _ => c = 0); auto|]. intros c mj ->.
      destruct (j =? mj); [apply cok_ret; cbn [state]; split; [split; auto|]; split; [auto|lia]|].
      eapply cok_bind; [apply find_best_swap_cost|]. intros c [change b] ->.
      destruct (lleb lzero change); [apply cok_ret; cbn [state]; split; [split; auto|]; split; [auto|lia]|].
      eapply cok_bind; [apply do_swap_cost|]. intros c [[med' data'] loss'] (hc & hm & hd).
      cbn [fst snd] in *.
      eapply cok_bind; [apply cok_lift with (Q := fun c _ => c = 0); auto|]. intros c' rl' ->.
      apply cok_ret. cbn [state fp_swaps fp_iter]. split; [split; cbn [fp_med fp_data]; congruence|].
      split; [auto|]. rewrite h1, h2 in hc. nia.
  Qed.

  Lemma fp_iteration_cost k order st : fp_len k st ->
    cok (fp_iteration_n M order st) (fun c x => fp_len k (state x) /\
      within (fun _ => 0) (fun s : fpst Nt Lt => n * k * fp_swaps s + n * length order * fp_iter s) c st (state x)).
  Proof.
    intros hi. unfold fp_iteration_n. eapply cok_bind.
    - apply cok_for with (I := fun s => fp_len k s /\ fp_iter s = S (fp_iter st))
        (up := fun s : fpst Nt Lt => n * k * fp_swaps s) (w := n).
      + split; [exact hi|auto].
      + intros j s _ [his hit]. eapply cok_mono; [apply fp_cand_cost; eauto|].
        cbv beta. intros c x (h1 & h2 & h3). split; [split; [auto|congruence]|]. auto.
    - cbv beta. cbn [fp_swaps]. intros c st' [[hi' hit] hc].
      assert (G : within (fun _ => 0) (fun s : fpst Nt Lt => n * k * fp_swaps s + n * length order * fp_iter s) c st st').
      { split; [lia|]. rewrite hit. nia. }
      destruct (_ || _); apply cok_ret; cbn [state]; rewrite Nat.add_0_r; auto.
  Qed.

  Lemma fasterpam_order_cost order med maxiter : 2 <= length med ->
    cok (fasterpam_order_n M order med maxiter) (fun c (r : pam_result Lt) =>
      n * length med <= c /\ c <= n * length med * (1 + r_swaps r) + n * length order * r_iter r).
  Proof.
    intros hk. unfold fasterpam_order_n. destruct (Nat.eqb_spec (length med) 1) as [|_]; [lia|].
    eapply cok_bind; [apply initial_cost|]. intros c [loss data] (-> & hd & _). cbn [snd] in hd.
    eapply cok_bind; [apply cok_lift with (Q := fun c _ => c = 0); auto|]. intros c rl ->.
    eapply cok_bind.
    - apply cok_while with (I := fp_len (length med)) (lo := fun _ => 0)
        (up := fun s : fpst Nt Lt => n * length med * fp_swaps s + n * length order * fp_iter s).
      + split; auto.
      + intros s hs. apply fp_iteration_cost. auto.
    - intros c st [_ [_ h]]. cbn [fp_swaps fp_iter] in h. apply cok_ret. cbn [r_swaps r_iter]. nia.
  Qed.

  (** *** fastpam1.rs and pam.rs *)

  (** what it costs to consider candidate [j]: nothing for a medoid, else [w] *)
  Definition cand_cost (med : list nat) (data : list (Rec Nt)) (w c j : nat) : Prop :=
    exists r mj, nth_error data j = Some r /\ nth_error med (as_usize (di (near r))) = Some mj /\
      c = if j =? mj then 0 else w.

  Lemma cok_idx A (l : list A) i : cok (lift (idx l i)) (fun c a => c = 0 /\ nth_error l i = Some a).
  Proof.
    apply cok_lift. unfold idx. intros a. destruct (nth_error l i); [|discriminate]. intros e. injection e as ->. auto.
  Qed.

  Lemma fastpam1_cand_cost med data (rl : list Lt) best j :
    cok (fastpam1_cand_n M med data rl best j) (fun c _ => cand_cost med data (length data) c j).
  Proof.
    unfold fastpam1_cand_n. eapply cok_bind; [apply cok_idx|]. intros c r [-> hr].
    eapply cok_bind; [apply cok_idx|]. intros c mj [-> hm]. unfold cand_cost.
    destruct (j =? mj) eqn:e.
    - apply cok_ret. exists r, mj. rewrite e. auto.
    - eapply cok_bind; [apply find_best_swap_cost|]. intros c [change b] ->.
      destruct (lleb (fst best) change); apply cok_ret; exists r, mj; rewrite e; split; auto; split; auto; lia.
  Qed.

  Lemma find_best_swap_pam_cost med data j :
    cok (find_best_swap_pam_n (Lt := Lt) M med data j) (fun c _ => c = length med * (length data - 1)).
  Proof.
    unfold find_best_swap_pam_n. eapply cok_bind; [apply cok_idx|]. intros c r [-> hr].
    assert (hj : j < length data) by (apply nth_error_Some; congruence).
    eapply cok_mono; [apply cok_fold with (I := fun _ => True) (w := fun _ => length data - 1); auto|].
    - intros m s _ _. eapply cok_bind.
      + apply cok_fold with (I := fun _ => True) (w := fun p : nat * Rec Nt => if fst p =? j then 0 else 1); auto.
        intros [o reco] acc _ _. unfold pam_change_step_n. cbn [fst]. destruct (o =? j); [apply cok_ret; auto|].
        apply cok_get1. auto.
      + intros c acc [-> _]. apply cok_ret. rewrite (map_enum (fun i => if i =? j then 0 else 1)), sum_but by lia.
        split; [lia|auto].
    - intros c a [-> _]. rewrite list_sum_const, seq_length. lia.
  Qed.

  Lemma pam_cand_cost med data (best : best_swap) j :
    cok (pam_cand_n (Lt := Lt) M med data best j)
        (fun c _ => cand_cost med data (length med * (length data - 1)) c j).
  Proof.
    unfold pam_cand_n. eapply cok_bind; [apply cok_idx|]. intros c r [-> hr].
    eapply cok_bind; [apply cok_idx|]. intros c mj [-> hm]. unfold cand_cost.
    destruct (j =? mj) eqn:e.
    - apply cok_ret. exists r, mj. rewrite e. auto.
    - eapply cok_bind; [apply find_best_swap_pam_cost|]. intros c [change b] ->.
      destruct (lleb (fst best) change); apply cok_ret; exists r, mj; rewrite e; split; auto; split; auto; lia.
  Qed.

  Definition p_len (k : nat) (st : pst Nt Lt) : Prop := length (p_med st) = k /\ length (p_data st) = n.

  Lemma swap_best_cost k (st : pst Nt Lt) rl best : p_len k st ->
    cok (swap_best_n M st rl best) (fun c x => p_len k (state x) /\ p_iter (state x) = p_iter st /\
      c + n * k * p_swaps st <= n * k * p_swaps (state x)).
  Proof.
    intros [h1 h2]. unfold swap_best_n. destruct (lltb (fst best) lzero).
    - destruct (snd best) as [[b j]|]; [|apply cok_panic].
      eapply cok_bind; [apply do_swap_cost|]. intros c [[med' data'] loss'] (hc & hm & hd). cbn [fst snd] in *.
      rewrite h1, h2 in hc.
      destruct (lleb (p_loss st) loss'); apply cok_ret; cbn [state p_iter p_swaps];
        (split; [split; cbn [p_med p_data]; congruence|]); split; auto; nia.
    - apply cok_ret. cbn [state p_iter p_swaps]. split; [split; auto|]. split; [auto|lia].
  Qed.

  (** the test for medoids works *)
  Definition knows (med : list nat) (data : list (Rec Nt)) : Prop :=
    NoDup med /\ (forall m, In m med -> m < n) /\
    forall j r mj, nth_error data j = Some r -> nth_error med (as_usize (di (near r))) = Some mj ->
      In j med -> j = mj.

  Lemma knows_cost med data w c j : knows med data -> cand_cost med data w c j ->
    c = if in_dec Nat.eq_dec j med then 0 else w.
  Proof.
    intros (_ & _ & h) (r & mj & hr & hm & ->). destruct (in_dec Nat.eq_dec j med) as [hi|hi].
    - rewrite <- (h j r mj hr hm hi), Nat.eqb_refl. auto.
    - destruct (Nat.eqb_spec j mj) as [->|]; auto. apply nth_error_In in hm. tauto.
  Qed.

  Definition lo_p (w k : nat) (st : pst Nt Lt) : nat := w * (n - k) * p_iter st.
  Definition up_p (w k : nat) (st : pst Nt Lt) : nat := w * (n - k) * p_iter st + n * k * p_swaps st.

  Lemma fastpam1_iteration_cost k (st : pst Nt Lt) : p_len k st -> knows (p_med st) (p_data st) ->
    cok (fastpam1_iteration_n M st) (fun c x => p_len k (state x) /\ within (lo_p n k) (up_p n k) c st (state x)).
  Proof.
    intros hl hk. unfold fastpam1_iteration_n. cbn [p_med p_data p_rl p_loss p_swaps p_iter].
    eapply cok_bind; [apply cok_lift with (Q := fun c _ => c = 0); auto|]. intros c rl ->.
    eapply cok_bind.
    - apply cok_fold with (I := fun _ => True) (w := fun j => if in_dec Nat.eq_dec j (p_med st) then 0 else n); auto.
      intros j s _ _. eapply cok_mono; [apply fastpam1_cand_cost|]. intros c a h. split; [|auto].
      rewrite (proj2 hl) in h. apply knows_cost with (1 := hk) (2 := h).
    - intros c best [-> _]. rewrite sum_out with (k := k); [|apply hl|apply hk|apply hk].
      eapply cok_mono; [apply swap_best_cost; exact hl|]. cbn [p_iter p_swaps].
      intros c x (h1 & h2 & h3). split; [auto|]. unfold within, lo_p, up_p. rewrite h2. nia.
  Qed.

  Lemma pam_iteration_cost k (st : pst Nt Lt) : p_len k st -> knows (p_med st) (p_data st) ->
    cok (pam_iteration_n M st) (fun c x => p_len k (state x) /\
      within (lo_p (k * (n - 1)) k) (up_p (k * (n - 1)) k) c st (state x)).
  Proof.
    intros hl hk. unfold pam_iteration_n. cbn [p_med p_data p_rl p_loss p_swaps p_iter].
    eapply cok_bind.
    - apply cok_fold with (I := fun _ => True)
        (w := fun j => if in_dec Nat.eq_dec j (p_med st) then 0 else k * (n - 1)); auto.
      intros j s _ _. eapply cok_mono; [apply pam_cand_cost|]. intros c a h. split; [|auto].
      rewrite (proj1 hl), (proj2 hl) in h. apply knows_cost with (1 := hk) (2 := h).
    - intros c best [-> _]. rewrite sum_out with (k := k); [|apply hl|apply hk|apply hk].
      eapply cok_mono; [apply swap_best_cost; exact hl|]. cbn [p_iter p_swaps].
      intros c x (h1 & h2 & h3). split; [auto|]. unfold within, lo_p, up_p. rewrite h2. nia.
  Qed.

  (** without any assumption *)
  Lemma pam_iteration_cost_le k (st : pst Nt Lt) : p_len k st ->
    cok (pam_iteration_n M st) (fun c x => p_len k (state x) /\
      within (fun _ => 0) (fun s => n * k * (n * p_iter s + p_swaps s)) c st (state x)).
  Proof.
    intros hl. unfold pam_iteration_n. cbn [p_med p_data p_rl p_loss p_swaps p_iter].
    eapply cok_bind.
    - apply cok_fold_le with (I := fun _ => True) (w := fun _ => k * (n - 1)); auto.
      intros j s _ _. eapply cok_mono; [apply pam_cand_cost|]. intros c a (r & mj & _ & _ & ->). split; [|auto].
      cbv beta. rewrite (proj1 hl), (proj2 hl). destruct (j =? mj); [apply Nat.le_0_l|apply Nat.le_refl].
    - intros c best [hc _]. rewrite list_sum_const, seq_length in hc.
      eapply cok_mono; [apply swap_best_cost; exact hl|]. cbn [p_iter p_swaps].
      intros c' x (h1 & h2 & h3). split; [auto|]. cbv beta in *.
      assert (hc2 : k * (n - 1) * n <= n * k * n) by nia.
      unfold within. rewrite h2. split; [lia|]. cbn [p_iter p_swaps]. nia.
  Qed.

  Lemma size_repeat k : size (repeat 0 k) 0 = k.
  Proof. unfold size. induction k; cbn; [auto|]. unfold list_sum in *. cbn. auto. Qed.

  Lemma single_cost_le med : cok (single_medoid_n (Lt := Lt) M med) (fun c r => c <= n * n /\ r_iter r = 1).
  Proof.
    unfold single_medoid_n. eapply cok_bind; [apply choose_cost_le|].
    intros c [[med' sw] loss] [_ hc]. rewrite size_repeat in hc. apply cok_ret. cbn [r_iter]. split; [lia|auto].
  Qed.

  Lemma pam_optimize_cost_le med data maxiter loss : length data = n ->
    cok (pam_optimize_n M med data maxiter loss) (fun c (r : pam_result Lt) =>
      c <= n * length med * (n * r_iter r + r_swaps r)).
  Proof.
    intros hd. unfold pam_optimize_n. destruct (Nat.eqb_spec (length med) 1) as [e|_].
    - rewrite e. eapply cok_mono; [apply single_cost_le|]. cbv beta. intros c r [h ->]. nia.
    - eapply cok_bind.
      + apply cok_while with (I := p_len (length med)) (lo := fun _ => 0)
          (up := fun s : pst Nt Lt => n * length med * (n * p_iter s + p_swaps s)).
        * split; auto.
        * intros s hs. apply pam_iteration_cost_le; auto.
      + intros c st [_ [_ h]]. cbn [p_swaps p_iter] in h. apply cok_ret. cbn [r_swaps r_iter]. nia.
  Qed.


  Lemma build_first_cost k : cok (build_first_n (Lt := Lt) M k) (fun c _ => c = n * (n - 1)).
  Proof.
    unfold build_first_n. eapply cok_mono.
    - apply cok_fold with (I := fun _ => True) (w := fun _ => n - 1); auto.
      intros i s hi _. apply in_seq in hi. eapply cok_bind.
      * unfold build_first_sum_n. apply cok_fold with (I := fun _ => True) (w := fun j => if j =? i then 0 else 1); auto.
        intros j s' _ _. destruct (j =? i); cbn [negb]; [apply cok_ret; auto|apply cok_get1; auto].
      * intros c x [-> _]. apply cok_ret. rewrite sum_but by lia. split; [lia|auto].
    - cbv beta. intros c a [-> _]. rewrite list_sum_const, seq_length. lia.
  Qed.

  Lemma build_next_cost k dn : cok (build_next_n (Lt := Lt) M k dn (seq 0 (length dn)))
    (fun c _ => c = length dn * (length dn - 1)).
  Proof.
    unfold build_next_n. eapply cok_mono.
    - apply cok_fold with (I := fun _ => True) (w := fun _ => length dn - 1); auto.
      intros i s hi _. apply in_seq in hi. eapply cok_bind with (P := fun c _ => c = length dn - 1).
      * unfold build_next_sum_n. eapply cok_bind; [apply cok_idx|]. intros c d0 [-> _].
        eapply cok_mono;
          [apply cok_fold with (I := fun _ => True) (w := fun p : nat * Nt => if fst p =? i then 0 else 1); auto|].
        2: { intros c x [-> _]. rewrite (map_enum (fun j => if j =? i then 0 else 1)), sum_but by lia. lia. }
        intros [j dj] s' _ _. cbn [fst]. destruct (j =? i); cbn [negb]; [apply cok_ret; auto|apply cok_get1; auto].
      * cbv beta. intros c x h. apply cok_ret. split; [lia|auto].
    - cbv beta. intros c a [-> _]. rewrite list_sum_const, seq_length. lia.
  Qed.

  Definition b_len (st : bst Nt Lt) : Prop := length (b_data st) = n.

  Lemma build_step_cost k st l : b_len st ->
    cok (build_step_n M k st l) (fun c x => b_len (state x) /\ c <= n * n /\
      length (b_meds (state x)) <= S (length (b_meds st))).
  Proof.
    intros hl. unfold build_step_n. rewrite map_fst_enum.
    assert (h0 := build_next_cost k (map (fun r => dd (near r)) (b_data st))). rewrite map_length, hl in h0. rewrite hl.
    eapply cok_bind; [apply h0|]. intros c best ->. destruct (lleb lzero (fst best)).
    - apply cok_ret. cbn [state]. split; [auto|]. split; nia.
    - destruct (Nat.eq_dec n 0) as [e0|n0].
      + assert (hd : b_data st = []) by (apply length_zero_iff_nil; unfold b_len in hl; lia). rewrite hd.
        cbn [enum length seq combine cmapM]. eapply cok_bind; [apply cok_ret with (Q := fun c a => c = 0 /\ length a = 0); auto|].
        intros c rs [-> hrs]. apply cok_ret. cbn [state b_meds b_data]. unfold b_len. cbn [b_data]. rewrite map_length, app_length.
        cbn [length]. split; [lia|]. split; nia.
      + eapply cok_bind.
        * apply cok_map_le with (w := fun _ => 1). intros [j recj] _. unfold build_upd_obj_n.
          destruct (j =? snd best); [apply cok_ret; lia|].
          eapply cok_bind; [apply cok_get with (Q := fun c _ => c = 1); auto|]. intros c d ->. apply cok_ret. lia.
        * intros c rs [hc hrs]. rewrite list_sum_const, length_enum, hl in hc. apply cok_ret. cbn [state b_meds b_data].
          unfold b_len. cbn [b_data]. rewrite map_length, app_length, hrs, length_enum. cbn [length].
          split; [auto|]. split; [nia|lia].
  Qed.

  Lemma build_cost k : 1 <= k -> cok (pam_build_initialize_n (Lt := Lt) M k) (fun c st =>
    b_len st /\ c <= n * n * k /\ length (b_meds st) <= k).
  Proof.
    intros hk. unfold pam_build_initialize_n.
    eapply cok_bind; [apply cok_lift with (Q := fun c _ => c = 0); auto|]. intros c sq ->.
    eapply cok_bind; [apply cok_lift with (Q := fun c _ => c = 0); auto|]. intros c u ->.
    eapply cok_bind; [apply build_first_cost|]. intros c best ->.
    eapply cok_bind.
    - apply cok_map with (w := fun _ => 1). intros j _. apply cok_get1. auto.
    - intros c data [-> hd]. rewrite list_sum_const. rewrite seq_length in *.
      eapply cok_mono.
      + apply cok_and.
        * apply cok_for with (I := b_len) (up := fun _ => 0) (w := n * n).
          -- unfold b_len. cbn [b_data]. auto.
          -- intros l s _ hs. eapply cok_mono; [apply build_step_cost; auto|]. cbv beta. intros c x (h1 & h2 & _). split; [auto|lia].
        * apply cok_for_grow with (I := b_len) (g := fun s : bst Nt Lt => length (b_meds s)).
          -- unfold b_len. cbn [b_data]. auto.
          -- intros l s _ hs. eapply cok_mono; [apply build_step_cost; auto|]. cbv beta. intros c x (h1 & _ & h3). auto.
      + cbv beta. cbn [b_meds length]. intros c st [[h1 h2] h3]. rewrite seq_length in *.
        split; [auto|]. split; [nia|lia].
  Qed.

  Lemma pam_cost k maxiter : cok (pam_n M k maxiter) (fun c (r : pam_result Lt) =>
    c <= n * k * (n * (1 + r_iter r) + r_swaps r)).
  Proof.
    unfold pam_n. eapply cok_bind; [apply cok_lift with (Q := fun c _ => c = 0 /\ 1 <= k)|].
    { unfold check_input. intros u e. apply bind_ok in e as (sq & _ & e). apply bind_ok in e as (u1 & _ & e).
      apply bind_ok in e as (u2 & _ & e). apply bind_ok in e as (u3 & e & _).
      destruct k; [discriminate|]. split; [auto|lia]. }
    intros c u [-> hk]. eapply cok_bind; [apply build_cost; auto|]. intros c st (h1 & h2 & h3).
    eapply cok_mono; [apply pam_optimize_cost_le; exact h1|]. cbv beta. intros c' r h.
    assert (n * length (b_meds st) * (n * r_iter r + r_swaps r) <= n * k * (n * r_iter r + r_swaps r)).
    { apply Nat.mul_le_mono_r, Nat.mul_le_mono_l. auto. }
    nia.
  Qed.

  (** *** alternating.rs *)
  Lemma an_obj_cost med fc i : cok (an_obj_n (Lt := Lt) M med fc i) (fun c _ => c = 1 + (length med - 1)).
  Proof.
    unfold an_obj_n. eapply cok_bind; [apply cok_get with (Q := fun c _ => c = 1); auto|]. intros c d ->.
    eapply cok_bind.
    - apply cok_fold with (I := fun _ => True) (w := fun _ => 1); auto.
      intros [m me] s _ _. apply cok_get1. auto.
    - intros c cur [-> _]. apply cok_ret. rewrite list_sum_const, length_skip1, length_enum. lia.
  Qed.

  Lemma assign_cost med : cok (assign_nearest_n (Lt := Lt) M med) (fun c p =>
    c = n * length med /\ length (snd p) = n).
  Proof.
    unfold assign_nearest_n. eapply cok_bind; [apply cok_lift with (Q := fun c _ => c = 0); auto|]. intros c u ->.
    eapply cok_bind; [apply cok_lift with (Q := fun c _ => c = 0 /\ 1 <= length med)|].
    { unfold idx. intros a. destruct med; [discriminate|]. cbn. split; [auto|lia]. }
    intros c fc [-> hk]. eapply cok_bind; [apply cok_map; intros a _; apply an_obj_cost|].
    intros c rs [-> hl]. apply cok_ret. rewrite list_sum_const, seq_length. cbn [snd]. rewrite map_length, hl, seq_length. nia.
  Qed.

  (** the clusters together have at most all objects *)
  Lemma size_sum assi k : list_sum (map (size assi) (seq 0 k)) <= length assi.
  Proof.
    assert (G : forall s m, list_sum (map (size assi) (seq s m)) =
      list_sum (map (fun a => if (s <=? a) && (a <? s + m) then 1 else 0) assi)).
    { intros s m. revert s. induction m; intros s; cbn [seq map].
      - transitivity 0; [reflexivity|]. symmetry. rewrite map_ext with (g := fun _ => 0).
        + apply list_sum_const.
        + intros a. destruct (Nat.leb_spec s a), (Nat.ltb_spec a (s + 0)); cbn; lia.
      - transitivity (size assi s + list_sum (map (size assi) (seq (S s) m))); [reflexivity|]. rewrite IHm.
        unfold size. clear IHm. induction assi as [|a l IH]; [reflexivity|]. cbn [map].
        transitivity ((if a =? s then 1 else 0) + (if (S s <=? a) && (a <? S s + m) then 1 else 0)
          + (list_sum (map (fun a => if a =? s then 1 else 0) l) +
             list_sum (map (fun a => if (S s <=? a) && (a <? S s + m) then 1 else 0) l))); [cbn; unfold list_sum; lia|].
        rewrite IH.
        transitivity ((if (s <=? a) && (a <? s + S m) then 1 else 0) +
          list_sum (map (fun a => if (s <=? a) && (a <? s + S m) then 1 else 0) l)); [|reflexivity]. f_equal.
        destruct (Nat.eqb_spec a s), (Nat.leb_spec (S s) a), (Nat.ltb_spec a (S s + m)), (Nat.leb_spec s a),
          (Nat.ltb_spec a (s + S m)); cbn; lia. }
    rewrite G. transitivity (list_sum (map (fun _ => 1) assi)).
    - apply list_sum_le. intros a _. destruct (_ && _); lia.
    - rewrite list_sum_const. lia.
  Qed.

  Lemma squares l : list_sum (map (fun x => x * x) l) <= list_sum l * list_sum l.
  Proof. induction l; cbn; [lia|]. unfold list_sum in *. nia. Qed.

  Lemma alt_medoids_cost assi med : cok (alt_medoids_n (Lt := Lt) M assi med) (fun c r =>
    c <= length assi * length assi /\ length (fst r) = length med).
  Proof.
    unfold alt_medoids_n. eapply cok_mono.
    - apply cok_fold_le with (I := fun r : list nat * bool => length (fst r) = length med)
        (w := fun i => size assi i * size assi i); [auto|].
      intros i [med1 ch] _ hl. cbn [fst] in hl. eapply cok_bind; [apply choose_cost_le|].
      intros c [[med' ch'] x] [h1 h2]. cbn [fst] in h1. apply cok_ret. cbn [fst]. split; [lia|congruence].
    - cbv beta. intros c r [h1 h2]. split; [|auto].
      pose proof (squares (map (size assi) (seq 0 (length med)))) as h. rewrite map_map in h.
      pose proof (size_sum assi (length med)). nia.
  Qed.

  Definition a_len (k : nat) (st : ast Lt) : Prop := length (al_med st) = k /\ length (al_assi st) = n.

  Lemma alternating_cost med maxiter : cok (alternating_n M med maxiter) (fun c (r : pam_result Lt) =>
    n * length med <= c /\ c <= n * length med + (n * n + n * length med) * r_iter r).
  Proof.
    unfold alternating_n. eapply cok_bind; [apply assign_cost|]. intros c [loss assi] [-> ha]. cbn [snd] in ha.
    eapply cok_bind.
    - apply cok_while with (I := a_len (length med)) (lo := fun _ => 0)
        (up := fun s : ast Lt => (n * n + n * length med) * al_iter s).
      + split; auto.
      + intros st [h1 h2]. unfold alt_iteration_n. eapply cok_bind; [apply alt_medoids_cost|].
        intros c [med' ch] [hc hl]. cbn [fst] in hl. rewrite h2 in hc. destruct ch; cbn [negb].
        * eapply cok_bind; [apply assign_cost|]. intros c' [loss' assi'] [-> ha']. cbn [snd] in ha'.
          apply cok_ret. cbn [state]. split; [split; cbn [al_med al_assi]; congruence|].
          unfold within. cbn [al_iter]. rewrite hl, h1. nia.
        * apply cok_ret. cbn [state]. split; [split; cbn [al_med al_assi]; congruence|].
          unfold within. cbn [al_iter]. nia.
    - intros c st [_ [_ h]]. cbn [al_iter] in h. apply cok_ret. cbn [r_iter]. nia.
  Qed.

  (** *** silhouette.rs *)
  Lemma sil_buf_cost assi i : i < length assi ->
    cok (sil_buf_n (Lt := Lt) M assi i) (fun c _ => c = length assi - 1).
  Proof.
    intros hi. unfold sil_buf_n. eapply cok_mono.
    - apply cok_fold with (I := fun _ => True) (w := fun p : nat * nat => if fst p =? i then 0 else 1); auto.
      intros [j aj] buf _ _. cbn [fst]. rewrite Nat.eqb_sym. destruct (j =? i); cbn [negb]; [apply cok_ret; auto|].
      eapply cok_bind; [apply cok_idx|]. intros c p [-> _].
      eapply cok_bind; [apply cok_get with (Q := fun c _ => c = 1); auto|]. intros c d ->.
      apply cok_lift. auto.
    - cbv beta. intros c b [-> _]. rewrite (map_enum (fun j => if j =? i then 0 else 1)), sum_but by lia. auto.
  Qed.

  Lemma silhouette_cost assi samples : cok (silhouette_n (Lt := Lt) M assi samples) (fun c _ =>
    c <= length assi * (length assi - 1)).
  Proof.
    unfold silhouette_n.
    eapply cok_bind; [apply cok_lift with (Q := fun c _ => c = 0); auto|]. intros c sq ->.
    eapply cok_bind; [apply cok_lift with (Q := fun c _ => c = 0); auto|]. intros c u ->.
    eapply cok_bind.
    - apply cok_for with (I := fun _ => True) (up := fun _ => 0) (w := length assi - 1); auto.
      intros [i ai] st hin _. apply in_combine_l, in_seq in hin. unfold sil_step_n.
      eapply cok_bind; [apply sil_buf_cost; lia|]. intros c buf ->.
      destruct (length buf =? 1); [apply cok_ret; split; [auto|lia]|].
      eapply cok_bind; [apply cok_lift with (Q := fun c _ => c = 0); auto|]. intros c x ->.
      eapply cok_bind; [apply cok_lift with (Q := fun c _ => c = 0); auto|]. intros c y ->.
      apply cok_ret. split; [auto|lia].
    - cbv beta. intros c st [_ hc]. rewrite length_enum in hc. destruct (sl_done st); [apply cok_ret; nia|].
      eapply cok_bind; [apply cok_lift with (Q := fun c _ => c = 0); auto|]. intros c' x ->. apply cok_ret. nia.
  Qed.

  Lemma par_silhouette_cost assi : cok (par_silhouette_n (Lt := Lt) M assi) (fun c _ =>
    c = length assi * (length assi - 1)).
  Proof.
    unfold par_silhouette_n.
    eapply cok_bind; [apply cok_lift with (Q := fun c _ => c = 0); auto|]. intros c sq ->.
    eapply cok_bind; [apply cok_lift with (Q := fun c _ => c = 0); auto|]. intros c u ->.
    eapply cok_bind.
    - apply cok_map with (w := fun _ => length assi - 1).
      intros [i ai] hin. apply in_combine_l, in_seq in hin.
      eapply cok_bind; [apply sil_buf_cost; lia|]. intros c buf ->. apply cok_lift. intros. lia.
    - cbv beta. intros c ss [-> _]. apply cok_ret. rewrite list_sum_const, length_enum. lia.
  Qed.

  Lemma medoid_silhouette_cost meds samples : cok (medoid_silhouette_n (Lt := Lt) M meds samples) (fun c _ =>
    c = if length meds =? 1 then 0 else n * length meds).
  Proof.
    unfold medoid_silhouette_n.
    eapply cok_bind; [apply cok_lift with (Q := fun c _ => c = 0); auto|]. intros c sq ->.
    eapply cok_bind; [apply cok_lift with (Q := fun c _ => c = 0); auto|]. intros c u ->.
    eapply cok_bind; [apply cok_lift with (Q := fun c _ => c = 0); auto|]. intros c u1 ->.
    destruct (length meds =? 1); [apply cok_ret; auto|].
    eapply cok_bind; [apply cok_lift with (Q := fun c _ => c = 0); auto|]. intros c u2 ->.
    eapply cok_bind.
    - apply cok_fold with (I := fun _ => True) (w := fun _ => length meds); auto.
      intros i [loss sil] _ _. unfold ms_step_n. eapply cok_bind with (P := fun c _ => c = length meds).
      + unfold ms_best_n. eapply cok_bind; [apply cok_idx|]. intros c m0 [-> _].
        eapply cok_bind; [apply cok_get with (Q := fun c _ => c = 1); auto|]. intros c d1 ->.
        eapply cok_bind; [apply cok_idx|]. intros c m1 [-> h1].
        assert (hl : 1 < length meds) by (apply nth_error_Some; congruence).
        eapply cok_bind; [apply cok_get with (Q := fun c _ => c = 1); auto|]. intros c d2 ->.
        eapply cok_mono; [apply cok_fold with (I := fun _ => True) (w := fun _ => 1); auto|].
        * intros m s _ _. apply cok_get1. auto.
        * cbv beta. intros c b [-> _]. rewrite list_sum_const, skipn_length. lia.
      + intros c best ->. destruct (negb (nis_zero (fst best))); [|apply cok_ret; split; [lia|auto]].
        eapply cok_bind; [apply cok_lift with (Q := fun c _ => c = 0); auto|]. intros c x ->. apply cok_ret. split; [lia|auto].
    - cbv beta. intros c [loss sil] [-> _]. apply cok_ret. rewrite list_sum_const, seq_length. lia.
  Qed.

  (** *** fastermsc.rs, fastmsc.rs and pammedsil.rs *)
  Lemma ia3_obj_cost med fc i : cok (ia3_obj_n (Lt := Lt) M med fc i) (fun c _ => c = 1 + (length med - 1)).
  Proof.
    unfold ia3_obj_n. eapply cok_bind; [apply cok_get with (Q := fun c _ => c = 1); auto|]. intros c d ->.
    eapply cok_bind.
    - apply cok_fold with (I := fun _ => True) (w := fun _ => 1); auto.
      intros [m me] s _ _. unfold ia3_step_n. apply cok_get1. auto.
    - intros c cur [-> _]. apply cok_ret. rewrite list_sum_const, length_skip1, length_enum. lia.
  Qed.

  Lemma initial3_cost med : cok (initial_assignment3_n (Lt := Lt) M med) (fun c p =>
    c = n * length med /\ length (snd p) = n /\ 1 <= length med).
  Proof.
    unfold initial_assignment3_n. eapply cok_bind; [apply cok_lift with (Q := fun c _ => c = 0); auto|]. intros c u ->.
    eapply cok_bind; [apply cok_lift with (Q := fun c _ => c = 0 /\ 1 <= length med)|].
    { unfold idx. intros a. destruct med; [discriminate|]. cbn. split; [auto|lia]. }
    intros c fc [-> hk]. eapply cok_bind; [apply cok_map; intros a _; apply ia3_obj_cost|].
    intros c rs [-> hl]. eapply cok_bind; [apply cok_lift with (Q := fun c _ => c = 0); auto|].
    intros c loss ->. apply cok_ret. rewrite list_sum_const, seq_length. cbn [snd]. rewrite map_length, hl, seq_length. nia.
  Qed.

  Lemma find_best_swap3_cost (rl : list Lt) data j : cok (find_best_swap3_n M rl data j) (fun c _ => c = length data).
  Proof.
    unfold find_best_swap3_n. eapply cok_bind.
    - apply cok_fold with (I := fun _ => True) (w := fun _ => 1); auto.
      intros [o reco] [pl acc] _ _. unfold fbs3_step_n.
      eapply cok_bind; [apply cok_get with (Q := fun c _ => c = 1); auto|]. intros c d ->. cbv zeta.
      destruct (nltb d (dd (near3 reco))); [|destruct (nltb d (dd (seco3 reco))); [|destruct (nltb d (dd (third3 reco)))]].
      1,2,3: eapply cok_bind; [apply cok_lift with (Q := fun c _ => c = 0); auto|]; intros c l ->;
             eapply cok_bind; [apply cok_lift with (Q := fun c _ => c = 0); auto|]; intros c l' ->; apply cok_ret; auto.
      apply cok_ret. auto.
    - intros c [pl acc] [-> _]. eapply cok_bind; [apply cok_lift with (Q := fun c _ => c = 0); auto|].
      intros c [b bl] ->. apply cok_ret. rewrite list_sum_const, length_enum. lia.
  Qed.

  Lemma third_cost med x y b o d : b < length med ->
    cok (update_third_nearest_n M med x y b o d) (fun c _ => c <= length med - 1).
  Proof.
    intros hb. unfold update_third_nearest_n. eapply cok_mono.
    - apply cok_fold_le with (I := fun _ => True) (w := fun p : nat * nat => if fst p =? b then 0 else 1); auto.
      intros [i mi] s _ _. cbn [fst]. destruct (i =? x), (i =? b), (i =? y); cbn [orb].
      1-7: apply cok_ret; split; [lia|auto].
      apply cok_get1. auto.
    - intros c r [hc _]. rewrite (map_enum (fun i => if i =? b then 0 else 1)), sum_but in hc by lia. lia.
  Qed.

  Lemma do_swap3_obj_cost med b j p : b < length med ->
    cok (do_swap3_obj_n (Lt := Lt) M med b j p) (fun c _ => c <= length med).
  Proof.
    intros hb. destruct p as [o reco]. unfold do_swap3_obj_n. cbv zeta. destruct (o =? j).
    - apply cok_ret. lia.
    - eapply cok_bind; [apply cok_get with (Q := fun c _ => c = 1); auto|]. intros c d ->.
      eapply cok_bind with (P := fun c _ => c <= length med - 1).
      + assert (G : forall x y (f : dpair Nt -> Reco Nt),
          cok (cbind (update_third_nearest_n M med x y b o d) (fun t => cret (f t))) (fun c _ => c <= length med - 1)).
        { intros x y f. eapply cok_bind; [apply third_cost; auto|]. intros c s hc. apply cok_ret. cbv beta in *. lia. }
        repeat match goal with
        | |- cok (cret _) _ => apply cok_ret; lia
        | |- cok (cbind _ _) _ => apply G
        | |- cok (if ?b then _ else _) _ => destruct b
        end.
      + intros c r hc. apply cok_ret. cbv beta in *. lia.
  Qed.

  Lemma do_swap3_cost med data b j : cok (do_swap3_n (Lt := Lt) M med data b j) (fun c r =>
    c <= length data * length med /\ length (fst (fst r)) = length med /\ length (snd (fst r)) = length data).
  Proof.
    unfold do_swap3_n. eapply cok_bind; [apply cok_lift with (Q := fun c _ => c = 0 /\ b < length med)|].
    { unfold assertb. intros a. destruct (Nat.ltb_spec b (length med)); [auto|discriminate]. }
    intros c u [-> hb]. eapply cok_bind; [apply cok_lift with (Q := fun c _ => c = 0); auto|]. intros c u' ->.
    eapply cok_bind; [apply cok_lift with (Q := fun c a => c = 0 /\ length a = length med)|].
    { unfold upd. intros a. destruct (b <? length med); [|discriminate]. intros e. injection e as <-. rewrite length_set_nth. auto. }
    intros c med' [-> hl]. eapply cok_bind; [apply cok_map_le with (w := fun _ => length med'); intros p _; apply do_swap3_obj_cost; rewrite hl; auto|].
    intros c rs [hc hlr]. eapply cok_bind; [apply cok_lift with (Q := fun c _ => c = 0); auto|].
    intros c' loss ->. apply cok_ret. cbn [fst snd]. rewrite map_length, hlr, length_enum.
    rewrite list_sum_const, length_enum in hc. split; [nia|auto].
  Qed.

  Definition m_len (k : nat) (st : mst Nt Lt) : Prop := length (m_med st) = k /\ length (m_data st) = n.

  Lemma msc_cand_cost k st j : m_len k st ->
    cok (msc_cand_n M st j) (fun c x => m_len k (state x) /\ m_iter (state x) = m_iter st /\
      c + n * k * m_swaps st <= n + n * k * m_swaps (state x)).
  Proof.
    intros [h1 h2]. unfold msc_cand_n. destruct (j =? m_last st).
    - apply cok_ret. cbn [state]. split; [split; auto|]. split; [auto|lia].
    - eapply cok_bind; [apply cok_lift with (Q := fun c _ => c = 0); auto|]. intros c rj ->.
      eapply cok_bind; [apply cok_lift with (Q := fun c _ => c = 0); auto|]. intros c mj ->.
      destruct (j =? mj); [apply cok_ret; cbn [state]; split; [split; auto|]; split; [auto|lia]|].
      eapply cok_bind; [apply find_best_swap3_cost|]. intros c [change b] ->.
      destruct (lleb change lzero); [apply cok_ret; cbn [state]; split; [split; auto|]; split; [auto|lia]|].
      eapply cok_bind; [apply do_swap3_cost|]. intros c [[med' data'] loss'] (hc & hm & hd).
      cbn [fst snd] in *.
      eapply cok_bind; [apply cok_lift with (Q := fun c _ => c = 0); auto|]. intros c' rl' ->.
      apply cok_ret. cbn [state m_swaps m_iter]. split; [split; cbn [m_med m_data]; congruence|].
      split; [auto|]. rewrite h1, h2 in hc. nia.
  Qed.

  Lemma msc_iteration_cost k st : m_len k st ->
    cok (msc_iteration_n M st) (fun c x => m_len k (state x) /\
      within (fun _ => 0) (fun s : mst Nt Lt => n * k * m_swaps s + n * n * m_iter s) c st (state x)).
  Proof.
    intros hi. unfold msc_iteration_n. eapply cok_bind.
    - apply cok_for with (I := fun s => m_len k s /\ m_iter s = S (m_iter st))
        (up := fun s : mst Nt Lt => n * k * m_swaps s) (w := n).
      + split; [exact hi|auto].
      + intros j s _ [his hit]. eapply cok_mono; [apply msc_cand_cost; eauto|].
        cbv beta. intros c x (h1 & h2 & h3). split; [split; [auto|congruence]|]. auto.
    - cbv beta. cbn [m_swaps]. rewrite seq_length. intros c st' [[hi' hit] hc].
      assert (G : within (fun _ => 0) (fun s : mst Nt Lt => n * k * m_swaps s + n * n * m_iter s) c st st').
      { split; [lia|]. rewrite hit. nia. }
      destruct (_ || _); apply cok_ret; cbn [state]; rewrite Nat.add_0_r; auto.
  Qed.

  (** two medoids *)
  Lemma initial2_cost med : cok (initial_assignment_k2_n (Lt := Lt) M med) (fun c p =>
    c = n * 2 /\ length (snd p) = n /\ length (snd (fst p)) = n).
  Proof.
    unfold initial_assignment_k2_n.
    do 6 (eapply cok_bind; [apply cok_lift with (Q := fun c _ => c = 0); auto|]; intros ? ? ->).
    eapply cok_bind.
    - apply cok_map with (w := fun _ => 2). intros i _. unfold ia2_obj_n.
      eapply cok_bind; [apply cok_get with (Q := fun c _ => c = 1); auto|]. intros c d0 ->.
      eapply cok_bind; [apply cok_get with (Q := fun c _ => c = 1); auto|]. intros c d1 ->.
      destruct (nltb d0 d1); apply cok_ret; auto.
    - cbv beta. intros c rs [-> hl]. eapply cok_bind; [apply cok_lift with (Q := fun c _ => c = 0); auto|].
      intros c loss ->. apply cok_ret. cbn [fst snd]. rewrite !map_length, hl, list_sum_const, seq_length. lia.
  Qed.

  Lemma find_best_swap_k2_cost data j : cok (find_best_swap_k2_n (Lt := Lt) M data j) (fun c _ => c = length data).
  Proof.
    unfold find_best_swap_k2_n. eapply cok_bind.
    - apply cok_fold with (I := fun _ => True) (w := fun _ => 1); auto.
      intros [o [d0 d1]] pl _ _. unfold fbs2_step_n. apply cok_get1. auto.
    - intros c pl [-> _]. eapply cok_bind; [apply cok_lift with (Q := fun c _ => c = 0); auto|].
      intros c [b bl] ->. apply cok_ret. rewrite list_sum_const, length_enum. lia.
  Qed.

  Definition k_len (st : kst Nt Lt) : Prop := length (k_assi st) = n /\ length (k_data st) = n.

  Lemma do_swap_k2_cost med assi data b j : length assi = n -> length data = n ->
    cok (do_swap_k2_n (Lt := Lt) M med assi data b j) (fun c r =>
      c <= n /\ length (snd (fst (fst r))) = n /\ length (snd (fst r)) = n).
  Proof.
    intros ha hd. unfold do_swap_k2_n.
    do 3 (eapply cok_bind; [apply cok_lift with (Q := fun c _ => c = 0); auto|]; intros ? ? ->).
    eapply cok_bind.
    - apply cok_map_le with (w := fun _ => 1). intros [o [ao [d0 d1]]] _. unfold do_swap2_obj_n.
      destruct (b =? 0), (o =? j); try (apply cok_ret; lia).
      all: eapply cok_bind; [apply cok_get with (Q := fun c _ => c = 1); auto|]; intros c d ->;
        match goal with |- context [if ?x then _ else _] => destruct x end; apply cok_ret; lia.
    - cbv beta. intros c rs [hc hl]. rewrite list_sum_const, length_enum, combine_length in hc.
      rewrite length_enum, combine_length in hl.
      eapply cok_bind; [apply cok_lift with (Q := fun c _ => c = 0); auto|].
      intros c' loss ->. apply cok_ret. cbn [fst snd]. rewrite !map_length, hl. lia.
  Qed.

  Lemma k2_cand_cost st j : k_len st ->
    cok (k2_cand_n M st j) (fun c x => k_len (state x) /\ k_iter (state x) = k_iter st /\
      c + n * k_swaps st <= n + n * k_swaps (state x)).
  Proof.
    intros [h1 h2]. unfold k2_cand_n. destruct (j =? k_last st).
    - apply cok_ret. cbn [state]. split; [split; auto|]. split; [auto|lia].
    - eapply cok_bind; [apply cok_lift with (Q := fun c _ => c = 0); auto|]. intros c rj ->.
      eapply cok_bind; [apply cok_lift with (Q := fun c _ => c = 0); auto|]. intros c mj ->.
      destruct (j =? mj); [apply cok_ret; cbn [state]; split; [split; auto|]; split; [auto|lia]|].
      eapply cok_bind; [apply find_best_swap_k2_cost|]. intros c [newloss b] ->.
      destruct (lleb (k_loss st) newloss); [apply cok_ret; cbn [state]; split; [split; auto|]; split; [auto|lia]|].
      eapply cok_bind; [apply do_swap_k2_cost; auto|]. intros c [[[med' assi'] data'] loss'] (hc & hm & hd).
      cbn [fst snd] in *. apply cok_ret. cbn [state k_swaps k_iter]. split; [split; cbn [k_assi k_data]; congruence|].
      split; [auto|]. nia.
  Qed.

  Lemma fastermsc_k2_cost med maxiter : cok (fastermsc_k2_n M med maxiter) (fun c (r : pam_result Lt) =>
    n * 2 <= c /\ c <= n * 2 + n * r_swaps r + n * n * r_iter r).
  Proof.
    unfold fastermsc_k2_n. eapply cok_bind; [apply cok_lift with (Q := fun c _ => c = 0); auto|]. intros c u ->.
    eapply cok_bind; [apply initial2_cost|]. intros c [[loss assi] data] (-> & hd & ha). cbn [fst snd] in *.
    eapply cok_bind.
    - apply cok_while with (I := k_len) (lo := fun _ => 0)
        (up := fun s : kst Nt Lt => n * k_swaps s + n * n * k_iter s).
      + split; auto.
      + intros st hs. unfold k2_iteration_n. eapply cok_bind.
        * apply cok_for with (I := fun s => k_len s /\ k_iter s = S (k_iter st))
            (up := fun s : kst Nt Lt => n * k_swaps s) (w := n).
          -- split; [exact hs|auto].
          -- intros j s _ [his hit]. eapply cok_mono; [apply k2_cand_cost; eauto|].
             cbv beta. intros c x (h1 & h2 & h3). split; [split; [auto|congruence]|]. auto.
        * cbv beta. cbn [k_swaps]. rewrite seq_length. intros c st' [[hi' hit] hc].
          assert (G : within (fun _ => 0) (fun s : kst Nt Lt => n * k_swaps s + n * n * k_iter s) c st st').
          { split; [lia|]. rewrite hit. nia. }
          destruct (_ || _); apply cok_ret; cbn [state]; rewrite Nat.add_0_r; auto.
    - intros c st [_ [_ h]]. cbn [k_swaps k_iter] in h. apply cok_ret. cbn [r_swaps r_iter]. nia.
  Qed.

  Lemma fastermsc_cost med maxiter : 2 <= length med ->
    cok (fastermsc_n M med maxiter) (fun c (r : pam_result Lt) =>
      n * length med <= c /\ c <= n * length med * (1 + r_swaps r) + n * n * r_iter r).
  Proof.
    intros hk. unfold fastermsc_n. destruct (Nat.eqb_spec (length med) 1) as [|_]; [lia|].
    destruct (Nat.eqb_spec (length med) 2) as [e2|_].
    - eapply cok_mono; [apply fastermsc_k2_cost|]. cbv beta. intros c r h. rewrite e2. nia.
    - eapply cok_bind; [apply initial3_cost|]. intros c [loss data] (-> & hd & _). cbn [snd] in hd.
      eapply cok_bind; [apply cok_lift with (Q := fun c _ => c = 0); auto|]. intros c rl ->.
      eapply cok_bind.
      + apply cok_while with (I := m_len (length med)) (lo := fun _ => 0)
          (up := fun s : mst Nt Lt => n * length med * m_swaps s + n * n * m_iter s).
        * split; auto.
        * intros s hs. apply msc_iteration_cost. auto.
      + intros c st [_ [_ h]]. cbn [m_swaps m_iter] in h. apply cok_ret. cbn [r_swaps r_iter]. nia.
  Qed.

  (** what it costs to consider candidate [j]: nothing for a medoid, else [w] *)
  Definition cand3_cost (med : list nat) (data : list (Reco Nt)) (w c j : nat) : Prop :=
    exists r mj, nth_error data j = Some r /\ nth_error med (as_usize (di (near3 r))) = Some mj /\
      c = if j =? mj then 0 else w.

  Lemma fastmsc_cand_cost med data (rl : list Lt) best j :
    cok (fastmsc_cand_n M med data rl best j) (fun c _ => cand3_cost med data (length data) c j).
  Proof.
    unfold fastmsc_cand_n. eapply cok_bind; [apply cok_idx|]. intros c r [-> hr].
    eapply cok_bind; [apply cok_idx|]. intros c mj [-> hm]. unfold cand3_cost.
    destruct (j =? mj) eqn:e.
    - apply cok_ret. exists r, mj. rewrite e. auto.
    - eapply cok_bind; [apply find_best_swap3_cost|]. intros c [change b] ->.
      destruct (lleb change (fst best)); apply cok_ret; exists r, mj; rewrite e; split; auto; split; auto; lia.
  Qed.

  Lemma find_best_swap_pms_cost (step : nat -> nat -> Lt -> nat * Reco Nt -> cres Lt) (med : list nat) data j :
    (forall j m acc p, cok (step j m acc p) (fun c _ => c = if fst p =? j then 0 else 1)) ->
    cok (find_best_swap_pms_n step med data j) (fun c _ => c = length med * (length data - 1)).
  Proof.
    intros hstep. unfold find_best_swap_pms_n. eapply cok_bind; [apply cok_idx|]. intros c r [-> hr].
    assert (hj : j < length data) by (apply nth_error_Some; congruence).
    eapply cok_mono; [apply cok_fold with (I := fun _ => True) (w := fun _ => length data - 1); auto|].
    - intros m s _ _. eapply cok_bind.
      + apply cok_fold with (I := fun _ => True) (w := fun p : nat * Reco Nt => if fst p =? j then 0 else 1); auto.
        intros p acc _ _. eapply cok_mono; [apply hstep|]. auto.
      + intros c acc [-> _]. apply cok_ret. rewrite (map_enum (fun i => if i =? j then 0 else 1)), sum_but by lia.
        split; [lia|auto].
    - intros c a [-> _]. rewrite list_sum_const, seq_length. lia.
  Qed.

  Lemma pms_cand_cost med data best j :
    cok (pms_cand_n (Lt := Lt) M med data best j)
        (fun c _ => cand3_cost med data (length med * (length data - 1)) c j).
  Proof.
    unfold pms_cand_n. eapply cok_bind; [apply cok_idx|]. intros c r [-> hr].
    eapply cok_bind; [apply cok_idx|]. intros c mj [-> hm]. unfold cand3_cost.
    destruct (j =? mj) eqn:e.
    - apply cok_ret. exists r, mj. rewrite e. auto.
    - eapply cok_bind; [apply find_best_swap_pms_cost|].
      { intros x m acc [o reco]. cbn [fst]. destruct (length med =? 2); [unfold pms2_step_n|unfold pms_step_n].
        all: destruct (o =? x); [apply cok_ret; auto|].
        all: eapply cok_bind; [apply cok_get with (Q := fun c _ => c = 1); auto|]; intros c d ->; cbv zeta; apply cok_ret; auto. }
      intros c [change b] ->.
      destruct (lleb change (fst best)); apply cok_ret; exists r, mj; rewrite e; split; auto; split; auto; lia.
  Qed.

  Lemma swap_best3_cost k (st : mst Nt Lt) rl best : m_len k st ->
    cok (swap_best3_n M st rl best) (fun c x => m_len k (state x) /\ m_iter (state x) = m_iter st /\
      c + n * k * m_swaps st <= n * k * m_swaps (state x)).
  Proof.
    intros [h1 h2]. unfold swap_best3_n. destruct (lltb lzero (fst best)).
    - destruct (snd best) as [[b j]|]; [|apply cok_panic].
      eapply cok_bind; [apply do_swap3_cost|]. intros c [[med' data'] loss'] (hc & hm & hd). cbn [fst snd] in *.
      rewrite h1, h2 in hc.
      destruct (lleb (m_loss st) loss'); apply cok_ret; cbn [state m_iter m_swaps];
        (split; [split; cbn [m_med m_data]; congruence|]); split; auto; nia.
    - apply cok_ret. cbn [state m_iter m_swaps]. split; [split; auto|]. split; [auto|lia].
  Qed.

  Definition knows3 (med : list nat) (data : list (Reco Nt)) : Prop :=
    NoDup med /\ (forall m, In m med -> m < n) /\
    forall j r mj, nth_error data j = Some r -> nth_error med (as_usize (di (near3 r))) = Some mj ->
      In j med -> j = mj.

  Lemma knows3_cost med data w c j : knows3 med data -> cand3_cost med data w c j ->
    c = if in_dec Nat.eq_dec j med then 0 else w.
  Proof.
    intros (_ & _ & h) (r & mj & hr & hm & ->). destruct (in_dec Nat.eq_dec j med) as [hi|hi].
    - rewrite <- (h j r mj hr hm hi), Nat.eqb_refl. auto.
    - destruct (Nat.eqb_spec j mj) as [->|]; auto. apply nth_error_In in hm. tauto.
  Qed.

  Definition lo_m (w k : nat) (st : mst Nt Lt) : nat := w * (n - k) * m_iter st.
  Definition up_m (w k : nat) (st : mst Nt Lt) : nat := w * (n - k) * m_iter st + n * k * m_swaps st.

  Lemma fastmsc_iteration_cost k (st : mst Nt Lt) : m_len k st -> knows3 (m_med st) (m_data st) ->
    cok (fastmsc_iteration_n M st) (fun c x => m_len k (state x) /\ within (lo_m n k) (up_m n k) c st (state x)).
  Proof.
    intros hl hk. unfold fastmsc_iteration_n. cbn [m_med m_data m_rl m_loss m_swaps m_iter m_last].
    eapply cok_bind; [apply cok_lift with (Q := fun c _ => c = 0); auto|]. intros c rl ->.
    eapply cok_bind.
    - apply cok_fold with (I := fun _ => True) (w := fun j => if in_dec Nat.eq_dec j (m_med st) then 0 else n); auto.
      intros j s _ _. eapply cok_mono; [apply fastmsc_cand_cost|]. intros c a h. split; [|auto].
      rewrite (proj2 hl) in h. apply knows3_cost with (1 := hk) (2 := h).
    - intros c best [-> _]. rewrite sum_out with (k := k); [|apply hl|apply hk|apply hk].
      eapply cok_mono; [apply swap_best3_cost; exact hl|]. cbn [m_iter m_swaps].
      intros c x (h1 & h2 & h3). split; [auto|]. unfold within, lo_m, up_m. rewrite h2. nia.
  Qed.

  Lemma pms_iteration_cost k (st : mst Nt Lt) : m_len k st -> knows3 (m_med st) (m_data st) ->
    cok (pms_iteration_n M st) (fun c x => m_len k (state x) /\
      within (lo_m (k * (n - 1)) k) (up_m (k * (n - 1)) k) c st (state x)).
  Proof.
    intros hl hk. unfold pms_iteration_n. cbn [m_med m_data m_rl m_loss m_swaps m_iter m_last].
    eapply cok_bind.
    - apply cok_fold with (I := fun _ => True)
        (w := fun j => if in_dec Nat.eq_dec j (m_med st) then 0 else k * (n - 1)); auto.
      intros j s _ _. eapply cok_mono; [apply pms_cand_cost|]. intros c a h. split; [|auto].
      rewrite (proj1 hl), (proj2 hl) in h. apply knows3_cost with (1 := hk) (2 := h).
    - intros c best [-> _]. rewrite sum_out with (k := k); [|apply hl|apply hk|apply hk].
      eapply cok_mono; [apply swap_best3_cost; exact hl|]. cbn [m_iter m_swaps].
      intros c x (h1 & h2 & h3). split; [auto|]. unfold within, lo_m, up_m. rewrite h2. nia.
  Qed.

  (** upper bounds with no assumption at all *)
  Lemma fastmsc_cost_le med maxiter : 2 <= length med ->
    cok (fastmsc_n M med maxiter) (fun c (r : pam_result Lt) =>
      n * length med <= c /\ c <= n * length med * (1 + r_swaps r) + n * n * r_iter r).
  Proof.
    intros hk. unfold fastmsc_n. destruct (Nat.eqb_spec (length med) 1) as [|_]; [lia|].
    destruct (Nat.eqb_spec (length med) 2) as [e2|_].
    - unfold fastmsc_k2_n. eapply cok_bind; [apply cok_lift with (Q := fun c _ => c = 0); auto|]. intros c u ->.
      eapply cok_bind; [apply initial2_cost|]. intros c [[loss assi] data] (-> & hd & ha). cbn [fst snd] in *.
      eapply cok_bind.
      + apply cok_while with (I := k_len) (lo := fun _ => 0)
          (up := fun s : kst Nt Lt => n * k_swaps s + n * n * k_iter s).
        * split; auto.
        * intros st [hs1 hs2]. unfold fastmsc_k2_iteration_n. cbn [k_med k_assi k_data k_loss k_last k_swaps k_iter].
          eapply cok_bind.
          -- apply cok_fold_le with (I := fun _ => True) (w := fun _ => n); auto.
             intros j best _ _. unfold fastmsc_k2_cand_n. cbn [k_med k_assi k_data k_loss].
             eapply cok_bind; [apply cok_lift with (Q := fun c _ => c = 0); auto|]. intros c aj ->.
             eapply cok_bind; [apply cok_lift with (Q := fun c _ => c = 0); auto|]. intros c mj ->.
             destruct (j =? mj); [apply cok_ret; split; [lia|auto]|].
             eapply cok_bind; [apply find_best_swap_k2_cost|]. intros c [nl b] ->. apply cok_ret. split; [lia|auto].
          -- intros c best [hc _]. rewrite list_sum_const, seq_length in hc. cbv beta in hc.
             destruct (negb (lltb (fst best) (k_loss st))).
             { apply cok_ret. cbn [state]. split; [split; auto|]. unfold within. cbn [k_swaps k_iter]. nia. }
             destruct (snd best) as [[b j]|]; [|apply cok_panic].
             eapply cok_bind; [apply do_swap_k2_cost; auto|]. intros c' [[[med' assi'] data'] nl] (hc' & h1 & h2).
             cbn [fst snd] in *.
             destruct (negb (lltb nl (k_loss st))); apply cok_ret; cbn [state];
               (split; [split; cbn [k_assi k_data]; auto|]); unfold within; cbn [k_swaps k_iter]; nia.
      + intros c st [_ [_ h]]. cbn [k_swaps k_iter] in h. apply cok_ret. cbn [r_swaps r_iter]. rewrite e2. nia.
    - eapply cok_bind; [apply initial3_cost|]. intros c [loss data] (-> & hd & _). cbn [snd] in hd.
      eapply cok_bind.
      + apply cok_while with (I := m_len (length med)) (lo := fun _ => 0)
          (up := fun s : mst Nt Lt => n * length med * m_swaps s + n * n * m_iter s).
        * split; auto.
        * intros st hl. unfold fastmsc_iteration_n. cbn [m_med m_data m_rl m_loss m_swaps m_iter m_last].
          eapply cok_bind; [apply cok_lift with (Q := fun c _ => c = 0); auto|]. intros c rl ->.
          eapply cok_bind.
          -- apply cok_fold_le with (I := fun _ => True) (w := fun _ => n); auto.
             intros j best _ _. eapply cok_mono; [apply fastmsc_cand_cost|].
             intros c a (rj & mj & _ & _ & ->). rewrite (proj2 hl). split; [destruct (j =? mj); lia|auto].
          -- intros c best [hc _]. rewrite list_sum_const, seq_length in hc.
             eapply cok_mono; [apply swap_best3_cost; exact hl|]. cbn [m_iter m_swaps].
             intros c' x (h1 & h2 & h3). split; [auto|]. unfold within. rewrite h2. nia.
      + intros c st [_ [_ h]]. cbn [m_swaps m_iter] in h. apply cok_ret. cbn [r_swaps r_iter]. nia.
  Qed.

  Lemma pammedsil_swap_cost_le med maxiter : 2 <= length med ->
    cok (pammedsil_swap_n M med maxiter) (fun c (r : pam_result Lt) =>
      n * length med <= c /\ c <= n * length med * (1 + r_swaps r) + length med * (n - 1) * n * r_iter r).
  Proof.
    intros hk. unfold pammedsil_swap_n. eapply cok_bind; [apply initial3_cost|].
    intros c [loss data] (-> & hd & _). cbn [snd] in hd. unfold pammedsil_optimize_n.
    destruct (Nat.eqb_spec (length med) 1) as [|_]; [lia|].
    eapply cok_bind.
    - apply cok_while with (I := m_len (length med)) (lo := fun _ => 0)
        (up := fun s : mst Nt Lt => n * length med * m_swaps s + length med * (n - 1) * n * m_iter s).
      + split; auto.
      + intros st hl. unfold pms_iteration_n. cbn [m_med m_data m_rl m_loss m_swaps m_iter m_last].
        eapply cok_bind.
        * apply cok_fold_le with (I := fun _ => True) (w := fun _ => length med * (n - 1)); auto.
          intros j best _ _. eapply cok_mono; [apply pms_cand_cost|].
          intros c a (rj & mj & _ & _ & ->). rewrite (proj1 hl), (proj2 hl). split; [unfold n; destruct (j =? mj); [apply Nat.le_0_l|apply Nat.le_refl]|auto].
        * intros c best [hc _]. rewrite list_sum_const, seq_length in hc.
          eapply cok_mono; [apply swap_best3_cost; exact hl|]. cbn [m_iter m_swaps].
          intros c' x (h1 & h2 & h3). split; [auto|]. unfold within. rewrite h2. nia.
    - intros c st [_ [_ h]]. cbn [m_swaps m_iter] in h. apply cok_ret. cbn [r_swaps r_iter]. nia.
  Qed.
End Bounds.
