(** Hoare.v -- proof rules for the panic monad. *)
From Verif Require Import Base.
Set Implicit Arguments.

(** [m] does not panic and its result satisfies [Q]. *)
Definition oks {A} (m : res A) (Q : A -> Prop) : Prop :=
  match m with Ok a => Q a | Panic _ => False end.

Lemma oks_ok A (a : A) (Q : A -> Prop) : Q a -> oks (Ok a) Q.
Proof. exact (fun h => h). Qed.

Lemma oks_bind A B (m : res A) (f : A -> res B) (P : A -> Prop) (Q : B -> Prop) :
  oks m P -> (forall a, P a -> oks (f a) Q) -> oks (bind m f) Q.
Proof. destruct m; simpl; intuition. Qed.

Lemma oks_mono A (m : res A) (P Q : A -> Prop) :
  oks m P -> (forall a, P a -> Q a) -> oks m Q.
Proof. destruct m; simpl; intuition. Qed.

Lemma oks_and A (m : res A) (P Q : A -> Prop) :
  oks m P -> oks m Q -> oks m (fun a => P a /\ Q a).
Proof. destruct m; simpl; intuition. Qed.

Lemma oks_inv A (m : res A) (Q : A -> Prop) : oks m Q -> exists a, m = Ok a /\ Q a.
Proof. destruct m; simpl; intuition. eauto. Qed.

Lemma oks_intro A (m : res A) (Q : A -> Prop) a : m = Ok a -> Q a -> oks m Q.
Proof. intros ->. auto. Qed.

Lemma oks_elim A (m : res A) (Q : A -> Prop) a : oks m Q -> m = Ok a -> Q a.
Proof. intros h ->. exact h. Qed.

Lemma oks_self A (m : res A) (Q : A -> Prop) : oks m Q -> oks m (fun a => m = Ok a /\ Q a).
Proof. destruct m; simpl; auto. Qed.

(** partial correctness: panics are allowed *)
Definition wk {A} (m : res A) (Q : A -> Prop) : Prop :=
  match m with Ok a => Q a | Panic _ => True end.

Lemma wk_bind A B (m : res A) (f : A -> res B) (P : A -> Prop) (Q : B -> Prop) :
  wk m P -> (forall a, P a -> wk (f a) Q) -> wk (bind m f) Q.
Proof. destruct m; simpl; intuition. Qed.

Lemma wk_true A (m : res A) : wk m (fun _ => True).
Proof. destruct m; simpl; auto. Qed.

Lemma wk_self A (m : res A) : wk m (fun a => m = Ok a).
Proof. destruct m; simpl; auto. Qed.

Lemma wk_mono A (m : res A) (P Q : A -> Prop) :
  wk m P -> (forall a, P a -> Q a) -> wk m Q.
Proof. destruct m; simpl; intuition. Qed.

Lemma bind_ok A B (m : res A) (f : A -> res B) b :
  bind m f = Ok b -> exists a, m = Ok a /\ f a = Ok b.
Proof. destruct m; simpl; intros h; [eauto | discriminate]. Qed.

(** ** lists *)
Lemma idx_oks A (l : list A) i d : i < length l -> oks (idx l i) (fun x => x = nth i l d /\ nth_error l i = Some x).
Proof.
  intros h. unfold idx. destruct (nth_error l i) eqn:e.
  - simpl. split; auto. symmetry. apply nth_error_nth with (1 := e).
  - apply nth_error_None in e. lia.
Qed.

Lemma idx_nth A (l : list A) i d : i < length l -> idx l i = Ok (nth i l d).
Proof. intros h. pose proof (idx_oks l d h) as o. apply oks_inv in o as (x & -> & -> & _). auto. Qed.

Lemma idx_some A (l : list A) i x : nth_error l i = Some x -> idx l i = Ok x.
Proof. unfold idx. intros ->. auto. Qed.

Lemma length_set_nth A (l : list A) i x : length (set_nth l i x) = length l.
Proof. revert i. induction l; destruct i; simpl; auto. Qed.

Lemma nth_set_nth A (l : list A) i x j d :
  i < length l -> nth j (set_nth l i x) d = if j =? i then x else nth j l d.
Proof.
  revert i j. induction l; simpl; intros i j h; [lia|].
  destruct i, j; simpl; auto. apply IHl. lia.
Qed.

Lemma nth_set_nth_eq A (l : list A) i x d : i < length l -> nth i (set_nth l i x) d = x.
Proof. intros h. rewrite nth_set_nth, Nat.eqb_refl; auto. Qed.

Lemma nth_set_nth_neq A (l : list A) i x j d : j <> i -> nth j (set_nth l i x) d = nth j l d.
Proof.
  revert i j. induction l; simpl; intros i j h; auto.
  destruct i, j; simpl; auto; try lia.
Qed.

Lemma set_nth_In A (l : list A) i x y : In y (set_nth l i x) -> y = x \/ In y l.
Proof.
  revert i. induction l; simpl; intros i h; [tauto|].
  destruct i; simpl in h; [intuition|]. destruct h as [h|h]; [auto|]. apply IHl in h. tauto.
Qed.

Lemma set_nth_same A (l : list A) i d : set_nth l i (nth i l d) = l.
Proof. revert i. induction l; destruct i; simpl; f_equal; auto. Qed.

Lemma upd_ok A (l : list A) i x : i < length l -> upd l i x = Ok (set_nth l i x).
Proof. intros h. unfold upd. apply Nat.ltb_lt in h. rewrite h. auto. Qed.

Lemma nth_error_lt A (l : list A) i x : nth_error l i = Some x -> i < length l.
Proof. intros h. apply nth_error_Some. congruence. Qed.

Lemma nth_error_ex A (l : list A) i : i < length l -> exists x, nth_error l i = Some x.
Proof. intros h. destruct (nth_error l i) eqn:e; eauto. apply nth_error_None in e. lia. Qed.

Lemma length_enum A (l : list A) : length (enum l) = length l.
Proof. unfold enum. rewrite combine_length, seq_length. lia. Qed.

Lemma nth_error_combine_seq A (l : list A) s i :
  nth_error (combine (seq s (length l)) l) i
  = match nth_error l i with Some x => Some (s + i, x) | None => None end.
Proof.
  revert s i. induction l; simpl; intros s i; destruct i; simpl; auto.
  - rewrite Nat.add_0_r. auto.
  - rewrite IHl. destruct (nth_error l i); auto. do 2 f_equal. lia.
Qed.

Lemma nth_error_enum A (l : list A) i :
  nth_error (enum l) i = match nth_error l i with Some x => Some (i, x) | None => None end.
Proof. unfold enum. rewrite nth_error_combine_seq. auto. Qed.

Lemma In_enum A (l : list A) i x : In (i, x) (enum l) <-> nth_error l i = Some x.
Proof.
  split; intros h.
  - apply In_nth_error in h as [p h]. rewrite nth_error_enum in h.
    destruct (nth_error l p) eqn:e; congruence.
  - apply nth_error_In with i. rewrite nth_error_enum, h. auto.
Qed.

Lemma map_fst_enum A (l : list A) : map fst (enum l) = seq 0 (length l).
Proof.
  unfold enum. generalize 0. induction l; simpl; intros; f_equal; auto.
Qed.

Lemma map_snd_enum A (l : list A) : map snd (enum l) = l.
Proof.
  unfold enum. generalize 0. induction l; simpl; intros; f_equal; auto.
Qed.

Lemma enum_app A (l : list A) x : enum (l ++ [x]) = enum l ++ [(length l, x)].
Proof.
  assert (G : forall s, combine (seq s (length (l ++ [x]))) (l ++ [x])
                        = combine (seq s (length l)) l ++ [(s + length l, x)]).
  { induction l; simpl; intros s.
    - rewrite Nat.add_0_r. auto.
    - rewrite IHl. simpl. do 3 f_equal. f_equal. lia. }
  apply G.
Qed.

(** ** loops *)
Lemma foldM_oks A S (f : S -> A -> res S) (l : list A) (I : list A -> S -> Prop) s0 :
  I [] s0 ->
  (forall pre a post s, l = pre ++ a :: post -> I pre s -> oks (f s a) (I (pre ++ [a]))) ->
  oks (foldM f l s0) (I l).
Proof.
  intros h0 hs.
  assert (G : forall post pre s, l = pre ++ post -> I pre s -> oks (foldM f post s) (I l)).
  { induction post; simpl; intros pre s e hi.
    - rewrite app_nil_r in e. subst. auto.
    - eapply oks_bind; [eapply hs; eauto|].
      intros s' hi'. apply IHpost with (2 := hi'). rewrite e, <- app_assoc. auto. }
  apply G with (2 := h0). auto.
Qed.

Lemma foldM_inv A S (f : S -> A -> res S) (l : list A) (I : S -> Prop) s0 :
  I s0 -> (forall a s, In a l -> I s -> oks (f s a) I) -> oks (foldM f l s0) I.
Proof.
  intros h0 hs. apply foldM_oks with (I := fun _ => I); auto.
  intros pre a post s e hi. apply hs; auto. rewrite e. apply in_or_app. simpl. auto.
Qed.

(** loop over the elements of a list together with their positions *)
Lemma foldM_enum A S (f : S -> nat * A -> res S) (l : list A) (I : nat -> S -> Prop) s0 :
  I 0 s0 ->
  (forall i x s, nth_error l i = Some x -> I i s -> oks (f s (i, x)) (I (Datatypes.S i))) ->
  oks (foldM f (enum l) s0) (I (length l)).
Proof.
  intros h0 hs.
  eapply oks_mono.
  - apply foldM_oks with (I := fun pre s => I (length pre) s); auto.
    intros pre [i x] post s e hi.
    assert (hn : nth_error (enum l) (length pre) = Some (i, x)).
    { rewrite e, nth_error_app2, Nat.sub_diag; auto. }
    rewrite nth_error_enum in hn. destruct (nth_error l (length pre)) eqn:el; [|discriminate].
    injection hn as <- ->. rewrite app_length, Nat.add_comm. simpl. apply hs; auto.
  - simpl. rewrite length_enum. auto.
Qed.

Lemma foldM_seq S (f : S -> nat -> res S) n (I : nat -> S -> Prop) s0 :
  I 0 s0 ->
  (forall i s, i < n -> I i s -> oks (f s i) (I (Datatypes.S i))) ->
  oks (foldM f (seq 0 n) s0) (I n).
Proof.
  intros h0 hs.
  eapply oks_mono.
  - apply foldM_oks with (I := fun pre s => I (length pre) s); auto.
    intros pre i post s e hi.
    assert (hn : nth_error (seq 0 n) (length pre) = Some i).
    { rewrite e, nth_error_app2, Nat.sub_diag; auto. }
    assert (hl : length pre < n).
    { apply nth_error_lt in hn. rewrite seq_length in hn. auto. }
    pose proof (nth_error_nth _ _ 0 hn) as h. rewrite seq_nth in h by auto. simpl in h. subst i.
    rewrite app_length, Nat.add_comm. simpl. apply hs; auto.
  - simpl. rewrite seq_length. auto.
Qed.

Lemma mapM_oks A B (f : A -> res B) (l : list A) (R : A -> B -> Prop) :
  (forall a, In a l -> oks (f a) (R a)) -> oks (mapM f l) (Forall2 R l).
Proof.
  induction l; simpl; intros h; [constructor|].
  eapply oks_bind; [apply h; auto|]. intros b hb.
  eapply oks_bind; [apply IHl; auto|]. intros bs hbs. constructor; auto.
Qed.

Lemma Forall2_nth_error A B (R : A -> B -> Prop) l1 l2 i x y :
  Forall2 R l1 l2 -> nth_error l1 i = Some x -> nth_error l2 i = Some y -> R x y.
Proof.
  intros h. revert i. induction h; destruct i; simpl; try discriminate; eauto. congruence.
Qed.

Lemma Forall2_len A B (R : A -> B -> Prop) l1 l2 : Forall2 R l1 l2 -> length l1 = length l2.
Proof. induction 1; simpl; auto. Qed.

Lemma mapM_enum A B (f : nat * A -> res B) (l : list A) (R : nat -> A -> B -> Prop) :
  (forall i x, nth_error l i = Some x -> oks (f (i, x)) (R i x)) ->
  oks (mapM f (enum l))
      (fun bs => length bs = length l /\
         forall i x y, nth_error l i = Some x -> nth_error bs i = Some y -> R i x y).
Proof.
  intros h. eapply oks_mono.
  - apply mapM_oks with (R := fun p b => R (fst p) (snd p) b).
    intros [i x] hi. apply In_enum in hi. apply h. auto.
  - simpl. intros bs hf. split.
    + apply Forall2_len in hf. rewrite length_enum in hf. auto.
    + intros i x y h1 h2.
      refine (Forall2_nth_error (x := (i, x)) (y := y) i hf _ h2).
      rewrite nth_error_enum, h1. auto.
Qed.

Lemma nth_error_seq s n i : i < n -> nth_error (seq s n) i = Some (s + i).
Proof.
  intros h. rewrite nth_error_nth' with (d := 0) by (rewrite seq_length; auto).
  rewrite seq_nth; auto.
Qed.

Lemma mapM_seq B (f : nat -> res B) n (R : nat -> B -> Prop) :
  (forall i, i < n -> oks (f i) (R i)) ->
  oks (mapM f (seq 0 n))
      (fun bs => length bs = n /\ forall i y, nth_error bs i = Some y -> R i y).
Proof.
  intros h. eapply oks_mono.
  - apply mapM_oks with (R := R). intros i hi. apply in_seq in hi. apply h. lia.
  - simpl. intros bs hf. pose proof (Forall2_len hf) as hl. rewrite seq_length in hl. split; auto.
    intros i y hy. pose proof (nth_error_lt _ _ hy).
    refine (Forall2_nth_error (x := i) (y := y) i hf _ hy).
    rewrite nth_error_seq by lia. auto.
Qed.

(** [I pre s]: before the element following [pre]; [J]: at the end *)
Lemma forM_oks A S (body : S -> A -> res (ctl S)) (l : list A)
      (I : list A -> S -> Prop) (J : S -> Prop) s0 :
  I [] s0 ->
  (forall pre a post s, l = pre ++ a :: post -> I pre s ->
     oks (body s a) (fun c => match c with Next s' => I (pre ++ [a]) s' | Break s' => J s' end)) ->
  (forall s, I l s -> J s) ->
  oks (forM body l s0) J.
Proof.
  intros h0 hs hj.
  assert (G : forall post pre s, l = pre ++ post -> I pre s -> oks (forM body post s) J).
  { induction post; simpl; intros pre s e hi.
    - rewrite app_nil_r in e. subst. simpl. auto.
    - eapply oks_bind; [eapply hs; eauto|]. intros [s'|s'] h'; [|exact h'].
      apply IHpost with (2 := h'). rewrite e, <- app_assoc. auto. }
  apply G with (2 := h0). auto.
Qed.

Lemma forM_inv A S (body : S -> A -> res (ctl S)) (l : list A) (I : S -> Prop) s0 :
  I s0 ->
  (forall a s, In a l -> I s ->
     oks (body s a) (fun c => match c with Next s' => I s' | Break s' => I s' end)) ->
  oks (forM body l s0) I.
Proof.
  intros h0 hs. apply forM_oks with (I := fun _ => I); auto.
  intros pre a post s e hi. eapply oks_mono; [apply hs; auto; rewrite e; apply in_or_app; simpl; auto|].
  auto.
Qed.

(** [I i s]: after [i] completed rounds *)
Lemma whileM_oks S fuel (body : S -> res (ctl S)) (I : nat -> S -> Prop) (J : S -> Prop) s0 :
  I 0 s0 ->
  (forall i s, i < fuel -> I i s ->
     oks (body s) (fun c => match c with Next s' => I (Datatypes.S i) s' | Break s' => J s' end)) ->
  (forall s, I fuel s -> J s) ->
  oks (whileM fuel body s0) J.
Proof.
  intros h0 hs hj.
  assert (G : forall f i s, i + f = fuel -> I i s -> oks (whileM f body s) J).
  { induction f; simpl; intros i s e hi.
    - rewrite Nat.add_0_r in e. subst. simpl. auto.
    - eapply oks_bind; [apply hs with (2 := hi); lia|]. intros [s'|s'] h'; [|exact h'].
      apply IHf with (2 := h'). lia. }
  apply G with (2 := h0). auto.
Qed.

Lemma whileM_inv S fuel (body : S -> res (ctl S)) (I : S -> Prop) s0 :
  I s0 ->
  (forall s, I s -> oks (body s) (fun c => match c with Next s' => I s' | Break s' => I s' end)) ->
  oks (whileM fuel body s0) I.
Proof.
  intros h0 hs. apply whileM_oks with (I := fun _ => I); auto.
Qed.

Lemma reduce_some A (f : A -> A -> A) l : l <> [] -> exists x, reduce f l = Some x.
Proof. destruct l; simpl; [congruence | eauto]. Qed.

(** congruence of the loops *)
Lemma foldM_ext A S (f g : S -> A -> res S) l s :
  (forall a s, In a l -> f s a = g s a) -> foldM f l s = foldM g l s.
Proof.
  revert s. induction l; simpl; intros s h; auto.
  rewrite h by auto. destruct (g s a); simpl; auto.
Qed.

Lemma mapM_ext A B (f g : A -> res B) l :
  (forall a, In a l -> f a = g a) -> mapM f l = mapM g l.
Proof.
  induction l; simpl; intros h; auto. rewrite h by auto. rewrite IHl; auto.
Qed.

Lemma foldM_app A S (f : S -> A -> res S) l1 l2 s :
  foldM f (l1 ++ l2) s = (s' <- foldM f l1 s ;; foldM f l2 s').
Proof.
  revert s. induction l1; simpl; intros s; auto.
  destruct (f s a); simpl; auto.
Qed.

Lemma nth_error_skipn A (l : list A) s p : nth_error (skipn s l) p = nth_error l (s + p).
Proof.
  revert l. induction s; intros l; simpl; auto. destruct l; simpl; auto. destruct p; auto.
Qed.

(** loop over an enumeration without its first [s] elements *)
Lemma foldM_enum_from A S (f : S -> nat * A -> res S) (l : list A) s (I : nat -> S -> Prop) s0 :
  s <= length l -> I s s0 ->
  (forall i x st, s <= i -> nth_error l i = Some x -> I i st ->
     oks (f st (i, x)) (I (Datatypes.S i))) ->
  oks (foldM f (skipn s (enum l)) s0) (I (length l)).
Proof.
  intros hl h0 hs.
  eapply oks_mono.
  - apply foldM_oks with (I := fun pre st => I (s + length pre) st).
    + simpl. rewrite Nat.add_0_r. auto.
    + intros pre [i x] post st e hi.
      assert (hn : nth_error (skipn s (enum l)) (length pre) = Some (i, x)).
      { rewrite e, nth_error_app2, Nat.sub_diag; auto. }
      rewrite nth_error_skipn, nth_error_enum in hn.
      destruct (nth_error l (s + length pre)) eqn:el; [|discriminate].
      injection hn as <- ->. rewrite app_length.
      replace (s + (length pre + length [(s + length pre, x)]))
        with (Datatypes.S (s + length pre)) by (simpl; lia).
      apply hs; auto. lia.
  - simpl. intros st. rewrite skipn_length, length_enum.
    replace (s + (length l - s)) with (length l) by lia. auto.
Qed.
