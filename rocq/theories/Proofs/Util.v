(** General lemmas about the outcome monad, checked arrays and loops. *)
From Verif.Model Require Export Base.
From Coq Require Export Lia.
From stdpp Require Export sets list_numbers sorting.
Open Scope Z_scope.

Global Arguments zget : simpl never.
Global Arguments zset : simpl never.
Global Arguments zslice : simpl never.
Global Arguments zlen : simpl never.
Global Arguments forZ : simpl never.
Global Arguments to_size : simpl never.
Global Arguments to_int : simpl never.
Global Arguments int_add : simpl never.

Ltac inv H := inversion H; subst; clear H.

Lemma bind_Ok {A B} (m : res A) (f : A → res B) b :
  (m ≫= f) = Ok b ↔ ∃ a, m = Ok a ∧ f a = Ok b.
Proof. destruct m; cbn; naive_solver. Qed.

Lemma assert_Ok b u : assert_ b = Ok u ↔ b = true.
Proof. destruct u, b; cbn; naive_solver. Qed.

Lemma zlen_nat {A} (l : list A) : Z.to_nat (zlen l) = length l.
Proof. unfold zlen. lia. Qed.

Lemma zget_Ok {A} (l : list A) i x : zget l i = Ok x ↔ 0 ≤ i ∧ l !! Z.to_nat i = Some x.
Proof.
  unfold zget. destruct (Z.ltb_spec i 0).
  - split; [done|]. intros []. lia.
  - destruct (l !! Z.to_nat i); naive_solver.
Qed.

Lemma zget_of {A} (l : list A) i x : 0 ≤ i → l !! Z.to_nat i = Some x → zget l i = Ok x.
Proof. intros. by apply zget_Ok. Qed.

Lemma zget_nat {A} (l : list A) (i : nat) x : l !! i = Some x → zget l (Z.of_nat i) = Ok x.
Proof. intros. apply zget_Ok. rewrite Nat2Z.id. split; [lia|done]. Qed.

Lemma zget_is {A} (l : list A) i : 0 ≤ i < zlen l → ∃ x, zget l i = Ok x ∧ l !! Z.to_nat i = Some x.
Proof.
  intros []. destruct (lookup_lt_is_Some_2 l (Z.to_nat i)) as [x Hx].
  { unfold zlen in *; lia. }
  exists x. split; [by apply zget_of|done].
Qed.

Lemma zset_of {A} (l : list A) i x : 0 ≤ i < zlen l → zset l i x = Ok (<[Z.to_nat i:=x]> l).
Proof.
  intros []. unfold zset. destruct (Z.ltb_spec i 0); [lia|].
  destruct (lookup_lt_is_Some_2 l (Z.to_nat i)) as [y ->]; [unfold zlen in *; lia|done].
Qed.

Lemma zset_nat {A} (l : list A) (i : nat) x :
  (i < length l)%nat → zset l (Z.of_nat i) x = Ok (<[i:=x]> l).
Proof. intros. rewrite zset_of by (unfold zlen; lia). by rewrite Nat2Z.id. Qed.

Lemma zset_Ok {A} (l : list A) i x l' :
  zset l i x = Ok l' ↔ 0 ≤ i < zlen l ∧ l' = <[Z.to_nat i:=x]> l.
Proof.
  split.
  - unfold zset. destruct (Z.ltb_spec i 0); [done|].
    destruct (l !! Z.to_nat i) eqn:E; [|done]. intros [= <-].
    apply lookup_lt_Some in E. unfold zlen. split; [lia|done].
  - intros [? ->]. by apply zset_of.
Qed.

Lemma zset_len {A} (l : list A) i x l' : zset l i x = Ok l' → length l' = length l.
Proof. intros [_ ->]%zset_Ok. apply insert_length. Qed.

Lemma zslice_Ok {A} (l : list A) b e s :
  zslice l b e = Ok s ↔ 0 ≤ b ≤ e ∧ e ≤ zlen l ∧ s = take (Z.to_nat (e - b)) (drop (Z.to_nat b) l).
Proof.
  unfold zslice.
  destruct (Z.leb_spec 0 b), (Z.leb_spec b e), (Z.leb_spec e (zlen l)); cbn; split;
    try (by intros [=]); try (intros (?&?&?); lia).
  intros (?&?&->). done.
Qed.

(** ** Loops *)
Lemma foldM_app {A S} (f : S → A → res S) s l1 l2 :
  foldM f s (l1 ++ l2) = (s' ← foldM f s l1; foldM f s' l2).
Proof.
  revert s. induction l1 as [|x l1 IH]; intros s; [done|].
  cbn. destruct (f s x); cbn; auto.
Qed.

Lemma foldM_inv {A S} (f : S → A → res S) (P : list A → S → Prop) l s :
  P [] s →
  (∀ l1 x l2 s, l = l1 ++ x :: l2 → P l1 s → ∃ s', f s x = Ok s' ∧ P (l1 ++ [x]) s') →
  ∃ s', foldM f s l = Ok s' ∧ P l s'.
Proof.
  intros H0 Hs.
  assert (∀ l2 l1 s, l = l1 ++ l2 → P l1 s → ∃ s', foldM f s l2 = Ok s' ∧ P l s') as H.
  { induction l2 as [|x l2 IH]; intros l1 s1 Hl H1; cbn.
    - exists s1. rewrite app_nil_r in Hl. by subst.
    - destruct (Hs l1 x l2 s1 Hl H1) as (s2 & -> & H2). cbn.
      apply (IH (l1 ++ [x])); [|done]. by rewrite <-app_assoc. }
  by apply (H l []).
Qed.

Lemma foldM_ext {A S} (f g : S → A → res S) s l :
  (∀ s x, x ∈ l → f s x = g s x) → foldM f s l = foldM g s l.
Proof.
  revert s. induction l as [|x l IH]; intros s H; [done|]. cbn.
  rewrite H by set_solver. destruct (g s x); cbn; try done. apply IH. set_solver.
Qed.

Lemma foldM_pure {A S} (f : S → A → S) s l : foldM (λ s x, Ok (f s x)) s l = Ok (foldl f s l).
Proof. revert s. induction l as [|x l IH]; intros s; cbn; [done|apply IH]. Qed.

Lemma seqZ_S m n : 0 ≤ n → seqZ m (n + 1) = seqZ m n ++ [m + n].
Proof.
  intros. rewrite seqZ_app by lia. f_equal.
Qed.

Lemma forZ_ind {S} (n : nat) (f : S → Z → res S) (P : nat → S → Prop) s :
  P O s →
  (∀ i s, (i < n)%nat → P i s → ∃ s', f s (Z.of_nat i) = Ok s' ∧ P (i + 1)%nat s') →
  ∃ s', forZ 0 (Z.of_nat n) f s = Ok s' ∧ P n s'.
Proof.
  intros H0 Hs. unfold forZ. rewrite Z.sub_0_r.
  assert (∀ k, (k ≤ n)%nat → ∃ s', foldM f s (seqZ 0 (Z.of_nat k)) = Ok s' ∧ P k s') as H.
  { induction k as [|k IH]; intros Hk.
    - exists s. by rewrite seqZ_nil.
    - destruct IH as (s1 & E1 & H1); [lia|].
      destruct (Hs k s1) as (s2 & E2 & H2); [lia|done|].
      exists s2. replace (Z.of_nat (Datatypes.S k)) with (Z.of_nat k + 1) by lia.
      rewrite seqZ_S, foldM_app, E1 by lia. cbn. rewrite Z.add_0_l, E2. cbn.
      split; [done|]. by replace (Datatypes.S k) with (k + 1)%nat by lia. }
  by apply H.
Qed.

Lemma forZ_ind_Z {S} (n : Z) (f : S → Z → res S) (P : Z → S → Prop) s :
  0 ≤ n → P 0 s →
  (∀ i s, 0 ≤ i < n → P i s → ∃ s', f s i = Ok s' ∧ P (i + 1) s') →
  ∃ s', forZ 0 n f s = Ok s' ∧ P n s'.
Proof.
  intros Hn H0 Hs.
  destruct (forZ_ind (Z.to_nat n) f (λ i, P (Z.of_nat i)) s) as (s' & E & H).
  - done.
  - intros i s1 Hi H1. destruct (Hs (Z.of_nat i) s1) as (s2 & E2 & H2); [lia|done|].
    exists s2. by replace (Z.of_nat (i + 1)) with (Z.of_nat i + 1) by lia.
  - rewrite Z2Nat.id in E, H by done. eauto.
Qed.

(** General lower bound. *)
Lemma forZ_shift {S} lo hi (f : S → Z → res S) s :
  forZ lo hi f s = forZ 0 (hi - lo) (λ s i, f s (lo + i)) s.
Proof.
  unfold forZ. rewrite Z.sub_0_r. generalize (hi - lo); intros n.
  replace (seqZ lo n) with (Z.add lo <$> seqZ 0 n)
    by (rewrite fmap_add_seqZ; f_equal; lia).
  generalize (seqZ 0 n); intros l. revert s.
  induction l as [|x l IH]; intros s; cbn; [done|].
  destruct (f s _); cbn; auto.
Qed.

(** ** Conversions *)
Lemma to_size_small z : 0 ≤ z < 2 ^ 64 → to_size z = z.
Proof. intros. unfold to_size. by apply Z.mod_small. Qed.
Lemma to_int_small z : - 2 ^ 31 ≤ z < 2 ^ 31 → to_int z = z.
Proof. intros. unfold to_int. rewrite Z.mod_small by lia. lia. Qed.
Lemma int_add_of a b : - 2 ^ 31 ≤ a + b ≤ int_max → int_add a b = Ok (a + b).
Proof.
  intros []. unfold int_add. destruct (Z.leb_spec (- 2 ^ 31) (a + b)); [|lia].
  destruct (Z.leb_spec (a + b) int_max); [done|lia].
Qed.

Lemma list_insert_eq {A} (l : list A) i x y :
  l !! i = Some y → <[i:=x]> l !! i = Some x.
Proof. intros H. apply list_lookup_insert. by apply lookup_lt_Some in H. Qed.

Lemma filter_none {A} (P : A → Prop) `{∀ x, Decision (P x)} l :
  Forall (λ x, ¬ P x) l → filter P l = [].
Proof.
  induction 1 as [|x l Hx _ IH]; [done|]. rewrite filter_cons. by rewrite decide_False.
Qed.
Lemma filter_all {A} (P : A → Prop) `{∀ x, Decision (P x)} l :
  Forall P l → filter P l = l.
Proof.
  induction 1 as [|x l Hx _ IH]; [done|]. rewrite filter_cons. rewrite decide_True by done. by f_equal.
Qed.

Lemma lookup_snoc_Some {A} (l : list A) x i y :
  (l ++ [x]) !! i = Some y ↔ ((i < length l)%nat ∧ l !! i = Some y) ∨ (i = length l ∧ x = y).
Proof.
  split.
  - intros H. destruct (decide (i < length l)%nat) as [Hi|Hi].
    + left. by rewrite lookup_app_l in H.
    + right. rewrite lookup_app_r in H by lia.
      destruct (i - length l)%nat eqn:E; cbn in H; [|done]. split; [lia|congruence].
  - intros [[? H]|[-> ->]]; [by rewrite lookup_app_l|].
    by rewrite lookup_app_r, Nat.sub_diag by done.
Qed.
