(** Facts about the sorted association lists that model std::map. *)
From Coq Require Import Ascii String OrderedTypeEx.
From Verif.Model Require Import OMap.
From Verif.Proofs Require Import Util.

Class OrdLaws (K : Type) `{OrdKey K} : Prop := {
  kcmp_eq : ∀ x y : K, kcmp x y = Eq ↔ x = y;
  kcmp_anti : ∀ x y : K, kcmp y x = CompOpp (kcmp x y);
  kcmp_trans : ∀ x y z : K, kcmp x y = Lt → kcmp y z = Lt → kcmp x z = Lt
}.

Global Instance Z_laws : OrdLaws Z.
Proof.
  split; unfold kcmp, Z_key.
  - apply Z.compare_eq_iff.
  - intros. apply Z.compare_antisym.
  - intros x y z. rewrite !Z.compare_lt_iff. lia.
Qed.

Lemma ascii_compare_lt_trans a b c :
  Ascii.compare a b = Lt → Ascii.compare b c = Lt → Ascii.compare a c = Lt.
Proof. unfold Ascii.compare. rewrite !N.compare_lt_iff. lia. Qed.

Lemma string_compare_trans (x y z : String.string) :
  String.compare x y = Lt → String.compare y z = Lt → String.compare x z = Lt.
Proof.
  revert y z. induction x as [|a x IH]; intros [|b y] [|c z]; cbn; try done.
  destruct (Ascii.compare a b) eqn:E1; try done.
  - apply Ascii.compare_eq_iff in E1 as ->. intros H1.
    destruct (Ascii.compare b c) eqn:E2; try done. by apply IH.
  - intros _. destruct (Ascii.compare b c) eqn:E2; try done.
    + apply Ascii.compare_eq_iff in E2 as ->. by rewrite E1.
    + by rewrite (ascii_compare_lt_trans a b c).
Qed.

Global Instance string_laws : OrdLaws String.string.
Proof.
  split; unfold kcmp, string_key.
  - intros x y. split; [apply String.compare_eq_iff|]. intros ->.
    pose proof (String.compare_antisym y y) as E. by destruct (String.compare y y).
  - intros. apply String.compare_antisym.
  - apply string_compare_trans.
Qed.

Section facts.
Context {K : Type} {OK : OrdKey K} {OL : OrdLaws K} {V : Type}.
Implicit Types (m : smap K V) (k : K).

Definition klt (x y : K) : Prop := kcmp x y = Lt.
Definition om_wf (m : smap K V) : Prop := StronglySorted klt (map fst m).

Lemma kcmp_refl k : kcmp k k = Eq.
Proof. by apply kcmp_eq. Qed.
Lemma klt_irrefl k : ¬ klt k k.
Proof. unfold klt. by rewrite kcmp_refl. Qed.
Lemma kcmp_gt x y : kcmp x y = Gt ↔ klt y x.
Proof. unfold klt. rewrite (kcmp_anti x y). by destruct (kcmp x y). Qed.

Lemma om_find_elem m k v : om_wf m → om_find k m = Some v ↔ (k, v) ∈ m.
Proof.
  induction m as [|[k' v'] m IH]; cbn; intros Hwf; [set_solver|].
  apply StronglySorted_inv in Hwf as [Hwf Hlt]. cbn in Hlt. rewrite Forall_forall in Hlt.
  rewrite elem_of_cons. destruct (kcmp k k') eqn:E.
  - apply kcmp_eq in E as ->. split; [intros [= ->]; by left|].
    intros [[= ->]|Hin]; [done|]. exfalso. apply (klt_irrefl k'). apply Hlt.
    apply elem_of_list_fmap. by exists (k', v).
  - split; [done|]. intros [[= -> ->]|Hin]; [by rewrite kcmp_refl in E|].
    exfalso. apply (klt_irrefl k). eapply kcmp_trans; [exact E|]. apply Hlt.
    apply elem_of_list_fmap. by exists (k, v).
  - rewrite IH by done. split; [by right|]. intros [[= -> ->]|Hin]; [by rewrite kcmp_refl in E|done].
Qed.

Lemma om_find_none m k : om_wf m → om_find k m = None ↔ k ∉ map fst m.
Proof.
  intros Hwf. split.
  - intros Hn ([k' v] & Heq & Hin)%elem_of_list_fmap. cbn in Heq. subst.
    apply om_find_elem in Hin; [congruence|done].
  - intros Hn. destruct (om_find k m) as [v|] eqn:E; [|done]. exfalso. apply Hn.
    apply om_find_elem in E; [|done]. apply elem_of_list_fmap. by exists (k, v).
Qed.

Lemma om_alter_keys f k m k' : k' ∈ map fst (om_alter f k m) ↔ k' = k ∨ k' ∈ map fst m.
Proof.
  induction m as [|[k1 v1] m IH]; cbn; [set_solver|].
  destruct (kcmp k k1) eqn:E; cbn.
  - apply kcmp_eq in E as ->. set_solver.
  - set_solver.
  - rewrite !elem_of_cons, IH. set_solver.
Qed.

Lemma om_alter_wf f k m : om_wf m → om_wf (om_alter f k m).
Proof.
  unfold om_wf. induction m as [|[k1 v1] m IH]; cbn; intros Hwf; [repeat constructor|].
  pose proof Hwf as Hwf'. apply StronglySorted_inv in Hwf as [Hwf Hlt].
  destruct (kcmp k k1) eqn:E; cbn.
  - done.
  - constructor; [done|]. constructor; [done|]. eapply Forall_impl; [exact Hlt|].
    cbn. intros y Hy. by eapply kcmp_trans.
  - constructor; [by apply IH|]. apply Forall_forall. intros y Hy.
    change (y ∈ map fst (om_alter f k m)) in Hy. apply om_alter_keys in Hy as [->|Hy].
    + by apply kcmp_gt.
    + by rewrite Forall_forall in Hlt; apply Hlt.
Qed.

Lemma om_find_alter f k m : om_wf m → om_find k (om_alter f k m) = Some (f (om_find k m)).
Proof.
  induction m as [|[k1 v1] m IH]; cbn; intros Hwf; [by rewrite kcmp_refl|].
  apply StronglySorted_inv in Hwf as [Hwf Hlt].
  destruct (kcmp k k1) eqn:E; cbn; rewrite ?E, ?kcmp_refl; auto.
Qed.

Lemma om_find_alter_ne f k k' m : k ≠ k' → om_wf m → om_find k' (om_alter f k m) = om_find k' m.
Proof.
  intros Hne. induction m as [|[k1 v1] m IH]; cbn; intros Hwf.
  - destruct (kcmp k' k) eqn:E; try done. by apply kcmp_eq in E as ->.
  - pose proof Hwf as Hwf'. apply StronglySorted_inv in Hwf as [Hwf Hlt].
    destruct (kcmp k k1) eqn:E; cbn.
    + apply kcmp_eq in E as ->. destruct (kcmp k' k1) eqn:E; try done. by apply kcmp_eq in E as ->.
    + destruct (kcmp k' k) eqn:E'; try done.
      * by apply kcmp_eq in E' as ->.
      * by rewrite (kcmp_trans k' k k1).
    + destruct (kcmp k' k1); auto.
Qed.

Lemma om_find_set k k' v m : om_wf m →
  om_find k' (om_set k v m) = if decide (kcmp k k' = Eq) then Some v else om_find k' m.
Proof.
  intros Hwf. unfold om_set. case_decide as Hd.
  - apply kcmp_eq in Hd as ->. by rewrite om_find_alter.
  - apply om_find_alter_ne; [|done]. intros ->. by rewrite kcmp_refl in Hd.
Qed.
Lemma om_set_wf k v m : om_wf m → om_wf (om_set k v m).
Proof. apply om_alter_wf. Qed.
Lemma om_find_insert_eq k v m : om_wf m →
  om_find k (om_insert k v m) = Some (match om_find k m with Some w => w | None => v end).
Proof. intros. unfold om_insert. by rewrite om_find_alter. Qed.
Lemma om_find_insert_ne k k' v m : k ≠ k' → om_wf m → om_find k' (om_insert k v m) = om_find k' m.
Proof. intros. by apply om_find_alter_ne. Qed.
Lemma om_insert_wf k v m : om_wf m → om_wf (om_insert k v m).
Proof. apply om_alter_wf. Qed.
Lemma om_nil_wf : om_wf (@nil (K * V)).
Proof. constructor. Qed.

Lemma om_ext m1 m2 : om_wf m1 → om_wf m2 → (∀ k, om_find k m1 = om_find k m2) → m1 = m2.
Proof.
  revert m2. induction m1 as [|[k1 v1] m1 IH]; intros m2 H1 H2 He.
  - destruct m2 as [|[k2 v2] m2]; [done|]. specialize (He k2). cbn in He. by rewrite kcmp_refl in He.
  - destruct m2 as [|[k2 v2] m2].
    { specialize (He k1). cbn in He. by rewrite kcmp_refl in He. }
    pose proof H1 as H1'. pose proof H2 as H2'.
    apply StronglySorted_inv in H1 as [H1 Hl1]. apply StronglySorted_inv in H2 as [H2 Hl2]. cbn in *.
    assert (k1 = k2) as ->.
    { pose proof (He k1) as Ha. pose proof (He k2) as Hb. rewrite kcmp_refl in Ha, Hb.
      rewrite (kcmp_anti k1 k2) in Hb. destruct (kcmp k1 k2) eqn:E; cbn in *; try done. by apply kcmp_eq. }
    pose proof (He k2) as Ha. rewrite kcmp_refl in Ha. injection Ha as ->. f_equal.
    apply IH; try done. intros k. specialize (He k).
    destruct (kcmp k k2) eqn:E; try done.
    + apply kcmp_eq in E as ->.
      rewrite Forall_forall in Hl1, Hl2. 
      assert (∀ m : smap K V, om_wf m → (∀ y, y ∈ map fst m → klt k2 y) → om_find k2 m = None) as Hnone.
      { intros m Hw Hm. apply om_find_none; [done|]. intros Hin%Hm. by apply klt_irrefl in Hin. }
      rewrite !Hnone; done.
    + rewrite Forall_forall in Hl1, Hl2.
      assert (∀ m : smap K V, om_wf m → (∀ y, y ∈ map fst m → klt k2 y) → om_find k m = None) as Hnone.
      { intros m Hw Hm. apply om_find_none; [done|]. intros Hin%Hm.
        eapply klt_irrefl. eapply kcmp_trans; [exact E|exact Hin]. }
      rewrite !Hnone; done.
Qed.

Lemma om_count_find k m : om_count k m = 0 ↔ om_find k m = None.
Proof. unfold om_count. destruct (om_find k m); naive_solver. Qed.

Lemma om_of_list_wf (l : list (K * V)) : om_wf (om_of_list l).
Proof.
  unfold om_of_list.
  assert (∀ m, om_wf m → om_wf (foldl (λ m kv, om_insert kv.1 kv.2 m) m l)) as H.
  { induction l as [|x l IH]; intros m Hm; cbn; [done|]. apply IH. by apply om_insert_wf. }
  apply H, om_nil_wf.
Qed.
End facts.
