(** Conditioning of the diagnostics, in exact arithmetic and without cycles:
    property C86. *)
From Coq Require Import QArith Qcanon.
From Verif.Model Require Import Base Num OMap Containers Solution AssembledConnections Tarjan TracerTofSolver Toolbox DerivedQuantities.
From Verif.Spec Require Import ToolboxSpec MirrorSpec DerivedSpec MonotoneSpec ConditionSpec.
From Verif.Proofs Require Import Util OMapFacts ExactNum QcLra OrdLaws ToolboxState ToolboxRates SolverBase SolverRun SolverTop SolverGen
  ToolboxFlow ToolboxVal ToolboxSane ToolboxThms GaussSeidel ExactRun ToolboxExact Duality Balance.
Open Scope Z_scope.

Section factors.
Local Open Scope Qc_scope.
Context (e : Qc) (He : 0 <= e).
Definition E (k : nat) : Qc := (1 + e) ^ k.
(** Two numbers that differ by a factor of at most [E k]. *)
Definition rt (k : nat) (a b : Qc) : Prop := 0 <= a ∧ 0 <= b ∧ a <= b * E k ∧ b <= a * E k.

Lemma E_0 : E 0 = 1. Proof. done. Qed.
Lemma E_S k : E (S k) = (1 + e) * E k. Proof. done. Qed.
Lemma E_1 : E 1 = 1 + e. Proof. rewrite E_S, E_0. ring. Qed.
Lemma E_ge k : 1 <= E k.
Proof. induction k as [|k IH]; [rewrite E_0; apply Qcle_refl|]. rewrite E_S. revert He IH. generalize (E k). intros. qcnra. Qed.
Lemma E_add j k : E (j + k) = E j * E k.
Proof. induction j as [|j IH]; [rewrite E_0; cbn [Nat.add]; ring|]. cbn [Nat.add]. rewrite !E_S, IH. ring. Qed.
Lemma E_mono j k : (j ≤ k)%nat → E j <= E k.
Proof.
  intros H. replace k with (j + (k - j))%nat by lia. rewrite E_add. pose proof (E_ge j) as H1. pose proof (E_ge (k - j)) as H2.
  revert H1 H2. generalize (E j), (E (k - j)). intros. qcnra.
Qed.
Lemma qle_mul_l a b c : 0 <= a → b <= c → a * b <= a * c.
Proof. intros Ha H. rewrite (Qcmult_comm a b), (Qcmult_comm a c). by apply Qcmult_le_compat_r. Qed.

Lemma rt_sym k a b : rt k a b → rt k b a. Proof. unfold rt. tauto. Qed.
Lemma rt_refl k a : 0 <= a → rt k a a.
Proof.
  intros Ha. assert (a <= a * E k). { transitivity (a * 1); [rewrite Qcmult_1_r; apply Qcle_refl|]. apply qle_mul_l; [done|apply E_ge]. }
  by split_and!.
Qed.
Lemma rt_mono j k a b : (j ≤ k)%nat → rt j a b → rt k a b.
Proof.
  intros H (Ha & Hb & H1 & H2). pose proof (E_mono j k H). split_and!; try done.
  - transitivity (b * E j); [done|by apply qle_mul_l].
  - transitivity (a * E j); [done|by apply qle_mul_l].
Qed.
Lemma rt_plus k a b c d : rt k a b → rt k c d → rt k (a + c) (b + d).
Proof. intros (? & ? & ? & ?) (? & ? & ? & ?). unfold rt. split_and!; try (rewrite Qcmult_plus_distr_l); qclra. Qed.
Lemma mul_le a b c d : 0 <= a → 0 <= c → a <= b → c <= d → a * c <= b * d.
Proof. intros. transitivity (b * c); [by apply Qcmult_le_compat_r|]. apply qle_mul_l; [by transitivity a|done]. Qed.
Lemma rt_mul j k a b c d : rt j a b → rt k c d → rt (j + k) (a * c) (b * d).
Proof.
  intros (? & ? & H1 & H2) (? & ? & H3 & H4). unfold rt. rewrite E_add. split_and!; [by apply qmul_nonneg|by apply qmul_nonneg| |].
  - replace (b * d * (E j * E k)) with ((b * E j) * (d * E k)) by ring. by apply mul_le.
  - replace (a * c * (E j * E k)) with ((a * E j) * (c * E k)) by ring. by apply mul_le.
Qed.
Lemma rt_zero k a b : rt k a b → a = 0 → b = 0.
Proof. intros (_ & Hb & _ & H) ->. rewrite Qcmult_0_l in H. by apply Qcle_antisym. Qed.
Lemma quot_le j k T T' x x' S S' : 0 <= x → rt j T T' → rt k S S' → T' ≠ 0 → T * x = S → T' * x' = S' → x' <= x * E (j + k).
Proof.
  intros Hx (HT & HT' & H1 & H2) (HS & HS' & H3 & H4) Hne ES ES'.
  destruct (qle_eq_or_lt _ HT') as [|Hpos]; [done|].
  assert (T' * x' <= T' * (x * E (j + k))) as Hle.
  { rewrite ES'. transitivity (S * E k); [done|]. rewrite <-ES, E_add. replace (T' * (x * (E j * E k))) with ((T' * E j) * (x * E k)) by ring.
    replace (T * x * E k) with (T * (x * E k)) by ring. apply Qcmult_le_compat_r; [done|]. apply qmul_nonneg; [done|]. transitivity 1; [done|apply E_ge]. }
  apply (Qcmult_lt_0_le_reg_r _ _ T'); [done|]. rewrite (Qcmult_comm x'), (Qcmult_comm (x * _)). done.
Qed.
Lemma rt_quot j k T T' x x' S S' : 0 <= x → 0 <= x' → rt j T T' → rt k S S' → (T = 0 → x = 0) → (T' = 0 → x' = 0) →
  T * x = S → T' * x' = S' → rt (j + k) x x'.
Proof.
  intros Hx Hx' HT HS Hz Hz' E1 E2. destruct (Qc_eq_dec T 0) as [E0|E0].
  { rewrite Hz, Hz' by (done || by eapply rt_zero). by apply rt_refl. }
  assert (T' ≠ 0) as E0' by (intros E0'; apply E0; by eapply rt_zero; [apply rt_sym|]).
  split_and!; [done|done| |].
  - apply (quot_le j k T' T x' x S' S); try done; by apply rt_sym.
  - by apply (quot_le j k T T' x x' S S').
Qed.
Lemma rt_sum {X} k (f f' : X → Qc) l : (∀ x, x ∈ l → rt k (f x) (f' x)) → rt k (qsum (map f l)) (qsum (map f' l)).
Proof.
  induction l as [|x l IH]; intros H; [by apply rt_refl|]. cbn [map]. unfold qsum. cbn [foldr].
  apply rt_plus; [apply H; left|]. apply IH. intros y Hy. apply H. by right.
Qed.
Lemma rt_min k a b M : 0 <= M → rt k a b → rt k (if Qc_ltb M a then M else a) (if Qc_ltb M b then M else b).
Proof.
  intros HM (Ha & Hb & H1 & H2). pose proof (proj1 (proj2 (proj2 (rt_refl k M HM)))) as HME.
  assert (∀ a b, 0 <= a → 0 <= b → a <= b * E k → (if Qc_ltb M a then M else a) <= (if Qc_ltb M b then M else b) * E k) as Hle.
  { clear -HME. intros a b Ha Hb H. destruct (Qc_ltb M a) eqn:Ea, (Qc_ltb M b) eqn:Eb; try apply Qc_ltb_true in Ea; try apply Qc_ltb_true in Eb;
      try apply Qc_ltb_false in Ea; try apply Qc_ltb_false in Eb; try done.
    - transitivity a; [by apply Qclt_le_weak|done].
    - by transitivity M. }
  unfold rt. split_and!; [by destruct (Qc_ltb M a)|by destruct (Qc_ltb M b)|by apply Hle|by apply Hle].
Qed.

Lemma rt_about k a b : rt k a b → about e k (Fin a) (Fin b).
Proof.
  intros H. pose proof (E_ge k) as HE. destruct (Qc_eq_dec a 0) as [Ea|Ea].
  - pose proof (rt_zero _ _ _ H Ea) as Eb. exists a, 1. fold (E k). rewrite Ea, Eb. split_and!; try done. by rewrite Qcmult_1_l.
  - destruct H as (Ha & Hb & H1 & H2). destruct (qle_eq_or_lt _ Ha) as [|Hpos]; [done|].
    exists a, (b / a). fold (E k). split; [done|]. split; [f_equal; field; done|]. split.
    + replace (b / a * E k) with (b * E k / a) by (field; done). apply qle_div_iff; [done|]. by rewrite Qcmult_1_l.
    + apply qdiv_le_iff; [done|]. by rewrite Qcmult_comm.
Qed.
Lemma about_rt k x a : about e k x (Fin a) → ∃ b, x = Fin b ∧ (0 <= b → rt k b a).
Proof.
  intros (b & r & -> & Eq & H1 & H2). injection Eq as ->. exists b. split; [done|]. intros Hb. fold (E k) in *. pose proof (E_ge k) as HE.
  assert (0 <= r) as Hr. { destruct (Qclt_le_dec r 0) as [Hn|]; [|done]. exfalso. revert Hn H1 HE. generalize (E k). intros. qcnra. }
  split_and!; [done|by apply qmul_nonneg| |].
  - transitivity (b * 1); [rewrite Qcmult_1_r; apply Qcle_refl|]. rewrite <-Qcmult_assoc. by apply qle_mul_l.
  - by apply qle_mul_l.
Qed.
Lemma about_factor k x y : about e k x y → ∃ a r, x = Fin a ∧ y = Fin (a * r) ∧ 0 < r ∧ (0 <= a → rt k a (a * r)).
Proof.
  intros (b & r & -> & -> & H1 & H2). fold (E k) in *. pose proof (E_ge k) as HE. exists b, r.
  assert (0 < r) as Hr. { destruct (Qclt_le_dec 0 r) as [|Hn]; [done|]. exfalso. revert Hn H1 HE. generalize (E k). intros. qcnra. }
  assert (0 <= r) by by apply Qclt_le_weak. split_and!; [done..|]. intros Hb.
  split_and!; [done|by apply qmul_nonneg| |].
  - transitivity (b * 1); [rewrite Qcmult_1_r; apply Qcle_refl|]. rewrite <-Qcmult_assoc. by apply qle_mul_l.
  - by apply qle_mul_l.
Qed.

(** ** Layer by layer *)
Section layered.
Context (n : Z) (W W' : Z → Z → Qc) (T T' b b' V V' c c' τ τ' : Z → Qc) (L : Z → bool) (M : Qc) (D : Z → nat).
Notation all := (seqZ 0 n).
Context (HW : ∀ u v, rt 1 (W u v) (W' u v)) (HT : ∀ v, rt 1 (T v) (T' v)) (Hb : ∀ v, rt 1 (b v) (b' v)) (HV : ∀ v, rt 1 (V v) (V' v)).
Context (HD : ∀ u v, W u v ≠ 0 → (D u < D v)%nat) (HM : 0 <= M).
Context (P : Z → Prop) (HP : ∀ v, v ∈ all → P v).
Context (Hc : ∀ v, P v → 0 <= c v) (Hc' : ∀ v, P v → 0 <= c' v) (Hτ : ∀ v, P v → 0 <= τ v) (Hτ' : ∀ v, P v → 0 <= τ' v).
Context (Z0 : ∀ v, P v → T v = 0 → c v = 0) (Z0' : ∀ v, P v → T' v = 0 → c' v = 0).
Context (EC : ∀ v, P v → T v * c v = qsum (map (λ u, c u * W u v) all) + b v).
Context (EC' : ∀ v, P v → T' v * c' v = qsum (map (λ u, c' u * W' u v) all) + b' v).
Context (LT : ∀ v, P v → L v = true → c v ≠ 0 → τ v = M) (LT' : ∀ v, P v → L v = true → c' v ≠ 0 → τ' v = M).
Context (ET : ∀ v, P v → L v = false → T v * c v * τ v = V v * c v + qsum (map (λ u, τ u * c u * W u v) all)).
Context (ET' : ∀ v, P v → L v = false → T' v * c' v * τ' v = V' v * c' v + qsum (map (λ u, τ' u * c' u * W' u v) all)).

Lemma W_zero u v : W u v = 0 → W' u v = 0.
Proof. intros E. by eapply rt_zero. Qed.
Lemma mix_rt k (h h' : Z → Qc) v : (∀ u, u ∈ all → (D u < D v)%nat → rt k (h u) (h' u)) →
  rt (k + 1) (qsum (map (λ u, h u * W u v) all)) (qsum (map (λ u, h' u * W' u v) all)).
Proof.
  intros H. apply rt_sum. intros u Hu. destruct (Qc_eq_dec (W u v) 0) as [E0|E0].
  - rewrite E0, (W_zero _ _ E0), !Qcmult_0_r. by apply rt_refl.
  - apply rt_mul; [|done]. apply H; [done|]. by apply HD.
Qed.

Lemma conc_rt v : P v → rt (2 * D v + 2) (c v) (c' v).
Proof.
  remember (D v) as r eqn:Er. revert v Er. induction (lt_wf r) as [r _ IH]. intros v -> Hv.
  apply (rt_mono (1 + (2 * D v + 1))); [lia|].
  apply (rt_quot _ _ (T v) (T' v) _ _ (qsum (map (λ u, c u * W u v) all) + b v) (qsum (map (λ u, c' u * W' u v) all) + b' v)); auto.
  apply rt_plus; [|by apply (rt_mono 1); [lia|]].
  apply mix_rt. intros u Hu Hlt. apply (rt_mono (2 * D u + 2)); [lia|]. apply (IH (D u)); auto.
Qed.
Lemma mass_rt v : P v → rt (2 * D v + 4) (τ v * c v) (τ' v * c' v).
Proof.
  remember (D v) as r eqn:Er. revert v Er. induction (lt_wf r) as [r _ IH]. intros v -> Hv.
  pose proof (conc_rt v Hv) as Hcv. destruct (Qc_eq_dec (c v) 0) as [E0|E0].
  { rewrite (rt_zero _ _ _ Hcv E0), E0, !Qcmult_0_r. by apply rt_refl. }
  assert (c' v ≠ 0) as E0' by (intros ?; apply E0; by eapply rt_zero; [apply rt_sym|]).
  destruct (L v) eqn:El.
  - rewrite LT, LT' by done. apply (rt_mono (0 + (2 * D v + 2))); [lia|]. apply rt_mul; [by apply rt_refl|done].
  - apply (rt_mono (1 + (2 * D v + 3))); [lia|].
    apply (rt_quot _ _ (T v) (T' v) _ _ (V v * c v + qsum (map (λ u, τ u * c u * W u v) all)) (V' v * c' v + qsum (map (λ u, τ' u * c' u * W' u v) all))); auto.
    + apply qmul_nonneg; auto.
    + apply qmul_nonneg; auto.
    + apply rt_plus.
      * apply (rt_mono (1 + (2 * D v + 2))); [lia|]. by apply rt_mul.
      * apply (rt_mono (2 * D v + 2 + 1)); [lia|]. apply (mix_rt _ (λ u, τ u * c u) (λ u, τ' u * c' u)). intros u Hu Hlt.
        apply (rt_mono (2 * D u + 4)); [lia|]. apply (IH (D u)); auto.
    + intros E. by rewrite (Z0 v Hv E), Qcmult_0_r.
    + intros E. by rewrite (Z0' v Hv E), Qcmult_0_r.
    + rewrite <-ET by done. ring.
    + rewrite <-ET' by done. ring.
Qed.
Lemma time_rt v : P v → c v ≠ 0 → rt (4 * D v + 6) (τ v) (τ' v).
Proof.
  intros Hv E0. pose proof (conc_rt v Hv) as Hcv. pose proof (mass_rt v Hv) as Hm.
  assert (c' v ≠ 0) as E0' by (intros ?; apply E0; by eapply rt_zero; [apply rt_sym|]).
  apply (rt_mono ((2 * D v + 2) + (2 * D v + 4))); [lia|].
  apply (rt_quot _ _ (c v) (c' v) _ _ (τ v * c v) (τ' v * c' v)); auto; try done; ring.
Qed.
End layered.
End factors.

(** ** Sums and rates of nearby problems *)
Section lists.
Local Open Scope Qc_scope.
Context (e : Qc) (He : 0 <= e).
Local Notation fin x := (Fin x : @num exact).
Definition rtx (k : nat) (x y : @num exact) : Prop := ∃ a b, x = Fin a ∧ y = Fin b ∧ rt e k a b.
Lemma rtx_about k x y : rtx k x y → about e k x y.
Proof. intros (a & b & -> & -> & H). by apply rt_about. Qed.
Lemma rtx_qv k x y : rtx k x y → rt e k (qv x) (qv y).
Proof. by intros (a & b & -> & -> & H). Qed.
Lemma rtx_0 k : rtx k n0 n0.
Proof. exists 0, 0. rewrite exact_n0. split_and!; [done..|]. by apply rt_refl. Qed.
Lemma rtx_add k x y x' y' : rtx k x x' → rtx k y y' → rtx k (nadd x y) (nadd x' y').
Proof. intros (a & a' & -> & -> & H) (b & b' & -> & -> & H'). exists (a + b), (a' + b'). split_and!; [done..|]. by apply rt_plus. Qed.
Lemma rtx_sum k l l' : Forall2 (rtx k) l l' → rtx k (sum_left l) (sum_left l').
Proof.
  intros H. unfold sum_left. assert (∀ x x', rtx k x x' → rtx k (foldl nadd x l) (foldl nadd x' l')) as Hg; [|apply Hg, rtx_0].
  induction H as [|y y' l l' Hy H IH]; intros x x' Hx; [done|]. cbn [foldl]. apply IH. by apply rtx_add.
Qed.
Lemma about_rtx k x y : about e k x y → nleb n0 x = true → rtx k x y.
Proof.
  intros (a & r & -> & -> & Hr & H)%(about_factor e He) Hx. exists a, (a * r). split_and!; [done..|]. apply H. rewrite exact_n0 in Hx.
  by apply xleb_Fin.
Qed.
Lemma about_lt k x y : about e k x y → nltb n0 y = nltb n0 x ∧ nltb y n0 = nltb x n0.
Proof.
  intros (a & r & -> & -> & Hr & _)%(about_factor e He). rewrite exact_n0. cbn [num nltb exact xltb].
  assert (∀ b c, (0 < b ↔ 0 < c) → Qc_ltb 0 b = Qc_ltb 0 c) as H1.
  { intros b c H. destruct (Qc_ltb 0 c) eqn:E1; [apply Qc_ltb_true, H, Qc_ltb_true; done|]. apply Qc_ltb_false. apply Qc_ltb_false in E1.
    apply Qcnot_lt_le. intros Hb. apply (Qclt_not_le 0 c); [by apply H|done]. }
  assert (∀ b c, (b < 0 ↔ c < 0) → Qc_ltb b 0 = Qc_ltb c 0) as H2.
  { intros b c H. destruct (Qc_ltb c 0) eqn:E1; [apply Qc_ltb_true, H, Qc_ltb_true; done|]. apply Qc_ltb_false. apply Qc_ltb_false in E1.
    apply Qcnot_lt_le. intros Hb. apply (Qclt_not_le c 0); [by apply H|done]. }
  assert (a = a * r * / r) as Ea by (field; intros ->; done).
  assert (0 < / r) as Hi. { destruct (qle_eq_or_lt (/ r)) as [E0|]; [apply qinv_nonneg; by apply Qclt_le_weak| |done]. exfalso. assert (r * / r = 1) as E1 by (field; intros ->; done). rewrite E0, Qcmult_0_r in E1. done. }
  split; [apply H1|apply H2]; split; intros H.
  - rewrite Ea. revert H Hi. generalize (/ r), (a * r). intros. qcnra.
  - clear -H Hr. qcnra.
  - rewrite Ea. revert H Hi. generalize (/ r), (a * r). intros. qcnra.
  - clear -H Hr. qcnra.
Qed.
Lemma about_opp k x y : about e k x y → about e k (nopp x) (nopp y).
Proof. intros (a & r & -> & -> & H). exists (- a), r. split_and!; [done| |tauto..]. change (fin (- (a * r)) = fin (- a * r)). f_equal. ring. Qed.
Lemma opp_pos x : finite x → nltb x n0 = true → nleb n0 (nopp x) = true.
Proof.
  intros [a ->]. rewrite exact_n0. cbn [num nltb nleb nopp exact xltb xopp]. intros H%Qc_ltb_true. apply xleb_Fin. qclra.
Qed.
Lemma lt_le_x (x : @num exact) : finite x → nltb n0 x = true → nleb n0 x = true.
Proof. intros [a ->]. rewrite exact_n0. cbn [num nltb nleb exact xltb]. intros H%Qc_ltb_true. apply xleb_Fin. by apply Qclt_le_weak. Qed.
Lemma about_fin k x y : about e k x y → finite x ∧ finite y.
Proof. intros (a & r & -> & -> & _). split; by eexists. Qed.

Lemma find_alike {K V} `{OrdKey K} (R : V → V → Prop) (m m' : smap K V) k : Forall2 (λ a b, a.1 = b.1 ∧ R a.2 b.2) m m' →
  option_Forall2 R (om_find k m) (om_find k m').
Proof.
  induction 1 as [|[k1 a] [k2 b] m m' [Ek HR] _ IH]; [constructor|]. cbn [fst snd] in *. subst k2. cbn [om_find].
  destruct (kcmp k k1); [by constructor|constructor|done].
Qed.
Lemma part_alike d x y : about e 1 x y → option_Forall2 (rtx 1) (rate_part d x) (rate_part d y).
Proof.
  intros H. destruct (about_lt _ _ _ H) as [E1 E2]. destruct (about_fin _ _ _ H) as [Fx Fy]. unfold rate_part. rewrite E1, E2.
  destruct d, (nltb n0 x) eqn:P1; try constructor; [by apply about_rtx; [|apply lt_le_x]|].
  destruct (nltb x n0) eqn:P2; constructor. apply about_rtx; [by apply about_opp|by apply opp_pos].
Qed.
Lemma arcs_alike (l l' : list (Z * Z * list (@num exact))) :
  Forall2 (λ x y, x.1 = y.1 ∧ about e 1 (sum_left x.2) (sum_left y.2)) l l' →
  Forall2 (λ a b : @arc exact, a.1 = b.1 ∧ rtx 1 a.2 b.2) (omap net_arc l) (omap net_arc l').
Proof.
  induction 1 as [|[[i j] w] [[i' j'] w'] l l' [Eij H] _ IH]; [constructor|]. cbn [fst snd] in *. injection Eij as <- <-.
  assert (option_Forall2 (λ a b : @arc exact, a.1 = b.1 ∧ rtx 1 a.2 b.2) (net_arc (i, j, w)) (net_arc (i, j, w'))) as Ha.
  { destruct (about_lt _ _ _ H) as [E1 E2]. destruct (about_fin _ _ _ H) as [Fx Fy]. unfold net_arc. cbn [fst snd]. rewrite E1, E2.
    destruct (nltb n0 (sum_left w)) eqn:P1; [constructor; split; [done|by apply about_rtx; [|apply lt_le_x]]|].
    destruct (nltb (sum_left w) n0) eqn:P2; constructor. split; [done|]. apply about_rtx; [by apply about_opp|by apply opp_pos]. }
  cbn [omap list_omap]. destruct Ha; [by constructor|done].
Qed.
Lemma turn_alike (A A' : list (@arc exact)) : Forall2 (λ a b : @arc exact, a.1 = b.1 ∧ rtx 1 a.2 b.2) A A' →
  Forall2 (λ a b : @arc exact, a.1 = b.1 ∧ rtx 1 a.2 b.2) (turn A) (turn A').
Proof. intros H. unfold turn. apply Forall2_fmap. eapply Forall2_impl; [exact H|]. intros [[i j] w] [[i' j'] w'] [Eij Hw]. cbn in *. by injection Eij as -> ->. Qed.
Lemma flux_alike (A A' : list (@arc exact)) u v : Forall2 (λ a b : @arc exact, a.1 = b.1 ∧ rtx 1 a.2 b.2) A A' → rtx 1 (arc_flux A u v) (arc_flux A' u v).
Proof.
  intros H. unfold arc_flux. apply rtx_sum. induction H as [|a b A A' [Eab Hw] _ IH]; [constructor|]. cbn [omap list_omap]. rewrite <-Eab.
  destruct (decide (a.1 = (u, v))); [by constructor|done].
Qed.
Lemma keys_alike {K V V'} (R : V → V' → Prop) (A : list (K * V)) (A' : list (K * V')) : Forall2 (λ a b, a.1 = b.1 ∧ R a.2 b.2) A A' → map fst A' = map fst A.
Proof. induction 1 as [|a b A A' [E _] _ IH]; [done|]. cbn [map]. by rewrite E, IH. Qed.
End lists.

Section nearby.
Local Open Scope Qc_scope.
Context (e : Qc) (He : 0 <= e) (p p' : @problem exact) (HN : nearby e p p').
Context (Hp : valid p) (HD : data finite p) (HV : pores_ok p) (Hp' : valid p') (HD' : data finite p').
Notation n := (pb_cells p).
Notation all := (seqZ 0 n).
Local Notation fin x := (Fin x : @num exact).

Lemma near_flow d : Forall2 (λ a b : @arc exact, a.1 = b.1 ∧ rtx e 1 a.2 b.2) (flow d p) (flow d p').
Proof. pose proof (arcs_alike e He _ _ (nb_conns _ _ _ HN)) as H. destruct d; [exact H|]. by apply turn_alike. Qed.
Lemma near_flows d u v : flows (flow d p') u v ↔ flows (flow d p) u v.
Proof. unfold flows. by rewrite (keys_alike _ _ _ (near_flow d)). Qed.
Lemma near_acyclic : acyclic (net_arcs p) → acyclic (net_arcs p').
Proof.
  intros H v Hv. apply (H v). revert Hv. generalize v at 2 4. intros w Hw. induction Hw as [x y Hf|x y z Hf _ IH].
  - apply tc_once. by apply (near_flows Injection).
  - eapply tc_l; [|exact IH]. by apply (near_flows Injection).
Qed.
Lemma near_W d u v : rt e 1 (Wt p d u v) (Wt p' d u v).
Proof. apply rtx_qv, flux_alike; [done|]. apply near_flow. Qed.
Lemma near_rate d id v : option_Forall2 (rtx e 1) (well_rate d (pb_rates p) id v) (well_rate d (pb_rates p') id v).
Proof.
  unfold well_rate.
  assert (option_Forall2 (Forall2 (λ a b : Z * @num exact, a.1 = b.1 ∧ about e 1 a.2 b.2)) (om_find id (pb_rates p)) (om_find id (pb_rates p'))) as H
    by (apply find_alike, HN).
  destruct H as [x y Hxy|]; [|constructor].
  assert (option_Forall2 (about e 1) (om_find v x) (om_find v y)) as H by by apply find_alike.
  destruct H as [a b Hab|]; [|constructor]. by apply part_alike.
Qed.
Lemma near_b d id v : rt e 1 (rq p d id v) (rq p' d id v).
Proof. unfold rq. destruct (near_rate d id v) as [a b Hab|]; [by apply rtx_qv|by apply rt_refl]. Qed.
Lemma near_ids : map fst (pb_rates p') = map fst (pb_rates p).
Proof. exact (keys_alike _ _ _ (nb_rates _ _ _ HN)). Qed.
Lemma near_total d v : rtx e 1 (total_in p d v) (total_in p' d v).
Proof.
  unfold total_in. apply rtx_add.
  - unfold influx. apply rtx_sum; [done|]. rewrite (nb_cells _ _ _ HN).
    assert (upstream n (flow d p') v = upstream n (flow d p) v) as ->.
    { unfold upstream. apply list_filter_iff. intros u. apply near_flows. }
    apply Forall2_fmap, Forall_Forall2_diag, Forall_forall. intros u _. apply flux_alike; [done|]. apply near_flow.
  - unfold cell_total. apply rtx_sum; [done|]. unfold cell_rates. rewrite near_ids. generalize (map fst (pb_rates p)). intros l.
    induction l as [|id l IH]; [constructor|]. cbn [omap list_omap]. destruct (near_rate d id v); [by constructor|done].
Qed.
Lemma near_T d v : rt e 1 (Tt p d v) (Tt p' d v).
Proof. apply rtx_qv, near_total. Qed.
Lemma near_rates d v : rt e 1 (rates p d v) (rates p' d v).
Proof. unfold rates. rewrite near_ids. apply rt_sum; [done|]. intros id _. apply near_b. Qed.
Lemma near_pore v : rtx e 1 (pore p v) (pore p' v).
Proof.
  unfold pore. pose proof (nb_pv _ _ _ HN) as H. rewrite Forall2_lookup in H. specialize (H (Z.to_nat v)).
  pose proof (λ x, elem_of_list_lookup_2 (pb_pv p) (Z.to_nat v) x) as Hin.
  destruct H as [a b Hab|]; [|by apply rtx_0]. cbn [default]. apply about_rtx; [done|done|]. by apply HV, Hin.
Qed.
Lemma near_V v : rt e 1 (pvq p v) (pvq p' v).
Proof. apply rtx_qv, near_pore. Qed.
Lemma near_pores : pores_ok p'.
Proof.
  intros x Hx. apply elem_of_list_lookup in Hx as [i Hi]. pose proof (near_pore (Z.of_nat i)) as (a & b & _ & E & _ & Hb & _).
  unfold pore in E. rewrite Nat2Z.id, Hi in E. cbn in E. rewrite E, exact_n0. by apply xleb_Fin.
Qed.
Lemma slow_late d v : slow_cell d p v = late p d v.
Proof.
  unfold slow_cell, late. destruct (near_total d v) as (a & a' & E1 & _). destruct (near_pore v) as (x & x' & E2 & _).
  unfold pvq, Tt. rewrite E1, E2. change (@cutoff exact) with (@max_tof exact). destruct gs_consts as (_ & _ & -> & _).
  cbn [num nltb ndiv exact qv]. unfold xdiv. by assert (Qc_eqb gs_M 0 = false) as -> by done.
Qed.
Lemma slow_late' d v : slow_cell d p' v = late p' d v.
Proof.
  unfold slow_cell, late. destruct (near_total d v) as (a' & a & _ & E1 & _). destruct (near_pore v) as (x' & x & _ & E2 & _).
  unfold pvq, Tt. rewrite E1, E2. change (@cutoff exact) with (@max_tof exact). destruct gs_consts as (_ & _ & -> & _).
  cbn [num nltb ndiv exact qv]. unfold xdiv. by assert (Qc_eqb gs_M 0 = false) as -> by done.
Qed.
End nearby.

(** ** Results of nearby problems *)
Section present.
Local Open Scope Qc_scope.
Context (p : @problem exact) (g : cgraph) (f : cvalues) (Hp : valid p) (HP : poses p g f) (HD : data finite p) (HV : pores_ok p).
Local Notation fin x := (Fin x : @num exact).
(** A requested well has both values in a cell, or its concentration is zero there. *)
Lemma present d ev sets sol id v : diagnose d ev g p f sets = Ok (OSol sol) → id ∈ map cs_id sets →
  (∃ t, om_find v (sol_tof sol id) = Some t ∧ om_find v (sol_concentration sol id) = Some (fin (cq sol id v)) ∧ cq sol id v ≠ 0) ∨
  om_find v (sol_tof sol id) = None ∧ om_find v (sol_concentration sol id) = None ∧ cq sol id v = 0.
Proof.
  intros H Hid. destruct (local_values p g f Hp HP HD HV d ev sets sol id H Hid) as (inj & comps & st & q & Hinj & Ho & Hrun & Hrep & Hn & Hs & Ht & Hc & Hval).
  assert (cq sol id v = q.2 v) as -> by (unfold cq; by rewrite Hval).
  pose proof (Hval v) as E. unfold value_at in E. rewrite Ht, Hc in *. destruct (decide (v ∈ concat comps)) as [Hv|Hv].
  - left. eexists. split; [done|]. split; [done|]. intros E0. destruct (Hs v Hv) as [Hpos _]. by rewrite E0 in Hpos.
  - right. split_and!; [done..|]. rewrite exact_n0 in E. by injection E.
Qed.
End present.

Section results.
Local Open Scope Qc_scope.
Context (e : Qc) (He : 0 <= e) (p p' : @problem exact) (HN : nearby e p p').
Context (Hp : valid p) (HD : data finite p) (HV : pores_ok p) (Hp' : valid p') (HD' : data finite p').
Context (g g' : cgraph) (f f' : cvalues) (HP : poses p g f) (HP' : poses p' g' f').
Context (Hac : acyclic (net_arcs p)) (d : direction) (D : Z → nat) (HL : layers d p D).
Context (Hslow : ∀ v, (0 ≤ v < pb_cells p)%Z → slow_cell d p v = slow_cell d p' v).
Notation n := (pb_cells p).
Notation all := (seqZ 0 n).
Local Notation fin x := (Fin x : @num exact).

Lemma layer_W u v : Wt p d u v ≠ 0 → (D u < D v)%nat.
Proof. intros H. destruct (decide (flows (flow d p) u v)) as [Hf|Hf]; [by apply HL|]. by rewrite Wt_none in H. Qed.
Lemma late_eq v : v ∈ all → late p' d v = late p d v.
Proof. intros Hv%elem_of_seqZ. rewrite <-(slow_late e He p p' HN HV), <-(slow_late' e He p p' HN HV). symmetry. apply Hslow. lia. Qed.
Lemma min_about k a b : rt e k a b → about e k (nmin (fin a) max_tof) (nmin (fin b) max_tof).
Proof.
  intros H. destruct gs_consts as (_ & _ & -> & _ & _ & _ & HM). unfold nmin. cbn [num nltb exact xltb].
  pose proof (rt_about e He _ _ _ (rt_min e He k a b gs_M ltac:(by apply Qclt_le_weak) H)) as Hm. 
  destruct (Qc_ltb gs_M a), (Qc_ltb gs_M b); exact Hm.
Qed.
Lemma M_nonneg : 0 <= gs_M.
Proof. destruct gs_consts as (_ & _ & _ & _ & _ & _ & HM). by apply Qclt_le_weak. Qed.

Lemma near_local ev ev' sets sets' sol sol' id : diagnose d ev g p f sets = Ok (OSol sol) → diagnose d ev' g' p' f' sets' = Ok (OSol sol') →
  id ∈ map cs_id sets → id ∈ map cs_id sets' → ∀ v,
  both (about e (2 * D v + 2)) (om_find v (sol_concentration sol id)) (om_find v (sol_concentration sol' id)) ∧
  both (about e (4 * D v + 6)) (om_find v (sol_tof sol id)) (om_find v (sol_tof sol' id)).
Proof.
  intros H H' Hid Hid' v. pose proof (near_pores e He p p' HN HV) as HV'. pose proof (near_acyclic e He p p' HN Hac) as Hac'.
  destruct (local_exact p g f Hp HP HD HV Hac d ev sets sol id H (λ _, Hid)) as (τ & _ & X).
  destruct (local_exact p' g' f' Hp' HP' HD' HV' Hac' d ev' sets' sol' id H' (λ _, Hid')) as (τ' & _ & X').
  rewrite (nb_cells _ _ _ HN) in X'.
  destruct (decide (v ∈ all)) as [Hv|Hv].
  2:{ assert (∀ (p : @problem exact) (g : cgraph) (f : cvalues) ev sets sol, valid p → poses p g f → data finite p → pores_ok p →
        pb_cells p = n → diagnose d ev g p f sets = Ok (OSol sol) → id ∈ map cs_id sets →
        om_find v (sol_tof sol id) = None ∧ om_find v (sol_concentration sol id) = None) as Hout.
      { clear -Hv. intros p1 g1 f1 ev sets sol Hp HP HD HV En H Hid. destruct (local_values p1 g1 f1 Hp HP HD HV d ev sets sol id H Hid) as (inj & comps & st & q & Hinj & Ho & _ & _ & _ & _ & Ht & Hc & _).
        rewrite Ht, Hc. assert (v ∉ concat comps) as Hout; [|by rewrite !decide_False by done]. intros Hin. apply Hv. rewrite <-En. apply elem_of_seqZ.
        apply (oc_cover _ _ _ Ho) in Hin as (r & [x Hx] & Hl). pose proof (va_cellrates _ Hp _ _ _ _ Hx) as Hr. clear Hx.
        destruct (rtc_inv_r r v Hl) as [<-|(w & _ & Hf)]; [lia|]. destruct (flows_range (pb_cells p1) (flow d p1) w v (flow_arcs p1 Hp d) Hf) as [_ ?]. lia. }
      destruct (Hout p g f ev sets sol Hp HP HD HV eq_refl H Hid) as [-> ->].
      destruct (Hout p' g' f' ev' sets' sol' Hp' HP' HD' HV' (nb_cells _ _ _ HN) H' Hid') as [-> ->]. done. }
  assert (∀ v, v ∈ all → rt e (2 * D v + 2) (cq sol id v) (cq sol' id v)) as HC.
  { intros u Hu. apply (conc_rt e He n (Wt p d) (Wt p' d) (Tt p d) (Tt p' d) (rq p d id) (rq p' d id) _ _ D) with (P := λ v, v ∈ all); try done.
    - intros a b. by apply near_W.
    - intros a. by apply near_T.
    - intros a. by apply near_b.
    - apply layer_W.
    - intros a _. apply X.
    - intros a _. apply X'.
    - intros a _. apply X.
    - intros a _. apply X'.
    - intros a _. apply X.
    - intros a _. apply X'. }
  assert (∀ v, v ∈ all → cq sol id v ≠ 0 → rt e (4 * D v + 6) (τ v) (τ' v)) as HT.
  { intros u Hu Hne. apply (time_rt e He n (Wt p d) (Wt p' d) (Tt p d) (Tt p' d) (rq p d id) (rq p' d id) (pvq p) (pvq p') (cq sol id) (cq sol' id) τ τ' (late p d) gs_M D) with (P := λ v, v ∈ all); try done.
    - intros a b. by apply near_W.
    - intros a. by apply near_T.
    - intros a. by apply near_b.
    - intros a. by apply near_V.
    - apply layer_W.
    - intros a _. apply X.
    - intros a _. apply X'.
    - intros a _. apply X.
    - intros a _. apply X'.
    - intros a _. apply X.
    - intros a _. apply X'.
    - intros a _. apply X.
    - intros a _. apply X'.
    - intros a _. apply X.
    - intros a Ha. rewrite <-late_eq by done. apply X'.
    - intros a _. apply X.
    - intros a Ha. rewrite <-late_eq by done. apply X'. }
  pose proof (HC v Hv) as HCv.
  destruct (present p g f Hp HP HD HV d ev sets sol id v H Hid) as [(t & E1 & E2 & E3)|(E1 & E2 & E3)];
    destruct (present p' g' f' Hp' HP' HD' HV' d ev' sets' sol' id v H' Hid') as [(t' & E1' & E2' & E3')|(E1' & E2' & E3')].
  - rewrite E1, E2, E1', E2'. cbn [both]. split; [by apply rt_about|].
    destruct (X v) as (_ & _ & Xt & _). destruct (X' v) as (_ & _ & Xt' & _). rewrite (Xt _ E1), (Xt' _ E1'). by apply min_about, HT.
  - exfalso. apply E3. eapply rt_zero; [by apply rt_sym|done].
  - exfalso. apply E3'. by eapply rt_zero.
  - by rewrite E1, E2, E1', E2'.
Qed.

Lemma near_global ev ev' sets sets' sol sol' : diagnose d ev g p f sets = Ok (OSol sol) → diagnose d ev' g' p' f' sets' = Ok (OSol sol') →
  ∀ v, (0 ≤ v < n)%Z → ∃ t t', sol_global_tof sol !! Z.to_nat v = Some t ∧ sol_global_tof sol' !! Z.to_nat v = Some t' ∧ about e (4 * D v + 6) t t'.
Proof.
  intros H H' v Hv. pose proof (near_pores e He p p' HN HV) as HV'. pose proof (near_acyclic e He p p' HN Hac) as Hac'.
  destruct (global_exact p g f Hp HP HD HV Hac d ev sets sol H) as (Hlen & τ & c & X).
  destruct (global_exact p' g' f' Hp' HP' HD' HV' Hac' d ev' sets' sol' H') as (Hlen' & τ' & c' & X').
  rewrite (nb_cells _ _ _ HN) in X'. clear Hlen Hlen'.
  destruct (X v Hv) as (_ & _ & -> & _ & _ & _ & XM & _). destruct (X' v Hv) as (_ & _ & -> & _ & _ & _ & XM' & _).
  eexists _, _. split; [done|]. split; [done|]. apply min_about.
  destruct (decide (c v = 0)) as [E0|E0].
  - assert (c' v = 0) as E0'.
    { eapply (rt_zero e (2 * D v + 2)); [|exact E0].
      apply (conc_rt e He n (Wt p d) (Wt p' d) (Tt p d) (Tt p' d) (rates p d) (rates p' d) _ _ D) with (P := λ v, (0 ≤ v < n)%Z); try done.
      - intros a b. by apply near_W.
      - intros a. by apply near_T.
      - intros a. by apply near_rates.
      - apply layer_W.
      - intros a Ha%elem_of_seqZ. lia.
      - intros a Ha. apply (X a Ha).
      - intros a Ha. apply (X' a Ha).
      - intros a Ha. apply (X a Ha).
      - intros a Ha. apply (X' a Ha).
      - intros a Ha. apply (X a Ha).
      - intros a Ha. apply (X' a Ha). }
    rewrite XM, XM' by done. apply rt_refl; [done|apply M_nonneg].
  - apply (time_rt e He n (Wt p d) (Wt p' d) (Tt p d) (Tt p' d) (rates p d) (rates p' d) (pvq p) (pvq p') c c' τ τ' (late p d) gs_M D) with (P := λ v, (0 ≤ v < n)%Z); try done.
    + intros a b. by apply near_W.
    + intros a. by apply near_T.
    + intros a. by apply near_rates.
    + intros a. by apply near_V.
    + apply layer_W.
    + intros a Ha%elem_of_seqZ. lia.
    + intros a Ha. apply (X a Ha).
    + intros a Ha. apply (X' a Ha).
    + intros a Ha. apply (X a Ha).
    + intros a Ha. apply (X' a Ha).
    + intros a Ha. apply (X a Ha).
    + intros a Ha. apply (X' a Ha).
    + intros a Ha. apply (X a Ha).
    + intros a Ha. apply (X' a Ha).
    + intros a Ha El _. destruct (X a Ha) as (_ & _ & _ & _ & _ & XL & _). by apply XL.
    + intros a Ha El _. destruct (X' a Ha) as (_ & _ & _ & _ & _ & XL & _). apply XL. rewrite late_eq; [done|]. apply elem_of_seqZ. lia.
    + intros a Ha. apply (X a Ha).
    + intros a Ha El. destruct (X' a Ha) as (_ & _ & _ & _ & _ & _ & _ & XT). apply XT. rewrite late_eq; [done|]. apply elem_of_seqZ. lia.
Qed.
End results.

(** ** Layers exist *)
Lemma layers_exist (p : @problem exact) (d : direction) g f ev sets sol : valid p → poses p g f → acyclic (net_arcs p) →
  diagnose d ev g p f sets = Ok (OSol sol) → ∃ D : Z → nat, layers d p D ∧ ∀ v, (D v < Z.to_nat (pb_cells p))%nat.
Proof.
  intros Hp HP Hac H. pose proof (acyclic_flow p d Hac) as Hac'. pose proof (va_cells _ Hp) as Hn.
  destruct (diagnose_global p g f Hp HP d ev sets sol H) as (comps & st & Ho & _ & _). set (n := pb_cells p) in *.
  assert (length comps ≤ Z.to_nat n)%nat as Hl.
  { assert (length (concat comps) = length comps) as E.
    { assert (∀ C, C ∈ comps → ∃ v, C = [v]) as Hs by (intros C HC; by eapply acyclic_comps). clear -Hs.
      induction comps as [|C l IH]; [done|]. cbn [concat]. rewrite app_length. destruct (Hs C ltac:(left)) as [v ->]. cbn [length].
      rewrite IH; [lia|]. intros C HC. apply Hs. by right. }
    rewrite <-E. rewrite <-(seqZ_length 0 n). apply submseteq_length, NoDup_submseteq; [apply (oc_nodup _ _ _ Ho)|].
    intros v Hv. apply (oc_cover _ _ _ Ho) in Hv. apply elem_of_seqZ. lia. }
  assert (∀ v, 0 ≤ v < n → ∃ j, comps !! j = Some [v]) as Hj.
  { intros v Hv. apply (oc_cover _ _ _ Ho) in Hv. apply elem_concat in Hv as (C & HvC & HC).
    destruct (acyclic_comps _ _ _ C Ho Hac' HC) as [v' ->]. apply elem_of_list_singleton in HvC as <-. by apply elem_of_list_lookup in HC. }
  exists (λ v, match list_find (λ C, C = [v]) comps with Some (j, _) => j | None => 0%nat end). split.
  - intros u v Hf. destruct (flows_range n (flow d p) u v (flow_arcs p Hp d) Hf) as [Hu Hv].
    destruct (list_find (λ C, C = [v]) comps) as [[j C]|] eqn:Ev.
    2:{ destruct (Hj v Hv) as [j Hj']. apply list_find_None in Ev. rewrite Forall_forall in Ev. destruct (Ev [v]); [by eapply elem_of_list_lookup_2|done]. }
    apply list_find_Some in Ev as (Ej & -> & _).
    destruct (oc_topo _ _ _ Ho j [v] u v Ej ltac:(left) Hf) as (i & C & Hi & HuC & Hij); [by apply (oc_cover _ _ _ Ho)|].
    destruct (acyclic_comps _ _ _ C Ho Hac') as [u' ->]; [by eapply elem_of_list_lookup_2|]. apply elem_of_list_singleton in HuC as <-.
    assert (i ≠ j). { intros ->. rewrite Ej in Hi. injection Hi as <-. apply (Hac' v). by apply tc_once. }
    destruct (list_find (λ C, C = [u]) comps) as [[i' C]|] eqn:Eu; [|lia].
    apply list_find_Some in Eu as (Ei & -> & Hfirst). destruct (decide (i' ≤ i)%nat); [lia|].
    exfalso. apply (Hfirst i [u] Hi); [lia|done].
  - intros v. destruct (list_find (λ C, C = [v]) comps) as [[j C]|] eqn:Ev; [|lia].
    apply list_find_Some in Ev as (Ej & _ & _). apply lookup_lt_Some in Ej. lia.
Qed.

(** ** Small changes add up *)
Section linear.
Local Open Scope Qc_scope.
Context (e : Qc) (He : 0 <= e).
Lemma E_lin k : E e k * (1 - qn k * e) <= 1.
Proof.
  induction k as [|k IH]; [rewrite E_0, qn_0; qclra|]. rewrite E_S, qn_S. pose proof (E_ge e He k) as H1. pose proof (qn_nonneg k) as H2.
  assert (0 <= E e k * e * e * (1 + qn k)) as H3. { repeat apply qmul_nonneg; try done; [by transitivity 1|]. qclra. }
  transitivity (E e k * (1 - qn k * e) - E e k * e * e * (1 + qn k)); [|qclra].
  assert ((1 + e) * E e k * (1 - (1 + qn k) * e) = E e k * (1 - qn k * e) - E e k * e * e * (1 + qn k)) as -> by ring. apply Qcle_refl.
Qed.
Lemma about_lin k x y : (1 + 1) * (qn k * e) <= 1 → about e k x y →
  ∃ a r, x = Fin a ∧ y = Fin (a * r) ∧ 1 - qn k * e <= r ∧ r <= 1 + (1 + 1) * (qn k * e).
Proof.
  intros Hk (a & r & -> & -> & H1 & H2). fold (E e k) in *. exists a, r. split; [done|]. split; [done|].
  pose proof (E_lin k) as HL. pose proof (E_ge e He k) as HE. revert Hk H1 H2 HL HE.
  assert (0 <= qn k * e) as Hx by (apply qmul_nonneg; [apply qn_nonneg|done]). revert Hx. generalize (qn k * e), (E e k). clear. intros x F. intros.
  assert (0 < F) as HF by qclra. split.
  - apply (Qcmult_lt_0_le_reg_r _ _ F HF). transitivity 1; [|done]. by rewrite Qcmult_comm.
  - transitivity F; [done|]. apply (Qcmult_lt_0_le_reg_r _ _ (1 - x)); [qclra|]. transitivity 1; [done|].
    assert (0 <= x * (1 - (1 + 1) * x)) by (apply qmul_nonneg; [done|qclra]). transitivity (1 + x * (1 - (1 + 1) * x)); [qclra|].
    assert ((1 + (1 + 1) * x) * (1 - x) = 1 + x * (1 - (1 + 1) * x)) as -> by ring. apply Qcle_refl.
Qed.
Lemma about_mono j k x y : (j ≤ k)%nat → about e j x y → about e k x y.
Proof.
  intros Hjk (a & r & -> & -> & H1 & H2). fold (E e j) in *. pose proof (E_mono e He j k Hjk) as HE. pose proof (E_ge e He j) as Hj.
  exists a, r. fold (E e k). split_and!; [done..| |by transitivity (E e j)].
  transitivity (r * E e j); [done|]. apply qle_mul_l; [|done].
  destruct (Qclt_le_dec r 0) as [Hn|]; [|done]. exfalso. revert Hn H1 Hj. generalize (E e j). intros. qcnra.
Qed.
End linear.
