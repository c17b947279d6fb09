(** The Gauss-Seidel iteration on a strongly connected component, in exact
    arithmetic: monotone, bounded, and therefore finite. *)
From Coq Require Import QArith Qcanon Qround.
From stdpp Require Import relations.
From Verif.Model Require Import Num.
From Verif.Spec Require Import DerivedSpec.
From Verif.Proofs Require Import Util ExactNum QcLra OrdLaws DerivedExact DerivedMisc SolverBase.
Open Scope Z_scope.

Local Open Scope Qc_scope.

(** ** Sums *)
Ltac qsum_simpl := cbn [map]; change (qsum []) with 0; rewrite ?qsum_cons.
Lemma qsum_le {X} (f g : X → Qc) l : (∀ x, x ∈ l → f x <= g x) → qsum (map f l) <= qsum (map g l).
Proof.
  induction l as [|x l IH]; intros H; qsum_simpl; [apply Qcle_refl|]. apply Qcplus_le_compat.
  - apply H. left.
  - apply IH. intros. apply H. by right.
Qed.
Lemma qsum_ext {X} (f g : X → Qc) l : (∀ x, x ∈ l → f x = g x) → qsum (map f l) = qsum (map g l).
Proof. intros H. f_equal. apply map_ext_in. intros x Hx. apply H. by apply elem_of_list_In. Qed.
Lemma qsum_map_nonneg {X} (f : X → Qc) l : (∀ x, x ∈ l → 0 <= f x) → 0 <= qsum (map f l).
Proof. intros H. apply qsum_nonneg, Forall_map, Forall_forall. done. Qed.
Lemma qsum_plus {X} (f g : X → Qc) l : qsum (map (λ x, f x + g x) l) = qsum (map f l) + qsum (map g l).
Proof. induction l as [|x l IH]; qsum_simpl; [ring|]. rewrite IH. ring. Qed.
Lemma qsum_scale {X} k (f : X → Qc) l : qsum (map (λ x, k * f x) l) = k * qsum (map f l).
Proof. induction l as [|x l IH]; qsum_simpl; [ring|]. rewrite IH. ring. Qed.
Lemma qsum_zero {X} (f : X → Qc) l : (∀ x, x ∈ l → 0 <= f x) → qsum (map f l) = 0 → ∀ x, x ∈ l → f x = 0.
Proof.
  intros Hn Hs x Hx. destruct (Qcle_lt_or_eq _ _ (Hn x Hx)) as [Hp|]; [|done]. exfalso.
  assert (0 < qsum (map f l)) as H; [|by rewrite Hs in H].
  eapply qsum_pos; [|by apply elem_of_list_fmap; exists x|done]. apply Forall_map, Forall_forall. done.
Qed.
Definition qn (k : nat) : Qc := Q2Qc (inject_Z (Z.of_nat k)).
Lemma qn_S k : qn (S k) = 1 + qn k.
Proof.
  unfold qn. apply Qc_is_canon. rewrite qc_this_add, !qc_this_Q2Qc. change (this 1) with 1%Q.
  rewrite Nat2Z.inj_succ, <-Z.add_1_l, inject_Z_plus. reflexivity.
Qed.
Lemma qn_0 : qn 0 = 0.
Proof. by apply Qc_is_canon. Qed.
Lemma qn_nonneg k : 0 <= qn k.
Proof. induction k as [|k IH]; [rewrite qn_0; apply Qcle_refl|]. rewrite qn_S. qclra. Qed.
Lemma qsum_const {X} k (l : list X) : qsum (map (λ _, k) l) = qn (length l) * k.
Proof.
  induction l as [|x l IH]; qsum_simpl; cbn [length]; [rewrite qn_0; ring|]. rewrite IH, qn_S. ring.
Qed.
Lemma qsum_elem_le {X} (f : X → Qc) l x : (∀ x, x ∈ l → 0 <= f x) → x ∈ l → f x <= qsum (map f l).
Proof.
  intros Hn Hx. induction l as [|y l IH]; [by apply elem_of_nil in Hx|]. qsum_simpl.
  assert (0 <= qsum (map f l)) by (apply qsum_map_nonneg; intros; apply Hn; by right).
  assert (0 <= f y) by (apply Hn; left).
  apply elem_of_cons in Hx as [->|Hx]; [qclra|]. specialize (IH (λ x Hx, Hn x (elem_of_list_further _ _ _ Hx)) Hx). qclra.
Qed.

Lemma qmul_nonneg a b : 0 <= a → 0 <= b → 0 <= a * b.
Proof. intros. qcnra. Qed.
Lemma qdiv_nonneg a b : 0 <= a → 0 <= b → 0 <= a / b.
Proof.
  intros Ha Hb. destruct (Qcle_lt_or_eq _ _ Hb) as [Hp|<-].
  - apply qmul_nonneg; [done|]. apply Qclt_le_weak. unfold Qclt. rewrite qc_this_inv. by apply Qinv_lt_0_compat.
  - unfold Qcdiv. assert (/ 0 = 0) as -> by done. rewrite Qcmult_0_r. apply Qcle_refl.
Qed.
Lemma qinv_nonneg b : 0 <= b → 0 <= / b.
Proof. intros Hb. rewrite <-(Qcmult_1_l (/ b)). apply (qdiv_nonneg 1 b); [done|done]. Qed.
Lemma qdiv_le a a' b : a <= a' → 0 <= b → a / b <= a' / b.
Proof. intros Ha Hb. apply Qcmult_le_compat_r; [done|by apply qinv_nonneg]. Qed.
Lemma qdiv_mul a b : b ≠ 0 → a / b * b = a.
Proof. intros. by field. Qed.
Lemma qdiv_0 a : a / 0 = 0.
Proof. unfold Qcdiv. assert (/ 0 = 0) as -> by done. apply Qcmult_0_r. Qed.
Lemma qdiv_le_iff a b c : 0 < b → (a / b <= c ↔ a <= c * b).
Proof.
  intros Hb. assert (b ≠ 0) as Hb0 by (intros ->; done). rewrite <-(qdiv_mul a b Hb0) at 2. split.
  - intros H. apply Qcmult_le_compat_r; [done|by apply Qclt_le_weak].
  - intros H. by apply (Qcmult_lt_0_le_reg_r _ _ b).
Qed.
Lemma qle_div_iff a b c : 0 < b → (c <= a / b ↔ c * b <= a).
Proof.
  intros Hb. assert (b ≠ 0) as Hb0 by (intros ->; done). rewrite <-(qdiv_mul a b Hb0) at 2. split.
  - intros H. apply Qcmult_le_compat_r; [done|by apply Qclt_le_weak].
  - intros H. by apply (Qcmult_lt_0_le_reg_r _ _ b).
Qed.
Lemma qle_eq_or_lt a : 0 <= a → a = 0 ∨ 0 < a.
Proof. intros [H|H]%Qcle_lt_or_eq; [by right|by left]. Qed.

Lemma fupd_cases {X} (f : Z → X) v x u : (u = v ∧ fupd f v x u = x) ∨ (u ≠ v ∧ fupd f v x u = f u).
Proof. destruct (decide (u = v)) as [->|H]; [left; by rewrite fupd_eq|right; by rewrite fupd_ne]. Qed.

(** ** The iteration *)
Section gs.
Context (up : Z → list Z) (w : Z → Z → Qc) (T pv b : Z → Qc) (M : Qc).
Definition qstate : Type := (Z → Qc) * (Z → Qc).
Definition qmix (f : Z → Qc) (v : Z) : Qc := qsum (map (λ u, f u * w u v) (up v)).
Definition qcell (c : Z → Qc) (v : Z) : Qc := (qmix c v + b v) / T v.
Definition capped (v : Z) : bool := Qc_ltb (T v) (pv v / M).
Definition qtime (t c : Z → Qc) (v : Z) (cv : Qc) : Qc :=
  if capped v then M
  else if Qc_ltb 0 cv then (pv v * cv + qmix (λ u, t u * c u) v) / (T v * cv) else M.
Definition qupd (q : qstate) (v : Z) : qstate :=
  (fupd q.1 v (qtime q.1 q.2 v (qcell q.2 v)), fupd q.2 v (qcell q.2 v)).
Definition qsweep (C : list Z) (q : qstate) : qstate := foldl qupd q C.

Record qgood : Prop := {
  g_w : ∀ u v, u ∈ up v → 0 <= w u v;
  g_b : ∀ v, 0 <= b v;
  g_T : ∀ v, qmix (λ _, 1) v + b v <= T v;
  g_pv : ∀ v, 0 <= pv v;
  g_M : 0 < M
}.
Context (G : qgood).

Lemma qmix_le f g v : (∀ u, u ∈ up v → f u <= g u) → qmix f v <= qmix g v.
Proof. intros H. apply qsum_le. intros u Hu. apply Qcmult_le_compat_r; [by apply H|by apply G]. Qed.
Lemma qmix_ext f g v : (∀ u, u ∈ up v → f u = g u) → qmix f v = qmix g v.
Proof. intros H. apply qsum_ext. intros u Hu. by rewrite H. Qed.
Lemma qmix_nonneg f v : (∀ u, u ∈ up v → 0 <= f u) → 0 <= qmix f v.
Proof. intros H. apply qsum_map_nonneg. intros u Hu. apply qmul_nonneg; [by apply H|by apply G]. Qed.
Lemma qmix_plus f g v : qmix (λ u, f u + g u) v = qmix f v + qmix g v.
Proof. unfold qmix. rewrite <-qsum_plus. apply qsum_ext. intros; ring. Qed.
Lemma qmix_scale k f v : qmix (λ u, k * f u) v = k * qmix f v.
Proof. unfold qmix. rewrite <-qsum_scale. apply qsum_ext. intros; ring. Qed.
Lemma win_nonneg v : 0 <= qmix (λ _, 1) v.
Proof. apply qmix_nonneg. intros; done. Qed.
Lemma T_nonneg v : 0 <= T v.
Proof. pose proof (g_T G v). pose proof (win_nonneg v). pose proof (g_b G v). qclra. Qed.

Definition unit_c (c : Z → Qc) : Prop := ∀ u, 0 <= c u ∧ c u <= 1.

Lemma qcell_unit c v : unit_c c → 0 <= qcell c v ∧ qcell c v <= 1.
Proof.
  intros Hc. pose proof (T_nonneg v) as HT. pose proof (g_b G v). pose proof (g_T G v).
  assert (0 <= qmix c v) by (apply qmix_nonneg; intros; apply Hc).
  assert (qmix c v <= qmix (λ _, 1) v) by (apply qmix_le; intros; apply Hc).
  split.
  - apply qdiv_nonneg; [qclra|done].
  - unfold qcell. destruct (qle_eq_or_lt _ HT) as [->|Hp]; [by rewrite qdiv_0|].
    apply qdiv_le_iff; [done|]. qclra.
Qed.
Lemma qcell_mono c c' v : (∀ u, u ∈ up v → c u <= c' u) → qcell c v <= qcell c' v.
Proof.
  intros H. apply qdiv_le; [|apply T_nonneg]. pose proof (qmix_le c c' v H). qclra.
Qed.

(** Time times concentration. *)
Definition yf (q : qstate) (u : Z) : Qc := q.1 u * q.2 u.
Definition yF (y : Z → Qc) (c : Qc) (v : Z) : Qc :=
  if capped v then M * c else (pv v * c + qmix y v) / T v.

Lemma yF_mono y y' c c' v : (∀ u, u ∈ up v → y u <= y' u) → c <= c' → yF y c v <= yF y' c' v.
Proof.
  intros Hy Hc. unfold yF. pose proof (g_M G) as HM. destruct (capped v).
  - qcnra.
  - apply qdiv_le; [|apply T_nonneg]. pose proof (qmix_le y y' v Hy). pose proof (g_pv G v) as Hp.
    assert (pv v * c <= pv v * c') by (rewrite !(Qcmult_comm (pv v)); by apply Qcmult_le_compat_r). qclra.
Qed.

Lemma y_upd q v : unit_c q.2 → (∀ u, 0 <= q.1 u) → yf (qupd q v) v = yF (yf q) (qcell q.2 v) v.
Proof.
  intros Hc Ht. unfold yf at 1. cbn [qupd fst snd]. rewrite !fupd_eq. unfold qtime, yF.
  destruct (capped v); [done|]. destruct (qcell_unit q.2 v Hc) as [H0 H1].
  pose proof (T_nonneg v) as HT.
  destruct (Qc_ltb 0 (qcell q.2 v)) eqn:E.
  - apply Qc_ltb_true in E. fold (yf q).
    assert (T v ≠ 0) as HT0. { intros E0. unfold qcell in E. rewrite E0, qdiv_0 in E. done. }
    assert (qcell q.2 v ≠ 0) as Hc0 by (intros E0; by rewrite E0 in E).
    change (λ u, q.1 u * q.2 u) with (yf q). by field.
  - apply Qc_ltb_false in E. assert (qcell q.2 v = 0) as E0 by (apply Qcle_antisym; done). rewrite E0.
    rewrite !Qcmult_0_r, Qcplus_0_l. destruct (qle_eq_or_lt _ HT) as [->|Hp]; [by rewrite qdiv_0|].
    assert (qmix q.2 v + b v = 0) as E1.
    { unfold qcell in E0. rewrite <-(qdiv_mul (qmix q.2 v + b v) (T v)), E0; [ring|]. intros E2. by rewrite E2 in Hp. }
    pose proof (g_b G v) as Hb.
    assert (0 <= qmix q.2 v) by (apply qmix_nonneg; intros; apply Hc).
    assert (qmix q.2 v = 0) as E2 by (apply Qcle_antisym; qclra).
    assert (qmix (yf q) v = 0) as ->; [|by unfold Qcdiv; rewrite Qcmult_0_l].
    unfold qmix in E2. assert (∀ u, u ∈ up v → q.2 u * w u v = 0) as Hz.
    { apply (qsum_zero (λ u, q.2 u * w u v)); [|done]. intros u Hu. apply qmul_nonneg; [apply Hc|by apply G]. }
    unfold qmix. transitivity (qsum (map (λ _ : Z, 0) (up v))).
    + apply qsum_ext. intros u Hu. unfold yf. rewrite <-Qcmult_assoc, (Hz u Hu). ring.
    + rewrite qsum_const. ring.
Qed.

Context (C : list Z).
(** Sub-solution on [C]. *)
Record qsub (q : qstate) : Prop := {
  i_c : unit_c q.2;
  i_t : ∀ u, 0 <= q.1 u;
  i_sub : ∀ v, v ∈ C → q.2 v <= qcell q.2 v;
  i_ysub : ∀ v, v ∈ C → yf q v <= yF (yf q) (q.2 v) v
}.

Lemma qtime_nonneg t c v cv : (∀ u, 0 <= t u) → unit_c c → 0 <= cv → 0 <= qtime t c v cv.
Proof.
  intros Ht Hc Hcv. unfold qtime. pose proof (g_M G) as HM. destruct (capped v); [by apply Qclt_le_weak|].
  destruct (Qc_ltb 0 cv); [|by apply Qclt_le_weak]. apply qdiv_nonneg.
  - assert (0 <= qmix (λ u, t u * c u) v) by (apply qmix_nonneg; intros; apply qmul_nonneg; [done|apply Hc]).
    pose proof (qmul_nonneg _ _ (g_pv G v) Hcv). qclra.
  - apply qmul_nonneg; [apply T_nonneg|done].
Qed.

(** Non-negative states stay so whatever cell is updated. *)
Lemma qupd_range q v : unit_c q.2 → (∀ u, 0 <= q.1 u) → unit_c (qupd q v).2 ∧ (∀ u, 0 <= (qupd q v).1 u).
Proof.
  intros Hc Ht. split; intros u; cbn [qupd fst snd].
  - destruct (fupd_cases q.2 v (qcell q.2 v) u) as [[-> ->]|[_ ->]]; [by apply qcell_unit|done].
  - destruct (fupd_cases q.1 v (qtime q.1 q.2 v (qcell q.2 v)) u) as [[-> ->]|[_ ->]]; [|done].
    apply qtime_nonneg; [done|done|]. by apply qcell_unit.
Qed.

Definition grows (q q' : qstate) : Prop := ∀ u, q.2 u <= q'.2 u ∧ yf q u <= yf q' u.
Lemma grows_refl q : grows q q.
Proof. intros u. split; apply Qcle_refl. Qed.
Lemma grows_trans a b' c : grows a b' → grows b' c → grows a c.
Proof. intros H1 H2 u. destruct (H1 u), (H2 u). split; by eapply Qcle_trans. Qed.

Lemma qsub_upd q v : v ∈ C → qsub q → qsub (qupd q v) ∧ grows q (qupd q v).
Proof.
  intros Hv [Hc Ht Hs Hy]. destruct (qupd_range q v Hc Ht) as [Hc' Ht'].
  assert (grows q (qupd q v)) as Hg.
  { intros u. destruct (decide (u = v)) as [->|Hne].
    - split; [cbn; rewrite fupd_eq; by apply Hs|]. rewrite (y_upd q v Hc Ht). eapply Qcle_trans; [by apply Hy|].
      apply yF_mono; [intros; apply Qcle_refl|by apply Hs].
    - unfold yf. cbn. rewrite !fupd_ne by done. split; apply Qcle_refl. }
  split; [|done]. split; [done|done| |].
  - intros u Hu. destruct (decide (u = v)) as [->|Hne].
    + assert ((qupd q v).2 v = qcell q.2 v) as -> by (cbn; by rewrite fupd_eq). apply qcell_mono. intros x _. apply Hg.
    + assert ((qupd q v).2 u = q.2 u) as -> by (cbn; by rewrite fupd_ne). eapply Qcle_trans; [by apply Hs|]. apply qcell_mono. intros x _. apply Hg.
  - intros u Hu. destruct (decide (u = v)) as [->|Hne].
    + rewrite (y_upd q v Hc Ht). apply yF_mono; [intros x _; apply Hg|]. cbn. rewrite fupd_eq. apply Qcle_refl.
    + eapply Qcle_trans; [|apply yF_mono; [intros x _; apply Hg|apply Hg]]. 
      assert (yf (qupd q v) u = yf q u) as -> by (unfold yf; cbn; by rewrite !fupd_ne). by apply Hy.
Qed.

(** ** Termination *)
(** Upper bound on time times concentration, kept by the updates of [C]. *)
Context (Inv : qstate → Prop) (K : Qc) (HK : 0 <= K).
Context (Hsub : ∀ q, Inv q → qsub q).
Context (Hbnd : ∀ q v, Inv q → v ∈ C → yf q v <= K).
Context (Hupd : ∀ q v, Inv q → v ∈ C → Inv (qupd q v)).
Context (Hnd : NoDup C).

Lemma foldl_inv l q : (∀ v, v ∈ l → v ∈ C) → Inv q → Inv (foldl qupd q l) ∧ grows q (foldl qupd q l).
Proof.
  revert q. induction l as [|v l IH]; intros q Hl Hq; cbn; [split; [done|apply grows_refl]|].
  assert (v ∈ C) by (apply Hl; left). destruct (IH (qupd q v)) as [H1 H2]; [intros; apply Hl; by right|by apply Hupd|].
  split; [done|]. eapply grows_trans; [|done]. apply qsub_upd; [done|by apply Hsub].
Qed.
Lemma sweep_inv q : Inv q → Inv (qsweep C q) ∧ grows q (qsweep C q).
Proof. by apply foldl_inv. Qed.

Lemma foldl_off l q u : u ∉ l → (foldl qupd q l).1 u = q.1 u ∧ (foldl qupd q l).2 u = q.2 u.
Proof.
  revert q. induction l as [|v l IH]; intros q Hu; [done|]. cbn [foldl]. apply not_elem_of_cons in Hu as [H1 H2].
  destruct (IH (qupd q v) H2) as [-> ->]. cbn. by rewrite !fupd_ne.
Qed.
(** The value of a cell after a sweep, in terms of the state when it was updated. *)
Lemma sweep_at q v : v ∈ C → ∃ l1 l2, C = l1 ++ v :: l2 ∧ v ∉ l1 ∧ v ∉ l2 ∧
  let q1 := foldl qupd q l1 in
  (qsweep C q).2 v = qcell q1.2 v ∧ (qsweep C q).1 v = qtime q1.1 q1.2 v (qcell q1.2 v).
Proof.
  intros Hv. apply elem_of_list_split in Hv as (l1 & l2 & E). exists l1, l2.
  pose proof Hnd as Hn. rewrite E in Hn. apply NoDup_app in Hn as (_ & H1 & H2). apply NoDup_cons in H2 as [H2 _].
  assert (v ∉ l1) as H3 by (intros H; apply (H1 v H); left). split_and!; [done|done|done|].
  cbn zeta. unfold qsweep. rewrite E, foldl_app. cbn [foldl].
  destruct (foldl_off l2 (qupd (foldl qupd q l1) v) v H2) as [-> ->]. cbn. by rewrite !fupd_eq.
Qed.

(** After a sweep, cells without tracer have the maximal time. *)
Definition zt (q : qstate) : Prop := ∀ v, v ∈ C → q.2 v = 0 → q.1 v = M.
Lemma sweep_zt q : zt (qsweep C q).
Proof.
  intros v Hv Hz. destruct (sweep_at q v Hv) as (l1 & l2 & _ & _ & _ & E1 & E2). rewrite E2. rewrite E1 in Hz. rewrite Hz.
  unfold qtime. by destruct (capped v).
Qed.

Context (τt τc : Qc) (Hτt : 0 < τt) (Hτc : 0 < τc).
Definition qabs (x : Qc) : Qc := if Qc_ltb x 0 then - x else x.
(** A sweep that changes nothing by more than the tolerances. *)
Definition quiet (q : qstate) : Prop := ∀ v, v ∈ C →
  qabs ((qsweep C q).1 v - q.1 v) <= τt ∧ qabs ((qsweep C q).2 v - q.2 v) <= τc ∧
  (q.2 v = 0 ↔ (qsweep C q).2 v = 0).

Definition zeros_in (l : list Z) (q : qstate) : nat := length (filter (λ v, q.2 v = 0) l).
Notation zeros := (zeros_in C).
Definition Phi (g : Qc) (q : qstate) : Qc := qsum (map (λ v, yf q v + g * q.2 v) C).

Lemma zeros_mono q q' v : grows q q' → (∀ v, v ∈ C → 0 <= q.2 v) →
  (zeros q' ≤ zeros q)%nat ∧ (v ∈ C → q.2 v = 0 → q'.2 v ≠ 0 → (zeros q' < zeros q)%nat).
Proof.
  intros Hg Hn.
  assert (∀ l, (∀ v, v ∈ l → v ∈ C) → (zeros_in l q' ≤ zeros_in l q)%nat ∧
    (v ∈ l → q.2 v = 0 → q'.2 v ≠ 0 → (zeros_in l q' < zeros_in l q)%nat)) as H; [|by apply H].
  induction l as [|x l IH]; intros Hl; [split; [done|by intros ?%elem_of_nil]|].
  destruct IH as [I1 I2]; [intros; apply Hl; by right|]. unfold zeros_in in *. rewrite !filter_cons.
  assert (q'.2 x = 0 → q.2 x = 0) as Hx.
  { intros E. destruct (Hg x) as [Hle _]. rewrite E in Hle. apply Qcle_antisym; [done|]. apply Hn, Hl. left. }
  destruct (decide (q'.2 x = 0)) as [E1|E1], (decide (q.2 x = 0)) as [E2|E2]; cbn [length]; try (by destruct E2; apply Hx).
  - split; [lia|]. intros [->|Hin]%elem_of_cons H1 H2; [done|]. specialize (I2 Hin H1 H2). lia.
  - split; [lia|]. intros [->|Hin]%elem_of_cons H1 H2; [lia|]. specialize (I2 Hin H1 H2). lia.
  - split; [lia|]. intros [->|Hin]%elem_of_cons H1 H2; [done|]. specialize (I2 Hin H1 H2). lia.
Qed.

Lemma qabs_le x y : qabs x <= y ↔ x <= y ∧ - y <= x.
Proof.
  unfold qabs. destruct (Qc_ltb x 0) eqn:E; [apply Qc_ltb_true in E|apply Qc_ltb_false in E]; split; intros; try split; try qclra.
Qed.

Lemma time_change t t' c c' cmin k :
  0 <= t → 0 < cmin → cmin <= c → c <= c' → t * c <= t' * c' → t' * c' <= k →
  (t' - t) * cmin <= t' * c' - t * c + k / cmin * (c' - c) ∧
  (t - t') * cmin <= t' * c' - t * c + k / cmin * (c' - c).
Proof.
  intros Ht Hm Hc Hcc Hy Hk.
  assert (0 < c) by qclra. assert (0 < c') by qclra.
  assert (0 <= t * c) by (apply qmul_nonneg; qclra).
  assert (0 <= k) by qclra.
  assert (0 <= k / cmin) by (apply qdiv_nonneg; qclra).
  assert (0 <= k / cmin * (c' - c)) as Hkk by (apply qmul_nonneg; qclra).
  split.
  - destruct (Qclt_le_dec t' t) as [Hlt|Hge]; [qcnra|].
    assert ((t' - t) * cmin <= (t' - t) * c') by qcnra. assert (t * c <= t * c') by qcnra. qcnra.
  - destruct (Qclt_le_dec t t') as [Hlt|Hge]; [qcnra|].
    assert (t' <= k / cmin) as Hk'.
    { apply qle_div_iff; [done|]. destruct (Qclt_le_dec t' 0); qcnra. }
    assert ((t - t') * cmin <= (t - t') * c) by qcnra.
    assert (t' * (c' - c) <= k / cmin * (c' - c)) by (apply Qcmult_le_compat_r; [done|qclra]).
    set (z := k / cmin * (c' - c)) in *. clearbody z. qcnra.
Qed.

Lemma phi_step q cmin v : Inv q → zt q → 0 < cmin → (∀ v, v ∈ C → q.2 v ≠ 0 → cmin <= q.2 v) → v ∈ C →
  (∀ v, v ∈ C → q.2 v = 0 ↔ (qsweep C q).2 v = 0) →
  let q' := qsweep C q in let g := K / cmin + 1 in
  Phi g q + (yf q' v - yf q v + g * (q'.2 v - q.2 v)) <= Phi g q' ∧
  qabs (q'.1 v - q.1 v) * cmin <= yf q' v - yf q v + g * (q'.2 v - q.2 v) ∧
  qabs (q'.2 v - q.2 v) <= yf q' v - yf q v + g * (q'.2 v - q.2 v).
Proof.
  intros Hq Hz Hm Hc Hv Hst q' g. destruct (sweep_inv q Hq) as [Hq' Hg]. fold q' in Hq', Hg.
  pose proof (Hsub _ Hq) as S. pose proof (Hsub _ Hq') as S'.
  assert (0 <= K / cmin) as Hkm by (apply qdiv_nonneg; [done|by apply Qclt_le_weak]).
  assert (0 <= g) as Hg0 by (unfold g; qclra).
  assert (∀ x, 0 <= yf q' x - yf q x + g * (q'.2 x - q.2 x)) as Hnn.
  { intros x. destruct (Hg x) as [G1 G2]. assert (0 <= g * (q'.2 x - q.2 x)) by (apply qmul_nonneg; [done|qclra]). qclra. }
  split_and!.
  - assert (Phi g q' = Phi g q + qsum (map (λ x, yf q' x - yf q x + g * (q'.2 x - q.2 x)) C)) as ->.
    { unfold Phi. rewrite <-qsum_plus. apply qsum_ext. intros x _. ring. }
    assert (yf q' v - yf q v + g * (q'.2 v - q.2 v) <= qsum (map (λ x, yf q' x - yf q x + g * (q'.2 x - q.2 x)) C)) as H.
    { apply (qsum_elem_le (λ x, yf q' x - yf q x + g * (q'.2 x - q.2 x))); [intros; apply Hnn|done]. }
    qclra.
  - destruct (decide (q.2 v = 0)) as [E|E].
    + rewrite (Hz v Hv E). pose proof (proj1 (Hst v Hv) E) as E'. unfold q'. rewrite (sweep_zt q v Hv E').
      assert (M - M = 0) as -> by ring. unfold qabs. assert (Qc_ltb 0 0 = false) as -> by by apply Qc_ltb_false. rewrite Qcmult_0_l. apply Hnn.
    + destruct (Hg v) as [G1 G2].
      destruct (time_change (q.1 v) (q'.1 v) (q.2 v) (q'.2 v) cmin K) as [H1 H2]; try done.
      { apply S. } { by apply Hc. } { by apply Hbnd. }
      assert (K / cmin * (q'.2 v - q.2 v) <= g * (q'.2 v - q.2 v)) as H3.
      { apply Qcmult_le_compat_r; unfold g; qclra. }
      unfold yf. unfold qabs. destruct (Qc_ltb _ 0).
      * eapply Qcle_trans; [|eapply Qcle_trans; [exact H2|]]; [|qclra].
        assert (- (q'.1 v - q.1 v) * cmin = (q.1 v - q'.1 v) * cmin) as -> by ring. apply Qcle_refl.
      * eapply Qcle_trans; [exact H1|]. qclra.
  - destruct (Hg v) as [G1 G2].
    assert (qabs (q'.2 v - q.2 v) = q'.2 v - q.2 v) as ->.
    { unfold qabs. assert (Qc_ltb (q'.2 v - q.2 v) 0 = false) as ->; [|done]. apply Qc_ltb_false. qclra. }
    assert (0 <= K / cmin * (q'.2 v - q.2 v)) by (apply qmul_nonneg; [done|qclra]).
    unfold g. assert ((K / cmin + 1) * (q'.2 v - q.2 v) = K / cmin * (q'.2 v - q.2 v) + (q'.2 v - q.2 v)) as -> by ring. qclra.
Qed.

Lemma phi_max q g : Inv q → 0 <= g → Phi g q <= qn (length C) * (K + g).
Proof.
  intros Hq Hg. rewrite <-qsum_const. apply qsum_le. intros v Hv. pose proof (Hbnd q v Hq Hv) as H1.
  destruct (i_c _ (Hsub _ Hq) v) as [H2 H3]. assert (g * q.2 v <= g) by qcnra. qclra.
Qed.

Lemma archimedes x e : 0 < e → ∃ m, x <= qn m * e.
Proof.
  intros He. exists (Z.to_nat (Qceiling (this (x / e)%Qc))). apply qdiv_le_iff; [done|].
  unfold Qcle. unfold qn. rewrite qc_this_Q2Qc. eapply Qle_trans; [apply Qle_ceiling|].
  rewrite <-Zle_Qle. lia.
Qed.

Lemma phase q cmin e m : Inv q → zt q → 0 < cmin → (∀ v, v ∈ C → q.2 v ≠ 0 → cmin <= q.2 v) →
  0 < e → e <= τt * cmin → e <= τc →
  qn (length C) * (K + (K / cmin + 1)) <= Phi (K / cmin + 1) q + qn m * e →
  ∃ k, quiet (Nat.iter k (qsweep C) q) ∨ (zeros (Nat.iter k (qsweep C) q) < zeros q)%nat.
Proof.
  intros Hq Hz Hm Hc He1 He2 He3. revert q Hq Hz Hc. induction m as [|m IH]; intros q Hq Hz Hc Hphi.
  all: pose proof (sweep_inv q Hq) as [Hq' Hg];
    assert (∀ v, v ∈ C → 0 <= q.2 v) as Hnn by (intros v _; apply (i_c _ (Hsub _ Hq)));
    destruct (decide (Forall (λ v, q.2 v = 0 ↔ (qsweep C q).2 v = 0) C)) as [Hst|Hst];
    [|exists 1%nat; right; cbn; apply not_Forall_Exists in Hst; [|by intros; apply _];
      apply Exists_exists in Hst as (v & Hv & Hst); cbn in Hst;
      assert (q.2 v = 0 ∧ (qsweep C q).2 v ≠ 0) as [Ea Eb];
      [|by eapply zeros_mono];
      destruct (decide (q.2 v = 0)) as [Ez|Ez], (decide ((qsweep C q).2 v = 0)) as [Ez'|Ez']; try (by exfalso; apply Hst); [done|];
      exfalso; apply Ez; destruct (Hg v) as [Hle _]; rewrite Ez' in Hle; apply Qcle_antisym; [done|by apply Hnn]];
    rewrite Forall_forall in Hst;
    destruct (decide (Forall (λ v, qabs ((qsweep C q).1 v - q.1 v) <= τt ∧ qabs ((qsweep C q).2 v - q.2 v) <= τc) C)) as [Hquiet|Hnq];
    [exists 0%nat; left; intros v Hv; pose proof (proj1 (Forall_forall _ _) Hquiet v Hv) as [H1 H2]; split_and!; [done|done|by apply Hst]|];
    assert (Phi (K / cmin + 1) q + e < Phi (K / cmin + 1) (qsweep C q)) as Hinc;
    [apply not_Forall_Exists in Hnq; [|by intros; apply _]; apply Exists_exists in Hnq as (v & Hv & Hnq);
      destruct (phi_step q cmin v Hq Hz Hm Hc Hv Hst) as (P1 & P2 & P3);
      destruct (Qclt_le_dec τt (qabs ((qsweep C q).1 v - q.1 v))) as [Hb|Hb];
      [assert (τt * cmin < qabs ((qsweep C q).1 v - q.1 v) * cmin) by (by apply Qcmult_lt_compat_r); qclra|];
      destruct (Qclt_le_dec τc (qabs ((qsweep C q).2 v - q.2 v))) as [Hb'|Hb']; [qclra|by destruct Hnq]|];
    assert (0 <= K / cmin + 1) as Hg1 by (assert (0 <= K / cmin) by (apply qdiv_nonneg; [done|by apply Qclt_le_weak]); qclra);
    pose proof (phi_max _ _ Hq' Hg1) as Hmax.
  - exfalso. rewrite qn_0 in Hphi. qclra.
  - rewrite qn_S in Hphi. destruct (IH (qsweep C q)) as (k & Hk).
    + done.
    + apply sweep_zt.
    + intros v Hv Hne. destruct (Hg v) as [Hle _]. eapply Qcle_trans; [|exact Hle]. apply Hc; [done|].
      intros E. apply Hne. by apply Hst.
    + qclra.
    + exists (S k). rewrite Nat.iter_succ_r. destruct Hk as [Hk|Hk]; [by left|right].
      eapply Nat.lt_le_trans; [exact Hk|]. by apply (zeros_mono _ _ 0%Z).
Qed.

Lemma cmin_exists (q : qstate) : (∀ u, 0 <= q.2 u) → ∃ cmin, 0 < cmin ∧ ∀ v, v ∈ C → q.2 v ≠ 0 → cmin <= q.2 v.
Proof.
  intros Hn. clear - Hn. induction C as [|x l (m & Hm & IH)]; [by exists 1; split; [|intros v ?%elem_of_nil]|].
  destruct (decide (q.2 x = 0)) as [E|E].
  - exists m. split; [done|]. intros v [->|Hv]%elem_of_cons; [done|by apply IH].
  - assert (0 < q.2 x) as Hx by (destruct (qle_eq_or_lt _ (Hn x)); done).
    destruct (Qclt_le_dec m (q.2 x)) as [Hlt|Hle].
    + exists m. split; [done|]. intros v [->|Hv]%elem_of_cons; [intros _; by apply Qclt_le_weak|by apply IH].
    + exists (q.2 x). split; [done|]. intros v [->|Hv]%elem_of_cons H; [apply Qcle_refl|]. eapply Qcle_trans; [exact Hle|by apply IH].
Qed.

Lemma terminates q : Inv q → ∃ k, quiet (Nat.iter k (qsweep C) q).
Proof.
  intros Hq. assert (∀ z q, Inv q → zt q → zeros q = z → ∃ k, quiet (Nat.iter k (qsweep C) q)) as H.
  - clear q Hq. intros z. induction (lt_wf z) as [z _ IH]. intros q Hq Hz Ez.
    destruct (cmin_exists q) as (cmin & Hm & Hc). { intros u. apply (i_c _ (Hsub _ Hq)). }
    assert (0 < τt * cmin) by qcnra.
    assert (∃ e, 0 < e ∧ e <= τt * cmin ∧ e <= τc) as (e & He1 & He2 & He3).
    { destruct (Qclt_le_dec (τt * cmin) τc) as [Hlt|Hle]; [exists (τt * cmin)|exists τc]; split_and!; try done; try apply Qcle_refl.
      by apply Qclt_le_weak. }
    destruct (archimedes (qn (length C) * (K + (K / cmin + 1)) - Phi (K / cmin + 1) q) e He1) as (m & Hm').
    destruct (phase q cmin e m Hq Hz Hm Hc He1 He2 He3) as (k & Hk); [qclra|].
    destruct Hk as [Hk|Hk]; [eauto|].
    assert (Inv (Nat.iter k (qsweep C) q)) as Hqk.
    { clear Hk. induction k as [|k IHk]; [done|]. cbn. by apply sweep_inv. }
    destruct k as [|k]; [cbn in Hk; lia|].
    destruct (IH _ ltac:(by rewrite <-Ez) (Nat.iter (S k) (qsweep C) q)) as (k' & Hk'); [done| |done|].
    { cbn. apply sweep_zt. }
    exists (k' + S k)%nat. by rewrite Nat.iter_add.
  - destruct (H (zeros (qsweep C q)) (qsweep C q)) as (k & Hk); [by apply sweep_inv|apply sweep_zt|done|].
    exists (S k). by rewrite Nat.iter_succ_r.
Qed.
End gs.

(** ** An upper bound *)
Local Notation "2" := (1 + 1) : Qc_scope.
Local Notation "4" := (1 + 1 + 1 + 1) : Qc_scope.
Fixpoint qpow (x : Qc) (k : nat) : Qc := match k with O => 1 | S k => x * qpow x k end.
Lemma qpow_range x k : 0 < x → x <= 1 → 0 < qpow x k ∧ qpow x k <= 1.
Proof. intros H1 H2. induction k as [|k [I1 I2]]; cbn [qpow]; [split; done|]. split; qcnra. Qed.
Lemma qpow_anti x i j : 0 < x → x <= 1 → (i ≤ j)%nat → qpow x j <= qpow x i.
Proof.
  intros H1 H2. induction 1 as [|j _ IH]; [apply Qcle_refl|]. cbn [qpow]. destruct (qpow_range x j H1 H2). qcnra.
Qed.
Lemma uniform (l : list Z) (P : Z → Qc → Prop) : (∀ v, v ∈ l → ∃ p, 0 < p ∧ P v p) →
  (∀ v p p', P v p → 0 < p' → p' <= p → P v p') → ∃ p, 0 < p ∧ p <= 1 ∧ ∀ v, v ∈ l → P v p.
Proof.
  intros Hl Hm. induction l as [|x l IH]; [by exists 1; split_and!; [| |intros v ?%elem_of_nil]|].
  destruct IH as (p & Hp & Hp1 & H); [intros; apply Hl; by right|]. destruct (Hl x) as (p' & Hp' & Hx); [left|].
  destruct (Qclt_le_dec p p') as [Hlt|Hle].
  - exists p. split_and!; [done|done|]. intros v [->|Hv]%elem_of_cons; [|by apply H]. eapply Hm; [done|done|by apply Qclt_le_weak].
  - exists p'. split_and!; [done|by eapply Qcle_trans|]. intros v [->|Hv]%elem_of_cons; [done|]. eapply Hm; [by apply H|done|done].
Qed.

Section super.
Context (up : Z → list Z) (w : Z → Z → Qc) (T pv b : Z → Qc) (M : Qc) (G : qgood up w T pv b M).
Context (Hpos : ∀ u v, u ∈ up v → 0 < w u v).
Context (C : list Z).
Notation qmix := (qmix up w).
Notation yF := (yF up w T pv M).

Lemma super (y0 : Z → Qc) (d : Z → nat) : (∀ u, 0 <= y0 u) →
  (∀ v, v ∈ C → (∃ u, u ∈ C ∧ u ∈ up v ∧ (d u < d v)%nat) ∨ qmix (λ _, 1) v < T v ∨ ∃ u, u ∈ up v ∧ u ∉ C) →
  ∃ Y K, 0 <= K ∧ (∀ u, u ∉ C → Y u = y0 u) ∧ (∀ v, v ∈ C → 0 <= Y v ∧ Y v <= K) ∧ (∀ v, v ∈ C → yF Y 1 v <= Y v).
Proof.
  intros Hy0 Hd. pose proof (g_M _ _ _ _ _ _ G) as HM.
  set (P := λ v p, 0 < T v ∧ ((∃ u, u ∈ C ∧ u ∈ up v ∧ (d u < d v)%nat ∧ p * T v <= w u v) ∨
    p * T v <= T v - qmix (λ _, 1) v ∨ ∃ u, u ∈ up v ∧ u ∉ C ∧ p * T v <= w u v)).
  assert (∀ u v, u ∈ up v → w u v <= T v) as HwT.
  { intros u v Hu. pose proof (g_T _ _ _ _ _ _ G v). pose proof (g_b _ _ _ _ _ _ G v).
    assert (w u v <= qmix (λ _, 1) v) as H1; [|qclra].
    unfold GaussSeidel.qmix. rewrite <-(Qcmult_1_l (w u v)). apply (qsum_elem_le (λ u, 1 * w u v)); [|done].
    intros x Hx. rewrite Qcmult_1_l. by apply (g_w _ _ _ _ _ _ G). }
  destruct (uniform C P) as (p & Hp & Hp1 & HP).
  { intros v Hv. destruct (Hd v Hv) as [(u & Hu & Huv & Hdu)|[Hl|(u & Huv & Hu)]].
    - pose proof (Hpos u v Huv). pose proof (HwT u v Huv). assert (0 < T v) as HT by qclra.
      exists (w u v / T v). assert (T v ≠ 0) by (intros E; by rewrite E in HT). split.
      + apply (Qcmult_lt_compat_r 0 (w u v) (/ T v)) in H; [by rewrite Qcmult_0_l in H|]. unfold Qclt. rewrite qc_this_inv. by apply Qinv_lt_0_compat.
      + split; [done|]. left. exists u. split_and!; try done. rewrite qdiv_mul by done. apply Qcle_refl.
    - pose proof (win_nonneg up w T pv b M G v). assert (0 < T v) as HT by qclra. assert (T v ≠ 0) by (intros E; by rewrite E in HT).
      exists ((T v - qmix (λ _, 1) v) / T v). split.
      + assert (0 < T v - qmix (λ _, 1) v) as H1 by qclra. apply (Qcmult_lt_compat_r _ _ (/ T v)) in H1; [by rewrite Qcmult_0_l in H1|].
        unfold Qclt. rewrite qc_this_inv. by apply Qinv_lt_0_compat.
      + split; [done|]. right; left. rewrite qdiv_mul by done. apply Qcle_refl.
    - pose proof (Hpos u v Huv). pose proof (HwT u v Huv). assert (0 < T v) as HT by qclra.
      exists (w u v / T v). assert (T v ≠ 0) by (intros E; by rewrite E in HT). split.
      + apply (Qcmult_lt_compat_r 0 (w u v) (/ T v)) in H; [by rewrite Qcmult_0_l in H|]. unfold Qclt. rewrite qc_this_inv. by apply Qinv_lt_0_compat.
      + split; [done|]. right; right. exists u. split_and!; try done. rewrite qdiv_mul by done. apply Qcle_refl. }
  { intros v p p' [HT H] Hp' Hle. split; [done|].
    assert (p' * T v <= p * T v) as Hle' by (apply Qcmult_le_compat_r; [done|by apply Qclt_le_weak]).
    destruct H as [(u & ? & ? & ? & ?)|[?|(u & ? & ? & ?)]].
    - left. exists u. split_and!; try done. by eapply Qcle_trans.
    - right; left. by eapply Qcle_trans.
    - right; right. exists u. split_and!; try done. by eapply Qcle_trans. }
  set (D := foldr Nat.max 0%nat (map d C)).
  assert (∀ v, v ∈ C → (d v ≤ D)%nat) as HD.
  { unfold D. clear. induction C as [|x l IH]; intros v Hv; [by apply elem_of_nil in Hv|]. cbn.
    apply elem_of_cons in Hv as [->|Hv]; [lia|]. specialize (IH v Hv). lia. }
  set (E := qsum (map y0 (C ≫= up))).
  assert (∀ u v, v ∈ C → u ∈ up v → y0 u <= E) as HE.
  { intros u v Hv Hu. apply qsum_elem_le; [done|]. apply elem_of_list_bind. eauto. }
  assert (0 <= E) as HE0 by (by apply qsum_map_nonneg).
  assert (∃ δ, 0 < δ ∧ p = 4 * δ) as (δ & Hδ & Epδ).
  { exists (p / 4). split; [|field; done]. unfold Qcdiv. apply (Qcmult_lt_compat_r 0 p (/ 4)) in Hp; [|done]. by rewrite Qcmult_0_l in Hp. }
  assert (δ <= 1) as Hδ1 by qclra. assert (4 * δ <= 1) as Hδ4 by qclra.
  destruct (qpow_range δ (S D) Hδ Hδ1) as [PD1 PD2].
  set (K := M / qpow δ (S D) + 2 * E).
  assert (qpow δ (S D) ≠ 0) as PD0 by (intros E0; by rewrite E0 in PD1).
  assert (0 <= M / qpow δ (S D)) as HMd by (apply qdiv_nonneg; by apply Qclt_le_weak).
  assert (M <= K * qpow δ (S D)) as HKM.
  { unfold K. assert ((M / qpow δ (S D) + 2 * E) * qpow δ (S D) = M + 2 * E * qpow δ (S D)) as -> by by field.
    assert (0 <= 2 * E * qpow δ (S D)) by (apply qmul_nonneg; [qclra|by apply Qclt_le_weak]). qclra. }
  assert (2 * E <= K) as HKE by (unfold K; qclra).
  assert (0 <= K) as HK0 by qclra. clearbody K. clear HMd.
  set (Y := λ u, if decide (u ∈ C) then K * (1 - qpow δ (S (d u))) else y0 u).
  assert (∀ v, v ∈ C → M <= K * qpow δ (S (d v)) ∧ qpow δ (S (d v)) <= δ) as HKd.
  { intros v Hv. specialize (HD v Hv). pose proof (qpow_anti δ (S (d v)) (S D) Hδ Hδ1 ltac:(lia)) as Ha. split.
    - eapply Qcle_trans; [exact HKM|]. rewrite !(Qcmult_comm K). by apply Qcmult_le_compat_r.
    - cbn [qpow]. destruct (qpow_range δ (d v) Hδ Hδ1). qcnra. }
  assert (∀ v, v ∈ C → 0 <= Y v ∧ Y v <= K) as HY.
  { intros v Hv. unfold Y. rewrite decide_True by done. destruct (qpow_range δ (S (d v)) Hδ Hδ1). split; qcnra. }
  assert (∀ u v, v ∈ C → u ∈ up v → Y u <= K) as HYup.
  { intros u v Hv Hu. destruct (decide (u ∈ C)) as [Hin|Hout]; [by apply HY|]. unfold Y. rewrite decide_False by done.
    specialize (HE u v Hv Hu). qclra. }
  exists Y, K. split_and!; [done| |done|].
  { intros u Hu. unfold Y. by rewrite decide_False. }
  intros v Hv. destruct (HP v Hv) as [HT HPv]. destruct (HKd v Hv) as [HM1 HM2].
  unfold GaussSeidel.yF. assert (Y v = K * (1 - qpow δ (S (d v)))) as EY by (unfold Y; by rewrite decide_True).
  set (z := qpow δ (S (d v))) in *.
  assert (0 < z) as Hz0 by (by apply qpow_range).
  destruct (capped T pv M v) eqn:Ecap.
  - rewrite EY, Qcmult_1_r. assert (K * δ <= K * (1 - z)); [|].
    + rewrite !(Qcmult_comm K). apply Qcmult_le_compat_r; [qclra|done].
    + assert (K * z <= K * δ) by (rewrite !(Qcmult_comm K); by apply Qcmult_le_compat_r). qclra.
  - apply qdiv_le_iff; [done|]. rewrite Qcmult_1_r. unfold capped in Ecap. apply Qc_ltb_false, qdiv_le_iff in Ecap; [|done].
    (* slack *)
    assert (qsum (map (λ u, (K - Y u) * w u v) (up v)) = K * qmix (λ _, 1) v - qmix Y v) as Hslack.
    { unfold GaussSeidel.qmix. rewrite <-qsum_scale.
      assert (∀ f g : Z → Qc, qsum (map f (up v)) - qsum (map g (up v)) = qsum (map (λ u, f u - g u) (up v))) as Hs.
      { intros f g. clear. induction (up v) as [|x l IH]; qsum_simpl; [ring|]. rewrite <-IH. ring. }
      rewrite Hs. apply qsum_ext. intros; ring. }
    assert (∀ u, u ∈ up v → 0 <= (K - Y u) * w u v) as Hterm.
    { intros u Hu. apply qmul_nonneg; [pose proof (HYup u v Hv Hu); qclra|by apply (g_w _ _ _ _ _ _ G)]. }
    pose proof (qsum_map_nonneg _ _ Hterm) as Hs0. rewrite Hslack in Hs0.
    pose proof (g_T _ _ _ _ _ _ G v) as HTv. pose proof (g_b _ _ _ _ _ _ G v) as Hbv.
    assert (0 <= K * (T v - qmix (λ _, 1) v)) as Hl0 by (apply qmul_nonneg; [done|qclra]).
    assert (T v * (M + K * z) <= K * (T v - qmix (λ _, 1) v) + (K * qmix (λ _, 1) v - qmix Y v)) as Hmain.
    2:{ rewrite EY. qcnra. }
    assert (0 <= K * z) by (apply qmul_nonneg; [done|by apply Qclt_le_weak]).
    assert (T v * (M + K * z) <= T v * (2 * (K * z))) as H1.
    { rewrite !(Qcmult_comm (T v)). apply Qcmult_le_compat_r; [qclra|by apply Qclt_le_weak]. }
    eapply Qcle_trans; [exact H1|].
    destruct HPv as [(u & HuC & Hu & Hdu & Hw)|[Hw|(u & Hu & HuC & Hw)]].
    + assert ((K - Y u) * w u v <= K * qmix (λ _, 1) v - qmix Y v) as H2.
      { rewrite <-Hslack. by apply (qsum_elem_le (λ u, (K - Y u) * w u v)). }
      assert (K - Y u = K * qpow δ (S (d u))) as E1 by (unfold Y; rewrite decide_True by done; ring).
      rewrite E1 in H2.
      pose proof (qpow_anti δ (S (d u)) (d v) Hδ Hδ1 Hdu) as Ha. set (z1 := qpow δ (S (d u))) in *. clearbody z1.
      assert (z = δ * qpow δ (d v)) as Ez by done. set (z2 := qpow δ (d v)) in *. assert (0 < z2) as Hz2 by (by apply qpow_range). clearbody z2.
      rewrite Epδ in Hw.
      assert (K * z1 * (4 * δ * T v) <= K * z1 * w u v) as H3.
      { rewrite !(Qcmult_comm (K * z1)). apply Qcmult_le_compat_r; [done|]. apply qmul_nonneg; [done|qclra]. }
      assert (K * z2 * (4 * δ * T v) <= K * z1 * (4 * δ * T v)) as H4.
      { apply Qcmult_le_compat_r; [|repeat apply qmul_nonneg; try done; by apply Qclt_le_weak]. rewrite !(Qcmult_comm K). by apply Qcmult_le_compat_r. }
      assert (T v * (2 * (K * z)) <= K * z2 * (4 * δ * T v)) as H5.
      { assert (K * z2 * (4 * δ * T v) = 2 * (T v * (2 * (K * z)))) as -> by (rewrite Ez; ring).
        assert (0 <= T v * (2 * (K * z))) by (apply qmul_nonneg; [by apply Qclt_le_weak|qclra]). qclra. }
      qclra.
    + rewrite Epδ in Hw.
      assert (K * (4 * δ * T v) <= K * (T v - qmix (λ _, 1) v)) as H3.
      { rewrite !(Qcmult_comm K). by apply Qcmult_le_compat_r. }
      assert (T v * (2 * (K * z)) <= K * (4 * δ * T v)) as H5.
      { assert (K * (4 * δ * T v) = T v * (2 * (2 * (K * δ)))) as -> by ring. rewrite !(Qcmult_comm (T v)).
        apply Qcmult_le_compat_r; [|by apply Qclt_le_weak].
        assert (K * z <= K * δ) by (rewrite !(Qcmult_comm K); by apply Qcmult_le_compat_r).
        assert (0 <= K * δ) by (apply qmul_nonneg; [done|by apply Qclt_le_weak]). qclra. }
      qclra.
    + assert ((K - Y u) * w u v <= K * qmix (λ _, 1) v - qmix Y v) as H2.
      { rewrite <-Hslack. by apply (qsum_elem_le (λ u, (K - Y u) * w u v)). }
      assert (E <= K - Y u) as E1 by (unfold Y; rewrite decide_False by done; pose proof (HE u v Hv Hu); qclra).
      assert (K <= 2 * (K - Y u)) as E2 by (unfold Y; rewrite decide_False by done; pose proof (HE u v Hv Hu); qclra).
      rewrite Epδ in Hw. set (x := K - Y u) in *. clearbody x.
      assert (x * (4 * δ * T v) <= x * w u v) as H3.
      { rewrite !(Qcmult_comm x). apply Qcmult_le_compat_r; [done|qclra]. }
      assert (T v * (2 * (K * z)) <= x * (4 * δ * T v)) as H5.
      { assert (x * (4 * δ * T v) = T v * (2 * (2 * x * δ))) as -> by ring. rewrite !(Qcmult_comm (T v)).
        apply Qcmult_le_compat_r; [|by apply Qclt_le_weak].
        assert (K * z <= K * δ) by (rewrite !(Qcmult_comm K); by apply Qcmult_le_compat_r).
        assert (K * δ <= 2 * x * δ) by (apply Qcmult_le_compat_r; [done|by apply Qclt_le_weak]). qclra. }
      qclra.
Qed.
End super.

(** ** Strongly connected components *)
Section strong.
Context (up : Z → list Z) (C : list Z).
Definition inside (a b : Z) : Prop := a ∈ up b ∧ a ∈ C ∧ b ∈ C.

Lemma crossing (S : list Z) a b : rtc inside a b → a ∈ S → b ∉ S → ∃ x y, inside x y ∧ x ∈ S ∧ y ∉ S.
Proof.
  induction 1 as [a|a x b H _ IH]; intros Ha Hb; [done|]. destruct (decide (x ∈ S)) as [Hx|Hx]; [by apply IH|eauto].
Qed.

Lemma rank r : r ∈ C → (∀ v, v ∈ C → rtc inside r v) →
  ∃ d : Z → nat, ∀ v, v ∈ C → v = r ∨ ∃ u, u ∈ C ∧ u ∈ up v ∧ (d u < d v)%nat.
Proof.
  intros Hr Hconn.
  assert (∀ m (S : list Z) (d : Z → nat), (length (filter (λ v, v ∉ S) C) ≤ m)%nat → r ∈ S → (∀ v, v ∈ S → v ∈ C) →
    (∀ v, v ∈ S → v = r ∨ ∃ u, u ∈ S ∧ u ∈ up v ∧ (d u < d v)%nat) →
    ∃ d : Z → nat, ∀ v, v ∈ C → v = r ∨ ∃ u, u ∈ C ∧ u ∈ up v ∧ (d u < d v)%nat) as H.
  - induction m as [|m IH]; intros S d Hm HrS HSC Hd.
    + exists d. intros v Hv. destruct (decide (v ∈ S)) as [Hin|Hout].
      * destruct (Hd v Hin) as [|(u & ? & ? & ?)]; [by left|right]. exists u. auto.
      * exfalso. assert (v ∈ filter (λ v, v ∉ S) C) as Hf by by apply elem_of_list_filter.
        destruct (filter (λ v, v ∉ S) C); [by apply elem_of_nil in Hf|cbn in Hm; lia].
    + destruct (decide (Forall (λ v, v ∈ S) C)) as [Hall|Hnot].
      * exists d. intros v Hv. destruct (Hd v) as [|(u & ? & ? & ?)]; [by apply (proj1 (Forall_forall _ _) Hall)|by left|right]. exists u. auto.
      * apply not_Forall_Exists in Hnot; [|intros; apply _]. apply Exists_exists in Hnot as (v & Hv & Hout).
        destruct (crossing S r v (Hconn v Hv) HrS Hout) as (x & y & (Hxy & Hx & Hy) & HxS & HyS).
        apply (IH (y :: S) (fupd d y (1 + d x)%nat)).
        -- assert (length (filter (λ v, v ∉ y :: S) C) < length (filter (λ v, v ∉ S) C))%nat; [|lia].
           clear - Hy HyS. revert Hy. assert (∀ l, (length (filter (λ v, v ∉ y :: S) l) ≤ length (filter (λ v, v ∉ S) l))%nat ∧
             (y ∈ l → length (filter (λ v, v ∉ y :: S) l) < length (filter (λ v, v ∉ S) l))%nat) as H; [|apply H].
           induction l as [|z l [I1 I2]]; [split; [done|by intros ?%elem_of_nil]|]. rewrite !filter_cons.
           destruct (decide (z ∉ y :: S)) as [H1|H1], (decide (z ∉ S)) as [H2|H2]; cbn [length].
           ++ split; [lia|]. intros [->|Hl]%elem_of_cons; [by destruct H1; left|]. specialize (I2 Hl). lia.
           ++ exfalso. apply H2. intros Hz. apply H1. by right.
           ++ split; [lia|]. intros _. lia.
           ++ split; [lia|]. intros [->|Hl]%elem_of_cons; [done|]. specialize (I2 Hl). lia.
        -- by right.
        -- intros z [->|Hz]%elem_of_cons; [done|by apply HSC].
        -- intros z [->|Hz]%elem_of_cons.
           ++ right. exists x. split_and!; [by right|done|]. rewrite fupd_eq, fupd_ne; [lia|]. intros ->. done.
           ++ destruct (Hd z Hz) as [|(u & Hu & Hup & Hlt)]; [by left|right]. exists u. split_and!; [by right|done|].
              rewrite !fupd_ne; [done| |]; intros ->; done.
  - apply (H _ [r] (λ _, 0%nat) (le_n _)).
    + left.
    + by intros v ->%elem_of_list_singleton.
    + intros v ->%elem_of_list_singleton. by left.
Qed.
End strong.

Section final.
Context (up : Z → list Z) (w : Z → Z → Qc) (T pv b : Z → Qc) (M : Qc) (G : qgood up w T pv b M).
Context (Hpos : ∀ u v, u ∈ up v → 0 < w u v).
Context (C : list Z) (Hnd : NoDup C) (Hconn : ∀ u v, u ∈ C → v ∈ C → rtc (inside up C) u v).
Context (τt τc : Qc) (Hτt : 0 < τt) (Hτc : 0 < τc).
Notation qsub := (qsub up w T pv b M C).
Notation qsweep := (qsweep up w T pv b M C).
Notation quiet := (quiet up w T pv b M C τt τc).
Notation qmix := (qmix up w).

(** A state in which the component has not been visited. *)
Definition fresh (q : qstate) : Prop :=
  unit_c q.2 ∧ (∀ u, 0 <= q.1 u) ∧ (∀ v, v ∈ C → q.1 v = 0 ∧ q.2 v = 0).

Lemma fresh_sub q : fresh q → qsub q.
Proof.
  intros (Hc & Ht & Hz). split; [done|done| |].
  - intros v Hv. destruct (Hz v Hv) as [_ ->]. by apply (qcell_unit _ _ _ _ _ _ G).
  - intros v Hv. unfold yf at 1. destruct (Hz v Hv) as [-> ->]. rewrite Qcmult_0_l. unfold yF.
    destruct (capped _ _ _ _); [rewrite Qcmult_0_r; apply Qcle_refl|]. rewrite Qcmult_0_r, Qcplus_0_l.
    apply qdiv_nonneg; [|by apply (T_nonneg _ _ _ _ _ _ G)]. apply (qmix_nonneg _ _ _ _ _ _ G). intros u _. apply qmul_nonneg; [done|apply Hc].
Qed.

Lemma gs_quiet q : fresh q → ∃ k, quiet (Nat.iter k qsweep q).
Proof.
  intros Hf. pose proof (fresh_sub q Hf) as Hs. destruct Hf as (Hc & Ht & Hz).
  destruct (decide (Exists (λ v, qmix (λ _, 1) v < T v ∨ Exists (λ u, u ∉ C) (up v)) C)) as [Hleak|Hclosed].
  - apply Exists_exists in Hleak as (r & Hr & Hl). destruct (rank up C r Hr (λ v Hv, Hconn r v Hr Hv)) as (d & Hd).
    destruct (super up w T pv b M G Hpos C (yf q) d) as (Y & K & HK & HY0 & HYC & HYs).
    { intros u. apply qmul_nonneg; [done|apply Hc]. }
    { intros v Hv. destruct (Hd v Hv) as [->|?]; [|by left]. right. destruct Hl as [|Hl]; [by left|right].
      apply Exists_exists in Hl as (u & ? & ?). eauto. }
    apply (terminates up w T pv b M G C (λ q, qsub q ∧ ∀ u, yf q u <= Y u) K HK); try done.
    + by intros ? [? ?].
    + intros q' v [_ H] Hv. eapply Qcle_trans; [apply H|]. by apply HYC.
    + intros q' v [H1 H2] Hv. destruct (qsub_upd up w T pv b M G C q' v Hv H1) as [H3 H4]. split; [done|].
      intros u. destruct (decide (u = v)) as [->|Hne].
      * rewrite (y_upd up w T pv b M G) by apply H1. eapply Qcle_trans; [|by apply HYs].
        apply (yF_mono up w T pv b M G); [intros; apply H2|]. apply (qcell_unit up w T pv b M G). apply H1.
      * assert (yf (qupd up w T pv b M q' v) u = yf q' u) as -> by (unfold yf; cbn; by rewrite !fupd_ne). apply H2.
    + split; [done|]. intros u. destruct (decide (u ∈ C)) as [Hu|Hu]; [|rewrite HY0 by done; apply Qcle_refl].
      unfold yf. destruct (Hz u Hu) as [-> ->]. rewrite Qcmult_0_l. by apply HYC.
  - rewrite <-Forall_Exists_neg, Forall_forall in Hclosed.
    assert (∀ v, v ∈ C → b v = 0 ∧ ∀ u, u ∈ up v → u ∈ C) as Hcl.
    { intros v Hv. specialize (Hclosed v Hv). split.
      - pose proof (g_b _ _ _ _ _ _ G v). pose proof (g_T _ _ _ _ _ _ G v). apply Qcle_antisym; [|done].
        destruct (Qclt_le_dec (qmix (λ _, 1) v) (T v)); [by destruct Hclosed; left|qclra].
      - intros u Hu. destruct (decide (u ∈ C)) as [|Hout]; [done|]. destruct Hclosed. right. apply Exists_exists. eauto. }
    apply (terminates up w T pv b M G C (λ q, qsub q ∧ ∀ v, v ∈ C → q.2 v = 0) 0); try done.
    + by intros ? [? ?].
    + intros q' v [_ H] Hv. unfold yf. rewrite H, Qcmult_0_r by done. apply Qcle_refl.
    + intros q' v [H1 H2] Hv. destruct (qsub_upd up w T pv b M G C q' v Hv H1) as [H3 H4]. split; [done|].
      intros u Hu. destruct (decide (u = v)) as [->|Hne]; [|cbn; rewrite fupd_ne by done; by apply H2].
      cbn. rewrite fupd_eq. destruct (Hcl v Hv) as [Hb Hup]. unfold qcell. rewrite Hb.
      assert (qmix q'.2 v = 0) as ->; [|unfold Qcdiv; ring].
      unfold GaussSeidel.qmix. transitivity (qsum (map (λ _ : Z, 0) (up v))).
      * apply qsum_ext. intros x Hx. rewrite H2 by (by apply Hup). ring.
      * rewrite qsum_const. ring.
    + split; [done|]. intros v Hv. by apply Hz.
Qed.

(** What a quiet sweep says about the values it produces. *)
Lemma quiet_residual q v : qsub q → quiet q → v ∈ C →
  let c := (qsweep q).2 in
  0 <= qmix c v + b v - T v * c v ∧ qmix c v + b v - T v * c v <= τc * qmix (λ _, 1) v ∧
  (0 < qmix c v + b v → 0 < c v).
Proof.
  intros Hs Hq Hv c. pose proof (foldl_inv up w T pv b M G C qsub (λ q H, H) (λ q v H1 H2, proj1 (qsub_upd up w T pv b M G C q v H2 H1))) as Hfold.
  destruct (sweep_at up w T pv b M C Hnd q v Hv) as (l1 & l2 & EC & _ & _ & E1 & _). fold c in E1.
  set (q1 := foldl (qupd up w T pv b M) q l1) in *.
  destruct (Hfold l1 q) as [Hs1 Hg1]; [intros x Hx; rewrite EC; apply elem_of_app; by left|done|]. fold q1 in Hs1, Hg1.
  assert (grows q1 (qsweep q)) as Hg2.
  { unfold GaussSeidel.qsweep. rewrite EC, foldl_app. fold q1. apply Hfold; [|done]. intros x Hx. rewrite EC. apply elem_of_app. by right. }
  assert (∀ u, u ∉ C → q1.2 u = c u) as Hoff.
  { intros u Hu. unfold c, GaussSeidel.qsweep. rewrite EC, foldl_app. fold q1. symmetry. apply foldl_off.
    intros Hin. apply Hu. rewrite EC. apply elem_of_app. by right. }
  pose proof (T_nonneg up w T pv b M G v) as HT.
  pose proof (g_b _ _ _ _ _ _ G v) as Hb.
  assert (T v * c v = qmix q1.2 v + b v) as ET.
  { rewrite E1. unfold qcell. destruct (qle_eq_or_lt _ HT) as [E0|Hp].
    - rewrite E0, Qcmult_0_l. pose proof (g_T _ _ _ _ _ _ G v) as H1. rewrite E0 in H1.
      assert (0 <= qmix q1.2 v) by (apply (qmix_nonneg _ _ _ _ _ _ G); intros; apply Hs1).
      assert (qmix q1.2 v <= qmix (λ _, 1) v) by (apply (qmix_le _ _ _ _ _ _ G); intros; apply Hs1).
      apply Qcle_antisym; qclra.
    - field. intros E0. by rewrite E0 in Hp. }
  assert (qmix q1.2 v <= qmix c v) as Hle by (apply (qmix_le _ _ _ _ _ _ G); intros; apply Hg2).
  assert (qmix c v <= qmix (λ u, q1.2 u + τc * 1) v) as Hle2.
  { apply (qmix_le _ _ _ _ _ _ G). intros u Hu. destruct (decide (u ∈ C)) as [HuC|HuC].
    - destruct (Hq u HuC) as (_ & H2 & _). apply qabs_le in H2 as [H2 _]. destruct (Hg1 u) as [H3 _]. unfold c. qclra.
    - rewrite Hoff by done. qclra. }
  rewrite (qmix_plus up w (q1.2) (λ _, τc * 1)), (qmix_scale up w τc (λ _, 1)) in Hle2.
  split_and!; [qclra|qclra|]. intros Hp.
  assert (0 < qmix q1.2 v + b v) as Hp1.
  { destruct (qle_eq_or_lt _ Hb) as [E0|]; [|assert (0 <= qmix q1.2 v) by (apply (qmix_nonneg _ _ _ _ _ _ G); intros; apply Hs1); qclra].
    rewrite E0, Qcplus_0_r in *. 
    destruct (qle_eq_or_lt (qmix q1.2 v)) as [Ez|]; [apply (qmix_nonneg _ _ _ _ _ _ G); intros; apply Hs1| |done].
    exfalso. assert (qmix c v = 0) as Ez2; [|by rewrite Ez2 in Hp].
    unfold GaussSeidel.qmix. transitivity (qsum (map (λ _ : Z, 0) (up v))); [|rewrite qsum_const; ring].
    apply qsum_ext. intros u Hu. assert (q1.2 u * w u v = 0) as Euw.
    { apply (qsum_zero (λ u, q1.2 u * w u v) (up v)); [|done|done]. intros x Hx. apply qmul_nonneg; [apply Hs1|by apply (g_w _ _ _ _ _ _ G)]. }
    apply Qcmult_integral in Euw as [Eu|Ew]; [|pose proof (Hpos u v Hu) as Hw; by rewrite Ew in Hw].
    assert (c u = 0) as ->; [|ring]. destruct (decide (u ∈ C)) as [HuC|HuC]; [|by rewrite <-Hoff].
    apply (proj2 (proj2 (Hq u HuC))). destruct (Hg1 u) as [H3 _]. rewrite Eu in H3. apply Qcle_antisym; [done|]. apply Hs. }
  rewrite <-ET in Hp1. assert (0 <= c v) as Hc0 by (rewrite E1; by apply (qcell_unit _ _ _ _ _ _ G), Hs1).
  destruct (qle_eq_or_lt _ Hc0) as [E0|]; [|done]. by rewrite E0, Qcmult_0_r in Hp1.
Qed.

(** The same for the times-of-flight. *)
Lemma quiet_time q v : qsub q → quiet q → v ∈ C →
  let t := (qsweep q).1 in let c := (qsweep q).2 in 0 < c v →
  if capped T pv M v then t v = M else
  0 <= pv v * c v + qmix (yf (qsweep q)) v - T v * c v * t v ∧
  pv v * c v + qmix (yf (qsweep q)) v - T v * c v * t v <= τt * qmix (λ _, 1) v + τc * qmix t v.
Proof.
  intros Hs Hq Hv t c Hcv. pose proof (foldl_inv up w T pv b M G C qsub (λ q H, H) (λ q v H1 H2, proj1 (qsub_upd up w T pv b M G C q v H2 H1))) as Hfold.
  destruct (sweep_at up w T pv b M C Hnd q v Hv) as (l1 & l2 & EC & _ & _ & E1 & E2). fold c in E1. fold t in E2.
  set (q1 := foldl (qupd up w T pv b M) q l1) in *.
  destruct (Hfold l1 q) as [Hs1 Hg1]; [intros x Hx; rewrite EC; apply elem_of_app; by left|done|]. fold q1 in Hs1, Hg1.
  assert (qsweep q = foldl (qupd up w T pv b M) q1 (v :: l2)) as Eq.
  { unfold GaussSeidel.qsweep. rewrite EC, foldl_app. done. }
  assert (qsub (qsweep q) ∧ grows q1 (qsweep q)) as [Hs2 Hg2].
  { rewrite Eq. apply Hfold; [|done]. intros x Hx. rewrite EC. apply elem_of_app. by right. }
  assert (∀ u, u ∉ C → yf q1 u = yf (qsweep q) u) as Hoff.
  { intros u Hu. rewrite Eq. unfold yf.
    destruct (foldl_off up w T pv b M (v :: l2) q1 u) as [-> ->]; [|done]. intros Hin. apply Hu. rewrite EC. apply elem_of_app. by right. }
  rewrite <-E1 in E2. unfold qtime in E2. destruct (capped T pv M v); [done|].
  rewrite (proj2 (Qc_ltb_true _ _) Hcv) in E2. change (λ u, q1.1 u * q1.2 u) with (yf q1) in E2.
  assert (T v ≠ 0) as HT0. { intros E0. rewrite E1 in Hcv. unfold qcell in Hcv. rewrite E0, qdiv_0 in Hcv. done. }
  assert (c v ≠ 0) as Hc0 by (intros E0; by rewrite E0 in Hcv).
  assert (T v * c v * t v = pv v * c v + qmix (yf q1) v) as ->.
  { rewrite E2. by field. }
  assert (qmix (yf q1) v <= qmix (yf (qsweep q)) v) as Hle by (apply (qmix_le _ _ _ _ _ _ G); intros; apply Hg2).
  assert (qmix (yf (qsweep q)) v <= qmix (λ u, yf q1 u + (τt * 1 + τc * t u)) v) as Hle2.
  { apply (qmix_le _ _ _ _ _ _ G). intros u Hu. pose proof (i_t _ _ _ _ _ _ _ _ Hs2 u) as Ht0. fold t in Ht0.
    destruct (decide (u ∈ C)) as [HuC|HuC].
    - destruct (Hq u HuC) as (H1 & H2 & _). apply qabs_le in H1 as [H1 _]. apply qabs_le in H2 as [H2 _]. fold t in H1. fold c in H2.
      destruct (Hg1 u) as [_ H3]. pose proof (i_c _ _ _ _ _ _ _ _ Hs u) as [H4 H5].
      assert (yf (qsweep q) u - yf q u <= τt * 1 + τc * t u); [|qclra]. unfold yf. fold t c.
      replace (t u * c u - q.1 u * q.2 u) with (q.2 u * (t u - q.1 u) + t u * (c u - q.2 u)) by ring.
      assert (q.2 u * (t u - q.1 u) <= τt) by (pose proof Hτt; destruct (Qclt_le_dec 0 (t u - q.1 u)); qcnra).
      assert (t u * (c u - q.2 u) <= τc * t u) by (rewrite (Qcmult_comm τc), !(Qcmult_comm (t u)); apply Qcmult_le_compat_r; done). qclra.
    - rewrite Hoff by done. assert (0 <= τc * t u) by (apply qmul_nonneg; [by apply Qclt_le_weak|done]). pose proof Hτt. qclra. }
  rewrite (qmix_plus up w (yf q1) (λ u, τt * 1 + τc * t u)), (qmix_plus up w (λ _, τt * 1) (λ u, τc * t u)),
    (qmix_scale up w τt (λ _, 1)), (qmix_scale up w τc t) in Hle2.
  split; qclra.
Qed.
End final.
