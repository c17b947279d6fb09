(** A recirculating zone of two cells on which the Gauss-Seidel loop takes as many
    sweeps as wanted. *)
From Coq Require Import QArith Qcanon String.
From Verif.Model Require Import Base Num OMap Containers Solution AssembledConnections Tarjan TracerTofSolver Toolbox.
From Verif.Spec Require Import GraphSpec FlowSpec DerivedSpec ToolboxSpec.
From Verif.Proofs Require Import Util ExactNum QcLra OrdLaws DerivedExact DerivedMisc SolverBase SolverRun SolverTop SolverGen GaussSeidel ExactRun
  ToolboxRates ToolboxFlow ToolboxExact.
Open Scope Z_scope.

(** ** Loops that go on *)
Section long.
Context (n : Z) (A : list (@arc exact)) (pv : list (@num exact)) (src : @cellset_values exact) (inj : Z → option (@num exact)).
Context (FD : finite_data n A pv src inj).
Notation up := (up n A).
Notation wq := (wq A).
Notation Tq := (Tq n A src inj).
Notation pq := (pq pv).
Notation bq := (bq inj).
Notation qsweep := (qsweep up wq Tq pq bq gs_M).
Notation quiet C := (quiet up wq Tq pq bq gs_M C gs_τt gs_τc).

Lemma loop_long C k fuel st q dt dc : NoDup C → rep st q → nonneg q → (∀ i, (i < k)%nat → ¬ quiet C (Nat.iter i (qsweep C) q)) → (fuel ≤ k)%nat →
  nltb gs_tof_tol dt || nltb gs_tracer_tol dc = true → run_loop n A pv src inj fuel C st dt dc = NoFuel.
Proof.
  intros Hnd. destruct gs_consts as (Et & Ec & _ & Pt & Pc & _).
  revert k st q dt dc. induction fuel as [|fuel IH]; intros k st q dt dc Hr Hq Hk Hf Hgo; cbn [run_loop]; rewrite Hgo; [done|].
  unfold run_sweep. destruct (sweep_rep n A pv src inj FD C st q 0%Qc 0%Qc Hnd Hr Hq) as (st1 & dt1 & dc1 & E & Hr1 & Hdt & Hdc).
  assert (foldM (run_gs_cell n A pv src inj) (st, n0, n0) C = Ok (st1, Fin dt1 : @num exact, Fin dc1 : @num exact)) as -> by (rewrite exact_n0; exact E).
  cbn [mbind res_bind fst snd]. destruct k as [|k]; [lia|].
  apply (IH k _ (qsweep C q)); [done|by apply nonneg_foldl| |lia|].
  - intros i Hi. specialize (Hk (S i)). rewrite Nat.iter_succ_r in Hk. apply Hk. lia.
  - apply not_false_iff_true. rewrite Et, Ec. cbn [num nltb exact]. rewrite orb_false_iff, !xltb_Fin_false.
    intros [H1 H2]. apply (Hk 0%nat); [lia|]. apply quiet_iff. cbn [Nat.iter].
    rewrite Hdt in H1. rewrite Hdc in H2. by destruct H1, H2.
Qed.
End long.

(** ** Powers of a number just below one *)
Section powers.
Local Open Scope Qc_scope.
Context (δ : Qc) (Hδ : 0 < δ) (Hδ1 : δ < 1).
Let r := 1 - δ.
Lemma pow_pos k : 0 < r ^ k ∧ r ^ k <= 1.
Proof.
  induction k as [|k IH]; cbn [Qcpower]; [by split|]. destruct IH as [H1 H2]. subst r. split.
  - generalize dependent ((1 - δ) ^ k). intros x H1 H2. qcnra.
  - generalize dependent ((1 - δ) ^ k). intros x H1 H2. qcnra.
Qed.
Lemma pow_step k : r ^ S k = r ^ k - δ * r ^ k.
Proof. cbn [Qcpower]. subst r. ring. Qed.
(** 1 - k δ ≤ r^k and k δ r^k ≤ 1 - r^k. *)
Lemma pow_low k : 1 - qn k * δ <= r ^ k.
Proof.
  induction k as [|k IH]; [rewrite qn_0; cbn; qclra|]. rewrite pow_step, qn_S. destruct (pow_pos k) as [H1 H2].
  revert H1 H2 IH. generalize (r ^ k) (qn k). intros x y H1 H2 IH. qcnra.
Qed.
Lemma pow_gap k : qn k * δ * r ^ k <= 1 - r ^ k.
Proof.
  induction k as [|k IH]; [rewrite qn_0; cbn; qclra|]. rewrite pow_step, qn_S. destruct (pow_pos k) as [H1 H2]. pose proof (qn_nonneg k) as H3.
  revert H1 H2 H3 IH. generalize (r ^ k) (qn k). intros x y H1 H2 H3 IH.
  assert (0 <= δ * δ * x) by qcnra. assert (0 <= y * (δ * δ * x)) by qcnra. qcnra.
Qed.
Lemma pow_second k : δ * δ * r ^ k * (qn k * (qn k + 1)) <= (1 + 1) * (qn k * δ - r * (1 - r ^ k)).
Proof.
  induction k as [|k IH]; [rewrite qn_0; cbn [Qcpower]; qclra|].
  pose proof (pow_gap (S k)) as Hg. destruct (pow_pos k) as [H1 H2]. pose proof (qn_nonneg k) as H3. rewrite pow_step, qn_S in *.
  assert ((1 + 1) * ((1 + qn k) * δ - r * (1 - (r ^ k - δ * r ^ k))) = (1 + 1) * (qn k * δ - r * (1 - r ^ k)) + (1 + 1) * (δ * (1 - (r ^ k - δ * r ^ k)))) as -> by (subst r; ring).
  revert H1 H2 H3 IH Hg. generalize (r ^ k) (qn k) (qn k * δ - r * (1 - r ^ k)). clear r. intros x y z H1 H2 H3 IH Hg.
  assert (δ * ((1 + y) * δ * (x - δ * x)) <= δ * (1 - (x - δ * x))) by (revert Hg; generalize ((1 + y) * δ * (x - δ * x)) (1 - (x - δ * x)); intros; qcnra).
  assert (δ * δ * (x - δ * x) * (y * (y + 1)) <= δ * δ * x * (y * (y + 1))).
  { assert (0 <= δ * δ * (δ * x) * (y * (y + 1))); [|qclra]. repeat (apply qmul_nonneg); try (by apply Qclt_le_weak); try done; qclra. }
  qclra.
Qed.
End powers.

Lemma growth (x y d : Qc) : (0 <= y → 0 < d → (1 + 1) * (1 + y) * d <= 1 → 0 < x → 0 < 1 - x → 1 - y * d <= x →
  1 - (1 + y) * d <= x - d * x → d * d * x * (y * (y + 1)) <= (1 + 1) * (y * d - (1 - d) * (1 - x)) →
  1 <= (1 + 1 + 1 + 1) * (((1 + 1) * (1 / d * (1 - (x - d * x)) - (1 + y) * (x - d * x)) - (1 - (x - d * x))) / (1 - (x - d * x)) -
    ((1 + 1) * (1 / d * (1 - x) - y * x) - (1 - x)) / (1 - x)))%Qc.
Proof.
  intros Hy Hd Hyd Hx H1 Hlow Hlow' H2. assert (d ≠ 0)%Qc as Nd by (intros E; by rewrite E in Hd).
  assert (0 < 1 - (x - d * x))%Qc as H1' by qcnra.
  assert (1 - x ≠ 0)%Qc as N1 by (intros E0; by rewrite E0 in H1). assert (1 - (x - d * x) ≠ 0)%Qc as N2 by (intros E0; by rewrite E0 in H1').
  match goal with |- (1 <= _ * ?z)%Qc => assert (z = (1 + 1) * (x * (y * d - (1 - d) * (1 - x))) / ((1 - x) * (1 - (x - d * x))))%Qc as -> by (field; by split_and!) end.
  set (D := ((1 - x) * (1 - (x - d * x)))%Qc). assert (0 < D)%Qc as HD by (unfold D; revert H1 H1'; generalize (1 - x)%Qc (1 - (x - d * x))%Qc; intros; qcnra).
  assert (D ≠ 0)%Qc as ND by (intros E; by rewrite E in HD).
  assert (1 <= (1 + 1) * x)%Qc as Hhalf by qcnra.
  assert (D <= (y * d) * ((1 + y) * d))%Qc as HDle.
  { unfold D. transitivity (y * d * (1 - (x - d * x)))%Qc.
    - apply Qcmult_le_compat_r; [qclra|by apply Qclt_le_weak].
    - rewrite (Qcmult_comm (y * d) (1 - _)), (Qcmult_comm (y * d) ((1 + y) * d)). apply Qcmult_le_compat_r; [qclra|qcnra]. }
  set (G := (y * d - (1 - d) * (1 - x))%Qc) in *. set (e := (y * d * ((1 + y) * d))%Qc) in *. assert (0 <= e)%Qc as He by (unfold e; repeat apply qmul_nonneg; try qclra).
  assert (x * e <= (1 + 1) * G)%Qc as H3. { unfold e. clearbody G. qclra. }
  assert (D <= (1 + 1 + 1 + 1) * ((1 + 1) * (x * G)))%Qc as Hfin.
  { assert (x * (x * e) <= x * ((1 + 1) * G))%Qc by (clearbody G e; qcnra).
    assert (e <= (1 + 1 + 1 + 1) * (x * (x * e)))%Qc; [|clearbody G e D; qclra].
    assert (e <= (1 + 1) * x * e)%Qc by (clearbody e; qcnra). assert (((1 + 1) * x) * e <= ((1 + 1) * x) * ((1 + 1) * x * e))%Qc by (clearbody e; qcnra). clearbody e. qclra. }
  apply Qcle_trans with (D / D)%Qc; [assert (D / D = 1)%Qc as -> by (by field); apply Qcle_refl|].
  apply Qcle_trans with (((1 + 1 + 1 + 1) * ((1 + 1) * (x * G))) / D)%Qc; [apply qdiv_le; [done|by apply Qclt_le_weak]|].
  assert ((1 + 1 + 1 + 1) * ((1 + 1) * (x * G)) / D = (1 + 1 + 1 + 1) * ((1 + 1) * (x * G) / D))%Qc as -> by (by field). apply Qcle_refl.
Qed.

(** ** Two cells *)
Section pair.
Local Open Scope Qc_scope.
Context (up : Z → list Z) (w : Z → Z → Qc) (T pv b : Z → Qc) (M L : Qc).
(** Cell 0 is injected into at unit rate and passes on [L]; all but one comes back from cell 1. *)
Context (HL : 1 < L) (HM : 1 <= M) (Hup0 : up 0%Z = [1%Z]) (Hup1 : up 1%Z = [0%Z]) (Hw0 : w 1%Z 0%Z = L - 1) (Hw1 : w 0%Z 1%Z = L)
  (HT0 : T 0%Z = L) (HT1 : T 1%Z = L) (Hp0 : pv 0%Z = L) (Hp1 : pv 1%Z = L) (Hb0 : b 0%Z = 1) (Hb1 : b 1%Z = 0).
Notation qupd := (qupd up w T pv b M).
Notation qsweep := (qsweep up w T pv b M).
Let δ := 1 / L.
Let r := 1 - δ.
Definition Cc (k : nat) : Qc := 1 - r ^ k.
Definition S1 (k : nat) : Qc := (1 + 1) * (L * (1 - r ^ k) - qn k * r ^ k).
Definition S0 (k : nat) : Qc := S1 k - Cc k.

Lemma L_ne : L ≠ 0. Proof. intros E. rewrite E in HL. done. Qed.
Lemma δ_L : δ * L = 1. Proof. unfold δ. field. apply L_ne. Qed.
Lemma δ_pos : 0 < δ.
Proof. pose proof δ_L as H. destruct (Qclt_le_dec 0 δ) as [|Hn]; [done|]. exfalso. assert (δ * L <= 0) as H1 by (clear - HL Hn; qcnra). rewrite H in H1. done. Qed.
Lemma δ_lt1 : δ < 1.
Proof. pose proof δ_L as H. pose proof δ_pos. destruct (Qclt_le_dec δ 1) as [|Hn]; [done|]. exfalso. assert (1 < δ * L) as H1 by (clear - HL Hn; qcnra). rewrite H in H1. done. Qed.
Lemma Cc_S_pos k : 0 < Cc (S k).
Proof.
  unfold Cc. unfold r. rewrite pow_step. destruct (pow_pos δ δ_pos δ_lt1 k) as [H1 H2]. pose proof δ_pos as H3.
  revert H1 H2 H3. generalize ((1 - δ) ^ k) δ. intros x y H1 H2 H3. qcnra.
Qed.
Lemma Cc_0 : Cc 0 = 0. Proof. unfold Cc. cbn. ring. Qed.
Lemma S1_0 : S1 0 = 0. Proof. unfold S1. rewrite qn_0. cbn. ring. Qed.

Lemma not_capped v : T v = L → pv v = L → capped T pv M v = false.
Proof.
  intros E1 E2. unfold capped. rewrite E1, E2. apply Qc_ltb_false. apply qdiv_le_iff; [by eapply Qclt_le_trans; [|exact HM]|].
  clear - HL HM. qcnra.
Qed.

(** One cell with one inflow. *)
Lemma cell_step q v u : up v = [u] → T v = L → pv v = L →
  (qupd q v).2 v = (q.2 u * w u v + b v) / L ∧
  (0 < (qupd q v).2 v → (qupd q v).1 v = ((qupd q v).2 v + yf q u * w u v / L) / (qupd q v).2 v).
Proof.
  intros Hu ET Ep. cbn [GaussSeidel.qupd fst snd]. rewrite !fupd_eq.
  assert (qcell up w T b q.2 v = (q.2 u * w u v + b v) / L) as Ec.
  { unfold qcell, qmix. rewrite Hu, ET. qsum_simpl. by rewrite Qcplus_0_r. }
  rewrite Ec. split; [done|]. intros Hc. unfold qtime. rewrite not_capped by done. rewrite (proj2 (Qc_ltb_true _ _) Hc).
  unfold qmix. rewrite Hu, ET, Ep. qsum_simpl. change (qsum []) with 0. unfold yf. pose proof L_ne as HL0.
  assert ((q.2 u * w u v + b v) / L ≠ 0) as H0 by (intros E; by rewrite E in Hc).
  revert H0. generalize ((q.2 u * w u v + b v) / L). intros c H0. field. by split.
Qed.
Lemma yf_off q v u : u ≠ v → yf (qupd q v) u = yf q u ∧ (qupd q v).2 u = q.2 u ∧ (qupd q v).1 u = q.1 u.
Proof. intros H. unfold yf. cbn [GaussSeidel.qupd fst snd]. by rewrite !fupd_ne. Qed.

Lemma step_0 q j : q.2 1%Z = Cc j → yf q 1%Z = S1 j →
  (qupd q 0%Z).2 0%Z = Cc (S j) ∧ (qupd q 0%Z).1 0%Z = S0 (S j) / Cc (S j).
Proof.
  intros E1 E2. destruct (cell_step q 0 1 Hup0 HT0 Hp0) as [Ec Et]. rewrite E1, E2, Hw0, Hb0 in *. pose proof L_ne as HL0. pose proof δ_L as Hd.
  assert ((qupd q 0%Z).2 0%Z = Cc (S j)) as E.
  { rewrite Ec. unfold Cc, r. rewrite pow_step. generalize ((1 - δ) ^ j). intros x. unfold δ. by field. }
  split; [done|]. rewrite E in Et. rewrite Et by apply Cc_S_pos. f_equal.
  unfold S0, S1, Cc, r. rewrite qn_S, pow_step. generalize ((1 - δ) ^ j) (qn j). intros x y. unfold δ. by field.
Qed.
Lemma step_1 q k : q.2 0%Z = Cc k → (k ≠ O → yf q 0%Z = S0 k) →
  (qupd q 1%Z).2 1%Z = Cc k ∧ yf (qupd q 1%Z) 1%Z = S1 k.
Proof.
  intros E1 E2. destruct (cell_step q 1 0 Hup1 HT1 Hp1) as [Ec Et]. rewrite E1, Hw1, Hb1 in *. pose proof L_ne as HL0.
  assert ((qupd q 1%Z).2 1%Z = Cc k) as E by (rewrite Ec; by field).
  split; [done|]. unfold yf. rewrite E. destruct k as [|k]; [rewrite Cc_0, S1_0; ring|].
  rewrite E in Et. pose proof (Cc_S_pos k) as Hp. rewrite (Et Hp), (E2 ltac:(done)). unfold S0.
  assert (Cc (S k) ≠ 0) as H0 by (intros E0; by rewrite E0 in Hp). by field.
Qed.

Definition lag (C : list Z) (k : nat) : nat := match C with 0%Z :: _ => k | _ => pred k end.
Definition after (C : list Z) (k : nat) (q : qstate) : Prop :=
  q.2 0%Z = Cc k ∧ (k ≠ O → q.1 0%Z = S0 k / Cc k) ∧ q.2 1%Z = Cc (lag C k) ∧ yf q 1%Z = S1 (lag C k).
Lemma after_yf C k q : after C k q → k ≠ O → yf q 0%Z = S0 k.
Proof.
  intros (E1 & E2 & _) Hk. unfold yf. rewrite E1, E2 by done. destruct k as [|k]; [done|]. pose proof (Cc_S_pos k) as Hp.
  assert (Cc (S k) ≠ 0) as H0 by (intros E0; by rewrite E0 in Hp). by field.
Qed.
Lemma after_sweep C k q : C = [0%Z; 1%Z] ∨ C = [1%Z; 0%Z] → after C k q → after C (S k) (qsweep C q).
Proof.
  intros [-> | ->] H; pose proof (after_yf _ _ _ H) as Hy; destruct H as (E1 & E2 & E3 & E4); cbn [lag] in *;
    unfold GaussSeidel.qsweep; cbn [foldl].
  - destruct (step_0 q k E3 E4) as [F1 F2]. set (q1 := qupd q 0%Z) in *.
    assert (after [0%Z] (S k) q1 → yf q1 0%Z = S0 (S k)) as Hy1.
    { intros H. by apply (after_yf [0%Z] (S k)). }
    assert (yf q1 0%Z = S0 (S k)) as F3.
    { unfold yf. rewrite F1, F2. pose proof (Cc_S_pos k) as Hp. assert (Cc (S k) ≠ 0) as H0 by (intros E0; by rewrite E0 in Hp). by field. }
    destruct (step_1 q1 (S k) F1 (λ _, F3)) as [G1 G2].
    destruct (yf_off q1 1 0) as (H1 & H2 & H3); [done|]. unfold after. cbn [lag]. rewrite H2, H3. by split_and!.
  - destruct (step_1 q k E1 Hy) as [F1 F2]. set (q1 := qupd q 1%Z) in *.
    destruct (step_0 q1 k F1 F2) as [G1 G2]. destruct (yf_off q1 0 1) as (H1 & H2 & H3); [done|].
    unfold after. cbn [lag pred]. rewrite H1, H2. by split_and!.
Qed.
Lemma after_0 C q : (∀ u, q.1 u = 0 ∧ q.2 u = 0) → after C 0 q.
Proof.
  intros H. assert (lag C 0 = 0%nat) as El by (by destruct C as [|[| |]]). unfold after, yf. rewrite El, Cc_0, S1_0.
  destruct (H 0%Z) as [_ ->]. destruct (H 1%Z) as [-> ->]. split_and!; try done; ring.
Qed.
Lemma after_iter C k q : C = [0%Z; 1%Z] ∨ C = [1%Z; 0%Z] → (∀ u, q.1 u = 0 ∧ q.2 u = 0) → after C k (Nat.iter k (qsweep C) q).
Proof. intros HC Hq. induction k as [|k IH]; [by apply after_0|]. cbn [Nat.iter nat_rect]. by apply after_sweep. Qed.

(** The time-of-flight in cell 0 grows by a quarter at least. *)
Lemma grows k : k ≠ O → (1 + 1) * qn (S k) <= L → 1 <= (1 + 1 + 1 + 1) * (S0 (S k) / Cc (S k) - S0 k / Cc k).
Proof.
  intros Hk HkL. pose proof L_ne as HL0. pose proof δ_L as Hd. pose proof δ_pos as Hd0. pose proof δ_lt1 as Hd1.
  assert (0 < Cc k) as Hp by (destruct k; [done|apply Cc_S_pos]). pose proof (Cc_S_pos k) as Hp'.
  pose proof (pow_second δ Hd0 Hd1 k) as H2. pose proof (pow_low δ Hd0 Hd1 k) as H1. pose proof (pow_low δ Hd0 Hd1 (S k)) as H1'.
  destruct (pow_pos δ Hd0 Hd1 k) as [Hx0 Hx1].
  unfold S0, S1, Cc, r in *. rewrite pow_step, qn_S in *.
  assert (L = 1 / δ) as EL by (unfold δ; by field).
  pose proof (growth ((1 - δ) ^ k) (qn k) δ (qn_nonneg k) Hd0) as H. rewrite <-EL in H. apply H; try done.
  apply Qcle_trans with (L * δ); [apply Qcmult_le_compat_r; [done|by apply Qclt_le_weak]|]. rewrite Qcmult_comm, Hd. apply Qcle_refl.
Qed.

Lemma not_quiet C k n q : C = [0%Z; 1%Z] ∨ C = [1%Z; 0%Z] → (∀ u, q.1 u = 0 ∧ q.2 u = 0) → (1 + 1) * qn n <= L → (k < n)%nat →
  ¬ quiet up w T pv b M C gs_τt gs_τc (Nat.iter k (qsweep C) q).
Proof.
  intros HC Hq Hn Hk Hqu. pose proof (after_iter C k q HC Hq) as H. pose proof (after_sweep C k _ HC H) as H'.
  destruct (Hqu 0%Z) as (Ht & _ & Hz); [destruct HC as [-> | ->]; [left|right; left]|].
  destruct H as (E1 & E2 & _), H' as (E1' & E2' & _). destruct (decide (k = O)) as [->|Hk0].
  - pose proof (Cc_S_pos 0) as Hp. rewrite E1, E1' in Hz. rewrite (proj1 Hz Cc_0) in Hp. done.
  - rewrite E2, E2' in Ht by done. pose proof (grows k Hk0) as Hg.
    assert (∀ a c, (a <= c)%nat → qn a <= qn c) as Hmono.
    { intros a c Hac. unfold qn. unfold Qcle. rewrite !qc_this_Q2Qc. unfold Qle. cbn. lia. }
    specialize (Hmono (S k) n ltac:(lia)). specialize (Hg ltac:(clear - Hn Hmono; qclra)).
    revert Ht Hg. generalize (S0 (S k) / Cc (S k) - S0 k / Cc k). clear. intros x H1 H2.
    assert (x <= qabs x) as H3 by (unfold qabs; destruct (Qc_ltb x 0) eqn:E; [apply Qc_ltb_true in E; qclra|apply Qcle_refl]).
    assert ((1 + 1 + 1 + 1) * gs_τt < 1) as H4 by done. revert H3 H4 H1 H2. generalize gs_τt (qabs x). intros. qclra.
Qed.
End pair.
