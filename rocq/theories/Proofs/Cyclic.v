(** Networks with cycles, in exact arithmetic: the iteration stays below every
    solution of the equations, and what it leaves out is small. *)
From Coq Require Import String QArith Qcanon.
From Verif.Model Require Import Base Num OMap Containers Solution AssembledConnections Tarjan TracerTofSolver Toolbox DerivedQuantities.
From Verif.Spec Require Import GraphSpec FlowSpec DerivedSpec ToolboxSpec MirrorSpec CyclicSpec.
From Verif.Proofs Require Import Util OMapFacts AConn ExactNum QcLra OrdLaws DerivedExact SolverBase SolverRun SolverTop SolverGen GaussSeidel ExactRun ToolboxState ToolboxRates ToolboxFlow ToolboxVal ToolboxSane ToolboxThms ToolboxExact Duality Balance.
Open Scope Z_scope.

(** ** Upper bounds of the iteration *)
Section upper.
Context (up : Z → list Z) (w : Z → Z → Qc) (T pv b : Z → Qc) (M : Qc) (G : qgood up w T pv b M).
Context (S : Z → Prop).
Local Open Scope Qc_scope.
Notation qmix := (qmix up w).
Notation qcell := (qcell up w T b).
Notation yF := (yF up w T pv M).
Notation qupd := (qupd up w T pv b M).

(** Functions growing at least as fast as the iteration. *)
Record uppers (K : nat → qstate) : Prop := {
  up_zero : ∀ u, 0 <= (K O).2 u ∧ 0 <= (K O).1 u;
  up_grow : ∀ k u, (K k).2 u <= (K (Datatypes.S k)).2 u ∧ (K k).1 u <= (K (Datatypes.S k)).1 u;
  up_cell : ∀ k v, S v → qcell (K k).2 v <= (K (Datatypes.S k)).2 v;
  up_time : ∀ k v, S v → yF (K k).1 ((K (Datatypes.S k)).2 v) v <= (K (Datatypes.S k)).1 v
}.
Definition under (K : nat → qstate) (q : qstate) : Prop := ∃ k, ∀ u, q.2 u <= (K k).2 u ∧ yf q u <= (K k).1 u.

Lemma under_upd K q v : uppers K → S v → unit_c q.2 → (∀ u, 0 <= q.1 u) → under K q → under K (qupd q v).
Proof.
  intros HK Hv Hc Ht [k Hk]. exists (Datatypes.S k). intros u.
  assert (qcell q.2 v <= (K (Datatypes.S k)).2 v) as Hcell.
  { eapply Qcle_trans; [|by apply (up_cell _ HK)]. apply (qcell_mono _ _ _ pv _ M G). intros; apply Hk. }
  destruct (decide (u = v)) as [->|Hne].
  - split; [cbn; by rewrite fupd_eq|]. rewrite (y_upd _ _ _ _ _ _ G) by done.
    eapply Qcle_trans; [|by apply (up_time _ HK)]. apply (yF_mono _ _ _ _ _ _ G); [intros; apply Hk|done].
  - unfold yf. cbn. rewrite !fupd_ne by done. destruct (Hk u) as [H1 H2]. destruct (up_grow _ HK k u) as [H3 H4]. unfold yf in H2.
    split; eapply Qcle_trans; eauto.
Qed.
Lemma under_zero K : uppers K → under K (λ _, 0, λ _, 0).
Proof. intros HK. exists O. intros u. destruct (up_zero _ HK u). unfold yf. cbn. split; [done|]. by rewrite Qcmult_0_l. Qed.

(** The iteration that updates all cells at once. *)
Context `{∀ v, Decision (S v)}.
Fixpoint jac (k : nat) : qstate :=
  match k with
  | O => (λ _, 0, λ _, 0)
  | Datatypes.S k => (λ v, if decide (S v) then yF (jac k).1 (qcell (jac k).2 v) v else 0,
                      λ v, if decide (S v) then qcell (jac k).2 v else 0)
  end.
Lemma jac_S k : jac (Datatypes.S k) = (λ v, if decide (S v) then yF (jac k).1 (qcell (jac k).2 v) v else 0,
  λ v, if decide (S v) then qcell (jac k).2 v else 0).
Proof. done. Qed.
Lemma jac_pos k : ∀ u, 0 <= (jac k).2 u ∧ 0 <= (jac k).1 u.
Proof.
  induction k as [|k IH]; intros u; [split; apply Qcle_refl|]. cbn [jac fst snd]. destruct (decide (S u)) as [Hu|Hu]; [|split; apply Qcle_refl].
  assert (0 <= qcell (jac k).2 u) as Hc.
  { apply qdiv_nonneg; [|apply (T_nonneg _ _ _ _ _ _ G)]. pose proof (g_b _ _ _ _ _ _ G u).
    assert (0 <= qmix (jac k).2 u) by (apply (qmix_nonneg _ _ _ _ _ _ G); intros; apply IH). qclra. }
  split; [done|]. unfold GaussSeidel.yF. destruct (capped _ _ _ _).
  - apply qmul_nonneg; [apply Qclt_le_weak, (g_M _ _ _ _ _ _ G)|done].
  - apply qdiv_nonneg; [|apply (T_nonneg _ _ _ _ _ _ G)].
    assert (0 <= qmix (jac k).1 u) by (apply (qmix_nonneg _ _ _ _ _ _ G); intros; apply IH).
    assert (0 <= pv u * qcell (jac k).2 u) by (apply qmul_nonneg; [apply (g_pv _ _ _ _ _ _ G)|done]). qclra.
Qed.
Lemma jac_grow k : ∀ u, (jac k).2 u <= (jac (Datatypes.S k)).2 u ∧ (jac k).1 u <= (jac (Datatypes.S k)).1 u.
Proof.
  induction k as [|k IH]; intros u; [apply (jac_pos 1)|].
  rewrite (jac_S (Datatypes.S k)). set (X := jac (Datatypes.S k)) in IH |- *.
  assert (X.2 u = if decide (S u) then qcell (jac k).2 u else 0) as -> by done.
  assert (X.1 u = if decide (S u) then yF (jac k).1 (qcell (jac k).2 u) u else 0) as -> by done. clearbody X. cbn [fst snd].
  destruct (decide (S u)); [|split; apply Qcle_refl].
  assert (qcell (jac k).2 u <= qcell X.2 u) by (apply (qcell_mono _ _ _ pv _ M G); intros; apply IH).
  split; [done|]. apply (yF_mono _ _ _ _ _ _ G); [intros; apply IH|done].
Qed.
Lemma jac_uppers : uppers jac.
Proof.
  split.
  - apply jac_pos.
  - apply jac_grow.
  - intros k v Hv. cbn [jac fst snd]. rewrite decide_True by done. apply Qcle_refl.
  - intros k v Hv. cbn [jac fst snd]. rewrite !decide_True by done. apply Qcle_refl.
Qed.
Lemma jac_le i j u : (i ≤ j)%nat → (jac i).2 u <= (jac j).2 u ∧ (jac i).1 u <= (jac j).1 u.
Proof.
  induction 1 as [|j Hj [IH1 IH2]]; [split; apply Qcle_refl|]. destruct (jac_grow j u). split; eapply Qcle_trans; eauto.
Qed.
End upper.

(** Many wells. *)
Section many.
Context (up : Z → list Z) (w : Z → Z → Qc) (T pv : Z → Qc) (M : Qc) {I : Type} (b : I → Z → Qc) (ids : list I).
Context (S : Z → Prop) `{∀ v, Decision (S v)}.
Local Open Scope Qc_scope.
Context (HT : ∀ v, 0 <= T v).
Notation qmix := (qmix up w).
Notation J i := (jac up w T pv (b i) M S).

Lemma qmix_sum (h : I → Z → Qc) v : qsum (map (λ i, qmix (h i) v) ids) = qmix (λ u, qsum (map (λ i, h i u) ids)) v.
Proof.
  unfold GaussSeidel.qmix. rewrite (qsum_swap (λ i u, h i u * w u v)). apply qsum_ext. intros u _.
  rewrite (qsum_ext _ (λ i, w u v * h i u)) by (intros; ring). rewrite qsum_scale. ring.
Qed.
Lemma qsum_div (h : I → Qc) x : qsum (map (λ i, h i / x) ids) = qsum (map h ids) / x.
Proof.
  unfold Qcdiv. rewrite (qsum_ext _ (λ i, / x * h i)) by (intros; ring). rewrite qsum_scale. ring.
Qed.
Context (Hw : ∀ u v, u ∈ up v → 0 <= w u v) (HM : 0 < M) (Hpv : ∀ v, 0 <= pv v).
Lemma div_super a x v : 0 <= x → a <= T v * x → a / T v <= x.
Proof.
  intros Hx Ha. destruct (qle_eq_or_lt _ (HT v)) as [->|Hp]; [by rewrite qdiv_0|].
  apply qdiv_le_iff; [done|]. by rewrite Qcmult_comm.
Qed.
Lemma qmix_mono h h' v : (∀ u, h u <= h' u) → qmix h v <= qmix h' v.
Proof. intros Hh. apply qsum_le. intros u Hu. apply Qcmult_le_compat_r; [done|by apply Hw]. Qed.
Lemma jac_sum_c (B U : Z → Qc) k : (∀ v, qsum (map (λ i, b i v) ids) <= B v) →
  (∀ v, 0 <= U v) → (∀ v, S v → qmix U v + B v <= T v * U v) → ∀ v, qsum (map (λ i, (J i k).2 v) ids) <= U v.
Proof.
  intros HB Upos Ucell. induction k as [|k IH]; intros v; cbn [jac fst snd]; [by rewrite qsum_0|].
  destruct (decide (S v)) as [Hv|Hv]; [|by rewrite qsum_0].
  unfold qcell. rewrite qsum_div, qsum_plus, qmix_sum. apply div_super; [done|]. eapply Qcle_trans; [|by apply Ucell].
  apply Qcplus_le_compat; [|apply HB]. by apply qmix_mono.
Qed.
Lemma jac_sum_y (U Y : Z → Qc) k : (∀ k v, qsum (map (λ i, (J i k).2 v) ids) <= U v) → (∀ v, 0 <= Y v) →
  (∀ v, S v → if capped T pv M v then M * U v <= Y v else pv v * U v + qmix Y v <= T v * Y v) →
  ∀ v, qsum (map (λ i, (J i k).1 v) ids) <= Y v.
Proof.
  intros Hc Ypos Ytime. induction k as [|k IH]; intros v; cbn [jac fst snd]; [by rewrite qsum_0|].
  pose proof (Hc (Datatypes.S k) v) as Hk. cbn [jac fst snd] in Hk.
  destruct (decide (S v)) as [Hv|Hv]; [|by rewrite qsum_0]. specialize (Ytime v Hv). unfold yF. destruct (capped T pv M v).
  - rewrite qsum_scale. eapply Qcle_trans; [|done]. rewrite !(Qcmult_comm M). apply Qcmult_le_compat_r; [done|by apply Qclt_le_weak].
  - rewrite qsum_div, qsum_plus, qmix_sum, qsum_scale. apply div_super; [done|]. eapply Qcle_trans; [|done].
    apply Qcplus_le_compat; [|by apply qmix_mono]. rewrite !(Qcmult_comm (pv v)). by apply Qcmult_le_compat_r.
Qed.
End many.

(** ** Solver runs *)
Section exact.
Context (n : Z) (A : list (@arc exact)) (pv : list (@num exact)) (src : @cellset_values exact) (inj : Z → option (@num exact)).
Context (FD : finite_data n A pv src inj).
Notation up := (up n A).
Notation wq := (wq A).
Notation Tq := (Tq n A src inj).
Notation pq := (pq pv).
Notation bq := (bq inj).

Lemma rep_zero : rep zero_state (λ _, 0%Qc, λ _, 0%Qc).
Proof. intros u. split; apply exact_n0. Qed.
Lemma run_under (S : Z → Prop) K comps fuel st q : uppers up wq Tq pq bq gs_M S K → (∀ v, v ∈ concat comps → S v) →
  run n A pv src inj fuel comps = Ok st → rep st q → under K q.
Proof.
  intros HK HS Hrun Hrep. pose proof (exact_good _ _ _ _ _ FD) as G.
  destruct (inv_run n A pv src inj comps (λ st, ∃ q, rep st q ∧ nonneg q ∧ under K q)) with (fuel := fuel) as [E|(st' & E & q' & Hr' & Hn' & k & Hk)].
  - intros st0 v Hv (q0 & Hr & Hn & Hu). destruct (run_cell_rep _ _ _ _ _ FD st0 q0 v Hr Hn) as (st1 & E & Hr1).
    unfold run_cell in E. destruct (cell_ok n A src inj st0.2 v) eqn:Eok; [|done]. injection E as <-. split; [done|].
    eexists. split; [exact Hr1|]. split; [by apply (nonneg_upd _ _ _ _ _ FD)|]. destruct Hn. apply (under_upd _ _ _ _ _ _ G S); auto.
  - exists (λ _, 0%Qc, λ _, 0%Qc). split; [apply rep_zero|]. split; [|by eapply under_zero].
    split; [intros u; cbn; split; done|intros u; cbn; apply Qcle_refl].
  - by rewrite E in Hrun.
  - rewrite E in Hrun. injection Hrun as ->. exists k. intros u. destruct (Hrep u) as [E1 E2]. destruct (Hr' u) as [E3 E4].
    rewrite E1 in E3. rewrite E2 in E4. apply (f_equal qv) in E3, E4. cbn [qv] in E3, E4. unfold yf in *. rewrite E3, E4. apply Hk.
Qed.
End exact.

(** ** The toolbox *)
Section toolbox.
Context (p : @problem exact) (g : cgraph) (f : cvalues) (Hp : valid p) (HP : poses p g f).
Context (HD : data finite p) (HV : pores_ok p).
Notation n := (pb_cells p).
Notation m := (pb_rates p).
Notation src d := (only d (split_rates m)).
Notation all := (seqZ 0 n).
Notation Tt := (Tt p).
Notation Wt := (Wt p).
Notation rq := (rq p).
Notation pvq := (pvq p).
Notation up d := (up n (flow d p)).
Notation wq d := (wq (flow d p)).
Local Notation fin x := (Fin x : @num exact).
Local Open Scope Qc_scope.
Notation inside := (λ v, (0 ≤ v < n)%Z).
Notation jac d id := (jac (up d) (wq d) (Tt d) pvq (rq d id) gs_M inside).

Lemma good d id : qgood (up d) (wq d) (Tt d) pvq (rq d id) gs_M.
Proof.
  pose proof (finite_local p Hp HD HV d id (λ v, well_rate d m id v) (λ _, eq_refl)) as FD.
  pose proof (exact_good _ _ _ _ _ FD) as [G1 G2 G3 G4 G5]. split; try done.
  intros v. unfold Duality.Tt. rewrite (total_tot p Hp HD HV d id (λ v, well_rate d m id v) v (λ _, eq_refl)). apply G3.
Qed.

Lemma well_jac d ev sets sol id : diagnose d ev g p f sets = Ok (OSol sol) → ∃ k, ∀ v,
  value_at (sol_concentration sol id) v = fin (cq sol id v) ∧ cq sol id v <= (jac d id k).2 v ∧
  ∃ t, nmul (value_at (sol_concentration sol id) v) (value_at (sol_tof sol id) v) = fin t ∧ t <= (jac d id k).1 v.
Proof.
  intros H. destruct (decide (id ∈ map cs_id sets)) as [Hid|Hid].
  2:{ destruct (diagnose_other p g f Hp HP d ev sets sol id H Hid) as [E1 E2]. exists O. intros v. 
      assert (value_at (sol_concentration sol id) v = fin 0) as E by (rewrite E2; apply exact_n0).
      split; [unfold cq; by rewrite E|]. split; [unfold cq; rewrite E; apply Qcle_refl|].
      exists 0. rewrite E, E1. split; [|apply Qcle_refl]. unfold value_at. cbn. f_equal. }
  destruct (local_values p g f Hp HP HD HV d ev sets sol id H Hid) as (inj & comps & st & q & Hinj & Ho & Hrun & Hrep & Hn & Hs & Ht & Hc & Hval).
  pose proof (finite_local p Hp HD HV d id inj Hinj) as FD.
  assert (∀ v, bq inj v = rq d id v) as Hb by (intros v; unfold bq, Duality.rq; by rewrite Hinj).
  assert (∀ v, Tq n (flow d p) (src d) inj v = Tt d v) as HT by (intros v; unfold Duality.Tt; by rewrite (total_tot p Hp HD HV d id inj v Hinj)).
  pose proof (jac_uppers _ _ _ _ _ _ (good d id) inside) as [J1 J2 J3 J4].
  destruct (run_under _ _ _ _ _ FD inside (jac d id) comps (e_fuel ev) st q) as [k Hk]; [|..].
  - split; [done|done|..].
    + intros k v Hv. unfold qcell. rewrite HT, Hb. by apply J3.
    + intros k v Hv. unfold yF, capped. rewrite HT. by apply (J4 k v).
  - intros v Hv. apply (oc_cover _ _ _ Ho) in Hv as (r & [x Hr] & Hl).
    apply (leads_range n (flow d p) r v); [by apply (flow_arcs p Hp)|done|]. by eapply (va_cellrates _ Hp).
  - exact Hrun.
  - exact Hrep.
  - exists k. intros v. rewrite Hval. unfold cq. rewrite Hval. cbn [qv]. split; [done|]. split; [apply Hk|].
    pose proof (Hval v) as Ev. unfold value_at in Ev |- *. rewrite Hc in Ev. rewrite Ht. destruct (decide (v ∈ concat comps)).
    + exists (q.2 v * mq (q.1 v)). rewrite mq_fin. split; [done|]. eapply Qcle_trans; [|apply Hk]. unfold yf. rewrite Qcmult_comm.
      apply Qcmult_le_compat_r; [apply mq_le|apply Hn].
    + exists 0. rewrite exact_n0 in Ev |- *. injection Ev as <-. split; [done|]. apply jac_pos, good.
Qed.

Lemma wells_jac d ev sets sol (W : list cellset_id) : diagnose d ev g p f sets = Ok (OSol sol) → ∃ k, ∀ id, id ∈ W → ∀ v,
  value_at (sol_concentration sol id) v = fin (cq sol id v) ∧ cq sol id v <= (jac d id k).2 v ∧
  ∃ t, nmul (value_at (sol_concentration sol id) v) (value_at (sol_tof sol id) v) = fin t ∧ t <= (jac d id k).1 v.
Proof.
  intros H. induction W as [|id W [k IH]]; [exists O; by intros id ?%elem_of_nil|].
  destruct (well_jac d ev sets sol id H) as [k' Hk']. exists (k `max` k')%nat.
  assert (∀ id k k' v, (k ≤ k')%nat → (jac d id k).2 v <= (jac d id k').2 v ∧ (jac d id k).1 v <= (jac d id k').1 v) as Hmono
    by (intros; apply jac_le; [apply good|done]).
  intros id' [->|Hin]%elem_of_cons v.
  - destruct (Hk' v) as (H1 & H2 & t & H3 & H4). destruct (Hmono id k' (k `max` k')%nat v) as [M1 M2]; [lia|].
    split; [done|]. split; [by eapply Qcle_trans|]. exists t. split; [done|]. by eapply Qcle_trans.
  - destruct (IH id' Hin v) as (H1 & H2 & t & H3 & H4). destruct (Hmono id' k (k `max` k')%nat v) as [M1 M2]; [lia|].
    split; [done|]. split; [by eapply Qcle_trans|]. exists t. split; [done|]. by eapply Qcle_trans.
Qed.

Lemma joint_q d W v : joint_rate p d W v = fin (qsum (map (λ id, rq d id v) W)).
Proof.
  unfold joint_rate. pose proof (sum_left_fin (λ x, x) qv (omap (λ id, well_rate d m id v) W)) as E. rewrite map_id in E. rewrite E.
  2:{ intros x (id & _ & Hx)%elem_of_list_omap. destruct (rate_fin p Hp HD d id v x Hx) as (q & -> & _). done. }
  f_equal. clear E. induction W as [|id l IH]; [done|]. cbn [omap list_omap map]. unfold Duality.rq at 1.
  unfold qsum in *. destruct (well_rate d m id v); cbn [map foldr]; rewrite <-IH; [done|ring].
Qed.
Lemma Tt_q d v : total_in p d v = fin (Tt d v).
Proof. unfold Duality.Tt. by rewrite (Duality.total_fin p Hp HD HV). Qed.
Lemma mix_q d (h : Z → Qc) v : mix n (flow d p) (λ u, fin (h u)) v = fin (qmix (up d) (wq d) h v).
Proof. by apply (mix_fin _ _ _ _ _ (finite_global p Hp HD HV d)). Qed.

(** C70 *)
Lemma bounded d ev sets sol W (c : Z → Qc) : diagnose d ev g p f sets = Ok (OSol sol) → tracer_bound p d W (λ v, fin (c v)) →
  (∀ v, nleb (sum_left (map (λ id, value_at (sol_concentration sol id) v) W)) (fin (c v)) = true) ∧
  ∀ y : Z → Qc, time_bound p d (λ v, fin (c v)) (λ v, fin (y v)) →
    ∀ v, nleb (sum_left (map (λ id, nmul (value_at (sol_concentration sol id) v) (value_at (sol_tof sol id) v)) W)) (fin (y v)) = true.
Proof.
  intros H [Hc1 Hc2]. destruct (wells_jac d ev sets sol W H) as [k Hk]. destruct gs_consts as (_ & _ & EM & _ & _ & _ & HM).
  assert (∀ v, 0 <= c v) as Hc0 by (intros v; specialize (Hc1 v); rewrite exact_n0 in Hc1; by apply xleb_Fin in Hc1).
  assert (∀ k v, qsum (map (λ id, (jac d id k).2 v) W) <= c v) as HC.
  { intros k'. apply (jac_sum_c _ _ _ _ _ _ _ inside) with (B := λ v, qsum (map (λ id, rq d id v) W)).
    - intros v. apply (T_nonneg _ _ _ _ _ _ (good d ""%string)).
    - apply (g_w _ _ _ _ _ _ (good d ""%string)).
    - intros; apply Qcle_refl.
    - done.
    - intros v Hv. specialize (Hc2 v Hv). rewrite mix_q, joint_q, Tt_q in Hc2. by apply xleb_Fin in Hc2. }
  split.
  - intros v. rewrite (sum_left_fin _ (λ id, cq sol id v)) by (intros id Hid; by apply Hk). apply xleb_Fin.
    eapply Qcle_trans; [|apply (HC k)]. apply qsum_le. intros id Hid. by apply Hk.
  - intros y [Hy1 Hy2] v.
    assert (∀ v, 0 <= y v) as Hy0 by (intros u; specialize (Hy1 u); rewrite exact_n0 in Hy1; by apply xleb_Fin in Hy1).
    assert (∀ v, qsum (map (λ id, (jac d id k).1 v) W) <= y v) as HY.
    { apply (jac_sum_y _ _ _ _ _ _ _ inside) with (U := c).
      - intros u. apply (T_nonneg _ _ _ _ _ _ (good d ""%string)).
      - apply (g_w _ _ _ _ _ _ (good d ""%string)).
      - done.
      - apply (g_pv _ _ _ _ _ _ (good d ""%string)).
      - done.
      - done.
      - intros u Hu. specialize (Hy2 u Hu). rewrite Tt_q, (pore_q p HD HV), mix_q in Hy2. change cutoff with (@max_tof exact) in Hy2. rewrite EM in Hy2.
        cbn [num nltb ndiv nmul nadd exact xmul xadd] in Hy2. unfold xdiv in Hy2. assert (Qc_eqb gs_M 0 = false) as E0 by done. rewrite E0 in Hy2.
        unfold capped. cbn [xltb] in Hy2. destruct (Qc_ltb (Tt d u) (pvq u / gs_M)); by apply xleb_Fin in Hy2. }
    rewrite (sum_left_fin _ (λ id, qv (nmul (value_at (sol_concentration sol id) v) (value_at (sol_tof sol id) v)))).
    2:{ intros id Hid. destruct (Hk id Hid v) as (_ & _ & t & -> & _). done. }
    apply xleb_Fin. eapply Qcle_trans; [|apply HY]. apply qsum_le. intros id Hid. destruct (Hk id Hid v) as (_ & _ & t & -> & Ht). done.
Qed.

Lemma at_most_one d ev sets sol : diagnose d ev g p f sets = Ok (OSol sol) →
  ∀ v, nleb (sum_left (map (λ id, value_at (sol_concentration sol id) v) (map fst m))) n1 = true.
Proof.
  intros H v. rewrite exact_n1. apply (bounded d ev sets sol (map fst m) (λ _, 1) H). split; [done|].
  intros u Hu. rewrite joint_q, mix_q, Tt_q. apply xleb_Fin. rewrite (qmix_all p), (Tt_eq p Hp HD HV).
  rewrite (qsum_ext (λ x, 1 * Wt d x u) (λ x, Wt d x u)) by (intros; ring).
  set (a := qsum _). set (b := qsum _). clearbody a b. qclra.
Qed.

(** C71: what the iteration leaves out *)
Definition leftover (d : direction) (h r : Z → Qc) (v : Z) : Qc := qsum (map (λ u, h u * Wt d u v) all) + r v - Tt d v * h v.
Notation infl d v := (qsum (map (λ u, Wt d u v) all)).
Definition flux_total : Qc := qsum (map (λ v, infl Injection v) all).
Lemma flux_total_any d : qsum (map (λ v, infl d v) all) = flux_total.
Proof. destruct d; [done|]. exact (total_infl p). Qed.
Lemma flux_total_q : sum_left (map (influx n (net_arcs p)) all) = fin flux_total.
Proof. exact (total_influx p Hp HD HV). Qed.

Lemma leftover_sum d h r : conserves p →
  qsum (map (leftover d h r) all) = qsum (map r all) - qsum (map (λ v, rates p (opposite d) v * h v) all).
Proof.
  intros Hc. assert (qsum (map (leftover d h r) all) + qsum (map (λ v, Tt d v * h v) all) =
    qsum (map r all) + qsum (map (λ u, qsum (map (λ v, h u * Wt d u v) all)) all)) as E.
  { rewrite (qsum_swap (λ u v, h u * Wt d u v)), <-!qsum_plus. apply qsum_ext. intros v _. unfold leftover. ring. }
  assert (qsum (map (λ v, Tt d v * h v) all) = qsum (map (λ u, qsum (map (λ v, h u * Wt d u v) all)) all) + qsum (map (λ v, rates p (opposite d) v * h v) all)) as E2.
  { rewrite <-qsum_plus. apply qsum_ext. intros u Hu%elem_of_seqZ. rewrite (qsum_scale (h u) (λ v, Wt d u v)), (out_total p Hp HD HV d u Hc) by lia. ring. }
  rewrite E2 in E. revert E. generalize (qsum (map (λ u, qsum (map (λ v, h u * Wt d u v) all)) all)). intros x E.
  set (a := qsum (map (leftover d h r) all)) in *. set (b := qsum (map r all)) in *. set (e := qsum (map (λ v, rates p (opposite d) v * h v) all)) in *.
  clearbody a b e. qclra.
Qed.

Lemma leftover_dual d h h' r r' : conserves p →
  qsum (map (λ v, h' v * leftover d h r v) all) + qsum (map (λ v, r' v * h v) all) =
  qsum (map (λ v, h v * leftover (opposite d) h' r' v) all) + qsum (map (λ v, r v * h' v) all).
Proof.
  intros Hc.
  assert (∀ k h h' r, qsum (map (λ v, h' v * leftover k h r v) all) =
    qsum (map (λ v, qsum (map (λ u, h' v * h u * Wt k u v) all)) all) + qsum (map (λ v, r v * h' v) all) + - (1) * qsum (map (λ v, Tt k v * h v * h' v) all)) as E.
  { clear. intros k h h' r. rewrite <-qsum_scale, <-!qsum_plus. apply qsum_ext. intros v _. unfold leftover.
    rewrite (qsum_ext (λ u, h' v * h u * Wt k u v) (λ u, h' v * (h u * Wt k u v))) by (intros; ring). rewrite qsum_scale. ring. }
  rewrite !E. rewrite (qsum_swap (λ v u, h' v * h u * Wt d u v)).
  rewrite (qsum_ext (λ u, qsum (map (λ v, h' v * h u * Wt d u v) all)) (λ v, qsum (map (λ u, h v * h' u * Wt (opposite d) u v) all))).
  2:{ intros u _. apply qsum_ext. intros v _. assert (Wt (opposite d) v u = Wt d u v) as ->; [|ring].
      destruct d; [apply (Wt_turn p Injection)|apply (Wt_turn p Production)]. }
  rewrite (qsum_ext (λ v, Tt (opposite d) v * h' v * h v) (λ v, Tt d v * h v * h' v)); [ring|].
  intros v Hv%elem_of_seqZ. assert (Tt (opposite d) v = Tt d v) as ->; [|ring]. unfold Duality.Tt. destruct d; cbn [opposite]; by rewrite Hc by lia.
Qed.

Context (Hself : ∀ v, ¬ flows (net_arcs p) v v).
Lemma all_regular d v : regular (flow d p) v.
Proof.
  left. intros Hf. apply (Hself v). destruct d; [done|]. cbn [flow] in Hf. unfold flows in *.
  unfold turn in Hf. rewrite map_map in Hf. apply elem_of_list_fmap in Hf as ([[a b] w] & Eq & Ha). cbn in Eq. injection Eq as <- <-.
  apply elem_of_list_fmap. by exists (v, v, w).
Qed.
Lemma no_rate d id v : ¬ is_well d m id → rq d id v = 0.
Proof. intros H. unfold Duality.rq. destruct (well_rate d m id v) as [x|] eqn:E; [|done]. exfalso. apply H. by exists v, x. Qed.
Lemma well_leftover d ev sets sol id v : diagnose d ev g p f sets = Ok (OSol sol) → (is_well d m id → id ∈ map cs_id sets) →
  0 <= leftover d (cq sol id) (rq d id) v ∧ leftover d (cq sol id) (rq d id) v <= gs_τc * infl d v.
Proof.
  intros H Hid. destruct (decide (id ∈ map cs_id sets)) as [Hin|Hout].
  - destruct (residual p g f Hp HP HD HV d ev sets sol id H Hin) as (_ & _ & E). destruct (E v) as (e & He & _ & Hb).
    assert (leftover d (cq sol id) (rq d id) v = e) as -> by (unfold leftover; rewrite <-He; ring). apply Hb, all_regular.
  - destruct (diagnose_other p g f Hp HP d ev sets sol id H Hout) as [_ E2].
    assert (∀ u, cq sol id u = 0) as Ez by (intros u; unfold cq; by rewrite E2).
    assert (leftover d (cq sol id) (rq d id) v = 0) as ->.
    { unfold leftover. rewrite qsum_0 by (intros u _; rewrite Ez; ring). rewrite Ez, no_rate by tauto. ring. }
    split; [apply Qcle_refl|]. apply qmul_nonneg; [apply Qclt_le_weak; apply gs_consts|]. apply qsum_map_nonneg. intros; apply (Wt_nonneg p Hp HD HV).
Qed.
Lemma well_values d ev sets sol id : diagnose d ev g p f sets = Ok (OSol sol) →
  ∀ v, value_at (sol_concentration sol id) v = fin (cq sol id v) ∧ 0 <= cq sol id v ∧ cq sol id v <= 1.
Proof.
  intros H v. destruct (decide (id ∈ map cs_id sets)) as [Hin|Hout].
  - destruct (residual p g f Hp HP HD HV d ev sets sol id H Hin) as (E1 & E2 & _). split; [apply E1|apply E2].
  - destruct (diagnose_other p g f Hp HP d ev sets sol id H Hout) as [_ E2].
    assert (value_at (sol_concentration sol id) v = fin 0) as E by (rewrite E2; apply exact_n0).
    unfold cq. rewrite E. cbn [qv]. split; [done|]. split; done.
Qed.
Lemma leftover_total d ev sets sol id : diagnose d ev g p f sets = Ok (OSol sol) → (is_well d m id → id ∈ map cs_id sets) →
  0 <= qsum (map (leftover d (cq sol id) (rq d id)) all) ∧ qsum (map (leftover d (cq sol id) (rq d id)) all) <= gs_τc * flux_total.
Proof.
  intros H Hid. split; [apply qsum_map_nonneg; intros v _; by apply (well_leftover d ev sets sol id v H)|].
  rewrite <-(flux_total_any d), <-qsum_scale. apply qsum_le. intros v _. by apply (well_leftover d ev sets sol id v H).
Qed.

Notation slack := (nmul (ndiv n1 (nofZ 1000000000)) (sum_left (map (influx n (net_arcs p)) all))).
Lemma slack_q : slack = fin (gs_τc * flux_total).
Proof. rewrite flux_total_q. assert (@ndiv exact n1 (nofZ 1000000000) = fin gs_τc) as -> by exact (proj1 (proj2 gs_consts)). done. Qed.

Lemma recovered d ev sets sol id : conserves p → diagnose d ev g p f sets = Ok (OSol sol) → (is_well d m id → id ∈ map cs_id sets) →
  let rate := sum_left (omap (well_rate d m id) all) in
  let back := sum_left (map (λ v, nmul (cell_total (opposite d) m v) (value_at (sol_concentration sol id) v)) all) in
  nleb back rate = true ∧ nleb rate (nadd back slack) = true.
Proof.
  intros Hc H Hid. cbn zeta. rewrite (well_total p Hp HD), slack_q.
  rewrite (sum_left_fin _ (λ v, rates p (opposite d) v * cq sol id v)).
  2:{ intros v _. rewrite (cell_total_q p Hp HD HV), (proj1 (well_values _ _ _ _ id H v)). done. }
  pose proof (leftover_sum d (cq sol id) (rq d id) Hc) as E. destruct (leftover_total d ev sets sol id H Hid) as [H1 H2]. rewrite E in H1, H2.
  change (map (λ v : Z, rq d id v) all) with (map (rq d id) all) in *.
  set (a := qsum (map (rq d id) all)) in *. set (b := qsum (map (λ v, rates p (opposite d) v * cq sol id v) all)) in *. set (e := gs_τc * flux_total) in *.
  clearbody a b e. cbn [num nadd exact xadd]. split; apply xleb_Fin; qclra.
Qed.

Lemma producer_error d ev sets sol id (c : Z → Qc) : conserves p → diagnose d ev g p f sets = Ok (OSol sol) → (is_well d m id → id ∈ map cs_id sets) →
  tracer_solution p d [id] (λ v, fin (c v)) → ∀ v, (0 ≤ v < n)%Z →
  let q := cell_total (opposite d) m v in let x := value_at (sol_concentration sol id) v in
  nleb x (fin (c v)) = true ∧ nleb (nmul q (nsub (fin (c v)) x)) slack = true.
Proof.
  intros Hc H Hid [S1 S2] v Hv. cbn zeta.
  assert (∀ v, cq sol id v <= c v) as Hle.
  { intros u. destruct (bounded d ev sets sol [id] c H) as [Hb _].
    { split; [done|]. intros w Hw. rewrite S2 by done. rewrite Tt_q. apply xleb_Fin, Qcle_refl. }
    specialize (Hb u). rewrite (sum_left_fin _ (λ id, cq sol id u)) in Hb by (intros; apply (well_values _ _ _ _ _ H)).
    apply xleb_Fin in Hb. unfold qsum in Hb. cbn in Hb. by rewrite Qcplus_0_r in Hb. }
  assert (∀ v, (0 ≤ v < n)%Z → leftover d c (rq d id) v = 0) as Hz.
  { intros u Hu. specialize (S2 u Hu). rewrite mix_q, joint_q, Tt_q, (qmix_all p) in S2. cbn [num nadd nmul exact xadd xmul map] in S2.
    apply (f_equal qv) in S2. cbn [qv] in S2. unfold leftover. rewrite <-S2. unfold qsum at 3. cbn [foldr]. ring. }
  rewrite (proj1 (well_values _ _ _ _ id H v)), (cell_total_q p Hp HD HV), slack_q. split; [by apply xleb_Fin|].
  apply xleb_Fin. destruct (leftover_total d ev sets sol id H Hid) as [_ Htot].
  pose proof (leftover_sum d (cq sol id) (rq d id) Hc) as E1. pose proof (leftover_sum d c (rq d id) Hc) as E2.
  rewrite (qsum_0 (leftover d c (rq d id))) in E2 by (intros u Hu%elem_of_seqZ; apply Hz; lia).
  assert (qsum (map (λ v, rates p (opposite d) v * (c v - cq sol id v)) all) = qsum (map (leftover d (cq sol id) (rq d id)) all)) as E3.
  { rewrite E1. rewrite (qsum_ext _ (λ v, rates p (opposite d) v * c v + - (1) * (rates p (opposite d) v * cq sol id v))) by (intros; ring).
    rewrite qsum_plus, qsum_scale. revert E2. generalize (qsum (map (rq d id) all)), (qsum (map (λ v, rates p (opposite d) v * c v) all)), (qsum (map (λ v, rates p (opposite d) v * cq sol id v) all)).
    clear. intros a b e E. qclra. }
  eapply Qcle_trans; [|exact Htot]. rewrite <-E3. apply (qsum_elem_le (λ v, rates p (opposite d) v * (c v - cq sol id v)) all v).
  - intros u _. apply qmul_nonneg; [|specialize (Hle u); qclra]. apply qsum_map_nonneg. intros; apply (rq_nonneg p Hp HD).
  - apply elem_of_seqZ. lia.
Qed.

(** Sums of pair fluxes. *)
Lemma spread_near d ev ev' sets sets' sol sol' id : conserves p →
  diagnose d ev g p f sets = Ok (OSol sol) → diagnose (opposite d) ev' g p f sets' = Ok (OSol sol') →
  (is_well d m id → id ∈ map cs_id sets) → (∀ k, is_well (opposite d) m k → k ∈ map cs_id sets') →
  let x := qsum (map (λ k, qsum (map (λ v, rq d id v * cq sol' k v) all)) (map fst m)) in
  x <= qsum (map (rq d id) all) ∧ qsum (map (rq d id) all) <= x + (1 + qn (length m)) * (gs_τc * flux_total).
Proof.
  intros Hc H H' Hid Hids. set (S := λ v, qsum (map (λ k, cq sol' k v) (map fst m))).
  assert (∀ v, 0 <= S v ∧ S v <= 1) as HS.
  { intros v. split; [apply qsum_map_nonneg; intros k _; apply (well_values _ _ _ _ k H')|].
    pose proof (at_most_one _ _ _ _ H' v) as Ho. rewrite (sum_left_fin _ (λ k, cq sol' k v)), exact_n1 in Ho by (intros; apply (well_values _ _ _ _ _ H')).
    by apply xleb_Fin in Ho. }
  cbn zeta. rewrite (qsum_swap (λ k v, rq d id v * cq sol' k v)).
  rewrite (qsum_ext (λ v, qsum (map (λ k, rq d id v * cq sol' k v) (map fst m))) (λ v, rq d id v * S v)) by (intros; unfold S; by rewrite qsum_scale).
  split.
  { apply qsum_le. intros v _. rewrite <-(Qcmult_1_r (rq d id v)) at 2. rewrite !(Qcmult_comm (rq d id v)). apply Qcmult_le_compat_r; [apply HS|apply (rq_nonneg p Hp HD)]. }
  set (e := leftover d (cq sol id) (rq d id)). set (E := leftover (opposite d) S (rates p (opposite d))).
  pose proof (leftover_dual d (cq sol id) S (rq d id) (rates p (opposite d)) Hc) as Hd. fold e E in Hd.
  pose proof (leftover_sum d (cq sol id) (rq d id) Hc) as Hs. fold e in Hs.
  destruct (leftover_total d ev sets sol id H Hid) as [T1 T2]. fold e in T1, T2.
  assert (0 <= qsum (map (λ v, S v * e v) all)) as B1.
  { apply qsum_map_nonneg. intros v _. apply qmul_nonneg; [apply HS|]. by apply (well_leftover d ev sets sol id v H). }
  assert (qsum (map (λ v, cq sol id v * E v) all) <= qn (length m) * (gs_τc * flux_total)) as B2.
  { assert (∀ v, E v = qsum (map (λ k, leftover (opposite d) (cq sol' k) (rq (opposite d) k) v) (map fst m))) as EE.
    { intros v. rewrite (qsum_ext (λ k, leftover (opposite d) (cq sol' k) (rq (opposite d) k) v)
        (λ k, (qsum (map (λ u, cq sol' k u * Wt (opposite d) u v) all) + rq (opposite d) k v) + - Tt (opposite d) v * cq sol' k v)) by (intros; unfold leftover; ring).
      unfold E, leftover, rates, S.
      rewrite !qsum_plus, qsum_scale, (qsum_swap (λ k u, cq sol' k u * Wt (opposite d) u v)).
      assert (∀ a b c e : Qc, a = c → a + b - e = c + b + - e) as Hx by (intros ????->; ring). rewrite Hx with (c := qsum (map (λ u, qsum (map (λ k, cq sol' k u * Wt (opposite d) u v) (map fst m))) all)); [ring|]. apply qsum_ext. intros u _.
      rewrite (qsum_ext (λ k, cq sol' k u * Wt (opposite d) u v) (λ k, Wt (opposite d) u v * cq sol' k u)) by (intros; ring). rewrite qsum_scale. ring. }
    transitivity (qsum (map (λ v, qn (length m) * (gs_τc * infl (opposite d) v)) all)).
    2:{ rewrite !qsum_scale, (flux_total_any (opposite d)). apply Qcle_refl. }
    apply qsum_le. intros v _. assert (0 <= E v ∧ E v <= qn (length m) * (gs_τc * infl (opposite d) v)) as [L U].
    { rewrite EE. split; [apply qsum_map_nonneg; intros k _; apply (well_leftover _ _ _ _ k v H'); auto|].
      rewrite <-(map_length fst m), <-qsum_const. apply qsum_le. intros k _. apply (well_leftover _ _ _ _ k v H'); auto. }
    eapply Qcle_trans; [|exact U]. rewrite <-(Qcmult_1_l (E v)) at 2. apply Qcmult_le_compat_r; [apply (well_values _ _ _ _ _ H)|done]. }
  revert Hd Hs T1 T2 B1 B2. generalize (qsum (map (λ v, S v * e v) all)), (qsum (map e all)), (qsum (map (λ v, cq sol id v * E v) all)),
    (qsum (map (λ v, rates p (opposite d) v * cq sol id v) all)), (qsum (map (λ v, rq d id v * S v) all)), (qsum (map (rq d id) all)).
  generalize (gs_τc * flux_total). clear. intros t a b x y z r E1 E2 T1 T2 B1 B2.
  assert (r <= z + t + qn (length m) * t) as Hr; [|clear -Hr; eapply Qcle_trans; [exact Hr|]; assert (z + t + qn (length m) * t = z + (1 + qn (length m)) * t) as -> by ring; apply Qcle_refl].
  set (k := qn (length m) * t) in *. clearbody k. qclra.
Qed.

Lemma pair_rates_near ev ev' sets sets' sol sol' : conserves p →
  diagnose Injection ev g p f sets = Ok (OSol sol) → diagnose Production ev' g p f sets' = Ok (OSol sol') →
  (∀ id, is_well Injection m id → id ∈ map cs_id sets) → (∀ id, is_well Production m id → id ∈ map cs_id sets') →
  ∃ F : cellset_id → cellset_id → @num exact * @num exact,
    (∀ i j, i ∈ map fst m → j ∈ map fst m → pair_flux sol sol' i j m = Ok (F i j)) ∧
    let e := nmul (nofZ (1 + zlen m)) slack in
    (∀ i, i ∈ map fst m → let x := sum_left (map (λ j, (F i j).1) (map fst m)) in let r := sum_left (omap (well_rate Injection m i) all) in
      nleb x r = true ∧ nleb r (nadd x e) = true) ∧
    (∀ j, j ∈ map fst m → let x := nopp (sum_left (map (λ i, (F i j).2) (map fst m))) in let r := sum_left (omap (well_rate Production m j) all) in
      nleb x r = true ∧ nleb r (nadd x e) = true).
Proof.
  intros Hc H H' Hi Hj.
  exists (λ i j, (fin (qsum (map (λ v, rq Injection i v * cq sol' j v) all)), fin (- qsum (map (λ v, rq Production j v * cq sol i v) all)))).
  split.
  { intros i j Mi Mj. pose proof (va_rates _ Hp) as [Hm1 _].
    apply elem_of_list_fmap in Mi as ([i' vi] & Ei & Mi). cbn in Ei. subst i'. apply om_find_elem in Mi; [|done].
    apply elem_of_list_fmap in Mj as ([j' vj] & Ej & Mj). cbn in Ej. subst j'. apply om_find_elem in Mj; [|done].
    unfold pair_flux. rewrite Mi, Mj.
    rewrite (pair_sum p Hp HD _ vi Injection (cq sol' j) i Mi) by (intros; apply (well_values _ _ _ _ _ H')).
    rewrite (pair_sum p Hp HD _ vj Production (cq sol i) j Mj) by (intros; apply (well_values _ _ _ _ _ H)).
    do 3 f_equal; f_equal; ring. }
  cbn zeta. rewrite slack_q.
  assert (@nofZ exact (1 + zlen m) = fin (1 + qn (length m))) as ->.
  { cbn [nofZ exact]. f_equal. rewrite <-(qn_S (length m)). unfold qn. unfold zlen. f_equal. f_equal. lia. }
  split.
  - intros i _. cbn [fst]. rewrite (sum_left_fin _ (λ j, qsum (map (λ v, rq Injection i v * cq sol' j v) all))) by done.
    rewrite (well_total p Hp HD). cbn [num nmul nadd exact xmul xadd].
    destruct (spread_near Injection ev ev' sets sets' sol sol' i Hc H H' (Hi i) Hj) as [L U]. split; by apply xleb_Fin.
  - intros j _. cbn [snd]. rewrite (sum_left_fin _ (λ i, - (1) * qsum (map (λ v, rq Production j v * cq sol i v) all))) by (intros; f_equal; ring).
    rewrite (well_total p Hp HD), qsum_scale. cbn [num nopp nmul nadd exact xmul xadd xopp].
    destruct (spread_near Production ev' ev sets' sets sol' sol j Hc H' H (Hj j) Hi) as [L U]. 
    set (x := qsum (map (λ k, qsum (map (λ v, rq Production j v * cq sol k v) all)) (map fst m))) in *.
    assert (- (- (1) * x) = x) as -> by ring. split; by apply xleb_Fin.
Qed.
End toolbox.
