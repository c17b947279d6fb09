(** Solver runs in exact arithmetic on finite data: they stay finite, terminate,
    and settle every cell. *)
From Coq Require Import QArith Qcanon.
From Verif.Model Require Import Base Num OMap Containers AssembledConnections Tarjan TracerTofSolver.
From Verif.Spec Require Import GraphSpec SccSpec TarjanSpec FlowSpec DerivedSpec ToolboxSpec.
From Verif.Proofs Require Import Util OMapFacts AConn GraphProps ExactNum QcLra OrdLaws DerivedExact SolverBase SolverRun SolverTop SolverGen GaussSeidel.
Open Scope Z_scope.

(** The rational held by a finite number. *)
Definition qv (x : @num exact) : Qc := match x with Fin q => q | _ => 0%Qc end.
Lemma finite_qv x : finite x → x = Fin (qv x).
Proof. by intros [q ->]. Qed.

Lemma sum_left_fin {X} (f : X → @num exact) (g : X → Qc) (l : list X) : (∀ x, x ∈ l → f x = Fin (g x)) →
  @sum_left exact (map f l) = Fin (qsum (map g l)).
Proof.
  intros H. assert (map f l = Fin <$> map g l) as ->.
  { induction l as [|x l IH]; [done|]. cbn. rewrite H by left. f_equal. apply IH. intros. apply H. by right. }
  unfold sum_left. rewrite exact_n0. change (@nadd exact) with xadd. rewrite foldl_Fin. f_equal. ring.
Qed.

Definition gs_τt : Qc := qv gs_tof_tol.
Definition gs_τc : Qc := qv gs_tracer_tol.
Definition gs_M : Qc := qv max_tof.
Lemma gs_consts : @gs_tof_tol exact = Fin gs_τt ∧ @gs_tracer_tol exact = Fin gs_τc ∧ @max_tof exact = Fin gs_M ∧
  (0 < gs_τt)%Qc ∧ (0 < gs_τc)%Qc ∧ (gs_τc < 1)%Qc ∧ (0 < gs_M)%Qc.
Proof. split_and!; done. Qed.

Section exact.
Context (n : Z) (A : list (@arc exact)) (pv : list (@num exact)) (src : @cellset_values exact) (inj : Z → option (@num exact)).

Record finite_data : Prop := {
  fd_ok : arcs_ok n A;
  fd_arc : ∀ a, a ∈ A → ∃ q, a.2 = Fin q ∧ (0 < q)%Qc;
  fd_src : ∀ v, ∃ q, value_at src v = Fin q ∧ (0 <= q)%Qc;
  fd_inj : ∀ v r, inj v = Some r → ∃ q s, r = Fin q ∧ (0 <= q)%Qc ∧ value_at src v = Fin s ∧ (q <= s)%Qc ∧ (0 < s)%Qc;
  fd_pv : ∀ v, ∃ q, pvf pv v = Fin q ∧ (0 <= q)%Qc
}.
Context (FD : finite_data).

Definition up := upstream n A.
Definition wq (u v : Z) : Qc := qv (arc_flux A u v).
Definition Tq (v : Z) : Qc := qv (tot n A src inj v).
Definition pq (v : Z) : Qc := qv (pvf pv v).
Definition bq (v : Z) : Qc := match inj v with Some r => qv r | None => 0%Qc end.
Notation qmix := (qmix up wq).
Notation qcell := (qcell up wq Tq bq).
Notation qtime := (qtime up wq Tq pq gs_M).
Notation qupd := (qupd up wq Tq pq bq gs_M).

Lemma flux_fin u v : arc_flux A u v = Fin (wq u v) ∧ (0 <= wq u v)%Qc ∧ (flows A u v → (0 < wq u v)%Qc).
Proof.
  unfold wq, arc_flux, flows. set (l := omap _ A). 
  assert (∀ x, x ∈ l → x = Fin (qv x) ∧ (0 < qv x)%Qc) as Hl.
  { intros x (a & Ha & E)%elem_of_list_omap. destruct (decide (a.1 = (u, v))); [|done]. injection E as <-.
    destruct (fd_arc FD a Ha) as (q & -> & Hq). done. }
  assert (l = map id l) as E by (by rewrite map_id).
  pose proof (sum_left_fin id qv l (λ x Hx, proj1 (Hl x Hx))) as Hs. rewrite <-E in Hs. rewrite Hs. cbn [qv].
  split_and!; [done| |].
  - apply qsum_map_nonneg. intros x Hx. apply Qclt_le_weak, Hl, Hx.
  - intros (a & Ea & Ha)%elem_of_list_fmap. assert (a.2 ∈ l) as Hin.
    { apply elem_of_list_omap. exists a. split; [done|]. by rewrite decide_True. }
    eapply qsum_pos; [|apply elem_of_list_fmap; by exists a.2|by apply Hl].
    apply Forall_map, Forall_forall. intros x Hx. apply Qclt_le_weak, Hl, Hx.
Qed.

Lemma mix_fin f g v : (∀ u, u ∈ up v → f u = Fin (g u)) → mix n A f v = Fin (qmix g v).
Proof.
  intros H. unfold mix, GaussSeidel.qmix. apply sum_left_fin. intros u Hu. rewrite H by done.
  rewrite (proj1 (flux_fin u v)). done.
Qed.
Lemma influx_fin v : influx n A v = Fin (qmix (λ _, 1%Qc) v).
Proof.
  unfold influx, GaussSeidel.qmix. apply sum_left_fin. intros u Hu. rewrite (proj1 (flux_fin u v)). f_equal. ring.
Qed.
Lemma src_eff_fin v : src_eff src inj v = value_at src v.
Proof.
  unfold src_eff, is_start. destruct (inj v) as [r|] eqn:E; [|by rewrite andb_false_r].
  destruct (fd_inj FD v r E) as (q & s & -> & _ & -> & _ & Hs). cbn [num neqb exact]. rewrite exact_n0. cbn.
  assert (Qc_eqb s 0 = false) as ->; [|done]. apply Qc_eqb_false. intros ->. done.
Qed.
Lemma tot_value v : tot n A src inj v = Fin (qmix (λ _, 1) v + qv (value_at src v))%Qc.
Proof.
  unfold tot. rewrite influx_fin, src_eff_fin. destruct (fd_src FD v) as (q & -> & _). done.
Qed.
Lemma tot_fin v : tot n A src inj v = Fin (Tq v).
Proof. unfold Tq. by rewrite tot_value. Qed.
Lemma Tq_eq v : Tq v = (qmix (λ _, 1) v + qv (value_at src v))%Qc.
Proof. unfold Tq. by rewrite tot_value. Qed.
Lemma pq_fin v : pvf pv v = Fin (pq v).
Proof. unfold pq. by destruct (fd_pv FD v) as (q & -> & _). Qed.

Lemma exact_good : qgood up wq Tq pq bq gs_M.
Proof.
  split.
  - intros u v _. apply flux_fin.
  - intros v. unfold bq. destruct (inj v) as [r|] eqn:E; [|done]. by destruct (fd_inj FD v r E) as (q & s & -> & ? & _).
  - intros v. rewrite Tq_eq. apply Qcplus_le_compat; [apply Qcle_refl|]. unfold bq. destruct (inj v) as [r|] eqn:E.
    + by destruct (fd_inj FD v r E) as (q & s & -> & ? & -> & ? & _).
    + by destruct (fd_src FD v) as (q & -> & ?).
  - intros v. unfold pq. by destruct (fd_pv FD v) as (q & -> & ?).
  - done.
Qed.
Lemma w_pos u v : u ∈ up v → (0 < wq u v)%Qc.
Proof. intros [Hf _]%upstream_elem. by apply flux_fin. Qed.

(** A solver state and the rationals it holds. *)
Definition rep (st : @fstate exact) (q : qstate) : Prop := ∀ u, st.1 u = Fin (q.1 u) ∧ st.2 u = Fin (q.2 u).
Definition nonneg (q : qstate) : Prop := unit_c q.2 ∧ ∀ u, (0 <= q.1 u)%Qc.

Lemma nonneg_upd q v : nonneg q → nonneg (qupd q v).
Proof. intros [H1 H2]. by apply (qupd_range _ _ _ _ _ _ exact_good). Qed.

Lemma uc_fin c cq v : (∀ u, c u = Fin (cq u)) → uc n A inj c v = Fin (qmix cq v + bq v)%Qc.
Proof.
  intros H. unfold uc, bq. rewrite (mix_fin c cq) by done. destruct (inj v) as [r|] eqn:E; [|f_equal; ring].
  by destruct (fd_inj FD v r E) as (q & s & -> & _).
Qed.

Lemma run_cell_rep st q v : rep st q → nonneg q →
  ∃ st', run_cell n A pv src inj st v = Ok st' ∧ rep st' (qupd q v).
Proof.
  intros Hr [Hc Ht]. pose proof (uc_fin st.2 q.2 v (λ u, proj2 (Hr u))) as Eu. pose proof (tot_fin v) as ET.
  pose proof exact_good as G. pose proof (T_nonneg _ _ _ _ _ _ G v) as HT.
  assert (0 <= qmix q.2 v)%Qc as Hm by (apply (qmix_nonneg _ _ _ _ _ _ G); intros; apply Hc).
  pose proof (g_b _ _ _ _ _ _ G v) as Hb.
  assert (Tq v = 0 → qmix q.2 v + bq v = 0)%Qc as H0.
  { intros E. pose proof (g_T _ _ _ _ _ _ G v) as H. rewrite E in H.
    assert (qmix q.2 v <= qmix (λ _, 1) v)%Qc by (apply (qmix_le _ _ _ _ _ _ G); intros; apply Hc). apply Qcle_antisym; qclra. }
  assert (cell_ok n A src inj st.2 v = true) as Hok.
  { unfold cell_ok. rewrite Eu, ET. cbn [num nleb neqb exact]. rewrite exact_n0.
    rewrite (proj2 (xleb_Fin _ _) HT). rewrite (proj2 (xleb_Fin 0%Qc (qmix q.2 v + bq v)%Qc)) by qclra. cbn [andb xeqb].
    destruct (Qc_eqb (Tq v) 0) eqn:E; [|done]. cbn. apply Qc_eqb_true in E. rewrite (H0 E). by apply Qc_eqb_true. }
  assert (cellc n A src inj st.2 v = Fin (qcell q.2 v)) as Ec.
  { unfold cellc. rewrite Eu, ET. cbn [num neqb ndiv exact]. rewrite exact_n0. cbn [xeqb].
    unfold GaussSeidel.qcell. destruct (Qc_eqb (Tq v) 0) eqn:E; [apply Qc_eqb_true in E; by rewrite E, qdiv_0|].
    unfold xdiv. by rewrite E. }
  unfold run_cell. rewrite Hok. eexists. split; [done|]. intros u. cbn [upd_cell fst snd GaussSeidel.qupd].
  destruct (decide (u = v)) as [->|Hne]; [|rewrite !fupd_ne by done; apply Hr]. rewrite !fupd_eq, Ec. split; [|done].
  unfold cellt. rewrite ET, pq_fin. destruct gs_consts as (_ & _ & EM & _ & _ & _ & HM). rewrite EM.
  cbn [num nltb ndiv nmul nadd exact]. rewrite exact_n0. unfold xdiv at 1.
  assert (Qc_eqb gs_M 0 = false) as -> by done. cbn [xltb]. unfold GaussSeidel.qtime, capped.
  destruct (Qc_ltb (Tq v) (pq v / gs_M)) eqn:E1; [done|].
  destruct (Qc_ltb 0 (qcell q.2 v)) eqn:E2; [|done]. apply Qc_ltb_true in E2.
  rewrite (mix_fin _ (λ u, q.1 u * q.2 u)%Qc).
  2:{ intros u _. transitivity (xmul (Fin (q.1 u)) (Fin (q.2 u))); [|done]. f_equal; apply Hr. }
  cbn [xmul xadd xdiv].
  assert (Tq v ≠ 0)%Qc as HT0 by (intros E; unfold GaussSeidel.qcell in E2; by rewrite E, qdiv_0 in E2).
  assert (qcell q.2 v ≠ 0)%Qc as Hc0 by (intros E; by rewrite E in E2).
  assert (Qc_eqb (Tq v * qcell q.2 v) 0 = false) as ->; [|done].
  apply Qc_eqb_false. intros E. by apply Qcmult_integral in E as [|].
Qed.

Definition qchange (a b : Qc) : Qc := if decide (a = 0 ↔ b = 0)%Qc then qabs (b - a)%Qc else 1%Qc.
Lemma xmax_Fin a b : @nmax exact (Fin a) (Fin b) = Fin (if Qc_ltb a b then b else a).
Proof. unfold nmax. cbn. by destruct (Qc_ltb a b). Qed.
Lemma qmax_le a b c : ((if Qc_ltb a b then b else a) <= c ↔ a <= c ∧ b <= c)%Qc.
Proof.
  destruct (Qc_ltb a b) eqn:E; [apply Qc_ltb_true in E|apply Qc_ltb_false in E]; split; intros; try split; try tauto; qclra.
Qed.
Lemma change_fin a b : @tracer_change exact (Fin a) (Fin b) = Fin (qchange a b).
Proof.
  unfold tracer_change, zero_change, qchange. cbn [num neqb nabs nsub exact]. rewrite exact_n0, exact_n1. cbn [xeqb].
  destruct (Qc_eqb a 0) eqn:Ea, (Qc_eqb b 0) eqn:Eb; cbn;
    repeat match goal with H : Qc_eqb _ _ = true |- _ => apply Qc_eqb_true in H | H : Qc_eqb _ _ = false |- _ => apply Qc_eqb_false in H end.
  - rewrite decide_True by tauto. unfold qabs, Qcminus. done.
  - rewrite decide_False by tauto. done.
  - rewrite decide_False by tauto. done.
  - rewrite decide_True by tauto. unfold qabs, Qcminus. done.
Qed.

Lemma sweep_rep l st q dt dc : NoDup l → rep st q → nonneg q →
  ∃ st' dt' dc', foldM (run_gs_cell n A pv src inj) (st, Fin dt : @num exact, Fin dc : @num exact) l = Ok (st', Fin dt' : @num exact, Fin dc' : @num exact) ∧
    rep st' (foldl qupd q l) ∧
    (∀ τ, (dt' <= τ ↔ dt <= τ ∧ ∀ v, v ∈ l → qabs ((foldl qupd q l).1 v - q.1 v) <= τ)%Qc) ∧
    (∀ τ, (dc' <= τ ↔ dc <= τ ∧ ∀ v, v ∈ l → qchange (q.2 v) ((foldl qupd q l).2 v) <= τ)%Qc).
Proof.
  intros Hnd. revert st q dt dc. induction Hnd as [|v l Hv Hnd IH]; intros st q dt dc Hr Hq.
  - exists st, dt, dc. split_and!; [done|done| |]; intros τ; (split; [|by intros [? _]]); intros ?; (split; [done|]); by intros v ?%elem_of_nil.
  - destruct (run_cell_rep st q v Hr Hq) as (st1 & E & Hr1). cbn [foldM]. rewrite (run_gs_cell_ok _ _ _ _ _ _ _ _ _ _ E).
    destruct (Hr v) as [-> ->]. destruct (Hr1 v) as [-> ->]. rewrite change_fin.
    change (@nabs exact (@nsub exact (Fin ((qupd q v).1 v)) (Fin (q.1 v)))) with (Fin (qabs ((qupd q v).1 v - q.1 v)%Qc)).
    rewrite !xmax_Fin. cbn [mbind res_bind].
    set (et := if Qc_ltb dt _ then _ else dt). set (ec := if Qc_ltb dc _ then _ else dc).
    destruct (IH st1 (qupd q v) et ec Hr1 (nonneg_upd q v Hq)) as (st' & dt' & dc' & E' & Hr' & Hdt & Hdc).
    exists st', dt', dc'. split; [exact E'|]. cbn [foldl]. split; [done|].
    destruct (foldl_off up wq Tq pq bq gs_M l (qupd q v) v Hv) as [F1 F2].
    assert (∀ u, u ∈ l → (qupd q v).1 u = q.1 u ∧ (qupd q v).2 u = q.2 u) as Hsame.
    { intros u Hu. assert (u ≠ v) by (intros ->; done). cbn. by rewrite !fupd_ne. }
    split; intros τ.
    + rewrite Hdt. unfold et. rewrite qmax_le, <-F1. split.
      * intros [[H1 H2] H3]. split; [done|]. intros u [->|Hu]%elem_of_cons; [done|]. rewrite <-(proj1 (Hsame u Hu)). by apply H3.
      * intros [H1 H2]. split_and!; [done|apply H2; left|]. intros u Hu. rewrite (proj1 (Hsame u Hu)). apply H2. by right.
    + rewrite Hdc. unfold ec. rewrite qmax_le, <-F2. split.
      * intros [[H1 H2] H3]. split; [done|]. intros u [->|Hu]%elem_of_cons; [done|]. rewrite <-(proj2 (Hsame u Hu)). by apply H3.
      * intros [H1 H2]. split_and!; [done|apply H2; left|]. intros u Hu. rewrite (proj2 (Hsame u Hu)). apply H2. by right.
Qed.

Notation qsweep := (qsweep up wq Tq pq bq gs_M).
Notation quiet C := (quiet up wq Tq pq bq gs_M C gs_τt gs_τc).

Lemma nonneg_foldl l q : nonneg q → nonneg (foldl qupd q l).
Proof. revert q. induction l as [|v l IH]; intros q Hq; [done|]. apply IH. by apply nonneg_upd. Qed.

Lemma quiet_iff C q : quiet C q ↔
  (∀ v, v ∈ C → qabs ((qsweep C q).1 v - q.1 v) <= gs_τt)%Qc ∧ (∀ v, v ∈ C → qchange (q.2 v) ((qsweep C q).2 v) <= gs_τc)%Qc.
Proof.
  split.
  - intros H. split; intros v Hv; destruct (H v Hv) as (H1 & H2 & H3); [done|]. unfold qchange. by rewrite decide_True.
  - intros [H1 H2] v Hv. specialize (H1 v Hv). specialize (H2 v Hv). unfold qchange in H2. destruct (decide _); [done|].
    exfalso. destruct gs_consts as (_ & _ & _ & _ & _ & H & _). by apply (Qclt_not_le _ _ H).
Qed.

Lemma loop_rep C k fuel st q dt dc : NoDup C → rep st q → nonneg q → quiet C (Nat.iter k (qsweep C) q) → (k < fuel)%nat →
  ∃ j st', run_loop n A pv src inj fuel C st (Fin dt : @num exact) (Fin dc : @num exact) = Ok st' ∧ rep st' (Nat.iter j (qsweep C) q) ∧
    match j with O => (dt <= gs_τt ∧ dc <= gs_τc)%Qc | S i => quiet C (Nat.iter i (qsweep C) q) end.
Proof.
  intros Hnd. destruct gs_consts as (Et & Ec & _ & Pt & Pc & _).
  assert (∀ dt dc, nltb (@gs_tof_tol exact) (Fin dt) || nltb (@gs_tracer_tol exact) (Fin dc) = false ↔ (dt <= gs_τt ∧ dc <= gs_τc)%Qc) as Hcond.
  { intros x y. rewrite Et, Ec. cbn [num nltb exact]. rewrite orb_false_iff, !xltb_Fin_false. done. }
  revert fuel st q dt dc. induction k as [|k IH]; intros fuel st q dt dc Hr Hq Hk Hf.
  all: destruct fuel as [|fuel]; [lia|]; cbn [run_loop]; destruct (nltb gs_tof_tol (Fin dt : @num exact) || nltb gs_tracer_tol (Fin dc : @num exact)) eqn:E;
    [|exists 0%nat, st; split; [done|split; [done|by apply Hcond]]]; clear E.
  all: unfold run_sweep;
    destruct (sweep_rep C st q 0%Qc 0%Qc Hnd Hr Hq) as (st1 & dt1 & dc1 & E & Hr1 & Hdt & Hdc).
  all: assert (foldM (run_gs_cell n A pv src inj) (st, n0, n0) C = Ok (st1, Fin dt1 : @num exact, Fin dc1 : @num exact)) as E' by (rewrite exact_n0; exact E);
    rewrite E'; cbn [mbind res_bind fst snd].
  all: assert (nonneg (qsweep C q)) as Hq1 by (by apply nonneg_foldl).
  all: assert ((dt1 <= gs_τt ∧ dc1 <= gs_τc)%Qc ↔ quiet C q) as Hquiet
    by (rewrite quiet_iff, Hdt, Hdc; split; [intros [[_ H1] [_ H2]]; done|intros [H1 H2]; split_and!; try done; by apply Qclt_le_weak]).
  - cbn in Hk. exists 1%nat, st1. assert (nltb gs_tof_tol (Fin dt1 : @num exact) || nltb gs_tracer_tol (Fin dc1 : @num exact) = false) as Ef.
    { apply Hcond. by apply Hquiet. }
    split_and!; [|done|done]. destruct fuel; cbn [run_loop]; by rewrite Ef.
  - rewrite Nat.iter_succ_r in Hk. destruct (IH fuel st1 (qsweep C q) dt1 dc1 Hr1 Hq1 Hk) as (j & st' & E2 & Hr2 & Hj); [lia|].
    exists (S j), st'. split_and!; [done|by rewrite Nat.iter_succ_r|]. destruct j as [|i]; [by apply Hquiet|].
    by rewrite Nat.iter_succ_r.
Qed.

Lemma nonneg_iter C k q : nonneg q → nonneg (Nat.iter k (qsweep C) q).
Proof. intros Hq. induction k as [|k IH]; [done|]. cbn. by apply nonneg_foldl. Qed.

(** A cell whose tracer value meets its equation, up to the tolerance. *)
Definition settled (q : qstate) (v : Z) : Prop :=
  (regular A v → 0 <= qmix q.2 v + bq v - Tq v * q.2 v ∧ qmix q.2 v + bq v - Tq v * q.2 v <= gs_τc * qmix (λ _, 1) v)%Qc ∧
  (0 < qmix q.2 v + bq v → 0 < q.2 v)%Qc.

Lemma up_elem u v : u ∈ up v ↔ flows A u v.
Proof.
  unfold up. rewrite upstream_elem. split; [by intros [? _]|]. intros Hf. split; [done|].
  unfold flows in Hf. apply elem_of_list_fmap in Hf as (a & E & Ha).
  pose proof (proj1 (Forall_forall _ _) (fd_ok FD) a Ha) as [H _]. by rewrite <-E in H.
Qed.

Lemma settled_ext q q' v : (∀ u, flows A u v ∨ u = v → q.2 u = q'.2 u) → settled q v → settled q' v.
Proof.
  intros H. unfold settled. rewrite (H v) by (by right).
  rewrite (qmix_ext up wq q.2 q'.2 v); [done|]. intros u Hu. apply H. left. by apply up_elem.
Qed.

(** The same for times-of-flight. *)
Definition tres (q : qstate) (v : Z) : Qc := (pq v * q.2 v + qmix (yf q) v - Tq v * q.2 v * q.1 v)%Qc.
Definition timed (q : qstate) (v : Z) : Prop := regular A v → (0 < q.2 v)%Qc →
  if capped Tq pq gs_M v then q.1 v = gs_M else (0 <= tres q v ∧ tres q v <= gs_τt * qmix (λ _, 1) v + gs_τc * qmix q.1 v)%Qc.

Lemma timed_ext q q' v : (∀ u, flows A u v ∨ u = v → q.1 u = q'.1 u ∧ q.2 u = q'.2 u) → timed q v → timed q' v.
Proof.
  intros H. unfold timed, tres. destruct (H v) as [-> ->]; [by right|].
  assert (∀ u, u ∈ up v → q.1 u = q'.1 u ∧ q.2 u = q'.2 u) as Hu by (intros u Hu; apply H; left; by apply up_elem).
  rewrite (qmix_ext up wq (yf q) (yf q') v) by (intros u Hin; unfold yf; by destruct (Hu u Hin) as [-> ->]).
  rewrite (qmix_ext up wq q.1 q'.1 v) by (intros u Hin; by apply Hu). done.
Qed.

Lemma qupd_single_timed q v : nonneg q → (regular A v → ¬ flows A v v) → timed (qupd q v) v.
Proof.
  intros [Hc Ht] Hreg Hr%Hreg Hp. cbn [GaussSeidel.qupd snd] in Hp. rewrite fupd_eq in Hp. pose proof exact_good as G.
  unfold tres. rewrite (qmix_ext up wq (yf (qupd q v)) (yf q) v).
  2:{ intros u Hu. unfold yf. cbn. rewrite !fupd_ne; [done|intros ->; by apply up_elem in Hu..]. }
  cbn [GaussSeidel.qupd fst snd]. rewrite !fupd_eq. unfold GaussSeidel.qtime. destruct (capped Tq pq gs_M v); [done|].
  rewrite (proj2 (Qc_ltb_true _ _) Hp). change (λ u, q.1 u * q.2 u)%Qc with (yf q).
  assert (Tq v ≠ 0)%Qc as HT0. { intros E0. unfold GaussSeidel.qcell in Hp. rewrite E0, qdiv_0 in Hp. done. }
  assert (qcell q.2 v ≠ 0)%Qc as Hc0 by (intros E0; by rewrite E0 in Hp).
  match goal with |- (0 <= ?x)%Qc ∧ _ => assert (x = 0)%Qc as -> by (by field) end.
  split; [done|]. destruct gs_consts as (_ & _ & _ & Pt & Pc & _).
  assert (0 <= gs_τt * qmix (λ _, 1) v)%Qc by (apply qmul_nonneg; [by apply Qclt_le_weak|apply (win_nonneg _ _ _ _ _ _ G)]).
  assert (0 <= gs_τc * qmix (fupd q.1 v ((pq v * qcell q.2 v + qmix (yf q) v) / (Tq v * qcell q.2 v))) v)%Qc; [|qclra].
  apply qmul_nonneg; [by apply Qclt_le_weak|]. apply (qmix_nonneg _ _ _ _ _ _ G). intros u Hu.
  rewrite fupd_ne; [apply Ht|intros ->; by apply up_elem in Hu].
Qed.

Lemma comp_conn P comps C : ordered A P comps → C ∈ comps → ∀ u v, u ∈ C → v ∈ C → rtc (inside up C) u v.
Proof.
  intros Ho HC u v Hu Hv. pose proof (oc_strong _ _ _ Ho C) as Hs.
  destruct (proj1 (Hs u v HC Hu) Hv) as [Huv Hvu].
  revert Hu. induction Huv as [x|x y z Hxy Hyz IH]; intros Hx; [by apply rtc_refl|].
  assert (y ∈ C) as Hy.
  { apply (Hs x y HC Hx). split; [by apply rtc_once|]. by eapply rtc_transitive. }
  eapply rtc_l; [|apply IH; [done| |done]].
  - split_and!; [by apply up_elem|done|done].
  - apply (Hs z y HC Hv). done.
Qed.

Lemma qupd_single_settled q v : nonneg q → q.2 v = 0%Qc → (regular A v → ¬ flows A v v) → settled (qupd q v) v.
Proof.
  intros [Hc Ht] H0 Hreg. pose proof exact_good as G. pose proof (T_nonneg _ _ _ _ _ _ G v) as HT. pose proof (g_b _ _ _ _ _ _ G v) as Hb.
  assert (0 <= qmix q.2 v)%Qc as Hm by (apply (qmix_nonneg _ _ _ _ _ _ G); intros; apply Hc).
  assert (Tq v * qcell q.2 v = qmix q.2 v + bq v)%Qc as ET.
  { unfold GaussSeidel.qcell. destruct (qle_eq_or_lt _ HT) as [E0|Hp].
    - rewrite E0, Qcmult_0_l. pose proof (g_T _ _ _ _ _ _ G v) as H1. rewrite E0 in H1.
      assert (qmix q.2 v <= qmix (λ _, 1) v)%Qc by (apply (qmix_le _ _ _ _ _ _ G); intros; apply Hc).
      apply Qcle_antisym; qclra.
    - field. intros E0. by rewrite E0 in Hp. }
  unfold settled. cbn [GaussSeidel.qupd snd]. rewrite fupd_eq. split.
  - intros Hself%Hreg. rewrite (qmix_ext up wq (fupd q.2 v (qcell q.2 v)) q.2 v).
    2:{ intros u Hu. apply fupd_ne. intros ->. by apply up_elem in Hu. }
    rewrite ET. split; [qclra|].
    assert (0 <= gs_τc * qmix (λ _, 1) v)%Qc; [|qclra]. apply qmul_nonneg; [done|apply (win_nonneg _ _ _ _ _ _ G)].
  - intros Hp. destruct (qle_eq_or_lt (qcell q.2 v)) as [Ez|]; [by apply (qcell_unit _ _ _ _ _ _ G)| |done].
    exfalso. rewrite Ez in *. rewrite (qmix_ext up wq (fupd q.2 v 0%Qc) q.2 v) in Hp.
    2:{ intros u Hu. destruct (decide (u = v)) as [->|]; [by rewrite fupd_eq|by apply fupd_ne]. }
    rewrite <-ET, Qcmult_0_r in Hp. done.
Qed.

(** One component. *)
Lemma comp_rep P comps C st q : ordered A P comps → C ∈ comps → rep st q → nonneg q → (∀ v, v ∈ C → q.1 v = 0 ∧ q.2 v = 0)%Qc →
  ∃ fuel st' q', run_comp n A pv src inj fuel st C = Ok st' ∧ rep st' q' ∧ nonneg q' ∧
    (∀ u, u ∉ C → q'.1 u = q.1 u ∧ q'.2 u = q.2 u) ∧ (∀ v, v ∈ C → settled q' v ∧ timed q' v).
Proof.
  intros Ho HC Hr Hq Hz. pose proof exact_good as G.
  assert (NoDup C) as Hnd.
  { pose proof (oc_nodup _ _ _ Ho) as H. apply elem_of_list_split in HC as (l1 & l2 & ->). rewrite concat_app in H.
    cbn in H. apply NoDup_app in H as (_ & _ & H). by apply NoDup_app in H as (H & _). }
  assert (∀ fuel, C ≠ [] → (∀ v, C ≠ [v]) → run_comp n A pv src inj fuel st C = run_loop n A pv src inj fuel C st big_delta big_delta) as Hloop.
  { intros fuel H1 H2. destruct C as [|x [|y C']]; [done| |done]. by destruct (H2 x). }
  assert ((∃ v, C = [v]) ∨ ¬ ∃ v, C = [v]) as [[v ->]|Hns].
  { destruct C as [|x [|y C']]; [right; by intros [??]|left; by exists x|right; by intros [??]]. }
  - destruct (run_cell_rep st q v Hr Hq) as (st' & E & Hr'). exists 0%nat, st', (qupd q v). split_and!; [done|done|by apply nonneg_upd| |].
    + intros u Hu. rewrite elem_of_list_singleton in Hu. cbn. by rewrite !fupd_ne.
    + intros u ->%elem_of_list_singleton. assert (regular A v → ¬ flows A v v) as Hreg.
      { intros [|(u & Hne & H1 & H2)]; [done|]. destruct Hne.
        apply elem_of_list_singleton. apply (oc_strong _ _ _ Ho [v] v u HC); [left|done]. }
      split; [|by apply qupd_single_timed]. apply qupd_single_settled; [done|apply Hz; left|done].
  - destruct gs_consts as (_ & _ & _ & Pt & Pc & _).
    assert (fresh C q) as Hfresh by (destruct Hq; by split_and!).
    destruct (gs_quiet up wq Tq pq bq gs_M G w_pos C Hnd (comp_conn P comps C Ho HC) gs_τt gs_τc Pt Pc q Hfresh) as (k & Hk).
    destruct (loop_rep C k (S k) st q (qv big_delta) (qv big_delta) Hnd Hr Hq Hk) as (j & st' & E & Hr' & Hj); [lia|].
    destruct j as [|i]; [exfalso; by destruct Hj|].
    set (qi := Nat.iter i (qsweep C) q) in *.
    exists (S k), st', (qsweep C qi). split_and!.
    + rewrite Hloop; [exact E|exact (proj1 (Forall_forall _ _) (oc_ne _ _ _ Ho) C HC)|]. intros v ->. apply Hns. by exists v.
    + done.
    + apply nonneg_foldl. by apply nonneg_iter.
    + intros u Hu. assert (∀ m, (Nat.iter m (qsweep C) q).1 u = q.1 u ∧ (Nat.iter m (qsweep C) q).2 u = q.2 u) as Hm; [|exact (Hm (S i))].
      induction m as [|m IHm]; [done|].
      destruct (foldl_off up wq Tq pq bq gs_M C (Nat.iter m (qsweep C) q) u Hu) as [F1 F2]. destruct IHm as [<- <-]. split; [exact F1|exact F2].
    + intros v Hv. assert (qsub up wq Tq pq bq gs_M C qi) as Hs.
      { unfold qi. clear Hj Hr' E qi. induction i as [|i IHi]; [by apply (fresh_sub _ _ _ _ _ _ G)|]. cbn [Nat.iter nat_rect].
        apply (foldl_inv up wq Tq pq bq gs_M G C (qsub up wq Tq pq bq gs_M C) (λ q H, H) (λ q v H1 H2, proj1 (qsub_upd up wq Tq pq bq gs_M G C q v H2 H1)) C); [done|exact IHi]. }
      destruct (quiet_residual up wq Tq pq bq gs_M G w_pos C Hnd gs_τt gs_τc Pc qi v Hs Hj Hv) as (H1 & H2 & H3).
      split; [split; [by intros _|done]|]. intros _ Hp.
      exact (quiet_time up wq Tq pq bq gs_M G C Hnd gs_τt gs_τc Pt Pc qi v Hs Hj Hv Hp).
Qed.

(** All components. *)
Theorem exact_run_timed P comps : ordered A P comps →
  ∃ fuel st q, run n A pv src inj fuel comps = Ok st ∧ rep st q ∧ nonneg q ∧
    (∀ v, v ∉ concat comps → q.1 v = 0 ∧ q.2 v = 0)%Qc ∧ (∀ v, v ∈ concat comps → settled q v ∧ timed q v).
Proof.
  intros Ho. 
  assert (∀ l1 l2, comps = l1 ++ l2 → ∃ fuel st q, run n A pv src inj fuel l1 = Ok st ∧ rep st q ∧ nonneg q ∧
    (∀ v, v ∉ concat l1 → q.1 v = 0 ∧ q.2 v = 0)%Qc ∧ (∀ v, v ∈ concat l1 → settled q v ∧ timed q v)) as H; [|apply (H comps []); by rewrite app_nil_r].
  induction l1 as [|C l1 IH] using rev_ind; intros l2 E.
  - exists 0%nat, zero_state, (λ _, 0%Qc, λ _, 0%Qc). split_and!; [done|done| |done|by intros v ?%elem_of_nil]. done.
  - rewrite <-app_assoc in E. cbn in E. destruct (IH (C :: l2) E) as (fuel1 & st1 & q1 & E1 & Hr1 & Hq1 & Hz1 & Hs1).
    assert (C ∈ comps) as HC by (rewrite E; apply elem_of_app; right; left).
    pose proof (oc_nodup _ _ _ Ho) as Hnd. rewrite E, concat_app in Hnd. cbn in Hnd. apply NoDup_app in Hnd as (_ & Hd & _).
    assert (∀ v, v ∈ C → v ∉ concat l1) as Hd'. { intros v Hv H1. apply (Hd v H1). apply elem_of_app. by left. }
    destruct (comp_rep P comps C st1 q1 Ho HC Hr1 Hq1) as (fuel2 & st2 & q2 & E2 & Hr2 & Hq2 & Hoff & Hs2).
    { intros v Hv. apply Hz1. by apply Hd'. }
    exists (fuel1 `max` fuel2)%nat, st2, q2. split_and!; [|done|done| |].
    + unfold run. rewrite foldM_app. fold (run n A pv src inj (fuel1 `max` fuel2)%nat l1).
      rewrite (run_fuel n A pv src inj l1 fuel1); [|lia|by rewrite E1]. rewrite E1. cbn [mbind res_bind foldM].
      rewrite (comp_fuel n A pv src inj C fuel2); [|lia|by rewrite E2]. by rewrite E2.
    + intros v Hv. rewrite concat_app, elem_of_app in Hv. cbn in Hv. rewrite app_nil_r in Hv.
      destruct (Hoff v) as [-> ->]; [tauto|]. apply Hz1. tauto.
    + intros v Hv. rewrite concat_app, elem_of_app in Hv. cbn in Hv. rewrite app_nil_r in Hv. destruct Hv as [Hv|Hv]; [|by apply Hs2].
      assert (∀ u, flows A u v ∨ u = v → q1.1 u = q2.1 u ∧ q1.2 u = q2.2 u) as Hkeep;
        [|split; [apply (settled_ext q1); [intros; by apply Hkeep|by apply Hs1]|apply (timed_ext q1); [done|by apply Hs1]]].
      intros u Hu. assert (u ∉ C) as HuC; [|by destruct (Hoff u HuC) as [-> ->]]. intros HuC.
      assert (u ∈ concat l1) as Hin; [|by apply (Hd' u HuC)]. destruct Hu as [Hu| ->]; [|done].
      pose proof Hv as (D & HvD & HD)%elem_concat.
      apply elem_of_list_lookup in HD as [j Hj]. pose proof (lookup_lt_Some _ _ _ Hj) as Hlt.
      destruct (oc_topo _ _ _ Ho j D u v) as (i & D' & Hi & HuD & Hij); [by rewrite E, lookup_app_l|done|done| |].
      { apply elem_concat. by exists C. }
      rewrite E, lookup_app_l in Hi by lia. apply elem_concat. exists D'. split; [done|]. by eapply elem_of_list_lookup_2.
Qed.
Theorem exact_run P comps : ordered A P comps →
  ∃ fuel st q, run n A pv src inj fuel comps = Ok st ∧ rep st q ∧ nonneg q ∧
    (∀ v, v ∉ concat comps → q.1 v = 0 ∧ q.2 v = 0)%Qc ∧ (∀ v, v ∈ concat comps → settled q v).
Proof.
  intros Ho. destruct (exact_run_timed P comps Ho) as (fuel & st & q & H1 & H2 & H3 & H4 & H5).
  exists fuel, st, q. split_and!; try done. intros v Hv. by apply H5.
Qed.
End exact.
