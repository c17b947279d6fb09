(** Sums of tracer values over wells and over cells, in exact arithmetic. *)
From Coq Require Import QArith Qcanon.
From Verif.Model Require Import Base Num OMap Containers Solution AssembledConnections Tarjan TracerTofSolver Toolbox DerivedQuantities.
From Verif.Spec Require Import ToolboxSpec MirrorSpec DerivedSpec.
From Verif.Proofs Require Import Util OMapFacts ExactNum QcLra OrdLaws ToolboxState ToolboxRates SolverBase SolverRun SolverTop SolverGen
  ToolboxFlow ToolboxVal ToolboxSane ToolboxThms GaussSeidel ExactRun ToolboxExact.
Open Scope Z_scope.

Section sums.
Local Open Scope Qc_scope.
Lemma qsum_filter0 {X} (P : X → Prop) `{∀ x, Decision (P x)} (f : X → Qc) l :
  (∀ x, x ∈ l → ¬ P x → f x = 0) → qsum (map f (filter P l)) = qsum (map f l).
Proof.
  induction l as [|x l IH]; intros H0; [done|]. rewrite filter_cons. destruct (decide (P x)) as [Hx|Hx]; cbn [map].
  - unfold qsum in *. cbn. rewrite IH; [done|]. intros; apply H0; [by right|done].
  - rewrite IH by (intros; apply H0; [by right|done]). unfold qsum. cbn. rewrite (H0 x) by (left || done). ring.
Qed.
Lemma qsum_0 {X} (f : X → Qc) l : (∀ x, x ∈ l → f x = 0) → qsum (map f l) = 0.
Proof. intros H. rewrite (qsum_ext f (λ _, 0 * 0)) by (intros; rewrite H by done; ring). rewrite qsum_scale. ring. Qed.
Lemma qsum_swap {X Y} (f : X → Y → Qc) l l' :
  qsum (map (λ x, qsum (map (f x) l')) l) = qsum (map (λ y, qsum (map (λ x, f x y) l)) l').
Proof.
  induction l as [|x l IH].
  { symmetry. by apply (qsum_0 (λ y, qsum (map (λ x, f x y) [])) l'). }
  cbn [map]. unfold qsum at 1. cbn [foldr]. fold (qsum (map (λ x, qsum (map (f x) l')) l)).
  rewrite IH, <-qsum_plus. by apply qsum_ext.
Qed.
Lemma qsum_one (l : list Z) k a : NoDup l → qsum (map (λ v, if decide (v = k) then a else 0) l) = if decide (k ∈ l) then a else 0.
Proof.
  induction 1 as [|x l Hx Hl IH]; [by rewrite decide_False by apply not_elem_of_nil|]. cbn [map].
  unfold qsum. cbn [foldr]. fold (qsum (map (λ v, if decide (v = k) then a else 0) l)). rewrite IH.
  destruct (decide (x = k)) as [->|Hne].
  - rewrite (decide_False (P := k ∈ l)) by done. rewrite decide_True by left. ring.
  - destruct (decide (k ∈ l)) as [Hk|Hk]; [rewrite decide_True by (by right)|rewrite decide_False by (intros [?|?]%elem_of_cons; congruence)]; ring.
Qed.
(** A sum over the entries of a map as a sum over all keys. *)
Lemma qsum_map_keys {V} (h : Z → V → Qc) (m : smap Z V) l : om_wf m → NoDup l → (∀ k x, (k, x) ∈ m → k ∉ l → h k x = 0) →
  qsum (map (λ e : Z * V, h e.1 e.2) m) = qsum (map (λ v, match om_find v m with Some x => h v x | None => 0 end) l).
Proof.
  intros Hm Hl. revert Hm. induction m as [|[k x] m IH]; intros Hm H0; [symmetry; by apply qsum_0|].
  assert (om_wf m) as Hm' by (unfold om_wf in *; cbn in Hm; by inv Hm).
  cbn [map fst snd]. unfold qsum at 1. cbn [foldr]. fold (qsum (map (λ e : Z * V, h e.1 e.2) m)).
  rewrite IH; [|done|]. 2:{ intros k' x' Hin. apply H0. by right. }
  assert (h k x = if decide (k ∈ l) then h k x else 0) as E.
  { destruct (decide (k ∈ l)) as [Hk|Hk]; [done|]. apply H0; [left|done]. }
  rewrite E, <-(qsum_one l k (h k x)) by done. rewrite <-qsum_plus. apply qsum_ext. intros v _.
  destruct (decide (v = k)) as [->|Hne].
  - assert (om_find k ((k, x) :: m) = Some x) as -> by (apply om_find_elem; [done|left]).
    assert (om_find k m = None) as ->; [|ring]. apply om_find_none; [done|]. intros Hin.
    unfold om_wf in Hm. cbn in Hm. inv Hm. match goal with H : Forall _ (map fst m) |- _ => 
      pose proof (proj1 (Forall_forall _ _) H k Hin) as Hlt end. unfold klt in Hlt. by rewrite kcmp_refl in Hlt.
  - assert (om_find v ((k, x) :: m) = om_find v m) as ->; [|ring].
    destruct (om_find v m) as [y|] eqn:Ev.
    + apply om_find_elem; [done|]. right. by apply om_find_elem in Ev.
    + apply om_find_none; [done|]. apply om_find_none in Ev; [|done]. cbn. by intros [?|?]%elem_of_cons.
Qed.
End sums.

Section duality.
Context (p : @problem exact) (g : cgraph) (f : cvalues) (Hp : valid p) (HP : poses p g f).
Context (HD : data finite p) (HV : pores_ok p).
Notation n := (pb_cells p).
Notation m := (pb_rates p).
Notation src d := (only d (split_rates m)).
Notation all := (seqZ 0 n).
Local Notation fin x := (Fin x : @num exact).
Local Open Scope Qc_scope.

(** Concentration, rate, total and flux as rationals. *)
Definition cq (sol : solution) (id : cellset_id) (v : Z) : Qc := qv (value_at (sol_concentration sol id) v).
Definition rq (d : direction) (id : cellset_id) (v : Z) : Qc := match well_rate d m id v with Some r => qv r | None => 0 end.
Definition Tt (d : direction) (v : Z) : Qc := qv (total_in p d v).
Definition Wt (d : direction) (u v : Z) : Qc := qv (arc_flux (flow d p) u v).

Lemma Wt_none d u v : ¬ flows (flow d p) u v → Wt d u v = 0.
Proof.
  intros H. unfold Wt, arc_flux. assert (omap (λ a : arc, if decide (a.1 = (u, v)) then Some a.2 else None) (flow d p) = []) as ->; [|done].
  destruct (omap _ _) as [|x l] eqn:E; [done|]. exfalso. assert (x ∈ x :: l) as Hx by left. rewrite <-E in Hx.
  apply elem_of_list_omap in Hx as (a & Ha & Hx). destruct (decide (a.1 = (u, v))) as [Eq|]; [|done].
  apply H. unfold flows. rewrite <-Eq. by apply elem_of_list_fmap_1.
Qed.
Lemma qmix_all d h v : qmix (up n (flow d p)) (wq (flow d p)) h v = qsum (map (λ u, h u * Wt d u v) all).
Proof.
  unfold qmix, up, upstream. change (wq (flow d p)) with (Wt d). apply qsum_filter0. intros u _ Hu. rewrite Wt_none by done. ring.
Qed.
Lemma Wt_nonneg d u v : 0 <= Wt d u v.
Proof. apply (flux_fin _ _ _ _ _ (finite_global p Hp HD HV d)). Qed.
Lemma Wt_turn d u v : Wt (match d with Injection => Production | Production => Injection end) u v = Wt d v u.
Proof. unfold Wt. destruct d; cbn [flow]; by rewrite turn_flux. Qed.

(** The tracer equation, its residual made explicit, in all cells. *)
Lemma residual d ev sets sol id : diagnose d ev g p f sets = Ok (OSol sol) → id ∈ map cs_id sets →
  (∀ v, value_at (sol_concentration sol id) v = Fin (cq sol id v)) ∧
  (∀ v, 0 <= cq sol id v ∧ cq sol id v <= 1) ∧
  ∀ v, ∃ e, Tt d v * cq sol id v + e = qsum (map (λ u, cq sol id u * Wt d u v) all) + rq d id v ∧
    (acyclic (net_arcs p) → e = 0) ∧
    (regular (flow d p) v → 0 <= e ∧ e <= gs_τc * qsum (map (λ u, Wt d u v) all)).
Proof.
  intros H Hid.
  destruct (local_values p g f Hp HP HD HV d ev sets sol id H Hid) as (inj & comps & st & q & Hinj & Ho & Hrun & Hrep & Hn & Hs & Ht & Hc & Hval).
  pose proof (finite_local p Hp HD HV d id inj Hinj) as FD.
  assert (∀ v, cq sol id v = q.2 v) as Hcq by (intros v; unfold cq; by rewrite Hval).
  split; [intros v; by rewrite Hcq|]. split; [intros v; rewrite Hcq; apply Hn|].
  assert (∀ v, bq inj v = rq d id v) as Hb by (intros v; unfold bq, rq; by rewrite Hinj).
  assert (∀ v, Tq n (flow d p) (src d) inj v = Tt d v) as HT by (intros v; unfold Tt; by rewrite (total_tot p Hp HD HV d id inj v Hinj)).
  intros v. rewrite (qsum_ext _ (λ u, q.2 u * Wt d u v)) by (intros u _; by rewrite Hcq). rewrite <-qmix_all, Hcq.
  set (mx := qmix _ _ q.2 v). 
  assert (qmix (up n (flow d p)) (wq (flow d p)) (λ _, 1) v = qsum (map (λ u, Wt d u v) all)) as H1.
  { rewrite qmix_all. apply qsum_ext. intros; ring. }
  assert (0 <= qsum (map (λ u, Wt d u v) all)) as Hin0 by (apply qsum_map_nonneg; intros; apply Wt_nonneg).
  destruct (decide (v ∈ concat comps)) as [Hv|Hv].
  - destruct (Hs v Hv) as [Hpos [Hset _]]. exists (mx + rq d id v - Tt d v * q.2 v). split; [ring|]. split.
    + intros Hac. pose proof (acyclic_flow p d Hac) as Hac'.
      destruct (run_acyclic _ _ _ _ _ _ _ _ _ Ho Hac' Hrun) as [R1 _]. destruct (Hset) as [He1 He2].
      { left. intros Hf. apply (Hac' v). by apply tc_once. }
      destruct (R1 v Hv) as (E & _ & _). unfold cellc in E. rewrite (tot_fin _ _ _ _ _ FD) in E.
      rewrite (uc_fin _ _ _ _ _ FD st.2 q.2 v) in E by (intros u; apply Hrep). rewrite (proj2 (Hrep v)) in E.
      rewrite exact_n0 in E. fold mx in E. rewrite HT, Hb in E.
      destruct (Qc_eq_dec (Tt d v) 0) as [E0|E0].
      { exfalso. rewrite E0 in E. change (@neqb exact (Fin 0) (Fin 0)) with true in E. cbn iota in E. injection E as E. by rewrite E in Hpos. }
      change (@neqb exact (Fin (Tt d v)) (Fin 0)) with (Qc_eqb (Tt d v) 0) in E. rewrite (proj2 (Qc_eqb_false _ _) E0) in E.
      cbn [ndiv exact] in E. unfold xdiv in E. rewrite (proj2 (Qc_eqb_false _ _) E0) in E. injection E as E. rewrite E. field. done.
    + intros Hr. rewrite <-H1. rewrite <-HT, <-Hb. by apply Hset.
  - assert (q.2 v = 0) as Ez.
    { specialize (Hc v). rewrite decide_False in Hc by done. pose proof (Hval v) as Hv2. unfold value_at in Hv2. rewrite Hc, exact_n0 in Hv2. by injection Hv2. }
    assert (mx = 0) as Em.
    { unfold mx. rewrite qmix_all. apply qsum_0. intros u _. destruct (decide (flows (flow d p) u v)) as [Hf|Hf]; [|rewrite Wt_none by done; ring].
      assert (q.2 u = 0) as ->; [|ring]. destruct (decide (u ∈ concat comps)) as [Hu|Hu].
      - exfalso. apply Hv. apply (oc_cover _ _ _ Ho). apply (oc_cover _ _ _ Ho) in Hu as (r & Hr & Hl). exists r. split; [done|]. by eapply rtc_r.
      - specialize (Hc u). rewrite decide_False in Hc by done. pose proof (Hval u) as Hv2. unfold value_at in Hv2. rewrite Hc, exact_n0 in Hv2. by injection Hv2. }
    assert (rq d id v = 0) as Er.
    { unfold rq. destruct (well_rate d m id v) as [r|] eqn:E; [|done]. exfalso. apply Hv. apply (oc_cover _ _ _ Ho). exists v. split; [by eexists|]. apply rtc_refl. }
    exists 0. rewrite Em, Er, Ez. split; [ring|]. split; [done|]. intros _. split; [by apply Qcle_refl|].
    apply qmul_nonneg; [apply Qclt_le_weak; apply gs_consts|done].
Qed.

(** Induction along the flow. *)
Lemma topo_ind d ev sets sol (Q : Z → Prop) : acyclic (net_arcs p) → diagnose d ev g p f sets = Ok (OSol sol) →
  (∀ v, (0 ≤ v < n)%Z → (∀ u, flows (flow d p) u v → Q u) → Q v) → ∀ v, (0 ≤ v < n)%Z → Q v.
Proof.
  intros Hac H Hstep. pose proof (acyclic_flow p d Hac) as Hac'.
  destruct (diagnose_global p g f Hp HP d ev sets sol H) as (comps & st & Ho & _ & _).
  assert (∀ j v, comps !! j = Some [v] → Q v) as HQ.
  { intros j. induction (lt_wf j) as [j _ IH]. intros v Hj. assert (v ∈ concat comps) as Hv.
    { apply elem_concat. exists [v]. split; [left|]. by eapply elem_of_list_lookup_2. }
    apply Hstep; [by apply (oc_cover _ _ _ Ho)|]. intros u Hf.
    assert ((0 ≤ u < n)%Z) as Hu.
    { pose proof (flow_arcs p Hp d) as HA. unfold flows in Hf. apply elem_of_list_fmap in Hf as (a & E & Ha).
      pose proof (proj1 (Forall_forall _ _) HA a Ha) as [Hr _]. by rewrite <-E in Hr. }
    destruct (oc_topo _ _ _ Ho j [v] u v Hj ltac:(left) Hf) as (i & C & Hi & HuC & Hij); [by apply (oc_cover _ _ _ Ho)|].
    destruct (acyclic_comps _ _ _ C Ho Hac') as [u' ->]; [by eapply elem_of_list_lookup_2|]. apply elem_of_list_singleton in HuC as <-.
    apply (IH i); [|done]. assert (i ≠ j); [|lia]. intros ->. rewrite Hj in Hi. injection Hi as <-. apply (Hac' v). by apply tc_once. }
  intros v Hv. apply (oc_cover _ _ _ Ho) in Hv. apply elem_concat in Hv as (C & HvC & HC).
  destruct (acyclic_comps _ _ _ C Ho Hac' HC) as [v' ->]. apply elem_of_list_singleton in HvC as <-.
  apply elem_of_list_lookup in HC as [j Hj]. by apply (HQ j).
Qed.

Lemma total_fin d v : total_in p d v = fin (qsum (map (λ u, Wt d u v) all) + qsum (map (λ id, rq d id v) (map fst m))).
Proof.
  unfold total_in. rewrite (influx_fin _ _ _ _ _ (finite_global p Hp HD HV d)), qmix_all.
  rewrite (qsum_ext _ (λ u, Wt d u v)) by (intros; ring).
  unfold cell_total, cell_rates. assert (sum_left (omap (λ id, well_rate d m id v) (map fst m)) = fin (qsum (map (λ id, rq d id v) (map fst m)))) as ->; [|done].
  pose proof (sum_left_fin (λ x, x) qv (omap (λ id, well_rate d m id v) (map fst m))) as E. rewrite map_id in E. rewrite E.
  2:{ intros x (id & _ & Hx)%elem_of_list_omap. destruct (rate_fin p Hp HD d id v x Hx) as (q & -> & _). done. }
  f_equal. clear E. generalize (map fst m). intros l. induction l as [|id l IH]; [done|]. cbn [omap list_omap map]. unfold rq at 1.
  unfold qsum in *. destruct (well_rate d m id v); cbn [map foldr]; rewrite <-IH; [done|ring].
Qed.
Lemma Tt_eq d v : Tt d v = qsum (map (λ u, Wt d u v) all) + qsum (map (λ id, rq d id v) (map fst m)).
Proof. unfold Tt. by rewrite total_fin. Qed.

(** C39 *)
Lemma partition d ev sets sol : acyclic (net_arcs p) → diagnose d ev g p f sets = Ok (OSol sol) →
  (∀ id, is_well d m id → id ∈ map cs_id sets) →
  (∀ u v, flows (flow d p) u v → nltb n0 (total_in p d u) = true) →
  ∀ v, (0 ≤ v < n)%Z → nltb n0 (total_in p d v) = true →
  sum_left (map (λ id, value_at (sol_concentration sol id) v) (map fst m)) = n1.
Proof.
  intros Hac H Hall Hin.
  assert (∀ id, (∀ v, value_at (sol_concentration sol id) v = fin (cq sol id v)) ∧
    ∀ v, Tt d v * cq sol id v = qsum (map (λ u, cq sol id u * Wt d u v) all) + rq d id v) as Heq.
  { intros id. destruct (decide (id ∈ map cs_id sets)) as [Hid|Hid].
    - destruct (residual d ev sets sol id H Hid) as (H1 & _ & H3). split; [done|]. intros v.
      destruct (H3 v) as (e & He & H0 & _). rewrite H0 in He by done. rewrite <-He. ring.
    - destruct (diagnose_other p g f Hp HP d ev sets sol id H Hid) as [_ E]. assert (∀ v, cq sol id v = 0) as Hz by (intros v; unfold cq; by rewrite E).
      split; [intros v; by rewrite Hz, E|]. intros v.
      rewrite Hz. rewrite qsum_0 by (intros; rewrite Hz; ring). unfold rq. destruct (well_rate d m id v) as [x|] eqn:Ex; [|ring].
      exfalso. apply Hid, Hall. by exists v, x. }
  assert (∀ v, nltb n0 (total_in p d v) = true → 0 < Tt d v) as HT.
  { intros v Hv. unfold Tt. rewrite total_fin, exact_n0 in Hv. rewrite total_fin. by apply xltb_Fin in Hv. }
  set (S := λ v, qsum (map (λ id, cq sol id v) (map fst m))).
  assert (∀ v, (0 ≤ v < n)%Z → nltb n0 (total_in p d v) = true → S v = 1) as HS.
  { apply (topo_ind d ev sets sol (λ v, nltb n0 (total_in p d v) = true → S v = 1) Hac H). intros v Hv IH Hpos.
    assert (Tt d v * S v = Tt d v) as E.
    { unfold S. rewrite <-qsum_scale. rewrite (qsum_ext _ (λ id, qsum (map (λ u, cq sol id u * Wt d u v) all) + rq d id v)) by (intros; apply Heq).
      rewrite qsum_plus, qsum_swap, Tt_eq. f_equal. apply qsum_ext. intros u _.
      destruct (decide (flows (flow d p) u v)) as [Hf|Hf].
      - rewrite (qsum_ext _ (λ id, Wt d u v * cq sol id u)) by (intros; ring). rewrite qsum_scale.
        change (qsum (map (λ id, cq sol id u) (map fst m))) with (S u). rewrite (IH u Hf) by (by eapply Hin). ring.
      - rewrite Wt_none by done. apply qsum_0. intros; ring. }
    pose proof (HT v Hpos) as Hp0. assert (Tt d v ≠ 0) as Hne by (intros E0; by rewrite E0 in Hp0).
    transitivity (Tt d v * S v / Tt d v); [field; done|]. rewrite E. field; done. }
  intros v Hv Hpos. rewrite (sum_left_fin _ (λ id, cq sol id v)) by (intros; apply Heq).
  rewrite exact_n1. f_equal. exact (HS v Hv Hpos).
Qed.

(** C48 *)
Lemma pair_sum (tr vals : cellset_values) d (c : Z → Qc) id : om_find id m = Some vals →
  (∀ v, value_at tr v = fin (c v)) →
  pair_flux_sum tr vals (match d with Injection => true | Production => false end) =
    fin ((match d with Injection => 1 | Production => - (1) end) * qsum (map (λ v, rq d id v * c v) all)).
Proof.
  intros Hvals Hc. pose proof (va_rates _ Hp) as [Hm1 Hm2].
  pose proof Hvals as Hin. apply om_find_elem in Hin; [|done]. pose proof (proj1 (Forall_forall _ _) Hm2 _ Hin) as Hw. cbn in Hw.
  set (sg := match d with Injection => 1 | Production => - (1) end).
  assert (∀ (l : list (Z * @num exact)), (∀ e, e ∈ l → e ∈ vals) → ∀ a,
    foldl (λ flux kv, match om_find kv.1 tr with
      | Some t => if Bool.eqb (nltb n0 kv.2) (match d with Injection => true | Production => false end) then nadd flux (nmul kv.2 t) else flux
      | None => flux end) (fin a) l =
    fin (a + sg * qsum (map (λ e : Z * @num exact, match rate_part d e.2 with Some r => qv r | None => 0 end * c e.1) l))) as Hf.
  { induction l as [|[k x] l IH]; intros Hl a; cbn [foldl map fst snd].
    { unfold qsum. cbn. f_equal. ring. }
    destruct (da_rates _ _ HD _ _ Hin (Hl (k, x) ltac:(left))) as [y Ey]. cbn in Ey. subst x.
    assert (∀ e, e ∈ l → e ∈ vals) as Hl' by (intros; apply Hl; by right).
    assert (match om_find k tr with
      | Some t => if Bool.eqb (nltb n0 (fin y)) (match d with Injection => true | Production => false end) then nadd (fin a) (nmul (fin y) t) else fin a
      | None => fin a end = fin (a + sg * (match rate_part d (fin y) with Some r => qv r | None => 0 end * c k))) as ->.
    2:{ rewrite (IH Hl'). unfold qsum. cbn [foldr]. f_equal. ring. }
    pose proof (Hc k) as Hk. unfold value_at in Hk. destruct (om_find k tr) as [t|].
    2:{ rewrite exact_n0 in Hk. injection Hk as <-. f_equal. ring. }
    subst t. unfold rate_part, sg. rewrite exact_n0. change (@nltb exact (Fin 0) (Fin y)) with (Qc_ltb 0 y).
    change (@nltb exact (Fin y) (Fin 0)) with (Qc_ltb y 0). cbn [num nadd nmul nopp exact xadd xmul xopp].
    destruct d, (Qc_ltb 0 y) eqn:E1; cbn [Bool.eqb qv]; try (f_equal; ring).
    destruct (Qc_ltb y 0) eqn:E2; cbn [qv]; [f_equal; ring|]. apply Qc_ltb_false in E1. apply Qc_ltb_false in E2.
    assert (y = 0) as -> by (by apply Qcle_antisym). f_equal; ring. }
  unfold pair_flux_sum. etransitivity; [exact (Hf vals (λ e H, H) 0)|]. f_equal.
  rewrite (qsum_map_keys (λ k x, match rate_part d x with Some r => qv r | None => 0 end * c k) vals all); [|done|apply NoDup_seqZ|].
  - rewrite (qsum_ext _ (λ v, rq d id v * c v)); [ring|]. intros v _. unfold rq, well_rate. rewrite Hvals. destruct (om_find v vals); ring.
  - intros k x Hkx Hk. destruct (rate_part d x) as [r|] eqn:Er; [|ring]. exfalso. apply Hk. apply elem_of_seqZ.
    apply om_find_elem in Hkx; [|done]. pose proof (va_cellrates _ Hp d id k r). unfold well_rate in H. rewrite Hvals, Hkx in H. specialize (H Er). lia.
Qed.

Definition er (d : direction) (sol : solution) (id : cellset_id) (v : Z) : Qc :=
  qsum (map (λ u, cq sol id u * Wt d u v) all) + rq d id v - Tt d v * cq sol id v.
Definition infl (d : direction) (v : Z) : Qc := qsum (map (λ u, Wt d u v) all).

Lemma well_found d ev sets sol id : diagnose d ev g p f sets = Ok (OSol sol) → id ∈ map cs_id sets → ∃ vals, om_find id m = Some vals.
Proof.
  intros H Hid. destruct (diagnose_eq p g f Hp HP d) as (s & HS & E). rewrite E in H.
  destruct (start_sets_ok _ _ sets) eqn:Es; [|done]. pose proof (proj1 (start_sets_iff d m sets (va_rates _ Hp)) Es) as Es'. clear Es.
  apply elem_of_list_fmap in Hid as (st & -> & Hst). destruct (Es' st Hst) as [(c & x & Hx) _]. unfold well_rate in Hx.
  destruct (om_find (cs_id st) m) as [vals|]; [by exists vals|done].
Qed.

Lemma pair_duality ev ev' sets sets' sol sol' i j :
  diagnose Injection ev g p f sets = Ok (OSol sol) → diagnose Production ev' g p f sets' = Ok (OSol sol') →
  i ∈ map cs_id sets → j ∈ map cs_id sets' → conserves p →
  ∃ x y, pair_flux sol sol' i j m = Ok (fin x, fin y) ∧
    x + y = qsum (map (λ v, cq sol' j v * er Injection sol i v) all) - qsum (map (λ v, cq sol i v * er Production sol' j v) all).
Proof.
  intros H H' Hi Hj Hcons.
  destruct (residual _ _ _ _ _ H Hi) as (V1 & _ & _). destruct (residual _ _ _ _ _ H' Hj) as (V2 & _ & _).
  destruct (well_found _ _ _ _ _ H Hi) as [vi Evi]. destruct (well_found _ _ _ _ _ H' Hj) as [vj Evj].
  exists (1 * qsum (map (λ v, rq Injection i v * cq sol' j v) all)), (- (1) * qsum (map (λ v, rq Production j v * cq sol i v) all)).
  split.
  { unfold pair_flux. rewrite Evi, Evj. rewrite (pair_sum _ vi Injection (cq sol' j) i Evi V2). by rewrite (pair_sum _ vj Production (cq sol i) j Evj V1). }
  set (c := cq sol i). set (d := cq sol' j).
  assert (qsum (map (λ v, d v * er Injection sol i v) all) =
    qsum (map (λ v, qsum (map (λ u, d v * c u * Wt Injection u v) all)) all) + qsum (map (λ v, rq Injection i v * d v) all)
      + - (1) * qsum (map (λ v, Tt Injection v * c v * d v) all)) as ->.
  { rewrite <-qsum_scale, <-!qsum_plus. apply qsum_ext. intros v _. unfold er. fold c.
    rewrite (qsum_ext (λ u, d v * c u * Wt Injection u v) (λ u, d v * (c u * Wt Injection u v))) by (intros; ring). rewrite qsum_scale. ring. }
  assert (qsum (map (λ v, c v * er Production sol' j v) all) =
    qsum (map (λ v, qsum (map (λ u, d v * c u * Wt Injection u v) all)) all) + qsum (map (λ v, rq Production j v * c v) all)
      + - (1) * qsum (map (λ v, Tt Injection v * c v * d v) all)) as ->; [|ring].
  rewrite qsum_swap, <-qsum_scale, <-!qsum_plus. apply qsum_ext. intros v Hv%elem_of_seqZ. unfold er. fold d.
  rewrite (qsum_ext (λ u, d u * c v * Wt Injection v u) (λ u, c v * (d u * Wt Production u v))).
  2:{ intros u _. rewrite <-(Wt_turn Injection). ring. }
  rewrite qsum_scale. assert (Tt Injection v = Tt Production v) as ->; [|ring]. unfold Tt. by rewrite Hcons by lia.
Qed.

Lemma er_zero d ev sets sol id v : diagnose d ev g p f sets = Ok (OSol sol) → id ∈ map cs_id sets → acyclic (net_arcs p) → er d sol id v = 0.
Proof.
  intros H Hid Hac. destruct (residual _ _ _ _ _ H Hid) as (_ & _ & E). destruct (E v) as (e & He & H0 & _). rewrite (H0 Hac) in He.
  unfold er. rewrite <-He. ring.
Qed.
Lemma er_bound d ev sets sol id v : diagnose d ev g p f sets = Ok (OSol sol) → id ∈ map cs_id sets → regular (flow d p) v →
  0 <= er d sol id v ∧ er d sol id v <= gs_τc * infl d v.
Proof.
  intros H Hid Hr. destruct (residual _ _ _ _ _ H Hid) as (_ & _ & E). destruct (E v) as (e & He & _ & Hb).
  assert (er d sol id v = e) as -> by (unfold er; rewrite <-He; ring). by apply Hb.
Qed.

Lemma total_infl : qsum (map (infl Production) all) = qsum (map (infl Injection) all).
Proof.
  unfold infl. rewrite qsum_swap. apply qsum_ext. intros v _. apply qsum_ext. intros u _. apply (Wt_turn Injection).
Qed.

(** C48 *)
Lemma pair_acyclic ev ev' sets sets' sol sol' i j : acyclic (net_arcs p) → conserves p →
  diagnose Injection ev g p f sets = Ok (OSol sol) → diagnose Production ev' g p f sets' = Ok (OSol sol') →
  i ∈ map cs_id sets → j ∈ map cs_id sets' → 
  ∃ x, pair_flux sol sol' i j m = Ok (fin x, fin (- x)).
Proof.
  intros Hac Hc H H' Hi Hj. destruct (pair_duality _ _ _ _ _ _ i j H H' Hi Hj Hc) as (x & y & E & Exy). exists x. rewrite E.
  rewrite qsum_0 in Exy by (intros v _; rewrite (er_zero _ _ _ _ _ _ H) by done; ring).
  rewrite qsum_0 in Exy by (intros v _; rewrite (er_zero _ _ _ _ _ _ H') by done; ring).
  do 3 f_equal. apply (f_equal (λ z, z - x)) in Exy. transitivity (x + y - x); [ring|]. rewrite Exy. ring.
Qed.
Lemma pair_cyclic ev ev' sets sets' sol sol' i j : (∀ v, (0 ≤ v < n)%Z → ¬ flows (net_arcs p) v v) → conserves p →
  diagnose Injection ev g p f sets = Ok (OSol sol) → diagnose Production ev' g p f sets' = Ok (OSol sol') →
  i ∈ map cs_id sets → j ∈ map cs_id sets' → 
  ∃ x y, pair_flux sol sol' i j m = Ok (fin x, fin y) ∧
    - (gs_τc * qsum (map (infl Injection) all)) <= x + y ∧ x + y <= gs_τc * qsum (map (infl Injection) all).
Proof.
  intros Hself Hc H H' Hi Hj. destruct (pair_duality _ _ _ _ _ _ i j H H' Hi Hj Hc) as (x & y & E & Exy). exists x, y. split; [done|]. rewrite Exy.
  destruct (residual _ _ _ _ _ H Hi) as (_ & R1 & _). destruct (residual _ _ _ _ _ H' Hj) as (_ & R2 & _).
  assert (∀ d v, v ∈ all → regular (flow d p) v) as Hreg.
  { intros d v Hv%elem_of_seqZ. left. intros Hf. apply (Hself v); [lia|]. destruct d; [done|]. cbn [flow] in Hf. unfold flows in *.
    unfold turn in Hf. rewrite map_map in Hf. apply elem_of_list_fmap in Hf as ([[a b] w] & Eq & Ha). cbn in Eq. injection Eq as <- <-.
    apply elem_of_list_fmap. by exists (v, v, w). }
  assert (∀ (d : direction) e (h k : Z → Qc), (∀ v, 0 <= h v ∧ h v <= 1) → (∀ v, v ∈ all → 0 <= e v ∧ e v <= gs_τc * infl d v) →
    0 <= qsum (map (λ v, h v * e v) all) ∧ qsum (map (λ v, h v * e v) all) <= gs_τc * qsum (map (infl d) all)) as Hb.
  { intros d e h k Hh He. split.
    - apply qsum_map_nonneg. intros v Hv. apply qmul_nonneg; [apply Hh|by apply He].
    - rewrite <-qsum_scale. apply qsum_le. intros v Hv. destruct (Hh v), (He v Hv). 
      eapply Qcle_trans; [|done]. qcnra. }
  destruct (Hb Injection (er Injection sol i) (cq sol' j) (cq sol' j) R2) as [L1 U1].
  { intros v Hv. apply (er_bound _ _ _ _ _ v H Hi). by apply Hreg. }
  destruct (Hb Production (er Production sol' j) (cq sol i) (cq sol i) R1) as [L2 U2].
  { intros v Hv. apply (er_bound _ _ _ _ _ v H' Hj). by apply Hreg. }
  rewrite total_infl in U2. split; qclra.
Qed.
Lemma total_influx : sum_left (map (influx n (net_arcs p)) all) = fin (qsum (map (infl Injection) all)).
Proof.
  apply sum_left_fin. intros v _. change (net_arcs p) with (flow Injection p).
  rewrite (influx_fin _ _ _ _ _ (finite_global p Hp HD HV Injection)), qmix_all. f_equal. apply qsum_ext. intros; ring.
Qed.
Lemma pair_near ev ev' sets sets' sol sol' i j : (∀ v, ¬ flows (net_arcs p) v v) → conserves p →
  diagnose Injection ev g p f sets = Ok (OSol sol) → diagnose Production ev' g p f sets' = Ok (OSol sol') →
  i ∈ map cs_id sets → j ∈ map cs_id sets' →
  ∃ x y, pair_flux sol sol' i j m = Ok (x, y) ∧
    let e := nmul (ndiv n1 (nofZ 1000000000)) (sum_left (map (influx n (net_arcs p)) all)) in
    nleb (nadd x y) e = true ∧ nleb (nopp e) (nadd x y) = true.
Proof.
  intros Hself Hc H H' Hi Hj. destruct (pair_cyclic ev ev' sets sets' sol sol' i j (λ v _, Hself v) Hc H H' Hi Hj) as (x & y & E & L & U).
  exists (fin x), (fin y). split; [done|]. rewrite total_influx. 
  assert (@ndiv exact n1 (nofZ 1000000000) = fin gs_τc) as -> by exact (proj1 (proj2 gs_consts)).
  split; apply xleb_Fin; done.
Qed.
End duality.
