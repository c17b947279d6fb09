(** Pair fluxes and pair volumes are positive exactly if the flow connects the
    wells. *)
From Coq Require Import String QArith Qcanon SpecFloat.
From Verif.Model Require Import Base Num OMap Containers Solution AssembledConnections Tarjan TracerTofSolver Toolbox DerivedQuantities.
From Verif.Spec Require Import GraphSpec FlowSpec DerivedSpec PairSpec ToolboxSpec MirrorSpec CyclicSpec ConnectedSpec.
From Verif.Proofs Require Import Util OMapFacts AConn ExactNum QcLra OrdLaws DerivedExact DerivedMisc DerivedTop SolverBase SolverRun SolverTop SolverGen GaussSeidel ExactRun ToolboxState ToolboxRates ToolboxFlow ToolboxVal ToolboxSane ToolboxThms ToolboxExact Duality Balance Cyclic PairTime B64Laws OppLaws TofLaws.
Open Scope Z_scope.

Lemma flows_turn {N : Num} (A : list arc) u v : flows (turn A) u v ↔ flows A v u.
Proof.
  unfold flows, turn. rewrite !elem_of_list_fmap. split.
  - intros (a & E & (b & -> & Hb)%elem_of_list_fmap). cbn in E. injection E as -> ->. exists b. split; [|done]. by destruct b as [[??]?].
  - intros (a & E & Ha). exists (a.1.2, a.1.1, a.2). cbn. rewrite <-E. split; [done|]. apply elem_of_list_fmap. by exists a; rewrite <-?E.
Qed.
Lemma leads_turn {N : Num} (A : list arc) u v : leads (turn A) u v ↔ leads A v u.
Proof.
  unfold leads. split.
  - induction 1 as [|x y z Hxy _ IH]; [done|]. eapply rtc_r; [exact IH|]. by apply flows_turn.
  - induction 1 as [|x y z Hxy _ IH]; [done|]. eapply rtc_r; [exact IH|]. by apply flows_turn.
Qed.

Section any.
Context {N : Num} (p : problem) (g : cgraph) (f : cvalues) (Hp : valid p) (HP : poses p g f).
Notation m := (pb_rates p).

Lemma rates_found d ev sets sol id : diagnose d ev g p f sets = Ok (OSol sol) → id ∈ map cs_id sets → ∃ vals, om_find id m = Some vals.
Proof.
  intros H Hid. destruct (diagnose_eq p g f Hp HP d) as (s & HS & E). rewrite E in H.
  destruct (start_sets_ok _ _ sets) eqn:Es; [|done]. pose proof (proj1 (start_sets_iff d m sets (va_rates _ Hp)) Es) as Es'. clear Es.
  apply elem_of_list_fmap in Hid as (st & -> & Hst). destruct (Es' st Hst) as [(c & x & Hx) _]. unfold well_rate in Hx.
  destruct (om_find (cs_id st) m) as [vals|]; [by exists vals|done].
Qed.
Lemma connected_inj ev sets sol i j : diagnose Injection ev g p f sets = Ok (OSol sol) → i ∈ map cs_id sets →
  (∃ v, is_Some (well_rate Production m j v) ∧ is_Some (om_find v (sol_concentration sol i))) ↔ connected p i j.
Proof.
  intros H Hi. split.
  - intros (v & Hv & (u & Hu & Hl)%(support p g f Hp HP _ _ _ _ _ _ H Hi)). by exists u, v.
  - intros (u & v & Hu & Hv & Hl). exists v. split; [done|]. apply (support p g f Hp HP _ _ _ _ _ _ H Hi). by exists u.
Qed.
Lemma connected_prod ev sets sol i j : diagnose Production ev g p f sets = Ok (OSol sol) → j ∈ map cs_id sets →
  (∃ v, is_Some (well_rate Injection m i v) ∧ is_Some (om_find v (sol_concentration sol j))) ↔ connected p i j.
Proof.
  intros H Hi. split.
  - intros (v & Hv & (u & Hu & Hl)%(support p g f Hp HP _ _ _ _ _ _ H Hi)). exists v, u. split; [done|]. split; [done|]. by apply leads_turn.
  - intros (u & v & Hu & Hv & Hl). exists u. split; [done|]. apply (support p g f Hp HP _ _ _ _ _ _ H Hi). exists v. split; [done|].
    by apply leads_turn.
Qed.
Lemma by_way_iff ev ev' sets sets' sol sol' i j c :
  diagnose Injection ev g p f sets = Ok (OSol sol) → diagnose Production ev' g p f sets' = Ok (OSol sol') →
  i ∈ map cs_id sets → j ∈ map cs_id sets' →
  is_Some (om_find c (sol_concentration sol i)) ∧ is_Some (om_find c (sol_concentration sol' j)) ↔ by_way_of p i j c.
Proof.
  intros H H' Hi Hj. rewrite (proj1 (support p g f Hp HP _ _ _ _ _ c H Hi)), (proj1 (support p g f Hp HP _ _ _ _ _ c H' Hj)). split.
  - intros [(u & Hu & Lu) (v & Hv & Lv)]. exists u, v. repeat split; [done..|]. by apply leads_turn.
  - intros (u & v & Hu & Hv & Lu & Lv). split; [by exists u|]. exists v. split; [done|]. by apply leads_turn.
Qed.

(** Volumes: no common cell, nothing is added. *)
Lemma no_volume ev ev' sets sets' sol sol' i j :
  diagnose Injection ev g p f sets = Ok (OSol sol) → diagnose Production ev' g p f sets' = Ok (OSol sol') →
  i ∈ map cs_id sets → j ∈ map cs_id sets' → ¬ connected p i j → pair_volume sol sol' (pb_pv p) i j = Ok n0.
Proof.
  intros H H' Hi Hj Hn.
  assert (∀ c x, (c, x) ∈ sol_concentration sol i → om_find c (sol_concentration sol' j) = None) as Hnone.
  { intros c x Hc. destruct (om_find c (sol_concentration sol' j)) eqn:E; [|done]. exfalso. apply Hn.
    destruct (proj1 (by_way_iff _ _ _ _ _ _ _ _ c H H' Hi Hj)) as (u & v & Hu & Hv & Lu & Lv).
    - split; [|by eexists]. exists x. by apply om_find_elem; [apply (diagnose_wf p g f Hp HP _ _ _ _ _ H)|].
    - exists u, v. repeat split; [done..|]. by transitivity c. }
  unfold pair_volume. revert Hnone. generalize (sol_concentration sol i). intros l. generalize (@n0 N).
  induction l as [|[c x] l IH]; intros a Hl; [done|]. cbn [foldM fst snd]. rewrite (Hl c x) by left. cbn. apply IH. intros. eapply Hl. by right.
Qed.
Lemma no_flux_in (tr vals : cellset_values) i : om_find i m = Some vals → om_wf vals →
  (∀ v, is_Some (well_rate Injection m i v) → om_find v tr = None) → pair_flux_sum tr vals true = n0.
Proof.
  intros E Hwf Hn. assert (∀ c x, (c, x) ∈ vals → nltb n0 x = true → om_find c tr = None) as Hv.
  { intros c x Hc Hx. apply Hn. unfold well_rate. rewrite E. apply om_find_elem in Hc; [|done]. rewrite Hc. cbn. by rewrite Hx. }
  unfold pair_flux_sum. clear E Hwf Hn. revert Hv. set (z := n0) at 3 4. clearbody z. revert z.
  induction vals as [|[c x] l IH]; intros a Hl; [done|]. cbn [foldl fst snd].
  destruct (nltb n0 x) eqn:Ex; cbn [Bool.eqb].
  - rewrite (Hl c x) by (done || left). apply IH. intros. eapply Hl; [by right|done].
  - destruct (om_find c tr); apply IH; intros; (eapply Hl; [by right|done]).
Qed.
End any.

Section exact.
Context (p : @problem exact) (g : cgraph) (f : cvalues) (Hp : valid p) (HP : poses p g f).
Context (HD : data finite p) (HV : pores_ok p).
Notation n := (pb_cells p).
Notation m := (pb_rates p).
Notation all := (seqZ 0 n).
Notation Tt := (Duality.Tt p).
Notation Wt := (Duality.Wt p).
Notation rq := (Duality.rq p).
Notation pvq := (Balance.pvq p).
Notation rates := (Balance.rates p).
Local Notation fin x := (Fin x : @num exact).
Local Open Scope Qc_scope.

(** Concentrations are positive where there are any. *)
Lemma conc_pos d ev sets sol id v : diagnose d ev g p f sets = Ok (OSol sol) → id ∈ map cs_id sets →
  0 < cq sol id v ↔ is_Some (om_find v (sol_concentration sol id)).
Proof.
  intros H Hid. destruct (local_values p g f Hp HP HD HV d ev sets sol id H Hid) as (inj & comps & st & q & _ & _ & _ & _ & _ & Hpos & _ & Hc & _).
  unfold cq, value_at. rewrite Hc. destruct (decide (v ∈ concat comps)) as [Hv|Hv].
  - split; [by eexists|]. intros _. exact (proj1 (Hpos v Hv)).
  - split; [intros E; exfalso; revert E; rewrite exact_n0; done|by intros []].
Qed.
Lemma rq_pos d id v : 0 < rq d id v ↔ is_Some (well_rate d m id v).
Proof.
  unfold Duality.rq. destruct (well_rate d m id v) as [r|] eqn:E.
  - destruct (rate_fin p Hp HD d id v r E) as (y & -> & Hy). split; [by eexists|done].
  - split; [done|by intros []].
Qed.
Lemma rate_cell d id v : is_Some (well_rate d m id v) → v ∈ all.
Proof. intros [x Hx]. apply elem_of_seqZ. pose proof (va_cellrates _ Hp d id v x Hx). lia. Qed.

Lemma qmul_pos_iff a b : 0 <= a → 0 <= b → 0 < a * b ↔ 0 < a ∧ 0 < b.
Proof.
  intros Ha Hb. split.
  - intros H. split; apply Qcnot_le_lt; intros E.
    + assert (a = 0) as -> by (by apply Qcle_antisym). revert H. by replace (0 * b) with 0 by ring.
    + assert (b = 0) as -> by (by apply Qcle_antisym). revert H. by replace (a * 0) with 0 by ring.
  - intros [H1 H2]. replace 0 with (0 * b) by ring. by apply Qcmult_lt_compat_r.
Qed.
Lemma qsum_pos_iff {X} (h : X → Qc) l : (∀ x, x ∈ l → 0 <= h x) → 0 < qsum (map h l) ↔ ∃ x, x ∈ l ∧ 0 < h x.
Proof.
  intros Hh. split.
  - intros H. induction l as [|x l IH]; [done|]. destruct (Qclt_le_dec 0 (h x)) as [Hx|Hx].
    { exists x. split; [left|done]. }
    destruct IH as (y & Hy & Hpy).
    + intros y Hy. apply Hh. by right.
    + revert H. cbn [map]. rewrite DerivedMisc.qsum_cons. assert (h x = 0) as -> by (apply Qcle_antisym; [done|apply Hh; left]).
      by rewrite Qcplus_0_l.
    + exists y. split; [by right|done].
  - intros (x & Hx & Hp0). eapply Qclt_le_trans; [exact Hp0|]. by apply qsum_elem_le.
Qed.

(** C87 *)
Lemma flux_connected ev ev' sets sets' sol sol' i j :
  diagnose Injection ev g p f sets = Ok (OSol sol) → diagnose Production ev' g p f sets' = Ok (OSol sol') →
  i ∈ map cs_id sets → j ∈ map cs_id sets' →
  ∃ x y, pair_flux sol sol' i j m = Ok (fin x, fin (- y)) ∧ 0 <= x ∧ 0 <= y ∧ (0 < x ↔ connected p i j) ∧ (0 < y ↔ connected p i j).
Proof.
  intros H H' Hi Hj.
  destruct (residual p g f Hp HP HD HV _ _ _ _ _ H Hi) as (V1 & B1 & _). destruct (residual p g f Hp HP HD HV _ _ _ _ _ H' Hj) as (V2 & B2 & _).
  destruct (well_found p g f Hp HP _ _ _ _ _ H Hi) as [vi Evi]. destruct (well_found p g f Hp HP _ _ _ _ _ H' Hj) as [vj Evj].
  assert (∀ v, v ∈ all → 0 <= rq Injection i v * cq sol' j v) as N1.
  { intros v _. apply qmul_nonneg; [apply (rq_nonneg p Hp HD)|apply B2]. }
  assert (∀ v, v ∈ all → 0 <= rq Production j v * cq sol i v) as N2.
  { intros v _. apply qmul_nonneg; [apply (rq_nonneg p Hp HD)|apply B1]. }
  exists (qsum (map (λ v, rq Injection i v * cq sol' j v) all)), (qsum (map (λ v, rq Production j v * cq sol i v) all)).
  split.
  { unfold pair_flux. rewrite Evi, Evj. rewrite (pair_sum p Hp HD _ vi Injection (cq sol' j) i Evi V2).
    rewrite (pair_sum p Hp HD _ vj Production (cq sol i) j Evj V1). do 3 f_equal; ring. }
  split; [by apply qsum_map_nonneg|]. split; [by apply qsum_map_nonneg|]. split.
  - rewrite (qsum_pos_iff _ _ N1), <-(connected_prod p g f Hp HP _ _ _ i j H' Hj). split.
    + intros (v & Hv & [Hr Hc]%qmul_pos_iff); [|apply (rq_nonneg p Hp HD)|apply B2].
      exists v. split; [by apply rq_pos|by eapply conc_pos].
    + intros (v & Hr & Hc). exists v. split; [by eapply rate_cell|]. apply qmul_pos_iff; [apply (rq_nonneg p Hp HD)|apply B2|].
      split; [by apply rq_pos|by eapply conc_pos].
  - rewrite (qsum_pos_iff _ _ N2), <-(connected_inj p g f Hp HP _ _ _ i j H Hi). split.
    + intros (v & Hv & [Hr Hc]%qmul_pos_iff); [|apply (rq_nonneg p Hp HD)|apply B1].
      exists v. split; [by apply rq_pos|by eapply conc_pos].
    + intros (v & Hr & Hc). exists v. split; [by eapply rate_cell|]. apply qmul_pos_iff; [apply (rq_nonneg p Hp HD)|apply B1|].
      split; [by apply rq_pos|by eapply conc_pos].
Qed.

Lemma pvq_nonneg v : 0 <= pvq v.
Proof.
  unfold Balance.pvq, pore. destruct (pb_pv p !! Z.to_nat v) as [x|] eqn:E; cbn [default]; [|by rewrite exact_n0].
  apply elem_of_list_lookup_2 in E. destruct (da_pv _ _ HD x E) as [q ->]. pose proof (HV _ E) as Hq. rewrite exact_n0 in Hq.
  by apply xleb_Fin in Hq.
Qed.
Lemma volume_connected ev ev' sets sets' sol sol' i j :
  diagnose Injection ev g p f sets = Ok (OSol sol) → diagnose Production ev' g p f sets' = Ok (OSol sol') →
  i ∈ map cs_id sets → j ∈ map cs_id sets' →
  ∃ V, pair_volume sol sol' (pb_pv p) i j = Ok (fin V) ∧ 0 <= V ∧
    (0 < V ↔ ∃ c, nltb n0 (pore p c) = true ∧ by_way_of p i j c).
Proof.
  intros H H' Hi Hj. eexists. split; [by eapply (volume_q p g f Hp HP HD HV)|].
  pose proof (λ v, proj2 (well_values p g f Hp HP HD HV _ _ _ _ i H v)) as B1.
  pose proof (λ v, proj2 (well_values p g f Hp HP HD HV _ _ _ _ j H' v)) as B2.
  assert (∀ v, 0 <= cq sol i v * cq sol' j v) as N0 by (intros v; apply qmul_nonneg; [apply B1|apply B2]).
  assert (∀ v, v ∈ all → 0 <= pvq v * (cq sol i v * cq sol' j v)) as N1.
  { intros v _. apply qmul_nonneg; [apply pvq_nonneg|apply N0]. }
  assert (∀ c, nltb n0 (pore p c) = true ↔ 0 < pvq c) as Hpore.
  { intros c. unfold Balance.pvq. assert (finite (pore p c)) as [q ->].
    { unfold pore. destruct (pb_pv p !! Z.to_nat c) eqn:E; [|by eexists]. apply elem_of_list_lookup_2 in E. by apply (da_pv _ _ HD). }
    rewrite exact_n0. split; [by intros E%xltb_Fin|]. intros E. by apply xltb_Fin. }
  split; [by apply qsum_map_nonneg|]. rewrite (qsum_pos_iff _ _ N1). split.
  - intros (c & Hc & [H1 [H2 H3]%qmul_pos_iff]%qmul_pos_iff); [|apply B1|apply B2|apply pvq_nonneg|apply N0].
    exists c. split; [by apply Hpore|]. apply (by_way_iff p g f Hp HP _ _ _ _ _ _ _ _ c H H' Hi Hj). split; by eapply conc_pos.
  - intros (c & Hc & Hw). exists c. apply (by_way_iff p g f Hp HP _ _ _ _ _ _ _ _ c H H' Hi Hj) in Hw as [H1 H2].
    split. { apply elem_of_seqZ. pose proof (conc_range p g f Hp HP _ _ _ _ _ c H H1). lia. }
    apply qmul_pos_iff; [apply pvq_nonneg|apply N0|]. split; [by apply Hpore|]. apply qmul_pos_iff; [apply B1|apply B2|].
    split; by eapply conc_pos.
Qed.

(** Where volume is conserved, every injector feeds a producer. *)
Lemma feeds d ev sets sol i : conserves p → diagnose d ev g p f sets = Ok (OSol sol) → i ∈ map cs_id sets →
  ∃ j v, is_Some (well_rate (opposite d) m j v) ∧ is_Some (om_find v (sol_concentration sol i)).
Proof.
  intros Hcons H Hi.
  set (D := λ v, bool_decide (is_Some (om_find v (sol_concentration sol i)))). set (χ := λ v, if D v then 1 else 0).
  assert (∀ v, 0 <= χ v) as Hχ by (intros v; unfold χ; by destruct (D v)).
  assert (0 < qsum (map (λ v, χ v * rates (opposite d) v) all)) as Hpos.
  2:{ apply qsum_pos_iff in Hpos as (v & _ & [Hv Hr]%qmul_pos_iff).
      - apply qsum_pos_iff in Hr as (j & _ & Hr%rq_pos); [|intros; apply (rq_nonneg p Hp HD)].
        exists j, v. split; [done|]. unfold χ, D in Hv. by case_bool_decide.
      - apply Hχ.
      - apply qsum_map_nonneg. intros. apply (rq_nonneg p Hp HD).
      - intros v _. apply qmul_nonneg; [apply Hχ|]. apply qsum_map_nonneg. intros. apply (rq_nonneg p Hp HD). }
  assert (∀ u v, χ u * Wt d u v <= Wt d u v * χ v) as Hcl.
  { intros u v. unfold χ. destruct (decide (flows (flow d p) u v)) as [Hf|Hf].
    2:{ rewrite Wt_none by done. qclra. }
    destruct (D u) eqn:Eu; [|replace (0 * Wt d u v) with 0 by ring; apply qmul_nonneg; [apply (Wt_nonneg p Hp HD HV)|by destruct (D v)]].
    assert (D v = true) as ->.
    { apply bool_decide_eq_true in Eu. apply bool_decide_eq_true. apply (support p g f Hp HP _ _ _ _ _ _ H Hi) in Eu as (r & Hr & Hl).
      apply (support p g f Hp HP _ _ _ _ _ _ H Hi). exists r. split; [done|]. eapply rtc_r; [exact Hl|exact Hf]. }
    qclra. }
  assert (0 < qsum (map (λ v, χ v * rates d v) all)) as Hin.
  { assert (∃ r, is_Some (well_rate d m i r)) as (r & Hr).
    { destruct (diagnose_eq p g f Hp HP d) as (s & HS & E). rewrite E in H. destruct (start_sets_ok _ _ sets) eqn:Es; [|done].
      pose proof (proj1 (start_sets_iff d m sets (va_rates _ Hp)) Es) as Es'. apply elem_of_list_fmap in Hi as (st & -> & Hst).
      destruct (Es' st Hst) as [(c & x & Hx) _]. by exists c; eexists. }
    apply qsum_pos_iff.
    { intros v _. apply qmul_nonneg; [apply Hχ|]. apply qsum_map_nonneg. intros. apply (rq_nonneg p Hp HD). }
    exists r. split; [by eapply rate_cell|]. apply qmul_pos_iff; [apply Hχ|apply qsum_map_nonneg; intros; apply (rq_nonneg p Hp HD)|].
    split.
    - unfold χ, D. rewrite bool_decide_true; [done|]. apply (support p g f Hp HP _ _ _ _ _ _ H Hi). exists r. split; [done|apply rtc_refl].
    - apply qsum_pos_iff; [intros; apply (rq_nonneg p Hp HD)|]. exists i. split; [|by apply rq_pos].
      destruct (well_found p g f Hp HP _ _ _ _ _ H Hi) as [vi Evi]. apply om_find_elem in Evi; [|apply (va_rates _ Hp)].
      apply elem_of_list_fmap. by exists (i, vi). }
  assert (qsum (map (λ v, χ v * Tt d v) all) = qsum (map (λ v, qsum (map (λ u, Wt d u v * χ v) all)) all) + qsum (map (λ v, χ v * rates d v) all)) as E1.
  { rewrite <-qsum_plus. apply qsum_ext. intros v _. rewrite (Tt_eq p Hp HD HV). unfold Balance.rates.
    rewrite (qsum_ext (λ u, Wt d u v * χ v) (λ u, χ v * Wt d u v)) by (intros; ring). rewrite qsum_scale. ring. }
  assert (qsum (map (λ v, χ v * Tt d v) all) = qsum (map (λ v, qsum (map (λ u, χ u * Wt d u v) all)) all) + qsum (map (λ v, χ v * rates (opposite d) v) all)) as E2.
  { rewrite qsum_swap, <-qsum_plus. apply qsum_ext. intros v Hv%elem_of_seqZ. rewrite (out_total p Hp HD HV d v Hcons) by lia.
    rewrite qsum_scale. change (λ v0, Wt d v v0) with (Wt d v). ring. }
  assert (qsum (map (λ v, qsum (map (λ u, χ u * Wt d u v) all)) all) <= qsum (map (λ v, qsum (map (λ u, Wt d u v * χ v) all)) all)) as L.
  { apply qsum_le. intros v _. apply qsum_le. intros u _. apply Hcl. }
  rewrite E1 in E2. revert L E2 Hin. generalize (qsum (map (λ v, qsum (map (λ u, χ u * Wt d u v) all)) all)).
  generalize (qsum (map (λ v, qsum (map (λ u, Wt d u v * χ v) all)) all)). intros a b L E2 Hin.
  eapply Qclt_le_trans; [exact Hin|]. qclra.
Qed.
End exact.

(** ** Doubles *)
Section doubles.
Context (p : @problem b64) (g : cgraph) (f : cvalues) (Hp : valid p) (HP : poses p g f).
Context (HD : @data b64 b64_ok p) (HV : pores_ok p).
Notation m := (pb_rates p).

Lemma zero_term (x t : @num b64) : x ≠ S754_nan → nltb n0 x = false → nltb x n0 = false →
  nltb n0 t = true → nleb t n1 = true → nadd n0 (nmul x t) = (n0 : @num b64).
Proof.
  intros Hx H1 H2 H3 H4. destruct x as [s|[]| |[] mx ex]; try done.
  destruct t as [s'|[]| |[] mt et]; try done. by destruct s.
Qed.
Lemma no_flux_out (tr vals : @cellset_values b64) j : om_find j m = Some vals → om_wf vals →
  (∀ e, e ∈ vals → e.2 ≠ S754_nan) → (∀ v t, om_find v tr = Some t → nltb n0 t = true ∧ nleb t n1 = true) →
  (∀ v, is_Some (well_rate Production m j v) → om_find v tr = None) → pair_flux_sum tr vals false = n0.
Proof.
  intros E Hwf Hnan Ht Hn. assert (∀ c x, (c, x) ∈ vals → nltb n0 x = false → nltb x n0 = true → om_find c tr = None) as Hv.
  { intros c x Hc Hx Hx'. apply Hn. unfold well_rate. rewrite E. apply om_find_elem in Hc; [|done]. rewrite Hc. cbn [rate_part]. rewrite Hx, Hx'. by eexists. }
  unfold pair_flux_sum. clear E Hwf Hn.
  induction vals as [|[c x] l IH]; [done|]. cbn [foldl fst snd].
  assert (match om_find c tr with Some t => if Bool.eqb (nltb n0 x) false then nadd n0 (nmul x t) else n0 | None => n0 end = n0) as ->.
  2:{ apply IH; [intros; apply Hnan; by right|]. intros. eapply Hv; [by right|done..]. }
  destruct (nltb n0 x) eqn:Ex; cbn [Bool.eqb]; [by destruct (om_find c tr)|].
  destruct (nltb x n0) eqn:Ex'. { rewrite (Hv c x) by (done || left). done. }
  destruct (om_find c tr) as [t|] eqn:Et; [|done]. destruct (Ht c t Et). apply zero_term; try done. apply (Hnan (c, x)). left.
Qed.

Lemma no_flux ev ev' sets sets' sol sol' i j : no_overflow Injection p → (∀ e k, e ∈ m → k ∈ e.2 → k.2 ≠ S754_nan) →
  diagnose Injection ev g p f sets = Ok (OSol sol) → diagnose Production ev' g p f sets' = Ok (OSol sol') →
  i ∈ map cs_id sets → j ∈ map cs_id sets' → ¬ connected p i j → pair_flux sol sol' i j m = Ok (n0, n0).
Proof.
  intros Hno Hnan H H' Hi Hj Hn.
  destruct (rates_found p g f Hp HP _ _ _ _ _ H Hi) as [vi Evi]. destruct (rates_found p g f Hp HP _ _ _ _ _ H' Hj) as [vj Evj].
  pose proof (va_rates _ Hp) as [Hm1 Hm2].
  unfold pair_flux. rewrite Evi, Evj. f_equal. f_equal.
  - apply (no_flux_in p _ _ i Evi).
    + apply om_find_elem in Evi; [|done]. exact (proj1 (Forall_forall _ _) Hm2 _ Evi).
    + intros v Hv. destruct (om_find v (sol_concentration sol' j)) eqn:E; [|done]. exfalso. apply Hn.
      apply (connected_prod p g f Hp HP _ _ _ i j H' Hj). exists v. split; [done|by eexists].
  - pose proof Evj as Hin. apply om_find_elem in Hin; [|done]. apply (no_flux_out _ _ j Evj).
    + exact (proj1 (Forall_forall _ _) Hm2 _ Hin).
    + intros e He. by apply (Hnan _ e Hin).
    + intros v t Ht. destruct (proj1 (value_ranges p g f Hp HP b64_laws b64_opp_laws HD b64_tof_laws HV _ _ _ _ i Hno H) v t Ht) as (_ & ? & ?). done.
    + intros v Hv. destruct (om_find v (sol_concentration sol i)) eqn:E; [|done]. exfalso. apply Hn.
      apply (connected_inj p g f Hp HP _ _ _ i j H Hi). exists v. split; [done|by eexists].
Qed.
End doubles.
