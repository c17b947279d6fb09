(** Times-of-flight grow with the pore volumes, as long as no cell passes the
    cut-off. *)
From Verif.Model Require Import Base Num OMap Containers Solution AssembledConnections Tarjan TracerTofSolver Toolbox.
From Verif.Spec Require Import ToolboxSpec MonotoneSpec.
From Verif.Proofs Require Import Util OMapFacts AConn OrdLaws DerivedOrd ToolboxState ToolboxRates SolverBase SolverRun SolverTop SolverGen SolverOrd
  TofRange ToolboxFlow ToolboxVal ToolboxSane ToolboxThms Acyclic.
Open Scope Z_scope.

Section mono.
Context {N : Num} (L : ord_laws N) (LT : tof_laws L).
Notation ok := (o_ok N L).
Notation nn x := (ok x ∧ nleb n0 x = true).
Notation unit_num := (unit_num L).

Lemma below_inf a b : nn a → nn b → nltb b ninf = false → nleb a b = true.
Proof.
  intros [Oa La] [Ob Lb] H. pose proof (o_ok_inf N L) as Oi.
  assert (nleb ninf ninf = true) as Ri.
  { eapply (o_refl_r N L n1); [apply ol_ok1|done|]. apply (o_lt_le N L); [apply ol_ok1|done|apply (o_1inf N L)]. }
  eapply (o_trans N L _ ninf); [done|done|done|by apply (q_top L LT)|].
  apply (o_total N L); try done. by apply (nn_refl L).
Qed.
Lemma nmin_mono a b m : nn a → nn b → nn m → nleb a b = true → nleb (nmin a m) (nmin b m) = true.
Proof.
  intros Ha Hb Hm Hab. pose proof (nn_refl L _ Ha) as Ra. pose proof (nn_refl L _ Hb) as Rb. pose proof (nn_refl L _ Hm) as Rm.
  destruct Ha as [Oa La], Hb as [Ob Lb], Hm as [Om Lm]. unfold nmin.
  destruct (nltb m a) eqn:E1, (nltb m b) eqn:E2; try done.
  - exfalso. pose proof (o_total N L _ _ Om Ob Rm Rb E2) as H. pose proof (o_trans N L _ _ _ Oa Ob Om Hab H) as H'.
    rewrite (o_nlt N L _ _ Oa Om H') in E1. done.
  - by apply (o_total N L).
Qed.

Context (n : Z) (A : list arc) (pv pv' : list num) (src : cellset_values) (inj : Z → option num).
Notation tot := (tot n A src inj).
Notation cellc := (cellc n A src inj).
Notation cellt pv := (cellt n A pv src inj).
Context (S : Z → Prop) (HP : sane L n A src inj S).
Context (Hpv : ∀ v, nn (pvf pv v)) (Hpv' : ∀ v, nn (pvf pv' v)).
Context (Hle : ∀ v, S v → nleb (pvf pv v) (pvf pv' v) = true).
Context (Hcut : ∀ v, S v → nltb (tot v) (ndiv (pvf pv v) max_tof) = nltb (tot v) (ndiv (pvf pv' v) max_tof)).

Lemma term_mono t t' c w : unit_num c → sound L t c → sound L t' c → nleb t t' = true →
  nn w → nltb n0 w = true → nltb w ninf = true → nleb (nmul (nmul t c) w) (nmul (nmul t' c) w) = true.
Proof.
  intros Hc Ht Ht' Hl Hw Pw Fw. destruct (nltb t' ninf) eqn:E'.
  - pose proof (proj1 Ht) as Nt. pose proof (proj1 Ht') as Nt'. destruct Nt as [Ot Lt], Nt' as [Ot' Lt'].
    pose proof (le_lt_inf L _ _ Ot Ot' Hl E') as E.
    destruct (unit_mul L LT t c Hc (conj Ot Lt) E) as [[O1 L1] F1].
    destruct (unit_mul L LT t' c Hc (conj Ot' Lt') E') as [[O2 L2] F2].
    pose proof (unit_fin L c Hc) as Fc. pose proof (nn_refl L _ Hw) as Rw.
    destruct Hc as [[Oc Lc] _]. pose proof (nn_refl L _ (conj Oc Lc)) as Rc. destruct Hw as [Ow Lw].
    apply (o_mul N L); try done. by apply (o_mul N L).
  - assert (nltb (nmul (nmul t' c) w) ninf = false) as H.
    { destruct Ht' as [[Ot Lt] [|Hi]]; [congruence|]. destruct Hc as [[Oc Lc] _], Hw as [Ow Lw].
      destruct (q_mulinf L LT t' c Ot Oc Lt E' Hi) as [H1 H2]. apply (q_mulinf L LT); try done. by apply o_ok_mul. }
    apply below_inf; [by apply (term_nn L LT)|by apply (term_nn L LT)|done].
Qed.

Lemma cellt_mono t t' c v : S v → (∀ u, unit_num (c u)) → (∀ u, sound L (t u) (c u)) → (∀ u, sound L (t' u) (c u)) →
  (∀ u, flows A u v → nleb (t u) (t' u) = true) →
  nleb (cellt pv t c v (cellc c v)) (cellt pv' t' c v (cellc c v)) = true.
Proof.
  intros Hv Hc Ht Ht' Hl.
  destruct (q_max L LT) as [Pm Fm]. destruct (max_sound L LT n0) as [[Om Lm] _].
  pose proof (nn_refl L _ (conj Om Lm)) as Rm.
  pose proof (tot_nn L _ _ _ _ _ HP v) as [Ot Lt]. pose proof (ol_ok0 L) as O0.
  pose proof (sn_fin _ _ _ _ _ _ HP v Hv) as Ft. rewrite <-(tot_eq L _ _ _ _ _ HP) in Ft.
  pose proof (Hpv v) as [Op Lp]. pose proof (Hpv' v) as [Op' Lp']. pose proof (Hle v Hv) as Hlv.
  unfold SolverRun.cellt. rewrite (Hcut v Hv).
  destruct (nltb (tot v) (ndiv (pvf pv' v) max_tof)) eqn:Eb; [done|].
  destruct (nltb n0 (cellc c v)) eqn:Ec; [|done].
  destruct (cell_unit L _ _ _ _ _ HP c v Hv Hc) as [_ Hu].
  assert (nltb (pvf pv' v) ninf = true) as Fp'.
  { destruct (nltb (pvf pv' v) ninf) eqn:E; [done|]. exfalso.
    pose proof (q_divinf L LT _ _ Op' Om Lp' E Pm Fm) as H.
    pose proof (o_ok_div N L _ _ Op' Om) as Od.
    assert (nleb n0 (ndiv (pvf pv' v) max_tof) = true) as Ld.
    { pose proof (o_ok_div N L _ _ O0 Om) as Od0. destruct (ol_eq_le L _ _ Od0 O0 (o_div0 N L max_tof Om Pm)) as [_ H0].
      eapply (o_trans N L _ (ndiv n0 max_tof)); [done|done|done|done|]. apply (o_div N L); try done. apply (ol_00 L). }
    pose proof (o_total N L _ _ Ot Od (nn_refl L _ (conj Ot Lt)) (nn_refl L _ (conj Od Ld)) Eb) as H1.
    by rewrite (le_lt_inf L _ _ Od Ot H1 Ft) in H. }
  pose proof (le_lt_inf L _ _ Op Op' Hlv Fp') as Fp.
  assert (∀ τ, (∀ u, sound L (τ u) (c u)) → nn (mix n A (λ u, nmul (τ u) (c u)) v)) as Hmix.
  { intros τ Hτ. apply (sum_left_nn L), Forall_map, Forall_forall. intros u Hu'.
    apply (term_nn L LT); [done|done|by apply (flux_nn L _ _ _ _ _ HP)|by apply (flux_pos L _ _ _ _ _ HP)|by apply (flux_fin L _ _ _ _ _ HP)]. }
  assert (nleb (mix n A (λ u, nmul (t u) (c u)) v) (mix n A (λ u, nmul (t' u) (c u)) v) = true) as Hm.
  { apply (sum_left_mono L). intros u Hu'.
    pose proof (flux_nn L _ _ _ _ _ HP u v) as Hf. pose proof (flux_pos L _ _ _ _ _ HP u v Hu') as Hfp.
    pose proof (flux_fin L _ _ _ _ _ HP u v Hv Hu') as Hff. apply upstream_elem in Hu' as [Hfl _].
    split_and!; [by apply (term_nn L LT)|by apply (term_nn L LT)|by apply (term_nn L LT)|by apply (term_nn L LT)|]. apply term_mono; try done. by apply Hl. }
  destruct (Hmix t Ht) as [O1 L1], (Hmix t' Ht') as [O2 L2].
  destruct (unit_mul L LT _ _ Hu (Hpv v) Fp) as [[O3 L3] _]. destruct (unit_mul L LT _ _ Hu (Hpv' v) Fp') as [[O4 L4] _].
  destruct (unit_mul L LT (tot v) (cellc c v) Hu (conj Ot Lt) Ft) as [[Od Ld] Fd].
  assert (nltb n0 (nmul (tot v) (cellc c v)) = true) as Pd.
  { assert (nltb n0 (tot v) = true) as Pt.
    { apply (tot_pos L _ _ _ _ _ HP). unfold SolverRun.cellc in Ec. destruct (neqb (tot v) n0); [|done].
      by rewrite (o_nlt N L n0 n0 O0 O0 (ol_00 L)) in Ec. }
    unfold SolverRun.cellc in Ec |- *. destruct (neqb (tot v) n0) eqn:E0.
    { by rewrite (o_nlt N L n0 n0 O0 O0 (ol_00 L)) in Ec. }
    destruct (uc_le L _ _ _ _ _ HP c v Hv Hc) as [[Ou Lu] Hle']. by apply (q_under L LT). }
  apply (o_div N L); try done; [by apply o_ok_add|by apply o_ok_add|by apply (nn_add L)|].
  apply (o_add N L); try done. pose proof (unit_fin L _ Hu) as Fc. destruct Hu as [[Oc Lc] _].
  apply (o_mul N L); try done. by apply (nn_refl L).
Qed.

Lemma states_mono (st st' : fstate) (P : Z → Prop) : acyclic A → numbers L st → numbers L st' → (∀ v, P v → S v) →
  (∀ v, P v → st.2 v = cellc st.2 v ∧ st.1 v = cellt pv st.1 st.2 v (st.2 v)) →
  (∀ v, P v → st'.2 v = cellc st'.2 v ∧ st'.1 v = cellt pv' st'.1 st'.2 v (st'.2 v)) →
  (∀ v, ¬ P v → st.1 v = n0 ∧ st.2 v = n0) → (∀ v, ¬ P v → st'.1 v = n0 ∧ st'.2 v = n0) → (∀ v, P v ∨ ¬ P v) →
  ∀ v, st'.2 v = st.2 v ∧ nleb (st.1 v) (st'.1 v) = true.
Proof.
  intros Hac [Hc Ht] [Hc' Ht'] HPS E E' Z Z' Hdec. assert (∀ v, st'.2 v = st.2 v) as EC.
  { intros v. induction (flows_wf _ Hac v) as [v _ IH]. destruct (Hdec v) as [Hv|Hv].
    - destruct (E v Hv) as [-> _], (E' v Hv) as [-> _]. by apply cellc_ext.
    - destruct (Z v Hv) as [_ ->], (Z' v Hv) as [_ ->]. done. }
  intros v. split; [done|]. induction (flows_wf _ Hac v) as [v _ IH]. destruct (Hdec v) as [Hv|Hv].
  - destruct (E v Hv) as [E1 E2], (E' v Hv) as [E1' E2']. rewrite E2, E2'. rewrite EC.
    rewrite (cellt_ext n A pv' src inj st'.1 st'.1 st'.2 st.2) by (intros u _; split; [done|apply EC]). rewrite E1.
    apply cellt_mono; try done; [by apply HPS|]. intros u. rewrite <-EC. apply Ht'.
  - destruct (Z v Hv) as [-> _], (Z' v Hv) as [-> _]. apply (ol_00 L).
Qed.
End mono.

Section toolbox.
Context {N : Num} (L : ord_laws N) (LO : opp_laws L) (LT : tof_laws L).
Notation ok := (o_ok N L).
Context (p p' : problem) (HG : grown p p') (Hp : valid p) (HD : data ok p) (HV : pores_ok p) (Hp' : valid p') (HD' : data ok p').
Context (g g' : cgraph) (f f' : cvalues) (HP : poses p g f) (HP' : poses p' g' f').

Lemma grown_pores : pores_ok p'.
Proof.
  intros y (k & Hk)%elem_of_list_lookup_1. pose proof (proj2 HG) as H2.
  assert (is_Some (pb_pv p !! k)) as [x Hx].
  { apply lookup_lt_is_Some. rewrite (Forall2_length _ _ _ H2). by eapply lookup_lt_Some. }
  pose proof (Forall2_lookup_lr _ _ _ _ _ _ H2 Hx Hk) as Hxy. pose proof (elem_of_list_lookup_2 _ _ _ Hx) as Hx'.
  eapply (o_trans N L _ x); [apply ol_ok0|by apply HD|apply HD'; by eapply elem_of_list_lookup_2|by apply HV|done].
Qed.
Lemma grown_pvf v : nleb (pvf (pb_pv p) v) (pvf (pb_pv p') v) = true.
Proof.
  pose proof (proj2 HG) as H2. unfold pvf. destruct (pb_pv p !! Z.to_nat v) as [x|] eqn:E.
  - destruct (Forall2_lookup_l _ _ _ _ _ H2 E) as (y & -> & H). done.
  - apply lookup_ge_None in E. rewrite lookup_ge_None_2 by (by rewrite <-(Forall2_length _ _ _ H2)). apply (ol_00 L).
Qed.

Lemma grown_tof d ev ev' sets sets' sol sol' id : acyclic (net_arcs p) → no_overflow d p →
  (∀ v, 0 ≤ v < pb_cells p → slow_cell d p v = slow_cell d p' v) →
  diagnose d ev g p f sets = Ok (OSol sol) → diagnose d ev' g' p' f' sets' = Ok (OSol sol') →
  id ∈ map cs_id sets → id ∈ map cs_id sets' → ∀ v,
  om_find v (sol_concentration sol' id) = om_find v (sol_concentration sol id) ∧
  match om_find v (sol_tof sol id), om_find v (sol_tof sol' id) with
  | Some t, Some t' => nleb t t' = true
  | None, None => True
  | _, _ => False
  end.
Proof.
  intros Hac Hno Hslow H H' Hid Hid' v.
  pose proof grown_pores as HV'. pose proof grown_pvf as Hpvf. pose proof (pvf_nn L p HD HV) as N1. pose proof (pvf_nn L p' HD' HV') as N2.
  pose proof (acyclic_flow p d Hac) as Hac'.
  destruct (diagnose_local p g f Hp HP d ev sets sol id H Hid) as (inj & comps & st & Hinj & Ho & Hr & Hrun & _ & Ht & Hc).
  destruct (diagnose_local p' g' f' Hp' HP' d ev' sets' sol' id H' Hid') as (inj' & comps' & st' & Hinj' & Ho' & Hr' & Hrun' & _ & Ht' & Hc').
  destruct HG as [(En & Ec & Er) _].
  assert (flow d p' = flow d p) as Ef by (unfold flow, net_arcs; by rewrite Ec).
  rewrite Ef, Er in Ho'. rewrite Ef, En, Er in Hrun'. rewrite Er in Hinj'. rewrite En in Hr'.
  pose proof (sane_local L LO p Hp HD d id inj _ Hno Hinj) as Hs.
  pose proof (sane_local L LO p Hp HD d id inj' _ Hno Hinj') as Hs'.
  destruct (run_numbers L LT _ _ _ _ _ _ Hs N1 (e_fuel ev) comps Hr) as [E|(st1 & E & Hn)]; [by rewrite E in Hrun|].
  rewrite E in Hrun. injection Hrun as ->.
  destruct (run_numbers L LT _ _ _ _ _ _ Hs' N2 (e_fuel ev') comps' Hr') as [E'|(st1 & E' & Hn')]; [by rewrite E' in Hrun'|].
  rewrite E' in Hrun'. injection Hrun' as ->.
  destruct (run_acyclic _ _ _ _ _ _ _ _ _ Ho Hac' E) as [R1 R2]. destruct (run_acyclic _ _ _ _ _ _ _ _ _ Ho' Hac' E') as [R1' R2'].
  assert (∀ u, u ∈ concat comps' ↔ u ∈ concat comps) as HC.
  { intros u. rewrite (oc_cover _ _ _ Ho'), (oc_cover _ _ _ Ho). done. }
  assert (∀ u, inj' u = inj u) as EI by (intros u; by rewrite Hinj, Hinj').
  assert (∀ c u, cellc (pb_cells p) (flow d p) (only d (split_rates (pb_rates p))) inj' c u =
                 cellc (pb_cells p) (flow d p) (only d (split_rates (pb_rates p))) inj c u) as ECC.
  { intros c u. unfold cellc, uc, tot, src_eff, is_start. by rewrite !EI. }
  assert (∀ t c u x, cellt (pb_cells p) (flow d p) (pb_pv p') (only d (split_rates (pb_rates p))) inj' t c u x =
                 cellt (pb_cells p) (flow d p) (pb_pv p') (only d (split_rates (pb_rates p))) inj t c u x) as ECT.
  { intros t c u x. unfold cellt, uc, tot, src_eff, is_start. by rewrite !EI. }
  destruct (states_mono L LT (pb_cells p) (flow d p) (pb_pv p) (pb_pv p') (only d (split_rates (pb_rates p))) inj _ Hs N1 N2 (λ v _, Hpvf v)) with st st' (λ u, u ∈ concat comps) v as [EC EL]; try done.
  - intros u Hu. rewrite (tot_eq L _ _ _ _ _ Hs), only_value by apply (va_rates _ Hp).
    pose proof (Hslow u Hu) as Hsl. unfold slow_cell, total_in in Hsl. by rewrite Ef, Er, En in Hsl.
  - intros u Hu. by destruct (R1 u Hu) as (? & ? & _).
  - intros u Hu. apply HC in Hu. destruct (R1' u Hu) as (E1 & E2 & _). by rewrite <-ECC, <-ECT.
  - intros u Hu. apply R2'. by rewrite HC.
  - intros u. destruct (decide (u ∈ concat comps)); tauto.
  - rewrite Hc, Hc', Ht, Ht'. destruct (decide (v ∈ concat comps)) as [Hv|Hv].
    + rewrite !(decide_True (P := v ∈ concat comps')) by by apply HC. rewrite EC. split; [done|].
      destruct (max_sound L LT n0) as [Hm _]. apply (nmin_mono L); [apply Hn|apply Hn'|done|done].
    + rewrite !(decide_False (P := v ∈ concat comps')) by by rewrite HC. done.
Qed.

Lemma grown_global d ev ev' sets sets' sol sol' : acyclic (net_arcs p) → no_overflow d p →
  (∀ v, 0 ≤ v < pb_cells p → slow_cell d p v = slow_cell d p' v) →
  diagnose d ev g p f sets = Ok (OSol sol) → diagnose d ev' g' p' f' sets' = Ok (OSol sol') →
  Forall2 (λ t t', nleb t t' = true) (sol_global_tof sol) (sol_global_tof sol').
Proof.
  intros Hac Hno Hslow H H'.
  pose proof grown_pores as HV'. pose proof grown_pvf as Hpvf. pose proof (pvf_nn L p HD HV) as N1. pose proof (pvf_nn L p' HD' HV') as N2.
  pose proof (acyclic_flow p d Hac) as Hac'.
  destruct (diagnose_global p g f Hp HP d ev sets sol H) as (comps & st & Ho & Hrun & ->).
  destruct (diagnose_global p' g' f' Hp' HP' d ev' sets' sol' H') as (comps' & st' & Ho' & Hrun' & ->).
  destruct HG as [(En & Ec & Er) _].
  assert (flow d p' = flow d p) as Ef by (unfold flow, net_arcs; by rewrite Ec).
  rewrite Ef, En in Ho'. rewrite Ef, En, Er in Hrun'. rewrite En.
  pose proof (sane_global L LO p Hp HD d _ Hno) as Hs.
  destruct (run_numbers L LT _ _ _ _ _ _ Hs N1 (e_fuel ev) comps) as [E|(st1 & E & Hn)]; [intros v; apply (oc_cover _ _ _ Ho)|by rewrite E in Hrun|].
  rewrite E in Hrun. injection Hrun as ->.
  destruct (run_numbers L LT _ _ _ _ _ _ Hs N2 (e_fuel ev') comps') as [E'|(st1 & E' & Hn')]; [intros v; apply (oc_cover _ _ _ Ho')|by rewrite E' in Hrun'|].
  rewrite E' in Hrun'. injection Hrun' as ->.
  destruct (run_acyclic _ _ _ _ _ _ _ _ _ Ho Hac' E) as [R1 R2]. destruct (run_acyclic _ _ _ _ _ _ _ _ _ Ho' Hac' E') as [R1' R2'].
  unfold tab. apply Forall2_fmap, Forall_Forall2_diag, Forall_forall. intros v Hv.
  destruct (states_mono L LT (pb_cells p) (flow d p) (pb_pv p) (pb_pv p') (only d (split_rates (pb_rates p))) _ _ Hs N1 N2 (λ v _, Hpvf v)) with st st' (λ u, 0 ≤ u < pb_cells p) v as [EC EL]; try done.
  - intros u Hu. rewrite (tot_eq L _ _ _ _ _ Hs), only_value by apply (va_rates _ Hp).
    pose proof (Hslow u Hu) as Hsl. unfold slow_cell, total_in in Hsl. by rewrite Ef, Er, En in Hsl.
  - intros u Hu. apply (oc_cover _ _ _ Ho) in Hu. by destruct (R1 u Hu) as (? & ? & _).
  - intros u Hu. apply (oc_cover _ _ _ Ho') in Hu. by destruct (R1' u Hu) as (? & ? & _).
  - intros u Hu. apply R2. by rewrite (oc_cover _ _ _ Ho).
  - intros u Hu. apply R2'. by rewrite (oc_cover _ _ _ Ho').
  - intros u. lia.
  - destruct (max_sound L LT n0) as [Hm _]. apply (nmin_mono L); [apply Hn|apply Hn'|done|done].
Qed.
End toolbox.
