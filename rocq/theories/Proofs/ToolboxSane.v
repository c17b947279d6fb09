(** Valid problems satisfy the conditions of the range theorems. *)
From Verif.Model Require Import Base Num OMap Containers Solution AssembledConnections Tarjan TracerTofSolver Toolbox.
From Verif.Spec Require Import ToolboxSpec.
From Verif.Proofs Require Import Util OMapFacts AConn OrdLaws DerivedOrd ToolboxState ToolboxRates SolverBase SolverRun SolverTop SolverGen SolverOrd ToolboxFlow.
Open Scope Z_scope.

Record opp_laws {N : Num} (L : ord_laws N) := {
  op_ok a : o_ok N L a → o_ok N L (nopp a);
  op_pos a : o_ok N L a → nltb a n0 = true → nltb n0 (nopp a) = true
}.

Section sane.
Context {N : Num} (L : ord_laws N) (LO : opp_laws L).
Notation ok := (o_ok N L).
Notation nn x := (ok x ∧ nleb n0 x = true).
Context (p : problem) (Hp : valid p) (HD : data ok p).
Notation n := (pb_cells p).
Notation m := (pb_rates p).
Notation src d := (only d (split_rates m)).

Lemma sum_ok (l : list num) : Forall ok l → ok (sum_left l).
Proof.
  unfold sum_left. assert (∀ a, ok a → Forall ok l → ok (foldl nadd a l)) as H.
  { intros a Ha Hl. revert a Ha. induction Hl as [|x l Hx _ IH]; intros a Ha; [done|]. cbn. apply IH. by apply o_ok_add. }
  apply H, ol_ok0.
Qed.

Lemma net_arc_pos a : a ∈ net_arcs p → ok a.2 ∧ nltb n0 a.2 = true.
Proof.
  unfold net_arcs. intros (x & Hx & E)%elem_of_list_omap. unfold net_arc in E.
  assert (ok (sum_left x.2)) as Ho.
  { apply sum_ok, Forall_forall. intros w Hw. by apply (da_flux _ _ HD x w). }
  destruct (nltb n0 (sum_left x.2)) eqn:E1; [by injection E as <-|].
  destruct (nltb (sum_left x.2) n0) eqn:E2; [|done]. injection E as <-. cbn. split; [by apply (op_ok _ LO)|by apply (op_pos _ LO)].
Qed.
Lemma flow_pos d a : a ∈ flow d p → ok a.2 ∧ nltb n0 a.2 = true.
Proof.
  destruct d; cbn [flow]; [apply net_arc_pos|]. intros (b & -> & Hb)%elem_of_list_fmap. exact (net_arc_pos b Hb).
Qed.

Lemma rate_pos d id c x : well_rate d m id c = Some x → ok x ∧ nltb n0 x = true.
Proof.
  unfold well_rate. destruct (om_find id m) as [vals|] eqn:E1; [|done]. destruct (om_find c vals) as [y|] eqn:E2; [|done].
  apply om_find_elem in E1; [|apply (va_rates _ Hp)].
  pose proof (proj1 (Forall_forall _ _) (proj2 (va_rates _ Hp)) _ E1) as Hw. cbn in Hw.
  apply om_find_elem in E2; [|exact Hw].
  pose proof (da_rates _ _ HD _ _ E1 E2) as Oy. cbn in Oy.
  unfold rate_part. destruct d.
  - destruct (nltb n0 y) eqn:E; [|done]. by intros [= <-].
  - destruct (nltb n0 y) eqn:E; [done|]. destruct (nltb y n0) eqn:E'; [|done]. intros [= <-].
    split; [by apply (op_ok _ LO)|by apply (op_pos _ LO)].
Qed.
Lemma pos_nn x : ok x → nltb n0 x = true → nn x.
Proof. intros Ho Hx. split; [done|]. apply (o_lt_le N L); [apply ol_ok0|done|done]. Qed.

Lemma rates_nn d c : Forall (λ x, nn x) (cell_rates d m c).
Proof.
  apply Forall_forall. intros x (id & Hx)%cell_rates_elem. destruct (rate_pos _ _ _ _ Hx). by apply pos_nn.
Qed.
Lemma total_nn d c : nn (cell_total d m c).
Proof. apply sum_left_nn, rates_nn. Qed.

Lemma lt_le_pos a b : ok a → ok b → nltb n0 a = true → nleb a b = true → nltb n0 b = true.
Proof.
  intros Ha Hb H1 H2. pose proof (ol_ok0 L) as O0. destruct (nltb n0 b) eqn:E; [done|]. exfalso.
  pose proof (o_refl_r N L a b Ha Hb H2) as Rb.
  pose proof (o_total N L n0 b O0 Hb (ol_00 L) Rb E) as H3.
  pose proof (o_trans N L _ _ _ Ha Hb O0 H2 H3) as H4.
  pose proof (o_nlt N L _ _ Ha O0 H4). congruence.
Qed.
Lemma pos_ne a : ok a → nltb n0 a = true → neqb a n0 = false.
Proof.
  intros Ha H. rewrite (o_eq N L) by (done || apply ol_ok0). destruct (nleb a n0) eqn:E; [|done].
  rewrite (o_nlt N L a n0) in H; [done|done|apply ol_ok0|done].
Qed.

Lemma rate_le d id c x : well_rate d m id c = Some x → nleb x (cell_total d m c) = true ∧ nltb n0 (cell_total d m c) = true.
Proof.
  intros Hx. destruct (rate_pos _ _ _ _ Hx) as [Ox Px].
  assert (nleb x (cell_total d m c) = true) as Hle.
  { apply (elem_sum_left L); [apply rates_nn|]. apply cell_rates_elem. eauto. }
  split; [done|]. eapply lt_le_pos; [exact Ox|apply total_nn|done|done].
Qed.

Lemma sane_local d id inj (S : Z → Prop) :
  (∀ v, S v → nltb (nadd (influx n (flow d p) v) (cell_total d m v)) ninf = true) → (∀ v, inj v = well_rate d m id v) →
  sane L n (flow d p) (src d) inj S.
Proof.
  intros Hno Hinj. pose proof (va_rates _ Hp) as Hr. split.
  - apply flow_pos.
  - intros v. rewrite only_value by done. apply total_nn.
  - intros v r. rewrite Hinj, only_value by done. intros H. destruct (rate_pos _ _ _ _ H) as [Or Pr].
    destruct (rate_le _ _ _ _ H) as [H1 H2]. split_and!; [by apply pos_nn|by apply pos_nn|done|].
    apply pos_ne; [apply total_nn|done].
  - intros v Hv. rewrite only_value by done. by apply Hno.
Qed.
Lemma sane_global d (S : Z → Prop) :
  (∀ v, S v → nltb (nadd (influx n (flow d p) v) (cell_total d m v)) ninf = true) →
  sane L n (flow d p) (src d) (ginj (src d)) S.
Proof.
  intros Hno. pose proof (va_rates _ Hp) as Hr. split.
  - apply flow_pos.
  - intros v. rewrite only_value by done. apply total_nn.
  - intros v r. unfold ginj. rewrite only_value by done. destruct (nltb n0 (cell_total d m v)) eqn:E; [|done].
    intros [= <-]. destruct (total_nn d v) as [O1 L1]. split_and!; try done; [|by apply pos_ne].
    by apply (nn_refl L).
  - intros v Hv. rewrite only_value by done. by apply Hno.
Qed.

Lemma pvf_nn (HV : pores_ok p) v : nn (pvf (pb_pv p) v).
Proof.
  unfold pvf. destruct (pb_pv p !! Z.to_nat v) as [x|] eqn:E; cbn [default id].
  - split; [apply (da_pv _ _ HD)|apply HV]; by eapply elem_of_list_lookup_2.
  - apply nn0.
Qed.

(** Cells downstream of a start cell have a positive total. *)
Lemma influx_pos d u v : 0 ≤ v < n → flows (flow d p) u v → nltb n0 (influx n (flow d p) v) = true.
Proof.
  intros Hv Hf. assert (arcs_ok n (flow d p)) as Harc.
  { destruct d; cbn [flow]; [by apply net_arcs_ok|]. apply turn_ok. by apply net_arcs_ok. }
  assert (∀ u v, nn (arc_flux (flow d p) u v)) as Hnn.
  { intros u' v'. unfold arc_flux. apply sum_left_nn. apply Forall_forall. intros x (a & Ha & E)%elem_of_list_omap.
    destruct (decide (a.1 = (u', v'))); [|done]. injection E as <-. destruct (flow_pos d a Ha). by apply pos_nn. }
  assert (nltb n0 (arc_flux (flow d p) u v) = true) as Hpos.
  { pose proof Hf as Hf'. apply elem_of_list_fmap in Hf' as (a & Ea & Ha). destruct (flow_pos d a Ha) as [Oa Pa].
    eapply lt_le_pos; [exact Oa|apply Hnn|done|]. unfold arc_flux. apply (elem_sum_left L).
    - apply Forall_forall. intros x (b & Hb & E)%elem_of_list_omap.
      destruct (decide (b.1 = (u, v))); [|done]. injection E as <-. destruct (flow_pos d b Hb). by apply pos_nn.
    - apply elem_of_list_omap. exists a. split; [done|]. by rewrite decide_True. }
  destruct (Hnn u v) as [O1 _].
  eapply lt_le_pos; [exact O1| |done|].
  - apply sum_left_nn, Forall_map, Forall_forall. intros; apply Hnn.
  - apply (elem_sum_left L); [apply Forall_map, Forall_forall; intros; apply Hnn|].
    apply elem_of_list_fmap. exists u. split; [done|]. apply upstream_elem. split; [done|].
    by apply (flows_range n (flow d p) u v Harc).
Qed.
Lemma support_pos d v : 0 ≤ v < n →
  ((∃ id, is_Some (well_rate d m id v)) ∨ ∃ u, flows (flow d p) u v) →
  nltb n0 (nadd (influx n (flow d p) v) (cell_total d m v)) = true.
Proof.
  intros Hv Hs. destruct (total_nn d v) as [O1 L1].
  assert (nn (influx n (flow d p) v)) as [O2 L2].
  { apply sum_left_nn, Forall_map, Forall_forall. intros u _. unfold arc_flux. apply sum_left_nn. apply Forall_forall.
    intros x (a & Ha & E)%elem_of_list_omap.
    destruct (decide (a.1 = (u, v))); [|done]. injection E as <-. destruct (flow_pos d a Ha). by apply pos_nn. }
  assert (ok (nadd (influx n (flow d p) v) (cell_total d m v))) as O3 by by apply o_ok_add.
  destruct Hs as [(id & x & Hx)|(u & Hu)].
  - destruct (rate_le _ _ _ _ Hx) as [_ H]. pose proof (ol_ok0 L). 
    pose proof (o_0add N L _ O1 L1) as H1. assert (ok (nadd n0 (cell_total d m v))) as O4 by by apply o_ok_add.
    eapply (lt_le_pos (nadd n0 (cell_total d m v))); [done|done|by eapply (lt_le_pos (cell_total d m v))|].
    apply (o_add N L); try done; [apply (ol_00 L)|by apply (nn_refl L)].
  - pose proof (influx_pos d u v Hv Hu) as H. eapply lt_le_pos; [exact O2|done|done|]. by apply (ol_add_le L).
Qed.
End sane.
