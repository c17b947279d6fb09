(** Property C86: how much the diagnostics change when the fluxes, rates and pore
    volumes change a little. Toolbox.cpp and TracerTofSolver.cpp. *)
From Coq Require Import String QArith Qcanon.
From Verif.Model Require Import Base Num OMap Containers Solution AssembledConnections Tarjan TracerTofSolver Toolbox.
From Verif.Spec Require Import ToolboxSpec DerivedSpec MonotoneSpec ConditionSpec.
From Verif.Proofs Require Import OMapFacts ExactNum QcLra OrdLaws GaussSeidel ToolboxThms ToolboxExact Duality Balance Condition.
From Verif.Props Require Import Toolbox Monotone.
Open Scope Z_scope.

(** All numbers of the problem change by a factor of at most 1 + e. In a cell that
    is D layers down the flow, concentrations change by a factor of at most
    (1 + e)^(2 D + 2) and times-of-flight by one of at most (1 + e)^(4 D + 6). *)
Theorem C86_condition (p p' : @problem exact) e g f g' f' d ev ev' sets sets' sol sol' D : (0 <= e)%Qc → nearby e p p' →
  valid p → poses p g f → data finite p → pores_ok p → valid p' → poses p' g' f' → data finite p' →
  acyclic (net_arcs p) → layers d p D →
  (∀ v, 0 ≤ v < pb_cells p → slow_cell d p v = slow_cell d p' v) →
  diagnose d ev g p f sets = Ok (OSol sol) → diagnose d ev' g' p' f' sets' = Ok (OSol sol') →
  (∀ id, id ∈ map cs_id sets → id ∈ map cs_id sets' → ∀ v,
    both (about e (2 * D v + 2)) (om_find v (sol_concentration sol id)) (om_find v (sol_concentration sol' id)) ∧
    both (about e (4 * D v + 6)) (om_find v (sol_tof sol id)) (om_find v (sol_tof sol' id))) ∧
  ∀ v, 0 ≤ v < pb_cells p → ∃ t t', sol_global_tof sol !! Z.to_nat v = Some t ∧ sol_global_tof sol' !! Z.to_nat v = Some t' ∧
    about e (4 * D v + 6) t t'.
Proof.
  intros He HN Hp HP HD HV Hp' HP' HD' Hac HL Hs H H'. split.
  - intros id Hid Hid'. exact (near_local e He p p' HN Hp HD HV Hp' HD' g g' f f' HP HP' Hac d D HL Hs ev ev' sets sets' sol sol' id H H' Hid Hid').
  - exact (near_global e He p p' HN Hp HD HV Hp' HD' g g' f f' HP HP' Hac d D HL Hs ev ev' sets sets' sol sol' H H').
Qed.

(** The same for the whole grid: with n cells no value changes by more than the
    part 2 (4 n + 2) e of it, as long as that is at most one. *)
Lemma both_impl {N : Num} (R R' : num → num → Prop) x y : (∀ a b, R a b → R' a b) → both R x y → both R' x y.
Proof. destruct x, y; cbn; auto. Qed.
Theorem C86_linear (p p' : @problem exact) e g f g' f' d ev ev' sets sets' sol sol' : (0 <= e)%Qc → nearby e p p' →
  valid p → poses p g f → data finite p → pores_ok p → valid p' → poses p' g' f' → data finite p' →
  acyclic (net_arcs p) →
  (∀ v, 0 ≤ v < pb_cells p → slow_cell d p v = slow_cell d p' v) →
  let h := ((1 + 1) * (count (4 * Z.to_nat (pb_cells p) + 2) * e))%Qc in (h <= 1)%Qc →
  diagnose d ev g p f sets = Ok (OSol sol) → diagnose d ev' g' p' f' sets' = Ok (OSol sol') →
  (∀ id, id ∈ map cs_id sets → id ∈ map cs_id sets' → ∀ v,
    both (off_by h) (om_find v (sol_concentration sol id)) (om_find v (sol_concentration sol' id)) ∧
    both (off_by h) (om_find v (sol_tof sol id)) (om_find v (sol_tof sol' id))) ∧
  ∀ v, 0 ≤ v < pb_cells p → ∃ t t', sol_global_tof sol !! Z.to_nat v = Some t ∧ sol_global_tof sol' !! Z.to_nat v = Some t' ∧ off_by h t t'.
Proof.
  intros He HN Hp HP HD HV Hp' HP' HD' Hac Hs h Hh H H'.
  destruct (layers_exist p d g f ev sets sol Hp HP Hac H) as (D & HL & HDn).
  assert (∀ k x y, (k ≤ 4 * Z.to_nat (pb_cells p) + 2)%nat → about e k x y → off_by h x y) as Hoff.
  { intros k x y Hk Ha. apply (about_mono e He _ _ _ _ Hk) in Ha. destruct (about_lin e He _ x y Hh Ha) as (a & r & -> & -> & H1 & H2).
    exists a, r. split; [done|]. split; [done|]. split; [|exact H2].
    eapply Qcle_trans; [|exact H1]. assert (0 <= count (4 * Z.to_nat (pb_cells p) + 2) * e)%Qc as Hx by (apply qmul_nonneg; [apply qn_nonneg|done]).
    unfold h. change (qn (4 * Z.to_nat (pb_cells p) + 2)) with (count (4 * Z.to_nat (pb_cells p) + 2)). revert Hx. generalize (count (4 * Z.to_nat (pb_cells p) + 2) * e)%Qc. clear. intros. qclra. }
  destruct (C86_condition p p' e g f g' f' d ev ev' sets sets' sol sol' D He HN Hp HP HD HV Hp' HP' HD' Hac HL Hs H H') as [H1 H2]. split.
  - intros id Hid Hid' v. destruct (H1 id Hid Hid' v) as [Hc Ht]. specialize (HDn v). split; eapply both_impl; try eassumption; intros a b; apply Hoff; lia.
  - intros v Hv. destruct (H2 v Hv) as (t & t' & E1 & E2 & Ha). exists t, t'. split; [done|]. split; [done|]. specialize (HDn v). eapply Hoff; [|exact Ha]. lia.
Qed.

(** A check of [about] by computation. *)
Definition aboutb (e : Qc) (k : nat) (x y : @num exact) : bool :=
  match x, y with
  | Fin a, Fin b => if Qc_eqb a 0 then Qc_eqb b 0 && Qc_leb 1 ((1 + e) ^ k) else Qc_leb 1 (b / a * (1 + e) ^ k) && Qc_leb (b / a) ((1 + e) ^ k)
  | _, _ => false
  end%Qc.
Lemma leb_le a b : Qc_leb a b = true → (a <= b)%Qc.
Proof. unfold Qc_leb. intros H. apply negb_true_iff in H. by apply Qc_ltb_false in H. Qed.
Lemma aboutb_true e k x y : aboutb e k x y = true → about e k x y.
Proof.
  destruct x as [a| | |]; try discriminate. destruct y as [b| | |]; try discriminate. cbn [aboutb]. destruct (Qc_eqb a 0%Qc) eqn:Ea.
  - intros [Eb H]%andb_true_iff. apply Qc_eqb_true in Ea, Eb. apply leb_le in H. exists a, 1%Qc. rewrite Ea, Eb, Qcmult_1_l. by split_and!.
  - apply Qc_eqb_false in Ea. intros [H1 H2]%andb_true_iff. apply leb_le in H1, H2. exists a, (b / a)%Qc. split; [done|]. split; [|done]. f_equal. field. done.
Qed.
Lemma about_false e k x y : (∀ a, x = Fin a → a ≠ 0%Qc) → aboutb e k x y = false → ¬ about e k x y.
Proof.
  intros Hx H (a & r & -> & -> & H1 & H2). specialize (Hx a eq_refl). cbn [aboutb] in H. apply Qc_eqb_false in Hx as Ea. rewrite Ea in H.
  assert (a * r / a = r)%Qc as E by (field; done). rewrite E in H.
  apply andb_false_iff in H as [H|H]; unfold Qc_leb in H; apply negb_false_iff in H; apply Qc_ltb_true in H.
  - by apply (Qclt_not_le _ _ H).
  - by apply (Qclt_not_le _ _ H).
Qed.
Ltac about_tac := apply aboutb_true; vm_compute; reflexivity.
Ltac list_tac t := lazymatch goal with |- Forall2 _ (_ :: _) (_ :: _) => apply Forall2_cons; split; [t|list_tac t] | |- Forall2 _ [] [] => apply Forall2_nil_2 end.

(** The condition on slow cells is needed: in the example of C65 one unit of pore
    volume in some six thousand million halves a time-of-flight three layers down. *)
Definition tiny_e : Qc := Q2Qc (1 # 6307200000).
Lemma sl_nearby : nearby tiny_e (sl_p M) (sl_p (M + 1)).
Proof.
  split; [reflexivity| | |].
  - cbv [pb_conns sl_p]. list_tac ltac:(split; [reflexivity|about_tac]).
  - cbv [pb_pv sl_p map]. list_tac about_tac.
  - cbv [pb_rates sl_p]. list_tac ltac:(split; [reflexivity|cbv [snd]; list_tac ltac:(split; [reflexivity|about_tac])]).
Qed.
Lemma sl_layers : layers Injection (@sl_p exact M) Z.to_nat.
Proof.
  intros u v. unfold flows. assert (map fst (flow Injection (@sl_p exact M)) = [(0, 1); (1, 2); (2, 3)]) as -> by (vm_compute; reflexivity).
  intros H. repeat (apply elem_of_cons in H as [[= -> ->]|H]; [lia|]). by apply elem_of_nil in H.
Qed.
Theorem C86_slow_refuted : ∃ (p p' : @problem exact) e g f g' f' ev sets sol sol' id D t t', (0 <= e)%Qc ∧ nearby e p p' ∧
  valid p ∧ poses p g f ∧ data finite p ∧ pores_ok p ∧ valid p' ∧ poses p' g' f' ∧ data finite p' ∧
  acyclic (net_arcs p) ∧ layers Injection p D ∧
  diagnose Injection ev g p f sets = Ok (OSol sol) ∧ diagnose Injection ev g' p' f' sets = Ok (OSol sol') ∧
  id ∈ map cs_id sets ∧ om_find 3 (sol_tof sol id) = Some t ∧ om_find 3 (sol_tof sol' id) = Some t' ∧ ¬ about e (4 * D 3 + 6) t t'.
Proof.
  assert (solves (@sl_run exact M) (λ sol, solves (@sl_run exact (M + 1)) (λ sol',
    match om_find 3 (sol_tof sol "I"%string), om_find 3 (sol_tof sol' "I"%string) with
    | Some t, Some t' => nltb n0 t && negb (aboutb tiny_e 18 t t') | _, _ => false end)) = true) as (sol & H & H')%solves_inv
    by (vm_compute; reflexivity).
  apply solves_inv in H' as (sol' & H' & E).
  destruct (om_find 3 (sol_tof sol "I"%string)) as [t|] eqn:Et; [|discriminate E]. destruct (om_find 3 (sol_tof sol' "I"%string)) as [t'|] eqn:Et'; [|discriminate E].
  apply andb_true_iff in E as [Ep En]. apply negb_true_iff in En.
  exists (sl_p M), (sl_p (M + 1)), tiny_e, (graph_for (@sl_p exact M)), (values_for (sl_p M) 1), (graph_for (@sl_p exact (M + 1))), (values_for (sl_p (M + 1)) 1),
    ex_ev, [cs_new "I"%string], sol, sol', "I"%string, Z.to_nat, t, t'.
  split; [vm_compute; discriminate|]. split; [apply sl_nearby|].
  split; [apply sl_valid|]. split; [apply sl_poses|]. split; [exact (data_impl _ _ _ int_finite (sl_int M))|].
  split; [apply pores_by; vm_compute; reflexivity|]. split; [apply sl_valid|]. split; [apply sl_poses|]. split; [exact (data_impl _ _ _ int_finite (sl_int (M + 1)))|].
  split; [sl_acyclic_tac|]. split; [apply sl_layers|].
  split; [exact H|]. split; [exact H'|]. split; [left|]. split; [exact Et|]. split; [exact Et'|].
  apply about_false; [|exact En]. intros a -> ->. rewrite exact_n0 in Ep. discriminate Ep.
Qed.

(** The first example with other fluxes, rates and pore volumes, none of them
    off by more than a quarter. *)
Definition nb_p {N : Num} : problem := mkProblem 5
  [(0, 2, [nofZ 4; nofZ 1]); (2, 1, [nofZ (-1); nofZ (-1)]); (2, 3, [nofZ 1; nofZ 4]); (3, 4, [nofZ 2; nofZ (-2)])] (map nofZ [1; 2; 3; 5; 4])
  [("I1"%string, [(0, nofZ 5)]); ("I2"%string, [(1, nofZ 2)]); ("P"%string, [(3, nofZ (-5))])].
Lemma nb_valid {N : Num} : valid nb_p. Proof. valid_tac. Qed.
Lemma nb_poses {N : Num} : poses nb_p (graph_for nb_p) (values_for nb_p 2).
Proof. apply posed; [apply nb_valid|forall_tac|reflexivity]. Qed.
Lemma nb_int {N : Num} : data is_int nb_p.
Proof. split; intros; cbv [nb_p pb_conns pb_rates pb_pv map fst snd] in *; int_tac. Qed.
Lemma ex_nearby : nearby (Q2Qc (1 # 4)) ex_p nb_p.
Proof.
  split; [reflexivity| | |].
  - cbv [pb_conns ex_p ex_conns nb_p]. list_tac ltac:(split; [reflexivity|about_tac]).
  - cbv [pb_pv ex_p nb_p map]. list_tac about_tac.
  - cbv [pb_rates ex_p ex_rates nb_p]. list_tac ltac:(split; [reflexivity|cbv [snd]; list_tac ltac:(split; [reflexivity|about_tac])]).
Qed.
Definition ex_D (v : Z) : nat := if Z.ltb v 2 then 0 else Z.to_nat (v - 1).
Lemma ex_layers : layers Injection (@ex_p exact) ex_D.
Proof.
  intros u v. unfold flows. assert (map fst (flow Injection (@ex_p exact)) = [(0, 2); (1, 2); (2, 3)]) as -> by (vm_compute; reflexivity).
  intros H. repeat (apply elem_of_cons in H as [[= -> ->]|H]; [vm_compute; lia|]). by apply elem_of_nil in H.
Qed.
Definition nb_run {N : Num} := diagnose Injection ex_ev (graph_for nb_p) nb_p (values_for nb_p 2) ex_sets.
(** The concentration of I1 in cell 3 goes from 2/3 to 5/7 and its time-of-flight
    stays within the bound. *)
Example C86_ex : ∃ sol sol', ex_run Injection ex_sets = Ok (OSol sol) ∧ @nb_run exact = Ok (OSol sol') ∧
  both (about (Q2Qc (1 # 4)) 6) (om_find 3 (sol_concentration sol "I1"%string)) (om_find 3 (sol_concentration sol' "I1"%string)) ∧
  both (about (Q2Qc (1 # 4)) 14) (om_find 3 (sol_tof sol "I1"%string)) (om_find 3 (sol_tof sol' "I1"%string)) ∧
  holds (sol_concentration sol "I1"%string) [(0, n1); (2, frac 2 3); (3, frac 2 3)] = true ∧
  holds (sol_concentration sol' "I1"%string) [(0, n1); (2, frac 5 7); (3, frac 5 7)] = true.
Proof.
  assert (solves (@ex_run exact Injection ex_sets) (λ sol, solves (@nb_run exact) (λ sol',
    holds (sol_concentration sol "I1"%string) [(0, n1); (2, frac 2 3); (3, frac 2 3)] &&
    holds (sol_concentration sol' "I1"%string) [(0, n1); (2, frac 5 7); (3, frac 5 7)])) = true) as (sol & H & H')%solves_inv
    by (vm_compute; reflexivity).
  apply solves_inv in H' as (sol' & H' & E). apply andb_true_iff in E as [E1 E2]. exists sol, sol'. split; [exact H|]. split; [exact H'|].
  destruct (C86_condition ex_p nb_p (Q2Qc (1 # 4)) (graph_for (@ex_p exact)) (values_for ex_p 2) (graph_for (@nb_p exact)) (values_for nb_p 2) Injection ex_ev ex_ev ex_sets ex_sets sol sol' ex_D) as [Hc _].
  - vm_compute. discriminate.
  - exact ex_nearby.
  - apply ex_valid.
  - apply ex_poses.
  - exact (data_impl _ _ _ int_finite ex_int).
  - exact ex_pores.
  - apply nb_valid.
  - apply nb_poses.
  - exact (data_impl _ _ _ int_finite nb_int).
  - exact ex_acyclic.
  - exact ex_layers.
  - intros v Hv. cbn in Hv. assert (v = 0 ∨ v = 1 ∨ v = 2 ∨ v = 3 ∨ v = 4) as [->|[->|[->|[->| ->]]]] by lia; vm_compute; reflexivity.
  - exact H.
  - exact H'.
  - destruct (Hc "I1"%string ltac:(left) ltac:(left) 3) as [H1 H2]. split; [exact H1|]. split; [exact H2|]. split; [exact E1|exact E2].
Qed.

(** The exponent 2 D + 2 of concentrations cannot be lowered: a row of L + 1 cells
    with flux w from each to the next, a well A with rate a in the first cell and a
    well B with rate b in all of them. With w = a = b = 1 the concentration of A in
    the last cell is 1 / 2^(L + 1), with w = a = 1 / F and b = F it is
    1 / (1 + F F)^(L + 1). *)
Definition row (L : Z) (w a b : Qc) : @problem exact := mkProblem (L + 1) (map (λ i, (i, i + 1, [Fin w : @num exact])) (seqZ 0 L))
  (map (λ _, Fin 1%Qc : @num exact) (seqZ 0 (L + 1))) [("A"%string, [(0, Fin a : @num exact)]); ("B"%string, map (λ i, (i, Fin b : @num exact)) (seqZ 0 (L + 1)))].
Section row.
Context (L : Z) (w a b : Qc) (HL : 1 ≤ L < 2 ^ 31 - 1) (Hw : (0 < w)%Qc) (Ha : (0 < a)%Qc) (Hb : (0 < b)%Qc).
Notation r := (row L w a b).
Notation B := (map (λ i, (i, Fin b : @num exact)) (seqZ 0 (L + 1))).
Lemma keys_B : map fst B = seqZ 0 (L + 1).
Proof. rewrite map_map. apply map_id. Qed.
Lemma sorted_seqZ m n : StronglySorted (λ i j : Z, kcmp i j = Lt) (seqZ m n).
Proof.
  destruct (Z.le_gt_cases 0 n) as [Hn|Hn]; [|rewrite seqZ_nil by lia; constructor]. revert m. pattern n. apply natlike_ind; [|clear n Hn|done].
  - intros m. rewrite seqZ_nil by lia. constructor.
  - intros n Hn IH m. rewrite seqZ_cons by lia. replace (Z.pred (Z.succ n)) with n by lia. constructor; [apply IH|].
    apply Forall_forall. intros j Hj%elem_of_seqZ. apply Z.compare_lt_iff. lia.
Qed.
Lemma row_rates : rates_ok (pb_rates r).
Proof.
  split; [repeat constructor|]. apply Forall_cons. split; [repeat constructor|]. apply Forall_cons. split; [|apply Forall_nil_2].
  cbn [snd]. unfold map_ok. rewrite keys_B. apply sorted_seqZ.
Qed.
Lemma row_valid : valid r.
Proof.
  split; cbn [row pb_cells pb_conns pb_pv pb_rates].
  - lia.
  - rewrite seqZ_cons by lia. done.
  - apply Forall_forall. intros x Hx. apply elem_of_list_fmap in Hx as (i & -> & Hi%elem_of_seqZ). cbn. lia.
  - exists 1. apply Forall_forall. intros x Hx. by apply elem_of_list_fmap in Hx as (i & -> & _).
  - apply row_rates.
  - unfold zlen. rewrite map_length, seqZ_length. lia.
  - apply cells_in; [apply row_rates|]. apply Forall_forall. intros x Hx. apply Forall_forall. intros i Hi.
    apply elem_of_cons in Hx as [->|Hx]; [|apply elem_of_list_singleton in Hx as ->]; cbn [snd] in Hi.
    + apply elem_of_list_singleton in Hi as ->. cbn. lia.
    + rewrite keys_B in Hi. apply elem_of_seqZ in Hi. lia.
Qed.
Lemma row_poses : poses r (graph_for r) (values_for r 1).
Proof.
  apply posed; [apply row_valid| |].
  - apply Forall_forall. intros x Hx. by apply elem_of_list_fmap in Hx as (i & -> & _).
  - cbn [row pb_conns]. unfold zlen. rewrite map_length, seqZ_length. lia.
Qed.
Lemma row_data : data finite r.
Proof.
  split; cbn [row pb_conns pb_rates pb_pv].
  - intros x y Hx Hy. apply elem_of_list_fmap in Hx as (i & -> & _). apply elem_of_list_singleton in Hy as ->. by eexists.
  - intros x y Hx Hy. apply elem_of_cons in Hx as [->|Hx]; [|apply elem_of_list_singleton in Hx as ->]; cbn [snd] in Hy.
    + apply elem_of_list_singleton in Hy as ->. by eexists.
    + apply elem_of_list_fmap in Hy as (i & -> & _). by eexists.
  - intros x Hx. apply elem_of_list_fmap in Hx as (i & -> & _). by eexists.
Qed.
Lemma row_pores : pores_ok r.
Proof. intros x Hx. by apply elem_of_list_fmap in Hx as (i & -> & _). Qed.
Lemma row_arcs : net_arcs r = map (λ i, (i, i + 1, Fin w : @num exact)) (seqZ 0 L).
Proof.
  unfold net_arcs. cbn [row pb_conns]. induction (seqZ 0 L) as [|i l IH]; [done|]. cbn [map omap list_omap]. rewrite IH.
  unfold net_arc. cbn [fst snd]. assert (sum_left [Fin w : @num exact] = Fin w) as ->.
  { unfold sum_left. cbn [foldl]. rewrite exact_n0. change (Fin (0 + w)%Qc = Fin w). f_equal. ring. }
  rewrite exact_n0. change (@nltb exact (Fin 0%Qc) (Fin w)) with (Qc_ltb 0 w). by rewrite (proj2 (Qc_ltb_true _ _) Hw).
Qed.
Lemma row_flows u v : flows (flow Injection r) u v → v = u + 1 ∧ 0 ≤ u < L.
Proof.
  unfold flows, flow. rewrite row_arcs, map_map. intros H. apply elem_of_list_fmap in H as (i & E & Hi%elem_of_seqZ). injection E as -> ->. lia.
Qed.
Lemma row_layers : layers Injection r Z.to_nat.
Proof. intros u v Hf. apply row_flows in Hf. lia. Qed.
Lemma row_acyclic : acyclic (net_arcs r).
Proof.
  apply (acyclic_rank id). apply Forall_forall. intros [u v] H. apply (row_flows u v) in H. cbn. lia.
Qed.
Lemma row_W u v : Wt r Injection u v = if decide (u = v - 1 ∧ 0 ≤ u < L) then w else 0%Qc.
Proof.
  destruct (decide _) as [[-> Hr]|Hn].
  - unfold Wt, flow, arc_flux. rewrite row_arcs.
    assert (∀ l, NoDup l → v - 1 ∈ l → omap (λ x : @arc exact, if decide (x.1 = (v - 1, v)) then Some x.2 else None) (map (λ i, (i, i + 1, Fin w : @num exact)) l) = [Fin w : @num exact]) as Hl.
    { assert (∀ l, v - 1 ∉ l → omap (λ x : @arc exact, if decide (x.1 = (v - 1, v)) then Some x.2 else None) (map (λ i, (i, i + 1, Fin w : @num exact)) l) = []) as Hno.
      { induction l as [|i l IH]; [done|]. intros Hl. cbn [map omap list_omap fst snd]. rewrite decide_False; [apply IH; intros ?; apply Hl; by right|].
        intros [= E _]. apply Hl. rewrite E. left. }
      induction l as [|i l IH]; intros Hd Hin; [by apply elem_of_nil in Hin|]. apply NoDup_cons in Hd as [Hi Hd]. cbn [map omap list_omap fst snd].
      apply elem_of_cons in Hin as [Ei|Hin].
      - rewrite decide_True by (f_equal; lia). rewrite Hno; [done|]. by rewrite Ei.
      - rewrite decide_False; [by apply IH|]. intros [= E _]. by rewrite E in Hi. }
    rewrite Hl; [|apply NoDup_seqZ|apply elem_of_seqZ; lia]. unfold sum_left. cbn [foldl]. rewrite exact_n0. change (0 + w = w)%Qc. ring.
  - apply Wt_none. intros Hf. apply Hn. apply row_flows in Hf. lia.
Qed.
Lemma row_mix (h : Z → Qc) v : 0 ≤ v ≤ L → qsum (map (λ u, h u * Wt r Injection u v)%Qc (seqZ 0 (L + 1))) = if decide (v = 0) then 0%Qc else (h (v - 1)%Z * w)%Qc.
Proof.
  intros Hv. rewrite (qsum_ext _ (λ u, if decide (u = (v - 1)%Z) then (if decide (v = 0) then 0%Qc else (h (v - 1)%Z * w)%Qc) else 0%Qc)).
  - rewrite qsum_one by apply NoDup_seqZ. destruct (decide (v = 0)) as [->|Hne]; [by destruct (decide _)|]. rewrite decide_True; [done|]. apply elem_of_seqZ. lia.
  - intros u Hu%elem_of_seqZ. rewrite row_W. destruct (decide (u = v - 1)) as [->|Hne].
    + destruct (decide (v = 0)) as [->|Hv0]; [rewrite decide_False by lia; ring|]. rewrite decide_True by lia. done.
    + rewrite decide_False by tauto. ring.
Qed.
Lemma pos_part (x : Qc) : (0 < x)%Qc → rate_part Injection (Fin x : @num exact) = Some (Fin x : @num exact).
Proof. intros Hx. unfold rate_part. rewrite exact_n0. change (@nltb exact (Fin 0%Qc) (Fin x)) with (Qc_ltb 0 x). by rewrite (proj2 (Qc_ltb_true _ _) Hx). Qed.
Lemma row_A v : rq r Injection "A"%string v = if decide (v = 0) then a else 0%Qc.
Proof.
  unfold rq, well_rate. change (om_find "A"%string (pb_rates r)) with (Some [(0, Fin a : @num exact)]). cbn [om_find]. change (kcmp v 0) with (v ?= 0).
  destruct (decide (v = 0)) as [->|Hne]; [change (0 ?= 0) with Eq; cbn iota; by rewrite pos_part|]. destruct (Z.compare_spec v 0); [lia|done|done].
Qed.
Lemma row_B v : 0 ≤ v ≤ L → rq r Injection "B"%string v = b.
Proof.
  intros Hv. unfold rq, well_rate. change (om_find "B"%string (pb_rates r)) with (Some B). cbv beta iota.
  match goal with |- context [om_find v ?m] => assert (om_find v m = Some (Fin b : @num exact)) as -> end; [|by rewrite pos_part].
  apply om_find_elem; [unfold om_wf; rewrite keys_B; apply sorted_seqZ|]. apply elem_of_list_fmap. exists v. split; [done|]. apply elem_of_seqZ. lia.
Qed.
Lemma Tt_row v : 0 ≤ v ≤ L → Tt r Injection v = ((if decide (v = 0%Z) then a else w) + b)%Qc.
Proof.
  intros Hv. rewrite (Tt_eq r row_valid row_data row_pores). change (pb_cells r) with (L + 1).
  rewrite (qsum_ext _ (λ u, 1 * Wt r Injection u v)%Qc) by (intros; ring). rewrite (row_mix (λ _, 1%Qc) v Hv).
  cbn [row pb_rates map fst qsum foldr]. rewrite row_A, row_B by done. destruct (decide (v = 0)); ring.
Qed.
(** The concentration of well A. *)
Lemma row_conc ev sol (k : nat) : diagnose Injection ev (graph_for r) r (values_for r 1) [cs_new "A"%string] = Ok (OSol sol) → Z.of_nat k ≤ L →
  (cq sol "A"%string (Z.of_nat k) * ((a + b) * (w + b) ^ k) = a * w ^ k)%Qc.
Proof.
  intros H. destruct (local_exact r _ _ row_valid row_poses row_data row_pores row_acyclic Injection ev _ sol "A"%string H) as (τ & _ & X); [intros _; left|].
  pose proof Tt_row as HT.
  induction k as [|k IH]; intros Hk.
  - destruct (X 0) as (_ & _ & _ & _ & _ & E & _). change (pb_cells r) with (L + 1) in E. rewrite (row_mix (λ u, cq sol "A"%string u) 0), row_A, HT in E by lia.
    rewrite !decide_True in E by done. cbn [Qcpower]. change (Z.of_nat 0) with 0. rewrite Qcmult_1_r, (Qcmult_1_r a), Qcmult_comm, E. ring.
  - destruct (X (Z.of_nat (S k))) as (_ & _ & _ & _ & _ & E & _). change (pb_cells r) with (L + 1) in E.
    rewrite (row_mix (λ u, cq sol "A"%string u) _), row_A, HT in E by lia. rewrite !decide_False in E by lia.
    replace (Z.of_nat (S k) - 1) with (Z.of_nat k) in E by lia. specialize (IH ltac:(lia)).
    change ((w + b) ^ S k)%Qc with ((w + b) * (w + b) ^ k)%Qc. change (w ^ S k)%Qc with (w * w ^ k)%Qc.
    transitivity ((w + b) * cq sol "A"%string (Z.of_nat (S k)) * ((a + b) * (w + b) ^ k))%Qc; [ring|]. rewrite E.
    transitivity ((cq sol "A"%string (Z.of_nat k) * ((a + b) * (w + b) ^ k)) * w)%Qc; [ring|]. rewrite IH. ring.
Qed.
Lemma row_sets : sets_ok Injection r [cs_new "A"%string].
Proof.
  intros st Hst. apply elem_of_list_singleton in Hst as ->. split; [|intros c Hc; by apply elem_of_nil in Hc].
  exists 0, (Fin a : @num exact). unfold well_rate. change (om_find "A"%string (pb_rates r)) with (Some [(0, Fin a : @num exact)]). 
  change (om_find 0 [(0, Fin a : @num exact)]) with (Some (Fin a : @num exact)). cbn iota. by apply pos_part.
Qed.
End row.

Section pow.
Local Open Scope Qc_scope.
Lemma pow_pos x k : 0 < x → 0 < x ^ k.
Proof. intros Hx. induction k as [|k IH]; [done|]. change (x ^ S k) with (x * x ^ k). revert Hx IH. generalize (x ^ k). intros. qcnra. Qed.
Lemma pow_ge1 x k : 1 <= x → 1 <= x ^ k.
Proof. intros Hx. induction k as [|k IH]; [done|]. change (x ^ S k) with (x * x ^ k). revert Hx IH. generalize (x ^ k). intros. qcnra. Qed.
Lemma pow_mul x y k : (x * y) ^ k = x ^ k * y ^ k.
Proof. induction k as [|k IH]; [cbn; ring|]. change ((x * y) ^ S k) with (x * y * (x * y) ^ k). change (x ^ S k) with (x * x ^ k). change (y ^ S k) with (y * y ^ k). rewrite IH. ring. Qed.
Lemma pow_add x j k : x ^ (j + k) = x ^ j * x ^ k.
Proof. induction j as [|j IH]; [cbn; ring|]. change (x ^ (S j + k)) with (x * x ^ (j + k)). change (x ^ S j) with (x * x ^ j). rewrite IH. ring. Qed.
Lemma pow_one k : 1 ^ k = 1.
Proof. induction k as [|k IH]; [done|]. change (1 ^ S k) with (1 * 1 ^ k). rewrite IH. ring. Qed.
Lemma pow_lt x y k : 0 < x → x < y → x ^ S k < y ^ S k.
Proof.
  intros Hx Hy. induction k as [|k IH]; [cbn; qclra|]. change (x ^ S (S k)) with (x * x ^ S k). change (y ^ S (S k)) with (y * y ^ S k).
  pose proof (pow_pos x (S k) Hx) as H0. revert H0 IH. generalize (x ^ S k), (y ^ S k). intros. qcnra.
Qed.
(** The numbers of the two rows do not agree to exponent 2 k + 1. *)
Lemma sharp_numbers (k : nat) (F c c' : Qc) : F = (1 + 1) ^ S k → c * ((1 + 1) * (1 + 1) ^ k) = 1 * 1 ^ k →
  c' * ((/ F + F) * (/ F + F) ^ k) = / F * (/ F) ^ k → ¬ about (F - 1) (2 * k + 1) (Fin c) (Fin c').
Proof.
  intros EF E1 E2 (a & r & [= <-] & [= ->] & H1 & _). replace (1 + (F - 1)) with F in H1 by ring.
  assert (0 < F) as HF by (rewrite EF; by apply pow_pos). assert (F ≠ 0) as HF0 by (intros E; by rewrite E in HF).
  change ((1 + 1) * (1 + 1) ^ k) with ((1 + 1) ^ S k) in E1. rewrite <-EF, pow_one in E1.
  change ((/ F + F) * (/ F + F) ^ k) with ((/ F + F) ^ S k) in E2. change (/ F * (/ F) ^ k) with ((/ F) ^ S k) in E2.
  assert (r * (1 + F * F) ^ S k = F) as E.
  { assert (F ^ S k * (/ F) ^ S k = 1) as E3. { rewrite <-pow_mul. replace (F * / F) with 1 by (field; done). apply pow_one. }
    assert ((1 + F * F) ^ S k = F ^ S k * (/ F + F) ^ S k) as E4. { rewrite <-pow_mul. f_equal. field. done. }
    rewrite E4. apply (f_equal (λ x, F * (F ^ S k * x))) in E2. cbn beta in E2.
    transitivity (c * F * (r * (F ^ S k * (/ F + F) ^ S k))); [rewrite E1; ring|].
    transitivity (F * (F ^ S k * (c * r * (/ F + F) ^ S k))); [ring|]. rewrite E2, E3. ring. }
  assert (F <= r * (F * F) ^ S k) as H2.
  { replace ((F * F) ^ S k) with (F ^ (2 * k + 1) * F).
    - transitivity (1 * F); [rewrite Qcmult_1_l; apply Qcle_refl|]. rewrite Qcmult_assoc. apply Qcmult_le_compat_r; [done|by apply Qclt_le_weak].
    - rewrite pow_mul, <-pow_add. transitivity (F ^ (2 * k + 1 + 1)); [rewrite (pow_add F (2 * k + 1) 1); change (F ^ 1) with (F * 1); ring|]. f_equal. lia. }
  assert (0 < F * F) as HFF by (clear -HF; qcnra). assert (F * F < 1 + F * F) as Hlt by qclra.
  pose proof (pow_lt _ _ k HFF Hlt) as H3.
  pose proof (pow_pos _ (2 * k + 1) HF) as H4.
  assert (0 < r) as Hr. { destruct (Qclt_le_dec 0 r) as [|Hn]; [done|]. exfalso. revert Hn H1 H4. generalize (F ^ (2 * k + 1)). clear. intros. qcnra. }
  assert (r * (F * F) ^ S k < r * (1 + F * F) ^ S k) as H5.
  { clear -H3 Hr. revert H3. generalize ((F * F) ^ S k), ((1 + F * F) ^ S k). intros. qcnra. }
  rewrite E in H5. by apply (Qclt_not_le _ _ H5).
Qed.
End pow.

Theorem C86_sharp (L : Z) : 1 ≤ L < 2 ^ 31 - 1 → ∃ (p p' : @problem exact) e g f g' f' ev ev' sets sol sol' id D c c', (0 <= e)%Qc ∧ nearby e p p' ∧
  valid p ∧ poses p g f ∧ data finite p ∧ pores_ok p ∧ valid p' ∧ poses p' g' f' ∧ data finite p' ∧
  acyclic (net_arcs p) ∧ layers Injection p D ∧ D L = Z.to_nat L ∧
  (∀ v, 0 ≤ v < pb_cells p → slow_cell Injection p v = slow_cell Injection p' v) ∧
  diagnose Injection ev g p f sets = Ok (OSol sol) ∧ diagnose Injection ev' g' p' f' sets = Ok (OSol sol') ∧
  id ∈ map cs_id sets ∧ om_find L (sol_concentration sol id) = Some c ∧ om_find L (sol_concentration sol' id) = Some c' ∧
  ¬ about e (2 * D L + 1) c c'.
Proof.
  intros HL. set (k := Z.to_nat L). set (F := ((1 + 1) ^ S k)%Qc).
  assert (1 <= F)%Qc as HF1 by (by apply pow_ge1). assert (0 < F)%Qc as HF by (by apply pow_pos). assert (F ≠ 0)%Qc as HF0 by (intros E; by rewrite E in HF).
  assert (0 < / F)%Qc as HI. { destruct (qle_eq_or_lt (/ F)%Qc) as [E|]; [apply qinv_nonneg; by apply Qclt_le_weak| |done]. exfalso. assert (F * / F = 1)%Qc as E1 by (field; done). by rewrite E, Qcmult_0_r in E1. }
  assert (/ F * F = 1)%Qc as EI by (field; done). assert (/ F <= F)%Qc as HIF. { clear -HF1 HI EI. revert HI EI. generalize (/ F)%Qc. intros. qcnra. }
  pose (p := row L 1 1 1). pose (p' := row L (/ F) (/ F) F).
  assert (0 < 1)%Qc as H1 by done.
  pose proof (row_valid L 1 1 1 HL) as V. pose proof (row_valid L (/ F) (/ F) F HL) as V'.
  pose proof (row_poses L 1 1 1 HL) as P. pose proof (row_poses L (/ F) (/ F) F HL) as P'.
  pose proof (row_data L 1 1 1) as A. pose proof (row_data L (/ F) (/ F) F) as A'.
  pose proof (row_pores L 1 1 1) as R. pose proof (row_pores L (/ F) (/ F) F) as R'.
  pose proof (row_acyclic L 1 1 1 H1) as Hac. pose proof (row_layers L 1 1 1 H1) as Hly.
  destruct (Toolbox.C23_total p _ _ Injection V P A R) as (s & Hs). destruct (Toolbox.C23_total p' _ _ Injection V' P' A' R') as (s' & Hs').
  pose (ev := mkEnv (e_heap ex_ev) s). pose (ev' := mkEnv (e_heap ex_ev) s').
  destruct (proj1 (Hs ev [cs_new "A"%string] ltac:(reflexivity) ex_alloc)) as (sol & H); [by apply row_sets|].
  destruct (proj1 (Hs' ev' [cs_new "A"%string] ltac:(reflexivity) ex_alloc)) as (sol' & H'); [by apply row_sets|].
  assert (nearby (F - 1) p p') as HN.
  {
    assert (about (F - 1) 1 (Fin 1%Qc) (Fin (/ F)%Qc)) as Ad.
    { exists 1%Qc, (/ F)%Qc. split; [done|]. split; [f_equal; ring|]. replace ((1 + (F - 1)) ^ 1)%Qc with F by (change ((1 + (F - 1)) ^ 1)%Qc with ((1 + (F - 1)) * 1)%Qc; ring). split; [rewrite EI; apply Qcle_refl|done]. }
    assert (about (F - 1) 1 (Fin 1%Qc) (Fin F)) as Au.
    { exists 1%Qc, F. split; [done|]. split; [f_equal; ring|]. replace ((1 + (F - 1)) ^ 1)%Qc with F by (change ((1 + (F - 1)) ^ 1)%Qc with ((1 + (F - 1)) * 1)%Qc; ring). split; [|apply Qcle_refl]. clear -HF1. qcnra. }
    assert (about (F - 1) 1 (Fin 1%Qc) (Fin 1%Qc)) as A1.
    { exists 1%Qc, 1%Qc. split; [done|]. split; [done|]. replace ((1 + (F - 1)) ^ 1)%Qc with F by (change ((1 + (F - 1)) ^ 1)%Qc with ((1 + (F - 1)) * 1)%Qc; ring). split; [|done]. by rewrite Qcmult_1_l. }
    split; cbn [p p' row pb_cells pb_conns pb_pv pb_rates].
    - done.
    - apply Forall2_fmap, Forall_Forall2_diag, Forall_forall. intros i _. split; [done|]. cbn [snd].
      assert (∀ x : Qc, sum_left [Fin x : @num exact] = Fin x) as Es; [|by rewrite !Es].
      intros x. unfold sum_left. cbn [foldl]. rewrite exact_n0. change (Fin (0 + x)%Qc = Fin x). f_equal. ring.
    - apply Forall2_fmap, Forall_Forall2_diag, Forall_forall. by intros i _.
    - apply Forall2_cons; split; [split; [done|]; cbn [snd]; apply Forall2_cons; split; [by split|apply Forall2_nil_2]|].
      apply Forall2_cons; split; [|apply Forall2_nil_2]. split; [done|]. cbn [snd]. apply Forall2_fmap, Forall_Forall2_diag, Forall_forall. by intros i _. }
  assert (0 <= F - 1)%Qc as He by (clear -HF1; qclra).
  assert (∀ v, 0 ≤ v < pb_cells p → slow_cell Injection p v = slow_cell Injection p' v) as Hslow.
  { intros v Hv. change (pb_cells p) with (L + 1) in Hv. rewrite (slow_late (F - 1) He p p' HN R), (slow_late' (F - 1) He p p' HN R). unfold late.
    assert (∀ T : Qc, (1 <= T)%Qc → Qc_ltb T (1 / ExactRun.gs_M) = false) as Hf.
    { intros T HT. apply Qc_ltb_false. transitivity 1%Qc; [vm_compute; discriminate|done]. }
    assert (∀ w a b, (0 < w)%Qc → (0 < a)%Qc → (0 < b)%Qc → (1 <= w + b)%Qc → (1 <= a + b)%Qc → Qc_ltb (Tt (row L w a b) Injection v) (pvq (row L w a b) v / ExactRun.gs_M) = false) as Hr.
    { clear -Hf Hv HL. intros w a b Hw Ha Hb Hwb Hab. assert (pvq (row L w a b) v = 1%Qc) as ->.
      { unfold pvq, pore. cbn [row pb_pv]. rewrite list_lookup_fmap. rewrite (proj2 (lookup_seqZ 0 (L + 1) (Z.to_nat v) (0 + Z.of_nat (Z.to_nat v)))) by lia. done. }
      apply Hf. rewrite (Tt_row L w a b HL Hw Ha Hb v) by lia. by destruct (decide (v = 0)). }
    transitivity false; [|symmetry]; apply Hr; try done; clear -HF1 HI; qclra. }
  assert (Z.of_nat k = L) as Ek by (unfold k; lia).
  pose proof (row_conc L 1 1 1 HL H1 H1 H1 ev sol k H ltac:(lia)) as E1. pose proof (row_conc L (/ F) (/ F) F HL HI HI HF ev' sol' k H' ltac:(lia)) as E2.
  rewrite Ek in E1, E2.
  destruct (present p _ _ V P A R Injection ev _ sol "A"%string L H) as [(t & _ & Ec & _)|(_ & _ & Ec)]; [left| |].
  2:{ exfalso. rewrite Ec, Qcmult_0_l, pow_one in E1. discriminate E1. }
  destruct (present p' _ _ V' P' A' R' Injection ev' _ sol' "A"%string L H') as [(t' & _ & Ec' & _)|(_ & _ & Ec')]; [left| |].
  2:{ exfalso. rewrite Ec', Qcmult_0_l in E2. change (/ F * (/ F) ^ k)%Qc with ((/ F) ^ S k)%Qc in E2. pose proof (pow_pos (/ F)%Qc (S k) HI) as E3. by rewrite <-E2 in E3. }
  eexists p, p', (F - 1)%Qc, _, _, _, _, ev, ev', _, sol, sol', "A"%string, Z.to_nat, _, _.
  split; [exact He|]. split; [exact HN|]. split; [exact V|]. split; [exact P|]. split; [exact A|]. split; [exact R|]. split; [exact V'|]. split; [exact P'|]. split; [exact A'|].
  split; [exact Hac|]. split; [exact Hly|]. split; [reflexivity|]. split; [exact Hslow|]. split; [exact H|]. split; [exact H'|]. split; [left|].
  split; [exact Ec|]. split; [exact Ec'|]. fold k. by apply sharp_numbers.
Qed.

Print Assumptions C86_condition.
Print Assumptions C86_linear.
Print Assumptions C86_sharp.
Print Assumptions C86_slow_refuted.
