(** Problems with the same net flow have the same diagnosis. *)
From Coq Require Import QArith Qcanon.
From Verif.Model Require Import Base Num OMap Containers Solution AssembledConnections Tarjan TracerTofSolver Toolbox.
From Verif.Spec Require Import GraphSpec SccSpec SameFlowSpec.
From Verif.Proofs Require Import Util OMapFacts ExactNum QcLra OrdLaws Mirror AConn TarjanProps SolverBase ToolboxState ToolboxRates SolverRun SolverTop SolverGen ToolboxFlow ToolboxVal.
Open Scope Z_scope.

(** ** The compressed rows determine the arrays *)
Lemma rows_start n ia ja ia' ja' : wf_graph n ia ja → wf_graph n ia' ja' →
  ia !! O = Some 0 → ia' !! O = Some 0 →
  (∀ u, 0 ≤ u < n → SccSpec.csr_row ia ja u = SccSpec.csr_row ia' ja' u) →
  ∀ k, (k ≤ Z.to_nat n)%nat → ia !! k = ia' !! k.
Proof.
  intros W W' H0 H0' Hrow k. induction k as [|k IH]; intros Hk; [congruence|].
  pose proof (wf_len _ _ _ W) as L. pose proof (wf_len _ _ _ W') as L'.
  destruct (lookup_lt_is_Some_2 ia k) as [b Hb]; [lia|]. destruct (lookup_lt_is_Some_2 ia (S k)) as [e He]; [lia|].
  destruct (lookup_lt_is_Some_2 ia' (S k)) as [e' He']; [lia|].
  pose proof (IH ltac:(lia)) as Hb'. rewrite Hb in Hb'. symmetry in Hb'.
  specialize (Hrow (Z.of_nat k) ltac:(lia)). unfold SccSpec.csr_row in Hrow. rewrite Nat2Z.id, Hb, He, Hb', He' in Hrow.
  destruct (wf_row _ _ _ W (Z.of_nat k) b e) as (H1 & H2 & _); [lia|by rewrite Nat2Z.id|by rewrite Nat2Z.id|].
  destruct (wf_row _ _ _ W' (Z.of_nat k) b e') as (H1' & H2' & _); [lia|by rewrite Nat2Z.id|by rewrite Nat2Z.id|].
  assert (length (take (Z.to_nat (e - b)) (drop (Z.to_nat b) ja)) = length (take (Z.to_nat (e' - b)) (drop (Z.to_nat b) ja'))) as HL by (by rewrite Hrow).
  rewrite !take_length, !drop_length in HL. rewrite He, He'. f_equal. lia.
Qed.

Lemma rows_neigh n ia ja ia' ja' : wf_graph n ia ja → wf_graph n ia' ja' → (∀ k, (k ≤ Z.to_nat n)%nat → ia !! k = ia' !! k) →
  ia !! O = Some 0 → 
  (∀ u, 0 ≤ u < n → SccSpec.csr_row ia ja u = SccSpec.csr_row ia' ja' u) →
  ∀ k e, (k ≤ Z.to_nat n)%nat → ia !! k = Some e → take (Z.to_nat e) ja = take (Z.to_nat e) ja'.
Proof.
  intros W W' Hia H0 Hrow k. induction k as [|k IH]; intros e Hk He.
  - rewrite H0 in He. by injection He as <-.
  - pose proof (wf_len _ _ _ W) as L. destruct (lookup_lt_is_Some_2 ia k) as [b Hb]; [lia|].
    specialize (IH b ltac:(lia) Hb). specialize (Hrow (Z.of_nat k) ltac:(lia)). unfold SccSpec.csr_row in Hrow.
    rewrite Nat2Z.id, Hb, He, <-!Hia, Hb, He in Hrow by lia.
    destruct (wf_row _ _ _ W (Z.of_nat k) b e) as (H1 & H2 & _); [lia|by rewrite Nat2Z.id|by rewrite Nat2Z.id|].
    replace (Z.to_nat e) with (Z.to_nat b + Z.to_nat (e - b))%nat by lia.
    rewrite <-!take_take_drop. by rewrite IH, Hrow.
Qed.

Lemma same_rows {N : Num} n A A' g g' : graph_of n A g → graph_of n A' g' →
  (∀ u, 0 ≤ u < n → downstream n A u = downstream n A' u) →
  ac_start g = ac_start g' ∧ ac_neigh g = ac_neigh g'.
Proof.
  intros G G' Hd. pose proof (go_wf _ _ _ G) as W. pose proof (go_wf _ _ _ G') as W'.
  assert (∀ u, 0 ≤ u < n → SccSpec.csr_row (ac_start g) (ac_neigh g) u = SccSpec.csr_row (ac_start g') (ac_neigh g') u) as Hr.
  { intros u Hu. rewrite (go_row _ _ _ G), (go_row _ _ _ G') by done. by apply Hd. }
  pose proof (rows_start n _ _ _ _ W W' (go_first _ _ _ G) (go_first _ _ _ G') Hr) as Hk.
  assert (ac_start g = ac_start g') as Ea.
  { apply list_eq. intros k. destruct (decide (k ≤ Z.to_nat n)%nat); [by apply Hk|].
    rewrite !lookup_ge_None_2; [done|rewrite (wf_len _ _ _ W'); lia|rewrite (wf_len _ _ _ W); lia]. }
  split; [done|]. pose proof (go_last _ _ _ G) as L. pose proof (go_last _ _ _ G') as L'. rewrite <-Ea, L in L'.
  injection L' as L'. rewrite last_lookup, (wf_len _ _ _ W) in L. cbn in L.
  pose proof (rows_neigh n _ _ _ _ W W' Hk (go_first _ _ _ G) Hr _ _ (le_n _) L) as HH.
  rewrite Nat2Z.id in HH. rewrite firstn_all in HH. rewrite HH. apply take_ge. lia.
Qed.

(** ** Runs with equal cell updates *)
Section congr.
Context {N : Num} (n : Z) (A A' : list arc) (pv pv' : list num) (src src' : cellset_values) (inj inj' : Z → option num).
Context (Hok : ∀ c v, 0 ≤ v < n → cell_ok n A src inj c v = cell_ok n A' src' inj' c v).
Context (Hc : ∀ c v, 0 ≤ v < n → cellc n A src inj c v = cellc n A' src' inj' c v).
Context (Ht : ∀ t c v cv, 0 ≤ v < n → cellt n A pv src inj t c v cv = cellt n A' pv' src' inj' t c v cv).

Lemma run_cell_congr st v : 0 ≤ v < n → run_cell n A pv src inj st v = run_cell n A' pv' src' inj' st v.
Proof. intros Hv. unfold run_cell, upd_cell. by rewrite Hok, Hc, Ht. Qed.
Lemma run_gs_congr st v : 0 ≤ v < n → run_gs_cell n A pv src inj st v = run_gs_cell n A' pv' src' inj' st v.
Proof. intros Hv. unfold run_gs_cell. by rewrite run_cell_congr. Qed.
Lemma run_sweep_congr C st : Forall (λ v, 0 ≤ v < n) C → run_sweep n A pv src inj C st = run_sweep n A' pv' src' inj' C st.
Proof.
  intros H. unfold run_sweep. generalize (st, @n0 N, @n0 N). induction H as [|v C Hv _ IH]; intros x; [done|]. cbn [foldM].
  rewrite run_gs_congr by done. destruct (run_gs_cell n A' pv' src' inj' x v); [cbn [mbind res_bind]; apply IH|done..].
Qed.
Lemma run_loop_congr C fuel st dt dc : Forall (λ v, 0 ≤ v < n) C →
  run_loop n A pv src inj fuel C st dt dc = run_loop n A' pv' src' inj' fuel C st dt dc.
Proof.
  intros H. revert st dt dc. induction fuel as [|fuel IH]; intros st dt dc; [done|]. cbn [run_loop].
  destruct (nltb gs_tof_tol dt || nltb gs_tracer_tol dc); [|done]. rewrite run_sweep_congr by done.
  destruct (run_sweep n A' pv' src' inj' C st); [cbn [mbind res_bind]; apply IH|done..].
Qed.
Lemma run_congr fuel comps : Forall (Forall (λ v, 0 ≤ v < n)) comps →
  run n A pv src inj fuel comps = run n A' pv' src' inj' fuel comps.
Proof.
  intros H. unfold run. generalize (@zero_state N). induction H as [|C comps HC _ IH]; intros st; [done|]. cbn [foldM].
  assert (run_comp n A pv src inj fuel st C = run_comp n A' pv' src' inj' fuel st C) as ->.
  { unfold run_comp. destruct C as [|v [|w C]]; [by apply run_loop_congr|apply run_cell_congr; by inv HC|by apply run_loop_congr]. }
  destruct (run_comp n A' pv' src' inj' fuel st C); [cbn [mbind res_bind]; apply IH|done..].
Qed.
End congr.

(** ** Diagnoses *)
Section diagnose.
Context {N : Num} (p p' : problem) (g g' : cgraph) (f f' : cvalues).
Context (Hp : valid p) (HP : poses p g f) (Hp' : valid p') (HP' : poses p' g' f').
Context (d : direction).
Notation n := (pb_cells p).
Notation A := (flow d p).
Notation A' := (flow d p').
Notation m := (pb_rates p).
Notation m' := (pb_rates p').
Notation src d := (only d (split_rates m)).
Notation src' d := (only d (split_rates m')).
Notation starts d id := (default [] (om_find id (by_id d (split_rates m)))).
Notation starts' d id := (default [] (om_find id (by_id d (split_rates m')))).
Notation same A A' pv pv' src src' inj inj' := (
  (∀ c v, 0 ≤ v < n → cell_ok n A src inj c v = cell_ok n A' src' inj' c v) ∧
  (∀ c v, 0 ≤ v < n → cellc n A src inj c v = cellc n A' src' inj' c v) ∧
  (∀ t c v cv, 0 ≤ v < n → cellt n A pv src inj t c v cv = cellt n A' pv' src' inj' t c v cv)).
Context (Hn : pb_cells p' = n).
Context (Hdown : ∀ u, 0 ≤ u < n → downstream n A u = downstream n A' u).
Context (Hkeys : ∀ id c, is_Some (well_rate d m id c) ↔ is_Some (well_rate d m' id c)).
Context (Hneg : ∀ id c x x', well_rate d m id c = Some x → well_rate d m' id c = Some x' → nltb x n0 = nltb x' n0).
Context (Hloc : ∀ id, same A A' (pb_pv p) (pb_pv p') (src d) (src' d) (λ v, well_rate d m id v) (λ v, well_rate d m' id v)).
Context (Hglob : same A A' (pb_pv p) (pb_pv p') (src d) (src' d) (ginj (src d)) (ginj (src' d))).

Lemma run_inj_ext nn B pv sr inj inj2 fuel comps : (∀ v, inj v = inj2 v) → Forall (Forall (λ v, 0 ≤ v < nn)) comps →
  run nn B pv sr inj fuel comps = run nn B pv sr inj2 fuel comps.
Proof.
  intros He HF. apply run_congr; [..|done]; intros; unfold cell_ok, cellc, cellt, tot, src_eff, uc, is_start; by rewrite !He.
Qed.

Lemma starts_keys id : map fst (starts d id) = map fst (starts' d id).
Proof.
  destruct (starts_ok p Hp d id) as (W & _ & K & _). destruct (starts_ok p' Hp' d id) as (W' & _ & K' & _).
  apply (sorted_lt_ext (map fst (starts d id)) (map fst (starts' d id))).
  - exact W.
  - exact W'.
  - intros c. by rewrite K, K', Hkeys.
Qed.
Lemma starts_neg id : existsb (λ kv, nltb kv.2 n0) (starts d id) = existsb (λ kv, nltb kv.2 n0) (starts' d id).
Proof.
  destruct (starts_ok p Hp d id) as (W & F & _ & _). destruct (starts_ok p' Hp' d id) as (W' & F' & _ & _).
  apply eq_true_iff_eq. rewrite !existsb_exists. split; intros ([c x] & Hin%elem_of_list_In & Hx); cbn in Hx.
  - apply om_find_elem in Hin; [|done]. rewrite F in Hin. destruct (proj1 (Hkeys id c)) as [x' Hx']; [by rewrite Hin|].
    exists (c, x'). split; [|cbn; by rewrite <-(Hneg id c x x')]. apply elem_of_list_In, om_find_elem; [done|]. by rewrite F'.
  - apply om_find_elem in Hin; [|done]. rewrite F' in Hin. destruct (proj2 (Hkeys id c)) as [x' Hx']; [by rewrite Hin|].
    exists (c, x'). split; [|cbn; by rewrite (Hneg id c x' x)]. apply elem_of_list_In, om_find_elem; [done|]. by rewrite F.
Qed.
Lemma well_congr id : is_well d m id ↔ is_well d m' id.
Proof.
  unfold is_well. split; intros (c & x & Hx).
  - destruct (proj1 (Hkeys id c)) as [x' Hx']; [by rewrite Hx|]. by exists c, x'.
  - destruct (proj2 (Hkeys id c)) as [x' Hx']; [by rewrite Hx|]. by exists c, x'.
Qed.
Lemma sets_congr sets : start_sets_ok (by_id d (split_rates m)) (src d) sets = start_sets_ok (by_id d (split_rates m')) (src' d) sets.
Proof.
  apply eq_true_iff_eq. rewrite !start_sets_iff by (by apply va_rates).
  apply forall_proper. intros st. apply forall_proper. intros _. rewrite well_congr. apply and_iff_compat_l.
  apply forall_proper. intros c. apply forall_proper. intros _.
  split; intros (id & Hx); exists id; [apply (proj1 (Hkeys id c))|apply (proj2 (Hkeys id c))]; destruct Hx as [x Hx]; by exists x.
Qed.

Section solvers.
Context (s s' : tts) (HS : solver_of n A (pb_pv p) (src d) s) (HS' : solver_of n A' (pb_pv p') (src' d) s').
Lemma comps_congr l : lcomps n s l = lcomps n s' l ∧ gcomps n s = gcomps n s'.
Proof.
  destruct (same_rows n A A' (ts_g s) (ts_g s') (so_g _ _ _ _ _ HS) (so_g _ _ _ _ _ HS') Hdown) as [E1 E2].
  unfold lcomps, gcomps. by rewrite E1, E2.
Qed.
Lemma comps_range (P : Z → Prop) comps : (∀ v, P v → 0 ≤ v < n) → ordered A P comps → Forall (Forall (λ v, 0 ≤ v < n)) comps.
Proof.
  intros HPr HO. destruct (ordered_len n A (pb_pv p) (src d) s HS P comps HPr HO) as (_ & _ & H).
  eapply Forall_impl; [exact H|]. by intros C [].
Qed.
Lemma local_congr h fuel id : local_val n A (pb_pv p) (src d) s h fuel (starts d id) = local_val n A' (pb_pv p') (src' d) s' h fuel (starts' d id).
Proof.
  destruct (starts_ok p Hp d id) as (W & F & K & R). destruct (starts_ok p' Hp' d id) as (W' & F' & _ & _).
  unfold local_val. rewrite starts_neg. rewrite <-starts_keys. rewrite <-(proj1 (comps_congr _)).
  assert (Forall (Forall (λ v, 0 ≤ v < n)) (lcomps n s (map fst (starts d id)))) as HF.
  { eapply comps_range; [|by eapply lcomps_ordered]. intros v (r & Hr & Hl).
    apply (leads_range n A r v (so_arcs _ _ _ _ _ HS)); [done|by apply R]. }
  rewrite (run_inj_ext n A (pb_pv p) (src d) _ (λ v, well_rate d m id v) fuel _ F HF).
  rewrite (run_inj_ext n A' (pb_pv p') (src' d) _ (λ v, well_rate d m' id v) fuel _ F' HF).
  destruct (Hloc id) as (H1 & H2 & H3). by rewrite (run_congr _ _ _ _ _ _ _ _ _ H1 H2 H3 fuel _ HF).
Qed.
Lemma global_congr h fuel : global_val n A (pb_pv p) (src d) s h fuel = global_val n A' (pb_pv p') (src' d) s' h fuel.
Proof.
  unfold global_val. rewrite <-(proj2 (comps_congr [])).
  assert (Forall (Forall (λ v, 0 ≤ v < n)) (gcomps n s)) as HF.
  { eapply comps_range; [|by eapply gcomps_ordered]. done. }
  destruct Hglob as (H1 & H2 & H3). by rewrite (run_congr _ _ _ _ _ _ _ _ _ H1 H2 H3 fuel _ HF).
Qed.
End solvers.

Lemma diagnose_congr ev sets : diagnose d ev g p f sets = diagnose d ev g' p' f' sets.
Proof.
  destruct (diagnose_eq p g f Hp HP d) as (s & HS & ->). destruct (diagnose_eq p' g' f' Hp' HP' d) as (s' & HS' & ->).
  rewrite Hn in HS'. rewrite sets_congr. destruct (start_sets_ok _ _ _); [|done]. unfold val. rewrite Hn.
  rewrite (global_congr s s' HS HS').
  destruct (global_val n A' (pb_pv p') (src' d) s' (e_heap ev 0) (e_fuel ev)) as [[tof|e]| | | |]; [|done..].
  cbn [mbind res_bind].
  assert (∀ k sol, val_loop p d s ev k sol sets = val_loop p' d s' ev k sol sets) as ->; [|done].
  induction sets as [|st sets IH]; intros k sol; [done|]. cbn [val_loop]. rewrite Hn, (local_congr s s' HS HS').
  destruct (local_val n A' (pb_pv p') (src' d) s' (e_heap ev k) (e_fuel ev) (starts' d (cs_id st))) as [[tc|e]| | | |]; [|done..].
  cbn [mbind res_bind]. apply IH.
Qed.
End diagnose.

(** ** The same flow *)
Section flow.
Context {N : Num}.
Lemma turn_flows_iff (A A' : list arc) : (∀ u v, flows A u v ↔ flows A' u v) → ∀ u v, flows (turn A) u v ↔ flows (turn A') u v.
Proof. intros H u v. by rewrite !turn_flows. Qed.

Lemma flow_same p p' d : same_flow p p' →
  (∀ u v, flows (flow d p) u v ↔ flows (flow d p') u v) ∧ (∀ u v, arc_flux (flow d p) u v = arc_flux (flow d p') u v).
Proof.
  intros [H1 H2]. destruct d; cbn [flow]; [done|]. split; [by apply turn_flows_iff|]. intros u v. by rewrite !turn_flux.
Qed.

Lemma diagnose_same_flow p p' g g' f f' d ev sets : valid p → poses p g f → valid p' → poses p' g' f' →
  pb_cells p' = pb_cells p → pb_pv p' = pb_pv p → pb_rates p' = pb_rates p → same_flow p p' →
  diagnose d ev g p f sets = diagnose d ev g' p' f' sets.
Proof.
  intros Hp HP Hp' HP' En Epv Em HF. destruct (flow_same p p' d HF) as [H1 H2].
  assert (∀ v, upstream (pb_cells p) (flow d p) v = upstream (pb_cells p) (flow d p') v) as Hup.
  { intros v. unfold upstream. apply list_filter_iff. intros u. apply H1. }
  assert (∀ h v, mix (pb_cells p) (flow d p) h v = mix (pb_cells p) (flow d p') h v) as Hmix.
  { intros h v. unfold mix. rewrite Hup. f_equal. apply map_ext. intros u. by rewrite H2. }
  assert (∀ v, influx (pb_cells p) (flow d p) v = influx (pb_cells p) (flow d p') v) as Hin.
  { intros v. unfold influx. rewrite Hup. f_equal. apply map_ext. intros u. by rewrite H2. }
  apply diagnose_congr; try done.
  - intros u _. unfold downstream. apply list_filter_iff. intros v. apply H1.
  - by rewrite Em.
  - intros id c x x'. rewrite Em. congruence.
  - rewrite Em, Epv. intros id. split_and!; intros; unfold cell_ok, cellc, cellt, tot, uc; by rewrite ?Hmix, ?Hin.
  - rewrite Em, Epv. split_and!; intros; unfold cell_ok, cellc, cellt, tot, uc; by rewrite ?Hmix, ?Hin.
Qed.

Lemma same_arcs p p' : net_arcs p = net_arcs p' → same_flow p p'.
Proof. intros E. unfold same_flow. by rewrite E. Qed.
Lemma rephased_arcs p p' : Forall2 rephased (pb_conns p) (pb_conns p') → net_arcs p = net_arcs p'.
Proof.
  unfold net_arcs. induction 1 as [|x y l l' [E1 E2] _ IH]; [done|]. cbn [omap list_omap].
  assert (net_arc y = net_arc x) as -> by (unfold net_arc; by rewrite E1, E2). by rewrite IH.
Qed.
Lemma flipped_arc (L : neg_laws N) x : net_arc (flipped x) = net_arc x.
Proof.
  unfold net_arc, flipped. cbn [fst snd].
  assert (ng_rel N L (sum_left x.2) (sum_left (map nopp x.2))) as H.
  { unfold sum_left. pose proof (ng_rel0 N L) as H0. revert H0. generalize (@n0 N) at 1 3 as a. generalize (@n0 N) as a'.
    induction x.2 as [|w l IH]; intros a' a Ha; [done|]. cbn. apply IH. by apply (ng_add N L). }
  apply (ng_sign N L) in H as [->|(-> & -> & -> & ->)]; [|done].
  rewrite (ng_lt N L), (ng_inv N L). rewrite <-(ng_lt N L (nopp (sum_left x.2))), (ng_inv N L).
  destruct (nltb n0 (sum_left x.2)) eqn:E; [by rewrite (ng_asym N L)|]. by destruct (nltb (sum_left x.2) n0).
Qed.
Lemma flipped_arcs (L : neg_laws N) p p' : Forall2 (λ x y, y = x ∨ y = flipped x) (pb_conns p) (pb_conns p') → net_arcs p = net_arcs p'.
Proof.
  unfold net_arcs. induction 1 as [|x y l l' Hy _ IH]; [done|]. cbn [omap list_omap].
  assert (net_arc y = net_arc x) as -> by (destruct Hy as [->| ->]; [done|by apply flipped_arc]). by rewrite IH.
Qed.
Lemma idle_arcs p p' l1 l2 x : pb_conns p = l1 ++ l2 → pb_conns p' = l1 ++ x :: l2 → idle x → net_arcs p = net_arcs p'.
Proof.
  intros E1 E2 [I1 I2]. unfold net_arcs. rewrite E1, E2, !omap_app. cbn [omap list_omap].
  assert (net_arc x = None) as -> by (unfold net_arc; by rewrite I1, I2). done.
Qed.
End flow.

Lemma reordered_flow (p p' : @problem exact) : pb_conns p ≡ₚ pb_conns p' → same_flow p p'.
Proof.
  intros H. assert (net_arcs p ≡ₚ net_arcs p') as HA by (unfold net_arcs; by rewrite H). split.
  - intros u v. unfold flows. by rewrite HA.
  - intros u v. unfold arc_flux. apply sum_left_perm. by rewrite HA.
Qed.
