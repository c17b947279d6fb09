(** Multiplying volumes, fluxes and rates by the same factor. *)
From Coq Require Import QArith Qcanon.
From Verif.Model Require Import Base Num OMap Containers Solution AssembledConnections Tarjan TracerTofSolver Toolbox.
From Verif.Spec Require Import GraphSpec SccSpec SameFlowSpec.
From Verif.Proofs Require Import Util OMapFacts ExactNum QcLra OrdLaws Mirror AConn TarjanProps SolverBase ToolboxState ToolboxRates SolverRun SolverTop SolverGen ToolboxFlow ToolboxVal SameFlow.
Open Scope Z_scope.

Section scale.
Context (a : Qc) (Ha : (0 < a)%Qc).
Notation sc x := (xmul (Fin a) x).

Lemma a_ne : a ≠ 0%Qc.
Proof. intros E. rewrite E in Ha. by apply Qclt_not_eq in Ha. Qed.
Lemma ltb_iff x y x' y' : ((x < y)%Qc ↔ (x' < y')%Qc) → Qc_ltb x y = Qc_ltb x' y'.
Proof. intros H. apply eq_true_iff_eq. by rewrite !Qc_ltb_true. Qed.
Lemma lt_scale x y : ((a * x < a * y)%Qc ↔ (x < y)%Qc).
Proof. split; intros H; [|qcnra]. destruct (Qclt_le_dec x y); [done|]. exfalso. assert ((a * y <= a * x)%Qc) by qcnra. qclra. Qed.
Lemma ltb_scale x y : Qc_ltb (a * x)%Qc (a * y)%Qc = Qc_ltb x y.
Proof. apply ltb_iff, lt_scale. Qed.
Lemma mul0 x : (a * x)%Qc = 0%Qc ↔ x = 0%Qc.
Proof. split; [|intros ->; ring]. intros [E|E]%Qcmult_integral; [by apply a_ne in E|done]. Qed.
Lemma eqb_scale x y : Qc_eqb (a * x)%Qc (a * y)%Qc = Qc_eqb x y.
Proof.
  unfold Qc_eqb. destruct (Qcanon.Qc_eq_dec x y) as [Exy|Hne], (Qcanon.Qc_eq_dec (a * x)%Qc (a * y)%Qc) as [E|E]; [done| | |done].
  - by rewrite Exy in E.
  - exfalso. apply Hne. assert ((a * (x - y))%Qc = 0%Qc) as H by (transitivity (a * x - a * y)%Qc; [ring|rewrite E; ring]).
    apply (proj1 (mul0 _)) in H. transitivity (x - y + y)%Qc; [ring|rewrite H; ring].
Qed.
Lemma sc_inf b : xinf_scale b a = if b then PInf else MInf.
Proof.
  unfold xinf_scale, Qc_eqb. destruct (Qcanon.Qc_eq_dec a 0) as [E|_]; [by apply a_ne in E|].
  assert (Qc_ltb 0 a = true) as -> by (by apply Qc_ltb_true). by destruct b.
Qed.
Lemma sc_add x y : sc (xadd x y) = xadd (sc x) (sc y).
Proof. destruct x, y; cbn; rewrite ?sc_inf; cbn; try done. f_equal. ring. Qed.
Lemma sc_opp x : sc (xopp x) = xopp (sc x).
Proof. destruct x; cbn; rewrite ?sc_inf; cbn; try done. f_equal. ring. Qed.
Lemma sc_0 : sc (Fin 0) = Fin 0.
Proof. cbn. f_equal. ring. Qed.
Lemma sc_ltb x y : xltb (sc x) (sc y) = xltb x y.
Proof. destruct x, y; cbn; rewrite ?sc_inf; cbn; try done. apply ltb_scale. Qed.
Lemma sc_eqb x y : xeqb (sc x) (sc y) = xeqb x y.
Proof. destruct x, y; cbn; rewrite ?sc_inf; cbn; try done. apply eqb_scale. Qed.
Lemma sc_leb x y : xleb (sc x) (sc y) = xleb x y.
Proof. unfold xleb. by rewrite sc_ltb, sc_eqb. Qed.
Lemma inf_scale_mul b x : xinf_scale b (a * x)%Qc = xinf_scale b x.
Proof.
  unfold xinf_scale. pose proof (eqb_scale x 0) as E. pose proof (ltb_scale 0 x) as L.
  replace (a * 0)%Qc with 0%Qc in E, L by ring. by rewrite E, L.
Qed.
Lemma xmul_comm x y : xmul x y = xmul y x.
Proof. destruct x, y; cbn; try done. f_equal. ring. Qed.
Lemma sc_mul x y : xmul x (sc y) = sc (xmul x y).
Proof.
  destruct x as [x| | |], y as [y| | |]; cbn; rewrite ?sc_inf; cbn; rewrite ?inf_scale_mul; try done.
  - f_equal. ring.
  - unfold xinf_scale. destruct (Qc_eqb x 0); [done|]. by destruct (Qc_ltb 0 x).
  - unfold xinf_scale. destruct (Qc_eqb x 0); [done|]. by destruct (Qc_ltb 0 x).
  - unfold xinf_scale. destruct (Qc_eqb y 0); [done|]. by destruct (Qc_ltb 0 y).
  - unfold xinf_scale. destruct (Qc_eqb y 0); [done|]. by destruct (Qc_ltb 0 y).
Qed.
Lemma sc_mul_l x y : xmul (sc x) y = sc (xmul x y).
Proof. by rewrite (xmul_comm (sc x)), sc_mul, (xmul_comm y x). Qed.
Lemma sc_div x y : xdiv (sc x) (sc y) = xdiv x y.
Proof.
  destruct x as [x| | |], y as [y| | |]; cbn; rewrite ?sc_inf; cbn; try done;
    try (pose proof (ltb_scale 0 x) as L1; pose proof (eqb_scale x 0) as E1; replace (a * 0)%Qc with 0%Qc in L1, E1 by ring; rewrite L1, E1);
    try (pose proof (ltb_scale y 0) as L2; pose proof (eqb_scale y 0) as E2; replace (a * 0)%Qc with 0%Qc in L2, E2 by ring; rewrite ?L2, ?E2); try done.
  destruct (Qc_eqb y 0) eqn:E; [done|]. f_equal. unfold Qc_eqb in E. destruct (Qcanon.Qc_eq_dec y 0); [done|]. field. split; [done|apply a_ne].
Qed.
Lemma sc_div_l x y : (0 < y)%Qc → xdiv (sc x) (Fin y) = sc (xdiv x (Fin y)).
Proof.
  intros Hy. assert (Qc_eqb y 0 = false) as E.
  { unfold Qc_eqb. destruct (Qcanon.Qc_eq_dec y 0) as [->|]; [|done]. by apply Qclt_not_eq in Hy. }
  assert (Qc_ltb y 0 = false) as E2.
  { destruct (Qc_ltb y 0) eqn:E2; [|done]. apply Qc_ltb_true in E2. exfalso. qclra. }
  destruct x as [x| | |]; cbn; rewrite ?sc_inf; cbn; rewrite ?E, ?E2; cbn; rewrite ?sc_inf; try done.
  f_equal. field. intros ->. by apply Qclt_not_eq in Hy.
Qed.

Lemma sc_sum (l : list (@num exact)) : @sum_left exact (map (@nmul exact (Fin a)) l) = sc (@sum_left exact l).
Proof.
  unfold sum_left. rewrite exact_n0. rewrite <-sc_0 at 1. generalize (Fin 0) as b.
  induction l as [|x l IH]; intros b; [done|]. cbn [map foldl]. rewrite <-IH. f_equal. cbn [nadd exact]. rewrite sc_add. done.
Qed.
(** ** Problems *)
Local Arguments xmul : simpl never.
Local Arguments xltb : simpl never.
Local Arguments xopp : simpl never.
Local Arguments xeqb : simpl never.
Section problem.
Context (p : @problem exact).
Notation p' := (@scaled exact (Fin a) p).
Notation n := (pb_cells p).
Notation m := (pb_rates p).
Notation m' := (pb_rates p').
Definition scarc (x : @arc exact) : @arc exact := (x.1, sc x.2).

Lemma sc_net_arc x : @net_arc exact (x.1, map (@nmul exact (Fin a)) x.2) = scarc <$> @net_arc exact x.
Proof.
  unfold net_arc. cbn [fst snd]. rewrite sc_sum, exact_n0. set (w := @sum_left exact x.2 : xq).
  pose proof (sc_ltb (Fin 0) w) as L1. pose proof (sc_ltb w (Fin 0)) as L2. rewrite sc_0 in L1, L2.
  cbn [nltb nopp nmul exact num] in *. fold w. rewrite L1, L2. destruct (xltb (Fin 0) w); [done|]. destruct (xltb w (Fin 0)); [|done].
  cbn. unfold scarc. cbn. by rewrite sc_opp.
Qed.
Lemma sc_net_arcs : net_arcs p' = map scarc (net_arcs p).
Proof.
  unfold net_arcs. cbn [scaled pb_conns]. induction (pb_conns p) as [|x l IH]; [done|]. cbn [map omap list_omap].
  rewrite sc_net_arc. destruct (net_arc x); cbn [fmap option_fmap option_map map]; [f_equal|]; exact IH.
Qed.
Lemma sc_flow d : flow d p' = map scarc (flow d p).
Proof. destruct d; cbn [flow]; rewrite sc_net_arcs; [done|]. unfold turn. by rewrite !map_map. Qed.
Lemma sc_flows d u v : flows (flow d p') u v ↔ flows (flow d p) u v.
Proof. unfold flows. rewrite sc_flow, map_map. done. Qed.
Lemma sc_arc_flux d u v : arc_flux (flow d p') u v = sc (arc_flux (flow d p) u v).
Proof.
  unfold arc_flux. rewrite sc_flow, <-sc_sum. f_equal. induction (flow d p) as [|x l IH]; [done|]. cbn [map omap list_omap].
  unfold scarc at 1. cbn [fst snd]. destruct (decide (x.1 = (u, v))); cbn [map]; [f_equal|]; exact IH.
Qed.
Lemma sc_up d v : upstream n (flow d p') v = upstream n (flow d p) v.
Proof. unfold upstream. apply list_filter_iff. intros u. apply sc_flows. Qed.
Lemma sc_down d v : downstream n (flow d p') v = downstream n (flow d p) v.
Proof. unfold downstream. apply list_filter_iff. intros u. apply sc_flows. Qed.
Lemma sc_mix d h v : mix n (flow d p') h v = sc (mix n (flow d p) h v).
Proof.
  unfold mix. rewrite sc_up, <-sc_sum, map_map. f_equal. apply map_ext. intros u. rewrite sc_arc_flux. cbn [nmul exact]. apply sc_mul.
Qed.
Lemma sc_influx d v : influx n (flow d p') v = sc (influx n (flow d p) v).
Proof. unfold influx. rewrite sc_up, <-sc_sum, map_map. f_equal. apply map_ext. intros u. by rewrite sc_arc_flux. Qed.

Lemma sc_rate_part d x : @rate_part exact d (sc x) = (λ y, sc y) <$> @rate_part exact d x.
Proof.
  pose proof (sc_ltb (Fin 0) x) as L1. pose proof (sc_ltb x (Fin 0)) as L2. rewrite sc_0 in L1, L2.
  unfold rate_part. rewrite exact_n0. cbn [nltb exact nopp]. rewrite L1, L2. destruct d; destruct (xltb (Fin 0) x); cbn; try done.
  destruct (xltb x (Fin 0)); cbn; [|done]. by rewrite sc_opp.
Qed.
Lemma sc_well_rate d id c : well_rate d m' id c = (λ y, sc y) <$> well_rate d m id c.
Proof.
  unfold well_rate.
  assert (om_find id m' = (λ vals : @cellset_values exact, map (λ k : Z * @num exact, (k.1, @nmul exact (Fin a) k.2)) vals : @cellset_values exact) <$> om_find id m) as ->.
  { apply (find_map (λ vals : @cellset_values exact, map (λ k : Z * @num exact, (k.1, @nmul exact (Fin a) k.2)) vals : @cellset_values exact)). }
  destruct (om_find id m) as [vals|]; cbn [fmap option_fmap option_map]; [|done].
  assert (om_find c (map (λ k : Z * @num exact, (k.1, @nmul exact (Fin a) k.2)) vals) = @nmul exact (Fin a) <$> om_find c vals) as -> by apply (find_map (@nmul exact (Fin a))).
  destruct (om_find c vals) as [x|]; cbn [fmap option_fmap option_map]; [|done]. apply sc_rate_part.
Qed.
Lemma sc_cell_total d c : cell_total d m' c = sc (cell_total d m c).
Proof.
  unfold cell_total, cell_rates. rewrite <-sc_sum. f_equal.
  assert (map fst m' = map fst m) as -> by (cbn [scaled pb_rates]; by rewrite map_map).
  induction (map fst m) as [|id l IH]; [done|]. cbn [omap list_omap]. rewrite sc_well_rate. destruct (well_rate d m id c); cbn [fmap option_fmap option_map map]; [f_equal|]; exact IH.
Qed.
Lemma sc_valid : valid p → valid p'.
Proof.
  intros [H1 H2 H3 [np H4] [H5 H5'] H6 H7]. split; cbn [scaled pb_cells pb_conns pb_pv]; try done.
  - by destruct (pb_conns p).
  - by apply Forall_map.
  - exists np. apply Forall_map. eapply Forall_impl; [exact H4|]. intros x Hx. cbn. unfold zlen in *. by rewrite map_length.
  - cbn [scaled pb_rates]. split.
    + unfold map_ok. rewrite map_map. exact H5.
    + apply Forall_map. eapply Forall_impl; [exact H5'|]. intros e He. unfold map_ok. cbn. rewrite map_map. exact He.
  - unfold zlen in *. by rewrite map_length.
  - intros d id c x Hx. rewrite sc_well_rate in Hx. destruct (well_rate d m id c) as [y|] eqn:E; [|done]. by apply (H7 d id c y).
Qed.

Context (Hp : valid p).
Notation src d := (only d (split_rates m)).
Notation src' d := (only d (split_rates m')).
Lemma sc_value d v : value_at (src' d) v = sc (value_at (src d) v).
Proof. rewrite !only_value; [apply sc_cell_total|by apply va_rates|by apply va_rates, sc_valid]. Qed.
Lemma sc_pvf v : pvf (pb_pv p') v = sc (pvf (pb_pv p) v).
Proof.
  unfold pvf. cbn [scaled pb_pv]. rewrite list_lookup_fmap. destruct (pb_pv p !! Z.to_nat v); cbn [fmap option_fmap option_map default]; [done|].
  rewrite exact_n0. by rewrite sc_0.
Qed.

Section cell.
Context (d : direction) (inj inj' : Z → option (@num exact)) (Hinj : ∀ v, inj' v = (λ y, sc y) <$> inj v).
Lemma sc_start v : is_start inj' v = is_start inj v.
Proof. unfold is_start. rewrite Hinj. by destruct (inj v). Qed.
Lemma sc_src_eff v : src_eff (src' d) inj' v = sc (src_eff (src d) inj v).
Proof.
  unfold src_eff. rewrite sc_value, sc_start, exact_n0. pose proof (sc_eqb (value_at (src d) v) (Fin 0)) as E. rewrite sc_0 in E.
  cbn [neqb exact]. rewrite E. destruct (xeqb _ _ && _); [|done]. cbn [ninf exact]. unfold xmul. by rewrite sc_inf.
Qed.
Lemma sc_tot v : tot n (flow d p') (src' d) inj' v = sc (tot n (flow d p) (src d) inj v).
Proof. unfold tot. rewrite sc_influx, sc_src_eff. cbn [nadd exact]. by rewrite sc_add. Qed.
Lemma sc_uc c v : uc n (flow d p') inj' c v = sc (uc n (flow d p) inj c v).
Proof. unfold uc. rewrite Hinj, sc_mix. destruct (inj v); [|done]. cbn [fmap option_fmap option_map nadd exact]. by rewrite sc_add. Qed.
Lemma sc_cellc c v : cellc n (flow d p) (src d) inj c v = cellc n (flow d p') (src' d) inj' c v.
Proof.
  unfold cellc. rewrite sc_tot, sc_uc, exact_n0. cbn [neqb ndiv exact].
  set (T := tot n (flow d p) (src d) inj v). pose proof (sc_eqb T (Fin 0)) as E. rewrite sc_0 in E. rewrite E, sc_div. done.
Qed.
Lemma sc_cell_ok c v : cell_ok n (flow d p) (src d) inj c v = cell_ok n (flow d p') (src' d) inj' c v.
Proof.
  unfold cell_ok. rewrite sc_tot, sc_uc, exact_n0. cbn [neqb nleb exact].
  set (T := tot n (flow d p) (src d) inj v). set (U := uc n (flow d p) inj c v).
  pose proof (sc_eqb T (Fin 0)) as E. pose proof (sc_eqb U (Fin 0)) as E2. pose proof (sc_leb (Fin 0) T) as L. pose proof (sc_leb (Fin 0) U) as L2.
  rewrite sc_0 in *. by rewrite E, E2, L, L2.
Qed.
Lemma sc_cellt t c v cv : cellt n (flow d p) (pb_pv p) (src d) inj t c v cv = cellt n (flow d p') (pb_pv p') (src' d) inj' t c v cv.
Proof.
  unfold cellt. rewrite sc_tot, sc_pvf, sc_mix. set (T := tot n (flow d p) (src d) inj v).
  set (M := mix n (flow d p) (λ u, nmul (t u) (c u)) v). set (V := pvf (pb_pv p) v).
  cbn [nltb nmul ndiv nadd exact].
  assert (∃ q, @max_tof exact = Fin q ∧ (0 < q)%Qc) as (q & -> & Hq) by (eexists; split; [reflexivity|by vm_compute]).
  rewrite sc_div_l by done. rewrite sc_ltb. destruct (xltb T (xdiv V (Fin q))); [done|].
  destruct (xltb _ _); [|done]. by rewrite !sc_mul_l, <-sc_add, sc_div.
Qed.
End cell.

Lemma diagnose_scaled g f g' f' d ev sets : poses p g f → poses p' g' f' →
  diagnose d ev g' p' f' sets = diagnose d ev g p f sets.
Proof.
  intros HP HP'. symmetry. apply diagnose_congr; try done.
  - by apply sc_valid.
  - intros u _. by rewrite sc_down.
  - intros id c. rewrite sc_well_rate. destruct (well_rate d m id c); split; intros [? ?]; try done; by eexists.
  - intros id c x x' Hx Hx'. rewrite sc_well_rate, Hx in Hx'. injection Hx' as <-. pose proof (sc_ltb x (Fin 0)) as L.
    rewrite sc_0 in L. by rewrite exact_n0.
  - intros id. assert (∀ v, well_rate d m' id v = (λ y, sc y) <$> well_rate d m id v) as Hi by apply sc_well_rate.
    split_and!; intros; [by apply sc_cell_ok|by apply sc_cellc|by apply sc_cellt].
  - assert (∀ v, ginj (src' d) v = (λ y, sc y) <$> ginj (src d) v) as Hi.
    { intros v. unfold ginj. rewrite sc_value. pose proof (sc_ltb (Fin 0) (value_at (src d) v)) as L. rewrite sc_0 in L.
      rewrite exact_n0. cbn [nltb exact]. rewrite L. by destruct (xltb (Fin 0) (value_at (src d) v)). }
    split_and!; intros; [by apply sc_cell_ok|by apply sc_cellc|by apply sc_cellt].
Qed.
End problem.
End scale.
