(** The diagnostics of flows without cycles, computed with doubles, stay close to
    those of exact arithmetic. *)
From Coq Require Import ZArith Reals Lra Psatz QArith Qcanon Qreals.
From Coq.Floats Require Import SpecFloat.
From Flocq Require Import Core.Core IEEE754.BinarySingleNaN.
From Verif.Proofs Require Import B64Bridge.
From Verif.Model Require Import Base Num OMap Containers Solution AssembledConnections Tarjan TracerTofSolver Toolbox.
From Verif.Spec Require Import AcyclicSpec AccuracySpec.
From Verif.Proofs Require Import Util OMapFacts ExactNum QcLra OrdLaws B64Laws DerivedExact ToolboxState ToolboxRates SolverBase SolverRun SolverTop SolverGen SolverOrd
  ToolboxFlow ToolboxVal ToolboxSane ToolboxThms GaussSeidel ExactRun Mirror Acyclic OppLaws TofLaws Rounding.
Open Scope Z_scope.

(** * Exact numbers as reals *)
Definition RV (y : @num exact) : R := QR (qv y).
Lemma RV_Fin q : RV (Fin q) = QR q.
Proof. done. Qed.
Lemma RV_0 : RV (@n0 exact) = 0%R.
Proof. apply QR_0. Qed.
Lemma RV_add x y : finite x → finite y → finite (nadd x y) ∧ RV (nadd x y) = (RV x + RV y)%R.
Proof. intros [a ->] [b ->]. split; [by eexists|]. apply QR_add. Qed.
Lemma RV_mul x y : finite x → finite y → finite (nmul x y) ∧ RV (nmul x y) = (RV x * RV y)%R.
Proof. intros [a ->] [b ->]. split; [by eexists|]. apply QR_mul. Qed.
Lemma RV_div x y : finite x → finite y → (RV y ≠ 0)%R → finite (ndiv x y) ∧ RV (ndiv x y) = (RV x / RV y)%R.
Proof.
  intros [a ->] [b ->] Hb. assert (b ≠ 0%Qc) as Hb'. { intros ->. apply Hb, QR_0. }
  cbn [ndiv exact]. unfold xdiv. rewrite (proj2 (Qc_eqb_false _ _) Hb'). split; [by eexists|]. by apply QR_div.
Qed.
Lemma RV_ltb x y : finite x → finite y → nltb x y = true ↔ (RV x < RV y)%R.
Proof. intros [a ->] [b ->]. cbn [nltb exact]. rewrite xltb_Fin. apply QR_lt. Qed.
Lemma RV_ltb_false x y : finite x → finite y → nltb x y = false ↔ (RV y <= RV x)%R.
Proof.
  intros Hx Hy. destruct (nltb x y) eqn:E.
  - apply RV_ltb in E; [|done..]. split; [done|lra].
  - split; [|done]. intros _. destruct (Rle_lt_dec (RV y) (RV x)) as [|Hl]; [done|]. apply RV_ltb in Hl; [|done..]. congruence.
Qed.

(** * A double that stands for an exact number *)
Record app (k : nat) (lo hi : Z) (x : @num b64) (y : @num exact) : Prop := {
  ap_fin : finite y;
  ap_near : near k x (RV y);
  ap_tame : tame lo hi (RV y)
}.
Lemma app_mono j k lo hi lo' hi' x y : (j ≤ k)%nat → lo' ≤ lo → hi ≤ hi' → app j lo hi x y → app k lo' hi' x y.
Proof. intros Hk Hl Hh [H1 H2 H3]. split; [done|by eapply near_mono|by eapply tame_mono]. Qed.
Lemma app_0 k lo hi : app k lo hi n0 n0.
Proof. split; [by eexists|rewrite RV_0; apply near_0|rewrite RV_0; apply tame_0]. Qed.
Lemma app_add k lo hi x y x' y' : app k lo hi x y → app k lo hi x' y' → Z.of_nat k ≤ 2 ^ 50 → -1000 ≤ lo → hi ≤ 999 →
  app (S k) lo (hi + 1) (nadd x x') (nadd y y').
Proof.
  intros [H1 H2 H3] [H1' H2' H3'] Hk Hl Hh. destruct (RV_add y y' H1 H1') as [Hf E]. pose proof (tame_add _ _ _ _ H3 H3') as Ht.
  split; [done| |by rewrite E]. rewrite E. apply near_add; try done. eapply tame_mono; [| |exact Ht]; lia.
Qed.
Lemma app_mul j k lo hi lo' hi' x y x' y' : app j lo hi x y → app k lo' hi' x' y' → Z.of_nat (j + k) ≤ 2 ^ 50 → -1000 ≤ lo + lo' → hi + hi' ≤ 1000 →
  app (S (j + k)) (lo + lo') (hi + hi') (nmul x x') (nmul y y').
Proof.
  intros [H1 H2 H3] [H1' H2' H3'] Hk Hl Hh. destruct (RV_mul y y' H1 H1') as [Hf E]. pose proof (tame_mul _ _ _ _ _ _ H3 H3') as Ht.
  split; [done| |by rewrite E]. rewrite E. apply near_mul; try done. eapply tame_mono; [| |exact Ht]; lia.
Qed.
Lemma app_div j k lo hi lo' hi' lo2 hi2 x y x' y' : app j lo hi x y → app k lo' hi' x' y' → (0 < RV y')%R → Z.of_nat (j + k) ≤ 2 ^ 50 →
  -1000 ≤ lo2 → hi2 ≤ 1000 → tame lo2 hi2 (RV y / RV y') → app (S (j + k)) lo2 hi2 (ndiv x x') (ndiv y y').
Proof.
  intros [H1 H2 H3] [H1' H2' H3'] Hp Hk Hl Hh Ht. destruct (RV_div y y' H1 H1' ltac:(lra)) as [Hf E].
  split; [done| |by rewrite E]. rewrite E. apply near_div; try done. eapply tame_mono; [| |exact Ht]; lia.
Qed.
Lemma bpow_sum i hi : Z.of_nat i ≤ 2 ^ 50 → (INR i * bpow radix2 hi <= bpow radix2 (hi + 50))%R.
Proof.
  intros Hi. rewrite Z.add_comm, bpow_plus. apply Rmult_le_compat_r; [apply bpow_ge_0|].
  rewrite INR_IZR_INZ. change (bpow radix2 50) with (IZR (2 ^ 50)). by apply IZR_le.
Qed.
Lemma app_sum {X} k lo hi (h : X → @num b64) (h' : X → @num exact) (l : list X) : (∀ x, x ∈ l → app k lo hi (h x) (h' x)) →
  Z.of_nat (k + length l) ≤ 2 ^ 50 → -1000 ≤ lo → hi ≤ 900 → app (k + length l) lo (hi + 50) (sum_left (map h l)) (sum_left (map h' l)).
Proof.
  intros Hl Hk Hlo Hhi. unfold sum_left.
  assert (∀ i acc acc', Z.of_nat (k + i + length l) ≤ 2 ^ 50 →
    finite acc' ∧ near (k + i) acc (RV acc') ∧ (RV acc' = 0 ∨ bpow radix2 lo <= RV acc')%R ∧ (RV acc' <= INR i * bpow radix2 hi)%R →
    let r := foldl nadd acc (map h l) in let r' := foldl nadd acc' (map h' l) in
    finite r' ∧ near (k + i + length l) r (RV r') ∧ (RV r' = 0 ∨ bpow radix2 lo <= RV r')%R ∧ (RV r' <= INR (i + length l) * bpow radix2 hi)%R) as HG.
  { clear Hk. induction l as [|x l IH]; intros i acc acc' Hb HA; cbn [map foldl length].
    - by rewrite !Nat.add_0_r.
    - cbn [length] in Hb. destruct HA as (A1 & A2 & A3 & A4). destruct (Hl x ltac:(left)) as [B1 B2 B3]. destruct (RV_add acc' (h' x) A1 B1) as [C1 C2].
      assert ((RV acc' + RV (h' x) <= INR (S i) * bpow radix2 hi)%R) as Hle. { destruct B3 as [_ B3]. rewrite S_INR. lra. }
      assert (0 <= RV acc')%R as P1 by apply A2. assert (0 <= RV (h' x))%R as P2 by apply B2.
      assert (RV acc' + RV (h' x) = 0 ∨ bpow radix2 lo <= RV acc' + RV (h' x))%R as Hz.
      { destruct A3 as [A3|A3]; [|right; lra]. destruct B3 as [[B3|B3] _]; [left|right]; lra. }
      replace (k + i + S (length l))%nat with (k + S i + length l)%nat by lia. replace (i + S (length l))%nat with (S i + length l)%nat by lia.
      apply IH.
      + intros y Hy. apply Hl. by right.
      + lia.
      + split; [done|]. rewrite C2. split; [|done]. replace (k + S i)%nat with (S (k + i)) by lia.
        apply near_add; [done|by eapply near_mono; [|exact B2]; lia|lia|].
        split.
        * destruct Hz as [Hz|Hz]; [by left|right]. eapply Rle_trans; [|exact Hz]. by apply bpow_le.
        * eapply Rle_trans; [exact Hle|]. eapply Rle_trans; [apply bpow_sum; lia|]. apply bpow_le. lia. }
  destruct (HG 0%nat n0 n0) as (H1 & H2 & H3 & H4).
  - rewrite Nat.add_0_r. exact Hk.
  - split; [by eexists|]. rewrite RV_0. split; [apply near_0|]. split; [by left|]. cbn. lra.
  - rewrite Nat.add_0_r in H2. split; [done|done|]. split; [done|]. eapply Rle_trans; [exact H4|]. apply bpow_sum. lia.
Qed.

(** * Doubles and the numbers they stand for *)
Lemma q_val x : is_finite_SF x = true → finite (q_of x) ∧ RV (q_of x) = SF2R radix2 x.
Proof.
  destruct x as [s|s| |s m e]; try done; intros _.
  - split; [by eexists|]. apply QR_0.
  - split; [by eexists|]. cbn [q_of]. rewrite RV_Fin, QR_mul, QR_pow2, QR_Q2Qc. cbn [SF2R]. unfold F2R. cbn [Fnum Fexp]. f_equal.
    unfold Q2R, inject_Z. cbn [Qnum Qden]. rewrite Rinv_1, Rmult_1_r. by destruct s.
Qed.
Lemma q_fin x : finite (q_of x) → is_finite_SF x = true.
Proof. destruct x as [s|s| |s m e]; try done; [destruct s|]; by intros [q Hq]. Qed.
Lemma q_sign (s : bool) m e : QR (Q2Qc (inject_Z (if s then Zneg m else Zpos m)) * pow2 e)%Qc = (IZR (if s then Zneg m else Zpos m) * bpow radix2 e)%R.
Proof.
  rewrite QR_mul, QR_pow2, QR_Q2Qc. f_equal. unfold Q2R, inject_Z. cbn [Qnum Qden]. by rewrite Rinv_1, Rmult_1_r.
Qed.
Lemma q_gt0 x : nltb n0 (q_of x) = nltb n0 x.
Proof.
  destruct x as [s|s| |s m e]; try done; [by destruct s..|]. change (@n0 b64) with (S754_zero false). rewrite exact_n0. cbn [q_of nltb exact b64].
  pose proof (bpow_gt_0 radix2 e) as Hb. destruct s; cbn [SFltb SFcompare].
  - apply (RV_ltb_false (Fin 0) (Fin _)); [by eexists..|]. rewrite !RV_Fin, QR_0, (q_sign true). pose proof (IZR_lt _ _ (Zlt_neg_0 m)). nra.
  - apply (RV_ltb (Fin 0) (Fin _)); [by eexists..|]. rewrite !RV_Fin, QR_0, (q_sign false). pose proof (IZR_lt 0 (Zpos m) ltac:(lia)). nra.
Qed.
Lemma q_lt0 x : nltb (q_of x) n0 = nltb x n0.
Proof.
  destruct x as [s|s| |s m e]; try done; [by destruct s..|]. change (@n0 b64) with (S754_zero false). rewrite exact_n0. cbn [q_of nltb exact b64].
  pose proof (bpow_gt_0 radix2 e) as Hb. destruct s; cbn [SFltb SFcompare].
  - apply (RV_ltb (Fin _) (Fin 0)); [by eexists..|]. rewrite !RV_Fin, QR_0, (q_sign true). pose proof (IZR_lt _ _ (Zlt_neg_0 m)). nra.
  - apply (RV_ltb_false (Fin _) (Fin 0)); [by eexists..|]. rewrite !RV_Fin, QR_0, (q_sign false). pose proof (IZR_lt 0 (Zpos m) ltac:(lia)). nra.
Qed.
Lemma q_opp x : q_of (nopp x) = nopp (q_of x).
Proof.
  destruct x as [s|s| |s m e]; try done.
  - by destruct s.
  - cbn [q_of nopp b64 exact SFopp xopp]. f_equal. apply QR_eq. rewrite QR_opp, !q_sign.
    destruct s; cbn [negb]; [change (Z.neg m) with (- Z.pos m)%Z|change (Z.neg m) with (- Z.pos m)%Z]; rewrite opp_IZR; lra.
Qed.
Lemma q_app x lo hi : b64_ok x → sized lo hi (q_of x) → app 0 lo hi x (q_of x).
Proof.
  intros Hx (q & E & H1 & H2). assert (finite (q_of x)) as Hf by (by exists q). destruct (q_val x (q_fin x Hf)) as [_ Ev].
  apply QR_le in H1, H2. rewrite QR_pow2 in H1, H2. assert (RV (q_of x) = QR q) as Eq by (by rewrite E).
  assert (0 <= RV (q_of x))%R as Hp. { rewrite Eq. eapply Rle_trans; [apply bpow_ge_0|exact H1]. }
  split; [done| |].
  - split; [done|]. split; [by apply q_fin|]. split; [done|]. rewrite Ev. apply rel_refl. by rewrite <-Ev.
  - rewrite Eq. split; [by right|done].
Qed.
Lemma app_close k lo hi x y : app k lo hi x y → close k (q_of x) y.
Proof.
  intros [[b ->] (H1 & H2 & H3 & H4) _]. destruct (q_val x H2) as [[a E] Ev]. exists a, b. split; [done|]. split; [done|]. apply within_rel.
  rewrite E in Ev. rewrite RV_Fin in Ev, H4. by rewrite Ev.
Qed.

(** * The problem in exact numbers *)
Section problem.
Context (p : @problem b64) (OR : ordinary p) (HD : @data b64 b64_ok p).
Notation p' := (exactly p).
Notation n := (pb_cells p).
Notation m := (pb_rates p).
Notation m' := (pb_rates p').
Definition qarc (x : @arc b64) : @arc exact := (x.1, q_of x.2).

Lemma ex_net_arc x : x ∈ pb_conns p → @net_arc exact (x.1, map q_of x.2) = qarc <$> @net_arc b64 x.
Proof.
  intros Hx. unfold net_arc. cbn [fst snd]. rewrite <-(or_net p OR x Hx), q_gt0, q_lt0, <-q_opp.
  destruct (nltb n0 (sum_left x.2)); [done|]. by destruct (nltb (sum_left x.2) n0).
Qed.
Lemma ex_net_arcs : net_arcs p' = map qarc (net_arcs p).
Proof.
  unfold net_arcs. cbn [exactly pb_conns]. pose proof ex_net_arc as H. induction (pb_conns p) as [|x l IH]; [done|]. cbn [map omap list_omap].
  rewrite H by left. destruct (net_arc x); cbn [fmap option_fmap option_map map]; [f_equal|]; (apply IH; intros; apply H; by right).
Qed.
Lemma ex_flow d : flow d p' = map qarc (flow d p).
Proof. destruct d; cbn [flow]; rewrite ex_net_arcs; [done|]. unfold turn. by rewrite !map_map. Qed.
Lemma ex_flows d u v : flows (flow d p') u v ↔ flows (flow d p) u v.
Proof. unfold flows. rewrite ex_flow, map_map. done. Qed.
Lemma ex_up d v : upstream n (flow d p') v = upstream n (flow d p) v.
Proof. unfold upstream. apply list_filter_iff. intros u. apply ex_flows. Qed.
Lemma ex_acyclic d : acyclic (flow d p) → acyclic (flow d p').
Proof.
  intros H v Hv. apply (H v). clear H. assert (∀ u v, tc (flows (flow d p')) u v → tc (flows (flow d p)) u v) as HH; [|by apply HH].
  clear v Hv. intros u v. induction 1 as [u v H|u w v H _ IH]; [apply tc_once|eapply tc_l; [|exact IH]]; by apply ex_flows.
Qed.
Lemma ex_rate_part d x : @rate_part exact d (q_of x) = q_of <$> @rate_part b64 d x.
Proof.
  unfold rate_part. rewrite q_gt0, q_lt0, <-q_opp. destruct d; destruct (nltb n0 x); try done. by destruct (nltb x n0).
Qed.
Lemma ex_well_rate d id c : well_rate d m' id c = q_of <$> well_rate d m id c.
Proof.
  unfold well_rate.
  assert (om_find id m' = (λ vals : @cellset_values b64, map (λ k : Z * @num b64, (k.1, q_of k.2)) vals : @cellset_values exact) <$> om_find id m) as ->.
  { apply (find_map (λ vals : @cellset_values b64, map (λ k : Z * @num b64, (k.1, q_of k.2)) vals : @cellset_values exact)). }
  destruct (om_find id m) as [vals|]; cbn [fmap option_fmap option_map]; [|done].
  assert (om_find c (map (λ k : Z * @num b64, (k.1, q_of k.2)) vals) = q_of <$> om_find c vals) as -> by apply (find_map q_of).
  destruct (om_find c vals) as [x|]; cbn [fmap option_fmap option_map]; [|done]. apply ex_rate_part.
Qed.
Lemma ex_cell_rates d c : cell_rates d m' c = map q_of (cell_rates d m c).
Proof.
  unfold cell_rates. assert (map fst m' = map fst m) as -> by (cbn [exactly pb_rates]; by rewrite map_map).
  induction (map fst m) as [|id l IH]; [done|]. cbn [omap list_omap]. rewrite ex_well_rate. destruct (well_rate d m id c); cbn [fmap option_fmap option_map map]; [f_equal|]; exact IH.
Qed.
Lemma ex_valid : valid p → valid p'.
Proof.
  intros [H1 H2 H3 [np H4] [H5 H5'] H6 H7]. split; cbn [exactly pb_cells pb_conns pb_pv]; try done.
  - by destruct (pb_conns p).
  - by apply Forall_map.
  - exists np. apply Forall_map. eapply Forall_impl; [exact H4|]. intros x Hx. cbn. unfold zlen in *. by rewrite map_length.
  - cbn [exactly pb_rates]. split.
    + unfold map_ok. rewrite map_map. exact H5.
    + apply Forall_map. eapply Forall_impl; [exact H5'|]. intros e He. unfold map_ok. cbn. rewrite map_map. exact He.
  - unfold zlen in *. by rewrite map_length.
  - intros d id c x Hx. rewrite ex_well_rate in Hx. destruct (well_rate d m id c) as [y|] eqn:E; [|done]. by apply (H7 d id c y).
Qed.
Lemma ex_served d id v : served p' d id v ↔ served p d id v.
Proof.
  assert (∀ u v, leads (flow d p') u v ↔ leads (flow d p) u v) as Hl.
  { intros a b. split; induction 1 as [a|a c b H _ IH]; try apply rtc_refl; (eapply rtc_l; [|exact IH]); by apply ex_flows. }
  unfold served. split; intros (r & Hr & H); exists r; (split; [|by apply Hl]).
  - rewrite ex_well_rate in Hr. destruct (well_rate d m id r); [by eexists|]. by destruct Hr.
  - rewrite ex_well_rate. destruct Hr as [x ->]. by eexists.
Qed.

Context (Hp : valid p) (d : direction).
Notation A := (flow d p).
Notation A' := (flow d p').
Definition fan (v : Z) : nat := length (filter (λ a : @arc b64, a.1.2 = v) A).
Definition taps (v : Z) : nat := length (cell_rates d m v).
Lemma cost_eq v : cost d p v = (4 * fan v + 2 * taps v + 6)%nat.
Proof. done. Qed.

Lemma arc_app a : a ∈ A → app 0 (-100) 100 a.2 (q_of a.2).
Proof.
  intros Ha. apply q_app; [by apply (flow_pos b64_laws b64_opp_laws p HD d a)|].
  destruct d; cbn [flow] in Ha.
  - apply (or_flux p OR (qarc a)). rewrite ex_net_arcs by done. by apply (elem_of_list_fmap_1 qarc).
  - apply elem_of_list_fmap in Ha as (b & -> & Hb). cbn [snd]. apply (or_flux p OR (qarc b)). rewrite ex_net_arcs by done.
    by apply (elem_of_list_fmap_1 qarc).
Qed.
Lemma flux_lists u v : ∃ l, l ⊆ A ∧ (length l ≤ fan v)%nat ∧ arc_flux A u v = sum_left (map snd l) ∧ arc_flux A' u v = sum_left (map (λ a : @arc b64, q_of a.2) l).
Proof.
  exists (filter (λ a : @arc b64, a.1 = (u, v)) A). split_and!.
  - intros a Ha. by apply elem_of_list_filter in Ha as [_ Ha].
  - unfold fan. clear. induction A as [|a l IH]; [done|]. rewrite !filter_cons. destruct (decide (a.1 = (u, v))) as [E|E].
    + rewrite decide_True by (by rewrite E). cbn [length]. lia.
    + destruct (decide _); cbn [length]; lia.
  - unfold arc_flux. f_equal. clear. induction A as [|a l IH]; [done|]. cbn [omap list_omap]. rewrite filter_cons.
    destruct (decide (a.1 = (u, v))); cbn [map]; [f_equal|]; exact IH.
  - unfold arc_flux. rewrite ex_flow by done. f_equal. clear. induction A as [|a l IH]; [done|]. cbn [map omap list_omap]. rewrite filter_cons.
    unfold qarc at 1. cbn [fst snd]. destruct (decide (a.1 = (u, v))); cbn [map]; [f_equal|]; exact IH.
Qed.
Lemma flux_app_cost u v : Z.of_nat (cost d p v) ≤ 2 ^ 50 → app (fan v) (-100) 150 (arc_flux A u v) (arc_flux A' u v).
Proof.
  rewrite cost_eq. intros Hk. destruct (flux_lists u v) as (l & Hl & Hn & -> & ->).
  assert (app (0 + length l) (-100) (100 + 50) (sum_left (map snd l)) (sum_left (map (λ a : @arc b64, q_of a.2) l))) as H.
  { apply app_sum; try lia. intros a Ha. apply arc_app. by apply Hl. }
  eapply app_mono; [| | |exact H]; lia.
Qed.
Lemma up_length v : (length (upstream n A v) ≤ fan v)%nat.
Proof.
  transitivity (length (map (λ a : @arc b64, a.1.1) (filter (λ a : @arc b64, a.1.2 = v) A))); [|by rewrite map_length].
  apply submseteq_length. apply NoDup_submseteq; [apply NoDup_filter, NoDup_seqZ|].
  intros u [Hu _]%elem_of_list_filter. unfold flows in Hu. apply elem_of_list_fmap in Hu as (a & E & Ha).
  apply elem_of_list_fmap. exists a. rewrite <-E. split; [done|]. apply elem_of_list_filter. by rewrite <-E.
Qed.
Lemma rate_app id v x : well_rate d m id v = Some x → app 0 (-100) 100 x (q_of x).
Proof.
  intros Hx. apply q_app; [by apply (rate_pos b64_laws b64_opp_laws p Hp HD d id v x)|].
  apply (or_rate p OR d id v). by rewrite ex_well_rate, Hx.
Qed.
Lemma total_app_cost v : Z.of_nat (cost d p v) ≤ 2 ^ 50 → app (2 * fan v + taps v + 1) (-100) 201 (total_in p d v) (total_in p' d v).
Proof.
  intros Hk. pose proof Hk as B. rewrite cost_eq in B. pose proof (up_length v) as Hu.
  assert (app (fan v + length (upstream n A v)) (-100) (150 + 50) (influx n A v) (influx n A' v)) as H1.
  { unfold influx. rewrite ex_up by done. apply app_sum; try lia. intros u _. by apply flux_app_cost. }
  assert (app (0 + taps v) (-100) (100 + 50) (cell_total d m v) (cell_total d m' v)) as H2.
  { unfold cell_total, taps. rewrite ex_cell_rates by done. rewrite <-(map_id (cell_rates d m v)) at 2. apply app_sum; try (unfold taps in *; lia).
    intros x (id & Hx)%cell_rates_elem. by eapply rate_app. }
  unfold total_in. cbn [exactly pb_cells].
  assert (app (S (2 * fan v + taps v)) (-100) (200 + 1) (nadd (influx n A v) (cell_total d m v)) (nadd (influx n A' v) (cell_total d m' v))) as H3.
  { apply app_add; try lia; [eapply app_mono; [| | |exact H1]|eapply app_mono; [| | |exact H2]]; lia. }
  eapply app_mono; [| | |exact H3]; lia.
Qed.

Context (kc kt : Z → nat) (BU : budget d p kc kt) (CL : clear_of_cutoff d p).
Lemma budget_v v : (4 * fan v + 2 * taps v + 6 ≤ kc v)%nat ∧ (2 * kc v + (4 * fan v + 2 * taps v + 6) ≤ kt v)%nat ∧ Z.of_nat (kt v) ≤ 2 ^ 50.
Proof. rewrite <-cost_eq. split; [apply BU|]. split; apply BU. Qed.
Lemma budget_cost v : Z.of_nat (cost d p v) ≤ 2 ^ 50.
Proof. pose proof (budget_v v). rewrite cost_eq. lia. Qed.
Lemma flux_app u v : app (fan v) (-100) 150 (arc_flux A u v) (arc_flux A' u v).
Proof. apply flux_app_cost, budget_cost. Qed.
Lemma mix_app k lo hi h h' v : (∀ u, flows A u v → app k lo hi (h u) (h' u)) → Z.of_nat (k + 2 * fan v + 1) ≤ 2 ^ 50 → -900 ≤ lo → hi ≤ 700 →
  app (k + 2 * fan v + 1) (lo - 100) (hi + 200) (mix n A h v) (mix n A' h' v).
Proof.
  intros H Hk Hlo Hhi. unfold mix. rewrite ex_up by done. pose proof (up_length v) as Hu.
  assert (app (S (k + fan v) + length (upstream n A v)) (lo + -100) (hi + 150 + 50)
    (sum_left (map (λ u, nmul (h u) (arc_flux A u v)) (upstream n A v))) (sum_left (map (λ u, nmul (h' u) (arc_flux A' u v)) (upstream n A v)))) as HA.
  { apply app_sum; try lia. intros u [Hu' _]%elem_of_list_filter. apply app_mul; [by apply H|apply flux_app|lia..]. }
  eapply app_mono; [| | |exact HA]; lia.
Qed.
Lemma total_app v : app (2 * fan v + taps v + 1) (-100) 201 (total_in p d v) (total_in p' d v).
Proof. apply total_app_cost, budget_cost. Qed.
Lemma own_app k id lo hi v x y : app k lo hi x y → Z.of_nat (k + 1) ≤ 2 ^ 50 → -1000 ≤ lo ≤ -100 → 100 ≤ hi ≤ 999 →
  app (k + 1) lo (hi + 1) (own p d id v x) (own p' d id v y) ∧ (RV y <= RV (own p' d id v y))%R.
Proof.
  intros H Hk Hlo Hhi. unfold own. rewrite ex_well_rate by done. destruct (well_rate d m id v) as [r|] eqn:Er; cbn [fmap option_fmap option_map].
  - pose proof (rate_app id v r Er) as Hr. split.
    + rewrite Nat.add_1_r. apply app_add; try lia; [done|]. eapply app_mono; [| | |exact Hr]; lia.
    + destruct H as [H1 _ _], Hr as [R1 R2 R3]. destruct (RV_add y (q_of r) H1 R1) as [_ ->]. pose proof (tame_nonneg _ _ _ R3). lra.
  - split; [|lra]. eapply app_mono; [| | |exact H]; lia.
Qed.
Lemma pore_app v : 0 ≤ v < n → app 0 (-100) 100 (pore p v) (pore p' v) ∧ (bpow radix2 (-100) <= RV (pore p' v))%R.
Proof.
  intros Hv. unfold pore. cbn [exactly pb_pv]. rewrite list_lookup_fmap.
  destruct (lookup_lt_is_Some_2 (pb_pv p) (Z.to_nat v)) as [x Ex]. { pose proof (va_pv _ Hp) as Hl. unfold zlen in Hl. lia. }
  rewrite Ex. cbn [fmap option_fmap option_map default]. assert (x ∈ pb_pv p) as Hx by (by eapply elem_of_list_lookup_2).
  assert (sized (-100) 100 (q_of x)) as Hs. { apply (or_pore p OR). by apply (elem_of_list_fmap_1 q_of). }
  split; [apply q_app; [by apply (da_pv _ _ HD)|done]|]. destruct Hs as (q & -> & H1 & _). apply QR_le in H1. by rewrite QR_pow2 in H1.
Qed.
Lemma cutoff_app : app 0 32 33 cutoff cutoff ∧ RV (@cutoff exact) = 6307200000%R.
Proof.
  assert (RV (@cutoff exact) = 6307200000%R) as E.
  { change (@cutoff exact) with (Fin (Q2Qc (inject_Z 6307200000))). rewrite RV_Fin, QR_Q2Qc. unfold Q2R, inject_Z. cbn [Qnum Qden].
    rewrite Rinv_1. lra. }
  split; [|done]. split; [by eexists| |].
  - rewrite E. split; [by vm_compute|]. split; [by vm_compute|]. split; [lra|].
    assert (SF2R radix2 (@cutoff b64) = 6307200000%R) as ->; [|apply rel_refl; lra].
    change (@cutoff b64) with (S754_finite false 6613578547200000 (-20)). cbn [SF2R cond_Zopp]. unfold F2R. cbn [Fnum Fexp].
    change (bpow radix2 (-20)) with (/ 1048576)%R. lra.
  - rewrite E. change (bpow radix2 32) with 4294967296%R. change (bpow radix2 33) with 8589934592%R. unfold tame.
    change (bpow radix2 32) with 4294967296%R. change (bpow radix2 33) with 8589934592%R. split; [right; lra|lra].
Qed.

Lemma sum_scale_le {X} (h h' : X → @num exact) l (B : R) :
  (∀ x, x ∈ l → finite (h x) ∧ finite (h' x) ∧ (RV (h x) <= B * RV (h' x))%R) →
  (RV (sum_left (map h l)) <= B * RV (sum_left (map h' l)))%R.
Proof.
  intros Hl. unfold sum_left.
  assert (∀ a b, finite a → finite b → (RV a <= B * RV b)%R → (RV (foldl nadd a (map h l)) <= B * RV (foldl nadd b (map h' l)))%R) as HG.
  { induction l as [|x l IH]; intros a b Ha Hb Hab; [done|]. cbn [map foldl]. destruct (Hl x ltac:(left)) as (H1 & H2 & H3).
    destruct (RV_add a (h x) Ha H1) as [F1 E1]. destruct (RV_add b (h' x) Hb H2) as [F2 E2].
    apply IH; try done; [intros y Hy; apply Hl; by right|]. rewrite E1, E2. lra. }
  apply HG; [by eexists..|]. rewrite RV_0. lra.
Qed.

Section cells.
Context (c τ : Z → @num b64) (c' τ' : Z → @num exact).
Definition accurate_at (v : Z) : Prop :=
  app (kc v) (-300) 0 (c v) (c' v) ∧ app (kt v) (-310) 90 (τ v) (τ' v) ∧ (RV (τ' v) <= INR (kc v) * 6307200000)%R.

Section cell.
Context (v : Z) (Hr : 0 ≤ v < n) (IHc : ∀ u, flows A u v → app (kc u) (-300) 0 (c u) (c' u)).
Notation T := (total_in p d v).
Notation T' := (total_in p' d v).
Notation K := (kc v - cost d p v)%nat.
(** What flows in of the tracer, with the sources of the cell. *)
Context (o : @num b64) (o' : @num exact) (eq_c : c v = ndiv o T ∧ c' v = ndiv o' T').
Context (HC : finite (c' v) ∧ (bpow radix2 (-300) <= RV (c' v) <= 1)%R).
Context (Ho : app (K + 2 * fan v + 1) (-400) 200 (mix n A c v) (mix n A' c' v) →
  app (K + 2 * fan v + taps v + 2) (-400) 201 o o' ∧ (RV (mix n A' c' v) <= RV o')%R).
Lemma K_up u : flows A u v → (kc u ≤ K)%nat.
Proof. intros Hu. pose proof (bu_conc_flow _ _ _ _ BU u v Hu). lia. Qed.
Lemma mixc_app : app (K + 2 * fan v + 1) (-400) 200 (mix n A c v) (mix n A' c' v).
Proof.
  pose proof (budget_v v) as (B1 & B2 & B3). rewrite cost_eq. 
  apply (mix_app _ (-300) 0); try lia. intros u Hu. pose proof (IHc u Hu) as H. pose proof (K_up u Hu) as Hk. rewrite cost_eq in Hk.
  eapply app_mono; [| | |exact H]; lia.
Qed.
Lemma own_app_v : app (K + 2 * fan v + taps v + 2) (-400) 201 o o' ∧ (RV (mix n A' c' v) <= RV o')%R.
Proof. apply Ho, mixc_app. Qed.
Lemma T_pos : (bpow radix2 (-100) <= RV T')%R.
Proof.
  destruct (total_app v) as [F _ [[HT|HT] _]]; [|done]. exfalso. destruct HC as [[q Hq] _].
  destruct eq_c as [_ E]. destruct own_app_v as [[[oq Eo] _ _] _]. destruct F as [t Ft]. rewrite Eo, Ft, Hq in E. rewrite Ft, RV_Fin in HT.
  assert (t = 0%Qc) as ->. { apply QR_eq. by rewrite QR_0. }
  cbn [ndiv exact] in E. unfold xdiv in E. change (Qc_eqb 0 0) with true in E. cbn iota in E.
  destruct (Qc_eqb oq 0); [done|]. by destruct (Qc_ltb 0 oq).
Qed.
Lemma T_pos0 : (0 < RV T')%R.
Proof. eapply Rlt_le_trans; [apply bpow_gt_0|apply T_pos]. Qed.
Lemma RV_c : (RV (c' v) * RV T' = RV o')%R.
Proof.
  destruct eq_c as [_ E]. pose proof T_pos0 as Ht.
  destruct (RV_div o' T') as [_ E2]; [apply own_app_v|apply (total_app v)|lra|].
  rewrite E, E2. field. lra.
Qed.
Lemma c_app : app (kc v) (-300) 0 (c v) (c' v).
Proof.
  pose proof (budget_v v) as (B1 & B2 & B3). destruct eq_c as [E E']. pose proof T_pos0 as Ht. pose proof RV_c as Ec.
  destruct own_app_v as [HO _]. pose proof (total_app v) as HT. rewrite cost_eq in HO.
  assert (app (S (kc v - (4 * fan v + 2 * taps v + 6) + 2 * fan v + taps v + 2 + (2 * fan v + taps v + 1))) (-300) 0 (c v) (c' v)) as H.
  { rewrite E, E'. eapply app_div; [exact HO|exact HT|done|lia|lia|lia|]. rewrite <-Ec.
    destruct HC as [_ [H1 H2]]. replace (RV (c' v) * RV T' / RV T')%R with (RV (c' v)) by (field; lra).
    split; [by right|]. change (bpow radix2 0) with 1%R. done. }
  eapply app_mono; [| | |exact H]; lia.
Qed.

Context (IH : ∀ u, flows A u v → accurate_at u).
Notation V := (pore p v).
Notation V' := (pore p' v).
Notation s := (mix n A (λ u, nmul (τ u) (c u)) v).
Notation s' := (mix n A' (λ u, nmul (τ' u) (c' u)) v).
Notation K' := (kt v - 2 * kc v - cost d p v)%nat.
Context (eq_t : τ v = travel V T (c v) s ∧ τ' v = travel V' T' (c' v) s').
Lemma s_app : app (K' + K + 2 * fan v + 2) (-710) 290 s s'.
Proof.
  pose proof (budget_v v) as (B1 & B2 & B3). rewrite cost_eq.
  replace (kt v - 2 * kc v - (4 * fan v + 2 * taps v + 6) + (kc v - (4 * fan v + 2 * taps v + 6)) + 2 * fan v + 2)%nat with
    (S (kt v - 2 * kc v - (4 * fan v + 2 * taps v + 6) + (kc v - (4 * fan v + 2 * taps v + 6))) + 2 * fan v + 1)%nat by lia.
  apply (mix_app _ (-610) 90); try lia. intros u Hu. destruct (IH u Hu) as (H1 & H2 & _).
  pose proof (K_up u Hu) as Hk. pose proof (bu_tof_flow _ _ _ _ BU u v Hu) as Hk2. rewrite cost_eq in *.
  change (-610) with (-310 + -300). change 90 with (90 + 0). apply app_mul; try lia; [eapply app_mono; [| | |exact H2]|eapply app_mono; [| | |exact H1]]; lia.
Qed.
Lemma s_bound : (RV s' <= (INR (kc v) - 1) * 6307200000 * (RV (c' v) * RV T'))%R.
Proof.
  pose proof (budget_v v) as (B1 & B2 & B3). assert (0 <= (INR (kc v) - 1) * 6307200000)%R as Hk.
  { assert (INR 1 <= INR (kc v))%R by (apply le_INR; lia). change (INR 1) with 1%R in *. lra. }
  apply (Rle_trans _ ((INR (kc v) - 1) * 6307200000 * RV (mix n A' c' v))).
  - unfold mix. apply sum_scale_le. intros u [Hu _]%elem_of_list_filter. apply ex_flows in Hu.
    destruct (IH u Hu) as (H1 & H2 & H3). pose proof (flux_app u v) as H4.
    destruct (RV_mul (τ' u) (c' u) (ap_fin _ _ _ _ _ H2) (ap_fin _ _ _ _ _ H1)) as [F1 E1].
    destruct (RV_mul _ (arc_flux A' u v) F1 (ap_fin _ _ _ _ _ H4)) as [F2 E2].
    destruct (RV_mul (c' u) (arc_flux A' u v) (ap_fin _ _ _ _ _ H1) (ap_fin _ _ _ _ _ H4)) as [F3 E3].
    split; [done|]. split; [done|]. rewrite E2, E1, E3, Rmult_assoc. apply Rmult_le_compat_r.
    + apply Rmult_le_pos; eapply tame_nonneg; [apply H1|apply H4].
    + eapply Rle_trans; [exact H3|]. apply Rmult_le_compat_r; [lra|].
      pose proof (K_up u Hu) as Hk2. rewrite cost_eq in Hk2. assert (INR (kc u + 1) <= INR (kc v))%R as Hl by (apply le_INR; lia).
      rewrite plus_INR in Hl. change (INR 1) with 1%R in Hl. lra.
  - apply Rmult_le_compat_l; [done|]. rewrite RV_c. apply own_app_v.
Qed.
Lemma pore_time : app 1 (-133) 68 (ndiv V cutoff) (ndiv V' cutoff) ∧ RV (ndiv V' cutoff) = (RV V' / 6307200000)%R.
Proof.
  destruct (pore_app v Hr) as [HV HV']. destruct cutoff_app as [HM EM].
  destruct (RV_div V' cutoff) as [_ E]; [apply HV|apply HM|rewrite EM; lra|]. rewrite EM in E. split; [|done].
  change 1%nat with (S (0 + 0)). eapply app_div; [exact HV|exact HM|rewrite EM; lra|lia|lia|lia|]. rewrite EM.
  assert (0 < RV V')%R as Hp0. { eapply Rlt_le_trans; [apply bpow_gt_0|exact HV']. }
  destruct HV as [_ _ [_ HV]]. split.
  - right. change (-133) with (-100 + -33). rewrite bpow_plus. unfold Rdiv. apply Rmult_le_compat; [apply bpow_ge_0..|done|].
    change (bpow radix2 (-33)) with (/ 8589934592)%R. apply Rinv_le_contravar; lra.
  - change 68 with (100 + -32). rewrite bpow_plus. unfold Rdiv. apply Rmult_le_compat; [lra| |done|].
    + apply Rlt_le, Rinv_0_lt_compat. lra.
    + change (bpow radix2 (-32)) with (/ 4294967296)%R. apply Rinv_le_contravar; lra.
Qed.
Lemma branch : (nltb T (ndiv V cutoff) = true ∧ nltb T' (ndiv V' cutoff) = true) ∨
  (nltb T (ndiv V cutoff) = false ∧ nltb T' (ndiv V' cutoff) = false).
Proof.
  pose proof (CL v Hr) as Hc. pose proof (total_app v) as [F1 N1 T1]. destruct pore_time as [[F2 N2 T2] _].
  pose proof (tame_nonneg _ _ _ T1) as P1. pose proof (tame_nonneg _ _ _ T2) as P2.
  pose proof (pe_mono (2 * fan v + taps v + 1 + 1) (cost d p v) ltac:(rewrite cost_eq; lia)) as Hm.
  pose proof (pe_mono (1 + (2 * fan v + taps v + 1)) (cost d p v) ltac:(rewrite cost_eq; lia)) as Hm'. pose proof (pe_ge1 (cost d p v)) as Hg.
  destruct (Rle_lt_dec (RV T') (RV (ndiv V' cutoff) * (1 + eps) ^ cost d p v)) as [H1|H1].
  - destruct (Rle_lt_dec (RV (ndiv V' cutoff)) (RV T' * (1 + eps) ^ cost d p v)) as [H2|H2].
    + exfalso. apply Hc. destruct F1 as [a Ea], F2 as [b Eb]. exists a, b. split; [done|]. split; [done|]. apply within_rel.
      rewrite Ea, Eb, !RV_Fin in H1, H2. by split.
    + left. split.
      * eapply (near_lt _ _ _ _ _ _ N1 N2). eapply Rle_lt_trans; [|exact H2]. by apply Rmult_le_compat_l.
      * apply RV_ltb; try done. eapply Rle_lt_trans; [|exact H2]. rewrite <-(Rmult_1_r (RV T')) at 1. by apply Rmult_le_compat_l.
  - right. split.
    + eapply (near_lt _ _ _ _ _ _ N2 N1). eapply Rle_lt_trans; [|exact H1]. by apply Rmult_le_compat_l.
    + apply RV_ltb_false; try done. apply Rlt_le. eapply Rle_lt_trans; [|exact H1]. rewrite <-(Rmult_1_r (RV (ndiv V' cutoff))) at 1. by apply Rmult_le_compat_l.
Qed.
Lemma t_app : app (kt v) (-310) 90 (τ v) (τ' v) ∧ (RV (τ' v) <= INR (kc v) * 6307200000)%R.
Proof.
  pose proof (budget_v v) as (B1 & B2 & B3). destruct eq_t as [E E']. pose proof c_app as Hc. destruct cutoff_app as [HM EM].
  assert (1 <= INR (kc v))%R as Hk1. { change 1%R with (INR 1). apply le_INR. lia. }
  assert (0 < RV (c' v))%R as Pc. { destruct HC as [_ [H1 _]]. eapply Rlt_le_trans; [apply bpow_gt_0|exact H1]. }
  assert (nltb n0 (c v) = true) as L1. { by apply (near_gt0 _ _ _ (ap_near _ _ _ _ _ Hc)). }
  assert (nltb n0 (c' v) = true) as L2. { apply RV_ltb; [by eexists|apply Hc|]. by rewrite RV_0. }
  rewrite E, E'. unfold travel. rewrite L1, L2.
  destruct branch as [[-> ->]|[-> Hb]].
  - rewrite EM. split; [|nra]. eapply app_mono; [| | |exact HM]; lia.
  - rewrite Hb. destruct (pore_app v Hr) as [HV HV']. pose proof T_pos0 as Pt. pose proof (total_app v) as HT.
    destruct pore_time as [HD2 ED]. apply RV_ltb_false in Hb; [|apply HT|apply HD2]. rewrite ED in Hb.
    assert (RV V' <= RV T' * 6307200000)%R as Hb'. { apply (Rmult_le_reg_r (/ 6307200000)); [apply Rinv_0_lt_compat; lra|]. unfold Rdiv in Hb. lra. }
    pose proof s_app as HS. pose proof s_bound as HSB. rewrite cost_eq in HS.
    set (k2 := (kt v - 2 * kc v - (4 * fan v + 2 * taps v + 6))%nat) in *.
    assert (app (S (0 + kc v)) (-100 + -300) (100 + 0) (nmul V (c v)) (nmul V' (c' v))) as HVc by (apply app_mul; [exact HV|exact Hc|lia..]).
    assert (app (S (k2 + kc v + 2 * fan v + 2)) (-710) (290 + 1) (nadd (nmul V (c v)) s) (nadd (nmul V' (c' v)) s')) as HN.
    { apply app_add; try lia; [eapply app_mono; [| | |exact HVc]|eapply app_mono; [| | |exact HS]]; lia. }
    assert (app (S (2 * fan v + taps v + 1 + kc v)) (-100 + -300) (201 + 0) (nmul T (c v)) (nmul T' (c' v))) as HTc by (apply app_mul; [exact HT|exact Hc|lia..]).
    destruct (RV_mul V' (c' v) (ap_fin _ _ _ _ _ HV) (ap_fin _ _ _ _ _ Hc)) as [_ E1].
    destruct (RV_mul T' (c' v) (ap_fin _ _ _ _ _ HT) (ap_fin _ _ _ _ _ Hc)) as [_ E2].
    destruct (RV_add _ s' (ap_fin _ _ _ _ _ HVc) (ap_fin _ _ _ _ _ HS)) as [_ E3].
    assert (0 < RV T' * RV (c' v))%R as Ptc by (by apply Rmult_lt_0_compat).
    assert (0 <= RV s')%R as Ps by (eapply tame_nonneg; apply HS).
    set (q := (RV (nadd (nmul V' (c' v)) s') / RV (nmul T' (c' v)))%R).
    assert (q * (RV T' * RV (c' v)) = RV V' * RV (c' v) + RV s')%R as Eq. { unfold q. rewrite E3, E1, E2. field. split; lra. }
    assert (q <= INR (kc v) * 6307200000)%R as Hq.
    { apply (Rmult_le_reg_r (RV T' * RV (c' v))); [done|]. rewrite Eq.
      apply (Rle_trans _ (RV T' * 6307200000 * RV (c' v) + (INR (kc v) - 1) * 6307200000 * (RV (c' v) * RV T'))); [|right; ring].
      apply Rplus_le_compat; [|done]. apply Rmult_le_compat_r; [lra|done]. }
    assert (bpow radix2 (-310) <= q)%R as Hq'.
    { apply (Rmult_le_reg_r (RV T' * RV (c' v))); [done|]. rewrite Eq.
      apply (Rle_trans _ (RV V' * RV (c' v))); [|lra]. rewrite <-Rmult_assoc. apply Rmult_le_compat_r; [lra|].
      apply (Rle_trans _ (bpow radix2 (-100))); [|done]. apply (Rle_trans _ (bpow radix2 (-310) * bpow radix2 201)).
      - apply Rmult_le_compat_l; [apply bpow_ge_0|]. apply HT.
      - rewrite <-bpow_plus. by apply bpow_le. }
    assert (app (S (S (k2 + kc v + 2 * fan v + 2) + S (2 * fan v + taps v + 1 + kc v))) (-310) 90
      (ndiv (nadd (nmul V (c v)) s) (nmul T (c v))) (ndiv (nadd (nmul V' (c' v)) s') (nmul T' (c' v)))) as HF.
    { eapply app_div; [exact HN|exact HTc|by rewrite E2|lia|lia|lia|]. fold q. split; [by right|].
      eapply Rle_trans; [exact Hq|]. apply (Rle_trans _ (INR (kc v) * bpow radix2 40)).
      - apply Rmult_le_compat_l; [lra|]. change (bpow radix2 40) with 1099511627776%R. lra.
      - change 90 with (40 + 50). apply bpow_sum. lia. }
    destruct (RV_div (nadd (nmul V' (c' v)) s') (nmul T' (c' v))) as [_ E4]; [apply HN|apply HTc|rewrite E2; lra|].
    split; [eapply app_mono; [| | |exact HF]; lia|]. rewrite E4. exact Hq.
Qed.
Lemma cell_accurate : accurate_at v.
Proof. split; [apply c_app|apply t_app]. Qed.
End cell.

Lemma accurate_min v : accurate_at v → app (kt v) (-310) 90 (nmin (τ v) cutoff) (nmin (τ' v) cutoff).
Proof.
  intros (_ & [F N T] & _). destruct cutoff_app as [[FM NM TM] EM].
  assert (0 <= RV (τ' v))%R as Pt by (eapply tame_nonneg; exact T).
  assert (rel (kt v) (SF2R radix2 (nmin (τ v) cutoff)) (RV (nmin (τ' v) cutoff)) ∧
    RV (nmin (τ' v) cutoff) = Rmin (RV (τ' v)) (RV (@cutoff exact))) as [HR HE].
  { assert (RV (nmin (τ' v) cutoff) = Rmin (RV (τ' v)) (RV (@cutoff exact))) as HE.
    { unfold nmin. destruct (nltb cutoff (τ' v)) eqn:E.
      - apply RV_ltb in E; [|done..]. rewrite Rmin_right; [done|lra].
      - apply RV_ltb_false in E; [|done..]. by rewrite Rmin_left. }
    split; [|done]. rewrite HE.
    assert (SF2R radix2 (nmin (τ v) cutoff) = Rmin (SF2R radix2 (τ v)) (SF2R radix2 (@cutoff b64))) as ->.
    { destruct (near_inv _ _ _ N) as (a & Ea & Fa & Na & Va & _). destruct (near_inv _ _ _ NM) as (b & Eb & Fb & Nb & Vb & _).
      unfold nmin. rewrite Ea, Eb in *. cbn [nltb b64]. rewrite SFltb_v by done. rewrite <-Va, <-Vb.
      destruct (Rlt_bool_spec (B64Bridge.v b) (B64Bridge.v a)); [rewrite Rmin_right by lra; done|rewrite Rmin_left by lra; done]. }
    assert (SF2R radix2 (@cutoff b64) = RV (@cutoff exact)) as ->.
    { destruct NM as (_ & _ & _ & H1 & H2). rewrite pow_O, Rmult_1_r in H1, H2. lra. }
    apply rel_min; [rewrite EM; lra|apply N]. }
  split.
  - unfold nmin. by destruct (nltb cutoff (τ' v)).
  - rewrite HE. destruct N as (N1 & N2 & N3 & N4), NM as (M1 & M2 & M3 & M4). split; [|split; [|split]].
    + unfold nmin. by destruct (nltb cutoff (τ v)).
    + unfold nmin. by destruct (nltb cutoff (τ v)).
    + by apply Rmin_glb.
    + by rewrite <-HE.
  - rewrite HE. unfold Rmin. destruct (Rle_dec _ _); [done|]. eapply tame_mono; [| |exact TM]; lia.
Qed.
End cells.

(** ** One well *)
Section well.
Context (id : cellset_id) (c τ : Z → @num b64) (c' τ' : Z → @num exact).
Context (SW : solves_well p d id c τ) (SW' : solves_well p' d id c' τ') (Hac : acyclic A).
Context (HC : ∀ v, served p d id v → finite (c' v) ∧ (bpow radix2 (-300) <= RV (c' v) <= 1)%R).

Lemma served_range v : served p d id v → 0 ≤ v < n.
Proof.
  intros (r & [x Hx] & Hl). pose proof (va_cellrates _ Hp _ _ _ _ Hx) as Hr. clear Hx x. revert Hr. induction Hl as [|a b e Hf _ IH]; [done|].
  intros _. apply IH. by apply (flows_range n A a b (flow_arcs p Hp d)).
Qed.
(** The concentrations do not depend on the cut-off. *)
Lemma well_conc v : app (kc v) (-300) 0 (c v) (c' v).
Proof.
  induction (flows_wf A Hac v) as [v _ IH]. destruct (SW v) as [[Hv [E1 E2]]|(Hv & E1 & E2)].
  - destruct (SW' v) as [[_ [E1' E2']]|(Hv' & _)]; [|by destruct Hv'; apply ex_served].
    apply (c_app c c' v IH _ _ (conj E1 E1') (HC v Hv)).
    pose proof (budget_v v) as (B1 & B2 & B3). rewrite cost_eq. intros HM.
    destruct (own_app _ id (-400) 200 v _ _ HM) as [H1 H2]; try lia. split; [|done]. eapply app_mono; [| | |exact H1]; lia.
  - destruct (SW' v) as [[Hv' _]|(_ & E1' & E2')]; [by apply ex_served in Hv'|]. rewrite E1, E1'. apply app_0.
Qed.
Lemma well_accurate v : accurate_at c τ c' τ' v.
Proof.
  induction (flows_wf A Hac v) as [v _ IH]. destruct (SW v) as [[Hv [E1 E2]]|(Hv & E1 & E2)].
  - destruct (SW' v) as [[_ [E1' E2']]|(Hv' & _)]; [|by destruct Hv'; apply ex_served].
    apply (cell_accurate c τ c' τ' v (served_range v Hv) (λ u Hu, proj1 (IH u Hu)) _ _ (conj E1 E1') (HC v Hv)); [|exact IH|exact (conj E2 E2')].
    pose proof (budget_v v) as (B1 & B2 & B3). rewrite cost_eq. intros HM.
    destruct (own_app _ id (-400) 200 v _ _ HM) as [H1 H2]; try lia. split; [|done]. eapply app_mono; [| | |exact H1]; lia.
  - destruct (SW' v) as [[Hv' _]|(_ & E1' & E2')]; [by apply ex_served in Hv'|]. unfold accurate_at. rewrite E1, E2, E1', E2'.
    split; [apply app_0|]. split; [apply app_0|]. rewrite RV_0. pose proof (pos_INR (kc v)). lra.
Qed.
End well.

(** ** All wells *)
Section wells.
Context (c τ : Z → @num b64) (c' τ' : Z → @num exact).
Context (SW : solves_all p d c τ) (SW' : solves_all p' d c' τ') (Hac : acyclic A).
(** Nothing flows out of cells into which nothing flows. *)
Context (HF : ∀ u v, flows A u v → nltb n0 (total_in p' d u) = true).

Lemma flows_in u v : flows A u v → 0 ≤ u < n ∧ 0 ≤ v < n.
Proof. apply (flows_range n A u v (flow_arcs p Hp d)). Qed.
Lemma cell_total_app v : app (taps v) (-100) 150 (cell_total d m v) (cell_total d m' v).
Proof.
  pose proof (budget_v v) as (B1 & B2 & B3).
  assert (app (0 + taps v) (-100) (100 + 50) (cell_total d m v) (cell_total d m' v)) as H2; [|exact H2].
  unfold cell_total, taps. rewrite ex_cell_rates by done. rewrite <-(map_id (cell_rates d m v)) at 2. apply app_sum; try (unfold taps in *; lia).
  intros x (id & Hx)%cell_rates_elem. by eapply rate_app.
Qed.
Lemma total_pos v : nltb n0 (total_in p' d v) = true ↔ (0 < RV (total_in p' d v))%R.
Proof. rewrite RV_ltb; [by rewrite RV_0|by eexists|apply (total_app v)]. Qed.
Lemma c_one v : 0 ≤ v < n → nltb n0 (total_in p' d v) = true → c' v = n1.
Proof.
  induction (flows_wf A Hac v) as [v _ IH]. intros Hv HT. destruct (SW' v Hv) as [E _]. cbn [exactly pb_cells] in E.
  assert (mix n A' c' v = influx n A' v) as Em.
  { unfold mix, influx. f_equal. apply map_ext_in. intros u Hu%elem_of_list_In. apply elem_of_list_filter in Hu as [Hu _]. apply ex_flows in Hu.
    rewrite (IH u Hu); [|by apply (flows_in u v)|by eapply HF]. destruct (ap_fin _ _ _ _ _ (flux_app u v)) as [w ->].
    change (@n1 exact) with (Fin 1). cbn [nmul exact xmul]. f_equal. ring. }
  rewrite Em in E. pose proof (cell_total_app v) as Hq. apply total_pos in HT. destruct (ap_fin _ _ _ _ _ (total_app v)) as [t Et].
  assert (t ≠ 0%Qc) as Ht. { intros ->. rewrite Et, RV_Fin, QR_0 in HT. lra. }
  assert ((if nltb n0 (cell_total d m' v) then nadd (influx n A' v) (cell_total d m' v) else influx n A' v) = total_in p' d v) as Eo.
  { unfold total_in. cbn [exactly pb_cells]. destruct (nltb n0 (cell_total d m' v)) eqn:El; [done|].
    apply RV_ltb_false in El; [|by eexists|apply Hq]. rewrite RV_0 in El. pose proof (tame_nonneg _ _ _ (ap_tame _ _ _ _ _ Hq)) as Hn.
    destruct Hq as [[q Eq] _ _]. rewrite Eq, RV_Fin in *. assert (q = 0%Qc) as ->. { apply QR_eq. rewrite QR_0. lra. }
    assert (finite (influx n A' v)) as [i ->].
    { unfold total_in in Et. cbn [exactly pb_cells] in Et. rewrite Eq in Et. destruct (influx n A' v) as [i| | |]; try done. by eexists. }
    cbn [nadd exact xadd]. f_equal. ring. }
  rewrite Eo, Et, exact_n0 in E. change (@neqb exact (Fin t) (Fin 0)) with (Qc_eqb t 0) in E. rewrite (proj2 (Qc_eqb_false _ _) Ht) in E.
  rewrite E. cbn [ndiv exact]. unfold xdiv. rewrite (proj2 (Qc_eqb_false _ _) Ht). change (@n1 exact) with (Fin 1). f_equal. by field.
Qed.
Lemma near_zero k x : near k x 0 → neqb x n0 = true.
Proof.
  intros H. destruct (near_inv _ _ _ H) as (b & -> & Fb & Nb & _ & Pb & [Rb _]). rewrite Rmult_0_l in Rb.
  rewrite n0_zero. cbn [neqb b64]. rewrite SFeqb_leb, !SFleb_v by done. rewrite v_zero. rewrite !Rle_bool_true by lra. done.
Qed.
Lemma all_accurate v : 0 ≤ v < n → accurate_at c τ c' τ' v.
Proof.
  induction (flows_wf A Hac v) as [v _ IH]. intros Hv. destruct (SW v Hv) as [E1 E2]. destruct (SW' v Hv) as [E1' E2']. cbn [exactly pb_cells] in E1', E2'.
  pose proof (budget_v v) as (B1 & B2 & B3). pose proof (total_app v) as HT.
  destruct (nltb n0 (total_in p' d v)) eqn:El.
  - pose proof (c_one v Hv El) as E1v. pose proof El as Pt. apply total_pos in Pt.
    assert (neqb (total_in p d v) n0 = false) as N1.
    { apply (pos_ne b64_laws); [apply HT|]. by apply (near_gt0 _ _ _ (ap_near _ _ _ _ _ HT)). }
    assert (neqb (total_in p' d v) n0 = false) as N2.
    { destruct (ap_fin _ _ _ _ _ HT) as [t Et]. rewrite Et, RV_Fin in Pt. rewrite Et, exact_n0. apply Qc_eqb_false. intros ->. rewrite QR_0 in Pt. lra. }
    rewrite N1 in E1. rewrite N2 in E1'.
    assert (∀ u, flows A u v → accurate_at c τ c' τ' u) as IH'.
    { intros u Hu. apply IH; [done|]. by apply (flows_in u v). }
    eapply (cell_accurate c τ c' τ' v Hv (λ u Hu, proj1 (IH' u Hu))); [exact (conj E1 E1')| | |exact IH'|exact (conj E2 E2')].
    + rewrite E1v. split; [by eexists|]. change (@n1 exact) with (Fin 1). rewrite RV_Fin, QR_1. split; [|lra]. change 1%R with (bpow radix2 0). by apply bpow_le.
    + rewrite cost_eq. intros HM. pose proof (cell_total_app v) as Hq.
      assert (nltb n0 (cell_total d m v) = nltb n0 (cell_total d m' v)) as ->.
      { apply eq_bool_prop_intro. rewrite !Is_true_true. rewrite (near_gt0 _ _ _ (ap_near _ _ _ _ _ Hq)), RV_ltb; [by rewrite RV_0|by eexists|apply Hq]. }
      destruct (nltb n0 (cell_total d m' v)).
      * split.
        { replace (kc v - (4 * fan v + 2 * taps v + 6) + 2 * fan v + taps v + 2)%nat with (S (kc v - (4 * fan v + 2 * taps v + 6) + 2 * fan v + taps v + 1)) by lia.
          change 201 with (200 + 1). apply app_add; try lia; [eapply app_mono; [| | |exact HM]; lia|]. eapply app_mono; [| | |exact Hq]; lia. }
        { destruct (RV_add (mix n A' c' v) (cell_total d m' v)) as [_ ->]; [apply HM|apply Hq|]. pose proof (tame_nonneg _ _ _ (ap_tame _ _ _ _ _ Hq)). lra. }
      * split; [|lra]. eapply app_mono; [| | |exact HM]; lia.
  - assert (RV (total_in p' d v) = 0%R) as Z0.
    { apply RV_ltb_false in El; [|by eexists|apply HT]. rewrite RV_0 in El. pose proof (tame_nonneg _ _ _ (ap_tame _ _ _ _ _ HT)). lra. }
    pose proof (ap_near _ _ _ _ _ HT) as HN. rewrite Z0 in HN. rewrite (near_zero _ _ HN) in E1.
    destruct (ap_fin _ _ _ _ _ HT) as [t Et]. assert (t = 0%Qc) as ->. { rewrite Et, RV_Fin in Z0. apply QR_eq. by rewrite QR_0. }
    rewrite Et, exact_n0 in E1'. change (@neqb exact (Fin 0) (Fin 0)) with true in E1'. cbn iota in E1'.
    destruct (pore_time v Hv) as [HD2 ED]. destruct (pore_app v Hv) as [HV HV'].
    assert (0 < RV (ndiv (pore p' v) cutoff))%R as Pd.
    { rewrite ED. assert (0 < RV (pore p' v))%R by (eapply Rlt_le_trans; [apply bpow_gt_0|exact HV']). lra. }
    assert (nltb (total_in p d v) (ndiv (pore p v) cutoff) = true) as L1.
    { apply (near_lt _ _ _ _ _ _ HN (ap_near _ _ _ _ _ HD2)). by rewrite Rmult_0_l. }
    assert (nltb (total_in p' d v) (ndiv (pore p' v) cutoff) = true) as L2.
    { apply RV_ltb; [apply HT|apply HD2|]. by rewrite Z0. }
    unfold travel in E2, E2'. rewrite L1 in E2. rewrite L2 in E2'. destruct cutoff_app as [HM EM]. unfold accurate_at. rewrite E1, E2, E1', E2'.
    split; [apply (app_0 (kc v) (-300) 0)|]. split; [eapply app_mono; [| | |exact HM]; lia|]. rewrite EM.
    assert (1 <= INR (kc v))%R as Hk1. { change 1%R with (INR 1). apply le_INR. lia. } lra.
Qed.
End wells.
End problem.

(** * Diagnostics *)
Section diagnostics.
Context (p : @problem b64) (g : cgraph) (f : @cvalues b64) (g' : cgraph) (f' : @cvalues exact).
Context (Hp : valid p) (HP : poses p g f) (HP' : poses (exactly p) g' f') (HD : @data b64 b64_ok p) (Hac : acyclic (net_arcs p)).
Context (OR : ordinary p) (d : direction) (kc kt : Z → nat) (BU : budget d p kc kt) (CL : clear_of_cutoff d p).
Notation p' := (exactly p).

Lemma ex_data : data (o_ok exact exact_laws) p'.
Proof. by split. Qed.
Lemma ex_net_acyclic : acyclic (net_arcs p').
Proof. exact (ex_acyclic p OR Injection Hac). Qed.
Lemma ex_pores_ok : pores_ok p'.
Proof.
  intros x Hx. destruct (or_pore p OR x Hx) as (q & -> & Hq & _). rewrite exact_n0. cbn [nleb exact]. apply (o_lt_le exact exact_laws); [done..|].
  apply (RV_ltb (Fin 0) (Fin q)); [by eexists..|]. rewrite !RV_Fin, QR_0. apply QR_le in Hq. rewrite QR_pow2 in Hq. eapply Rlt_le_trans; [apply bpow_gt_0|exact Hq].
Qed.
Lemma ex_no_overflow : no_overflow d p'.
Proof. intros v _. by destruct (ap_fin _ _ _ _ _ (total_app p OR HD Hp d kc kt BU v)) as [t ->]. Qed.
Lemma nleb_RV a y : finite y → nleb (Fin a : @num exact) y = true → (QR a <= RV y)%R.
Proof.
  intros [b ->]. cbn [nleb exact]. unfold xleb. intros [H|H]%orb_true_iff.
  - apply (RV_ltb (Fin a) (Fin b)) in H; [|by eexists..]. rewrite !RV_Fin in *. lra.
  - change (Qc_eqb a b = true) in H. apply Qc_eqb_true in H as ->. rewrite RV_Fin. lra.
Qed.
Lemma nleb_fin (a b : Qc) x : nleb (Fin a : @num exact) x = true → nleb x (Fin b : @num exact) = true → finite x.
Proof. by destruct x as [q| | |]; [by exists q|..]. Qed.

(** Concentrations that are not too small are close. *)
Lemma conc_close ev ev' sets sets' sol sol' id :
  diagnose d ev g p f sets = Ok (OSol sol) → id ∈ map cs_id sets →
  diagnose d ev' g' p' f' sets' = Ok (OSol sol') → id ∈ map cs_id sets' →
  (∀ v c, om_find v (sol_concentration sol' id) = Some c → nleb (Fin (pow2 (-300)) : @num exact) c = true) →
  (∀ v, served p d id v → finite (value_at (sol_concentration sol' id) v) ∧ (bpow radix2 (-300) <= RV (value_at (sol_concentration sol' id) v) <= 1)%R) ∧
  ∀ v, app (kc v) (-300) 0 (value_at (sol_concentration sol id) v) (value_at (sol_concentration sol' id) v) ∧
    (is_Some (om_find v (sol_concentration sol id)) ↔ served p d id v) ∧ (is_Some (om_find v (sol_concentration sol' id)) ↔ served p d id v).
Proof.
  intros H Hid H' Hid' Hc.
  destruct (diagnosis_solves b64_laws b64_opp_laws p g f d ev sets sol id Hp HP HD Hac H Hid) as (τ & SW & Hm).
  pose proof (ex_valid p Hp) as Hp'.
  destruct (diagnosis_solves exact_laws exact_opp_laws p' g' f' d ev' sets' sol' id Hp' HP' ex_data ex_net_acyclic H' Hid') as (τ' & SW' & Hm').
  assert (∀ v, served p d id v → finite (value_at (sol_concentration sol' id) v) ∧ (bpow radix2 (-300) <= RV (value_at (sol_concentration sol' id) v) <= 1)%R) as HC.
  { intros w Hw. destruct (proj1 (Hm' w) ltac:(by apply ex_served)) as [E _]. pose proof (Hc w _ E) as L1.
    destruct (proj1 (value_ranges p' g' f' Hp' HP' exact_laws exact_opp_laws ex_data exact_tof_laws ex_pores_ok d ev' sets' sol' id ex_no_overflow H') w _ E) as (_ & _ & L2).
    change (@n1 exact) with (Fin 1) in L2. pose proof (nleb_fin _ _ _ L1 L2) as F. split; [done|]. split.
    - apply nleb_RV in L1; [|done]. by rewrite QR_pow2 in L1.
    - destruct F as [q Eq]. rewrite Eq in L2 |- *. apply (nleb_RV q (Fin 1)) in L2; [|by eexists]. by rewrite (RV_Fin 1), QR_1 in L2. }
  split; [exact HC|]. intros v. split; [exact (well_conc p OR HD Hp d kc kt BU id _ τ _ τ' SW SW' (acyclic_flow p d Hac) HC v)|].
  destruct (Hm v) as [I O]. destruct (Hm' v) as [I' O']. destruct (SW v) as [[Hv _]|[Hv _]].
  - destruct (I Hv) as [E1 _]. destruct (I' ltac:(by apply ex_served)) as [E1' _]. rewrite E1, E1'. by split.
  - destruct (O Hv) as [E1 _]. destruct (O' ltac:(by intros Hs%ex_served)) as [E1' _]. rewrite E1, E1'. split; (split; [intros []; done|done]).
Qed.
Lemma well_close ev ev' sets sets' sol sol' id :
  diagnose d ev g p f sets = Ok (OSol sol) → id ∈ map cs_id sets →
  diagnose d ev' g' p' f' sets' = Ok (OSol sol') → id ∈ map cs_id sets' →
  (∀ v c, om_find v (sol_concentration sol' id) = Some c → nleb (Fin (pow2 (-300)) : @num exact) c = true) →
  ∀ v, option_Forall2 (λ x y, close (kc v) (q_of x) y) (om_find v (sol_concentration sol id)) (om_find v (sol_concentration sol' id)) ∧
       option_Forall2 (λ x y, close (kt v) (q_of x) y) (om_find v (sol_tof sol id)) (om_find v (sol_tof sol' id)).
Proof.
  intros H Hid H' Hid' Hc v. pose proof (proj1 (conc_close _ _ _ _ _ _ _ H Hid H' Hid' Hc)) as HC.
  destruct (diagnosis_solves b64_laws b64_opp_laws p g f d ev sets sol id Hp HP HD Hac H Hid) as (τ & SW & Hm).
  pose proof (ex_valid p Hp) as Hp'.
  destruct (diagnosis_solves exact_laws exact_opp_laws p' g' f' d ev' sets' sol' id Hp' HP' ex_data ex_net_acyclic H' Hid') as (τ' & SW' & Hm').
  pose proof (well_accurate p OR HD Hp d kc kt BU CL id _ τ _ τ' SW SW' (acyclic_flow p d Hac) HC v) as HA.
  pose proof (accurate_min kc kt _ τ _ τ' v HA) as HT.
  destruct (Hm v) as [I O]. destruct (Hm' v) as [I' O']. destruct (SW v) as [[Hv _]|[Hv _]].
  - destruct (I Hv) as [E1 E2]. destruct (I' ltac:(by apply ex_served)) as [E1' E2']. rewrite E1, E2, E1', E2'. split; constructor.
    + eapply app_close. apply HA.
    + eapply app_close. apply HT.
  - destruct (O Hv) as [E1 E2]. destruct (O' ltac:(by intros Hs%ex_served)) as [E1' E2']. rewrite E1, E2, E1', E2'. split; constructor.
Qed.
Lemma global_close ev ev' sets sets' sol sol' :
  diagnose d ev g p f sets = Ok (OSol sol) → diagnose d ev' g' p' f' sets' = Ok (OSol sol') →
  (∀ u v, flows (flow d p) u v → nltb n0 (total_in p' d u) = true) →
  ∀ v, 0 ≤ v < pb_cells p → option_Forall2 (λ x y, close (kt v) (q_of x) y) (sol_global_tof sol !! Z.to_nat v) (sol_global_tof sol' !! Z.to_nat v).
Proof.
  intros H H' HF v Hv.
  destruct (diagnosis_solves_all b64_laws b64_opp_laws p g f d ev sets sol Hp HP HD Hac H) as (c & τ & SW & ->).
  pose proof (ex_valid p Hp) as Hp'.
  destruct (diagnosis_solves_all exact_laws exact_opp_laws p' g' f' d ev' sets' sol' Hp' HP' ex_data ex_net_acyclic H') as (c' & τ' & SW' & ->).
  pose proof (all_accurate p OR HD Hp d kc kt BU CL c τ c' τ' SW SW' (acyclic_flow p d Hac) HF v Hv) as HA.
  pose proof (accurate_min kc kt _ τ _ τ' v HA) as HT. rewrite !tab_lookup_Z by done. constructor. eapply app_close. exact HT.
Qed.
End diagnostics.

(** * In terms of relative errors *)
Lemma close_relative k x y : Z.of_nat k ≤ 2 ^ 50 → nleb n0 y = true → close k x y → off_by (Q2Qc (inject_Z (Z.of_nat k)) * pow2 (-51)) x y.
Proof.
  intros Hk Hy (a & b & -> & -> & H). exists a, b. split; [done|]. split; [done|]. apply within_rel in H as [H1 H2].
  rewrite exact_n0 in Hy. apply (nleb_RV 0%Qc (Fin b)) in Hy; [|by eexists]. rewrite RV_Fin, QR_0 in Hy.
  pose proof (small_half k Hk) as Hs. pose proof (pe_bound k ltac:(lra)) as Hb. pose proof (pe_ge1 k) as H3.
  assert (QR (Q2Qc (inject_Z (Z.of_nat k)) * pow2 (-51)) = 2 * (INR k * eps))%R as E.
  { rewrite QR_mul, QR_pow2, QR_Q2Qc. unfold Q2R, inject_Z. cbn [Qnum Qden]. rewrite Rinv_1, Rmult_1_r, <-INR_IZR_INZ.
    unfold eps. change (-51) with (-52 + 1). rewrite bpow_plus. change (bpow radix2 1) with 2%R. ring. }
  assert (0 <= INR k * eps)%R as Hp. { apply Rmult_le_pos; [apply pos_INR|]. pose proof eps_pos. lra. }
  rewrite !QR_le, !QR_mul, QR_add, QR_1. unfold Qcminus. rewrite QR_add, QR_opp, QR_1, E. split.
  - assert (0 <= QR a)%R as Ha by nra. apply (Rle_trans _ (QR a * (1 + eps) ^ k * (1 - 2 * (INR k * eps)))); [apply Rmult_le_compat_r; lra|].
    rewrite Rmult_assoc. rewrite <-(Rmult_1_r (QR a)) at 2. apply Rmult_le_compat_l; [done|].
    apply (Rle_trans _ ((1 + 2 * (INR k * eps)) * (1 - 2 * (INR k * eps)))); [apply Rmult_le_compat_r; lra|nra].
  - eapply Rle_trans; [exact H1|]. by apply Rmult_le_compat_l.
Qed.

(** * Budgets from the size of the problem *)
Section size.
Context (p : @problem b64) (Hp : valid p) (d : direction).
Notation n := (pb_cells p).

Lemma cost_le v : (cost d p v ≤ all_costs p)%nat.
Proof.
  unfold cost, all_costs.
  assert (length (filter (λ a : @arc b64, a.1.2 = v) (flow d p)) ≤ length (pb_conns p))%nat as H1.
  { etransitivity; [apply filter_length|]. assert (length (flow d p) = length (net_arcs p)) as -> by (destruct d; [done|]; cbn [flow]; unfold turn; apply map_length).
    unfold net_arcs. induction (pb_conns p) as [|x l IH]; [done|]. cbn [omap list_omap]. destruct (net_arc x); cbn [length]; lia. }
  assert (length (cell_rates d (pb_rates p) v) ≤ length (pb_rates p))%nat as H2.
  { unfold cell_rates. rewrite <-(map_length fst (pb_rates p)). induction (map fst (pb_rates p)) as [|x l IH]; [done|].
    cbn [omap list_omap]. destruct (well_rate d (pb_rates p) x v); cbn [length]; lia. }
  lia.
Qed.
Lemma rank_budget (rank : Z → nat) D : (∀ u v, flows (flow d p) u v → (rank u < rank v)%nat) → (∀ v, (rank v < D)%nat) →
  Z.of_nat (D * (all_costs p * (2 * D + 1))) ≤ 2 ^ 50 →
  budget d p (λ v, (rank v + 1) * all_costs p)%nat (λ v, (rank v + 1) * (all_costs p * (2 * D + 1)))%nat.
Proof.
  intros Hr HD Hs. set (C := all_costs p) in *.
  assert (∀ v, (cost d p v ≤ C)%nat) as Hc by apply cost_le. assert (∀ v, (2 * ((rank v + 1) * C) + cost d p v ≤ C * (2 * D + 1))%nat) as Hk.
  { intros v. specialize (HD v). specialize (Hc v). assert ((rank v + 1) * C ≤ D * C)%nat by (apply Nat.mul_le_mono_r; lia). lia. }
  split.
  - intros v. specialize (Hc v). nia.
  - intros u v Hf. specialize (Hr u v Hf). specialize (Hc v). assert ((rank u + 2) * C ≤ (rank v + 1) * C)%nat by (apply Nat.mul_le_mono_r; lia). lia.
  - intros v. specialize (Hk v). assert (1 * (C * (2 * D + 1)) ≤ (rank v + 1) * (C * (2 * D + 1)))%nat by (apply Nat.mul_le_mono_r; lia). lia.
  - intros u v Hf. specialize (Hr u v Hf). specialize (Hk v).
    assert ((rank u + 2) * (C * (2 * D + 1)) ≤ (rank v + 1) * (C * (2 * D + 1)))%nat by (apply Nat.mul_le_mono_r; lia). lia.
  - intros v. specialize (HD v). assert ((rank v + 1) * (C * (2 * D + 1)) ≤ D * (C * (2 * D + 1)))%nat by (apply Nat.mul_le_mono_r; lia). lia.
Qed.
Lemma rank_exists g f ev sets sol : poses p g f → acyclic (net_arcs p) → diagnose d ev g p f sets = Ok (OSol sol) →
  ∃ rank : Z → nat, (∀ u v, flows (flow d p) u v → (rank u < rank v)%nat) ∧ ∀ v, (rank v < Z.to_nat n)%nat.
Proof.
  intros HP Hac H. pose proof (acyclic_flow p d Hac) as Hac'. pose proof (va_cells _ Hp) as Hn.
  destruct (diagnose_global p g f Hp HP d ev sets sol H) as (comps & st & Ho & _ & _).
  assert (length comps ≤ Z.to_nat n)%nat as Hl.
  { assert (length (concat comps) = length comps) as E.
    { assert (∀ C, C ∈ comps → ∃ v, C = [v]) as Hs by (intros C HC; by eapply acyclic_comps). clear -Hs.
      induction comps as [|C l IH]; [done|]. cbn [concat]. rewrite app_length. destruct (Hs C ltac:(left)) as [v ->]. cbn [length].
      rewrite IH; [lia|]. intros C HC. apply Hs. by right. }
    rewrite <-E. rewrite <-(seqZ_length 0 n). apply submseteq_length, NoDup_submseteq; [apply (oc_nodup _ _ _ Ho)|].
    intros v Hv. apply (oc_cover _ _ _ Ho) in Hv. apply elem_of_seqZ. lia. }
  assert (∀ v, 0 ≤ v < n → ∃ j, comps !! j = Some [v]) as Hj.
  { intros v Hv. apply (oc_cover _ _ _ Ho) in Hv. apply elem_concat in Hv as (C & HvC & HC).
    destruct (acyclic_comps _ _ _ C Ho Hac' HC) as [v' ->]. apply elem_of_list_singleton in HvC as <-. by apply elem_of_list_lookup in HC. }
  exists (λ v, match list_find (λ C, C = [v]) comps with Some (j, _) => j | None => 0%nat end). split.
  - intros u v Hf. destruct (flows_range n (flow d p) u v (flow_arcs p Hp d) Hf) as [Hu Hv].
    destruct (list_find (λ C, C = [v]) comps) as [[j C]|] eqn:Ev.
    2:{ destruct (Hj v Hv) as [j Hj']. apply list_find_None in Ev. rewrite Forall_forall in Ev. destruct (Ev [v]); [by eapply elem_of_list_lookup_2|done]. }
    apply list_find_Some in Ev as (Ej & -> & _).
    destruct (oc_topo _ _ _ Ho j [v] u v Ej ltac:(left) Hf) as (i & C & Hi & HuC & Hij); [by apply (oc_cover _ _ _ Ho)|].
    destruct (acyclic_comps _ _ _ C Ho Hac') as [u' ->]; [by eapply elem_of_list_lookup_2|]. apply elem_of_list_singleton in HuC as <-.
    assert (i ≠ j). { intros ->. rewrite Ej in Hi. injection Hi as <-. apply (Hac' v). by apply tc_once. }
    destruct (list_find (λ C, C = [u]) comps) as [[i' C]|] eqn:Eu; [|lia].
    apply list_find_Some in Eu as (Ei & -> & Hfirst). destruct (decide (i' ≤ i)%nat); [lia|].
    exfalso. apply (Hfirst i [u] Hi); [lia|done].
  - intros v. destruct (list_find (λ C, C = [v]) comps) as [[j C]|] eqn:Ev; [|lia].
    apply list_find_Some in Ev as (Ej & _ & _). apply lookup_lt_Some in Ej. lia.
Qed.
End size.
Lemma close_mono j k x y : (j ≤ k)%nat → nleb n0 y = true → close j x y → close k x y.
Proof.
  intros Hk Hy (a & b & -> & -> & H). exists a, b. split; [done|]. split; [done|]. apply within_rel. apply within_rel in H.
  rewrite exact_n0 in Hy. apply (nleb_RV 0%Qc (Fin b)) in Hy; [|by eexists]. rewrite RV_Fin, QR_0 in Hy.
  eapply rel_mono; [by eapply rel_nonneg|done|done|exact H].
Qed.
