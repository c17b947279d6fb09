(** Values that meet the equations of a tracer almost, in exact arithmetic: what
    is injected is recovered almost, and they are near every solution. *)
From Coq Require Import String QArith Qcanon.
From Verif.Model Require Import Base Num OMap Containers Solution AssembledConnections Tarjan TracerTofSolver Toolbox DerivedQuantities.
From Verif.Spec Require Import GraphSpec FlowSpec DerivedSpec ToolboxSpec MirrorSpec CyclicSpec ResidualSpec.
From Verif.Proofs Require Import Util OMapFacts AConn ExactNum QcLra OrdLaws DerivedExact SolverBase SolverRun SolverTop SolverGen GaussSeidel ExactRun ToolboxState ToolboxRates ToolboxFlow ToolboxVal ToolboxSane ToolboxThms ToolboxExact Duality Balance Cyclic.
Open Scope Z_scope.

Local Notation fin x := (Fin x : @num exact).
Section abs.
Local Open Scope Qc_scope.
Definition qab (x : Qc) : Qc := if Qc_ltb x 0 then - x else x.
Lemma qab_le x y : qab x <= y ↔ - y <= x ∧ x <= y.
Proof.
  unfold qab. destruct (Qc_ltb x 0) eqn:E.
  - apply Qc_ltb_true in E. split; [intros H; split; qclra|intros [H _]; qclra].
  - apply Qc_ltb_false in E. split; [intros H; split; qclra|by intros [_ H]].
Qed.
Lemma qab_pos x : 0 <= qab x.
Proof. unfold qab. destruct (Qc_ltb x 0) eqn:E; [apply Qc_ltb_true in E; qclra|by apply Qc_ltb_false in E]. Qed.
Lemma qab_bounds x : - qab x <= x ∧ x <= qab x.
Proof. apply qab_le, Qcle_refl. Qed.
Lemma qab_mul k x : 0 <= k → qab (k * x) = k * qab x.
Proof.
  intros Hk. apply Qcle_antisym.
  - apply qab_le. destruct (qab_bounds x). split; qcnra.
  - unfold qab at 1. destruct (Qc_ltb x 0) eqn:E; destruct (qab_bounds (k * x)); qclra.
Qed.
Lemma qab_add x y : qab (x + y) <= qab x + qab y.
Proof. apply qab_le. destruct (qab_bounds x), (qab_bounds y). split; qclra. Qed.
Lemma qab_sum {X} (f : X → Qc) l : qab (qsum (map f l)) <= qsum (map (λ x, qab (f x)) l).
Proof.
  induction l as [|x l IH]; [apply Qcle_refl|]. cbn [map]. unfold qsum in *. cbn [foldr] in *.
  eapply Qcle_trans; [apply qab_add|]. apply Qcplus_le_compat; [apply Qcle_refl|exact IH].
Qed.
End abs.

Section sums.
Context (p : @problem exact) (Hp : valid p) (HD : data finite p) (HV : pores_ok p) (Hc : conserves p).
Notation n := (pb_cells p).
Notation m := (pb_rates p).
Notation all := (seqZ 0 n).
Notation Tt := (Tt p).
Notation Wt := (Wt p).
Notation rq := (rq p).
Notation leftover := (leftover p).
Notation rates := (rates p).
Local Open Scope Qc_scope.

Lemma rates_pos d v : 0 <= rates d v.
Proof. apply qsum_map_nonneg. intros; apply (rq_nonneg p Hp HD). Qed.
Lemma Tt_pos d v : 0 <= Tt d v.
Proof.
  rewrite (Tt_eq p Hp HD HV). pose proof (rates_pos d v) as H. unfold Balance.rates in H.
  assert (0 <= qsum (map (λ u, Wt d u v) all)) as H' by (apply qsum_map_nonneg; intros; apply (Wt_nonneg p Hp HD HV)).
  set (a := qsum (map (λ u, Wt d u v) all)) in *. set (b := qsum _) in *. clearbody a b. qclra.
Qed.
(** What flows out with the values is at most what does not balance. *)
Lemma outflow d (e ρ : Z → Qc) : (∀ v, (0 ≤ v < n)%Z → qab (leftover d e (λ _, 0) v) <= ρ v) →
  qsum (map (λ v, rates (opposite d) v * qab (e v)) all) <= qsum (map ρ all).
Proof.
  intros H. pose proof (leftover_sum p Hp HD HV d (λ v, qab (e v)) (λ _, 0) Hc) as E. rewrite (qsum_0 (λ _ : Z, 0)) in E by done.
  assert (- (1) * qsum (map ρ all) <= qsum (map (leftover d (λ v, qab (e v)) (λ _, 0)) all)) as H1.
  { rewrite <-qsum_scale. apply qsum_le. intros v Hv%elem_of_seqZ. specialize (H v ltac:(lia)). apply qab_le in H as [H1 H2]. unfold Cyclic.leftover in *.
    pose proof (qab_sum (λ u, e u * Wt d u v) all) as HS. rewrite (qsum_ext (λ u, qab (e u * Wt d u v)) (λ u, qab (e u) * Wt d u v)) in HS.
    2:{ intros u _. rewrite Qcmult_comm, qab_mul by apply (Wt_nonneg p Hp HD HV). apply Qcmult_comm. }
    set (S := qsum (map (λ u, e u * Wt d u v) all)) in *. set (S' := qsum (map (λ u, qab (e u) * Wt d u v) all)) in *.
    assert (Tt d v * qab (e v) = qab (Tt d v * e v)) as ->.
    { symmetry. apply qab_mul, Tt_pos. }
    assert (qab (Tt d v * e v) <= qab S + ρ v) as H3. { apply qab_le. destruct (qab_bounds S). split; qclra. }
    clearbody S S'. qclra. }
  rewrite E in H1. set (x := qsum (map (λ v, rates (opposite d) v * qab (e v)) all)) in *. set (y := qsum (map ρ all)) in *. clearbody x y. qclra.
Qed.

(** Values that meet the equations. *)
Context (r : Qc) (d : direction).
Lemma met_left id (h : Z → Qc) v : met_within r p d id (λ u, fin (h u)) v ↔ qab (leftover d h (rq d id) v) <= r * Tt d v.
Proof.
  unfold met_within. rewrite (Tt_q p Hp HD HV), (mix_q p Hp HD HV), (qmix_all p).
  assert (own p d id v (fin (qsum (map (λ u, h u * Wt d u v) all))) = fin (qsum (map (λ u, h u * Wt d u v) all) + rq d id v)) as ->.
  { unfold own, Duality.rq. destruct (well_rate d m id v) as [x|] eqn:E; [|by rewrite Qcplus_0_r]. destruct (rate_fin p Hp HD d id v x E) as (q & -> & _). done. }
  unfold Cyclic.leftover. set (S := qsum (map (λ u, h u * Wt d u v) all)). rewrite qab_le. split.
  - intros (t & e & Ht & [H1 H2] & E). apply (f_equal qv) in Ht, E. cbn [num nadd nmul exact xadd xmul qv] in Ht, E. rewrite <-Ht in *. clearbody S. split; qclra.
  - intros [H1 H2]. exists (Tt d v), (Tt d v * h v - (S + rq d id v)). split; [done|]. split; [clearbody S; split; qclra|].
    cbn [num nadd nmul exact xadd xmul]. f_equal. ring.
Qed.
Lemma leftover_minus h r1 k r2 v : leftover d (λ u, h u - k u) (λ u, r1 u - r2 u) v = leftover d h r1 v - leftover d k r2 v.
Proof.
  unfold Cyclic.leftover. rewrite (qsum_ext (λ u, (h u - k u) * Wt d u v) (λ u, h u * Wt d u v + - (1) * (k u * Wt d u v))) by (intros; ring).
  rewrite qsum_plus, qsum_scale. ring.
Qed.
Lemma leftover_r0 h r1 r2 v : r1 v = r2 v → leftover d h r1 v = leftover d h r2 v.
Proof. unfold Cyclic.leftover. by intros ->. Qed.
Lemma leftover_one v : leftover d (λ _, 1) (rates d) v = 0.
Proof. unfold Cyclic.leftover. rewrite (Tt_eq p Hp HD HV), (qsum_ext _ (λ u, Wt d u v)) by (intros; ring). unfold Balance.rates. ring. Qed.
Lemma leftover_many {I} (h : I → Z → Qc) (b : I → Z → Qc) l v :
  leftover d (λ u, qsum (map (λ i, h i u) l)) (λ u, qsum (map (λ i, b i u) l)) v = qsum (map (λ i, leftover d (h i) (b i) v) l).
Proof.
  assert (∀ x l, qsum (x :: l) = x + qsum l) as Q by done. unfold Cyclic.leftover. induction l as [|i l IH].
  - cbn [map]. change (qsum []) with 0. rewrite qsum_0; [ring|]. intros; ring.
  - cbn [map]. rewrite !Q, <-IH. rewrite (qsum_ext _ (λ u, h i u * Wt d u v + qsum (map (λ j, h j u) l) * Wt d u v)) by (intros; rewrite Q; ring).
    rewrite qsum_plus. ring.
Qed.

Notation scope := (qsum (map (Tt d) all)).
Lemma scope_q : sum_left (map (total_in p d) all) = fin scope.
Proof. apply (sum_left_fin (total_in p d) (Tt d)). intros v _. apply (Tt_q p Hp HD HV). Qed.
Notation met id h := (∀ v, (0 ≤ v < n)%Z → met_within r p d id (λ u, fin (h u)) v).
Lemma met_recovered id (h : Z → Qc) : met id h →
  qab (qsum (map (rq d id) all) - qsum (map (λ v, rates (opposite d) v * h v) all)) <= r * scope.
Proof.
  intros H. rewrite <-(leftover_sum p Hp HD HV d h (rq d id) Hc), <-qsum_scale. eapply Qcle_trans; [apply qab_sum|].
  apply qsum_le. intros v Hv%elem_of_seqZ. apply met_left, H. lia.
Qed.
Lemma met_error id (h c : Z → Qc) : met id h → tracer_solution p d [id] (λ v, fin (c v)) →
  qsum (map (λ v, rates (opposite d) v * qab (c v - h v)) all) <= r * scope.
Proof.
  intros H [_ S2]. rewrite <-qsum_scale. apply (outflow d (λ v, c v - h v) (λ v, r * Tt d v)). intros v Hv.
  rewrite (leftover_r0 _ (λ _, 0) (λ u, rq d id u - rq d id u)) by (cbn; ring). rewrite leftover_minus.
  assert (leftover d c (rq d id) v = 0) as ->.
  { specialize (S2 v Hv). rewrite (mix_q p Hp HD HV), (joint_q p Hp HD), (Tt_q p Hp HD HV), (qmix_all p) in S2. cbn [num nadd nmul exact xadd xmul map] in S2.
    apply (f_equal qv) in S2. cbn [qv] in S2. unfold Cyclic.leftover. rewrite <-S2. unfold qsum at 3. cbn [foldr]. ring. }
  specialize (H v Hv). apply met_left in H. apply qab_le in H as [H1 H2]. apply qab_le. split; qclra.
Qed.
Lemma met_shares (h : cellset_id → Z → Qc) : (∀ id, id ∈ map fst m → met id (h id)) →
  qsum (map (λ v, rates (opposite d) v * qab (1 - qsum (map (λ id, h id v) (map fst m)))) all) <= qn (length m) * (r * scope).
Proof.
  intros H. rewrite <-(qsum_scale r (Tt d)), <-qsum_scale. apply (outflow d _ (λ v, qn (length m) * (r * Tt d v))). intros v Hv.
  rewrite (leftover_r0 _ (λ _, 0) (λ u, rates d u - rates d u)) by (cbn; ring). rewrite (leftover_minus (λ _, 1)), leftover_one.
  unfold Balance.rates. rewrite leftover_many.
  assert (qab (qsum (map (λ id, leftover d (h id) (rq d id) v) (map fst m))) <= qn (length m) * (r * Tt d v)) as HB.
  { rewrite <-(map_length fst m), <-(qsum_const (r * Tt d v) (map fst m)). eapply Qcle_trans; [apply qab_sum|]. apply qsum_le. intros id Hid. apply met_left, H; [done|lia]. }
  apply qab_le in HB as [H1 H2]. apply qab_le. set (x := qsum _) in *. clearbody x. split; qclra.
Qed.
End sums.
