(** Pair fluxes and pair volumes as sums over journeys, in exact arithmetic:
    property C80. *)
From Coq Require Import String QArith Qcanon.
From Verif.Model Require Import Base Num OMap Containers Solution AssembledConnections Tarjan TracerTofSolver Toolbox DerivedQuantities.
From Verif.Spec Require Import GraphSpec FlowSpec DerivedSpec ToolboxSpec MirrorSpec CyclicSpec StreamSpec.
From Verif.Proofs Require Import Util OMapFacts AConn ExactNum QcLra OrdLaws DerivedExact SolverBase SolverRun SolverTop SolverGen GaussSeidel ExactRun Acyclic ToolboxState ToolboxRates ToolboxFlow ToolboxVal ToolboxSane ToolboxThms TofLaws TofRange OppLaws ToolboxExact Duality Balance Cyclic PairTime Journeys.
Open Scope Z_scope.

(** ** Journeys backwards *)
Lemma journey_snoc {N : Num} (A : list arc) l u x : journey A l → last l = Some u → flows A x u → journey A (l ++ [x]).
Proof.
  induction l as [|v l IH]; [done|]. destruct l as [|y l].
  - intros _ [= ->] Hf. split; [exact Hf|done].
  - intros [Hf Hj] Hl Hx. split; [done|]. apply IH; [done| |done]. by rewrite last_cons_cons in Hl.
Qed.
Lemma turn_flows {N : Num} (A : list arc) u v : flows A u v → flows (turn A) v u.
Proof.
  unfold flows, turn. intros ([[a b] w] & E & Ha)%elem_of_list_fmap. cbn in E. injection E as -> ->.
  apply elem_of_list_fmap. exists (b, a, w). split; [done|]. apply elem_of_list_fmap. by exists (a, b, w).
Qed.
Lemma journey_turn {N : Num} (A B : list arc) l : (∀ u v, flows A u v → flows B v u) → journey A l → journey B (reverse l).
Proof.
  intros HB. induction l as [|v l IH]; [done|]. rewrite reverse_cons. destruct l as [|u l]; [done|].
  intros [Hf Hj]. apply (journey_snoc B _ u); [by apply IH|by rewrite last_reverse|by apply HB].
Qed.

Section weights.
Local Open Scope Qc_scope.
Fixpoint pq (w : Z → Z → Qc) (T : Z → Qc) (l : list Z) : Qc :=
  match l with
  | [] => 0
  | v :: l' => match l' with [] => / T v | u :: _ => w u v / T v * pq w T l' end
  end.
Lemma chq_pq w T b l x : last l = Some x → chq w T b l = b x * pq w T l.
Proof.
  induction l as [|v l IH]; [done|]. destruct l as [|u l]; [by intros [= ->]|].
  rewrite last_cons_cons. intros H%IH. change (chq w T b (v :: u :: l)) with (w u v / T v * chq w T b (u :: l)).
  change (pq w T (v :: u :: l)) with (w u v / T v * pq w T (u :: l)). rewrite H. ring.
Qed.
Lemma pq_snoc w T l y x : last l = Some y → pq w T (l ++ [x]) = pq w T l * (w x y / T x).
Proof.
  induction l as [|v l IH]; [done|]. destruct l as [|u l].
  - intros [= ->]. cbn. unfold Qcdiv. ring.
  - rewrite last_cons_cons. intros H%IH. change (pq w T ((v :: u :: l) ++ [x])) with (w u v / T v * pq w T ((u :: l) ++ [x])).
    change (pq w T (v :: u :: l)) with (w u v / T v * pq w T (u :: l)). rewrite H. ring.
Qed.
Lemma pq_turn w T w' T' l : (∀ u v, w' v u = w u v) → (∀ v, v ∈ l → T' v = T v) → pq w' T' (reverse l) = pq w T l.
Proof.
  intros Hw. induction l as [|v l IH]; intros HT; [done|]. rewrite reverse_cons. destruct l as [|u l].
  - cbn. rewrite HT by left. done.
  - rewrite (pq_snoc w' T' _ u) by (by rewrite last_reverse). rewrite IH by (intros; apply HT; by right).
    change (pq w T (v :: u :: l)) with (w u v / T v * pq w T (u :: l)). rewrite Hw, (HT v) by left. ring.
Qed.
End weights.

Section streams.
Context (p : @problem exact) (g : cgraph) (f : cvalues) (Hp : valid p) (HP : poses p g f).
Context (HD : data finite p) (HV : pores_ok p).
Notation n := (pb_cells p).
Notation m := (pb_rates p).
Notation all := (seqZ 0 n).
Notation Tt := (Tt p).
Notation Wt := (Wt p).
Notation rq := (rq p).
Notation pvq := (pvq p).
Local Notation fin x := (Fin x : @num exact).
Local Open Scope Qc_scope.

Definition stq (d : direction) (i j : cellset_id) (l : list Z) : Qc :=
  match l with [] => 0 | v :: _ => chq (Wt d) (Tt d) (rq d i) l * rq (opposite d) j v end.
Lemma stream_q d i j k v l : l ∈ arrivals n (flow d p) k v → stream p d i j l = fin (stq d i j l).
Proof.
  intros Hl. pose proof (chance_q p Hp HD HV d _ _ (well_source p Hp HD HV d i) k v l Hl) as E.
  destruct (arrivals_head _ _ _ _ _ Hl) as [l' ->]. unfold stream, stq. rewrite E, (so_fin _ _ _ _ (well_source p Hp HD HV (opposite d) j) v). done.
Qed.
Lemma stq_nonneg d i j k v l : l ∈ arrivals n (flow d p) k v → 0 <= stq d i j l.
Proof.
  intros Hl. pose proof (chq_nonneg _ _ _ _ _ _ _ (so_good _ _ _ _ (well_source p Hp HD HV d i)) k v l Hl) as H0.
  destruct (arrivals_head _ _ _ _ _ Hl) as [l' ->]. unfold stq. apply qmul_nonneg; [done|apply (rq_nonneg p Hp HD)].
Qed.
Lemma journey_stream d i j l : journey (flow d p) l → stream p d i j l = fin (stq d i j l).
Proof.
  destruct l as [|v l]; [done|]. intros Hj. eapply stream_q, journey_arrivals; [by apply flow_arcs|exact Hj].
Qed.
Lemma in_all d l : l ∈ all_journeys p d → ∃ k v, (0 ≤ v < n)%Z ∧ l ∈ arrivals n (flow d p) k v.
Proof. intros (v & (k & Hl & _)%elem_of_list_bind & Hv%elem_of_seqZ)%elem_of_list_bind. exists k, v. split; [lia|done]. Qed.

(** The same stream seen from its other end. *)
Lemma mirrored d i j l : conserves p → journey (flow d p) l → (∀ v, v ∈ l → (0 ≤ v < n)%Z) →
  journey (flow (opposite d) p) (reverse l) ∧ stq (opposite d) j i (reverse l) = stq d i j l.
Proof.
  intros Hc Hj Hr. split.
  - apply (journey_turn (flow d p)); [|done]. intros u v Hf. destruct d; cbn [opposite flow] in *; [by apply turn_flows|].
    apply turn_flows in Hf. unfold turn in Hf. rewrite map_map in Hf. unfold flows in *.
    apply elem_of_list_fmap in Hf as ([[a b] w] & E & Ha). apply elem_of_list_fmap in Ha as ([[a' b'] w'] & E' & Ha). cbn in *.
    injection E' as -> -> ->. injection E as -> ->. apply elem_of_list_fmap. by exists (a', b', w').
  - destruct l as [|v l]; [done|].
    assert (∃ x, last (v :: l) = Some x) as [x Hx].
    { destruct (last (v :: l)) eqn:E; [eauto|]. by apply last_None in E. }
    assert (last (reverse (v :: l)) = Some v) as Hv by (by rewrite last_reverse).
    assert (head (reverse (v :: l)) = Some x) as Hx' by (by rewrite head_reverse).
    assert (opposite (opposite d) = d) as Ho by (by destruct d).
    assert (pq (Wt (opposite d)) (Tt (opposite d)) (reverse (v :: l)) = pq (Wt d) (Tt d) (v :: l)) as Eq.
    { apply pq_turn.
      - intros a b. destruct d; [apply (Wt_turn p Injection)|apply (Wt_turn p Production)].
      - intros u Hu. symmetry. apply tt_eq; [done|by apply Hr]. }
    remember (reverse (v :: l)) as r eqn:Er. clear Er. destruct r as [|y r]; [done|]. injection Hx' as ->.
    unfold stq. rewrite Ho, (chq_pq _ _ _ (v :: l) x Hx), (chq_pq _ _ _ (x :: r) v Hv), Eq. ring.
Qed.

Lemma duq_app T pv l l' : duq T pv (l ++ l') = duq T pv l + duq T pv l'.
Proof. induction l as [|v l IH]; cbn [duq app]; [ring|]. rewrite IH. ring. Qed.
Lemma duq_turn T T' pv l : (∀ v, v ∈ l → T' v = T v) → duq T' pv (reverse l) = duq T pv l.
Proof.
  induction l as [|v l IH]; intros HT; [done|]. rewrite reverse_cons, duq_app, IH by (intros; apply HT; by right).
  cbn [duq]. rewrite (HT v) by left. ring.
Qed.
Lemma stq_chq d i j l : 0 < stq d i j l → 0 < chq (Wt d) (Tt d) (rq d i) l ∨ chq (Wt d) (Tt d) (rq d i) l < 0.
Proof.
  destruct l as [|v l]; [done|]. unfold stq. intros H. destruct (Qc_dec (chq (Wt d) (Tt d) (rq d i) (v :: l)) 0) as [[|]|E]; [by right|by left|].
  rewrite E, Qcmult_0_l in H. done.
Qed.
Lemma stream_time d i j l : journey (flow d p) l → 0 < stq d i j l → duration p d l = fin (duq (Tt d) pvq l).
Proof.
  intros Hj Hs. destruct l as [|v l]; [done|].
  pose proof (journey_arrivals n (flow d p) v l (flow_arcs p Hp d) Hj) as Hl.
  pose proof (chq_nonneg _ _ _ _ _ _ _ (so_good _ _ _ _ (well_source p Hp HD HV d i)) _ _ _ Hl) as H0.
  apply (duration_q p Hp HD HV d _ _ (well_source p Hp HD HV d i) _ _ _ Hl).
  apply stq_chq in Hs as [|Hs]; [done|]. by apply Qclt_not_le in Hs.
Qed.
Lemma mirrored_time d i j l : conserves p → journey (flow d p) l → (∀ v, v ∈ l → (0 ≤ v < n)%Z) → 0 < stq d i j l →
  duration p d l = fin (duq (Tt d) pvq l) ∧ duration p (opposite d) (reverse l) = fin (duq (Tt d) pvq l).
Proof.
  intros Hc Hj Hr Hs. destruct (mirrored d i j l Hc Hj Hr) as [Hj' Es].
  split; [by eapply stream_time|]. rewrite (stream_time (opposite d) j i (reverse l) Hj') by (by rewrite Es). f_equal.
  apply duq_turn. intros v Hv. symmetry. apply tt_eq; [done|by apply Hr].
Qed.

(** Sums over all streams. *)
Context (Hac : acyclic (net_arcs p)).
Notation CU d b := (CU n (flow d p) (Wt d) (Tt d) b (Z.to_nat n)).
Notation DU d b := (DU n (flow d p) (Wt d) (Tt d) pvq b (Z.to_nat n)).
Lemma streams_sum d i j : streams p d i j = fin (qsum (map (λ v, rq (opposite d) j v * CU d (rq d i) v) all)).
Proof.
  unfold streams. rewrite (sum_left_fin _ (stq d i j)) by (intros l (k & v & _ & Hl)%in_all; by eapply stream_q).
  f_equal. unfold all_journeys. rewrite qsum_bind. apply qsum_ext. intros v _. unfold Journeys.CU, journeys. rewrite <-qsum_scale.
  apply qsum_ext. intros l (k & Hl & _)%elem_of_list_bind. destruct (arrivals_head _ _ _ _ _ Hl) as [l' ->]. unfold stq. ring.
Qed.
Lemma held_q d i j : held p d i j = fin (qsum (map (λ l, stq d i j l * duq (Tt d) pvq l) (all_journeys p d))).
Proof.
  unfold held. rewrite (sum_left_fin _ (λ l, stq d i j l * duq (Tt d) pvq l)).
  - f_equal. apply qsum_filter0. intros l (k & v & _ & Hl)%in_all Hc. rewrite (stream_q d i j k v l Hl), exact_n0 in Hc.
    assert (stq d i j l = 0) as ->; [|ring]. pose proof (stq_nonneg d i j k v l Hl) as H0.
    apply Qcle_antisym; [|done]. apply Qcnot_lt_le. intros Hlt. apply Hc. by apply xltb_Fin.
  - intros l [Hc (k & v & _ & Hl)%in_all]%elem_of_list_filter. rewrite (stream_q d i j k v l Hl), exact_n0 in Hc. apply xltb_Fin in Hc.
    rewrite (stream_q d i j k v l Hl). 
    pose proof (chq_nonneg _ _ _ _ _ _ _ (so_good _ _ _ _ (well_source p Hp HD HV d i)) k v l Hl) as H0.
    assert (0 < chq (Wt d) (Tt d) (rq d i) l) as Hpos.
    { apply Qcle_lt_or_eq in H0 as [|E]; [done|]. exfalso. destruct (arrivals_head _ _ _ _ _ Hl) as [l' ->]. unfold stq in Hc.
      rewrite <-E, Qcmult_0_l in Hc. done. }
    rewrite (duration_q p Hp HD HV d _ _ (well_source p Hp HD HV d i) k v l Hl Hpos). done.
Qed.
Lemma held_sum d i j : held p d i j = fin (qsum (map (λ v, rq (opposite d) j v * DU d (rq d i) v) all)).
Proof.
  rewrite held_q. f_equal. unfold all_journeys. rewrite qsum_bind. apply qsum_ext. intros v _. unfold Journeys.DU, journeys. rewrite <-qsum_scale.
  apply qsum_ext. intros l (k & Hl & _)%elem_of_list_bind. destruct (arrivals_head _ _ _ _ _ Hl) as [l' ->]. unfold stq. ring.
Qed.

Lemma well_eq d ev sets sol id : diagnose d ev g p f sets = Ok (OSol sol) → (is_well d m id → id ∈ map cs_id sets) →
  (∀ v, (0 ≤ v < n)%Z → cq sol id v = CU d (rq d id) v) ∧ ∀ v, leftover p d (cq sol id) (rq d id) v = 0.
Proof.
  intros H Hreq. destruct (local_exact p g f Hp HP HD HV Hac d ev sets sol id H Hreq) as (τ & Hc & Hx). split.
  - apply (tracer_is p Hp d _ _ Hac); intros u Hu; apply Hx.
  - intros v. destruct (Hx v) as (_ & _ & _ & _ & _ & E & _). unfold leftover. rewrite E. ring.
Qed.
Lemma du_eq d id v : (0 ≤ v < n)%Z → Tt d v * DU d (rq d id) v = pvq v * CU d (rq d id) v + qsum (map (λ u, DU d (rq d id) u * Wt d u v) all).
Proof.
  intros Hv. pose proof (acyclic_flow p d Hac) as Hac'. pose proof (flow_arcs p Hp d) as HA. rewrite <-qmix_all.
  destruct (Qc_eq_dec (Tt d v) 0) as [E|E].
  - rewrite (CU_fix n (flow d p)) by (done || lia). rewrite E, qdiv_0, qmix_all.
    rewrite (qsum_0 _ all); [ring|]. intros u Hu. destruct (tt_sign p Hp HD HV d v) as [_ HT]. rewrite (proj2 (HT E) u Hu). ring.
  - pose proof (DU_fix n (flow d p) (Wt d) (Tt d) pvq (rq d id) (Z.to_nat n) v HA Hac' ltac:(lia) Hv) as EF.
    transitivity (pvq v * CU d (rq d id) v + qmix (upstream n (flow d p)) (Wt d) (DU d (rq d id)) v); [|reflexivity].
    rewrite EF. generalize (qmix (upstream n (flow d p)) (Wt d) (DU d (rq d id)) v) (CU d (rq d id) v) (pvq v). intros x y z. field. done.
Qed.

Lemma flux_streams ev ev' sets sets' sol sol' i j : conserves p →
  diagnose Injection ev g p f sets = Ok (OSol sol) → diagnose Production ev' g p f sets' = Ok (OSol sol') →
  (is_well Injection m i → i ∈ map cs_id sets) → (is_well Production m j → j ∈ map cs_id sets') →
  i ∈ map fst m → j ∈ map fst m →
  pair_flux sol sol' i j m = Ok (streams p Injection i j, nopp (streams p Injection i j)).
Proof.
  intros Hc H H' Hi Hj Mi Mj. rewrite (fluxes p g f Hp HP HD HV Hac _ _ _ _ _ _ _ _ H H' Hi Hj Mi Mj).
  destruct (well_eq _ _ _ _ _ H Hi) as [E1 L1]. destruct (well_eq _ _ _ _ _ H' Hj) as [E2 L2].
  assert (qsum (map (λ v, rq Injection i v * cq sol' j v) all) = qsum (map (λ v, rq Production j v * cq sol i v) all)) as ED.
  { pose proof (leftover_dual p Injection (cq sol i) (cq sol' j) (rq Injection i) (rq Production j) Hc) as E.
    rewrite (qsum_0 (λ v, cq sol' j v * _)) in E by (intros v _; rewrite L1; ring).
    rewrite (qsum_0 (λ v, cq sol i v * _)) in E by (intros v _; rewrite L2; ring). rewrite !Qcplus_0_l in E. by symmetry. }
  rewrite streams_sum, ED. cbn [opposite].
  assert (qsum (map (λ v, rq Production j v * cq sol i v) all) = qsum (map (λ v, rq Production j v * CU Injection (rq Injection i) v) all)) as ->.
  { apply qsum_ext. intros v Hv%elem_of_seqZ. rewrite E1 by lia. done. }
  done.
Qed.
Lemma volume_streams d ev ev' sets sets' sol sol' i j : conserves p →
  diagnose d ev g p f sets = Ok (OSol sol) → diagnose (opposite d) ev' g p f sets' = Ok (OSol sol') →
  (is_well d m i → i ∈ map cs_id sets) → (is_well (opposite d) m j → j ∈ map cs_id sets') →
  pair_volume sol sol' (pb_pv p) i j = Ok (held p d i j).
Proof.
  intros Hc H H' Hi Hj. rewrite (volume_q p g f Hp HP HD HV _ _ _ _ _ _ _ _ i j H H').
  destruct (well_eq _ _ _ _ _ H Hi) as [E1 L1]. destruct (well_eq _ _ _ _ _ H' Hj) as [E2 L2].
  rewrite held_sum. do 2 f_equal.
  pose proof (leftover_dual p d (DU d (rq d i)) (cq sol' j) (λ v, pvq v * cq sol i v) (rq (opposite d) j) Hc) as E.
  rewrite (qsum_0 (λ v, cq sol' j v * _)) in E.
  - rewrite (qsum_0 (λ v, DU d (rq d i) v * _)) in E by (intros v _; rewrite L2; ring). rewrite !Qcplus_0_l in E. rewrite E.
    apply qsum_ext. intros v _. ring.
  - intros v Hv%elem_of_seqZ. unfold leftover. rewrite du_eq, E1 by lia. ring.
Qed.
(** A volume between the shortest and the longest stay. *)
Lemma held_between d i j (a b : Qc) :
  (∀ l, l ∈ all_journeys p d → nltb n0 (stream p d i j l) = true → nleb (fin a) (duration p d l) = true ∧ nleb (duration p d l) (fin b) = true) →
  nleb (nmul (fin a) (streams p d i j)) (held p d i j) = true ∧ nleb (held p d i j) (nmul (fin b) (streams p d i j)) = true.
Proof.
  intros Hb. rewrite held_q. unfold streams. rewrite (sum_left_fin _ (stq d i j)) by (intros l (k & v & _ & Hl)%in_all; by eapply stream_q).
  assert (∀ l, l ∈ all_journeys p d → a * stq d i j l <= stq d i j l * duq (Tt d) pvq l ∧ stq d i j l * duq (Tt d) pvq l <= b * stq d i j l) as HB.
  { intros l Hl. pose proof Hl as (k & v & _ & Hk)%in_all. pose proof (stq_nonneg d i j k v l Hk) as H0.
    apply Qcle_lt_or_eq in H0 as [H0|E]; [|rewrite <-E, Qcmult_0_l, !Qcmult_0_r; split; apply Qcle_refl].
    specialize (Hb l Hl). rewrite (stream_q d i j k v l Hk), exact_n0 in Hb. specialize (Hb (proj2 (xltb_Fin _ _) H0)).
    assert (0 < chq (Wt d) (Tt d) (rq d i) l) as Hpos.
    { pose proof (chq_nonneg _ _ _ _ _ _ _ (so_good _ _ _ _ (well_source p Hp HD HV d i)) k v l Hk) as H1.
      apply Qcle_lt_or_eq in H1 as [|E]; [done|]. exfalso. destruct (arrivals_head _ _ _ _ _ Hk) as [l' ->]. unfold stq in H0.
      rewrite <-E, Qcmult_0_l in H0. done. }
    rewrite (duration_q p Hp HD HV d _ _ (well_source p Hp HD HV d i) k v l Hk Hpos) in Hb.
    destruct Hb as [B1%xleb_Fin B2%xleb_Fin]. rewrite (Qcmult_comm (stq _ _ _ _)).
    split; apply Qcmult_le_compat_r; (done || by apply Qclt_le_weak). }
  split; apply xleb_Fin; rewrite <-qsum_scale; apply qsum_le; intros l Hl; by apply HB.
Qed.
End streams.
