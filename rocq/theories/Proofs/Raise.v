(** What a higher rate of one well does, in exact arithmetic and without cycles:
    property C90. *)
From Coq Require Import QArith Qcanon.
From Verif.Model Require Import Base Num OMap Containers Solution AssembledConnections Tarjan TracerTofSolver Toolbox DerivedQuantities.
From Verif.Spec Require Import ToolboxSpec MirrorSpec DerivedSpec MonotoneSpec ConditionSpec RaiseSpec.
From Verif.Proofs Require Import Util OMapFacts ExactNum QcLra OrdLaws ToolboxState ToolboxRates SolverBase SolverRun SolverTop SolverGen
  ToolboxFlow ToolboxVal ToolboxSane ToolboxThms GaussSeidel ExactRun ToolboxExact Duality Balance Condition.
Open Scope Z_scope.

Lemma keys_nodup {K V} `{OrdLaws K} (m : smap K V) : map_ok m → NoDup (map fst m).
Proof.
  unfold map_ok. induction (map fst m) as [|k l IH]; intros Hs; [constructor|]. inversion Hs as [|? ? Hs' Hf]; subst. constructor; [|by apply IH].
  intros Hk. rewrite Forall_forall in Hf. specialize (Hf k Hk). assert (kcmp k k = Eq) as E by by apply kcmp_eq. congruence.
Qed.

Lemma qc_eq_le' (a b : Qc) : a = b → (a <= b)%Qc.
Proof. intros ->. apply Qcle_refl. Qed.

Section layered.
Local Open Scope Qc_scope.
Context (n : Z) (W : Z → Z → Qc) (T T' b b' δ V c c' τ τ' : Z → Qc) (L : Z → bool) (M : Qc) (D : Z → nat).
Notation all := (seqZ 0 n).
Context (HW : ∀ u v, 0 <= W u v) (HT : ∀ v, 0 <= T v) (Hδ : ∀ v, 0 <= δ v) (ET : ∀ v, T' v = T v + δ v).
Context (HD : ∀ u v, W u v ≠ 0 → (D u < D v)%nat).
Context (Hc : ∀ v, v ∈ all → 0 <= c v ∧ c v <= 1) (Hc' : ∀ v, v ∈ all → 0 <= c' v ∧ c' v <= 1).
Context (Z0 : ∀ v, v ∈ all → T v = 0 → c v = 0) (Z0' : ∀ v, v ∈ all → T' v = 0 → c' v = 0).
Context (EC : ∀ v, v ∈ all → T v * c v = qsum (map (λ u, c u * W u v) all) + b v).
Context (EC' : ∀ v, v ∈ all → T' v * c' v = qsum (map (λ u, c' u * W u v) all) + b' v).

Lemma div_le a x y : 0 < a → a * x <= a * y → x <= y.
Proof. intros Ha H. destruct (Qclt_le_dec y x) as [Hlt|]; [|done]. exfalso. revert Ha H Hlt. clear. intros. qcnra. Qed.
Lemma T_pos v : T' v ≠ 0 → 0 < T' v.
Proof. intros H. destruct (qle_eq_or_lt (T' v)) as [E|]; [|done|done]. rewrite ET. pose proof (HT v). pose proof (Hδ v). revert H0 H1. generalize (T v) (δ v). clear. intros. qclra. Qed.
Lemma T_zero v : T' v = 0 → T v = 0 ∧ δ v = 0.
Proof. intros E. rewrite ET in E. pose proof (HT v). pose proof (Hδ v). revert E H H0. generalize (T v) (δ v). clear. intros t e E H0 H1. split; apply Qcle_antisym; qclra. Qed.
Lemma sum_le (h h' : Z → Qc) v : (∀ u, u ∈ all → (D u < D v)%nat → h u <= h' u) → qsum (map (λ u, h u * W u v) all) <= qsum (map (λ u, h' u * W u v) all).
Proof.
  intros H. apply qsum_le. intros u Hu. destruct (Qc_eq_dec (W u v) 0) as [E|E]; [rewrite E, !Qcmult_0_r; apply Qcle_refl|].
  apply Qcmult_le_compat_r; [|done]. apply H; [done|]. by apply HD.
Qed.
(** The well itself gains. *)
Lemma gains : (∀ v, b' v = b v + δ v) → ∀ v, v ∈ all → c v <= c' v.
Proof.
  intros Eb. assert (∀ k v, (D v < k)%nat → v ∈ all → c v <= c' v) as H; [|intros v; by apply (H (S (D v))); lia].
  induction k as [|k IH]; [lia|]. intros v Hk Hv. destruct (Qc_eq_dec (T' v) 0) as [E|E].
  - destruct (T_zero v E) as [E0 _]. rewrite (Z0 v Hv E0). apply (Hc' v Hv).
  - apply (div_le (T' v)); [by apply T_pos|]. rewrite EC' by done. rewrite Eb, ET, Qcmult_plus_distr_l, EC by done.
    assert (qsum (map (λ u, c u * W u v) all) <= qsum (map (λ u, c' u * W u v) all)) as Hs. { apply sum_le. intros u Hu Hl. apply IH; [lia|done]. }
    destruct (Hc v Hv) as [_ H1]. pose proof (Hδ v) as Hd. revert Hs H1 Hd. clear. generalize (qsum (map (λ u, c u * W u v) all)) (qsum (map (λ u, c' u * W u v) all)) (b v) (δ v) (c v).
    intros. qcnra.
Qed.
(** The others lose. *)
Lemma loses : (∀ v, b' v = b v) → ∀ v, v ∈ all → c' v <= c v.
Proof.
  intros Eb. assert (∀ k v, (D v < k)%nat → v ∈ all → c' v <= c v) as H; [|intros v; by apply (H (S (D v))); lia].
  induction k as [|k IH]; [lia|]. intros v Hk Hv. destruct (Qc_eq_dec (T' v) 0) as [E|E].
  - rewrite (Z0' v Hv E). apply (Hc v Hv).
  - apply (div_le (T' v)); [by apply T_pos|]. rewrite EC' by done. rewrite Eb, ET, Qcmult_plus_distr_l, EC by done.
    assert (qsum (map (λ u, c' u * W u v) all) <= qsum (map (λ u, c u * W u v) all)) as Hs. { apply sum_le. intros u Hu Hl. apply IH; [lia|done]. }
    destruct (Hc v Hv) as [H1 _]. pose proof (Hδ v) as Hd. revert Hs H1 Hd. clear. generalize (qsum (map (λ u, c u * W u v) all)) (qsum (map (λ u, c' u * W u v) all)) (b v) (δ v) (c v).
    intros. qcnra.
Qed.
Lemma remains : (∀ v, b' v = b v) → (∀ v, 0 <= b v) → ∀ v, v ∈ all → c' v = 0 → c v = 0.
Proof.
  intros Eb Hb. assert (∀ k v, (D v < k)%nat → v ∈ all → c' v = 0 → c v = 0) as H; [|intros v; by apply (H (S (D v))); lia].
  induction k as [|k IH]; [lia|]. intros v Hk Hv E. pose proof (EC' v Hv) as E'. rewrite E, Qcmult_0_r, Eb in E'.
  assert (∀ u, u ∈ all → 0 <= c' u * W u v) as Hn. { intros u Hu. apply qmul_nonneg; [apply (Hc' u Hu)|done]. }
  pose proof (qsum_map_nonneg _ _ Hn) as H1. pose proof (Hb v) as H2.
  assert (qsum (map (λ u, c' u * W u v) all) = 0 ∧ b v = 0) as [E1 E2].
  { revert E' H1 H2. generalize (qsum (map (λ u, c' u * W u v) all)) (b v). clear. intros. split; apply Qcle_antisym; qclra. }
  destruct (Qc_eq_dec (T v) 0) as [ETv|ETv]; [by apply Z0|]. pose proof (EC v Hv) as Ev. rewrite E2, (qsum_0 (λ u, c u * W u v)) in Ev.
  - rewrite Qcplus_0_r in Ev. apply Qcmult_integral in Ev as [|]; done.
  - intros u Hu. destruct (Qc_eq_dec (W u v) 0) as [E0|E0]; [rewrite E0; ring|].
    pose proof (qsum_zero _ _ Hn E1 u Hu) as Eu. apply Qcmult_integral in Eu as [Eu|Eu]; [|done].
    rewrite (IH u); [ring|specialize (HD u v E0); lia|done|done].
Qed.
End layered.

(** In a flow whose cells are fed before they feed others, all of the fluid has
    come from wells. *)
Section fed.
Local Open Scope Qc_scope.
Context (n : Z) (W : Z → Z → Qc) (T b c : Z → Qc) (D : Z → nat).
Notation all := (seqZ 0 n).
Context (HD : ∀ u v, W u v ≠ 0 → (D u < D v)%nat) (HF : ∀ u v, W u v ≠ 0 → T u ≠ 0).
Context (ET : ∀ v, T v = qsum (map (λ u, W u v) all) + b v).
Context (EC : ∀ v, v ∈ all → T v * c v = qsum (map (λ u, c u * W u v) all) + b v).
Lemma all_fed v : v ∈ all → T v ≠ 0 → c v = 1.
Proof.
  assert (∀ k v, (D v < k)%nat → v ∈ all → T v ≠ 0 → c v = 1) as H; [|by apply (H (S (D v))); lia]. clear v.
  induction k as [|k IH]; [lia|]. intros v Hk Hv Hne. pose proof (EC v Hv) as E.
  rewrite (qsum_ext (λ u, c u * W u v) (λ u, W u v)) in E.
  - rewrite <-ET in E. transitivity (T v * c v * / T v); [field; done|]. rewrite E. field. done.
  - intros u Hu. destruct (Qc_eq_dec (W u v) 0) as [E0|E0]; [rewrite E0; ring|]. rewrite (IH u); [ring|specialize (HD u v E0); lia|done|by eapply HF].
Qed.
End fed.

Section times.
Local Open Scope Qc_scope.
Context (n : Z) (W : Z → Z → Qc) (T T' V c c' τ τ' : Z → Qc) (L : Z → bool) (M : Qc) (D : Z → nat).
Notation all := (seqZ 0 n).
Context (HW : ∀ u v, 0 <= W u v) (HT : ∀ v, 0 <= T v) (HT' : ∀ v, T v <= T' v) (HM : 0 < M).
Context (HZ : ∀ v, T v = 0 → ∀ u, u ∈ all → W u v = 0).
Context (HD : ∀ u v, W u v ≠ 0 → (D u < D v)%nat) (HF : ∀ u v, W u v ≠ 0 → T u ≠ 0).
Context (F : ∀ v, v ∈ all → T v ≠ 0 → c v = 1) (F' : ∀ v, v ∈ all → T' v ≠ 0 → c' v = 1).
Context (Z0 : ∀ v, v ∈ all → T v = 0 → c v = 0) (Z0' : ∀ v, v ∈ all → T' v = 0 → c' v = 0).
Context (Hτ : ∀ v, v ∈ all → 0 <= τ v) (HV : ∀ v, L v = false → T v = 0 → V v = 0).
Context (LT : ∀ v, v ∈ all → L v = true → τ v = M) (LT' : ∀ v, v ∈ all → L v = true → τ' v = M).
Context (CT : ∀ v, v ∈ all → c v = 0 → τ v = M) (CT' : ∀ v, v ∈ all → c' v = 0 → τ' v = M).
Context (ET : ∀ v, v ∈ all → L v = false → T v * c v * τ v = V v * c v + qsum (map (λ u, τ u * c u * W u v) all)).
Context (ET' : ∀ v, v ∈ all → L v = false → T' v * c' v * τ' v = V v * c' v + qsum (map (λ u, τ' u * c' u * W u v) all)).

Lemma T_up v : T v ≠ 0 → T' v ≠ 0.
Proof. intros H E. apply H. apply Qcle_antisym; [|done]. rewrite <-E. done. Qed.
Lemma sooner v : v ∈ all → τ' v <= τ v.
Proof.
  assert (∀ k v, (D v < k)%nat → v ∈ all → τ' v <= τ v) as H; [|by apply (H (S (D v))); lia]. clear v.
  induction k as [|k IH]; [lia|]. intros v Hk Hv. destruct (L v) eqn:El; [rewrite (LT v Hv El), (LT' v Hv El); apply Qcle_refl|].
  destruct (Qc_eq_dec (T' v) 0) as [E'|E'].
  - assert (T v = 0) as E. { apply Qcle_antisym; [|done]. rewrite <-E'. done. }
    rewrite (CT v Hv), (CT' v Hv); [apply Qcle_refl|by apply Z0'|by apply Z0].
  - assert (0 < T' v) as Hp. { destruct (qle_eq_or_lt (T' v)) as [|]; [|done|done]. by transitivity (T v). }
    pose proof (ET' v Hv El) as E2. rewrite (F' v Hv E'), !Qcmult_1_r in E2.
    destruct (Qc_eq_dec (T v) 0) as [E|E].
    + rewrite (CT v Hv) by by apply Z0. apply (div_le (T' v)); [done|]. rewrite E2, (HV v El E).
      rewrite qsum_0; [|intros u Hu; rewrite (HZ v E u Hu); ring]. assert (0 <= T' v * M) as Hx by (apply qmul_nonneg; by apply Qclt_le_weak).
      revert Hx. generalize (T' v * M). clear. intros. qclra.
    + pose proof (ET v Hv El) as E1. rewrite (F v Hv E), !Qcmult_1_r in E1. apply (div_le (T' v)); [done|]. rewrite E2.
      transitivity (T v * τ v); [|apply Qcmult_le_compat_r; [done|by apply Hτ]]. rewrite E1.
      assert (qsum (map (λ u, τ' u * c' u * W u v) all) <= qsum (map (λ u, τ u * c u * W u v) all)) as Hs.
      { apply qsum_le. intros u Hu. destruct (Qc_eq_dec (W u v) 0) as [E0|E0]; [rewrite E0, !Qcmult_0_r; apply Qcle_refl|].
        pose proof (HF u v E0) as Hu0. rewrite (F u Hu Hu0), (F' u Hu (T_up u Hu0)), !Qcmult_1_r. apply Qcmult_le_compat_r; [|done].
        apply IH; [|done]. specialize (HD u v E0). lia. }
      revert Hs. generalize (qsum (map (λ u, τ' u * c' u * W u v) all)) (qsum (map (λ u, τ u * c u * W u v) all)) (V v). clear. intros. qclra.
Qed.
End times.

Section results.
Local Open Scope Qc_scope.
Context (p p' : @problem exact) (d : direction) (id : cellset_id) (RA : raised d id p p').
Context (Hp : valid p) (HD : data finite p) (HV : pores_ok p) (Hp' : valid p') (HD' : data finite p').
Context (g g' : cgraph) (f f' : cvalues) (HP : poses p g f) (HP' : poses p' g' f').
Context (Hac : acyclic (net_arcs p)).
Notation n := (pb_cells p).
Notation all := (seqZ 0 n).
Local Notation fin x := (Fin x : @num exact).

Lemma ra_arcs : net_arcs p' = net_arcs p.
Proof. unfold net_arcs. by rewrite (ra_conns _ _ _ _ RA). Qed.
Lemma ra_flow : flow d p' = flow d p.
Proof. unfold flow. by rewrite ra_arcs. Qed.
Lemma ra_W u v : Wt p' d u v = Wt p d u v.
Proof. unfold Wt. by rewrite ra_flow. Qed.
Lemma ra_pore v : pvq p' v = pvq p v.
Proof. unfold pvq, pore. by rewrite (ra_pv _ _ _ _ RA). Qed.
Lemma ra_pores : pores_ok p'.
Proof. intros x Hx. apply HV. by rewrite <-(ra_pv _ _ _ _ RA). Qed.
Definition rise (v : Z) : Qc := rq p' d id v - rq p d id v.
Lemma rise_nonneg v : 0 <= rise v.
Proof.
  unfold rise. pose proof (ra_well _ _ _ _ RA v) as H. pose proof (rq_nonneg p Hp HD d id v) as H0. pose proof (rq_nonneg p' Hp' HD' d id v) as H1. unfold rq in *.
  destruct (well_rate d (pb_rates p) id v) as [x|] eqn:E.
  - destruct (H x eq_refl) as (x' & E' & Hle). rewrite E' in *. destruct (rate_fin p Hp HD d id v x E) as (y & -> & _).
    destruct (rate_fin p' Hp' HD' d id v x' E') as (y' & -> & _). apply xleb_Fin in Hle. cbn [qv]. revert Hle. clear. intros. qclra.
  - revert H1. clear. generalize (match well_rate d (pb_rates p') id v with Some r => qv r | None => 0 end). intros. qclra.
Qed.
Lemma ra_rq i v : rq p' d i v = rq p d i v + if decide (i = id) then rise v else 0.
Proof. destruct (decide (i = id)) as [->|Hne]; [unfold rise; ring|]. unfold rq. rewrite (ra_others _ _ _ _ RA) by done. ring. Qed.
Lemma unlisted (q : @problem exact) v : id ∉ map fst (pb_rates q) → rq q d id v = 0.
Proof.
  intros H. unfold rq, well_rate. destruct (om_find id (pb_rates q)) as [x|] eqn:E; [|done]. exfalso. apply H.
  clear H. induction (pb_rates q) as [|[k y] l IH]; [done|]. cbn [om_find] in E. destruct (kcmp id k) eqn:Ek; [|done|].
  - apply kcmp_eq in Ek as ->. left.
  - right. by apply IH.
Qed.
Lemma ra_rates v : rates p' d v = rates p d v + rise v.
Proof.
  unfold rates. rewrite (ra_wells _ _ _ _ RA). pose proof (unlisted p v) as U1. pose proof (unlisted p' v) as U2. rewrite (ra_wells _ _ _ _ RA) in U2.
  assert (NoDup (map fst (pb_rates p))) as Hnd. { destruct (va_rates _ Hp) as [Hm _]. by apply keys_nodup. }
  rewrite (qsum_ext (λ i, rq p' d i v) (λ i, rq p d i v + if decide (i = id) then rise v else 0)) by (intros; apply ra_rq).
  assert (id ∉ map fst (pb_rates p) → rise v = 0) as U. { intros H. unfold rise. rewrite U1, U2 by done. ring. }
  clear U1 U2. revert Hnd U. induction (map fst (pb_rates p)) as [|i l IH]; intros Hnd U; qsum_simpl.
  - rewrite U by apply not_elem_of_nil. ring.
  - apply NoDup_cons in Hnd as [Hi Hnd]. destruct (decide (i = id)) as [->|Hne].
    + rewrite (qsum_ext _ (λ i, rq p d i v)); [ring|]. intros j Hj. rewrite decide_False; [ring|]. by intros ->.
    + rewrite IH; [ring|done|]. intros H. apply U. by apply not_elem_of_cons.
Qed.
Lemma ra_T v : Tt p' d v = Tt p d v + rise v.
Proof.
  rewrite (Tt_eq p Hp HD HV), (Tt_eq p' Hp' HD' ra_pores). rewrite (ra_cells _ _ _ _ RA).
  rewrite (qsum_ext (λ u, Wt p' d u v) (λ u, Wt p d u v)) by (intros; apply ra_W).
  pose proof (ra_rates v) as E. unfold rates in E. rewrite E. ring.
Qed.
Lemma ra_acyclic : acyclic (net_arcs p').
Proof. by rewrite ra_arcs. Qed.

Lemma outside (q : @problem exact) gq fq ev sets sol i v : valid q → poses q gq fq → data finite q → pores_ok q →
  diagnose d ev gq q fq sets = Ok (OSol sol) → i ∈ map cs_id sets → v ∉ seqZ 0 (pb_cells q) → om_find v (sol_concentration sol i) = None.
Proof.
  intros Hq HPq HDq HVq H Hid Hv. destruct (local_values q gq fq Hq HPq HDq HVq d ev sets sol i H Hid) as (inj & comps & st & s & Hinj & Ho & _ & _ & _ & _ & Ht & Hc & _).
  rewrite Hc. rewrite decide_False; [done|]. intros Hin. apply Hv. apply elem_of_seqZ.
  apply (oc_cover _ _ _ Ho) in Hin as (r & [x Hx] & Hl). pose proof (va_cellrates _ Hq _ _ _ _ Hx) as Hr. clear Hx.
  destruct (rtc_inv_r r v Hl) as [<-|(w & _ & Hf)]; [lia|]. destruct (flows_range (pb_cells q) (flow d q) w v (flow_arcs q Hq d) Hf) as [_ ?]. lia.
Qed.

Section runs.
Context (ev ev' : env) (sets sets' : list cellset) (sol sol' : @solution exact).
Context (H : diagnose d ev g p f sets = Ok (OSol sol)) (H' : diagnose d ev' g' p' f' sets' = Ok (OSol sol')).
Lemma ra_layers : ∃ D : Z → nat, ∀ u v, Wt p d u v ≠ 0 → (D u < D v)%nat.
Proof.
  destruct (layers_exist p d g f ev sets sol Hp HP Hac H) as (D & HL & _). exists D. intros u v Hne.
  destruct (decide (flows (flow d p) u v)) as [Hf|Hf]; [by apply HL|]. by rewrite Wt_none in Hne.
Qed.
Lemma raised_conc i : i ∈ map cs_id sets → i ∈ map cs_id sets' → ∀ v, v ∈ all →
  (i = id → cq sol i v <= cq sol' i v) ∧ (i ≠ id → cq sol' i v <= cq sol i v ∧ (cq sol' i v = 0 → cq sol i v = 0)).
Proof.
  intros Hid Hid'. destruct ra_layers as (D & HL).
  destruct (local_exact p g f Hp HP HD HV Hac d ev sets sol i H (λ _, Hid)) as (τ & _ & X).
  destruct (local_exact p' g' f' Hp' HP' HD' ra_pores ra_acyclic d ev' sets' sol' i H' (λ _, Hid')) as (τ' & _ & X').
  rewrite (ra_cells _ _ _ _ RA) in X'.
  assert (∀ v, 0 <= Tt p d v) as HT by (intros; by apply tt_sign).
  assert (∀ v, v ∈ all → Tt p' d v * cq sol' i v = qsum (map (λ u, cq sol' i u * Wt p d u v) all) + rq p' d i v) as EC'.
  { intros v _. destruct (X' v) as (_ & _ & _ & _ & _ & -> & _). f_equal. apply qsum_ext. intros u _. by rewrite ra_W. }
  assert (∀ v, v ∈ all → Tt p d v = 0 → cq sol i v = 0) as Z0 by (intros w _; destruct (X w); tauto).
  assert (∀ v, v ∈ all → Tt p' d v = 0 → cq sol' i v = 0) as Z0' by (intros w _; destruct (X' w); tauto).
  intros v Hv. split; [intros ->|intros Hne; split].
  - eapply (gains n (Wt p d) (Tt p d) (Tt p' d) (rq p d id) (rq p' d id) rise _ _ D); try done; try apply rise_nonneg; try apply ra_T; try (intros; apply X); try (intros; apply X').
    + intros. by apply Wt_nonneg.
    + intros w. rewrite ra_rq. by rewrite decide_True.
  - eapply (loses n (Wt p d) (Tt p d) (Tt p' d) (rq p d i) (rq p' d i) rise _ _ D); try done; try apply rise_nonneg; try apply ra_T; try (intros; apply X); try (intros; apply X').
    + intros. by apply Wt_nonneg.
    + intros w. rewrite ra_rq. rewrite decide_False by done. ring.
  - eapply (remains n (Wt p d) (Tt p d) (Tt p' d) (rq p d i) (rq p' d i) _ _ D); try done; try (intros; apply X); try (intros; apply X').
    + intros. by apply Wt_nonneg.
    + intros w. rewrite ra_rq. rewrite decide_False by done. ring.
    + intros w. by apply rq_nonneg.
Qed.
Lemma raised_well v c : id ∈ map cs_id sets → id ∈ map cs_id sets' → om_find v (sol_concentration sol id) = Some c →
  ∃ c', om_find v (sol_concentration sol' id) = Some c' ∧ nleb c c' = true.
Proof.
  intros Hid Hid' E. destruct (decide (v ∈ all)) as [Hv|Hv].
  2:{ by rewrite (outside p g f ev sets sol id v Hp HP HD HV H Hid Hv) in E. }
  destruct (raised_conc id Hid Hid' v Hv) as [Hle _]. specialize (Hle eq_refl).
  destruct (present p g f Hp HP HD HV d ev sets sol id v H Hid) as [(t & _ & E2 & E3)|(_ & E2 & _)]; [|congruence].
  assert (0 <= cq sol id v) as H0.
  { destruct (local_exact p g f Hp HP HD HV Hac d ev sets sol id H (λ _, Hid)) as (τ & _ & X). apply X. }
  destruct (present p' g' f' Hp' HP' HD' ra_pores d ev' sets' sol' id v H' Hid') as [(t' & _ & E2' & E3')|(_ & E2' & E3')].
  - rewrite E2 in E. injection E as <-. eexists. split; [exact E2'|]. by apply xleb_Fin.
  - exfalso. apply E3. rewrite E3' in Hle. by apply Qcle_antisym.
Qed.
Lemma raised_others i : i ≠ id → i ∈ map cs_id sets → i ∈ map cs_id sets' → ∀ v,
  option_Forall2 (λ x y, nleb y x = true) (om_find v (sol_concentration sol i)) (om_find v (sol_concentration sol' i)).
Proof.
  intros Hne Hid Hid' v. destruct (decide (v ∈ all)) as [Hv|Hv].
  2:{ rewrite (outside p g f ev sets sol i v Hp HP HD HV H Hid Hv).
      rewrite (outside p' g' f' ev' sets' sol' i v Hp' HP' HD' ra_pores H' Hid'); [constructor|]. by rewrite (ra_cells _ _ _ _ RA). }
  destruct (raised_conc i Hid Hid' v Hv) as [_ Hle]. destruct (Hle Hne) as [Hle1 Hle0].
  assert (0 <= cq sol' i v) as H0.
  { destruct (local_exact p' g' f' Hp' HP' HD' ra_pores ra_acyclic d ev' sets' sol' i H' (λ _, Hid')) as (τ & _ & X). apply X. }
  destruct (present p g f Hp HP HD HV d ev sets sol i v H Hid) as [(t & _ & E2 & E3)|(_ & E2 & E3)];
  destruct (present p' g' f' Hp' HP' HD' ra_pores d ev' sets' sol' i v H' Hid') as [(t' & _ & E2' & E3')|(_ & E2' & E3')]; rewrite E2, E2'.
  - constructor. by apply xleb_Fin.
  - exfalso. by apply E3, Hle0.
  - exfalso. apply E3'. apply Qcle_antisym; [|done]. by rewrite <-E3.
  - constructor.
Qed.
End runs.

Lemma slow_is_late (q : @problem exact) v : valid q → data finite q → pores_ok q → slow_cell d q v = late q d v.
Proof.
  intros Hq HDq HVq. unfold slow_cell, late, pvq. assert (total_in q d v = fin (Tt q d v)) as -> by (unfold Tt; by rewrite (Duality.total_fin q Hq HDq HVq)).
  assert (finite (pore q v)) as [x ->].
  { unfold pore. destruct (pb_pv q !! Z.to_nat v) as [x|] eqn:E; [|rewrite exact_n0; by eexists]. cbn [default]. apply (da_pv _ _ HDq). by eapply elem_of_list_lookup_2. }
  change (@cutoff exact) with (@max_tof exact). destruct gs_consts as (_ & _ & -> & _).
  cbn [num nltb ndiv exact qv]. unfold xdiv. by assert (Qc_eqb gs_M 0 = false) as -> by done.
Qed.
Lemma raised_global ev ev' sets sets' sol sol' : diagnose d ev g p f sets = Ok (OSol sol) → diagnose d ev' g' p' f' sets' = Ok (OSol sol') →
  (∀ u v, flows (flow d p) u v → nltb n0 (total_in p d u) = true) →
  (∀ v, (0 ≤ v < n)%Z → slow_cell d p v = slow_cell d p' v) → ∀ v, (0 ≤ v < n)%Z →
  ∃ t t', sol_global_tof sol !! Z.to_nat v = Some t ∧ sol_global_tof sol' !! Z.to_nat v = Some t' ∧ nleb t' t = true.
Proof.
  intros H H' Hfed Hslow v Hv. destruct (ra_layers ev sets sol H) as (D & HL).
  destruct (global_exact p g f Hp HP HD HV Hac d ev sets sol H) as (_ & τ & c & X).
  destruct (global_exact p' g' f' Hp' HP' HD' ra_pores ra_acyclic d ev' sets' sol' H') as (_ & τ' & c' & X').
  rewrite (ra_cells _ _ _ _ RA) in X'. assert (∀ v, v ∈ all → (0 ≤ v < n)%Z) as Hall by (intros w Hw%elem_of_seqZ; lia).
  assert (∀ v, 0 <= Tt p d v) as HT by (intros; by apply tt_sign).
  assert (∀ u v, Wt p d u v ≠ 0 → Tt p d u ≠ 0) as HF.
  { intros u w Hne. apply tt_in; [done..|]. apply (Hfed u w). destruct (decide (flows (flow d p) u w)) as [|Hf]; [done|]. by rewrite Wt_none in Hne. }
  assert (∀ v, Tt p d v <= Tt p' d v) as Hup. { intros w. rewrite ra_T. pose proof (rise_nonneg w) as Hr. revert Hr. generalize (rise w). clear. intros. qclra. }
  assert (∀ v, v ∈ all → late p' d v = late p d v) as HLt.
  { intros w Hw. rewrite <-!slow_is_late by (done || apply ra_pores). symmetry. by apply Hslow, Hall. }
  assert (τ' v <= τ v) as Hle.
  { eapply (sooner n (Wt p d) (Tt p d) (Tt p' d) (pvq p) c c' τ τ' (late p d) gs_M D); try done.
    - intros. by apply Wt_nonneg.
    - intros w E. by apply (tt_sign p Hp HD HV).
    - intros w Hw Hne. apply (all_fed n (Wt p d) (Tt p d) (rates p d) c D); try done.
      + intros u. by apply Tt_eq.
      + intros u Hu. apply (X u (Hall u Hu)).
    - intros w Hw Hne. apply (all_fed n (Wt p d) (Tt p' d) (rates p' d) c' D); try done.
      + intros a b Hab E. apply (HF a b Hab). apply Qcle_antisym; [|done]. by rewrite <-E.
      + intros u. rewrite (Tt_eq p' Hp' HD' ra_pores), (ra_cells _ _ _ _ RA). f_equal. apply qsum_ext. intros; apply ra_W.
      + intros u Hu. destruct (X' u (Hall u Hu)) as (_ & _ & _ & _ & -> & _). f_equal. apply qsum_ext. intros a _. by rewrite ra_W.
    - intros w Hw. apply (X w (Hall w Hw)).
    - intros w Hw. apply (X' w (Hall w Hw)).
    - intros w Hw. apply (X w (Hall w Hw)).
    - intros w El E. unfold late in El. rewrite E in El. apply Qc_ltb_false in El.
      assert (0 <= pvq p w) as H0.
      { unfold pvq, pore. destruct (pb_pv p !! Z.to_nat w) as [x|] eqn:Ex; [|rewrite exact_n0; apply Qcle_refl]. cbn [default]. apply elem_of_list_lookup_2 in Ex.
        pose proof (HV x Ex) as Hx. destruct (da_pv _ _ HD x Ex) as [y ->]. rewrite exact_n0 in Hx. by apply xleb_Fin in Hx. }
      apply Qcle_antisym; [|done]. transitivity (pvq p w / gs_M * gs_M); [apply qc_eq_le'; field; destruct gs_consts as (_ & _ & _ & _ & _ & _ & HM); intros E0; by apply (Qclt_not_eq _ _ HM)|].
      transitivity (0 * gs_M); [apply Qcmult_le_compat_r; [done|by apply M_nonneg]|]. rewrite Qcmult_0_l. apply Qcle_refl.
    - intros w Hw. apply (X w (Hall w Hw)).
    - intros w Hw. rewrite <-HLt by done. apply (X' w (Hall w Hw)).
    - intros w Hw. apply (X w (Hall w Hw)).
    - intros w Hw. apply (X' w (Hall w Hw)).
    - intros w Hw. apply (X w (Hall w Hw)).
    - intros w Hw El. destruct (X' w (Hall w Hw)) as (_ & _ & _ & _ & _ & _ & _ & XT). rewrite HLt in XT by done. rewrite (XT El), ra_pore. f_equal.
      apply qsum_ext. intros a _. by rewrite ra_W.
    - apply elem_of_seqZ. lia. }
  destruct (X v Hv) as (_ & _ & -> & _). destruct (X' v Hv) as (_ & _ & -> & _).
  eexists _, _. split; [done|]. split; [done|]. destruct gs_consts as (_ & _ & -> & _ & _ & _ & HM). unfold nmin. cbn [num nltb exact xltb].
  destruct (Qc_ltb gs_M (τ' v)) eqn:L1, (Qc_ltb gs_M (τ v)) eqn:L2; apply xleb_Fin.
  - apply Qcle_refl.
  - apply Qc_ltb_true in L1. apply Qc_ltb_false in L2. exfalso. apply (Qclt_not_le _ _ L1). by transitivity (τ v).
  - by apply Qc_ltb_false in L1.
  - done.
Qed.
End results.
