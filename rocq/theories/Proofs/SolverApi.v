(** Property C58: what a solve may answer. *)
From Coq Require Import QArith Qcanon.
From Verif.Model Require Import Base Num OMap Containers AssembledConnections Tarjan TracerTofSolver.
From Verif.Spec Require Import GraphSpec SccSpec TarjanSpec FlowSpec SolverSpec.
From Verif.Proofs Require Import Util OMapFacts AConn GraphProps ExactNum QcLra OrdLaws DerivedExact SolverBase SolverRun SolverTop SolverGen SolverProps GaussSeidel ExactRun.
Open Scope Z_scope.

Section keeps.
Context {N : Num} (n : Z) (A : list arc) (pv : list num) (src : cellset_values) (inj : Z → option num) (I : fstate → Prop).
Context (Hcell : ∀ st v, I st → I (upd_cell n A pv src inj st v)).

Lemma keeps_sweep C st dt dc r : I st → foldM (run_gs_cell n A pv src inj) (st, dt, dc) C = Ok r → I r.1.1.
Proof.
  revert st dt dc. induction C as [|v C IH]; intros st dt dc Hst; cbn [foldM]; [by intros [= <-]|].
  intros H. apply bind_Ok in H as ([[st1 dt1] dc1] & E & H). apply (IH st1 dt1 dc1); [|done].
  unfold run_gs_cell in E. cbn [fst snd] in E. apply bind_Ok in E as (st' & E & [= <- <- <-]). apply run_cell_inv in E as [_ ->].
  by apply Hcell.
Qed.
Lemma keeps_loop C fuel st dt dc st' : I st → run_loop n A pv src inj fuel C st dt dc = Ok st' → I st'.
Proof.
  revert st dt dc. induction fuel as [|fuel IH]; intros st dt dc Hst; cbn [run_loop];
    (destruct (nltb gs_tof_tol dt || nltb gs_tracer_tol dc); [|by intros [= <-]]); [done|].
  intros H. apply bind_Ok in H as (r & E & H). eapply IH; [|exact H]. by eapply keeps_sweep.
Qed.
Lemma keeps_run comps fuel st' : I zero_state → run n A pv src inj fuel comps = Ok st' → I st'.
Proof.
  unfold run. generalize zero_state. induction comps as [|C comps IH]; intros st Hst; cbn [foldM]; [by intros [= <-]|].
  intros H. apply bind_Ok in H as (st1 & E & H). apply (IH st1); [|done]. unfold run_comp in E.
  destruct C as [|v [|w C]]; try by eapply keeps_loop. apply run_cell_inv in E as [_ ->]. by apply Hcell.
Qed.
End keeps.

Section api.
Context {N : Num} (n : Z) (A : list arc) (pv : list num) (src : cellset_values) (s : tts) (d : tdyn).
Context (HN : new_solver n A pv src s d).

Lemma answers_local h fuel ss : call_ok n (SolveLocal h fuel ss) → ∀ d', zlen (td_local d') = n →
  answers s d' (SolveLocal h fuel ss) =
    (r ← local_val n A pv src s h fuel ss; Ok (match r with inl t => inl (inr t) | inr e => inr e end)).
Proof.
  destruct (new_solver_of _ _ _ _ _ _ HN) as [HS _]. intros [Hw Hr] d' Hd. unfold answers, do_solve.
  destruct (solve_local_eq n A pv src s HS h fuel d' ss Hd Hw Hr) as (d1 & _ & ->).
  by destruct (local_val n A pv src s h fuel ss) as [[]| | | |].
Qed.
Lemma answers_global h fuel d' :
  answers s d' (SolveGlobal h fuel) =
    (r ← global_val n A pv src s h fuel; Ok (match r with inl t => inl (inl t) | inr e => inr e end)).
Proof.
  destruct (new_solver_of _ _ _ _ _ _ HN) as [HS _]. unfold answers, do_solve.
  destruct (solve_global_eq n A pv src s HS h fuel d') as (d1 & _ & ->).
  by destruct (global_val n A pv src s h fuel) as [[]| | | |].
Qed.

Lemma negative_some (ss : cellset_values) : existsb (λ kv : Z * num, nltb kv.2 n0) ss = true ↔ ∃ c x, (c, x) ∈ ss ∧ nltb x n0 = true.
Proof.
  rewrite existsb_exists. split.
  - intros ([c x] & Hin & H). exists c, x. split; [by apply elem_of_list_In|done].
  - intros (c & x & Hin & H). exists (c, x). split; [by apply elem_of_list_In|done].
Qed.

Lemma local_rejects h fuel ss : call_ok n (SolveLocal h fuel ss) → memory_ok h →
  (∃ c x, (c, x) ∈ ss ∧ nltb x n0 = true) → answers s d (SolveLocal h fuel ss) = Ok (inr LogicError).
Proof.
  intros Hc Hh Hneg. rewrite answers_local by (try done; apply (new_solver_of _ _ _ _ _ _ HN)).
  unfold local_val, ws_ok, scc_ok. rewrite !Hh. cbn [andb negb]. by rewrite (proj2 (negative_some ss) Hneg).
Qed.

Lemma local_support h fuel ss tof conc : call_ok n (SolveLocal h fuel ss) →
  answers s d (SolveLocal h fuel ss) = Ok (inl (inr (tof, conc))) →
  map_ok tof ∧ map_ok conc ∧
  (∀ v, v ∈ map fst tof ↔ ∃ r, r ∈ map fst ss ∧ leads A r v) ∧ (∀ v, v ∈ map fst conc ↔ ∃ r, r ∈ map fst ss ∧ leads A r v) ∧
  (∀ v c, om_find v conc = Some c → nleb c n0 = false).
Proof.
  intros Hc. destruct (new_solver_of _ _ _ _ _ _ HN) as [HS Hd]. rewrite answers_local by done. unfold local_val.
  destruct (ws_ok h 0); [|done]. destruct (scc_ok h 5); [|done]. destruct (scc_ok h 8); [|done]. cbn [negb].
  destruct (existsb _ ss); [done|]. intros H. apply bind_Ok in H as (r & E & H). apply bind_Ok in E as (st & Hst & E).
  pose proof (lcomps_ordered n A pv src s HS (map fst ss) (proj2 Hc)) as Ho. set (comps := lcomps n s (map fst ss)) in *.
  destruct (existsb (λ v, nleb (st.2 v) n0) (concat comps)) eqn:Ex; injection E as <-; [done|]. injection H as <- <-.
  assert (∀ f, om_wf (tab_map_of f (concat comps) [])) as Hwf by (intros; apply tab_map_wf; constructor).
  assert (∀ f v, v ∈ map fst (tab_map_of f (concat comps) []) ↔ ∃ r, r ∈ map fst ss ∧ leads A r v) as Hk.
  { intros f v. rewrite <-(oc_cover _ _ _ Ho v). pose proof (tab_map_find f (concat comps) [] v ltac:(constructor)) as E. split.
    - intros Hin. destruct (decide (v ∈ concat comps)); [done|]. cbn in E. by apply (om_find_none _ _ (Hwf f)) in E.
    - intros Hin. rewrite decide_True in E by done. apply om_find_elem in E; [|apply Hwf].
      apply elem_of_list_fmap. by exists (v, f v). }
  split_and!; [apply Hwf|apply Hwf|apply Hk|apply Hk|]. intros v c. rewrite tab_map_find by constructor.
  destruct (decide (v ∈ concat comps)) as [Hin|]; [|done]. intros [= <-]. destruct (nleb (st.2 v) n0) eqn:E2; [|done]. exfalso.
  assert (existsb (λ v, nleb (st.2 v) n0) (concat comps) = true) as E3; [|congruence].
  apply existsb_exists. exists v. split; [by apply elem_of_list_In|done].
Qed.

Lemma global_length h fuel a : answers s d (SolveGlobal h fuel) = Ok a → memory_ok h → ∃ t, a = inl (inl t) ∧ zlen t = n.
Proof.
  intros H Hh. rewrite answers_global in H. unfold global_val, ws_ok, scc_ok in H. rewrite !Hh in H. cbn [andb negb] in H.
  apply bind_Ok in H as (r & E & H). apply bind_Ok in E as (st & _ & E). injection E as <-. injection H as <-.
  eexists. split; [done|]. apply tab_zlen. apply (ns_n _ _ _ _ _ _ HN).
Qed.
End api.

(** ** Exact arithmetic *)
Section exact.
Context (n : Z) (A : list (@arc exact)) (pv : list (@num exact)) (src : @cellset_values exact) (s : @tts exact) (d : @tdyn exact).
Context (HN : new_solver n A pv src s d).

Lemma sum_finite {X} (f : X → @num exact) l : (∀ x, x ∈ l → finite (f x)) → finite (sum_left (map f l)).
Proof.
  intros H. rewrite (sum_left_fin f (λ x, qv (f x)) l); [by eexists|]. intros x Hx. by destruct (H x Hx) as [q ->].
Qed.

Lemma unsourced h fuel ss r x a : call_ok n (SolveLocal h fuel ss) →
  (∀ b, b ∈ A → finite b.2) → (∀ c y, (c, y) ∈ src → finite y) → (∀ c y, (c, y) ∈ ss → finite y) →
  (r, x) ∈ ss → value_at src r = n0 → answers s d (SolveLocal h fuel ss) ≠ Ok (inl a).
Proof.
  intros Hc HA Hsrc Hss Hin Hr Ha. destruct (new_solver_of _ _ _ _ _ _ HN) as [HS Hd]. rewrite (answers_local n A pv src s d HN) in Ha by done.
  unfold local_val in Ha. destruct (ws_ok h 0); [|done]. destruct (scc_ok h 5); [|done]. destruct (scc_ok h 8); [|done]. cbn [negb] in Ha.
  destruct (existsb _ ss); [done|]. apply bind_Ok in Ha as (q & E & Ha). apply bind_Ok in E as (st & Hst & E).
  pose proof (lcomps_ordered n A pv src s HS (map fst ss) (proj2 Hc)) as Ho. set (comps := lcomps n s (map fst ss)) in *.
  assert (r ∈ map fst ss) as Hr1 by (apply elem_of_list_fmap; by exists (r, x)).
  assert (r ∈ concat comps) as Hrc. { apply (oc_cover _ _ _ Ho). exists r. split; [done|]. apply rtc_refl. }
  assert (om_find r ss = Some x) as Ers by (apply om_find_elem; [apply Hc|done]).
  set (inj := λ v, om_find v ss) in *.
  assert ((∀ u, finite (st.2 u)) ∧ st.2 r = Fin 0%Qc) as [_ H0].
  { refine (keeps_run n A pv src inj (λ st, (∀ u, finite (st.2 u)) ∧ st.2 r = Fin 0%Qc) _ comps fuel st _ Hst);
      [|split; [intros u; by exists 0%Qc|by rewrite <-exact_n0]]. clear st Hst q E Ha.
    intros st v [Hf H0]. 
    assert (∀ u w, finite (arc_flux A u w)) as Hw.
    { intros u w. unfold arc_flux. rewrite <-(map_id (omap _ A)). apply sum_finite. intros y (b & Hb & E)%elem_of_list_omap.
      destruct (decide _); [|done]. injection E as <-. by apply HA. }
    assert (finite (uc n A inj st.2 v)) as [u Eu].
    { assert (finite (mix n A st.2 v)) as [m Em].
      { apply sum_finite. intros u _. destruct (Hf u) as [y ->], (Hw u v) as [z ->]. by eexists. }
      unfold uc. destruct (inj v) as [y|] eqn:E; [|by exists m]. apply om_find_elem in E; [|apply Hc].
      destruct (Hss _ _ E) as [z ->]. rewrite Em. by eexists. }
    assert (finite (influx n A v)) as [i Ei] by (apply sum_finite; intros; apply Hw).
    assert (finite (cellc n A src inj st.2 v) ∧ (v = r → cellc n A src inj st.2 v = Fin 0%Qc)) as [C1 C2].
    { unfold cellc, tot. rewrite Eu, Ei. unfold src_eff.
      assert (finite (value_at src v)) as [y Ey].
      { unfold value_at. destruct (om_find v src) as [y|] eqn:E; [|by exists 0%Qc]. apply om_find_elem in E; [|apply (ns_src _ _ _ _ _ _ HN)]. by eapply Hsrc. }
      destruct (neqb (value_at src v) n0 && is_start inj v) eqn:E.
      - cbn. split; [by eexists|done].
      - split.
        + rewrite Ey. cbn [num nadd exact xadd neqb ndiv]. rewrite exact_n0. cbn [xeqb]. unfold xdiv.
          destruct (Qc_eqb (i + y) 0); by eexists.
        + intros ->. exfalso. rewrite Hr in E. unfold is_start in E. unfold inj in E. rewrite Ers in E. rewrite exact_n0 in E. done. }
    unfold upd_cell. cbn [snd]. split.
    - intros u'. unfold fupd. destruct (decide _); [done|apply Hf].
    - unfold fupd. destruct (decide _) as [E|]; [by apply C2|done]. }
  assert (existsb (λ v, nleb (st.2 v) n0) (concat comps) = true) as E2.
  { apply existsb_exists. exists r. split; [by apply elem_of_list_In|]. by rewrite H0, exact_n0. }
  rewrite E2 in E. injection E as <-. done.
Qed.

Lemma solver_total ss : call_ok n (SolveLocal (mkHeap (λ _ _, 0) (λ _, true)) 0 ss) → solver_data A pv src ss →
  ∃ sweeps, ∀ h fuel, memory_ok h → (sweeps ≤ fuel)%nat → ∃ tof conc,
    answers s d (SolveLocal h fuel ss) = Ok (inl (inr (tof, conc))) ∧
    (∀ v t, om_find v tof = Some t → nleb n0 t = true ∧ nleb t max_tof = true) ∧
    (∀ v c, om_find v conc = Some c → nltb n0 c = true ∧ nleb c n1 = true).
Proof.
  intros Hc [D1 D2 D3 D4]. destruct (new_solver_of _ _ _ _ _ _ HN) as [HS Hd].
  pose proof (lcomps_ordered n A pv src s HS (map fst ss) (proj2 Hc)) as Ho. set (comps := lcomps n s (map fst ss)) in *.
  set (inj := λ v, om_find v ss).
  assert (∀ v, ∃ q, value_at src v = Fin q ∧ (0 <= q)%Qc) as Hsrc.
  { intros v. unfold value_at. destruct (om_find v src) as [y|] eqn:E; [|by exists 0%Qc]. apply om_find_elem in E; [|apply (ns_src _ _ _ _ _ _ HN)].
    destruct (D2 _ _ E) as [[q ->] H]. exists q. split; [done|]. rewrite exact_n0 in H. by apply xleb_Fin in H. }
  assert (∀ v r, inj v = Some r → ∃ q, r = Fin q ∧ (0 < q)%Qc ∧ nleb r (value_at src v) = true) as Hst.
  { intros v r E. apply om_find_elem in E; [|apply Hc]. destruct (D3 _ _ E) as ([q ->] & H1 & H2). exists q. split_and!; try done.
    rewrite exact_n0 in H1. by apply xltb_Fin in H1. }
  assert (finite_data n A pv src inj) as FD.
  { split.
    - apply (ns_arcs _ _ _ _ _ _ HN).
    - intros b Hb. destruct (D1 b Hb) as [[q Eq] H]. exists q. rewrite Eq in *. split; [done|]. rewrite exact_n0 in H. by apply xltb_Fin in H.
    - done.
    - intros v r E. destruct (Hst v r E) as (q & -> & H1 & H2). destruct (Hsrc v) as (y & Ey & Hy). rewrite Ey in *. apply xleb_Fin in H2.
      exists q, y. split_and!; try done; [by apply Qclt_le_weak|]. by eapply Qclt_le_trans.
    - intros v. unfold pvf. destruct (pv !! Z.to_nat v) as [x|] eqn:E; [|by exists 0%Qc]. apply elem_of_list_lookup_2 in E.
      destruct (D4 x E) as [[q ->] H]. exists q. split; [done|]. rewrite exact_n0 in H. by apply xleb_Fin in H. }
  destruct (exact_run _ _ _ _ _ FD _ _ Ho) as (sweeps & st & q & Hrun & Hrep & Hn & Hz & Hs).
  assert (∀ v, v ∈ concat comps → (0 < q.2 v)%Qc) as Hpos.
  { pose proof (exact_good _ _ _ _ _ FD) as G. destruct Hn as [Hc2 _].
    assert (∀ u, 0 <= qmix (up n A) (wq A) q.2 u)%Qc as Hm by (intros u; apply (qmix_nonneg _ _ _ _ _ _ G); intros; apply Hc2).
    intros v Hv. apply (oc_cover _ _ _ Ho) in Hv as (r & Hr & Hl).
    assert (∀ y, leads A r y → settled n A src inj q y) as Hs'.
    { intros y Hy. apply Hs. apply (oc_cover _ _ _ Ho). by exists r. }
    apply rtc_ind_r with (P := λ v, (0 < q.2 v)%Qc) (3 := Hl).
    - apply (Hs' r); [by apply rtc_refl|]. apply elem_of_list_fmap in Hr as ([r' x] & -> & Hr). apply om_find_elem in Hr; [|apply Hc].
      destruct (Hst r' x Hr) as (y & -> & Hy & _). assert (bq inj r' = y) as E; [unfold bq; change (inj r' = Some (Fin y)) in Hr; by rewrite Hr|].
      cbn [fst] in *. rewrite E. specialize (Hm r'). qclra.
    - intros y z Hry Hyz Hy. apply (Hs' z); [by eapply rtc_r|].
      assert (0 < qmix (up n A) (wq A) q.2 z)%Qc; [|pose proof (g_b _ _ _ _ _ _ G z); qclra].
      apply (up_elem _ _ _ _ _ FD) in Hyz. pose proof (w_pos _ _ _ _ _ FD _ _ Hyz) as Hw.
      eapply Qclt_le_trans; [|apply (qsum_elem_le (λ u, q.2 u * wq A u z)%Qc _ y)]; [|intros; apply qmul_nonneg; [apply Hc2|by apply (g_w _ _ _ _ _ _ G)]|done].
      rewrite <-(Qcmult_0_l (wq A y z)). by apply Qcmult_lt_compat_r. }
  exists sweeps. intros h fuel Hh Hfuel. rewrite (answers_local n A pv src s d HN) by done.
  unfold local_val, ws_ok, scc_ok. rewrite !Hh. cbn [andb negb].
  destruct (existsb (λ kv : Z * @num exact, nltb kv.2 n0) ss) eqn:Ex.
  { apply negative_some in Ex as (c & x & Hin & H). destruct (D3 c x Hin) as ([y ->] & H1 & _). rewrite exact_n0 in *.
    apply xltb_Fin in H1, H. exfalso. eapply Qclt_not_le; [exact H|]. by apply Qclt_le_weak. }
  fold comps inj. rewrite (run_fuel _ _ _ _ _ _ sweeps); [|lia|by rewrite Hrun]. rewrite Hrun. cbn [mbind res_bind].
  destruct (existsb (λ v, nleb (st.2 v) n0) (concat comps)) eqn:Ex2.
  { apply existsb_exists in Ex2 as (v & Hin & H). apply elem_of_list_In in Hin. rewrite (proj2 (Hrep v)), exact_n0 in H. apply xleb_Fin in H.
    exfalso. eapply Qclt_not_le; [by apply Hpos|done]. }
  do 2 eexists. split; [done|]. split.
  - intros v t. rewrite tab_map_find by constructor. destruct (decide _); [|done].
    change ((cap st).1 v) with (@nmin exact (st.1 v) max_tof). rewrite (proj1 (Hrep v)).
    destruct gs_consts as (_ & _ & EM & _ & _ & _ & HM). rewrite EM, exact_n0. unfold nmin. cbn [num nltb nleb exact]. intros Et.
    apply Some_inj in Et as <-.
    destruct (xltb (Fin gs_M) (Fin (q.1 v))) eqn:E.
    + split; apply xleb_Fin; [by apply Qclt_le_weak|apply Qcle_refl].
    + apply xltb_Fin_false in E. split; apply xleb_Fin; [apply Hn|done].
  - intros v c. rewrite tab_map_find by constructor. destruct (decide _); [|done]. intros Et. apply Some_inj in Et as <-.
    rewrite (proj2 (Hrep v)), exact_n0, exact_n1. split; [apply xltb_Fin; by apply Hpos|apply xleb_Fin; apply Hn].
Qed.
End exact.
