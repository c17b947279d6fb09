(** A release build has defined behaviour under the same conditions as a debug build. *)
From Verif.Model Require Import Base Num OMap Containers AssembledConnections Tarjan
  TracerTofSolver Solution Toolbox SolverStats Release.
From Verif.Spec Require Import GraphSpec SccSpec TarjanSpec FlowSpec ToolboxSpec DefinedSpec ReleaseSpec.
From Verif.Proofs Require Import Util OMapFacts AConn GraphProps SolverBase SolverRun SolverTop ToolboxState ToolboxRates
  ToolboxFlow ToolboxVal Stats Defined ReleaseRef.
Open Scope Z_scope.

(** ** Outcomes *)
Definition runs_on {A} (r : res A) (P : A → Prop) : Prop := r = NoFuel ∨ ∃ a, r = Ok a ∧ P a.
Lemma ro_ok {A} (a : A) (P : A → Prop) : P a → runs_on (Ok a) P.
Proof. right. eauto. Qed.
Lemma ro_bind {A B} (m : res A) (f : A → res B) P Q :
  runs_on m P → (∀ a, P a → runs_on (f a) Q) → runs_on (m ≫= f) Q.
Proof. intros [->|(a & -> & Ha)] H; [by left|]. by apply H. Qed.
Lemma ro_weaken {A} (m : res A) (P Q : A → Prop) : runs_on m P → (∀ a, P a → Q a) → runs_on m Q.
Proof. intros [->|(a & -> & Ha)] H; [by left|]. right. eauto. Qed.
Lemma ro_foldM {A S} (f : S → A → res S) (P : S → Prop) l s :
  (∀ a s, a ∈ l → P s → runs_on (f s a) P) → P s → runs_on (foldM f s l) P.
Proof.
  revert s. induction l as [|a l IH]; intros s Hf Hs; cbn [foldM]; [by apply ro_ok|].
  eapply ro_bind; [apply Hf; [left|done]|]. intros s' Hs'. apply IH; [|done]. intros; apply Hf; [by right|done].
Qed.
Lemma ro_carries {A} (m : res A) P : runs_on m P → carries_on m.
Proof. by intros [->|(a & -> & _)]. Qed.
Lemma ref_Ok {A} (r r' : res A) a : ref r r' → r = Ok a → r' = Ok a.
Proof. intros H E. rewrite <-E. apply H. by rewrite E. Qed.

(** ** The solver *)
Section solver.
Context {N : Num} (n : Z) (A : list arc) (pv : list num) (src : cellset_values).
Context (s : tts) (HS : solver_of n A pv src s).

Section run.
Context (inj : Z → option num).
Notation framed := (framed n inj).
Notation mkd := (mkd n).

Lemma single_r d st v : framed d → 0 ≤ v < n →
  solve_single_cell_r s (mkd d st) v = Ok (mkd d (upd_cell n A pv src inj st v)).
Proof.
  intros [Hst Hll Hloc] Hv. unfold solve_single_cell_r. destruct HS as [? ? ? Hrev Hpv ? Hin ? Hsrc].
  rewrite Hsrc, tab_get by done. cbn [mbind res_bind SolverRun.mkd set_fields td_start td_tof td_tracer td_local].
  rewrite Hst, Hin, !tab_get by done. cbn [mbind res_bind].
  rewrite (ref_Ok _ _ _ (ref_neighbourhood (ts_rev s) v) (go_nb _ _ _ Hrev v Hv)). cbn [mbind res_bind].
  rewrite turn_down. rewrite upwind_fold.
  2:{ apply Forall_forall. intros u Hu%upstream_elem. tauto. }
  cbn [mbind res_bind].
  destruct (lookup_lt_is_Some_2 (td_local d) (Z.to_nat v)) as [ls Hls]; [unfold zlen in *; lia|].
  rewrite (zget_of (td_local d) v ls) by (done || lia). cbn [mbind res_bind].
  assert (foldl nadd n0 (map (λ u : Z, nmul (st.2 u) (arc_flux (turn A) v u)) (upstream n A v)) = mix n A st.2 v) as ->.
  { unfold mix, sum_left. f_equal. apply map_ext. intros u. by rewrite turn_flux. }
  assert (foldl nadd n0 (map (λ u : Z, nmul (nmul (st.1 u) (st.2 u)) (arc_flux (turn A) v u)) (upstream n A v))
    = mix n A (λ u, nmul (st.1 u) (st.2 u)) v) as ->.
  { unfold mix, sum_left. f_equal. apply map_ext. intros u. by rewrite turn_flux. }
  assert ((if is_start inj v then nadd (mix n A st.2 v) ls else mix n A st.2 v) = uc n A inj st.2 v) as ->.
  { unfold uc, is_start. destruct (inj v) as [r|] eqn:E; [|done]. rewrite (Hloc v r Hv E) in Hls. congruence. }
  fold (src_eff src inj v). fold (tot n A src inj v). fold (cellc n A src inj st.2 v).
  rewrite Hpv, (pv_get n A pv src s HS) by done. cbn [mbind res_bind]. rewrite !tab_set by done. done.
Qed.

Definition mine (d x : tdyn) : Prop := ∃ st, x = mkd d st.

Lemma loop_r d C : framed d → Forall (λ v, 0 ≤ v < n) C → ∀ fuel x dt dc, mine d x →
  runs_on (gs_loop_r fuel s C x dt dc) (mine d).
Proof.
  intros Hd HC. induction fuel as [|fuel IH]; intros x dt dc Hx; cbn [gs_loop_r];
    (destruct (nltb gs_tof_tol dt || nltb gs_tracer_tol dc); [|by apply ro_ok]); [by left|].
  apply (ro_bind _ _ (λ y, mine d y.1.1)).
  - apply ro_foldM; [|done]. intros v [[y dt'] dc'] Hv [st E]. cbn [fst] in E. subst y.
    pose proof (proj1 (Forall_forall _ _) HC v Hv) as Hvr. cbn in Hvr. unfold gs_cell_r.
    change (td_tof (mkd d st)) with (tab n st.1). change (td_tracer (mkd d st)) with (tab n st.2).
    rewrite !tab_get by done. cbn [mbind res_bind]. rewrite single_r by done. cbn [mbind res_bind].
    set (st' := upd_cell n A pv src inj st v).
    change (td_tof (mkd d st')) with (tab n st'.1). change (td_tracer (mkd d st')) with (tab n st'.2).
    rewrite !tab_get by done. cbn [mbind res_bind]. apply ro_ok. by exists st'.
  - intros [[y dt'] dc'] Hy. by apply IH.
Qed.

Lemma comp_r fuel d comps k C x : framed d → laid_out comps d →
  0 ≤ k → comps !! Z.to_nat k = Some C → C ≠ [] → Forall (λ v, 0 ≤ v < n) C → mine d x →
  runs_on (solve_comp_r fuel s x k) (mine d).
Proof.
  intros Hd [Hsq Hcs] Hk HC Hne Hr [st ->]. unfold solve_comp_r.
  change (td_comps (mkd d st)) with (td_comps d). change (td_seq (mkd d st)) with (td_seq d).
  pose proof (lookup_lt_Some _ _ _ HC) as Hkl.
  rewrite Hcs, !tab_get by (unfold zlen; lia). cbn [mbind res_bind].
  rewrite (coff_S comps k C Hk HC). pose proof (coff_slice comps k C Hk HC) as Hsl.
  pose proof (coff_nonneg comps k). pose proof (coff_le comps (k + 1)) as Hle. rewrite (coff_S comps k C Hk HC) in Hle.
  replace (coff comps k + zlen C - coff comps k) with (zlen C) by lia.
  destruct (Z.eqb_spec (zlen C) 1) as [H1|H1].
  - destruct C as [|v [|? ?]]; [done| |unfold zlen in H1; cbn in H1; lia].
    rewrite Hsq. rewrite (zget_of _ _ v); [|done|].
    2:{ replace (Z.to_nat (coff comps k)) with (Z.to_nat (coff comps k) + 0)%nat by lia.
        rewrite <-lookup_drop. rewrite <-(lookup_take _ 1) by lia. cbn in Hsl. by rewrite Hsl. }
    cbn [mbind res_bind]. rewrite single_r; [|done|by inv Hr]. apply ro_ok. by eexists.
  - rewrite Hsq. unfold zslice. rewrite (proj2 (Z.leb_le 0 _)) by lia.
    rewrite (proj2 (Z.leb_le (coff comps k) _)) by (unfold zlen; lia). rewrite (proj2 (Z.leb_le _ (zlen (concat comps)))) by lia.
    cbn [andb mbind res_bind]. replace (coff comps k + zlen C - coff comps k) with (zlen C) by lia.
    rewrite zlen_nat, Hsl. apply loop_r; [done|done|]. by exists st.
Qed.

Lemma solve_run_r fuel d comps x : framed d → laid_out comps d →
  Forall (λ C, C ≠ [] ∧ Forall (λ v, 0 ≤ v < n) C) comps → zlen comps < 2 ^ 31 → mine d x →
  runs_on (solve_r fuel s x) (mine d).
Proof.
  intros Hd Hl Hc Hlt [st ->]. unfold solve_r. change (td_comps (mkd d st)) with (td_comps d). rewrite (proj2 Hl).
  rewrite tab_zlen by (unfold zlen; lia). replace (zlen comps + 1 - 1) with (zlen comps) by lia.
  rewrite to_int_small by (unfold zlen in *; lia).
  apply (ro_bind _ _ (mine d)).
  - apply ro_foldM; [|by exists st]. intros k y Hk Hy. apply elem_of_seqZ in Hk.
    destruct (lookup_lt_is_Some_2 comps (Z.to_nat k)) as [C HC]; [unfold zlen in Hk; lia|].
    destruct (proj1 (Forall_forall _ _) Hc C) as [H1 H2]; [by eapply elem_of_list_lookup_2|].
    eapply comp_r; (done || lia).
  - intros y [st' ->]. apply ro_ok. exists (λ v, nmin (st'.1 v) max_tof, st'.2).
    change (td_tof (mkd d st')) with (tab n st'.1). rewrite tab_map. done.
Qed.
End run.

Lemma local_order_r h d ss : (∀ b, h_ok h b = true) → (∀ c, c ∈ map fst ss → 0 ≤ c < n) →
  compute_local_ordering_r h s d ss = Ok (order_of d (lcomps n s (map fst ss)), None).
Proof.
  intros Ha Hr. eapply ref_Ok; [apply ref_local_ordering|]. rewrite (local_order n A pv src s HS) by done.
  unfold ws_ok, scc_ok. by rewrite !Ha.
Qed.
Lemma global_order_r h d : (∀ b, h_ok h b = true) →
  compute_ordering_r h s d = Ok (order_of d (gcomps n s), None).
Proof.
  intros Ha. eapply ref_Ok; [apply ref_ordering|]. rewrite (global_order n A pv src s HS).
  unfold ws_ok, scc_ok. by rewrite !Ha.
Qed.

Lemma solve_local_r_runs h fuel d ss : (∀ b, h_ok h b = true) → zlen (td_local d) = n → om_wf ss →
  (∀ c, c ∈ map fst ss → 0 ≤ c < n) →
  runs_on (solve_local_r h fuel s d ss) (λ r, zlen (td_local r.1) = n).
Proof.
  intros Ha Hd Hwf Hr. unfold solve_local_r, prepare_for_solve.
  rewrite (so_pv _ _ _ _ _ HS). pose proof (so_pvlen _ _ _ _ _ HS) as Hpv. pose proof (so_n _ _ _ _ _ HS) as Hn.
  replace (length pv) with (Z.to_nat n) by (unfold zlen in Hpv; lia). rewrite !tab_const.
  rewrite (start_array_ok n (λ _, false)) by done. cbn [mbind res_bind td_local td_seq td_comps td_tof td_tracer].
  set (inj := λ v, om_find v ss).
  assert (tab n (λ v, false || is_start inj v) = tab n (is_start inj)) as -> by done.
  rewrite local_order_r by done. cbn [mbind res_bind]. unfold order_of. cbn [td_local td_start td_tof td_tracer].
  set (comps := lcomps n s (map fst ss)) in *.
  pose proof (lcomps_ordered n A pv src s HS (map fst ss) Hr) as Hord. fold comps in Hord.
  destruct (ordered_len n A pv src s HS (λ v, ∃ r, r ∈ map fst ss ∧ leads A r v) comps) as (L1 & L2 & L3); [|done|].
  { intros v (r0 & Hr0 & Hl). apply (leads_range n A r0 v (so_arcs _ _ _ _ _ HS)); [done|by apply Hr]. }
  destruct (local_source_ok n (td_local d) ss Hd Hr Hwf) as (l' & Els & Hl' & Hloc & _).
  rewrite Els. cbn [mbind res_bind].
  destruct (existsb (λ kv, nltb kv.2 n0) ss) eqn:Hneg; [by apply ro_ok|].
  unfold set_local. cbn [td_local td_start td_seq td_comps td_tof td_tracer].
  set (d1 := mkTdyn l' (tab n (is_start inj)) (concat comps) (tab (zlen comps + 1) (coff comps))
                    (tab n (λ _, n0)) (tab n (λ _, n0))).
  apply (ro_bind _ _ (mine d1)).
  - apply (solve_run_r inj fuel d1 comps); [|done|done|lia|].
    + split; [done|done|]. intros v r0 Hv Hinj. cbn [d1 td_local]. by apply Hloc.
    + by exists zero_state.
  - intros y [st ->]. unfold mkd, set_fields, d1. cbn [td_local td_start td_seq td_comps td_tof td_tracer].
    destruct (cleanup_len n l' ss Hl' Hr) as (l2 & -> & Hl2). cbn [mbind res_bind].
    cbn [td_local td_start td_seq td_comps td_tof td_tracer].
    assert (0 ≤ zlen comps) by (unfold zlen; lia).
    rewrite zback_tab by lia. cbn [mbind res_bind]. rewrite coff_all.
    assert (zslice (concat comps) 0 (zlen (concat comps)) = Ok (concat comps)) as ->.
    { unfold zslice. rewrite (proj2 (Z.leb_le 0 (zlen (concat comps)))) by (unfold zlen; lia).
      rewrite !Z.leb_refl. cbn [andb]. rewrite Z.sub_0_r, zlen_nat. change (Z.to_nat 0) with O. rewrite drop_0. by rewrite firstn_all. }
    cbn [mbind res_bind]. rewrite (collect_eq n _ st); [by apply ro_ok|done|done|].
    apply Forall_forall. intros v (C & HvC & HC)%elem_concat.
    destruct (proj1 (Forall_forall _ _) L3 C HC) as [_ HF]. by apply (proj1 (Forall_forall _ _) HF).
Qed.

Lemma solve_global_r_runs h fuel d : (∀ b, h_ok h b = true) →
  runs_on (solve_global_r h fuel s d) (λ r, zlen (td_local r.1) = n).
Proof.
  intros Ha. unfold solve_global_r, prepare_for_solve.
  rewrite (so_pv _ _ _ _ _ HS). pose proof (so_pvlen _ _ _ _ _ HS) as Hpv. pose proof (so_n _ _ _ _ _ HS) as Hn.
  replace (length pv) with (Z.to_nat n) by (unfold zlen in Hpv; lia). rewrite !tab_const.
  rewrite (start_source_ok n A pv src s HS) by done. cbn [mbind res_bind td_local td_seq td_comps td_tof td_tracer].
  rewrite (so_src _ _ _ _ _ HS).
  assert (zlen (tab n (value_at src)) = n) as Hl by (apply tab_zlen; lia).
  rewrite global_order_r by done. cbn [mbind res_bind]. unfold order_of, set_local. cbn [td_local td_start td_tof td_tracer].
  set (comps := gcomps n s) in *.
  pose proof (gcomps_ordered n A pv src s HS) as Hord. fold comps in Hord.
  destruct (ordered_len n A pv src s HS (λ v, 0 ≤ v < n) comps) as (L1 & L2 & L3); [done|done|].
  set (d1 := mkTdyn (tab n (value_at src)) (tab n (is_start (ginj src))) (concat comps) (tab (zlen comps + 1) (coff comps))
                    (tab n (λ _, n0)) (tab n (λ _, n0))).
  apply (ro_bind _ _ (mine d1)).
  - apply (solve_run_r (ginj src) fuel d1 comps); [|done|done|lia|].
    + split; [done|done|]. intros v r0 Hv Hinj. cbn [d1 td_local]. rewrite tab_lookup_Z by done.
      unfold ginj in Hinj. destruct (nltb n0 (value_at src v)); congruence.
    + by exists zero_state.
  - intros y [st ->]. apply ro_ok. cbn. unfold zlen in *. by rewrite map_length.
Qed.
End solver.

(** ** The toolbox as a state machine *)
Section state.
Context {N : Num}.

Definition built_of_r (g : cgraph) (f : cvalues) : res ((aconn * aconn) + exn) :=
  st ← forZ 0 (cg_num_connections g) (build_step_r g f) (ac_new, ac_new);
  let nc := to_size (to_int (cg_num_cells g)) in
  d ← ac_compress_r (fst st) nc;
  match d with
  | (_, Some e) => Ok (inr e)
  | (dn, None) =>
      u ← ac_compress_r (snd st) nc;
      match u with (_, Some e) => Ok (inr e) | (up, None) => Ok (inl (dn, up)) end
  end.

(** What a computation shows, as a function of the inputs alone. *)
Definition diag_obs_r (d : direction) (ev : env) (g : cgraph) (pv : list num) (f : cvalues) (r : rates)
    (sets : list cellset) : res tb_obs :=
  if unset pv f then Ok (OExn LogicError)
  else if negb (start_sets_ok (by_id d r) (only d r) sets) then Ok (OExn RuntimeError)
  else
    b ← built_of_r g f;
    match b with
    | inr e => Ok (OExn e)
    | inl gr =>
        x ← run_diag_r ev (along d gr) (against d gr) pv (only d r) (by_id d r) sets;
        Ok (obs_of_sum x.2)
    end.

Definition consistent_r (t : toolbox) : Prop :=
  tb_built t = true → built_of_r (tb_g t) (tb_flux t) = Ok (inl (tb_down t, tb_up t)).
Lemma tb_build_eq_r t :
  (∀ gr, built_of_r (tb_g t) (tb_flux t) = Ok (inl gr) →
     ∃ t', tb_build_r t = Ok (t', None) ∧ same_inputs t t' ∧ tb_down t' = gr.1 ∧ tb_up t' = gr.2 ∧ tb_built t' = true) ∧
  (∀ e, built_of_r (tb_g t) (tb_flux t) = Ok (inr e) →
     ∃ t', tb_build_r t = Ok (t', Some e) ∧ same_inputs t t' ∧ tb_built t' = tb_built t) ∧
  ((∀ x, built_of_r (tb_g t) (tb_flux t) ≠ Ok x) →
     ∀ {X} (k : toolbox * option exn → res X) (k' : (aconn * aconn) + exn → res X),
     (b ← tb_build_r t; k b) = (b ← built_of_r (tb_g t) (tb_flux t); k' b)).
Proof.
  unfold tb_build_r, built_of_r.
  destruct (forZ 0 (cg_num_connections (tb_g t)) (build_step_r (tb_g t) (tb_flux t)) (ac_new, ac_new)) as [[dn up]| | | |];
    cbn [mbind res_bind fst snd]; try (split_and!; done).
  destruct (ac_compress_r dn _) as [[dn' [e|]]| | | |]; cbn [mbind res_bind]; try (split_and!; done).
  { split_and!; [done| |intros H; by destruct (H (inr e))]. intros e' [= <-]. eexists. split; [done|]. done. }
  destruct (ac_compress_r up _) as [[up' [e|]]| | | |]; cbn [mbind res_bind]; try (split_and!; done).
  { split_and!; [done| |intros H; by destruct (H (inr e))]. intros e' [= <-]. eexists. split; [done|]. done. }
  split_and!; [|done|intros H; by destruct (H (inl (dn', up')))]. intros gr [= <-]. eexists. split; [done|]. done.
Qed.

Lemma diag_loop_ids_r ev k s d m sol sets r :
  (∀ st, st ∈ sets → is_Some (om_find (cs_id st) m)) → diag_loop_r ev k s d m sol sets = Ok r → r.1 = m.
Proof.
  revert k d sol. induction sets as [|st sets IH]; intros k d sol Hs; cbn [diag_loop_r].
  - intros [= <-]. done.
  - destruct (Hs st) as [x Hx]; [left|]. rewrite (insert_found _ [] x) by done.
    intros H. apply bind_Ok in H as ([d' [[tof conc]|e]] & _ & H); [|by injection H as <-].
    eapply IH; [|done]. intros; apply Hs; by right.
Qed.

Lemma run_diag_ids_r ev g rev pv o m sets r : start_sets_ok m o sets = true →
  run_diag_r ev g rev pv o m sets = Ok r → r.1 = m.
Proof.
  intros Hs H. unfold run_diag_r in H. apply bind_Ok in H as ([s d] & _ & H).
  apply bind_Ok in H as ([d' [tof|e]] & _ & H); [|by injection H as <-].
  eapply diag_loop_ids_r; [|done]. by eapply start_sets_found.
Qed.

(** One computation. *)
Lemma get_built_r t gr : consistent_r t → built_of_r (tb_g t) (tb_flux t) = Ok (inl gr) →
  ∃ t1, (if tb_built t then Ok (t, None) else tb_build_r t) = Ok (t1, None) ∧ same_inputs t t1 ∧
    tb_down t1 = gr.1 ∧ tb_up t1 = gr.2 ∧ tb_built t1 = true.
Proof.
  intros Hc Eb. destruct (tb_built t) eqn:Hbt; [|by apply (proj1 (tb_build_eq_r t))].
  exists t. specialize (Hc Hbt). rewrite Hc in Eb. injection Eb as <-. done.
Qed.

Lemma compute_step_r t d ev sets : consistent_r t →
  (r ← tb_step_r t (compute d ev sets); Ok r.2) = diag_obs_r d ev (tb_g t) (tb_pvol t) (tb_flux t) (rates_of t) sets ∧
  ∀ t' o, tb_step_r t (compute d ev sets) = Ok (t', o) → consistent_r t' ∧ same_inputs t t'.
Proof.
  intros Hc. unfold diag_obs_r.
  destruct d; cbn [compute tb_step_r]; unfold tb_inj_diag_r, tb_prod_diag_r; fold (unset (tb_pvol t) (tb_flux t));
    cbn [by_id only rates_of r_inj r_in r_prod r_out along against];
    (destruct (unset (tb_pvol t) (tb_flux t)) eqn:Hu; [split; [done|by intros t' o [= <- <-]]|]);
    match goal with |- context [start_sets_ok ?a ?b sets] =>
      destruct (start_sets_ok a b sets) eqn:Hs; cbn [negb]; [|split; [done|by intros t' o [= <- <-]]] end;
    (destruct (built_of_r (tb_g t) (tb_flux t)) as [[gr|e]| | | |] eqn:Eb;
     [ destruct (get_built_r t gr Hc Eb) as (t1 & -> & Hsame & Hdn & Hup & Hb1)
     | destruct (tb_built t) eqn:Hbt; [by rewrite (Hc Hbt) in Eb|];
       destruct (proj1 (proj2 (tb_build_eq_r t)) _ Eb) as (t1 & -> & Hsame & Hb1); cbn [mbind res_bind fst snd]; split; [done|];
       intros t' o [= <- <-]; split; [|done]; intros Hb2; congruence
     | | | |]).
  all: try (destruct (tb_built t) eqn:Hbt; [by rewrite (Hc Hbt) in Eb|];
    assert (∀ x, built_of_r (tb_g t) (tb_flux t) ≠ Ok x) as Hne by (rewrite Eb; done);
    rewrite (proj2 (proj2 (tb_build_eq_r t)) Hne _ _ (λ _, Ok (t, inr LogicError))), Eb; done).
  all: pose proof Hsame as (Eg & Epv & Efl & Er); pose proof (f_equal r_in Er) as Ei; pose proof (f_equal r_out Er) as Eo;
      pose proof (f_equal r_inj Er) as Einj; pose proof (f_equal r_prod Er) as Eprod; cbn in Ei, Eo, Einj, Eprod;
      cbn [mbind res_bind]; rewrite Hdn, Hup, <-Epv, <-?Ei, <-?Eo, <-?Einj, <-?Eprod.
  all: match goal with |- context [run_diag_r ?a ?b ?c ?d0 ?e ?f ?g] => destruct (run_diag_r a b c d0 e f g) as [r| | | |] eqn:Er1 end;
      cbn [mbind res_bind fst snd]; (split; [done|]); try done.
  all: intros t' o [= <- <-]; apply run_diag_ids_r in Er1; [|done]; rewrite Er1.
  all: split; [intros _; cbn; rewrite <-Eg, <-Efl; rewrite Eb; by destruct gr
             |split_and!; cbn; try done; unfold rates_of; cbn; congruence].
Qed.

(** ** Histories *)
Record tracks_r (g : cgraph) (pv : option (list num)) (f : option cvalues) (m : option flux_map) (t : toolbox) : Prop := {
  tr_cons_r : consistent_r t;
  tr_g_r : tb_g t = g;
  tr_pv_r : tb_pvol t = default [] pv;
  tr_flux_r : tb_flux t = default (cv_make 0 0) f;
  tr_rates_r : rates_of t = split_rates (default [] m)
}.

Lemma step_tracks_r g pv f m t c t' o : tracks_r g pv f m t → tb_step_r t c = Ok (t', o) →
  tracks_r g (upd pv (accepted_pv g c)) (upd f (accepted_flux g c)) (upd m (accepted_rates c)) t'.
Proof.
  intros [Hc <- Hpv Hf Hr]. destruct c as [x|x|x|ev sets|ev sets].
  - cbn. unfold tb_assign_pv. destruct (Z.eqb_spec (zlen x) (cg_num_cells (tb_g t))) as [E|E]; cbn [negb].
    + rewrite decide_True by done. intros [= <- <-]. by split.
    + rewrite decide_False by done. intros [= <- <-]. by split.
  - cbn. unfold tb_assign_flux. destruct (Z.eqb_spec (cv_num_connections x) (cg_num_connections (tb_g t))) as [E|E]; cbn [negb].
    + rewrite decide_True by done. intros [= <- <-]. by split.
    + rewrite decide_False by done. intros [= <- <-]. by split.
  - intros [= <- <-]. split; [exact Hc|done|done|done|].
    change (mkRates (r_in (split_rates x)) (r_out (split_rates x)) (r_inj (split_rates x)) (r_prod (split_rates x)) = split_rates x).
    by destruct (split_rates x).
  - intros H. destruct (compute_step_r t Injection ev sets Hc) as [_ Hs]. destruct (Hs _ _ H) as (H1 & E1 & E2 & E3 & E4).
    split; [done|done|by rewrite <-E2|by rewrite <-E3|by rewrite <-E4].
  - intros H. destruct (compute_step_r t Production ev sets Hc) as [_ Hs]. destruct (Hs _ _ H) as (H1 & E1 & E2 & E3 & E4).
    split; [done|done|by rewrite <-E2|by rewrite <-E3|by rewrite <-E4].
Qed.

Lemma run_tracks_r g pv f m t cs t' os : tracks_r g pv f m t → tb_run_r t cs = Ok (t', os) →
  tracks_r g (upd pv (last (omap (accepted_pv g) cs))) (upd f (last (omap (accepted_flux g) cs)))
           (upd m (last (omap accepted_rates cs))) t'.
Proof.
  revert pv f m t os. induction cs as [|c cs IH]; intros pv f m t os Ht H.
  - by injection H as <- <-.
  - cbn [tb_run_r] in H. apply bind_Ok in H as ([t1 o] & E1 & H). apply bind_Ok in H as ([t2 os2] & E2 & H). cbn in H.
    injection H as <- <-. cbn in E2. rewrite !last_upd. eapply IH; [|done]. by eapply step_tracks_r.
Qed.

Lemma new_tracks_r g : tracks_r g None None None (tb_new g).
Proof. by split. Qed.

Lemma tracks_returns_r g pv f m t d ev sets : tracks_r g pv f m t →
  (r ← tb_step_r t (compute d ev sets); Ok r.2) =
  diag_obs_r d ev g (default [] pv) (default (cv_make 0 0) f) (split_rates (default [] m)) sets.
Proof. intros [Hc Hg Hpv Hf Hr]. rewrite (proj1 (compute_step_r t d ev sets Hc)). by rewrite Hg, Hpv, Hf, Hr. Qed.

End state.

Section defined.
Context {N : Num}.

Lemma ref_built g f : ref (built_of g f) (built_of_r g f).
Proof.
  unfold built_of, built_of_r. apply ref_bind; [apply ref_forZ; intros; apply ref_build_step|]. intros [dn up] _. cbn [fst snd].
  apply ref_bind; [apply ref_compress|]. intros [dn' [e|]] _; [apply ref_refl|].
  apply ref_bind; [apply ref_compress|]. intros [up' [e|]] _; apply ref_refl.
Qed.

Lemma ref_obs d ev g pv f r sets : ref (diag_obs d ev g pv f r sets) (diag_obs_r d ev g pv f r sets).
Proof.
  unfold diag_obs, diag_obs_r. destruct (unset pv f); [apply ref_refl|]. destruct (negb _); [apply ref_refl|].
  apply ref_bind; [apply ref_built|]. intros [gr|e] _; [|apply ref_refl].
  apply ref_bind; [apply ref_run_diag|]. intros x _. apply ref_refl.
Qed.

Lemma loop_r_runs p (Hp : valid p) d s ev sets :
  solver_of (pb_cells p) (flow d p) (pb_pv p) (only d (split_rates (pb_rates p))) s → alloc_ok ev →
  (∀ st, st ∈ sets → is_Some (om_find (cs_id st) (by_id d (split_rates (pb_rates p))))) →
  ∀ k d0 sol, zlen (td_local d0) = pb_cells p →
  runs_on (diag_loop_r ev k s d0 (by_id d (split_rates (pb_rates p))) sol sets) (λ _, True).
Proof.
  intros HS Ha. induction sets as [|st sets IH]; intros Hs k d0 sol Hd; cbn [diag_loop_r]; [by apply ro_ok|].
  destruct (Hs st) as [x Hx]; [left|]. rewrite (insert_found _ [] x) by done. cbv zeta. replace (match om_find (cs_id st) (by_id d (split_rates (pb_rates p))) with Some y => y | None => [] end) with x by (unfold cellset_values in *; by rewrite Hx).
  destruct (starts_ok p Hp d (cs_id st)) as (Hw & _ & _ & Hr). rewrite Hx in Hw, Hr. cbn [default id] in Hw, Hr.
  eapply ro_bind; [apply (solve_local_r_runs _ _ _ _ _ HS (e_heap ev k) (e_fuel ev) d0 x (Ha k) Hd Hw Hr)|].
  intros [d' [[tof conc]|e]] Hd'; [|by apply ro_ok]. apply IH; [|done]. intros; apply Hs; by right.
Qed.

Lemma obs_runs d ev g pv f m sets : graph_ok g → (pv = [] ∨ zlen pv = cg_num_cells g) →
  (cv_num_connections f = 0 ∨ flux_ok f ∧ cv_num_connections f = cg_num_connections g) → rates_ok m → alloc_ok ev →
  wells_within d g m → runs_on (diag_obs_r d ev g pv f (split_rates m) sets) (λ _, True).
Proof.
  intros Hg Hpv Hf Hm Ha Hw. destruct (unset pv f) eqn:Hu. { unfold diag_obs_r. rewrite Hu. by apply ro_ok. }
  pose proof Hu as [Hu1 Hu2]%unset_false. destruct Hpv as [|Hpv]; [done|]. destruct Hf as [|[Hf Hc]]; [done|].
  assert (diag_obs_r d ev g pv f (split_rates m) sets = diag_obs_r d ev g pv f (split_rates (side d m)) sets) as ->.
  { unfold diag_obs_r. by destruct (side_same d m) as [-> ->]. }
  pose proof (held_poses g f Hg Hf Hc pv (side d m)) as HP.
  assert (valid (held g f pv (side d m))) as Hp.
  { apply held_valid; try done; [by apply side_ok|]. by apply side_wells. }
  unfold diag_obs_r. rewrite Hu. destruct (start_sets_ok _ _ sets) eqn:Hst; cbn [negb]; [|by apply ro_ok].
  destruct (solver_exists _ g f Hp HP d) as (gr & s & d0 & Eb & Em & HS & Hl).
  rewrite (ref_Ok _ _ _ (ref_built g f) Eb). cbn [mbind res_bind]. unfold run_diag_r.
  change (pb_pv (held g f pv (side d m))) with pv in Em. change (pb_rates (held g f pv (side d m))) with (side d m) in Em.
  rewrite (ref_Ok _ _ _ (ref_make _ _ _ _) Em). cbn [mbind res_bind].
  apply (ro_bind _ _ (λ _, True)); [|intros; by apply ro_ok].
  eapply ro_bind; [apply (solve_global_r_runs _ _ _ _ _ HS (e_heap ev 0) (e_fuel ev) d0 (Ha 0%nat))|].
  intros [d' [tof|e]] Hd'; [|by apply ro_ok].
  apply (loop_r_runs _ Hp d s ev sets HS Ha); [|done].
  by eapply start_sets_found.
Qed.

Lemma run_app_r t cs1 cs2 : tb_run_r t (cs1 ++ cs2) = (r ← tb_run_r t cs1; r' ← tb_run_r r.1 cs2; Ok (r'.1, r.2 ++ r'.2)).
Proof.
  revert t. induction cs1 as [|c cs1 IH]; intros t; cbn [app tb_run_r].
  - cbn. destruct (tb_run_r t cs2) as [[]| | | |]; done.
  - destruct (tb_step_r t c) as [[t1 o]| | | |]; try done. cbn [mbind res_bind fst snd]. rewrite IH.
    destruct (tb_run_r t1 cs1) as [[]| | | |]; try done. cbn [mbind res_bind fst snd].
    destruct (tb_run_r t0 cs2) as [[]| | | |]; done.
Qed.

Lemma carries_bind {A B} (r : res A) (k : A → res B) : carries_on r → (∀ x, carries_on (k x)) → carries_on (r ≫= k).
Proof. destruct r; cbn; intros H1 H2; done. Qed.

Lemma program_carries g cs : graph_ok g → Forall call_ok cs → wells_within_always g cs → carries_on (tb_run_r (tb_new g) cs).
Proof.
  intros Hg. induction cs as [|c cs IH] using rev_ind; intros HF Hw; [done|].
  apply Forall_app in HF as [HF Hc]. apply Forall_cons in Hc as [Hc _].
  rewrite run_app_r. assert (wells_within_always g cs) as Hw'.
  { intros cs1 d ev sets cs2 ->. apply (Hw cs1 d ev sets (cs2 ++ [c])). by rewrite <-app_assoc. }
  specialize (IH HF Hw'). destruct (tb_run_r (tb_new g) cs) as [[t os]| | | |] eqn:E; try done. cbn [mbind res_bind fst snd].
  apply carries_bind; [|done]. cbn [tb_run_r]. apply carries_bind; [|done].
  pose proof (run_tracks_r _ _ _ _ _ _ _ _ (new_tracks_r g) E) as Ht. rewrite !upd_none in Ht.
  assert (∀ d ev sets, c = compute d ev sets → carries_on (tb_step_r t c)) as Hstep.
  { intros d ev sets ->. pose proof (tracks_returns_r _ _ _ _ _ d ev sets Ht) as Hr.
    assert (carries_on (r ← tb_step_r t (compute d ev sets); Ok r.2)) as Hc'.
    { rewrite Hr. eapply ro_carries, obs_runs; [done|apply last_pv|by apply last_flux|by apply last_rates|by destruct d|].
      by apply (Hw cs d ev sets []). }
    by destruct (tb_step_r t (compute d ev sets)). }
  destruct c as [pv|f|m|ev sets|ev sets].
  - cbn. by destruct (tb_assign_pv t pv).
  - cbn. by destruct (tb_assign_flux t f).
  - done.
  - by apply (Hstep Injection ev sets).
  - by apply (Hstep Production ev sets).
Qed.

Lemma compute_UB_r g cs t os d ev sets : graph_ok g → Forall call_ok cs → alloc_ok ev → tb_run_r (tb_new g) cs = Ok (t, os) →
  tb_step_r t (compute d ev sets) = UB ↔ passes_checks d g cs sets ∧ ¬ wells_within d g (rates_after cs).
Proof.
  intros Hg HF Ha E.
  pose proof (run_tracks_r _ _ _ _ _ _ _ _ (new_tracks_r g) E) as Ht. rewrite !upd_none in Ht.
  assert ((r ← tb_step_r t (compute d ev sets); Ok r.2) = diag_obs_r d ev g (default [] (last (omap (accepted_pv g) cs)))
    (default (cv_make 0 0) (last (omap (accepted_flux g) cs))) (split_rates (rates_after cs)) sets) as Hobs
    by exact (tracks_returns_r _ _ _ _ _ d ev sets Ht).
  assert (tb_step_r t (compute d ev sets) = UB ↔ (r ← tb_step_r t (compute d ev sets); Ok r.2) = UB) as ->.
  { destruct (tb_step_r t (compute d ev sets)); done. }
  rewrite Hobs. clear Hobs. pose proof (last_rates cs HF) as Hm.
  pose proof (last_pv g cs) as Hpv. pose proof (last_flux g cs HF) as Hfl. cbn zeta in Hfl. split.
  - intros HU. assert (¬ wells_within d g (rates_after cs)) as Hnot.
    { intros Hw. destruct (obs_runs d ev g _ _ _ sets Hg Hpv Hfl Hm Ha Hw) as [H|(a & H & _)]; by rewrite HU in H. }
    split; [|done]. unfold diag_obs_r in HU. destruct (unset _ _) eqn:Hu; [done|]. apply unset_false in Hu as [U1 U2].
    destruct (start_sets_ok _ _ sets) eqn:Hs; [|done]. split_and!.
    + destruct (last (omap (accepted_pv g) cs)) as [pv|]; [by exists pv|done].
    + destruct (last (omap (accepted_flux g) cs)) as [f|]; [by exists f|done].
    + by apply start_sets_iff.
  - intros [[(pv & Epv & Npv) [(f & Ef & Nf) Hsets]] Hnot]. rewrite Epv in *. rewrite Ef in *. cbn [default id] in *.
    destruct Hpv as [|Hpv]; [done|]. destruct Hfl as [|[Hf1 Hf2]]; [done|].
    assert (diag_obs d ev g pv f (split_rates (rates_after cs)) sets = UB) as HU.
    { apply obs_bad; try done; [by apply start_sets_iff|]. by destruct (within_dec d g _ Hm). }
    rewrite <-HU. apply ref_obs. by rewrite HU.
Qed.

Lemma ref_diagnose d ev g p f sets : ref (diagnose d ev g p f sets) (diagnose_r d ev g p f sets).
Proof.
  unfold diagnose, returns, diagnose_r. apply ref_bind; [apply ref_tb_run|]. intros r _.
  apply ref_bind; [apply ref_tb_step|]. intros x _. apply ref_refl.
Qed.
End defined.

(** ** A graph without weights *)
Lemma csr_ends n E start neigh : is_csr n E start neigh → ∀ r, 0 ≤ r < n → ∃ e, start !! Z.to_nat (r + 1) = Some e ∧ 0 ≤ e ∧
  (e = 0 ↔ ∀ r' c, 0 ≤ r' ≤ r → ¬ E r' c).
Proof.
  intros H r Hr. cut (0 ≤ r → r < n → ∃ e, start !! Z.to_nat (r + 1) = Some e ∧ 0 ≤ e ∧ (e = 0 ↔ ∀ r' c, 0 ≤ r' ≤ r → ¬ E r' c)); [intros Hc; apply Hc; lia|].
  intros H0. clear Hr. revert r H0.
  assert (∀ r b, 0 ≤ r < n → start !! Z.to_nat r = Some b → 0 ≤ b → (b = 0 ↔ ∀ r' c, 0 ≤ r' < r → ¬ E r' c) →
    ∃ e, start !! Z.to_nat (r + 1) = Some e ∧ 0 ≤ e ∧ (e = 0 ↔ ∀ r' c, 0 ≤ r' ≤ r → ¬ E r' c)) as Hstep.
  { intros r b Hr Hb Hb0 Hz. destruct (csr_row _ _ _ _ H r Hr) as (b' & e & Hb' & He & Hbe & Hle & _ & Hm).
    rewrite Hb in Hb'. injection Hb' as <-. exists e. split; [done|]. split; [lia|]. split.
    - intros -> r' c Hr' HE. assert (b = 0) as -> by lia. destruct (decide (r' = r)) as [->|Hne].
      + apply Hm in HE. unfold slice in HE. cbn in HE. by apply elem_of_nil in HE.
      + by apply (proj1 Hz eq_refl r' c); [lia|].
    - intros Hno. assert (b = 0) as ->. { apply Hz. intros r' c Hr'. apply Hno. lia. }
      destruct (decide (e = 0)) as [|Hne]; [done|]. exfalso.
      assert (slice neigh 0 e ≠ []) as Hnn.
      { unfold slice. cbn [Z.to_nat drop]. destruct neigh as [|x neigh]; [cbn in Hle; lia|].
        destruct (Z.to_nat (e - 0)) eqn:Ee; [lia|done]. }
      destruct (slice neigh 0 e) as [|c l] eqn:Es; [done|].
      apply (Hno r c); [lia|]. apply Hm. left. }
  apply (natlike_ind (λ r, r < n → ∃ e, start !! Z.to_nat (r + 1) = Some e ∧ 0 ≤ e ∧ (e = 0 ↔ ∀ r' c, 0 ≤ r' ≤ r → ¬ E r' c))).
  - intros Hn. apply (Hstep 0 0); [lia|apply (csr_first _ _ _ _ H)|lia|]. split; [|done]. intros _ r' c Hr'. lia.
  - intros r Hr IH Hn. destruct IH as (b & Hb & Hb0 & Hz); [lia|]. unfold Z.succ.
    apply (Hstep (r + 1) b); [lia|done|done|]. rewrite Hz. split; intros Hno r' c Hr'; apply Hno; lia.
Qed.

Lemma unweighted_r {N : Num} l n r : unweighted l → indices_ok l →
  Forall (λ x : connection, x.1.1 < n) l → 0 ≤ r < n →
  ∃ g, ac_compress_r (add_all ac_new l) n = Ok (g, None) ∧
    ac_cell_neighbourhood_r g r = if decide (Exists (λ x : connection, x.1.1 ≤ r) l) then UB else Ok [].
Proof.
  intros Hw Hidx Hr Hn. destruct (compress_new N l n) as (g & Hg & Hcsr & _ & Hs); try done; [by left|lia|].
  exists g. split; [exact (ref_Ok _ _ _ (ref_compress _ _) Hg)|]. unfold ac_cell_neighbourhood_r.
  destruct (csr_row _ _ _ _ Hcsr r Hn) as (b & e & Hb & He & Hbe & Hle & _).
  rewrite (zget_of (ac_start g) r b ltac:(lia) Hb). cbn [mbind res_bind].
  rewrite (zget_of (ac_start g) (r + 1) e ltac:(lia) He). cbn [mbind res_bind].
  assert (zslice (ac_neigh g) b e = Ok (slice (ac_neigh g) b e)) as ->.
  { unfold zslice. rewrite !(proj2 (Z.leb_le _ _)) by (unfold zlen; lia). done. }
  cbn [mbind res_bind]. rewrite (Hs Hw). unfold zslice. rewrite !(proj2 (Z.leb_le _ _)) by lia. cbn [andb].
  destruct (csr_ends _ _ _ _ Hcsr r Hn) as (e' & He' & He0 & Hz). rewrite He in He'. injection He' as <-.
  destruct (decide (Exists (λ x : connection, x.1.1 ≤ r) l)) as [Hex|Hex].
  - destruct (Z.leb_spec e (zlen ([] : list num))) as [Hlt|]; [|done]. exfalso. change (zlen ([] : list num)) with 0 in Hlt.
    apply Exists_exists in Hex as ([[i j] w] & Hin & Hi). cbn in Hi. apply (proj1 Hz ltac:(lia) i j).
    + pose proof (proj1 (Forall_forall _ _) Hidx _ Hin) as Hx. unfold int_index in Hx. cbn in Hx. lia.
    + apply elem_of_list_fmap. by exists (i, j, w).
  - assert (e = 0) as ->.
    { apply Hz. intros r' c Hr' ([[i j] w] & E & Hin)%elem_of_list_fmap. cbn in E. injection E as -> ->.
      apply Hex, Exists_exists. exists (i, j, w). cbn. split; [done|lia]. }
    assert (b = 0) as -> by lia. done.
Qed.
