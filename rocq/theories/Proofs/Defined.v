(** Which programs over the toolbox have defined behaviour. *)
From Verif.Model Require Import Base Num OMap Containers Solution AssembledConnections Tarjan TracerTofSolver Toolbox.
From Verif.Spec Require Import ToolboxSpec DefinedSpec.
From Verif.Proofs Require Import Util OMapFacts AConn ContainerProps ToolboxState ToolboxRates OrdLaws DerivedOrd SolverBase SolverRun SolverTop SolverGen SolverOrd ToolboxFlow ToolboxVal ToolboxSane.
Open Scope Z_scope.

Section defined.
Context {N : Num}.

(** ** Only the rates of the direction matter *)
Notation entry := (cellset_id * (Z * num))%type.
Definition keep (d : direction) (vals : list (Z * num)) : list (Z * num) :=
  filter (λ kv : Z * num, is_Some (rate_part d kv.2)) vals.
Definition side (d : direction) (m : flux_map) : flux_map := map (λ e, (e.1, keep d e.2)) m.

Lemma filter_wf {K} `{OrdKey K} {V} (P : K * V → Prop) `{∀ x, Decision (P x)} (l : list (K * V)) : om_wf l → om_wf (filter P l).
Proof.
  unfold om_wf. induction l as [|e l IH]; [done|]. cbn [map]. intros [H1 H2]%StronglySorted_inv.
  rewrite filter_cons. destruct (decide (P e)); [|by apply IH]. cbn [map]. constructor; [by apply IH|].
  apply Forall_forall. intros k (x & -> & Hx)%elem_of_list_fmap. apply elem_of_list_filter in Hx as [_ Hx].
  apply (proj1 (Forall_forall _ _) H2). apply elem_of_list_fmap. eauto.
Qed.

Lemma side_ok d m : rates_ok m → rates_ok (side d m).
Proof.
  intros [H1 H2]. split.
  - unfold map_ok, side. rewrite map_map. exact H1.
  - apply Forall_map. eapply Forall_impl; [exact H2|]. intros e He. by apply filter_wf.
Qed.

Lemma side_find d m id : rates_ok m → om_find id (side d m) =
  keep d <$> om_find id m.
Proof.
  intros Hm. pose proof (side_ok d m Hm) as [W _]. destruct Hm as [H1 _]. destruct (om_find id m) as [vals|] eqn:E; cbn.
  - apply om_find_elem; [done|]. apply om_find_elem in E; [|done]. apply elem_of_list_fmap. by exists (id, vals).
  - apply om_find_none; [done|]. apply om_find_none in E; [|done]. unfold side. by rewrite map_map.
Qed.

Lemma side_rate d m id c : rates_ok m → well_rate d (side d m) id c = well_rate d m id c.
Proof.
  intros Hm. unfold well_rate. rewrite side_find by done. destruct (om_find id m) as [vals|] eqn:E; [|done]. cbn.
  apply om_find_elem in E; [|apply Hm]. pose proof (proj1 (Forall_forall _ _) (proj2 Hm) _ E) as Hw. cbn in Hw.
  pose proof (filter_wf (λ kv : Z * num, is_Some (rate_part d kv.2)) vals Hw) as Hw'. fold (keep d vals) in Hw'.
  destruct (om_find c vals) as [x|] eqn:Ex.
  - destruct (rate_part d x) as [y|] eqn:Ey.
    + assert (om_find c (keep d vals) = Some x) as ->; [|done].
      apply om_find_elem; [done|]. apply elem_of_list_filter. cbn. rewrite Ey. split; [done|]. by apply om_find_elem.
    + destruct (om_find c (keep d vals)) as [x'|] eqn:Ex'; [|done].
      apply om_find_elem in Ex'; [|done]. apply elem_of_list_filter in Ex' as [H1 H2]. apply om_find_elem in H2; [|done]. congruence.
  - destruct (om_find c (keep d vals)) as [x'|] eqn:Ex'; [|done].
    apply om_find_elem in Ex'; [|done]. apply elem_of_list_filter in Ex' as [H1 H2]. apply om_find_elem in H2; [|done]. congruence.
Qed.

Definition opp_dir (d : direction) : direction := match d with Injection => Production | Production => Injection end.
Lemma side_other d m id c : rates_ok m → well_rate (opp_dir d) (side d m) id c = None.
Proof.
  intros Hm. unfold well_rate. rewrite side_find by done. destruct (om_find id m) as [vals|] eqn:E; [|done]. cbn.
  apply om_find_elem in E; [|apply Hm]. pose proof (proj1 (Forall_forall _ _) (proj2 Hm) _ E) as Hw. cbn in Hw.
  pose proof (filter_wf (λ kv : Z * num, is_Some (rate_part d kv.2)) vals Hw) as Hw'. fold (keep d vals) in Hw'.
  destruct (om_find c (keep d vals)) as [x'|] eqn:Ex'; [|done].
  apply om_find_elem in Ex'; [|done]. apply elem_of_list_filter in Ex' as [[y H1] _]. cbn in H1.
  destruct d; cbn [rate_part opp_dir] in *; repeat (destruct (nltb _ _)); done.
Qed.

Lemma entries_side d m : entries (side d m) = filter (λ e : cellset_id * (Z * num), is_Some (rate_part d e.2.2)) (entries m).
Proof.
  unfold entries, side. induction m as [|[id vals] m IH]; [done|]. cbn [map]. rewrite !bind_cons, filter_app, <-IH. f_equal.
  cbn [fst snd]. clear. induction vals as [|kv vals IH]; [done|]. unfold keep in *. rewrite filter_cons. cbn [map]. rewrite filter_cons. cbn [snd].
  destruct (decide (is_Some (rate_part d kv.2))); cbn [map]; by rewrite IH.
Qed.

Lemma side_same d m : only d (split_rates (side d m)) = only d (split_rates m) ∧
  by_id d (split_rates (side d m)) = by_id d (split_rates m).
Proof.
  rewrite !split_entries, entries_side. generalize (entries m). intros L.
  set (h0 := λ r (e : entry), add_rate e.1 r e.2).
  assert (∀ r1 r2, only d r1 = only d r2 → by_id d r1 = by_id d r2 →
    only d (foldl h0 r1 (filter (λ e : entry, is_Some (rate_part d e.2.2)) L)) = only d (foldl h0 r2 L) ∧
    by_id d (foldl h0 r1 (filter (λ e : entry, is_Some (rate_part d e.2.2)) L)) = by_id d (foldl h0 r2 L)) as H; [|by apply H].
  induction L as [|[id [c v]] L IH]; intros r1 r2 E1 E2; [done|]. rewrite filter_cons. cbn [snd].
  destruct (decide (is_Some (rate_part d v))) as [Hv|Hv]; cbn [foldl]; apply IH.
  all: unfold h0, add_rate; cbn [fst snd]; destruct d; cbn [rate_part only by_id] in *;
    destruct (nltb n0 v); cbn [r_in r_inj r_out r_prod]; try (by destruct Hv); try congruence;
    destruct (nltb v n0); cbn [r_in r_inj r_out r_prod]; try (by destruct Hv); try congruence.
Qed.

Lemma diag_side d ev g pv f m sets :
  diag_obs d ev g pv f (split_rates (side d m)) sets = diag_obs d ev g pv f (split_rates m) sets.
Proof. unfold diag_obs. by destruct (side_same d m) as [-> ->]. Qed.

(** ** The problem held by the objects *)
Definition ends_at (g : cgraph) (k : Z) : Z * Z := match cg_connection g k with Ok x => x | _ => (0, 0) end.
Definition flux_at (f : cvalues) (k j : Z) : num := match cv_get f k j with Ok w => w | _ => n0 end.
Definition held (g : cgraph) (f : cvalues) (pv : list num) (m : flux_map) : problem :=
  mkProblem (cg_num_cells g) (tab (cg_num_connections g) (λ k, (ends_at g k, tab (cv_num_phases f) (flux_at f k)))) pv m.

Lemma tab_inv {A} n (h : Z → A) k x : 0 ≤ n → tab n h !! k = Some x → x = h (Z.of_nat k) ∧ 0 ≤ Z.of_nat k < n.
Proof.
  intros Hn E. assert (Z.of_nat k < n) as Hk.
  { apply lookup_lt_Some in E. pose proof (tab_zlen n h Hn) as H. unfold zlen in H. lia. }
  pose proof (tab_lookup_Z n h (Z.of_nat k)) as H. rewrite Nat2Z.id in H. rewrite H in E by lia. injection E as <-. split; [done|lia].
Qed.

Section held.
Context (g : cgraph) (f : cvalues) (Hg : graph_ok g) (Hf : flux_ok f) (Hc : cv_num_connections f = cg_num_connections g).
Context (pv : list num) (m : flux_map).

Lemma held_poses : poses (held g f pv m) g f.
Proof.
  pose proof (gr_conns _ Hg) as Hn. pose proof (fx_phases _ Hf) as Hph.
  assert (zlen (pb_conns (held g f pv m)) = cg_num_connections g) as Hl by (by apply tab_zlen).
  split; try done; try (by rewrite Hl).
  - intros k x Hk. apply tab_inv in Hk as [-> Hk]; [|done]. cbn [fst]. unfold ends_at.
    destruct (gr_ends _ Hg _ Hk) as (a & b & -> & _). done.
  - intros k x Hk. apply tab_inv in Hk as [-> Hk]; [|done]. cbn [snd]. symmetry. by apply tab_zlen.
  - intros k x j w Hk Hj. apply tab_inv in Hk as [-> Hk]; [|done]. cbn [snd] in Hj. apply tab_inv in Hj as [-> Hj]; [|done].
    unfold flux_at. rewrite <-Hc in Hk. destruct (fx_get _ Hf _ _ Hk Hj) as [w ->]. done.
Qed.

Lemma held_valid : rates_ok m → pv ≠ [] → zlen pv = cg_num_cells g → cv_num_connections f ≠ 0 →
  (∀ d id c x, well_rate d m id c = Some x → 0 ≤ c < cg_num_cells g) → valid (held g f pv m).
Proof.
  intros Hm Hpv Hl Hnc Hr. pose proof (gr_cells _ Hg) as Hn. pose proof (gr_conns _ Hg) as Hcn.
  assert (zlen (pb_conns (held g f pv m)) = cg_num_connections g) as Hzl by (by apply tab_zlen).
  split; cbn [pb_cells pb_rates pb_pv held]; try done.
  - destruct pv; [done|]. unfold zlen in Hl. cbn in Hl. lia.
  - intros E. rewrite E in Hzl. apply Hnc. rewrite Hc, <-Hzl. done.
  - apply Forall_lookup. intros k x Hk. apply tab_inv in Hk as [-> Hk]; [|done]. cbn [fst]. unfold ends_at.
    destruct (gr_ends _ Hg _ Hk) as (a & b & -> & H1 & H2). done.
  - exists (cv_num_phases f). apply Forall_lookup. intros k x Hk. apply tab_inv in Hk as [-> Hk]; [|done]. cbn [snd].
    apply tab_zlen, (fx_phases _ Hf).
Qed.
End held.

(** ** No undefined behaviour *)
Lemma run_cell_defined n A src inj pv st v : defined (run_cell n A pv src inj st v).
Proof. unfold run_cell. by destruct (cell_ok _ _ _ _ _ _). Qed.
Lemma bind_defined {A B} (r : res A) (k : A → res B) : defined r → (∀ x, defined (k x)) → defined (r ≫= k).
Proof. destruct r; cbn; intros H1 H2; done. Qed.
Lemma foldM_defined {A B} (h : A → B → res A) l a : (∀ a b, defined (h a b)) → defined (foldM h a l).
Proof. intros H. revert a. induction l as [|b l IH]; intros a; cbn; [done|]. apply bind_defined; [apply H|]. intros; apply IH. Qed.

Lemma run_defined n A src inj pv fuel comps : defined (run n A pv src inj fuel comps).
Proof.
  apply foldM_defined. intros st C. unfold run_comp.
  assert (∀ dt dc, defined (run_loop n A pv src inj fuel C st dt dc)) as H.
  { revert st. induction fuel as [|fuel IH]; intros st dt dc; cbn [run_loop]; destruct (_ || _); try done.
    apply bind_defined; [|intros; apply IH]. apply foldM_defined. intros a b. apply bind_defined; [apply run_cell_defined|done]. }
  destruct C as [|v []]; [apply H|apply run_cell_defined|apply H].
Qed.

Lemma diagnose_defined p g f d ev sets : valid p → poses p g f → alloc_ok ev → defined (diagnose d ev g p f sets).
Proof.
  intros Hp HP Ha. destruct (diagnose_eq p g f Hp HP d) as (s & HS & ->). destruct (start_sets_ok _ _ sets); [|done].
  unfold val, global_val, ws_ok, scc_ok. rewrite !Ha. cbn [andb negb].
  apply bind_defined. { apply bind_defined; [apply run_defined|done]. }
  intros [tof|e]; [|done]. apply bind_defined; [|done].
  generalize 1%nat (sol_assign_global sol_new tof). induction sets as [|st sets IH]; intros k sol; cbn [val_loop]; [done|].
  apply bind_defined.
  - unfold local_val, ws_ok, scc_ok. rewrite !Ha. cbn [andb negb]. destruct (existsb _ _); [done|].
    apply bind_defined; [apply run_defined|done].
  - intros [tc|e]; [|done]. apply IH.
Qed.

Lemma diagnose_obs p g f d ev sets : valid p → poses p g f →
  diagnose d ev g p f sets = diag_obs d ev g (pb_pv p) f (split_rates (pb_rates p)) sets.
Proof.
  intros Hp HP. unfold diagnose.
  assert (∃ t os, tb_run (tb_new g) [CPoreVolume (pb_pv p); CFlux f; CInflow (pb_rates p)] = Ok (t, os)) as (t & os & Et).
  { cbn. unfold tb_assign_pv, tb_assign_flux. cbn [tb_new tb_g].
    rewrite (proj2 (Z.eqb_eq _ _)) by (by rewrite (va_pv _ Hp), (po_cells _ _ _ HP)). cbn.
    rewrite (proj2 (Z.eqb_eq _ _)) by (by rewrite (po_fconns _ _ _ HP), (po_conns _ _ _ HP)). cbn. eauto. }
  rewrite (returns_eq g _ t os) by done. cbn.
  rewrite decide_True by (by rewrite (va_pv _ Hp), (po_cells _ _ _ HP)).
  rewrite decide_True by (by rewrite (po_fconns _ _ _ HP), (po_conns _ _ _ HP)). done.
Qed.

Lemma side_wells d g m : rates_ok m → wells_within d g m →
  ∀ d' id c x, well_rate d' (side d m) id c = Some x → 0 ≤ c < cg_num_cells g.
Proof.
  intros Hm Hw d' id c x Hx. assert (d' = d ∨ d' = opp_dir d) as [->| ->] by (destruct d', d; auto).
  - rewrite side_rate in Hx by done. by eapply Hw.
  - by rewrite side_other in Hx.
Qed.

Lemma unset_false (pv : list num) f : unset pv f = false → pv ≠ [] ∧ cv_num_connections f ≠ 0.
Proof. intros [H1 H2]%orb_false_iff. split; [by destruct pv|by apply Z.eqb_neq]. Qed.

Lemma obs_defined d ev g pv f m sets : graph_ok g → (pv = [] ∨ zlen pv = cg_num_cells g) →
  (cv_num_connections f = 0 ∨ flux_ok f ∧ cv_num_connections f = cg_num_connections g) → rates_ok m → alloc_ok ev →
  wells_within d g m → defined (diag_obs d ev g pv f (split_rates m) sets).
Proof.
  intros Hg Hpv Hf Hm Ha Hw. destruct (unset pv f) eqn:Hu. { unfold diag_obs. by rewrite Hu. }
  apply unset_false in Hu as [Hu1 Hu2]. destruct Hpv as [|Hpv]; [done|]. destruct Hf as [|[Hf Hc]]; [done|].
  rewrite <-diag_side.
  pose proof (held_poses g f Hg Hf Hc pv (side d m)) as HP.
  assert (valid (held g f pv (side d m))) as Hp.
  { apply held_valid; try done; [by apply side_ok|]. by apply side_wells. }
  rewrite <-(diagnose_obs _ _ _ _ _ _ Hp HP). by apply diagnose_defined.
Qed.

(** ** Undefined behaviour *)
Lemma expand_bad n (l : list num) (kvs : cellset_values) : zlen l = n → (∃ c, c ∈ map fst kvs ∧ ¬ (0 ≤ c < n)) →
  foldM (λ r kv, zset r (fst kv) (snd kv)) l kvs = UB.
Proof.
  revert l. induction kvs as [|[k v] kvs IH]; intros l Hl (c & Hc & Hout); [by apply elem_of_nil in Hc|].
  cbn [foldM fst snd]. destruct (decide (0 ≤ k < n)) as [Hk|Hk].
  - rewrite zset_of by (by rewrite Hl). cbn [mbind res_bind]. apply IH.
    + rewrite <-Hl. unfold zlen. by rewrite insert_length.
    + cbn in Hc. apply elem_of_cons in Hc as [->|Hc]; [done|eauto].
  - unfold zset. destruct (Z.ltb_spec k 0); [done|]. rewrite lookup_ge_None_2; [done|]. unfold zlen in Hl. lia.
Qed.

Lemma obs_bad d ev g pv f m sets : graph_ok g → pv ≠ [] → zlen pv = cg_num_cells g →
  flux_ok f → cv_num_connections f = cg_num_connections g → cv_num_connections f ≠ 0 → rates_ok m →
  start_sets_ok (by_id d (split_rates m)) (only d (split_rates m)) sets = true →
  (∃ id c x, well_rate d m id c = Some x ∧ ¬ (0 ≤ c < cg_num_cells g)) →
  diag_obs d ev g pv f (split_rates m) sets = UB.
Proof.
  intros Hg Hpv Hl Hf Hc Hnz Hm Hst (id & c & x & Hx & Hout). unfold diag_obs.
  assert (unset pv f = false) as ->.
  { unfold unset. apply orb_false_iff. split; [by destruct pv|by apply Z.eqb_neq]. }
  rewrite Hst. cbn [negb].
  pose proof (held_poses g f Hg Hf Hc pv []) as HP.
  assert (valid (held g f pv [])) as Hp. { apply held_valid; try done. split; [constructor|done]. }
  destruct (built_ok _ _ _ Hp HP) as (dn & up & -> & Hdn & Hup). cbn [mbind res_bind].
  unfold run_diag, tts_make. pose proof (va_cells _ Hp) as Hn. cbn [pb_cells held] in *.
  assert (∃ A, arcs_ok (cg_num_cells g) A ∧ graph_of (cg_num_cells g) A (along d (dn, up))) as (A & HA & HgA).
  { pose proof (net_arcs_ok _ Hp) as HA. destruct d; eexists; (split; [|done]); [done|by apply turn_ok]. }
  rewrite (inout_ok (cg_num_cells g) A (along d (dn, up)) ltac:(lia) HgA). cbn [mbind res_bind].
  unfold expand_sparse. rewrite Hl, to_int_small by lia. destruct (Z.ltb_spec (cg_num_cells g) 0); [lia|].
  rewrite (expand_bad (cg_num_cells g)); [done| |].
  - unfold zlen. rewrite replicate_length. lia.
  - exists c. split; [|done]. destruct (only_find d m Hm) as [W Hfind].
    assert (is_Some (om_find c (only d (split_rates m)))) as [y Hy].
    { rewrite Hfind. unfold total_of. assert (x ∈ cell_rates d m c) as Hin. { apply cell_rates_elem. eauto. }
      destruct (cell_rates d m c); [by apply elem_of_nil in Hin|done]. }
    apply om_find_elem in Hy; [|done]. apply elem_of_list_fmap. by exists (c, y).
Qed.

(** ** Programs *)
Lemma within_dec d g m : rates_ok m → wells_within d g m ∨ ∃ id c x, well_rate d m id c = Some x ∧ ¬ (0 ≤ c < cg_num_cells g).
Proof.
  intros Hm.
  destruct (decide (Exists (λ e : cellset_id * cellset_values, Exists (λ kv : Z * num, is_Some (rate_part d kv.2) ∧ ¬ (0 ≤ kv.1 < cg_num_cells g)) e.2) m)) as [H|H].
  - right. apply Exists_exists in H as ([id vals] & Hin & H). apply Exists_exists in H as ([c y] & Hin2 & [x Hx] & Hout).
    cbn in *. exists id, c, x. split; [|done]. unfold well_rate.
    rewrite (proj2 (om_find_elem m id vals (proj1 Hm)) Hin).
    pose proof (proj1 (Forall_forall _ _) (proj2 Hm) _ Hin) as Hw. cbn in Hw.
    by rewrite (proj2 (om_find_elem vals c y Hw) Hin2).
  - left. intros id c x Hx. destruct (decide (0 ≤ c < cg_num_cells g)) as [|Hout]; [done|]. exfalso. apply H.
    unfold well_rate in Hx. destruct (om_find id m) as [vals|] eqn:E; [|done]. apply om_find_elem in E; [|apply Hm].
    pose proof (proj1 (Forall_forall _ _) (proj2 Hm) _ E) as Hw. cbn in Hw.
    destruct (om_find c vals) as [y|] eqn:Ey; [|done]. apply om_find_elem in Ey; [|done].
    apply Exists_exists. exists (id, vals). split; [done|]. apply Exists_exists. exists (c, y). cbn. by rewrite Hx.
Qed.

Lemma last_call {X} (h : tb_call → option X) (P : X → Prop) cs y :
  (∀ c x, call_ok c → h c = Some x → P x) → Forall call_ok cs → last (omap h cs) = Some y → P y.
Proof. intros Hh HF (c & Hc & E)%last_omap_acc. eapply Hh; [|exact E]. by eapply Forall_forall in HF. Qed.

Lemma last_pv g cs : default [] (last (omap (accepted_pv g) cs)) = [] ∨ zlen (default [] (last (omap (accepted_pv g) cs))) = cg_num_cells g.
Proof.
  destruct (last (omap (accepted_pv g) cs)) as [pv|] eqn:E; [|by left]. right. cbn.
  apply last_omap_acc in E as (c & _ & Hc). destruct c; try done. cbn in Hc. by destruct (decide _); [injection Hc as <-|].
Qed.
Lemma last_flux g cs : Forall call_ok cs →
  let f := default (cv_make 0 0) (last (omap (accepted_flux g) cs)) in
  cv_num_connections f = 0 ∨ flux_ok f ∧ cv_num_connections f = cg_num_connections g.
Proof.
  intros HF. destruct (last (omap (accepted_flux g) cs)) as [f|] eqn:E; [|by left]. right. cbn.
  eapply (last_call (accepted_flux g) (λ f, flux_ok f ∧ cv_num_connections f = cg_num_connections g)); [|done|done].
  intros c x Hc Hx. destruct c; try done. cbn in Hx. by destruct (decide _); [injection Hx as <-|].
Qed.
Lemma last_rates cs : Forall call_ok cs → rates_ok (rates_after cs).
Proof.
  intros HF. assert (∀ o, last (omap accepted_rates cs) = o → rates_ok (default [] o)) as H; [|by apply H].
  intros [m|] E; cbn.
  - apply (last_call accepted_rates rates_ok cs m); [|exact HF|exact E]. intros c x Hc Hx. destruct c; try done. injection Hx as <-. exact Hc.
  - split; [constructor|done].
Qed.

Lemma step_defined t c (R : res (toolbox * tb_obs)) : tb_step t c = R → (∀ d ev sets, c = compute d ev sets →
  defined (r ← tb_step t c; Ok r.2)) → defined R.
Proof.
  intros <- H. destruct c as [pv|f|m|ev sets|ev sets].
  - cbn. by destruct (tb_assign_pv t pv).
  - cbn. by destruct (tb_assign_flux t f).
  - done.
  - specialize (H Injection ev sets eq_refl). by destruct (tb_step _ _).
  - specialize (H Production ev sets eq_refl). by destruct (tb_step _ _).
Qed.

Lemma run_app t cs1 cs2 : tb_run t (cs1 ++ cs2) = (r ← tb_run t cs1; r' ← tb_run r.1 cs2; Ok (r'.1, r.2 ++ r'.2)).
Proof.
  revert t. induction cs1 as [|c cs1 IH]; intros t; cbn [app tb_run].
  - cbn. destruct (tb_run t cs2) as [[]| | | |]; done.
  - destruct (tb_step t c) as [[t1 o]| | | |]; try done. cbn [mbind res_bind fst snd]. rewrite IH.
    destruct (tb_run t1 cs1) as [[]| | | |]; try done. cbn [mbind res_bind fst snd].
    destruct (tb_run t0 cs2) as [[]| | | |]; done.
Qed.

Lemma program_defined g cs : graph_ok g → Forall call_ok cs → wells_within_always g cs → defined (tb_run (tb_new g) cs).
Proof.
  intros Hg. induction cs as [|c cs IH] using rev_ind; intros HF Hw; [done|].
  apply Forall_app in HF as [HF Hc]. apply Forall_cons in Hc as [Hc _].
  rewrite run_app. assert (wells_within_always g cs) as Hw'.
  { intros cs1 d ev sets cs2 ->. apply (Hw cs1 d ev sets (cs2 ++ [c])). by rewrite <-app_assoc. }
  specialize (IH HF Hw'). destruct (tb_run (tb_new g) cs) as [[t os]| | | |] eqn:E; try done. cbn [mbind res_bind fst snd].
  apply bind_defined; [|done]. cbn [tb_run]. apply bind_defined; [|done].
  eapply step_defined; [done|]. intros d ev sets ->.
  pose proof (run_tracks _ _ _ _ _ _ _ _ (new_tracks g) E) as Ht. rewrite !upd_none in Ht. rewrite (tracks_returns _ _ _ _ _ _ _ _ Ht).
  apply obs_defined; [done|apply last_pv|by apply last_flux|by apply last_rates|by destruct d|].
  by apply (Hw cs d ev sets []).
Qed.

(** Exactly when the next computation goes wrong. *)
Lemma compute_UB g cs t os d ev sets : graph_ok g → Forall call_ok cs → alloc_ok ev → tb_run (tb_new g) cs = Ok (t, os) →
  tb_step t (compute d ev sets) = UB ↔ passes_checks d g cs sets ∧ ¬ wells_within d g (rates_after cs).
Proof.
  intros Hg HF Ha E.
  pose proof (run_tracks _ _ _ _ _ _ _ _ (new_tracks g) E) as Ht. rewrite !upd_none in Ht.
  assert ((r ← tb_step t (compute d ev sets); Ok r.2) = diag_obs d ev g (default [] (last (omap (accepted_pv g) cs)))
    (default (cv_make 0 0) (last (omap (accepted_flux g) cs))) (split_rates (rates_after cs)) sets) as Hobs
    by exact (tracks_returns _ _ _ _ _ d ev sets Ht).
  assert (tb_step t (compute d ev sets) = UB ↔ (r ← tb_step t (compute d ev sets); Ok r.2) = UB) as ->.
  { destruct (tb_step t (compute d ev sets)); done. }
  rewrite Hobs. clear Hobs. pose proof (last_rates cs HF) as Hm.
  pose proof (last_pv g cs) as Hpv. pose proof (last_flux g cs HF) as Hfl. cbn zeta in Hfl. split.
  - intros HU. assert (¬ wells_within d g (rates_after cs)) as Hnot.
    { intros Hw. pose proof (obs_defined d ev g _ _ _ sets Hg Hpv Hfl Hm Ha Hw) as H. by rewrite HU in H. }
    split; [|done]. unfold diag_obs in HU. destruct (unset _ _) eqn:Hu; [done|]. apply unset_false in Hu as [U1 U2].
    destruct (start_sets_ok _ _ sets) eqn:Hs; [|done]. split_and!.
    + destruct (last (omap (accepted_pv g) cs)) as [pv|]; [by exists pv|done].
    + destruct (last (omap (accepted_flux g) cs)) as [f|]; [by exists f|done].
    + by apply start_sets_iff.
  - intros [[(pv & Epv & Npv) [(f & Ef & Nf) Hsets]] Hnot]. rewrite Epv in *. rewrite Ef in *. cbn [default id] in *.
    destruct Hpv as [|Hpv]; [done|]. destruct Hfl as [|[Hf1 Hf2]]; [done|].
    apply obs_bad; try done; [by apply start_sets_iff|]. by destruct (within_dec d g _ Hm).
Qed.

(** ** Objects built by the interface *)
Lemma made_graph n cells g : 0 ≤ n < 2 ^ 31 → Forall (λ c, 0 ≤ c) cells → cg_make n cells = Ok g → graph_ok g.
Proof.
  intros Hn Hpos E. destruct (cg_make_outcome n cells) as [[E' _]|(E' & Hev & Hlt)]; [congruence|].
  rewrite E in E'. injection E' as ->. unfold cg_num_cells. cbn [cg_ncells]. rewrite to_size_small by lia.
  assert (0 ≤ zlen cells) as Hz by (unfold zlen; lia).
  assert (0 ≤ zlen cells / 2) as Hd by (by apply Z.div_pos).
  split; [done|done|]. intros k Hk. change (0 ≤ k < zlen cells / 2) in Hk. unfold cg_connection.
  unfold cg_num_connections, cg_num_cells. cbn [cg_ncells cg_cells]. destruct (Z.ltb_spec k (zlen cells / 2)); [|lia]. cbn [assert_ mbind res_bind].
  pose proof (Z.mul_div_le (zlen cells) 2). 
  assert (∀ i, 0 ≤ i < zlen cells → ∃ a, zget cells i = Ok a ∧ 0 ≤ a < n) as Hget.
  { intros i Hi. destruct (lookup_lt_is_Some_2 cells (Z.to_nat i)) as [a Ha]; [unfold zlen in Hi; lia|].
    exists a. split; [apply zget_of; [lia|done]|]. pose proof (proj1 (Forall_lookup _ _) Hpos _ _ Ha). 
    pose proof (proj1 (Forall_lookup _ _) Hlt _ _ Ha). cbn in *. lia. }
  destruct (Hget (2 * k)) as (a & -> & Ha); [lia|]. destruct (Hget (2 * k + 1)) as (b & -> & Hb); [lia|].
  cbn [mbind res_bind]. by exists a, b.
Qed.
Lemma made_flux nc np ws f : 0 ≤ nc → 0 ≤ np → nc * np < 2 ^ 64 → Forall is_size2 ws →
  cv_writes (cv_make nc np) ws = Ok f → flux_ok f.
Proof.
  intros H1 H2 H3 H4 E. destruct (cv_store nc np ws H1 H2 H3 H4) as (v & Ev & En & Ep & Hget). rewrite E in Ev. injection Ev as <-.
  split; [by rewrite Ep|]. intros k j Hk Hj. rewrite En in Hk. rewrite Ep in Hj. eexists. by apply Hget.
Qed.
End defined.

(** ** Assertions *)
Section asserts.
Context {N : Num} (L : ord_laws N) (LO : opp_laws L) (p : problem) (g : cgraph) (f : cvalues).
Context (Hp : valid p) (HP : poses p g f) (HD : data (o_ok N L) p).
Notation n := (pb_cells p).
Notation src d := (only d (split_rates (pb_rates p))).

Lemma run_asserts d inj fuel comps : sane L n (flow d p) (src d) inj (λ v, 0 ≤ v < n) →
  (∀ v, v ∈ concat comps → 0 ≤ v < n) →
  run n (flow d p) (pb_pv p) (src d) inj fuel comps ≠ AssertFail.
Proof.
  intros HS HC.
  destruct (inv_run n (flow d p) (pb_pv p) (src d) inj comps (λ s, ∀ u, unit_num L (s.2 u))) with (fuel := fuel) as [->|(st & -> & _)]; try done.
  - intros st v Hv%HC Hs. destruct (cell_unit L _ _ _ _ _ HS st.2 v Hv Hs) as [H1 H2]. split; [done|].
    intros u. cbn. destruct (decide (u = v)) as [->|Hne]; [by rewrite fupd_eq|by rewrite fupd_ne].
  - intros u. split; [apply (nn0 L)|apply (ol_01 L)].
Qed.

Lemma asserts_hold d ev sets : no_overflow d p → alloc_ok ev → diagnose d ev g p f sets ≠ AssertFail.
Proof.
  intros Hno Ha. destruct (diagnose_eq p g f Hp HP d) as (s & HS & ->). destruct (start_sets_ok _ _ sets); [|done].
  unfold val, global_val, ws_ok, scc_ok. rewrite !Ha. cbn [andb negb].
  match goal with |- context [run ?a ?b ?c ?e ?i ?fu ?cs] =>
    pose proof (run_asserts d i fu cs (sane_global L LO p Hp HD d _ Hno)) as Hg; destruct (run a b c e i fu cs) as [stg| | | |]; try done end.
  2:{ exfalso. apply Hg; [|done]. intros v. apply (oc_cover _ _ _ (gcomps_ordered _ _ _ _ _ HS)). }
  cbn [mbind res_bind]. clear Hg.
  generalize 1%nat (sol_assign_global sol_new (tab n (cap stg).1)).
  induction sets as [|st sets IH]; intros k sol; [done|]. cbn [val_loop]. unfold local_val, ws_ok, scc_ok. rewrite !Ha. cbn [andb negb].
  destruct (existsb _ _); [done|].
  match goal with |- context [run ?a ?b ?c ?e ?i ?fu ?cs] =>
    pose proof (run_asserts d i fu cs (sane_local L LO p Hp HD d (cs_id st) i _ Hno ltac:(intros; by apply (starts_ok p Hp d (cs_id st))))
      ltac:(intros v; apply (comps_range p Hp d s HS (cs_id st)))) as Hl;
    destruct (run a b c e i fu cs) as [st'| | | |]; try done end.
  cbn [mbind res_bind]. clear Hl. destruct (existsb _ _); [done|]. apply IH.
Qed.
End asserts.
