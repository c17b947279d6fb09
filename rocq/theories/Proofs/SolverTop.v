(** solveGlobal and solveLocal as functions of the problem only. *)
From Verif.Model Require Import Base Num OMap Containers AssembledConnections Tarjan TracerTofSolver.
From Verif.Spec Require Import GraphSpec SccSpec TarjanSpec FlowSpec.
From Verif.Proofs Require Import Util OMapFacts AConn GraphProps TarjanProps TarjanRev TarjanTop SolverBase SolverRun.
Open Scope Z_scope.

Lemma result_unique s c1 c2 : result_is s c1 → result_is s c2 → c1 = c2.
Proof.
  intros [N1 G1] [N2 G2]. apply list_eq_same_length with (length c1); [lia|lia|].
  intros k x y Hk H1 H2. apply G1 in H1. apply G2 in H2. congruence.
Qed.

Lemma elem_concat {X} (ls : list (list X)) v : v ∈ concat ls ↔ ∃ C, v ∈ C ∧ C ∈ ls.
Proof.
  induction ls as [|C ls IH]; cbn; [set_solver|]. rewrite elem_of_app, IH. set_solver.
Qed.

Lemma zback_tab {X} m (f : Z → X) : 0 ≤ m → zback (tab (m + 1) f) = Ok (f m).
Proof. intros. unfold zback. rewrite tab_zlen, tab_get by lia. do 2 f_equal. lia. Qed.

(** Components in topological order, covering the cells of [P]. *)
Record ordered {N : Num} (A : list arc) (P : Z → Prop) (comps : list (list Z)) : Prop := {
  oc_nodup : NoDup (concat comps);
  oc_cover : ∀ v, v ∈ concat comps ↔ P v;
  oc_ne : Forall (λ C, C ≠ []) comps;
  oc_strong : ∀ C u v, C ∈ comps → u ∈ C → (v ∈ C ↔ leads A u v ∧ leads A v u);
  oc_topo : ∀ j D u v, comps !! j = Some D → v ∈ D → flows A u v → u ∈ concat comps →
    ∃ i C, comps !! i = Some C ∧ u ∈ C ∧ (i ≤ j)%nat
}.

Section top.
Context {N : Num} (n : Z) (A : list arc) (pv : list num) (src : cellset_values).
Context (s : tts) (HS : solver_of n A pv src s).
Notation ia := (ac_start (ts_g s)).
Notation ja := (ac_neigh (ts_g s)).

Lemma gwf : wf_graph n ia ja.
Proof. exact (go_wf _ _ _ (so_g _ _ _ _ _ HS)). Qed.
Lemma edge_flows u v : 0 ≤ u < n → edge ia ja u v ↔ flows A u v.
Proof.
  intros Hu. unfold edge. rewrite (go_row _ _ _ (so_g _ _ _ _ _ HS)) by done. rewrite downstream_elem.
  split; [tauto|]. intros Hf. split; [done|]. by apply (flows_range n A u v (so_arcs _ _ _ _ _ HS)).
Qed.
Lemma reach_leads u v : 0 ≤ u < n → reach ia ja u v ↔ leads A u v.
Proof.
  intros Hu. split.
  - induction 1 as [|u w v He _ IH]; [done|]. apply edge_flows in He; [|done].
    eapply rtc_l; [exact He|]. apply IH. by apply (flows_range n A u w (so_arcs _ _ _ _ _ HS)).
  - induction 1 as [|u w v He _ IH]; [done|]. eapply rtc_l; [by apply edge_flows|].
    apply IH. by apply (flows_range n A u w (so_arcs _ _ _ _ _ HS)).
Qed.

Lemma concat_reverse_elem (comps : list (list Z)) v : v ∈ concat (reverse comps) ↔ v ∈ concat comps.
Proof. rewrite !elem_concat. by setoid_rewrite elem_of_reverse. Qed.
Lemma concat_reverse_perm (comps : list (list Z)) : concat (reverse comps) ≡ₚ concat comps.
Proof.
  induction comps as [|C comps IH]; [done|]. rewrite reverse_cons, concat_app. cbn [concat]. rewrite app_nil_r, IH.
  apply Permutation_app_comm.
Qed.

Lemma sccs_ordered (P : Z → Prop) comps : (∀ v, P v → 0 ≤ v < n) → is_sccs ia ja P comps → reverse_topological ia ja comps →
  ordered A P (reverse comps).
Proof.
  intros HP [H1 H2 H3 H4] Ht. split.
  - by rewrite concat_reverse_perm.
  - intros v. rewrite concat_reverse_elem. apply H2.
  - apply Forall_forall. intros C HC. rewrite elem_of_reverse in HC. exact (proj1 (Forall_forall _ _) H3 C HC).
  - intros C u v HC Hu. rewrite elem_of_reverse in HC. rewrite (H4 C u v HC Hu). unfold strong.
    assert (0 ≤ u < n) as Hur by (apply HP, H2, elem_concat; eauto).
    rewrite (reach_leads u v) by done. split; intros [Hl Hr]; (split; [done|]);
      (assert (0 ≤ v < n) by (by apply (leads_range n A u v (so_arcs _ _ _ _ _ HS)))); by apply reach_leads.
  - intros j D u v HD Hv Hf Hu. apply reverse_lookup_Some in HD as [HD Hj].
    apply elem_concat in Hu as (C & HuC & HC). rewrite elem_of_reverse in HC. apply elem_of_list_lookup in HC as [i HC].
    destruct (Ht i C u v HC HuC) as (j' & D' & HD' & Hv' & Hle).
    { apply edge_flows; [|done]. apply HP, H2, elem_concat. exists C. split; [done|]. by eapply elem_of_list_lookup_2. }
    assert (j' = length comps - 1 - j ∨ True)%nat as _ by tauto.
    assert (j' = (length comps - S j)%nat) as Ej.
    { assert (length comps - S j < length comps)%nat by lia.
      destruct (decide (j' = (length comps - S j)%nat)) as [|Hne]; [done|]. exfalso.
      (* v in two components *)
      clear - H1 HD HD' Hv Hv' Hne. revert HD HD' Hne. generalize (length comps - S j)%nat as k. intros k HD HD' Hne.
      destruct (decide (k < j')%nat) as [Hlt|Hge].
      - apply elem_of_list_split_length in HD as (l1 & l2 & -> & ->).
        rewrite lookup_app_r in HD' by lia. destruct (j' - length l1)%nat as [|m] eqn:Em; [lia|]. cbn in HD'.
        rewrite concat_app in H1. cbn in H1. apply NoDup_app in H1 as (_ & _ & H1). apply NoDup_app in H1 as (_ & H1 & _).
        apply (H1 v Hv). apply elem_concat. exists D'. split; [done|]. by eapply elem_of_list_lookup_2.
      - apply elem_of_list_split_length in HD' as (l1 & l2 & -> & ->).
        rewrite lookup_app_r in HD by lia. destruct (k - length l1)%nat as [|m] eqn:Em; [lia|]. cbn in HD.
        rewrite concat_app in H1. cbn in H1. apply NoDup_app in H1 as (_ & _ & H1). apply NoDup_app in H1 as (_ & H1 & _).
        apply (H1 v Hv'). apply elem_concat. exists D. split; [done|]. by eapply elem_of_list_lookup_2. }
    subst j'. pose proof (lookup_lt_Some _ _ _ HC).
    exists (length comps - S i)%nat, C. split_and!; [|done|lia].
    apply reverse_lookup_Some. split; [|lia]. rewrite <-HC. f_equal. lia.
Qed.

(** The order of a global and of a local solve. *)
Definition gcomps : list (list Z) := reverse (comps_of n ia ja (seqZ 0 n)).
Definition lcomps (starts : list Z) : list (list Z) := reverse (comps_of n ia ja starts).

Lemma gcomps_ordered : ordered A (λ v, 0 ≤ v < n) gcomps.
Proof. destruct (comps_all n ia ja gwf). by apply sccs_ordered. Qed.
Lemma lcomps_ordered starts : (∀ r, r ∈ starts → 0 ≤ r < n) →
  ordered A (λ v, ∃ r, r ∈ starts ∧ leads A r v) (lcomps starts).
Proof.
  intros Hs. destruct (comps_reach n ia ja starts gwf Hs) as [H1 H2].
  assert (∀ v, (∃ r, r ∈ starts ∧ reach ia ja r v) → 0 ≤ v < n) as HP.
  { intros v (r & Hr & Hl). apply reach_leads in Hl; [|by apply Hs].
    apply (leads_range n A r v (so_arcs _ _ _ _ _ HS)); [done|by apply Hs]. }
  destruct (sccs_ordered _ _ HP H1 H2) as [a1 a2 a3 a4 a5].
  split; try done. intros v. unfold lcomps. rewrite a2. split; intros (r & Hr & Hl); exists r; (split; [done|]);
    (apply reach_leads; [by apply Hs|done]).
Qed.

Lemma ordered_len (P : Z → Prop) comps : (∀ v, P v → 0 ≤ v < n) → ordered A P comps →
  zlen (concat comps) ≤ n ∧ zlen comps ≤ n ∧ Forall (λ C, C ≠ [] ∧ Forall (λ v, 0 ≤ v < n) C) comps.
Proof.
  intros HP [H1 H2 H3 _ _]. pose proof (so_n _ _ _ _ _ HS).
  assert (zlen (concat comps) ≤ n) as Hl.
  { assert (length (concat comps) ≤ length (seqZ 0 n))%nat as HH.
    { apply submseteq_length, NoDup_submseteq; [done|]. intros v Hv. apply H2, HP in Hv. apply elem_of_seqZ. lia. }
    rewrite seqZ_length in HH. unfold zlen. lia. }
  split_and!; [done| |].
  - pose proof (concat_len_ge comps H3). unfold zlen in *. lia.
  - apply Forall_forall. intros C HC. split; [exact (proj1 (Forall_forall _ _) H3 C HC)|].
    apply Forall_forall. intros v Hv. apply HP, H2, elem_concat. eauto.
Qed.

Lemma seq_take_resize (sq l : list Z) : take (length l) sq = l → resize_ (length l) 0 sq = l.
Proof.
  intros H. unfold resize_. rewrite H.
  assert (length l ≤ length sq)%nat by (rewrite <-H at 1; rewrite take_length; lia).
  replace (length l - length sq)%nat with 0%nat by lia. cbn. apply app_nil_r.
Qed.

(** ** Start cells *)
Lemma start_array_ok (f : Z → bool) d (ss : cellset_values) : td_start d = tab n f →
  (∀ c, c ∈ map fst ss → 0 ≤ c < n) → om_wf ss →
  setup_start_array d ss = Ok (mkTdyn (td_local d) (tab n (λ v, f v || is_start (λ v, om_find v ss) v))
    (td_seq d) (td_comps d) (td_tof d) (td_tracer d)).
Proof.
  intros Hd Hr Hwf. unfold setup_start_array. rewrite Hd.
  assert (foldM (λ l kv, zset l (fst kv) true) (tab n f) ss = Ok (tab n (λ v, f v || is_start (λ v, om_find v ss) v))) as ->; [|done].
  clear Hd d. revert f Hr Hwf. induction ss as [|[c x] ss IH]; intros f Hr Hwf; cbn [foldM fst snd].
  - f_equal. apply tab_ext. intros v _. cbn. by rewrite orb_false_r.
  - assert (om_wf ss) as Hwf' by (by apply StronglySorted_inv in Hwf as []).
    rewrite tab_set by (apply Hr; left). cbn [mbind res_bind]. rewrite IH; [|intros; apply Hr; by right|done].
    f_equal. apply tab_ext. intros v _. unfold fupd, is_start.
    destruct (decide (v = c)) as [->|Hne].
    + assert (om_find c ((c, x) :: ss) = Some x) as ->; [|by rewrite orb_true_r]. apply om_find_elem; [done|left].
    + assert (om_find v ((c, x) :: ss) = om_find v ss) as ->; [|done].
      destruct (om_find v ss) as [y|] eqn:E.
      * apply om_find_elem; [done|]. right. by apply om_find_elem.
      * apply om_find_none; [done|]. apply om_find_none in E; [|done]. cbn. rewrite elem_of_cons. naive_solver.
Qed.

Definition ginj (v : Z) : option num :=
  if nltb n0 (value_at src v) then Some (value_at src v) else None.

Lemma start_source_ok d : td_start d = tab n (λ _, false) →
  setup_start_array_from_source s d = Ok (mkTdyn (td_local d) (tab n (is_start ginj))
    (td_seq d) (td_comps d) (td_tof d) (td_tracer d)).
Proof.
  intros Hd. unfold setup_start_array_from_source. rewrite (so_pv _ _ _ _ _ HS), (so_pvlen _ _ _ _ _ HS), Hd.
  pose proof (so_n _ _ _ _ _ HS). rewrite to_int_small by lia.
  match goal with |- context [forZ 0 n ?F ?s0] =>
    destruct (forZ_ind_Z n F (λ i l, l = tab n (λ v, if decide (v < i) then is_start ginj v else false)) s0) as (l & E & Hl) end.
  - lia.
  - apply tab_ext. intros v Hv. by rewrite decide_False by lia.
  - intros i l Hi ->. rewrite (so_src _ _ _ _ _ HS), tab_get by done. cbn [mbind res_bind].
    assert (is_start ginj i = nltb n0 (value_at src i)) as Hgi.
    { unfold is_start, ginj. by destruct (nltb n0 (value_at src i)). }
    destruct (nltb n0 (value_at src i)) eqn:E.
    + rewrite tab_set by done. eexists. split; [done|]. apply tab_ext. intros v Hv. unfold fupd.
      destruct (decide (v = i)) as [->|Hne]; [by rewrite decide_True by lia|]. apply decide_ext. lia.
    + eexists. split; [done|]. apply tab_ext. intros v Hv.
      destruct (decide (v = i)) as [->|Hne]; [by rewrite decide_False, decide_True by lia|]. apply decide_ext. lia.
  - rewrite E, Hl. cbn. do 2 f_equal. apply tab_ext. intros v Hv. by rewrite decide_True by lia.
Qed.

Lemma local_source_ok (l : list num) ss : zlen l = n → (∀ c, c ∈ map fst ss → 0 ≤ c < n) → om_wf ss →
  ∃ l', setup_local_source l ss = Ok (l', if existsb (λ kv, nltb kv.2 n0) ss then Some LogicError else None) ∧
    zlen l' = n ∧
    (existsb (λ kv, nltb kv.2 n0) ss = false → ∀ v r, om_find v ss = Some r → l' !! Z.to_nat v = Some r) ∧
    (∀ v, 0 ≤ v → v ∉ map fst ss → l' !! Z.to_nat v = l !! Z.to_nat v).
Proof.
  intros Hl Hr Hwf. revert l Hl. induction ss as [|[c x] ss IH]; intros l Hl.
  - exists l. split_and!; [done|done| |done]. intros _ v r. done.
  - cbn [setup_local_source existsb snd]. destruct (nltb x n0) eqn:Ex; cbn [orb].
    + exists l. split_and!; done.
    + assert (om_wf ss) as Hwf' by (by apply StronglySorted_inv in Hwf as []).
      assert (0 ≤ c < n) as Hc by (apply Hr; left).
      rewrite zset_of by lia. cbn [mbind res_bind].
      destruct (IH ltac:(intros; apply Hr; by right) Hwf' (<[Z.to_nat c := x]> l)) as (l' & E & Hl' & H1 & H2).
      { unfold zlen in *. by rewrite insert_length. }
      exists l'. split_and!; [done|done| |].
      * intros Hex v r Hv. specialize (H1 Hex). apply om_find_elem in Hv; [|done].
        apply elem_of_cons in Hv as [[= -> ->]|Hv].
        -- rewrite H2; [|lia|].
           ++ apply list_lookup_insert. unfold zlen in Hl. lia.
           ++ intros Hin. apply StronglySorted_inv in Hwf as [_ Hlt].
              pose proof (proj1 (Forall_forall _ _) Hlt _ Hin) as HH. by apply klt_irrefl in HH.
        -- apply H1. by apply om_find_elem.
      * intros v Hv Hin. cbn in Hin. rewrite elem_of_cons in Hin. rewrite H2 by tauto.
        rewrite list_lookup_insert_ne; [done|]. intros Heq. apply Hin. left. lia.
Qed.

Lemma cleanup_len (l : list num) (ss : cellset_values) : zlen l = n → (∀ c, c ∈ map fst ss → 0 ≤ c < n) →
  ∃ l', cleanup_local_source l ss = Ok l' ∧ zlen l' = n.
Proof.
  intros Hl Hr. unfold cleanup_local_source.
  destruct (foldM_inv (λ l kv, zset l (fst kv) n0) (λ _ l, zlen l = n) ss l) as (l' & E & H); [done| |eauto].
  intros l1 x l2 l0 -> Hl0. assert (0 ≤ x.1 < n).
  { apply Hr. rewrite map_app. cbn. apply elem_of_app. right. left. }
  rewrite zset_of by lia. eexists. split; [done|]. unfold zlen in *. by rewrite insert_length.
Qed.

(** ** Collecting the results *)
Definition tab_map_of (f : Z → num) (cells : list Z) (m : cellset_values) : cellset_values :=
  foldl (λ m v, om_set v (f v) m) m cells.

Lemma tab_map_wf f cells m : om_wf m → om_wf (tab_map_of f cells m).
Proof. revert m. induction cells as [|v cells IH]; intros m Hm; cbn; [done|]. apply IH. by apply om_set_wf. Qed.
Lemma tab_map_find f cells m v : om_wf m →
  om_find v (tab_map_of f cells m) = if decide (v ∈ cells) then Some (f v) else om_find v m.
Proof.
  revert m. induction cells as [|c cells IH]; intros m Hm; cbn [tab_map_of foldl].
  - by rewrite decide_False by apply not_elem_of_nil.
  - fold (tab_map_of f cells (om_set c (f c) m)). rewrite IH by (by apply om_set_wf).
    destruct (decide (v ∈ cells)) as [H|H].
    + rewrite decide_True by (by right). done.
    + rewrite om_find_set by done. destruct (decide (kcmp c v = Eq)) as [E|E].
      * apply kcmp_eq in E as ->. rewrite decide_True by left. done.
      * rewrite decide_False; [done|]. intros [->|Hin]%elem_of_cons; [|done]. apply E. by apply kcmp_eq.
Qed.

Lemma collect_eq d st cells : td_tof d = tab n st.1 → td_tracer d = tab n st.2 →
  Forall (λ v, 0 ≤ v < n) cells → ∀ m1 m2,
  collect_local d cells m1 m2 =
  Ok (if existsb (λ v, nleb (st.2 v) n0) cells then inr LogicError
      else inl (tab_map_of st.1 cells m1, tab_map_of st.2 cells m2)).
Proof.
  intros H1 H2. induction 1 as [|v cells Hv _ IH]; intros m1 m2; [done|].
  cbn [collect_local existsb]. rewrite H1, H2, !tab_get by done. cbn [mbind res_bind].
  destruct (nleb (st.2 v) n0); [done|]. cbn [orb]. apply IH.
Qed.

(** ** The value of a local solve *)
Definition cap (st : fstate) : fstate := (λ v, nmin (st.1 v) max_tof, st.2).
Definition local_val (h : heap) (fuel : nat) (ss : cellset_values)
  : res ((cellset_values * cellset_values) + exn) :=
  if negb (ws_ok h 0) then AssertFail
  else if negb (scc_ok h 5) then UB
  else if negb (scc_ok h 8) then Ok (inr RuntimeError)
  else if existsb (λ kv, nltb kv.2 n0) ss then Ok (inr LogicError)
  else
    let comps := lcomps (map fst ss) in
    st ← run n A pv src (λ v, om_find v ss) fuel comps;
    Ok (if existsb (λ v, nleb (st.2 v) n0) (concat comps) then inr LogicError
        else inl (tab_map_of (cap st).1 (concat comps) [], tab_map_of st.2 (concat comps) [])).

Lemma solve_local_eq h fuel d ss : zlen (td_local d) = n → om_wf ss → (∀ c, c ∈ map fst ss → 0 ≤ c < n) →
  ∃ d', zlen (td_local d') = n ∧ solve_local h fuel s d ss = (r ← local_val h fuel ss; Ok (d', r)).
Proof.
  intros Hd Hwf Hr. unfold solve_local, prepare_for_solve.
  rewrite (so_pv _ _ _ _ _ HS). pose proof (so_pvlen _ _ _ _ _ HS) as Hpv. pose proof (so_n _ _ _ _ _ HS) as Hn.
  replace (length pv) with (Z.to_nat n) by (unfold zlen in Hpv; lia). rewrite !tab_const.
  rewrite (start_array_ok (λ _, false)) by done. cbn [mbind res_bind td_local td_seq td_comps td_tof td_tracer].
  set (inj := λ v, om_find v ss).
  assert (tab n (λ v, false || is_start inj v) = tab n (is_start inj)) as -> by done.
  unfold compute_local_ordering. rewrite (so_pv _ _ _ _ _ HS), Hpv.
  pose proof (wf_len _ _ _ gwf) as Hlen.
  rewrite (proj2 (Z.eqb_eq (zlen ia) (n + 1))) by (unfold zlen; lia). cbn [assert_ mbind res_bind].
  unfold local_val. destruct (ws_ok h 0) eqn:Hws; [|by exists d]. cbn [assert_ negb mbind res_bind].
  destruct (scc_ok h 5) eqn:H5.
  2:{ exists d. split; [done|]. unfold tarjan_reachable_sccs. cbn [w_nvert new_ws]. rewrite Z.leb_refl, H5. done. }
  destruct (reachable_run_top h n ia ja n (new_ws h 0 n) (map fst ss) gwf (new_ws_sized h 0 n) ltac:(lia) Hr H5)
    as (w' & r & Er & Hres & _).
  rewrite Er. cbn [mbind res_bind snd negb].
  destruct (obtained_holds r) as [cs Hcs].
  { eapply ob_reach; [exact gwf|exact (new_ws_sized h 0 n)|lia|exact Hr|exact Er]. }
  assert (cs = comps_of n ia ja (map fst ss)) as -> by (eapply result_unique; [by apply holds_result|done]).
  destruct (scc_ok h 8) eqn:H8.
  2:{ rewrite (reverse_fail h r _ Hcs H8). cbn. eexists. split; [|done]. done. }
  destruct (reverse_ok h r _ Hcs H8) as (r' & -> & Hr'). cbn [mbind res_bind fst snd negb].
  fold (lcomps (map fst ss)) in Hr'. set (comps := lcomps (map fst ss)) in *.
  pose proof (lcomps_ordered (map fst ss) Hr) as Hord. fold comps in Hord.
  destruct (ordered_len (λ v, ∃ r, r ∈ map fst ss ∧ leads A r v) comps) as (L1 & L2 & L3); [|done|].
  { intros v (r0 & Hr0 & Hl). apply (leads_range n A r0 v (so_arcs _ _ _ _ _ HS)); [done|by apply Hr]. }
  match goal with |- context [extract_components n r' ?a ?b] =>
    destruct (extract_ok n r' comps a b Hn (holds_result _ _ Hr') (oc_ne _ _ _ Hord) L1)
    as (sq & -> & Hsq & Htk) end.
  cbn [mbind res_bind fst snd].
  assert (0 ≤ zlen comps) by (unfold zlen; lia).
  rewrite zback_tab by lia. cbn [mbind res_bind]. rewrite coff_all, zlen_nat, seq_take_resize by done.
  destruct (local_source_ok (td_local d) ss Hd Hr Hwf) as (l' & Els & Hl' & Hloc & _).
  cbn [td_local]. rewrite Els. cbn [mbind res_bind].
  destruct (existsb (λ kv, nltb kv.2 n0) ss) eqn:Hneg.
  { cbn [mbind res_bind]. eexists. split; [|done]. done. }
  cbn [mbind res_bind]. unfold set_local. cbn [td_local td_start td_seq td_comps td_tof td_tracer].
  set (d1 := mkTdyn l' (tab n (is_start inj)) (concat comps) (tab (zlen comps + 1) (coff comps))
                    (tab n (λ _, n0)) (tab n (λ _, n0))).
  change d1 with (mkd n d1 zero_state).
  rewrite (solve_eq n A pv src inj s HS fuel d1 comps).
  - unfold run. fold inj. destruct (foldM (run_comp n A pv src inj fuel) zero_state comps) as [st| | | |] eqn:Erun;
      try (exists d; split; [done|]; reflexivity).
    cbn [mbind res_bind].
    destruct (cleanup_len l' ss Hl' Hr) as (l2 & Ecl & Hl2).
    unfold mkd, set_fields, d1. cbn [td_local td_start td_seq td_comps td_tof td_tracer].
    rewrite Ecl. cbn [mbind res_bind]. cbn [td_local td_start td_seq td_comps td_tof td_tracer].
    rewrite zback_tab by lia. cbn [mbind res_bind]. rewrite coff_all.
    assert (zslice (concat comps) 0 (zlen (concat comps)) = Ok (concat comps)) as ->.
    { unfold zslice. rewrite (proj2 (Z.leb_le 0 (zlen (concat comps)))) by (unfold zlen; lia).
      rewrite !Z.leb_refl. cbn [andb]. rewrite Z.sub_0_r, zlen_nat. change (Z.to_nat 0) with O. rewrite drop_0. by rewrite firstn_all. }
    cbn [mbind res_bind].
    rewrite (collect_eq _ (cap st)); [|done|done|].
    + cbn [mbind res_bind]. eexists. split; [|done]. done.
    + apply Forall_forall. intros v (C & HvC & HC)%elem_concat.
      destruct (proj1 (Forall_forall _ _) L3 C HC) as [_ HF]. by apply (proj1 (Forall_forall _ _) HF).
  - split; [done|done|]. intros v r0 Hv Hinj. cbn [d1 td_local]. by apply Hloc.
  - split; done.
  - done.
  - lia.
Qed.

(** ** The value of a global solve *)
Definition global_val (h : heap) (fuel : nat) : res (list num + exn) :=
  if negb (ws_ok h 0 && scc_ok h 2) then UB
  else if negb (scc_ok h 8) then Ok (inr RuntimeError)
  else
    st ← run n A pv src ginj fuel gcomps;
    Ok (inl (tab n (cap st).1)).

Lemma solve_global_eq h fuel d :
  ∃ d', zlen (td_local d') = n ∧ solve_global h fuel s d = (r ← global_val h fuel; Ok (d', r)).
Proof.
  unfold solve_global, prepare_for_solve.
  rewrite (so_pv _ _ _ _ _ HS). pose proof (so_pvlen _ _ _ _ _ HS) as Hpv. pose proof (so_n _ _ _ _ _ HS) as Hn.
  replace (length pv) with (Z.to_nat n) by (unfold zlen in Hpv; lia). rewrite !tab_const.
  rewrite start_source_ok by done. cbn [mbind res_bind td_local td_seq td_comps td_tof td_tracer].
  rewrite (so_src _ _ _ _ _ HS).
  assert (zlen (tab n (value_at src)) = n) as Hl by (apply tab_zlen; lia).
  unfold compute_ordering. rewrite (so_pv _ _ _ _ _ HS), Hpv.
  pose proof (wf_len _ _ _ gwf) as Hlen.
  rewrite (proj2 (Z.eqb_eq (zlen ia) (n + 1))) by (unfold zlen; lia). cbn [assert_ mbind res_bind].
  unfold global_val.
  destruct (ws_ok h 0 && scc_ok h 2) eqn:Hok.
  2:{ exists (mkTdyn (tab n (value_at src)) [] [] [] [] []). split; [done|]. unfold tarjan. rewrite Hok. done. }
  apply andb_true_iff in Hok as [Hws H2]. cbn [negb].
  destruct (tarjan_run h n ia ja gwf Hws H2) as (r & Er & Hres).
  rewrite Er. cbn [mbind res_bind snd negb].
  destruct (obtained_holds r) as [cs Hcs].
  { eapply ob_tarjan; [exact gwf|exact Er]. }
  assert (cs = comps_of n ia ja (seqZ 0 n)) as -> by (eapply result_unique; [by apply holds_result|done]).
  destruct (scc_ok h 8) eqn:H8.
  2:{ rewrite (reverse_fail h r _ Hcs H8). cbn. eexists. split; [|done]. done. }
  destruct (reverse_ok h r _ Hcs H8) as (r' & -> & Hr'). cbn [mbind res_bind fst snd negb].
  fold gcomps in Hr'. set (comps := gcomps) in *.
  pose proof gcomps_ordered as Hord. fold comps in Hord.
  destruct (ordered_len (λ v, 0 ≤ v < n) comps) as (L1 & L2 & L3); [done|done|].
  assert (zlen (concat comps) = n) as Hall.
  { assert (concat comps ≡ₚ seqZ 0 n) as HP.
    { apply NoDup_Permutation; [apply Hord|apply NoDup_seqZ|]. intros v. rewrite (oc_cover _ _ _ Hord), elem_of_seqZ. lia. }
    unfold zlen. rewrite HP, seqZ_length. lia. }
  match goal with |- context [extract_components n r' ?a ?b] =>
    destruct (extract_ok n r' comps a b Hn (holds_result _ _ Hr') (oc_ne _ _ _ Hord) L1)
    as (sq & -> & Hsq & Htk) end.
  cbn [mbind res_bind fst snd].
  assert (0 ≤ zlen comps) by (unfold zlen; lia).
  rewrite zback_tab by lia. cbn [mbind res_bind]. rewrite coff_all, Hall.
  rewrite to_int_small by lia. rewrite Z.eqb_refl. cbn [assert_ mbind res_bind].
  assert (sq = concat comps) as ->.
  { rewrite <-Htk. symmetry. apply take_ge. unfold zlen in *. lia. }
  unfold set_local. cbn [td_local td_start td_seq td_comps td_tof td_tracer].
  set (d1 := mkTdyn (tab n (value_at src)) (tab n (is_start ginj)) (concat comps) (tab (zlen comps + 1) (coff comps))
                    (tab n (λ _, n0)) (tab n (λ _, n0))).
  change d1 with (mkd n d1 zero_state).
  rewrite (solve_eq n A pv src ginj s HS fuel d1 comps).
  - unfold run. destruct (foldM (run_comp n A pv src ginj fuel) zero_state comps) as [st| | | |] eqn:Erun;
      try (exists (mkTdyn (tab n (value_at src)) [] [] [] [] []); split; [done|]; reflexivity).
    cbn [mbind res_bind]. eexists. split; [|reflexivity]. cbn. unfold zlen. rewrite map_length. done.
  - split; [done|done|]. intros v r0 Hv Hinj. cbn [d1 td_local]. rewrite tab_lookup_Z by done.
    unfold ginj in Hinj. destruct (nltb n0 (value_at src v)); congruence.
  - split; done.
  - done.
  - lia.
Qed.
End top.
