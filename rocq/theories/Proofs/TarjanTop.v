(** The statements of Props/Tarjan.v. *)
From stdpp Require Import gmap.
From Verif.Model Require Import Base Tarjan TarjanAlloc.
From Verif.Spec Require Import SccSpec TarjanSpec TarjanMemSpec.
From Verif.Proofs Require Import Util TarjanAbs TarjanSim TarjanProps TarjanRev TarjanMem.
Open Scope Z_scope.

Lemma tarjan_run h nv ia ja : wf_graph nv ia ja → ws_ok h 0 = true → scc_ok h 2 = true →
  ∃ s, tarjan h nv ia ja = Ok (Some s) ∧ result_is s (comps_of nv ia ja (seqZ 0 nv)).
Proof.
  intros WF H1 H2. unfold tarjan. rewrite H1, H2. cbn [andb].
  destruct (tarjan_global_total nv ia ja WF h 0 3) as (t & E & Hr & _). rewrite E. cbn. eauto.
Qed.

Lemma tarjan_safe h nv ia ja : wf_graph nv ia ja → ∃ r, tarjan h nv ia ja = Ok r.
Proof.
  intros WF. destruct (ws_ok h 0) eqn:H1; [destruct (scc_ok h 2) eqn:H2|].
  - destruct (tarjan_run h nv ia ja WF H1 H2) as (s & E & _). eauto.
  - unfold tarjan. rewrite H1, H2. cbn. eauto.
  - unfold tarjan. rewrite H1. cbn. eauto.
Qed.

Lemma reachable_run_top h nv ia ja nw w starts :
  wf_graph nv ia ja → ws_sized nw w → nv ≤ nw → (∀ r, r ∈ starts → 0 ≤ r < nv) → scc_ok h 5 = true →
  ∃ w' s, tarjan_reachable_sccs h nv ia ja starts w = Ok (w', Some s) ∧
    result_is s (comps_of nv ia ja starts) ∧ ws_sized nw w'.
Proof.
  intros WF Hw Hnw Hs Hh. unfold tarjan_reachable_sccs. rewrite Hh. pose proof Hw as (H1 & _). rewrite H1.
  rewrite (proj2 (Z.leb_le _ _) Hnw). cbn [assert_ mbind res_bind].
  destruct (reachable_total nv ia ja WF h nw w starts Hw Hnw Hs) as (t & E & Hw' & Hr & _). rewrite E. cbn. eauto.
Qed.

Lemma reachable_safe h nv ia ja nw w starts :
  wf_graph nv ia ja → ws_sized nw w → nv ≤ nw → (∀ r, r ∈ starts → 0 ≤ r < nv) →
  ∃ w' r, tarjan_reachable_sccs h nv ia ja starts w = Ok (w', r) ∧ ws_sized nw w'.
Proof.
  intros WF Hw Hnw Hs. destruct (scc_ok h 5) eqn:Hh.
  - destruct (reachable_run_top h nv ia ja nw w starts WF Hw Hnw Hs Hh) as (w' & s & ? & ? & ?). eauto.
  - unfold tarjan_reachable_sccs. rewrite Hh. pose proof Hw as (H1 & _). rewrite H1.
    rewrite (proj2 (Z.leb_le _ _) Hnw). cbn. eauto.
Qed.

Lemma tarjan_steps h nv ia ja : wf_graph nv ia ja →
  ∃ t, tarjan_global (tarjan_fuel nv ja) ia ja (new_ws h 0 nv) (new_scc h 3 nv) = Ok t ∧
    t_steps t = nv + num_edges ia ja (seqZ 0 nv).
Proof. intros WF. destruct (tarjan_global_total nv ia ja WF h 0 3) as (t & ? & ? & ?). eauto. Qed.

Lemma reachable_steps h nv ia ja nw w starts :
  wf_graph nv ia ja → ws_sized nw w → nv ≤ nw → (∀ r, r ∈ starts → 0 ≤ r < nv) →
  ∃ t l, reachable_run (tarjan_fuel nw ja) ia ja starts w (new_scc h 6 nw) = Ok t ∧
    NoDup l ∧ (∀ v, v ∈ l ↔ ∃ r, r ∈ starts ∧ reach ia ja r v) ∧
    t_steps t = Z.of_nat (length l) + num_edges ia ja l ∧
    t_steps t ≤ nv + num_edges ia ja (seqZ 0 nv).
Proof.
  intros WF Hw Hnw Hs.
  destruct (reachable_total nv ia ja WF h nw w starts Hw Hnw Hs) as (t & E & Hw' & Hr & Hst).
  destruct (comps_of_inv nv ia ja WF starts Hs) as (a & Ha & I).
  exists t, (concat (comps_of nv ia ja starts)). rewrite Ha in *.
  pose proof (i_nd _ _ _ _ _ _ I) as Hnd. rewrite (proj2 (rest_V _ _ _ _ _ I)), app_nil_r in Hnd.
  split_and!; [done|done| |done|].
  - intros v. rewrite (cover_reach nv ia ja WF _ _ I). by setoid_rewrite elem_of_reverse.
  - rewrite <-(todo_init nv ia ja WF). pose proof (steps_eq nv ia ja WF _ _ I) as Hse. unfold zlen in Hse.
    pose proof (todo_nonneg _ _ _ _ _ _ I). lia.
Qed.

Lemma comps_all nv ia ja : wf_graph nv ia ja →
  is_sccs ia ja (λ v, 0 ≤ v < nv) (comps_of nv ia ja (seqZ 0 nv)) ∧
  reverse_topological ia ja (comps_of nv ia ja (seqZ 0 nv)).
Proof.
  intros WF. destruct (comps_of_inv nv ia ja WF (seqZ 0 nv)) as (a & Ha & I).
  { intros r Hr%elem_of_seqZ. lia. }
  rewrite Ha. split; [|by eapply inv_topo].
  eapply inv_sccs; [done|done|]. apply (cover_all nv ia ja WF _ _ I).
  intros v Hv. rewrite elem_of_reverse, elem_of_seqZ. lia.
Qed.

Lemma comps_reach nv ia ja starts : wf_graph nv ia ja → (∀ r, r ∈ starts → 0 ≤ r < nv) →
  is_sccs ia ja (λ v, ∃ r, r ∈ starts ∧ reach ia ja r v) (comps_of nv ia ja starts) ∧
  reverse_topological ia ja (comps_of nv ia ja starts).
Proof.
  intros WF Hs. destruct (comps_of_inv nv ia ja WF starts Hs) as (a & Ha & I).
  rewrite Ha. split; [|by eapply inv_topo].
  eapply inv_sccs; [done|done|]. intros v. rewrite (cover_reach nv ia ja WF _ _ I). by setoid_rewrite elem_of_reverse.
Qed.

Lemma tarjan_correct h nv ia ja : wf_graph nv ia ja → ws_ok h 0 = true → scc_ok h 2 = true →
  ∃ s comps, tarjan h nv ia ja = Ok (Some s) ∧ result_is s comps ∧
    is_sccs ia ja (λ v, 0 ≤ v < nv) comps ∧ reverse_topological ia ja comps.
Proof.
  intros WF H1 H2. destruct (tarjan_run h nv ia ja WF H1 H2) as (s & E & Hr).
  exists s, (comps_of nv ia ja (seqZ 0 nv)). destruct (comps_all nv ia ja WF). done.
Qed.

Lemma reachable_correct h nv ia ja nw w starts :
  wf_graph nv ia ja → ws_sized nw w → nv ≤ nw → (∀ r, r ∈ starts → 0 ≤ r < nv) → scc_ok h 5 = true →
  ∃ w' s comps, tarjan_reachable_sccs h nv ia ja starts w = Ok (w', Some s) ∧ result_is s comps ∧
    is_sccs ia ja (λ v, ∃ r, r ∈ starts ∧ reach ia ja r v) comps ∧ reverse_topological ia ja comps.
Proof.
  intros WF Hw Hnw Hs Hh. destruct (reachable_run_top h nv ia ja nw w starts WF Hw Hnw Hs Hh) as (w' & s & E & Hr & _).
  exists w', s, (comps_of nv ia ja starts). destruct (comps_reach nv ia ja starts WF Hs). done.
Qed.

Lemma tarjan_deterministic nv ia ja : wf_graph nv ia ja →
  ∃ comps, ∀ h, ws_ok h 0 = true → scc_ok h 2 = true →
    ∃ s, tarjan h nv ia ja = Ok (Some s) ∧ result_is s comps.
Proof. intros WF. eexists. intros h H1 H2. by apply tarjan_run. Qed.

Lemma reachable_deterministic nv ia ja starts :
  wf_graph nv ia ja → (∀ r, r ∈ starts → 0 ≤ r < nv) →
  ∃ comps, ∀ h nw w, ws_sized nw w → nv ≤ nw → scc_ok h 5 = true →
    ∃ w' s, tarjan_reachable_sccs h nv ia ja starts w = Ok (w', Some s) ∧ result_is s comps ∧ ws_sized nw w'.
Proof. intros WF Hs. eexists. intros h nw w Hw Hnw Hh. by apply reachable_run_top. Qed.

Lemma reachable_from_all nv ia ja : wf_graph nv ia ja →
  ∃ comps, ∀ h w, ws_sized nv w → ws_ok h 0 = true → scc_ok h 2 = true → scc_ok h 5 = true →
    ∃ s s' w', tarjan h nv ia ja = Ok (Some s) ∧ result_is s comps ∧
      tarjan_reachable_sccs h nv ia ja (seqZ 0 nv) w = Ok (w', Some s') ∧ result_is s' comps.
Proof.
  intros WF. eexists. intros h w Hw H1 H2 H3.
  destruct (tarjan_run h nv ia ja WF H1 H2) as (s & E & Hr).
  destruct (reachable_run_top h nv ia ja nv w (seqZ 0 nv) WF Hw ltac:(lia)) as (w' & s' & E' & Hr' & _); [|done|].
  { intros r Hr'%elem_of_seqZ. lia. }
  eauto 10.
Qed.

Lemma reverse_correct s : obtained s → ∃ comps, result_is s comps ∧ ∀ h,
  if scc_ok h 8
  then ∃ s', tarjan_reverse_sccresult h s = Ok (true, s') ∧ result_is s' (reverse comps)
  else tarjan_reverse_sccresult h s = Ok (false, s).
Proof.
  intros (comps & Hc)%obtained_holds. exists comps. split; [by apply holds_result|]. intros h.
  destruct (scc_ok h 8) eqn:Hh.
  - destruct (reverse_ok h s comps Hc Hh) as (s' & E & H). exists s'. split; [done|by apply holds_result].
  - by eapply reverse_fail.
Qed.

Lemma reverse_twice s h h' : obtained s → scc_ok h 8 = true → scc_ok h' 8 = true →
  ∃ comps s1 s2, result_is s comps ∧ tarjan_reverse_sccresult h s = Ok (true, s1) ∧
    tarjan_reverse_sccresult h' s1 = Ok (true, s2) ∧ result_is s2 comps.
Proof.
  intros (comps & Hc)%obtained_holds Hh Hh'.
  destruct (reverse_ok h s comps Hc Hh) as (s1 & E1 & H1).
  destruct (reverse_ok h' s1 _ H1 Hh') as (s2 & E2 & H2).
  exists comps, s1, s2. rewrite reverse_involutive in H2. split_and!; [by apply holds_result|done|done|by apply holds_result].
Qed.

Lemma tarjan_memory ok m : fresh_mem m →
  ∃ r m', tarjan_mem ok m = Ok (r, m') ∧ fresh_mem m' ∧
  match r with
  | None => m_live m' = m_live m ∧ some_failed ok m m'
  | Some p => all_ok ok m m' ∧ ∃ L, owns_scc m' p L ∧ L ## m_live m ∧ m_live m' = L ∪ m_live m ∧
                ∃ m'', destroy_tarjan_sccresult (Some p) m' = Ok (tt, m'') ∧ m_live m'' = m_live m
  end.
Proof.
  intros Hf. destruct (tarjan_mem_ok ok m Hf) as (r & m' & E & F & _ & _ & H). exists r, m'. split_and!; [done|done|].
  destruct r as [p|]; [|done]. destruct H as (L & H1 & H2 & H3 & H4). split; [done|]. exists L. split_and!; try done.
  destruct (destroy_scc_ok ok m' p L F H1) as (m2 & E2 & Hl & _). exists m2. split; [done|]. rewrite Hl, H3. by apply set_rm2.
Qed.

Lemma workspace_memory ok m : fresh_mem m →
  ∃ r m', create_tarjan_workspace ok m = Ok (r, m') ∧ fresh_mem m' ∧
  match r with
  | None => m_live m' = m_live m ∧ some_failed ok m m'
  | Some p => all_ok ok m m' ∧ ∃ L, owns_ws m' p L ∧ L ## m_live m ∧ m_live m' = L ∪ m_live m ∧
                ∃ m'', destroy_tarjan_workspace (Some p) m' = Ok (tt, m'') ∧ m_live m'' = m_live m
  end.
Proof.
  intros Hf. destruct (create_ok ok m Hf) as (r & m' & E & F & _ & _ & H). exists r, m'. split_and!; [done|done|].
  destruct r as [p|]; [|done]. destruct H as (L & H1 & H2 & H3 & H4). split; [done|]. exists L. split_and!; try done.
  destruct (destroy_ws_ok ok m' p L F H1) as (m2 & E2 & Hl & _). exists m2. split; [done|]. rewrite Hl, H3. by apply set_rm2.
Qed.

Lemma reachable_memory ok m w Lw : fresh_mem m → owns_ws m w Lw →
  ∃ r m', tarjan_reachable_sccs_mem ok (Some w) m = Ok (r, m') ∧ fresh_mem m' ∧ owns_ws m' w Lw ∧
  match r with
  | None => m_live m' = m_live m ∧ some_failed ok m m'
  | Some p => all_ok ok m m' ∧ ∃ L, owns_scc m' p L ∧ L ## m_live m ∧ m_live m' = L ∪ m_live m
  end.
Proof.
  intros Hf Hw. destruct (reachable_mem_ok ok m w Lw Hf Hw) as (r & m' & E & F & _ & _ & Ow & H). exists r, m'.
  split_and!; [done..|]. destruct r as [p|]; [|done]. destruct H as (L & H1 & H2 & H3 & H4). eauto 10.
Qed.

Lemma reverse_memory ok m p L : fresh_mem m → owns_scc m p L →
  ∃ b m', tarjan_reverse_sccresult_mem ok (Some p) m = Ok (b, m') ∧ fresh_mem m' ∧
  if b : bool
  then all_ok ok m m' ∧ ∃ L', owns_scc m' p L' ∧ m_live m' = (m_live m ∖ L) ∪ L' ∧ L' ## m_live m ∖ L
  else some_failed ok m m' ∧ owns_scc m' p L ∧ m_live m' = m_live m.
Proof.
  intros Hf Ho. destruct (reverse_mem_ok ok m p L Hf Ho) as (b & m' & E & F & _ & H). eauto 10.
Qed.

Lemma callers_memory ok m : fresh_mem m →
  ((∃ b m', computeOrdering_mem ok m = Ok (b, m') ∧ m_live m' = m_live m ∧ (b = true ↔ all_ok ok m m')) ∨
   (computeOrdering_mem ok m = UB ∧ ∃ m1, tarjan_mem ok m = Ok (None, m1))) ∧
  ((∃ b m', computeLocalOrdering_mem ok m = Ok (b, m') ∧ m_live m' = m_live m ∧ (b = true ↔ all_ok ok m m')) ∨
   (computeLocalOrdering_mem ok m = AssertFail ∧ ∃ m1, create_tarjan_workspace ok m = Ok (None, m1)) ∨
   (computeLocalOrdering_mem ok m = UB ∧
     ∃ w m1 m2, create_tarjan_workspace ok m = Ok (Some w, m1) ∧
                tarjan_reachable_sccs_mem ok (Some w) m1 = Ok (None, m2))).
Proof. intros Hf. split; [by apply ordering_mem_ok|by apply local_ordering_mem_ok]. Qed.

Lemma null_unchecked : ∃ ok m, fresh_mem m ∧ computeOrdering_mem ok m = UB.
Proof.
  exists (λ _, false), (mkMem 0 ∅ ∅ ∅). split; [|reflexivity]. intros p Hp. set_solver.
Qed.
