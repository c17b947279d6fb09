(** Consequences of the simulation: components, order, steps, independence. *)
From Verif.Model Require Import Base Tarjan.
From Verif.Spec Require Import SccSpec TarjanSpec.
From Verif.Proofs Require Import Util TarjanAbs TarjanSim.
Open Scope Z_scope.

Lemma concat_take_S {A} (l : list (list A)) k C : l !! k = Some C →
  concat (take (S k) l) = concat (take k l) ++ C.
Proof. intros H. rewrite (take_S_r _ _ _ H), concat_app. cbn. by rewrite app_nil_r. Qed.

Lemma slice_of (l : list Z) b C : 0 ≤ b → (∀ i x, C !! i = Some x → l !! (Z.to_nat b + i)%nat = Some x) →
  b + Z.of_nat (length C) ≤ zlen l → zslice l b (b + Z.of_nat (length C)) = Ok C.
Proof.
  intros Hb H Hl. apply zslice_Ok. split_and!; [lia..|]. unfold zlen in Hl. symmetry.
  apply list_eq_same_length with (length C); [done| |].
  - rewrite take_length, drop_length. lia.
  - intros i x y Hi Hx Hy. apply lookup_take_Some in Hx as [Hx _]. rewrite lookup_drop in Hx.
    apply H in Hy. congruence.
Qed.

Lemma lay_result s comps : layC (s_ncomp s) (s_start s) (s_vert s) comps →
  zlen (concat comps) ≤ zlen (s_vert s) → zlen (concat comps) < 2 ^ 64 → result_is s comps.
Proof.
  intros (H1 & H2 & H3) Hl Hb. split; [done|]. intros k C HC.
  pose proof (lookup_lt_Some _ _ _ HC) as Hk.
  pose proof (concat_take_S _ _ _ HC) as Hc.
  assert (concat comps = concat (take k comps) ++ C ++ concat (drop (S k) comps)) as Hall.
  { rewrite <-(take_drop (S k) comps) at 1. by rewrite concat_app, Hc, <-app_assoc. }
  unfold zlen in *. pose proof Hall as Hall2. apply (f_equal length) in Hall2. rewrite !app_length in Hall2.
  unfold tarjan_get_strongcomponent. unfold zlen in H1. rewrite (proj2 (Z.ltb_lt _ _)) by lia. cbn [assert_ mbind res_bind].
  rewrite (zget_of (s_start s) (Z.of_nat k) (zlen (concat (take k comps)))) by
    first [lia | rewrite Nat2Z.id; apply H2; lia]. cbn [mbind res_bind].
  rewrite (zget_of (s_start s) (Z.of_nat k + 1) (zlen (concat (take (S k) comps)))) by
    first [lia | replace (Z.to_nat (Z.of_nat k + 1)) with (S k) by lia; apply H2; lia]. cbn [mbind res_bind].
  rewrite Hc. unfold zlen. rewrite app_length.
  assert (to_size (Z.of_nat (length (concat (take k comps)) + length C) - Z.of_nat (length (concat (take k comps))))
    = Z.of_nat (length C)) as ->.
  { unfold to_size. rewrite Z.mod_small; lia. }
  apply slice_of; [lia| |unfold zlen; lia]. intros i x Hx. apply H3. rewrite Hall.
  rewrite lookup_app_r by lia. rewrite lookup_app_l; [|apply lookup_lt_Some in Hx; lia].
  rewrite <-Hx. f_equal. lia.
Qed.

Section props.
Context (nv : Z) (ia ja : list Z) (WF : wf_graph nv ia ja).
Notation E := (csr_row ia ja).

Lemma rest_V a R : Inv E nv a [] None R → a_V a = [] ∧ a_S a = [].
Proof. intros I. split; [apply (i_V _ _ _ _ _ _ I)|apply (i_S _ _ _ _ _ _ I)]. Qed.

Lemma comps_closed a R : Inv E nv a [] None R → ∀ l1 l2, a_comps a = l1 ++ l2 →
  ∀ u w, u ∈ concat l1 → reach ia ja u w → w ∈ concat l1.
Proof.
  intros I l1 l2 Hl u w Hu Hr. induction Hr as [|u v w He _ IH]; [done|]. apply IH.
  apply elem_of_list_In, in_concat in Hu as (C & HC%elem_of_list_In & Hu%elem_of_list_In).
  apply elem_of_list_split in HC as (k1 & k2 & ->).
  destruct (i_comps _ _ _ _ _ _ I k1 C (k2 ++ l2)) as (_ & _ & Hcl); [by rewrite Hl, <-app_assoc|].
  specialize (Hcl u v Hu He). rewrite concat_app. cbn. set_solver.
Qed.

Lemma inv_sccs a R (P : Z → Prop) : Inv E nv a [] None R → (∀ v, v ∈ concat (a_comps a) ↔ P v) →
  is_sccs ia ja P (a_comps a).
Proof.
  intros I HP. pose proof (i_nd _ _ _ _ _ _ I) as Hnd. rewrite (proj2 (rest_V _ _ I)), app_nil_r in Hnd.
  constructor; [done|done| |].
  - eapply inv_nonempty; done.
  - intros C u v HC Hu. apply elem_of_list_split in HC as (l1 & l2 & Hl).
    destruct (i_comps _ _ _ _ _ _ I l1 C l2 Hl) as (_ & Hs & _). split.
    + intros Hv. split; by apply Hs.
    + intros [H1 H2].
      assert (v ∈ concat (l1 ++ [C])) as Hv.
      { eapply (comps_closed _ _ I _ l2); [by rewrite <-app_assoc| |done]. rewrite concat_app. cbn. set_solver. }
      rewrite concat_app, elem_of_app in Hv. cbn in Hv. rewrite app_nil_r in Hv. destruct Hv as [Hv|]; [|done].
      exfalso. assert (u ∈ concat l1) as Hu1 by (by apply (comps_closed _ _ I _ (C :: l2) Hl v)).
      rewrite Hl, concat_app in Hnd. cbn in Hnd. apply NoDup_app in Hnd as (_ & Hd & _).
      apply (Hd u Hu1). set_solver.
Qed.

Lemma inv_topo a R : Inv E nv a [] None R → reverse_topological ia ja (a_comps a).
Proof.
  intros I i C u v Hi Hu He. pose proof (take_drop_middle _ _ _ Hi) as Hl. symmetry in Hl.
  destruct (i_comps _ _ _ _ _ _ I _ _ _ Hl) as (_ & _ & Hc). specialize (Hc u v Hu He).
  apply elem_of_app in Hc as [Hc|Hc]; [|by exists i, C].
  apply elem_of_list_In, in_concat in Hc as (D & HD%elem_of_list_In & Hv%elem_of_list_In).
  apply elem_of_list_lookup in HD as (j & Hj). apply lookup_take_Some in Hj as [Hj Hlt]. exists j, D. split_and!; [done..|lia].
Qed.

Lemma cover_reach a R : Inv E nv a [] None R →
  ∀ v, v ∈ concat (a_comps a) ↔ ∃ r, r ∈ R ∧ reach ia ja r v.
Proof.
  intros I v. destruct (rest_V _ _ I) as [HV HS]. split.
  - intros Hv. apply (i_root2 _ _ _ _ _ _ I). set_solver.
  - intros (r & Hr & Hrv). pose proof (i_root1 _ _ _ _ _ _ I r Hr) as Hr1.
    rewrite HV, HS, !app_nil_r in Hr1. eapply (comps_closed _ _ I _ []); [by rewrite app_nil_r|done|done].
Qed.

Lemma cover_all a R : Inv E nv a [] None R → (∀ v, 0 ≤ v < nv → v ∈ R) →
  ∀ v, v ∈ concat (a_comps a) ↔ 0 ≤ v < nv.
Proof.
  intros I HR v. destruct (rest_V _ _ I) as [HV HS]. split.
  - intros Hv. apply (i_rng _ _ _ _ _ _ I). set_solver.
  - intros Hv. pose proof (i_root1 _ _ _ _ _ _ I v (HR v Hv)) as Hr1. by rewrite HV, HS, !app_nil_r in Hr1.
Qed.

(** ** Steps *)
Lemma edges_sum l : num_edges ia ja l = sumZ (deg E) l.
Proof. unfold num_edges. induction l as [|x l IH]; [done|]. cbn. rewrite IH. done. Qed.

Lemma sumZ_split (P : Z → Prop) `{∀ v, Decision (P v)} f l :
  sumZ f l = sumZ (λ v, if decide (P v) then f v else 0) l + sumZ (λ v, if decide (P v) then 0 else f v) l.
Proof. induction l as [|x l IH]; cbn; [done|]. rewrite IH. destruct (decide (P x)); lia. Qed.

Lemma sumZ_perm f l l' : l ≡ₚ l' → sumZ f l = sumZ f l'.
Proof. induction 1; cbn; lia. Qed.
Lemma sumZ_app f l l' : sumZ f (l ++ l') = sumZ f l + sumZ f l'.
Proof. induction l; cbn; lia. Qed.
Lemma sumZ_succ f l : sumZ (λ v, f v + 1) l = zlen l + sumZ f l.
Proof. unfold zlen. induction l; cbn; lia. Qed.

Lemma todo_init : todo E nv a_init = nv + num_edges ia ja (seqZ 0 nv).
Proof.
  pose proof (wf_nv _ _ _ WF).
  unfold todo. rewrite edges_sum, (sumZ_ext (pot E a_init) (λ v, deg E v + 1)).
  - rewrite sumZ_succ. unfold zlen, vertices. rewrite seqZ_length. lia.
  - intros v _. unfold pot, a_init. cbn. done.
Qed.

Lemma steps_eq a R : Inv E nv a [] None R →
  todo E nv a_init - todo E nv a = zlen (concat (a_comps a)) + num_edges ia ja (concat (a_comps a)).
Proof.
  intros I. destruct (rest_V _ _ I) as [HV HS].
  rewrite edges_sum, <-sumZ_succ. pose proof (i_nd _ _ _ _ _ _ I) as Hnd. rewrite HS, app_nil_r in Hnd.
  assert (∃ rest, vertices nv ≡ₚ concat (a_comps a) ++ rest) as (rest & Hp).
  { apply submseteq_Permutation. apply NoDup_submseteq; [done|]. intros v Hv. apply elem_vertices.
    apply (i_rng _ _ _ _ _ _ I). set_solver. }
  assert (NoDup (concat (a_comps a) ++ rest)) as Hnd2 by (rewrite <-Hp; apply vertices_NoDup).
  apply NoDup_app in Hnd2 as (_ & Hd & _).
  unfold todo. rewrite !(sumZ_perm _ _ _ Hp), !sumZ_app.
  assert (sumZ (pot E a) (concat (a_comps a)) = sumZ (λ _, 0) (concat (a_comps a))) as ->.
  { apply sumZ_ext. intros v Hv. apply (i_done _ _ _ _ _ _ I) in Hv. unfold pot. rewrite Hv, HV.
    rewrite decide_False by done. rewrite decide_False; [done|]. set_solver. }
  assert (sumZ (pot E a) rest = sumZ (pot E a_init) rest) as ->.
  { apply sumZ_ext. intros v Hv. assert (v ∉ concat (a_comps a)) as Hn by (intros ?; by eapply Hd).
    rewrite (i_done _ _ _ _ _ _ I) in Hn. pose proof (rest_status nv nv ia ja WF ltac:(lia) _ _ _ I Hn) as Hst.
    unfold pot. rewrite Hst. cbn. done. }
  assert (sumZ (pot E a_init) (concat (a_comps a)) = sumZ (λ v, deg E v + 1) (concat (a_comps a))) as ->.
  { apply sumZ_ext. done. }
  assert (sumZ (λ _, 0) (concat (a_comps a)) = 0); [|lia].
  clear. induction (concat (a_comps a)); cbn; lia.
Qed.

Lemma edges_prefix k : (k ≤ Z.to_nat nv)%nat → ∀ b0 e, ia !! 0%nat = Some b0 → ia !! k = Some e →
  sumZ (deg E) (seqZ 0 (Z.of_nat k)) = e - b0.
Proof.
  induction k as [|k IH]; intros Hk b0 e Hb He.
  - assert (b0 = e) as -> by congruence. change (0 = e - e). lia.
  - destruct (lookup_lt_is_Some_2 ia k) as [b Hbk]; [rewrite (wf_len _ _ _ WF); lia|].
    replace (Z.of_nat (S k)) with (Z.of_nat k + 1) by lia. rewrite seqZ_app by lia. rewrite sumZ_app.
    rewrite (IH ltac:(lia) b0 b) by done.
    rewrite Z.add_0_l, (seqZ_cons (Z.of_nat k) 1) by lia. change (seqZ (Z.succ (Z.of_nat k)) (Z.pred 1)) with (@nil Z).
    cbn [sumZ].
    destruct (wf_row _ _ _ WF (Z.of_nat k) b e) as (H1 & H2 & H3); [lia|by rewrite Nat2Z.id|by rewrite Nat2Z.id|].
    unfold deg, csr_row. rewrite Nat2Z.id, Hbk, He. rewrite take_length, drop_length. lia.
Qed.

Lemma todo_fuel nw : nv ≤ nw → todo E nv a_init ≤ Z.of_nat (tarjan_fuel nw ja).
Proof.
  intros Hnw. pose proof (wf_nv _ _ _ WF) as Hnv. rewrite todo_init, edges_sum. unfold tarjan_fuel.
  destruct (lookup_lt_is_Some_2 ia 0) as [b Hb]; [rewrite (wf_len _ _ _ WF); lia|].
  destruct (lookup_lt_is_Some_2 ia (Z.to_nat nv)) as [e He]; [rewrite (wf_len _ _ _ WF); lia|].
  pose proof (edges_prefix (Z.to_nat nv) ltac:(lia) _ _ Hb He) as Hs. rewrite Z2Nat.id in Hs by lia.
  rewrite Hs.
  destruct (decide (nv = 0)) as [->|].
  - change (Z.to_nat 0) with 0%nat in He. assert (b = e) as -> by congruence. lia.
  - destruct (lookup_lt_is_Some_2 ia (Z.to_nat (nv - 1))) as [b' Hb']; [rewrite (wf_len _ _ _ WF); lia|].
    destruct (wf_row _ _ _ WF (nv - 1) b' e) as (H1 & H2 & H3); [lia|done| |].
    { replace (S (Z.to_nat (nv - 1))) with (Z.to_nat nv) by lia. done. }
    destruct (lookup_lt_is_Some_2 ia 1) as [e1 He1]; [rewrite (wf_len _ _ _ WF); lia|].
    destruct (wf_row _ _ _ WF 0 b e1) as (H4 & _); [lia|done|done|]. lia.
Qed.

(** ** The fuel does not matter *)
Lemma loop_fuel f : ∀ f' a, a_V (a_loop E f a) = [] → (f ≤ f')%nat → a_loop E f' a = a_loop E f a.
Proof.
  induction f as [|f IH]; intros f' a HV Hf.
  - cbn in *. destruct f'; [done|]. cbn. by rewrite HV.
  - destruct f' as [|f']; [lia|]. cbn in *. destruct (a_V a) as [|c V]; [done|]. apply IH; [done|lia].
Qed.

Lemma visit_fuel f f' a R r : Inv E nv a [] None R → 0 ≤ r < nv → todo E nv a ≤ Z.of_nat f → (f ≤ f')%nat →
  a_visit ia ja f' a r = a_visit ia ja f a r.
Proof.
  intros I Hr Hf Hff. unfold a_visit. case_decide as Hd; [done|].
  pose proof (rest_status nv nv ia ja WF ltac:(lia) _ _ _ I Hd) as Hst.
  apply loop_fuel; [|done].
  eapply (inv_loop E nv); [intros ? ?; by eapply E_range|by apply inv_push|].
  rewrite (todo_push nv nv ia ja WF ltac:(lia) a R r I Hst). done.
Qed.

Lemma visits_fuel f f' l : ∀ a R, Inv E nv a [] None R → (∀ r, r ∈ l → 0 ≤ r < nv) →
  todo E nv a ≤ Z.of_nat f → (f ≤ f')%nat →
  foldl (a_visit ia ja f') a l = foldl (a_visit ia ja f) a l.
Proof.
  induction l as [|r l IH]; intros a R I Hl Hf Hff; [done|]. cbn.
  rewrite (visit_fuel f f' a R r) by (first [done|apply Hl; set_solver]).
  pose proof (inv_visit nv nv ia ja WF ltac:(lia) f a R r I ltac:(apply Hl; set_solver) Hf) as I1.
  pose proof (todo_visit nv nv ia ja WF ltac:(lia) f a R r I ltac:(apply Hl; set_solver)).
  apply (IH _ (r :: R)); [done|set_solver|lia|done].
Qed.

(** The components as a function of graph and start points. *)
Definition comps_of (starts : list Z) : list (list Z) :=
  a_comps (foldl (a_visit ia ja (tarjan_fuel nv ja)) a_init starts).

Lemma comps_of_fuel nw starts : nv ≤ nw → (∀ r, r ∈ starts → 0 ≤ r < nv) →
  a_comps (foldl (a_visit ia ja (tarjan_fuel nw ja)) a_init starts) = comps_of starts.
Proof.
  intros Hnw Hs. unfold comps_of. f_equal. apply (visits_fuel _ _ _ _ []); [apply inv_init|done| |].
  - apply todo_fuel. lia.
  - unfold tarjan_fuel. lia.
Qed.

Lemma rep_result nw w s a R : nv ≤ nw → rep nw w s a → Inv E nv a [] None R → result_is s (a_comps a).
Proof.
  intros Hnw Rp I. apply lay_result; [apply Rp| |].
  all: assert (zlen (concat (a_comps a)) ≤ nv) as Hb.
  1,3: unfold zlen; apply NoDup_bound; [apply (wf_nv _ _ _ WF)| |].
  1,3: pose proof (i_nd _ _ _ _ _ _ I) as Hnd; rewrite (proj2 (rest_V _ _ I)), app_nil_r in Hnd; done.
  1,2: intros v Hv; apply (i_rng _ _ _ _ _ _ I); set_solver.
  - unfold zlen at 2. rewrite (r_lv _ _ _ _ Rp). pose proof (wf_nv _ _ _ WF). lia.
  - pose proof (wf_nv _ _ _ WF). lia.
Qed.

Lemma fresh_length h b k : length (fresh_block h b k) = k.
Proof. unfold fresh_block. by rewrite map_length, seq_length. Qed.

Lemma new_ws_sized h b : ∀ nw, ws_sized nw (new_ws h b nw).
Proof. intros nw. unfold ws_sized, new_ws. cbn [w_nvert w_status w_link w_time]. by rewrite !fresh_length. Qed.

Lemma tarjan_global_total h b b' : ∃ t,
  tarjan_global (tarjan_fuel nv ja) ia ja (new_ws h b nv) (new_scc h b' nv) = Ok t ∧
  result_is (t_scc t) (comps_of (seqZ 0 nv)) ∧
  t_steps t = nv + num_edges ia ja (seqZ 0 nv).
Proof.
  pose proof (wf_nv _ _ _ WF) as Hnv.
  destruct (global_ok nv ia ja WF (tarjan_fuel nv ja) (new_ws h b nv) (new_scc h b' nv)) as (t & H1 & H2 & H3 & H4).
  - apply new_ws_sized.
  - unfold new_scc. cbn [s_start]. rewrite fresh_length. lia.
  - unfold new_scc. cbn [s_vert]. by rewrite fresh_length.
  - apply todo_fuel. lia.
  - exists t. split_and!; [done|by eapply rep_result|].
    pose proof (steps_eq _ _ H3) as Hst. unfold comps_of in *.
    set (a := foldl _ _ _) in *.
    assert (concat (a_comps a) ≡ₚ seqZ 0 nv) as Hp.
    { apply NoDup_Permutation; [|apply NoDup_seqZ|].
      - pose proof (i_nd _ _ _ _ _ _ H3) as Hnd. by rewrite (proj2 (rest_V _ _ H3)), app_nil_r in Hnd.
      - intros v. rewrite elem_of_seqZ, (cover_all _ _ H3); [lia|]. intros u Hu. rewrite elem_of_reverse, elem_of_seqZ. lia. }
    rewrite edges_sum, (sumZ_perm _ _ _ Hp) in Hst. unfold zlen in Hst. rewrite (Permutation_length Hp), seqZ_length in Hst.
    rewrite edges_sum. lia.
Qed.

Lemma comps_of_inv starts : (∀ r, r ∈ starts → 0 ≤ r < nv) →
  ∃ a, comps_of starts = a_comps a ∧ Inv E nv a [] None (reverse starts).
Proof.
  intros Hs. eexists. split; [reflexivity|].
  set (w := mkWs nv (replicate (Z.to_nat nv) 0) (replicate (Z.to_nat nv) 0) (replicate (Z.to_nat nv) 0)).
  set (s := mkScc 0 (replicate (S (Z.to_nat nv)) 0) (replicate (Z.to_nat nv) 0) 0 0 0 0).
  destruct (reachable_ok nv nv ia ja WF ltac:(lia) (tarjan_fuel nv ja) starts w s) as (t & _ & _ & H & _).
  - unfold ws_ok_size. cbn. by rewrite replicate_length.
  - cbn [s_start s]. by rewrite replicate_length.
  - cbn [s_vert s]. by rewrite replicate_length.
  - done.
  - apply todo_fuel. lia.
  - done.
Qed.

Lemma reachable_total h nw w starts : ws_sized nw w → nv ≤ nw → (∀ r, r ∈ starts → 0 ≤ r < nv) →
  ∃ t, reachable_run (tarjan_fuel nw ja) ia ja starts w (new_scc h 6 nw) = Ok t ∧
    ws_sized nw (t_ws t) ∧ result_is (t_scc t) (comps_of starts) ∧
    t_steps t = Z.of_nat (length (concat (comps_of starts))) + num_edges ia ja (concat (comps_of starts)).
Proof.
  intros Hw Hnw Hs. pose proof (wf_nv _ _ _ WF) as Hnv.
  destruct (reachable_ok nv nw ia ja WF Hnw (tarjan_fuel nw ja) starts w (new_scc h 6 nw)) as (t & H1 & H2 & H3 & H4).
  - done.
  - unfold new_scc. cbn [s_start]. rewrite fresh_length. lia.
  - unfold new_scc. cbn [s_vert]. by rewrite fresh_length.
  - done.
  - by apply todo_fuel.
  - exists t. rewrite <-(comps_of_fuel nw) by done. split_and!; [done| |by eapply rep_result|].
    + destruct (r_w _ _ _ _ H2) as (? & ? & ? & ? & _). by split_and!.
    + pose proof (steps_eq _ _ H3). unfold zlen in *. lia.
Qed.
End props.
