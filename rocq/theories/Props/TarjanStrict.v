(** Property C88: the pointers of opm/utility/graph/tarjan.c under the rule of C
    that a pointer may not be moved to before its array. *)
From Verif.Model Require Import Base Tarjan TarjanStrict.
From Verif.Spec Require Import SccSpec TarjanSpec StrictSpec.
From Verif.Proofs Require Import Util TarjanStrict.
Open Scope Z_scope.

(** Whatever the arguments, the stricter reading either is undefined or changes
    nothing: every theorem about tarjan() and tarjan_reachable_sccs() that speaks of
    a result holds for it too. *)
Theorem C88_tarjan_refines h nv ia ja : tarjan_c h nv ia ja = UB ∨ tarjan_c h nv ia ja = tarjan h nv ia ja.
Proof. exact (tarjan_strict h nv ia ja). Qed.
Theorem C88_reachable_refines h nv ia ja starts w :
  tarjan_reachable_sccs_c h nv ia ja starts w = UB ∨
  tarjan_reachable_sccs_c h nv ia ja starts w = tarjan_reachable_sccs h nv ia ja starts w.
Proof. exact (reachable_strict h nv ia ja starts w). Qed.

(** It changes nothing if the vertex from which the search starts misses some
    vertex: then the component stack never fills its array. *)
Theorem C88_tarjan_defined h nv ia ja : wf_graph nv ia ja → (∃ y, 0 ≤ y < nv ∧ ¬ reach ia ja 0 y) →
  tarjan_c h nv ia ja = tarjan h nv ia ja.
Proof. intros WF (y & Hy & Hn). apply tarjan_c_ok; [done|lia|eauto]. Qed.
Theorem C88_reachable_defined h nv ia ja nw starts w : wf_graph nv ia ja → ws_sized nw w → nv ≤ nw → 0 < nw →
  (∀ r, r ∈ starts → 0 ≤ r < nv) →
  (∀ r starts', starts = r :: starts' → ∃ y, 0 ≤ y < nw ∧ ¬ reach ia ja r y) →
  tarjan_reachable_sccs_c h nv ia ja starts w = tarjan_reachable_sccs h nv ia ja starts w.
Proof. intros WF. exact (reachable_c_ok nv ia ja WF h nw starts w). Qed.

Lemma reach_in nv ia ja u v : wf_graph nv ia ja → reach ia ja u v → 0 ≤ u < nv → 0 ≤ v < nv.
Proof. intros WF Hr. induction Hr as [|u x v He _ IH]; [done|]. intros Hu. apply IH. apply (wf_ja _ _ _ WF u x Hu He). Qed.

(** In particular a work-space with room for one more vertex is always enough. *)
Theorem C88_reachable_roomy h nv ia ja nw starts w : wf_graph nv ia ja → ws_sized nw w → nv < nw →
  (∀ r, r ∈ starts → 0 ≤ r < nv) →
  tarjan_reachable_sccs_c h nv ia ja starts w = tarjan_reachable_sccs h nv ia ja starts w.
Proof.
  intros WF Hw Hnw Hr. pose proof (wf_nv _ _ _ WF) as Hnv. apply (C88_reachable_defined h nv ia ja nw); [done|done|lia|lia|done|].
  intros r starts' ->. exists nv. split; [lia|]. intros Hreach.
  assert (0 ≤ r < nv) as Hrr by (apply Hr; set_solver).
  pose proof (reach_in _ _ _ _ _ WF Hreach Hrr). lia.
Qed.

(** It is undefined if the first vertex reaches all and the search cannot turn
    aside: from each vertex there is one way, or no way that does not lead back. *)
Theorem C88_tarjan_undefined h nv ia ja : wf_graph nv ia ja → ws_ok h 0 = true → scc_ok h 2 = true →
  (∀ v, 0 ≤ v < nv → reach ia ja 0 v) →
  (∀ v, 0 ≤ v < nv → single_way ia ja v ∨ recurrent ia ja v) →
  tarjan_c h nv ia ja = UB.
Proof. intros WF H1 H2. apply (tarjan_c_ub nv ia ja WF h). by rewrite H1, H2. Qed.
Theorem C88_reachable_undefined h nv ia ja r starts w : wf_graph nv ia ja → ws_sized nv w → scc_ok h 5 = true → 0 ≤ r < nv →
  (∀ v, 0 ≤ v < nv → reach ia ja r v) →
  (∀ v, 0 ≤ v < nv → single_way ia ja v ∨ recurrent ia ja v) →
  tarjan_reachable_sccs_c h nv ia ja (r :: starts) w = UB.
Proof. intros WF Hw Hh Hr. exact (reachable_c_ub nv ia ja WF h (r :: starts) r starts w Hw Hh eq_refl Hr). Qed.

(** So it is for every strongly connected graph, a single vertex among them, and
    for no vertices at all ... *)
Theorem C88_strong_undefined h nv ia ja : wf_graph nv ia ja → ws_ok h 0 = true → scc_ok h 2 = true →
  (∀ u v, 0 ≤ u < nv → 0 ≤ v < nv → reach ia ja u v) → tarjan_c h nv ia ja = UB.
Proof.
  intros WF H1 H2 Hs. apply C88_tarjan_undefined; [done..| |].
  - intros v Hv. apply Hs; [lia|done].
  - intros v Hv. right. intros w Hw. apply Hs; [|done]. by apply (reach_in _ _ _ _ _ WF Hw).
Qed.

(** ... and for every row of [k] cells with flow from each to the next. *)
Definition row_ia (k : Z) : list Z := seqZ 0 k ++ [k - 1].
Definition row_ja (k : Z) : list Z := seqZ 1 (k - 1).

Lemma row_row k v : 0 ≤ v < k → csr_row (row_ia k) (row_ja k) v = if decide (v = k - 1) then [] else [v + 1].
Proof.
  intros Hv. unfold csr_row, row_ia, row_ja.
  assert ((seqZ 0 k ++ [k - 1]) !! Z.to_nat v = Some v) as ->.
  { rewrite lookup_app_l by (rewrite seqZ_length; lia). apply lookup_seqZ. lia. }
  case_decide as Hl.
  - assert ((seqZ 0 k ++ [k - 1]) !! S (Z.to_nat v) = Some (k - 1)) as ->.
    { rewrite lookup_app_r by (rewrite seqZ_length; lia). rewrite seqZ_length. replace (S (Z.to_nat v) - Z.to_nat k)%nat with 0%nat by lia. done. }
    replace (k - 1 - v) with 0 by lia. done.
  - assert ((seqZ 0 k ++ [k - 1]) !! S (Z.to_nat v) = Some (v + 1)) as ->.
    { rewrite lookup_app_l by (rewrite seqZ_length; lia). apply lookup_seqZ. lia. }
    replace (v + 1 - v) with 1 by lia.
    destruct (drop (Z.to_nat v) (seqZ 1 (k - 1))) as [|x l] eqn:Ed.
    + apply (f_equal length) in Ed. rewrite drop_length, seqZ_length in Ed. cbn in Ed. lia.
    + assert (seqZ 1 (k - 1) !! Z.to_nat v = Some x) as Hx.
      { rewrite <-(Nat.add_0_r (Z.to_nat v)), <-lookup_drop, Ed. done. }
      apply lookup_seqZ in Hx. change (Z.to_nat 1) with 1%nat. cbn. f_equal. lia.
Qed.
Lemma row_wf k : 0 < k < 2 ^ 31 → wf_graph k (row_ia k) (row_ja k).
Proof.
  intros Hk. constructor.
  - lia.
  - unfold row_ia. rewrite app_length, seqZ_length. cbn. lia.
  - intros v b e Hv Hb He. unfold row_ia in Hb, He. rewrite lookup_app_l in Hb by (rewrite seqZ_length; lia). apply lookup_seqZ in Hb.
    unfold row_ja. rewrite seqZ_length. destruct (decide (v = k - 1)) as [Hl|Hl].
    + rewrite lookup_app_r in He by (rewrite seqZ_length; lia). rewrite seqZ_length in He.
      replace (S (Z.to_nat v) - Z.to_nat k)%nat with 0%nat in He by lia. cbn in He. injection He as <-. lia.
    + rewrite lookup_app_l in He by (rewrite seqZ_length; lia). apply lookup_seqZ in He. lia.
  - intros v w Hv. rewrite row_row by done. case_decide; [intros Hw; by apply elem_of_nil in Hw|].
    intros ->%elem_of_list_singleton. lia.
Qed.
Theorem C88_row_undefined h k : 0 < k < 2 ^ 31 → ws_ok h 0 = true → scc_ok h 2 = true →
  tarjan_c h k (row_ia k) (row_ja k) = UB.
Proof.
  intros Hk H1 H2. apply C88_tarjan_undefined; [by apply row_wf|done|done| |].
  - assert (∀ m : nat, Z.of_nat m < k → reach (row_ia k) (row_ja k) 0 (Z.of_nat m)) as H.
    { induction m as [|m IH]; intros Hm; [constructor|]. apply rtc_r with (Z.of_nat m); [apply IH; lia|].
      unfold edge. rewrite row_row by lia. rewrite decide_False by lia. apply elem_of_list_singleton. lia. }
    intros v Hv. specialize (H (Z.to_nat v)). rewrite Z2Nat.id in H by lia. apply H. lia.
  - intros v Hv. left. intros x y. unfold edge. rewrite row_row by done.
    case_decide; [intros Hx; by apply elem_of_nil in Hx|]. by intros ->%elem_of_list_singleton ->%elem_of_list_singleton.
Qed.

(** So no result can be claimed for all graphs. *)
Theorem C88_refuted : ∃ h nv ia ja, wf_graph nv ia ja ∧ (∃ s, tarjan h nv ia ja = Ok (Some s)) ∧ tarjan_c h nv ia ja = UB.
Proof.
  exists (mkHeap (λ _ _, 0) (λ _, true)), 3, (row_ia 3), (row_ja 3).
  split_and!; [apply row_wf; lia|eexists; vm_compute; reflexivity|by apply C88_row_undefined].
Qed.

(** ** Instances *)
Definition ex_h : heap := mkHeap (λ b i, Z.of_nat (b + i)) (λ _, true).

(** Two cells feed a third: the search from the first misses the second. *)
Example C88_ex_defined : wf_graph 3 [0; 1; 2; 2] [2; 2] ∧ (∃ y, 0 ≤ y < 3 ∧ ¬ reach [0; 1; 2; 2] [2; 2] 0 y) ∧
  (∃ s, tarjan_c ex_h 3 [0; 1; 2; 2] [2; 2] = Ok (Some s) ∧ s_ncomp s = 3).
Proof.
  split_and!.
  - constructor; [lia|done| |].
    + intros v b e Hv. assert (v = 0 ∨ v = 1 ∨ v = 2) as [->|[->| ->]] by lia; cbn; intros [= <-] [= <-]; cbn; lia.
    + intros v w Hv. assert (v = 0 ∨ v = 1 ∨ v = 2) as [->|[->| ->]] by lia; cbn; set_solver by lia.
  - exists 1. split; [lia|]. intros H.
    assert (∀ u v, reach [0; 1; 2; 2] [2; 2] u v → u = 0 ∨ u = 2 → v = 0 ∨ v = 2) as K.
    { intros u v Hr. induction Hr as [|u x v He _ IH]; [done|]. intros Hu. apply IH. revert He. unfold edge.
      destruct Hu as [-> | ->]; cbn; set_solver. }
    destruct (K 0 1 H); lia.
  - eexists. split; [vm_compute; reflexivity|done].
Qed.

(** A row that ends in a cycle. *)
Example C88_ex_undefined : tarjan_c ex_h 4 [0; 1; 2; 3; 4] [1; 2; 3; 1] = UB ∧
  (∀ v, 0 ≤ v < 4 → reach [0; 1; 2; 3; 4] [1; 2; 3; 1] 0 v) ∧
  (∀ v, 0 ≤ v < 4 → single_way [0; 1; 2; 3; 4] [1; 2; 3; 1] v).
Proof.
  split_and!.
  - vm_compute. reflexivity.
  - assert (edge [0; 1; 2; 3; 4] [1; 2; 3; 1] 0 1 ∧ edge [0; 1; 2; 3; 4] [1; 2; 3; 1] 1 2 ∧ edge [0; 1; 2; 3; 4] [1; 2; 3; 1] 2 3) as (H1 & H2 & H3).
    { unfold edge. cbn. set_solver. }
    intros v Hv. assert (v = 0 ∨ v = 1 ∨ v = 2 ∨ v = 3) as [->|[->|[->| ->]]] by lia.
    + constructor.
    + by eapply rtc_once.
    + eapply rtc_l; [exact H1|]. by eapply rtc_once.
    + eapply rtc_l; [exact H1|]. eapply rtc_l; [exact H2|]. by eapply rtc_once.
  - intros v Hv x y. unfold edge. assert (v = 0 ∨ v = 1 ∨ v = 2 ∨ v = 3) as [->|[->|[->| ->]]] by lia; cbn; set_solver.
Qed.

(** Where the search can turn aside, the order of the edges decides: the same graph
    listed in two ways. *)
Example C88_ex_order : tarjan_c ex_h 3 [0; 2; 3; 3] [1; 2; 2] = tarjan ex_h 3 [0; 2; 3; 3] [1; 2; 2] ∧
  tarjan_c ex_h 3 [0; 2; 3; 3] [2; 1; 2] = UB.
Proof. split; vm_compute; reflexivity. Qed.

(** tarjan_reachable_sccs: the row of two cells from its first cell, with a
    work-space of its size, and with one larger. *)
Example C88_ex_roomy :
  tarjan_reachable_sccs_c ex_h 2 [0; 1; 1] [1] [0] (new_ws ex_h 0 2) = UB ∧
  ∃ r, tarjan_reachable_sccs_c ex_h 2 [0; 1; 1] [1] [0] (new_ws ex_h 0 3) = Ok r ∧
       tarjan_reachable_sccs ex_h 2 [0; 1; 1] [1] [0] (new_ws ex_h 0 3) = Ok r.
Proof. split; [vm_compute; reflexivity|]. eexists. split; vm_compute; reflexivity. Qed.

Print Assumptions C88_tarjan_refines.
Print Assumptions C88_reachable_refines.
Print Assumptions C88_tarjan_defined.
Print Assumptions C88_reachable_defined.
Print Assumptions C88_reachable_roomy.
Print Assumptions C88_tarjan_undefined.
Print Assumptions C88_reachable_undefined.
Print Assumptions C88_strong_undefined.
Print Assumptions C88_row_undefined.
Print Assumptions C88_refuted.
