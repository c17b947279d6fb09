(** Property C91: components of a part of a graph and of the graph turned round.
    opm/utility/graph/tarjan.{h,c}. *)
From Verif.Model Require Import Base Tarjan.
From Verif.Spec Require Import SccSpec TarjanSpec PartsSpec.
From Verif.Proofs Require Import Util TarjanTop Parts.
From Verif.Props Require Import Tarjan.
Open Scope Z_scope.

(** tarjan_reachable_sccs() finds those components of tarjan() that the start
    points reach, whole; the others are not reached at all. *)
Theorem C91_reachable h h' nv ia ja nw w w' starts s s' l l' :
  wf_graph nv ia ja → ws_sized nw w → nv ≤ nw → (∀ r, r ∈ starts → 0 ≤ r < nv) →
  tarjan h nv ia ja = Ok (Some s) → result_is s l → tarjan_reachable_sccs h' nv ia ja starts w = Ok (w', Some s') → result_is s' l' →
  parts_in (λ v, ∃ r, r ∈ starts ∧ reach ia ja r v) l l'.
Proof. exact (reachable_part h h' nv ia ja nw w w' starts s s' l l'). Qed.
(** The order and the multiplicity of edges do not matter for the components. *)
Theorem C91_edges h h' nv ia ja ia' ja' s s' l l' : wf_graph nv ia ja → wf_graph nv ia' ja' → same_edges nv ia ja ia' ja' →
  tarjan h nv ia ja = Ok (Some s) → result_is s l → tarjan h' nv ia' ja' = Ok (Some s') → result_is s' l' → same_parts l l'.
Proof.
  intros W W' E H R H' R'. destruct (tarjan_sccs _ _ _ _ _ _ W H R) as [S _]. destruct (tarjan_sccs _ _ _ _ _ _ W' H' R') as [S' _].
  apply (sccs_same ia ja ia' ja' _ l l' S S'). intros u v Hu. by apply (strong_same nv).
Qed.
(** Nor do their directions, if all are turned round. *)
Theorem C91_opposite h h' nv ia ja ia' ja' s s' l l' : wf_graph nv ia ja → wf_graph nv ia' ja' → opposite_edges nv ia ja ia' ja' →
  tarjan h nv ia ja = Ok (Some s) → result_is s l → tarjan h' nv ia' ja' = Ok (Some s') → result_is s' l' → same_parts l l'.
Proof.
  intros W W' E H R H' R'. destruct (tarjan_sccs _ _ _ _ _ _ W H R) as [S _]. destruct (tarjan_sccs _ _ _ _ _ _ W' H' R') as [S' _].
  apply (sccs_same ia ja ia' ja' _ l l' S S'). intros u v Hu. by apply (strong_opposite nv).
Qed.
(** The result after tarjan_reverse_sccresult() is a result for the graph turned
    round, in the order tarjan() would give it. *)
Theorem C91_reversed h h' nv ia ja ia' ja' s s' : wf_graph nv ia ja → wf_graph nv ia' ja' → opposite_edges nv ia ja ia' ja' →
  tarjan h nv ia ja = Ok (Some s) → tarjan_reverse_sccresult h' s = Ok (true, s') →
  ∃ l, result_is s' l ∧ is_sccs ia' ja' (λ v, 0 ≤ v < nv) l ∧ reverse_topological ia' ja' l.
Proof.
  intros W W' E H H'. destruct (reverse_correct s (ob_tarjan h nv ia ja s W H)) as (l & R & Hr).
  specialize (Hr h'). destruct (scc_ok h' 8); [|rewrite H' in Hr; discriminate Hr]. destruct Hr as (s1 & E1 & R1). rewrite H' in E1. injection E1 as <-.
  destruct (tarjan_sccs _ _ _ _ _ _ W H R) as [S T]. exists (reverse l). split; [exact R1|]. by apply (reversed_order ia ja).
Qed.

(** ** Example *)
(** The graph of Props/Tarjan with the edges of vertex 1 in another order and once
    each, and turned round. *)
Definition ex_ia1 : list Z := [0; 1; 3; 4; 5; 6].
Definition ex_ja1 : list Z := [1; 2; 0; 3; 2; 4].
Definition ex_ia2 : list Z := [0; 1; 2; 4; 5; 6].
Definition ex_ja2 : list Z := [1; 0; 1; 3; 2; 4].
Ltac five_tac v Hv := assert (v = 0 ∨ v = 1 ∨ v = 2 ∨ v = 3 ∨ v = 4) as [->|[->|[->|[->| ->]]]] by lia.
Ltac wf_tac := constructor; [lia|done| |];
  [intros v b e Hv; five_tac v Hv; cbn; intros [= <-] [= <-]; lia
  |intros v w Hv; five_tac v Hv; intros Hw; match type of Hw with _ ∈ ?r => let l := eval vm_compute in r in change (w ∈ l) in Hw end;
   repeat (apply elem_of_cons in Hw as [->|Hw]; [lia|]); by apply elem_of_nil in Hw].
Lemma ex_wf1 : wf_graph 5 ex_ia1 ex_ja1. Proof. wf_tac. Qed.
Lemma ex_wf2 : wf_graph 5 ex_ia2 ex_ja2. Proof. wf_tac. Qed.
(** Whether [v] is in row [u], as a boolean. *)
Definition in_row (ia ja : list Z) (u v : Z) : bool := existsb (Z.eqb v) (csr_row ia ja u).
Lemma in_row_edge ia ja u v : edge ia ja u v ↔ in_row ia ja u v = true.
Proof.
  unfold edge, in_row. rewrite existsb_exists, elem_of_list_In. split; [intros H; exists v; by rewrite Z.eqb_refl|].
  intros (w & Hw & E%Z.eqb_eq). by rewrite E.
Qed.
Lemma ex_same : same_edges 5 ex_ia ex_ja ex_ia1 ex_ja1.
Proof. intros u v Hu Hv. rewrite !in_row_edge. five_tac u Hu; five_tac v Hv; vm_compute; done. Qed.
Lemma ex_opposite : opposite_edges 5 ex_ia ex_ja ex_ia2 ex_ja2.
Proof. intros u v Hu Hv. rewrite !in_row_edge. five_tac u Hu; five_tac v Hv; vm_compute; done. Qed.
(** Components [3 2], [1 0], [4] in three orders. *)
Definition ex_parts (ia ja : list Z) := match tarjan ex_heap 5 ia ja with Ok (Some s) => read_all s | _ => [] end.
Example C91_runs : ex_parts ex_ia ex_ja = [Some [3; 2]; Some [1; 0]; Some [4]] ∧ ex_parts ex_ia1 ex_ja1 = [Some [3; 2]; Some [1; 0]; Some [4]] ∧
  ex_parts ex_ia2 ex_ja2 = [Some [1; 0]; Some [3; 2]; Some [4]].
Proof. vm_compute. done. Qed.
Example C91_ex s s1 s2 l l1 l2 : tarjan ex_heap 5 ex_ia ex_ja = Ok (Some s) → tarjan ex_heap 5 ex_ia1 ex_ja1 = Ok (Some s1) → tarjan ex_heap 5 ex_ia2 ex_ja2 = Ok (Some s2) →
  result_is s l → result_is s1 l1 → result_is s2 l2 → same_parts l l1 ∧ same_parts l l2.
Proof.
  intros H H1 H2 R R1 R2. split.
  - exact (C91_edges _ _ 5 _ _ _ _ _ _ _ _ ex_wf ex_wf1 ex_same H R H1 R1).
  - exact (C91_opposite _ _ 5 _ _ _ _ _ _ _ _ ex_wf ex_wf2 ex_opposite H R H2 R2).
Qed.
Example C91_ex_reversed s s' : tarjan ex_heap 5 ex_ia ex_ja = Ok (Some s) → tarjan_reverse_sccresult ex_heap s = Ok (true, s') →
  ∃ l, result_is s' l ∧ is_sccs ex_ia2 ex_ja2 (λ v, 0 ≤ v < 5) l ∧ reverse_topological ex_ia2 ex_ja2 l.
Proof. intros H H'. exact (C91_reversed _ _ 5 _ _ _ _ s s' ex_wf ex_wf2 ex_opposite H H'). Qed.
(** From vertices 3 and 2 only the first component is reached. *)
Example C91_ex_reachable s s' w' l l' : tarjan ex_heap 5 ex_ia ex_ja = Ok (Some s) → result_is s l →
  tarjan_reachable_sccs ex_heap 5 ex_ia ex_ja [3; 2; 3] (new_ws ex_heap 0 9) = Ok (w', Some s') → result_is s' l' →
  parts_in (λ v, ∃ r, r ∈ [3; 2; 3] ∧ reach ex_ia ex_ja r v) l l'.
Proof.
  intros H R H' R'. eapply (C91_reachable _ _ 5 _ _ 9); [exact ex_wf| |lia| |exact H|exact R|exact H'|exact R'].
  - clear. repeat split; vm_compute; reflexivity.
  - intros r Hr. rewrite !elem_of_cons, elem_of_nil in Hr. lia.
Qed.
Print Assumptions C91_reachable.
Print Assumptions C91_edges.
Print Assumptions C91_opposite.
Print Assumptions C91_reversed.
