(** What a caller of tarjan.h can observe. *)
From Verif.Model Require Import Base Tarjan.
From Verif.Spec Require Import SccSpec.
Open Scope Z_scope.

(** What a caller can read from a result. *)
Definition result_is (s : scc) (comps : list (list Z)) : Prop :=
  tarjan_get_numcomponents s = Z.of_nat (length comps) ∧
  ∀ k C, comps !! k = Some C → tarjan_get_strongcomponent s (Z.of_nat k) = Ok C.

(** A work-space for [nw] vertices, with any content. *)
Definition ws_sized (nw : Z) (w : ws) : Prop :=
  w_nvert w = nw ∧ length (w_status w) = Z.to_nat nw ∧ length (w_link w) = Z.to_nat nw ∧
  length (w_time w) = Z.to_nat nw.

(** Every result value a caller can hold. *)
Inductive obtained : scc → Prop :=
| ob_tarjan h nv ia ja s : wf_graph nv ia ja → tarjan h nv ia ja = Ok (Some s) → obtained s
| ob_reach h nv ia ja starts w w' nw s : wf_graph nv ia ja → ws_sized nw w → nv ≤ nw →
    (∀ r, r ∈ starts → 0 ≤ r < nv) →
    tarjan_reachable_sccs h nv ia ja starts w = Ok (w', Some s) → obtained s
| ob_reverse h s b s' : obtained s → tarjan_reverse_sccresult h s = Ok (b, s') → obtained s'.

