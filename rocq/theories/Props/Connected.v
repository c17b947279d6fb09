(** Property C87: which wells the flow connects, seen in pair fluxes and pair
    volumes. Toolbox.cpp, TracerTofSolver.cpp and DerivedQuantities.cpp. *)
From Coq Require Import String QArith Qcanon SpecFloat.
From Verif.Model Require Import Base Num OMap Containers Solution AssembledConnections Tarjan TracerTofSolver Toolbox DerivedQuantities.
From Verif.Spec Require Import ToolboxSpec MirrorSpec ConnectedSpec.
From Verif.Proofs Require Import OMapFacts ExactNum OrdLaws B64Laws Connected.
From Verif.Props Require Import Toolbox.
Open Scope Z_scope.

(** The flux of an injector to a producer, and that of a producer from an injector,
    differ from zero exactly if the flow leads from the one to the other. Cycles
    are allowed. *)
Theorem C87_flux (p : @problem exact) g f ev ev' sets sets' sol sol' i j : valid p → poses p g f → data finite p → pores_ok p →
  diagnose Injection ev g p f sets = Ok (OSol sol) → diagnose Production ev' g p f sets' = Ok (OSol sol') →
  i ∈ map cs_id sets → j ∈ map cs_id sets' →
  ∃ x y, pair_flux sol sol' i j (pb_rates p) = Ok (Fin x : @num exact, Fin (- y)%Qc : @num exact) ∧ (0 <= x)%Qc ∧ (0 <= y)%Qc ∧
    ((0 < x)%Qc ↔ connected p i j) ∧ ((0 < y)%Qc ↔ connected p i j).
Proof. intros Hp HP HD HV. exact (flux_connected p g f Hp HP HD HV ev ev' sets sets' sol sol' i j). Qed.

(** They share volume exactly if it does so by way of a cell with pores. *)
Theorem C87_volume (p : @problem exact) g f ev ev' sets sets' sol sol' i j : valid p → poses p g f → data finite p → pores_ok p →
  diagnose Injection ev g p f sets = Ok (OSol sol) → diagnose Production ev' g p f sets' = Ok (OSol sol') →
  i ∈ map cs_id sets → j ∈ map cs_id sets' →
  ∃ V, pair_volume sol sol' (pb_pv p) i j = Ok (Fin V : @num exact) ∧ (0 <= V)%Qc ∧
    ((0 < V)%Qc ↔ ∃ c, nltb n0 (pore p c) = true ∧ by_way_of p i j c).
Proof. intros Hp HP HD HV. exact (volume_connected p g f Hp HP HD HV ev ev' sets sets' sol sol' i j). Qed.

(** If volume is conserved, every injector is connected with a producer and every
    producer with an injector. *)
Theorem C87_feeds (p : @problem exact) g f ev sets sol i : valid p → poses p g f → data finite p → pores_ok p → conserves p →
  diagnose Injection ev g p f sets = Ok (OSol sol) → i ∈ map cs_id sets →
  ∃ j, is_well Production (pb_rates p) j ∧ connected p i j.
Proof.
  intros Hp HP HD HV Hc H Hi. destruct (feeds p g f Hp HP HD HV Injection ev sets sol i Hc H Hi) as (j & v & Hv & Hs). exists j. split.
  - destruct Hv as [x Hx]. by exists v, x.
  - apply (connected_inj p g f Hp HP _ _ _ i j H Hi). by exists v.
Qed.
Theorem C87_fed (p : @problem exact) g f ev sets sol j : valid p → poses p g f → data finite p → pores_ok p → conserves p →
  diagnose Production ev g p f sets = Ok (OSol sol) → j ∈ map cs_id sets →
  ∃ i, is_well Injection (pb_rates p) i ∧ connected p i j.
Proof.
  intros Hp HP HD HV Hc H Hi. destruct (feeds p g f Hp HP HD HV Production ev sets sol j Hc H Hi) as (i & v & Hv & Hs). exists i. split.
  - destruct Hv as [x Hx]. by exists v, x.
  - apply (connected_prod p g f Hp HP _ _ _ i j H Hi). by exists v.
Qed.

(** Wells that are not connected share nothing, with doubles too, to the bit. *)
Theorem C87_apart_volume {N : Num} p g f ev ev' sets sets' sol sol' i j : valid p → poses p g f →
  diagnose Injection ev g p f sets = Ok (OSol sol) → diagnose Production ev' g p f sets' = Ok (OSol sol') →
  i ∈ map cs_id sets → j ∈ map cs_id sets' → ¬ connected p i j → pair_volume sol sol' (pb_pv p) i j = Ok n0.
Proof. intros Hp HP. exact (no_volume p g f Hp HP ev ev' sets sets' sol sol' i j). Qed.
Theorem C87_apart_flux_b64 (p : @problem b64) g f ev ev' sets sets' sol sol' i j : valid p → poses p g f → @data b64 b64_ok p → pores_ok p →
  no_overflow Injection p → (∀ e k, e ∈ pb_rates p → k ∈ e.2 → k.2 ≠ S754_nan) →
  diagnose Injection ev g p f sets = Ok (OSol sol) → diagnose Production ev' g p f sets' = Ok (OSol sol') →
  i ∈ map cs_id sets → j ∈ map cs_id sets' → ¬ connected p i j → pair_flux sol sol' i j (pb_rates p) = Ok (n0, n0).
Proof. intros Hp HP HD HV. exact (no_flux p g f Hp HP HD HV ev ev' sets sets' sol sol' i j). Qed.

(** Connected wells may look unconnected with doubles: half the smallest double is
    zero. One injector feeds two producers half each. *)
Definition least : @num b64 := S754_finite false 1 (-1074).
Definition fork {N : Num} (a b r x : num) : problem := mkProblem 3 [(0, 1, [a]); (0, 2, [b])] [x; n0; n0]
  [("I"%string, [(0, r)]); ("P"%string, [(1, nofZ (-1))]); ("Q"%string, [(2, nofZ (-1))])].
Lemma fork_valid {N : Num} a b r x : valid (fork a b r x). Proof. valid_tac. Qed.
Definition fork_p : @problem b64 := fork n1 n1 least least.
Definition fork_run d sets := diagnose d ex_ev (graph_for fork_p) fork_p (values_for fork_p 1) sets.
Lemma fork_data : @data b64 b64_ok fork_p.
Proof.
  assert (b64_ok least) as Ht by (vm_compute; reflexivity).
  split; cbv [fork_p fork pb_conns pb_rates pb_pv]; intros; repeat match goal with
    | H : _ ∈ [] |- _ => by apply elem_of_nil in H
    | H : _ ∈ _ :: _ |- _ => apply elem_of_cons in H as [->|H]
    | H : _ ∈ _ |- _ => progress cbv [snd] in H
    end; first [exact Ht|apply (o_ok_ofZ _ b64_laws)].
Qed.
Lemma fork_pores : pores_ok fork_p.
Proof. intros z Hz. cbv [pb_pv fork_p fork] in Hz. repeat (apply elem_of_cons in Hz as [->|Hz]; [vm_compute; reflexivity|]). by apply elem_of_nil in Hz. Qed.
Lemma pair_inv (r r' : res (@tb_obs b64)) i j (p : @problem b64) :
  match r, r' with
  | Ok (OSol sol), Ok (OSol sol') =>
      match pair_flux sol sol' i j (pb_rates p), pair_volume sol sol' (pb_pv p) i j with
      | Ok (x, y), Ok V => neqb x n0 && nltb y n0 && neqb V n0 | _, _ => false end
  | _, _ => false end = true →
  ∃ sol sol' x y V, r = Ok (OSol sol) ∧ r' = Ok (OSol sol') ∧ pair_flux sol sol' i j (pb_rates p) = Ok (x, y) ∧
    pair_volume sol sol' (pb_pv p) i j = Ok V ∧ neqb x n0 = true ∧ nltb y n0 = true ∧ neqb V n0 = true.
Proof.
  destruct r as [[|sol|]| | | |]; try discriminate. destruct r' as [[|sol'|]| | | |]; try discriminate.
  destruct (pair_flux sol sol' i j (pb_rates p)) as [[x y]| | | |] eqn:Ef; try discriminate.
  destruct (pair_volume sol sol' (pb_pv p) i j) as [V| | | |] eqn:EV; try discriminate.
  intros [[E1 E2]%andb_prop E3]%andb_prop. by exists sol, sol', x, y, V.
Qed.
Theorem C87_b64_refuted : ∃ (p : @problem b64) g f ev sets sets' sol sol' i j,
  valid p ∧ poses p g f ∧ @data b64 b64_ok p ∧ pores_ok p ∧ no_overflow Injection p ∧ no_overflow Production p ∧
  diagnose Injection ev g p f sets = Ok (OSol sol) ∧ diagnose Production ev g p f sets' = Ok (OSol sol') ∧
  i ∈ map cs_id sets ∧ j ∈ map cs_id sets' ∧
  (∃ c, nltb n0 (pore p c) = true ∧ by_way_of p i j c) ∧
  (∃ x y, pair_flux sol sol' i j (pb_rates p) = Ok (x, y) ∧ neqb x n0 = true ∧ nltb y n0 = true) ∧
  (∃ V, pair_volume sol sol' (pb_pv p) i j = Ok V ∧ neqb V n0 = true).
Proof.
  destruct (pair_inv (fork_run Injection [cs_new "I"%string]) (fork_run Production [cs_new "P"%string]) "I"%string "P"%string fork_p
    ltac:(vm_compute; reflexivity)) as (sol & sol' & x & y & V & H & H' & Ef & EV & E1 & E2 & E3).
  exists fork_p, (graph_for fork_p), (values_for fork_p 1), ex_ev, [cs_new "I"%string], [cs_new "P"%string], sol, sol', "I"%string, "P"%string.
  split; [apply fork_valid|]. split; [apply posed; [apply fork_valid|forall_tac|reflexivity]|].
  split; [exact fork_data|]. split; [exact fork_pores|].
  split. { intros v Hv. cbn in Hv. assert (v = 0 ∨ v = 1 ∨ v = 2) as [->|[->| ->]] by lia; vm_compute; reflexivity. }
  split. { intros v Hv. cbn in Hv. assert (v = 0 ∨ v = 1 ∨ v = 2) as [->|[->| ->]] by lia; vm_compute; reflexivity. }
  split; [exact H|]. split; [exact H'|]. split; [left|]. split; [left|]. split.
  { exists 0. split; [vm_compute; reflexivity|]. exists 0, 1. split; [exists least; vm_compute; reflexivity|].
    split; [eexists; vm_compute; reflexivity|]. split; [apply rtc_refl|]. apply rtc_once. unfold flows.
    assert (map fst (net_arcs fork_p) = [(0, 1); (0, 2)]) as -> by (vm_compute; reflexivity). left. }
  split; [exists x, y; auto|exists V; auto].
Qed.

(** ** Examples *)
(** Two separate flows: injector I feeds P through cell 1, injector J feeds Q. *)
Definition apart_p {N : Num} : problem := mkProblem 5 [(0, 1, [nofZ 2]); (1, 2, [nofZ 2]); (3, 4, [nofZ 3])] [nofZ 1; nofZ 1; nofZ 2; nofZ 1; nofZ 1]
  [("I"%string, [(0, nofZ 2)]); ("J"%string, [(3, nofZ 3)]); ("P"%string, [(2, nofZ (-2))]); ("Q"%string, [(4, nofZ (-3))])].
Lemma apart_valid {N : Num} : valid apart_p. Proof. valid_tac. Qed.
Lemma apart_poses {N : Num} : poses apart_p (graph_for apart_p) (values_for apart_p 1).
Proof. apply posed; [apply apart_valid|forall_tac|reflexivity]. Qed.
Lemma apart_int {N : Num} : data is_int apart_p. Proof. split; intros; unfold apart_p in *; int_tac. Qed.
Lemma apart_pores : pores_ok (@apart_p exact). Proof. intros x Hx. cbv [pb_pv apart_p] in Hx. repeat (apply elem_of_cons in Hx as [->|Hx]; [vm_compute; reflexivity|]). by apply elem_of_nil in Hx. Qed.
Lemma apart_conserves : conserves (@apart_p exact).
Proof. intros v Hv. cbn in Hv. assert (v = 0 ∨ v = 1 ∨ v = 2 ∨ v = 3 ∨ v = 4) as [->|[->|[->|[->| ->]]]] by lia; vm_compute; reflexivity. Qed.
Definition apart_run {N : Num} d sets := diagnose d ex_ev (graph_for apart_p) apart_p (values_for apart_p 1) sets.
Definition apart_check {N : Num} (i j : string) (x y V : num) : bool :=
  match apart_run Injection [cs_new "I"%string; cs_new "J"%string], apart_run Production [cs_new "P"%string; cs_new "Q"%string] with
  | Ok (OSol sol), Ok (OSol sol') =>
      match pair_flux sol sol' i j (pb_rates apart_p), pair_volume sol sol' (pb_pv apart_p) i j with
      | Ok (x', y'), Ok V' => neqb x x' && neqb y y' && neqb V V' | _, _ => false end
  | _, _ => false end.
Example C87_ex : @apart_check exact "I" "P" (nofZ 2) (nofZ (-2)) (nofZ 4) && @apart_check exact "I" "Q" n0 n0 n0 &&
  @apart_check b64 "I" "P" (nofZ 2) (nofZ (-2)) (nofZ 4) && @apart_check b64 "J" "P" n0 n0 n0 = true.
Proof. vm_compute. reflexivity. Qed.
Example C87_ex_connected : ∃ j, is_well Production (pb_rates (@apart_p exact)) j ∧ connected (@apart_p exact) "I"%string j.
Proof.
  assert (solves (@apart_run exact Injection [cs_new "I"%string]) (λ _, true) = true) as (sol & H & _)%solves_inv by (vm_compute; reflexivity).
  exact (C87_feeds apart_p _ _ _ _ sol _ apart_valid apart_poses (data_impl _ _ _ int_finite apart_int) apart_pores apart_conserves H (elem_of_list_here _ _)).
Qed.

Print Assumptions C87_flux.
Print Assumptions C87_volume.
Print Assumptions C87_feeds.
Print Assumptions C87_fed.
Print Assumptions C87_apart_volume.
Print Assumptions C87_apart_flux_b64.
Print Assumptions C87_b64_refuted.
