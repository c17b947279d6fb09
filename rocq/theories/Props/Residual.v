(** Property C73: diagnostics computed with doubles on networks with cycles,
    Toolbox.cpp and TracerTofSolver.cpp. *)
From Coq Require Import ZArith Reals Lra Psatz QArith Qcanon Qreals String.
From Coq.Floats Require Import SpecFloat.
From Verif.Model Require Import Base Num OMap Containers Solution Toolbox.
From Verif.Spec Require Import ToolboxSpec MirrorSpec CyclicSpec AccuracySpec ResidualSpec.
From Verif.Proofs Require Import Util OMapFacts ExactNum OrdLaws B64Laws Residual ResidualTop.
From Verif.Props Require Import Toolbox SameFlow Accuracy Cyclic.
Open Scope Z_scope.

(** One in 1e9, and a rounding error for each operation. *)
Definition slip (k : nat) : Qc := (Q2Qc (1 # 1000000000) + errors k)%Qc.

(** In every cell that is on a cycle only with others, the concentrations that a
    well is reported with carry in what they carry out, in exact arithmetic and
    up to a small part of the flux into the cell. *)
Theorem C73_met (p : @problem b64) g f d ev sets sol id v :
  valid p → poses p g f → @data b64 b64_ok p → ordinary p → Z.of_nat (all_costs p) ≤ 2 ^ 50 →
  diagnose d ev g p f sets = Ok (OSol sol) → id ∈ map cs_id sets → 0 ≤ v < pb_cells p → regular (flow d p) v →
  met_within (slip (cost d p v)) (exactly p) d id (λ u, q_of (value_at (sol_concentration sol id) u)) v.
Proof. intros Hp HP HD OR Hk. exact (met p g f Hp HP HD OR Hk d ev sets sol id v). Qed.

(** What the wells of the other kind recover of a well is its rate, up to a small
    part of all fluxes. *)
Theorem C73_recovered (p : @problem b64) g f d ev sets sol id :
  valid p → poses p g f → @data b64 b64_ok p → ordinary p → Z.of_nat (all_costs p) ≤ 2 ^ 50 →
  data finite (exactly p) → conserves (exactly p) → (∀ v, ¬ flows (net_arcs p) v v) →
  diagnose d ev g p f sets = Ok (OSol sol) → (is_well d (pb_rates p) id → id ∈ map cs_id sets) →
  let all := seqZ 0 (pb_cells p) in let m := pb_rates (exactly p) in
  let rate := sum_left (omap (well_rate d m id) all) in
  let back := sum_left (map (λ v, nmul (cell_total (opposite d) m v) (q_of (value_at (sol_concentration sol id) v))) all) in
  nleb (distance rate back) (allowance (slip (all_costs p)) (exactly p) d) = true.
Proof. intros Hp HP HD OR Hk HF Hc Hs H. exact (b64_recovered p g f Hp HP HD OR Hk HF Hc Hs d ev sets sol H id). Qed.

(** The concentrations are near every solution of the equations, in the cells from
    which fluid leaves: their differences, weighted with the rates at which it
    does, add up to no more. *)
Theorem C73_error (p : @problem b64) g f d ev sets sol id (c : Z → Qc) :
  valid p → poses p g f → @data b64 b64_ok p → ordinary p → Z.of_nat (all_costs p) ≤ 2 ^ 50 →
  data finite (exactly p) → conserves (exactly p) → (∀ v, ¬ flows (net_arcs p) v v) →
  diagnose d ev g p f sets = Ok (OSol sol) → (is_well d (pb_rates p) id → id ∈ map cs_id sets) →
  tracer_solution (exactly p) d [id] (λ v, Fin (c v) : @num exact) →
  nleb (sum_left (map (λ v, nmul (cell_total (opposite d) (pb_rates (exactly p)) v) (distance (Fin (c v)) (q_of (value_at (sol_concentration sol id) v))))
    (seqZ 0 (pb_cells p)))) (allowance (slip (all_costs p)) (exactly p) d) = true.
Proof. intros Hp HP HD OR Hk HF Hc Hs H. exact (b64_error p g f Hp HP HD OR Hk HF Hc Hs d ev sets sol H id c). Qed.

(** In the same sense the concentrations of all wells add up to one. *)
Theorem C73_shares (p : @problem b64) g f d ev sets sol :
  valid p → poses p g f → @data b64 b64_ok p → ordinary p → Z.of_nat (all_costs p) ≤ 2 ^ 50 →
  data finite (exactly p) → conserves (exactly p) → (∀ v, ¬ flows (net_arcs p) v v) →
  diagnose d ev g p f sets = Ok (OSol sol) → (∀ id, is_well d (pb_rates p) id → id ∈ map cs_id sets) →
  nleb (sum_left (map (λ v, nmul (cell_total (opposite d) (pb_rates (exactly p)) v)
      (distance n1 (sum_left (map (λ id, q_of (value_at (sol_concentration sol id) v)) (map fst (pb_rates p)))))) (seqZ 0 (pb_cells p))))
    (nmul (nofZ (zlen (pb_rates p))) (allowance (slip (all_costs p)) (exactly p) d)) = true.
Proof. intros Hp HP HD OR Hk HF Hc Hs H. exact (b64_shares p g f Hp HP HD OR Hk HF Hc Hs d ev sets sol H). Qed.

(** ** Example *)
(** The network with a cycle of Props/Cyclic.v. *)
Lemma mx_int {N : Num} : data is_int mx_p.
Proof. split; intros; unfold mx_p, mx_conns, mx_rates in *; int_tac. Qed.
Lemma mx_ordinary : ordinary (@mx_p b64).
Proof.
  assert (∀ {A} (P : A → bool) l, forallb P l = true → ∀ x, x ∈ l → P x = true) as FB.
  { intros A P l H x Hx. rewrite forallb_forall in H. apply H. by apply elem_of_list_In. }
  split.
  - intros x Hx. apply xeqb_eq. revert x Hx. apply (FB _ (λ x : Z * Z * list (@num b64), xeqb (q_of (sum_left x.2)) (sum_left (map q_of x.2)))). vm_compute. reflexivity.
  - intros a Ha. apply sizedb_sized. revert a Ha. apply (FB _ (λ a : @arc exact, sizedb (-100) 100 a.2)). vm_compute. reflexivity.
  - intros d id c x. unfold well_rate. destruct (om_find id (pb_rates (exactly mx_p))) as [vals|] eqn:E; [|done].
    apply om_find_elem in E; [|repeat constructor]. destruct (om_find c vals) as [y|] eqn:E'; [|done].
    assert (om_wf vals) as W.
    { revert E. cbn [exactly pb_rates mx_p mx_rates map fst snd]. intros E.
      repeat (apply elem_of_cons in E as [E|E]; [injection E as -> ->; repeat constructor|]). by apply elem_of_nil in E. }
    apply om_find_elem in E'; [|done]. intros Hx. apply sizedb_sized.
    assert (forallb (λ e : cellset_id * @cellset_values exact, forallb (λ k : Z * @num exact,
      forallb (λ d, match @rate_part exact d k.2 with Some x => sizedb (-100) 100 x | None => true end) [Injection; Production]) e.2) (pb_rates (exactly mx_p)) = true) as H by (vm_compute; reflexivity).
    pose proof (FB _ _ _ (FB _ _ _ (FB _ _ _ H _ E) _ E') d) as H'. cbv beta in H'. cbn [snd] in H'. rewrite Hx in H'. apply H'. destruct d; set_solver.
  - intros x Hx. apply sizedb_sized. revert x Hx. apply (FB _ (sizedb (-100) 100)). vm_compute. reflexivity.
Qed.
Definition mx_q : @problem exact := exactly (@mx_p b64).
Definition finiteb (x : @num exact) : bool := match x with Fin _ => true | _ => false end.
Lemma finiteb_finite x : finiteb x = true → finite x.
Proof. destruct x; try done. by eexists. Qed.
Lemma mx_q_finite : data finite mx_q.
Proof.
  assert (∀ {A} (P : A → bool) l, forallb P l = true → ∀ x, x ∈ l → P x = true) as FB.
  { intros A P l H x Hx. rewrite forallb_forall in H. apply H. by apply elem_of_list_In. }
  split.
  - intros x w Hx Hw. apply finiteb_finite.
    assert (forallb (λ x : Z * Z * list (@num exact), forallb finiteb x.2) (pb_conns mx_q) = true) as H by (vm_compute; reflexivity).
    exact (FB _ _ _ (FB _ _ _ H x Hx) w Hw).
  - intros e k He Hk. apply finiteb_finite.
    assert (forallb (λ e : cellset_id * @cellset_values exact, forallb (λ k : Z * @num exact, finiteb k.2) e.2) (pb_rates mx_q) = true) as H by (vm_compute; reflexivity).
    exact (FB _ _ _ (FB _ _ _ H e He) k Hk).
  - intros x Hx. apply finiteb_finite. exact (FB _ finiteb (pb_pv mx_q) ltac:(vm_compute; reflexivity) x Hx).
Qed.
Lemma mx_q_conserves : conserves mx_q.
Proof.
  intros v Hv. cbn in Hv. assert (v = 0 ∨ v = 1 ∨ v = 2 ∨ v = 3 ∨ v = 4) as [->|[->|[->|[->| ->]]]] by lia; apply xeqb_eq; vm_compute; reflexivity.
Qed.
Lemma mx_b64_no_self v : ¬ flows (net_arcs (@mx_p b64)) v v.
Proof.
  unfold flows. assert (map fst (net_arcs (@mx_p b64)) = [(0, 2); (1, 3); (2, 3); (3, 2); (3, 4)]) as -> by (vm_compute; reflexivity).
  intros H. repeat (apply elem_of_cons in H as [[= H1 H2]|H]; [lia|]). by apply elem_of_nil in H.
Qed.
Lemma mx_b64_wells id : is_well Injection (pb_rates (@mx_p b64)) id → id ∈ map cs_id mx_sets.
Proof.
  intros (c & x & H). unfold well_rate in H.
  destruct (om_find id (pb_rates (@mx_p b64))) as [vals|] eqn:E; [|done].
  apply om_find_elem in E; [|repeat constructor].
  apply elem_of_cons in E as [[= -> ->]|E]; [left|]. apply elem_of_cons in E as [[= -> ->]|E]; [right; left|].
  apply elem_of_cons in E as [[= -> ->]|E]; [|by apply elem_of_nil in E]. exfalso.
  destruct (om_find c _) as [y|] eqn:Ey in H; [|done]. apply om_find_elem in Ey; [|repeat constructor].
  apply elem_of_list_singleton in Ey as [= -> ->]. by vm_compute in H.
Qed.
Lemma mx_q_solution : tracer_solution mx_q Injection ["I1"%string] (λ v, Fin (mx_c v) : @num exact).
Proof.
  split.
  - intros v. destruct v as [|[[]|[[]|[]|]|]|]; vm_compute; reflexivity.
  - intros v Hv. cbn in Hv. assert (v = 0 ∨ v = 1 ∨ v = 2 ∨ v = 3 ∨ v = 4) as [->|[->|[->|[->| ->]]]] by lia; apply xeqb_eq; vm_compute; reflexivity.
Qed.
(** The iteration ends.  What is reported of I1 in cell 4 is not its share, 1/2. *)
Example C73_runs : solves (@mx_run b64 Injection mx_sets) (λ sol, negb (neqb (q_of (value_at (sol_concentration sol "I1"%string) 4)) (frac 1 2))) = true.
Proof. vm_compute. reflexivity. Qed.
(** Weighted with the producer's rate, which is 2, it is off by less than 1e-8. *)
Example C73_ex : ∃ sol, @mx_run b64 Injection mx_sets = Ok (OSol sol) ∧
  nleb (sum_left (map (λ v, nmul (cell_total Production (pb_rates mx_q) v) (distance (Fin (mx_c v)) (q_of (value_at (sol_concentration sol "I1"%string) v)))) (seqZ 0 5)))
    (frac 1 100000000) = true.
Proof.
  destruct (solves_inv _ _ C73_runs) as (sol & H & _). exists sol. split; [exact H|].
  pose proof (C73_error (@mx_p b64) _ _ _ _ _ _ "I1"%string mx_c mx_valid mx_poses (data_impl _ _ _ int_b64 mx_int) mx_ordinary ltac:(vm_compute; discriminate)
    mx_q_finite mx_q_conserves mx_b64_no_self H (mx_b64_wells _) mx_q_solution) as E.
  eapply (o_trans exact exact_laws); [exact I|exact I|exact I|exact E|]. vm_compute. reflexivity.
Qed.
(** The equation of cell 3, on the cycle. *)
Example C73_ex_met : ∃ sol, @mx_run b64 Injection mx_sets = Ok (OSol sol) ∧
  met_within (slip 14) mx_q Injection "I1"%string (λ u, q_of (value_at (sol_concentration sol "I1"%string) u)) 3.
Proof.
  destruct (solves_inv _ _ C73_runs) as (sol & H & _). exists sol. split; [exact H|].
  assert (cost Injection (@mx_p b64) 3 = 14%nat) as <- by (vm_compute; reflexivity).
  refine (C73_met (@mx_p b64) _ _ Injection _ mx_sets _ "I1"%string 3 mx_valid mx_poses (data_impl _ _ _ int_b64 mx_int) mx_ordinary ltac:(vm_compute; discriminate) H _ _ _).
  - left.
  - split; [done|reflexivity].
  - left. apply mx_b64_no_self.
Qed.

Print Assumptions C73_met.
Print Assumptions C73_recovered.
Print Assumptions C73_error.
Print Assumptions C73_shares.
