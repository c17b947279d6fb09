(** Property C74: which programs over the toolbox have defined behaviour,
    Toolbox.cpp and TracerTofSolver.cpp. *)
From Coq Require Import String.
From Coq.Floats Require Import SpecFloat.
From Verif.Model Require Import Base Num OMap Containers Solution Toolbox.
From Verif.Spec Require Import ContainerSpec ToolboxSpec DefinedSpec.
From Verif.Proofs Require Import Util OMapFacts ContainerProps OrdLaws B64Laws OppLaws Defined.
From Verif.Props Require Import Toolbox.
Open Scope Z_scope.

(** ** C74: no undefined behaviour whatever the numbers *)
(** Whatever the arithmetic and whatever the numbers, NaN and infinities included:
    a program that hands proper objects to the toolbox and never computes while a
    rate of that direction is outside the graph never leaves an array. *)
Theorem C74_defined {N : Num} g cs : graph_ok g → Forall call_ok cs → wells_within_always g cs →
  defined (tb_run (tb_new g) cs).
Proof. exact (program_defined g cs). Qed.

(** The condition on the rates is needed and is not checked: a computation that
    passes all checks has undefined behaviour exactly if it is violated. *)
Theorem C74_exactly {N : Num} g cs t os d ev sets : graph_ok g → Forall call_ok cs → alloc_ok ev →
  tb_run (tb_new g) cs = Ok (t, os) →
  tb_step t (compute d ev sets) = UB ↔ passes_checks d g cs sets ∧ ¬ wells_within d g (rates_after cs).
Proof. exact (compute_UB g cs t os d ev sets). Qed.

(** Proper objects are what the interface makes. *)
Theorem C74_graphs n cells g : 0 ≤ n < 2 ^ 31 → Forall (λ c, 0 ≤ c) cells → cg_make n cells = Ok g → graph_ok g.
Proof. exact (made_graph n cells g). Qed.
Theorem C74_fluxes {N : Num} nc np ws f : 0 ≤ nc → 0 ≤ np → nc * np < 2 ^ 64 → Forall is_size2 ws →
  cv_writes (cv_make nc np) ws = Ok f → flux_ok f.
Proof. exact (made_flux nc np ws f). Qed.

(** With doubles the assertions of TracerTofSolver.cpp:356-358 hold as well, as long
    as no total overflows. *)
Theorem C74_asserts_b64 (p : @problem b64) g f d ev sets : valid p → poses p g f → @data b64 b64_ok p →
  no_overflow d p → alloc_ok ev → diagnose d ev g p f sets ≠ AssertFail.
Proof. intros Hp HP HD. exact (asserts_hold b64_laws b64_opp_laws p g f Hp HP HD d ev sets). Qed.

(** Otherwise they need not: two finite fluxes of 2^1023 into a cell make its
    concentration NaN.  The next cell downstream hits an assertion. *)
Definition huge : @num b64 := nofZ (2 ^ 1023).
Definition over_p (ext : bool) : @problem b64 :=
  mkProblem 4 ([(0, 1, [huge]); (2, 1, [huge])] ++ (if ext then [(1, 3, [nofZ 1])] else [(3, 0, [nofZ 0])])) (map nofZ [1; 1; 1; 1])
    [("I"%string, [(0, huge); (2, huge)])].
Definition finite64 (x : @num b64) : Prop := nltb (nabs x) ninf = true.
Lemma over_valid ext : valid (over_p ext).
Proof. destruct ext; valid_tac. Qed.
Lemma over_data ext : @data b64 finite64 (over_p ext).
Proof.
  assert (forallb (λ x : Z * Z * list (@num b64), forallb (λ w, nltb (nabs w) ninf) x.2) (pb_conns (over_p ext)) = true) as H1
    by (destruct ext; vm_compute; reflexivity).
  assert (forallb (λ e : cellset_id * list (Z * @num b64), forallb (λ k, nltb (nabs k.2) ninf) e.2) (pb_rates (over_p ext)) = true) as H2
    by (destruct ext; vm_compute; reflexivity).
  assert (forallb (λ w : @num b64, nltb (nabs w) ninf) (pb_pv (over_p ext)) = true) as H3 by (destruct ext; vm_compute; reflexivity).
  rewrite forallb_forall in H1. rewrite forallb_forall in H2. rewrite forallb_forall in H3. split.
  - intros x w Hx Hw. specialize (H1 x (proj1 (elem_of_list_In _ _) Hx)). cbn beta in H1. rewrite forallb_forall in H1.
    exact (H1 w (proj1 (elem_of_list_In _ _) Hw)).
  - intros e k He Hk. specialize (H2 e (proj1 (elem_of_list_In _ _) He)). cbn beta in H2. rewrite forallb_forall in H2.
    exact (H2 k (proj1 (elem_of_list_In _ _) Hk)).
  - intros x Hx. exact (H3 x (proj1 (elem_of_list_In _ _) Hx)).
Qed.
Lemma over_pores ext : pores_ok (over_p ext).
Proof.
  assert (forallb (λ w : @num b64, nleb n0 w) (pb_pv (over_p ext)) = true) as H by (destruct ext; vm_compute; reflexivity).
  rewrite forallb_forall in H. intros x Hx. exact (H x (proj1 (elem_of_list_In _ _) Hx)).
Qed.
Lemma over_sets ext : sets_ok Injection (over_p ext) [cs_new "I"%string].
Proof.
  intros st Hst. apply elem_of_list_singleton in Hst as ->. split.
  - exists 0, huge. destruct ext; vm_compute; reflexivity.
  - intros c Hc. by apply elem_of_nil in Hc.
Qed.
Definition over_run (ext : bool) := diagnose Injection ex_ev (graph_for (over_p ext)) (over_p ext) (values_for (over_p ext) 1) [cs_new "I"%string].
Lemma over_poses ext : poses (over_p ext) (graph_for (over_p ext)) (values_for (over_p ext) 1).
Proof. destruct ext; (apply posed; [apply over_valid|forall_tac|reflexivity]). Qed.

Theorem C74_asserts_overflow_refuted : ∃ (p : @problem b64) g f ev sets, valid p ∧ poses p g f ∧ @data b64 finite64 p ∧
  pores_ok p ∧ alloc_ok ev ∧ sets_ok Injection p sets ∧ diagnose Injection ev g p f sets = AssertFail.
Proof.
  exists (over_p true), (graph_for (over_p true)), (values_for (over_p true) 1), ex_ev, [cs_new "I"%string].
  split_and!; [apply over_valid|apply over_poses|apply over_data|apply over_pores|apply ex_alloc|apply over_sets|].
  assert (match over_run true with AssertFail => true | _ => false end = true) as H by (vm_compute; reflexivity).
  unfold over_run in H. by destruct (diagnose _ _ _ _ _ _).
Qed.
(** Without a next cell the NaN is returned: C28 needs its hypothesis. *)
Theorem C74_nan_refuted : ∃ (p : @problem b64) g f ev sets sol id v c, valid p ∧ poses p g f ∧ @data b64 finite64 p ∧
  pores_ok p ∧ alloc_ok ev ∧ sets_ok Injection p sets ∧ diagnose Injection ev g p f sets = Ok (OSol sol) ∧ id ∈ map cs_id sets ∧
  om_find v (sol_concentration sol id) = Some c ∧ nleb c c = false.
Proof.
  assert (solves (over_run false) (λ sol, match om_find 1 (sol_concentration sol "I"%string) with
    | Some c => negb (nleb c c) | None => false end) = true) as (sol & H & E)%solves_inv by (vm_compute; reflexivity).
  destruct (om_find 1 (sol_concentration sol "I"%string)) as [c|] eqn:Ec; [|done].
  exists (over_p false), (graph_for (over_p false)), (values_for (over_p false) 1), ex_ev, [cs_new "I"%string], sol, "I"%string, 1, c.
  split_and!; [apply over_valid|apply over_poses|apply over_data|apply over_pores|apply ex_alloc|apply over_sets|exact H|left|exact Ec|].
  by apply negb_true_iff.
Qed.

(** A program with NaN fluxes, an infinite rate, negative pore volumes, a rejected
    input and a producer outside the graph; computing for producers is what it must
    not do. *)
Definition nan64 : @num b64 := nsub ninf ninf.
Definition df_g : cgraph := match cg_make 3 [0; 1; 1; 2] with Ok g => g | _ => mkCgraph 0 [] end.
Definition df_f : @cvalues b64 := match cv_writes (cv_make 2 2) [(0, 0, nan64); (0, 1, nofZ 1); (1, 0, nofZ 5)] with Ok f => f | _ => cv_make 0 0 end.
Definition df_m : @flux_map b64 := [("I"%string, [(0, ninf); (1, nan64)]); ("P"%string, [(7, nofZ (-1))])].
Definition df_cs : list (@tb_call b64) :=
  [CProduce ex_ev []; CPoreVolume [nofZ 1]; CPoreVolume [nofZ (-1); nan64; ninf]; CFlux df_f; CInflow df_m;
   CInject ex_ev [cs_new "I"%string]; CInject ex_ev [cs_new "P"%string]].
Lemma df_graph : graph_ok df_g.
Proof. apply (C74_graphs 3 [0; 1; 1; 2]); [lia| |reflexivity]. forall_tac. Qed.
Lemma df_rates : rates_ok df_m.
Proof. split; [repeat constructor|forall_tac; repeat constructor]. Qed.
Example C74_ex : graph_ok df_g ∧ Forall call_ok df_cs ∧ wells_within_always df_g df_cs.
Proof.
  split; [apply df_graph|]. split.
  - assert (flux_ok df_f) as Hf.
    { eapply (C74_fluxes 2 2 [(0, 0, nan64); (0, 1, nofZ 1); (1, 0, nofZ 5)]); [lia|lia|lia|repeat constructor; cbn; lia|reflexivity]. }
    repeat (apply Forall_cons; split); try apply Forall_nil_2; try done. apply df_rates.
  - assert (wells_within Injection df_g df_m) as Hw.
    { intros id c x Hx. assert (c = 0) as ->; [|change (0 ≤ 0 < 3); lia]. revert Hx. unfold well_rate, df_m. intros Hx. 
      destruct (om_find id _) as [vals|] eqn:E; [|done].
      apply om_find_elem in E; [|repeat constructor]. apply elem_of_cons in E as [[= -> ->]|[[= -> ->]|E%elem_of_nil]%elem_of_cons]; [| |done].
      - destruct (om_find c _) as [y|] eqn:Ey; [|done]. apply om_find_elem in Ey; [|repeat constructor].
        apply elem_of_cons in Ey as [[= -> ->]|[[= -> ->]|Ey%elem_of_nil]%elem_of_cons]; [done|vm_compute in Hx; done|done].
      - destruct (om_find c _) as [y|] eqn:Ey; [|done]. apply om_find_elem in Ey; [|repeat constructor].
        apply elem_of_cons in Ey as [[= -> ->]|Ey%elem_of_nil]; [vm_compute in Hx; done|done]. }
    intros cs1 d ev sets cs2 E. unfold df_cs in E.
    assert (∀ d, @wells_within b64 d df_g []) as H0 by (intros d0 id c x Hx; discriminate Hx).
    destruct cs1 as [|c1 cs1]; [by apply H0|]. injection E as <- E.
    do 4 (destruct cs1 as [|c1 cs1]; [by destruct d|]; injection E as <- E).
    destruct cs1 as [|c1 cs1]; [destruct d; [exact Hw|done]|]. injection E as <- E.
    destruct cs1 as [|c1 cs1]; [destruct d; [exact Hw|done]|]. injection E as <- E. by destruct cs1.
Qed.
(** And what becomes of it: an exception, a rejection, a solution, an exception. *)
Example C74_ex_run : match tb_run (tb_new df_g) df_cs with
  | Ok (_, [OExn LogicError; OExn LogicError; ODone; ODone; ODone; OSol _; OExn RuntimeError]) => true
  | _ => false end = true.
Proof. vm_compute. reflexivity. Qed.
(** The computation it must not do. *)
Example C74_ex_bad : match tb_run (tb_new df_g) (df_cs ++ [CProduce ex_ev []]) with UB => true | _ => false end = true.
Proof. vm_compute. reflexivity. Qed.

Print Assumptions C74_defined.
Print Assumptions C74_exactly.
Print Assumptions C74_graphs.
Print Assumptions C74_fluxes.
Print Assumptions C74_asserts_b64.
Print Assumptions C74_asserts_overflow_refuted.
Print Assumptions C74_nan_refuted.
