(** Every valid problem can be posed through the API, and more about which
    computations succeed. *)
From Verif.Model Require Import Base Num OMap Containers Solution AssembledConnections Tarjan TracerTofSolver Toolbox.
From Verif.Spec Require Import ContainerSpec ToolboxSpec.
From Verif.Proofs Require Import Util OMapFacts ContainerProps AConn ToolboxState ToolboxRates SolverBase SolverRun SolverTop SolverGen ToolboxFlow ToolboxVal.
Open Scope Z_scope.

Section pose.
Context {N : Num}.

Lemma writes_elem p a : a ∈ writes_of p ↔ ∃ k x j w, pb_conns p !! k = Some x ∧ x.2 !! j = Some w ∧ a = (Z.of_nat k, Z.of_nat j, w).
Proof.
  unfold writes_of. rewrite elem_of_list_bind. split.
  - intros (l & Ha & (k & Hl)%elem_of_list_lookup). rewrite list_lookup_imap in Hl.
    destruct (pb_conns p !! k) as [x|] eqn:Ek; [|done]. cbn in Hl. injection Hl as <-. cbn in Ha.
    apply elem_of_list_lookup in Ha as (j & Ha). rewrite list_lookup_imap in Ha.
    destruct (x.2 !! j) as [w|] eqn:Ej; [|done]. cbn in Ha. injection Ha as <-. eauto 10.
  - intros (k & x & j & w & Hk & Hj & ->). exists (imap (λ j w, (Z.of_nat k, Z.of_nat j, w)) x.2). split.
    + cbn. apply elem_of_list_lookup. exists j. by rewrite list_lookup_imap, Hj.
    + apply elem_of_list_lookup. exists k. by rewrite list_lookup_imap, Hk.
Qed.

Lemma last_write_unique {K V} `{EqDecision K} (d : V) ws (k : K) v : (k, v) ∈ ws → (∀ v', (k, v') ∈ ws → v' = v) →
  last_write d ws k = v.
Proof.
  intros Hin Hu. unfold last_write. set (l := omap _ ws).
  assert (∀ x, x ∈ l → x = v) as Hl.
  { intros x ([k' y] & Hy & E)%elem_of_list_omap. cbn in E. destruct (decide (k' = k)) as [->|]; [|done]. injection E as <-. by apply Hu. }
  assert (v ∈ l) as Hv.
  { apply elem_of_list_omap. exists (k, v). split; [done|]. cbn. by rewrite decide_True. }
  destruct (last l) as [x|] eqn:E.
  - cbn. apply Hl. apply last_Some in E as [l' ->]. apply elem_of_app. right. left.
  - apply last_None in E. rewrite E in Hv. by apply elem_of_nil in Hv.
Qed.

Lemma posable p np : valid p → Forall (λ x : Z * Z * list num, zlen x.2 = np) (pb_conns p) →
  zlen (pb_conns p) * np < 2 ^ 64 →
  ∃ g f, cg_make (pb_cells p) (flatten_pairs (map fst (pb_conns p))) = Ok g ∧
    cv_writes (cv_make (zlen (pb_conns p)) np) (writes_of p) = Ok f ∧ poses p g f.
Proof.
  intros Hp Hnp Hsz. pose proof (va_cells _ Hp) as Hn.
  assert (∀ k x, pb_conns p !! k = Some x → zlen x.2 = np) as Hph.
  { intros k x Hk. apply (proj1 (Forall_forall _ _) Hnp). by eapply elem_of_list_lookup_2. }
  assert (0 ≤ np) as Hnp0.
  { destruct (pb_conns p) as [|x l] eqn:E; [by destruct (va_conns _ Hp)|]. rewrite <-(Hph O x) by done. unfold zlen; lia. }
  set (cells := flatten_pairs (map fst (pb_conns p))).
  assert (Forall (λ c, 0 ≤ c < pb_cells p) cells) as Hc.
  { apply Forall_forall. intros c ((a & b) & Hc & Hab)%elem_of_list_bind. apply elem_of_list_fmap in Hab as (x & E & Hx).
    pose proof (proj1 (Forall_forall _ _) (va_ends _ Hp) x Hx) as [H1 H2]. rewrite <-E in H1, H2. cbn in *.
    apply elem_of_cons in Hc as [->|Hc]; [done|]. apply elem_of_list_singleton in Hc as ->. done. }
  destruct (graph_outcome (pb_cells p) cells) as [H1 H2]; [lia|eapply Forall_impl; [exact Hc|]; cbn; lia|].
  destruct H2 as [g Hg].
  { rewrite H1. intros [Hodd|He].
    - assert (Z.Even (zlen cells)) as Hev.
      { unfold cells, flatten_pairs, zlen. clear. induction (pb_conns p) as [|x l [k Hk]]; [by exists 0|]. exists (k + 1). cbn [map mbind list_bind].
        rewrite app_length. cbn [length]. lia. }
      destruct Hodd as [a Ha], Hev as [b Hb]. lia.
    - apply Exists_exists in He as (c & Hin & Hb). by apply Hb, (proj1 (Forall_forall _ _) Hc). }
  destruct (graph_table (pb_cells p) (map fst (pb_conns p)) g) as (G1 & G2 & G3); [lia|done|].
  destruct (cv_store (zlen (pb_conns p)) np (writes_of p)) as (f & Hf & F1 & F2 & F3); [unfold zlen; lia|done|done| |].
  { apply Forall_forall. intros a (k & x & j & w & Hk & Hj & ->)%writes_elem.
    pose proof (lookup_lt_Some _ _ _ Hk). pose proof (lookup_lt_Some _ _ _ Hj). pose proof (Hph _ _ Hk) as Hl.
    unfold is_size2. cbn. lia. }
  exists g, f. split_and!; [done|done|]. split.
  - done.
  - rewrite G2. unfold zlen. by rewrite map_length.
  - done.
  - intros k x Hk. apply G3. by rewrite list_lookup_fmap, Hk.
  - intros k x Hk. rewrite F2. symmetry. by eapply Hph.
  - intros k x j w Hk Hj. pose proof (lookup_lt_Some _ _ _ Hk). pose proof (lookup_lt_Some _ _ _ Hj). pose proof (Hph _ _ Hk) as Hl.
    rewrite F3 by (unfold in_range, zlen in *; cbn; lia). f_equal. apply last_write_unique.
    + apply writes_elem. eauto 10.
    + intros w' (k' & x' & j' & w'' & Hk' & Hj' & E)%writes_elem. injection E as E1 E2 ->.
      apply Nat2Z.inj in E1 as <-. apply Nat2Z.inj in E2 as <-. congruence.
Qed.
End pose.

Section accept.
Context {N : Num} (p : problem) (g : cgraph) (f : cvalues) (Hp : valid p) (HP : poses p g f).
Notation m := (pb_rates p).

Lemma accepted_iff d ev sets : alloc_ok ev →
  diagnose d ev g p f sets = Ok (OExn RuntimeError) ↔ ¬ sets_ok d p sets.
Proof.
  intros Ha. destruct (diagnose_eq p g f Hp HP d) as (s & HS & E). rewrite E. unfold sets_ok.
  rewrite <-(start_sets_iff d m sets (va_rates _ Hp)).
  destruct (start_sets_ok _ _ sets) eqn:Es; [|by split]. split; [|done]. intros Hv. exfalso.
  unfold val in Hv. apply bind_Ok in Hv as (rg & Hg & Hv). destruct rg as [tof|e].
  2:{ unfold global_val, ws_ok, scc_ok in Hg. rewrite !(Ha 0%nat) in Hg. cbn [andb negb] in Hg. apply bind_Ok in Hg as (st & _ & Hg). done. }
  apply bind_Ok in Hv as (rl & Hl & Hv). destruct rl as [sol|e]; [done|]. cbn in Hv. injection Hv as ->.
  clear Hg Es. revert Hl. generalize 1%nat (sol_assign_global sol_new tof). induction sets as [|st sets IH]; intros k sol; [done|].
  cbn [val_loop]. intros Hl. apply bind_Ok in Hl as (r & Hr & Hl). destruct r as [tc|e]; [by eapply IH|]. injection Hl as ->.
  unfold local_val, ws_ok, scc_ok in Hr. rewrite !(Ha k) in Hr. cbn [andb negb] in Hr.
  destruct (existsb _ _) in Hr; [done|]. apply bind_Ok in Hr as (st' & _ & Hr). by destruct (existsb _ _) in Hr.
Qed.

Lemma more_sets d ev ev' sets sets' sol : diagnose d ev g p f sets = Ok (OSol sol) → alloc_ok ev' →
  (e_fuel ev ≤ e_fuel ev')%nat → sets_ok d p sets' → (∀ id, id ∈ map cs_id sets' → id ∈ map cs_id sets) →
  ∃ sol', diagnose d ev' g p f sets' = Ok (OSol sol').
Proof.
  destruct (diagnose_eq p g f Hp HP d) as (s & HS & E). rewrite !E. intros Hv Ha Hfuel Hs Hid.
  rewrite (proj2 (start_sets_iff d m sets' (va_rates _ Hp)) Hs).
  destruct (start_sets_ok _ _ sets); [|done].
  destruct (val_inv p d s ev sets sol Hv) as [Hg Hl].
  destruct (gval_inv p d s _ _ _ Hg) as (st & Hrun & _).
  eapply val_ok.
  - apply gval_ok; [apply Ha|]. rewrite (run_fuel _ _ _ _ _ _ _ _ Hfuel) by (by rewrite Hrun). exact Hrun.
  - intros j id Hin. apply Hid in Hin. destruct (proj1 (Hl id) Hin) as (k & Hk).
    pose proof Hk as Hk'. unfold local_val in Hk'.
    destruct (ws_ok _ 0); [|done]. destruct (scc_ok _ 5); [|done]. destruct (scc_ok _ 8); [|done]. cbn [negb] in Hk'.
    destruct (existsb (λ kv : Z * num, nltb kv.2 n0) _) eqn:Ex; [done|]. clear Hk'.
    destruct (lval_inv p d s _ _ _ _ _ Hk) as (st' & Hrun' & Hpos & _).
    eexists. eapply lval_ok; [done|apply Ha| |rewrite (run_fuel _ _ _ _ _ _ _ _ Hfuel) by (by rewrite Hrun'); exact Hrun'|exact Hpos].
    intros c x Hx. destruct (starts_ok p Hp d id) as (W & F & _). rewrite <-F in Hx. apply om_find_elem in Hx; [|done].
    destruct (nltb x n0) eqn:Ex2; [|done]. exfalso.
    assert (existsb (λ kv : Z * num, nltb kv.2 n0) (default [] (om_find id (by_id d (split_rates m)))) = true); [|congruence].
    apply existsb_exists. exists (c, x). split; [by apply elem_of_list_In|done].
Qed.
End accept.
