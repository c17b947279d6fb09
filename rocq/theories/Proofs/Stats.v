(** The statistics counters do not influence the results, unless they overflow. *)
From Verif.Model Require Import Base Num OMap Containers Solution AssembledConnections Tarjan TracerTofSolver Toolbox SolverStats.
From Verif.Spec Require Import GraphSpec SccSpec TarjanSpec FlowSpec SolverSpec ToolboxSpec StatsSpec.
From Verif.Proofs Require Import Util OMapFacts AConn GraphProps TarjanProps TarjanRev TarjanTop SolverBase SolverRun SolverTop SolverProps
  ToolboxState ToolboxRates ToolboxFlow.
Open Scope Z_scope.

Lemma int_sweeps_Z : Z.of_nat int_sweeps = 2 ^ 31 - 1.
Proof. unfold int_sweeps. rewrite Z2Nat.id; [done|]. apply Z.leb_le. reflexivity. Qed.
Global Opaque int_sweeps.

(** [x] is the outcome with counters, [y] the one without. *)
Definition sim {A B} (fuel : nat) (R : A → B → Prop) (x : res A) (y : res B) : Prop :=
  match y with
  | Ok b => ∃ a, x = Ok a ∧ R a b
  | Throw e => x = Throw e
  | UB => x = UB
  | AssertFail => x = AssertFail
  | NoFuel => x = NoFuel ∨ ((int_sweeps < fuel)%nat ∧ x = UB)
  end.
Lemma sim_bind {A B A' B'} fuel (R : A → B → Prop) (R' : A' → B' → Prop) x y f g :
  sim fuel R x y → (∀ a b, R a b → sim fuel R' (f a) (g b)) → sim fuel R' (x ≫= f) (y ≫= g).
Proof.
  intros H Hf. destruct y as [b|e| | |]; cbn in *.
  - destruct H as (a & -> & Ha). by apply Hf.
  - by rewrite H.
  - by rewrite H.
  - by rewrite H.
  - destruct H as [-> |[H ->]]; [by left|by right].
Qed.
Lemma sim_eq {A} fuel (x : res A) : sim fuel eq x x.
Proof. destruct x; cbn; eauto. Qed.
Lemma sim_same {A B A'} fuel (R : A → B → Prop) (x : res A') f g :
  (∀ a, sim fuel R (f a) (g a)) → sim fuel R (x ≫= f) (x ≫= g).
Proof. intros H. apply (sim_bind fuel eq); [apply sim_eq|]. by intros a ? <-. Qed.

Section stats.
Context {N : Num}.
Notation cfuel fuel := (Nat.min fuel int_sweeps).

Lemma loop_sim F s cells : ∀ fuel d dt dc (it : nat), (fuel + it = F)%nat → (it ≤ int_sweeps)%nat →
  sim F (λ a d', a.1 = d') (gs_loop_c fuel s cells d dt dc (Z.of_nat it)) (gs_loop (Nat.min fuel (int_sweeps - it)) s cells d dt dc).
Proof.
  induction fuel as [|fuel IH]; intros d dt dc it HF Hit.
  - cbn [gs_loop_c gs_loop Nat.min]. destruct (nltb gs_tof_tol dt || nltb gs_tracer_tol dc); cbn; [by left|eauto].
  - cbn [gs_loop_c]. unfold int_incr.
    destruct (int_sweeps - it)%nat as [|m] eqn:Em.
    + cbn [gs_loop Nat.min]. destruct (nltb gs_tof_tol dt || nltb gs_tracer_tol dc); [|cbn; eauto].
      assert (it = int_sweeps) as -> by lia. pose proof int_sweeps_Z as E. rewrite E, Z.ltb_irrefl. cbn. right. split; [lia|done].
    + cbn [Nat.min gs_loop]. destruct (nltb gs_tof_tol dt || nltb gs_tracer_tol dc); [|cbn; eauto].
      pose proof int_sweeps_Z as E. rewrite (proj2 (Z.ltb_lt _ _)) by lia. cbn [mbind res_bind].
      apply sim_same. intros [[d' dt'] dc']. replace (Z.of_nat it + 1) with (Z.of_nat (S it)) by lia.
      replace m with (int_sweeps - S it)%nat by lia. apply IH; lia.
Qed.
Lemma multi_sim fuel s d st cells : st_multi st < 2 ^ 31 - 1 →
  sim fuel (λ a d', a.1 = d' ∧ st_multi a.2 = st_multi st + 1) (solve_multi_cell_c fuel s (d, st) cells) (solve_multi_cell (cfuel fuel) s d cells).
Proof.
  intros Hm. unfold solve_multi_cell_c, solve_multi_cell, int_incr. rewrite (proj2 (Z.ltb_lt _ _)) by done. cbn [mbind res_bind].
  pose proof (loop_sim fuel s cells fuel d big_delta big_delta 0 ltac:(lia) ltac:(lia)) as H. rewrite Nat.sub_0_r in H. change (Z.of_nat 0) with 0 in H.
  destruct (gs_loop (cfuel fuel) s cells d big_delta big_delta) as [d'|e| | |]; cbn in H |- *.
  - destruct H as ([a j] & -> & E). cbn in *. subst. eexists. split; [done|]. done.
  - by rewrite H.
  - by rewrite H.
  - by rewrite H.
  - destruct H as [-> |[H ->]]; [by left|by right].
Qed.
Lemma comp_sim fuel s d st i : st_multi st < 2 ^ 31 - 1 →
  sim fuel (λ a d', a.1 = d' ∧ st_multi a.2 ≤ st_multi st + 1) (solve_comp_c fuel s (d, st) i) (solve_comp (cfuel fuel) s d i).
Proof.
  intros Hm. unfold solve_comp_c, solve_comp. cbn [fst snd]. apply sim_same. intros e. apply sim_same. intros b.
  destruct (e - b =? 1).
  - apply sim_same. intros c. destruct (solve_single_cell s d c) as [d'|?| | |]; cbn; try done; [|by left]. eexists. split; [done|]. cbn. split; [done|lia].
  - apply sim_same. intros cells. pose proof (multi_sim fuel s d st cells Hm) as H.
    destruct (solve_multi_cell _ _ _ _); try done. destruct H as (a1 & -> & E1 & E2). cbn. eexists. split; [done|]. split; [done|lia].
Qed.
Lemma to_int_lt z : to_int z < 2 ^ 31.
Proof. unfold to_int. pose proof (Z.mod_pos_bound (z + 2 ^ 31) (2 ^ 32) ltac:(lia)). lia. Qed.
Lemma solve_sim fuel s d : sim fuel (λ a d', a.1 = d') (solve_c fuel s (d, stats0)) (solve (cfuel fuel) s d).
Proof.
  unfold solve_c, solve. cbn [fst]. pose proof (to_int_lt (zlen (td_comps d) - 1)) as Hlt. set (m := to_int _) in *. clearbody m.
  unfold forZ. rewrite Z.sub_0_r.
  apply (sim_bind fuel (λ a d', a.1 = d')).
  - assert (∀ k : nat, ∀ lo (x : sdyn) d', 0 ≤ lo → lo + Z.of_nat k ≤ Z.max 0 m → x.1 = d' → st_multi x.2 ≤ lo →
      sim fuel (λ (a : sdyn) d', a.1 = d') (foldM (solve_comp_c fuel s) x (seqZ lo (Z.of_nat k))) (foldM (solve_comp (cfuel fuel) s) d' (seqZ lo (Z.of_nat k)))) as H.
    { induction k as [|k IH]; intros lo [d0 st] d' Hlo Hk Hx Hst; cbn [fst snd] in *; subst d'; [cbn; by eexists|].
      rewrite seqZ_cons by lia. cbn [foldM]. replace (Z.pred (Z.of_nat (S k))) with (Z.of_nat k) by lia.
      eapply sim_bind; [apply comp_sim; lia|]. intros a b [<- Ha]. apply IH; [lia|lia|done|lia]. }
    destruct (decide (0 ≤ m)) as [Hm|Hm].
    + rewrite <-(Z2Nat.id m) by done. apply H; [lia|lia|done|done].
    + rewrite seqZ_nil by lia. cbn. eauto.
  - intros a b <-. cbn. eauto.
Qed.

Lemma global_sim h fuel s d st : sim fuel (λ a b, a.1.1 = b.1 ∧ a.2 = b.2) (solve_global_c h fuel s (d, st)) (solve_global h (cfuel fuel) s d).
Proof.
  unfold solve_global_c, solve_global. cbn [fst snd]. apply sim_same. intros d1. apply sim_same. intros [d3 [e|]]; [cbn; eauto|].
  eapply sim_bind; [apply solve_sim|]. intros a b <-. cbn. eauto.
Qed.
Lemma local_sim h fuel s d st ss : sim fuel (λ a b, a.1.1 = b.1 ∧ a.2 = b.2) (solve_local_c h fuel s (d, st) ss) (solve_local h (cfuel fuel) s d ss).
Proof.
  unfold solve_local_c, solve_local. cbn [fst snd]. apply sim_same. intros d1. apply sim_same. intros [d3 [e|]]; [cbn; eauto|].
  apply sim_same. intros [l [e|]]; [cbn; eauto|]. eapply sim_bind; [apply solve_sim|]. intros a b <-. cbv zeta.
  do 4 (apply sim_same; intros ?). cbn. eauto.
Qed.
Lemma diag_loop_sim ev s : ∀ sets k x d by_id sol, x.1 = d →
  sim (e_fuel ev) eq (diag_loop_c ev k s x by_id sol sets) (diag_loop (counted_env ev) k s d by_id sol sets).
Proof.
  induction sets as [|st sets IH]; intros k [d0 st0] d by_id sol Hx; cbn [fst] in *; subst d0; [cbn; eauto|].
  cbn [diag_loop_c diag_loop counted_env e_heap e_fuel]. cbv zeta. eapply sim_bind; [apply local_sim|].
  intros [x [[tof conc]|e]] [d' r] [E1 E2]; cbn [fst snd] in *; subst; [|cbn; eauto]. by apply IH.
Qed.
Lemma run_diag_sim ev g rev pv only by_id sets :
  sim (e_fuel ev) eq (run_diag_c ev g rev pv only by_id sets) (run_diag (counted_env ev) g rev pv only by_id sets).
Proof.
  unfold run_diag_c, run_diag. apply sim_same. intros [s d]. cbn [counted_env e_heap e_fuel]. eapply sim_bind; [apply global_sim|].
  intros [x [tof|e]] [d' r] [E1 E2]; cbn [fst snd] in *; subst; [|cbn; eauto]. by apply diag_loop_sim.
Qed.
Definition call_fuel (c : tb_call) : nat := match c with CInject ev _ | CProduce ev _ => e_fuel ev | _ => 0%nat end.
Lemma step_sim t c : sim (call_fuel c) eq (tb_step_c t c) (tb_step t (counted_call c)).
Proof.
  destruct c as [pv|f|m|ev sets|ev sets]; cbn [tb_step_c counted_call call_fuel]; try apply sim_eq.
  - cbn [tb_step]. eapply (sim_bind _ eq); [|intros a ? <-; cbn; eauto]. unfold tb_inj_diag_c, tb_inj_diag.
    destruct (_ || _); [apply sim_eq|]. destruct (negb _); [apply sim_eq|]. apply sim_same. intros [t1 [e|]]; [apply sim_eq|].
    eapply sim_bind; [apply run_diag_sim|]. intros a ? <-. apply sim_eq.
  - cbn [tb_step]. eapply (sim_bind _ eq); [|intros a ? <-; cbn; eauto]. unfold tb_prod_diag_c, tb_prod_diag.
    destruct (_ || _); [apply sim_eq|]. destruct (negb _); [apply sim_eq|]. apply sim_same. intros [t1 [e|]]; [apply sim_eq|].
    eapply sim_bind; [apply run_diag_sim|]. intros a ? <-. apply sim_eq.
Qed.
Lemma sim_weaken {A B} F F' (R : A → B → Prop) x y : (F ≤ F')%nat → sim F R x y → sim F' R x y.
Proof. intros H. destruct y; cbn; try done. intros [Hs|[Hs Ht]]; [by left|right; split; [lia|done]]. Qed.
Lemma run_sim F cs : Forall (λ c, (call_fuel c ≤ F)%nat) cs → ∀ t, sim F eq (tb_run_c t cs) (tb_run t (counted_call <$> cs)).
Proof.
  induction 1 as [|c cs Hc _ IH]; intros t; [cbn; eauto|]. cbn [tb_run_c tb_run fmap list_fmap].
  eapply sim_bind; [eapply sim_weaken; [exact Hc|apply step_sim]|]. intros a ? <-.
  eapply sim_bind; [apply IH|]. intros b ? <-. apply sim_eq.
Qed.

(** All budgets within the range of int: the same outcome. *)
Lemma counted_small c : (call_fuel c ≤ int_sweeps)%nat → counted_call c = c.
Proof. destruct c as [| | |[h f] sets|[h f] sets]; cbn; intros H; try done; unfold counted_env; cbn; by rewrite Nat.min_l. Qed.
Lemma sim_small {A} F (x y : res A) : (F ≤ int_sweeps)%nat → sim F eq x y → x = y.
Proof. intros HF. destruct y as [b|?| | |]; cbn; try done; [by intros (a & -> & ->)|]. intros [H|[H _]]; [done|lia]. Qed.
Theorem same_run cs t : Forall (λ c, (call_fuel c ≤ int_sweeps)%nat) cs → tb_run_c t cs = tb_run t cs.
Proof.
  intros H. pose proof (run_sim int_sweeps cs H t) as Hs. apply sim_small in Hs; [|done]. rewrite Hs. f_equal.
  clear Hs. induction H as [|c cs Hc _ IH]; [done|]. rewrite fmap_cons, counted_small by done. by f_equal.
Qed.
Theorem enough_run cs t r : tb_run t (counted_call <$> cs) = Ok r → tb_run_c t cs = Ok r.
Proof.
  intros H. assert (∃ F, Forall (λ c, (call_fuel c ≤ F)%nat) cs) as [F HF].
  { clear. induction cs as [|c cs [F IH]]; [exists 0%nat; constructor|]. exists (call_fuel c + F)%nat. constructor; [lia|].
    eapply Forall_impl; [exact IH|]. cbn. intros; lia. }
  pose proof (run_sim F cs HF t) as Hs. rewrite H in Hs. destruct Hs as (a & -> & ->). done.
Qed.

End stats.

(** ** Loops that cannot run out of sweeps *)
Lemma nf_bind {A B} (x : res A) (f : A → res B) : x ≠ NoFuel → (∀ a, x = Ok a → f a ≠ NoFuel) → (x ≫= f) ≠ NoFuel.
Proof. intros H1 H2. destruct x; cbn; try done. by apply H2. Qed.
Lemma nf_foldM {A S} (f : S → A → res S) l s : (∀ s x, f s x ≠ NoFuel) → foldM f s l ≠ NoFuel.
Proof. intros H. revert s. induction l as [|x l IH]; intros s; cbn [foldM]; [done|]. apply nf_bind; [apply H|]. intros; apply IH. Qed.
Lemma nf_zget {A} (l : list A) i : zget l i ≠ NoFuel.
Proof. unfold zget. destruct (i <? 0); [done|]. by destruct (l !! _). Qed.
Lemma nf_zset {A} (l : list A) i x : zset l i x ≠ NoFuel.
Proof. unfold zset. destruct (i <? 0); [done|]. by destruct (l !! _). Qed.
Lemma nf_zslice {A} (l : list A) i j : zslice l i j ≠ NoFuel.
Proof. unfold zslice. by destruct (_ && _). Qed.
Lemma nf_assert b : assert_ b ≠ NoFuel.
Proof. by destruct b. Qed.
Ltac nf := repeat first
  [ apply nf_zget | apply nf_zset | apply nf_zslice | apply nf_assert
  | match goal with |- (_ ≫= _) ≠ _ => apply nf_bind; [|intros ? _] end | match goal with |- foldM _ _ _ ≠ _ => apply nf_foldM; intros end | discriminate
  | match goal with |- (let '(_, _) := ?x in _) ≠ _ => destruct x end
  | match goal with |- (if ?b then _ else _) ≠ _ => destruct b end
  | progress cbn beta zeta ].

Section overflow.
Context {N : Num}.

Lemma nf_neighbourhood g c : ac_cell_neighbourhood g c ≠ NoFuel.
Proof. unfold ac_cell_neighbourhood. nf. Qed.
Lemma nf_single s d c : solve_single_cell s d c ≠ NoFuel.
Proof. unfold solve_single_cell. repeat (nf; try apply nf_neighbourhood; unfold upwind_step). Qed.
Lemma nf_sweep s cells d : gs_sweep s cells d ≠ NoFuel.
Proof. unfold gs_sweep. apply nf_foldM. intros [[d1 dt] dc] c. unfold gs_cell. repeat (nf; try apply nf_single). Qed.
Lemma nf_loop s cells : ∀ fuel d dt dc (it : nat), (int_sweeps < fuel + it)%nat → (it ≤ int_sweeps)%nat →
  gs_loop_c fuel s cells d dt dc (Z.of_nat it) ≠ NoFuel.
Proof.
  pose proof int_sweeps_Z as E.
  induction fuel as [|fuel IH]; intros d dt dc it H1 H2; cbn [gs_loop_c]; [lia|].
  destruct (nltb gs_tof_tol dt || nltb gs_tracer_tol dc); [|done]. unfold int_incr.
  destruct (Z.ltb_spec (Z.of_nat it) (2 ^ 31 - 1)) as [Hlt|Hge]; [|done]. cbn [mbind res_bind].
  apply nf_bind; [apply nf_sweep|]. intros [[d' dt'] dc'] _. replace (Z.of_nat it + 1) with (Z.of_nat (S it)) by lia. apply IH; lia.
Qed.
Lemma nf_solve fuel s x : (int_sweeps < fuel)%nat → solve_c fuel s x ≠ NoFuel.
Proof.
  intros Hf. unfold solve_c, forZ. apply nf_bind; [|done]. apply nf_foldM. intros [d st] i. unfold solve_comp_c. cbn [fst snd].
  apply nf_bind; [apply nf_zget|]. intros e _. apply nf_bind; [apply nf_zget|]. intros b _. destruct (e - b =? 1).
  - apply nf_bind; [apply nf_zget|]. intros c _. apply nf_bind; [apply nf_single|done].
  - apply nf_bind; [apply nf_zslice|]. intros cells _. unfold solve_multi_cell_c.
    apply nf_bind; [unfold int_incr; by destruct (_ <? _)|]. intros m _. cbv zeta. apply nf_bind; [|done].
    apply (nf_loop s cells fuel d big_delta big_delta 0); lia.
Qed.
Lemma nf_collect d cells : ∀ t c, collect_local d cells t c ≠ NoFuel.
Proof.
  induction cells as [|v cells IH]; intros t c; cbn [collect_local]; [done|].
  apply nf_bind; [apply nf_zget|]. intros x _. apply nf_bind; [apply nf_zget|]. intros y _. destruct (nleb y n0); [done|]. apply IH.
Qed.
Lemma nf_local_source ss : ∀ l, setup_local_source l ss ≠ NoFuel.
Proof.
  induction ss as [|[c v] ss IH]; intros l; cbn [setup_local_source]; [done|]. destruct (nltb v n0); [done|].
  apply nf_bind; [apply nf_zset|]. intros; apply IH.
Qed.

(** ** The order of the components *)
Context (n : Z) (A : list arc) (pv : list num) (src : cellset_values) (s : tts) (HS : solver_of n A pv src s).
Notation ia := (ac_start (ts_g s)).
Notation ja := (ac_neigh (ts_g s)).
Definition order_of (d : tdyn) (comps : list (list Z)) : tdyn :=
  mkTdyn (td_local d) (td_start d) (concat comps) (tab (zlen comps + 1) (coff comps)) (td_tof d) (td_tracer d).
Lemma local_order h d ss : (∀ c, c ∈ map fst ss → 0 ≤ c < n) →
  compute_local_ordering h s d ss =
    if negb (ws_ok h 0) then AssertFail else if negb (scc_ok h 5) then UB
    else if negb (scc_ok h 8) then Ok (d, Some RuntimeError)
    else Ok (order_of d (lcomps n s (map fst ss)), None).
Proof.
  intros Hr. pose proof (gwf n A pv src s HS) as Hwf. pose proof (so_pvlen _ _ _ _ _ HS) as Hpv. pose proof (so_n _ _ _ _ _ HS) as Hn.
  unfold compute_local_ordering. rewrite (so_pv _ _ _ _ _ HS), Hpv.
  pose proof (wf_len _ _ _ Hwf) as Hlen.
  rewrite (proj2 (Z.eqb_eq (zlen ia) (n + 1))) by (unfold zlen; lia). cbn [assert_ mbind res_bind].
  destruct (ws_ok h 0) eqn:Hws; [|done]. cbn [assert_ negb mbind res_bind].
  destruct (scc_ok h 5) eqn:H5.
  2:{ unfold tarjan_reachable_sccs. cbn [w_nvert new_ws]. rewrite Z.leb_refl, H5. done. }
  destruct (reachable_run_top h n ia ja n (new_ws h 0 n) (map fst ss) Hwf (new_ws_sized h 0 n) ltac:(lia) Hr H5)
    as (w' & r & Er & Hres & _).
  rewrite Er. cbn [mbind res_bind snd negb].
  destruct (obtained_holds r) as [cs Hcs].
  { eapply ob_reach; [exact Hwf|exact (new_ws_sized h 0 n)|lia|exact Hr|exact Er]. }
  assert (cs = comps_of n ia ja (map fst ss)) as -> by (eapply result_unique; [by apply holds_result|done]).
  destruct (scc_ok h 8) eqn:H8.
  2:{ rewrite (reverse_fail h r _ Hcs H8). done. }
  destruct (reverse_ok h r _ Hcs H8) as (r' & -> & Hr'). cbn [mbind res_bind fst snd negb].
  fold (lcomps n s (map fst ss)) in Hr'. set (comps := lcomps n s (map fst ss)) in *.
  pose proof (lcomps_ordered n A pv src s HS (map fst ss) Hr) as Hord. fold comps in Hord.
  destruct (ordered_len n A pv src s HS (λ v, ∃ r, r ∈ map fst ss ∧ leads A r v) comps) as (L1 & L2 & L3); [|done|].
  { intros v (r0 & Hr0 & Hl). apply (leads_range n A r0 v (so_arcs _ _ _ _ _ HS)); [done|by apply Hr]. }
  match goal with |- context [extract_components n r' ?a ?b] =>
    destruct (extract_ok n r' comps a b Hn (holds_result _ _ Hr') (oc_ne _ _ _ Hord) L1)
    as (sq & -> & Hsq & Htk) end.
  cbn [mbind res_bind fst snd].
  assert (0 ≤ zlen comps) by (unfold zlen; lia).
  rewrite zback_tab by lia. cbn [mbind res_bind]. rewrite coff_all, zlen_nat, seq_take_resize by done. done.
Qed.
Lemma global_order h d :
  compute_ordering h s d =
    if negb (ws_ok h 0 && scc_ok h 2) then UB
    else if negb (scc_ok h 8) then Ok (d, Some RuntimeError)
    else Ok (order_of d (gcomps n s), None).
Proof.
  pose proof (gwf n A pv src s HS) as Hwf. pose proof (so_pvlen _ _ _ _ _ HS) as Hpv. pose proof (so_n _ _ _ _ _ HS) as Hn.
  unfold compute_ordering. rewrite (so_pv _ _ _ _ _ HS), Hpv.
  pose proof (wf_len _ _ _ Hwf) as Hlen.
  rewrite (proj2 (Z.eqb_eq (zlen ia) (n + 1))) by (unfold zlen; lia). cbn [assert_ mbind res_bind].
  destruct (ws_ok h 0 && scc_ok h 2) eqn:Hok.
  2:{ unfold tarjan. rewrite Hok. done. }
  apply andb_true_iff in Hok as [Hws H2]. cbn [negb].
  destruct (tarjan_run h n ia ja Hwf Hws H2) as (r & Er & Hres).
  rewrite Er. cbn [mbind res_bind snd negb].
  destruct (obtained_holds r) as [cs Hcs].
  { eapply ob_tarjan; [exact Hwf|exact Er]. }
  assert (cs = comps_of n ia ja (seqZ 0 n)) as -> by (eapply result_unique; [by apply holds_result|done]).
  destruct (scc_ok h 8) eqn:H8.
  2:{ rewrite (reverse_fail h r _ Hcs H8). done. }
  destruct (reverse_ok h r _ Hcs H8) as (r' & -> & Hr'). cbn [mbind res_bind fst snd negb].
  fold (gcomps n s) in Hr'. set (comps := gcomps n s) in *.
  pose proof (gcomps_ordered n A pv src s HS) as Hord. fold comps in Hord.
  destruct (ordered_len n A pv src s HS (λ v, 0 ≤ v < n) comps) as (L1 & L2 & L3); [done|done|].
  assert (zlen (concat comps) = n) as Hall.
  { assert (concat comps ≡ₚ seqZ 0 n) as HP.
    { apply NoDup_Permutation; [apply Hord|apply NoDup_seqZ|]. intros v. rewrite (oc_cover _ _ _ Hord), elem_of_seqZ. lia. }
    unfold zlen. rewrite HP, seqZ_length. lia. }
  match goal with |- context [extract_components n r' ?a ?b] =>
    destruct (extract_ok n r' comps a b Hn (holds_result _ _ Hr') (oc_ne _ _ _ Hord) L1)
    as (sq & -> & Hsq & Htk) end.
  cbn [mbind res_bind fst snd].
  assert (0 ≤ zlen comps) by (unfold zlen; lia).
  rewrite zback_tab by lia. cbn [mbind res_bind]. rewrite coff_all, Hall.
  rewrite to_int_small by lia. rewrite Z.eqb_refl. cbn [assert_ mbind res_bind].
  assert (sq = concat comps) as ->; [|done].
  rewrite <-Htk. symmetry. apply take_ge. unfold zlen in *. lia.
Qed.

Lemma nf_global h fuel x : (int_sweeps < fuel)%nat → solve_global_c h fuel s x ≠ NoFuel.
Proof.
  intros Hf. unfold solve_global_c. cbv zeta. apply nf_bind.
  - unfold setup_start_array_from_source, forZ. nf.
  - intros d1 _. rewrite global_order. apply nf_bind; [destruct (negb _); [done|]; by destruct (negb _)|].
    intros [d3 [e|]] _; [done|]. apply nf_bind; [by apply nf_solve|done].
Qed.
Lemma nf_local h fuel x ss : (∀ c, c ∈ map fst ss → 0 ≤ c < n) → (int_sweeps < fuel)%nat → solve_local_c h fuel s x ss ≠ NoFuel.
Proof.
  intros Hr Hf. unfold solve_local_c. cbv zeta. apply nf_bind; [unfold setup_start_array; nf|]. intros d1 _.
  rewrite local_order by done. apply nf_bind; [destruct (negb _); [done|]; destruct (negb _); [done|]; by destruct (negb _)|].
  intros [d2 [e|]] _; [done|]. apply nf_bind; [apply nf_local_source|]. intros [l [e|]] _; [done|].
  apply nf_bind; [by apply nf_solve|]. intros x3 _. apply nf_bind; [unfold cleanup_local_source; nf|]. intros l' _.
  apply nf_bind; [unfold zback; apply nf_zget|]. intros m _. apply nf_bind; [apply nf_zslice|]. intros cells _.
  apply nf_bind; [apply nf_collect|done].
Qed.
End overflow.

Section toolbox.
Context {N : Num} (p : problem) (g : cgraph) (f : cvalues) (Hp : valid p) (HP : poses p g f).
Notation n := (pb_cells p).
Notation m := (pb_rates p).
Notation src d := (only d (split_rates m)).

Lemma nf_diag_loop d s (HS : solver_of n (flow d p) (pb_pv p) (src d) s) ev k x sol sets : (int_sweeps < e_fuel ev)%nat →
  (∀ st, st ∈ sets → is_Some (om_find (cs_id st) (by_id d (split_rates m)))) →
  diag_loop_c ev k s x (by_id d (split_rates m)) sol sets ≠ NoFuel.
Proof.
  intros Hf. revert k x sol. induction sets as [|st sets IH]; intros k x sol Hs; [done|].
  cbn [diag_loop_c]. cbv zeta. destruct (Hs st) as [y Hy]; [left|].
  rewrite (insert_found _ [] y) by done.
  match goal with |- context [solve_local_c _ _ _ _ ?t] => assert (t = y) as -> by (transitivity (default [] (Some y)); [rewrite <-Hy|]; done) end.
  destruct (starts_ok p Hp d (cs_id st)) as (_ & _ & _ & Hr). rewrite Hy in Hr. cbn in Hr.
  apply nf_bind; [by eapply nf_local|]. intros [x' [[tof conc]|e]] _; [|done]. apply IH. intros; apply Hs; by right.
Qed.
Lemma nf_run_diag d gr s d0 : built_of g f = Ok (inl gr) → tts_make (along d gr) (against d gr) (pb_pv p) (src d) = Ok (s, d0) →
  solver_of n (flow d p) (pb_pv p) (src d) s → ∀ ev sets, (int_sweeps < e_fuel ev)%nat →
  start_sets_ok (by_id d (split_rates m)) (src d) sets = true →
  run_diag_c ev (along d gr) (against d gr) (pb_pv p) (src d) (by_id d (split_rates m)) sets ≠ NoFuel.
Proof.
  intros _ Em HS ev sets Hf Hst. unfold run_diag_c. rewrite Em. cbn [mbind res_bind].
  apply nf_bind; [by eapply nf_global|]. intros [x' [tof|e]] _; [|done]. apply nf_diag_loop; [done|done|].
  by eapply start_sets_found.
Qed.
Lemma nf_diagnose d ev sets : (int_sweeps < e_fuel ev)%nat → diagnose_c d ev g p f sets ≠ NoFuel.
Proof.
  intros Hf. unfold diagnose_c.
  assert (∃ t os, tb_run (tb_new g) [CPoreVolume (pb_pv p); CFlux f; CInflow m] = Ok (t, os)) as (t & os & Et).
  { cbn. unfold tb_assign_pv, tb_assign_flux. cbn [tb_new tb_g].
    rewrite (proj2 (Z.eqb_eq _ _)) by (by rewrite (va_pv _ Hp), (po_cells _ _ _ HP)). cbn.
    rewrite (proj2 (Z.eqb_eq _ _)) by (by rewrite (po_fconns _ _ _ HP), (po_conns _ _ _ HP)). cbn. eauto. }
  change (tb_run_c (tb_new g) [CPoreVolume (pb_pv p); CFlux f; CInflow m]) with (tb_run (tb_new g) [CPoreVolume (pb_pv p); CFlux f; CInflow m]).
  pose proof (run_tracks _ _ _ _ _ _ _ _ (new_tracks g) Et) as Ht. rewrite !upd_none in Ht.
  assert (last (omap (accepted_pv g) [CPoreVolume (pb_pv p); CFlux f; CInflow m]) = Some (pb_pv p)) as E1.
  { cbn. rewrite decide_True; [done|]. by rewrite (va_pv _ Hp), (po_cells _ _ _ HP). }
  assert (last (omap (accepted_flux g) [CPoreVolume (pb_pv p); CFlux f; CInflow m]) = Some f) as E2.
  { cbn. rewrite decide_True; [done|]. by rewrite (po_fconns _ _ _ HP), (po_conns _ _ _ HP). }
  rewrite E1, E2 in Ht. change (last (omap accepted_rates [CPoreVolume (pb_pv p); CFlux f; CInflow m])) with (Some m) in Ht.
  cbn [default id] in Ht. rewrite Et. cbn [mbind res_bind fst]. apply nf_bind; [|done].
  destruct Ht as [Hc Eg Epv Ef Er]. cbn [default id] in Epv, Ef, Er.
  destruct (solver_exists p g f Hp HP d) as (gr & s & d0 & Eb & Em & HS & Hd0).
  pose proof Eb as Eb'. rewrite <-Eg, <-Ef in Eb'.
  destruct (get_built t gr Hc Eb') as (t1 & Et1 & (Eg1 & Epv1 & Ef1 & Er1) & Hdn & Hup & _).
  pose proof (nf_run_diag d gr s d0 Eb Em HS ev sets Hf) as H. rewrite <-Er, Er1 in H. rewrite <-Epv, Epv1 in H.
  pose proof (f_equal r_in Er1) as Ei; pose proof (f_equal r_out Er1) as Eo;
      pose proof (f_equal r_inj Er1) as Einj; pose proof (f_equal r_prod Er1) as Eprod; cbn in Ei, Eo, Einj, Eprod.
  destruct d; cbn [compute tb_step_c along against only by_id rates_of r_in r_out r_inj r_prod] in *; (apply nf_bind; [|done]);
    unfold tb_inj_diag_c, tb_prod_diag_c; rewrite ?Einj, ?Ei, ?Eprod, ?Eo; (destruct (_ || _); [done|]);
    match goal with |- context [start_sets_ok ?a ?b sets] => destruct (start_sets_ok a b sets) eqn:Hs; cbn [negb]; [|done] end;
    rewrite Et1; cbn [mbind res_bind]; (apply nf_bind; [|done]); rewrite Hdn, Hup; by apply H.
Qed.

(** The outcome with counters. *)
Theorem diagnose_counted d ev sets :
  diagnose_c d ev g p f sets =
  match diagnose d (counted_env ev) g p f sets with
  | NoFuel => if decide (e_fuel ev ≤ int_sweeps)%nat then NoFuel else UB
  | x => x
  end.
Proof.
  assert (sim (e_fuel ev) eq (diagnose_c d ev g p f sets) (diagnose d (counted_env ev) g p f sets)) as H.
  { unfold diagnose_c, diagnose, returns.
    change (tb_run_c (tb_new g) [CPoreVolume (pb_pv p); CFlux f; CInflow m]) with (tb_run (tb_new g) [CPoreVolume (pb_pv p); CFlux f; CInflow m]).
    apply sim_same. intros [t os]. cbn [fst]. eapply (sim_bind _ eq).
    - replace (compute d (counted_env ev) sets) with (counted_call (compute d ev sets)) by (by destruct d).
      replace (e_fuel ev) with (call_fuel (compute d ev sets)) by (by destruct d). apply step_sim.
    - intros a ? <-. apply sim_eq. }
  destruct (diagnose d (counted_env ev) g p f sets); unfold sim in H; try done; [by destruct H as (? & -> & ->)|].
  destruct H as [H|[H1 H2]].
  - destruct (decide _) as [Hd|Hd]; [done|]. exfalso. by eapply nf_diagnose; [|done]; lia.
  - by rewrite decide_False by lia.
Qed.
End toolbox.

(** ** More sweeps do no harm *)
Definition more {A} (x y : res A) : Prop := y = NoFuel ∨ x = y.
Lemma more_bind {A B} (x y : res A) (f g : A → res B) : more x y → (∀ a, more (f a) (g a)) → more (x ≫= f) (y ≫= g).
Proof.
  intros [-> | ->] H; [by left|]. destruct y as [a|e| | |]; cbn; [apply H|..]; by right.
Qed.
Lemma more_refl {A} (x : res A) : more x x.
Proof. by right. Qed.
Lemma more_foldM {A S} (f g : S → A → res S) l s : (∀ s x, more (f s x) (g s x)) → more (foldM f s l) (foldM g s l).
Proof. intros H. revert s. induction l as [|x l IH]; intros s; cbn [foldM]; [apply more_refl|]. apply more_bind; [apply H|]. intros; apply IH. Qed.
Section more.
Context {N : Num}.
Lemma more_loop s cells : ∀ k k' d dt dc, (k ≤ k')%nat → more (gs_loop k' s cells d dt dc) (gs_loop k s cells d dt dc).
Proof.
  induction k as [|k IH]; intros k' d dt dc Hk.
  - destruct k'; cbn [gs_loop]; destruct (_ || _); by (left + right).
  - destruct k' as [|k']; [lia|]. cbn [gs_loop]. destruct (_ || _); [|by right].
    apply more_bind; [apply more_refl|]. intros [[d' dt'] dc']. apply IH. lia.
Qed.
Ltac mr := first [apply more_refl | apply more_bind; [apply more_refl|intros ?]].
Lemma more_solve k k' s d : (k ≤ k')%nat → more (solve k' s d) (solve k s d).
Proof.
  intros Hk. unfold solve, forZ. apply more_bind; [|intros; apply more_refl]. apply more_foldM. intros d1 i. unfold solve_comp.
  mr. mr. destruct (_ =? 1); [mr|]. mr. by apply more_loop.
Qed.
Lemma more_global h k k' s d : (k ≤ k')%nat → more (solve_global h k' s d) (solve_global h k s d).
Proof.
  intros Hk. unfold solve_global. cbv zeta. mr. mr. destruct a0 as [d3 [e|]]; [mr|]. apply more_bind; [by apply more_solve|]. intros; mr.
Qed.
Lemma more_local h k k' s d ss : (k ≤ k')%nat → more (solve_local h k' s d ss) (solve_local h k s d ss).
Proof.
  intros Hk. unfold solve_local. cbv zeta. mr. mr. destruct a0 as [d3 [e|]]; [mr|]. mr. destruct a0 as [l [e|]]; [mr|].
  apply more_bind; [by apply more_solve|]. intros; mr.
Qed.
Lemma more_diag_loop h k k' s : (k ≤ k')%nat → ∀ sets i d by_id sol,
  more (diag_loop (mkEnv h k') i s d by_id sol sets) (diag_loop (mkEnv h k) i s d by_id sol sets).
Proof.
  intros Hk. induction sets as [|st sets IH]; intros i d by_id sol; cbn [diag_loop e_heap e_fuel]; [mr|]. cbv zeta.
  apply more_bind; [by apply more_local|]. intros [d' [[tof conc]|e]]; [apply IH|mr].
Qed.
Lemma more_run_diag h k k' g rev pv only by_id sets : (k ≤ k')%nat →
  more (run_diag (mkEnv h k') g rev pv only by_id sets) (run_diag (mkEnv h k) g rev pv only by_id sets).
Proof.
  intros Hk. unfold run_diag. mr. destruct a as [s d]. cbn [e_heap e_fuel]. apply more_bind; [by apply more_global|].
  intros [d' [tof|e]]; [by apply more_diag_loop|mr].
Qed.
Lemma more_step h k k' t d sets : (k ≤ k')%nat →
  more (tb_step t (compute d (mkEnv h k') sets)) (tb_step t (compute d (mkEnv h k) sets)).
Proof.
  intros Hk. destruct d; cbn [compute tb_step]; (apply more_bind; [|intros; mr]); unfold tb_inj_diag, tb_prod_diag;
    (destruct (_ || _); [mr|]); (destruct (negb _); [mr|]); mr; destruct a as [t1 [e|]]; (mr || (apply more_bind; [by apply more_run_diag|intros; mr])).
Qed.
Theorem more_diagnose h k k' d g p f sets : (k ≤ k')%nat → diagnose d (mkEnv h k) g p f sets ≠ NoFuel →
  diagnose d (mkEnv h k') g p f sets = diagnose d (mkEnv h k) g p f sets.
Proof.
  intros Hk H. assert (more (diagnose d (mkEnv h k') g p f sets) (diagnose d (mkEnv h k) g p f sets)) as [?|?]; [|done|done].
  unfold diagnose, returns. mr. apply more_bind; [by apply more_step|]. intros; mr.
Qed.
End more.
