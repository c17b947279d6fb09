(** Runs of the Gauss-Seidel loop that come back to a state they were in. *)
From Coq Require Import String.
From Verif.Model Require Import Base Num OMap Containers Solution AssembledConnections Tarjan TracerTofSolver Toolbox.
From Verif.Spec Require Import ContainerSpec ToolboxSpec.
From Verif.Proofs Require Import Util SolverBase SolverRun SolverTop ToolboxState ToolboxRates ToolboxFlow ToolboxVal.
Open Scope Z_scope.

Section endless.
Context {N : Num}.

(** [k] sweeps, none of which ends the loop. *)
Definition goes_on (dt dc : num) : bool := nltb gs_tof_tol dt || nltb gs_tracer_tol dc.
Fixpoint gs_iter (k : nat) (s : tts) (cells : list Z) (x : tdyn * num * num) : option (tdyn * num * num) :=
  match k with
  | O => Some x
  | S k' =>
      if goes_on x.1.2 x.2 then
        match gs_sweep s cells x.1.1 with Ok y => gs_iter k' s cells y | _ => None end
      else None
  end.

Lemma loop_iter s cells k : ∀ x y fuel, gs_iter k s cells x = Some y →
  gs_loop (k + fuel) s cells x.1.1 x.1.2 x.2 = gs_loop fuel s cells y.1.1 y.1.2 y.2.
Proof.
  induction k as [|k IH]; intros x y fuel; cbn [gs_iter]; [by intros [= ->]|].
  destruct (goes_on x.1.2 x.2) eqn:E; [|done]. cbn [plus gs_loop]. unfold goes_on in E. rewrite E.
  destruct (gs_sweep s cells x.1.1) as [z| | | |]; try done. intros H. cbn [mbind res_bind].
  destruct z as [[d dt] dc]. by apply (IH (d, dt, dc)).
Qed.
Lemma loop_short s cells k : ∀ x y fuel, gs_iter k s cells x = Some y → (fuel < k)%nat →
  gs_loop fuel s cells x.1.1 x.1.2 x.2 = NoFuel.
Proof.
  induction k as [|k IH]; intros x y fuel; cbn [gs_iter]; [lia|].
  destruct (goes_on x.1.2 x.2) eqn:E; [|done]. unfold goes_on in E. intros H Hf.
  destruct fuel as [|fuel]; cbn [gs_loop]; rewrite E; [done|].
  destruct (gs_sweep s cells x.1.1) as [z| | | |]; try done. cbn [mbind res_bind].
  destruct z as [[d dt] dc]. apply (IH (d, dt, dc) y fuel H). lia.
Qed.
(** A loop that returns to an earlier state never ends. *)
Lemma loop_cycle s cells k x y j fuel : gs_iter k s cells x = Some y → gs_iter (S j) s cells y = Some y →
  gs_loop fuel s cells x.1.1 x.1.2 x.2 = NoFuel.
Proof.
  intros Hx Hy. destruct (decide (fuel < k)%nat) as [Hf|Hf]; [by eapply loop_short|].
  replace fuel with (k + (fuel - k))%nat by lia. rewrite (loop_iter _ _ _ _ _ _ Hx).
  generalize (fuel - k)%nat as m. clear fuel Hf. intros m. induction (lt_wf m) as [m _ IH].
  destruct (decide (m < S j)%nat) as [Hm|Hm]; [by eapply loop_short|].
  replace m with (S j + (m - S j))%nat by lia. rewrite (loop_iter _ _ _ _ _ _ Hy). apply IH. lia.
Qed.

(** Any other number of sweeps gives the same result or is too small. *)
Lemma gs_loop_any s cells k k' : ∀ d dt dc d', gs_loop k s cells d dt dc = Ok d' →
  gs_loop k' s cells d dt dc = NoFuel ∨ gs_loop k' s cells d dt dc = Ok d'.
Proof.
  revert k'. induction k as [|k IH]; intros k' d dt dc d'; cbn [gs_loop].
  - destruct (nltb gs_tof_tol dt || nltb gs_tracer_tol dc) eqn:E; [done|]. destruct k'; cbn [gs_loop]; rewrite E; by right.
  - destruct k' as [|k']; cbn [gs_loop]; (destruct (nltb gs_tof_tol dt || nltb gs_tracer_tol dc); [|by right]); [by left|].
    destruct (gs_sweep s cells d) as [[[d1 dt1] dc1]| | | |]; try done. cbn [mbind res_bind]. apply IH.
Qed.
Lemma solve_comp_any s k k' d i d' : solve_comp k s d i = Ok d' → solve_comp k' s d i = NoFuel ∨ solve_comp k' s d i = Ok d'.
Proof.
  unfold solve_comp.
  destruct (zget (td_comps d) (i + 1)) as [e| | | |]; try done. destruct (zget (td_comps d) i) as [b| | | |]; try done.
  cbn [mbind res_bind]. destruct (e - b =? 1); [by right|]. destruct (zslice (td_seq d) b e) as [cells| | | |]; try done.
  cbn [mbind res_bind]. by apply gs_loop_any.
Qed.
Lemma comps_any s k k' l : ∀ d d', foldM (solve_comp k s) d l = Ok d' →
  foldM (solve_comp k' s) d l = NoFuel ∨ foldM (solve_comp k' s) d l = Ok d'.
Proof.
  induction l as [|i l IH]; intros d d'; [by right|]. cbn [foldM].
  destruct (solve_comp k s d i) as [d1| | | |] eqn:E; try done.
  destruct (solve_comp_any _ _ k' _ _ _ E) as [-> | ->]; [by left|]. cbn [mbind res_bind]. apply IH.
Qed.

(** A network whose component [i] is solved by an endless loop: the components
    before it need at most [k] sweeps, and the loop is in the same state after
    [a] and after [a + b + 1] sweeps. *)
Context `{EqDecision num}.
Global Instance tdyn_eq_dec : EqDecision tdyn. Proof. solve_decision. Defined.
Definition trapped (k : nat) (i : Z) (a b : nat) (r : res (tts * tdyn)) : bool :=
  match r with
  | Ok (s, d) =>
      match forZ 0 i (solve_comp k s) d with
      | Ok d1 =>
          match zget (td_comps d1) (i + 1), zget (td_comps d1) i with
          | Ok e, Ok f =>
              negb (e - f =? 1) && (i <? to_int (zlen (td_comps d) - 1)) &&
              match zslice (td_seq d1) f e with
              | Ok cells =>
                  match gs_iter a s cells (d1, big_delta, big_delta) with
                  | Some x => match gs_iter (S b) s cells x with Some y => bool_decide (x = y) | None => false end
                  | None => false
                  end
              | _ => false
              end
          | _, _ => false
          end
      | _ => false
      end
  | _ => false
  end.

Lemma trapped_solve k i a b s d fuel : 0 ≤ i → trapped k i a b (Ok (s, d)) = true → solve fuel s d = NoFuel.
Proof.
  intros Hi. unfold trapped, forZ. destruct (foldM _ _ _) as [d1| | | |] eqn:E; try done.
  apply (comps_any s k fuel) in E.
  destruct (zget (td_comps d1) (i + 1)) as [e| | | |] eqn:Ee; try done.
  destruct (zget (td_comps d1) i) as [f| | | |] eqn:Ef; try done.
  intros [[H1 H2]%andb_true_iff H]%andb_true_iff. apply negb_true_iff in H1. apply Z.ltb_lt in H2.
  destruct (zslice (td_seq d1) f e) as [cells| | | |] eqn:Ec; try done.
  destruct (gs_iter a _ _ _) as [x|] eqn:Ex; [|done]. destruct (gs_iter (S b) _ _ _) as [y|] eqn:Ey; [|done].
  apply bool_decide_eq_true in H as <-.
  unfold solve, forZ. rewrite Z.sub_0_r in E. rewrite Z.sub_0_r.
  replace (to_int (zlen (td_comps d) - 1)) with (i + (1 + (to_int (zlen (td_comps d) - 1) - i - 1))) by lia.
  rewrite seqZ_app by lia. rewrite foldM_app. destruct E as [-> | ->]; [done|]. cbn [mbind res_bind].
  rewrite seqZ_cons by lia. cbn [foldM]. rewrite (Z.add_0_l i).
  pose proof (loop_cycle s cells a _ x b fuel Ex Ey) as Hl. cbn [fst snd] in Hl.
  assert (solve_comp fuel s d1 i = NoFuel) as ->; [|done].
  unfold solve_comp. rewrite Ee, Ef. cbn [mbind res_bind]. rewrite H1, Ec. cbn [mbind res_bind]. exact Hl.
Qed.

Lemma solve_any s k k' d d' : solve k s d = Ok d' → solve k' s d = NoFuel ∨ solve k' s d = Ok d'.
Proof.
  unfold solve, forZ. destruct (foldM (solve_comp k s) _ _) as [d1| | | |] eqn:E; try done.
  apply (comps_any s k k') in E as [-> | ->]; [by left|]. by right.
Qed.
Lemma global_any h s k k' d r : solve_global h k s d = Ok r → solve_global h k' s d = NoFuel ∨ solve_global h k' s d = Ok r.
Proof.
  unfold solve_global. destruct (setup_start_array_from_source _ _) as [d1| | | |]; try done. cbn [mbind res_bind].
  destruct (compute_ordering _ _ _) as [[d3 [e|]]| | | |]; try done; cbn [mbind res_bind]; [by right|].
  destruct (solve k s d3) as [d4| | | |] eqn:E; try done. destruct (solve_any _ _ k' _ _ E) as [-> | ->]; [by left|by right].
Qed.

(** The solver's members when computeInjectionDiagnostics starts the solve for
    start set [st], if the global solve needs at most [k] sweeps. *)
Definition prepared (h : heap) (k : nat) (g : cgraph) (p : problem) (f : cvalues) (st : cellset) : res (tts * tdyn) :=
  r ← tb_run (tb_new g) [CPoreVolume (pb_pv p); CFlux f; CInflow (pb_rates p)];
  let t := r.1 in
  if (match tb_pvol t with [] => true | _ => false end) || (cv_num_connections (tb_flux t) =? 0) then UB else
  if negb (start_sets_ok (tb_inj t) (tb_in t) [st]) then UB else
  b ← (if tb_built t then Ok (t, None) else tb_build t);
  match b with
  | (t1, None) =>
      sd ← tts_make (tb_down t1) (tb_up t1) (tb_pvol t1) (tb_in t1);
      gl ← solve_global h k sd.1 sd.2;
      match gl with
      | (d', inl _) =>
          let startset := match om_find (cs_id st) (om_insert (cs_id st) [] (tb_inj t1)) with Some x => x | None => [] end in
          d1 ← setup_start_array (prepare_for_solve sd.1 d') startset;
          o ← compute_local_ordering h sd.1 d1 startset;
          match o with
          | (d2, None) =>
              ls ← setup_local_source (td_local d2) startset;
              match ls with (l, None) => Ok (sd.1, set_local d2 l) | _ => UB end
          | _ => UB
          end
      | _ => UB
      end
  | _ => UB
  end.
Lemma prepared_nofuel h k g p f st s d fuel : prepared h k g p f st = Ok (s, d) → solve fuel s d = NoFuel →
  diagnose Injection (mkEnv (λ _, h) fuel) g p f [st] = NoFuel.
Proof.
  unfold prepared, diagnose, returns. destruct (tb_run _ _) as [r| | | |]; try done. cbn [mbind res_bind].
  cbn [compute tb_step]. unfold tb_inj_diag. destruct (_ || _); [done|]. destruct (negb _); [done|].
  destruct (if tb_built r.1 then _ else _) as [[t1 [e|]]| | | |]; try done. cbn [mbind res_bind]. unfold run_diag.
  destruct (tts_make _ _ _ _) as [[s' d']| | | |]; try done. cbn [mbind res_bind fst snd e_heap e_fuel].
  destruct (solve_global h k s' d') as [[d1 [tof|e]]| | | |] eqn:Eg; try done. cbn [mbind res_bind].
  destruct (global_any h s' k fuel d' _ Eg) as [-> | ->]; [done|]. cbn [mbind res_bind diag_loop e_heap e_fuel]. unfold solve_local.
  destruct (setup_start_array _ _) as [d2| | | |]; try done. cbn [mbind res_bind].
  destruct (compute_local_ordering _ _ _ _) as [[d3 [e|]]| | | |]; try done. cbn [mbind res_bind].
  destruct (setup_local_source _ _) as [[l [e|]]| | | |]; try done. cbn [mbind res_bind].
  intros [= -> <-] ->. done.
Qed.

(** The number of sweeps decides, not memory, nor the start cells, nor the start sets that follow. *)
Lemma nofuel_any p g f d ev ev' st st' sets : valid p → poses p g f → alloc_ok ev → alloc_ok ev' → e_fuel ev = e_fuel ev' → cs_id st' = cs_id st →
  diagnose d ev g p f [st] = NoFuel → sets_ok d p (st' :: sets) → diagnose d ev' g p f (st' :: sets) = NoFuel.
Proof.
  intros Hp HP Ha Ha' Hf Hid H Hs. destruct (diagnose_eq p g f Hp HP d) as (s & HS & E). rewrite E in H |- *.
  rewrite (proj2 (start_sets_iff d (pb_rates p) _ (va_rates _ Hp)) Hs). destruct (start_sets_ok _ _ [st]); [|done].
  unfold val, global_val in *. cbn [val_loop] in *. rewrite Hid.
  assert (∀ j i, ws_ok (e_heap ev j) i = true) as W1 by (intros; unfold ws_ok; by rewrite !Ha).
  assert (∀ j i, ws_ok (e_heap ev' j) i = true) as W2 by (intros; unfold ws_ok; by rewrite !Ha').
  assert (∀ j i, scc_ok (e_heap ev j) i = true) as S1 by (intros; unfold scc_ok; by rewrite !Ha).
  assert (∀ j i, scc_ok (e_heap ev' j) i = true) as S2 by (intros; unfold scc_ok; by rewrite !Ha').
  rewrite W1, !S1 in H. rewrite W2, !S2. cbn [andb negb] in *. rewrite <-Hf.
  match type of H with context [run ?a ?b ?c ?e ?i ?fu ?cs] => destruct (run a b c e i fu cs) as [stg| | | |]; try done end. cbn [mbind res_bind] in *.
  unfold local_val in *. rewrite W1, !S1 in H. rewrite W2, !S2. cbn [andb negb] in *. destruct (existsb _ _); [done|].
  destruct (run _ _ _ _ _ _ _) as [stl| | | |]; try done. cbn [mbind res_bind] in *. by destruct (existsb _ _).
Qed.

(** No number of sweeps is enough. *)
Lemma endless p g f h k0 st k i a b : valid p → poses p g f → (∀ j, h_ok h j = true) → 0 ≤ i →
  trapped k i a b (prepared h k0 g p f st) = true →
  ∀ ev st' sets, alloc_ok ev → cs_id st' = cs_id st → sets_ok Injection p (st' :: sets) → diagnose Injection ev g p f (st' :: sets) = NoFuel.
Proof.
  intros Hp HP Hh Hi Ht. destruct (prepared h k0 g p f st) as [[s d]| | | |] eqn:Epr; try done.
  intros ev st' sets Ha Hid Hs.
  apply (nofuel_any p g f Injection (mkEnv (λ _, h) (e_fuel ev)) ev st st' sets Hp HP); [intros ? ?; apply Hh|done|done|done| |done].
  eapply prepared_nofuel; [exact Epr|]. by eapply trapped_solve.
Qed.
End endless.

(** ** Networks without cycles *)
Section apart.
Context {N : Num} (n : Z) (A : list arc) (pv : list num) (src : cellset_values) (inj : Z → option num).
Context (Hone : ∀ u v, leads A u v → leads A v u → u = v).

Lemma single_comps P comps C : ordered A P comps → C ∈ comps → ∃ v, C = [v].
Proof.
  intros Ho HC. pose proof (oc_ne _ _ _ Ho) as Hne. pose proof (proj1 (Forall_forall _ _) Hne C HC) as HCne.
  destruct C as [|v [|w C]]; [done|eauto|]. exfalso.
  assert (v ≠ w) as Hvw.
  { pose proof (oc_nodup _ _ _ Ho) as Hnd. apply elem_of_list_split in HC as (l1 & l2 & ->).
    rewrite concat_app in Hnd. cbn in Hnd. apply NoDup_app in Hnd as (_ & _ & Hnd). inv Hnd.
    intros ->. apply H1. left. }
  destruct (proj1 (oc_strong _ _ _ Ho _ v w HC ltac:(left))) as [Ha Hb]; [right; left|]. by apply Hvw, Hone.
Qed.
Lemma single_nofuel P comps fuel : ordered A P comps → run n A pv src inj fuel comps ≠ NoFuel.
Proof.
  intros Ho. unfold run.
  assert (∀ comps', (∀ C, C ∈ comps' → C ∈ comps) → ∀ st, foldM (run_comp n A pv src inj fuel) st comps' ≠ NoFuel) as H; [|by apply H].
  induction comps' as [|C comps' IH]; intros Hin st; cbn [foldM]; [done|].
  destruct (single_comps P comps C Ho) as [v ->]; [apply Hin; left|].
  cbn [run_comp]. unfold run_cell at 1. destruct (cell_ok _ _ _ _ _ _); [|done].
  cbn [mbind res_bind]. apply IH. intros. apply Hin. by right.
Qed.
End apart.

Lemma apart_nofuel {N : Num} p g f d ev sets : valid p → poses p g f →
  (∀ u v, leads (flow d p) u v → leads (flow d p) v u → u = v) → diagnose d ev g p f sets ≠ NoFuel.
Proof.
  intros Hp HP Hone. destruct (diagnose_eq p g f Hp HP d) as (s & HS & E). rewrite E.
  destruct (start_sets_ok _ _ sets); [|done]. unfold val, global_val.
  destruct (ws_ok _ 0 && scc_ok _ 2); [|done]. destruct (scc_ok _ 8); [|done]. cbn [negb].
  pose proof (single_nofuel (pb_cells p) (flow d p) (pb_pv p) (only d (split_rates (pb_rates p))) (ginj (only d (split_rates (pb_rates p)))) Hone
    _ _ (e_fuel ev) (gcomps_ordered _ _ _ _ _ HS)) as Hg.
  destruct (run _ _ _ _ _ _ _) as [stg| | | |]; try done. cbn [mbind res_bind]. clear Hg.
  generalize 1%nat (sol_assign_global sol_new (tab (pb_cells p) (cap stg).1)).
  induction sets as [|st sets IH]; intros k sol; [done|]. cbn [val_loop]. unfold local_val.
  destruct (ws_ok _ 0); [|done]. destruct (scc_ok _ 5); [|done]. destruct (scc_ok _ 8); [|done]. cbn [negb].
  destruct (existsb _ _); [done|].
  match goal with |- context [run ?a ?b ?c ?e ?i ?fu ?cs] =>
    pose proof (single_nofuel a b c e i Hone _ cs fu (comps_ordered p Hp d s HS (cs_id st))) as Hl;
    destruct (run a b c e i fu cs) as [st'| | | |]; try done end.
  cbn [mbind res_bind]. clear Hl. destruct (existsb _ _); [done|]. apply IH.
Qed.
