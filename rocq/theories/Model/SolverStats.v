(** Model of the statistics counters of opm/flowdiagnostics/TracerTofSolver.{hpp,cpp},
    which Model/TracerTofSolver.v leaves out.  The functions are those of that file
    (and of Model/Toolbox.v) with the counters added: incrementing an int beyond
    INT_MAX is undefined behaviour. *)
From Verif.Model Require Export TracerTofSolver Solution Toolbox.

Section stats.
Context {N : Num}.

(** TracerTofSolver.hpp:96-98. *)
Record stats := mkStats {
  st_multi : Z;              (* num_multicell_ *)
  st_size : Z;               (* max_size_multicell_ *)
  st_iter : Z                (* max_iter_multicell_ *)
}.
(** TracerTofSolver.hpp:90-98: all members that change. *)
Definition sdyn : Type := tdyn * stats.

(** ++i for an int, TracerTofSolver.cpp:401 and :411. *)
Definition int_incr (i : Z) : res Z := if i <? 2 ^ 31 - 1 then Ok (i + 1) else UB.

(** TracerTofSolver.hpp:96-98: the counters of a new solver; TracerTofSolver.cpp:173-175:
    their values after prepareForSolve. *)
Definition stats0 : stats := mkStats 0 0 0.

(** TracerTofSolver.cpp:404-422, the Gauss-Seidel loop with num_iter. *)
Fixpoint gs_loop_c (fuel : nat) (s : tts) (cells : list Z) (d : tdyn) (dt dc : num) (num_iter : Z)
  : res (tdyn * Z) :=
  if nltb gs_tof_tol dt || nltb gs_tracer_tol dc then
    match fuel with
    | O => NoFuel
    | S fuel' =>
        num_iter' ← int_incr num_iter;
        r ← gs_sweep s cells d;
        let '(d', dt', dc') := r in
        gs_loop_c fuel' s cells d' dt' dc' num_iter'
    end
  else Ok (d, num_iter).

(** TracerTofSolver.cpp:398-424, solveMultiCell. *)
Definition solve_multi_cell_c (fuel : nat) (s : tts) (x : sdyn) (cells : list Z) : res sdyn :=
  let '(d, st) := x in
  multi ← int_incr (st_multi st);
  let size := Z.max (st_size st) (zlen cells) in
  r ← gs_loop_c fuel s cells d big_delta big_delta 0;
  Ok (fst r, mkStats multi size (Z.max (st_iter st) (snd r))).

(** TracerTofSolver.cpp:313-320: one component. *)
Definition solve_comp_c (fuel : nat) (s : tts) (x : sdyn) (comp : Z) : res sdyn :=
  let d := fst x in
  e ← zget (td_comps d) (comp + 1);
  b ← zget (td_comps d) comp;
  if e - b =? 1 then c ← zget (td_seq d) b; d' ← solve_single_cell s d c; Ok (d', snd x)
  else cells ← zslice (td_seq d) b e; solve_multi_cell_c fuel s x cells.

(** TracerTofSolver.cpp:309-326, solve. *)
Definition solve_c (fuel : nat) (s : tts) (x : sdyn) : res sdyn :=
  x' ← forZ 0 (to_int (zlen (td_comps (fst x)) - 1)) (solve_comp_c fuel s) x;
  let d' := fst x' in
  Ok (set_fields d' (map (fun t => nmin t max_tof) (td_tof d')) (td_tracer d'), snd x').

(** TracerTofSolver.cpp:111-125, solveGlobal. *)
Definition solve_global_c (h : heap) (fuel : nat) (s : tts) (x : sdyn)
  : res (sdyn * (list num + exn)) :=
  let d0 := prepare_for_solve s (fst x) in
  d1 ← setup_start_array_from_source s d0;
  let d2 := set_local d1 (ts_source s) in
  o ← compute_ordering h s d2;
  match o with
  | (d3, Some e) => Ok ((d3, stats0), inr e)
  | (d3, None) =>
      x4 ← solve_c fuel s (d3, stats0);
      let d4 := fst x4 in
      let d5 := set_local d4 (map (fun _ => n0) (td_local d4)) in
      Ok ((d5, snd x4), inl (td_tof d5))
  end.

(** TracerTofSolver.cpp:131-157, solveLocal. *)
Definition solve_local_c (h : heap) (fuel : nat) (s : tts) (x : sdyn) (startset : cellset_values)
  : res (sdyn * ((cellset_values * cellset_values) + exn)) :=
  let d0 := prepare_for_solve s (fst x) in
  d1 ← setup_start_array d0 startset;
  o ← compute_local_ordering h s d1 startset;
  match o with
  | (d2, Some e) => Ok ((d2, stats0), inr e)
  | (d2, None) =>
      ls ← setup_local_source (td_local d2) startset;
      match ls with
      | (l, Some e) => Ok ((set_local d2 l, stats0), inr e)
      | (l, None) =>
          x3 ← solve_c fuel s (set_local d2 l, stats0);
          let d3 := fst x3 in
          l' ← cleanup_local_source (td_local d3) startset;
          let d4 := set_local d3 l' in
          num_elements ← zback (td_comps d4);
          cells ← zslice (td_seq d4) 0 num_elements;
          r ← collect_local d4 cells [] [];
          Ok ((d4, snd x3), r)
      end
  end.

(** Toolbox.cpp:165-169 (resp. 205-209): the loop over start sets. *)
Fixpoint diag_loop_c (ev : env) (k : nat) (s : tts) (x : sdyn) (by_id : flux_map) (sol : solution)
    (sets : list cellset) : res (flux_map * (solution + exn)) :=
  match sets with
  | [] => Ok (by_id, inl sol)
  | st :: rest =>
      let id := cs_id st in
      let by_id' := om_insert id [] by_id in
      let startset := match om_find id by_id' with Some y => y | None => [] end in
      r ← solve_local_c (e_heap ev k) (e_fuel ev) s x startset;
      match r with
      | (_, inr e) => Ok (by_id', inr e)
      | (x', inl (tof, conc)) =>
          diag_loop_c ev (S k) s x' by_id' (sol_assign_conc (sol_assign_tof sol id tof) id conc) rest
      end
  end.

(** Toolbox.cpp:158-171 (resp. 198-211): run the solver. *)
Definition run_diag_c (ev : env) (g rev : aconn) (pv : list num) (only : cellset_values)
    (by_id : flux_map) (sets : list cellset) : res (flux_map * (solution + exn)) :=
  sd ← tts_make g rev pv only;
  let '(s, d) := sd in
  r ← solve_global_c (e_heap ev 0) (e_fuel ev) s (d, stats0);
  match r with
  | (_, inr e) => Ok (by_id, inr e)
  | (x', inl tof) => diag_loop_c ev 1 s x' by_id (sol_assign_global sol_new tof) sets
  end.

(** Toolbox.cpp:134-172, injDiag. *)
Definition tb_inj_diag_c (ev : env) (t : toolbox) (sets : list cellset)
  : res (toolbox * (solution + exn)) :=
  if (match tb_pvol t with [] => true | _ => false end) || (cv_num_connections (tb_flux t) =? 0)
  then Ok (t, inr LogicError)
  else if negb (start_sets_ok (tb_inj t) (tb_in t) sets) then Ok (t, inr RuntimeError)
  else
    b ← (if tb_built t then Ok (t, None) else tb_build t);
    match b with
    | (t1, Some e) => Ok (t1, inr e)
    | (t1, None) =>
        r ← run_diag_c ev (tb_down t1) (tb_up t1) (tb_pvol t1) (tb_in t1) (tb_inj t1) sets;
        Ok (mkTb (tb_g t1) (tb_pvol t1) (tb_flux t1) (fst r) (tb_prod t1) (tb_in t1) (tb_out t1)
                 (tb_down t1) (tb_up t1) (tb_built t1), snd r)
    end.

(** Toolbox.cpp:174-212, prodDiag. *)
Definition tb_prod_diag_c (ev : env) (t : toolbox) (sets : list cellset)
  : res (toolbox * (solution + exn)) :=
  if (match tb_pvol t with [] => true | _ => false end) || (cv_num_connections (tb_flux t) =? 0)
  then Ok (t, inr LogicError)
  else if negb (start_sets_ok (tb_prod t) (tb_out t) sets) then Ok (t, inr RuntimeError)
  else
    b ← (if tb_built t then Ok (t, None) else tb_build t);
    match b with
    | (t1, Some e) => Ok (t1, inr e)
    | (t1, None) =>
        r ← run_diag_c ev (tb_up t1) (tb_down t1) (tb_pvol t1) (tb_out t1) (tb_prod t1) sets;
        Ok (mkTb (tb_g t1) (tb_pvol t1) (tb_flux t1) (tb_inj t1) (fst r) (tb_in t1) (tb_out t1)
                 (tb_down t1) (tb_up t1) (tb_built t1), snd r)
    end.

(** Toolbox.cpp:276-306: the forwarding public functions. *)
Definition tb_step_c (t : toolbox) (c : tb_call) : res (toolbox * tb_obs) :=
  match c with
  | CInject ev sets => r ← tb_inj_diag_c ev t sets; Ok (fst r, obs_of_sum (snd r))
  | CProduce ev sets => r ← tb_prod_diag_c ev t sets; Ok (fst r, obs_of_sum (snd r))
  | _ => tb_step t c
  end.

(** A client program over Toolbox.cpp:276-306. *)
Fixpoint tb_run_c (t : toolbox) (cs : list tb_call) : res (toolbox * list tb_obs) :=
  match cs with
  | [] => Ok (t, [])
  | c :: cs' =>
      r ← tb_step_c t c;
      r' ← tb_run_c (fst r) cs';
      Ok (fst r', snd r :: snd r')
  end.

End stats.
