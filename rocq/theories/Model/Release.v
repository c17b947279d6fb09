(** The library compiled with NDEBUG (a release build): every [assert] is gone,
    and so is the evaluation of its argument.  Each function below is the function of
    the same name of the other files of Model/, with suffix [_r], that contains an
    assertion or calls one that does; all other functions are shared. *)
From Verif.Model Require Export Base Num OMap Containers AssembledConnections Tarjan
  TracerTofSolver Solution Toolbox.

(** ** tarjan.c *)

(** tarjan.c:141-151, the do-while loop of capture_scc without the assertion :142.
    Every iteration reads vert[] one place further, so the loop ends, by finding [c] or by
    leaving the array, within [length vert + 1] iterations: that is the budget. *)
Fixpoint capture_loop_r (fuel : nat) (c : Z) (w : ws) (s : scc) : res (ws * scc) :=
  match fuel with
  | O => NoFuel
  | S fuel' =>
      v ← zget (s_vert s) (s_cstack s + 1);
      w' ← set_status w v DONE;
      p ← zget (s_start s) (s_ncomp s + 1);
      vert' ← zset (s_vert s) p v;
      start' ← zset (s_start s) (s_ncomp s + 1) (p + 1);
      let s' := mkScc (s_ncomp s) start' vert' (s_vstack s) (s_vstart s)
                      (s_cstack s + 1) (s_cstart s) in
      if v =? c then Ok (w', s') else capture_loop_r fuel' c w' s'
  end.

(** tarjan.c:126-156, capture_scc. *)
Definition capture_scc_r (c : Z) (w : ws) (s : scc) : res (ws * scc) :=
  x ← zget (s_start s) (s_ncomp s);
  start' ← zset (s_start s) (s_ncomp s + 1) x;
  let s1 := mkScc (s_ncomp s) start' (s_vert s) (s_vstack s) (s_vstart s)
                  (s_cstack s) (s_cstart s) in
  r ← capture_loop_r (S (length (s_vert s))) c w s1;
  let '(w', s') := r in
  Ok (w', mkScc (s_ncomp s' + 1) (s_start s') (s_vert s') (s_vstack s') (s_vstart s')
                (s_cstack s') (s_cstart s')).

(** tarjan.c:158-178, complete_dfs_from_vertex. *)
Definition complete_dfs_from_vertex_r (c : Z) (w : ws) (s : scc) : res (ws * scc) :=
  lc ← zget (w_link w) c;
  tc ← zget (w_time w) c;
  r ← (if lc =? tc then capture_scc_r c w s else Ok (w, s));
  let '(w1, s1) := r in
  let s2 := mkScc (s_ncomp s1) (s_start s1) (s_vert s1) (s_vstack s1 + 1) (s_vstart s1)
                  (s_cstack s1) (s_cstart s1) in
  if s_vstack s2 =? s_vstart s2 then Ok (w1, s2)
  else
    v ← peek_v s2;
    lv ← zget (w_link w1) v;
    lc' ← zget (w_link w1) c;
    w2 ← set_link w1 v (Z.min lv lc');
    Ok (w2, s2).

(** tarjan.c:180-206, dfs_from_descendant without the assertions :189 and :204. *)
Definition dfs_from_descendant_r (c : Z) (ia ja : list Z) (w : ws) (s : scc) : res (ws * scc) :=
  st ← zget (w_status w) c;
  b ← zget ia c;
  child0 ← zget ja (b + (st - 1));
  let child := to_size child0 in
  w1 ← set_status w c (st - 1);
  sc ← zget (w_status w1) child;
  if sc =? REMAINING then s1 ← push_v s child; Ok (w1, s1)
  else if 0 <=? sc then
    lc ← zget (w_link w1) c;
    tch ← zget (w_time w1) child;
    w2 ← set_link w1 c (Z.min lc tch);
    Ok (w2, s)
  else Ok (w1, s).

(** tarjan.c:270-290, one iteration of the main loop of tarjan_local without the
    assertions :272-273. *)
Definition tarjan_iter_r (ia ja : list Z) (t : tst) : res tst :=
  c ← peek_v (t_scc t);
  st ← zget (w_status (t_ws t)) c;
  r ← (if st =? REMAINING then discover_vertex c ia (t_time t) (t_ws t) (t_scc t)
       else Ok (t_ws t, t_scc t, t_time t));
  let '(w1, s1, tm1) := r in
  st1 ← zget (w_status w1) c;
  r2 ← (if st1 =? 0 then complete_dfs_from_vertex_r c w1 s1
        else dfs_from_descendant_r c ia ja w1 s1);
  let '(w2, s2) := r2 in
  Ok (mkT w2 s2 tm1 (t_steps t + 1)).

(** tarjan.c:269-291, the while loop, with explicit fuel. *)
Fixpoint tarjan_loop_r (fuel : nat) (ia ja : list Z) (t : tst) : res tst :=
  if s_vstack (t_scc t) =? s_vstart (t_scc t) then Ok t
  else match fuel with
       | O => NoFuel
       | S fuel' => t' ← tarjan_iter_r ia ja t; tarjan_loop_r fuel' ia ja t'
       end.

(** tarjan.c:255-294, tarjan_local without the assertion :293. *)
Definition tarjan_local_r (fuel : nat) (start : Z) (ia ja : list Z) (w : ws) (s : scc) (steps : Z)
  : res tst :=
  s1 ← push_v s start;
  tarjan_loop_r fuel ia ja (mkT w s1 0 steps).

(** tarjan.c:324-329, the for loop of tarjan_global. *)
Fixpoint global_loop_r (k fuel : nat) (start : Z) (ia ja : list Z) (t : tst) : res tst :=
  if start <? w_nvert (t_ws t) then
    match k with
    | O => NoFuel
    | S k' =>
        t' ← tarjan_local_r fuel start ia ja (t_ws t) (t_scc t) (t_steps t);
        start' ← tarjan_find_start start (t_ws t');
        global_loop_r k' fuel start' ia ja t'
    end
  else Ok t.

(** tarjan.c:311-330, tarjan_global (the assertions :319-320 never fail when called from
    [tarjan]). *)
Definition tarjan_global_r (fuel : nat) (ia ja : list Z) (w : ws) (s : scc) : res tst :=
  r ← tarjan_initialise w s;
  let '(w1, s1) := r in
  start ← tarjan_find_start 0 w1;
  global_loop_r (Z.to_nat (w_nvert w1)) fuel start ia ja (mkT w1 s1 0 0).

(** tarjan.c:453-481, tarjan. *)
Definition tarjan_r (h : heap) (nv : Z) (ia ja : list Z) : res (option scc) :=
  if ws_ok h 0 && scc_ok h 2 then
    t ← tarjan_global_r (tarjan_fuel nv ja) ia ja (new_ws h 0 nv) (new_scc h 3 nv);
    Ok (Some (t_scc t))
  else Ok None.

(** tarjan.c:508-516: the loop over the start points. *)
Definition reachable_step_r (fuel : nat) (ia ja : list Z) (t : tst) (start0 : Z) : res tst :=
  let start := to_size start0 in
  st ← zget (w_status (t_ws t)) start;
  if st =? DONE then Ok t
  else tarjan_local_r fuel start ia ja (t_ws t) (t_scc t) (t_steps t).

(** tarjan.c:506-517: initialise, then loop over the start points. *)
Definition reachable_run_r (fuel : nat) (ia ja start_pts : list Z) (w : ws) (s : scc) : res tst :=
  r ← tarjan_initialise w s;
  let '(w1, s1) := r in
  foldM (reachable_step_r fuel ia ja) (mkT w1 s1 0 0) start_pts.

(** tarjan.c:483-520, tarjan_reachable_sccs without the assertions :494-496; [nv] is not
    used (:499-500). *)
Definition tarjan_reachable_sccs_r (h : heap) (nv : Z) (ia ja : list Z) (start_pts : list Z) (w : ws)
  : res (ws * option scc) :=
  if scc_ok h 5 then
    t ← reachable_run_r (tarjan_fuel (w_nvert w) ja) ia ja start_pts w (new_scc h 6 (w_nvert w));
    Ok (t_ws t, Some (t_scc t))
  else Ok (w, None).

(** tarjan.c:421-438, tarjan_get_strongcomponent without the assertion :427. *)
Definition tarjan_get_strongcomponent_r (s : scc) (compID : Z) : res (list Z) :=
  b ← zget (s_start s) compID;
  e ← zget (s_start s) (compID + 1);
  zslice (s_vert s) b (b + to_size (e - b)).

Section release.
Context {N : Num}.

(** ** AssembledConnections.cpp *)

(** AssembledConnections.cpp:258-284, CSR::accumulateRowEntries without the assertion :263.
    For a negative [numRows] the size [vecIdx(numRows) + 1] of :270 wraps around: it is 0
    for -1, whereupon :281 reads outside the array, and more than a vector can hold below. *)
Definition accumulate_row_entries_r (numRows : Z) (rowIdx : list Z) : res (list Z) :=
  if numRows <? -1 then Throw LengthError
  else if numRows <? 0 then UB
  else
    a ← count_rows (replicate (Z.to_nat numRows + 1) 0) rowIdx;
    running_sum numRows a.

(** AssembledConnections.cpp:286-315, CSR::createGraph without the assertion :291. *)
Definition create_graph_r (a j : list Z) (rowIdx colIdx : list Z)
  : res (list Z * list Z * list Z) :=
  let j0 := resize_ (length rowIdx) 0 j in
  st ← forZ 0 (zlen rowIdx) (create_graph_step colIdx rowIdx) (a, j0, []);
  let '(a', j', e') := st in
  a'' ← zset a' 0 0;
  Ok (a'', j', e').

(** AssembledConnections.cpp:179-193, CSR::assemble. *)
Definition assemble_r (c : conns) (m : csr) : res csr :=
  nr ← int_add (c_maxi c) 1;
  a ← accumulate_row_entries_r nr (c_i c);
  g ← create_graph_r a (ja m) (c_i c) (c_j c);
  let '(a', j', e') := g in
  nc ← int_add (c_maxj c) 1;
  Ok (mkCsr a' j' (sa m) e' nr nc).

(** AssembledConnections.cpp:317-334, CSR::transpose. *)
Definition transpose_r (m : csr) : res csr :=
  rowIdx ← expand_start_pointers (ia m);
  let colIdx := ja m in
  a ← accumulate_row_entries_r (ncols m) colIdx;
  g ← create_graph_r a (ja m) colIdx rowIdx;
  let '(a', j', e') := g in
  e'' ← remap_element_index (elm m) e';
  Ok (mkCsr a' j' (sa m) e'' (ncols m) (nrows m)).

(** AssembledConnections.cpp:195-204, CSR::sort. *)
Definition sort_r (m : csr) : res csr := m' ← transpose_r m; transpose_r m'.

(** AssembledConnections.cpp:129-159, CSR::create. *)
Definition csr_create_r (c : conns) (numrows : Z) (m : csr) : res csr :=
  if negb (conns_isempty c) && (numrows <=? to_size (c_maxi c))
  then Throw InvalidArgument
  else
    m1 ← assemble_r c m;
    m2 ← sort_r m1;
    m3 ← condense_duplicates m2;
    m4 ← (if conns_weighted c then accumulate_conn_weights (c_v c) m3 else Ok m3);
    let nRows := zlen (ia m4) - 1 in
    if nRows <? numrows then
      b ← zback (ia m4);
      Ok (mkCsr (ia m4 ++ replicate (Z.to_nat (numrows - nRows)) b) (ja m4) (sa m4)
                (elm m4) (nrows m4) (ncols m4))
    else Ok m4.

(** AssembledConnections.cpp:414-425, compress(numRows). *)
Definition ac_compress_r (g : aconn) (numRows : Z) : res (aconn * option exn) :=
  if negb (conns_valid (ac_conns g)) then Ok (g, Some LogicError)
  else if negb (conns_isempty (ac_conns g)) && (numRows <=? to_size (c_maxi (ac_conns g)))
  then Ok (g, Some InvalidArgument)
  else
    m ← csr_create_r (ac_conns g) numRows (ac_csr g);
    Ok (mkAconn (conns_clear (ac_conns g)) m, None).

(** AssembledConnections.cpp:451-460, cellNeighbourhood without the assertion :457, and
    the range-for over it without the assertion AssembledConnectionsIteration.hpp:60. *)
Definition ac_cell_neighbourhood_r (g : aconn) (cell : Z) : res (list (Z * num)) :=
  b ← zget (ac_start g) cell;
  e ← zget (ac_start g) (cell + 1);
  nb ← zslice (ac_neigh g) b e;
  w ← zslice (ac_weight g) b e;
  Ok (zip nb w).

(** AssembledConnections.cpp:465-487, operator<<. *)
Definition ac_print_r (sci : Z) (st : fmt) (g : aconn) : res (list (Z * Z * num) * fmt) :=
  let oprec := f_prec st in
  let oflags := f_flags st in
  let st1 := mkFmt 16 (Z.lor (f_flags st) sci) in
  let num_cells := to_int (ac_numrows g) in
  out ← forZ 0 num_cells (fun acc cell =>
          nb ← ac_cell_neighbourhood_r g cell;
          Ok (acc ++ map (fun p => (cell, p.1, p.2)) nb)) [];
  Ok (out, mkFmt oprec (Z.lor (f_flags st1) oflags)).

(** AssembledConnections.cpp:397-425: one API call. *)
Definition ac_step_r (g : aconn) (o : ac_op) : res (aconn * option exn) :=
  match o with
  | AcCompress n => ac_compress_r g n
  | _ => ac_step g o
  end.

(** A history of calls (AssembledConnections.cpp:397-425). *)
Definition ac_run_r (g : aconn) (h : list ac_op) : res aconn :=
  foldM (fun g o => r ← ac_step_r g o; Ok r.1) g h.

(** ** TracerTofSolver.cpp *)

(** TracerTofSolver.cpp:54-72, InOutFluxComputer. *)
Definition inout_flux_r (g : aconn) : res (list num * list num) :=
  let num_cells := to_int (ac_numrows g) in
  if num_cells <? 0 then Throw LengthError
  else
    let z := replicate (Z.to_nat num_cells) n0 in
    forZ 0 num_cells (fun st cell =>
      nb ← ac_cell_neighbourhood_r g cell;
      foldM (inout_cell cell) st nb) (z, z).

(** TracerTofSolver.cpp:78-105, the constructors. *)
Definition tts_make_r (g rev : aconn) (pv : list num) (source_inflow : cellset_values)
  : res (tts * tdyn) :=
  io ← inout_flux_r g;
  src ← expand_sparse (to_int (zlen pv)) source_inflow;
  Ok (mkTts g rev pv (fst io) (snd io) src,
      mkTdyn (replicate (length pv) n0) [] [] [] [] []).

(** TracerTofSolver.cpp:224-232 and 268-276. *)
Definition extract_components_r (num_cells : Z) (r : scc) (seq0 comps0 : list Z)
  : res (list Z * list Z) :=
  let sequence := resize_ (Z.to_nat num_cells) 0 seq0 in
  let num_comp := to_int (tarjan_get_numcomponents r) in
  let starts := resize_ (Z.to_nat (num_comp + 1)) 0 comps0 in
  starts0 ← zset starts 0 0;
  forZ 0 num_comp (fun st comp =>
    let '(sq, cs) := st in
    tc ← tarjan_get_strongcomponent_r r comp;
    b ← zget cs comp;
    sq' ← copy_into tc sq b;
    cs' ← zset cs (comp + 1) (to_int (b + zlen tc));
    Ok (sq', cs')) (sequence, starts0).

(** TracerTofSolver.cpp:208-234, computeOrdering without the assertions :212 and :233. *)
Definition compute_ordering_r (h : heap) (s : tts) (d : tdyn) : res (tdyn * option exn) :=
  let num_cells := zlen (ts_pv s) in
  r ← tarjan_r h num_cells (ac_start (ts_g s)) (ac_neigh (ts_g s));
  match r with
  | None => UB
  | Some res0 =>
      rr ← tarjan_reverse_sccresult h res0;
      if negb (fst rr) then Ok (d, Some RuntimeError)
      else
        st ← extract_components_r num_cells (snd rr) (td_seq d) (td_comps d);
        Ok (mkTdyn (td_local d) (td_start d) (fst st) (snd st) (td_tof d) (td_tracer d), None)
  end.

(** TracerTofSolver.cpp:240-278, computeLocalOrdering without the assertion :251.  Without
    the assertion tarjan.c:494 a NULL work-space is dereferenced (tarjan.c:502). *)
Definition compute_local_ordering_r (h : heap) (s : tts) (d : tdyn) (startset : cellset_values)
  : res (tdyn * option exn) :=
  let startcells := map fst startset in
  let num_cells := zlen (ts_pv s) in
  if negb (ws_ok h 0) then UB
  else
  wr ← tarjan_reachable_sccs_r h num_cells (ac_start (ts_g s)) (ac_neigh (ts_g s))
                               startcells (new_ws h 0 num_cells);
  match snd wr with
  | None => UB
  | Some res0 =>
      rr ← tarjan_reverse_sccresult h res0;
      if negb (fst rr) then Ok (d, Some RuntimeError)
      else
        st ← extract_components_r num_cells (snd rr) (td_seq d) (td_comps d);
        b ← zback (snd st);
        Ok (mkTdyn (td_local d) (td_start d) (resize_ (Z.to_nat b) 0 (fst st)) (snd st)
                   (td_tof d) (td_tracer d), None)
  end.

(** TracerTofSolver.cpp:332-392, solveSingleCell without the assertions :361-362 and :366. *)
Definition solve_single_cell_r (s : tts) (d : tdyn) (cell : Z) : res tdyn :=
  src ← zget (ts_source s) cell;
  st ← zget (td_start d) cell;
  let source := if neqb src n0 && st then ninf else src in
  inf ← zget (ts_influx s) cell;
  let total_influx := nadd inf source in
  nb ← ac_cell_neighbourhood_r (ts_rev s) cell;
  up ← foldM (upwind_step (td_tof d) (td_tracer d)) (n0, n0) nb;
  let '(ut, uc0) := up in
  ls ← zget (td_local d) cell;
  let uc := if st then nadd uc0 ls else uc0 in
  let c := if neqb total_influx n0 then n0 else ndiv uc total_influx in
  pv ← zget (ts_pv s) cell;
  let t := if nltb n0 c
           then ndiv (nadd (nmul pv c) ut) (nmul total_influx c)
           else max_tof in
  let t' := if nltb total_influx (ndiv pv max_tof) then max_tof else t in
  tracer' ← zset (td_tracer d) cell c;
  tof' ← zset (td_tof d) cell t';
  Ok (set_fields d tof' tracer').

(** TracerTofSolver.cpp:412-421: one cell of a sweep. *)
Definition gs_cell_r (s : tts) (st : tdyn * num * num) (cell : Z) : res (tdyn * num * num) :=
  let '(d, dt, dc) := st in
  tof_before ← zget (td_tof d) cell;
  tracer_before ← zget (td_tracer d) cell;
  d' ← solve_single_cell_r s d cell;
  tof_after ← zget (td_tof d') cell;
  tracer_after ← zget (td_tracer d') cell;
  let dt' := nmax dt (nabs (nsub tof_after tof_before)) in
  let zero_change := negb (Bool.eqb (neqb tracer_before n0) (neqb tracer_after n0)) in
  let change := if zero_change then n1 else nabs (nsub tracer_after tracer_before) in
  Ok (d', dt', nmax dc change).

(** TracerTofSolver.cpp:409-421: one sweep over the cells of a component. *)
Definition gs_sweep_r (s : tts) (cells : list Z) (d : tdyn) : res (tdyn * num * num) :=
  foldM (gs_cell_r s) (d, n0, n0) cells.

(** TracerTofSolver.cpp:404-422, the Gauss-Seidel loop, with a sweep budget. *)
Fixpoint gs_loop_r (fuel : nat) (s : tts) (cells : list Z) (d : tdyn) (dt dc : num) : res tdyn :=
  if nltb gs_tof_tol dt || nltb gs_tracer_tol dc then
    match fuel with
    | O => NoFuel
    | S fuel' =>
        r ← gs_sweep_r s cells d;
        let '(d', dt', dc') := r in
        gs_loop_r fuel' s cells d' dt' dc'
    end
  else Ok d.

(** TracerTofSolver.cpp:398-424, solveMultiCell. *)
Definition solve_multi_cell_r (fuel : nat) (s : tts) (d : tdyn) (cells : list Z) : res tdyn :=
  gs_loop_r fuel s cells d big_delta big_delta.

(** TracerTofSolver.cpp:313-320: one component. *)
Definition solve_comp_r (fuel : nat) (s : tts) (d : tdyn) (comp : Z) : res tdyn :=
  e ← zget (td_comps d) (comp + 1);
  b ← zget (td_comps d) comp;
  if e - b =? 1 then c ← zget (td_seq d) b; solve_single_cell_r s d c
  else cells ← zslice (td_seq d) b e; solve_multi_cell_r fuel s d cells.

(** TracerTofSolver.cpp:309-326, solve. *)
Definition solve_r (fuel : nat) (s : tts) (d : tdyn) : res tdyn :=
  d' ← forZ 0 (to_int (zlen (td_comps d) - 1)) (solve_comp_r fuel s) d;
  Ok (set_fields d' (map (fun t => nmin t max_tof) (td_tof d')) (td_tracer d')).

(** TracerTofSolver.cpp:111-125, solveGlobal. *)
Definition solve_global_r (h : heap) (fuel : nat) (s : tts) (d : tdyn)
  : res (tdyn * (list num + exn)) :=
  let d0 := prepare_for_solve s d in
  d1 ← setup_start_array_from_source s d0;
  let d2 := set_local d1 (ts_source s) in
  o ← compute_ordering_r h s d2;
  match o with
  | (d3, Some e) => Ok (d3, inr e)
  | (d3, None) =>
      d4 ← solve_r fuel s d3;
      let d5 := set_local d4 (map (fun _ => n0) (td_local d4)) in
      Ok (d5, inl (td_tof d5))
  end.

(** TracerTofSolver.cpp:131-157, solveLocal. *)
Definition solve_local_r (h : heap) (fuel : nat) (s : tts) (d : tdyn) (startset : cellset_values)
  : res (tdyn * ((cellset_values * cellset_values) + exn)) :=
  let d0 := prepare_for_solve s d in
  d1 ← setup_start_array d0 startset;
  o ← compute_local_ordering_r h s d1 startset;
  match o with
  | (d2, Some e) => Ok (d2, inr e)
  | (d2, None) =>
      ls ← setup_local_source (td_local d2) startset;
      match ls with
      | (l, Some e) => Ok (set_local d2 l, inr e)
      | (l, None) =>
          d3 ← solve_r fuel s (set_local d2 l);
          l' ← cleanup_local_source (td_local d3) startset;
          let d4 := set_local d3 l' in
          num_elements ← zback (td_comps d4);
          cells ← zslice (td_seq d4) 0 num_elements;
          r ← collect_local d4 cells [] [];
          Ok (d4, r)
      end
  end.

(** ** ConnectivityGraph.cpp, Toolbox.cpp *)

(** ConnectivityGraph.cpp:68-76, connection(i) without the assertion :71. *)
Definition cg_connection_r (g : cgraph) (i : Z) : res (Z * Z) :=
  a ← zget (cg_cells g) (2 * i);
  b ← zget (cg_cells g) (2 * i + 1);
  Ok (a, b).

(** Toolbox.cpp:222-238: one connection; state is (downstream, upstream). *)
Definition build_step_r (g : cgraph) (f : cvalues) (st : aconn * aconn) (conn : Z)
  : res (aconn * aconn) :=
  let '(dn, up) := st in
  cells ← cg_connection_r g conn;
  fl ← conn_flux f conn;
  if nltb n0 fl then
    Ok (ac_add_w dn (fst cells) (snd cells) fl, ac_add_w up (snd cells) (fst cells) fl)
  else if nltb fl n0 then
    Ok (ac_add_w dn (snd cells) (fst cells) (nopp fl), ac_add_w up (fst cells) (snd cells) (nopp fl))
  else Ok (dn, up).

(** Toolbox.cpp:214-245, buildAssembledConnections. *)
Definition tb_build_r (t : toolbox) : res (toolbox * option exn) :=
  st ← forZ 0 (cg_num_connections (tb_g t)) (build_step_r (tb_g t) (tb_flux t)) (ac_new, ac_new);
  let num_cells := to_size (to_int (cg_num_cells (tb_g t))) in
  let upd dn up b := mkTb (tb_g t) (tb_pvol t) (tb_flux t) (tb_inj t) (tb_prod t)
                          (tb_in t) (tb_out t) dn up b in
  d ← ac_compress_r (fst st) num_cells;
  match d with
  | (dn, Some e) => Ok (upd dn (snd st) (tb_built t), Some e)
  | (dn, None) =>
      u ← ac_compress_r (snd st) num_cells;
      match u with
      | (up, Some e) => Ok (upd dn up (tb_built t), Some e)
      | (up, None) => Ok (upd dn up true, None)
      end
  end.

(** Toolbox.cpp:165-169 (resp. 205-209): the loop over start sets. *)
Fixpoint diag_loop_r (ev : env) (k : nat) (s : tts) (d : tdyn) (by_id : flux_map) (sol : solution)
    (sets : list cellset) : res (flux_map * (solution + exn)) :=
  match sets with
  | [] => Ok (by_id, inl sol)
  | st :: rest =>
      let id := cs_id st in
      let by_id' := om_insert id [] by_id in
      let startset := match om_find id by_id' with Some x => x | None => [] end in
      r ← solve_local_r (e_heap ev k) (e_fuel ev) s d startset;
      match r with
      | (_, inr e) => Ok (by_id', inr e)
      | (d', inl (tof, conc)) =>
          diag_loop_r ev (S k) s d' by_id' (sol_assign_conc (sol_assign_tof sol id tof) id conc) rest
      end
  end.

(** Toolbox.cpp:158-171 (resp. 198-211): run the solver. *)
Definition run_diag_r (ev : env) (g rev : aconn) (pv : list num) (only : cellset_values)
    (by_id : flux_map) (sets : list cellset) : res (flux_map * (solution + exn)) :=
  sd ← tts_make_r g rev pv only;
  let '(s, d) := sd in
  r ← solve_global_r (e_heap ev 0) (e_fuel ev) s d;
  match r with
  | (_, inr e) => Ok (by_id, inr e)
  | (d', inl tof) => diag_loop_r ev 1 s d' by_id (sol_assign_global sol_new tof) sets
  end.

(** Toolbox.cpp:134-172, injDiag. *)
Definition tb_inj_diag_r (ev : env) (t : toolbox) (sets : list cellset)
  : res (toolbox * (solution + exn)) :=
  if (match tb_pvol t with [] => true | _ => false end) || (cv_num_connections (tb_flux t) =? 0)
  then Ok (t, inr LogicError)
  else if negb (start_sets_ok (tb_inj t) (tb_in t) sets) then Ok (t, inr RuntimeError)
  else
    b ← (if tb_built t then Ok (t, None) else tb_build_r t);
    match b with
    | (t1, Some e) => Ok (t1, inr e)
    | (t1, None) =>
        r ← run_diag_r ev (tb_down t1) (tb_up t1) (tb_pvol t1) (tb_in t1) (tb_inj t1) sets;
        Ok (mkTb (tb_g t1) (tb_pvol t1) (tb_flux t1) (fst r) (tb_prod t1) (tb_in t1) (tb_out t1)
                 (tb_down t1) (tb_up t1) (tb_built t1), snd r)
    end.

(** Toolbox.cpp:174-212, prodDiag. *)
Definition tb_prod_diag_r (ev : env) (t : toolbox) (sets : list cellset)
  : res (toolbox * (solution + exn)) :=
  if (match tb_pvol t with [] => true | _ => false end) || (cv_num_connections (tb_flux t) =? 0)
  then Ok (t, inr LogicError)
  else if negb (start_sets_ok (tb_prod t) (tb_out t) sets) then Ok (t, inr RuntimeError)
  else
    b ← (if tb_built t then Ok (t, None) else tb_build_r t);
    match b with
    | (t1, Some e) => Ok (t1, inr e)
    | (t1, None) =>
        r ← run_diag_r ev (tb_up t1) (tb_down t1) (tb_pvol t1) (tb_out t1) (tb_prod t1) sets;
        Ok (mkTb (tb_g t1) (tb_pvol t1) (tb_flux t1) (tb_inj t1) (fst r) (tb_in t1) (tb_out t1)
                 (tb_down t1) (tb_up t1) (tb_built t1), snd r)
    end.

(** Toolbox.cpp:276-306: the forwarding public functions. *)
Definition tb_step_r (t : toolbox) (c : tb_call) : res (toolbox * tb_obs) :=
  match c with
  | CInject ev sets => r ← tb_inj_diag_r ev t sets; Ok (fst r, obs_of_sum (snd r))
  | CProduce ev sets => r ← tb_prod_diag_r ev t sets; Ok (fst r, obs_of_sum (snd r))
  | _ => tb_step t c
  end.

(** A client program over Toolbox.cpp:276-306. *)
Fixpoint tb_run_r (t : toolbox) (cs : list tb_call) : res (toolbox * list tb_obs) :=
  match cs with
  | [] => Ok (t, [])
  | c :: cs' =>
      r ← tb_step_r t c;
      r' ← tb_run_r (fst r) cs';
      Ok (fst r', snd r :: snd r')
  end.

End release.
