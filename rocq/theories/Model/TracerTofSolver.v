(** Model of opm/flowdiagnostics/TracerTofSolver.{hpp,cpp}. *)
From Verif.Model Require Export Base Num OMap Containers AssembledConnections Tarjan.

Section solver.
Context {N : Num}.

(** TracerTofSolver.hpp:99: the largest time-of-flight. *)
Definition max_tof : num := nofZ 6307200000.                       (* 200*365*24*60*60 *)
(** TracerTofSolver.hpp:100. *)
Definition gs_tof_tol : num := ndiv max_tof (nofZ (10 ^ 12)).      (* max_tof_ / 1e12 *)
(** TracerTofSolver.hpp:101. *)
Definition gs_tracer_tol : num := ndiv (nofZ 1) (nofZ (10 ^ 9)).   (* 1e-9 *)
(** TracerTofSolver.cpp:405-406. *)
Definition big_delta : num := nofZ (10 ^ 100).                     (* 1e100 *)

(** TracerTofSolver.hpp:84-89: members fixed at construction. *)
Record tts := mkTts {
  ts_g : aconn;              (* g_ *)
  ts_rev : aconn;            (* g_reverse_ *)
  ts_pv : list num;          (* pv_ *)
  ts_influx : list num;      (* influx_ *)
  ts_outflux : list num;     (* outflux_ *)
  ts_source : list num       (* source_term_ *)
}.

(** TracerTofSolver.hpp:90-95: members that change.  The statistics counters
    (:96-98) are written but never read by anything observable and are left out here;
    Model/SolverStats.v has them. *)
Record tdyn := mkTdyn {
  td_local : list num;       (* local_source_term_ *)
  td_start : list bool;      (* is_start_ *)
  td_seq : list Z;           (* sequence_ *)
  td_comps : list Z;         (* component_starts_ *)
  td_tof : list num;         (* tof_ *)
  td_tracer : list num       (* tracer_ *)
}.

(** TracerTofSolver.cpp:41-48, expandSparse.  The int index is converted to
    size_t, so a negative cell is out of range like any other. *)
Definition expand_sparse (n : Z) (v : cellset_values) : res (list num) :=
  if n <? 0 then Throw LengthError
  else foldM (fun r kv => zset r (fst kv) (snd kv)) (replicate (Z.to_nat n) n0) v.

(** TracerTofSolver.cpp:62-66: the inner loop for one cell; state is
    (influx, outflux). *)
Definition inout_cell (cell : Z) (st : list num * list num) (conn : Z * num)
  : res (list num * list num) :=
  let '(inf, outf) := st in
  x ← zget inf (fst conn);
  inf' ← zset inf (fst conn) (nadd x (snd conn));
  y ← zget outf cell;
  outf' ← zset outf cell (nadd y (snd conn));
  Ok (inf', outf').

(** TracerTofSolver.cpp:54-72, InOutFluxComputer. *)
Definition inout_flux (g : aconn) : res (list num * list num) :=
  let num_cells := to_int (ac_numrows g) in
  if num_cells <? 0 then Throw LengthError
  else
    let z := replicate (Z.to_nat num_cells) n0 in
    forZ 0 num_cells (fun st cell =>
      nb ← ac_cell_neighbourhood g cell;
      foldM (inout_cell cell) st nb) (z, z).

(** TracerTofSolver.cpp:78-105, the constructors.  Members without initialiser
    are empty vectors. *)
Definition tts_make (g rev : aconn) (pv : list num) (source_inflow : cellset_values)
  : res (tts * tdyn) :=
  io ← inout_flux g;
  src ← expand_sparse (to_int (zlen pv)) source_inflow;
  Ok (mkTts g rev pv (fst io) (snd io) src,
      mkTdyn (replicate (length pv) n0) [] [] [] [] []).

(** TracerTofSolver.cpp:163-176, prepareForSolve.  The conversion of the number of
    cells to int (:166) is left out: 2^31 cells have made the constructor throw. *)
Definition prepare_for_solve (s : tts) (d : tdyn) : tdyn :=
  let n := length (ts_pv s) in
  mkTdyn (td_local d) (replicate n false) (td_seq d) (td_comps d)
         (replicate n n0) (replicate n n0).

(** TracerTofSolver.cpp:182-188, setupStartArray. *)
Definition setup_start_array (d : tdyn) (startset : cellset_values) : res tdyn :=
  l ← foldM (fun l kv => zset l (fst kv) true) (td_start d) startset;
  Ok (mkTdyn (td_local d) l (td_seq d) (td_comps d) (td_tof d) (td_tracer d)).

(** TracerTofSolver.cpp:194-202, setupStartArrayFromSource. *)
Definition setup_start_array_from_source (s : tts) (d : tdyn) : res tdyn :=
  l ← forZ 0 (to_int (zlen (ts_pv s))) (fun l cell =>
        x ← zget (ts_source s) cell;
        if nltb n0 x then zset l cell true else Ok l) (td_start d);
  Ok (mkTdyn (td_local d) l (td_seq d) (td_comps d) (td_tof d) (td_tracer d)).

(** TracerTofSolver.cpp:230 and 274, std::copy(first, last, dest + off): element by
    element. *)
Definition copy_into (src : list Z) (dst : list Z) (off : Z) : res (list Z) :=
  forZ 0 (zlen src) (fun d i => x ← zget src i; zset d (off + i) x) dst.

(** TracerTofSolver.cpp:224-232 and 268-276: copy the components of the
    Tarjan result into sequence_ and component_starts_. *)
Definition extract_components (num_cells : Z) (r : scc) (seq0 comps0 : list Z)
  : res (list Z * list Z) :=
  let sequence := resize_ (Z.to_nat num_cells) 0 seq0 in
  let num_comp := to_int (tarjan_get_numcomponents r) in
  let starts := resize_ (Z.to_nat (num_comp + 1)) 0 comps0 in
  starts0 ← zset starts 0 0;
  forZ 0 num_comp (fun st comp =>
    let '(sq, cs) := st in
    tc ← tarjan_get_strongcomponent r comp;
    b ← zget cs comp;
    sq' ← copy_into tc sq b;
    cs' ← zset cs (comp + 1) (to_int (b + zlen tc));
    Ok (sq', cs')) (sequence, starts0).

(** TracerTofSolver.cpp:208-234, computeOrdering.  tarjan() returning NULL is
    not checked: tarjan_reverse_sccresult dereferences it (tarjan.c:529). *)
Definition compute_ordering (h : heap) (s : tts) (d : tdyn) : res (tdyn * option exn) :=
  let num_cells := zlen (ts_pv s) in
  _ ← assert_ (zlen (ac_start (ts_g s)) =? num_cells + 1);
  r ← tarjan h num_cells (ac_start (ts_g s)) (ac_neigh (ts_g s));
  match r with
  | None => UB
  | Some res0 =>
      rr ← tarjan_reverse_sccresult h res0;
      if negb (fst rr) then Ok (d, Some RuntimeError)
      else
        st ← extract_components num_cells (snd rr) (td_seq d) (td_comps d);
        b ← zback (snd st);
        _ ← assert_ (b =? to_int num_cells);
        Ok (mkTdyn (td_local d) (td_start d) (fst st) (snd st) (td_tof d) (td_tracer d), None)
  end.

(** TracerTofSolver.cpp:240-278, computeLocalOrdering.  A NULL work-space hits
    the assertion tarjan.c:494; a NULL result is dereferenced. *)
Definition compute_local_ordering (h : heap) (s : tts) (d : tdyn) (startset : cellset_values)
  : res (tdyn * option exn) :=
  let startcells := map fst startset in
  let num_cells := zlen (ts_pv s) in
  _ ← assert_ (zlen (ac_start (ts_g s)) =? num_cells + 1);
  _ ← assert_ (ws_ok h 0);
  wr ← tarjan_reachable_sccs h num_cells (ac_start (ts_g s)) (ac_neigh (ts_g s))
                             startcells (new_ws h 0 num_cells);
  match snd wr with
  | None => UB
  | Some res0 =>
      rr ← tarjan_reverse_sccresult h res0;
      if negb (fst rr) then Ok (d, Some RuntimeError)
      else
        st ← extract_components num_cells (snd rr) (td_seq d) (td_comps d);
        b ← zback (snd st);
        Ok (mkTdyn (td_local d) (td_start d) (resize_ (Z.to_nat b) 0 (fst st)) (snd st)
                   (td_tof d) (td_tracer d), None)
  end.

(** TracerTofSolver.cpp:284-292, setupLocalSource: may throw half-way. *)
Fixpoint setup_local_source (l : list num) (startset : cellset_values)
  : res (list num * option exn) :=
  match startset with
  | [] => Ok (l, None)
  | (c, v) :: rest =>
      if nltb v n0 then Ok (l, Some LogicError)
      else l' ← zset l c v; setup_local_source l' rest
  end.

(** TracerTofSolver.cpp:298-303, cleanupLocalSource. *)
Definition cleanup_local_source (l : list num) (startset : cellset_values) : res (list num) :=
  foldM (fun l kv => zset l (fst kv) n0) l startset.

(** Assignment to local_source_term_ (TracerTofSolver.cpp:284-303). *)
Definition set_local (d : tdyn) (l : list num) : tdyn :=
  mkTdyn l (td_start d) (td_seq d) (td_comps d) (td_tof d) (td_tracer d).
(** Assignment to tof_ and tracer_ (TracerTofSolver.cpp:363-391). *)
Definition set_fields (d : tdyn) (tof tracer : list num) : tdyn :=
  mkTdyn (td_local d) (td_start d) (td_seq d) (td_comps d) tof tracer.

(** TracerTofSolver.cpp:342-349: upwind contributions (tof, tracer). *)
Definition upwind_step (tof tracer : list num) (acc : num * num) (conn : Z * num)
  : res (num * num) :=
  let '(ut, uc) := acc in
  t ← zget tof (fst conn);
  c ← zget tracer (fst conn);
  Ok (nadd ut (nmul (nmul t c) (snd conn)), nadd uc (nmul c (snd conn))).

(** TracerTofSolver.cpp:332-392, solveSingleCell. *)
Definition solve_single_cell (s : tts) (d : tdyn) (cell : Z) : res tdyn :=
  src ← zget (ts_source s) cell;
  st ← zget (td_start d) cell;
  let source := if neqb src n0 && st then ninf else src in
  inf ← zget (ts_influx s) cell;
  let total_influx := nadd inf source in
  nb ← ac_cell_neighbourhood (ts_rev s) cell;
  up ← foldM (upwind_step (td_tof d) (td_tracer d)) (n0, n0) nb;
  let '(ut, uc0) := up in
  ls ← zget (td_local d) cell;
  let uc := if st then nadd uc0 ls else uc0 in
  _ ← assert_ (nleb n0 total_influx);
  _ ← assert_ (nleb n0 uc);
  c ← (if neqb total_influx n0 then _ ← assert_ (neqb uc n0); Ok n0
       else Ok (ndiv uc total_influx));
  pv ← zget (ts_pv s) cell;
  let t := if nltb n0 c
           then ndiv (nadd (nmul pv c) ut) (nmul total_influx c)
           else max_tof in
  let t' := if nltb total_influx (ndiv pv max_tof) then max_tof else t in
  tracer' ← zset (td_tracer d) cell c;
  tof' ← zset (td_tof d) cell t';
  Ok (set_fields d tof' tracer').

(** TracerTofSolver.cpp:412-421: one cell of a sweep; state is
    (solver, max_tof_delta, max_tracer_delta). *)
Definition gs_cell (s : tts) (st : tdyn * num * num) (cell : Z) : res (tdyn * num * num) :=
  let '(d, dt, dc) := st in
  tof_before ← zget (td_tof d) cell;
  tracer_before ← zget (td_tracer d) cell;
  d' ← solve_single_cell s d cell;
  tof_after ← zget (td_tof d') cell;
  tracer_after ← zget (td_tracer d') cell;
  let dt' := nmax dt (nabs (nsub tof_after tof_before)) in
  let zero_change := negb (Bool.eqb (neqb tracer_before n0) (neqb tracer_after n0)) in
  let change := if zero_change then n1 else nabs (nsub tracer_after tracer_before) in
  Ok (d', dt', nmax dc change).

(** TracerTofSolver.cpp:409-421: one sweep over the cells of a component. *)
Definition gs_sweep (s : tts) (cells : list Z) (d : tdyn) : res (tdyn * num * num) :=
  foldM (gs_cell s) (d, n0, n0) cells.

(** TracerTofSolver.cpp:404-422, the Gauss-Seidel loop, with a sweep budget.  The
    counter num_iter (:407, 411) is left out; see Model/SolverStats.v. *)
Fixpoint gs_loop (fuel : nat) (s : tts) (cells : list Z) (d : tdyn) (dt dc : num) : res tdyn :=
  if nltb gs_tof_tol dt || nltb gs_tracer_tol dc then
    match fuel with
    | O => NoFuel
    | S fuel' =>
        r ← gs_sweep s cells d;
        let '(d', dt', dc') := r in
        gs_loop fuel' s cells d' dt' dc'
    end
  else Ok d.

(** TracerTofSolver.cpp:398-424, solveMultiCell. *)
Definition solve_multi_cell (fuel : nat) (s : tts) (d : tdyn) (cells : list Z) : res tdyn :=
  gs_loop fuel s cells d big_delta big_delta.

(** TracerTofSolver.cpp:313-320: one component. *)
Definition solve_comp (fuel : nat) (s : tts) (d : tdyn) (comp : Z) : res tdyn :=
  e ← zget (td_comps d) (comp + 1);
  b ← zget (td_comps d) comp;
  if e - b =? 1 then c ← zget (td_seq d) b; solve_single_cell s d c
  else cells ← zslice (td_seq d) b e; solve_multi_cell fuel s d cells.

(** TracerTofSolver.cpp:309-326, solve. *)
Definition solve (fuel : nat) (s : tts) (d : tdyn) : res tdyn :=
  d' ← forZ 0 (to_int (zlen (td_comps d) - 1)) (solve_comp fuel s) d;
  Ok (set_fields d' (map (fun t => nmin t max_tof) (td_tof d')) (td_tracer d')).

(** TracerTofSolver.cpp:111-125, solveGlobal. *)
Definition solve_global (h : heap) (fuel : nat) (s : tts) (d : tdyn)
  : res (tdyn * (list num + exn)) :=
  let d0 := prepare_for_solve s d in
  d1 ← setup_start_array_from_source s d0;
  let d2 := set_local d1 (ts_source s) in
  o ← compute_ordering h s d2;
  match o with
  | (d3, Some e) => Ok (d3, inr e)
  | (d3, None) =>
      d4 ← solve fuel s d3;
      let d5 := set_local d4 (map (fun _ => n0) (td_local d4)) in
      Ok (d5, inl (td_tof d5))
  end.

(** TracerTofSolver.cpp:143-155: collect the local solution; maps
    (tof, tracer), or the exception. *)
Fixpoint collect_local (d : tdyn) (cells : list Z) (tof conc : cellset_values)
  : res ((cellset_values * cellset_values) + exn) :=
  match cells with
  | [] => Ok (inl (tof, conc))
  | cell :: rest =>
      t ← zget (td_tof d) cell;
      c ← zget (td_tracer d) cell;
      if nleb c n0 then Ok (inr LogicError)
      else collect_local d rest (om_set cell t tof) (om_set cell c conc)
  end.

(** TracerTofSolver.cpp:131-157, solveLocal. *)
Definition solve_local (h : heap) (fuel : nat) (s : tts) (d : tdyn) (startset : cellset_values)
  : res (tdyn * ((cellset_values * cellset_values) + exn)) :=
  let d0 := prepare_for_solve s d in
  d1 ← setup_start_array d0 startset;
  o ← compute_local_ordering h s d1 startset;
  match o with
  | (d2, Some e) => Ok (d2, inr e)
  | (d2, None) =>
      ls ← setup_local_source (td_local d2) startset;
      match ls with
      | (l, Some e) => Ok (set_local d2 l, inr e)
      | (l, None) =>
          d3 ← solve fuel s (set_local d2 l);
          l' ← cleanup_local_source (td_local d3) startset;
          let d4 := set_local d3 l' in
          num_elements ← zback (td_comps d4);
          cells ← zslice (td_seq d4) 0 num_elements;
          r ← collect_local d4 cells [] [];
          Ok (d4, r)
      end
  end.

End solver.
