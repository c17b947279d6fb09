(** Model of opm/flowdiagnostics/Toolbox.{hpp,cpp}. *)
From Verif.Model Require Export Base Num OMap Containers Solution TracerTofSolver.

Section toolbox.
Context {N : Num}.

(** Toolbox.hpp:67: std::map<CellSetID, CellSetValues>. *)
Definition flux_map := smap cellset_id cellset_values.

(** Toolbox.cpp:65-76, members of Toolbox::Impl. *)
Record toolbox := mkTb {
  tb_g : cgraph;                (* g_ *)
  tb_pvol : list num;           (* pvol_ *)
  tb_flux : cvalues;            (* flux_ *)
  tb_inj : flux_map;            (* inj_flux_by_id_ *)
  tb_prod : flux_map;           (* prod_flux_by_id_ *)
  tb_in : cellset_values;       (* only_inflow_flux_ *)
  tb_out : cellset_values;      (* only_outflow_flux_ *)
  tb_down : aconn;              (* downstream_conn_ *)
  tb_up : aconn;                (* upstream_conn_ *)
  tb_built : bool               (* conn_built_ *)
}.

(** Toolbox.cpp:81-88, the constructor. *)
Definition tb_new (g : cgraph) : toolbox :=
  mkTb g [] (cv_make 0 0) [] [] [] [] ac_new ac_new false.

(** What the environment decides during one call of Toolbox.cpp:134-212: for the k-th solve of the call
    the heap, and the sweep budget of the Gauss-Seidel loops. *)
Record env := mkEnv { e_heap : nat -> heap; e_fuel : nat }.

(** Toolbox.cpp:90-99, assignPoreVolume. *)
Definition tb_assign_pv (t : toolbox) (pv : list num) : toolbox * option exn :=
  if negb (zlen pv =? cg_num_cells (tb_g t)) then (t, Some LogicError)
  else (mkTb (tb_g t) pv (tb_flux t) (tb_inj t) (tb_prod t) (tb_in t) (tb_out t)
             (tb_down t) (tb_up t) (tb_built t), None).

(** Toolbox.cpp:101-111, assignConnectionFlux. *)
Definition tb_assign_flux (t : toolbox) (f : cvalues) : toolbox * option exn :=
  if negb (cv_num_connections f =? cg_num_connections (tb_g t)) then (t, Some LogicError)
  else (mkTb (tb_g t) (tb_pvol t) f (tb_inj t) (tb_prod t) (tb_in t) (tb_out t)
             (tb_down t) (tb_up t) false, None).

(** Toolbox.cpp:69-72: the four maps built by assignInflowFlux. *)
Record rates := mkRates {
  r_in : cellset_values; r_out : cellset_values; r_inj : flux_map; r_prod : flux_map }.

(** [m[k] += x] on a std::map<int,double> (Toolbox.cpp:124, 127): an absent entry
    starts at 0.0. *)
Definition om_plus (k : Z) (x : num) (m : cellset_values) : cellset_values :=
  om_alter (fun o => nadd (match o with Some y => y | None => n0 end) x) k m.
(** [m[id].insert({k,x})] (Toolbox.cpp:125, 128): an absent entry starts as the empty
    map. *)
Definition om_insert_in (id : cellset_id) (k : Z) (x : num) (m : flux_map) : flux_map :=
  om_alter (fun o => om_insert k x (match o with Some y => y | None => [] end)) id m.

(** Toolbox.cpp:122-130: one rate. *)
Definition add_rate (id : cellset_id) (r : rates) (data : Z * num) : rates :=
  let '(c, v) := data in
  if nltb n0 v then
    mkRates (om_plus c v (r_in r)) (r_out r) (om_insert_in id c v (r_inj r)) (r_prod r)
  else if nltb v n0 then
    mkRates (r_in r) (om_plus c (nopp v) (r_out r)) (r_inj r)
            (om_insert_in id c (nopp v) (r_prod r))
  else r.

(** Toolbox.cpp:116-131. *)
Definition split_rates (inflow : flux_map) : rates :=
  foldl (fun r idvals => foldl (add_rate (fst idvals)) r (snd idvals))
        (mkRates [] [] [] []) inflow.

(** Toolbox.cpp:113-132, assignInflowFlux. *)
Definition tb_assign_inflow (t : toolbox) (inflow : flux_map) : toolbox :=
  let r := split_rates inflow in
  mkTb (tb_g t) (tb_pvol t) (tb_flux t) (r_inj r) (r_prod r) (r_in r) (r_out r)
       (tb_down t) (tb_up t) (tb_built t).

(** Toolbox.cpp:226-230: phase-summed flux of a connection. *)
Definition conn_flux (f : cvalues) (conn : Z) : res num :=
  forZ 0 (cv_num_phases f) (fun acc phase =>
    x ← cv_get f conn phase; Ok (nadd acc x)) n0.

(** Toolbox.cpp:222-238: one connection; state is (downstream, upstream). *)
Definition build_step (g : cgraph) (f : cvalues) (st : aconn * aconn) (conn : Z)
  : res (aconn * aconn) :=
  let '(dn, up) := st in
  cells ← cg_connection g conn;
  fl ← conn_flux f conn;
  if nltb n0 fl then
    Ok (ac_add_w dn (fst cells) (snd cells) fl, ac_add_w up (snd cells) (fst cells) fl)
  else if nltb fl n0 then
    Ok (ac_add_w dn (snd cells) (fst cells) (nopp fl), ac_add_w up (fst cells) (snd cells) (nopp fl))
  else Ok (dn, up).

(** Toolbox.cpp:214-245, buildAssembledConnections. *)
Definition tb_build (t : toolbox) : res (toolbox * option exn) :=
  st ← forZ 0 (cg_num_connections (tb_g t)) (build_step (tb_g t) (tb_flux t)) (ac_new, ac_new);
  let num_cells := to_size (to_int (cg_num_cells (tb_g t))) in
  let upd dn up b := mkTb (tb_g t) (tb_pvol t) (tb_flux t) (tb_inj t) (tb_prod t)
                          (tb_in t) (tb_out t) dn up b in
  d ← ac_compress (fst st) num_cells;
  match d with
  | (dn, Some e) => Ok (upd dn (snd st) (tb_built t), Some e)
  | (dn, None) =>
      u ← ac_compress (snd st) num_cells;
      match u with
      | (up, Some e) => Ok (upd dn up (tb_built t), Some e)
      | (up, None) => Ok (upd dn up true, None)
      end
  end.

(** Toolbox.cpp:143-152 (resp. 183-192): validity of the start sets. *)
Definition start_sets_ok (by_id : flux_map) (only : cellset_values) (sets : list cellset) : bool :=
  forallb (fun s => (match om_find (cs_id s) by_id with Some _ => true | None => false end) &&
                    forallb (fun cell => om_count cell only =? 1) (cs_cells s)) sets.

(** Toolbox.cpp:165-169 (resp. 205-209): the loop over start sets.
    [by_id] is the map accessed with operator[] (which inserts an empty entry
    when the key is absent); [k] numbers the solves of this call. *)
Fixpoint diag_loop (ev : env) (k : nat) (s : tts) (d : tdyn) (by_id : flux_map) (sol : solution)
    (sets : list cellset) : res (flux_map * (solution + exn)) :=
  match sets with
  | [] => Ok (by_id, inl sol)
  | st :: rest =>
      let id := cs_id st in
      let by_id' := om_insert id [] by_id in
      let startset := match om_find id by_id' with Some x => x | None => [] end in
      r ← solve_local (e_heap ev k) (e_fuel ev) s d startset;
      match r with
      | (_, inr e) => Ok (by_id', inr e)
      | (d', inl (tof, conc)) =>
          diag_loop ev (S k) s d' by_id' (sol_assign_conc (sol_assign_tof sol id tof) id conc) rest
      end
  end.

(** Toolbox.cpp:158-171 (resp. 198-211): run the solver. *)
Definition run_diag (ev : env) (g rev : aconn) (pv : list num) (only : cellset_values)
    (by_id : flux_map) (sets : list cellset) : res (flux_map * (solution + exn)) :=
  sd ← tts_make g rev pv only;
  let '(s, d) := sd in
  r ← solve_global (e_heap ev 0) (e_fuel ev) s d;
  match r with
  | (_, inr e) => Ok (by_id, inr e)
  | (d', inl tof) => diag_loop ev 1 s d' by_id (sol_assign_global sol_new tof) sets
  end.

(** Toolbox.cpp:134-172, injDiag. *)
Definition tb_inj_diag (ev : env) (t : toolbox) (sets : list cellset)
  : res (toolbox * (solution + exn)) :=
  if (match tb_pvol t with [] => true | _ => false end) || (cv_num_connections (tb_flux t) =? 0)
  then Ok (t, inr LogicError)
  else if negb (start_sets_ok (tb_inj t) (tb_in t) sets) then Ok (t, inr RuntimeError)
  else
    b ← (if tb_built t then Ok (t, None) else tb_build t);
    match b with
    | (t1, Some e) => Ok (t1, inr e)
    | (t1, None) =>
        r ← run_diag ev (tb_down t1) (tb_up t1) (tb_pvol t1) (tb_in t1) (tb_inj t1) sets;
        Ok (mkTb (tb_g t1) (tb_pvol t1) (tb_flux t1) (fst r) (tb_prod t1) (tb_in t1) (tb_out t1)
                 (tb_down t1) (tb_up t1) (tb_built t1), snd r)
    end.

(** Toolbox.cpp:174-212, prodDiag. *)
Definition tb_prod_diag (ev : env) (t : toolbox) (sets : list cellset)
  : res (toolbox * (solution + exn)) :=
  if (match tb_pvol t with [] => true | _ => false end) || (cv_num_connections (tb_flux t) =? 0)
  then Ok (t, inr LogicError)
  else if negb (start_sets_ok (tb_prod t) (tb_out t) sets) then Ok (t, inr RuntimeError)
  else
    b ← (if tb_built t then Ok (t, None) else tb_build t);
    match b with
    | (t1, Some e) => Ok (t1, inr e)
    | (t1, None) =>
        r ← run_diag ev (tb_up t1) (tb_down t1) (tb_pvol t1) (tb_out t1) (tb_prod t1) sets;
        Ok (mkTb (tb_g t1) (tb_pvol t1) (tb_flux t1) (tb_inj t1) (fst r) (tb_in t1) (tb_out t1)
                 (tb_down t1) (tb_up t1) (tb_built t1), snd r)
    end.

(** ** The public interface as one step function (Toolbox.hpp:54-109). *)
Inductive tb_call :=
| CPoreVolume (pv : list num)
| CFlux (f : cvalues)
| CInflow (m : flux_map)
| CInject (ev : env) (sets : list cellset)
| CProduce (ev : env) (sets : list cellset).

(** What the caller observes (Toolbox.cpp:276-306): normal return, a solution, or an exception. *)
Inductive tb_obs := ODone | OSol (s : solution) | OExn (e : exn).

(** Toolbox.cpp:276-294: the assign functions return nothing. *)
Definition obs_of_opt (o : option exn) : tb_obs :=
  match o with Some e => OExn e | None => ODone end.
(** Toolbox.cpp:296-306: the compute functions return a solution. *)
Definition obs_of_sum (o : solution + exn) : tb_obs :=
  match o with inl s => OSol s | inr e => OExn e end.

(** Toolbox.cpp:276-306: the forwarding public functions. *)
Definition tb_step (t : toolbox) (c : tb_call) : res (toolbox * tb_obs) :=
  match c with
  | CPoreVolume pv => let '(t', o) := tb_assign_pv t pv in Ok (t', obs_of_opt o)
  | CFlux f => let '(t', o) := tb_assign_flux t f in Ok (t', obs_of_opt o)
  | CInflow m => Ok (tb_assign_inflow t m, ODone)
  | CInject ev sets => r ← tb_inj_diag ev t sets; Ok (fst r, obs_of_sum (snd r))
  | CProduce ev sets => r ← tb_prod_diag ev t sets; Ok (fst r, obs_of_sum (snd r))
  end.

(** A client program over Toolbox.cpp:276-306: the state after it and everything observed. *)
Fixpoint tb_run (t : toolbox) (cs : list tb_call) : res (toolbox * list tb_obs) :=
  match cs with
  | [] => Ok (t, [])
  | c :: cs' =>
      r ← tb_step t c;
      r' ← tb_run (fst r) cs';
      Ok (fst r', snd r :: snd r')
  end.

End toolbox.
