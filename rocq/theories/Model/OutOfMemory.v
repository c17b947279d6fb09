(** Running out of memory (std::bad_alloc) in the calls of
    opm/flowdiagnostics/Toolbox.{hpp,cpp} and in those of
    opm/utility/graph/AssembledConnections.{hpp,cpp}.

    The other files of the model let every operator new succeed.  Here one of them
    fails, and what matters is the state in which the object is left.  The
    malloc() of tarjan.c is not meant: it has its own model in Tarjan.v. *)
From Verif.Model Require Export Base Num OMap Containers AssembledConnections TracerTofSolver Toolbox.
Open Scope Z_scope.

Section oom.
Context {N : Num}.

(** What a copy assignment [old = new] of a std::vector leaves in [old] when it
    runs out of memory (Toolbox.cpp:98, and 109 through ConnectionValues).  The C++
    standard leaves it open: libstdc++ allocates first and keeps the old contents,
    libc++ frees them first and leaves the vector empty. *)
Definition left_over {A} (emptied : bool) (old : list A) : list A := if emptied then [] else old.

(** Toolbox.cpp:90-99, assignPoreVolume. *)
Definition tb_assign_pv_fail (t : toolbox) (pv : list num) (emptied : bool) : toolbox * option exn :=
  if negb (zlen pv =? cg_num_cells (tb_g t)) then (t, Some LogicError)
  else (mkTb (tb_g t) (left_over emptied (tb_pvol t)) (tb_flux t) (tb_inj t) (tb_prod t) (tb_in t) (tb_out t)
             (tb_down t) (tb_up t) (tb_built t), None).

(** Toolbox.cpp:101-111, assignConnectionFlux.  The assignment on line 109 is the
    implicit one of ConnectionValues: member by member in the order of
    ConnectionValues.hpp:69-72, so the two sizes are new when the copy of the data
    fails.  Line 110 is not reached. *)
Definition tb_assign_flux_fail (t : toolbox) (f : cvalues) (emptied : bool) : toolbox * option exn :=
  if negb (cv_num_connections f =? cg_num_connections (tb_g t)) then (t, Some LogicError)
  else (mkTb (tb_g t) (tb_pvol t)
             (mkCvalues (cv_nconn f) (cv_nphase f) (left_over emptied (cv_data (tb_flux t))))
             (tb_inj t) (tb_prod t) (tb_in t) (tb_out t) (tb_down t) (tb_up t) (tb_built t), None).

(** Toolbox.cpp:122-130: the insertions made for one rate.  Each of them happens or
    does not happen. *)
Definition rate_ops (id : cellset_id) (data : Z * num) : list (rates -> rates) :=
  let '(c, v) := data in
  if nltb n0 v then
    [ (fun r => mkRates (om_plus c v (r_in r)) (r_out r) (r_inj r) (r_prod r));
      (fun r => mkRates (r_in r) (r_out r) (om_insert id [] (r_inj r)) (r_prod r));
      (fun r => mkRates (r_in r) (r_out r) (om_insert_in id c v (r_inj r)) (r_prod r)) ]
  else if nltb v n0 then
    [ (fun r => mkRates (r_in r) (om_plus c (nopp v) (r_out r)) (r_inj r) (r_prod r));
      (fun r => mkRates (r_in r) (r_out r) (r_inj r) (om_insert id [] (r_prod r)));
      (fun r => mkRates (r_in r) (r_out r) (r_inj r) (om_insert_in id c (nopp v) (r_prod r))) ]
  else [].
(** Toolbox.cpp:120-131: all of them, in order. *)
Definition inflow_ops (inflow : flux_map) : list (rates -> rates) :=
  concat (map (fun idvals => concat (map (rate_ops (fst idvals)) (snd idvals))) inflow).
(** Toolbox.cpp:116-131 up to insertion number [k]. *)
Definition partial_rates (inflow : flux_map) (k : nat) : rates :=
  foldl (fun r op => op r) (mkRates [] [] [] []) (take k (inflow_ops inflow)).

(** Toolbox.cpp:113-132, assignInflowFlux, with memory for [k] insertions; true when
    that is not enough. *)
Definition tb_assign_inflow_fail (t : toolbox) (inflow : flux_map) (k : nat) : toolbox * bool :=
  let r := partial_rates inflow k in
  (mkTb (tb_g t) (tb_pvol t) (tb_flux t) (r_inj r) (r_prod r) (r_in r) (r_out r)
        (tb_down t) (tb_up t) (tb_built t), Nat.ltb k (length (inflow_ops inflow))).

(** Where in a computation (Toolbox.cpp:134-212) the memory runs out: *)
Inductive oom_at :=
| AtBuild (k : nat) (dn up : aconn)
    (* in buildAssembledConnections (:154-156), after [k] connections, leaving anything in the two graphs *)
| AtSolve (ev : env).
    (* in the solver or in the solution (:158-171) *)

(** Toolbox.cpp:214-245, buildAssembledConnections, failing after [k] rounds of the
    loop on lines 222-238 or, if there are not that many, in compress(). *)
Definition tb_build_fail (t : toolbox) (k : nat) (dn up : aconn) : res toolbox :=
  _ ← forZ 0 (Z.min (Z.of_nat k) (cg_num_connections (tb_g t))) (build_step (tb_g t) (tb_flux t)) (ac_new, ac_new);
  Ok (mkTb (tb_g t) (tb_pvol t) (tb_flux t) (tb_inj t) (tb_prod t) (tb_in t) (tb_out t) dn up (tb_built t)).

(** Toolbox.cpp:158-171 (resp. 198-211) failing somewhere: undefined behaviour if the
    rest of the call has any (it may be met before the failure), otherwise nothing
    is left of it, since all objects are local. *)
Definition solve_fail (r : res (flux_map * (solution + exn))) : res unit :=
  match r with UB => UB | _ => Ok tt end.

(** Toolbox.cpp:134-172, injDiag, and 174-212, prodDiag; None is std::bad_alloc.  The
    checks on lines 137-152 (resp. 177-192) allocate nothing but copies of the names. *)
Definition tb_diag_fail (inj : bool) (w : oom_at) (t : toolbox) (sets : list cellset) : res (toolbox * option exn) :=
  if (match tb_pvol t with [] => true | _ => false end) || (cv_num_connections (tb_flux t) =? 0)
  then Ok (t, Some LogicError)
  else if negb (if inj then start_sets_ok (tb_inj t) (tb_in t) sets else start_sets_ok (tb_prod t) (tb_out t) sets)
  then Ok (t, Some RuntimeError)
  else
    match w with
    | AtBuild k dn up =>
        if tb_built t then Ok (t, None)
        else t1 ← tb_build_fail t k dn up; Ok (t1, None)
    | AtSolve ev =>
        b ← (if tb_built t then Ok (t, None) else tb_build t);
        match b with
        | (t1, Some e) => Ok (t1, Some e)
        | (t1, None) =>
            _ ← solve_fail (if inj then run_diag ev (tb_down t1) (tb_up t1) (tb_pvol t1) (tb_in t1) (tb_inj t1) sets
                            else run_diag ev (tb_up t1) (tb_down t1) (tb_pvol t1) (tb_out t1) (tb_prod t1) sets);
            Ok (t1, None)
        end
    end.

(** The calls of Toolbox.cpp:276-306, each with or without enough memory. *)
Inductive mcall :=
| Enough (c : tb_call)
| FailPoreVolume (pv : list num) (emptied : bool)
| FailFlux (f : cvalues) (emptied : bool)
| FailInflow (m : flux_map) (k : nat)
| FailInject (w : oom_at) (sets : list cellset)
| FailProduce (w : oom_at) (sets : list cellset).

(** What is observed (Toolbox.cpp:276-306): as before, or std::bad_alloc. *)
Inductive mobs := Seen (o : tb_obs) | BadAlloc.
(** Toolbox.cpp:276-306: the outcome of a call that fails after its checks. *)
Definition obs_fail (o : option exn) : mobs := match o with Some e => Seen (OExn e) | None => BadAlloc end.

(** Toolbox.cpp:276-306: the forwarding public functions. *)
Definition m_step (t : toolbox) (c : mcall) : res (toolbox * mobs) :=
  match c with
  | Enough c => r ← tb_step t c; Ok (fst r, Seen (snd r))
  | FailPoreVolume pv b => let '(t', o) := tb_assign_pv_fail t pv b in Ok (t', obs_fail o)
  | FailFlux f b => let '(t', o) := tb_assign_flux_fail t f b in Ok (t', obs_fail o)
  | FailInflow m k => let '(t', b) := tb_assign_inflow_fail t m k in Ok (t', if b : bool then BadAlloc else Seen ODone)
  | FailInject w sets => r ← tb_diag_fail true w t sets; Ok (fst r, obs_fail (snd r))
  | FailProduce w sets => r ← tb_diag_fail false w t sets; Ok (fst r, obs_fail (snd r))
  end.

(** A client program over Toolbox.cpp:276-306 that carries on after std::bad_alloc. *)
Fixpoint m_run (t : toolbox) (cs : list mcall) : res (toolbox * list mobs) :=
  match cs with
  | [] => Ok (t, [])
  | c :: cs' => r ← m_step t c; r' ← m_run (fst r) cs'; Ok (fst r', snd r :: snd r')
  end.

(** ** Graphs under assembly *)
(** AssembledConnections.cpp:40-58: which push_back of Connections::add fails: that on
    line 44 (nothing happens), on line 45 or on line 57. *)
Inductive add_oom := AtI | AtJ | AtV.
(** AssembledConnections.cpp:40-58, Connections::add, failing there. *)
Definition conns_add_fail (c : conns) (i j : Z) (w : add_oom) : conns :=
  match w with
  | AtI => c
  | AtJ => mkConns (c_i c ++ [i]) (c_j c) (c_v c) (c_maxi c) (c_maxj c)
  | AtV => conns_add c i j
  end.
(** AssembledConnections.cpp:405-412, addConnection(i, j, v). *)
Definition ac_add_w_fail (g : aconn) (i j : Z) (w : add_oom) : aconn :=
  mkAconn (conns_add_fail (ac_conns g) i j w) (ac_csr g).
(** AssembledConnections.cpp:414-425, compress(), failing in CSR::create: the
    connections are not cleared, and anything is left in csr_. *)
Definition ac_compress_fail (g : aconn) (m : csr) : aconn * option exn :=
  if negb (conns_valid (ac_conns g)) then (g, Some LogicError) else (mkAconn (ac_conns g) m, None).

End oom.
