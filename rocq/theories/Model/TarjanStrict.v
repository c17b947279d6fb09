(** opm/utility/graph/tarjan.c once more, with the rule of C for pointers: a
    pointer into an array may be formed only if it points to an element or just
    past the last one (C11 6.5.6p8).  In Model/Tarjan.v the stack pointers are
    indices that may be -1.  Here every function that moves a stack pointer down
    checks the new value; the others only move them up, to places they have been
    at before.  All other pointers of the file point to elements that are read or
    written at once, which Model/Tarjan.v checks. *)
From Verif.Model Require Export Tarjan.
Open Scope Z_scope.

(** Forming [a + i] for an array [a] (tarjan.c:60-61, 124): C11 6.5.6p8. *)
Definition form {A} (a : list A) (i : Z) : res unit :=
  if (0 <=? i) && (i <=? zlen a) then Ok tt else UB.

(** tarjan.c:55-62, initialise_stacks. *)
Definition initialise_stacks_c (nvert : Z) (s : scc) : res scc :=
  _ ← form (s_start s) nvert;
  _ ← form (s_vert s) (nvert - 1);
  Ok (initialise_stacks nvert s).

(** tarjan.c:124, [push(scc->vstack) = x], that is [*scc->vstack-- = x]. *)
Definition push_v_c (s : scc) (x : Z) : res scc :=
  s' ← push_v s x;
  _ ← form (s_start s') (s_vstack s');
  Ok s'.
(** tarjan.c:124, [push(scc->cstack) = x]. *)
Definition push_c_c (s : scc) (x : Z) : res scc :=
  s' ← push_c s x;
  _ ← form (s_vert s') (s_cstack s');
  Ok s'.

(** tarjan.c:180-206, dfs_from_descendant. *)
Definition dfs_from_descendant_c (c : Z) (ia ja : list Z) (w : ws) (s : scc) : res (ws * scc) :=
  st ← zget (w_status w) c;
  _ ← assert_ (0 <? st);
  b ← zget ia c;
  child0 ← zget ja (b + (st - 1));
  let child := to_size child0 in
  w1 ← set_status w c (st - 1);
  sc ← zget (w_status w1) child;
  if sc =? REMAINING then s1 ← push_v_c s child; Ok (w1, s1)
  else if 0 <=? sc then
    lc ← zget (w_link w1) c;
    tch ← zget (w_time w1) child;
    w2 ← set_link w1 c (Z.min lc tch);
    Ok (w2, s)
  else _ ← assert_ (sc =? DONE); Ok (w1, s).

(** tarjan.c:208-220, discover_vertex. *)
Definition discover_vertex_c (c : Z) (ia : list Z) (time : Z) (w : ws) (s : scc)
  : res (ws * scc * Z) :=
  e ← zget ia (c + 1);
  b ← zget ia c;
  w1 ← set_status w c (to_int (to_size (e - b)));
  w2 ← set_link w1 c time;
  w3 ← set_time w2 c time;
  time' ← int_add time 1;
  s1 ← push_c_c s (to_int c);
  Ok (w3, s1, time').

(** tarjan.c:243-253, tarjan_initialise. *)
Definition tarjan_initialise_c (w : ws) (s : scc) : res (ws * scc) :=
  s1 ← initialise_stacks_c (w_nvert w) s;
  st ← assign_int_vector (w_nvert w) REMAINING (w_status w);
  s2 ← tarjan_initialise_csr s1;
  Ok (mkWs (w_nvert w) st (w_link w) (w_time w), s2).

(** tarjan.c:270-290, one iteration of the main loop of tarjan_local. *)
Definition tarjan_iter_c (ia ja : list Z) (t : tst) : res tst :=
  c ← peek_v (t_scc t);
  st ← zget (w_status (t_ws t)) c;
  _ ← assert_ (negb (st =? DONE));
  _ ← assert_ (-2 <=? st);
  r ← (if st =? REMAINING then discover_vertex_c c ia (t_time t) (t_ws t) (t_scc t)
       else Ok (t_ws t, t_scc t, t_time t));
  let '(w1, s1, tm1) := r in
  st1 ← zget (w_status w1) c;
  r2 ← (if st1 =? 0 then complete_dfs_from_vertex c w1 s1
        else dfs_from_descendant_c c ia ja w1 s1);
  let '(w2, s2) := r2 in
  Ok (mkT w2 s2 tm1 (t_steps t + 1)).

(** tarjan.c:269-291, the while loop, with explicit fuel. *)
Fixpoint tarjan_loop_c (fuel : nat) (ia ja : list Z) (t : tst) : res tst :=
  if s_vstack (t_scc t) =? s_vstart (t_scc t) then Ok t
  else match fuel with
       | O => NoFuel
       | S fuel' => t' ← tarjan_iter_c ia ja t; tarjan_loop_c fuel' ia ja t'
       end.

(** tarjan.c:255-294, tarjan_local. *)
Definition tarjan_local_c (fuel : nat) (start : Z) (ia ja : list Z) (w : ws) (s : scc) (steps : Z)
  : res tst :=
  s1 ← push_v_c s start;
  t ← tarjan_loop_c fuel ia ja (mkT w s1 0 steps);
  _ ← assert_ (s_cstack (t_scc t) =? s_cstart (t_scc t));
  Ok t.

(** tarjan.c:324-329, the for loop of tarjan_global. *)
Fixpoint global_loop_c (k fuel : nat) (start : Z) (ia ja : list Z) (t : tst) : res tst :=
  if start <? w_nvert (t_ws t) then
    match k with
    | O => NoFuel
    | S k' =>
        t' ← tarjan_local_c fuel start ia ja (t_ws t) (t_scc t) (t_steps t);
        start' ← tarjan_find_start start (t_ws t');
        global_loop_c k' fuel start' ia ja t'
    end
  else Ok t.

(** tarjan.c:311-330, tarjan_global. *)
Definition tarjan_global_c (fuel : nat) (ia ja : list Z) (w : ws) (s : scc) : res tst :=
  r ← tarjan_initialise_c w s;
  let '(w1, s1) := r in
  start ← tarjan_find_start 0 w1;
  global_loop_c (Z.to_nat (w_nvert w1)) fuel start ia ja (mkT w1 s1 0 0).

(** tarjan.c:453-481, tarjan. *)
Definition tarjan_c (h : heap) (nv : Z) (ia ja : list Z) : res (option scc) :=
  if ws_ok h 0 && scc_ok h 2 then
    t ← tarjan_global_c (tarjan_fuel nv ja) ia ja (new_ws h 0 nv) (new_scc h 3 nv);
    Ok (Some (t_scc t))
  else Ok None.

(** tarjan.c:508-516: the loop over the start points. *)
Definition reachable_step_c (fuel : nat) (ia ja : list Z) (t : tst) (start0 : Z) : res tst :=
  let start := to_size start0 in
  st ← zget (w_status (t_ws t)) start;
  if st =? DONE then Ok t
  else tarjan_local_c fuel start ia ja (t_ws t) (t_scc t) (t_steps t).

(** tarjan.c:506-517: initialise, then loop over the start points. *)
Definition reachable_run_c (fuel : nat) (ia ja start_pts : list Z) (w : ws) (s : scc) : res tst :=
  r ← tarjan_initialise_c w s;
  let '(w1, s1) := r in
  foldM (reachable_step_c fuel ia ja) (mkT w1 s1 0 0) start_pts.

(** tarjan.c:483-520, tarjan_reachable_sccs. *)
Definition tarjan_reachable_sccs_c (h : heap) (nv : Z) (ia ja : list Z) (start_pts : list Z) (w : ws)
  : res (ws * option scc) :=
  _ ← assert_ (nv <=? w_nvert w);
  if scc_ok h 5 then
    t ← reachable_run_c (tarjan_fuel (w_nvert w) ja) ia ja start_pts w (new_scc h 6 (w_nvert w));
    Ok (t_ws t, Some (t_scc t))
  else Ok (w, None).
