(** Model of opm/utility/graph/tarjan.{h,c}.  Arrays are lists with checked
    access; the stack pointers vstack/vstart (into start[]) and cstack/cstart
    (into vert[]) are indices (so "one before the array" is index -1). *)
From Verif.Model Require Export Base.

(** What the C library supplies (tarjan.c:95-101, 370-375): the content of freshly malloc'ed block [b] at
    index [k], and whether the [b]-th allocation of a call succeeds. *)
Record heap := mkHeap { h_junk : nat -> nat -> Z; h_ok : nat -> bool }.

(** The content of a malloc'ed array (tarjan.c:100-101, 375). *)
Definition fresh_block (h : heap) (b : nat) (n : nat) : list Z :=
  map (h_junk h b) (seq 0 n).

(** tarjan.c:34, enum VertexMark. *)
Definition DONE : Z := -2.
(** tarjan.c:34. *)
Definition REMAINING : Z := -1.

(** tarjan.c:36-43, struct TarjanWorkSpace.  In C the three arrays are
    consecutive parts of one block; the model checks the bounds of each part. *)
Record ws := mkWs { w_nvert : Z; w_status : list Z; w_link : list Z; w_time : list Z }.

(** tarjan.c:45-53, struct TarjanSCCResult. *)
Record scc := mkScc {
  s_ncomp : Z;
  s_start : list Z; s_vert : list Z;
  s_vstack : Z; s_vstart : Z;
  s_cstack : Z; s_cstart : Z
}.

(** State of a DFS: work-space, result, the local variable [time] of
    tarjan_local and a ghost counter of main-loop iterations (not in the C code,
    used only to state the complexity claim of tarjan.h:28). *)
Record tst := mkT { t_ws : ws; t_scc : scc; t_time : Z; t_steps : Z }.

(** Assignment to members of [*scc] and [*work] (tarjan.c:126-220). *)
Definition set_scc (t : tst) (s : scc) : tst := mkT (t_ws t) s (t_time t) (t_steps t).
(** As above (tarjan.c:126-220). *)
Definition set_ws (t : tst) (w : ws) : tst := mkT w (t_scc t) (t_time t) (t_steps t).

(** Assignment to [work->status[v]] (tarjan.c:126-220). *)
Definition set_status (w : ws) (v x : Z) : res ws :=
  l ← zset (w_status w) v x; Ok (mkWs (w_nvert w) l (w_link w) (w_time w)).
(** Assignment to [work->link[v]] (tarjan.c:158-220). *)
Definition set_link (w : ws) (v x : Z) : res ws :=
  l ← zset (w_link w) v x; Ok (mkWs (w_nvert w) (w_status w) l (w_time w)).
(** Assignment to [work->time[v]] (tarjan.c:208-220). *)
Definition set_time (w : ws) (v x : Z) : res ws :=
  l ← zset (w_time w) v x; Ok (mkWs (w_nvert w) (w_status w) (w_link w) l).

(** tarjan.c:55-62, initialise_stacks. *)
Definition initialise_stacks (nvert : Z) (s : scc) : scc :=
  mkScc (s_ncomp s) (s_start s) (s_vert s) nvert nvert (nvert - 1) (nvert - 1).

(** tarjan.c:64-70, assign_int_vector. *)
Definition assign_int_vector (n val : Z) (v : list Z) : res (list Z) :=
  forZ 0 n (fun l i => zset l i val) v.

(** tarjan.c:123-124: push / peek on the vertex stack. *)
Definition push_v (s : scc) (x : Z) : res scc :=
  l ← zset (s_start s) (s_vstack s) x;
  Ok (mkScc (s_ncomp s) l (s_vert s) (s_vstack s - 1) (s_vstart s) (s_cstack s) (s_cstart s)).
(** tarjan.c:123: peek at the vertex stack. *)
Definition peek_v (s : scc) : res Z := zget (s_start s) (s_vstack s + 1).
(** tarjan.c:124: push on the component stack. *)
Definition push_c (s : scc) (x : Z) : res scc :=
  l ← zset (s_vert s) (s_cstack s) x;
  Ok (mkScc (s_ncomp s) (s_start s) l (s_vstack s) (s_vstart s) (s_cstack s - 1) (s_cstart s)).

(** tarjan.c:141-151, the do-while loop of capture_scc.  [fuel] is the number
    of vertices on the component stack: when it is exhausted the assertion at
    :142 fails. *)
Fixpoint capture_loop (fuel : nat) (c : Z) (w : ws) (s : scc) : res (ws * scc) :=
  match fuel with
  | O => AssertFail
  | S fuel' =>
      _ ← assert_ (negb (s_cstack s =? s_cstart s));
      v ← zget (s_vert s) (s_cstack s + 1);
      w' ← set_status w v DONE;
      p ← zget (s_start s) (s_ncomp s + 1);
      vert' ← zset (s_vert s) p v;
      start' ← zset (s_start s) (s_ncomp s + 1) (p + 1);
      let s' := mkScc (s_ncomp s) start' vert' (s_vstack s) (s_vstart s)
                      (s_cstack s + 1) (s_cstart s) in
      if v =? c then Ok (w', s') else capture_loop fuel' c w' s'
  end.

(** tarjan.c:126-156, capture_scc. *)
Definition capture_scc (c : Z) (w : ws) (s : scc) : res (ws * scc) :=
  x ← zget (s_start s) (s_ncomp s);
  start' ← zset (s_start s) (s_ncomp s + 1) x;
  let s1 := mkScc (s_ncomp s) start' (s_vert s) (s_vstack s) (s_vstart s)
                  (s_cstack s) (s_cstart s) in
  r ← capture_loop (S (Z.to_nat (s_cstart s - s_cstack s))) c w s1;
  let '(w', s') := r in
  Ok (w', mkScc (s_ncomp s' + 1) (s_start s') (s_vert s') (s_vstack s') (s_vstart s')
                (s_cstack s') (s_cstart s')).

(** tarjan.c:158-178, complete_dfs_from_vertex. *)
Definition complete_dfs_from_vertex (c : Z) (w : ws) (s : scc) : res (ws * scc) :=
  lc ← zget (w_link w) c;
  tc ← zget (w_time w) c;
  r ← (if lc =? tc then capture_scc c w s else Ok (w, s));
  let '(w1, s1) := r in
  let s2 := mkScc (s_ncomp s1) (s_start s1) (s_vert s1) (s_vstack s1 + 1) (s_vstart s1)
                  (s_cstack s1) (s_cstart s1) in
  if s_vstack s2 =? s_vstart s2 then Ok (w1, s2)
  else
    v ← peek_v s2;
    lv ← zget (w_link w1) v;
    lc' ← zget (w_link w1) c;
    w2 ← set_link w1 v (Z.min lv lc');
    Ok (w2, s2).

(** tarjan.c:180-206, dfs_from_descendant.  [child] is an int converted to
    size_t: a negative entry would index far outside the arrays. *)
Definition dfs_from_descendant (c : Z) (ia ja : list Z) (w : ws) (s : scc) : res (ws * scc) :=
  st ← zget (w_status w) c;
  _ ← assert_ (0 <? st);
  b ← zget ia c;
  child0 ← zget ja (b + (st - 1));
  let child := to_size child0 in
  w1 ← set_status w c (st - 1);
  sc ← zget (w_status w1) child;
  if sc =? REMAINING then s1 ← push_v s child; Ok (w1, s1)
  else if 0 <=? sc then
    lc ← zget (w_link w1) c;
    tch ← zget (w_time w1) child;
    w2 ← set_link w1 c (Z.min lc tch);
    Ok (w2, s)
  else _ ← assert_ (sc =? DONE); Ok (w1, s).

(** tarjan.c:208-220, discover_vertex; [time] is the counter passed by
    address, the new value is returned. *)
Definition discover_vertex (c : Z) (ia : list Z) (time : Z) (w : ws) (s : scc)
  : res (ws * scc * Z) :=
  e ← zget ia (c + 1);
  b ← zget ia c;
  w1 ← set_status w c (to_int (to_size (e - b)));
  w2 ← set_link w1 c time;
  w3 ← set_time w2 c time;
  time' ← int_add time 1;
  s1 ← push_c s (to_int c);
  Ok (w3, s1, time').

(** tarjan.c:236-241, tarjan_initialise_csr. *)
Definition tarjan_initialise_csr (s : scc) : res scc :=
  start' ← zset (s_start s) 0 0;
  Ok (mkScc 0 start' (s_vert s) (s_vstack s) (s_vstart s) (s_cstack s) (s_cstart s)).

(** tarjan.c:243-253, tarjan_initialise. *)
Definition tarjan_initialise (w : ws) (s : scc) : res (ws * scc) :=
  let s1 := initialise_stacks (w_nvert w) s in
  st ← assign_int_vector (w_nvert w) REMAINING (w_status w);
  s2 ← tarjan_initialise_csr s1;
  Ok (mkWs (w_nvert w) st (w_link w) (w_time w), s2).

(** tarjan.c:270-290, one iteration of the main loop of tarjan_local. *)
Definition tarjan_iter (ia ja : list Z) (t : tst) : res tst :=
  c ← peek_v (t_scc t);
  st ← zget (w_status (t_ws t)) c;
  _ ← assert_ (negb (st =? DONE));
  _ ← assert_ (-2 <=? st);
  r ← (if st =? REMAINING then discover_vertex c ia (t_time t) (t_ws t) (t_scc t)
       else Ok (t_ws t, t_scc t, t_time t));
  let '(w1, s1, tm1) := r in
  st1 ← zget (w_status w1) c;
  r2 ← (if st1 =? 0 then complete_dfs_from_vertex c w1 s1
        else dfs_from_descendant c ia ja w1 s1);
  let '(w2, s2) := r2 in
  Ok (mkT w2 s2 tm1 (t_steps t + 1)).

(** tarjan.c:269-291, the while loop, with explicit fuel. *)
Fixpoint tarjan_loop (fuel : nat) (ia ja : list Z) (t : tst) : res tst :=
  if s_vstack (t_scc t) =? s_vstart (t_scc t) then Ok t
  else match fuel with
       | O => NoFuel
       | S fuel' => t' ← tarjan_iter ia ja t; tarjan_loop fuel' ia ja t'
       end.

(** tarjan.c:255-294, tarjan_local.  The step counter is carried over. *)
Definition tarjan_local (fuel : nat) (start : Z) (ia ja : list Z) (w : ws) (s : scc) (steps : Z)
  : res tst :=
  s1 ← push_v s start;
  t ← tarjan_loop fuel ia ja (mkT w s1 0 steps);
  _ ← assert_ (s_cstack (t_scc t) =? s_cstart (t_scc t));
  Ok t.

(** tarjan.c:302-306, the while loop of tarjan_find_start. *)
Fixpoint find_start_from (fuel : nat) (start : Z) (w : ws) : res Z :=
  if start <? w_nvert w then
    st ← zget (w_status w) start;
    if st =? DONE then
      match fuel with O => NoFuel | S f => find_start_from f (start + 1) w end
    else Ok start
  else Ok start.
(** tarjan.c:296-309, tarjan_find_start, with an explicit loop budget. *)
Definition tarjan_find_start (seed : Z) (w : ws) : res Z :=
  find_start_from (Z.to_nat (w_nvert w)) seed w.

(** tarjan.c:324-329, the for loop of tarjan_global, with explicit fuel for the
    number of start vertices. *)
Fixpoint global_loop (k fuel : nat) (start : Z) (ia ja : list Z) (t : tst) : res tst :=
  if start <? w_nvert (t_ws t) then
    match k with
    | O => NoFuel
    | S k' =>
        t' ← tarjan_local fuel start ia ja (t_ws t) (t_scc t) (t_steps t);
        start' ← tarjan_find_start start (t_ws t');
        global_loop k' fuel start' ia ja t'
    end
  else Ok t.

(** tarjan.c:311-330, tarjan_global. *)
Definition tarjan_global (fuel : nat) (ia ja : list Z) (w : ws) (s : scc) : res tst :=
  r ← tarjan_initialise w s;
  let '(w1, s1) := r in
  start ← tarjan_find_start 0 w1;
  global_loop (Z.to_nat (w_nvert w1)) fuel start ia ja (mkT w1 s1 0 0).

(** tarjan.c:72-88, copy_int_vector: both branches copy [n] ints from
    [src + so] to [dst + do_]. *)
Definition copy_int_vector (n : Z) (src : list Z) (so : Z) (dst : list Z) (do_ : Z)
  : res (list Z) :=
  forZ 0 n (fun d i => x ← zget src (so + i); zset d (do_ + i) x) dst.

(** tarjan.c:340-350, one iteration of reverse_scc_core; the loop runs [comp] from ncomp down to
    1.  State: (dst ncomp, dst start, dst vert). *)
Definition reverse_step (src : scc) (st : Z * list Z * list Z) (comp : Z)
  : res (Z * list Z * list Z) :=
  let '(nc, start, vert) := st in
  e ← zget (s_start src) comp;
  b ← zget (s_start src) (comp - 1);
  let n := to_size (e - b) in
  x ← zget start nc;
  start1 ← zset start (nc + 1) x;
  y ← zget start1 (nc + 1);
  vert1 ← copy_int_vector n (s_vert src) b vert y;
  start2 ← zset start1 (nc + 1) (to_size (y + n));
  Ok (nc + 1, start2, vert1).

(** tarjan.c:332-351, reverse_scc_core. *)
Definition reverse_scc_core (src dst : scc) : res scc :=
  d0 ← tarjan_initialise_csr dst;
  st ← foldM (reverse_step src) (s_ncomp d0, s_start d0, s_vert d0)
             (reverse (seqZ 1 (s_ncomp src)));
  let '(nc, start, vert) := st in
  Ok (mkScc nc start vert (s_vstack d0) (s_vstart d0) (s_cstack d0) (s_cstart d0)).

(** tarjan.c:90-111, allocate_scc_result, when all three allocations succeed;
    blocks [b], [b+1] hold start[] and vert[]. *)
Definition new_scc (h : heap) (b : nat) (nvert : Z) : scc :=
  mkScc 0 (fresh_block h b (Z.to_nat nvert + 1)) (fresh_block h (S b) (Z.to_nat nvert)) 0 0 0 0.

(** tarjan.c:365-391, create_tarjan_workspace, when the allocations succeed. *)
Definition new_ws (h : heap) (b : nat) (nvert : Z) : ws :=
  mkWs nvert (fresh_block h b (Z.to_nat nvert)) (fresh_block h (S b) (Z.to_nat nvert))
       (fresh_block h (S (S b)) (Z.to_nat nvert)).

(** Allocation outcomes: [h_ok h b] says whether the [b]-th malloc succeeds.
    create_tarjan_workspace uses 2 (tarjan.c:370,375), allocate_scc_result 3
    (tarjan.c:95,100,101). *)
Definition ws_ok (h : heap) (b : nat) : bool := h_ok h b && h_ok h (S b).
(** As above, for allocate_scc_result (tarjan.c:95,100,101). *)
Definition scc_ok (h : heap) (b : nat) : bool := h_ok h b && h_ok h (S b) && h_ok h (S (S b)).

(** Budget for the loop at tarjan.c:269-291: enough for every graph (theorem C09). *)
Definition tarjan_fuel (nvert : Z) (ja : list Z) : nat := (Z.to_nat nvert + length ja)%nat.

(** tarjan.c:453-481, tarjan; [None] is the NULL pointer. *)
Definition tarjan (h : heap) (nv : Z) (ia ja : list Z) : res (option scc) :=
  if ws_ok h 0 && scc_ok h 2 then
    t ← tarjan_global (tarjan_fuel nv ja) ia ja (new_ws h 0 nv) (new_scc h 3 nv);
    Ok (Some (t_scc t))
  else Ok None.

(** tarjan.c:508-516: the loop over the start points. *)
Definition reachable_step (fuel : nat) (ia ja : list Z) (t : tst) (start0 : Z) : res tst :=
  let start := to_size start0 in
  st ← zget (w_status (t_ws t)) start;
  if st =? DONE then Ok t
  else tarjan_local fuel start ia ja (t_ws t) (t_scc t) (t_steps t).

(** tarjan.c:506-517: initialise, then loop over the start points. *)
Definition reachable_run (fuel : nat) (ia ja start_pts : list Z) (w : ws) (s : scc) : res tst :=
  r ← tarjan_initialise w s;
  let '(w1, s1) := r in
  foldM (reachable_step fuel ia ja) (mkT w1 s1 0 0) start_pts.

(** tarjan.c:483-520, tarjan_reachable_sccs; the work-space is returned along
    with the result because it is modified in place. *)
Definition tarjan_reachable_sccs (h : heap) (nv : Z) (ia ja : list Z) (start_pts : list Z) (w : ws)
  : res (ws * option scc) :=
  _ ← assert_ (nv <=? w_nvert w);
  if scc_ok h 5 then
    t ← reachable_run (tarjan_fuel (w_nvert w) ja) ia ja start_pts w (new_scc h 6 (w_nvert w));
    Ok (t_ws t, Some (t_scc t))
  else Ok (w, None).

(** tarjan.c:415-419, tarjan_get_numcomponents. *)
Definition tarjan_get_numcomponents (s : scc) : Z := s_ncomp s.

(** tarjan.c:421-438, tarjan_get_strongcomponent: the [size] vertices starting
    at [vertex], read out. *)
Definition tarjan_get_strongcomponent (s : scc) (compID : Z) : res (list Z) :=
  _ ← assert_ (compID <? s_ncomp s);
  b ← zget (s_start s) compID;
  e ← zget (s_start s) (compID + 1);
  zslice (s_vert s) b (b + to_size (e - b)).

(** tarjan.c:522-542, tarjan_reverse_sccresult: flag and result.  swap_scc
    (:353-359) exchanges the start and vert arrays; the stack pointers it uses as
    temporaries are left dangling in C and kept here. *)
Definition tarjan_reverse_sccresult (h : heap) (s : scc) : res (bool * scc) :=
  n ← zget (s_start s) (s_ncomp s);
  if scc_ok h 8 then
    rev ← reverse_scc_core s (new_scc h 9 n);
    Ok (true, mkScc (s_ncomp s) (s_start rev) (s_vert rev)
                    (s_vstack s) (s_vstart s) (s_cstack s) (s_cstart s))
  else Ok (false, s).
