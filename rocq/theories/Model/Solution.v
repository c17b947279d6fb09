(** Model of opm/flowdiagnostics/Solution.{hpp,cpp}. *)
From Verif.Model Require Export Base Num OMap Containers.

Section sol.
Context {N : Num}.

(** Solution.cpp:57-62, data members of Solution::Impl. *)
Record solution := mkSol {
  so_tof : list num;                                (* tof_ *)
  so_ttof : smap cellset_id cellset_values;         (* tracerToF_ *)
  so_conc : smap cellset_id cellset_values          (* tracer_ *)
}.

(** Default-constructed Impl (Solution.cpp:157-160). *)
Definition sol_new : solution := mkSol [] [] [].

(** Solution.cpp:73-77. *)
Definition sol_assign_global (s : solution) (tof : list num) : solution :=
  mkSol tof (so_ttof s) (so_conc s).
(** Solution.cpp:79-84,126-133: [soln[i] = std::move(x)]. *)
Definition sol_assign_tof (s : solution) (i : cellset_id) (x : cellset_values) : solution :=
  mkSol (so_tof s) (om_set i x (so_ttof s)) (so_conc s).
(** Solution.cpp:86-91,126-133. *)
Definition sol_assign_conc (s : solution) (i : cellset_id) (x : cellset_values) : solution :=
  mkSol (so_tof s) (so_ttof s) (om_set i x (so_conc s)).

(** Solution.cpp:93-104, startPoints(). *)
Definition sol_start_points (s : solution) : list cellset_id := map fst (so_conc s).
(** Solution.cpp:106-110. *)
Definition sol_global_tof (s : solution) : list num := so_tof s.
(** Solution.cpp:135-147, solutionValues. *)
Definition sol_values (i : cellset_id) (m : smap cellset_id cellset_values) : cellset_values :=
  match om_find i m with Some x => x | None => [] end.
(** Solution.cpp:112-117. *)
Definition sol_tof (s : solution) (i : cellset_id) : cellset_values := sol_values i (so_ttof s).
(** Solution.cpp:119-124. *)
Definition sol_concentration (s : solution) (i : cellset_id) : cellset_values :=
  sol_values i (so_conc s).

(** ** Handles: Solution objects own an Impl through a unique_ptr
    (Solution.hpp:90).  A program state is a heap of Impls and a table of objects;
    an object holds the address of its Impl, or null after it was moved from. *)
Record solworld := mkWorld { w_heap : list solution; w_objs : list (option nat) }.

(** A program that has not constructed any object (Solution.cpp:157-160) yet. *)
Definition world0 : solworld := mkWorld [] [].

(** Operations a client can perform (Solution.hpp:41-83). *)
Inductive solop :=
| SNew                                       (* Solution()          cpp:157 *)
| SCopy (src : nat)                          (* Solution(const &)   cpp:165-168 *)
| SMove (src : nat)                          (* Solution(&&)        cpp:170-173 *)
| SAssignGlobal (o : nat) (t : list num)     (* cpp:204-208 *)
| SAssignTof (o : nat) (i : cellset_id) (x : cellset_values)  (* cpp:210-214 *)
| SAssignConc (o : nat) (i : cellset_id) (x : cellset_values). (* cpp:216-220 *)

(** Dereference of pImpl_ (Solution.cpp:167, 183, 207): null or dangling is undefined. *)
Definition sw_impl (w : solworld) (o : nat) : res (nat * solution) :=
  match w_objs w !! o with
  | Some (Some a) => match w_heap w !! a with Some s => Ok (a, s) | None => UB end
  | _ => UB
  end.

(** Modify the Impl of object [o] in place (Solution.cpp:204-220). *)
Definition sw_update (f : solution -> solution) (w : solworld) (o : nat) : res solworld :=
  p ← sw_impl w o;
  let '(a, s) := p in
  Ok (mkWorld (<[a := f s]> (w_heap w)) (w_objs w)).

(** One client operation (Solution.cpp:157-220); constructors append a new object. *)
Definition sw_step (w : solworld) (op : solop) : res solworld :=
  match op with
  | SNew => Ok (mkWorld (w_heap w ++ [sol_new]) (w_objs w ++ [Some (length (w_heap w))]))
  | SCopy src =>
      p ← sw_impl w src;
      Ok (mkWorld (w_heap w ++ [p.2]) (w_objs w ++ [Some (length (w_heap w))]))
  | SMove src =>
      match w_objs w !! src with
      | Some q => Ok (mkWorld (w_heap w) (<[src := None]> (w_objs w) ++ [q]))
      | None => UB
      end
  | SAssignGlobal o t => sw_update (fun s => sol_assign_global s t) w o
  | SAssignTof o i x => sw_update (fun s => sol_assign_tof s i x) w o
  | SAssignConc o i x => sw_update (fun s => sol_assign_conc s i x) w o
  end.

(** A sequence of client operations (Solution.cpp:157-220). *)
Definition sw_run (w : solworld) (ops : list solop) : res solworld := foldM sw_step w ops.

End sol.
