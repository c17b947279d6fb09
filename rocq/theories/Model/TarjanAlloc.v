(** Memory management of opm/utility/graph/tarjan.c and of its two callers in
    TracerTofSolver.cpp.  Array contents are left out (they are in Tarjan.v);
    what is kept is every malloc, every free, every pointer stored in a struct
    and every dereference of a struct.

    Simplification: addresses are never reused ([malloc] number [k] returns
    address [k]), so a use after free is always detected. *)
From stdpp Require Import gmap.
From Verif.Model Require Import Base.

(** A pointer (tarjan.c:36-53); [None] is NULL. *)
Definition ptr := option nat.

(** The blocks that are allocated, the TarjanWorkSpace objects
    (tarjan.c:36-43; the member status, the other two point into the same block)
    and the TarjanSCCResult objects (tarjan.c:45-53; members start and vert). *)
Record mem := mkMem {
  m_calls : nat;
  m_live : gset nat;
  m_ws : gmap nat ptr;
  m_scc : gmap nat (ptr * ptr)
}.

(** Computations on memory (all of tarjan.c:90-542); [UB] is an invalid free or an
    invalid dereference. *)
Definition M (A : Type) := mem -> res (A * mem).
(** A statement without effect on memory (e.g. tarjan.c:114-292). *)
Definition retM {A} (a : A) : M A := fun m => Ok (a, m).
(** Sequencing of statements (e.g. tarjan.c:90-112). *)
Global Instance bindM : MBind M :=
  fun A B k c m => match c m with
                   | Ok (a, m') => k a m'
                   | Throw e => Throw e | UB => UB | AssertFail => AssertFail | NoFuel => NoFuel
                   end.

Section alloc.
(** [ok k]: does the [k]-th call of malloc succeed? *)
Context (ok : nat -> bool).

(** malloc(3) (tarjan.c:95, 100, 101, 370, 375). *)
Definition malloc : M ptr := fun m =>
  let k := m_calls m in
  if ok k then Ok (Some k, mkMem (S k) ({[k]} ∪ m_live m) (m_ws m) (m_scc m))
  else Ok (None, mkMem (S k) (m_live m) (m_ws m) (m_scc m)).

(** free(3) (tarjan.c:397, 400, 408, 409, 412): NULL is ignored, anything but an
    allocated block is UB. *)
Definition free (p : ptr) : M unit := fun m =>
  match p with
  | None => Ok (tt, m)
  | Some k => if decide (k ∈ m_live m)
              then Ok (tt, mkMem (m_calls m) (m_live m ∖ {[k]}) (m_ws m) (m_scc m))
              else UB
  end.

(** Access to a struct through a pointer (e.g. tarjan.c:100-103, 408-409): the block
    must be allocated. *)
Definition get_scc (p : ptr) : M (ptr * ptr) := fun m =>
  match p with
  | None => UB
  | Some k => if decide (k ∈ m_live m) then
                match m_scc m !! k with Some c => Ok (c, m) | None => UB end
              else UB
  end.
(** tarjan.c:100-101, 353-359: assignment to a TarjanSCCResult. *)
Definition put_scc (p : ptr) (c : ptr * ptr) : M unit := fun m =>
  match p with
  | None => UB
  | Some k => if decide (k ∈ m_live m)
              then Ok (tt, mkMem (m_calls m) (m_live m) (m_ws m) (<[k := c]> (m_scc m)))
              else UB
  end.
(** tarjan.c:397: reading a TarjanWorkSpace. *)
Definition get_ws (p : ptr) : M ptr := fun m =>
  match p with
  | None => UB
  | Some k => if decide (k ∈ m_live m) then
                match m_ws m !! k with Some c => Ok (c, m) | None => UB end
              else UB
  end.
(** tarjan.c:375: assignment to a TarjanWorkSpace. *)
Definition put_ws (p : ptr) (c : ptr) : M unit := fun m =>
  match p with
  | None => UB
  | Some k => if decide (k ∈ m_live m)
              then Ok (tt, mkMem (m_calls m) (m_live m) (<[k := c]> (m_ws m)) (m_scc m))
              else UB
  end.
(** Access to an array (e.g. tarjan.c:64-88). *)
Definition touch (p : ptr) : M unit := fun m =>
  match p with
  | None => UB
  | Some k => if decide (k ∈ m_live m) then Ok (tt, m) else UB
  end.

(** tarjan.c:403-413, destroy_tarjan_sccresult. *)
Definition destroy_tarjan_sccresult (scc : ptr) : M unit :=
  (match scc with
   | None => retM tt
   | Some _ =>
       c ← get_scc scc;
       free (snd c);;
       free (fst c)
   end);;
  free scc.

(** tarjan.c:393-401, destroy_tarjan_workspace. *)
Definition destroy_tarjan_workspace (ws : ptr) : M unit :=
  (match ws with
   | None => retM tt
   | Some _ => c ← get_ws ws; free c
   end);;
  free ws.

(** tarjan.c:90-111, allocate_scc_result. *)
Definition allocate_scc_result : M ptr :=
  scc ← malloc;
  match scc with
  | None => retM None
  | Some _ =>
      put_scc scc (None, None);;
      start ← malloc;
      put_scc scc (start, None);;
      vert ← malloc;
      put_scc scc (start, vert);;
      match start, vert with
      | Some _, Some _ => retM scc
      | _, _ => destroy_tarjan_sccresult scc;; retM None
      end
  end.

(** tarjan.c:365-391, create_tarjan_workspace. *)
Definition create_tarjan_workspace : M ptr :=
  ws ← malloc;
  match ws with
  | None => retM None
  | Some _ =>
      put_ws ws None;;
      status ← malloc;
      put_ws ws status;;
      match status with
      | None => destroy_tarjan_workspace ws;; retM None
      | Some _ => retM ws
      end
  end.

(** tarjan.c:311-330, tarjan_global, and :506-516, the loop of
    tarjan_reachable_sccs: they access both objects and all arrays and allocate
    nothing. *)
Definition run_dfs (work scc : ptr) : M unit :=
  status ← get_ws work;
  touch status;;
  c ← get_scc scc;
  touch (fst c);;
  touch (snd c).

(** tarjan.c:453-481, tarjan. *)
Definition tarjan_mem : M ptr :=
  work ← create_tarjan_workspace;
  scc ← allocate_scc_result;
  ws ← (match work, scc with
         | Some _, Some _ => retM (work, scc)
         | _, _ =>
             destroy_tarjan_sccresult scc;;
             destroy_tarjan_workspace work;;
             retM (None, None)
         end);
  (match snd ws with
   | Some _ => run_dfs (fst ws) (snd ws)
   | None => retM tt
   end);;
  destroy_tarjan_workspace (fst ws);;
  retM (snd ws).

(** tarjan.c:483-520, tarjan_reachable_sccs. *)
Definition tarjan_reachable_sccs_mem (work : ptr) : M ptr :=
  match work with
  | None => fun _ => AssertFail
  | Some _ =>
      _ ← get_ws work;
      scc ← allocate_scc_result;
      (match scc with
       | Some _ => run_dfs work scc
       | None => retM tt
       end);;
      retM scc
  end.

(** tarjan.c:353-359, swap_scc. *)
Definition swap_scc (scc1 scc2 : ptr) : M unit :=
  c1 ← get_scc scc1;
  c2 ← get_scc scc2;
  put_scc scc1 (fst c2, snd c1);;
  put_scc scc2 (fst c1, snd c2);;
  put_scc scc1 (fst c2, snd c2);;
  put_scc scc2 (fst c1, snd c1).

(** tarjan.c:522-542, tarjan_reverse_sccresult. *)
Definition tarjan_reverse_sccresult_mem (scc : ptr) : M bool :=
  c ← get_scc scc;
  touch (fst c);;
  rev ← allocate_scc_result;
  match rev with
  | Some _ =>
      d ← get_scc rev;
      touch (snd c);; touch (fst d);; touch (snd d);;
      swap_scc rev scc;;
      destroy_tarjan_sccresult rev;;
      retM true
  | None => retM false
  end.

(** Reading a result out: tarjan.c:415-438. *)
Definition read_result (scc : ptr) : M unit :=
  c ← get_scc scc; touch (fst c);; touch (snd c).

(** TracerTofSolver.cpp:208-234, computeOrdering: [result] is a unique_ptr, so
    it is destroyed on the normal path and when the exception of :219-221 is
    thrown.  Returns [false] when the exception is thrown.  That the components
    may be empty does not matter for the accesses. *)
Definition computeOrdering_mem : M bool :=
  result ← tarjan_mem;
  ok ← tarjan_reverse_sccresult_mem result;
  (if ok : bool then read_result result else retM tt);;
  destroy_tarjan_sccresult result;;
  retM ok.

(** TracerTofSolver.cpp:240-279, computeLocalOrdering: [ws] is a unique_ptr
    of the inner block (:254-259), [result] one of the function. *)
Definition computeLocalOrdering_mem : M bool :=
  ws ← create_tarjan_workspace;
  result ← tarjan_reachable_sccs_mem ws;
  destroy_tarjan_workspace ws;;
  ok ← tarjan_reverse_sccresult_mem result;
  (if ok : bool then read_result result else retM tt);;
  destroy_tarjan_sccresult result;;
  retM ok.
End alloc.
