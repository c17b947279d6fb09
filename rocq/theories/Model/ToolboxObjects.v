(** Toolbox objects and the memory they own: construction, moves, destruction and
    calls (opm/flowdiagnostics/Toolbox.hpp:45-56, 111-114, Toolbox.cpp:255-306).

    A Toolbox owns an Impl through a std::unique_ptr (Toolbox.hpp:114).  A program
    state is a heap of Impls and a table of objects.  The functions of unique_ptr
    follow the C++ standard: release() gives up the pointer, reset(p) first stores
    p and then deletes what was held before, moving is reset(rhs.release()). *)
From Verif.Model Require Export Base Toolbox.

Section objects.
Context {N : Num}.

(** Toolbox.hpp:111-114.  The heap: [None] marks an Impl that was deleted.  The
    objects: [None] marks an object whose lifetime ended, [Some None] one whose
    pImpl_ is null, [Some (Some a)] one whose pImpl_ is the address [a]. *)
Record tbworld := mkTw { tw_heap : list (option toolbox); tw_objs : list (option (option nat)) }.

(** A program that has not constructed any Toolbox (Toolbox.cpp:255-258) yet. *)
Definition tbworld0 : tbworld := mkTw [] [].

(** What a client can do (Toolbox.hpp:45-109).  Objects are named by the order of
    their construction. *)
Inductive tbop :=
| TNew (g : cgraph)               (* Toolbox(connectivity)      cpp:255-258 *)
| TMove (src : nat)               (* Toolbox(std::move(src))    cpp:263-266 *)
| TMoveAssign (dst src : nat)     (* dst = std::move(src)       cpp:268-274 *)
| TDestroy (o : nat)              (* ~Toolbox()                 cpp:260-261 *)
| TCall (o : nat) (c : tb_call).  (* o.assign...(), o.compute...() cpp:276-306 *)

(** The member pImpl_ of a living object (Toolbox.hpp:114); using an object whose
    lifetime ended is undefined. *)
Definition tw_ptr (w : tbworld) (o : nat) : res (option nat) :=
  match tw_objs w !! o with Some (Some p) => Ok p | _ => UB end.
(** Toolbox.hpp:114: store a pointer in the member. *)
Definition tw_set (w : tbworld) (o : nat) (p : option nat) : tbworld :=
  mkTw (tw_heap w) (<[o := Some p]> (tw_objs w)).
(** delete on the pointer of a unique_ptr (Toolbox.cpp:260-261, 271): deleting
    twice is undefined. *)
Definition tw_delete (w : tbworld) (p : option nat) : res tbworld :=
  match p with
  | None => Ok w
  | Some a =>
      match tw_heap w !! a with
      | Some (Some _) => Ok (mkTw (<[a := None]> (tw_heap w)) (tw_objs w))
      | _ => UB
      end
  end.
(** unique_ptr::release() (Toolbox.cpp:264, 271). *)
Definition tw_release (w : tbworld) (o : nat) : res (tbworld * option nat) :=
  p ← tw_ptr w o; Ok (tw_set w o None, p).
(** unique_ptr::reset() (Toolbox.cpp:271). *)
Definition tw_reset (w : tbworld) (o : nat) (p : option nat) : res tbworld :=
  old ← tw_ptr w o; tw_delete (tw_set w o p) old.

(** One operation (Toolbox.cpp:255-306).  The second component is what a call
    shows to the client. *)
Definition tw_step (w : tbworld) (op : tbop) : res (tbworld * option tb_obs) :=
  match op with
  | TNew g => Ok (mkTw (tw_heap w ++ [Some (tb_new g)]) (tw_objs w ++ [Some (Some (length (tw_heap w)))]), None)
  | TMove src =>
      r ← tw_release w src;
      Ok (mkTw (tw_heap r.1) (tw_objs r.1 ++ [Some r.2]), None)
  | TMoveAssign dst src =>
      r ← tw_release w src;
      w' ← tw_reset r.1 dst r.2;
      Ok (w', None)
  | TDestroy o =>
      p ← tw_ptr w o;
      w' ← tw_delete w p;
      Ok (mkTw (tw_heap w') (<[o := None]> (tw_objs w')), None)
  | TCall o c =>
      p ← tw_ptr w o;
      match p with
      | None => UB
      | Some a =>
          match tw_heap w !! a with
          | Some (Some t) =>
              r ← tb_step t c;
              Ok (mkTw (<[a := Some r.1]> (tw_heap w)) (tw_objs w), Some r.2)
          | _ => UB
          end
      end
  end.

(** A program over Toolbox.cpp:255-306 and what it shows, in order. *)
Fixpoint tw_run (w : tbworld) (ops : list tbop) : res (tbworld * list tb_obs) :=
  match ops with
  | [] => Ok (w, [])
  | op :: ops' =>
      r ← tw_step w op;
      r' ← tw_run r.1 ops';
      Ok (r'.1, option_list r.2 ++ r'.2)
  end.

End objects.
