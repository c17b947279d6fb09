(** What programs with several Toolbox objects are to do, without pointers. *)
From Verif.Model Require Import Base Num Containers Toolbox ToolboxObjects.
From Verif.Spec Require Export ToolboxSpec.
Open Scope Z_scope.

Section objects_spec.
Context {N : Num}.

(** What an object is: gone, empty after having been moved from, or a network
    and the calls made so far. *)
Inductive tbvalue := Gone | Emptied | Holds (g : cgraph) (calls : list tb_call).

(** Living objects. *)
Definition living (s : list tbvalue) (o : nat) : res tbvalue :=
  match s !! o with Some (Holds g cs) => Ok (Holds g cs) | Some Emptied => Ok Emptied | _ => UB end.

(** One operation.  A call shows what it shows on a fresh Toolbox on which
    the same calls were made before. *)
Definition value_step (s : list tbvalue) (op : tbop) : res (list tbvalue * option tb_obs) :=
  match op with
  | TNew g => Ok (s ++ [Holds g []], None)
  | TMove src => x ← living s src; Ok (<[src := Emptied]> s ++ [x], None)
  | TMoveAssign dst src => x ← living s src; _ ← living s dst; Ok (<[dst := x]> (<[src := Emptied]> s), None)
  | TDestroy o => _ ← living s o; Ok (<[o := Gone]> s, None)
  | TCall o c =>
      match s !! o with
      | Some (Holds g cs) => x ← returns g cs c; Ok (<[o := Holds g (cs ++ [c])]> s, Some x)
      | _ => UB
      end
  end.
Fixpoint value_run (s : list tbvalue) (ops : list tbop) : res (list tbvalue * list tb_obs) :=
  match ops with
  | [] => Ok (s, [])
  | op :: ops' => r ← value_step s op; r' ← value_run r.1 ops'; Ok (r'.1, option_list r.2 ++ r'.2)
  end.

(** An Impl that was not deleted; an object that owns one. *)
Definition allocated (w : tbworld) (a : nat) : Prop := ∃ t, tw_heap w !! a = Some (Some t).
Definition owns (w : tbworld) (o a : nat) : Prop := tw_objs w !! o = Some (Some (Some a)).
End objects_spec.
