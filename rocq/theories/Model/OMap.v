(** [std::map] as a strictly sorted association list (iteration order = C++
    iteration order).  Models the container, not a file of /repo; used for
    CellSetValues (CellSetValues.hpp:29) and [std::map<CellSetID, ...>]. *)
From Verif.Model Require Export Base.
From Coq Require String.
(** std::string (CellSet.hpp:48). *)
Notation string := String.string.

(** Key comparison: [std::less<int>] (CellSetValues.hpp:29) resp.
    [CellSetID::operator<] (CellSet.cpp:49-53). *)
Class OrdKey (K : Type) := kcmp : K -> K -> comparison.
(** CellSetValues.hpp:29. *)
Global Instance Z_key : OrdKey Z := Z.compare.
(** CellSet.cpp:49-53. *)
Global Instance string_key : OrdKey string := String.compare.

(** CellSetValues.hpp:29, Solution.cpp:58, Toolbox.cpp:69-70. *)
Definition smap (K V : Type) : Type := list (K * V).

Section smap.
  Context {K : Type} {OK : OrdKey K} {V : Type}.

  (** [m.find(k)], e.g. Solution.cpp:140, DerivedQuantities.cpp:214. *)
  Fixpoint om_find (k : K) (m : smap K V) : option V :=
    match m with
    | [] => None
    | (k', v) :: m' =>
        match kcmp k k' with
        | Eq => Some v
        | Lt => None
        | Gt => om_find k m'
        end
    end.

  (** [m[k] = f(m[k])], e.g. Toolbox.cpp:124 and :127, where an absent entry counts as
      [None]. *)
  Fixpoint om_alter (f : option V -> V) (k : K) (m : smap K V) : smap K V :=
    match m with
    | [] => [(k, f None)]
    | (k', v) :: m' =>
        match kcmp k k' with
        | Eq => (k', f (Some v)) :: m'
        | Lt => (k, f None) :: (k', v) :: m'
        | Gt => (k', v) :: om_alter f k m'
        end
    end.

  (** [m[k] = v], e.g. Solution.cpp:132, TracerTofSolver.cpp:149-151. *)
  Definition om_set (k : K) (v : V) (m : smap K V) : smap K V := om_alter (fun _ => v) k m.

  (** [m.insert({k,v})], e.g. Toolbox.cpp:125 and :128: no effect if the key exists. *)
  Definition om_insert (k : K) (v : V) (m : smap K V) : smap K V :=
    om_alter (fun o => match o with Some w => w | None => v end) k m.

  (** [m.count(k)], e.g. Toolbox.cpp:148 and :188. *)
  Definition om_count (k : K) (m : smap K V) : Z :=
    match om_find k m with Some _ => 1 | None => 0 end.

  (** CellSetValues.hpp:29: construction from a sequence of entries (later duplicates are dropped, as
      by [std::map(first,last)]). *)
  Definition om_of_list (l : list (K * V)) : smap K V :=
    foldl (fun m kv => om_insert kv.1 kv.2 m) [] l.
End smap.
