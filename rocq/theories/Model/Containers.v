(** Models of the small value classes of opm/flowdiagnostics: CellSetID, CellSet,
    CellSetValues, ConnectivityGraph, ConnectionValues. *)
From Verif.Model Require Export Base Num OMap.

(** CellSet.hpp:34-49: a CellSetID wraps a std::string ([char]s compared as
    unsigned bytes by std::char_traits, i.e. [String.compare]). *)
Definition cellset_id := string.

(** CellSet.cpp:35-36, the default constructor. *)
Definition csid_default : cellset_id := String.EmptyString.
(** CellSet.cpp:38-41, the constructor from a string. *)
Definition csid_make (s : string) : cellset_id := s.
(** CellSet.cpp:43-47, to_string(). *)
Definition csid_to_string (i : cellset_id) : string := i.

(** CellSet.cpp:49-53, operator<. *)
Definition csid_lt (a b : cellset_id) : bool :=
  match String.compare a b with Lt => true | _ => false end.

(** CellSet.hpp:54-77, class CellSet: id and std::unordered_set<int>, kept as a
    duplicate-free list (the C++ iteration order is unspecified). *)
Record cellset := mkCellset { cs_id : cellset_id; cs_cells : list Z }.

(** CellSet.cpp:73-77, insert. *)
Definition cs_insert (c : cellset) (i : Z) : cellset :=
  mkCellset (cs_id c) (if decide (i ∈ cs_cells c) then cs_cells c else cs_cells c ++ [i]).

(** CellSet.cpp:57-60. *)
Definition cs_new (i : cellset_id) : cellset := mkCellset i [].
(** CellSet.cpp:62-65: range construction of the set inserts one by one. *)
Definition cs_make (i : cellset_id) (cells : list Z) : cellset := foldl cs_insert (cs_new i) cells.

Section num.
Context {N : Num}.

(** CellSetValues.hpp:29: std::map<int,double>. *)
Definition cellset_values := smap Z num.

(** ConnectivityGraph.hpp:55-57. *)
Record cgraph := mkCgraph { cg_ncells : Z (* size_t *); cg_cells : list Z }.

(** ConnectivityGraph.cpp:48, std::max_element on a non-empty range. *)
Definition max_element (l : list Z) : Z := foldl Z.max (hd 0 l) l.

(** ConnectivityGraph.cpp:38-54, the constructor.  [num_cells] is an int, stored
    as size_t; the index check compares ints. *)
Definition cg_make (num_cells : Z) (cells : list Z) : res cgraph :=
  if negb (zlen cells mod 2 =? 0) then Throw LogicError
  else if (match cells with [] => false | _ => true end) && (num_cells <=? max_element cells)
  then Throw LogicError
  else Ok (mkCgraph (to_size num_cells) cells).

(** ConnectivityGraph.cpp:56-60. *)
Definition cg_num_cells (g : cgraph) : Z := cg_ncells g.
(** ConnectivityGraph.cpp:62-66. *)
Definition cg_num_connections (g : cgraph) : Z := zlen (cg_cells g) / 2.
(** ConnectivityGraph.cpp:68-76, connection(i). *)
Definition cg_connection (g : cgraph) (i : Z) : res (Z * Z) :=
  _ ← assert_ (i <? cg_num_connections g);
  a ← zget (cg_cells g) (2 * i);
  b ← zget (cg_cells g) (2 * i + 1);
  Ok (a, b).

(** ConnectionValues.hpp:69-72. *)
Record cvalues := mkCvalues { cv_nconn : Z; cv_nphase : Z; cv_data : list num }.

(** ConnectionValues.cpp:36-42; the product is a size_t product and wraps.
    (A product too large to allocate makes the C++ constructor throw; not
    modelled.) *)
Definition cv_make (nconn nphase : Z) : cvalues :=
  mkCvalues nconn nphase (replicate (Z.to_nat (to_size (nconn * nphase))) n0).

(** ConnectionValues.cpp:44-48. *)
Definition cv_num_connections (v : cvalues) : Z := cv_nconn v.
(** ConnectionValues.cpp:50-54. *)
Definition cv_num_phases (v : cvalues) : Z := cv_nphase v.

(** Offset computed at ConnectionValues.cpp:66 and :79 (size_t arithmetic). *)
Definition cv_offset (v : cvalues) (conn phase : Z) : Z :=
  to_size (to_size (conn * cv_nphase v) + phase).

(** ConnectionValues.cpp:56-67, operator() const. *)
Definition cv_get (v : cvalues) (conn phase : Z) : res num :=
  if (cv_nconn v <=? conn) || (cv_nphase v <=? phase) then Throw LogicError
  else zget (cv_data v) (cv_offset v conn phase).

(** ConnectionValues.cpp:69-80, assignment through operator(). *)
Definition cv_set (v : cvalues) (conn phase : Z) (x : num) : res cvalues :=
  if (cv_nconn v <=? conn) || (cv_nphase v <=? phase) then Throw LogicError
  else d ← zset (cv_data v) (cv_offset v conn phase) x;
       Ok (mkCvalues (cv_nconn v) (cv_nphase v) d).

End num.
