(** Model of opm/utility/graph/AssembledConnections.{hpp,cpp} and
    AssembledConnectionsIteration.hpp. *)
From Verif.Model Require Export Base Num.

Section ac.
Context {N : Num}.

(** AssembledConnections.hpp:138-171, class Connections. *)
Record conns := mkConns {
  c_i : list Z;          (* i_ *)
  c_j : list Z;          (* j_ *)
  c_v : list num;        (* v_ *)
  c_maxi : Z;            (* max_i_ *)
  c_maxj : Z             (* max_j_ *)
}.

(** AssembledConnections.hpp:165-170: default member values. *)
Definition conns_empty : conns := mkConns [] [] [] (-1) (-1).

(** AssembledConnections.cpp:40-49, Connections::add(i,j). *)
Definition conns_add (c : conns) (i j : Z) : conns :=
  mkConns (c_i c ++ [i]) (c_j c ++ [j]) (c_v c)
          (Z.max (c_maxi c) i) (Z.max (c_maxj c) j).

(** AssembledConnections.cpp:51-58, Connections::add(i,j,v). *)
Definition conns_add_w (c : conns) (i j : Z) (v : num) : conns :=
  let c' := conns_add c i j in
  mkConns (c_i c') (c_j c') (c_v c' ++ [v]) (c_maxi c') (c_maxj c').

(** AssembledConnections.cpp:60-66, Connections::clear(): note that max_i_ and
    max_j_ are not reset. *)
Definition conns_clear (c : conns) : conns := mkConns [] [] [] (c_maxi c) (c_maxj c).

(** AssembledConnections.cpp:68-72, Connections::empty(). *)
Definition conns_isempty (c : conns) : bool := match c_i c with [] => true | _ => false end.

(** AssembledConnections.cpp:74-79, Connections::isValid(). *)
Definition conns_valid (c : conns) : bool :=
  (zlen (c_i c) =? zlen (c_j c)) &&
  (match c_v c with [] => true | _ => zlen (c_v c) =? zlen (c_i c) end).

(** AssembledConnections.cpp:81-85, Connections::isWeighted(). *)
Definition conns_weighted (c : conns) : bool := match c_v c with [] => false | _ => true end.

(** AssembledConnections.hpp:173-191, class CSR. *)
Record csr := mkCsr {
  ia : list Z;           (* ia_ *)
  ja : list Z;           (* ja_ *)
  sa : list num;         (* sa_ *)
  elm : list Z;          (* elmIdx_ *)
  nrows : Z;             (* numRows_ *)
  ncols : Z              (* numCols_ *)
}.

(** AssembledConnections.hpp:184-191: default-constructed CSR. *)
Definition csr_empty : csr := mkCsr [] [] [] [] 0 0.

(** AssembledConnections.cpp:265-268 and 293-296: [vecIdx(i) + 1] on size_t. *)
Definition vec_idx1 (i : Z) : Z := to_size (to_size i + 1).

(** AssembledConnections.cpp:272-274: count the entries of each row. *)
Definition count_rows (ia0 : list Z) (rowIdx : list Z) : res (list Z) :=
  foldM (fun a row =>
           x ← zget a (vec_idx1 row);
           zset a (vec_idx1 row) (x + 1)) ia0 rowIdx.

(** AssembledConnections.cpp:276-283: in-place running sum; entry i becomes the
    start position of row i-1, entry 0 the total. *)
Definition running_sum (n : Z) (a0 : list Z) : res (list Z) :=
  forZ 1 (n + 1) (fun a i =>
    s ← zget a 0;
    x ← zget a i;
    a' ← zset a 0 (s + x);
    zset a' i (s + x - x)) a0.

(** AssembledConnections.cpp:258-284, CSR::accumulateRowEntries. *)
Definition accumulate_row_entries (numRows : Z) (rowIdx : list Z) : res (list Z) :=
  _ ← assert_ (0 <=? numRows);
  a ← count_rows (replicate (Z.to_nat numRows + 1) 0) rowIdx;
  running_sum numRows a.

(** AssembledConnections.cpp:303-312: one step of the bucket insertion loop;
    state is (ia_, ja_, elmIdx_). *)
Definition create_graph_step (colIdx : list Z) (rowIdx : list Z)
    (st : list Z * list Z * list Z) (nz : Z) : res (list Z * list Z * list Z) :=
  let '(a, j, e) := st in
  row ← zget rowIdx nz;
  k ← zget a (vec_idx1 row);
  a' ← zset a (vec_idx1 row) (k + 1);
  c ← zget colIdx nz;
  j' ← zset j k c;
  Ok (a', j', e ++ [k]).

(** AssembledConnections.cpp:286-315, CSR::createGraph.  [a], [j] are the
    current ia_, ja_. *)
Definition create_graph (a j : list Z) (rowIdx colIdx : list Z)
  : res (list Z * list Z * list Z) :=
  a0 ← zget a 0;
  _ ← assert_ (a0 =? zlen rowIdx);
  let j0 := resize_ (length rowIdx) 0 j in
  st ← forZ 0 (zlen rowIdx) (create_graph_step colIdx rowIdx) (a, j0, []);
  let '(a', j', e') := st in
  a'' ← zset a' 0 0;
  Ok (a'', j', e').

(** AssembledConnections.cpp:179-193, CSR::assemble. *)
Definition assemble (c : conns) (m : csr) : res csr :=
  nr ← int_add (c_maxi c) 1;
  a ← accumulate_row_entries nr (c_i c);
  g ← create_graph a (ja m) (c_i c) (c_j c);
  let '(a', j', e') := g in
  nc ← int_add (c_maxj c) 1;
  Ok (mkCsr a' j' (sa m) e' nr nc).

(** AssembledConnections.cpp:336-354, CSR::expandStartPointers.  A decreasing
    pair of start pointers would make [insert] throw std::length_error. *)
Definition expand_start_pointers (a : list Z) : res (list Z) :=
  forZ 0 (zlen a - 1) (fun acc i =>
    e ← zget a (i + 1);
    b ← zget a i;
    if e <? b then Throw LengthError
    else Ok (acc ++ replicate (Z.to_nat (e - b)) i)) [].

(** AssembledConnections.cpp:381-389, CSR::remapElementIndex: [old] is the
    argument, [cur] the current elmIdx_. *)
Definition remap_element_index (old cur : list Z) : res (list Z) :=
  foldM (fun acc i => x ← zget cur i; Ok (acc ++ [x])) [] old.

(** AssembledConnections.cpp:317-334, CSR::transpose. *)
Definition transpose (m : csr) : res csr :=
  rowIdx ← expand_start_pointers (ia m);
  let colIdx := ja m in
  a ← accumulate_row_entries (ncols m) colIdx;
  g ← create_graph a (ja m) colIdx rowIdx;
  let '(a', j', e') := g in
  e'' ← remap_element_index (elm m) e';
  Ok (mkCsr a' j' (sa m) e'' (ncols m) (nrows m)).

(** AssembledConnections.cpp:195-204, CSR::sort. *)
Definition sort (m : csr) : res csr := m' ← transpose m; transpose m'.

(** AssembledConnections.cpp:356-379, CSR::unique on one row segment.  The two
    nested while loops scan the segment once: an element is appended to ja_
    unless it repeats the previous one ([fresh] holds at the segment start). *)
Fixpoint unique_seg (fresh : bool) (seg : list Z) (j e : list Z) : list Z * list Z :=
  match seg with
  | [] => (j, e)
  | x :: seg' =>
      if negb fresh && (x =? List.last j 0)
      then unique_seg false seg' j (e ++ [List.last e 0])
      else unique_seg false seg' (j ++ [x]) (e ++ [zlen j])
  end.

(** AssembledConnections.cpp:218-231: one row of condenseDuplicates; state is
    (ia_, ja_, elmIdx_, end). *)
Definition condense_row (colIdx : list Z) (st : list Z * list Z * list Z * Z) (row : Z)
  : res (list Z * list Z * list Z * Z) :=
  let '(a, j, e, en) := st in
  hi ← zget a (row + 1);
  lo ← zget a row;
  seg ← zslice colIdx en (en + (hi - lo));
  let q := zlen j in
  let '(j', e') := unique_seg true seg j e in
  a' ← zset a row q;
  Ok (a', j', e', en + (hi - lo)).

(** AssembledConnections.cpp:206-237, CSR::condenseDuplicates. *)
Definition condense_duplicates (m : csr) : res csr :=
  st ← forZ 0 (zlen (ia m) - 1) (condense_row (ja m)) (ia m, [], [], 0);
  let '(a, j, e, _) := st in
  e' ← remap_element_index (elm m) e;
  a' ← zset a (zlen a - 1) (zlen j);
  Ok (mkCsr a' j (sa m) e' (nrows m) (ncols m)).

(** AssembledConnections.cpp:239-256, CSR::accumulateConnWeights. *)
Definition accumulate_conn_weights (v : list num) (m : csr) : res csr :=
  if negb (zlen v =? zlen (elm m)) then Throw LogicError
  else
    s ← forZ 0 (zlen v) (fun s conn =>
          k ← zget (elm m) conn;
          w ← zget v conn;
          x ← zget s k;
          zset s k (nadd x w)) (replicate (length (ja m)) n0);
    Ok (mkCsr (ia m) (ja m) s (elm m) (nrows m) (ncols m)).

(** AssembledConnections.cpp:129-159, CSR::create. *)
Definition csr_create (c : conns) (numrows : Z) (m : csr) : res csr :=
  if negb (conns_isempty c) && (numrows <=? to_size (c_maxi c))
  then Throw InvalidArgument
  else
    m1 ← assemble c m;
    m2 ← sort m1;
    m3 ← condense_duplicates m2;
    m4 ← (if conns_weighted c then accumulate_conn_weights (c_v c) m3 else Ok m3);
    let nRows := zlen (ia m4) - 1 in
    if nRows <? numrows then
      b ← zback (ia m4);
      Ok (mkCsr (ia m4 ++ replicate (Z.to_nat (numrows - nRows)) b) (ja m4) (sa m4)
                (elm m4) (nrows m4) (ncols m4))
    else Ok m4.

(** AssembledConnections.hpp:41-42,229-231, class AssembledConnections. *)
Record aconn := mkAconn { ac_conns : conns; ac_csr : csr }.

(** AssembledConnections.hpp:41, 229-230: default-constructed
    AssembledConnections. *)
Definition ac_new : aconn := mkAconn conns_empty csr_empty.

(** AssembledConnections.cpp:397-403, addConnection(i,j). *)
Definition ac_add (g : aconn) (i j : Z) : aconn :=
  mkAconn (conns_add (ac_conns g) i j) (ac_csr g).

(** AssembledConnections.cpp:405-412, addConnection(i,j,v). *)
Definition ac_add_w (g : aconn) (i j : Z) (v : num) : aconn :=
  mkAconn (conns_add_w (ac_conns g) i j v) (ac_csr g).

(** AssembledConnections.cpp:414-425, compress(numRows).  [numRows] is a
    size_t.  The result pairs the object after the call with the exception
    thrown, if any.  Both exceptions below are thrown before any member is
    modified; the logic_error of accumulateConnWeights (:244), which would
    come after modifications, is kept as an outcome [Throw] of this function
    (the theorems show that it cannot happen). *)
Definition ac_compress (g : aconn) (numRows : Z) : res (aconn * option exn) :=
  if negb (conns_valid (ac_conns g)) then Ok (g, Some LogicError)
  else if negb (conns_isempty (ac_conns g)) && (numRows <=? to_size (c_maxi (ac_conns g)))
  then Ok (g, Some InvalidArgument)
  else
    m ← csr_create (ac_conns g) numRows (ac_csr g);
    Ok (mkAconn (conns_clear (ac_conns g)) m, None).

(** AssembledConnections.cpp:433-437: accessors. *)
Definition ac_start (g : aconn) : list Z := ia (ac_csr g).
(** AssembledConnections.cpp:439-443. *)
Definition ac_neigh (g : aconn) : list Z := ja (ac_csr g).
(** AssembledConnections.cpp:445-449. *)
Definition ac_weight (g : aconn) : list num := sa (ac_csr g).

(** AssembledConnections.cpp:427-431, numRows(): size_t subtraction, so an
    object that was never compressed reports 2^64-1. *)
Definition ac_numrows (g : aconn) : Z := to_size (zlen (ac_start g) - 1).

(** AssembledConnections.cpp:451-460, cellNeighbourhood, together with the
    range-for over it (AssembledConnectionsIteration.hpp:43-96): the list of
    (neighbour, weight) produced by the iteration.  Dereferencing outside the
    arrays is undefined. *)
Definition ac_cell_neighbourhood (g : aconn) (cell : Z) : res (list (Z * num)) :=
  b ← zget (ac_start g) cell;
  e ← zget (ac_start g) (cell + 1);
  _ ← assert_ (zlen (ac_weight g) =? zlen (ac_neigh g));
  nb ← zslice (ac_neigh g) b e;
  w ← zslice (ac_weight g) b e;
  Ok (zip nb w).

(** Stream formatting state touched by operator<< (AssembledConnections.cpp:465-487):
    precision and the set of
    format flags as a bit mask. *)
Record fmt := mkFmt { f_prec : Z; f_flags : Z }.

(** AssembledConnections.cpp:465-487, operator<<.  Returns the records written
    (row, neighbour, weight) and the formatting state left behind.
    [setf(f)] sets the bits [f] in addition to the present ones and returns the
    previous flags; [sci] is std::ios_base::scientific.  The characters are in
    Model/Text.v. *)
Definition ac_print (sci : Z) (st : fmt) (g : aconn) : res (list (Z * Z * num) * fmt) :=
  let oprec := f_prec st in
  let oflags := f_flags st in
  let st1 := mkFmt 16 (Z.lor (f_flags st) sci) in
  let num_cells := to_int (ac_numrows g) in
  out ← forZ 0 num_cells (fun acc cell =>
          nb ← ac_cell_neighbourhood g cell;
          Ok (acc ++ map (fun p => (cell, p.1, p.2)) nb)) [];
  Ok (out, mkFmt oprec (Z.lor (f_flags st1) oflags)).

(** API calls on one object: AssembledConnections.hpp:50 (addConnection(i,j)),
    :61 (addConnection(i,j,v)), :76 (compress). *)
Inductive ac_op :=
| AcAdd (i j : Z)
| AcAddW (i j : Z) (v : num)
| AcCompress (numRows : Z).

(** One API call (AssembledConnections.cpp:397-425): object afterwards and
    exception thrown, if any. *)
Definition ac_step (g : aconn) (o : ac_op) : res (aconn * option exn) :=
  match o with
  | AcAdd i j => Ok (ac_add g i j, None)
  | AcAddW i j v => Ok (ac_add_w g i j v, None)
  | AcCompress n => ac_compress g n
  end.

(** A history of calls (AssembledConnections.cpp:397-425); a caller may catch
    exceptions and carry on. *)
Definition ac_run (g : aconn) (h : list ac_op) : res aconn :=
  foldM (fun g o => r ← ac_step g o; Ok r.1) g h.

End ac.
