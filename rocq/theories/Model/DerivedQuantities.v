(** Model of opm/flowdiagnostics/DerivedQuantities.{hpp,cpp}. *)
From Verif.Model Require Export Base Num OMap Containers Solution.

Section derived_quantities.
Context {N : Num}.

(** DerivedQuantities.hpp:37, Graph: (abscissae, ordinates). *)
Definition graph : Type := list num * list num.

(** 2.0 (DerivedQuantities.cpp:155, 157). *)
Definition n2 : num := nofZ 2.
(** 0.5 (DerivedQuantities.cpp:157). *)
Definition nhalf : num := ndiv n1 n2.

(** DerivedQuantities.cpp:51, std::partial_sum: the part after the first element. *)
Fixpoint psum_from (acc : num) (l : list num) : list num :=
  match l with
  | [] => []
  | x :: l' => nadd acc x :: psum_from (nadd acc x) l'
  end.
(** DerivedQuantities.cpp:51, std::partial_sum on a vector. *)
Definition partial_sum (l : list num) : list num :=
  match l with [] => [] | x :: l' => x :: psum_from x l' end.

(** DerivedQuantities.cpp:103, std::accumulate(l, 0.0). *)
Definition accumulate (l : list num) : num := foldl nadd n0 l.

(** DerivedQuantities.cpp:37-58, cumulativeNormalized (the extraction function
    has already been applied to the input). *)
Definition cumulative_normalized (input : list num) : list num :=
  let q := partial_sum (n0 :: input) in
  let t := List.last q n0 in
  map (fun qi => ndiv qi t) q.

(** DerivedQuantities.cpp:108, 119: operator< of std::pair<double,double>. *)
Definition pair_ltb (a b : num * num) : bool :=
  nltb (fst a) (fst b) || (negb (nltb (fst b) (fst a)) && nltb (snd a) (snd b)).

(** A concrete sorting algorithm (insertion sort) for DerivedQuantities.cpp:119, used
    in examples only. *)
Fixpoint insert_pair (x : num * num) (l : list (num * num)) : list (num * num) :=
  match l with
  | [] => [x]
  | y :: l' => if pair_ltb y x then y :: insert_pair x l' else x :: y :: l'
  end.
(** As above (DerivedQuantities.cpp:119). *)
Definition insertion_sort (l : list (num * num)) : list (num * num) :=
  foldr insert_pair [] l.

(** DerivedQuantities.cpp:108-118: (travel time, pore volume) of each cell,
    cells above the cut-off marked by (1e100, 0). *)
Definition time_and_pv (itof ptof pv : list num) (max_pv : num) : list (num * num) :=
  map (fun x => let '(a, b, v) := x in
                if nltb max_pv v then (nofZ (10 ^ 100), n0) else (nadd a b, v))
      (zip (zip itof ptof) pv).

(** DerivedQuantities.cpp:92-125, flowCapacityStorageCapacityCurve.  [srt] is
    the result std::sort produces: the theorems hold for every function that
    returns a sorted permutation.  With a NaN among the values operator< is not
    a strict weak ordering and std::sort is undefined. *)
Definition fphi_curve (srt : list (num * num) -> list (num * num))
    (itof ptof pv : list num) (max_pv_fraction : num) : res graph :=
  if negb (zlen pv =? zlen itof) || negb (zlen pv =? zlen ptof) then Throw RuntimeError
  else
    let max_pv := nmul max_pv_fraction (accumulate pv) in
    let n := to_int (zlen pv) in          (* :107, const int n = pv.size() *)
    if n <? 0 then Throw LengthError
    else
    let tp := take (Z.to_nat n) (time_and_pv itof ptof pv max_pv) in
    if existsb (fun p => nisnan (fst p) || nisnan (snd p)) tp then UB
    else
      let l := srt tp in
      Ok (cumulative_normalized (map snd l),
          cumulative_normalized (map (fun p => ndiv (snd p) (fst p)) l)).

(** DerivedQuantities.cpp:71-80, the overload taking solutions. *)
Definition fphi_curve_sol (srt : list (num * num) -> list (num * num))
    (inj prod : solution) (pv : list num) (max_pv_fraction : num) : res graph :=
  fphi_curve srt (sol_global_tof inj) (sol_global_tof prod) pv max_pv_fraction.

(** DerivedQuantities.cpp:143-158, lorenzCoefficient. *)
Definition lorenz_coefficient (g : graph) : res num :=
  let '(storagecap, flowcap) := g in
  if negb (zlen flowcap =? zlen storagecap) then Throw RuntimeError
  else
    let num_intervals := to_int (to_size (zlen flowcap - 1)) in
    integral ← forZ 0 num_intervals (fun acc ii =>
      s1 ← zget storagecap (ii + 1);
      s0 ← zget storagecap ii;
      f0 ← zget flowcap ii;
      f1 ← zget flowcap (ii + 1);
      let len := nsub s1 s0 in
      Ok (nadd acc (ndiv (nmul (nadd f0 f1) len) n2))) n0;
    Ok (nmul n2 (nsub integral nhalf)).

(** DerivedQuantities.cpp:185-192: one step; state is (tD, Ev). *)
Definition sweep_step (storagecap flowcap : list num) (st : list num * list num) (ii : Z)
  : res (list num * list num) :=
  let '(tD, Ev) := st in
  f1 ← zget flowcap ii;
  f0 ← zget flowcap (ii - 1);
  s1 ← zget storagecap ii;
  s0 ← zget storagecap (ii - 1);
  let fd := nsub f1 f0 in
  let sd := nsub s1 s0 in
  if negb (neqb fd n0)
  then let t := ndiv sd fd in Ok (tD ++ [t], Ev ++ [nadd s1 (nmul (nsub n1 f1) t)])
  else Ok (tD, Ev).

(** DerivedQuantities.cpp:168-195, sweepEfficiency; result (tD, Ev). *)
Definition sweep_efficiency (g : graph) : res graph :=
  let '(storagecap, flowcap) := g in
  if negb (zlen flowcap =? zlen storagecap) then Throw RuntimeError
  else
    let n := to_int (zlen flowcap) in     (* :178, const int n = flowcap.size() *)
    if n <? 0 then Throw LengthError      (* :181, reserve *)
    else forZ 1 n (sweep_step storagecap flowcap) ([n0], [n0]).

(** DerivedQuantities.cpp:202-220, injectorProducerPairVolume. *)
Definition pair_volume (inj prod : solution) (pv : list num) (injector producer : cellset_id)
  : res num :=
  let inj_tracer := sol_concentration inj injector in
  let prod_tracer := sol_concentration prod producer in
  foldM (fun volume kv =>
    match om_find (fst kv) prod_tracer with
    | Some p =>
        x ← zget pv (fst kv);
        Ok (nadd volume (nmul (nmul x (snd kv)) p))
    | None => Ok volume
    end) n0 inj_tracer.

(** DerivedQuantities.cpp:229-247, pairFlux. *)
Definition pair_flux_sum (tracer inflow : cellset_values) (require_inflow : bool) : num :=
  foldl (fun flux kv =>
    match om_find (fst kv) tracer with
    | Some t =>
        if Bool.eqb (nltb n0 (snd kv)) require_inflow
        then nadd flux (nmul (snd kv) t)
        else flux
    | None => flux
    end) n0 inflow.

(** DerivedQuantities.cpp:265-285, injectorProducerPairFlux. *)
Definition pair_flux (inj prod : solution) (injector producer : cellset_id)
    (inflow : smap cellset_id cellset_values) : res (num * num) :=
  let inj_tracer := sol_concentration inj injector in
  let prod_tracer := sol_concentration prod producer in
  match om_find injector inflow with
  | None => Throw RuntimeError
  | Some iset =>
      match om_find producer inflow with
      | None => Throw RuntimeError
      | Some pset => Ok (pair_flux_sum prod_tracer iset true, pair_flux_sum inj_tracer pset false)
      end
  end.

End derived_quantities.
