(** The unit tests of /repo/tests replayed in the model: evidence that the model
    reads the code correctly.  These are tests, not proofs of properties. *)
From Coq Require Import QArith Qcanon String.
From Verif.Model Require Import AssembledConnections Tarjan Containers Solution
  TracerTofSolver Toolbox DerivedQuantities.
Open Scope Z_scope.
Open Scope list_scope.

(** A heap with arbitrary-looking garbage on which every allocation succeeds. *)
Definition test_heap : heap := mkHeap (fun b k => Z.of_nat (17 * b + k + 1234)) (fun _ => true).
Definition test_env : env := mkEnv (fun _ => test_heap) 100.

(** Rational literals and printing of exact values. *)
Definition q (a : Z) (b : positive) : @num exact := Fin (Q2Qc (a # b)).
Definition show (x : @num exact) : option Q := match x with Fin y => Some (this y) | _ => None end.
Definition shows := map show.
Definition show_map (m : @cellset_values exact) : list (Z * option Q) :=
  map (fun kv => (fst kv, show (snd kv))) m.

(** ** tests/test_assembledconnections.cpp *)
Definition build (es : list (Z * Z)) : @aconn exact :=
  foldl (fun g e => ac_add g e.1 e.2) ac_new es.
Definition build_w (es : list (Z * Z * @num exact)) : @aconn exact :=
  foldl (fun g e => ac_add_w g e.1.1 e.1.2 e.2) ac_new es.
Definition csr_of (r : res (@aconn exact * option exn)) :=
  match r with
  | Ok (g, None) => Some (ac_start g, ac_neigh g, shows (ac_weight g))
  | _ => None
  end.
Definition exn_of {A} (r : res (A * option exn)) := match r with Ok (_, Some e) => Some e | _ => None end.

Example zero_to_one_two_duplicate :
  csr_of (ac_compress (build ([(0,2);(0,2);(0,2);(0,1);(0,2);(0,2);(0,2);(0,1);(0,1);(0,1)])) 4)
  = Some ([0;2;2;2;2], [1;2], []).
Proof. vm_compute. reflexivity. Qed.

Example unexpected_vertex_id :
  exn_of (ac_compress (build [(0,1);(0,2);(1,3);(3,2)]) 3) = Some InvalidArgument.
Proof. vm_compute. reflexivity. Qed.

Example isolated_node :
  csr_of (ac_compress (build [(2,0);(0,2);(0,0)]) 3) = Some ([0;2;2;3], [0;2;0], []).
Proof. vm_compute. reflexivity. Qed.

Example weighted_graph_multiple :
  csr_of (ac_compress (build_w (concat (replicate 4
     [(0,2,q 1 5);(0,1,q (-1) 10);(1,3,q 13 1);(2,3,q (-23) 1)]))) 4)
  = Some ([0;2;3;4;4], [1;2;3;3],
          [Some (-2 # 5)%Q; Some (4 # 5)%Q; Some (52 # 1)%Q; Some (-92 # 1)%Q]).
Proof. vm_compute. reflexivity. Qed.

(** ** tests/test_tarjan.cpp *)
Definition comps_of (s : scc) : list (list Z) :=
  omap (fun k => match tarjan_get_strongcomponent s k with Ok l => Some l | _ => None end)
       (seqZ 0 (tarjan_get_numcomponents s)).
Definition run_tarjan (nv : Z) ia ja :=
  match tarjan test_heap nv ia ja with
  | Ok (Some s) =>
      match tarjan_reverse_sccresult test_heap s with
      | Ok (true, s') => Some (comps_of s, comps_of s')
      | _ => None
      end
  | _ => None
  end.
Definition run_reach (nv : Z) ia ja starts :=
  match tarjan_reachable_sccs test_heap nv ia ja starts (new_ws test_heap 0 nv) with
  | Ok (_, Some s) =>
      match tarjan_reverse_sccresult test_heap s with
      | Ok (true, s') => Some (comps_of s, comps_of s')
      | _ => None
      end
  | _ => None
  end.

Example fully_separable :
  run_tarjan 4 [0;0;1;2;4] [0;0;1;2] = Some ([[0];[1];[2];[3]], [[3];[2];[1];[0]]).
Proof. vm_compute. reflexivity. Qed.
Example fully_separable_sparse :
  run_reach 4 [0;2;3;4;4] [1;2;3;3] [2] = Some ([[3];[2]], [[2];[3]]).
Proof. vm_compute. reflexivity. Qed.
Example loop_ : run_tarjan 4 [0;1;2;3;4] [2;0;3;1] = Some ([[1;3;2;0]], [[1;3;2;0]]).
Proof. vm_compute. reflexivity. Qed.
Example loop_sparse : run_reach 4 [0;1;2;3;4] [1;3;0;2] [2] = Some ([[3;1;0;2]], [[3;1;0;2]]).
Proof. vm_compute. reflexivity. Qed.
Example dual_path :
  run_tarjan 4 [0;0;2;3;4] [0;0;3;1] = Some ([[0];[1];[3];[2]], [[2];[3];[1];[0]]).
Proof. vm_compute. reflexivity. Qed.
Example dual_path_sparse :
  run_reach 4 [0;2;3;3;4] [1;2;3;2] [1] = Some ([[2];[3];[1]], [[1];[3];[2]]).
Proof. vm_compute. reflexivity. Qed.
Example isolated_flows :
  run_tarjan 4 [0;0;1;2;2] [3;0] = Some ([[0];[3];[1];[2]], [[2];[1];[3];[0]]).
Proof. vm_compute. reflexivity. Qed.
Definition centre_ia : list Z := [0;2;4;6;7;9;10;12;13;15;16;18;19;20;22;24;24].
Definition centre_ja : list Z := [1;4;2;5;3;6;7;5;8;6;7;10;11;9;12;5;9;11;15;13;9;14;10;15].
Example centre_loop :
  fst <$> run_tarjan 16 centre_ia centre_ja
  = Some [[15];[11];[7];[6;5;9;10];[14];[13];[12];[8];[4];[3];[2];[1];[0]].
Proof. vm_compute. reflexivity. Qed.
Example centre_loop_sparse :
  run_reach 16 centre_ia centre_ja [5;12]
  = Some ([[15];[11];[7];[9;10;6;5];[14];[13];[12]], [[12];[13];[14];[9;10;6;5];[7];[11];[15]]).
Proof. vm_compute. reflexivity. Qed.

(** ** tests/test_flowdiagnosticstool.cpp *)
Definition fluxes (l : list (@num exact)) : @cvalues exact := mkCvalues (zlen l) 1 l.
Definition show_sol (s : @solution exact) :=
  (shows (sol_global_tof s), map (fun i => (i, show_map (sol_concentration s i), show_map (sol_tof s i)))
                                 (sol_start_points s)).
Definition run_tool (ncells : Z) (conns : list Z) (pv : list (@num exact)) (fl : list (@num exact))
    (wells : @flux_map exact) (inj prod : list cellset) :=
  match cg_make ncells conns with
  | Ok g =>
      match tb_run (tb_new g) [CPoreVolume pv; CFlux (fluxes fl); CInflow wells;
                               CInject test_env inj; CProduce test_env prod] with
      | Ok (_, [ODone; ODone; ODone; OSol a; OSol b]) => Some (a, b)
      | _ => None
      end
  | _ => None
  end.
Local Notation "'R' a" := (Some (a # 1)%Q) (at level 9).
Definition h13 : @num exact := q 3 10.

Definition onedim := run_tool 5 [0;1;1;2;2;3;3;4] (replicate 5 h13) (replicate 4 h13)
  [("I-1"%string, [(0, h13)]); ("P-1"%string, [(4, q (-3) 10)])]
  [cs_make "I-1"%string [0]] [cs_make "P-1"%string [4]].
Example one_dim_case :
  option_map (fun p => (show_sol p.1, show_sol p.2)) onedim
  = Some (([R 1; R 2; R 3; R 4; R 5],
           [("I-1"%string, [(0,R 1);(1,R 1);(2,R 1);(3,R 1);(4,R 1)],
                           [(0,R 1);(1,R 2);(2,R 3);(3,R 4);(4,R 5)])]),
          ([R 5; R 4; R 3; R 2; R 1],
           [("P-1"%string, [(0,R 1);(1,R 1);(2,R 1);(3,R 1);(4,R 1)],
                           [(0,R 5);(1,R 4);(2,R 3);(3,R 2);(4,R 1)])])).
Proof. vm_compute. reflexivity. Qed.

Example local_solutions :
  option_map (fun p => (show_sol p.1, (show_sol p.2).1))
   (run_tool 6 [0;1;1;2;3;4;4;5;0;3;1;4;2;5] (replicate 6 h13)
     [h13; q 0 1; h13; q 6 10; q 0 1; h13; q (-6) 10]
     [("I-1"%string, [(0, h13)]); ("I-2"%string, [(3, h13)]); ("P-1"%string, [(2, q (-6) 10)])]
     [cs_make "I-1"%string [0]; cs_make "I-2"%string [3]] [cs_make "P-1"%string [2]])
  = Some (([R 1; R 2; R 3; R 1; R 2; Some (5#2)%Q],
    [("I-1"%string, [(0,R 1);(1,R 1);(2,Some (1#2)%Q);(4,Some (1#2)%Q);(5,Some (1#2)%Q)],
                    [(0,R 1);(1,R 2);(2,Some (7#2)%Q);(4,Some (5#2)%Q);(5,R 3)]);
     ("I-2"%string, [(2,Some (1#2)%Q);(3,R 1);(4,Some (1#2)%Q);(5,Some (1#2)%Q)],
                    [(2,Some (5#2)%Q);(3,R 1);(4,Some (3#2)%Q);(5,R 2)])]),
     [Some (7#2)%Q; Some (5#2)%Q; Some (1#2)%Q; Some (5#2)%Q; Some (3#2)%Q; R 1]).
Proof. vm_compute. reflexivity. Qed.

Example midflow_source :
  option_map (fun p => (show_sol p.1, (show_sol p.2).1))
   (run_tool 3 [0;1;1;2] (replicate 3 h13) [h13; q 6 10]
     [("I-1"%string, [(0, h13)]); ("I-2"%string, [(1, h13)]); ("P-1"%string, [(2, q (-6) 10)])]
     [cs_make "I-1"%string [0]; cs_make "I-2"%string [1]] [cs_make "P-1"%string [2]])
  = Some (([R 1; R 1; Some (3#2)%Q],
    [("I-1"%string, [(0,R 1);(1,Some (1#2)%Q);(2,Some (1#2)%Q)], [(0,R 1);(1,Some (3#2)%Q);(2,R 2)]);
     ("I-2"%string, [(1,Some (1#2)%Q);(2,Some (1#2)%Q)], [(1,Some (1#2)%Q);(2,R 1)])]),
     [R 2; R 1; Some (1#2)%Q]).
Proof. vm_compute. reflexivity. Qed.

(** ** tests/test_derivedquantities.cpp *)
Definition show_graph (r : res (@graph exact)) :=
  match r with Ok g => Some (shows g.1, shows g.2) | _ => None end.
Definition show_num (r : res (@num exact)) := match r with Ok g => Some (show g) | _ => None end.
Definition general_case := fphi_curve insertion_sort [q 0 1; q 2 1; q 1 1] [q 1 1; q 2 1; q 0 1]
                                      [q 1 1; q 2 1; q 1 1] n1.
Example general_case_fphi :
  show_graph general_case = Some ([R 0; Some (1#4)%Q; Some (1#2)%Q; R 1],
                                  [R 0; Some (2#5)%Q; Some (4#5)%Q; R 1]).
Proof. vm_compute. reflexivity. Qed.
Example general_case_lorenz : show_num (c ← general_case; lorenz_coefficient c) = Some (Some (3#10)%Q).
Proof. vm_compute. reflexivity. Qed.
Example inbetween_sweep :
  show_graph (sweep_efficiency ([q 0 1; q 45 100; q 1 1], [q 0 1; q 75 100; q 1 1]))
  = Some ([R 0; Some (3#5)%Q; Some (11#5)%Q], [R 0; Some (3#5)%Q; R 1]).
Proof. vm_compute. reflexivity. Qed.
Example one_dim_pair_volume :
  (p ← onedim; show_num (pair_volume p.1 p.2 (replicate 5 h13) "I-1"%string "P-1"%string))
  = Some (Some (3#2)%Q).
Proof. vm_compute. reflexivity. Qed.
Example one_dim_pair_flux :
  (p ← onedim; match pair_flux p.1 p.2 "I-1"%string "P-1"%string
      [("I-1"%string, [(0, h13)]); ("P-1"%string, [(4, q (-3) 10)])] with
      Ok r => Some (show r.1, show r.2) | _ => None end)
  = Some (Some (3#10)%Q, Some (-3#10)%Q).
Proof. vm_compute. reflexivity. Qed.

(** A cyclic network (cells 1 -> 2 -> 1): Gauss-Seidel runs and stops. *)
Example cyclic_runs :
  match run_tool 3 [0;1;1;2;2;1] (replicate 3 h13) [h13; q 4 10; q 1 10]
     [("I-1"%string, [(0, h13)]); ("P-1"%string, [(2, q (-3) 10)])]
     [cs_make "I-1"%string [0]] [cs_make "P-1"%string [2]] with Some _ => true | None => false end = true.
Proof. vm_compute. reflexivity. Qed.
