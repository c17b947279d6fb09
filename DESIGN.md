# Formal model of OPM/opm-flowdiagnostics in Rocq (Coq 8.16.1)

## 1. Approach

The whole library (`opm/utility/graph`, `opm/flowdiagnostics`, `opm/utility/numeric`)
is modelled function by function as executable Gallina, and the properties of
`properties.jsonl` are proved about that model.

* **Outcomes.** Every function that can misbehave returns
  `res A := Ok a | Throw e | UB | AssertFail | NoFuel`.
  Out-of-bounds accesses, null dereferences, signed overflow and invalid
  comparators are `UB`; a failing `assert` is `AssertFail`; C++ exceptions are
  `Throw`; `NoFuel` means a loop has used up its explicit step budget.  So "no UB,
  no failed assertion, no exception, terminates" is the statement `... = Ok _`.
  Operations that may throw *and* change an object return the new state together
  with the exception, so that "a rejected call changes nothing" can be stated.
* **Integers** are `Z`; arrays and vectors are lists with checked access.
  Conversions between `int` and `size_t` wrap explicitly where the code converts.
* **Floating point.** Model code is written over an abstract record of
  arithmetic operations (class `Num`) without laws.  Two instances are given:
  `exact` (canonical rationals `Qc` extended with +inf, -inf, NaN) and
  `b64` (IEEE binary64, `Coq.Floats.SpecFloat`, precision 53, emax 1024, round to
  nearest even).  Theorems about structure are proved for *every* `Num`, hence
  for the real doubles bit by bit; algebraic theorems are proved for `exact`;
  range and monotonicity theorems for both, through small records of laws that
  both instances satisfy (`b64` through Flocq).
* **Maps** (`std::map`) are strictly sorted association lists, so iteration order
  is the C++ one; `std::unordered_set` is a duplicate-free list and nothing may
  depend on its order.
* **Uninitialised memory** is a universally quantified function (`heap`), and so
  is the success of each `malloc` in tarjan.c.

## 2. Files (`rocq/theories`)

`Model/` holds only definitions, each citing the lines of /repo it models.
`Spec/` holds the vocabulary of the theorems.  `Proofs/` holds lemmas.  `Props/`
holds the theorem statements (closed by `exact`), a concrete case beside each,
and `Print Assumptions`.

| Model file | source |
|---|---|
| Base.v, OMap.v, Num.v | language and library semantics: outcomes, checked arrays, loops, conversions, `std::map`, `double` |
| AssembledConnections.v | utility/graph/AssembledConnections.{hpp,cpp}, AssembledConnectionsIteration.hpp |
| Tarjan.v | utility/graph/tarjan.{h,c} at the level of arrays; stack pointers are indices into the shared arrays |
| TarjanStrict.v | the same functions with the rule of C for forming pointers |
| TarjanAlloc.v | the same file at the level of malloc/free/pointers, and the two callers in TracerTofSolver.cpp |
| Containers.v | CellSet, CellSetValues, ConnectivityGraph, ConnectionValues |
| Solution.v | Solution.{hpp,cpp}: values, and a heap of owning pointers for copy/move |
| TracerTofSolver.v | TracerTofSolver.{hpp,cpp} |
| Toolbox.v | Toolbox.{hpp,cpp} |
| ToolboxObjects.v | Toolbox.{hpp,cpp}: construction, moves, destruction; a heap of owning pointers (std::unique_ptr after the C++ standard) |
| SolverStats.v | the statistics counters of TracerTofSolver.{hpp,cpp} |
| Release.v | the functions of the files above that contain assertions, compiled with NDEBUG |
| Text.v | the characters written by operator<< for AssembledConnections; the inserters of the standard library for int and double (classic locale, field width 0) |
| OutOfMemory.v | the calls of Toolbox.cpp, and addConnection and compress of AssembledConnections.cpp, when an operator new fails |
| DerivedQuantities.v | DerivedQuantities.{hpp,cpp} |
| RandomVector.v | utility/numeric/RandomVector.{hpp,cpp} |
| Random.v | the same with std::mt19937 after the C++ standard and the two distributions of libstdc++ |

| Spec file | says |
|---|---|
| GraphSpec.v | what a CSR representation of a list of connections is |
| SccSpec.v, TarjanSpec.v | strongly connected components by reachability; what a caller of tarjan.h observes |
| StrictSpec.v | vertices from which a search cannot turn aside |
| TarjanMemSpec.v | which heap blocks a result owns |
| ContainerSpec.v | two-dimensional stores |
| FlowSpec.v, SolverSpec.v | flow networks, upstream neighbours, fluxes; histories of solves |
| ToolboxSpec.v | problems, the net flux, rates per direction, the upwind formulas, histories of calls |
| MirrorSpec.v | the reversed problem; flux balance |
| SameFlowSpec.v, AcyclicSpec.v | pairs of problems: same net flow, scaled, renumbered, equal upstream of some cells |
| AccuracySpec.v | the exact problem that doubles stand for; relative errors and budgets for them |
| CurveSpec.v | inputs of the F-Phi curve in plain doubles, and the rational numbers they stand for |
| MonotoneSpec.v | pairs of problems that differ in their pore volumes |
| ConditionSpec.v | pairs of problems whose numbers differ by small factors; layers of cells down the flow |
| ConnectedSpec.v | which injector and which producer the net fluxes connect, and by way of which cells |
| StatsSpec.v | runs with counters; the largest number of sweeps they can count |
| JourneySpec.v | journeys of a particle through the cells, their chances and durations |
| StreamSpec.v | what flows along a journey between two wells, and for how long |
| CyclicSpec.v | functions that satisfy the equations of some wells, or dominate them |
| MergeSpec.v | pairs of problems that differ in how rates are grouped into wells |
| DefinedSpec.v | proper objects and rates, calls that get past the checks, defined outcomes |
| ResidualSpec.v | a tracer's equations met up to a part of the influx; a part of all fluxes |
| OutOfMemorySpec.v | programs some of whose calls run out of memory; clients that repeat failed assignments |
| TextSpec.v | reading numbers and matrices from text; nearest doubles |
| ObjectsSpec.v | Toolbox objects as values: a network and the calls made so far |
| RandomSpec.v | the Mersenne twister as an infinite sequence; ways of making small numbers that favour none |
| DerivedSpec.v, PairSpec.v, GiniSpec.v | curves, concavity, pair sums; sums over cells without sorting |

| Proof files | content |
|---|---|
| Util, OMapFacts | monad, checked arrays, loops, sorted association lists |
| BucketSort, Csr, CsrCreate, AConn, GraphProps | bucket insertion is a stable sort; two of them give CSR; histories of calls |
| TarjanAbs, TarjanSim, TarjanProps, TarjanRev, TarjanMem, TarjanTop | abstract stack machine with its invariant and measure; the array code simulates it; consequences; allocation ledger |
| SolverBase, SolverRun, SolverGen, SolverTop, SolverProps | the solver as a function of the problem, independent of its scratch arrays |
| OrdLaws, SolverOrd, TofRange, OppLaws, B64Bridge, B64Laws, TofLaws | law records, their consequences, and the instances |
| ExactNum, QcLra, GaussSeidel, ExactRun | convergence and limits of the component iteration over the rationals |
| ToolboxRates, ToolboxFlow, ToolboxVal, ToolboxState, ToolboxPose, ToolboxSane, ToolboxExact, ToolboxThms | the Toolbox state machine and its results |
| Mirror, Duality | reversal of the flow; sums over wells and cells |
| SameFlow, Scaling, Acyclic, Renumber, Balance | relations between two problems; uniqueness; totals over wells and cells |
| SolverApi | the solver called directly, with any start values and any rates |
| Endless, Slow | iterations that return to an earlier state, or take long |
| Monotone | larger pore volumes |
| Condition | diagnostics of problems that differ by small factors, layer by layer |
| TarjanStrict | how full the component stack gets |
| Measured | problems with the rounded sums of the phase fluxes as single phase |
| Raise | two problems that differ in the rate of one well, compared cell by cell down the flow |
| Parts | lists of components compared: of a closed part of a graph, of graphs with the same or opposite edges |
| Superpose | linear systems down the flow have one solution; pore volumes combined |
| OneSided | the recorded rates of a direction depend on the rates of that direction only, in their order |
| PoreFree | the tracer equations have one solution whatever the times-of-flight |
| PoreVolume | pair volumes are linear in the pore volumes |
| HexText | hexadecimal numbers are read back exactly |
| Connected | pair fluxes and volumes are positive exactly for connected wells |
| Stats | simulation between the solvers with and without counters |
| Cyclic | upper bounds of the iteration; what it leaves out, summed over cells |
| Journeys | sums over journeys solve the equations and dominate the iteration |
| Streams | pair fluxes and pair volumes as sums over journeys; journeys backwards |
| Merge | regrouped wells |
| PairTime | pair volumes and times of flight |
| OutOfMemory | simulation between programs with and without the failed calls |
| Defined | programs over the toolbox without undefined behaviour, and exactly which computations have it |
| Residual, ResidualSum, ResidualTop | the last sweep of the iteration with doubles, its residual in every cell, and sums of residuals over the cells |
| EndToEnd | the Lorenz coefficient depends continuously on the travel times; the chain from fluxes to the coefficient |
| Random, RandomDraws, RandomNumbers | the words of the generator, tempering is invertible, the sequence never dies; the words that the distributions use up; fractions and points made of words |
| CurveAccuracy | absolute errors of the trapezoidal rule; the F-Phi curve and the Lorenz coefficient in doubles against exact numbers |
| Rounding, Accuracy, PairAccuracy | relative errors; doubles against exact numbers on networks without cycles, for wells and for pairs of wells |
| ContainerProps, DerivedOrd, DerivedLink, DerivedExact, DerivedLorenz, DerivedMisc, DerivedTop, Gini | the remaining classes |

`Props/Conformance.v` replays the unit tests of /repo/tests in the model.  They are
tests of the reading, not proofs.  `Props/Rounding.v` collects double precision
counterexamples to balances that are exact over the rationals.

## 3. Methods

| properties | method |
|----|--------|
| C01-C03, C06 | stable bucket sort refinement of the array code; permutation argument |
| C04, C05 | case analysis over all outcomes; induction over call histories |
| C08, C09, C13, C14 | refinement of the array machine to an abstract stack machine with a measure; initial array content universally quantified |
| C10-C12 | invariant of the abstract machine (segments between DFS-path vertices on the component stack) |
| C88 | invariants of the abstract machine: a vertex that stays off the component stack; no turning aside before the first component is complete |
| C89 | C63 and C86 joined at the problem whose fluxes are the rounded sums, solved in exact arithmetic (C23) |
| C90 | induction down the flow on the exact equations of both problems; the raised rate adds to the total influx of its cells |
| C91 | from C10 to C12 and C14: components are classes of mutual reachability, which a closed part inherits and turning round keeps |
| C92 | times weighted with concentrations solve a linear system down the flow; the unit of time from C54 and smaller pores |
| C93 | sorted lists of wells agree where it matters, so the sums of rates have the same terms in the same order |
| C94 | induction down the flow on the tracer equations alone; a cycle computed in doubles for two pore volumes |
| C15 | ledger of allocated blocks, allocation oracle |
| C16-C22, C52 | direct; induction over histories; refinement of a pointer heap to value semantics |
| C23-C27, C30-C32 | topological-order invariant; monotone bounded Gauss-Seidel iteration |
| C28, C29 | monotonicity of rounding, relative error of one product |
| C33-C41 | state machine; refinement to "last accepted input"; simulation between the two directions |
| C42-C51 | list induction, concavity, permutation |
| C53, C54 | simulation of the two runs, cell by cell |
| C55-C57 | induction along the flow: the equations of an acyclic network have one solution |
| C58 | state machine of the solver; invariants of a run |
| C59-C61 | double counting of fluxes, linear equations in both directions |
| C62 | the state of the iteration repeats (computed in the kernel), then induction over the number of sweeps |
| C63 | relative error analysis of the equations of a cell, induction along the flow |
| C64 | closed form of all iterates of a two-cell cycle |
| C65 | induction along the flow with monotone rounded operations |
| C66, C67 | induction over the sorted cells; transfer of sums to the unsorted input |
| C68 | closed forms as sums over distinct travel times |
| C69 | simulation of the run with counters by the run without |
| C70, C71 | comparison with the simultaneous iteration; residuals summed over the cells |
| C75 | linearity of the equations in the rates of the wells, induction along the flow |
| C72 | refinement of a pointer heap to values |
| C76 | duality of the equations of the two directions; bounds for what the iteration leaves out |
| C74 | invariants of the objects; case analysis of a call's outcome |
| C77, C78, C84 | relative and absolute error analysis of sums, products and the trapezoidal rule |
| C85 | the state is a window of the sequence; tempering and the recurrence are inverted bit by bit; counting words by division |
| C79 | recursion over the number of steps; uniqueness of solutions; comparison with the simultaneous iteration |
| C80 | weighted sums of both tracer equations, one with the durations in place of the concentrations; reversal of journeys |
| C81 | refinement, function by function, between the builds with and without assertions; invariants of the objects |
| C82 | the decimal conversion is within half a unit of its last digit; doubles are further apart than that; lines and fields split at characters that numbers do not contain; hexadecimal digits by induction, with the zeros at the end restored |
| C73 | rounding errors of a cell's update; changes of the last sweep are below the tolerance; contraction of weighted absolute differences |

## 4. Trusted base

* The Coq kernel, 8.16.1, including its `vm_compute` reduction machine (used in
  examples, in the refutations and for constants).
* The reading of the C and C++ code into `Model/`.
* Axioms: none of our own.  std++ and Flocq are used as libraries and add no
  axioms.  The standard library axioms used are those of its real numbers, by the
  theorems marked R in section 6 (via Flocq, whose correctness statements speak
  about real numbers):
  `ClassicalDedekindReals.sig_not_dec`, `ClassicalDedekindReals.sig_forall_dec`,
  `FunctionalExtensionality.functional_extensionality_dep`,
  `Classical_Prop.classic`.
  `Print Assumptions` reports every other theorem closed under the global context.

### 4.1 Modelled

Every public function of every class of the library, and every function with
internal linkage they call, including their behaviour on invalid input, the
exceptions they throw, the asserts, and the state they leave behind.  All files but
one describe a debug build, in which a failing `assert` ends the program;
`Model/Release.v` has the same functions compiled with NDEBUG, and C81 relates the two.

### 4.2 Simplified

* Text.  `ac_print` yields a sequence of records and the stream's flags and precision;
  `ac_put` (Text.v) makes characters of them, for streams of the classic locale with field
  width 0 and no other flags than those they are born with, std::fixed and std::scientific.
  Exception messages are left out.
* Numbers.  `exact` has a single unsigned zero.  `b64` has a single NaN and assumes
  strict evaluation (no excess precision, no contraction, no -ffast-math).
* `std::sort` is any function returning a sorted permutation.  Sorting pairs that
  contain a NaN counts as undefined behaviour, even for fewer than two elements
  (where the C++ call would be harmless).
* `std::mt19937` and the distributions are parameters of RandomVector.v (C52).  Random.v
  has the generator of the C++ standard and the distributions of libstdc++; those of other
  standard libraries may differ.  `log` and `sqrt` are parameters, a canonical number is made
  of two words with the arithmetic of the number type, and a loop that rejects words has fuel
  (C85_index_defined says when it is enough).
* The counters of TracerTofSolver (`num_multicell_`, `max_size_multicell_`,
  `max_iter_multicell_`, and `num_iter` in solveMultiCell) are left out of
  TracerTofSolver.v and Toolbox.v.  SolverStats.v has the same functions with the
  counters, and undefined behaviour when one overflows; C69 relates the two.
* Allocation by C++ containers never fails (no `std::bad_alloc`), except that a
  negative length converted to `size_t` throws `std::length_error`, and except in
  OutOfMemory.v, which has the failing versions of the calls of Toolbox and of addConnection
  and compress.  There a failing vector assignment leaves the old contents or none, as the
  environment decides; a failing build leaves anything in the two graphs; a failing solve
  counts as undefined behaviour if the same solve has it without the failure.
* In TarjanAlloc.v a freed address is never handed out again.
* `malloc(0)` (a graph without vertices) is not distinguished from other calls: it
  may return NULL or a pointer, as the environment decides.
* In tarjan.c the full component stack is a pointer one before the start of an
  array.  In Tarjan.v, and so wherever TracerTofSolver.v and Toolbox.v call it, only its
  dereference counts as undefined, not its formation.  TarjanStrict.v has the stricter
  reading; C88 relates the two.

### 4.3 Not modelled

Build system, packaging and examples; the test programs themselves (their data
is replayed in Props/Conformance.v); running time and memory consumption except
for the loop counts of C09; concurrency (the library has none).

## 5. Findings about the code

Behaviour that contradicts documentation or a natural reading, each with a
machine-checked witness:

| theorem | finding |
|---|---|
| C62_endless_b64 | computeInjectionDiagnostics never returns on a valid balanced problem of 29 cells: where the concentration of a tracer is a subnormal double, the iteration of solveMultiCell alternates between two states further apart than its tolerance, and it has no limit on the number of sweeps |
| C69_overflow, C69_overflow_b64 | the `int` that counts the sweeps of solveMultiCell overflows on valid balanced problems, one of them with two cells and integer data |
| C23_b64_refuted | in doubles a tracer value may underflow to zero, and solveLocal ends in std::logic_error |
| C74_exactly | a well rate for a cell outside the graph is not rejected: the next computation of that direction writes outside an array (expandSparse, TracerTofSolver.cpp:42-49) |
| C74_asserts_overflow_refuted, C74_nan_refuted | two finite fluxes of 2^1023 into one cell end in a failed assertion or a NaN concentration |
| C81_overflow_refuted, C81_unweighted | release builds: the overflow above is returned as a solution with NaN in it; looking at the neighbours in a graph without weights leaves the array of weights |
| C82_fixed | operator<< adds std::scientific without clearing the float field (AssembledConnections.cpp:471): on a stream set to std::fixed the weights come out in hexadecimal |
| C83_flux_UB, C83_flux_refuted, C83_rates_refuted | after std::bad_alloc in assignConnectionFlux or assignInflowFlux the toolbox accepts computations on a half-assigned input: it reads an empty array, old fluxes with the new number of phases, or part of the rates. Repeating the call until it succeeds repairs everything (C83_recovers) |
| C83_add_refuted | a weighted connection whose weight could not be stored remains as an unweighted one |
| C85_index_defined | RandomVector::index with a negative largest index is undefined behaviour; nothing checks it |
| C85_normal_odd | RandomVector::normal makes a new distribution in each call, so a call for an odd number of deviates computes one more and throws it away: drawing a sample in pieces gives other numbers |
| C15_null_unchecked_refuted | computeOrdering uses the result of tarjan() before checking it for NULL |
| C88_row_undefined, C88_strong_undefined | tarjan.c moves the component stack pointer to before its array, which C does not define, when all vertices are on the stack: on a row of cells, a single cell, any strongly connected graph.  No access follows.  One more element in `vert` would avoid it (C88_reachable_roomy) |
| C05_reuse_refuted, C05_reuse_weights_refuted | AssembledConnections::clear keeps the largest indices and the weight flag |
| C07_flags_refuted | operator<< leaves std::ios::scientific set on the stream |
| C16_negative_refuted | ConnectivityGraph accepts negative cell indices |
| C18_wrap_refuted | ConnectionValues allocates too little when connections times phases wraps |
| C31_self_connection_refuted | a connection of a cell with itself halves the concentration of the only well |
| C65_slow_refuted, C65_slow_b64_refuted | times-of-flight are cut off at 200 years when reported, but passed on uncut; a cell that needs more than 200 years to fill passes on 200 years. So more pore volume can shorten the times downstream |
| C42_zero_time_refuted | the F-Phi curve is NaN when all travel times are zero |
| C50_cutoff_refuted | cells above the pore volume cut-off add points (1, 1) only if the others have shorter travel times than 1e100 |
| C78_unit_interval_refuted | three cells with equal travel times have a negative Lorenz coefficient in doubles |
| C70_b64_refuted | in doubles the concentrations of all injectors in a cell can add up to more than one |
| C39_, C48_, C59_, C60_, C61_, C75_b64_refuted | on a two-cell problem with integer data the balances that hold in exact arithmetic are off by rounding, the sign included: a mean of wells' times exceeds the global time |
| C53_order_b64_refuted | in doubles the order of parallel connections changes the result |

## 6. Theorems per property

Status as in MANIFEST.json.  "R": uses the axioms of the reals listed above.
Names ending in `_refuted` show that the stronger reading of a property is false
of the code, with a concrete witness.

| id | status | property | theorems | note |
|---|---|---|---|---|
| C01 | proved | compress() yields the exact CSR adjacency structure | `C01_compress_exact_csr` | every Num instance; indices in [0, INT_MAX) |
| C02 | proved | compress() accumulates weights bit-exactly in insertion order | `C02_weights_in_insertion_order` | every Num instance, so bit-exact for doubles |
| C03 | proved | The assembled graph does not depend on insertion order | `C03_order_independent`, `C03_order_independent_weights` | weights: exact arithmetic |
| C04 | proved | compress() rejects invalid input without changing the graph | `C04_compress_outcome`, `C04_rejection_changes_nothing` | complete outcome on a new object; unchanged-on-throw on every reachable object |
| C05 | partial | An AssembledConnections object can be reused after compress() | `C05_reuse_partial`, `C05_reuse_refuted`, `C05_reuse_weights_refuted`, `C05_reuse_exactly` | documented reuse is false of the code (clear() keeps max indices; stale weights; both refuted). C05_reuse_partial: it holds if no row ever added is >= the new numRows. C05_reuse_exactly gives the complete behaviour for every history, list and numRows. |
| C06 | proved | cellNeighbourhood() enumerates exactly one row | `C06_cell_neighbourhood`, `C06_unweighted_is_caught` |  |
| C07 | partial | operator<< writes every entry once, in row order, and restores the stream | `C07_print_partial`, `C07_flags_refuted` | records and precision proved; the flags are not restored by the code (setf only adds flags). The text of the numbers is the subject of C82 |
| C08 | proved | Tarjan never leaves its arrays although stacks and results share storage | `C08_tarjan_safe`, `C08_reachable_safe` | result is Ok: no UB, no failed assertion, no exhausted loop budget, for every content of malloc'ed arrays |
| C09 | proved | Tarjan terminates after at most \|V\|+\|E\| loop steps | `C09_tarjan_steps`, `C09_reachable_steps` | exact step counts; the explicit loop budget always suffices |
| C10 | proved | tarjan() returns exactly the strongly connected components | `C10_C11_tarjan_sccs` | specification in Spec/SccSpec.v (reachability = rtc of edges) |
| C11 | proved | Components come in reverse topological order | `C10_C11_tarjan_sccs`, `C12_reachable_sccs` |  |
| C12 | proved | tarjan_reachable_sccs() covers exactly the reachable set | `C12_reachable_sccs` |  |
| C13 | proved | Tarjan results do not depend on uninitialised memory or on earlier use of the work-space | `C13_tarjan_deterministic`, `C13_reachable_deterministic`, `C13_reachable_from_all` |  |
| C14 | proved | tarjan_reverse_sccresult() reverses the components and nothing else | `C14_reverse`, `C14_reverse_twice` | for every result obtainable through the API |
| C15 | proved | Tarjan allocation failures return NULL and leak nothing | `C15_tarjan_memory`, `C15_reachable_memory`, `C15_workspace_memory`, `C15_reverse_memory`, `C15_callers_memory`, `C15_null_unchecked_refuted` | heap ledger model (Model/TarjanAlloc.v); the callers in TracerTofSolver do not check for NULL (refuted witness) |
| C16 | partial | ConnectivityGraph accepts exactly N-by-2 tables with in-range cells and reproduces them | `C16_accepts_partial`, `C16_reproduces`, `C16_negative_refuted`, `C16_accepts_exactly` | The constructor only checks the maximum, so a negative cell index is accepted (C16_negative_refuted); the claim holds for tables without negative entries. C16_accepts_exactly gives the exact condition for every table. Accepted tables are reproduced exactly. |
| C17 | proved | ConnectionValues is a two-dimensional store | `C17_two_dimensional_store` | For every number type, every shape whose size fits size_t, every history of (also rejected and caught) writes. |
| C18 | partial | ConnectionValues rejects out-of-range access and never touches foreign memory | `C18_range_partial`, `C18_wrap_refuted`, `C18_writes_exactly`, `C18_access_exactly` | Proved when numConnections*numPhases fits size_t; without that the product wraps and an in-range access can leave the array (C18_wrap_refuted). The two _exactly theorems describe every shape and every sequence of accesses. |
| C19 | proved | CellSetID is a faithful, strictly totally ordered key | `C19_strict_total_order` | std::string comparison is modelled by Coq's String.compare. |
| C20 | proved | CellSet is a mathematical set | `C20_cellset_is_a_set` | The iteration order of unordered_set is not part of the claim. |
| C21 | proved | Solution returns exactly what was last assigned | `C21_last_assigned` | All assignment histories. |
| C22 | proved | Copies of a Solution are independent and moves transfer the content | `C22_value_semantics`, `C22_frame` | Heap model with owning pointers refines value semantics for all programs over any number of objects. |
| C23 | proved | A diagnostics computation on valid input never fails | `C23_total`, `problems_posable` | Exact arithmetic, every valid problem incl. cyclic ones. Given enough sweeps and memory: start sets naming wells give a solution, all others runtime_error. In doubles the claim is false: C23_b64_refuted (tracer underflow ends in logic_error). |
| C24 | proved | Solver results are independent of earlier solves on the same solver | `C24_history_independent`, `C24_solver_exists` | Every number type, every history including out-of-memory and exceptions. |
| C25 | proved | A tracer's support is exactly the region downstream of its start cells | `C25_support` | Every number type. |
| C26 | proved | Tracer values satisfy the upwind tracer equation | `C26_tracer_equation`, `C26_tracer_equation_b64` (R) | Bit for bit, exact and IEEE double. |
| C27 | proved | Time-of-flight satisfies the upwind time-of-flight equation | `C27_tof_equation`, `C27_tof_equation_b64` (R), `C27_balance`, `C27_global_equation`, `C27_global_equation_b64` (R) | The formula holds bit for bit in both arithmetics, the balance in exact arithmetic; the same for the global time-of-flight. |
| C28 | proved | Concentrations lie in [0,1], also in floating point | `C28_unit_interval`, `C28_unit_interval_b64` (R) | Exact and IEEE double (the latter if the totals do not overflow), with or without cycles. |
| C29 | proved | Time-of-flight lies in [0, 200 years] | `C29_tof_range`, `C29_tof_range_b64` (R) | Exact arithmetic: every value is a finite number in [0, max_tof]. Doubles: 0 <= t <= max_tof, so no value is NaN, provided the total influx of every cell is finite (no_overflow). Both the local and the global time-of-flight. |
| C30 | proved | The iteration on cyclic components terminates | `C30_terminates` | Exact arithmetic; a number of sweeps exists for every valid problem and is enough for all start sets. In doubles false: C62_endless_b64. |
| C31 | proved | The iteration on cyclic components stops only near a solution | `C31_near_solution`, `C31_tof_near_solution`, `C31_global_near_solution` | Covers every cell the loop is run on (members of components with two or more cells are regular) and all others without a self-connection. Outside that, C31_self_connection_refuted shows a lone cell connected to itself gets 1/2 instead of 1. C31_tof_ex shows the values on a cycle. |
| C32 | proved | Influx and outflux are consistent | `C32_fluxes`, `C32_totals` | Fluxes for every number type, totals in exact arithmetic. |
| C33 | proved | Diagnostics depend only on the last accepted inputs | `C33_last_inputs` | Every number type and history. |
| C34 | proved | Wrongly sized inputs are rejected and change nothing | `C34_rejects` | Every number type and history; a rejected call leaves the state equal, so all later observations agree. |
| C35 | proved | Start sets are validated before anything is computed | `C35_unset`, `C35_start_sets` | Every number type and history; the state after the exception is equal to the state before. |
| C36 | proved | The flow graph is the net-flux graph of the input | `C36_flow_graph`, `C36_built` | Every number type; weights in the reverse graph are the same term arc_flux, hence bitwise equal. |
| C37 | proved | Results for a tracer depend only on its own ID | `C37_independent`, `C37_others`, `C37_fewer` | Every number type. |
| C38 | proved | Production diagnostics are injection diagnostics of the reversed flow | `C38_reversed`, `C38_reversed_b64`, `C38_problem`, `C38_problem_b64` | Every sequence of calls, every allocation behaviour, exact and IEEE doubles; all observations equal, exceptions included. |
| C39 | proved | Injector concentrations sum to one | `C39_partition`, `C39_b64_refuted` | Both directions; cells with positive total influx; duplicates in the request are allowed. In doubles the sum can miss 1 by rounding: C39_b64_refuted. |
| C40 | proved | Well rates are split by sign and summed per cell | `C40_rates` | Every number type. |
| C41 | proved | Only injectors reach injection diagnostics and only producers production diagnostics | `C41_accepted`, `C41_rates_kept` | Every number type. |
| C42 | proved | The F-Phi curve runs monotonically from (0,0) to (1,1) | `C42_fphi_ramp`, `C42_fphi_ramp_b64` (R), `C42_zero_time_refuted` | Exact arithmetic: full statement. IEEE doubles: same, unless a total overflows or is zero, when the last coordinate is NaN. std::sort is any sorting function. Zero travel times give NaN (shown). |
| C43 | proved | The F-Phi curve is concave and lies on or above the diagonal | `C43_fphi_concave` | Exact arithmetic. |
| C44 | proved | The Lorenz coefficient lies between zero and one | `C44_lorenz_range`, `C44_empty_graph` | Exact arithmetic; the empty graph (not a computed curve) gives -1. |
| C45 | proved | Sweep efficiency is monotone and bounded | `C45_sweep` | Exact arithmetic. |
| C46 | proved | Injector-producer pair volumes are non-negative and sum to the pore volume | `C46_volume_value`, `C46_volume_out_of_range`, `C46_volume_range`, `C46_volume_pairs`, `C46_volume_total` | Exact arithmetic. |
| C47 | proved | Pair fluxes have the documented value, sign and errors | `C47_flux_errors`, `C47_flux_value`, `C47_flux_sign` | Errors for every arithmetic; values and signs exact. |
| C48 | proved | For incompressible flow the two pair fluxes agree up to sign | `C48_pair_flux`, `C48_pair_flux_cyclic`, `C48_b64_refuted` | Exact arithmetic; the cyclic version bounds the sum by the tolerance times the total flux. In doubles the two fluxes can differ by rounding: C48_b64_refuted. |
| C49 | proved | The F-Phi curve does not depend on the cell numbering | `C49_fphi_permutation` | Exact arithmetic, all inputs, any two sorting algorithms. |
| C50 | partial | Cells above the pore-volume fraction are ignored | `C50_cutoff_partial`, `C50_cutoff_refuted`, `C50_fraction_one`, `C50_fraction_one_b64` (R), `C50_cutoff_exactly` | Needs travel times below 1e100 (the marker of ignored cells); refuted without the bound. C50_cutoff_exactly gives the curve for all travel times. Fraction 1 ignores nothing: exact and IEEE. |
| C51 | proved | Derived quantities reject inconsistent sizes | `C51_fphi_sizes`, `C51_lorenz_sizes`, `C51_sweep_sizes` | Every arithmetic. |
| C52 | proved | RandomVector is reproducible and delivers the requested number of values | `C52_independent_objects`, `C52_reproducible`, `C52_lengths`, `C52_one_stream` | For every generator and distribution (they are parameters of the model). |
| C53 | proved | Diagnostics depend on the connections through their net fluxes only | `C53_net_flow`, `C53_phases`, `C53_idle`, `C53_orientation`, `C53_orientation_b64`, `C53_order`, `C53_order_b64_refuted` | Net fluxes, phases and idle connections for every arithmetic, orientation for exact and double arithmetic, order for exact arithmetic; a witness shows that in doubles the order matters. |
| C54 | proved | Diagnostics do not depend on the unit of volume | `C54_scaled` | Exact arithmetic; all outcomes, non-finite data included. |
| C55 | proved | The upwind equations determine the diagnostics | `C55_unique_well`, `C55_unique_well_b64` (R), `C55_unique_all`, `C55_unique_all_b64` (R) | That the returned values satisfy the equations is C26 and C27. |
| C56 | proved | What happens downstream has no influence | `C56_causality`, `C56_causality_b64` (R) |  |
| C57 | proved | The numbering of the cells does not matter | `C57_renumbered` | Exact arithmetic: sums are taken in the order of the cells. |
| C58 | proved | Contract of TracerTofSolver's solves | `C58_local_rejects`, `C58_local_support`, `C58_global_length`, `C58_local_total`, `C58_unsourced_start` | The first three hold in every arithmetic, the last two are in exact arithmetic; in doubles overflow or underflow of a tracer can end a solve otherwise (C23_b64_refuted). |
| C59 | proved | The pair fluxes of a well add up to its rate | `C59_pair_rates`, `C59_b64_refuted` | all wells diagnosed, exact arithmetic, no cycles; off by rounding in doubles: C59_b64_refuted |
| C60 | proved | The global time-of-flight is the mean of the wells' times-of-flight | `C60_mean`, `C60_b64_refuted` | all wells of the direction diagnosed, exact arithmetic, no cycles; off by rounding in doubles: C60_b64_refuted |
| C61 | proved | Swept volume is rate times time-of-flight | `C61_swept_volume`, `C61_total_volume`, `C61_b64_refuted` | exact arithmetic, no cycles; for the wells and for the global time-of-flight; off by rounding in doubles: C61_b64_refuted |
| C62 | proved | Diagnostics end without cycles, but in doubles the iteration on a cycle can be endless | `C62_no_cycles`, `C62_endless_b64` (R) | No iteration without cycles, for every arithmetic. The endless run is a network of 29 cells in which a tracer is diluted to subnormal concentrations; the kernel computes the first sweeps until the state repeats. |
| C63 | proved | Without cycles, double precision results are within a bounded relative error of the exact ones | `C63_wells` (R), `C63_all_wells` (R), `C63_by_size` (R), `C63_all_by_size` (R), `C63_concentrations` (R) | Flow without cycles. The global times need that nothing flows out of cells into which nothing flows. |
| C64 | proved | The number of sweeps is not bounded by the size of the network | `C64_sweeps_unbounded`, `C64_counter_overflow` | Two cells with a flux of 2n+3 of which 2n+2 come back: closed form of all iterates for both orders of the cells. |
| C65 | proved | Larger pore volumes do not shorten times-of-flight | `C65_tof_grows`, `C65_tof_grows_b64` (R), `C65_slow_refuted`, `C65_slow_b64_refuted` (R) | Needs the same slow cells in both problems; the refutations show why. |
| C66 | proved | The Lorenz coefficient is the Gini coefficient of the travel frequencies | `C66_lorenz_gini` | Exact arithmetic. The area under the curve is related to the mean difference by induction over the sorted cells. |
| C67 | proved | Sweep efficiency is the fraction of volume filled | `C67_sweep_filled` | Exact arithmetic. |
| C68 | proved | Only the distribution of volume over travel times matters | `C68_distribution` | Exact arithmetic; through the closed forms of C66 and C67. |
| C69 | proved | Counting sweeps does not change results until the counter overflows | `C69_counters`, `C69_returns`, `C69_no_cycles`, `C69_programs`, `C69_overflow`, `C69_overflow_b64` (R) | solver with counters simulated by the solver without |
| C70 | proved | Computed tracer values stay below every solution; shares never exceed one | `C70_bound`, `C70_at_most_one`, `C70_b64_refuted` | comparison with the iteration that updates all cells at once, summed over wells; refuted for doubles: rates 9, 18, 1 in one cell |
| C71 | proved | With cycles, what is lost of a well is at most a part in 1e9 of all fluxes | `C71_recovered`, `C71_error`, `C71_pair_rates` | residuals of C31 summed over cells by conservation; C70 for the sign |
| C72 | proved | Toolbox objects can be moved and destroyed freely; each behaves like a value of its own | `C72_as_values`, `C72_no_leak`, `C72_self_move`, `C72_after_move` | All programs over construction, move construction, move assignment, destruction and calls; refinement to values without pointers. |
| C73 | proved | With doubles, networks with cycles: reported concentrations meet the flow equations almost, and are near every solution | `C73_met` (R), `C73_recovered` (R), `C73_error` (R), `C73_shares` (R) | Doubles; concentrations only (times-of-flight on cycles are not covered). Data of ordinary size as in C63. |
| C74 | proved | Toolbox programs have defined behaviour whatever the numbers, exactly as long as well cells are in the graph | `C74_defined`, `C74_exactly`, `C74_graphs`, `C74_fluxes`, `C74_asserts_b64` (R), `C74_asserts_overflow_refuted`, `C74_nan_refuted` | The unchecked condition (rates of the direction in cells of the graph) is shown necessary: C74_exactly. Two finite fluxes of 2^1023 into one cell hit an assertion or return NaN: the two _refuted theorems. |
| C75 | proved | What the diagnostics say of a group of wells depends only on their joint rates | `C75_concentrations`, `C75_times`, `C75_merged`, `C75_b64_refuted` | Exact arithmetic, no cycles; C75_b64_refuted shows the rounding error in doubles. |
| C76 | proved | The volume shared by two wells is a rate times a time | `C76_pair_volume`, `C76_either`, `C76_pair_near`, `C76_swept_near` | exact arithmetic; equalities without cycles, bounds with cycles |
| C77 | proved | Pair volumes and pair fluxes with doubles have small relative errors | `C77_volume` (R), `C77_fluxes` (R), `C77_balance` (R) | Networks without cycles; data of ordinary size; exact concentrations of at least 2^-300. |
| C78 | proved | The F-Phi curve and the Lorenz coefficient with doubles have small errors | `C78_curve` (R), `C78_lorenz` (R), `C78_lorenz_exact` (R), `C78_range` (R), `C78_unit_interval_refuted` | For every sorting algorithm and fraction 1 (C50_fraction_one_b64 reduces other fractions that cut nothing off to it). C78_curve: relative errors of the points of the curve; C78_lorenz: against the order-free formula of C66; C78_lorenz_exact: against the exact run; C78_range and its witness C78_unit_interval_refuted: the coefficient of doubles leaves the unit interval only by rounding, but does. |
| C79 | proved | Concentrations are chances of journeys, times-of-flight their mean durations | `C79_journeys`, `C79_concentration`, `C79_time_of_flight`, `C79_global`, `C79_global_mean`, `C79_below` | Exact arithmetic. The journeys are enumerated (C79_journeys: every journey once). Both sums satisfy the same equations as the computed values, which have one solution without cycles; with cycles the sums dominate every iterate. |
| C80 | proved | Pair fluxes are sums of streams along journeys, pair volumes their durations weighted by them | `C80_journeys`, `C80_flux`, `C80_volume`, `C80_between`, `C80_mirrored` | exact arithmetic, networks without cycles |
| C81 | proved | A release build does what a debug build does, and stays within its arrays without the assertions | `C81_same`, `C81_tarjan`, `C81_reachable`, `C81_component`, `C81_graph`, `C81_unweighted`, `C81_defined`, `C81_exactly`, `C81_agrees`, `C81_agrees_b64` (R), `C81_overflow_refuted` | NDEBUG versions of all functions with assertions are in Model/Release.v; C81_agrees_b64 needs that totals do not overflow, C81_overflow_refuted shows why |
| C82 | proved | The text written for a graph loses nothing | `C82_number`, `C82_unique`, `C82_text` (R), `C82_lossless` (R), `C82_fixed` (R), `C82_precision_refuted`, `C82_rows_refuted`, `C82_hex_number`, `C82_hex_unique`, `C82_hex_text` (R) | the inserters of the standard library for int and double are modelled in Model/Text.v (classic locale, field width 0) |
| C83 | proved | What is left when a call runs out of memory | `C83_recovers`, `C83_defined`, `C83_pore_volumes`, `C83_flux_cached`, `C83_flux_UB`, `C83_flux_refuted`, `C83_rates_refuted`, `C83_rates_complete`, `C83_add_detected`, `C83_add_refuted`, `C83_compress_again` | programs with failing allocations simulate programs without the failed calls; the three _refuted theorems and C83_flux_UB show what goes wrong without repair |
| C84 | proved | From fluxes to the Lorenz coefficient, doubles agree with exact arithmetic | `C84_stable` (R), `C84_lorenz` (R) | against exact arithmetic; the travel times of the exact run must be at least 2^-99; flows with cycles are not covered |
| C85 | proved | What RandomVector draws | `C85_words`, `C85_exists`, `C85_predictable`, `C85_alive`, `C85_index`, `C85_index_defined`, `C85_fair`, `C85_normal`, `C85_canonical` (R), `C85_canonical_b64` (R), `C85_polar` (R), `C85_normal_pieces`, `C85_normal_odd`, `C85_instance` | generator of the C++ standard, distributions of libstdc++; log and sqrt are parameters; calls that return (C85_index_defined says when index does) |
| C86 | proved | How much the diagnostics change when the input changes a little | `C86_condition`, `C86_linear`, `C86_sharp`, `C86_slow_refuted` | Exact arithmetic, no cycles. C86_sharp: the exponent for concentrations is the least one, for every depth; the exponent for times-of-flight is not claimed to be least. C86_slow_refuted: without the condition on slow cells the bound fails. |
| C87 | proved | Two wells share flow and volume exactly if the flow connects them | `C87_flux`, `C87_volume`, `C87_feeds`, `C87_fed`, `C87_apart_volume`, `C87_apart_flux_b64` (R), `C87_b64_refuted` | Positivity iff connection for exact arithmetic, cycles included; zero for unconnected wells for doubles as well. C87_b64_refuted: with doubles a connected pair may show zero flux and volume by underflow. |
| C88 | proved | When the stack pointer of tarjan.c leaves its array | `C88_tarjan_refines`, `C88_reachable_refines`, `C88_tarjan_defined`, `C88_reachable_defined`, `C88_reachable_roomy`, `C88_tarjan_undefined`, `C88_reachable_undefined`, `C88_strong_undefined`, `C88_row_undefined`, `C88_refuted` | Graphs whose first vertex reaches all and where the search can turn aside are not decided by the theorems: there the order of the edges matters (C88_ex_order). |
| C89 | proved | Doubles and inexact data together | `C89_wells` (R), `C89_all_wells` (R), `C89_by_size` (R) | C63 and C86 together; the phase fluxes of a connection may add up with rounding, which C63 excludes |
| C90 | proved | What a higher rate of one well does | `C90_well`, `C90_others`, `C90_times`, `C90_tof_refuted`, `C90_unfed_refuted`, `C90_slow_refuted` | Exact arithmetic, no cycles. C90_tof_refuted is the last sentence of the statement: another well's own time-of-flight can grow. The other two refutations show that both conditions for the times-of-flight are needed. |
| C91 | proved | Components of a part of a graph and of the graph turned round | `C91_reachable`, `C91_edges`, `C91_opposite`, `C91_reversed` | Components are compared as sets of vertices, in any order. |
| C92 | proved | Times-of-flight are linear in the pore volumes, and in the unit of time | `C92_well`, `C92_all_wells`, `C92_unit_of_time` | Exact arithmetic, no cycles, no cell under the cut-off. C65_slow_refuted shows that slow cells break even monotonicity. |
| C93 | proved | Producers have no influence on injection diagnostics, nor injectors on production diagnostics | `C93_same_side`, `C93_left_out`, `C93_no_other` | In any arithmetic, with cycles, for results and exceptions alike; the rates of the other direction, wells without rates and zero entries may differ. |
| C94 | proved | Pore volumes have no influence on concentrations and pair fluxes, unless there are cycles | `C94_concentrations`, `C94_concentrations_b64` (R), `C94_pair_fluxes`, `C94_pair_fluxes_b64` (R), `C94_cycles_refuted` (R), `C94_pair_volumes` | Equal maps, not only close values. C94_cycles_refuted shows that the absence of cycles is needed. |
