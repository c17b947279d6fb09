{"id": "C01", "title": "compress() yields the exact CSR adjacency structure", "statement": "After any sequence of addConnection calls with row indices in [0,numRows) and non-negative column indices, compress(numRows) succeeds and startPointers() has numRows+1 entries starting at 0 and ending at neighbourhood().size(); for every row r the slice of neighbourhood() delimited by startPointers()[r], startPointers()[r+1] is strictly increasing and contains exactly the columns j for which (r,j) was added.", "quantifier": "every finite sequence of connections, every number of rows, weighted or unweighted", "why_tests_cant": "Tests try a handful of 4-row graphs; the in-place prefix-sum, double transposition and duplicate removal must be right for every multigraph size and insertion order.", "anchors": [{"file": "opm/utility/graph/AssembledConnections.cpp", "symbols": ["AssembledConnections::compress", "CSR::create", "CSR::assemble", "CSR::sort", "CSR::condenseDuplicates", "CSR::unique"]}]}
{"id": "C02", "title": "compress() accumulates weights bit-exactly in insertion order", "statement": "For a weighted graph, connectionWeight() is aligned with neighbourhood() and the weight stored for (r,j) is exactly 0.0 + v1 + v2 + ... (left to right, floating-point) over the weights of the added connections (r,j) in the order they were added.", "quantifier": "every weighted connection sequence, every floating-point arithmetic", "why_tests_cant": "Rounding makes the sum order-observable; a test cannot enumerate multigraphs and weight orders.", "anchors": [{"file": "opm/utility/graph/AssembledConnections.cpp", "symbols": ["CSR::accumulateConnWeights", "CSR::remapElementIndex", "CSR::create"]}]}
{"id": "C03", "title": "The assembled graph does not depend on insertion order", "statement": "Two connection sequences that are permutations of each other compress to the same startPointers() and neighbourhood(); in exact arithmetic also to the same connectionWeight().", "quantifier": "every connection multiset and every permutation of it", "why_tests_cant": "n! permutations.", "anchors": [{"file": "opm/utility/graph/AssembledConnections.cpp", "symbols": ["AssembledConnections::compress"]}]}
{"id": "C04", "title": "compress() rejects invalid input without changing the graph", "statement": "compress() throws logic_error when weighted and unweighted connections were mixed, throws invalid_argument when some row index is >= numRows, and in both cases the connection list and the previously compressed graph are unchanged; otherwise (indices non-negative) it does not throw.", "quantifier": "every sequence of addConnection calls and every numRows", "why_tests_cant": "All mixes and positions of the offending connection cannot be sampled.", "anchors": [{"file": "opm/utility/graph/AssembledConnections.cpp", "symbols": ["AssembledConnections::compress", "CSR::create", "Connections::isValid"]}]}
{"id": "C05", "title": "An AssembledConnections object can be reused after compress()", "statement": "After compress(), subsequent addConnection()/compress() calls behave as on a new object (documented: they 'effectively create a new graph').", "quantifier": "every history of add/compress rounds on one object", "why_tests_cant": "A history property; tests never reuse an object.", "anchors": [{"file": "opm/utility/graph/AssembledConnections.cpp", "symbols": ["Connections::clear", "AssembledConnections::compress"]}]}
{"id": "C06", "title": "cellNeighbourhood() enumerates exactly one row", "statement": "On a compressed weighted graph, iterating cellNeighbourhood(r) yields, in increasing column order and each exactly once, the pairs (j, accumulated weight of (r,j)); iteration never leaves the arrays. On an unweighted non-empty graph the call violates the documented precondition and is caught by the assertion.", "quantifier": "every compressed graph and every row", "why_tests_cant": "Requires the CSR invariants for every graph.", "anchors": [{"file": "opm/utility/graph/AssembledConnections.cpp", "symbols": ["AssembledConnections::cellNeighbourhood"]}, {"file": "opm/utility/graph/AssembledConnectionsIteration.hpp", "symbols": ["NeighbourhoodIterator", "SimpleIteratorRange"]}]}
{"id": "C07", "title": "operator<< writes every entry once, in row order, and restores the stream", "statement": "Streaming a weighted graph writes one (row, neighbour, weight) record per matrix entry in row-major order and leaves the stream's formatting state (precision, flags) as it was.", "quantifier": "every graph and every initial stream formatting state", "why_tests_cant": "Needs all graphs; the formatting state is a side effect no test looks at.", "anchors": [{"file": "opm/utility/graph/AssembledConnections.cpp", "symbols": ["operator<<"]}]}
{"id": "C08", "title": "Tarjan never leaves its arrays although stacks and results share storage", "statement": "For every well-formed CSR graph, tarjan() and tarjan_reachable_sccs() perform no out-of-bounds access and fail no assertion, although the vertex stack shares the start[] array and the component stack shares the vert[] array with the results.", "quantifier": "every CSR graph, every start set, every initial content of the allocated arrays", "why_tests_cant": "Overlap of stack and result depends on graph shape; only an invariant covers all graphs.", "anchors": [{"file": "opm/utility/graph/tarjan.c", "symbols": ["tarjan_local", "capture_scc", "complete_dfs_from_vertex", "dfs_from_descendant", "initialise_stacks"]}]}
{"id": "C09", "title": "Tarjan terminates after at most |V|+|E| loop steps", "statement": "For every well-formed graph, the main loop of tarjan() executes exactly |V|+|E| times in total, and that of tarjan_reachable_sccs() at most |V|+|E| times (documented complexity O(|V|+|E|)).", "quantifier": "every CSR graph and start set", "why_tests_cant": "Termination and step counts for all graphs.", "anchors": [{"file": "opm/utility/graph/tarjan.c", "symbols": ["tarjan_local", "tarjan_global", "tarjan_reachable_sccs"]}]}
{"id": "C10", "title": "tarjan() returns exactly the strongly connected components", "statement": "The components returned by tarjan() partition {0..nv-1}: every vertex is in exactly one component, and two vertices are in the same component iff each is reachable from the other.", "quantifier": "every CSR graph (self-loops and repeated edges included)", "why_tests_cant": "Correctness of SCC for all graphs; tests check about ten graphs.", "anchors": [{"file": "opm/utility/graph/tarjan.c", "symbols": ["tarjan", "tarjan_get_strongcomponent", "tarjan_get_numcomponents"]}]}
{"id": "C11", "title": "Components come in reverse topological order", "statement": "For every edge u->v the component ID of v is not larger than that of u (documented reverse topological order).", "quantifier": "every CSR graph and every edge", "why_tests_cant": "As C10.", "anchors": [{"file": "opm/utility/graph/tarjan.c", "symbols": ["tarjan", "tarjan_reachable_sccs"]}]}
{"id": "C12", "title": "tarjan_reachable_sccs() covers exactly the reachable set", "statement": "The components returned by tarjan_reachable_sccs() contain exactly the vertices reachable from the start points (each once), they are strongly connected components of the whole graph, in reverse topological order; start points may repeat.", "quantifier": "every CSR graph and every list of start points", "why_tests_cant": "All graphs and start lists.", "anchors": [{"file": "opm/utility/graph/tarjan.c", "symbols": ["tarjan_reachable_sccs"]}]}
{"id": "C13", "title": "Tarjan results do not depend on uninitialised memory or on earlier use of the work-space", "statement": "The result of tarjan() and tarjan_reachable_sccs() is a function of the graph and the start points only: it is the same for every initial content of the malloc'ed arrays and for every work-space content left behind by earlier calls, also when the work-space is larger than the graph.", "quantifier": "every graph, every heap garbage, every work-space history", "why_tests_cant": "malloc garbage cannot be enumerated.", "anchors": [{"file": "opm/utility/graph/tarjan.c", "symbols": ["tarjan_initialise", "tarjan_reachable_sccs", "create_tarjan_workspace"]}]}
{"id": "C14", "title": "tarjan_reverse_sccresult() reverses the components and nothing else", "statement": "If allocation succeeds it returns 1, component k becomes component ncomp-1-k with its vertices in unchanged order, and reversing twice restores the original; if allocation fails it returns 0 and the result is unchanged.", "quantifier": "every SCC result, every allocation outcome", "why_tests_cant": "All result shapes; allocation failure is not testable.", "anchors": [{"file": "opm/utility/graph/tarjan.c", "symbols": ["tarjan_reverse_sccresult", "reverse_scc_core", "swap_scc", "copy_int_vector"]}]}
{"id": "C15", "title": "Tarjan allocation failures return NULL and leak nothing", "statement": "tarjan() returns NULL iff one of its allocations fails; in every case all blocks except those owned by a returned result are released, exactly once.", "quantifier": "every combination of allocation outcomes", "why_tests_cant": "malloc failure points cannot be triggered by unit tests.", "anchors": [{"file": "opm/utility/graph/tarjan.c", "symbols": ["tarjan", "allocate_scc_result", "create_tarjan_workspace", "destroy_tarjan_sccresult", "destroy_tarjan_workspace", "tarjan_reverse_sccresult"]}]}
{"id": "C16", "title": "ConnectivityGraph accepts exactly N-by-2 tables with in-range cells and reproduces them", "statement": "The constructor throws logic_error iff the table has odd size or contains a cell index not in range; otherwise numConnections() is half the table size and connection(k) is the k-th pair.", "quantifier": "every table and cell count", "why_tests_cant": "All tables.", "anchors": [{"file": "opm/flowdiagnostics/ConnectivityGraph.cpp", "symbols": ["ConnectivityGraph::ConnectivityGraph", "ConnectivityGraph::connection"]}]}
{"id": "C17", "title": "ConnectionValues is a two-dimensional store", "statement": "All values are 0.0 initially; reading (c,p) after any history of writes returns the last value written to (c,p) and is unaffected by writes to any other (c',p').", "quantifier": "every shape, every history of writes and reads", "why_tests_cant": "Histories and index aliasing.", "anchors": [{"file": "opm/flowdiagnostics/ConnectionValues.cpp", "symbols": ["ConnectionValues::operator()", "ConnectionValues::ConnectionValues"]}]}
{"id": "C18", "title": "ConnectionValues rejects out-of-range access and never touches foreign memory", "statement": "Access with connection >= numConnections() or phase >= numPhases() throws logic_error; every other access stays inside the allocated array.", "quantifier": "every shape and every index pair", "why_tests_cant": "All index pairs, including shapes whose product exceeds the size type.", "anchors": [{"file": "opm/flowdiagnostics/ConnectionValues.cpp", "symbols": ["ConnectionValues::operator()", "ConnectionValues::ConnectionValues"]}]}
{"id": "C19", "title": "CellSetID is a faithful, strictly totally ordered key", "statement": "to_string() returns the constructing string; operator< is irreflexive, transitive and total, and two IDs are equivalent under it iff their strings are equal.", "quantifier": "all strings", "why_tests_cant": "Infinite domain; std::map relies on it.", "anchors": [{"file": "opm/flowdiagnostics/CellSet.cpp", "symbols": ["CellSetID::operator<", "CellSetID::to_string"]}]}
{"id": "C20", "title": "CellSet is a mathematical set", "statement": "After construction from a vector and any sequence of insert() calls, iteration yields every cell of the vector and every inserted cell exactly once and nothing else, whatever the order and multiplicity of insertion; id() is unchanged.", "quantifier": "all vectors and insert sequences", "why_tests_cant": "All histories.", "anchors": [{"file": "opm/flowdiagnostics/CellSet.cpp", "symbols": ["CellSet::insert", "CellSet::CellSet", "CellSet::begin"]}]}
{"id": "C21", "title": "Solution returns exactly what was last assigned", "statement": "After any history of assignments: timeOfFlight() is the last global field assigned, timeOfFlight(id)/concentration(id) are the last values of that kind assigned for that id (empty if none), and startPoints() lists, sorted and without repetition, exactly the ids that have a concentration.", "quantifier": "all assignment histories", "why_tests_cant": "Histories.", "anchors": [{"file": "opm/flowdiagnostics/Solution.cpp", "symbols": ["Solution::Impl::assign", "Solution::Impl::solutionValues", "Solution::startPoints"]}]}
{"id": "C22", "title": "Copies of a Solution are independent and moves transfer the content", "statement": "Modifying a copy never changes the original nor vice versa; a move-constructed Solution answers all queries as the source did before the move.", "quantifier": "all histories over any number of Solution objects", "why_tests_cant": "Aliasing histories.", "anchors": [{"file": "opm/flowdiagnostics/Solution.cpp", "symbols": ["Solution::Solution"]}]}
{"id": "C23", "title": "A diagnostics computation on valid input never fails", "statement": "For a valid problem (cell indices in range, positive start fluxes, matching sizes), in exact arithmetic computeInjectionDiagnostics/computeProductionDiagnostics complete: no undefined behaviour, no failed assertion, no exception, no endless loop.", "quantifier": "all networks (cyclic ones included), pore volumes, fluxes and well rates", "why_tests_cant": "Absence of UB, exceptions and divergence for all inputs.", "anchors": [{"file": "opm/flowdiagnostics/TracerTofSolver.cpp", "symbols": ["TracerTofSolver::solveGlobal", "TracerTofSolver::solveLocal", "TracerTofSolver::solve"]}, {"file": "opm/flowdiagnostics/Toolbox.cpp", "symbols": ["Toolbox::Impl::injDiag", "Toolbox::Impl::prodDiag"]}]}
{"id": "C24", "title": "Solver results are independent of earlier solves on the same solver", "statement": "solveGlobal() and solveLocal(s) return the same result whatever sequence of solves was executed before on the same solver, including solves that ended in an exception.", "quantifier": "all solve histories and exception points", "why_tests_cant": "Histories with exceptions; the solver keeps six mutable work arrays.", "anchors": [{"file": "opm/flowdiagnostics/TracerTofSolver.cpp", "symbols": ["TracerTofSolver::solveLocal", "TracerTofSolver::solveGlobal", "TracerTofSolver::prepareForSolve", "TracerTofSolver::setupLocalSource", "TracerTofSolver::cleanupLocalSource"]}]}
{"id": "C25", "title": "A tracer's support is exactly the region downstream of its start cells", "statement": "The cells for which concentration(id) and timeOfFlight(id) hold a value are exactly those reachable from the cells with positive (injection) rate in set id along connections with positive net flux.", "quantifier": "all networks and wells", "why_tests_cant": "Reachability for all graphs.", "anchors": [{"file": "opm/flowdiagnostics/TracerTofSolver.cpp", "symbols": ["TracerTofSolver::solveLocal", "TracerTofSolver::computeLocalOrdering"]}]}
{"id": "C26", "title": "Tracer values satisfy the upwind tracer equation", "statement": "If the flow graph has no cycles, every computed concentration equals, bit for bit, (sum over upstream neighbours of concentration*flux + own source) / (total influx + total source) evaluated on the returned concentrations, cells outside the support counting as 0.", "quantifier": "all acyclic networks, all floating-point values", "why_tests_cant": "The equation must hold in every cell of every network; depends on the processing order being topological.", "anchors": [{"file": "opm/flowdiagnostics/TracerTofSolver.cpp", "symbols": ["TracerTofSolver::solveSingleCell", "TracerTofSolver::solve"]}]}
{"id": "C27", "title": "Time-of-flight satisfies the upwind time-of-flight equation", "statement": "If the flow graph has no cycles, every time-of-flight value is the minimum of the 200-year limit and the value of the documented upwind formula evaluated on the (uncapped) upstream values; in exact arithmetic the flux-weighted balance tau*c*total = pv*c + sum(tau_u*c_u*flux_u) holds in every uncapped cell.", "quantifier": "all acyclic networks", "why_tests_cant": "As C26.", "anchors": [{"file": "opm/flowdiagnostics/TracerTofSolver.cpp", "symbols": ["TracerTofSolver::solveSingleCell", "TracerTofSolver::solve"]}]}
{"id": "C28", "title": "Concentrations lie in [0,1], also in floating point", "statement": "Every computed tracer concentration is between 0 and 1 inclusive, in exact arithmetic and in IEEE double arithmetic (as long as the flux sums do not overflow), for cyclic and acyclic networks.", "quantifier": "all networks, all double inputs", "why_tests_cant": "Rounding could push values over 1 for some input.", "anchors": [{"file": "opm/flowdiagnostics/TracerTofSolver.cpp", "symbols": ["TracerTofSolver::solveSingleCell", "TracerTofSolver::InOutFluxComputer", "TracerTofSolver::solveMultiCell"]}]}
{"id": "C29", "title": "Time-of-flight lies in [0, 200 years]", "statement": "Every time-of-flight value returned is >= 0 and <= 200 years for non-negative pore volumes.", "quantifier": "all networks and inputs", "why_tests_cant": "All inputs.", "anchors": [{"file": "opm/flowdiagnostics/TracerTofSolver.cpp", "symbols": ["TracerTofSolver::solve", "TracerTofSolver::solveSingleCell"]}]}
{"id": "C30", "title": "The iteration on cyclic components terminates", "statement": "In exact arithmetic the Gauss-Seidel loop on a strongly connected component terminates for every valid problem.", "quantifier": "all networks with cycles", "why_tests_cant": "Termination for all inputs.", "anchors": [{"file": "opm/flowdiagnostics/TracerTofSolver.cpp", "symbols": ["TracerTofSolver::solveMultiCell"]}]}
{"id": "C31", "title": "The iteration on cyclic components stops only near a solution", "statement": "When the Gauss-Seidel loop stops, each cell's concentration satisfies its upwind equation up to tolerance 1e-9 times the cell's influx, and no reached cell is left with concentration 0. The time-of-flight of the cell, before it is cut off, balances pore volume and inflow up to 1e-12 of the largest time-of-flight times the influx plus 1e-9 of the time-of-flight flowing in. The global time-of-flight does the same with the tracer of all wells together.", "quantifier": "all networks with cycles", "why_tests_cant": "All inputs.", "anchors": [{"file": "opm/flowdiagnostics/TracerTofSolver.cpp", "symbols": ["TracerTofSolver::solveMultiCell"]}]}
{"id": "C32", "title": "Influx and outflux are consistent", "statement": "For every cell, the influx used by the solver is the sum of the weights of its upstream connections (in increasing order of upstream cell) and the outflux the sum of its downstream connections; in exact arithmetic total influx equals total outflux.", "quantifier": "all graphs", "why_tests_cant": "All graphs.", "anchors": [{"file": "opm/flowdiagnostics/TracerTofSolver.cpp", "symbols": ["TracerTofSolver::InOutFluxComputer"]}]}
{"id": "C33", "title": "Diagnostics depend only on the last accepted inputs", "statement": "In any history of assignPoreVolume/assignConnectionFlux/assignInflowFlux/compute calls, a compute call returns what a fresh Toolbox given only the last accepted value of each input would return: the internally cached flow graph is never stale.", "quantifier": "all histories of API calls, including failing ones", "why_tests_cant": "Cache coherence over all histories.", "anchors": [{"file": "opm/flowdiagnostics/Toolbox.cpp", "symbols": ["Toolbox::Impl::buildAssembledConnections", "Toolbox::Impl::assignConnectionFlux", "Toolbox::Impl::injDiag", "Toolbox::Impl::prodDiag"]}]}
{"id": "C34", "title": "Wrongly sized inputs are rejected and change nothing", "statement": "assignPoreVolume throws logic_error iff the size differs from the number of cells, assignConnectionFlux iff the number of connections differs; after a rejected call every later observation is as if the call had not been made.", "quantifier": "all inputs and histories", "why_tests_cant": "Histories.", "anchors": [{"file": "opm/flowdiagnostics/Toolbox.cpp", "symbols": ["Toolbox::Impl::assignPoreVolume", "Toolbox::Impl::assignConnectionFlux"]}]}
{"id": "C35", "title": "Start sets are validated before anything is computed", "statement": "compute*Diagnostics throws logic_error if pore volumes or fluxes have not been set, runtime_error if a start set's id has no (injection resp. production) rate or one of its cells has none, and changes no observable state in these cases.", "quantifier": "all start set lists and histories", "why_tests_cant": "All combinations.", "anchors": [{"file": "opm/flowdiagnostics/Toolbox.cpp", "symbols": ["Toolbox::Impl::injDiag", "Toolbox::Impl::prodDiag"]}]}
{"id": "C36", "title": "The flow graph is the net-flux graph of the input", "statement": "Cell u is upstream of v in the diagnostics iff some connection between them has phase-summed flux directed from u to v; its weight is the sum of these net fluxes; connections with zero net flux are ignored; and the injection and production computations use mutually reverse graphs with bitwise equal weights.", "quantifier": "all connectivity tables, phase counts and fluxes", "why_tests_cant": "All inputs.", "anchors": [{"file": "opm/flowdiagnostics/Toolbox.cpp", "symbols": ["Toolbox::Impl::buildAssembledConnections"]}]}
{"id": "C37", "title": "Results for a tracer depend only on its own ID", "statement": "The solution stored for an id and the global time-of-flight do not depend on which other start sets were requested, on the order or repetition of the start sets, nor on the cells listed in the start sets (only on the rates given to assignInflowFlux).", "quantifier": "all start set lists", "why_tests_cant": "All lists.", "anchors": [{"file": "opm/flowdiagnostics/Toolbox.cpp", "symbols": ["Toolbox::Impl::injDiag", "Toolbox::Impl::prodDiag"]}]}
{"id": "C38", "title": "Production diagnostics are injection diagnostics of the reversed flow", "statement": "computeProductionDiagnostics equals computeInjectionDiagnostics on the problem with all fluxes and all well rates negated.", "quantifier": "all problems", "why_tests_cant": "All inputs; catches any asymmetry between the two code paths.", "anchors": [{"file": "opm/flowdiagnostics/Toolbox.cpp", "symbols": ["Toolbox::Impl::injDiag", "Toolbox::Impl::prodDiag", "Toolbox::Impl::assignInflowFlux"]}]}
{"id": "C39", "title": "Injector concentrations sum to one", "statement": "In exact arithmetic on an acyclic network in which every cell with outflow has inflow, if all injector ids are requested once, the concentrations of all injectors sum to exactly 1 in every cell that has any inflow.", "quantifier": "all acyclic networks and sets of wells", "why_tests_cant": "All networks.", "anchors": [{"file": "opm/flowdiagnostics/Toolbox.cpp", "symbols": ["Toolbox::Impl::injDiag"]}, {"file": "opm/flowdiagnostics/TracerTofSolver.cpp", "symbols": ["TracerTofSolver::solveLocal"]}]}
{"id": "C40", "title": "Well rates are split by sign and summed per cell", "statement": "assignInflowFlux makes an id an injector iff one of its rates is positive and a producer iff one is negative (possibly both); the total source of a cell is the sum of the positive rates, and the total sink the sum of the magnitudes of the negative rates, given for it by any id; zero rates are ignored; earlier rates are forgotten.", "quantifier": "all rate tables", "why_tests_cant": "All inputs.", "anchors": [{"file": "opm/flowdiagnostics/Toolbox.cpp", "symbols": ["Toolbox::Impl::assignInflowFlux"]}]}
{"id": "C41", "title": "Only injectors reach injection diagnostics and only producers production diagnostics", "statement": "An id is accepted by computeInjectionDiagnostics iff it has a positive rate, and by computeProductionDiagnostics iff it has a negative one; accepting an id never alters the recorded rates.", "quantifier": "all rate tables, all start set lists", "why_tests_cant": "All inputs.", "anchors": [{"file": "opm/flowdiagnostics/Toolbox.cpp", "symbols": ["Toolbox::Impl::injDiag", "Toolbox::Impl::prodDiag", "Toolbox::Impl::assignInflowFlux"]}]}
{"id": "C42", "title": "The F-Phi curve runs monotonically from (0,0) to (1,1)", "statement": "For non-negative pore volumes and positive travel times, both coordinates of flowCapacityStorageCapacityCurve have size n+1, start at 0, end at exactly 1 and never decrease, in exact arithmetic and in IEEE double arithmetic (if the sums are finite and non-zero).", "quantifier": "all pore volumes and time-of-flight fields", "why_tests_cant": "Rounding and sorting for all inputs.", "anchors": [{"file": "opm/flowdiagnostics/DerivedQuantities.cpp", "symbols": ["flowCapacityStorageCapacityCurve", "cumulativeNormalized"]}]}
{"id": "C43", "title": "The F-Phi curve is concave and lies on or above the diagonal", "statement": "In exact arithmetic, F >= Phi at every point of the curve and the slopes of successive segments do not increase.", "quantifier": "all pore volumes and positive travel times", "why_tests_cant": "All inputs.", "anchors": [{"file": "opm/flowdiagnostics/DerivedQuantities.cpp", "symbols": ["flowCapacityStorageCapacityCurve"]}]}
{"id": "C44", "title": "The Lorenz coefficient lies between zero and one", "statement": "In exact arithmetic, lorenzCoefficient of a computed F-Phi curve is in [0,1), and it is 0 iff all cells with pore volume have the same travel time (documented piston-like displacement).", "quantifier": "all curves produced by flowCapacityStorageCapacityCurve", "why_tests_cant": "All inputs.", "anchors": [{"file": "opm/flowdiagnostics/DerivedQuantities.cpp", "symbols": ["lorenzCoefficient"]}]}
{"id": "C45", "title": "Sweep efficiency is monotone and bounded", "statement": "In exact arithmetic, for a computed F-Phi curve, sweepEfficiency returns two equally long sequences starting at 0 whose times tD and efficiencies Ev never decrease, with Ev in [0,1] and final value 1.", "quantifier": "all computed curves", "why_tests_cant": "All inputs.", "anchors": [{"file": "opm/flowdiagnostics/DerivedQuantities.cpp", "symbols": ["sweepEfficiency"]}]}
{"id": "C46", "title": "Injector-producer pair volumes are non-negative and sum to the pore volume", "statement": "injectorProducerPairVolume is the sum over cells of pore volume times both concentrations; it is between 0 and the total pore volume; and over all injector/producer pairs the volumes add up to the total pore volume of the cells in which both sets of concentrations sum to one (exact arithmetic).", "quantifier": "all solutions", "why_tests_cant": "All inputs.", "anchors": [{"file": "opm/flowdiagnostics/DerivedQuantities.cpp", "symbols": ["injectorProducerPairVolume"]}]}
{"id": "C47", "title": "Pair fluxes have the documented value, sign and errors", "statement": "injectorProducerPairFlux throws runtime_error iff an id is missing from the rates; otherwise its first component is the sum over the injector's positive rates times the producer's concentration (>= 0) and the second the sum over the producer's negative rates times the injector's concentration (<= 0).", "quantifier": "all solutions and rate tables", "why_tests_cant": "All inputs.", "anchors": [{"file": "opm/flowdiagnostics/DerivedQuantities.cpp", "symbols": ["injectorProducerPairFlux", "pairFlux"]}]}
{"id": "C48", "title": "For incompressible flow the two pair fluxes agree up to sign", "statement": "In exact arithmetic on an acyclic network that conserves volume in every cell, the two components returned by injectorProducerPairFlux add up to zero for every injector/producer pair (documented).", "quantifier": "all acyclic incompressible networks and wells", "why_tests_cant": "A duality identity over all networks.", "anchors": [{"file": "opm/flowdiagnostics/DerivedQuantities.cpp", "symbols": ["injectorProducerPairFlux"]}, {"file": "opm/flowdiagnostics/Toolbox.cpp", "symbols": ["Toolbox::Impl::injDiag", "Toolbox::Impl::prodDiag"]}]}
{"id": "C49", "title": "The F-Phi curve does not depend on the cell numbering", "statement": "Renumbering the cells consistently in all three inputs of flowCapacityStorageCapacityCurve does not change the result (exact arithmetic).", "quantifier": "all inputs and all permutations", "why_tests_cant": "n! permutations.", "anchors": [{"file": "opm/flowdiagnostics/DerivedQuantities.cpp", "symbols": ["flowCapacityStorageCapacityCurve"]}]}
{"id": "C50", "title": "Cells above the pore-volume fraction are ignored", "statement": "The curve computed with max_pv_fraction equals, apart from trailing repetitions of the end point, the curve computed from only those cells whose pore volume does not exceed max_pv_fraction times the total; with fraction 1 and non-negative volumes no cell is ignored.", "quantifier": "all inputs and fractions", "why_tests_cant": "All inputs.", "anchors": [{"file": "opm/flowdiagnostics/DerivedQuantities.cpp", "symbols": ["flowCapacityStorageCapacityCurve"]}]}
{"id": "C51", "title": "Derived quantities reject inconsistent sizes", "statement": "flowCapacityStorageCapacityCurve, lorenzCoefficient and sweepEfficiency throw runtime_error iff the sizes of their inputs differ.", "quantifier": "all inputs", "why_tests_cant": "All inputs.", "anchors": [{"file": "opm/flowdiagnostics/DerivedQuantities.cpp", "symbols": ["flowCapacityStorageCapacityCurve", "lorenzCoefficient", "sweepEfficiency"]}]}
{"id": "C52", "title": "RandomVector is reproducible and delivers the requested number of values", "statement": "Two RandomVector objects given the same sequence of calls return the same values; normal(n) and index(n,m) return exactly n values; successive index calls continue one stream.", "quantifier": "all call histories", "why_tests_cant": "Histories.", "anchors": [{"file": "opm/utility/numeric/RandomVector.cpp", "symbols": ["RandomVector::normal", "RandomVector::index"]}]}
{"id": "C53", "title": "Diagnostics depend on the connections through their net fluxes only", "statement": "Two inputs with the same pore volumes and rates whose connections give the same net flux between every pair of cells yield the same results, in both directions: the split of a flux into phases, connections without net flux, the end from which a connection is written and (in exact arithmetic) the order of the connections do not matter. In doubles the order does matter.", "quantifier": "all valid problems, cyclic ones included, all start sets", "why_tests_cant": "Relates all pairs of inputs with the same net fluxes.", "anchors": [{"file": "opm/flowdiagnostics/Toolbox.cpp", "symbols": ["Toolbox::Impl::buildAssembledConnections", "Toolbox::computeInjectionDiagnostics", "Toolbox::computeProductionDiagnostics"]}, {"file": "opm/flowdiagnostics/TracerTofSolver.cpp", "symbols": ["TracerTofSolver::solveLocal", "TracerTofSolver::solveGlobal", "TracerTofSolver::solveSingleCell"]}]}
{"id": "C54", "title": "Diagnostics do not depend on the unit of volume", "statement": "Multiplying pore volumes, fluxes and rates by one positive number leaves the outcome of both diagnostics unchanged in exact arithmetic.", "quantifier": "all valid problems, cyclic ones included, all positive factors", "why_tests_cant": "All pairs of a problem and a factor.", "anchors": [{"file": "opm/flowdiagnostics/Toolbox.cpp", "symbols": ["Toolbox::Impl::buildAssembledConnections", "Toolbox::computeInjectionDiagnostics", "Toolbox::computeProductionDiagnostics"]}, {"file": "opm/flowdiagnostics/TracerTofSolver.cpp", "symbols": ["TracerTofSolver::solveLocal", "TracerTofSolver::solveGlobal", "TracerTofSolver::solveSingleCell"]}]}
{"id": "C55", "title": "The upwind equations determine the diagnostics", "statement": "For a flow without cycles, any concentrations and times-of-flight that satisfy the upwind equations of a well where the well reaches, and vanish elsewhere, are the returned ones (times cut off at the maximum); likewise for all wells together.", "quantifier": "all valid problems without cycles, exact and double arithmetic", "why_tests_cant": "Uniqueness quantifies over all candidate solutions.", "anchors": [{"file": "opm/flowdiagnostics/Toolbox.cpp", "symbols": ["Toolbox::Impl::buildAssembledConnections", "Toolbox::computeInjectionDiagnostics", "Toolbox::computeProductionDiagnostics"]}, {"file": "opm/flowdiagnostics/TracerTofSolver.cpp", "symbols": ["TracerTofSolver::solveLocal", "TracerTofSolver::solveGlobal", "TracerTofSolver::solveSingleCell"]}]}
{"id": "C56", "title": "What happens downstream has no influence", "statement": "If two flows without cycles agree on a set of cells into which nothing flows from outside, in flux, pore volume and rates, then the diagnostics agree on these cells.", "quantifier": "all pairs of valid problems without cycles, exact and double arithmetic", "why_tests_cant": "Relates all pairs of problems agreeing upstream.", "anchors": [{"file": "opm/flowdiagnostics/Toolbox.cpp", "symbols": ["Toolbox::Impl::buildAssembledConnections", "Toolbox::computeInjectionDiagnostics", "Toolbox::computeProductionDiagnostics"]}, {"file": "opm/flowdiagnostics/TracerTofSolver.cpp", "symbols": ["TracerTofSolver::solveLocal", "TracerTofSolver::solveGlobal", "TracerTofSolver::solveSingleCell"]}]}
{"id": "C57", "title": "The numbering of the cells does not matter", "statement": "Renumbering the cells by a permutation permutes concentrations, times-of-flight and the global time-of-flight accordingly, for flows without cycles in exact arithmetic.", "quantifier": "all valid problems without cycles, all permutations", "why_tests_cant": "All permutations of all problems.", "anchors": [{"file": "opm/flowdiagnostics/Toolbox.cpp", "symbols": ["Toolbox::Impl::buildAssembledConnections", "Toolbox::computeInjectionDiagnostics", "Toolbox::computeProductionDiagnostics"]}, {"file": "opm/flowdiagnostics/TracerTofSolver.cpp", "symbols": ["TracerTofSolver::solveLocal", "TracerTofSolver::solveGlobal", "TracerTofSolver::solveSingleCell"]}]}
{"id": "C58", "title": "Contract of TracerTofSolver's solves", "statement": "A local solve whose start set has a negative rate throws std::logic_error. A local solution has a time-of-flight and a concentration exactly in the cells downstream of the start cells, and no concentration is 0 or less. A global solve that ends returns one time per cell. Positive start rates within the source terms always give a local solution, with concentrations in (0,1] and times in [0, 200 years]. A start set with a cell that has no source term never gives a solution, although the code sets its source to infinity in order to get time 0 there.", "quantifier": "all networks, with or without cycles, all source terms and all start sets", "why_tests_cant": "The tests of the solver run a few small networks; the start sets they use all carry source terms.", "anchors": [{"file": "opm/flowdiagnostics/TracerTofSolver.cpp", "symbols": ["TracerTofSolver::solveLocal", "TracerTofSolver::solveGlobal", "TracerTofSolver::setupLocalSource", "TracerTofSolver::solveSingleCell"]}]}
{"id": "C59", "title": "The pair fluxes of a well add up to its rate", "statement": "If the flow has no cycles and conserves volume in every cell, and all wells are diagnosed, then the first components of injectorProducerPairFlux(i, j) summed over all wells j are the injection rate of i, and the second components summed over all wells i are minus the production rate of j.", "quantifier": "every valid problem with finite data, non-negative pore volumes, volume conservation and no cycles, every request naming all injectors and all producers, every pair of wells; exact arithmetic", "why_tests_cant": "the identity needs the tracer partition at every perforated cell of arbitrary networks and well configurations; the tests have one pair on one grid", "anchors": [{"file": "opm/flowdiagnostics/Toolbox.cpp", "symbols": ["Toolbox::computeInjectionDiagnostics", "Toolbox::computeProductionDiagnostics"]}, {"file": "opm/flowdiagnostics/TracerTofSolver.cpp", "symbols": ["TracerTofSolver::solveLocal", "TracerTofSolver::solveGlobal", "TracerTofSolver::solveSingleCell"]}, {"file": "opm/flowdiagnostics/DerivedQuantities.cpp", "symbols": ["injectorProducerPairFlux"]}]}
{"id": "C60", "title": "The global time-of-flight is the mean of the wells' times-of-flight", "statement": "If the flow has no cycles and all wells of one direction are diagnosed, then in every cell the sum of concentration times time-of-flight over all wells is at most the sum of the concentrations times timeOfFlight() of that cell, with equality if no well's time in the cell is at the cut-off.", "quantifier": "every valid problem with finite data, non-negative pore volumes and no cycles, either direction, every request naming all wells of the direction, every cell; exact arithmetic", "why_tests_cant": "relates the per-well solves to the separate global solve on arbitrary networks; tests compare each with fixed numbers on small grids", "anchors": [{"file": "opm/flowdiagnostics/Toolbox.cpp", "symbols": ["Toolbox::computeInjectionDiagnostics", "Toolbox::computeProductionDiagnostics"]}, {"file": "opm/flowdiagnostics/TracerTofSolver.cpp", "symbols": ["TracerTofSolver::solveLocal", "TracerTofSolver::solveGlobal", "TracerTofSolver::solveSingleCell"]}]}
{"id": "C61", "title": "Swept volume is rate times time-of-flight", "statement": "If the flow has no cycles and conserves volume in every cell, and no time of the well is at the cut-off, then the sum over the cells of pore volume times concentration of a well equals the sum over the cells of the rate leaving through wells of the other direction times concentration times time-of-flight. With the global time-of-flight, the latter sum without concentration is the pore volume of all cells that have inflow.", "quantifier": "every valid problem with finite data, non-negative pore volumes, volume conservation and no cycles, either direction, every well, every cell; exact arithmetic", "why_tests_cant": "a summation identity over all cells of arbitrary networks", "anchors": [{"file": "opm/flowdiagnostics/Toolbox.cpp", "symbols": ["Toolbox::computeInjectionDiagnostics", "Toolbox::computeProductionDiagnostics"]}, {"file": "opm/flowdiagnostics/TracerTofSolver.cpp", "symbols": ["TracerTofSolver::solveLocal", "TracerTofSolver::solveGlobal", "TracerTofSolver::solveSingleCell"]}]}
{"id": "C62", "title": "Diagnostics end without cycles, but in doubles the iteration on a cycle can be endless", "statement": "If no two cells lie on a common cycle, computeInjectionDiagnostics/computeProductionDiagnostics need no iteration, in any arithmetic. With cycles termination holds in exact arithmetic only (C30): in double precision there is a valid problem with fluxes in balance and no overflow for which computeInjectionDiagnostics never returns when the start set of a certain injector comes first.", "quantifier": "all valid problems without such cycles, all start sets and memory states; for the endless run all memory states and all start sets beginning with that injector's", "why_tests_cant": "An endless run cannot be observed to be endless; absence of iteration is for all networks.", "anchors": [{"file": "opm/flowdiagnostics/TracerTofSolver.cpp", "symbols": ["TracerTofSolver::solveMultiCell", "TracerTofSolver::solveSingleCell", "TracerTofSolver::solve"]}, {"file": "opm/flowdiagnostics/Toolbox.cpp", "symbols": ["Toolbox::computeInjectionDiagnostics"]}]}
{"id": "C63", "title": "Without cycles, double precision results are within a bounded relative error of the exact ones", "statement": "Take a valid problem whose net flow has no cycles and whose data are doubles of ordinary size (fluxes, rates and pore volumes between 2^-100 and 2^100, phase fluxes adding up without rounding), in which no cell's influx is within rounding of the bound where times-of-flight are cut off. If the diagnostics succeed with doubles and with exact arithmetic on the same data, both give results for the same cells, and every concentration (not below 2^-300), every time-of-flight of a well, and every time-of-flight of all wells together computed with doubles equals the exact one up to k relative errors of 2^-52. The numbers k are any that add up along the flow by the numbers of rounded operations in the equations of the cells; in particular the relative error is at most n*C*2^-51 for concentrations and n*C*(2n+1)*2^-51 for times, for n cells and C = 4*connections + 2*wells + 6.", "quantifier": "all valid acyclic problems with such data, both directions, all start sets and memory states, all budgets of errors that add up along the flow", "why_tests_cant": "Rounding errors differ for every input and accumulate over networks of any size; tests compare with a tolerance on a few.", "anchors": [{"file": "opm/flowdiagnostics/TracerTofSolver.cpp", "symbols": ["TracerTofSolver::solveSingleCell", "TracerTofSolver::solveLocal", "TracerTofSolver::solveGlobal"]}, {"file": "opm/flowdiagnostics/Toolbox.cpp", "symbols": ["Toolbox::computeInjectionDiagnostics", "Toolbox::computeProductionDiagnostics"]}]}
{"id": "C64", "title": "The number of sweeps is not bounded by the size of the network", "statement": "computeInjectionDiagnostics terminates in exact arithmetic (C30), but no bound on the number of Gauss-Seidel sweeps follows from the size of the network: for every n there is a valid problem with two cells, two connections, one injector and one producer, whole-numbered data and fluxes in balance, for which n sweeps are not enough, whatever the start sets, while some larger number is. In particular there are such problems for which solveMultiCell makes 2^31 sweeps or more, so that its counter num_iter (an int) overflows.", "quantifier": "all numbers n; for the problem given: all memory states and all accepted start sets", "why_tests_cant": "A statement about arbitrarily long runs.", "anchors": [{"file": "opm/flowdiagnostics/TracerTofSolver.cpp", "symbols": ["TracerTofSolver::solveMultiCell"]}]}
{"id": "C65", "title": "Larger pore volumes do not shorten times-of-flight", "statement": "Let two valid problems differ only in their pore volumes, none of which is smaller in the second, and let the flow have no cycle. If the flow fills the same cells in less than 200 years in both (the condition TracerTofSolver uses to cut a cell off), then the concentrations of all wells agree, and every time-of-flight of the second problem, of each well and of all wells together, is at least that of the first. This holds in exact arithmetic and in doubles. Without the condition it is false: a cell passes on times longer than 200 years while it is not cut off, and 200 years once it is, so more pore volume upstream can halve the time-of-flight downstream.", "quantifier": "all pairs of problems with pointwise ordered non-negative pore volumes and acyclic flow, all wells, cells, start sets, both directions", "why_tests_cant": "Compares all pairs of inputs; the exception needs a cell exactly at the cut-off.", "anchors": [{"file": "opm/flowdiagnostics/Toolbox.cpp", "symbols": ["Toolbox::Impl::buildAssembledConnections", "Toolbox::computeInjectionDiagnostics", "Toolbox::computeProductionDiagnostics"]}, {"file": "opm/flowdiagnostics/TracerTofSolver.cpp", "symbols": ["TracerTofSolver::solveLocal", "TracerTofSolver::solveGlobal", "TracerTofSolver::solveSingleCell"]}]}
{"id": "C66", "title": "The Lorenz coefficient is the Gini coefficient of the travel frequencies", "statement": "In exact arithmetic, for a computed F-Phi curve, lorenzCoefficient equals the sum over all pairs of counted cells of volume times volume times the absolute difference of the reciprocal travel times, divided by twice the product of total counted volume and total flux (sum of volume over travel time).", "quantifier": "all admissible travel times, pore volumes and pore-volume fractions; every sorting algorithm", "why_tests_cant": "Tests compare with a few numbers for idealised heterogeneities; the formula without a sorted curve holds for every field.", "anchors": [{"file": "opm/flowdiagnostics/DerivedQuantities.cpp", "symbols": ["lorenzCoefficient", "flowCapacityStorageCapacityCurve"]}]}
{"id": "C67", "title": "Sweep efficiency is the fraction of volume filled", "statement": "In exact arithmetic, for a computed F-Phi curve, sweepEfficiency returns the point (0,0) followed by one point for each counted cell with positive pore volume, in order of travel time t: the time is t times total flux over total volume, the efficiency is the filled fraction of the counted volume at time t, where a cell fills evenly during its own travel time.", "quantifier": "all admissible travel times, pore volumes and pore-volume fractions; every sorting algorithm", "why_tests_cant": "Tests compare a few curves with tabulated numbers; the meaning of each point can only be stated for all fields.", "anchors": [{"file": "opm/flowdiagnostics/DerivedQuantities.cpp", "symbols": ["sweepEfficiency", "flowCapacityStorageCapacityCurve"]}]}
{"id": "C68", "title": "Only the distribution of volume over travel times matters", "statement": "In exact arithmetic, if two inputs distribute their counted pore volume over the travel times in the same way up to constant positive factors for volume and time, then lorenzCoefficient returns the same number for both and sweepEfficiency the same set of points. So splitting or merging cells of equal travel time and changing units has no effect.", "quantifier": "all pairs of admissible inputs and positive factors; every sorting algorithm", "why_tests_cant": "A relation between any two grids, of different sizes, cannot be tested exhaustively.", "anchors": [{"file": "opm/flowdiagnostics/DerivedQuantities.cpp", "symbols": ["lorenzCoefficient", "sweepEfficiency", "flowCapacityStorageCapacityCurve"]}]}
{"id": "C69", "title": "Counting sweeps does not change results until the counter overflows", "statement": "The statistics counters of the solver never influence what computeInjectionDiagnostics and computeProductionDiagnostics return: when no component needs more than 2^31-1 sweeps, every call has the outcome of a solver without counters, independent of any larger limit on the number of sweeps; for flows without cycles this is unconditional. When a component needs more sweeps, the int num_iter overflows, which is undefined behaviour; valid balanced problems for which this happens exist, in exact arithmetic with two cells and integer data, and in double precision.", "quantifier": "all valid problems, start sets, sequences of calls and sweep budgets; all number systems (overflow: one exact, one double precision problem)", "why_tests_cant": "The overflow takes 2^31 sweeps; absence of influence is a statement about all runs.", "anchors": [{"file": "opm/flowdiagnostics/TracerTofSolver.cpp", "symbols": ["TracerTofSolver::solveMultiCell", "TracerTofSolver::prepareForSolve"]}, {"file": "opm/flowdiagnostics/TracerTofSolver.hpp", "symbols": ["num_multicell_", "max_size_multicell_", "max_iter_multicell_"]}]}
{"id": "C70", "title": "Computed tracer values stay below every solution; shares never exceed one", "statement": "In exact arithmetic, for any network, with any cycles: let c be nonnegative and in every cell let what c takes away (total inflow times c) be at least the inflow of c from upstream plus the rates of a chosen list of wells. Then in every cell the concentrations returned for these wells add up to at most c. If y likewise dominates pore volume times c plus its inflow (200 years times c in cells that take longer to fill), the sums of concentration times time-of-flight are at most y. In particular the concentrations of all wells add up to at most one in every cell. In double precision the sum can exceed one.", "quantifier": "all valid problems with finite data, both directions, all start sets, all lists of wells, all bounding functions", "why_tests_cant": "A bound against all solutions of the equations on all networks; iteration from below must be shown at every intermediate state.", "anchors": [{"file": "opm/flowdiagnostics/Toolbox.cpp", "symbols": ["Toolbox::Impl::buildAssembledConnections", "Toolbox::computeInjectionDiagnostics", "Toolbox::computeProductionDiagnostics"]}, {"file": "opm/flowdiagnostics/TracerTofSolver.cpp", "symbols": ["TracerTofSolver::solveLocal", "TracerTofSolver::solveGlobal", "TracerTofSolver::solveSingleCell"]}]}
{"id": "C71", "title": "With cycles, what is lost of a well is at most a part in 1e9 of all fluxes", "statement": "In exact arithmetic, for balanced flows without connections of a cell with itself, but with any cycles: the rate recovered by all wells of the other kind, weighted with the concentrations of a well, is at most the rate of that well and falls short of it by at most 1e-9 times the sum of all fluxes. Compared with any nonnegative solution of the well's equations, the concentration in a cell is never larger, and smaller by at most that amount divided by the rate at which fluid leaves the cell. The pair fluxes of a well over all partners add up to at most its rate and miss it by at most that amount times one more than the number of wells.", "quantifier": "all valid balanced problems with finite data and no self connections, both directions, all start sets that name every well", "why_tests_cant": "An error bound for an iteration whose number of sweeps is not bounded by the size of the network (C64).", "anchors": [{"file": "opm/flowdiagnostics/Toolbox.cpp", "symbols": ["Toolbox::Impl::buildAssembledConnections", "Toolbox::computeInjectionDiagnostics", "Toolbox::computeProductionDiagnostics"]}, {"file": "opm/flowdiagnostics/TracerTofSolver.cpp", "symbols": ["TracerTofSolver::solveLocal", "TracerTofSolver::solveGlobal", "TracerTofSolver::solveSingleCell"]}]}
{"id": "C72", "title": "Toolbox objects can be moved and destroyed freely; each behaves like a value of its own", "statement": "In any program that constructs, moves, move-assigns (also onto itself) and destroys Toolbox objects and calls their functions in any order, every call returns what it returns on a fresh Toolbox on which only the calls made to the same content were made, wherever that content lived and whatever other objects did. The memory of a Toolbox is owned by exactly one object until it is deleted, is never deleted twice, and none is left when all objects are gone. The program is undefined only if it uses an object whose lifetime ended or calls a function of an object that was moved from; move-assigning an object to itself changes nothing.", "quantifier": "all finite sequences of constructions, moves, assignments, destructions and calls on any number of objects", "why_tests_cant": "Ownership has to be right in every interleaving of moves and calls; aliasing and double deletion show only in particular histories.", "anchors": [{"file": "opm/flowdiagnostics/Toolbox.hpp", "symbols": ["Toolbox::Toolbox", "Toolbox::operator=", "Toolbox::~Toolbox"]}, {"file": "opm/flowdiagnostics/Toolbox.cpp", "symbols": ["Toolbox::Toolbox", "Toolbox::operator=", "Toolbox::~Toolbox", "Toolbox::assignPoreVolume", "Toolbox::computeInjectionDiagnostics"]}]}
{"id": "C73", "title": "With doubles, networks with cycles: reported concentrations meet the flow equations almost, and are near every solution", "statement": "For double-precision data of ordinary size and any network, with or without cycles: the concentrations reported for a well, read as exact numbers, satisfy the exact upwind balance in every cell (except self-connected cells on no longer cycle) up to (1e-9 + k 2^-51) times the flux into the cell, k being the number of rounded operations there. If moreover the exact fluxes are conserved and no cell flows to itself, then what the opposite wells recover of a well is its rate, up to (1e-9 + K 2^-51) times the sum of all fluxes into cells; the differences to any solution of the equations, weighted by the rates at which fluid leaves, add up to no more; and in the same sense the concentrations of all wells add up to one, up to the number of wells times that.", "quantifier": "all valid problems with double-precision data of ordinary size (any cycles), both directions, all start sets and sweep limits for which the diagnostics return", "why_tests_cant": "The iteration stops by a tolerance after rounded sweeps; that the last sweep leaves a small residual everywhere, and that residuals do not pile up over the network, is a statement about all networks and all rounding errors.", "anchors": [{"file": "opm/flowdiagnostics/Toolbox.cpp", "symbols": ["Toolbox::Impl::buildAssembledConnections", "Toolbox::computeInjectionDiagnostics", "Toolbox::computeProductionDiagnostics"]}, {"file": "opm/flowdiagnostics/TracerTofSolver.cpp", "symbols": ["TracerTofSolver::solveLocal", "TracerTofSolver::solveGlobal", "TracerTofSolver::solveSingleCell"]}]}
{"id": "C74", "title": "Toolbox programs have defined behaviour whatever the numbers, exactly as long as well cells are in the graph", "statement": "For any sequence of public Toolbox calls on a graph with in-range cells, with flux objects and rate maps as the interface makes them and without allocation failures, and for arbitrary numbers (NaN, infinities and negative values included): no call has undefined behaviour, provided that at each computation the rates of its direction are in cells of the graph. A computation that passes the toolbox's checks has undefined behaviour if and only if one of those rates is in a cell outside the graph. With doubles that are not NaN and no overflowing total, no assertion of the solver fails either.", "quantifier": "all graphs, all call sequences, all arithmetics (also doubles with NaN and infinities), all start sets, all sweep limits", "why_tests_cant": "Absence of out-of-range accesses over all call histories, all networks and all numeric garbage cannot be sampled; memory errors may go unnoticed in a run.", "anchors": [{"file": "opm/flowdiagnostics/Toolbox.cpp", "symbols": ["Toolbox::Impl::buildAssembledConnections", "Toolbox::computeInjectionDiagnostics", "Toolbox::computeProductionDiagnostics"]}, {"file": "opm/flowdiagnostics/TracerTofSolver.cpp", "symbols": ["TracerTofSolver::solveLocal", "TracerTofSolver::solveGlobal", "TracerTofSolver::solveSingleCell"]}]}
{"id": "C75", "title": "What the diagnostics say of a group of wells depends only on their joint rates", "statement": "Take two problems with the same cells, connections, fluxes and pore volumes, whose wells have together the same inflow (outflow) rate in every cell, and a list of wells of each with the same joint rate in every cell: for example wells merged into one, split, or renamed. On networks without cycles and in exact arithmetic, the tracer concentrations of the two lists have the same sum in every cell, and so have concentration times time-of-flight wherever no time is at the cut-off. A well made of several has in every cell at least the concentration-weighted mean of their times-of-flight, and exactly it where none of theirs is at the cut-off. In double precision the sums differ by rounding.", "quantifier": "all networks without cycles, fluxes, pore volumes, regroupings of the rates into wells, requested start sets that contain the wells of the two lists, both directions, all cells", "why_tests_cant": "The tests have one injector and one producer; additivity relates runs on infinitely many pairs of problems.", "anchors": [{"file": "opm/flowdiagnostics/Toolbox.cpp", "symbols": ["Toolbox::Impl::buildAssembledConnections", "Toolbox::computeInjectionDiagnostics", "Toolbox::computeProductionDiagnostics"]}, {"file": "opm/flowdiagnostics/TracerTofSolver.cpp", "symbols": ["TracerTofSolver::solveLocal", "TracerTofSolver::solveGlobal", "TracerTofSolver::solveSingleCell"]}]}
{"id": "C76", "title": "The volume shared by two wells is a rate times a time", "statement": "For an injector and a producer, injectorProducerPairVolume of their tracer concentrations equals the sum, over the cells of the producer, of its rate times the injector's concentration times the injector's time-of-flight there; the same with the two wells exchanged; so both sums agree. This holds in exact arithmetic on networks without cycles, when the fluxes are balanced and the times-of-flight used are below the cut-off. With cycles (no connection of a cell with itself) the two sides differ by at most the sum of all fluxes times (cut-off/1e12 + D/1e9), D being any bound below the cut-off on the times used, and so do the whole volume swept by a well and its rate-times-time over all wells of the other kind, of which the latter is never larger.", "quantifier": "all networks, fluxes balanced in every cell, pore volumes, rates, pairs of wells, requested start sets containing them, both directions", "why_tests_cant": "The identity links three results (concentrations, times, pair volume) of two runs in opposite directions on arbitrary networks; the tests never compute pair volumes from diagnostics.", "anchors": [{"file": "opm/flowdiagnostics/DerivedQuantities.cpp", "symbols": ["injectorProducerPairVolume"]}, {"file": "opm/flowdiagnostics/Toolbox.cpp", "symbols": ["Toolbox::computeInjectionDiagnostics", "Toolbox::computeProductionDiagnostics"]}, {"file": "opm/flowdiagnostics/TracerTofSolver.cpp", "symbols": ["TracerTofSolver::solveLocal", "TracerTofSolver::solveSingleCell", "TracerTofSolver::solveMultiCell"]}]}
{"id": "C77", "title": "Pair volumes and pair fluxes with doubles have small relative errors", "statement": "On a network without cycles, with data between 2^-100 and 2^100 whose phase fluxes add up without rounding, injectorProducerPairVolume and injectorProducerPairFlux computed entirely with doubles (concentrations included) differ from the values of exact arithmetic by a relative error of at most k*2^-51, where k is (with n cells and C = 4*connections+2*wells+6) n*C+n*C+n+2 for the volume and n*C+n+1 for each flux, provided n*C*(2n+1) <= 2^50 and no exact concentration is below 2^-300. If the exact data conserve volume in every cell, the two fluxes of the pair, in doubles, are opposite up to 2(n*C+n+1) relative errors of 2^-52.", "quantifier": "all networks without cycles, all double data of ordinary size, all pairs of wells, all start sets containing them", "why_tests_cant": "A bound over all roundings of all networks; the tests compare small cases with tolerances and never compute pair quantities from diagnostics.", "anchors": [{"file": "opm/flowdiagnostics/DerivedQuantities.cpp", "symbols": ["injectorProducerPairVolume", "injectorProducerPairFlux", "pairFlux"]}, {"file": "opm/flowdiagnostics/TracerTofSolver.cpp", "symbols": ["TracerTofSolver::solveLocal", "TracerTofSolver::solveSingleCell"]}]}
{"id": "C78", "title": "The F-Phi curve and the Lorenz coefficient with doubles have small errors", "statement": "Let the times-of-flight and pore volumes of n cells be doubles that are zero or between 2^-100 and 2^100, with positive travel times and some positive pore volume, and let max_pv_fraction be 1. Then flowCapacityStorageCapacityCurve computed with doubles has, at every point, a storage capacity within (2n+1)*2^-51 and a flow capacity within (2n+3)*2^-51 (relative) of those of the cells in the order of their travel times rounded to doubles; and lorenzCoefficient of this curve is within 22(n+1)*2^-51 (absolute) of the coefficient without rounding, which is the sum over all pairs of cells of v*w*|1/t-1/s| divided by twice total volume times total flux, and hence of lorenzCoefficient in exact arithmetic. So it is at least -22(n+1)*2^-51 and at most 1+22(n+1)*2^-51; it need not be in the unit interval: three cells with equal travel times can give a negative number.", "quantifier": "all double inputs of ordinary size, all sorting algorithms, all numbers of cells with n+1 < 2^31", "why_tests_cant": "A bound over all roundings, including those that change the order of the cells; the tests compare one curve of three cells.", "anchors": [{"file": "opm/flowdiagnostics/DerivedQuantities.cpp", "symbols": ["flowCapacityStorageCapacityCurve", "cumulativeNormalized", "lorenzCoefficient"]}]}
{"id": "C79", "title": "Concentrations are chances of journeys, times-of-flight their mean durations", "statement": "A particle found in a cell came out of a well in that cell or out of an upstream cell, in proportion to the fluxes into the cell, and it stays in a cell for pore volume over total influx. Without cycles, the concentration of a well in a cell is the sum, over all journeys through the network that end in the cell, of the chance that the particle made this journey and entered from the well. The well's time-of-flight is the mean duration of these journeys, and the global time-of-flight the mean duration of the journeys from all wells, both cut off at 200 years, if no cell on the way is itself slower than the cut-off. With cycles, the computed concentrations, and the times-of-flight weighted by them, never exceed the corresponding sums over journeys of a bounded number of steps.", "quantifier": "all valid problems with finite data, all start sets, both directions, all cells; exact arithmetic; all sweep budgets that suffice", "why_tests_cant": "The number of journeys grows exponentially with the network; tests compare a few cells of a few networks, and never with the definition of a travel time as a mean over paths.", "anchors": [{"file": "opm/flowdiagnostics/Toolbox.cpp", "symbols": ["Toolbox::Impl::buildAssembledConnections", "Toolbox::computeInjectionDiagnostics", "Toolbox::computeProductionDiagnostics"]}, {"file": "opm/flowdiagnostics/TracerTofSolver.cpp", "symbols": ["TracerTofSolver::solveLocal", "TracerTofSolver::solveGlobal", "TracerTofSolver::solveSingleCell"]}]}
{"id": "C80", "title": "Pair fluxes are sums of streams along journeys, pair volumes their durations weighted by them", "statement": "The stream along a journey from an injector to a producer is the producer's rate in the last cell times the chance that a particle there made this journey from the injector. Without cycles and for a flow that conserves mass, the flux between an injector and a producer is the sum of the streams along all journeys from one to the other, and minus this sum from the producer's side. The volume of the pair is the sum of these streams times the durations of the journeys, whatever the times are, also beyond the cut-off of times-of-flight. Hence volume over flux lies between the durations of the fastest and of the slowest journey. A journey taken backwards carries the same stream for the same time.", "quantifier": "all valid problems without cycles, with finite data and conserving flow, all start sets that contain the wells, all pairs of wells; exact arithmetic", "why_tests_cant": "Relates two computed numbers to a sum over exponentially many paths; the upstream tests have pair quantities of a one-dimensional case with a single path only.", "anchors": [{"file": "opm/flowdiagnostics/DerivedQuantities.cpp", "symbols": ["injectorProducerPairFlux", "injectorProducerPairVolume"]}, {"file": "opm/flowdiagnostics/Toolbox.cpp", "symbols": ["Toolbox::computeInjectionDiagnostics", "Toolbox::computeProductionDiagnostics"]}, {"file": "opm/flowdiagnostics/TracerTofSolver.cpp", "symbols": ["TracerTofSolver::solveLocal", "TracerTofSolver::solveSingleCell"]}]}
{"id": "C81", "title": "A release build does what a debug build does, and stays within its arrays without the assertions", "statement": "Compiled with NDEBUG the library behaves exactly as with assertions in every program in which no assertion fails; on proper graphs none of the graph modules' assertions fails. A program over the toolbox that hands over proper objects, and never computes while a rate of that direction lies outside the graph, ends in results or exceptions or a loop that goes on, never in undefined behaviour, whatever the numbers, although the assertions about concentrations are gone. The next computation of a release build has undefined behaviour exactly if it passes the toolbox's checks and such a rate exists. With exact numbers, and with doubles whose totals do not overflow, both builds return the same. If they overflow, the debug build may abort where the release build returns a solution with NaN. Looking at the neighbours in a graph without weights, which a debug build catches, leaves the array of weights.", "quantifier": "all client programs, all arithmetics, all numbers including NaN and infinities, all heaps", "why_tests_cant": "Tests run one build type; they cannot show that an assertion is never load-bearing for memory safety, for all inputs.", "anchors": [{"file": "opm/flowdiagnostics/Toolbox.cpp", "symbols": ["Toolbox::computeInjectionDiagnostics", "Toolbox::computeProductionDiagnostics"]}, {"file": "opm/flowdiagnostics/TracerTofSolver.cpp", "symbols": ["TracerTofSolver::solveSingleCell", "TracerTofSolver::computeOrdering", "TracerTofSolver::computeLocalOrdering"]}, {"file": "opm/utility/graph/tarjan.c", "symbols": ["tarjan", "tarjan_reachable_sccs", "tarjan_get_strongcomponent"]}, {"file": "opm/utility/graph/AssembledConnections.cpp", "symbols": ["AssembledConnections::compress", "AssembledConnections::cellNeighbourhood"]}]}
{"id": "C82", "title": "The text written for a graph loses nothing", "statement": "operator<< writes one line for each entry of a compressed weighted graph, row by row with ascending columns: row, column and weight, from which a reader of decimal numbers gets back exactly the row, the column, and a number to which the weight is nearer than any other double, with its sign (also of zero); infinities and NaN are recognisable. Two graphs of equally many rows whose texts agree have the same arrays. This fails for a precision of 15 instead of 16, and empty rows at the end leave no trace. On a stream that had been set to std::fixed every finite weight is written in hexadecimal, which a reader of decimal numbers rejects and a reader of hexadecimal ones turns back into exactly the weight.", "quantifier": "all lists of weighted connections with any doubles as weights (also infinities and NaN), all numbers of rows, all streams with the flags they are born with, with or without std::scientific or std::fixed", "why_tests_cant": "There are 2^64 doubles and unboundedly many graphs; a test compares a few written lines, and only for streams in their first state.", "anchors": [{"file": "opm/utility/graph/AssembledConnections.cpp", "symbols": ["operator<<"]}]}
{"id": "C83", "title": "What is left when a call runs out of memory", "statement": "If calls of Toolbox end in std::bad_alloc and the client repeats each failed assignment until it succeeds before computing anything, then everything observed is as if the failed calls had not been made, and behaviour is defined; computations may fail at any point without repair. Without the repair: after a failed assignPoreVolume the old pore volumes are used or the next computation throws logic_error; after a failed assignConnectionFlux that follows a computation nothing changes, whatever is called later; but if no fluxes had been accepted the next computation that passes its checks has undefined behaviour, and if fluxes had been accepted but not used, or if assignInflowFlux failed, a computation may return a wrong solution. In a graph under assembly, a weighted connection that was stored in part makes every later compress() throw logic_error unless no weight has been stored at all; a failed compress() can be repeated, whatever it left behind.", "quantifier": "all graphs, all sequences of calls of which any may fail at any allocation, all arguments, all remains of failed calls, all arithmetics", "why_tests_cant": "Allocation failures do not happen in tests, and there is one failing run for every allocation of every sequence of calls; undefined reads may go unnoticed when they happen.", "anchors": [{"file": "opm/flowdiagnostics/Toolbox.cpp", "symbols": ["Toolbox::assignPoreVolume", "Toolbox::assignConnectionFlux", "Toolbox::assignInflowFlux", "Toolbox::computeInjectionDiagnostics", "Toolbox::computeProductionDiagnostics"]}, {"file": "opm/utility/graph/AssembledConnections.cpp", "symbols": ["AssembledConnections::addConnection", "AssembledConnections::compress"]}]}
{"id": "C84", "title": "From fluxes to the Lorenz coefficient, doubles agree with exact arithmetic", "statement": "For a flow without cycles with data of ordinary size, injection and production diagnostics followed by flowCapacityStorageCapacityCurve and lorenzCoefficient give, with doubles, a number that differs from the one of exact arithmetic by at most a number of roundings that is bounded by the numbers of cells, connections and wells alone. In exact arithmetic the coefficient changes by at most 2e when the travel times change by at most the factor 1+e.", "quantifier": "all graphs, fluxes, rates and pore volumes of ordinary size whose flow has no cycle and whose influxes are clear of the cut-off; all sorting algorithms; all changes of the travel times", "why_tests_cant": "A test compares with one expected number and one tolerance; that errors of the solver are not amplified by sorting, inverting and integrating must hold for every network and every order of rounding.", "anchors": [{"file": "opm/flowdiagnostics/Toolbox.cpp", "symbols": ["Toolbox::computeInjectionDiagnostics", "Toolbox::computeProductionDiagnostics"]}, {"file": "opm/flowdiagnostics/TracerTofSolver.cpp", "symbols": ["TracerTofSolver::solveGlobal"]}, {"file": "opm/flowdiagnostics/DerivedQuantities.cpp", "symbols": ["flowCapacityStorageCapacityCurve", "lorenzCoefficient"]}]}
{"id": "C85", "title": "What RandomVector draws", "statement": "A new RandomVector delivers the words of the Mersenne twister of the C++ standard, which never become all zero and which are determined by any 624 of them in a row. index(n, max) with max >= 0 delivers n numbers between 0 and max, made one by one of the next accepted words; every index is made of equally many words and at most half of the words are rejected; with max < 0 the call is undefined. normal(n, mean, stdev) delivers n numbers, two for each accepted group of four words: these make two fractions of [0,1), never 1 with doubles either, and a point of the square, which is accepted in the unit disc without its centre and scaled as the polar method prescribes; a sample may be drawn in pieces if all but the last have even length, and a call for an odd number throws one deviate away.", "quantifier": "all numbers of draws, all states of the generator, all largest indices, all means and standard deviations, both ways in which libstdc++ makes integers", "why_tests_cant": "A statistical test of a sample cannot show that all indices are equally frequent among all 2^32 words, nor that the generator never gets stuck; drawing in pieces differs only for odd lengths.", "anchors": [{"file": "opm/utility/numeric/RandomVector.cpp", "symbols": ["RandomVector::Impl::normal", "RandomVector::Impl::integer", "RandomVector::index", "RandomVector::normal"]}]}
{"id": "C86", "title": "How much the diagnostics change when the input changes a little", "statement": "Two inputs with the same cells, connections, wells and perforations and without cycles, whose net fluxes, pore volumes and rates differ by factors of at most 1 + e: in a cell D layers down the flow concentrations differ by a factor of at most (1 + e)^(2D + 2) and times-of-flight, of wells and global, by one of at most (1 + e)^(4D + 6); the same cells have values. On n cells no value changes by more than the part 2(4n + 2)e of it, if that is at most one. The exponent 2D + 2 cannot be lowered, whatever D. This needs that no cell passes the cut-off of 200 years: otherwise a change of a part in 6e9 of one pore volume can halve a time-of-flight.", "quantifier": "all pairs of such inputs, all e, all layerings, both directions, exact arithmetic", "why_tests_cant": "A test compares a few pairs of inputs; it cannot bound the change for all networks and depths, nor find the inputs in which the change is largest.", "anchors": [{"file": "opm/flowdiagnostics/Toolbox.cpp", "symbols": ["Toolbox::Impl::buildAssembledConnections", "Toolbox::computeInjectionDiagnostics", "Toolbox::computeProductionDiagnostics"]}, {"file": "opm/flowdiagnostics/TracerTofSolver.cpp", "symbols": ["TracerTofSolver::solveLocal", "TracerTofSolver::solveGlobal", "TracerTofSolver::solveSingleCell"]}]}
{"id": "C87", "title": "Two wells share flow and volume exactly if the flow connects them", "statement": "In exact arithmetic, with or without cycles: injectorProducerPairFlux of an injector and a producer returns a first number that is positive and a second that is negative exactly if the net fluxes lead from a cell where the one injects to a cell where the other produces, and zeros otherwise; injectorProducerPairVolume is positive exactly if they do so by way of a cell with positive pore volume. If volume is conserved in every cell, every injector is connected with a producer and every producer with an injector. With doubles wells that are not connected still get exactly zero, but connected wells may get zero too, by underflow.", "quantifier": "all valid problems with finite data and non-negative pore volumes, all start sets, all pairs of wells in them", "why_tests_cant": "A statement about all paths of all flow fields, with a condition in both directions; tests look at single pairs.", "anchors": [{"file": "opm/flowdiagnostics/DerivedQuantities.cpp", "symbols": ["injectorProducerPairFlux", "injectorProducerPairVolume"]}, {"file": "opm/flowdiagnostics/Toolbox.cpp", "symbols": ["Toolbox::computeInjectionDiagnostics", "Toolbox::computeProductionDiagnostics"]}, {"file": "opm/flowdiagnostics/TracerTofSolver.cpp", "symbols": ["TracerTofSolver::solveLocal"]}]}
{"id": "C88", "title": "When the stack pointer of tarjan.c leaves its array", "statement": "Read with the rule of C that a pointer may not be moved to before its array, tarjan() and tarjan_reachable_sccs() either have undefined behaviour or return what they return without the rule. They return it whenever the first start vertex misses some vertex of the work-space, in particular if the work-space has room for one more vertex. They are undefined whenever the first start vertex reaches all vertices and from each vertex all edges lead to one vertex or no edge leads to where there is no way back: for every strongly connected graph, every single vertex, and every row of cells with flow from each to the next.", "quantifier": "all graphs, heap contents, allocation outcomes, start points and work-spaces", "why_tests_cant": "Forming a pointer one before an array has no visible effect on common machines, and sanitizers do not report it without an access.", "anchors": [{"file": "opm/utility/graph/tarjan.c", "symbols": ["initialise_stacks", "discover_vertex", "dfs_from_descendant", "tarjan_local", "tarjan", "tarjan_reachable_sccs"]}]}
{"id": "C89", "title": "Doubles and inexact data together", "statement": "Let a problem without cycles be put down in doubles, with pore volumes, rates and the rounded sums of the phase fluxes of every connection off by a factor of at most 1 + e. Concentrations and times-of-flight computed with doubles from it, of a well and of all wells together, differ from those of exact arithmetic on the true data by at most 2 D + 2, respectively 4 D + 6, factors of 1 + e, in cells that are D layers down the flow, and by the number of factors of 1 + 2^-52 that C63 allows for rounding. If every number is off by at most 2^-52, as when decimal numbers are read, the relative errors are bounded by the numbers of cells, connections and wells alone.", "quantifier": "all valid problems without cycles and of ordinary size, all ways to put them down in doubles, all start sets; total influxes not within the errors of the cut-off for times-of-flight, concentrations not below 2^-300", "why_tests_cant": "Tests compare computed results with one expected value and a tolerance; how far input errors and rounding can move the results together is a bound over all problems and all data near them.", "anchors": [{"file": "opm/flowdiagnostics/Toolbox.cpp", "symbols": ["Toolbox::Impl::buildAssembledConnections", "Toolbox::computeInjectionDiagnostics", "Toolbox::computeProductionDiagnostics"]}, {"file": "opm/flowdiagnostics/TracerTofSolver.cpp", "symbols": ["TracerTofSolver::solveLocal", "TracerTofSolver::solveGlobal", "TracerTofSolver::solveSingleCell"]}]}
{"id": "C90", "title": "What a higher rate of one well does", "statement": "If one well gets a higher rate in some of its cells and nothing else in the problem changes, then its concentration does not fall in any cell. Every other well reaches the same cells as before and its concentration does not rise in any of them. The times-of-flight of all wells together do not grow in any cell, if cells with outflow have inflow and no cell passes the cut-off for small influxes. The time-of-flight of another well alone can grow.", "quantifier": "all valid problems without cycles and without negative pore volumes, all wells, all raises of their rates, all start sets with the wells in question, both directions, exact arithmetic", "why_tests_cant": "Tests compute results for fixed rates; how results respond to a change of a rate is a relation between two runs, over all problems and all changes.", "anchors": [{"file": "opm/flowdiagnostics/Toolbox.cpp", "symbols": ["Toolbox::Impl::buildAssembledConnections", "Toolbox::computeInjectionDiagnostics", "Toolbox::computeProductionDiagnostics"]}, {"file": "opm/flowdiagnostics/TracerTofSolver.cpp", "symbols": ["TracerTofSolver::solveLocal", "TracerTofSolver::solveGlobal", "TracerTofSolver::solveSingleCell"]}]}
{"id": "C91", "title": "Components of a part of a graph and of the graph turned round", "statement": "tarjan_reachable_sccs() finds exactly those components of tarjan() that the start points reach, each with all its vertices; the other components have no vertex that is reached. Graphs that have the same edges in other orders or multiplicities have the same components. So have graphs with all edges turned round, and a result of tarjan() after tarjan_reverse_sccresult() is a correct result, in reverse topological order, for the graph turned round.", "quantifier": "all well-formed graphs, all pairs of them with the same or with opposite edges, all lists of start points, all memory contents and work-spaces", "why_tests_cant": "Tests run each function on a few graphs; that results of different functions, or on different graphs, always agree is a relation between runs over all graphs.", "anchors": [{"file": "opm/utility/graph/tarjan.c", "symbols": ["tarjan", "tarjan_reachable_sccs", "tarjan_reverse_sccresult", "tarjan_get_strongcomponent"]}]}
{"id": "C92", "title": "Times-of-flight are linear in the pore volumes, and in the unit of time", "statement": "Let three problems have the same connections, fluxes and rates, and let the pore volumes of the first be x times those of the second plus y times those of the third. Then the times-of-flight of the first, of every well and of all wells together, are x times those of the second plus y times those of the third, in every cell where the three reported times are below the cut-off, if the cut-off for small influxes applies to no cell. If all fluxes and rates of a problem are multiplied by a number a of at least 1, the concentrations stay the same and such times-of-flight are divided by a.", "quantifier": "all valid problems without cycles and without negative pore volumes, all factors, all start sets, both directions, exact arithmetic", "why_tests_cant": "Tests compute results for fixed volumes and fluxes; linearity relates three runs, over all problems and factors.", "anchors": [{"file": "opm/flowdiagnostics/Toolbox.cpp", "symbols": ["Toolbox::Impl::buildAssembledConnections", "Toolbox::computeInjectionDiagnostics", "Toolbox::computeProductionDiagnostics"]}, {"file": "opm/flowdiagnostics/TracerTofSolver.cpp", "symbols": ["TracerTofSolver::solveLocal", "TracerTofSolver::solveGlobal", "TracerTofSolver::solveSingleCell"]}]}
{"id": "C93", "title": "Producers have no influence on injection diagnostics, nor injectors on production diagnostics", "statement": "Two inputs with the same net fluxes and pore volumes whose positive rates agree for every well and cell give the same outcome of computeInjectionDiagnostics, be it a result or an exception; the negative rates, wells without a rate and entries that are zero may differ. Likewise computeProductionDiagnostics depends on the negative rates only. In particular the rates of the opposite sign can all be left out.", "quantifier": "all valid problems with and without cycles, all start sets and environments, both directions, exact arithmetic and doubles", "why_tests_cant": "Tests give one set of rates and look at both directions; independence quantifies over all rates of the opposite sign, and needs bitwise equality also for the iteration on cycles.", "anchors": [{"file": "opm/flowdiagnostics/Toolbox.cpp", "symbols": ["Toolbox::assignInflowFlux", "Toolbox::computeInjectionDiagnostics", "Toolbox::computeProductionDiagnostics"]}, {"file": "opm/flowdiagnostics/TracerTofSolver.cpp", "symbols": ["TracerTofSolver::solveLocal", "TracerTofSolver::solveGlobal", "TracerTofSolver::solveSingleCell"]}]}
{"id": "C94", "title": "Pore volumes have no influence on concentrations and pair fluxes, unless there are cycles", "statement": "Two inputs that differ in the pore volumes only, with a flow without cycles, have the same tracer concentrations, to the last bit also in doubles, and hence the same injectorProducerPairFlux for every pair of wells. With cycles this fails: the iteration stops when the times-of-flight have settled too, so that larger pore volumes can change the concentrations. In exact arithmetic, and without cycles, injectorProducerPairVolume is linear in the pore volumes, also where cells are so slow that their times-of-flight are cut off.", "quantifier": "all valid problems without cycles, all pore volumes, start sets and environments, both directions, exact arithmetic and doubles; a counterexample with a cycle", "why_tests_cant": "Tests compute concentrations for one vector of pore volumes; independence quantifies over all pairs of vectors, including cells at the cut-off.", "anchors": [{"file": "opm/flowdiagnostics/TracerTofSolver.cpp", "symbols": ["TracerTofSolver::solveSingleCell", "TracerTofSolver::solveMultiCell", "TracerTofSolver::solveLocal"]}, {"file": "opm/flowdiagnostics/DerivedQuantities.cpp", "symbols": ["injectorProducerPairFlux", "injectorProducerPairVolume"]}]}
