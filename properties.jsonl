{"id": "C01", "title": "Partition value is the crossing weight", "statement": "For every graph and every partition of its nodes, the value reported for the partition (sum of the in-cuts of its parts) equals the total weight of the arcs whose endpoints lie in different parts, each counted exactly once, whatever the direction of the arcs; self loops never count.", "quantifier": "all finite arc lists, all weights, all partitions of the node set", "why_tests_cant": "the number of partitions is super-exponential and the weights are arbitrary", "anchors": ["psp/graph.h:get_cut_value", "psp/graph.h:get_partition_value"]}
{"id": "C02", "title": "Cut value is a normalised submodular function", "statement": "The cut value of a node set is the weight of the arcs entering it; with non-negative weights it is non-negative, zero on the empty set and on the full node set, and satisfies f(A)+f(B) >= f(A u B)+f(A n B) for all A, B.", "quantifier": "all graphs with non-negative weights, all pairs of node sets", "why_tests_cant": "exponentially many pairs of sets per graph", "anchors": ["psp/graph.h:get_cut_value"]}
{"id": "C03", "title": "Graph construction keeps exactly the significant arcs", "statement": "Building a graph from n and a list of (i,j,w) triples yields nodes 0..n-1 and exactly the triples whose weight exceeds the numeric tolerance, in order and unmodified; a kept triple naming a node >= n is undefined behaviour, a dropped one is not.", "quantifier": "all n and all triple lists", "why_tests_cant": "arbitrary lists; boundary of the tolerance test", "anchors": ["psp/graph.h:make_dgraph", "psp/psp.cpp:PSP::PSP"]}
{"id": "C04", "title": "Dilworth truncation returns the optimal value", "statement": "For every simple graph whose arcs go from the smaller to the larger index, every non-negative weighting, every real lambda and every correct max-flow solver, the minimum value reported equals the minimum over all partitions P of crossing_weight(P) - lambda*|P|.", "quantifier": "all forward simple graphs, all lambda, all max-flow solvers that return some minimum cut", "why_tests_cant": "optimality over all partitions for continuous lambda cannot be enumerated", "anchors": ["psp/dt.cpp:DilworthTruncation::run", "psp/dt.cpp:DilworthTruncation::minimize", "psp/psp_i.cpp:DilworthTruncation::run"]}
{"id": "C05", "title": "Dilworth truncation returns an optimal partition", "statement": "Under the same conditions the reported partition is a partition of the node set (parts non-empty, disjoint, covering) and its objective equals the reported minimum value. evaluate() gives each partition its objective, hence the reported partition the reported value and no partition less.", "quantifier": "all forward simple graphs, all lambda, all correct max-flow solvers", "why_tests_cant": "as C04", "anchors": ["psp/dt.cpp:DilworthTruncation::get_min_partition", "psp/psp_i.cpp:DilworthTruncation::get_min_partition", "psp/dt.cpp:DilworthTruncation::evaluate"]}
{"id": "C06", "title": "The reported optimal partition is the finest one", "statement": "If the max-flow solver reports the inclusion-minimal sink side, the reported partition refines every other optimal partition.", "quantifier": "all forward simple graphs, all lambda, every competing optimal partition", "why_tests_cant": "quantifies over all optimal partitions", "anchors": ["psp/dt.cpp:DilworthTruncation::run", "psp/dt.h:DT"]}
{"id": "C07", "title": "dt always terminates with a well-formed sequence", "statement": "For every forward simple graph with n >= 2 nodes and positive tolerance, method dt terminates without exhausting any recursion budget and returns k critical values and k+1 partitions; the first partition is the whole node set, the last is all singletons, and the sizes strictly increase.", "quantifier": "all forward simple graphs with n>=2, all positive tolerances, all correct max-flow solvers", "why_tests_cant": "termination and well-formedness for every input", "anchors": ["psp/dt.cpp:DT::run", "psp/dt.cpp:DT::split"]}
{"id": "C08", "title": "dt critical values are the slopes between neighbours and strictly increase", "statement": "In the dt result the i-th critical value equals (weight(P_{i+1})-weight(P_i))/(|P_{i+1}|-|P_i|), and the list is strictly increasing.", "quantifier": "all forward simple graphs with n>=2", "why_tests_cant": "sortedness must match two lists that are sorted independently by different keys", "anchors": ["psp/dt.cpp:DT::run", "psp/dt.cpp:DT::split"]}
{"id": "C09", "title": "dt is within the tolerance of optimal for every lambda", "statement": "For every real lambda, the best partition in the dt result has objective at most tolerance above the true optimum over all partitions, and every partition in the result is exactly optimal for some lambda.", "quantifier": "all forward simple graphs, all lambda, all partitions", "why_tests_cant": "continuous lambda, all partitions", "anchors": ["psp/dt.cpp:DT::run"]}
{"id": "C10", "title": "dt partitions are nested", "statement": "Each partition in the dt result strictly refines the previous one (the result is a hierarchy of clusters).", "quantifier": "all forward simple graphs with n>=2", "why_tests_cant": "global structure for every input", "anchors": ["psp/dt.cpp:DT::run"]}
{"id": "C11", "title": "dt is exact on weights that are multiples of 1/D", "statement": "If all weights are integer multiples of 1/D and D*(n-1)*tolerance < 1 then the dt result is exactly the principal sequence: for every lambda between consecutive critical values the corresponding partition is a minimiser.", "quantifier": "all such graphs (any size), all lambda", "why_tests_cant": "relates a floating tolerance test to exact optimality for all inputs", "anchors": ["psp/dt.cpp:DT::split", "lemon::Tolerance"]}
{"id": "C12", "title": "The principal sequence is unique", "statement": "A graph has only one principal sequence: two sequences that both satisfy the definition have equal critical values and equal partitions, so any two correct methods agree.", "quantifier": "all graphs, all pairs of sequences", "why_tests_cant": "quantifies over all candidate outputs", "anchors": ["docs/source/index.rst", "psp/psp.h:PSP::run"]}
{"id": "C13", "title": "dt with a requested number of clusters", "statement": "DT::run(k) for 2 <= k <= n returns the partition of the principal sequence with the fewest parts among those with at least k parts; for a one-node graph it throws.", "quantifier": "all forward simple graphs on D-multiples, all k", "why_tests_cant": "binary search over an implicit sequence", "anchors": ["psp/dt.cpp:DT::run(int)", "psp/dt.cpp:DT::split(Q,P,int)"]}
{"id": "C14", "title": "psp_i terminates with a well-formed sequence", "statement": "For every forward simple graph with n >= 1 nodes and all arc weights at least the tolerance (make_dgraph keeps only such arcs), method psp_i terminates and returns k critical values and k+1 partitions, starting with the whole node set and ending with singletons, each partition strictly refining the previous one, each critical value being the slope between its two neighbours.", "quantifier": "all forward simple graphs with weights >= tolerance, all positive tolerances, all correct max-flow solvers", "why_tests_cant": "recursive contraction with a mutable tree; every input", "anchors": ["psp/psp_i.cpp:PSP_I::run", "psp/psp_i.cpp:PSP_I::split"]}
{"id": "C15", "title": "psp_i partitions are optimal between their critical values", "statement": "With D-multiple weights and D*(n-1)*tolerance < 1, the i-th psp_i partition minimises crossing_weight - lambda*|P| over all partitions for every lambda between the critical values on its two sides, and critical values never decrease; for arbitrary weights each partition is within (n-1)*tolerance of the minimum.", "quantifier": "all such graphs, all lambda", "why_tests_cant": "as C09", "anchors": ["psp/psp_i.cpp:PSP_I::run", "psp/psp_i.cpp:PSP_I::contract"]}
{"id": "C16", "title": "psp_i critical values: ordered, but not distinct", "statement": "The critical values returned by psp_i never decrease. The documented stronger claim, that every successive pair of partitions has its own value of lambda, does not hold: on two disjoint edges of weight 1 psp_i reports the value 1 twice.", "quantifier": "all forward simple graphs", "why_tests_cant": "needs the right tie; existing tests avoid ties", "anchors": ["psp/psp_i.cpp:PSP_I::run", "docs/source/index.rst"]}
{"id": "C17", "title": "dt and psp_i agree", "statement": "On every D-multiple graph the psp_i result, after removing steps with a repeated critical value, is the dt result.", "quantifier": "all such graphs", "why_tests_cant": "two different algorithms over all inputs", "anchors": ["psp/dt.cpp:DT::run", "psp/psp_i.cpp:PSP_I::run"]}
{"id": "C18", "title": "Effect of a run on the caller's graph", "statement": "Method dt restores the caller's graph exactly (it adds and erases a source and a sink), so any number of dt runs return the same result. Methods psp_i and hpsp contract the caller's graph: a second run on the same object returns a different, shorter result.", "quantifier": "dt: all graphs and any number of runs; psp_i, hpsp: concrete graph refuting repeatability", "why_tests_cant": "history dependent", "anchors": ["psp/psp.cpp:PSP::run", "psp/psp_i.cpp:PSP_I::contract", "psp/hpsp.cpp:HPSP::contract"]}
{"id": "C19", "title": "hpsp agrees with the principal sequence", "statement": "On every D-multiple forward simple graph with n >= 2, weights at least the tolerance and a max-flow solver reporting inclusion-minimal sink sides, the hpsp result is the principal sequence, hence equals the dt result; for arbitrary weights it is strictly increasing, starts with one block, ends with singletons and each partition is within (n-1)*tolerance of the optimum. The condition on sink sides is needed: with a solver that reports other minimum cuts hpsp can return blocks that overlap.", "quantifier": "all such graphs", "why_tests_cant": "compressed parent/weight encoding must be decoded correctly for every tree shape", "anchors": ["psp/hpsp.cpp:HPSP::run", "psp/hpsp.cpp:HPSP::merge", "psp/hpsp.cpp:HPSP::psp_construct"]}
{"id": "C48", "title": "What get_W and get_K of HPSP mean", "statement": "After HPSP::run, for every node j there is a critical value equal to W[j] such that, just below it, K[j] is the smallest member of the block of j, and, just above it, j itself is the smallest member of its block; for j > 0, K[j] < j. So (W, K) is a complete compressed description of the sequence.", "quantifier": "all forward simple graphs with n >= 2 and weights at least the tolerance, all nodes", "why_tests_cant": "relates two output arrays with the whole sequence for every tree shape", "anchors": ["psp/hpsp.cpp:HPSP::split", "psp/hpsp.cpp:HPSP::get_W", "psp/hpsp.cpp:HPSP::get_K"]}
{"id": "C20", "title": "Arc direction", "statement": "For arbitrary arc lists (both directions, parallel arcs, self loops), after bringing the list to one arc per pair with the smaller id first, dt, psp_i and hpsp return the principal sequence of the original list. Without this step arc direction matters although the objective does not depend on it: with all arcs reversed the methods dt, psp_i and hpsp return a wrong sequence.", "quantifier": "canonical form: all arc lists; raw input: concrete graph refuting independence of direction", "why_tests_cant": "only forward arcs are used in the tests", "anchors": ["psp/dt.cpp:DilworthTruncation::minimize", "psp/psp_i.cpp:DilworthTruncation::minimize"]}
{"id": "C21", "title": "Parallel arcs do not add up", "statement": "Giving two triples for the same pair of nodes should have the same effect as one triple with the summed weight; it does not for dt, psp_i and hpsp (only one of the parallel arcs into the current node is counted). Merging them first (canonical form) gives the right sequence.", "quantifier": "canonical form: all arc lists; raw input: concrete graph refuting additivity", "why_tests_cant": "tests have no parallel arcs", "anchors": ["psp/dt.cpp:DilworthTruncation::minimize", "psp/pmf.cpp:PMF::run"]}
{"id": "C22", "title": "Self loops", "statement": "A triple (i,i,w) should not change any result, since a self loop never crosses a partition. It does: dt has undefined behaviour on every graph with n >= 2 and a self loop, and psp_i and hpsp return wrong critical values. Dropping self loops first (canonical form) gives the right sequence.", "quantifier": "dt: all graphs with a self loop; psp_i, hpsp: concrete graph; canonical form: all arc lists", "why_tests_cant": "tests have no self loops", "anchors": ["psp/dt.cpp:DilworthTruncation::minimize", "psp/psp_i.cpp:PSP_I::split"]}
{"id": "C23", "title": "Trivial graphs", "statement": "A one-node graph yields the single partition {{0}} and no critical value with methods psp_i and hpsp; dt instead divides by zero and reports one NaN critical value and the partition twice; on the empty graph psp_i has undefined behaviour.", "quantifier": "all solvers and tolerances on n = 1 and n = 0", "why_tests_cant": "division by the number of extra parts is 0/0", "anchors": ["psp/dt.cpp:DT::split", "psp/psp_i.cpp:PSP_I::split", "psp/hpsp.cpp:HPSP::split"]}
{"id": "C24", "title": "Method dispatch and result accessors", "statement": "run(method) with an unknown name throws and leaves the previous result untouched; a known name replaces both lists with the results of that method; the accessors return the lists unchanged and do not modify the object.", "quantifier": "all method strings, all histories of calls", "why_tests_cant": "histories", "anchors": ["psp/psp.cpp:PSP::run", "psp/psp.cpp:PSP::get_critical_values", "psp/psp.cpp:PSP::get_partitions"]}
{"id": "C25", "title": "Piecewise-linear equation solver", "statement": "compute_lambda(params, target) returns a lambda with sum_i min(a_i - lambda, b_i) equal to target within the tolerance; it throws only if every b_i is finite and the target exceeds sum b_i by more than the tolerance.", "quantifier": "all non-empty parameter lists, finite or infinite b_i, all targets", "why_tests_cant": "arbitrary breakpoints with ties and both sides", "anchors": ["psp/pmf.cpp:PMF::compute_lambda", "psp/pmf_r.cpp:PMF_R::compute_lambda"]}
{"id": "C26", "title": "Parametric minimum cuts", "statement": "For stage j the parametric flow routine returns a strictly decreasing chain of node sets containing j and a sorted list of thresholds, one fewer, such that between consecutive thresholds the corresponding set is the sink side of a minimum cut.", "quantifier": "all graphs, all parameter vectors, all lambda >= the initial lambda", "why_tests_cant": "continuous lambda", "anchors": ["psp/pmf.cpp:PMF::run", "psp/pmf.cpp:PMF::slice"]}
{"id": "C27", "title": "pdt computes the principal sequence", "statement": "For every forward simple graph, method pdt returns the principal sequence (exact arithmetic, tolerance small enough for the graph).", "quantifier": "all forward simple graphs", "why_tests_cant": "continuous lambda, all partitions", "anchors": ["psp/pmf.cpp:PDT::run"]}
{"id": "C28", "title": "PDT objects can be run twice", "statement": "Calling run() again on the same parametric solver object gives the same result (the code has an explicit branch for multiple runs).", "quantifier": "all graphs, all histories", "why_tests_cant": "history", "anchors": ["psp/pmf.cpp:PDT::run"]}
{"id": "C29", "title": "Source/sink contraction preserves cuts", "statement": "Contracting S into the source and T into the sink yields a network in which every cut keeping S and T apart has the same value as in the original network (arcs below the tolerance excepted).", "quantifier": "all networks, all S, T, all cuts", "why_tests_cant": "exponentially many cuts", "anchors": ["psp/pmf_r.cpp:PMF_R::contract"]}
{"id": "C30", "title": "Node contraction utility preserves cuts", "statement": "digraph_contract(G, S, i) yields a graph in which every node set not splitting S has the same crossing weight as before.", "quantifier": "all digraphs, all S, i in S", "why_tests_cant": "all cuts; both directions between a node and S", "anchors": ["psp/digraph_utility.cpp:digraph_contract", "psp/psp_i.cpp:PSP_I::contract"]}
{"id": "C31", "title": "Graph copy is faithful", "statement": "digraph_copy yields a graph with exactly the valid node ids of the original and the same weighted arcs, and leaves the original unchanged.", "quantifier": "all digraphs including ones with erased nodes", "why_tests_cant": "arbitrary id gaps", "anchors": ["psp/digraph_utility.cpp:digraph_copy"]}
{"id": "C32", "title": "pdt_r worker race is benign", "statement": "In every schedule of the two max-flow workers in which none fails, the coordinating thread never blocks forever and uses the result of a worker that completed.", "quantifier": "all interleavings, including interruption and spurious wake-ups", "why_tests_cant": "schedules", "anchors": ["psp/pmf_r.cpp:PMF_R::slice", "psp/pmf_r.cpp:PMF_R::executePreflow", "psp/pmf_r.cpp:PMF_R::executePreflow_reverse"]}
{"id": "C33", "title": "pdt_r reports worker failures", "statement": "If a worker throws, slice rethrows the exception (the code stores and rethrows it).", "quantifier": "all schedules with failing workers", "why_tests_cant": "schedules with faults", "anchors": ["psp/pmf_r.cpp:PMF_R::slice"]}
{"id": "C34", "title": "Cluster merging is a well-founded forest", "statement": "After any sequence of merge calls, looking up the representative of any node terminates, two nodes have the same representative iff they were connected by successful merges, and tree depth is at most log2 of the cluster size.", "quantifier": "all sequences of merge calls", "why_tests_cant": "histories of any length", "anchors": ["IC/src/Core.hpp:HC::find", "IC/src/Core.hpp:HC::merge"]}
{"id": "C35", "title": "Threshold clusters", "statement": "On n >= 1 nodes getPartition(g) returns a partition of all nodes in which two nodes share a cluster iff they are connected through accepted merges with value > g; a higher threshold gives a refinement. (On n = 0 nodes the call is undefined behaviour.)", "quantifier": "all merge histories, all thresholds", "why_tests_cant": "histories, continuous thresholds", "anchors": ["IC/src/Core.hpp:HC::getPartition"]}
{"id": "C36", "title": "Cluster of a node", "statement": "getCluster(i,g) returns exactly the members of the cluster containing i in getPartition(g), without repetition.", "quantifier": "all merge histories, all nodes, all thresholds", "why_tests_cant": "histories", "anchors": ["IC/src/Core.hpp:HC::getCluster"]}
{"id": "C37", "title": "Similarity is the merge threshold", "statement": "For two distinct nodes in the same tree, similarity(i,j) is one of the merge values, it is symmetric, and the nodes share a cluster at threshold g iff g < similarity(i,j). Two nodes never connected get 0, so the threshold reading fails for them at negative thresholds; similarity(i,i) is infinite.", "quantifier": "all merge histories, all node pairs, all thresholds", "why_tests_cant": "histories", "anchors": ["IC/src/Core.hpp:HC::similarity"]}
{"id": "C38", "title": "Critical values of the clustering strictly decrease", "statement": "The recorded critical values are strictly decreasing, they are exactly the values of the accepted merges, a merge is accepted iff its ends are not yet connected and its value does not exceed any recorded value, and a refused merge changes nothing.", "quantifier": "all sequences of merge calls", "why_tests_cant": "histories", "anchors": ["IC/src/Core.hpp:HC::merge", "IC/src/Core.hpp:HC::getCriticalValues"]}
{"id": "C39", "title": "Chow-Liu clustering is single linkage", "statement": "After construction from a weighted edge list, or from an entropy function through its pairwise mutual informations, two nodes share a cluster at threshold g iff they are connected by edges of weight > g.", "quantifier": "all edge lists, all thresholds, all orders the unstable sort may produce among ties", "why_tests_cant": "all inputs", "anchors": ["IC/src/ChowLiu.hpp:CL::agglomerate"]}
{"id": "C40", "title": "Graph entropy function", "statement": "For forward graphs the entropy of a node set is the total weight of the arcs touching it, it is submodular, and the sum over the parts of a partition minus the entropy of all nodes is the partition's crossing weight.", "quantifier": "all graphs, all node sets and partitions", "why_tests_cant": "all sets", "anchors": ["psp/agglomerative.cpp:DigraphEntropy::operator()"]}
{"id": "C41", "title": "Edmonds greedy returns an optimal base", "statement": "For every submodular f and weight vector w the returned x satisfies x(V)=f(V)-f(0), x(S)<=f(S)-f(0) for all S, and minimises w.x over all such vectors.", "quantifier": "all submodular functions, all weights incl. ties", "why_tests_cant": "infinitely many competitors", "anchors": ["IC/src/AIC.hpp:edmonds_greedy"]}
{"id": "C42", "title": "Agglomerative step merges at the right level", "statement": "Given an exact minimum-norm base solver, one agglomeration step on a non-trivial partition strictly coarsens it, at the largest critical value of the contracted function.", "quantifier": "all submodular functions, all partitions", "why_tests_cant": "all functions", "anchors": ["IC/src/AIC.hpp:AIC::agglomerate"]}
{"id": "C43", "title": "Warm-start flows are valid", "statement": "The flow handed to the max-flow solver after changing the parameter respects all capacities and, for larger lambda, is a preflow (no node but the source has negative excess).", "quantifier": "all networks, flows and parameter changes", "why_tests_cant": "all flows", "anchors": ["psp/pmf.cpp:PMF::modify_flow", "psp/pmf.cpp:PMF::update_dig"]}
{"id": "C44", "title": "Vector printing", "statement": "Printing a vector of k>=1 integers prints them comma-separated in brackets; printing an empty vector prints [].", "quantifier": "all vectors", "why_tests_cant": "boundary", "anchors": ["psp/io_utility.cpp:operator<<"]}
{"id": "C45", "title": "Command-line output", "statement": "The result file alternates partitions and critical values, starting and ending with a partition, and the program never reads past the end of the partition list.", "quantifier": "all results", "why_tests_cant": "depends on the length invariant of every method", "anchors": ["main.cpp:main"]}
{"id": "C46", "title": "Critical values of one node", "statement": "getCriticalValues(i) is strictly decreasing, every listed value is the exact level at which i is joined with some other node, and its first value is the largest such level (an empty list means i is never joined). The list need not contain every level at which the cluster of i grows.", "quantifier": "all merge histories, all nodes", "why_tests_cant": "histories", "anchors": ["IC/src/Core.hpp:HC::getCriticalValues"]}
{"id": "C47", "title": "Arcs of weight zero are harmless for pdt", "statement": "Method pdt returns the principal sequence also when some arcs have weight zero (or below the tolerance).", "quantifier": "all forward simple graphs with non-negative weights", "why_tests_cant": "needs a graph where the doubled sink arc matters", "anchors": ["psp/pmf.cpp:PMF::run", "psp/pmf.cpp:PMF::update_dig"]}
{"id": "C49", "title": "pdt_r returns the principal sequence under every schedule", "statement": "Method pdt_r returns exactly the principal sequence of the graph, whichever of the two max-flow workers finishes first at each step, and the result does not depend on those races.", "quantifier": "all forward simple graphs with weights at least the tolerance, all schedules, all exact min-cut workers", "why_tests_cant": "exponentially many schedules, combined with contraction", "anchors": ["psp/pmf_r.cpp:PMF_R::slice", "psp/pmf_r.cpp:PMF_R::run", "psp/pmf_r.cpp:PDT_R::run"]}
{"id": "C50", "title": "The agglomerative method returns the principal sequence", "statement": "With an exact minimum-norm-base solver, Agglomerative_PSP::run terminates and get_critical_values()/get_psp() are exactly the principal sequence of the graph, from one block to the singletons; more generally AIC computes the principal sequence of any submodular function.", "quantifier": "all forward graphs whose weights are multiples of 1/D with tolerance*D*(n-1)^2 < 1; all submodular functions on that grid; all exact solvers", "why_tests_cant": "competes with all partitions at all lambda; depends on the union-find forest and the tolerance test together", "anchors": ["psp/agglomerative.cpp:Agglomerative_PSP::run", "IC/src/AIC.hpp:AIC::agglomerate"]}
{"id": "C51", "title": "What min_norm_base returns", "statement": "For a submodular function on two or more elements the returned x is a vector of the base polytope, and unless the solver gave up after 100 stalled cycles, x.x - fn_tol < x.y for every base y; hence the squared distance to the minimum norm base is below fn_tol and no coordinate is off by sqrt(fn_tol) or more. With no element the result is empty; with one it is f(V), which is a base only if f(empty)=0.", "quantifier": "all submodular functions, all tolerances and sorting orders, all factors L, all exact least-squares solvers", "why_tests_cant": "infinitely many competitors; long chains of minor cycles", "anchors": ["IC/src/AIC.hpp:min_norm_base"]}
{"id": "C52", "title": "min_norm_base cannot read or write out of range", "statement": "With an exact least-squares solver and n*eps<1 the solver never indexes a vector or matrix out of range, never divides by zero and never needs more than n columns; its only exception is the one raised while the factor L is extended.", "quantifier": "all submodular functions, all tolerances", "why_tests_cant": "depends on affine independence of all corral states", "anchors": ["IC/src/AIC.hpp:min_norm_base"]}
{"id": "C53", "title": "min_norm_base terminates and can be exact", "statement": "With eps = 0 the number of major cycles is bounded by a number that depends only on the ground-set size, and for every function there is a positive tolerance below which a run that did not give up returns exactly the minimum norm base.", "quantifier": "all submodular functions, all positive tolerances", "why_tests_cant": "unbounded loops", "anchors": ["IC/src/AIC.hpp:min_norm_base"]}
{"id": "C54", "title": "The agglomerative method with its own solver and default tolerances", "statement": "With min_norm_base as written and fn_tol=1E-6, eps=1E-15, Agglomerative_PSP::run returns the principal sequence of every forward graph whose weights are on a grid that C50 allows.", "quantifier": "all forward graphs on a grid with tolerance*D*(n-1)^2 < 1", "why_tests_cant": "needs a graph on which a minor cycle removes two columns", "anchors": ["IC/src/AIC.hpp:min_norm_base", "IC/src/AIC.hpp:AIC::agglomerate", "psp/agglomerative.cpp:Agglomerative_PSP::run"]}
{"id": "C55", "title": "Hypergraph entropy", "statement": "HypergraphEntropy(B) is, for every non-empty B, the sum over the columns of the largest entry in the rows of B; for the incidence matrix of a weighted hypergraph this is the weight of the hyperedges meeting B. It is submodular on sets that meet, and AIC computes from it the principal sequence of the hypergraph (a hyperedge counts once less than the number of parts it meets). The value of the empty set is undefined behaviour, so edmonds_greedy and min_norm_base must not be given the function directly.", "quantifier": "all matrices and hypergraphs, all sets, all lambda", "why_tests_cant": "all partitions at all lambda; empty set", "anchors": ["IC/src/hypergraph.hpp:HypergraphEntropy::operator()", "IC/src/hypergraph.hpp:HypergraphEntropy::h", "IC/src/AIC.hpp:AIC::agglomerate"]}
{"id": "C56", "title": "Mutual information", "statement": "SF::mutual_info of two disjoint non-empty sets is h(B)+h(C)-h(B u C), symmetric, never negative for a normalised submodular function; for a graph it is the weight of the arcs between the sets, for a hypergraph the weight of the hyperedges that meet both; the two-node overload agrees.", "quantifier": "all submodular functions, graphs and hypergraphs, all disjoint sets", "why_tests_cant": "all sets", "anchors": ["IC/src/Core.hpp:SF::mutual_info"]}
{"id": "C57", "title": "The triangular factor inside min_norm_base", "statement": "If L is the Cholesky factor of 1 + q_i.q_j for the current columns, adding a column throws no exception and gives the factor of the extended columns, and removing columns gives the factor of the remaining ones.", "quantifier": "all columns, all sets of removed columns, exact square roots", "why_tests_cant": "two removals in one cycle are rare", "anchors": ["IC/src/AIC.hpp:min_norm_base"]}
{"id": "C58", "title": "The agglomerative method with its own solver is exact for small tolerances", "statement": "For every graph (and every submodular function on a grid) there is a positive fn_tol0 such that for every fn_tol in (0, fn_tol0] and eps = 0 a run of AIC / Agglomerative_PSP with min_norm_base as solver, whatever the factor code does, either gives up (stuck message or LLT exception) or returns exactly the principal sequence of partitions; up to the point of giving up there is no undefined behaviour and no endless loop.", "quantifier": "all forward graphs, all submodular functions with values on a grid, all small tolerances", "why_tests_cant": "unbounded set of graphs; the threshold depends on the graph", "anchors": ["IC/src/AIC.hpp:min_norm_base", "IC/src/AIC.hpp:AIC::agglomerate", "psp/agglomerative.cpp:Agglomerative_PSP::run"]}
{"id": "C59", "title": "Warm-started pdt_r returns the principal sequence or throws", "statement": "When PMF_R::slice passes flow maps from call to call (cut down to the new capacities, contracted with the graph), pdt_r on a forward simple graph with weights above the tolerance, under every schedule of the two workers and for every max-flow solver meeting its contract, either returns exactly the principal sequence of partitions or stops because a solver rejects the flow map it is started from (a debug build throws, a release build ignores this); there is no undefined behaviour and no endless loop, and a rejected map can only be negative at a terminal. Refuted: that the flow maps are always accepted (one stage: a maximum flow running from the source to a node and back is rejected after the next contraction), and that the contracted flow is a flow when the graph has parallel arcs.", "quantifier": "all forward simple graphs, all schedules, all solvers meeting the contract, all small tolerances", "why_tests_cant": "unbounded set of graphs, maximum flows and thread schedules; isValid is only looked at in debug builds", "anchors": ["psp/pmf_r.cpp:PMF_R::modify_flow", "psp/pmf_r.cpp:PMF_R::slice", "psp/pmf_r.cpp:PMF_R::run", "psp/pmf_r.cpp:PDT_R::run"]}
{"id": "C60", "title": "FiniteLinearEntropy is the entropy of the linear source it describes", "statement": "For matrices of equal width over any finite field GF(q), operator()(B) returns r*log2(q), where every observation (M_b x) for b in B has probability 0 or q^-r when x is uniform: the Shannon entropy of the observation. It is 0 on the empty set, monotone and submodular, and AIC run on it returns the full sequence of optimal partitions. An entry stands for its integer part times 1 in the field (a ring homomorphism from Z). With no matrices, or with matrices of different width, operator() is undefined behaviour. Refuted: the comment that entries may be any of 0..m-1 over Z/mZ (over GF(4) the entry 2 counts as 0), and that non-zero fractional entries count (they are rounded to 0).", "quantifier": "all finite fields, all matrices, all sets of nodes, all rank routines meeting their specification", "why_tests_cant": "infinitely many fields and matrices; a test only compares ranks of a few matrices", "anchors": ["IC/src/FLS.hpp:grank", "IC/src/FLS.hpp:FiniteLinearEntropy::h", "IC/src/FLS.hpp:FiniteLinearEntropy::operator()", "IC/src/AIC.hpp:AIC::agglomerate"]}
{"id": "C61", "title": "ScalarGaussianEntropy is the differential entropy of the normal vector, and submodular", "statement": "For a symmetric matrix Sigma, operator()(B) is 0 on the empty list, and appending an index x adds ln(2 pi e v)/2 where v is the least mean square error of predicting X_x linearly from the X_b with b in B (chain rule). It throws exactly if Sigma is not positive definite on the list B (in particular if an index occurs twice); an index outside the matrix is undefined behaviour. The constructor throws exactly if the matrix is not square. If Sigma is positive definite, the function is defined on every set of indices, does not depend on their order, and is submodular. Refuted: that the constructor rejects matrices that are not symmetric ('S must be an SPD matrix'); for such a matrix the value depends on the order of the indices.", "quantifier": "all real matrices of any size, all index lists", "why_tests_cant": "real-valued and over infinitely many matrices; a test compares a few determinants up to rounding", "anchors": ["IC/src/gaussian.hpp:ScalarGaussianEntropy::h", "IC/src/gaussian.hpp:ScalarGaussianEntropy::operator()", "IC/src/gaussian.hpp:ScalarGaussianEntropy::ScalarGaussianEntropy"]}
{"id": "C62", "title": "GaussianEntropy stacks the mappings and gives the entropy of the linear Gaussian source in bits", "statement": "The constructor throws exactly if two mappings differ in the number of columns. For mappings with at least one column, operator()(B) is, in bits, the entropy of the variables r.z for the rows r of the mappings in B stacked one below the other and z standard normal: what ScalarGaussianEntropy gives for their covariance matrix, divided by ln 2. It throws exactly if these rows are linearly dependent. If all rows of all mappings are independent it is defined on every set of mappings, does not depend on their order, and is submodular. Refuted for mappings without columns: the rows are dependent but the result is 0 instead of an exception.", "quantifier": "all lists of real matrices, all lists of indices", "why_tests_cant": "real-valued and over infinitely many matrices, including mappings without rows", "anchors": ["IC/src/gaussian.hpp:GaussianEntropy::GaussianEntropy", "IC/src/gaussian.hpp:GaussianEntropy::h", "IC/src/gaussian.hpp:GaussianEntropy::operator()"]}
{"id": "C63", "title": "Lifetime of PSP objects: nothing is freed twice, used after it is freed or shared", "statement": "A program that constructs every PSP object before using it, destroys it at most once, makes no copies and keeps its own graphs as long as an object made from them lives never frees memory twice and never uses freed memory, whatever methods it runs in whatever order; when it ends, exactly the graphs of live objects and of the client are allocated, plus those of destroyed objects constructed with number_of_node <= 0; and the results of each object constructed from arcs depend on the calls made on it alone. Destroying an object made from the client's graph leaves the graph alone. Refuted: copies are safe (destroying object and copy frees twice, for every arc list; running the copy of a destroyed object uses freed memory; psp_i on a copy changes what the original returns); the destructor frees what the constructor allocated (not for number_of_node <= 0).", "quantifier": "all programs over any number of objects, graphs and method calls", "why_tests_cant": "needs all interleavings of calls on several objects; double frees and leaks are not visible in return values", "anchors": ["psp/psp.cpp:PSP::PSP", "psp/psp.cpp:PSP::~PSP", "psp/psp.cpp:PSP::run", "psp/psp.h:PSP"]}
{"id": "C64", "title": "The command line program writes the principal sequence to the file it names", "statement": "Run on a file with an acceptable graph (as in C24), with any of the accepted methods (agg_psp if compiled with AGG), the program exits with 0, prints nothing but the time if --time is set, and writes to the file named by --result, or to method-graph.txt, the principal sequence, partitions and critical values in turn; all methods but psp_i give the same lines. Default names of different methods or graphs differ and are never the graph file. --help and unknown methods exit with 0 and touch no file. The program dies of an exception exactly if --graph is missing or the reader or the method throws (agg_psp without AGG included). Refuted: --result output.txt is honoured (for no graph and no method); a result file that cannot be opened is reported (exit code 0; the default name of dir/g.lgf lies in a directory dt-dir); the input file is left alone whatever --result is.", "quantifier": "all option values, all acceptable graphs, all readers and solvers meeting their contracts", "why_tests_cant": "unbounded inputs; lost results and overwritten inputs leave exit code 0", "anchors": ["main.cpp:main", "psp/psp.cpp:PSP::run", "psp/psp.cpp:PSP::run_agg_psp"]}
{"id": "C65", "title": "dt computes n (2k - 1) max flows for k critical values", "statement": "A dt run on n >= 2 nodes that returns k critical values starts exactly n (2k - 1) max flows: 2k - 1 truncations, each one on networks of 0, 1, ..., n - 1 nodes in turn. Since k <= n - 1 this is at most n (2n - 3), so with a non-decreasing cost f(m) for a max flow on m nodes the run costs at most 2 n^2 f(n), as the documentation says. Counting is faithful: dropping the count from the counting versions of dt, psp_i, hpsp, pdt and pdt_r gives the modelled programs, for all inputs and solvers.", "quantifier": "all simple graphs with n >= 2 nodes, all tolerances > 0, all minimum-cut solvers, all non-decreasing costs", "why_tests_cant": "a bound for all sizes; the tests check no call counts", "anchors": ["psp/dt.cpp:DT::split", "psp/dt.cpp:DilworthTruncation::run", "docs/source/detail.rst"]}
{"id": "C66", "title": "psp_i and hpsp compute between n and n (n + 1)/2 - 3 max flows, not O(n)", "statement": "On n >= 3 nodes psp_i and hpsp start at least n and at most n (n + 1)/2 - 3 max flows, all on networks with fewer than n nodes. For every n and every tolerance there is a graph (a star) on which both need exactly n (n + 1)/2 - 3, whatever solver. Refuted: the documented O(n MaxFlow(n)) for PSP_I; for every non-decreasing cost f of a max flow with f(2k) <= c f(k), no constant A bounds the cost of all runs by A n f(n).", "quantifier": "all simple graphs with weights at least eps and n >= 2 nodes, all tolerances > 0, all minimum-cut solvers", "why_tests_cant": "a bound for all sizes and a family of worst cases; the tests check no call counts", "anchors": ["psp/psp_i.cpp:PSP_I::split", "psp/hpsp.cpp:HPSP::split", "docs/source/detail.rst"]}
{"id": "C67", "title": "pdt computes at most n (n - 1) max flows, pdt_r at most twice as many", "statement": "Under the hypotheses of C27 and C49 a pdt run on n nodes that returns k critical values starts at least k and at most n (n - 1) max flows, a pdt_r run at least 2k and at most 2 n (n - 1), both workers counted, under every schedule; every stage j = 1, ..., n - 1 starts with one on all its j nodes, and all networks have fewer than n nodes besides source and sink, after contraction too.", "quantifier": "all simple graphs with weights at least eps, a sufficiently small tolerance, all solvers and schedules", "why_tests_cant": "a bound for all sizes; the tests check no call counts", "anchors": ["psp/pmf.cpp:PMF::slice", "psp/pmf_r.cpp:PMF_R::slice", "psp/pmf.cpp:PDT::run", "psp/pmf_r.cpp:PDT_R::run", "docs/source/detail.rst"]}
{"id": "C68", "title": "Flow inaccuracy changes the truncation by at most a constant per node", "statement": "If every reported flow value is within d of the capacity of the reported cut and at most d above every cut, then the Dilworth truncation still returns a partition P of all nodes, its value m is at most h(R) + |R| d for every partition R, h(P) <= m + (2n - |P|) d, and P minimises h up to 3 n d: the errors of the n flows do not compound. A flow that respects capacities, conservation and the reported cut up to eta per node and arc gives such a d, namely (n^2 + 3n) eta.", "quantifier": "all simple graphs, all levels, all accuracies d, all solvers of that accuracy", "why_tests_cant": "LEMON computes in doubles with a tolerance of 1e-10, so its answers are never exact; a test cannot vary the rounding error nor cover all of its values", "anchors": ["psp/dt.cpp:DilworthTruncation", "psp/dt.cpp:minimize", "psp/psp_i.cpp:minimize", "psp/psp_i.cpp:DilworthTruncation"]}
{"id": "C69", "title": "dt returns the exact principal sequence although its max flows are inexact", "statement": "For weights that are multiples of 1/D, a tolerance eps with 2 eps D (n-1) < 1 and flows accurate to d with 2 n d < eps, DT::run returns a sequence whose partitions are exactly optimal between the reported critical values, which are slopes of neighbouring partitions. For every weighted graph and every small enough tolerance some flow accuracy suffices. Without a bound on d this is false: with flows off by 1/2 dt misses a partition of a path with 3 nodes.", "quantifier": "all simple graphs with weights in multiples of 1/D, all solvers of the stated accuracy", "why_tests_cant": "rounding errors of the solver depend on platform and compiler; the tests see one of them", "anchors": ["psp/dt.cpp:DT::run", "psp/dt.cpp:DT::split"]}
{"id": "C70", "title": "psp_i returns the exact principal sequence although its max flows are inexact", "statement": "For weights of at least eps that are multiples of 1/D and flows accurate to d with (eps + 3 n d) D (n-1) < 1, PSP_I::run returns a sequence whose partitions are exactly optimal between the reported critical values, through all contractions. Without a bound on d this is false (witness: path with 3 nodes, flows off by 1/2).", "quantifier": "all simple graphs with weights in multiples of 1/D and at least eps, all solvers of the stated accuracy", "why_tests_cant": "rounding errors of the solver depend on platform and compiler; the tests see one of them", "anchors": ["psp/psp_i.cpp:PSP_I::run", "psp/psp_i.cpp:PSP_I::split", "psp/psp_i.cpp:PSP_I::contract"]}
{"id": "C71", "title": "The Dilworth truncation of dt in floating-point arithmetic: value and partition up to an explicit rounding error", "statement": "Let every +, -, * and / of psp/dt.cpp and psp/graph.h carry a relative error of at most u (for round to nearest with p bits u = 2^-p, proved), let the stored weights be the given ones up to u and the max flows accurate to d. For a graph on n >= 2 nodes of total weight at most W >= 1 and a level between -W and W, the value m and partition P found by DilworthTruncation::run satisfy h(P) <= m + e and m <= h(R) + e for every partition R, with e = 2 n d + 102 n^3 u W, h the exact objective of the unrounded weights, provided 240 n^3 u W <= 1 and 4 n d <= 1.", "quantifier": "all simple forward graphs, all levels, all floating-point operations obeying the standard model, all orders of the arcs", "why_tests_cant": "the errors of the sums and of the flow networks built from them depend on data, platform and compiler; a test sees one of them", "anchors": ["psp/dt.cpp:DilworthTruncation::run", "psp/dt.cpp:DilworthTruncation::minimize", "psp/graph.h:get_cut_value"]}
{"id": "C72", "title": "dt in floating-point arithmetic returns the exact principal sequence of partitions", "statement": "Under the assumptions of C71, for weights that are (before rounding to double) multiples of 1/D, with 2 eps D (n-1) < 1 and 2 n d + 120 n^3 u W < eps, DT::run returns exactly optimal partitions for the unrounded weights, and every reported critical value is within 15 n^2 u W of the exact one. This holds in particular for binary64 rounding, the tolerance 1e-10 and LEMON's arc order. For every weighted graph and every small enough tolerance some precision suffices. The bound on the weights is needed: for the weights 1, 2^53 and 2^53+2, all of them doubles, dt misses the partition {0},{1,2} even with exact max flows.", "quantifier": "all simple forward graphs of total weight at most W, all floating-point operations obeying the standard model", "why_tests_cant": "the tests compare a few runs with expected output on one machine; whether a rounding error can flip a comparison in split depends on all values in between", "anchors": ["psp/dt.cpp:DT::run", "psp/dt.cpp:DT::split", "psp/dt.cpp:DT::evaluate"]}
{"id": "C73", "title": "run(partition_num) of dt in floating-point arithmetic", "statement": "Under the assumptions of C72 and for num >= 2, DT::run(num) returns a partition M with at least min(num, n) parts that is exactly optimal for some lambda, and every partition that is optimal for a smaller lambda has at most min(num, n) parts.", "quantifier": "all simple forward graphs, all num >= 2, all floating-point operations obeying the standard model", "why_tests_cant": "as for C72; the tests call run(k) for one small graph", "anchors": ["psp/dt.cpp:DT::run(int)", "psp/dt.cpp:DT::split(Q,P,partition_num)"]}
{"id": "C74", "title": "get_psp.py computes the principal sequence of heap-ordered trees", "statement": "For a tree with root 0 given by parent pointers K and edge weights W that grow strictly away from the root, get_psp(n, K, W) returns the critical values and the partitions of the principal sequence of the tree's weighted graph, provided that every inner node has an earlier merged sibling (or shares the root's weight entry); stars always qualify. Without the proviso the result may lose a node, with equal weights along a path it may contain overlapping sets, and when all weights are below -1 the loop never ends.", "quantifier": "all such trees of any size and all rational weights; all inputs with every weight below -1 for the divergence", "why_tests_cant": "the file has two tests of four nodes each, one of which is never called, and both meet the proviso, which is hidden in the order of the dictionary updates", "anchors": ["experimental/get_psp.py:get_psp"]}
{"id": "C75", "title": "Demo point clouds give valid graphs", "statement": "Gaussian2DGraphBase(np, gamma, a) with at least np points (or a null pointer and np divisible by 4) returns exactly the triples (i, j, sim(i, j)) with i < j < np whose similarity exceeds the tolerance, and the PSP built from them has np nodes and a simple forward graph, so every method's precondition holds; random points come in four equal blocks around (+-3, +-3). With a null pointer and np not divisible by 4 the constructor reads past the end of x_pos. The similarity is exp(-gamma d^2), lies in (0, 1], is symmetric and is 1 only for equal points if gamma > 0; it is not the documented exp(-gamma d^2 / 2).", "quantifier": "all np, all point lists, all noise values, all similarity functions and tolerances >= 0; all real gamma >= 0 and points for the formula", "why_tests_cant": "the tests pass 4 or 8 given points and never the null pointer; none looks at the edge list or at the formula", "anchors": ["test/gaussian2Dcase.cpp:Gaussian2DGraphBase", "test/gaussian2Dcase.cpp:compute_similarity", "test/gaussian2Dcase.h:28"]}
{"id": "C76", "title": "psp_i in floating-point arithmetic returns the exact principal sequence of partitions", "statement": "In the floating-point model of C71 (every double operation rounded with unit roundoff u, weights rounded on input, a max-flow solver of accuracy d), for positive weights that are multiples of 1/D, with total weight at most W, 2 eps D (n-1) < 1 and 2 n d + 960 n^4 u W < eps, PSP_I::run returns exactly optimal partitions for the unrounded weights, although the weights of contracted arcs are sums of rounded ones; every reported critical value is within 120 n^3 u W of the exact one. This holds in particular for binary64 rounding, the tolerance 1e-10 and LEMON's arc order. For every graph with positive weights and every small enough tolerance some precision suffices. The bound on the weights is needed: for the weights 1, 2^53 and 2^53+2 psp_i misses the partition {0},{1,2} even with exact max flows.", "quantifier": "all simple forward graphs with positive weights of total at most W, all floating-point operations obeying the standard model", "why_tests_cant": "rounding errors accumulate in the contracted graph over the whole recursion, and the queue of run() compares rounded labels; the tests compare a few runs with expected output on one machine", "anchors": ["psp/psp_i.cpp:PSP_I::run", "psp/psp_i.cpp:PSP_I::split", "psp/psp_i.cpp:PSP_I::contract"]}
{"id": "C77", "title": "hpsp in floating-point arithmetic can return lists that are not partitions", "statement": "Under exactly the premises under which psp_i returns exact results in doubles (C76: binary64 rounding, tolerance 1e-10, small total weight, weights multiples of 1/D), and with exact max flows whose sink sides are minimal, HPSP::run may return a list whose members are not partitions: on five nodes with weights k/20 the first list is {0,1,2,4},{1,3}. Rounding at a level where several partitions tie makes the labels W of nested clusters equal or misordered, and HPSP::merge compares them with ==.", "quantifier": "a concrete graph refutes the universal statement over solvers, graphs and precisions that holds for psp_i", "why_tests_cant": "the failure needs tied partitions and weights that are not representable; the tests of hpsp are two graphs of four nodes and one of eight", "anchors": ["psp/hpsp.cpp:HPSP::run", "psp/hpsp.cpp:HPSP::split", "psp/hpsp.cpp:HPSP::merge"]}
{"id": "C78", "title": "hpsp in floating-point arithmetic on graphs without ties", "statement": "On a graph without ties (for every set X of nodes and every partition of X into three or more parts with average g, at most one partition coarser than it has the lowest value at g when that value is below that of X) HPSP::run in floating-point arithmetic returns, under the premises of C76, the principal sequence of partitions: the partitions are exactly right, the critical values are within 120 n^3 u W of the exact ones, and W and K locate every node in the returned lists. Any minimum cut will do, not only the one with minimal sink side. Equal critical values of disjoint clusters may be listed as two values that differ by rounding, so a value and a partition between two members of the sequence can appear twice, which exact arithmetic excludes.", "quantifier": "all graphs, rounding units, arithmetic operations obeying the standard model, arc orders, approximate solvers and tolerances meeting the bounds", "why_tests_cant": "correctness depends on the error of every addition and division in the recursion and on equality tests between rounded labels; a test fixes one graph and one machine", "anchors": ["psp/hpsp.cpp:HPSP::run", "psp/hpsp.cpp:HPSP::split", "psp/hpsp.cpp:HPSP::merge", "psp/hpsp.cpp:HPSP::contract", "psp/hpsp.cpp:HPSP::psp_construct"]}
{"id": "C79", "title": "pdt in floating-point arithmetic can list a critical value twice", "statement": "Under the premises under which psp_i is proved right in doubles (C76), and with exact max flows whose sink sides are minimal, PDT::run need not return the principal sequence with strictly increasing critical values: on a star with weights 1/5, 1/10, 1/5 it lists 1/5 twice, as two neighbouring doubles, with a partition between them that is not in the principal sequence.", "quantifier": "a concrete graph refutes the universal statement over solvers, graphs and weights that holds in exact arithmetic (C27)", "why_tests_cant": "the failure needs tied partitions and weights whose sums round differently; a test checks a few fixed graphs", "anchors": ["psp/pmf.cpp:PDT::run", "psp/pmf.cpp:PMF::run", "psp/pmf.cpp:PMF::slice", "psp/pmf.cpp:PMF::compute_lambda"]}
{"id": "C80", "title": "rounding to doubles keeps the order", "statement": "Rounding to binary floating-point numbers of any precision p >= 1 (round to nearest, ties to even) is monotone, so each of the four operations of that arithmetic is monotone in each argument in the way the exact operation is. Two different numbers may become one, but they never change places.", "quantifier": "all precisions, all pairs of rational numbers", "why_tests_cant": "a universal statement over all pairs of numbers", "anchors": ["psp/pmf.cpp:PMF::compute_lambda", "psp/pmf.cpp:turning_point_less"]}
{"id": "C81", "title": "pdt in floating-point arithmetic", "statement": "Let the weights be at least the tolerance eps and the unit roundoff u so small that 3840 n^2 u W <= eps. In any arithmetic with that roundoff that is monotone, and with max flows accurate up to eps whose sink sides are minimal, PDT::run either throws 'lambda value mismatch' or returns a sequence that is the principal sequence up to 65 n^4 eps: the critical values are in weak order, the partitions refine one another from {V} to the singletons, and between two neighbouring critical values the partition is optimal up to 65 n^4 eps. If the weights are multiples of 1/D and that error is small against 1/(D n^2), each partition returned is exactly optimal between its two critical values and each critical value is within 65 n^4 eps of the slope of its two partitions. The theorem is instantiated for doubles with the constants of the library.", "quantifier": "all graphs with node order and weights as stated, all arithmetics of the standard model that are monotone, all solvers and all iteration orders", "why_tests_cant": "rounding errors depend on the weights and on the order of the sums; tests compare a few small graphs with hand-made answers", "anchors": ["psp/pmf.cpp:PDT::run", "psp/pmf.cpp:PMF::run", "psp/pmf.cpp:PMF::slice", "psp/pmf.cpp:PMF::compute_lambda"]}
{"id": "C82", "title": "pdt in floating-point arithmetic can throw", "statement": "Under the premises under which C81 describes what PDT::run returns in doubles, and with exact max flows whose sink sides are minimal, the run need not return: on a graph with six nodes whose five weights are doubles it throws 'lambda value mismatch'. In exact arithmetic with the same tolerance it returns the principal sequence of that graph. So the exception cannot be dropped from C81.", "quantifier": "a concrete graph refutes the universal statement over solvers, graphs and weights", "why_tests_cant": "the failure needs a breakpoint that lies just the tolerance below a crossing that is also the mean of other crossings, all up to the last bit", "anchors": ["psp/pmf.cpp:PMF::slice", "psp/pmf.cpp:PMF::compute_lambda", "psp/pmf.cpp:PDT::run"]}
{"id": "C83", "title": "pdt in exact arithmetic for arbitrary weights", "statement": "Let the weights be at least the tolerance eps, otherwise arbitrary, and 2000 n^4 eps <= 1. With exact max flows whose sink sides are minimal, PDT::run in exact arithmetic always returns: it never throws, reads past the end of a list or loops. The result is the principal sequence up to 65 n^4 eps: critical values in weak order, partitions that refine one another from {V} to the singletons, each optimal up to 65 n^4 eps between its critical values. If the weights are multiples of 1/D and 65 n^6 D eps < 1, the partitions are exactly optimal and each critical value is within 65 n^4 eps of the slope of its two partitions.", "quantifier": "all graphs, all weights at least eps, all solvers meeting the contract", "why_tests_cant": "the tolerance acts at values that depend on all weights; tests use a handful of graphs with small integer weights", "anchors": ["psp/pmf.cpp:PDT::run", "psp/pmf.cpp:PMF::run", "psp/pmf.cpp:PMF::slice", "psp/pmf.cpp:PMF::compute_lambda"]}
{"id": "C84", "title": "pdt_r in exact arithmetic for arbitrary weights, whatever the workers do first", "statement": "Let the weights be at least the tolerance eps, otherwise arbitrary, and 2000 n^4 eps <= 1. PDT_R::run in exact arithmetic always returns, whichever of its two workers finishes first in each stage and whichever solvers they use, as long as the flows are exact and the first worker's sink sides and the second worker's source sides are minimal. All these runs return the same partitions and equal critical values, and the result is the principal sequence up to 65 n^4 eps in the sense of C83. If the weights are multiples of 1/D and 65 n^6 D eps < 1, the partitions are exactly optimal and each critical value is within 65 n^4 eps of the slope of its two partitions.", "quantifier": "all graphs, all weights at least eps, all interleavings of the two workers, all solvers meeting the contracts", "why_tests_cant": "a test observes one interleaving of the workers per run and a handful of graphs", "anchors": ["psp/pmf_r.cpp:PDT_R::run", "psp/pmf_r.cpp:PMF_R::run", "psp/pmf_r.cpp:PMF_R::slice", "psp/pmf_r.cpp:PMF_R::compute_lambda"]}
{"id": "C85", "title": "Flow maps never change the result of pdt_r, but may make it throw", "statement": "Let the weights exceed the tolerance eps, otherwise arbitrary, and 2000 n^4 eps <= 1. When PMF_R::slice passes flow maps between its workers, PDT_R::run in exact arithmetic throws or returns the same partitions and critical values as without flow maps, that is the principal sequence up to 65 n^4 eps (C84), for all solvers that return minimum cuts of the required kind and maximum flows, and for all orders in which the workers finish. It throws (in a debug build, where the result of init is checked) only because init(flowMap) finds that the terminal where the flow ends sends more than it receives; the checks at the other nodes never fail. Such a throw does occur: on a graph with nine nodes, an order of the workers and maximum flows that run from the source to a neighbour and back lead to a rejected flow map, while the same run with other maximum flows returns.", "quantifier": "all graphs, all weights above eps, all interleavings of the two workers, all maximum flows the solvers may return", "why_tests_cant": "the rejection needs a certain order of the workers in nested slices and a certain choice among the maximum flows; in 100000 random graphs it did not show up", "anchors": ["psp/pmf_r.cpp:PMF_R::slice", "psp/pmf_r.cpp:PMF_R::modify_flow", "psp/pmf_r.cpp:PMF_R::executePreflow_reverse", "psp/pmf_r.cpp:PDT_R::run"]}
{"id": "C86", "title": "The memory of PMF_R: no use after delete, no double delete, no leak unless it throws", "statement": "Whatever the max-flow solvers return and however the two workers of every PMF_R::slice end (finished, interrupted before or after they set ele_out, or with an exception), PDT_R::run and PMF_R::run never use or delete an object that is not alive: graphs, capacity and flow maps, update_base, reversed graphs, threads and elevators, including the graph an elevator refers to. When the call returns, exactly the objects that were alive before it are alive. When it throws, objects made with new may remain (that happens: the statement that it releases everything is false), but no local object is referenced any more. The partitions and critical values are those of the model without memory.", "quantifier": "all graphs, all tolerances, all solvers, all ends of all workers in all nested slices", "why_tests_cant": "a leak or a use after delete on a rare interleaving of interrupted workers gives the right output in almost every run", "anchors": ["psp/pmf_r.cpp:PMF_R::slice", "psp/pmf_r.cpp:PMF_R::run", "psp/pmf_r.cpp:PMF_R::executePreflow", "psp/pmf_r.cpp:PMF_R::executePreflow_reverse"]}
{"id": "C87", "title": "Elevators and the graphs they were made for", "statement": "PMF_R::slice starts a worker with an elevator (the node labels of an earlier solver) of the graph the worker uses: this is false. After a contraction slice passes left_ele and right_ele, which belong to the graph of the caller, to calls that work on the contracted graph; on a graph with six nodes a worker of PDT_R::run starts on a contracted graph with an elevator of the original graph. What holds: the graph of the elevator is alive, and it is the graph of the worker or an older one. If lines 549 and 550 pass left_inner and right_inner instead, every elevator belongs to the graph of its worker, memory is still handled correctly and the results are the same.", "quantifier": "all graphs, all tolerances, all solvers, all ends of all workers in all nested slices", "why_tests_cant": "which elevator reaches which worker depends on which of the two workers finishes first in several nested slices, and a wrong elevator need not change the output", "anchors": ["psp/pmf_r.cpp:PMF_R::slice", "psp/pmf_r.cpp:PMF_R::executePreflow"]}
{"id": "C88", "title": "A debug build of pdt returns the result of a release build", "statement": "With _DEBUG defined (CMakeLists.txt:21-23) PMF::slice checks at every call that its two sets compare as they should at lambda_1 and lambda_3, that the flow map is accepted and that the new set lies between the two old ones. In exact arithmetic and with a solver that returns maximum flows and inclusion-minimal sink sides none of these checks fails, for any graph on nodes 0..n-1 with nonnegative weights: PDT::run ends in the same way and with the same result as without the checks. A call of slice in which the right set has a cut smaller by more than eps at lambda_1, or the left set one at a finite lambda_3, throws.", "quantifier": "all graphs with nonnegative weights (also with parallel arcs, self loops and arcs in any direction), all tolerances >= 0, all solvers that meet the contract", "why_tests_cant": "a failed check would be a std::logic_error on some graph only; the tests run one build on a few graphs", "anchors": ["psp/pmf.cpp:PMF::slice", "psp/pmf.cpp:PDT::run"]}
{"id": "C89", "title": "A debug build of pdt_r returns the result of a release build", "statement": "The debug build of PMF_R overwrites the capacities of the member graph dig at the start of every slice, also in slices that work on a contracted graph, and checks the cut values, that the set of the left worker is a subset of T_l and that contract keeps source and sink. For simple graphs with arcs from smaller to larger ids and weights of at least eps > 0, in exact arithmetic and without flow maps, PDT_R::run ends in the same way and with the same result as in a release build, for all orders in which the workers finish: the checks do not fail and the changed capacities do not show in any result. With flow maps and weights above eps the debug build either returns this result or throws, and it throws only because init(flowMap) finds that the terminal where the flow ends sends more than it receives; no other check fails. That it never throws is false (the graph of C85).", "quantifier": "all simple forward graphs with weights >= eps, all solvers that meet the contracts, all orders in which the workers finish in all nested slices", "why_tests_cant": "the check changes the graph that the slice is about to use, and the effect depends on which worker finishes first in nested slices", "anchors": ["psp/pmf_r.cpp:PMF_R::slice", "psp/pmf_r.cpp:PMF_R::contract", "psp/pmf_r.cpp:PMF_R::update_dig"]}
{"id": "C90", "title": "A debug build of psp_i and hpsp rejects arcs that do not go to a larger id", "statement": "In a debug build psp::DilworthTruncation::minimize throws \"no outarc allowed\" if the node of the stage has an arc to itself or to a node of an earlier stage. If every arc of the graph goes from a smaller to a larger id, this never happens, also not on the contracted graphs of later splits, and PSP_I::run and HPSP::run give the result of a release build. If some arc does not, both throw, unless the graph has exactly two nodes, where no truncation is run. That a debug build agrees with a release build on every graph is false: with the arcs (0,1), (2,0), (1,2) only the debug build throws.", "quantifier": "all graphs, all solvers (no assumption), all tolerances", "why_tests_cant": "the check runs on the contracted graphs of all recursive splits; whether contract keeps the direction of the arcs is a property of all of them", "anchors": ["psp/psp_i.cpp:DilworthTruncation::minimize", "psp/psp_i.cpp:PSP_I::split", "psp/psp_i.cpp:PSP_I::contract", "psp/hpsp.cpp:HPSP::split", "psp/hpsp.cpp:HPSP::contract"]}
{"id": "C91", "title": "gaussian2Dcase.py: what convert writes toNetworkX reads back, but terminals are not labelled", "statement": "toNetworkX on the file convert writes for an n by n matrix returns the graph with the nodes \"0\", ..., \"n-1\" in this order and exactly one arc for each pair i < j whose entry is at least 1e-10, labelled with the entry as written. toNetworkX ends exactly on files with a line containing \"@arcs\" after the first line; on all others, cut-off files for example, its first loop never ends. A node gets the label s only if the line with \"@attributes\" itself contains \"source\", and t only if the line right after it contains \"target\"; so in a file with the usual lines \"@attributes\", \"source x\", \"target y\" neither terminal is labelled, and that one of them is labelled is false.", "quantifier": "all matrices and sizes (numbers as printed by any function that uses digits . e + - only); all texts for termination and labels", "why_tests_cant": "the round trip is over all matrices; that the loop never ends cannot be observed; the repository has no test of this script", "anchors": ["utility/gaussian2Dcase.py:toNetworkX", "utility/gaussian2Dcase.py:convert"]}
{"id": "C92", "title": "main on a file of gaussian2Dcase.py", "statement": "Reading a file written by convert, main gets the graph on the nodes 0, ..., n-1 with one arc from i to j for each pair i < j whose entry is at least 1e-10, with the entry as capacity: a simple graph in which every arc goes to a larger id, as all methods need. If the entries are multiples of 1/D and the tolerance (at most 1e-10) is small enough for D, main then writes the principal sequence of partitions of this graph to the result file, with every method.", "quantifier": "all matrices, sizes, methods, options; solvers meeting the max-flow contracts; printing and parsing of doubles are inverse to each other", "why_tests_cant": "connects the text format to the graph and the graph to the result, for all matrices", "anchors": ["utility/gaussian2Dcase.py:convert", "main.cpp:main"]}
{"id": "C93", "title": "pdt_r in floating-point arithmetic", "statement": "Let the weights be at least the tolerance eps and the unit roundoff u so small that 3840 n^2 u W <= eps, and 2000 n^4 eps <= 1. In any arithmetic with that roundoff that is monotone, and with two workers whose max flows are accurate up to eps, one returning minimal and the other maximal sink sides, PDT_R::run either throws 'lambda value mismatch' or returns a sequence that is the principal sequence up to 65 n^4 eps, whichever worker finishes first in each slice: the critical values are in weak order, the partitions refine one another from {V} to the singletons, and between two neighbouring critical values the partition is optimal up to 65 n^4 eps. The rounding errors made when contract adds up capacities, once per level of the recursion, and the arcs it leaves out because they lie below the tolerance are included. If the weights are multiples of 1/D and that error is small against 1/(D n^2), each partition returned is exactly optimal between its two critical values. The theorem is instantiated for doubles with the constants of the library.", "quantifier": "all graphs with node order and weights as stated, all arithmetics of the standard model that are monotone, all pairs of solvers, all orders of the workers and all iteration orders", "why_tests_cant": "rounding errors depend on the weights, on the order of the sums and, through the contraction, on which worker wins; tests compare a few small graphs with hand-made answers", "anchors": ["psp/pmf_r.cpp:PDT_R::run", "psp/pmf_r.cpp:PMF_R::run", "psp/pmf_r.cpp:PMF_R::slice", "psp/pmf_r.cpp:PMF_R::contract", "psp/pmf_r.cpp:PMF_R::update_dig"]}
{"id": "C94", "title": "pdt_r in floating-point arithmetic can throw and can list a critical value twice", "statement": "Under the premises under which C93 describes what PDT_R::run returns in doubles, and with exact max flows, the run need not return: on a graph with six nodes whose five weights are doubles it throws 'lambda value mismatch', both when the forward worker always finishes first and when the backward worker does. Nor need it return the principal sequence with strictly increasing critical values: on a star with weights 1/5, 1/10, 1/5 it lists 1/5 twice, as two neighbouring doubles, with a partition between them that is not in the principal sequence.", "quantifier": "concrete graphs refute the universal statements over solvers, graphs, weights and iteration orders, for either worker always being first", "why_tests_cant": "the failures need ties and weights that differ in their last bits", "anchors": ["psp/pmf_r.cpp:PMF_R::slice", "psp/pmf_r.cpp:PMF_R::compute_lambda", "psp/pmf_r.cpp:PDT_R::run"]}
{"id": "C95", "title": "The methods of PSP agree in floating-point arithmetic", "statement": "Let PSP be constructed in doubles from a simple graph on the nodes 0..n-1 (n >= 2, edges from smaller to larger node) whose weights are positive multiples of 1/D with sum at most W >= 1, where n^4 W is small against the tolerance and n^5 D times the tolerance is small (explicit constants). Then there is one principal sequence of partitions such that each of run(\"dt\"), run(\"psp_i\"), run(\"pdt\"), run(\"pdt_r\") - and run(\"hpsp\") if the graph has no ties in the sense of C78 - with exact max flows lists exactly this sequence: every critical value within 65 n^4 eps, every partition in order, possibly some value several times with a further partition in between; only pdt and pdt_r may throw instead. The same holds for every arithmetic with relative error u and monotone operations, every order of iteration and max flows that return the right cut with a value off by at most d, if 2 n d + 960 n^4 u W is below the tolerance. Hence every partition of the sequence is returned by each method, and two methods that repeat no value return the same partitions in the same order. Methods need not return equally many values: on a graph with five nodes dt returns two and psp_i three. Any other method name throws.", "quantifier": "all such graphs, weights, denominators, exact min-cut solvers, iteration orders over networks, orders in which the two workers of pdt_r finish, and pairs of methods", "why_tests_cant": "comparing methods on sample graphs compares rounded values and repeated partitions for those graphs only; that all methods approximate the same sequence for every graph needs uniqueness of that sequence", "anchors": ["psp/psp.cpp:PSP::run", "psp/psp.cpp:PSP::get_critical_values", "psp/psp.cpp:PSP::get_partitions", "psp/dt.cpp:DT::run", "psp/psp_i.cpp:PSP_I::run", "psp/pmf.cpp:PDT::run", "psp/pmf_r.cpp:PDT_R::run", "psp/hpsp.cpp:HPSP::run"]}
{"id": "C96", "title": "The critical values as text in the result file", "statement": "main writes critical values with operator<< of a stream in its default state, as %g with six significant digits. For every finite value the text reads back as a number that differs from the value by at most 5 in the seventh digit (relative error 1/200000), a value with at most six significant digits reads back exactly, a larger value never reads back as a smaller one, and values that read back equally have the same text. The text has no needless zeros, at most six digits, an exponent (signed, two digits or more) exactly for values below 0.0001 and from 1000000 on, and a minus sign for negative values. Under the premises of C95 the result file of dt, psp_i, pdt, pdt_r (and hpsp on graphs without ties) alternates partitions and texts, starting and ending with a partition, and the texts read back, up to this error, as values that list the principal sequence within 65 n^4 eps; only pdt and pdt_r may throw instead. agg_psp throws and any other name writes no file. Two methods that list equally many values need not write the same file: on a triangle dt writes 3.00003 and psp_i 3.00004. A file can show the same text for two distinct critical values. example/example.cpp prints {0,1,2}, 2, {0,2} {1}, 5 and the singletons; its loop writes the same lines as main for every result with a partition more than values, and dereferences the end iterator when partitions are missing.", "quantifier": "all finite values; all graphs, solvers, orders and methods as in C95; all lists of values and partitions for the loops", "why_tests_cant": "sample files show the text of some values; the error, exactness and order of the text for every value, and the composition with the rounding errors of every method, need a proof", "anchors": ["main.cpp:main", "example/example.cpp:main", "psp/psp.h:PSP::run", "psp/psp.cpp:PSP::run"]}
{"id": "C97", "title": "The command line program in doubles, from the text of the graph file to the text of the result file", "statement": "Let the graph file be a text in LEMON's graph format with nodes 0..n-1, n >= 2, whose arcs, with the decimal weights exactly as written in the file, form a graph within the premises of C95. Then there is one principal sequence (of the graph with these exact weights) such that main, run in doubles with any of the methods dt, psp_i, pdt, pdt_r (hpsp if there are no ties), ends with code 0 and writes under the documented name a file that alternates partitions and texts and whose texts, read back, list that sequence up to 65 n^4 eps and six digits; only pdt and pdt_r may throw instead. If the text of the file is not readable main throws and writes nothing. So it does without --graph, without such a file, and for agg_psp in a build without AGG; --help and methods that are not accepted end with code 0, a message and no file. Files written by convert of gaussian2Dcase.py are readable: the graph consists of the pairs i < j with an entry of at least 1e-10, weighted as their texts say.", "quantifier": "all texts, options, file names, exact min-cut solvers, iteration orders and orders of the workers", "why_tests_cant": "a run on a sample file shows one text in and one text out; the errors of reading decimals, of the arithmetic and of printing have to be bounded together for all files", "anchors": ["main.cpp:main", "psp/psp.cpp:PSP::run", "utility/gaussian2Dcase.py:convert"]}
{"id": "C98", "title": "The precision eps of min_norm_base: harmless when small enough, an endless loop at the default", "statement": "For every submodular function and every fn_tol > 0 there is a positive eps0 such that for all eps from 0 to eps0 min_norm_base returns and returns exactly what it returns with eps = 0; so with a small fn_tol and then a small eps a run without the message about being stuck returns the minimum norm base, and Agglomerative_PSP returns the principal sequence of partitions. The default 1E-15 is not small enough for every graph: on a complete graph with four nodes and integer weights (all of them doubles) Agglomerative_PSP with the default tolerances and exact arithmetic never returns, since a minor cycle removes two columns whose coefficients are positive but at most eps, which undoes the previous step and resets the counter that should detect this. With eps = 0 the same run returns the principal sequence.", "quantifier": "all submodular functions, sorters, solvers of the linear system, factor codes, tolerances and precisions up to eps0; the endless run is for any number of steps and any factor code that does not fail", "why_tests_cant": "a test runs a fixed precision on a few functions, and a run that does not end has no result to check", "anchors": ["IC/src/AIC.hpp:min_norm_base", "IC/src/AIC.hpp:AIC", "psp/agglomerative.cpp:Agglomerative_PSP::run"]}
{"id": "C99", "title": "How exact the minimum norm bases must be for Agglomerative_PSP", "statement": "Let the weights be multiples of 1/D, forward arcs, n nodes. If every vector that min_norm_base returns is within d of the minimum norm base in every coordinate, 2d <= fn_tol and (fn_tol + 2d) D (n-1)^2 < 1, then Agglomerative_PSP::run ends, get_psp() is exactly the principal sequence of partitions, and get_critical_values() is strictly increasing and off by at most d in every entry. The same for any submodular function instead of the graph entropy, also when the values that the function object returns are themselves rounded. The bound 2d <= fn_tol is needed: with the default fn_tol = 1E-6 and a solver that is off by 0.51E-6 run() never returns on a triangle with unit weights, because merge() rejects a gamma larger than the previous one and agglomerate() ignores that; and whenever a round computes such a gamma, run() never returns.", "quantifier": "all graphs, submodular functions, function objects, tolerances, and solvers meeting the error bound", "why_tests_cant": "tests see the error of one solver on a few inputs, not the bound that any solver has to meet, and an endless run has no result to compare", "anchors": ["IC/src/AIC.hpp:AIC::agglomerate", "IC/src/Core.hpp:HC::merge", "psp/agglomerative.cpp:Agglomerative_PSP::run"]}
{"id": "C100", "title": "With any precision eps, a result of min_norm_base or Agglomerative_PSP is exact once fn_tol is small", "statement": "For every submodular function there is a positive tolerance tol0, depending on the function only, such that for every fn_tol up to tol0 and every eps with 0 <= eps < 1/n (the default 1E-15 included), whatever min_norm_base returns without the message about being stuck is the minimum norm base. So Agglomerative_PSP::run with its own solver either throws, writes that message, does not end, or returns the principal sequence of partitions; and two runs that return agree whatever their precisions, tolerances and factor codes.", "quantifier": "all submodular functions and graphs, all fn_tol up to tol0, all precisions below 1/n, all sorters, linear solvers, factor codes and numbers of steps", "why_tests_cant": "a test fixes one precision and compares a few results; that the precision can only cost termination and never exactness is a statement about all precisions and runs", "anchors": ["IC/src/AIC.hpp:min_norm_base", "IC/src/AIC.hpp:AIC", "psp/agglomerative.cpp:Agglomerative_PSP::run"]}
