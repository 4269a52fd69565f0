# Design

Target: the C++ library in `/repo` (principal sequence of partitions of a weighted
graph, plus the `IC` info-clustering headers). Prover: Coq 8.16.1, standard library only.

## 1. How the code is modelled

* **Numbers.** `double` is modelled by exact rationals `Q` (by real numbers `R` for the Gaussian entropies), without rounding.
  Exception: MFloat repeats classes DilworthTruncation and DT with every `+ - * /` on doubles as an operation of
  relative error at most `u` (the standard model, proved for round-to-nearest with p bits); C71-C73 are about it.
  Overflow, underflow and NaN are not part of that model.
  `INFINITY`/`NaN` appear only where the code can produce them (type `dbl`).
  `lemon::Tolerance<double>` is modelled by a parameter `eps` with LEMON's definitions:
  `positive a := eps < a`, `less a b := a + eps < b`. Theorems are for every `eps` in
  a stated range, in particular for LEMON's default 1e-10.
* **Undefined behaviour, exceptions, non-termination** are distinct outcomes of a
  result type (`Ok`, `UB`, `Throw`, `OutOfFuel`). Recursive C++ functions get fuel; running
  out is an explicit outcome that a theorem excludes.
* **Graphs.** A LEMON `ListDigraph` with `ArcMap<double>` is a list of valid node ids plus a
  list of arcs `(source, target, weight)`, newest first where iteration order matters.
* **Max flow.** LEMON's `Preflow` and the `psp/preflow` submodule are not in `/repo`. They are an
  oracle `mc` given the network and returning a value and the sink side. Theorems are
  stated `forall mc, MinCutSpec mc -> ...` (it returns *some* minimum cut and its value),
  `MinSrcCutSpec mr` (for the reverse worker of pdt_r: inclusion-minimal source side), or
  `MinSinkCutSpec mc` (in addition the inclusion-minimal sink side). The second premise is
  stronger than what LEMON documents: push-relabel labels only give *some* minimum cut
  (a node whose excess is gone keeps a stale label). It is used only where the statement says
  so (C06, *strict* increase of critical values in C08/C11/C13/C17, and the parametric algorithms); the
  other theorems about dt and psp_i hold for any minimum cut. A brute-force instance is proved to satisfy both, so the
  premises are satisfiable and examples can be computed.
* **Minimum norm base.** AIC::agglomerate calls `min_norm_base`; C42 and C50 take any `mnb` with
  `MinNormSpec mnb` (the exact point of minimum norm, for normalised functions). The premise is stronger than
  what the C++ achieves (it stops within `fn_tol` of first-order optimality). An exhaustive solver is proved to satisfy it
  (ExactMNB) and runs in the examples. C99 replaces the premise by an error bound `d` on the values of the base
  and says how small `d` must be; C100 gives the exact base for `min_norm_base` as modelled, with any precision `eps`, when `fn_tol` is small.
  `min_norm_base` itself is modelled in `MWolfe.v` (AIC.hpp 40-176): major and minor cycles, weights, stale weights,
  the stall counter, the stopping test and the factor `L` with its Givens rotations. Three library calls stay outside:
  `std::sort` is any order that sorts the weights, Eigen's `llt` solve is any function that satisfies the normal equations
  when the columns are affinely independent (`solves`; proved satisfiable by exact least squares, Lsq.v), and
  `std::sqrt` is a parameter of the factor (instance: rounded down to a multiple of 2^-50). C51-C53 hold for *any*
  factor `L`, because the code only uses it for the test that throws; C54 uses the factor as written.
* **Sets.** The submodule `psp/set` (`stl::CSet`, `stl::Partition`) is not in `/repo`. `CSet` is a
  strictly increasing list of naturals, `Partition` a list of such sets in lexicographic order
  (`std::set<CSet>`), `expand(T)` replaces the parts meeting `T` by the union of `T`
  and those parts. This is the documented meaning and the only one under which the callers work.
* **LEMON iteration.** `ListDigraph::ArcIt` follows out-lists (LEMON 1.3); erasing the current arc
  inside the loop (`contract` in psp_i.cpp/hpsp.cpp) visits every arc once. Node and arc iterators
  run newest first. `addNode` may reuse an erased id; only its freshness matters. Erasing the current
  *node* inside a NodeIt loop redirects the iterator to the free list (the link field is reused);
  digraph_copy does this, and MUtil models the table.
* **The caller's graph.** dt adds a source and a sink to the caller's graph and erases them; `MHost.v`
  threads the graph through every call and `HostThy.v` proves it is restored.
* **Specification.** `Spec.v` defines, independently of any model helper: partitions of a node
  list, crossing weight (arcs whose ends share no part), objective
  `h lambda P = crossing P - lambda * |P|`, optimality, refinement, and
  `IsPSP` (the principal sequence). Property theorems are stated in these terms.
* **Validation.** `Conform.v` evaluates on the model the expectations written in the repository's own unit tests
  (`test/test_*.h`, `example.cpp`): all hold. The tests with Gaussian weights are left out (their weights are
  transcendental numbers). These are tests of the model, not properties.

## 2. Properties and how each is approached

| id | modelled code | method |
|----|---------------|--------|
| C01, C02 | graph.h cut/partition value | sums over arcs with boolean indicators; swap of sums |
| C03 | make_dgraph, PSP ctor | list recursion; UB outcome for bad ids |
| C04, C05 | both DilworthTruncation classes, evaluate (PropEval) | feasibility + tight sets closed under union (uncrossing) |
| C06 | same, minimal sink oracle | tight sets closed under intersection |
| C07-C10 | DT::split, DT::run | strong induction on number of parts between Q and P; list sorting; exchange argument for nestedness |
| C11 | same | integrality gap: objective differences are multiples of 1/(D(n-1)) |
| C12 | Spec only | uniqueness from nestedness |
| C13 | DT::run(int) | same induction |
| C14-C17 | PSP_I | state machine (graph, tree, K); strong/sparse decomposition of the graph; counterexample for C16 |
| C18 | dt with the graph threaded through (MHost), PSP_I, HPSP | proved for dt, refuted for psp_i/hpsp by reruns on the contracted graph |
| C19 | HPSP | split computes a decomposition tree encoded in W/K (HPSPThy), the merge loop reads it back level by level (HPSPLoop), HPSPTop puts both together; refuted for solvers with arbitrary minimum cuts |
| C48 | HPSP::get_W, get_K | every inner tree node shows up as two neighbouring partitions (HPSPTop.steps_node) |
| C20-C22 | dt, psp_i, hpsp on raw arc lists | independence refuted by concrete inputs (vm_compute); proved after bringing the list to canonical form (CanonThy) |
| C23 | dt, psp_i, hpsp on n <= 1 | computation |
| C24 | PSP (MWrap) | objects as graph plus result lists, histories of calls; uses the exactness theorems of all five methods; refuted for histories containing psp_i or hpsp |
| C45 | main.cpp 30-80 (MWrap) | the lists of every method satisfy #partitions = #values + 1, by induction over each algorithm, for any solver |
| C44 | io_utility.cpp (MWrap) | size_t wrap-around and int overflow as UB outcomes |
| C25 | compute_lambda (MPMF) | scan of sorted breakpoints; piecewise-linear monotone function (LamThy) |
| C26, C27 | PMF::run, slice, PDT::run (MPMF) | one stage: chain of minimal minimisers and capped vectors, feasible and tight for every lambda (ParThy, SliceThy); merge loop and stage invariant (PDTThy). Weights on a grid 1/D and tolerance below 1/(100 D prod k!) make all lambdas exact |
| C28 | PDT re-run | refuted in general: the kept parameters make {j} a minimiser at stage 1, the threshold is NaN and the merge loop never advances |
| C47 | PMF::run, update_dig | refuted: an arc into j of weight below the tolerance gets a second sink arc |
| C29 | PMF_R::contract (MPMFR) | cut value identity: every arc classified by its end points, sums exchanged (PropPDTR) |
| C49 | PMF_R::run, slice, contract, update_dig, construct_new_update_base, PDT_R::run (MPMFR) | the network of every recursive call represents the stage objective restricted to an interval of sink sides (record `rep` in PMFRThy); both workers return the same set, so the pushes equal those of PMF::slice with a finite upper lambda |
| C30 | digraph_contract (MUtil) | exact formula for the weight a contraction loses, iff condition; refuted by a path of three nodes |
| C31 | digraph_copy (MUtil) | the node table of ListDigraph with its free list; the loop stops at the first erased node; iff condition |
| C32, C33 | PMF_R::slice threads (MThreads) | transition system over all interleavings with mutex, condition variable, interrupts, failures; invariant, progress, bounded length (ThreadsThy); C33 refuted for two failing workers |
| C34-C38, C46 | IC HC (MHC) | invariant of the union-by-rank forest (HCThy, HCInv): climbing over links heavier than g finds a representative, equal iff joined; the searches walk a tree (HCSearch); the linked list of getPartition represents the nodes not yet reached (HCPart) |
| C39 | CL | loop invariant: accepted edges join the same nodes as all edges seen, at every threshold; for every order std::sort may return |
| C40 | DigraphEntropy (MAIC) | exact value on every graph (arc sums exchanged); refuted for arcs that do not ascend in id: counted twice, never crossing |
| C41 | edmonds_greedy (MAIC) | marginal values along any sorted order; Abel summation (GreedyThy) |
| C42 | AIC::agglomerate, SF_, SF__ (MAIC) | level sets of the point of minimum norm are tight (MNBThy), coordinates equal to -gamma link exactly the parts of a tight family (AICStep, AggThy), the tolerance is invisible on a grid 1/D (grid_gap), the merges are followed through the union-by-rank forest (AICThy) |
| C50 | Agglomerative_PSP::run (MAIC) | strong and sparse partitions are optimal (AggThy), loop invariant over the agglomerations (AggRun), crossing weight from the entropy (EntThy); refuted for descending arcs and for weights closer than the tolerance |
| C51, C52 | min_norm_base (MWolfe) | linear algebra over lists of columns (LinThy: Steinitz, affine independence), invariant of the minor loop (WolfeThy: convex weights, exact projection, theta) and of the major loop (WolfeRun) |
| C53 | same | WolfeEnd: at eps = 0 each major cycle strictly decreases the norm, corrals are subsets of the n! greedy vertices, so none returns; finitely many projections give the tolerance. For eps > 0 see C98 |
| C54 | min_norm_base with its factor L, run() | refuted by computation: a minor cycle removing two columns rotates already shifted columns, L is not a factor any more and the next extension throws, while with one weight changed the same program returns the principal sequence; the stopping test is not invariant under scaling |
| C55, C56 | HypergraphEntropy, SF::mutual_info (MSources) | column maxima are submodular; AIC asks only for non-empty sets (`evaluates`), so C42/C50 apply although the empty set is undefined behaviour |
| C57 | factor L (MWolfe.lmat) | triangular solve as a squared distance (LThy), each rotation keeps all row products and shifts one row; refuted for two removals |
| C58 | AIC with min_norm_base as solver (AggSim, PropTol) | the functions met in a run come from the finitely many partitions, C53 gives a tolerance for each; the run equals the run of a solver mended to be exact, to which C50 applies |
| C43 | PMF::modify_flow, slice and run with flow maps (MWarm) | excess grows arc by arc when source arcs grow and sink arcs shrink; the run with warm starts equals the run from scratch because the inclusion-minimal minimum cut is unique |
| C59 | PMF_R::modify_flow (both), slice and run with flow maps (MWarmR) | invariant of the flow maps: a flow at its parameter (source-sink arc apart) using no arc that leaves its minimal sink side (WarmRThy); kept by contraction (WarmRCon) and by both workers through weak duality (FlowThy); then the cuts are those of C49 (WarmRRun). Maximum flows are found by augmenting paths with a test of the result, or from a min-cut solver by reducing capacities arc by arc (MTrim, TrimThy), so the contracts can be met. Refuted: acceptance at a terminal, parallel arcs |
| C60 | FiniteLinearEntropy (MFLS) | rows with dual vectors (FieldThy): membership in the row space is decided by a residual, all fibres of an independent list have the same size by translation, so the rank is unique; extending a basis of the intersection gives submodularity. Finite field: record with laws; instances Z/p and GF(4). PARI's `rank` is any function with `RankSpec` (met by an elimination) |
| C61 | ScalarGaussianEntropy over the reals (MGauss) | column Cholesky = pivots of Schur complements (GaussThy: `llt_main`); positive pivots iff positive definite (`posl_pd`), a pivot is the least prediction error (`given_min`), exchanging neighbours keeps the product of pivots (`posl_perm`), further conditioning lowers a pivot (`lnd_sub`) |
| C62 | GaussianEntropy (MGauss): row index vector and block assignment | the row index loop yields the start of every block (`row_idx_ok`, `put_blocks_ok`), so the stacked rows are the concatenation; then C61 with the Gram matrix, whose quadratic form is a squared length (`qf_rdot`) |
| C63 | PSP::PSP, ~PSP, run on a heap (MLife) | a static discipline (check) against the heap semantics: invariant that live objects own disjoint live blocks; leaks counted; copies refuted in general |
| C64 | main, PSP::run_agg_psp (MMain) | composition of C24, C45 and C50 along the options; string lemmas for the names; reader and opened files are parameters |
| C65 | counting copies of dt, psp_i, hpsp, pdt, pdt_r (MCost) | erasure lemmas (CostThy); induction over split; C07 bounds the number of critical values |
| C66 | psp_split_t, hpsp_split_t (MCost) | split reduced to a solver-free recursion on partitions (CostThy, rec_calls), bounded by induction (CostBound); star with weights eps (n+1)^i gives up one node per level (CostStar) |
| C67 | pmf_slice_t, pmfr_slice_t, pdt_loop_t (MCost) | at most two flows per cut of a stage by induction over slice; the cuts of stage j are a strictly decreasing chain between {j} and {0..j} (CostPDT) |
| C68 | dt_dil_run, dil_run (MDil) with the contract ApproxCutSpec instead of MinCutSpec | near-feasibility x(S) <= f(S) - lam + d is kept by every step without growth; a merged block B lacks at most (2|B| - 1) d, by submodularity (DilApprox); the contract follows from near_flow by summing net flows over the sink side |
| C69 | dt_run (MDT) | 3 n d < 1/(D (n-1)) makes a nearly optimal truncation exactly optimal at the level dt_gamma (level_gap), then the induction of C11 (ApproxThy) |
| C70 | psp_run (MPSPI) | the induction of C14/C15 asks of the truncation only TruncSpec (DecThy); contracted weights stay multiples of 1/D (sb_multiples), so TruncSpec follows from C68 (trunc_approx) |
| C71 | f_run, f_minimize, f_network and the rounding function rnd (MFloat) | fsum_near bounds the error of a loop of +=; each step of the truncation is a step of the ideal one with error fdelta (gstep_Inv, FloatDil); rnd_err for the rounding function |
| C72 | f_dt_run, f_split, f_gamma, f_h, f_evaluate (MFloat) | gamma_near, h_near, f_run_near bound the errors of one test of split, which then decides as in exact arithmetic (f_test); sorting rounded critical values keeps them close (isort_near) |
| C73 | f_dt_run_num, f_split_num (MFloat) | the same test lemma f_test, then the induction of C13 with optimal in place of finest |
| C74 | get_psp with its dictionary as an association list (MTreePsp) | invariant: after the level gamma the dictionary holds exactly the components of the edges with weight > gamma that are not singletons; components of a heap-ordered tree are optimal for lambda = gamma (TreePspThy) |
| C75 | g2d_points, g2d_edges, similarity (MDemo), psp_ctor (MWrap) | flat_map membership, C03 for the constructor, exp lemmas of the Reals library |
| C76 | f_psp_run, f_psp_split, f_contract, f_dil (MFloatP) | the state in floating point is related to an exact one (sim): same tree and clusters, labels within dlt, arc weights within a relative error that grows with the number of contracted nodes (contract_sim); at each level some exact truncation takes the same decision (level_trunc); different exact labels are so far apart that rounded ones are compared correctly (slope_gap) |
| C77 | f_hpsp_run, f_hpsp_split (MFloatH) | vm_compute on a witness found by random search, checked against every premise of C76_psp_i_double; the exact model hpsp_run returns the right sequence on the same graph (hpsp_tie5_double) |
| C78 | f_hpsp_run, f_hpsp_split (MFloatH), hpsp_loop (MHPSP) | the float run is matched with an exact tree (FloatHpsp): without ties the rounded truncation at a level that is split is the finest optimal one, W and K store the tree with labels up to dlt, distinct exact labels stay ordered, so psp_construct walks the stored tree (HPSPTop.read_run); tie_free is decided by enumeration for the examples (NoTie.no_tieb_sound) |
| C79 | f_pdt_run, f_pmf_run, f_pmf_slice, f_compute_lambda (MFloatT) | vm_compute on a witness found by random search; the exact model pdt_run returns the right sequence on the same graph (pdt_star4_double) |
| C80 | rnd, binary p (MFloat) | zround is monotone, the exponent is monotone, and at a change of exponent the power of two lies between (FloatMono) |
| C81 | f_pdt_run, f_pmf_run, f_pmf_slice, f_compute_lambda, f_network (MFloatT) | f_compute_lambda returns a nearly equal crossing (FloatLam), cut values of a nearly minimal cut and uncrossing (FloatPar), slice returns a chain whose members are nearly minimal on their intervals (FloatSlice), the merge keeps near-optimality and the bands of y stay near the exact ones (FloatPDT); NearExact turns near-optimality into optimality when values are multiples of 1/D |
| C82 | f_pdt_run, f_pmf_slice, f_compute_lambda (MFloatT) | vm_compute on a witness: compute_lambda returns a breakpoint at which the sum meets the target up to the tolerance, slice then finds it more than the tolerance below lambda_1; found by analysing the only case the proof of C81 leaves open and a search over last bits |
| C83 | pdt_run (MPMF) | f_pdt_near with unit roundoff 0: then slice cannot throw, because compute_lambda solves its equation up to eps on a function that decreases with slope at most -1 to the right of the result, and a flat piece would contradict the minimality of T_l (FloatLam.exact_lam, FloatSlice); the run of the floating-point model with exact operations is the exact run up to == (PdtEq) |
| C84 | pdtr_run (MPMFR) | pmfr_slice_ok turns each slice of PMF_R into the slice of PMF with a finite upper end; f_pdt_near_to is f_pdt_near for such an upper end (FloatSlice, FloatPDT), which the lambda_3 of PMF_R meets because it exceeds every point at which a line of the stage changes slope; loop_to carries the exact run over up to == (PdtrEq) |
| C85 | pdtrw_run (MWarmR) | pmfrw_run_res (WarmRRun) needs only that PMF::slice returns, which loop_to (PdtrEq) provides for arbitrary weights; the rejecting graph is ex85, evaluated with the solvers spin_L and spin_R (MTrim), which meet the contracts |
| C86 | pmfrh_slice, pmfrh_run, pdtrh_run (MElev) | slice_mem (ElevThy): every call leaves the heap as it was, or with extra blocks on top when it throws; slice_erase removes the heap |
| C87 | pmfrh_slice (MElev) | hstarts records the graph of every elevator a worker starts with; okst (ElevThy) is kept by slice_mem; refuted by evaluation on el_E |
| C88 | pdtd_run (MDebug) | pmfd_slice_eq (DebugThy): the sets of a slice are inclusion-minimal minimum cuts at lambda_1 and lambda_3 (best); minimum cuts shrink as lambda grows (best_shrink), differences of cut values are monotone in lambda (moved_diff) |
| C89 | pdtrd_run, pdtrwd_run (MDebug) | pmfrd_slice_same (DebugThy): both runs keep a graph that represents the same contraction (rep of PMFRThy) up to the capacity between source and sink, so the workers find the same sets and flow values that differ by the same constant as original_flow_value; with flow maps pmfrwd_slice_ok (DebugRThy) adds the same checks to the invariant of C59 |
| C90 | psp_rund, hpsp_rund (MDebug) | contract adds arcs from the smaller to the larger id (contract_gord, DebugThy), stages are in ascending order, so out_arcs is false; at the root a wrong arc makes it true |
| C91 | convert, toNetworkX (MLgf), on texts character by character | LgfThy: the lines of the text (convert_lines), then both loops by induction over the lines; the printed node numbers are distinct because decimal printing is injective |
| C92 | convert, lgf_read (MLgf), main_prog (MMain) | rows_convert, lgf_convert (LgfThy): token rows of the text, labels found by injectivity of decimal printing; then C64 |
| C93 | f_pdtr_run, f_pmfr_run, f_pmfr_slice, f_contract, f_upd, f_new_base, f_lam3 (MFloatR) | fr_slice_ok (FloatSliceR): by induction over the recursion the network at hand is the exact contracted one up to a capacity error that grows by one unit per contraction (frep, f_contract_ok), so its cuts are those of the stage up to e0; monotone operations keep the sets of one slice nested (lm_shrink); above lambda_3 the sink alone is nearly minimal (f_lam3_min). f_pdt_near_gen (FloatPDT) is the loop of C81 for any stage that returns such a chain |
| C94 | f_pdtr_run (MFloatR) | vm_compute on the graphs edge6 and star4 of PropFloatT, with a solver that augments paths; uniqueness of the principal sequence (psp_unique) and C27 for the second |
| C95 | f_dispatch (MFloatW) | C72, C76, C78, C81 and C93 give a weak sequence for each method; the weak sequence lists the principal one (collapse_listing), which is unique (psp_unique) |
| C96 | show_dbl, f_main, f_example (MShow) | an independent reader of decimal texts (ShowThy) inverts show_dbl: digits, point position and exponent; the rest is the rounding of the six-digit significand; the file follows from C95 |
| C97 | f_main_prog, read_double (MTextMain) | the reader of doubles is the exact reader followed by rounding (lgf_read_map), which is what C95 assumes of the stored weights; C96 gives the file |
| C98 | min_norm_base (MWolfe), agg_run (MAIC) | WolfeEps: every comparison with eps in a finite run keeps its outcome for small eps, unless the run with 0 is undefined (C52 excludes it); C53 bounds the run. The endless run: two states of the major cycle that follow each other (period_two) |
| C99 | agglomerate, agg_run (MAIC), merge (MHC); the solver is a parameter | AggNear: the run is kept next to the run with exact_mnb; both have the same forest, their critical values are within d, and two different grid values are more than fn_tol + 2d apart. Refutation by computation of two rounds and a state that repeats |
| C100 | min_norm_base (MWolfe), agg_run (MAIC) | WolfeAny: for every eps x is the projection on one of finitely many sets of greedy bases (mnb_points), so a small fn_tol separates the minimum norm base from all others (exact_tol); the run is compared with the run of a mended solver (gup) |

Each theorem has an `Example` next to it instantiating its hypotheses on a concrete graph.

## 3. Trusted base

* Coq's kernel (and `vm_compute`).
* `Print Assumptions` for every property theorem; "Closed under the global context" for all
  but C61, C62 and two theorems of C75 (C75_similarity, C75_documented_formula_refuted). Those are about Coq's real numbers and list, of the standard library:
  `ClassicalDedekindReals.sig_not_dec`, `ClassicalDedekindReals.sig_forall_dec`,
  `FunctionalExtensionality.functional_extensionality_dep`, `Classical_Prop.classic`.
* The reading of the C++ in the model definitions (each cites file and lines), the semantics of
  `stl::CSet`/`stl::Partition`, LEMON graphs and `Tolerance` stated above, the max-flow premise, and
  exact arithmetic in place of doubles (for `dt` and `psp_i`, C71-C73 and C76 replace this by the standard model of floating-point
  arithmetic, C77, C78 say what that arithmetic does to `hpsp` and C79, C81 what it does to `pdt`, with the contract `SinkSideSpec d n` for the max flows and
  `mono_ops` (proved for binary arithmetic, C80) for the operations; C93, C94 do the same for `pdt_r`, with `SinkSideSpecR d n` and `SrcSideSpecR d n` for
  the two workers and `mono_ops2` (`binary_mono2`); C95 puts the methods behind PSP::run (`f_dispatch`) under the same contracts; they need max flows more accurate than the tolerance, `2 n d < eps`, whereas LEMON's Preflow works with
  that same tolerance, so this stays a premise).
* C68-C70 weaken the max-flow premise from exact answers (`MinCutSpec`) to answers of bounded inaccuracy
  (`ApproxCutSpec`, implied by `near_flow`); that LEMON's Preflow meets `near_flow` for its tolerance is not proved.
* C65-C67: that the counting copies (MCost) log a max flow exactly where the program starts one; erasure
  (C65) shows that they compute the same, not that the log is complete.
* C99: the error bound of the minimum norm bases is a premise, and the comparisons of `agglomerate` are exact on the inexact values.
  C100 is about exact arithmetic and about runs that return; whether a run returns is not claimed there (C98 has runs that do not).
* C86, C87: `Preflow::elevator()` and `ReverseDigraph` are in missing submodules; that `elevator()` hands the ownership
  of the elevator to the caller is read off the `delete`s of the caller. Objects freed by destructors of locals are
  modelled as deleted on every exit of the function.
* C92: LEMON's reader of graph files is not in /repo; `lgf_read` (MLgf) is our reading of the format. C64 has the reader as a parameter.
  In C91, C92 str() of a double and its parsing are parameters that are assumed to be inverse to each other.
* C96: that operator<< of a default stream is %g with six digits of the exact value, ties to even (`show_dbl`, MShow), is taken from the C and C++ standards;
  operator<< of partitions is in a missing submodule, so a partition is an abstract line of the file.
* C97: capacities in files are decimal numbers as `read_number` (ShowThy) reads them, rounded to nearest; other spellings that operator>> accepts are not covered.
* C88-C90 are about builds with `_DEBUG` (MDebug); all other models are of builds without it, except that a rejected flow map
  is a throw in MWarm and MWarmR.
* Not modelled: memory allocation except the blocks of PSP objects (C63) and of PMF_R (C86), parsing of the command line (C64 starts from the options), the time reported, the points drawn by `utility/gaussian2Dcase.py` (lines 57-70),
  boost/std thread implementation (only its interleaving semantics), the labels inside the elevators passed between
  max-flow workers (C87 follows only which graph each was made for), file-loading tests. In C61/C62 Eigen's LLT is exact Cholesky factorisation over
  the reals (rounding decides in the program whether a nearly singular matrix is rejected).

## 4. Reading seeded/LOG.jsonl

* An attempt edits one definition in a scratch copy and rebuilds with `make -k`; coqc stops at the first error of each file
  (`first_errors`), and files importing a broken file are not rebuilt.
* Correction: up to EP10 the field `theorems_failed` also listed every theorem of the files that were not rebuilt (9922 entries).
  It now lists only theorems that are, or use, a lemma of `first_errors` (3507 entries), by the references in the .glob files of the
  present sources, not those of the day of the attempt. The others are in `theorems_not_rechecked`: nothing was learned about them.
* `claims_undetermined` names claims that had been counted as failing only because of such a file (27 attempts). These attempts
  were repeated with every failing lemma stubbed in the scratch copy, so that the proofs of the claim run; `retest` gives the outcome:
  25 claims do fail, R14 had edited an example solver (see its note), and W32 showed that C54 was too weak (tightened).
* Lines with `method` were made in that way from the start, rebuilding only the files of the claim.
* A broken lemma shows that the proof as written does not go through for the edited program, not that the theorem is false of it.
