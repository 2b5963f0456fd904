# Formal model of drjdlarson/gasur in Rocq (Coq 8.16.1)

This file says, for every property in `properties.jsonl`, what is modelled and
how the property is proved (or refuted), and what is trusted.  It was written
before the proofs and is kept current as the development grows; the status of
every property is in `MANIFEST.json`.

## 1. Shape of the development

All sources are in `rocq/theories`.  Per area of the code there are up to four
files:

* `XxxModel.v`   - shallow, executable (where no transcendental function is
  involved) Gallina transcription of the Python functions; every definition
  cites the file and lines in `/repo` it models and the simplifications made.
* `XxxSpec.v`    - the small specification a reader needs in order to read the
  theorem statements; it does not use the model's helpers.
* `XxxProofs.v`  - lemmas.
* `XxxProps.v`   - only the property theorems (closed by `exact lemma`),
  `Print Assumptions`, and `Example`s showing hypotheses are satisfiable.

Python exceptions are values of `result` (`Ok v` / `Err e`, `Base.v`); a loop
that is not structurally bounded runs on fuel and yields `Err OutOfFuel`, and
the theorems show that this result does not occur.

Areas: `Hung` (assign_opt), `Murty`, `Bfm` (Bellman-Ford-Moore), `KShort`
(k_shortest), `AStar`, `Gibbs`, `Ospa`, `Phd`, `Cphd`, `Glmb`, `Jglmb`,
`Guid` (distributions.py and guidance.py).

## 2. Numbers

* Graph algorithms, PHD filter: exact rationals `Q` (every float64 is a
  rational).  `+inf` is an explicit constructor `Inf` of `ext`.
* OSPA, CPHD, GLMB, JGLMB: real numbers `R` where roots, logarithms and
  exponentials occur.
* Rounding of floating point operations, `nan` (except where a property is
  about it) and overflow are NOT modelled.

## 3. Trusted base

* Coq 8.16.1's kernel (and its `vm_compute` conversion), the standard library.
* Axioms: `Print Assumptions` output is printed under every property theorem.
  Theorems over `Q` are closed under the global context.  Theorems over `R`
  list the standard library's axioms for real numbers
  `ClassicalDedekindReals.sig_forall_dec`,
  `ClassicalDedekindReals.sig_not_dec`,
  `FunctionalExtensionality.functional_extensionality_dep`
  (and for some analysis lemmas `Classical_Prop.classic`).
  There are no other axioms.
* The reading of the Python code: the model was transcribed by hand; the code
  cannot be run in this sandbox.
* External calls are function arguments of the model, or are modelled by
  contract; each contract is a visible premise or a cited definition:
  `np.argsort` / `np.argmax` (a sorting permutation, any tie order),
  `scipy.optimize.linear_sum_assignment` (a minimum cost assignment),
  `np.random` (an arbitrary stream), the inner single-target filter's
  `predict` / `correct` (arbitrary functions), `la.inv`, `la.cholesky`.

## 4. Modelled / not modelled

Modelled: `utilities/graphs_subroutines.py` (all), `utilities/graphs.py` (all),
`utilities/sampling.py` (gibbs), `utilities/distributions.py` (all),
`swarm_estimator/tracker.py` (algorithmic parts of the PHD, CPHD, GLMB, JGLMB,
SMC and STM classes, OSPA, and the data drawn by the plots, C212-C219),
`guidance.py` parts named by C64-C70 and C146-C154, C195.

Not modelled: colours, legends, error ellipse shapes and measurement markers of the `plot_*` functions (the points they draw are modelled, C212-C219), warnings, logging,
numpy dtypes/broadcast errors other than the ones a property is about, Python's
recursion limit unless stated, memory/time.

## 5. Plan per property

* **C01** Hung: transcribe assign_opt and steps 2a-5; invariant (zero stars form a matching, dual potentials, cover discipline, prime history); optimality by LP duality; termination by a lexicographic measure.
* **C02** Hung: same run on the matrix with the big-M value; exchange/counting argument that big-M dominates all finite sums, so maximal cardinality first, then cost.
* **C03** Hung: fuel given by the measure; theorem that neither OutOfFuel nor IndexError is returned; Err exactly for a negative finite entry.
* **C04** Murty: invariant on the answer list and node list (every node matrix realises only extensions of its prefix constraints).
* **C05** Murty: cost of the padded/shifted matrix vs original matrix.
* **C06** Murty: partition invariant - every feasible assignment is returned or realisable in exactly one open node, whose cost is optimal by C02.
* **C07** Murty: direct.
* **C08** Bfm: invariant D v >= D(p v)+w for the predecessor tree, acyclicity from absence of negative cycles.
* **C09** Bfm: after r rounds D v <= cost of every walk with <= r arcs; cycle removal.
* **C10** KShort: DAG path <-> subset bijection and C08/C09.
* **C11** KShort: bounds on the loop; every loop iteration appends one path.
* **C12** KShort: DAG path increasing nodes; invariant over the candidate list.
* **C13** KShort: refuted by witness (vm_compute).
* **C14** KShort: refuted by witness.
* **C15** KShort: refuted by witness (cost 0 treated as missing link).
* **C16** AStar: invariant of the open/visited lists.
* **C17** AStar: closed-set argument.
* **C18** AStar: refuted by witness for unit cost (the heuristic overestimates diagonal moves). AStarOpt/AStarProps2: the bound max(cost, sqrt 2)/cost for every maze, by the invariant that every closed cell's g is within the factor (no node is ever reopened), hence shortest when cost >= sqrt 2.
* **C19** AStar: refuted: returned value is the largest heuristic value on the path.
* **C20** Gibbs: invariant per draw, random stream is an arbitrary function.
* **C21** Gibbs: np.unique modelled as sorted dedup.
* **C22** Gibbs: first row of the sample.
* **C23** Ospa: transposition of the assignment problem.
* **C24** Ospa: bounds on clipped distances; zero-cost identity assignment.
* **C25** Ospa: theorem for p=1, refutation for p=2 (sum of p-th roots).
* **C26** Ospa: refuted (prefix slice distances[0:m,0:n]); theorem for prefix-occupied slots.
* **C27** Ospa: refuted (Sigma used instead of its inverse).
* **C28** Ospa: window dependence by extensionality.
* **C29** Ospa: refuted (nan reaches linear_sum_assignment -> ValueError).
* **C30** Ospa: direct from the model for all inputs.
* **C31** Phd: map/append sums.
* **C32** Phd: per-measurement normalisation.
* **C33** Phd: invariant over operation lists.
* **C34** Phd: filter.
* **C35** Phd: invariant of the merge loop with weights marked -1.
* **C36** Phd: refuted (merged covariance has no spread term).
* **C37** Phd: argsort by contract (sorting permutation).
* **C38** Phd: round-half-even model; refuted part for weight exactly 0.5 with threshold 0.5.
* **C39** Phd: gating loop = filter.
* **C40** Phd: refuted by a 2x2 witness (L^T instead of L).
* **C41** Cphd: normalisation over R.
* **C42** Cphd: refuted (sign of log((i-j)!), missing last term).
* **C43** Cphd: refuted (0*log 0 is nan), with explicit nan in the model of the exponent.
* **C44** Cphd: loop invariant.
* **C45** Cphd: refuted by witness.
* **C46** Glmb: normalisation after each step over R, invariant over operation histories.
* **C47** Glmb: theorem after correct/prune/cap, refuted after predict.
* **C48** Glmb: invariant over histories.
* **C49** Glmb: invariant over histories.
* **C50** Glmb: Murty validity (C04) used for the association step.
* **C51** Glmb: fold over hypothesis keys.
* **C52** Glmb: renumbering lemma.
* **C53** Glmb: filter and normalise.
* **C54** Glmb: argsort by contract.
* **C55** Glmb: invariant.
* **C56** Glmb: refuted (aliasing of [[]]*n).
* **C57** Glmb: argmax contract.
* **C58** Glmb: termination for thresh>0; refuted for thresh<=0.
* **C59** Glmb: record model of save/load; refuted for two attributes, theorem for the rest.
* **C60** Glmb: heap model of the shared list; refuted.
* **C61** Glmb: invariant.
* **C64** Guid: list sums.
* **C65** Guid: heap/caller list returned explicitly; theorem for the targets, refuted for the side effect.
* **C66** Guid: fold invariant.
* **C67** Guid: fold invariant over measurements.
* **C68** Guid: double sums invariant under Permutation.
* **C69** Guid: direct, over all parameter values.
* **C70** Guid: refuted (attribute mismatch).
* **C71** Gibbs: inverse-transform interval of a draw.
* **C73** Phd: refuted (attribute overwritten by the base constructor); consequence proved for all inputs.
* **C72** Ospa: array set-up of the tracker wrapper; IndexError witness and exact condition.
* **C74** Ospa: Minkowski for the core distance; OSPA as c - gain/max, composition of two optimal assignments through the middle set, counting argument.

Axioms of the OSPA theorems (Print Assumptions in OspaProps.v): the three of the standard library's reals above plus `Classical_Prop.classic` (used by the standard library's real analysis: ln/exp/Rpower).
* **C75, C76** Cphd: closed form of correct; witness; induction over the upsilon sums for rate 0.

Axioms of the CPHD theorems: the standard library's real axioms and `Classical_Prop.classic`, as for OSPA. A float nan or +inf is an error value of the model where it arises (CphdModel.v header); -inf is kept because np.exp maps it to 0.
* **C77, C78** Cphd: unfolding of predict/correct, induction over the birth list.
* **C64-C70, C79-C87** Guid: guidance.py over R; external: mvn.pdf (contract: the normal density), la.inv/det/eig (contracts in the statements), chi2.ppf, BaseELQR (not modelled; of iterate only the control update precondition and the trajectory cost are modelled). Proofs: closed forms of the double sums, induction over the measurement loop with the set of still available objects, congruence by orthonormal matrices.
* **C88** Glmb: totality by induction over cycles, k_shortest/Murty total by contract.
* **C89** Glmb: refuted; extinction is permanent (induction over histories), rounding of requests extinguishes.
* **C90, C91** Glmb: refuted for every filter (cost 0 is no edge in k_shortest).
* **C92, C93, C94** Glmb: logarithms and normalisation unfolded, sums over the considered combinations; Murty/k_shortest costs by contract, contracts met by exhaustive reference functions (GlmbProps4.v).
* **C95** Glmb: table structure.
* **C96** Glmb: extract_helper inverted pointwise.
* **C59, C97** Save: instances and saved states as finite maps from attribute names to values (object identities), save and load line by line, attribute lists of the spec written from the constructors; inner filters by contract (filters_ok). Proved by symbolic execution of the assignments.
* **C60** Snap: heap of hypothesis objects refining GlmbModel (proved: C60_heap_refines_glmb); frame property of every operation (only objects the filter refers to are written, new references are to old ones or new objects).
* **C62, C63, C98-C106** Jglmb: the class's own predict and correct over GlmbModel; gibbs re-modelled over R (GibbsReal) with an arbitrary random stream in [0,1), its contracts proved (JglmbGibbs), not assumed. Invariant JInv: the table is new-born tracks followed by the tracks the hypotheses index. Bayes theorem by unfolding logarithms; merging by C51. Not modelled: the gating computations (unreachable: C101), warnings, plots.

## C107-C109

C107: invariant `ds` (the sorted track sets are all different) over every operation, GlmbDistinct.v: merging keeps one hypothesis per hash of the sorted set; a correction maps (hypothesis, row) injectively to track sets because indices are taken modulo the table size; compaction renames injectively; pruning and capping select by position.
C108: induction over the history, GlmbProps5.v. C109: the cumulative sums of the kept columns, GlmbProps5.v (real version of C71).

## C110-C118: SMC-GLMB (particle filters inside)

SmcModel.v models `_SMCGLMBBase` and `SMCGeneralizedLabeledMultiBernoulli` (tracker.py:3247-3430) over GlmbModel: what the class overrides (birth states, average survival and detection probabilities, inner predict and correct) and the inherited functions that see it. External: the particle filter (gncpy), as functions from clouds to clouds; contracts pf_ok, pf_works; the survival and detection functions with their extra arguments, arbitrary.
C110, C111, C116: invariants of GlmbProofs/GlmbInv/GlmbTotal carried over the new predict and correct. C112, C113: invariants one_cloud, cloud_ok over histories. C114, C115: logarithms unfolded as for C92, C93. C115, C117, C118: refuted by concrete histories (SmcDemo.v, SmcDemo2.v). Not modelled: extract_most_prob_states of this class (only a warning).

## C119-C123: GLMB on the library's own graph algorithms

The GLMB models take k_shortest and murty_m_best as functions with contracts, because the models of the graph algorithms compute with rationals and the filter's costs are logarithms. mk_real.py (committed) derives from HungModel, MurtyModel, BfmModel, KShortModel, their Spec and Proofs files the same files over the reals (R*.v, committed; RBase.v is written by hand): a renaming of the number type, its comparisons and lemmas. LibAlgs.v proves that the real versions meet the contracts murty_ok, murty_cost, murty_best, murty_total, kshort_ok, kshort_zero, kshort_none, and kshort_total on vectors without entries nonzero but below epsilon (IndexError otherwise), and that reported costs are finite. LibProps.v and LibSmc.v instantiate the filter theorems (with_lib, swith_lib); the only assumption left on k_shortest is that np.argsort sorts (any order of ties). Totality: predict depends on k_shortest only through its values, so a run equals the run with a totalised k_shortest or ends in IndexError.
LibTrans.v: the real k_shortest on rational inputs equals the rational one (so it can be evaluated); LibPredict.v uses it for the end-to-end refutation C123.

## C124-C128: attributes re-assigned between calls; STM-GLMB

GlmbVary.v: a history is a list of calls each with its own environment (inner filter, rounding, graph algorithms) and configuration (attributes); vrun executes it. Every single-call invariant of the GLMB proofs is independent of configuration and environment, so it lifts. JglmbVary.v does the same for the joint filter.
StmModel.v: STMGeneralizedLabeledMultiBernoulli (tracker.py:3188-3244) overrides _init_filt_states only. Its births are modelled by a birth distribution (mean, scale, dof) and the covariance value the working filter has at that moment (a parameter of each call); the rest is the GLMB model instantiated with a covariance type that also records where the covariance came from (ghost).

## C129-C130: SMC joint GLMB

SmcJModel.v composes the two models as Python's method resolution does for SMCJointGeneralizedLabeledMultiBernoulli (tracker.py:3702-3708): predict/correct of the joint filter, track initialisation, prediction and correction of the SMC base class. SmcJProofs/SmcJProps lift the joint filter's invariants (SJRInv also carries the particle weights). C130 is refuted: the joint correct uses the scalar attributes prob_survive and prob_detection (3580-3592), so for scans without measurements the functions cannot influence the hypotheses, shown for all states.

## C131-C135: mixtures; STM joint GLMB

MixModel.v: GaussianMixture and StudentsTMixture (distributions.py:16-165): the pdf loop over zip, numpy's Generator.choice (argument checks, normalised cumulative sums, searchsorted), the dof attribute as a number or a list. scipy's component densities and draws are parameters. Not modelled: that StudentsTMixture.sample sets the generator of scipy's module-wide object (line 153) beyond the definition of tsample.
StmJProps.v: C128 instantiated with the STM surroundings of StmModel.v.

## C136-C138: OSPA of every order

OspaOrder.v proves Minkowski's inequality for finite sums, padding of assignments to a square with dummy objects, composition of full assignments and the triangle inequality of the p-norm combination. OspaProps2.v instantiates it with the values calculate_ospa reports. For the Hellinger core la.inv and la.det are only assumed on 1 x 1 matrices (scalar_inv, scalar_det).

## C139-C141: PHD histories

PhdHist.v runs the PHD model over histories of (attributes, call) pairs. The invariant is: lists aligned, weights non-negative, every covariance in a class `good` the user's prediction and correction keep, and merging keeps because averages plus spread stay in the class (cov_class). pos_def_class proves the class of positive definite matrices qualifies.

## C142-C145: clutter-free PHD, CPHD histories, PHD over the reals

mk_real.py also derives the PHD model, its specification, proofs, property theorems (suffix _real) and histories over the real numbers (RLists, RPhdModel, RPhdSpec, RPhdProofs, RPhdProps, RPhdHist; py_round is redefined with Int_part). CphdHist.v runs the CPHD model with the inherited cleanup taken from RPhdModel and proves totality over histories; its example uses a Gaussian likelihood. PhdClutter.v characterises when the PHD correction is defined.

## C146-C152: the controller's main loop

ElqrModel.v models ELQRGaussian.iterate line by line (control updates with numpy's row assignment rules, forward pass, final quadratisation, backward pass, cost evaluation on the aliased x_starts, convergence test), final_cost_function and quadratize_non_quad_state, on top of GuidModel.v. BaseELQR (forward_pass, backward_pass, quadratize_final_cost, base final_cost_function), get_hessian and get_jacobian are parameters because gncpy is not in the repository. ElqrSpec.v holds the vocabulary (settled costs, closed loop), ElqrProofs.v and ElqrInit.v the invariants, ElqrProps.v the theorems.

C153, C154: ElqrPasses.v proves that a turn satisfies the recursion equations of ElqrSpec.turn by invariants over the forward and the backward loop.

C155, C156 (floating point): FltModel.v is assign_opt with every +, -, * replaced by an operation of a parameter; with exact operations it equals the model of RHungModel.v (rounded_model_exact). FltHung.v carries a backward-error invariant through the algorithm: after t updates the working matrix equals cost - row potential - column potential up to an error that grows linearly in t (one rounding per update and entry, magnitudes bounded by monotone potentials), so the zeros selected at the end are complementary up to that error. FltSpec.rounds is the contract on the arithmetic; FltIeee.v proves it for IEEE binary64 with Flocq's FLT format and round-to-nearest-even (Flocq adds no axioms: Print Assumptions lists only sig_forall_dec, sig_not_dec, functional_extensionality_dep, classic of the standard library), and ties it to Flocq's bit-level b64_plus, b64_minus, b64_mult.

C157, C158: FltMurtyModel.v is murty_m_best with rounded operations. The shift cm - x rounds each entry once, so the search works on an exactly shifted matrix of slightly different costs (FltMurtyTop.M'); the combinatorial lemmas of RMurtyProofs.v apply to it unchanged, and FltMurty.v redoes the loop invariant for a solver that is correct up to d1 (reported cost) and d2 (optimality).

C159-C161: FltGibbsModel.v is gibbs over any number type, with np.sum modelled as numpy's pairwise summation (blocks of eight accumulators up to 128 elements, recursive halving above) and np.cumsum from left to right. FltGibbs.v bounds every order of summation by (1+u)^n; FltGibbsDraw.v derives the error of the histogram edges and that the last edge is at least 1 - 2 n 2^-53 (exactly 1 below eight weights); FltGibbsTop.v lifts this through the sweeps. The random number in C161 is a value the generator returns with probability 2^-53 per draw; FltGibbsDemo.v replays the failure with SpecFloat.

C162-C164: GibbsChainSpec.v specifies a systematic-scan chain by a function X(iteration, coordinate); the proofs read X off the model's loops and use C71/C160 for each step.

True parts of refuted properties: GuidProps2.v (C82-C84), CphdProps2.v (C75), LibPositive.v (C89-C91 with the library's k_shortest).

C165, C166 (OSPA in floating point): FltOspaModel.v is calculate_ospa with every operation rounded (rnd64 of FltIeee.v). FltNear.v keeps multiplicative error bounds [near k x y] (factor (1+2^-53)^k both ways), closed under products, powers, roots, minima, sums and minimisation over assignments; FltOspa.v bounds the core distances, FltOspaStep.v one time step, including the rounded exponent 1/p. Not modelled: overflow/underflow (excluded by moderate_cut, moderate_pair), the Hellinger and Mahalanobis cores in floating point, OSPA2 in floating point.

C167-C169 (PHD filter in floating point): FltPhdModel.v is predict, correct, merge and cap with every operation on weights, merged means and merged covariances rounded. FltPhd.v adds an absolute term to the error relation of FltNear.v ([nears k eta], for underflow) and bounds predict and correct; FltPhdMerge.v bounds signed sums and weighted averages and follows the merge loop with the invariant of RPhdProofs.v. External: inner filter, gate, la.inv, the rounded distance test, np.argsort, the order of Python's sum (good_sum). Not modelled: overflow.

C170-C172 (GLMB probabilities in floating point): FltGlmbModel.v is _set_pred_hyps, _clean_predictions, _calc_card_dist, _prune and _cap with every operation on probabilities rounded; np.sum adds pairwise. FltGlmb.v shows that pairwise summation is at least each of its terms (so quotients stay below 1) and bounds rescaling; FltGlmbPred.v follows the products and the merge loop. External: the hash, np.argsort. Not modelled in floats: log-domain hypothesis weights, Murty and k-shortest.

C173-C175 (shortest paths in floating point): FltBfmModel.v is bfm_shortest_path and k_shortest over an arbitrary addition of costs; FltBfm.v redoes the invariant of BfmProofs.v for any addition that is monotone in the accumulated cost, with running sums in place of exact costs, provided closed walks never shrink the accumulated cost. add64 is monotone; acyclic graphs and non-negative links satisfy the proviso, but absence of negative cycles does not (refuted). FltBfmErr.v bounds the rounding errors.

C176-C178 (assignment in floating point): FltHungModel.v is graphs_subroutines.py 9-255 with every addition, subtraction and product rounded to double; where a result would leave the range of finite doubles the model stops with an error (the theorems show when it does not); Python's recursion limit is not modelled. FltHungGen.v redoes the loop argument of RHungProofs.v for a cost matrix that changes with every rounding (the rounded matrix is the exact reduction of a perturbed cost matrix), FltHungErr.v bounds the perturbation, FltHungGrid.v shows there is none on a grid.

C179 (recursion limit): HungRecModel.v is assign_opt with a count of the frames the interpreter still grants; HungRecProofs.v bounds the number of step 4s and step 5s of a run (n - 1 phases; a phase that starts with k stars has at most k step 5s, because every row, or every column of a tall matrix, keeps a zero). The counterexample is evaluated by vm_compute on a version that stores the arrays as tables, proved equal (functional extensionality).
- C13/C14 true parts (KShortTrue.v, KShortProps2.v): candidate invariant `costrel` (a stored candidate's cost is that of its states plus at most one dropped state), and exactness of the first deviation round.
- C42 complete characterisation (CphdThin.v): closed form of predict for every prior, and an iff for when it is binomial thinning (convolution with the Poisson kernel is one-to-one; the top occupied cardinality fixes the proportionality constant at 1).
- C138 in every dimension (HellSpec.v, HellDet.v, HellProps.v): positive definite matrices are reduced to their pivots (LU by Schur complements), so la.det needs only a contract (multiplicative, diagonal product for triangular matrices); det A det B <= det((A+B)/2)^2 with its equality case by induction on the dimension (Schur complements of the average differ from the average of the Schur complements by a rank-one matrix).

LibBelow.v (C90, C91 below 1/2) uses the second answer of k_shortest over the reals; RKShortTrue.v and RKShortProps2.v are generated by mk_real.py from the rational files (C14).

C180 (expected births of CPHD): CphdBirth.v. C42 says what the predicted distribution is for the sum b of the first weights (CphdSpec.first_weights); from a prior without objects the ratio of the probabilities of one and of no object identifies b.

C181, C182 (records and properties of the PHD filter): PhdRecord.v, by induction over histories (hrun of PhdHist.v); the report of a mixture is stated with rounding to nearest even, not with the model's extract.

C14, C92, C123 (second answer): KShortSecond.v proves that the second path of k_shortest is exactly the second cheapest set (the deviation found first is never one that loses a state), RKShortSecond.v is its generated port to R, and LibSecond.v uses it to prove the GLMB prediction with the library itself when at most two sets are requested at a time.

C114, C122, C183 (SMC-GLMB with the library): LibSmc2.v. predict depends on k_shortest only through its answers on log-odds (spredict_ext); replacing it by a total function, or by one that is exact for two requests, reduces the claims to C116 and C114. C183 is C89 for the SMC filter.

C58 (exact answer): GlmbMost2.v. Invariant of the loop: the state is the original one with the probabilities of the indices already returned set to zero; map_index picks a largest remaining one of the most probable cardinality, or index 0 when all of those are zero.

C184, C185 (CPHD records): CphdRecord.v, induction over hruns of CphdHist.v as for C181; C185's count from C44 by splitting the sorted components at the stopping position, the counterexamples from the Poisson prediction of a new filter (C42, C180).

C186, C187 (newest time step): GlmbNewest.v. The record of the newest time is the column of the extracted histories at that index (put_all_out); those kept from earlier end before it (invariant of C55), those of the chosen hypothesis end at it (C61). Before cleanup they end one past the lists, so put_all cannot succeed (C187).

C188, C189 (newest time step, other classes): NewestAll.v, cases in NewestDemo.v. cleanup and extract_states are inherited, so one lemma (newest_clean) covers all classes from the facts of the state after correct: positive probabilities, matching cardinality distribution, histories one longer than the time index, recorded tracks inside the lists (an invariant of every run, sxl_run / jxl_run / sjxl_run).

C190 (aligned outputs, other classes): AlignAll.v, cases in AlignDemo.v. Invariant over runs: recorded labels pairwise different, every hypothesis has tracks of different labels (LInv / JLInv), and for the joint classes the table a hypothesis refers to is the whole table except between predict and correct.

C191, C192 (joint filters and hypotheses): JointAlive.v. The sampler's start (every track in its own missed column) is among the samples (sampler_start), decodes to all births and all tracks, and those table rows are never dropped; merging keeps the track set up to order (hash contract).

C193 (most probable states of the joint filter): JointMost.v; the proofs of C58 factored over the Extractable invariant (most_prob_ends, most_prob_exact, most_prob_diverges), which holds after every cycle of the joint filter.

C194 (mass against mean of the CPHD correction): CphdMass.v; e_j of a list with one entry deleted, summed over the deleted entry, gives (j+1) e_(j+1) (esym_delete), hence n Upsilon0(n) = tot q Upsilon1(n) + sum_z xi_z Upsilon1(Z without z)(n) (upsilon_count); with C45's exact form of the correction both sides follow.

C195 (coordinate frame of the density based cost): GuidFrame.v; from the closed form of C68 (cost_frame: any change of frame keeping densities, distances to the centre and largest variances keeps the cost); translation and orthonormal maps instantiate it, a rational rotation refutes the general claim.

C196, C197 (order of measurements in the PHD filter): PhdOrder.v (every operation as a function of the list of components, so a simulation up to permutation carries over whole histories; the gate through C39), PhdOrderMerge.v (all_merged of C35 is deterministic when weights differ; the heaviest k components are unique), PhdOrderRef.v (rational witness for ties).

C198 (order of measurements in the CPHD filter): CphdOrder.v (elementary symmetric functions and the inner products built from them are permutation invariant; leaving one measurement out commutes with permuting the others; refuted by the covariance bug of C75).

C199 (frame and unit of OSPA): OspaFrame.v (every entry of the distance matrix is multiplied by s, the least assignment cost by s^p, so the optimum chosen by the solver may differ but the components scale by s).

C200 (monotonicity of OSPA): OspaMono.v (the power mean grows with the order, by the tangent inequality p x^(p+1) - (p+1) t x^p + t^(p+1) >= 0 proved by induction; applied to the optimal assignment of the larger order).

C201 (numbering in the assignment algorithms): MurtyNumber.v (a renumbering moves feasible assignments one-to-one at equal cost; the k-th cost of an m-best list is determined by the feasible set, by counting).

C202 (OSPA(2) against OSPA): OspaStatic.v (the tracks of a window without change are the objects of the last time; the mean of equal distances is that distance; both solvers return an optimum of the same matrix).

C203 (frame of the PHD filter): PhdFrame.v (every function of the PHD model commutes with the rewriting; merging because the moment-matched mean and covariance are linear and the Mahalanobis form is kept; the whole history by induction).

C204 (order of the measurements, GLMB): GlmbOrder.v (the costs of the m best assignments of a matrix and of the matrix with permuted columns are equal: a pigeonhole argument from C06's contract on both sides; then through normalisation, cardinality and compaction).

C205 (order of the measurements, SMC-GLMB): SmcOrder.v (as C204, on the particle version's own track update and per-track detection averages).

C206 (frame of the GLMB filter): GlmbFrame.v (every function of the GLMB model commutes with the four maps; induction over the calls).

C207 (frame of the JGLMB filter): JglmbFrame.v (the overridden functions commute with the maps of C206; induction over the calls).

C208 (frame of the SMC-GLMB filter): SmcFrame.v (every function of the SMC-GLMB model commutes with the maps; inherited functions by C206's lemmas; induction over the calls).

C209 (frame of the SMC joint GLMB filter): SmcJFrame.v (C207's argument with the particle functions' lemmas of C208; induction over the calls, each with its own attributes).

C210 (frame and units of the CPHD filter): CphdFrame.v (every function of CphdModel commutes with the maps; the factor of the likelihoods cancels against the clutter density in xivals and in the detection weights; errors included).

C211 (order of the components in the CPHD filter): CphdComps.v (on a mixture given by a list of triples every function of CphdModel is a sum over or a map of the components; extraction visits the components in strictly decreasing weight, a list determined by its elements).

C212-C214 (plots): PlotModel.v models the points handed to matplotlib by plot_card_history (both classes), plot_card_dist and the lines of plot_states_labels; PlotProps.v (C212: induction over the history; np.std bounded by sum of squares), PlotLabels.v (C213, C214: the alignment invariant of C55/C190, list.index on duplicate-free labels). Colours, legends, error ellipses, truth and measurement markers are not modelled.

C215 (plot_states of the PHD filter): PlotPhd.v (model of the loop over _states and _covs; induction over the history shows both lists are the projections of one list of reported pairs).
C215 for the CPHD filter (inherits plot_states): PlotCphd.v, the same loop over the CPHD lists; a component is shown at most once because argsort is a permutation.

C216, C217 (debug and distribution plots of the CPHD): PlotCount.v (the counter of the extraction loop is the length of the list of states, carried through all histories; C217 from C143).

C218 (true trajectories): PlotTruth.v (the array of true states column by column, for both classes).

C219 (animation): PlotAnim.v (the update function as a step on what is shown; any sequence of frames; records of C181).

C220 (GLMB cardinality chart): PlotGlmb.v (C46, C47 and the invariant that the stored distribution matches the hypotheses).
