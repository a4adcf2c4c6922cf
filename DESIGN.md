# Formal model of inducer/boxtree in Rocq (Coq 8.16.1)

## Approach

The model is a set of total, computable Gallina functions that follow the functions and OpenCL
kernels of /repo one by one.  Each definition carries a comment with the file and lines it models
and the simplifications made.  Three kinds of files are kept apart:

* model files (`Tree`, `Walk`, `Traversal`, `Fmm`, `TreeOfBoxes`, `TreeBuild`, `BuildFront`, `Tools`,
  `Comm`, `AreaQuery`, `Classes`, `Partition`, `LocalTree`, `Distributed`, `Cost`, `ParticleLists`,
  `Monoid`, `FmmGen`, `Layout`, `Floats`, `DistributedGen`, `CommFlat`);
* specification files (`Spec*.v`): small definitions in the terms of the properties (cells as sets of
  points, ancestors, permutations, operation counts), independent of the model's helpers;
* proof files, and `Props*.v`, which contain only the final theorems with short proofs, examples
  that the hypotheses are met by non-trivial concrete cases, and `Print Assumptions`.

A property that is false for the code is not weakened silently: a theorem with `refuted` in its name
gives the counterexample (for all inputs of a class where possible), another theorem states what does
hold, and MANIFEST.json says "partial".

## Modelling conventions

* **Arrays.** Device arrays are functions from indices plus a length, or lists where the code builds
  or permutes them.  Reads out of range are excluded by theorems (C09, C38, C70), refuted (C47, C70), or
  yield an arbitrary value over which the theorem quantifies (`ParticleLists.v`).
* **Coordinates** are exact integers in a unit in which every center and radius that occurs is
  integral.  Floating-point rounding is not modelled,
  except in `Floats.v` (C75), which follows the root box and the scaled coordinates, `TravFloat.v` (C95), which
  follows box centers, radii and the tests of the traversal builder, and `FloatBuild.v` (C96), which follows the Morton numbers of particles, in floating-point arithmetic.  Stick-out factors and the `8*eps` fudge of the
  separation criteria are rational parameters (cross-multiplied); the theorems hold for all values in
  the stated range.
* **Integers.** `1 << k` is the exact power where the level is known to be below 31 and the 32-bit
  operation in `TreeBuild.v`; refine weights saturate/wrap as 32-bit numbers; products of 32-bit counts
  in `cost.py` wrap.  Box and particle numbers are natural numbers (no wrap-around).
* **pyopencl primitives.** Scans, ListOfListsBuilder, KeyValueSorter, reductions and the radix-sort
  step are modelled by their specification (prefix fold; concatenation of per-item output; stable
  grouping; any bracketing; ...).  Kernels whose work items write to the same cells are run in an
  arbitrary order of the work items (C39, C42, C23, C30), so that the result is shown not to depend on it.
* **Loops** that are not structural carry fuel; running out is an error value, and a theorem shows
  that it does not happen (C09, C31, C36, C38, C51).
* **MPI** is an interleaving semantics: one FIFO channel per ordered pair of ranks; sends are buffered
  or rendezvous; theorems quantify over all executions and include deadlock freedom (C35).  In `CommFlat.v`
  (C80) there is one channel per tag and the messages are flat coefficient arrays.
* **The FMM** is modelled twice: with the constant-one wrangler of boxtree/constant_one.py over exact
  integers (C03, C40, C41; the wrangler the package itself ships for checking completeness), and with an
  arbitrary wrangler whose numerical routines are parameters and whose expansions and potentials are
  values of arbitrary commutative monoids (C76, C79).

### Well-formedness hypotheses

The traversal theorems (C01-C11) assume `wf_tree` and `wf_flags` (Tree.v): root at level 0, children
point back to their parent, centers of children by Morton number, HAS_*_CHILD_BOXES set whenever a
child is or contains a source/target box.  `wf_flags` deliberately asks only for that implication and
not for the documented equivalence, because the code sets the flags too often (C22); so the theorems
hold for what the code produces.  The hypotheses are discharged for trees from TreeBuilder in C50 and
for trees of boxes in C47.

## Properties

| id | property | status | model | proof |
|----|----|----|----|----|
| C01 | Every source/target interaction is covered exactly once (point particles) | proved | Traversal.v, Walk.v | dyadic geometry; case split on the first separated level; separation tests are monotone along ancestor chains |
| C02 | Every interaction is covered exactly once with target extents and close lists | proved | same, with extents | as C01, with the close lists and the norm-dependent criteria |
| C03 | The FMM driver delivers the full sum to every target | proved | Fmm.v | coverage (C01/C02) plus regrouping of sums |
| C04 | Same-level non-well-separated lists are exact, duplicate-free and symmetric | proved | Traversal.v | walk = pre-order descent; membership characterisation, NoDup |
| C05 | List 1 contains exactly the touching source boxes | proved | Traversal.v | same |
| C06 | List 2 consists of well-separated same-level boxes with non-well-separated parents | proved | Traversal.v | same |
| C07 | List 3 consists of maximal separated descendants of colleagues | proved | Traversal.v | same; first separated descendant on a path |
| C08 | List 4 consists of bigger separated source boxes and is dual to list 3 | proved | Traversal.v | same; duality by comparing characterisations |
| C09 | Tree walks terminate inside their fixed-size stacks and never read out of range | proved | Walk.v | invariant: stack depth below the level; measure for fuel |
| C10 | level_start arrays delimit the box lists by level | proved | LevelStarts.v, Traversal.v | induction over the sorted box lists and the backfill loop |
| C11 | Merging close lists preserves interactions | proved | Traversal.v | list algebra |
| C12 | Refinement and coarsening keep the tree of boxes well formed | proved | TreeOfBoxes.v | invariant over arbitrary request sequences, any argsort |
| C13 | The leaves tile the root box | proved | TreeOfBoxes.v | volume-free tiling: every point has exactly one leaf |
| C14 | Invalid refine/coarsen requests are rejected | proved | TreeOfBoxes.v | error branches, for all requests |
| C15 | Coarsening undoes refinement | proved | TreeOfBoxes.v | paths as canonical names of boxes |
| C16 | Sorting by level is independent of argsort's tie breaking | proved | TreeOfBoxes.v | same, relating two argsorts |
| C17 | Particle reordering is a permutation and its inverse | proved | TreeBuild.v | invariant of the level loop: ids are permuted within boxes |
| C18 | Every particle lies in the box that owns it and is owned exactly once | proved | TreeBuild.v | Morton numbers vs. cells, level loop invariant |
| C19 | Child particle ranges partition the parent's range | proved | TreeBuild.v | scan facts, level loop invariant |
| C20 | Leaves respect the refinement bound | proved | TreeBuild.v | split criterion, renumbering |
| C21 | Pruning removes exactly the empty leaves and renumbers consistently | proved | TreeBuild.v | pruning as an order-preserving injection |
| C22 | Box flags say what they document | partial | TreeBuild.v | box info kernel |
| C23 | Box bounding boxes are tight and bottom-up consistent | partial | TreeBuild.v | extents kernel bottom-up, any work item order |
| C24 | Level-restricted trees have no large level jumps | proved | TreeBuild.v | level restriction loop: saturation and termination |
| C25 | Deep trees keep correct geometry | partial | TreeBuild.v | 32-bit shifts |
| C26 | Particles on a user-supplied bounding box are placed correctly | partial | TreeBuild.v | computed witness |
| C27 | Area queries return exactly the leaves overlapping each ball | proved | AreaQuery.v | guiding box and peers; geometric argument |
| C28 | Peer lists meet their definition | proved | AreaQuery.v | walk with peer criterion |
| C29 | Leaves-to-balls lookup is the transpose of the area query | proved | AreaQuery.v | list transposition |
| C30 | Space invader query returns the furthest overlapping ball | proved | AreaQuery.v | atomic max in any order |
| C31 | Binary search returns the last element not exceeding the key | proved | Tools.v | loop invariant |
| C32 | Translation classes identify translation vectors | proved | Classes.v | mixed-radix bijection, compaction |
| C33 | Rotation classes identify directions and stay within the allotted bound | proved | Classes.v | gcd reduction; cosine comparison |
| C34 | The all-reduce communication pattern matches up on all ranks | proved | Tools.v | strong induction on group sizes |
| C35 | Multipole exchange delivers complete multipoles | proved | Comm.v | stage invariant on all interleavings; progress measure |
| C36 | DFS order visits every box once with contiguous subtrees | proved | Partition.v | stack loop = recursive pre-order |
| C37 | Work partitioning assigns every box to exactly one rank | proved | Partition.v | loop invariant on prefix costs |
| C38 | Local source masks are sufficient | proved | Partition.v | mask kernels, any traversal |
| C39 | Local trees restrict particles consistently | proved | LocalTree.v | scan of the mask = rank; copy kernel in any order |
| C40 | Distributed evaluation equals single-rank evaluation | proved | Distributed.v | per-rank sums regrouped; C35 for the exchange |
| C41 | The cost model counts the operations of the FMM | proved | Cost.v | operation trace; regrouping; device = reference |
| C42 | Point source linking | partial | ParticleLists.v | scatter in any order |
| C43 | Target filtering keeps exactly the flagged targets | proved | ParticleLists.v | scan of flags = rank |
| C44 | Bounding box reduction | proved | BuildFront.v | induction over the reduction |
| C45 | Particle to box and index lookups | proved | ParticleLists.v | ownership (C17, C18) |
| C46 | Mask compression and index reversal | proved | Tools.v | list induction |
| C47 | Traversals of trees of boxes stay in range | partial | TreeOfBoxes.v, Traversal.v | out-of-range read for every reachable tree |
| C48 | A refine/coarsen request has exactly the documented effect | proved | TreeOfBoxes.v | paths |
| C49 | level_start_box_nrs of a tree of boxes delimits the levels | partial | TreeOfBoxes.v | witness |
| C50 | Build, traverse, evaluate: every target sees every source once | proved | TreeBuild.v, Traversal.v, Fmm.v | discharges all hypotheses of C03 |
| C51 | The tree builder ends and fails only for too many levels | proved | TreeBuild.v | level loop measure; error analysis |
| C52 | Extents: particles stay inside their box up to the stick-out factor | proved | TreeBuild.v | stick-out test of the Morton kernel |
| C53 | The returned arrays describe a tree numbered level by level | proved | TreeBuild.v | level loop invariant |
| C54 | Level restriction combined with extents still places every particle | partial | TreeBuild.v | witness |
| C55 | Level starts after pruning, with non-adaptive refinement and extents | partial | TreeBuild.v | witness |
| C56 | A finished rank reports no partners | partial | Tools.v | witness |
| C57 | Strided 1D masks | partial | Tools.v | witness |
| C58 | Default index type of mask compression | partial | Tools.v | witness |
| C59 | Area queries at the upper edge of a user-supplied bounding box | partial | AreaQuery.v | witness |
| C60 | Area queries find the leaves of non-adaptive trees with extents | partial | AreaQuery.v | witness |
| C61 | The reported number of translation classes | partial | Classes.v | for every tree |
| C62 | Translation classes that are shared between levels | partial | Classes.v | for every tree |
| C63 | Every rank gets boxes if there are at least as many boxes as ranks | partial | Partition.v | witness |
| C64 | Distributed evaluation with a source threshold | partial | Distributed.v | witness |
| C65 | Particles to potentials on several ranks | proved | all of the above | composition of C50, C37, C40 |
| C66 | Calibration of the cost model | proved | Cost.v | linearity; least squares over the rationals |
| C67 | Direct cost for arbitrarily many particles | partial | Cost.v | witness |
| C68 | Point-to-local costs are charged at the level of the local expansion | partial | Cost.v | witness |
| C69 | Calibration without model results | partial | Cost.v | for all inputs |
| C70 | Post-processing kernels stay inside their arrays | partial | ParticleLists.v | witnesses; bounds for shared trees |
| C71 | Accepted arguments make a valid tree | proved | BuildFront.v | C44 and the builder theorems |
| C72 | User-supplied bounding boxes | partial | BuildFront.v | witnesses; reduction to C18 |
| C73 | Documented arguments are accepted | partial | BuildFront.v | evaluation of the checks |
| C74 | The automatic root box has positive size | partial | BuildFront.v | witness |
| C75 | Scaled coordinates stay below 1 in floating-point arithmetic | partial | Floats.v | relative error bounds (Flocq); IEEE witnesses computed with SpecFloat |
| C76 | FMM with any expansion wrangler: one route per source | proved | FmmGen.v | driver with abstract linear routines over commutative monoids; each stage computed per box (FmmGenFacts.v), coverage theorem turned into a single route (FmmGenThm.v); exact instance in QuadKernel.v |
| C77 | Expansion arrays: every coefficient has its own place | proved | Layout.v | prefix sums of level sizes; index arithmetic; list surgery |
| C78 | Gradients from the pyfmmlib wrangler | partial | Layout.v | numpy index dimensions; refuted for every set of targets |
| C79 | Distributed evaluation equals shared-memory evaluation for any wrangler | proved | DistributedGen.v | each rank = driver of FmmGen.v with own multipoles (FmmGenThm.potentials_gen_parts); sum over ranks regrouped by owner (DistGenRank.v, DistGenThm.v); C35 for the exchange; C65 and C76 for built trees |
| C80 | Multipole exchange on flat coefficient arrays | proved | CommFlat.v | rows of the flat array (CommFlatFacts.v); for each coefficient the flat exchange is simulated by that of Comm.v, and progress carries over (CommFlatSim.v) |
| C81 | Expansions are only used at a safe distance | proved | Traversal.v | triangle inequalities without roots (SepFacts.v); entries of lists meet the criterion or are non-adjacent (SepThm.v); C52 and C23 place the particles of built trees |
| C82 | Scans do not depend on the order of evaluation | proved | Scan.v | values with segment flags form a monoid; every bracketing equals the left fold (ScanFacts.v); components of the Morton scan by homomorphism; saturating addition is associative on [0, INT_MAX] |
| C83 | Repeated distributed evaluations | proved | DistRun.v, DistRunGen.v | invariant that relates the program to an execution of Comm.v for the current evaluation (DistRunThm.v); potential function for the bound; C35 for progress of the exchange; C79 for the values |
| C84 | Tree build kernels stay inside their arrays | proved | Kernel.v, Device.v, BuildDevice.v | a Hoare-style logic for host programs whose launches must be free of races (Device.v, DeviceRules.v): loads of a work item see the memory of the launch, stores to the same cell agree; one refinement lemma per kernel (DevMorton.v … DevRestrict.v), assembled in DevTrip.v; room for all boxes is an invariant (BuildView.v) |
| C85 | The tree does not depend on the scheduling of work items | proved | Kernel.v, Device.v, BuildDevice.v | as C84: the postcondition of the loop determines the host variables and all persistent arrays |
| C86 | Whole tree builds stay inside their arrays | partial | BuildDeviceEnd.v, BuildDevice.v, Device.v | host program after the loop carried through with facts about single arrays (DevTake.v, DevPrune.v, DevSplit.v, DevInfo.v, DevExtents.v, DevFinish.v); refutation by running the work items one after the other (DeviceSeq.v) |
| C87 | The finished tree does not depend on the scheduling of work items | proved | BuildDeviceEnd.v, TreeBuild.v | the same refinement gives the values of all arrays; specification SpecDeviceEnd.v |
| C88 | Traversal kernels stay inside their arrays | proved | ListBuilder.v, TravDevice.v, Device.v | one theorem about the list builder for any generating program (ListBuilderFacts.v); each kernel shown to be a generator of the rows of Traversal.v (DevTravGen.v); host steps (DevTravHost.v) and the whole program (DevTrav.v, DevTravThm.v) |
| C89 | The traversal does not depend on scheduling | proved | TravDevice.v, Traversal.v | the same refinement gives the contents of all lists; specification SpecDeviceTrav.v |
| C90 | From particles to interaction lists on the device | proved | BuildDevice.v, BuildDeviceEnd.v, TravDevice.v | composition of C87 and C89 over the hand-over of arrays (SpecDeviceChain.v, PropsDeviceChain.v) |
| C91 | Area query kernels stay inside their arrays | proved | AreaDevice.v, ListBuilder.v, Device.v | as C88: each kernel shown to be a generator of the rows of AreaQuery.v, the binary search by induction on its fuel (DevArea.v) |
| C92 | Area queries do not depend on scheduling | proved | AreaDevice.v, AreaQuery.v | the same refinement gives the contents of the lists; with C27, C28 and C87 for what they mean and for built trees; specification SpecDeviceArea.v |
| C93 | FMM with pyfmmlib: every routine gets the arguments of its boxes | proved | FmmLib.v, FmmGen.v | every stage shown equal to the stage of FmmGen.v with the routines of SpecFmmLib.v (FmmLibFacts.v, FmmLibThm.v); then C76, C33 and C17 |
| C94 | Construction of the pyfmmlib wrangler | proved | FmmLib.v | case analysis; scaling factors with Qcanon (FmmLibCtor.v) |
| C95 | Traversals in floating-point arithmetic | proved | TravFloat.v, TravRounded.v | the kernels with the outcomes of their tests as parameters (TravRounded.v); coverage for all outcomes of the separation tests that are monotone (CoverBy.v, TravAgree.v); error bounds of centers, distances and thresholds by induction on the level (TravFloatFacts.v, Flocq); IEEE witness computed with SpecFloat |
| C96 | Particles and boxes in floating-point arithmetic | proved | FloatBuild.v, TravFloat.v, TreeBuild.v | equal binary digits give equal prefixes, so that the cell of the exact run holds the scaled coordinate; error bounds of the scaled coordinate and of the root center (FloatBuildFacts.v), of the box centers as in C95; then C17, C18 and C25 (FloatBuildThm.v) |
| C97 | Level numbers of fixed width in trees of boxes | proved | TobLevels.v | a reachable tree differs from an exactly reachable one only in centers outside its boxes (TobLevelsFacts.v); then C12 and C13; counterexample computed with 8 digits |
| C98 | Mesh made from the leaves of a tree of boxes | proved | TobLevels.v | blocks of concatenated lists; C13 for the tiling (TobLevelsThm.v) |
| C99 | From floating-point particles to potentials | proved | FloatBuild.v, TravFloat.v, Fmm.v | C95 and C96 make the rounded traversal the exact one of the tree that the rounded Morton numbers give, then C50; distances from the gaps of C81 minus the errors of centers and particles (FloatEnd.v) |
| C100 | Interaction lists of targets with extents hold exactly the boxes of their criteria | proved | Traversal.v | elimination of square roots and denominators, then the count lemmas behind C02 read as membership (ExtListFacts.v) |
| C101 | Space invader distances are the exact ones rounded to single precision | proved | Invader.v | bit patterns of nonnegative numbers are exponent-major (InvaderFacts.v), so the cast is monotone and C30 applies; the values are those of Flocq's rounding with gradual underflow; counterexample computed |
| C102 | Setting up the tree of a rank on its device does not depend on scheduling | proved | DistDevice.v | rules for launches whose work items store the same value to a cell (DevDist.v), rounds of the ancestor search against the functional model (DevDistMasks.v), scan and copies (DevDistLocal.v); C38 and C39 say what the result means |
| C103 | Classes of list 2 found on the device do not depend on scheduling | proved | ClassDevice.v | walk through the kernel (binary search, loads of centers) against Classes.v with the contents of all result arrays given in advance (DevClass.v); C32 and C33 say what the classes mean |
| C104 | Classes of list 2 in floating-point arithmetic are the exact ones if the precision resolves the smallest boxes | proved | ClassFloat.v | error bounds of C95 for centers: the rounded quotient is within 1/2 of an integer (ClassFloatFacts.v), so every work item finds its exact class; C32 and C33 say what the classes mean; counterexample computed in IEEE single precision |
| C105 | Linking point sources and filtering targets on the device do not depend on scheduling | proved | ListDevice.v | rules for launches, scans, takes and slices that only write their result (DevList.v), walk through the programs against ParticleLists.v (DevListLink.v, DevListFilter.v); C42 and C43 say what the results mean; counterexamples computed |
| C106 | Plots show the boxes and the interaction lists they claim to show | proved | Plot.v | all 3999 numerals computed; names are injective prefixes of numerals (PlotThm.v); rows of lists through the key arrays as in C05 to C11; TikZ refuted above 4000 boxes for every tree |
| C107 | Moving trees, lists and records between host and device changes no contents | proved | Transfer.v | induction over nested objects (TransferFacts.v): the recursion is the relation moved, which is functional and composes; records through an induction rule for their transformations; what stays behind computed |
| C108 | pyfmmlib is called by its documented names and its results and errors are used as documented; gradients cannot be computed | proved | FmmGrad.v | simulation: the loops with errors compute, for each row of the output, the loops of FmmLib.v with the library of that row (FmmGradFacts.v); then C93; names by cases over kernels, dimensions and stages; error codes through a rule for loops with errors |
| C109 | Building, traversing and evaluating, from particles on the device to potentials of pyfmmlib, gives the direct sum | proved | BuildDevice.v, BuildDeviceEnd.v, TravDevice.v, ClassDevice.v, FmmGrad.v | composition of C87, C88, C89, C103 and C108; the arrays are passed on by SpecDeviceChain.v and SpecDeviceWhole.v |
| C110 | Errors reported by pyfmmlib never lead to wrong potentials | proved | FmmErr.v | every loop simulates, as long as nothing is raised, the loop of FmmLib.v with the correct routines (FmmErrFacts.v); for the vectorized routines the codes are computed by the same call with the library of codes, so that both run over the same list of calls; then C93 |
| C111 | Distributed evaluation with pyfmmlib gives the shared-memory result | proved | DistributedLib.v | on every rank the pyfmmlib loops are those of the generic wrangler (DistLibThm.v, from FmmLibFacts.v), whose ranks are covered by DistGenRank.v and DistGenThm.v (C79) and the exchange by C35; rotation matrices of different size on different ranks: each rank computes the sum over routes, every term of which is exact (C93) |
| C112 | The distributed FMM runner: costs, distribution of boxes, and potentials | proved | Runner.v | rational costs have a common denominator and the comparisons of partition_work do not change under scaling, so C37 applies (RunnerFacts.v); box costs are linear in the calibration parameters; what a box costs by C41; then C65 and C111 |
| C113 | Work is distributed evenly over the ranks | proved | Runner.v | invariant of the loop: the ranks before cost at least their shares, and the current one has not been cut yet (BalanceFacts.v, integer costs); rational costs by a common denominator |
| C114 | Rounding of costs cannot lose boxes or change potentials, but can leave a rank without work | proved | PartitionFloat.v | the chain of segments does not depend on the outcome of the comparisons; then C36, C65 and C111; the refutation evaluates an example in which the total is rounded up to a tie, with an induction over the ways to add up |
| C115 | Refining only, coarsening only, and uniform refinement of a tree of boxes | proved | TobWrappers.v | C14 and C48 with one kind of flags absent; induction over the number of uniform refinements, by paths from the root; the boxes of a level are in bijection with the words of that length |
| C116 | A request changes the number of boxes by a bounded amount per box flagged | proved | TreeOfBoxes.v | deleted boxes are listed once each, as the children of the parents that are cut; sorting permutes levels, so pruning removes as many |
| C117 | Requests that keep box numbers, and undoing a uniform refinement | proved | TobWrappers.v | the arrays stay sorted by level, so that nothing is sorted, and nothing carries the mark of deleted boxes; then the fields of the refined tree (TobFacts.v) |

## What is modelled

| source | modelled | not modelled |
|---|---|---|
| boxtree/traversal.py | all list kernels (same-level, lists 1-4, close lists), level starts, merging, FMMTraversalBuilder.__call__; a second time as loads and stores on the device (TravDevice.v, ListBuilder.v) | dtype plumbing, statistics helpers |
| boxtree/tree_build.py, tree_build_kernels.py | argument checks, bounding box, level loop, all three kinds, renumbering, reallocation decisions, pruning, box info, extents, source/target splitting, final permutations; all of it a second time at the level of single loads and stores of concurrent work items (BuildDevice.v, BuildDeviceEnd.v) | events and wait lists, debug checks, dtype and string checks, padding of arrays |
| boxtree/bounding_box.py | the reduction | |
| boxtree/tree.py | Tree/TreeOfBoxes fields, index lookups, point source linking, target filtering; both a second time as loads and stores on the device (ListDevice.v) | pickling |
| boxtree/tree_of_boxes.py | everything; meshmode and modepy as stated in C98 | orientation checks and discretization nodes of meshmode |
| boxtree/fmm.py, constant_one.py | drive_fmm (constant-one and arbitrary wranglers), reordering | timing, wrangler base-class boilerplate |
| boxtree/area_query.py | area query, leaves-to-balls, space invader (with the bit patterns of its single precision distances), peer lists; area query, peer lists and expansion of starts a second time as loads and stores on the device (AreaDevice.v) | kernel generation and caching |
| boxtree/translation_classes.py, rotation_classes.py | everything but dtype plumbing; the kernel and its callers a second time as loads and stores on the device (ClassDevice.v), and in floating-point arithmetic (ClassFloat.v) | |
| boxtree/tools.py | bsearch, mask compression, data records (Transfer.v), reverse_index_array, AllReduceCommPattern | particle generators, InlineBinarySearch code generation |
| boxtree/cost.py | per-stage and per-box costs (device and reference), calibration | pymbolic expression handling, timing collection |
| boxtree/distributed/ | partition, masks, local trees and traversals, exchange of multipoles, driver, distribution of weights and gathering of potentials over repeated evaluations; the pyfmmlib wrangler on every rank with its constructor (DistributedLib.v); DistributedFMMRunner with the cost model deciding the distribution (Runner.v); masks and local trees a second time as loads and stores on the device (DistDevice.v) | mpi4py set-up, logging, transfer of trees between host and device, broadcasting of pickled objects |
| boxtree/pyfmmlib_integration.py | the constructor, all stages with the arguments they pass, packed argument arrays, storage of expansions, scaling factors, dipoles, rotation matrices, output arrays, names of routines, error codes of all routines, gradients (FmmGrad.v, FmmErr.v) | the Fortran routines and their vectorised wrappers (parameters of the model), complex Helmholtz parameters, the error code of the rotation matrix builder |
| boxtree/visualization.py | everything but text labels (Plot.v): patches, TikZ definitions, Roman numerals | matplotlib, transparency, line widths |
| boxtree/array_context.py | the recursion over containers, array fields of classes, serialization of lists (Transfer.v) | loopy program checks, pytest plumbing; arraycontext itself |

## Tests of the theorems

seeded/LOG.jsonl records edits of the model in the way of realistic bugs, the theorems that then
failed, and the theorems that were tightened because they did not.

## Trusted base

* Coq's kernel, including `vm_compute` (used in examples and refutations on closed terms).
* The transcription of the Python and OpenCL sources into the model files, and the conventions above
  (exact coordinates, specifications of the pyopencl and MPI primitives).
* The statements in `Props*.v` and the definitions in `Spec*.v`.

No axioms of our own.  `Print Assumptions` reports "Closed under the global context" for every theorem
below, except for C75_scaled_below_one and the theorems of C95, C96, C99, C100, C101 and C104 other than C95_refuted_single, C96_refuted_single, C101_bit_patterns and C104_refuted_single, which are about real
numbers and depend on the axioms of the
standard library's real numbers: ClassicalDedekindReals.sig_not_dec, ClassicalDedekindReals.sig_forall_dec,
FunctionalExtensionality.functional_extensionality_dep and Classical_Prop.classic.
(coqchk also lists `Coq.ssr.ssrunder` entries and the sealed constants of the standard library's real
numbers, RbaseSymbolsImpl and RinvImpl: parameters of module types in Coq's own standard library, which
are loaded with it.)  No functors, module types, plugins, native code or switched-off
checks are used.

### Print Assumptions, theorem by theorem

* `PropsArea.v` : C27_area_query_exact, C27_shallow_trees, C27_area_query_of_built_tree, C28_peer_lists, C29_transpose, C30_space_invaders, C59_upper_sliver_refuted, C60_childless_split_box_refuted
* `PropsBalance.v` : C113_at_most_one_box_too_many, C113_no_rank_stops_early
* `PropsBuild.v` : C17_particles_are_permuted, C18_particles_in_their_boxes, C18_cumulative_ranges_are_cells, C18_level_restricted_extents_refuted, C19_ranges_partition, C20_leaves_are_light, C20_split_boxes_are_heavy, C20_leaves_are_light_with_extents, C21_pruning, C21_level_starts, C21_level_starts_refuted, C22_box_flags, C22_has_child_flags_refuted, C22_level_restricted_extents_refuted, C23_source_bounding_boxes, C23_target_bounding_boxes, C23_empty_leaves_collapse, C23_tight_refuted, C24_touching_leaves, C25_geometry_up_to_30_levels, C25_deep_trees_refuted, C26_closed_bounding_box_refuted, C50_build_traverse_evaluate, C50_traversal_succeeds, C51_build_terminates, C51_saturated_bound_refuted, C52_stick_out_bound, C52_particles_stay_for_a_reason, C53_tree_structure
* `PropsClassFloat.v` : C104_vector_with_rounding, C104_translation_classes_with_rounding, C104_rotation_classes_with_rounding, C104_refuted_single
* `PropsClasses.v` : C32_translation_classes, C33_rotation_classes, C33_same_direction, C33_classes_are_angles, C61_reported_class_count, C61_class_count_refuted, C62_classes_for_all_levels, C62_recorded_vectors_refuted
* `PropsComm.v` : C35_complete_multipoles, C35_no_deadlock, C35_bounded_executions, C35_executions_complete
* `PropsCommFlat.v` : C80_complete_coefficients, C80_no_deadlock_or_exception, C80_no_exception, C80_bounded_executions, C80_executions_complete
* `PropsCost.v` : C41_operations_are_the_fmm, C41_stage_costs_count_operations, C41_box_costs_count_operations, C41_box_costs_sum_to_stage_costs, C41_device_equals_reference, C66_costs_linear, C66_least_squares, C66_exact_recovery, C66_calibrated_model_predicts, C67_refuted, C68_refuted, C68_level_independent_costs, C69_refuted, C69_no_model_result_gives_zero
* `PropsDevice.v` : C84_accesses_in_bounds, C84_loop_ends, C85_computes_the_tree, C85_order_independent
* `PropsDeviceArea.v` : C91_peers_in_bounds, C91_query_in_bounds, C91_expand_in_bounds, C91_query_ends, C92_device_computes_the_peers, C92_device_computes_the_query, C92_device_expands_the_starts, C92_peers_on_device, C92_query_on_device, C92_peers_can_be_passed_on, C92_order_independent, C92_from_particles_to_leaves
* `PropsDeviceChain.v` : C90_from_particles_to_lists
* `PropsDeviceClass.v` : C103_search_in_bounds, C103_search_ends, C103_error_is_raised, C103_built_lists_fit, C103_translation_classes_on_device, C103_rotation_in_bounds, C103_rotation_classes_on_device, C103_order_independent
* `PropsDeviceDist.v` : C102_setup_in_bounds, C102_setup_ends, C102_device_computes_the_local_tree, C102_particles_on_the_device, C102_order_independent
* `PropsDeviceEnd.v` : C86_build_in_bounds, C86_build_ends, C86_uneven_levels_refuted, C87_device_computes_the_tree, C87_order_independent
* `PropsDeviceList.v` : C105_in_bounds, C105_ends, C105_device_links, C105_device_filters_in_tree_order, C105_device_filters_in_user_order, C105_point_sources_on_the_device, C105_filtered_targets_on_the_device, C105_user_lists_on_the_device, C105_order_independent, C105_filter_of_shared_trees, C105_in_bounds_refuted
* `PropsDeviceTrav.v` : C88_traversal_in_bounds, C88_traversal_ends, C88_merge_in_bounds, C89_device_computes_the_traversal, C89_merge_on_device, C89_order_independent
* `PropsDeviceWhole.v` : C109_particles_to_potentials_on_device
* `PropsDist.v` : C39_local_particles, C39_particles_copied, C39_local_boxes, C40_distributed_equals_shared, C40_allreduce_equals_shared, C40_execution_exists, C64_source_threshold_refuted
* `PropsDistBuild.v` : C65_build_partition_evaluate, C65_execution_exists
* `PropsDistGen.v` : C79_distributed_equals_shared, C79_allreduce_equals_shared, C79_execution_exists, C79_quadratic_kernel_exact
* `PropsDistGenBuild.v` : C79_build_partition_evaluate, C79_built_execution_exists, C79_particles_to_potentials
* `PropsDistLib.v` : C111_dipoles_in_callers_order_refused, C111_constructor, C111_constructor_errors, C111_distributed_equals_shared, C111_exact_library_gives_direct_sum, C111_execution_exists
* `PropsDistRun.v` : C83_evaluations_do_not_mix, C83_no_deadlock, C83_bounded_executions, C83_nothing_left_over, C83_every_evaluation_equals_shared, C83_executions_complete
* `PropsExtLists.v` : C100_from_sep_smaller, C100_from_sep_close_smaller, C100_from_sep_bigger, C100_from_sep_close_bigger
* `PropsFloatBuild.v` : C96_exact_run, C96_particles_near_their_boxes, C96_distance_bound, C96_refuted_single
* `PropsFloatEnd.v` : C99_particles_to_potentials, C99_safe_distance
* `PropsFloats.v` : C75_scaled_below_one, C75_refuted_single, C75_refuted_double
* `PropsFmm.v` : C03_fmm_sums_all_weights
* `PropsFmmErr.v` : C110_right_or_raised, C110_direct_sum_or_raised, C110_no_spurious_errors, C110_forming_errors_raise
* `PropsFmmGen.v` : C76_exactly_one_route, C76_fmm_is_sum_over_routes, C76_owners_and_routes_exist, C76_error_bound, C76_exact_routines_give_direct_sum, C76_quadratic_kernel_exact
* `PropsFmmGenBuild.v` : C76_particles_to_potentials, C76_built_trees_qualify, C76_build_traverse_evaluate
* `PropsFmmGrad.v` : C108_routine_names, C108_routine_names_differ, C108_other_dimensions, C108_translations, C108_without_gradients, C108_direct_sum, C108_gradients_refuted, C108_gradients_two_axes, C108_errors_in_locals, C108_errors_in_multipoles
* `PropsFmmLib.v` : C94_accepted_arguments, C94_stored_arguments, C93_arguments_belong_to_boxes, C93_rotation_classes_fit, C93_exact_library_gives_direct_sum
* `PropsFmmLibBuild.v` : C93_particles_to_potentials
* `PropsFront.v` : C44_bounding_box, C44_bracketing_irrelevant, C71_accepted_arguments, C71_automatic_root_box, C71_end_to_end, C72_given_root_box, C72_refuted_upper_boundary, C72_refuted_tiny_boxes, C73_accepted, C73_reasons, C73_refuted_zero_weights, C74_refuted_coinciding_particles
* `PropsInvader.v` : C101_bit_patterns, C101_space_invader_values, C101_enlarged_distances_cover, C101_distances_cover_refuted
* `PropsLayout.v` : C77_reshapes_succeed, C77_in_bounds, C77_disjoint, C77_no_waste, C77_views_are_independent, C77_rotation_order, C78_refuted_gradients_fail, C78_refuted_reordering, C78_potentials_only
* `PropsLists.v` : C42_built_trees_qualify, C42_linked_point_sources, C42_refuted_for_empty_sources, C43_user_order, C43_tree_order, C45_find_box_nr, C45_no_box_beyond, C45_index_conversions, C70_reads_refuted, C70_writes_refuted, C70_filter_reads_shared_trees, C70_point_source_writes
* `PropsPartition.v` : C36_dfs_order, C37_assignment, C37_all_ranks_served, C37_too_many_ranks, C63_every_rank_served_refuted, C63_two_ranks_refuted, C38_masks
* `PropsPartitionFloat.v` : C114_exact, C114_assignment, C114_potentials_do_not_depend_on_rounding, C114_every_rank_served_refuted
* `PropsPlot.v` : C106_roman_numerals, C106_box_extents, C106_built_extents, C106_tree_drawn, C106_tikz, C106_tikz_refuted, C106_lists_drawn, C106_same_level_drawn, C106_get_box_list
* `PropsRounding.v` : C95_adjacency_with_rounding, C95_traversal_with_rounding_is_exact, C95_coverage_with_rounding, C95_center_error, C95_refuted_single
* `PropsRunner.v` : C112_assignment, C112_all_ranks_served, C112_only_ratios_matter, C112_costs, C112_runner_gives_direct_sum, C112_factory, C112_when_the_runner_runs, C112_otherwise
* `PropsScan.v` : C82_any_evaluation_order, C82_morton_scan, C82_tree_builder_scans, C82_prune_indices, C82_other_scans, C82_negative_weights_refuted
* `PropsSep.v` : C81_separated_points, C81_list3_with_extents, C81_list4_with_extents, C81_regions_nested, C81_built_trees
* `PropsTob.v` : C12_tob_well_formed, C12_level_starts_refuted, C13_leaves_tile_root, C13_boxes_inside_root, C13_root_is_bbox, C14_invalid_requests_rejected, C15_coarsening_undoes_refinement, C16_argsort_ties_irrelevant, C48_request_effect, C48_paths_name_boxes, C47_traversal_of_tob_reads_out_of_range_refuted, C47_tob_with_root_parent_0
* `PropsTobCount.v` : C116_number_of_boxes, C116_bounded_change
* `PropsTobIds.v` : C117_deepest_level_keeps_numbers, C117_empty_request, C117_coarsening_all_leaves_undoes_uniform_refinement
* `PropsTobLevels.v` : C97_levels_within_width, C97_children_mirrored, C97_refuted, C98_mesh_of_leaves, C98_elements_tile_root
* `PropsTobUniform.v` : C115_refine, C115_coarsen, C115_uniform_step, C115_uniform_possible, C115_complete_tree
* `PropsTools.v` : C31_last_not_above, C31_terminates, C34_sinks_match_sources, C34_partners_exist, C34_done_in_log2_stages, C34_no_pair_twice, C34_messages_are_for_the_other_half, C34_each_rank_addressed_once, C34_done_has_no_sources, C56_done_has_no_sinks_refuted, C46_list_of_mask, C46_lists_of_mask, C46_reverse_index, C46_reverse_index_inverse, C57_strided_masks_refuted, C58_default_list_type_refuted
* `PropsTransfer.v` : C107_moves, C107_contents, C107_round_trips, C107_refused, C107_on_the_host_already, C107_array_fields, C107_record_contents, C107_record_arrives, C107_record_excluded, C107_record_round_trip, C107_record_refuted
* `PropsTraversal.v` : C01_coverage_exactly_once, C02_coverage_exactly_once_extents, C04_same_level_lists_exact, C05_list1_is_touching_source_boxes, C06_list2_well_separated_same_level, C07_list3_maximal_separated_descendants, C08_list4_bigger_separated_sources, C08_list3_list4_dual, C09_build_traversal_succeeds, C09_walk_stack_bound, C09_entries_in_range, C10_level_starts_delimit, C11_merge_close_lists, C11_merged_coverage, C11_merge_possible
