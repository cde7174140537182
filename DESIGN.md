# Formal model of DASHMM in Rocq

Source: `/repo` (C++, read as text, never built or run).  Model, specifications
and proofs: `/verif/rocq/theories` (logical name `Verif`, Coq 8.16.1).

## Layout

For each topic `X` there are up to four files:

| file | content |
|---|---|
| `XModel.v`  | total Gallina functions or step relations transcribing the C++; each definition cites file and lines; no proofs |
| `XSpec.v`   | small independent specification: what the English property talks about, in elementary terms |
| `XProofs.v` | lemmas, invariants, inductions |
| `XProps.v`  | the property theorems `Cnn_...` with short glue proofs, their non-vacuity examples `Cnn_nonvacuous...` and `Print Assumptions` |

Undefined behaviour, assertion failure and out-of-bounds access are separate
outcomes of the model (`Fail`), never silently totalised: the theorems say that
a run returns `Ok v`.  Asserts count as live, because the Release flags of
`CMakeLists.txt` do not define `NDEBUG`.

A theorem named `..._refuted` proves that a wording of the property one would
expect is false for the code; the statement in `properties.jsonl` is then the
exact truth, and the other theorems of the claim prove it.

## Modelling decisions

* Machine integers.  Where the property is about wrap-around (`ArrayRef::slice`,
  reductions, `simple_key`, Morton keys, byte counts of messages) arithmetic is
  taken modulo 2^32 / 2^64 explicitly, or overflow of an `int` is a `Fail`.
  Elsewhere `Z`/`nat` are used and the model file or the note of the claim says so.
* Floating point.  Geometry (`domaingeometry.cc`, `bh_method.h`, cell
  assignment) is modelled over exact rationals, LaplaceCOM and the Laplace
  expansions over the reals.
  Rounding is not modelled there; this is part of the trusted base.  Refinement
  (C15-C17) is proved for arbitrary comparison tests, so it covers rounded ones.
  `DoubleModel` repeats the bounding box, the cell assignment and the tests of
  refinement in IEEE binary64
  (Flocq), each operation rounded to nearest even on its own: no fused
  multiply-add and no extended precision.
* HPX-5 runtime.  Not part of `/repo`.  LCOs are modelled by their documented
  meaning: an AND gate of n inputs fires once after n sets; a reduce LCO folds
  its operator over its inputs in arrival order; a user LCO runs its operation
  atomically on each set and evaluates its predicate after a set; parcels are
  delivered exactly once in any order; `hpx_call_when` runs its action once,
  after the gate fires; semaphores are atomic counters.
* Concurrency.  Tasks are modelled as multisets of pending atomic steps; a
  schedule is any sequence of choices.  Theorems quantify over all of them.
* C++ library calls.  `std::partition`, `std::partition_point`, `std::sort` are
  modelled as *any* function or relation that meets its contract (explicit
  hypotheses of the theorems).  Exception: in `PartitionModel` and `ChunkModel`
  `partition_point` is the length of the longest prefix satisfying the
  predicate, which is the standard's result whenever its precondition holds.
* User-supplied pieces (serializers, acceptance predicates) are universally
  quantified with their documented contract as hypothesis.
* Memory.  A block of memory is a list of bytes or records; `new char[]` leaves
  arbitrary contents (a parameter); accesses outside are `Fail Oob`.

## Models

| model | code | left out |
|---|---|---|
| `IndexModel` | `index.h` | - |
| `GridModel` | `tree.h:421-447`, `556-609` | LCO creation is one flag; `pow(8,i)` exact |
| `TreeModel`, `LookupModel` | node links of `node.h`; `tree.h:455-502`, `dualtree.h:141-184` | GAS pinning |
| `HilbertModel`, `MortonModel`, `PartitionModel` | `hilbert.cc` | `int` overflow of the key above level 10 |
| `GeomModel` | `domaingeometry.{h,cc}`, `dualtree.h:518-586`, `672-680`, `tree.h:627-650` | rounding, NaN |
| `DoubleModel` | `dualtree.h:518-586`, `672-680`, `tree.h:627-650`, `node.h:464-483`, `domaingeometry.cc:41-67` in double precision | NaN arguments of `fmin`/`fmax`, contraction |
| `GroupModel` | `tree.h:664-710` | - |
| `ExchangeModel` | `dualtree.h:853-1136` (`send_points`, `recv_points`), bytes of the parcel | pinning, the futures |
| `MergeModel` | `tree.h:214-410`, `728-784`, `node.h:172-175` | the lock (a batch is atomic) |
| `RefineModel` | `node.h:443-536`, record movement | completion gates (in `GateModel`) |
| `GateModel` | `node.h:443-536`, `tree.h:191-195`, gates and continuations | record movement (in `RefineModel`) |
| `BuildModel` | `dualtree.h:789-839`, `1166-1299`: data path of the whole tree build over all ranks | tree skeletons sent to other ranks (in `CompressModel`) |
| `LifeModel` | `dualtree.h:482-492`, `1166-1299`, `tree.h:191-195`, `804-864`, `877-916`: the tasks of the build on all ranks and what they free | contents of messages (`ExchangeModel`), one receive merges all its batches at once, partitioning a cell is one step (`GateModel`) |
| `CompressModel` | `node.h:234-352`, `tree.h:795-864`, `897-905` | `int` size of the message |
| `PruneModel` | `tree.h:526-535`, `node.h:354-384` | - |
| `ArrayModel`, `ArrayRefModel`, `ForEachModel`, `ReduceModel` | `array.h`, `arrayref.h`, `arrayforeachaction.h`, `reductionops.cc` | `segment` replacement, GAS allocation internals |
| `BufferModel`, `ViewSetModel` | `buffer.h`, `viewset.{h,cc}` | - |
| `DagModel`, `MethodModel` | `dag.h`, `dualtree.h:209-245`, `1717-1854`, `builtins/{direct,bh,fmm,fmm97}_method.h` | edge weights (in `DistroModel`) |
| `LinkModel` | `dag.h:64-71`, `563-584`: `link_nodes` step by step under its semaphores | edge weight |
| `EvalModel`, `ChunkModel`, `EdgeGroupModel` | `dualtree.h:317-385`, `1504-1704`, `1868-1916`, `expansionlco.h`, `targetlco.h`, `evaluator.h:425-513` | expansions are an abstract commutative monoid |
| `MessageModel` | `dualtree.h:500-504`, `1504-1648`, `expansionlco.h:283-533`: the bytes of both kinds of edge message | - |
| `DistroModel` | `dualtree.h:1322-1348`, `1717-1844`, `src/{bh,fmm97,random,singleloc}distro.cc` | overflow of summed weights |
| `MacModel` | `bh_method.h:102-185` | rounding |
| `MergeShiftModel` | `merge_shift.{h,cc}`, `laplace.cc`, `yukawa.cc`, `helmholtz.h` (I_to_I, I_to_L, `weight_estimate`) | wave coefficients |
| `ComModel` | `laplace_com.h` | rounding |
| `AccModel` | `laplace_com_acc.h`: moments, combination, accelerations | rounding; the data block's memory (it is allocated as `char[]` and deleted through another type) |
| `LapModel` | `special_function.cc:29-48`, `laplace.cc:68-143`, `772-820`, `869-915`, `laplace_table.cc:220-226`, `laplace.h:87-113`, `161-185`, `260-280`, `322-337` | rounding, field values (`g` true; no caller asks for them) |
| `TranModel` | `laplace_table.cc:27-37`, `228-401`, `builtin_table.h:29-41`, `laplace.cc:23-66`, `145-275`, `laplace.h:187-258`, `375-411`, `laplace_table.h:43`, `domaingeometry.cc:51-55` | rounding |
| `WaveModel` | `laplace_table.cc:38-218`, `402-478`, `laplace.cc:277-383`, `385-772`, `laplace.h:299-340` (the shifts of I_to_I and I_to_L are those of `MergeShiftModel`) | rounding; M_to_I's views are added to zeros in the code |
| `PotModel` | `laplace.h:260-297`, `expansionlco.h:227-338`, `545-629`, `targetlco.h:120-222`, `dualtree.h:1367-1378`, `1434-1446`, `1658-1704`: which kernel operation an edge performs on which values | an LCO's array of zeros is the empty array |
| `Pot97Model` | `laplace.h:106-111`, `323-340`, `expansionlco.h:310-338`, `648-687`: the same for the intermediate expansions | views not in a message count as zeros; an expansion's zero views are no views |
| `WholeModel` | `node.h:443-536` with the branches kept, `tree.h:290-342`, `526-609`, `592-599`: the branches of all ranks below the pruned top | the nodes above the uniform cells are given the records below them, which no method looks at |
| `RunModel` | `evaluator.h:139-178`, `301-310`, `dualtree.h:486-557`: domain and trees of all the users' records, as the methods see them | coordinates are rationals, read as reals by the expansions; charges are reals |
| `YukModel` | `special_function.cc:1298-1365`, `yukawa_table.cc:29-40`, `306-324`, `yukawa_table.h:43`, `yukawa.cc:68-144`, `227-275`, `365-413`, `yukawa.h:166-190`, `214-253` | rounding; `bessel_In` (a parameter; C76 and C77 assume its accuracy, C87 proves it); field values |
| `BesInModel` | `special_function.cc:116-240` (`Gamma`, for arguments from 1 to 12), `960-1264` (`bessel_In`, for `alpha = 0.5` and `ize = 1`) | rounding; the branches of `bessel_In` for x < 1e-4 and for a p-sequence beyond 1e292 are failures, C87 shows that the calls do not reach them |
| `ComRunModel` | `laplace_com.h:160-298`, `expansionlco.h`, `targetlco.h`: the operations of `LaplaceCOM` as values that the edges of the DAG carry | rounding; serialization of the moments (C12); a total of zero is divided by, so it counts as broken |
| `FieldRunModel` | `yukawa.h:236-253`, `helmholtz.h:480-497`, `laplace_com_acc.h:160-327`, `expansionlco.h`, `targetlco.h`: the direct sums of Yukawa and Helmholtz and the operations of `LaplaceCOMAcc` as values that the edges of the DAG carry | rounding; expansions whose total is not positive count as broken |
| `HelmModel` | `special_function.cc:1266-1296`, `1367-1406`, `helmholtz_table.cc:23-60`, `640-658`, `helmholtz_table.h:39`, `149`, `helmholtz.h:53-67`, `154-264`, `373-497` | rounding; `bessel_Jn`, `bessel_Yn` (parameters; C80 and C81 assume their accuracy); the contents of `n_e_`, `n_p_`; field values |
| `TraceModel` | `trace/readtrace/{worker,trace}.cc`, `segment.h` | files, event classes (in `ReadModel`), database (in `DbModel`) |
| `ReadModel` | `trace/readtrace/{tracefile,dashmmevents,networkevents,traceevent}.cc`, `segmentids.h`, reading and putting together in `{worker,locality,trace}.cc`, `main.cc:58-69` | errors of the system while reading, terminal output |
| `DbModel` | `trace/readtrace/sqlite3out.cc`, `counter.h`, `segmentids.cc`, names in `{dashmm,network}events.cc`, numbers of workers in `worker.{h,cc}`, `locality.cc` | SQLite beyond tables with unique ids and transactions, failing disks, more than 2^30 workers |
| `PlotModel` | `trace/readtrace/{plotter,utilization}.cc`, windows and coverage in `{worker,locality,trace}.cc`; doubles as in `DoubleModel` | what pngwriter does with a square, the file of the table, times from 2^63 on |
| `StepModel` | `demo/stepping/stepping.cc:34-40`, `159-193`, `221-239`, `267`, `278-297` | rounding, command line, output; the evaluation is a parameter, for which C93_evaluation takes what C89 and C90 prove |
| `CountModel` | `src/dag.cc:29-86`, `111-129` | opening and writing the file, headings of the tables |
| `RankwiseModel` | `rankwise.h`, `dualtree.h:482-492` | why a pin fails, failure of `hpx_gas_calloc_cyclic`, what the cells hold |
| `TablesModel` | `update_laplace_table`, `update_yukawa_table`, `update_helmholtz_table`, the order of calls of `evaluator.h`, the scales of `expansionlco.h` | other parts of the Yukawa and Helmholtz tables (any function of the arguments), equality of doubles is equality of reals, several localities (each has the same table) |
| `ToolsModel` | `test/combinepoints`, `save_to_file` of `makepoints.cc`, the checks and `compare_results` of `collect.cc` | bytes and layout of the files, reading of options, random points, asserts with side effects under `NDEBUG`, rounding |
| `BasicModel` | `demo/basic/testmain.cc:30-42`, `68-263`, `276-351`, `377-403`, `428-457`, `460-630` | `getopt_long` and `atoi` (the options are given), random numbers are any draws, terminal output, rounding |
| `HoldModel` | `include/dashmm/tree.h:556-609`, `877-916`, `node.h:64-143`, `318-352`, `386-412`, `443-536`, `dag.h:192-221`, `dualtree.h:1236-1273` | which things are acquired and released for one tree on one rank, not when (C18, C53, C54); the pointers behind them; the records |
| `LcoModel` | `dualtree.h:258-268`, `394-415`, `1363-1490`, `1926-1945`, `dag.h:55-61`, `131-144`, `238-275`, `321-352`, `expansionlco.h:109-182`, `316-474` | one rank; orders of the concurrent actions are left open; the addresses of the LCOs of other ranks, the contents, a reset in the middle of an action, and builds without assertions are left out |
| `MakeModel` | `makepoints.cc`: the options, the points, the evaluation and the file | random numbers are any sequence in their range; what S_to_T adds is a parameter; the tables of `prepare_expansions` (C96); rounding, bytes of the file |
| `FitModel` | which operations of the six expansions return an expansion, `contribute` and `operation_handler` of `expansionlco.h`, the blocks of the views (constructors, destructors, `release`, `I_to_I`) | contents of views, sizes of blocks, blocks taken and given back within one function other than `I_to_I`; when an edge is served (C99, C100); `User` of demo/user is modelled as if its `S_to_M`, `S_to_L`, `S_to_T` took const sources as the library passes them |

## Properties and how they are proved

| id | model | method |
|---|---|---|
| C01 | Index | arithmetic (div/mod), induction on n for n-fold parents |
| C02 | Grid | mixed radix bijection, ancestor law from C01; refuted at level 11 |
| C03 | Grid | closed form of the loops, induction on levels |
| C04 | Lookup | induction on the level difference |
| C05, C06 | Hilbert | eight-state transducer: per-state facts by computation, induction on the level |
| C07 | Morton | bitwise lemma, lifted to all inputs by bit extensionality |
| C08, C09 | Partition | exact success condition, monotone cuts, minimality from monotone sums |
| C10, C11, C46, C50 | Geom (with Refine) | fold of min/max, rational floor arithmetic |
| C12 | Group | counting sort; the cycle loop decreases the number of displaced records |
| C13 | Exchange | writer/reader round trip on bytes |
| C14 | Merge | invariant over the multiset of arrivals |
| C15, C16, C17 | Refine | induction on fuel; termination iff separated |
| C18 | Gate | counting invariant over all interleavings, measure for termination |
| C19 | Compress | breadth-first queue invariant |
| C20 | Prune | induction on levels over the block; the parent pointers by the same induction (`parents`) |
| C21-C24 | Array | list lemmas, permutation of writes |
| C25 | ForEach | interval multiset invariant |
| C26 | ArrayRef | arithmetic modulo 2^64 |
| C27, C28 | Buffer, ViewSet | cursor invariant, round trip |
| C29 | Link | invariant over all interleavings, lock discipline |
| C30, C48 | Eval | invariant counting pending contributions; progress by acyclicity |
| C31, C35, C36, C38, C39, C42 | Method | structural induction over both trees, counting edges per pair |
| C32 | Chunk | interval lists |
| C33 | EdgeGroup | run splitting of a sorted list |
| C34 | Message | writer/reader round trip on bytes |
| C37 | Mac | rational and real arithmetic |
| C40 | MergeShift | finite computation lifted to all index pairs |
| C41 | Distro | topological order by colour |
| C43, C52 | Com | field identities; asymptotics for the refuted sign |
| C44 | Reduce | fold permutation |
| C45, C49, C51 | Trace | stream invariants |
| C85 | Read | where the delimiters are (`ReadProofs`); round trip on bytes |
| C86 | Read | the trace of a list of files in closed form, kept by every file added (`ReadTrace`); minima, maxima and counts over it (`ReadLoad`) |
| C91 | Db | rows inserted one by one and in batches, with what a transaction has kept so far (`DbProofs`, `DbLoops`); the place of an event in the list of all, C49 for the segments (`DbContents`); the shape of a loaded trace (`DbLoaded`) |
| C92 | Plot | rounding of the edges of columns and of shades (`PlotTimes`); C48 and C49 for what a worker does in a window (`PlotProofs`); heights and places of bars, the loop over columns (`PlotPicture`) |
| C93 | Step | induction on steps, with the records put into one order by permutations; Newton's third law as an antisymmetric double sum (`StepProofs`) |
| C94 | Count | what a table of the right shape holds, under one more edge; each edge is in the list of its source node, and none leaves a target leaf (`CountProofs`) |
| C95 | Rankwise | one invariant of all interleavings: pins and copies counted against the live objects (`RankwiseProofs`) |
| C96 | Tables | invariant of all sequences of calls; scaling a source is the same as scaling the table, then C59 (`TablesProofs`) |
| C97 | Tools | case analysis of the flags; sums over the targets (`ToolsProofs`) |
| C98 | Basic | quotients and remainders of the shares; the last entry of a map; sums over permutations (`BasicProofs`) |
| C99 | Hold | the paths below a cell in two orders, one for building and one for deleting; disjointness by kind and cell (`HoldProofs`); C19 for the blocks |
| C100 | Lco | what a walk gives lies below its node, so nothing comes twice; no DAG node below a target leaf of the DAG (`LcoProofs`); the nodes and tasks of C41; an invariant of the expansion pointer |
| C101 | Make | closed form of the loops over the random numbers; suffixes of the file names (`MakeProofs`); C97_three |
| C102 | Fit | invariant: blocks in use are those of the LCOs' views (`FitProofs`); C40_views for `I_to_I`, C57 for the edges |
| C47 | Build | composition of C11-C15, C44 |
| C53, C54 | Life | invariant of all tasks, progress lemma that leaves out a given message, measure |
| C55, C56 | Double | rounding error of every operation (Flocq), linear arithmetic over the reals |
| C57 | Method | the edges of `FmmProofs`/`Fmm97Proofs` matched with lists of touching boxes (`ListsSpec`); counting coordinate offsets for the bounds |
| C58-C60 | Lap | recurrences of the derivatives of (x^2 - 1)^n (`LegProofs`), addition theorem by induction on the degree (`LegAdd`), generating function as a power series (`LegGen`), loop invariants (`LapArrays`) |
| C61-C64 | Tran | solid harmonics as coefficients of powers of a quadratic form (`SolidProofs`), their rotation and addition theorems (`SolidAdd`, `SolidPair`, `SolidTrans`), the error of a double expansion (`SolidMtl`); the recurrences of the matrices (`TranWigner`, `TranDmat`), the keys of the table (`TranTable`), each operation as a map of sources or of polynomials (`TranOps`, `TranField`, `TranMove`, `TranMtl`, `TranEval`), induction over the passes (`TranProofs`) |
| C65, C66 | Pot | the edges into each node (C57, C35, C36) and the values of the evaluation (C30): the expansions of the DAG are those of C62 and C64, by induction on the height (`PotUp`) and on the depth (`PotProofs`); each charge reaches each target box by exactly one operation |
| C72 | Pot97 | like C65, with the edges of FMM97 (C57); the views of a target box are those of C71 (`Pot97Facts`, `Pot97Waves`), and the local expansions are followed by their values at the targets (`Pot97Proofs`) |
| C73 | Whole | composition of C02, C03, C15-C17, C20 and C47: what each branch holds, carried up to the root by induction (`WholeGrow`), cells as boxes (`WholeProofs`), distinct points separate at some depth (`WholeDone`) |
| C75 | Acc | the moments as for C43; derivatives of the field with scaled distances, and of the potentials |
| C79 | BhOwn | the accepted distance less the diagonal of the target box, then C66; refutation: a DAG computed for all records, and the geometric sum of an expansion along a line |
| C76-C78 | Yuk | power series of i_n and recurrences of k_n (`BesselProofs`), the addition theorem by integrating a differential identity along a path between the two points (`BesselAdd`), loop invariants (`YukBessel`), the coefficients by the lemmas of C59 |
| C87 | BesIn | the backward recursion is solved by I_n K_(N+1) ± I_(N+1) K_n, whose weighted sum telescopes (`BesInMath`); how far the forward recursion climbs before it stops, by its growth (`BesInStart`); loop invariants (`BesInRecur`); Gamma(3/2) by rational arithmetic against bounds of PI (`BesInProofs`) |
| C88 | ComRun | moments about the origin are a commutative monoid, so a box holds those of its sources in whatever order they came (`ComRunProofs`); the terms of second order bounded by the size of the box (`ComRunMath`); induction over the DAG of C74 |
| C89 | FieldRun | the DAG of C35 with any kernel that is a sum over the sources (`FieldRunProofs`) |
| C90 | AccRun | Taylor's formula of third order along the segments from the centre of charge to the charges, with a bound of the third derivative (`AccMath`); induction over the DAG as for C88 (`AccRunProofs`) |
| C80-C82 | Helm | j_n and y_n bounded by i_n and exp x k_n (`OscProofs`), so that their addition theorem converges with that of C77 (`OscAdd`, `HelmPair`); loop invariants (`HelmBessel`), the multipole coefficients by the lemmas of C77, the local ones, stored for both signs of the order, added up in pairs (`HelmProofs`, `HelmExp`); the branch below 1e-4 (`HelmSmall`) |
| C83, C84 | Quad | fixed-point arithmetic with error bounds (`QuadBall`, `QuadFun`); the sum of waves and the inverse distance by their Taylor polynomials on cells of the box of displacements (`QuadCell`, `QuadGrid`), checked by computation (`QuadTab`, `QuadRun`), and the sum matched with the quadrature of the table (`QuadSum`); what the waves lose by the cut at a degree and at some frequencies, by the coefficients of powers of a quadratic form (`QuadTail`, `QuadCut`, `QuadEps`) |
| C74 | Run | composition of C10, C73, C35-C39, C65, C66 and C72: what C73 says of the trees is what the methods and expansions ask of theirs (`RunProofs`, `RunTrees`); the boxes where a DAG ends cut the leaves into classes, so each target is served once; builds exist (`RunExist`) |
| C67-C71 | Wave | the entries of the packed tables (`WaveTab`); Fourier series of a truncated wave in the solid harmonics of a box (`WaveAlg`, `WaveUp`), so that M_to_I (`WaveFrom`), e_to_e (`WaveShift`) and e_to_l (`WaveInto`) act on whole waves; the half of the angles stored gives the sum over all (`WaveChain`), where the shares of C40 compose to exactly one move between the centres of each pair of boxes |

## Findings in the code

Wordings one would expect, and the theorem showing that the code does not meet them.

| claim | finding | theorem |
|---|---|---|
| C02 | 32-bit slot number not injective from level 11 on | `C02_wrap_at_11_refuted` |
| C08 | `partition` fails for few points or a heavy first cell | `C08_few_points_refuted`, `C08_heavy_first_cell_refuted` |
| C10 | positions outside +-1e50 lie outside the box | `C10_beyond_identity_refuted` |
| C11 | coincident points give a box of side 0 and a division by zero | `C11_coincident_points_refuted` |
| C13 | `send_points` allocates more than needed (running total) | `C13_parcel_exact_refuted` |
| C16 | more than threshold coincident points: refinement never ends | `C16_coincident_points_diverge` |
| C23 | `Array::put` copies `last` records instead of `last - first` | `C23_put_refuted` |
| C26 | `ArrayRef::slice` accepts arguments whose sum wraps | `C26_slice_wrap_refuted` |
| C27 | an empty write to a full buffer reports failure | `C27_empty_write_on_full_refuted` |
| C28 | a last view of zero bytes fails to serialize | `C28_trailing_empty_view_refuted` |
| C30, C31 | FMM and FMM97 can build nodes with outputs and no inputs; the evaluation then hangs | `C31_every_node_fed_refuted`, `C30_fmm_evaluation_hangs_refuted` |
| C34 | remote lookup of an S_to_M target searches the target tree (not reached) | `C34_StoM_wrong_tree_refuted` |
| C37 | `nearest` has the wrong sign for negative offsets: far corner tested | `C37_accepts_too_much_refuted` |
| C40 | Yukawa/Helmholtz `weight_estimate` returns 0 for I_to_I (shadowed variable) | `C40_yukawa_weight_refuted` |
| C43 | opposite charges: division by zero total | `C43_zero_total_refuted` |
| C43 | a neutral group gets its dipole moment as the position of its centre | `C43_neutral_centre_refuted` |
| C44 | `int` sums of mixed signs can overflow in one order only | `C44_int_sum_mixed_signs_refuted` |
| C45 | events at the last stamp are lost from windows | `C45_last_events_lost_refuted` |
| C48 | reset at the termination signal races with the release of expansions | `C48_reset_at_signal_refuted` |
| C51 | touching segments fail an assert; a window inside a segment counts 0 | `C51_touching_refuted`, `C51_inside_segment_refuted` |
| C85 | file names: digits followed by anything, empty parts and negative numbers are accepted; a header longer than the file means no events | `C85_name_refuted`, `C85_long_header_refuted` |
| C86 | a worker without events is read out of bounds; the reference event counts only in the first file of its worker; earlier events wrap around; touching segments can be sorted so that collating throws | `C86_empty_refuted`, `C86_zero_order_refuted`, `C86_before_zero_refuted`, `C86_touching_refuted` |
| C91 | a negative locality has events but no row; names are stored with one byte too many; ids in segments wrap from 2^31 events on | `C91_negative_locality_refuted`, `C91_names_refuted`, `C91_many_events_refuted` |
| C92 | white inside a long piece of work; the last event of a worker is never found; bars of height zero; a trace without workers divides by zero; the table of utilisation has no elements to write to | `C92_inside_refuted`, `C92_last_event_refuted`, `C92_many_workers_refuted`, `C92_no_workers_refuted`, `C92_utilization_refuted` |
| C93 | accelerations are never set back between steps, so every field acts again in all later steps; positions are not uniform in the ball | `C93_path`, `C93_pull_refuted`, `C93_start` |
| C94 | a node without a locality makes the table of edges store out of bounds | `C94_unplaced_refuted` |
| C95 | `DualTree::destroy` unpins the dual tree after freeing it; move assignment of `RankLocal` returns nothing and forgets a pin; a copy for which there is no memory | `C95_destroy_refuted`, `C95_assign_refuted`, `C95_assign_leaks_refuted`, `C95_no_room_refuted` |
| C96 | "each DAG is executed with its own table" | `C96_interleaved_refuted` |
| C97 | "only files of the same points are combined", "the result has the kernels of both files" and their parameters, the second file, "combine reports failures", "accepted command lines can be run", "all ranks take part", "unknown kernels are refused", "the maximum bounds the error" | `C97_positions_refuted`, `C97_first_only_refuted`, `C97_parameter_refuted`, `C97_second_refuted`, `C97_success_refuted`, `C97_digits_refuted`, `C97_ranks_refuted`, `C97_unknown_refuted`, `C97_imaginary_refuted` |
| C98 | "the indices tell the targets apart", "exact results are reported as exact", "Plummer masses add up to 100", "unknown kernels are refused", "limits and digits are checked", "a refused command line fails" | `C98_indices`, `C98_wrong_pair_refuted`, `C98_mass_refuted`, `C98_unknown_refuted`, `C98_unchecked_refuted`, `C98_refused_refuted` |
| C99 | "everything a tree acquires is released" | `C99_released_refuted`: on several ranks the gate of an empty cell of another rank, and the block of no nodes of one without children, are left |
| C100 | "a tree can serve another DAG when the first is destroyed" | `C100_another_refuted`: the destructor of a node leaves the tree's pointers to it, so the next creation fails an assertion |
| C100 | "an LCO can be destroyed when all contributions are made" | `C100_at_once_refuted`: its action still has to delete the expansion |
| C101 | "every accepted command line leaves reference data", "the points are the same for both choices of signs" | `C101_plummer_refuted`, `C101_kernel_refuted`, `C101_release_refuted`, `C101_signs_refuted` |
| C102 | "every expansion can be used with every method", "I_to_I loses nothing, whatever its boxes" | `C102_fmm_refuted`, `C102_fmm97_refuted`, `C102_own_parent_refuted` |
| C75 | the accelerations are not the gradient of `LaplaceCOM`'s potential, whose quadrupole has the wrong sign; a total of zero on the way loses the dipole | `C75_classes_disagree_refuted`, `C75_zero_total_refuted` |
| C52 | sign of the quadrupole term | `C52_wrong_sign_refuted`, `C52_worse_than_monopole_refuted` |
| C53 | nothing waits for the message between two ranks if it holds no points: counts read after `delete []`, tree read after `destroy` | `C53_freed_before_use_refuted` |
| C54 | completion gates of empty cells are never deleted on the ranks that do not own them | `C54_leak_refuted` |
| C55 | points a few units in the last place apart get a negative cell number: write in front of the counts | `C55_tiny_domain_refuted` |
| C55 | a point on a face between cells can go to the lower cell (49 * (1/49) < 1) | `C55_exact_cell_refuted` |
| C60 | a source or target exactly at the centre of its box gives NaN (0 / 0) | `C60_source_at_centre_refuted`, `C60_target_at_centre_refuted` |
| C78 | Yukawa kernel: 0 / 0 at a box centre; assertion at 1e8 screening lengths; sources beyond 100 screening lengths are dropped; accuracies other than 3 and 6 digits write out of bounds | `C78_at_centre_refuted`, `C78_too_far_refuted`, `C78_too_far_source_refuted`, `C78_beyond_100_refuted`, `C78_other_accuracies_refuted` |
| C80 | Helmholtz kernel: below 1e-4 the functions y_n, n >= 1, lack a factor 1/x | `C80_small_argument_refuted` |
| C82 | Helmholtz kernel: 0 / 0 at a box centre; close to a centre the field is wrong by 2/5; on small domains every S_to_L reads at a negative index, below level 21 every S_to_M behind the table; accuracies other than 3 and 6 digits give degree 0 | `C82_at_centre_refuted`, `C82_small_distance_refuted`, `C82_small_domain_refuted`, `C82_deep_refuted`, `C82_other_accuracies_refuted` |
| C83 | the quadrature for 3 digits is off by more than 1/200 at a displacement of (0, 27/8, 1) boxes | `C83_three_digits_refuted` |
| C79 | Barnes-Hut at theta = 1/4: a box touching a larger target leaf from below is accepted; the charge in it is lost but for an arbitrarily small part, whatever the order | `C79_larger_leaves_refuted` |
| C61 | 0 digits: the tables of the Laplace kernel are written out of bounds; more than 14: the degrees are read out of bounds | `C61_digits_refuted` |
| C67 | digits other than 3, 6, 9: the exponential tables are sized and filled from members that were never assigned | `C67_digits_refuted` |
| C67 | 6 digits: no `break`, the quadrature of 9 digits is used, six arrays leak | `C67_six_refuted` |

## Trusted base

* Coq 8.16.1 kernel, including its virtual machine (`vm_compute`; `QuadRun` and `QuadEps` compute for half a
  minute with it, and coqchk, which has no virtual machine, needs about 14 minutes for `QuadRun`).
* The assumptions printed by `Print Assumptions`, below.
* The faithfulness of the transcription, decided by reading.
* The HPX-5 semantics and C++ library contracts listed above.

### Assumptions of the theorems

All theorems not listed are closed under the global context.  Every axiom is
from Coq's standard library.

| theorems | axioms |
|---|---|
| `C65_additions`, `C97_parameter_refuted`, `C97_ranks_refuted`, `C97_unknown_refuted`, `C98_shared`, `C98_indices`, `C98_tests` | `ClassicalDedekindReals.sig_forall_dec` |
| `C101_domain`, `C43_*`, `C67_six_refuted`, `C74_depth`, `C74_built`, `C75_combination`, `C75_any_order`, `C75_positive`, `C75_zero_total_refuted`, `C76_sqf`, `C77_scale`, `C88_additions`, `C90_additions`, `C92_share`, `C96_parameter`, `C96_order`, `C97_three`, `C98_calls`, `C98_kernel`, `C98_unchecked_refuted`, `C98_refused_refuted` | `ClassicalDedekindReals.sig_forall_dec`, `FunctionalExtensionality.functional_extensionality_dep` |
| `C101_points`, `C101_same`, `C101_signs_refuted`, `C101_reference`, `C101_combined`, `C101_plummer_refuted`, `C101_kernel_refuted`, `C101_release_refuted`, `C101_refused`, `C37_mac`, `C37_safe_if_not_below`, `C37_tested_point`, `C37_dag`, `C37_accepts_too_much_refuted`, `C52_direct`, `C52_single`, `C52_worse_than_monopole_refuted`, `C58_outside`, `C58_sqf`, `C60_source_at_centre_refuted`, `C60_target_at_centre_refuted`, `C62_rounded`, `C65_in_place`, `C66_s_to_t`, `C67_table`, `C68_wave`, `C68_all_frequencies`, `C69_*`, `C75_direct`, `C75_direct_potential`, `C75_single`, `C77_direct`, `C77_direct_self`, `C78_at_centre_refuted`, `C78_too_far_refuted`, `C78_too_far_source_refuted`, `C78_other_accuracies_refuted`, `C81_direct`, `C81_direct_self`, `C87_out_of_range`, `C88_direct`, `C88_barnes_hut`, `C88_own`, `C88_records`, `C89_*`, `C93_*`, `C97_error`, `C97_mean`, `C97_imaginary_refuted`, `C98_compared`, `C98_zero`, `C98_last`, `C98_wrong_pair_refuted`, `C98_unknown_refuted` | `ClassicalDedekindReals.sig_forall_dec`, `FunctionalExtensionality.functional_extensionality_dep`, `ClassicalDedekindReals.sig_not_dec` |
| `C52_wrong_sign_refuted`, `C55_*`, `C56_*`, `C58_legendre`, `C59_*`, `C60_only_centre`, `C61_*`, `C62_exact`, `C62_total`, `C62_upward`, `C63_exact`, `C64_*`, `C65_fmm`, `C66_direct`, `C66_barnes_hut`, `C67_digits_refuted`, `C68_M_to_I`, `C70_e_to_l`, `C71_*`, `C72_*`, `C74_fmm`, `C74_fmm97`, `C74_direct`, `C74_barnes_hut`, `C75_field`, `C75_direct_gradient`, `C75_gradient`, `C75_classes_disagree_refuted`, `C76_bessel_k`, `C76_bessel_i`, `C77_multipole`, `C77_local`, `C77_multipole_regular`, `C77_local_regular`, `C77_adds`, `C78_beyond_100_refuted`, `C79_*`, `C80_*`, `C81_scale`, `C81_multipole`, `C81_local`, `C81_multipole_regular`, `C81_local_regular`, `C81_adds`, `C82_at_centre_refuted`, `C82_small_distance_refuted`, `C82_small_domain_refuted`, `C82_deep_refuted`, `C83_*`, `C84_*`, `C87_bessel_In`, `C87_gamma`, `C87_bessel_i`, `C87_multipole`, `C87_local`, `C87_multipole_regular`, `C87_local_regular`, `C90_barnes_hut`, `C90_own`, `C90_records`, `C92_plot`, `C92_inside_refuted`, `C92_last_event_refuted`, `C92_no_workers_refuted`, `C92_utilization_refuted`, `C96_laplace`, `C96_evaluate`, `C96_used`, `C96_digits`, `C96_stretched`, `C96_own`, `C96_interleaved_refuted`, `C97_digits_refuted`, `C98_sources`, `C98_mass`, `C98_mass_refuted` | `ClassicalDedekindReals.sig_forall_dec`, `FunctionalExtensionality.functional_extensionality_dep`, `ClassicalDedekindReals.sig_not_dec`, `Classical_Prop.classic` |

The standard library's reals also declare parameters of the module types that
`Rdefinitions` instantiates (`RbaseSymbolsImpl`, `RinvImpl`), and ssreflect's
`Under_rel` (loaded through Coquelicot) does the same; they are opaque
definitions, not axioms.

## Not modelled

Kernel numerics other than `ComModel`, `AccModel`, `LapModel`, `TranModel`, `WaveModel`,
`YukModel`, `BesInModel`, `HelmModel`, `ComRunModel`, `FieldRunModel`, `PotModel` and `Pot97Model` (`bessel_Jn`, `bessel_Yn`, the
translations and waves of the Yukawa and Helmholtz kernels; how small the error of the quadrature
of the Laplace kernel is at six and nine digits, which C72 takes as given; C84 bounds it at three), floating point rounding, HPX-5 itself, GAS
addressing and pinning beyond `RankwiseModel`, the command line demos but for the steps of one (`StepModel`) the basic one (`BasicModel`) and the programs of the tests (`ToolsModel`, `MakeModel`), the runtime's writer of
traces, memory exhaustion outside `Array::allocate`.

## Seeded bugs

`seeded/LOG.jsonl` lists edits of the model that imitate realistic bugs, with
the theorems that stopped compiling and those tightened as a result.
