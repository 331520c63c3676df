# Formal model of BOUT-dev in Rocq (Coq 8.16.1)

## Layout

* `properties.jsonl` — the English properties C01, C02, ...
* `rocq/theories/<Area>Model.v` — executable/total Gallina transcription of the C++ (each definition cites
  file and lines in /repo, and says where it simplifies).
* `rocq/theories/<Area>Spec.v` — small specification vocabulary that does not mention the model.
* `rocq/theories/<Area>Proofs.v` — lemmas.
* `rocq/theories/<Area>Props.v` — only the property theorems (`exact lemma`), each with its
  `Print Assumptions`, and the `Example`s showing that the hypotheses are met by concrete cases.
* `seeded/LOG.jsonl` — log of seeded wrong-model experiments.

## Modelling conventions

* C++ `int` is modelled by unbounded `Z` with C++ semantics of `/` and `%` (`Z.quot`/`Z.rem`, truncation to
  zero); overflow is not modelled unless a property is about it.
* `BoutReal` is modelled by exact numbers (Coq `R`): theorems are about the algorithm, not its rounding.
* Exceptions are an explicit outcome. Undefined behaviour (e.g. `%` by 0, bad index) is either an explicit outcome
  or excluded by a stated precondition that the caller must meet.
* Mutation becomes returning the new value; loops become structural recursion or folds; pointers that alias become
  explicit heap addresses (Array, RangeIterator).

## Plan per property

| id | what is modelled | how it is proved |
|----|------------------|------------------|
| C01 | `SpecificInd`, Matrix/Tensor flat indexing over Z | div/mod algebra |
| C02 | xp/xm/yp/ym/zp/zm/offset | case analysis on wrap, modular arithmetic |
| C03 | the `while(!done)` loop of createRegionIndices with fuel | loop invariant; equality with the nested enumeration |
| C04 | getContiguousBlocks / getRegionIndices loops | induction on remaining points |
| C05 | mask/intersection/sort/unique/+ | list induction; std::sort modelled by its contract as an insertion sort on `ind` |
| C06 | offset/periodicShift | modular arithmetic |
| C07 | interleavings of block executions as an inductive relation | permutation/commutation induction |
| C08 | heap of blocks with reference counts + store, transition system | invariant by induction over operations |
| C09, C10 | heap-free chain of ranges; `-=` transcribed | induction; `_refuted` where the code violates the property |
| C11 | the DP table of editDistance | induction against an inductive edit-script relation |
| C12 | string functions on list ascii | list induction |
| C13-C15 | Options tree (values, attributes, children, used flag) | tree induction |
| C16 | line reader + command line parser | list induction |
| C17-C19 | lexer, recursive-descent parser, evaluator | fuel-indexed recursion; induction over trees |
| C20, C23, C24 | BoutMesh index arithmetic and decomposition | div/mod algebra (lia/nia) |
| C21 | set_connection/topology over all processors | invariant over the sequence of set_connection calls |
| C22 | pack/unpack over lists | induction |
| C25, C26 | CyclicReduce reduce/back_solve/2x2/periodic, distribution | linear-algebra invariants over lists of rows |
| C27, C28, C30, C31, C35, C36, C37 | real formulas | `field`/`nra` plus induction where sizes vary |
| C29 | periodic telescoping sum | induction |
| C32 | loop_vars order | induction over regions |
| C33 | monitor list transition system | invariant over histories |
| C34, C38 | stack / timer state machines | refinement to abstract stack / interval sum |
| C39 | Options flattening | tree induction |
| C40-C44 | finite-volume operators of fv_ops over real functions on index boxes, faces as lists of writes | telescoping sums over the writes; `field`; `_refuted` by a concrete field |
| C45, C46 | Christoffel symbols and vector operators as real formulas over abstract first derivatives obeying Leibniz | `field` under det <> 0 |
| C47 | all processors' sends/receives/waits as a distributed system, arrival order arbitrary | invariant over the received set; equality with the topology's neighbour |
| C48 | boundary-region iterators as state machines | induction over the iteration |
| C49 | outer and inner loops of the fixed/adaptive solvers with fuel | loop invariants on (time, remaining steps) |
| C50 | coefficient computation and history of Adams-Bashforth | polynomial quadrature, Lagrange basis |
| C51 | RKL stage recurrence | Legendre recurrence, induction on stages |
| C52, C53 | bracket loops, all cells | re-indexing of periodic sums, `ring`, maximum principle by convexity |
| C54, C55 | FieldFactory resolve/parse with cache and stack as a state monad, parser a parameter | induction on fuel against an inductive meaning relation |
| C56-C59 | rfft/irfft with their cached plan; FFTW by its documented sums | orthogonality of cosines and sines, proved from scratch for every length |
| C60-C63 | matrices, cyclic solve (C25) and transforms (C56) composed as the code does | mode-by-mode equations summed back to real space |
| C64 | formatter as a recursive function to text; composed with the reader of C16 | tree induction: the text is one of the `writes` of a document whose meaning is the tree |
| C65 | as<int>, as<BoutReal>, as<bool> over the expression parser of C17 | rounding lemmas over R; C17 for the text of integers |
| C66 | limits of the six iterators as computed from the connections; loop of C09 | connections read as field lines through C21, then arithmetic on the limits |
| C67 | createX/YBoundaries as lists of labelled regions of BndryModel | cells of each region by arithmetic, membership by C21; completeness by a representative row for each y class |
| C68 | createDefaultRegions and addBoundaryRegions over RegionModel, names as an association list | region algebra (C05) lifted to sets of points |
| C69 | createCommunicators as group operations on lists of ranks, getYcomm, SurfaceIter first/last | lists in units of processors, then links of C21 along each list; `above`/`below` symmetry |
| C70 | ySize as written | length of the list of C69 times the rows of a processor |
| C71 | GlobalIndexer construction over RegionModel/BoundsModel, MPI_Scan as a prefix sum, initialise as CommModel.communicate | region algebra as sets of points; prefix sums; C47 for the exchange |
| C72 | OperatorStencil lookup and calculateSparsity on functions of the row | double counting of (guard cell, offset) pairs |
| C73 | BoundaryFactory::create on character lists, the registered names as a table | a grammar of spellings as an inductive relation; induction on the setting; the nested keyword bug is refuted |
| C74 | createFromOptions, setBoundary, markBoundariesAsConditionallyUsed as written | the chosen setting as an ordered relation, unique; case analysis |
| C75 | getField and readField as written on flat storage, CHECK as a parameter, the mesh of C20-C24 | loop invariants for the nested loops; arithmetic of offsets over load_decomposition |
| C76 | the Options tree of the file as a function of names with the source flag | induction over the history of requests |
| C77 | the reductions as folds over any distribution of the region's blocks over threads and any order of ranks | induction over the groups; a permutation between the cells of all ranks and the points of the grid (from C20) |
| C78 | averageX/Y, Average_XY, Vol_Integral over the communicators of C69 | mean of means of equal parts; the processors of a row or column enumerate the global indices; the branch cut failure is refuted on a single null grid |
| C79 | nl_filter's loop over functions of the position | each step moves an amount between neighbours; sums of indicator functions |
| C80 | FvalModel: every live Field3D object (variables, ddt(f), elements of yup/ydown) with its data pointer, blocks, reference counts; copy/move constructors and assignments, assignment of a number, Field2D, FieldPerp, binary and update operators with their loops reading the current memory, allocate, swap, slices, destructors | invariant (distinct objects, live blocks of mesh size); each step has the effect of FvalSpec on values; isolation over histories; the two branches of op= agree; own-slice operands and writes through shared data refuted |
| C81 | GfieldModel: origins and sizes, packed buffers, global array with bounds, messages in any order, scatter into uninitialised fields | loops of writes at distinct flat indices (invariant over the loop); partition of the global grid by the owned cells from the decomposition invariant; induction over the arrival order |
| C82 | SptModel: tridagForward and tridagBack with array bounds, the five computations of start/next, the message travelling over the processors, all modes | forward loop = LU recurrences of the global matrix (invariant over the loop and over processors); pivots from leading minors; back substitution; uniqueness by elimination |
| C83 | SptcModel: start/next/finish as sequences of compute, irecv, wait, send per processor; the loops of solve(Field3D)/solve(FieldPerp); executions: any interleaving, delayed deliveries | abstract visits simulate the data.proc/data.dir control; phase invariant per slice and processor with channel contents; progress by the first visit not completed by all; step count by sum of phases |
| C84 | CmdlineModel: parseCommandLineArgs with its two passes over the arguments, erasing of used arguments, handing on to Options; the file names used by BoutInitialise | words as written by the user and their meaning (CmdlineSpec); induction over the words; settings through C16's command actions |
| C85 | MpiModel: generic machine of processors with Isend, Irecv, Wait and reuse of buffers, messages per (source, destination, tag) in order, any buffering; PcrModel: cr_pcr_solver with its five stages as programs of that machine, all systems, boundary rows | one execution by rounds (all post, all wait) with invariants of the reduced rows at each level; confluence of the machine (diamond property) carries its result and length to all executions; reduction and elimination preserve solutions; dominance gives the pivots |
| C86 | FciModel on top of InterpModel: the FCIMap constructor (mask, weights, hits), the regions, calcParallelSlices for any number of slices, the four parallel boundary conditions and the loops over the regions | loop invariants over the region list; the four regions are applied one after the other with a frame condition; field arithmetic for the formulas; refutations on a two point mesh |
| C87 | ImexModel: init, the three nested loops of run, calculateCoeffs, shuffleState, take_step, the predictors; nonlinear solve, non-stiff right hand side and error estimate are oracles; arithmetic is a parameter (reals for theorems, rationals for counterexamples) | moments of the coefficients by field for orders 1 to 4 in ratios of steps, Taylor shift of polynomials; invariant tying the histories and the stored coefficients to the log of accepted steps; measure on the two retry counters |
| C88 | ParInvModel: the metric factor, the coefficients, the layout of rows on open and closed surfaces (also CELL_YLOW), the phase at the twist cut, the boundary rows, on top of CyclicModel (parallel solve) and FftModel (transforms, alignment shifts); specification: the operator written with differences in y and derivatives in z | rows of all processors form one tridiagonal system in the global index; Fourier transform of the operator gives its coefficients mode by mode; keep/Nyquist analysis of the real transforms; maximum argument for dominated systems |
| C89 | as C88 with the coefficients of pardiv_cyclic.cxx; specification: fluxes through faces | as C88; telescoping sum of face fluxes, mean along z invariant under shifts |
| C90 | NcModel: writeGroup with its visitors, findDimension, time indices in attributes, on a model of a NetCDF file (groups, dimensions, variables as arrays with fill values, attributes; exceptions leave what was done); specification: the entries of option trees and lists of records | invariant of the file relative to the list of entries written so far, preserved by every library call and by partial writes; separate invariant for histories that keep to a plan (no throw) |
| C91 | verifyTimesteps with the comparison of dimension objects as a parameter | size of an unlimited dimension is reached by some variable; counting of records over complete histories; pairs of siblings in the sorted order of names |
| C92 | readGroup, read attributes | enumeration of index tuples is row-major; from the invariant of C90 |
| C93 | LaplaceNaulin::solve with its two nested loops, coefficients split into averages and deviations; the direct solver is a parameter with the properties of C60; statistics | algebra: averaged operator minus lagged right hand side = whole operator minus rhs, over D; every pair came out of a direct solve (invariant of both loops); contraction bounds each error by q^n; means by induction over calls |
| C94 | LaplaceXZcyclic constructor, setCoefs (history), solve with the cyclic reduction of C25 and the FFTs of C56 | rows numbered over processors as in C60; non-singular by a maximum principle on real and imaginary parts; mode equations summed back; difference of two results solves the homogeneous systems |
| C95 | HeatFluxSNB::divHeatFlux, groupWeight; the solver is a parameter with the properties of C89; FV::Div_par_K_Grad_par as in C66 | weights by differentiating the primitive (Coquelicot); loop over groups by induction; group equations from C89_equation, integrals from C89_conserves and a telescoping sum; termination by diagonal dominance of every group's matrix |
| C96 | gyroTaylor0, gyroPade0/1/2 (all kinds of radius) on the state of the default Laplacian (options, flags, coefficients); its solve is a parameter with the properties of C60; Delp2 from the model of coordinates.cxx | equations from C60_equation through the Fourier transform; history by induction over the sequence of calls with an invariant on the state |
| C97 | the seven functions of sourcex.cxx and TanH, GlobalX and the exchange of x guard cells over all processors; TanH also with the infinities and NaN of floating point | each function equals a spread-out function of the global position (through the exchange); tanh facts from exp; refutations by bounds |
| C98 | smooth_x, smooth_y with the exchange of guard cells over all processors; smoothXY on one processor, cells that are not set are None | values by the exchange lemma (every cell is computed by its owner), waves by addition theorems, sum by telescoping induction |
| C99 | the generate functions of the generators as functions of the context; ROUND and the truncation to int; GlobalX of MaskModel; the logistic map | the sum over turns by induction, end terms by telescoping; index search from the linearity of GlobalX; range of the random numbers by an invariant of the logistic map |

## Trusted base

1. Coq 8.16.1's kernel (`coqc`), its standard library, and the libraries used: Coquelicot (complex numbers, derivatives),
   Flocq and mathcomp are not used in any statement. No axiom is added by this development; `Admitted`, `admit`, functors,
   module types, `Declare Module`, `Variable` outside a section, plugins and disabled checks are not used.
2. Standard library axioms, as listed by `Print Assumptions` for each theorem: see the table below.
3. The transcription. That each `*Model.v` says what the cited C++ lines do is a matter of reading, not of proof. The simplifications
   are listed at the head of each file and at the definitions. The main ones:
   * real arithmetic is exact; floating-point rounding, overflow, NaN and infinities are not modelled (except that a division
     by zero is excluded by hypothesis or by an explicit outcome);
   * C++ `int` is unbounded unless stated;
   * the external libraries are represented by their documented contracts: MPI (messages between a pair of processes with the same
     tag arrive in order, any interleaving otherwise), FFTW (the sums of its manual), `std::sort`, `std::map`, `std::stod`;
   * OpenMP is an arbitrary interleaving of the blocks of a loop (C07); elsewhere loops are sequential;
   * a build without CHECK levels above the default, without 3D metrics, without GPU (RAJA/Umpire) support.

### Which parts of the code are modelled

| files in /repo | model | properties |
|---|---|---|
| include/bout/region.hxx, utils.hxx (Matrix, Tensor) | RegionModel | C01-C07 |
| include/bout/array.hxx | ArrayModel | C08 |
| include/bout/sys/range.hxx, src/sys/range.cxx | RangeModel | C09, C10 |
| src/sys/utils.cxx (strings) | StringsModel | C11, C12 |
| src/sys/options.cxx, include/bout/options.hxx | OptionsModel | C13-C15, C39 |
| src/sys/options/options_ini.cxx, src/sys/optionsreader.cxx | IniModel | C16 |
| src/sys/expressionparser.cxx, include/bout/sys/expressionparser.hxx, generator_context.hxx | ExprModel, ExprEvalModel | C17-C19 |
| src/field/field_factory.cxx (findOption, resolve, parse) | FactoryModel | C54, C55 |
| src/mesh/impls/bout/boutmesh.cxx (decomposition, topology, connections, index maps, communication) | MeshModel, TopoModel, CommModel, SolverModel | C20-C24, C47 |
| src/mesh/mesh.cxx (communicate, getNeighbours) | CommModel | C22, C47 |
| include/bout/cyclic_reduction.hxx | CyclicModel | C25, C26 |
| src/mesh/coordinates.cxx (calcCovariant, jacobian, geometry, Delp2), src/field/vecops.cxx, vector3d.cxx | GeomModel, LaplaceModel | C27, C37, C45, C46, C61 |
| src/mesh/index_derivs.cxx, include/bout/index_derivs.hxx, stencils.hxx | DerivModel, FftModel | C28-C30, C59 |
| src/mesh/boundary_standard.cxx, boundary_region.cxx | BndryModel, LaplaceModel | C31, C48, C62 |
| src/solver/solver.cxx, include/bout/monitor.hxx | SolverModel, MonitorModel | C32, C33 |
| src/solver/impls: euler, rk4, rk3-ssp, rkgeneric (all schemes), split-rk, adams_bashforth | LoopModel, RkModel, RklModel, AbModel | C35, C49-C51 |
| src/sys/msg_stack.cxx, src/sys/timer.cxx | SysModel | C34, C38 |
| src/mesh/interpolation_xz.cxx, src/mesh/interpolation/*.cxx | InterpModel | C36 |
| include/bout/fv_ops.hxx, src/mesh/fv_ops.cxx | FvModel | C40-C44 |
| src/mesh/difops.cxx (bracket) | BracketModel | C52, C53 |
| src/invert/fft_fftw.cxx, src/field/field3d.cxx (filter, lowPass, DC, shiftZ), src/mesh/parallel/shiftedmetric.cxx | FftModel | C56-C58 |
| src/invert/laplace/invert_laplace.cxx, impls/cyclic/cyclic_laplace.cxx | LaplaceModel | C60, C63 |
| src/sys/options.cxx 915-1041 (formatter), options_ini.cxx 150-165 | IniWriteModel.v | C64 |
| src/sys/options.cxx 301-468 (as<T>) | OptConvModel.v | C65 |
| src/mesh/mesh.cxx 557-655, src/mesh/impls/bout/boutmesh.cxx 924-1052, 2419-2967 | BoundsModel.v | C66, C67, C68 |
| src/mesh/impls/bout/boutmesh.cxx 582-922, 1564-1593, 2364-2413, src/mesh/surfaceiter.cxx | YcommModel.v | C69, C70 |
| include/bout/globalindexer.hxx, include/bout/operatorstencil.hxx | IndexerModel.v | C71, C72 |
| src/mesh/boundary_factory.cxx, src/field/field_data.cxx 97-161, include/bout/boundary_op.hxx 55-95 | BfactModel.v | C73, C74 |
| src/mesh/data/gridfromfile.cxx (FieldPerp and the FFT format left out), include/bout/griddata.hxx | GridModel.v | C75, C76 |
| include/bout/field.hxx 298-453 | ReduceModel.v | C77 |
| src/physics/smoothing.cxx 117-374, 404-430 | AverageModel.v | C78, C79 |
| `src/field/field3d.cxx` (constructors, assignments, allocate, slices, swap), `src/field/generated_fieldops.cxx` (Field3D operators) | FvalModel | C80 |
| `src/field/globalfield.cxx`, `include/bout/globalfield.hxx` | GfieldModel | C81 |
| `src/invert/laplace/impls/spt/spt.cxx` (tridagForward, tridagBack, start, next) | SptModel | C82 |
| `src/invert/laplace/impls/spt/spt.cxx` (solve, start, next, finish: schedule), `src/mesh/impls/bout/boutmesh.cxx` (sendX, irecvX, wait) | SptcModel | C83 |
| `src/bout++.cxx` (parseCommandLineArgs, help words, file names of BoutInitialise) | CmdlineModel | C84 |
| `src/invert/laplace/impls/pcr/pcr.cxx` (cr_pcr_solver and all it calls; which calls set nsys) | MpiModel, PcrModel | C85 |
| `src/mesh/parallel/fci.{cxx,hxx}` (not integrate), `src/mesh/parallel_boundary_{op,region}.cxx`, Field3D::applyParallelBoundary | FciModel | C86 |
| `src/solver/impls/imex-bdf2/imex-bdf2.cxx` (time loop, coefficients, history; not the PETSc set up, constraints, preconditioner) | ImexModel | C87 |
| `src/invert/parderiv/impls/cyclic/cyclic.cxx`, `src/invert/pardiv/impls/cyclic/pardiv_cyclic.cxx` (solve of one surface) | ParInvModel | C88, C89 |
| `src/sys/options/options_netcdf.cxx` (all; the NetCDF library itself is modelled from its documentation and trusted: nearest dimension of a name in the enclosing groups, size of an unlimited dimension = largest variable, fill values, bounds of fixed dimensions, sync makes writes durable, legal names; a stored time index of another type than integer counts as an error) | NcModel | C90, C91, C92 |
| `src/invert/laplace/impls/naulin/naulin_laplace.{cxx,hxx}` (constructor checks excepted; no integrated shear; fields over all processors) | NaulinModel | C93 |
| `src/invert/laplacexz/impls/cyclic/laplacexz-cyclic.{cxx,hxx}` (mesh assertions excepted; fields over all processors) | XzModel | C94 |
| `src/physics/snb.cxx`, `include/bout/snb.hxx` (reading of options excepted; identity transform, one surface, fields over all processors) | SnbModel | C95 |
| `src/physics/gyro_average.cxx`, `include/bout/gyro_average.hxx` (cyclic Laplacian, one y index) | GyroModel | C96 |
| `src/physics/sourcex.cxx`, `boutmesh.cxx` GlobalX (exchange in y left out) | MaskModel | C97 |
| `src/physics/smoothing.cxx` smooth_x, smooth_y, smoothXY | SmoothModel | C98 |
| `src/field/fieldgenerators.cxx` (all; argument counts left out), FieldRound | FgenModel | C99 |

### Which parts are not modelled

Everything not in the tables above, in particular: ADIOS and HDF5 output, the NetCDF library itself (its documented
behaviour is part of the model of OptionsNetCDF); the PETSc, SUNDIALS, HYPRE and LAPACK interfaces and the solvers built on
them; the Laplacian solvers multigrid, PDD, iterative parallel tri, petsc, hypre, serial_tri and serial_band; the Python tools;
physics models and examples; output formatting and logging; memory limits; signal handling. The standard field generators
(sin, gauss, ballooning, ...) are opaque functions in C19 except where listed.

## Findings

Places where the code does not do what the property (or its own documentation) says. Each `_refuted` theorem proves the failure
for the model; the others are recorded here only.

* Ranges: subtraction `-=` is wrong or reads freed memory for several shapes of input (C10 `_refuted`); a null range inside a
  chain misbehaves (C09_null_range_refuted).
* Expressions: a minus after another operator does not negate: `2*-3` is `(2*0)-3` (C18_minus_after_operator_refuted); `)` may be
  replaced by `]`; `1e+x` is lexed by the prefix rule of `stod`; `{}` is not an empty name.
* FieldFactory: `name.substr(lastpos, pos)` takes a length where a position is meant: names with two or more sections (`a:b:vw`)
  are not found or find something else (C54); after an exception `lookup` keeps the key and `options` stays at the inner section;
  cached values survive option changes until `cleanCache`.
* Mesh: getGlobalYIndex can be wrong just below an upper target (C20_global_y_refuted); accepted topologies whose connections are not
  symmetric (C21 `_refuted`).
* Solver: `getLocalN` keeps its result in a static variable shared by all solver objects; fast monitors (C33 `_refuted`).
* CyclicReduce needs at least two rows per processor (reads out of bounds otherwise); the 2x2 determinant is not checked.
* Boundary conditions: dirichlet_4thorder and neumann_4thorder have wrong coefficients / sign and write a second guard cell even when there
  is one (C31 `_refuted`); Neumann sets only the first guard cell (and the second when the width is 2);
  BoundaryNeumann_NonOrthogonal (Field2D) tests `bndry->bx == 2`; BoundaryRelax ignores the time argument; BoundaryConstLaplace
  (Field2D) has a sign error.
* Runge-Kutta: setCurState skips tableau coefficients smaller than the solver's absolute tolerance (C35_any_tolerance_refuted); RKGeneric
  loops until mxstep when the error equals the tolerance exactly; RK4 with error zero sets an infinite step; SplitRK with
  adapt_period > 1 advances state and clock differently (C49_splitrk_period_refuted), and its diffusion stages use wrong times
  (C51_time_dependent_refuted); Adams-Bashforth accepts orders above 8 but has no consistent coefficients (C50_order_nine_refuted).
* Interpolation: Lagrange interpolation in the first x cell does not reproduce linear fields; positions outside the array are read out
  of bounds; interpolate(Field2D, ...) truncates towards zero (C36 `_refuted`).
* Input: `[ a ]` keeps the blanks of a section name, `[a] junk` names a section `a] junk`; the command line `a :b=1` names a section
  `a `; parseCommandLine ignores its options argument.
* Finite volumes: D4DY4 is twice the operator (C43), D4DY4_Index counts faces twice or once depending on the decomposition, Div_Perp_Lap adds
  the flux through the lower z face (C44).
* Geometry: G2_22 differentiates the contravariant g23 (C45_christoffel_refuted).
* Brackets: bracket(Field3D, Field2D, ARAKAWA) with one z point reads outside the row (C52_one_z_point_refuted).
* Fourier: lowPass with zmax < -1 and keep_zonal = false writes before the array (C57_negative_zmax_refuted); the highest mode of an even
  number of points does not survive to/fromFieldAligned (C58_highest_mode_refuted); D2DZ2 is not DDZ twice (C59_twice_refuted).
* Laplacian: the outer boundary branches for the average test the inner flags (C60_outer_dc_flags_refuted); GRADPAR reads past the end of the
  array on one processor (C60_gradpar_refuted); an imposed outer gradient uses the metric of another cell on several processors
  (C60_outer_gradient_refuted); the IncIntShear term is not multiplied by D; the default maxmode = nz/2 includes the highest mode, which is
  not solved for correctly when G3 or g13 is not zero; periodic x removes the mean even when A <> 0 (C63_helmholtz_refuted).
- `OptionINI::write` (C64): a doc string with a line break writes its second line as a new option; values with `#` or `;`, surrounding quotes or unbalanced brackets do not survive (`C64_unsavable_refuted`). BoutReal values are written by `std::stringstream` with six significant digits, so BOUT.settings does not reproduce them.
- `Options::as<int>` of a number outside the range of int is undefined behaviour (C65_overflow_refuted).
- `getPossibleBoundaries` (C67): for limiter geometry with several processors in x and y it misses `upper_target` (it looks at x rank 0 only, which lies inside the separatrix), so `bndry_upper_target` is reported as an unused option on the other processors (`C67_possible_refuted`).
- `createYBoundaries` (C67): without include_corner_cells the corner cells next to open field lines are in the y regions all the same (`C67_corners_excluded_refuted`).
- `iterateBndry*Y` (C66): with include_corner_cells and one interior column the corners are left out; with the separatrix along the inner edge they are visited although connected.
- `BoutMesh::ySize` (C70): off by one in the private flux regions and between the separatrices; the upper private flux test uses `yglobal >= jyseps1_2`, so the core of a single null past jyseps2_1 gets 0 (`C70_ysize_refuted`).
- `GlobalIndexer` (C71): with a periodic x direction and include_corner_cells (the default), corner cells of the y boundaries read by the square stencil get numbers that the exchange in x then overwrites, so rows of the matrix belong to no cell (`C71_corner_refuted`).
- `BoundaryFactory::create` (C73): keywords inside of a modifier (`relax(mine(w=2))`) are taken for keywords of the modifier, and `arglist.front()` of an empty list is undefined behaviour (`C73_nested_keywords_refuted`); a modifier on a parallel boundary silently sets no condition and keywords of a modifier are dropped (`C73_parallel_modifier_refuted`).
- `FieldData::markBoundariesAsConditionallyUsed` (C74): bndry_par_all and bndry_par_yup_xin etc. are consulted but not marked (`C74_marked_refuted`). Seen while reading, not modelled: `BoundaryRelax::apply(Field3D&, BoutReal t)` does not pass t on.
- `GridFile::getField` (C75): `if (grid_xguards >= 0) ... else if (grid_xguards == 0)` makes the second case dead, so a variable without x boundaries fails an ASSERT1 or, with CHECK = 0, is written outside of the field; more x guards than MXG are written outside of the field even with CHECK = 2 (`C75_xguards_refuted`); y_boundary_guards > MYG is said to be allowed and is not (`C75_yguards_refuted`); without ny_inner in the file every processor of a double null grid with boundary rows skips 2*y_boundary_guards rows (`C75_ny_inner_refuted`); a 2D variable for a Field3D reads size[2] of a vector of two (`C75_2d_for_3d_refuted`; the same for FieldPerp, not modelled).
- `GridFile::get(int / BoutReal)` (C76): the default of a missing number is stored with an empty source, so a second request finds it as if it were in the file, with the first default (`C76_missing_refuted`); after BoutMesh::load asked for nz, hasVar("nz") is always true and 3D variables in FFT format cannot be read (`C76_fft_refuted`).
- `isUniform(f, allpe = true)` (C77) combines the ranks with MPI_LOR, so it is true as soon as one rank is uniform, and ranks are not compared: getUniform then returns different values on different ranks (`C77_uniform_allpe_refuted`); `min`/`max` read the first element of an empty vector where the region has no cell on a rank (`C77_empty_region_refuted`).
- `averageY` (C78) uses the communicator of column 0 for all columns (a comment in the code says it only works without branch cuts): beyond a separatrix it averages over the wrong processors, and Average_XY and Vol_Integral then differ between processors (`C78_branch_cut_refuted`).
- C80: `f = f.yup()` replaces the vector holding the source before reading the source's data (undefined behaviour, in practice f becomes empty); `f += f.yup()` clears the slices before the loop when f's data is not shared (undefined behaviour), but works when it is shared. An element written through a copy that still shares its data changes the original (documented: call allocate() first).
- C81: the field returned by `scatter` has uninitialised guard cells (all y guard cells and boundaries; the x guard cells between processors): `C81_guard_refuted`. It must be communicated and have its boundaries applied before any derivative is taken.
- C82: LaplaceSPT takes the c coefficient left of its first point from its own guard cell (comment in the code: ASSUMES C NOT CHANGING); if it differs from that of the neighbouring processor the result is wrong (`C82_guard_coefficient_refuted`). A zero pivot in the first row of a processor is not detected, unlike in the other rows (`C82_zero_pivot_refuted`).
- Seen while modelling C83: `Mesh::hasBndryLowerY` and `hasBndryUpperY` (mesh.cxx 400-432) keep their answer in function statics, shared by all Mesh objects: a second mesh with different boundaries gets the answer of the first. C83 assumes the slices ys..ye are the same on all processors of a row.
- C84: `datadir=run` (the long form that -d is translated to) makes the settings file go to `run` but the input and log are read/written in `data` (`C84_long_form_refuted`); `settingsfile=BOUT.inp` overwrites the input file, the check is only made for the switch (`C84_overwrites_input_refuted`); an empty value after a switch such as `-d ""` is dropped and the following argument becomes the value (`C84_empty_value_refuted`); the help text documents `--list-laplacexz`, the program understands `--list-laplacexzs` (`C84_documented_switch_refuted`).
- C85: `LaplacePCR::solve(FieldPerp, FieldPerp)` does not set the member `nsys` (only `solve(Field3D, Field3D)` does, pcr.cxx:362): on an object that has not solved for a Field3D before, it is 0, no system is solved and the memory returned was never written (`C85_fieldperp_refuted`); after a Field3D solve the loops run over nmode * ny systems in arrays allocated for nmode. `LaplacePCR_THOMAS` has the same lines (read, not modelled).
- C86: with two parallel slices (MYG = 2) the hits of lines to the second plane are put into the same regions as those to the first: the conditions overwrite interpolated values of the first slice, and the second slice is never set (`C86_two_slices_refuted`); `parallel_dirichlet_O3` reads a slice value that was never set when a line leaves in both directions (`C86_o3_short_line_refuted`); `parallel_dirichlet_interp` does not keep a constant constant (`C86_interp_refuted`: the length is multiplied by dy twice, and the formula mixes dimensions); the inner and outer regions have the same name and applyParallelBoundary(region, condition) stops at the first (`C86_region_name_refuted`).
- C87: when a step whose error is not checked fails and the halved step is raised to dtMin and so equals the previous steps, `lastTimesteps != timesteps` is false and the coefficients computed for the failed step length are used (`C87_stale_refuted`); an error-checked step shortened to end at an output time leaves its short length as the next step (the reset of dtNext is in the branch for unchecked steps only), and the run aborts with "tried to go below minimum" (`C87_remainder_refuted`); maxOrder = 1 reads timesteps[1] of a vector of length one (`C87_order_one_refuted`), predictor = 2 with the default maxOrder = 2 reads uV[2] (`C87_quadratic_predictor_refuted`).
- C88, C89: with a shifted metric the values the solver computes for the boundary rows of open surfaces are dropped (`fromFieldAligned(result, RGN_NOBNDRY)`); with an even number of z points the imaginary part of the highest mode is lost on the way back to real space, so right hand sides with that mode are not solved exactly in it when the twist angle or the mixed derivative makes its row complex (`C88_equation_up_to_highest_mode`).
- `NcPutVarCountVisitor` (options_netcdf.cxx:349-385) has no specialisation for `bool`: `var.putVar(start, &value)` with a `const bool*` selects the `const void*` overload, which reads an `int` at the address of the `bool` (C90_bool_record_refuted).
- Options read from a file keep the attribute `current_time_index`; when they are written again with a time dimension, `putAtt` resets the index after every record, so all later records overwrite one (C90_index_attribute_refuted).
- `verifyTimesteps` never compares the first variable of a time dimension in each group (the insertion into the map of dimensions skips the check), so it can lag without an error (C91_first_refuted).
- `readGroup` drops variables of four dimensions (time series of `Field3D`) and integer series silently; series of strings (NC_STRING with one dimension) are read as text, which the library refuses (C92_lost_series).
- `LaplaceNaulin::resetMeanIterations` resets the mean but not the number of calls, so the mean reported afterwards is too small (C93_reset_refuted).
- `LaplaceXZcyclic::solve` computes the outer boundary value asked for by the flags SET and RHS and then overwrites it with zero (laplacexz-cyclic.cxx:253-255; C94_outer_set_refuted).
- `HeatFluxSNB::divHeatFlux` divides by mean free paths that vary with z, while the solver averages the same coefficients over z: with z-dependent temperature or density the correction is not a divergence (C95_equations_averaged), so heat is not conserved exactly.
- `gyroPade0/1/2`: with the option of integrated shear the shear term of the Laplacian is not multiplied by rho^2 (C96_shear); with the default flags, meant for "leaving boundaries unchanged", the value is imposed half way between the two outermost cells (C96_boundary); the calls leave A = C = 1, D = -rho^2 and their flags in the default Laplacian, which other parts of the program share (C96_coefficients_left).
- `mask_x` uses a width of 40 for a coordinate that runs from 0 to 1, so it changes a field by less than 0.1 % everywhere instead of setting it to zero near the boundaries (C97_mask_x_refuted). With `symmetricGlobalX = false` sinks at the right end are not mirror images of those at the left end (C97_mirror_refuted). `TanH` gives NaN when exp|a| overflows, that is for steps narrower than about 1/710 of the distance (C97_tanh_refuted).
- `smoothXY` does not communicate and leaves the two outermost cells of each processor without a value, so with one guard cell the result is not set at points of the domain (C98_smoothXY_refuted).
- `mixmode` sums the harmonics 0 to 13, not 1 to 14 as the manual says: it has a constant part cos(phase)/25 (C99_mixmode). `ballooning` divides by zero on processors with one point in x (C99_ballooning_refuted). Width, centre and steepness of `TanhHat` are evaluated at the origin, so expressions that depend on the position are silently taken there (C99_TanhHat).

## Axioms used by each theorem

(From `Print Assumptions`, theorems grouped by the set of axioms; all are axioms of the standard library.)

* **Closed under the global context (no axioms)**: C08_history_never_stuck, C08_operations_act_on_values, C08_ensure_unique_then_write, C08_store_isolation, C73_understood, C73_parallel, C73_unknown, C73_none, C73_nested_keywords_refuted, C73_parallel_modifier_refuted, C74_lookup, C74_setBoundary, C74_marked, C74_marked_refuted, C48_all_guard_cells_once, C48_nested_loops, C48_innermost_cells, C48_construction, C31_width, C67_x_before_y, C84_understood, C84_all_arguments, C84_help, C84_settings, C84_files_agree, C84_long_form_refuted, C84_overwrites_input_refuted, C84_empty_value_refuted, C84_documented_switch_refuted, C22_pack_unpack, C26_partition, C26_offsets_agree, C26_buffer_large_enough, C26_gather, C26_scatter, C17_parse, C17_unambiguous, C17_minimal_brackets, C17_str, C17_terminates, C17_exact, C17_standard_operators, C18_deterministic, C18_lexes, C18_implicit_times, C18_leading_minus, C18_minus_after_operator_refuted, C54_lookup, C54_terminates, C54_defined, C54_sound, C54_circular, C54_undefined, C54_two_sections_refuted, C55_history, C55_exception_refuted, C55_section_refuted, C55_changed_refuted, C55_rejected_refuted, C55_default_section_refuted, C80_operations_act_on_values, C80_isolation, C80_sharing_irrelevant, C80_writable_after, C80_own_slice_refuted, C80_shared_write_refuted, C81_bad_processor, C75_target_rows, C75_other, C76_missing_string, C76_vector_missing, C87_remainder_refuted, C87_order_one_refuted, C87_quadratic_predictor_refuted, C71_settled, C16_file_performs_document, C16_file_values, C16_file_accepted, C16_malformed_rejected, C16_any_text, C16_commandline_performs, C16_commandline_values, C16_commandline_overrides, C16_override_accepted, C16_any_arguments, C16_blanks_in_header_refuted, C16_text_after_bracket_refuted, C16_blank_before_colon_refuted, C64_written_reads_back, C64_reached_trees, C64_unsavable_refuted, C36_field, C24_ordered, C24_throws_iff, C24_valid_unchanged, C24_idempotent, C20_round_trips, C91_first_refuted, C13_compound_name, C13_assign, C13_read_after_write, C13_read, C14_assign_refused, C14_other_source_wins, C14_force, C14_force_value, C14_withDefault, C14_overrideDefault, C14_isSet, C14_assignRepeat, C15_report, C15_no_empty_sections, C15_check, C39_flattened_keys, C09_iteration_partial, C09_null_range_refuted, C09_iteration_exact, C09_intersects_index, C09_intersects_range, C09_add, C10_subtract_partial, C10_covered_tail_refuted, C10_chain_subtrahend_refuted, C10_use_after_free_refuted, C10_null_subtrahend_refuted, C01_index_of_point_gives_back_point, C01_point_of_index_gives_back_index, C01_no_two_points_share_storage, C02_offsets_reach_the_neighbour, C02_plus_then_minus, C03_box_region, C03_ind2d_zend_check_refuted, C03_indperp_yend_check_refuted, C04_blocks_cover_indices, C04_rebuilding_is_identity, C04_stats, C05_set_algebra, C05_blocks_agree_with_indices, C05_contract_inhabited, C06_offset, C06_periodic_shift, C06_shift_permutes_whole_blocks, C06_shift_inverse, C06_offset_loses_grid_sizes_refuted, C07_any_schedule, C07_some_schedule_exists, C07_needs_distinct_indices, C35_order_conditions, C32_layout, C32_round_trip, C32_length, C32_region_sizes, C32_global_index, C32_split_rhs, C32_second_solver_refuted, C82_solves, C82_one_processor, C82_guard_coefficient_refuted, C82_zero_pivot_refuted, C83_field3d, C83_fieldperp, C83_solution, C72_stencils, C11_edit_distance_is_least, C11_edit_distance_facts, C12_trim_left, C12_trim_right, C12_trim, C12_trim_comments, C12_strsplit, C12_lowercase_letters, C12_lowercase_idempotent, C12_lowercasequote_outside, C12_lowercasequote_inside, C12_apostrophe_in_quotes_refuted, C34_dump_lists_pushed_messages, C34_trace_scopes, C34_normal_exit_restores, C34_restored_on_every_exit_refuted, C38_timer_totals, C21_spec_symmetric
* **ClassicalDedekindReals.sig_forall_dec**: C31_relax_ddt, C31_zero_ddt, C76_vector, C90_history, C90_all_written, C90_no_throw, C90_bool_record_refuted, C90_index_attribute_refuted, C91_silent, C91_lagging_partial, C92_plain, C92_series, C92_complete_series, C92_series_attributes, C92_series_refuted, C92_lost_series
* **ClassicalDedekindReals.sig_forall_dec, FunctionalExtensionality.functional_extensionality_dep**: C50_history, C50_history_content, C79_filter, C79_extremum_remains_refuted, C31_dirichlet, C31_dirichlet_field2d, C31_dirichlet_o3, C31_dirichlet_o4, C31_dirichlet_4thorder_refuted, C31_4thorder_width1_out_of_bounds, C31_neumann, C31_neumann_o4, C31_neumann_4thorder_refuted, C31_free_o2, C31_free_o3, C31_constgradient, C31_robin, C52_arakawa, C52_antisymmetric, C52_self, C52_cyclic, C52_conserves, C52_field2d, C52_order, C52_one_z_point_refuted, C53_ctu_maximum_principle, C53_ctu_linear, C53_ctu_field2d, C25_real_solution, C25_no_undefined_behaviour, C25_dominant_real, C28_derivatives_exact, C28_advection_exact, C28_flux_exact, C28_degree_sharp, C28_linear, C28_advect_constant, C28_mirror, C28_one_guard, C29_conservation_form, C29_periodic_sum_zero, C30_limited_edges, C30_consistent, C30_tvd, C30_Fromm_unlimited, C30_MINMOD, C19_sum, C19_sum_throws, C19_context, C19_context_only, C19_scope, C19_replace, C19_resolved_names_see_definitions, C86_slices, C86_splines, C86_missing, C86_regions, C86_dirichlet, C86_neumann, C86_dirichlet_o3, C86_two_slices_refuted, C86_o3_short_line_refuted, C86_interp_refuted, C86_region_name_refuted, C59_filter_fraction, C41_K_Grad_par_flux_form, C41_K_Grad_par_conserves_and_dissipates, C41_K_Grad_par_decomposition, C41_K_Grad_par_uniform, C42_Div_a_Grad_perp_X_flux_form, C42_conserves_and_decomposes, C43_D4DY4_conserves, C43_D4DY4_decomposition, C43_D4DY4_uniform, C43_D4DY4_consistent_refuted, C43_D4DY4_Index_decomposition_refuted, C43_D4DY4_Index_consistent_refuted, C43_D4DY4_Index_boundary_flux, C44_Div_Perp_Lap_uniform, C44_Div_Perp_Lap_refuted, C27_invert3x3, C27_zero_threshold_refuted, C27_metric_inverse, C37_round_trip, C37_dot, C37_cross, C37_add, C45_christoffel_partial, C45_G2_22, C45_christoffel_refuted, C45_V_dot_Grad, C46_curl_grad_div_curl, C46_central_differences, C46_needs_separable_spacing, C46_laplace, C76_present, C76_missing_partial, C76_missing_refuted, C76_fft_refuted, C96_coefficients_left, C87_order, C87_history, C87_formula_partial, C87_tiling, C87_terminates, C87_fixed_steps, C87_internal_steps, C87_stale_refuted, C64_values_survive, C65_integers, C65_not_integers, C65_overflow_refuted, C65_expressions, C65_integer_text, C65_flags, C65_text, C36_bilinear, C36_lagrange_cubic, C36_lagrange_everywhere, C36_lagrange_edge_refuted, C36_spline, C36_spline_basis, C36_monotonic, C36_zspline, C36_weights, C36_spline_fields_defined, C36_field2d_partial, C36_field2d_refuted, C36_staggered, C49_rk4_adaptive, C49_rk4_fixed, C49_rkgeneric_adaptive, C49_rkgeneric_fixed, C49_rk3ssp, C49_rk3ssp_terminates, C49_euler, C49_counted_loops_end, C49_splitrk_every_step, C49_splitrk_fixed, C49_splitrk_period_refuted, C33_periods_match_timesteps, C33_called_when_period_elapsed, C33_solve_schedule_partial, C33_fast_monitor_refuted, C33_default_monitor_timestep_refuted, C93_mean, C93_reset_refuted, C89_same_operator, C85_solves_real, C85_fieldperp_refuted, C77_min, C77_max, C77_mean, C77_uniform_local, C77_uniform_allpe_refuted, C77_empty_region_refuted, C35_steps_are_their_tableaus, C35_method_deterministic, C35_generic_is_its_tableau, C35_any_tolerance_refuted, C51_is_runge_kutta, C51_steady_state, C51_time_dependent_refuted, C97_positions, C98_smooth_x, C98_smooth_y, C98_smoothXY, C98_smoothXY_range, C98_smoothXY_set, C98_smoothXY_refuted, C99_random, C99_heaviside, C99_round
* **ClassicalDedekindReals.sig_forall_dec, ClassicalDedekindReals.sig_not_dec, FunctionalExtensionality.functional_extensionality_dep**: C78_averageX, C78_averageY, C78_average_xy, C78_vol_integral, C78_branch_cut_refuted, C31_neumannpar, C66_lower_upper, C66_inner_outer, C66_narrow_corner_refuted, C66_connected_corner_refuted, C67_membership, C67_disjoint, C67_corners_excluded_refuted, C67_possible_sound, C67_possible_complete_partial, C67_possible_refuted, C68_standard_regions, C47_exchange, C47_order_independent, C47_communicate, C25_complex_solution, C25_dominant_complex, C56_inverse, C56_forward, C56_every_row, C56_coefficients, C56_energy, C56_history, C57_filter, C57_filter_out_of_range, C57_lowPass, C57_dc, C57_lowPass_idempotent, C57_negative_zmax_refuted, C58_shift, C58_whole_cells, C58_shifts_add, C58_to_from_aligned, C58_from_to_aligned, C58_aligned_value, C58_parallel_slices, C58_highest_mode_refuted, C40_Div_par_flux_form, C40_Div_par_periodic, C40_Div_par_decomposition, C40_Div_par_consistent, C27_jacobian, C81_gather, C81_partition, C81_decomposition, C81_scatter, C81_roundtrip, C81_guard_refuted, C75_field2d, C75_field3d, C75_xguards_refuted, C75_yguards_refuted, C75_ny_inner_refuted, C75_2d_for_3d_refuted, C96_pade0, C96_pade1, C96_pade1_Field2D, C96_pade2, C96_pade2_kinds, C96_taylor, C96_boundary, C96_shear, C96_history, C71_constructed, C71_numbering, C71_initialise, C71_kept, C72_inverse, C72_sparsity, C71_corner_refuted, C60_interior, C60_interior_any_mode, C60_inner_dc_dirichlet, C60_inner_dc_gradient, C60_inner_dc_decay, C60_inner_dc_gradpar, C60_inner_ac_dirichlet, C60_inner_ac_gradient, C60_inner_ac_decay, C60_cylinder, C60_outer_dc_dirichlet_partial, C60_outer_ac_dirichlet, C60_outer_zero_gradient, C60_outer_gradient_partial, C60_outer_ac_decay, C60_gradpar_refuted, C60_outer_dc_flags_refuted, C60_outer_gradient_refuted, C61_formula, C61_inverse, C62_zero_laplacian, C62_refused, C63_zero_mean, C63_equation, C63_uniform, C63_helmholtz_refuted, C23_split_valid, C23_user_choice, C23_automatic_optimal, C23_rank_independent, C20_rank_bijection, C20_unique_owner, C20_global_y_partial, C20_global_y_refuted, C93_equation, C93_boundary, C93_boundary_value, C93_terminates, C93_converges, C88_equation, C88_equation_up_to_highest_mode, C88_boundary, C88_solvable, C89_equation, C89_equation_up_to_highest_mode, C89_conserves, C89_boundary, C89_solvable, C85_solves, C85_field3d, C77_decomposition, C21_topology_succeeds, C21_up_neighbour, C21_down_neighbour, C21_messages_match, C21_twist_shift, C21_periodic_iff_closed, C21_unit_subdomain_refuted, C21_one_leg_refuted, C94_equation, C94_inner_dc, C94_inner_ac, C94_outer_dc, C94_outer_ac, C94_determined, C94_outer_set_refuted, C69_ycomm, C69_agree, C69_xcomm, C69_line_ends, C70_ysize_partial, C70_ysize_refuted, C97_global, C97_mirror, C98_filter, C98_smoothXY_waves, C99_ballooning, C99_ballooning_turn, C99_ballooning_refuted, C99_mixmode, C99_mixmode_periodic
* **ClassicalDedekindReals.sig_forall_dec, ClassicalDedekindReals.sig_not_dec, Classical_Prop.classic, FunctionalExtensionality.functional_extensionality_dep**: C50_coefficients_exact, C50_step_exact, C50_order_nine_refuted, C59_ddz, C59_no_filter, C59_d2dz2, C59_twice_refuted, C93_constant, C35_order_conditions_give_accuracy, C35_exact_for_time_polynomials, C35_euler_rk4_rk3ssp_accuracy, C35_generic_accuracy, C35_error_estimate_order, C51_second_order, C95_equations, C95_equations_averaged, C95_conserves, C95_conserves_closed, C95_weights, C95_spitzer, C95_runs, C97_step, C97_mirror_refuted, C97_mask_x_refuted, C97_buff_x, C97_tanh, C97_tanh_refuted, C99_TanhHat, C99_gauss
