{"id": "C01", "title": "Flat index <-> (x,y,z) is a bijection", "statement": "For a field of size nx*ny*nz, the flat index built from (x,y,z) gives back exactly x(), y(), z(), and every flat index in [0,nx*ny*nz) is rebuilt from its own x(), y(), z(); so two different in-range points never share storage.", "quantifier": "every ny,nz>0, every in-range (x,y,z) and every non-negative flat index", "why_tests_cant": "unbounded grid sizes; a test fixes one grid", "anchors": ["include/bout/region.hxx:SpecificInd::x/y/z", "include/bout/region.hxx:Region::createRegionIndices", "include/bout/utils.hxx:Matrix::operator(), Tensor::operator()"]}
{"id": "C02", "title": "Index offsets reach the intended neighbour", "statement": "xp/xm/yp/ym/zp/zm/offset return the point displaced by the requested amount in the requested direction only; z displacement is periodic with period nz for every non-negative distance; plus then minus is the identity.", "quantifier": "every grid size, every in-range point, every in-range x/y displacement and every z displacement", "why_tests_cant": "wrap-around cases depend on index, nz and dz jointly", "anchors": ["include/bout/region.hxx:SpecificInd::xp,xm,yp,ym,zp,zm,offset"]}
{"id": "C03", "title": "A box Region enumerates exactly the box", "statement": "A Region built from [xstart,xend]x[ystart,yend]x[zstart,zend] iterates over exactly the points of that box, each once, in increasing flat-index order, and is empty when any extent is empty.", "quantifier": "every box inside every grid", "why_tests_cant": "sizes unbounded", "anchors": ["include/bout/region.hxx:Region::Region", "include/bout/region.hxx:Region::createRegionIndices"]}
{"id": "C04", "title": "Block iteration visits exactly the indices", "statement": "BOUT_FOR/BOUT_FOR_SERIAL over a Region visits precisely the same sequence of indices as iterating getIndices(), blocks are non-empty, contiguous, no longer than the block size limit, and no two adjacent blocks could have been merged within the limit; rebuilding indices from blocks is the identity.", "quantifier": "every index vector (including unsorted, with duplicates) and every positive block size", "why_tests_cant": "combinatorial space of index lists", "anchors": ["include/bout/region.hxx:Region::getContiguousBlocks", "include/bout/region.hxx:Region::getRegionIndices", "include/bout/region.hxx:BOUT_FOR_SERIAL"]}
{"id": "C05", "title": "Region set algebra", "statement": "mask removes exactly the masked indices keeping order and multiplicity of the rest; getIntersection keeps exactly the common ones; sort is an ordered permutation; unique is strictly increasing with the same set; + is concatenation; after each the blocks agree with the indices.", "quantifier": "every pair of regions", "why_tests_cant": "all pairs of index lists", "anchors": ["include/bout/region.hxx:Region::mask", "include/bout/region.hxx:Region::getIntersection", "include/bout/region.hxx:Region::asSorted", "include/bout/region.hxx:Region::asUnique", "include/bout/region.hxx:operator+"]}
{"id": "C06", "title": "Region shifts", "statement": "offset adds the constant to every index; periodicShift moves each index by shift cyclically inside its own period block, never leaving the block, is a permutation of every whole block, and shift s followed by -s is the identity for |s|<=period.", "quantifier": "every index list, shift and period", "why_tests_cant": "all shifts/periods; negative-shift recursion", "anchors": ["include/bout/region.hxx:Region::offset", "include/bout/region.hxx:Region::periodicShift"]}
{"id": "C07", "title": "Loop result independent of OpenMP schedule", "statement": "A BOUT_FOR loop whose body at index i writes only element i of the result, from data not written by the loop, produces the same result for every assignment of blocks to threads and every interleaving of their iterations, provided the region has no repeated index.", "quantifier": "every schedule (any interleaving of block executions) and every region without duplicates", "why_tests_cant": "schedules cannot be enumerated by tests", "anchors": ["include/bout/region.hxx:BOUT_FOR_OMP", "include/bout/openmpwrap.hxx"]}
{"id": "C08", "title": "Array copy-on-write and block pool isolation", "statement": "After any sequence of Array create/copy/assign/write(with ensureUnique)/reallocate/clear/destroy operations, writing through one Array after ensureUnique never changes the value read through any other Array; a block handed out by the store is never one that a live Array still refers to; contents are preserved by copies; blocks in the store have the size they are filed under.", "quantifier": "every finite history of operations over any number of Arrays", "why_tests_cant": "aliasing bugs show only in particular histories", "anchors": ["include/bout/array.hxx:Array::get,release,ensureUnique,operator=,reallocate"]}
{"id": "C09", "title": "RangeIterator visits its ranges", "statement": "Iterating a RangeIterator with first/next/isDone yields the concatenation of the integer ranges of the chain and then is done.", "quantifier": "every chain of ranges and all bounds", "why_tests_cant": "null ranges in any position", "anchors": ["src/sys/range.cxx:RangeIterator::first,next,isDone"]}
{"id": "C10", "title": "RangeIterator subtraction", "statement": "After r -= s, r iterates over exactly the elements of r that are in no range of s.", "quantifier": "every pair of chains", "why_tests_cant": "case split on overlap type per pair of ranges", "anchors": ["src/sys/range.cxx:RangeIterator::operator-="]}
{"id": "C11", "title": "editDistance is the optimal string alignment distance", "statement": "editDistance(a,b) equals the minimum cost of a restricted edit script (insert, delete, substitute, adjacent transposition) turning a into b; it is 0 iff the strings are equal, symmetric, and at most max(len).", "quantifier": "every pair of strings", "why_tests_cant": "infinitely many strings and scripts", "anchors": ["src/sys/utils.cxx:editDistance"]}
{"id": "C12", "title": "String trimming and splitting", "statement": "trim/trimLeft/trimRight remove exactly the maximal leading/trailing run of the given characters; trimComments keeps exactly the text before the first comment character; strsplit pieces joined with the delimiter give back the string (up to one trailing delimiter) and contain no delimiter; lowercase is idempotent, lowercasequote leaves quoted text unchanged.", "quantifier": "every string and character set", "why_tests_cant": "all strings", "anchors": ["src/sys/utils.cxx:trim,trimLeft,trimRight,trimComments,strsplit,lowercase,lowercasequote"]}
{"id": "C13", "title": "Options read-after-write by path", "statement": "After assigning a value at a path, reading the same path returns it and reading any other path returns what it did before; a compound name a:b:c addresses the same node as nested indexing.", "quantifier": "every tree, path and value", "why_tests_cant": "every tree shape and history", "anchors": ["src/sys/options.cxx:Options::operator[]", "include/bout/options.hxx:Options::assign,_set,as"]}
{"id": "C14", "title": "Options overwrite policy", "statement": "Setting a different value from the same source throws and leaves the option unchanged; from a different source the last one wins; withDefault never changes a value that is set; two inconsistent defaults throw; isSet ignores defaults; force always wins.", "quantifier": "every history of set/force/withDefault/overrideDefault calls on an option", "why_tests_cant": "histories unbounded", "anchors": ["include/bout/options.hxx:Options::_set,withDefault,overrideDefault,force,assignRepeat", "src/sys/options.cxx:Options::isSet"]}
{"id": "C15", "title": "Unused-option report is exact", "statement": "getUnused returns exactly the value leaves that were never read, not from an excluded source and not marked conditionally used, in their original positions; checkForUnusedOptions throws iff there is at least one such leaf.", "quantifier": "every options tree and read history", "why_tests_cant": "every tree", "anchors": ["src/sys/options.cxx:Options::getUnused,setConditionallyUsed,checkForUnusedOptions"]}
{"id": "C16", "title": "INI text and command line reach the Options tree", "statement": "Each key=value line sets key in the most recent [section]; comments and surrounding white space or quotes never reach keys or values; bracketed values continue over lines until balanced; a line without '=' is a flag; malformed lines (no closing bracket, no section name, empty key, ':' in a key, brackets still open at the end of the file) are rejected; a file is accepted exactly when its settings do not contradict each other. A command line argument section:key=value, with or without spaces round '=' and with or without a leading '-', sets that key and overrides the value read from file. No text and no argument vector makes the readers run out of bounds.", "quantifier": "every document, every way of writing it as a text, every text, every argument vector, every initial tree", "why_tests_cant": "infinitely many texts and layouts; interaction of comments, quotes, brackets, sections and precedence", "anchors": ["src/sys/options/options_ini.cxx:OptionINI::read,parse,getNextLine", "src/sys/optionsreader.cxx:OptionsReader::parseCommandLine"]}
{"id": "C17", "title": "Expression parser honours precedence and associativity", "statement": "Parsing the printed form of any expression tree over + - * / ^ (with brackets only where precedence or left-associativity require) returns that tree, and the whole token list is consumed.", "quantifier": "every expression tree, any depth", "why_tests_cant": "infinitely many nestings", "anchors": ["src/sys/expressionparser.cxx:parseBinOpRHS,parsePrimary,parseExpression,parseParenExpr"]}
{"id": "C18", "title": "Lexer: numbers, identifiers, implicit multiplication, unary minus", "statement": "Tokenising splits input deterministically; a number immediately followed by an identifier, '(' or '{' behaves as a multiplication; a leading minus negates the following term.", "quantifier": "every input string", "why_tests_cant": "all strings", "anchors": ["src/sys/expressionparser.cxx:LexInfo::nextToken", "src/sys/expressionparser.cxx:parsePrimary"]}
{"id": "C19", "title": "Context and sum expressions evaluate with dynamic scoping", "statement": "[a=e1,b=e2](e) evaluates e1,e2 in the outer context and e in the context extended by them; sum(i,n,e) is the sum of e with {i}=0..n-1; evaluation does not change the caller's context.", "quantifier": "every expression and context", "why_tests_cant": "all expressions", "anchors": ["src/sys/expressionparser.cxx:FieldContext::generate,FieldSum::generate,FieldParam::generate"]}
{"id": "C20", "title": "Local/global index maps are inverse and partition the grid", "statement": "For every processor, local->global->local index conversions are the identity (with and without boundaries); every interior global point is owned by exactly one processor; XPROC/YPROC return that owner; PROC_NUM is a bijection on the processor grid.", "quantifier": "every grid size and processor layout", "why_tests_cant": "layout space unbounded", "anchors": ["src/mesh/impls/bout/boutmesh.cxx:getGlobalXIndex,getLocalXIndex,getGlobalYIndex,getLocalYIndex,XPROC,YPROC,PROC_NUM"]}
{"id": "C21", "title": "Y topology connections are symmetric", "statement": "In the topology set up for any accepted separatrix description, processor P sends its upper guard data for x in a range to Q iff Q's lower (or upper) neighbour data for that same x range comes from P; so every message has a matching receive of the same length.", "quantifier": "every accepted set of separatrix indices, processor layout and processor", "why_tests_cant": "combinatorial topology", "anchors": ["src/mesh/impls/bout/boutmesh.cxx:topology,set_connection,default_connections"]}
{"id": "C22", "title": "Pack/unpack round trip in guard cell exchange", "statement": "Packing a set of fields over a region and unpacking the buffer over the congruent region copies each value to the corresponding cell and nothing else, and the buffer length equals the advertised message length.", "quantifier": "every list of fields and region", "why_tests_cant": "all sizes", "anchors": ["src/mesh/impls/bout/boutmesh.cxx:pack_data,unpack_data,msg_len"]}
{"id": "C23", "title": "Processor split is valid", "statement": "When the automatic or user-chosen split is accepted, NXPE*NYPE = number of processors, subdomains divide the grid exactly, no branch cut crosses a subdomain, and every subdomain has at least the guard cell width in y when more than one y processor is used; an accepted automatic split is the candidate nearest the ideal.", "quantifier": "every grid and number of processors", "why_tests_cant": "all sizes", "anchors": ["src/mesh/impls/bout/boutmesh.cxx:findProcessorSplit,chooseProcessorSplit,checkBoutMeshYDecomposition,setDerivedGridSizes"]}
{"id": "C24", "title": "Separatrix index sanitisation", "statement": "setYDecompositionIndices either throws or leaves -1 <= jyseps1_1 <= jyseps2_1 <= jyseps1_2 <= jyseps2_2 < ny, leaves already valid input unchanged and is idempotent.", "quantifier": "every integer input", "why_tests_cant": "all integers", "anchors": ["src/mesh/impls/bout/boutmesh.cxx:setYDecompositionIndices"]}
{"id": "C25", "title": "Parallel cyclic reduction solves the tridiagonal system", "statement": "If the solver does not report a zero pivot, then for every system whose matrix is non-singular the returned vector satisfies every row of the (optionally periodic) tridiagonal system, however the rows are distributed over processors and in whatever order messages arrive; a diagonally dominant system (by 1e-10) is always solved without a reported pivot; with two or more rows per processor nothing is accessed out of bounds.", "quantifier": "every number of systems, processors, rows per processor >=2, order of message arrival, coefficients and right-hand sides (real and complex)", "why_tests_cant": "continuous inputs, unbounded sizes, all message orders", "anchors": ["include/bout/cyclic_reduction.hxx:CyclicReduce::reduce,back_solve,solve"]}
{"id": "C26", "title": "Cyclic reduction distributes systems without gaps", "statement": "The systems are assigned to processors in contiguous, disjoint ranges covering all of them; sender offsets, receiver offsets and buffer sizes agree.", "quantifier": "every number of systems and processors", "why_tests_cant": "all sizes", "anchors": ["include/bout/cyclic_reduction.hxx:CyclicReduce::allocMemory,solve"]}
{"id": "C27", "title": "3x3 and metric inverse, Jacobian", "statement": "invert3x3 either reports a singular matrix (by exception or return value 1, input unchanged) or overwrites the matrix with its two-sided inverse; hence calcCovariant/calcContravariant give inverse metric tensors and J^2 = det g_ij.", "quantifier": "every 3x3 real matrix and tolerance", "why_tests_cant": "continuous inputs", "anchors": ["include/bout/utils.hxx:invert3x3"]}
{"id": "C28", "title": "Finite-difference stencils have their design order", "statement": "Each central/staggered/upwind derivative scheme is exact on all polynomials up to its design degree, linear in the field where claimed, and zero on constants.", "quantifier": "all real coefficient polynomials and spacings", "why_tests_cant": "continuous inputs", "anchors": ["src/mesh/index_derivs.cxx:DDX_C2,DDX_C4,D2DX2_C2,D2DX2_C4,D4DX4_C2,VDDX_*,FDDX_*"]}
{"id": "C29", "title": "Flux-form schemes conserve", "statement": "On a periodic grid the sum of the flux-form derivative over all cells is zero for every velocity and field.", "quantifier": "every grid length and data", "why_tests_cant": "all data", "anchors": ["src/mesh/index_derivs.cxx:FDDX_U1,FDDX_C2,FDDX_C4", "include/bout/fv_ops.hxx:Div_par"]}
{"id": "C30", "title": "Slope limiters are bounded and total-variation safe", "statement": "Upwind/Fromm/MinMod/MC cell-edge reconstructions reproduce constants; the MinMod and MC edge values lie between the neighbouring cell values and average to the cell value; extrema give zero slope; one upwind step with a limited reconstruction at Courant number up to 1/2 creates no new extrema and does not increase the total variation.", "quantifier": "all real triples", "why_tests_cant": "continuous inputs", "anchors": ["include/bout/fv_ops.hxx:Upwind,MinMod,MC,Superbee"]}
{"id": "C31", "title": "Boundary conditions impose the requested value/gradient", "statement": "After applying Dirichlet, the value interpolated at the boundary is the requested one; after Neumann, the one-sided/centred gradient there is the requested one; other cells are unchanged.", "quantifier": "all fields and boundary values", "why_tests_cant": "continuous inputs", "anchors": ["src/mesh/boundary_standard.cxx:BoundaryDirichlet,BoundaryNeumann"]}
{"id": "C32", "title": "Solver state vector pack/unpack", "statement": "save_vars followed by load_vars restores every evolved variable on every evolved cell (with and without boundary evolution), the state vector has exactly getLocalN entries, each entry corresponding to one (variable, cell).", "quantifier": "every list of 2D/3D variables, mesh size and boundary flags", "why_tests_cant": "all sizes", "anchors": ["src/solver/solver.cxx:loop_vars,loop_vars_op,load_vars,save_vars,getLocalN"]}
{"id": "C33", "title": "Monitor scheduling", "statement": "Monitors added in any order are called exactly when their own timestep has elapsed: the internal step divides every monitor's timestep and the period of each monitor times the internal step equals its timestep.", "quantifier": "every sequence of monitors whose timesteps are pairwise multiples", "why_tests_cant": "histories of additions", "anchors": ["src/solver/solver.cxx:adjustMonitorPeriods,finaliseMonitorPeriods,call_monitors,addMonitor"]}
{"id": "C34", "title": "Message stack discipline", "statement": "After any sequence of push/pop, the dump lists exactly the messages currently pushed, most recent first; scoped TRACE objects restore the depth on every exit path.", "quantifier": "every operation sequence", "why_tests_cant": "histories unbounded", "anchors": ["src/sys/msg_stack.cxx:MsgStack::push,pop,getDump", "include/bout/msg_stack.hxx:MsgStackItem"]}
{"id": "C35", "title": "Runge-Kutta integrators have their order of accuracy", "statement": "One step of the Euler, RK4, RK3-SSP and generic (Cash-Karp, RKF45, RKF34, RK4-simple) solvers is the textbook explicit Runge-Kutta method of its tableau, for every right hand side; the tableaus satisfy the order conditions for every rooted tree up to the scheme's order; hence the error of one step of size h is at most C h^(p+1) for every right hand side polynomial in time and state, the embedded error estimate is of the lower order, and right hand sides that are polynomials in time of degree below the order are integrated exactly.", "quantifier": "all right-hand sides (all polynomial ones for accuracy), starting points, times and step sizes, and all rooted trees up to the order", "why_tests_cant": "a convergence test samples one equation at a few step sizes; the claim is over all right-hand sides and steps", "anchors": ["src/solver/impls/rkgeneric/impls/*", "src/solver/impls/rkgeneric/rkscheme.cxx", "src/solver/impls/rkgeneric/rkgeneric.cxx take_step", "src/solver/impls/rk4/rk4.cxx take_step", "src/solver/impls/rk3-ssp/rk3-ssp.cxx take_step", "src/solver/impls/euler/euler.cxx take_step"]}
{"id": "C36", "title": "Interpolation to arbitrary index positions", "statement": "For every field, every displacement and every position: bilinear interpolation stays within the range of the four surrounding cells and is exact on bilinear fields; four-point Lagrange is exact on cubics away from the ends of the X range and reproduces constants and grid values everywhere; the Hermite spline is defined for every position (also outside the array, where it uses the position limited to the non-boundary X range), exact on quadratics (cubics with exact derivatives) and at grid points; the monotonic spline never leaves the range of the four surrounding cells and equals the Hermite spline whenever that is in range; the Z spline is periodic; the weights handed to the parallel transform sum to one and give the spline's value; interpolating a whole field writes exactly the unmasked points of the region, each from its own displacement; the staggered 4-point interpolation is exact on cubics.", "quantifier": "all fields, all real displacements, all region lists and masks, all mesh extents", "why_tests_cant": "positions and data are continuous and periodic wrap, mask and limits at the ends combine in infinitely many ways", "anchors": ["src/mesh/interpolation/bilinear_xz.cxx", "src/mesh/interpolation/lagrange_4pt_xz.cxx", "src/mesh/interpolation/hermite_spline_xz.cxx", "src/mesh/interpolation/monotonic_hermite_spline_xz.cxx", "src/mesh/interpolation/hermite_spline_z.cxx", "src/mesh/interpolation_xz.cxx: interpolate(Field2D, Field3D)", "include/bout/interpolation.hxx: interp, interp_to"]}
{"id": "C37", "title": "Covariant/contravariant conversion", "statement": "Converting a vector to the other component type and back is the identity when the metric tensors are inverse and never changes the vector represented; dot is the metric inner product whatever components the operands hold; the cross product is antisymmetric, orthogonal to its operands and satisfies |a x b|^2 = |a|^2|b|^2 - (a.b)^2; sums, differences and multiples act on the vectors represented.", "quantifier": "all vectors and metrics", "why_tests_cant": "continuous inputs", "anchors": ["src/field/vector3d.cxx:toCovariant,toContravariant", "src/mesh/coordinates.cxx:calcCovariant"]}
{"id": "C38", "title": "Timer accounting", "statement": "A named timer's total equals the sum of the intervals during which at least one scope with that name was active, regardless of nesting.", "quantifier": "every sequence of nested start/stop/reset", "why_tests_cant": "histories unbounded", "anchors": ["src/sys/timer.cxx", "include/bout/sys/timer.hxx"]}
{"id": "C39", "title": "Flattened option keys are exactly the values", "statement": "getFlattenedKeys() lists the full name (a:b:c) of every option holding a value, each exactly once, and nothing else, after any history of calls.", "quantifier": "all histories of assign/force/assignRepeat/as/withDefault/overrideDefault/setConditionallyUsed calls on any names", "why_tests_cant": "the tree is built by unbounded histories with arbitrary names; full names are accumulated incrementally by operator[]", "anchors": ["include/bout/options.hxx: Options", "src/sys/options.cxx: Options::getFlattenedKeys, Options::operator[]"]}
{"id": "C40", "title": "Div_par is conservative and independent of the decomposition", "statement": "FV::Div_par puts into every cell exactly (flux out - flux in)/volume with a single flux per cell face, so the total content of a field line changes only through its two ends (not at all on a closed line); cutting the line between processors changes no value; a uniform field in a uniform flow through equal faces has zero divergence.", "quantifier": "all lines, metrics, limiters, fields, velocities, wave speeds, boundary options and processor cuts", "why_tests_cant": "must hold for every field, velocity sign pattern and decomposition", "anchors": ["include/bout/fv_ops.hxx: FV::Div_par"]}
{"id": "C41", "title": "Parallel diffusion conserves and dissipates", "statement": "FV::Div_par_K_Grad_par is in flux form; without boundary fluxes it conserves the content of an open line and with K >= 0 never increases the mean square of the field; the result does not depend on the decomposition.", "quantifier": "all lines, metrics, K and f", "why_tests_cant": "holds for all fields and coefficients", "anchors": ["src/mesh/fv_ops.cxx: Div_par_K_Grad_par"]}
{"id": "C42", "title": "Perpendicular diffusion conserves radially", "statement": "The radial part of FV::Div_a_Grad_perp is in flux form, conserves content up to the end faces, and does not depend on the decomposition.", "quantifier": "all lines, metrics, a and f", "why_tests_cant": "holds for all fields and coefficients", "anchors": ["src/mesh/fv_ops.cxx: Div_a_Grad_perp"]}
{"id": "C43", "title": "Fourth-order parallel dissipation operators", "statement": "FV::D4DY4 and FV::D4DY4_Index are conservative, independent of the decomposition, and equal d times the fourth derivative (index-space fourth derivative) of f.", "quantifier": "all lines, metrics, d, f, decompositions", "why_tests_cant": "holds for all fields, metrics and decompositions", "anchors": ["src/mesh/fv_ops.cxx: D4DY4, D4DY4_Index"]}
{"id": "C44", "title": "Div_Perp_Lap is a conservative Laplacian", "statement": "FV::Div_Perp_Lap of a field varying in z only equals the conservative second difference in z and sums to zero over a periodic z line.", "quantifier": "all a, f, nz", "why_tests_cant": "holds for all fields", "anchors": ["src/mesh/fv_ops.cxx: Div_Perp_Lap"]}
{"id": "C45", "title": "Connection coefficients are the Christoffel symbols", "statement": "The eighteen coefficients G<i>_<jk> computed by Coordinates::geometry are the Christoffel symbols of the second kind of the metric, and V_dot_Grad(v, a) is the covariant derivative formed with them, in either component type.", "quantifier": "all metrics, metric derivatives, vectors", "why_tests_cant": "identity over all metrics; test metrics are usually diagonal or two-dimensional", "anchors": ["src/mesh/coordinates.cxx: Coordinates::geometry", "src/field/vecops.cxx: V_dot_Grad"]}
{"id": "C46", "title": "Vector calculus identities", "statement": "Curl(Grad f) = 0 and Div(Curl v) = 0 hold exactly on the grid when the derivative operators commute (e.g. second-order central differences with separable spacings, no torsion); Laplace(f) has the coefficients of Div(Grad f).", "quantifier": "all fields, Jacobians and commuting derivative operators", "why_tests_cant": "identities over all fields", "anchors": ["src/field/vecops.cxx: Grad, Div, Curl", "src/mesh/coordinates.cxx: Laplace, geometry (G1, G2, G3)"]}
{"id": "C47", "title": "communicate() fills every guard cell with its field-line neighbour, for any message arrival order", "statement": "After Mesh::communicate on all processors, every guard cell that stands for a grid point holds the value of that point held by its owner: guard columns the radially neighbouring column (periodic wrap included), guard rows the cell reached along the field line through the X-point topology, corners too with include_corner_cells; cells beyond targets keep their value; no receive hangs or truncates, whatever order MPI_Waitany completes the receives in.", "quantifier": "every regular tokamak topology, processor split, guard width, list of 2D/3D fields, field values and completion order", "why_tests_cant": "arrival order is nondeterministic and the topology/decomposition/guard-width space is infinite", "anchors": ["src/mesh/mesh.cxx:Mesh::communicate", "src/mesh/impls/bout/boutmesh.cxx:sendX,sendY,send,wait,post_receiveX,post_receiveY,pack_data,unpack_data"]}
{"id": "C48", "title": "Boundary-region loops visit each guard cell once, from the domain outwards", "statement": "A loop over a boundary region with first/next/isDone, or with the nested nextX/nextY form, ends after visiting every guard cell of the region exactly once and no other cell, and on each grid line the cells come from the domain outwards; the first/next1d loop visits exactly the cells next to the domain in order; the region built for a side is the guard cells of that side whichever way round its limits are given.", "quantifier": "all four sides, all region limits, widths and local mesh sizes", "why_tests_cant": "unbounded sizes; tests use one small mesh", "anchors": ["src/mesh/boundary_region.cxx:BoundaryRegionXIn,BoundaryRegionXOut,BoundaryRegionYDown,BoundaryRegionYUp", "include/bout/boundary_region.hxx"]}
{"id": "C49", "title": "Output steps are tiled exactly by the internal steps that advanced the state", "statement": "For the explicit solvers (Euler, RK4, RK3-SSP, generic RK, split RK), output monitor call number s happens exactly at start time + (s+1) output steps, with the state obtained from the previous output's by positive internal steps whose sizes add up to the output step, each no larger than max_timestep (or the limit the right hand side asked for) and, when adaptive, each with error estimate below rtol; the run stops early only when a monitor asks; fixed step loops always finish and step-counting loops finish or throw within mxstep+1 attempts.", "quantifier": "all right-hand sides, step size limits, error norms, tolerances, numbers of outputs and histories of rejected steps", "why_tests_cant": "the interleaving of accepted, rejected, truncated and limited steps is unbounded", "anchors": ["src/solver/impls/rk4/rk4.cxx run", "src/solver/impls/euler/euler.cxx run", "src/solver/impls/rk3-ssp/rk3-ssp.cxx run", "src/solver/impls/rkgeneric/rkgeneric.cxx run", "src/solver/impls/split-rk/split-rk.cxx run"]}
{"id": "C50", "title": "Adams-Bashforth coefficients are exact for polynomials, and the history is consistent", "statement": "For orders 1 to 8 and any distinct stored times, the Adams-Bashforth coefficients integrate every polynomial of degree below the order exactly from the newest time to the next; so a step with stored derivatives of such a polynomial is exact. In every run, whatever step sizes and order choices are made, the order never exceeds the number of stored points, at most 'order' points are kept, each stored derivative is paired with its time, and times are strictly decreasing with the newest equal to the current time.", "quantifier": "all orders 1..8, all spacings of history points, all polynomials, all runs", "why_tests_cant": "variable step histories are a continuum", "anchors": ["src/solver/impls/adams_bashforth/adams_bashforth.cxx get_adams_bashforth_coefficients, AB_integrate, take_step, run"]}
{"id": "C51", "title": "The split solver's diffusion step is a second order Runge-Kutta-Legendre step for every number of stages", "statement": "For every number of stages s >= 2, every autonomous polynomial system, every start state and step size: the diffusive substep taken by the split-rk solver equals one step of an s-stage explicit Runge-Kutta method whose order is 2 (error of one step bounded by C h^3 against the exact solution), and a steady state is left exactly unchanged. The property fails when the right hand side depends explicitly on time.", "quantifier": "all stage counts >= 2, all autonomous polynomial right hand sides in any number of variables, all states, all step sizes", "why_tests_cant": "the stage coefficients come from a recurrence in the number of stages, which is a run-time option; a test checks a few stage counts and one equation", "anchors": ["src/solver/impls/split-rk/split-rk.cxx: SplitRK::take_diffusion_step", "src/solver/impls/split-rk/split-rk.hxx"]}
{"id": "C52", "title": "The Arakawa bracket is antisymmetric, conservative and second order", "statement": "bracket(f, g, BRACKET_ARAKAWA) evaluates, at every interior point, Arakawa's average of the three conservative nine-point forms of the Jacobian of f and g. It is antisymmetric in its arguments, bracket(f,f)=0 exactly, and on a uniform grid with vanishing values at the radial edges the sums over the poloidal plane of bracket(f,g), f*bracket(f,g) and g*bracket(f,g) are zero (conservation of the mean, energy and enstrophy). It is exact for products of linear functions and second-order accurate. The version taking a Field2D agrees with the general one on the lifted field, except with a single z point.", "quantifier": "all fields, grid sizes, grid spacings and interior points", "why_tests_cant": "Conservation is an identity between sums over arbitrary fields and grid sizes; tests compare particular analytic fields to a tolerance.", "anchors": ["src/mesh/difops.cxx:bracket", "BRACKET_ARAKAWA", "BRACKET_ARAKAWA_OLD"]}
{"id": "C53", "title": "The corner-transport-upwind bracket obeys a maximum principle under the limits it registers with the solver", "statement": "bracket(f, g, BRACKET_CTU, ..., solver) registers two time-step limits per cell. An explicit Euler step of dg/dt = -[f,g] no longer than those limits produces, in every interior cell, a value between the minimum and the maximum of g over the neighbouring cells. The bracket is exact when g is locally linear, whatever the time step, and its Field2D version agrees with the Field3D one.", "quantifier": "all fields f and g, interior cells, positive grid spacings and time steps within the limits", "why_tests_cant": "The bound concerns every field and every time step up to the limit, including values exactly at the limit.", "anchors": ["src/mesh/difops.cxx:bracket", "BRACKET_CTU", "Solver::setMaxTimestep"]}
{"id": "C54", "title": "Variables in expressions resolve lexically; circular and undefined ones are rejected", "statement": "FieldFactory::parse replaces a plain name by the definition set in the nearest enclosing options section (from the section given, outwards to the root), a name s:v by the variable v of the top-level section s, each definition being read in the section where it stands. If all names are defined and not circular, parsing succeeds with exactly that expression; if some definition reached is circular or undefined it throws; it always ends. (Names with two or more sections are looked up wrongly: substr(lastpos, pos).)", "quantifier": "all options trees, sections and expression texts with ordinary names", "why_tests_cant": "Options trees and the graph of references between definitions are unbounded, and detection of a circle must work however long and wherever it is.", "anchors": ["src/field/field_factory.cxx:FieldFactory::resolve", "FieldFactory::findOption", "FieldFactory::parse"]}
{"id": "C55", "title": "The expression cache does not change results", "statement": "After any sequence of successful parse calls on a factory made for the root options, parsing a text whose names are all defined gives the same expression as a new factory would. (This does not extend to histories with exceptions: the lookup stack and the default section are not restored; nor to changed options, nor to factories made for a section.)", "quantifier": "all histories of successful calls, options trees, sections and texts", "why_tests_cant": "Histories are unbounded and the cache mixes keys of variables and of texts.", "anchors": ["src/field/field_factory.cxx:FieldFactory::parse", "FieldFactory::resolve", "FieldFactory::cleanCache"]}
{"id": "C56", "title": "rfft and irfft are inverse of each other for every length", "statement": "For every number of points, odd or even, irfft(rfft(x)) == x, and rfft(irfft(X)) == X for every spectrum whose constant mode and (even length) last mode are real; the modes of rfft are the coefficients of the trigonometric polynomial through the values; the mean square equals the sum of squared amplitudes; and whatever lengths were used in earlier calls, every call transforms its own argument (the cached plan is replaced when the length changes).", "quantifier": "all lengths >= 1, all real rows / complex spectra, all histories of calls with any lengths", "why_tests_cant": "Tests transform a few rows of one or two lengths; odd and even lengths are normalised differently and the cached plan depends on the call history.", "anchors": ["src/invert/fft_fftw.cxx: rfft, irfft"]}
{"id": "C57", "title": "filter keeps exactly one z harmonic, lowPass exactly the harmonics up to zmax, DC the mean", "statement": "filter(f, N0) is the harmonic N0 of f and nothing else, for every N0 (zero outside 0..nz/2); lowPass(f, zmax, keep_zonal) keeps exactly harmonics 1..zmax and the constant one iff keep_zonal, and applying it again changes nothing; DC(f) is the constant harmonic.", "quantifier": "all numbers of z points, all rows, all N0, all zmax, both keep_zonal", "why_tests_cant": "Tests filter one function; edge cases (last mode of an even number of points, zmax = nz/2, negative zmax) are rarely covered.", "anchors": ["src/field/field3d.cxx: filter, lowPass, DC"]}
{"id": "C58", "title": "Shifts in z: exact trigonometric shift, additive, invertible, whole cells are rotations", "statement": "shiftZ by an angle evaluates the trigonometric polynomial through the values at the shifted points; a shift by a whole number of cells is exactly a rotation of the row; shifts add; fromFieldAligned(toFieldAligned(f)) == f (and conversely) on the region; the parallel slices are what one gets by going to field aligned coordinates at the neighbouring y and coming back - for every row without the highest mode of an even number of points.", "quantifier": "all numbers of z points, all lengths of the domain, all zShift, all rows, all regions, all offsets in y", "why_tests_cant": "Round trips are tested with a few smooth fields on one mesh; the highest mode behaves differently, and sign conventions cancel in round trips.", "anchors": ["src/mesh/parallel/shiftedmetric.cxx: ShiftedMetric::cachePhases, shiftZ, toFieldAligned, fromFieldAligned, calcParallelSlices", "src/field/field3d.cxx: shiftZ"]}
{"id": "C59", "title": "FFT derivatives in z are exact for all resolved modes", "statement": "DDZ with method FFT returns the derivative of the trigonometric polynomial through the values, after removing the highest fraction fft_filter of the modes; D2DZ2 with method FFT returns its second derivative.", "quantifier": "all numbers of z points, all rows, all filter fractions", "why_tests_cant": "MMS tests measure errors for one or two modes; exactness for all modes and all filter fractions is a universal statement.", "anchors": ["src/mesh/index_derivs.cxx: FFTDerivativeType, FFT2ndDerivativeType"]}
{"id": "C60", "title": "The perpendicular Laplacian inversion solves its equation and its boundary conditions", "statement": "The field u returned by the cyclic Laplacian solver satisfies D Laplace_perp(u) + (1/C1) Grad_perp(C2).Grad_perp(u) + A u = b at every interior point (for the modes solved for), and at the inner and outer boundary cells the condition selected by the boundary flags, separately for the z average and the part varying in z: Dirichlet half way between cells, gradient, decaying, parallel gradient, cylinder axis, with value zero, from x0 (SET) or from the right hand side (RHS).", "quantifier": "all decompositions in x, all metric components and coefficients A, C1, C2, D, all right hand sides and boundary values, all numbers of z points and modes, all flag combinations, all message orders, all previous memory contents", "why_tests_cant": "Tests invert a handful of fields with a handful of the 2^10 flag combinations on one decomposition and measure an error norm; the boundary formulas use local indices that are only right on some decompositions.", "anchors": ["src/invert/laplace/invert_laplace.cxx: Laplacian::tridagCoefs, Laplacian::tridagMatrix", "src/invert/laplace/impls/cyclic/cyclic_laplace.cxx: LaplaceCyclic::LaplaceCyclic, LaplaceCyclic::solve"]}
{"id": "C61", "title": "Delp2 is the documented operator and the inverse of the Laplacian inversion", "statement": "Delp2(f) equals G1 DDX(f) + G3 DDZ(f) + g11 D2DX2(f) + g33 D2DZ2(f) + 2 g13 D2DXDZ(f) (central differences in x with the non-uniform correction, Fourier derivatives in z), and for D = C = 1, A = 0 Delp2 of the solution of the Laplacian inversion gives back the right hand side, on every processor and at every non-guard point.", "quantifier": "all meshes, metrics, decompositions, fields, right hand sides", "why_tests_cant": "The consistency of two pieces of code (inversion matrices and operator) for every metric and decomposition cannot be enumerated.", "anchors": ["src/mesh/coordinates.cxx: Coordinates::Delp2", "src/invert/laplace/invert_laplace.cxx: laplace_tridag_coefs"]}
{"id": "C62", "title": "The boundary condition zerolaplace2 makes Delp2 vanish next to the boundary", "statement": "After applying zerolaplace2 at an x boundary, Delp2 of the field is zero at the neighbour of every guard cell (except possibly the highest z mode where g13 or G3 is not zero), cells outside the boundary are unchanged, and an odd number of z points is refused.", "quantifier": "all fields, metrics, guard cell widths, inner and outer boundaries, numbers of z points", "why_tests_cant": "No test covers it; the recurrence over guard cells is different at the inner and the outer boundary.", "anchors": ["src/mesh/boundary_standard.cxx: BoundaryZeroLaplace2::apply"]}
{"id": "C63", "title": "Laplacian inversion in a domain periodic in x", "statement": "In a domain periodic in x the solution has zero mean; for A = 0 it satisfies the equation at every point except possibly the first and there up to a number independent of z, which vanishes when the coefficients are uniform and the right hand side has zero mean (or ZERO_DC is set).", "quantifier": "all decompositions, coefficients, right hand sides, message orders", "why_tests_cant": "The constant mode is singular and treated by pinning one row; whether the result is a solution depends on every coefficient and on the mean of the right hand side.", "anchors": ["src/invert/laplace/invert_laplace.cxx: Laplacian::tridagMatrix (periodicX)", "src/invert/laplace/impls/cyclic/cyclic_laplace.cxx: LaplaceCyclic::solve"]}
{"id": "C64", "title": "Settings written to a file are the settings read back from it", "statement": "Writing an Options tree with OptionINI::write (as done for BOUT.settings) and reading the file into an empty tree succeeds and gives every option the text of the value it had, in the same section, and no other options; reading it as a string, bool or int then gives the same result as before. This holds provided that names and texts contain no comment characters, line breaks or surrounding quotes, brackets are not left open, and documentation has no line breaks; the failures otherwise are exhibited.", "quantifier": "all option trees of any depth, all values of any type (through their text), all used/unused/conditional markings, all documentation and sources", "why_tests_cant": "A test writes one small tree; the property is about every combination of nesting, order of sections and values, and about which texts survive.", "anchors": ["src/sys/options/options_ini.cxx: OptionINI::write, OptionINI::read", "src/sys/options.cxx: OptionsFormatterBase::format, OptionsFormatterBase::parse"]}
{"id": "C65", "title": "Conversions of option values to int, BoutReal and bool", "statement": "Reading an option as int gives n exactly when the number (or the value of the expression in the text) is within 1/1000 of n, and throws when no integer is that near; the decimal text of every int is read back as that int; bool accepts exactly the ten documented words in any case; flags are never numbers and numbers never flags. A number beyond the range of int is not refused but undefined.", "quantifier": "all values, all expressions in the grammar, all ints", "why_tests_cant": "Infinitely many numbers and texts; tests sample a few and miss the boundaries.", "anchors": ["src/sys/options.cxx: Options::as<int>, Options::as<BoutReal>, Options::as<bool>, parseExpression", "include/bout/utils.hxx: ROUND, toString"]}
{"id": "C66", "title": "Y-boundary iterators visit exactly the columns that end on a target", "statement": "A loop over iterateBndryLowerY (UpperY) on any processor visits, in increasing order and once each, exactly the interior columns whose field lines leave the domain below (above) this processor; with include_corner_cells also the x guard columns at a physical x edge when the two columns next to them leave. The Inner/Outer iterators give the same columns on processors at the first/last y position and the others, and nothing elsewhere.", "quantifier": "all grid sizes, separatrix positions (single and double null, limiter, core only), processor counts and ranks", "why_tests_cant": "The columns depend on topology and decomposition together; tests check a few small meshes on one layout.", "anchors": ["src/mesh/impls/bout/boutmesh.cxx: BoutMesh::iterateBndryLowerY, iterateBndryUpperY, iterateBndryLowerInnerY, iterateBndryLowerOuterY, iterateBndryUpperInnerY, iterateBndryUpperOuterY"]}
{"id": "C67", "title": "Every cell outside the domain is in the right boundary region, and in one only", "statement": "On every processor, a guard cell next to the domain is in a boundary region exactly if no other processor provides it: x guard cells at a physical x edge are in core, pf (by their row) or sol, y guard cells in lower_target or upper_target exactly if the field line of their column leaves the domain there, corner cells as asked by include_corner_cells; no cell is in two regions, and x boundaries are applied before y boundaries. getPossibleBoundaries names exactly the boundaries that exist on some processor.", "quantifier": "all grid sizes, topologies, processor counts and ranks, all cells", "why_tests_cant": "A wrong region silently gives wrong boundary values on some processors of some topologies only.", "anchors": ["src/mesh/impls/bout/boutmesh.cxx: BoutMesh::createXBoundaries, createYBoundaries, getPossibleBoundaries", "src/field/field_data.cxx: markBoundariesAsConditionallyUsed"]}
{"id": "C68", "title": "The standard named regions hold the points their names say", "statement": "After a mesh is loaded, getRegion succeeds for every standard name (RGN_ALL, RGN_NOBNDRY, RGN_NOX, RGN_NOY, RGN_NOZ, RGN_GUARDS, RGN_XGUARDS, RGN_YGUARDS, RGN_ZGUARDS, RGN_NOCORNERS, RGN_{LOWER,UPPER}{,_INNER,_OUTER}_Y, RGN_INNER_X, RGN_OUTER_X, RGN_BNDRY, RGN_WITH_XBNDRIES, RGN_WITH_YBNDRIES, RGN_WITH_BNDRIES), and iterating over the region visits exactly the points described by the name, each once.", "quantifier": "all local sizes, guard widths, topologies, ranks, z limits, maximum block sizes", "why_tests_cant": "Region contents depend on every mesh parameter; tests look at a fixed mesh.", "anchors": ["src/mesh/mesh.cxx: Mesh::createDefaultRegions, Mesh::getRegion3D, Mesh::addRegion3D", "src/mesh/impls/bout/boutmesh.cxx: BoutMesh::addBoundaryRegions"]}
{"id": "C69", "title": "Communicators along x and y are the processors of the row and of the field line, in order", "statement": "Creating the communicators succeeds on every rank. getXcomm is the processors of the same y position in order of x. getYcomm(x) is exactly the processors the field line through this processor at x passes, each once and in order along it (end to end for an open line, once round for a closed one), and all of them hold the same communicator. SurfaceIter::firstY (lastY) is true exactly on the processor at whose lower (upper) edge the field line leaves the domain.", "quantifier": "all grids, single and double null topologies (connected or not, either separatrix outside), processor counts, ranks and local columns", "why_tests_cant": "A wrong member or order only shows as a hang or a wrong inversion on some topologies and layouts.", "anchors": ["src/mesh/impls/bout/boutmesh.cxx: BoutMesh::createCommunicators, getYcomm, firstY(int), lastY(int)", "src/mesh/surfaceiter.cxx: SurfaceIter::firstY, lastY, closed"]}
{"id": "C70", "title": "ySize is the number of points along the field line", "statement": "ySize(x) (and SurfaceIter::ySize) is the number of grid points in y, over all processors, of the field line through this processor at local column x.", "quantifier": "all grids, topologies, processor counts, ranks and local columns", "why_tests_cant": "The value depends on the region of the poloidal plane the processor and the column are in.", "anchors": ["src/mesh/impls/bout/boutmesh.cxx: BoutMesh::ySize", "src/mesh/surfaceiter.cxx: SurfaceIter::ySize"]}
{"id": "C71", "title": "The global indexer numbers every unknown once", "statement": "Constructing a GlobalIndexer succeeds on every processor. The cells that get a number are the interior cells and the boundary cells read by the stencil; the numbers of all processors together are 0..N-1, each used once; every processor has the contiguous range [getGlobalStart, +size), ranges follow the ranks, and numbers increase in storage order. After initialise() a cell shows the number of the cell of the owner of the point it stands for, following the field line and a periodic x, whatever the order of the messages, and numbered cells keep their own number.", "quantifier": "all grids, topologies, processor layouts, ranks, stencils no wider than the guard cells, with and without corner cells, message arrival orders", "why_tests_cant": "Numbering is a property of all processors together; a clash or a hole shows only for particular topologies and stencils.", "anchors": ["include/bout/globalindexer.hxx: GlobalIndexer::GlobalIndexer, initialise, getGlobal, isLocal", "include/bout/operatorstencil.hxx: OperatorStencil"]}
{"id": "C72", "title": "Stencil inversion and matrix sparsity are exact", "statement": "getIndicesWithStencilIncluding(i) contains an interior point exactly when the stencil of that point contains i. getNumOffDiagonal of the row of an interior cell is the number of entries of its stencil in cells numbered by other processors, getNumDiagonal is the rest of the stencil; the row of a boundary cell has one diagonal entry.", "quantifier": "all grids, topologies, layouts, ranks, rows, interior stencils no wider than the guard cells (square and star included)", "why_tests_cant": "PETSc only warns or reallocates when the preallocation is wrong; which rows are affected depends on the decomposition.", "anchors": ["include/bout/operatorstencil.hxx: getIndicesWithStencilIncluding, squareStencil, starStencil", "include/bout/globalindexer.hxx: calculateSparsity, getNumDiagonal, getNumOffDiagonal"]}
{"id": "C73", "title": "A boundary condition setting is understood as written", "statement": "A boundary setting `name`, `name(args)` or `modifier(setting, args)`, modifiers nested to any depth, is understood as written: the condition created is the registered one of that name, with the positional arguments in order and the keywords given (the last one counts), whatever the blanks, the case of the names and the brackets and commas inside of arguments. A name that is not registered is an error at any depth; none and null give no condition.", "quantifier": "all settings of the grammar, spellings, nesting depths, argument texts, sets of registered conditions", "why_tests_cant": "The text is free: brackets, blanks and commas combine without bound, and a misread setting still gives some valid condition.", "anchors": ["src/mesh/boundary_factory.cxx: BoundaryFactory::create, add, addMod, findBoundaryOp", "include/bout/boundary_op.hxx: clone, cloneMod"]}
{"id": "C74", "title": "The most specific boundary setting counts", "statement": "The condition of a boundary region of a variable is the first that is set of: bndry_<label>, bndry_<side>, bndry_all (bndry_par_all for parallel regions) in the section of the variable, then the same in [all], else dirichlet (parallel_dirichlet). setBoundary gives a field the conditions of its regions in order, without those set to none, and fails if one is unknown. Every setting a region of some processor can consult is marked as conditionally used on all processors.", "quantifier": "all option trees, variable names, lists of regions, labels and sides, sets of registered conditions", "why_tests_cant": "Six keys in two sections interact for every region; which regions exist differs between processors.", "anchors": ["src/mesh/boundary_factory.cxx: BoundaryFactory::createFromOptions", "src/field/field_data.cxx: FieldData::setBoundary, markBoundariesAsConditionallyUsed"]}
{"id": "C75", "title": "Every processor reads its part of a grid file variable", "statement": "Mesh::get of a 2D or 3D variable that has the size of the grid in the file, with or without the y boundary cells (y_boundary_guards), gives every cell of every processor, guard cells included, the value of the file at the global position of that cell: the x index counts the boundaries, rows after the targets in the middle of a double null grid skip their boundary cells, the guard cells of a processor at a target hold the boundary cells of that target, and without boundary cells in the file the y guard cells hold the nearest row. A missing variable gives the default and a failure, a number gives a constant field, a 1D array is an error.", "quantifier": "all grids, topologies, processor layouts, ranks, guard cell widths, file contents, values of CHECK", "why_tests_cant": "The offset into the file depends on topology, layout and rank together; wrong rows are still plausible numbers.", "anchors": ["src/mesh/data/gridfromfile.cxx: GridFile::getField, readField, readgrid_3dvar_real", "include/bout/griddata.hxx: GridFile"]}
{"id": "C76", "title": "Numbers in a grid file are found, missing ones are reported", "statement": "Mesh::get of an int, BoutReal or string that is in the grid file succeeds with that value whatever was asked before, and changes nothing; of one that is not in the file it reports failure and gives the default of this call. Reading a vector gives exactly the part from offset on.", "quantifier": "all files, names, defaults, sequences of earlier requests", "why_tests_cant": "Requests change the stored tree, so the answer could depend on the whole history of requests.", "anchors": ["src/mesh/data/gridfromfile.cxx: GridFile::get, hasVar", "src/mesh/mesh.cxx: Mesh::get", "src/sys/options.cxx: Options::isSet"]}
{"id": "C77", "title": "min, max, mean and uniformity of a field", "statement": "min(f, allpe, rgn) and max give the least and greatest value of f on the cells of the region, on this processor or on all of them; mean gives the sum over the number of cells. With allpe and the default region the result is that of the whole grid, so it does not depend on the number of processors, the decomposition, the threads or the order in which MPI combines the ranks. isUniform tells whether all the values are equal, and getUniform returns that value or throws.", "quantifier": "all fields, regions, distributions of blocks over threads, processor layouts, orders of reduction", "why_tests_cant": "Thread and rank orders vary between runs, and unit tests run on one rank.", "anchors": ["include/bout/field.hxx: min, max, mean, isUniform, getUniform", "include/bout/region.hxx: BOUT_FOR_OMP", "src/mesh/mesh.cxx: RGN_NOBNDRY"]}
{"id": "C78", "title": "Averages over x, along y and over the plane", "statement": "averageX gives at every point the mean over all x points of the grid, boundaries excluded, in that row. averageY gives the mean over the points of the field line through the point. Average_XY gives the mean over the whole grid and Vol_Integral 2 pi times the sum of J*f*dx*dy, the same on every processor.", "quantifier": "all fields, grids and topologies, processor layouts, ranks and points", "why_tests_cant": "Which processors must take part depends on topology, layout and position together; unit tests have one processor and no branch cuts.", "anchors": ["src/physics/smoothing.cxx: averageX, averageY, Average_XY, Vol_Integral", "src/mesh/impls/bout/boutmesh.cxx: getXcomm, getYcomm, numberOfYBoundaries"]}
{"id": "C79", "title": "The non-linear filter only smooths", "statement": "nl_filter_x/y/z with a weight from 0 to 1 keep the sum of the values of each line, keep every value between the least and greatest value of the line, never increase the sum of the jumps between neighbours, and leave a line without strict local extrema unchanged.", "quantifier": "all lengths, values and weights", "why_tests_cant": "Each step changes points that earlier steps have already filtered, so invariants must hold over all sequences.", "anchors": ["src/physics/smoothing.cxx: nl_filter", "include/bout/smoothing.hxx"]}
{"id": "C80", "title": "Field3D objects behave as independent values", "statement": "Copying, moving, assigning, updating (+=, -=, *=, /= with a Field3D, Field2D or number), swapping and destroying Field3D objects, their parallel slices and their time derivatives act as on independent values although storage is shared: an object changes only through operations on itself, an update gives the same values whether or not the data is shared, operations that change values discard the parallel slices, and no object ever refers to released storage. After allocate(), an assignment of values or an update single elements may be written without affecting other fields.", "quantifier": "all histories of operations on any number of fields, all mesh sizes, all loop orders, any arithmetic", "why_tests_cant": "Which of two code paths runs depends on which other objects currently share the data; tests exercise a few histories.", "anchors": ["src/field/field3d.cxx: operator=, allocate, splitParallelSlices, clearParallelSlices, timeDeriv, swap", "include/bout/field3d.hxx: Field3D(Field3D&&), operator[]", "src/field/generated_fieldops.cxx: Field3D::operator*=, operator*"]}
{"id": "C81", "title": "Global fields: gather and scatter", "statement": "GlobalField2D/3D::gather puts the value of every point of the distributed field (the x boundaries included, the y boundaries not) at its global position in the array of the chosen processor, in whatever order the messages arrive; the pieces partition the global grid, so the array does not depend on how the grid was split; scatter is the inverse on these points, writes nothing else (guard cells are left uninitialised), and neither accesses memory outside its buffers. A processor number out of range is an exception.", "quantifier": "all grids, topologies and processor counts accepted by BoutMesh::load, all destination ranks, arrival orders and field values", "why_tests_cant": "The origins and sizes depend on the position of the rank in the decomposition, and MPI_Waitany may report the messages in any order; a test runs one decomposition and one schedule.", "anchors": ["src/field/globalfield.cxx: GlobalField::proc_local_origin, proc_origin, proc_size, GlobalField2D::gather, scatter, GlobalField3D::gather, scatter", "include/bout/globalfield.hxx: GlobalField2D::operator(), GlobalField3D::operator()"]}
{"id": "C82", "title": "LaplaceSPT: the tridiagonal systems are solved across processors", "statement": "For every number of processors in x (at least two; one is refused), every size and every mode, if no leading minor of the global tridiagonal matrix of the mode vanishes and the rows on the processors are those of the global system (the c coefficient in the guard cell included), the pipelined Thomas algorithm leaves on each processor its part of the one and only solution, whatever the work arrays held before, and reads nothing outside its arrays. If the guard-cell coefficient differs from the neighbour's, or the first pivot on a processor is zero, it silently returns a wrong answer.", "quantifier": "all processor counts, local sizes, guard widths, modes, coefficients, right hand sides in any field, and initial contents of the work arrays", "why_tests_cant": "The algorithm's correctness is an identity over all matrices and decompositions; a test solves a few systems on a few processors.", "anchors": ["src/invert/laplace/impls/spt/spt.cxx: LaplaceSPT::tridagForward, tridagBack, start, next, finish"]}
{"id": "C83", "title": "LaplaceSPT: the overlapped slices never deadlock, mix or lose messages, and give the sequential result", "statement": "For every number of processors in x (at least two), every number of slices and every order in which processors run and messages are delivered, solve(Field3D) and solve(FieldPerp) end: every execution has at most 10 steps per slice and processor, always has a processor that can go on (even if no send is buffered by MPI), never uses a buffer that is being received into, never overwrites a pending request, never waits for a receive that was not posted, never names a processor outside the row; and at the end every slice has the result of the calculation for that slice alone, hence (C82) the solution of its system, with no message left over.", "quantifier": "all processor counts, slice counts, local data, interleavings of processors and message delays, buffered or synchronous sends", "why_tests_cant": "A test sees one interleaving on one MPI library; deadlock or mixing of messages would show only for particular timings, slice counts and processor counts.", "anchors": ["src/invert/laplace/impls/spt/spt.cxx: LaplaceSPT::solve, start, next, finish", "src/mesh/impls/bout/boutmesh.cxx: BoutMesh::sendXOut, sendXIn, irecvXOut, irecvXIn, wait"]}
{"id": "C84", "title": "Command line: every switch is understood in any place and order, and the files used are those named", "statement": "For every list of command line arguments without a help word: the switches (-q, -v, -c, -d dir, -f file, -o file, -l file and their long forms) may stand in any place, order and number, the last value given counts, verbosity is 4 plus the number of -v minus the number of -q; a switch whose value is missing is refused, and so is an input file that is also the settings file; all other arguments, with the values of the switches as datadir=, optionfile=, settingsfile=, make the settings they name, in order. A help word anywhere ends the program. If directory and files are chosen by switches only then input, log and settings go in the same directory and the input file is not overwritten.", "quantifier": "all argument lists, all texts of the input file, all option trees before", "why_tests_cant": "The arguments can be combined and ordered in unboundedly many ways; a test tries a few of them.", "anchors": ["src/bout++.cxx: BoutInitialise, parseCommandLineArgs, handleFactoryHelp, setRunStartInfo, writeSettingsFile", "src/sys/optionsreader.cxx: OptionsReader::parseCommandLine"]}
{"id": "C85", "title": "LaplacePCR: every execution of the cyclic reduction ends and leaves the solution", "statement": "For any power of two of processors in X, any power of two of points on each, any number of systems and boundary points (at least one): if every tridiagonal system is dominated by its diagonal (weakly inside, strictly next to the boundaries), the solver called on all processors always returns: whatever the order in which the processors proceed and whichever messages MPI buffers, there is no deadlock, no misuse of a request or buffer in flight, no division by zero; the number of steps is the same in all executions; at the end every processor holds its rows of the solution, which exists and is unique, no request is pending and no message is left.", "quantifier": "all numbers of processors and rows that are powers of two, all coefficients and right hand sides that are diagonally dominant, all interleavings of the processors, all buffering decisions of MPI", "why_tests_cant": "The number of interleavings of sends, receives and waits grows exponentially, buffering depends on the MPI library and the size of messages, and the reduction has a different pattern for every size.", "anchors": ["src/invert/laplace/impls/pcr/pcr.cxx: LaplacePCR::cr_pcr_solver, eliminate_boundary_rows, cr_forward_multiple_row, pcr_forward_single_row, cr_backward_multiple_row, apply_boundary_conditions, solve", "src/invert/laplace/impls/pcr/pcr.hxx"]}
{"id": "C86", "title": "FCI: parallel slices and parallel boundary conditions", "statement": "With the flux coordinate independent transform, after the parallel slices of a field are calculated, every slice holds, at every point of the domain whose field line stays in the domain, the field interpolated at the end of that line. The parallel boundary regions hold exactly the points whose lines leave, once each, inner or outer. After a parallel boundary condition is applied every other point of the slices is set such that the condition holds where the line hits the boundary (value for Dirichlet, derivative along y for Neumann), and no interpolated value is changed.", "quantifier": "all meshes, field line maps, fields, boundary values (constants, fields, expressions), interpolation methods, numbers of parallel slices", "why_tests_cant": "Which lines leave, and where, is arbitrary data of the grid file; tests use a few maps on tiny meshes.", "anchors": ["src/mesh/parallel/fci.cxx: FCIMap, FCITransform::calcParallelSlices", "src/mesh/parallel/fci.hxx: FCITransform", "src/mesh/parallel_boundary_op.cxx: BoundaryOpPar_dirichlet::apply, BoundaryOpPar_dirichlet_O3::apply, BoundaryOpPar_dirichlet_interp::apply, BoundaryOpPar_neumann::apply", "src/mesh/parallel_boundary_region.cxx", "src/field/field3d.cxx: Field3D::applyParallelBoundary"]}
{"id": "C87", "title": "IMEX-BDF2: variable-step formula, history and step control", "statement": "Every internal step the IMEX-BDF2 solver accepts is the solution of an implicit-explicit BDF formula of its order (1 to maxOrder) through the actual last points of the solution and their non-stiff derivatives: exact for polynomial solutions of that degree whatever the lengths of the steps. The steps tile the output interval exactly, are positive, between dtMin and dtMax (the last before an output may be shorter), at most mxstep of them; the solver returns or throws after a bounded number of attempts, and never reads outside its history. Without adaptation the steps are equal and the fewest that do not exceed the requested one.", "quantifier": "all right hand sides, initial values, options (order, predictor, adaptive or not, limits), all outcomes of the nonlinear solver (solutions and failures) and all error estimates", "why_tests_cant": "The coefficients depend on up to four step lengths, which follow from the failures and error estimates of the run; tests solve one problem with equal steps.", "anchors": ["src/solver/impls/imex-bdf2/imex-bdf2.cxx: IMEXBDF2::init, run, calculateCoeffs, take_step, shuffleState, solve_implicit"]}
{"id": "C88", "title": "Inversion of parallel derivatives", "statement": "The field returned by InvertPar::solve satisfies A u + B Grad2_par2(u) + C D2DYDZ(u) + D D2DZ2(u) + E DDY(u) = f at every interior point of every flux surface, with neighbours taken across processors, across the twist-shift cut of a closed surface (shifted in z by the twist angle) and, at the ends of an open surface, by zero gradient; the right hand side having no mode at the highest frequency of an even number of z points (any right hand side when there is no shift and no mixed derivative). Without that condition only that mode can differ. Boundary rows returned with the identity transform have zero gradient. On closed surfaces with A < 0, D >= 0 and a second derivative dominating the first, the solve never meets a zero pivot.", "quantifier": "all coefficients, metrics, right hand sides, numbers of points and processors, open and closed surfaces, cell locations, transforms, twist angles, message orders and contents of memory", "why_tests_cant": "The test solves a few sets of constants on small meshes; the twist phase, the shift to aligned coordinates, the wrap of the first and last rows and the highest mode interact, and processors hold different parts of each system.", "anchors": ["src/invert/parderiv/impls/cyclic/cyclic.cxx: InvertParCR::solve", "src/mesh/surfaceiter.cxx", "src/mesh/impls/bout/boutmesh.cxx: periodicY, communication with twist shift"]}
{"id": "C89", "title": "Inversion of the divergence of a parallel gradient", "statement": "The field returned by InvertParDiv::solve satisfies A u + Div_par(B Grad_par(u)) = f at every interior point of every flux surface, where the operator is the finite-volume one of FV::Div_par_K_Grad_par with boundary fluxes, under the same conditions on the highest mode as InvertPar. The inversion conserves: the volume integral of A u over a surface equals that of f, for open and closed surfaces and any number of processors. With A < 0 and B >= 0 on a closed surface the solve never meets a zero pivot.", "quantifier": "all coefficients, metrics, right hand sides, numbers of points and processors, open and closed surfaces, cell locations, transforms, twist angles, message orders and contents of memory", "why_tests_cant": "Conservation is a sum over all processors of a surface and holds only if every face is treated alike from both sides; tests compare with the operator on one mesh.", "anchors": ["src/invert/pardiv/impls/cyclic/pardiv_cyclic.cxx: InvertParDivCR::solve", "src/mesh/fv_ops.cxx: Div_par_K_Grad_par"]}
{"id": "C90", "title": "Contents of NetCDF files written by OptionsNetCDF", "statement": "After any history of OptionsNetCDF objects (replace or append), writes with any time dimensions, restarts and writes that throw, the file on disk holds, for every option with the time dimension asked for, one record per write in order and fill values after the last, and for every option without time dimension its last value, of everything written since the file was last replaced; a write that throws leaves the entries before some place of its tree and none of the others. Writes that keep type, shape and time dimension of each option, and never use one name for both a value and a section, do not throw.", "quantifier": "all histories of objects, writes and restarts, all option trees, types, attributes and time dimensions", "why_tests_cant": "The place of a record comes from an attribute stored in the file by earlier writes, possibly of other program runs, and dimensions of the same name are shared or duplicated between groups; tests write two or three times.", "anchors": ["src/sys/options/options_netcdf.cxx: OptionsNetCDF::write, writeGroup, getCurrentTimeIndex, findDimension, NcPutVarVisitor, NcPutVarCountVisitor"]}
{"id": "C91", "title": "verifyTimesteps", "statement": "OptionsNetCDF::verifyTimesteps does not throw when every write along a time dimension has written all the options of that dimension, and throws when some option has fewer records than another of the same time dimension.", "quantifier": "all histories of writes, all option trees and any order of dimension objects in the NetCDF library", "why_tests_cant": "The check compares an attribute with the size of an unlimited dimension, which is the maximum over all variables, in every group.", "anchors": ["src/sys/options/options_netcdf.cxx: verifyTimesteps, OptionsNetCDF::verifyTimesteps"]}
{"id": "C92", "title": "Reading back what OptionsNetCDF wrote", "statement": "OptionsNetCDF::read returns what was written: an option without time dimension has its last value (booleans as integers) and its attributes; an option with a time dimension has an array of all records in order, exactly one per write when the history is complete, and the attributes of its last record; every option carries the file name as source.", "quantifier": "all histories of writes, all option trees, types and attributes, all file names", "why_tests_cant": "Reading depends on the number of dimensions and the type found in the file, and sizes of time dimensions on all variables that share them; tests read a handful of scalars.", "anchors": ["src/sys/options/options_netcdf.cxx: readGroup, OptionsNetCDF::read"]}
{"id": "C93", "title": "LaplaceNaulin: iteration for coefficients that depend on z", "statement": "Whatever the problem, LaplaceNaulin::solve ends, after at most maxits iterations, with a result or an exception; a result satisfies D Laplace_perp(x) + (1/C1) Grad_perp(C2).Grad_perp(x) + A x = rhs, with coefficients that depend on x, y and z, with a residual (divided by D) below atol everywhere or below rtol times the root mean square of rhs/D, and the boundary conditions of the direct solver, with the boundary values of the initial guess where a flag SET asks for them. Coefficients constant in z need one direct solve. If the fixed point iteration contracts, it converges without underrelaxation within the number of iterations the contraction factor gives. The mean number of iterations reported is the mean over the calls since the last reset.", "quantifier": "all meshes without integrated shear, coefficients, right hand sides, initial guesses, tolerances, iteration limits, underrelaxation factors and numbers of processors and z points, with all z modes kept; any direct solver with the properties of C60", "why_tests_cant": "The iteration diverges or underrelaxes depending on the coefficients; tests use a few smooth profiles for which it converges quickly.", "anchors": ["src/invert/laplace/impls/naulin/naulin_laplace.cxx: LaplaceNaulin::solve, copy_x_boundaries", "src/invert/laplace/impls/naulin/naulin_laplace.hxx: getMeanIterations, resetMeanIterations"]}
{"id": "C94", "title": "LaplaceXZcyclic: x-z inversion in every y plane", "statement": "After any calls of setCoefs (at first A = 1, B = 0), a result of LaplaceXZ::solve of type cyclic satisfies (1/J) d/dx(J A g^xx dx/dx) + A g^zz d2x/dz2 + B x = rhs, with the coefficients set last, at every point of the domain, at the inner boundary the average and the deviation from it have the gradient or the value given (by the second argument, by rhs, or zero, according to the flags), and the result, boundary cells included, is determined by the arguments. At the outer boundary gradient or value are zero.", "quantifier": "all meshes, numbers of processors along x, of y and z points, boundary flags, histories of setCoefs, coefficients for which the equation is elliptic (A, J, g^xx, dx positive, B not positive, g^zz not negative) and definite, right hand sides, boundary values, orders of messages and contents of memory", "why_tests_cant": "The integrated test compares one field on one grid; the number of systems, their numbering over y and z modes and the distribution over processors vary.", "anchors": ["src/invert/laplacexz/impls/cyclic/laplacexz-cyclic.cxx: LaplaceXZcyclic::LaplaceXZcyclic, setCoefs, solve", "include/bout/invert/laplacexz.hxx: LaplaceXZ"]}
{"id": "C95", "title": "SNB heat flux: groups, weights, conservation", "statement": "HeatFluxSNB::divHeatFlux returns Div(q_SH) minus the sum over the energy groups of Div(lambda_ei,g/3 Grad H_g), where each H_g solves H_g/lambda_ee,g - Div(lambda_ei,g/3 Grad H_g) = - W_g Div(q_SH) at every point, with the Spitzer-Harm conductivity and the mean free paths of the documentation. The weights are positive and add up to the part of the Maxwellian integral below beta_max. The correction moves heat around without changing its integral over the flux surface, which on a closed surface is zero. On a closed surface the calculation runs to the end unless a mean free path exceeds 10^10.", "quantifier": "all temperatures and densities with positive Coulomb logarithm (independent of z for the divergence form and conservation), metrics, open and closed surfaces, numbers of processors, groups, beta_max, Z, r, and solvers with the properties of C89", "why_tests_cant": "The unit tests check a uniform plasma (zero), positivity and one sine of the temperature on one grid with one set of options; conservation and the equations hold for every profile, number of groups and decomposition.", "anchors": ["src/physics/snb.cxx: HeatFluxSNB::divHeatFlux", "include/bout/snb.hxx: HeatFluxSNB, groupWeight, int_beta4_exp", "include/bout/constants.hxx: SI"]}
{"id": "C96", "title": "Gyro-averaging: Pade approximations, their boundaries and history", "statement": "At every point of the domain gyroPade0(f, rho) is the g with g - rho^2 Delp2(g) = f, gyroPade1 the g with g - rho^2/2 Delp2(g) = f, gyroPade2 is rho^2/2 Delp2 of two successive such inversions, gyroTaylor0 is f + rho^2 Delp2(f); a z-dependent radius is replaced by its average over z in the Pade forms. With the default flags the result half way between the two outermost cells on each side is the argument in the outermost cell. The result of a call does not depend on what the default Laplacian was used for before; the coefficients and flags it sets stay behind.", "quantifier": "all fields, radii (constant, x-dependent, z-dependent), metrics, layouts over any number of processors in x, boundary flags, sequences of calls of these functions and of the setters of the default Laplacian, and solvers with the properties of C60", "why_tests_cant": "There are no unit tests of these functions; an integrated test compares a few profiles on one grid. The equations hold for every field and decomposition, and independence of earlier uses is a property of every history of calls.", "anchors": ["src/physics/gyro_average.cxx: gyroTaylor0, gyroPade0, gyroPade1, gyroPade2", "include/bout/gyro_average.hxx: GYRO_FLAGS", "include/bout/invert_laplace.hxx: Laplacian::defaultInstance, setCoefA, setCoefC, setCoefD, setInnerBoundaryFlags, setOuterBoundaryFlags"]}
{"id": "C97", "title": "Radial sources, sinks and masks", "statement": "source_tanhx, source_expx2, sink_tanhx, sink_tanhxl, sink_tanhxr, mask_x and buff_x multiply by a function of the normalised radial position in the whole grid, in guard cells too, whatever the decomposition: the tanh forms are steps between 0 and 1 with value 1/2 at slength (measured from the left, for sink_tanhx and sink_tanhxr from the right end) that fall off exponentially in units of swidth; with symmetricGlobalX the positions are 0 and 1 at the ends of the domain and masks at the right end mirror those at the left. mask_x sets nothing to zero: it changes a field by less than 0.1 percent anywhere in the domain (refutes its description). buff_x keeps the field near the ends and removes it in the middle. For arguments whose exponential overflows the hyperbolic tangent used is not a number.", "quantifier": "all fields, widths, lengths, grid sizes, numbers of guard cells and processors in x, periodic or not, and all processors and cells", "why_tests_cant": "There are no unit tests of these functions; independence of the decomposition and the bounds range over all grids, processors and widths.", "anchors": ["src/physics/sourcex.cxx: TanH, source_tanhx, source_expx2, sink_tanhx, sink_tanhxl, sink_tanhxr, mask_x, buff_x", "src/mesh/impls/bout/boutmesh.cxx: BoutMesh::GlobalX, getGlobalXIndex"]}
{"id": "C98", "title": "Linear smoothing along x, along y and in the plane", "statement": "smooth_x and smooth_y return the 1-2-1 filter of the field at every point of the whole line, guard cells included, whatever the decomposition (smooth_y with the parallel slices of its argument), and leave the first and the last point alone. The filter stays within the range of the three values it uses, multiplies waves by cos^2 of half the phase step, removes the shortest one and keeps the sum over a closed line. smoothXY is half the value plus half the average over the neighbours of such a pass; it stays within the range of the values used and multiplies waves by a factor between 7/16 and 1; it sets no guard cells, and with one guard cell leaves points of the domain without a value.", "quantifier": "all fields, numbers of points, processors and guard cells (no more than points per processor), periodic or not, all waves", "why_tests_cant": "The unit tests of smoothing use one processor and one field; independence of the decomposition, the bounds and the damping of waves range over all fields, waves and processor counts.", "anchors": ["src/physics/smoothing.cxx: smooth_x, smooth_y, smoothXY", "include/bout/smoothing.hxx: smooth_x, smooth_y, smoothXY"]}
{"id": "C99", "title": "Field generators: ballooning, mixmode, TanhHat, gauss, H, round", "statement": "ballooning(f, N) on closed surfaces is the sum of f over N turns along the field in both directions, with the twist-shift angle of the cell nearest in x, and 0 on open ones; going once around changes it by the two terms at the ends of the sum only, and with one point per processor in x it divides by zero. mixmode is the sum of the harmonics 0 to 13 of its argument with amplitudes 1/(1+|i-4|)^2 (the manual says 1 to 14) and phases between -pi and pi that are the same on every processor; it is periodic in its argument, and the seeds s and -s draw the same number. TanhHat is the documented hat with width, centre and steepness constants, between 0 and 1, symmetric. gauss is the documented Gaussian, H the step function, round the nearest integer.", "quantifier": "all arguments, contexts, seeds, numbers of turns, twist-shift angles, grids, processors and positions in x within half a cell of a point", "why_tests_cant": "The unit tests evaluate these functions at a few points of one small grid; the ballooning test uses a fake mesh. The range of the random numbers, the twist-shift condition and the index search range over all seeds, angles, grids and processors.", "anchors": ["src/field/fieldgenerators.cxx: FieldBallooning, FieldMixmode, FieldTanhHat, FieldGaussian, FieldHeaviside", "src/field/fieldgenerators.hxx: FieldRound", "include/bout/utils.hxx: ROUND", "src/sys/generator_context.cxx: Context"]}
