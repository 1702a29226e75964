# Formal model of pylbm: design

Properties are listed in `properties.jsonl`; the state of each is in
`MANIFEST.json`.  The Rocq development is in `rocq/theories` (logical name
`Verif`).  Each area of the code has three kinds of file:

* `XxxModel.v`  - the model: small total functions mirroring the Python code
  branch by branch, each with a comment citing the lines of `/repo` it models.
* `XxxProofs.v` - lemmas and proofs, plus (where it is not one line) the
  independent specification.
* `XxxProps.v`  - the property theorems only, each closed by `exact lemma`,
  followed by `Print Assumptions` and an `Example` which meets the hypotheses.

## Conventions

* Python integers are `Z`; sizes, indices and fuel are `nat`.
* Floating point numbers are replaced by exact numbers: an arbitrary
  commutative ring (a record of operations and laws, `LinAlg.v`) for the linear
  algebra, the rationals `Q`/`Qc` or the reals `R` for geometry, any
  `numClosedFieldType` of mathcomp for the complex polynomials of the stability
  analysis.  Rounding is not
  modelled anywhere.
* Exceptions are values (`option` or a result type); a theorem says when the
  error branch is taken.
* User supplied functions (equilibria, sources, boundary functions) and SymPy
  are oracles: universally quantified functions.
* Mutable arrays are functions from indices to values; an in place update
  returns the new function.
* MPI messages are modelled by their effect: a receive gets the data of the
  matching send.  Deadlock, message loss and timing are out of the model.

## Plan per property

| id | model | proof |
|----|-------|-------|
| C01 | `Velocity._set_num/_set_coord`, 1D, over Z | arithmetic, all integers |
| C02 | same, 2D, with the `_R2` table, Z square root for `int((sqrt(num)+1)/2)` and Python negative indexing | case analysis on signs and comparison, nonlinear arithmetic |
| C03 | enumeration of the 3D velocities as a list built by the same loops | the list has no duplicate and contains exactly the cube; index/nth inverse |
| C04 | `get_symmetric` | direct |
| C05 | `permute_in_place` loop with fuel | next permutation is the successor in lexicographic order; termination |
| C06 | `Stencil.__init__` over lists of numbers | properties of sort/dedup/searchsorted, prefix sums |
| C07 | `Stencil.get_symmetric`, `is_symmetric` | involution; refutation of the verdict for composite stencils |
| C08 | `vmax`, `Array.__init__` extents | bounds; refutation for one sided stencils |
| C09 | `get_region_indices_`, `get_region` | induction on the number of processes |
| C10 | `create_coords` with `linspace`, over a field | algebra on the closed form |
| C11 | acceptance test, over Q | refutation with dx=1; proved part: acceptance of exact multiples |
| C12 | `update`: per axis exchange, all processes | invariant: after axis d, ghosts along axes <= d are right |
| C13 | strides/transposition by a permutation | index map is injective; history by induction |
| C14 | `__add_init` | loop invariant: running strict minimum |
| C15 | `__add_elem`, `clean` | fold over elements |
| C16 | `BoundaryVelocity`, `prepare_rhs` | list membership and algebra |
| C17 | `BounceBack`, `AntiBounceBack`, `Neumann` + transport | pointwise |
| C18 | Bouzidi weights | algebra over ordered field |
| C19 | update as a fold over links | commutation of the fold |
| C20 | same | algebra; refutation where false |
| C21, C22 | block matrices, row/column swaps | matrix algebra over a field; refutation of unordered lists |
| C23, C24, C25, C31, C50 | `*_local` functions of `algorithm/base.py` | algebra, oracles for equilibria |
| C26 | `pull.py` vs `base.py` | pointwise equality |
| C27, C28 | periodic step iterated | sums invariant under permutation; induction on steps |
| C29 | local step on a padded array, exchange, gluing | refinement: the glued state follows the serial step |
| C30 | masked loop | pointwise |
| C32, C33, C34 | state machine of `Simulation` with buffers and the lazy flag | invariant over operation sequences; refutations for the operations which forget the flag |
| C35, C36 | slices and dataset writes | partition argument reusing C09 |
| C37-C41 | elements over R | algebra, quadratic equations |
| C42, C43 | `is_S`, `is_vN`, `is_svN` over a closed field | Schur-Cohn by the elementary domination argument, Gauss-Lucas, Cohn |
| C44 | matrices over a ring, dual numbers, then a closed field | linearised step on plane waves; Faddeev-LeVerrier |
| C45 | branches over R | case analysis |
| C46 | tree of timers | induction on call trees |
| C47 | token lists | induction |
| C48 | lists of labels | induction |
| C49 | matrix algebra | direct |
| C51 | `Array._in`, history of the storage | index arithmetic |
| C52, C53 | normals and `Cylinder.distance` over R | algebra, case analysis |
| C54, C55 | domain, boundary conditions, ghost exchange and time step together | the map between entering and leaving distributions is a bijection of (velocity, cell) pairs; several processes: the sum over the reference step of C57 |
| C57 | domain and links of a process as a part of the serial ones | one global reference step followed by every process grid |
| C58 | initialisation in the state machine of `Simulation` | specifications of the kernels; the last entry for a row wins |
| C59 | expressions as trees, `subs` one replacement after the other | rank of a symbol in a non circular order; each pass lowers the rank |
| C60 | table of equilibria of a method, arrays kept between the steps | induction on the labels and on the times; specifications of the kernels |
| C61 | kernels as statements on arrays, slices and broadcasting of NumPy, loops of Cython | both are the run of each cell alone, from the arrays before the kernel |
| C63 | symbolic statements of the methods `*_local`, printed for both back ends | relation between each statement and its arithmetic; the loops of C61; the refinement of C29 |
| C64 | from the dictionary to the algorithm: matrices of the polynomials, equilibria, conserved moments in front, names to indices | the dictionary in the words of the user; a permutation between both orders; the steps of C63 |
| C65 | the whole step of all the processes: update, boundary methods, generated kernel, exchange of the storages | the history of the whole domain from the dictionary and `arrives` (links, else neighbours); the mass in vessels and channels |
| C67 | the parts of C54, C55, C57 and C65 together: walls, periodic sides and elements | where each link comes from (a side of the box or an element), and a bijection of the (velocity, fluid cell) pairs through the periodic images |
| C68 | `initialization` on each process with the generated kernels `equilibrium`, `m2f`, `f2m` on all the cells | `initial_state`: the values of the conserved moments are those of the last entry, all the moments are at equilibrium; one field for every process grid |
| C69 | the files character by character: lines of the printers, `indent_code`, routines | the rule of indentation of Python as a relation between lines and trees; the levels of the lines do not depend on the earlier passes of indentation |
| C70 | the printers of expressions as functions from trees to tokens | the grammar of the expressions of Python as relations which compute a value; closure of atoms, powers, products and sums under the cases of the printers |
| C71 - C75 | no new model: the histories of C65 and C68 (`FlowProofs`) | `history`: arrivals, then `collided`; `simulates`: every run on every process grid holds the history; uniqueness of histories, so that a field with the equations of a history is the simulation |
| C76 - C79 | the loo.py back end: work items which load and store in any interleaving, blocks of instructions with the waits that are printed, device and host copies of the arrays (`LoopyModel`) | an item alone runs the instructions in an order of its blocks (`lin`); race freedom between items, `calm` blocks whose rows commute; then the theorems of C63 and C12 |
| C80, C81 | the rules of the validator as data with an interpreter, the reads of the constructors as partial functions (`ValidatorModel`) | the shape of a dictionary as predicates without the rules; induction on nested values; each read succeeds exactly when |
| C82 | the file system as a list of directories with a source and a compiled file, `sys.path`, `sys.modules` (`AutowrapModel`) | `expected`: for each directory the routines of the last generation; induction on the simulations |
| C83 | one event at a time: a send leaves, a receive completes, `Waitall` returns (`AsyncModel`); the messages of C12 | an invariant which gives the memory of each process and the content of each channel in terms of the lock step execution; the least advanced process can always go on; a count of the events |
| C84 | the process grid and its options, ranks in row major order, `Create_subarray` as a list of offsets, `pack`/`unpack` of the buffers (`TopologyModel`) | ranks and coordinates are inverse; the slabs in any storage order: offsets of distinct cells are distinct, so that unpacking writes each cell once; the result is compared with `write_slab` of C83 |
| C85 | the kernels of the boundary methods as expressions over `istore`, `iload`, `rhs`, `dist` run on the buffers; an access outside of the array is an error (`BoundGenModel`) | agreement of the buffer with the field of C16-C20 through the offsets, which are injective; links start at interior cells (C15), so that everything read is at most one halo away |
| C86 | no new model: the simulations of C68 with the dictionary of C64 (`MovingProps`) | `moves`: the collision in the moving frame, in terms of the moments of polynomials at `v - u`; `moving_history`; with `conserved_span` the statements of the fixed frame follow by a change of basis |
| C87 | no new model: the histories of C68/C71 over the rational numbers (`BoundsProps`) | `inside`: each distribution in a convex set of its own; the steps of a history are convex combinations; `scalar` schemes: maximum principle, comparison, contraction of the sum of the distances |
| C88 | the same | `energy`: a weighted sum of squares; `projection` and `orthogonal` state the hypotheses in terms of the moments and the equilibria of the dictionary only |
| C89 | no new model: the histories of C68/C71 (`MirrorProps`) | reflections of cells, velocities and points (`mc`, `mv`, `mp`); `mirrors` and `mirror_dict` state the symmetry of the box, the elements and the dictionary; the links of the mirrored cells have the same distance and label (`mirror_domain`) |
| C90 | the arguments of the kernels with their values in the statements of the algorithm (`called`), the clock (`TimedModel`) | `collided_with` and `initial_with`: C64 and C68 for values which agree with the arguments outside of the conserved moments; the kernels of a call are those of the dictionary where the values are inserted (`fixed_dict`, `build_fixed`) |
| C91 | no new model: the kernel `pull_local` of `AlgoModel` with sources and a relative velocity (`SourceFrame`, `SourceFrameProps`) | `pushed`: the collision in terms of the moments at `v - u`, the sources at the moments of the moving frame; `invariant` and `momentum` state what the polynomials of the density and of the momentum do under translations |
| C92 | `arith` of `LinAlg`: the operations without laws; all the models from the cell to the simulation are over an `arith`, `RoundModel`: binary64 by `SpecFloat`, `linspace` and the circle in binary64 | `RoundProofs`: statement lists with a scope (written before read); induction on the list for the local run and for the run of NumPy over one array |
| C93 | no new model: the histories of C68/C71 (`RenumberProps`) | `renum os k`: the old number of the new velocity k; the links, loads, values and moments of the reordered dictionary are those of the old one with the numbers changed (`link_order`, `load0_order`, `bvalue_order`, `mom_dicts`); dictionaries given by "feq" are left out, and that the reordered dictionary is built is assumed (the inverse of M is an oracle) |
| C94 | no new model: the histories of C68/C71 (`BasisProps`) | `alike`: same velocities, conserved moments and sources; `combined A`: the other moments are combinations (rates, equilibria); only `collided` and `initial_state` change, and they are transferred; both dictionaries are assumed to be built (oracle of the inverse) |
| C95 | the step of NumPy with statements which read any cell of the arrays (`NeighbourModel`) | rows in sequence, all the cells at once; the old moments outside are a parameter |
| C96 | no new model: the runs of C92 over binary64, over the reals and over bounds (`NearProofs`); `Round64Proofs` says with Flocq that the operations of `SpecFloat` round to nearest | a relation of three arithmetics which the operations keep (`near`: computed, exact, bound) is kept by the statements of the kernels and by the boundary conditions; the bounds are integers in units of 2^-200, no bound after a possible overflow |
| C97 | `container.py`, the constructors of `storage.py`, `AOS.reshape` (`ContainerModel`); the order is a list of Python integers | the accepted orders are the permutations up to indices from the end; the three arrays have the layout of the order given to the generator; the accesses by C13 |
| C98 | no new model: the histories of C65 in closed domains (`ReverseProps`) | the collision is its own inverse and commutes with the reversal; each arrival has an origin, whose origin in the opposite direction it is |
| C99 | no new model: the histories of C65 in periodic domains (`StaggerProps`) | the shift by a velocity permutes the cells and changes the parity, the collision keeps the moment in each cell |
| C100 | `ProgressModel`: the texts of the progress bar and of the headers | rounding to the nearest integer, in integers |
| C101 | no new model: the histories of C65 in the ducts of C67 (`ShiftProps`) | the origin of an arriving distribution (C67) commutes with a shift along the periodic axes which keeps the obstacles; induction over the steps |
| C102 | `ItemModel`: the descriptors `itemproperty`, the four attributes of `Simulation`, Python's augmented assignment with arrays changed in place, exceptions which carry the state | each statement is computed; programs are reduced to the sequences of C32 |
| C103 | no new model: the histories of C65 (`PassiveProps`, `AloneProps`) | the distributions of some schemes from one step and those of the others from another are a step again, which is determined (C64); the conditions read the distributions of their own scheme (C07); a step of all the schemes is a step of the first ones, and the links of the first ones are those they have alone |
| C104 | no new model: the histories of C65 (`SelectProps`) | a table of the new numbers of the distributions; stencils, opposite velocities, links and steps correspond under it; induction over the steps |
| C66 | substitution of the symbols, arguments and local variables of the routines, `_get_args` (with the semantics of `locals()`) | the value which the user means for each symbol |
| C62 | meshes of triangles over Q, half lines, convex bodies as intersections of half spaces | induction on the triangles; the first face met when a convex body is left |
| C56 | differential rings, congruences modulo powers of the time step | Taylor expansion of the transport |

## Trusted base

* The kernel of Coq 8.16.1, and `coq_makefile`/`make` which run it.
* The axioms printed by `Print Assumptions`, all from the standard library:

  | theorems | axioms |
  |----------|--------|
  | C18 (all six), `C37_circle_box`, `C37_ellipse_inside`, `C37_sphere_box`, `C37_ellipsoid_inside`, C38 (all), `C39_parallel`, `C39_two_lines`, `C40_inside` | `ClassicalDedekindReals.sig_forall_dec`, `FunctionalExtensionality.functional_extensionality_dep` |
  | `C37_circle_inside`, `C37_ellipse_box_partial`, `C37_ellipse_box_refuted`, `C37_sphere_inside`, `C37_ellipsoid_box_partial`, the other theorems of C39 and C40, C41 (all), C52 (all), C53 (all) | the two above and `ClassicalDedekindReals.sig_not_dec` |
  | C96 (all), `C92_coordinates`, `C92_edge` | the three above and `Classical_Prop.classic` |
  | all the other theorems of `MANIFEST.json` | none: closed under the global context |

  The first three axioms are those of the real numbers of the standard library,
  the fourth, `Classical_Prop.classic`, is used by lemmas of Flocq.
* The rounding (C96) uses the Flocq library, which adds no axiom.
* The stability analysis (C42-C44) uses the mathcomp library, which adds no
  axiom: `Print Assumptions` answers "Closed under the global context" for every
  theorem of these files.  `coqchk -o`, however, reports as axioms the fields of
  modules sealed by a module type when it meets them in compiled files
  (`BigOp.bigop`, `FinfunDef.finfun`, `SetDef.finset`, `PermDef.perm`, ..., and
  in the same way `RbaseSymbolsImpl` of Reals and `Under_rel` of ssreflect).
  These are definitions made opaque, each with its proof in the library.
* The reading of the Python code: nothing links the model to the code but the
  citations of the comments.  The code was not run.
* Numbers: most theorems are for exact numbers (a ring, Q, R).  Those which do not use the laws of a ring are
  stated for any `arith`, a type with operations, hence for binary64: C28, C29, C34, C57, the runs of C63
  (`C63_runs`, `C63_refines`, `C63_cython`, `C63_numpy`), the accesses of C61 and C92.  C96 bounds the distance between both.  The geometry (cells inside, links, distances) is
  exact in all of them; C92 says what happens to the coordinates in binary64.  Fused multiply-add in the compiled code is a
  different list of operations, the same on each process.
* NumPy, SymPy, mpi4py, h5py, the C compiler and the code generators are
  replaced by the semantics described in the comments of the models.

## What is modelled

| code | model | left out |
|------|-------|----------|
| `stencil.py` 23-373, `Velocity`, `permute_in_place`, `cmp` | `VelocityModel` | printing; the float square root is exact |
| `stencil.py` 444-871, `Stencil` | `StencilModel` | validation of the dictionary, printing, `visualize` |
| `mpi_topology.py` 82-177, `domain.py` 385-450 | `GridModel` | choice of the process grid (`MPI.Compute_dims`) |
| `mpi_topology.py` 66-80, 137-185, 188-243, `options.py` 26-52, `storage.py` 210-303 | `TopologyModel` | `MPI.Compute_dims` (an oracle: `dim` positive numbers of product `size`), the command line; MPI's ranks of a Cartesian grid (row major, `reorder=False`); the refusal of empty subarrays by `Create_subarray` (`vmax[d] = 0`); logging |
| `storage.py`, `Array`, the layout, `_in`, ghost exchange; `symbolic.py` 84-256 | `StorageModel` | slices as indices, GPU copies |
| `container.py`, `storage.py` 60-121, 453-524 | `ContainerModel` | the sharing of F and Fnew of NumPy (in `WholeModel`), `set_conserved_moments`, the GPU copies |
| `storage.py` 305-366 and `simulation.py` 374-420 without a common clock | `AsyncModel`, `AsyncSimModel` | a message is one event for the sender (the data leave) and one for the receiver (the data are written); persistent requests, subarray types and errors of MPI; the progress of MPI is assumed: an event which is possible happens |
| `generator/generator.py` 9-33, `generator/autowrap.py` 18-90 and 142-179, `simulation.py` 112-123 | `AutowrapModel` | Python files only (NumPy, loo.py): no compilation by Cython; the entries of `sys.path` are resolved directories; one process; the rule of CPython for `.pyc` files (valid if the second and the size of the source agree) is transcribed from memory |
| `scheme.py` 225-241, 480-531, 575-607 | `SchemeModel` | parsing of the dictionary, SymPy simplification, inversion (oracle) |
| `algorithm/base.py`, `pull.py`, `ode.py` | `AlgoModel`, `GlobalModel` | sources depending on space, other time integrators; the time and the parameters are in `TimedModel` |
| sources which read neighbours: `base.py` 439-504, `cython.py` 288-289 | `NeighbourModel` | relative velocity; for Cython the position in the local array only (not what SymPy and Cython do with it) |
| `simulation.py` 106, 396-420, `algorithm/base.py` 121-149, 630-681 (the values of the arguments in each call) | `TimedModel` | symbols with one value in all the cells; the coordinates, for which the kernels fail anyway (`C66_coordinates_fail`); relative velocities which contain such symbols |
| `generator/ast.py` `For`, `printing/cython.py` 212-219, 301-342, `printing/pycode.py` 1063-1122, settings `m_local` and `split` of `base.py` | `GenModel` | the text of the expressions, `Piecewise`, `If`, the types, loo.py |
| `scheme.py` 131-241, 468-531, 575-607, `algorithm/base.py` 91-155 (from the dictionary to the algorithm) | `BuildModel` | inversion and simplification of SymPy (oracles with their specification), parameters (C59), expressions of time and space; polynomials and equilibria are expression trees |
| `algorithm/base.py` 92-155, 630-681, `codegen.py` 768-900 (symbols), `symbolic.py` 287-299 | `ArgsModel` | the arrays and the indices of the loops among the arguments, loo.py; symbols are texts (two symbols of SymPy with the same text are one) |
| `simulation.py` 374-420 with the generated kernels on all the processes | `WholeModel` | timers, `check_isfluid`, GPU copies; the initial values are any arrays (`InitGenModel` gives them) |
| `simulation.py` 254-318, `base.py` 157-168 and 336-402 (kernels on the whole domain), `storage.py` 133-136 | `InitGenModel` | functions of the user work element by element (NumPy broadcasting of the coordinate arrays); a value given as a list `[f, [args]]` instead of a tuple, which the validator accepts, is not modelled |
| `printing/cython.py` 101-151, 301-342, 379-410, `printing/pycode.py` 683-748, 1086-1152, `codegen.py` 942-993, 1030-1164, 1195-1300 | `LayoutModel` | the texts of the expressions are given (strings); `Piecewise` and matrix sides, constants of SymPy, results, the comment of the header, loo.py; the only line separator is the newline |
| `printing/cython.py` 190-223, 242-279, `printing/pycode.py` 424-505, 927-942, 1063-1085 and the inherited `_print_Add`, `_print_Mul`, `parenthesize`, `precedence` of SymPy >= 1.13 | `TextModel` | SymPy is not in /repo: its printers are transcribed from memory of its source; `could_extract_minus_sign` is any function; a text is a list of tokens (no spaces); the decimals of `evalf(16)` are the exact number; the inverse is total (no division by zero); Float, relations, Boolean functions, `sign`, matrices left out |
| `printing/loopy.py` 154-167, 280-370, `codegen.py` 1300-1470, `storage.py` 107-158, 305-327, 368-424, `container.py` 77-110 | `LoopyModel` | the scheduler of loo.py and OpenCL: any interleaving of the loads and stores of the items (sequentially consistent memory, the loads of one instruction at once), private temporary variables; prefetch of f, the types, the kernels on the whole domain and of the boundary conditions; boundary methods |
| `algorithm/base.py` 191-600 and `pull.py` as lists of symbolic statements, their printing, the calls of `simulation.py` | `StepGenModel` | expressions of time and space, sources integrated by more than one stage, `check_isfluid`, SymPy simplification |
| `symbolic.py` 278-286, `algorithm/base.py` 97-150 | `ParamModel` | SymPy rewriting of expressions (trees are kept as they are), `alltogether` |
| `boundary.py` 191-224, 238-321 | `WallModel` | the functions of the user (oracles on the arrays), GPU copies |
| `simulation.py`, `container.py` | `SimModel`, `GlobalModel` | the dictionary, `extra_parameters` validation, the GPU container |
| `domain.py` 252-302, 463-635 | `DomainModel` | views and printing |
| `domain.py` 275-280, 415-432 and `simulation.py` 374-394 on several processes | `ParallelModel` | fluid elements in C57 |
| `boundary.py` | `BoundaryModel` | evaluation of the user functions, `time_bc`, code generation |
| `boundary.py` 322-376, 430-463, 536-617, 646-677, 707-752, 787-817, `codegen.py` 1041-1042 | `BoundGenModel` | the text of the kernels; `NeumannY`, `NeumannZ` in a smaller dimension (IndexError when the lists are made); GPU copies |
| `elements/*.py` | `ElementModel` | `visualize` |
| `elements/stl_element.py` 24-182 | `StlModel` | reading of the file (numpy-stl), `visualize`, `_center`; the inverse of a matrix is exact and fails exactly for singular matrices |
| `geometry.py` | `GeometryModel` | `visualize` |
| `hdf5.py` | `Hdf5Model` | file system, names of the datasets |
| binary64 numbers, `domain.py` 423-435, `elements/circle.py` 114-117 | `RoundModel` | `np.linspace` is that of NumPy (not in /repo), for more than one point and a step which is not 0; the other elements in binary64 |
| `algorithm/transform.py` | `TransformModel` | the tokenizer |
| `monitoring.py` | `MonitorModel` | printing |
| `utils.py` 83-129 | `UtilsModel` | floats are rationals |
| `utils.py` 26-31, 42-61, `simulation.py` 200-243 | `ItemModel` | one process, `+=` only; `item2property` and `bound2itemproperty` (not used in pylbm) |
| `utils.py` 20-23, 132-176 | `ProgressModel` | the codes of the colours, the text of the percentage, `alive_progress`; the quotient is exact |
| `validator.py`, and the reads of the dictionary in `stencil.py`, `geometry.py`, `scheme.py`, `simulation.py`, `boundary.py` | `ValidatorModel` | Cerberus is not in /repo: the semantics of its rules (version 1.3) is transcribed from memory; the texts of the messages; float keys; keys of a dictionary are distinct only where it matters |
| `analysis/stability.py` | `StabilityModel`, `StabilitySchemeModel` | `visualize`, numerical eigenvalues (oracle) |
| `analysis/equivalent_equation.py` | `EquivModel`, `Equiv2Model` | printing; derivatives and Jacobian by SymPy (oracle: derivations and chain rule) |

Not modelled at all: `viewer/`, `options.py` apart from the numbers of processes, `context.py`, templates, and of
`generator/` what is not named above: the compilation by Cython, `If`, the types.

## Findings

Statements of the properties which are false of the model, with the theorem
that refutes them or gives the exact condition; then remarks made while reading.

Stencils and grids
* `is_symmetric` returns the verdict of the last scheme only
  (`C07_is_symmetric_refuted`); repeated velocities break the involution of the
  table of opposites (`C07_involution_without_nodup_refuted`).
* `vmax` is a signed maximum: a one sided stencil gets a halo too thin
  (`C08_halo_refuted`, exact criterion `C08_halo_iff`).
* With ghost width 0 the coordinates are cut to one value
  (`C10_no_velocity_refuted`) and `Array._in` is empty (`C51_no_ghost_refuted`).
* The tolerance on the length of the box compares a number of cells with `dx`
  (`C11_box_length_refuted`); empty boxes are accepted (`C11_empty_box_refuted`).
* The exchange of ghosts is wrong if a process owns fewer cells than the ghost
  width (`C12_thin_region_refuted`); the loo.py version is right for width one
  only (`C12_loopy_refuted`).
* Generated accesses are right exactly when the spatial part of the storage
  order is increasing (`C13_generated_access_iff`).

Domain and boundary conditions
* An element far to the left of the grid makes NumPy raise
  (`C15_far_left_refuted`); a fluid element which reopens cells through a wall
  loses the wall link (`C15_reopened_wall_refuted`); a fluid cell exactly on the
  border gets distance 0 and no flag (`C15_on_border_refuted`); the halo is
  counted solid at process interfaces (`C15_interface_refuted`).
* Bouzidi anti bounce back is not exact for constants unless the distance is 1/2
  (`C18_bouzidi_anti_wrong`) and reads values written in the same pass
  (`C19_bouzidi_anti_refuted`); so do NeumannX/Y/Z at corners
  (`C19_neumann_x_refuted`).
* Bouzidi bounce back beyond 1/2 with a moving wall does not keep a uniform
  equilibrium (`C20_bouzidi_refuted`, defect in `C20_defect`); Bouzidi walls do
  not keep the mass (`C54_bouzidi_refuted`).
* The ghost exchange is periodic along all the axes, and a link through an edge
  where a wall meets a periodic side takes the label of the side crossed first,
  the first axis in case of a tie.  When this is the periodic side (-1) no
  condition is applied: what leaves through the wall enters through the opposite
  wall (`C55_periodic_first_refuted` for D2Q9 like velocities with the periodic
  axis first, `C55_long_velocity_refuted` for longer ones in any order).
* (C67) An obstacle beside a periodic side is not continued behind it: the fluid cells on
  the other side have no link to it (`Domain.__add_elem` looks only at the element itself), so
  they take the values computed inside the solid, and the mass changes
  (`C67_beside_refuted`).  With one cell between the obstacle and the periodic sides the
  reflection and the conservation are proved (`C67_step`, `C67_mass`).
* With NeumannX/Y/Z in a corner the result depends on the process grid when the
  process of the corner is not wider than the velocity (`C57_neumann_refuted`).
* The ghost cells between two processes count as outside for every element. An element that
  a segment crosses between two fluid cells (a thin element, the corner of a polygon) has no
  link on one process, but it gets links when the two cells belong to different processes
  (`C57_thin_refuted`).
* (C92) Given the same initial values, wall values and geometry, the results are the same bit for bit on every process grid
  (`C92_process_grids`).  But the geometry is not the same: `Domain` calls `np.linspace` on each process with the bounds of its own
  region, so in binary64 the coordinate of a cell depends on the process grid (`C92_coordinates_refuted`: five cells of [0, 1], the
  middle cell is at 0.5000000000000001 on one process, at 0.5 on the second of three).  A cell on the edge of an element is solid with one process grid and
  fluid with another (`C92_edge_refuted`); the initial and the wall values differ in the last bits.
  If dx/2 and the corner of the box are integers times the same power of two, and the numbers have at most 53 bits, all the coordinates
  are exact and nothing depends on the process grid (`C92_coordinates`, `C92_edge`): dx = 1/128 is safe, dx = 0.01 is not.
* (C92) In binary64 the mass is not exactly constant (`C92_mass_refuted`), although M and its inverse are exact there.
  It stays within the sum of the bounds of the rounding errors (`C96_mass`).
* A solid element of the box that ends between 2 and `2 h + 2` cells to the left of the first
  ghost cell of a process: the slices of this process wrap and the construction of its domain
  raises `ValueError`, although one process works (`C57_exists_refuted`, see C15).

Schemes and time steps
* Moving the conserved moments to the front goes wrong when one of them has an
  index smaller than its rank (`C22_unordered_refuted`).
* Relative velocity: the base algorithm does not keep the conserved moments
  (`C23_base_relative_velocity_refuted`) and differs from pull
  (`C26_relative_velocity_refuted`); nonzero parameters on conserved moments
  break equilibria (`C24_relative_velocity_refuted`,
  `C50_equal_parameters_refuted`); pull loses the first half step of the sources
  of conserved moments (`C31_relative_velocity_refuted`); T(u)T(-u)=I needs a
  span closed by translation (`C50_not_closed_refuted`).
* Coupled sources read moments already updated (`C31_coupled_refuted`).
* Solid cells show the other storage after the exchange of the storages
  (`C30_other_buffer_refuted`); stale ghosts make one and two storages differ
  (`C34_stale_ghosts_refuted`).
* Writing a moment without `m2f`, writing through a view, `relaxation()` and
  NumPy `transport()` leave moments and distributions inconsistent (`C32_*_refuted`);
  `transport()` is invisible with two storages (`C33_transport_refuted`); the
  time step is frozen at its first use (`C33_time_step_refuted`).
* The matrices get a single `subs`, so a parameter whose value uses a parameter placed
  before it in the dictionary is not replaced in M (`C59_matrix_refuted`, exact
  criterion `C59_single_pass_iff`), while it is in the equilibria
  (`C59_all_replaced`).  Circular definitions are replaced a number of times which
  depends on the number of parameters (`C59_circular_refuted`), and `recursive_sub`
  fails without replacements (`C59_no_replacement_refuted`).
* Without the entry `init`, the initialisation returns before the equilibrium and the
  copy of the storages, and is marked as done (`C58_no_data_refuted`).
* The function of a boundary condition receives the arrays f and m, but distributions
  written in f have no effect (`C60_distributions_refuted`), nor have non conserved
  moments.  A function of the time receives the moments of the previous step, zeros only
  the first time, so a conserved moment which it does not set, or increments, keeps the
  old values (`C60_accumulation_refuted`).
* Generated kernels: in NumPy a local symbol equal to an element of an array is a view.  With
  a relative velocity which is a conserved moment (as in demo/1D/burgers.py) and a source
  term for this moment, the velocity changes in the middle of the step with NumPy and not
  with Cython (`C61_view_refuted`).  The NumPy steps of `AlgoModel` take the value of the
  symbol when it is assigned, which is right if the symbol is not a bare moment.
* A relaxation parameter which is an expression of the conserved moments is not rewritten with
  the array m in `relaxation_local` (base.py 404-428): right in the step of Cython, where the
  conserved moments are elements of the local array, but NumPy prints `m[k, 0]`, in dimension
  one the moment of the first cell of the halo (`C63_relaxation_refuted`), in other dimensions
  an error of shapes.
* Conserved moments listed in another order than the moments, as [q, rho] for the moments rho, q:
  the swaps of `_permute_consm_in_front` cancel, the names are exchanged, and the scheme is
  accepted with each of the two in place of the other in all the equilibria
  (`C64_unordered_refuted`).  A rank not larger than the number of the moment suffices (`ordered`).
* `_check_entry_size` (scheme.py 243-258) only writes a message: lists of wrong sizes with the right
  total are accepted, and a moment relaxes with the parameter of another one
  (`C64_sizes_refuted`).
* With the key "M" the matrix of the user's dictionary is the attribute `M`, whose rows are swapped in
  place: a second `Scheme` (or `Simulation`) of the same dictionary computes another scheme,
  which does not even conserve the mass (`C64_again_refuted`).  Without this key the dictionary
  is not changed (`C64_kept`).
* (C64) With the key `"M"` the matrices of the change of frame are identities (scheme.py 164-165) and
  a relative velocity given in the dictionary is silently without effect (`C64_given_velocity`);
  with polynomials the same scheme has another step (`C64_moving`, `C64_moving_example`).
* (C66) An expression which reads a coordinate (the source `-Abs(X-t)**2*u` of
  `notebooks/08_advection_reaction.ipynb`) is translated with the local variables `xx`, `yy`, `zz`, but the
  statements which assign them are commented out (base.py 590, 593): the Cython step reads memory without a
  value, the NumPy step raises NameError, and with a coordinate in an equilibrium the initialization raises
  KeyError (`C66_coordinates_refuted`, `C66_cython_memory`, `C66_coordinates_fail`).
* (C66) `_get_args` writes the extra parameters in the dictionary of `locals()` and returns `locals()`: from
  Python 3.13 on this is another dictionary and no extra parameter reaches a kernel (`C66_extra_refuted`;
  `requires-python` is `>=3.6`).  Before, the parameters with the name of a local variable of the function
  are not read (`C66_reserved`), and an extra parameter `lambda` equal to zero raises KeyError
  (`C66_lambda_refuted`).  `Z` gets the coordinates of the second axis (`C66_third_axis_refuted`); no kernel
  reads it.
* (remark) The keys `"time"`, `"space_x"`, ... of the parameters (scheme.py 193-198) are texts, the validator
  accepts only symbols as keys of the parameters (validator.py 302).
* (C76) With loo.py the rows of one `Eq` are instructions without order between them.  Two sources which
  read each other's moment are such rows (base.py 495): two runs may differ (`C76_coupled_refuted`); so may they
  with a relative velocity if a conserved moment is relaxed (`C76_moving_refuted`).
* (C76) `dep=inst_(n-1)*` names nothing if all the rows of the block n-1 are equal to their right hand side and not printed
  (all the relaxation parameters 0, a source 0): the next block waits for nothing, and the distributions may
  be computed before the moments (`C76_empty_block_refuted`).
* (C77) The kernels which update the ghost cells are those of width one on one process.  With velocities 0 only (width
  0) they overwrite cells of the domain; several processes do not communicate (`C77_refuted`).
* (C79) `Array.__setitem__` copies the host array, which is old after a kernel, on the device: `sol.F_halo[k] = v`
  after a step resets the other components (`C79_set_refuted`).  `sol.m[k][...] = v` writes only on the host
  (`C79_view_refuted`).
* The setting `split` gives to each statement its loop: the relative velocity is then the
  one of the last cell (`C61_split_refuted`; no caller sets it).
* The slices of NumPy forget the names of the indices: arrays with other axes, as the
  coordinates in `coords()` (whose calls are commented out), are broadcast along the
  wrong axis (`C61_coords_refuted`, `C61_order_refuted`, see C13).  A shift beyond the halo
  gives an empty slice and an error with NumPy, a read outside of the array with Cython
  (`C61_halo_refuted`).

Elements
* The orthogonality test of ellipses is absolute, so the box can be too small
  (`C37_ellipse_box_refuted`); the box of a triangle is that of the
  parallelogram (`C38_triangle_smallest_refuted`); edges parallel to the
  velocity are not seen (`C39_collinear_refuted`).
* STL elements.  A half line along an axis which only touches the body, at an edge shared
  by a triangle seen from the outside and one seen from the inside, gives an answer that
  depends on the order of the triangles in the file: a point outside of the box of the
  body may count as inside (`C62_grazing_refuted`).  A distance 0 counts as the first
  intersection: a cell on the surface has no link to the solid cell behind it
  (`C62_on_surface_refuted`).  Without an intersection `distance` gives inf, the other
  elements -1.  This is harmless for solid elements (`C62_infinity`), but a fluid element
  which goes through a wall of the box replaces the link of the wall by the label -1 at
  the distance inf (`C62_fluid_refuted`).
* The box of a cylinder uses half of the axis (`C40_refuted`,
  `C40_parallelepiped_refuted`, `C40_oblique_circle_refuted`).
* From a point on a curve the second intersection is missed
  (`C41_on_curve_refuted`).
* The normal of a cylinder is mapped by the matrix of the vectors instead of its
  inverse transpose and not normalised (`C52_cylinder_refuted`); velocities
  parallel to the ends give spurious hits (`C53_flat_refuted`); points without
  hit get the label of the bottom (`C53_label_refuted`). The labels of the
  sides of a triangular cylinder or of a parallelepiped are those of the edges of
  `base.py` 461-464 and 585-588 (`C53_face`), but `Geometry.visualize`
  (geometry.py 310-314) colours the faces in another order, that of
  `_visualize` (base.py 467-473, 591-597): the colour of the label 1 is drawn on
  the face of the label 2 (`C53_colours_refuted`). Both ends are drawn with the
  colour of the top (cylinder.py 265, 269).

Other
* Uneven splits make `set_grid` raise with NumPy >= 1.24 (`C35_uneven_refuted`);
  the XDMF dimensions of vectors are wrong in dimensions 1 and 2
  (`C36_vector_refuted`), the topology in dimension 1 (`C36_topology_refuted`),
  the number of elements is in the reverse order (`C36_elements_refuted`).
* The tolerance of the von Neumann tests is absolute: monic polynomials with
  arbitrarily large roots are accepted (`C43_accept_refuted`).
* With a relative velocity the linearised relaxation multiplies the Jacobian by
  the shifted conserved moments (`C44_relative_refuted`).
* Recursion and exceptions break the totals of the monitoring
  (`C46_recursion_refuted`, `C46_exception_refuted`).
* A conserved name inside an index of another one is not rewritten, extra
  indices are dropped (`C47_nested_refuted`, `C47_arity_refuted`).
* A `z` interval without `y` is dropped, label lists of a wrong size are
  accepted (`C48_z_without_y_refuted`, `C48_wrong_size_refuted`).

* `indent_code` takes every line which ends with "end" for the end of a block: a right side
  which ends with a symbol as `tend` moves its statement out of the loop, where it is
  run once, without any error (`C69_end`, `C69_end_refuted`).
* The printers drop the statements `x = x`: a loop, or a NumPy kernel, with no other statement
  is not a source, as the equilibrium of a scheme whose moments are all conserved
  (`C69_no_statement`, `C69_empty_refuted`).
* (C80) `rec_dict` takes `value[0]` of a list (validator.py 158): IndexError for a dictionary which the rules accept, as
  `'elements': []` (`C80_empty_list_refuted`).  A boundary condition described by a non-empty list raises an exception of
  Cerberus instead of the message (`C80_list_refuted`); anything which is neither None, a list nor a dictionary is
  accepted there.  The key `"comm"` (domain.py 382) and the keys `"time"`, `"space_x"`, ... of the parameters
  (scheme.py 193-198) are never accepted: the code which reads them is dead (`C80_unreachable`).
* (C81) Dictionaries which are accepted and which the constructors cannot read (`C81_refuted`): a box without `x`
  (UnboundLocalError), two schemes with `M` (KeyError of `polynomials`), labels in a tuple (AttributeError),
  `codegen_option` without `directory` (KeyError), an initial value `[f, [args]]` (TypeError), a boundary
  condition without `method` (KeyError).
* (C82) Two simulations which generate their code in the same directory in the same second, with sources of the same
  size (say a relaxation parameter 1.5, then 1.7): the second one runs the code of the first one, from the compiled file
  (`C82_second_refuted`).  The directory is appended to `sys.path`: a `wrapped_module_0` in an earlier directory is
  imported instead of the new one (`C82_shadow_refuted`); a directory which is already in `sys.path` goes to the end of
  the list, since `remove` takes the first one (`C82_order_refuted`).
* (C83) A process with fewer cells than the ghost width sends cells which it receives at the same time: the result depends
  on the pace of the processes (`C83_thin_refuted`); nothing in the code checks this.
* (C84) The options `-npx`, `-npy`, `-npz` are cut off at the dimension: with `-npz 4` in two dimensions on four processes
  the grid has one process and the others stop (`C84_ignored_refuted`).
* (C85) The Cython files switch the checks of the indices off.  Accesses outside of the arrays happen with a stencil whose
  components along an axis have one sign (`C85_onesided_refuted`, from the signed `vmax` of C08), with a storage order which
  exchanges two axes of the space on a domain which is not square (`C85_order_refuted`, from C13) and with a label 999
  (`C85_label_refuted`).
* (C86) With a relative velocity a conserved moment is conserved in the moving frame only.  The velocity alone conserved
  and a frame moving with a constant: the conserved moment of the fixed frame changes from 2 to -10 in one collision
  (`C86_span_refuted`).  Nothing in the code checks that the span of the conserved polynomials is invariant by translation.
* (C87, C88) Nothing in the code compares a relaxation parameter with 2, or with 1: with the parameter 2 a density between
  0 and 1 becomes -1/8 after two steps (`C87_parameter_refuted`; the energy still does not grow), and with 5/2 the energy grows
  (`C88_parameter_refuted`).  Anti bounce back at zero gives negative distributions also with the parameter 1/2
  (`C87_anti_refuted`).  These are properties of the method, not errors of the code.
* (C95) The array of the moments has no ghost exchange, and its halo keeps the values of the last `f2m` on the whole array.  A source which
  reads a neighbour (`rho[ix - 1]`, transform.py 35-51) is therefore wrong beside the halo with NumPy: the result depends on the process grid
  (`C95_processes_refuted`), and a read of `simulation.m` between two steps changes the following step (`C95_reading_refuted`).
  With Cython the same text is an entry of the local array of the moments: the moment `k + ix - 1` of the own cell, outside of
  the array for most cells (`C95_local_array`; in more dimensions SymPy refuses the index).
* (C93) The order of the velocities in the dictionary does not matter, except with conditions which read what they write: with
  the Bouzidi anti bounce back in a channel of one cell (Cython) the result depends on it (`C93_order_refuted`, from C19).
* (C94) With sources the choice of the moments which are not conserved matters: X^2 and X^2 - 1/2 with the same parameter and
  matching equilibria give different schemes when the mass has a source (`C94_source_refuted`), because the half steps of the
  source are not seen by the part of the mass inside the other moment.  Without sources they give the same one.
* (C89) Reflections are symmetries of the whole code, the exchange of two axes is not: where a diagonal velocity meets two sides
  at the same distance, the link has the label of the first axis (`C89_exchange_refuted`), so a box with different conditions on
  its sides, turned by a quarter, has other conditions in its corners.
* (C90) Both half steps of a source use the time of the start of the step (simulation.py 419 is after the kernel): a source
  s(t) is integrated by the rectangle rule, of first order, although the half steps before and after the relaxation are those of
  a splitting of second order.  For du/dt = t the mass misses dt T / 2 per cell at every time T (`C90_half_times_refuted`).
* (C91) With a relative velocity the sources of conserved moments are wrong in two ways (pull.py 31-50): the first half step is
  overwritten by `restore_conserved_moments`, and the second one reads the moments of the moving frame in the place of the
  moments.  A mass source or gravity has half of its effect (`C91_source_refuted`, `C91_gravity`); a friction proportional to the
  momentum has no effect at all when the frame moves with the fluid (`C91_friction_refuted`).
* (C97) A storage order with indices from the end, like `[-1, 0, 1]`, is accepted by the arrays and means velocity last, but
  `np.argsort` puts the velocity first in the generated accesses, which leave the buffer (`C97_negative_refuted`).  An order of the
  wrong length gives a message and then an exception of NumPy or an `IndexError` (`C97_accepted`).
* A power whose exponent is not a number has no text with Cython: `exp > 0` has no truth value
  (cython.py 199, TypeError); NumPy prints it (`C70_cython`, `C70_symbolic_exponent_refuted`,
  `C70_numpy_total`).
* A `Piecewise` inside of an expression is printed with the syntax of C by the Cython printer; no
  text with it is an expression (`C70_piecewise`).
* `sol.m[i] += w` and `sol.F[i] += w` raise AttributeError (the attributes have no setter) after the array was changed in
  place (`C102_add_inner`, `C102_raise_refuted`); if the exception is caught, the moments read after `sol.F[i] += w` are old
  (`C102_stale_refuted`).
* The order of the schemes matters when there are sources. The half steps of the sources are made one conserved moment after the
  other, in the order of the schemes, and each reads the values the ones before have left. With the source 1 for the first moment and
  the first moment as the source of the second one, a step from zero gives the second moment 3; with the schemes exchanged it gives 1
  (`C104_source_refuted`, time step 2). Without sources the order does not matter, and with
  sources schemes can be left out when the order is kept (`C104_selected`, `C104_source_example`).
* `Geometry.add_elem` accepts an element of another dimension than the box; the constructor raises ValueError for it
  (`C48_add_dim_refuted`).
* The progress bar of `utils.py` is full before the end for totals above 200 (`C100_full_refuted`), grows beyond its length
  after the end and raises ZeroDivisionError for the total 0 (`C100_outside`, `C100_calls_zero`).
* Schemes without rest velocity (all velocities odd along some axes) keep an alternating sum in periodic domains of even size:
  a perturbation of one cell is never damped (`C99_never_uniform`).  A property of the schemes, not of the code.

Read in the code, not formalised: `boundary_condition` calls `set_rhs` in each step, which indexes NumPy arrays with
`istore`, by then an array of pyopencl (boundary.py 296-397); `_print_Exp1` of the loo.py printer gives `M_E`; a local array with one element is declared
`cdef double m[]` (codegen.py 1122); the printers of NumPy and Cython have no
method for `If`, which the setting `check_isfluid` uses; the label 999 (= `valin`) selects all the
unflagged cells; an integer key
>= the number of conserved moments is overwritten by its equilibrium (`C68_start`);
`_get_args` uses `coords[1]` for Z; `os.mkdir` makes one level of the directory of the module only; all the MPI processes
write the module in the same directory; `update` sends with `COMM_WORLD` the ranks of `cartcomm` (storage.py 70); the validator accepts a `space_step` equal to 0; a rejected dictionary ends in `sys.exit()`, whose status is 0; `source_term` ignores
`fraction_of_time_step`; a second source for a moment replaces the first; vector
components are not converted to double before `Send`; the docstring of
`algo_cohn_schur` announces three results, two are returned; in dimension 3
`v_xi` is undefined in the stability analysis; `Cylinder.distance` with
`dmax=None` raises `TypeError`; `distance_ellipsoid` has no guard for `a = 0`;
`Ellipse.visualize` uses `nv2` twice;
`EquivalentEquation` inverts the diagonal relaxation matrix even with a relative
velocity, where the matrix of the scheme is T(-u) S T(u).

## Wrong programs

`seeded/LOG.jsonl` has one line per edit of the model (in a scratch copy): the
definition, the edit, the claim it breaks, the lemmas whose proof failed
(`failed`), the theorems of the manifest which rest on them (`theorems`), and
what was tightened.  To find the latter, the failed proofs are replaced by
`Admitted` in the scratch copy, and `Print Assumptions` is asked of each theorem
of the manifest.
