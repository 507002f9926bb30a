# Formal model of pmesh: design

Source: /repo (rainwoodman/pmesh, pinned commit), read as text only.
Prover: Coq 8.16.1. Sources in `rocq/theories`, logical root `Verif`.

## Trusted base

* Coq's kernel (and `vm_compute` where used for closed witnesses).
* What `Print Assumptions` lists after each property theorem. The theorems over
  integers, rationals and lists are expected to be "Closed under the global
  context". Theorems that need real numbers use only the axioms of Coq's
  standard library `Reals`: `ClassicalDedekindReals.sig_not_dec`,
  `ClassicalDedekindReals.sig_forall_dec` and
  `FunctionalExtensionality.functional_extensionality_dep`. They are
  `C44_real_round_trip` and `C44_real_round_trip_complex` (`FourierReal.v`), `C87_real`
  (`NbodyReal.v`), `C93_real` and `C93_odd_refuted` (`NbodyPoissonReal.v`), the theorems of C94
  (`GradProperties.v`, `GradField.v`) and C97 (`PowerProperties.v`), and, with
  `Classical_Prop.classic` as well, the theorems about `round64`, whose proof goes
  through Flocq: `C70_binary64` and `C71_rounded_up_refuted` (`FloatProperties.v`), `C101_binary64` (`FloatOpen.v`), `C72_nearest`
  (`FloatPaint.v`), C92 (`FloatCicProperties.v`), C98 (`FloatSplineAxis.v`, `FloatSplineSlope.v`, `FloatSplineFirst.v`, `FloatSplineProperties.v`), C95 (`NbodyOrder.v`), C102 (`NbodyConverge.v`), `C112_lanczos_real`, `C112_lanczos_formula` and `C112_lanczos_real_paint` (`LanczosReal.v`), and the theorems of C73, C74 (`FwindowProperties.v`) and C80
  (`TransferProperties.v`), some of which use Coquelicot's integral.
  All other property theorems are closed.
* The correspondence between the Gallina definitions and the Python/Cython/C
  code. Each model definition cites file and lines.
* External components are modelled by their documented meaning, never by
  axioms: MPI collectives (functions on the list of all ranks' arguments),
  numpy primitives (`take`, `digitize`, `bincount`, `argsort`, `reduceat`,
  `ravel_multi_index`), mpsort (a stable global sort), pfft (the exact discrete
  Fourier transform).

## Modelling choices

* A collective call is a function from the list of per-rank arguments to the
  list of per-rank outcomes. An outcome is a value, an exception or "blocked"
  (a rank waiting in a collective that another rank never enters).
* Floating point numbers are exact rationals (`Q`) or reals, except in the files
  `Float*.v`, where every operation of GridND and of the nearest window is rounded (C70 to C72). NaN and
  overflow are not modelled. Claims that only hold up to rounding in the real
  program are claims about exact arithmetic here.
* C/numpy integers are `Z` or `nat`; wrap-around of int16/int32 is modelled where a
  property is about it (C103 for GridND, C52 and C62).
* Memory that numpy leaves uninitialised is modelled by `None`.
* dtype promotion is not modelled; aliasing of fields is modelled in `BufferModel.v` only. The window part keeps
  memory as a function from addresses to numbers and arrays as shape and strides.

## Plan per property

(kept current; see MANIFEST.json for the theorem names)

| property | model | method |
|---|---|---|
| C01-C09 Layout | `LayoutModel.v`: collective constructor, Alltoallv with explicit displacements, take, bincount, argsort, reduceat | refinement to a concatenation of addressed elements; per-mode specifications |
| C10-C15 GridND.decompose, isprimary | `DomainModel.v`: digitize, patches, `gridnd_fill` with its two passes and odometer | invariants of the passes, characterisation of cyclic patches |
| C16-C19 assignment, load balance, load, uniform | `DomainModel.v` | induction over the greedy loop; arithmetic; witnesses |
| C20-C30 windows | `WindowModel.v`: window info, `_fill_k`, kernels, generic odometer loop, tuned macros; `WindowTables.v`: the sixteen windows given by tables, entries arbitrary | algebra over Q, case analysis on pieces, permutation arguments; `WindowTableGrad.v`: linear between entries, hence on an axis, hence exact for the product |
| C31-C34, C58 distributed paint/readout and resampling | `MeshModel.v`, `MeshGrad.v`, `MeshResample.v` compose Layout, Domain and Window | composition of coverage, support and exactly-once delivery |
| C35 Affine | `WindowModel.v` | algebra |
| C36-C43 complex fields | `FieldModel.v`: csetitem, ravel, reindex, coordinates, Hermitian weights | invariants over op lists, involution pairing of modes |
| C44, C59 FFT | `FourierModel.v`: exact DFT over a commutative ring with roots of unity; `FourierReal.v` supplies those of the complex numbers | orthogonality of characters, pairing of opposite modes |
| C52, C60 generator | `RanluxModel.v`: ranlxd1 of `pmesh/gsl/ranlxd.c` statement by statement, on integers in units of 2^-48, and SAMPLE | simulation of the circular buffer by a sliding window; the all-zero window is unreachable |
| C45, C47 mesh set-up | `MeshResample.v` / `MeshModel.v` | bijection of mixed radix |
| C46 plan cache | `CacheModel.v`: per-rank weak dictionaries with arbitrary collection steps | invariant over histories |
| C48-C51, C61 white noise | `NoiseModel.v`: SETSEED/GETSEED tables, the loops of `_generic_fill` as a list of writes, over an arbitrary generator; `NoiseLow.v`: one and two dimensions | closed form of a mode (`nval`), signed calls of SETSEED and their prefix property |
| C53, C54, C62 invariant index | `InvariantModel.v` (bit count, hosting cap, walk over the caps, get_index); `InvariantBits.v`, `InvariantFacts.v` (caps as bit lists, their sizes, the total of a shell), `InvariantOrder.v` (the index as a sum), `InvariantProofs.v`, `InvariantIndex.v` | strong induction on the number of axes; every axis contributes a factor to the sizes; a mode is rebuilt from its cap and the problem inside of the cap |
| C55, C56 tools, co-arrays | `SchedModel.v`: processes that start and finish the operations of straight-line programs in any interleaving; `ToolsModel.v`: the barriers of Rotator; `CoarrayModel.v`: the messages of `sync` | invariants over all runs; a blocked process waits for one in an earlier phase; the k-th message of a channel meets the k-th receive |
| C63-C65 slabs, apply, csum, preview | `NdModel.v`: numpy views as offset, shape and strides; slab iterators, `apply` as a sequence of writes to memory; csum by axes; preview | `NdProofs.v`: transposed views have the same addresses, rows partition the cells; `NdSums.v`: sums over permuted cells |
| C66 ctranspose | `MeshTranspose.v`: check of the axes, uniform grid, readout, permuted coordinates, decompose, paint, all with the nearest window | every grid point lies on its cell exactly, the nearest window has weight one there, C31 adds up one contribution per cell |
| C67 cdot_vjp | `FieldDot.v`: `cdot_vjp` on the stored modes | C42 and C43 joined; `nudge` changes a mode and its mirror |
| C68, C69 shared memory | `BufferModel.v`: buffers as memory, fields as views of them, the four plans with in-place flags, create, r2c, c2r, copy, cast, resample | `BufferProofs.v`: what each view reads after a write; simulation of a program by its meaning; C39 and C44 for the values |
| C70, C71 rounding in GridND | `FloatModel.v`: decompose, isprimary, load with a rounding after each operation; `round64` is the IEEE double rounding | `FloatRound.v`: `round64` equals Flocq's rounding, is monotone, exact on short integers and has the usual error; `FloatDomain.v`: one axis; induction over axes; the list part of the Domain proofs reused |
| C72 nearest window in doubles | `FloatNearest.v`: `fnnb`, the tuned nearest window on one axis of a block, rounded | positions from 1 on are multiples of their last place, so subtracting the start of a block that begins before them is exact; the other blocks can only find their first cell, and do so exactly when the whole mesh does; below 1 there is one double to look at |
| C73, C74 window in Fourier space | `FwindowModel.v`: the kernels, `sinc_unnormed`, the four `fwindow` functions, `get_fwindow` with the support, `compensation` | the cosine integrals of the polynomial pieces in closed form (Coquelicot), added up and compared with powers of sin; change of variables for the support; bounds of the sine series near zero; Jordan's inequality by the mean value theorem |
| C75 moved particles | `MeshMoved.v`: `decompose` with a smoothing per rank (`decompose_each`), then the `pm_readout` and `pm_paint` of `MeshModel.v` at other positions | the distributed theorems are stated over any layout that covers the cells with weight (`MeshDistributed.v`: `readout_covered`, `paint_covered`); the triangle inequality puts the moved window inside the smoothing around the old place |
| C76 line integral convolution | `LicModel.v`: `lic` on all ranks, step by step: normalisation, the grid, the local maximum, `decompose`, the readouts at the start and at the middle of the step, the final paint | loop invariant over the walk (`LicProperties.v`: `walk_ok`): after i steps every particle is at the i-th station of the line of a single process; weights of the standard windows are positive and add to one, so a step is at most as long as the largest component (`LicProofs.v`); each step by C75 |
| C77 deprecated cic | `LegacyModel.v`: `paint`/`readout` of cic.py with numpy's remainder, ravel_multi_index, unique, bincount and flat indexing; of _cic.py with the bit trick for neighbours, the period loops, `mesh.ravel()` | the digits of n enumerate the product of the points of the axes (`LegacyProofs.v`: `vis_cart`), unique plus bincount add up to the plain sum, chunks concatenate; all three deposits are equal at every address |
| C78 deprecated tsc | `LegacyModel.v`: `ts_paint` of tsc.py with the base three digits, `numpy.rint`, strides and the refusal of a non contiguous mesh | the three weights around rint(x) have the same sums per cell as the window's points after the translation by -1 (`LegacyTsc.v`: `tsc_window_points`), ties by cases; `deposit_wsum` |
| C79 deprecated ParticleMesh | `LegacyMesh.v`: the constructor with the default DomainAssign, `transform`, `transform0`, `decompose`, `paint`, `readout`, the frequencies of `w`; the brushes of `LegacyModel.v` | the domains are those of the modern mesh (`old_made`), the local cic image in mesh units has the weights of the modern rank's affine (`rank_weight_units`), then `paint_matches`/`readout_matches` of `MeshDistributed.v` |
| C80 transfer functions | `TransferModel.v`: transfer.py over the reals, complex numbers as pairs; the frequencies of `pm.w`; `transfer` with the arity of each function | `TransferProperties.v`: the rank that has the zero mode finds it at the first index (`dc_index_spec`), the allreduce is a sum over the tiling of the modes; loops over axes and rows as folds; the derivative kernel by the mean value theorem from T' = 1 - (2/3)(1 - cos w)^2; the window from `kernel_transform` (C73) |
| C81 derivatives | the `pm_paint_jvp` and `pm_readout_jvp` of `MeshGrad.v` (C33); positions, masses and fields changed by eps times the tangent | `MeshTangent.v`: the weight of a particle against its linear approximation, along all axes at once, by induction over the product of the axes (`spread_near`), from the tangents of one axis (C29); `TangentProperties.v`: what the sequence of paints leaves in a cell and what the sequence of reads adds up to, over the routing of the layout, with one layout for both calls; `TangentDecompose.v`: each call with the layout of its own positions, by comparing both with the layout that sends every particle to every rank (a rank that a particle is not sent to has no cell under its window) |
| C82 engine statements | `EngineModel.v`: every statement of `ParticleMeshEngine` that works element by element or mode by mode, with its vjp and jvp, `nyquist_mask`, `addmul`, `dot` | `EngineProperties.v`: per statement the tangent product is the derivative (exact in t, with the quadratic remainder written out) and the cotangent product its transpose, by induction over the elements; transfer through `cdot` and the conjugate; the reality condition by opposite modes; lowpass by the transforms of C59: the kept set is symmetric under opposite modes, so r2c, mask, c2r is self-adjoint and idempotent |
| C83 engine paint | `EnginePaint.v`: decompose, paint and readout of `ParticleMeshEngine` with their products, on the world model of C31 | the scalar mass is an array of ones; the mean from C31_mass_conserved; the derivative from C81_paint_decomposed; the adjoint from C33_paint_dual; readout from C33 and C81; the missing factor by two slopes within eps^2 of the same change |
| C84 any kernel | `LanczosModel.v`: `paint` of lanczos.py for a window given by kernel, support and integral; linear and cubic. lanczos and kaiser: C112 | as C77 with digits in base 2*support (`vis_cart`); the deposit of an element is the product of the weights of its indices; the sums of the kernels by their polynomials on each cell |
| C85 arithmetic | `UfuncModel.v`: `Field.__array_ufunc__` on all ranks over the memory of C68: unwrapping of fields, numpy's broadcasting and kinds (bool, real, complex), output, decision of each rank whether the result is a field, `pm.create(value=)`. A numpy function is any function of the elements with any rule for its kind | equal shapes and numbers broadcast to the shape; writing all ranks in turn is `put_real`/`put_complex` of the list of local arrays (`put_all_lists`), which holds the values at all cells (C68); programs by simulation, with the statements of C68 |
| C86 state machine | `LegacyState.v`: the methods of the deprecated ParticleMesh on one buffer of the memory of C68 with the plans for one buffer, and the stack. Painting adds a given number to every cell and readout returns the canvas (C77-C79 say which); transfer functions are any functions on the parts of all ranks (C80) | simulation by a machine whose buffer holds cells, modes or neither; the standard sequence by induction over the chains; C44 for the round trip and the zero mode |
| C87 momentum | `NbodyModel.v`: force, the transfer functions and the three integrators of examples/nbody.py. Paint is the one of C33 with its rational masses, injected into the ring of the transforms; readout reads ring elements through the routing of C33. Positions are stored as rational numbers by any rounding function; the kick and drift factors of cosmology are any functions. The initial conditions are in C91; energy is left out | readout is adjoint to paint, by the duality of C36 and linearity; the transform of a real field against itself with an imaginary transfer function is zero by Parseval (C44); induction over the program of steps. `NbodyReal.v` for the real numbers |
| C88 constructor | `CreateModel.v`: the arguments of ParticleMesh, reshape, resize and respawn on top of the constructor of C31. The partition rule of pfft (blocks of ceil(n/p) cells, processes in C order, ValueError for a process mesh of the wrong size) is trusted; the partition for a process mesh with as many axes as the mesh, and split_size_2d, are arguments. dtype is checked only; the plans are C46 | arithmetic of the blocks; a domain whose start occurs twice is never written, by the fold over the ranks |
| C89 Klein-Gordon | `KleinModel.v`: the solver of examples/klein-gordon.py statement by statement on the memory of C68 and the arithmetic of C85; apply as an elementwise function of position and value (C63), wave vectors of C41. Exact numbers, x / y is x * inv y. The monitor only looks | invariant of the loop: what the two buffers that are overwritten contain; Hermitian symmetry of all terms for the form with fields |
| C90 reversible | `NbodySteps.v`: the seven classes of factors, the times inside a step, the initial conditions; programs of kicks, drifts and forces of C87 (`NbodyModel.v`). Exact numbers; growth functions, quad, square root, log and exp are parameters | one step undoes the mirrored step; induction over the steps |
| C91 linear growth | the same | the state after each instruction lies on the trajectory of linear theory; for uniform forces kicks and drifts add up and telescope |
| C92 linear window in doubles | `FloatCic.v`: the tuned linear window, cells and weights on a block, products over the axes, bounds check, all rounded (no fused multiply-add; the addition to the canvas is left out) | as C72: subtracting the start of a block is exact from 1 on, and exact for the block that begins after the particle; the other blocks only get weight zero. The range of domains of decompose is at most one cell too long, which is harmless unless it comes back to where it began |
| C93 Poisson | `NbodyModel.v`: force_transfer, pot_transfer and dx1_transfer as before; `NbodyPoisson.v` over any ring with roots of unity whose powers give the sine, `NbodyPoissonReal.v` over the reals | shifting a plane wave by j cells multiplies it by a power of the root; the c2r sum term by term; Poisson from C44 (r2c after c2r) since k^2 is even on even meshes |
| C94 check_grad | `GradModel.v`: errorstat with digitize, infinities and nan, the two comparisons, cperturb and cget of an array from the gathered numbers of rows, the field variants through cgetitem and csetitem; function, jvp and gradient are arguments, numbers are real | the collective perturbation is one update of the concatenated rows, hence the only array displaced in one number; the verdict is then a conjunction over all entries; for fields the same from C37 |
| C95 order of symp1, symp2, symp3 | the programs of `NbodySteps.v` over the real numbers, interpreted on one displacement and velocity with the force lam times the displacement and factors that are differences of log a (`NbodyOrder.v`); the nonlinear force and the factors of a cosmology (C90) are not in this theorem | one interval is a product of kicks and drifts; it differs from the Taylor polynomial of the motion by C h^(p+1), the motion from its Taylor polynomial by the mean value theorem, and a step stretches errors by at most exp(4(1+|lam|)h); sum over the intervals |
| C96 coordinate arrays | `CoordsModel.v`: a heap of arrays, the cache of every mesh by type, create_coords with its two allocations and copies, the constructor of a field, writes by users; resolution of type names. Contents are those of C41. One rank (nothing is collective) | invariant over all histories: cached arrays have their first contents and are never handed out; arrays handed out are pairwise different |
| C97 power spectrum | `PowerModel.v`: transfer.py:132-183 on all ranks over the reals: bins and digitize, the mask and its two readings by numpy, the three reductions per row (a reduction without all ranks does not end), the quotients. wout and psout of one size; single precision scratch array not modelled | sums over rows, ranks and cells rearranged to a sum over the tiling of the modes (C80); digitize counts edges, a downward closed set; bins decided by integers (`edge_norm`) for the refutations |
| C98 quadratic and cubic windows in doubles | `FloatSpline.v`: the tuned windows, centre, offsets and polynomials in the order of the C source, all rounded (no fused multiply-add; the addition to the canvas is left out) | as C92 for the cells and bits: from x = 1 on the distance to a cell is the same double on every block; `FloatSplineError.v`: error of each polynomial on its interval, 34 units of 2^-53; `FloatSplineAxis.v`: partition of unity, periodic images; `FloatSplineSlope.v`: the differentiated weights against the slope, which is shown to be the derivative piece by piece; `FloatSplineFirst.v`: the first cell, by the Lipschitz constant of the spline; `FloatSplineProperties.v`: the range of domains of decompose on blocks that leave three cells |
| C99 gradient of a misfit | `EngineChain.v`: the statements c2r, r2c, decompress with their products, and the two programmes as compositions (the library abopt is not modelled: the vjp of a programme is taken to be the composition of the vjps in reverse order) | the misfit along a line is a parabola; its slope is an inner product over all modes (C44), which is folded to one mode of each pair by a permutation; the factor two of decompress_vjp is what the folding needs |
| C100 operands of inner products | `FieldCdot.v`: `_check_compatible`, the two kinds of `cdot`, `cnorm` of real fields, on the memory of `BufferModel.v` and the operands of `UfuncModel.v`; allreduce waits for ranks that raised | numpy's two rules for shapes are put without reference to the functions that compute them (`fits`, `goes_into`) and proved equivalent; the sums are those over the tiles of the mesh; the complex product is reduced to C42 |
| C101 rounding in GridND, not periodic | `FloatModel.v` (`fpatch_open`) | `FloatOpen.v`: the patch of one axis is an interval of domains given by the two rounded ends; the box of the axes; the list part of the Domain proofs reused; the error of `round64` |
| C102 convergence of the n-body example | `NbodySteps.v` (factors, times), `NbodyModel.v` (integrators); real numbers, `quad` is the integral; positions, velocities and forces as vectors of components, stored without rounding | `NbodyConverge.v`: every factor is c(ar) (P(af) - P(ai)) with c P' the rate, uniform continuity on compact intervals; an instruction after the other against the Euler step (`stage`); the factors of a step add up to the rates; discrete Gronwall |
| C103 stored integers of decompose | `MachineModel.v`: domain.py:437-450, 561-652, 109-118 and all of _domain.pyx again, every stored integer reduced to 16 or 32 bits (two's complement); writes out of bounds are `Garbage` | `MachineDomain.v`: bounds of the ranges, sizes, strides and domain numbers; counts and offsets are the true ones modulo 2^32, the offsets of the second pass never exceed the number of copies; the limits by families of one dimensional grids |
| C104 resized windows and smoothing lengths | `WindowModel.v` | `WindowResized.v`: a kernel stretched by a whole factor splits into as many partitions of unity; at places one Nth of a cell apart the lattices of all places together are one lattice stretched by a whole factor; the sums of the nearest and linear kernels in closed form |
| C105 n-body example on any number of ranks | `NbodyModel.v`, `MeshModel.v`, `FourierModel.v` | `NbodyRanks.v`: the painted density (C31) and, through the adjoint (C87), the readout of every particle are sums over the cells of the whole mesh; the transforms are sums over all modes; hence a closed form in which no partition occurs. Each instruction of an integrator maps one function over the particles, by induction the program does |
| C106 C integers of the painter | `MachineWindow.v`: the functions of `WindowModel.v` that use ints once more, with one function for the conversion of a double and one for the storing of an integer, both arbitrary outside the range of an int | equality with the unbounded model function by function; the wrapping loops move towards the range of the mesh and never leave that of an int. The counterexamples take the integers of gcc on x86-64 |
| C107 co-arrays as objects | `CoarrayObjects.v`: co-arrays with a buffer, a view and a shared list of operations; proxies as chains of parents; programs of pulls, pushes and assignments; sync as an instance of `CoarrayModel.v` in which the owner of an image starts from its own `self` | the list of operations is that of the statements (induction over programs), then `C56_no_deadlock` and `C56_values`; the co-transposition by induction over the rows |
| C108 halo exchange | `CoarrayHalo.v`: sync as a relation between the states of all ranks, with the operations that remain; the statements of `test_coarray`; the receives of pushes whose arrays are read when they are received | C56 in any state, then one lemma for each sync that gives all rows and pending operations; invariant over the receives for the second part |
| C109 names of windows | `WindowNames.v`: the dict of names with its loop over lower case, the dict of kinds, FindResampler on strings, windows and other objects, the argument smoothing of decompose. lower and upper change the letters A to Z; the windows that are tables are an arbitrary function of the kind | the dict is computed, every string is looked up in it; pairs of windows by C24 |
| C110 root results and timers | `ToolsCalls.v`: FromRoot as the sequence of the broadcasts of rank 0, with nested calls and exceptions; Timer and Timers as a dictionary under a log of enters and exits. Broadcasts of a communicator are matched in order, rank 0 does not wait in a broadcast, decorated calls are the only communication, all ranks make the same calls at top level; times are integers, without rounding | induction on the program, and on the log of one key |
| C111 operators with old numpy | `LegacyOps.v`: the class NDArrayLike of pm.py:14-70 on the buffers of one rank, real or complex; numpy's functions are arguments; operators in place refuse a complex result for a real buffer, assignments keep the real part; only numbers are broadcast, precisions and integer arrays are not modelled | the copy is a new buffer, every operator writes there only |
| C112 lanczos and kaiser windows | `LanczosKernels.v`: the two families of windows of lanczos.py on rationals; sinc, i0 and the root are arguments with a few laws, of which functions that have them are given; the numerical integral is an argument; kaiser for whole a only; `LanczosReal.v`: lanczos on real numbers with sinc itself (1 at 0, where numpy divides at 1e-20) | cases of the comparisons; the points visited are those of C84 |
| C113 invariant index of arrays | `InvariantArray.v`: invariant.py and the loop of _invariant.pyx; arrays are a shape and elements in C order; overflow of the integers is not modelled | the flat index of a point is that of its row times d |

## Findings

Behaviour of the code that contradicts what a user would expect, each with a
proved witness (theorems ending in `_refuted`).

* `Layout.gather(mode=ufunc)` is wrong, or raises, for a particle without a copy (C07).
* The column-length and trailing-shape checks of exchange/gather are not
  collective: one rank raises, the others wait (C08).
* Ghost coverage on a periodic grid fails when smoothing plus the width of the
  own domain exceeds the period, although smoothing is below the period (C12).
* `_domain.pyx:83` looks up the degeneracy flag at the position of the *rank*
  instead of the domain: with another assignment than domain i on rank i
  particles can be lost or sent to zero-width domains (C15).
* `GridND.uniform` can produce a grid without domains: `BoxSize=[1/4,1/4]` or
  `[1,27,27]` on one rank (C19).

* The tuned pcs gradient lacks the factor `scale`: with `BoxSize != Nmesh` it is
  not the derivative (C24, C29), and so is not `readout_jvp` (C81). The tuned cic gradient on a mesh point is
  one-sided, the generic one zero (C24).
* Smoothing lengths for which the support rounds up to the native one are ignored
  by the tuned routines (C24).
* The db/sym wavelet tables reach three samples beyond half of their nominal
  support, so some weight is dropped (C28).
* `Affine.rescale` leaves the period and the translation alone (C35).
* Distributed paint and readout lose contributions when the window support and a
  rank's block together exceed the axis, e.g. tsc on 3 cells split 2+1 (C31, C32);
  this is the decompose bug of C12. `decompose` also ignores `hsml` and the
  translation of a user transform: the theorems ask for the extent of the
  window to be within twice the smoothing length.
* When the partition has two empty blocks on an axis (6 cells on 5 ranks in
  blocks of 2) `DomainAssign` has entries that are never written (C47).
* `RealField.readout_jvp` ignores its `gradient` argument, so that it is not dual
  to `readout_vjp(gradient=k)`; position derivatives of a gradient paint raise (C33).
* `upsample` decomposes with the support of the window and then discards that
  layout for one with a smoothing of 1.6 cells: with pcs on two ranks the
  constant 1 does not stay constant (C34).
* `csetitem` does not reject an index beyond Nmesh: it overwrites the partner of
  the mode only, breaking the reality condition; so does the component index -1,
  which numpy accepts as the imaginary part (C36). For a mode of the unstored
  half it reports 0 instead of the value (C37).
* `resample` to a smaller mesh with Nsrc < 2 Ndst zeroes index Nsrc/2 of the
  output, which is the frequency Nsrc/2 - Ndst, below the Nyquist frequency of both
  meshes; its partner survives, so that a real field becomes complex (C39).
* `reindex` fails for odd output sizes (ValueError, or wrong for 5 cells), and
  drops a frequency of an odd input (C40).
* Coordinates and wave numbers of odd axes: index (N-1)/2 is -(N+1)/2 (C41).
* `cnorm`/`cdot` miss half of the modes of the last plane if the last axis is odd;
  the imaginary part of `cdot` is not that of the inner product (C42).
* `decompress_vjp` counts pairs that are both stored twice if it is read as the
  adjoint of decompressing the array (C43).
* White noise: a rank that stores only the upper part of a full last axis leaves
  modes unwritten (C51); on odd or non-cubic meshes columns share the seed 0
  (C51), the field is not Hermitian if the first two axes differ or the last
  axis is odd and stored in full (C49), and it depends on the resolution if the
  mesh is odd (C50). `mean` is ignored on a mesh with an axis of one cell (C61).
* The seeds s and 2^32 - s give the same random numbers, and so do 0 and 1 (C52).
* `get_index`: on a mesh of odd size the mode -(N+1)/2, outside of the mesh, gets
  the index of (N-1)/2 instead of -1 (C53); `maxlength=0` returns 0 for the zero
  mode, a negative one is no limit (C54).
* `coarray.sync`: messages carry no tag. If s pushes to d while d pulls from s, the
  two values are swapped; if in addition d pushes to s and s pulls from d, sync
  deadlocks unless MPI buffers the messages (C56).
* `preview` with all axes in another order adds the array without transposing it:
  wrong values, or ValueError if the sizes differ (C65).
- `ctranspose` checks its axes by the number of distinct entries and the largest one only.
  `[1, -1]` passes on a two-dimensional mesh, and values pile up in the cells of the diagonal (C66).
- `cdot_vjp` alone is the gradient over all modes of the uncompressed mesh.
  It is not the gradient over the stored modes; that needs `decompress_vjp` after it (C67).
* `resample` documents an untransposed complex output, but writes the modes through
  the transposed view of its memory and never converts them (C69).
* `resample` on equal Nmesh first casts into `out` ("no resampling needed") but does
  not return: all work is done again, the Nyquist modes are removed, and if
  `self` shares the buffer of `out` with another type it is lost (C69).
* `r2c` and `c2r` do not check that `out` belongs to the mesh of `self`.
* In doubles `remainder(x, L)` of a tiny negative x is L itself. Then `isprimary` is
  false on every rank and `load` raises ValueError; its comment "must be in 0 ~
  self.shape due to remainder" is wrong. `decompose` is safe (C70, C71).
* In doubles a particle slightly below -1/2 cells may be painted by no rank with the
  nearest window, because each rank rounds after subtracting its own offset (C72).
* `get_compensation` of a window resized to twice its native support divides by zero at
  the Nyquist frequency: the transform has its first zero there (C74).
* `lic` takes the maximum of the vectors over the rank's own cells (no allreduce), so a
  line that meets larger vectors of another rank misses texture; it passes to `decompose`
  a step in units of the box as a smoothing in cells; a rank without cells raises
  ValueError at `max()` (C76).
* The numba cic painter does nothing on a mesh that is not C contiguous, because
  `mesh.ravel()` is a copy then (C77). In mode "raise" the documented range of
  positions [0, shape) raises in the last cell if there is no period (C77). A period of
  zero means no period in numba, and "all to index 0" in numpy (C77).
* `tsc.paint` subtracts one from the target index once too often: everything is painted
  one cell too low on every axis (C78). `tsc.readout` names a function that is not there
  and raises NameError (`C78_readout_refuted`).
* The deprecated `ParticleMesh.decompose` always uses a smoothing of one cell, so the tsc
  brush loses mass next to the faces between ranks; with an odd Nmesh its frequency of
  index (Nmesh-1)/2 is -(Nmesh+1)/2 (C79).
* `transfer.Laplace` multiplies after its loop over rows, so all rows get the last row's
  w^2; the zero mode becomes inf times its value; a rank without rows raises NameError.
  `transfer.Trilinear` takes three arguments and `ParticleMesh.transfer` passes two. With
  odd Nmesh `Poisson` divides by the wrong w^2 at index (Nmesh-1)/2 (C80).
* `ParticleMeshEngine.lowpass`: the vjp and jvp filter a temporary and return their argument
  unchanged (C82, `C82_lowpass_refuted`); the filter itself compares `|k| <= Neff // 2 * k0` in
  double precision and so drops the modes on the limit for some box sizes
  (`C82_lowpass_rounded_refuted`: BoxSize 1380, 8 cells, Neff 6).
* `nyquist_mask` zeroes only the modes that are their own opposite. With `tf = i k_last` the
  other modes of the plane `N/2` break the reality condition (C82, `C82_transfer_hermitian_refuted`).
* `assign_component`: the vjp keeps the cotangent of the component that was overwritten;
  `multiply`: the vjp of complex fields lacks the conjugate; `ParticleMeshVectorSpace.dot` of
  arrays of shape (N, ndim) is a matrix product (C82).
* `ParticleMeshEngine.paint`: the jvp lacks the factor cells / particles that paint and its vjp
  have (C83, `C83_jvp_refuted`); with one particle per cell it is right (`C83_one_per_cell`).
* `lanczos.paint`: the product of the kernels of all axes is divided by the one dimensional
  `integral` only once, so windows with integral other than one do not conserve mass in two or more
  dimensions (C84, `C84_integral_refuted`, `C84_constant`).
* The cubic window of lanczos.py interpolates and has negative values; the cubic window of window.py,
  to which the deprecation warning refers, smooths (C84, `C84_cubic_refuted`).
* `a += b` on a field computes in place and returns another new field (pm.py:199), to which Python
  binds the name: other names of the field see this statement but not the next one (C85,
  `C85_rebind_refuted`).
* A real field times an imaginary number is a real field of the real part, without error, while
  the same product in place raises (C85, `C85_imaginary_refuted`).
* Fields of different type are combined if their local arrays have equal shapes; nothing in
  `__array_ufunc__` compares the types (C85, `C85_mixed_refuted`).
* With an array as operand each rank decides by local shapes whether the result is a field, so ranks
  may disagree (C85, `C85_ranks_refuted`).
* The deprecated ParticleMesh keeps cells and modes in one buffer, without a record of which it holds:
  a second c2r without push and pop, or painting on after r2c, silently gives something else (C86,
  `C86_destroyed_refuted`, `C86_repaint_refuted`).
* A force read with another window than the density was painted with accelerates a single particle
  (C87, `C87_window_refuted`); examples/nbody.py uses one window and is not affected.
* On meshes whose axes have more than one empty block, e.g. 9 rows on 7 ranks, the constructor leaves
  entries of `DomainAssign` unwritten, for every such number of cells and ranks; reshape can turn a good
  mesh into such a mesh (C88, `C88_create`, `C88_blocks_refuted`).
* `kgsolver` of examples/klein-gordon.py applies the middle operator once where its documentation, and
  any consistent scheme, has it twice: the constant field 1 with F(u) = u, a solution that does not change,
  becomes 2/5 after one step (C89, `C89_scheme_refuted`). It raises UnboundLocalError for two times
  (`C89_short`), and the last rate it hands to the monitor is always zero because `u_k_n_1` has been
  overwritten with `u_k_n` (line 98; `C89_modes`).
* `ParticleMeshVectorSpace.addmul` with a complex field as the factor does not multiply complex numbers
  (C82, `C82_addmul_complex_refuted`).
* The linear window in doubles (C92): when one of the blocks of an axis has all cells but
  one (3 cells on 2 ranks), a particle within an ulp below the last cell is not sent to the
  rank of this cell and nearly all of its mass on this axis is lost (`C92_lost_refuted`).
  A gradient readout at 1 - 2^-53 cells with a block that begins at cell 2 (4 cells on 2
  ranks) adds the value of cell 2 as a third term (`C92_gradient_refuted`).
* On a mesh of odd size pot_transfer and force_transfer do not solve Poisson's equation: the
  signed index of pm.py takes the mode (n-1)/2 for -(n+1)/2 (C93, `C93_odd_refuted`; see C41).
* check_grad multiplies rtol by 10000 for the comparison with the function itself; from
  rtol = 1e-4 on that comparison accepts everything (C94, `C94_difference_void`, `C94_void_case`).
  With atol = 0 an entry 0 compared with 0 is nan and is refused (`C94_atol_refuted`).
* `TransferFunction.PowerSpectrum` (transfer.py:148) takes its mask of one element from the last row of the
  first axis instead of the last plane of the third: from numpy 1.13 on it always raises IndexError
  (`C97_mask_refuted`), before that nothing is down weighted (`C97_plane_refuted`). `wsum` is overwritten by every
  row, so `wout` has only the last rows (`C97_wout_refuted`). Ranks with different numbers of rows wait for each
  other forever (`C97_rows_refuted`).
* The cubic window in doubles (C98): with five cells on two ranks (three and two) the particle at the double below 3 is
  not sent to the second rank, which has five sixths of its mass, because x + 2 rounds to the upper side of the box
  and the range of domains closes on itself (`C98_lost_refuted`). With all cells but one on a rank the quadratic
  window loses particles in exact arithmetic (`C98_lost_exact_refuted`).
* `decompress` of the engine (C99): its jvp, which the source marks with "is this correct?", is the derivative; together
  with its vjp it is right if each pair of opposite modes is counted once, but not for `ParticleMeshVectorSpace.dot`
  (`C99_dot_refuted`).
* `RealField.cdot` of an array always raises TypeError (C100): `_check_compatible` applies `all` to the comparison of two
  tuples, which is a bool (pm.py:215). `cdot` of complex fields does not go through that check and takes arrays.
* `cdot` of fields of two meshes is only noticed by the ranks whose local shapes differ; they raise and the others hang
  (`C100_hang_refuted`), or a row is repeated and a number comes back (`C100_repeated_refuted`).
* `GridND.decompose` stores ranges of domains as int16: with 32768 domains along an axis the
  particles of the last one are sent nowhere, with more they are sent to a wrong rank, silently
  (`C103_lost`, `C103_misplaced`). More than 2^31 - 1 copies end in a ValueError on that rank
  (`C103_too_many`).
* A window whose size (support times smoothing length) is not a whole multiple of the native one
  does not conserve the mass of single particles (`C104_nearest`, `C104_linear`, `C104_others`);
  the comment in `_fill_k` that mass is conserved statistically is `C104_average`.
* The n-body example needs room for the full support of the window on every divided axis: with
  the TSC window and blocks of three cells and one on four cells the forces differ from those on
  one rank (`C105_room_refuted`).  Nothing is raised.
* The painter keeps cells in C ints: on a periodic mesh a particle 2^31 cells away is put in the wrong
  cell, and with more than 2^31 cells along an axis a particle next to a block appears inside the
  block (`C106_far_refuted`, `C106_long_refuted`).  Nothing is raised.
* `coarray`: a pull or push through a proxy of one array is carried out with the array that the other rank
  calls sync of.  `test_cotranspose` (coarray.py:332-343) never reads coa2: coa1 stays zero with any number of
  ranks (`C107_two_arrays_refuted`).  A push sends the values at the sync; `coa(...)[i] = x` raises NameError
  (`C107_group`).
* `test_coarray` (coarray.py:315) fails on two ranks, where left and right are the same image
  (`C108_two_ranks_refuted`).  Pushes do not copy: sync assigns what it receives (288) while its own arrays are
  still being sent, so that without buffering a rank can pass on what it has just received
  (`C108_late_refuted`; no problem if the pushed cells are not pushed to, `C108_late`).
* A function decorated by `FromRoot` that raises on rank 0 leaves the other ranks waiting, and if rank 0 catches the exception and goes on they
  are given the value of the next call; a decorated function that calls a decorated function gives them the inner value (C110_raise_shifts, C110_nested_shifts).
* A `Timer` entered again inside its own block counts the inner block twice and forgets the time before it (C110_reentered_refuted).
* With a numpy before 1.13, `1j / field` and `field ** 1j` of a real field drop the imaginary parts, where `field * 1j` raises TypeError (C111_complex_operand,
  C111_imaginary_refuted).
* A kaiser window of lanczos.py does not vanish at its edge, and paint includes the right edge of a particle on a mesh point but not the left one (C112_kaiser_paint).
* `invariant.get_index` takes nested lists according to its documentation, but raises AttributeError; a single point raises AssertionError (C113_errors).
* Slab iteration of a one dimensional field fails: a row is a numpy scalar, which
  has no attributes (modelled in `slab_at`). `kind='absolute'` of `apply` gives
  the same coordinates as 'relative'. With `kind='circular'` the coordinates are a
  plain list, without the documented `normp`.

## What is simplified in slabs, apply, csum and preview

* Memory is a function from addresses to values; a numpy view is an offset, a
  shape and strides in elements. Coordinate arrays are one dimensional with
  inserted axes; broadcasting sets the stride of an axis of size one to zero.
* The right-hand side of `oslab[...] = func(islab)` is computed before it is
  written; func acts element by element. argsort returns any permutation.
* preview: the optional resampling (C34, C58) and c2r (C44) come before what is
  modelled. Negative axes are not modelled.

## What is simplified in the shared memory part

* A buffer is a function from rank and offset to a number; two fields share either
  the same whole buffer or nothing. Fields are views of a buffer at the addresses
  `me_at`; that the addresses of different cells differ is a hypothesis (`good`).
* Real dtypes only (a real field has real numbers and a compressed complex mesh).
  Uninitialised memory is arbitrary. A transform leaves arbitrary numbers in the
  padding and in a destroyed input; a plan run with another aliasing than planned
  is `Garbage`.

## What is simplified in the tools and co-array part

* MPI: the k-th barrier of a process returns when all processes have entered
  their k-th; a message from s to d goes to the receives of d for s in the order
  of posting (no tags, one communicator); whether a send may return before the
  receive is posted is an arbitrary function (`eager`), fixed during a run.
* Rotator: every process executes the same number of `with` blocks; a body is any
  number of operations without barriers. `__exit__` is run also if a body raises.
* `lic`: the default texture (line 51) is not drawn; the texture is an argument. The
  power 0.5 is any function. A rank that fails before the loop stops the others, which is
  so as soon as there is one step.
* Deprecated painters: `transform` acts on one position at a time; the size of the
  chunks is an argument; the mode is "raise" or "ignore"; numba compiles what is
  written. `out=` of the readouts is None.
* `transfer`: single precision frequencies are exact reals. `Inspect` (it prints) is not
  modelled.
* `abopt`: a statement is the function from the contents of its input variables to those of
  its output variables. The library that records and replays statements (`abopt.vmad2`), its
  marker ZERO, `decompress` (its products are C34 and the identity) and `check_grad` are not modelled.
* `Field.__array_ufunc__`: functions with several results, the methods `reduce`, `at`, ... and outputs
  that are arrays; the operators for numpy before 1.13 (pm.py:16-76).
* check_grad: the library that runs the code, the printed lines and the text of the exception,
  an input that is neither an array of the shape of engine.q nor a RealField (NameError), ranks
  that disagree about that, and a jvp that returns the marker ZERO are not modelled.
* `coarray`: views and indices are arbitrary types with the cells of a view and the view of an index; indexing
  does not fail, and the shapes of a slice and of the array it is stored to agree.  MPI takes the data of a push
  at Isend (C107, C56; see C108 for later times).  There is one communicator.  The reference to an undefined name in `coarray.__new__` (the class
  cannot be called; `zeros` and `fromarray` work) and the printed texts are not modelled.

## What is simplified in the Window part

* Numbers are exact rationals. float/double variants of the routines are one.
* `unsigned char` canvas, `_WRITE`/atomic pragmas: a paint is a list of atomic
  additions (address, amount); C26 is about their interleaving.
* The 18 table windows enter through arbitrary tables; only their lengths, steps
  and supports are those of the code.
* `get_fwindow` and `get_compensation` are over the real numbers (`FwindowModel.v`), the
  kernels restated there agree with those of `WindowModel.v` on rational arguments
  (`kernelR_ok`, part of C73).

## What is simplified in the Domain part

* `decompose` and `load` store domain indices as int16; `DomainModel.v` uses
  unbounded integers, which C103 justifies within the limits it states.
* `numpy.remainder` is exact in `DomainModel.v`: in floating point the remainder of
  a tiny negative number can round to the period itself, see `FloatModel.v`.
* `heapq` is modelled by its meaning (pop removes the least pair).
* `uniform`: the real exponent is replaced by an argument `r`.

## What is simplified in the Mesh part

* pfft's partition is an argument of the constructor: any increasing edges, the
  blocks dealt to the ranks in any order (`mesh_ok`). The theorems on routing ask
  that no two blocks of an axis have the same start (`distinct_starts`) and, because
  of the degeneracy flag bug (C15), that no block is empty or the blocks are in
  C order (`plain_order`; the latter is what pfft does).
* All ranks pass the same form (None, scalar, array) of a per-particle argument.
* Positions have one coordinate per mesh dimension.
* paint_jvp/vjp, readout_jvp/vjp: the tangent of the mass is an array; numpy's
  broadcasting of length-one arrays and `out_self` are not modelled.
* A layout given to paint/readout is the one returned by decompose; in
  `pm_paint_elem`/`pm_readout_sum` it is any well-formed layout.
* Plan cache (`CacheModel.v`): a template is the number of the construction that
  created it; meshes die one by one at any time on any process; a communicator
  object gets any address that no living communicator object of the process has.
  `pm.comm` and `pm.template` are the references that keep both alive.

## What is simplified in the Field part

* Numbers are elements of an arbitrary commutative ring (`RingModel.v`), complex
  numbers are pairs; equality is exact.
* The local array of a rank is its offset, its shape and its values in C order.
  The partition over ranks is arbitrary: `tiles` says that the blocks together
  contain every cell of the global array once.
* mpsort.sort is trusted to sort the whole array by key and to deal the result
  out in the given lengths, mpsort.take to return the elements at the given
  global positions. Numbers assigned through csetitem are the same on all ranks.
* Iterations over slabs are modelled element by element (2 and more dimensions);
  C63 is about the iteration itself.
* resample: source and destination are complex fields; `out` of a RealField type
  adds a c2r. The branch for equal Nmesh writes `out` before it is overwritten.
* The wave number enters a metric through its square; 2 pi is a symbol.

## What is simplified in the Fourier part

* pfft is trusted to compute the exact discrete Fourier transform, including the
  half complex storage of PFFT_R2C/PFFT_C2R (the imaginary parts that PFFT_C2R
  ignores are ignored). Planning, flags and threads are not modelled.
* The theorems hold over every commutative ring with n-th roots of unity and
  inverses of the axis lengths (`mesh_roots`; for Hermitian arrays also
  a + a = 0 -> a = 0). `FourierReal.v` proves that the real numbers with
  exp(2 pi i / n) are such a ring for every mesh.
* In-place transforms (out=Ellipsis, shared buffers) are modelled in `BufferModel.v`.

## What is simplified in the random generator

* Doubles are integers in units of 2^-48: all sums and differences of ranlxd are
  exact in double precision, so that nothing is lost.
* Only the luxury level of `ranlxd1` (202) is instantiated; the proofs are for any
  level of at least 12.

## What is simplified in the white noise part

* The generator (seeding, uniform number, SAMPLE) and the map from the two random
  numbers to a mode (square root, logarithm, cosine and sine) are arguments of the
  model; `ranlxd_fill` is the instance with the generator of the code. The product
  0x7fffffff * u is not rounded.
* The array is a partial function from global indices to values; strides and the
  two precisions are not modelled. Seeds fit an unsigned int.
* One and two dimensions: the numbers of numpy's RandomState are an arbitrary
  function (the same on all ranks), exp(1j angle z) is an argument.

## What is simplified in the invariant index

* ptrdiff_t and int are unbounded; uint32_t arithmetic of get_nbits is modulo 2^32.
  The theorems are for less than 32 axes. The cache of cap sizes is left out.
* get_index is modelled for one point; the array version is C113.
