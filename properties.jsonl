{"id": "C01", "title": "Exchange delivers exactly what was addressed", "statement": "After layout.exchange(data) every rank r holds, in order of source rank and, within one source, in the order of that source's send list, exactly the elements data[i] that some rank addressed to r; nothing is lost, duplicated, re-ordered or delivered to a wrong rank.", "quantifier": "all communicator sizes, all per-rank data (any element type), all index lists and all per-destination counts", "why_tests_cant": "Tests run a few communicator sizes with one layout each; the offset arithmetic must be right for every count matrix, including empty ranks.", "anchors": ["pmesh/domain.py:Layout.__init__", "pmesh/domain.py:Layout._exchange"]}
{"id": "C02", "title": "Exchange followed by gather('all') is the identity on the send list", "statement": "gather(exchange(x), mode='all') returns on each rank x.take(indices), i.e. the reverse communication undoes the forward one element by element.", "quantifier": "all communicator sizes, layouts and data", "why_tests_cant": "A wrong displacement only shows for particular count matrices; tests cover a handful.", "anchors": ["pmesh/domain.py:Layout.exchange", "pmesh/domain.py:Layout.gather"]}
{"id": "C03", "title": "Conservation of counts in a layout", "statement": "The number of elements received by r from s equals the number s addressed to r; the total received over all ranks equals the total sent; the reported per-rank exchange cost counts exactly the elements that leave the rank.", "quantifier": "all communicator sizes and all count matrices", "why_tests_cant": "Quantifies over all count matrices.", "anchors": ["pmesh/domain.py:Layout.__init__", "pmesh/domain.py:Layout.get_exchange_cost"]}
{"id": "C04", "title": "gather(mode='sum') adds up every ghost copy exactly once", "statement": "For any values y attached to the received copies, entry i of gather(y,'sum') is the sum of the values of all copies of particle i over all ranks, and 0 for a particle without copies.", "quantifier": "all layouts, all values, all particles", "why_tests_cant": "Whether every copy is counted exactly once depends on the whole layout.", "anchors": ["pmesh/domain.py:Layout.gather", "pmesh/domain.py:bincountv"]}
{"id": "C05", "title": "gather('mean') and gather('any') restore ghost-consistent values", "statement": "If all copies of a particle carry the value v and the particle has at least one copy, gather('mean') and gather('any') return v for it. In particular gather(exchange(x),'any') = x and gather(exchange(x),'mean') = x when every particle has a copy.", "quantifier": "all layouts and values", "why_tests_cant": "Quantifies over all layouts.", "anchors": ["pmesh/domain.py:Layout.gather"]}
{"id": "C06", "title": "gather('local') returns the value kept on the own rank", "statement": "gather(y,'local') returns for each particle with a copy on its own rank the value of that very copy.", "quantifier": "all layouts and values", "why_tests_cant": "Needs the send/receive offset pairing for the diagonal block for all count matrices.", "anchors": ["pmesh/domain.py:Layout.gather"]}
{"id": "C07", "title": "gather with a ufunc reduces over exactly the copies of each particle", "statement": "When every particle has at least one copy, gather(y, mode=ufunc) returns for each particle the ufunc reduction of the values of its own copies. The condition is needed: a particle without copies silently gets another particle's value, or the call raises.", "quantifier": "all layouts, all values, any binary operation", "why_tests_cant": "numpy.reduceat has special behaviour for empty segments that only shows when a particle has no copy.", "anchors": ["pmesh/domain.py:Layout.gather"]}
{"id": "C08", "title": "Length mismatches are rejected on all ranks together", "statement": "If on any rank the array handed to exchange (resp. gather) has a length other than the layout expects, every rank raises and no data is communicated; otherwise no rank raises. (The check that the columns of one packed call agree with each other and the check of the trailing shapes are not collective: one rank raises while the others wait.)", "quantifier": "all communicator sizes, all length vectors", "why_tests_cant": "A partial failure (one rank raises, the others block in a collective) is a schedule property not visible in a single run.", "anchors": ["pmesh/domain.py:Layout._exchange", "pmesh/domain.py:Layout.gather"]}
{"id": "C09", "title": "Packed exchange equals column-wise exchange", "statement": "exchange(a, b, ..., pack=True) returns the same columns as exchanging each of a, b, ... separately.", "quantifier": "all layouts, any number of columns, any column types", "why_tests_cant": "Quantifies over all layouts and column lists.", "anchors": ["pmesh/domain.py:Layout.exchange", "pmesh/domain.py:pack_arrays"]}
{"id": "C10", "title": "The decomposition never names an invalid rank, never sends twice", "statement": "Every particle produced by decompose is addressed to each rank at most once, all counts match the index lists, all indices are valid particle indices, and per destination the particles keep their original order.", "quantifier": "all positions, smoothing lengths, grids, assignments, dimensions, periodic or not", "why_tests_cant": "The de-duplication and counting passes must agree for every input or memory is corrupted.", "anchors": ["pmesh/domain.py:GridND.decompose", "pmesh/_domain.pyx:gridnd_fill"]}
{"id": "C11", "title": "Ghost coverage of a periodic decomposition", "statement": "On a grid without zero-width domains, or with domain i assigned to rank i, a particle is delivered to every rank that owns a domain meeting the particle's smoothing box (modulo the period on a periodic grid), provided that on a periodic axis the smoothing length plus the width of the particle's own domain does not exceed the period, or that domain spans the whole axis.", "quantifier": "all positions (inside or outside of the box), all sorted edges, all assignments, smoothing lengths up to the stated bound, any dimension", "why_tests_cant": "Coverage is a statement about all positions and all decompositions; boundary cases have measure zero in random tests.", "anchors": ["pmesh/domain.py:GridND.decompose", "pmesh/_domain.pyx:gridnd_fill"]}
{"id": "C12", "title": "Ghost coverage fails for smoothing close to the box size", "statement": "The coverage guarantee does not hold for an arbitrary smoothing length: there are grids and particles with a smoothing length below the box size for which a rank owning a domain inside the smoothing box receives no copy.", "quantifier": "existence claim (witness)", "why_tests_cant": "A tiny-mesh corner that no test in the suite visits.", "anchors": ["pmesh/domain.py:GridND.decompose"]}
{"id": "C13", "title": "No spurious ghosts", "statement": "Every rank a particle is sent to owns a domain that meets the particle's closed smoothing box (modulo the period on a periodic grid; a zero-width domain counts as the point where it stands): the decomposition is tight, for every smoothing length.", "quantifier": "all positions, edges, smoothing lengths, any dimension", "why_tests_cant": "Quantifies over all inputs.", "anchors": ["pmesh/domain.py:GridND.decompose"]}
{"id": "C14", "title": "With no smoothing each particle has exactly one primary home", "statement": "With smoothing=0 on a periodic grid without zero-width domains (or with domain i on rank i), every particle is delivered to exactly one rank, the owner of the one domain containing it modulo the box; that rank says isprimary for it, and no other rank does; the number of primary particles summed over ranks equals the number of particles.", "quantifier": "all positions including those outside the box, all edges and assignments", "why_tests_cant": "Half-open boundary cases and wrap-around at exact edges.", "anchors": ["pmesh/domain.py:GridND.isprimary", "pmesh/domain.py:GridND.decompose"]}
{"id": "C15", "title": "Degenerate domains do not change who gets a particle", "statement": "When domain i is assigned to rank i, zero-width domains neither receive particles nor hide particles from other domains: a particle goes exactly to the owners of positive-size domains meeting its smoothing box. The condition is needed: under other assignments (also the default one when there are more domains than ranks) a zero-width domain can make a particle go to nobody, or receive particles itself.", "quantifier": "all grids with zero-width domains and all domain-to-rank assignments", "why_tests_cant": "Needs a non-identity assignment together with degenerate domains; no test combines them.", "anchors": ["pmesh/domain.py:GridND.__init__", "pmesh/_domain.pyx:gridnd_fill"]}
{"id": "C16", "title": "Default domain assignment is total, contiguous and even", "statement": "When there are more domains than ranks every domain is assigned to exactly one existing rank, ranks own contiguous blocks, and block sizes differ by at most one; otherwise domain i goes to rank i.", "quantifier": "all numbers of domains and ranks", "why_tests_cant": "Quantifies over all sizes.", "anchors": ["pmesh/domain.py:GridND.__init__"]}
{"id": "C17", "title": "Load balancing assigns every domain and obeys the greedy bound", "statement": "loadbalance assigns every domain to exactly one valid rank and the heaviest rank carries at most the average load plus the heaviest single domain (and at least the average).", "quantifier": "all load vectors, all numbers of ranks", "why_tests_cant": "Quantifies over all load vectors.", "anchors": ["pmesh/domain.py:GridND.loadbalance"]}
{"id": "C18", "title": "Domain load counts every particle once", "statement": "With gamma=1 the loads returned by load() sum to the global number of particles, and each domain's load is the number of particles whose position (modulo the box) lies in it.", "quantifier": "all positions, grids, particle distributions over ranks", "why_tests_cant": "Quantifies over all inputs.", "anchors": ["pmesh/domain.py:GridND.load"]}
{"id": "C19", "title": "The uniform grid factory creates at least one domain", "statement": "GridND.uniform never produces more than comm.size domains, and produces at least one exactly when the domain counts of the axes other than the longest multiply to at most comm.size; that is so whenever every side is at least 1 and the computed quotient r is at least 1. There are boxes (short sides, or elongated) for which it produces no domain at all.", "quantifier": "all box sizes and communicator sizes", "why_tests_cant": "The factorisation depends on the unit of length; tests use boxes with one side equal to 1.", "anchors": ["pmesh/domain.py:GridND.uniform"]}
{"id": "C20", "title": "Resampling kernels are a partition of unity", "statement": "For each of the nearest, linear (cic), quadratic (tsc) and cubic (pcs) kernels the values at all mesh points sum to exactly 1 for every position, and painting a particle whose stencil lies inside a non-periodic array (any dimension, any transform, generic or tuned routine) increases the total of the array by exactly its mass.", "quantifier": "all real positions, any dimension", "why_tests_cant": "Equality for all positions in a continuum, including piece boundaries.", "anchors": ["pmesh/_window_imp.c:_fill_k", "pmesh/_window_imp.c:_linear_kernel", "pmesh/_window_imp.c:_quadratic_kernel", "pmesh/_window_imp.c:_cubic_kernel"]}
{"id": "C21", "title": "Painting on a periodic mesh conserves mass", "statement": "Painting any particles with any masses on a full periodic mesh increases the sum over mesh cells by exactly the sum of masses.", "quantifier": "all particle lists, masses, positions, mesh shapes and dimensions, for nnb/cic/tsc/pcs", "why_tests_cant": "Includes meshes smaller than the stencil and positions far outside the box.", "anchors": ["pmesh/_window_generics.h:_generic_paint", "pmesh/window.py:ResampleWindow.paint"]}
{"id": "C22", "title": "Reading out a constant field returns the constant", "statement": "readout of a constant periodic mesh returns the constant for every position.", "quantifier": "all positions, mesh shapes, dimensions; nnb/cic/tsc/pcs", "why_tests_cant": "Quantifies over a continuum.", "anchors": ["pmesh/_window_generics.h:_generic_readout", "pmesh/window.py:ResampleWindow.readout"]}
{"id": "C23", "title": "Readout is the adjoint of paint", "statement": "For every window, order of differentiation, transform and mesh: sum over cells of field*paint(pos,mass) equals sum over particles of mass*readout(field,pos).", "quantifier": "all kernels, supports, smoothing scales, positions, masses, fields, mesh shapes, strides of the partition, periodic or clipped", "why_tests_cant": "A linear-algebra identity between two separately written loops.", "anchors": ["pmesh/_window_generics.h:_generic_paint", "pmesh/_window_generics.h:_generic_readout"]}
{"id": "C24", "title": "Tuned painters agree with the generic painter", "statement": "The hand-written nnb/cic/tsc/pcs routines give the same memory and the same readout values as the generic routine with the same kernel, for the default support, in any number of dimensions, with or without differentiation, except: the cic gradient on a mesh point, and the pcs gradient when the scale of the transform is not one (the factor is missing). The conditions are needed, and smoothing lengths that round up to the native support are ignored by the tuned routines only.", "quantifier": "all positions, meshes, scales, weights", "why_tests_cant": "Tests compare one position; equality must hold on the continuum including cell boundaries.", "anchors": ["pmesh/_window_tuned_nnb.h", "pmesh/_window_tuned_cic.h", "pmesh/_window_tuned_tsc.h", "pmesh/_window_tuned_pcs.h", "pmesh/_window_generics.h"]}
{"id": "C25", "title": "Painting is invariant under periodic images", "statement": "Moving any particle by any integer number of periods in any dimension changes neither paint nor readout, for every window, support, smoothing length and differentiation.", "quantifier": "all positions and all integer shifts", "why_tests_cant": "Quantifies over all shifts.", "anchors": ["pmesh/_window_generics.h", "pmesh/_window_imp.c:_fill_k"]}
{"id": "C26", "title": "Painting order and concurrency do not matter", "statement": "The mesh after painting does not depend on the order of the particles nor on the interleaving of the atomic additions of parallel threads, and painting in several batches with hold=True equals painting once.", "quantifier": "all particle lists, all permutations and interleavings of the individual deposits", "why_tests_cant": "Schedules cannot be enumerated by tests.", "anchors": ["pmesh/_window_generics.h:_generic_paint", "pmesh/_window.pyx:ResampleWindow.paint", "pmesh/pm.py:ParticleMesh.paint"]}
{"id": "C27", "title": "Painting touches only mesh cells inside the array and inside the stencil", "statement": "No paint writes outside of the local array; only elements stored at mesh points nearer than half the (rounded up) support plus one mesh unit to a particle, modulo the period, change; readout depends on no other element.", "quantifier": "all positions, supports, mesh shapes, local array shapes", "why_tests_cant": "Memory safety for all inputs.", "anchors": ["pmesh/_window_generics.h:_generic_paint"]}
{"id": "C28", "title": "The stencil contains the whole kernel", "statement": "Every mesh point closer to the particle than half the support in each dimension is visited exactly once by the painter. For the generic nnb/cic/tsc/pcs, acg and lanczos windows of any support and smoothing length, what painting adds to an element is the mass times the kernel summed over all mesh points stored there: no kernel weight is dropped. The wavelet tables (db, sym) are wider than their nominal support and do lose weight.", "quantifier": "all positions and all (also non-integer) supports", "why_tests_cant": "Depends on floor/ceil corner cases at half-integer positions.", "anchors": ["pmesh/_window_imp.c:pmesh_window_info_init", "pmesh/_window_imp.c:_fill_k"]}
{"id": "C29", "title": "The gradient windows are the derivatives of the windows", "statement": "For tsc and pcs windows of any support and smoothing length, generic or tuned, readout and paint with diffdir=d are the derivative with respect to the coordinate along d, including the factor of the transform: the error of the linear approximation is bounded by a constant times the square of the displacement, uniformly in position and field. For cic the linear approximation is exact inside a cell, for nnb the value is constant and the gradient zero. For the windows given by tables (acg2-6, lanczos2-6, sym6-20, db6-20), any entries, support and smoothing length, it is exact as long as the particle reaches the same mesh points and crosses no entry of the table for any of them. The tuned pcs gradient lacks the scale and is the derivative only when the scale is one.", "quantifier": "all positions (away from kinks for cic and the tables), all scales", "why_tests_cant": "A finite-difference test checks a few points to a tolerance.", "anchors": ["pmesh/_window_imp.c:_linear_diff", "pmesh/_window_imp.c:_quadratic_diff", "pmesh/_window_imp.c:_cubic_diff", "pmesh/_window_tuned_pcs.h"]}
{"id": "C30", "title": "Gradient weights sum to zero", "statement": "The gradient readout of a constant field is zero and gradient painting adds no mass.", "quantifier": "all positions; nnb/cic/tsc/pcs", "why_tests_cant": "Continuum quantifier.", "anchors": ["pmesh/_window_imp.c:_fill_k", "pmesh/_window_generics.h"]}
{"id": "C31", "title": "Distributed painting equals painting on one rank", "statement": "pm.paint(pos, mass, layout=pm.decompose(pos)) yields on every rank exactly the rank's slab of the mesh that a single process would get by painting all particles of all ranks, provided that on every axis a rank's block is the whole axis or block width plus the smoothing length (half the window support) is at most the mesh size; hence the result does not depend on the number of ranks or the decomposition, and the total painted mass is the total particle mass. The condition is needed.", "quantifier": "all meshes, decompositions, distributions of particles over ranks, positions, masses; windows nnb/cic/tsc/pcs; box large enough relative to a domain (explicit bound)", "why_tests_cant": "Quantifies over all decompositions and all particle placements.", "anchors": ["pmesh/pm.py:ParticleMesh.paint", "pmesh/pm.py:ParticleMesh.decompose", "pmesh/domain.py:GridND.decompose", "pmesh/_window_generics.h"]}
{"id": "C32", "title": "Distributed readout equals readout on one rank", "statement": "real.readout(pos, layout=pm.decompose(pos)) returns for every particle, on the rank that asked, the value that a single process would interpolate from the whole mesh, provided that on every axis a rank's block is the whole axis or block width plus the smoothing length (half the window support) is at most the mesh size. The condition is needed.", "quantifier": "same as distributed painting", "why_tests_cant": "Quantifies over all decompositions and all particle placements.", "anchors": ["pmesh/pm.py:RealField.readout", "pmesh/pm.py:ParticleMesh.decompose", "pmesh/domain.py:Layout.gather"]}
{"id": "C33", "title": "paint/readout vjp and jvp are dual", "statement": "With gradient=None, paint_vjp is the adjoint of paint_jvp and readout_vjp the adjoint of readout_jvp for every cotangent and tangent, in mass/field and in positions together, with a layout from decompose or without one, summed over all ranks. With gradient=k the mass part of paint and readout(gradient=k) are adjoint; position derivatives of a gradient paint raise. The condition gradient=None is needed for readout_jvp, which ignores the argument.", "quantifier": "all positions, masses, cotangents, tangents", "why_tests_cant": "Quantifies over all vectors.", "anchors": ["pmesh/pm.py:ParticleMesh.paint_vjp", "pmesh/pm.py:ParticleMesh.paint_jvp", "pmesh/pm.py:RealField.readout_vjp", "pmesh/pm.py:RealField.readout_jvp"]}
{"id": "C34", "title": "Upsampling uses enough ghosts", "statement": "For windows of at most three cells and room for 1.6 cells on every divided axis, ParticleMesh.upsample stores in each cell what one process reads from the whole source mesh at that cell (times the ratio of densities unless keep_mean), so that the result is the same on any number of ranks and partitions, and a constant stays constant with keep_mean. The condition on the window is needed: with pcs the hard-coded smoothing of 1.6 cells is too small.", "quantifier": "all windows and decompositions", "why_tests_cant": "The hard-coded smoothing is only too small for wide windows and particular sub-cell positions.", "anchors": ["pmesh/pm.py:ParticleMesh.upsample"]}
{"id": "C35", "title": "Affine transforms compose", "statement": "Affine.rescale(a) maps x to what the original maps x*a to (translate is not multiplied), Affine.shift(n) adds n in mesh units, scalars and arrays broadcast, the two commute and compose; the period is never changed. Painting through the rescaled transform equals painting the multiplied positions; shifting by whole cells rolls the painted mesh.", "quantifier": "all transforms and amounts", "why_tests_cant": "Algebraic law.", "anchors": ["pmesh/window.py:Affine"]}
{"id": "C36", "title": "Collective item assignment keeps a complex field Hermitian", "statement": "Any sequence of csetitem calls at indices within [-Nmesh, Nmesh) (whole modes, or component 0 or 1) on a compressed complex field that satisfies the reality condition leaves a field that satisfies it, changes no other mode than those named and their partners, and csetitem followed by cgetitem at a stored index returns the value written (its real part for self-conjugate modes). The condition on the indices is needed: an index beyond Nmesh or the component index -1 is accepted and breaks the reality condition.", "quantifier": "all mesh shapes, all sequences of indices and values, all partitions", "why_tests_cant": "Histories of updates.", "anchors": ["pmesh/pm.py:Field.csetitem", "pmesh/pm.py:Field.cgetitem", "pmesh/pm.py:Field._ctol"]}
{"id": "C37", "title": "Setting an unstored mode behaves like setting its stored partner", "statement": "csetitem at an index in the unstored half of a compressed field writes the conjugate at the stored partner and nothing else, on whichever rank has it; csetitem and cgetitem report 0 for the unstored mode itself, not the value.", "quantifier": "all mesh shapes, indices, values", "why_tests_cant": "The tests only iterate over stored indices.", "anchors": ["pmesh/pm.py:Field.csetitem"]}
{"id": "C38", "title": "ravel and unravel are inverse and independent of the decomposition", "statement": "The concatenation over ranks of field.ravel() is the C-ordered global array regardless of the decomposition, and unravel restores the field.", "quantifier": "all mesh shapes and all partitions of the mesh into boxes", "why_tests_cant": "Quantifies over all partitions.", "anchors": ["pmesh/pm.py:Field.ravel", "pmesh/pm.py:Field.unravel"]}
{"id": "C39", "title": "Fourier resampling keeps every mode both meshes resolve", "statement": "resample copies each mode whose signed frequency is strictly below the Nyquist frequency of both meshes to the same signed frequency (the zero mode without imaginary part), zeroes all the others, and keeps the reality condition, on every partition of both meshes; provided that no axis shrinks so little that the output has an array index Nsrc/2. That condition is needed: from 12 to 8 cells frequency -2 is lost and the result is not the transform of a real field.", "quantifier": "all even mesh sizes, any dimension, all partitions", "why_tests_cant": "Quantifies over all pairs of sizes and modes.", "anchors": ["pmesh/pm.py:reindex", "pmesh/pm.py:build_index", "pmesh/pm.py:Field.resample"]}
{"id": "C40", "title": "Fourier resampling for odd meshes", "statement": "The index map used by resample preserves frequencies for every even output size, for odd input sizes as well, except that an odd input loses its most negative frequency when the output is larger. For odd output sizes it does not exist: it raises ValueError for all but 1 and 5 cells, and for 5 cells it is wrong.", "quantifier": "all mesh sizes", "why_tests_cant": "No test uses odd sizes.", "anchors": ["pmesh/pm.py:reindex"]}
{"id": "C41", "title": "Coordinates follow signed indices", "statement": "On an even axis the mesh coordinates are the signed index times the spacing with signed indices in [-N/2, N/2), congruent to the array index mod N, on every local slice, and wave numbers are odd under mode negation except at Nyquist. On every odd axis the middle index violates this.", "quantifier": "all N and all local slices", "why_tests_cant": "Quantifies over N; odd N untested for complex fields.", "anchors": ["pmesh/pm.py:_init_i_coords", "pmesh/pm.py:_init_o_coords"]}
{"id": "C42", "title": "Compressed inner products equal full ones", "statement": "On meshes with an even last axis, cnorm of a compressed field equals the sum over all modes of the full (uncompressed) field it stands for, and the real part of cdot equals that of the full inner product, on every partition; with a metric the same holds if all axes are even. With an odd last axis, and for the imaginary part of cdot, this is false.", "quantifier": "all mesh shapes, fields, metrics and partitions", "why_tests_cant": "Tests use even meshes only.", "anchors": ["pmesh/pm.py:BaseComplexField.cnorm", "pmesh/pm.py:BaseComplexField.cdot", "pmesh/pm.py:BaseComplexField._expand_hermitian"]}
{"id": "C43", "title": "decompress_vjp is the gradient with respect to a stored mode", "statement": "decompress_vjp turns a gradient with respect to all modes into the gradient with respect to each stored mode, changed together with its opposite mode so that the field stays real. It is not the adjoint of decompression of the whole array: a pair of modes that are both stored is counted twice.", "quantifier": "all mesh shapes and fields", "why_tests_cant": "Adjoint identity over all vectors.", "anchors": ["pmesh/pm.py:BaseComplexField.decompress_vjp"]}
{"id": "C44", "title": "r2c and c2r are inverse and their vjps are adjoints", "statement": "On every mesh (any number of axes, of any parity) and every partition, c2r(r2c(x)) = x for every field x; r2c(c2r(c)) = c for every c satisfying the reality condition (and not for others); the zero mode of r2c(x) is the mean of x; c2r_vjp and r2c_vjp are the adjoints of c2r and r2c with respect to the inner product over all modes; casting between the two complex layouts keeps a field that satisfies the reality condition; for a mesh of complex dtype r2c and c2r are inverse to each other on all fields.", "quantifier": "all mesh shapes and fields", "why_tests_cant": "Algebraic identity on the continuum; tests check to rounding for a few fields.", "anchors": ["pmesh/pm.py:RealField.r2c", "pmesh/pm.py:BaseComplexField.c2r", "pmesh/pm.py:RealField.c2r_vjp", "pmesh/pm.py:BaseComplexField.r2c_vjp"]}
{"id": "C45", "title": "The uniform particle grid has one particle per cell with unique ids", "statement": "Over all ranks generate_uniform_particle_grid creates exactly one particle per mesh cell, each on the rank owning the cell, with ids that are a permutation of 0..N-1.", "quantifier": "all mesh shapes and partitions", "why_tests_cant": "Quantifies over all partitions.", "anchors": ["pmesh/pm.py:ParticleMesh.generate_uniform_particle_grid"]}
{"id": "C46", "title": "The plan cache stays coherent across ranks", "statement": "Whatever objects die on whatever rank in between, at each construction either all ranks reuse a cached plan, all created by the same earlier collective construction, or all ranks create a new one.", "quantifier": "all histories of constructions, all garbage collection schedules on each rank", "why_tests_cant": "Garbage collection schedules differ per rank and cannot be enumerated by tests.", "anchors": ["pmesh/pm.py:ParticleMesh.__init__"]}
{"id": "C47", "title": "Every domain of a mesh is mapped to the rank that stores it", "statement": "If at most one block per axis of the partition is empty, pm.decompose(pos, smoothing=0) sends a particle exactly to the rank whose local array contains the cell of the particle, up to periods. With two empty blocks on an axis the domain-to-rank map contains uninitialised entries.", "quantifier": "all process meshes and Nmesh", "why_tests_cant": "Fails only if the process mesh is larger than the mesh.", "anchors": ["pmesh/pm.py:ParticleMesh.__init__"]}
{"id": "C48", "title": "White noise does not depend on the decomposition", "statement": "For a seed there is one field: every rank generates exactly its part of it for every decomposition, if only N2/2+1 modes of the last axis are stored (then this axis may be split as well), or if the last axis is stored in full on every rank. Both ways of storing agree on the modes they share. In one and two dimensions this holds for every decomposition.", "quantifier": "all seeds, generators, mesh shapes, decompositions", "why_tests_cant": "Quantifies over all decompositions.", "anchors": ["pmesh/_whitenoise_generics.h:_generic_fill", "pmesh/whitenoise.py:generate"]}
{"id": "C49", "title": "White noise is Hermitian", "statement": "If the first two axes have the same length and the last axis has even length the generated field satisfies the reality condition, with real self-conjugate modes, whether half or all modes are stored; so the real field made from it has this field as its transform. Both conditions are needed. In one and two dimensions it holds for every mesh.", "quantifier": "all seeds, generators, decompositions, meshes N x N x even", "why_tests_cant": "Quantifies over all seeds.", "anchors": ["pmesh/_whitenoise_generics.h:_generic_fill"]}
{"id": "C50", "title": "White noise is resolution invariant", "statement": "On meshes whose first two axes have equal even length a mode below the Nyquist frequency of both meshes has the same value on both for the same seed, for any lengths of the last axis and any decompositions. Odd lengths do not have this property.", "quantifier": "all seeds, generators, pairs of meshes, decompositions, modes below both Nyquist frequencies", "why_tests_cant": "Quantifies over all pairs of sizes.", "anchors": ["pmesh/_whitenoise_imp.c:SETSEED", "pmesh/_whitenoise_imp.c:GETSEED", "pmesh/_whitenoise_generics.h:_generic_fill"]}
{"id": "C51", "title": "White noise fills every mode from a seed of its own", "statement": "Every mode of the local array receives a value under the conditions of C48 on the last axis (a rank with only the upper part of a fully stored last axis leaves modes unwritten). On an even mesh with equal first two axes every column (i,j) is seeded by a number of the stream of its own, i.e. no two columns share one; on odd or unequal axes some columns share the seed 0 and carry the same numbers for every seed.", "quantifier": "all seeds, generators, mesh shapes and decompositions", "why_tests_cant": "Tests use even cubic meshes and full last axes.", "anchors": ["pmesh/_whitenoise_generics.h:_generic_fill"]}
{"id": "C52", "title": "The random generator is the published recurrence, within range", "statement": "The m-th number from a seed is word 202(m/12+1)+m%12 of the sequence that starts with the twelve 48-bit words of the seed and obeys X(n+12)=X(n+7)-X(n)-c(n) mod 2^48 with the borrow c: neither the unrolled loops nor the circular buffer nor the number of draws before matters. Every number is in [0,1), and the state always consists of 48-bit words. Seed 0 is seed 1, and the seeds s and 2^32-s give the same numbers.", "quantifier": "all seeds and all numbers of draws", "why_tests_cant": "Invariant over unbounded histories.", "anchors": ["pmesh/gsl/ranlxd.c"]}
{"id": "C53", "title": "The invariant index is an injective, shell-ordered enumeration", "statement": "On any mesh (even, odd, not cubic) two different modes of the field (each axis from -(N//2) to (N-1)//2, the compressed axis from 0 to N//2) get different non-negative indices. The index of a mode with -N/2 < x <= N/2 on every axis does not depend on Nmesh. A mode closer to zero in the maximum norm has the smaller index, and the modes of the cube |x_d| <= s have exactly the indices below the number of these modes. On a cubic mesh of even size the indices of all modes are exactly 0 to the number of modes minus one. A mode outside of the mesh or in the half that is not stored gets -1. (On a mesh of odd size the mode -(N+1)/2, which is outside, gets the index of (N-1)/2.)", "quantifier": "all dimensions below 32, all mesh sizes, all modes", "why_tests_cant": "Quantifies over all modes; tests enumerate one mesh.", "anchors": ["pmesh/_invariant_imp.c:pmesh_get_invariant_index", "pmesh/invariant.py:get_index"]}
{"id": "C54", "title": "maxlength truncates the invariant index", "statement": "With maxlength=M >= 1, a mode whose index is below M keeps its index and every other mode gets -1. (M = 0 lets the zero mode through; a negative M is no limit.)", "quantifier": "all M >= 1, all modes, mesh sizes and dimensions below 32", "why_tests_cant": "Early-exit paths.", "anchors": ["pmesh/_invariant_imp.c:pmesh_get_invariant_index"]}
{"id": "C55", "title": "Rotator serialises ranks and terminates", "statement": "Ranks that execute the same number of `with Rotator(comm)` blocks all return, whatever the schedule; at every moment the operations of the bodies done so far are a prefix of the serial order (block by block, rank by rank, in program order), and all of it at the end. So one rank at a time, in rank order.", "quantifier": "all communicator sizes, all schedules", "why_tests_cant": "Schedules.", "anchors": ["pmesh/tools.py:Rotator"]}
{"id": "C56", "title": "Co-array sync delivers pulls and pushes", "statement": "If no rank s pushes to d while d pulls from s, sync returns on every rank, whatever the schedule and whether or not MPI buffers messages. As soon as it has returned on a rank, the array of that rank holds the values pushed to it, in the order of the sending ranks and of their calls, and then every pull: the requested slice of the source rank's array as it was before the sync. Operations for images not synced are kept. The condition is needed: otherwise the values of the pull and the push are swapped, and two ranks that both pull and push deadlock without buffering.", "quantifier": "all sets of pulls and pushes, ranks, arrays and message schedules consistent with MPI ordering", "why_tests_cant": "Message orders cannot be enumerated by tests.", "anchors": ["pmesh/coarray.py"]}
{"id": "C57", "title": "Painting commutes with rolling the mesh", "statement": "On a full periodic mesh, if all particles move by whole cells (through their positions or through the transform) what is painted is the rolled mesh, and reading the rolled field at the moved positions returns the same values.", "quantifier": "all windows, supports, smoothing lengths, differentiations, shifts (also many times around), dimensions", "why_tests_cant": "Quantifies over all integer shifts and positions.", "anchors": ["pmesh/_window_generics.h", "pmesh/_window_imp.c:_fill_k", "pmesh/window.py:Affine.shift"]}
{"id": "C58", "title": "Downsampling is a conserving paint of the cells", "statement": "ParticleMesh.downsample on any number of ranks gives the mesh that one process gets by painting every cell of the whole source mesh with its value as mass; the total is conserved, or with keep_mean and equal volumes the mean.", "quantifier": "all meshes, partitions, default windows with room", "why_tests_cant": "Quantifies over all partitions of both meshes.", "anchors": ["pmesh/pm.py:ParticleMesh.downsample"]}
{"id": "C59", "title": "Complex cdot is the real inner product divided by the number of cells", "statement": "The real part of a.cdot(b) of two complex fields is a.c2r().cdot(b.c2r()) / Nmesh.prod(), as documented, if the last axis is even and b satisfies the reality condition.", "quantifier": "all meshes with an even last axis, fields and partitions", "why_tests_cant": "The documented identity combines the transform, the Hermitian weights and two reductions; tests compare a few random fields to rounding.", "anchors": ["pmesh/pm.py:BaseComplexField.cdot", "pmesh/pm.py:RealField.cdot", "pmesh/pm.py:BaseComplexField.c2r"]}
{"id": "C60", "title": "Sampling the amplitude always ends", "statement": "The loop of SAMPLE that draws again while the amplitude is zero ends after at most 36 numbers, from every seed and after any number of draws; the amplitude it returns is in (0,1), so that its logarithm is finite, and the phase is in [0,2 pi).", "quantifier": "all seeds, all numbers of draws", "why_tests_cant": "Depends on no reachable state of the generator being all zeros.", "anchors": ["pmesh/_whitenoise_generics.h:SAMPLE", "pmesh/gsl/ranlxd.c"]}
{"id": "C61", "title": "Unitary noise has modulus one, and the mean is set", "statement": "With unitary=True every mode but the zero mode has modulus one, self-conjugate modes included; with or without it the zero mode is `mean`, if every axis has at least two cells (on a mesh with an axis of one cell the mean is silently not set).", "quantifier": "all seeds, generators, mesh shapes, decompositions", "why_tests_cant": "Quantifies over all seeds and shapes; the self-conjugate modes are special cases.", "anchors": ["pmesh/_whitenoise_generics.h:_generic_fill", "pmesh/pm.py:generate_whitenoise"]}
{"id": "C62", "title": "The bit count of the invariant index is right for every word", "statement": "get_nbits returns the number of set bits of every 32-bit word.", "quantifier": "all 32-bit words", "why_tests_cant": "2^32 inputs; the carries of the parallel sums depend on all bits.", "anchors": ["pmesh/_invariant_imp.c:get_nbits"]}
{"id": "C63", "title": "apply transforms every cell with its own coordinates, in any memory order", "statement": "Field.apply(func, kind, out) stores func(coordinates of the cell, value of the cell) in every element of the output and touches no other memory, whichever axis has the longest stride, in place or into an array that does not overlap. The coordinates are those of the cell in the whole mesh: for a RealField 'relative' gives the signed distance i*BoxSize/Nmesh and 'index' the integer index; for complex fields 'wavenumber' gives i*2pi/BoxSize, 'circular' i*2pi/Nmesh and 'index' the index. Kinds of the other sort of field are refused with AssertionError before anything is written; 'absolute' means the same as 'relative'. Fields have at least two axes.", "quantifier": "all shapes of two or more axes, all strides and tie-breakings of the sort, all blocks, kinds, element functions, memory contents, output arrays that are the field or apart from it", "why_tests_cant": "Slab iteration permutes axes by stride and broadcasts one coordinate array per axis; a test sees one memory layout of pfft per run.", "anchors": ["pmesh/pm.py:Field.apply", "pmesh/pm.py:slabiter", "pmesh/pm.py:xslabiter", "pmesh/pm.py:RealField.apply", "pmesh/pm.py:BaseComplexField.apply"]}
{"id": "C64", "title": "csum and cmean do not depend on the decomposition or the memory order", "statement": "csum returns on every rank the sum of the whole field, cmean this sum divided by the number of elements, for every partition of the mesh over ranks and every order of the axes in memory; the mean of a real field is the zero mode of its r2c.", "quantifier": "all shapes, all partitions (ranks may be empty), all strides, all values in a commutative ring", "why_tests_cant": "The order of the sums depends on the strides and the ranks; tests compare a few process counts.", "anchors": ["pmesh/pm.py:Field.csum", "pmesh/pm.py:Field.cmean"]}
{"id": "C65", "title": "preview returns the projection of the whole field on every rank", "statement": "preview(axes=...) of a real field without resampling returns on every rank an array whose sizes are those of the listed axes, in the listed order, each element being the sum of the global field over the axes left out; this holds for every list of distinct axes that leaves at least one axis out, and for the full list in the original order. The condition is needed: a full list in another order is not transposed (wrong values, or ValueError when the sizes differ).", "quantifier": "all shapes, partitions, lists of distinct non-negative axes, values in a commutative ring", "why_tests_cant": "Projection depends on axes, their order and the blocks of all ranks.", "anchors": ["pmesh/pm.py:Field.preview"]}
{"id": "C66", "title": "ctranspose moves every value to the transposed cell, for every decomposition", "statement": "RealField.ctranspose(axes) for any permutation axes of the axes returns a field on the mesh of sizes Nmesh[axes] and BoxSize[axes]: its cell with coordinates c[axes] holds exactly the value of the source cell c, for every partition of both meshes over the ranks. Negative axes count from the end, except that the last axis must be written as a non-negative number: otherwise AssertionError on all ranks. That the axes are a permutation is needed: the check of the axes also lets [1, -1] pass on a two-dimensional mesh, and then several values are added up in one cell.", "quantifier": "all dimensions, mesh sizes, nonzero box sizes, partitions of source and destination, permutations, field values; destination memory of any content", "why_tests_cant": "ctranspose reads out, moves and paints particles: rounding at cell edges, ghosts and ownership decide where a value lands; tests compare one mesh.", "anchors": ["pmesh/pm.py:RealField.ctranspose"]}
{"id": "C67", "title": "cdot_vjp is the gradient of cdot, once decompress_vjp has weighed the modes", "statement": "For Hermitian fields and an even metric, v * cdot(self, other).real equals the real inner product of cdot_vjp(v) with other over all modes of the uncompressed mesh; consequently decompress_vjp of cdot_vjp(v) is the gradient: changing a stored mode of other by d (its mirror by conj d, d real on self-conjugate modes) changes v * cdot.real by Re(conj(gradient at the mode) * d), on every decomposition. ", "quantifier": "all mesh sizes with an even last axis, compressed or not, partitions, fields, metrics, stored modes and changes d, values in a commutative ring", "why_tests_cant": "The compressed half counts twice except on the two self-conjugate planes; numerical gradient tests probe a few modes.", "anchors": ["pmesh/pm.py:BaseComplexField.cdot_vjp", "pmesh/pm.py:BaseComplexField.decompress_vjp", "pmesh/pm.py:BaseComplexField.cdot"]}
{"id": "C68", "title": "Transforms, copies and casts are right whatever memory their fields share", "statement": "For every program made of create, create(base=f._base), copy, r2c, c2r and cast, with out=None, out=Ellipsis or any earlier field, on real and transposed or untransposed complex fields that may share buffers: no transform plan is ever run on buffers it was not made for (in place versus out of place), the only exceptions are those for operands of the wrong type, and after each statement the buffer of the result holds exactly the transform (or copy) of what the operand held before, while every other buffer holds what it held before. In particular an out-of-place r2c or c2r leaves its operand intact, and casting there and back returns the field.", "quantifier": "all programs of any length, all sharing patterns, padded and unpadded meshes, all decompositions, initial memories and everything pfft may leave in padding and destroyed inputs", "why_tests_cant": "in-place transforms destroy their operand, padding overlaps, and plans must match the aliasing; tests try a few pairs of fields.", "anchors": ["pmesh/pm.py:Field.__init__", "pmesh/pm.py:Field.cast", "pmesh/pm.py:RealField.r2c", "pmesh/pm.py:BaseComplexField.c2r", "pmesh/pm.py:ParticleMesh.create", "pmesh/pm.py:is_inplace"]}
{"id": "C69", "title": "resample copies the modes both meshes resolve into any real or transposed output, and touches no other memory", "statement": "self.resample(out) for self of any type and out real or transposed complex on any mesh: afterwards out has, below both Nyquist frequencies, the modes of self and zero elsewhere (for a real out, it is the field of these modes), and no existing buffer but that of out has changed; self and out may share a buffer if they have the same type or differ in Nmesh. The conditions are needed: an untransposed out receives its modes in the transposed order, and sharing a buffer between different types on equal Nmesh destroys self before it is read.", "quantifier": "all meshes, decompositions and buffers of self and out, all three types of self, all Hermitian mode values, all initial memories", "why_tests_cant": "resample casts, reorders and masks through views of shared memory; tests resample separate real fields only.", "anchors": ["pmesh/pm.py:Field.resample", "pmesh/pm.py:Field.cast"]}
{"id": "C70", "title": "Rounding never makes decompose lose a particle or the ghosts it needs", "statement": "With any monotone rounding of every operation (in particular IEEE doubles), if the box size in cells is exactly representable: GridND.decompose on a periodic grid returns a well-formed layout on every rank, each particle is sent at least to the rank that owns the domain of its rounded remainder (a remainder rounded up to the box size counting as domain 0), and every domain closer to the particle than the smoothing length minus three rounding errors receives it, provided one domain plus smoothing plus two errors fits in the box.", "quantifier": "all monotone roundings that keep zero and the box size, all grids, assignments, smoothings, numbers of ranks and positions on any side of the box; for doubles the error is 2^(k-52) on axes of up to 2^k cells", "why_tests_cant": "the failures would sit at positions within an ulp of a domain edge or of the box, or far outside the box.", "anchors": ["pmesh/domain.py:GridND.decompose", "pmesh/domain.py:GridND._digitize", "pmesh/_domain.pyx:gridnd_fill"]}
{"id": "C71", "title": "In floating point a position is primary on exactly one rank unless its remainder rounds up to the box size", "statement": "With any monotone rounding: if no coordinate of remainder(pos, BoxSize) is rounded up to the box size (always true for coordinates that are not negative), isprimary is true on exactly one rank, the owner of the domain of the remainder, and load counts the particle in that domain. If one is, isprimary is false on every rank and load raises ValueError, while decompose still delivers the particle. With doubles the second case occurs: -2^-60 in a box of 8.", "quantifier": "all monotone roundings that keep zero and the box size, all periodic grids, assignments, ranks and positions", "why_tests_cant": "positions just below zero by less than half an ulp of the box size; random tests never hit them.", "anchors": ["pmesh/domain.py:GridND.isprimary", "pmesh/domain.py:GridND.load", "pmesh/domain.py:GridND._digitize"]}
{"id": "C72", "title": "In doubles the nearest window puts every particle into one cell of one rank, the same cell on any number of ranks", "statement": "With every operation of decompose and of the nearest (NNB) window rounded as IEEE doubles, for positions whose scaled coordinates lie in [0, 2^31] cells: decompose with the default smoothing sends each particle to the rank whose block has its cell, exactly one block of the mesh accepts the particle, and the global cell is the one found when the mesh is not divided, bit for bit. For negative coordinates this fails: at -1/2-2^-53 on two ranks no rank paints the particle, while one rank does.", "quantifier": "all meshes up to 2^31 cells per axis, all integer edges including empty blocks, all scales and positions in the box or beyond its upper side, all numbers of dimensions and ranks", "why_tests_cant": "each rank subtracts its own offset before rounding to the nearest cell; disagreements between ranks occur only within an ulp of the middle between two cells.", "anchors": ["pmesh/_window_tuned_nnb.h", "pmesh/pm.py:ParticleMesh.decompose", "pmesh/pm.py:ParticleMesh.paint", "pmesh/domain.py:GridND.decompose"]}
{"id": "C73", "title": "get_fwindow is the Fourier transform of the weights the window paints with", "statement": "For the windows nearest, linear, quadratic, cubic and their tuned versions, at any support they are resized to, get_fwindow(w) is the Fourier integral of the weight function that paint and readout use: the cosine integral of the weights over their support equals get_fwindow(w) exactly when the argument is not tiny (|w/vfactor| >= 2e-5) and within 1e-30 otherwise, the sine integral is zero and the weights vanish outside the support. The tabulated windows (lanczos, wavelets, acg) return 1.", "quantifier": "all real frequencies, all windows and supports; real arithmetic", "why_tests_cant": "a test compares get_fwindow at some frequencies with a numerical transform, within a tolerance that hides a wrong order or a wrong scaling with the support.", "anchors": ["pmesh/_window_imp.c:pmesh_painter_get_fwindow", "pmesh/window.py:ResampleWindow.get_fwindow"]}
{"id": "C74", "title": "get_compensation divides by no zero and changes a mode by a bounded factor", "statement": "For the windows with a transform and circular frequencies between -pi and pi, at the native support get_fwindow is in [(2/pi)^p, 1], p the order of the window; hence get_compensation multiplied by the product of the transforms gives the mode back, never lowers a mode and raises it by at most (pi/2)^(p n) in n dimensions. The same holds at any support as long as |w/vfactor| <= pi. The condition is needed: at twice the native support the transform vanishes at the Nyquist frequency, where get_compensation divides by zero.", "quantifier": "all frequencies of all meshes in any number of dimensions, all complex amplitudes (real and imaginary part), all windows with a transform; real arithmetic", "why_tests_cant": "whether a denominator can vanish on some mode of some mesh is a statement about all frequencies.", "anchors": ["pmesh/window.py:ResampleWindow.get_compensation", "pmesh/_window_imp.c:pmesh_painter_get_fwindow"]}
{"id": "C75", "title": "A layout made with extra smoothing serves particles that have moved since", "statement": "Decompose at one set of positions, with a smoothing that may differ from rank to rank, then paint or readout with the same layout at moved positions: the result is exactly that of a single process with the whole mesh, provided half of the window plus the displacement of each particle (in mesh units, every axis) stays within the smoothing its rank passed, and the smoothing has room in the domain. The condition is needed: a particle that moved further than the smoothing is read wrong, silently.", "quantifier": "all meshes, decompositions, numbers of ranks, positions before and after, smoothings (a different one on each rank), windows, gradients, hsml, masses, hold", "why_tests_cant": "that no rank is missing from the layout for any displacement within the slack is a statement about all positions and all decompositions; a missed contribution is silent.", "anchors": ["pmesh/pm.py:ParticleMesh.decompose", "pmesh/pm.py:ParticleMesh.paint", "pmesh/pm.py:RealField.readout", "pmesh/lic.py:lic"]}
{"id": "C76", "title": "The line integral convolution does not depend on the decomposition", "statement": "lic(vectors, kernel, length, ds, ...) stores in every cell the texture there plus ds times the sum, over the steps of both halves of the line through the cell, of the kernel times the texture half a step further, with vectors and texture read from the whole mesh; on any number of ranks and for any decomposition, with or without normalization. This holds when BoxSize is at least Nmesh on every axis, when every rank has a cell in which some component of the (normalized) vectors is as large as anywhere, and when the smoothing has room in the domain. Both conditions are needed: the maximum is taken over the rank's own cells and the smoothing is in cells while the steps are in units of the box, and otherwise values of other ranks are missed silently. A rank without cells fails with ValueError and the others wait for it.", "quantifier": "all meshes, decompositions, numbers of ranks, vector fields, textures, kernels, lengths, step sizes, windows", "why_tests_cant": "that every line finds all mesh values it needs at every step is a statement about all vector fields and all decompositions; a missed rank contributes zero silently.", "anchors": ["pmesh/lic.py:lic", "pmesh/pm.py:ParticleMesh.decompose", "pmesh/pm.py:RealField.readout", "pmesh/pm.py:ParticleMesh.generate_uniform_particle_grid"]}
{"id": "C77", "title": "The deprecated cic painters do the same as the cic window", "statement": "pmesh.cic.paint and readout, in the numpy version and in the numba version that replaces it when numba is there, in mode 'ignore' paint and read the same as the cic (or linear) window in mesh units with the same period: for every mesh, any positions, weights, positive period or none, transform, and wherever the chunks of particles begin. In mode 'raise' both raise ValueError exactly when some particle has one of its 2^ndim wrapped neighbours outside of the mesh, even if that neighbour has weight zero; otherwise they do the same as 'ignore'. The numba version only paints to C contiguous meshes; any other is silently left unchanged. A period of zero is treated differently by the two versions.", "quantifier": "all shapes, strides, positions, weights, periods, chunk sizes, transforms, window kinds cic and linear", "why_tests_cant": "the agreement of three implementations with different ways to enumerate neighbours and accumulate repeated targets is over all dimensions and particle sets; a non contiguous mesh fails silently.", "anchors": ["pmesh/cic.py:paint", "pmesh/cic.py:readout", "pmesh/_cic.py:driver", "pmesh/_cic.py:paint_some", "pmesh/_cic.py:readout_some", "pmesh/window.py:ResampleWindow.paint"]}
{"id": "C78", "title": "The deprecated tsc painter is the tsc window moved down one cell", "statement": "pmesh.tsc.paint in mode 'ignore' on a C contiguous mesh paints what the tsc (or quadratic) window paints with every position moved down by one mesh cell, for all shapes, positions, weights, chunk sizes, and one positive period or none. The nearest mesh point it uses rounds halves to even, which does not matter because the window is continuous. In mode 'raise' it raises ValueError exactly when one of the three points rint(x)-2 .. rint(x), wrapped, is outside the mesh on some axis, otherwise it does the same as 'ignore'. A mesh that is not C contiguous is refused with ValueError and stays as it was. Without the displacement the claim is false: a particle on a mesh point is painted around the point below.", "quantifier": "all shapes, strides, positions, weights, periods, chunk sizes, transforms, window kinds tsc and quadratic", "why_tests_cant": "the equality is over all real positions including ties of the rounding and over wrapped targets; a test on a random cloud sees only the density, where a displacement by one cell does not show.", "anchors": ["pmesh/tsc.py:paint", "pmesh/tsc.py:driver", "pmesh/tsc.py:paint_some", "pmesh/window.py:ResampleWindow.paint"]}
{"id": "C79", "title": "The deprecated ParticleMesh paints and reads the same on any number of ranks", "statement": "With pmesh.particlemesh.ParticleMesh and the cic brush (numpy or numba), decomposing the particles, exchanging positions and masses and painting gives every rank its part of what a single process paints with the cic window to the whole mesh with masses times Nmesh^3/prod(BoxSize), added to what was there; reading out and summing the copies gives what a single process reads from the whole mesh. It holds for every partition of an Nmesh^3 mesh into blocks owned in C order whose blocks leave room for the smoothing of one cell. The dimensionless frequency of index i in w is congruent to i and within [-Nmesh/2, Nmesh/2) if Nmesh is even. The tsc brush does not have the first property: the smoothing of one cell is too small for it and mass is lost; and with odd Nmesh the largest positive frequency is taken for a negative one out of range.", "quantifier": "all Nmesh, box sizes, partitions, numbers of ranks, particles, masses, chunk sizes, initial meshes", "why_tests_cant": "the equality to a single process is over all partitions and particles; the tests of the deprecated module run on one or few ranks with an even mesh.", "anchors": ["pmesh/particlemesh.py:ParticleMesh.__init__", "pmesh/particlemesh.py:ParticleMesh.transform", "pmesh/particlemesh.py:ParticleMesh.transform0", "pmesh/particlemesh.py:ParticleMesh.decompose", "pmesh/particlemesh.py:ParticleMesh.paint", "pmesh/particlemesh.py:ParticleMesh.readout"]}
{"id": "C80", "title": "The transfer functions of the deprecated ParticleMesh do what they say on any number of ranks", "statement": "However the modes of the complex field are spread over the ranks: RemoveDC zeroes the zero mode and changes no other; NormalizeDC divides every mode by the absolute value of the zero mode, which then has absolute value one; Poisson gives, for even Nmesh, the field phi with phi_0 = 0 and -w^2 phi_k = field_k for all other modes; Gaussian(s) multiplies by exp(-s^2 w^2/2); SuperLanzcos(dir) multiplies by i T(w_dir) with |T(w) - w| <= |w|^5/30 and T odd including the Nyquist frequency, so a real field stays one; Trilinear divides by the Fourier transform of the linear window; Constant(C) multiplies by C. A chain given to transfer composes them. It does not hold that Laplace multiplies by -w^2: it uses the last row's frequencies for all rows, gives a value that is not finite at the zero mode and fails on a rank without rows; Trilinear cannot be used in transfer, which calls it with too few arguments; and with odd Nmesh Poisson uses a wrong frequency.", "quantifier": "all mesh sizes of at least two, distributions of the modes over ranks, fields, directions and smoothing scales", "why_tests_cant": "the values are over all fields, mesh sizes and distributions; the bound of the derivative kernel is over all real frequencies; the module has no test of these functions on several ranks.", "anchors": ["pmesh/transfer.py:TransferFunction.NormalizeDC", "pmesh/transfer.py:TransferFunction.RemoveDC", "pmesh/transfer.py:TransferFunction.Trilinear", "pmesh/transfer.py:TransferFunction.SuperLanzcos", "pmesh/transfer.py:TransferFunction.Gaussian", "pmesh/transfer.py:TransferFunction.Laplace", "pmesh/transfer.py:TransferFunction.Poisson", "pmesh/particlemesh.py:ParticleMesh.transfer"]}
{"id": "C81", "title": "paint_jvp and readout_jvp are the derivatives of paint and readout, on any number of ranks", "statement": "Displace every particle by eps v_pos and change every mass by eps v_mass (or every field value by eps v_self). With a quadratic or cubic window, paint then changes every cell of every rank by eps times what paint_jvp gives, and readout changes every particle's value by eps times what readout_jvp gives, up to an error of at most C eps^2 with one C for all eps, of either sign and any size, and with or without a layout. This also holds if each of the two calls uses the layout that decompose returns for its own positions: the derivative is the same although the displaced particles may be sent to other ranks. The same holds for cic, generic or tuned, as long as no particle starts on a cell border or leaves its cell. It does not hold for the tuned pcs window unless the mesh spacing is one: its gradient lacks the factor.", "quantifier": "all numbers of ranks, layouts, transforms, meshes and dimensions, particles, masses, fields and displacements", "why_tests_cant": "the claim is a limit over all displacements; finite-difference tests compare a few values within a tolerance, on one process with one window.", "anchors": ["pmesh/pm.py:ParticleMesh.paint_jvp", "pmesh/pm.py:RealField.readout_jvp", "pmesh/pm.py:ParticleMesh.paint", "pmesh/pm.py:RealField.readout"]}
{"id": "C82", "title": "The statements of ParticleMeshEngine come with the right Jacobian products", "statement": "For the statements add, multiply, residual, assign, to_scalar and assign_component of abopt.ParticleMeshEngine on real data of any size spread over any number of ranks, the product the engine registers for tangents is the derivative of the statement, and the product for cotangents is its transpose with respect to the inner product over all ranks; the exceptions are assign_component, whose cotangent is right only if the component that is overwritten has no tangent, and multiply on complex fields, where the complex conjugate is missing. addmul(a, b, c, p) is a + c^p b for a number c, on complex fields too, while a complex field c multiplies real parts by real parts and imaginary parts by imaginary parts; dot refuses arrays of other lengths with AssertionError and is the inner product for vectors but not for the (N, ndim) arrays the engine works with: there it raises ValueError or gives a matrix. transfer is linear with its jvp as derivative, its vjp is its adjoint under ComplexField.cdot for every mesh and partition, and it keeps the reality condition if the transfer function does on the modes with an index N/2 that are not their own opposite; nyquist_mask alone does not do that. lowpass is a self-adjoint projection on the modes within Neff // 2 of zero, but both its products return their argument unchanged, and in double precision modes on the limit may be removed.", "quantifier": "all numbers of ranks, sizes, values, tangents and cotangents, transfer functions, even meshes, partitions and Neff", "why_tests_cant": "transposes and derivatives are claims over all pairs of vectors; check_grad compares a finite difference for a few modes within a tolerance and on one process, and no test covers lowpass's products, an N/2 mode that is not its own opposite, or dot on arrays.", "anchors": ["pmesh/abopt.py:nyquist_mask", "pmesh/abopt.py:ParticleMeshVectorSpace", "pmesh/abopt.py:ParticleMeshEngine"]}
{"id": "C83", "title": "The engine's paint gives 1 + delta, and its products are those of the painted mesh", "statement": "ParticleMeshEngine.decompose followed by ParticleMeshEngine.paint leaves a mesh whose cells, summed over all ranks, add up to the number of cells, whatever the number and distribution of the particles (at least one). The derivative of decompose followed by paint, with respect to the positions, is the number of cells over the number of particles times what paint's jvp returns, even if particles move to other ranks, so that the zero product of decompose is right; paint's vjp is the adjoint of that derivative. paint's jvp itself lacks the factor: it is the derivative if there is one particle per cell, as in the engine's own grid, and is wrong otherwise. readout's jvp is the derivative of readout with respect to mesh and positions, and its vjp the adjoint.", "quantifier": "all meshes, partitions with room for the window, numbers of ranks and particles, positions, tangents and cotangents, with quadratic or cubic windows, or cic if no particle leaves its cell", "why_tests_cant": "the mean and the derivative are claims over all particle sets; check_grad uses the default grid of one particle per cell, where the missing factor is one.", "anchors": ["pmesh/abopt.py:ParticleMeshEngine.paint", "pmesh/abopt.py:ParticleMeshEngine.readout", "pmesh/abopt.py:ParticleMeshEngine.decompose"]}
{"id": "C84", "title": "The painter for any kernel adds the normalised kernel product, and conserves mass only in one dimension or with integral one", "statement": "pmesh.lanczos.paint with any window adds to every element of the mesh, for each particle, weight / window.integral times the product over the axes of the kernel at those of the 2 support mesh points around the particle that wrap to the element, and changes nothing else, whatever the chunk size. In mode 'raise' it raises ValueError exactly when one of these points is outside of the mesh and otherwise does the same as mode 'ignore'. With window=linear it does the same as the painter of cic.py, after an error too. On a periodic mesh linear and cubic conserve mass, linear reproduces linear functions of the position and cubic quadratic ones. A window whose values sum to its integral c paints the mass times c to the power of the number of dimensions less one: the product over the axes is divided by the integral only once. The cubic window is not the one of window.py.", "quantifier": "all kernels (functions on the rationals), supports, mesh shapes, strides and dimensions, positions, weights, periods, transforms, chunk sizes", "why_tests_cant": "the deposit is a sum over all particles and the base 2*support digits of a counter in any dimension; the module has no tests beyond one call on import, with a window and one particle whose result is dropped.", "anchors": ["pmesh/lanczos.py:paint", "pmesh/lanczos.py:linear", "pmesh/lanczos.py:cubic"]}
{"id": "C85", "title": "Arithmetic on fields is the arithmetic of their elements, in a new field, on all ranks", "statement": "An operator or numpy function with one result applied to fields of one type and mesh and to numbers returns on every rank the same new field of this type and mesh; each element is the function of the elements of the operands at the same cell or mode, whatever memory the operands share, and nothing but the memory of the new field changes. A real field keeps the real part of the result. A comparison returns a boolean array of the local part on each rank. With an output of the same type, which may be an operand (a += b) or share its memory, the output and the returned new field both hold the result and nothing else changes; complex numbers into a real output, and operands that are neither field, number nor array, raise TypeError on every rank and change nothing. This extends to programs that mix arithmetic with transforms, copies, casts and shared views. An array whose local shape does not fit raises ValueError on its rank. After a += b the name is bound to a new field, so a further a += b is not seen through other names; a real field times an imaginary number silently loses the imaginary part; fields of different type are combined without error when local shapes agree; with an array operand one rank may get a field and another an array.", "quantifier": "all functions of any number of arguments, fields of all types, meshes and divisions over ranks, contents of the memory, programs of any length", "why_tests_cant": "tests apply a few operators to one field on one or two ranks; the claim is about every element on every rank, every function and every way in which operands and output share memory.", "anchors": ["pmesh/pm.py:Field.__array_ufunc__", "pmesh/pm.py:ParticleMesh.create", "pmesh/pm.py:NDArrayLike"]}
{"id": "C86", "title": "The deprecated ParticleMesh computes every force from the same density, if modes are pushed and popped", "statement": "From a new particlemesh.ParticleMesh, after any number of paint calls and r2c, the sequence push, c2r(chain), readout, pop for any list of chains of transfer functions gives for every chain the inverse transform of the chain applied to the modes of the sum of what was painted; afterwards these modes are still in place and the stack is empty. Without transfer functions c2r after r2c gives the painted canvas back, the zero mode is the mean of the canvas, and dividing the modes by it gives a canvas of mean one. Any sequence of clear, paint, r2c, transfer, c2r, push, pop and readout raises only when pop finds an empty stack, and readouts are as specified as long as cells are used as cells and modes as modes. Cells and modes share one buffer: a second c2r without push and pop, or painting on after r2c, silently gives something else.", "quantifier": "all sequences of calls of any length, lists of chains of transfer functions, painted fields, meshes and divisions over ranks, contents of memory that pfft leaves undefined", "why_tests_cant": "the tests run one fixed sequence; the claim is about all sequences, stack depths and contents of the shared buffer.", "anchors": ["pmesh/particlemesh.py:ParticleMesh.r2c", "pmesh/particlemesh.py:ParticleMesh.c2r", "pmesh/particlemesh.py:ParticleMesh.push", "pmesh/particlemesh.py:ParticleMesh.pop", "pmesh/particlemesh.py:ParticleMesh.transfer", "pmesh/particlemesh.py:ParticleMesh.clear"]}
{"id": "C87", "title": "Particle mesh forces add up to zero, and the integrators of the n-body example keep the total momentum", "statement": "force() of examples/nbody.py paints the particles with a layout of decompose, takes r2c, applies for each direction a transfer function with purely imaginary values, c2r, and reads back at the particles with the same window and the same layout. For any positions the forces of all particles on all ranks add up to zero in each direction, so a particle alone in the box is not accelerated; symp1, symp2 and symp3 leave the total momentum as it was, for any time steps, kick and drift factors, and any rounding of the stored positions. The reason is that readout is the adjoint of paint for every layout, also one without the ghost particles the window needs. Reading with another window, or a transfer function with a real part, breaks it: a single particle then accelerates itself.", "quantifier": "all meshes, numbers and divisions of ranks, windows with a native kernel, positions, displacements, numbers of particles per rank, velocities, time steps of any length, rings with roots of unity and the real numbers", "why_tests_cant": "the example is not run by the tests; a sum of zero at some positions says nothing about all positions, divisions over ranks and sequences of steps.", "anchors": ["examples/nbody.py:force", "examples/nbody.py:symp1", "examples/nbody.py:symp2", "examples/nbody.py:symp3", "pmesh/pm.py:ParticleMesh.paint", "pmesh/pm.py:ParticleMesh.readout", "pmesh/pm.py:RealField.r2c", "pmesh/pm.py:ComplexField.c2r"]}
{"id": "C88", "title": "Which meshes can be made on which numbers of ranks, and what reshape, resize and respawn make", "statement": "pfft cuts an axis of n cells over p processes into blocks of ceil(n/p) cells. With its default process mesh, or any given one with fewer axes than the mesh, ParticleMesh(Nmesh, BoxSize) returns on all ranks a mesh for which the theorems on paint, readout and decompose hold if on every axis all blocks but the last have a cell, that is p = 1 or (p - 2) ceil(n/p) < n; this is so if (p - 1)(p - 2) < 2 n, or if p divides n. In all other cases DomainAssign has an entry that is never written. A one-dimensional mesh on several ranks raises ValueError, as does an unknown dtype, a box of another dimension than the mesh, and a process mesh of another size than the communicator or with more axes than the mesh; a mesh of no dimension without a process mesh raises TypeError. reshape() without arguments returns an equal mesh; reshape keeps process mesh, dtype and window, broadcasts numbers, cuts BoxSize to fewer dimensions, and raises ValueError if the dimensions of box and mesh disagree; reshaping back restores the mesh, as does respawn back to the first communicator.", "quantifier": "all mesh sizes and dimensions, numbers of ranks, process meshes, box sizes, sequences reshape and back", "why_tests_cant": "whether domains are left without a rank depends on arithmetic of n and p that the few sizes and ranks of a test run do not reach: 9 rows on 7 ranks fail, 16 rows do not.", "anchors": ["pmesh/pm.py:ParticleMesh.__init__", "pmesh/pm.py:ParticleMesh.reshape", "pmesh/pm.py:ParticleMesh.resize", "pmesh/pm.py:ParticleMesh.respawn"]}
{"id": "C89", "title": "The Klein-Gordon example solves a two-step recurrence for every mode, on all ranks, without touching its input", "statement": "kgsolver(steps, u_0, du_0, F) of examples/klein-gordon.py with three or more times returns the real field of the last time of the sequence u_0, u_0 + dt du_0, ... where, for every stored mode, A u_{n+1} + B u_n + A u_{n-1} = F(u_n) with A = 1/dt^2 + (k^2 + 1)/4 and B = -1/dt^2 + (k^2 + 1)/4, dt the difference of the next two times; the buffers that are overwritten in place are never those of u_0, du_0 or of a value still needed. The monitor sees time, step, the field of each time and the difference quotient to the next; at the end it sees a rate of zero. Two times raise NameError (UnboundLocalError), fewer IndexError. This is not the scheme of the documentation, which has 2 B: a field that is constant in time and space and solves equation and documented scheme is not kept.", "quantifier": "all meshes, partitions and numbers of ranks, all initial fields, times, functions F, padded and unpadded plans; the form in terms of fields for even mesh sizes", "why_tests_cant": "the example has no test; a missing factor gives smooth plausible pictures, and an overwritten buffer would only show on plans that destroy their input", "anchors": ["examples/klein-gordon.py:kgsolver"]}
{"id": "C90", "title": "The leapfrog of the n-body example is reversible in time", "statement": "symp2 of examples/nbody.py over any times, with any of the seven classes of kick and drift factors, followed by symp2 over the same times in reverse order returns positions and velocities exactly, for any force that depends on the positions only and in particular for force(), as long as no displacement is rounded when it is stored. symp1 and symp3 do not have this property, nor does symp2 with rounded displacements.", "quantifier": "all forces, numbers of ranks and particles, dimensions, times, initial positions and velocities, growth functions, integrals that change sign with their direction", "why_tests_cant": "a test would compare floating point runs within a tolerance on one set of steps; that kicks and drifts are evaluated at mirrored times and with forces at the right positions is a statement about all of them", "anchors": ["examples/nbody.py:symp2", "examples/nbody.py:FastPM", "examples/nbody.py:Quinn", "examples/nbody.py:TVE", "examples/nbody.py:VTE", "examples/nbody.py:Naive"]}
{"id": "C91", "title": "With the FastPM factors the n-body example follows linear growth exactly, with any number of steps", "statement": "Start from the initial conditions of simulate(), S = DX1 D1(a0) and V = S a0^2 f1(a0) E(a0). If the force on the displacements DX1 D1(a) is that of linear theory, DX1 a^2 E(a) gf(a), at the times that are used, then symp1, symp2 and symp3 with the factors of FastPM end with exactly S = DX1 D1(a) and V = S a^2 f1(a) E(a) at the last time a, whatever the number and the size of the steps. The factors of Quinn do not do this; these, and those of FastPM1 and TVE for velocities and of FastPM2 and VTE for positions, are exact for uniform forces and free particles instead, whatever the steps, which those of FastPM are not.", "quantifier": "all growth functions with Gp = D1, a gp = f1 D1 and Gf = a^3 E gp, times, steps, initial displacements, numbers of ranks and particles; displacements that are stored without rounding", "why_tests_cant": "the purpose of the factors is that few steps are enough; a test on one set of steps within a tolerance cannot tell a factor evaluated at a slightly wrong time", "anchors": ["examples/nbody.py:FastPM", "examples/nbody.py:symp1", "examples/nbody.py:symp2", "examples/nbody.py:symp3", "examples/nbody.py:simulate"]}
{"id": "C92", "title": "In doubles the linear window computes the same weights on any decomposition of the mesh", "statement": "With every operation of decompose and of the linear (CIC) window rounded as IEEE doubles, for positions whose scaled coordinates x lie in [0, 2^31] cells: for every cell of the mesh, the weight that the rank of this cell computes in paint (times the mass) or readout, also with differentiated axes, is the number, bit for bit, that is computed when the mesh is not divided, and if it is not zero decompose with the default smoothing sends the particle to this rank. On an axis the weights are exactly 1 - (x - floor x) and x - floor x for x >= 1. Exceptions: a block that begins at cell 1 and x < 1, where a weight may differ by 2^-53; a differentiated axis, a block that begins at cell 2 and x = 1 - 2^-53, where a third cell is read; a block that has all cells of an axis but one, which may keep a particle from the rank of the last cell.", "quantifier": "all meshes of 2 to 2^31 cells per axis, all integer edges including empty blocks, all scales, masses and positions in the box or beyond its upper side, all numbers of dimensions and ranks, any subset of differentiated axes", "why_tests_cant": "each rank subtracts its own offset and rounds before taking the floor and the weights; disagreements between ranks occur only within an ulp of a cell boundary, or only on small meshes.", "anchors": ["pmesh/_window_tuned_cic.h", "pmesh/_window_generics.h", "pmesh/pm.py:ParticleMesh.decompose", "pmesh/pm.py:ParticleMesh.paint", "pmesh/pm.py:RealField.readout", "pmesh/domain.py:GridND.decompose"]}
{"id": "C93", "title": "The force of the n-body example is the finite difference of the solution of Poisson's equation on the mesh", "statement": "In examples/nbody.py let delta be what force() paints times its factor. There is a potential phi on the mesh whose modes obey k^2 phi_k = - delta_k for every mode with k^2 not zero, k the circular wave number of the signed mode, if all sizes of the mesh are even; and component d of the force read at the particles is 1.5 Om0 times the readout, with the window and layout of the painting, of the mesh field -(8 (phi(x+e) - phi(x-e)) - (phi(x+2e) - phi(x-2e))) / (12 h), e one cell along d with periodic boundaries and h = BoxSize[d] / Nmesh[d]. The second statement holds for any mesh, and any complex field in the place of the transform of delta. The transfer functions never divide by zero: the mode with k^2 = 0 is divided by one. Mode by mode the displacements of dx1_transfer have divergence - delta and no curl. On a mesh of odd size Poisson's equation fails: the highest mode is divided by another k^2.", "quantifier": "all meshes (even sizes for Poisson's equation), boxes, partitions and numbers of ranks, windows with native painters, particle positions and displacements; over any commutative ring with roots of unity, and over the real numbers with the true sine", "why_tests_cant": "tests compare the simulation with linear theory to a few percent; a wrong sign of one term of the stencil, a wrong cell size on a box with unequal sides, or a wrong mode at the edge of the mesh stays below this.", "anchors": ["examples/nbody.py:force", "examples/nbody.py:force_transfer", "examples/nbody.py:pot_transfer", "examples/nbody.py:dx1_transfer", "pmesh/pm.py:BaseComplexField.c2r", "pmesh/pm.py:RealField.r2c"]}
{"id": "C94", "title": "check_grad accepts exactly the gradients within its tolerances, entry by entry", "statement": "abopt.check_grad(code, yname, xname, init, eps, rtol, atol) with rtol >= 0 and atol > 0 compares, for every coordinate of every particle of every rank (or every cell of a RealField), the jvp along that unit vector times 2 eps (J), the difference of the function between the input displaced by +eps and by -eps in that entry alone (D), and 2 eps times the entry of the vjp (A, zero for the marker ZERO). It returns on all ranks if and only if -t <= J - A < t with t = (size J + size A) rtol + atol and the same for D and A with 10000 rtol, where size is the modulus, or the standard deviation of all entries if the entry vanishes; it raises the FG_BG error if and only if the first comparison fails somewhere. Hence exact derivatives of a function with exact difference quotients always pass (the statement to_scalar does, with any point, step and tolerance), and a wrong factor is refused. From rtol = 1e-4 on the comparison with the function itself accepts anything, so a wrong jvp with a matching wrong vjp passes; and with atol = 0 the right gradient of a constant is refused.", "quantifier": "all functions, jvps and gradients, all arrays of particles (numbers of ranks, particles per rank and coordinates) and all real fields on all partitions, steps, tolerances; over the real numbers", "why_tests_cant": "the tests trust check_grad to judge the engine; no test feeds it a wrong derivative, so a check that skips entries, reads the wrong rank or accepts everything would go unnoticed.", "anchors": ["pmesh/abopt.py:check_grad"]}
{"id": "C95", "title": "symp1, symp2 and symp3 converge with order one, two and three", "statement": "Take factors with K(a, b, r) = D(a, b, r) = log b - log a and a force that is lam times the displacement, and let x, u be a motion x' = u, u' = lam x in log a. Started at (x, u) of the first time, the integrators symp1, symp2 and symp3 of the n-body example end, for every list of increasing time steps no longer than H <= 1 in log a, within C H^p of the motion at the last time, with p = 1, 2, 3 and a constant C that depends on lam, the motion, the first time and the length of the time span, and not on the number or the sizes of the steps. The force left behind is the force of the final displacement.", "quantifier": "all lam, all motions, all lists of increasing positive times with steps of at most H <= 1, all H; over the real numbers", "why_tests_cant": "the example is run with one list of steps; a wrong sub-step coefficient (a sign, 2/3 for 3/4) still gives a plausible run and only shows as a lower order of convergence.", "anchors": ["examples/nbody.py:symp1", "examples/nbody.py:symp2", "examples/nbody.py:symp3"]}
{"id": "C96", "title": "The coordinate arrays of a field are its own", "statement": "ParticleMesh.create_coords keeps the arrays it computed and hands out copies, and so do the attributes x and i of a field. After any sequence of requests, creations of fields on several meshes, and writes of anything into any array that was handed out, a request for 'real', 'complex', 'transposedcomplex', 'untransposedcomplex' or the class returns one array per axis with the positions, wave numbers or indices of that mesh and type, in memory that nobody else holds; 'complex' is the transposed type. An array that was handed out changes only by a write into itself, so no field ever shares coordinates with another one. Every other name raises ValueError and every other class TypeError, without any effect.", "quantifier": "all sequences of requests, field creations and writes, all meshes, types, blocks and numbers of axes", "why_tests_cant": "tests look at the coordinates of fresh meshes; a cache that hands out its own arrays only fails after somebody has written into them.", "anchors": ["pmesh/pm.py:ParticleMesh.create_coords", "pmesh/pm.py:_typestr_to_type", "pmesh/pm.py:Field.__init__"]}
{"id": "C97", "title": "What the power spectrum of the deprecated ParticleMesh measures, and where it fails", "statement": "TransferFunction.PowerSpectrum(wout, psout) of the deprecated ParticleMesh, for any field, any even Nmesh, any number of bins and any distribution of the modes with the same number of rows, at least two, on all ranks, and a numpy that accepts its mask (before 1.13): every rank gets the same arrays, and psout[b] is the mean of |complex|^2 over the stored modes whose frequency |w| is in [b pi/nb, (b+1) pi/nb), each mode once, whatever the distribution; bins without modes, and only those, are nan. The rest of what it says is not so: the modes without a partner are not down weighted, so the mean is not that over all modes of the field; wout divides the frequencies of the last row of every rank by the number of all modes and can be below its bin; a rank that has more rows than another one never returns; and from numpy 1.13 on every rank whose rows are not single cells raises before it communicates.", "quantifier": "all fields, even mesh sizes, numbers of bins, ranks and distributions of the modes", "why_tests_cant": "a test compares one spectrum with a tolerance on one rank; the mean over a bin, the dependence on rows and the missing weights are statements about all fields and distributions.", "anchors": ["pmesh/transfer.py:TransferFunction.PowerSpectrum"]}
{"id": "C98", "title": "In doubles the quadratic and cubic windows compute the same weights on any decomposition of the mesh", "statement": "With every operation of decompose and of the tuned quadratic (TSC) and cubic (PCS) windows rounded as IEEE doubles, for positions whose scaled coordinates x lie in [0, 2^31] cells, on axes of at least four cells whose blocks have all cells or leave at least three to the others: for every cell of the mesh, the weight that the rank of this cell computes in paint (times the mass) or readout, also with differentiated axes, is the number, bit for bit, that is computed when the mesh is not divided, provided x >= 1 or the block begins at cell 0; if it is not zero decompose with the default smoothing sends the particle to this rank. The weights of an axis are within 2^-47 of the exact spline and their sum is within 2^-45 of one for x >= 1; differentiated weights are within 2^-47 of the slope of the spline times the scale of the axis (quadratic) or the slope itself (cubic, which omits the scale), relative to the scale. For x < 1 a block that begins at cell a <= 2^k may differ from the undivided mesh by 2^(k-52) + 2^-46 at most. The conditions are needed: weights of the first cell do differ in their last bits; five cells on two ranks with the cubic window keep a particle just below 3 from the rank that has five sixths of its mass; a block of all cells but one loses particles of the quadratic window in exact arithmetic too.", "quantifier": "all meshes of 4 to 2^31 cells per axis, all integer edges including empty blocks, all scales, masses and positions in the box or beyond its upper side, all numbers of dimensions and ranks, any subset of differentiated axes, both windows", "why_tests_cant": "each rank subtracts its own offset and rounds before taking the floor and evaluating polynomials of degree two or three; disagreements occur only within an ulp of a boundary or in the last bits, and a tolerance hides both.", "anchors": ["pmesh/_window_tuned_tsc.h", "pmesh/_window_tuned_pcs.h", "pmesh/_window_generics.h", "pmesh/pm.py:ParticleMesh.decompose", "pmesh/pm.py:ParticleMesh.paint", "pmesh/pm.py:RealField.readout", "pmesh/domain.py:GridND.decompose"]}
{"id": "C99", "title": "The gradient of a misfit through the engine is right for every mode and every cell", "statement": "For the programme decompress, transfer, c2r, residual, to_scalar of ParticleMeshEngine on meshes of any shape and parity, on every decomposition: the field of cotangents the vjps give, from the last statement to the first, is the gradient with respect to the stored modes. Changing the modes by t d, d any field that satisfies the reality condition, changes the misfit by t times the sum of Re(conj(gradient) d) over one mode of each pair of opposite modes, plus a term of order t^2; the jvps give the same slope. The condition is that the masked transfer function is conjugate on opposite modes that are both stored; an even mesh and tf(-k) = conj tf(k), also on the modes with an index N/2, suffice. For the programme r2c, transfer, c2r, residual, to_scalar the cotangents are the gradient with respect to the cells, for every transfer function. Without decompress the cotangents of the modes are half of the gradient where the opposite mode is not stored; with a transfer function that breaks the condition they report a slope where there is none; and the vjp and jvp of decompress are not adjoint for ParticleMeshVectorSpace.dot, which counts pairs of modes by itself.", "quantifier": "all meshes of at least one axis, all decompositions, all data, errors, modes, steps and choices of one mode per pair, over every commutative ring with roots of unity", "why_tests_cant": "check_grad perturbs a few modes of one small mesh; a factor of two on some modes, or a wrong treatment of one plane, changes few of them, and the source asks itself whether the jvp of decompress is right.", "anchors": ["pmesh/abopt.py:ParticleMeshEngine.c2r", "pmesh/abopt.py:ParticleMeshEngine.r2c", "pmesh/abopt.py:ParticleMeshEngine.decompress", "pmesh/abopt.py:ParticleMeshEngine.transfer", "pmesh/abopt.py:ParticleMeshEngine.residual", "pmesh/abopt.py:ParticleMeshEngine.to_scalar", "pmesh/pm.py:BaseComplexField.decompress_vjp", "pmesh/pm.py:RealField.c2r_vjp", "pmesh/pm.py:BaseComplexField.r2c_vjp"]}
{"id": "C100", "title": "Inner products of fields: what is accepted, and what happens when ranks disagree", "statement": "RealField.cdot of two real fields of one ParticleMesh gives every rank the sum of the products over all cells of the mesh, on every decomposition, also if the fields share memory; cnorm is cdot with itself. Any other operand, an array of the right shape or a number included, raises TypeError on all ranks. A real field of another mesh is not refused as such: if the local shapes fit for numpy on all ranks all of them get one number, the same for both orders of the two fields, otherwise the ranks where they do not fit raise ValueError and all others wait for ever. The cdot of a complex field refuses fields of another type on all ranks, and takes a field, a number, or an array on each rank: with an even last axis the real part of the result is that of the inner product of the two over all modes of the mesh, on every rank; other shapes have the same two outcomes as above, with numpy's rule of assignment.", "quantifier": "all meshes, decompositions, fields, operands and local shapes (arrays with at most as many axes as the field), all metrics", "why_tests_cant": "that an array is refused whatever it holds, and that a mismatch on one rank stops the others, are statements about all operands and all ranks; tests call cdot with matching fields.", "anchors": ["pmesh/pm.py:Field._check_compatible", "pmesh/pm.py:RealField.cdot", "pmesh/pm.py:RealField.cnorm", "pmesh/pm.py:BaseComplexField.cdot", "pmesh/pm.py:ParticleMesh.create"]}
{"id": "C101", "title": "GridND without periodic boundaries in rounded arithmetic", "statement": "With any monotone rounding of every operation (in particular IEEE doubles), on a grid that is not periodic, for positions anywhere: decompose returns a well-formed layout on every rank. A particle is sent to a rank exactly if the rank owns a domain, and is not flagged as degenerate, whose lower edge is at most the rounded x + smoothing and whose upper edge exceeds the rounded x - smoothing on every axis. Hence every domain within the smoothing length minus one rounding error receives the particle, no rank does that has no domain within the smoothing length plus one rounding error (a particle far outside goes nowhere), and a particle whose coordinates are doubles always reaches the rank that owns its domain. isprimary and load involve no rounding at all. The margin is needed: a particle at an edge with a smoothing below the spacing of doubles is not sent to the domain below the edge.", "quantifier": "all non-periodic grids, numbers of ranks, positions, smoothing lengths and monotone roundings; doubles for coordinates up to 2^k with an error of 2^(k-53)", "why_tests_cant": "off by one cases at rounded edges are of measure zero for random positions; the periodic branch, which tests use, computes something else.", "anchors": ["pmesh/domain.py:GridND.decompose", "pmesh/domain.py:GridND.isprimary", "pmesh/domain.py:GridND.load", "pmesh/_domain.pyx:gridnd_fill"]}
{"id": "C102", "title": "The n-body example converges to the equations of motion under any Lipschitz force, with all its kick and drift factors", "statement": "Each of the seven classes of factors of examples/nbody.py (FastPM, FastPM1, FastPM2, Quinn, TVE, VTE, Naive) has kicks K(ai, af, ar) = (af - ai)/(a^2 E(a)) and drifts D(ai, af, ar) = (af - ai)/(a^3 E(a)) up to a relative error that vanishes, uniformly on every interval of positive times, as the three times approach a. Hence, for any force on all components of all particles that is Lipschitz, and any motion with dS/da = V/(a^3 E), dV/da = F(S)/(a^2 E), symp1, symp2 and symp3 with any of the classes, started on the motion, end as near to the motion at the last time as wished if all steps are short enough, whatever their number and their sizes; the force left behind is that of the final displacement.", "quantifier": "all continuous E > 0, all growth functions whose derivatives gf, gp are continuous and not zero, all numbers of components, Lipschitz forces, motions, intervals of time and lists of times; exact arithmetic and integrals", "why_tests_cant": "a factor with a wrong power of a, or a kick evaluated over the wrong part of a step, still gives a plausible run; convergence is a statement about a limit over all lists of steps.", "anchors": ["examples/nbody.py:FastPM", "examples/nbody.py:FastPM1", "examples/nbody.py:FastPM2", "examples/nbody.py:Quinn", "examples/nbody.py:TVE", "examples/nbody.py:VTE", "examples/nbody.py:Naive", "examples/nbody.py:symp1", "examples/nbody.py:symp2", "examples/nbody.py:symp3"]}
{"id": "C103", "title": "decompose with the integers it stores: what fits, and what is lost beyond", "statement": "The code keeps ranges of domains in 16 bits and patch sizes, strides, counts, offsets and indices in 32 bits, without checks. With at most 16384 domains along every axis, 2^ndim times the number of domains below 2^31, and fewer than 2^31 particles on the rank, decompose gives the counts and indices that unbounded integers would give if the copies to send number fewer than 2^31, and raises ValueError if they number 2^31 or more (below 2^32). With 32768 domains of width one along an axis a particle in the last domain is sent to no rank, with 32769 to 65535 it is sent to a wrong rank, both without an error. load is right with up to 32767 domains along every axis. The offsets of a layout are right if the counts add up to less than 2^31, otherwise an offset is negative.", "quantifier": "all grids, assignments, transforms, smoothing lengths and particles within the stated limits; exact coordinates", "why_tests_cant": "tests have a few domains and particles; the limits need thousands of ranks or billions of copies, and beyond them nothing is reported.", "anchors": ["pmesh/domain.py:GridND.decompose", "pmesh/domain.py:GridND.load", "pmesh/domain.py:Layout.__init__", "pmesh/_domain.pyx:gridnd_fill"]}
{"id": "C104", "title": "Windows that were resized and particles with smoothing lengths: when mass is conserved", "statement": "On a full periodic mesh, with the nearest, linear, quadratic or cubic window, generic or tuned, and a window size support * hsml that is a whole multiple of the native size for every particle (or not positive, or for a tuned window rounded up to its native size in up to three dimensions), painting conserves mass, reading a constant returns it, and gradients add nothing. With any other positive size M/N times the native one, N^ndim particles spaced one Nth of a cell apart along every axis together keep their mass exactly, but single particles do not: with the generic nearest window no particle keeps its mass, wherever it is, unless the size is whole; with the generic linear window a particle on a mesh point gains the fraction r(1-r)/(M/N)^2, where r is the fractional part of M/N.", "quantifier": "all window sizes, smoothing lengths, positions, masses, mesh shapes, dimensions and transforms (the failures for single particles in one dimension)", "why_tests_cant": "the tests compare one or two sizes at a few positions; which sizes conserve mass, and that the others do so on average, are statements about all of them.", "anchors": ["pmesh/window.py:ResampleWindow.resize", "pmesh/window.py:ResampleWindow.paint", "pmesh/window.py:ResampleWindow.readout", "pmesh/_window_imp.c:pmesh_window_info_init", "pmesh/_window_imp.c:_fill_k"]}
{"id": "C105", "title": "The n-body example does not depend on the number of ranks", "statement": "The forces of examples/nbody.py are those of one process that holds the whole mesh: the force on a particle is a function of its position and of the set of all positions alone, given by the density contrast of all particles, its modes times the transfer function, the transform back and the weights of the window. So two worlds with the same mesh, box and window, with different numbers of ranks, different partitions of the real and complex fields and the particles in any order on any ranks, compute the same forces; and the integrators of first, second and third order take every particle to the same displacement and velocity, whatever the time steps, the kick and drift factors and the rounding of the positions. The smoothing length of force(), the full support of the window, has to leave room on every axis that is divided: its sum with any block is at most Nmesh, or the block is the whole axis. Without room the forces do depend on the number of ranks.", "quantifier": "all meshes in any dimension, numbers of ranks, partitions, windows, transfer functions, particles, distributions of the particles, and sequences of time steps", "why_tests_cant": "tests run the example on one or a few numbers of ranks; that no partition and no distribution of the particles changes the result is a statement about all of them, and tests compare floating point numbers that differ by rounding.", "anchors": ["examples/nbody.py:force", "examples/nbody.py:force_transfer", "examples/nbody.py:symp1", "examples/nbody.py:symp2", "examples/nbody.py:symp3", "pmesh/pm.py:ParticleMesh.decompose", "pmesh/pm.py:ParticleMesh.paint", "pmesh/pm.py:RealField.readout", "pmesh/pm.py:RealField.r2c", "pmesh/pm.py:BaseComplexField.c2r"]}
{"id": "C106", "title": "The C integers of the painter lose nothing within stated limits", "statement": "ResampleWindow.paint and readout keep the cells of a particle in C ints. If no period is above 2^31 and every particle with its window, in mesh units and after the transform, is less than 2^31 cells away from the first cell of the array, these integers lose nothing: memory, values and exceptions are those of integers without limits, for every compiler and whatever it makes of numbers that do not fit, with all windows, tuned or not, any dimension, smoothing lengths and differentiation. Outside of the limits, with gcc on x86-64, a particle at 2^31 + 1 on a periodic mesh of four cells is taken for one in cell 0 instead of 1; and on a mesh of 2^31 + 8 cells a particle just before the first block, whose cell is on another rank, is taken for one in cell 15 of the block. Neither raises.", "quantifier": "all windows, arrays, memories, particles, masses, smoothing lengths, transforms and C implementations", "why_tests_cant": "the integers of a run of the tests are small; no test holds 2^31 cells along an axis, and what a compiler makes of a number that does not fit differs between compilers.", "anchors": ["pmesh/_window_imp.c:_fill_k", "pmesh/_window_imp.c:pmesh_window_info_init", "pmesh/_window_generics.h:_generic_paint", "pmesh/_window_generics.h:_generic_readout", "pmesh/_window_tuned_nnb.h:SETUP_KERNEL_NNB", "pmesh/_window_tuned_cic.h:SETUP_KERNEL_CIC", "pmesh/_window_tuned_tsc.h:SETUP_KERNEL_TSC", "pmesh/_window_tuned_pcs.h:SETUP_KERNEL_PCS", "pmesh/window.py:ResampleWindow.paint", "pmesh/window.py:ResampleWindow.readout"]}
{"id": "C107", "title": "Which array a co-array sync reads and writes", "statement": "A proxy coa(k)[i][j]... stands for the slice [i][j]... of an array of image k. All views of a co-array share one list of pending operations. If no rank s pushes to d while d pulls from s, y.sync(images) returns everywhere, and then a rank's memory holds the pushes made to it and the pulls it made through views of y, in order. Pulls read, and pushes write, the slice of the array that the other rank calls sync of; this is the array of the proxy if the proxies are made from that array. A push sends the values its source has at the sync, not at the assignment. The condition on the proxies is needed: the co-transposition coa1[i] = coa2(i)[thisimage] with any number of ranks transposes coa1 and never reads coa2. An assignment to all images raises NameError, a pull from all images or from images that are not synchronized stays pending.", "quantifier": "all programs of pulls, pushes and assignments on any number of ranks, all views and index paths, images and message schedules", "why_tests_cant": "the result depends on which object sync is called of on another rank and on the schedule of messages; a test sees single programs, and the only one with two arrays prints its result without a check.", "anchors": ["pmesh/coarray.py:coaproxy", "pmesh/coarray.py:Pull", "pmesh/coarray.py:Push", "pmesh/coarray.py:coarray.__array_finalize__", "pmesh/coarray.py:coarray.sync", "pmesh/coarray.py:test_cotranspose"]}
{"id": "C108", "title": "The halo exchange with co-arrays on any number of ranks", "statement": "test_coarray (coarray.py:298-328), with arrays of four or more rows, run on n ranks: each of its four syncs can complete whatever the schedule; after them the first row and row -2 hold the number of the left rank, row 1 and the last row that of the right rank, the rows between are unchanged and no operation is pending. All its assertions hold, that of line 315 unless n = 2: then left and right are one image, the first sync does both pulls and the assertion fails. This takes the data of a push at Isend. If no rank pushes cells that are pushed to in the same sync, any later time up to the receipt gives the same; in test_coarray row 1 is both sent and written, and without buffering there is an order of the receives in which the assertion of line 325 fails.", "quantifier": "all numbers of ranks, array sizes with four or more rows, message schedules; for the second part all programs of pushes and orders of receives", "why_tests_cant": "the result depends on the number of ranks and on when MPI reads an array that is being sent; small messages are buffered, so that a test does not see it.", "anchors": ["pmesh/coarray.py:test_coarray", "pmesh/coarray.py:coarray.sync", "pmesh/coarray.py:Push.start", "pmesh/coarray.py:coameta._start_operations"]}
{"id": "C109", "title": "Names of windows", "statement": "FindResampler accepts a string if and only if it is one of the 24 names of window.py written in capital or in small letters throughout; both spellings mean the same window, and every other string, such as 'Cic' or the kind 'tunedcic', raises TypeError. A window is returned as it is, so that the result may be passed again; every other object, hashable or not, raises TypeError and nothing else. Therefore decompose(smoothing=x) uses half of the support of x exactly if x is a window or a known name, half of the support of the mesh's window if x is None, and passes on everything else unchanged, unknown names included. NNB and NEAREST, CIC and LINEAR, TSC and QUADRATIC, PCS and CUBIC have the same support and paint and read the same values (under the conditions of C24 on gradients).", "quantifier": "all strings and objects; all arrays, particles and transforms for the equal windows", "why_tests_cant": "a test tries a few strings; the claim is about all strings, and about all particles for the pairs of windows.", "anchors": ["pmesh/window.py:FindResampler", "pmesh/window.py:windows", "pmesh/_window.pyx:ResampleWindow.__init__", "pmesh/pm.py:ParticleMesh.decompose"]}
{"id": "C110", "title": "Root results and timers", "statement": "If no function decorated by FromRoot raises and none broadcasts from its body, then every call returns on every rank what it returns on rank 0; when the broadcast values are all different, no other program has this property. If one call raises on rank 0 and rank 0 goes on, every other rank is given the value of the following call from then on and waits for ever in its last call; if a decorated function calls others, the other ranks return the inner values one after the other, then the outer one, and are as many calls late from then on. The value of a key of Timers depends on the events of that key only: it is the sum over its exits of the time since its latest enter, hence the total time of its blocks if it is always left before it is entered again; entered again inside its own block, it loses the time before the inner enter and counts the inner block twice.", "quantifier": "all programs of decorated calls with any nesting and any exceptions; all logs of enters and exits of any keys", "why_tests_cant": "a test has no exceptions and no nesting, and measures one clock; the claim is about the order of the broadcasts in every program and about every interleaving of the keys.", "anchors": ["pmesh/tools.py:FromRoot", "pmesh/tools.py:Timer", "pmesh/tools.py:Timers"]}
{"id": "C111", "title": "Operators with old numpy", "statement": "With a numpy before 1.13, each of the operators +, -, *, / and ** of a field with a number, array or field on either side (** with the field on the left), abs and the minus sign return a new field of the kind of the field whose elements are those of the operator in the order in which it is written, and change neither operand nor any other field, also if both operands are the same field; this holds for every operand of the same shape that is not complex next to a real field. An array or field of another length raises ValueError. A complex operand next to a real field raises TypeError for +, -, * and for field / operand, but operand / field and field ** operand return a real field holding the real parts only. f == g is true everywhere exactly if the fields hold the same values.", "quantifier": "all operators, all contents and lengths of the fields, all operands, all number systems where + and * commute and x * -1 + y = y - x", "why_tests_cant": "tests run with one numpy, which does not use this code, and compare a few values; the claim is about all operands, including aliases.", "anchors": ["pmesh/pm.py:NDArrayLike", "pmesh/pm.py:Field.copy"]}
{"id": "C112", "title": "Lanczos and Kaiser windows", "statement": "The lanczos windows of lanczos.py, for any a > 0, are even, zero beyond a, one at zero and zero at the other integers; paint visits every mesh point where they are not zero, and the sum over the visited points around a mesh point z of kernel times g is g(z). The kaiser windows, for whole a, are never nan although the root of a negative number is taken, are even, zero beyond a and one at zero; paint visits every mesh point where they are not zero except one: around a particle on a mesh point z it visits z + a, where the window is i0(0) / i0(beta) > 0, and not z - a, where it has the same value.", "quantifier": "all a, beta, positions and mesh points; all functions sinc, i0 and root with the laws stated in like_sinc, like_i0 and like_root; for lanczos also all real a and distances with sinc itself, where the values are a sin(pi x) sin(pi x / a) / (pi x)^2 and never larger than one", "why_tests_cant": "tests evaluate the windows at a few points with rounding; the claim is about every distance and every position, including those exactly on the edge.", "anchors": ["pmesh/lanczos.py:lanczos", "pmesh/lanczos.py:kaiser", "pmesh/lanczos.py:paint"]}
{"id": "C113", "title": "Invariant index of arrays", "statement": "invariant.get_index(x, Nmesh) of an integer array of shape s + (d,), with s not empty and d > 0, and a mesh that is a number, a list of one number or a list of d numbers, returns an array of shape s whose element at any index is the invariant index (C53, C54) of the point there. Nothing else is accepted: one point alone raises AssertionError, a mesh of another number of axes ValueError, nested lists AttributeError although the documentation says array_like, points without coordinates ValueError and arrays that are not of integers TypeError.", "quantifier": "all shapes and contents, all meshes, compressed or not, every maxlength", "why_tests_cant": "tests use one or two shapes; the claim is about the order of the elements for every shape and about every wrong argument.", "anchors": ["pmesh/invariant.py:get_index", "pmesh/_invariant.pyx:get_index"]}
