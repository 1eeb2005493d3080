{"id": "C01", "title": "Grid construction honours every argument it was given", "statement": "Whenever Grid(shape, step, extent=, first=, center=, last=, include_last=, center_at_index=) returns, the grid it returns has at least one point per axis and agrees with every argument that was passed: g.shape equals the requested shape, g.step the requested step, g.center the requested center, g.first the requested first, and shape*step equals last + step*include_last - first when last and first were both given (documented invariants).", "quantifier": "every combination of present/absent arguments, every number of axes and all numeric values", "why_tests_cant": "There are 2^6 argument combinations times two flags, each over a continuum of values; tests sample a few integers.", "anchors": ["python/macromax/utils/ft/grid.py:Grid.__init__"]}
{"id": "C02", "title": "Grid coordinates are uniform and centred where documented", "statement": "g[axis] holds exactly g.shape[axis] coordinates; consecutive ones differ by g.step[axis]; the coordinate at index shape//2 is g.center (the midpoint of the two central ones for even shapes with center_at_index=False); with origin_at_center the first coordinate is g.first; without it the sequence is the ifftshift of that sequence, so it is a permutation of the same coordinates and starts at the central one.", "quantifier": "every grid with one step per axis (see C53): all shapes, steps, centers and flag values, every axis and index", "why_tests_cant": "Parity, flags and unbounded shape interact in the index arithmetic; tests use lengths 1..5.", "anchors": ["python/macromax/utils/ft/grid.py:Grid.__getitem__", "python/macromax/utils/ft/grid.py:Grid.first"]}
{"id": "C03", "title": "Grid.from_ranges reproduces the ranges it was given", "statement": "For uniformly spaced coordinate vectors, either monotone or ifftshifted (as produced by a Grid with origin_at_center=False), Grid.from_ranges(r0, r1, ...)[axis] is the vector r_axis again.", "quantifier": "every number of axes, every length >= 1, every start value and non-zero step, both orderings", "why_tests_cant": "Correctness depends on a detection inequality between differences of four sampled elements for every length and parity.", "anchors": ["python/macromax/utils/ft/grid.py:Grid.from_ranges", "python/macromax/utils/ft/grid.py:Grid.__getitem__"]}
{"id": "C04", "title": "Frequency grids are the reciprocal DFT grids", "statement": "g.f has the same shape, step 1/(shape*step) and starts at frequency 0 followed by increasing positive and then the negative frequencies; g.k is 2 pi times g.f; every frequency multiplied by the extent is an integer congruent to its index modulo the shape, so exp(i k x) is periodic over the extent; and g.f.f recovers the shape and step of g.", "quantifier": "all grids with non-zero step, every axis and index", "why_tests_cant": "The aliasing identity must hold for every index of every shape (odd and even).", "anchors": ["python/macromax/utils/ft/grid.py:Grid.f", "python/macromax/utils/ft/grid.py:Grid.k"]}
{"id": "C05", "title": "Grid arithmetic acts coordinate-wise", "statement": "(g + t)[axis] == g[axis] + t, (g - t)[axis] == g[axis] - t, (g * a)[axis] == a * g[axis], (g / a)[axis] == g[axis] / a and (-g)[axis] == -g[axis]; shape and flags are unchanged and the operand grid itself is not modified; operations compose (e.g. (g + t) - t == g, (g * a) / a == g).", "quantifier": "all grids with one step per axis, scalar or array offsets (and tuples/lists for + and *, see C57), non-zero factors, axes and indices", "why_tests_cant": "Universally quantified algebraic laws over a continuum.", "anchors": ["python/macromax/utils/ft/grid.py:Grid.__add__", "python/macromax/utils/ft/grid.py:Grid.__mul__", "python/macromax/utils/ft/grid.py:Grid.__sub__", "python/macromax/utils/ft/grid.py:Grid.__truediv__", "python/macromax/utils/ft/grid.py:Grid.__neg__"]}
{"id": "C06", "title": "Grid views, projections and products keep the coordinates", "statement": "immutable, mutable, as_flat, as_non_flat, as_origin_at_0 and as_origin_at_center return grids with the same set of coordinates (the same sequence up to fft-shift); project/transpose/swapaxes select exactly the requested axes in the requested order (transpose twice is the identity, out of range axes raise IndexError), and (a @ b) lists the axes of a followed by those of b.", "quantifier": "all grids, all axis lists (positive and negative), all pairs of grids", "why_tests_cant": "Axis permutations and negative indices of arbitrary dimension.", "anchors": ["python/macromax/utils/ft/grid.py:Grid.project", "python/macromax/utils/ft/grid.py:Grid.transpose", "python/macromax/utils/ft/grid.py:Grid.swapaxes", "python/macromax/utils/ft/grid.py:Grid.__matmul__", "python/macromax/utils/ft/grid.py:Grid.as_flat", "python/macromax/utils/ft/grid.py:Grid.as_origin_at_0", "python/macromax/utils/ft/grid.py:Grid.immutable"]}
{"id": "C07", "title": "MutableGrid setters change exactly one thing", "statement": "After g.shape=s / g.step=t / g.center=c / g.first=f the property just set reads back as the value assigned (so setting first moves the whole range), the other stored properties are unchanged, and after any sequence of assignments the grid equals the immutable grid built from the final properties.", "quantifier": "every history of setter calls that does not assign a fractional value to an integer-typed property (see C59), on every grid", "why_tests_cant": "Histories of arbitrary length and the interplay first/center/step.", "anchors": ["python/macromax/utils/ft/grid.py:MutableGrid"]}
{"id": "C08", "title": "In-place arithmetic on a MutableGrid updates that grid", "statement": "g += t, g -= t, g *= a and g /= a leave the name g bound to the (same) mutable grid with the coordinates shifted or scaled.", "quantifier": "every mutable grid and operand", "why_tests_cant": "A Python protocol subtlety: what the statement rebinds the name to.", "anchors": ["python/macromax/utils/ft/grid.py:MutableGrid.__iadd__", "python/macromax/utils/ft/grid.py:MutableGrid.__imul__", "python/macromax/utils/ft/grid.py:MutableGrid.__isub__", "python/macromax/utils/ft/grid.py:MutableGrid.__idiv__"]}
{"id": "C09", "title": "dim.add / left_to / right_to / to_axis only reshape", "statement": "dim.add(arr, left=n, right=m) returns the same elements in the same order with n (m) singleton axes added on the left (right), or removed when negative; removing non-singleton axes raises ValueError; left_to/right_to return exactly total_dims axes; to_axis(v, axis, ndim) has the length of v on that axis and 1 elsewhere, for negative axis values too.", "quantifier": "arrays of any rank and shape, all integer left/right/axis/ndim", "why_tests_cant": "Shape arithmetic with negative counts over every rank.", "anchors": ["python/macromax/utils/dim.py:add", "python/macromax/utils/dim.py:left_to", "python/macromax/utils/dim.py:right_to", "python/macromax/utils/dim.py:to_axis"]}
{"id": "C10", "title": "Absorbing boundary: extinction profile", "statement": "For LinearBound on any grid: the extinction is between 0 and the maximum coefficient given, exactly 0 at every point inside (not within the given thickness of an edge, i.e. where bound.between is True), non-decreasing towards each edge, equal to the maximum at the outermost sample of a side with non-zero thickness, and never negative; thickness 0 (periodic side) adds no absorption. bound.beyond is the complement of bound.between.", "quantifier": "all grids with increasing coordinates (any dimension; see C60 for other grids), all broadcastable thickness and extinction values, all points", "why_tests_cant": "Holds at every grid point of every grid for every side and real thickness.", "anchors": ["python/macromax/bound.py:LinearBound", "python/macromax/bound.py:AbsorbingBound", "python/macromax/bound.py:Bound"]}
{"id": "C11", "title": "Absorbing boundary never adds gain and matches its background", "statement": "The permittivity of an absorbing boundary is (n + i kappa)^2 for the background index n, its electric_susceptibility is the difference with the background permittivity, is zero wherever the extinction is zero, and has a non-negative imaginary part for a real positive background.", "quantifier": "all points, background permittivities and extinction profiles", "why_tests_cant": "Sign statement over a continuum of complex values.", "anchors": ["python/macromax/bound.py:AbsorbingBound.electric_susceptibility"]}
{"id": "C12", "title": "The solver converges to the solution of the wave equation only", "statement": "If an iteration of a (scalar or vectorial, isotropic or anisotropic, non-magnetic) Solution leaves the field unchanged and the susceptibility operator is invertible, then E solves beta*curl curl E - k0^2 eps E = source on the periodic grid (scalar: (-laplace - k0^2 eps) E = source), and conversely every solution of that equation is left unchanged, whatever the preconditioner constants alpha, beta.", "quantifier": "all grids, permittivity and source distributions, preconditioner constants with alpha.imag != 0", "why_tests_cant": "Equivalence of a fixed point and a PDE on all grids, cannot be sampled.", "anchors": ["python/macromax/solver.py:Solution.__iter__", "python/macromax/solver.py:Solution.__update_operators", "python/macromax/solver.py:Solution.__prepare_preconditioner"]}
{"id": "C13", "title": "The correction never grows for gain-free media", "statement": "For any isotropic permittivity without gain and the alpha chosen by the constructor, one iteration maps the difference between two fields to one of at most the same l2-norm (strictly smaller by a uniform factor if there is loss everywhere), so the update norm is non-increasing and so is the distance to any solution; the same holds for anisotropic media and every alpha whose imaginary part exceeds the deviation of the permittivity from the background.", "quantifier": "all grids, gain-free permittivity distributions, sources, fields", "why_tests_cant": "An operator-norm bound on spaces of unbounded dimension.", "anchors": ["python/macromax/solver.py:Solution.__iter__", "python/macromax/solver.py:Solution.__update_operators", "python/macromax/solver.py:Solution.__increase_bias_to_limit_kernel_width"]}
{"id": "C14", "title": "Changing alpha on divergence keeps the physical problem", "statement": "Whatever sequence of alpha increases happens during the iteration, the source_distribution and the wave equation that is being solved remain those given by the user; the internal susceptibilities always equal those computed directly from the material with the current alpha.", "quantifier": "every history of accepted/rejected iterations", "why_tests_cant": "Invariant over unbounded histories of in-place rescaling.", "anchors": ["python/macromax/solver.py:Solution.__update_operators", "python/macromax/solver.py:Solution.__iter__"]}
{"id": "C15", "title": "Iteration accepts only shrinking updates", "statement": "In every run: an iteration whose update norm is not smaller than the last accepted one leaves E unchanged and multiplies Im(alpha) by 1.5; otherwise E is replaced; the sequence of accepted update norms is strictly decreasing; iteration counts 1,2,3,... and restarts at 1 each time a new iterator is made; the first update after setting E or the source is always accepted.", "quantifier": "every history of iterations and assignments", "why_tests_cant": "Unbounded histories and all floating comparison outcomes.", "anchors": ["python/macromax/solver.py:Solution.__iter__", "python/macromax/solver.py:Solution.E", "python/macromax/solver.py:Solution.source_distribution"]}
{"id": "C16", "title": "solve() stops at the first False of the callback", "statement": "Solution.solve(callback) performs iterations 1..n where n is the first iteration for which the callback returns False, calls the callback exactly once after each iteration and returns the same Solution; with callback=None it stops at the first iteration with iteration >= maxiter or residue <= rtol (always at least one iteration); with the default callback it never runs more than 10000 iterations.", "quantifier": "every callback behaviour, every maxiter/rtol", "why_tests_cant": "Quantifies over arbitrary stateful callbacks.", "anchors": ["python/macromax/solver.py:Solution.solve", "python/macromax/solver.py:solve"]}
{"id": "C17", "title": "rtol and maxiter limit the iteration unless a callback is provided", "statement": "solve(..., maxiter=n) / solve(..., rtol=t) without a callback argument stops at those limits, as documented.", "quantifier": "all maxiter / rtol values", "why_tests_cant": "Default-argument semantics; a test would need to run to 10^4 iterations to notice.", "anchors": ["python/macromax/solver.py:solve", "python/macromax/solver.py:Solution.solve"]}
{"id": "C18", "title": "E, source_distribution and j read back what was assigned", "statement": "After sol.E = x, sol.source_distribution = s, or sol.j = y (of full shape, scalar or single vector) reading the property returns x, s or y (broadcast over the grid), independent of wavenumber and preconditioner, and assigning one does not change the others that are independent of it.", "quantifier": "all fields, wavenumbers, preconditioner constants and histories of assignments", "why_tests_cant": "All values and histories.", "anchors": ["python/macromax/solver.py:Solution.E", "python/macromax/solver.py:Solution.source_distribution", "python/macromax/solver.py:Solution.j"]}
{"id": "C19", "title": "epsilon reads back the permittivity excluding the boundary", "statement": "sol.epsilon returns the permittivity given by the user (without the contribution of the bound), and sol.epsilon = e makes the solver solve the problem for permittivity e plus that of the bound, as the constructor does.", "quantifier": "all permittivities, bounds and preconditioner constants", "why_tests_cant": "All values of several complex fields.", "anchors": ["python/macromax/solver.py:Solution.epsilon", "python/macromax/solver.py:Solution.refractive_index"]}
{"id": "C20", "title": "Bi-anisotropic and magnetic media solve Maxwell's equations", "statement": "A fixed point of the iteration for given epsilon, xi, zeta, mu satisfies curl E = i k0 (zeta E + mu H), curl H = -i k0 (eps E + xi H) + source (normalised units) for the H reported by the Solution.", "quantifier": "all material tensors on all grids", "why_tests_cant": "Operator identity for general non-commuting tensors.", "anchors": ["python/macromax/solver.py:Solution.__update_operators", "python/macromax/solver.py:Solution.H"]}
{"id": "C21", "title": "Reported B, H, D are consistent with Maxwell's equations", "statement": "sol.B equals curl E/(i omega) (Faraday) and is divergence free; sol.H = B/(mu0 mu) in non-magnetic media; and sol.D satisfies Ampere's law curl H = J - i omega D for the current J that drives the problem; at a fixed point D = eps0 eps E.", "quantifier": "all fields and material distributions", "why_tests_cant": "Differential identities for all fields.", "anchors": ["python/macromax/solver.py:Solution.B", "python/macromax/solver.py:Solution.H", "python/macromax/solver.py:Solution.D", "python/macromax/solver.py:Solution.j"]}
{"id": "C22", "title": "Poynting vector, energy density, stress tensor, force and torque", "statement": "S is real and antisymmetric under exchange of E and conj(H) as the cross product (orthogonality for real fields); the stress tensor is real and symmetric with trace -(eps0|E|^2+mu0|H|^2)/4; the total electromagnetic force over the periodic volume vanishes; energy density is non-negative for vacuum.", "quantifier": "all fields", "why_tests_cant": "Algebraic identities for all complex fields.", "anchors": ["python/macromax/solver.py:Solution.S", "python/macromax/solver.py:Solution.stress_tensor", "python/macromax/solver.py:Solution.f", "python/macromax/solver.py:Solution.torque", "python/macromax/solver.py:Solution.energy_density"]}
{"id": "C23", "title": "Residue reflects the current state", "statement": "sol.residue (relative_residue) read at any time equals the norm of the last update divided by the norm of the current field; in particular it is not a stale value after E or the source was assigned.", "quantifier": "every history of iterations, assignments and reads", "why_tests_cant": "Cache invalidation over histories.", "anchors": ["python/macromax/solver.py:Solution.relative_residue", "python/macromax/solver.py:Solution.E"]}
{"id": "C24", "title": "Choice of wavenumber, dtype and vectorial mode", "statement": "angular_frequency takes precedence over vacuum_wavelength over wavenumber, and the derived wavenumber, angular_frequency and wavelength properties are mutually consistent; without an explicit setting the calculation is vectorial exactly if the source has a leading polarization axis of length 3 (or no source is given), and the working dtype is always complex (complex64 only for complex64/float16/float32 input).", "quantifier": "every combination of arguments", "why_tests_cant": "Decision table over all combinations.", "anchors": ["python/macromax/solver.py:Solution.__init__"]}
{"id": "C25", "title": "Fourier transform pair", "statement": "ift(ft(x)) == x and ft(ift(x)) == x on grids of any dimension and shape; the transform is linear and preserves the l2-norm up to the number of points; filtering in Fourier space by h (convolve) is a circular convolution.", "quantifier": "every dimension, shape and field", "why_tests_cant": "All shapes and all complex fields.", "anchors": ["python/macromax/backend/__init__.py:BackEnd.convolve", "python/macromax/backend/numpy.py:BackEndNumpy.ft", "python/macromax/backend/numpy.py:BackEndNumpy.ift"]}
{"id": "C26", "title": "Vector calculus in Fourier space", "statement": "div(curl F) = 0, curl of a longitudinal field = 0, curl curl F = |k|^2 (F - longitudinal part), cross products are antisymmetric and orthogonal to their factors; on 1D, 2D and 3D grids (missing k components are zero).", "quantifier": "all 1D/2D/3D grids and all fields", "why_tests_cant": "Identities for every wave vector and field.", "anchors": ["python/macromax/backend/__init__.py:BackEnd.curl_ft", "python/macromax/backend/__init__.py:BackEnd.div_ft", "python/macromax/backend/__init__.py:BackEnd.cross"]}
{"id": "C27", "title": "Longitudinal and transversal projections", "statement": "longitudinal_projection and transversal_projection are complementary (sum to the identity), idempotent, mutually orthogonal; the transversal part is divergence free and the longitudinal part curl free; the uniform (DC) component counts as longitudinal along the axes of the grid.", "quantifier": "all 1D/2D/3D grids and all fields", "why_tests_cant": "Identities for every wave vector and field.", "anchors": ["python/macromax/backend/__init__.py:BackEnd.longitudinal_projection_ft", "python/macromax/backend/__init__.py:BackEnd.transversal_projection_ft"]}
{"id": "C28", "title": "Scalar and tensor representations are interchangeable", "statement": "Products (mul), differences (subtract), inverse, adjoint give the same physical tensor at each voxel whether an isotropic property is passed as a number, a grid-shaped array (1x1xgrid) or the full 3x3 identity multiple; to_matrix_field is idempotent and turns 1xN into Nx1 without changing values; mul agrees with the matrix product at each voxel.", "quantifier": "all ranks/shapes accepted, all values", "why_tests_cant": "Broadcast semantics over all shapes.", "anchors": ["python/macromax/backend/__init__.py:BackEnd.to_matrix_field", "python/macromax/backend/__init__.py:BackEnd.mul", "python/macromax/backend/__init__.py:BackEnd.subtract", "python/macromax/backend/numpy.py:BackEndNumpy.ldivide"]}
{"id": "C29", "title": "Roots of polynomials up to third order", "statement": "calc_roots_of_low_order_polynomial returns, for coefficients that are not degenerate, values that are zeros of the polynomial, with the right multiplicity (the polynomial equals the leading coefficient times the product of (x - root)); degenerate leading coefficients give nan for the missing roots, placed last.", "quantifier": "all complex coefficient vectors of length 2..4", "why_tests_cant": "Closed formula correctness over C^4 including degenerate cases.", "anchors": ["python/macromax/backend/__init__.py:BackEnd.calc_roots_of_low_order_polynomial", "python/macromax/backend/__init__.py:BackEnd.evaluate_polynomial"]}
{"id": "C30", "title": "mat3_eigh returns the eigenvalues", "statement": "For 3x3 matrix fields the three values returned are the zeros of det(A - x I); for diagonal (3x1) or scalar fields the values themselves are returned.", "quantifier": "all complex 3x3 matrices", "why_tests_cant": "Characteristic polynomial identity over C^9.", "anchors": ["python/macromax/backend/__init__.py:BackEnd.mat3_eigh"]}
{"id": "C31", "title": "Backend selection", "statement": "backend.load returns the first configuration in the list that can be loaded, in the order: explicit list or config() or backend_config.json, then torch/cuda, torch/cpu, numpy; it never fails while numpy is usable; and repeated loads give the same result.", "quantifier": "every configuration list, every availability of torch/cuda/numpy, every history of config/load calls", "why_tests_cant": "Environment combinations and histories.", "anchors": ["python/macromax/backend/__init__.py:load", "python/macromax/backend/__init__.py:config"]}
{"id": "C32", "title": "Loading a backend does not modify the configuration", "statement": "Calling backend.load does not change the configuration passed by the caller or set by config(); documented forms of config() (list of dicts) and of backend_config.json (a single dict) are accepted.", "quantifier": "all configuration values and histories", "why_tests_cant": "Mutation of arguments over histories.", "anchors": ["python/macromax/backend/__init__.py:load", "python/macromax/backend/__init__.py:config"]}
{"id": "C33", "title": "Scattering to transfer matrix conversion is an involution", "statement": "convert(convert(S)) == S whenever the lower right quarter is invertible, and T = convert(S) is the transfer matrix: for all amplitudes, (p_out, n_out) = S (p_in, n_in) iff (p_out, n_in) = T (p_in, n_out).", "quantifier": "all even matrix sizes and all complex matrices with invertible D", "why_tests_cant": "Universal matrix identity.", "anchors": ["python/macromax/matrix.py:convert", "python/macromax/matrix.py:ScatteringMatrix.transfer"]}
{"id": "C34", "title": "Quarters of a scattering matrix", "statement": "forward_transmission, front_reflection, back_reflection and backward_transmission are exactly the four blocks of the matrix: reassembling them gives the matrix, and applying the matrix to (p,n) equals applying the blocks.", "quantifier": "all even sizes, matrices and vectors", "why_tests_cant": "All sizes and indices.", "anchors": ["python/macromax/matrix.py:QuarterMatrix", "python/macromax/matrix.py:ScatteringMatrix"]}
{"id": "C35", "title": "inv is the (regularised) inverse", "statement": "inv(M) with noise_level 0 is the inverse for invertible M and satisfies the Moore-Penrose conditions; with noise level s it equals the Tikhonov solution (M^H M + s^2)^-1 M^H up to the documented scaling.", "quantifier": "all matrices and noise levels", "why_tests_cant": "Matrix identity over all sizes.", "anchors": ["python/macromax/matrix.py:inv"]}
{"id": "C36", "title": "Caching of matrix columns is transparent", "statement": "Products with a CachingMatrix give the same result as without caching for any sequence of multiplications, and each basis vector is evaluated at most once.", "quantifier": "all sequences of multiplications, all inputs", "why_tests_cant": "Histories of arbitrary length.", "anchors": ["python/macromax/matrix.py:CachingMatrix"]}
{"id": "C37", "title": "Rows, columns and array conversion of Matrix", "statement": "M[i, j], M[:, j], np.asarray(M) all agree with M @ basis vectors, for rectangular matrices too; transpose/hermitian satisfy <x, My> = <M^H x, y>.", "quantifier": "all sizes and indices", "why_tests_cant": "All sizes and indices.", "anchors": ["python/macromax/matrix.py:Matrix.__getitem__", "python/macromax/matrix.py:Matrix.__array__"]}
{"id": "C38", "title": "Propagating-mode bookkeeping of ScatteringMatrix", "statement": "The modes are exactly the transverse plane waves that propagate (|k_t| < k) at each side; vectors convert to fields and back without loss; reversing source and detection sides (detvec2srcvec / srcvec2detvec) is an involution and conjugates amplitudes.", "quantifier": "all grids, wavenumbers and vectors", "why_tests_cant": "Index bookkeeping for every grid.", "anchors": ["python/macromax/matrix.py:ScatteringMatrix"]}
{"id": "C39", "title": "round125", "statement": "round125(v) is 0 for 0 and otherwise +-{1,2,5} times a power of ten with the sign of v; it is idempotent, odd and non-decreasing, and for |v| >= 1e-10 it is within a factor 1.6 of v.", "quantifier": "all real values", "why_tests_cant": "Real thresholds over the whole real line.", "anchors": ["python/macromax/utils/round125.py:round125"]}
{"id": "C40", "title": "Adaptive stop criterion terminates", "statement": "With callback=Adaptive(residue=r, iteration=n): the iteration stops no later than iteration n and otherwise once the residue is at most r; it never raises; reusing it for a second solve starts afresh.", "quantifier": "every sequence of residues", "why_tests_cant": "Quantifies over arbitrary residue sequences.", "anchors": ["python/macromax/utils/stop_criterion.py:Adaptive"]}
{"id": "C41", "title": "hsv2rgb is the standard colour conversion", "statement": "For hue from 0 up to 21 turns, hsv2rgb(h,s,v) is the usual HSV colour: the largest channel is v, the smallest v*(1-s), the colour has period one in the hue, and alpha is passed through unchanged.", "quantifier": "all saturations and values and all non-negative hues up to 21", "why_tests_cant": "Piecewise formula over the colour cube.", "anchors": ["python/macromax/utils/display/hsv.py:hsv2rgb"]}
{"id": "C42", "title": "complex2rgb displays phase as hue and magnitude as brightness", "statement": "complex2rgb returns values in [0,1] (or 0..max for integer dtype), 0 maps to black, larger magnitudes are never darker, and multiplying by a positive scale with normalisation does not change the picture.", "quantifier": "all complex arrays and normalisations", "why_tests_cant": "All complex values.", "anchors": ["python/macromax/utils/display/complex2rgb.py:complex2rgb"]}
{"id": "C43", "title": "grid2extent covers the pixels", "statement": "For a grid in increasing index order with at least two axes of two points, and for evenly spaced ranges, grid2extent returns edges half a pixel outside the first and last sample on each displayed axis, in (left, right, bottom, top) order, so width = shape*step.", "quantifier": "all grids with two or more axes, all evenly spaced ranges, both values of origin_lower", "why_tests_cant": "All shapes/steps.", "anchors": ["python/macromax/utils/display/grid2extent.py:grid2extent"]}
{"id": "C44", "title": "Sub-pixel roll generalises the cyclic shift", "statement": "roll(x, n) for integer n equals numpy.roll(x, n); roll(roll(x,a),b) == roll(x,a+b) and roll(roll(x,a),-a) == x; roll preserves the l2-norm; on multi-dimensional arrays the shift applies to the documented axes.", "quantifier": "all shapes, fields and real shifts", "why_tests_cant": "Fourier shift theorem for all shapes and shifts.", "anchors": ["python/macromax/utils/ft/subpixel.py:roll", "python/macromax/utils/ft/subpixel.py:roll_ft"]}
{"id": "C45", "title": "Registration finds the integer displacement", "statement": "register(subject, reference, precision=1): if subject is factor times the cyclically shifted reference and the autocorrelation has a unique peak, then the shift is found (within half the array), the factor is recovered, the registered image equals the reference and error is 0; the error is always in [0,1].", "quantifier": "all arrays, shifts and factors", "why_tests_cant": "All displacements and arrays.", "anchors": ["python/macromax/utils/ft/subpixel.py:Reference.register", "python/macromax/utils/ft/subpixel.py:Registration"]}
{"id": "C46", "title": "Registration objects stay consistent", "statement": "For any history of reading image and original of a Registration, and assigning or adding to its shift, or to elements of it, the original remains the same and image is the original, moved back by the current shift and divided by the factor.", "quantifier": "all histories of property assignments", "why_tests_cant": "Lazy cache consistency over histories.", "anchors": ["python/macromax/utils/ft/subpixel.py:Registration"]}
{"id": "C47", "title": "Beam propagation is a group in homogeneous media", "statement": "BeamSection.propagate(a) followed by propagate(b) equals propagate(a+b); propagate(a); propagate(-a) restores the field; propagating modes keep their magnitude; reading field or field_ft in between does not change the result.", "quantifier": "all fields, distances and histories of propagate/read/assign", "why_tests_cant": "All real distances and histories.", "anchors": ["python/macromax/utils/beam.py:BeamSection"]}
{"id": "C48", "title": "Beam.field is repeatable and slice i is at position i", "statement": "Iterating a Beam yields one section per grid point along the propagation axis, the i-th at position first + i*step; Beam.field() returns the same values every time it is called.", "quantifier": "all beams, all histories of iteration", "why_tests_cant": "Shared mutable state over histories.", "anchors": ["python/macromax/utils/beam.py:Beam"]}
{"id": "C49", "title": "Heterogeneous beam propagation applies every step", "statement": "In a heterogeneous medium every slice transition applies diffraction over the step and the refractive-index phase of the slice, whatever the step size.", "quantifier": "all step sizes, indices and fields", "why_tests_cant": "Thresholds (isclose) in lazy evaluation.", "anchors": ["python/macromax/utils/beam.py:Beam.__iter__", "python/macromax/utils/beam.py:BeamSection"]}
{"id": "C50", "title": "Arrays returned by a Solution are snapshots", "statement": "The arrays returned by sol.E, sol.B, sol.H, sol.D, sol.source_distribution are not modified by later operations on the Solution, and modifying them does not change the Solution.", "quantifier": "every backend, every history of reads and iterations", "why_tests_cant": "Aliasing of internal work buffers over histories.", "anchors": ["python/macromax/solver.py:Solution.E", "python/macromax/solver.py:Solution.D", "python/macromax/backend/numpy.py:BackEndNumpy.ift"]}
{"id": "C51", "title": "A zero source gives a zero field", "statement": "Solving with zero source and zero field terminates: the field stays zero, residue is 0 and no exception is raised.", "quantifier": "all grids and materials", "why_tests_cant": "Exact-zero corner of the norm ratio.", "anchors": ["python/macromax/solver.py:Solution.__iter__", "python/macromax/solver.py:Solution.relative_residue"]}
{"id": "C52", "title": "assign broadcasts to the field shape", "statement": "Assigning a scalar, a single vector, or a grid-shaped array to E or the source fills every grid point with the corresponding value; arrays that do not broadcast are rejected with ValueError.", "quantifier": "all shapes", "why_tests_cant": "All combinations of shapes.", "anchors": ["python/macromax/backend/__init__.py:BackEnd.assign"]}
{"id": "C53", "title": "Every axis of a constructed grid can be indexed", "statement": "Whenever Grid(...) returns a grid with ndim axes, g[axis] returns its coordinates for every axis in 0..ndim-1.", "quantifier": "all argument combinations, dimensions and values", "why_tests_cant": "One internal vector must have one entry per axis in every branch of the constructor.", "anchors": ["python/macromax/utils/ft/grid.py:Grid.__init__", "python/macromax/utils/ft/grid.py:Grid.__getitem__"]}
{"id": "C54", "title": "The extent argument is honoured", "statement": "If extent is given without step, then the product of shape and step of the returned grid is the requested extent on every axis. If extent and step are given without shape, then the grid has the requested step and is the smallest one that covers the extent (less than one step larger).", "quantifier": "all argument combinations with extent, every number of axes, all values", "why_tests_cant": "Rounding up of a quotient over a continuum of values and signs.", "anchors": ["python/macromax/utils/ft/grid.py:Grid.__init__", "python/macromax/utils/ft/grid.py:Grid.extent"]}
{"id": "C55", "title": "The last argument is honoured or rejected", "statement": "If last is given and the call returns, then shape*step equals last + step*include_last - first, whichever other arguments were given; otherwise ValueError is raised.", "quantifier": "all argument combinations with last", "why_tests_cant": "Tests only cover combinations that agree.", "anchors": ["python/macromax/utils/ft/grid.py:Grid.__init__"]}
{"id": "C56", "title": "Documented defaults and satisfiable calls are accepted", "statement": "A call whose arguments can be met by some grid, taking the documented defaults (step 1, shape 1, center 0) for what is missing, returns a grid.", "quantifier": "all argument combinations", "why_tests_cant": "Combinations x values.", "anchors": ["python/macromax/utils/ft/grid.py:Grid.__init__"]}
{"id": "C57", "title": "Subtraction and division accept sequences as addition and multiplication do", "statement": "g - t and g / a accept lists and tuples with one entry per axis, as g + t and g * a do (same type annotation).", "quantifier": "all grids and sequences", "why_tests_cant": "Universal over operands.", "anchors": ["python/macromax/utils/ft/grid.py:Grid.__sub__", "python/macromax/utils/ft/grid.py:Grid.__truediv__"]}
{"id": "C58", "title": "The ndim argument replicates scalars", "statement": "Grid(shape, step, ndim=n) with scalar arguments behaves as an n-dimensional grid in indexing and arithmetic.", "quantifier": "all n and scalars", "why_tests_cant": "Histories of operations on such a grid.", "anchors": ["python/macromax/utils/ft/grid.py:Grid.__init__", "python/macromax/utils/ft/grid.py:Grid.__add__"]}
{"id": "C59", "title": "MutableGrid setters never lose precision", "statement": "Assigning any real number to center, first or step of a MutableGrid reads back as that number.", "quantifier": "all mutable grids and values", "why_tests_cant": "Depends on the numeric type of the arguments used to create the grid.", "anchors": ["python/macromax/utils/ft/grid.py:MutableGrid"]}
{"id": "C60", "title": "Absorbing boundaries work on every grid", "statement": "The extinction profile of C10 also holds on grids with negative steps, on fft-ordered grids (origin_at_center=False) and on one-dimensional grids made from scalars, e.g. Grid(10, 1e-6).", "quantifier": "all grids, thicknesses and points", "why_tests_cant": "Universal over grids; signs and orderings interact with the depth formula.", "anchors": ["python/macromax/bound.py:AbsorbingBound.extinction", "python/macromax/bound.py:Bound.between"]}
{"id": "C61", "title": "round125 returns the nearest round number", "statement": "round125(v) is the number of the form 0 or +-{1,2,5}*10**n that is nearest to v.", "quantifier": "all real values", "why_tests_cant": "Real thresholds over the whole real line.", "anchors": ["python/macromax/utils/round125.py:round125"]}
{"id": "C62", "title": "rgb2hsv inverts hsv2rgb", "statement": "rgb2hsv(hsv2rgb(h,s,v)) == (h,s,v) for every saturated colour with 0 <= h < 1.", "quantifier": "all hues, saturations and values", "why_tests_cant": "Tests only use hues at the borders of the sextants.", "anchors": ["python/macromax/utils/display/hsv.py:rgb2hsv"]}
{"id": "C63", "title": "Hue is periodic", "statement": "hsv2rgb(h+1,s,v) == hsv2rgb(h,s,v) for every hue, also for negative hues.", "quantifier": "all hues", "why_tests_cant": "Tests use hues 0 to 1.", "anchors": ["python/macromax/utils/display/hsv.py:hsv2rgb"]}
{"id": "C64", "title": "Alpha does not influence rgb2hsv", "statement": "rgb2hsv(r,g,b,alpha) returns the hue, saturation and value of (r,g,b), followed by alpha.", "quantifier": "all colours and alpha values", "why_tests_cant": "Continuous inputs.", "anchors": ["python/macromax/utils/display/hsv.py:rgb2hsv"]}
{"id": "C65", "title": "complex2rgb covers the range of integer types", "statement": "complex2rgb with an integer dtype scales the colours to the range of that type, also for Python int.", "quantifier": "all complex images and integer dtypes", "why_tests_cant": "Type and value dependent.", "anchors": ["python/macromax/utils/display/complex2rgb.py:complex2rgb"]}
{"id": "C66", "title": "grid2extent works for every Grid", "statement": "grid2extent(grid) returns the extent of the displayed data for any Grid, including grid.f and grid.k.", "quantifier": "all grids", "why_tests_cant": "Grids in numpy.fft order.", "anchors": ["python/macromax/utils/display/grid2extent.py:grid2extent"]}
{"id": "C67", "title": "The corrections vanish also without loss", "statement": "For every isotropic permittivity without gain for which the wave equation has a solution E, and for every starting field, the squared norm of the m-th correction with the alpha of the constructor is at most K/(m+1) times the squared initial distance to E: an iteration that stops at a given residue always stops.", "quantifier": "all grids, gain-free permittivities, sources, starting fields and iteration counts", "why_tests_cant": "A rate that holds for every medium, starting field and iteration count cannot be sampled.", "anchors": ["python/macromax/solver.py:__iter__", "python/macromax/solver.py:__prepare_preconditioner"]}
{"id": "C68", "title": "The iteration converges to the unique solution of lossy problems", "statement": "If the permittivity absorbs at least some minimal amount everywhere, the wave equation has exactly one solution on the grid and the field converges to it geometrically from every starting field.", "quantifier": "all grids, lossy isotropic or anisotropic permittivities, sources and starting fields", "why_tests_cant": "Existence, uniqueness and convergence are statements about all problems and about a limit.", "anchors": ["python/macromax/solver.py:__iter__", "python/macromax/solver.py:__prepare_preconditioner"]}
{"id": "C69", "title": "Power is conserved", "statement": "For every solution of the wave equation on a periodic grid, the power delivered by the currents, -Re<E, J>, equals the power absorbed by the medium, omega epsilon_0 Im<E, eps E>.", "quantifier": "all grids, media, sources and solutions", "why_tests_cant": "An integral identity for every solution.", "anchors": ["python/macromax/solver.py:Solution.S", "python/macromax/solver.py:Solution.j"]}
{"id": "C70", "title": "divS is the divergence of the Poynting vector", "statement": "Solution.divS equals the divergence of Solution.S in SI units for every wavelength.", "quantifier": "all grids, wavenumbers and fields", "why_tests_cant": "The tests do not compare divS with a divergence, and the error depends on the unit of length.", "anchors": ["python/macromax/solver.py:Solution.divS"]}
{"id": "C71", "title": "Derived quantities are meaningful for scalar problems", "statement": "For scalar problems, B, H, S, f, divS and torque are those of the transverse electric wave that the scalar field represents, or raise a clear error.", "quantifier": "all scalar problems", "why_tests_cant": "Interaction of the number of field components with every derived quantity.", "anchors": ["python/macromax/solver.py:Solution.B", "python/macromax/solver.py:Solution.S", "python/macromax/solver.py:Solution.torque"]}
{"id": "C72", "title": "The reported current density is that of Ampere's law", "statement": "sol.j is the current for which curl H = j - i omega D holds for the reported H and D.", "quantifier": "all grids, sources and fields", "why_tests_cant": "Sign conventions must agree for every source and field.", "anchors": ["python/macromax/solver.py:Solution.j", "python/macromax/solver.py:Solution.D", "python/macromax/solver.py:Solution.H"]}
{"id": "C73", "title": "Iterating beyond the exact solution is harmless", "statement": "An iteration that starts at the exact solution leaves the field unchanged, however often it is repeated, and raises no exception.", "quantifier": "all problems and histories that reach an exactly zero update", "why_tests_cant": "Exact zeros of a norm of the whole field.", "anchors": ["python/macromax/solver.py:Solution.__iter__"]}
{"id": "C74", "title": "solve ends", "statement": "For every medium without gain for which the wave equation has a solution, solve from a zero field with a positive tolerance returns after finitely many iterations, without exception and without changing the preconditioner, when one of its limits is reached.", "quantifier": "all grids, gain-free media, sources, tolerances and iteration limits", "why_tests_cant": "Termination for every problem.", "anchors": ["python/macromax/solver.py:Solution.solve", "python/macromax/solver.py:Solution.__iter__"]}
{"id": "C75", "title": "The tolerance bounds the error of solve", "statement": "For every medium that absorbs everywhere there is a constant such that, for every tolerance, the field that solve returns differs from the only solution of the wave equation by at most that constant times the tolerance, relative to the norm of the field.", "quantifier": "all grids, lossy media, sources and tolerances", "why_tests_cant": "A bound on the error that holds for all tolerances cannot be observed in tests.", "anchors": ["python/macromax/solver.py:Solution.solve", "python/macromax/solver.py:Solution.relative_residue"]}
{"id": "C76", "title": "A single vector is repeated for all space", "statement": "A one-dimensional vector of three numbers, as the documentation of to_matrix_field allows, stands for that vector at every position when it is assigned to a vector field.", "quantifier": "all grids and vectors", "why_tests_cant": "The outcome depends on the divisibility of the grid size by three.", "anchors": ["python/macromax/backend/__init__.py:BackEnd.to_matrix_field", "python/macromax/backend/__init__.py:BackEnd.assign", "python/macromax/solver.py:Solution.E"]}
{"id": "C77", "title": "Array-likes are accepted for E", "statement": "Assigning a list of numbers to E (or passing it as initial_field) has the same effect as assigning the numpy array with those values, for every type of wavenumber.", "quantifier": "all lists, and all integer, float and numpy wavenumbers", "why_tests_cant": "The types of two arguments have to be combined.", "anchors": ["python/macromax/solver.py:Solution.E"]}
{"id": "C78", "title": "The source can be replaced", "statement": "After construction with any valid source, source_distribution can be set to any array that broadcasts to the shape of E, and then returns these values.", "quantifier": "all first sources and all replacements", "why_tests_cant": "All pairs of shapes matter, and most tests only use sources of the full shape.", "anchors": ["python/macromax/solver.py:Solution.source_distribution", "python/macromax/backend/__init__.py:BackEnd.assign"]}
{"id": "C79", "title": "Left division solves the equation at every position", "statement": "ldivide(A, B) returns X so that A X = B at every position, for regular A and for B a matrix field, a vector field, a scalar field or a number.", "quantifier": "all regular matrix fields and numerators", "why_tests_cant": "Scalar fields are aligned with the wrong axes only for some grid sizes.", "anchors": ["python/macromax/backend/__init__.py:BackEnd.ldivide", "python/macromax/backend/numpy.py:BackEndNumpy.ldivide"]}
{"id": "C80", "title": "The dtype is complex64 or complex128", "statement": "The dtype property of a Solution is either complex64 or complex128, as its documentation says, whatever the types of the arguments.", "quantifier": "every combination of data types", "why_tests_cant": "Exotic types are not tested.", "anchors": ["python/macromax/solver.py:Solution.dtype", "python/macromax/solver.py:Solution.__init__"]}
{"id": "C81", "title": "numpy functions accept matrices as any argument", "statement": "A point-wise numpy function, or an operator, with a Matrix as any of its arguments gives the same result as with the array of that matrix in its place.", "quantifier": "all matrices, functions and argument positions", "why_tests_cant": "The position of the argument and the number of matrices among the arguments matter, not the values.", "anchors": ["python/macromax/matrix.py:Matrix.__array_ufunc__"]}
{"id": "C82", "title": "Output functions of a DepositionMatrix", "statement": "A DepositionMatrix accepts any linear function of the field as output function, also one that returns an array of several axes, and multiplication then returns the values of that function.", "quantifier": "all output functions and vectors", "why_tests_cant": "Depends on the shape of the values of a function that is passed by the user.", "anchors": ["python/macromax/matrix.py:DepositionMatrix.__init__"]}
{"id": "C83", "title": "convert does not depend on the type of the numbers", "statement": "convert gives the transfer matrix for an array of integers as for the array of floats with the same values.", "quantifier": "all integer matrices with an invertible quarter", "why_tests_cant": "Tests use complex matrices; the elements are only wrong for other types.", "anchors": ["python/macromax/matrix.py:convert"]}
{"id": "C84", "title": "A literal matrix without array is the identity", "statement": "LiteralScatteringMatrix and SquareMatrix constructed with a side and no array are the identity, as documented: multiplication returns the vector.", "quantifier": "all sides and vectors", "why_tests_cant": "The default argument is a separate case for each method.", "anchors": ["python/macromax/matrix.py:SquareMatrix", "python/macromax/matrix.py:LiteralScatteringMatrix", "python/macromax/matrix.py:Matrix._matvec"]}
{"id": "C85", "title": "The scattering matrix is homogeneous", "statement": "Multiplying a ScatteringMatrix with a multiple of a vector gives that multiple of the product, however small the multiple is, and no multiplication changes the result of later ones.", "quantifier": "all vectors, factors and histories of multiplications", "why_tests_cant": "A threshold only shows for amplitudes that tests do not use; the cache makes one bad product permanent.", "anchors": ["python/macromax/matrix.py:ScatteringMatrix._matvec", "python/macromax/matrix.py:ScatteringMatrix.srcvec2freespace"]}
{"id": "C86", "title": "Sources and detectors are placed between the absorbing boundaries", "statement": "The source planes and detector planes of a ScatteringMatrix are on the grid, in the order front source, front detector, back detector, back source, and none of them is in an absorbing boundary.", "quantifier": "all grids, wavelengths and boundary thicknesses", "why_tests_cant": "Rounding to samples is different for every ratio of thickness and step.", "anchors": ["python/macromax/matrix.py:ScatteringMatrix.__init__", "python/macromax/bound.py:AbsorbingBound.extinction"]}
{"id": "C87", "title": "Modes are plane waves on any grid", "statement": "Each element of a source vector is the amplitude of the plane wave with the documented transverse wave vector, also on grids with less than two samples per wavelength.", "quantifier": "all grids and vectors", "why_tests_cant": "The error concerns the highest spatial frequencies of even-sized, coarse grids.", "anchors": ["python/macromax/matrix.py:ScatteringMatrix.srcvec2freespace", "python/macromax/matrix.py:ScatteringMatrix.detfield2detvec"]}
{"id": "C88", "title": "Finding roots leaves the coefficients as they were", "statement": "Calculating the roots of polynomials does not change the array of coefficients that is passed.", "quantifier": "all arrays of coefficients, of any data type", "why_tests_cant": "The change only occurs for arrays that already have the data type of the back-end and polynomials with a leading coefficient that is zero.", "anchors": ["python/macromax/backend/__init__.py:BackEnd.calc_roots_of_low_order_polynomial", "python/macromax/backend/__init__.py:BackEnd.astype"]}
{"id": "C89", "title": "Roots do not depend on the scale of the polynomial", "statement": "Multiplying all coefficients with the same non-zero number does not change the roots that are found.", "quantifier": "all polynomials up to the third order and all factors", "why_tests_cant": "The thresholds are absolute, so it fails only for small coefficients.", "anchors": ["python/macromax/backend/__init__.py:BackEnd.calc_roots_of_low_order_polynomial"]}
{"id": "C90", "title": "Eigenvalues of scalars, diagonals and full matrices", "statement": "The eigenvalues of an array of matrices can be calculated for full matrices, for diagonals and for scalars, also when the singleton matrix dimensions are left out.", "quantifier": "all arrays", "why_tests_cant": "Every number of leading dimensions is a different path through the code.", "anchors": ["python/macromax/backend/__init__.py:BackEnd.mat3_eigh"]}
{"id": "C91", "title": "Only propagating waves are kept by a beam", "statement": "As documented, only waves that propagate are kept in a beam: after assigning a field or spectrum and propagating, the components with a transverse wavenumber above that of the background are zero.", "quantifier": "all spectra, wavenumbers, distances and histories", "why_tests_cant": "Which components are evanescent depends on the grid and the wavenumber.", "anchors": ["python/macromax/utils/beam.py:BeamSection.propagate", "python/macromax/utils/beam.py:BeamSection"]}
{"id": "C92", "title": "Vector beams are transverse", "statement": "The spectrum of a vectorial beam is perpendicular to its wave vectors after any history of assignments and propagation in homogeneous or heterogeneous media.", "quantifier": "all fields, media and histories", "why_tests_cant": "Every assignment and every layer breaks transversality before the projection; all histories matter.", "anchors": ["python/macromax/utils/beam.py:BeamSection.field_ft", "python/macromax/utils/beam.py:BeamSection.field", "python/macromax/utils/beam.py:BeamSection.propagate"]}
{"id": "C93", "title": "The field of a beam section is that of its spectrum", "statement": "BeamSection.field is the superposition of the plane waves of BeamSection.field_ft at the positions of the grid, a field that is assigned is the field that is read, and propagation is linear: fields that are a factor weaker propagate alike.", "quantifier": "all grids, fields of all magnitudes", "why_tests_cant": "Absolute thresholds appear only for some magnitudes.", "anchors": ["python/macromax/utils/beam.py:BeamSection.field", "python/macromax/utils/beam.py:BeamSection.field_ft"]}
{"id": "C94", "title": "Beam propagation can be reversed", "statement": "Propagating a scalar field over -d through the same medium undoes the propagation over d, for all refractive indices, including loss and gain.", "quantifier": "all fields, media and distances", "why_tests_cant": "The order of diffraction and transmission is reversed with the sign of the distance.", "anchors": ["python/macromax/utils/beam.py:BeamSection.propagate"]}
{"id": "C95", "title": "A beam does not gain power in a passive medium", "statement": "Propagation over a positive distance in a medium without gain does not increase the power of the beam, and media without loss conserve it.", "quantifier": "all fields, passive media and distances", "why_tests_cant": "All fields and media.", "anchors": ["python/macromax/utils/beam.py:BeamSection.propagate"]}
{"id": "C96", "title": "Real arrays remain real after a sub-pixel shift", "statement": "roll of an array of real values, by any shift, has real values.", "quantifier": "all shapes, real arrays and shifts", "why_tests_cant": "The Nyquist frequency exists only for even sizes and matters only for fractional shifts.", "anchors": ["python/macromax/utils/ft/subpixel.py:roll", "python/macromax/utils/ft/subpixel.py:roll_ft"]}
{"id": "C97", "title": "Registration works for any number of dimensions", "statement": "register(subject, reference) works for arrays of any number of dimensions, with the default precision: a displaced reference is found.", "quantifier": "all numbers of dimensions, shapes, arrays and displacements", "why_tests_cant": "Every number of dimensions takes a different path through the matrix products.", "anchors": ["python/macromax/utils/ft/subpixel.py:Reference.register", "python/macromax/utils/ft/subpixel.py:register"]}
{"id": "C98", "title": "Registration has the requested precision", "statement": "register(..., precision=p) returns a shift that is a multiple of p and that is at least as good as all others.", "quantifier": "all arrays and precisions", "why_tests_cant": "All arrays, and all precisions.", "anchors": ["python/macromax/utils/ft/subpixel.py:Reference.register"]}
{"id": "C99", "title": "Registration does not depend on the intensity of the subject", "statement": "When the subject is a displaced reference times any factor but zero, the registered image is the reference, as the reported error of zero says; the error is between 0 and 1 for all subjects.", "quantifier": "all factors", "why_tests_cant": "Absolute thresholds appear only for some magnitudes.", "anchors": ["python/macromax/utils/ft/subpixel.py:Reference.register", "python/macromax/utils/ft/subpixel.py:Registration.image"]}
{"id": "C100", "title": "Shared work arrays never change a result", "statement": "The iteration and all properties of a Solution give the values of the formulas on separate arrays, whichever library calculates the Fourier transforms, whichever arrays it accepts without a copy and whatever it leaves in the arrays that it is allowed to destroy; reading properties or changing the arrays that they return does not change the Solution.", "quantifier": "all histories of operations, reads of properties and changes of returned arrays; with and without pyfftw", "why_tests_cant": "Whether a work array is overwritten too early depends on the library, the alignment and the history.", "anchors": ["python/macromax/solver.py:Solution.__iter__", "python/macromax/backend/__init__.py:BackEnd.longitudinal_projection_ft", "python/macromax/backend/numpy.py:BackEndNumpy.ft", "python/macromax/backend/numpy.py:BackEndNumpy.ift"]}
{"id": "C101", "title": "Convergence does not depend on how well the constants are optimised", "statement": "For a non-magnetic medium without gain, isotropic or anisotropic, the constants that the constructor chooses make the corrections never grow, and make them vanish when there is a solution; with loss everywhere the iteration converges to the only solution of the wave equation, whatever real part of alpha the numerical optimisation settles on.", "quantifier": "all grids, permittivity tensors without gain, sources, initial fields, boundaries and outcomes of the optimisation", "why_tests_cant": "All media and outcomes of the optimisation.", "anchors": ["python/macromax/solver.py:Solution.__prepare_preconditioner", "python/macromax/solver.py:Solution.__increase_bias_to_limit_kernel_width", "python/macromax/backend/__init__.py:BackEnd.mat3_eigh"]}
{"id": "C102", "title": "Gain is reported when there is gain", "statement": "The warning about gain, or the treatment as a medium with gain only, is never given for media without gain in any direction, and is not left out when the gain exceeds the numerical tolerance in some direction at some point.", "quantifier": "all grids and material tensors", "why_tests_cant": "All directions and points of all tensors.", "anchors": ["python/macromax/solver.py:Solution.__prepare_preconditioner", "python/macromax/backend/__init__.py:BackEnd.mat3_eigh"]}
{"id": "C103", "title": "Media with gain only converge as those with loss only", "statement": "For media with gain and without loss, for which no warning is given, alpha is mirrored so that the corrections do not grow either.", "quantifier": "all media with gain and without loss", "why_tests_cant": "All media and outcomes of the optimisation.", "anchors": ["python/macromax/solver.py:Solution.__prepare_preconditioner", "python/macromax/solver.py:Solution.__increase_bias_to_limit_kernel_width"]}
{"id": "C104", "title": "The iteration converges for magnetic and chiral media without gain", "statement": "With the constants that the constructor chooses, whatever values its optimisation settled on, the corrections never grow for magnetic media without gain (permeabilities that vary or are tensors, and magneto-electric couplings for which xi mu^-1 + mu^-1 zeta is the same number everywhere); the fixed points are the solutions of Maxwell's equations; the corrections vanish if there is a solution, and with loss everywhere the field converges to the only one at a geometric rate.", "quantifier": "all grids of up to three dimensions, wave numbers, current densities, initial fields, material tensors without gain and outcomes of the optimisation", "why_tests_cant": "All media and all iterations.", "anchors": ["python/macromax/solver.py:Solution.__prepare_preconditioner", "python/macromax/solver.py:Solution.__iter__", "python/macromax/solver.py:Solution.H", "python/macromax/backend/__init__.py:BackEnd.mat3_eigh"]}
{"id": "C105", "title": "Materials are read as given, with the boundary added", "statement": "The permittivity and permeability may be numbers, arrays that broadcast to the grid, or fields of 3x3 matrices. The permittivity that is solved for is the one given, or the square of the refractive index, or one by default; at points where an isotropic index has a negative real part both the permittivity and the permeability change sign. The electric susceptibility of the boundary is added to isotropic permittivities and to the diagonal of anisotropic ones.", "quantifier": "all grids, permittivities, indices, permeabilities and boundaries", "why_tests_cant": "All combinations of shapes and values.", "anchors": ["python/macromax/solver.py:Solution.__init__", "python/macromax/backend/__init__.py:BackEnd.to_matrix_field"]}
{"id": "C106", "title": "A magnetic boundary adds its susceptibility to the diagonal of the permeability", "statement": "The magnetic susceptibility of the boundary is added to the permeability, also when that is given as a number.", "quantifier": "all grids, permeabilities and magnetic boundaries", "why_tests_cant": "All combinations of shapes and values.", "anchors": ["python/macromax/solver.py:Solution.__init__", "python/macromax/bound.py:Magnetic"]}
{"id": "C107", "title": "Materials with a negative refractive index can be solved for", "statement": "Materials without gain that have a refractive index with a negative real part have no gain for the solver, and the iteration converges for those too.", "quantifier": "all grids, indices and constants that the optimisation can settle on", "why_tests_cant": "All media and iterations.", "anchors": ["python/macromax/solver.py:Solution.__init__", "python/macromax/solver.py:Solution.__prepare_preconditioner", "python/macromax/solver.py:Solution.__iter__"]}
{"id": "C108", "title": "The field is that for the permeability that is given", "statement": "The fields at which the iteration stops solve the wave equation for the permeability that is given, whether it is real or complex, and uniform or nearly so.", "quantifier": "all grids, permittivities, permeabilities and sources", "why_tests_cant": "All media.", "anchors": ["python/macromax/solver.py:Solution.__prepare_preconditioner"]}
{"id": "C109", "title": "Solutions can be superposed", "statement": "The field computed for the source a S1 + b S2 is a times the field for S1 plus b times the field for S2, after every number of iterations started from the corresponding combination of initial fields, and in the limit from any initial field. A user relies on this to build scattering matrices column by column and to decompose sources.", "quantifier": "all grids, wave numbers, materials (also magnetic, chiral and anisotropic), sources, initial fields, complex coefficients and numbers of iterations", "why_tests_cant": "linearity over all complex combinations of fields on grids of any size and any number of iterations cannot be enumerated", "anchors": ["python/macromax/solver.py:Solution.__init__", "python/macromax/solver.py:Solution.__iter__"]}
{"id": "C110", "title": "Source and detector can be exchanged (reciprocity)", "statement": "In media with a symmetric permittivity, the field due to a source S1, weighted with S2 and summed over the grid, equals the field due to S2, weighted with S1.", "quantifier": "all grids, wave numbers, lossy media with symmetric permittivity, and pairs of sources", "why_tests_cant": "relates the exact limits of two infinite iterations for arbitrary media; the deviation depends on the parity of the grid sizes", "anchors": ["python/macromax/solver.py:Solution.__iter__", "python/macromax/backend/__init__.py:BackEnd.curl_ft", "python/macromax/backend/__init__.py:BackEnd.longitudinal_projection_ft", "python/macromax/backend/__init__.py:BackEnd.k"]}
{"id": "C111", "title": "Translation of the problem translates the solution", "statement": "When the material, the source, and the initial field are shifted by whole numbers of grid points on the periodic grid, the computed fields are shifted likewise, after every iteration.", "quantifier": "all grids, shifts, isotropic and anisotropic permittivities, sources, initial fields and numbers of iterations", "why_tests_cant": "quantifies over all media and shifts, and involves the choice of constants by maxima over the whole grid", "anchors": ["python/macromax/solver.py:Solution.__init__", "python/macromax/solver.py:Solution.__iter__", "python/macromax/backend/__init__.py:BackEnd.convolve"]}
{"id": "C112", "title": "The unit of length does not matter", "statement": "Multiplying all lengths by a positive number while dividing the wave number by it, and the source by its square (as it has the dimension of field over area), leaves the computed field unchanged after every iteration.", "quantifier": "all grids, positive scale factors, wave numbers, materials (also magnetic), sources, initial fields and numbers of iterations", "why_tests_cant": "exact invariance for every scale factor cannot be sampled; scale-dependent constants hide in single branches", "anchors": ["python/macromax/solver.py:Solution.__init__", "python/macromax/solver.py:Solution.wavenumber", "python/macromax/solver.py:Solution.__prepare_preconditioner"]}
{"id": "C113", "title": "Scalar calculations give the transverse vector field", "statement": "For isotropic media, a vector calculation with source and initial field along an axis that the grid does not have yields, in that component, exactly the field of the scalar calculation, and zero in the other components.", "quantifier": "all grids, axes beyond the grid dimensions, isotropic permittivities, sources, initial fields, and numbers of iterations", "why_tests_cant": "compares two code paths for all media and iterations", "anchors": ["python/macromax/solver.py:Solution.__init__", "python/macromax/solver.py:Solution.__iter__", "python/macromax/backend/__init__.py:BackEnd.longitudinal_projection_ft"]}
{"id": "C114", "title": "An axis along which nothing varies can be left out", "statement": "A problem of which material, source and initial field are constant along an additional last axis of any number of points and any step has the solution of the problem without that axis, after every iteration, scalar or vectorial.", "quantifier": "all grids, sizes and steps of the additional axis, permittivities, sources, initial fields and numbers of iterations", "why_tests_cant": "compares runs on grids of different dimensions for all sizes; it involves the constants chosen and the handling of zero spatial frequency", "anchors": ["python/macromax/solver.py:Solution.__init__", "python/macromax/solver.py:Solution.__iter__", "python/macromax/backend/__init__.py:BackEnd.longitudinal_projection_ft", "python/macromax/backend/__init__.py:BackEnd.k2"]}
{"id": "C115", "title": "Small errors in source and material have bounded effect", "statement": "With loss at every point, the norm of the solution is at most the norm of the source divided by the wave number squared times the smallest loss, and a change of the permittivity by at most d changes the solution by at most d divided by the smallest loss, relative to its norm.", "quantifier": "all grids, wave numbers, lossy permittivities, sources and perturbations", "why_tests_cant": "a uniform bound over all media and sources on the limit of an infinite iteration", "anchors": ["python/macromax/solver.py:Solution.__iter__", "python/macromax/solver.py:Solution.E"]}
{"id": "C116", "title": "An isotropic permittivity may be given as numbers or as multiples of the identity matrix", "statement": "The vector field computed with the permittivity given as one number per point is that computed with the same number times the 3 by 3 identity matrix, whatever constants the optimisation settles on for either.", "quantifier": "all grids, wave numbers, lossy isotropic permittivities and sources", "why_tests_cant": "compares the limits of two iterations with different code paths and constants, for all media", "anchors": ["python/macromax/solver.py:Solution.__init__", "python/macromax/solver.py:Solution.__iter__", "python/macromax/backend/__init__.py:BackEnd.mul"]}
{"id": "C117", "title": "Sampling points in double precision keep their order and hit the centre", "statement": "In IEEE double precision the points of an axis never go backwards, the point in the middle is exactly the centre (frequency zero is exactly zero), points around a centre at zero are exact opposites, the property first is exactly the first point, every point is within 8 unit roundoffs of its exact position, and points are distinct.", "quantifier": "all grids up to 2^53 points per axis, all finite steps and centres whose points do not overflow", "why_tests_cant": "rounding errors depend on every bit of step and centre; tests sample a few round numbers", "anchors": ["python/macromax/utils/ft/grid.py:Grid.__getitem__", "python/macromax/utils/ft/grid.py:Grid.first"]}
{"id": "C118", "title": "Consistent grid arguments are accepted in double precision", "statement": "A call that is consistent in exact arithmetic is not rejected because of rounding: points with step and centre, first point and step, extent, step and extent, first and last, first and centre; and the arguments read back to within a few unit roundoffs.", "quantifier": "all numbers of points up to 2^53, and all finite double precision arguments in range", "why_tests_cant": "the sanity checks compare rounded products for equality; whether they hold depends on the bits of the arguments", "anchors": ["python/macromax/utils/ft/grid.py:Grid.__init__"]}
{"id": "C119", "title": "A grid can be rebuilt from its own properties in double precision", "statement": "Views have the points of the grid bit for bit; the frequency step is the inverse of the extent to within 3 unit roundoffs; a grid built from the step and extent of a grid has as many points, one built with a first point has that first point, and the frequency grid of the frequency grid is the grid.", "quantifier": "all grids with finite steps and centres in range", "why_tests_cant": "every property involves its own rounding, and round trips compose them", "anchors": ["python/macromax/utils/ft/grid.py:Grid.immutable", "python/macromax/utils/ft/grid.py:Grid.extent", "python/macromax/utils/ft/grid.py:Grid.first", "python/macromax/utils/ft/grid.py:Grid.f"]}
{"id": "C120", "title": "The results do not depend on the array library", "statement": "With torch, products of arrays and assignments to the field and to the source give the same arrays, and reject the same values, as with numpy.", "quantifier": "all arrays, grids and values assigned", "why_tests_cant": "The back-ends are separate code that must agree on every shape and value.", "anchors": ["python/macromax/backend/torch.py:BackEndTorch.mul", "python/macromax/backend/torch.py:BackEndTorch.assign", "python/macromax/backend/__init__.py:BackEnd.mul", "python/macromax/backend/__init__.py:BackEnd.assign"]}
{"id": "C121", "title": "A product can be written into a given array", "statement": "The multiplication of arrays with a destination array returns the product and leaves it in the destination, whatever that held before.", "quantifier": "all factors and destinations, both array libraries", "why_tests_cant": "Depends on the shapes of the factors, the library, and the previous content of the destination.", "anchors": ["python/macromax/backend/__init__.py:BackEnd.mul", "python/macromax/backend/torch.py:BackEndTorch.mul"]}
{"id": "C122", "title": "Roots and eigenvalues do not depend on the array library", "statement": "With torch, the roots of polynomials and the eigenvalues of 3x3 matrices are those that are found with numpy.", "quantifier": "all polynomials up to third order and all matrices", "why_tests_cant": "Only some polynomials have roots that are not real.", "anchors": ["python/macromax/backend/torch.py:BackEndTorch.sort", "python/macromax/backend/__init__.py:BackEnd.calc_roots_of_low_order_polynomial", "python/macromax/backend/__init__.py:BackEnd.mat3_eigh"]}
{"id": "C123", "title": "Rounding errors do not build up", "statement": "If every iteration is made with some error, for instance that of the floating point numbers, then in an absorbing medium the error of the field stays below the error of one iteration times a constant, however many iterations are made; without absorption the errors at most add up. The reported correction remains a measure for the error of the field.", "quantifier": "all sequences of fields with a bounded error per iteration, all grids, media, sources, and choices of alpha", "why_tests_cant": "Rounding errors differ between processors and transform libraries; tests see one sequence of them.", "anchors": ["python/macromax/solver.py:Solution.__next__", "python/macromax/solver.py:Solution.solve"]}
{"id": "C124", "title": "The number of iterations does not depend on the grid", "statement": "The number of iterations that is needed to reduce the error by a given factor is bounded by a number that follows from the absorption, the contrast of the medium, and alpha. It does not depend on the number of points, the step sizes, the wavelength, the source, or the number of dimensions.", "quantifier": "all grids, wavelengths, scalar and vectorial problems, media with given bounds, sources, and starting fields", "why_tests_cant": "Tests cover a few small grids.", "anchors": ["python/macromax/solver.py:Solution.__init__", "python/macromax/solver.py:Solution.__next__"]}
{"id": "C125", "title": "It does not matter which iterator over a Solution makes the steps", "statement": "Any number of iterators can be made over one Solution, used in turns, and abandoned. The field, the residue, and everything else except for the iteration number are those of a single iterator that makes the same number of steps. An iterator that raised an error has ended for good.", "quantifier": "all programs that make, advance and close iterators, and assign to the Solution, in any order", "why_tests_cant": "The number of interleavings is unlimited.", "anchors": ["python/macromax/solver.py:Solution.__iter__", "python/macromax/solver.py:Solution.solve"]}
{"id": "C126", "title": "The iteration number belongs to the loop", "statement": "Obtaining an iterator resets the iteration number, which from then on counts the steps of that iterator, so that a loop with a limit on the iteration number ends.", "quantifier": "all programs with one or more loops over the same Solution", "why_tests_cant": "Loops within callbacks of loops.", "anchors": ["python/macromax/solver.py:Solution.__iter__", "python/macromax/solver.py:Solution.iteration"]}
{"id": "C127", "title": "Products with the scattering matrix do not depend on each other", "statement": "The scattering matrix uses one Solution object for all its columns.  The product with a vector depends on the material only: not on the fields, sources, counters or residues that earlier products left in that object.  In a lossy medium, any list of products ends without exception and each gives exactly the vector that it would have given on its own.", "quantifier": "every well-formed grid, material, list of vectors, tolerance and maximum number of iterations, and every history of the Solution object", "why_tests_cant": "Tests compute a few columns in one order; they cannot exclude that another order or another vector before it changes the result.", "anchors": ["python/macromax/matrix.py:ScatteringMatrix._matvec", "python/macromax/matrix.py:ScatteringMatrix.source2detfield", "python/macromax/matrix.py:ScatteringMatrix.srcvec2detfield", "python/macromax/solver.py:Solution.solve"]}
{"id": "C128", "title": "The scattering matrix is a matrix", "statement": "In a lossy medium the exact response to a vector of incident plane waves is the sum of its elements times the exact responses to the basis vectors.  The calculated product differs from the exact one by at most a constant times the tolerance times the size of the field, with a constant that does not depend on the vector or on the tolerance.  Hence S @ v and the combination of separately calculated columns agree within the tolerance.", "quantifier": "every well-formed grid with up to two transverse axes, every lossy isotropic or anisotropic permittivity, every input vector with elements above the threshold of 1e-8, every tolerance", "why_tests_cant": "Tests compare a few products on small grids; linearity must hold for all vectors and depends on the convergence of the solver.", "anchors": ["python/macromax/matrix.py:ScatteringMatrix._matvec", "python/macromax/matrix.py:ScatteringMatrix.srcvec2source", "python/macromax/matrix.py:ScatteringMatrix.detfield2detvec", "python/macromax/solver.py:Solution.solve"]}
{"id": "C129", "title": "solve ends in magnetic media", "statement": "For a vectorial problem with a permeability, anisotropy, or reciprocal bi-anisotropy that differs from point to point, without gain, with or without absorbing bound, solve called on a new Solution with a tolerance returns: it raises no exception, does not change the preconditioner, and stops because a limit is reached.", "quantifier": "every grid of up to three dimensions, every medium without gain and with a reciprocal coupling whose Maxwell equations have a solution, every source, every value on which the optimisation of the constants settles that is not extremely small, every tolerance and maximum number of iterations", "why_tests_cant": "Whether the loop ends depends on the convergence for the material at hand; a test can only time out.", "anchors": ["python/macromax/solver.py:Solution.__init__", "python/macromax/solver.py:Solution.solve", "python/macromax/solver.py:Solution.__iter__"]}
{"id": "C130", "title": "The tolerance bounds the errors of E and H in magnetic media", "statement": "In a magnetic medium with loss, the fields E and H that can be read after solve with tolerance rtol differ from those of the only solution of Maxwell's equations by at most a constant times rtol times the size of the electric field, where the constant depends on the problem and not on rtol.", "quantifier": "as for C129, with loss everywhere; every tolerance", "why_tests_cant": "Needs the exact solution for every medium and a bound for all tolerances.", "anchors": ["python/macromax/solver.py:Solution.solve", "python/macromax/solver.py:Solution.E", "python/macromax/solver.py:Solution.H"]}
{"id": "C131", "title": "The mirror image of a problem has the mirror image of its solution", "statement": "When the material and the source are replaced by their mirror images along one axis of the periodic grid, where vectors change sign along that axis, then the computed field is the mirror image of the original one. In particular, a mirror-symmetric problem has a mirror-symmetric solution.", "quantifier": "every grid, every material with loss, every source, every axis, scalar and vector problems", "why_tests_cant": "Tests use a few symmetric problems and cannot tell a small asymmetry from the tolerance of the iteration.", "anchors": ["python/macromax/solver.py:Solution.__init__", "python/macromax/solver.py:Solution.__iter__", "python/macromax/backend/__init__.py:BackEnd.curl_ft", "python/macromax/utils/ft/grid.py:Grid.f"]}
{"id": "C132", "title": "The order of the axes does not matter", "statement": "When two axes of the grid, the material, and the source change places, and with them the components of vectors and tensors, then the axes and components of the computed field change places.", "quantifier": "every grid with at least two dimensions, every material with loss, also anisotropic, every source, every pair of successive axes (and by repetition every order of the axes)", "why_tests_cant": "The axes are treated by different code paths for broadcasting and the cyclic curl; tests would have to cover all problems and orders.", "anchors": ["python/macromax/solver.py:Solution.__init__", "python/macromax/solver.py:Solution.__iter__", "python/macromax/backend/__init__.py:BackEnd.curl_ft"]}
{"id": "C133", "title": "In double precision, absorption starts exactly where the boundary does", "statement": "For a grid with increasing coordinates and boundaries with nonnegative thicknesses and positive maximum extinction coefficients, the extinction that is calculated in double precision is finite at every sample, it is zero at the samples that are reported to be between the boundaries and positive at all others. A sample is reported to be between the boundaries if it is at least the thickness away from the edges, including the inner edge, and the maximum extinction is not exceeded.", "quantifier": "every grid, thickness, and maximum extinction coefficient in double precision with magnitudes between 2^-300 and 2^300 or zero, every sample", "why_tests_cant": "Rounding errors depend on all digits of all numbers involved, tests can only try a few of them.", "anchors": ["python/macromax/bound.py:AbsorbingBound.extinction", "python/macromax/bound.py:Bound.between", "python/macromax/bound.py:LinearBound"]}
{"id": "C134", "title": "Source and detector can be exchanged in magnetic and chiral media", "statement": "In a reciprocal medium (epsilon and mu are symmetric and xi is minus the transpose of zeta) with loss, the field E1 computed for current density j1 and the field E2 computed for j2 satisfy the Lorentz reciprocity theorem: the sum of E1.j2 over all points equals that of E2.j1.", "quantifier": "every grid, lossy reciprocal medium that varies from point to point, and every pair of current densities", "why_tests_cant": "The identity relates the solutions of two boundary-value problems for arbitrary media; tests can only sample a few, and with the tolerance of the solver.", "anchors": ["python/macromax/solver.py:Solution.solve", "python/macromax/solver.py:Solution.__init__", "python/macromax/solver.py:Solution.j"]}
{"id": "C135", "title": "Small errors have bounded effect in magnetic and chiral media", "statement": "In a medium that absorbs electric and magnetic fields, the computed E and the corresponding H are bounded by the current density divided by the loss. If the four material tensors are changed by at most d, E and H change by at most d divided by the loss, in relative terms.", "quantifier": "every grid, every current density, every pair of media with loss", "why_tests_cant": "A bound on the worst case cannot be observed from samples.", "anchors": ["python/macromax/solver.py:Solution.solve", "python/macromax/solver.py:Solution.__init__", "python/macromax/solver.py:Solution.H"]}
{"id": "C136", "title": "Translation of a magnetic or chiral problem translates the solution", "statement": "When the tensors epsilon, xi, zeta, and mu, the source, and the initial field are translated over the periodic grid, so is the field of every iteration, provided that both media count as magnetic.", "quantifier": "every grid of up to three dimensions, every medium, source, initial field, translation, and number of iterations", "why_tests_cant": "The constants of the iteration are derived from maxima over all points and the convolution from Fourier transforms of all points; tests compare single cases up to a tolerance.", "anchors": ["python/macromax/solver.py:Solution.__init__", "python/macromax/solver.py:Solution.__iter__"]}
{"id": "C137", "title": "A periodic structure can be computed from a single cell", "statement": "When the grid is made r_i times as long along each axis i, and the medium, the source, and the initial field are repeated, then so is the field after every iteration. The solution of one cell is therefore the solution of any number of repetitions.", "quantifier": "every grid of up to three dimensions, every medium with all four material tensors, source, initial field, number of repetitions along each axis, and number of iterations", "why_tests_cant": "The Fourier transform of the large grid mixes all repetitions; that no new spatial frequency is ever excited must hold for every size and number of repetitions.", "anchors": ["python/macromax/solver.py:Solution.__init__", "python/macromax/solver.py:Solution.__iter__", "python/macromax/backend/__init__.py:BackEnd.convolve"]}
{"id": "C138", "title": "In a homogeneous medium the computed field is the analytic solution", "statement": "In a homogeneous lossy medium with permittivity e and permeability m, the spectrum of the computed electric field is that of the source multiplied by the dyadic Green function m (1 - k k^T / k_n^2) / (k^2 - k_n^2) with k_n^2 = k_0^2 e m; for scalar problems it is multiplied by m / (k^2 - k_n^2).", "quantifier": "every grid, wavenumber, lossy homogeneous medium, source, and spatial frequency", "why_tests_cant": "A test can compare a few examples to within the tolerance of the iteration; the claim is for the limit and every frequency.", "anchors": ["python/macromax/solver.py:Solution.solve", "python/macromax/solver.py:Solution.__init__", "python/macromax/backend/__init__.py:BackEnd.convolve"]}
{"id": "C139", "title": "Only the products of wavenumber, permittivity, and permeability count", "statement": "The field computed for the vacuum wavenumber k_0 and permittivity epsilon is the field computed for k_0 / a and a^2 epsilon. The field computed for a uniform permeability m is that for the permittivity m epsilon and the source multiplied by m.", "quantifier": "every a > 0, grid, lossy permittivity that varies from point to point (also anisotropic), uniform permeability, and source (the right-hand side of the wave equation)", "why_tests_cant": "The two calculations use different preconditioners, different backgrounds, and a different number of iterations; only their limits are equal.", "anchors": ["python/macromax/solver.py:Solution.solve", "python/macromax/solver.py:Solution.__init__"]}
{"id": "C140", "title": "Rounding errors do not build up in magnetic and chiral media", "statement": "In a lossy magnetic or chiral medium there is a factor r < 1 such that the reported correction is between 1 - r and 1 + r times the error of the field, and such that the fields of an iteration with absolute errors d0 and relative errors d1 < 1 - r in every step stay within (d0 + d1 |E|) / (1 - r - d1) of the solution, after the effect of the initial field has died out. Without loss the errors at most add up.", "quantifier": "every grid, magnetic or chiral medium for which the problem is solved, source, initial field, sequence of errors, and number of iterations", "why_tests_cant": "A test sees the rounding errors of one run on one machine; the bound must hold for every sequence of errors and any number of iterations.", "anchors": ["python/macromax/solver.py:Solution.__iter__", "python/macromax/solver.py:Solution.residue", "python/macromax/solver.py:Solution.solve"]}
{"id": "C141", "title": "The mirror image of a magnetic or chiral problem has the mirror image of the solution", "statement": "When a magnetic or chiral medium and the current density are mirrored along one axis, where the magneto-electric coupling also changes sign because right-handed turns into left-handed, then the computed electric field is the mirror image of the original.", "quantifier": "every axis, grid, lossy magnetic or chiral medium (also anisotropic), and current density", "why_tests_cant": "The sign conventions of the curl, of xi and zeta, and of the discrete frequencies must agree for all sizes; a test with an odd number of points does not see the failure for an even number.", "anchors": ["python/macromax/solver.py:Solution.solve", "python/macromax/solver.py:Solution.__init__", "python/macromax/backend/__init__.py:BackEnd.curl_ft"]}
{"id": "C142", "title": "The order of the axes is immaterial for magnetic and chiral media", "statement": "Exchanging two successive axes of the grid, the magnetic or chiral medium, and the current density, and with these the order of the vector components, exchanges the axes and the vector components of the computed electric field, provided that the magneto-electric coupling changes sign, because a right-handed system of axes becomes a left-handed one.", "quantifier": "every grid of two or three dimensions, lossy magnetic or chiral medium (also anisotropic), and current density", "why_tests_cant": "The code treats axes by their number, in particular in the cross products; the claim is about all sizes and media.", "anchors": ["python/macromax/solver.py:Solution.solve", "python/macromax/solver.py:Solution.__init__", "python/macromax/backend/__init__.py:BackEnd.curl_ft"]}
{"id": "C143", "title": "The amplitude of the source only changes the amplitude of the fields", "statement": "Multiplying the source or current density, and the initial field, by a non-zero complex number multiplies E, B, H, and D by that number and the Poynting vector, energy density, forces, and torques by its squared magnitude, after every iteration. solve takes exactly the same number of iterations, with the same residues, and ends in the same way, in every medium, also when iterations are rejected and alpha is increased.", "quantifier": "every medium (magnetic and anisotropic, with gain or loss), source, initial field, complex factor other than zero, history of assignments and iterations, tolerance, and callback that only depends on iteration and residue", "why_tests_cant": "The adaptive steps and the stop criterion are not linear; a test cannot show that no absolute threshold is involved in any of them.", "anchors": ["python/macromax/solver.py:Solution.__iter__", "python/macromax/solver.py:Solution.solve", "python/macromax/solver.py:Solution.residue", "python/macromax/solver.py:Solution.S", "python/macromax/solver.py:Solution.energy_density"]}
{"id": "C144", "title": "The cache of a scattering matrix does not change any product", "statement": "In lossy media, each product with a scattering matrix is exactly the same as that with caching switched off and with a Solution that was not used before, whatever was done before: products with vectors and matrices, conversion to arrays, and switching of caching. A column that is in the cache is not calculated again.", "quantifier": "every lossy non-magnetic medium, layout of sources and detectors, tolerance, history, and vector with amplitudes above the threshold of 1e-8", "why_tests_cant": "The values in the cache come from vectors of other amplitudes and from a Solution with another history; that the result is the same depends on the whole iteration.", "anchors": ["python/macromax/matrix.py:ScatteringMatrix.__matmul__", "python/macromax/matrix.py:ScatteringMatrix._matvec", "python/macromax/matrix.py:ScatteringMatrix.caching", "python/macromax/matrix.py:ScatteringMatrix.__array__"]}
{"id": "C145", "title": "A scattering matrix can be restored from its values", "statement": "A scattering matrix that is constructed with the array argument, a sequence, an array, or a function that returns one, has these values without any calculation, and its products with all vectors are those of the matrix from which the values were obtained. Arrays of another shape are rejected. Without caching the argument is ignored.", "quantifier": "every lossy medium, previous history of the matrix, array, and vector", "why_tests_cant": "Every combination of shape and type of the argument, and of stored and calculated columns, is to be covered.", "anchors": ["python/macromax/matrix.py:ScatteringMatrix.__init__", "python/macromax/matrix.py:ScatteringMatrix.__array__"]}
{"id": "C146", "title": "Conversion to a given array", "statement": "The conversion of a scattering matrix to an array returns its columns, whatever was done with the matrix before, and when an array is provided for the result then this is filled with the matrix.", "quantifier": "every lossy medium, history, and array", "why_tests_cant": "Symmetric matrices, as those of tests with reciprocal samples in normal incidence, do not show a transposition.", "anchors": ["python/macromax/matrix.py:ScatteringMatrix.__array__"]}
{"id": "C147", "title": "The calculation is made on the grid that is given", "statement": "A Solution can be constructed on any Grid. Functions that describe the source and the material are called with one array of coordinates per axis, and these broadcast to the shape of the grid with the coordinates of the grid. The wave vectors used for derivatives and for the Green function are those of the discrete Fourier transform on the grid, in units of the vacuum wavenumber.", "quantifier": "every Grid, of any number of dimensions, with flat axes or not, and monotonous or with the origin at index 0; every wavenumber", "why_tests_cant": "Flat grids of equal sides and grids constructed from numbers give fields of the right shape with wrong values.", "anchors": ["python/macromax/solver.py:Solution.__init__", "python/macromax/backend/__init__.py:BackEnd.k", "python/macromax/backend/__init__.py:BackEnd.k2", "python/macromax/utils/ft/grid.py:Grid.__iter__", "python/macromax/utils/ft/grid.py:Grid.__getitem__"]}
{"id": "C148", "title": "Ranges can be given instead of a Grid", "statement": "A sequence of ranges of uniformly spaced numbers can be given to a Solution and to a boundary instead of a Grid. This gives the grid with these coordinates. For one dimension the range can be given itself.", "quantifier": "every number of ranges of every length of at least two, in increasing or decreasing order, and as returned by numpy.fft.ifftshift", "why_tests_cant": "Whether ranges are told apart from numbers and from axes of arrays depends on their number and their lengths.", "anchors": ["python/macromax/solver.py:Solution.__init__", "python/macromax/bound.py:Bound.__init__", "python/macromax/utils/ft/grid.py:Grid.from_ranges"]}
{"id": "C149", "title": "The field that solve returns is that of the problem its arguments state", "statement": "Let the arguments of solve be a Grid or ranges, a wavenumber, an angular frequency or a vacuum wavelength, a source distribution or a current density, a permittivity or a refractive index, and optionally an absorbing boundary, where the source and material are numbers, arrays or functions of the coordinates. If the stated medium has no gain and the stated wave equation has a solution, then solve returns without exception when the tolerance or the maximum number of iterations is reached. If the medium absorbs everywhere, then there is exactly one solution, and the field returned for a tolerance r is within a constant times r of it.", "quantifier": "every non-flat grid of up to three dimensions, every combination of these arguments, every array that broadcasts and every function, isotropic or anisotropic, scalar or vector problem, and all tolerances; for a constant permeability", "why_tests_cant": "The arguments pass through conversions, defaults, precedence rules, thresholds and an iteration before the field comes out. Tests compare a few fields with an analytic solution.", "anchors": ["python/macromax/solver.py:solve", "python/macromax/solver.py:Solution.__init__", "python/macromax/solver.py:Solution.solve", "python/macromax/bound.py:AbsorbingBound.electric_susceptibility"]}
{"id": "C150", "title": "Expressions of matrices follow matrix algebra", "statement": "Matrices can be combined with +, -, *, @ and **, with numbers and with each other, in any order. The result multiplies vectors as the matrix that matrix algebra gives for the expression. A ValueError is raised exactly when the shapes do not fit.", "quantifier": "every expression of any depth, and all matrices, whether constructed from arrays or calculating their products, of all shapes", "why_tests_cant": "The number of expressions is unlimited.", "anchors": ["python/macromax/matrix.py:Matrix", "python/macromax/matrix.py:Matrix._matvec"]}
{"id": "C151", "title": "The adjoint and the transpose of expressions of matrices", "statement": "For a Matrix, and for every expression of matrices, H is the conjugate transpose, so that the inner product of x and A y equals that of H x and y. The products with H and T can be calculated also with rmatvec and with the operator T.", "quantifier": "every expression of any depth, all matrices of all shapes, and all vectors", "why_tests_cant": "The number of expressions is unlimited, and the wrong results have the right shape.", "anchors": ["python/macromax/matrix.py:Matrix._adjoint", "python/macromax/matrix.py:Matrix"]}
{"id": "C152", "title": "A beam is the superposition of plane waves that its arguments state, at the coordinates of the given grid", "statement": "Beam(grid, propagation_axis, ..., field=...).field() has one slice for each point of the given grid along the propagation axis, the first axis by default. Each of its values is the sum, at the coordinates of that point in the given grid, of the plane waves of the stated wavenumber and refractive index that make up the field that is given for the origin, as an array that broadcasts or as a function of the last coordinates, or as spectrum. With slices of refractive index, these act one after the other as thin layers. Vector fields keep their transverse part only.", "quantifier": "all grids of one to three axes with any number of points, steps and centres; all axes, positive or negative; all arrays, functions and spectra, scalar and vectorial; all sequences of media", "why_tests_cant": "The combinations of arguments are unlimited, and an error of half a step gives plausible fields.", "anchors": ["python/macromax/utils/beam.py:Beam.__init__", "python/macromax/utils/beam.py:BeamSection.__init__", "python/macromax/utils/beam.py:Beam.field", "python/macromax/utils/beam.py:BeamSection.field", "python/macromax/utils/beam.py:BeamSection.transverse_grid"]}
{"id": "C153", "title": "Equivalent arguments give the same beam, and impossible ones are refused", "statement": "A beam can be made with the wavelength instead of the wavenumber and with the refractive index instead of the permittivity: the results are the same. Without field and spectrum, and for field functions with no or with more than three parameters, a TypeError is raised.", "quantifier": "all wavelengths, principal refractive indices, grids, fields and media", "why_tests_cant": "The combinations of arguments are unlimited.", "anchors": ["python/macromax/utils/beam.py:Beam.__init__", "python/macromax/utils/beam.py:BeamSection.__init__", "python/macromax/utils/beam.py:BeamSection.field"]}
{"id": "C154", "title": "The fields E and H that solve returns for magnetic and chiral materials are those of the problem its arguments state", "statement": "Let the arguments of solve state, as numbers, arrays or functions of the coordinates, also the permeability mu and the couplings xi and zeta; a refractive index with a negative real part stands for a negative permittivity and permeability. If the stated medium has no gain and the stated Maxwell equations have a solution, then solve returns without exception when a limit is reached. If the medium absorbs everywhere, then there is exactly one solution, and both E and H as returned for a tolerance r are within a constant times r of it.", "quantifier": "every non-flat grid of up to three dimensions, every combination of arguments, every array that broadcasts and every function, isotropic or anisotropic, with mu invertible, and all tolerances", "why_tests_cant": "Four material tensors pass through conversions, defaults, sign rules, thresholds and an iteration before the fields come out. Tests compare a few fields with an analytic solution.", "anchors": ["python/macromax/solver.py:solve", "python/macromax/solver.py:Solution.__init__", "python/macromax/solver.py:Solution.solve", "python/macromax/solver.py:Solution.H"]}
{"id": "C155", "title": "Heterogeneous media can be given to a beam in all documented forms, and these are equivalent", "statement": "Beam(...).field(permittivity=...) and .field(refractive_index=...) accept the medium as a sequence of slices, each a number, an array or a function of the transverse coordinates, or as a three-dimensional array. All forms act as the same thin layers between the points along the propagation axis; the refractive index of a permittivity is its principal square root. The result has a slice for each point of the grid, and those without medium are zero.", "quantifier": "all grids of one to three axes; all propagation axes, fields and spectra; all sequences of numbers, arrays and functions, of any length; all arrays", "why_tests_cant": "The combinations of arguments are unlimited, and a medium along the wrong axis gives plausible fields.", "anchors": ["python/macromax/utils/beam.py:Beam.field", "python/macromax/utils/beam.py:Beam.__iter__", "python/macromax/utils/beam.py:BeamSection.propagate"]}
{"id": "C156", "title": "Grids are equal if and only if they have the same sampling points, and equal grids have the same hash", "statement": "grid1 == grid2 is an equivalence relation for all grids: True if and only if both have the same axes, each with the same shape, step, center and flags, and the same type of numbers. Equal grids have the same coordinates, and the same hash, so that they can be used as keys.", "quantifier": "all pairs and triples of grids with any number of axes, made from numbers or from vectors", "why_tests_cant": "There are unlimited pairs of grids, and python relies on the hashes of all of them.", "anchors": ["python/macromax/utils/ft/grid.py:Grid.__eq__", "python/macromax/utils/ft/grid.py:Grid.__hash__", "python/macromax/utils/ft/grid.py:Grid.__repr__"]}
{"id": "C157", "title": "The initial field does not change the solution that solve finds", "statement": "From any initial_field, solve converges to the same solution of the problem that its other arguments state: it returns when a limit is reached, and then its field is accurate up to a constant of the problem times the tolerance, whatever the initial field was.", "quantifier": "all problems with a passive electric medium on all grids, all bounds, all sources, initial fields, tolerances and limits on the iterations", "why_tests_cant": "The iteration is unbounded, and the initial fields are all fields.", "anchors": ["python/macromax/solver.py:solve", "python/macromax/solver.py:Solution.__init__", "python/macromax/solver.py:Solution.E", "python/macromax/solver.py:Solution.solve", "python/macromax/solver.py:Solution.__iter__"]}
{"id": "C158", "title": "The refractive index of a Solution can be read and assigned", "statement": "solution.refractive_index is the refractive index that was given, and assigning another one poses the problem that the constructor would for that refractive index: its square is the permittivity, also if it is a matrix or if its real part is negative.", "quantifier": "all grids, refractive indices, sources, and histories of a Solution", "why_tests_cant": "The values of all refractive indices at all points cannot be enumerated, nor can the histories.", "anchors": ["python/macromax/solver.py:Solution.refractive_index", "python/macromax/solver.py:Solution.epsilon"]}
{"id": "C159", "title": "Every list of colours makes a colour map that interpolates linearly", "statement": "InterpolatedColorMap(name, colors) can be used with imshow for any number of colours: the first colour is shown for the lowest value, the last for the highest, and the values in between are interpolated linearly between uniformly spaced colours, or between the given points. A fourth channel is the opacity.", "quantifier": "all numbers of colours, all colours with and without alpha channel, all points, in double precision arithmetic", "why_tests_cant": "Rounding of the points depends on the number of colours; matplotlib refuses maps that do not start at exactly 0 and end at exactly 1.", "anchors": ["python/macromax/utils/display/colormap.py:InterpolatedColorMap.__init__"]}
{"id": "C160", "title": "An initial field does not change the solution of a magnetic or chiral problem", "statement": "solve(..., initial_field=E0) of a problem with non-uniform permeability, bianisotropy or chirality ends without an exception, never returns a field farther from a solution than E0, and in absorbing media its E and H are those of the only solution of Maxwell equations up to a constant of the problem times the tolerance, whatever E0 is.", "quantifier": "all problems of up to three dimensions as in C154, all initial fields that broadcast, all limits on the iterations, all tolerances", "why_tests_cant": "The claim quantifies over all starting points and all media; a test can only start from a few.", "anchors": ["python/macromax/solver.py:solve", "python/macromax/solver.py:Solution.E", "python/macromax/solver.py:Solution.__iter__"]}
{"id": "C161", "title": "A scale bar is as long as its label says", "statement": "format_image_axes(axes, title, scale, unit) removes ticks and frame, keeps what was drawn, adds the title if there is one, and for a positive scale adds one bar whose length is the one in its label, a round number near the scale, in the unit that the documentation states. The annotations contrast with the background.", "quantifier": "all axes with any contents, all titles, all scales (numbers and arrays), all units, both backgrounds", "why_tests_cant": "The result depends on the order of magnitude of a real number; a test looks at a few scales.", "anchors": ["python/macromax/utils/display/format_image_axes.py:format_image_axes", "python/macromax/utils/round125.py:round125"]}
{"id": "C162", "title": "Optional Fourier transform packages never prevent the use of MacroMax", "statement": "Importing macromax and making a numpy back-end succeed whichever of the packages mkl, mkl_fft and pyfftw are installed, working or not; the transforms are those of the fastest package that works, and the environment of the user is left as it is.", "quantifier": "all combinations of packages that are absent, work, or fail in any way; all environments; all numbers of processors", "why_tests_cant": "A test runs on one installation; the claim is about all of them.", "anchors": ["python/macromax/utils/ft/ft_implementation.py", "python/macromax/backend/numpy.py:BackEndNumpy.__init__"]}
{"id": "C163", "title": "A Solution can be used again", "statement": "Whatever was done with a Solution before (iterations, assignments of the field, of the source or of the current density, reading its properties), solve returns the solution of the wave equation for the source that was assigned last, up to an error proportional to the tolerance, with a factor that does not depend on what was done before.", "quantifier": "all grids, permittivities, bounds, sources, histories of any length, tolerances and numbers of iterations", "why_tests_cant": "Tests solve each problem with a new Solution or follow one history; the claim is about histories of any length.", "anchors": ["python/macromax/solver.py:Solution.source_distribution", "python/macromax/solver.py:Solution.j", "python/macromax/solver.py:Solution.E", "python/macromax/solver.py:Solution.__iter__", "python/macromax/solver.py:Solution.solve"]}
{"id": "C164", "title": "A Solution can be used again in magnetic and chiral materials", "statement": "Whatever was done with a Solution before (iterations, assignments of the field, of the source or of the current density, reading its properties), E and H after solve are those of the solution of Maxwell equations for the current that was assigned last, up to an error proportional to the tolerance, with a factor that does not depend on what was done before.", "quantifier": "all grids of up to three axes, materials with permeability and bi-(an)isotropic coupling that couple through a number, bounds, currents, histories of any length, tolerances and numbers of iterations", "why_tests_cant": "Tests solve each problem with a new Solution or follow one history; the claim is about histories of any length.", "anchors": ["python/macromax/solver.py:Solution.source_distribution", "python/macromax/solver.py:Solution.j", "python/macromax/solver.py:Solution.E", "python/macromax/solver.py:Solution.H", "python/macromax/solver.py:Solution.__iter__", "python/macromax/solver.py:Solution.solve"]}
{"id": "C165", "title": "The permittivity of a Solution can be replaced and the problem solved again", "statement": "Whatever was done with a Solution before, including assignments of other permittivities, solve after assigning epsilon returns the field for the permittivity and the source that were assigned last, as a new Solution would, up to an error proportional to the tolerance, with a factor that does not depend on what was done before.", "quantifier": "all grids of up to three axes, scalar and vectorial problems, permittivities without gain, uniform permeabilities, bounds, sources, histories of any length with any number of assignments of epsilon, tolerances and numbers of iterations", "why_tests_cant": "Tests make a new Solution for each material, or replace it once; the claim is about histories of any length.", "anchors": ["python/macromax/solver.py:Solution.epsilon", "python/macromax/solver.py:Solution.__prepare_preconditioner", "python/macromax/solver.py:Solution.__iter__", "python/macromax/solver.py:Solution.solve"]}
{"id": "C166", "title": "Power is conserved in magnetic and chiral media, at every iteration", "statement": "At every iteration, whatever the medium, the power that the given current delivers to the reported electric field, -Re<E, J>, is what the reported fields absorb, omega Im(<E, D> + <H, B>). For the solution in a lossy medium, magnetic or chiral, D and B are those of the constitutive relations, and this power is at least omega loss (epsilon_0 |E|^2 + mu_0 |H|^2).", "quantifier": "all grids, media, currents, preconditioners and fields; all lossy magnetic problems", "why_tests_cant": "An identity between sums over the grid for every field that the iteration passes through.", "anchors": ["python/macromax/solver.py:Solution.E", "python/macromax/solver.py:Solution.D", "python/macromax/solver.py:Solution.H", "python/macromax/solver.py:Solution.B", "python/macromax/solver.py:solve"]}
{"id": "C167", "title": "In a homogeneous magnetic or chiral medium the computed field is the analytic solution", "statement": "For uniform epsilon, xi, zeta, and mu, numbers for which the medium is lossy, the spectrum of the field is that of the source i omega mu_0 J, with the part along the wavevector (k = 0) and those of the two circular polarisations (k and -k, for the length k of the wavevector) multiplied by mu / ((k + i k_0 xi) (k - i k_0 zeta) - k_0^2 epsilon mu). In a chiral medium with xi = i kappa = -zeta, the wavenumbers of the circular polarisations are k_0 (n + kappa) and k_0 (n - kappa).", "quantifier": "all grids, wavenumbers, lossy homogeneous media, and currents", "why_tests_cant": "An analytic formula for every wavevector and every source.", "anchors": ["python/macromax/solver.py:solve", "python/macromax/solver.py:Solution", "python/macromax/backend/__init__.py:BackEnd.curl"]}
{"id": "C168", "title": "The form in which a magnetic or chiral material is given does not matter", "statement": "Epsilon, xi, zeta, and mu may each be given as numbers, as multiples of the identity matrix, or as any other arrays that make the same of every field: the solution is the same. Also when a uniform real permeability is given as a matrix, so that the code treats the material as magnetic, the solution is that for the number, for which it does not.", "quantifier": "all grids, materials that dissipate, equivalent forms, settings of the optimisation, and currents", "why_tests_cant": "The two forms take different paths through the code with different preconditioners.", "anchors": ["python/macromax/solver.py:Solution", "python/macromax/solver.py:solve", "python/macromax/backend/__init__.py:BackEnd.is_scalar"]}
{"id": "C169", "title": "The permittivity of a magnetic or chiral Solution can be replaced and the problem solved again", "statement": "Whatever was done with a Solution before, including any number of assignments of other permittivities, solve after assigning epsilon returns the electric and the magnetizing field for the permittivity and the source that were assigned last and for the permeability and magneto-electric coupling of the constructor, up to an error proportional to the tolerance, with a factor that does not depend on what was done before.", "quantifier": "all grids of up to three axes, magnetic and chiral materials without gain of which the coupling is reciprocal, bounds, sources, histories of any length with any number of assignments of epsilon, tolerances and numbers of iterations", "why_tests_cant": "The setter reads xi, zeta and mu back from the preconditioned susceptibilities, so that errors could add up over the assignments; the claim is about histories of any length.", "anchors": ["python/macromax/solver.py:Solution.epsilon", "python/macromax/solver.py:Solution.xi", "python/macromax/solver.py:Solution.zeta", "python/macromax/solver.py:Solution.mu", "python/macromax/solver.py:Solution.solve"]}
{"id": "C170", "title": "Colour conversions act on each pixel, wherever the channel axis is", "statement": "hsv2rgb and rgb2hsv of arrays of any shape convert each pixel as they would on its own: with the channels in one array along any axis, also counted from the end, or in separate arrays and numbers that are broadcast; the channels of the result are at the axis asked for. The alpha channel is passed on and may be a number. Too few channels, a missing channel, an axis that does not exist and shapes that do not match raise an error. An image is the same after a conversion to RGB and back.", "quantifier": "all shapes, numbers of axes, positions of the channel axis, combinations of separate and stacked channels, and pixel values", "why_tests_cant": "The shapes and positions of the axis are unbounded; tests use one image layout.", "anchors": ["python/macromax/utils/display/hsv.py:hsv2rgb", "python/macromax/utils/display/hsv.py:rgb2hsv"]}
{"id": "C171", "title": "rgb2hsv converts unsigned 8-bit images", "statement": "rgb2hsv of an image of unsigned 8-bit integers, the usual type of image files, gives the hue and saturation of the same image in floating point numbers.", "quantifier": "all pixels of three channels from 0 to 255", "why_tests_cant": "There are more than sixteen million colours, and a test image has few of them.", "anchors": ["python/macromax/utils/display/hsv.py:rgb2hsv"]}
{"id": "C172", "title": "An axis along which nothing varies can be left out, in magnetic and chiral media", "statement": "For media with any epsilon, xi, zeta and mu (with loss, and a coupling for which the code solves Maxwell's equations) that do not vary along an additional last axis, and a current density that does not vary along it, the calculation on the grid with that axis gives the solution of the calculation without it, for any number of points and any step along the axis.", "quantifier": "all magnetic and chiral problems on one- and two-dimensional grids, all current densities, sizes and steps of the additional axis", "why_tests_cant": "The constants of the iteration depend on the step of the additional axis, so the intermediate fields differ; only the limits agree.", "anchors": ["python/macromax/solver.py:solve", "python/macromax/solver.py:Solution.__init__", "python/macromax/backend/__init__.py:BackEnd.curl"]}
{"id": "C173", "title": "In planar problems the two polarizations do not mix", "statement": "On a grid without a given axis, with epsilon and mu that do not couple that axis to the other two, and xi and zeta that only couple the axis to the other two, a current and an initial field along the axis give after every iteration E and D along the axis and B and H in the plane; a current and an initial field in the plane give E and D in the plane and B and H along the axis. The Poynting vector is in the plane in both cases.", "quantifier": "all grids of one or two axes, all materials as described, magnetic or not, with or without loss, all sources, initial fields and numbers of iterations", "why_tests_cant": "A leak of one polarization into the other would show only for some combination of tensors, axes and iterations.", "anchors": ["python/macromax/solver.py:Solution.__iter__", "python/macromax/solver.py:Solution.E", "python/macromax/solver.py:Solution.H", "python/macromax/solver.py:Solution.S", "python/macromax/backend/__init__.py:BackEnd.curl", "python/macromax/backend/__init__.py:BackEnd.longitudinal_projection_ft"]}
{"id": "C174", "title": "Interrupting an iteration does no harm", "statement": "When an iteration is interrupted at any statement, by a KeyboardInterrupt or a MemoryError, the Solution can still be used: the electric field is either that before or that after the iteration, and the arrays that its properties returned before do not change. However often iterations are interrupted, and whatever else is done in between, calling solve later still gives the solution for the source that was assigned last.", "quantifier": "all array libraries, histories, and interruptions of iterations before any of their statements, any number of times, with any contents of the work arrays at that moment; for the later solutions: grids, isotropic and anisotropic media without gain, sources, and boundaries", "why_tests_cant": "An interruption can come at each of some fifty statements of each iteration, with different amounts of work done; a test cannot force these points, let alone combinations of several interruptions with further use.", "anchors": ["python/macromax/solver.py:Solution.__iter__", "python/macromax/solver.py:Solution.__update_operators", "python/macromax/solver.py:Solution.solve", "python/macromax/backend/__init__.py:BackEnd.convolve", "python/macromax/backend/__init__.py:BackEnd.curl"]}
{"id": "C175", "title": "Scattering matrices survive interruptions", "statement": "When a product with a scattering matrix, or its conversion to an array, is interrupted at any moment, then the matrix can be used again as if the interrupted column had not been asked for: every later product is exactly what it would have been with a new matrix, the columns that were finished before the interruption are not calculated again, and a matrix that was constructed with an array remains that array.", "quantifier": "all grids, numbers of modes, tolerances and limits, and histories of products, conversions to an array and switching of the cache, each completed or interrupted before any of its statements, also within an iteration; for the values of products: absorbing media, isotropic or anisotropic", "why_tests_cant": "Converting a large matrix takes hours and is regularly interrupted; the interruption can come in the assignment of the source or the field, in any statement of any iteration, or just before the column is stored, and a corrupted column would be used silently ever after.", "anchors": ["python/macromax/matrix.py:ScatteringMatrix._matvec", "python/macromax/matrix.py:ScatteringMatrix.__array__", "python/macromax/matrix.py:ScatteringMatrix.source2detfield", "python/macromax/solver.py:Solution.__iter__"]}
{"id": "C176", "title": "The calculations are done on the device that was asked for", "statement": "When the torch back-end is loaded for a device, the calculations are done on that device: the GPU with the given number if it exists, the CPU if that was asked for, and the default GPU when no particular one was asked for. When the GPU does not exist or does not work, the default GPU or else the CPU is used instead. No GPU is ever used that does not exist.", "quantifier": "all machines (numbers of GPUs, which of these work), all names of devices, and all histories of calls to config and load", "why_tests_cant": "Tests run on one machine, usually without a GPU; the names, the number of GPUs and their defects vary.", "anchors": ["python/macromax/backend/torch.py:BackEndTorch.__init__", "python/macromax/backend/__init__.py:load"]}
{"id": "C177", "title": "Scalar calculations take the permeability into account", "statement": "When a scalar problem (vectorial=False) has a permeability, the field that the iteration converges to is the solution for that permeability, as it is for the component of a vector field that is perpendicular to the plane of the grid. In particular it does not depend on internal constants of the iteration.", "quantifier": "all grids, absorbing isotropic permittivities, permeabilities that vary in space, sources, initial fields, and values on which the optimisation of the constants settles", "why_tests_cant": "A test would compare one problem with a tolerance, and the internal constants come from a numerical optimisation that differs per problem and per version of scipy.", "anchors": ["python/macromax/solver.py:Solution.__prepare_preconditioner", "python/macromax/backend/__init__.py:BackEnd.curl_ft", "python/macromax/solver.py:Solution.__iter__"]}
{"id": "C178", "title": "Beam sections have the data type and polarization asked for, and can always be propagated", "statement": "The results of a BeamSection have the complex data type of the dtype argument, and by default that of the field or spectrum; they are scalar or vectorial as the vectorial argument states. Every section that can be constructed can be read, assigned to and propagated in any order without errors.", "quantifier": "all types of fields and spectra, arguments, packages for Fourier transforms, and histories of assignments, propagations through any medium and reading", "why_tests_cant": "The failures depend on the combination of arguments and on the order of the calls, since the propagation is delayed until the field is read.", "anchors": ["python/macromax/utils/beam.py:BeamSection.__init__", "python/macromax/utils/beam.py:BeamSection.field_ft", "python/macromax/utils/beam.py:BeamSection.field", "python/macromax/utils/beam.py:BeamSection.propagate"]}
{"id": "C179", "title": "Assigning a permittivity does not change the permeability", "statement": "After epsilon is assigned to a Solution, any number of times and with any use of it in between, its iterations are those of a new Solution with the last permittivity and with the permeability, magneto-electric coupling, and bound of the original.", "quantifier": "all magnetic and chiral media with invertible permeability, all Electric and Magnetic bounds, and all histories with any number of assignments", "why_tests_cant": "The permeability is recovered from the preconditioned operators at each assignment, so that errors accumulate with the number of assignments; it cannot be read.", "anchors": ["python/macromax/solver.py:Solution.epsilon", "python/macromax/solver.py:Solution.__init__"]}
{"id": "C180", "title": "Grids made from ranges have the same points to within rounding", "statement": "In double precision, Grid.from_ranges recognises for every axis whether its points are in the natural order or in that of the FFT, has the center exactly at the central point of the range, and has every other point at that of the range to within four times the largest deviation of the range from an equal spacing and a small multiple of the rounding unit times the largest coordinate, as long as the coordinates are far from overflow.", "quantifier": "all numbers of axes, numbers of points up to 2**53, ranges of doubles up to 2**1000, equally spaced to within any deviation (smaller than a quarter of the spacing unless they are monotone), in the natural order or in that of the FFT", "why_tests_cant": "Rounding errors depend on the number of points, on the spacing and on the distance from the origin; the order is decided by a comparison of rounded differences. Tests only compare a few ranges, with a tolerance.", "anchors": ["python/macromax/utils/ft/grid.py:Grid.from_ranges", "python/macromax/utils/ft/grid.py:Grid.__getitem__"]}
{"id": "C181", "title": "Vector operators do not depend on earlier calculations", "statement": "The curl, divergence, cross product and longitudinal projection of the back-ends return values that depend on their arguments only: not on the contents of the memory that is allocated for the result, nor on what earlier calls left in the work arrays, nor on the order of the calls.", "quantifier": "all contents of memory, numbers of axes and components, fields, and histories of calls with fields of any shape", "why_tests_cant": "Uninitialised memory often holds zeros in tests, and dependencies on the history only show for particular orders of calls.", "anchors": ["python/macromax/backend/__init__.py:BackEnd.curl_ft", "python/macromax/backend/__init__.py:BackEnd.cross", "python/macromax/backend/__init__.py:BackEnd.div_ft", "python/macromax/backend/__init__.py:BackEnd.longitudinal_projection_ft", "python/macromax/backend/numpy.py:BackEndNumpy.allocate_array", "python/macromax/backend/torch.py:BackEndTorch.allocate_array"]}
{"id": "C182", "title": "A matrix that can be constructed can be multiplied", "statement": "Whenever Matrix or SquareMatrix accepts its arguments, the matrix multiplies every vector that has as many numbers as the matrix reports columns, giving as many numbers as it reports rows: the sums of products with the elements that were given. All documented arguments are accepted, including functions that return an array.", "quantifier": "all arrays, nested lists, shapes, sides and vectors", "why_tests_cant": "An inconsistent shape is only noticed at the first product, and tests construct consistent matrices only.", "anchors": ["python/macromax/matrix.py:Matrix.__init__", "python/macromax/matrix.py:SquareMatrix.__init__", "python/macromax/matrix.py:Matrix._matvec"]}
{"id": "C183", "title": "Elements that are assigned to a matrix are read back", "statement": "After any sequence of assignments to the elements of a matrix, each element reads as the number last assigned to it, or as that of the array it was made of if none was; elements outside cannot be assigned; and elements do not change otherwise.", "quantifier": "all square arrays of integer, real or complex type, nested lists, numbers, and histories of assignments, by the user of the matrix or of the array", "why_tests_cant": "What is stored depends on the type of the array that happened to be passed to the constructor, and on who else holds on to it.", "anchors": ["python/macromax/matrix.py:Matrix.__setitem__", "python/macromax/matrix.py:Matrix.__getitem__", "python/macromax/matrix.py:Matrix.__array__", "python/macromax/matrix.py:SquareMatrix.__init__"]}
{"id": "C184", "title": "Interrupting an assignment to a Solution does no harm", "statement": "When an assignment of E, the source, the current density, or the permittivity to a Solution is interrupted at any statement, by a KeyboardInterrupt or a MemoryError, everything else reads as before; the next iterations proceed as from the old or from the new state; and repeating the assignment leaves the Solution as if there had been no interruption.", "quantifier": "all Solutions, assigned values, and points of interruption", "why_tests_cant": "The moment of an interruption cannot be chosen in a test, and the effect on the source only shows when it is read.", "anchors": ["python/macromax/solver.py:Solution.E", "python/macromax/solver.py:Solution.source_distribution", "python/macromax/solver.py:Solution.epsilon", "python/macromax/solver.py:Solution.__prepare_preconditioner", "python/macromax/solver.py:Solution.__update_operators"]}
{"id": "C185", "title": "The unit of length of a beam does not matter", "statement": "A beam can be given in metres, micrometres, or any other unit: multiplying the grid, the propagation distances, and the wavelength by the same positive number gives the same fields and spectra in every slice and after every history of propagation through homogeneous and heterogeneous media.", "quantifier": "all units, grids, wavenumbers, fields, media, and histories of reading, assigning, and propagating", "why_tests_cant": "Tests use one unit; the results only differ when the distances are small numbers in that unit.", "anchors": ["python/macromax/utils/beam.py:BeamSection.propagate", "python/macromax/utils/beam.py:BeamSection.field_ft", "python/macromax/utils/beam.py:Beam.field"]}
{"id": "C186", "title": "Displacing a beam and its media displaces the result", "statement": "When the field or spectrum of a beam and the media that it travels through are displaced together by any number of points, periodically, then so are the fields in all slices and after every history of propagation, reading, and assignment.", "quantifier": "all sections, displacements, fields, media, distances, and histories; scalar and vectorial", "why_tests_cant": "Tests compare a few displacements at best; the medium that matters has a contrast that is close to the tolerance of the code.", "anchors": ["python/macromax/utils/beam.py:BeamSection.propagate", "python/macromax/utils/beam.py:BeamSection.field", "python/macromax/utils/beam.py:Beam.field"]}
{"id": "C187", "title": "The mirror image of a beam propagates as the mirror image", "statement": "When the field of a beam and the media that it travels through are replaced by their mirror images with respect to a plane parallel to the propagation axis, then so are the fields in all slices and after every history of propagation, reading, and assignment. A symmetric beam in symmetric media remains symmetric.", "quantifier": "all sections, transverse axes, fields, media, distances, and histories; scalar and vectorial", "why_tests_cant": "Tests show the symmetry of a few fields on a few grids; vector fields differ on grids with an even number of points only.", "anchors": ["python/macromax/utils/beam.py:BeamSection.propagate", "python/macromax/utils/beam.py:BeamSection.field", "python/macromax/utils/beam.py:Beam.field"]}
{"id": "C188", "title": "Beams superpose", "statement": "When the field assigned to a beam is a superposition of two fields, then so are its spectrum and its field after propagation: they are those of the two fields propagated separately through the same media, with the same weights.", "quantifier": "all sections, weights, fields, spectra, media, distances, and histories of propagation and reading; scalar and vectorial", "why_tests_cant": "Linearity can be tested for a few pairs of fields only, and it is the weak fields that are treated differently.", "anchors": ["python/macromax/utils/beam.py:BeamSection.propagate", "python/macromax/utils/beam.py:BeamSection.field", "python/macromax/utils/beam.py:BeamSection.field_ft"]}
{"id": "C189", "title": "The order of the axes does not matter to a beam", "statement": "When the axes of the grid are put in another order, together with those of the fields, their vector components, the media, and the propagation axis, then the fields and spectra of a beam are the same up to that order, after every history and in all slices. In particular, a beam along one axis propagates as one along any other axis.", "quantifier": "all sections, orders of the axes, propagation axes, fields, spectra, media, distances, and histories; scalar and vectorial", "why_tests_cant": "Tests use one or two propagation axes with equal or symmetric transverse axes; an exchange of the transverse axes goes unnoticed there.", "anchors": ["python/macromax/utils/beam.py:BeamSection.propagate", "python/macromax/utils/beam.py:BeamSection.field", "python/macromax/utils/beam.py:BeamSection.field_ft", "python/macromax/utils/beam.py:Beam.field"]}
{"id": "C190", "title": "Periodic boundaries leave the whole grid for the calculation", "statement": "With periodic boundaries, which are the default and have no thickness, every sample of the grid counts as between the boundaries and none as beyond them.", "quantifier": "all grids, exactly and in double precision", "why_tests_cant": "The tests use a single grid; rounding errors in the coordinates might put a sample at the edge on the wrong side of a boundary without thickness.", "anchors": ["python/macromax/bound.py:PeriodicBound", "python/macromax/bound.py:Bound.between", "python/macromax/bound.py:Bound.beyond"]}
{"id": "C191", "title": "Errors in a beam do not grow", "statement": "Two fields that are close remain close after propagation through any slices without gain, forwards, or backwards without loss: their distance (root of the sum of squares) grows by no more than 1e-8 per slice and root of the number of components, and never in media without structure. When every step has an error, such as by rounding, of at most e, then the final error is at most the sum of these errors.", "quantifier": "all fields, scalar or vector, all sections, distances, media without gain and histories of propagation and reading", "why_tests_cant": "The tests propagate a single field; instability would only show after many slices.", "anchors": ["python/macromax/utils/beam.py:BeamSection.propagate", "python/macromax/utils/beam.py:BeamSection.field", "python/macromax/utils/beam.py:BeamSection.field_ft"]}
{"id": "C192", "title": "A scalar beam is a vector beam that is polarised along an invariant axis", "statement": "A vector beam with a field along an axis of a single point, perpendicular to the propagation axis, keeps that polarisation, and its field and spectrum are those of the scalar beam with the same history.", "quantifier": "all sections with such an axis, fields, media, backgrounds and histories of assignments, reading and propagation", "why_tests_cant": "The tests compare no scalar beam with a vector beam.", "anchors": ["python/macromax/utils/beam.py:BeamSection.__init__", "python/macromax/utils/beam.py:BeamSection.propagate", "python/macromax/utils/beam.py:Beam.field"]}
{"id": "C193", "title": "A beam in periodic media repeats itself", "statement": "When the field and the media of a beam repeat themselves across its section, then so does the field after propagation, and it is that of a section with the size of a single period.", "quantifier": "all sections, numbers of periods along each axis, fields and media, and histories of propagation and reading", "why_tests_cant": "The tests use sections without periodicity.", "anchors": ["python/macromax/utils/beam.py:BeamSection.propagate", "python/macromax/utils/beam.py:BeamSection.field", "python/macromax/utils/beam.py:BeamSection.field_ft"]}
{"id": "C194", "title": "What a beam neglects has a bounded effect", "statement": "For any field, scalar or vector, and any slices without gain, the spectrum that a beam section reports differs from that of the split-step method in which nothing is neglected by no more than a bound in terms of the tolerances in the code. Relative to the spectrum in front, this is k times the sum over the slices of the thickness times 1e-8 + (1e-8 + 1e-5 |n|) / |n0|, for media that are deemed uniform, and of 1e-8 for distances that are left out, plus 1e-8 per point and component for every slice. It depends on the total thickness but, but for the steps of 1e-8, not on how it is divided into slices.", "quantifier": "all fields, scalar or vector, all sections, all lists of slices of any thickness with any media without gain", "why_tests_cant": "The tests compare with analytical results for a few media, far from the thresholds; that small neglected terms do not accumulate depends on the medium and on the number of slices.", "anchors": ["python/macromax/utils/beam.py:BeamSection.propagate", "python/macromax/utils/beam.py:BeamSection.field", "python/macromax/utils/beam.py:BeamSection.field_ft"]}
{"id": "C195", "title": "Errors in the media of a beam have a bounded effect", "statement": "When the refractive index or the thickness of the slices that a beam propagates through have errors, then the spectrum behind these has an error, relative to the spectrum in front, of no more than the sum of the phase errors of the slices, apart from what is neglected (C194). For errors of at most delta in the refractive index this is k times the total thickness times delta / |n0|, however strong the structure of the media is.", "quantifier": "all fields, scalar or vector, all sections, all pairs of lists of as many slices without gain", "why_tests_cant": "The tests propagate through a few exact media; sensitivity to errors in the material must hold for every structure and number of slices.", "anchors": ["python/macromax/utils/beam.py:BeamSection.propagate", "python/macromax/utils/beam.py:BeamSection.field_ft"]}
{"id": "C196", "title": "Beam propagation converges as the slices are made thinner", "statement": "Dividing the layers of a medium into thinner slices, in any way, changes the spectrum of the beam behind it, relative to that in front, by no more than k^2 N (1 + N) times the sum of the squares of the thicknesses of the layers, where N is the largest contrast |n/n0 - 1|, apart from what is neglected (C194). Slices of thickness h are thus within k^2 N (1 + N) h times the total thickness of what any division of them into thinner slices gives, and the beam propagation converges in proportion to h.", "quantifier": "all fields, scalar or vector, all sections, all layers without gain and all their divisions", "why_tests_cant": "The tests use a single slice thickness per medium; convergence is about all divisions.", "anchors": ["python/macromax/utils/beam.py:BeamSection.propagate", "python/macromax/utils/beam.py:Beam", "python/macromax/utils/beam.py:BeamSection.field_ft"]}
{"id": "C197", "title": "Beams in media that vary along the axis converge as the grid is refined along it", "statement": "When the refractive index changes no faster than L with depth and is taken at the front of each slice, then slices of thickness h or less give a field that differs, relative to the field in front, from that for any division of these into thinner slices by no more than (k^2 N (1 + N) + k L / |n0|) h times the total thickness, for a contrast up to N, apart from what is neglected (C194). So refining the sampling along the propagation axis converges.", "quantifier": "all fields, scalar or vector, all sections, all media without gain that vary at a limited rate with depth, all slices and all their divisions", "why_tests_cant": "The tests use a single sampling of each medium.", "anchors": ["python/macromax/utils/beam.py:BeamSection.propagate", "python/macromax/utils/beam.py:Beam", "python/macromax/utils/beam.py:BeamSection.field"]}
{"id": "C198", "title": "The choice of the background refractive index does not influence a beam", "statement": "The spectrum of a beam behind slices of given refractive indices does not depend on the refractive index that is chosen for the background.", "quantifier": "all scalar fields, all sections, all wavenumbers, all media without gain, all numbers of slices and all pairs of positive background indices", "why_tests_cant": "The tests compare with reference fields for one background only.", "anchors": ["python/macromax/utils/beam.py:BeamSection.propagate", "python/macromax/utils/beam.py:BeamSection"]}
{"id": "C199", "title": "Uniform absorption attenuates a beam exponentially, and a uniform change of index only changes its phase", "statement": "When the refractive index of every slice is changed by a number per slice, with any structure otherwise, the field behind the slices is multiplied by exp(i k times the optical path that is added, relative to the background), apart from what is neglected (C194). In particular the norm of the field is attenuated according to the law of Lambert and Beer.", "quantifier": "all fields, scalar or vector, all sections, all media without gain, all numbers of slices and all changes that do not reduce the absorption", "why_tests_cant": "The tests do not compare media that differ by a constant.", "anchors": ["python/macromax/utils/beam.py:BeamSection.propagate", "python/macromax/utils/beam.py:BeamSection.field", "python/macromax/utils/beam.py:BeamSection.field_ft"]}
{"id": "C200", "title": "Source and detector can be exchanged for a beam", "statement": "The overlap (sum of the products at all points) of a field h with a beam f that has crossed slices of equal thickness is that of f with the beam h that crosses the same slices in the opposite order, when both start one slice in front of the media; apart from what is neglected (C194). For vector fields the axial component changes sign, as seen from the other side.", "quantifier": "all pairs of scalar fields, and of vector fields on sections of odd numbers of points, all sections, all media without gain, all numbers of slices of any thickness", "why_tests_cant": "The tests propagate in one direction only.", "anchors": ["python/macromax/utils/beam.py:BeamSection.propagate", "python/macromax/utils/beam.py:BeamSection.field", "python/macromax/utils/beam.py:Beam"]}
{"id": "C201", "title": "Orthogonal beams remain orthogonal in media without loss", "statement": "In media without gain or loss the inner product of any two scalar fields is the same behind the slices as in front, and so is the norm of each, apart from what is neglected (C194).", "quantifier": "all pairs of scalar fields, weak ones included, all sections, all lossless media and all numbers of slices", "why_tests_cant": "The tests do not compare beams with each other.", "anchors": ["python/macromax/utils/beam.py:BeamSection.propagate", "python/macromax/utils/beam.py:BeamSection.field"]}
{"id": "C202", "title": "Boundaries have the thickness and extinction that are stated for each side, or are rejected", "statement": "A boundary that is created has on each axis and side the thickness and extinction that the arguments state: as a number, as a pair for front and back, or as an array with a row per axis of which singletons are repeated. Arguments of any other size raise a ValueError, and no others do.", "quantifier": "all grids, and all numbers, vectors and two-dimensional arrays of any size, for both arguments", "why_tests_cant": "The tests try a few sizes that are accepted, and none that is not.", "anchors": ["python/macromax/bound.py:Bound.__init__", "python/macromax/bound.py:Bound.thickness", "python/macromax/bound.py:AbsorbingBound.__init__", "python/macromax/bound.py:LinearBound.__init__"]}
{"id": "C203", "title": "Operands that do not fit a grid are rejected", "statement": "Adding to or multiplying a grid with a number, a vector of one element, or a vector with one element per axis acts on the coordinates of each axis; a vector of any other length raises an exception.", "quantifier": "all grids with one step per axis, and operands of any length", "why_tests_cant": "The tests only use operands that fit.", "anchors": ["python/macromax/utils/ft/grid.py:Grid.__add__", "python/macromax/utils/ft/grid.py:Grid.__mul__"]}
