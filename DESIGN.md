# Formal model of MacroMax (python) in Rocq/Coq 8.16.1

## Approach

The Python sources under `/repo/python/macromax` are modelled as shallow Gallina functions, branch by branch.
Exceptions are values (`result` type with the Python exception class), in-place updates return the new state,
Python generators/loops are recursive functions or folds, external calls (optimiser, callbacks, FFT libraries,
import of optional packages) are function arguments.

Numbers:

* index/shape bookkeeping is in `Z`, `nat` and `list`;
* coordinates (grid, bound, dims) are in a small record of operations `num` that is instantiated with exact reals
  `R` (theorems), exact rationals `Q` (executable: the repository's own unit-test expectations are replayed as
  `Example`s with `vm_compute`);
* fields are exact complex numbers (Coquelicot's `C = R*R`), n-dimensional arrays are functions of an index list;
* scattering matrices are mathcomp matrices over an arbitrary field (or numClosedField when conjugation is needed).

Floating-point rounding is *not* modelled unless a property is about it: the theorems are about exact arithmetic.

## Layout of `rocq/theories`

`X_Model.v` (definitions only, each citing file and lines), `X_Spec.v` (the small vocabulary in which the
property theorems are stated, independent of how the model computes), `X_Proofs.v` (lemmas), `X_Properties.v` (property
theorems only: `Proof. exact lemma. Qed.` + `Print Assumptions`).  `…_refuted` theorems record where the code violates
the property as stated; `…_partial` theorems prove part of a property.

## Plan per property

| id | modelled | proof |
|----|----------|-------|
| C01 | `Grid.__init__` over lists of numbers with dtype tags, all branches | case analysis over the branch tree; counterexamples for the violating branches |
| C02 | `__getitem__`, `first`, ifftshift | list/`nth` reasoning, parity with `lia`, `lra` |
| C03 | `from_ranges` | same, with detection inequality by `lra`/`nra` |
| C04 | `f`, `k` | same; congruence in `Z` |
| C05, C06 | arithmetic, views, `project`, `@` | rewriting on the coordinate characterisation of C02 |
| C07, C08 | `MutableGrid` as state machine | induction over op lists; `__iadd__` etc. refuted (returns None) |
| C09 | `dim.py` on (shape, elements) pairs | `lia`; `right<0` refuted |
| C10, C11 | `bound.py` | order reasoning in R; negative step refuted |
| C12, C14 | preconditioner, `__update_operators`, Green operator on n-D complex fields | Fourier-diagonal algebra, `field` |
| C13, C67, C68 | the iteration map | energy balance of one correction: the norm drops by the absorbed energy and by the part of the correction outside the medium's deviation; Parseval; limits of series |
| C15, C16, C17, C23, C51, C73-C75 | `__iter__`, `solve`, residue cache as state machine on the modelled fields | induction over histories; C74, C75 from the convergence of C67, C68 |
| C18, C19 | getters/setters | complex algebra; refutations with rational witnesses; Run_Magnetic: the tensors that are recovered from the stored operators act as those given |
| C20, C21, C22, C69-C72 | derived fields of `Solution`, magnetic branch of the preconditioner | the fixed point solves a second order equation; Maxwell's equations are reduced to it; periodic sums of divergences; plane-wave and beat witnesses |
| C24, C80 | constructor decision logic | case analysis |
| C25 | n-D DFT defined by sums | geometric sums of roots of unity, induction on the shape |
| C26, C27 | `curl_ft`, `div_ft`, `cross`, projections | ring identities per wave vector |
| C28, C52, C76-C79 | n-dimensional arrays as shape and index function; broadcasting, `np.tile`, matrix fields, the setters of E and the source | list induction; refinement of the tensors of the solver model |
| C29, C30, C88, C89, C90 | root formulas with principal roots in C, the passes that drop leading zeros, the in-place changes, eigenvalues of 3x3 matrices | field algebra, sorting; failures by absolute thresholds refuted |
| C31, C32 | `config`/`load` with an environment oracle | list induction; mutation refuted |
| C33, C35, C83 | `inv` and `convert` over the matrices of mathcomp (any field; algebraically closed for adjoints); the singular value decomposition is an argument | block matrix algebra |
| C34, C36, C37, C81, C82, C84 | `Matrix`, `QuarterMatrix`, `CachingMatrix`, `DepositionMatrix` as operators on vectors | cache invariant by induction on histories; recursion with a depth |
| C38, C85, C86, C87 | `ScatteringMatrix`: selection of the modes, vectors to fields and back, one column of the product, source and detector planes | Fourier inversion; the modes are sorted, so reversal is negation |
| C39 | `round125` over R | logarithm inequalities |
| C40 | `Adaptive` as state machine | invariants; non-termination refuted |
| C41, C42, C43 | display utilities | case analysis over sextants |
| C44, C45, C46, C96-C99 | `subpixel.py`: roll, register, Registration | DFT shift theorem; Cauchy-Schwarz and projection for the best match; argmax over whole points, half points and the zoomed window; invariant of the two cached spectra for all histories |
| C47, C48, C49, C91-C95 | `beam.py`: BeamSection (spectrum and pending distance), propagation through media, Beam iteration | spectrum with its pending distance as invariant of all histories; induction over slices; power bounded by projections and unit-modulus phases for all histories; thresholds, and power conservation of vector beams, refuted |
| C50, C100 | heap model of the arrays of a Solution: the work buffers, the two pyfftw objects with the array that they refer to, in-place operators, the arrays handed to the user | frame rule for a protected set of arrays; refinement of the model without memory over all histories of operations, reads and writes; alias theorem for D with pyfftw |
| C101, C102, C103 | the decisions of the constructor (Choice_Model): magnetic or not, gain, transposition, alpha and beta for tensors, with the values on which the optimiser settles as an argument | Eigen_Bound: the quadratic form of a Hermitian 3x3 matrix is bounded by its largest eigenvalue (Cayley-Hamilton and moments), which mat3_eigh finds up to 2 sqrt(eps); so the deviation of the medium is less than the imaginary part of alpha and the convergence theorems of C12, C13, C67, C68 apply; counter-examples on a single point for media with gain only |
| C104 | the magnetic branch of the choice of alpha and beta (Choice_Model: singular_value_sum) and the magnetic operators of Solver_Model | Operator_Convergence: the energy argument for any linear operator T with chi = i/alpha_i (T - alpha); Magnetic_Norm: triangle inequality and norm of the curl on the grid, no wave number exceeds pi/step; Magnetic_Choice: the deviation of T from alpha_r is at most the computed sum of singular values plus the error of mat3_eigh, and Im<u, T u> is the dissipated power (from the 6x6 passivity of the constitutive relations); Magnetic_Proofs puts these together |
| C105, C106 | the reading of epsilon, refractive_index, mu and bound in the constructor (Material_Model), on arrays with the broadcasting of Array_Model | Material_Spec says when an array stands for a tensor field; Material_Proofs follows the broadcasting axis by axis |
| C107 | the same, with the choice of the constants and the iteration | Material_Waves: in a uniform medium a transverse plane wave is an eigenfunction of the iteration with factor 1 + X (G X - 1); for a negative index its real part exceeds one |
| C108 | the choice of beta and of the branch for magnetic media | Material_Waves, from the fixed-point theorem of Choice_Construct |
| C109, C112 | the iteration and the choice of the constants as before; Symmetry_Spec says what it means that the iteration computes a field | Symmetry_Linear: every operator is linear; the operators in units of 1/k0 do not change |
| C110, C115, C116 | the same | the computed field is the solution of the wave equation (Symmetry_Limit); Symmetry_Reciprocity: curl curl commutes with complex conjugation when products of components of k are even; a grid of 2 by 3 points where they are not; energy estimates for C115 |
| C111 | the same | Symmetry_Shift: the Green function acts pointwise on the spectrum, maxima over the grid do not change |
| C113, C114 | the same | Symmetry_Embed: the longitudinal part is zero; the spectrum of a field that is constant along an axis is zero except at frequency zero of that axis |
| C117, C118, C119 | the grid model of Grid_Model run on IEEE binary64 numbers (Float_Model, from Flocq's BinarySingleNaN): the same functions, with every operation rounded | Float_Basics: each operation is the exact one rounded when the result is finite; order and symmetry from monotone and odd rounding; error bounds from Flocq; refutations by computing in the model |
| C120, C121, C122 | `mul`, `assign` and `sort` of `backend/torch.py` on the arrays of Array_Model; `mul` with a destination in both back-ends (Torch_Model) | same shapes and elements as numpy's by cases on the shapes; real and imaginary parts of the sums of products; sorting real parts commutes with taking real parts of the sorted list (Torch_Proofs, Torch_Roots) |
| C123, C124 | the iteration of Solver_Model, with any error added in each step (Robust_Spec) | one step reduces the distance to the solution by a factor that only depends on the loss, the contrast, and alpha (distance_contracts); geometric series; limits of powers (Robust_Proofs) |
| C125, C126 | `__iter__` as a generator function: any number of generators over one Solution, advanced and closed in any order (Iterators_Model) | simulation up to the iteration number by induction on the program (Iterators_Proofs) |
| C127, C128 | a ScatteringMatrix whose columns are calculated with the Solution object of Run_Model (Scatter_Model), one after the other, without the cache | history independence from the fields that the first step of the loop reads; linearity from the wave equation and its uniqueness in lossy media; accuracy from the convergence theorems and a bound on the detection functional (Scatter_Proofs) |
| C53-C59 | `grid.py` again | constructor inversion lemma; witnesses computed on the rational instance |
| C129, C130 | the constructor with the choice of alpha and beta (Choice_Model) joined to solve (Run_Model) in Construct_Model, for magnetic media with an optional bound | the generic descent argument of Run_Converge applied to the operator convergence of magnetic media (Magnetic_Run); H is a bounded function of E; loss of the bound adds to that of the medium |
| C131, C132 | the same as C110 | Symmetry_Mirror: a rearrangement of points and components under which phases and products of wave vector components are preserved maps solutions of the wave equation to solutions; mirrors and exchanges of successive axes are such rearrangements, except mirrors perpendicular to an even axis, for which a plane wave on 2 by 3 points is a counter-example |
| C133 | Bound_Model on the binary64 numbers of Float_Model | Bound64_Proofs: differences of nearby doubles are multiples of a power of two, hence the depth in the boundary is never rounded to zero; the sign of the depth decides both attributes; induction over the axes |
| C134-C136 | `construct` of Choice_Model with general tensors, Maxwell equations of Derived_Spec | Maxwell_Proofs: the limit of the iteration solves Maxwell's equations (C104); reciprocity from the symmetry of the curl, which holds at odd sizes only; bounds from the power balance and the Cauchy-Schwarz inequality. Maxwell_Shift: curl and Green function commute with translations, the maxima that give the constants are invariant |
| C137-C139 | `construct` of Choice_Model | Cell_Proofs: a repeated field has only the frequencies of one cell, so that curl, projections, and convolution commute with repetition, and the maxima that give the constants are equal. Cell_Uniform: the limit solves the wave equation, which is diagonal for each frequency in a uniform medium; equal wave equations have equal limits |
| C140-C142 | `construct`, `next_field`, `update` of Choice_Model and Solver_Model | Robust_Magnetic: the contraction of C20 for magnetic media, with the same factor for all fields. Maxwell_Mirror: a rearrangement of points and components that reverses the orientation changes the sign of the curl, so that it maps solutions of Maxwell's equations with xi and zeta to solutions with - xi and - zeta |
| C143-C146 | Run_Model for C143; Stored_Model: a ScatteringMatrix with its cache, its Solution, and the array argument | Bright_Proofs: every step commutes with multiplication of the source and the field, as norms scale and the decisions only depend on ratios. Stored_Proofs: hence one column is exactly homogeneous, and the cache is sound after every use |
| C147-C148 | Entry_Model: the argument grid of Solution and Bound, iteration over a Grid, and broadcasting of the coordinates and wave vectors | Entry_Proofs: the arrays of the back-end are those of Vec_Model (via the frequency grid of Grid_Model), and general counterexamples for flat and scalar grids |
| C149 | Whole_Model: solve and the constructor of Solution from the arguments as the user passes them to the iteration of Run_Model | Whole_Proofs: what is read is what the arguments mean (Whole_Spec); Whole_Results: with the convergence theorems of Run_Converge |
| C150-C151 | Algebra_Model: the operators that Matrix inherits from scipy, with the _matvec and _adjoint that it overrides | induction over expressions; elementwise product of adjoints as counterexample |
| C152-C153 | Launch_Model: the constructors of Beam and BeamSection from the arguments of the user | the grids that are rebuilt have the coordinates of the given one; reduction to C49; discarded flags as counterexample |
| C154 | Whole_Model, with mu, xi and zeta as arguments | Whole_Magnetic: as for C149, with the convergence theorems of Magnetic_Run; agreement of tensors at the points of the grid carries over to Maxwell equations, gain, and the choice of the branch |
| C155 | Media_Model: the media arguments of Beam.field, __iter__ and propagate | each form is read as the values it states at the points of a section; reduction to C152 with media that agree there; functions of two coordinates and arrays along other axes as counterexamples |
| C156 | Equal_Model: __eq__, __repr__ and __hash__ of Grid | comparison of all attributes unfolded; broadcasting of vectors of one element as counterexample |
| C157 | Warm_Model: solve with an initial_field; Run_Converge for iterations from any start | descent of the potential from any start; at a zero source the update is bounded below by a fraction of the field |
| C158 | Index_Model: getter and setter of refractive_index on top of the Solution of Run_Model | from the results for epsilon (C19); the elementwise square differs from that of the matrix for an oblique crystal |
| C159 | Colormap_Model: InterpolatedColorMap, and the table of matplotlib, on any kind of numbers | in double precision, division of an integer by itself is exact and rounding is monotone; interpolation from the search in a sorted list |
| C160 | Warm_Model and the magnetic branch of Choice_Model | the descent of Operator_Convergence from any field, a current changes the zero field because Maxwell equations would make it zero |
| C161 | Axes_Model: format_image_axes on the ticks, frame and artists of an Axes object | case analysis; the length from C39 |
| C162 | Import_Model: ft_implementation.py and the constructor of BackEndNumpy as functions of what the optional packages do | case analysis; induction on the environment |
| C163 | Run_Model histories on the Whole_Model construction | invariant on the stored norm: it is that of the update that gave the field, hence larger than the next; error bound uniform in the source |
| C164 | as C163 with the construction for magnetic media of Choice_Model | as C163; the shift, the contraction and the bound of H do not depend on the source |
| C165 | Swap_Model: the setter of epsilon with the choice of the preconditioner (Choice_Model), in histories of operations and assignments | invariant of histories: the operators are those prepared for some admissible permittivity and the source assigned last; convergence as in C163 |
| C166 | Derived_Model (the getters of E, D, H, and B), Choice_Model (construction) | Faraday and Ampere hold for the reported fields at any iteration (C21); the curl is self-adjoint; limit as in C135 |
| C167 | Choice_Model (construction in magnetic media) | the limit solves Maxwell's equations (C104); their transform at one wavevector is a quadratic equation in the matrix i k x, whose eigenspaces are the three polarisations |
| C168 | Choice_Model (both branches of the construction) | both iterations converge to the only solution of the same equations; for a uniform permeability Maxwell's equations are equivalent to the wave equation of the other branch |
| C169 | Swap_Model (the setter of epsilon), Run_Model, Choice_Model | what is read back of mu, xi and zeta acts as what was given and is, from the first assignment on, exactly what was read back before, also where mu is singular outside the grid; so the invariant of C164 holds with one of two triples of tensors |
| C170, C171 | Image_Model: moveaxis, broadcast_arrays, stack, and rgb2hsv in arithmetic modulo 256 | an index is split at the channel axis; broadcasting twice is broadcasting once; with integers all comparisons and selections are those of the reals and only one difference can be negative |
| C172, C173 | Maxwell_Embed, Plane_*: the models of the solver and the derived fields | the curl of a constant extension is the extension of the curl, so Maxwell's equations are extended, and their solution is unique; every operator of the iteration keeps or exchanges the two sets of components |
| C174 | `Interrupt_Model.v` (the statements of an iteration one by one on the memory of `Memory_Model.v`), `Interrupt_Spec.v` | A program is a sequence of statements on the attributes and arrays; an interruption keeps what the statements before it did, with arbitrary contents of the work arrays. Each statement but the last ones is shown to leave the field, the source and the obtained arrays (a Hoare-style rule per statement); the state that remains is that before, that after, or that after with the older norm. The invariant of C163 is weakened to: the stored norm is that of some earlier update, which later ones never exceed. |
| C175 | Abandon_Model: the points at which a product with a scattering matrix can be interrupted, on the matrix of Stored_Model and the interrupted iterations of C174 | invariant of histories: the operators are those of the material, and each stored column is a direct result; an interrupted column changes only the Solution; stored columns are never replaced |
| C176 | Device_Model: the choice of the device in the constructor of the torch back-end, with the strings; the machine is given by the number of GPUs and those that do not work | evaluation of the constructor for each name; the round trip of decimal numbers; first usable configuration of C31 |
| C177 | Choice_Model and Solver_Model for scalar problems in the magnetic branch | the curl with a single component is zero, so the operators are those of a non-magnetic problem with permeability 1/beta; convergence as C68; plane waves separate two values of beta |
| C178 | Dtype_Model: the numpy types and number of polarizations of the arrays of BeamSection through all its methods | invariant of histories: what is stored is complex; evaluation for the refutations |
| C179 | Drift_Model: the constructor and the epsilon setter with Electric and Magnetic bounds, any number of assignments with other operations in between | induction on the assignments with an invariant for the problem that is posed |
| C180 | from_ranges of Grid_Model with the doubles of Float_Model | monotonicity of rounding and error bounds for the order, the step and the center of an axis, then the accuracy of the points of C117 |
| C181 | Scratch_Model: the loops of curl_ft, cross, div_ft and longitudinal_projection_ft over components in arrays with arbitrary contents, and the shape of the work array over histories | a lemma on loops of which each step writes one component; induction over histories for the shapes |
| C182, C183 | Element_Model: Matrix and SquareMatrix constructors, products, reading and assigning elements, with numpy's conversion of assigned numbers | By cases on the arguments; induction on histories of assignments |
| C184 | Assign_Model: the setters of E, source, j, and epsilon with __prepare_preconditioner and __update_operators, one attribute at a time; an interruption after any number of statements | By cases on the statements, and statement-wise invariants; complete execution is proved equal to the setters of Run_Model |
| C185 | Beam_Model (as for C47-C49), with the grid, distances and wavenumber in another unit of length | A simulation: the sections in both units have the same spectrum and proportional distances to go; the wave vectors divided by the wavenumber do not depend on the unit |
| C186 | Beam_Model (as for C47-C49), with displaced fields and media | A simulation: the spectra differ by the phase factors of the displacement after every action; the discrete Fourier transform of a displaced field |
| C187 | Beam_Model (as for C47-C49), with mirrored fields and media | A simulation: the spectrum of the mirror image is the mirror image of the spectrum up to phase factors for the position of the mirror and the sign of the perpendicular component, after every action |
| C188 | Beam_Model (as for C47-C49), with superposed fields | A simulation: every action keeps the spectrum of the superposition the superposition of the spectra, with equal pending distances; a counterexample with two points |
| C189 | Beam_Model (as for C47-C49), with axes in another order | A simulation: the exchange of two successive axes commutes with the wave vectors, the transforms, the projection, and the thresholds, and so with every action; induction on the exchanges |
| C190 | Bound_Model (as for C60) and Float_Model (as for C133) | The thickness is zero, so it suffices that coordinates do not decrease, also after rounding; counterexamples for every decreasing or rolled axis |
| C191 | Beam_Model (as for C93) | Every step without the threshold is linear and adds no power (C95, C188); the threshold removes no more than the threshold itself; errors of successive steps add up by the triangle inequality |
| C192 | Beam_Model (as for C93) | Induction over the history: the wave vectors have no part along the invariant axis, so the projection leaves the field as it is |
| C193 | Beam_Model (as for C93) | The Fourier transform of a repeated field is that of the cell at multiples of its frequency (C137), where the propagators are the same; induction over the history. For weak fields: the ideal slices repeat exactly, and both fields are near those (C194) |
| C194 | Beam_Model (as for C93), Neglect_Spec (the exact slices) | Error of each slice: exponentials in the left half plane are contractions, so the phase of a medium deemed uniform is off by no more than its argument; the pending distance that is left out turns phases by at most k 1e-8; a neglected spectrum is at most the threshold. Exact slices contract (C188), so the errors add up, by induction |
| C195 | Beam_Model (as for C93), Detour_Spec (the phase errors) | Both beams are close to their exact slices (C194); one exact slice with another phase: exponentials contract, and so do the slices after it; induction over the slices |
| C196 | Beam_Model (as for C93), Divide_Spec (layers and their divisions) | Two parts differ from the whole by the commutator of diffraction and transmission, both of which are close to the identity; also the projection of vector fields is. Induction over the parts and over the layers, with exact slices that contract (C194) |
| C197 | Beam_Model (as for C93), Smooth_Spec (media by depth) | Within a slice the index is off by at most L h, which is an error as in C195; dividing the slices is C196 |
| C198 | Beam_Model (as for C93), Backdrop_Spec (sections that only differ in their background) | Both sections are near slices that are traversed exactly (C194); the phases of these differ by the two axial wavenumbers less those of the backgrounds; a medium for which these phases are opposite refutes it |
| C199 | Beam_Model (as for C93), Tint_Spec (slices and the changes of their refractive indices) | In slices in which nothing is neglected a constant factor commutes with everything; the rest is C194 and the triangle inequality |
| C200 | Beam_Model (as for C93), Return_Spec (slices and the same slices from the other side) | Diffraction is an even filter, so that it is symmetric for the sum of products, as are thin layers and, for odd numbers of points, transverse projections seen from the other side; induction over the slices; the tolerances by C194 and the inequality of Cauchy and Schwarz |
| C201 | Beam_Model (as for C93), Ortho_Spec (slices without loss) | Thin layers, diffraction and Fourier transforms keep inner products, by induction over the slices; the tolerances by C194 and the inequality of Cauchy and Schwarz |
| C202 | Bound_Model (as for C10), Bound_Spec (sided, broadcastable) | Case analysis of the broadcasting rules |
| C203 | Operand_Model: numpy broadcasting in Grid.__add__ and __mul__ (grid.py 444-473) for operands of any length, above Grid_Model | Equal to the model of C05 for operands that fit; case analysis of the broadcasting otherwise |

## Trusted base

Coq's kernel; the axioms of the standard library's real numbers
(`ClassicalDedekindReals.sig_forall_dec`, `ClassicalDedekindReals.sig_not_dec`,
`FunctionalExtensionality.functional_extensionality_dep`) and `Classical_Prop.classic` (through Flocq's rounding
functions) for theorems over `R`/`C`; nothing for the discrete parts.  Files over mathcomp's matrices use no axiom; tools that
list every constant without a body also show the opaque fields of mathcomp's sealed modules (as they do for `Reals`).
`Print Assumptions` is executed beneath every property theorem.  The tie between the model and the Python code is the
reading of the code only (the sandbox cannot run it).

## What is modelled, and simplifications

| file | modelled | not modelled / simplified |
|------|----------|---------------------------|
| `utils/ft/grid.py` | constructor (all branches, dtype tags int/float), `first`, `extent`, `__getitem__` for one axis, `f`, `k`, `from_ranges`, arithmetic, views, `project`, `transpose`, `swapaxes`, `@`, all `MutableGrid` setters and in-place operators | rounding errors except in Float_Model; operands have one element or one per axis; division by zero (numpy inf/nan) is an error value; complex coordinates; `__str__`, hash and pickling; double precision (Float_Model) without `%` and division by zero |
| `utils/dim.py` | `add`, `left_to`, `right_to`, `to_axis` on (shape, elements) | strides / memory sharing |
| `backend/__init__.py` `config`, `load` | configuration list, import failures, fall-backs | JSON parsing itself (parsed value is an argument) |
| `utils/...Adaptive` | state machine over a residue sequence | time stamps / logging |
| `bound.py` | `AbsorbingBound`, `LinearBound`: broadcasting of thickness and extinction, `extinction`, `between`, `beyond`, electric susceptibility | flat axes; infinities and NaN from a zero thickness; other subclasses |
| `utils/round125.py` | the whole function on one real number | arrays (elementwise); conversion to `int` of integer arguments |
| `utils/display/hsv.py`, `complex2rgb.py`, `grid2extent.py` | `hsv2rgb`, `rgb2hsv` of one pixel, of whole arrays with broadcasting and the channel axis, and of 8-bit channels; whole images of `complex2rgb` with normalisation, inversion, alpha and dtype; `grid2extent` of ranges and grids | other integer inputs of `rgb2hsv`, signed floating-point zeros in `np.angle` |
| `backend/numpy.py` `ft`, `ift`; `backend/__init__.py` `convolve` | the documented sums, n-dimensional, and filters in Fourier space | the FFT algorithm; the singleton axis of vector fields |
| `backend/__init__.py` vector calculus | `k`, `k2`, `curl`, `cross`, `outer`, `div`, longitudinal and transversal projections | grids with more axes than vector components |
| `solver.py` preconditioner and iteration | `__prepare_preconditioner` after the optimisation, `__update_operators`, `chi_op`, `dyadic_green_function_op`, the bias, the update of `__iter__`, the `E` and `source_distribution` getters | scipy's `fmin` (its result is an argument of the model); thresholds that drop negligible magnetic terms; singleton expansion (fields are functions of the position) |
| `solver.py` derived fields | `j`, `B`, `H`, `D`, `S`, `divS`, `energy_density`, `stress_tensor`, `f`, `torque` | values for the rounding thresholds |
| arrays in memory | work buffers of `backend/__init__.py`, `backend/numpy.py` with and without pyfftw, and `backend/torch.py`; the operators of `solver.py` in place; the arrays that the properties return (Memory_Model) | arrays of the material properties are values; arrays have the full shape; the documented behaviour of pyfftw, numpy and torch is assumed |
| `solver.py` history of a Solution | constructor after its argument handling, `__iter__`, `solve` (method and function), callbacks, `E`, `source_distribution`, `j`, `epsilon`, `iteration`, `previous_update_norm`, `relative_residue` with its cache | `set_epsilon` takes the results of the numerical optimisation as arguments (Swap_Model: with the choice of Choice_Model, for grid functions without bound); broadcasting (C52). Several iterators at once: Iterators_Model |
| arrays behind tensor fields | `backend/__init__.py`: `assign`, `eye`, `is_scalar`, `to_matrix_field`, `adjoint`, `subtract`, `mul`, `inv`; `backend/numpy.py`: `ldivide`; setters of `E` and `source_distribution` (Array_Model); argument handling of the constructor (Setup_Model); `backend/torch.py`: `mul`, `assign`, `sort`; `mul` with `out` (Torch_Model) | devices and data types of torch; pseudo-inverses; matrix factors with different numbers of axes |
| matrices | `matrix.py`: `Matrix`, `SquareMatrix`, `CachingMatrix`, quarters, output function of `DepositionMatrix` (Matrix_Model); `inv`, `convert` (Convert_Model) | scipy's `LinearOperator` beyond calling `_matvec`; `__array_function__`; slices with steps; the decomposition by `numpy.linalg.svd` |
| modes of scattering matrices | `matrix.py`: `ScatteringMatrix.__init__` (modes, planes), `srcvec2freespace`, `srcvec2source`, `detfield2detvec`, `detvec2srcvec`, `_matvec` for one column (Modes_Model); `source2detfield`, `srcvec2detfield` and the loop of `_matvec` with the Solution of Run_Model (Scatter_Model) | rounding; detection volumes of more than one layer |
| roots and eigenvalues | `backend/__init__.py`: `calc_roots_of_low_order_polynomial`, `evaluate_polynomial`, `mat3_eigh` (Roots_Model), at one point of the grid | rounding; polynomials of different points are independent in the code; eps is a number |
| beams | `utils/beam.py`: `BeamSection` (`field`, `field_ft`, `propagate`, evaluation and projection), `Beam` (`__init__`, `__iter__`, `field`) (Beam_Model) | rounding; the grid, vacuum wavenumber and axis of the constructors are in Launch_Model, media given slice by slice in Media_Model; `beam_section_at_exit` is modelled as the state after iteration |
| images | `utils/display/colormap.py`: `InterpolatedColorMap` (Colormap_Model); `utils/display/format_image_axes.py`: scale bars (Axes_Model) | matplotlib itself, beyond what its documentation says of interpolation and of positions |
| optional packages | `utils/ft/ft_implementation.py`, `utils/ft/__init__.py`: which Fourier transform package is chosen (Import_Model) | the packages themselves |
| equality of grids, refractive index and first field | `Grid.__eq__` (Equal_Model); the property `refractive_index` (Index_Model); `initial_field` (Warm_Model) | hashing of grids with fractional values |
| sub-pixel shifts | `utils/ft/subpixel.py`: `roll`, `roll_ft` (Shift_Model); `Registration`, `Reference.register`, `__zoom_ft`, `register` (Register_Model) | rounding; conversions of data types; repeated axes; references that are zero or of another shape than the subject; the arguments axes and ndim of Reference |
