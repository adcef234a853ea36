# meanas: machine-checked model — design

The subject is `/repo` (meanas: finite-difference Maxwell solvers: `fdmath`, `fdtd`, `fdfd`).
The code is read as text only; nothing here runs it. Everything is in Coq 8.16.1 under
`rocq/theories`, build with `coq_makefile -f _CoqProject -o Makefile && make -j4` in `rocq/`.

## 1. Trusted base

* The Coq kernel (and `coqchk` for the re-check).
* Axioms: none of ours. `Print Assumptions` stands below every property theorem. Theorems
  over an abstract field are closed under the global context. Theorems about real or complex
  analysis (exp, sqrt, sin, orders on R) use Coq's standard-library reals and so list
  `ClassicalDedekindReals.sig_forall_dec`, `ClassicalDedekindReals.sig_not_dec` and
  `FunctionalExtensionality.functional_extensionality_dep` (stdlib axioms), sometimes
  `Classical_Prop.classic`. No library outside the standard distribution contributes axioms.
* The reading of the Python code. Every model definition cites file and lines. The tie to
  the code is this reading only.

### What the model abstracts

* **Numbers**: exact arithmetic in an arbitrary field `K` (record `Fld`: field laws,
  decidable equality, 1+1 <> 0), with `im` and `conj` added (record `CFld`) where the code
  uses complex numbers. Instances: rationals `Qc`, Gaussian rationals (for computed
  witnesses), `R`, and complex numbers over `R`. Floating-point rounding, overflow, NaN/inf
  are not modelled: a property that only fails by rounding is not visible here. Division by
  zero is a total function in `K` (in `Model/Ndarray.v`, used for Bloch modes, far fields and
  beams, an array element is `option cpx` instead and `None` means NaN or infinity; a result
  computed from `None` is `None`); theorems that depend on a divisor carry the hypothesis
  that it is non-zero, and places where the code itself divides by zero are treated as
  findings.
* **Arrays**: a numpy array of shape `[n1;..;nk]` is a function from multi-indices
  (`list nat`) to `K`, compared only at in-range indices; `numpy.roll` uses integer `mod`;
  C-order `ravel`/`reshape` are explicit index arithmetic. A 3-component field is a function
  of component and multi-index. Broadcasting of `dx[axis]` is written as indexing;
  `Model/Ndarray.v` models numpy broadcasting of shapes in general and raises on mismatch.
* **scipy.sparse matrices**: functions `row -> col -> K`, built from the same
  (data, row, col) triples (duplicates add up), products as finite sums. Storage format is
  not modelled.
* **Errors**: `raise` and shape errors become a `Raise` result.
* **Aliasing and in-place mutation**: functions that write into their arguments return the
  new value; where mutation of a caller's object matters, the model returns it explicitly.
  `Model/Alias.v` models arrays and lists as objects on a heap for the FDTD updates and
  `stretch_with_scpml` (C138-C140).
* **Kinds of arrays**: elsewhere every array can hold its values; `Model/Dtype.v` adds the
  kind (integer, real, complex) where the code writes into `numpy.empty_like` outputs or in
  place (C141-C145, C150): assignment casts anything, in-place operators only within a kind.
* **External routines** (SVD, eigen-solvers, iterative solvers, `lstsq`, `inv`, `sqrtm`, line search) are variables
  with their mathematical contract as an explicit hypothesis in the theorem. FFTs are
  defined (`Lib/Dft.v`) as numpy's sums, and inversion is proved.
* `scipy.sparse.block_array` (eme.get_abcd) is taken to convert its argument with
  `numpy.asarray(blocks, dtype='object')`, as scipy does.
* `scipy.sparse.linalg.LinearOperator @ v` is taken to have one dimension if `v` has one
  (`matvec` ends with `y.reshape(M)`). So `bloch.eigsolve` raises in its logging loop
  (C148); the other theorems about it are about the computation without bloch.py:756-760.

### What is not modelled

Plotting, logging, type-hint plumbing, floating-point precision of dtypes, performance, sparse storage formats,
whether `fdfd/bloch.eigsolve`'s optimisation loop converges (what it returns when it does is
C104), and numerical convergence generally.

## 2. File layout (`rocq/theories`)

* `Lib/` – numbers, finite sums, multi-indices, grids, matrices (no meanas content).
* `Model/` – the transcription of the code; no proofs.
* `Spec/` – small independent specifications used in theorem statements.
* `Proofs/` – lemmas.
* `Props/` – only property theorems (`exact lemma`), `Print Assumptions`, and the non-vacuity
  examples next to them.

## 3. Properties

* **C01 Matrix operators and field functions agree (fdmath)** — plan: both code paths modelled; matrix rows computed from the COO triples, then pointwise equality with the roll-based functions by ravel/unravel lemmas.
* **C02 vec/unvec round trip** — plan: index bijection by induction over the shape.
* **C03 shift_circ is an exact cyclic group action** — plan: modular arithmetic on one axis of a multi-index; transposed matrix for negative distances; error cases as `Raise`.
* **C04 shift_with_mirror reads the mirrored cell** — plan: same; reflection index function characterised; out-of-range distance shown to raise.
* **C05 Divergence of a curl and curl of a gradient vanish** — plan: rolls along different axes commute; ring.
* **C06 Forward and backward operators are adjoint (summation by parts)** — plan: roll-invariance of grid sums by induction over the shape; ring.
* **C07 Curl parts sum to the curl** — plan: ring, per component.
* **C08 Averaging operators** — plan: from C03 plus transpose lemma.
* **C09 Cross-product matrices** — plan: block matrix algebra.
* **C10 FDTD conserves charge** — plan: invariant by induction over the run (list of currents).
* **C11 Discrete Poynting theorem, per cell and half-step** — plan: per-cell identity by ring/field; expected false for unequal E/H widths (dxmul weights): `_refuted` with a rational witness plus the exact identity with Yee weights and the equal-width theorem.
* **C12 Total energy is conserved over runs of any length** — plan: C11 summed over the grid, C14, induction over the run.
* **C13 delta_energy_* are the differences of the energy functions** — plan: field algebra.
* **C14 Poynting flux is a pure transfer between cells** — plan: roll-invariance of sums.
* **C15 FDTD steps are time reversible** — plan: induction over the run.
* **C16 FDTD runs are linear (superposition)** — plan: induction over the run; dependence cone by induction.
* **C17 FDTD is stable below the documented time step** — plan: over R: energy bound from Cauchy-Schwarz on the curl, for all steps.
* **C18 CPML updates reduce to the plain Yee updates** — plan: model of the generated update; expected false for unequal widths (both derivative families built from dxes[1]).
* **C19 CPML only acts inside its region** — plan: state includes psi arrays; frame theorem by induction over the run, convolution form of psi by induction.
* **C20 CPML coefficients are damping and validated** — plan: over R, exp inequalities.
* **C21 Conducting boundary updates** — plan: slice assignments modelled; list-of-slices indexing is an IndexError in numpy >= 1.23, recorded as finding.
* **C22 Source pulses** — plan: over R.
* **C23 fdfd.functional equals fdfd.operators** — plan: pairwise; functional.e_full with mu and functional.m2j expected false.
* **C24 e_full is made symmetric by its preconditioners** — plan: entries of the symmetrised matrix; weighted adjointness; square roots as a hypothesis p*p = volume.
* **C25 E/H system and E-only system have the same solutions** — plan: block elimination.
* **C26 m2j gives the equivalent electric current** — plan: as C25; functional.m2j expected false (sign).
* **C27 PEC and PMC masks** — plan: masked rows/columns of products.
* **C28 Poynting operators agree** — plan: three models, pointwise.
* **C29 TFSF source produces the masked incident field** — plan: linear algebra plus stencil locality.
* **C30 Boundary source is the TFSF source restricted to the mask edge** — plan: row sets; mirrored/periodic difference of mask.
* **C31 fdfd.solvers.generic returns a solution of the requested system** — plan: solver as a variable with exactness hypothesis; options dictionary as explicit state.
* **C32 uniform_grid_scpml profile** — plan: over a field with order for clip (R), s_function as a variable.
* **C33 stretch_with_scpml only stretches the requested layer** — plan: prefix sums over lists; thickness 0 with polarity < 0 expected false.
* **C34 Independent SCPML layers commute** — plan: as C33.
* **C35 Exact relation between uniform_grid_scpml and stretch_with_scpml** — plan: expected false; witness.
* **C36 A waveguide eigenvector yields an exact mode of Maxwell's equations** — plan: action of each block on vectors; commuting shifts; eigenvector hypothesis.
* **C37 The H-field waveguide operator is equivalent** — plan: same, dual.
* **C38 Mode fields are a left eigenvector; modes are orthogonal** — plan: weighted adjointness of the 2D operators.
* **C39 Normalized mode fields carry unit power** — plan: over C; sqrt.
* **C40 Wavenumber sensitivity** — plan: first-order perturbation using the left eigenvector; expected false for non-uniform area weights.
* **C41 solve_modes picks and orders modes as documented** — plan: sorting by oracle argsort contract; sign logic over C.
* **C42 waveguide_3d.solve_mode + expand_e give an exact 3D mode** — plan: phase algebra in z; axis permutation; polarity -1 expected false (signs of E_z, H_z).
* **C43 expand_e extends the slice by a pure phase** — plan: cumsum and slices as functions.
* **C44 compute_overlap_e is normalised** — plan: expected false at the low edge for polarity > 0.
* **C45 Cylindrical waveguide operators are consistent** — plan: exact consistency of the operator with the curl equations; code's exy2e expected false (Tb used for Ta), sign of e2h.
* **C46 Cylindrical waveguide reduces to the straight one** — plan: pointwise.
* **C47 EME transmission matrices have no gain** — plan: block algebra given SVD contract; force_nogain expected false.
* **C48 Eigensolvers return what they claim** — plan: solver oracle; loop with fuel = iterations.
* **C49 Bloch basis is orthogonal and the Maxwell operator acts as curl curl** — plan: per-k algebra over R; generate_kmn expected false when kx = 0.
* **C50 Bloch overlap is antisymmetric and scale invariant** — plan: algebra over C; expected false (typo) and mutation.
* **C51 Near/far-field transforms are mutually inverse** — plan: per-k algebra; FFT as inverse pair; expected false for non-square grids.
* **C52 Energy weights on grids with unequal E/H widths** — plan: expected claim found false; counterexample plus the corrected statement.
* **C53 Documented time step taken with equality** — plan: expected claim found false; counterexample plus the corrected statement.
* **C54 CPML updates on grids with unequal E/H widths** — plan: expected claim found false; counterexample plus the corrected statement.
* **C55 conducting_boundary under the required numpy** — plan: expected claim found false; counterexample plus the corrected statement.
* **C56 conducting_boundary is not a perfect electric conductor** — plan: expected claim found false; counterexample plus the corrected statement.
* **C57 gaussian_packet's documented bounds** — plan: expected claim found false; counterexample plus the corrected statement.
* **C58 ricker_pulse ignores turn_on** — plan: expected claim found false; counterexample plus the corrected statement.
* **C59 functional.e_full and e_tfsf_source with mu** — plan: expected claim found false; counterexample plus the corrected statement.
* **C60 functional.m2j has the wrong sign** — plan: expected claim found false; counterexample plus the corrected statement.
* **C61 operators.eh_full without mu** — plan: expected claim found false; counterexample plus the corrected statement.
* **C62 Boundary source keeps all TFSF current** — plan: expected claim found false; counterexample plus the corrected statement.
* **C63 generic leaves the caller's solver options alone** — plan: expected claim found false; counterexample plus the corrected statement.
* **C64 Adjoint solves and user callbacks** — plan: expected claim found false; counterexample plus the corrected statement.
* **C65 stretch_with_scpml with thickness 0 at the back** — plan: expected claim found false; counterexample plus the corrected statement.
* **C66 uniform_grid_scpml and stretch_with_scpml describe the same PML** — plan: expected claim found false; counterexample plus the corrected statement.
* **C67 inner_product of different modes on a non-uniform grid** — plan: expected claim found false; counterexample plus the corrected statement.
* **C68 Wavenumber of evanescent modes** — plan: expected claim found false; counterexample plus the corrected statement.
* **C69 solve_mode with positional arguments** — plan: expected claim found false; counterexample plus the corrected statement.
* **C70 Wavenumber sensitivity on a non-uniform grid** — plan: expected claim found false; counterexample plus the corrected statement.
* **C71 Backward modes of solve_mode** — plan: expected claim found false; counterexample plus the corrected statement.
* **C72 Distance used by expand_e on non-uniform grids** — plan: expected claim found false; counterexample plus the corrected statement.
* **C73 compute_overlap_e next to the low edge** — plan: expected claim found false; counterexample plus the corrected statement.
* **C74 compute_source launches one side only** — plan: expected claim found false; counterexample plus the corrected statement.
* **C75 Cylindrical exy2e completes an eigenvector to a mode** — plan: expected claim found false; counterexample plus the corrected statement.
* **C76 Radii of dxes2T match the grid** — plan: expected claim found false; counterexample plus the corrected statement.
* **C77 Cylindrical normalized_fields_e** — plan: expected claim found false; counterexample plus the corrected statement.
* **C78 Eigenvalue belongs to the returned vector** — plan: expected claim found false; counterexample plus the corrected statement.
* **C79 Guess vectors are left alone** — plan: expected claim found false; counterexample plus the corrected statement.
* **C80 signed_eigensolve returns positive eigenvalues only** — plan: expected claim found false; counterexample plus the corrected statement.
* **C81 signed_eigensolve on small operators** — plan: expected claim found false; counterexample plus the corrected statement.
* **C82 EME with different mode counts** — plan: expected claim found false; counterexample plus the corrected statement.
* **C83 force_nogain limits gain** — plan: expected claim found false; counterexample plus the corrected statement.
* **C84 get_s maps incoming to outgoing amplitudes** — plan: expected claim found false; counterexample plus the corrected statement.
* **C85 get_abcd returns a matrix** — plan: expected claim found false; counterexample plus the corrected statement.
* **C86 k, m, n are orthogonal for every k-vector** — plan: expected claim found false; counterexample plus the corrected statement.
* **C87 Bloch operators return finite values** — plan: expected claim found false; counterexample plus the corrected statement.
* **C88 inverse_maxwell_operator_approx inverts maxwell_operator in uniform media** — plan: expected claim found false; counterexample plus the corrected statement.
* **C89 maxwell_operator has the documented sign** — plan: expected claim found false; counterexample plus the corrected statement.
* **C90 maxwell_operator works with mu** — plan: expected claim found false; counterexample plus the corrected statement.
* **C91 Bloch fields satisfy Gauss and Ampere laws** — plan: FFT pair and basis algebra.
* **C92 bloch.inner_product has no side effects and ignores scale** — plan: expected claim found false; counterexample plus the corrected statement.
* **C93 bloch.inner_product is the reciprocity overlap** — plan: expected claim found false; counterexample plus the corrected statement.
* **C94 trq returns transmission and reflection** — plan: expected claim found false; counterexample plus the corrected statement.
* **C95 The far field carries the near field's power** — plan: Parseval on the grid; algebra of one wave.
* **C96 theta and phi are the direction angles** — plan: arctan2 and acos cases over R.
* **C97 A plane wave appears at its own direction** — plan: orthogonality of phases; index arithmetic modulo n.
* **C98 Far-field directions follow the documented convention** — plan: expected claim found false; counterexample plus the corrected statement.
* **C99 far_to_nearfield returns finite fields** — plan: expected claim found false; counterexample plus the corrected statement.
* **C100 dkx and dky are the steps of kx and ky** — plan: expected claim found false; counterexample plus the corrected statement.
* **C101 far_to_nearfield accepts rectangular grids** — plan: expected claim found false; counterexample plus the corrected statement.
* **C102 far_to_nearfield leaves its arguments unchanged** — plan: expected claim found false; counterexample plus the corrected statement.
* **C103 Padding only refines the far field** — plan: expected claim found false; counterexample plus the corrected statement.
* **C104 eigsolve returns Ritz pairs** — plan: Rayleigh-Ritz algebra over C with contracts; Hermitian functions are linear.
* **C105 The objective of eigsolve never grows** — plan: loop invariant on the list of iterates; trace_func equals the objective of the next iterate.
* **C106 Running out of iterations still gives Rayleigh quotients** — plan: expected claim found false; counterexample plus the corrected statement.
* **C107 eigsolve leaves y0 alone** — plan: expected claim found false; counterexample plus the corrected statement.
* **C108 find_k returns a wavevector** — plan: expected claim found false; counterexample plus the corrected statement.
* **C109 The conjugate-gradient coefficient uses <G, KG>** — plan: expected claim found false; counterexample plus the corrected statement.
* **C110 gaussian_beam samples a solution of the paraxial equation** — plan: complex beam parameter; derivatives over C; amplitude/phase form equals 1/q form.
* **C111 gaussian_beam is finite everywhere** — plan: exact finiteness condition.
* **C112 Normalisation and position of gaussian_beam** — plan: sum of squares over the slice; offsets cancel.
* **C113 The polarity of a PML names the side of its layer** — plan: position case analysis on both layer codes.
* **C114 inner_product(trapezoid=True) integrates over the cross-section** — plan: cumulative sums telescope; broadcasting decides failure.
* **C115 Frequency-domain solutions are harmonic time-domain runs** — plan: induction over steps; the updates with factor z are the equations at om.
* **C116 Plane waves obey the documented dispersion relation** — plan: curls of plane waves are cross products; bac-cab identity; dot with the backward vector gives transversality.
* **C117 Poynting's theorem for frequency-domain fields** — plan: local identity of curl products with conjugated H; real part over C.
* **C118 Lorentz reciprocity of e_full** — plan: symmetry of the volume-weighted matrix.
* **C119 The documented time step is the limit of stability** — plan: real part of a complex plane wave with a real growth factor from a quadratic.
* **C120 Stretched widths are uniaxial materials** — plan: stretch along the own axis commutes with differences along the other axes.
* **C121 With loss everywhere the driven problem has at most one solution** — plan: total power of the difference vanishes, so each positive term does.
* **C122 A harmonic CPML run is a frequency-domain solution on stretched widths** — plan: a factor z^2 per call sums the memory recursion as a geometric series; then as C115.
* **C123 The stretch of a CPML is passive at every resolved frequency** — plan: 1/gain in closed form; signs from p0 - p1 <= 1 and sin > 0.
* **C124 In a stretched medium waves decay in the direction they travel** — plan: the equation at a cell is r + 1/r = 2 - omega^2 eps mu w^2 s^2; imaginary parts.
* **C125 As dt -> 0 the CPML stretch is kappa + sigma/(alpha + i omega)** — plan: difference quotients of exp, cos, sin at 0; minimum over the cells of the layer.
* **C126 No position, axis or direction of the grid is special** — plan: each motion commutes with both curls; induction over the steps.
* **C127 Units may be chosen freely** — plan: the factors cancel in each update; induction over the steps.
* **C128 Frequency-domain solutions obey Gauss's laws** — plan: the divergence of a curl is zero (C03).
* **C129 Resonances of a closed box** — plan: quadratic forms of curl 1/mu curl and of eps by adjointness of the curls; compare real and imaginary parts of omega^2.
* **C130 power_iteration converges to the dominant eigenpair** — plan: the iterate is lam^n w plus a remainder bounded by rho^n; the norm of the iterate is bounded below for large n; the Rayleigh quotient is at most as far from lam as the residual
* **C131 Rayleigh quotient iteration never increases the residual of normal operators** — plan: Parlett's argument: the residual of the next vector with the old quotient is 1/|x|, Cauchy-Schwarz against the adjoint residual, optimality of the Rayleigh quotient; induction over the loop
* **C132 Search directions and restarts of eigsolve** — plan: inversion of one pass of the loop; the projected gradient is identified as in C109
* **C133 Start of eigsolve: rescaling, redraws and orthonormalisation of the first iterate** — plan: one pass of the start loop by cases on the inverse and its trace; a vector set times the root of its inverse Gram matrix is orthonormal.
* **C134 Driven FDTD runs grow at most with the injected currents** — plan: energy balance with currents, Cauchy-Schwarz in the energy norm, induction over the steps.
* **C135 No computed mode has an effective index above that of the densest medium** — plan: norm of the transverse curl of a divergence-free h by summation by parts; equipartition.
* **C136 Power, absorption and exchange of power of computed modes** — plan: summation by parts on the curl equations of one mode and the conjugate of the other.
* **C137 Group velocity of computed modes is the velocity of energy, at most that of light** — plan: exchange identity of two modes of the branch divided by the difference of the wavenumbers; limits of finite sums; arithmetic-geometric mean in each cell.
* **C138 The FDTD updates work in place; a saved field must be a copy** — plan: heap of arrays; induction over the passes of the loop; saved references are all the same address.
* **C139 FDTD updates of fields given as lists of arrays** — plan: list `+=` appends, list `-` array makes a new array; length of the list after one pass.
* **C140 stretch_with_scpml stores into the lists of the caller** — plan: list entries are addresses; second store overwrites the first when the lists are one.
* **C141 The curl functions keep the kind of array they are given** — plan: casting to the kind of e is the identity on values that fit; cases on the kinds.
* **C142 Poynting vectors keep the kind of the electric field** — plan: cast of the value; witnesses.
* **C143 Which arrays the FDTD updates and the wave operator accept** — plan: as C141, cases on the kinds of the increment.
* **C144 Which arrays the CPML updates accept** — plan: as C143; real arrays stay real through every pass of the layers.
* **C145 CPML runs are linear, reach one cell per step, and keep their memory** — plan: each pass is linear at each cell in the values there and at the neighbours; induction over the steps with a shrinking box.
* **C146 Bands lie between those of the extreme uniform media** — plan: Parseval and orthonormal m, n turn the form into a sum over cells of |F^-1 d|^2 / epsilon; compare term by term.
* **C147 Symmetries of the bands** — plan: shift and mirror rules of the discrete Fourier transform; behaviour of m and n when k is scaled or negated; witnesses in uniform media.
* **C148 eigsolve never returns with current scipy** — plan: the list of modes has num_modes elements (length of a sorted list); the first pass of the logging loop raises.
* **C149 Sources on arrays of timesteps** — plan: cases on the length of the list of timesteps.
* **C150 Integer arrays in gaussian_beam and the eigensolvers** — plan: cases on the kinds; induction over the iterations.
* **C151 When the driven frequency-domain problem can be solved** — plan: Gaussian elimination as an induction over the rows (Lib/Elim.v); eigenvectors of different eigenvalues are independent; uniqueness with loss from C121.
* **C152 Complete set of resonances of a closed lossless box** — plan: spectral theorem for Hermitian matrices from scratch (Lib/BoxMin.v: a quadratic form attains its minimum on a box by completeness; Proofs/SpectralP.v: deflation; real vectors for real matrices), applied to the form of the curl with cell weights.
* **C153 FDTD runs as sums of resonances; exact stability limit of any structure** — plan: each amplitude satisfies a two-term recurrence (adjoint curls); bounded below the limit by energy, growing like 1+2N at or above it.
* **C154 More material lowers every resonance** — plan: min-max: a combination of the first modes of one structure orthogonal to the earlier ones of the other.
* **C155 Complete, ordered set of Bloch bands** — plan: The operator of C104 is Hermitian, so the finite spectral theorem (SpectralP) gives an orthonormal basis. Min-max by counting dimensions. The plane waves are the fields of the uniform medium; uniqueness of the ordered list carries over.
* **C156 Every Bloch band falls when epsilon grows** — plan: The energy is a sum of |D|^2/eps over the cells (C146), so it is monotone in eps and scales. Min-max carries this over to each band.
* **C157 What eigsolve minimises and how its result relates to the bands** — plan: Ky Fan: the weights of a block on the bands lie in [0,1] and add up to k. Independent Ritz vectors give min-max bounds; the trace is the sum of the Ritz values.
* **C158 How far Rayleigh quotient results are from exact eigenpairs** — plan: Expansion in an orthonormal eigenbasis (finite spectral theorem). The quadratic bound is the positivity of the sum of (t-lam)(t-l-d) times the weights. Refutation with a 2x2 matrix with entries 1 and tol/2 off the diagonal.
* **C159 power_iteration on every Hermitian operator: limit and rate** — plan: In an eigenbasis each step multiplies the weights by t^2; the parts at +-lam keep their ratio, the rest shrinks relative to them like (rho/lam^2)^k.
* **C160 Bloch frequencies as functions of the wavevector; the tolerance of find_k** — plan: the curl forms at two wavevectors, written on all (also longitudinal) plane-wave fields, differ by a constant vector product; dimension count gives a field transverse at one and made of low bands and longitudinal parts at the other; completeness for the crossing.
* **C161 Speed of waves on uniform grids (numerical dispersion)** — plan: sin^2 lies below its tangent as a function of the square (sinc decreases, mean value theorem); Jensen with the Courant weights; sin x >= x - x^3/6 for the lower bound.
* **C162 The time-step limit is not the diagonal of a cell** — plan: arithmetic and harmonic means with C119.
* **C163 Convergence of the frequency-domain solution in lossy media** — plan: real and imaginary parts of the power balance (C117) give an energy bound; central differences by repeated mean value bounds; the error satisfies the grid equations with the truncation errors as electric and magnetic currents.
* **C164 Second-order convergence of FDTD runs** — plan: the error is itself an FDTD run driven by truncation errors: an electric current and a kick of H in every step; the square root of the Yee energy is a norm below the Courant limit and grows by at most the norms of the kicks (C121); central differences bound these.
* **C165 Cubic convergence of rayleigh_quotient_iteration on Hermitian operators** — plan: expand in an orthonormal eigenbasis (C158): the part outside the eigenspace is at most 2 residual/g, the quotient is off by 2 residual^2/g, and the solve scales the eigenspace up by its inverse.
* **C166 Time-domain reciprocity of FDTD: source and detector may be exchanged** — plan: per step the form <e1, eps e2> - <h1, mu h2> with one run forward and one backward in time changes by <j1,e2> - <e1,j2> (summation by parts); telescoping; impulse responses give the exchange for any signal
* **C167 Second-order convergence on every nonuniform grid** — plan: the off-centre difference of E - sum of w^2/8 times second derivatives is second-order accurate (Taylor with remainder), so the error of the computed fields against these corrected samples is O(dl^2) by the grid-independent bound C163_bounded, and the correction itself is O(dl^2)
* **C168 FDTD is second-order accurate on every nonuniform grid** — plan: as C164, with the corrected samples of C167 as reference: the error starts at O(dl^2) instead of 0, the correction changes slowly in time, and the energy norm of the leapfrog scheme bounds the sum of the local errors
* **C169 Fields without curl are gradients plus uniform fields; static modes, Helmholtz decomposition, steady states** — plan: loop sums of closed increments are independent of the line, so subtracting a uniform field makes the path sum a potential; kernel parametrised by N+2 numbers and compared with the modes by counting equations; orthogonality of static fields and curls by summation by parts
* **C170 eme.get_tr: independent of the choices of the SVD, reciprocal, covariant under phases and order of the modes** — plan: U f(S) V is the same for all singular value decompositions of a matrix if f(0)=0, because the unitary matrices between two decompositions only mix equal singular values; transposes and phase-permuted matrices have the obvious decompositions
* **C171 eme.get_tr with modes of different normalisation** — plan: the summed overlaps and the solution are diagonal; the decomposition of a diagonal matrix by moduli and phases and the uniqueness lemma of C170
* **C172 A lossless box driven at a resonance of the discretised equations grows without bound; off resonance the run is the frequency-domain field plus free ringing** — plan: second-order recurrence of the mode amplitude with a cosine source: particular solution off and at resonance (angle addition), plus solutions of the free recurrence; growth by comparing two consecutive steps; field bounds from amplitude bounds by the mode expansion; the particular solution is compared with the driven solution of C152
* **C173 Absorbing layers do not break reciprocity: with CPML, source and detector outside the layers may be exchanged at every time step** — plan: the partial sums of x^n E_n and x^n H_n solve the stretched equations at Z = 1/x up to x^N times something bounded (each memory is a geometric series); there reciprocity is symmetry of the curls with the stretched volumes, which are plain where the currents flow; a polynomial that is O(x^N) has no terms below x^N, which gives the convolution identity term by term
* **C174 Fields without divergence are curls plus uniform fields; the states currents can reach** — plan: range of a curl = fields orthogonal to the kernel of the other curl (alternative by elimination on rectangular systems), the kernel being gradients plus uniform fields (C169); summation by parts turns orthogonality into divergence and totals; two currents set E, then H, then E
* **C175 What lies outside a window of the grid does not matter until its influence arrives** — plan: induction on the steps with margins at both borders; up to step d the cells outside vanish (domain of dependence of C145 and a distance argument on the periodic grid), so the margins start to grow only then
* **C176 Modes of a lossless waveguide with complex wavenumbers** — plan: conjugating the functional form of operator_e; on slabs the derivatives along the short axis vanish and each component has a weighted quadratic form that summation by parts shows to be real; the counterexample is checked cell by cell
* **C177 Completeness of the modes of operator_e** — plan: slabs: operator_e acts on each component by a real three-point operator that is symmetric for a positive weight, so the spectral theorem of SpectralP gives the basis; in general: explicit Jordan chain of length two, a generalised eigenvector is no sum of eigenvectors; adjointness of operator_e and operator_h gives zero flux
* **C178 Reversing the grid exchanges the electric and the magnetic field** — plan: Reversal of an axis turns each forward difference into minus the backward difference with the reversed widths; the curls, the updates, the energies and the two matrix operators follow cell by cell. Runs by induction with the invariant that the dual state is half a step ahead. Resonances and wavenumbers pass from E to H by the curl and back.
* **C179 Far fields of superposed, displaced, dual and receding sources** — plan: The far field in a direction is a fixed real combination of the four spectra there (FarP4: far_form). Linearity and duality are read off it. The shift theorem of the DFT gives the phase; the signed frequency and the index differ by a whole turn. For a receding plane wave the combination vanishes by the transversality relations. Refutation by a 3-cell source padded to 4.
* **C180 Time averages of FDTD power and energy against the frequency-domain formulas** — plan: C115 gives the fields of every step as Re(F exp(i theta)). A product of two of them is a constant plus an oscillation at twice the frequency (product-to-sum), and the oscillation sums to zero over half periods (geometric sum). Poynting vector and energies are bilinear. The refutation evaluates two cells with four steps per period.
* **C181 Mean power balance of steady FDTD runs** — plan: As C180, for the product of J at the half step with E before and after it. The outflow is linear in the Poynting vector, so its mean follows from C180, and the frequency-domain balance C117 turns it into the work of the currents.
* **C182 Far field of the mirror image at the diagonal** — plan: The two-dimensional DFT of the transposed field is the transposed DFT (exchange of two sums), also after the shifts and the padding. The far field in one direction is a formula in the two spectra and the direction (FarP4); exchanging cos and sin of the azimuth gives the mirrored components, and at k = 0 the fixed azimuth gives the exchanged ones.
* **C183 Fourier sums of an FDTD run are frequency-domain fields** — plan: Summation by parts over the steps (induction on their number): the update equations times the weights add up to the frequency-domain equations, and only the first and last terms are left. Done over an abstract field for z = exp(i omega dt/2); real runs are embedded into complex ones (FourierProps.emb_run).
* **C184 Fourier sums of FDTD runs with CPML layers** — plan: The sum of the weighted states of a run is itself a state; by linearity one step multiplies it by z^2 up to the first and last states, so C122 applies to it. For infinite runs the step is continuous, and the sums of the memories converge since they obey a contracting recursion driven by the convergent sums of the derivatives.
* **C185 Work and energy flow of a periodic FDTD run, frequency by frequency** — plan: Parseval for one time series (from the DFT inversion of Lib/Dft.v) together with the shift by one step of a periodic series; the half-step offsets of J and H turn the two shifts into cos(omega dt/2).
* **C186 Each frequency of a periodic FDTD run balances its own power** — plan: The Fourier sums solve the frequency-domain equations (C183), so the complex Poynting balance of C117 applies at each frequency; the outflow telescopes over the grid.
* **C187 When a periodic source has a periodic FDTD response** — plan: Forward: C183. Backward: choose a solution for each frequency, run each as in C115, superpose the N runs (linearity of the step) and invert the discrete Fourier transform of the currents; whole turns give the return. Uniqueness by the same inversion.
