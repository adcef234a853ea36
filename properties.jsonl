{"id": "C01", "title": "Matrix operators and field functions agree (fdmath)", "statement": "For deriv_forward, deriv_back, curl_forward and curl_back, applying the matrix from fdmath.operators to vec(F) and unvec-ing gives exactly the field that the fdmath.functional version returns for F; derivatives also agree on 2D grids.", "quantifier": "every grid shape (any number of cells >= 1 per axis), every cell-width list, every field", "why_tests_cant": "the two code paths share no code (index arithmetic on flat vectors versus numpy.roll); tests can only compare them on a few shapes", "anchors": ["meanas/fdmath/operators.py: shift_circ, deriv_forward, deriv_back, cross, curl_forward, curl_back", "meanas/fdmath/functional.py: deriv_forward, deriv_back, curl_forward, curl_back", "meanas/fdmath/vectorization.py: vec, unvec"]}
{"id": "C02", "title": "vec/unvec round trip", "statement": "unvec(vec(F), shape, nvdim) == F and vec(unvec(v, shape, nvdim)) == v; vec(None) and unvec(None, ...) are None; unvec raises exactly when the vector's length is not nvdim*prod(shape); vec stores component c, cell (i,j,k) at offset c*nx*ny*nz + i*ny*nz + j*nz + k.", "quantifier": "every shape, component count, field and vector", "why_tests_cant": "index bijectivity over all shapes is an arithmetic fact, sampled shapes miss degenerate axes", "anchors": ["meanas/fdmath/vectorization.py: vec, unvec"]}
{"id": "C03", "title": "shift_circ is an exact cyclic group action", "statement": "shift_circ(axis, shape, d) @ vec(f) == vec(numpy.roll(f, -d, axis)) for every integer d (also negative, zero and larger than the axis); shifts compose additively, d and -d are inverse, d = axis length is the identity; it raises exactly for non 2D/3D shapes or an axis out of range.", "quantifier": "every 2D or 3D shape, axis, integer distance, vector", "why_tests_cant": "negative and over-long distances are handled by a transpose and a modulo; only an argument over all integers covers them", "anchors": ["meanas/fdmath/operators.py: shift_circ"]}
{"id": "C04", "title": "shift_with_mirror reads the mirrored cell", "statement": "Row i of shift_with_mirror(axis, shape, d) has exactly one non-zero entry, 1, in the column of the cell at i+d reflected at the edge it crosses, so the shifted array is continued symmetrically; it never reads outside the grid; it raises exactly for bad shape/axis, d >= axis length or d < -(axis length).", "quantifier": "every 2D or 3D shape, axis, integer distance, vector", "why_tests_cant": "reflection index arithmetic must stay in range for every size/distance pair", "anchors": ["meanas/fdmath/operators.py: shift_with_mirror"]}
{"id": "C05", "title": "Divergence of a curl and curl of a gradient vanish", "statement": "With the derivatives of one family (all forward or all backward, any per-axis cell widths), Dx(curl_x)+Dy(curl_y)+Dz(curl_z) == 0 for the curl of any field, and curl of (Dx f, Dy f, Dz f) == 0 for any scalar f.", "quantifier": "every 3D shape, cell widths, field, scalar", "why_tests_cant": "this is the no-spurious-charge guarantee; tests can only observe it up to rounding on sample grids", "anchors": ["meanas/fdmath/functional.py: deriv_forward, deriv_back, curl_forward, curl_back", "meanas/fdmath/__init__.py: Maxwell's equations discussion"]}
{"id": "C06", "title": "Forward and backward operators are adjoint (summation by parts)", "statement": "sum over the grid of g * (dx_e * Df f) equals minus the sum of f * (dx_h * Db g) along any axis; with Yee volumes, sum_H-cells h . curl_forward(e) == sum_E-cells e . curl_back(h).", "quantifier": "every shape, all non-zero cell widths on both grids, all fields", "why_tests_cant": "global adjointness over all grids is what energy conservation and symmetry of e_full rest on; only a proof covers all widths", "anchors": ["meanas/fdmath/functional.py", "meanas/fdmath/operators.py"]}
{"id": "C07", "title": "Curl parts sum to the curl", "statement": "For each component, the two entries returned by curl_forward_parts/curl_back_parts add up to the component returned by curl_forward/curl_back; the pairs are (-Dz f1, Dy f2), (Dz f0, -Dx f2), (-Dy f0, Dx f1), each depending on a single other component along a single axis.", "quantifier": "every shape, widths (or None) and field", "why_tests_cant": "sign conventions for six terms over all inputs", "anchors": ["meanas/fdmath/functional.py: curl_forward_parts, curl_back_parts"]}
{"id": "C08", "title": "Averaging operators", "statement": "avg_forward @ vec(f) is (f + next cell)/2, avg_back @ vec(f) is (f + previous cell)/2 with periodic wrap; the two matrices are transposes of each other; both fix constant fields and preserve the sum over the grid.", "quantifier": "every 2D or 3D shape, axis, field", "why_tests_cant": "needs the transpose of an index-built sparse matrix for all sizes", "anchors": ["meanas/fdmath/operators.py: avg_forward, avg_back"]}
{"id": "C09", "title": "Cross-product matrices", "statement": "vec_cross(vec(B)) @ vec(X) == vec of the pointwise cross product B x X; hence it is antisymmetric in its arguments, annihilates B itself, and B . (B x X) == 0 at each cell; cross([Bx,By,Bz]) of matrices acts as the block curl.", "quantifier": "every shape, fields B and X, matrices", "why_tests_cant": "block layout and signs for all sizes", "anchors": ["meanas/fdmath/operators.py: cross, vec_cross"]}
{"id": "C10", "title": "FDTD conserves charge", "statement": "Running maxwell_h/maxwell_e alternately for any number of steps never changes the backward divergence of epsilon*E nor the forward divergence of mu*H at any cell; with currents J added as E += -dt*J/epsilon the divergence of epsilon*E changes by exactly -dt*div J per step.", "quantifier": "every shape, cell widths, dt, epsilon, mu (non-zero), initial fields, number of steps, source sequence", "why_tests_cant": "holds over unboundedly many steps; tests run a handful", "anchors": ["meanas/fdtd/base.py: maxwell_e, maxwell_h"]}
{"id": "C11", "title": "Discrete Poynting theorem, per cell and half-step", "statement": "For the fields of an FDTD run on a grid whose E and H cell widths coincide (uniform or not), energy_estep - energy_hstep (and the next energy_hstep - energy_estep) equals -dt * poynting_divergence plus the delta_energy_j term of the injected current at every cell, exactly; with each component weighted by its own Yee cell volume the same identity holds for every dxes.", "quantifier": "every shape, dt, epsilon, mu, fields, currents, cell, step; every grid with equal E/H widths (code weights) and every grid (Yee weights)", "why_tests_cant": "documented as exact; existing tests only use grids with dxes[0] == dxes[1]", "anchors": ["meanas/fdtd/energy.py: poynting, poynting_divergence, energy_hstep, energy_estep, delta_energy_j, dxmul", "meanas/fdtd/base.py"]}
{"id": "C12", "title": "Total energy is conserved over runs of any length", "statement": "Summed over the grid, energy_hstep and energy_estep stay at their initial value for every step of a source-free run, and change by exactly the accumulated delta_energy_j sums when currents are injected (with Yee volumes: on every grid).", "quantifier": "every shape, grid with equal E and H widths (possibly non-uniform), dt (also above the stability limit), epsilon, mu, fields, number of steps", "why_tests_cant": "an invariant over unboundedly many steps", "anchors": ["meanas/fdtd/energy.py", "meanas/fdtd/base.py"]}
{"id": "C13", "title": "delta_energy_* are the differences of the energy functions", "statement": "dt * delta_energy_h2e(dt,e0,h1,e2,h3) == energy_estep(h1,e2,h3) - energy_hstep(e0,h1,e2) and dt * delta_energy_e2h(dt,h0,e1,h2,e3) == energy_hstep(e1,h2,e3) - energy_estep(h0,e1,h2), cell by cell.", "quantifier": "every dxes, epsilon, mu, dt != 0, fields", "why_tests_cant": "identity over all fields; delta_energy_e2h is not tested at all", "anchors": ["meanas/fdtd/energy.py: delta_energy_h2e, delta_energy_e2h, energy_hstep, energy_estep"]}
{"id": "C14", "title": "Poynting flux is a pure transfer between cells", "statement": "The sum of poynting_divergence over the whole periodic grid is zero, and over any set of cells equals the net flux through its faces; poynting_divergence(s=poynting(e,h,dxes)) == poynting_divergence(e=e,h=h,dxes=dxes).", "quantifier": "every shape, dxes, fields", "why_tests_cant": "telescoping over arbitrary shapes and cell sets", "anchors": ["meanas/fdtd/energy.py: poynting, poynting_divergence"]}
{"id": "C15", "title": "FDTD steps are time reversible", "statement": "Applying the updates with -dt in reverse order recovers the initial fields exactly after any number of steps; negating H and running forward retraces the same E history.", "quantifier": "every shape, dxes, dt, epsilon, mu, fields, number of steps", "why_tests_cant": "inverse over any number of steps", "anchors": ["meanas/fdtd/base.py: maxwell_e, maxwell_h"]}
{"id": "C16", "title": "FDTD runs are linear (superposition)", "statement": "The fields produced by a linear combination of initial fields and source sequences are the same linear combination of the separately produced fields after any number of steps; a run's field at a cell depends only on data within as many cells as steps taken.", "quantifier": "every shape, dxes, dt, epsilon, mu, sources, number of steps", "why_tests_cant": "superposition over unboundedly long runs", "anchors": ["meanas/fdtd/base.py: maxwell_e, maxwell_h"]}
{"id": "C17", "title": "FDTD is stable below the documented time step", "statement": "If dt is below the documented Courant limit for the smallest cell widths and smallest epsilon*mu, the fields of a source-free run stay bounded by a constant times the initial energy for all time.", "quantifier": "every shape, cell widths, materials, initial fields, number of steps", "why_tests_cant": "boundedness for all time cannot be observed by finite runs", "anchors": ["meanas/fdtd/base.py", "meanas/fdtd/__init__.py: Timestep"]}
{"id": "C18", "title": "CPML updates reduce to the plain Yee updates", "statement": "With no CPML parameters (all None), the update functions from updates_with_cpml change E and H exactly as maxwell_e/maxwell_h with the same dt, epsilon and mu, for any number of steps, on every grid whose E and H widths coincide (E update: every dxes; H update: the plain one for widths dxes[1]).", "quantifier": "every shape, dt, epsilon, mu, fields, number of steps; every grid with dxes[0] == dxes[1]", "why_tests_cant": "existing tests exercise only dxes[0] == dxes[1]", "anchors": ["meanas/fdtd/pml.py: updates_with_cpml", "meanas/fdtd/base.py"]}
{"id": "C19", "title": "CPML only acts inside its region", "statement": "With any set of active CPML layers, every cell outside all the layers' regions is updated exactly as by the plain update, in every step of a run of any length; inside, the update uses the derivative scaled by 1/kappa plus the recursively convolved memory term sum_k p0^k p1 * derivative.", "quantifier": "every shape, set of layers, parameters, fields, number of steps", "why_tests_cant": "psi memory is hidden state accumulated over all steps", "anchors": ["meanas/fdtd/pml.py: updates_with_cpml, cpml_params"]}
{"id": "C20", "title": "CPML coefficients are damping and validated", "statement": "cpml_params raises exactly for a bad axis, polarity not +-1, thickness <= 2 or epsilon_eff <= 0; for sensible inputs every p0 lies in (0,1], p1 in [-1,0], p2 in (0,1] with p0 - p1 <= 1; p2 is graded monotonically toward the outer edge, and so are p0 and p1 when cfs_alpha == 0; the E and H profiles are the documented power-law ones, staggered by half a cell and mirrored between polarities.", "quantifier": "every axis, polarity, thickness, dt, loss parameters with sigma_max >= 0, kappa_max >= 1, alpha >= 0", "why_tests_cant": "real-analysis inequalities over all parameters", "anchors": ["meanas/fdtd/pml.py: cpml_params"]}
{"id": "C21", "title": "Conducting boundary updates", "statement": "conducting_boundary(direction, polarity) returns updates that, for any field, zero the normal E (tangential H) component on the boundary plane and copy/mirror the other components from the adjacent planes, leaving every other cell unchanged; it raises exactly for a bad direction or polarity == 0.", "quantifier": "every direction, polarity, shape with enough cells, field", "why_tests_cant": "frame conditions over all cells and shapes; no test calls it", "anchors": ["meanas/fdtd/boundaries.py: conducting_boundary"]}
{"id": "C22", "title": "Source pulses", "statement": "gaussian_packet's envelope is (2a/pi)^(1/4) exp(-a t^2) around the delay (1 after it if one_sided), with a = ln 2 / 8 times the squared width dwl 2 pi / wl^2; the delay is the smallest whole number of periods for which exp(-a delay^2) <= turn_on. So the envelope at timestep 0 is at most turn_on relative to the peak, is maximal at the delay, and with one_sided and peak at most 1 never decreases; cos/sin outputs satisfy cc^2+ss^2 == 1 and are in phase with the carrier at t=0.", "quantifier": "every wl, dwl, dt > 0, 0 < turn_on < 1, timestep", "why_tests_cant": "inequalities over real parameters", "anchors": ["meanas/fdtd/misc.py: gaussian_packet, ricker_pulse"]}
{"id": "C23", "title": "fdfd.functional equals fdfd.operators", "statement": "unvec(operators.X(...) @ vec(F)) equals functional.X(...)(F) for the same arguments for: e_full and e_tfsf_source without mu; eh_full with mu; e2h with and without mu; the Poynting cross product. With mu, operators.e_full divides the forward curl by mu. (With mu, functional.e_full and functional.e_tfsf_source are wrong, C59; m2j differs by a sign, C60; operators.eh_full without mu raises, C61.)", "quantifier": "every shape, dxes, omega, epsilon, mu, mask, fields", "why_tests_cant": "documented interchangeable pairs implemented independently; no test compares them", "anchors": ["meanas/fdfd/functional.py", "meanas/fdfd/operators.py"]}
{"id": "C24", "title": "e_full is made symmetric by its preconditioners", "statement": "Pl @ e_full @ Pr (from e_full_preconditioners) equals its own transpose, and Pl @ Pr == I.", "quantifier": "every shape, non-zero complex dxes, omega, epsilon, mu, PEC and PMC masks", "why_tests_cant": "exact complex symmetry for stretched, non-uniform grids with conductors", "anchors": ["meanas/fdfd/operators.py: e_full, e_full_preconditioners"]}
{"id": "C25", "title": "E/H system and E-only system have the same solutions", "statement": "operators.eh_full(...) @ [E, H] == [J, -M] holds iff H == e2h-style elimination and e_full(...) @ E == -i*omega*(J + m2j(M)); in particular with M=0, H == e2h @ E. Same dual statement with h_full.", "quantifier": "every shape, dxes, omega != 0, epsilon, mu non-zero, E, H, J, M (no PEC/PMC; with masks for the masked subspace)", "why_tests_cant": "equivalence of two linear systems for all sizes", "anchors": ["meanas/fdfd/operators.py: eh_full, e_full, h_full, e2h, m2j", "meanas/fdfd/functional.py: eh_full"]}
{"id": "C26", "title": "m2j gives the equivalent electric current", "statement": "The E field driven by a magnetic current M in the coupled E/H system is exactly the E field that e_full gives for the electric current operators.m2j(M) (both directions; for functional.m2j see C60).", "quantifier": "every shape, dxes, omega != 0, mu, M", "why_tests_cant": "sign conventions are only pinned by the solution sets of the systems", "anchors": ["meanas/fdfd/operators.py: m2j", "meanas/fdfd/functional.py: m2j"]}
{"id": "C27", "title": "PEC and PMC masks", "statement": "Entries of e_full, h_full, eh_full in rows/columns of masked components are zero, so the operator neither reads nor writes masked E (PEC) components and drops masked H (PMC) components; unmasked rows are those of the operator applied to the field with masked components set to zero.", "quantifier": "every shape, mask, materials, fields", "why_tests_cant": "holds for arbitrary masks", "anchors": ["meanas/fdfd/operators.py: e_full, h_full, eh_full, e2h"]}
{"id": "C28", "title": "Poynting operators agree", "statement": "poynting_e_cross(vec(e)) @ vec(h) == -(poynting_h_cross(vec(h)) @ vec(e)) == vec(functional.poynting_e_cross_h(dxes)(e, h)), and equals fdtd.poynting on the same fields.", "quantifier": "every shape, dxes, fields", "why_tests_cant": "three independent implementations", "anchors": ["meanas/fdfd/operators.py: poynting_e_cross, poynting_h_cross", "meanas/fdfd/functional.py: poynting_e_cross_h", "meanas/fdtd/energy.py: poynting"]}
{"id": "C29", "title": "TFSF source produces the masked incident field", "statement": "If E solves the source-free wave equation e_full @ E == 0 then the masked field Q*E solves e_full @ x == -i*omega*J with J = e_tfsf_source @ E; J vanishes at every cell where the mask is constant over the stencil, and identically for constant masks.", "quantifier": "every shape, mask, dxes, omega != 0, materials, fields", "why_tests_cant": "support and exactness statements for arbitrary masks", "anchors": ["meanas/fdfd/operators.py: e_tfsf_source", "meanas/fdfd/functional.py: e_tfsf_source"]}
{"id": "C30", "title": "Boundary source is the TFSF source restricted to the mask edge", "statement": "e_boundary_source rows are those of e_tfsf_source where shifting the mask by one cell along some axis (periodically, or with mirrored edges) changes the mask there, and zero elsewhere; no row outside the documented edge set is kept.", "quantifier": "every shape, mask, periodic flag, materials", "why_tests_cant": "set equality over all cells and masks", "anchors": ["meanas/fdfd/operators.py: e_boundary_source"]}
{"id": "C31", "title": "fdfd.solvers.generic returns a solution of the requested system", "statement": "If the matrix solver returns an exact solution of the system it is handed, generic returns E with e_full @ E == -i*omega*J (adjoint=False) or e_full^H @ E == -i*omega*J (adjoint=True, if .H exists, C64); a guess is handed to the solver such that a solver returning it unchanged makes generic return the guess; without a guess the caller's options are not modified (with one they are, C63).", "quantifier": "every shape, dxes (non-zero), omega, materials, J, guess, exact solver", "why_tests_cant": "a statement about all solvers and all systems", "anchors": ["meanas/fdfd/solvers.py: generic, _scipy_qmr"]}
{"id": "C32", "title": "uniform_grid_scpml profile", "statement": "Cells further than th from both edges get width exactly 1; in the PML the real part stays 1 and the imaginary part is s_function of the normalised depth over sqrt(eps)*omega, growing toward the edge; dx_a is symmetric under i -> n-i and dx_b under i -> n-1-i; th == 0 gives all ones.", "quantifier": "every shape, thickness (including 2*th > n), omega, epsilon_effective, s_function", "why_tests_cant": "profile laws over all sizes", "anchors": ["meanas/fdfd/scpml.py: uniform_grid_scpml, prepare_s_function"]}
{"id": "C33", "title": "stretch_with_scpml only stretches the requested layer", "statement": "It changes only the first (polarity>0) or last (polarity<=0) `thickness` entries of the two arrays of the chosen axis, multiplies them by 1 + i*s(depth)/(d*sqrt(eps)*omega) with depth measured at the cell centre (first array) or lower edge (second array) relative to the layer length d (so real widths keep their real part), and leaves other axes and the rest of that axis untouched; thickness 0 with polarity > 0 is a no-op, thickness > n is an IndexError (thickness 0 at the other end: C65).", "quantifier": "every dxes, axis, polarity, thickness, s_function, parameters with non-zero layer length and correction", "why_tests_cant": "frame condition plus degenerate thickness 0", "anchors": ["meanas/fdfd/scpml.py: stretch_with_scpml"]}
{"id": "C34", "title": "Independent SCPML layers commute", "statement": "Adding PMLs on different axes, or on the two ends of one axis when the layers do not overlap, gives the same dxes in either order, although the second call sees complex widths.", "quantifier": "every dxes, axes, thicknesses with th1+th2 <= n, parameters", "why_tests_cant": "order independence over all grids", "anchors": ["meanas/fdfd/scpml.py: stretch_with_scpml"]}
{"id": "C35", "title": "Exact relation between uniform_grid_scpml and stretch_with_scpml", "statement": "uniform_grid_scpml(shape, th, ...) equals stretching a unit-width grid at both ends with the s function multiplied by th, with the two arrays exchanged (they are not equal without that, C66).", "quantifier": "every shape, thickness with 2*th <= n, s_function vanishing at 0, parameters", "why_tests_cant": "docs present one as the fine-grained version of the other; never compared", "anchors": ["meanas/fdfd/scpml.py"]}
{"id": "C36", "title": "A waveguide eigenvector yields an exact mode of Maxwell's equations", "statement": "If operator_e @ e_xy == wavenumber^2 * e_xy then e = exy2e @ e_xy and h = exy2h @ e_xy satisfy all six discrete curl equations (e2h @ e == h and h2e @ h == e) and both divergence conditions; e_err and h_err of the mode are zero.", "quantifier": "every 2D shape, complex dxes, omega, wavenumber != 0, non-zero epsilon and mu, eigenvector", "why_tests_cant": "an algebraic fact about all grids and materials", "anchors": ["meanas/fdfd/waveguide_2d.py: operator_e, exy2e, exy2h, e2h, h2e, curl_e, curl_h, e_err, h_err"]}
{"id": "C37", "title": "The H-field waveguide operator is equivalent", "statement": "If operator_h @ h_xy == wavenumber^2 * h_xy then h = hxy2h @ h_xy and e = hxy2e @ h_xy satisfy the same equations; and the transverse part of a mode found from operator_e is an eigenvector of operator_h with the same wavenumber (and vice versa).", "quantifier": "every 2D shape, dxes, omega != 0, wavenumber != 0, materials, eigenvector", "why_tests_cant": "equivalence of two eigenproblems for all grids", "anchors": ["meanas/fdfd/waveguide_2d.py: operator_h, hxy2h, hxy2e, operator_e"]}
{"id": "C38", "title": "Mode fields are a left eigenvector; modes are orthogonal", "statement": "operator_h is the transpose of operator_e with respect to the E x H flux through the cross-section; area-weighted (h_y, -h_x) of a mode is a left eigenvector of operator_e with the same eigenvalue; modes of one waveguide with different wavenumber^2 have zero mutual flux; and inner_product(e1, h2) (unconjugated) is half that flux, hence zero, when dxes[0] == dxes[1] are real (on other grids it is not: C67).", "quantifier": "every 2D shape, dxes, materials, pair of modes (real dxes[0] == dxes[1] for inner_product itself)", "why_tests_cant": "orthogonality for all grids, used by eme", "anchors": ["meanas/fdfd/waveguide_2d.py: inner_product, operator_e", "meanas/fdfd/eme.py"]}
{"id": "C39", "title": "Normalized mode fields carry unit power", "statement": "If normalized_fields_e/h return, the real part of inner_product(e, h, conj_h=True) of the returned fields (same prop_phase) is exactly 1; both fields are the inputs times one complex factor; the strongest entry of e (first one of largest energy) is real; the energy-weighted real sum of e over the first quadrant is positive; for positive epsilon the result does not depend on the complex scale of the eigenvector; an eigenvector gives an exact mode; it raises if the power is not positive, and otherwise only if the quadrant sum is zero.", "quantifier": "every mode field, dxes, epsilon, phase", "why_tests_cant": "normalisation for all fields", "anchors": ["meanas/fdfd/waveguide_2d.py: _normalized_fields, normalized_fields_e, normalized_fields_h, inner_product"]}
{"id": "C40", "title": "Wavenumber sensitivity", "statement": "On a uniform grid with real frequency, epsilon and mu, let a differentiable family of eigenvectors and wavenumbers of operator_e follow a differentiable change of epsilon. At a mode with real wavenumber and non-zero power, the derivative of the wavenumber is the dot product of sensitivity(e, h, ...) with the derivative of epsilon; so each entry is the partial derivative, for any scaling of the mode fields. On a non-uniform grid this fails (C70).", "quantifier": "every 2D shape, uniform dxes, lossless materials, differentiable mode family", "why_tests_cant": "derivatives of eigenvalues over all structures", "anchors": ["meanas/fdfd/waveguide_2d.py: sensitivity"]}
{"id": "C41", "title": "solve_modes picks and orders modes as documented", "statement": "Given a solver that returns eigenpairs, solve_modes refines the m-th guess from the end for each requested m, and returns a permutation of those pairs sorted by decreasing wavenumber (numpy's complex order), each wavenumber with non-negative real part; its square is the eigenvalue unless the mode is cut off (real eigenvalue <= 0, see C68); the cylindrical version multiplies by rmin; an IndexError occurs exactly if a mode number exceeds the solved modes.", "quantifier": "every list of mode numbers and eigenpairs", "why_tests_cant": "sorting/permutation and sign logic for all inputs including purely imaginary wavenumbers", "anchors": ["meanas/fdfd/waveguide_2d.py: solve_modes, solve_mode", "meanas/fdfd/waveguide_cyl.py: solve_modes"]}
{"id": "C42", "title": "waveguide_3d.solve_mode + expand_e give an exact 3D mode", "statement": "On a structure uniform along the propagation axis with equal cell widths there, the field from solve_mode (polarity +1) expanded with expand_e satisfies the 3D wave equation e_full @ E == 0 at every cell whose stencil stays inside the transverse window and does not wrap around, for every axis, and the returned H is its curl on the slice; the corrected wavenumber obeys 2/dx*sin(k*dx/2) == wavenumber_2d. For polarity -1 the same holds when the mode has no axial E and H; in general it does not (C71).", "quantifier": "every shape, axis, polarity, transverse grid, materials", "why_tests_cant": "phase factors and axis permutations for all configurations", "anchors": ["meanas/fdfd/waveguide_3d.py: solve_mode, expand_e", "meanas/fdfd/waveguide_2d.py"]}
{"id": "C43", "title": "expand_e extends the slice by a pure phase", "statement": "On the slice expand_e returns the input field; at other positions along the axis it is the slice value times exp(-i*polarity*wavenumber*distance) with distance the difference of numpy.cumsum(real(dxes[0][axis])); outside the transverse window it is zero.", "quantifier": "every axis, polarity, slice position, dxes, field", "why_tests_cant": "all axes and slice positions", "anchors": ["meanas/fdfd/waveguide_3d.py: expand_e"]}
{"id": "C44", "title": "compute_overlap_e is normalised", "statement": "sum(overlap_e * conj(E_expanded)) == 1 whenever compute_overlap_e's normalisation is non-zero, for both polarities; overlap_e is zero outside the two-cell-thick window; and the normalisation is non-zero for a field not vanishing on the slice unless the window is empty (C73).", "quantifier": "every axis, polarity, slice position in the grid, field not vanishing on the window", "why_tests_cant": "edge positions", "anchors": ["meanas/fdfd/waveguide_3d.py: compute_overlap_e"]}
{"id": "C45", "title": "Cylindrical waveguide operators are consistent", "statement": "If cylindrical_operator @ e_xy == (angular_wavenumber/rmin)^2 * e_xy, then e_xy is the transverse part of exactly one field (E, H) satisfying the six discrete cylindrical curl equations, and -e2h @ E is its H; conversely the transverse part of every solution is an eigenvector. (exy2e is C75.)", "quantifier": "every 2D shape, dxes, rmin, omega, epsilon, eigenvector", "why_tests_cant": "no tests exist for the cylindrical operators", "anchors": ["meanas/fdfd/waveguide_cyl.py: cylindrical_operator, exy2e, exy2h, e2h, dxes2T"]}
{"id": "C46", "title": "Cylindrical waveguide reduces to the straight one", "statement": "With Ta = Tb = 1 the cylindrical operators equal the straight waveguide operators (e2h up to its sign), and as rmin grows without bound every entry of cylindrical_operator, exy2e and e2h tends to the straight one; for finite rmin > 0 and positive widths Ta and Tb exceed 1 and increase with x (Tb when dx_h is the mean of neighbouring dx_e), and linear_wavenumbers divides by a radius between the smallest and largest grid radius.", "quantifier": "every shape, dxes, epsilon, fields", "why_tests_cant": "limits and bounds over all inputs", "anchors": ["meanas/fdfd/waveguide_cyl.py: cylindrical_operator, dxes2T, linear_wavenumbers, e2h, exy2e"]}
{"id": "C47", "title": "EME transmission matrices have no gain", "statement": "get_tr returns a transmission matrix with no singular value above one; when amplitudes exist that make the transverse fields continuous (and transmit without gain) get_tr returns exactly these transmission and reflection matrices; get_s with force_reciprocal is symmetric; the four blocks computed by get_abcd map (incoming left, outgoing left) to (outgoing right, incoming right).", "quantifier": "every grid and set of modes; any lstsq, svd, pinv meeting their contracts", "why_tests_cant": "linear-algebra facts about all mode sets", "anchors": ["meanas/fdfd/eme.py: get_tr, get_abcd, get_s"]}
{"id": "C48", "title": "Eigensolvers return what they claim", "statement": "rayleigh_quotient_iteration visits the guess and then each solver result scaled to unit length, stops at the first vector with residual below tolerance and returns it with its Rayleigh quotient (the best eigenvalue for it); power_iteration returns the unit vector along A^iterations guess with its Rayleigh quotient; signed_eigensolve returns eigenpairs of the unshifted operator in increasing order, the largest ones (smallest for negative=True) when its estimate bounds a real spectrum, and only the wanted sign when enough such eigenvalues exist.", "quantifier": "every operator, guess, iteration count, tolerance, solver; eigs meeting its documented contract", "why_tests_cant": "all operators and solvers, including iterations exhausted", "anchors": ["meanas/eigensolvers.py"]}
{"id": "C49", "title": "Bloch basis is orthogonal and the Maxwell operator acts as curl curl", "statement": "generate_kmn returns unit m, n with k, m, n orthogonal and right-handed at every grid frequency with kx != 0 or ky = 0; on such grids maxwell_operator is k x F((1/eps) F^-1(k x H)); with uniform epsilon it multiplies each component by -|k|^2/epsilon; for real epsilon it is Hermitian and for positive epsilon negative semidefinite.", "quantifier": "every k0, lattice, 3D grid shape, epsilon, h", "why_tests_cant": "holds per grid frequency and for all fields", "anchors": ["meanas/fdfd/bloch.py: generate_kmn, maxwell_operator, inverse_maxwell_operator_approx"]}
{"id": "C50", "title": "Bloch overlap is antisymmetric and scale invariant", "statement": "bloch.inner_product is defined for fields that carry power, changes sign when left and right are exchanged, is unchanged when either mode is multiplied by a positive real number, and leaves its arguments normalised to unit power.", "quantifier": "every pair of mode fields with non-zero power", "why_tests_cant": "algebraic laws over all fields", "anchors": ["meanas/fdfd/bloch.py: inner_product, trq"]}
{"id": "C51", "title": "Near/far-field transforms are mutually inverse", "statement": "On square grids without evanescent frequencies, and with steps 2 pi / (n dx), 2 pi / (n dy), far_to_nearfield applied to near_to_farfield's output returns the original E and H in every cell and the original cell sizes dx, dy, for fields whose spectrum consists of outgoing plane waves.", "quantifier": "every n >= 2, dx, dy, outgoing field, padded size equal to the shape", "why_tests_cant": "round trip over all spectra and non-square grids", "anchors": ["meanas/fdfd/farfield.py"]}
{"id": "C52", "title": "Energy weights on grids with unequal E/H widths", "statement": "Expected: the half-step energy identity and total-energy conservation hold for every dxes, as the docstrings of fdtd/energy.py suggest. Found false: dxmul and delta_energy_j weight every component by the full product of one width set instead of the component's Yee volume, so on grids with dxes[0] != dxes[1] there are source-free updates violating both.", "quantifier": "exists a grid, fields and cell (counterexample); holds exactly with Yee volumes for all (C11, C12)", "why_tests_cant": "the repository's tests only use grids with dxes[0] == dxes[1]", "anchors": ["meanas/fdtd/energy.py: dxmul, delta_energy_j, energy_hstep, energy_estep"]}
{"id": "C53", "title": "Documented time step taken with equality", "statement": "Expected: dt = sqrt(mu.min()*epsilon.min()) / sqrt(1/dx_min**2 + 1/dy_min**2 + 1/dz_min**2), which the fdtd documentation says to set, gives bounded fields. Found false: on a uniform grid in vacuum a checkerboard initial field grows linearly without bound (the condition must be strict, C17).", "quantifier": "exists a grid and initial field; every bound B is exceeded at some step", "why_tests_cant": "growth is only linear, and needs unboundedly many steps to be told apart from a bounded run", "anchors": ["meanas/fdtd/__init__.py: Timestep", "meanas/fdtd/base.py"]}
{"id": "C54", "title": "CPML updates on grids with unequal E/H widths", "statement": "Expected: with no layers, updates_with_cpml(dxes) equals maxwell_e/maxwell_h for every dxes. Found false: update_H takes forward derivatives with dxes[1] instead of dxes[0] (pml.py:106); it agrees with maxwell_h at a cell exactly when the curls taken with the two width sets agree there.", "quantifier": "exists a grid, fields and cell; iff for every grid, field and cell", "why_tests_cant": "the tests use grids with dxes[0] == dxes[1]", "anchors": ["meanas/fdtd/pml.py: updates_with_cpml"]}
{"id": "C55", "title": "conducting_boundary under the required numpy", "statement": "Expected: the updaters returned by conducting_boundary can be applied to fields. Found false under numpy >= 2 (required by pyproject.toml): indexing with a list of slices raises IndexError, so every updater raises on every field.", "quantifier": "every direction, polarity, shape, field", "why_tests_cant": "no test calls it", "anchors": ["meanas/fdtd/boundaries.py: conducting_boundary", "pyproject.toml"]}
{"id": "C56", "title": "conducting_boundary is not a perfect electric conductor", "statement": "Expected: after the E updater of a 'conducting' boundary the tangential E vanishes on the boundary plane. Found false: the normal E is zeroed and the tangential E copied from the neighbouring plane (C21), i.e. the conditions of a magnetic wall.", "quantifier": "exists a shape, field and cell on the plane", "why_tests_cant": "no test calls it", "anchors": ["meanas/fdtd/boundaries.py: conducting_boundary"]}
{"id": "C57", "title": "gaussian_packet's documented bounds", "statement": "Expected from the docstring: one_sided envelopes never decrease, and turn_on is the maximum amplitude at t=0. Found false for short pulses: the envelope peak is (2 alpha/pi)^(1/4), not 1, so a one-sided envelope jumps down to 1 after the delay, and the amplitude at t=0 can exceed turn_on; it is bounded by turn_on times that peak.", "quantifier": "exists pulse parameters (counterexamples); bound for all parameters", "why_tests_cant": "the pulses are not tested; depends on units of wl", "anchors": ["meanas/fdtd/misc.py: gaussian_packet"]}
{"id": "C58", "title": "ricker_pulse ignores turn_on", "statement": "Expected from the docstring: turn_on is the maximum amplitude at t=0. Found false: for every zero the root finder can return, the delay is 0 or one period and the amplitude at t=0 is 1 or (2 pi^2 - 1) exp(-pi^2) in modulus, independent of turn_on and far above the default 1e-10. What holds: the delay is the least whole number of periods not below the root, the envelope is the Ricker shape around the delay and the carrier is cos and sin of 2 pi t / wl without a phase.", "quantifier": "every wl, dt, turn_on > 0, every root of the target", "why_tests_cant": "the result of scipy.optimize.root_scalar is not fixed by tests; statement covers every root", "anchors": ["meanas/fdtd/misc.py: ricker_pulse"]}
{"id": "C59", "title": "functional.e_full and e_tfsf_source with mu", "statement": "Expected: functional.e_full(mu) and functional.e_tfsf_source(mu) equal their operators counterparts. Found false: functional.e_full multiplies the forward curl by mu (equivalently uses 1/mu as permeability), so it agrees with operators.e_full for the inverted mu.", "quantifier": "every shape, dxes, omega, epsilon, mu, field (exact relation); exists a counterexample", "why_tests_cant": "tests use mu = None or 1", "anchors": ["meanas/fdfd/functional.py: e_full, e_tfsf_source"]}
{"id": "C60", "title": "functional.m2j has the wrong sign", "statement": "Expected: functional.m2j equals operators.m2j and gives the equivalent current. Found false: functional.m2j is minus operators.m2j for all inputs, and whenever it is non-zero the E field of the coupled system does not solve the E-only system it drives.", "quantifier": "every shape, dxes, omega != 0, mu, M", "why_tests_cant": "functional.m2j is never exercised by tests", "anchors": ["meanas/fdfd/functional.py: m2j", "meanas/fdfd/operators.py: m2j"]}
{"id": "C61", "title": "operators.eh_full without mu", "statement": "Expected: operators.eh_full(mu=None) means vacuum permeability. Found false: it raises for every input without mu; passing a vector of ones gives what functional.eh_full does with mu=None.", "quantifier": "every shape, omega, dxes, epsilon, masks, fields", "why_tests_cant": "never called by tests", "anchors": ["meanas/fdfd/operators.py: eh_full", "meanas/fdfd/functional.py: eh_full"]}
{"id": "C62", "title": "Boundary source keeps all TFSF current", "statement": "Expected: for a mask that is the same for all components, e_boundary_source keeps every non-zero row of e_tfsf_source. Found false: cells whose axis neighbours all have the same mask but a diagonal neighbour differs carry TFSF current (the wave operator couples diagonally) that e_boundary_source drops.", "quantifier": "exists a mask, grid, field and cell", "why_tests_cant": "only convex regions aligned with the stagger direction are tried in examples", "anchors": ["meanas/fdfd/operators.py: e_boundary_source, e_tfsf_source"]}
{"id": "C63", "title": "generic leaves the caller's solver options alone", "statement": "Expected: generic does not modify matrix_solver_opts. Found false: with E_guess given, the caller's dictionary gains an 'x0' entry that a later call without guess would use. (Without E_guess they are untouched, C31.)", "quantifier": "exists a call; the true part for every call", "why_tests_cant": "mutation of an argument is not observed by tests", "anchors": ["meanas/fdfd/solvers.py: generic"]}
{"id": "C64", "title": "Adjoint solves and user callbacks", "statement": "Expected: generic(adjoint=True) solves the adjoint system with the pinned scipy, and _scipy_qmr calls the user's callback. Found false: e_full returns a sparse array, which has no .H, so every adjoint call raises; the callback wrapper looks up the replaced kwargs entry and recurses without bound, for any stack limit. The default callback works.", "quantifier": "every system, solver and options; every stack depth", "why_tests_cant": "neither option is used in tests", "anchors": ["meanas/fdfd/solvers.py: generic, _scipy_qmr", "pyproject.toml"]}
{"id": "C65", "title": "stretch_with_scpml with thickness 0 at the back", "statement": "Expected: a layer of thickness 0 changes nothing. Found false for polarity <= 0: the slice becomes the whole axis and the layer length is 0, so every width of that axis becomes nan/inf, for every grid.", "quantifier": "every grid, axis, s_function, parameters, polarity <= 0", "why_tests_cant": "thickness 0 is never tried", "anchors": ["meanas/fdfd/scpml.py: stretch_with_scpml"]}
{"id": "C66", "title": "uniform_grid_scpml and stretch_with_scpml describe the same PML", "statement": "Expected: on a unit grid both give the same widths for the same parameters. Found false for all parameters: uniform_grid_scpml samples dx_a where the other samples dx_b (and vice versa) and omits the division by the layer length; the first E-grid width always differs.", "quantifier": "every shape, thickness >= 1, ln_R < 0, m > 0, omega, epsilon", "why_tests_cant": "the two constructors are never compared", "anchors": ["meanas/fdfd/scpml.py"]}
{"id": "C67", "title": "inner_product of different modes on a non-uniform grid", "statement": "Expected: for modes of one waveguide with different wavenumber^2 inner_product(e1, h2) vanishes on every real grid. Found false: E_x H_y is weighted by dx_h*dy_e and E_y H_x by dx_e*dy_h, the reverse of the cell faces, so on a grid with unequal cells two exact modes have a non-zero product.", "quantifier": "existence of a grid and two exact modes", "why_tests_cant": "needs exact modes of a non-uniform grid", "anchors": ["meanas/fdfd/waveguide_2d.py: inner_product"]}
{"id": "C68", "title": "Wavenumber of evanescent modes", "statement": "Expected: the returned wavenumber squared is the eigenvalue. Found false for every cut-off mode: for a negative real eigenvalue the square root is purely imaginary, numpy.sign of its real part is 0, and the wavenumber is multiplied to 0.", "quantifier": "every negative real eigenvalue", "why_tests_cant": "needs a cut-off mode without loss", "anchors": ["meanas/fdfd/waveguide_2d.py: solve_modes", "meanas/fdfd/waveguide_cyl.py: solve_modes"]}
{"id": "C69", "title": "solve_mode with positional arguments", "statement": "Expected: solve_mode(mode_number, *args, **kwargs) passes args on to solve_modes, as documented. Found false: solve_modes takes mode_numbers as its first parameter and solve_mode also passes it by keyword, so any positional argument gives a TypeError; keyword-only calls bind every parameter to the given value. Direct positional calls of the two solve_modes bind their arguments in the documented order, which differs after epsilon (mu in waveguide_2d, rmin in waveguide_cyl).", "quantifier": "every argument list", "why_tests_cant": "covers all calls", "anchors": ["meanas/fdfd/waveguide_2d.py: solve_mode, solve_modes", "meanas/fdfd/waveguide_cyl.py: solve_mode, solve_modes"]}
{"id": "C70", "title": "Wavenumber sensitivity on a non-uniform grid", "statement": "Expected: sensitivity(...) of a lossless mode is the derivative of the wavenumber with respect to each epsilon entry on every grid. Found false: on a 2x1 grid with cells of width 1 and 3 a normalized lossless mode has derivative 1 while sensitivity gives 1/2, because the adjoint of operator_e needs cell-area weights that the code leaves out.", "quantifier": "some grid with positive real widths", "why_tests_cant": "needs a non-uniform grid and an exact derivative", "anchors": ["meanas/fdfd/waveguide_2d.py: sensitivity"]}
{"id": "C71", "title": "Backward modes of solve_mode", "statement": "Expected: solve_mode with polarity -1 also returns a field that solves the 3D wave equation when expanded. Found false: the components along the axis keep the sign of the forward mode; negating the axial components of E and H makes it exact.", "quantifier": "some slab waveguide; the corrected statement for every structure", "why_tests_cant": "needs an exact mode with an axial component", "anchors": ["meanas/fdfd/waveguide_3d.py: solve_mode"]}
{"id": "C72", "title": "Distance used by expand_e on non-uniform grids", "statement": "Expected: the distance between neighbouring E planes m and m+1 is dxes[0][axis][m]. Found false: expand_e uses dxes[0][axis][m+1], so on a non-uniform grid the phase is off by one cell.", "quantifier": "some non-uniform grid", "why_tests_cant": "needs non-uniform widths along the axis", "anchors": ["meanas/fdfd/waveguide_3d.py: expand_e"]}
{"id": "C73", "title": "compute_overlap_e next to the low edge", "statement": "Expected: compute_overlap_e works for every slice position inside the grid. Found false: for polarity +1 and a slice starting at 0 or 1 the lower bound of the window is negative, Python counts it from the end of the axis, the window is empty on any longer axis and the result is 0/0.", "quantifier": "every field; slice start below 2", "why_tests_cant": "edge positions", "anchors": ["meanas/fdfd/waveguide_3d.py: compute_overlap_e"]}
{"id": "C74", "title": "compute_source launches one side only", "statement": "Let F be the expanded field and P the part of F on the side of the source plane selected by the polarity. At every cell away from the ends of the axis where F solves the wave equation, the wave operator applied to P equals -i*omega*J for J = compute_source(...). J vanishes except on the two planes next to the source plane. With C42, the current of a forward mode launches exactly that mode.", "quantifier": "every shape, axis, polarity, dxes, materials, field", "why_tests_cant": "all axes, positions and fields; wrap-around at the edges", "anchors": ["meanas/fdfd/waveguide_3d.py: compute_source", "meanas/fdfd/operators.py: e_boundary_source"]}
{"id": "C75", "title": "Cylindrical exy2e completes an eigenvector to a mode", "statement": "Expected: for an eigenvector e_xy of cylindrical_operator, exy2e and exy2h return a solution of the cylindrical curl equations. Found false: exy2hx multiplies by Tb where Ta is needed, so E_z is off by (1 - Tb/Ta) * d/dy H_x / (i omega eps_z). It is right on grids with a single row.", "quantifier": "some bent waveguide; the exact error for every mode", "why_tests_cant": "needs a mode varying along both axes", "anchors": ["meanas/fdfd/waveguide_cyl.py: exy2e, exy2h"]}
{"id": "C76", "title": "Radii of dxes2T match the grid", "statement": "Expected: neighbouring E_y planes are dx_e[m] apart and E_x planes lie dx_e[m]/2 further out. Found false on non-uniform grids: the distance is dx_e[m+1] (the width deriv_forward divides by is dx_e[m]). On uniform grids it holds.", "quantifier": "some non-uniform grid; every uniform one", "why_tests_cant": "needs non-uniform widths", "anchors": ["meanas/fdfd/waveguide_cyl.py: dxes2T"]}
{"id": "C77", "title": "Cylindrical normalized_fields_e", "statement": "The fields returned have unit power, and are the fields of exy2e and minus those of exy2h times one common non-zero factor; when exy2e completes the eigenvector (single-row grids) they are a solution of the cylindrical curl equations.", "quantifier": "every shape, dxes, rmin, material, eigenvector for which no assertion fails", "why_tests_cant": "no tests exist for the cylindrical operators", "anchors": ["meanas/fdfd/waveguide_cyl.py: normalized_fields_e, _normalized_fields"]}
{"id": "C78", "title": "Eigenvalue belongs to the returned vector", "statement": "Expected: rayleigh_quotient_iteration returns the Rayleigh quotient of the vector it returns. Found false: when the iterations are used up the eigenvalue is that of the previous vector, and iterations=0 raises UnboundLocalError.", "quantifier": "some operator with an exact solver; iterations=0 for every input", "why_tests_cant": "needs the iteration limit to be reached", "anchors": ["meanas/eigensolvers.py"]}
{"id": "C79", "title": "Guess vectors are left alone", "statement": "Expected: the caller's guess is not modified. Found false: rayleigh_quotient_iteration overwrites every non-unit guess with the unit vector, power_iteration does so for iterations=0 (and only then).", "quantifier": "every operator and non-unit guess", "why_tests_cant": "side effect on an argument", "anchors": ["meanas/eigensolvers.py"]}
{"id": "C80", "title": "signed_eigensolve returns positive eigenvalues only", "statement": "Expected from the docstring: negative=False returns positive eigenvalues only. Found false: an operator with fewer positive eigenvalues than requested yields negative ones. It holds when enough eigenvalues of the wanted sign exist.", "quantifier": "some operator, with exact eigs and exact dominant eigenvalue", "why_tests_cant": "needs an indefinite spectrum", "anchors": ["meanas/eigensolvers.py"]}
{"id": "C81", "title": "signed_eigensolve on small operators", "statement": "Expected: signed_eigensolve works for every operator with enough eigenvalues. Found false: ncv = 2*how_many+50 exceeds the size of any operator smaller than that, and eigs raises.", "quantifier": "every operator smaller than 2*how_many+50", "why_tests_cant": "all small operators", "anchors": ["meanas/eigensolvers.py"]}
{"id": "C82", "title": "EME with different mode counts", "statement": "Expected: get_tr, get_s, get_abcd work for different numbers of left and right modes. Found false: U @ diag(st) @ V has mismatched shapes and every call raises.", "quantifier": "every pair of mode sets of different size", "why_tests_cant": "all mode sets", "anchors": ["meanas/fdfd/eme.py: get_tr, get_abcd, get_s"]}
{"id": "C83", "title": "force_nogain limits gain", "statement": "Expected: get_s with force_nogain returns a matrix without gain. Found false: diag(sing) @ U @ V has the singular values of S, so gain is present after exactly when it was before; it only makes S S^H diagonal.", "quantifier": "every pair of mode sets; a concrete pair with reflection 4/3", "why_tests_cant": "universal statement about singular values", "anchors": ["meanas/fdfd/eme.py: get_tr, get_abcd, get_s"]}
{"id": "C84", "title": "get_s maps incoming to outgoing amplitudes", "statement": "Expected: S applied to the incoming amplitudes (left, right) gives the outgoing ones. Found false: the off-diagonal blocks t12 and t21 are exchanged. With one mode per side and equal norms it holds.", "quantifier": "a concrete pair of two-mode sets with unique solution; every one-mode pair of equal norm", "why_tests_cant": "needs modes that convert unsymmetrically", "anchors": ["meanas/fdfd/eme.py: get_tr, get_abcd, get_s"]}
{"id": "C85", "title": "get_abcd returns a matrix", "statement": "Expected: get_abcd returns the transfer matrix. Found false: its four dense blocks always have the same shape, for which scipy.sparse.block_array raises 'blocks must be 2-D'.", "quantifier": "every pair of mode sets", "why_tests_cant": "all mode sets", "anchors": ["meanas/fdfd/eme.py: get_tr, get_abcd, get_s"]}
{"id": "C86", "title": "k, m, n are orthogonal for every k-vector", "statement": "Expected: generate_kmn gives m orthogonal to k at every grid frequency. Found false: the mask xy_non0 tests only kx, so m = (0,1,0) whenever kx = 0, and m . k = ky.", "quantifier": "every grid frequency with kx = 0, ky != 0", "why_tests_cant": "only wavevectors in one plane are affected", "anchors": ["meanas/fdfd/bloch.py: generate_kmn, maxwell_operator, inverse_maxwell_operator_approx"]}
{"id": "C87", "title": "Bloch operators return finite values", "statement": "Expected: maxwell_operator is finite for every k0. Found false: one grid frequency with k = (0, ky, 0) makes the whole result NaN; so every k0 along y fails, and k0 = 0 with more than one cell along y. The inverse operator is not finite when some grid wavevector is zero.", "quantifier": "every grid with such a wavevector, every epsilon and h", "why_tests_cant": "universal over fields and grids", "anchors": ["meanas/fdfd/bloch.py: generate_kmn, maxwell_operator, inverse_maxwell_operator_approx"]}
{"id": "C88", "title": "inverse_maxwell_operator_approx inverts maxwell_operator in uniform media", "statement": "Expected: inverse of the operator for uniform epsilon. Found false: it is the negative of the inverse, so applying both returns -h.", "quantifier": "every k0, lattice, grid without zero or y-axis wavevectors, uniform epsilon", "why_tests_cant": "holds for all fields", "anchors": ["meanas/fdfd/bloch.py: generate_kmn, maxwell_operator, inverse_maxwell_operator_approx"]}
{"id": "C89", "title": "maxwell_operator has the documented sign", "statement": "Expected: the operator is ik x conv(1/eps_k, ik x H). Found false: it is the negative of it.", "quantifier": "every grid with good wavevectors, every epsilon and h", "why_tests_cant": "operator identity over all fields", "anchors": ["meanas/fdfd/bloch.py: generate_kmn, maxwell_operator, inverse_maxwell_operator_approx"]}
{"id": "C90", "title": "maxwell_operator works with mu", "statement": "Expected: maxwell_operator accepts mu. Found false: b_m[:, :, :, None] has one axis too many and the call always raises.", "quantifier": "every grid, epsilon, mu, h", "why_tests_cant": "needs all shapes: broadcasting could succeed for some", "anchors": ["meanas/fdfd/bloch.py: generate_kmn, maxwell_operator, inverse_maxwell_operator_approx"]}
{"id": "C91", "title": "Bloch fields satisfy Gauss and Ampere laws", "statement": "hmn_2_hxyz returns a field transverse to the wavevector at each grid frequency, and epsilon times the field of hmn_2_exyz is k x H at each grid frequency.", "quantifier": "every grid without wavevectors in the plane kx = 0 off the z axis, every epsilon and h", "why_tests_cant": "field identities over all inputs", "anchors": ["meanas/fdfd/bloch.py: hmn_2_exyz, hmn_2_hxyz"]}
{"id": "C92", "title": "bloch.inner_product has no side effects and ignores scale", "statement": "Expected: multiplying a mode by any non-zero number does not change the overlap, and the arguments are not modified. Found false: a factor -1 changes the value, and the arrays passed in are divided in place.", "quantifier": "concrete one-cell fields", "why_tests_cant": "refutation by witness", "anchors": ["meanas/fdfd/bloch.py: inner_product, trq"]}
{"id": "C93", "title": "bloch.inner_product is the reciprocity overlap", "statement": "Expected: the x component of sum(eR x hL - eL x hR) for unit-power fields. Found false: 'eR[2] - hL[1]' should be a product; the value is right when e_z = h_y = 0 for all fields.", "quantifier": "a concrete one-cell pair; every polarized pair", "why_tests_cant": "needs fields with both polarizations", "anchors": ["meanas/fdfd/bloch.py: inner_product, trq"]}
{"id": "C94", "title": "trq returns transmission and reflection", "statement": "Expected: trq returns amplitudes, t = 1 and r = 0 for identical modes. Found false: for fields with e_z = h_y = 0 (where inner_product is right) an assertion fails or the values are not finite, since the arguments are changed between the calls; identical fields with e_z present can give r = 0 and t other than 1. What holds: for fields of flux 2 the exact condition for a result and its value in terms of six sums over the fields.", "quantifier": "every pair of polarized fields; every pair of fields of flux 2", "why_tests_cant": "universal failure over all fields; exact arithmetic", "anchors": ["meanas/fdfd/bloch.py: inner_product, trq"]}
{"id": "C95", "title": "The far field carries the near field's power", "statement": "For outgoing fields, the sum over directions of |E_far|^2 / (4 cos phi) is the number of cells times the power Re(Ex Hy* - Ey Hx*) summed over the near plane.", "quantifier": "every shape, dx, dy, field of outgoing plane waves", "why_tests_cant": "identity over all spectra; needs Parseval in two dimensions", "anchors": ["meanas/fdfd/farfield.py: near_to_farfield"]}
{"id": "C96", "title": "theta and phi are the direction angles", "statement": "At every propagating grid frequency kx = k sin(phi) cos(theta), ky = k sin(phi) sin(theta), with theta in (-pi, pi] and phi in [0, pi/2); elsewhere fields and angles are zero.", "quantifier": "every shape, padding, dx, dy, position", "why_tests_cant": "all quadrants and boundary cases of arctan2 and arccos", "anchors": ["meanas/fdfd/farfield.py: near_to_farfield"]}
{"id": "C97", "title": "A plane wave appears at its own direction", "statement": "For a near field exp(i(kx x + ky y)) the far field is zero except where (kx, ky) of the output equals the wave's; there |E_far|^2 is 4 cos(phi) N^2 times the wave's power.", "quantifier": "every shape, grid frequency, amplitudes", "why_tests_cant": "holds for every frequency and shape, odd and even", "anchors": ["meanas/fdfd/farfield.py: near_to_farfield"]}
{"id": "C98", "title": "Far-field directions follow the documented convention", "statement": "Expected: with the documented factor exp(-i k r) (waves exp(-i k.r)), a wave towards (kx, ky) appears at (kx, ky). Found false: it appears at (-kx, -ky), since fft2 and the factor use opposite conventions.", "quantifier": "every grid frequency other than the highest", "why_tests_cant": "sign convention over all inputs", "anchors": ["meanas/fdfd/farfield.py: near_to_farfield"]}
{"id": "C99", "title": "far_to_nearfield returns finite fields", "statement": "Expected: the round trip works whenever the field has no evanescent content. Found false: one grid frequency with kx^2 + ky^2 > k^2 makes all returned values NaN; this is so for every even grid with cells below half a wavelength.", "quantifier": "every far field, every square grid with an evanescent frequency", "why_tests_cant": "universal over inputs", "anchors": ["meanas/fdfd/farfield.py: far_to_nearfield"]}
{"id": "C100", "title": "dkx and dky are the steps of kx and ky", "statement": "Expected: dky is the step of ky. Found false: ky[1] - ky[0] subtracts rows, which are equal, so dky is an array of zeros; dkx is an array holding the step. With dky = 0, far_to_nearfield's dy is not finite.", "quantifier": "every field, shape, dx, dy", "why_tests_cant": "universal statement; the value is wrong for all inputs", "anchors": ["meanas/fdfd/farfield.py: near_to_farfield"]}
{"id": "C101", "title": "far_to_nearfield accepts rectangular grids", "statement": "Expected: any near_to_farfield output can be transformed back. Found false: ky uses s[0] points, so for grids that are not square the mask has the wrong shape and the call raises.", "quantifier": "every shape that is not square", "why_tests_cant": "universal over shapes", "anchors": ["meanas/fdfd/farfield.py: far_to_nearfield"]}
{"id": "C102", "title": "far_to_nearfield leaves its arguments unchanged", "statement": "Expected: the arrays passed in are unchanged. Found false: entries at and beyond the edge of the propagating disc are overwritten with zeros.", "quantifier": "every square grid and position at or beyond the edge", "why_tests_cant": "refutation by witness, stronger form universal", "anchors": ["meanas/fdfd/farfield.py: far_to_nearfield"]}
{"id": "C103", "title": "Padding only refines the far field", "statement": "Expected: a padded far field is, up to phase, that of the field placed in zeros. Found false: zeros are added after fftshift, at the end of each axis, so halves of the field are exchanged; for a 2-cell field padded to 4 the magnitudes differ for every offset.", "quantifier": "a concrete field, every offset", "why_tests_cant": "refutation by witness over all offsets", "anchors": ["meanas/fdfd/farfield.py: near_to_farfield"]}
{"id": "C104", "title": "eigsolve returns Ritz pairs", "statement": "A run of eigsolve that converges returns num_modes pairs ordered by |eigenvalue|. Each vector has unit length and lies in the span of the last iterate; its eigenvalue is real, equals v^H A v, is not positive for positive epsilon, and A v - lambda v is orthogonal to the last iterate. Vectors with different eigenvalues are orthogonal. If that span is invariant the pairs are exact eigenpairs.", "quantifier": "every grid, wavevector off the y axis, positive epsilon, number of modes, start, tolerances; numpy.linalg, sqrtm and line search as contracts", "why_tests_cant": "all sizes, all converged runs of an unbounded loop", "anchors": ["meanas/fdfd/bloch.py: eigsolve"]}
{"id": "C105", "title": "The objective of eigsolve never grows", "statement": "With a line search that is not worse than its start, |trace(Z^H A Z inv(Z^H Z))| does not grow from one iterate to a later one; a converged run ends with the objectives of the last two iterates within tolerance/2 (E + E_prev + 1e-7).", "quantifier": "every Hermitian operator, size, number of modes, number of iterations", "why_tests_cant": "invariant of an unbounded loop over all operators", "anchors": ["meanas/fdfd/bloch.py: eigsolve"]}
{"id": "C106", "title": "Running out of iterations still gives Rayleigh quotients", "statement": "Expected: the eigenvalues returned after max_iters iterations are the Rayleigh quotients of the returned vectors. Found false: Z^H Z of the iterate before is used; with one mode the eigenvalue is off by the factor |Z|^2/|Z_prev|^2. Witness: an exact eigenvector for -1/16 is returned with eigenvalue -98/1073.", "quantifier": "all runs with one mode; a concrete run on one cell", "why_tests_cant": "refutation by witness, stronger form universal", "anchors": ["meanas/fdfd/bloch.py: eigsolve"]}
{"id": "C107", "title": "eigsolve leaves y0 alone", "statement": "Expected: the initial guess y0 is not modified. Found false: Z is a view of y0, which holds the last iterate afterwards.", "quantifier": "all runs whose start passes the first test; a concrete run", "why_tests_cant": "refutation by witness, stronger form universal", "anchors": ["meanas/fdfd/bloch.py: eigsolve"]}
{"id": "C108", "title": "find_k returns a wavevector", "statement": "Expected: find_k returns the k found by the search. Found false: float() is applied to a vector of three components, so every call raises.", "quantifier": "every search, frequency, direction", "why_tests_cant": "universal over the results of the search", "anchors": ["meanas/fdfd/bloch.py: find_k"]}
{"id": "C109", "title": "The conjugate-gradient coefficient uses <G, KG>", "statement": "Expected: traceGtKG is the sum of Re <G_j, KG_j> for G the part of A Z U orthogonal to Z and KG the preconditioned G. Found false: the preconditioner overwrites G, so the value is the sum of |KG_j|^2.", "quantifier": "every iteration, operator, preconditioner; a concrete iteration", "why_tests_cant": "refutation by witness, stronger form universal", "anchors": ["meanas/fdfd/bloch.py: eigsolve"]}
{"id": "C110", "title": "gaussian_beam samples a solution of the paraxial equation", "statement": "All finite samples equal u(x',y',z') exp(i k z') / N for one constant N > 0 and an envelope u with u_xx + u_yy + 2 i k u_z = 0 everywhere and u = exp(-r^2/w0^2) at z' = 0, in coordinates relative to the center and rotated around y by the tilt.", "quantifier": "every sampling, center, waist, wavelength, tilt", "why_tests_cant": "a differential equation over all of space", "anchors": ["meanas/fdtd/misc.py: gaussian_beam"]}
{"id": "C111", "title": "gaussian_beam is finite everywhere", "statement": "Expected: with positive waist and wavelength every sample is finite. Found false: a sample is finite exactly when neither it nor any sample of the middle z slice lies in the waist plane (z (1 + zr^2/z^2) is NaN at z = 0); with the center on the middle sample and no tilt the whole result is NaN.", "quantifier": "every sampling, center, waist, wavelength, tilt", "why_tests_cant": "exact characterisation over real positions", "anchors": ["meanas/fdtd/misc.py: gaussian_beam"]}
{"id": "C112", "title": "Normalisation and position of gaussian_beam", "statement": "If the middle z slice is finite its squared magnitudes sum to 1. Moving all samples and the center by the same vector changes no value.", "quantifier": "every sampling, center, waist, wavelength, tilt, displacement", "why_tests_cant": "universal over real inputs", "anchors": ["meanas/fdtd/misc.py: gaussian_beam"]}
{"id": "C113", "title": "The polarity of a PML names the side of its layer", "statement": "Expected: polarity -1 puts the layer at the low end of the axis and +1 at the high end. fdtd.cpml_params does that for every accepted call. Found false for fdfd.scpml.stretch_with_scpml: every call with non-zero polarity leaves the layer on the named side unstretched and stretches the one on the opposite side.", "quantifier": "every grid size, thickness, axis, polarity, cell", "why_tests_cant": "universal over sizes and positions", "anchors": ["meanas/fdfd/scpml.py: stretch_with_scpml", "meanas/fdtd/pml.py: cpml_params"]}
{"id": "C114", "title": "inner_product(trapezoid=True) integrates over the cross-section", "statement": "Expected: the trapezoid rule with the given widths. Found false: the call fails unless the cross-section is square or two cells wide, and on a square one the E_y H_x term is integrated with the widths of the axes exchanged. It is the trapezoid rule when the E widths along x equal the H widths along y; a constant product gives the product times the areas.", "quantifier": "every cross-section size, field pair, width set, phase, conjugation", "why_tests_cant": "exact value over all field values and sizes", "anchors": ["meanas/fdfd/waveguide_2d.py: inner_product"]}
{"id": "C115", "title": "Frequency-domain solutions are harmonic time-domain runs", "statement": "Fields satisfy the fdfd equations at frequency om with current J exactly when, multiplied by z per half step, they are a run of the fdtd updates with that current injected, where i om = (z - 1/z)/dt. For real frequency W and z = exp(i W dt/2) the real parts are an fdtd run and om = 2 sin(W dt/2)/dt. Expected from the documentation: time dependence exp(-i W t). Found false: with 1/z in place of z every solution without magnetic current has H = 0.", "quantifier": "every grid, width set, material, frequency, time step, current, number of steps", "why_tests_cant": "two solvers related for all runs and all lengths", "anchors": ["meanas/fdfd/operators.py: e_full, e2h", "meanas/fdfd/functional.py: eh_full", "meanas/fdtd/base.py: maxwell_e, maxwell_h"]}
{"id": "C116", "title": "Plane waves obey the documented dispersion relation", "statement": "On a uniform grid with uniform materials a plane wave is in the kernel of e_full exactly when it is transverse and Kx^2 + Ky^2 + Kz^2 = Omega^2 mu eps with K_a = 2 sin(k_a w_a/2)/w_a. In the time domain, with Omega = 2 sin(omega dt/2)/dt, the real parts propagate unchanged for every number of steps. Below the documented time step every real wave vector has a real frequency.", "quantifier": "every grid size, cell size, material, wave vector that fits the grid, amplitude, number of steps", "why_tests_cant": "universal over wave vectors and steps", "anchors": ["meanas/fdmath/__init__.py:405-505", "meanas/fdfd/operators.py: e_full", "meanas/fdtd/base.py: maxwell_e, maxwell_h"]}
{"id": "C117", "title": "Poynting's theorem for frequency-domain fields", "statement": "For fields satisfying the fdfd equations with currents J and M, the outflow of poynting_e_cross_h(E, H*) of every cell is minus the work of the currents minus the terms i om eps |E|^2 and i om mu |H|^2 with each component weighted by its Yee volume. With real frequency and widths the real part is gain where Im eps or Im mu > 0, loss where < 0, and the total over the grid vanishes.", "quantifier": "every grid, width set, complex material, frequency, current", "why_tests_cant": "universal over complex fields and materials", "anchors": ["meanas/fdfd/functional.py: eh_full, poynting_e_cross_h"]}
{"id": "C118", "title": "Lorentz reciprocity of e_full", "statement": "If E1 and E2 solve e_full E = -i om J for currents J1 and J2, then the Yee-volume weighted sums of J1.E2 and J2.E1 are equal, with complex widths, materials, PEC and PMC.", "quantifier": "every grid, complex width set, material, conductor mask, current pair", "why_tests_cant": "universal over solutions of a linear system", "anchors": ["meanas/fdfd/operators.py: e_full"]}
{"id": "C119", "title": "The documented time step is the limit of stability", "statement": "On a uniform grid with even numbers of cells along a set of axes, if dt^2 times the sum of 1/w_a^2 over these axes exceeds eps mu there are initial fields whose run without currents has no bound: they are multiplied by -g with g > 1 in each step. (Below the limit runs are bounded: C17.)", "quantifier": "every grid size, cell size, material, time step beyond the limit", "why_tests_cant": "growth for all time, real-valued thresholds", "anchors": ["meanas/fdmath/__init__.py:405-505", "meanas/fdfd/operators.py: e_full", "meanas/fdtd/base.py: maxwell_e, maxwell_h"]}
{"id": "C120", "title": "Stretched widths are uniaxial materials", "statement": "Fields solve Maxwell's equations (eh_full) on a grid with stretched complex widths exactly when the fields times the stretch along their own axis solve them on the unstretched grid with materials eps s1 s2/s0 and mu s1 s2/s0 and currents times s1 s2; the same for e_full. For stretch_with_scpml the stretch is the SCPML factor in the layer and 1 elsewhere.", "quantifier": "every grid, pair of non-zero complex width sets, material, frequency, fields", "why_tests_cant": "equivalence of two systems for all fields", "anchors": ["meanas/fdfd/scpml.py: stretch_with_scpml", "meanas/fdfd/functional.py: eh_full", "meanas/fdfd/operators.py: e_full"]}
{"id": "C121", "title": "With loss everywhere the driven problem has at most one solution", "statement": "With real positive widths and frequency, Im eps < 0 everywhere and Im mu <= 0, e_full E = e_full E' implies E = E'.", "quantifier": "every grid, width set, lossy material", "why_tests_cant": "injectivity over all fields", "anchors": ["meanas/fdfd/operators.py: e_full"]}
{"id": "C122", "title": "A harmonic CPML run is a frequency-domain solution on stretched widths", "statement": "Complex amplitudes solve the eh_full equations on the grid whose widths are the given ones divided by p2 (1 + p1/(1 - p0/z^2)) in the layers exactly when there are memories with which update_E / update_H with CPML multiply fields and memories by z^2 in every step, under the current J z^(2n+1). From empty memory the derivative seen by the update approaches the steady one with errors p0^n.", "quantifier": "every grid, set of layers (also overlapping), coefficients, frequency with z - 1/z = i omega dt, materials, fields, number of steps", "why_tests_cant": "equivalence of two systems for all fields and all numbers of steps", "anchors": ["meanas/fdtd/pml.py: cpml_params", "meanas/fdtd/pml.py: updates_with_cpml", "meanas/fdfd/functional.py: eh_full"]}
{"id": "C123", "title": "The stretch of a CPML is passive at every resolved frequency", "statement": "For layers from cpml_params with ln_R < 0, and every phase per step strictly between 0 and pi, the stretch is defined, its real part is positive, its imaginary part is negative inside the layers, and it is 1 outside; so C122 applies with omega = 2 sin(theta/2)/dt. The SCPML widths of fdfd have the same signs (real part 1, imaginary part negative).", "quantifier": "every grid, layer parameters, time step, frequency", "why_tests_cant": "real-valued inequalities over a continuum of parameters", "anchors": ["meanas/fdtd/pml.py: cpml_params", "meanas/fdtd/pml.py: updates_with_cpml", "meanas/fdfd/scpml.py: uniform_grid_scpml"]}
{"id": "C124", "title": "In a stretched medium waves decay in the direction they travel", "statement": "A linearly polarised wave with factor r per cell along an axis that satisfies e_full at a cell where the widths carry a stretch with positive real and negative imaginary part does not keep its magnitude, and |r| < 1 exactly when Im r < 0, i.e. when its phase falls along the axis and it travels that way in time exp(i omega t).", "quantifier": "every grid, axis, polarisation, stretch, frequency, positive materials and width, wave factor", "why_tests_cant": "real-valued inequality over a continuum", "anchors": ["meanas/fdfd/operators.py: e_full", "meanas/fdfd/scpml.py", "meanas/fdtd/pml.py"]}
{"id": "C125", "title": "As dt -> 0 the CPML stretch is kappa + sigma/(alpha + i omega)", "statement": "For every eta there is a time step below which the stretch of every cell of a layer returned by cpml_params (positions of E and of H) at the phase omega dt is within eta of kappa + sigma/(alpha + i omega), the complex-frequency-shifted stretch, with the graded sigma, kappa and alpha of C20.", "quantifier": "every layer parameters with ln_R < 0, frequency, tolerance, and smaller time step", "why_tests_cant": "a limit", "anchors": ["meanas/fdtd/pml.py: cpml_params", "meanas/fdtd/pml.py: updates_with_cpml"]}
{"id": "C126", "title": "No position, axis or direction of the grid is special", "statement": "Translating by any number of cells, rotating the axes cyclically, exchanging x and y, or reflecting any axis - applied to the shape, widths, materials, currents and initial fields, with the sign changes of electric and magnetic fields - and then running FDTD gives the moved result of the original run; likewise eh_full and the e_full matrix. Each motion can be undone.", "quantifier": "every grid, widths (uniform or not), materials, currents, number of steps, motion", "why_tests_cant": "equality for all fields, grids and numbers of steps; tests use one orientation", "anchors": ["meanas/fdtd/base.py: maxwell_e", "meanas/fdtd/base.py: maxwell_h", "meanas/fdfd/functional.py: eh_full", "meanas/fdfd/operators.py: e_full", "meanas/fdmath/functional.py: curl_forward", "meanas/fdmath/functional.py: curl_back"]}
{"id": "C127", "title": "Units may be chosen freely", "statement": "Multiplying all widths by s, epsilon by a^2, mu by b^2, the time step by s a b, currents by a^2 and H by a/b leaves the E field of every run unchanged and multiplies H by a/b; with omega divided by s a b, the e_full matrix acts as before divided by s^2 b^2.", "quantifier": "every grid, non-zero widths and materials, currents, number of steps, non-zero factors s, a, b", "why_tests_cant": "equality for all fields, factors and numbers of steps", "anchors": ["meanas/fdtd/base.py: maxwell_e", "meanas/fdtd/base.py: maxwell_h", "meanas/fdfd/functional.py: eh_full", "meanas/fdfd/operators.py: e_full"]}
{"id": "C128", "title": "Frequency-domain solutions obey Gauss's laws", "statement": "If e_full E = -i omega J then at every cell the backward divergence of epsilon E is (i/omega) times that of J, the charge that belongs to J by charge conservation; and the forward divergence of mu H with H from e2h is zero.", "quantifier": "every grid, non-zero widths (complex allowed), materials, non-zero frequency, solution and cell", "why_tests_cant": "holds for every solution of a large linear system", "anchors": ["meanas/fdfd/operators.py: e_full", "meanas/fdfd/functional.py: e2h"]}
{"id": "C129", "title": "Resonances of a closed box", "statement": "On real widths and lossless materials, source-free solutions of e_full with different omega^2 are orthogonal in the inner product weighted with epsilon and the cell volumes. Source-free non-zero solutions at positive real part of epsilon have real frequency if there is no loss; with Im epsilon <= 0 their frequency has non-negative imaginary part (no growth in time), and positive imaginary part (decay) if every cell is lossy.", "quantifier": "every grid, positive widths, materials, frequencies and source-free solutions", "why_tests_cant": "statement about all eigenfields of a large matrix", "anchors": ["meanas/fdfd/operators.py: e_full"]}
{"id": "C130", "title": "power_iteration converges to the dominant eigenpair", "statement": "If the guess is an eigenvector w (eigenvalue lam) plus eigenvectors whose squared eigenvalue magnitudes are at most rho < |lam|^2, then there are C and N such that for all iterations >= N the result of power_iteration is a unit vector v and a number l with |l - lam|^2, |A v - lam v|^2 and |v - p w|^2 (for some factor p) all at most C (rho/|lam|^2)^iterations.", "quantifier": "for all sizes, complex matrices (not necessarily normal), guesses, finite families of eigenvectors, rho and iteration counts", "why_tests_cant": "a limit statement with a rate, for every operator and guess; a test sees single runs of finite length", "anchors": ["meanas/eigensolvers.py:13-41"]}
{"id": "C131", "title": "Rayleigh quotient iteration never increases the residual of normal operators", "statement": "For a normal operator (in particular a Hermitian one) and a solver that solves the shifted systems, the pair returned by rayleigh_quotient_iteration has a residual |A v - l v| at most the relative residual of the guess with its Rayleigh quotient, and more iterations never give a larger residual.", "quantifier": "for all sizes, normal matrices, tolerances >= 0, guesses other than zero, exact solvers and iteration counts 0 < few <= many", "why_tests_cant": "a monotonicity statement over all operators, starting vectors and numbers of iterations", "anchors": ["meanas/eigensolvers.py:43-98"]}
{"id": "C132", "title": "Search directions and restarts of eigsolve", "statement": "Every iteration of eigsolve that goes on moves Z to cos(theta) Z + sin(theta) D, with D of Frobenius norm num_modes and proportional to the preconditioned gradient plus gamma times the previous direction; gamma is 0 if the previous trace was 0 or the iteration number is a multiple of reset_iters, otherwise the ratio of the traces. reset_iters = 1 gives steepest descent; reset_iters = 0 raises as soon as a trace is not 0; apart from that an iteration whose operators, inverse and minimizer do not fail only fails when the search direction is zero.", "quantifier": "for all sizes, numbers of modes, Hermitian operators, preconditioners, tolerances, inverses meeting their contract, minimizers, iteration numbers and loop states", "why_tests_cant": "restarts happen every reset_iters (100) iterations, which test runs do not reach; the statement covers every loop state", "anchors": ["meanas/fdfd/bloch.py:598-632", "meanas/fdfd/bloch.py:727-736"]}
{"id": "C133", "title": "Start of eigsolve: rescaling, redraws and orthonormalisation of the first iterate", "statement": "Whenever eigsolve returns, its loop started from an iterate of Frobenius norm num_modes with an invertible Gram matrix whose inverse has a trace of at most 1e8 num_modes. A guess y0 (one row per mode, length 2 n) that is not zero and well conditioned is used as it is, apart from the scale; a guess with dependent rows is replaced by random vectors, and random vectors are drawn again until they are independent; independent but badly conditioned vectors are replaced by orthogonal vectors of equal norm with the same span. A usable y0 holds the last iterate afterwards, any other y0 only its rescaled self.", "quantifier": "for all sizes, numbers of modes, operators, preconditioners, guesses or none, random generators, inverse and square root functions meeting their contracts, and minimizers", "why_tests_cant": "the branches depend on singular or badly conditioned draws that random tests do not meet; the statement covers every guess and every generator", "anchors": ["meanas/fdfd/bloch.py:566-593"]}
{"id": "C134", "title": "Driven FDTD runs grow at most with the injected currents", "statement": "Below the documented time step, with positive widths and materials, after any number of steps with any electric currents the square root of the Yee energy is at most its initial value plus a constant times the sum of the strengths of the currents, so E and H are bounded by it too. The growth is reached: a current epsilon times a constant vector, the same at every step, makes the square root of the energy n times its strength.", "quantifier": "for all grids, widths, real positive materials, time steps below the limit, numbers of steps, current sequences, and initial fields", "why_tests_cant": "a bound over every number of steps and every current sequence; a run only samples one", "anchors": ["meanas/fdtd/base.py: maxwell_e, maxwell_h", "meanas/fdtd/__init__.py: time step limit"]}
{"id": "C135", "title": "No computed mode has an effective index above that of the densest medium", "statement": "For a lossless cross-section with uniform permeability, every eigenvector of operator_e with a real wavenumber beta has beta^2 <= omega^2 eps_max mu. The bound is reached by constant fields in a uniform medium.", "quantifier": "for all grid shapes, positive cell widths, real permittivities, frequencies, and eigenvectors", "why_tests_cant": "covers every cross-section and every eigenvector at any resolution; numerical solves only sample", "anchors": ["meanas/fdfd/waveguide_2d.py: operator_e, exy2e, exy2h"]}
{"id": "C136", "title": "Power, absorption and exchange of power of computed modes", "statement": "For two computed modes, whose frequencies and media may differ, (beta2 - conj beta1) times their mixed fluxes equals the overlap of their fields weighted with the differences of omega*epsilon and omega*mu. Hence at a real frequency 2 Im(beta) P equals omega times the weighted imaginary parts of the materials: without loss a mode with a non-real wavenumber carries no power, without gain a mode carrying power forward does not grow forward, and decays if every cell absorbs. In lossless media the powers of two modes add, unless one wavenumber is the conjugate of the other.", "quantifier": "for all grid shapes, real cell widths, complex materials, frequencies, wavenumbers, and pairs of eigenvectors", "why_tests_cant": "an exact identity of the discretisation for arbitrary media and pairs of modes", "anchors": ["meanas/fdfd/waveguide_2d.py: operator_e, exy2e, exy2h, inner_product"]}
{"id": "C137", "title": "Group velocity of computed modes is the velocity of energy, at most that of light", "statement": "A computed mode of a lossless medium has equal electric and magnetic energy, and power over energy is at most the speed of light in the thinnest medium. Along any branch of modes whose fields converge, the difference quotient of frequency and wavenumber converges to power over energy of the limit mode.", "quantifier": "for all grid shapes, positive cell widths, real positive materials, and sequences of modes", "why_tests_cant": "a limit over every branch of modes; exact on the grid, not up to discretisation error", "anchors": ["meanas/fdfd/waveguide_2d.py: operator_e, exy2e, exy2h"]}
{"id": "C138", "title": "The FDTD updates work in place; a saved field must be a copy", "statement": "me and mh overwrite the array they are given and return that same array; every other array stays as it was. A loop that copies e and h before each step, as the tests do, keeps the field after every step. A loop that saves the returned arrays without copying computes the same steps, but all saved references are one array holding the last field, so every energy change worked out from them is zero. Expected (and false): the k-th saved reference holds the field after step k.", "quantifier": "for all fields, grids, materials, time steps, currents, and numbers of steps", "why_tests_cant": "aliasing holds for any number of steps; the tests only use the copying loop", "anchors": ["meanas/fdtd/base.py: maxwell_e, maxwell_h", "meanas/test/test_fdtd.py: TDResult fixture", "meanas/fdtd/energy.py: delta_energy_h2e, delta_energy_e2h"]}
{"id": "C139", "title": "FDTD updates of fields given as lists of arrays", "statement": "mh called with lists of three arrays returns a new array with the documented value and leaves the list unchanged. me called with lists does not update the field: it appends the three increments to the list, and the next mh with it raises, so a run raises in its second step. Expected (and false): me adds the increments to the field whatever sequence holds it.", "quantifier": "for all lists of three arrays, grids, materials, and time steps", "why_tests_cant": "the tests only use arrays, the types accept both sequences", "anchors": ["meanas/fdtd/base.py: maxwell_e, maxwell_h"]}
{"id": "C140", "title": "stretch_with_scpml stores into the lists of the caller", "statement": "With two different width lists each list gets its own stretched array along the axis, and no array that existed before changes, even if several entries share one array. If both lists of dxes are the same list, E and H cells both get the factors of the cell edges. The call changes the grid it was given, so making a second grid from the same dxes stretches the layer twice. Expected (and false): E cells get the factors of the cell centres in either case, and the grid given stays as it was.", "quantifier": "for all grids, widths, axes, polarities, thicknesses, frequencies, permittivities, and s functions", "why_tests_cant": "depends on which python objects are shared, for every grid", "anchors": ["meanas/fdfd/scpml.py: stretch_with_scpml"]}
{"id": "C141", "title": "The curl functions keep the kind of array they are given", "statement": "curl_forward and curl_back as functions raise iff there are widths and the field is integer, or the field is real and the widths complex; otherwise they return an array of the kind of the field with the exact curl. Expected (and false): they accept every field the matrix operators accept; on a stretched grid a real field raises, the matrix returns its curl.", "quantifier": "for all grids, widths, and fields of integers, reals, or complex numbers", "why_tests_cant": "covers every combination of kinds and every value; tests use one combination", "anchors": ["meanas/fdmath/functional.py: curl_forward, curl_back", "meanas/fdmath/operators.py: curl_forward, curl_back"]}
{"id": "C142", "title": "Poynting vectors keep the kind of the electric field", "statement": "fdtd.poynting and poynting_e_cross_h store their result in an array of the kind of e: for real e only the real part is kept, for integer e it is rounded towards zero. With real widths and real h nothing is lost for real e. Expected (and false): the result does not depend on whether e is stored as real or complex numbers, or as integers.", "quantifier": "for all grids, widths, and fields of integers, reals, or complex numbers", "why_tests_cant": "a silent loss depending on the array kinds; the tests use float64 and complex128 throughout", "anchors": ["meanas/fdtd/energy.py: poynting", "meanas/fdfd/functional.py: poynting_e_cross_h"]}
{"id": "C143", "title": "Which arrays the FDTD updates and the wave operator accept", "statement": "maxwell_e raises iff the curl of h does, e is integer, or e is real while h or epsilon is complex; maxwell_h likewise with mu. e_full raises iff e is integer, or e is real and the E widths are complex, or the H widths are complex and mu is not. Whenever they return, no digit is lost: the result is the documented value.", "quantifier": "for all grids, widths, materials, and fields of integers, reals, or complex numbers", "why_tests_cant": "covers every combination of kinds and every value", "anchors": ["meanas/fdtd/base.py: maxwell_e, maxwell_h", "meanas/fdfd/functional.py: e_full"]}
{"id": "C144", "title": "Which arrays the CPML updates accept", "statement": "A CPML update raises iff some layer is thicker than the grid, or there is a layer and its memory (the dtype argument, real by default) cannot hold the derivatives, or the updated field cannot hold the increment (which includes the kind of dtype, with or without layers). Otherwise the result is that of the exact update. Expected (and false): complex fields can be updated with layers as they can without; with the default dtype they raise.", "quantifier": "for all grids, layers, widths, materials, memories, and fields of integers, reals, or complex numbers", "why_tests_cant": "covers every combination of kinds and thicknesses; the library has no tests of the CPML", "anchors": ["meanas/fdtd/pml.py: updates_with_cpml"]}
{"id": "C145", "title": "CPML runs are linear, reach one cell per step, and keep their memory", "statement": "With any layers, runs of update_H and update_E are linear in fields, memory and currents together, and after n steps a cell depends only on fields, memory and currents within n cells. The updaters keep their memory between runs: fields from used updaters are those of a fresh run plus what the left-over memory radiates alone. Expected (and false): running the same updaters again from the same fields gives the same result.", "quantifier": "for all grids, layers, coefficients, widths, materials, currents, numbers of steps, and initial states", "why_tests_cant": "an identity for every run length and state; state hidden in closures is not visible to a test that makes new updaters", "anchors": ["meanas/fdtd/pml.py: updates_with_cpml"]}
{"id": "C146", "title": "Bands lie between those of the extreme uniform media", "statement": "For real epsilon between lo > 0 and hi, -<h, A h> lies between sum |k|^2 |h|^2 / hi and sum |k|^2 |h|^2 / lo, and decreases when epsilon grows. Every band, and every eigenvalue a converged eigsolve returns, is real and -lambda lies between the smallest |k|^2 / hi and the largest |k|^2 / lo. Zero is a band exactly if one of the wavevectors of the grid is zero.", "quantifier": "for all k-points, lattices, grids, real positive epsilon, h, bands, and runs of eigsolve (wavevectors not on the y axis except zero)", "why_tests_cant": "bounds for every structure; a test compares a few bands with tables", "anchors": ["meanas/fdfd/bloch.py: maxwell_operator, eigsolve"]}
{"id": "C147", "title": "Symmetries of the bands", "statement": "Displacing epsilon by whole cells leaves the bands unchanged (plane waves get phases); scaling epsilon by c divides the operator by c; scaling the reciprocal lattice by s > 0 multiplies it by s^2; conjugating the fields and epsilon maps the operator at k0 to that at the k0 whose wavevectors are the opposite ones, so for real epsilon and odd numbers of points the bands at k0 and -k0 coincide. Expected (and false): this holds on every grid, and the bands are periodic in k0. On a grid with an even number of points the wavevectors at -k0 are not the opposite ones, and k0 plus a lattice vector uses other plane waves.", "quantifier": "for all k-points, lattices, grids, epsilon, displacements, and fields (wavevectors not on the y axis except zero)", "why_tests_cant": "identities between whole families of structures; a test would need converged band structures", "anchors": ["meanas/fdfd/bloch.py: generate_kmn, maxwell_operator"]}
{"id": "C148", "title": "eigsolve never returns with current scipy", "statement": "The loop at the end of eigsolve that logs the error of each mode takes [:, 0] of scipy_op @ v for a one-dimensional v. scipy's result has one dimension, so the line raises IndexError: no call for one mode or more returns, also when the search converged. Without the line, or if the result had two dimensions, the loop changes nothing and the modes are returned.", "quantifier": "for all operators, library functions, start vectors, tolerances and numbers of modes", "why_tests_cant": "that no argument whatever makes the call return is a statement about all inputs", "anchors": ["meanas/fdfd/bloch.py: eigsolve"]}
{"id": "C149", "title": "Sources on arrays of timesteps", "statement": "The source function of gaussian_packet takes an array of timesteps and gives arrays of the envelope, cosine and sine. Without one_sided that holds. With one_sided it raises on every array of more than one timestep (truth value of an array), although it is defined on each of them.", "quantifier": "for all packet parameters and arrays of timesteps", "why_tests_cant": "every array and every parameter set; a test samples a few", "anchors": ["meanas/fdtd/misc.py: gaussian_packet"]}
{"id": "C150", "title": "Integer arrays in gaussian_beam and the eigensolvers", "statement": "Arrays of integers are accepted where arrays of reals are. False: gaussian_beam raises if the positions are integers and the center is not; rayleigh_quotient_iteration raises for every integer guess; power_iteration raises for an integer guess if the operator is one of integers, too, or if there are no iterations. In all other cases they give the result of the real or complex arrays.", "quantifier": "for all kinds (integer, real, complex) of the arrays, positions, guesses, operators, iteration counts", "why_tests_cant": "covers every combination of kinds, shapes and values", "anchors": ["meanas/fdtd/misc.py: gaussian_beam", "meanas/eigensolvers.py: power_iteration, rayleigh_quotient_iteration"]}
{"id": "C151", "title": "When the driven frequency-domain problem can be solved", "statement": "e_full either has a source-free field or, for every current, exactly one solution. For given materials and widths without PEC at most 3 Nx Ny Nz values of omega^2 are exceptions. With loss everywhere there is always exactly one solution, and all calls of generic agree whatever the exact solver, options and guess. With any PEC the matrix is singular: currents in the PEC have no solution, others none or several; among fields that vanish in the PEC the alternative holds again.", "quantifier": "for all grids, widths, materials, masks, frequencies, currents; loss everywhere for uniqueness", "why_tests_cant": "existence for every current and the count of exceptional frequencies quantify over infinitely many inputs", "anchors": ["meanas/fdfd/operators.py: e_full", "meanas/fdfd/solvers.py: generic"]}
{"id": "C152", "title": "Complete set of resonances of a closed lossless box", "statement": "For positive widths and materials, e_full has 3 Nx Ny Nz real modes, orthonormal in the electric energy and a basis of all fields, with resonances omega^2 = lam >= 0 that do not depend on the choice of modes. e_full is singular exactly at omega^2 = lam (any complex omega); elsewhere the one solution for a current is the sum over the modes of its overlap divided by lam - omega^2. Modes at zero frequency are the ones without curl.", "quantifier": "for all grids of three axes, positive widths, eps and mu; all complex frequencies and currents", "why_tests_cant": "existence of a complete set for every structure, and equality with the solution at every frequency", "anchors": ["meanas/fdfd/operators.py: e_full"]}
{"id": "C153", "title": "FDTD runs as sums of resonances; exact stability limit of any structure", "statement": "In any FDTD run in positive materials each mode amplitude is a separate driven oscillator; without currents it rings with 2 sin(theta/2) = dt omega per step, or stays if omega = 0. All runs without currents stay bounded if and only if dt^2 omega^2 < 4 for every resonance. The documented limit on the time step bounds all resonances.", "quantifier": "for all grids, positive widths and materials, time steps, initial fields and sequences of currents", "why_tests_cant": "boundedness over all times and all initial fields, both directions", "anchors": ["meanas/fdtd/base.py: maxwell_e, maxwell_h", "meanas/fdtd/__init__.py: documented time step"]}
{"id": "C154", "title": "More material lowers every resonance", "statement": "If permittivity and permeability are nowhere smaller in a second structure on the same grid, then its a-th resonance is at most the a-th of the first, for every a; a time step stable for the first is stable for the second.", "quantifier": "for all grids, pairs of positive materials, resonances, time steps", "why_tests_cant": "a comparison of all resonances of any two structures", "anchors": ["meanas/fdfd/operators.py: e_full", "meanas/fdtd/base.py: maxwell_e, maxwell_h"]}
{"id": "C155", "title": "Complete, ordered set of Bloch bands", "statement": "For a real positive epsilon the Bloch operator has as many bands as unknowns: orthonormal fields that form a basis, with eigenvalues -w_a, 0 <= w_0 <= w_1 <= .. Every eigenvalue of the operator is among them, the ordered list is unique, and w_a is the min-max value of the energy over spaces of a + 1 dimensions. For uniform epsilon the list is |k|^2/epsilon, twice for each plane wave, in order of |k|.", "quantifier": "for all Bloch vectors, reciprocal lattices, grids (no plane wave along y) and positive epsilon", "why_tests_cant": "existence and completeness for every crystal, and a min-max over all subspaces", "anchors": ["meanas/fdfd/bloch.py: maxwell_operator, eigsolve"]}
{"id": "C156", "title": "Every Bloch band falls when epsilon grows", "statement": "If epsilon is nowhere smaller in a second crystal, its a-th band is at most the a-th band of the first, for every a. If epsilon is known to a relative accuracy d, then w_a/(1+d) <= w'_a <= w_a/(1-d). With epsilon between lo and hi, band a lies between |k|^2/hi and |k|^2/lo, with k the wavevector number a/2 in order of length.", "quantifier": "for all Bloch vectors, lattices, grids, pairs of positive epsilon and band numbers", "why_tests_cant": "a comparison of all bands of any two crystals", "anchors": ["meanas/fdfd/bloch.py: maxwell_operator"]}
{"id": "C157", "title": "What eigsolve minimises and how its result relates to the bands", "statement": "The objective of eigsolve is at least the sum of the k lowest bands for any trial block, and the fields of these bands reach it. In a converged run mode number j is not below band number j, and exceeds it by at most the excess of the objective of the last iterate above the sum of the k lowest bands.", "quantifier": "for all Hermitian operators and trial blocks; for the modes: all crystals, numbers of modes, tolerances, starting blocks and line searches, numpy/scipy functions that meet their contracts", "why_tests_cant": "a lower bound over all trial blocks and for every converged run", "anchors": ["meanas/fdfd/bloch.py: eigsolve"]}
{"id": "C158", "title": "How far Rayleigh quotient results are from exact eigenpairs", "statement": "For a Hermitian operator, rayleigh_quotient_iteration that stops by its tolerance returns a value with a true eigenvalue within the tolerance. If all other eigenvalues are at least d away from the returned Rayleigh quotient l, the error satisfies d |lam - l| <= residual^2, and the vector is within residual/d of an eigenvector. For operators that are not Hermitian the first claim is false: for every tolerance below 1 there is an operator for which the iteration stops and every eigenvalue is sqrt(tolerance/2) away.", "quantifier": "for all sizes, Hermitian matrices, tolerances, guesses, iteration counts and solvers; the refutation for every tolerance, solver and iteration count", "why_tests_cant": "the error is measured against the exact spectrum of every operator", "anchors": ["meanas/eigensolvers.py: rayleigh_quotient_iteration"]}
{"id": "C159", "title": "power_iteration on every Hermitian operator: limit and rate", "statement": "For a Hermitian operator whose eigenvalues are +-lam or at most sqrt(rho) < |lam| in magnitude, the estimate of power_iteration is within 2 |lam| |g|^2/(|gp|^2+|gm|^2) (rho/lam^2)^iterations of lam (|gp|^2-|gm|^2)/(|gp|^2+|gm|^2), with gp, gm the parts of the guess g that belong to lam and -lam. With gm = 0 estimate and vector tend to lam and its eigenvectors. The estimate never exceeds all eigenvalues in magnitude. The documented largest-magnitude eigenvalue is not found, for any number of iterations, if both signs are present.", "quantifier": "for all sizes, Hermitian matrices, guesses and iteration counts (including 0)", "why_tests_cant": "explicit error bound for all operators, guesses and numbers of iterations", "anchors": ["meanas/eigensolvers.py: power_iteration, signed_eigensolve"]}
{"id": "C160", "title": "Bloch frequencies as functions of the wavevector; the tolerance of find_k", "statement": "Every band frequency changes by at most |G (k1 - k0)| / sqrt(min epsilon) between two Bloch wavevectors, so no band is faster than light in the thinnest medium, and a band that passes a frequency between two wavevectors takes it at one between them. find_k documents its tolerance as one of frequency but uses it for the wavenumber: the frequency is then known to |G u|/sqrt(min epsilon) times the tolerance, which for reciprocal lattice vectors longer than 1 is more than the tolerance. At wavevectors where m is not transverse (C86) the bands jump.", "quantifier": "for all grids, lattices, wavevectors (no plane wave in the plane kx = 0 off the z axis), positive epsilon, all bands and all tolerances", "why_tests_cant": "a bound on the slope of every band of every structure, and existence of a wavevector by completeness of the reals", "anchors": ["meanas/fdfd/bloch.py: find_k, maxwell_operator, generate_kmn"]}
{"id": "C161", "title": "Speed of waves on uniform grids (numerical dispersion)", "statement": "With |k_a w_a| <= pi and the documented time step, FDTD has exactly one frequency in [0, pi/dt] for a wave vector k, it is at most |k|/sqrt(mu eps), the one of the continuum, and smaller by at most the fraction max (k_a w_a)^2/24: runs from transverse plane waves oscillate with it. In the frequency domain a plane wave annihilated by e_full at Omega has |k| >= Omega sqrt(mu eps) >= |k| (1 - max (k_a w_a)^2/24). Along one axis with dt = sqrt(mu eps) w there is no dispersion.", "quantifier": "every grid, real wave vector within the limits of the grid, cell widths, materials, time step up to the limit", "why_tests_cant": "a bound for all wave vectors and cell sizes, with equality approached at the limits", "anchors": ["meanas/fdmath/__init__.py:433-495", "meanas/fdtd/base.py: maxwell_e, maxwell_h", "meanas/fdfd/operators.py: e_full"]}
{"id": "C162", "title": "The time-step limit is not the diagonal of a cell", "statement": "The text asks that light travels less than the diagonal of the smallest cell per time step and gives the diagonal of a cube as width/sqrt(3). Runs of steps shorter than the diagonal can be unbounded; on grids with even numbers of cells they are as soon as light travels more than a third of the diagonal, whatever the shape of the cell. The formula of the limit is at most a third of the diagonal (equal for cubes, where it is width/sqrt(3)) and below every width.", "quantifier": "every uniform grid with even dimensions, cell shape, material and time step", "why_tests_cant": "unbounded growth over infinitely many steps for all cell shapes", "anchors": ["meanas/fdmath/__init__.py:496-505", "meanas/fdtd/base.py: maxwell_e, maxwell_h"]}
{"id": "C163", "title": "Convergence of the frequency-domain solution in lossy media", "statement": "If Im epsilon <= -d < 0 and mu is lossless or lossy, fields satisfying both frequency-domain curl equations on any grid are bounded in the mean square by the electric and magnetic currents, with a constant that depends only on omega and the materials. Hence, for smooth periodic fields that satisfy Maxwell's equations, the solution of e_full on a uniform grid with the current and materials sampled at the Yee positions, and the H of e2h, differ from the samples by at most k M (wx^2+wy^2+wz^2)/sqrt(48) in the root mean square, M bounding third derivatives: second order, converging as the grid is refined.", "quantifier": "every grid, cell size, smooth exact solution, current, lossy material distribution, frequency", "why_tests_cant": "a limit over all resolutions, with an explicit constant independent of the grid, for all smooth solutions", "anchors": ["meanas/fdfd/operators.py: e_full, e2h", "meanas/fdfd/functional.py: eh_full", "meanas/fdmath/__init__.py: Grid description"]}
{"id": "C164", "title": "Second-order convergence of FDTD runs", "statement": "For smooth periodic fields that satisfy Maxwell's equations with a given current in real positive materials, an FDTD run (maxwell_h, maxwell_e, current injection) started from samples of the exact fields (E at t=0, H half a step earlier) with the current taken at the middle of each step differs after n steps from the samples of the exact fields, in the material-weighted root mean square, by at most T sqrt(3) M/24 [(mu1 dt^2+S)/sqrt(mu0) + (eps1 dt^2+S)/sqrt(eps0(1-q))]/sqrt(1-q) for E and sqrt(2) times that for H, where T = n dt, S = wx^2+wy^2+wz^2, M bounds third derivatives and q < 1 is the squared Courant number. So with the Courant number kept below a bound under 1 the run converges to the exact fields on refinement.", "quantifier": "every grid, cell size, time step below the Courant limit, number of steps, smooth exact solution, current and material distribution", "why_tests_cant": "a limit over all resolutions and step counts with an explicit constant independent of the grid, for all smooth solutions", "anchors": ["meanas/fdtd/base.py:71-125 (maxwell_e, maxwell_h)", "meanas/fdtd/__init__.py: Timestep, E at integer and H at half-integer steps"]}
{"id": "C165", "title": "Cubic convergence of rayleigh_quotient_iteration on Hermitian operators", "statement": "Let A be Hermitian, lam an eigenvalue whose distance to all others is at least g, and let the solver solve the shifted systems. If the Rayleigh quotient of the guess is within g/2 of lam and its residual is at most g/sqrt(12) (relative to the guess's length), then with X = 12 (residual/g)^2 of the guess, after k iterations 12 (residual/g)^2 <= X^(3^k): every iteration at least cubes it. The returned eigenvalue is within (g/6) X^(3^(k-1)) of lam, and if (g^2/12) X^(3^m) < tolerance^2 then more than m iterations return a pair within the tolerance whose eigenvalue is within 2 tolerance^2/g of lam.", "quantifier": "every size, Hermitian operator, isolated eigenvalue (of any multiplicity), guess, exact solver, tolerance and iteration count", "why_tests_cant": "a rate holding at every iteration for all operators and guesses; floating point hides it after two or three iterations", "anchors": ["meanas/eigensolvers.py:43-98 (rayleigh_quotient_iteration)"]}
{"id": "C166", "title": "Time-domain reciprocity of FDTD: source and detector may be exchanged", "statement": "Run the FDTD loop twice from zero fields with any two histories of currents j1, j2. For every n, the sum over m < n of <j1_m, e2_(n-1-m)> equals the sum of <e1_m, j2_(n-1-m)>, where <x, y> is the sum of x y weighted with the volumes of the edges. Hence for a common signal f the field driven by f p and seen through q equals, at every step, the field driven by f q and seen through p; for point currents, V2 e(point 2) of a current at point 1 equals V1 e(point 1) of the same current at point 2.", "quantifier": "every field of numbers, grid with nonzero (also complex) widths, time step (stable or not), permittivity and permeability, currents and number of steps", "why_tests_cant": "an exact identity between two runs for all materials, source positions, signals and run lengths", "anchors": ["meanas/fdtd/base.py:13-125 (maxwell_e, maxwell_h)", "meanas/fdmath/functional.py:67-122 (curl_forward, curl_back)"]}
{"id": "C167", "title": "Second-order convergence on every nonuniform grid", "statement": "Cut a periodic box by arbitrary planes and use the documented widths (dx between planes for dH, dx' = (dx[i] + dx[i+1])/2 between middles for dE), with a lossy permittivity. Let smooth E, H solve Maxwell's equations with the current J. Then the solution of e_full with materials and current sampled at the documented positions, and the H of e2h, differ from the samples of E, H in the volume-weighted mean square by O(dl^2), dl the largest width: the squared error is at most V (k^2 (9/4 M^2 + 3/2 (om e1 M2)^2) + 3/4 M2^2) dl^4. The constants depend on the materials, frequency and derivatives only; the widths may change abruptly. Pointwise this is false: the difference quotients of the samples are only first-order accurate (refuted for every constant).", "quantifier": "every periodic grid of unequal widths, every lossy permittivity and passive permeability, frequency, smooth fields and current", "why_tests_cant": "a rate over all grids, including ones whose widths jump at every cell, where the local error is of first order only", "anchors": ["meanas/fdmath/__init__.py:503-704 (Grid description, dx_lists_t)", "meanas/fdfd/operators.py:41-103 (e_full)", "meanas/fdfd/functional.py:81-110 (e2h)", "meanas/fdmath/functional.py:21-122 (derivatives, curls)"]}
{"id": "C168", "title": "FDTD is second-order accurate on every nonuniform grid", "statement": "Cut a periodic box by arbitrary planes and use the documented widths. Let smooth E, H, with bounded third derivatives, solve Maxwell's equations with a current J in materials with eps0 <= eps <= eps1, mu0 <= mu <= mu1. A run of maxwell_h / maxwell_e that starts from their samples at the documented positions (H half a step earlier), driven with J at the middle of every step and a time step below the stability limit of the smallest widths, differs after n steps from the samples of E, H by at most a multiple of dl^2 + dt^2 in the volume-weighted mean square, dl the largest width. The multiple depends on materials, Courant number, derivatives and n dt, not on how the widths change between cells. So on any family of grids with dl -> 0 the fields up to a fixed time converge.", "quantifier": "every periodic grid of unequal widths, every pair of material functions within bounds, every smooth solution and current, every number of steps", "why_tests_cant": "a rate over all grids, solutions and run lengths; the local error of the E differences is only of first order where widths jump, so a few pointwise comparisons show the wrong rate", "anchors": ["meanas/fdmath/__init__.py:503-704 (Grid description, dx_lists_t)", "meanas/fdtd/base.py:14-178 (maxwell_e, maxwell_h)", "meanas/fdmath/functional.py:21-122 (derivatives, curls)"]}
{"id": "C169", "title": "Fields without curl are gradients plus uniform fields; static modes, Helmholtz decomposition, steady states", "statement": "On a periodic three-dimensional grid with non-zero widths whose sums along the axes are non-zero: the curl of the code (forward or backward) of a field vanishes exactly if the field is a (forward or backward) gradient of a potential plus a field that is uniform per component; the uniform part is unique and the potential unique up to a constant. A source-free FDTD step leaves a state unchanged exactly if E and H are of this form, and then every source-free run does. In a closed lossless box with N cells exactly N+2 of the 3N resonances are at zero frequency, for any positive widths, permittivity and permeability. Every real field is a static one plus a backward curl divided by the permittivity, both parts unique and orthogonal in the electric energy. The curl, the charges and the three totals of the displacement determine a field.", "quantifier": "For all shapes, widths, fields, materials, time steps; potentials and steady states over any field, modes and decomposition over the reals.", "why_tests_cant": "The equivalences range over all fields and the count over all structures; a test can check a few grids only, and numerically a zero resonance cannot be told from a small one.", "anchors": ["meanas/fdmath/functional.py:21-122", "meanas/fdtd/base.py:12-125", "meanas/fdfd/operators.py:40-96 (e_full)"]}
{"id": "C170", "title": "eme.get_tr: independent of the choices of the SVD, reciprocal, covariant under phases and order of the modes", "statement": "If the matrix of summed overlaps is regular: (a) any two least-squares and SVD routines that meet their contracts give the same transmission and reflection matrices, though singular vectors are not unique; (b) if all modes on both sides have the same self-overlap, transmission from left mode j to right mode i equals transmission from right mode i to left mode j, so the two off-diagonal blocks of get_s are transposes of each other; (c) permuting the modes and multiplying them by phases a_j (left), b_i (right) multiplies the transmission by a_j/b_i and the reflection by a_j/a_i, with the indices permuted.", "quantifier": "For all grids, numbers of modes, complex mode fields, permutations and phases; every SVD and least-squares routine meeting its contract.", "why_tests_cant": "A test runs one LAPACK and sees one choice of singular vectors; independence of the choice, in particular with degenerate singular values, is a statement about all of them.", "anchors": ["meanas/fdfd/eme.py:10-41 (get_tr)", "meanas/fdfd/eme.py:61-87 (get_s)"]}
{"id": "C171", "title": "eme.get_tr with modes of different normalisation", "statement": "Expected: get_tr returns the amplitudes that make the transverse fields continuous, whatever the normalisation of the modes. This is false: singular values above one are replaced by their inverses, and with unnormalised modes they occur without any gain. At an interface of two equal cross-sections whose left modes are a_i times the right ones, the reflection is zero, the transmission is diagonal, equal to a_i if |a_i| <= 1 and to 1/conj(a_i) if |a_i| > 1, while the amplitudes a_i make the fields continuous.", "quantifier": "For all grids, numbers of modes, orthogonal mode fields with non-zero self-overlap, non-zero complex factors.", "why_tests_cant": "Tests use modes from the solver, which are normalised alike; the inverse of singular values above one then looks like protection from rounding.", "anchors": ["meanas/fdfd/eme.py:33-39 (get_tr)"]}
{"id": "C172", "title": "A lossless box driven at a resonance of the discretised equations grows without bound; off resonance the run is the frequency-domain field plus free ringing", "statement": "Drive the FDTD updates in a closed lossless box with the current J cos(m ph) at step m, and let lam_a be the squared resonance frequencies of the box. If 4 sin^2(ph/2) differs from dt^2 lam_a, the amplitude of mode a after N steps is 2 sin(ph/2) / (4 sin^2(ph/2) - dt^2 lam_a) times the overlap of the mode with J, times sin((N - 1/2) ph), plus free ringing at the mode's own frequency. If they are equal, it grows like N, with the slope overlap / (2 cos(ph/2)). Below the limit of the time step the electric field stays bounded for all steps if and only if every mode at the frequency of the current has no overlap with J, whatever the initial fields; for a constant current these are the modes without curl. Off resonance the field that follows the current is the one the frequency-domain equation gives at 2 sin(ph/2)/dt.", "quantifier": "every grid shape, all positive widths and materials, every current, phase step, initial state and number of steps", "why_tests_cant": "Boundedness over all steps is not decided by any finite run, and a resonance is hit exactly only at isolated frequencies, which are eigenvalues of the grid.", "anchors": ["meanas/fdtd/base.py:12-125 (maxwell_e, maxwell_h)", "meanas/fdfd/operators.py:40-97 (e_full)"]}
{"id": "C173", "title": "Absorbing layers do not break reciprocity: with CPML, source and detector outside the layers may be exchanged at every time step", "statement": "Run the CPML updates (update_H, update_E, e += j/epsilon) from zero fields and memories, with layers made by cpml_params at the ends of any axes. For two histories of currents that do not flow in the layers, the currents of the first run summed against the fields of the second in reversed time, weighted with the volumes of the edges, equal the same sum with the runs exchanged. In particular a signal fed into a component of one cell gives at a component of another cell, at every step, what the same signal fed in there gives at the first, up to the ratio of the volumes. This holds for any layer coefficients whose instantaneous response does not vanish. It is false for points inside the layers.", "quantifier": "every grid shape, all non-zero widths and materials, all layers of cpml_params with sensible arguments on any sides, all current histories outside the layers, every number of steps", "why_tests_cant": "Only layers that really leave the stretched equations symmetric have this for all pairs of points, signals and steps; a test compares a few pairs to rounding and cannot tell a small asymmetry of the layers from their residual reflection.", "anchors": ["meanas/fdtd/pml.py:23-93 (cpml_params)", "meanas/fdtd/pml.py:96-230 (updates_with_cpml)"]}
{"id": "C174", "title": "Fields without divergence are curls plus uniform fields; the states currents can reach", "statement": "On a periodic grid with nonzero widths that do not add up to zero along an axis, over any field of numbers (so also with complex stretched coordinates): (1) a field at the places of E is the backward curl of some field if and only if its backward divergence vanishes in every cell and the three totals of its components, weighted with the cell volumes, vanish; likewise the forward curl at the places of H. (2) Its divergence alone vanishes if and only if it is a curl plus a uniform field, and the strength of the uniform field is the mean. (3) n >= 2 steps of update_H, update_E with suitable electric currents lead from a state to another one if and only if the divergence of mu H in every cell and the three total fluxes of mu H are the same in both; nothing is asked of E. One step reaches exactly the states whose H is the one the code computes. (4) The electric currents that functional.m2j makes from magnetic currents are exactly the ones without charge and without net flow.", "quantifier": "Every 3-D shape, widths, permittivities, permeabilities, time step and frequency other than zero, start state, target state and number of steps", "why_tests_cant": "A test can check the divergence of a computed curl or run one source; that nothing else restricts the fields and the states needs solvability of the curl equations for every right side.", "anchors": ["meanas/fdmath/functional.py:curl_forward", "meanas/fdmath/functional.py:curl_back", "meanas/fdmath/operators.py:curl_back", "meanas/fdtd/base.py:maxwell_e", "meanas/fdtd/base.py:maxwell_h", "meanas/fdfd/functional.py:m2j"]}
{"id": "C175", "title": "What lies outside a window of the grid does not matter until its influence arrives", "statement": "Take two grids of any sizes with a window of the same shape in each, anywhere (along some axes the window may be the whole grid, as in 2-D simulations). (1) If widths, materials, start fields and currents are the same in the window, then after n steps the E of the two runs is the same at least n cells away from the border of the window, and H at least n-1 cells from the low and n from the high border, whatever is outside. (2) The same for runs with updates_with_cpml, with any layers, parameters, thicknesses and sides in either grid as long as the layers are outside of the window: if the start fields and currents vanish outside of the window and in its outer d cells, then for n steps nothing of what is outside can be seen more than n - d cells from the border: a detector m cells from the border reads the same numbers for d + m steps, so a layer (or the periodic images) is felt only after the way there and back. The count is exact: an example differs one cell further out.", "quantifier": "All fields of numbers, grid shapes, window shapes and positions, materials, widths, CPML parameters, currents, start fields and numbers of steps", "why_tests_cant": "Tests compare chosen layouts; that no choice of layers, sizes or materials outside can be felt earlier is a statement about all of them and all numbers of steps.", "anchors": ["meanas/fdtd/base.py:maxwell_e", "meanas/fdtd/base.py:maxwell_h", "meanas/fdtd/pml.py:updates_with_cpml", "meanas/fdmath/functional.py:deriv_forward", "meanas/fdmath/functional.py:deriv_back"]}
{"id": "C176", "title": "Modes of a lossless waveguide with complex wavenumbers", "statement": "Expected: in a lossless waveguide (real omega, positive real permittivity and permeability, positive widths) the squares of the wavenumbers of operator_e are real, so each mode either propagates or decays, and the mode solve_modes returns with positive real part does not grow along +z. Found false: four cells with a checkerboard permittivity have an eigenvalue -2 + i; solve_modes gives its wavenumber a positive real and a positive imaginary part, so expand_e makes the field grow without bound along +z. Correct: the eigenvalues come in conjugate pairs with conjugate fields; of each non-real pair one mode grows and the other decays in the direction of positive real part; and in slabs (one cell along x or along y, any widths and materials) all eigenvalues are real.", "quantifier": "All grids, positive widths, real frequencies and lossless media; all slabs; the counterexample is explicit", "why_tests_cant": "Tests use guided modes of common waveguides whose wavenumbers are real; the claim is about all lossless structures and all eigenvalues.", "anchors": ["meanas/fdfd/waveguide_2d.py:operator_e", "meanas/fdfd/waveguide_2d.py:solve_modes", "meanas/fdfd/waveguide_3d.py:expand_e"]}
{"id": "C177", "title": "Completeness of the modes of operator_e", "statement": "Expected: the modes of a lossless waveguide are complete, as for an operator with an orthogonal eigenbasis, and each of them can be normalised by _normalized_fields. Found false: four cells with a checkerboard permittivity have a pair of merged modes, and some transverse field is no sum of modes of whatever eigenvalues. Correct: on slabs (one cell along x or along y, any positive widths and lossless media) there are 2 nx ny real modes with real squared wavenumbers, these are all the eigenvalues, and every transverse field is their combination with unique coefficients. Where modes merge, in any medium, the E x H flux of the merged mode vanishes. In lossless media on a grid with equal E and H widths, modes whose wavenumber is not real (complex pairs and evanescent modes) and merged modes carry no power, so normalized_fields_e fails its assertion.", "quantifier": "All slabs, positive widths, real frequencies and lossless media for completeness; all grids, widths, media and complex frequencies for the flux of merged modes; all lossless grids with equal widths for the failing assertion; the counterexample is explicit", "why_tests_cant": "Completeness speaks about all fields and all modes of a structure; merged modes occur only at isolated parameters that sampled structures miss.", "anchors": ["meanas/fdfd/waveguide_2d.py:operator_e", "meanas/fdfd/waveguide_2d.py:solve_modes", "meanas/fdfd/waveguide_2d.py:normalized_fields_e", "meanas/fdfd/waveguide_2d.py:_normalized_fields"]}
{"id": "C178", "title": "Reversing the grid exchanges the electric and the magnetic field", "statement": "Reversing all axes (cell i becomes -i on the periodic grid) and exchanging E with H, epsilon with mu, the E with the H cell widths and electric with magnetic conductors is an exact symmetry of the whole code: maxwell_e is maxwell_h of the dual structure; free FDTD runs, seen half a step on, are the runs of the dual structure for ever; energy_hstep and energy_estep are exchanged and poynting changes sign and moves to the opposite face; the two residuals of eh_full are exchanged up to sign; h_full is e_full of the dual structure with the pec and pmc masks exchanged, and the structure and its dual resonate at the same frequencies (om nonzero, epsilon and mu nonzero); operator_h of a waveguide is operator_e of the dual cross-section, and the two cross-sections have the same nonzero wavenumbers.", "quantifier": "All grid shapes, cell widths, materials, masks, fields, frequencies and wavenumbers; all numbers of time steps; over any field (or any field with conjugation).", "why_tests_cant": "The symmetry ties together twelve separately written functions; a test would compare single arrays on single grids, and the equality of resonances and wavenumbers is a statement about all eigenvectors.", "anchors": ["meanas/fdtd/base.py: maxwell_e, maxwell_h", "meanas/fdtd/energy.py: poynting, energy_hstep, energy_estep", "meanas/fdfd/functional.py: eh_full", "meanas/fdfd/operators.py: e_full, h_full", "meanas/fdfd/waveguide_2d.py: operator_e, operator_h"]}
{"id": "C179", "title": "Far fields of superposed, displaced, dual and receding sources", "statement": "near_to_farfield is linear in the near field (E, H), for any padding. The near field (H, -E) has the far field (H, -E). Displacing the near field by d cells multiplies the far field of direction (kx, ky) by exp(i kx d dx) (or exp(i ky d dy)), so that intensities do not depend on the position of the source. Waves that travel towards -z do not appear in the far field, which therefore shows only what leaves the plane on the far side. (The claim on displaced sources holds without padding only; with the default padding it is false.)", "quantifier": "All shapes, cell sizes, near fields, complex weights, displacements and directions; superposition and duality for any padded size.", "why_tests_cant": "The claims concern all near fields at once; displacement fails only when the array is padded, which for arrays with power-of-two sizes never happens by default.", "anchors": ["meanas/fdfd/farfield.py: near_to_farfield"]}
{"id": "C180", "title": "Time averages of FDTD power and energy against the frequency-domain formulas", "statement": "For a steady FDTD run at the frequency of a frequency-domain solution (E, H, J), average the Poynting vector over a whole number of half periods. With H half a step before E the average is Re(exp(i omega dt/2) E x H*)/2, with H half a step after E it is Re(exp(-i omega dt/2) E x H*)/2. The mean of the two, the average power flow, is cos(omega dt/2) times the documented Re(E x H*)/2, from which it differs by at most the fraction (omega dt)^2/8. The averages of energy_estep and energy_hstep are half of eps|E|^2 + cos(omega dt) mu|H|^2 and of cos(omega dt) eps|E|^2 + mu|H|^2 over the cell. (The documented average Re(E x H*)/2 itself is not exact.)", "quantifier": "All grids, widths, real materials, time steps, frequencies and currents; averages over any whole number of half periods, starting at any step (sin(omega dt) nonzero).", "why_tests_cant": "The average involves a run of arbitrary length of one module and a solution found by another one; the deviation is of second order in the time step and hidden by test tolerances.", "anchors": ["meanas/fdtd/energy.py: poynting, energy_estep, energy_hstep", "meanas/fdfd/functional.py: poynting_e_cross_h (note on the time average)", "meanas/fdtd/base.py: maxwell_e, maxwell_h"]}
{"id": "C181", "title": "Mean power balance of steady FDTD runs", "statement": "In a steady FDTD run at the frequency of a frequency-domain solution (E, H, J), averaged over a whole number of half periods: the work that delta_energy_j gives for the current of a step with the E field before it is -dt Re(exp(-i omega dt/2) E.J*)/2 per cell volume, with the E field after it -dt Re(exp(i omega dt/2) E.J*)/2, and the mean of both is -dt cos(omega dt/2) Re(E.J*)/2. The mean of poynting_divergence (H before and H after E) is -cos(omega dt/2) times the sum over components of Yee volume times Re(E J*)/2. With equal E and H widths, dt times the mean outflow of every cell is the mean work of its current, so a cell without current has no mean outflow.", "quantifier": "All grids, widths, real materials, time steps, frequencies and currents; averages over any whole number of half periods, starting at any step (sin(omega dt) nonzero).", "why_tests_cant": "It joins runs of arbitrary length with frequency-domain solutions on arbitrary grids; each cell's balance has to vanish exactly.", "anchors": ["meanas/fdtd/energy.py: delta_energy_j, poynting, poynting_divergence", "meanas/fdtd/base.py: maxwell_e, maxwell_h", "meanas/fdfd/functional.py: e_full / eh_full, poynting_e_cross_h"]}
{"id": "C182", "title": "Far field of the mirror image at the diagonal", "statement": "Exchanging the two axes of the near field (components and positions exchanged, H with an additional sign, dx and dy exchanged) mirrors the far field: kx and ky are exchanged, the first component is kept and the second changes its sign in every direction except the normal. In the direction of the normal (kx = ky = 0) the components are exchanged instead, since the code refers them to the x axis there. The intensity is mirrored in every direction. (That the components are mirrored in all directions is false.)", "quantifier": "All near fields, sizes, paddings with at least two points per axis, and positive cell sizes.", "why_tests_cant": "It compares the transform on two grids of different shape for all fields; the exceptional direction is a single cell of the output.", "anchors": ["meanas/fdfd/farfield.py: near_to_farfield"]}
{"id": "C183", "title": "Fourier sums of an FDTD run are frequency-domain fields", "statement": "For any FDTD run driven by a current density J, sum the fields and the current of N steps with the weights exp(-i omega t) of their own times (E at n dt, H and J at (n + 1/2) dt). The sums satisfy the equations of eh_full at the frequency 2 sin(omega dt/2)/dt, up to explicit terms that contain only the first and the last E and H fields. Hence a run that starts and ends without fields, or a run that repeats after N steps (at a multiple of its fundamental frequency), gives an exact frequency-domain solution, for every frequency at once.", "quantifier": "All grids, widths, real materials, time steps, initial fields, current waveforms, numbers of steps and frequencies.", "why_tests_cant": "It holds for arbitrary waveforms and run lengths and ties two modules together exactly; a test compares the two solutions for one pulse up to a tolerance.", "anchors": ["meanas/fdtd/base.py: maxwell_e, maxwell_h", "meanas/fdfd/functional.py: eh_full"]}
{"id": "C184", "title": "Fourier sums of FDTD runs with CPML layers", "statement": "Sum the fields and the current of an FDTD run with CPML layers with the weights exp(-i omega t) of their own times (E at n dt, H and J at (n + 1/2) dt). If the run repeats after N steps, memories included, and omega is a multiple of its fundamental frequency, or if it starts and ends without fields and memories, the sums satisfy the equations of eh_full at the frequency 2 sin(omega dt/2)/dt exactly, on the grid whose widths are divided by the gain of the layers at that frequency. If a run from rest goes on for ever and the sums of E, H and J converge, the limits satisfy these equations; nothing has to be assumed about the memories.", "quantifier": "All grids, widths, materials, layers made by cpml_params that fit in the grid, current waveforms, run lengths and frequencies with 0 < omega dt < pi; in the algebraic form any field of numbers, any layers and any factor z per half step.", "why_tests_cant": "It holds for arbitrary waveforms, at all frequencies of a run at once, and in the limit of infinitely long runs; a test sees one truncated pulse up to a tolerance.", "anchors": ["meanas/fdtd/pml.py: cpml_params, updates_with_cpml", "meanas/fdtd/base.py: maxwell_e, maxwell_h", "meanas/fdfd/functional.py: eh_full"]}
{"id": "C185", "title": "Work and energy flow of a periodic FDTD run, frequency by frequency", "statement": "Let an FDTD run repeat after N steps. At every cell, the work of its sources over the N steps (the mean of delta_energy_j with the E field before and after each injection) is the sum over the frequencies omega = 2 pi k/(N dt), k < N, of -(dt/N) cos(omega dt/2) Re(E.J*) times the cell volume, where E and J are the Fourier sums of the run; and the energy flow through every face (the mean of poynting with the E field before and after each H field) is the sum over the same frequencies of (1/N) cos(omega dt/2) times the real part of poynting_e_cross_h of E and H*. The energies of energy_estep and energy_hstep summed over the N steps split likewise into (1/N) (eps |E|^2 and mu |H|^2), with the factor cos(omega dt) on the product of two different times. Different frequencies do not mix, and the fields at each frequency solve the equations of eh_full; with CPML layers the work splits in the same way and the fields solve the stretched equations.", "quantifier": "All grids, widths, materials, current waveforms, initial states and periods N for which the run repeats; with layers, all layers made by cpml_params that fit in the grid.", "why_tests_cant": "It covers arbitrary waveforms with any number of frequencies and holds at each cell and face exactly; a test sees a few waveforms up to rounding.", "anchors": ["meanas/fdtd/energy.py: delta_energy_j, poynting, energy_estep, energy_hstep", "meanas/fdtd/base.py: maxwell_e, maxwell_h", "meanas/fdtd/pml.py: updates_with_cpml", "meanas/fdfd/functional.py: eh_full, poynting_e_cross_h"]}
{"id": "C186", "title": "Each frequency of a periodic FDTD run balances its own power", "statement": "In a lossless FDTD run that repeats after N steps, at every cell and at each of the frequencies 2 pi k/(N dt) the net outflow of the real part of poynting_e_cross_h of the Fourier sums E and H* is minus Re(E.J*) weighted with the Yee volumes, and summed over the grid the sources do no net work at any single frequency. If the source is one component of the current at one cell, its field there is in quadrature with it at every frequency.", "quantifier": "All grids, widths, materials, current waveforms, initial states and periods N for which the run repeats.", "why_tests_cant": "It is exact at every frequency of arbitrary periodic waveforms; a test sees a few waveforms up to rounding.", "anchors": ["meanas/fdtd/base.py: maxwell_e, maxwell_h", "meanas/fdfd/functional.py: eh_full, poynting_e_cross_h"]}
{"id": "C187", "title": "When a periodic source has a periodic FDTD response", "statement": "Given currents over N steps, there is a state to which the FDTD run returns after them if and only if, at each of the N frequencies omega = 2 pi k/(N dt), the equations of eh_full at the frequency 2 sin(omega dt/2)/dt have a solution with the Fourier sum of the currents as the source. If at the frequencies other than zero there is at most one solution, any two such responses differ by fields that do not change in time.", "quantifier": "All grids, widths, materials, periods N and current waveforms.", "why_tests_cant": "It decides the existence of a state in a continuum for arbitrary waveforms; a test can only try states.", "anchors": ["meanas/fdtd/base.py: maxwell_e, maxwell_h", "meanas/fdfd/functional.py: eh_full"]}
