{"id": "C01", "title": "Energy conservation, 1D TE/TM", "statement": "If a 1D stack is lossless (Hermitian permittivity convolution matrices, real n_top, real incidence angle below 90 degrees) and conv_solve returns, then sum(de_ri)+sum(de_ti) is exactly 1, for TE and for TM, whatever the (possibly absorbing) substrate index.", "quantifier": "every truncation order, number of layers, thicknesses, wavelength, period, angle, lossless permittivity pattern and every eigen-decomposition the linear algebra library may return", "why_tests_cant": "a test samples a few gratings and compares with a tolerance; the identity is over a continuum of structures and all eigenvector choices", "anchors": ["meent/on_numpy/emsolver/transfer_method.py: transfer_1d_1, transfer_1d_2, transfer_1d_3, transfer_1d_4", "meent/on_numpy/emsolver/_base.py: solve_1d"]}
{"id": "C02", "title": "Energy conservation, conical and 2D", "statement": "If a conical-mounted 1D stack or a 2D stack is lossless and conv_solve returns, then sum(de_ri)+sum(de_ti) is exactly 1 for the requested polarisation angle psi and for both reported auxiliary incidences (res_te_inc, res_tm_inc).", "quantifier": "every truncation order in x and y, number of layers, thicknesses, wavelength, periods, theta, phi, psi, lossless pattern and every eigen-decomposition returned", "why_tests_cant": "continuum of structures; a mode-matching sign error shows up only for particular mixes of s and p", "anchors": ["meent/on_numpy/emsolver/transfer_method.py: transfer_1d_conical_1..4, transfer_2d_1..4", "meent/on_numpy/emsolver/_base.py: solve_1d_conical, solve_2d"]}
{"id": "C03", "title": "Efficiencies are non-negative and evanescent orders carry no power", "statement": "For a lossless superstrate/substrate with real indices and incidence below 90 degrees every de_ri and de_ti entry is >= 0, and is exactly 0 for every order whose transverse wavevector exceeds the medium's index. Together with energy conservation each efficiency lies in [0,1].", "quantifier": "every structure, order and angle", "why_tests_cant": "sign/branch errors of the square root occur only on one side of each Wood anomaly", "anchors": ["meent/on_numpy/emsolver/transfer_method.py: transfer_1d_1, transfer_1d_4, transfer_1d_conical_4, transfer_2d_4"]}
{"id": "C04", "title": "The returned amplitudes are the unique solution of the truncated Maxwell boundary-value problem", "statement": "When conv_solve returns for a 1D TE/TM stack, there are tangential field profiles through the layers that satisfy the truncated Maxwell equations in every layer, are continuous at every interface, match incident+reflected waves above and transmitted waves below with exactly the returned reflection and transmission amplitudes; and any other reflection/transmission pair satisfying those conditions equals the returned one.", "quantifier": "every stack, wavelength, angle, truncation order", "why_tests_cant": "existence and uniqueness of a solution of an ODE system cannot be tested pointwise", "anchors": ["meent/on_numpy/emsolver/transfer_method.py: transfer_1d_1..4", "meent/on_numpy/emsolver/_base.py: solve_1d"]}
{"id": "C05", "title": "A zero-thickness layer is invisible", "statement": "Inserting a layer of thickness 0 (any pattern) anywhere in the stack does not change any reported amplitude or efficiency, in the 1D, conical and 2D solvers.", "quantifier": "every stack, insertion position, pattern, polarisation", "why_tests_cant": "unbounded structures and positions", "anchors": ["meent/on_numpy/emsolver/_base.py: solve_1d, solve_1d_conical, solve_2d", "meent/on_numpy/emsolver/transfer_method.py: transfer_1d_3, transfer_1d_conical_3, transfer_2d_3"]}
{"id": "C06", "title": "Splitting a layer does not change the result", "statement": "Replacing one layer of thickness d1+d2 by two consecutive layers with the same pattern and thicknesses d1 and d2 leaves every amplitude and efficiency unchanged, anywhere in the stack, in the 1D, conical and 2D solvers.", "quantifier": "every stack, position, thickness split", "why_tests_cant": "continuum of splits; errors in propagation or coupling order compensate in symmetric samples", "anchors": ["meent/on_numpy/emsolver/_base.py: solve_1d, solve_1d_conical, solve_2d", "meent/on_numpy/emsolver/transfer_method.py: transfer_1d_3, transfer_1d_conical_3, transfer_2d_3"]}
{"id": "C07", "title": "Near fields are continuous across layer interfaces", "statement": "The tangential field amplitudes used by calculate_field at the bottom plane of each layer equal those at the top plane of the next layer; at the top plane of the stack they equal incident plus reflected amplitudes and at the bottom plane the transmitted amplitudes reported by conv_solve.", "quantifier": "every stack and layer", "why_tests_cant": "interfaces between arbitrary patterns; sampling grids never compare both one-sided limits exactly", "anchors": ["meent/on_numpy/emsolver/field_distribution.py: field_dist_1d, field_dist_1d_conical, field_dist_2d", "meent/on_numpy/emsolver/_base.py: solve_1d"]}
{"id": "C08", "title": "Superposition of polarisations", "statement": "In the conical and 2D solvers the amplitudes reported for polarisation angle psi are sin(psi) times the reported TE-incidence amplitudes plus cos(psi) times the reported TM-incidence amplitudes; in particular psi=pi/2 reproduces res_te_inc and psi=0 reproduces res_tm_inc.", "quantifier": "every psi, structure, order; numpy and jax backends", "why_tests_cant": "continuum of psi; phase relations between the three result blocks are invisible in efficiencies at psi=0 and pi/2", "anchors": ["meent/on_numpy/emsolver/transfer_method.py: transfer_1d_conical_4, transfer_2d_4"]}
{"id": "C09", "title": "Superposition of polarisations, torch backend", "statement": "The same superposition law between res, res_te_inc and res_tm_inc holds for the torch backend's reported R_s,R_p,T_s,T_p.", "quantifier": "every psi, structure, order; torch backend", "why_tests_cant": "efficiencies agree while the complex amplitudes do not, so efficiency-based tests never see it", "anchors": ["meent/on_torch/emsolver/transfer_method.py: transfer_1d_conical_4 (431-485), transfer_2d_4 (712-766)"]}
{"id": "C10", "title": "res_te_inc and res_tm_inc do not depend on the requested polarisation", "statement": "Changing pol/psi changes only `res`: the auxiliary TE-incidence and TM-incidence results are the same for every psi.", "quantifier": "every pair of polarisation settings", "why_tests_cant": "all pairs of settings", "anchors": ["meent/on_numpy/emsolver/transfer_method.py: transfer_1d_conical_4, transfer_2d_4"]}
{"id": "C11", "title": "Index-matched structure is transparent", "statement": "If every layer is uniform with the index of both half spaces (real, lossless), nothing is reflected, no order but the zeroth is transmitted, the zeroth order is transmitted with efficiency 1 and phase exp(-i k0 kz d_total).", "quantifier": "every stack depth, thickness, order, angle, TE and TM", "why_tests_cant": "unbounded stacks and any eigenvector basis of a degenerate eigenvalue problem", "anchors": ["meent/on_numpy/emsolver/transfer_method.py: transfer_1d_1..4"]}
{"id": "C12", "title": "Unpatterned layers do not diffract", "statement": "If every layer is laterally uniform (arbitrary, possibly absorbing and different per layer permittivity), every reflected and transmitted amplitude except the zeroth order is exactly zero.", "quantifier": "every thin-film stack, truncation order, TE and TM", "why_tests_cant": "degenerate eigenvalues let the eigensolver return mixed modes; tests see one library build", "anchors": ["meent/on_numpy/emsolver/transfer_method.py: transfer_1d_2, transfer_1d_3, transfer_1d_4"]}
{"id": "C13", "title": "Bare interface gives the Fresnel coefficients", "statement": "With no layers, or only zero-thickness layers, the zeroth-order TE and TM amplitudes are the Fresnel coefficients of the n_top/n_bot interface and all other orders vanish.", "quantifier": "every pair of indices (also absorbing substrate), every angle", "why_tests_cant": "continuum of parameters", "anchors": ["meent/on_numpy/emsolver/transfer_method.py: transfer_1d_1, transfer_1d_4"]}
{"id": "C14", "title": "Convolution matrices are block Toeplitz in the Fourier coefficients", "statement": "The matrix built for a layer has at row (ry,rx), column (cy,cx) the Fourier coefficient of order (cy-ry, cx-rx), for every pair of retained orders, with row-major (y outer, x inner) order numbering, and no index ever falls outside the computed coefficients.", "quantifier": "every fto_x, fto_y and every cell", "why_tests_cant": "index arithmetic (offset, negative wrap-around, moveaxis/reshape) must be right for all sizes, not just square truncations", "anchors": ["meent/on_numpy/emsolver/fourier_analysis.py: circulant, cfs2d, dfs2d"]}
{"id": "C15", "title": "Continuous Fourier series are exact integrals", "statement": "The coefficients computed for the continuous (CFS) method are exactly (1/period) * integral over one period of profile(x) exp(-2 pi i m x/period) for the piecewise-constant profile described by the transition points, for every order m including 0.", "quantifier": "every number of pieces, transition points, values, order", "why_tests_cant": "an identity between a finite sum and an integral", "anchors": ["meent/on_numpy/emsolver/fourier_analysis.py: _cfs"]}
{"id": "C16", "title": "Pixel compression and refinement do not change the continuous Fourier series", "statement": "Merging equal neighbouring rows/columns, or replicating every pixel any number of times, leaves the CFS coefficients of a raster layer unchanged.", "quantifier": "every raster size, pattern, replication factor", "why_tests_cant": "all patterns, including ones equal across the periodic boundary", "anchors": ["meent/on_numpy/emsolver/convolution_matrix.py: cell_compression, to_conv_mat_raster_continuous"]}
{"id": "C17", "title": "Real patterns give Hermitian convolution matrices", "statement": "A layer with real refractive indices yields Hermitian epx, epy, epz^-1 convolution matrices (CFS and DFS), so the losslessness premise of the energy theorems is met by every real-valued unit cell.", "quantifier": "every real pattern, both Fourier types", "why_tests_cant": "all patterns and sizes", "anchors": ["meent/on_numpy/emsolver/fourier_analysis.py: _cfs, cfs2d, dfs2d", "meent/on_numpy/emsolver/convolution_matrix.py"]}
{"id": "C18", "title": "A uniform layer gives epsilon times identity", "statement": "A layer of one constant index n yields epx = epy = n^2 I and epz^-1 = n^-2 I for every truncation and both Fourier types.", "quantifier": "every index, raster size, truncation", "why_tests_cant": "all sizes; FFT wrap-around and inverse rules must cancel exactly", "anchors": ["meent/on_numpy/emsolver/fourier_analysis.py: cfs2d, dfs2d", "meent/on_numpy/emsolver/convolution_matrix.py: to_conv_mat_raster_continuous, to_conv_mat_raster_discrete"]}
{"id": "C19", "title": "Discrete Fourier series never alias", "statement": "Before the FFT a raster layer is replicated until both dimensions are at least 4*fto+1, so the wrapped (negative) indices used for the convolution matrix address 4*fto+1 distinct coefficients and both orders -2fto..2fto are represented; the replication preserves the pattern.", "quantifier": "every raster size and truncation, enhanced_dfs on or off", "why_tests_cant": "all sizes, incl. dimension larger than, equal to or not dividing the minimum", "anchors": ["meent/on_numpy/emsolver/convolution_matrix.py: to_conv_mat_raster_discrete", "meent/on_numpy/emsolver/fourier_analysis.py: dfs2d"]}
{"id": "C20", "title": "Discrete Fourier series converge to the continuous ones", "statement": "As the replication factor grows, the DFS coefficient of every order of every raster line tends to the CFS coefficient of the same line.", "quantifier": "every pattern and order, limit over all refinements", "why_tests_cant": "a limit statement", "anchors": ["meent/on_numpy/emsolver/convolution_matrix.py: to_conv_mat_raster_discrete", "meent/on_numpy/emsolver/fourier_analysis.py: dfs2d, _cfs"]}
{"id": "C21", "title": "DFS and CFS agree on the orientation of the unit cell", "statement": "Row 0 of the raster array denotes the same y position under fourier_type 0 and 1: both compute Fourier coefficients of the same oriented pattern.", "quantifier": "every 2D pattern", "why_tests_cant": "patterns that are y-mirror symmetric (most test cells) cannot distinguish the two", "anchors": ["meent/on_numpy/emsolver/convolution_matrix.py: cell_compression (np.flipud), to_conv_mat_raster_discrete (no flip)"]}
{"id": "C22", "title": "Diffraction orders obey the grating equation", "statement": "The transverse wavevectors used by a solve are conj(n_top sin(theta) cos(phi) + m lambda/period_x), m=-fto..fto (same in y with sin(phi)): 2*fto+1 orders, the incident order in the middle, equally spaced; for real inputs they are real.", "quantifier": "every fto, angle, period, wavelength", "why_tests_cant": "all truncations and angles", "anchors": ["meent/on_numpy/emsolver/_base.py: get_kx_ky_vector"]}
{"id": "C23", "title": "Polarisation attributes stay coherent", "statement": "After any sequence of assignments to pol and psi (and any constructor arguments), psi = pi/2*(1-pol).", "quantifier": "every history of assignments, including rejected ones", "why_tests_cant": "unbounded histories", "anchors": ["meent/on_numpy/emsolver/_base.py: psi.setter, pol.setter, __init__"]}
{"id": "C24", "title": "Polarisation stays in range", "statement": "After any sequence of accepted assignments, 0 <= pol <= 1.", "quantifier": "every history of pol/psi assignments", "why_tests_cant": "one unchecked entry point among many", "anchors": ["meent/on_numpy/emsolver/_base.py: psi.setter (no range check), pol.setter"]}
{"id": "C25", "title": "Rejected settings leave the solver unchanged", "statement": "If assigning pol, fto, period, thickness, type_complex or ucell raises, every attribute keeps its previous value.", "quantifier": "every state and every invalid value", "why_tests_cant": "all invalid values in all states", "anchors": ["meent/on_numpy/emsolver/_base.py: setters", "meent/on_numpy/emsolver/rcwa.py: ucell.setter"]}
{"id": "C26", "title": "Fourier orders, periods and thickness are normalised", "statement": "Any accepted fto is stored as two integers [x,y] (y=0 if omitted); any accepted scalar or one-element period is stored duplicated; thickness is stored as a sequence; re-assigning the stored value changes nothing.", "quantifier": "every accepted input form", "why_tests_cant": "all input forms and lengths", "anchors": ["meent/on_numpy/emsolver/_base.py: fto.setter, period.setter, thickness.setter"]}
{"id": "C27", "title": "Grating-type dispatch is a total function of the current attributes", "statement": "Every solve re-derives which solver (1D, conical, 2D) to use from the current ucell, pol, phi and fto, never from an earlier solve: 1D iff one raster row, pol in {0,1}, phi None and fto_y=0; conical iff one raster row otherwise; 2D iff several rows or vector input.", "quantifier": "every history of attribute changes and solves", "why_tests_cant": "unbounded histories", "anchors": ["meent/on_numpy/emsolver/rcwa.py: _assign_grating_type, solve_for_conv"]}
{"id": "C28", "title": "Results do not depend on history", "statement": "The value returned by conv_solve is a function of the currently visible attributes: two solver objects with equal attributes return equal results no matter which assignments, solves and field calculations happened before.", "quantifier": "every pair of histories leading to equal attributes", "why_tests_cant": "unbounded histories", "anchors": ["meent/on_numpy/emsolver/rcwa.py: conv_solve, solve_for_conv", "meent/on_numpy/emsolver/_base.py: solve_*"]}
{"id": "C29", "title": "Field calculation refers to the last solve", "statement": "calculate_field called after conv_solve and arbitrary later attribute changes still returns the field of the configuration that was solved.", "quantifier": "every history", "why_tests_cant": "needs a change of attribute between the two calls", "anchors": ["meent/on_numpy/emsolver/rcwa.py: calculate_field (get_kx_ky_vector, self.period, self.pol read at call time)"]}
{"id": "C30", "title": "An unsupported connecting algorithm is always reported", "statement": "With connecting_algo other than 'TMM' conv_solve raises instead of returning a result.", "quantifier": "every other setting", "why_tests_cant": "only one of three solvers behaves differently", "anchors": ["meent/on_numpy/emsolver/_base.py: solve_1d, solve_1d_conical (300-302), solve_2d", "meent/on_numpy/emsolver/rcwa.py: solve_for_conv"]}
{"id": "C31", "title": "Layer count: thickness and unit cell must agree", "statement": "A stack whose thickness list is longer than the number of unit-cell layers is rejected with an index error; one layer per thickness is used, in order from top to bottom.  A shorter thickness list silently drops the bottom layers.", "quantifier": "every pair of lengths", "why_tests_cant": "all length pairs", "anchors": ["meent/on_numpy/emsolver/_base.py: solve_1d loop (246-252)"]}
{"id": "C32", "title": "Choosing pinv does not change well-posed results", "statement": "If conv_solve succeeds with use_pinv=False then use_pinv=True returns the same amplitudes and efficiencies.", "quantifier": "every solvable problem", "why_tests_cant": "all nonsingular systems", "anchors": ["meent/on_numpy/emsolver/primitives.py: meeinv", "meent/on_numpy/emsolver/transfer_method.py", "meent/on_numpy/emsolver/convolution_matrix.py"]}
{"id": "C33", "title": "Torch and numpy backends report the same efficiencies (1D)", "statement": "For real indices and angles the torch solver's 1D de_ri/de_ti equal numpy's, and its amplitudes are the complex conjugates up to an order-dependent sign +-1.", "quantifier": "every 1D problem, also orders exactly at kx=0", "why_tests_cant": "a sign function that returns 0 only at isolated parameter values", "anchors": ["meent/on_torch/emsolver/transfer_method.py: branch_sign, transfer_1d_1, transfer_1d_4", "meent/on_numpy/emsolver/transfer_method.py: transfer_1d_4"]}
{"id": "C34", "title": "Torch and numpy backends dispatch alike", "statement": "For equal attributes the torch and numpy backends select the same solver.", "quantifier": "every attribute combination", "why_tests_cant": "phi=0 versus phi=None differ", "anchors": ["meent/on_torch/emsolver/rcwa.py: _assign_grating_type", "meent/on_numpy/emsolver/rcwa.py: _assign_grating_type"]}
{"id": "C35", "title": "Tabulated materials interpolate between neighbours", "statement": "The refractive index returned for a tabulated material lies between the two tabulated values bracketing the wavelength, equals the table exactly at tabulated wavelengths, is constant beyond either end of the table, and a warning is emitted iff the wavelength is outside the table.", "quantifier": "every table, every wavelength", "why_tests_cant": "all tables and wavelengths", "anchors": ["meent/on_numpy/modeler/modeling.py: find_nk_index, warn_if_out_of_range"]}
{"id": "C36", "title": "Material indices follow the n - ik convention", "statement": "For a table with non-negative extinction the returned index has non-positive imaginary part; the '__real' variant is real and equals the real part; formula-based materials follow the same sign convention.", "quantifier": "every table, wavelength, material name", "why_tests_cant": "all tables", "anchors": ["meent/on_numpy/modeler/modeling.py: find_nk_index", "meent/dispersion.py"]}
{"id": "C37", "title": "Material lookup is case-insensitive and unambiguous", "statement": "A material is found independently of the letter case of the requested name; unknown names raise.", "quantifier": "every name", "why_tests_cant": "all strings", "anchors": ["meent/on_numpy/modeler/modeling.py: find_nk_index, read_material_table"]}
{"id": "C38", "title": "Unit-cell materials are substituted exactly", "statement": "put_refractive_index_in_ucell replaces each cell labelled i by the index of material i and no other; labels are read from the original cell, so substituted values are never re-substituted; labels without a material become 0.", "quantifier": "every label array and material list", "why_tests_cant": "values that collide with labels", "anchors": ["meent/on_numpy/modeler/modeling.py: put_refractive_index_in_ucell"]}
{"id": "C39", "title": "Vector objects are painted in order", "statement": "The layer built from a list of rectangles has at each point the index of the last rectangle covering it, and the base index elsewhere; the grid lines contain all rectangle edges, are sorted and end at the period.", "quantifier": "every object list (overlaps, shared edges, any order)", "why_tests_cant": "unbounded object lists and coincident edges", "anchors": ["meent/on_numpy/modeler/modeling.py: vector_per_layer_numeric, rectangle_no_approximation"]}
{"id": "C40", "title": "Scattering-matrix star product", "statement": "Cascading with the identity scattering matrix changes nothing and cascading is associative; a global scattering matrix can be built from any number of layers.", "quantifier": "every tuple of scattering matrices", "why_tests_cant": "all matrices; failure of the builder needs three layers", "anchors": ["meent/on_numpy/emsolver/smm_util.py: RedhefferStar, construct_global_scatter"]}
{"id": "C41", "title": "The eigen-decomposition gradient is the adjoint of the exact perturbation", "statement": "The gradient returned by the custom backward pass of the eigen-decomposition pairs with any perturbation dA to the first-order change of eigenvalues and eigenvectors (distinct eigenvalues, no regularisation).", "quantifier": "every matrix, decomposition, cotangents and perturbation", "why_tests_cant": "finite differences check sampled matrices to a tolerance", "anchors": ["meent/on_torch/emsolver/primitives.py: Eig.backward", "meent/on_jax/emsolver/primitives.py: eig_bwd"]}
{"id": "C42", "title": "JAX solver objects survive flattening", "statement": "Flattening a JAX solver object to a pytree and rebuilding it yields an object with the same settings.", "quantifier": "every setting", "why_tests_cant": "all settings; only one non-default flag is dropped", "anchors": ["meent/on_jax/mee.py: _tree_flatten, _tree_unflatten", "meent/on_jax/emsolver/rcwa.py"]}
{"id": "C43", "title": "A layer of the substrate's own material is invisible in reflection", "statement": "Adding, at the bottom of any stack, a uniform layer whose permittivity is n_bot**2 leaves every reflected amplitude and every efficiency unchanged and multiplies each transmitted amplitude by exp(-i k0 kz d).", "quantifier": "every 1D stack, polarisation, thickness, real angle and (lossless or absorbing) substrate index", "why_tests_cant": "needs every stack and every thickness; the absorbing case is never compared to anything", "anchors": ["meent/on_numpy/emsolver/transfer_method.py: transfer_1d_1, transfer_1d_3"]}
{"id": "C44", "title": "Efficiencies stay in [0,1] for an absorbing substrate", "statement": "For a passive (absorbing) substrate index n - ik every reported reflection efficiency is at most one and no reported transmission efficiency is negative.", "quantifier": "every complex substrate index with non-negative absorption, both polarisations", "why_tests_cant": "a sign error only shows for k > n/sqrt(3) in TM; tests use lossless substrates", "anchors": ["meent/on_numpy/emsolver/transfer_method.py: transfer_1d_1, transfer_1d_4"]}
{"id": "C45", "title": "TE and TM agree at normal incidence on unpatterned stacks", "statement": "At normal incidence the reported efficiencies of an unpatterned stack do not depend on the polarisation.", "quantifier": "every list of (possibly absorbing) films, every pair of half-space indices", "why_tests_cant": "all film stacks; a polarisation-specific bug is invisible to single-polarisation tests", "anchors": ["meent/on_numpy/emsolver/transfer_method.py: transfer_1d_1, transfer_1d_2, transfer_1d_4"]}
{"id": "C46", "title": "NumPy and torch backends agree for an absorbing substrate", "statement": "The NumPy and torch 1D solvers report the same efficiencies for the same input when n_bot is complex.", "quantifier": "every complex substrate index", "why_tests_cant": "backend comparison tests use real indices", "anchors": ["meent/on_numpy/emsolver/transfer_method.py: transfer_1d_1", "meent/on_torch/emsolver/transfer_method.py: transfer_1d_1, transfer_1d_4"]}
{"id": "C47", "title": "Lossless gratings with only propagating waves never raise", "statement": "If all layers are lossless, all modes and all retained orders propagate and the eigen-solver returns a full set of eigenvectors, the solver returns (no LinAlgError), whatever the thicknesses and the number of layers.", "quantifier": "every lossless stack of propagating layers, any number of orders and layers, 1D, conical and 2D", "why_tests_cant": "singular intermediate matrices only occur for special thickness combinations", "anchors": ["meent/on_numpy/emsolver/_base.py: solve_1d, solve_1d_conical, solve_2d", "meent/on_numpy/emsolver/transfer_method.py"]}
{"id": "C48", "title": "Fourier factorisation of passive materials never fails", "statement": "If the permittivities of a layer all lie strictly inside one half plane (e.g. all with positive real part, or all with strictly negative imaginary part), then no matrix inverted while building the convolution matrices is singular: all three matrices are produced (continuous, vector and discrete methods), and each of them is definite in the same half plane.", "quantifier": "every pattern, grid, raster size and truncation; every half plane", "why_tests_cant": "non-singularity of Toeplitz matrices of arbitrary size cannot be sampled; the property also delimits when LinAlgError can occur", "anchors": ["meent/on_numpy/emsolver/fourier_analysis.py: cfs2d, dfs2d", "meent/on_numpy/emsolver/convolution_matrix.py"]}
{"id": "C49", "title": "Energy is conserved by conv_solve for every lossless object", "statement": "Whenever conv_solve returns for an object whose unit cell has real indices (raster or vector, any Fourier type), with lossless superstrate, real incidence angle below 90 degrees, real azimuth and polarisation and positive periods, every result block it reports (requested polarisation, TE incidence, TM incidence) satisfies sum of efficiencies = 1.", "quantifier": "every solver object, any number of layers, orders, grid sizes", "why_tests_cant": "end-to-end over all configurations; tests check single gratings", "anchors": ["meent/on_numpy/emsolver/rcwa.py: conv_solve", "meent/on_numpy/emsolver/_base.py: solve_1d, solve_1d_conical, solve_2d"]}
{"id": "C50", "title": "Reported efficiencies lie in [0,1]", "statement": "Whenever conv_solve returns with lossless half spaces, all twelve efficiency arrays of every result block are non-negative; if moreover the cell has real indices every order's efficiency lies in [0,1].", "quantifier": "every solver object", "why_tests_cant": "all configurations", "anchors": ["meent/on_numpy/emsolver/rcwa.py: conv_solve"]}
{"id": "C51", "title": "Polarisation attributes are coherent after clean histories", "statement": "After construction and any sequence of operations that never assigns a one-element Python list to psi (rejected assignments, solves and field calculations included), psi = pi/2*(1-pol).", "quantifier": "every constructor call and history", "why_tests_cant": "unbounded histories", "anchors": ["meent/on_numpy/emsolver/_base.py: psi.setter, pol.setter"]}
{"id": "C52", "title": "Polarisation stays in [0,1] while psi is kept in [0, pi/2]", "statement": "If every psi assigned is a real number in [0,pi/2] and every pol a real number, pol stays in [0,1] whatever else happens, including rejected assignments.", "quantifier": "every history", "why_tests_cant": "unbounded histories", "anchors": ["meent/on_numpy/emsolver/_base.py: psi.setter, pol.setter"]}
{"id": "C53", "title": "All but four kinds of rejected assignment are clean", "statement": "An assignment that raises leaves every attribute unchanged, except: psi given as a one-element list, arrays given to fto or ucell, and type_complex while fto holds a rejected array.  A solve never changes a setting.", "quantifier": "every state and every value", "why_tests_cant": "all invalid values in all states", "anchors": ["meent/on_numpy/emsolver/_base.py: setters", "meent/on_numpy/emsolver/rcwa.py: ucell.setter"]}
{"id": "C54", "title": "Normal forms of fto, period and thickness", "statement": "Every accepted fto is stored as two integers, every period given by one number is stored twice, every accepted thickness other than a 0-dimensional or multi-dimensional array is stored as a one-dimensional sequence, and assigning any stored value again changes nothing.", "quantifier": "every accepted input form", "why_tests_cant": "all input forms", "anchors": ["meent/on_numpy/emsolver/_base.py: fto.setter, period.setter, thickness.setter"]}
{"id": "C55", "title": "Without TMM no result is ever fabricated", "statement": "With connecting_algo other than TMM conv_solve either raises or (SMM with the conical solver only) returns a report without any result block.", "quantifier": "every solver object", "why_tests_cant": "only one of three solvers behaves differently", "anchors": ["meent/on_numpy/emsolver/_base.py: solve_1d_conical (300-302)", "meent/on_numpy/emsolver/rcwa.py: solve_for_conv"]}
{"id": "C56", "title": "Grating equation below float32(pi/2)", "statement": "For Re(theta) < float32(pi/2) the transverse wave numbers are conj(n_top sin(theta) cos(phi) + m lambda/period_x), m = -fto..fto (sin(phi), period_y for y).", "quantifier": "every fto, angle, period, wavelength", "why_tests_cant": "all truncations and angles", "anchors": ["meent/on_numpy/emsolver/_base.py: get_kx_ky_vector"]}
{"id": "C57", "title": "Conical and 2D amplitudes are the unique solution of the truncated Maxwell boundary-value problem", "statement": "When solve_2d (or solve_1d_conical, for layers uniform along y) returns, then for each of the three reported incidences (requested psi, TE, TM) the tangential field profiles evaluated by calculate_field satisfy the truncated Maxwell equations inside every layer, are continuous at every interface, match the incident plus reflected waves above and the transmitted waves below with exactly the returned amplitudes; and with non-negative thicknesses no other amplitudes admit such profiles.", "quantifier": "every stack, wavelength, incidence below 90 degrees in a lossless superstrate, azimuth, polarisation angle, truncation", "why_tests_cant": "existence and uniqueness of the solution of an ODE boundary-value problem is a statement about all competing fields", "anchors": ["meent/on_numpy/emsolver/transfer_method.py: transfer_1d_conical_1..4, transfer_2d_1..4", "meent/on_numpy/emsolver/field_distribution.py: field_dist_1d_conical, field_dist_2d"]}
{"id": "C58", "title": "What calculate_field depends on", "statement": "The outcome of calculate_field is determined by the last solve together with fto, theta, phi, n_top, period, wavelength and whether pol is 0: any later history of assignments without a further solve that leaves those values as they were leaves the field unchanged, whatever it does to the cell, thickness, substrate, options or precision.", "quantifier": "every solver object and every history of attribute assignments", "why_tests_cant": "quantifies over all histories", "anchors": ["meent/on_numpy/emsolver/rcwa.py: calculate_field", "meent/on_numpy/emsolver/_base.py: setters"]}
{"id": "C59", "title": "Returned near fields satisfy Maxwell's equations", "statement": "In every layer, calculate_field's array holds the values on the sampling grid of electric and magnetic fields that satisfy both curl equations pointwise (all six components, z axis up, time factor exp(+iwt)) with the truncated permittivity matrices of that layer.", "quantifier": "every solved setup (1D TE/TM, conical, 2D), every layer, every grid resolution, every excitation vector", "why_tests_cant": "needs derivatives in continuous x, y, z at every point of every layer for arbitrary stacks and truncations; a test can only take finite differences on a few grids", "anchors": ["meent/on_numpy/emsolver/field_distribution.py: field_dist_1d, field_dist_1d_conical, field_dist_2d"]}
{"id": "C60", "title": "Vector painting, rectangles in general position", "statement": "For rectangles inside the period no two of whose edges coincide, the vector model of the layer never fails, its grid lines are strictly increasing, consist of exactly the nonzero edges and the period, end at the period, and every cell holds the index of the last rectangle covering its points (the base index if there is none).", "quantifier": "Every list of axis-parallel rectangles (any number, any order, overlapping or nested) with pairwise distinct row edges and pairwise distinct column edges inside any period.", "why_tests_cant": "Infinitely many object lists; the edge insertion uses bisection and equality tests whose interplay depends on the whole list.", "anchors": ["meent/on_numpy/modeler/modeling.py:493-637"]}
{"id": "C61", "title": "Vector painting, coinciding edges", "statement": "For rectangles inside the period whose edges either coincide or are clearly apart, the vector model never fails, each grid line lies within n*4e-14*(1+period) of an edge (or 0 or the period) and each edge has such a line, and every cell containing a point farther than that from all edges holds the index of the last rectangle covering the point.", "quantifier": "Every list of n axis-parallel rectangles inside the period, with any number of shared edges, in any order.", "why_tests_cant": "Shared edges trigger the perturbation branches, which leave the grid lists unsorted; how often and where depends on the whole list.", "anchors": ["meent/on_numpy/modeler/modeling.py:493-637"]}
{"id": "C62", "title": "Torch and numpy backends: 2D and conical solvers", "statement": "For real indices the torch 2D and conical solvers at psi report the same efficiencies (main result and both auxiliary ones) and the same internal layer data as numpy's at -psi; the amplitudes are conjugates with the factors +-1 and +-i/n stated, the auxiliary transmitted amplitudes are not conjugated.", "quantifier": "every 2D / conical problem on which numpy returns and no 2D layer mode has q = 0", "why_tests_cant": "amplitude conventions are invisible in efficiencies; the equality covers every order count, layer stack and angle", "anchors": ["meent/on_torch/emsolver/transfer_method.py: transfer_2d_1..4 (510-789), transfer_1d_conical_1..4 (190-507)", "meent/on_torch/emsolver/_base.py: solve_2d (394-473), solve_1d_conical (334-392)", "meent/on_numpy/emsolver/transfer_method.py"]}
{"id": "C63", "title": "Energy conservation, torch 2D and conical solvers", "statement": "For lossless layers and real indices the three efficiency sums of the torch 2D and conical solvers are 1.", "quantifier": "every lossless stack, angle, polarisation, order count (pseudo-inverse off)", "why_tests_cant": "finite samples of a sum over all propagating orders", "anchors": ["meent/on_torch/emsolver/transfer_method.py: transfer_2d_1..4 (510-789), transfer_1d_conical_1..4 (190-507)", "meent/on_torch/emsolver/_base.py: solve_2d (394-473), solve_1d_conical (334-392)", "meent/on_numpy/emsolver/transfer_method.py"]}
{"id": "C64", "title": "The superposition law the torch amplitudes do obey", "statement": "With R_p of the auxiliary results negated and their transmitted amplitudes conjugated (with the per-order sign), the torch main result is the combination of the auxiliary results with sin psi and cos psi.", "quantifier": "every 2D / conical problem, every real psi, every order", "why_tests_cant": "needs amplitude comparison order by order", "anchors": ["meent/on_torch/emsolver/transfer_method.py: transfer_2d_1..4 (510-789), transfer_1d_conical_1..4 (190-507)", "meent/on_torch/emsolver/_base.py: solve_2d (394-473), solve_1d_conical (334-392)", "meent/on_numpy/emsolver/transfer_method.py"]}
{"id": "C65", "title": "Torch 1D solver over absorbing substrates", "statement": "For every substrate index n - ik (n > 0, k >= 0) and lossless layers the torch 1D solver conserves power and reports no negative efficiency; for propagating modes it returns without using the pseudo-inverse fallback.", "quantifier": "every passive substrate, lossless stack, TE and TM", "why_tests_cant": "numpy gets this case wrong; tests use real indices", "anchors": ["meent/on_torch/emsolver/transfer_method.py: transfer_1d_1 (23-52), transfer_1d_4 (111-187)", "meent/on_torch/emsolver/_base.py: solve_1d (271-332)"]}
{"id": "C66", "title": "Solver choice agrees across backends except at phi = 0", "statement": "For isotropic raster cells with phi not exactly 0, and for vector cells, torch and numpy choose the same solver.", "quantifier": "every attribute combination", "why_tests_cant": "isolated exception at one float value", "anchors": ["meent/on_torch/emsolver/rcwa.py: _assign_grating_type (136-158)", "meent/on_numpy/emsolver/rcwa.py: _assign_grating_type (118-145)"]}
{"id": "C67", "title": "Sorted tables are interpolated linearly, exactly at the nodes, and held constant outside", "statement": "For a table with non-decreasing wavelengths n and k lie on the straight line through the two neighbouring rows (hence between them); for strictly increasing wavelengths a tabulated wavelength returns its row exactly; below the first and above the last row the end row is returned with a warning; for any non-empty table the warning is issued exactly when the wavelength is smaller than all or larger than all tabulated ones.", "quantifier": "every table, wavelength, request", "why_tests_cant": "Interpolation must be checked at every real wavelength and table; tests sample a few.", "anchors": ["meent/on_numpy/modeler/modeling.py:686-748"]}
{"id": "C68", "title": "A name finds the last file of that name, up to letter case", "statement": "The request s (not ending in __real) refers to the data of the last file, in walking order, whose name without extension equals s up to letter case; if there is none the lookup raises, with and without the suffix; the letter case of s does not matter, nor that of the part before a lower-case __real.", "quantifier": "every list of files, every name", "why_tests_cant": "Quantifies over all names and directory contents.", "anchors": ["meent/on_numpy/modeler/modeling.py:710-782"]}
{"id": "C69", "title": "Sellmeier fits obey the Sellmeier equation and normal dispersion", "statement": "The index of a formula 1 or 2 material is real, non-negative and satisfies n^2 - 1 = C1 + sum C(2i) L^2 / (L^2 - pole); with non-negative strengths it does not increase with wavelength as long as no pole is crossed; above all poles, with C1 >= -1, it is always defined.", "quantifier": "every coefficient list, wavelength", "why_tests_cant": "Real-analytic statement over all wavelengths and coefficient lists.", "anchors": ["meent/dispersion.py:91-107", "meent/dispersion.py:222-232"]}
{"id": "C70", "title": "Brendel-Bormann fits are Gaussian-broadened oscillator sums and absorb", "statement": "If wofz is the Faddeeva function on the upper half plane, the permittivity of a Brendel-Bormann material is the Drude (or constant) term plus, for every four coefficients, the susceptibility of a Lorentz oscillator whose resonance is spread by a Gaussian; with non-negative strengths and positive dampings and widths the returned index has non-negative real and non-positive imaginary part at every wavelength.", "quantifier": "every coefficient list, wavelength", "why_tests_cant": "The integral representation and the sign for every wavelength cannot be sampled.", "anchors": ["meent/dispersion.py:110-153"]}
{"id": "C71", "title": "Graphene always absorbs", "statement": "graphene_falkovsky accepts exactly positive parameters; the resulting material never warns, is evaluated at every positive wavelength, and its index has positive real and negative imaginary part, whatever the quadrature returns. Its absorption is that of the Kubo formula (transitions between the bands blocked by Fermi-Dirac occupation, plus the Drude peak of the carriers), to within exp(-709) of the universal conductivity.", "quantifier": "every parameter set, wavelength, quadrature result", "why_tests_cant": "Quantifies over all parameters and over the numerical quadrature.", "anchors": ["meent/dispersion.py:51-88", "meent/dispersion.py:156-211"]}
{"id": "C72", "title": "Headers are parsed as documented", "statement": "A file whose comment lines are \"# key: value\" is an ordinary table when no coefficients are given; otherwise \"formula N\" and \"model NAME\" give a fit with exactly the listed coefficients and the range \"LOW - HIGH unit\"; later entries win.", "quantifier": "every header", "why_tests_cant": "All header texts.", "anchors": ["meent/dispersion.py:235-270"]}
{"id": "C73", "title": "The list of materials is sorted, complete and consistent with the warnings", "statement": "list_materials returns every name of the table exactly once, in order, with a range outside of which (and only there) looking the name up warns.", "quantifier": "every directory content", "why_tests_cant": "All directory contents and wavelengths.", "anchors": ["meent/on_numpy/modeler/modeling.py:807-834"]}
{"id": "C74", "title": "Results do not depend on which eigenvectors LAPACK returns", "statement": "If two linear-algebra libraries both return eigenvectors (in any order, scaling or choice of basis of degenerate eigenspaces) and pseudo-inverses of their own, and both runs of the numpy solver complete, the reflected and transmitted amplitudes and efficiencies of every incidence and every sample of the near field are equal; 1D, conical and 2D solvers.", "quantifier": "every eigen-solver pair, stack, wavelength, angle, polarisation, sampling grid", "why_tests_cant": "One machine has one LAPACK; degenerate eigenspaces make the choice of basis arbitrary.", "anchors": ["meent/on_numpy/emsolver/transfer_method.py:31-78", "meent/on_numpy/emsolver/transfer_method.py:162-255", "meent/on_numpy/emsolver/transfer_method.py:407-499", "meent/on_numpy/emsolver/field_distribution.py:4-265"]}
{"id": "C75", "title": "The conical and the 2D solver agree on line gratings", "statement": "On line gratings (epz_conv_i the inverse of epy_conv) solve_1d_conical and solve_2d return equal results for all three incidences and equal near-field samples.", "quantifier": "every stack, wavelength, angle, sampling grid", "why_tests_cant": "All stacks; the two solvers use different eigenproblems and mode bases.", "anchors": ["meent/on_numpy/emsolver/transfer_method.py:138-624", "meent/on_numpy/emsolver/_base.py:286-400", "meent/on_numpy/emsolver/field_distribution.py:61-265"]}
{"id": "C76", "title": "At azimuth 0 the three solvers agree and polarisations decouple", "statement": "With phi = 0 the classical-mount (1D) result for TE or TM equals, order by order and in every reported efficiency, the pure-polarisation result of the conical and of the 2D solver; there is no cross-polarised light; mixed incidence psi gives the sin^2/cos^2 mixture of the two pure efficiencies.", "quantifier": "every stack, wavelength, angle of incidence, psi", "why_tests_cant": "All stacks; three separately written solvers.", "anchors": ["meent/on_numpy/emsolver/transfer_method.py:6-624", "meent/on_numpy/emsolver/_base.py:224-400"]}
{"id": "C77", "title": "The backward pass of the pseudo-inverse is its derivative at invertible matrices", "statement": "For every differentiable curve of invertible matrices, pairing RobustPinv.backward with the velocity gives the derivative of the pairing of the cotangent with the inverse; at singular matrices it does not.", "quantifier": "every curve of matrices, cotangent", "why_tests_cant": "All matrices and directions.", "anchors": ["meent/on_torch/emsolver/primitives.py:51-89"]}
{"id": "C78", "title": "Scattering matrices describe continuity of tangential fields", "statement": "The star product of two scattering matrices describes exactly one component stacked on the other; S_layer and S_RT describe exactly the matching of tangential fields at the faces of a layer and of the half-spaces; the matrix assembled for any number of layers describes tangential continuity through the whole stack, and does not depend on the gap medium.", "quantifier": "every scattering matrix, every layer, every mode matrices, every number of layers, every gap medium for which the inverses exist", "why_tests_cant": "an equality of relations over all waves and stacks; tests compare a few numbers", "anchors": ["meent/on_numpy/emsolver/smm_util.py: A_B_matrices, A_B_matrices_half_space, S_layer, S_RT, RedhefferStar", "meent/on_numpy/emsolver/scattering_method.py: scattering_1d_1, scattering_1d_2, scattering_1d_3"]}
{"id": "C79", "title": "Scattering-matrix and transfer-matrix methods agree in 1D", "statement": "For 1D gratings in TE and TM between lossless media, with no order exactly at grazing, the scattering-matrix chain (homogeneous_1D, scattering_1d_1, _2, _3) fed with the modes of the layers gives the same reflected and transmitted amplitudes and the same efficiencies as the transfer-matrix solver, whenever both complete.", "quantifier": "every grating, angle, wavelength, polarisation, number of layers, eigen-solver output", "why_tests_cant": "agreement of two algorithms over all inputs", "anchors": ["meent/on_numpy/emsolver/scattering_method.py: scattering_1d_1, scattering_1d_2, scattering_1d_3", "meent/on_numpy/emsolver/smm_util.py: homogeneous_1D", "meent/on_numpy/emsolver/transfer_method.py: transfer_1d_1, transfer_1d_2, transfer_1d_3, transfer_1d_4"]}
{"id": "C80", "title": "A JAX solver object without use_pinv survives flattening", "statement": "For every JAX solver object reached from a constructor call by any history of assignments (with caught exceptions; no one-element list assigned to psi) whose orders and unit cell were accepted, whose pol is within 1e-6 of [0,1], whose theta is not a stored exact zero with a nonzero perturbation, and whose use_pinv is False, rebuilding it from its flattened form succeeds and every setting is the same; with pol outside that range the rebuild raises, and use_pinv is always False afterwards.", "quantifier": "all constructor arguments, all assignment histories", "why_tests_cant": "the constructor assigns pol then psi, replaces theta = 0, converts periods of length one and clamps pol: whether that is the identity on stored values depends on an invariant over all histories", "anchors": ["meent/on_jax/mee.py: _tree_flatten, _tree_unflatten", "meent/on_jax/emsolver/_base.py", "meent/on_jax/emsolver/rcwa.py"]}
{"id": "C81", "title": "Strips of a rotated rectangle", "statement": "For every rectangle with positive sides, every angle further than 1e-5 from the multiples of a quarter turn, and n_split_triangle = n_split_parallelogram = n > 0, rectangle() returns 3n+2 axis-parallel strips which succeed each other without gap or overlap from the highest to the lowest point of the rotated rectangle, each carrying the given index and exactly as wide as the rotated rectangle is at half the strip's height.  At an exact multiple of a quarter turn it returns one rectangle equal to the rotated one.", "quantifier": "all centres, sides, indices, angles, split counts", "why_tests_cant": "The four quadrants, the two orders of the middle corners and the three regions give 24 regimes; a test fixes one angle and compares a picture.", "anchors": ["meent/on_numpy/modeler/modeling.py:33-322"]}
{"id": "C82", "title": "Area of a rotated rectangle", "statement": "With equal split counts the strips returned for a rotated rectangle have total area lx*ly for every oblique angle and every number of splits.", "quantifier": "all centres, sides, angles, split counts", "why_tests_cant": "Conservation of area at every resolution is not visible from a sampled layer.", "anchors": ["meent/on_numpy/modeler/modeling.py:33-322"]}
{"id": "C83", "title": "Boxes of an ellipse", "statement": "For every ellipse with positive axes, every angle and n_split_w = n_split_h = n > 3, ellipse() returns boxes; if none of the n sampled parameters is the highest point of the ellipse these are 2*((n-1)//2) boxes without gap or overlap, each spanned by two points of the ellipse, from within A(1-cos(pi/(n-1))) of its top to within the same of its bottom, A being half its height; if a sample is the highest point, all boxes are empty boxes at the origin.", "quantifier": "all centres, axes, indices, angles, split counts above 3", "why_tests_cant": "The zigzag through the contour depends on where argmax falls; the degenerate case is a set of measure zero that contains the most common inputs.", "anchors": ["meent/on_numpy/modeler/modeling.py:384-491"]}
{"id": "C84", "title": "An ellipse can be drawn", "statement": "ellipse() with its default arguments, or unrotated with a sample at its top, or with different split counts in the two directions, returns a set of boxes that covers something.", "quantifier": "all ellipses", "why_tests_cant": "Needs the exact tie of two sample heights or the default arguments.", "anchors": ["meent/on_numpy/modeler/modeling.py:384-491"]}
{"id": "C85", "title": "Independent split counts of a rectangle", "statement": "The strips of a rotated rectangle follow its outline for every pair n_split_triangle, n_split_parallelogram.", "quantifier": "all rectangles, oblique angles, pairs of positive counts", "why_tests_cant": "The default arguments are equal, so the mixed-up divisors cancel in every call that does not set both.", "anchors": ["meent/on_numpy/modeler/modeling.py:33-322"]}
{"id": "C86", "title": "Absorbing gratings give back no more power than they receive", "statement": "If no permittivity of the unit cell has gain (non-positive imaginary part in the exp(+iwt) convention of the code), the layers are at least 0 thick, the wavelength is positive and the incidence medium is lossless, the sum of all reflected and transmitted efficiencies is at most 1; over a lossless substrate every efficiency lies in [0, 1].", "quantifier": "all eigen-decompositions that return, all numbers of orders and layers, all three solvers, all Fourier types; at object level all raster cells and all vector cells without coinciding edges", "why_tests_cant": "Energy conservation is only tested for lossless cells; an absorbing cell has no reference value to compare with.", "anchors": ["meent/on_numpy/emsolver/transfer_method.py:31-624", "meent/on_numpy/emsolver/convolution_matrix.py:60-130", "meent/on_numpy/emsolver/_base.py:180-418"]}
{"id": "C87", "title": "The missing power is the power dissipated by the reconstructed field", "statement": "1 - R - T equals the integral over all layers of the Joule density -E^H Im(eps) E of the reconstructed field, divided by the power of the incident wave, for classical, conical and 2D mounts, absorbing or amplifying layers, and any (complex) substrate index.", "quantifier": "all physical setups, all layer stacks with non-negative thickness, all three incidences of the conical and 2D solvers", "why_tests_cant": "Two independent outputs (efficiencies and fields) are tied by an integral identity; a test would need quadrature and could only sample.", "anchors": ["meent/on_numpy/emsolver/transfer_method.py:31-624", "meent/on_numpy/emsolver/field_distribution.py:1-310"]}
{"id": "C88", "title": "The unit of length is immaterial", "statement": "Multiplying the period, the wavelength and every layer thickness by the same non-zero number changes neither the outcome of conv_solve (efficiencies, amplitudes, or the error) nor the field array that calculate_field returns afterwards.", "quantifier": "all raster objects (any attributes, valid or not), all eigensolver and pseudo-inverse behaviours, all non-zero factors, all field resolutions", "why_tests_cant": "Two runs are compared over a continuum of factors; floating point hides small absolute constants in the code that would break the invariance.", "anchors": ["meent/on_numpy/emsolver/_base.py:30-418", "meent/on_numpy/emsolver/rcwa.py:60-227", "meent/on_numpy/emsolver/transfer_method.py:31-624", "meent/on_numpy/emsolver/field_distribution.py:1-310"]}
{"id": "C89", "title": "Translating the pattern only multiplies amplitudes by phases", "statement": "Rolling the raster of every layer by the same number of pixels along x and y (np.roll) multiplies the s and p amplitudes of reflection and transmission in order m by exp(-2 pi i m d / n) and leaves every efficiency as it was, for every block (requested polarisation, TE, TM) of the result.", "quantifier": "all physical raster objects of either transform type, all layer stacks, rolls, Fourier orders and polarisations for which both solves return; all eigensolver behaviours", "why_tests_cant": "The phase law relates two runs for every order and every roll; a sign or centring slip in the Fourier order changes phases only, which efficiencies never show.", "anchors": ["meent/on_numpy/emsolver/fourier_analysis.py:1-200", "meent/on_numpy/emsolver/convolution_matrix.py:1-130", "meent/on_numpy/emsolver/transfer_method.py:31-624", "meent/on_numpy/emsolver/_base.py:150-418"]}
{"id": "C90", "title": "A mirrored pattern under mirrored illumination has mirrored efficiencies", "statement": "Reversing the rasters along x, y or both and illuminating from the mirrored direction (azimuth reflected, polarisation angle negated when orientation changes; angle of incidence negated in the classical mount) puts into order (-m, -n) the moduli of the amplitudes and the efficiencies that order (m, n) had.", "quantifier": "all physical raster objects in the classical, conical and 2D mounts for which both solves return; all layer stacks, orders and polarisations; all eigensolver behaviours", "why_tests_cant": "A handedness error (sign of phi, of ky, or the row order of the convolution matrices) is invisible on the symmetric patterns used in tests.", "anchors": ["meent/on_numpy/emsolver/convolution_matrix.py:1-130", "meent/on_numpy/emsolver/transfer_method.py:31-624", "meent/on_numpy/emsolver/_base.py:100-418"]}
{"id": "C91", "title": "Fields returned after a solve sample one solution of Maxwell's equations through the stack", "statement": "After a solve, the arrays returned by the field calculation are, layer by layer from the top, samples of a field that satisfies Maxwell's equations inside each layer, continues tangentially through every interface, equals incident plus reported reflected waves on the upper face and the reported transmitted waves on the lower face; one array per selected incidence (requested, TE, TM), in that order.", "quantifier": "all physical objects (raster and vector cells) in the classical, conical and 2D mounts for which the solve returns; all stacks, orders, resolutions and selections; all eigensolver behaviours", "why_tests_cant": "The field code re-walks the solve's memo backwards; a swapped incidence or a wrong propagated coefficient gives smooth plausible pictures that no efficiency check sees.", "anchors": ["meent/on_numpy/emsolver/rcwa.py:155-227", "meent/on_numpy/emsolver/field_distribution.py:1-310", "meent/on_numpy/emsolver/transfer_method.py:1-624", "meent/on_numpy/emsolver/_base.py:100-418"]}
{"id": "C92", "title": "The automatic fallback of the torch inversion makes use_pinv irrelevant and the classical solve total", "statement": "In the torch backend, where a plain inversion that fails falls back to the pseudo-inverse, solving with and without use_pinv gives the same result, also where some matrix is singular; and the classical solve returns a result for every input with enough layers, including Rayleigh wavelengths at which NumPy raises.", "quantifier": "all setups, wavelengths and layer stacks, all pseudo-inverse routines that return the inverse of an invertible matrix, all eigensolver behaviours", "why_tests_cant": "Singular matrices occur on a set of inputs of measure zero that sampling does not reach.", "anchors": ["meent/on_torch/emsolver/primitives.py:50-105", "meent/on_torch/emsolver/transfer_method.py:1-789", "meent/on_torch/emsolver/_base.py:290-473"]}
{"id": "C93", "title": "Reciprocity of the zeroth reflected order", "statement": "Reversing the light in its tangential direction (theta negated in the classical mount, azimuth turned by pi in the conical and 2D mounts) leaves the zeroth reflected order unchanged: in the classical mount the complex amplitudes and efficiencies are equal; in the s/p mounts the component along polarisation psi' of the reflection of psi equals the component along psi of the reversed reflection of psi', so the co-polarised TE and TM efficiencies are equal and the cross-polarised ones are exchanged. This holds for absorbing and asymmetric layers, any truncation, raster or vector cells.", "quantifier": "all physical objects in the classical, conical and 2D mounts for which both solves return; all stacks, truncations, polarisations and eigensolver behaviours", "why_tests_cant": "Reciprocity of an asymmetric lossy grating ties two separate solves exactly; a sampled comparison at a tolerance accepts slightly non-reciprocal code and cannot cover every stack and truncation.", "anchors": ["meent/on_numpy/emsolver/transfer_method.py:1-624", "meent/on_numpy/emsolver/convolution_matrix.py:1-130", "meent/on_numpy/emsolver/fourier_analysis.py:1-533", "meent/on_numpy/emsolver/_base.py:100-418"]}
{"id": "C94", "title": "grad returns the gradient of the loss and leaves the object as it was", "statement": "For every loss, parameter list and object, grad returns the gradient of the loss at the current attribute values and the attributes keep their values; calling it again, or after fit, returns the same gradient.", "quantifier": "all attribute names, losses with exact differentiation, parameter lists, objects, and any number of earlier calls", "why_tests_cant": "A test calls grad once on a new object; the accumulation over repeated calls, the call after fit and the object left by a raising forward are not exercised.", "anchors": ["meent/on_torch/optimizer/optimizer.py:12-44", "meent/on_jax/optimizer/optimizer.py:14-53"]}
{"id": "C95", "title": "fit performs the user's gradient method", "statement": "fit with n iterations performs exactly n rounds of the user's optimiser on the named attributes, each with the gradient at the current values, whatever gradients were stored before; other attributes keep their values; the returned arrays are those left in the object; PyTorch and JAX end with the same values when the optimisers do the same; for an optimiser without memory, two calls equal one longer call.", "quantifier": "all attribute names, losses, optimisers with any internal state, parameter lists, iteration counts and objects, including objects with stale gradients", "why_tests_cant": "Tests run a few iterations from one fresh object; independence of the history, untouched attributes and equality of the backends for every optimiser and every iteration count need the loop invariant.", "anchors": ["meent/on_torch/optimizer/optimizer.py:12-44", "meent/on_jax/optimizer/optimizer.py:14-53"]}
{"id": "C96", "title": "A small step of the optimiser lowers the loss", "statement": "For every real loss with a non-zero gradient there is a bound below which every learning rate of plain gradient descent lowers the loss in one iteration of fit, in both backends; moving an entry against the array returned by grad lowers the loss.", "quantifier": "all losses differentiable at the current values, all parameter lists, objects and sufficiently small learning rates", "why_tests_cant": "Complex gradients have two conventions; a wrong conjugation still lowers the loss on many sampled cases and is exact for real parameters.", "anchors": ["meent/on_torch/optimizer/optimizer.py:12-44", "meent/on_jax/optimizer/optimizer.py:14-53"]}
{"id": "C97", "title": "PyTorch's public fields are NumPy's conjugated and mirrored", "statement": "In all three mounts the six components returned by the PyTorch calculate_field are the complex conjugates of NumPy's times (a, -a, a, -a, a, -a) with one sign a for the whole array; in the conical and 2D mounts NumPy is run with minus the polarisation angle.", "quantifier": "all physical setups with real cover and substrate indices, all layer stacks, resolutions, and the three incidences", "why_tests_cant": "The two conventions coincide in modulus, so intensity plots of sampled cases do not show a wrong sign or a missing conjugation in one component.", "anchors": ["meent/on_torch/emsolver/rcwa.py:226-260", "meent/on_torch/emsolver/field_distribution.py:1-410"]}
{"id": "C98", "title": "PyTorch's public fields solve Maxwell's equations with the reported amplitudes", "statement": "The arrays sample one electromagnetic field that obeys Maxwell's equations for time dependence exp(-i w t) in every layer (conjugated permittivities), is continuous across the interfaces, and continues as the incident wave plus the reported reflected amplitudes above and the reported transmitted amplitudes below; each amplitude is multiplied by +1 or -1 according to the side its order points to.", "quantifier": "all physical setups with real substrate index, all layer stacks, all resolutions, the three mounts and the three incidences", "why_tests_cant": "A test at sample points cannot check a differential equation nor tie the field to the amplitudes through the sign and phase conventions of every order.", "anchors": ["meent/on_torch/emsolver/rcwa.py:226-260", "meent/on_torch/emsolver/field_distribution.py:1-410", "meent/on_torch/emsolver/transfer_method.py:140-160"]}
{"id": "C99", "title": "Superposition of the fields", "statement": "The field array of polarisation angle psi is, entry by entry, sin psi times the TE array plus cos psi times the TM array, in NumPy and in PyTorch, conical and 2D.", "quantifier": "all setups the solvers accept, all wave vectors, periods and resolutions; with or without use_pinv", "why_tests_cant": "Superposition of amplitudes fails in PyTorch (C09), so superposition of its fields cannot be taken for granted; a test compares one angle on one grid.", "anchors": ["meent/on_numpy/emsolver/field_distribution.py:61-310", "meent/on_torch/emsolver/field_distribution.py:1-410", "meent/on_torch/emsolver/rcwa.py:226-260"]}
{"id": "C100", "title": "Reciprocity of the zeroth transmitted order", "statement": "Turn the device upside down (substrate and superstrate exchanged, layers and thicknesses in the opposite order) and light it back along the zeroth transmitted order. The zeroth transmission amplitudes of the two solves are in the ratio of the normal wave-vector components (TE; over the squared index in TM), component along any pair of polarisations in the conical and 2D mounts; the transmitted powers are equal, cross-polarised ones exchanged.", "quantifier": "all physical objects with a lossless substrate, of absorbing or asymmetric layers, raster or vector cells, any number of layers with one thickness each, all mounts, all truncations", "why_tests_cant": "The two solves recurse through the stack in opposite orders with different end media; agreement has to hold for complex amplitudes, and sampled symmetric devices satisfy it trivially.", "anchors": ["meent/on_numpy/emsolver/_base.py:205-418", "meent/on_numpy/emsolver/transfer_method.py:1-624", "meent/on_numpy/emsolver/rcwa.py:155-199"]}
{"id": "C101", "title": "The JAX solver returns NumPy's results", "statement": "Whenever conv_solve of the NumPy object returns, conv_solve of a JAX object with the same attributes returns the same report and leaves the same layer data behind, whatever JAX's inverse produces for singular matrices and although out-of-range reads are clamped; consequently the reports conserve energy.", "quantifier": "all objects: raster (discrete or continuous transform) or vector cells, 1D, conical, 2D, any truncation, thicknesses, polarisation; use_pinv off, or on where the cell does not go through the discrete transform or has permittivities in a half plane", "why_tests_cant": "Clamped indices and silent singular inverses only matter for rare inputs; a comparison on samples cannot show that they are never reached when NumPy succeeds.", "anchors": ["meent/on_jax/emsolver/rcwa.py:176-243", "meent/on_jax/emsolver/_base.py:252-477", "meent/on_jax/emsolver/transfer_method.py:1-725", "meent/on_jax/emsolver/convolution_matrix.py:51-133", "meent/on_jax/emsolver/fourier_analysis.py:1-126", "meent/on_jax/emsolver/primitives.py:73-79"]}
{"id": "C102", "title": "JAX objects behave as NumPy objects through construction and histories", "statement": "Arguments accepted by the NumPy constructor build the same object in JAX; a history of assignments, solves and field computations in which NumPy raises nothing gives the same outcomes, in order, and the same final object in JAX.", "quantifier": "all constructor arguments and all finite histories", "why_tests_cant": "Setters and the solver interact over unbounded sequences of calls.", "anchors": ["meent/on_jax/emsolver/_base.py:27-240", "meent/on_jax/emsolver/rcwa.py:51-120", "meent/on_jax/emsolver/rcwa.py:217-279"]}
{"id": "C103", "title": "Too many thicknesses are reported (JAX)", "statement": "A thickness list longer than the unit cell has layers is reported as an error by conv_solve of the JAX backend, as it is by NumPy (C31).", "quantifier": "all objects", "why_tests_cant": "Clamping hides the mistake: the result looks plausible.", "anchors": ["meent/on_jax/emsolver/_base.py:301-307", "meent/on_jax/emsolver/_base.py:366-371", "meent/on_jax/emsolver/_base.py:435-441"]}
{"id": "C104", "title": "Solving and computing the field in one call", "statement": "conv_solve_field returns the report of conv_solve together with the field calculate_field gives afterwards.", "quantifier": "all objects that conv_solve solves, all resolutions and selections", "why_tests_cant": "The method of one backend can fail for every input while the test suite exercises only another backend.", "anchors": ["meent/on_numpy/emsolver/rcwa.py:221-224", "meent/on_jax/emsolver/rcwa.py:284-301"]}
{"id": "C105", "title": "Keyword arguments of conv_solve", "statement": "conv_solve(name=value, ..) solves the object with these attributes assigned first.", "quantifier": "all objects and all lists of keyword arguments", "why_tests_cant": "A silently ignored argument gives a plausible answer to another question.", "anchors": ["meent/on_numpy/emsolver/rcwa.py:173-199", "meent/on_jax/emsolver/rcwa.py:217-243"]}
{"id": "C106", "title": "PyTorch objects with isotropic cells report NumPy's efficiencies", "statement": "Whenever NumPy's conv_solve returns for the object with the same settings and the opposite polarisation angle psi, conv_solve of the PyTorch object returns a report with the same blocks and the same efficiencies in each block. The cell is an array or a list of vector instructions; its way through grid, Fourier analysis, inversion, dispatch and solver is part of the statement.", "quantifier": "all objects with physical settings and a real substrate index, raster or vector cells, phi other than 0, no 2D layer mode constant in z", "why_tests_cant": "The two backends share no code; samples cannot cover the grids, transforms and branches together.", "anchors": ["meent/on_torch/emsolver/rcwa.py:90-224", "meent/on_torch/emsolver/_base.py:271-473", "meent/on_torch/emsolver/convolution_matrix.py:90-221", "meent/on_torch/emsolver/fourier_analysis.py:33-104", "meent/on_torch/modeler/modeling.py:396-617"]}
{"id": "C107", "title": "Three equal components are one number", "statement": "Writing an isotropic material as three equal components, per pixel or per vector object, changes neither the report nor the state left behind.", "quantifier": "all cells, settings, earlier states", "why_tests_cant": "The code paths differ: components are enlarged, compressed and transformed separately.", "anchors": ["meent/on_torch/emsolver/rcwa.py:136-158", "meent/on_torch/emsolver/convolution_matrix.py:90-221", "meent/on_torch/modeler/modeling.py:13-36", "meent/on_torch/modeler/modeling.py:508-554"]}
{"id": "C108", "title": "Energy conservation with diagonal anisotropy", "statement": "If every index component is real and nonzero, the substrate index is real and positive, and the run needs no pseudo-inverse, conv_solve of the PyTorch object returns, each block of the report conserves power and every efficiency lies between 0 and 1. The convolution matrices of a raster cell exist whenever, for each layer and component, the squared indices lie in an open half plane.", "quantifier": "all raster and vector cells, isotropic or with components that differ by more than the tolerance of torch.allclose, all truncations and polarisations", "why_tests_cant": "Anisotropy has no reference in the other backends to compare with.", "anchors": ["meent/on_torch/emsolver/rcwa.py:90-224", "meent/on_torch/emsolver/_base.py:271-473", "meent/on_torch/emsolver/convolution_matrix.py:90-221", "meent/on_torch/emsolver/fourier_analysis.py:33-104", "meent/on_torch/modeler/modeling.py:396-617"]}
{"id": "C109", "title": "Anisotropic line gratings get a solver that supports them", "statement": "The classical-mount and the 2D solver agree order by order on line gratings, whatever the components of the layers; an object whose cell has unequal components is never solved by the conical solver, which assumes equal y and z components.", "quantifier": "all setups at azimuth 0; all objects", "why_tests_cant": "The tolerance of a comparison decides the branch.", "anchors": ["meent/on_torch/emsolver/rcwa.py:136-158", "meent/on_torch/emsolver/_base.py:271-473"]}
{"id": "C110", "title": "A PyTorch solve depends on the settings only", "statement": "The outcome of conv_solve depends on the current settings, not on how the object got there; earlier solves can be left out of any history; keyword arguments of conv_solve are assignments in order followed by a solve.", "quantifier": "all finite histories of assignments and solves, all keyword lists", "why_tests_cant": "Stale caches show only in particular orders of calls.", "anchors": ["meent/on_torch/emsolver/rcwa.py:90-224", "meent/on_torch/emsolver/_base.py:93-238"]}
{"id": "C111", "title": "Film theory at any azimuth", "statement": "For unpatterned stacks the conical and the 2D solver return the characteristic-matrix theory of thin films: TE and TM incidence reflect and transmit the middle order only, without changing the polarisation, with the amplitudes and power fractions of the theory, and a polarisation angle mixes them as sin^2 and cos^2. A bare interface gives Fresnel's coefficients. The azimuth, the periods, the truncation and the choice between the two solvers do not change the result.", "quantifier": "all stacks of films of any complex permittivity (none carrying a wave exactly along the interfaces) and any thicknesses, all real azimuths, angles below grazing, polarisation angles, wavelengths, periods, truncations", "why_tests_cant": "The solvers are tested on one or two films at azimuth 0; at other azimuths TE and TM are coupled by the algebra and the cancellation holds only in the exact result.", "anchors": ["meent/on_numpy/emsolver/_base.py:244-418", "meent/on_numpy/emsolver/transfer_method.py:205-624"]}
{"id": "C112", "title": "PyTorch and JAX: passive cells never return more than the incident power", "statement": "If no pixel of any layer has gain - for PyTorch in any of its three index components, isotropic or diagonally anisotropic, raster or vector - then whenever the solver returns, the reported efficiencies add up to at most 1 and each lies in [0, 1]. This holds also when a convolution matrix is singular and PyTorch silently falls back to the pseudo-inverse.", "quantifier": "all physical objects of the two backends with passive cells, any layers, patterns, thicknesses >= 0, wavelengths, orders, backends' eigensolver and pseudo-inverse (any satisfying the Penrose equations)", "why_tests_cant": "The fallback is taken on exactly singular matrices only, and the anisotropic path has no reference result to compare with.", "anchors": ["meent/on_torch/emsolver/primitives.py:1-105", "meent/on_torch/emsolver/convolution_matrix.py:1-221", "meent/on_torch/emsolver/_base.py:200-473", "meent/on_torch/emsolver/transfer_method.py:1-789", "meent/on_jax/emsolver/_base.py:200-477", "meent/on_jax/emsolver/transfer_method.py:1-725"]}
{"id": "C113", "title": "Absorbing stacks never meet a singular matrix", "statement": "If every layer is either lossless with propagating modes or absorbing (all pixels with Im(n^2) < 0) with independent eigenvectors, and at least one layer absorbs or all orders propagate in the superstrate, the classical, conical and 2D solvers return: no inverse fails, evanescent orders in the superstrate notwithstanding. The convolution matrices of a pattern whose every pixel absorbs are always defined and absorbing, in all three Fourier constructions.", "quantifier": "all stacks of positive thicknesses, all wavelengths, angles, periods, truncations, real substrate index, any absorbing patterns", "why_tests_cant": "A singular interface matrix raises LinAlgError or, with a nearly singular one, returns garbage; tests only try a handful of stacks, which cannot exclude it.", "anchors": ["meent/on_numpy/emsolver/convolution_matrix.py:1-130", "meent/on_numpy/emsolver/fourier_analysis.py:1-533", "meent/on_numpy/emsolver/transfer_method.py:1-624", "meent/on_numpy/emsolver/_base.py:244-418"]}
{"id": "C114", "title": "An absorbing layer always loses power", "statement": "If no layer has gain and at least one layer of positive thickness is made of absorbing materials, then the reported reflected and transmitted efficiencies add up to strictly less than 1 - for the requested polarisation and for both reference incidences, in the classical, conical and 2D solvers, and in the results of the NumPy, PyTorch and JAX solver objects built from the cell. A design whose absorbing layer happens to be dark does not exist.", "quantifier": "all stacks without gain of any number of layers with one absorbing layer of positive thickness at any position, all wavelengths, angles, periods, truncations, patterns, eigensolvers", "why_tests_cant": "Absorption can be arbitrarily small, below any test tolerance; that it never vanishes, wherever the layer sits in a standing wave, needs uniqueness of the field equations.", "anchors": ["meent/on_numpy/emsolver/transfer_method.py:1-624", "meent/on_numpy/emsolver/convolution_matrix.py:1-130", "meent/on_numpy/emsolver/_base.py:244-418", "meent/on_jax/emsolver/_base.py:200-477", "meent/on_torch/emsolver/_base.py:200-473"]}
{"id": "C115", "title": "The 2D scattering-matrix code computes the solver's fields", "statement": "The two-dimensional scattering-matrix functions return, for TE and for TM incidence, the x and y components of the reflected and transmitted electric field that the transfer-matrix solver describes by its s and p amplitudes, order by order and up to one common sign; the power those components carry along z is the efficiency the solver reports; their layer modes are the solver's with magnetic fields negated; and their entry i carries the wave vector of the solver's entry n-1-i.", "quantifier": "all stacks of any number of layers, all orders off the axes and off grazing, all angles strictly between 0 and 90 degrees, azimuths, wavelengths, eigensolvers", "why_tests_cant": "The two methods share no formula past the eigenproblem; agreement at sampled stacks says nothing of others, and the code is not reachable from the solver so no test runs it.", "anchors": ["meent/on_numpy/emsolver/smm_util.py:93-133", "meent/on_numpy/emsolver/smm_util.py:180-278", "meent/on_numpy/emsolver/scattering_method.py:78-219", "meent/on_numpy/emsolver/transfer_method.py:383-624", "meent/on_numpy/emsolver/_base.py:343-418"]}
{"id": "C116", "title": "The 2D scattering-matrix code's efficiencies and half-spaces are right", "statement": "The efficiencies the two-dimensional scattering-matrix functions report add up to 1 for lossless stacks, each weighted with the kz of the order it belongs to, and the half-space matrices are the plane-wave admittances in every direction.", "quantifier": "all lossless stacks, all orders, all directions", "why_tests_cant": "Each formula is right in the special cases one would try first: normal incidence and one axis with index 1.", "anchors": ["meent/on_numpy/emsolver/smm_util.py:93-133", "meent/on_numpy/emsolver/scattering_method.py:140-193", "meent/on_numpy/emsolver/_base.py:343-418"]}
{"id": "C117", "title": "JAX: symmetries and reciprocity", "statement": "On JAX, scaling all lengths by one factor changes nothing; a translated cell gives the same efficiencies and phase-shifted amplitudes; a mirrored cell under mirrored light gives the mirrored report, in both mounts; the zeroth reflected order is the same from the two sides of the normal, or with the azimuth turned by half a turn; and the zeroth transmitted order is the same for the stack turned upside down and lit along the transmitted order.", "quantifier": "all objects with real positive outer indices and angles, any pixels (absorbing too), any number of layers, any orders, whatever an inverse of a singular matrix returns, any eigensolver satisfying its equation, wherever NumPy returns", "why_tests_cant": "A comparison of two runs has to be made at every cell, order and angle; the JAX code is a different text from the NumPy code and the tests compare only energy sums.", "anchors": ["meent/on_jax/emsolver/rcwa.py:1-323", "meent/on_jax/emsolver/_base.py:1-477", "meent/on_jax/emsolver/transfer_method.py:1-725"]}
{"id": "C118", "title": "PyTorch: symmetries and reciprocity of the efficiencies", "statement": "On PyTorch, a translated cell gives the same efficiencies; a mirrored cell under mirrored light gives the mirrored efficiencies, in both mounts; and in the classical mount the zeroth reflected order has the same efficiency from both sides of the normal and the zeroth transmitted order the same efficiency for the stack turned upside down and lit along the transmitted order.", "quantifier": "all objects with real positive outer indices and angles, any pixels (absorbing too), any number of layers, any orders, any eigensolver satisfying its equation, wherever the NumPy solves of the twin objects return", "why_tests_cant": "PyTorch differs from NumPy in the sign of psi and in the amplitudes, so NumPy's own symmetry does not carry over by running a test; each relation is between two runs at every cell and angle.", "anchors": ["meent/on_torch/emsolver/rcwa.py:1-277", "meent/on_torch/emsolver/_base.py:1-473", "meent/on_torch/emsolver/transfer_method.py:1-789"]}
{"id": "C119", "title": "One absorbing pixel is enough to lose power", "statement": "If no material of the cell has gain and one single pixel (or one point of a vector drawing, off all edges) of a layer of positive thickness absorbs, the reported efficiencies add up to strictly less than 1, for the requested polarisation and for both reference incidences, on NumPy, JAX and PyTorch. For materials n - ik with n > 0 and k >= 0 and layers of positive thickness, the report adds up to 1 exactly when every k is 0.", "quantifier": "all cells of any number of pixels and layers with one absorbing pixel in any position, arrays with fourier_type 1 or enhanced_dfs, vector drawings, any orders, wavelength, angles, any eigensolver satisfying its equation, wherever the solver returns", "why_tests_cant": "The absorbing pixel can be one of thousands and its absorption below any tolerance; that no standing wave made of finitely many orders has a dark spot covering the pixel is a statement about all trigonometric polynomials.", "anchors": ["meent/on_numpy/emsolver/convolution_matrix.py:1-130", "meent/on_numpy/emsolver/fourier_analysis.py:1-533", "meent/on_numpy/emsolver/transfer_method.py:1-624", "meent/on_numpy/emsolver/_base.py:244-418", "meent/on_jax/emsolver/_base.py:200-477", "meent/on_torch/emsolver/_base.py:200-473"]}
{"id": "C120", "title": "Textbook coatings", "statement": "In all three solvers: a transparent film whose phase thickness is a multiple of half a turn can be taken out of any stack of films without changing the efficiencies. A mirror of N pairs of quarter-wave films reflects ((a-b)/(a+b))^2 with a, b the tilted admittances of the outer media times the 2N-th powers of those of the two films, transmits the rest, and reflects as near to everything as one likes when N is large. One quarter-wave film whose tilted admittance is the geometric mean of its neighbours' reflects nothing.", "quantifier": "all films (half-wave layers between absorbing films too), all N, odd multiples of a quarter wave, both polarisations, all real azimuths in the 2D and conical solvers, all angles of incidence with propagating waves in the films, all truncations and periods, any eigensolver satisfying its equation", "why_tests_cant": "The mirror law is an induction over the number of pairs and the limit is not a finite computation; the tests contain one film.", "anchors": ["meent/on_numpy/emsolver/transfer_method.py:1-624", "meent/on_numpy/emsolver/_base.py:244-418"]}
{"id": "C121", "title": "Total reflection through films, and Brewster's angle", "statement": "In all three solvers: beyond the critical angle of the substrate everything is reflected into the zeroth order and nothing is transmitted, whatever films of real permittivity lie in between. On a bare interface at Brewster's angle TM light is transmitted entirely, and of any incident light a fraction sin(psi)^2 ((nt^2-nb^2)/(nt^2+nb^2))^2 is reflected.", "quantifier": "any number of films of any thickness and any real permittivity (also negative) not exactly at its own critical angle, both polarisations and every polarisation angle, all real azimuths in the 2D and conical solvers, all truncations and periods, any eigensolver satisfying its equation", "why_tests_cant": "The stack is of arbitrary length; a sample of angles meets Brewster's angle only up to rounding.", "anchors": ["meent/on_numpy/emsolver/transfer_method.py:1-624", "meent/on_numpy/emsolver/_base.py:244-418"]}
{"id": "C122", "title": "PyTorch: film theory, coatings and total reflection", "statement": "For a stack of films the efficiencies of the three PyTorch solvers are those of the theory of films: only the zeroth order carries power, with the theory's reflectance and transmittance for TE and TM incidence and their sin^2/cos^2 mixture for the requested polarisation angle. Hence half-wave layers are absent, quarter-wave mirrors follow the textbook law, a quarter-wave layer of the geometric-mean admittance does not reflect, a bare interface does not reflect TM light at Brewster's angle, and everything is reflected beyond the critical angle.", "quantifier": "any number of films (absorbing ones in the first two statements), all real azimuths and polarisation angles, all truncations and periods, any eigensolver satisfying its equation", "why_tests_cant": "The PyTorch code conjugates, mirrors and mixes polarisations differently from NumPy; a test compares a few stacks only.", "anchors": ["meent/on_torch/emsolver/transfer_method.py:1-789", "meent/on_torch/emsolver/_base.py:1-473"]}
{"id": "C123", "title": "An assigned unit cell is used or refused", "statement": "Assigning an array to ucell either stores that pattern or raises an exception and keeps the old one, in every backend.", "quantifier": "all objects, arrays of every dtype and shape, all three backends", "why_tests_cant": "A test assigns arrays of floats; the dtypes that no branch of the setter lists (bool, uint8, float16) are not tried, and nothing visible happens when they are.", "anchors": ["meent/on_numpy/emsolver/rcwa.py:84-108", "meent/on_torch/emsolver/rcwa.py:90-128", "meent/on_jax/emsolver/rcwa.py:94-120"]}
{"id": "C124", "title": "PyTorch: components of an anisotropic layer", "statement": "For a layer with three index components the permittivity matrix of each direction is computed from that component alone: the x component with the inverse rule along x, the y component with the inverse rule along y, the z component with the direct rule and then inverted.", "quantifier": "all rasters of the three components, all grid lines, all truncation orders, raster (continuous and discrete, enhanced or not) and vector layers", "why_tests_cant": "Exchanging two components keeps energy conservation and every isotropic result; only anisotropic patterns checked against the Fourier rules show it.", "anchors": ["meent/on_torch/emsolver/convolution_matrix.py:90-120", "meent/on_torch/emsolver/convolution_matrix.py:123-173", "meent/on_torch/emsolver/convolution_matrix.py:174-219"]}
