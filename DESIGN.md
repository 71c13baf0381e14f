# Formal model of meent (RCWA solver) — design

Source: `/repo` (kc-ml2/meent), read as text only.  Proofs: Coq 8.16.1, `rocq/theories`, logical name `Verif`.
Properties: `properties.jsonl`; which theorem proves which property: `MANIFEST.json`; wrong programs tried: `seeded/LOG.jsonl`.

## 1. What is idealised

* Floating point numbers are exact reals (Stdlib `R`) and complex numbers (Coquelicot's `C = R*R`, equipped here with a mathcomp
  `fieldType`).  Rounding, overflow and signed zeros are not modelled.  `nan`, `inf` and division by zero are failures (`None`) where
  the code can reach them; in the few places where the field convention `x/0 = 0` remains, the model file says so and the theorems
  exclude the case.
* Matrices are mathcomp `'M[C]_n`.
* `np.linalg.inv` raises on a singular matrix: the partial function `inv` (`None` = `LinAlgError`).  `np.linalg.pinv` is an oracle;
  where a property of it is needed (C32, C77) the first Penrose equation `A P A = A` is a hypothesis.
* `np.linalg.eig` is an oracle returning `(lambda, W)`; the only fact assumed (when anything is) is `A W = W diag(lambda)`.
  Invertibility of `W` is not assumed: the code calls `inv(W)`, which fails otherwise.  C74 shows the choice of eigenvectors is
  immaterial.
* `z ** 0.5` on complex numbers is the principal square root (`Re >= 0`, and `+i` on the negative real axis).
* Python exceptions are values (`option`, or a boolean beside the new state when the object can be changed before the exception).
  Loops are folds or structural recursion.
* Oracles (`eig`, `pinv`, `wofz`, `quad`, `float()`, `int()`, `np.loadtxt`) are universally quantified arguments (Section variables
  that are discharged), never axioms.

Not modelled: wall-clock, memory, devices, plotting, printing, file-system walking, autograd itself (the hand-written backward
formulas are), dtype promotion and rounding to the selected precision, JAX tracing, the user's optimiser (an oracle).

## 2. Files

| file | models (under `/repo/meent`) |
|---|---|
| `Cplx.v`, `Mx.v` | complex field structure, conjugation, exp, principal sqrt; matrix helpers |
| `ModelTM.v` | `on_numpy/emsolver/transfer_method.py`, `primitives.py`, `_base.py` (wave vectors, the three solvers) |
| `ModelFourier.v` | `fourier_analysis.py`, `convolution_matrix.py` |
| `ModelVec.v` | `modeler/modeling.py`: object lists to non-uniform grids |
| `ModelField.v` | `field_distribution.py` |
| `ModelState.v` | attribute setters, dispatch, `conv_solve`, `calculate_field`, histories (`_base.py`, `rcwa.py`) |
| `ModelTorch.v` | what differs in `on_torch/emsolver` |
| `ModelMat.v` | `modeling.py` (material lookup), `dispersion.py` |
| `ModelGrad.v` | the backward passes of `on_torch` and `on_jax` `primitives.py` |
| `ModelSMM.v` | `smm_util.py`, `scattering_method.py` (1D) |
| `ModelSMM2D.v` | `smm_util.py:93-133,180-278`, `scattering_method.py:78-219` (2D) and the commented-out calls `_base.py:357-411` |
| `ModelShape.v` | `modeling.py` rotated rectangles and ellipses |
| `ModelOpt.v` | `on_torch` and `on_jax` `optimizer/optimizer.py` |
| `ModelTorchField.v` | `on_torch/emsolver/rcwa.py` 226-260 (public fields) |
| `ModelTorchObj.v` | the PyTorch solver object: `on_torch/emsolver/rcwa.py` 90-224, `convolution_matrix.py` 90-221, setters of `_base.py`, `modeler/modeling.py` 13-36, 396-617 |
| `ModelJax.v` | `on_jax/emsolver`: `rcwa.py` conv_solve and conv_solve_field, `_base.py`, 1D part of `transfer_method.py`, `fourier_analysis.py`, `convolution_matrix.py`, `primitives.py` meeinv |
| `ModelTree.v` | `on_jax/mee.py` flattening and rebuilding, with the JAX setters |

Specifications are separate and do not use the model's helpers: `Spec.v` (energy, efficiencies), `SpecSolve.v`, `SpecFilm.v`
(characteristic matrices, Fresnel), `SpecFourier.v`, `SpecLayer.v` (pictured permittivity, factorisation rules), `SpecVec.v`,
`SpecState.v`, `SpecField.v`, `SpecMaxwell.v` (differential equations), `SpecAgree.v`, `SpecTorch.v`, `SpecMat.v`, `SpecGrad.v`,
`SpecSMM.v`, `SpecTree.v`, `SpecShape.v`, `SpecPassive.v`, `SpecSym.v`, `SpecFull.v`, `SpecRecip.v`, `SpecRecipT.v`, `SpecOpt.v`, `SpecTorchField.v`, `SpecJax.v`, `SpecTorchObj.v`, `SpecFilm2D.v`, `SpecTorchPassive.v`, `SpecAbsorb.v`, `SpecStrict.v`, `SpecSMM2D.v`, `SpecPort.v`, `SpecSpot.v`, `SpecCoat.v`, `SpecGraphene.v`, `SpecFilmT.v`.  `Proof*.v` hold lemmas, `ExampleKit.v`, `ProofObjEx.v` and `Proof*Ex.v` the concrete cases, `Properties*.v`
the property theorems with `Print Assumptions` and the non-vacuity examples.

## 3. Properties and how they are proved

* **C01, C02, C49, C63 energy.**  Flux form `Phi(F,G) = F^H S G - G^H S F`.  One generic lemma covers the solvers: if the modal matrices
  satisfy `Om_L V = W Q`, `Om_R W = V Q` with `S`-Hermitian `Om_L, Om_R`, one layer step transforms `Phi` by congruence with `A^-1 X`.
  The modal equations are derived from the eigen equation for TE, TM, conical, 2D.  Induction over layers; boundary terms give
  `sum de = 1`.  C49/C50 state it of the public attributes, through the Fourier factorisation (C17, C48).
* **C03, C50** sign of `Re kz` from the principal root.
* **C04, C57** the spec is an ODE boundary value problem over Coquelicot derivatives; existence by the modal solution, uniqueness by
  reduction to scalar ODEs.
* **C05, C06** algebra of one and two layer steps, lifted to an arbitrary position in the stack.
* **C07, C58, C59** field amplitudes at layer ends rewritten through the step; Maxwell's equations by differentiating the synthesis.
* **C08, C10, C64** linearity of the last solve.  **C09** is false of torch: witness.
* **C11-C13, C43-C45** invariants `G = iKz F` / `G F^-1` diagonal, by induction over layers, for any eigenbasis.
* **C14-C21, C48** finite sums; integrals via `RInt`; limits via `is_lim_seq`; positive real part of the Toeplitz forms.
* **C22, C56** list arithmetic over the order range.
* **C23-C31, C34, C51-C55, C58, C66** state machine invariants by induction over operation lists; false ones by concrete histories.
* **C32** pinv agrees with inv on invertible matrices, lifted through the whole solve.
* **C33, C46, C62-C65** pointwise relation of torch and numpy amplitudes, through a simulation of the layer loop.
* **C35-C38, C67-C73** interpolation lemmas, string functions, dictionaries; passivity of the fits from the integral of `wofz`.
* **C39, C60, C61** insertion/bisect invariants; painter's algorithm by induction over the object list.
* **C40, C78, C79** a scattering matrix is a linear relation between incoming and outgoing amplitudes; star = composition of relations.
* **C41, C77** trace pairing identities, differentiability of the inverse, first-order perturbation of eigenpairs.
* **C47** well-posedness (all inverted matrices are invertible) from the positive-real structure.
* **C74-C76** uniqueness of the boundary value problem (C04/C57) identifies the results of different eigenbases and solvers.
* **C42, C80** an invariant over all histories makes the constructor the identity on stored values.
* **C81, C82, C85** rotation to the rectangle's own axes reduces the four quadrants to one; a section is an interval whose ends lie on
  fixed sides; areas telescope.  **C83, C84** the height along the contour is one cosine, so the zigzag descends.
* **C86, C87** the power flow `Im(u^H S v)` of the boundary-value solution (C04, C57) is differentiated in depth; its derivative is the
  Joule density, its end values are the reported efficiencies.  Signs of the density come from the Toeplitz forms (as for C48).
* **C88** every length enters the model as a ratio to another length; simulation of the layer loop and of the field synthesis.
* **C89, C90** rolled and reversed rasters have convolution matrices that are conjugate by a diagonal of phases composed with a permutation
  of the orders; the whole layer recursion commutes with this conjugation whatever eigenbasis the eigensolver picks, because the solution of
  the boundary value problem is unique (ProofSym2 to ProofSym7). For the continuous transform the rows of orders run downwards, so the y phase is conjugate.
* C91 (`SpecFull.v`, `ProofFull.v`): end to end, the arrays of `calculate_field` after `conv_solve` sample one solution of Maxwell's
  equations through the whole stack, between the waves reported by the solve.
* C92 (`ProofTorch4.v`): the torch inversion with its fallback: `use_pinv` is immaterial, and the classical solve is total.
* C93 (`SpecRecip.v`, `ProofRecip*.v`): reciprocity of the zeroth reflected order under reversal of the tangential direction. The
  bilinear (unconjugated) Wronskian of two solutions is conserved through every layer because the convolution matrices of any cell
  are persymmetric; nothing is assumed about losses or symmetry of the pattern.
* C94 to C96 (`ModelOpt.v`, `SpecOpt.v`, `ProofOpt.v`): the optimisers over an arbitrary set of attribute names. Automatic
  differentiation and the user's method are oracles; the loops are shown equal to a separately defined gradient method by induction,
  and one step of plain gradient descent is shown to lower the loss from its directional derivatives.
* C97 to C99 (`ModelTorchField.v`, `SpecTorchField.v`, `ProofTorchField.v`): the public fields of the PyTorch backend. The spec states
  Maxwell's equations for the other time dependence, exp(-i w t), with y downwards, and half-space waves by their s/p electric
  amplitudes. Conjugation together with the reflection y -> -y carries the NumPy solution of C91 to one of these; C33/C62 turn the
  amplitudes into the reported ones. `field_distribution.py` of the PyTorch backend is taken to have NumPy's bodies.
* C100 (`SpecRecipT.v`, `ProofRecipT*.v`): reciprocity of the zeroth transmitted order. The second object is the device upside down:
  indices exchanged, layers and thicknesses reversed, light sent back along the zeroth transmitted order. The field of the second
  solve, turned upside down, solves the first stack, and the bilinear form of `ProofRecip.v` is the same on both faces.
* C101 to C105 (`ModelJax.v`, `SpecJax.v`, `ProofJax*.v`): the JAX solver. `jnp.linalg.inv` is total; for singular matrices the model
  returns an arbitrary matrix (a universally quantified function `broken`), and array reads clamp the index. Simulation: each JAX
  function returns what NumPy's returns whenever the latter returns; then by induction over layers and over histories. The conical
  and 2D functions have NumPy's bodies and are NumPy's definitions with the inverse of JAX. Tracing, jit, vmap and devices are not
  modelled.
* C106 to C110 (`ModelTorchObj.v`, `SpecTorchObj.v`, `ProofTorchObj*.v`): the PyTorch solver object. `same_cell` relates isotropic cells
  of the two backends, `numpy_twin` is the NumPy object with the same settings and the opposite psi. `plain_run` of C108 says that NumPy's solver
  returns on the PyTorch object's matrices; PyTorch then returns as well. Anisotropic layers are three scalar arrays that are transformed
  independently; `far` is the negation of the `torch.allclose` test.
* C111 (`SpecFilm2D.v`, `ProofFilm2D.v`): thin-film theory in the conical and 2D solvers. The scalar fields of the films, turned into the
  plane of incidence, are tangential fields of the solver's boundary-value problem, which has one solution (C73), so the solver returns them.
* C112 (`SpecTorchPassive.v`, `ProofTorchPassive.v`): C86 for PyTorch. A component's convolution matrix keeps the sign of Im(eps); the
  inverse and, by the Penrose equations, the pseudo-inverse of a matrix `A` with `Im(v^H A v) <= 0` have the opposite sign (for such `A` the
  kernels of `A` and `A^H` agree). JAX follows from C101 and C86.
* C113 (`SpecAbsorb.v`, `ProofAbsorb*.v`): no singular matrix with absorbing layers. In an absorbing layer the flux of any nonzero field drops
  strictly (derivative of the flux = minus the dissipated power), so the field that solves the homogeneous interface equations must vanish:
  the matrices that the recursion inverts have trivial kernel. Modes with exponents of nonnegative real part: `Re q >= 0` from the code's branch
  choice, and a strict flux argument (a field decaying upwards carries no power to infinity) makes `W` and `V` invertible.
* C114 (`SpecStrict.v`, `ProofStrict*.v`): power is lost strictly. The flux is antitone in every layer (C87); if none were lost, the flux
  would be constant through the absorbing layer, its dissipation density zero at every depth, so the field zero there; the field equations
  are linear, so a Gronwall estimate carries the zero field to the other layers and up to the superstrate, where the incident wave has unit
  amplitude. The objects follow as in C86; JAX from C101, PyTorch from C106.
* C115 (`SpecSMM2D.v`, `ProofSMM2D*.v`): the 2D scattering-matrix functions against the transfer-matrix solver. Both are shown to solve the
  same boundary problem: amplitudes up and down in every layer, tangential fields continuous. The Redheffer product is the elimination of the
  gap amplitudes, so the global matrix returns the solution; the transfer recursion returns it too (C28). Uniqueness needs only that both
  return. A rotation by the azimuth of each order turns x, y components into s, p amplitudes. Magnetic fields have opposite signs in the two
  codes, which flips one common sign of the result. The driver is commented out in `_base.py`; its calls are
  modelled as written there, except that the layers are stacked from the first to the last (see C116 in section 4).
* C117, C118 (`SpecPort.v`, `ProofPort.v`): C88-C90, C93 and C100 on the other two backends. JAX: through C101 (same outcome), for
  use_pinv False. PyTorch: through the twin object of C106, efficiencies only; negated angles fall outside C106's `physical_obj`, so the
  classical mount has its own comparison (`twin_tilted`).
* C119 (`SpecSpot.v`, `ProofSpot*.v`): one absorbing pixel is enough. The Toeplitz matrix of a step function is the integral of the
  permittivity against the square of a trigonometric polynomial with ff terms; on a pixel that polynomial would have to vanish at ff
  points, hence everywhere. The three matrices (including the one with the inverse rule) are therefore strictly absorbing and the argument
  of C114 applies. Not for fourier_type 0 without enhanced_dfs: there the DFT of few pixels samples the field at single points.
* C120 (`SpecCoat.v`, `ProofCoat*.v`): half-wave layers, quarter-wave mirrors (induction over the pairs, and the limit) and coatings,
  consequences of C12 and C111 for the efficiencies; the specification is in real tilted admittances only.
* C121 (`ProofCoat4.v`): total reflection through films of real permittivity (the tangential pair stays real up the stack) and
  Brewster's angle, in the same three solvers.
* C122 (`SpecFilmT.v`): C111, C120 and C121 for the PyTorch solvers, through C33 and C62 (equal efficiencies where both return).
* C123 (`PropertiesUcell.v`): what the three `ucell` setters do with arrays of each dtype class of `ModelState.v`.
* C124 (`PropertiesAniso.v`): the Fourier rules of C14 for each component of an anisotropic PyTorch layer (added after mutant m253,
  whose exchange of two components broke proofs of C107, C108 and C112 without clearly making those statements false).
* C71 (`SpecGraphene.v`): the absorption of graphene against the Kubo formula written with Fermi-Dirac occupations; exact up to the
  clipping of one exponent, which is bounded by exp(-709).

## 4. Findings (properties that are false of the code; each has a `_refuted` theorem with a witness)

Solver
* Absorbing substrates (NumPy, JAX): `kz_bot` takes the conjugated principal root in a way that gives growing transmitted waves;
  reflection above one and negative transmission (C43, C44, C45), disagreement with torch (C46).
* `theta` at or above float32(pi/2) is replaced by the float just below it (C22).
* Torch: amplitudes under `res_te_inc`/`res_tm_inc` use another sign and conjugation convention than `res` (C09); `phi = 0` selects the
  classical solver in torch and the conical one in NumPy (C34); the transmitted TM weight differs between torch 1D and conical.
* Discrete and continuous Fourier analysis disagree on the direction of y (C21).
* SMM with the conical solver returns an empty report instead of an error (C30); `construct_global_scatter` raises for three or more
  matrices (C40); `homogeneous_1D` at exact grazing uses admittance i instead of 0 (C79_at_grazing).
* Returned fields satisfy Maxwell's equations with the z axis pointing up and time factor `e^{+i w t}` (C59), not with depth as z.

State
* `psi` given as a one-element list is stored before the exception (C23); `psi` is not range-checked (C24); rejected `fto`, `ucell`
  and `psi` change the object (C25); a 0-d array is accepted as thickness (C26); `calculate_field` reads the current `pol` (C29).
* JAX: `use_pinv` is lost by flattening; an object with `psi` outside the range cannot be rebuilt; a stored `theta = 0` is replaced
  (C42).  By inspection only: `conv_solve_field` calls a method that does not exist; the auxiliary data is a dict, which jit cannot
  hash; a ucell of another dtype is silently ignored.

Cells and materials
* A top or left edge coinciding with an earlier edge is moved but inserted before it: the grid is unsorted and a strip gets the wrong
  material (C39; the exact extent is C61).
* Rotated rectangles: split heights and widths use each other's counts, so any two different counts give a wrong outline (C85).
* Ellipses: the default split count raises; an exact tie of the neighbours of the highest sample (any unrotated ellipse with 4m+1 splits)
  gives only empty boxes (C84).
* Interpolation on unsorted tables, one of which is shipped (C35); `__real` is case-sensitive (C37).  By inspection: three shipped
  tables have negative k; a text table with one row raises.
* The eigen-decomposition backward pass is not the gradient of losses that depend on the length or phase of the eigenvectors
  (C41_unit_columns_refuted); the pseudo-inverse backward pass is wrong at singular matrices (C77_singular_refuted).
* Torch `grad` never clears the buffers: call number r returns r times the gradient, and a call after `fit` adds the gradient of the
  step before (C94). JAX `grad` leaves tracers in the object when the forward function raises (C94), and returns the conjugate of the
  gradient, against which a step can raise the loss (C96; a comment in `QA/autodiff_raster1.py` notes the conjugation).
* The public fields of the PyTorch backend follow another convention than NumPy's and JAX's (C97): conjugated, y reversed, psi negated.
  In NumPy and PyTorch the TM fields of the classical mount are those of the conical and 2D mounts divided by n_top (C98).
JAX
* More thicknesses than layers: JAX clamps the layer index and repeats the last layer without a word (C103).
* `conv_solve_field` and `conv_solve_field_no_jit` call `self._conv_solve`, which does not exist (C104).
* NumPy's `conv_solve` accepts keyword arguments and ignores them, the other backends assign them (C105).
* `to_conv_mat_raster_discrete` of JAX ignores `use_pinv` (hypothesis `same_inverses` of C101).

* `_assign_grating_type` of PyTorch compares the components with `torch.allclose`; unequal components within the tolerance (10^-8 + 10^-5 |n|)
  are treated as isotropic and go to the conical solver, which uses one matrix for y and z (C109).
* C116: the 2D scattering-matrix code (unreachable from the solver) squares the x and y field components as if they were s and p
  amplitudes: a lossless interface at 45 degrees incidence and azimuth reports less than 1. The formula kept as a comment above is right.
  `homogeneous_module` replaces zeros on the diagonal of an invertible matrix by 1e-10, which ruins the admittance of every order that lies
  on an axis. The efficiencies of an order are weighted with the kz of the opposite order. The commented-out driver walks the layers
  from the last, which stacks the device upside down.
* C123: the JAX `ucell` setter has no final `else` inside its array branches (rcwa.py:97-113): an array of another dtype (bool, uint8,
  float16) is passed over in silence and the next solve reports the old pattern; over vector instructions it makes every later solve raise.

## 5. Trusted base

Coq's kernel; the axioms listed in section 6 (Stdlib only); the faithfulness of the definitions in `Model*.v` to the source lines they
cite; the idealisations of section 1.  No axiom, parameter or admitted proof of our own; no kernel check switched off; no functor,
module type or plugin of our own.

## 6. Assumptions printed for the property theorems

* D1 = `ClassicalDedekindReals.sig_forall_dec`
* D2 = `ClassicalDedekindReals.sig_not_dec`
* FE = `FunctionalExtensionality.functional_extensionality_dep`
* CE = `ClassicalEpsilon.constructive_indefinite_description`
* CL = `Classical_Prop.classic`

**closed, no axioms** (7 theorems): C123_torch, C19_pattern, C19_size, C68_found, C72_formula, C72_model, C72_table

**D1** (6 theorems): C26_period, C26_period_again, C26_thickness, C26_thickness_again, C26_thickness_given, C31_order

**D1, FE** (13 theorems): C03_unit_interval, C19_distinct, C26_fto, C26_fto_again, C26_fto_omitted, C39_painting_refuted, C39_sorted_refuted, C60_cells_cover, C60_general_position, C61_coinciding_edges, C71_accepts, C94_jax_grad, C95_jax_fit

**D1, D2, FE** (7 theorems): C120_perfect, C81_drawn, C81_rotated_rectangle, C82_area, C84_default_refuted, C84_unequal_refuted, C85_unequal_refuted

**D1, FE, CE, CL** (25 theorems): C27_one_solver, C34_dispatch_refuted, C40_associative, C40_builder, C40_builder_refuted, C40_identity, C41_curve, C41_first_order, C66_dispatch_agree, C66_dispatch_vector, C77_pinv, C78_determined, C78_reflection_side, C78_star, C78_transmission_side, C94_grad_after_fit, C94_grad_first, C94_grad_others, C94_grad_repeat, C94_jax_raise_refuted, C95_backends, C95_fit_twice, C95_torch_fit, C96_jax_descent, C96_torch_descent

**D1, D2, FE, CL** (3 theorems): C81_quarter_turns, C83_ellipse, C84_vanishes_refuted

**D1, D2, FE, CE, CL** (280 theorems): C01_energy_1d, C02_energy_2d, C02_energy_conical, C03_nonneg_1d, C03_nonneg_2d, C03_nonneg_conical, C04_boundary_value, C05_zero_thickness_1d, C05_zero_thickness_2d, C05_zero_thickness_conical, C06_split_1d, C06_split_2d, C06_split_conical, C07_array_1d, C07_array_2d, C07_array_conical, C07_continuous_1d, C07_continuous_2d, C07_continuous_conical, C08_pure_2d, C08_pure_conical, C08_superposition_2d, C08_superposition_conical, C09_superposition_refuted, C100_transmission_classical, C100_transmission_sp, C101_energy, C101_same_result, C102_construct, C102_history, C103_repeats_last_partial, C103_too_many_refuted, C104_jax_refuted, C104_numpy_partial, C105_jax_partial, C105_numpy_refuted, C106_numpy_result, C107_promoted, C108_convs_defined, C108_energy, C109_classical_is_2d, C109_dispatch_partial, C109_dispatch_refuted, C10_te_tm_independent_of_psi_2d, C10_te_tm_independent_of_psi_conical, C110_earlier_solves, C110_history, C110_keywords, C111_films_2d, C111_films_conical, C111_fresnel, C111_invariance, C112_jax, C112_passive, C113_continuous, C113_discrete, C113_vector, C113_well_1d, C113_well_2d, C113_well_conical, C114_jax, C114_strict_1d, C114_strict_2d, C114_strict_conical, C114_strict_object, C114_torch, C115_agreement, C115_halfspace, C115_modes, C115_numbering, C115_solver, C116_energy_refuted, C116_halfspace_refuted, C116_weights, C116_weights_refuted, C117_mirror_classical, C117_mirror_sp, C117_reflection_classical, C117_reflection_sp, C117_scale, C117_translation, C117_transmission_classical, C117_transmission_sp, C118_mirror_classical, C118_mirror_sp, C118_reflection, C118_translation, C118_transmission, C119_iff, C119_jax, C119_object, C119_pixels, C119_torch, C11_efficiencies, C11_matched, C120_coating, C120_coating_1d, C120_half_wave, C120_half_wave_1d, C120_mirror, C120_mirror_1d, C121_brewster, C121_brewster_1d, C121_total_reflection, C121_total_reflection_1d, C122_brewster, C122_coating, C122_films, C122_films_1d, C122_half_wave, C122_mirror, C122_total_reflection, C123_jax, C123_jax_refuted, C123_jax_vector, C123_numpy, C124_continuous, C124_discrete, C124_vector, C12_film_theory, C12_no_diffraction, C13_fresnel, C13_total_reflection, C14_continuous, C14_discrete, C14_in_range, C14_vector, C15_exact, C16_compression, C16_picture, C16_replication, C17_continuous, C17_discrete, C17_line_continuous, C17_line_discrete, C17_vector, C18_continuous, C18_discrete, C20_exact, C20_limit, C21_mirrored, C21_mirrored_exact, C21_orientation_refuted, C22_grating_equation, C22_real, C22_refuted, C23_coherent, C23_refuted, C24_in_range, C24_refuted, C25_refuted_fto, C25_refuted_fto_consequence, C25_refuted_psi, C25_refuted_ucell, C25_solve, C25_unchanged, C26_refuted, C27_dispatch, C28_field, C28_history, C29_refuted, C30_other_algorithms, C30_refuted, C31_extra_layers, C31_too_many_thicknesses, C32_pinv_1d, C32_pinv_2d, C32_pinv_conical, C33_torch_1d, C35_exact_refuted, C36_real_variant, C36_table_sign, C37_suffix_refuted, C38_cells, C38_raises, C41_jax, C41_loss_jax, C41_loss_torch, C41_torch, C41_unit_columns_refuted, C42_psi_refuted, C42_theta_refuted, C42_use_pinv_refuted, C43_absorbing_refuted, C43_substrate_layer, C44_absorbing_refuted, C45_absorbing_refuted, C45_normal_te_tm, C46_absorbing_refuted, C47_returns_1d, C47_returns_2d, C47_returns_conical, C48_continuous, C48_discrete, C48_vector, C49_energy, C50_nonneg, C50_unit_interval, C57_boundary_value_2d, C57_boundary_value_conical, C57_directions, C58_field_inputs, C59_maxwell_1d, C59_maxwell_2d, C59_maxwell_conical, C62_torch_2d, C62_torch_conical, C63_torch_energy_2d, C63_torch_energy_conical, C64_torch_superposition_2d, C64_torch_superposition_conical, C65_torch_passive, C65_torch_returns, C67_ends, C67_exact, C67_line, C67_warns, C68_case, C68_unknown, C69_defined, C69_equation, C69_falls, C70_cm, C70_ev, C71_absorption, C71_graphene, C73_list, C74_eigenbasis_1d, C74_eigenbasis_2d, C74_eigenbasis_conical, C75_conical_is_2d, C76_classical_is_2d, C76_classical_is_conical, C76_mixture_2d, C76_mixture_conical, C77_singular_refuted, C78_device, C78_gap_independent, C78_layer, C79_at_grazing, C79_smm_is_tmm, C80_flag_lost, C80_out_of_range, C80_round_trip, C86_passive_1d, C86_passive_2d, C86_passive_conical, C86_passive_object, C86_unit_interval, C87_balance_1d, C87_balance_2d, C87_balance_conical, C88_scale_field, C88_scale_outcome, C89_translation, C90_mirror_classical, C90_mirror_sp, C91_field_1d, C91_field_sp, C92_fallback_1d, C92_fallback_2d, C92_fallback_conical, C92_total_1d, C93_reciprocity_classical, C93_reciprocity_sp, C94_grad_refuted, C96_jax_grad_refuted, C96_jax_grad_slope, C96_jax_slope, C96_torch_slope, C97_mirror_1d, C97_mirror_2d, C97_mirror_conical, C98_maxwell_1d, C98_maxwell_2d, C98_maxwell_conical, C99_superposed_2d, C99_superposed_conical, C99_superposed_torch_2d, C99_superposed_torch_conical
