{
 "claims": [
  {
   "property": "C01",
   "status": "proved",
   "theorems": [
    "C01_energy_1d"
   ],
   "note": "1D TE/TM, any layers/orders, lossless convolution matrices, real-index cover, any n_bot; use_pinv=False (see C32)."
  },
  {
   "property": "C02",
   "status": "proved",
   "theorems": [
    "C02_energy_2d",
    "C02_energy_conical"
   ],
   "note": "Conical and 2D; conical additionally needs the z-matrix to be the inverse of the y-matrix (true of single-row cells)."
  },
  {
   "property": "C03",
   "status": "proved",
   "theorems": [
    "C03_nonneg_1d",
    "C03_nonneg_2d",
    "C03_nonneg_conical",
    "C03_unit_interval"
   ],
   "note": "Lossless half spaces; non-negative efficiencies, evanescent orders carry none, with C01/C02 each efficiency is in [0,1]."
  },
  {
   "property": "C04",
   "status": "proved",
   "theorems": [
    "C04_boundary_value"
   ],
   "note": "1D TE/TM, exact arithmetic; eigen-solver only assumed to return eigenpairs."
  },
  {
   "property": "C05",
   "status": "proved",
   "theorems": [
    "C05_zero_thickness_1d",
    "C05_zero_thickness_2d",
    "C05_zero_thickness_conical"
   ],
   "note": "A zero-thickness layer anywhere can be removed without changing the result."
  },
  {
   "property": "C06",
   "status": "proved",
   "theorems": [
    "C06_split_1d",
    "C06_split_2d",
    "C06_split_conical"
   ],
   "note": "Any layer can be split in two."
  },
  {
   "property": "C07",
   "status": "proved",
   "theorems": [
    "C07_continuous_1d",
    "C07_continuous_2d",
    "C07_continuous_conical",
    "C07_array_1d",
    "C07_array_2d",
    "C07_array_conical"
   ],
   "note": "One-sided limits and, in the returned arrays, last z sample of a layer = first of the next (tangential components). No assumption on the eigen-solver."
  },
  {
   "property": "C08",
   "status": "proved",
   "theorems": [
    "C08_superposition_2d",
    "C08_superposition_conical",
    "C08_pure_2d",
    "C08_pure_conical"
   ],
   "note": "res is the superposition of res_te_inc and res_tm_inc."
  },
  {
   "property": "C09",
   "status": "partial",
   "theorems": [
    "C09_superposition_refuted"
   ],
   "note": "FALSE of the code: refuted by C09_superposition_refuted (bare glass/air interface at normal incidence, p polarisation); the law that holds is C64"
  },
  {
   "property": "C10",
   "status": "proved",
   "theorems": [
    "C10_te_tm_independent_of_psi_2d",
    "C10_te_tm_independent_of_psi_conical"
   ],
   "note": ""
  },
  {
   "property": "C11",
   "status": "proved",
   "theorems": [
    "C11_matched",
    "C11_efficiencies"
   ],
   "note": "1D solver; amplitudes (with phase) and efficiencies."
  },
  {
   "property": "C12",
   "status": "proved",
   "theorems": [
    "C12_no_diffraction",
    "C12_film_theory"
   ],
   "note": "1D solver; C12_film_theory identifies the zeroth order with the characteristic-matrix theory."
  },
  {
   "property": "C13",
   "status": "proved",
   "theorems": [
    "C13_fresnel",
    "C13_total_reflection"
   ],
   "note": "Lossless half spaces, any list of zero-thickness layers.  Absorbing substrates are the subject of C44/C45 (false of the code)."
  },
  {
   "property": "C14",
   "status": "proved",
   "theorems": [
    "C14_continuous",
    "C14_vector",
    "C14_discrete",
    "C14_in_range"
   ],
   "note": "All three matrices (epx, epy, epz) against the factorisation rules on the pictured permittivity."
  },
  {
   "property": "C15",
   "status": "proved",
   "theorems": [
    "C15_exact"
   ],
   "note": ""
  },
  {
   "property": "C16",
   "status": "proved",
   "theorems": [
    "C16_picture",
    "C16_compression",
    "C16_replication"
   ],
   "note": ""
  },
  {
   "property": "C17",
   "status": "proved",
   "theorems": [
    "C17_continuous",
    "C17_vector",
    "C17_discrete",
    "C17_line_continuous",
    "C17_line_discrete"
   ],
   "note": "use_pinv = False; C32 covers use_pinv = True on invertible matrices."
  },
  {
   "property": "C18",
   "status": "proved",
   "theorems": [
    "C18_continuous",
    "C18_discrete"
   ],
   "note": "index nonzero"
  },
  {
   "property": "C19",
   "status": "proved",
   "theorems": [
    "C19_size",
    "C19_pattern",
    "C19_distinct"
   ],
   "note": ""
  },
  {
   "property": "C20",
   "status": "proved",
   "theorems": [
    "C20_exact",
    "C20_limit"
   ],
   "note": "Exact ratio x cot x + i x with x = pi m / N, and the limit."
  },
  {
   "property": "C21",
   "status": "partial",
   "theorems": [
    "C21_orientation_refuted",
    "C21_mirrored",
    "C21_mirrored_exact"
   ],
   "note": "FALSE of the code: refuted by C21_orientation_refuted (two rows of index 2 and 1). Proved part: the discrete matrices are those of the layer upside down."
  },
  {
   "property": "C22",
   "status": "partial",
   "theorems": [
    "C22_refuted",
    "C22_grating_equation",
    "C22_real"
   ],
   "note": "FALSE of the code: refuted by C22_refuted (Re theta >= float32(pi/2) is clamped); proved part: below float32(pi/2) (C56)"
  },
  {
   "property": "C23",
   "status": "partial",
   "theorems": [
    "C23_refuted",
    "C23_coherent"
   ],
   "note": "FALSE of the code: refuted by C23_refuted (psi as a one-element list); proved part: all other histories (C51)"
  },
  {
   "property": "C24",
   "status": "partial",
   "theorems": [
    "C24_refuted",
    "C24_in_range"
   ],
   "note": "FALSE of the code: refuted by C24_refuted (psi is not range-checked); proved part: psi kept in [0, pi/2] (C52)"
  },
  {
   "property": "C25",
   "status": "partial",
   "theorems": [
    "C25_refuted_fto",
    "C25_refuted_fto_consequence",
    "C25_refuted_ucell",
    "C25_refuted_psi",
    "C25_unchanged",
    "C25_solve"
   ],
   "note": "FALSE of the code: refuted by C25_refuted_*; proved part: all other rejections are clean (C53)"
  },
  {
   "property": "C26",
   "status": "partial",
   "theorems": [
    "C26_refuted",
    "C26_fto",
    "C26_fto_omitted",
    "C26_period",
    "C26_thickness",
    "C26_fto_again",
    "C26_period_again",
    "C26_thickness_again",
    "C26_thickness_given"
   ],
   "note": "FALSE of the code: refuted by C26_refuted (0-d array accepted as thickness but not stored as a sequence); the rest is proved (C54)"
  },
  {
   "property": "C27",
   "status": "proved",
   "theorems": [
    "C27_dispatch",
    "C27_one_solver"
   ],
   "note": ""
  },
  {
   "property": "C28",
   "status": "proved",
   "theorems": [
    "C28_history",
    "C28_field"
   ],
   "note": "visible attributes include modeling_type_assigned"
  },
  {
   "property": "C29",
   "status": "partial",
   "theorems": [
    "C29_refuted",
    "C58_field_inputs"
   ],
   "note": "FALSE of the code: refuted by C29_refuted (assigning pol after a TE solve flips the sign of Hx in the field of the solved structure); proved part: C58_field_inputs (invariant under all other changes)."
  },
  {
   "property": "C30",
   "status": "partial",
   "theorems": [
    "C30_refuted",
    "C30_other_algorithms"
   ],
   "note": "FALSE of the code: refuted by C30_refuted (SMM with the conical solver returns an empty report); proved part: C55"
  },
  {
   "property": "C31",
   "status": "proved",
   "theorems": [
    "C31_too_many_thicknesses",
    "C31_extra_layers",
    "C31_order"
   ],
   "note": ""
  },
  {
   "property": "C32",
   "status": "proved",
   "theorems": [
    "C32_pinv_1d",
    "C32_pinv_2d",
    "C32_pinv_conical"
   ],
   "note": ""
  },
  {
   "property": "C33",
   "status": "proved",
   "theorems": [
    "C33_torch_1d"
   ],
   "note": "real n_bot; both backends with the same oracles"
  },
  {
   "property": "C34",
   "status": "partial",
   "theorems": [
    "C34_dispatch_refuted",
    "C66_dispatch_agree",
    "C66_dispatch_vector"
   ],
   "note": "FALSE of the code: refuted by C34_dispatch_refuted (phi = 0); everything else agrees (C66)"
  },
  {
   "property": "C35",
   "status": "partial",
   "theorems": [
    "C35_exact_refuted",
    "C67_line",
    "C67_exact",
    "C67_ends",
    "C67_warns"
   ],
   "note": "FALSE of the code for tables that are not sorted, and a shipped table (Al2O3_querry-o.txt) is not: refuted by C35_exact_refuted on four of its consecutive rows; proved part: C67 for sorted tables, warnings for all tables."
  },
  {
   "property": "C36",
   "status": "proved",
   "theorems": [
    "C36_table_sign",
    "C36_real_variant",
    "C69_equation",
    "C70_ev",
    "C70_cm",
    "C71_graphene"
   ],
   "note": "Tables sorted or not; Sellmeier fits are real; Brendel-Bormann fits under the integral representation of wofz (an assumption on scipy, shown satisfiable) with non-negative strengths; graphene unconditionally. Three shipped tables contain negative k, to which the hypothesis does not apply."
  },
  {
   "property": "C37",
   "status": "partial",
   "theorems": [
    "C37_suffix_refuted",
    "C68_case",
    "C68_found",
    "C68_unknown"
   ],
   "note": "FALSE of the code for the suffix: \"Glass__REAL\" raises while \"Glass__real\" is found (C37_suffix_refuted); two files whose names differ in case only are not told apart, the later one wins (C68_found); proved part: C68."
  },
  {
   "property": "C38",
   "status": "proved",
   "theorems": [
    "C38_cells",
    "C38_raises"
   ],
   "note": "The cell as the list of its labels; failures exactly when some listed material, used or not, cannot be resolved."
  },
  {
   "property": "C39",
   "status": "partial",
   "theorems": [
    "C39_sorted_refuted",
    "C39_painting_refuted",
    "C60_general_position",
    "C60_cells_cover",
    "C61_coinciding_edges"
   ],
   "note": "FALSE of the code as stated: refuted by C39_sorted_refuted and C39_painting_refuted (a rectangle whose top edge coincides with an earlier edge is moved down by 1e-14 but inserted before it, so the grid list is not sorted and a strip of that width has the wrong index). Proved part: exact painting in general position (C60) and painting up to the nudge with coinciding edges (C61)."
  },
  {
   "property": "C40",
   "status": "partial",
   "theorems": [
    "C40_identity",
    "C40_associative",
    "C40_builder",
    "C40_builder_refuted"
   ],
   "note": "FALSE of the code in its last part: refuted by C40_builder_refuted (construct_global_scatter raises AssertionError for every list of three or more matrices, C40_builder, because it feeds the pair RedhefferStar returns back into it). Identity and associativity, including agreement of the domains, are proved."
  },
  {
   "property": "C41",
   "status": "proved",
   "theorems": [
    "C41_first_order",
    "C41_curve",
    "C41_torch",
    "C41_jax",
    "C41_loss_torch",
    "C41_loss_jax",
    "C41_unit_columns_refuted"
   ],
   "note": "Eigenvectors are defined up to scaling: exact for the change with fixed scale and for losses that do not depend on the scaling; C41_unit_columns_refuted: not the gradient of losses depending on the length/phase of the normalised eigenvectors. The regularisation term is stated exactly."
  },
  {
   "property": "C42",
   "status": "partial",
   "theorems": [
    "C42_use_pinv_refuted",
    "C42_psi_refuted",
    "C42_theta_refuted",
    "C80_flag_lost"
   ],
   "note": "FALSE of the code: refuted by C42_use_pinv_refuted (the flag is missing from the auxiliary data), C42_psi_refuted (psi is not range-checked when assigned, but pol is when rebuilding) and C42_theta_refuted; proved part: C80"
  },
  {
   "property": "C43",
   "status": "partial",
   "theorems": [
    "C43_substrate_layer",
    "C43_absorbing_refuted"
   ],
   "note": "FALSE of the code for absorbing substrates: C43_absorbing_refuted.  Proved part: every real n_bot (C43_substrate_layer)."
  },
  {
   "property": "C44",
   "status": "partial",
   "theorems": [
    "C44_absorbing_refuted"
   ],
   "note": "FALSE of the code: refuted for every n - ik with n >= 1 and 3 k^2 > n^2 (negative transmission, reflection above one)."
  },
  {
   "property": "C45",
   "status": "partial",
   "theorems": [
    "C45_normal_te_tm",
    "C45_absorbing_refuted"
   ],
   "note": "FALSE of the code for absorbing substrates: C45_absorbing_refuted.  Proved part: every real n_bot, absorbing films allowed (C45_normal_te_tm)."
  },
  {
   "property": "C46",
   "status": "partial",
   "theorems": [
    "C46_absorbing_refuted"
   ],
   "note": "FALSE of the code: refuted by C46_absorbing_refuted for every substrate with n^2 < 3k^2, n >= 1"
  },
  {
   "property": "C47",
   "status": "proved",
   "theorems": [
    "C47_returns_1d",
    "C47_returns_2d",
    "C47_returns_conical"
   ],
   "note": ""
  },
  {
   "property": "C48",
   "status": "proved",
   "theorems": [
    "C48_continuous",
    "C48_vector",
    "C48_discrete"
   ],
   "note": ""
  },
  {
   "property": "C49",
   "status": "proved",
   "theorems": [
    "C49_energy"
   ],
   "note": ""
  },
  {
   "property": "C50",
   "status": "proved",
   "theorems": [
    "C50_nonneg",
    "C50_unit_interval"
   ],
   "note": ""
  },
  {
   "property": "C51",
   "status": "proved",
   "theorems": [
    "C23_coherent"
   ],
   "note": ""
  },
  {
   "property": "C52",
   "status": "proved",
   "theorems": [
    "C24_in_range"
   ],
   "note": ""
  },
  {
   "property": "C53",
   "status": "proved",
   "theorems": [
    "C25_unchanged",
    "C25_solve"
   ],
   "note": ""
  },
  {
   "property": "C54",
   "status": "proved",
   "theorems": [
    "C26_fto",
    "C26_fto_omitted",
    "C26_period",
    "C26_thickness",
    "C26_fto_again",
    "C26_period_again",
    "C26_thickness_again"
   ],
   "note": ""
  },
  {
   "property": "C55",
   "status": "proved",
   "theorems": [
    "C30_other_algorithms"
   ],
   "note": ""
  },
  {
   "property": "C56",
   "status": "proved",
   "theorems": [
    "C22_grating_equation",
    "C22_real"
   ],
   "note": ""
  },
  {
   "property": "C57",
   "status": "proved",
   "theorems": [
    "C57_boundary_value_2d",
    "C57_boundary_value_conical",
    "C57_directions"
   ],
   "note": "Conical solver for layers whose z-matrix inverts the y-matrix (always so for one-row cells, see C48)."
  },
  {
   "property": "C58",
   "status": "proved",
   "theorems": [
    "C58_field_inputs"
   ],
   "note": ""
  },
  {
   "property": "C59",
   "status": "proved",
   "theorems": [
    "C59_maxwell_1d",
    "C59_maxwell_2d",
    "C59_maxwell_conical"
   ],
   "note": "conical: for layers whose convolution matrices come from one-row cells (line_convs, as in C57)"
  },
  {
   "property": "C60",
   "status": "proved",
   "theorems": [
    "C60_general_position",
    "C60_cells_cover"
   ],
   "note": "Model of vector_per_layer_numeric; real coordinates, exact arithmetic."
  },
  {
   "property": "C61",
   "status": "proved",
   "theorems": [
    "C61_coinciding_edges",
    "C60_cells_cover"
   ],
   "note": "Holds for lists with shared edges; 'clearly apart' means more than twice the nudge."
  },
  {
   "property": "C62",
   "status": "proved",
   "theorems": [
    "C62_torch_2d",
    "C62_torch_conical"
   ],
   "note": ""
  },
  {
   "property": "C63",
   "status": "proved",
   "theorems": [
    "C63_torch_energy_2d",
    "C63_torch_energy_conical"
   ],
   "note": ""
  },
  {
   "property": "C64",
   "status": "proved",
   "theorems": [
    "C64_torch_superposition_2d",
    "C64_torch_superposition_conical"
   ],
   "note": ""
  },
  {
   "property": "C65",
   "status": "proved",
   "theorems": [
    "C65_torch_passive",
    "C65_torch_returns"
   ],
   "note": ""
  },
  {
   "property": "C66",
   "status": "proved",
   "theorems": [
    "C66_dispatch_agree",
    "C66_dispatch_vector"
   ],
   "note": ""
  },
  {
   "property": "C67",
   "status": "proved",
   "theorems": [
    "C67_line",
    "C67_exact",
    "C67_ends",
    "C67_warns"
   ],
   "note": "np.interp as documented, over exact reals."
  },
  {
   "property": "C68",
   "status": "proved",
   "theorems": [
    "C68_case",
    "C68_found",
    "C68_unknown"
   ],
   "note": "Character-wise upper-casing (ASCII letters)."
  },
  {
   "property": "C69",
   "status": "proved",
   "theorems": [
    "C69_equation",
    "C69_falls",
    "C69_defined"
   ],
   "note": "nan (root of a negative number) and division by zero are failures in the model."
  },
  {
   "property": "C70",
   "status": "proved",
   "theorems": [
    "C70_ev",
    "C70_cm"
   ],
   "note": "wofz is a parameter with the hypothesis [faddeeva]; C70_faddeeva_ex shows such a function exists."
  },
  {
   "property": "C71",
   "status": "proved",
   "theorems": [
    "C71_graphene",
    "C71_accepts",
    "C71_absorption"
   ],
   "note": "The quadrature is an arbitrary function."
  },
  {
   "property": "C72",
   "status": "proved",
   "theorems": [
    "C72_table",
    "C72_formula",
    "C72_model"
   ],
   "note": "float and int are parameters; model names without blanks."
  },
  {
   "property": "C73",
   "status": "proved",
   "theorems": [
    "C73_list"
   ],
   "note": ""
  },
  {
   "property": "C74",
   "status": "proved",
   "theorems": [
    "C74_eigenbasis_1d",
    "C74_eigenbasis_2d",
    "C74_eigenbasis_conical"
   ],
   "note": "use_pinv = False; layer thicknesses >= 0; both runs complete (invertible intermediate matrices)."
  },
  {
   "property": "C75",
   "status": "proved",
   "theorems": [
    "C75_conical_is_2d"
   ],
   "note": "use_pinv = False; layer thicknesses >= 0; both runs complete."
  },
  {
   "property": "C76",
   "status": "proved",
   "theorems": [
    "C76_classical_is_conical",
    "C76_classical_is_2d",
    "C76_mixture_conical",
    "C76_mixture_2d"
   ],
   "note": "Same convolution matrices given to both solvers; thicknesses >= 0; physical incidence."
  },
  {
   "property": "C77",
   "status": "proved",
   "theorems": [
    "C77_pinv",
    "C77_singular_refuted"
   ],
   "note": "Differentiability of the inverse is proved, not assumed. C77_singular_refuted: the formula is wrong at singular matrices, which is when the fallback is used."
  },
  {
   "property": "C78",
   "status": "proved",
   "theorems": [
    "C78_star",
    "C78_determined",
    "C78_layer",
    "C78_reflection_side",
    "C78_transmission_side",
    "C78_device",
    "C78_gap_independent"
   ],
   "note": "Gap medium with W = identity, as homogeneous_1D returns."
  },
  {
   "property": "C79",
   "status": "proved",
   "theorems": [
    "C79_smm_is_tmm",
    "C79_at_grazing"
   ],
   "note": "Grazing orders excluded: C79_at_grazing shows homogeneous_1D then uses admittance i instead of 0."
  },
  {
   "property": "C80",
   "status": "proved",
   "theorems": [
    "C80_round_trip",
    "C80_out_of_range",
    "C80_flag_lost"
   ],
   "note": "setters shared with the NumPy object are those of ModelState.v; device check, tracers and jnp/np conversion differences not modelled"
  },
  {
   "property": "C81",
   "status": "proved",
   "theorems": [
    "C81_rotated_rectangle",
    "C81_quarter_turns",
    "C81_drawn"
   ],
   "note": ""
  },
  {
   "property": "C82",
   "status": "proved",
   "theorems": [
    "C82_area"
   ],
   "note": ""
  },
  {
   "property": "C83",
   "status": "proved",
   "theorems": [
    "C83_ellipse"
   ],
   "note": "Exact arithmetic; in floating point a tie of the two neighbours of the highest sample may be broken by rounding."
  },
  {
   "property": "C84",
   "status": "partial",
   "theorems": [
    "C84_vanishes_refuted",
    "C84_default_refuted",
    "C84_unequal_refuted"
   ],
   "note": "FALSE of the code: refuted by C84_vanishes_refuted (unrotated, 4m+1 splits: all boxes empty), C84_default_refuted (default n_split = 2 raises IndexError) and C84_unequal_refuted (different counts raise in vstack).  What holds is C83."
  },
  {
   "property": "C85",
   "status": "partial",
   "theorems": [
    "C85_unequal_refuted"
   ],
   "note": "FALSE of the code: refuted by C85_unequal_refuted for every pair of different counts, every rectangle and every oblique angle (the code divides heights by n_split_parallelogram and widths by n_split_triangle in all three regions).  What holds is C81."
  },
  {
   "property": "C86",
   "status": "proved",
   "theorems": [
    "C86_passive_1d",
    "C86_passive_2d",
    "C86_passive_conical",
    "C86_passive_object",
    "C86_unit_interval"
   ],
   "note": "The object-level theorem covers raster cells (both Fourier types) and vector cells in general position; use_pinv off."
  },
  {
   "property": "C87",
   "status": "proved",
   "theorems": [
    "C87_balance_1d",
    "C87_balance_2d",
    "C87_balance_conical"
   ],
   "note": "The identity holds for every conv-matrix triple, with or without gain; the conical one for line gratings (z-matrix inverse of the y-matrix)."
  },
  {
   "property": "C88",
   "status": "proved",
   "theorems": [
    "C88_scale_outcome",
    "C88_scale_field"
   ],
   "note": "Raster cells. Vector cells are left out: the perturbation of coinciding edges adds an absolute length."
  },
  {
   "property": "C89",
   "status": "proved",
   "theorems": [
    "C89_translation"
   ],
   "note": "Enhanced and plain transforms; objects with use_pinv = False."
  },
  {
   "property": "C90",
   "status": "proved",
   "theorems": [
    "C90_mirror_sp",
    "C90_mirror_classical"
   ],
   "note": "Classical mount: theta negated. Conical and 2D mounts: phi and psi mirrored, any value of the attribute pol."
  },
  {
   "property": "C91",
   "status": "proved",
   "theorems": [
    "C91_field_1d",
    "C91_field_sp"
   ],
   "note": "Objects with use_pinv = False."
  },
  {
   "property": "C92",
   "status": "proved",
   "theorems": [
    "C92_fallback_1d",
    "C92_fallback_conical",
    "C92_fallback_2d",
    "C92_total_1d"
   ],
   "note": "Exact arithmetic: the branch of the inversion is taken exactly at singular matrices."
  },
  {
   "property": "C93",
   "status": "proved",
   "theorems": [
    "C93_reciprocity_classical",
    "C93_reciprocity_sp"
   ],
   "note": "Objects with use_pinv = False."
  },
  {
   "property": "C94",
   "status": "partial",
   "theorems": [
    "C94_grad_first",
    "C94_grad_repeat",
    "C94_grad_after_fit",
    "C94_grad_refuted",
    "C94_jax_grad",
    "C94_jax_raise_refuted",
    "C94_grad_others"
   ],
   "note": "FALSE of the code: PyTorch grad never clears the buffers, refuted by C94_grad_refuted (call number r returns r times the gradient, C94_grad_repeat; after fit the stale gradient is added, C94_grad_after_fit); JAX grad leaves tracers when forward raises (C94_jax_raise_refuted); proved part: the first torch call (C94_grad_first) and every JAX call that does not raise (C94_jax_grad). Every attribute that requires a gradient is assumed to take part in the loss."
  },
  {
   "property": "C95",
   "status": "proved",
   "theorems": [
    "C95_torch_fit",
    "C95_jax_fit",
    "C95_backends",
    "C95_fit_twice"
   ],
   "note": "Automatic differentiation and the user's optimiser are oracles. JAX: no call raises and the setters accept the fitted values."
  },
  {
   "property": "C96",
   "status": "partial",
   "theorems": [
    "C96_torch_descent",
    "C96_jax_descent",
    "C96_torch_slope",
    "C96_jax_slope",
    "C96_jax_grad_slope",
    "C96_jax_grad_refuted"
   ],
   "note": "FALSE of the code for the array returned by JAX grad, which is the conjugate of the gradient: refuted by C96_jax_grad_refuted; proved part: fit in both backends, torch grad, and the exact slope for JAX grad."
  },
  {
   "property": "C97",
   "status": "proved",
   "theorems": [
    "C97_mirror_1d",
    "C97_mirror_2d",
    "C97_mirror_conical"
   ],
   "note": "2D: no mode constant in z (PyTorch shifts such eigenvalues)."
  },
  {
   "property": "C98",
   "status": "proved",
   "theorems": [
    "C98_maxwell_1d",
    "C98_maxwell_2d",
    "C98_maxwell_conical"
   ],
   "note": "For the two auxiliary incidences the reported p amplitudes are to be negated and the transmitted ones conjugated; TM fields of the classical mount are those of the s/p mounts divided by n_top."
  },
  {
   "property": "C99",
   "status": "proved",
   "theorems": [
    "C99_superposed_2d",
    "C99_superposed_conical",
    "C99_superposed_torch_2d",
    "C99_superposed_torch_conical"
   ],
   "note": ""
  },
  {
   "property": "C100",
   "status": "proved",
   "theorems": [
    "C100_transmission_classical",
    "C100_transmission_sp"
   ],
   "note": "Transfer-matrix algorithm with use_pinv off; substrate index real so that the outgoing angle of Snell's law exists."
  },
  {
   "property": "C101",
   "status": "proved",
   "theorems": [
    "C101_same_result",
    "C101_energy"
   ],
   "note": "Condition same_inverses: to_conv_mat_raster_discrete of JAX ignores use_pinv (convolution_matrix.py:131), so with use_pinv on and the discrete transform the squared indices must lie in a half plane."
  },
  {
   "property": "C102",
   "status": "proved",
   "theorems": [
    "C102_construct",
    "C102_history"
   ],
   "note": "Histories in which a solve meets same_inverses (C101)."
  },
  {
   "property": "C103",
   "status": "partial",
   "theorems": [
    "C103_too_many_refuted",
    "C103_repeats_last_partial"
   ],
   "note": "FALSE of the code: refuted by C103_too_many_refuted (two thicknesses, one layer: NumPy raises, JAX returns). Proved part: what is returned is the result of the cell whose last layer is repeated."
  },
  {
   "property": "C104",
   "status": "partial",
   "theorems": [
    "C104_numpy_partial",
    "C104_jax_refuted"
   ],
   "note": "FALSE of the code: refuted for JAX by C104_jax_refuted (both methods call self._conv_solve, which no class defines). Proved part: NumPy, transfer-matrix algorithm: the field call cannot fail after a successful solve."
  },
  {
   "property": "C105",
   "status": "partial",
   "theorems": [
    "C105_numpy_refuted",
    "C105_jax_partial"
   ],
   "note": "FALSE of the code: refuted by C105_numpy_refuted (NumPy accepts keyword arguments and ignores them). Proved part: JAX assigns them in order, then solves."
  },
  {
   "property": "C106",
   "status": "proved",
   "theorems": [
    "C106_numpy_result"
   ],
   "note": "phi = 0 is excluded: PyTorch sends it to the 1D solver, NumPy to the conical one (C34). Modes constant in z are excluded in 2D (C62). The substrate is real: for absorbing substrates the 1D results differ (C65)."
  },
  {
   "property": "C107",
   "status": "proved",
   "theorems": [
    "C107_promoted"
   ],
   "note": "The flag is_aniso of vector cells is left as it was by the code; it is not part of the statement."
  },
  {
   "property": "C108",
   "status": "proved",
   "theorems": [
    "C108_energy",
    "C108_convs_defined"
   ],
   "note": "Hypothesis: NumPy's solver returns on the matrices of the object (plain_run), i.e. the boundary systems are regular."
  },
  {
   "property": "C109",
   "status": "partial",
   "theorems": [
    "C109_classical_is_2d",
    "C109_dispatch_partial",
    "C109_dispatch_refuted"
   ],
   "note": "FALSE of the code: refuted by C109_dispatch_refuted (components 2, 2 + 10^-6, 2 pass torch.allclose and go to the conical solver). Proved part: components that differ by more than the tolerance never do; classical mount and 2D solver agree."
  },
  {
   "property": "C110",
   "status": "proved",
   "theorems": [
    "C110_history",
    "C110_earlier_solves",
    "C110_keywords"
   ],
   "note": "Keyword lists in which every assignment succeeds; otherwise the call raises at the first failing assignment."
  },
  {
   "property": "C111",
   "status": "proved",
   "theorems": [
    "C111_films_2d",
    "C111_films_conical",
    "C111_fresnel",
    "C111_invariance"
   ],
   "note": "For runs that return; the Example shows both solvers return on any stack of permittivity-4 films with the wave across the grating. The TM amplitudes of these solvers are those of the theory times i n_top."
  },
  {
   "property": "C112",
   "status": "proved",
   "theorems": [
    "C112_passive",
    "C112_jax"
   ],
   "note": "PyTorch: for runs whose NumPy-style solve with PyTorch's own convolution matrices returns and meets no flat mode (plain_run, no_flat_memo as in C106-C108); line gratings need squared indices in a half plane; vector objects in general position. JAX: whenever NumPy does not raise. The Example exhibits a Moore-Penrose inverse and absorbing anisotropic films."
  },
  {
   "property": "C113",
   "status": "proved",
   "theorems": [
    "C113_discrete",
    "C113_continuous",
    "C113_vector",
    "C113_well_1d",
    "C113_well_2d",
    "C113_well_conical"
   ],
   "note": "Extends C47 (lossless stacks, which need all orders to propagate above). The 2D and conical solvers need no order exactly along the normal (there the code divides 0 by 0)."
  },
  {
   "property": "C114",
   "status": "proved",
   "theorems": [
    "C114_strict_1d",
    "C114_strict_2d",
    "C114_strict_conical",
    "C114_strict_object",
    "C114_jax",
    "C114_torch"
   ],
   "note": "Objects: the absorbing layer absorbs at every pixel (raster) or in its background and every shape (vector). JAX: whenever NumPy does not raise. PyTorch: isotropic cells, via C106. Strengthens C86/C112 (at most 1) to less than 1."
  },
  {
   "property": "C115",
   "status": "proved",
   "theorems": [
    "C115_modes",
    "C115_halfspace",
    "C115_agreement",
    "C115_solver",
    "C115_numbering"
   ],
   "note": "At the wave vectors the scattering-matrix code makes, for lossless outer media, wherever both methods return. The power is computed from all three field components (the formula the code keeps as a comment); what the code reports instead is C116."
  },
  {
   "property": "C116",
   "status": "partial",
   "theorems": [
    "C116_halfspace_refuted",
    "C116_energy_refuted",
    "C116_weights_refuted",
    "C115_halfspace",
    "C116_weights"
   ],
   "note": "FALSE of the code: refuted by C116_energy_refuted (x and y components are weighted as if they were s and p), C116_weights_refuted and C116_weights (kz of the opposite order), C116_halfspace_refuted (zeros on the diagonal of an invertible matrix are replaced by 1e-10 when an order lies on an axis); proved part: C115_halfspace (right off the axes) and C115_agreement (fields right)."
  },
  {
   "property": "C117",
   "status": "proved",
   "theorems": [
    "C117_scale",
    "C117_translation",
    "C117_mirror_sp",
    "C117_mirror_classical",
    "C117_reflection_classical",
    "C117_reflection_sp",
    "C117_transmission_classical",
    "C117_transmission_sp"
   ],
   "note": "For use_pinv False, where the NumPy solve of the same object does not raise (C101). The JAX run is the hypothesis: whatever it returns satisfies the relation."
  },
  {
   "property": "C118",
   "status": "proved",
   "theorems": [
    "C118_translation",
    "C118_mirror_sp",
    "C118_mirror_classical",
    "C118_reflection",
    "C118_transmission"
   ],
   "note": "Efficiencies only: PyTorch's amplitudes differ from NumPy's (C106). The twin is the same object in NumPy with the sign of psi changed. Azimuth None or non-zero (azimuth 0 raises on PyTorch)."
  },
  {
   "property": "C119",
   "status": "proved",
   "theorems": [
    "C119_pixels",
    "C119_object",
    "C119_jax",
    "C119_torch",
    "C119_iff"
   ],
   "note": "use_pinv False. JAX: where the NumPy solve of the same object does not raise. PyTorch: where the twin NumPy solve returns, azimuth None or non-zero. Not claimed for fourier_type 0 without enhanced_dfs, where the raw DFT of few pixels samples the field at single points only."
  },
  {
   "property": "C120",
   "status": "proved",
   "theorems": [
    "C120_half_wave",
    "C120_half_wave_1d",
    "C120_mirror",
    "C120_mirror_1d",
    "C120_perfect",
    "C120_coating",
    "C120_coating_1d"
   ],
   "note": "Wherever the solver returns (hypothesis; C47 and C113 say when). The 2D and conical solvers do not return at exactly normal incidence (ky/kx is 0/0), so there the angle is positive in practice."
  },
  {
   "property": "C121",
   "status": "proved",
   "theorems": [
    "C121_total_reflection",
    "C121_total_reflection_1d",
    "C121_brewster",
    "C121_brewster_1d"
   ],
   "note": "Wherever the solver returns (hypothesis; C47 and C113 say when). C13 has total reflection without films in the classical solver only."
  },
  {
   "property": "C122",
   "status": "proved",
   "theorems": [
    "C122_films",
    "C122_films_1d",
    "C122_half_wave",
    "C122_mirror",
    "C122_total_reflection",
    "C122_coating",
    "C122_brewster"
   ],
   "note": "Where both backends return (in 2D: with no mode whose decay constant is within 1e-10 of zero, which the PyTorch code replaces). The examples are from the conical and the classical solver."
  },
  {
   "property": "C123",
   "status": "partial",
   "theorems": [
    "C123_numpy",
    "C123_torch",
    "C123_jax",
    "C123_jax_refuted",
    "C123_jax_vector"
   ],
   "note": "FALSE of the code: refuted for JAX by C123_jax_refuted (an array of a dtype not listed is passed over in silence; the next solve reports the old pattern). Proved part: NumPy and PyTorch (C123_numpy, C123_torch), and what JAX does (C123_jax; after vector instructions every later solve raises, C123_jax_vector)."
  },
  {
   "property": "C124",
   "status": "proved",
   "theorems": [
    "C124_continuous",
    "C124_discrete",
    "C124_vector"
   ],
   "note": "Without use_pinv. The z matrix is the inverse where it is invertible; elsewhere the code takes the pseudo-inverse, about which nothing is claimed. Vector layers on a unit period, as in C14."
  }
 ]
}