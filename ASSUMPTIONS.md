# Print Assumptions, theorem by theorem

Written by tools/gen_assumptions.py from the compiled files. Every axiom
below belongs to the standard library.

## Closed under the global context (89 theorems)

C01, C02, C03_partial, C03_refuted, C04_partial, C04_refuted, C05_none, C05_partial, C05_refuted, C06, C06_no_pass, C07, C08, C08_run, C09, C09_return, C10, C10_calls, C13, C13_unsorted, C14_partial, C14_refuted, C15, C16, C16_forward, C17, C17_stepping, C18_inside_any, C18_keeps, C18_outside, C19_dims, C20_refuted, C21, C22, C22_padding, C23, C23_step, C24_refuted, C25_events_refuted, C25_partial, C25_refuted, C37_refuted, C38_numpy_refuted, C39_refuted, C45_refuted, C46, C47_never_returns, C47_refuted, C48_refuted, C49_refuted, C50_raises, C50_refuted, C51, C52, C52_copies, C52_equivalence, C53, C53_sound, C53_stays, C54_builder_refuted, C54_groups_partial, C54_len_partial, C54_name_partial, C54_refuted, C55, C55_all, C56_inverted, C56_refuted, C57, C58_dir_partial, C58_dir_refuted, C58_listing, C58_partial, C58_refuted, C63_refuted, C64_clip, C65, C70, C70_init, C77_same, C80_found, C80_partial, C80_refuted, C81_binary64, C82_never, C87_invalid, C87_refuted, C87_start, C87_valid

## `FunctionalExtensionality.functional_extensionality_dep` (2 theorems)

C26, C37_ignored

## `ClassicalDedekindReals.sig_forall_dec`, `FunctionalExtensionality.functional_extensionality_dep` (1 theorems)

C27_derivative

## `ClassicalDedekindReals.sig_forall_dec`, `ClassicalDedekindReals.sig_not_dec`, `FunctionalExtensionality.functional_extensionality_dep` (2 theorems)

C59_zero, C77_stable

## `ClassicalDedekindReals.sig_forall_dec`, `ClassicalDedekindReals.sig_not_dec`, `Classical_Prop.classic`, `FunctionalExtensionality.functional_extensionality_dep` (182 theorems)

C04_variable_partial, C06_no_pass_variable, C10_exact, C10_rounding, C11, C11_explicit, C11_run, C12_partial, C12_refuted, C16_forward_variable, C18_inside, C19, C19_cubic_exact, C20_partial, C20_two_rows, C22_sorted, C22_sorted_start, C24_dop_partial, C24_dop_recovers, C24_partial, C24_recovers, C27_defect, C27_documented, C27_formula, C27_partial, C27_refuted, C27_startup, C27_startup_exists, C28_defect, C28_partial, C28_refuted, C28_relation, C28_system, C29_relation, C29_scalar, C29_system, C30_ab, C30_am_partial, C30_bdf_refuted, C30_refuted, C30_rk, C30_stall, C31, C31_exp, C31_polynomials, C32, C32_dop853, C32_refuted, C33_ab, C33_ab_default, C33_ab_run, C33_default_positive, C33_refuted, C33_rk, C33_rk_run, C34, C35, C35_returns, C36, C36_converse, C36_trials, C38_raises, C38_refuted, C39_partial, C40, C41, C42, C43, C44, C45_last_listed, C46_variable, C48_same_step, C49_dop853, C49_two_rows, C49_variable, C59, C59_order, C60, C60_affine, C60_api, C60_arguments, C61, C61_affine, C62, C62_affine, C63_partial, C64_isclose, C66, C66_run, C67, C67_run, C68, C68_init, C69, C69_init, C71, C71_five, C71_five_run, C71_run, C72, C72_A_stable, C72_implicit, C72_stable, C72_step, C72_unstable, C73_drift, C73_partial, C73_refuted, C74, C74_linear, C74_quadrature, C74_roots, C74_stable, C74_step, C75_partial, C75_refuted, C76_partial, C76_refuted, C76_transposed, C77_conditions, C77_linear, C77_nodes, C77_partial, C77_refuted, C78, C78_consistent, C78_diagonally, C78_implicit, C78_others, C78_radau, C78_singly, C79, C79_affine, C79_equation, C79_floor, C79_history, C79_residual, C79_residual_affine, C79_run, C79_started, C79_started_affine, C81, C82_partial, C82_refuted, C83, C83_total, C84, C84_dop853, C84_five, C84_implicit, C84_variable, C85, C85_calls, C86, C86_ab, C86_default, C86_default_implicit, C86_five, C86_implicit, C86_variable, C87_partial, C88_first_step, C88_refuted, C89_partial, C89_refuted, C90, C91_refuted, C92, C92_events, C92_run, C92_solves, C93, C93_five, C93_variable, C94, C94_events, C94_five, C94_order, C94_solves, C94_solves_five, C95, C95_calls
