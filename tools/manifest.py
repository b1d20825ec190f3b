#!/usr/bin/env python3
"""Writes /verif/MANIFEST.json from the table below."""
import json, os
CLAIMS = [
 ("C01", "proved", ["C01_matrix_read_stable", "C01_vector_read_stable"], ""),
 ("C02", "proved", ["C02_matrix_first_read", "C02_vector_first_read", "C02_matrix_failed_read", "C02_vector_failed_read"], ""),
 ("C03", "proved", ["C03_C04_matrix_passive", "C03_C04_vector_passive", "C02_matrix_first_read", "C02_vector_first_read"], "Snapshot content at declaration time is in the C02 theorems through udecl/ldecl/rdecl/vdecl."),
 ("C04", "proved", ["C03_C04_matrix_passive", "C03_C04_vector_passive"], ""),
 ("C05", "proved", ["C05_diagonal_read", "C05_matrix_set_read", "C05_vector_set_read", "C05_identity_indexing"], "Object identity is an injective address map."),
 ("C06", "proved", ["C06_names_two_way", "C06_no_key_error", "C06_programs", "C06_programs_lookup"], ""),
 ("C07", "proved", ["C07_name_effect", "C07_name_of_home", "C07_programs_name_of", "C07_programs_name", "C07_programs_setter", "C07_programs_round_trip", "C07_programs_other_calls", "C09_programs_constructor"], ""),
 ("C08", "partial", ["C08_rejected_keeps_name_refuted", "C08_setter_atomic_refuted", "C08_rejected_always_forgets", "C08_rejected_partial", "C08_programs_constructor_rejected"], "False of the code: the old name is deleted before the uniqueness check, and the setter of a GP stops half-way. The counterexamples and the exact behaviour are proved."),
 ("C09", "partial", ["C09_contexts_nest_partial", "C09_with_restores", "C09_contexts_nest_refuted", "C09_reentry_through_other_refuted", "C09_programs_nest_partial", "C09_programs_constructor", "C09_programs_reentry_refuted"], "False of the code when a measure is entered again while it is already entered; proved for all other programs."),
 ("C14", "proved", ["C14_reads_are_pure", "C14_read_kernel", "C14_read_mean"], ""),
 ("C15", "proved", ["C15_extension_is_conservative", "C15_programs", "C15_programs_are_runs"], ""),
 ("C16", "proved", ["C16_available", "C16_terminates"], "Under the hypothesis that user-supplied rules do not raise and that conditioning is on processes of the measure (otherwise the code does raise)."),
 ("C17", "proved", ["C17_independent", "C17_independent_derived", "C17_all_independent"], "With existing processes: for all models. With processes built later: for all processes that are built without the new one. The _all theorems are for all operations in all orders, about numbers only: every process that is not built from those of add_gp or from products with a multi-output factor, and every covariance matrix of the right shape (variances always have it)."),
 ("C18", "proved", ["C18_derived_scope", "C18_consistent"], ""),
 ("C19", "partial", ["C19_home_refuted", "C19_home_partial"], "False of the code: the group of common measures is a Python set, so the home of a sum can be a posterior. Proved for unary operations and when there is one common measure."),
 ("C20", "proved", ["C20_mixing_rejected"], ""),
 ("C25", "partial", ["C25_right_rule_refuted", "C25_rules_partial"], "False of the code: add_gp drops right_rule. The left rule and its transpose are proved."),
 ("C27", "proved", ["C27_copy_law"], "The FDD part is the FDD of the new process by definition."),
 ("C36", "proved", ["C36_posterior_scope", "C36_later_processes", "C15_extension_is_conservative"], ""),
 ("C10", "partial", ["C10_covariance_partial", "C10_C11_plain_partial", "C10_C11_products_partial", "C10_C11_all_partial", "C10_exists_plain", "C10_exists_products", "C10_late_gp_refuted"], "False of the code for GPs (and products) that are constructed after a Cartesian product. Proved for models with Cartesian products after the independently constructed processes and products of processes whose factors have one value per point; processes of add_gp are covered if the given kernel, mean and left rule are (cross-)covariances and expectations of random functions; existence of the random variables is proved for those models without add_gp (with derivatives: for finite differences), and existence of the numbers when Cartesian products come last and noise is positive definite, without add_gp. C10_C11_all_partial is for all operations in all orders: a kernel whose matrix has the right shape is the covariance, and the kernel of a process at one input always has the right shape and is its variance (left out: processes built from those of add_gp, or from products with a multi-output factor)."),
 ("C11", "partial", ["C24_product_mean_refuted", "C11_expectation_partial", "C10_C11_plain_partial", "C10_C11_products_partial", "C10_C11_all_partial", "C10_exists_plain", "C10_exists_products"], "As C10; C10_C11_all_partial has no restriction on the order of operations. Products of processes have the wrong mean, see C24."),
 ("C12", "proved", ["C12_symmetric", "C12_symmetric_partial", "C12_symmetric_plain", "C12_symmetric_products"], "C12_symmetric is for all models and all operations, provided that the kernels and noise matrices that the user gives are symmetric and that derivatives commute. The other theorems drop the assumption about derivatives, for the models of C10."),
 ("C13", "proved", ["C13_psd", "C13_joint_psd", "C13_joint_psd_partial", "C13_joint_psd_plain", "C13_joint_psd_products"], "C13_psd and C13_joint_psd have no restriction on the operations and their order; noise is positive semi-definite, and the blocks can be put together (rows of equal height). Left out: processes built from those of add_gp, or from products with a multi-output factor. The other theorems are for the models of C10, where the blocks always fit."),
 ("C21", "proved", ["C21_covariance", "C21_mean", "C21_constant_covariance", "C21_constant_mean", "C21_all_covariance", "C21_all_mean", "C21_all_constant_covariance", "C21_all_constant_mean"], "Same mean and same covariance with everything, so that the difference has zero variance. Given random variables: for the models of C10. The _all theorems are for all operations in all orders, about numbers only: every process that is not built from those of add_gp or from products with a multi-output factor, and every covariance matrix of the right shape (variances always have it)."),
 ("C22", "proved", ["C22_shift", "C22_stretch", "C22_select", "C22_transform", "C22_all_shift", "C22_all_stretch", "C22_all_select", "C22_all_transform"], "Given random variables: for the models of C10. The _all theorems are for all operations in all orders, about numbers only: every process that is not built from those of add_gp or from products with a multi-output factor, and every covariance matrix of the right shape (variances always have it)."),
 ("C26", "proved", ["C26_mean", "C26_covariance", "C26_all_mean", "C26_all_covariance"], "Grid, coefficients and step of the library fdm are arguments. Given random variables: for the models of C10. The _all theorems are for all operations in all orders, about numbers only: every process that is not built from those of add_gp or from products with a multi-output factor, and every covariance matrix of the right shape (variances always have it)."),
 ("C28", "proved", ["C28_covariance", "C28_mean", "C28_all_covariance", "C28_all_mean"], "Given random variables: for the models of C10. The _all theorems are for all operations in all orders, about numbers only: every process that is not built from those of add_gp or from products with a multi-output factor, and every covariance matrix of the right shape (variances always have it)."),
 ("C29", "proved", ["C29_covariance", "C29_mean", "C29_all_covariance", "C29_all_mean"], "Given random variables: for the models of C10. The _all theorems are for all operations in all orders, about numbers only: every process that is not built from those of add_gp or from products with a multi-output factor, and every covariance matrix of the right shape (variances always have it)."),
 ("C30", "proved", ["C30_rows_covariance", "C30_rows_mean", "C30_pairs_covariance", "C30_pairs_mean", "C30_rows_logpdf", "C30_pairs_logpdf", "C30_all_rows_covariance", "C30_all_rows_mean", "C30_all_pairs_covariance", "C30_all_pairs_mean", "C30_all_rows_logpdf", "C30_all_pairs_logpdf"], "Given random variables, for the models of C10; the log-density for positive definite variances. The _all theorems are for all operations in all orders, about numbers only: every process that is not built from those of add_gp or from products with a multi-output factor, and every covariance matrix of the right shape (variances always have it)."),
 ("C31", "proved", ["C31_interpolation", "C31_all_interpolation"], "Given random variables: for the models of C10. The _all theorems are for all operations in all orders, about numbers only: every process that is not built from those of add_gp or from products with a multi-output factor, and every covariance matrix of the right shape (variances always have it)."),
 ("C32", "proved", ["C32_variance_reduction", "C32_all_variance_reduction"], "Given random variables: for the models of C10. The _all theorems are for all operations in all orders, about numbers only: every process that is not built from those of add_gp or from products with a multi-output factor, and every covariance matrix of the right shape (variances always have it)."),
 ("C33", "proved", ["C33_empty"], "For all models."),
 ("C35", "proved", ["C35_covariance", "C35_mean", "C35_all_covariance", "C35_all_mean"], "Given random variables: for the models of C10. The _all theorems are for all operations in all orders, about numbers only: every process that is not built from those of add_gp or from products with a multi-output factor, and every covariance matrix of the right shape (variances always have it)."),
 ("C48", "proved", ["C48_covariance", "C48_mean", "C48_all_covariance", "C48_all_mean"], "Given random variables: for the models of C10. The _all theorems are for all operations in all orders, about numbers only: every process that is not built from those of add_gp or from products with a multi-output factor, and every covariance matrix of the right shape (variances always have it)."),
 ("C52", "partial", ["C52_late_gp_refuted", "C52_shape_partial", "C52_shape_products_partial", "C52_own_shape_partial"], "False of the code: with the GP constructed after the Cartesian product the cross-covariance has one column per input. Proved with the GP constructed first."),
 ("C53", "proved", ["C53_combine", "C53_noise_and_values", "C53_all_combine"], "Given random variables: for the models of C10. The _all theorems are for all operations in all orders, about numbers only: every process that is not built from those of add_gp or from products with a multi-output factor, and every covariance matrix of the right shape (variances always have it)."),
 ("C23", "proved", ["C23_product_covariance", "C23_product_cross_covariance"], "Under the measures in which the product was formed; moments of jointly Gaussian variables up to order four are those of MulSpec.v."),
 ("C24", "partial", ["C24_product_mean_partial", "C24_product_mean_refuted"], "False of the code: the mean of the product misses the covariance of the factors. The exact difference is proved."),
 ("C39", "proved", ["C39_marginals", "C39_credible_bounds"], ""),
 ("C40", "proved", ["C40_logpdf"], "Through Cholesky factors, over any real closed field with a logarithm."),
 ("C41", "proved", ["C41_logpdf_missing"], ""),
 ("C43", "proved", ["C43_kl_nonneg", "C43_kl_zero", "C43_kl_closed_form", "C43_entropy"], ""),
 ("C44", "proved", ["C44_w2_nonneg", "C44_w2_symmetric", "C44_w2_identical", "C44_w2_equal_variances", "C44_w2_zero", "C44_w2_square"], "B.root is any function that takes square roots of positive semi-definite matrices; one exists for the real numbers (normals_exist)."),
 ("C45", "proved", ["C45_arithmetic"], ""),
 ("C46", "proved", ["C46_sample", "C46_global_state"], "The generator of standard normal numbers is an argument."),
 ("C37", "proved", ["C37_noise"], "The noise handling of finite-dimensional distributions, in every order of accesses."),
 ("C38", "partial", ["C38_accessors_partial", "C38_fdd", "C38_mean_is_zero_values", "C38_mean_is_zero_functions", "C38_mean_is_zero_fdd", "C38_scalar_mean_refuted"], "False of the code in representation only: mean_var gives a mean that is the number 0 as a number before the first access to mean and as a vector after. Proved up to the representation of a zero mean, and with equal answers for finite-dimensional distributions."),
 ("C54", "proved", ["C54_covariance", "C54_mean", "C54_elbo", "C54_graph_covariance", "C54_graph_shapes", "C54_graph_mean", "C54_graph_covariance_defined", "C54_graph_mean_defined", "C54_graph_elbo"], "On matrices, and for measures and processes of any program (graph theorems; existence of covariances is for inputs that are not tuples)."),
 ("C55", "proved", ["C55_covariance", "C55_mean", "C55_elbo", "C55_graph_covariance", "C55_graph_mean", "C55_graph_elbo"], "As C54."),
 ("C56", "proved", ["C56_lower_bound", "C56_graph_lower_bound"], "As C54. That joint covariance matrices are positive semi-definite is C13."),
 ("C57", "proved", ["C57_exact", "C57_exact_once", "C57_pseudo", "C57_pseudo_once"], "Histories with creation and collection of measures and reuse of their addresses. Measures that have the processes of the observations are held by these processes."),
 ("C58", "partial", ["C58_rejected_partial", "C58_first_call", "C58_K_z_again_refuted"], "False of the code: K_z is stored before the noise is checked, so that calling K_z again gives a matrix. All other calls raise, and the first call always does."),
 ("C42", "proved", ["C42_chain_rule", "C42_all_chain_rule"], "Given random variables, for the models of C10, with a positive definite joint variance. The _all theorems are for all operations in all orders, about numbers only: every process that is not built from those of add_gp or from products with a multi-output factor, and every covariance matrix of the right shape (variances always have it)."),
 ("C34", "partial", ["C34_covariance_partial", "C34_mean_partial", "C34_logpdf_partial", "C34_scaled_refuted", "C34_all_covariance_partial", "C34_all_mean_partial", "C34_all_logpdf_partial"], "False of the code for processes with more than one output that are not literally Cartesian products: masks of scaled or posterior products cannot be taken. Proved for all masks and nested inputs wherever the mask can be taken, for processes built from basic kernels without nested products. The _all theorems are for all operations in all orders, about numbers only: every process that is not built from those of add_gp or from products with a multi-output factor, and every covariance matrix of the right shape (variances always have it)."),
 ("C47", "partial", ["C47_blocks_partial", "C47_product_refuted", "C47_all_blocks_partial"], "False of the code: a process with more than one output at an array gets a block with as many rows as the array. Proved for all other finite-dimensional distributions. The _all theorems are for all operations in all orders, about numbers only: every process that is not built from those of add_gp or from products with a multi-output factor, and every covariance matrix of the right shape (variances always have it)."),
 ("C49", "partial", ["C49_size_partial", "C49_nested_refuted", "C49_all_size_partial"], "False of the code for Cartesian products of Cartesian products. Proved for all processes without nested products. The _all theorems are for all operations in all orders, about numbers only: every process that is not built from those of add_gp or from products with a multi-output factor, and every covariance matrix of the right shape (variances always have it)."),
 ("C50", "proved", ["C50_elwise", "C50_var_diag"], "For the models of C10 whose independently constructed processes have kernels without kernels of other measures in them, without add_gp."),
 ("C51", "partial", ["C51_process_partial", "C51_mean_partial", "C51_var_partial", "C51_cov_partial", "C51_noise", "C51_scaled_refuted", "C51_all_mean_partial", "C51_all_var_partial", "C51_all_cov_partial"], "As C34. The _all theorems are for all operations in all orders, about numbers only: every process that is not built from those of add_gp or from products with a multi-output factor, and every covariance matrix of the right shape (variances always have it)."),
 ("C59", "proved", ["C59_marginals", "C59_covariances", "C59_logpdf", "C59_closest"], ""),
 ("C60", "partial", ["C60_late_multiple_refuted", "C60_late_shift_refuted", "C60_product_plus_constant_refuted", "C60_evaluates_partial", "C60_positive_noise_partial", "C60_positive_noise_products_partial", "C60_after_pseudo_partial"], "False of the code: multiples by functions and shifts (stretches) that are made after a Cartesian product have cross-covariances with it that raise, and so has the sum of a Cartesian product and a constant a mean that raises. Proved when Cartesian products come last and the matrices of the data are invertible, which follows from positive definite noise; products of processes and pseudo-observations are covered, with FITC only directly after the approximation; processes of add_gp are not."),
 ("C61", "proved", ["C61_process_condition", "C61_process_condition_returns"], "That it returns is proved for runs in which user-supplied rules do not raise and conditioning is on processes of the measure."),
 ("C62", "partial", ["C62_sizes_partial", "C62_first_posterior_partial", "C62_conditioned_twice_refuted", "C62_product_data_refuted"], "False of the code: after conditioning twice on data of a scalar process, FDDs of Cartesian products cannot be constructed, and likewise FDDs of scalar processes after conditioning twice on data of a product, although their covariances exist. Proved for priors, for posteriors of processes with one output or with as many outputs as the data, and for first posteriors when Cartesian products are made after the independent processes and the multiples by functions. Processes of add_gp are excluded."),
 ("C63", "proved", ["C63_stationary", "C63_constant_variance", "C63_derived", "C63_sum", "C63_posterior"], "Assumes that the elementary kernels of the user that say they are stationary are. How mlkernels computes the attribute of combined kernels is part of the model."),
]
out = {"claims": [dict(property=p, status=s, theorems=t, note=n) for p, s, t, n in CLAIMS]}
path = os.path.join(os.path.dirname(os.path.abspath(__file__)), "..", "MANIFEST.json")
json.dump(out, open(path, "w"), indent=1)
print(len(CLAIMS), "claims")
