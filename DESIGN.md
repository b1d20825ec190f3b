# Design: a Rocq (Coq 8.16.1) model of wesselb/stheno

The subject is the Python package `/repo/stheno`.  It was read as text; nothing of it was run.  This
file says what is modelled and how (section 1-2), what is left out (section 3), what is trusted
(section 4) and, property by property, what is stated and proved (section 5).  `MANIFEST.json` maps
the properties of `properties.jsonl` to theorems; `seeded/LOG.jsonl` records tests of the theorems
against wrong programs.

## 1. Approach

* **Programs are Gallina functions.**  Every function of the modelled part of stheno is a definition
  whose comment cites its lines.  Python exceptions are error values; the state that an operation
  leaves behind when it raises is part of the model.
* **Objects are numbers** given out by an allocator (`pid` for processes, `mid` for measures), which
  is what `id(obj)` is used for in `lazy.py`.
* **Closures are data.**  The rules that `measure.py` stores are lambdas that read other entries of
  the lazy containers.  They are values of a small type of programs (`Machine.prog`: return, fail,
  read a kernel, read a mean), and the containers store such programs.  Reads are recursive,
  memoising and mutually dependent exactly as in the source.
* **Kernels and means are expressions** (`Graph.kexp`, `Graph.mexp`): one constructor per object or
  operation of mlkernels that stheno uses and one per kernel class of `stheno/mo`.  `evk` and `evm`
  evaluate them at nested inputs (arrays, FDDs, tuples).
* **Histories.**  Properties about models quantify over all sequences `ops` of operations of the API
  (`run_ops ops`), including operations that raise, from the empty state.
* **Specifications are separate.**  `RV.v` defines what a model means without mentioning kernels,
  means or rules: a process is a random function that satisfies its defining equation, a posterior
  is the linear predictor with its observed value put in.  The theorems say that the numbers of the
  model are the covariances and expectations of those random variables.
* **Numbers** are the elements of an arbitrary field, ordered field or real closed field, whichever
  is the weakest that the statement needs.  Logarithms are an argument that satisfies
  `NormalSpec.logarithm` (the functional equation and `ln x <= x - 1`); `Reals_field.v` shows that
  the real numbers of the standard library with their `ln` are an instance.

## 2. Files (`rocq/theories`)

| files | source | content |
|---|---|---|
| `Lazy.v`, `LazySpec.v`, `LazyProofs.v`, `P_Lazy.v` | `lazy.py` | C01-C05 |
| `Naming.v`, `NamingProofs.v`, `P_Naming.v` | `model/measure.py:43-45,62-91`, `model/gp.py:93-95,123-132` | C06-C08 |
| `Context.v`, `ContextSpec.v`, `ContextProofs.v`, `P_Context.v` | `model/measure.py:35,47-55`, `model/gp.py:70-79` | C09 |
| `Graph.v` | `mo/{adk,input,kernel,mean}.py`, `model/fdd.py:120-122`, meaning of mlkernels | inputs, expressions, evaluation |
| `Machine.v` | `model/measure.py`, `model/gp.py`, `model/observations.py:112-168` | measures, processes, all operations |
| `Refine.v`, `Worlds.v`, `Eval.v` | | reads refine a denotation of the log of a measure; invariants of all runs; evaluation is monotone in its bound |
| `GraphSpec.v`, `GraphProofs.v`, `GraphOps.v`, `GraphFacts.v`, `P_Graph.v` | | C14-C20, C25, C27, C36 |
| `RV.v`, `RVProofs.v`, `Sound.v`, `Typing.v`, `Formal.v`, `ModelSpec.v`, `ModelFacts.v`, `ModelThms.v`, `StepFacts.v` | | random variables; soundness of kernels and means; existence of random variables |
| `Cond.v`, `CondFacts.v`, `VarFacts.v`, `LawFacts.v`, `CrossFacts.v`, `PointFacts.v`, `PostDefined.v` | | conditioning, linearity, products |
| `Combine.v`, `CombineFacts.v`, `DiffApprox.v`, `DiffFacts.v` | `model/observations.py:28-47`, `model/gp.py:225-244` | combine, diff_approx |
| `Plain.v`, `PlainThms.v`, `ModelRefute.v`, `ExModel.v`, `ExDiff.v`, `P_Model.v` | | C10-C13, C17, C21, C22, C26, C28-C33, C35, C48, C52, C53 |
| `TotalSpec.v`, `TotalLogs.v`, `Total.v`, `TotalPos.v`, `TotalThms.v`, `TotalEx.v`, `TotalEx2.v`, `P_Total.v` | | C60, C10, C11: which evaluations succeed |
| `ProdSpec.v`, `ProdLogs.v`, `Schur.v`, `Prod.v`, `ProdThms.v`, `ProdEx.v`, `P_Prod.v` | | C10-C13, C52 for models with products of processes and derivatives |
| `SymSpec.v`, `SymEval.v`, `SymLogs.v`, `SymThms.v`, `SymEx.v`, `P_Sym.v` | | C12 for all models |
| `ExactSpec.v`, `Shape.v`, `Exact.v`, `ExactLogs.v`, `ExactRV.v`, `ExactMain.v`, `ExactThms.v`, `ExactEx.v`, `P_Exact.v` | | C10, C11, C13, C52 for all models |
| `Api.v`, `ApiSpec.v`, `ApiFacts.v`, `ApiThms.v`, `P_Api.v` | `model/gp.py:70-95,123-132,146-160`, `model/measure.py:35-91` | C06-C09, C15, C61 for programs over the whole API |
| `GeneralSpec.v`, `GeneralThms.v`, `GeneralEx.v`, `P_General.v` | | the properties about numbers (C17, C21, C22, C26, C28-C32, C34, C35, C42, C47-C49, C51, C53) for all models |
| `MulSpec.v`, `MulFacts.v`, `ExMul.v`, `P_Mul.v` | `model/measure.py:253-269` | C23, C24 |
| `Normal.v`, `NormalSpec.v`, `NormalFacts.v`, `DiagonalFacts.v`, `NormalRVFacts.v`, `NormalExp.v`, `MatrixFacts.v`, `Spectral.v`, `Reals_field.v`, `ExNormal.v`, `P_Normal.v` | `random.py` | C39-C41, C43-C46, C59 |
| `NormalLazy.v`, `LazyNormalSpec.v`, `LazyNormalFacts.v`, `LazyNormalThms.v`, `LazyZero.v`, `P_LazyNormal.v` | `random.py:56-227`, `model/fdd.py:14-93` | C37, C38 |
| `LogPdf.v`, `LogPdfFacts.v`, `ExLogPdf.v`, `P_LogPdf.v` | `model/measure.py:463-489` | C42, C30 |
| `Infer.v`, `InferSpec.v`, `ElwiseFacts.v`, `InferFacts.v`, `InferThms.v`, `InferPdf.v`, `ExInfer.v`, `P_Infer.v` | `mo/infer.py`, `elwise` and `_take_x` of `mo/*`, `model/fdd.py:125-148`, `model/observations.py:64-83`, `model/measure.py:425-461` | C34, C47, C49-C51 |
| `SizeSpec.v`, `SizeFacts.v`, `SizeEx.v`, `P_Size.v` | | C62: which sizes can be inferred |
| `Stationary.v`, `StationaryFacts.v`, `P_Stationary.v` | `model/gp.py:246-249`, `mo/adk.py:24-26` | C63 |
| `Pseudo.v`, `PseudoSpec.v`, `PseudoFacts.v`, `ExPseudo.v`, `P_Pseudo.v` | `model/observations.py:181-400` | C54-C56 on matrices |
| `PseudoGraph.v`, `PseudoMain.v`, `Leaves.v`, `PseudoTup.v`, `Elbo.v`, `PseudoElbo.v`, `ExPseudoGraph.v`, `P_PseudoGraph.v` | `model/observations.py:181-400` | C54-C56 in the graph |
| `Caches.v`, `CachesSpec.v`, `CachesFacts.v`, `CachesOnce.v`, `P_Caches.v` | `model/observations.py:123-141,184-336` | C57, C58 |

Theorems about properties are only in the `P_*.v` files.  Each is closed by an exact reference to a
lemma, followed by `Print Assumptions`, and accompanied by an `Example` in which its hypotheses hold
in a non-trivial case.

## 3. What is not modelled, and simplifications

Not modelled at all: the back ends (NumPy, TensorFlow, PyTorch, JAX), dtypes, devices, batch
dimensions and broadcasting, floating-point rounding, `B.epsilon` (jitter), printing and formatting,
plotting, multiple dispatch (`plum`) and its conversions, numerical derivatives, `fdm`'s choice of
grids.

Simplifications, in the order of the files:

* `lazy.py`: builders are pure functions that may raise (in `Lazy.v`); builders that read containers
  are in `Machine.v`.  `id` is an injective map (true for objects that are alive at the same time,
  and indices are kept alive by their measure).  Keys that are `reversed` iterators are left out.
* mlkernels: the algebraic simplifications that mlkernels performs when expressions are built
  (`0 * k`, `k + 0`, ...) are not performed; expressions are given by their meaning.  A `ZeroKernel`
  that has the wrong shape (C52) makes the model fail where the simplified expression does not
  contain it; theorems about numbers that the model gives do not speak about those numbers.
* Arrays are lists of points, and a point is a list of features; features beyond the end read as 0.
  User-supplied functions and kernels act point by point.  Arrays of different shapes where the
  source would broadcast are an error.
* `B.iqf` of a singular matrix is an error.  `B.cholesky` is exact.
* Derivatives are an oracle `D`; the theorems assume of it that the derivative of zero is zero.  A
  process `f.diff` is specified as a mean-square derivative with respect to this oracle.
* `K_x` of observations is computed where it is used, with the kernels read when the posterior
  kernel is built, rather than once per measure; C57 shows that the cache is transparent.
* Memoisation that happens while an expression is evaluated at inputs (`KMok`, `MMom`) is not
  persisted; C14 shows that this makes no difference.
* `FDD.__init__` calls `infer_size`; the graph model does not (an FDD is an input there); `Infer.v`
  models it for the FDDs that `take` constructs.
* Iterating over a Python `set` of measures follows an arbitrary permutation that is an argument of
  the operation.
* Names are modelled in `Naming.v` and contexts in `Context.v` on their own.  `Api.v` puts them together
  with the measures and processes of `Machine.v`, in programs with variables, conditionals, loops,
  `with`, `raise` and `try`.  A program there is a terminating execution: the number of iterations of a
  loop is computed when it is entered.  What Python computes in between, without calling the API, is an
  arbitrary function of the variables.  All exceptions are one exception.
* `random.py`: functions given to the constructor are represented by their values; `B.root` is any
  function that takes square roots of positive semi-definite matrices; the generator of random
  numbers is an argument.
* Pseudo-points, in `Pseudo.v`: a measure is represented by the matrices that it gives.  In the graph
  (`Graph.v`, `Machine.v`) measures can be conditioned on pseudo-observations; `A` and `mu` are given by
  closed forms there.  The noise of the data is the diagonal of a `Diagonal` matrix in the graph.
  `K_x` is evaluated there for every method (the source evaluates its diagonal, and not for DTC), and the
  ELBO (`Elbo.v`) is a function of the numbers that a measure gives.
  Conditioning with VFE and DTC has a meaning as conditioning on the linear predictor of the data
  given the inducing variables (`data` in `RV.v`); FITC has none, so the theorems about joint laws,
  non-negativity and shapes leave out what is conditioned with FITC.
* Caches: the id of a measure is its address, addresses may be used again after collection, and
  objects are kept alive by the references that the source shows.
* `elwise`: inputs with different numbers of elements are an error; `elwise` of derivative kernels
  is the diagonal of `pairwise`.
* Masks whose length is not the number of rows are an error.

## 4. Trusted base

* Coq's kernel (8.16.1), and the standard library and mathcomp as installed.
* No axioms are added.  `functional_extensionality_dep` of the standard library is used in the
  proofs about graphs.  The examples about real numbers (`normals_exist` and the examples that use
  it) use the axioms of the standard library's real numbers (`sig_forall_dec`, `sig_not_dec`,
  `functional_extensionality_dep`), `classic` and `constructive_indefinite_description`; no theorem
  about a property does.
* The reading of the source, as recorded in the comments of the model, including the meaning given
  to `mlkernels`, `lab` and `matrix`.
* That the specifications say what the properties mean: `LazySpec.v`, `ContextSpec.v`,
  `GraphSpec.v`, `ApiSpec.v`, `SizeSpec.v`, `Stationary.v` (second half), `RV.v`, `ModelSpec.v`, `ProdSpec.v`, `SymSpec.v`, `ExactSpec.v`, `MulSpec.v`, `NormalSpec.v`,
  `LazyNormalSpec.v`, `InferSpec.v`, `PseudoSpec.v`, `CachesSpec.v`, and the vocabulary in `Typing.v` (`widths`).

What `Print Assumptions` lists (`tools/assumptions.py`):

| file | assumptions | theorems |
|---|---|---|
| P_Api.v | none (closed) | C15_programs_are_runs, C06_programs, C06_programs_lookup, C07_programs_round_trip, C07_programs_name_of, C07_programs_name, C07_programs_setter, C07_programs_other_calls, C09_programs_constructor, C08_programs_constructor_rejected, C09_programs_nest_partial, C61_process_condition, C61_process_condition_returns, C09_programs_reentry_refuted |
| P_Api.v | functional_extensionality_dep | C15_programs |
| P_Caches.v | none (closed) | C57_exact, C57_exact_once, C57_pseudo_once, C57_pseudo, C58_rejected_partial, C58_first_call, C58_K_z_again_refuted |
| P_Context.v | none (closed) | C09_contexts_nest_partial, C09_with_restores, C09_contexts_nest_refuted, C09_reentry_through_other_refuted |
| P_Exact.v | functional_extensionality_dep | C10_C11_all_partial, C52_own_shape_partial, C13_psd, C13_joint_psd |
| P_General.v | functional_extensionality_dep | variances_are_full, C17_all_independent, C21_all_covariance, C21_all_mean, C21_all_constant_covariance, C21_all_constant_mean, C28_all_covariance, C28_all_mean, C29_all_covariance, C29_all_mean, C30_all_rows_covariance, C30_all_rows_mean, C30_all_pairs_covariance, C30_all_pairs_mean, C31_all_interpolation, C32_all_variance_reduction, C35_all_covariance, C35_all_mean, C48_all_covariance, C48_all_mean, C53_all_combine, C22_all_shift, C22_all_stretch, C22_all_select, C22_all_transform, C26_all_mean, C26_all_covariance, C49_all_size_partial, C51_all_mean_partial, C51_all_var_partial, C51_all_cov_partial, C47_all_blocks_partial, C34_all_covariance_partial, C34_all_mean_partial, C42_all_chain_rule, C30_all_rows_logpdf, C30_all_pairs_logpdf, C34_all_logpdf_partial, simple_models_known_full |
| P_Graph.v | functional_extensionality_dep | C14_reads_are_pure, C15_extension_is_conservative, C20_mixing_rejected |
| P_Graph.v | none (closed) | C14_read_kernel, C14_read_mean, C16_available, C16_terminates, C17_independent, C18_derived_scope, C18_consistent, C19_home_refuted, C19_home_partial, C25_right_rule_refuted, C25_rules_partial, C27_copy_law, C36_posterior_scope, C36_later_processes |
| P_Infer.v | functional_extensionality_dep | C49_size_partial, C50_elwise, C50_var_diag, C51_process_partial, C51_mean_partial, C51_var_partial, C51_cov_partial, C47_blocks_partial, C34_covariance_partial, C34_mean_partial, C34_logpdf_partial, C49_nested_refuted, C51_scaled_refuted, C34_scaled_refuted, C47_product_refuted |
| P_Infer.v | none (closed) | C51_noise |
| P_Lazy.v | none (closed) | C01_matrix_read_stable, C01_vector_read_stable, C02_matrix_first_read, C02_vector_first_read, C02_matrix_failed_read, C02_vector_failed_read, C03_C04_matrix_passive, C03_C04_vector_passive, C05_diagonal_read, C05_matrix_set_read, C05_vector_set_read, C05_identity_indexing |
| P_LazyNormal.v | none (closed) | C37_noise, C38_accessors_partial, C38_fdd, C38_mean_is_zero_values, C38_mean_is_zero_functions, C38_mean_is_zero_fdd, C38_scalar_mean_refuted |
| P_LogPdf.v | functional_extensionality_dep | C42_chain_rule, C30_rows_logpdf, C30_pairs_logpdf |
| P_Model.v | none (closed) | operations_define, conditioning_conditions, C53_noise_and_values, C10_late_gp_refuted, C52_late_gp_refuted, C33_empty |
| P_Model.v | functional_extensionality_dep | C10_covariance_partial, C11_expectation_partial, C12_symmetric_partial, C17_independent_derived, C21_covariance, C21_mean, C21_constant_covariance, C21_constant_mean, C28_covariance, C28_mean, C29_covariance, C29_mean, C30_rows_covariance, C30_rows_mean, C30_pairs_covariance, C30_pairs_mean, C31_interpolation, C35_covariance, C35_mean, C48_covariance, C48_mean, C53_combine, C10_C11_plain_partial, C52_shape_partial, C12_symmetric_plain, C13_joint_psd_partial, C13_joint_psd_plain, C22_shift, C22_stretch, C22_select, C22_transform, C26_mean, C26_covariance, C32_variance_reduction |
| P_Mul.v | functional_extensionality_dep | C23_product_covariance, C24_product_mean_partial, C24_product_mean_refuted |
| P_Mul.v | none (closed) | C23_product_cross_covariance |
| P_Naming.v | none (closed) | C06_names_two_way, C06_no_key_error, C07_name_effect, C07_name_of_home, C08_rejected_keeps_name_refuted, C08_setter_atomic_refuted, C08_rejected_always_forgets, C08_rejected_partial |
| P_Normal.v | none (closed) | C39_marginals, C39_credible_bounds, C40_logpdf, C41_logpdf_missing, C43_kl_nonneg, C43_kl_zero, C43_kl_closed_form, C43_entropy, C44_w2_nonneg, C44_w2_symmetric, C44_w2_identical, C44_w2_equal_variances, C44_w2_zero, C44_w2_square, C45_arithmetic, C46_sample, C46_global_state, C59_marginals, C59_covariances, C59_logpdf, C59_closest |
| P_Normal.v | sig_forall_dec, sig_not_dec, constructive_indefinite_description, classic, functional_extensionality_dep | normals_exist |
| P_Prod.v | functional_extensionality_dep | C10_C11_products_partial, C52_shape_products_partial, C12_symmetric_products, C13_joint_psd_products |
| P_Pseudo.v | none (closed) | C54_covariance, C54_mean, C54_elbo, C55_covariance, C55_mean, C55_elbo, C56_lower_bound |
| P_PseudoGraph.v | functional_extensionality_dep | C54_graph_covariance, C54_graph_shapes, C54_graph_mean, C54_graph_covariance_defined, C54_graph_mean_defined, C55_graph_covariance, C55_graph_mean, C54_graph_elbo, C55_graph_elbo, C56_graph_lower_bound |
| P_Size.v | none (closed) | C62_sizes_partial, C62_first_posterior_partial |
| P_Size.v | functional_extensionality_dep | C62_conditioned_twice_refuted, C62_product_data_refuted |
| P_Stationary.v | none (closed) | C63_stationary, C63_constant_variance, C63_derived, C63_sum, C63_posterior |
| P_Sym.v | functional_extensionality_dep | C12_symmetric |
| P_Total.v | functional_extensionality_dep | C60_late_multiple_refuted, C60_late_shift_refuted, C60_product_plus_constant_refuted, C60_evaluates_partial, C60_positive_noise_partial, C10_exists_plain, C60_positive_noise_products_partial, C10_exists_products, C60_after_pseudo_partial |

## 5. Properties

A property that is false of the code has status `partial` in the manifest: a theorem `..._refuted`
gives the counterexample, and theorems `..._partial` prove what does hold.

### Lazy containers (C01-C05)

*Model*: `Lazy.v`: a store (partial map on resolved keys) and lists of rules in the order of
addition; the caller's index sets are mutable cells, so that freezing is visible.  *Statements*
quantify over all histories of sets, reads, additions of rules and mutations of the sets.

* **C01** `C01_{matrix,vector}_read_stable`: after a successful read, every history that does not
  assign that index leaves its value.
* **C02** `C02_*_first_read` gives the rule that is used, where the candidate rules are computed from
  the history (`udecl`, `ldecl`, `rdecl`, `vdecl`) and not from the state; `C02_*_failed_read`.
* **C03, C04** `C03_C04_*_passive`: mutating sets, and reads of any index any number of times in any
  order, change no later read.
* **C05** `C05_*`: shorthand keys, assignment and reading, identity of objects.

### Names, contexts and programs (C06-C09, C61)

* **C06** `C06_names_two_way`, `C06_no_key_error`; **C07** `C07_name_effect`, `C07_name_of_home` (`p.name` is the name in the measure of construction): by invariant over all
  histories of naming, constructing and conditioning.
* **C08** *False*: `measure.py:79-81` deletes the old name before `84-87` checks the new one
  (`C08_rejected_keeps_name_refuted`; it always forgets: `C08_rejected_always_forgets`), and the
  setter of a GP in several measures stops half-way (`C08_setter_atomic_refuted`).  What holds is
  `C08_rejected_partial`.  Also, `GP(..., name=taken)` raises after the process was attached.
* **C09** *False* when a measure is entered while it is already entered, because there is one slot
  `_prev_default` per measure (`C09_contexts_nest_refuted`, `C09_reentry_through_other_refuted`).
  Proved for all other programs, with exceptions (`C09_contexts_nest_partial`,
  `C09_with_restores`).
* **Programs.**  The theorems of `P_Api.v` state C06-C09 and C15 of programs that mix all calls of the API.
  Every program is a run of the operations of `Machine.v` as far as measures and processes are concerned
  (`C15_programs_are_runs`), so all theorems about runs hold after every program.  C09 compares a program
  with an interpreter that has lexical scope and no `default` (`scoped` in `ApiSpec.v`;
  `C09_programs_nest_partial`, `C09_programs_reentry_refuted`, `C09_programs_constructor`).
  `C08_programs_constructor_rejected`: a constructor that raises because the name is taken leaves its
  process behind in the measure.
* **C61** `p | obs` (`GP.condition`) is the process under the posterior of its measure
  (`C61_process_condition`), and does not raise (`C61_process_condition_returns`).

### Model graphs (C14-C20, C25, C27, C36)

*Proof*: `Refine.v` gives a denotation of the log of a measure (which kernel expression each pair of
processes has) and proves, for all runs, that reads return it, whatever is memoised.

* **C14** `C14_reads_are_pure`: removing or adding reads anywhere in a history changes no result and
  nothing that can be observed; `C14_read_kernel`, `C14_read_mean`.
* **C15** `C15_extension_is_conservative`.
* **C16** `C16_available`: reads succeed for exactly the processes of the measure (`safe`: rules of
  users do not raise, and data are about processes of the measure); `C16_terminates`: no operation
  ever exhausts the recursion bound of the model, so that the recursion of the source terminates.
* **C17** `C17_independent` (all models), `C17_independent_derived` (with everything that is built
  without the process).
* **C18** `C18_derived_scope`, `C18_consistent`.
* **C19** *False*: `intersection_measure_group` returns a set, so the home of `f + g` can be a
  posterior (`C19_home_refuted`).  `C19_home_partial` gives the cases in which it is right.
* **C20** `C20_mixing_rejected`.
* **C25** *False*: `measure.py:136` drops `right_rule` (`C25_right_rule_refuted`);
  `C25_rules_partial`.
* **C27** `C27_copy_law`.
* **C36** `C36_posterior_scope`, `C36_later_processes`, and C15.

### Meaning of models (C10-C13, C21, C22, C26, C28-C33, C35, C48, C52, C53, C60)

*Vocabulary*: `model D G eps w P` says that random functions `G` (independently constructed
processes and those of `add_gp`) and `eps` (noise of observations) fit the world `w`, as far as the
processes in `P` are concerned, and that independently constructed processes come before processes
with several outputs.  For a process of `add_gp`, to fit means that the given kernel and mean are
those of its random function and that the kernels of the given left rule are its covariances with
the processes that were there; the theorems below then also hold for it and for all that is built
from it (`example_user_model`: an `add_gp` process with kernel `4 k` and cross-kernel `2 k` with `f`,
and a posterior).  In the same vocabulary,
`is_at m p x u` says that process `p` at input `x` is the random vector `u` under `m`; `cov_is` and
`mean_is` are the numbers that the model gives.  `plain` and `gp_first` describe models for which
such `G` and `eps` are constructed (`C10_C11_plain_partial`): all operations except `add_gp` and
products of processes, arbitrary kernels and means that act on points.  `mixed` adds products of
processes whose factors have one value per point (`factors`), and processes that are built from
derivatives, where derivatives are finite differences (`differences`; any grid, coefficients and
step).  Proof: the kernel of the independent part of a product (`measure.py:254-259`) is made of the
covariances of its factors, which are random variables of the processes made before; so the random
functions are constructed one after the other (`Prod.regular_step`), and the kernel is non-negative
by Schur's product theorem (`Schur.prodk_psd`).

* **C10, C11** `C10_covariance_partial`, `C11_expectation_partial`, `C10_C11_plain_partial`.  *False*
  for a GP that is constructed after a Cartesian product (`C10_late_gp_refuted`): its covariance
  with the product is a `ZeroKernel` with one column per input, not per value.  The means of
  products of processes are wrong (C24).
  `C10_C11_products_partial`: for `mixed` models.
  `C10_C11_all_partial`: all operations in all orders, for processes that are `covered`.  Kernels
  never have more rows or columns than the covariance matrix, and are equal to it if they have as
  many; a process and itself at one input always has as many.  Proof (`Exact.v`): soundness as
  before, for `covmat_at_most` instead of `covmat`; the matrix of a process with itself has the shape
  of its transpose (`Shape.shapes`), which excludes the cases in which the two would differ.
* **All models.**  The theorems named `_all_` (`P_General.v`) state C17, C21, C22, C26, C28-C32, C34,
  C35, C42, C47-C49, C51 and C53 without random variables and without restrictions on the operations
  and their order: the hypotheses are about the program (`general`: given kernels and means act on
  points, noise is symmetric; `shaped_kernel`: the matrices of given kernels have transposed shapes at
  exchanged inputs) and about the numbers.  `known` is `covered` with matching numbers of values, and
  `full` is `cov_is` with the right shape; for the covariance of a process with itself the shape is
  a theorem (`variances_are_full`).  Proof: all lemmas about meaning are stated for an abstract notion
  of `sound` (`ModelFacts.v`: some relation `CV` between processes and matrices implies `covmat`, means
  are expectations, and `CV` holds of variances); the models of C10 satisfy it with `cov_is`, and
  the random variables of `C10_C11_all_partial` satisfy it with `full` (`GeneralThms.general_sound`).
  `simple_models_known_full`: for the models of C10 nothing is asked but matching numbers of values.
* **C12** `C12_symmetric` for all models: whichever operations have been done, in whichever order
  (`add_gp`, products, derivatives and GPs that are constructed late included).  Assumed: kernels
  given to `GP` and `add_gp` and noise matrices are symmetric, and second derivatives of covariance
  functions commute.  Proof: no random variables; the kernel of every pair is the transpose of the
  kernel of the reversed pair by induction on the log of the measure and on the bound of the
  evaluation (`SymEval.tr_*`, one lemma for each kind of kernel).
* **C13** `C13_psd`, `C13_joint_psd` for all models; for the models of C10 without the assumption that
  the blocks fit (`_partial`: given random variables; `_plain`, `_products`: unconditionally); likewise `C12_symmetric_partial`, `_plain` and `_products`.
* **C21** `C21_*`: expressions that denote the same affine combination, by the definitions that the
  operations gave (`operations_define`), have the same mean and covariances with everything.
* **C22** `C22_shift`, `C22_stretch`, `C22_select`, `C22_transform`.
* **C26** `C26_mean`, `C26_covariance`; grid, coefficients and step are arguments.
* **C28** `C28_covariance`, `C28_mean`: with the regression matrix `B`, `B Var(Y) = Cov(p, Y)`.
* **C29** two measures, conditioned one after the other, and one conditioned on the combination.
* **C30** rows and pairs; means, covariances and log-densities.
* **C31**, **C32**, **C35** as in the properties.
* **C33** for all models, also with `add_gp` and products.
* **C48**, **C53**: `parts` lists the components of a nested input; covariances are block matrices
  and means concatenations of those of the components.
* **C52** *False* for late GPs (`C52_late_gp_refuted`), `C52_shape_partial`, `C52_shape_products_partial`;
  `C52_own_shape_partial` for a process and itself, in all models.

* **C60** Without it, C10 and C11 would hold of a model in which every evaluation fails.  *False* in
  three ways: `f * g` made after `c = cross(f, ...)` has a covariance with `c` that raises, because
  `measure.py:242-251` makes a vector of ones with one entry per input, not per value
  (`C60_late_multiple_refuted`); `f.shift(1)` made after `c` has a covariance with `c` that raises at
  FDDs (`C60_late_shift_refuted`), because the shift of the side that is not shifted is applied to
  the FDD; and the mean of `c + 1` raises at two or more points
  (`C60_product_plus_constant_refuted`).  When Cartesian products come last (`cross_last`) and the
  functions of the user do not raise (`total_call`), everything can be evaluated, provided that the
  matrices of the data are invertible (`C60_evaluates_partial`); this provision is proved from
  positive definite noise (`C60_positive_noise_partial`).  Products of processes are allowed if their
  factors have one value per point (`factors`; otherwise the code raises or gives another shape):
  the kernels of the parts of a product contain means of processes, so that means and kernels are
  treated together by induction on the history (`C60_evaluates_partial`,
  `C60_positive_noise_products_partial`).  `C10_exists_plain` and `C10_exists_products` join this to C10 and
  C11: random functions exist, all numbers exist, and they are the covariances and expectations.
  Pseudo-observations (VFE and DTC) are covered: what they need is that the sizes agree and that the
  matrix of the inducing variables and the matrix of the data in the approximate model are
  invertible (`usable_pseudo`), and this, too, follows from positive noise (`pd_noise`, `TotalPos.v`).
  After FITC a process has no number of values (`seen` in `Typing.v`, because its joint model has
  other noise), so these theorems say nothing there; `C60_after_pseudo_partial` does, for all three methods, in
  terms of the numbers of values in the parent measure: directly after the approximation every process
  of the parent can be evaluated.  What is built on top of a measure approximated with FITC is not covered.
  One restriction is built into `mean_input`: `f((x1, x2)).mean` raises for means that are not zero.

### Products of processes (C23, C24)

*Specification* (`MulSpec.v`): random variables are elements of a commutative algebra with a linear
expectation; jointly Gaussian means that third central moments vanish and fourth central moments are
given by Isserlis' formula.  `C23_product_covariance`, `C23_product_cross_covariance`.  **C24** is
*false*: the mean misses the covariance of the factors (`C24_product_mean_refuted`);
`C24_product_mean_partial` gives the exact difference.

### Normal distributions (C37-C46, C59)

* **C37** `C37_noise`, **C38** `C38_accessors_partial`, `C38_fdd`: for all sequences of accesses.
  *False* in representation: `mean_var` returns a mean that was given as the number 0 as a number
  before the first access to `mean`, and as a vector after (`C38_scalar_mean_refuted`).  `C38_mean_is_zero_*`: the flag `mean_is_zero`
  tells how the mean was given, whatever was accessed before.
* **C39** `C39_marginals`, `C39_credible_bounds`.
* **C40** `C40_logpdf`: the code computes through Cholesky factors; the statement is in terms of the
  determinant and the inverse.  **C41** `C41_logpdf_missing`.
* **C42** `C42_chain_rule`: with a positive definite joint variance, for the models of C10.
* **C43** `C43_kl_nonneg`, `C43_kl_zero`, `C43_kl_closed_form`, `C43_entropy`; **C44** `C44_*`.
* **C45** `C45_arithmetic`: for all expressions of affine operations on normal vectors.
* **C46** `C46_sample`, `C46_global_state`.
* **C59** `C59_marginals`, `C59_covariances`, `C59_logpdf` (the density factorises), `C59_closest` (no
  distribution without correlations is closer in Kullback-Leibler divergence).

### Sizes, diagonals, masks, missing values, joint samples (C34, C47, C49-C51, C62, C63)

* **C49** *False* for Cartesian products of Cartesian products, where `dimensionality` counts the
  components (`C49_nested_refuted`); `C49_size_partial` for all others (`flat`).
* **C62** C49 says that sizes that are inferred are right; C62 says that they are inferred.  *False*: for
  `c = cross(f, e)`, FDDs of `c` cannot be constructed after conditioning twice on data of `f`
  (`C62_conditioned_twice_refuted`), because the posterior kernel between `f` and `c` is taken to have one
  output, and FDDs of `f` cannot be constructed after conditioning twice on data of `c`
  (`C62_product_data_refuted`); in both cases the covariances exist.  `C62_sizes_partial` for the processes
  of `sized`, `C62_first_posterior_partial` for all numbers of outputs in first posteriors.
* **C63** `Stationary.v` models the attribute `stationary` (the part of mlkernels that computes it is
  modelled as documented there; that elementary kernels tell the truth is a hypothesis) and says what
  it should mean.  `C63_stationary` by induction over the kernel expression, `C63_constant_variance`,
  `C63_derived`, `C63_sum`, `C63_posterior`.
* **C50** `C50_elwise`, `C50_var_diag`.
* **C51** *False* for processes with several outputs that are not literally Cartesian products, e.g.
  scaled ones: their kernels fall through to the `_take_x` for arrays
  (`C51_scaled_refuted`).  `C51_*_partial` for all masks of all nested inputs wherever the mask can be
  taken; `C51_noise`.
* **C34** as C51: `C34_*_partial`, `C34_scaled_refuted`.
* **C47** *False* for processes with several outputs at arrays, because `measure.py:443` counts
  inputs (`C47_product_refuted`); `C47_blocks_partial`.

### Pseudo-points and caches (C54-C58)

* **C54** closed forms with `Q = K_xz K_z^-1 K_zx`; **C55** inducing points at the data;
  **C56** `C56_lower_bound` (from `tr M - n - ln det M >= 0`).  These are about matrices; the theorems
  `C54_graph_*`, `C55_graph_*` and `C56_graph_lower_bound` are about measures, processes and
  kernels of any program: the numbers of a measure that is conditioned on pseudo-observations have the
  closed forms (`C54_graph_covariance`, `C54_graph_mean`; over any field, whenever they exist), they
  exist (`C54_graph_*_defined`), they are those of exact conditioning when the inducing points are
  the data (`C55_graph_*`), and the ELBO has its closed form, is the log-density for inducing points at the
  data, and is below it for VFE in every model.  Inputs may be nested tuples (`Leaves.v`, `PseudoTup.v`);
  only `C54_graph_covariance_defined` is for inputs that are not tuples.
* **C57** `C57_exact`, `C57_pseudo`: for all histories of creation, collection (with reuse of
  addresses) and calls.  `C57_exact_once`, `C57_pseudo_once`: after a call that returned, the answers
  do not depend on the functions that compute them, i.e. nothing is computed twice.
* **C58** *False*: `K_z` is stored before the noise is checked, so a second call of `K_z` returns a
  matrix (`C58_K_z_again_refuted`); `C58_rejected_partial`, `C58_first_call`.
