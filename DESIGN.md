# Formal model of pymc-devs/pymc-experimental (package `pymc_extras`)

## Method

Each topic is a group of Rocq files in `rocq/theories/`:

* `X_Model.v`  – shallow Gallina model of the Python functions, branch by branch; exceptions are
  values (`inl err` / `Err`), mutation is returned state.  Every definition cites file and lines.
* `X_Spec.v`   – the specification, written from the English property, not using helpers of the model.
* `X_Proofs.v` – lemmas.
* `X_Props.v`  – only theorems (`exact lemma`), non-vacuity `Example`s and `Print Assumptions`.

Theorem naming: `Cnn_...` states property nn.  `..._partial` = a strictly weaker statement than the
property (what is missing is said beside it).  `..._refuted` = the faithful model VIOLATES the property;
the theorem exhibits a concrete witness that can be traced through the Python source.  A refuted
property is reported in MANIFEST.json as `partial`, with the refutation and the strongest true part.

Numbers: real arithmetic is modelled by exact reals (`R` of the Coq standard library) or by an arbitrary
field/commutative ring (mathcomp), never by floats: rounding, overflow and NaN propagation are outside
the model except where NaN/inf are explicit values (data masking).  Python ints are `Z`/`nat`.

## Plan per property

| id | modelled | proof technique |
|----|----------|-----------------|
| C01 | `finite_discrete_marginal_rv_logp` as a function of a joint-logp table | distributivity of product over sum, induction on the batch; exp/ln over R |
| C02 | forward recursion of `marginal_hmm_logp` | induction on the chain, generalised over the state |
| C03 | `get_domain_of_finite_discrete_rv` | list lemmas (NoDup, Sorted, membership iff) |
| C04 | normalisation and draw shift of `recover_marginals` | real algebra |
| C05 | `_subgraph_batch_dim_connection` on an SSA graph language with denotational semantics | induction over the node list, one soundness lemma per op; refutation witnesses |
| C06 | `reduce_batch_dependent_logps`, `align_logp_dims` on index-function tensors | permutation reasoning; refuted for 3-cycles, proved for involutions |
| C07 | `_broadcast_dims` | iff characterisation by induction |
| C08 | `ancestors(blockers)` DFS, the three finders | reachability equivalence |
| C09-C13 | `MarginalModel` as a state machine over a heap (dicts are addresses, so aliasing is modelled) | invariants over histories; witnesses |
| C14-C20 | Kalman filter steps over mathcomp matrices of an arbitrary real field | invariant over the observation list, matrix algebra |
| C21 | smoother scan | induction; witnesses for the intercept/time-varying cases |
| C22-C25 | SARIMAX matrices as index functions / mathcomp matrices | polynomial identities, induction over time |
| C26 | VARMAX companion form | block index arithmetic, induction over time |
| C27 | ETS matrices | induction over time |
| C28-C34 | structural components and `__add__` | induction over time; block-diagonal composition |
| C35-C37 | forecast/unconditional index logic | decision logic over Z |
| C38 | IRF scan | induction |
| C39 | `PytensorRepresentation` get/set/copy with shapes dict | get/set laws; witnesses |
| C40 | masking functions with explicit NaN values | case analysis |
| C41-C43 | ModelBuilder config formatting, id, fit merge | induction over config trees |
| C44,C45,C52 | flatten/unflatten | induction over shapes |
| C46 | histogram binning | counting lemmas |
| C47,C48 | VIP | real algebra, state machine |
| C49,C50 | option resolution | exhaustive case analysis over finite domains (stated) |
| C51 | SMC loop | induction on fuel with out-of-fuel excluded |
| C53 | Markov chain logp | induction over length |
| C54,C55 | GenExtreme, R2D2M2CP scalar formulas | real analysis/algebra |
| C56,C57 | CG, pivoted Cholesky loops | loop invariants |
| C58-C60 | KL, as_model, printing | list reasoning |
| C61 | the round trip with initial values and transforms of the C09 state machine | witness |
| C62,C63 | square-root filter and smoother over mathcomp matrices | matrix algebra, invariant over the run |
| C64 | Lyapunov/mean equation of the SARIMA stationary initialisation | determinant of the companion matrix |
| C65-C67 | regression component, sigma parameters, measurement errors | index arithmetic, induction over time |
| C68,C69 | greedy support point and Gibbs steps of DiscreteMarkovChain | induction over steps |
| C70-C72 | GeneralizedPoisson and BetaNegativeBinomial formulas | real algebra, induction over the cdf search |
| C73 | ProjectedProcess prior/conditional | matrix algebra |
| C74,C75 | data registration; conditional sampling | case analysis; induction over time |
| C76 | ModelBuilder.load | finite-map reasoning; witness |
| C77,C78 | find_MAP and Laplace group labels | induction over the variable list |
| C79 | `utils/spline.py`: knots, scipy's interval search and de Boor sweep over the reals | invariants of the search, induction over the degree |
| C80 | registration and substitution of parameters in `build_statespace_graph`; graphs are terms over any operations | invariant over construction histories, induction over terms; refutations |
| C81 | `sample_statespace_matrices` on top of C80 | composition of the two substitutions; refutations |
| C82 | `Linear_Model.v`: squeeze, data containers, fit, predict, predict_posterior, prior sampling, params over the reals | direct proof per call, induction over the call history; refutations for the squeezed cases |
| C83 | Skellam: logp with IEEE infinities, Bessel power series, broadcasting of the two Poisson draws | Coquelicot series, squeeze argument for the total mass; refutation at zero rates |
| C84 | nested marginalization: support axes of MarginalRV, the joint term lined up by its first dependent | C01/C02 composed; partition of the batch by the connection; witnesses |
| C85 | LapCov_Model: thresholding, pinv, jitter, Cholesky test, get_nearest_psd over any ordered field; numpy routines as parameters with contracts | Penrose uniqueness, congruence, Frobenius projection through the orthogonal change of basis; witnesses over rationals |
| C86 | Elim_Model: variables with what they read, the elimination loop in reverse topological order, merged nodes, stale potentials, topological order of the result | loop invariant (each remaining variable defined once by its own node), product of nodes = sum over eliminated variables; Kahn stuck set for the cycle criterion; witnesses |
| C87 | Fdraw_Model on top of Lgss_Model: choice of filter output, start, generator as a stream of standard normals | every draw as an affine function of the stream; moments = (mean, A A'), shown unique; induction on the horizon; witness |
| C88 | Stat_Model: solve, kron, both Lyapunov methods (continuous solver a parameter), the three _stationary_initialization functions; transition matrices from Sarima_Model and Multi_Model | eigenvalues from the lag polynomials (complex eigenvectors of companion/block matrices), powers of T vanish (Cayley-Hamilton over R[i]), uniqueness and convergence of the Lyapunov recursion; AR(1) witness |
| C89 | Joint_Spec: random vectors as mean + loadings on N unit noises; the model, the stacked observed numbers, conditioning by invmx of their covariance. KalmanUni_Model: the univariate filter's own scan | Invariant "the carried moments are the conditionals given everything so far" by induction on time (condL: orthogonality of the error to the stacked data); determinant of the stacked covariance factors step by step; smoother by backward induction with the Penrose identity; a time-varying T refuted on a two-step model (Joint_TV); exact once the matrices are handed over one slot late (Joint_Shift, induction backwards in time) |
| C90 | Branch_Model: the array loop of _branching_rng_fn with the generator as a parameter; Branch_Spec: histories, their Poisson probabilities, probability of having ended by generation n | loop invariant per masked entry; compositions of k by induction with the binomial theorem; generating function fixed point for termination; diagonal (Tonelli) summation for the total; contraction argument in mu for mean and variance |
| C91 | Filter steps with jitter run on random vectors of a state space model (Joint_Spec.v); estimates as coefficient matrices (Cons_Spec.v) | Joseph form: for every gain the error Gram matrix satisfies the same recursion as the covariance, jitter only adds; induction over time (and over series for the univariate filter) |
| C92 | KFloat_Model.v: filters and smoother over any number type, any matmul/solve/pinv/det; KFloat_Double.v: IEEE doubles (Flocq) | symmetry is preserved step by step from commutativity of addition alone; commutativity proved for IEEE; counterexample for observed covariances by evaluation in doubles |
| C93 | Chi_Model.v: draws as functions of the ChiSquared draws, parameter check; Chi_Spec.v: documented densities, improper integrals (Coquelicot) | substitution in RInt; Gaussian integral by differentiation under the integral; Gamma recursion by parts; moments by substitution |
| C94 | R2D2_Model.v: masks, nonzero/set_subtensor scatter, registered variables with laws and names, both parametrisations | scatter/gather lemmas by induction on the mask; moments from C55; names by prefix cancellation |
| C95 | fit_laplace end to end over the models of find_MAP, fit_mvn_to_MAP and the sampler conversion (FitLap_*) | composition of C49/C77/C52/C78; refutations by evaluation, one over the reals (Gamma with log transform) |
| C96 | BetaNegativeBinomial's log-probability over the reals with the Gamma integral | total mass by a telescoping identity in alpha and log-convexity of Gamma; moments by shifting the parameters; divergence by comparison with the harmonic series |
| C97 | Skellam's log-probability, as in C83 | recurrence of the pmf summed over windows -N..N; boundary terms vanish |
| C98 | build_statespace_graph's outputs and the reruns of the filter, as functions of the settings | case analysis on the list operations; refutation on the Kalman_Model filter with missing rows |
| C99 | param_names, param_dims, coords and the registrations of make_symbolic_graph of SARIMAX, VARMAX and ETS as Python list/dict operations that may raise (Meta_Model); prior shapes from coords as the specification (Meta_Spec) | case analysis on every option, lengths of labels from C25; refutations for interpretable SARIMA and ETS |
| C100 | GenExtreme.logp/logcdf (Dist_Model gev_logp) | substitution t = -log cdf turns each moment into a Gamma integral (Gev_Moments); logarithmic moments by parts and squeezing (Gum_Analysis), sum of 1/k^2 (Basel); spec in Gev_Spec; shapes within 1e-8 of zero: the cdf is the antiderivative, its limits at the ends of the support (Gev_Small) |
| C101 | Dmc_Dist.v: DiscreteMarkovChain.dist argument handling, the parameter checks of discrete_mc_logp, softmax of logits, on top of Dmc_Model | case analysis for acceptance; checks characterised by an index-level specification; totals by induction on the length of the sequence. Sampling and registration with a pymc model not modelled |
| C102 | Extract_Model.v: extract_components_from_idata over a dataset with named, labelled dimensions; xarray's outer join by which labels exist | characterisation of the selected variables by induction on the dataset; converted entries from hidden_columns; counterexample for covariances. Order of labels after a join and the warning not modelled |
| C103 | SeqMvn_Model.v: SequenceMvNormal.rv_op and its logp over tensors with arbitrary batch axes; moveaxis as list surgery; one-vector draw and normals are parameters | index computation for moveaxis there and back; logp by its three lengths; counterexample for batched data |
| C104 | Compile_Model.v: compile_statespace on top of Lgss_Model: keywords, sequence names from numbers of axes, P0 zeroed, draws loop, squeeze | induction on draws over C37's trajectory; a factor of the zero covariance is zero over a real field; keyword checks by list reasoning; counterexamples for the default number of steps |
| C105 | StandardScalerDF fit / transform / fit_transform over frames of optional reals, with scikit-learn's StandardScaler as documented | mean and variance of affinely transformed lists (induction), labels and NaN pattern by computation on the frame |
| C106 | Filt_Model: lower-casing, FILTER_FACTORY, constructor check, group selection | case analysis over strings against a letter-by-letter relation (Filt_Props); two documented names refuted |
| C107 | The filters and smoother of C01, C04, C21 with rebased inputs (Equiv_Props.rebase, reorder_series, add_models) | a transport lemma for the scan (induction) lifts the step equation; for the univariate filter neighbouring series commute (Equiv_Uni) and the terms counted are those observed (Equiv_UniLL); Penrose inverse uniqueness for the smoother; a concrete step with off-diagonal noise refutes series order for the standard filter there (Equiv_Off) |

## Trusted base

* Coq 8.16.1's kernel (and its `vm_compute` conversion, used on closed terms only); no plugins beyond those of the
  standard distribution, Mathcomp's ssreflect tactics and Coquelicot.
* The translation from Python to Gallina, made by hand; every definition cites the lines it models and states where
  it simplifies.  Nothing was executed: the sandbox has none of the project's dependencies.
* The behaviour of the libraries the code calls, as far as it is written into the model (next section).
* Axioms: only the standard library's, as printed by `Print Assumptions` and listed per theorem in the last section:
  - `a` = `ClassicalDedekindReals.sig_forall_dec`, `b` = `ClassicalDedekindReals.sig_not_dec` (construction of the reals),
  - `f` = `FunctionalExtensionality.functional_extensionality_dep`,
  - `c` = `Classical_Prop.classic` (through lemmas of `Reals`/Coquelicot),
  - `e` = `Epsilon.epsilon_statement` (`Coq.Logic.Epsilon`; used by RealMc to give Coq's R the choice structure of a Mathcomp real closed field, for C88).
  No axiom, `Parameter`, section-less `Variable`, functor or module type is declared in the development.

### What is modelled and what is not, per source file

| source (pymc_extras/) | modelled | not modelled |
|---|---|---|
| model/marginal/distributions.py | domains, finite and HMM marginal logp, alignment/reduction of dependent logps, support axes of plain RVs and of MarginalRV, nested marginalization | RNG updates, OpFromGraph plumbing, PyTensor rewriting of logprob graphs |
| model/marginal/graph_analysis.py | ancestor walks, conditional dependents, `_broadcast_dims`, `_advanced_indexing_axis_and_ndim`, the dims analysis for all op classes | inner graphs of MarginalRV / signature-less SymbolicRandomVariable nodes, rng/size inputs of RVs, indices that themselves vary with the marginalized variable in Subtensor |
| model/marginal/marginal_model.py | state machine of marginalize/unmarginalize/clone/from_model/recover_marginals bookkeeping, posterior normalisation and draws | graph compilation, sampling, InferenceData merging |
| model/model_api.py, printing.py | `as_model`, `model_table`, dims/size/params text, truncation | rich rendering, LaTeX |
| model/transforms/autoreparam.py | VIP transforms of Normal/Exponential, `VIP` lambda state | graph replacement, variational fit |
| model_builder.py | config (de)serialisation, id, fit option merging, save/load, data reconstruction | netCDF itself, sampling |
| linearmodel.py | build_model data, _data_setter, predictions of LinearModel through ModelBuilder, get/set_params | PyMC sampling itself |
| statespace/filters/*.py | all filter steps, scans, argument routing, smoother, masked data, logp, sequence distributions | jitter rounding, Numba/JAX back ends, `stabilize` beyond exact arithmetic |
| statespace/core/representation.py | get/set/copy | dtype casts |
| statespace/core/statespace.py | parameter/data registration and substitution (graphs as terms), sample_statespace_matrices, data registration, forecast index and scenario logic, conditional/unconditional sampling scans, IRF | rest of the PyMC model construction, xarray assembly beyond dims/coords lengths |
| statespace/models/*.py | SARIMAX, VARMAX, ETS, all structural components and their sum, labels, stationary initialization of SARIMAX, VARMAX and ETS | plotting, `_exog` of SARIMAX beyond the design matrix |
| statespace/utils/data_tools.py | preprocessing, masking, registration | pandas internals |
| distributions/* | GenExtreme, GeneralizedPoisson, BetaNegativeBinomial parametrisation, Skellam, R2D2M2CP, DiscreteMarkovChain, histogram utilities | Chi, Maxwell |
| gp/latent_approx.py | KL expansion size/cut, ProjectedProcess | eigensolver |
| inference/* | find_MAP, fit, Laplace packing, SMC loop and unpacking, Pathfinder unpacking | BlackJax/optimizer internals, gradient correctness |
| utils/* | prior_from_idata, linear CG, pivoted Cholesky, splines | |

### Assumptions about libraries, as written into the model

* PyTensor: static shapes are right (`wf_graph`); `set_subtensor` updates exactly the indexed entries; a TensorVariable
  indexed with too many indices raises (Repr_Model).
* `scan` iterates in order over the leading axis of its sequences (all statespace models).
* Random generators: draws are functions of a stream of noise values consumed in order (Lgss_Model, Dist_Model, Vip_Model).
* PyMC: `DictToArrayBijection` concatenates ravelled arrays in the order given, `join_nonshared_inputs` uses the same
  order, `unobserved_value_vars` = free value vars, then their back-transforms, then deterministics; value variables
  of transformed variables are called `name_transform__` (Flat_Model, FindMap_Model, Laplace_Model).
* scipy: `multivariate_normal.rvs` drops axes of length one; jax: `.at[i].set` out of range is dropped (Laplace_Model, Smc_Model).
* xarray: coords must have the length of their dimension; alignment of variables is by label (Mb_Model, Laplace_Model).
* LAPACK/eigh/solve are exact on their domain (Kalman_Model, Kl_Model, Pp_Model); floats are exact reals.

### Assumptions of every claimed theorem (`Print Assumptions`)

| property | theorem (file) | assumptions |
|---|---|---|
| C01 | `C01_marginal_logp_is_log_marginal_sum` (MargLogp_Props) | abcf |
| C02 | `C02_hmm_logp_is_log_sum_over_paths` (MargLogp_Props) | abcf |
| C02 | `C02_one_step_chain_has_no_logp` (MargLogp_Props) | abcf |
| C03 | `C03_domain_is_support` (MargLogp_Props) | – |
| C03 | `C03_domain_total` (MargLogp_Props) | – |
| C03 | `C03_unsupported_refused` (MargLogp_Props) | – |
| C03 | `C03_batched_bounds_refused` (MargLogp_Props) | – |
| C04 | `C04_recovered_lp_is_bayes_posterior` (MargLogp_Props) | abcf |
| C04 | `C04_draw_is_domain_value` (MargLogp_Props) | – |
| C05 | `C05_connection_sound_partial` (Dims_Props) | – |
| C05 | `C05_sum_over_first_dim_refuted` (Dims_Props) | – |
| C05 | `C05_unit_dim_broadcast_refuted` (Dims_Props) | – |
| C05 | `C05_array_index_with_slice_refuted` (Dims_Props) | – |
| C05 | `C05_integer_key` (Tight_A) | – |
| C06 | `C06_reduced_logp_aligned_partial` (DimsAlign_Props) | af |
| C06 | `C06_multivariate_aligned_partial` (DimsAlign_Props) | af |
| C06 | `C06_transposition_right_iff_involution` (DimsAlign_Props) | af |
| C06 | `C06_three_cycle_refuted` (DimsAlign_Props) | a |
| C06 | `C06_multivariate_extra_axis_refuted` (DimsAlign_Props) | a |
| C06 | `C06_final_alignment` (DimsAlign_Props) | – |
| C07 | `C07_broadcast_result` (DimsAlign_Props) | – |
| C07 | `C07_broadcast_error_iff` (DimsAlign_Props) | – |
| C07 | `C07_broadcast_error_class` (DimsAlign_Props) | – |
| C08 | `C08_dependents_are_reachable_variables` (CondDep_Props) | – |
| C08 | `C08_inputs_are_first_blockers` (CondDep_Props) | – |
| C09 | `C09_history_keeps_variables_and_dims` (MargState_Props) | – |
| C09 | `C09_unmarginalize_all_restores` (MargState_Props) | – |
| C10 | `C10_rejected_marginalize_changes_model_refuted` (MargState_Props) | – |
| C10 | `C10_final_check_failure_changes_model_refuted` (MargState_Props) | – |
| C10 | `C10_unknown_name_leaves_model_unchanged_partial` (MargState_Props) | – |
| C10 | `C10_first_variable_refused_leaves_model_unchanged_partial` (MargState_Props) | – |
| C10 | `C10_wrong_variable` (Tight_C) | – |
| C100 | `C100_total` (Gev_Moments) | abcf |
| C100 | `C100_outside` (Gev_Moments) | abcf |
| C100 | `C100_mean` (Gev_Moments) | abcf |
| C100 | `C100_variance` (Gev_Moments) | abcf |
| C100 | `C100_infinite_variance` (Gev_Moments) | abcf |
| C100 | `C100_gumbel` (Gev_Moments) | abcf |
| C100 | `C100_constants_exist` (Gev_Moments) | abcf |
| C100 | `C100_small_xi_total` (Gev_Small) | abcf |
| C100 | `C100_small_xi_total_refuted` (Gev_Small) | abcf |
| C100 | `C100_total_shapes` (Gev_Small) | abcf |
| C100 | `C100_moments_shapes` (Gev_Small) | abcf |
| C101 | `C101_accepted` (Dmc_DistProps) | abcf |
| C101 | `C101_draw_length` (Dmc_DistProps) | abcf |
| C101 | `C101_P_kept` (Dmc_DistProps) | abcf |
| C101 | `C101_checks` (Dmc_DistProps) | abcf |
| C101 | `C101_logits_normalised` (Dmc_DistProps) | abcf |
| C101 | `C101_accepted_total` (Dmc_DistProps) | abcf |
| C101 | `C101_negative_entries_refuted` (Dmc_DistProps) | abcf |
| C101 | `C101_default_initial` (Dmc_DistProps) | abcf |
| C102 | `C102_converted` (Extract_Props) | a |
| C102 | `C102_accepted` (Extract_Props) | a |
| C102 | `C102_complete` (Extract_Props) | a |
| C102 | `C102_covariance_refuted` (Extract_Props) | a |
| C103 | `C103_draws` (SeqMvn_Props) | f |
| C103 | `C103_short_covariances` (SeqMvn_Props) | – |
| C103 | `C103_logp_partial` (SeqMvn_Props) | – |
| C103 | `C103_logp_batched_refuted` (SeqMvn_Props) | – |
| C103 | `C103_logp_shape_unchecked_refuted` (SeqMvn_Props) | – |
| C104 | `C104_simulation` (Compile_Props) | – |
| C104 | `C104_keywords` (Compile_Props) | – |
| C104 | `C104_P0_parameters_refuted` (Compile_Props) | – |
| C104 | `C104_default_steps_refuted` (Compile_Props) | – |
| C104 | `C104_axes_refuted` (Compile_Props) | – |
| C105 | `C105_standardized` (Scaler_Props) | abf |
| C105 | `C105_transform_uses_training_moments` (Scaler_Props) | abf |
| C105 | `C105_unit_free` (Scaler_Props) | abf |
| C105 | `C105_options` (Scaler_Props) | abf |
| C105 | `C105_not_fitted` (Scaler_Props) | – |
| C105 | `C105_fit_transform` (Scaler_Props) | abf |
| C106 | `C106_filter_choice` (Filt_Props) | – |
| C106 | `C106_documented_refuted` (Filt_Props) | – |
| C106 | `C106_documented_exact` (Filt_Props) | – |
| C106 | `C106_group` (Filt_Props) | – |
| C106 | `C106_missing_group` (Tight_J) | – |
| C107 | `C107_state_basis` (Equiv_Props) | – |
| C107 | `C107_state_basis_univariate` (Equiv_Props) | – |
| C107 | `C107_state_basis_smoother` (Equiv_Props) | – |
| C107 | `C107_series_order` (Equiv_Props) | – |
| C107 | `C107_series_order_univariate_step` (Equiv_Uni) | – |
| C107 | `C107_series_order_univariate` (Equiv_Uni) | – |
| C107 | `C107_component_order` (Equiv_Props) | – |
| C107 | `C107_series_order_refuted` (Equiv_Off) | – |
| C107 | `C107_series_order_univariate_loglike` (Equiv_UniLL) | – |
| C107 | `C107_series_order_univariate_noisy` (Equiv_UniLL) | – |
| C107 | `C107_series_order_smoother` (Equiv_Smooth) | – |
| C107 | `C107_series_order_univariate_smoother` (Equiv_Smooth) | – |
| C11 | `C11_functional_marginalize_changes_argument_refuted` (MargState_Props) | – |
| C11 | `C11_recover_marginals_changes_model_refuted` (MargState_Props) | – |
| C11 | `C11_other_dims_survive_partial` (MargState_Props) | – |
| C12 | `C12_unknown_names_ignored_refuted` (MargState_Props) | – |
| C12 | `C12_only_unknown_names_refuted` (MargState_Props) | – |
| C13 | `C13_unmarginalize_by_name_always_fails_refuted` (MargState_Props) | – |
| C13 | `C13_unmarginalize_by_variable_partial` (MargState_Props) | – |
| C14 | `C14_covariances_psd_partial` (Kalman_Props) | – |
| C14 | `C14_diagonal_noise_decoupled` (Kalman_Props) | – |
| C14 | `C14_full_rows_decoupled` (Kalman_Props) | – |
| C14 | `C14_correlated_noise_refuted` (Kalman_Props) | – |
| C15 | `C15_update_is_the_conditional` (Kalman_Props) | – |
| C15 | `C15_information_form` (Kalman_Props) | – |
| C15 | `C15_joint_density_factorises` (Kalman_Props) | – |
| C15 | `C15_minimum_variance` (Kalman_Props) | – |
| C15 | `C15_every_step_of_a_run` (Kalman_Props) | – |
| C16 | `C16_filter_outputs_aligned` (KalmanScan_Props) | – |
| C16 | `C16_empty_data_rejected` (KalmanScan_Props) | – |
| C17 | `C17_time_varying_matrices_reach_their_slots` (KalmanScan_Props) | – |
| C17 | `C17_smoother_matrices_reach_their_slots` (KalmanScan_Props) | – |
| C17 | `C17_univariate_static` (KalmanScan_Props) | – |
| C17 | `C17_univariate_filter_refuted` (KalmanScan_Props) | – |
| C18 | `C18_standard_loglike_partial` (Kalman_Props2) | – |
| C18 | `C18_standard_one_series` (Kalman_Props2) | – |
| C18 | `C18_standard_refuted` (Kalman_Props2) | – |
| C18 | `C18_sqrt_one_series` (Kalman_Props2) | – |
| C18 | `C18_sqrt_refuted` (Kalman_Props2) | – |
| C18 | `C18_sqrt_quadratic_term_refuted` (Kalman_Props2) | – |
| C18 | `C18_univariate_loglike_partial` (Kalman_Props2) | – |
| C18 | `C18_univariate_refuted` (Kalman_Props2) | – |
| C19 | `C19_all_missing_standard` (Kalman_Props2) | – |
| C19 | `C19_all_missing_sqrt` (Kalman_Props2) | – |
| C19 | `C19_observed_rows_only_partial` (Kalman_Props2) | – |
| C19 | `C19_partial_missing_loglike_refuted` (Kalman_Props2) | – |
| C19 | `C19_univariate_ignores_nan` (Kalman_Props2) | – |
| C19 | `C19_obs_index_lists_the_observed_series` (Kalman_Props2) | – |
| C19 | `C19_univariate_fill_value_refuted` (Kalman_Props2) | – |
| C19 | `C19_missing_slots_ignored_rounding` (Tight_G) | – |
| C19 | `C19_missing_step_logp_rounding` (Tight_G) | – |
| C19 | `C19_univariate_missing_slots_ignored_rounding` (Tight_G) | – |
| C19 | `C19_univariate_missing_step_logp_rounding` (Tight_G) | – |
| C20 | `C20_univariate_equals_joint` (Kalman_Props2) | – |
| C20 | `C20_jitter_difference` (Kalman_Props2) | – |
| C20 | `C20_loglike_refuted` (Kalman_Props2) | – |
| C21 | `C21_smoother_alignment_partial` (KalmanScan_Props) | – |
| C21 | `C21_time_varying_matrices_off_by_one` (KalmanScan_Props) | – |
| C21 | `C21_time_varying_refuted` (KalmanScan_Props) | – |
| C21 | `C21_rts_step_partial` (Kalman_Props3) | – |
| C21 | `C21_rts_step_jitter` (Kalman_Props3) | – |
| C21 | `C21_intercept_ignored` (Kalman_Props3) | – |
| C21 | `C21_intercept_refuted` (Kalman_Props3) | – |
| C22 | `C22_differencing_identity` (Sarima_Props) | – |
| C22 | `C22_design_size` (Tight_C) | – |
| C23 | `C23_ar_column_is_product_polynomial` (Sarima_Props) | – |
| C23 | `C23_ma_column_is_product_polynomial` (Sarima_Props) | – |
| C23 | `C23_state_long_enough` (Sarima_Props) | – |
| C23 | `C23_orders_rejected_iff_lags_overlap` (Sarima_Props) | – |
| C23 | `C23_season_length_zero_accepted` (Sarima_Props) | – |
| C24 | `C24_sarima_equation` (Sarima_Props) | – |
| C24 | `C24_interpretable_equation` (Sarima_Props) | – |
| C24 | `C24_interpretable_states` (Sarima_Props) | – |
| C25 | `C25_structural_labels_partial` (Struct_Props) | abf |
| C25 | `C25_trend_state_names_refuted` (Struct_Props) | a |
| C25 | `C25_cycle_shock_names_refuted` (Struct_Props) | abf |
| C25 | `C25_ar_param_shape_refuted` (Struct_Props) | a |
| C25 | `C25_regression_param_shape_refuted` (Struct_Props) | a |
| C25 | `C25_varmax_labels` (Multi_Props) | a |
| C25 | `C25_varmax_param_shape_partial` (Multi_Props) | – |
| C25 | `C25_varmax_sigma_obs_shape_refuted` (Multi_Props) | – |
| C25 | `C25_ets_labels` (Multi_Props) | af |
| C25 | `C25_ets_param_shape` (Multi_Props) | – |
| C25 | `C25_ets_seasonal_shape_refuted` (Multi_Props) | – |
| C25 | `C25_sarima_labels` (Multi_Props) | – |
| C25 | `C25_sarima_interpretable_labels_partial` (Multi_Props) | – |
| C25 | `C25_sarima_interpretable_labels_refuted` (Multi_Props) | – |
| C25 | `C25_varmax_default_names` (Tight_B) | – |
| C25 | `C25_ets_seasonal_shape` (Tight_H) | – |
| C25 | `C25_trend_labels` (Tight_J) | a |
| C25 | `C25_ets_shock_labels` (Tight_J) | – |
| C25 | `C25_ets_shock_labels_distinct` (Tight_J) | – |
| C26 | `C26_varma_equation` (Multi_Props) | af |
| C26 | `C26_varma_start` (Multi_Props) | af |
| C26 | `C26_varma_accepted` (Multi_Props) | a |
| C27 | `C27_ets_recursions` (Multi_Props) | af |
| C27 | `C27_ets_accepted` (Multi_Props) | af |
| C27 | `C27_docstring_damped_refuted` (Multi_Props) | af |
| C27 | `C27_docstring_holt_winters_refuted` (Multi_Props) | af |
| C27 | `C27_damped_without_trend_refuted` (Multi_Props) | af |
| C27 | `C27_string_name_refuted` (Multi_Props) | – |
| C28 | `C28_season_pattern` (Struct_Props) | af |
| C28 | `C28_season_period` (Struct_Props) | af |
| C28 | `C28_season_sums_to_zero` (Struct_Props) | af |
| C28 | `C28_season_recursion` (Struct_Props) | af |
| C28 | `C28_season_accepted` (Struct_Props) | a |
| C28 | `C28_pop_state_option_refuted` (Struct_Props) | a |
| C29 | `C29_frequency_pattern` (Struct_Props) | abf |
| C29 | `C29_frequency_period` (Struct_Props) | abf |
| C29 | `C29_dropped_state_irrelevant` (Struct_Props) | abf |
| C29 | `C29_frequency_equations` (Struct_Props) | abf |
| C29 | `C29_cycle_equations` (Struct_Props) | abf |
| C29 | `C29_cycle_amplitude` (Struct_Props) | abf |
| C29 | `C29_cycle_period` (Struct_Props) | abf |
| C29 | `C29_accepted` (Struct_Props) | abf |
| C30 | `C30_trend_equations_partial` (Struct_Props) | af |
| C30 | `C30_order_3_refuted` (Struct_Props) | af |
| C30 | `C30_trend_actual` (Struct_Props) | af |
| C30 | `C30_linear_trend` (Struct_Props) | af |
| C31 | `C31_ar_equation` (Struct_Props) | af |
| C31 | `C31_ar_noise` (Struct_Props) | af |
| C32 | `C32_superposition` (Struct_Props) | af |
| C32 | `C32_states` (Struct_Props) | af |
| C32 | `C32_noise` (Struct_Props) | af |
| C32 | `C32_associative` (Struct_Props) | af |
| C32 | `C32_duplicate_names_rejected` (Struct_Props) | abf |
| C33 | `C33_own_placeholders_partial` (Struct_Props) | abf |
| C33 | `C33_two_autoregressions_refuted` (Struct_Props) | af |
| C33 | `C33_two_trends_refuted` (Struct_Props) | af |
| C33 | `C33_second_build_refuted` (Struct_Props) | a |
| C33 | `C33_build_keeps_matrices` (Struct_Props) | a |
| C33 | `C33_regression_coords_refuted` (Struct_Props) | a |
| C33 | `C33_initial_covariance` (Struct_Noise) | abf |
| C33 | `C33_measurement_error_flag` (Tight_E) | abf |
| C34 | `C34_slices_partition` (Struct_Props) | abf |
| C34 | `C34_sum_of_extractions` (Struct_Props) | abf |
| C34 | `C34_combined_component` (Struct_Props) | abf |
| C34 | `C34_separate_component` (Struct_Props) | abf |
| C34 | `C34_mislabelled_column_refuted` (Struct_Props) | a |
| C34 | `C34_statespace_name_refuted` (Struct_Props) | a |
| C34 | `C34_cleanup_labels` (Tight_I) | – |
| C35 | `C35_horizon_sound` (Fcst_Props) | – |
| C35 | `C35_periods` (Fcst_Props) | – |
| C35 | `C35_end_date` (Fcst_Props) | – |
| C35 | `C35_end_integer_excluded_refuted` (Fcst_Props) | – |
| C35 | `C35_initial_state` (Fcst_Props) | – |
| C35 | `C35_periods_xor_end` (Fcst_Props) | – |
| C35 | `C35_quiet_default_start_refuted` (Fcst_Props) | – |
| C35 | `C35_scenario_index_alone_refuted` (Fcst_Props) | – |
| C35 | `C35_scenario_index` (Fcst_Props) | – |
| C35 | `C35_scenario_needs_index` (Fcst_More) | – |
| C35 | `C35_array_first_scenario_refuted` (Fcst_More) | – |
| C36 | `C36_columns_checked` (Fcst_Props) | – |
| C36 | `C36_array_width` (Fcst_Props) | – |
| C36 | `C36_same_order_partial` (Fcst_Props) | – |
| C36 | `C36_order_refuted` (Fcst_Props) | – |
| C36 | `C36_unknown_variable` (Fcst_Props) | – |
| C36 | `C36_missing_variable` (Fcst_Props) | – |
| C36 | `C36_values_cover_forecast` (Fcst_Props) | – |
| C36 | `C36_caller_modified_refuted` (Fcst_Props) | – |
| C36 | `C36_consistent` (Fcst_Props) | – |
| C37 | `C37_trajectory_partial` (Lgss_Props) | – |
| C37 | `C37_observation_equation` (Lgss_Props) | – |
| C37 | `C37_first_observation_without_intercept_refuted` (Lgss_Props) | – |
| C37 | `C37_design_off_by_one_refuted` (Lgss_Props) | – |
| C37 | `C37_requested_length` (Lgss_Props) | – |
| C37 | `C37_data_length` (Lgss_Props) | – |
| C37 | `C37_data_steps_refuted` (Lgss_Props) | – |
| C37 | `C37_forecast_first_step` (Lgss_Props) | – |
| C37 | `C37_initial_noise_shared_refuted` (Lgss_Props) | – |
| C38 | `C38_trajectory_convolution` (Lgss_Props) | – |
| C38 | `C38_single_shock` (Lgss_Props) | – |
| C38 | `C38_covariance_shock` (Lgss_Props) | – |
| C38 | `C38_exclusive` (Lgss_Props) | – |
| C38 | `C38_compile_kwargs_refuted` (Lgss_Props) | – |
| C38 | `C38_orthogonalized_covariance_refuted` (Lgss_Props) | – |
| C39 | `C39_whole` (Repr_Props) | – |
| C39 | `C39_wf_init` (Repr_Props) | – |
| C39 | `C39_others_unchanged` (Repr_Props) | – |
| C39 | `C39_rejected_partial` (Repr_Props) | – |
| C39 | `C39_rejected_ndim` (Repr_Props) | – |
| C39 | `C39_rejected_whole_refuted` (Repr_Props) | – |
| C39 | `C39_partial` (Repr_Props) | – |
| C39 | `C39_partial_accepts` (Repr_Props) | – |
| C39 | `C39_readback` (Repr_Props) | – |
| C39 | `C39_ints_only_refuted` (Repr_Props) | – |
| C39 | `C39_read_never_refuted` (Repr_Props) | – |
| C39 | `C39_tensor_unit_refuted` (Repr_Props) | – |
| C39 | `C39_tensor_then_part_refuted` (Repr_Props) | – |
| C39 | `C39_copies_read` (Repr_Props) | – |
| C39 | `C39_copies_write_refuted` (Repr_Props) | – |
| C39 | `C39_init_time_varying_refuted` (Repr_Props) | – |
| C39 | `C39_init_tensor` (Tight_F) | – |
| C40 | `C40_missing_exactly_nan` (Data_Props) | – |
| C40 | `C40_collision` (Data_Props) | – |
| C40 | `C40_no_nan_collision_refuted` (Data_Props) | – |
| C40 | `C40_infinite_refuted` (Data_Props) | – |
| C40 | `C40_conditional_agrees` (Data_Props) | – |
| C40 | `C40_marker_forgotten_refuted` (Data_Props) | – |
| C40 | `C40_mask` (Data_Props) | – |
| C40 | `C40_infinite_marker` (Tight_A) | – |
| C40 | `C40_nan_marker` (Tight_A) | – |
| C41 | `C41_reloaded_iff` (Mb_Props) | – |
| C41 | `C41_roundtrip_partial` (Mb_Props) | – |
| C41 | `C41_other_values_refuted` (Mb_Props) | – |
| C41 | `C41_rejected_refuted` (Mb_Props) | – |
| C42 | `C42_text_partial` (Mb_Props) | – |
| C42 | `C42_names_ignored_refuted` (Mb_Props) | – |
| C42 | `C42_version_type_refuted` (Mb_Props) | – |
| C43 | `C43_precedence_partial` (Mb_Props) | – |
| C43 | `C43_config_unchanged` (Mb_Props) | – |
| C43 | `C43_stored_seed_refuted` (Mb_Props) | – |
| C44 | `C44_contiguous` (Prior_Props) | – |
| C44 | `C44_roundtrip` (Prior_Props) | – |
| C44 | `C44_mean` (Prior_Props) | – |
| C45 | `C45_precedence` (Prior_Props) | – |
| C45 | `C45_configuration` (Prior_Props) | – |
| C45 | `C45_unknown_variable` (Prior_Props) | – |
| C45 | `C45_result_partial` (Prior_Props) | – |
| C45 | `C45_name_clash` (Prior_Props) | – |
| C45 | `C45_idata_refuted` (Prior_Props) | – |
| C45 | `C45_affine` (Tight_I) | af |
| C45 | `C45_moments` (Tight_I) | af |
| C46 | `C46_discrete` (Hist_Props) | – |
| C46 | `C46_discrete_data` (Hist_Props) | – |
| C46 | `C46_discrete_potential` (Hist_Props) | af |
| C46 | `C46_min_count_partial` (Hist_Props) | – |
| C46 | `C46_min_count_exact_partial` (Hist_Props) | – |
| C46 | `C46_min_count_refuted` (Hist_Props) | – |
| C46 | `C46_quantile_total` (Hist_Props) | – |
| C46 | `C46_quantile_bins` (Hist_Props) | – |
| C46 | `C46_quantile_error` (Hist_Error) | af |
| C46 | `C46_zero_inflation_partial` (Hist_Props) | – |
| C46 | `C46_zero_inflation_refuted` (Hist_Props) | – |
| C46 | `C46_one_quantile_refuted` (Hist_Props) | – |
| C47 | `C47_normal` (Vip_Props) | abcf |
| C47 | `C47_exponential` (Vip_Props) | abcf |
| C47 | `C47_ends` (Vip_Props) | abcf |
| C47 | `C47_normal_density` (Vip_Props) | abcf |
| C47 | `C47_exponential_density` (Vip_Props) | abcf |
| C47 | `C47_model` (Vip_Props) | abcf |
| C47 | `C47_other_kinds` (Vip_Props) | abcf |
| C47 | `C47_positive_transform` (Vip_More) | abcf |
| C47 | `C47_interval_transform_refuted` (Vip_More) | abcf |
| C48 | `C48_set` (Vip_Props) | abcf |
| C48 | `C48_set_accepted` (Vip_Props) | abcf |
| C48 | `C48_named_only` (Vip_Props) | abcf |
| C48 | `C48_shapes_kept` (Vip_Props) | abcf |
| C48 | `C48_truncate` (Vip_Props) | abcf |
| C48 | `C48_idempotent` (Vip_Props) | abcf |
| C48 | `C48_set_all` (Vip_Props) | abcf |
| C48 | `C48_set_all_accepted` (Vip_Props) | abcf |
| C48 | `C48_truncate_all` (Vip_Props) | abcf |
| C48 | `C48_boundary_refuted` (Vip_Props) | abcf |
| C48 | `C48_outside_refuted` (Vip_Props) | abcf |
| C48 | `C48_initial` (Vip_More) | abf |
| C48 | `C48_unsized_refuted` (Vip_More) | abcf |
| C49 | `C49_resolution` (FindMap_Props) | – |
| C49 | `C49_unknown_method` (FindMap_Props) | – |
| C49 | `C49_never_both` (FindMap_Props) | – |
| C49 | `C49_defaults` (FindMap_Props) | – |
| C49 | `C49_accepts` (FindMap_Props) | – |
| C49 | `C49_functions` (FindMap_Props) | – |
| C49 | `C49_find_MAP_consistent` (FindMap_Props) | – |
| C49 | `C49_defaults_accepted` (FindMap_Props) | – |
| C49 | `C49_explicit_hess_refuted` (FindMap_Props) | – |
| C50 | `C50_dispatch_partial` (FindMap_Props) | – |
| C50 | `C50_unknown_method` (FindMap_Props) | – |
| C50 | `C50_refuted` (FindMap_Props) | – |
| C51 | `C51_loop` (Smc_Props) | – |
| C51 | `C51_deterministic` (Smc_Props) | – |
| C51 | `C51_attributes` (Smc_Props) | – |
| C51 | `C51_attributes_diagnosis` (Smc_Props) | – |
| C51 | `C51_warning_refuted` (Smc_Props) | – |
| C51 | `C51_kernel` (Smc_Props) | – |
| C52 | `C52_smc_particles` (Smc_Props) | – |
| C52 | `C52_smc_population` (Smc_Props) | – |
| C52 | `C52_smc_unit_refused` (Smc_Props) | – |
| C52 | `C52_smc_dimensions` (Smc_Props) | – |
| C52 | `C52_pathfinder` (Pathf_Props) | – |
| C52 | `C52_laplace_constrained` (Laplace_Props) | – |
| C52 | `C52_laplace_unconstrained` (Laplace_Props) | – |
| C52 | `C52_laplace_hessian_partial` (Laplace_Props) | – |
| C52 | `C52_laplace_hessian_refuted` (Laplace_Props) | – |
| C52 | `C52_laplace_single_refused` (Laplace_Props) | – |
| C52 | `C52_laplace_context_refused` (Laplace_Props) | – |
| C52 | `C52_laplace_no_dims_refused` (Laplace_Props) | – |
| C52 | `C52_smc_logp_arguments` (Tight_I) | – |
| C52 | `C52_smc_unit_arguments_refuted` (Tight_I) | – |
| C53 | `C53_logp_is_chain_probability` (Dmc_Props) | abcf |
| C53 | `C53_sampler_matches_logp` (Dmc_Props) | abcf |
| C53 | `C53_probabilities_sum_to_one` (Dmc_Props) | abcf |
| C53 | `C53_shared_P_shape` (Dmc_Props) | – |
| C53 | `C53_outside_support_refuted` (Dmc_Props) | abcf |
| C53 | `C53_batched_P_refuted` (Dmc_Props) | – |
| C53 | `C53_negative_state_refuted` (Dmc_Props) | abcf |
| C54 | `C54_parameters_checked` (Dist_Gev) | abcf |
| C54 | `C54_logp_support` (Dist_Gev) | abcf |
| C54 | `C54_logcdf_increasing` (Dist_Gev) | abcf |
| C54 | `C54_logcdf_below` (Dist_Gev) | abcf |
| C54 | `C54_logcdf_above_refuted` (Dist_Gev) | abcf |
| C54 | `C54_density_is_derivative_of_cdf` (Dist_Gev) | abcf |
| C54 | `C54_cdf_onto` (Dist_Gev) | abcf |
| C54 | `C54_support_point_is_mode` (Dist_Gev) | abcf |
| C54 | `C54_scipy_sign` (Dist_Gev) | a |
| C54 | `C54_small_xi_range` (Gev_Small) | abcf |
| C54 | `C54_cdf_onto_shapes` (Gev_Small) | abcf |
| C55 | `C55_second_moment` (Dist_Props) | abf |
| C55 | `C55_sign_probability` (Dist_Props) | abf |
| C55 | `C55_certain_sign` (Dist_Props) | abf |
| C55 | `C55_mask` (Dist_Props) | af |
| C55 | `C55_variance_split` (Dist_Props) | abf |
| C55 | `C55_explained_total` (Dist_Props) | af |
| C55 | `C55_phi_with_importance` (Dist_Props) | a |
| C55 | `C55_phi_with_concentration` (Dist_Props) | a |
| C55 | `C55_default_total_refuted` (Dist_Props) | af |
| C55 | `C55_phi_errors` (Dist_Props) | a |
| C55 | `C55_centered_agrees` (Dist_Props) | abf |
| C55 | `C55_phi_dirichlet_parameters` (Dist_Props) | af |
| C56 | `C56_residual_invariant` (Cg_Props) | af |
| C56 | `C56_solution` (Cg_Props) | abf |
| C56 | `C56_error_never_grows` (Cg_Props) | af |
| C56 | `C56_terminate_by_size_refuted` (Cg_Props) | abf |
| C56 | `C56_preconditioner_refuted` (Cg_Props) | abf |
| C56 | `C56_zero_rhs_stops_early` (Cg_Props) | abf |
| C56 | `C56_zero_rhs_accepted` (Cg_Props) | abf |
| C56 | `C56_zero_rhs_refuted` (Cg_Props) | abf |
| C56 | `C56_vector_rhs_refuted` (Cg_Props) | abf |
| C57 | `C57_factorization` (Pchol_Props) | abf |
| C57 | `C57_complete` (Pchol_Props) | abf |
| C57 | `C57_greedy_pivots` (Pchol_Props) | abf |
| C57 | `C57_default_max_iter_refuted` (Pchol_Props) | – |
| C57 | `C57_accepts` (Pchol_Props) | abf |
| C58 | `C58_requested_number` (Kl_Props) | abf |
| C58 | `C58_other_numbers` (Kl_Props) | abf |
| C58 | `C58_variance_limit_refuted` (Kl_Props) | abf |
| C58 | `C58_dominant_eigenvalue_refuted` (Kl_Props) | abf |
| C58 | `C58_variance_limit_one_refuted` (Kl_Props) | abf |
| C58 | `C58_prior_covariance` (Kl_Props) | abf |
| C58 | `C58_all_kept` (Kl_Props) | a |
| C58 | `C58_conditional_interpolates` (Kl_Props) | abf |
| C58 | `C58_mean_ignored_refuted` (Kl_Props) | abf |
| C59 | `C59_first_call` (Api_Props) | – |
| C59 | `C59_no_decorator_coords` (Api_Props) | – |
| C59 | `C59_later_calls_refuted` (Api_Props) | – |
| C60 | `C60_truncation` (Api_Props) | – |
| C60 | `C60_ellipsis_iff_dropped` (Api_Props) | – |
| C60 | `C60_length` (Api_Props) | – |
| C60 | `C60_first_too_long` (Api_Props) | – |
| C60 | `C60_dims` (Api_Props) | – |
| C60 | `C60_rows` (Api_Props) | – |
| C60 | `C60_random_marker` (Api_Props) | – |
| C60 | `C60_count` (Api_Props) | – |
| C60 | `C60_count_value` (Api_Props) | – |
| C60 | `C60_shorter_refuted` (Api_Props) | – |
| C60 | `C60_unnamed_axis_refuted` (Api_Props) | – |
| C60 | `C60_repeated_dim_refuted` (Api_Props) | – |
| C61 | `C61_roundtrip_loses_initval_refuted` (MargState_Props) | – |
| C62 | `C62_sqrt_filter_moments_partial` (Kalman_Props3) | – |
| C62 | `C62_initial_covariance_squared_refuted` (Kalman_Props3) | – |
| C62 | `C62_jitter_on_factor_refuted` (Kalman_Props3) | – |
| C62 | `C62_small_jitter` (Joint_JitterSqrt) | – |
| C63 | `C63_smoothed_covariances_psd` (Kalman_Props3) | – |
| C63 | `C63_filter_then_smooth` (Kalman_Props3) | – |
| C64 | `C64_stationary_initialization_iff` (Sarima_Props) | – |
| C64 | `C64_differenced_refuted` (Sarima_Props) | – |
| C65 | `C65_regression_equation` (Struct_Noise) | af |
| C65 | `C65_regression_constant` (Struct_Noise) | af |
| C65 | `C65_regression_accepted` (Struct_Noise) | a |
| C65 | `C65_regression_count` (Struct_Noise) | a |
| C65 | `C65_default_names` (Tight_B) | – |
| C66 | `C66_trend_noise` (Struct_Noise) | af |
| C66 | `C66_season_noise` (Struct_Noise) | af |
| C66 | `C66_frequency_noise` (Struct_Noise) | abf |
| C66 | `C66_cycle_noise` (Struct_Noise) | abf |
| C66 | `C66_regression_noise` (Struct_Noise) | af |
| C66 | `C66_measurement_noise` (Struct_Noise) | af |
| C66 | `C66_no_other_measurement_noise` (Struct_Noise) | abf |
| C66 | `C66_no_intercepts` (Struct_Noise) | abf |
| C67 | `C67_ets_noise` (Multi_Props) | af |
| C67 | `C67_varmax_no_noise` (Multi_Props) | a |
| C67 | `C67_varmax_noise_is_not_squared` (Multi_Props) | a |
| C67 | `C67_varmax_noise_refuted` (Multi_Props) | af |
| C68 | `C68_support_point_partial` (Dmc_Props) | – |
| C68 | `C68_support_point_length` (Dmc_Props) | – |
| C68 | `C68_support_point_refuted` (Dmc_Props) | af |
| C69 | `C69_gibbs_coordinates` (Dmc_Props) | – |
| C69 | `C69_gibbs_order` (Dmc_Props) | – |
| C70 | `C70_parameters_checked` (Dist_Props) | abcf |
| C70 | `C70_logp_is_pmf` (Dist_Props) | abcf |
| C70 | `C70_logp_outside` (Dist_Props) | abcf |
| C70 | `C70_logp_boundary` (Dist_Props) | abcf |
| C70 | `C70_poisson` (Dist_Props) | abcf |
| C70 | `C70_poisson_total` (Dist_Props) | abcf |
| C71 | `C71_inverse_sampler` (Dist_Props) | abcf |
| C71 | `C71_inverse_terminates` (Dist_Props) | abcf |
| C72 | `C72_logp_at_zero` (Dist_Props) | abcf |
| C72 | `C72_documented_at_zero` (Dist_Props) | abcf |
| C72 | `C72_draws_refuted` (Dist_Props) | abcf |
| C73 | `C73_inducing_points` (Kl_Props) | – |
| C73 | `C73_prior` (Pp_Props) | – |
| C73 | `C73_inducing_values` (Pp_Props) | – |
| C73 | `C73_prior_covariance` (Pp_Props) | – |
| C73 | `C73_conditional_mean` (Pp_Props) | – |
| C73 | `C73_conditional_covariance` (Pp_Props) | – |
| C73 | `C73_certain_at_inducing_points` (Pp_Props) | – |
| C74 | `C74_accepted` (Data_Props) | – |
| C74 | `C74_time` (Data_Props) | – |
| C74 | `C74_columns_ignored_refuted` (Data_Props) | – |
| C74 | `C74_registered` (Tight_H) | – |
| C75 | `C75_conditional_partial` (Lgss_Props) | – |
| C75 | `C75_observed_intercept_refuted` (Lgss_Props) | – |
| C76 | `C76_same_labels_partial` (Mb_Props) | – |
| C76 | `C76_labels_matched_refuted` (Mb_Props) | – |
| C76 | `C76_duplicate_labels_refuted` (Tight_F) | – |
| C76 | `C76_distinct_labels` (Tight_F) | – |
| C77 | `C77_find_MAP` (FindMap_Props) | – |
| C77 | `C77_discrete_refused` (FindMap_Props) | – |
| C77 | `C77_hidden_names` (Tight_A) | – |
| C77 | `C77_transformed_hidden` (Tight_A) | – |
| C78 | `C78_fit_rows` (Laplace_Props) | – |
| C79 | `C79_arguments` (Spline_Props) | af |
| C79 | `C79_error_kind` (Spline_Props) | af |
| C79 | `C79_weights` (Spline_Props) | af |
| C79 | `C79_range_and_ends` (Spline_Props) | af |
| C79 | `C79_degree_one_interpolates` (Spline_Props) | af |
| C79 | `C79_interpolation_refuted` (Spline_Props) | af |
| C79 | `C79_monotone_in_data` (Spline_More) | af |
| C79 | `C79_no_amplification` (Spline_More) | af |
| C79 | `C79_affine` (Spline_More) | af |
| C80 | `C80_register` (Build_Props) | – |
| C80 | `C80_substitution` (Build_Props) | – |
| C80 | `C80_success` (Build_Props) | – |
| C80 | `C80_missing_parameter` (Build_Props) | – |
| C80 | `C80_rebuild` (Build_Props) | – |
| C80 | `C80_extra_variables_refuted` (Build_Props) | – |
| C80 | `C80_named_model_refuted` (Build_Props) | – |
| C80 | `C80_missing_data_refuted` (Build_Props) | – |
| C81 | `C81_matrices` (BuildMatrices_Props) | – |
| C81 | `C81_default_refuted` (BuildMatrices_Props) | – |
| C81 | `C81_time_varying_refuted` (BuildMatrices_Props) | – |
| C81 | `C81_bad_names` (BuildMatrices_Props) | – |
| C82 | `C82_predict` (Linear_Props) | af |
| C82 | `C82_mean_line` (Linear_Props) | af |
| C82 | `C82_predict_posterior` (Linear_Props) | a |
| C82 | `C82_history` (Linear_Props) | af |
| C82 | `C82_extend_off` (Linear_Props) | af |
| C82 | `C82_fit` (Linear_Props) | a |
| C82 | `C82_single_row_refuted` (Linear_Props) | af |
| C82 | `C82_row_as_column_refuted` (Linear_Props) | af |
| C82 | `C82_two_columns` (Linear_Props) | af |
| C82 | `C82_prior_overwrites_data_refuted` (Linear_Props) | a |
| C82 | `C82_params` (Linear_Props) | – |
| C82 | `C82_set_params_refuted` (Linear_Props) | – |
| C83 | `C83_logp` (Skellam_Props) | abcf |
| C83 | `C83_total_mass` (Skellam_Props) | abf |
| C83 | `C83_invalid` (Skellam_Props) | abcf |
| C83 | `C83_zero_rate_refuted` (Skellam_Props) | abcf |
| C83 | `C83_draws` (Skellam_Props) | – |
| C84 | `C84_joint` (Nested_Props) | abcf |
| C84 | `C84_support_axes_finite` (Nested_Props) | – |
| C84 | `C84_summed_axis_refused` (Nested_Props) | – |
| C84 | `C84_support_axes_chain_refuted` (Nested_Props) | – |
| C84 | `C84_first_dependent_unconnected_refuted` (Nested_Props) | abcf |
| C84 | `C84_chain_refuted` (Nested_Props) | abcf |
| C84 | `C84_joint_nested` (Nested_Tree) | abcf |
| C84 | `C84_chain_over_nests` (Nested_Tree) | abcf |
| C85 | `C85_inverse_hessian_partial` (LapCov_Props) | – |
| C85 | `C85_always_covariance` (LapCov_Props) | – |
| C85 | `C85_error` (LapCov_Props) | – |
| C85 | `C85_otherwise` (LapCov_Props) | – |
| C85 | `C85_nearest_frobenius` (LapCov_Props) | – |
| C85 | `C85_nearest_distinct` (LapCov_Props) | – |
| C85 | `C85_small_curvature_refuted` (LapCov_Props) | – |
| C85 | `C85_singular_error_refuted` (LapCov_Props) | – |
| C85 | `C85_l1_refuted` (LapCov_Props) | – |
| C85 | `C85_repeated_refuted` (LapCov_Props) | – |
| C86 | `C86_marginal_density` (Elim_Props) | abcf |
| C86 | `C86_marginal_density_exact` (Elim_Props) | abcf |
| C86 | `C86_accepted` (Elim_Props) | abcf |
| C86 | `C86_accepts` (Elim_Props) | abcf |
| C86 | `C86_one_variable_order` (Elim_Props) | abcf |
| C86 | `C86_refusal_refuted` (Elim_Props) | abcf |
| C86 | `C86_cycle_refuted` (Elim_Props) | abcf |
| C86 | `C86_potential_refuted` (Elim_Props) | abcf |
| C87 | `C87_mean` (Fdraw_Props) | – |
| C87 | `C87_covariance_partial` (Fdraw_Props) | – |
| C87 | `C87_covariance_refuted` (Fdraw_Props) | – |
| C87 | `C87_data_matrices_refuted` (Fdraw_Props) | – |
| C87 | `C87_filter_output_rejected` (Fdraw_Props) | – |
| C87 | `C87_filter_output_case_refuted` (Fdraw_Props) | – |
| C88 | `C88_moments_constant` (Stat_Props) | – |
| C88 | `C88_defined` (Stat_Props) | abef |
| C88 | `C88_limit` (Stat_Props) | abef |
| C88 | `C88_sarima_fast` (Stat_Props) | abef |
| C88 | `C88_sarima_interpretable` (Stat_Props) | abef |
| C88 | `C88_small_coefficients` (Stat_Props) | abef |
| C88 | `C88_sarima` (Stat_Props) | abef |
| C88 | `C88_varmax` (StatMulti_Props) | abef |
| C88 | `C88_varmax_init` (StatMulti_Props) | abef |
| C88 | `C88_var_small` (StatMulti_Props) | abef |
| C88 | `C88_ets` (StatMulti_Props) | abef |
| C88 | `C88_ets_init` (StatMulti_Props) | abef |
| C88 | `C88_differenced_refuted` (Stat_Props) | aef |
| C88 | `C88_unit_root_refuted` (Stat_Props) | abef |
| C88 | `C88_ets_damped_refuted` (StatMulti_Props) | aef |
| C89 | `C89_filter_outputs_are_conditionals_partial` (Joint_Props) | – |
| C89 | `C89_loglike_is_the_joint_density_partial` (Joint_Props) | – |
| C89 | `C89_loglike_one_series` (Joint_Props) | – |
| C89 | `C89_univariate_filter` (Joint_Props) | – |
| C89 | `C89_univariate_observed_moments_refuted` (Joint_Props) | – |
| C89 | `C89_smoother_outputs_are_conditionals_partial` (Joint_Props) | – |
| C89 | `C89_filter_then_smooth` (Joint_Props) | – |
| C89 | `C89_best_affine_predictor` (Joint_Props) | – |
| C89 | `C89_noise_makes_data_nonsingular` (Joint_Props) | – |
| C89 | `C89_small_jitter_missing` (Joint_Jitter) | – |
| C89 | `C89_small_jitter_smoother` (Joint_JitterSmooth) | – |
| C89 | `C89_small_jitter_univariate` (Joint_JitterUni) | – |
| C89 | `C89_smoother_time_varying_refuted` (Joint_TV) | – |
| C89 | `C89_smoother_exact_with_late_matrices` (Joint_Shift) | – |
| C90 | `C90_entry_is_total_of_its_history` (Branch_Props) | af |
| C90 | `C90_loop_ends` (Branch_Props) | af |
| C90 | `C90_law_is_logp` (Branch_Props) | abcf |
| C90 | `C90_ends_almost_surely` (Branch_Props) | abcf |
| C90 | `C90_total` (Branch_Props) | abcf |
| C90 | `C90_mean` (Branch_Props) | abcf |
| C90 | `C90_variance` (Branch_Props) | abcf |
| C90 | `C90_negative_lam_total_refuted` (Branch_Props) | abcf |
| C91 | `C91_standard_filter_complete_data` (Cons_Props) | – |
| C91 | `C91_standard_filter_missing_data` (Cons_Props) | – |
| C91 | `C91_univariate_filter` (Cons_Props) | – |
| C91 | `C91_covers_in_every_direction` (Cons_Props) | – |
| C92 | `C92_standard_filter_exactly_symmetric` (KFloat_Props) | – |
| C92 | `C92_univariate_filter_exactly_symmetric` (KFloat_Props) | – |
| C92 | `C92_smoother_exactly_symmetric` (KFloat_Props) | – |
| C92 | `C92_filter_then_smoother` (KFloat_Props) | – |
| C92 | `C92_ieee_addition_commutative` (KFloat_Props) | abcf |
| C92 | `C92_doubles_commute` (KFloat_Props) | abcf |
| C92 | `C92_observed_covs_refuted` (KFloat_Props) | abcf |
| C93 | `C93_chi_follows_documented_pdf` (Chi_Props) | abcf |
| C93 | `C93_chi_total_mean_variance` (Chi_Props) | abcf |
| C93 | `C93_chi_nonnegative` (Chi_Props) | abf |
| C93 | `C93_maxwell_follows_documented_pdf` (Chi_Props) | abcf |
| C93 | `C93_maxwell_total_mean_variance` (Chi_Props) | abcf |
| C93 | `gamma_half` (Chi_Props) | abcf |
| C94 | `C94_coefficients` (R2D2_Props) | abf |
| C94 | `C94_own_normal` (R2D2_Props) | af |
| C94 | `C94_sign_probabilities` (R2D2_Props) | af |
| C94 | `C94_sign_probability_errors` (R2D2_Props) | af |
| C94 | `C94_row_total` (R2D2_Props) | abf |
| C94 | `C94_names_distinct` (R2D2_Props) | abf |
| C94 | `C94_residual` (R2D2_Resid) | abf |
| C95 | `C95_default_fit_partial` (FitLap_Props) | – |
| C95 | `C95_unconstrained_fit` (FitLap_Props) | – |
| C95 | `C95_compile_kwargs` (FitLap_Props) | – |
| C95 | `C95_return_raw_refuted` (FitLap_Props) | – |
| C95 | `C95_unconstrained_needs_transformed_refuted` (FitLap_Props) | – |
| C95 | `C95_needs_context_refuted` (FitLap_Props) | – |
| C95 | `C95_hessian_backend_refuted` (FitLap_Props) | – |
| C95 | `C95_unconstrained_mode_refuted` (FitLap_Props) | abcf |
| C96 | `C96_pmf` (Bnb_Props) | abcf |
| C96 | `C96_support` (Bnb_Props) | abcf |
| C96 | `C96_bad_parameters` (Bnb_Props) | abcf |
| C96 | `C96_total_mass` (Bnb_Props) | abcf |
| C96 | `C96_mean` (Bnb_Props) | abcf |
| C96 | `C96_variance` (Bnb_Props) | abcf |
| C97 | `C97_mean` (Skellam_Moments) | abf |
| C97 | `C97_variance` (Skellam_Moments) | abf |
| C97 | `C97_code` (Skellam_Moments) | abcf |
| C98 | `C98_saved_outputs_partial` (Save_Props) | – |
| C98 | `C98_nothing_saved` (Save_Props) | – |
| C98 | `C98_observed_axes` (Save_Props) | – |
| C98 | `C98_conditional_uses_defaults` (Save_Props) | – |
| C98 | `C98_conditional_agrees` (Save_Props) | – |
| C98 | `C98_conditional_jitter_refuted` (Save_Props) | – |
| C98 | `C98_smoother_jitter_refuted` (Save_Props) | – |
| C99 | `C99_varmax_tables_agree` (Meta_Props) | – |
| C99 | `C99_sarima_tables_agree` (Meta_Props) | – |
| C99 | `C99_sarima_interpretable_tables_partial` (Meta_Props) | – |
| C99 | `C99_sarima_interpretable_dims_refuted` (Meta_Props) | – |
| C99 | `C99_ets_tables_partial` (Meta_Ets) | – |
| C99 | `C99_ets_missing_dims_refuted` (Meta_Ets) | – |
| C99 | `C99_ets_extra_dims_refuted` (Meta_Ets) | – |
| C99 | `C99_sarima_coords` (Meta_Coords) | – |
| C99 | `C99_varmax_coords` (Meta_Coords) | – |
| C99 | `C99_ets_coords` (Meta_Coords) | – |
| C99 | `C99_varmax_param_names` (Tight_B) | – |
| C99 | `C99_ets_param_dims_keys` (Tight_D) | – |
