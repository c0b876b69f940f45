{"id": "C01", "title": "Marginal logp of a finite discrete variable is the log of the marginal sum", "statement": "After marginalize([x]) for a Bernoulli/Categorical/DiscreteUniform x with any batch shape, the model logp (the term reported on the first dependent, the other dependents contributing 0) equals log of the sum over ALL joint configurations of x of exp(logp of x + logp of the dependents), whenever each batch entry of x only influences its own slice of the dependents.", "quantifier": "every domain, every batch size, every number of dependents, every per-entry joint log-density", "why_tests_cant": "the number of configurations is |domain|^batch; tests compare a handful of small shapes", "anchors": ["pymc_extras/model/marginal/distributions.py:finite_discrete_marginal_rv_logp", "pymc_extras/model/marginal/distributions.py:DUMMY_ZERO"]}
{"id": "C02", "title": "Marginal logp of a hidden Markov chain is the log-sum over all hidden paths", "statement": "After marginalizing a DiscreteMarkovChain (one lag) the reported logp equals log of the sum over every state path of init * product of transitions * product of emissions, for every chain length with at least one transition.", "quantifier": "every number of states, every chain length >= 2, every initial distribution, transition matrix and emission table", "why_tests_cant": "k^T paths; the forward recursion is only correct by induction on T", "anchors": ["pymc_extras/model/marginal/distributions.py:marginal_hmm_logp"]}
{"id": "C03", "title": "The enumerated domain of a marginalizable variable is exactly its support", "statement": "The set of values over which marginalize/recover_marginals enumerate contains every value in the support of the variable exactly once and nothing outside it, in increasing order; unsupported distributions are refused.", "quantifier": "every Bernoulli, Categorical with k classes, DiscreteUniform(lower, upper), DiscreteMarkovChain with k states", "why_tests_cant": "ranges over unbounded class counts and bounds, including negative and degenerate ones", "anchors": ["pymc_extras/model/marginal/distributions.py:get_domain_of_finite_discrete_rv"]}
{"id": "C04", "title": "recover_marginals returns normalised Bayes posteriors and in-domain draws", "statement": "For every posterior point and batch entry, exp(lp_x) over the domain sums to 1 and equals joint/sum(joint); a draw with category index i is reported as the i-th domain value.", "quantifier": "every joint log-density table, domain and posterior draw", "why_tests_cant": "real-valued identity over all inputs; the index-to-value map must hold for every offset", "anchors": ["pymc_extras/model/marginal/marginal_model.py:MarginalModel.recover_marginals"]}
{"id": "C05", "title": "Batch-dimension analysis never lets marginalization mix entries of the marginalized variable", "statement": "If marginalize accepts a graph, each entry of each dependent variable depends on the marginalized variable only through entries that agree with it on the reported axis connection, and every batch dimension of the marginalized variable is either connected to an axis or the dependent does not depend on it; otherwise an error is raised.", "quantifier": "every expression graph built from elementwise, dimshuffle, reduction, blockwise/RandomVariable, slicing and advanced-indexing nodes, of any size and rank", "why_tests_cant": "soundness of a static analysis over all graphs", "anchors": ["pymc_extras/model/marginal/graph_analysis.py:_subgraph_batch_dim_connection", "pymc_extras/model/marginal/graph_analysis.py:subgraph_batch_dim_connection"]}
{"id": "C06", "title": "Dependent logps are lined up with the marginalized variable's axes before adding", "statement": "When the dependents' axes are a permutation (plus extra axes) of the marginalized variable's batch axes, the reduced dependent logp at batch index b is the sum over the extra axes of exactly the entries of the dependent that are connected to x[b]; the final logp is transposed back to the first dependent's axis order.", "quantifier": "every rank, every axis permutation, every tensor", "why_tests_cant": "the wrong direction of transposition is invisible for ranks <= 2 and for involutions; only an argument over all permutations settles it", "anchors": ["pymc_extras/model/marginal/distributions.py:reduce_batch_dependent_logps", "pymc_extras/model/marginal/distributions.py:align_logp_dims"]}
{"id": "C07", "title": "Broadcasting of known dimensions: conflicts are errors, results are exact", "statement": "Combining inputs with known dimensions fails exactly when two different known dimensions meet on one (right-aligned) axis or the same known dimension ends on two axes; otherwise each output axis carries the unique known dimension found there and the rank is the maximum rank.", "quantifier": "every number of inputs, ranks and dimension labels", "why_tests_cant": "all combinations of ranks and labels", "anchors": ["pymc_extras/model/marginal/graph_analysis.py:_broadcast_dims"]}
{"id": "C08", "title": "Conditional dependents are exactly the variables reached without crossing another random variable", "statement": "marginalize treats as dependents exactly those model variables from which the marginalized variable is reachable backwards along the graph without passing through another random variable, and as inputs the first blocking variables on such paths.", "quantifier": "every finite directed acyclic graph and every set of model variables", "why_tests_cant": "reachability over all graphs", "anchors": ["pymc_extras/model/marginal/graph_analysis.py:find_conditional_input_rvs", "pymc_extras/model/marginal/graph_analysis.py:find_conditional_dependent_rvs"]}
{"id": "C09", "title": "marginalize followed by unmarginalize restores the model's variables", "statement": "Any sequence of successful marginalize/unmarginalize calls keeps free and marginalized variables disjoint, never loses a variable or its dims, and unmarginalizing everything gives back the same set of free variables with the same dims.", "quantifier": "every history of marginalize / unmarginalize calls on any set of variables", "why_tests_cant": "all call histories", "anchors": ["pymc_extras/model/marginal/marginal_model.py:MarginalModel.marginalize", "pymc_extras/model/marginal/marginal_model.py:MarginalModel.unmarginalize", "pymc_extras/model/marginal/marginal_model.py:MarginalModel._delete_rv_mappings"]}
{"id": "C10", "title": "A rejected marginalize leaves the model unchanged", "statement": "If marginalize raises, the model is as before the call.", "quantifier": "every list of variables and every position of the offending variable", "why_tests_cant": "crash-point property: the error may come at any position of the list or from the final graph check", "anchors": ["pymc_extras/model/marginal/marginal_model.py:MarginalModel.marginalize"]}
{"id": "C11", "title": "Functional marginalize, clone and recover_marginals do not modify the model they are given", "statement": "marginalize(model, rvs), MarginalModel.clone and recover_marginals leave the original model (its variables and their dims) unchanged.", "quantifier": "every model and every subsequent operation on the returned/cloned model", "why_tests_cant": "aliasing shows only through later operations on the copy", "anchors": ["pymc_extras/model/marginal/marginal_model.py:MarginalModel.from_model", "pymc_extras/model/marginal/marginal_model.py:marginalize", "pymc_extras/model/marginal/marginal_model.py:MarginalModel.recover_marginals"]}
{"id": "C12", "title": "recover_marginals rejects unknown variable names", "statement": "recover_marginals(var_names=...) raises for any name that is not a marginalized variable.", "quantifier": "every list of names", "why_tests_cant": "ranges over all names and models", "anchors": ["pymc_extras/model/marginal/marginal_model.py:MarginalModel.recover_marginals"]}
{"id": "C13", "title": "unmarginalize accepts every variable name that marginalize accepted", "statement": "If marginalize accepted a name, unmarginalize accepts the same name.", "quantifier": "every history and name", "why_tests_cant": "all histories", "anchors": ["pymc_extras/model/marginal/marginal_model.py:MarginalModel.unmarginalize"]}
{"id": "C14", "title": "Kalman filter covariance recursion is symmetric positive semidefinite", "statement": "For symmetric PSD P0, H, Q and non-negative jitter, every filtered and predicted state covariance returned by the standard filter is symmetric and PSD, for any gain produced by the linear solve (Joseph form), any data, any missing pattern.", "quantifier": "all dimensions, all time-invariant or time-varying system matrices, all data lengths, all missing patterns", "why_tests_cant": "matrix inequality over all horizons; induction over the data", "anchors": ["pymc_extras/statespace/filters/kalman_filter.py:StandardFilter.update", "pymc_extras/statespace/filters/kalman_filter.py:BaseFilter.predict"]}
{"id": "C15", "title": "The filtered state is the exact conditional mean and covariance", "statement": "With zero jitter and invertible innovation covariance the update equals the Gaussian conditional (information form: inverse(P_f) = inverse(P)+Z'H^-1 Z, mean accordingly) and Joseph form equals P - K F K'.", "quantifier": "all dimensions and matrices", "why_tests_cant": "matrix identity over all inputs", "anchors": ["pymc_extras/statespace/filters/kalman_filter.py:StandardFilter.update"]}
{"id": "C16", "title": "Filter outputs are aligned in time", "statement": "predicted[0] is (a0,P0), predicted[t] is the propagation of filtered[t-1], filtered[t] is the update of predicted[t] with y[t], and filtered, predicted, observed and loglike all have exactly n entries, for n observations.", "quantifier": "every data length n >= 1 and any time-varying matrices", "why_tests_cant": "all lengths; scan bookkeeping", "anchors": ["pymc_extras/statespace/filters/kalman_filter.py:BaseFilter._postprocess_scan_results", "pymc_extras/statespace/filters/kalman_filter.py:BaseFilter.build_graph", "pymc_extras/statespace/filters/kalman_filter.py:BaseFilter.kalman_step"]}
{"id": "C17", "title": "Every subset of time-varying matrices is routed to the right argument of the filter step", "statement": "Whichever of the nine system matrices are 3-d, the filter step receives each matrix (slice) in its own slot.", "quantifier": "all 2^7 subsets of time-varying matrices, all values", "why_tests_cant": "the number of combinations; the property is a routing invariant", "anchors": ["pymc_extras/statespace/filters/kalman_filter.py:BaseFilter.unpack_args", "pymc_extras/statespace/filters/utilities.py:split_vars_into_seq_and_nonseq", "pymc_extras/statespace/filters/utilities.py:decide_if_x_time_varies"]}
{"id": "C18", "title": "The log-likelihood contributed by each observation is the Gaussian log-density of its innovation", "statement": "Each filter's per-step loglike equals -(k log(2 pi) + log det F + v' F^-1 v)/2 for k observed series.", "quantifier": "every k, every innovation and covariance", "why_tests_cant": "normalising constants cancel in samplers and are never compared for k>1", "anchors": ["pymc_extras/statespace/filters/kalman_filter.py:StandardFilter.update", "pymc_extras/statespace/filters/kalman_filter.py:SquareRootFilter.update", "pymc_extras/statespace/filters/kalman_filter.py:UnivariateFilter._univariate_inner_filter_step"]}
{"id": "C19", "title": "Missing observations do not inform the state", "statement": "If all series are missing at t the filtered moments equal the predicted ones and the loglike is 0; if some are missing, the result equals that of filtering only the observed rows.", "quantifier": "every missing pattern, intercept, and matrices", "why_tests_cant": "2^k patterns for each t over all values", "anchors": ["pymc_extras/statespace/filters/kalman_filter.py:BaseFilter.handle_missing_values", "pymc_extras/statespace/filters/kalman_filter.py:StandardFilter.update"]}
{"id": "C20", "title": "Sequential (univariate) processing agrees with the joint update", "statement": "For diagonal H the univariate filter's filtered mean/covariance and total loglike equal those of the joint update.", "quantifier": "every number of series and all matrices", "why_tests_cant": "induction over the series", "anchors": ["pymc_extras/statespace/filters/kalman_filter.py:UnivariateFilter.kalman_step", "pymc_extras/statespace/filters/kalman_filter.py:UnivariateFilter._univariate_inner_filter_step"]}
{"id": "C21", "title": "Smoother outputs: alignment and agreement with the model's dynamics", "statement": "Smoothed arrays have n entries, the last equals the last filtered, entry t combines filtered[t] with smoothed[t+1] through the same prediction the filter used (including the state intercept and the matrices of time t).", "quantifier": "every length and every (time-varying) system", "why_tests_cant": "all lengths and time-varying inputs", "anchors": ["pymc_extras/statespace/filters/kalman_smoother.py:KalmanSmoother.build_graph", "pymc_extras/statespace/filters/kalman_smoother.py:KalmanSmoother.smoother_step"]}
{"id": "C22", "title": "SARIMA transition matrix implements the differencing identity", "statement": "For every order of differencing d, seasonal differencing D and season S, the observation reconstructed by the fast SARIMA state space equals the ARMA state plus the lags required by (1-B)^d (1-B^S)^D y = x.", "quantifier": "all d, D, S, p, q, all state values", "why_tests_cant": "matrix identity indexed by three unbounded integers", "anchors": ["pymc_extras/statespace/models/utilities.py:make_SARIMA_transition_matrix", "pymc_extras/statespace/models/SARIMAX.py:BayesianSARIMA.make_symbolic_graph"]}
{"id": "C23", "title": "SARIMA AR and MA parameters enter as the product polynomials", "statement": "The fast-form AR column holds the coefficients of 1 - phi(B) Phi(B^S) and the MA column those of theta(B) Theta(B^S), for every admissible order; orders whose lags overlap are rejected.", "quantifier": "all p,q,P,Q,S and coefficient values", "why_tests_cant": "polynomial identity over all orders", "anchors": ["pymc_extras/statespace/models/SARIMAX.py:BayesianSARIMA.make_symbolic_graph", "pymc_extras/statespace/models/SARIMAX.py:_verify_order"]}
{"id": "C24", "title": "Fast SARIMA state space reproduces the ARMA difference equation", "statement": "Running the generated state space forward, the first ARMA state satisfies x_t = sum a_i x_{t-i} + e_t + sum b_j e_{t-j} for all t.", "quantifier": "all orders, parameters and shock sequences, all t", "why_tests_cant": "induction over time for all orders", "anchors": ["pymc_extras/statespace/models/SARIMAX.py:BayesianSARIMA.make_symbolic_graph"]}
{"id": "C25", "title": "State, shock, parameter and coordinate labels have the advertised lengths", "statement": "For every constructible SARIMA/VARMAX/ETS/structural model, state_names has k_states entries, shock_names k_posdef, observed_states k_endog, and param_info shapes equal the shape of the placeholder that must be supplied.", "quantifier": "all orders, season lengths, masks and options", "why_tests_cant": "combinatorial options with unbounded sizes", "anchors": ["pymc_extras/statespace/models/SARIMAX.py:BayesianSARIMA.state_names", "pymc_extras/statespace/models/VARMAX.py:BayesianVARMAX.state_names", "pymc_extras/statespace/models/ETS.py:BayesianETS.state_names", "pymc_extras/statespace/models/structural.py"]}
{"id": "C26", "title": "VARMAX state space reproduces the VARMA equation", "statement": "The state recursion generated for order (p,q) satisfies y_t = sum A_i y_{t-i} + e_t + sum M_j e_{t-j} for all t.", "quantifier": "all p, q, k_endog, all coefficients, all shock sequences", "why_tests_cant": "induction over time for all orders", "anchors": ["pymc_extras/statespace/models/VARMAX.py:BayesianVARMAX.make_symbolic_graph"]}
{"id": "C27", "title": "ETS state space reproduces the exponential-smoothing recursions", "statement": "The generated matrices reproduce the documented level/trend/seasonal equations, including damping and the seasonal lag of length m, for every t.", "quantifier": "all trend/damped/seasonal options, all seasonal periods, all smoothing parameters", "why_tests_cant": "induction over time, unbounded seasonal period", "anchors": ["pymc_extras/statespace/models/ETS.py:BayesianETS.make_symbolic_graph", "pymc_extras/statespace/models/ETS.py:BayesianETS._stationary_initialization"]}
{"id": "C28", "title": "Time-domain seasonality has the documented pattern and repeats every season", "statement": "With no innovations the seasonal effect is -sum(init), init[-1], ..., init[0] and then repeats with period season_length, and any season_length consecutive effects sum to zero.", "quantifier": "every season_length >= 2 and initial condition, every t", "why_tests_cant": "periodicity for all season lengths", "anchors": ["pymc_extras/statespace/models/structural.py:TimeSeasonality.make_symbolic_graph"]}
{"id": "C29", "title": "Frequency seasonality and cycles are rotations with the right period", "statement": "With no innovations and integer season length, the frequency-domain seasonal effect is periodic with the season length for any number of harmonics; the state dropped in the saturated case never affects the observations; an undamped cycle preserves amplitude, a damped one contracts it by rho each step.", "quantifier": "every season length, harmonics count, initial state, t", "why_tests_cant": "trigonometric identity over all t", "anchors": ["pymc_extras/statespace/models/structural.py:FrequencySeasonality", "pymc_extras/statespace/models/structural.py:CycleComponent", "pymc_extras/statespace/models/structural.py:_frequency_transition_block"]}
{"id": "C30", "title": "Level-trend component follows the documented difference equations", "statement": "mu_{t+1} = mu_t + nu_t + shock, nu_{t+1} = nu_t + (next derivative) + shock, and so on for every order and innovation mask.", "quantifier": "every order, every innovations mask, every t", "why_tests_cant": "unbounded order; closed form over all t", "anchors": ["pymc_extras/statespace/models/structural.py:LevelTrendComponent"]}
{"id": "C31", "title": "Autoregressive component honours the lag mask", "statement": "x_t = sum over enabled lags i of rho_i x_{t-i} + shock, with parameters assigned to enabled lags in increasing order and disabled lags fixed at zero.", "quantifier": "every mask, parameter vector, t", "why_tests_cant": "unbounded mask length", "anchors": ["pymc_extras/statespace/models/structural.py:AutoregressiveComponent"]}
{"id": "C32", "title": "Adding structural components superimposes independent models", "statement": "The observation of (a+b).build() is the sum of the observations of a and b run separately, for every state and shock sequence; addition is associative on matrices and labels; repeated component names are rejected.", "quantifier": "all components, nestings, horizons", "why_tests_cant": "all compositions", "anchors": ["pymc_extras/statespace/models/structural.py:Component.__add__", "pymc_extras/statespace/models/structural.py:Component._combine_statespace_representations", "pymc_extras/statespace/models/structural.py:Component._combine_component_info"]}
{"id": "C33", "title": "Components do not share or lose parameters when added", "statement": "Every parameter named by a sum of components has its own placeholder, appears once, and building the model leaves the component reusable.", "quantifier": "all component combinations and sequences of build/add", "why_tests_cant": "histories of builds and name collisions", "anchors": ["pymc_extras/statespace/models/structural.py:Component._combine_property", "pymc_extras/statespace/models/structural.py:Component.build", "pymc_extras/statespace/models/structural.py:StructuralTimeSeries._add_inital_state_cov_to_properties"]}
{"id": "C34", "title": "extract_components_from_idata partitions the hidden states", "statement": "Each extracted column is the contribution of one component (or one state), columns match the returned names one to one, and component slices partition the state vector in order.", "quantifier": "every combination of components and state values", "why_tests_cant": "all compositions", "anchors": ["pymc_extras/statespace/models/structural.py:StructuralTimeSeries._hidden_states_from_data", "pymc_extras/statespace/models/structural.py:StructuralTimeSeries._get_subcomponent_names", "pymc_extras/statespace/models/structural.py:StructuralTimeSeries._state_slices_from_info"]}
{"id": "C35", "title": "Forecast index: exactly the requested horizon immediately after start", "statement": "forecast(start, periods=n) returns n consecutive time steps following start and initialises from the filter output at start; end yields steps up to and including end; start defaults to the last observation; invalid combinations are rejected.", "quantifier": "every index, start, end, periods", "why_tests_cant": "all integer indexes and option combinations", "anchors": ["pymc_extras/statespace/core/statespace.py:PyMCStateSpace._build_forecast_index", "pymc_extras/statespace/core/statespace.py:PyMCStateSpace._validate_forecast_args", "pymc_extras/statespace/core/statespace.py:PyMCStateSpace.forecast"]}
{"id": "C36", "title": "Scenario data is matched to model variables by column name", "statement": "A scenario DataFrame whose columns are a permutation of the fitted columns gives the same forecast as the correctly ordered one; missing or extra columns are rejected; the caller's scenario is not modified.", "quantifier": "every column set and permutation", "why_tests_cant": "all permutations and option combinations", "anchors": ["pymc_extras/statespace/core/statespace.py:PyMCStateSpace._validate_scenario_data", "pymc_extras/statespace/core/statespace.py:PyMCStateSpace._finalize_scenario_initialization"]}
{"id": "C37", "title": "Unconditional sampling returns trajectories of the requested length following the dynamics", "statement": "sample_unconditional_* returns one more than steps states (or the data length), each x_{t+1}=c+T x_t+R e_t and y_t = d + Z x_t + n_t with matrices of time t.", "quantifier": "every number of steps, option combination and system", "why_tests_cant": "all lengths; time-varying alignment", "anchors": ["pymc_extras/statespace/core/statespace.py:PyMCStateSpace._sample_unconditional", "pymc_extras/statespace/filters/distributions.py:_LinearGaussianStateSpace"]}
{"id": "C38", "title": "Impulse responses are T^h R s", "statement": "With zero intercept the response h steps after a shock s is T^h R s; with a shock trajectory it is the convolution; mutually exclusive shock options are rejected.", "quantifier": "every horizon, system, shock", "why_tests_cant": "induction over the horizon", "anchors": ["pymc_extras/statespace/core/statespace.py:PyMCStateSpace.impulse_response_function"]}
{"id": "C39", "title": "State space representation: assignments are local and readable back", "statement": "Assigning (part of) a system matrix changes exactly that part, reading it back returns the assigned value, all other matrices and entries are unchanged, rejected assignments change nothing, and copies are independent.", "quantifier": "every sequence of reads, writes and copies on any matrix", "why_tests_cant": "all histories of get/set", "anchors": ["pymc_extras/statespace/core/representation.py:PytensorRepresentation.__getitem__", "pymc_extras/statespace/core/representation.py:PytensorRepresentation.__setitem__", "pymc_extras/statespace/core/representation.py:PytensorRepresentation.copy"]}
{"id": "C40", "title": "Missing-data masking marks exactly the missing entries", "statement": "register_data_with_pymc/mask_missing_values treat as missing exactly the NaN entries of the user's data; a fill value colliding with a real observation is rejected; all other values reach the filter unchanged.", "quantifier": "every data array and fill value", "why_tests_cant": "all values, including the sentinel", "anchors": ["pymc_extras/statespace/utils/data_tools.py:mask_missing_values", "pymc_extras/statespace/filters/kalman_filter.py:BaseFilter.handle_missing_values"]}
{"id": "C41", "title": "ModelBuilder configuration round-trips through save/load", "statement": "load(save(model)) succeeds and gives a model with the same configuration and id.", "quantifier": "every model_config / sampler_config value", "why_tests_cant": "all nested configurations", "anchors": ["pymc_extras/model_builder.py:ModelBuilder.save", "pymc_extras/model_builder.py:ModelBuilder.load", "pymc_extras/model_builder.py:ModelBuilder._model_config_formatting"]}
{"id": "C42", "title": "ModelBuilder id identifies the model", "statement": "Two models get the same id only if type, version and configuration (names and values) are the same, up to hash collisions.", "quantifier": "every pair of configurations", "why_tests_cant": "injectivity over all configurations", "anchors": ["pymc_extras/model_builder.py:ModelBuilder.id"]}
{"id": "C43", "title": "fit uses the caller's sampler options with the documented precedence and does not modify the stored configuration", "statement": "Keyword arguments override sampler_config, explicit progressbar/random_seed override both, everything else is passed through, and sampler_config is unchanged.", "quantifier": "every configuration and keyword set", "why_tests_cant": "all key combinations", "anchors": ["pymc_extras/model_builder.py:ModelBuilder.fit"]}
{"id": "C44", "title": "prior_from_idata flattening round-trips", "statement": "prior_from_idata lays variables in disjoint contiguous slices covering the flat vector in order, and each rebuilt variable reads back exactly its own entries with its own shape.", "quantifier": "every number of variables and shapes, every draw", "why_tests_cant": "all shapes", "anchors": ["pymc_extras/utils/prior.py:_flatten", "pymc_extras/utils/prior.py:_mvn_prior_from_flat_info"]}
{"id": "C45", "title": "prior_from_idata argument precedence", "statement": "Each requested variable gets the configuration it was asked for; keyword arguments override positional names; unknown variables are rejected.", "quantifier": "every mix of positional and keyword arguments", "why_tests_cant": "all combinations", "anchors": ["pymc_extras/utils/prior.py:_parse_args", "pymc_extras/utils/prior.py:_arg_to_param_cfg"]}
{"id": "C46", "title": "Histogram counts account for every observation in the right bin", "statement": "discrete_histogram reports for each reported value the number of observations equal to it; quantile_histogram/histogram_approximation counts add up to the number of observations.", "quantifier": "every dataset and min_count", "why_tests_cant": "all multisets of data", "anchors": ["pymc_extras/distributions/histogram_utils.py:discrete_histogram", "pymc_extras/distributions/histogram_utils.py:quantile_histogram"]}
{"id": "C47", "title": "VIP reparametrization preserves the distribution for every lambda", "statement": "For every lambda in [0,1], the reparametrized variable is the same function of standard noise as the original (location-scale identity), so the model is unchanged.", "quantifier": "every lambda, mu, sigma, noise value", "why_tests_cant": "real identity over all inputs", "anchors": ["pymc_extras/model/transforms/autoreparam.py:vip_reparam_node"]}
{"id": "C48", "title": "VIP lambda bookkeeping: set, truncate and broadcast", "statement": "set_all_lambda/set_lambda/truncate_lambda only change the variables named, truncation maps values beyond the thresholds to exactly 0 or 1, leaves the others and is idempotent.", "quantifier": "every lambda state and threshold pair, every call history", "why_tests_cant": "all histories", "anchors": ["pymc_extras/model/transforms/autoreparam.py:VIP"]}
{"id": "C49", "title": "Optimizer option resolution never requests both Hessian forms", "statement": "For every method and combination of use_grad/use_hess/use_hessp, the resolved options are consistent: never both hess and hessp, a Hessian only with a gradient, and methods that cannot use them get none by default.", "quantifier": "every method and three-valued option combination", "why_tests_cant": "3^3 x methods; decision table", "anchors": ["pymc_extras/inference/find_map.py:set_optimizer_function_defaults", "pymc_extras/inference/find_map.py:scipy_optimize_funcs_from_loss"]}
{"id": "C50", "title": "fit(method) runs the method asked for or raises", "statement": "fit(method=m) either dispatches to m's implementation or raises.", "quantifier": "every string", "why_tests_cant": "all strings", "anchors": ["pymc_extras/inference/fit.py:fit"]}
{"id": "C51", "title": "SMC tempering loop terminates only at temperature one and reports its iterations", "statement": "inference_loop stops exactly at the first iteration whose temperature is >= 1, reports that number of iterations, and the diagnostics up to the requested cap hold the quantities of each iteration.", "quantifier": "every tempering schedule and diagnosis cap", "why_tests_cant": "all schedules", "anchors": ["pymc_extras/inference/smc/sampling.py:inference_loop"]}
{"id": "C52", "title": "Flat parameter vectors are unpacked into the right variables", "statement": "In the SMC, Laplace and Pathfinder result conversion every model variable receives exactly its own consecutive block of the flat vector, with its own shape.", "quantifier": "every list of variable shapes and every sample", "why_tests_cant": "all shapes", "anchors": ["pymc_extras/inference/smc/sampling.py:blackjax_particles_from_pymc_population", "pymc_extras/inference/laplace.py", "pymc_extras/inference/pathfinder.py:convert_flat_trace_to_idata"]}
{"id": "C53", "title": "DiscreteMarkovChain logp is a probability over sequences", "statement": "exp(logp) of a chain sums to one over all sequences of a given length and equals init probability times the product of the transition probabilities selected by the preceding n_lags values.", "quantifier": "every number of states, number of lags, length, transition tensor", "why_tests_cant": "k^T sequences for all T", "anchors": ["pymc_extras/distributions/timeseries.py:DiscreteMarkovChain", "pymc_extras/distributions/timeseries.py:discrete_mc_logp"]}
{"id": "C54", "title": "GenExtreme logcdf and logp respect the support", "statement": "logp is -inf outside the support; logcdf is 0 above and -inf below it, increasing in between.", "quantifier": "every mu, sigma, xi, value", "why_tests_cant": "all real inputs", "anchors": ["pymc_extras/distributions/continuous.py:GenExtreme"]}
{"id": "C55", "title": "R2D2M2CP splits the variance as asked", "statement": "Residual variance plus explained variance equals the output variance, the per-coefficient explained variances follow phi and sum to r2 * output variance when phi sums to one, and prior mean^2+sigma^2 equals that share.", "quantifier": "every number of coefficients, r2, phi, psi", "why_tests_cant": "real identity over all inputs", "anchors": ["pymc_extras/distributions/multivariate/r2d2m2cp.py:R2D2M2CP"]}
{"id": "C56", "title": "Conjugate-gradient solve keeps residual = rhs - A x", "statement": "At every iteration the tracked residual equals rhs minus the matrix applied to the current solution, hence a zero residual means a solution, for any starting guess.", "quantifier": "every matrix, right-hand side, guess and iteration count", "why_tests_cant": "loop invariant over all iterations", "anchors": ["pymc_extras/utils/linear_cg.py:linear_cg"]}
{"id": "C57", "title": "Pivoted Cholesky returns a permutation and matches the pivoted matrix", "statement": "The returned pivots are a permutation of the indices and L L' agrees with the permuted matrix on the processed rows and columns.", "quantifier": "every size, matrix and iteration count", "why_tests_cant": "loop invariant", "anchors": ["pymc_extras/utils/pivoted_cholesky.py:pivoted_cholesky"]}
{"id": "C58", "title": "Karhunen-Loeve basis size", "statement": "The latent approximation keeps exactly the requested number of leading eigenpairs, or the smallest number explaining the requested share of variance.", "quantifier": "every spectrum and threshold", "why_tests_cant": "all spectra", "anchors": ["pymc_extras/gp/latent_approx.py:KarhunenLoeveExpansion.prior"]}
{"id": "C59", "title": "as_model: repeated calls behave alike", "statement": "Every call of a function decorated with as_model builds a model with the decorator's coordinates unless the call overrides them.", "quantifier": "every sequence of calls", "why_tests_cant": "call history", "anchors": ["pymc_extras/model/model_api.py:as_model"]}
{"id": "C60", "title": "model_table and dims printing truncate faithfully", "statement": "A truncated parameter list shows the first parameters in order and an ellipsis exactly when something was dropped; parameter counts and shapes are those of the model.", "quantifier": "every number of parameters and truncation limit", "why_tests_cant": "all lengths", "anchors": ["pymc_extras/printing.py:model_table"]}
{"id": "C61", "title": "A marginalize/unmarginalize round trip keeps the user's initial values and transforms", "statement": "After marginalizing and unmarginalizing a variable its user-supplied initial value and transform are those it had before.", "quantifier": "every model and variable", "why_tests_cant": "all histories", "anchors": ["pymc_extras/model/marginal/marginal_model.py:MarginalModel.unmarginalize"]}
{"id": "C62", "title": "The square-root filter computes the same moments as the standard filter", "statement": "For the same data and the same inputs (including P0), the filtered, predicted and observed means and covariances returned by the square-root filter equal those of the standard filter.", "quantifier": "all dimensions, matrices, data lengths, missing patterns, whatever signs the QR factorisation picks", "why_tests_cant": "identity between two algorithms for all inputs; tests run with identity-like P0, for which P0 and P0 P0' coincide", "anchors": ["pymc_extras/statespace/filters/kalman_filter.py:SquareRootFilter.update", "pymc_extras/statespace/filters/kalman_filter.py:SquareRootFilter.predict", "pymc_extras/statespace/filters/kalman_filter.py:SquareRootFilter._postprocess_scan_results"]}
{"id": "C63", "title": "Smoothed covariances are symmetric positive semidefinite", "statement": "For a run of the standard filter followed by the smoother, with positive jitter, every smoothed covariance is symmetric positive semidefinite.", "quantifier": "all dimensions, lengths, time-varying matrices, missing patterns with uncorrelated noise", "why_tests_cant": "matrix inequality over all horizons, by backward induction", "anchors": ["pymc_extras/statespace/filters/kalman_smoother.py:KalmanSmoother.smoother_step", "pymc_extras/statespace/filters/kalman_smoother.py:KalmanSmoother.build_graph"]}
{"id": "C64", "title": "Stationary initialization of SARIMA models is well defined", "statement": "When a SARIMA model is built with stationary_initialization=True (the default), the equation (I - T) x0 = c that defines its initial state has a unique solution for every accepted order and coefficient values; in particular for models with differencing.", "quantifier": "all orders (p,d,q)(P,D,Q,S) and all coefficient values", "why_tests_cant": "singularity must be decided for every order and every real coefficient vector; a numeric solver on a singular system may silently return huge numbers.", "anchors": ["pymc_extras/statespace/models/SARIMAX.py:_stationary_initialization", "pymc_extras/statespace/models/utilities.py:make_SARIMA_transition_matrix"]}
{"id": "C65", "title": "Regression component is a linear regression on the supplied data", "statement": "A RegressionComponent's observation at time t is the product of row t of its data with its coefficients; the coefficients start at beta_<name>, stay constant without innovations and follow random walks with them; k_exog and state_names must agree in number.", "quantifier": "all numbers of regressors, data matrices, coefficient and shock sequences, times", "why_tests_cant": "the equation must hold for every data matrix, time and shock path", "anchors": ["pymc_extras/statespace/models/structural.py:RegressionComponent"]}
{"id": "C66", "title": "sigma parameters of structural components are standard deviations of independent shocks", "statement": "The covariance of the state noise of every structural component is diagonal, with the squares of its sigma parameter at the states that get innovations and zero elsewhere; only MeasurementError adds observation noise, with variance sigma squared; no component has intercepts.", "quantifier": "all components, orders, innovation masks, parameter values and sums of components", "why_tests_cant": "must hold for every order, mask and parameter value", "anchors": ["pymc_extras/statespace/models/structural.py:LevelTrendComponent.make_symbolic_graph", "pymc_extras/statespace/models/structural.py:MeasurementError.make_symbolic_graph", "pymc_extras/statespace/models/structural.py:TimeSeasonality.make_symbolic_graph", "pymc_extras/statespace/models/structural.py:CycleComponent.make_symbolic_graph"]}
{"id": "C67", "title": "measurement_error=True adds observation noise with the advertised standard deviation", "statement": "With measurement_error=True, a VARMAX or ETS model has, for every observed series i, an independent measurement error whose standard deviation is sigma_obs[i] (variance sigma_obs[i]**2, as in SARIMA, ETS and the structural models); with measurement_error=False it has none.", "quantifier": "all orders, numbers of series and parameter values", "why_tests_cant": "the matrix entries must be right for every size and parameter value", "anchors": ["pymc_extras/statespace/models/VARMAX.py:BayesianVARMAX.make_symbolic_graph", "pymc_extras/statespace/models/ETS.py:BayesianETS.make_symbolic_graph"]}
{"id": "C68", "title": "Support point of a DiscreteMarkovChain is the greedy path", "statement": "The support point (initial point) of a DiscreteMarkovChain starts with the support point of the initial distribution and continues at each step with the most probable next state given the n_lags states before it.", "quantifier": "all transition arrays, lags, lengths and random draws", "why_tests_cant": "must hold for every random draw of the initial state and every length", "anchors": ["pymc_extras/distributions/timeseries.py:discrete_mc_moment"]}
{"id": "C69", "title": "The Markov chain Gibbs sampler visits every entry once with the right categories", "statement": "DiscreteMarkovChainGibbsMetropolis assigns to every entry of every variable exactly one coordinate with that variable's number of states, and an explicit order is accepted iff it is a permutation of the coordinates and is then followed.", "quantifier": "all lists of variables, sizes and orders", "why_tests_cant": "unbounded number of variables and sizes", "anchors": ["pymc_extras/distributions/timeseries.py:DiscreteMarkovChainGibbsMetropolis"]}
{"id": "C70", "title": "GeneralizedPoisson logp is the documented pmf", "statement": "For valid parameters exp(logp(x)) equals mu (mu+lam x)^(x-1) exp(-mu-lam x)/x! for every natural x with mu+lam x > 0 and 0 elsewhere (negative x, or beyond the cut-off for lam<0); with lam=0 it is the Poisson distribution; invalid parameters raise.", "quantifier": "all parameters and all integers", "why_tests_cant": "unbounded support and real parameters", "anchors": ["pymc_extras/distributions/discrete.py:GeneralizedPoisson.logp"]}
{"id": "C71", "title": "GeneralizedPoisson draws for lam<0 invert the cdf of the documented pmf", "statement": "For lam<0 and every uniform number u, the value drawn is the smallest x with F(x) >= u, F being the cumulative sum of the documented pmf (or the first number past the cut-off if F never reaches u), and the loop terminates.", "quantifier": "all parameters and uniform draws", "why_tests_cant": "loop invariant over an unbounded number of iterations for all random draws", "anchors": ["pymc_extras/distributions/discrete.py:GeneralizedPoissonRV._inverse_rng_fn"]}
{"id": "C72", "title": "BetaNegativeBinomial draws follow its logp", "statement": "Random draws of BetaNegativeBinomial have the distribution given by its logp and docstring (a negative binomial with beta distributed success probability).", "quantifier": "all parameters", "why_tests_cant": "an equality of distributions for all parameters", "anchors": ["pymc_extras/distributions/discrete.py:BetaNegativeBinomial"]}
{"id": "C73", "title": "ProjectedProcess is the projected-process (DTC) approximation", "statement": "ProjectedProcess.prior and .conditional are the affine images of the inducing values given by projecting through the kernel at the inducing points, with the documented mean and covariance, exact at the inducing points; the inducing points are the ones given, or else exactly the requested number of k-means centres, and an inadmissible request is rejected.", "quantifier": "every kernel, noise level, sets of inputs and inducing points, and every combination of arguments", "why_tests_cant": "matrix identities over all kernels and sizes", "anchors": ["pymc_extras/gp/latent_approx.py:ProjectedProcess"]}
{"id": "C74", "title": "Observed data are aligned with the model's series and time axis by label", "statement": "Registering observed data accepts exactly two-dimensional data with one column per observed series and a range or date index, keeps every value in its row, gives the model the data's time labels (rejecting disagreement with labels already there), and matches the columns of a DataFrame to the model's series by name.", "quantifier": "every kind of data container, index, set of columns and existing time coordinate", "why_tests_cant": "every combination of container, labels and order of columns", "anchors": ["pymc_extras/statespace/utils/data_tools.py:register_data_with_pymc", "pymc_extras/statespace/utils/data_tools.py:preprocess_pandas_data", "pymc_extras/statespace/utils/data_tools.py:add_data_to_active_model"]}
{"id": "C75", "title": "Conditional sampling follows the filter output step by step", "statement": "sample_conditional_prior/posterior draw, for every time step, the latent state from the normal distribution given by the filter output of that step and the observation from the implied distribution N(d + Z mu, Z P Z' + H), with one entry per data row.", "quantifier": "every filter output, system, length and generator state", "why_tests_cant": "equalities over all systems and lengths", "anchors": ["pymc_extras/statespace/core/statespace.py:PyMCStateSpace._sample_conditional", "pymc_extras/statespace/filters/distributions.py:SequenceMvNormal"]}
{"id": "C76", "title": "ModelBuilder.load rebuilds the model on the training data", "statement": "The training data stored by fit and used by load are exactly the rows (inputs and outputs paired as in the call) the model was fit on.", "quantifier": "every set of inputs with any labels, outputs with or without labels", "why_tests_cant": "all combinations of labels", "anchors": ["pymc_extras/model_builder.py:ModelBuilder.fit", "pymc_extras/model_builder.py:ModelBuilder.load"]}
{"id": "C77", "title": "find_MAP optimizes and reports the model's own variables", "statement": "find_MAP starts the optimizer at the initial point, hands it the model's loss where every variable reads its own block of the flat vector, and returns exactly the unobserved variables (with the transformed ones only on request) evaluated at the optimizer's final point; a model with a discrete variable is refused with an error.", "quantifier": "every model (number, shapes and transforms of variables), starting point and optimizer result", "why_tests_cant": "all models and vectors", "anchors": ["pymc_extras/inference/find_map.py:find_MAP"]}
{"id": "C78", "title": "The Laplace fit group labels every row with its own variable and coordinates", "statement": "In the fit group of a Laplace approximation the entry of the mean vector (and row/column of the covariance) at every position carries the label name[c1,c2,...] of the variable and coordinates it belongs to, or an error is raised.", "quantifier": "every model, dims and coordinates", "why_tests_cant": "all shapes and coordinate lists", "anchors": ["pymc_extras/inference/laplace.py:add_fit_to_inferencedata"]}
{"id": "C79", "title": "B-spline interpolation is a local convex combination with the given ends", "statement": "bspline_interpolation accepts exactly one of n and eval_points together with more values than the degree, and otherwise raises ValueError; the result has one entry per evaluation point; for a point in [0, 1] it is a convex combination of at most degree+1 neighbouring values with weights depending only on the point, the number of values and the degree, it equals the first value at 0 and the last at 1, and for degree 1 it passes through every value at its grid place.", "quantifier": "every value vector, degree, list of evaluation points and n", "why_tests_cant": "holds for every length, degree and real evaluation point", "anchors": ["pymc_extras/utils/spline.py:numpy_bspline_basis", "pymc_extras/utils/spline.py:bspline_interpolation"]}
{"id": "C80", "title": "build_statespace_graph puts the user's variables where the parameters belong, or raises", "statement": "A model parameter (or exogenous data variable) can be registered once and only under a declared name. build_statespace_graph succeeds exactly when every declared parameter and data name is a variable of the active PyMC model, every placeholder is used and no static shape contradicts; then every matrix given to the Kalman filter equals the model's matrix with each parameter replaced by the user's variable of the same name, whatever was built before. A missing parameter or missing data is a ValueError that leaves the object unchanged, variables that the model does not need are reported, and named PyMC models are supported.", "quantifier": "every state space model (any matrices over any placeholders), every PyMC model, every history of earlier builds", "why_tests_cant": "all possible models, parameter sets, PyMC models and sequences of builds", "anchors": ["pymc_extras/statespace/core/statespace.py:PyMCStateSpace.make_and_register_variable", "pymc_extras/statespace/core/statespace.py:PyMCStateSpace.make_and_register_data", "pymc_extras/statespace/core/statespace.py:PyMCStateSpace._insert_random_variables", "pymc_extras/statespace/core/statespace.py:PyMCStateSpace._insert_data_variables", "pymc_extras/statespace/core/statespace.py:PyMCStateSpace.build_statespace_graph"]}
{"id": "C81", "title": "sample_statespace_matrices returns the model's matrices at each draw", "statement": "For a fitted model, sample_statespace_matrices returns one entry per requested matrix, each equal to that matrix with the parameters at the draw and the exogenous data of the fit; matrix_names=None returns all nine; unknown names are rejected.", "quantifier": "every fitted model, every draw, every list of matrix names", "why_tests_cant": "all models, draws and requests", "anchors": ["pymc_extras/statespace/core/statespace.py:PyMCStateSpace.sample_statespace_matrices", "pymc_extras/statespace/core/statespace.py:PyMCStateSpace._build_dummy_graph"]}
{"id": "C82", "title": "Predictions of the linear model come from the posterior alone, one per row", "statement": "After a fit, predict(X) returns exactly one number per row of X: the mean over all chains and draws of intercept + slope*x plus the draw's noise; predict_posterior returns one column per chain and draw. The result does not depend on which rows were predicted before or on prior sampling, extend_idata=False leaves the stored draws unchanged, fit uses exactly the given rows, and set_params(get_params()) is the identity.", "quantifier": "every posterior (chains x draws), every X, every history of predict / predict_posterior / sample_prior_predictive calls", "why_tests_cant": "all posteriors, inputs and call histories", "anchors": ["pymc_extras/linearmodel.py:LinearModel.build_model", "pymc_extras/linearmodel.py:LinearModel._data_setter", "pymc_extras/model_builder.py:ModelBuilder.predict", "pymc_extras/model_builder.py:ModelBuilder.predict_posterior", "pymc_extras/model_builder.py:ModelBuilder.sample_prior_predictive", "pymc_extras/model_builder.py:ModelBuilder.set_params"]}
{"id": "C83", "title": "Skellam is the distribution of the difference of two independent Poisson variables", "statement": "For all rates mu1, mu2 >= 0 and every integer v, exp(logp(Skellam(mu1, mu2), v)) is the probability that X - Y = v for independent X ~ Poisson(mu1), Y ~ Poisson(mu2); the probabilities of all integers add up to one; rates below zero are rejected; every entry of a draw is the difference of its own two Poisson draws with its own rates, whatever shapes are broadcast.", "quantifier": "all rates, all integers, all shapes and generator streams", "why_tests_cant": "continuous parameters and an infinite support", "anchors": ["pymc_extras/distributions/discrete.py:Skellam.skellam_dist", "pymc_extras/distributions/discrete.py:Skellam.skellam_logp"]}
{"id": "C84", "title": "Marginalizing several variables gives the log of the sum over all of them jointly", "statement": "When marginalize is given (or has been given) several variables that share dependents, the model logp is the log of the sum over all joint values of all marginalized variables of exp(joint logp), in every registration order and for every combination of batch shapes the analysis accepts; a variable that reaches an axis over which an earlier marginalization has already summed is refused.", "quantifier": "all pairs of finite discrete variables (or a Markov chain and a finite variable), batch sizes, dependents and connections", "why_tests_cant": "all models with nested marginalization and all their values", "anchors": ["pymc_extras/model/marginal/distributions.py:MarginalRV.support_axes", "pymc_extras/model/marginal/distributions.py:finite_discrete_marginal_rv_logp", "pymc_extras/model/marginal/distributions.py:marginal_hmm_logp", "pymc_extras/model/marginal/graph_analysis.py:_subgraph_batch_dim_connection", "pymc_extras/model/marginal/marginal_model.py:MarginalModel._marginalize"]}
{"id": "C85", "title": "The covariance of the Laplace approximation is the inverse negative Hessian, and always a covariance matrix", "statement": "fit_mvn_to_MAP (and so fit_laplace) returns the inverse of the negative Hessian of the log-posterior at the MAP plus diag_jitter on the diagonal; if that is not positive definite it returns the nearest positive semidefinite matrix, or raises when on_bad_cov='error'; the returned matrix is always symmetric positive semidefinite.", "quantifier": "every Hessian, tolerance, jitter and on_bad_cov option", "why_tests_cant": "all matrices of all sizes", "anchors": ["pymc_extras/inference/laplace.py:fit_mvn_to_MAP", "pymc_extras/inference/find_map.py:get_nearest_psd"]}
{"id": "C86", "title": "logp of a marginalized model is the log marginal density of the whole model", "statement": "For every model (any dependency graph) and any set of marginalized finite discrete variables listed in any order, MarginalModel.logp() equals the log of the model's density (all variables and potentials) summed over all joint values of the marginalized variables. It is refused exactly when a marginalized variable has no dependents or is read by a Deterministic or Potential, and otherwise can be evaluated.", "quantifier": "all directed acyclic graphs of variables, all subsets and orders of marginalized variables, all values, potentials and deterministics", "why_tests_cant": "all graphs and all elimination orders", "anchors": ["pymc_extras/model/marginal/marginal_model.py:MarginalModel._marginalize", "pymc_extras/model/marginal/marginal_model.py:MarginalModel.logp", "pymc_extras/model/marginal/marginal_model.py:replace_finite_discrete_marginal_subgraph", "pymc_extras/model/marginal/marginal_model.py:MarginalModel._transfer_rv_mappings"]}
{"id": "C87", "title": "Forecast draws have the predictive mean and covariance of the model", "statement": "forecast starts from the requested filter output (mean and covariance of the state at the start date) and its draws h steps ahead have the mean and covariance implied by the state space equations for that horizon, for latent states and observations, with the matrices of the forecast dates.", "quantifier": "every system (also time-varying), start, horizon, filter output and stream of random numbers", "why_tests_cant": "distributional statement over all systems and horizons", "anchors": ["pymc_extras/statespace/core/statespace.py:PyMCStateSpace.forecast", "pymc_extras/statespace/core/statespace.py:_validate_filter_arg", "pymc_extras/statespace/filters/distributions.py:_LinearGaussianStateSpace"]}
{"id": "C88", "title": "Stationary initialization starts the model from its stationary distribution", "statement": "With stationary_initialization, the initial mean and covariance that SARIMAX, VARMAX and ETS models build are those of the stationary distribution of the state equation (for ETS: of the dampened one): whenever the coefficients are stationary they exist, one step of the model leaves them unchanged, they are the only such pair, the covariance is symmetric and positive semidefinite, and predictions from any other start converge to them; the direct and bilinear solution methods agree.", "quantifier": "every order, coefficient vector, seasonal period, number of series, shock covariance, solution method, horizon", "why_tests_cant": "ranges over all real coefficients and all model sizes; eigenvalue and limit statement", "anchors": ["pymc_extras/statespace/models/SARIMAX.py:_stationary_initialization", "pymc_extras/statespace/models/VARMAX.py:_stationary_initialization", "pymc_extras/statespace/models/ETS.py:_stationary_initialization"]}
{"id": "C89", "title": "Filter and smoother outputs are the conditional moments given all data", "statement": "On data generated by a linear Gaussian state space model, the filter's predicted (filtered) state and covariance at time t are the mean and covariance of the state given everything observed before (up to) t, the observed moments are those of the observation given the past, the per-observation log-likelihoods add up to the joint log-density of all observed numbers, and the smoother returns the moments of every state given the whole series. Conditioning is on the whole data vector at once, by the textbook formula, not step by step.", "quantifier": "all dimensions, series lengths, system matrices (time varying where the filter supports it), missing patterns, initial moments and data", "why_tests_cant": "the claim compares a recursion of any length with one big Gaussian conditioning for every model and every data set; tests compare single models with another library up to tolerance", "anchors": ["pymc_extras/statespace/filters/kalman_filter.py:StandardFilter", "pymc_extras/statespace/filters/kalman_filter.py:UnivariateFilter", "pymc_extras/statespace/filters/kalman_smoother.py:KalmanSmoother.smoother_step"]}
{"id": "C90", "title": "GeneralizedPoisson draws for lam>=0 follow its logp; documented total, mean and variance", "statement": "For lam >= 0 every entry of a random draw is the total of that entry's own branching history, drawn generation by generation, even though the loop runs on the whole array; the probability of all histories with total k is exp(logp(k)); the loop ends with probability one for 0 <= lam <= 1; exp(logp) sums to 1 and has mean mu/(1-lam) and variance mu/(1-lam)^3 as documented.", "quantifier": "all array lengths and masks, all values returned by the generator, all k, all mu > 0 and 0 <= lam <= 1", "why_tests_cant": "An unbounded random loop and an infinite support: tests compare sample moments to a tolerance at a few parameters.", "anchors": ["pymc_extras/distributions/discrete.py: GeneralizedPoissonRV.rng_fn, _branching_rng_fn, GeneralizedPoisson.logp, docstring"]}
{"id": "C91", "title": "Reported state covariances never understate the true error", "statement": "Run a Kalman filter with its jitter (any value >= 0, so also the default, and for complete data also with an inaccurate linear solver) on data generated by the model. At every time the predicted and filtered states it reports are unbiased linear functions of the entries observed so far, with coefficients that do not depend on the numbers, and the reported covariance minus the true mean square error matrix of that estimate is positive semidefinite. This holds for the standard filter on complete data (also for its forecast of the observation), for the standard filter with missing entries when the jitter is positive and the noise of missing and observed entries is uncorrelated, and for the univariate filter with any missing entries and diagonal noise.", "quantifier": "all model dimensions, time-varying system matrices, series lengths, missing patterns, jitters, initial moments and observed numbers", "why_tests_cant": "the claim compares a reported covariance with an expectation over all data series, for every model and every jitter; a simulation only samples a few models and has Monte Carlo error", "anchors": ["pymc_extras/statespace/filters/kalman_filter.py:StandardFilter.update", "pymc_extras/statespace/filters/kalman_filter.py:UnivariateFilter.kalman_step", "pymc_extras/statespace/filters/kalman_filter.py:BaseFilter.handle_missing_values", "pymc_extras/statespace/filters/utilities.py:stabilize"]}
{"id": "C92", "title": "Filtered, predicted and smoothed covariances are exactly symmetric in floating point", "statement": "However floating-point rounding falls and whatever the linear algebra routines (matrix products, solves, pseudo-inverses) return, every filtered covariance and every predicted covariance after the user-given first one, reported by the standard and the univariate filter, equals its own transpose entry for entry (bit for bit), and so does every smoothed covariance: so users can hand them to a Cholesky or a multivariate normal without symmetrising. It only needs x + y == y + x, which IEEE 754 addition satisfies in every format and rounding mode. The covariance of the forecast observations carries no such guarantee.", "quantifier": "every number system with commutative addition (in particular IEEE doubles), every matrix product/solver/determinant routine, every data series with any missing pattern, every model size, every (possibly asymmetric) initial covariance and noise matrix", "why_tests_cant": "a test sees a handful of roundings and one BLAS; the claim is over all roundings, all summation orders and all inputs", "anchors": ["pymc_extras/statespace/filters/utilities.py: quad_form_sym, stabilize", "pymc_extras/statespace/filters/kalman_filter.py: StandardFilter.update, UnivariateFilter.kalman_step, BaseFilter.predict", "pymc_extras/statespace/filters/kalman_smoother.py: KalmanSmoother.smoother_step"]}
{"id": "C93", "title": "Chi and Maxwell follow their documented densities, means and variances", "statement": "A Chi(nu) draw falls in [u,v] with probability equal to the integral over [u,v] of the density printed in its docstring, for every real nu>0 (given that pm.ChiSquared has its usual density); that density integrates to one, and its mean and variance are the documented Gamma-function expressions. Draws are nonnegative, as the log transform it installs requires. A vector of Maxwell(a) draws with default size has independent entries, entry i with the documented density at a_i, total one, mean 2a sqrt(2/pi) and variance a^2(3 pi-8)/pi; it is rejected exactly when some a_i is not positive.", "quantifier": "every real nu>0, every vector a of any length, every interval or box, every probability consistent with pm.ChiSquared", "why_tests_cant": "distributional claims over a continuum of parameters and intervals; sampling tests only approximate a few", "anchors": ["pymc_extras/distributions/continuous.py: Chi.chi_dist, Chi docstring", "pymc_extras/distributions/continuous.py: Maxwell.maxwell_dist, Maxwell docstring"]}
{"id": "C94", "title": "R2D2M2CP gives every coefficient its own share of variance, sign probability and randomness", "statement": "For every mixture of certain (0 or 1) and uncertain sign probabilities, any number of rows and regressors, centered or not: entry i of beta is m_i + s_i z_k, where z_k is a standard normal used by no other entry (and none is left unused), or the constant m_i when the sign is certain; in units of its regressor its second moment is phi_i * r2 * output_sigma^2 of its own row; it is positive with the sign probability given for it (exactly that sign when certain); the centered and non-centered forms describe the same law. Uncertain sign probabilities come from a Beta variable with the mean and standard deviation given for that entry. The variances of a row add up to r2*output_sigma^2 when the weights add to one, leaving the residual variance. A certain sign with a nonzero standard deviation, or non-constant probabilities, is rejected. The variables registered by one call have distinct names.", "quantifier": "every shape, every array of probabilities/standard deviations/weights/scales, every option combination, every value of the free variables, every variable name", "why_tests_cant": "the repository's tests compile a few shapes and option combinations and check only that sampling runs; index scatter/gather bugs need all mask patterns", "anchors": ["pymc_extras/distributions/multivariate/r2d2m2cp.py: _R2D2M2CP_beta, _psi_masked, _psi, _phi, R2D2M2CP"]}
{"id": "C95", "title": "fit_laplace: the approximation is made of the optimizer's own point, and options do what they say", "statement": "fit_laplace centres the approximation at the optimizer's final point, read variable by variable, takes the Hessian there, and returns for every variable its own draws; every documented option (return_raw, include_transformed, fit_in_unconstrained_space, gradient_backend, model, compile_kwargs) has its documented effect and no other.", "quantifier": "every model, option combination, optimizer result and sample", "why_tests_cant": "all models, options and vectors", "anchors": ["pymc_extras/inference/laplace.py:fit_laplace", "pymc_extras/inference/find_map.py:find_MAP", "pymc_extras/inference/laplace.py:fit_mvn_to_MAP"]}
{"id": "C96", "title": "BetaNegativeBinomial has the documented pmf, total mass, mean and variance", "statement": "For positive alpha, beta and r the log-probability BetaNegativeBinomial returns for every value x = 0, 1, 2, ... is the logarithm of the pmf in its docstring, values below zero have probability zero, the probabilities sum to one, the mean is r*beta/(alpha-1) when alpha > 1 and infinite otherwise, the variance is the documented formula when alpha > 2 and infinite otherwise; a parameter that is not positive raises.", "quantifier": "all real alpha, beta, r and all integer values", "why_tests_cant": "Total mass, mean and variance are infinite sums over unbounded support with three continuous parameters; heavy tails make truncated sums uninformative, and divergence cannot be observed.", "anchors": ["pymc_extras/distributions/discrete.py:BetaNegativeBinomial.beta_negative_binomial_logp"]}
{"id": "C97", "title": "Skellam has the documented mean and variance", "statement": "For positive rates the probabilities Skellam's log-probability gives to the integers sum to one, with mean mu1 - mu2 and variance mu1 + mu2, and the sums converge absolutely; the law of the difference of two Poisson draws has that mean and variance for all non-negative rates.", "quantifier": "all rates mu1, mu2 and all integers", "why_tests_cant": "The claim is about infinite sums over all integers for a two-parameter continuum of rates.", "anchors": ["pymc_extras/distributions/discrete.py:Skellam.skellam_logp"]}
{"id": "C98", "title": "Saved Kalman filter outputs are the fitted filter's own, and later calls use the settings the model was built with", "statement": "build_statespace_graph(save_kalman_filter_outputs_in_idata=True) stores filtered, predicted and smoothed states and covariances and the predicted observations, each under its own name with its own axes, computed with the caller's missing-value marker and cov_jitter; the likelihood uses the same outputs; conditional sampling and forecasting rerun the filter with the same settings.", "quantifier": "every filter, smoother, coordinate set, marker and jitter", "why_tests_cant": "Settings and coordinates range over unbounded sets, and a forgotten setting only shows for values other than the default.", "anchors": ["pymc_extras/statespace/core/statespace.py:PyMCStateSpace.build_statespace_graph", "pymc_extras/statespace/core/statespace.py:PyMCStateSpace._register_kalman_filter_outputs_with_pymc_model", "pymc_extras/statespace/core/statespace.py:PyMCStateSpace._build_smoother_graph", "pymc_extras/statespace/core/statespace.py:PyMCStateSpace._kalman_filter_outputs_from_dummy_graph"]}
{"id": "C99", "title": "Parameter names, advertised dims, coordinates and placeholders of the packaged models agree", "statement": "For every constructible BayesianSARIMA, BayesianVARMAX and BayesianETS model: building the model never fails while registering parameters, the parameters listed by param_names are exactly the placeholders registered (each once), param_dims has an entry for exactly the parameters, and a prior declared as pm.X(name, dims=mod.param_dims[name]) in a pm.Model with coords=mod.coords has exactly the shape the placeholder requires.", "quantifier": "all orders, seasonal orders, state structures, numbers and names of series, trend/damping/seasonal/measurement-error/dense/stationary options", "why_tests_cant": "each option multiplies the configurations and the orders and numbers of series are unbounded; tests fix a handful", "anchors": ["pymc_extras/statespace/models/SARIMAX.py:BayesianSARIMA.param_dims", "pymc_extras/statespace/models/VARMAX.py:BayesianVARMAX.param_dims", "pymc_extras/statespace/models/ETS.py:BayesianETS.param_dims", "pymc_extras/statespace/models/utilities.py:make_default_coords", "pymc_extras/statespace/core/statespace.py:PyMCStateSpace.make_and_register_variable"]}
{"id": "C100", "title": "GenExtreme has the documented mass, mean and variance", "statement": "For every valid (mu, sigma > 0, -1 < xi < 1) the density that GenExtreme.logp defines integrates to one over the documented support and is zero outside it; its mean is mu + sigma (Gamma(1-xi) - 1)/xi for xi <> 0 and mu + sigma*gamma (Euler-Mascheroni) for xi = 0; its variance is sigma^2 (Gamma(1-2xi) - Gamma(1-xi)^2)/xi^2 for xi <> 0, xi < 1/2, (pi^2/6) sigma^2 for xi = 0, and infinite for xi >= 1/2.", "quantifier": "every location, scale and shape (shapes the code treats as zero because 0 < |xi| <= 1e-8 are excluded)", "why_tests_cant": "the moments are improper integrals over a continuum of parameters; a test compares a few Monte Carlo averages, and cannot see an infinite variance", "anchors": ["pymc_extras/distributions/continuous.py:GenExtreme", "pymc_extras/distributions/continuous.py:GenExtreme.logp"]}
{"id": "C101", "title": "DiscreteMarkovChain accepts exactly the well-specified arguments and the parameters it accepts define a distribution", "statement": "DiscreteMarkovChain.dist succeeds exactly when one (not both, not neither) of P and logit_P is given, the number of steps is given or can be read from the shape and the two agree when both are given, and init_dist is absent or an unregistered distribution whose draws are at most one-dimensional; draws then have the requested length, n_lags included. P is kept unchanged. logp raises unless the transition array is square in all its axes and every row sums to one within 1e-8 + 1e-5. Logits are always accepted, and give probabilities of all sequences summing to exactly one; for an accepted nonnegative P the total over sequences of length N lies within (1 +- 1.001e-5)^(N - n_lags). Every accepted P has nonnegative entries.", "quantifier": "every P or logit_P (any number of states and lags), steps, shape, init_dist, n_lags and length", "why_tests_cant": "the arrays, lags and lengths are unbounded and the total mass is a sum over k^N sequences", "anchors": ["pymc_extras/distributions/timeseries.py:DiscreteMarkovChain.dist", "pymc_extras/distributions/timeseries.py:discrete_mc_logp"]}
{"id": "C102", "title": "extract_components_from_idata converts exactly the state trajectories of a dataset", "statement": "extract_components_from_idata keeps exactly the variables whose last axis has one entry per hidden state and converts each of them on its own, index by index over chains, draws and time: same dimensions, the state axis replaced by one column per component (per state for components that are not summed), labelled by the component names; the other labels are unchanged and nothing becomes missing. It fails exactly when no variable holds all states, such a variable has no time dimension, or some variable is a scalar. Only trajectories of states are converted: covariances in the dataset are left alone.", "quantifier": "every dataset (any number of variables, dimensions, labels), every set of components", "why_tests_cant": "the dataset's contents, shapes and labels are unbounded; a test checks one dataset with one kind of variable", "anchors": ["pymc_extras/statespace/models/structural.py:StructuralTimeSeries.extract_components_from_idata", "pymc_extras/statespace/models/structural.py:StructuralTimeSeries._hidden_states_from_data", "pymc_extras/statespace/models/structural.py:StructuralTimeSeries._get_subcomponent_names"]}
{"id": "C103", "title": "SequenceMvNormal draws one vector per step and batch entry, and its logp is the filter's", "statement": "A draw of SequenceMvNormal has the shape of its means, whatever batch dimensions stand in front of time and state; the vector at batch entry b and time t is a multivariate normal draw with the mean and covariance of that entry and time, from random numbers used for nothing else. Fewer covariances than means is an error. Its logp is the vector handed over by the Kalman filter, exactly when the data and both parameters have the same number of steps, with or without batch dimensions, and only for data of the distribution's shape.", "quantifier": "every number of batch dimensions, steps and states, every means, covariances, data and logp", "why_tests_cant": "the number and lengths of the axes are unbounded; the existing test checks the static shape only", "anchors": ["pymc_extras/statespace/filters/distributions.py:SequenceMvNormal", "pymc_extras/statespace/filters/distributions.py:sequence_mvnormal_logp"]}
{"id": "C104", "title": "compile_statespace simulates the model from its initial state", "statement": "The function returned by compile_statespace, given by name the parameters that occur in the initial state and in the system matrices (and a number of steps, if none was given at compilation), returns for every draw a trajectory of steps + 1 states that starts exactly at the model's initial state (the initial covariance plays no part) and follows the transition and observation equations with the matrices of each step, the noise of one draw continuing that of the previous one. Unknown and missing keywords are errors; the number of steps has a default; results have axes draws, time and state; parameters of the initial covariance may be given.", "quantifier": "every model (sizes, time-varying matrices, parameter names), number of draws and steps, parameter values, generator", "why_tests_cant": "the model, the number of draws and of steps are unbounded; there is no test of compile_statespace at all", "anchors": ["pymc_extras/statespace/core/compile.py:compile_statespace", "pymc_extras/statespace/core/statespace.py:PyMCStateSpace._unpack_statespace_with_placeholders"]}
{"id": "C105", "title": "StandardScalerDF standardizes every column and keeps the labels", "statement": "StandardScalerDF.fit_transform(X) returns a DataFrame with X's row and column labels, NaN exactly where X has NaN, in which every column with a number has mean 0 and, unless constant, variance 1 (a constant column becomes 0). transform of a later frame uses the mean and standard deviation of the training columns only, keeps that frame's own labels, and raises if its columns are not the training columns in the same order.", "quantifier": "all frames (any number of rows and columns, any NaN pattern, any labels including repeated ones), all later frames, all settings of with_mean and with_std", "why_tests_cant": "it is about all data sets and all missing patterns, and relates what is done to new rows to the rows seen at fit time", "anchors": ["pymc_extras/preprocessing/standard_scaler.py:StandardScalerDF"]}
{"id": "C106", "title": "The filter and the group asked for are the ones used", "statement": "PyMCStateSpace (and every packaged model and Component.build) accepts each filter name its documentation lists, in upper or lower case, uses exactly that filter, and refuses every other string; sampling methods read exactly the group (prior or posterior) they were given and refuse any other name.", "quantifier": "all strings, numbers of series and inference data", "why_tests_cant": "all strings; tests use only the spelled-out valid names", "anchors": ["pymc_extras/statespace/core/statespace.py:PyMCStateSpace.__init__", "pymc_extras/statespace/core/statespace.py:FILTER_FACTORY", "pymc_extras/statespace/core/statespace.py:_verify_group", "pymc_extras/statespace/models/structural.py:Component.build"]}
{"id": "C107", "title": "Equivalent ways to write a model give the same inference", "statement": "The order in which components are added, the order (or orthogonal basis) of the hidden states and of the shocks, and the order of the observed series do not change the log-likelihood; filtered, predicted and smoothed states and covariances and observation forecasts are the same quantities in the new order.", "quantifier": "all models (time-varying or not), dimensions, data with any pattern of missing entries, numbers of steps and jitters", "why_tests_cant": "all models, orders and data", "anchors": ["pymc_extras/statespace/filters/kalman_filter.py:StandardFilter.update", "pymc_extras/statespace/filters/kalman_filter.py:UnivariateFilter.kalman_step", "pymc_extras/statespace/filters/kalman_smoother.py:KalmanSmoother.smoother_step", "pymc_extras/statespace/models/structural.py:Component.__add__"]}
