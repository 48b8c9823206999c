{"id": "C01", "title": "Systematic resampling returns n valid, ordered indices", "statement": "For every weight vector w of non-negative weights with positive sum, every n>=1 and every random draw, sample(w, n) returns exactly n indices, each in 0..len(w)-1, in non-decreasing order, and never raises.", "quantifier": "all weight vectors (any length), all n, all values of the uniform draw in [0,1)", "why_tests_cant": "An out-of-range index only appears for particular weights and draws; tests try a handful of seeds.", "anchors": ["pyparticleest/filter.py:sample"]}
{"id": "C02", "title": "Systematic resampling gives every particle its floor-or-ceiling share", "statement": "With W the sum of the weights, the number of times index i occurs in sample(w, n) differs from n*w[i]/W by strictly less than 1, so it is floor or ceil of that number.", "quantifier": "all weight vectors, all n, all draws, all indices i", "why_tests_cant": "It is a universally quantified arithmetic bound; sampling tests see only averages.", "anchors": ["pyparticleest/filter.py:sample"]}
{"id": "C03", "title": "Resampling is exactly unbiased", "statement": "Over the uniform draw, sample(w, 1) returns i with probability exactly w[i]/W (the set of draws giving i is an interval of that length), and the expected number of copies of i in sample(w, n) is exactly n*w[i]/W.", "quantifier": "all weight vectors, all n, all i; integral over the uniform draw", "why_tests_cant": "Exact probabilities cannot be established by drawing samples.", "anchors": ["pyparticleest/filter.py:sample", "pyparticleest/filter.py:ParticleApproximation.sample"]}
{"id": "C04", "title": "Only relative weights matter when sampling", "statement": "sample(c*w, n) returns the same indices as sample(w, n) for the same draw, for any c>0; adding a constant to all log-weights changes neither resample() nor sample() nor the effective sample size.", "quantifier": "all weight vectors, n, draws, positive scale factors, log offsets", "why_tests_cant": "A metamorphic law over reals.", "anchors": ["pyparticleest/filter.py:sample", "pyparticleest/filter.py:ParticleApproximation.resample", "pyparticleest/filter.py:ParticleApproximation.calc_Neff"]}
{"id": "C05", "title": "Zero-weight particles are never selected", "statement": "If w[i]=0 then i does not occur in sample(w, n), for every draw r in (0,1). At the draw r=0 exactly, an index with zero weight (a leading one) is returned: the property fails on that single draw.", "quantifier": "all weight vectors, n, i, draws", "why_tests_cant": "The failing draw has probability about 2^-53, tests never hit it.", "anchors": ["pyparticleest/filter.py:sample"]}
{"id": "C06", "title": "Resampling survives floating point rounding of cumulative sums", "statement": "Whatever monotone rounding is applied to the additions, divisions and comparisons keys used by sample, with IEEE rounding of the normalised keys, all returned indices are valid as long as the normalised keys do not exceed 1; the last normalised cumulative weight is exactly 1.", "quantifier": "all rounding functions that are monotone and fix 0 and 1, all weights, all draws", "why_tests_cant": "Rounding-dependent corner cases need adversarial inputs.", "anchors": ["pyparticleest/filter.py:sample"]}
{"id": "C07", "title": "The effective number of particles is between 1 and N", "statement": "calc_Neff() lies in [1, N] for every finite log-weight vector of length N>=1, equals N exactly when all weights are equal, and equals 1 exactly when one particle carries all weight.", "quantifier": "all N, all log-weights including -inf entries as long as one is finite", "why_tests_cant": "Inequality over all real vectors.", "anchors": ["pyparticleest/filter.py:ParticleApproximation.calc_Neff"]}
{"id": "C08", "title": "resample() keeps only existing particles and gives them equal weight", "statement": "After resample(model, N) the approximation has N particles, each a copy of the old particle whose index is returned for it, all log-weights equal -log N (so the weights sum to one), num equals N and the offset is zero.", "quantifier": "all approximations, all N, all draws", "why_tests_cant": "Must hold for every weight vector and draw.", "anchors": ["pyparticleest/filter.py:ParticleApproximation.resample", "pyparticleest/interfaces.py:ParticleFiltering.copy_ind"]}
{"id": "C09", "title": "Resampling happens exactly when the effective sample size is below the threshold", "statement": "For the filters 'PF', 'APF', 'PFY', 'SIR', forward() returns True iff res>0 and Neff < res*N; with res=0 never; with res>1 always; when it returns False the ancestor of every particle is itself and the previous weights are carried over.", "quantifier": "all models, histories, thresholds, draws", "why_tests_cant": "Decision depends on data-dependent weights over any history.", "anchors": ["pyparticleest/filter.py:ParticleFilter.forward", "pyparticleest/filter.py:SIR.forward", "pyparticleest/filter.py:FFPropY.forward", "pyparticleest/filter.py:AuxiliaryParticleFilter.forward"]}
{"id": "C10", "title": "Measuring multiplies weights by the likelihood", "statement": "After a measurement the normalised weight of particle i is proportional to its previous weight times the likelihood the model returned for it; stored log-weight plus offset equals old log-weight plus old offset plus returned log-likelihood; the largest stored log-weight is 0.", "quantifier": "all particle sets, previous weights, likelihoods", "why_tests_cant": "Exact Bayes-rule identity over all real inputs.", "anchors": ["pyparticleest/filter.py:ParticleFilter.measure", "pyparticleest/filter.py:SIR.measure"]}
{"id": "C11", "title": "Weights never become NaN as long as one particle survives", "statement": "For every history in which the model only returns finite or -inf log-likelihoods and at every measurement at least one particle of non-zero weight has non-zero likelihood, no stored log-weight is ever NaN or +inf and its maximum is 0. If all likelihoods are -inf the weights become NaN, stay NaN in every later forward step of the bootstrap filter (which then never resamples), and an explicit resample() silently copies particle 0 to every particle.", "quantifier": "all histories of any length, all models meeting the contract", "why_tests_cant": "Depends on whole histories; failure is silent.", "anchors": ["pyparticleest/filter.py:ParticleFilter.measure", "pyparticleest/filter.py:ParticleApproximation.resample", "pyparticleest/filter.py:sample"]}
{"id": "C12", "title": "The incremental likelihood can be recovered from weights and offset", "statement": "After forward() of a bootstrap filter on an approximation with weights summing to one, the sum over particles of exp(w_i + w_offset) equals the weighted average of the model's likelihoods; w_offset belongs to that step only (it restarts from zero in each forward step). For the auxiliary filter this is false: without resampling the stored weights are proportional to w_i p(y|x_i'), but the offset is the largest of w a p over the largest of w a (a the first stage weights), so weights and offset do not represent the sum of w_i p(y|x_i') (two particles, all likelihoods 1: they represent 2, not 1).", "quantifier": "all models, weights, histories", "why_tests_cant": "Exact identity over reals and histories.", "anchors": ["pyparticleest/filter.py:ParticleFilter.forward", "pyparticleest/filter.py:ParticleFilter.measure", "pyparticleest/filter.py:ParticleApproximation.__init__"]}
{"id": "C13", "title": "Stored inputs, measurements and times line up with the steps taken", "statement": "After any sequence of forward(u,y) and measure(y) calls, with n forward calls, the trajectory has n+1 steps, uvec[k] is the input of the k-th forward call, yvec[k] is the last measurement supplied for step k (by forward or measure; None if none), tvec[k]=k, and the vectors are long enough for every step.", "quantifier": "all call sequences (any length and order), with or without a preallocated T", "why_tests_cant": "Resizing logic depends on the interleaving; tests cover only the Simulator's order.", "anchors": ["pyparticleest/filter.py:ParticleTrajectory.__init__", "pyparticleest/filter.py:ParticleTrajectory.forward", "pyparticleest/filter.py:ParticleTrajectory.measure"]}
{"id": "C14", "title": "Simulator aligns inputs with measurements", "statement": "simulate(meas_first=False) yields len(y)+1 steps with y[i] measured at step i+1 after input u[i]; meas_first=True yields len(y) steps with y[i] measured at step i and u[i] driving step i to i+1; when u is None every input is None; the returned value is the number of forward steps that resampled; smoothing happens exactly when a smoother is given and num_traj > 0, with num_traj trajectories over the filter result that was just computed.", "quantifier": "all datasets of any length, all filters", "why_tests_cant": "Off-by-one errors over all lengths.", "anchors": ["pyparticleest/simulator.py:Simulator.__init__", "pyparticleest/simulator.py:Simulator.simulate"]}
{"id": "C15", "title": "Every stored step is well formed", "statement": "For every model returning arrays of the right length and every history, each stored step has N particles, N weights and N ancestor indices which are valid indices into the previous step (the first step's ancestors are 0..N-1), for every filter kind.", "quantifier": "all filters, models meeting the shape contract, histories, draws", "why_tests_cant": "Invariant over unbounded histories.", "anchors": ["pyparticleest/filter.py:ParticleTrajectory.forward", "pyparticleest/filter.py:ParticleTrajectory.measure", "pyparticleest/filter.py:ParticleFilter.forward", "pyparticleest/filter.py:SIR.forward", "pyparticleest/filter.py:CSIRAS.forward", "pyparticleest/filter.py:FFPropY.forward", "pyparticleest/filter.py:CPF.forward", "pyparticleest/filter.py:CPFAS.forward", "pyparticleest/filter.py:AuxiliaryParticleFilter.forward", "pyparticleest/filter.py:CPFYAS.forward"]}
{"id": "C16", "title": "Filtering forward never changes earlier steps", "statement": "A forward() call leaves every previously stored step (particles, weights, ancestors) unchanged, as does smoothing; the caller's conditioning trajectory is not modified either, provided the model writes only into the particle array it was handed for update.", "quantifier": "all filters, models respecting the frame contract, histories", "why_tests_cant": "Aliasing bugs depend on array sharing that a value check at one point cannot rule out.", "anchors": ["pyparticleest/filter.py:ParticleApproximation.__init__", "pyparticleest/filter.py:ParticleFilter.forward", "pyparticleest/filter.py:CPF.forward"]}
{"id": "C17", "title": "Model callbacks see only data up to the current step", "statement": "When advancing from step k the model's noise, dynamics and measurement callbacks receive u_k, t_k and y_{k+1}: the default callbacks use the last element of the slices they are handed, which are exactly the ones for step k. For filter 'PFY' with a preallocated T the proposal is called with the last slot of the preallocated vectors instead of step k+1.", "quantifier": "all histories, with and without preallocated T", "why_tests_cant": "Depends on the relation between vector lengths and indices over all histories.", "anchors": ["pyparticleest/filter.py:ParticleFilter.update", "pyparticleest/filter.py:ParticleFilter.measure", "pyparticleest/filter.py:FFPropY.forward", "pyparticleest/interfaces.py:ParticleFiltering.update_full", "pyparticleest/interfaces.py:ParticleFiltering.measure_full"]}
{"id": "C18", "title": "Filter selection is total and case-insensitive", "statement": "ParticleTrajectory accepts exactly the eight documented names in any letter case and raises ValueError for every other string.", "quantifier": "all strings", "why_tests_cant": "All strings cannot be enumerated.", "anchors": ["pyparticleest/filter.py:ParticleTrajectory.__init__"]}
{"id": "C19", "title": "Conditional filters keep the conditioned path", "statement": "With filter 'CPF', 'CPFAS' or 'CPFYAS' the last particle at every step equals the conditioning trajectory's state at that step; for 'CPF' its ancestor is itself, so following ancestors from the last particle yields the conditioning path. For 'CSIRAS' this holds for every step but the first, which is not pinned.", "quantifier": "all models, conditioning trajectories, lengths, draws", "why_tests_cant": "Invariance of a particle Gibbs kernel needs it at every step.", "anchors": ["pyparticleest/filter.py:CPF.create_initial_estimate", "pyparticleest/filter.py:CPF.forward", "pyparticleest/filter.py:CPFAS.forward", "pyparticleest/filter.py:CPFYAS.forward", "pyparticleest/filter.py:CSIRAS.forward"]}
{"id": "C20", "title": "Conditional ancestor sampling uses weight times transition density", "statement": "In 'CPFAS', 'CPFYAS' and 'CSIRAS' the ancestor of the conditioned particle is i with probability proportional to w_i * p(x'_{k+1} | x_i), the other N-1 ancestors are drawn from w.", "quantifier": "all weights, transition densities, draws", "why_tests_cant": "Exact distribution.", "anchors": ["pyparticleest/filter.py:CPFAS.forward", "pyparticleest/filter.py:CPFYAS.forward", "pyparticleest/filter.py:CSIRAS.forward"]}
{"id": "C21", "title": "Auxiliary filter weights are the correct importance ratio", "statement": "For filter 'APF' with a measurement at every step, the weight after forward() is proportional to (w_i l_i if not resampled, else 1) * p(y|x'_i) / l_a(i) where l is the first-stage weight of i's ancestor; without a measurement (y None) the call raises.", "quantifier": "all models, weights, draws", "why_tests_cant": "Exact identity plus an error path.", "anchors": ["pyparticleest/filter.py:AuxiliaryParticleFilter.forward"]}
{"id": "C22", "title": "SIR weights are the correct importance ratio", "statement": "For filter 'SIR', the weight after forward() is proportional to the ancestor's weight (or 1 if resampled) times p(y|x') p(x'|x) / q(x'|x,y).", "quantifier": "all models, weights, draws", "why_tests_cant": "Exact identity over reals.", "anchors": ["pyparticleest/filter.py:SIR.forward"]}
{"id": "C23", "title": "Ancestor smoother returns genuine filter histories", "statement": "Each trajectory returned by smoother 'ancestor' is a path of the filter: at every time k the particle is one of step k's particles and is the recorded ancestor of the one at k+1. Averaged over the random draw, the mean of any function over the M trajectories is the mean over the last particles, with their normalised weights, of the function of the recorded path that ends in each.", "quantifier": "all well-formed filter trajectories, all M, draws", "why_tests_cant": "Index-chasing over any length.", "anchors": ["pyparticleest/smoother.py:SmoothTrajectory.calculate_ancestors", "pyparticleest/smoother.py:SmoothTrajectory.perform_ancestors_int"]}
{"id": "C24", "title": "Backward simulation draws from the exact backward kernel", "statement": "bsi_full returns for each trajectory an index i with probability exactly proportional to w_i * p(x_{k+1}|x_i) (an interval of draws of that length), and the index is valid.", "quantifier": "all filter weights with at least one finite product, transition densities, draws", "why_tests_cant": "Exact distribution.", "anchors": ["pyparticleest/smoother.py:bsi_full"]}
{"id": "C25", "title": "Rejection sampling backward simulation is exact and total", "statement": "bsi_rs accepts candidate i with probability p(x'|x_i)/exp(maxpdf), so when maxpdf bounds the transition density and candidates are drawn from w, the accepted index has the same law as bsi_full; after at most R rounds every remaining trajectory gets an index from bsi_full, so all returned indices are valid. It evaluates the density against future index `todo` rather than `find[todo]`: right only when the future index list is 0..M-1.", "quantifier": "all weights, densities, draws, R, find lists", "why_tests_cant": "Exact law; bug visible only for non-identity index lists.", "anchors": ["pyparticleest/smoother.py:bsi_rs"]}
{"id": "C26", "title": "Adaptive rejection sampling always terminates", "statement": "For sv, sw, P1 > 0 and any draws, the loop in bsi_rsas ends after finitely many rounds: the estimated acceptance probability falls below ratio/N unless trajectories are accepted.", "quantifier": "all draw sequences, densities, N, M, parameters", "why_tests_cant": "Liveness over all infinite draw sequences.", "anchors": ["pyparticleest/smoother.py:bsi_rsas"]}
{"id": "C27", "title": "MCMC backward simulation targets the backward kernel", "statement": "Each step of bsi_mcmc satisfies detailed balance with respect to w_i p(x'|x_i) when candidates are drawn from w, and returns valid indices.", "quantifier": "all weights, densities, states", "why_tests_cant": "Exact identity on transition probabilities.", "anchors": ["pyparticleest/smoother.py:bsi_mcmc"]}
{"id": "C28", "title": "Metropolis-Hastings smoothing moves satisfy detailed balance", "statement": "The acceptance step of the 'mhips'/'mhbp' smoothers accepts a proposal iff log(u) < log of p(x'|prev) p(y|x') p(next|x') q(x|...) / (p(x|prev) p(y|x) p(next|x) q(x'|...)), i.e. with probability min(1, ratio), so the joint density is left invariant; rejected trajectories are unchanged.", "quantifier": "all densities, proposals, states", "why_tests_cant": "Exact identity over all densities.", "anchors": ["pyparticleest/smoother.py:mc_step"]}
{"id": "C29", "title": "Backward smoothers return particles of the filter, one per step", "statement": "perform_bsi with methods full/rs/rsas/mcmc on a filter trajectory of T steps produces T smoothed steps of M particles; for sampling-free models (sample_smooth copying) each is one of the filter's particles at that step; u,y,t stored are the filter's.", "quantifier": "all filter trajectories, M, T>=1, methods, draws", "why_tests_cant": "Induction over time.", "anchors": ["pyparticleest/smoother.py:SmoothTrajectory.perform_bsi", "pyparticleest/smoother.py:SmoothTrajectory.__init__"]}
{"id": "C30", "title": "Smoother selection and option defaults", "statement": "SmoothTrajectory accepts exactly the documented methods and raises ValueError otherwise; perform_smoothing fills maxpdf/R/x1/P1/sv/sw/ratio defaults per method and user options override them.", "quantifier": "all method strings, all option dictionaries", "why_tests_cant": "Quantifies over all strings and dictionaries.", "anchors": ["pyparticleest/smoother.py:SmoothTrajectory.__init__", "pyparticleest/filter.py:ParticleTrajectory.perform_smoothing"]}
{"id": "C31", "title": "Single-step data sets and the MH smoothers", "statement": "'mhips' and 'mhbp' cannot smooth a filter trajectory with only one step: they raise for every model and every draw.", "quantifier": "all one-step trajectories", "why_tests_cant": "Exception for a whole class of inputs.", "anchors": ["pyparticleest/smoother.py:SmoothTrajectory.perform_mhbp", "pyparticleest/smoother.py:SmoothTrajectory.perform_mhips_pass"]}
{"id": "C32", "title": "Reported estimates are normalised weights and means", "statement": "get_filtered_estimates returns for each step non-negative weights summing to one, independent of the common offset; get_filtered_mean and get_smoothed_mean lie in the componentwise range of the particles.", "quantifier": "all trajectories with finite weights", "why_tests_cant": "Inequalities over reals.", "anchors": ["pyparticleest/simulator.py:Simulator.get_filtered_estimates", "pyparticleest/simulator.py:Simulator.get_filtered_mean", "pyparticleest/simulator.py:Simulator.get_smoothed_mean"]}
{"id": "C33", "title": "Kalman measurement update is exact Bayes", "statement": "For invertible P and R: measure() changes (z,P) so that N(z|z0,P0) N(y|Cz+h,R) = N(y|C z0+h, C P0 C'+R) N(z|z1,P1) for every z, and the value it returns is the log of the marginal N(y|C z0+h, C P0 C'+R).", "quantifier": "all dimensions, matrices, states, measurements", "why_tests_cant": "Matrix identity in arbitrary dimension.", "anchors": ["pyparticleest/utils/kalman.py:KalmanFilter.measure_full", "pyparticleest/utils/kalman.py:KalmanFilter.measurement_diff", "pyparticleest/utils/kalman.py:lognormpdf"]}
{"id": "C34", "title": "Kalman prediction propagates first and second moments", "statement": "predict gives mean A z + f and covariance A P A' + Q, the moments of A x + f + v for any x with mean z, covariance P and independent zero-mean v with covariance Q.", "quantifier": "all dimensions, matrices, finite distributions", "why_tests_cant": "Identity over all distributions.", "anchors": ["pyparticleest/utils/kalman.py:KalmanFilter.predict_full", "pyparticleest/utils/kalman.py:KalmanFilter.predict"]}
{"id": "C35", "title": "Covariances stay symmetric and positive semidefinite", "statement": "Starting from a symmetric PSD covariance, any sequence of predicts (PSD Q) and measures (PD R) keeps the covariance symmetric PSD, and a measurement never increases the covariance in any direction.", "quantifier": "all dimensions, all operation sequences", "why_tests_cant": "Invariant over unbounded sequences of matrix operations.", "anchors": ["pyparticleest/utils/kalman.py:KalmanFilter.predict_full", "pyparticleest/utils/kalman.py:KalmanFilter.measure_full"]}
{"id": "C36", "title": "Scalar and matrix Kalman paths agree", "statement": "For a scalar measurement measure() takes a special path whose new mean, covariance and log-likelihood equal those of the general path.", "quantifier": "all state dimensions, all scalar measurements", "why_tests_cant": "Equality of two algorithms on all inputs.", "anchors": ["pyparticleest/utils/kalman.py:KalmanFilter.measure_full_scalar", "pyparticleest/utils/kalman.py:KalmanFilter.measure_full"]}
{"id": "C37", "title": "Rauch-Tung-Striebel smoothing is exact", "statement": "smooth(z,P,z_next,P_next,A,f,Q) returns the mean and covariance of x_t when x_{t+1} has mean z_next and covariance P_next, i.e. the moments obtained by averaging the exact Gaussian conditional of x_t given x_{t+1}; with P_next=0 this is the exact conditional.", "quantifier": "all dimensions, matrices", "why_tests_cant": "Matrix identity.", "anchors": ["pyparticleest/utils/kalman.py:KalmanSmoother.smooth"]}
{"id": "C38", "title": "Kalman dynamics are remembered between calls", "statement": "set_dynamics and the per-call overrides: a parameter given as None keeps the previous value, any other value replaces it; predictions and measurements with per-call matrices do not alter the stored ones.", "quantifier": "all call sequences", "why_tests_cant": "History property.", "anchors": ["pyparticleest/utils/kalman.py:KalmanFilter.set_dynamics", "pyparticleest/utils/kalman.py:KalmanFilter.predict", "pyparticleest/utils/kalman.py:KalmanFilter.measure"]}
{"id": "C39", "title": "All log-density helpers compute the same Gaussian density", "statement": "lognormpdf, lognormpdf_cho, lognormpdf_cho_vec, lognormpdf_vec and lognormpdf_scalar return the log of the same normal density for the same mean error and covariance (given as matrix or as its Cholesky factor).", "quantifier": "all dimensions, errors, covariances", "why_tests_cant": "Equality of algorithms on all inputs.", "anchors": ["pyparticleest/utils/kalman.py:lognormpdf", "pyparticleest/utils/kalman.py:lognormpdf_cho", "pyparticleest/utils/kalman.py:lognormpdf_cho_vec", "pyparticleest/utils/kalman.py:lognormpdf_vec", "pyparticleest/utils/kalman.py:lognormpdf_scalar"]}
{"id": "C40", "title": "Scalar-noise nonlinear Gaussian models evaluate the right density", "statement": "NonlinearGaussian.measure and logp_xnext return the log of N(y|g(x),R) and N(x'|f(x),Q). For one-dimensional measurements/states the code passes the standard deviation where the variance is expected, so it is right only when R=1 (Q=1).", "quantifier": "all models, states, measurements", "why_tests_cant": "The test models use specific variances.", "anchors": ["pyparticleest/models/nlg.py:NonlinearGaussian.measure", "pyparticleest/models/nlg.py:NonlinearGaussian.logp_xnext"]}
{"id": "C41", "title": "logp_xnext_max bounds the transition density", "statement": "The value used by rejection sampling is at least logp_xnext for every particle and every next state. True for MixedNLGaussian and multi-dimensional NonlinearGaussian; false for scalar NonlinearGaussian with Q>1 and for the hierarchical model when the conditional covariance is small.", "quantifier": "all states, next states, covariances", "why_tests_cant": "A supremum over a continuum.", "anchors": ["pyparticleest/models/nlg.py:NonlinearGaussian.logp_xnext_max", "pyparticleest/models/mlnlg.py:MixedNLGaussianSampled.logp_xnext_max", "pyparticleest/models/hierarchial.py:HierarchicalRSBase.logp_xnext_max"]}
{"id": "C42", "title": "Rao-Blackwellised state storage is lossless", "statement": "set_states followed by get_states returns the same nonlinear state, mean and covariance; set_Mz/get_Mz likewise, and neither overwrites the other's fields.", "quantifier": "all dimensions and values", "why_tests_cant": "All dimensions.", "anchors": ["pyparticleest/models/rbpf.py:RBPSBase.set_states", "pyparticleest/models/rbpf.py:RBPSBase.get_states", "pyparticleest/models/rbpf.py:RBPSBase.set_Mz", "pyparticleest/models/rbpf.py:RBPSBase.get_Mz", "pyparticleest/models/ltv.py:LTV.set_states", "pyparticleest/models/ltv.py:LTV.get_states"]}
{"id": "C43", "title": "LTV smoothing uses the dynamics of the right time", "statement": "Backward smoothing of step k of a linear time-varying model should use the dynamics for input u_k and time t_k. The code uses u_0, t_0 for every step; it is right only for constant dynamics.", "quantifier": "all time-varying models, all steps", "why_tests_cant": "Tests use time-invariant dynamics.", "anchors": ["pyparticleest/models/ltv.py:LTV.sample_smooth"]}
{"id": "C44", "title": "Hierarchical smoothing treats each trajectory separately", "statement": "sample_smooth of the hierarchical model should process trajectory j with particle j's state. The code uses particle 0's state for each j; results for j>=1 do not depend on particle j.", "quantifier": "all particle sets with more than one trajectory", "why_tests_cant": "Needs comparison across particles.", "anchors": ["pyparticleest/models/hierarchial.py:HierarchicalBase.sample_smooth"]}
{"id": "C45", "title": "MLNLG conditional dynamics equal Gaussian conditioning", "statement": "Given the next nonlinear state, the linear state's dynamics are the conditional Gaussian: A - Qzxi Qxi^-1 Axi, correspondingly f, and Q - Qzxi Qxi^-1 Qxiz. The code returns the right A and f but leaves Q unreduced; it is right only if the noises are uncorrelated.", "quantifier": "all dimensions and matrices", "why_tests_cant": "Matrix identity.", "anchors": ["pyparticleest/models/mlnlg.py:MixedNLGaussianSampled.calc_cond_dynamics"]}
{"id": "C46", "title": "Expected log-likelihood terms of EM are exact", "statement": "calc_l1, calc_l2, calc_l3 return the expected quadratic terms E[(z-z0)(z-z0)'], E[(z'-Az-f)(z'-Az-f)'], E[(y-Cz-h)(y-Cz-h)'] under the smoothed moments.", "quantifier": "all dimensions, matrices and distributions with the given moments", "why_tests_cant": "Identity over distributions.", "anchors": ["pyparticleest/models/ltv.py:LTV.calc_l1", "pyparticleest/models/ltv.py:LTV.calc_l2", "pyparticleest/models/ltv.py:LTV.calc_l3", "pyparticleest/utils/mlnlg_compute.py:compute_l2"]}
{"id": "C47", "title": "Analytic gradients used by EM are exact", "statement": "compute_logprod_derivative and the gradient helpers return the exact derivative with respect to each parameter of the value they accompany.", "quantifier": "all dimensions, matrices, parameter curves", "why_tests_cant": "Derivative identities for all matrices.", "anchors": ["pyparticleest/utils/mlnlg_compute.py:compute_logprod_derivative", "pyparticleest/utils/mlnlg_compute.py:compute_l2_grad_f", "pyparticleest/utils/mlnlg_compute.py:compute_l2_grad_A", "pyparticleest/models/mlnlg.py:MixedNLGaussianSampled.calc_l3_grad"]}
{"id": "C48", "title": "Sampled noise has the requested covariance", "statement": "NonlinearGaussian.sample_process_noise turns unit noise into noise of covariance Q; the initial state sampler uses the wrong triangle of the Cholesky factor and does not give covariance P0 in general.", "quantifier": "all dimensions, covariances", "why_tests_cant": "Exact second-moment identity.", "anchors": ["pyparticleest/models/nlg.py:NonlinearGaussian.sample_process_noise", "pyparticleest/models/nlg.py:NonlinearGaussianInitialGaussian.create_initial_estimate"]}
{"id": "C49", "title": "SAEM step sizes are valid", "statement": "alpha_gen returns a value in (0,1] for every iteration, 1 for the burn-in iterations and a strictly decreasing sequence afterwards.", "quantifier": "all iterations", "why_tests_cant": "Infinite sequence.", "anchors": ["pyparticleest/paramest/paramest.py:alpha_gen"]}
{"id": "C50", "title": "PSAEM trajectory weights form a probability vector", "statement": "After every iteration of ParamEstimationPSAEM the trajectory weights are non-negative, sum to one, and equal the product of step sizes since that trajectory was drawn (before discarding).", "quantifier": "all iteration counts, step-size functions in [0,1], numbers of trajectories", "why_tests_cant": "Induction over iterations.", "anchors": ["pyparticleest/paramest/paramest.py:ParamEstimationPSAEM.maximize"]}
{"id": "C51", "title": "Discarding PSAEM trajectories is safe", "statement": "Discarding never removes all trajectories, keeps trajectories and weights aligned, keeps at most max_traj, and weights are renormalised to sum to one.", "quantifier": "all weights, thresholds, percentiles, max_traj", "why_tests_cant": "All weight vectors.", "anchors": ["pyparticleest/paramest/paramest.py:ParamEstimationPSAEM.maximize"]}
{"id": "C52", "title": "EM runs the requested number of iterations with the requested sizes", "statement": "ParamEstimation.maximize performs exactly max_iter iterations (tol has no effect), using num_part[i], num_traj[i] with the last entry repeated; PSAEM with a user callback that never returns true never stops.", "quantifier": "all schedules and iteration counts", "why_tests_cant": "Non-termination and unbounded counts.", "anchors": ["pyparticleest/paramest/paramest.py:ParamEstimation.maximize", "pyparticleest/paramest/paramest.py:ParamEstimationPSAEM.maximize"]}
{"id": "C53", "title": "Trajectory-likelihood objective is the mean over trajectories", "statement": "eval_logp_y_fulltraj, eval_logp_xnext_fulltraj equal the mean over the trajectories of the log-density summed along each trajectory, measurement terms with y None skipped; the objective of ParamEstBaseNumeric.maximize is minus the mean complete-data log-likelihood for every parameter vector; the gradients accompany their values. (Found: in the gradient variant the gradient of the initial term is collapsed to its mean over the parameters, so component k of the gradient is right exactly if component k of the initial term's gradient equals that mean; a model returning the sum for the initial term gets it weighted by the number of trajectories.)", "quantifier": "all trajectories, lengths, missing measurement patterns", "why_tests_cant": "All lengths and patterns.", "anchors": ["pyparticleest/paramest/interfaces.py:ParamEstInterface"]}
{"id": "C54", "title": "unifsum is the density of a sum of two uniforms", "statement": "unifsum(a, b)(p) for two intervals a, b (end points in any order) is the convolution at p of the uniform densities on a and b; it is zero outside the sum interval, positive inside, and integrates to one. Two degenerate intervals are rejected.", "quantifier": "all intervals and all points p", "why_tests_cant": "Integral identity.", "anchors": ["pyparticleest/utils/pdf.py"]}
{"id": "C55", "title": "Operation counting does not change results", "statement": "A model wrapped in the Instrumenter returns the same values, exceptions and model state for every adaptive call sequence that uses the methods the wrapper has; counters equal the total number of particles processed by each kind of call, and OpCount addition is componentwise. (The methods propose_from_y, qsample, logp_q and the 3-argument measure are missing from the wrapper and raise.)", "quantifier": "all call sequences", "why_tests_cant": "All sequences.", "anchors": ["pyparticleest/utils/intrument.py:Instrumenter", "pyparticleest/utils/intrument.py:OpCount"]}
{"id": "C56", "title": "find_best_particles returns the most likely particles", "statement": "find_best_particles(n) should return the indices of the n largest weights; the code returns those of the n smallest.", "quantifier": "all weight vectors, n", "why_tests_cant": "No test calls it.", "anchors": ["pyparticleest/filter.py:ParticleApproximation.find_best_particles"]}
{"id": "C57", "title": "spawn always fails", "statement": "spawn() raises for every trajectory (attribute access on a missing field or empty list).", "quantifier": "all trajectories", "why_tests_cant": "Universal failure.", "anchors": ["pyparticleest/filter.py:ParticleTrajectory.spawn"]}
{"id": "C58", "title": "Post-processing of smoothed trajectories happens the expected number of times", "statement": "The model's post_smoothing hook is called once per smoothing for the backward-simulation methods, and twice for 'ancestor' and 'mhbp' (once inside, once by the constructor); the pre_mhips_pass hook is called before each of the R passes of the Metropolis-Hastings methods and never by the others.", "quantifier": "all methods, models, trajectories", "why_tests_cant": "Depends on the control flow for every method.", "anchors": ["pyparticleest/smoother.py:SmoothTrajectory.__init__", "pyparticleest/smoother.py:SmoothTrajectory.perform_ancestors", "pyparticleest/smoother.py:SmoothTrajectory.perform_mhbp"]}
{"id": "C59", "title": "SAEM completes its iterations", "statement": "ParamEstimationSAEM.maximize with max_iter >= 1 should return an estimate. It cannot: it indexes a one dimensional array of steps with two indices, so every run with at least one iteration raises.", "quantifier": "all models, sizes, iteration counts", "why_tests_cant": "A claim about every possible run (no input avoids the failure).", "anchors": ["pyparticleest/paramest/paramest.py:ParamEstimationSAEM.maximize"]}
{"id": "C60", "title": "PSAEM2 is PSAEM with M=1", "statement": "ParamEstimationPSAEM2, which reuses preallocated weight and trajectory arrays, hands exactly the same weighted trajectories to every maximisation as ParamEstimationPSAEM with M=1 and no trajectory limit does for the same smoothed trajectories.", "quantifier": "all histories of smoothed trajectories, step sizes with a positive first one, thresholds, percentiles", "why_tests_cant": "A refinement over every history of iterations and every pattern of discarding.", "anchors": ["pyparticleest/paramest/paramest.py:ParamEstimationPSAEM2.maximize", "pyparticleest/paramest/paramest.py:ParamEstimationPSAEM.maximize"]}
{"id": "C61", "title": "Rao-Blackwellised PSAEM uses the simulated trajectories", "statement": "With raoblackwell=True the trajectories handed to the maximisation should be the ancestral paths of the filter's particles. The array for them is allocated but never filled: none of its content comes from the simulation.", "quantifier": "all models, runs", "why_tests_cant": "Uninitialised memory may look plausible in any single run.", "anchors": ["pyparticleest/paramest/paramest.py:ParamEstimationPSAEM.maximize"]}
{"id": "C62", "title": "The filter for a linear time-varying model is the Kalman filter", "statement": "Starting from identical particles, update and measure of LTV keep all particles identical; each holds exactly the mean and covariance of the Kalman filter with the matrices the model gives for each input and time, and each measurement returns the Kalman log-likelihood for every particle. In particular a model created with constant A, C, Q, R and possibly f and h, run on its own initial particles, is the textbook Kalman filter for x' = A x + f + v, y = C x + h + e started at z0 and P0: same means, covariances and densities of each measurement given the earlier ones.", "quantifier": "all models, particle counts, sequences of updates and measurements", "why_tests_cant": "A claim over every sequence of operations and every time-varying model.", "anchors": ["pyparticleest/models/ltv.py:LTV.update", "pyparticleest/models/ltv.py:LTV.measure", "pyparticleest/models/ltv.py:LTV.create_initial_estimate"]}
{"id": "C63", "title": "Propagating a Rao-Blackwellised particle is exact", "statement": "After cond_predict (and update) each particle holds the next nonlinear state and exactly the mean and covariance of the conditional Gaussian of the next linear state given it, for uncorrelated noises; the noise drawn for the nonlinear state has the covariance of its marginal distribution. With more than one nonlinear state the library's own update always raises ValueError.", "quantifier": "all models whose matrices depend on the nonlinear state only, all particle sets, dimensions, covariances, noises", "why_tests_cant": "An identity between densities over all states and dimensions; the failure holds for every input.", "anchors": ["pyparticleest/models/rbpf.py:RBPFBase.cond_predict", "pyparticleest/models/rbpf.py:RBPFBase.update", "pyparticleest/models/mlnlg.py:MixedNLGaussianSampled.sample_process_noise", "pyparticleest/models/mlnlg.py:MixedNLGaussianSampled.meas_xi_next", "pyparticleest/models/mlnlg.py:MixedNLGaussianSampled.pred_xi"]}
{"id": "C64", "title": "MLNLG transition densities and backward sampling distributions are exact", "statement": "logp_xnext is the log density of the next (nonlinear, linear) state given the particle, logp_xnext_singlestep that of the next nonlinear state; sample_smooth draws the linear state from its exact conditional distribution given the next state (uncorrelated noises), and from the filtered one at the last step.", "quantifier": "all models, particles, next states, dimensions, covariances", "why_tests_cant": "Density identities over all states and dimensions.", "anchors": ["pyparticleest/models/mlnlg.py:MixedNLGaussianSampled.logp_xnext", "pyparticleest/models/mlnlg.py:MixedNLGaussianSampled.logp_xnext_singlestep", "pyparticleest/models/mlnlg.py:MixedNLGaussianSampled.sample_smooth", "pyparticleest/models/mlnlg.py:MixedNLGaussianSampled.calc_A_f_Q"]}
{"id": "C65", "title": "Rao-Blackwellised post-smoothing is exact smoothing along the nonlinear path", "statement": "post_smoothing runs, for every trajectory, the exact conditional filter of the linear state along the trajectory's nonlinear path (measurements that are None skipped) and backward replaces each filtered distribution by the conditional one given the next step averaged over the next step's smoothed distribution, storing mean, covariance and cross covariance; the last step keeps the filtered distribution.", "quantifier": "all models, path lengths, trajectory counts, missing measurement patterns", "why_tests_cant": "All lengths and patterns; identities between densities.", "anchors": ["pyparticleest/models/rbpf.py:RBPSBase.post_smoothing", "pyparticleest/models/rbpf.py:RBPSBase.pre_mhips_pass"]}
{"id": "C66", "title": "Measuring a Rao-Blackwellised particle is exact Bayes", "statement": "measure leaves the nonlinear state unchanged, gives each particle the exact posterior mean and covariance of its linear state, and returns the exact log marginal likelihood of y for each particle, whether C, h, R are stored or given per particle, and whether the measurement is scalar or not. The first stage weights of the auxiliary filter (eval_1st_stage_weights) are the exact log marginal likelihoods of the next measurement at the predicted nonlinear state, with the linear state conditioned on that prediction, for models with one nonlinear state.", "quantifier": "all models, particles, measurements, dimensions", "why_tests_cant": "Identity of densities over all states; many combinations of absent matrices.", "anchors": ["pyparticleest/models/mlnlg.py:MixedNLGaussianSampled.measure", "pyparticleest/models/rbpf.py:RBPFBase.get_meas_dynamics_int"]}
{"id": "C67", "title": "Nonlinear Gaussian proposals are scored with the density they are drawn from", "statement": "propose_smooth draws each proposal from N(f(x),Q) for its parent state x (constant or per-particle f and Q), logp_proposal returns the log of exactly that density for any proposal (unless the state is scalar with constant Q, see C40), and at the first step both are those of the initial state; update adds the noise to f(x), and the first-stage weights of the auxiliary filter are the log-likelihoods at f(x).", "quantifier": "all models, ancestor assignments, particle counts, dimensions", "why_tests_cant": "A density identity over all states and covariances, relating two callbacks.", "anchors": ["pyparticleest/models/nlg.py:NonlinearGaussian.propose_smooth", "pyparticleest/models/nlg.py:NonlinearGaussian.logp_proposal", "pyparticleest/models/nlg.py:NonlinearGaussian.update", "pyparticleest/models/nlg.py:NonlinearGaussian.eval_1st_stage_weights"]}
{"id": "C68", "title": "Hierarchical Rao-Blackwellised filtering steps are exact", "statement": "For hierarchical models measure returns the nonlinear log-likelihood plus the exact log marginal likelihood of the linear measurement and gives each particle the exact posterior of its linear state; update replaces the nonlinear state by the model's next one and predicts the linear state exactly; logp_xnext is the nonlinear log density plus the exact log density of the next linear state, a single next state being compared with every particle.", "quantifier": "all hierarchical models, particle counts, dimensions, measurements, stored or per-particle matrices", "why_tests_cant": "Identities between densities over all states and dimensions.", "anchors": ["pyparticleest/models/hierarchial.py:HierarchicalBase.measure", "pyparticleest/models/hierarchial.py:HierarchicalBase.logp_xnext", "pyparticleest/models/hierarchial.py:HierarchicalBase.calc_cond_dynamics", "pyparticleest/models/rbpf.py:RBPFBase.update"]}
{"id": "C69", "title": "ParticleApproximation.sample and resample follow the normalised weights", "statement": "sample() returns particle i exactly when its uniform draw falls in an interval whose length is the normalised weight of particle i (the intervals lying end to end), and the expected number of copies of particle i after resample(N) is N times its normalised weight.", "quantifier": "all particle approximations with at least one positive weight, all numbers of particles, all draws", "why_tests_cant": "A law: it quantifies over all draws and all weight vectors.", "anchors": ["pyparticleest/filter.py:ParticleApproximation.sample", "pyparticleest/filter.py:ParticleApproximation.resample"]}
{"id": "C70", "title": "Callback protocol of the smoothers", "statement": "A smoother calls the model only as documented: densities of the future, proposals and sample_smooth get, for step k, exactly the k earlier steps as past, all later steps as future, the complete u/y/t vectors and index k; single-step densities and predictions get the past of the step they start from; noise and time updates get the vectors up to the step before, measurement updates up to the step itself; backward simulation asks only about particles of step k paired with their own recorded ancestors. Two models that agree on these calls give identical smoothing results.", "quantifier": "all models, methods, options, filter results, random generators", "why_tests_cant": "It quantifies over every call a run can make and over all models.", "anchors": ["pyparticleest/smoother.py:SmoothTrajectory", "pyparticleest/smoother.py:mc_step", "pyparticleest/smoother.py:bsi_full", "pyparticleest/filter.py:ParticleTrajectory.perform_smoothing"]}
{"id": "C71", "title": "A forward that raises is not undone", "statement": "If forward(u, y) raises on a started trajectory (for example from a user callback), the stored steps stay as they were, but the time index has advanced and u and y are recorded there; no later calls bring steps and time index together again. Filters that look the current step up by the time index (pfy and all conditional filters) raise at every later forward; with the others a retry stores its step one position before its measurement. A caller must therefore build a new trajectory object after an exception.", "quantifier": "all histories of calls before and after the failure, all filters, models, generators", "why_tests_cant": "It quantifies over every crash point and every later history.", "anchors": ["pyparticleest/filter.py:ParticleTrajectory.forward", "pyparticleest/filter.py:ParticleTrajectory.measure"]}
{"id": "C72", "title": "EM terms of mixed linear/nonlinear models are expected log densities", "statement": "For smoothed particles of a mixed linear/nonlinear Gaussian model, eval_logp_xnext is the sum over the particles of the expectation of log N((xi', z'); f + A z, Q) plus the constant (lxi + lz)/2 log 2 pi, and eval_logp_y the sum of the expectations of log N(y; C z + h, R) plus m/2 log 2 pi, for every joint distribution of z and z' with the stored means, covariances and cross covariance; eval_logp_x0 gives for each particle the log density of xi plus the expectation of log N(z; z0, P0) plus lz/2 log 2 pi. A model with Gaussian initial distribution stores z0 and P0 with each new particle, and eval_logp_xi0 is the log density its xi are drawn from.", "quantifier": "all models, dimensions, particle counts, distributions with the stored moments, particle-dependent or stored matrices, correlated noises", "why_tests_cant": "An identity between expectations over all distributions and dimensions.", "anchors": ["pyparticleest/models/mlnlg.py:MixedNLGaussianSampled.eval_logp_xnext", "pyparticleest/models/mlnlg.py:MixedNLGaussianSampled.eval_logp_y", "pyparticleest/models/mlnlg.py:MixedNLGaussianSampled.eval_logp_x0", "pyparticleest/models/mlnlg.py:MixedNLGaussianSampledInitialGaussian", "pyparticleest/utils/mlnlg_compute.py:compute_l2"]}
{"id": "C73", "title": "Gradients of the EM terms of mixed linear/nonlinear models", "statement": "eval_logp_xnext_val_grad returns the value of eval_logp_xnext and, for each parameter, its derivative, whenever the supplied matrices are the derivatives of A, f and Q; so does eval_logp_y_val_grad for h and R when R is the stored matrix, and eval_logp_x0_val_grad returns the derivative of the average over the particles. Found to fail: a supplied gradient of C is ignored; a particle-dependent R raises UnboundLocalError; the value returned by eval_logp_x0_val_grad is an array whose mean is not that average.", "quantifier": "all models depending differentiably on a parameter, all parameters, dimensions, particle counts", "why_tests_cant": "A derivative is a limit over all nearby parameter values.", "anchors": ["pyparticleest/models/mlnlg.py:MixedNLGaussianSampled.eval_logp_xnext_val_grad", "pyparticleest/models/mlnlg.py:MixedNLGaussianSampled.eval_logp_y_val_grad", "pyparticleest/models/mlnlg.py:MixedNLGaussianSampled.eval_logp_x0_val_grad", "pyparticleest/models/mlnlg.py:MixedNLGaussianSampledInitialGaussian.eval_logp_xi0_grad", "pyparticleest/utils/mlnlg_compute.py:compute_l2_grad_A"]}
{"id": "C74", "title": "The marginalised smoother of mixed linear/nonlinear models", "statement": "The statistics that sample_smooth of MixedNLGaussianMarginalized stores with each smoothed particle describe, for every length of the future, the likelihood of the future non-linear states and measurements as a function of the linear state, and the backward weight follows from these statistics as weight of the filter particle times exp of a quadratic in the statistics and the predicted linear state. Found to fail: logp_xnext_full uses the wrong sign in the quadratic (Tau), so weights are wrong unless the linear prediction and its covariance are common to all particles; with a non-linear part of dimension other than one the pass raises ValueError; a step without measurement still adds the measurement's information; the raw instead of the preprocessed measurement is used.", "quantifier": "all models (matrices may depend on the particle), all dimensions of the linear part, all lengths of the future, all states", "why_tests_cant": "A likelihood is an integral over every linear state and the recursion runs over a future of any length.", "anchors": ["pyparticleest/models/mlnlg.py:MixedNLGaussianMarginalized.sample_smooth", "pyparticleest/models/mlnlg.py:MixedNLGaussianMarginalized.logp_xnext_full", "pyparticleest/models/mlnlg.py:MixedNLGaussianMarginalized.calc_prop1", "pyparticleest/models/mlnlg.py:MixedNLGaussianMarginalized.calc_prop3"]}
{"id": "C75", "title": "Proposals of mixed linear/nonlinear models in the Metropolis-Hastings smoothers", "statement": "For a mixed linear/nonlinear Gaussian model with one nonlinear state and uncorrelated noises, propose_smooth continues each given ancestor with xi' drawn from N(fxi + Axi z, Axi P Axi' + Qxi) and stores with it mean and covariance of the linear state given xi'; logp_proposal is the density of that distribution for any states, and always equals the density given the parents it is compared with, so the two cancel in the acceptance ratio. At the first time step the proposals are new initial particles and logp_proposal their log density up to a common constant. Found to fail: with more than one nonlinear state every proposal raises ValueError.", "quantifier": "all models, numbers of trajectories, ancestors, linear dimensions, draws and proposed states", "why_tests_cant": "It quantifies over all models, draws and proposed states, and states a law.", "anchors": ["pyparticleest/models/mlnlg.py:MixedNLGaussianSampled.propose_smooth", "pyparticleest/models/mlnlg.py:MixedNLGaussianSampled.logp_proposal", "pyparticleest/models/mlnlg.py:MixedNLGaussianSampled.logp_xnext_singlestep", "pyparticleest/smoother.py:mc_step"]}
{"id": "C76", "title": "Matrices in effect after set_dynamics", "statement": "After constructing a mixed linear/nonlinear Gaussian model and any sequence of set_dynamics calls, every computation uses for each matrix the one last given (zero affine terms and otherwise None if it never was), exactly as a model constructed from those matrices would. Matrices of the nonlinear part (Axi, fxi, Qxi, Qxiz) are copied when given; found: those of the linear part and the measurement (Az, fz, Qz, C, h, R) are only referenced, so that a caller who later writes to such an array changes the model.", "quantifier": "all histories of set_dynamics calls and of writes by the caller to its own arrays", "why_tests_cant": "It quantifies over all histories and aliasings.", "anchors": ["pyparticleest/models/mlnlg.py:MixedNLGaussianSampled.__init__", "pyparticleest/models/mlnlg.py:MixedNLGaussianSampled.set_dynamics", "pyparticleest/models/rbpf.py:RBPFBase.set_dynamics", "pyparticleest/utils/kalman.py:KalmanFilter.set_dynamics"]}
{"id": "C77", "title": "The gradient test plots true curves and slopes", "statement": "GradientTest.test(param_id, param_vals, ...) plots, for each value v in param_vals, the mean over the smoothed trajectories of one term of the complete-data log-likelihood (measurements, transitions, initial state) with the estimator's parameters except that param_id is v. With analytic gradients of a model whose gradients are exact, the derivative stored for the measurement and the transition curve is the slope of the curve at v. (Found: the derivative stored for the initial term is the mean over all parameters of its derivatives, so it is the slope exactly if the derivative for param_id equals that mean; the estimator is left with the last value tested; before any set_params the test raises.)", "quantifier": "all models, parameter vectors, tested parameters and values, numbers of trajectories and steps", "why_tests_cant": "A test compares a few curves of one model; the claim is about every model, every parameter and every value, and slopes are limits.", "anchors": ["pyparticleest/paramest/gradienttest.py: GradientTest.test, GradPlot", "pyparticleest/paramest/interfaces.py: eval_logp_y_fulltraj, eval_logp_xnext_fulltraj, eval_logp_y_val_grad_fulltraj, eval_logp_xnext_val_grad_fulltraj", "pyparticleest/simulator.py: Simulator.set_params"]}
{"id": "C78", "title": "Sharing of arrays between steps never changes the filter", "statement": "Although a ParticleTrajectory keeps numpy arrays that it, the filters, the stored steps and the user's model all hold references to and write in place (resampling, weight updates, noise propagation, measure), what it computes is what it would compute if every array were an independent value: after any history of forward and measure calls every stored step shows the particles, log-weights, offset and ancestors computed at its time, the random generator is in the same state, and the next call returns the same result or raises the same exception, provided each method of the model writes at most to the particle array it is handed and returns new arrays.", "quantifier": "all filters, numbers of particles, histories of calls, models (in-place or not), random generators and prior contents of memory", "why_tests_cant": "Aliasing bugs show only for particular histories and models; the claim is about all of them.", "anchors": ["pyparticleest/filter.py: ParticleTrajectory.forward, ParticleTrajectory.measure, ParticleFilter.forward, AuxiliaryParticleFilter.forward, CPFAS.forward, CPF.forward, CPFYAS.forward, SIR.forward, CSIRAS.forward, ParticleApproximation", "pyparticleest/interfaces.py: ParticleFiltering.copy_ind"]}
{"id": "C79", "title": "Sharing of arrays never changes the smoothers", "statement": "Although the smoothers index, share and overwrite numpy arrays (the index arrays that all smoothed steps share, the ancestors array that the 'mcmc' backward simulator and the 'mhbp' proposals change in place, the copies that the Metropolis-Hastings steps measure and overwrite, the stored particle arrays handed to the model itself), perform_smoothing computes what it would compute if every array were an independent value: after any history of filtering and smoothing calls, with any method, options and number of trajectories, it returns steps that show exactly the value-level smoothed trajectory and leaves the random generator in the same state, or raises the same exception; provided the model's methods write to no array but, for sample_smooth, update and measure, the particle array they are handed.", "quantifier": "all methods, options, numbers of trajectories, filters, histories, models (in-place or not, with or without hooks), random generators and prior contents of memory", "why_tests_cant": "Aliasing bugs show only for particular histories, methods and models; the claim is about all of them.", "anchors": ["pyparticleest/smoother.py: SmoothTrajectory.__init__, perform_bsi, perform_ancestors_int, calculate_ancestors, perform_mhbp, perform_mhips_pass, bsi_full, bsi_rs, bsi_rsas, bsi_mcmc, mc_step", "pyparticleest/filter.py: ParticleTrajectory.perform_smoothing"]}
{"id": "C80", "title": "The likelihood estimate of the bootstrap filter is unbiased", "statement": "For a ParticleTrajectory with the bootstrap filter ('PF'), any resampling threshold, any number of particles, any state-space model with finite measurement log-densities and any history of forward and measure calls (mixed, with or without inputs and measurements), the product of the weight sums that the stored log-weights and w_offset represent (each relative to the weights the call started from, using the returned resampled flag) averages, over initial particles, process noise and resampling, exactly to the likelihood of the measurements; multiplied with the weighted mean of any function phi of the particles it averages to E[p(measurements | path) phi(last state)]. The same holds conditionally from any state already reached. No call fails, and the averages exist.", "quantifier": "all models, thresholds, numbers of particles, histories of calls, reached states and functions phi", "why_tests_cant": "Unbiasedness is a statement about an average over a continuum of random draws, at every length of history.", "anchors": ["pyparticleest/filter.py: ParticleTrajectory.forward, ParticleTrajectory.measure, ParticleFilter.forward, ParticleFilter.measure, ParticleApproximation.resample, ParticleApproximation.add_weights, sample", "pyparticleest/interfaces.py: ParticleFiltering"]}
{"id": "C81", "title": "Distribution of the trajectories drawn by backward simulation", "statement": "perform_smoothing(M, 'full') on any filter result with usable weights whose later particles are reachable, for a Markov model that keeps the default sample_smooth and has no post_smoothing hook: averaged over the smoother's random draws, the mean over the M smoothed trajectories of any function phi of the whole trajectory equals the forward-filtering/backward-simulation mean of phi: the last state is filter particle i with probability proportional to its weight, and each earlier state is the particle i of its step with probability proportional to w_i p(x'|x_i), x' being the state drawn after it. A single trajectory has that distribution, and given the last states (which are drawn together, systematically) the M trajectories are independent.", "quantifier": "all models, filter results, numbers of steps, particles and trajectories, and functions of the trajectory", "why_tests_cant": "The claim is about the joint distribution of M trajectories of any length; a test sees a few draws.", "anchors": ["pyparticleest/smoother.py: SmoothTrajectory.__init__, SmoothTrajectory.perform_bsi, bsi_full", "pyparticleest/filter.py: ParticleTrajectory.perform_smoothing, sample"]}
{"id": "C82", "title": "Conditional particle filters as a particle Gibbs kernel", "statement": "One iteration of particle Gibbs, as PSAEM runs it - filter with 'cpf' or 'cpfas' conditioned on the current trajectory, then draw one trajectory with perform_smoothing(1, 'ancestor') - leaves the smoothing distribution invariant when the filter has two particles: for every history of forward and measure calls, every state-space model with finite log-densities and every function phi, if the conditioning trajectory is averaged over the paths weighted by the likelihood of the measurements, so is the drawn one; every iteration succeeds, and its mean is unique. For 'cpfas' the transition density must be that of the dynamics. With three particles it is false for both filters (explicit two-state chain), because the free particles are resampled systematically.", "quantifier": "all models, histories of calls and functions of the trajectory; two particles (and one counterexample with three)", "why_tests_cant": "Invariance equates averages over a continuum of random draws, at every length of history; with more particles the error is too small to see in a simulation.", "anchors": ["pyparticleest/filter.py: CPF, CPFAS, ParticleTrajectory.__init__, ParticleTrajectory.forward, ParticleTrajectory.measure, ParticleTrajectory.perform_smoothing, sample", "pyparticleest/smoother.py: SmoothTrajectory.perform_ancestors_int, SmoothTrajectory.calculate_ancestors", "pyparticleest/paramest/paramest.py: ParamEstimationPSAEM.maximize"]}
{"id": "C83", "title": "The likelihood estimate of the importance proposal filter is unbiased", "statement": "For a ParticleTrajectory with filter 'SIR', any resampling threshold, any number of particles, any state-space model with finite log-densities, any proposal qsample whose log-density logp_q (and the dynamics' log-density logp_xnext) is taken with respect to one common measure, and any history of forward and measure calls, the same product of weight sums as for the bootstrap filter averages, over initial particles, proposals and resampling, exactly to the likelihood of the measurements; multiplied with the weighted mean of phi it averages to E[p(measurements | path) phi(last state)]. Hence 'SIR' and 'PF' estimates have the same mean, and the proposal does not matter. The same holds conditionally from any state already reached. No call fails, and the averages exist.", "quantifier": "all models, proposals, thresholds, numbers of particles, histories of calls, reached states and functions phi", "why_tests_cant": "Unbiasedness is a statement about an average over a continuum of random draws, at every length of history, for every proposal.", "anchors": ["pyparticleest/filter.py: SIR.forward, SIR.measure, ParticleTrajectory.forward, ParticleTrajectory.measure, ParticleApproximation.resample, ParticleApproximation.add_weights, sample", "pyparticleest/interfaces.py: SIR"]}
{"id": "C84", "title": "The gradient loops stay in bounds and ignore the work arrays", "statement": "The element loops with which a mixed linear/nonlinear Gaussian model accumulates the gradient of its transition term (identical in mlnlg_compute.py and, compiled without bounds checks, in cmlnlg_compute.pyx), run on arrays of the shapes the model allocates, never index out of range, for any number of particles, parameters and states; so the unchecked version computes what the checked one does. They leave for every particle and parameter exactly the gradient matrix of the l2 matrix, and what the work arrays hold before does not matter. This needs a linear state: a model with no linear state that supplies a gradient of A writes to column 0 of a work array without columns - IndexError, or undefined behaviour when compiled.", "quantifier": "all numbers of particles, parameters, nonlinear and linear states; all contents of all arrays", "why_tests_cant": "An out-of-range write of compiled code may go unnoticed, and leftovers in reused work arrays only show for some sizes and orders of parameters.", "anchors": ["pyparticleest/utils/mlnlg_compute.py: compute_l2_grad_f, compute_l2_grad_A", "pyparticleest/utils/cmlnlg_compute.pyx: compute_l2_grad_f, compute_l2_grad_A", "pyparticleest/models/mlnlg.py: MixedNLGaussianSampled.calc_l2_grad"]}
{"id": "C85", "title": "Callback protocol of the filters", "statement": "Whatever filter is used, with any user model (also a full, non-Markovian one) and any history of forward and measure calls, the user's callbacks are consulted only with arguments that belong together: when the filter advances from step k to k+1, process noise and dynamics get the steps 0..k with the inputs and time stamps of exactly these steps (the dynamics also their measurements); the measurement callback gets the steps 0..k with the measurements and time stamps 0..k+1; the transition density gets the steps before k and the index k; the callbacks of 'SIR' and 'APF' get the u and y of this call with the time stamp k, or k+1 for measuring; a proposal from the measurement gets y and k+1. measure(y) at step k likewise. Two models that agree on these calls give identical states, draws and exceptions, so a model that refuses every other call never notices. ('PFY' is covered without preallocated T.)", "quantifier": "all user models, filters, constructor arguments, generators and histories of calls", "why_tests_cant": "An off-by-one in a vector handed to a callback is invisible to a test model that ignores it, and depends on the history of the calls.", "anchors": ["pyparticleest/filter.py: ParticleTrajectory.forward, ParticleTrajectory.measure, ParticleFilter.forward, AuxiliaryParticleFilter.forward, SIR.forward, CPF, CPFAS, CPFYAS, FFPropY.forward", "pyparticleest/interfaces.py: ParticleFiltering, ParticleFilteringNonMarkov, AuxiliaryParticleFiltering, SIR"]}
{"id": "C86", "title": "'PFY' is an importance filter, and what its estimate averages to", "statement": "For a ParticleTrajectory with filter 'PFY' (no preallocated T) and any history of calls, one forward does exactly what 'SIR' would do in the same place with propose_from_y as its proposal and the density of that proposal in the role of the measurement density: same particles, weights, offset, ancestors, resampling, draws and exceptions. Consequently, for any number of particles and threshold and any state-space model, the estimate (product of weight sums times final weighted mean of phi) over any further calls of forward averages exactly to the value for the model whose measurement density is the density of the proposal. If that density is, up to a factor independent of the state, the likelihood of the measurement, 'PFY' is unbiased up to the product of the factors. No call fails, and the averages exist. If instead propose_from_y draws from p(x_t|y_t), as its documentation says, with a prior on x_t that is not flat, the estimated distribution is wrong however many particles are used (explicit two-state model).", "quantifier": "all models, proposals, thresholds, numbers of particles, histories of calls, reached states and functions phi", "why_tests_cant": "The average is over a continuum of random draws at every length of history, and the bias for a non-flat prior does not go away with more particles, so it looks like a property of the test model.", "anchors": ["pyparticleest/filter.py: FFPropY.forward, FFPropY.measure, SIR.forward, ParticleTrajectory.forward, ParticleTrajectory.measure", "pyparticleest/interfaces.py: FFProposeFromMeasure.propose_from_y"]}
{"id": "C87", "title": "The auxiliary particle filter is properly weighted", "statement": "For a ParticleTrajectory with filter 'APF', any first stage weights (any function of particle, u, y and t with finite logarithm), any resampling threshold, any number of particles, any state-space model with finite measurement log-densities and any history of calls in which every forward has a measurement, this corrected factor can be computed from what a forward stores and returns: without resampling, the mean likelihood of the new particles under the old weights; with resampling, the mean first stage weight under the old weights times the average over the new particles of likelihood over first stage weight of the ancestor. The product of these factors (and of the plain weight sum ratios of measure calls), times the final weighted mean of phi, averages over initial particles, process noise and resampling exactly to E[p(measurements | path) phi(last state)]; with phi = 1 to the likelihood. So the choice of first stage weights does not matter, and the value is the one of the bootstrap filter. The same holds conditionally from any state already reached. No call with a measurement fails, and the averages exist. (The stored w_offset does not give this factor: see C12.)", "quantifier": "all models, first stage weights, thresholds, numbers of particles, histories of calls, reached states and functions phi", "why_tests_cant": "The average is over a continuum of random draws at every length of history; a wrong division by the first stage weights only shows as a small bias.", "anchors": ["pyparticleest/filter.py: AuxiliaryParticleFilter.forward, ParticleTrajectory.forward, ParticleTrajectory.measure, ParticleApproximation.resample, ParticleApproximation.add_weights, sample", "pyparticleest/interfaces.py: AuxiliaryParticleFiltering"]}
{"id": "C88", "title": "The bootstrap filter's ancestral lines are properly weighted for the smoothing distribution", "statement": "For a ParticleTrajectory with the bootstrap filter 'PF', any resampling threshold, any number of particles, any state-space model with finite measurement log-densities, any history of forward and measure calls and any function of the whole state path: the weighted average of the function over the particles' ancestral lines (each particle of the last step preceded by its recorded ancestors), times the product of the likelihood increments read off the stored steps, is on average over all random draws (initial particles, resampling and noise) exactly the expectation of the function of the path times the density of the measurements given the path. From any reachable state, the remaining calls average to the exact value given the current lines. The trajectories returned by smoothing with 'ancestor' from a reachable filter result average, over their draw, to that weighted average of the lines.", "quantifier": "all state-space models, particle counts, thresholds, histories of calls, path functions, and the distribution of every random draw", "why_tests_cant": "The average is over a continuum of random draws at every length of history; an ancestor index off by one step or taken after a further permutation still gives plausible paths and correct marginals at the last time.", "anchors": ["pyparticleest/filter.py: ParticleFilter.forward, ParticleTrajectory.forward, ParticleTrajectory.measure, ParticleApproximation.resample, sample", "pyparticleest/smoother.py: SmoothTrajectory.perform_ancestors, SmoothTrajectory.calculate_ancestors"]}
