# Formal model of pyParticleEst in Rocq (Coq 8.16.1)

The library under `/repo/pyparticleest` is modelled function by function; no code was run.
Semantics assumed: Python 3 (true division, lazy `range`; `xrange` in `paramest` is read as `range`) and a numpy old enough to
have `numpy.int` / `numpy.float` (< 1.24).  88 properties, 287 theorems.

## 1. How the code is modelled

| aspect | model |
|---|---|
| real-valued arithmetic (densities, matrices, linear weights) | Coq's `R`, exact, no rounding |
| log-weights | `xr` = `Fin r`, `NInf`, `PInf`, `NaN` with IEEE-754 special-value rules, unrounded: `-inf` likelihoods, `-inf - -inf`, `exp`, `max`, 0/0 behave as in numpy |
| rounding | only for C06: each operation of `sample` is followed by an arbitrary monotone rounding, then by Flocq's binary64 rounding |
| matrices | mathcomp `'M[R]_(m,n)`, so shape-correct by typing; particle rows (`xi | z | P`) are lists of numbers, with slicing and reshape as in `Storage.v` |
| exceptions | `res A := Ok a / Err e` with the exception classes the code raises |
| randomness | an arbitrary generator over an arbitrary world; every theorem quantifies over it under the contract "`rand()` in [0,1), `permutation` permutes" (`rng_ok`) |
| probability laws | the code is run on a tape of uniform draws, and the law is an interval length or an iterated Riemann integral over them; for Gaussian models by identities of densities and by moments under any linear expectation functional (`Moments.v`) |
| gradients | derivative along every differentiable one-parameter curve of the model's matrices |
| user model | a record of arbitrary functions, possibly raising, possibly stateful through the world; theorems assume only a stated contract, and each has an instance |
| mutable arrays / aliasing | value semantics in most files; separate heap models where sharing matters: `HeapModel.v`, `HeapSmooth.v` (C16, C71; there the heap survives exceptions; C78 and C79 prove that they compute what the value-level models compute) and `DynModel.v` (C76) |

Simplifications used throughout: numpy broadcasting of length-1 arrays is not modelled unless noted (a length mismatch is an
error); `mhbp`'s `ancestors=None` is the empty list; dtype questions are ignored; array memory that the code leaves
uninitialised (`numpy.empty`) is an arbitrary parameter (`junk`).  Local simplifications are stated in the comment of the
definition concerned.

## 2. Files

`theories/` has, per area, `XModel.v` (transcription; comments cite file:lines), `XSpec.v` (specification that does not mention
the model), further lemma files, and `Prop_X.v` (final theorems `Cnn_...`, each with a concrete `Example`).

| area | model | specification | proofs | theorems |
|---|---|---|---|---|
| vocabulary | `Base`, `XR` | | | |
| `sample` | `SampleModel`, `SampleRound` | `SampleSpec` | `SampleProofs` | `Prop_Sample`, `Prop_Law` |
| filters, trajectory, simulator | `PAModel`, `FilterModel`, `TrajModel` | `WeightSpec`, `FilterSpec`, `EvidenceSpec`, `SirSpec`, `FilterProtoSpec`, `PfySirSpec`, `ApfSpec`, `PathSpec` | `WeightProofs`, `FilterProofs`, `TrajProofs`, `FilterTotal`, `FilterSem`, `Evidence`, `Sir`, `FilterProto`, `PfySir`, `Apf`, `Path`, `ExampleModel` | `Prop_Weights`, `Prop_Filter`, `Prop_Traj`, `Prop_Live`, `Prop_Cond`, `Prop_Evidence`, `Prop_Sir`, `Prop_FilterProto`, `Prop_Apf`, `Prop_ApfMean`, `Prop_Path`, `Prop_PfySir` |
| smoothers | `SmoothModel` | `SmoothSpec`, `MhSpec`, `ProtoSpec`, `FfbsiSpec`, `GibbsSpec` | `SmoothProofs`, `SmoothBsi`, `SmoothRs`, `Perms`, `SmoothLaw`, `SmoothRsas`, `SmoothMcmc`, `SmoothPath`, `SmoothExample`, `MhProofs`, `MhTotal`, `ProtoProofs`, `ProtoMh`, `Ffbsi`, `Gibbs`, `GibbsRun`, `GibbsKernel`, `GibbsThree` | `Prop_Bsi`, `Prop_Smooth`, `Prop_Mh`, `Prop_Proto`, `Prop_Ffbsi`, `Prop_Anc`, `Prop_Gibbs` |
| aliasing, exceptions | `HeapModel`, `HeapSmooth` | `HeapSpec`, `HeapSmoothSpec`, `HeapRefineSpec`, `HeapSmoothRefineSpec` | `HeapProofs`, `HeapTraj`, `HeapOf`, `HeapSmoothProofs`, `HeapSmoothOf`, `HeapRefine`, `HeapRefineTraj`, `HeapSmoothRefine` | `Prop_Heap`, `Prop_HeapSmooth`, `Prop_HeapRefine`, `Prop_HeapSmoothRefine`, `Prop_Fail` |
| estimates | `EstModel` | | | `Prop_Est` |
| parameter estimation | `EmModel`, `ObjModel`, `GradTestModel` | in `Prop_*` | `AlphaProofs`, `EmProofs` | `Prop_Em`, `Prop_Obj`, `Prop_GradTest` |
| utilities | `UtilModel` | in `Prop_Util` | | `Prop_Util` |
| Kalman | `KalmanModel` | `RMat`, `Gauss`, `Moments`, `MatDeriv` | `LinAlg` | `Prop_Kalman` |
| LTV | `Storage`, `LtvModel` | as Kalman | | `Prop_Ltv` |
| RBPF, MLNLG | `MlnlgModel`, `MlnlgEmModel`, `GradLoopModel`, `MargModel`, `MlnlgProposeModel`, `DynModel` | as Kalman | `MlnlgProofs`, `GradLoops` | `Prop_Mlnlg`, `Prop_Rbps`, `Prop_MlnlgEm`, `Prop_GradLoops`, `Prop_Marg`, `Prop_Propose`, `Prop_Dyn` |
| NLG, hierarchical | `NlgModel`, `HierModel` | as Kalman | | `Prop_Nlg`, `Prop_Hier` |

## 3. Per property: what is modelled and how it is proved

Full statements are in `properties.jsonl`, theorem names in `MANIFEST.json`.  Several properties have a part that the code does not
have; that part is a theorem with suffix `_refuted` which proves the failure (section 6).

| id | property | model and method | theorems in | status |
|---|---|---|---|---|
| C01 | Systematic resampling returns n valid, ordered indices | `sample(w, n)` (filter.py) over lists of reals: cumulative sums, one jittered comb, left insertion point. Induction on the weight list. | `Prop_Sample.v` | proved |
| C02 | Systematic resampling gives every particle its floor-or-ceiling share | Same model; counts of each index bounded by floor/ceiling of n*w_i/sum w by interval counting. The strict form fails when the draw is exactly 0 (refuted part). | `Prop_Sample.v` | proved |
| C03 | Resampling is exactly unbiased | Law over the single uniform draw: the draws selecting i form intervals of the right total length; the Riemann integral (Coquelicot) of the count is n*w_i. | `Prop_Sample.v` | proved |
| C04 | Only relative weights matter when sampling | Scaling of linear weights, and log-weight offsets through `ParticleApproximation`. | `Prop_Sample.v`, `Prop_Weights.v` | proved |
| C05 | Zero-weight particles are never selected | Zero weight => empty selection interval, except for draw exactly 0 (refuted part). | `Prop_Sample.v` | proved |
| C06 | Resampling survives floating point rounding of cumulative sums | `SampleRound`: each operation followed by a rounding operator; any monotone rounding for the general statement, Flocq's binary64 round-to-nearest for the concrete one. | `Prop_Sample.v` | proved |
| C07 | The effective number of particles is between 1 and N | `calc_Neff` over normalised weights; Cauchy-Schwarz by induction. | `Prop_Weights.v` | proved |
| C08 | resample() keeps only existing particles and gives them equal weight | `resample` in `PAModel`: membership, equal weights, count. | `Prop_Weights.v` | proved |
| C09 | Resampling happens exactly when the effective sample size is below the threshold | `forward` of the filters: the resample flag is equivalent to Neff < threshold*N for the Neff of the state before; threshold 0/1 edge cases. | `Prop_Filter.v` | proved |
| C10 | Measuring multiplies weights by the likelihood | `measure` over `xr` log-weights. | `Prop_Weights.v` | proved |
| C11 | Weights never become NaN as long as one particle survives | `xr` arithmetic (-inf, NaN propagation); invariants by induction over arbitrary operation histories (`Prop_Live`). | `Prop_Live.v` | proved |
| C12 | The incremental likelihood can be recovered from weights and offset | Total weight before/after one step expressed with `w_offset`; log-sum-exp identity. For 'APF' the three maxima that are divided out are tracked through the step and the factor they leave is computed. | `Prop_Apf.v`, `Prop_Filter.v`, `Prop_Weights.v` | proved |
| C13 | Stored inputs, measurements and times line up with the steps taken | `ParticleTrajectory` as a state machine over arbitrary lists of forward/measure calls. | `Prop_Traj.v` | proved |
| C14 | Simulator aligns inputs with measurements | `Simulator.simulate` loops unrolled against a specification of which u/y/t each call gets; totality under contracts. | `Prop_Proto.v`, `Prop_Traj.v` | proved |
| C15 | Every stored step is well formed | Invariant over histories; totality under shape contracts. | `Prop_Traj.v` | proved |
| C16 | Filtering forward never changes earlier steps | Separate heap model (`Heap*.v`) with array locations, slices as views and in-place writes; frame theorem for every history; aliasing counterexamples for models that violate the contract. | `Prop_Heap.v`, `Prop_HeapSmooth.v` | proved |
| C17 | Model callbacks see only data up to the current step | Call-trace of callbacks in the step functions. | `Prop_Filter.v` | proved |
| C18 | Filter selection is total and case-insensitive | String dispatch of `ParticleFilter`/trajectory constructor: total over all strings. | `Prop_Traj.v` | proved |
| C19 | Conditional filters keep the conditioned path | Conditional filters: last particle is the conditioned one after any number of steps. | `Prop_Cond.v` | proved |
| C20 | Conditional ancestor sampling uses weight times transition density | Law of the ancestor draw: interval lengths are w_i*p(x'|x_i) normalised. | `Prop_Cond.v` | proved |
| C21 | Auxiliary filter weights are the correct importance ratio | Auxiliary filter: weight identity for every step. | `Prop_Filter.v` | proved |
| C22 | SIR weights are the correct importance ratio | SIR filter: weight identity. | `Prop_Filter.v` | proved |
| C23 | Ancestor smoother returns genuine filter histories | Ancestor smoothing follows recorded ancestors; induction on steps. | `Prop_Anc.v`, `Prop_Smooth.v` | proved |
| C24 | Backward simulation draws from the exact backward kernel | `bsi_full`: validity and law (intervals of the uniform draw) per trajectory, per step. | `Prop_Bsi.v` | proved |
| C25 | Rejection sampling backward simulation is exact and total | `bsi_rs`: totality, law of the accepted index (geometric series of rejections), and a finding about the future indices. | `Prop_Bsi.v` | proved |
| C26 | Adaptive rejection sampling always terminates | `bsi_rsas`: termination by a ranking argument over arbitrary draws; law; ratio 0 refuted. | `Prop_Bsi.v` | proved |
| C27 | MCMC backward simulation targets the backward kernel | `bsi_mcmc`: kernel as probability over the draws, detailed balance, stationarity by induction on R. | `Prop_Bsi.v` | proved |
| C28 | Metropolis-Hastings smoothing moves satisfy detailed balance | `mc_step`/`perform_mhips_pass`/`perform_mhbp` (`Mh*.v`): acceptance probability, detailed balance with respect to the target built from the model's densities. | `Prop_Mh.v` | proved |
| C29 | Backward smoothers return particles of the filter, one per step | Every returned particle is sample_smooth of a filter particle of that step; totality under contracts. | `Prop_Smooth.v` | proved |
| C30 | Smoother selection and option defaults | Option dispatch of `perform_smoothing`/`SmoothTrajectory`. | `Prop_Smooth.v` | proved |
| C31 | Single-step data sets and the MH smoothers | T=1 behaviour of the MH smoothers. | `Prop_Smooth.v` | proved |
| C32 | Reported estimates are normalised weights and means | `get_filtered_estimates`/`mean` etc. over lists of reals. | `Prop_Est.v` | proved |
| C33 | Kalman measurement update is exact Bayes | mathcomp matrices over `R`; completion of squares, determinant lemma; density = prior times likelihood, for all dimensions. | `Prop_Kalman.v` | proved |
| C34 | Kalman prediction propagates first and second moments | Moments of any random vectors under any linear expectation functional. | `Prop_Kalman.v` | proved |
| C35 | Covariances stay symmetric and positive semidefinite | psd invariant over arbitrary sequences of predict/measure. | `Prop_Kalman.v` | proved |
| C36 | Scalar and matrix Kalman paths agree | Scalar path specialised to dimension one. | `Prop_Kalman.v` | proved |
| C37 | Rauch-Tung-Striebel smoothing is exact | Conditional law of z given z' composed with the smoothed law of z': product of densities, and moments. | `Prop_Kalman.v` | proved |
| C38 | Kalman dynamics are remembered between calls | State machine over `set_dynamics`, predict, measure. | `Prop_Kalman.v` | proved |
| C39 | All log-density helpers compute the same Gaussian density | Cholesky characterised by U^T U = S with positive diagonal; existence proved (`LinAlg`). | `Prop_Kalman.v` | proved |
| C40 | Scalar-noise nonlinear Gaussian models evaluate the right density | Nonlinear Gaussian densities; the scalar shortcuts are refuted where they use the wrong factor. | `Prop_Nlg.v` | proved |
| C41 | logp_xnext_max bounds the transition density | Maximum of a normal density = value at its mean; finite maximum over particles; exact failures for hierarchical/scalar variants. | `Prop_Hier.v`, `Prop_Mlnlg.v`, `Prop_Nlg.v` | proved |
| C42 | Rao-Blackwellised state storage is lossless | Row-major storage (`Storage.v`): slice/reshape round trips. | `Prop_Ltv.v`, `Prop_Mlnlg.v` | proved |
| C43 | LTV smoothing uses the dynamics of the right time | LTV `sample_smooth`; time-varying case refuted (uses ut[0], tt[0], zl[0]). | `Prop_Ltv.v` | proved |
| C44 | Hierarchical smoothing treats each trajectory separately | Hierarchical `sample_smooth`; refuted with several trajectories. | `Prop_Hier.v` | proved |
| C45 | MLNLG conditional dynamics equal Gaussian conditioning | Conditioning on xi' with correlated noises; exact result computed and compared with the true conditional. | `Prop_Mlnlg.v` | proved |
| C46 | Expected log-likelihood terms of EM are exact | Expected log densities for every distribution with the stored moments. | `Prop_Ltv.v` | proved |
| C47 | Analytic gradients used by EM are exact | Derivatives along differentiable curves of matrices (`MatDeriv`: derivative of log det and inverse). | `Prop_Ltv.v` | proved |
| C48 | Sampled noise has the requested covariance | Covariance of generated noise through any expectation functional; change of variables of densities; junk triangle of `cho_factor` modelled. | `Prop_Nlg.v` | proved |
| C49 | SAEM step sizes are valid | `AlphaProofs`: sums of the default step sizes diverge, squares converge, range. | `Prop_Em.v` | proved |
| C50 | PSAEM trajectory weights form a probability vector | PSAEM weight recursion. | `Prop_Em.v` | proved |
| C51 | Discarding PSAEM trajectories is safe | Percentile-based discarding; numpy percentile interpolation modelled. | `Prop_Em.v` | proved |
| C52 | EM runs the requested number of iterations with the requested sizes | EM driver as a program over an arbitrary environment with a history of events. | `Prop_Em.v` | proved |
| C53 | Trajectory-likelihood objective is the mean over trajectories | Objective and gradient of `ParamEstBaseNumeric(Grad)`; exact characterisation of the gradient that is returned. | `Prop_Obj.v` | proved |
| C54 | unifsum is the density of a sum of two uniforms | `unifsum` against the convolution integral (Coquelicot). | `Prop_Util.v` | proved |
| C55 | Operation counting does not change results | Instrumenter wrapper: simulation relation. | `Prop_Util.v` | proved |
| C56 | find_best_particles returns the most likely particles | argsort as a stable sort; the refuted claim and what is returned instead. | `Prop_Weights.v` | proved |
| C57 | spawn always fails | Arity error modelled. | `Prop_Traj.v` | proved |
| C58 | Post-processing of smoothed trajectories happens the expected number of times | Counting calls of the hooks for all methods. | `Prop_Proto.v`, `Prop_Smooth.v` | proved |
| C59 | SAEM completes its iterations | Refuted: index arithmetic of SAEM. | `Prop_Em.v` | proved |
| C60 | PSAEM2 is PSAEM with M=1 | Bisimulation of the two loops. | `Prop_Em.v` | proved |
| C61 | Rao-Blackwellised PSAEM uses the simulated trajectories | Refuted. | `Prop_Em.v` | proved |
| C62 | The filter for a linear time-varying model is the Kalman filter | LTV filter run = Kalman filter run, by induction over the measurements. | `Prop_Ltv.v` | proved |
| C63 | Propagating a Rao-Blackwellised particle is exact | MLNLG `update`/`cond_predict`: joint density factorises. | `Prop_Mlnlg.v` | proved |
| C64 | MLNLG transition densities and backward sampling distributions are exact | MLNLG transition density and backward sampling distribution. | `Prop_Mlnlg.v` | proved |
| C65 | Rao-Blackwellised post-smoothing is exact smoothing along the nonlinear path | Post-smoothing: backward induction over the whole trajectory; conditional densities given the full nonlinear path. | `Prop_Rbps.v` | proved |
| C66 | Measuring a Rao-Blackwellised particle is exact Bayes | MLNLG `measure`. | `Prop_Rbps.v` | proved |
| C67 | Nonlinear Gaussian proposals are scored with the density they are drawn from | NLG `propose_smooth`/`logp_proposal`. | `Prop_Nlg.v` | proved |
| C68 | Hierarchical Rao-Blackwellised filtering steps are exact | Hierarchical steps; measure/update/transition. | `Prop_Hier.v` | proved |
| C69 | ParticleApproximation.sample and resample follow the normalised weights | Interval law for `sample()` and expectation of counts for `resample`. | `Prop_Law.v` | proved |
| C70 | Callback protocol of the smoothers | Congruence: two models that agree on the specified calls give equal results, for all methods (`Proto*.v`). | `Prop_Proto.v` | proved |
| C71 | A forward that raises is not undone | Heap/exception model: exceptions keep the state reached; invariants over all later histories. | `Prop_Fail.v` | proved |
| C72 | EM terms of mixed linear/nonlinear models are expected log densities | Expected log densities for MLNLG. | `Prop_MlnlgEm.v` | proved |
| C73 | Gradients of the EM terms of mixed linear/nonlinear models | Derivatives along differentiable curves. | `Prop_MlnlgEm.v` | proved |
| C74 | The marginalised smoother of mixed linear/nonlinear models | Likelihood of the future as a function of the linear state, by backward induction; Gaussian integrals as masses of shifted normals. | `Prop_Marg.v` | proved |
| C75 | Proposals of mixed linear/nonlinear models in the Metropolis-Hastings smoothers | MLNLG proposals, built on C63/C64/C72. | `Prop_Propose.v` | proved |
| C76 | Matrices in effect after set_dynamics | Small heap of caller-owned and model-owned arrays; all histories of calls and writes. | `Prop_Dyn.v` | proved |
| C77 | The gradient test plots true curves and slopes | `GradientTest.test` as a loop over parameter values on top of the C53 objective model; slopes via Coquelicot's `is_derive`. | `Prop_GradTest.v` | proved |
| C78 | Sharing of arrays between steps never changes the filter | Forward simulation between the heap model (shared, mutable arrays) and the value model used by the other properties, filter by filter, then induction over the history; every value-level model has an array-level implementation satisfying the contract. | `Prop_HeapRefine.v` | proved |
| C79 | Sharing of arrays never changes the smoothers | Forward simulation between the heap smoothers and the value-level smoothers, function by function (each with the frame it keeps: all arrays, or all but one index array), then induction over the history of filtering and smoothing calls; every value-level model has an array-level implementation satisfying the contract. | `Prop_HeapSmoothRefine.v` | proved |
| C80 | The likelihood estimate of the bootstrap filter is unbiased | Averages are linear functionals (process noise, initial particles) and Riemann integrals (the uniform number of each resampling). One forward call is computed exactly for fixed draws (from C17/C12), averaged over the noises (sum of independent terms), then over the uniform number (C03: expected copies are proportional to the weights); induction over the remaining calls with the state arbitrary. | `Prop_Evidence.v` | proved |
| C81 | Distribution of the trajectories drawn by backward simulation | The smoother runs on a tape of uniform numbers; averages are iterated Riemann integrals. One step: independent draws, each by C01/C03 with probability the normalised backward weight; backward induction over the steps; the last step by C03 (systematic draw). | `Prop_Ffbsi.v` | proved |
| C82 | Conditional particle filters as a particle Gibbs kernel | As C80 for the calls (the conditional filters and the 'ancestor' smoother run on given uniform numbers, all computed exactly, from C19/C20/C23/C17), giving a recursion on two weighted paths; symmetrised over which of the two is the conditioned one, that recursion preserves the smoothing mass (induction over the calls, linearity and Fubini). Three particles: the systematic draws are computed exactly and the averages compared. | `Prop_Gibbs.v` | proved |
| C83 | The likelihood estimate of the importance proposal filter is unbiased | As C80, with the importance factor likelihood times dynamics over proposal; averaged over the proposal it is the exact value because both log-densities refer to one measure. | `Prop_Sir.v` | proved |
| C84 | The gradient loops stay in bounds and ignore the work arrays | The loops are modelled on arrays with a shape, every access checked; induction over the six nested loops with an invariant per loop, then the sums are identified with the matrix products of C73's model. | `Prop_GradLoops.v` | proved |
| C85 | Callback protocol of the filters | Two models are run side by side. The bookkeeping invariant of C14/C15 (the vectors hold the ledger of the calls) gives the arguments of every callback; each filter step is then shown equal for both models under the agreement hypothesis, and induction over the history finishes. The guarded model turns this into a statement about exceptions. | `Prop_FilterProto.v` | proved |
| C86 | 'PFY' is an importance filter, and what its estimate averages to | Step by step: with the same density for the proposal and the measurement, the 'SIR' weight update adds and subtracts the same finite log density, which cancels also for infinite transition densities, so the two forwards are the same program; the bookkeeping invariant gives that 'PFY' reads the vectors' last cells where 'SIR' reads the current ones. The mean then follows from C83 by induction over the calls. | `Prop_PfySir.v` | proved |
| C87 | The auxiliary particle filter is properly weighted | As C80, with FilterSem's description of the auxiliary forward: in both branches the stored weights are proportional to share * likelihood, where share is w_i / sum w without resampling and (mean first stage weight) / (N * ancestor's first stage weight) with it; the average of the systematic draw (C03) over the product of weights and first stage weights then cancels the first stage weights. Induction over the calls. | `Prop_ApfMean.v` | proved |
| C88 | The bootstrap filter's ancestral lines are properly weighted for the smoothing distribution | As C80 with functions of the ancestral line instead of the particle: lines of the stored trajectory are extended by appending (child of line of ancestor), the systematic draw (C03) averages a function of the chosen line, the noise acts on its last state; induction over the calls. The link to the 'ancestor' smoother goes through C23's law and lines_are_paths (by induction over the steps, the specification's lines are the recorded lines of descent). | `Prop_Path.v` | proved |

## 4. Trusted base

* Coq's kernel.  No plugins, no `native_compute`, no disabled checks, no axioms of our own, no functors or module types of our own.
* The transcription of Python to Coq (sections 1 and 5), by hand.
* The standard library axioms below, as `Print Assumptions` lists them; no other library contributes an axiom.

| letter | axiom |
|---|---|
| A | `ClassicalDedekindReals.sig_forall_dec` (reals) |
| B | `ClassicalDedekindReals.sig_not_dec` (reals) |
| F | `FunctionalExtensionality.functional_extensionality_dep` |
| C | `Classical_Prop.classic` |
| E | `ClassicalEpsilon.constructive_indefinite_description` (used by `RMat.v` to give `R` mathcomp's choice structure) |

A listing of opaque constants also shows definitions hidden behind module signatures (ssreflect `Under_rel.*`, the standard
library's `RbaseSymbolsImpl`/`RinvImpl`, mathcomp `bigop`, `finfun`, `fintype`, `finset`, `perm`, `tuple`, `generic_quotient`): those have
definitions and are no axioms.

Axioms per theorem:

* **none (closed under the global context)** (15 theorems): `C18_case_insensitive`, `C18_conditional_needs_trajectory`, `C18_filter_kind`, `C18_filter_names`, `C23_lines_exist`, `C38_time_update_refuted`, `C52_em_calls`, `C52_em_total`, `C55_addition`, `C55_missing_methods_refuted`, `C55_transparent_and_counts`, `C57_spawn_fails`, `C59_saem_refuted`, `C78_usual_model`, `C79_usual_model`
* **A** (4 theorems): `C42_ltv_storage`, `C42_rbpf_Mz`, `C42_rbpf_storage`, `C62_initial`
* **AF** (28 theorems): `C01_sample_raises_iff_empty`, `C01_sample_valid`, `C02_sample_share`, `C02_sample_share_all_draws`, `C02_strict_share_at_zero_refuted`, `C03_sample_one_interval`, `C03_sample_unbiased`, `C04_sample_scale`, `C05_zero_weight_at_zero_draw_refuted`, `C05_zero_weight_never_drawn`, `C06_sample_any_rounding`, `C27_detailed_balance`, `C27_stationary`, `C32_smoothed_mean`, `C53_maximize`, `C53_maximize_grad`, `C53_objective`, `C53_x0_sum_refuted`, `C53_xnext_mean`, `C53_y_mean`, `C54_convolution`, `C54_degenerate`, `C54_one_degenerate`, `C56_find_best_refuted`, `C56_find_best_returns_smallest`, `C77_curves`, `C77_no_params`, `C77_no_such_param`
* **ABF** (21 theorems): `C10_measure_multiplies`, `C12_update_total`, `C20_ancestor_probability`, `C24_bsi_full_law`, `C24_bsi_full_valid`, `C32_filtered_mean`, `C32_filtered_weights`, `C32_offset_invariant`, `C50_psaem_probability`, `C50_psaem_weights`, `C51_discard`, `C52_psaem_callback_never_stops`, `C52_psaem_iterations`, `C52_psaem_needs_options`, `C53_fval_grad`, `C53_fval_grad_right_iff`, `C53_xnext_gradient`, `C53_y_gradient`, `C60_psaem2_equals_psaem`, `C61_raoblackwell_refuted`, `C69_sample_interval`
* **ABCF** (122 theorems): `C04_log_offset_irrelevant`, `C06_cumulative_sorted`, `C06_sample_binary64_valid`, `C07_neff_bounds`, `C08_resample`, `C09_auxiliary`, `C09_resampled_iff`, `C09_thresholds`, `C11_finite_weights`, `C11_forward_step`, `C11_nan_only_after_extinction`, `C11_resample_after_extinction`, `C12_auxiliary_offset`, `C12_auxiliary_refuted`, `C12_forward_likelihood`, `C13_bookkeeping`, `C14_never_raises`, `C14_resampling_count`, `C14_simulate`, `C14_simulate_meas_first`, `C14_simulate_smooths`, `C15_never_raises`, `C15_steps_well_formed`, `C16_forward`, `C16_forwards`, `C16_history`, `C16_history_smoothing`, `C16_object_particles_refuted`, `C16_shared_weights_refuted`, `C16_sir_buffer_refuted`, `C16_smoothing`, `C16_smoothing_unshared`, `C17_bootstrap_step`, `C17_pfy_preallocated_refuted`, `C17_pfy_step`, `C19_conditioned_path`, `C19_cpf_ancestor`, `C19_csiras_first_step_refuted`, `C20_ancestor_law`, `C21_auxiliary_weights`, `C21_needs_measurement`, `C22_sir_weights`, `C23_ancestor_histories`, `C23_ancestor_total`, `C23_end_points`, `C23_trajectory_law`, `C25_bsi_rs_law`, `C25_bsi_rs_total`, `C25_find_ignored`, `C25_wrong_future_refuted`, `C26_rsas_law`, `C26_rsas_terminates`, `C26_zero_ratio_refuted`, `C27_bsi_mcmc_law`, `C27_bsi_mcmc_valid`, `C28_acceptance_probability`, `C28_detailed_balance`, `C28_mh_move`, `C28_mh_smoothers_total`, `C28_reduced_move`, `C28_reduced_needs_information`, `C29_backward_particles`, `C29_backward_total`, `C30_default_R30`, `C30_default_bounds`, `C30_method_names`, `C30_mhips_reduced_R10`, `C31_single_step_mhbp`, `C31_single_step_mhips`, `C49_step_sizes`, `C53_fval_grad_refuted`, `C54_density`, `C58_hook_counts`, `C58_hook_once`, `C58_hook_twice`, `C69_resample_unbiased`, `C70_backward_calls`, `C70_smoother_calls`, `C71_failed_forward`, `C71_never_realigned`, `C71_retry_misaligned`, `C71_stuck`, `C77_gradients`, `C78_call`, `C78_history`, `C78_steps`, `C79_calls`, `C79_estimation`, `C79_smoothing`, `C80_averages_exist`, `C80_evidence_from_any_state`, `C80_evidence_given_initial`, `C80_evidence_unbiased`, `C81_joint`, `C81_one_trajectory`, `C81_trajectory_mean`, `C82_iteration_unique`, `C82_three_particles_refuted`, `C82_two_particles_cpf`, `C82_two_particles_cpfas`, `C83_averages_exist`, `C83_sir_agrees_with_bootstrap`, `C83_sir_from_any_state`, `C83_sir_unbiased`, `C85_call`, `C85_history`, `C85_no_stray_calls`, `C86_averages_exist`, `C86_call`, `C86_conditional_refuted`, `C86_mean`, `C86_proportional`, `C87_averages_exist`, `C87_from_any_state`, `C87_given_initial`, `C87_one_call`, `C87_unbiased`, `C88_averages_exist`, `C88_drawn_trajectories`, `C88_paths_from_any_state`, `C88_paths_given_initial`, `C88_paths_unbiased`
* **ACEF** (11 theorems): `C34_predict_moments`, `C38_dynamics_remembered`, `C43_constant_dynamics`, `C43_last_step`, `C76_as_if_new`, `C76_determined`, `C76_matrices_in_effect`, `C76_not_copied_refuted`, `C84_gradient`, `C84_no_linear_state_refuted`, `C84_work_arrays`
* **ABCEF** (86 theorems): `C33_measure_bayes`, `C33_measure_likelihood`, `C33_measure_no_C`, `C33_rejects`, `C35_measure_shrinks`, `C35_psd_invariant`, `C36_scalar_agrees`, `C37_smooth_exact`, `C37_smooth_moments`, `C38_stored_used`, `C39_same_density`, `C39_scalar`, `C39_vec`, `C40_measure_exact`, `C40_measure_scalar`, `C40_measure_scalar_refuted`, `C40_xnext_exact`, `C40_xnext_scalar`, `C40_xnext_scalar_refuted`, `C41_hier_bound`, `C41_hier_refuted`, `C41_mlnlg_bound`, `C41_nlg_bound`, `C41_nlg_scalar`, `C43_time_varying_refuted`, `C44_last_step`, `C44_refuted`, `C44_sample_smooth`, `C44_second_refuted`, `C44_single_exact`, `C45_cond_predict`, `C45_correlated_refuted`, `C46_ltv_x0`, `C46_ltv_xnext`, `C46_ltv_y`, `C47_logprod`, `C47_ltv_x0`, `C47_ltv_xnext`, `C47_ltv_y_refuted`, `C48_initial_density`, `C48_initial_density_zero`, `C48_initial_refuted`, `C48_initial_scalar`, `C48_initial_zero`, `C48_process_noise`, `C62_constant_matrices`, `C62_ltv_is_kalman`, `C63_cond_predict_exact`, `C63_update_exact`, `C63_update_refuted`, `C64_logp_singlestep`, `C64_logp_xnext`, `C64_sample_smooth`, `C65_post_smoothing`, `C66_first_stage`, `C66_measure_exact`, `C67_first_stage`, `C67_proposal`, `C67_proposal_initial`, `C67_update`, `C68_logp_xnext_exact`, `C68_measure_exact`, `C68_update_exact`, `C72_initial_gaussian`, `C72_x0_value`, `C72_xnext_value`, `C72_y_value`, `C73_x0_grad`, `C73_x0_value_refuted`, `C73_xi0_grad`, `C73_xnext_grad`, `C73_y_grad`, `C73_y_grad_C_ignored`, `C73_y_grad_C_refuted`, `C73_y_grad_R_refuted`, `C74_no_measurement_refuted`, `C74_preprocessed_refuted`, `C74_statistics`, `C74_two_states_refuted`, `C74_weight`, `C74_weight_common`, `C74_weight_refuted`, `C75_cancels`, `C75_initial`, `C75_proposal`, `C75_two_states_refuted`

## 5. Modelled and unmodelled code

Modelled (every function, with the lines cited at the definition): `filter.py`, `smoother.py`, `simulator.py`; `interfaces.py` (the default
implementations); `paramest/paramest.py`; `paramest/interfaces.py` (objective functions), `paramest/gradienttest.py` (without drawing);
`utils/kalman.py`, `utils/pdf.py`, `utils/intrument.py`, `utils/mlnlg_compute.py`; `models/nlg.py`, `models/ltv.py`, `models/rbpf.py`,
`models/mlnlg.py`, `models/hierarchial.py`.

Not modelled:

* abstract methods (bodies `pass`): they are the fields of the user-model records;
* `ParamEstBaseNumeric.__init__` / `set_param_bounds` (plain stores), and the call of `scipy.optimize.minimize` itself: it is an arbitrary
  function of the objective it is handed;
* plotting (`plt` calls) and printing;
* `LTV.sample_process_noise`, `LTV.fwd_peak_density` (raise or trivial), the default `*_grad` methods returning `None` (they are the
  `None` case of the fields), `HierarchicalRSBase.__init__`, `hierarchial.py`'s abstract `meas_xi_next`, `calc_xi_next`;
* the compiled variants as machine code: `ckalman.pyx` has the same statements as `kalman.py` (they differ in white space only), and the
  loops of `cmlnlg_compute.pyx` are those of `GradLoopModel`, where indices are proved to be in range (C84); Cython and the generated C are
  not modelled;
* everything under `test/`, `examples/`, `doc/`.

## 6. Findings

Each is a `_refuted` theorem about the model, or visible in a characterisation theorem.

* `sample`: at the draw exactly 0 a leading zero-weight index is returned and the share of an index may be off by one (C02, C05).
* `find_best_particles` returns the smallest weights (C56); `ParticleTrajectory.spawn` always fails (C57).
* The auxiliary filter drops the maxima it subtracts from the log-weights, so its `w_offset` does not give the likelihood (C12).
* PFY with preallocated `T` proposes from the last preallocated slot (C17); CSIRAS does not pin the first step (C19).
* `bsi_rs` is right only for future index lists 0..M-1 (C25); `bsi_rsas` need not end with ratio 0 (C26).
* `KalmanFilter.time_update` always raises (C38).
* Scalar NLG models use the standard deviation as variance (C40), so `logp_xnext_max` is no bound for Q > 1 (C41); NLG's initial sampler
  uses the wrong triangle (C48).
* LTV backward smoothing uses the dynamics of time 0 (C43); its measurement gradient always raises (C47).
* Hierarchical `sample_smooth` uses particle 0 for every trajectory (C44); `logp_xnext_max` is no bound for small covariances (C41).
* MLNLG: the conditional covariance is not reduced for correlated noises (C45); `update`, proposals and the marginalised smoother raise for
  more than one nonlinear state (C63, C75, C74); gradients of C are ignored, a particle-dependent R raises, the x0 value is an array with
  the wrong mean (C73); the marginalised smoother has a wrong sign, counts steps without measurement and uses the raw measurement (C74);
  arrays of the linear part are referenced, not copied (C76); the gradient of A needs a linear state (C84).
* EM: the x0 gradient is averaged over the parameters (C53); SAEM never finishes an iteration (C59); `raoblackwell=True` uses uninitialised
  memory (C61).
* `Instrumenter` lacks methods that the library calls (C55).
* A `forward()` that raises has already advanced the index and stored u, y (C71).
* Not theorems, noted while reading: `InitialGaussian.get_rb_initial_grad`'s default has an extra axis (ValueError for lz >= 2);
  `InitialGaussian` with `Pz0=None` raises AttributeError; `Instrumenter.print_statistics` uses attributes that do not exist.

## 7. Testing the theorems against wrong programs

`seeded/LOG.jsonl`: one line per edit of the model (scratch copies outside `/verif`), the claim it breaks, the theorems that failed to
prove, and theorems that were added or tightened when none did.
