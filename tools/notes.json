{
 "C05": {
  "note": "Refuted: the mask condition is a tautology, so `smooth` is >1/2 (not 0) below xmin, <1/2 (not 1) above xmin+dx and 0 at xmin+dx. Proved strictly inside the window."
 },
 "C06": {
  "note": "The soft-truncated power law itself is fully proved; the fall-off passed through powerlaw_primary_ratio_falloff_pdf never reaches the high-mass side (refuted), where steepness 4 is always used."
 },
 "C07": {
  "note": "Value, floor and normalisation (shapes > 1, against Euler's integral) proved; finite values at the end points refuted (NaN for alpha=1, +inf for alpha<1). Shapes below one: C07_beta_normalised_open, with improper integrals."
 },
 "C13": {
  "note": "Everything proved except the lower cut: the density is positive below zmin (refuted)."
 },
 "C17": {
  "note": "The functions that build new arrays leave their arguments alone (proved); the in-place updates change the caller's array (refuted)."
 },
 "C20": {
  "note": "Returns after at most two levels of recursion whenever no two case boundaries are exactly 1e-6 apart (or sum to 1e-6); never returns otherwise, nor for NaN (refuted)."
 },
 "C21": {
  "note": "Density properties proved for chi_p >= 0; for negative chi_p the code returns negative densities instead of zero (refuted)."
 },
 "C88": {
  "note": "Proved for scalar q; with array q an element on a case boundary makes the recursive call fail (refuted)."
 },
 "C89": {
  "note": "Proved for a_max = 1; for a_max < 1 the bound mixes up scalings and excludes physical values or is NaN (refuted)."
 },
 "C58": {
  "note": "The third output plus 1/Ninj is the (non-negative) variance mc_var/mu^2 (proved); the output itself can be negative (refuted)."
 },
 "C64": {
  "note": "Proved whenever the event has a sample (and there is an injection) of positive weight that passes the cuts; if all samples of an event are cut, the first sample is recorded regardless (refuted)."
 },
 "C65": {
  "note": "Proved for two sub-populations; with three or more, every one but the first is read as the second (refuted). Whichever later sub-population is drawn, the likelihood is that of the second (C65_later_subpopulations_refuted)."
 },
 "C90": {
  "note": "Proved up to 46340; above it Ninj**2 wraps in int32. C90_exactly_when shows that 46340 is the exact limit: for every larger integer below 2^31 and any usable weights the effective number of injections differs from that of the float count. C90_integer_count_refuted gives the total loss at 65536."
 },
 "C24": {
  "note": "BSpline and LogXBSpline with default knots, every n>=k>=1, every x in range. False at the right end for k=1 and when the knot spacing is below the code's 1e-6 threshold (refuted theorems)."
 },
 "C25": {
  "note": "All four B-spline classes on any non-decreasing knots whose distinct neighbours are 1e-6 apart, inside the range; exact zeros (minus infinity for the two log-density classes) out of range, whatever the knots; the log-x classes at x >= 0."
 },
 "C27": {
  "note": "The code keeps only the first spacing and the number of interior knots: the refuted theorem shows supplied knots missing from the result. Proved for equally spaced interior knots. For any interior knots the result is characterised exactly: equally spaced by the difference of the first two (C27_spacing_of_first_two_refuted), AssertionError unless there are n+2-k of them, IndexError for fewer than two."
 },
 "C30": {
  "note": "Unnormalised: every coefficient vector including infinities. Normalised: whenever the unnormalised integral is a non-zero number. With normalisation, one infinite coefficient makes every value NaN; LogXLogYBSpline of order one is 1 at negative x."
 },
 "C32": {
  "note": "True at the left end. At the right end the code imposes equal curvature on the last interval instead of zero curvature."
 },
 "C33": {
  "note": "tree_flatten returns a 3-tuple instead of a (children, aux) pair."
 },
 "C34": {
  "note": "bases calls a method that does not exist; default construction fails. Were the call fixed, the reshape would still exchange the indices."
 },
 "C42": {
  "note": "All grid lengths by induction; flat densities with non-negative matter and radiation."
 },
 "C43": {
  "note": "Per-step trapezoid error of a decreasing integrand, telescoped; Coquelicot integral. With a non-negative cosmological constant also the second-order bound 2 (c/H0) dz^2 (1+dz)."
 },
 "C44": {
  "note": "Both directions for whole arrays; the object is left unchanged."
 },
 "C45": {
  "note": "Histories are arbitrary lists of all five query kinds (including failing ones); the answer inside the initial table is unchanged."
 },
 "C46": {
  "note": "Beyond the table the answer is the distance of the last grid point below z (error at most 1.5 (c/H0) dz proved, for every history of queries and every array of non-negative redshifts, and a matching bound for the luminosity distance), it changes when the table grows again, and DL2z raises TypeError."
 },
 "C91": {
  "note": "Whole arrays, after any history of queries, with table extension."
 },
 "C47": {
  "note": "Proved: entry i is the prefix integral of y shifted by one place (last value repeated), exact for constant y. Refuted: entry 1 is wrong whenever y[0] differs from y[2] on three or more points; a one-point array raises TypeError."
 },
 "C48": {
  "note": "Proved for the default limits; for other limits cdf, icdf and samples are those of the normalised sine, but log_prob ignores the limits, so its density integrates to less than one (refuted)."
 },
 "C49": {
  "note": "Proved for the default limits; for other limits cdf, icdf and samples are those of the normalised cosine, but log_prob ignores the limits, so its density integrates to less than one (refuted)."
 },
 "C50": {
  "note": "Density proved for every index but -1; cdf, icdf and samples for every index; values outside the limits. Refuted: at index -1 log_prob subtracts log(max/min) where log(log(max/min)) is needed; cdf of a negative value can be 1."
 },
 "C51": {
  "note": "Unit trapezoid integral when the grid ends at or below maximum; cdf monotone from 0 to 1 and samples in range on evenly spaced grids. Refuted: cdf is not the integral of the density, can exceed one on uneven grids, and a maximum inside the grid removes probability."
 },
 "C52": {
  "note": "Continuity and the power-law pieces proved wherever log_prob is a number. Refuted for all parameters: the integral is greater than one or log_prob is NaN everywhere (wrong signs in the normalising constant; always NaN for alpha=-1, alpha_max=1 or alpha_min=-1)."
 },
 "C53": {
  "note": "Unit integral, monotone cdf on evenly spaced grids and samples in range proved for finite design matrices. Refuted: the cdf is not the integral of the density; a NaN column makes log_prob NaN at the neighbouring node."
 },
 "C54": {
  "note": "log_prob accepts exactly shape (N,) and equals the difference penalty. Refuted: samples have no event axis and are rejected by log_prob."
 },
 "C35": {
  "note": "Proved for every basis, knots and sample pattern (infinite and NaN samples included), one or more coefficients; a wrong number of coefficients is a ValueError. With the knots left to the class the model is built exactly when there are more splines than the degree (C35_built_exactly_when)."
 },
 "C36": {
  "note": "Same density for samples of equal absolute value; half the one-sided spline density at |chi|."
 },
 "C37": {
  "note": "Unit trapezoid sum proved for linear bases built with normalize=False. Refuted: the default normalised basis is projected with its norm in the rate but without in the normalisation, and outside the spline range the rate is exp(0) times the volume factor, not zero. The model is built exactly when there are more splines than the degree (C37_built_exactly_when)."
 },
 "C38": {
  "note": "Pointwise products for all separable classes, exchange symmetry of the IID spin models, IID component masses zero for m2>m1. Refuted: the independent component-mass model is positive for m2>m1. Each class is built exactly when every dimension has more splines than its degree (C38_built_exactly_when)."
 },
 "C39": {
  "note": "Smoothing window proved; unit trapezoid sum when a grid mass lies between the power-law limits: unconditionally for the default BSpline basis, for every basis class and normalisation wherever the spline has finite values (C39_any_basis). Refuted: any order k other than 4 fails the knot-count assertion. The window is not used by __call__. The model is built exactly for order four with at least four splines (C39_built_exactly_when)."
 },
 "C40": {
  "note": "Refuted: the constructor reads self.qknots, which is never assigned."
 },
 "C41": {
  "note": "Unit trapezoid sum, zero above zmax and agreement with PowerlawRedshiftModel at zero coefficients, for BSpline and LogXBSpline; every basis class wherever the spline has finite values (C41_any_basis). The model is built exactly when there are at least four splines (C41_built_exactly_when)."
 },
 "C66": {
  "note": "Proved for configurations without iid entries, in every state of the closure (arbitrary earlier calls). A shared (iid) parameter makes every call raise (C66_shared_parameter_refuted): analysis.py compares the partner's name the wrong way round. Missing hyper-parameters, unknown entries and missing data raise. Classes and distributions are abstract (a world record)."
 },
 "C67": {
  "note": "Recorded keys and sampling_params are characterised exactly for any starting reader; entries when keys are distinct, with lists stored as arrays only when rectangular and numeric, any other list being refused (C67_ragged_lists_refused); models when there is no iid. That every looked-up key is present fails for a hyper-parameter declared with neither prior+prior_params nor value (silently skipped): refuted, and partial under that hypothesis. Configurations whose declarations are all well formed are read without an error (C67_good_configurations_read)."
 },
 "C68": {
  "note": "Refuted: a/1_alpha and a_1/alpha share the key a_1_alpha. Partial: distinct when no parameter name extends another by an underscore."
 },
 "C69": {
  "note": "Dotted paths proved for all strings. python files: str.replace removes every occurrence, so directories containing the file name and bare file names go wrong (refuted); partial otherwise."
 },
 "C70": {
  "note": "Remaining events proved; nObs counts the ignored events too (refuted), partial when nothing is ignored."
 },
 "C71": {
  "note": "All four request combinations of the mass helper, both spin modes, and the redshift helper, for all sizes, names, scales and degrees."
 },
 "C72": {
  "note": "Refuted: with sub-populations redshift is removed from the caller's dictionary and never exported; posterior_dict_to_xarray replaces the caller's arrays. The arrays that are exported are right (partial)."
 },
 "C73": {
  "note": "Proved for both readers on every well-formed file: the selected rows are exactly the found ones, all columns list the same rows in order, the total is the file's; lowering thresholds keeps every injection."
 },
 "C74": {
  "note": "Refuted: the cuts are united with the thresholds (found |= ...), so a row that passes no threshold is selected once a cut is given. C74_cuts_add is the exact behaviour. With through_o4a the cuts are ignored."
 },
 "C75": {
  "note": "Proved for both readers and every parameter request."
 },
 "C76": {
  "note": "Refuted: np.zeros(n_found)[found] raises IndexError as soon as one row of the file is not selected. C76_missing_components_partial: if every row is selected the magnitudes are |spin_z|."
 },
 "C77": {
  "note": "Proved for requests within the available parameters, end to end for injections, and for posteriors given that the earlier stages succeed. Refuted for spin parameters requested without a_1 (KeyError) and for mass_2 together with mass_ratio and chi_eff (mass_ratio is dropped)."
 },
 "C78": {
  "note": "Refuted: no rule on (mass_1, mmax) alone describes the cut (samples at exactly mmax survive unless some other sample exceeds it), and GWTC-1 events are never cut. The _partial theorems give what holds outside GWTC-1."
 },
 "C79": {
  "note": "Proved for every catalog and every sampling without replacement. C79_succeeds: catalogs without GWTC-1 events never raise."
 },
 "C80": {
  "note": "Proved for a flat cosmology in any reachable state of its tables and real-valued samples; the tables are grid densities proportional to the analytic shapes."
 },
 "C81": {
  "note": "Refuted: after reading, the prior of isotropic draws is p_rest/4; conversion divides by (2 pi a1^2)(2 pi a2^2) and multiplies by p(chi_eff|q), so the result is the intended density times 1/((4 pi a1^2)(4 pi a2^2)). With the package's own density of chi_eff (C81_isotropic_prior_partial) the value is the pushforward density off the points where two cases of the formula meet; there it can recurse for ever (C81_isotropic_prior_refuted) or be nan (C81_isotropic_prior_nan_refuted)."
 },
 "C82": {
  "note": "Refuted: every call with chi_p raises, with or without chi_eff."
 },
 "C83": {
  "note": "Proved for every weight vector with positive sum, fewer injections than draws and every choice that avoids zero-probability entries."
 },
 "C84": {
  "note": "Proved for the tilt mixture, the B-spline spins (both branches), the power-law-plus-peak, B-spline and log-peak masses, and every draw of the Beta magnitudes with alpha, beta > 1. Refuted for the other draws: the curve starts with NaN if alpha <= 1 and ends with NaN if beta <= 1. Draws, rates and fractions of different lengths are not modelled."
 },
 "C85": {
  "note": "Proved for redshift models built from any finite samples above -1 and the two unnormalised linear bases (B-spline and log-x B-spline)."
 },
 "C92": {
  "note": "The value is the pushforward density off the boundaries and the stated average on them; refuted at chi_eff = q a_max/(1+q) for 1/2 < q < 1, where case D is inf - inf and the result is NaN. Total probability one: C92_isotropic_normalised."
 },
 "C93": {
  "note": "scipy.stats.gaussian_kde is an arbitrary positive function argument."
 },
 "C103": {
  "note": "Tightens C51/C53, which constrain the two gridded distributions only at their grid nodes. The tabulated cdf entries are the ones the code computes (shifted by one node, see C47)."
 },
 "C104": {
  "note": "Tightens C16, whose round trips would hold for any mutually inverse pair. The Beta function is an oracle assumed equal to the (improper) Beta integral."
 },
 "C105": {
  "note": "Both parsers, any sequence of settings, including unambiguous abbreviations and negative numbers as values (C105_command_line); other texts with a dash in front are refused as values (C105_dash_values). Refuted: --m-nsplines and the other spline counts are declared type=str, so any value given on the command line makes the set-up fail; --save-plots is type=bool, so --save-plots False still saves. Out of scope: positional arguments, help output."
 },
 "C106": {
  "note": "Every sample's value is the product of the closed-form densities of its own parameters; missing columns raise KeyError; calling the spin set-up with independent spins but without the secondary's counts raises TypeError. A redshift set-up on an empty sample set raises ValueError (C106_no_samples)."
 },
 "C107": {
  "note": "Weights of the B-spline example proved; refuted that any shipped example model reaches the likelihood (they pass surv_hypervolume_fct and vtfct_kwargs, which hierarchical_likelihood does not accept, hence TypeError in every call), and that var_a1/var_a2 of the power-law-peak example is the variance of the spin magnitude (it is mu(1-mu)/(1+var), and both shapes are below one). C107_bspline_example_call_partial shows what the same model computes when the two keywords are left out: each coefficient vector meets its own tables, event by sample weights for the posteriors, a flat vector for the injections. C107_peak_weight_partial gives the power-law-peak weight in closed form."
 },
 "C108": {
  "note": "Component-spin and spin-free requests; effective spins are covered up to the data set by C77 and C81. netCDF writing and reading is trusted to be the identity. An event with no sample below the mass cut makes the whole load raise ValueError (C108_lost_event). A file whose metadata cannot be found (neither in the file nor in a key file) makes the load raise TypeError instead of a message naming it (C108_no_metadata_refuted)."
 },
 "C109": {
  "note": "False for more populations than names or colors (three colors by default) and for other numbers of mass-ratio than mass densities: IndexError or silently missing curves (C109_*_refuted). Finite draws; figures are the arguments handed to matplotlib."
 },
 "C110": {
  "note": "False: the script imports load_catalog_from_metadata and selection.load_injection_dataset, which do not exist, so it raises ImportError for every configuration (C110_script_refuted). With any loaders in their place the arrays are right (C110_arrays), except for models given as a python file (C110_python_file_refuted). Posterior samples of unequal length are refused (C110_same_lengths)."
 },
 "C111": {
  "note": "Proved that file names determine label, warm-up, samples, seed and results directory. Refuted for every other setting (mass range, data file, numbers of splines, chains): such runs share the directory and overwrite each other. Creation of directories is not modelled."
 },
 "C112": {
  "note": "Round trip through the generated command, the shell words and the argparse model, for settings that are single words. Refuted: a missing file, script or interpreter is not refused but written as the word None. The shell is modelled as splitting at spaces and substituting the array index."
 },
 "C113": {
  "note": "The model is the B-spline example called with keywords the likelihood accepts; as shipped it raises TypeError (C107), hence _partial. Assumes finite draws above the most negative float, knots at least 1e-6 apart and a positive volume element; the posterior and the injection that must lie inside the ranges are needed for the logarithms to be finite."
 },
 "C114": {
  "note": "Proved when the sub-population weights are passed as plain weights (log or not for the total). Refuted when log=True and they are passed as log weights like the other arrays: the recorded value is log(w_i)/w, negative for weights below one."
 },
 "C115": {
  "note": "The model is the power-law-peak example called with keywords the likelihood accepts; as shipped it raises TypeError (C107), hence _partial. Spin magnitudes strictly between 0 and 1 and binaries not exactly at m1 = mmin, q = 1 (where the mass-ratio range is a point). Refuted part: a sample with spin exactly zero has infinite weight whenever mu times the sampled shape sum is below one. The columns of a dictionary have one shape."
 },
 "C116": {
  "note": "Chord error of a function with Lipschitz derivative, for the trapezoid rule and for the interpolation; the second derivative of the comoving rate falls like (1+z)^-2, so the bound does not grow with z. Exact arithmetic: single-precision rounding is not modelled and can exceed this bound at large distances."
 },
 "C117": {
  "note": "Composes C108 with C113 and C115: the weights of the log-likelihood are evaluated at named samples and rows of the files with named priors. Missing: the calls inside the examples do not bind as written (C107), so the theorem is for keywords that do; found injections must have real values (a spin of exactly zero gives NaN)."
 },
 "C118": {
  "note": "Partial because the full property is false: the mass curves carry the extra condition m1*q > mmin, so they vanish at the lower edges where the fitted densities do not (refuted), and with several chains the number of draws is not the samples argument and ValueError is raised (refuted). Plots and the NetCDF encoding are not part of the model."
 },
 "C119": {
  "note": "Partial because the full property is false: for every draw the priors of the example allow (shape sum at most 1/4) both spin-magnitude curves are NaN at 0 and 1 and zero between (refuted); several chains raise ValueError (refuted); mass curves as in C118. betaln is an oracle finite at positive arguments."
 },
 "C120": {
  "note": "Partial because the full property is false: the model builder passes grid= to the redshift class, whose constructor has no such parameter (it wants zgrid and dVcdz), so every call of the shipped configuration's model raises TypeError (refuted), as does every configuration using one of the package's own classes for the redshift except the B-spline distribution (refuted), and the Python model beside it (refuted). Proved in full for the same configuration with a redshift class that takes the grid. numpyro's own classes are an oracle; outside its range a power law counts with the exponential of the most negative float."
 },
 "C121": {
  "note": "Partial because the full property is false: two declarations can share a key (C68); if a prior is then overwritten by a value, the name is still listed as sampled, the trace plot raises KeyError and the samples of a completed run are never saved (refuted). Proved for all documents whose keys are distinct. The constructors of the prior classes are assumed not to raise AttributeError (the model builder would pass the prior object on). One call of the model gives the names of the posterior; plotting and encoding are not modelled."
 },
 "C122": {
  "note": "For models sections without a python file (with one the script never looks at the likelihood section). The variance cut alone is refused too, because the cut on the effective samples is on by default: it has to be switched off explicitly (C122_contradictory_options_refused)."
 },
 "C123": {
  "note": "The loaders are arguments: the two the script imports do not exist (C110). Samples of unequal numbers are refused (C110), shared parameters too (C66). The classes are arguments; with the package's own redshift classes every evaluation raises (C120). Injection columns are arrays, the number of injections a float (C90 for integers)."
 }
}