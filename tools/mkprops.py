import json
P=[]
def p(title, statement, quantifier, why, *anchors, id=None):
    P.append(dict(id=id or "C%02d"%(len(P)+1), title=title, statement=statement, quantifier=quantifier, why_tests_cant=why, anchors=list(anchors)))
D="gwinferno/distributions.py:"; N="gwinferno/numpyro_distributions.py:"; I="gwinferno/interpolation.py:"; C="gwinferno/cosmology.py:"
V="gwinferno/preprocess/conversions.py:"; R="gwinferno/preprocess/priors.py:"; S="gwinferno/preprocess/selection.py:"; DC="gwinferno/preprocess/data_collection.py:"
A="gwinferno/pipeline/analysis.py:"; U="gwinferno/pipeline/utils.py:"; G="gwinferno/pipeline/parser.py:"; PC="gwinferno/postprocess/calculations.py:"
PM="gwinferno/models/parametric/parametric.py:"; SM="gwinferno/models/bsplines/smoothing.py:"; SI="gwinferno/models/bsplines/single.py:"; SE="gwinferno/models/bsplines/separable.py:"; SP="gwinferno/models/spline_perturbation.py:"

# ---- distributions.py
p("Truncated power law is a normalised density","For every index alpha (the special index -1 included) and bounds 0<low<high, powerlaw_pdf is finite and non-negative on [low,high] and integrates to exactly 1 over it.","all real alpha, all 0<low<high, all x in the support","Quadrature at one (alpha,low,high) says nothing about other indices, in particular about the removable singularity at alpha=-1.",D+"powerlaw_pdf")
p("Power-law floor outside the bounds","powerlaw_pdf returns exactly `floor` for every x<low or x>high, and the normalised power law (not the floor) at both end points, whatever the intermediate arithmetic did (including NaN/inf in the discarded branch).","all x, alpha, low, high, floor (no ordering assumed)","Needs every x including values whose un-masked branch is NaN or infinite.",D+"powerlaw_pdf")
p("Truncated normal and truncated log-normal are normalised densities","For every mu, sigma>0 and low<high (0<low<high when log=True), truncnorm_pdf is non-negative, zero outside [low,high] and integrates to 1 over it.","all mu, sigma>0, low<high, x, both values of log","Finite grids check one parameter point up to quadrature error.",D+"truncnorm_pdf")
p("Logistic truncation helpers","logistic_unit lies strictly between 0 and 1, is 1/2 at x0, decreases for sgn=+1 and increases for sgn=-1 (sc>0), the two signs sum to one, and log_logistic_unit is exactly its logarithm on both branches of the numerically-stable formula.","all x, x0, sgn in {-1,1}, sc>0","Branch selection must agree with the closed form at every x.",D+"logistic_function",D+"logistic_unit",D+"log_logistic_unit")
p("Low-mass smoothing window `smooth`","smooth(dx,x,xmin) is 0 below xmin, 1 above xmin+dx, and rises monotonically from 0 to 1 in between.","all x, xmin, dx>0","The outer regions are only visible with a case analysis over every x; sampling inside the window passes.",D+"smooth",PM+"plpeak_primary_pdf")
p("Soft-truncated power law","powerlaw_logit_pdf equals x^alpha times the requested low/high logistic factors, never exceeds x^alpha for x>0, and the fall-off requested through powerlaw_primary_ratio_falloff_pdf applies to both truncation sides.","all x>0, alpha, bounds and fall-offs, each optional bound present or absent","Four present/absent combinations times a continuum of inputs.",D+"powerlaw_logit_pdf",PM+"powerlaw_primary_ratio_falloff_pdf")
p("Beta density: support, value and normalisation","betadist equals floor outside [0,scale], the Beta density on the open interval, integrates to one for shapes >= 1, and is a number (not NaN) at the support end points.","all x, alpha, beta, scale>0","End-point special values (0*log 0) appear only at single points; normalisation is over a continuum.",D+"betadist")
# ---- parametric
p("Power-law mass/ratio joint density","powerlaw_primary_ratio_pdf vanishes unless mmin<=m1<=mmax, q<=1 and q*m1>=mmin; for every m1>mmin its q-integral over the allowed range is the m1 density, and the iterated integral over (m1,q) is one.","all alpha, beta, 0<mmin<mmax, all (m1,q)","Two-dimensional continuum, parameter-dependent support.",PM+"powerlaw_primary_ratio_pdf")
p("Power-law + peak mass density","plpeak_primary_pdf without smoothing is non-negative, vanishes outside [mmin,mmax] and integrates to one for every mixing fraction in [0,1]; plpeak_primary_ratio_pdf inherits the joint support.","all alpha, peak mean, peak sd>0, 0<mmin<mmax, lam in [0,1], all m1","Continuum of parameters.",PM+"plpeak_primary_pdf",PM+"plpeak_primary_ratio_pdf")
p("Spin-tilt mixture is a density on [-1,1]","mixture_isoalign_spin_tilt is non-negative, zero outside [-1,1] and integrates to one for every xi in [0,1] and sigma>0.","all cos tilt, xi in [0,1], sigma>0","Continuum of parameters and points.",PM+"mixture_isoalign_spin_tilt")
p("Joint tilt models are densities on the square","iid_spin_tilt, independent_spin_tilt and default_spin_tilt are non-negative and their iterated integral over [-1,1]^2 is one; iid and default models are symmetric under exchange of the two tilts.","all (ct1,ct2), xi's in [0,1], sigmas>0","Two-dimensional continuum.",PM+"iid_spin_tilt",PM+"independent_spin_tilt",PM+"default_spin_tilt")
p("Spin magnitude joint models factorise","iid_spin_magnitude is the product of two identical Beta densities and is symmetric under exchange; independent_spin_magnitude_beta_dist with equal parameters coincides with it.","all a1,a2, shape parameters, maxima","Equality must hold at every point.",PM+"iid_spin_magnitude",PM+"independent_spin_magnitude_beta_dist",PM+"beta_spin_magnitude")
p("Power-law redshift model normalised on its own grid","PowerlawRedshiftModel evaluated on its redshift grid has unit trapezoid integral, log_prob is the log of the density for every z<=zmax, and the density is zero outside [zmin,zmax].","all lamb, all sample sets defining zmin/zmax, all z","Grid normalisation must hold for every data set and lamb; truncation for every z.",PM+"PowerlawRedshiftModel")
# ---- conversions
p("Effective spin is physical","For 0<=q, magnitudes in [0,1] and cosines in [-1,1], chieff_from_q_component_spins lies in [-1,1], is odd under flipping both tilts, and attains +-1 only for maximal aligned/anti-aligned contributing spins.","all physical (q,a1,a2,ct1,ct2)","Range claims over a five-dimensional box.",V+"chieff_from_q_component_spins")
p("Effective precession is physical","For 0<=q<=1, magnitudes in [0,1] and cosines in [-1,1], chip_from_q_component_spins is finite and lies in [0,1], is at least a1 sin t1, and is invariant under flipping the sign of either tilt cosine.","all physical (q,a1,a2,ct1,ct2)","Range claims over a five-dimensional box.",V+"chip_from_q_component_spins")
p("Beta shape <-> mean/variance conversions are mutually inverse","alpha_beta_from_mu_var(mu_var_from_alpha_beta(alpha,beta,xmax),xmax) returns (alpha,beta) for all positive shapes, and the reverse composition returns (mu,var) for every attainable mean/variance pair; shapes recovered from an attainable pair are positive.","all alpha,beta>0, xmax>0; all 0<mu<xmax, 0<var<mu(xmax-mu)","Algebraic identity over a continuum.",V+"mu_var_from_alpha_beta",V+"alpha_beta_from_mu_var")
p("Conversions do not modify their arguments","Calling alpha_beta_from_mu_var leaves the caller's arrays unchanged, so calling it twice on the same arrays gives the same answer.","all array contents, xmax, aliasing patterns of the two arguments","Depends on call history and aliasing, invisible to single-call value tests.",V+"alpha_beta_from_mu_var")
# ---- priors
p("Aligned-spin chi_eff prior is an even, continuous, normalised density","chi_effective_prior_from_aligned_spins is non-negative, even, zero for |chi|>a_max, continuous across its case boundaries and integrates to one for every q in (0,1] and a_max>0.","all chi_eff, q in (0,1], a_max>0","Piecewise definition over a continuum; exact boundary points.",R+"chi_effective_prior_from_aligned_spins")
p("Isotropic chi_eff prior: case analysis is complete and exclusive","For every chi_eff at most one of the seven cases is selected, the result depends on |chi_eff| only, is exactly zero for |chi_eff|>=a_max, and points selected by no case are exactly the finitely many case boundaries, where the average of the two neighbours is used.","all chi_eff, q in (0,1], a_max>0","Missed cases are measure-zero boundary points.",R+"chi_effective_prior_from_isotropic_spins")
p("Isotropic chi_eff prior always returns","chi_effective_prior_from_isotropic_spins terminates for every chi_eff, q, a_max.","all chi_eff, q, a_max","Non-termination needs boundaries exactly one step apart; no finite sample of tests finds it.",R+"chi_effective_prior_from_isotropic_spins")
p("Isotropic chi_p prior is a normalised density","chi_p_prior_from_isotropic_spins is non-negative, zero outside [0,a_max), continuous at its case boundary and integrates to one for every q in (0,1] and a_max>0.","all chi_p, q in (0,1], a_max>0","Closed-form piecewise density over a continuum, including out-of-range arguments.",R+"chi_p_prior_from_isotropic_spins")
p("Conditional chi_p prior: rejection loop and interpolant","When the redraw loop of chi_p_prior_given_chi_eff_q exits every draw is physical; it can exit only if |chi_eff|<=a_max-attainable; the returned interpolant has unit trapezoid integral on its reference grid and is zero at both ends of the grid.","all random streams, all chi_eff, q, a_max, KDE values","Quantifies over all random streams and unbounded loop iterations.",R+"chi_p_prior_given_chi_eff_q")
# ---- smoothing
p("P-spline difference penalty","apply_difference_prior is non-positive for inv_var>=0, scales quadratically with the coefficients, is invariant under reversing the coefficients, and (inv_var>0) is zero exactly when the degree-th differences vanish, i.e. when the coefficients are a polynomial of lower degree in the index.","all coefficient vectors of any length, any difference order, all inv_var","Unbounded vector length and difference order.",SM+"apply_difference_prior")
# ---- interpolation
p("B-spline basis is a partition of unity","With default knots, the N basis functions returned by BSpline.bases sum to one at every x in the closed range xrange.","all N>=k>=1, all ranges, all x in the range","Every x and every number of splines.",I+"BSpline._bases",I+"BasisSpline.bases")
p("B-spline bases agree with the Cox-de Boor definition, are non-negative and locally supported","BSpline.bases equals the textbook B-spline of the same order on the same knots, each basis value is non-negative and vanishes outside its k knot spans and outside xrange.","all non-decreasing knot vectors with spacing above the code's threshold, all orders, all x","Recursion depth and knot vectors are unbounded.",I+"BasisSpline._basis",I+"BSpline._bases",I+"BasisSpline.bases")
p("Default knot construction","Constructing a spline with default knots succeeds exactly when n_df>=k, yields n_df+k equally spaced strictly increasing knots, with the k-th and (n_df+1)-th knots at the two ends of xrange.","all n_df, k, xrange","Integer boundary n_df=k and all sizes.",I+"BasisSpline.__init__")
p("User supplied interior knots are honoured","When interior_knots is given, the spline's knots contain the supplied interior knots.","all interior knot vectors","Uniform examples cannot distinguish; the claim is about all placements.",I+"BasisSpline.__init__")
p("Normalised splines have unit trapezoid integral on their own grid","For BasisSpline, BSpline, LogXBSpline, LogYBSpline and LogXLogYBSpline with normalize=True, the trapezoid integral over the spline's normalisation grid of project(grid_bases, coefs) is exactly one.","all coefficient vectors whose unnormalised integral is non-zero, all knots and ranges","All coefficient vectors.",I+"BasisSpline.norm",I+"BSpline.norm",I+"BSpline.project",I+"LogYBSpline._project")
p("Coefficient gauge freedom","Normalised linear splines are unchanged when all coefficients are multiplied by a non-zero constant, normalised log splines are unchanged when a constant is added to all coefficients.","all coefficient vectors, constants, evaluation points in range","All coefficient vectors.",I+"BasisSpline.project",I+"BSpline.project",I+"LogYBSpline._project")
p("Log-Y splines are exactly zero out of range","LogYBSpline and LogXLogYBSpline projections are zero at every point outside the range for every coefficient vector, including zero, mixed-sign and infinite coefficients.","all coefficient vectors (any signs, zeros, any length>=1), all out-of-range points","Special-value arithmetic inf*0, inf-inf on all sign patterns.",I+"LogYBSpline.bases",I+"LogYBSpline._project",I+"LogXLogYBSpline.bases")
p("Natural cubic spline interpolates smoothly","NaturalCubicUnivariateSpline passes through all its data points and, when its coefficients solve the assembled system, is continuously differentiable twice at every interior knot.","all increasing knot vectors of length>=4, all data","All sizes and data.",I+"NaturalCubicUnivariateSpline")
p("Natural cubic spline has zero curvature at both ends","The second derivative of NaturalCubicUnivariateSpline vanishes at the first and last knots.","all increasing knot vectors, all data","The existing test only looks at x<0.7 where a wrong right boundary is invisible.",I+"NaturalCubicUnivariateSpline.__init__")
p("Spline survives a pytree flatten/unflatten round trip","Flattening a NaturalCubicUnivariateSpline and rebuilding it as JAX does returns an equal spline.","all splines","Round trip for every object.",I+"NaturalCubicUnivariateSpline.tree_flatten",I+"NaturalCubicUnivariateSpline.tree_unflatten")
p("Bivariate spline design matrix","RectBivariateBasisSpline.bases(xs,ys)[i,j] is the product of the i-th x basis and the j-th y basis at each point.","all xdf, ydf, points","Index permutations show only for particular sizes.",I+"RectBivariateBasisSpline.bases")
# ---- single / separable / perturbation
p("Design-matrix models scatter values back to the right samples","For Base1DBSplineModel, the i-th entry of the returned pdf is the spline evaluated at the i-th sample when that sample is in range and 0 otherwise, for both PE and injection samples, and does not depend on the other samples. The named models (spin magnitude, tilt, effective and precessing spin, mass ratio, primary mass) are this model with the documented basis and domain.","all sample arrays of any length, any pattern of in/out-of-range/NaN samples, all coefficients","All masks.",SI+"Base1DBSplineModel.pe_pdf",SI+"Base1DBSplineModel.inj_pdf",SI+"Base1DBSplineModel.__call__")
p("Symmetric effective-spin model","BSplineSymmetricChiEffective gives the same density at chi and -chi and half the one-sided spline density.","all samples and coefficients","All samples.",SI+"BSplineSymmetricChiEffective")
p("B-spline redshift model","BSplineRedshift is normalised over its redshift grid for the constructed basis and gives zero rate outside the spline range.","all samples, coefficients, bases","All coefficient vectors; out-of-range samples.",SI+"BSplineRedshift")
p("Separable models are products and IID models are exchange symmetric","Each separable model returns the pointwise product of its component models on the selected sample set, IID spin models are symmetric under exchange of components, and component-mass models vanish where m2>m1.","all sample arrays, coefficients, beta","All samples.",SE+"BSplineIIDSpinMagnitudes",SE+"BSplineIndependentSpinMagnitudes",SE+"BSplineIIDSpinTilts",SE+"BSplineIndependentSpinTilts",SE+"BSplinePrimaryPowerlawRatio",SE+"PLPeakPrimaryBSplineRatio",SE+"BSplinePrimaryBSplineRatio",SE+"BSplineIIDComponentMasses",SE+"BSplineIndependentComponentMasses",SE+"BSplineEffectiveSpinDims")
p("Power-law x spline mass model","PowerlawBasisSplinePrimaryPowerlawRatio: the smoothing window is 0 at or below mmin, 1 from mmin+delta on, monotone in between; the primary density integrates to one on its mass grid; the constructor accepts any spline order k.","all masses, indices, coefficients, k","All inputs, all k.",SP+"PowerlawBasisSplinePrimaryPowerlawRatio")
p("Power-law x spline joint mass model can be constructed","PowerlawBasisSplinePrimaryRatio can be constructed.","all constructor arguments","A constructor that fails for all arguments needs a for-all statement.",SP+"PowerlawBasisSplinePrimaryRatio.__init__")
p("Power-law x spline redshift model","PowerlawSplineRedshiftModel has unit trapezoid integral on its grid for every lamb and coefficients, is zero above zmax, and with zero coefficients coincides with PowerlawRedshiftModel.","all lamb, coefficient vectors, samples","All coefficient vectors.",SP+"PowerlawSplineRedshiftModel")
# ---- cosmology
p("Distances increase with redshift","On the tabulated grid comoving distance, luminosity distance and comoving volume are zero at z=0 and strictly increasing, and Dc never exceeds (c/H0) z.","all H0>0, flat density parameters with non-negative matter and radiation, grid lengths, steps","Unbounded grids.",C+"Cosmology.extend",C+"Cosmology.update",C+"Cosmology.DL")
p("Tabulated comoving distance approximates the integral","Each tabulated Dc differs from the exact integral of c/(H0 E(z)) by at most (c/H0)*dz/2.","all grids, all indices, all density parameters with non-negative matter/radiation","An error bound for every grid and index.",C+"Cosmology.extend",C+"Cosmology.dDcdz",C+"Cosmology.z2E")
p("Luminosity distance <-> redshift round trip","DL2z(z2DL(z))=z for every z in the tabulated range and z2DL(DL2z(d))=d for every d in the tabulated range.","all z, d in range, all cosmologies","Continuum of arguments.",C+"Cosmology.DL2z",C+"Cosmology.z2DL")
p("Cosmology queries do not depend on call history","z2Dc, z2DL and dVcdz return the same value for the same redshift (inside the initial table) whatever sequence of queries was issued before on the shared cosmology object.","all finite histories of queries with the default step, all z in the initial table","The shared object mutates its tables; quantifies over histories.",C+"Cosmology.z2Dc",C+"Cosmology.z2DL",C+"Cosmology.extend")
p("Queries beyond the table extend it","z2Dc/z2DL for z beyond the table return the distance integrated up to z, and DL2z for a distance beyond the table returns the corresponding redshift.","all z, d beyond the table","The out-of-table branch for all arguments.",C+"Cosmology.z2Dc",C+"Cosmology.z2DL",C+"Cosmology.DL2z")
# ---- numpyro_distributions
p("cumtrapz is the cumulative trapezoid integral","cumtrapz(y,x)[i] equals the trapezoid integral of y over the first i+1 grid points.","all arrays of any length","A smooth, fine grid hides an index shift below test tolerance.",N+"cumtrapz")
p("Sine distribution","For 0<=minimum<maximum<=pi: exp(log_prob) integrates to one over the support, cdf is its integral, icdf inverts cdf, and every sample lies in the support.","all minimum<maximum in [0,pi], all values and quantiles","Continuum of parameters; non-default limits.",N+"Sine")
p("Cosine distribution","For -pi/2<=minimum<maximum<=pi/2: exp(log_prob) integrates to one over the support, cdf is its integral, icdf inverts cdf, and every sample lies in the support.","all minimum<maximum in [-pi/2,pi/2], all values and quantiles","Continuum of parameters; non-default limits.",N+"Cosine")
p("Power-law distribution object","Powerlaw.log_prob is the log of the normalised power law, cdf is its integral, icdf and cdf are mutually inverse, samples lie in [minimum,maximum], for every alpha including -1, and values outside get the most negative finite number.","all alpha, 0<minimum<maximum, all values and quantiles in [0,1]","Continuum of parameters, special index -1.",N+"Powerlaw")
p("Power-law redshift distribution object","PowerlawRedshift.log_prob has unit trapezoid integral on its grid; its cdf is non-decreasing from 0 to 1 and is the cumulative integral of exp(log_prob); samples lie in the grid range.","all grids, volume tables, lamb","All grids and tables.",N+"PowerlawRedshift")
p("Smoothed power law is continuous and normalised","PowerlawSmoothedPowerlaw's density is continuous at minimum and maximum and integrates to one over [low,high].","all low<minimum<maximum<high, all indices","Continuum of parameters.",N+"PowerlawSmoothedPowerlaw")
p("B-spline distribution object","BSplineDistribution.exp(log_prob) has unit trapezoid integral on its grid, samples lie in the grid range, cdf is the cumulative integral of the density.","all grids, design matrices, coefficients","All grids and coefficients.",N+"BSplineDistribution")
p("P-spline coefficient prior is self consistent","PSplineCoeficientPrior.log_prob accepts exactly vectors of length N and equals the difference penalty; samples it draws have event shape (N,) and are accepted by log_prob.","all N, inv_var, difference orders, sample shapes","All N and shapes.",N+"PSplineCoeficientPrior")
# ---- analysis
p("Per-event Bayes factors: log and linear modes agree","per_event_log_bayes_factors with log=False on weights w and with log=True on log w return the same log Bayes factors, log effective sample sizes and variances.","all numbers of events and samples, all positive weights (zero weights allowed as -inf)","All arrays.",A+"per_event_log_bayes_factors")
p("Effective sample size and Monte-Carlo variance are in range","For non-negative not-all-zero weights the per-event effective sample size is (sum w)^2 / sum w^2 and lies in [1, n_samples], the variance estimate is 1/n_eff - 1/n_samples, the variance estimate is non-negative and zero exactly for equal weights, and both are unchanged when weights are rescaled.","all weight arrays of any size","Cauchy-Schwarz type bound for all arrays.",A+"per_event_log_bayes_factors")
p("Detection efficiency: log and linear modes agree","detection_efficiency in linear and log mode return the same three numbers, and log mu is the log of sum(w)/Ninj.","all weight arrays, Ninj","All arrays.",A+"detection_efficiency")
p("Detection efficiency variance is a variance","The third output of detection_efficiency is the (non-negative) variance of the log detection-efficiency estimate, i.e. 1/n_eff.","all weight arrays, Ninj >= number found","All arrays.",A+"detection_efficiency")
p("The likelihood is never NaN or infinite","The log-likelihood factor handed to the sampler is a finite number for all inputs whatsoever, including NaN, infinite, zero and negative weights, under every combination of flags that does not raise.","all weight arrays over the extended numbers, all flags","All special-value patterns.",A+"hierarchical_likelihood")
p("Likelihood value","When no cut applies, the log-likelihood equals sum_i log BF_i - Nobs log mu (plus the marginalisation correction Nobs(3+Nobs)/(2 n_eff) when requested); it is invariant under a common rescaling of the population density in PE and injection weights, and under permuting samples, injections and events.","all positive weights, any sizes","All arrays; invariances.",A+"hierarchical_likelihood")
p("Convergence cuts reject","If the injection effective sample size is below 4 Nobs, or any event's effective sample size is not above Nobs (or undefined), or (with max_variance_cut) the variance exceeds one or is undefined, the log-likelihood handed to the sampler is at most the most negative finite number plus the event evidence, and otherwise it is untouched by the cut.","all weights, Nobs>=1, flags","All inputs incl. NaN effective sample sizes.",A+"hierarchical_likelihood")
p("Contradictory cut flags raise","hierarchical_likelihood raises ValueError exactly when max_variance_cut is combined with marginalize_selection or min_neff_cut, before recording any site.","all flag combinations and inputs","Exhaustive over flags and all inputs.",A+"hierarchical_likelihood")
p("Recorded sites","One likelihood evaluation records each site name at most once, records the pre-correction detection efficiency, and the reconstructed rate satisfies rate * efficiency * VT = unscaled rate.","all inputs, flags, numbers of events and parameters","Unbounded numbers of events/parameters.",A+"hierarchical_likelihood")
p("Posterior-predictive draws respect the mass cuts","Every observed/predicted draw recorded by the posterior predictive check has m1min<=mass_1<=mmax and mass_1*mass_ratio>=m2min, whatever the random key, and among the allowed samples each is drawn with probability proportional to its weight.","all keys, data sets, cut values","All random keys.",A+"hierarchical_likelihood")
p("Categorical sub-population assignment","With categorical=True each event's weights are those of the sub-population drawn for it.","all numbers of sub-populations, draws","All draws and numbers of populations.",A+"hierarchical_likelihood")
p("Config-built model evaluates the configured population","construct_hierarchical_model's weights are the sum over configured parameters of the configured model's log_prob minus log prior, with hyper-parameters looked up under <param>_<hyper>, iid-shared parameters using the same model as their partner; missing hyper-parameters or unknown entries raise.","all model/prior dictionaries, samples","All configurations.",A+"construct_hierarchical_model")
# ---- parser
p("Config reader records exactly the declared hyper-parameters","After parsing, every hyper-parameter declared with a prior (or a value) has an entry under its key, sampling_params lists exactly the ones with priors, in order, and every key a declared model will look up is present. A parameter sharing another one's model refers to that parameter, which keeps its own model.","all configuration trees","All configurations.",G+"ConfigReader")
p("Hyper-parameter keys never collide","Two different (parameter, hyper-parameter) declarations never share a key.","all names","Injectivity over all strings.",G+"ConfigReader.add_model",G+"ConfigReader.add_mixture_model")
p("Dotted model paths are split correctly","load_dist_from_string resolves a.b.c to attribute c of module a.b for every dotted path; load_model_from_python_file adds the containing directory of the file.","all strings","All strings.",G+"load_dist_from_string",G+"load_model_from_python_file")
# ---- utils
p("Ignored events are dropped consistently","load_pe_and_injections_as_dict(ignore=names) returns PE arrays without exactly those events, in the original order, and nObs equals the number of remaining events.","all catalogs and ignore lists","All ignore lists.",U+"load_pe_and_injections_as_dict")
p("Spline prior helpers","bspline_mass_prior/spin_prior/redshift_prior sample coefficient vectors of the requested length, add exactly one smoothing penalty per sampled vector, raise when neither mass nor ratio splines are requested, and pin the first redshift coefficient to zero.","all sizes, names, flags","All argument combinations.",U+"bspline_mass_prior",U+"bspline_spin_prior",U+"bspline_redshift_prior")
p("PDF export keeps every parameter and its inputs","pdf_dict_to_xarray stores one array per parameter (per sub-population), including redshift, and leaves the caller's dictionaries unchanged.","all dictionaries and sub-population lists","History/aliasing and all keys.",U+"pdf_dict_to_xarray",U+"posterior_dict_to_xarray")
# ---- selection / data collection
p("Found injections","An injection is kept exactly when it passes a threshold, lowering the SNR threshold or raising the FAR threshold never loses an injection, rows of all parameters stay aligned, and total_generated is unaffected by the cuts.","all injection files, thresholds","All files and thresholds.",S+"get_o4a_cumulative_injection_dict",S+"get_o3_cumulative_injection_dict")
p("Additional cuts only remove injections","Supplying additional_cuts never adds an injection to the selected set.","all files and cuts","All files.",S+"get_o3_cumulative_injection_dict")
p("Injection prior Jacobians","The stored prior is the file's sampling density times mass_1 when mass_ratio is requested and times (2 pi a1^2)(2 pi a2^2) when spins are requested (divided by the weights for O4a).","all files and parameter requests","All requests.",S+"get_o4a_cumulative_injection_dict",S+"get_o3_cumulative_injection_dict")
p("Missing spin components are treated as zero","For O3 injection files without in-plane spin components, spin magnitudes are |spin_z|.","all files lacking spinNx/spinNy","Every number of found vs total injections.",S+"get_o3_cumulative_injection_dict")
p("Requested parameters are returned","load_injection_dataset/load_posterior_dataset return exactly the requested parameters plus the prior when no effective-spin parameter is requested, and otherwise the mass/redshift parameters plus chi_eff (chi_p) and the prior.","all parameter requests","All requests.",DC+"load_posterior_dataset",DC+"load_injection_dataset")
p("Posterior mass cut","processed_catalog_dataset_from_dict keeps exactly the samples with mass_1 <= mmax (one fixed rule for all events).","all catalogs, mmax","Boundary samples and all catalogs.",DC+"processed_catalog_dataset_from_dict")
p("Down-sampling keeps intact, distinct samples","After processing every event has the same number of samples min(10000, shortest event); each is an intact column of that event's (cut) posterior and no column is used twice; event order is kept.","all catalogs, all random choices","All random choices.",DC+"processed_catalog_dataset_from_dict")
p("PE prior","append_prior_to_processed_catalog stores the product of the declared redshift prior interpolated at z, (1+z)^2 for mass_1, mass_1 for mass_ratio and 1/4 for spins; an undeclared redshift prior raises.","all catalogs, parameter requests","All requests.",DC+"append_prior_to_processed_catalog",DC+"dl_2_prior_on_z")
p("Effective-spin prior conversion","After converting component spins to chi_eff the stored prior is the density of the remaining parameters times p(chi_eff|q) for draws isotropic and uniform in spin magnitude.","all draws","All draws.",DC+"convert_component_spins_to_chieff")
p("chi_p can be requested for posteriors","load_posterior_dataset with chi_p in param_names returns a data set containing chi_p.","all catalogs","For-all failure.",DC+"convert_component_spins_to_chieff")
p("Resampled injections reproduce the detection efficiency","resample_injections draws between 1 and Ndet injections; every resampled injection has model_prob/prior equal to the original efficiency sum(w)/Ndraw, so the re-weighted efficiency is preserved; Neff_new is that of detection_efficiency.","all injection sets, models, keys","All keys and sets.",S+"resample_injections")
# ---- postprocess
p("Posterior predictive densities integrate to the rate","Every curve produced by the calculate_*_ppds functions has trapezoid integral rate*pop_frac over its grid (one by default).","all coefficient draws, grids, rates, fractions","All draws.",PC+"calculate_bspline_mass_ppds",PC+"calculate_powerlaw_peak_mass_ppds",PC+"calculate_peak_logm1_bspline_q_ppds",PC+"calculate_beta_spin_mag",PC+"calculate_mixture_iso_aligned_spin_tilt",PC+"calculate_bspline_spin_ppds")
p("Rate evolution curves","calculate_powerlaw_rate_of_z_ppds returns rate*frac*(1+z)^lamb and the spline version with zero coefficients coincides with it; at z=0 the curve equals rate*frac.","all lamb, rates, grids","All inputs.",PC+"calculate_powerlaw_rate_of_z_ppds",PC+"calculate_powerlaw_spline_rate_of_z_ppds")
# ---- added as the model grew: priors
p("Aligned chi_eff prior is the pushforward of uniform aligned spins","chi_effective_prior_from_aligned_spins(chi) is exactly the probability density at chi of (s1 + q s2)/(1+q) for independent s1, s2 uniform on [-a_max, a_max].","all chi_eff, q in (0,1], a_max>0","A closed form versus an integral over a continuum of spins.",R+"chi_effective_prior_from_aligned_spins")
p("Isotropic chi_p prior is the distribution of the larger in-plane spin","The integral of chi_p_prior_from_isotropic_spins from 0 to s is the product of the probabilities that each of the two (mass-weighted) in-plane spins, for magnitude uniform on [0,a_max] and isotropic direction, is at most s.","all q in (0,1], a_max>0, 0<=s<=a_max","Closed form versus integral over spin magnitudes and directions.",R+"chi_p_prior_from_isotropic_spins")
p("Array calls of the isotropic chi_eff prior agree with scalar calls","Calling chi_effective_prior_from_isotropic_spins on arrays returns element by element what the scalar calls return.","all chi_eff arrays, scalar or array q","Failure needs an element exactly on a case boundary.",R+"chi_effective_prior_from_isotropic_spins")
p("Conditional chi_p prior covers every physical chi_p","For every pair of physical spins with magnitudes at most a_max, chi_p lies inside the support [0,max_chi_p] that chi_p_prior_given_chi_eff_q assumes for the corresponding chi_eff and q.","all q in (0,1], spin magnitudes, tilts, a_max","A bound over all physical spin configurations.",R+"chi_p_prior_given_chi_eff_q",V+"chieff_from_q_component_spins",V+"chip_from_q_component_spins")
p("Detection efficiency accepts an integer number of injections","detection_efficiency returns the same three numbers whether Ninj is passed as an int or as the equal float.","all weight arrays, all int32 Ninj","Fails only above a threshold set by 32-bit integer arithmetic.",A+"detection_efficiency")
# ---- added as the model grew: cosmology
p("Log volume element is the logarithm of the volume element","logdVcdz returns element by element the logarithm of what dVcdz returns, which is finite and non-negative, and positive for z>0.","all flat cosmologies, all histories of queries, all arrays of redshifts z>=0 inside or beyond the table","All arrays, including z=0 and table extension.",C+"Cosmology.logdVcdz",C+"Cosmology.dVcdz")
p("Luminosity distance, volume element and comoving volume are the flat-universe ones","A non-flat parameter set raises AssertionError. Every tabulated luminosity distance is (1+z) times the tabulated comoving distance, and between nodes z2DL exceeds (1+z)*z2Dc by at most (c/H0) dz^2/4. dVcdz is 4 pi Dc^2 c/(H0 E(z)) with the Dc that z2Dc returns. The tabulated comoving volume is the volume 4/3 pi Dc^3 of a ball up to 8/3 pi (c dz/H0)^2 Dc.","all cosmological parameters, all steps and table lengths, all arrays of redshifts, all table entries","An error bound for every table entry and every redshift between nodes.",C+"Cosmology.__init__",C+"Cosmology.DL",C+"Cosmology.dVcdz",C+"Cosmology.update",C+"Cosmology.z2DL",id="C94")
p("Isotropic chi_eff prior is the pushforward of isotropic spins","Away from the case boundaries chi_effective_prior_from_isotropic_spins(chi) is exactly the probability density at chi of (a1 cos t1 + q a2 cos t2)/(1+q) for spin magnitudes uniform on [0,a_max] and isotropic directions; on a boundary where no case applies it is the average of the densities at chi plus and minus 1e-6.  Its integral over [-a_max, a_max] is one.","all chi_eff, all q in (0,1], all a_max>0, any dilogarithm","A piecewise closed form with dilogarithms versus an integral over a continuum of spins, in six cases.",R+"chi_effective_prior_from_isotropic_spins",R+"Di",id="C92")
p("Conditional chi_p prior is the weighted density estimate of physical draws","At each interior node chi_p_prior_given_chi_eff_q is, up to one positive constant, the kernel density estimate of the chi_p of spin draws that are all physical and all reproduce chi_eff and q, each weighted by the Jacobian |d cos(tilt_1)/d chi_eff|.","all chi_eff, q>0, a_max>0, all numbers of draws, all random streams, all density estimators","All random streams and all numbers of rejection rounds.",R+"chi_p_prior_given_chi_eff_q",V+"chip_from_q_component_spins",id="C93")
p("Least-squares spline coefficients","get_coefficients(xs, ys) returns the design matrix, the coefficients that minimise the sum of squared residuals among all coefficient vectors, and the fitted values of exactly those coefficients; data generated by a spline give back its coefficients.","all data sets, all knots and orders, all inversion routines that invert the Gram matrix","An optimum over a continuum of coefficient vectors.",I+"BasisSpline.get_coefficients",id="C95")
p("Analysis time and total of the injection set","Loading an injection file gives the file's recorded number of generated injections as total_generated, and the recorded analysis time converted to years by a 365.25-day year, taken from analysis_time_s, else total_analysis_time, else analysis_time.","all files and parameter requests","All files.",S+"get_o4a_cumulative_injection_dict",S+"get_o3_cumulative_injection_dict",DC+"load_injection_dataset",id="C97")
p("Catalog reading keeps events and their data sets","Reading a catalog returns, for each listed event in order, exactly the posterior stored under the path declared for that event; from GWTC-1 files the named data set itself, from the others its posterior_samples; an error is always that of reading one of the listed data sets.","all catalogs, all event lists","All catalogs and orders.",DC+"unprocessed_catalog_dict_from_metadata",id="C98")
p("Sections of a configuration file","After parse, label, outdir, data, sampler and likelihood hold exactly the document's sections of those names, or the documented defaults when absent, and the models and priors come from the models section; a document without models raises KeyError; a python_file entry only records the path.","all documents, all reader states","All documents.",G+"ConfigReader.parse",G+"ConfigReader.construct_model_and_prior_dicts",id="C96")
p("A configuration file yields the likelihood of the population it describes","Parsing a document and building the hierarchical model from it gives, in every call, the likelihood whose weights are the configured distributions evaluated with the declared values or the values drawn at the declared names; exactly the declared priors are sampled, in order of declaration.","all documents without shared parameters, all imported classes, all data, all call histories","All documents, all histories of calls.",G+"ConfigReader.parse",A+"construct_hierarchical_model",id="C99")
p("Spline-modulated densities have the documented shape","The B-spline redshift model with an unnormalised basis is dVc/dz/(1+z) times exp(spline), PowerlawSplineRedshiftModel is dVc/dz (1+z)^(lamb-1) times exp(spline) (zero above its grid), and PowerlawBasisSplinePrimaryPowerlawRatio is m1^-alpha exp(spline of log m1) on [mmin,mmax], times the power law of q on [m2min/m1,1]; each is divided by its own trapezoid sum over the model's 1000-point grid, and the spline is the combination of B-splines on equally spaced knots with the given coefficients.","all coefficients, indices, samples, grids, numbers of splines","All coefficient vectors and samples.",SI+"BSplineRedshift",SP+"PowerlawSplineRedshiftModel",SP+"PowerlawBasisSplinePrimaryPowerlawRatio",id="C100")
p("Spline evaluation is the combination of basis functions","Evaluating a spline at any points with any coefficients gives, inside the range, the sum of coefficient times B-spline (its exponential for the log-y classes, the M-spline mixture weighted by coefficient over their sum for BasisSpline) on the spline's knots in the class's coordinate, and zero outside; with normalisation the same values divided by their trapezoid sum on the grid.","all five classes, all knots, orders, coefficients and points","All knots and coefficient vectors.",I+"BasisSpline.eval",I+"BSpline.project",I+"LogYBSpline._project",I+"LogXBSpline.bases",id="C101")
p("BasisSpline components are probability densities","Every component of BasisSpline whose knots lie in the range is non-negative and integrates to one over the range, with mean the average of its knots; the corresponding BSpline component integrates to its support width over the order.","all knots (repeated or not), all orders, all components","Integrals of a recursively defined function for every order.",I+"BasisSpline._basis",I+"BasisSpline.bases",I+"BSpline._bases",id="C102")
p("Gridded distributions between their grid points","At any redshift in the grid range up to the maximum, exp(log_prob) of PowerlawRedshift is the linearly interpolated volume element times (1+z)^(lamb-1) divided by the trapezoid sum of the same expression over the grid, and above the maximum log_prob is the lowest float; BSplineDistribution.log_prob is the linear interpolation of the tabulated spline minus the log of its trapezoid normalisation, held constant outside the grid. On equally spaced grids the cdf joins the tabulated values by straight lines, and sampling and cdf invert each other.","all grids, volume elements, indices, design matrices, coefficients, points","All points between grid nodes.",N+"PowerlawRedshift",N+"BSplineDistribution",id="C103")
p("Beta conversions give the mean and variance of the Beta density","mu_var_from_alpha_beta returns exactly the mean and the variance of the density betadist evaluates for those shapes and scale, and the shapes alpha_beta_from_mu_var returns for an attainable pair give a density with that mean and variance.","all alpha,beta>0 (including shapes below one, where the density is unbounded), all scales, all attainable means and variances","Improper integrals for a continuum of shapes.",V+"mu_var_from_alpha_beta",V+"alpha_beta_from_mu_var",D+"betadist",id="C104")
p("Command-line options are read as declared","For any sequence of options, in any order, repeated or not, written --x v or --x=v and possibly abbreviated, each attribute is the last value given for its option converted to the declared type, or the declared default; unreadable values end the run; the numbers of splines are usable as numbers, and a boolean option can be switched off.","all sequences of declared options, all texts, both parsers","All sequences of arguments and texts.",U+"load_base_parser",G+"load_base_parser",id="C105")
p("Set-up helpers build the documented models from the loaded data","The B-spline mass, spin and redshift models built from loaded posterior samples and injections evaluate, at every posterior sample and injection, the product of the documented normalised densities of that sample's own parameters with the coefficients passed; a missing parameter raises KeyError.","all data sets, all numbers of splines, all coefficients, IID or independent spins","All data sets and coefficients; posterior samples and injections must not be confused.",U+"setup_bspline_mass_models",U+"setup_bspline_spin_models",U+"setup_powerlaw_spline_redshift_model",id="C106")
p("Example population models evaluate their likelihood","The example models weight every sample by population density over sampling prior, with parameters that mean what they are called, and pass these weights to the hierarchical likelihood.","all data sets, all hyperparameters","All data sets and hyperparameters.","examples/simple_bspline_example.py:model","examples/simple_powerlaw_peak_example.py:model","examples/config_files/model.py:model",id="C107")
p("Saved data sets are the data of the likelihood","Loading a saved file returns exactly what was last saved under that name, in every history of saves; names without .h5 are refused and change nothing. From catalog metadata and an injection file to the loaded dictionaries, each event's rows are its own samples below the cut with the sampling prior evaluated at the same sample, and the injections are the found ones with their draw density, total and number of events.","all catalogs (GWTC-1 included), all injection files, all requests, all down-samplings, all histories of the shared cosmology and of saves","A chain of four functions over arbitrary data and histories.",DC+"load_posterior_dataset",DC+"load_injection_dataset",DC+"save_posterior_samples_and_injection_datasets_as_idata",U+"load_pe_and_injections_as_dict",id="C108")
p("Plots show the median and the 5-95 percent band of the draws","Each population's curve is at every grid point the median of its posterior draws there and the band the 5th and 95th percentile, with its own name and color, in order; the median is inside the band, the band inside the range of the draws, draws and chains may come in any order, and a figure is written iff saving is asked for.","all numbers of populations and draws, all grids and draws, all names, colors and labels","Order statistics of arbitrary many draws at arbitrary many grid points.","gwinferno/postprocess/plot.py:plot_pdf","gwinferno/postprocess/plot.py:plot_mass_pdfs","gwinferno/postprocess/plot.py:plot_spin_pdfs","gwinferno/postprocess/plot.py:plot_rate_of_z_pdfs",id="C109")
p("A configuration file can be run","Running the script on a configuration samples the model it describes on its data: for every modelled parameter and the prior, each event's samples in order, and the injections with their total and observing time.","all configurations, all catalogs and injections","All configurations; and the failing imports are outside every test, as no test runs the script.","bin/gwinferno_run_from_config.py:setup","bin/gwinferno_run_from_config.py:run_inference",id="C110")
p("Different runs never share result files","Two runs of an example script whose settings differ never write the same posterior, curve or figure file: the file names determine label, warm-up, samples, seed and results directory; a missing label or results directory raises TypeError.","all settings, all labels without a slash, all file names","All pairs of settings; separators could make different settings give the same name.","examples/utils.py:setup_result_dir",id="C111")
p("The batch script starts the runs that were asked for","The command in the generated script, split into words by the shell and parsed by the analysis script, gives exactly the requested interpreter, script, data file, lengths, label, directory and masses, with the array index as seed; tasks of one script never share files, their logs go to the directory of the label, and the time limit is as requested up to a day outside the long partitions; missing required options are refused.","all requested settings without spaces or dollar signs, all array indices","All texts and numbers, through two parsers and a shell.","examples/create_simple_bspline_example_slurm_submit_script.py:main","examples/create_simple_bspline_example_slurm_submit_script.py:setup_parser",id="C112")
p("From data tables to the log-likelihood of the B-spline population","For posterior samples and found injections with positive redshifts and sampling priors, the log-likelihood the B-spline population model hands to the sampler is the sum over events of the log of the mean weight minus Nobs times the log of (summed injection weights over number of injections), where a weight is the product of the normalised exponentials of the cubic splines in log mass, mass ratio, spin magnitudes and tilts and of the modulated redshift density over the sampling prior of that binary. Adding a constant to all coefficients of a mass or spin spline leaves it unchanged, and multiplying the sampling priors of the events by c1 and of the injections by c2 changes it by Nobs (ln c2 - ln c1).","all data sets, all spline sizes and coefficients, all mass ranges, all volume elements, all flags of the likelihood (cuts satisfied)","A chain of a dozen functions over arbitrary data; unit tests compare single functions at a few points.","examples/simple_bspline_example.py:model",U+"setup_bspline_mass_models",U+"setup_bspline_spin_models",U+"setup_powerlaw_spline_redshift_model",A+"hierarchical_likelihood",id="C113")
p("Recorded sub-population fractions are shares of the recorded sample",
  "When the hierarchical likelihood is asked for a posterior predictive check with marginalised sub-population labels, the fraction it records for sub-population i and event ev is the weight of that sub-population at the recorded sample divided by the total weight there: the fractions lie between 0 and 1, add up to one, and belong to the same sample whose parameters are recorded for that event, whether the weights are passed as weights or as log weights.",
  "every number of sub-populations, events, samples and injections, every non-negative weight and every draw", "the property is about all weight arrays and all random draws; a wrong sample index or a mixture of log and plain weights still gives plausible numbers on a single example",
  A+"hierarchical_likelihood", id="C114")
p("From data tables to the log-likelihood of the power-law-peak population","For posterior samples and found injections of physical binaries, the log-likelihood the power-law-peak model hands to the sampler is the sum over events of the log of the mean weight minus Nobs times the log of (summed injection weights over number of injections), where a weight is the product of the mixture of a power law and a Gaussian peak in primary mass, the power law in mass ratio between mmin/m1 and one, the Beta densities of the spin magnitudes, the mixtures of isotropic and aligned tilts and the redshift density, each divided by its integral, over the sampling prior of that binary; every binary has a finite weight; multiplying the sampling priors of the events by c1 and of the injections by c2 changes the log-likelihood by Nobs (ln c2 - ln c1); the Beta shapes recorded in the posterior are those of the densities used.","all data sets, all hyperparameters in the ranges of their priors, all volume elements, all flags of the likelihood (cuts satisfied)","A chain of a dozen functions over arbitrary data; unit tests compare single functions at a few points.","examples/simple_powerlaw_peak_example.py:model",PM+"PowerlawRedshiftModel",A+"hierarchical_likelihood",id="C115")
p("The shared Planck cosmologies give the published distances","For every redshift up to 9.999, and whatever was asked of the shared object before, the two cosmologies that come with the package answer with the comoving distance of a flat universe with H0 = 67.90 km/s/Mpc and matter fraction 0.3065 (LVK; 67.74 and 0.3089 for the other) to within 12.5 kpc, with the luminosity distance to within 12.5 (1+z) kpc, and with the volume element 4 pi Dc^2 c/H(z) of the distance they return; for every distance up to the end of the table, the redshift they return has that luminosity distance to within 12.5 (1+z) kpc.","all redshifts and distances in range, arrays of any length, all histories of queries","A numerical integral and an interpolation over a continuum; tests compare with another package at a few redshifts.","gwinferno/cosmology.py:PLANCK_2015_LVK_Cosmology","gwinferno/cosmology.py:PLANCK_2015_Cosmology","gwinferno/cosmology.py:Cosmology",id="C116")
p("From the released files to the log-likelihood","Loading the posterior files of a catalog and an injection file, saving them, loading the saved file and calling either example model hands to the sampler the log-likelihood of the catalog: the events are samples of the files, equally many of each, distinct and below the mass cut, with the prior of detector-frame masses, isotropic spins and the redshift prior named in the metadata; the injections are exactly the found rows of the file with the file's density expressed in mass ratio and spin magnitude and cosine; the number of events and the number of generated injections are those of the files.","all catalogs, injection files, random choices, histories of the shared cosmology, hyperparameters and likelihood flags (cuts satisfied)","Composes four modules over arbitrary files; no test runs the chain.","gwinferno/preprocess/data_collection.py:load_posterior_dataset","gwinferno/preprocess/data_collection.py:load_injection_dataset","examples/simple_bspline_example.py:model","examples/simple_powerlaw_peak_example.py:model",id="C117")
p("The exported curves are those of the fitted B-spline population","From the posterior of a B-spline fit the example script exports, for every draw, the densities the likelihood was evaluated with for that draw: spin magnitudes and tilts normalised on their grids, the mass and mass-ratio marginals of the fitted density, and the rate per comoving volume whose observed redshift density is the fitted one, each under its own name and with its own grid; whatever the number of chains.","all posteriors, all numbers of draws, splines and chains, all data sets","All coefficient vectors and draws; curves of exchanged or missing factors look plausible.","examples/simple_bspline_example.py:main","gwinferno/postprocess/calculations.py:calculate_bspline_mass_ppds","gwinferno/pipeline/utils.py:pdf_dict_to_xarray",id="C118")
p("The exported curves are those of the fitted power-law-peak population","From the posterior of a power-law-peak fit the example script exports, for every draw, the densities the likelihood was evaluated with for that draw: masses, mass ratios, spin magnitudes, tilts and the rate per comoving volume, each under its own name and with its own grid.","all posteriors with parameters in the ranges of the priors, all numbers of draws, all data sets","All parameters and draws; some curves are lost for every draw the priors allow.","examples/simple_powerlaw_peak_example.py:main","gwinferno/postprocess/calculations.py:calculate_beta_spin_mag",id="C119")
p("The shipped configuration file runs and gives the log-likelihood of the population it declares","The example configuration file of the package (and the Python model beside it) can be read, its model built and called: the five free parameters get the priors the file declares, and the recorded factor is the log-likelihood of power laws in primary mass and mass ratio and the redshift density of the file, whatever values are drawn and whatever the data.","all draws with 0 < minimum < maximum and indices other than -1, all data tables with the columns used, all likelihood flags, all call histories of the model","All draws, data sets and call histories; the configuration is only ever used as a whole, and no test runs it.","examples/config_files/config.yml","examples/config_files/model.py:model","gwinferno/pipeline/analysis.py:construct_hierarchical_model","gwinferno/numpyro_distributions.py:PowerlawRedshift",id="C120")
p("A finished run leaves its trace plot and its samples","A run from a configuration file that completes plots the trace of every sampled hyper-parameter, of the rate, the effective sample sizes and the log-likelihood, and then saves the posterior samples, in two files named after the configured output directory and label (or their defaults).","all configuration documents with a models section, all classes, draws, data sets, likelihood flags and call histories","All documents; the plot comes before the samples are saved, so a traced name that is not a site loses the run.","bin/gwinferno_run_from_config.py:plot_trace_dump_samples","gwinferno/pipeline/parser.py:ConfigReader.add_prior","gwinferno/pipeline/analysis.py:hierarchical_likelihood",id="C121")
p("The likelihood section of a configuration selects the corrections","The options of a configuration's likelihood section are the ones every evaluation of its model uses, with the documented defaults for those not given; an unknown option or a section that is not a mapping is refused, and so is the variance cut beside another correction.","all configuration documents, all option values, all classes, draws, data sets and call histories","All documents and values; a correction silently dropped changes the posterior but raises no error.","bin/gwinferno_run_from_config.py:run_inference","gwinferno/pipeline/analysis.py:construct_hierarchical_model","gwinferno/pipeline/parser.py:ConfigReader.parse",id="C122")
p("A configured run evaluates the declared population on the catalogue","Given working data loaders, every evaluation in a run from a configuration file is the hierarchical likelihood of the declared population, with the configured corrections: each event's samples of the modelled parameters and its sampling prior enter in order, the found injections and their number and observing time as loaded, and the number of events is that of the catalogue.","all configuration documents without a python file or shared parameters, all loaders, catalogues with equally many samples, injection sets, classes, draws and call histories","All documents and catalogues; a column taken for another or an event out of order gives a plausible likelihood.","bin/gwinferno_run_from_config.py:run_inference","bin/gwinferno_run_from_config.py:setup","gwinferno/pipeline/analysis.py:construct_hierarchical_model","gwinferno/pipeline/parser.py:ConfigReader",id="C123")
P.sort(key=lambda x:int(x["id"][1:]))
open("/verif/properties.jsonl","w").write("".join(json.dumps(x)+"\n" for x in P))
print(len(P))
