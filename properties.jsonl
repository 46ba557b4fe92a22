{"id": "C01", "title": "Truncated power law is a normalised density", "statement": "For every index alpha (the special index -1 included) and bounds 0<low<high, powerlaw_pdf is finite and non-negative on [low,high] and integrates to exactly 1 over it.", "quantifier": "all real alpha, all 0<low<high, all x in the support", "why_tests_cant": "Quadrature at one (alpha,low,high) says nothing about other indices, in particular about the removable singularity at alpha=-1.", "anchors": ["gwinferno/distributions.py:powerlaw_pdf"]}
{"id": "C02", "title": "Power-law floor outside the bounds", "statement": "powerlaw_pdf returns exactly `floor` for every x<low or x>high, and the normalised power law (not the floor) at both end points, whatever the intermediate arithmetic did (including NaN/inf in the discarded branch).", "quantifier": "all x, alpha, low, high, floor (no ordering assumed)", "why_tests_cant": "Needs every x including values whose un-masked branch is NaN or infinite.", "anchors": ["gwinferno/distributions.py:powerlaw_pdf"]}
{"id": "C03", "title": "Truncated normal and truncated log-normal are normalised densities", "statement": "For every mu, sigma>0 and low<high (0<low<high when log=True), truncnorm_pdf is non-negative, zero outside [low,high] and integrates to 1 over it.", "quantifier": "all mu, sigma>0, low<high, x, both values of log", "why_tests_cant": "Finite grids check one parameter point up to quadrature error.", "anchors": ["gwinferno/distributions.py:truncnorm_pdf"]}
{"id": "C04", "title": "Logistic truncation helpers", "statement": "logistic_unit lies strictly between 0 and 1, is 1/2 at x0, decreases for sgn=+1 and increases for sgn=-1 (sc>0), the two signs sum to one, and log_logistic_unit is exactly its logarithm on both branches of the numerically-stable formula.", "quantifier": "all x, x0, sgn in {-1,1}, sc>0", "why_tests_cant": "Branch selection must agree with the closed form at every x.", "anchors": ["gwinferno/distributions.py:logistic_function", "gwinferno/distributions.py:logistic_unit", "gwinferno/distributions.py:log_logistic_unit"]}
{"id": "C05", "title": "Low-mass smoothing window `smooth`", "statement": "smooth(dx,x,xmin) is 0 below xmin, 1 above xmin+dx, and rises monotonically from 0 to 1 in between.", "quantifier": "all x, xmin, dx>0", "why_tests_cant": "The outer regions are only visible with a case analysis over every x; sampling inside the window passes.", "anchors": ["gwinferno/distributions.py:smooth", "gwinferno/models/parametric/parametric.py:plpeak_primary_pdf"]}
{"id": "C06", "title": "Soft-truncated power law", "statement": "powerlaw_logit_pdf equals x^alpha times the requested low/high logistic factors, never exceeds x^alpha for x>0, and the fall-off requested through powerlaw_primary_ratio_falloff_pdf applies to both truncation sides.", "quantifier": "all x>0, alpha, bounds and fall-offs, each optional bound present or absent", "why_tests_cant": "Four present/absent combinations times a continuum of inputs.", "anchors": ["gwinferno/distributions.py:powerlaw_logit_pdf", "gwinferno/models/parametric/parametric.py:powerlaw_primary_ratio_falloff_pdf"]}
{"id": "C07", "title": "Beta density: support, value and normalisation", "statement": "betadist equals floor outside [0,scale], the Beta density on the open interval, integrates to one for shapes >= 1, and is a number (not NaN) at the support end points.", "quantifier": "all x, alpha, beta, scale>0", "why_tests_cant": "End-point special values (0*log 0) appear only at single points; normalisation is over a continuum.", "anchors": ["gwinferno/distributions.py:betadist"]}
{"id": "C08", "title": "Power-law mass/ratio joint density", "statement": "powerlaw_primary_ratio_pdf vanishes unless mmin<=m1<=mmax, q<=1 and q*m1>=mmin; for every m1>mmin its q-integral over the allowed range is the m1 density, and the iterated integral over (m1,q) is one.", "quantifier": "all alpha, beta, 0<mmin<mmax, all (m1,q)", "why_tests_cant": "Two-dimensional continuum, parameter-dependent support.", "anchors": ["gwinferno/models/parametric/parametric.py:powerlaw_primary_ratio_pdf"]}
{"id": "C09", "title": "Power-law + peak mass density", "statement": "plpeak_primary_pdf without smoothing is non-negative, vanishes outside [mmin,mmax] and integrates to one for every mixing fraction in [0,1]; plpeak_primary_ratio_pdf inherits the joint support.", "quantifier": "all alpha, peak mean, peak sd>0, 0<mmin<mmax, lam in [0,1], all m1", "why_tests_cant": "Continuum of parameters.", "anchors": ["gwinferno/models/parametric/parametric.py:plpeak_primary_pdf", "gwinferno/models/parametric/parametric.py:plpeak_primary_ratio_pdf"]}
{"id": "C10", "title": "Spin-tilt mixture is a density on [-1,1]", "statement": "mixture_isoalign_spin_tilt is non-negative, zero outside [-1,1] and integrates to one for every xi in [0,1] and sigma>0.", "quantifier": "all cos tilt, xi in [0,1], sigma>0", "why_tests_cant": "Continuum of parameters and points.", "anchors": ["gwinferno/models/parametric/parametric.py:mixture_isoalign_spin_tilt"]}
{"id": "C11", "title": "Joint tilt models are densities on the square", "statement": "iid_spin_tilt, independent_spin_tilt and default_spin_tilt are non-negative and their iterated integral over [-1,1]^2 is one; iid and default models are symmetric under exchange of the two tilts.", "quantifier": "all (ct1,ct2), xi's in [0,1], sigmas>0", "why_tests_cant": "Two-dimensional continuum.", "anchors": ["gwinferno/models/parametric/parametric.py:iid_spin_tilt", "gwinferno/models/parametric/parametric.py:independent_spin_tilt", "gwinferno/models/parametric/parametric.py:default_spin_tilt"]}
{"id": "C12", "title": "Spin magnitude joint models factorise", "statement": "iid_spin_magnitude is the product of two identical Beta densities and is symmetric under exchange; independent_spin_magnitude_beta_dist with equal parameters coincides with it.", "quantifier": "all a1,a2, shape parameters, maxima", "why_tests_cant": "Equality must hold at every point.", "anchors": ["gwinferno/models/parametric/parametric.py:iid_spin_magnitude", "gwinferno/models/parametric/parametric.py:independent_spin_magnitude_beta_dist", "gwinferno/models/parametric/parametric.py:beta_spin_magnitude"]}
{"id": "C13", "title": "Power-law redshift model normalised on its own grid", "statement": "PowerlawRedshiftModel evaluated on its redshift grid has unit trapezoid integral, log_prob is the log of the density for every z<=zmax, and the density is zero outside [zmin,zmax].", "quantifier": "all lamb, all sample sets defining zmin/zmax, all z", "why_tests_cant": "Grid normalisation must hold for every data set and lamb; truncation for every z.", "anchors": ["gwinferno/models/parametric/parametric.py:PowerlawRedshiftModel"]}
{"id": "C14", "title": "Effective spin is physical", "statement": "For 0<=q, magnitudes in [0,1] and cosines in [-1,1], chieff_from_q_component_spins lies in [-1,1], is odd under flipping both tilts, and attains +-1 only for maximal aligned/anti-aligned contributing spins.", "quantifier": "all physical (q,a1,a2,ct1,ct2)", "why_tests_cant": "Range claims over a five-dimensional box.", "anchors": ["gwinferno/preprocess/conversions.py:chieff_from_q_component_spins"]}
{"id": "C15", "title": "Effective precession is physical", "statement": "For 0<=q<=1, magnitudes in [0,1] and cosines in [-1,1], chip_from_q_component_spins is finite and lies in [0,1], is at least a1 sin t1, and is invariant under flipping the sign of either tilt cosine.", "quantifier": "all physical (q,a1,a2,ct1,ct2)", "why_tests_cant": "Range claims over a five-dimensional box.", "anchors": ["gwinferno/preprocess/conversions.py:chip_from_q_component_spins"]}
{"id": "C16", "title": "Beta shape <-> mean/variance conversions are mutually inverse", "statement": "alpha_beta_from_mu_var(mu_var_from_alpha_beta(alpha,beta,xmax),xmax) returns (alpha,beta) for all positive shapes, and the reverse composition returns (mu,var) for every attainable mean/variance pair; shapes recovered from an attainable pair are positive.", "quantifier": "all alpha,beta>0, xmax>0; all 0<mu<xmax, 0<var<mu(xmax-mu)", "why_tests_cant": "Algebraic identity over a continuum.", "anchors": ["gwinferno/preprocess/conversions.py:mu_var_from_alpha_beta", "gwinferno/preprocess/conversions.py:alpha_beta_from_mu_var"]}
{"id": "C17", "title": "Conversions do not modify their arguments", "statement": "Calling alpha_beta_from_mu_var leaves the caller's arrays unchanged, so calling it twice on the same arrays gives the same answer.", "quantifier": "all array contents, xmax, aliasing patterns of the two arguments", "why_tests_cant": "Depends on call history and aliasing, invisible to single-call value tests.", "anchors": ["gwinferno/preprocess/conversions.py:alpha_beta_from_mu_var"]}
{"id": "C18", "title": "Aligned-spin chi_eff prior is an even, continuous, normalised density", "statement": "chi_effective_prior_from_aligned_spins is non-negative, even, zero for |chi|>a_max, continuous across its case boundaries and integrates to one for every q in (0,1] and a_max>0.", "quantifier": "all chi_eff, q in (0,1], a_max>0", "why_tests_cant": "Piecewise definition over a continuum; exact boundary points.", "anchors": ["gwinferno/preprocess/priors.py:chi_effective_prior_from_aligned_spins"]}
{"id": "C19", "title": "Isotropic chi_eff prior: case analysis is complete and exclusive", "statement": "For every chi_eff at most one of the seven cases is selected, the result depends on |chi_eff| only, is exactly zero for |chi_eff|>=a_max, and points selected by no case are exactly the finitely many case boundaries, where the average of the two neighbours is used.", "quantifier": "all chi_eff, q in (0,1], a_max>0", "why_tests_cant": "Missed cases are measure-zero boundary points.", "anchors": ["gwinferno/preprocess/priors.py:chi_effective_prior_from_isotropic_spins"]}
{"id": "C20", "title": "Isotropic chi_eff prior always returns", "statement": "chi_effective_prior_from_isotropic_spins terminates for every chi_eff, q, a_max.", "quantifier": "all chi_eff, q, a_max", "why_tests_cant": "Non-termination needs boundaries exactly one step apart; no finite sample of tests finds it.", "anchors": ["gwinferno/preprocess/priors.py:chi_effective_prior_from_isotropic_spins"]}
{"id": "C21", "title": "Isotropic chi_p prior is a normalised density", "statement": "chi_p_prior_from_isotropic_spins is non-negative, zero outside [0,a_max), continuous at its case boundary and integrates to one for every q in (0,1] and a_max>0.", "quantifier": "all chi_p, q in (0,1], a_max>0", "why_tests_cant": "Closed-form piecewise density over a continuum, including out-of-range arguments.", "anchors": ["gwinferno/preprocess/priors.py:chi_p_prior_from_isotropic_spins"]}
{"id": "C22", "title": "Conditional chi_p prior: rejection loop and interpolant", "statement": "When the redraw loop of chi_p_prior_given_chi_eff_q exits every draw is physical; it can exit only if |chi_eff|<=a_max-attainable; the returned interpolant has unit trapezoid integral on its reference grid and is zero at both ends of the grid.", "quantifier": "all random streams, all chi_eff, q, a_max, KDE values", "why_tests_cant": "Quantifies over all random streams and unbounded loop iterations.", "anchors": ["gwinferno/preprocess/priors.py:chi_p_prior_given_chi_eff_q"]}
{"id": "C23", "title": "P-spline difference penalty", "statement": "apply_difference_prior is non-positive for inv_var>=0, scales quadratically with the coefficients, is invariant under reversing the coefficients, and (inv_var>0) is zero exactly when the degree-th differences vanish, i.e. when the coefficients are a polynomial of lower degree in the index.", "quantifier": "all coefficient vectors of any length, any difference order, all inv_var", "why_tests_cant": "Unbounded vector length and difference order.", "anchors": ["gwinferno/models/bsplines/smoothing.py:apply_difference_prior"]}
{"id": "C24", "title": "B-spline basis is a partition of unity", "statement": "With default knots, the N basis functions returned by BSpline.bases sum to one at every x in the closed range xrange.", "quantifier": "all N>=k>=1, all ranges, all x in the range", "why_tests_cant": "Every x and every number of splines.", "anchors": ["gwinferno/interpolation.py:BSpline._bases", "gwinferno/interpolation.py:BasisSpline.bases"]}
{"id": "C25", "title": "B-spline bases agree with the Cox-de Boor definition, are non-negative and locally supported", "statement": "BSpline.bases equals the textbook B-spline of the same order on the same knots, each basis value is non-negative and vanishes outside its k knot spans and outside xrange.", "quantifier": "all non-decreasing knot vectors with spacing above the code's threshold, all orders, all x", "why_tests_cant": "Recursion depth and knot vectors are unbounded.", "anchors": ["gwinferno/interpolation.py:BasisSpline._basis", "gwinferno/interpolation.py:BSpline._bases", "gwinferno/interpolation.py:BasisSpline.bases"]}
{"id": "C26", "title": "Default knot construction", "statement": "Constructing a spline with default knots succeeds exactly when n_df>=k, yields n_df+k equally spaced strictly increasing knots, with the k-th and (n_df+1)-th knots at the two ends of xrange.", "quantifier": "all n_df, k, xrange", "why_tests_cant": "Integer boundary n_df=k and all sizes.", "anchors": ["gwinferno/interpolation.py:BasisSpline.__init__"]}
{"id": "C27", "title": "User supplied interior knots are honoured", "statement": "When interior_knots is given, the spline's knots contain the supplied interior knots.", "quantifier": "all interior knot vectors", "why_tests_cant": "Uniform examples cannot distinguish; the claim is about all placements.", "anchors": ["gwinferno/interpolation.py:BasisSpline.__init__"]}
{"id": "C28", "title": "Normalised splines have unit trapezoid integral on their own grid", "statement": "For BasisSpline, BSpline, LogXBSpline, LogYBSpline and LogXLogYBSpline with normalize=True, the trapezoid integral over the spline's normalisation grid of project(grid_bases, coefs) is exactly one.", "quantifier": "all coefficient vectors whose unnormalised integral is non-zero, all knots and ranges", "why_tests_cant": "All coefficient vectors.", "anchors": ["gwinferno/interpolation.py:BasisSpline.norm", "gwinferno/interpolation.py:BSpline.norm", "gwinferno/interpolation.py:BSpline.project", "gwinferno/interpolation.py:LogYBSpline._project"]}
{"id": "C29", "title": "Coefficient gauge freedom", "statement": "Normalised linear splines are unchanged when all coefficients are multiplied by a non-zero constant, normalised log splines are unchanged when a constant is added to all coefficients.", "quantifier": "all coefficient vectors, constants, evaluation points in range", "why_tests_cant": "All coefficient vectors.", "anchors": ["gwinferno/interpolation.py:BasisSpline.project", "gwinferno/interpolation.py:BSpline.project", "gwinferno/interpolation.py:LogYBSpline._project"]}
{"id": "C30", "title": "Log-Y splines are exactly zero out of range", "statement": "LogYBSpline and LogXLogYBSpline projections are zero at every point outside the range for every coefficient vector, including zero, mixed-sign and infinite coefficients.", "quantifier": "all coefficient vectors (any signs, zeros, any length>=1), all out-of-range points", "why_tests_cant": "Special-value arithmetic inf*0, inf-inf on all sign patterns.", "anchors": ["gwinferno/interpolation.py:LogYBSpline.bases", "gwinferno/interpolation.py:LogYBSpline._project", "gwinferno/interpolation.py:LogXLogYBSpline.bases"]}
{"id": "C31", "title": "Natural cubic spline interpolates smoothly", "statement": "NaturalCubicUnivariateSpline passes through all its data points and, when its coefficients solve the assembled system, is continuously differentiable twice at every interior knot.", "quantifier": "all increasing knot vectors of length>=4, all data", "why_tests_cant": "All sizes and data.", "anchors": ["gwinferno/interpolation.py:NaturalCubicUnivariateSpline"]}
{"id": "C32", "title": "Natural cubic spline has zero curvature at both ends", "statement": "The second derivative of NaturalCubicUnivariateSpline vanishes at the first and last knots.", "quantifier": "all increasing knot vectors, all data", "why_tests_cant": "The existing test only looks at x<0.7 where a wrong right boundary is invisible.", "anchors": ["gwinferno/interpolation.py:NaturalCubicUnivariateSpline.__init__"]}
{"id": "C33", "title": "Spline survives a pytree flatten/unflatten round trip", "statement": "Flattening a NaturalCubicUnivariateSpline and rebuilding it as JAX does returns an equal spline.", "quantifier": "all splines", "why_tests_cant": "Round trip for every object.", "anchors": ["gwinferno/interpolation.py:NaturalCubicUnivariateSpline.tree_flatten", "gwinferno/interpolation.py:NaturalCubicUnivariateSpline.tree_unflatten"]}
{"id": "C34", "title": "Bivariate spline design matrix", "statement": "RectBivariateBasisSpline.bases(xs,ys)[i,j] is the product of the i-th x basis and the j-th y basis at each point.", "quantifier": "all xdf, ydf, points", "why_tests_cant": "Index permutations show only for particular sizes.", "anchors": ["gwinferno/interpolation.py:RectBivariateBasisSpline.bases"]}
{"id": "C35", "title": "Design-matrix models scatter values back to the right samples", "statement": "For Base1DBSplineModel, the i-th entry of the returned pdf is the spline evaluated at the i-th sample when that sample is in range and 0 otherwise, for both PE and injection samples, and does not depend on the other samples. The named models (spin magnitude, tilt, effective and precessing spin, mass ratio, primary mass) are this model with the documented basis and domain.", "quantifier": "all sample arrays of any length, any pattern of in/out-of-range/NaN samples, all coefficients", "why_tests_cant": "All masks.", "anchors": ["gwinferno/models/bsplines/single.py:Base1DBSplineModel.pe_pdf", "gwinferno/models/bsplines/single.py:Base1DBSplineModel.inj_pdf", "gwinferno/models/bsplines/single.py:Base1DBSplineModel.__call__"]}
{"id": "C36", "title": "Symmetric effective-spin model", "statement": "BSplineSymmetricChiEffective gives the same density at chi and -chi and half the one-sided spline density.", "quantifier": "all samples and coefficients", "why_tests_cant": "All samples.", "anchors": ["gwinferno/models/bsplines/single.py:BSplineSymmetricChiEffective"]}
{"id": "C37", "title": "B-spline redshift model", "statement": "BSplineRedshift is normalised over its redshift grid for the constructed basis and gives zero rate outside the spline range.", "quantifier": "all samples, coefficients, bases", "why_tests_cant": "All coefficient vectors; out-of-range samples.", "anchors": ["gwinferno/models/bsplines/single.py:BSplineRedshift"]}
{"id": "C38", "title": "Separable models are products and IID models are exchange symmetric", "statement": "Each separable model returns the pointwise product of its component models on the selected sample set, IID spin models are symmetric under exchange of components, and component-mass models vanish where m2>m1.", "quantifier": "all sample arrays, coefficients, beta", "why_tests_cant": "All samples.", "anchors": ["gwinferno/models/bsplines/separable.py:BSplineIIDSpinMagnitudes", "gwinferno/models/bsplines/separable.py:BSplineIndependentSpinMagnitudes", "gwinferno/models/bsplines/separable.py:BSplineIIDSpinTilts", "gwinferno/models/bsplines/separable.py:BSplineIndependentSpinTilts", "gwinferno/models/bsplines/separable.py:BSplinePrimaryPowerlawRatio", "gwinferno/models/bsplines/separable.py:PLPeakPrimaryBSplineRatio", "gwinferno/models/bsplines/separable.py:BSplinePrimaryBSplineRatio", "gwinferno/models/bsplines/separable.py:BSplineIIDComponentMasses", "gwinferno/models/bsplines/separable.py:BSplineIndependentComponentMasses", "gwinferno/models/bsplines/separable.py:BSplineEffectiveSpinDims"]}
{"id": "C39", "title": "Power-law x spline mass model", "statement": "PowerlawBasisSplinePrimaryPowerlawRatio: the smoothing window is 0 at or below mmin, 1 from mmin+delta on, monotone in between; the primary density integrates to one on its mass grid; the constructor accepts any spline order k.", "quantifier": "all masses, indices, coefficients, k", "why_tests_cant": "All inputs, all k.", "anchors": ["gwinferno/models/spline_perturbation.py:PowerlawBasisSplinePrimaryPowerlawRatio"]}
{"id": "C40", "title": "Power-law x spline joint mass model can be constructed", "statement": "PowerlawBasisSplinePrimaryRatio can be constructed.", "quantifier": "all constructor arguments", "why_tests_cant": "A constructor that fails for all arguments needs a for-all statement.", "anchors": ["gwinferno/models/spline_perturbation.py:PowerlawBasisSplinePrimaryRatio.__init__"]}
{"id": "C41", "title": "Power-law x spline redshift model", "statement": "PowerlawSplineRedshiftModel has unit trapezoid integral on its grid for every lamb and coefficients, is zero above zmax, and with zero coefficients coincides with PowerlawRedshiftModel.", "quantifier": "all lamb, coefficient vectors, samples", "why_tests_cant": "All coefficient vectors.", "anchors": ["gwinferno/models/spline_perturbation.py:PowerlawSplineRedshiftModel"]}
{"id": "C42", "title": "Distances increase with redshift", "statement": "On the tabulated grid comoving distance, luminosity distance and comoving volume are zero at z=0 and strictly increasing, and Dc never exceeds (c/H0) z.", "quantifier": "all H0>0, flat density parameters with non-negative matter and radiation, grid lengths, steps", "why_tests_cant": "Unbounded grids.", "anchors": ["gwinferno/cosmology.py:Cosmology.extend", "gwinferno/cosmology.py:Cosmology.update", "gwinferno/cosmology.py:Cosmology.DL"]}
{"id": "C43", "title": "Tabulated comoving distance approximates the integral", "statement": "Each tabulated Dc differs from the exact integral of c/(H0 E(z)) by at most (c/H0)*dz/2.", "quantifier": "all grids, all indices, all density parameters with non-negative matter/radiation", "why_tests_cant": "An error bound for every grid and index.", "anchors": ["gwinferno/cosmology.py:Cosmology.extend", "gwinferno/cosmology.py:Cosmology.dDcdz", "gwinferno/cosmology.py:Cosmology.z2E"]}
{"id": "C44", "title": "Luminosity distance <-> redshift round trip", "statement": "DL2z(z2DL(z))=z for every z in the tabulated range and z2DL(DL2z(d))=d for every d in the tabulated range.", "quantifier": "all z, d in range, all cosmologies", "why_tests_cant": "Continuum of arguments.", "anchors": ["gwinferno/cosmology.py:Cosmology.DL2z", "gwinferno/cosmology.py:Cosmology.z2DL"]}
{"id": "C45", "title": "Cosmology queries do not depend on call history", "statement": "z2Dc, z2DL and dVcdz return the same value for the same redshift (inside the initial table) whatever sequence of queries was issued before on the shared cosmology object.", "quantifier": "all finite histories of queries with the default step, all z in the initial table", "why_tests_cant": "The shared object mutates its tables; quantifies over histories.", "anchors": ["gwinferno/cosmology.py:Cosmology.z2Dc", "gwinferno/cosmology.py:Cosmology.z2DL", "gwinferno/cosmology.py:Cosmology.extend"]}
{"id": "C46", "title": "Queries beyond the table extend it", "statement": "z2Dc/z2DL for z beyond the table return the distance integrated up to z, and DL2z for a distance beyond the table returns the corresponding redshift.", "quantifier": "all z, d beyond the table", "why_tests_cant": "The out-of-table branch for all arguments.", "anchors": ["gwinferno/cosmology.py:Cosmology.z2Dc", "gwinferno/cosmology.py:Cosmology.z2DL", "gwinferno/cosmology.py:Cosmology.DL2z"]}
{"id": "C47", "title": "cumtrapz is the cumulative trapezoid integral", "statement": "cumtrapz(y,x)[i] equals the trapezoid integral of y over the first i+1 grid points.", "quantifier": "all arrays of any length", "why_tests_cant": "A smooth, fine grid hides an index shift below test tolerance.", "anchors": ["gwinferno/numpyro_distributions.py:cumtrapz"]}
{"id": "C48", "title": "Sine distribution", "statement": "For 0<=minimum<maximum<=pi: exp(log_prob) integrates to one over the support, cdf is its integral, icdf inverts cdf, and every sample lies in the support.", "quantifier": "all minimum<maximum in [0,pi], all values and quantiles", "why_tests_cant": "Continuum of parameters; non-default limits.", "anchors": ["gwinferno/numpyro_distributions.py:Sine"]}
{"id": "C49", "title": "Cosine distribution", "statement": "For -pi/2<=minimum<maximum<=pi/2: exp(log_prob) integrates to one over the support, cdf is its integral, icdf inverts cdf, and every sample lies in the support.", "quantifier": "all minimum<maximum in [-pi/2,pi/2], all values and quantiles", "why_tests_cant": "Continuum of parameters; non-default limits.", "anchors": ["gwinferno/numpyro_distributions.py:Cosine"]}
{"id": "C50", "title": "Power-law distribution object", "statement": "Powerlaw.log_prob is the log of the normalised power law, cdf is its integral, icdf and cdf are mutually inverse, samples lie in [minimum,maximum], for every alpha including -1, and values outside get the most negative finite number.", "quantifier": "all alpha, 0<minimum<maximum, all values and quantiles in [0,1]", "why_tests_cant": "Continuum of parameters, special index -1.", "anchors": ["gwinferno/numpyro_distributions.py:Powerlaw"]}
{"id": "C51", "title": "Power-law redshift distribution object", "statement": "PowerlawRedshift.log_prob has unit trapezoid integral on its grid; its cdf is non-decreasing from 0 to 1 and is the cumulative integral of exp(log_prob); samples lie in the grid range.", "quantifier": "all grids, volume tables, lamb", "why_tests_cant": "All grids and tables.", "anchors": ["gwinferno/numpyro_distributions.py:PowerlawRedshift"]}
{"id": "C52", "title": "Smoothed power law is continuous and normalised", "statement": "PowerlawSmoothedPowerlaw's density is continuous at minimum and maximum and integrates to one over [low,high].", "quantifier": "all low<minimum<maximum<high, all indices", "why_tests_cant": "Continuum of parameters.", "anchors": ["gwinferno/numpyro_distributions.py:PowerlawSmoothedPowerlaw"]}
{"id": "C53", "title": "B-spline distribution object", "statement": "BSplineDistribution.exp(log_prob) has unit trapezoid integral on its grid, samples lie in the grid range, cdf is the cumulative integral of the density.", "quantifier": "all grids, design matrices, coefficients", "why_tests_cant": "All grids and coefficients.", "anchors": ["gwinferno/numpyro_distributions.py:BSplineDistribution"]}
{"id": "C54", "title": "P-spline coefficient prior is self consistent", "statement": "PSplineCoeficientPrior.log_prob accepts exactly vectors of length N and equals the difference penalty; samples it draws have event shape (N,) and are accepted by log_prob.", "quantifier": "all N, inv_var, difference orders, sample shapes", "why_tests_cant": "All N and shapes.", "anchors": ["gwinferno/numpyro_distributions.py:PSplineCoeficientPrior"]}
{"id": "C55", "title": "Per-event Bayes factors: log and linear modes agree", "statement": "per_event_log_bayes_factors with log=False on weights w and with log=True on log w return the same log Bayes factors, log effective sample sizes and variances.", "quantifier": "all numbers of events and samples, all positive weights (zero weights allowed as -inf)", "why_tests_cant": "All arrays.", "anchors": ["gwinferno/pipeline/analysis.py:per_event_log_bayes_factors"]}
{"id": "C56", "title": "Effective sample size and Monte-Carlo variance are in range", "statement": "For non-negative not-all-zero weights the per-event effective sample size is (sum w)^2 / sum w^2 and lies in [1, n_samples], the variance estimate is 1/n_eff - 1/n_samples, the variance estimate is non-negative and zero exactly for equal weights, and both are unchanged when weights are rescaled.", "quantifier": "all weight arrays of any size", "why_tests_cant": "Cauchy-Schwarz type bound for all arrays.", "anchors": ["gwinferno/pipeline/analysis.py:per_event_log_bayes_factors"]}
{"id": "C57", "title": "Detection efficiency: log and linear modes agree", "statement": "detection_efficiency in linear and log mode return the same three numbers, and log mu is the log of sum(w)/Ninj.", "quantifier": "all weight arrays, Ninj", "why_tests_cant": "All arrays.", "anchors": ["gwinferno/pipeline/analysis.py:detection_efficiency"]}
{"id": "C58", "title": "Detection efficiency variance is a variance", "statement": "The third output of detection_efficiency is the (non-negative) variance of the log detection-efficiency estimate, i.e. 1/n_eff.", "quantifier": "all weight arrays, Ninj >= number found", "why_tests_cant": "All arrays.", "anchors": ["gwinferno/pipeline/analysis.py:detection_efficiency"]}
{"id": "C59", "title": "The likelihood is never NaN or infinite", "statement": "The log-likelihood factor handed to the sampler is a finite number for all inputs whatsoever, including NaN, infinite, zero and negative weights, under every combination of flags that does not raise.", "quantifier": "all weight arrays over the extended numbers, all flags", "why_tests_cant": "All special-value patterns.", "anchors": ["gwinferno/pipeline/analysis.py:hierarchical_likelihood"]}
{"id": "C60", "title": "Likelihood value", "statement": "When no cut applies, the log-likelihood equals sum_i log BF_i - Nobs log mu (plus the marginalisation correction Nobs(3+Nobs)/(2 n_eff) when requested); it is invariant under a common rescaling of the population density in PE and injection weights, and under permuting samples, injections and events.", "quantifier": "all positive weights, any sizes", "why_tests_cant": "All arrays; invariances.", "anchors": ["gwinferno/pipeline/analysis.py:hierarchical_likelihood"]}
{"id": "C61", "title": "Convergence cuts reject", "statement": "If the injection effective sample size is below 4 Nobs, or any event's effective sample size is not above Nobs (or undefined), or (with max_variance_cut) the variance exceeds one or is undefined, the log-likelihood handed to the sampler is at most the most negative finite number plus the event evidence, and otherwise it is untouched by the cut.", "quantifier": "all weights, Nobs>=1, flags", "why_tests_cant": "All inputs incl. NaN effective sample sizes.", "anchors": ["gwinferno/pipeline/analysis.py:hierarchical_likelihood"]}
{"id": "C62", "title": "Contradictory cut flags raise", "statement": "hierarchical_likelihood raises ValueError exactly when max_variance_cut is combined with marginalize_selection or min_neff_cut, before recording any site.", "quantifier": "all flag combinations and inputs", "why_tests_cant": "Exhaustive over flags and all inputs.", "anchors": ["gwinferno/pipeline/analysis.py:hierarchical_likelihood"]}
{"id": "C63", "title": "Recorded sites", "statement": "One likelihood evaluation records each site name at most once, records the pre-correction detection efficiency, and the reconstructed rate satisfies rate * efficiency * VT = unscaled rate.", "quantifier": "all inputs, flags, numbers of events and parameters", "why_tests_cant": "Unbounded numbers of events/parameters.", "anchors": ["gwinferno/pipeline/analysis.py:hierarchical_likelihood"]}
{"id": "C64", "title": "Posterior-predictive draws respect the mass cuts", "statement": "Every observed/predicted draw recorded by the posterior predictive check has m1min<=mass_1<=mmax and mass_1*mass_ratio>=m2min, whatever the random key, and among the allowed samples each is drawn with probability proportional to its weight.", "quantifier": "all keys, data sets, cut values", "why_tests_cant": "All random keys.", "anchors": ["gwinferno/pipeline/analysis.py:hierarchical_likelihood"]}
{"id": "C65", "title": "Categorical sub-population assignment", "statement": "With categorical=True each event's weights are those of the sub-population drawn for it.", "quantifier": "all numbers of sub-populations, draws", "why_tests_cant": "All draws and numbers of populations.", "anchors": ["gwinferno/pipeline/analysis.py:hierarchical_likelihood"]}
{"id": "C66", "title": "Config-built model evaluates the configured population", "statement": "construct_hierarchical_model's weights are the sum over configured parameters of the configured model's log_prob minus log prior, with hyper-parameters looked up under <param>_<hyper>, iid-shared parameters using the same model as their partner; missing hyper-parameters or unknown entries raise.", "quantifier": "all model/prior dictionaries, samples", "why_tests_cant": "All configurations.", "anchors": ["gwinferno/pipeline/analysis.py:construct_hierarchical_model"]}
{"id": "C67", "title": "Config reader records exactly the declared hyper-parameters", "statement": "After parsing, every hyper-parameter declared with a prior (or a value) has an entry under its key, sampling_params lists exactly the ones with priors, in order, and every key a declared model will look up is present. A parameter sharing another one's model refers to that parameter, which keeps its own model.", "quantifier": "all configuration trees", "why_tests_cant": "All configurations.", "anchors": ["gwinferno/pipeline/parser.py:ConfigReader"]}
{"id": "C68", "title": "Hyper-parameter keys never collide", "statement": "Two different (parameter, hyper-parameter) declarations never share a key.", "quantifier": "all names", "why_tests_cant": "Injectivity over all strings.", "anchors": ["gwinferno/pipeline/parser.py:ConfigReader.add_model", "gwinferno/pipeline/parser.py:ConfigReader.add_mixture_model"]}
{"id": "C69", "title": "Dotted model paths are split correctly", "statement": "load_dist_from_string resolves a.b.c to attribute c of module a.b for every dotted path; load_model_from_python_file adds the containing directory of the file.", "quantifier": "all strings", "why_tests_cant": "All strings.", "anchors": ["gwinferno/pipeline/parser.py:load_dist_from_string", "gwinferno/pipeline/parser.py:load_model_from_python_file"]}
{"id": "C70", "title": "Ignored events are dropped consistently", "statement": "load_pe_and_injections_as_dict(ignore=names) returns PE arrays without exactly those events, in the original order, and nObs equals the number of remaining events.", "quantifier": "all catalogs and ignore lists", "why_tests_cant": "All ignore lists.", "anchors": ["gwinferno/pipeline/utils.py:load_pe_and_injections_as_dict"]}
{"id": "C71", "title": "Spline prior helpers", "statement": "bspline_mass_prior/spin_prior/redshift_prior sample coefficient vectors of the requested length, add exactly one smoothing penalty per sampled vector, raise when neither mass nor ratio splines are requested, and pin the first redshift coefficient to zero.", "quantifier": "all sizes, names, flags", "why_tests_cant": "All argument combinations.", "anchors": ["gwinferno/pipeline/utils.py:bspline_mass_prior", "gwinferno/pipeline/utils.py:bspline_spin_prior", "gwinferno/pipeline/utils.py:bspline_redshift_prior"]}
{"id": "C72", "title": "PDF export keeps every parameter and its inputs", "statement": "pdf_dict_to_xarray stores one array per parameter (per sub-population), including redshift, and leaves the caller's dictionaries unchanged.", "quantifier": "all dictionaries and sub-population lists", "why_tests_cant": "History/aliasing and all keys.", "anchors": ["gwinferno/pipeline/utils.py:pdf_dict_to_xarray", "gwinferno/pipeline/utils.py:posterior_dict_to_xarray"]}
{"id": "C73", "title": "Found injections", "statement": "An injection is kept exactly when it passes a threshold, lowering the SNR threshold or raising the FAR threshold never loses an injection, rows of all parameters stay aligned, and total_generated is unaffected by the cuts.", "quantifier": "all injection files, thresholds", "why_tests_cant": "All files and thresholds.", "anchors": ["gwinferno/preprocess/selection.py:get_o4a_cumulative_injection_dict", "gwinferno/preprocess/selection.py:get_o3_cumulative_injection_dict"]}
{"id": "C74", "title": "Additional cuts only remove injections", "statement": "Supplying additional_cuts never adds an injection to the selected set.", "quantifier": "all files and cuts", "why_tests_cant": "All files.", "anchors": ["gwinferno/preprocess/selection.py:get_o3_cumulative_injection_dict"]}
{"id": "C75", "title": "Injection prior Jacobians", "statement": "The stored prior is the file's sampling density times mass_1 when mass_ratio is requested and times (2 pi a1^2)(2 pi a2^2) when spins are requested (divided by the weights for O4a).", "quantifier": "all files and parameter requests", "why_tests_cant": "All requests.", "anchors": ["gwinferno/preprocess/selection.py:get_o4a_cumulative_injection_dict", "gwinferno/preprocess/selection.py:get_o3_cumulative_injection_dict"]}
{"id": "C76", "title": "Missing spin components are treated as zero", "statement": "For O3 injection files without in-plane spin components, spin magnitudes are |spin_z|.", "quantifier": "all files lacking spinNx/spinNy", "why_tests_cant": "Every number of found vs total injections.", "anchors": ["gwinferno/preprocess/selection.py:get_o3_cumulative_injection_dict"]}
{"id": "C77", "title": "Requested parameters are returned", "statement": "load_injection_dataset/load_posterior_dataset return exactly the requested parameters plus the prior when no effective-spin parameter is requested, and otherwise the mass/redshift parameters plus chi_eff (chi_p) and the prior.", "quantifier": "all parameter requests", "why_tests_cant": "All requests.", "anchors": ["gwinferno/preprocess/data_collection.py:load_posterior_dataset", "gwinferno/preprocess/data_collection.py:load_injection_dataset"]}
{"id": "C78", "title": "Posterior mass cut", "statement": "processed_catalog_dataset_from_dict keeps exactly the samples with mass_1 <= mmax (one fixed rule for all events).", "quantifier": "all catalogs, mmax", "why_tests_cant": "Boundary samples and all catalogs.", "anchors": ["gwinferno/preprocess/data_collection.py:processed_catalog_dataset_from_dict"]}
{"id": "C79", "title": "Down-sampling keeps intact, distinct samples", "statement": "After processing every event has the same number of samples min(10000, shortest event); each is an intact column of that event's (cut) posterior and no column is used twice; event order is kept.", "quantifier": "all catalogs, all random choices", "why_tests_cant": "All random choices.", "anchors": ["gwinferno/preprocess/data_collection.py:processed_catalog_dataset_from_dict"]}
{"id": "C80", "title": "PE prior", "statement": "append_prior_to_processed_catalog stores the product of the declared redshift prior interpolated at z, (1+z)^2 for mass_1, mass_1 for mass_ratio and 1/4 for spins; an undeclared redshift prior raises.", "quantifier": "all catalogs, parameter requests", "why_tests_cant": "All requests.", "anchors": ["gwinferno/preprocess/data_collection.py:append_prior_to_processed_catalog", "gwinferno/preprocess/data_collection.py:dl_2_prior_on_z"]}
{"id": "C81", "title": "Effective-spin prior conversion", "statement": "After converting component spins to chi_eff the stored prior is the density of the remaining parameters times p(chi_eff|q) for draws isotropic and uniform in spin magnitude.", "quantifier": "all draws", "why_tests_cant": "All draws.", "anchors": ["gwinferno/preprocess/data_collection.py:convert_component_spins_to_chieff"]}
{"id": "C82", "title": "chi_p can be requested for posteriors", "statement": "load_posterior_dataset with chi_p in param_names returns a data set containing chi_p.", "quantifier": "all catalogs", "why_tests_cant": "For-all failure.", "anchors": ["gwinferno/preprocess/data_collection.py:convert_component_spins_to_chieff"]}
{"id": "C83", "title": "Resampled injections reproduce the detection efficiency", "statement": "resample_injections draws between 1 and Ndet injections; every resampled injection has model_prob/prior equal to the original efficiency sum(w)/Ndraw, so the re-weighted efficiency is preserved; Neff_new is that of detection_efficiency.", "quantifier": "all injection sets, models, keys", "why_tests_cant": "All keys and sets.", "anchors": ["gwinferno/preprocess/selection.py:resample_injections"]}
{"id": "C84", "title": "Posterior predictive densities integrate to the rate", "statement": "Every curve produced by the calculate_*_ppds functions has trapezoid integral rate*pop_frac over its grid (one by default).", "quantifier": "all coefficient draws, grids, rates, fractions", "why_tests_cant": "All draws.", "anchors": ["gwinferno/postprocess/calculations.py:calculate_bspline_mass_ppds", "gwinferno/postprocess/calculations.py:calculate_powerlaw_peak_mass_ppds", "gwinferno/postprocess/calculations.py:calculate_peak_logm1_bspline_q_ppds", "gwinferno/postprocess/calculations.py:calculate_beta_spin_mag", "gwinferno/postprocess/calculations.py:calculate_mixture_iso_aligned_spin_tilt", "gwinferno/postprocess/calculations.py:calculate_bspline_spin_ppds"]}
{"id": "C85", "title": "Rate evolution curves", "statement": "calculate_powerlaw_rate_of_z_ppds returns rate*frac*(1+z)^lamb and the spline version with zero coefficients coincides with it; at z=0 the curve equals rate*frac.", "quantifier": "all lamb, rates, grids", "why_tests_cant": "All inputs.", "anchors": ["gwinferno/postprocess/calculations.py:calculate_powerlaw_rate_of_z_ppds", "gwinferno/postprocess/calculations.py:calculate_powerlaw_spline_rate_of_z_ppds"]}
{"id": "C86", "title": "Aligned chi_eff prior is the pushforward of uniform aligned spins", "statement": "chi_effective_prior_from_aligned_spins(chi) is exactly the probability density at chi of (s1 + q s2)/(1+q) for independent s1, s2 uniform on [-a_max, a_max].", "quantifier": "all chi_eff, q in (0,1], a_max>0", "why_tests_cant": "A closed form versus an integral over a continuum of spins.", "anchors": ["gwinferno/preprocess/priors.py:chi_effective_prior_from_aligned_spins"]}
{"id": "C87", "title": "Isotropic chi_p prior is the distribution of the larger in-plane spin", "statement": "The integral of chi_p_prior_from_isotropic_spins from 0 to s is the product of the probabilities that each of the two (mass-weighted) in-plane spins, for magnitude uniform on [0,a_max] and isotropic direction, is at most s.", "quantifier": "all q in (0,1], a_max>0, 0<=s<=a_max", "why_tests_cant": "Closed form versus integral over spin magnitudes and directions.", "anchors": ["gwinferno/preprocess/priors.py:chi_p_prior_from_isotropic_spins"]}
{"id": "C88", "title": "Array calls of the isotropic chi_eff prior agree with scalar calls", "statement": "Calling chi_effective_prior_from_isotropic_spins on arrays returns element by element what the scalar calls return.", "quantifier": "all chi_eff arrays, scalar or array q", "why_tests_cant": "Failure needs an element exactly on a case boundary.", "anchors": ["gwinferno/preprocess/priors.py:chi_effective_prior_from_isotropic_spins"]}
{"id": "C89", "title": "Conditional chi_p prior covers every physical chi_p", "statement": "For every pair of physical spins with magnitudes at most a_max, chi_p lies inside the support [0,max_chi_p] that chi_p_prior_given_chi_eff_q assumes for the corresponding chi_eff and q.", "quantifier": "all q in (0,1], spin magnitudes, tilts, a_max", "why_tests_cant": "A bound over all physical spin configurations.", "anchors": ["gwinferno/preprocess/priors.py:chi_p_prior_given_chi_eff_q", "gwinferno/preprocess/conversions.py:chieff_from_q_component_spins", "gwinferno/preprocess/conversions.py:chip_from_q_component_spins"]}
{"id": "C90", "title": "Detection efficiency accepts an integer number of injections", "statement": "detection_efficiency returns the same three numbers whether Ninj is passed as an int or as the equal float.", "quantifier": "all weight arrays, all int32 Ninj", "why_tests_cant": "Fails only above a threshold set by 32-bit integer arithmetic.", "anchors": ["gwinferno/pipeline/analysis.py:detection_efficiency"]}
{"id": "C91", "title": "Log volume element is the logarithm of the volume element", "statement": "logdVcdz returns element by element the logarithm of what dVcdz returns, which is finite and non-negative, and positive for z>0.", "quantifier": "all flat cosmologies, all histories of queries, all arrays of redshifts z>=0 inside or beyond the table", "why_tests_cant": "All arrays, including z=0 and table extension.", "anchors": ["gwinferno/cosmology.py:Cosmology.logdVcdz", "gwinferno/cosmology.py:Cosmology.dVcdz"]}
{"id": "C92", "title": "Isotropic chi_eff prior is the pushforward of isotropic spins", "statement": "Away from the case boundaries chi_effective_prior_from_isotropic_spins(chi) is exactly the probability density at chi of (a1 cos t1 + q a2 cos t2)/(1+q) for spin magnitudes uniform on [0,a_max] and isotropic directions; on a boundary where no case applies it is the average of the densities at chi plus and minus 1e-6.  Its integral over [-a_max, a_max] is one.", "quantifier": "all chi_eff, all q in (0,1], all a_max>0, any dilogarithm", "why_tests_cant": "A piecewise closed form with dilogarithms versus an integral over a continuum of spins, in six cases.", "anchors": ["gwinferno/preprocess/priors.py:chi_effective_prior_from_isotropic_spins", "gwinferno/preprocess/priors.py:Di"]}
{"id": "C93", "title": "Conditional chi_p prior is the weighted density estimate of physical draws", "statement": "At each interior node chi_p_prior_given_chi_eff_q is, up to one positive constant, the kernel density estimate of the chi_p of spin draws that are all physical and all reproduce chi_eff and q, each weighted by the Jacobian |d cos(tilt_1)/d chi_eff|.", "quantifier": "all chi_eff, q>0, a_max>0, all numbers of draws, all random streams, all density estimators", "why_tests_cant": "All random streams and all numbers of rejection rounds.", "anchors": ["gwinferno/preprocess/priors.py:chi_p_prior_given_chi_eff_q", "gwinferno/preprocess/conversions.py:chip_from_q_component_spins"]}
{"id": "C94", "title": "Luminosity distance, volume element and comoving volume are the flat-universe ones", "statement": "A non-flat parameter set raises AssertionError. Every tabulated luminosity distance is (1+z) times the tabulated comoving distance, and between nodes z2DL exceeds (1+z)*z2Dc by at most (c/H0) dz^2/4. dVcdz is 4 pi Dc^2 c/(H0 E(z)) with the Dc that z2Dc returns. The tabulated comoving volume is the volume 4/3 pi Dc^3 of a ball up to 8/3 pi (c dz/H0)^2 Dc.", "quantifier": "all cosmological parameters, all steps and table lengths, all arrays of redshifts, all table entries", "why_tests_cant": "An error bound for every table entry and every redshift between nodes.", "anchors": ["gwinferno/cosmology.py:Cosmology.__init__", "gwinferno/cosmology.py:Cosmology.DL", "gwinferno/cosmology.py:Cosmology.dVcdz", "gwinferno/cosmology.py:Cosmology.update", "gwinferno/cosmology.py:Cosmology.z2DL"]}
{"id": "C95", "title": "Least-squares spline coefficients", "statement": "get_coefficients(xs, ys) returns the design matrix, the coefficients that minimise the sum of squared residuals among all coefficient vectors, and the fitted values of exactly those coefficients; data generated by a spline give back its coefficients.", "quantifier": "all data sets, all knots and orders, all inversion routines that invert the Gram matrix", "why_tests_cant": "An optimum over a continuum of coefficient vectors.", "anchors": ["gwinferno/interpolation.py:BasisSpline.get_coefficients"]}
{"id": "C96", "title": "Sections of a configuration file", "statement": "After parse, label, outdir, data, sampler and likelihood hold exactly the document's sections of those names, or the documented defaults when absent, and the models and priors come from the models section; a document without models raises KeyError; a python_file entry only records the path.", "quantifier": "all documents, all reader states", "why_tests_cant": "All documents.", "anchors": ["gwinferno/pipeline/parser.py:ConfigReader.parse", "gwinferno/pipeline/parser.py:ConfigReader.construct_model_and_prior_dicts"]}
{"id": "C97", "title": "Analysis time and total of the injection set", "statement": "Loading an injection file gives the file's recorded number of generated injections as total_generated, and the recorded analysis time converted to years by a 365.25-day year, taken from analysis_time_s, else total_analysis_time, else analysis_time.", "quantifier": "all files and parameter requests", "why_tests_cant": "All files.", "anchors": ["gwinferno/preprocess/selection.py:get_o4a_cumulative_injection_dict", "gwinferno/preprocess/selection.py:get_o3_cumulative_injection_dict", "gwinferno/preprocess/data_collection.py:load_injection_dataset"]}
{"id": "C98", "title": "Catalog reading keeps events and their data sets", "statement": "Reading a catalog returns, for each listed event in order, exactly the posterior stored under the path declared for that event; from GWTC-1 files the named data set itself, from the others its posterior_samples; an error is always that of reading one of the listed data sets.", "quantifier": "all catalogs, all event lists", "why_tests_cant": "All catalogs and orders.", "anchors": ["gwinferno/preprocess/data_collection.py:unprocessed_catalog_dict_from_metadata"]}
{"id": "C99", "title": "A configuration file yields the likelihood of the population it describes", "statement": "Parsing a document and building the hierarchical model from it gives, in every call, the likelihood whose weights are the configured distributions evaluated with the declared values or the values drawn at the declared names; exactly the declared priors are sampled, in order of declaration.", "quantifier": "all documents without shared parameters, all imported classes, all data, all call histories", "why_tests_cant": "All documents, all histories of calls.", "anchors": ["gwinferno/pipeline/parser.py:ConfigReader.parse", "gwinferno/pipeline/analysis.py:construct_hierarchical_model"]}
{"id": "C100", "title": "Spline-modulated densities have the documented shape", "statement": "The B-spline redshift model with an unnormalised basis is dVc/dz/(1+z) times exp(spline), PowerlawSplineRedshiftModel is dVc/dz (1+z)^(lamb-1) times exp(spline) (zero above its grid), and PowerlawBasisSplinePrimaryPowerlawRatio is m1^-alpha exp(spline of log m1) on [mmin,mmax], times the power law of q on [m2min/m1,1]; each is divided by its own trapezoid sum over the model's 1000-point grid, and the spline is the combination of B-splines on equally spaced knots with the given coefficients.", "quantifier": "all coefficients, indices, samples, grids, numbers of splines", "why_tests_cant": "All coefficient vectors and samples.", "anchors": ["gwinferno/models/bsplines/single.py:BSplineRedshift", "gwinferno/models/spline_perturbation.py:PowerlawSplineRedshiftModel", "gwinferno/models/spline_perturbation.py:PowerlawBasisSplinePrimaryPowerlawRatio"]}
{"id": "C101", "title": "Spline evaluation is the combination of basis functions", "statement": "Evaluating a spline at any points with any coefficients gives, inside the range, the sum of coefficient times B-spline (its exponential for the log-y classes, the M-spline mixture weighted by coefficient over their sum for BasisSpline) on the spline's knots in the class's coordinate, and zero outside; with normalisation the same values divided by their trapezoid sum on the grid.", "quantifier": "all five classes, all knots, orders, coefficients and points", "why_tests_cant": "All knots and coefficient vectors.", "anchors": ["gwinferno/interpolation.py:BasisSpline.eval", "gwinferno/interpolation.py:BSpline.project", "gwinferno/interpolation.py:LogYBSpline._project", "gwinferno/interpolation.py:LogXBSpline.bases"]}
{"id": "C102", "title": "BasisSpline components are probability densities", "statement": "Every component of BasisSpline whose knots lie in the range is non-negative and integrates to one over the range, with mean the average of its knots; the corresponding BSpline component integrates to its support width over the order.", "quantifier": "all knots (repeated or not), all orders, all components", "why_tests_cant": "Integrals of a recursively defined function for every order.", "anchors": ["gwinferno/interpolation.py:BasisSpline._basis", "gwinferno/interpolation.py:BasisSpline.bases", "gwinferno/interpolation.py:BSpline._bases"]}
{"id": "C103", "title": "Gridded distributions between their grid points", "statement": "At any redshift in the grid range up to the maximum, exp(log_prob) of PowerlawRedshift is the linearly interpolated volume element times (1+z)^(lamb-1) divided by the trapezoid sum of the same expression over the grid, and above the maximum log_prob is the lowest float; BSplineDistribution.log_prob is the linear interpolation of the tabulated spline minus the log of its trapezoid normalisation, held constant outside the grid. On equally spaced grids the cdf joins the tabulated values by straight lines, and sampling and cdf invert each other.", "quantifier": "all grids, volume elements, indices, design matrices, coefficients, points", "why_tests_cant": "All points between grid nodes.", "anchors": ["gwinferno/numpyro_distributions.py:PowerlawRedshift", "gwinferno/numpyro_distributions.py:BSplineDistribution"]}
{"id": "C104", "title": "Beta conversions give the mean and variance of the Beta density", "statement": "mu_var_from_alpha_beta returns exactly the mean and the variance of the density betadist evaluates for those shapes and scale, and the shapes alpha_beta_from_mu_var returns for an attainable pair give a density with that mean and variance.", "quantifier": "all alpha,beta>0 (including shapes below one, where the density is unbounded), all scales, all attainable means and variances", "why_tests_cant": "Improper integrals for a continuum of shapes.", "anchors": ["gwinferno/preprocess/conversions.py:mu_var_from_alpha_beta", "gwinferno/preprocess/conversions.py:alpha_beta_from_mu_var", "gwinferno/distributions.py:betadist"]}
{"id": "C105", "title": "Command-line options are read as declared", "statement": "For any sequence of options, in any order, repeated or not, written --x v or --x=v and possibly abbreviated, each attribute is the last value given for its option converted to the declared type, or the declared default; unreadable values end the run; the numbers of splines are usable as numbers, and a boolean option can be switched off.", "quantifier": "all sequences of declared options, all texts, both parsers", "why_tests_cant": "All sequences of arguments and texts.", "anchors": ["gwinferno/pipeline/utils.py:load_base_parser", "gwinferno/pipeline/parser.py:load_base_parser"]}
{"id": "C106", "title": "Set-up helpers build the documented models from the loaded data", "statement": "The B-spline mass, spin and redshift models built from loaded posterior samples and injections evaluate, at every posterior sample and injection, the product of the documented normalised densities of that sample's own parameters with the coefficients passed; a missing parameter raises KeyError.", "quantifier": "all data sets, all numbers of splines, all coefficients, IID or independent spins", "why_tests_cant": "All data sets and coefficients; posterior samples and injections must not be confused.", "anchors": ["gwinferno/pipeline/utils.py:setup_bspline_mass_models", "gwinferno/pipeline/utils.py:setup_bspline_spin_models", "gwinferno/pipeline/utils.py:setup_powerlaw_spline_redshift_model"]}
{"id": "C107", "title": "Example population models evaluate their likelihood", "statement": "The example models weight every sample by population density over sampling prior, with parameters that mean what they are called, and pass these weights to the hierarchical likelihood.", "quantifier": "all data sets, all hyperparameters", "why_tests_cant": "All data sets and hyperparameters.", "anchors": ["examples/simple_bspline_example.py:model", "examples/simple_powerlaw_peak_example.py:model", "examples/config_files/model.py:model"]}
{"id": "C108", "title": "Saved data sets are the data of the likelihood", "statement": "Loading a saved file returns exactly what was last saved under that name, in every history of saves; names without .h5 are refused and change nothing. From catalog metadata and an injection file to the loaded dictionaries, each event's rows are its own samples below the cut with the sampling prior evaluated at the same sample, and the injections are the found ones with their draw density, total and number of events.", "quantifier": "all catalogs (GWTC-1 included), all injection files, all requests, all down-samplings, all histories of the shared cosmology and of saves", "why_tests_cant": "A chain of four functions over arbitrary data and histories.", "anchors": ["gwinferno/preprocess/data_collection.py:load_posterior_dataset", "gwinferno/preprocess/data_collection.py:load_injection_dataset", "gwinferno/preprocess/data_collection.py:save_posterior_samples_and_injection_datasets_as_idata", "gwinferno/pipeline/utils.py:load_pe_and_injections_as_dict"]}
{"id": "C109", "title": "Plots show the median and the 5-95 percent band of the draws", "statement": "Each population's curve is at every grid point the median of its posterior draws there and the band the 5th and 95th percentile, with its own name and color, in order; the median is inside the band, the band inside the range of the draws, draws and chains may come in any order, and a figure is written iff saving is asked for.", "quantifier": "all numbers of populations and draws, all grids and draws, all names, colors and labels", "why_tests_cant": "Order statistics of arbitrary many draws at arbitrary many grid points.", "anchors": ["gwinferno/postprocess/plot.py:plot_pdf", "gwinferno/postprocess/plot.py:plot_mass_pdfs", "gwinferno/postprocess/plot.py:plot_spin_pdfs", "gwinferno/postprocess/plot.py:plot_rate_of_z_pdfs"]}
{"id": "C110", "title": "A configuration file can be run", "statement": "Running the script on a configuration samples the model it describes on its data: for every modelled parameter and the prior, each event's samples in order, and the injections with their total and observing time.", "quantifier": "all configurations, all catalogs and injections", "why_tests_cant": "All configurations; and the failing imports are outside every test, as no test runs the script.", "anchors": ["bin/gwinferno_run_from_config.py:setup", "bin/gwinferno_run_from_config.py:run_inference"]}
{"id": "C111", "title": "Different runs never share result files", "statement": "Two runs of an example script whose settings differ never write the same posterior, curve or figure file: the file names determine label, warm-up, samples, seed and results directory; a missing label or results directory raises TypeError.", "quantifier": "all settings, all labels without a slash, all file names", "why_tests_cant": "All pairs of settings; separators could make different settings give the same name.", "anchors": ["examples/utils.py:setup_result_dir"]}
{"id": "C112", "title": "The batch script starts the runs that were asked for", "statement": "The command in the generated script, split into words by the shell and parsed by the analysis script, gives exactly the requested interpreter, script, data file, lengths, label, directory and masses, with the array index as seed; tasks of one script never share files, their logs go to the directory of the label, and the time limit is as requested up to a day outside the long partitions; missing required options are refused.", "quantifier": "all requested settings without spaces or dollar signs, all array indices", "why_tests_cant": "All texts and numbers, through two parsers and a shell.", "anchors": ["examples/create_simple_bspline_example_slurm_submit_script.py:main", "examples/create_simple_bspline_example_slurm_submit_script.py:setup_parser"]}
{"id": "C113", "title": "From data tables to the log-likelihood of the B-spline population", "statement": "For posterior samples and found injections with positive redshifts and sampling priors, the log-likelihood the B-spline population model hands to the sampler is the sum over events of the log of the mean weight minus Nobs times the log of (summed injection weights over number of injections), where a weight is the product of the normalised exponentials of the cubic splines in log mass, mass ratio, spin magnitudes and tilts and of the modulated redshift density over the sampling prior of that binary. Adding a constant to all coefficients of a mass or spin spline leaves it unchanged, and multiplying the sampling priors of the events by c1 and of the injections by c2 changes it by Nobs (ln c2 - ln c1).", "quantifier": "all data sets, all spline sizes and coefficients, all mass ranges, all volume elements, all flags of the likelihood (cuts satisfied)", "why_tests_cant": "A chain of a dozen functions over arbitrary data; unit tests compare single functions at a few points.", "anchors": ["examples/simple_bspline_example.py:model", "gwinferno/pipeline/utils.py:setup_bspline_mass_models", "gwinferno/pipeline/utils.py:setup_bspline_spin_models", "gwinferno/pipeline/utils.py:setup_powerlaw_spline_redshift_model", "gwinferno/pipeline/analysis.py:hierarchical_likelihood"]}
{"id": "C114", "title": "Recorded sub-population fractions are shares of the recorded sample", "statement": "When the hierarchical likelihood is asked for a posterior predictive check with marginalised sub-population labels, the fraction it records for sub-population i and event ev is the weight of that sub-population at the recorded sample divided by the total weight there: the fractions lie between 0 and 1, add up to one, and belong to the same sample whose parameters are recorded for that event, whether the weights are passed as weights or as log weights.", "quantifier": "every number of sub-populations, events, samples and injections, every non-negative weight and every draw", "why_tests_cant": "the property is about all weight arrays and all random draws; a wrong sample index or a mixture of log and plain weights still gives plausible numbers on a single example", "anchors": ["gwinferno/pipeline/analysis.py:hierarchical_likelihood"]}
{"id": "C115", "title": "From data tables to the log-likelihood of the power-law-peak population", "statement": "For posterior samples and found injections of physical binaries, the log-likelihood the power-law-peak model hands to the sampler is the sum over events of the log of the mean weight minus Nobs times the log of (summed injection weights over number of injections), where a weight is the product of the mixture of a power law and a Gaussian peak in primary mass, the power law in mass ratio between mmin/m1 and one, the Beta densities of the spin magnitudes, the mixtures of isotropic and aligned tilts and the redshift density, each divided by its integral, over the sampling prior of that binary; every binary has a finite weight; multiplying the sampling priors of the events by c1 and of the injections by c2 changes the log-likelihood by Nobs (ln c2 - ln c1); the Beta shapes recorded in the posterior are those of the densities used.", "quantifier": "all data sets, all hyperparameters in the ranges of their priors, all volume elements, all flags of the likelihood (cuts satisfied)", "why_tests_cant": "A chain of a dozen functions over arbitrary data; unit tests compare single functions at a few points.", "anchors": ["examples/simple_powerlaw_peak_example.py:model", "gwinferno/models/parametric/parametric.py:PowerlawRedshiftModel", "gwinferno/pipeline/analysis.py:hierarchical_likelihood"]}
{"id": "C116", "title": "The shared Planck cosmologies give the published distances", "statement": "For every redshift up to 9.999, and whatever was asked of the shared object before, the two cosmologies that come with the package answer with the comoving distance of a flat universe with H0 = 67.90 km/s/Mpc and matter fraction 0.3065 (LVK; 67.74 and 0.3089 for the other) to within 12.5 kpc, with the luminosity distance to within 12.5 (1+z) kpc, and with the volume element 4 pi Dc^2 c/H(z) of the distance they return; for every distance up to the end of the table, the redshift they return has that luminosity distance to within 12.5 (1+z) kpc.", "quantifier": "all redshifts and distances in range, arrays of any length, all histories of queries", "why_tests_cant": "A numerical integral and an interpolation over a continuum; tests compare with another package at a few redshifts.", "anchors": ["gwinferno/cosmology.py:PLANCK_2015_LVK_Cosmology", "gwinferno/cosmology.py:PLANCK_2015_Cosmology", "gwinferno/cosmology.py:Cosmology"]}
{"id": "C117", "title": "From the released files to the log-likelihood", "statement": "Loading the posterior files of a catalog and an injection file, saving them, loading the saved file and calling either example model hands to the sampler the log-likelihood of the catalog: the events are samples of the files, equally many of each, distinct and below the mass cut, with the prior of detector-frame masses, isotropic spins and the redshift prior named in the metadata; the injections are exactly the found rows of the file with the file's density expressed in mass ratio and spin magnitude and cosine; the number of events and the number of generated injections are those of the files.", "quantifier": "all catalogs, injection files, random choices, histories of the shared cosmology, hyperparameters and likelihood flags (cuts satisfied)", "why_tests_cant": "Composes four modules over arbitrary files; no test runs the chain.", "anchors": ["gwinferno/preprocess/data_collection.py:load_posterior_dataset", "gwinferno/preprocess/data_collection.py:load_injection_dataset", "examples/simple_bspline_example.py:model", "examples/simple_powerlaw_peak_example.py:model"]}
{"id": "C118", "title": "The exported curves are those of the fitted B-spline population", "statement": "From the posterior of a B-spline fit the example script exports, for every draw, the densities the likelihood was evaluated with for that draw: spin magnitudes and tilts normalised on their grids, the mass and mass-ratio marginals of the fitted density, and the rate per comoving volume whose observed redshift density is the fitted one, each under its own name and with its own grid; whatever the number of chains.", "quantifier": "all posteriors, all numbers of draws, splines and chains, all data sets", "why_tests_cant": "All coefficient vectors and draws; curves of exchanged or missing factors look plausible.", "anchors": ["examples/simple_bspline_example.py:main", "gwinferno/postprocess/calculations.py:calculate_bspline_mass_ppds", "gwinferno/pipeline/utils.py:pdf_dict_to_xarray"]}
{"id": "C119", "title": "The exported curves are those of the fitted power-law-peak population", "statement": "From the posterior of a power-law-peak fit the example script exports, for every draw, the densities the likelihood was evaluated with for that draw: masses, mass ratios, spin magnitudes, tilts and the rate per comoving volume, each under its own name and with its own grid.", "quantifier": "all posteriors with parameters in the ranges of the priors, all numbers of draws, all data sets", "why_tests_cant": "All parameters and draws; some curves are lost for every draw the priors allow.", "anchors": ["examples/simple_powerlaw_peak_example.py:main", "gwinferno/postprocess/calculations.py:calculate_beta_spin_mag"]}
{"id": "C120", "title": "The shipped configuration file runs and gives the log-likelihood of the population it declares", "statement": "The example configuration file of the package (and the Python model beside it) can be read, its model built and called: the five free parameters get the priors the file declares, and the recorded factor is the log-likelihood of power laws in primary mass and mass ratio and the redshift density of the file, whatever values are drawn and whatever the data.", "quantifier": "all draws with 0 < minimum < maximum and indices other than -1, all data tables with the columns used, all likelihood flags, all call histories of the model", "why_tests_cant": "All draws, data sets and call histories; the configuration is only ever used as a whole, and no test runs it.", "anchors": ["examples/config_files/config.yml", "examples/config_files/model.py:model", "gwinferno/pipeline/analysis.py:construct_hierarchical_model", "gwinferno/numpyro_distributions.py:PowerlawRedshift"]}
{"id": "C121", "title": "A finished run leaves its trace plot and its samples", "statement": "A run from a configuration file that completes plots the trace of every sampled hyper-parameter, of the rate, the effective sample sizes and the log-likelihood, and then saves the posterior samples, in two files named after the configured output directory and label (or their defaults).", "quantifier": "all configuration documents with a models section, all classes, draws, data sets, likelihood flags and call histories", "why_tests_cant": "All documents; the plot comes before the samples are saved, so a traced name that is not a site loses the run.", "anchors": ["bin/gwinferno_run_from_config.py:plot_trace_dump_samples", "gwinferno/pipeline/parser.py:ConfigReader.add_prior", "gwinferno/pipeline/analysis.py:hierarchical_likelihood"]}
{"id": "C122", "title": "The likelihood section of a configuration selects the corrections", "statement": "The options of a configuration's likelihood section are the ones every evaluation of its model uses, with the documented defaults for those not given; an unknown option or a section that is not a mapping is refused, and so is the variance cut beside another correction.", "quantifier": "all configuration documents, all option values, all classes, draws, data sets and call histories", "why_tests_cant": "All documents and values; a correction silently dropped changes the posterior but raises no error.", "anchors": ["bin/gwinferno_run_from_config.py:run_inference", "gwinferno/pipeline/analysis.py:construct_hierarchical_model", "gwinferno/pipeline/parser.py:ConfigReader.parse"]}
{"id": "C123", "title": "A configured run evaluates the declared population on the catalogue", "statement": "Given working data loaders, every evaluation in a run from a configuration file is the hierarchical likelihood of the declared population, with the configured corrections: each event's samples of the modelled parameters and its sampling prior enter in order, the found injections and their number and observing time as loaded, and the number of events is that of the catalogue.", "quantifier": "all configuration documents without a python file or shared parameters, all loaders, catalogues with equally many samples, injection sets, classes, draws and call histories", "why_tests_cant": "All documents and catalogues; a column taken for another or an event out of order gives a plausible likelihood.", "anchors": ["bin/gwinferno_run_from_config.py:run_inference", "bin/gwinferno_run_from_config.py:setup", "gwinferno/pipeline/analysis.py:construct_hierarchical_model", "gwinferno/pipeline/parser.py:ConfigReader"]}
