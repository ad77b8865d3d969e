{"id": "C01", "title": "closest_value_index selects the best sample up to the first crossing", "statement": "closest_value_index(value, array, growing) returns None exactly when no entry of the array is on the far side of value (<= value, or >= value with growing=True). Otherwise it returns an index i that lies at or before the first crossing entry, no entry up to that crossing is strictly closer to value than array[i], and every entry before i is strictly farther.", "quantifier": "every NaN-free array of any length, every finite value, both values of growing", "why_tests_cant": "the claim ranges over all arrays, including non-monotone ones with ties and near misses before the crossing; the tests use four fixed arrays", "anchors": ["petrofit/utils.py:closest_value_index"]}
{"id": "C02", "title": "The crossing index is monotone in the requested level", "statement": "For a fixed array, raising value never moves closest_value_index(value, array, growing=True) to a smaller index and never moves closest_value_index(value, array) (growing=False) to a larger one, whenever both calls find a crossing; and if the higher growing level is reachable so is the lower one.", "quantifier": "every NaN-free array (not necessarily monotone), every pair of finite values", "why_tests_cant": "a relational property between two calls over all arrays; non-monotone arrays are the hard case", "anchors": ["petrofit/utils.py:closest_value_index"]}
{"id": "C03", "title": "make_radius_list spans (0, max_pix] evenly", "statement": "make_radius_list(max_pix, n) has exactly n entries, the k-th (from 1) being k*max_pix/n: strictly increasing, positive, evenly spaced and ending at max_pix. With log=True and n >= 2 it has n entries from 1 to max_pix with constant ratio; with log=True and n = 1 it is [1.0], which does not contain max_pix unless max_pix = 1.", "quantifier": "every n and every positive max_pix", "why_tests_cant": "all sizes and endpoints; the tests try three pairs", "anchors": ["petrofit/utils.py:make_radius_list"]}
{"id": "C04", "title": "Ellipticity and elongation conversions are inverse", "statement": "elong_to_ellip(ellip_to_elong(e)) = e for every e != 1 and ellip_to_elong(elong_to_ellip(g)) = g for every g != 0; e in [0,1) maps to [1,inf) increasingly; e = 1 and g = 0 raise ZeroDivisionError for Python floats.", "quantifier": "every real ellipticity and elongation", "why_tests_cant": "an algebraic identity over all reals; the tests try five points within 1%", "anchors": ["petrofit/utils.py:ellip_to_elong", "petrofit/utils.py:elong_to_ellip"]}
{"id": "C05", "title": "Area to radius conversions return the ellipse with that area", "statement": "For area >= 0 and elong > 0, elliptical_area_to_r returns (a, b) with pi*a*b = area, a = elong*b; circle_area_to_r returns r >= 0 with pi*r^2 = area and agrees with elliptical_area_to_r at elong = 1.", "quantifier": "every non-negative area and positive elongation", "why_tests_cant": "an identity over all reals; no test covers these functions", "anchors": ["petrofit/utils.py:elliptical_area_to_r", "petrofit/utils.py:circle_area_to_r"]}
{"id": "C06", "title": "natural_sort is a stable natural-order sort", "statement": "For Latin-1 strings natural_sort returns a permutation of its input ordered by comparing digit runs as integers and other runs as lower-cased text, and keeps the input order of entries that compare equal; in particular prefix+str(i) precedes prefix+str(j) whenever i < j (and any suffixes not starting with a digit). It raises ValueError exactly when some string has a run between digit runs made only of superscript digits; a list containing a number (documented as accepted) raises TypeError.", "quantifier": "every list of Latin-1 strings, every pair of numbers", "why_tests_cant": "all lists and all digit runs; the test sorts one list", "anchors": ["petrofit/utils.py:natural_sort"]}
{"id": "C07", "title": "hst_flux_to_abmag is a strictly decreasing magnitude scale, NaN on non-positive flux", "statement": "For scalar flux the result is NaN iff flux <= 0 (given a positive PHOTFLAM and PHOTPLAM), is strictly decreasing in flux, and multiplying the flux by 100 subtracts exactly 5. For float arrays the result has the same length and is the scalar result at each entry, and the caller's array is unchanged; for integer arrays the call always raises ValueError (NaN cannot be stored in them).", "quantifier": "every scalar, every array of either dtype, every header with positive keywords", "why_tests_cant": "all fluxes and all array contents; the test evaluates one value", "anchors": ["petrofit/utils.py:hst_flux_to_abmag"]}
{"id": "C08", "title": "cutout_subtract changes exactly the target window, in place", "statement": "When the target has even dimensions and its window lies inside the image, image pixel (yy, xx) with y-dy/2 <= yy < y+dy/2 and x-dx/2 <= xx < x+dx/2 is reduced by the corresponding target pixel, and every other pixel is unchanged. The subtraction is done on the caller's image, which is also the returned object (the documentation promises a copy). A target with an odd dimension greater than 1, or a window that leaves the image on a side, raises ValueError and leaves the image unchanged. A one-pixel-wide target is accepted and subtracts nothing.", "quantifier": "every image, every target shape, every centre", "why_tests_cant": "all shapes and positions, including the borders; no test covers it", "anchors": ["petrofit/utils.py:cutout_subtract"]}
{"id": "C09", "title": "get_interpolated_values resamples on an even grid inside the data range", "statement": "With kind=None the inputs are returned unchanged. Otherwise the new grid has max(num, len(x)) points, starts at min(x), ends at max(x), is evenly spaced, and each returned y is the interpolant's value at the grid point; no grid point is ever outside the interpolation range, so the bounds check of the interpolant never fires.", "quantifier": "every x, y of equal length >= 2, every num, every interpolant (any kind)", "why_tests_cant": "all arrays and all interpolation kinds at once", "anchors": ["petrofit/utils.py:get_interpolated_values"]}
{"id": "C10", "title": "Pixel and angular sizes convert back and forth", "statement": "angular_to_pixel(pixel_to_angular(s, wcs), wcs) = s and pixel_to_angular(angular_to_pixel(d, wcs), wcs) = d (in arcsec) for every WCS with equal positive pixel scales, both conversions are linear; they raise AssertionError when the two pixel scales are not close.", "quantifier": "every size, every WCS pixel scale and unit", "why_tests_cant": "identity over all scales; the test does not assert its comparison", "anchors": ["petrofit/utils.py:angular_to_pixel", "petrofit/utils.py:pixel_to_angular"]}
{"id": "C11", "title": "Elliptical apertures have the requested axes", "statement": "radial_elliptical_aperture(pos, r, elong, theta) has semi-axes r and r/elong; radial_elliptical_annulus(pos, r, dr, elong, theta) has outer axes r+dr and (r+dr)/elong and, by photutils' default, inner axes r and r/elong, so its area is the difference of the two aperture areas; a non-positive r raises ValueError.", "quantifier": "every radius, thickness and elongation", "why_tests_cant": "all geometry values; the tests check one ellipse within 1%", "anchors": ["petrofit/photometry.py:radial_elliptical_aperture", "petrofit/photometry.py:radial_elliptical_annulus"]}
{"id": "C12", "title": "radial_photometry returns one independent triple per radius", "statement": "When it returns, the three arrays have one entry per radius, in order, and the entry at position k is what a call with only that radius would return: the sum over unmasked pixels of pixel value times aperture overlap, the same sum for an all-ones image, and the square root of the error-weighted sum, each rounded to 6 decimals; errors are NaN when no error map is given. For positive radii and elongation and maps of the image's shape it raises iff for some radius the flux is NaN: the aperture misses the image or a summed pixel is NaN.", "quantifier": "every image, mask, error map, list of radii and overlap weighting", "why_tests_cant": "all images and radius lists; independence between radii is relational", "anchors": ["petrofit/photometry.py:radial_photometry"]}
{"id": "C13", "title": "Masked pixels never influence radial_photometry", "statement": "Two images (and error maps) that agree on the unmasked pixels, whatever the values (NaN included) at masked pixels, give identical fluxes, areas and errors. mask=True means the pixel is used.", "quantifier": "every pair of images that differ only under the mask, every aperture", "why_tests_cant": "non-interference quantifies over pairs of images", "anchors": ["petrofit/photometry.py:radial_photometry"]}
{"id": "C14", "title": "Fluxes are linear and areas nested, up to the documented rounding", "statement": "Each returned flux is within 0.5e-6 of the exact weighted sum; for a constant image c the flux is within 0.5e-6 of c times the exact area; if aperture overlaps grow with the radius then areas, and fluxes of non-negative images, are non-decreasing along increasing radii.", "quantifier": "every image, mask and increasing list of radii", "why_tests_cant": "all images; rounding interacts with monotonicity", "anchors": ["petrofit/photometry.py:radial_photometry"]}
{"id": "C15", "title": "calculate_petrosian computes local over mean surface brightness", "statement": "For strictly increasing areas, non-zero fluxes and areas after the first and at least 3 points, entry 0 is NaN and entry i >= 1 equals ((L_i-L_{i-1})/(A_i-A_{i-1}))/(L_i/A_i); the result has the input length. Mismatched lengths, fewer than 3 points or decreasing areas raise AssertionError.", "quantifier": "every pair of equally long float arrays", "why_tests_cant": "all curves of growth; the test only checks lengths and NaN positions", "anchors": ["petrofit/petrosian/core.py:calculate_petrosian"]}
{"id": "C16", "title": "Repeated areas: trailing repeats are harmless, interior repeats misalign the profile", "statement": "If equal areas occur only at the end, each repeated entry carries the value of the first of them. If an equal pair is followed by a larger area, every later entry is taken from an earlier position (the entry of its rank among distinct areas), so the profile no longer matches the radii; a concrete monotone curve of growth shows a wrong value.", "quantifier": "every non-decreasing area list", "why_tests_cant": "needs areas with repeats in all positions; the test data have none", "anchors": ["petrofit/petrosian/core.py:calculate_petrosian"]}
{"id": "C17", "title": "Integer area arrays truncate the surface brightness", "statement": "When area_list is an integer array, the local surface brightness of each annulus is truncated to an integer before the ratio is taken, so (as long as it fits in int64) the result differs from the float-area result exactly at the annuli whose surface brightness is not an integer.", "quantifier": "every integer area list and flux list", "why_tests_cant": "tests only pass float areas", "anchors": ["petrofit/petrosian/core.py:calculate_petrosian"]}
{"id": "C18", "title": "The Petrosian profile is scale free and bounded for declining profiles", "statement": "Multiplying all fluxes by a non-zero constant, or all areas by a positive constant, leaves the profile unchanged; a constant surface brightness gives exactly 1 at every point after the first; if annulus surface brightness is non-negative and never increases outward, starting at most at the mean of the first aperture, every value lies in [0, 1].", "quantifier": "every strictly increasing curve of growth with positive fluxes", "why_tests_cant": "relations between calls and inductive bounds over curves of any length", "anchors": ["petrofit/petrosian/core.py:calculate_petrosian"]}
{"id": "C19", "title": "Petrosian errors follow first-order propagation", "statement": "With errors given and non-zero flux differences, the error at entry i >= 1 is |P_i| * sqrt((dF/F)^2+(dA/A)^2 over the annulus + (f/L)^2+(a/A)^2 within the aperture); it is non-negative, zero when all errors are zero, and missing flux or area errors count as zero; without any error argument None is returned. A flat annulus (zero flux difference) gives NaN.", "quantifier": "every curve of growth and error arrays", "why_tests_cant": "all error arrays and degenerate annuli; test only checks not-NaN on one data set", "anchors": ["petrofit/petrosian/core.py:calculate_petrosian"]}
{"id": "C20", "title": "calculate_petrosian_r returns a sampled radius inside the data or NaN", "statement": "The returned radius is a point of the resampled radius grid between 0 and max(r_list); it is NaN exactly when the resampled profile never reaches eta; raising eta never increases it. The first entries of r_list and petrosian_list do not influence it.", "quantifier": "every profile, eta, interpolation kind and number of samples", "why_tests_cant": "all profiles and all interpolants; monotonicity is relational", "anchors": ["petrofit/petrosian/core.py:calculate_petrosian_r"]}
{"id": "C21", "title": "The reported error of the Petrosian radius can be negative", "statement": "r_petro_err is half the difference of the radii found for the profile raised and lowered by its errors; it is non-negative for profiles that decrease strictly with constant errors, but for a valid input with non-negative errors it can be negative.", "quantifier": "every profile and non-negative error array", "why_tests_cant": "needs a universally quantified sign claim and a counterexample off the tested data", "anchors": ["petrofit/petrosian/core.py:calculate_petrosian_r"]}
{"id": "C22", "title": "fraction_to_r finds a sampled radius, monotone in the fraction", "statement": "If r_petrosian*epsilon exceeds max(r_list) the result is (NaN, NaN); if it is below min(r_list) ValueError is raised; if r_petrosian is NaN the radius is NaN whenever the interpolant maps NaN to NaN (an interpolant that does not can make it report a radius). Otherwise the radius is a point of the resampled grid or NaN, the flux target is interpolated_flux(r_petrosian*epsilon)*fraction/epsilon_fraction, and (for a non-negative interpolated flux and positive epsilon_fraction) a larger fraction never gives a smaller radius.", "quantifier": "every curve of growth, fraction pair, interpolation kind", "why_tests_cant": "relational over all curves; error branches are not tested", "anchors": ["petrofit/petrosian/core.py:fraction_to_r"]}
{"id": "C23", "title": "Concentration indices are non-negative and all-or-nothing NaN", "statement": "calculate_concentration_index returns three NaNs if either radius is NaN, otherwise r1, r2 and 5*log10(r2/r1); for fraction_1 <= fraction_2 and positive radii the index is >= 0; swapping the fractions negates it; equal fractions give 0.", "quantifier": "every curve of growth and pair of fractions", "why_tests_cant": "all curves; relational", "anchors": ["petrofit/petrosian/core.py:calculate_concentration_index"]}
{"id": "C24", "title": "Reading a Petrosian object depends only on its current settings", "statement": "After any sequence of assignments to eta, epsilon, epsilon_fraction and total_flux_fraction, interleaved with any reads, each property has the value a freshly constructed object with the final settings would give; r_petrosian never depends on epsilon, epsilon_fraction or total_flux_fraction, and the profile never depends on any of them.", "quantifier": "every finite history of assignments and reads", "why_tests_cant": "quantifies over all histories", "anchors": ["petrofit/petrosian/core.py:Petrosian"]}
{"id": "C25", "title": "Broken Petrosian properties", "statement": "half_flux_err raises AttributeError for every object; total_flux and half_flux raise NotImplementedError for every object built with interp_kind=None whose radius is in range, although r_total_flux and r_half_light work.", "quantifier": "every Petrosian object", "why_tests_cant": "no test reads these properties; the claim is for all objects", "anchors": ["petrofit/petrosian/core.py:Petrosian.half_flux_err", "petrofit/petrosian/core.py:Petrosian.total_flux"]}
{"id": "C26", "title": "Radii are invariant and fluxes covariant under flux rescaling", "statement": "Multiplying flux_list and flux_err by k > 0 leaves r_petrosian, r_half_light, r_total_flux and concentration indices unchanged and multiplies total_flux by k, for interpolants that commute with rescaling; total_flux_err is not multiplied by k in general because it adds a radius error in quadrature.", "quantifier": "every curve of growth and every k > 0", "why_tests_cant": "relational over all curves", "anchors": ["petrofit/petrosian/core.py:Petrosian", "petrofit/petrosian/core.py:fraction_to_r"]}
{"id": "C27", "title": "PetrosianCorrection picks the nearest grid row", "statement": "The selected row minimises the standardised, weighted distance to (r_petrosian(0.2), r_50, c2080), the first such row on ties; a measurement equal to a grid row's (p02, u_r_50, u_c2080) selects a row with those same three values, so with distinct rows estimate_n returns the n of that row.", "quantifier": "every grid with non-constant columns, every measurement", "why_tests_cant": "all grids and measurements; test uses one grid file", "anchors": ["petrofit/petrosian/correction.py:PetrosianCorrection._closest_row", "petrofit/petrosian/correction.py:PetrosianCorrection._dr"]}
{"id": "C28", "title": "enforce_range=True rejects measurements outside the grid", "statement": "With enforce_range=True a row is returned only if each of the three measurements lies between the minimum and maximum of its column; otherwise, NaN measurements included, AssertionError is raised. With enforce_range=False a row is always returned, and if some measurement is NaN it is the first row of the grid. A grid without rows raises ValueError. (The documentation states the opposite meaning.)", "quantifier": "every grid and measurement, NaN included", "why_tests_cant": "all measurements; the test switches the check off", "anchors": ["petrofit/petrosian/correction.py:PetrosianCorrection._validate_input"]}
{"id": "C29", "title": "estimate_epsilon maps settings to grid columns", "statement": "For a row and epsilon_fraction 0.8 or 0.99 and eta in {0.2,0.3,0.4,0.5} the result is c_r_80 or c_r_99 divided by p02..p05; any other eta or epsilon_fraction raises ValueError, except epsilon_fraction = 0.5 which always raises KeyError on generated grids because the column c_r_eff does not exist.", "quantifier": "every grid row and every setting", "why_tests_cant": "all settings; test covers the default only", "anchors": ["petrofit/petrosian/correction.py:PetrosianCorrection.estimate_epsilon", "petrofit/petrosian/correction.py:generate_petrosian_sersic_correction"]}
{"id": "C30", "title": "correct() returns a new object differing only in epsilon", "statement": "correct(p) leaves p unchanged, and the returned object has the same data, eta, fractions and interpolation settings as p, hence the same r_petrosian and profile, with epsilon = estimate_epsilon(p); later assignments to either object's settings do not affect the other.", "quantifier": "every Petrosian object and every later history of assignments", "why_tests_cant": "aliasing claims range over histories", "anchors": ["petrofit/petrosian/correction.py:PetrosianCorrection.correct"]}
{"id": "C31", "title": "Grid generation covers the product of the lists in order, for every worker schedule", "statement": "The generated table has len(n_list)*len(r_eff_list) rows; row i*len(r_eff_list)+j is computed from n_list[i] rounded to six decimals and r_eff_list[j]; with n_cpu > 1 the table is identical for every order in which workers finish; plotting with several workers raises AssertionError.", "quantifier": "every pair of lists and every completion order", "why_tests_cant": "schedules cannot be enumerated by tests", "anchors": ["petrofit/petrosian/correction.py:generate_petrosian_sersic_correction"]}
{"id": "C32", "title": "Simulation radii are increasing and reach the target radius", "statement": "The radii used by grid generation are strictly increasing positive integers starting at 1; they reach int(max_r) except when 200 <= max_r < 201, where they stop at 199; the image is twice the largest radius wide and the model is centred in it.", "quantifier": "every max_r", "why_tests_cant": "boundary behaviour for all max_r", "anchors": ["petrofit/petrosian/correction.py:_generate_petrosian_correction"]}
{"id": "C33", "title": "sersic_enclosed is the flux of the Sersic profile inside r", "statement": "For amplitude, r_eff, n > 0: sersic_enclosed(0)=0, it is strictly increasing in r, its derivative is 2*pi*r*(1-ellip)*amplitude*exp(-bn((r/r_eff)^(1/n)-1)), exactly half of the total is enclosed at r_eff, and r=inf gives the limit.", "quantifier": "every amplitude, r_eff, n, ellip < 1 and radius", "why_tests_cant": "an analytic identity over all parameters", "anchors": ["petrofit/modeling/models.py:sersic_enclosed"]}
{"id": "C34", "title": "sersic_enclosed_inv inverts sersic_enclosed", "statement": "sersic_enclosed_inv(sersic_enclosed(r)) = r for every r >= 0 and sersic_enclosed(sersic_enclosed_inv(f)) = f for every 0 <= f < total flux; it is strictly increasing in f.", "quantifier": "every radius, flux and parameter set", "why_tests_cant": "round trip over all reals", "anchors": ["petrofit/modeling/models.py:sersic_enclosed_inv"]}
{"id": "C35", "title": "petrosian_profile is the ratio of local to mean Sersic surface brightness", "statement": "For r > 0, petrosian_profile(r, r_eff, n) = I(r) / (L(r)/(pi r^2)) for the Sersic profile with those parameters; it lies strictly between 0 and 1, depends only on r/r_eff and n, and is strictly decreasing in r.", "quantifier": "every r, r_eff, n > 0", "why_tests_cant": "analytic identity and monotonicity over all parameters", "anchors": ["petrofit/modeling/models.py:petrosian_profile"]}
{"id": "C36", "title": "Ie_to_I0 and I0_to_Ie are inverse and agree with the profile centre", "statement": "I0_to_Ie(Ie_to_I0(I, n), n) = I and conversely, and Ie_to_I0(amplitude, n) equals the Sersic profile at radius 0.", "quantifier": "every intensity and n > 0", "why_tests_cant": "identity over all reals", "anchors": ["petrofit/modeling/models.py:Ie_to_I0", "petrofit/modeling/models.py:I0_to_Ie"]}
{"id": "C37", "title": "GenSersic2D generalises Sersic2D", "statement": "With c_0 = 0 GenSersic2D equals astropy's Sersic2D everywhere; for every c_0 > -2 its value is amplitude at the four ends of the r_eff ellipse axes, it is invariant under point reflection through the centre and under theta -> theta + pi, and non-increasing outward along every ray from the centre.", "quantifier": "every parameter set and point", "why_tests_cant": "pointwise identities over the plane", "anchors": ["petrofit/modeling/models.py:GenSersic2D"]}
{"id": "C38", "title": "Nuker2D measures distance with an extra factor sqrt(2)", "statement": "Nuker2D at a point at distance d > 0 from the centre is the Nuker law at radius sqrt(2)*d; thus it equals amplitude at distance r_break/sqrt(2), not at r_break; it is NaN at the centre (unless gamma and betta are both 0).", "quantifier": "every parameter set and point", "why_tests_cant": "identity over the plane; no test evaluates it", "anchors": ["petrofit/modeling/models.py:Nuker2D"]}
{"id": "C39", "title": "make_grid samples pixels symmetrically", "statement": "make_grid(size, origin, factor) gives (size*factor)^2 samples; the factor samples of pixel k along an axis lie strictly inside (origin+k-1/2, origin+k+1/2), are evenly spaced by 1/factor and average to origin+k; with factor 1 the samples are the pixel centres.", "quantifier": "every size, factor >= 1 and origin", "why_tests_cant": "all sizes and factors; the test checks two", "anchors": ["petrofit/modeling/models.py:make_grid"]}
{"id": "C40", "title": "Without PSF and oversampling the wrapped model is transparent", "statement": "For integer pixel coordinates, PSFConvolvedModel2D without PSF and oversample returns at each requested pixel the sub-model's value there, whatever set of pixels is requested and in whatever order.", "quantifier": "every sub-model, every non-empty list of integer pixel coordinates", "why_tests_cant": "all pixel sets, including incomplete ones left by NaN masking", "anchors": ["petrofit/modeling/models.py:PSFConvolvedModel2D.evaluate"]}
{"id": "C41", "title": "Integer oversampling averages the sub-samples of each pixel", "statement": "With oversample = f and no PSF each returned value is the mean of the sub-model over the f*f evenly spaced sample points of that pixel; a constant or affine sub-model is reproduced exactly.", "quantifier": "every sub-model, factor and pixel list", "why_tests_cant": "all factors and models", "anchors": ["petrofit/modeling/models.py:PSFConvolvedModel2D.evaluate"]}
{"id": "C42", "title": "Windowed oversampling is only right for windows inside images that start at pixel (0,0)", "statement": "If the evaluated coordinates start at (0,0) and the window lies inside the image, pixels in the window get the sub-sample means and all others the plain samples. If the coordinates start elsewhere the window values are written at shifted pixels, and a window of more than one pixel that is not inside the image raises ValueError, except one that starts exactly one image width before the image, which is written at its start. With a factor above 1, a centre given by a name that is not a parameter of the model raises AssertionError; a window with factor 1 has no effect.", "quantifier": "every window, image range and sub-model", "why_tests_cant": "needs all image origins and window positions; tests use interior windows at origin 0", "anchors": ["petrofit/modeling/models.py:PSFConvolvedModel2D.evaluate"]}
{"id": "C43", "title": "The sampling-grid cache is invisible", "statement": "For every history of evaluations, oversample changes, cache_grid toggles and clear_cached_grid calls, each evaluation returns what a fresh object with the same settings would return, provided the sub-model returns a new array; a sub-model that returns its own coordinate array lets windowed oversampling overwrite the cached grid.", "quantifier": "every finite history", "why_tests_cant": "stale caches only show up in particular histories", "anchors": ["petrofit/modeling/models.py:PSFConvolvedModel2D.evaluate", "petrofit/modeling/models.py:PSFConvolvedModel2D.cache_grid"]}
{"id": "C44", "title": "Oversampling factors stay compatible only if oversample is not reset to None", "statement": "Along every history of assignments that never sets oversample to None or psf to None after psf_oversample was set, the oversample factor is a positive multiple of the PSF factor and a PSF is present whenever psf_oversample is; a rejected assignment changes nothing. Setting oversample = None (or psf = None) is never checked and breaks the documented guarantee.", "quantifier": "every finite history of setter calls, valid or rejected", "why_tests_cant": "quantifies over histories; documentation claims it always holds", "anchors": ["petrofit/modeling/models.py:PSFConvolvedModel2D.oversample", "petrofit/modeling/models.py:PSFConvolvedModel2D.psf_oversample"]}
{"id": "C45", "title": "Wrapping and unwrapping preserve parameters and constraints", "statement": "Wrapping keeps the sub-model's parameter names in order with psf_pa appended, values, fixed flags and bounds; after any assignments, .model returns a sub-model with exactly the current values, fixed flags and bounds, without psf_pa; the wrapped instance is not changed. Tied constraints are not carried over.", "quantifier": "every sub-model and every history of parameter assignments", "why_tests_cant": "all models and histories", "anchors": ["petrofit/modeling/models.py:PSFConvolvedModel2D.model", "petrofit/modeling/models.py:PSFConvolvedModel2D._load_parameters"]}
{"id": "C46", "title": "PSF convolution is linear, and a normalised PSF conserves interior flux", "statement": "Convolution with the PSF is linear in the model image; a centred delta PSF leaves the image unchanged; the sum of the convolved image equals the sum of the image when the image vanishes near the border and the PSF sums to 1.", "quantifier": "every image and PSF of odd size", "why_tests_cant": "all images", "anchors": ["petrofit/modeling/models.py:PSFConvolvedModel2D.evaluate"]}
{"id": "C47", "title": "Default bounds are fresh and overridable", "statement": "get_default_sersic_bounds(override) maps each key to the override if present and to the default otherwise; the generalised version adds c_0; the override argument is not modified, and no call affects the result of any other.", "quantifier": "every override dictionary and every call history", "why_tests_cant": "mutable default arguments fail only on histories", "anchors": ["petrofit/modeling/models.py:get_default_sersic_bounds", "petrofit/modeling/models.py:get_default_gen_sersic_bounds"]}
{"id": "C48", "title": "model_to_image samples the requested pixel rectangle", "statement": "model_to_image(model, (nx, ny), center) has shape (ny, nx) and pixel [j, i] is the model at (x0+i, y0+j) with origin 0 without center, and center - floor(size/2) otherwise; a single whole number means a square; non-whole, wrongly typed or wrongly long sizes are rejected.", "quantifier": "every model, size and centre", "why_tests_cant": "all sizes, parities and centres", "anchors": ["petrofit/modeling/fitting.py:model_to_image", "petrofit/modeling/fitting.py:model_center_to_image_origin", "petrofit/modeling/fitting.py:_validate_image_size"]}
{"id": "C49", "title": "fit_model hands exactly the non-NaN pixels to the fitter", "statement": "The fitter receives every non-NaN pixel once, in row-major order, with its x (column), y (row), value and weight; NaN pixels have no influence on the fit; weights of another shape raise AssertionError. The second returned value is the fitter class that was passed in, so it carries no fit information.", "quantifier": "every image, weight array and fitter", "why_tests_cant": "non-interference over all images", "anchors": ["petrofit/modeling/fitting.py:fit_model"]}
{"id": "C50", "title": "plot_fit residual is data minus model pixel by pixel", "statement": "model_image and residual_image have the shape of the input image and residual[j,i] = image[j,i] - model(x0+i, y0+j), also when the image is given as a CCDData or Cutout2D.", "quantifier": "every image shape and model", "why_tests_cant": "all shapes including non-square", "anchors": ["petrofit/modeling/fitting.py:plot_fit"]}
{"id": "C51", "title": "segm_mask selects exactly the requested labels", "statement": "segm_mask(source, segm, mask_background) is True at a pixel iff its label is one of the requested labels, or the label is 0 and mask_background is False. Other source types raise TypeError.", "quantifier": "every segmentation image, label or list of labels", "why_tests_cant": "all label maps", "anchors": ["petrofit/segmentation.py:segm_mask"]}
{"id": "C52", "title": "segm_mask alters a list argument, so later calls can differ", "statement": "A call with a list and mask_background=False appends 0 to the caller's list; a later call with the same list object and mask_background=True therefore still includes the background. With int or catalog arguments, or mask_background=True, the argument is unchanged and results do not depend on earlier calls.", "quantifier": "every history of calls sharing a list", "why_tests_cant": "history dependence", "anchors": ["petrofit/segmentation.py:segm_mask"]}
{"id": "C53", "title": "masked_segm_image keeps selected pixels and fills the rest without touching the input", "statement": "The returned image equals the input at selected pixels and fill (NaN by default) elsewhere, has the same shape, and the caller's image is unchanged.", "quantifier": "every image, segmentation and fill", "why_tests_cant": "all images", "anchors": ["petrofit/segmentation.py:masked_segm_image"]}
{"id": "C54", "title": "source_photometry centres its apertures on the source's peak pixel", "statement": "Whatever the source position (also near or beyond borders) and requested cutout size, the cutout is square with even side, the source's peak pixel is at index (side/2, side/2), which is exactly the aperture centre, pixels outside the image are NaN and hence unused; the default side is at least 3 times the largest radius.", "quantifier": "every position, cutout size and list of radii", "why_tests_cant": "all parities and border positions", "anchors": ["petrofit/segmentation.py:source_photometry"]}
{"id": "C55", "title": "order_cat is a permutation sorted by the key", "statement": "order_cat returns every catalog index once; along the result the key is non-increasing with reverse=True (default) and non-decreasing otherwise, NaN counting as the largest key (so undefined keys come first by default). An unknown key raises KeyError.", "quantifier": "every catalog and every sorting permutation the argsort may return", "why_tests_cant": "all catalogs", "anchors": ["petrofit/segmentation.py:order_cat"]}
{"id": "C56", "title": "source_photometry never alters the caller's image and uses only the source's pixels and background", "statement": "Pixels of other sources have no influence on the returned fluxes and areas when bg_sub is False; with mask_background=True background pixels have none either; the image, error and segmentation arguments are unchanged.", "quantifier": "every image and segmentation map", "why_tests_cant": "non-interference over pairs of images", "anchors": ["petrofit/segmentation.py:source_photometry"]}
{"id": "C57", "title": "make_radius_list misses its end point in binary64", "statement": "In IEEE double precision the last entry n*max_pix/n of make_radius_list(max_pix, n) is not always max_pix: there are max_pix and n (e.g. 3.9 and 33) for which it differs.", "quantifier": "existential statement about binary64; C03 holds for exact arithmetic", "why_tests_cant": "rounding-sensitive equality; the tests use integer sizes", "anchors": ["petrofit/utils.py:make_radius_list"]}
{"id": "C58", "title": "closest_value_index monotonicity fails in binary64 through rounding ties", "statement": "In IEEE double precision there are an array and two levels v1 < v2 for which closest_value_index(growing=True) returns a smaller index for the higher level, because two different distances round to the same number.", "quantifier": "existential statement about binary64; C02 holds for exact arithmetic", "why_tests_cant": "needs operands many orders of magnitude apart", "anchors": ["petrofit/utils.py:closest_value_index"]}
{"id": "C59", "title": "Integer areas and error arrays cannot be combined", "statement": "calculate_petrosian with an integer area array and any error array always raises: ValueError (NaN does not fit in the integer error array) when the input is otherwise valid, AssertionError otherwise.", "quantifier": "every integer area list, flux list and error arrays", "why_tests_cant": "tests only pass float areas", "anchors": ["petrofit/petrosian/core.py:calculate_petrosian"]}
{"id": "C60", "title": "Giving flux errors can turn a valid radius into an exception", "statement": "If fraction_to_r finds a radius without flux_err, then giving flux_err either returns the same radius or raises; it raises ValueError whenever r_petrosian*epsilon +- r_petrosian_err leaves the range of r_list.", "quantifier": "every curve of growth, error array and radius error", "why_tests_cant": "needs a Petrosian radius close to the edge of the data; not tested", "anchors": ["petrofit/petrosian/core.py:fraction_to_r"]}
{"id": "C61", "title": "Petrosian works on copies but its getters hand out the internal arrays", "statement": "calculate_petrosian_r writes only arrays it allocated itself; a Petrosian object refers only to arrays allocated by its constructor, so later changes to the caller's arrays never change any property; the getters r_list, area_list and flux_list return the internal arrays, and writing through them changes r_petrosian.", "quantifier": "every memory state, every later modification of arrays that existed before construction", "why_tests_cant": "aliasing over all memory states", "anchors": ["petrofit/petrosian/core.py:calculate_petrosian_r", "petrofit/petrosian/core.py:Petrosian"]}
{"id": "C62", "title": "unique_grid_values and filter_grid", "statement": "unique_grid_values(key) is strictly increasing and contains exactly the values of the column; filter_grid(key, value) keeps, in order and unchanged, exactly the rows whose entry under key equals value, and an unknown key raises KeyError.", "quantifier": "every table, key and value", "why_tests_cant": "quantifies over all tables", "anchors": ["petrofit/petrosian/correction.py:PetrosianCorrection.unique_grid_values", "petrofit/petrosian/correction.py:PetrosianCorrection.filter_grid"]}
{"id": "C63", "title": "A generated grid recognises its own galaxies", "statement": "Each generated row records, under p02, u_r_50 and u_c2080, exactly the three numbers that PetrosianCorrection measures on the Petrosian object of the simulated galaxy, and under n and r_eff the inputs; so a correction built from a generated grid returns, for the galaxy simulated for row (n, r_eff), a row with the same three numbers, and the rounded n itself when no earlier row has the same three numbers.", "quantifier": "every list of n and r_eff, every simulation outcome, every interpolation method, every grid whose three columns are finite and not constant", "why_tests_cant": "composition of grid generation and lookup over all inputs; generation takes hours in practice", "anchors": ["petrofit/petrosian/correction.py:_generate_petrosian_correction", "petrofit/petrosian/correction.py:PetrosianCorrection"]}
{"id": "C64", "title": "CoreSersic2D divides radii by r_eff twice", "statement": "CoreSersic2D at elliptical radius d > 0 is the core-Sersic law (Graham et al.) at radius d/r_eff, because r is already in units of r_eff while r_break and the law's r_eff are in pixels; thus amplitude, which the law takes at r_break, is taken at elliptical radius r_break*r_eff; it is NaN at the centre.", "quantifier": "every parameter set with positive r_eff, r_break, n, alpha, ellip < 1, and every point", "why_tests_cant": "the identity holds over continuous parameters; with r_eff = 1 (the default) the two radii agree, so the usual test cannot see it", "anchors": ["petrofit/modeling/models.py:CoreSersic2D"]}
{"id": "C65", "title": "PetroApprox estimates preserve order", "statement": "u2080_to_c2080 is strictly increasing for u >= 1 with values >= 1, c2080_to_n for c >= 0, n_to_epsilon for n >= 0 (values above 0.9) and p0502_to_epsilon for p >= 0.2; so a more concentrated source never gets a smaller index estimate. Below u = 1 the first is not monotone, and c2080_to_n(1) is negative.", "quantifier": "every real argument in the stated ranges", "why_tests_cant": "monotonicity over continuous ranges", "anchors": ["petrofit/modeling/models.py:PetroApprox"]}
{"id": "C66", "title": "model_to_image rejects some fractional centres in floating point", "statement": "In exact arithmetic every finite centre gives an image, but in binary64 model_to_image(model, 5, center=(5.2, 5.2)) raises ValueError for every model and mode, because (x0 + 5) - x0 is not whole; (5.5, 5.5) works.", "quantifier": "every model, mode and factor; every size and centre for the exact statement", "why_tests_cant": "quantifies over all models; the failing centres look like any other", "anchors": ["petrofit/modeling/fitting.py:model_to_image", "petrofit/modeling/fitting.py:model_center_to_image_origin"]}
{"id": "C67", "title": "Sampling modes of model_to_image", "statement": "linear_interp gives the mean of the model at the four pixel corners, oversample the mean over factor x factor evenly spaced points of the pixel; center, linear_interp and oversample all reproduce an affine model exactly at the pixel centres. An unknown mode raises ValueError, factor 0 ZeroDivisionError and a negative factor ValueError.", "quantifier": "every elementwise model, size >= 0, centre and factor >= 1", "why_tests_cant": "all models, sizes and factors", "anchors": ["petrofit/modeling/fitting.py:model_to_image"]}
{"id": "C68", "title": "fit_background passes clipped pixels on", "statement": "With a sigma, the fitter receives every non-NaN pixel, clipped or not; clipping is visible only as the mask of the value array. A fitter that does not look at the mask gives the same fit as without clipping; sigma=None is fit_model.", "quantifier": "every image, sigma, clipping rule and fitter", "why_tests_cant": "quantifies over all fitters and clipping outcomes", "anchors": ["petrofit/modeling/fitting.py:fit_background"]}
{"id": "C69", "title": "fit_gaussian2d starting point", "statement": "The fit starts at the pixel (nx//2, ny//2) with the image maximum as amplitude; one NaN pixel anywhere makes the starting amplitude NaN although fit_model drops NaN pixels; an empty image raises ValueError.", "quantifier": "every image and fitter", "why_tests_cant": "all images", "anchors": ["petrofit/modeling/fitting.py:fit_gaussian2d"]}
{"id": "C70", "title": "measure_fwhm: default call never returns; meaning of the result", "statement": "With plot=True (the default) measure_fwhm raises AttributeError whenever plot=False would return. With plot=False the fitted Gaussian is half its peak at plus and minus half the returned widths along its own two axes; for a Gaussian turned by 90 degrees with different widths the first number is not the width in x.", "quantifier": "every image, fitter and fitted Gaussian", "why_tests_cant": "the identity is over continuous parameters", "anchors": ["petrofit/modeling/fitting.py:measure_fwhm"]}
{"id": "C71", "title": "get_amplitude_at_r returns the isophote's intensity or NaN", "statement": "For every number r get_amplitude_at_r returns iso.intens when the isophote fit succeeds and NaN when anything inside the try block raises; no exception escapes. The isophote is the one fitted at semi-major axis float(r) to the image (to its data if it is a CCDData or Cutout2D), starting from the geometry (x0, y0, 1, ellip, theta).", "quantifier": "every number r and every behaviour of the isophote fitter", "why_tests_cant": "all failures of a library fit", "anchors": ["petrofit/segmentation.py:get_amplitude_at_r"]}
{"id": "C72", "title": "The default cutout of source_photometry contains the largest circle, except for radii in (1/2, 2/3]", "statement": "With cutout_size=None and largest radius R > 0, the disc of radius R around the source's pixel lies within the cutout iff R <= 1/2 or R > 2/3; for 1/2 < R <= 2/3 the side is 2 and the aperture is cut off.", "quantifier": "every list of finite radii with positive maximum", "why_tests_cant": "boundary of a ceil expression over the reals", "anchors": ["petrofit/segmentation.py:source_photometry"]}
{"id": "C73", "title": "make_catalog catalogs the deblended map iff deblend", "statement": "make_catalog returns (catalog, segm, segm_deblend) where segm comes from detection, segm_deblend from deblending segm (None if deblend=False), and the catalog is built from segm_deblend iff deblend; exceptions of the three stages pass through.", "quantifier": "every detection, deblending and catalog function", "why_tests_cant": "stages are arbitrary", "anchors": ["petrofit/segmentation.py:make_catalog"]}
{"id": "C74", "title": "Background subtraction in source_photometry", "statement": "With bg_sub=True and at most 10 non-NaN background pixels in the cutout the result is that of bg_sub=False, whatever sigma_type. Otherwise: 'clip' fits the plane to the sigma-clipped background pixels and subtracts it; 'bound' fits only the background pixels within mean +- sigma std, subtracts, and replaces values below -sigma (in image units) by -sigma; any other sigma_type raises TypeError.", "quantifier": "every image, segmentation, fitter and clipping function", "why_tests_cant": "all fitters and images", "anchors": ["petrofit/segmentation.py:source_photometry"]}
{"id": "C75", "title": "Inputs source_photometry rejects", "statement": "Catalog rows (as opposed to SourceCatalog entries) never succeed, though the getters accept them: TypeError. Integer images raise ValueError, as do positions whose cutout misses the image.", "quantifier": "every catalog row, image and option", "why_tests_cant": "all options", "anchors": ["petrofit/segmentation.py:source_photometry", "petrofit/segmentation.py:get_source_position"]}
{"id": "C76", "title": "method='center' counts exactly the pixels whose centres are strictly inside the ellipse", "statement": "With method='center' a pixel has weight 1 if its centre is strictly inside the aperture ellipse (semi-axes r and r/elong, rotated by theta, centred at the position) and 0 otherwise; whenever some unmasked pixel of the image is inside, the flux, area and error are 6-decimal roundings of plain sums over those pixels.", "quantifier": "every image, position, rotation, elongation, radius and mask", "why_tests_cant": "continuous parameters", "anchors": ["petrofit/photometry.py:radial_elliptical_aperture", "petrofit/photometry.py:radial_photometry"]}
{"id": "C77", "title": "source_photometry sums the caller's own pixels", "statement": "source_photometry without background subtraction and method='center': entry i of the flux (area) array is the 6-decimal rounding of the sum of the original image's values (the number of pixels) over the pixels that carry the source's label (or background when mask_background=False), lie strictly inside the ellipse of radius r_i around the source's rounded centroid and lie within the cutout square; with cutout_size=None and elongation >= 1 the square never removes a pixel.", "quantifier": "every image, segmentation map, catalog entry inside the image, list of positive radii", "why_tests_cant": "index shifts between image and cutout over all positions and sizes", "anchors": ["petrofit/segmentation.py:source_photometry"]}
{"id": "C78", "title": "Meaning of every column of the correction grid", "statement": "For every generated row: the sersic_* entries come from the input model; p02..p05 are the Petrosian radii of the simulated image for eta 0.2..0.5; u_* entries are what Petrosian(..., epsilon=2) measures; c_epsilon is the radius at which the linearly interpolated curve of growth (over distinct fluxes) reaches 99% of the total flux divided by p02; c_* entries are what a fresh Petrosian with epsilon=c_epsilon measures.", "quantifier": "every interpolator, model, simulation, r_eff and n", "why_tests_cant": "all simulations", "anchors": ["petrofit/petrosian/correction.py:_generate_petrosian_correction"]}
{"id": "C79", "title": "Petrosian.plot draws the measured profile and the Petrosian radius", "statement": "plot() on an object draws the profile (radii, petrosian_list, errors) as error bars, a horizontal line at 0, and with plot_r=True lines at eta and at r_petrosian and a point (with r_petrosian_err as bar when that is not NaN) exactly when r_petrosian is not NaN; a shaded band appears iff err_alpha is a positive number and errors exist; the x axis label is empty when radius_unit is empty or None. Everything is drawn on the passed axes except the tick frame, which always goes to the current axes. plot() raises ValueError iff plot_r and r_petrosian_err is negative (which happens), and otherwise succeeds whenever r_petrosian can be computed.", "quantifier": "every object and option", "why_tests_cant": "all curves of growth and settings; negative error bars need special curves", "anchors": ["petrofit/petrosian/core.py:Petrosian.plot"]}
{"id": "C80", "title": "Petrosian.plot_cog draws the curve of growth and the two radii", "statement": "plot_cog draws (radii, fluxes, flux_err); with plot_r=True lines through (r_half_light, half_flux) and (r_total_flux, total_flux) exactly when both coordinates are not NaN. With err_alpha > 0 and only area_err given (no flux_err) it raises TypeError; with a negative flux error ValueError before drawing anything; otherwise it succeeds.", "quantifier": "every object and option", "why_tests_cant": "combinations of optional arrays over all curves", "anchors": ["petrofit/petrosian/core.py:Petrosian.plot_cog"]}
{"id": "C81", "title": "Percentage in the total-flux label; radii drawn by plot_radii helper", "statement": "The label of the total-flux radius shows floor(100 total_flux_fraction) in exact arithmetic. In binary64, for fractions k/100 with k in 1..99 it shows k except for 29, 57 and 58, where it shows k-1. The radius lines drawn are exactly those of r_petrosian, r_total_flux and r_half_light that are not NaN.", "quantifier": "every object; every whole percentage", "why_tests_cant": "all curves of growth", "anchors": ["petrofit/petrosian/core.py:Petrosian._plot_radii", "petrofit/petrosian/core.py:Petrosian.plot_cog"]}
{"id": "C82", "title": "Petrosian.imshow outlines the four radii", "statement": "imshow draws on the current axes the position and one ellipse per radius among r_half_light, r_total_flux, r_20 and r_80 that is positive and not NaN, with semi-axes r and r/elong and the given rotation; for elong > 0 and computable radii it never raises.", "quantifier": "every object, position, elongation and rotation", "why_tests_cant": "all curves of growth", "anchors": ["petrofit/petrosian/core.py:Petrosian.imshow"]}
{"id": "C83", "title": "PetrosianCorrection.plot_correction connects the source to its grid row", "statement": "plot_correction draws, on three axes (given, or new ones), the three pairwise projections of the grid columns p02, u_r_50, u_c2080 coloured by the requested column from 0, the measured point, and the segment from it to the nearest row; that row is the one corrections use whenever the range check passes, but plot_correction itself ignores the range check. A wrong number of axes raises AssertionError and an unknown column KeyError, before anything is drawn when axes are given.", "quantifier": "every grid, source, column and canvas", "why_tests_cant": "all grids and measurements", "anchors": ["petrofit/petrosian/correction.py:PetrosianCorrection.plot_correction", "petrofit/petrosian/correction.py:PetrosianCorrection._plot_grid"]}
{"id": "C84", "title": "plot_segment_residual blanks exactly the labelled pixels", "statement": "plot_segment_residual shows the image with labelled pixels set to 0 and all others unchanged; a labelled pixel outside the image raises IndexError and draws nothing. plot_segments draws image (if given), labels, title (if given) and axis labels.", "quantifier": "every segmentation map and image, of equal or different shape", "why_tests_cant": "all shapes and maps", "anchors": ["petrofit/segmentation.py:plot_segment_residual", "petrofit/segmentation.py:plot_segments"]}
{"id": "C85", "title": "plot_apertures draws each aperture once", "statement": "plot_apertures(image, apertures) draws the image if given, then one outline per aperture in order, then the title; with apertures=None (its default) it raises TypeError after drawing the image.", "quantifier": "every image and aperture list", "why_tests_cant": "all lists", "anchors": ["petrofit/photometry.py:plot_apertures"]}
{"id": "C86", "title": "plot_target centres the view on the target", "statement": "plot_target shows the image with a marker at the position and axis ranges centred on the position, of the requested size, or of the longer image side when no size is given.", "quantifier": "every image, position and size", "why_tests_cant": "continuous positions", "anchors": ["petrofit/utils.py:plot_target"]}
{"id": "C87", "title": "Correction grids survive a round trip through a file", "statement": "write to a new name followed by read gives a correction object with the same grid that corrects every source identically and estimates the same n, and leaves other files alone; read always turns the range check on, even if it was off when written. Writing to an existing name raises and keeps the file; reading a missing one raises.", "quantifier": "every grid, file system and source", "why_tests_cant": "all grids and sources", "anchors": ["petrofit/petrosian/correction.py:PetrosianCorrection.write", "petrofit/petrosian/correction.py:PetrosianCorrection.read"]}
{"id": "C88", "title": "radial_photometry(plot=True) measures the same", "statement": "radial_photometry with plot=True returns (or raises) what plot=False does, for every input; it draws the image and one outline per radius measured before the first failing one. The default upper limit is ten times the mean of the image, and NaN as soon as one pixel is NaN.", "quantifier": "every image, error, mask, radii list and overlap rule", "why_tests_cant": "all inputs and failures", "anchors": ["petrofit/photometry.py:radial_photometry"]}
{"id": "C89", "title": "source_photometry(plot=True) measures the same, except for an empty radius list", "statement": "For a non-empty r_list source_photometry with plot=True returns, raises and leaves in the caller's arrays what plot=False does, and draws the curve of growth (r_list against the returned fluxes), a line per radius and one ellipse per radius on new axes only, with the middle row and the middle column of the cutout it shows plotted against the pixel index and marked at the centre and the centre plus and minus the largest radius. With an empty list, whenever plot=False returns (three empty arrays), plot=True raises ValueError.", "quantifier": "every image, segmentation, source, option, fitter", "why_tests_cant": "all inputs", "anchors": ["petrofit/segmentation.py:source_photometry"]}
{"id": "C90", "title": "make_catalog(plot=True) returns the same catalog", "statement": "plot=False draws nothing; plot=True gives the same result (or exception), provided deblending a missing map never yields a map, and draws the segmentation map and, when deblending, the deblended map, each on its own new axes over the image.", "quantifier": "every detection, deblending and catalog function", "why_tests_cant": "stages are arbitrary", "anchors": ["petrofit/segmentation.py:make_catalog"]}
{"id": "C91", "title": "plot_fit shows image, model and residual on one scale", "statement": "plot_fit raises what model_to_image raises without drawing; otherwise it returns the model image and image minus model, and draws image, model and residual, in this order on three new axes, all with the same limits: vmax if given, else three times the larger of the standard deviations of the non-NaN image and model pixels, and vmin if given, else -vmax. The axes are titled Data, Model and Residual; all have the x label Pixels, the first also the y label Pixels. Each gets the tick frame with minor ticks.", "quantifier": "every model, image, mode, centre and limits", "why_tests_cant": "all models and images", "anchors": ["petrofit/modeling/fitting.py:plot_fit"]}
{"id": "C92", "title": "Radii in arcsec are the pixel radii times the pixel scale", "statement": "r_half_light_arcsec(wcs) and r_total_flux_arcsec(wcs) raise what reading the radius raises; a NaN radius gives NaN for any wcs, even one with oblong pixels; a finite radius gives radius times the pixel scale in arcsec, which angular_to_pixel turns back into the radius; with pixel scales that differ by more than the tolerance they raise AssertionError.", "quantifier": "every Petrosian object, interpolation and wcs", "why_tests_cant": "continuous radii and scales", "anchors": ["petrofit/petrosian/core.py:Petrosian.r_half_light_arcsec", "petrofit/petrosian/core.py:Petrosian.r_total_flux_arcsec"]}
{"id": "C93", "title": "Source getters agree between a catalog entry and its table row", "statement": "get_source_position, get_source_elong, get_source_ellip and get_source_theta give the same position, elongation, ellipticity and orientation in radians (degrees times pi/180, whatever the unit of the column) for a catalog entry and for a table row with these columns. A row without the column raises KeyError; a label raises TypeError.", "quantifier": "every source, unit and table row", "why_tests_cant": "continuous angles, all tables", "anchors": ["petrofit/segmentation.py:get_source_position", "petrofit/segmentation.py:get_source_elong", "petrofit/segmentation.py:get_source_ellip", "petrofit/segmentation.py:get_source_theta"]}
{"id": "C94", "title": "make_catalog passes its arguments to the right stage", "statement": "make_catalog calls detection with the bare array, threshold and npixels; deblending (only if asked) with its result, npixels, nlevels and contrast; and builds the catalog from the deblended map if deblending, else from the segmentation, with the wcs. The error of the first failing stage is raised. CCDData and Cutout2D give what their data give.", "quantifier": "every detection, deblending and catalog function and all arguments", "why_tests_cant": "stages are arbitrary", "anchors": ["petrofit/segmentation.py:make_catalog", "petrofit/segmentation.py:make_segments", "petrofit/segmentation.py:deblend_segments"]}
{"id": "C95", "title": "The one-line Sersic models use their documented law and defaults", "statement": "sersic_enclosed_model and petrosian_model, with any parameters left at their defaults (amplitude 1000, r_eff 30, n 2, ellip 0; r_eff 1, n 4), give the enclosed flux of the Sersic law (derivative 2 pi r (1-ellip) I(r), half of the total at r_eff) and the ratio of local to mean intensity.", "quantifier": "every parameter value and radius", "why_tests_cant": "continuous parameters", "anchors": ["petrofit/modeling/models.py:sersic_enclosed_model", "petrofit/modeling/models.py:petrosian_model"]}
{"id": "C96", "title": "The computed Petrosian profile of an ideal Sersic galaxy brackets the true one", "statement": "For radii increasing from a positive first one, ellipse areas and the enclosed fluxes of a Sersic profile, calculate_petrosian returns, at every radius after the first, a value above petrosian_profile at this radius, below 1, and below petrosian_profile times exp(b_n ((r_i/r_eff)^(1/n) - (r_(i-1)/r_eff)^(1/n))).", "quantifier": "every Sersic profile and radii list", "why_tests_cant": "continuous family of profiles and samplings", "anchors": ["petrofit/petrosian/core.py:calculate_petrosian", "petrofit/modeling/models.py:petrosian_profile", "petrofit/modeling/models.py:sersic_enclosed"]}
{"id": "C97", "title": "r_petrosian converges to the true Petrosian radius", "statement": "For a Sersic profile whose petrosian_profile equals eta at radius R, and any eps > 0, there is a step d such that every curve of growth of this profile with steps below d reaching R + eps gives, in a Petrosian object, an r_petrosian within eps of R, without interpolation or with any interpolation that stays between neighbouring samples on a grid finer than d.", "quantifier": "every Sersic profile, eta, tolerance, sufficiently fine radii list and non-overshooting interpolation", "why_tests_cant": "a limit statement", "anchors": ["petrofit/petrosian/core.py:Petrosian.r_petrosian", "petrofit/petrosian/core.py:calculate_petrosian_r", "petrofit/modeling/models.py:petrosian_profile"]}
{"id": "C98", "title": "Half-light, total-flux and fraction radii converge", "statement": "In the setting of C97, with interpolation, r_half_light, r_total_flux and fraction_flux_to_r(f) come within eps of the radius enclosing f / epsilon_fraction of the Sersic flux within epsilon times the true Petrosian radius, once the steps are fine enough and the radii reach eps beyond all of these radii.", "quantifier": "every Sersic profile, settings, share, tolerance, fine radii list and non-overshooting interpolation", "why_tests_cant": "a limit statement", "anchors": ["petrofit/petrosian/core.py:Petrosian.r_half_light", "petrofit/petrosian/core.py:Petrosian.r_total_flux", "petrofit/petrosian/core.py:Petrosian.fraction_flux_to_r", "petrofit/petrosian/core.py:fraction_to_r"]}
{"id": "C99", "title": "Fluxes and concentration indices converge", "statement": "In the setting of C98, total_flux and half_flux come within eps of the Sersic flux within the true radius, and concentration_index(f1, f2), c2080 and c5090 within eps of the two true radii and of 5 log10 of their ratio.", "quantifier": "every Sersic profile, settings, shares, tolerance, fine radii list and non-overshooting interpolation", "why_tests_cant": "a limit statement", "anchors": ["petrofit/petrosian/core.py:Petrosian.total_flux", "petrofit/petrosian/core.py:Petrosian.half_flux", "petrofit/petrosian/core.py:Petrosian.concentration_index", "petrofit/petrosian/core.py:Petrosian.c2080", "petrofit/petrosian/core.py:Petrosian.c5090"]}
{"id": "C100", "title": "A residual background raises the Petrosian profile and never shrinks r_petrosian", "statement": "If every pixel value is b >= 0 too high, so that the flux within area A_i becomes L_i + b A_i, calculate_petrosian returns (local + b)/(mean + b) at every radius after the first, which is not below the clean value wherever the local surface brightness is not above the mean one. If the raised profile decreases from below 1, r_petrosian found with the background, without interpolation or with linear interpolation, is never smaller than the clean r_petrosian, which is then found too.", "quantifier": "every radii list, areas, fluxes, background, eta and sampling", "why_tests_cant": "continuous profiles and backgrounds", "anchors": ["petrofit/petrosian/core.py:calculate_petrosian", "petrofit/petrosian/core.py:calculate_petrosian_r", "petrofit/petrosian/core.py:Petrosian.r_petrosian"]}
{"id": "C101", "title": "A residual background does not shrink the half-light and total-flux radii beyond one grid step", "statement": "In the setting of C100 with linear interpolation and strictly growing clean fluxes, any r_half_light, r_total_flux or fraction_flux_to_r(f) found with the background is at least the clean value minus one step of the search grid, (last radius - first radius)/(num - 1), as long as epsilon times the clean r_petrosian is not below the first radius.", "quantifier": "every radii list, areas, fluxes, background, settings and share", "why_tests_cant": "continuous profiles and backgrounds", "anchors": ["petrofit/petrosian/core.py:fraction_to_r", "petrofit/petrosian/core.py:Petrosian.r_half_light", "petrofit/petrosian/core.py:Petrosian.r_total_flux", "petrofit/petrosian/core.py:Petrosian.fraction_flux_to_r"]}
{"id": "C102", "title": "A change of the unit of length multiplies radii and leaves fluxes and concentrations", "statement": "Radii given in a unit c > 0 times smaller, with areas (and their errors) multiplied by any k > 0, give a Petrosian object (or the same exception) whose radii and radius errors are multiplied by c, including those in concentration_index, and whose profile, fluxes, settings and concentration indices are unchanged; on square pixels c times smaller the radii in arcsec are unchanged.", "quantifier": "every input data (NaN and infinities included), settings, factors and interpolation commuting with stretching", "why_tests_cant": "continuous factors", "anchors": ["petrofit/petrosian/core.py:Petrosian", "petrofit/petrosian/core.py:calculate_petrosian_r", "petrofit/petrosian/core.py:fraction_to_r", "petrofit/petrosian/core.py:Petrosian.concentration_index", "petrofit/petrosian/core.py:Petrosian.r_half_light_arcsec"]}
{"id": "C103", "title": "Small flux errors do not change measured radii", "statement": "Errors of at most d in every flux change calculate_petrosian at radius i by at most A_i/(A_i - A_(i-1)) * 2d/(L_i - d). If the sample reported for eta is reported without a tie, there is d > 0 such that every flux list within d gives exactly the same r_petrosian; likewise for r_half_light, r_total_flux and fraction_flux_to_r.", "quantifier": "every radii list, areas, fluxes, error pattern and interpolation with bounded response", "why_tests_cant": "continuum of error patterns", "anchors": ["petrofit/petrosian/core.py:calculate_petrosian", "petrofit/petrosian/core.py:calculate_petrosian_r", "petrofit/petrosian/core.py:fraction_to_r", "petrofit/petrosian/core.py:Petrosian.r_petrosian"]}
{"id": "C104", "title": "Photometry follows a transposed or mirrored image", "statement": "radial_photometry of the transposed image (error and mask transposed too, x and y exchanged, theta replaced by pi/2 - theta) and of the image mirrored left-right or top-bottom (x replaced by nx - 1 - x or y by ny - 1 - y, theta negated) returns or raises exactly what it does for the original, for every overlap rule with these symmetries; the 'center' rule has them.", "quantifier": "every image (NaN, infinities included), error, mask of any shape, position, radii list, elongation and angle", "why_tests_cant": "all images and continuous geometry", "anchors": ["petrofit/photometry.py:radial_photometry", "petrofit/photometry.py:radial_elliptical_aperture"]}
{"id": "C105", "title": "Cropping away unused pixels does not change photometry", "statement": "With method 'center', cutting image, error and mask to a window that contains the centre and every selected pixel inside the apertures, and shifting the position accordingly, leaves fluxes, areas and errors of radial_photometry the same.", "quantifier": "every image, window, position, radii list, elongation, angle, error and mask", "why_tests_cant": "all images and windows", "anchors": ["petrofit/photometry.py:radial_photometry"]}
{"id": "C106", "title": "theta counts modulo half a turn and not at all for circles", "statement": "With method 'center', radial_photometry gives the same for theta and theta + pi, and for elong = 1 the same for every theta.", "quantifier": "every image, position, radii list, error, mask and angle", "why_tests_cant": "continuous angles", "anchors": ["petrofit/photometry.py:radial_photometry", "petrofit/photometry.py:radial_elliptical_aperture"]}
{"id": "C107", "title": "The 'exact' weight of a pixel is the area of the ellipse on it", "statement": "With method 'exact' (the default) the weight of every pixel is a number in [0, 1] equal to the area of the part of the aperture's ellipse on that pixel: the integral over the pixel's width of the lengths of the intervals of points of the ellipse in the pixel. This number is unique.", "quantifier": "every aperture with positive axes, any position and angle, image size and pixel", "why_tests_cant": "continuous geometry", "anchors": ["petrofit/photometry.py:radial_photometry", "petrofit/photometry.py:radial_elliptical_aperture"]}
{"id": "C108", "title": "The measured area of an aperture on the image is that of the ellipse", "statement": "With method 'exact' and no mask, if the ellipse of semi-axes r and r/elong lies on the image, radial_photometry returns the area pi*r*r/elong rounded to 6 decimals, and a flux that, before rounding, lies between the smallest and the largest pixel value times this area (so for a constant image it is the constant times the area).", "quantifier": "every finite image, position, radius, elongation and angle with the ellipse on the image", "why_tests_cant": "continuous geometry and images", "anchors": ["petrofit/photometry.py:radial_photometry", "petrofit/photometry.py:radial_elliptical_aperture"]}
{"id": "C109", "title": "Exact areas never exceed the ellipse, and exact and subpixel curves of growth are monotone", "statement": "With method 'exact' the area returned for any aperture, over the edge or masked, is before rounding at least 0 and at most pi*r*r/elong. For an image without negative values and growing radii, the fluxes and areas with method 'exact' or 'subpixel' never decrease and are never negative.", "quantifier": "every image, mask, position, radii list, elongation, angle and number of subpixels", "why_tests_cant": "continuous geometry", "anchors": ["petrofit/photometry.py:radial_photometry"]}
{"id": "C110", "title": "'exact' and 'subpixel' photometry follow turned, mirrored and cropped images", "statement": "The weights of methods 'exact' and 'subpixel' follow transposition and both mirror images, so C104 holds for all three methods. With 'exact', theta counts modulo half a turn and not at all for elong = 1, and cropping image, error and mask to a window that contains the centre and every selected pixel met by an aperture changes nothing.", "quantifier": "every image, error, mask, position, radii list, elongation, angle, window and number of subpixels", "why_tests_cant": "continuous geometry", "anchors": ["petrofit/photometry.py:radial_photometry", "petrofit/photometry.py:radial_elliptical_aperture"]}
{"id": "C111", "title": "The 'subpixel' weight counts subpixel centres; one subpixel is 'center'", "statement": "With s subpixels the weight of a pixel is n/s^2, where n of its s*s evenly spaced subpixel centres are strictly inside the ellipse; for s = 1 the weights are those of method 'center', as the docstring says.", "quantifier": "every aperture, image size, pixel and number of subpixels", "why_tests_cant": "continuous geometry", "anchors": ["petrofit/photometry.py:radial_photometry"]}
{"id": "C112", "title": "The method argument selects the overlap rule and other values are rejected", "statement": "radial_photometry with method 'exact', 'center' or 'subpixel' uses that rule (5 subpixels). Any other method raises as soon as there is a radius: ValueError, or ZeroDivisionError when elong is a Python float 0; with no radii it returns empty arrays.", "quantifier": "every string, image, radii list and geometry", "why_tests_cant": "all strings", "anchors": ["petrofit/photometry.py:radial_photometry"]}
{"id": "C113", "title": "Catalog matching returns the closest source on the sky", "statement": "match_catalogs(ra1, dec1, ra2, dec2, unit) returns, for every source of the first catalog, the index of a source of the second whose angular distance on the sphere is minimal, that distance, and the chord length 2 sin(distance/2). Matching a catalog of distinct directions with itself gives every source its own index and distance 0. The result depends only on the angles, not on their unit, and not on whole turns of right ascension. A declination outside [-90, 90] degrees, lists of lengths that do not broadcast, or an empty second catalog raise ValueError.", "quantifier": "every pair of catalogs, unit and exact nearest-neighbour search", "why_tests_cant": "continuous positions on the sphere", "anchors": ["petrofit/utils.py:match_catalogs"]}
{"id": "C114", "title": "Pixels rendered with mode 'integrate' are integrals and sum to the flux on the image", "statement": "model_to_image(..., mode='integrate') of a continuous model gives an image of the requested shape whose pixel (j, i) is the integral of the model over the unit square centred on (x0 + i, y0 + j), so the sum of all pixels is the integral of the model over the area of the image. Negative sizes raise ValueError.", "quantifier": "every continuous model, size, centre and exact integrator", "why_tests_cant": "continuous models", "anchors": ["petrofit/modeling/fitting.py:model_to_image"]}
{"id": "C115", "title": "The other rendering modes approximate the integral over a pixel", "statement": "If the model changes by at most L per pixel along each axis, pixels of modes 'center' and 'linear_interp' differ from those of 'integrate' by at most L, and those of 'oversample' with factor k by at most L/k. For affine models 'integrate' gives the value at the pixel centre, and its pixels lie between the bounds of the model on the pixel.", "quantifier": "every model with bounded slope, size, centre and oversampling factor", "why_tests_cant": "continuous models", "anchors": ["petrofit/modeling/fitting.py:model_to_image"]}
{"id": "C116", "title": "Photometry of an image showing a falling profile gives the flux of the profile", "statement": "If every pixel of an image shows a non-negative profile s that never rises with elliptical radius, up to a shift d of the radius, then radial_photometry with method 'exact' and apertures on the image gives fluxes that, before rounding, lie between the fluxes of the profile shifted by d inwards and outwards, and so differ from the flux of s within the aperture by at most 2 pi r/elong * d * s(0), plus the rounding to 6 decimals.", "quantifier": "every falling profile, image, position, elongation, angle, shift and radii list on the image", "why_tests_cant": "continuous geometry and images", "anchors": ["petrofit/photometry.py:radial_photometry"]}
{"id": "C117", "title": "Every rendering mode draws profiles well enough to measure their flux", "statement": "In each mode of model_to_image ('center', 'linear_interp', 'oversample', 'integrate') a pixel lies between any bounds of the model on that pixel. So for an image of a falling elliptical profile s, radial_photometry with method 'exact' and apertures on the image gives fluxes within 2 sqrt(2) pi r max(1, 1/elong) s(0) + 5e-7 of the flux of s within the aperture, whatever the mode, size, centre and angle.", "quantifier": "every continuous falling profile, mode, size, centre, angle, elongation and radii list on the image", "why_tests_cant": "continuous models and geometry", "anchors": ["petrofit/modeling/fitting.py:model_to_image", "petrofit/photometry.py:radial_photometry"]}
{"id": "C118", "title": "The curve of growth of a rendered Sersic galaxy is sersic_enclosed", "statement": "For an image of GenSersic2D with c_0 = 0 and ellipticity e in [0, 1) rendered by model_to_image in any mode, radial_photometry with the matching elongation and angle returns areas within 5e-7 of pi r^2 (1 - e) and fluxes within 2 sqrt(2) pi r A e^b + 5e-7 of sersic_enclosed(r), where b is the half-light constant of n.", "quantifier": "every amplitude, r_eff, n, e, angle, centre, size, mode and radii list on the image", "why_tests_cant": "continuous models and geometry", "anchors": ["petrofit/modeling/models.py:sersic_enclosed", "petrofit/modeling/fitting.py:model_to_image", "petrofit/photometry.py:radial_photometry"]}
{"id": "C119", "title": "The Petrosian radius measured on the image of a Sersic galaxy converges to the true one", "statement": "For every Sersic galaxy and eps there is a step such that for every list of radii with finer steps reaching eps beyond the true Petrosian radius rt there is a scale K0, such that for K >= K0: if the galaxy is rendered with r_eff and radii K times larger (in pixels), in any mode, at any centre and angle, with the largest aperture on the image, then Petrosian built from the radii, areas and fluxes of radial_photometry gives an r_petrosian with |r_petrosian/K - rt| < eps.", "quantifier": "every Sersic profile, eta, tolerance, fine radii list, scale, mode, centre, angle and non-overshooting interpolation", "why_tests_cant": "a limit statement over images of growing size", "anchors": ["petrofit/petrosian/core.py:Petrosian.r_petrosian", "petrofit/petrosian/core.py:calculate_petrosian_r", "petrofit/photometry.py:radial_photometry", "petrofit/modeling/fitting.py:model_to_image", "petrofit/modeling/models.py:petrosian_profile"]}
{"id": "C120", "title": "Half-light and total-flux radii measured on the image of a Sersic galaxy converge to the true ones", "statement": "For every Sersic galaxy, fraction and eps there is a step such that for every list of radii with finer steps reaching eps beyond the radii involved there is a scale K0, such that for K >= K0: if the galaxy is rendered with r_eff and radii K times larger (in pixels), in any mode, at any centre and angle, with the largest aperture on the image, then Petrosian built from the output of radial_photometry returns fraction radii (fraction_flux_to_r, r_half_light, r_total_flux) b with |b/K - r| < eps, r the true radius.", "quantifier": "every Sersic profile, eta, epsilon, fraction, tolerance, fine radii list, scale, mode, centre, angle and non-overshooting interpolation", "why_tests_cant": "a limit statement over images of growing size", "anchors": ["petrofit/petrosian/core.py:Petrosian.fraction_flux_to_r", "petrofit/petrosian/core.py:Petrosian.r_half_light", "petrofit/petrosian/core.py:Petrosian.r_total_flux", "petrofit/photometry.py:radial_photometry", "petrofit/modeling/fitting.py:model_to_image"]}
{"id": "C121", "title": "Fluxes and concentrations measured on the image of a Sersic galaxy converge to the true ones", "statement": "Under the same conditions total_flux and half-light flux divided by K^2 are within eps of sersic_enclosed at the true radius, and the concentration indices are within eps of 5 log10(r2/r1) of the true radii, with the two radii over K within eps of r1 and r2.", "quantifier": "every Sersic profile, eta, epsilon, fractions, tolerance, fine radii list, scale, mode, centre, angle and non-overshooting interpolation", "why_tests_cant": "a limit statement over images of growing size", "anchors": ["petrofit/petrosian/core.py:Petrosian.total_flux", "petrofit/petrosian/core.py:Petrosian.concentration_index", "petrofit/photometry.py:radial_photometry", "petrofit/modeling/fitting.py:model_to_image", "petrofit/modeling/models.py:sersic_enclosed"]}
{"id": "C122", "title": "The galaxies simulated for the correction grid are sampled Sersic profiles", "statement": "Without a PSF, the image simulated by _generate_petrosian_correction for image_size = 2h and centre (h, h) has 2h x 2h pixels, and pixel (j, i) is the mean of k x k samples on a regular grid of that pixel of the Sersic law with amplitude 100 / exp(b_n), round, centred on (h, h). Here k is 1 without oversampling, the factor for an integer oversample, and for a window ('x_0', 'y_0', s, f) f inside the s x s window around the centre and 1 outside. If the window does not fit on the image ValueError is raised.", "quantifier": "every r_eff > 0, n > 0, half size h > 0 and oversampling", "why_tests_cant": "continuous parameters and sizes", "anchors": ["petrofit/petrosian/correction.py:_generate_petrosian_correction", "petrofit/modeling/models.py:PSFConvolvedModel2D.evaluate", "petrofit/modeling/fitting.py:model_to_image"]}
{"id": "C123", "title": "Photometry of a simulated galaxy: accurate but for the largest aperture, which the image edge cuts", "statement": "Without a PSF, at the radii that _generate_petrosian_correction chooses, radial_photometry of the simulated image returns, for every radius r smaller than half the image size, a flux within 200 sqrt(2) pi r + 5e-7 of sersic_enclosed(r) and an area within 5e-7 of pi r^2. For the largest radius, equal to half the image size, the aperture leaves the image: the area is at most pi r^2 - 1/4 + 5e-7 and at least pi (r - 1/2)^2 - 5e-7, and the flux lies between that of r - 1/2 and that of r within the same errors.", "quantifier": "every r_eff > 0, n > 0, largest radius and oversampling that fits", "why_tests_cant": "continuous models and geometry", "anchors": ["petrofit/petrosian/correction.py:_generate_petrosian_correction", "petrofit/photometry.py:radial_photometry"]}
{"id": "C124", "title": "The reference values of a correction row, and galaxies too small for the default oversampling", "statement": "For every r_eff > 0 and n > 0 the total flux L of a row is positive and is sersic_enclosed(inf), and the radius computed for a fraction p < 1 of it is a radius whose enclosed flux is p L. With the default oversample = ('x_0', 'y_0', 10, 50) and no PSF, _generate_petrosian_correction raises ValueError whenever the largest radius it wants (50, 3 or 1.3 times the 99% radius, depending on n and r_eff) is below 4 pixels.", "quantifier": "every r_eff > 0, n > 0 and interpolation", "why_tests_cant": "continuous parameters", "anchors": ["petrofit/petrosian/correction.py:_generate_petrosian_correction", "petrofit/modeling/models.py:sersic_enclosed", "petrofit/modeling/models.py:sersic_enclosed_inv"]}
{"id": "C125", "title": "Noise-free images are fitted exactly", "statement": "With a fitter that returns a model of the family with the smallest weighted sum of squares whenever the sum can be 0: if the pixels of an image that are not NaN are the values of a member of the family at (column, row), and their weights are finite and not 0, then fit_model returns a model with the same values at all these pixels, and plot_fit of it gives a residual image that is 0 there and NaN at the NaN pixels. Fitting an image drawn by model_to_image (mode 'center', default centre) gives a model for which model_to_image draws the same image. fit_background with a least-squares plane fitter on an image whose numbers lie on a plane returns that plane, whatever sigma-clipping leaves out, if the remaining pixels are not all on a line.", "quantifier": "every model family, image, NaN pattern, weights, ideal fitter, sigma and clipping", "why_tests_cant": "an all-quantified statement over images and model families", "anchors": ["petrofit/modeling/fitting.py:fit_model", "petrofit/modeling/fitting.py:fit_background", "petrofit/modeling/fitting.py:plot_fit", "petrofit/modeling/fitting.py:model_to_image"]}
{"id": "C126", "title": "Background subtraction removes planes", "statement": "With a fitter that finds the least-squares plane (leaving out masked pixels or not), more than 10 background pixels, and unclipped background pixels not all on a line: if the background pixels (label 0) of an image are 0 or NaN, source_photometry(bg_sub=True) of the image plus any plane a x + b y + c returns exactly the fluxes, areas and errors of source_photometry(bg_sub=False) of the image. For any finite background, adding a plane changes nothing in the result of source_photometry(bg_sub=True), provided sigma-clipping selects the same pixels. With sigma_type 'bound' the first holds if no pixel of the source is below -sigma, the second for constants that shift the clipped mean and leave the clipped standard deviation.", "quantifier": "every image, segmentation, source, plane, radii list, cutout, error array and aperture method", "why_tests_cant": "an all-quantified metamorphic statement over images and planes", "anchors": ["petrofit/segmentation.py:source_photometry", "petrofit/modeling/fitting.py:fit_background", "petrofit/modeling/fitting.py:fit_model"]}
{"id": "C127", "title": "Error of a flux-fraction radius", "statement": "With flux errors given, the error returned with a radius enclosing a fraction of the flux is half the difference of two radii: the one at which the curve of growth lowered by its errors reaches the fractional flux plus e, and the one at which the raised curve reaches it minus e, where e is half the difference between the raised curve at r_epsilon + r_petrosian_err and the lowered curve at r_epsilon - r_petrosian_err, the same for all fractions. Both curves are resampled with a cubic interpolant at 5000 points, whatever interp_kind and interp_num are. No exception is raised if r_epsilon -/+ r_petrosian_err lies within the radii. Zero errors give error 0 (or NaN, when the radius is NaN or only the coarser curve reaches the flux). If the lowered curve grows strictly and is below the raised one, the error is not negative.", "quantifier": "every curve, errors, interpolation, fraction and settings", "why_tests_cant": "continuous parameters", "anchors": ["petrofit/petrosian/core.py:fraction_to_r"]}
{"id": "C128", "title": "The same quantity asked for in different ways", "statement": "Petrosian.r_50 and r_50_err are r_half_light and r_half_light_err, which are fraction_flux_to_r of 1/2; r_total_flux is that of total_flux_fraction. concentration_index(a, b) is made of fraction_flux_to_r(a) and fraction_flux_to_r(b), with index 5 log10 of their ratio and NaN throughout if one is NaN; c2080 and c5090 are its third component. total_flux and half_flux are the curve of growth at r_total_flux and r_half_light, NaN when these are. If total_flux_fraction equals epsilon_fraction and the curve grows strictly, r_total_flux is r_epsilon up to one step of the resampling.", "quantifier": "every Petrosian object and interpolation", "why_tests_cant": "continuous parameters", "anchors": ["petrofit/petrosian/core.py:Petrosian"]}
{"id": "C129", "title": "print_model_params prints names and rounded values", "statement": "print_model_params prints one line per parameter, in order: a text, a tab and the parameter's name. The text of nan, inf and -inf is that word. For a number r it is a minus sign iff r < 0, an integer without superfluous leading zeros, a point and exactly four digits, which together are the number of ten thousandths nearest to |r| (the even one on ties). So the text stands for exactly one number, within 1/20000 of the value, and two values printed the same differ by at most 1/10000.", "quantifier": "every list of names and values", "why_tests_cant": "an all-quantified statement over numbers", "anchors": ["petrofit/modeling/fitting.py:print_model_params"]}
{"id": "C130", "title": "Moving a galaxy moves its image and the photometry follows", "statement": "The values of GenSersic2D, CoreSersic2D and Nuker2D are unchanged when the point, the centre and (for the first two) theta are moved together by any rotation, reflection and shift of the plane. In the modes center, linear_interp and oversample, model_to_image of an element-wise model with x and y exchanged is the transposed image (size and center exchanged too); reflected in the middle column or row it is the mirrored image; shifted together with center it is the same image; multiplied by a constant every pixel is. So the image of a GenSersic2D galaxy at (y_0, x_0) with theta' = pi/2 - theta is the transposed one, and radial_photometry at the moved position and angle returns the same fluxes, areas and errors for each aperture method that follows the symmetry (as center, subpixel and exact do, C104 and C110).", "quantifier": "every model, image size, centre, sampling mode, factor, radii list and aperture rule with the symmetry", "why_tests_cant": "an all-quantified metamorphic statement", "anchors": ["petrofit/modeling/models.py:GenSersic2D", "petrofit/modeling/models.py:CoreSersic2D", "petrofit/modeling/models.py:Nuker2D", "petrofit/modeling/fitting.py:model_to_image", "petrofit/photometry.py:radial_photometry"]}
{"id": "C131", "title": "Measured radii, fluxes and concentrations converge with interpolation that overshoots", "statement": "For an ideal Sersic galaxy, r_petrosian, the radii that enclose a fraction of the flux, the fluxes and the concentration indices come arbitrarily close to the true values of the profile once the radii are close enough and the interpolation leaves the interval between neighbouring samples by little enough (cubic interpolation, the default, can leave it). An interpolating function whose slope changes at a rate of at most M leaves samples that are at most d apart by at most M d^2.", "quantifier": "every amplitude, effective radius, index, ellipticity, eta, epsilon, epsilon_fraction, fraction, tolerance, radii list, number of grid points and interpolation within the tolerance", "why_tests_cant": "convergence speaks about all fine enough grids and all interpolations", "anchors": ["petrofit/petrosian/core.py:Petrosian", "petrofit/petrosian/core.py:Petrosian.r_petrosian", "petrofit/petrosian/core.py:Petrosian.total_flux", "petrofit/petrosian/core.py:Petrosian.concentration_index", "petrofit/petrosian/core.py:Petrosian.fraction_flux_to_r"]}
{"id": "C132", "title": "Measurements of drawn galaxies converge with interpolation that overshoots", "statement": "As C119 to C121, for an image drawn by model_to_image and measured by radial_photometry: r_petrosian, the radii that enclose a fraction of the flux, the fluxes and the concentration indices, in units of the scale K of the galaxy in pixels, come arbitrarily close to the true values for every K above a bound, when the interpolation of the measured curve of growth overshoots by at most w K^2 and that of the measured Petrosian profile by at most w.", "quantifier": "every galaxy, position on the image, drawing mode, radii list, tolerance and interpolation within the tolerance", "why_tests_cant": "convergence speaks about all images of all galaxies", "anchors": ["petrofit/petrosian/core.py:Petrosian", "petrofit/photometry.py:radial_photometry", "petrofit/modeling/fitting.py:model_to_image", "petrofit/modeling/models.py:GenSersic2D"]}
{"id": "C133", "title": "Cubic interpolation: the spline exists, is unique and overshoots by little", "statement": "interp1d(x, y, kind='cubic') (the default interpolation) raises ValueError for fewer than four samples or unequal lengths; for increasing x it is the cubic spline through the samples with not-a-knot ends, of which there is exactly one. It reproduces cubic polynomials. If no step of x is more than q times another and neighbouring values differ by at most w, it leaves the interval between neighbouring values by at most (1 + 2 q) q^2 w.", "quantifier": "every list of increasing abscissae, every list of values", "why_tests_cant": "a bound on overshoots for all data", "anchors": ["petrofit/utils.py:get_interpolated_values", "petrofit/petrosian/core.py:calculate_petrosian_r", "petrofit/petrosian/core.py:fraction_to_r"]}
{"id": "C134", "title": "Measurements of ideal galaxies converge with cubic splines", "statement": "With cubic splines, the default, r_petrosian, the radii that enclose a fraction of the flux, the fluxes and the concentration indices of an ideal Sersic galaxy come arbitrarily close to the true values of the profile once the radii are close enough, provided no step between radii is more than q times another (evenly spaced radii: q = 1).", "quantifier": "every amplitude, effective radius, index, ellipticity, eta, epsilon, epsilon_fraction, fraction, tolerance, q and radii list", "why_tests_cant": "convergence speaks about all fine enough grids", "anchors": ["petrofit/petrosian/core.py:Petrosian", "petrofit/petrosian/core.py:Petrosian.r_petrosian", "petrofit/petrosian/core.py:Petrosian.total_flux", "petrofit/petrosian/core.py:Petrosian.concentration_index", "petrofit/petrosian/core.py:Petrosian.fraction_flux_to_r"]}
{"id": "C135", "title": "Measurements of drawn galaxies converge with cubic splines", "statement": "A Sersic galaxy drawn by model_to_image, measured by radial_photometry (exact) and handed to Petrosian with cubic interpolation, the default: r_petrosian, the radii that enclose a fraction of the flux, the fluxes and the concentration indices, in units of the scale K of the galaxy in pixels, come arbitrarily close to the true values for every K above a bound, for close enough radii with steps of bounded ratio.", "quantifier": "every galaxy, position on the image, drawing mode, radii list, ratio of steps and tolerance", "why_tests_cant": "convergence speaks about all images of all galaxies", "anchors": ["petrofit/petrosian/core.py:Petrosian", "petrofit/photometry.py:radial_photometry", "petrofit/modeling/fitting.py:model_to_image", "petrofit/modeling/models.py:GenSersic2D"]}
{"id": "C136", "title": "The Petrosian radius and the radii of flux fractions exist and are unique", "statement": "The Petrosian profile of every Sersic galaxy tends to 1 in the centre and to 0 far out; it takes the value eta at exactly one radius if 0 < eta < 1 and at none otherwise. The radius that encloses the share f / epsilon_fraction of the flux within epsilon times this radius is unique, and it exists exactly if the share is positive and the galaxy has that much flux - always, if the share is at most 1, and then it does not exceed epsilon times the Petrosian radius.", "quantifier": "every effective radius, index, amplitude, ellipticity, eta, epsilon, epsilon_fraction and fraction", "why_tests_cant": "existence and uniqueness over the reals", "anchors": ["petrofit/modeling/models.py:petrosian_profile", "petrofit/petrosian/core.py:Petrosian"]}
{"id": "C137", "title": "Cubic interpolation does not depend on units and limits the errors of its samples", "statement": "Cubic interpolation (the default) in other units of abscissa and value gives the same curve in those units, shifted abscissae shift it, sums and multiples of sampled values give sums and multiples of the curves, and errors of the values up to d move the curve by at most (1 + 2(1+2q)q^2) d when no step is more than q times another.", "quantifier": "every sorted list of at least four abscissae, every values, units, shift, factors and errors (units: also with NaN and infinite entries)", "why_tests_cant": "all inputs; the bound holds for errors of any size and shape", "anchors": ["petrofit/utils.py:get_interpolated_values", "petrofit/petrosian/core.py:calculate_petrosian_r", "petrofit/petrosian/core.py:fraction_to_r"]}
{"id": "C138", "title": "Measurements with cubic interpolation: units and small errors", "statement": "With cubic interpolation, multiplying all fluxes multiplies the measured fluxes and leaves radii and concentrations; another unit of length multiplies the radii and leaves the rest; and small enough errors of the fluxes leave r_petrosian and the flux-fraction radii exactly the same, unless a tie decides between two grid radii.", "quantifier": "every data set with floating-point areas, every settings, every positive unit, every error vector below a positive bound", "why_tests_cant": "relational statements over all inputs; the bound on the errors depends on the data", "anchors": ["petrofit/petrosian/core.py:Petrosian", "petrofit/petrosian/core.py:Petrosian.r_petrosian", "petrofit/petrosian/core.py:Petrosian.r_half_light", "petrofit/petrosian/core.py:Petrosian.total_flux", "petrofit/petrosian/core.py:Petrosian.concentration_index"]}
{"id": "C139", "title": "With the right epsilon the half-light radius is the effective radius", "statement": "For a Sersic index n, an eta and an epsilon_fraction there is exactly one epsilon for which epsilon * r_petrosian encloses that fraction of the total flux; it is the same for all amplitudes, effective radii and ellipticities. With it, the measured r_half_light converges to r_eff, total_flux to its fraction of the total flux, and the concentration indices to those of the whole galaxy, which depend on n only. A smaller epsilon gives half-light radii below r_eff, a larger one above.", "quantifier": "every galaxy, eta and epsilon_fraction in (0, 1), tolerance, fine enough radii and large enough image scale", "why_tests_cant": "existence and uniqueness of a real number, and limits over all fine enough grids", "anchors": ["petrofit/petrosian/core.py:Petrosian.r_half_light", "petrofit/petrosian/core.py:Petrosian.total_flux", "petrofit/petrosian/core.py:Petrosian.epsilon", "petrofit/petrosian/core.py:Petrosian.c2080", "petrofit/modeling/models.py:sersic_enclosed", "petrofit/modeling/models.py:petrosian_profile"]}
{"id": "C140", "title": "Measured radii are within one grid step of the crossing", "statement": "When the interpolated Petrosian profile falls strictly until it reaches eta at r, and stays at or below it for a grid step, r_petrosian differs from r by less than the step (largest radius)/(max(interp_num, number of radii) - 1); likewise for the radius of a flux fraction with a growing curve of growth. Without interpolation r_petrosian is whichever of the two radii around the crossing has the profile value closer to eta, the smaller one on ties.", "quantifier": "every radii, profile, curve of growth, eta, fraction, interp_num, and interpolation method", "why_tests_cant": "a bound over all curves and grids, with the worst case between grid points", "anchors": ["petrofit/petrosian/core.py:calculate_petrosian_r", "petrofit/petrosian/core.py:fraction_to_r", "petrofit/utils.py:get_interpolated_values", "petrofit/utils.py:closest_value_index"]}
{"id": "C141", "title": "The other kinds of interpolation", "statement": "interp_kind 'nearest' gives the value of the closest sample (the earlier on ties, 'nearest-up' the later), 'previous' and 'zero' that of the last sample at or before the place, 'next' that of the first at or after, 'linear' and 'slinear' the chord. None of them leaves the range of the neighbouring samples, so the convergence results hold for them; errors of the samples are not amplified; and units of length and flux do not matter.", "quantifier": "every sorted abscissae, values, errors and units", "why_tests_cant": "all inputs and all places between the samples", "anchors": ["petrofit/utils.py:get_interpolated_values", "petrofit/petrosian/core.py:calculate_petrosian_r", "petrofit/petrosian/core.py:fraction_to_r"]}
{"id": "C142", "title": "Half-light radii without a Petrosian radius", "statement": "When r_petrosian is NaN and no flux errors are given, the kinds 'linear', 'slinear', 'zero' and 'cubic' report NaN for every flux-fraction radius, but 'nearest', 'nearest-up', 'previous' and 'next' report a radius: the one that would be reported if epsilon * r_petrosian were the last radius of the data.", "quantifier": "every radii and fluxes (NaN and infinite fluxes included), epsilon, fraction and interp_num", "why_tests_cant": "statement over all inputs; the surprising outcome depends on how NaN sorts in the interpolation", "anchors": ["petrofit/petrosian/core.py:fraction_to_r", "petrofit/petrosian/core.py:Petrosian.r_half_light", "petrofit/petrosian/core.py:Petrosian.r_total_flux", "petrofit/petrosian/core.py:Petrosian.fraction_flux_to_r"]}
{"id": "C143", "title": "A uniform source has no Petrosian radius", "statement": "If all fluxes are the same multiple of the areas, the Petrosian profile is 1 everywhere: r_petrosian is NaN for eta < 1 and 0 for eta >= 1. For eta < 1 all flux-fraction radii, total_flux, half_flux and the concentrations are then NaN with NaN-propagating interpolation, while the kinds of the previous property report the radii for the light inside the last radius (never NaN for a positive brightness and a fraction between 0 and epsilon_fraction).", "quantifier": "every increasing radii and areas, brightness other than 0, settings", "why_tests_cant": "all data sets of the family, for all interpolation kinds", "anchors": ["petrofit/petrosian/core.py:calculate_petrosian", "petrofit/petrosian/core.py:Petrosian.r_petrosian", "petrofit/petrosian/core.py:Petrosian.r_half_light", "petrofit/petrosian/core.py:Petrosian.total_flux", "petrofit/petrosian/core.py:Petrosian.c2080"]}
{"id": "C144", "title": "Rounding errors of the Petrosian profile", "statement": "In double precision, for strictly increasing areas and any fluxes with magnitudes between 2^-200 and 2^200, calculate_petrosian returns without error and every value after the first is finite and within the relative error 6 * 2^-53 of the exact Petrosian profile of the given numbers. In particular an annulus without flux gives exactly 0, and no cancellation beyond that of the input happens.", "quantifier": "every list of double-precision areas and fluxes of at least three entries, with the stated magnitudes", "why_tests_cant": "the bound is over all pairs of double arrays and the worst combination of roundings", "anchors": ["petrofit/petrosian/core.py:calculate_petrosian"]}
{"id": "C145", "title": "The Petrosian radius in double precision", "statement": "Without interpolation and in double precision, r_petrosian is NaN exactly when no profile value (the first taken as 1) is at or below eta; otherwise it is one of the given radii (0 for the first), at or before the first crossing, whose profile value is as close to eta as any up to that crossing, but for a relative error 3 * 2^-53, and strictly closer than any earlier one. When the exact profile keeps 2^-48 times its size away from eta and from ties, the run in double precision reports bit for bit the radius that exact arithmetic selects.", "quantifier": "every radii, areas, fluxes, eta in double precision, of the stated sizes", "why_tests_cant": "the claim compares rounded with exact runs for all inputs", "anchors": ["petrofit/petrosian/core.py:calculate_petrosian_r", "petrofit/petrosian/core.py:calculate_petrosian", "petrofit/utils.py:closest_value_index"]}
{"id": "C146", "title": "Radius lists in double precision", "statement": "make_radius_list(max_pix, n) in double precision gives n strictly increasing finite radii, the k-th within the relative error 2.5 * 2^-53 of k * max_pix / n (so the last is max_pix only up to that error).", "quantifier": "every max_pix between 2^-200 and 2^200 and n up to 2^40", "why_tests_cant": "strict order and error must hold for every length and every double", "anchors": ["petrofit/utils.py:make_radius_list"]}
{"id": "C147", "title": "Ellipticity round trip in double precision", "statement": "For every double 0 <= e < 1, ellip_to_elong(e) is finite, at least 1 and within the relative error 3 * 2^-53 of 1/(1-e); elong_to_ellip of it is within 2.5 * 2^-53 of e, for Python and numpy floats. It need not be e itself.", "quantifier": "every double in [0, 1)", "why_tests_cant": "2^62 values; a test samples a few", "anchors": ["petrofit/utils.py:ellip_to_elong", "petrofit/utils.py:elong_to_ellip"]}
{"id": "C148", "title": "Aperture sums in double precision", "statement": "The flux that do_photometry computes for an aperture (before radial_photometry rounds it to six decimals) over finite pixels and weights is finite in double precision and differs from the exact sum of weight times value over the unmasked pixels inside by at most ((1+2^-53)^(N+1) - 1) times the sum of the absolute values of the terms (N pixels). This holds for any order and grouping of the additions, so for pairwise summation as well, and two orders differ by at most twice such a bound. The result does depend on the grouping.", "quantifier": "every image, mask and aperture weight of the stated magnitudes; every order and grouping of additions", "why_tests_cant": "the bound covers every way numpy may add up, for every image", "anchors": ["petrofit/photometry.py:radial_photometry"]}
{"id": "C149", "title": "Counts are added up exactly", "statement": "With weights 0 and 1 (method 'center') and whole pixel values whose absolute values add up to at most 2^53, the flux that do_photometry computes in double precision (before radial_photometry rounds it to six decimals, see C152) is exactly the sum, in any order of additions; the area is exactly the number of unmasked pixels inside.", "quantifier": "every image of whole numbers and every 0/1 weight", "why_tests_cant": "exactness for all images and all orders of addition cannot be enumerated", "anchors": ["petrofit/photometry.py:radial_photometry"]}
{"id": "C150", "title": "Resampled curves in double precision", "statement": "get_interpolated_values along chords (kinds 'linear', 'slinear', order 1) in double precision gives max(num, len(x)) strictly increasing radii, starting and ending exactly at the first and last given radius, each within 5 * 2^-53 times the last radius of an evenly spread one, and values within 14 * 2^-53 times the largest absolute sample of the point of the broken line at that radius.", "quantifier": "every samples of the stated magnitudes and any num up to 2^50", "why_tests_cant": "the worst combination of seven roundings per point over all doubles", "anchors": ["petrofit/utils.py:get_interpolated_values"]}
{"id": "C151", "title": "The interpolated Petrosian radius in double precision", "statement": "With interpolation along chords and in double precision, calculate_petrosian_r either gives NaN and the broken line through the profile stays above eta everywhere, or gives a radius inside the range at which the broken line is eta, and before which it stays above eta; each up to the slope of the profile times the spacing of the resampled radii and 50 * 2^-53 times the largest profile value.", "quantifier": "every radii, profile, eta and num of the stated sizes", "why_tests_cant": "compares rounded with exact curves for all inputs", "anchors": ["petrofit/petrosian/core.py:calculate_petrosian_r", "petrofit/utils.py:get_interpolated_values", "petrofit/utils.py:closest_value_index"]}
{"id": "C152", "title": "Rounding to six decimals, and photometry of counts", "statement": "np.rint goes to the nearest whole number, to the even one in ties. np.round(x, 6) in double precision gives a finite number within 0.0000005 and 3 * 2^-53 (|x| + 10^-6) of x. Whole numbers up to 2^53 / 10^6 are kept, so radial_photometry with weights 0 and 1 on an image of whole counts gives, bit for bit, the counts inside and the number of pixels inside each radius; larger whole numbers can change (900719925507 does).", "quantifier": "every double of the stated magnitudes; every image of counts, mask and list of radii", "why_tests_cant": "all doubles and all images", "anchors": ["petrofit/photometry.py:radial_photometry"]}
{"id": "C153", "title": "The Petrosian radius of an image of counts is that of exact arithmetic", "statement": "For an image of whole counts and weights 0 and 1, the photometry, the Petrosian profile and the Petrosian radius (without interpolation), all in double precision, give bit for bit the radius that exact arithmetic on the exact counts and areas selects, provided the exact profile keeps 2^-48 times its size away from eta and from ties.", "quantifier": "every image of counts, mask, list of at least three radii and eta", "why_tests_cant": "end-to-end agreement of rounded with exact arithmetic for all images", "anchors": ["petrofit/photometry.py:radial_photometry", "petrofit/petrosian/core.py:calculate_petrosian", "petrofit/petrosian/core.py:calculate_petrosian_r"]}
{"id": "C154", "title": "Radii enclosing a fraction of the flux, in double precision", "statement": "fraction_to_r with interpolation along chords ('linear', 'slinear' or order 1), in double precision, gives a radius where the broken line through the curve of growth is the wanted flux (fraction / epsilon_fraction times the flux at r_petro * epsilon) up to the steepest slope times the distance of the resampled radii plus 70 * 2^-53 times the largest flux, and the curve stays below it (up to the same resolution) at all smaller radii; or the first radius, if the curve starts above; or NaN, only if the whole curve stays below. If r_petro * epsilon is beyond the last radius by more than rounding, both numbers are NaN.", "quantifier": "every increasing list of radii and flux of moderate doubles, every r_petro, epsilon and fractions with 0 < fraction/epsilon_fraction <= 1, every number of samples", "why_tests_cant": "all curves and all doubles", "anchors": ["petrofit/petrosian/core.py:fraction_to_r", "petrofit/utils.py:get_interpolated_values", "petrofit/utils.py:closest_value_index"]}
{"id": "C155", "title": "Errors of aperture sums in double precision", "statement": "The error returned by do_photometry, the square root of the weighted sum of squared pixel errors, computed in double precision with the squares added up in any order, has a relative error of at most (1 + 2^-53)^(n+3) - 1 where n is the number of pixels used. Passing an error image does not change the flux.", "quantifier": "every image, error image of moderate doubles, mask, weights and summation order", "why_tests_cant": "all images and all orders of summation", "anchors": ["petrofit/photometry.py:radial_photometry"]}
{"id": "C156", "title": "Photometry of arbitrary images in double precision", "statement": "Flux, area and error of every radius returned by radial_photometry in double precision differ from the exact weighted sums (root of the sum of squares for the error) by at most 0.0000005 (plus 3 * 2^-53 * 10^-6) from the rounding to six decimals and a relative (1 + 2^-53)^(n+4) - 1, n+6 for the error, of the sum of the absolute terms; n is the number of pixels used. No radius fails, and without an error image flux and areas are the same and the errors NaN.", "quantifier": "every image, error image, mask, list of radii and weights of moderate size", "why_tests_cant": "all images and all doubles", "anchors": ["petrofit/photometry.py:radial_photometry"]}
{"id": "C157", "title": "Petrosian radius of an arbitrary image in double precision", "statement": "For an image, error image, mask and list of radii, radial_photometry followed by calculate_petrosian and calculate_petrosian_r (without interpolation), all in double precision with the rounding of fluxes and areas to six decimals, return exactly the radius that exact arithmetic returns for the exact weighted sums, provided the losses of C156 are at most a fraction p of areas, fluxes, annulus areas and of the flux an annulus would have at the mean surface brightness, and the exact profile passes eta, and its nearest entry is nearest, by at least (64 * 2^-53 + 12 p) B, where B bounds the profile.", "quantifier": "every image, error image, mask, weights, list of three radii or more and eta with those margins", "why_tests_cant": "all images and all doubles", "anchors": ["petrofit/photometry.py:radial_photometry", "petrofit/petrosian/core.py:calculate_petrosian", "petrofit/petrosian/core.py:calculate_petrosian_r", "petrofit/utils.py:closest_value_index"]}
{"id": "C158", "title": "Total and half flux of a Petrosian object in double precision", "statement": "For a Petrosian object without flux errors that interpolates along chords, in double precision, total_flux is the wanted flux (total_flux_fraction / epsilon_fraction times the flux of the broken line at r_petrosian * epsilon) up to the steepest slope times the distance of the resampled radii plus 84 * 2^-53 times the largest flux; or r_total_flux is the first radius and total_flux is at least that; or both are NaN, only if the whole curve stays below (up to the same resolution). The same holds for half_flux with the fraction 1/2.", "quantifier": "every object with an increasing list of radii and fluxes of moderate doubles, every epsilon and fractions with 0 < fraction/epsilon_fraction <= 1, r_epsilon within the radii, every number of samples", "why_tests_cant": "all curves and all doubles", "anchors": ["petrofit/petrosian/core.py:Petrosian", "petrofit/petrosian/core.py:fraction_to_r", "petrofit/utils.py:get_interpolated_values", "petrofit/utils.py:closest_value_index"]}
{"id": "C159", "title": "Nearest row of the correction grid in double precision", "statement": "In double precision, the standard deviation of a column of n doubles is within ((1+2^-53)^(n+5)-1)*(deviation + 2*mean of absolute values) + 2^-400 of its exact value; if the deviations of the three columns have relative errors of at most rho <= 1/100, the row that the correction picks for a measurement has a squared distance (columns in units of their exact deviations) of at most (1 + 5*rho + 60*2^-53) times that of every other row; if a row holds exactly the values of the measurement, the picked row holds them too; without the range check a row is always picked.", "quantifier": "every grid of up to 2^40 rows whose columns hold zeros or doubles between 2^-100 and 2^100 in size with deviations between 2^-99 and 2^99, every measurement of such doubles", "why_tests_cant": "all grids and all doubles", "anchors": ["petrofit/petrosian/correction.py:PetrosianCorrection"]}
{"id": "C160", "title": "Oversampled images in double precision", "statement": "In double precision, the coordinates at which make_grid samples an image with whole-number origin are within 32 * 2^-53 * A of the exact ones (A bounds the pixel coordinates), and exact for factors that are powers of two; the value that a new PSFConvolvedModel2D with integer oversampling F and no PSF returns for a pixel is the mean of the model over F x F evenly spaced points of the pixel, up to the errors of the model's own evaluation (delta), its steepest slope times 64 * 2^-53 * A, and ((1+2^-53)^(F*F+1)-1) times the largest value plus 2^-900.", "quantifier": "every model whose double-precision values are within delta of a function with bounded slope, every list of pixels with whole coordinates up to A <= 2^30 in size, every factor up to 2^20", "why_tests_cant": "all models, factors and pixel lists", "anchors": ["petrofit/modeling/models.py:make_grid", "petrofit/modeling/models.py:PSFConvolvedModel2D.evaluate"]}
{"id": "C161", "title": "Errors of Petrosian profiles in double precision", "statement": "In double precision, calculate_petrosian with increasing areas, nonzero fluxes and at least one array of errors returns the same profile as without errors, together with an array of errors of the same length: NaN at the first radius and at every annulus that adds no flux, and elsewhere a finite number within 46 * 2^-53 (relative) of the first-order propagated error |P| sqrt((dL0^2+dL1^2)/(L1-L0)^2 + (dA0^2+dA1^2)/(A1-A0)^2 + (dL1/L1)^2 + (dA1/A1)^2) of the exact formulas at the given doubles; an array of errors that is not given counts as zeros.", "quantifier": "every list of more than two areas and fluxes of size 2^-100 to 2^100 with increasing areas, every array of errors that are zero or of that size, area or flux errors or both", "why_tests_cant": "all lists of doubles, including flux differences with heavy cancellation", "anchors": ["petrofit/petrosian/core.py:calculate_petrosian"]}
{"id": "C162", "title": "Error of the Petrosian radius in double precision", "statement": "In double precision, calculate_petrosian_r with profile errors returns the radius that it returns without errors, and as error exactly half the computed difference of the radii it returns for the profile plus errors and for the profile minus errors (the first entry being 1 in all three); NaN when the radius is NaN. Without interpolation the three radii are samples: NaN when the curve stays above eta, otherwise the sample closest to eta (up to 3 * 2^-53) among those up to the first at or below eta; the raised and lowered curves are rounded once; the error is NaN when one of these two radii is, and otherwise within 3 * 2^-53 (relative) of half their difference.", "quantifier": "every profile and error array of equal length with values up to 2^998, every eta, radii zero or of size 2^-200 to 2^200; the first part for every interpolation and all doubles", "why_tests_cant": "all profiles, errors and thresholds", "anchors": ["petrofit/petrosian/core.py:calculate_petrosian_r"]}
{"id": "C163", "title": "Changing units by powers of two changes no bit of a Petrosian profile", "statement": "In double precision, multiplying all areas (and their errors) by one power of two and all fluxes (and their errors) by another leaves the profile and the error array returned by calculate_petrosian exactly the same, bit for bit, NaN entries included; this is false for other factors (multiplying fluxes by 3 can change the last bit).", "quantifier": "all lists of more than two increasing areas and nonzero fluxes of size 2^-100 to 2^100 before and after the change, errors zero or of that size, area errors, flux errors, both or none; factors 2^-200 to 2^200", "why_tests_cant": "all lists of doubles and all pairs of factors, bit for bit", "anchors": ["petrofit/petrosian/core.py:calculate_petrosian"]}
