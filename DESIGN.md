# Formal model of PetroFit in Coq 8.16.1

The model is a shallow Gallina transcription of the Python functions in `/repo/petrofit`,
branch by branch, with exceptions as values (`result A := Ok a | Err exn`).
Every definition cites the file and lines it models.

## Layers

| file (rocq/theories) | content |
|---|---|
| `Base.v` | `result` monad, exceptions, list helpers |
| `Num.v` | scalar operations (`Num T`), instance `xr` (reals + NaN + infinities, exact arithmetic) and instance `f64` (IEEE binary64 of `Coq.Floats.SpecFloat`, executable, axiom free) |
| `Numpy.v` | the numpy/scipy primitives petrofit calls (`diff`, `where`, `argmin`, `unique`, `linspace`, `interp1d` shell, ...) |
| `M_*.v` | the model, one file per source file/region, generic in the scalar type |
| `S_*.v` | small independent specifications used by theorem statements |
| `L_*.v` | lemmas and proofs |
| `E_*.v` | concrete cases meeting the hypotheses of the theorems (computed in `f64` or proved in `xr`) and statements combined from several lemmas |
| `P_*.v` | property theorems only, each followed by `Print Assumptions` |

The model is generic in the scalar type: structural theorems hold for *every* `Num` instance
(so also for binary64); numerical theorems are about the instance `xr`.

## Number model

`xr` = NaN | +inf | -inf | Fin r with r : R. Arithmetic follows IEEE-754 on the special values
(0/0 = NaN, x/0 = +-inf, inf-inf = NaN, comparisons with NaN false) and is exact on finite values.
Simplifications: no rounding, no overflow, no signed zero (x/0 takes the sign of x).

`f64` = SpecFloat binary64 with rounding to nearest even; C144-C153 bound the difference of runs in `f64` from exact ones.

## Oracles (external code, universally quantified in the theorems)

* `scipy.interpolate.interp1d`: an arbitrary function `mk kind xs ys`, wrapped by the modelled bounds check; linear, cubic and the step-like kinds also as programs (`M_Interp.v`, `M_Cubic.v`, `M_Kinds.v`).
* photutils aperture overlap weights: an arbitrary weight function; the methods 'center', 'exact' and 'subpixel' are also modelled concretely ('exact' as the area of the intersection, in exact reals).
* astropy fitters, sub-model `evaluate`, `scipy.ndimage.rotate`: arbitrary functions.
* `gammainc`, `gammaincinv`, `gamma`: *constructed* over R (power series), not assumed.

## Plan per property

| id | modelled / how proved |
|---|---|
| C01, C02 | `closest_value_index` over lists; induction on the array, characterisation of first crossing and first minimiser |
| C03-C05 | real arithmetic on the closed forms |
| C06 | strings as lists of code points, `re.split` as a run-splitter, insertion sort as stable sort; key order shown total |
| C07 | `xr` with log10; int/float dtype tags |
| C08 | functional 2-D arrays, slices with clipping and broadcasting rules |
| C09 | `linspace` + interpolation oracle |
| C10 | unit conversion as multiplication by scale factors |
| C11-C14 | weighted sums over pixels, weights as oracle; concrete center-method ellipse |
| C15-C19 | list model with numpy elementwise ops, dtype of areas; induction on lists |
| C20-C23 | on top of C01/C02/C09 for every interpolation oracle |
| C24-C26 | object as record of settings; histories as lists of operations |
| C27-C32 | table as list of rows; argmin; worker schedules as permutations |
| C33-C36 | incomplete gamma functions constructed in `Gamma.v` (Coquelicot power series, derivatives), IVT for the inverse |
| C37, C38 | pointwise real identities |
| C39-C44 | grid as function of indices, block reduce as finite sums, cache as explicit state |
| C45 | parameter tables as association lists |
| C46 | finite 2-D sums |
| C47 | dictionaries as association lists |
| C48-C50 | images as functional arrays; fitter as oracle |
| C51-C56 | label maps, cutouts with integer geometry; argsort as any sorting permutation |
| C57, C58, C66 | the same model functions run in the `f64` instance: concrete double inputs as witnesses (`vm_compute`), against the exact `xr` statement |
| C59-C61 | dtype tags and optional arrays of `calculate_petrosian`; arrays on a heap (`M_Heap.v`) for sharing |
| C62, C63, C78 | grid tables; the worker `_generate_petrosian_correction` with simulation and interpolation as oracles; round trip from generated row to measured row |
| C64, C65 | real analysis of the closed forms (derivative signs) |
| C67-C70 | sampling modes as finite sums, fitters as oracles, Gaussian half-width identity over R |
| C71-C75 | exceptions swallowed by the try block; integer geometry of cutouts; background fit on a heap of arrays |
| C76, C77 | center-method overlap modelled concretely (`in_ellipse`), composed with cutouts, masks and photometry |
| C79-C86, C88-C91 | drawing code as the list of calls made on numbered axes (`M_Plot.v`); theorems say which calls are made, and that results equal those without plotting |
| C92-C95 | compositions of already modelled functions (`M_Sources.v`) |
| C96-C99 | no new code: the models of `core.py` fed with the model of `sersic_enclosed`; real analysis (mean value theorem on an annulus, continuity) and a generic lemma on the radius search. Interpolation is an oracle assumed to stay between neighbouring samples, which is proved for linear interpolation; cubic splines (the default `interp_kind`) are covered by C134-C135, the other kinds by C141 |
| C100-C101 | no new code: two runs of the models of `core.py` compared, on fluxes L and L + b A. Order lemmas on the radius search and on broken lines. Interpolation is an oracle equal to the straight line between samples (proved for the model of linear interpolation); for other kinds nothing is claimed |
| C102 | no new code: every attribute of a Petrosian object followed through radii times c and areas times k. Interpolation is an oracle that commutes with stretching the abscissae (proved for the model of linear interpolation). `total_flux_err` is left out: the code adds a flux error and a radius error, so it has no unit |
| C103 | no new code: two runs compared on fluxes at most d apart. Interpolation is an oracle whose response to errors in the samples is bounded on the nodes used (proved for linear interpolation, factor 1) |
| C104-C106 | no new code: two runs of the model of `radial_photometry` compared through a rearrangement of the pixels (sums over extended reals do not depend on the order; C148-C149 treat the rounding of sums in float64). C104 for any overlap rule with the symmetry, and the symmetries of the modelled 'center' rule; C105-C106 for 'center' |
| C107-C112 | `M_Ellipse.v` (area of the part of an ellipse on a pixel, as a Coquelicot integral of chord lengths), `M_Exact.v` (photutils weights for 'exact' and 'subpixel', argument `method`). C107: chords from the quadratic form, uniqueness of interval lengths and integrals. C108: parts add up over rows and columns, integral of the half disc. C110: the integral over columns equals the integral over rows (`L_Fubini.v`, equal derivatives). C112: case analysis. The closed-form code of photutils for 'exact' is not modelled: the weight is taken to be the area it documents |
| C113 | `M_Match.v`: `SkyCoord` reduced to degrees, wrap and latitude check, and `match_to_catalog_sky` as a nearest-neighbour search on unit vectors. The search (a k-d tree) is an oracle assumed to return a point not farther than any other; an exact search is given as an example. Proved from chord = 2 sin(angle/2) |
| C114-C115 | `M_Integrate.v`: the loop over pixels of `discretize_integrate_2D`; `scipy.integrate.dblquad` is an oracle assumed to return the iterated integral. Iterated Riemann integrals over boxes in `L_Quad.v` (additivity, bounds) |
| C116-C119 | No new code: compositions of the models of `radial_photometry` ('exact' weights as areas), `model_to_image` in all four modes (`dblquad` as in C114), `GenSersic2D` and `Petrosian`. Proved by comparing growth rates: the flux on the image as a function of the radius grows ring by ring between bounds given by the profile shifted by the size of a pixel (`L_Growth.v`, `L_Galaxy.v`), then as in C97 with room for errors of the profile (`L_Galaxy3.v`). Exact real arithmetic, apart from the rounding to 6 decimals done by the code |
| C120-C121 | No new code: as C119, for `fraction_flux_to_r`, `r_half_light`, `r_total_flux`, the fluxes and the concentration indices. Proved as C98 and C99 with room for errors of the fluxes as well (`L_Galaxy4.v`) |
| C122 | The galaxy image made inside `_generate_petrosian_correction` (`M_Worker.v`): astropy's `Sersic2D.evaluate` as the wrapped model of the `PSFConvolvedModel2D` of `M_PSF.v`, drawn by `model_to_image` of `M_Fitting.v`. Proved from the oversampling lemmas behind C40-C42: the sampled coordinates of each pixel are those of the specification `mean_samples` (`L_Worker.v`) |
| C123 | `radial_photometry` with exact overlaps on that image, at the radii of `sim_geometry` of `M_Correction.v`. Full circles as in C117 and C118; the largest circle is compared with the circle of radius r - 1/2, which is on the image, and with a piece outside the image (`L_Worker2.v`, `L_Worker3.v`) |
| C124 | `worker` is `generate_row` of `M_Correction.v` with that image and the Sersic formulas of `M_Sersic.v`. The reference values follow from C33 and C34, the error from C122 and the arithmetic of the image size |
| C125 | `fit_model`, `fit_background`, `plot_fit`, `model_to_image` of `M_Fitting.v` with a fitter that is only known to be ideal (`finds_exact`, `fits_planes` of `S_LSQ.v`; real fitters iterate and may stop early, which is outside the model). The sum of squares of the returned model is at most that of the true one, so 0, so every term is 0 (`L_LSQ4.v`). A fitter meeting `finds_exact` (amplitude of a fixed profile) and one meeting `fits_planes` (normal equations) are built in `E_LSQ.v` |
| C126 | `source_photometry` of `M_Segm.v` with a fitter meeting `fits_planes`. The least-squares plane is unique when the positions are not on a line (two best planes: their mean would be better), and moves with the data (`L_LSQ.v`); masks and cutouts carry a plane to a plane (`L_LSQ2.v`); with the lemmas behind C74 the images measured agree pixel by pixel (`L_LSQ3.v`) |
| C127 | `fraction_to_r` of `M_Petrosian.v` with errors. Unfolded once into the closed form with the two resampled curves (`L_FracErr.frac_err_unfold`); the positions found are those of `found_radius` (C09). Sign: a larger target on a lower, strictly growing curve is reached later |
| C128 | `read` of `M_Petrosian.v`, now with `r_50`, `r_50_err`. Unfolding of the attributes; last statement: the closest sample to the flux at `r_epsilon` is one of its two neighbours when the curve grows strictly (`L_Same.v`) |
| C129 | `print_model_params` of `M_Print.v`: the lines as lists of characters; the values are those of `xr`, without negative zero. Induction on the digits; the nearest integer of the absolute value is the absolute value of the nearest integer (`L_Print.v`) |
| C130 | `gen_sersic2d`, `core_sersic2d`, `nuker2d` of `M_Sersic.v` at finite coordinates (other arguments arbitrary): the coordinates along and across the axes are unchanged up to sign (`L_Motion.v`). Images: closed form of a pixel in each mode from C48 and C67, exchange and reversal of finite sums (`L_Motion2.v`); photometry by C104 (`L_Motion3.v`). The mode `integrate` is not covered |
| C131-C132 | No new code: C97-C99 and C119-C121 without the requirement that the interpolation stays between neighbouring samples. Interpolation is a parameter of the model; the theorems ask that it leaves the samples of the two curves at hand by at most a tolerance `w` that does not depend on the radii (`S_Spline.v`). How far splines overshoot is not modelled, apart from C131_curvature, which bounds it by the curvature of the interpolant. Examples use an interpolation that overshoots everywhere |
| C133 | `M_Cubic.v`: `interp1d(kind='cubic')` as a program - elimination for the tridiagonal system of the curvatures, evaluation of the piece that contains the point - instead of the oracle used elsewhere. scipy finds the same spline from B-spline coefficients; that both are the not-a-knot spline of `S_Cubic.v` is trusted for scipy and proved for the program. Proved by diagonal dominance (`L_Cubic.v`, `L_Cubic2.v`). Exact real arithmetic |
| C134-C135 | No new code: C131 and C132 for any interpolation that is the not-a-knot spline, as `mk_cubic` is by C133. The samples of a Sersic profile at close radii differ by little, uniformly over all radii (`L_Cubic3.v`), so C133 bounds the overshoot |
| C136 | `petrosian_profile`, `sersic_enclosed` as in C33-C35. Limits from the convergence of the curve of growth, then the intermediate value theorem (`L_PetroExists.v`) |
| C137-C138 | `M_Cubic.v` as in C133: the program is homogeneous operation by operation (`L_CubicEq.v`, NaN and infinities included); linearity, shift and the bound on errors from uniqueness and C133_overshoot (`L_CubicEq2.v`). C138: C26, C102 and C103 with their hypotheses on the interpolation proved |
| C139 | No new code: C33-C35, C135 and C136. The law depends on r/r_eff only, so one epsilon serves all galaxies of an index (`L_Epsilon.v`) |
| C140 | No new code: C15 and C17 searched on an even grid. `S_Resolution.v` says when a curve passes a level once as seen with steps of the grid |
| C141-C143 | `M_Kinds.v`: "nearest", "nearest-up", "previous", "next", "zero", "slinear" as programs (np.searchsorted, midpoints, clipping), together with linear and cubic; only "quadratic" and orders other than 0, 1, 3 stay an argument. Specifications in `S_Kinds.v` by the samples only. C142: NaN sorts after all numbers, so the position is clipped to the last sample (`L_Kinds2.v`). C143: C142 and C15 for the profile of ones |
| C144-C147 | no new code: the model functions run in the instance `f64` (SpecFloat operations, round to nearest even). `L_Double.v` shows that these operations are those of Flocq, which gives their rounding errors; then an error analysis of each function. Specifications in `S_Double.v` (value of a double, relative error). Conditions on magnitudes exclude overflow and underflow |
| C148-C151 | no new code: `do_photometry`, `linspace`, `get_interpolated_values`, `calculate_petrosian_r` in the instance `f64`. `S_Sums.v` describes addition in any order and grouping as an inductive relation; the bound is proved for all of them, so it also holds for the blocked pairwise sum of numpy, which the model (left to right) does not follow. Chords: `S_Grid.v` and `chord_value` of `S_Kinds.v`; splines in doubles are not covered |
| C152-C153 | no new code: `np.rint` and `np.round(x, 6)` of the instance `f64`, then C149, C145 put together along `radial_photometry`, `calculate_petrosian`, `calculate_petrosian_r`. Weights are those of any overlap rule that gives 0 or 1 (`counted` in `S_Counts.v`); which pixels photutils takes in floating point is not derived |
| C154 | no new code: `fraction_to_r` of `M_Petrosian.v` at the instance `f64`, without flux errors; `r_petro`, `epsilon` and the fractions may be any doubles of moderate size |
| C155-C156 | no new code: `do_photometry` and `radial_photometry` of `M_Photometry.v` at the instance `f64`; the weights are those of any overlap rule, as doubles. How they follow from the geometry is treated in exact arithmetic only (C117 and the properties after it) |
| C157 | no new code: `radial_photometry`, `calculate_petrosian` and `calculate_petrosian_r` at the instance `f64`, chained; only for `interp_kind=None`, without flux errors in the profile |
| C158 | no new code: `obj_fraction`, `obj_flux_at`, `obj_total_flux`, `obj_half_flux` of `M_Petrosian.v` at the instance `f64`, for objects without flux errors; r_petrosian is whatever C151 gives |
| C159 | no new code: `mean`, `std`, `dr`, `closest_row` of `M_Correction.v` at the instance `f64`; the sums of np.std are taken from left to right (numpy may add in another order; the bound used, `added_error`, does not depend on it) |
| C160 | no new code: `make_grid`, `block_mean`, `evaluate` of `M_PSF.v` at the instance `f64`, for objects that have nothing cached; sums of blocks are taken from left to right (the bound used does not depend on the order) |
| C161 | no new code: `calculate_petrosian` of `M_Petrosian.v` with error arrays at the instance `f64`; squares of errors are products, as numpy computes them |
| C162 | no new code: `calculate_petrosian_r` of `M_Petrosian.v` with an error array at the instance `f64` |
| C163 | no new code: `calculate_petrosian` of `M_Petrosian.v` at the instance `f64`; multiplying an array by a number is the double-precision product of each entry |
| C87 | file system as association list from names to tables |

## Trusted base

1. The Coq 8.16.1 kernel, including its virtual machine for the examples computed in binary64, and `coqc`.
2. The standard-library axioms listed by `Print Assumptions` (below). No axiom of this development,
   none of another library: Coquelicot and Flocq add none beyond these.
3. That the model says what the code does. The following is modelled, everything else is not:

| source | modelled | not modelled |
|---|---|---|
| `utils.py` | every function (`M_Utils.v`, `M_Match.v`; `plot_target`, `mpl_tick_frame` in `M_Plot.v`) | WCS beyond the two pixel scales; characters outside Latin-1 in `natural_sort` |
| `photometry.py` | every function (`M_Photometry.v`, `M_Exact.v`, `M_Plot.v`) | the polygon and circle-segment formulas by which photutils computes 'exact' weights (their value, the area, is modelled) |
| `petrosian/core.py` | the functions, the setters and the properties listed in `M_Petrosian.attr`, `r_half_light_arcsec`, `r_total_flux_arcsec` (`M_Sources.v`), the drawing methods (`M_Petrosian.v`, `M_Heap.v`, `M_Plot.v`) | the `verbose` flag; colours, fonts, number formatting of legends |
| `petrosian/correction.py` | every function (`M_Correction.v`, `M_CorHeap.v`, `M_Plot.v`, `M_Worker.v`) | in `M_Correction.v` the simulated image of the worker is an arbitrary function, in `M_Worker.v` (C122-C124) it is the one of the code; its plotting; progress printing; process failure in the pool; file formats |
| `modeling/models.py` | the functions and classes except those to the right (`M_Sersic.v`, `M_PSF.v`, `M_Wrap.v`, `M_Sources.v`) | astropy's model machinery beyond parameter values, bounds, fixed and tied dictionaries; plain getters that return a private field |
| `modeling/fitting.py` | every function (`M_Fitting.v`, `M_Integrate.v`, `M_Plot.v`, `M_Print.v`, `M_Args.v`) | printing in `measure_fwhm`, and its drawing after `plot_fit`, which the model never reaches because that call raises |
| `segmentation.py` | masks, ordering, catalog sequencing, photometry of a source, drawing, getters, isophote amplitude (`M_Segm.v`, `M_Plot.v`, `M_Sources.v`, `M_Args.v`) | detection, deblending and catalog construction are arbitrary functions (their arguments are modelled in `M_Sources.v` only, C94); the isophote fit of photutils is an arbitrary function; in `source_photometry` the geometry is one record with the orientation already in radians (the getters themselves are in `M_Sources.v`, C93) |

This table was compared with the line citations in the `M_*.v` files by a rough script and by reading; the citations
themselves are the authority.

Behaviour of libraries that the model states from knowledge of them, without their source at hand:

* numpy: elementwise operations with length checks, broadcasting in slices, `argmin`/`max`/`mean` with NaN,
  integer division and casting rules, views against copies.
* scipy `interp1d`: `ValueError` outside the range and for unequal lengths; the values inside are an oracle, except where a theorem names a program for a kind (`mk_linear`, `M_Cubic.v`, `M_Kinds.v`).
* photutils: an aperture with a non-positive semi-axis raises; a mask that misses the image gives no overlap;
  the `center` method counts pixels whose centre is strictly inside, `subpixel` (5 x 5) shares of subpixel centres,
  `exact` weights by the area of the intersection; other methods raise `ValueError`.
* astropy: `Cutout2D` clipping and its errors, `sigma_clip` (an oracle returning a mask), `discretize_model` for the
  modes `center`, `linear_interp`, `oversample`, `Table` columns and rows, refusal to overwrite files.
* matplotlib: `errorbar` refuses negative errors; `plt.subplots` makes its last axes current; other calls draw and return.

Simplifications, besides the number model above: one-dimensional arrays are lists and images are functions with a
size; summation order is that of the list; `xr` has no signed zero; warnings are ignored; units are scale factors.

## Assumptions of the theorems

As printed by `Print Assumptions`, by set of axioms:

* none (closed under the global context): C06_natural_sort, C06_numbered_names, C06_numbers_raise, C06_superscripts_raise, C07_abmag_int_array, C08_cutout_inplace, C08_cutout_reject, C08_cutout_thin, C08_cutout_window, C09_interpolated_none, C12_one_entry_per_radius, C12_raises_at_first_bad_radius, C13_masked_pixels_ignored, C20_first_entries_ignored, C24_history, C24_independent, C25_flux_without_interpolation, C25_half_flux_err, C28_empty, C30_correct, C30_independent_settings, C30_shared_arrays, C31_any_order, C31_any_order_back, C31_plot_with_workers, C31_rows, C31_saving_ignored, C43_identity_model_refuted, C44_compatible, C44_none_accepted, C44_psf_none_accepted, C44_rejected_unchanged, C45_assignments_local, C45_fixed_keyword, C45_no_double_wrap, C45_unwrap, C45_wrap, C47_defaults, C49_unique_order, C51_empty, C51_label, C51_list, C51_other, C52_background_clean, C52_background_sticks, C52_label_independent, C52_lists, C52_unchanged, C55_unknown_key, C57_make_radius_list_f64_end_refuted, C58_closest_monotone_f64_refuted, C61_constructor_copies, C61_getters_share, C61_object_isolated, C61_radius_search_writes_only_copies, C62_filter, C63_row_is_measurement, C66_binary64_refuted, C73_catalog, C73_errors, C79_drawn, C79_total_refuted, C80_drawn, C81_percent_f64, C81_radii, C82_drawn, C83_drawn, C83_errors, C83_same_row, C84_outside, C84_residual, C84_segments, C85_drawn, C85_none, C87_corrections, C87_missing, C87_no_overwrite, C87_write_read, C88_plot, C89_empty, C89_figures, C90_maps, C90_plotted, C90_unplotted, C91_drawn, C91_failed, C94_arguments, C128_aliases, C162_runs.
* `ClassicalDedekindReals.sig_forall_dec`, `FunctionalExtensionality.functional_extensionality_dep`: C72_disc_inside, C129_close, C129_lines, C129_same_text, C133_exact, C133_overshoot, C133_unique, C137_linear, C137_moved, C137_steady.
* `ClassicalDedekindReals.sig_forall_dec`, `ClassicalDedekindReals.sig_not_dec`, `FunctionalExtensionality.functional_extensionality_dep`: C01_closest_value_index, C02_closest_monotone, C03_make_radius_list, C04_ellip_elong_inverse, C04_range_increasing, C04_zero_division, C05_circle_area, C05_elliptical_area, C09_interpolated_grid, C10_assert, C10_linear, C10_pixel_angular_round, C11_annulus_axes, C11_aperture_axes, C12_values, C14_accuracy, C14_monotone, C14_monotone_center, C15_accepted_inputs, C15_petrosian_formula, C16_misaligned_witness, C16_repeated_areas, C17_integer_areas, C18_constant_brightness, C18_declining_bounded, C18_scale_free, C19_petrosian_errors, C19_wrong_length, C20_monotone_in_eta, C20_petrosian_radius, C20_total, C21_error_of_radius, C21_negative_witness, C21_nonnegative_constant_errors, C21_nonnegative_resampled, C22_monotone, C22_nan_radius, C22_nan_radius_witness, C22_outside_data, C22_sampled_radius, C28_range, C32_radii, C32_rejected, C39_symmetric_samples, C40_any_coordinates, C40_transparent, C41_affine, C41_mean, C42_border, C42_factor_one, C42_from_origin, C42_shift_error, C42_shifted, C42_unknown_name, C43_cache_invisible, C44_none_breaks_evaluation, C46_delta, C46_delta_oversampled, C46_evaluate_flux, C46_evaluate_linear, C46_flux, C46_linear, C48_center_rejected, C48_pixels, C48_rectangle, C48_size_errors, C48_size_rejected, C49_call, C49_nan_pixels, C49_returns_class, C49_weights_shape, C50_holder, C50_residual, C53_masked_image, C53_rejected, C54_centre, C54_cutout, C54_default_side, C54_float_side, C54_int_side, C55_sorted, C56_arguments_unchanged, C56_other_errors, C56_other_pixels, C59_integer_areas_with_errors, C60_error_window, C60_same_radius, C62_unique_values, C65_outside_range, C66_exact, C67_affine, C67_linear_interp, C67_oversample, C67_refused, C68_clipped_pixels_passed, C68_mask_ignored, C68_no_sigma, C69_empty, C69_nan_start, C69_start, C70_default_error, C70_default_raises, C71_amplitude, C71_arguments, C72_default_cutout, C74_bound, C74_clip, C74_few_pixels, C74_other_type, C75_integer_image, C75_no_overlap, C75_row, C76_covers, C76_photometry, C76_weights, C77_default_cutout, C77_flux, C78_unique, C81_percent, C86_window, C88_limit, C88_limit_nan, C89_same, C89_slices, C91_default, C93_getters, C93_missing, C100_profile, C102_arcsec, C103_profile, C104_center_mirrors, C104_center_transposes, C104_center_upends, C104_mirrored, C104_transposed, C104_upended, C105_window, C106_circle, C106_half_turn, C107_unique, C107_weights, C109_monotone, C109_monotone_subpixel, C110_circle, C110_exact, C110_half_turn, C110_subpixel, C111_one, C111_weights, C112_known, C112_unknown, C114_negative, C114_pixels, C114_total, C125_background, C125_exact_fit, C125_rendered, C125_residual, C127_no_exception, C127_nonnegative, C127_sampling_ignored, C127_value, C127_zero, C130_mirrored, C130_scaled, C130_shifted, C130_transposed, C130_upended, C133_computed, C133_errors, C137_units, C140_fraction, C140_petrosian, C140_samples, C141_between, C141_errors, C141_units, C141_values, C142_missing, C142_reported, C143_level, C159_found.
* `ClassicalDedekindReals.sig_forall_dec`, `ClassicalDedekindReals.sig_not_dec`, `Classical_Prop.classic`, `FunctionalExtensionality.functional_extensionality_dep`: C03_make_radius_list_log, C03_make_radius_list_log_one, C07_abmag_array, C07_abmag_scalar, C07_fainter, C12_raises_iff_nan, C23_concentration_index, C23_sign, C26_rescaling, C26_total_flux_err, C27_nearest_row, C27_same_measurement, C29_epsilon, C30_shared_arrays_witness, C33_enclosed_flux, C33_half_light_constant, C33_special_functions, C34_inverse, C35_petrosian_profile, C36_intensities, C37_gen_sersic, C38_not_at_break, C38_nuker, C61_getter_leak_witness, C63_round_trip, C64_core_sersic, C65_estimates_ordered, C70_turned, C70_width, C78_row_contents, C79_outcome, C80_outcome, C82_total, C92_arcsec_radii, C95_enclosed_model, C95_petrosian_model, C96_bracket, C97_radius, C98_fraction, C99_concentration, C99_flux, C100_radius, C101_fraction, C102_zoom, C103_fraction, C103_radius, C108_on_image, C109_bound, C110_window, C113_errors, C113_itself, C113_nearest, C113_turns, C113_unit, C115_affine, C115_bounds, C115_modes, C116_fluxes, C116_sandwich, C117_fluxes, C117_pixels, C118_sersic, C119_petrosian, C120_fraction, C121_concentration, C121_flux, C122_pixels, C122_window, C123_photometry, C124_input, C124_small, C126_bound_offset, C126_bound_removed, C126_plane_added, C126_plane_removed, C128_concentration, C128_fluxes, C128_indices, C128_total_is_epsilon, C130_core_sersic, C130_galaxy_mirrored, C130_galaxy_shifted, C130_galaxy_transposed, C130_galaxy_upended, C130_gen_sersic, C130_nuker, C131_concentration, C131_curvature, C131_flux, C131_fraction, C131_radius, C132_concentration, C132_flux, C132_fraction, C132_petrosian, C134_concentration, C134_flux, C134_fraction, C134_radius, C135_concentration, C135_flux, C135_fraction, C135_petrosian, C136_limits, C136_petrosian, C136_share, C138_flux_unit, C138_fraction, C138_length_unit, C138_radius, C139_bias, C139_concentration, C139_epsilon, C139_half_light, C139_measured_concentration, C139_measured_flux, C139_measured_half_light, C139_radius, C142_attributes, C143_missing, C143_radius, C143_reported, C144_profile, C145_same_as_exact, C145_sample, C146_radius_list, C147_round_trip, C148_flux, C148_order, C149_area, C149_counts, C150_grid, C150_resampled, C151_radius, C152_counts, C152_rint, C152_rounding, C153_same_as_exact, C154_fraction, C154_missing, C155_error, C156_photometry, C156_rounding, C157_same_as_exact, C158_half_flux, C158_total_flux, C159_deviation, C159_nearest, C159_same, C160_coordinates, C160_oversampled, C160_powers, C161_errors, C162_error, C163_any_factor_refuted, C163_units.
