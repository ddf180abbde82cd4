# Formal model of keflavich/image_registration in Rocq (Coq 8.16.1)

## 1. Approach

Shallow embedding.  Each Python function becomes one Gallina function with the same branches; Python
exceptions are values (`res A := Ok a | Raise e`); numpy arrays are `arr A` = shape (`list Z`) plus an accessor
on index lists, so dimensionality is unbounded; pixel values are exact reals with an explicit NaN
(`num := Fin r | NaN`); complex numbers are Coquelicot's `C`.  Python-3 semantics (setup.cfg: python>=3.7) are
used: `/` is true division, float slice bounds are TypeErrors, unbound names are NameErrors.

Layout of `/verif/rocq/theories`:

| layer | files | content |
|---|---|---|
| foundations | `Base*.v`, `Num*.v` | sums over `0..n-1`, `cis`, numpy primitives |
| model | `M_*.v` | one file per Python module, every definition cites file:lines |
| specification | `Spec.v` ... `Spec8.v` | short, independent vocabulary used by the theorem statements |
| proofs | `L_*.v` | lemmas |
| properties | `P_*.v` | the property theorems `Cxx_...` with `Print Assumptions` and non-vacuity `Example`s (`Cxx_nonvacuous`) |

The central lemma family: for the numpy frequency grid, `D n t = (1/n) sum_k cis(2 pi f_k t)` satisfies
`D n j = [n | j]` on integers, `sum_z D(u-z) D(z-v) = D(u-v)`, `sum_z D(u-z) = 1`, `conj D(t) = D(-t)`.  Shifting,
interpolation, zooming and `dftups` are all `sum_y a[y] * prod_d D(p_d - y_d)` at different points `p`, so the
properties of C01-C21, C38-C41, C52-C53 and C57 follow from this family.  Correlation/convolution properties follow
from the N-D circular convolution theorem proved from the same orthogonality relation.

## 2. Plan per property

A property that is false of the code keeps its statement; it is then *refuted* by theorems with the suffix `_refuted`
(a counterexample, or the exact behaviour for all inputs), and the part that does hold is proved beside them.

* C01-C08, C14: `M_shift.v`; N-D DFT kernel lemmas by induction on the shape.  C03 also gets a `_refuted` theorem (even axis).
* C09: `M_fast_ffts.v`; fftw plans are modelled by the unnormalised DFT (documented FFTW contract).
* C10-C13: `M_scale.v`; kernel lemmas, band-limited signals by linearity over modes.
* C15-C18: `M_zoom.v`; linspace algebra + C10/C13.
* C19-C21: `M_upsample.v`; reindexing of the zero-padded spectrum.
* C22-C25: `M_downsample.v`; slice arithmetic on Z; estimators as functions on lists.
* C26-C30: `M_convolve.v`; padding arithmetic + N-D convolution theorem.
* C31: `M_heap.v` (`convolvend_mem`); which buffers are overwritten and restored, also when the call raises.
* C32-C33: `M_correlate.v` over the contract of `astropy.convolution.convolve_fft` (external code; the algorithm is the one of convolve_nd.py); Cauchy-Schwarz.
* C34-C43: `M_chi2.v`; expansion of the square; argmin lemmas; zoom grid algebra.  `scipy.stats` quantiles are parameters.
* C44: `M_iterzoom.v`; an unbound name is reached on every path. `P_iterzoom4.v` adds what the call would return if the name existed (position, error bars, maps, the half-pixel bias of even sizes).
* C45-C50, C71, C72, C83, C84: `M_xcorr.v`; strict autocorrelation maxima, finite differences at the peak.
* C51-C56, C73, C85: `M_register.v`; positivity of the power spectrum makes the interpolated autocorrelation maximal at zero.
* C57-C59, C74: `M_iterzoom.v` (every rank: `P_iterzoom5.v`); Lipschitz bound on the trigonometric interpolant gives a termination measure; invariants over iterations.
* C60-C62, C86: `M_kernel.v`.
* C63-C68, C75, C76: `M_fits.v`, `M_fits2.v`; WCS transforms, file I/O and reproject are parameters (oracles).
* C69: `M_heap.v`; buffers, aliasing and in-place writes; memory after the call compared with memory before, for every outcome.
* C70: `P_agree.v`; corollary of C38, C45, C52, C78 and C01.
* C90-C92: `P_common.v`, `P_mirror.v`; re-indexing of the double sums behind every map, then the fact that each method depends on the images only through its map (and sums of squares).
* C93: `P_units.v`; the weight and the images scale together in the closed form of the map; refuted by a 1x3 pair with a NaN error.
* C94, C95: `P_noise.v`; triangle inequality for the sum of squares turns the noise bound into a unique best roll, then C38/C45/C51; C95 refuted by an explicit family of 4x4 images.
* C96: `P_errgrow.v`; the map scales with 1/s^2, so the region below the threshold grows with s; a finite gap above a unique minimum.
* C97, C98: `P_convalg.v`; algebra on the closed form of `convolvend` (C80), weighted means stay in range.
* C99: `P_resample.v`; block sums of block sums; a 4x4 image with two NaNs refutes the NaN case.
* C100: `P_resample.v`; translation, periodicity and linearity of the trigonometric interpolant.
* C101, C102: `M_kwargs.v` models Python's binding of `**kwargs` (multiple values / unexpected keyword = TypeError) along the call chains register_fits -> match_fits, reproject_interp, chi2_shift and cross_correlation_shifts -> correlate2d -> convolve_fft; `P_kwargs.v`. The names the external functions accept are parameters.
* C103: `M_rounding.v` re-states shiftnd, correlate2d, chi2n_map and register_images (usfac=1) over an arbitrary pair of inexact transforms and inexact product (record `arith`), with `_exact` lemmas identifying them with the exact model; `P_rounding.v`. Simplified: only the FFTs and the product of transforms round; sums of squares, phases and comparisons stay exact, no overflow or underflow. A biased transform on a constant image refutes the version without a gap.
* C104: `P_dftreg.v`; the correlation of two arbitrary complex transforms at a real position, its values on the three grids of dftregistration, arctan2 as the phase of a complex number, and the expansion of the squared distance.
* C105: `P_iterzoom4.v`; minimum and maximum of an ascending list; [1,0] and [0,1,10] refute the other cases.
* C106: `P_finer.v`; nodes a -> q*a+(q-1)/2 embed the grid of k in that of q*k; a window with an even number of nodes misses the whole-pixel offsets; explicit Dirichlet kernel of length 3 for the half-pixel example.
* C107: `P_agree2.v`; chi2 of a roll = const - 2 * correlation, every residue class of rolls is one node of the factor-1 grid; Cauchy-Schwarz gaps for the negative image.
* C108: `P_intshift.v` (`L_tail.v`, `M_intdtype.v`); everything after the chi2 map depends only on differences of chi2 values, so a constant offset of the map changes nothing; concrete 2x2 counterexample for an error map.
* C109: `P_intzoom.v` (`M_intzoom.v`, `L_intzoom.v`); only the differences before the first zoom are integers, so the loop is the float loop with another first test.
* C110: `P_intxcorr.v` (`M_intxcorr.v`); only the sums of squares of the Zucker errors are integers.
* C111: `M_rounding2.v` re-states the zoom functions, upsample_image and chi2_shift over arbitrary inexact transforms, exponentials and dot products (record `zarith`), with `_exact` lemmas; `P_rounding2.v`: error propagation through two matrix products, then as C103. Pixel positions, scalar sums and comparisons stay exact.
* C112: `M_float.v` (double precision: Flocq's round-to-nearest with 53 bits; mixed-radix FFTs, sums of products in any order, with or without FMA), `L_float.v` (error of a dot product and of a transform by induction over the evaluation and over the radices), `P_float.v`: such arithmetic satisfies the hypotheses of C103 and C111.
* C113: `M_rounding3.v` (the bodies of chi2n_map, chi2_shift and register_images with a rounding after every pixel operation; lemmas say that they are the earlier models when nothing rounds), `L_rounding3.v` (an algebra of error bounds: sums, products, quotients, correlations), `P_rounding3.v`, `P_float2.v` (double precision).
* C114: `P_gaussfit.v`; the fitter of agpy is an arbitrary function from a table of values and an optional table of errors to parameters, their errors or an exception; the tables are computed by the wrap-around lemma of C12; a 4x4 counterexample for the error map.
* C115: `M_rounding4.v` (chi2_shift with the comparisons against the levels made on rounded differences), `P_rounding4.v`, `P_float3.v` (double precision; the 2x2 bright pixel with the default options).
* C116: `L_accuracy.v` (2-norm, Lipschitz bound of Fourier shifts), `P_accuracy.v`: nearest node of the final grid, interpolated chi2 = squared mismatch / s^2, spectra of two shifts.
* C117: `P_accuracy2.v`: the modulus of the correlation is the mismatch minimised over unit factors; nearest node of the fine grid; spectra of two shifts at pairs of frequencies.
* C118: `M_testing.v` (helpers of tests/registration_testing.py; the random array is an argument), `P_testing.v`.  The images of the other tests are C127 to C129.
* C119: `P_accuracy3.v`: triangle inequality between image, second image and shifted image; discharges the window hypotheses of C116 and C117.
* C120: `M_rounding5.v` (cross_correlation_shifts, second_derivative and numpy's gradient with a rounding after every operation), `P_rounding5.v` (error bounds through the correlation, the derivatives, the determinant and the quotient), `P_float4.v` (an image and its roll; double precision).  Error bars (return_error) are not treated with rounding.
* C121: `P_consistent.v`: Jordan's inequality (mean value theorem) turns the sine bounds of C119 into distances; finitely many rolls give a positive gap (for register_images after choosing the best unit factor for each, `P_consistent2.v`).
* C122: `M_rounding6.v` (zoom_on_pixel, zoomnd, chi2map_to_errors and chi2_shift with rounded positions, numpy's linspace spelled out), `L_rounding6.v` (errors of positions), `P_rounding6.v` (the interpolated map is Lipschitz, so rounded positions cost pi times the sum of |chi2| times their error), `P_float6.v` (double precision).
* C123: `M_rounding7.v` (dftups, the half-pixel search and the refinement of register_images with one rounding per operation), `L_rounding7.v` (errors of the embedded product, of phases and of the matrix products), `P_rounding7.v` (near-optimal peak, same answer, factors up to 2, exact operations, usfac=1), `P_float7.v` (double precision; integer factors do not move the grid; a bright pixel and a 2x2 block register at (1/2, 1/2)).
* C124: `M_rounding8.v` (convolvend with one rounding per operation, real images), `L_rounding8.v` (transforms of inexact images, scaling by inexact numbers, inexact reciprocals), `P_rounding8.v` (value, weighted pixel, return_fft, exact operations, the zero-weight pixel), `P_float8.v` (double precision).
* C125: `M_rounding9.v` (shiftnd and shift2d with one rounding per operation, fftfreq included), `P_rounding9.v` (error of the kernel, error of a pixel, whole-pixel shifts, exact operations), `P_float9.v` (double precision).
* C126: `P_rounding10.v`, `P_float10.v`: C116 and C122 composed with C125; the offset passed on is off by the error of the positions, which C125 allows.
* C127: `M_testing2.v` (the assignment to a slice of a different length raises, as numpy does, unless the source axis has length 1; Python 3's round), `P_testing2.v`; both sides are reduced to the same double sum over signed frequencies.
* C128: `M_testing2.v` (the random array is an argument; a zero width or amplitude, which make numpy infinities, are not modelled), `P_testing3.v`: tail bound for the wrapped Gaussian, then C116 with the mismatch bounded by the triangle inequality.
* C129: `M_testing2.v`, `P_testing3.v`: rolling the spectrum multiplies the image by unit numbers; Parseval; orthogonality of characters.
* C130: `P_readme.v`: C129, C118 and C43 composed; the automatic window is at least two pixels wide around the coarse minimum.
* C131: `M_testing3.v` (drivers of tests/registration_testing.py; progress bars and plots dropped, the random arrays and the registration method are arguments, Python 3), `P_testing4.v`: induction over the runs; C118, C129, C16 and C43 per run.
* C132: `P_sampled.v`: the interpolant reproduces waves below Nyquist (C11's lemma, one axis at a time), is linear, and is an isometry (C04); for odd sizes the Dirichlet kernel itself is such a combination.
* C133: `P_sampled2.v`: C132 bounds the mismatch at the true displacement; then C116 and C117.
* C134: `P_sampled3.v`: the squared distance between two displacements of the scene is a sum of two squared sines, so the nearest whole (half) pixel wins both searches; then C121 and C133.
* C135: `P_rounding11.v`: C125 twice; the exact shift does not lengthen the first error, and shifts compose for odd sizes or whole offsets (C05).
* C136: `P_rounding12.v`: a correlation within 2e of the best is, in the identity of C117, a mismatch within 2 sqrt e of the best; C123 gives e, the half-pixel search and the double-precision constants.
* C137: `P_covers.v`: the coarse minimum is the true offset; chi-squared of an image and itself shifted is even in the shift (odd sizes: the shift is a real isometry); so the node mirrored in the true offset has the same value as the minimum, and C42 gives the bars.
* C138: `M_testing4.v` (test functions as Booleans: True when every assertion holds), `P_testing5.v`: C43, C42, C118, C128, C129 and C137; reachability by solving for the draws (inverse DFT).
* C139: `M_testing5.v`, `P_testing6.v`: C45 (all sizes) on the images of C128, whose first one has a single brightest pixel and hence no symmetry; C43 and C42 for the low-noise test.
* C89: `M_intdtype.v`, chi2n_map with numpy's modular integer squares; wrap-around correlation as for C12, integer arithmetic for the squares.
* C77, C78, C88: `M_leastsq.v`; lmfit is an arbitrary tree of evaluation requests; induction on it.
* C79: `M_interpnd.v`; reduction to C13 for 2-D data, case analysis of the failures otherwise.
* C80, C81: `M_convolve.v`; circular convolution theorem on the padded image, for every option.
* C82: `M_convglobals.v`: a call is the sequence of its accesses to the module globals, threads interleave them arbitrarily; invariant over schedules.
* C87: `M_masked.v`: conversion of masked arguments before `convolvend`.


## 3. What is modelled

| file | modelled | not modelled |
|---|---|---|
| fft_tools/fast_ffts.py | all | fftw threads, planner flags |
| fft_tools/shift.py | shiftnd, shift2d | the `__main__` plotting demo |
| fft_tools/scale.py | all | - |
| fft_tools/zoom.py | zoom1d, zoomnd, zoom_on_pixel | output shapes of a length other than the rank, where numpy broadcasting happens to accept them |
| fft_tools/upsample.py | dftups, dftups1d, upsample_image, odddftups | the `__main__` demo |
| fft_tools/downsample.py | all | - |
| fft_tools/convolve_nd.py | convolvend (values: `M_convolve.v`, buffers: `M_heap.v`, module globals: `M_convglobals.v`, masked arguments: `M_masked.v`) | debug printing, test_3d |
| fft_tools/correlate2d.py | all | - |
| fft_tools/smooth_tools.py | make_kernel, smooth | - |
| chi2_shifts.py | chi2_shift, chi2map_to_errors, chi2n_map, chi2_shift_iterzoom, chi2_shift_leastsq | printing (verbose), unreachable code after the first return of chi2_shift_leastsq |
| cross_correlation_shifts.py | cross_correlation_shifts, second_derivative, cross_correlation_shifts_FITS | agpy.gaussfitter itself (an arbitrary function, `fitter` in `M_xcorr.v`) |
| register_images.py | register_images, dftregistration | - |
| iterative_zoom.py | iterative_zoom, iterative_zoom_1d (any rank), centers_to_edges | verbose printing, plotting; iterative_zoom_1d on 2-D data with a two-entry zoomshape |
| FITS_tools/*.py | fits_overlap, header_overlap, match_fits, project_to_header, register_fits, load_header, load_data, get_cd | astropy / reproject internals |
| tests/registration_testing.py | chi2, make_offset_extended, edge_weight, test_issue19 (`M_testing.v`), upsample_ft_raw, make_offset_images, make_extended (`M_testing2.v`), do_n_fits, do_n_extended_fits, do_n_fits_register, run_tests, plot_tests, accuracy_plot, accuracy_plot_extended, register_accuracy_test, register_noise_test (`M_testing3.v`), fit_extended_shifts, test_extended_shifts(_lownoise), test_shifts (chi2 half), test_issue19, test_issue_60 (`M_testing4.v`) | compare_methods, the comparison loops and plots |
| other tests, examples, docs, setup | - | not part of the library's behaviour |

Idealisations, everywhere:
* floating point is replaced by exact real arithmetic, except in C103, C111, C112, C113, C115, C120, C122, C123, C124, C125 and C126, which treat the rounding of transforms,
  exponentials, dot products and (C113, C115, C120, C122, C123, C124, C125, C126) all operations on pixels, and (C122, C123, C125, C126) on positions (never overflow or underflow; Flocq's definition of rounding is used, no axiom of it).  NaN is explicit; infinities appear
  only where the code makes them (`xnum`, `BExt`), and a path on which one would enter arithmetic ends in the exception
  `Unmodelled`, which no theorem counts as success;
* integers do not overflow; dtypes are float64/complex128 (of the integer-dtype inputs those of chi2n_map, chi2_shift, iterative_zoom and cross_correlation_shifts are modelled, in `M_intdtype.v`, `M_intzoom.v` and `M_intxcorr.v`, with wrapping arithmetic);
* an array is its shape and its values; strides, memory order and overlapping views are not modelled (in `M_heap.v` two
  arguments may be the same buffer but not overlapping parts of one);
* numpy-version dependent behaviour (a list of slices as index, `np.complex`) is a boolean parameter of the model, so the
  theorems say what happens on either;
* warnings and printing are dropped.

## 4. Trusted base

* Coq's kernel, 8.16.1 (`coqc`; no plugin beyond those of the distribution, no `native_compute`).
* Axioms.  Only the standard library's: the classical Dedekind reals (`ClassicalDedekindReals.sig_forall_dec`,
  `ClassicalDedekindReals.sig_not_dec`), `FunctionalExtensionality.functional_extensionality_dep`, and, through Coquelicot and
  `Req_EM_T`-style case analysis, `Classical_Prop.classic`.  No axiom, Variable or Hypothesis of our own.
  Printed by `Print Assumptions` (`python3 tools/assumptions.py` regenerates this list):

@@ASSUM

* The reading of the Python source in `M_*.v` (each definition cites the lines), with the idealisations of section 3.
* Contracts of external code, assumed as documented: numpy.fft and fftw3 are the mathematical DFT (norms as documented);
  np.nanmedian/argmin/argmax/linspace/indices/round as documented; astropy.convolution.convolve_fft is the zero-padded FFT
  convolution of `M_correlate.v`; scipy.stats.chi2.ppf is a function parameter; scipy.ndimage.map_coordinates, lmfit.minimize,
  astropy.io.fits, astropy.wcs and reproject are function parameters about which nothing is assumed except where a theorem
  says so in its hypotheses.

## 5. Testing the theorems

`seeded/LOG.jsonl` records edits of the model in the manner of realistic bugs and the theorems that stopped proving.
