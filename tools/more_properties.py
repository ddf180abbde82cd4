p("Exchanging the images negates the cross-correlation shift",
  "For even-sized images whose cross-correlation has a strict maximum inside the map, cross_correlation_shifts(im2,im1) = -cross_correlation_shifts(im1,im2), sub-pixel part included.",
  "all even sizes, all images", "all inputs", CC+":cross_correlation_shifts")
p("The cross-correlation error estimate is independent of the image units",
  "Multiplying both images by the same positive constant leaves the errors reported by cross_correlation_shifts(return_error=True) unchanged.  FALSE: the normalisation divides by the product of the mean squares instead of its square root.",
  "all images and factors", "all inputs", CC+":cross_correlation_shifts")

p('register_images: swapping the images negates the shift',
  'When |cross-correlation| has a unique whole-pixel maximum, register_images(im2, im1) reports the negated shift of register_images(im1, im2), except that the half-size shift -n/2 of an even axis stays -n/2.',
  'all image pairs with a unique peak', 'all images', RI+':register_images')
p('iterative_zoom improves on the best pixel',
  'The trigonometric interpolant of the image at the centre returned by iterative_zoom is at least as good as every pixel.  TRUE for odd zoomshape; FALSE for even zoomshape (the default 10x10 is even): the zoom grid then misses its own centre.',
  'all images, odd/even zoom shapes, any number of iterations', 'invariant over all iterations', IZ+':iterative_zoom', IZ+':iterative_zoom_1d')

p('Overlapping a header with itself reproduces its footprint',
  'header_overlap(h, h) has as many pixels as h and the same pixel positions.  FALSE: NAXIS is one less along each axis and pixel q of the result is where pixel q+1 of h was.',
  'all linear headers', 'all sizes, scales and reference values', FO+':header_overlap')
p('Any shift function can be the register_method',
  'register_fits and cross_correlation_shifts_FITS work with any of the shift functions of the package.  FALSE: the default of register_fits (chi2_shift_iterzoom) always raises NameError, register_images and cross_correlation_shifts raise TypeError; only chi2_shift works.',
  'all files, headers and options', 'all inputs', MI+':register_fits', CC+':cross_correlation_shifts_FITS')

p('chi2_shift_leastsq works with its default arguments',
  'chi2_shift_leastsq(im1, im2) returns a shift.  FALSE: with maxoff, or with ignore_outside=True (the default), every call raises TypeError at the first evaluation of the residuals (float slice bounds), after the error map has already been overwritten.',
  'all images, error maps, optimisers and options', 'all inputs and every behaviour of the external optimiser', CH+':chi2_shift_leastsq')
p('chi2_shift_leastsq minimises the mismatch with the common sign convention',
  'With use_fft=True, ignore_outside=False and no maxoff, the residual given to lmfit at (x, y) is |im1 - im2 Fourier-shifted by (-x,-y)|/sqrt(size)/err of the mean-subtracted images; if im2 is im1 rolled by (dy,dx) it vanishes at x=dx, y=dy and, for images without translational symmetry, only there up to whole periods.',
  'all 2-D images, scalar errors, optimisers', 'all images and all shifts', CH+':chi2_shift_leastsq')

p('fourier_interpnd is the n-dimensional interpolation',
  'fourier_interpnd(data, outinds) evaluates the trigonometric interpolant of an n-dimensional array.  TRUE for 2-D data where numpy still accepts lists of slices as an index (then it returns, or raises, exactly what fourier_interp2d does); with current numpy every call raises, and 1-D data and cubes with coordinate lists always raise.',
  'all arrays of any dimension, all coordinates, transforms and options', 'all sizes, dimensions and coordinates', SC+':fourier_interpnd', SC+':fourier_interp2d')
p('convolvend: every option has a spatial-domain meaning',
  'For every boundary except extend, every padding flag, NaN interpolation, edge handling, kernel normalisation (none, True, a function) and cropping, pixel x of the result is the sum over kernel pixels of the padded periodic image divided by the normalisation; with interpolate_nan or ignore_edge_zeros and a normalised kernel it is further divided by the kernel-weighted fraction of valid pixels (NaN below min_wt, 0 for zero weight when min_wt=0), otherwise not.  Cropped fill results are free of wrap-around; an un-normalisable kernel or a NaN fill value raises ValueError.',
  'all images and kernels of any dimension, all options', 'all inputs and all option combinations', CN+':convolvend')
p('convolvend(return_fft=True) returns the transform of the convolution',
  'The inverse DFT of the array returned with return_fft=True, fftshift=False is the (real, un-reweighted) padded convolution that the same call returns with crop=False; fftshift=True rolls it by half the padded shape, and crop has an effect only together with fftshift.',
  'all images, kernels, boundaries, padding and normalisation options', 'all inputs', CN+':convolvend')
p('Concurrent and earlier calls of convolvend do not influence each other',
  'convolvend rebinds the module globals fftn and ifftn and looks them up again for every transform; nevertheless, for every number of threads, every mixture of use_numpy_fft/nthreads and every interleaving (sequential histories included), each call finishes and returns or raises exactly what it does alone.',
  'all sets of concurrent calls, all interleavings of their accesses to the module globals', 'all schedules', CN+':convolvend')
p('cross_correlation_shifts: each error estimate uses the curvature of its own axis',
  'With return_error=True the reported x error is the Zucker estimate built from the curvature of the correlation along x, and the y error the one along y.  FALSE: the two second derivatives are unpacked in the opposite order, so each axis reports the estimate of the other one (exact formulas proved).  Degenerate peaks are covered too: a normalised peak of exactly 1 - two equal images in units of mean square 1 - reports errors of exactly 0, zero curvature an infinite error, both a ValueError for the first error and a NaN for the second.',
  'all image pairs with an interior best roll', 'all images', CC+':cross_correlation_shifts', CC+':second_derivative')
p('cross_correlation_shifts: the error images affect the reported errors',
  'Passing errim1/errim2 changes the reported errors.  FALSE: for error images of the shape of the images, and for any two shapes numpy can broadcast with each other, every outcome (shift, errors, exception) is the same whatever they contain (except the error map handed to a Gaussian fit, see C114); two-dimensional error images whose shapes do not broadcast and error images of another rank raise ValueError.',
  'all images, error images and options', 'all inputs', CC+':cross_correlation_shifts')
p('register_images registers to within 1/usfac of a pixel',
  'When im2 is im1 Fourier-shifted by a multiple of 1/usfac, register_images(usfac) returns that shift modulo the image size (or, for an image with a translational symmetry, a shift that maps im1 onto im2 up to a factor of modulus one).  TRUE for half-pixel shifts at every even factor, and for all grid shifts when the coarse half-pixel search ends within 3/4 - 1/usfac pixel of the true shift; FALSE in general: the coarse search maximises |correlation| on half pixels and can settle on another peak, here half a pixel off with usfac=4.',
  'all image pairs related by a Fourier shift, all factors, maxoff and options', 'all images and shifts', RI+':register_images', RI+':dftregistration')
p('make_kernel: the normalisation function decides the scale of the kernel',
  'With a normalize_kernel that returns the largest value (np.max) gaussian, tophat and boxcar kernels are the documented profile itself with peak exactly 1 (at the FFT origin for the gaussian).  FALSE for trapezoids: normalize_kernel is ignored and the sum is always used.  Widths that select no pixel (tophat of radius <= the distance of the nearest pixel centre, gaussian width 0, boxcar width 0 or -1) silently give kernels of NaN.',
  'all shapes of any dimension, widths and peak functions', 'all shapes and widths', SM+':make_kernel')
p('convolvend treats masked pixels as NaN',
  'Masked pixels of the image or the kernel are turned into NaN, as the comment in the code says.  FALSE: np.asarray drops the mask first, so no outcome depends on a mask and the invalid values below it enter the result (under a delta kernel they come out unchanged).',
  'all masked arrays, kernels and options', 'all inputs', CN+':convolvend')
p('chi2_shift_leastsq weights residuals with the error map',
  'With an error map (im2 free of NaN), use_fft=True, ignore_outside=False and no maxoff, the residual in each pixel is divided by the error map Fourier-shifted by the same trial shift as im2 (so a constant map acts as the scalar); with use_fft=False im2 is sampled by map_coordinates at (row+y, column+x), so that an interpolation exact on pixels fits a rolled image at the same (dx,dy) as the other methods.',
  'all 2-D images, error maps, trial shifts, optimisers and interpolators', 'all images, error maps and every behaviour of the external optimiser', CH+':chi2_shift_leastsq')
p('chi2n_map treats integer images like the same images in floating point',
  'For images of any integer dtype the map equals that of the images converted to float.  TRUE with zeromean=True, or when the squared pixel values fit the dtype.  Otherwise FALSE: squares wrap modulo 2^bits; with a scalar error this adds one constant to the whole map (minimum and differences right, values wrong: a perfect match of int16 images gets chi2 = -131072), with an error map even the minimum moves to the wrong shift.',
  'all integer dtypes, images, errors, sizes and options', 'all images and dtypes', CH+':chi2n_map')
p('Moving both images together changes nothing',
  'Rolling both images by the same (p,q) (and the error maps with them, where they are used) leaves the correlation map, the chi-squared map, and every outcome - offsets, error estimates or exception - of chi2_shift, cross_correlation_shifts and register_images (at every upsampling factor) exactly the same.',
  'all images with NaNs anywhere, sizes, rolls, factors and options', 'all images and rolls', CO+':correlate2d', CH+':chi2n_map', CH+':chi2_shift', CC+':cross_correlation_shifts', RI+':register_images')
p('The two axes are treated alike',
  'Transposing both images (and the error map) transposes the correlation and chi-squared maps entry by entry, for non-square shapes too, and exchanges the two offsets (and error bars) returned by cross_correlation_shifts, chi2_shift and register_images, at every upsampling factor, whenever the best roll (and, above factor 1, the best node of the fine grid) is unique (for cross_correlation_shifts: and interior; for chi2_shift: with an automatic factor, or a factor on the same side of both image lengths, in particular for square images).  Otherwise FALSE for chi2_shift: for a factor of at least the image height but below its width two identical images of odd size without symmetry are found at a non-zero offset, their transposes at offset 0.',
  'all images, sizes, factors and options', 'all images and non-square shapes', CO+':correlate2d', CH+':chi2n_map', CH+':chi2_shift', CC+':cross_correlation_shifts', RI+':register_images')
p('Mirroring both images is the same as exchanging them',
  'Reversing both axes of both images (about pixel (0,0), periodically) gives exactly what exchanging the two images gives: the same correlation map, the same chi-squared map and chi2_shift outcome (scalar errors), the same cross_correlation_shifts offsets and the same register_images outcome at every upsampling factor.',
  'all images with NaNs anywhere, odd and even sizes, factors and options', 'all images', CO+':correlate2d', CH+':chi2n_map', CH+':chi2_shift', CC+':cross_correlation_shifts', RI+':register_images')
p('Chi-squared registration does not depend on the units',
  'Multiplying both images and the errors by the same k <> 0 leaves the chi-squared map and every outcome of chi2_shift (offsets, errors, exception) unchanged.  TRUE whenever no error pixel is zero or NaN; otherwise FALSE: such pixels are counted with error 1 in whatever units are used, and changing the units moves the minimum of the map to another roll.',
  'all images with NaNs anywhere, scalar and array errors, factors k and options', 'all images, error maps and units', CH+':chi2n_map', CH+':chi2_shift')
p('Registration survives noise up to half the distance between the image and its own rolls',
  'If im2 is a roll of im1 by (dy,dx) plus any perturbation whose sum of squares is less than a quarter of the squared distance between im1 and each of its own proper rolls, then the chi-squared map has its only minimum at that roll, chi2_shift stays within its fine window around it, register_images(usfac=1) returns exactly that roll (non-negative images, or the same bound against the negated image) and cross_correlation_shifts returns it plus its parabolic refinement.  The constant 1/4 cannot be improved: at equality a wrong roll can be returned.',
  'all images, perturbations (not necessarily random), sizes, rolls and options', 'all images and all perturbations within the bound', CH+':chi2n_map', CH+':chi2_shift', RI+':register_images', CC+':cross_correlation_shifts')
p('The parabolic refinement of cross_correlation_shifts moves the offset by less than a pixel',
  'Refining the position of a unique, interior correlation peak changes it by at most one pixel.  FALSE: the quotient can be arbitrarily large: for every M there are 4x4 images with values in [0,10], with a unique best roll at zero, for which the returned offset exceeds M (each axis is refined with the curvature of the other axis).',
  'all bounds M', 'no finite set of images shows that the offset is unbounded', CC+':cross_correlation_shifts')
p('The error bars of chi2_shift follow the error passed in',
  'With a scalar error a larger error gives the same offsets and error bars that are not smaller.  Error bars are quantised: if the minimum of the fine map is unique they are exactly zero for every error below some positive level; in particular for any exact roll of an odd square image that no shift reproduces.',
  'all images, error pairs, sizes, upsampling factors and options', 'all images and pairs of error levels', CH+':chi2_shift', CH+':chi2map_to_errors')
p('convolvend is linear and, with wrap, commutes with rolls and with itself',
  'Without NaN interpolation or edge weighting, convolving alpha*A + beta*B (with the fill value combined likewise) gives alpha times the convolution of A plus beta times that of B, in every pixel and for every boundary mode but extend.  With boundary=wrap and a kernel no larger than the image, convolving a rolled image gives the rolled convolution (under every option, NaN interpolation included), and convolving with two kernels in either order gives the same image.',
  'all images with NaNs anywhere, kernels, ranks, sizes, rolls and options', 'all images, kernels and ranks', CN+':convolvend')
p('Smoothing with a non-negative kernel stays within the range of the image',
  'With a normalised kernel without negative values every output pixel lies between the smallest and the largest value of the image (NaN pixels counted as 0) and of what lies outside it; with wrap only the image counts; with NaN interpolation only the valid pixels count, and every output pixel is in their range, or NaN (or 0 when min_wt=0 and there is nothing valid in reach).',
  'all images with NaNs anywhere, kernels, ranks, sizes and options', 'all images and kernels', CN+':convolvend')
p('Downsampling can be done in steps',
  'downsample by a and then by b gives exactly what downsample by a*b gives, for images of every size (also those not divisible).  TRUE for images without NaN; FALSE with NaNs: the second step weights a block with few valid pixels like a full one.',
  'all images, sizes and factors', 'all images, sizes and factor pairs', DS+':downsample')
p('Zooming and upsampling commute with rolls and are linear',
  'Zooming in on a rolled image around the correspondingly moved pixel returns the same values, at coordinates moved along; upsampling a rolled image by an integer u returns the upsampled image rolled by u times as many pixels; zooming and upsampling a linear combination of images returns the same combination of their results.',
  'all images, sizes, rolls, positions, upsampling factors, output sizes and options', 'all images, rolls and factors', ZO+':zoom_on_pixel', UP+':upsample_image')
p('Further keyword arguments of register_fits reach the functions they are meant for',
  'Keyword arguments register_fits does not know itself are passed on, so that options of the shift function (upsample_factor, zeromean, ...) and of match_fits (header, use_mad_std) can be given.  TRUE for the options of chi2_shift, in any order, as long as no error image is given.  FALSE otherwise: every keyword goes to all of match_fits, reproject_interp (for the error image) and the shift function, so header= and use_mad_std= always end in an exception, return_chi2array=True always ends in a ValueError when the five results are unpacked, and with errfile= not a single option of chi2_shift can be used.',
  'all keyword dictionaries, images, headers, options and behaviours of astropy and reproject', 'all combinations of keywords', MI+':register_fits', MI+':match_fits', MI+':project_to_header')
p('The documented options of correlate2d and cross_correlation_shifts can be used',
  'The options listed in the docstring of correlate2d (and handed on by cross_correlation_shifts) are accepted.  TRUE for boundary, nthreads, use_numpy_fft and allow_huge in any order and combination.  FALSE for pad and fftshift (unknown to convolve_fft) and for the NaN and normalisation options of convolve_fft (given twice): TypeError whatever the images.',
  'all keyword dictionaries, images and sets of names convolve_fft accepts', 'all combinations of keywords', CO+':correlate2d', CC+':cross_correlation_shifts')
p('Rounding errors of the FFT cannot move the answer unless two shifts fit almost equally well',
  'Floating-point transforms are not exact.  If every transform is off by at most eps times the largest value it could have and the product of two transforms by a factor within 1 +- eps, then each pixel of correlate2d changes by at most sum|im1| sum|im2| ((1+eps)^4-1), each pixel of shiftnd by at most sum|data| ((1+eps)^3-1), and chi2n_map correspondingly; the pixel of least chi2, and the shift register_images returns at usfac=1, are within twice that of the best one, and are exactly the ideal ones when the best roll beats every other by more.  The usual root-mean-square accuracy of FFTs implies the hypothesis, and the same exceptions are raised.  FALSE without such a gap: for a constant image (all rolls tie) an arbitrarily small rounding error changes the reported shift.',
  'all images, sizes, boundary options, masks (maxoff), accuracies eps and all transforms of that accuracy', 'rounding depends on the FFT library, its plan, the machine and the number of threads: no finite set of images covers it',
  CO+':correlate2d', SH+':shiftnd', CH+':chi2n_map', RI+':register_images')
p('The transform dftregistration returns is the one closest to the first image',
  'With return_registered, dftregistration returns the second transform moved by the returned shift and multiplied by a phase of modulus 1 for which its inner product with the first transform is real and not negative: no other phase brings it closer to the first transform.  Without maxoff it is the closest of all whole-pixel shifts and phases (usfac=1) or of all half-pixel shifts and phases (other usfac up to 2).  This holds for complex images too.',
  'all complex transforms, sizes, usfac > 0, maxoff >= 1 or None, options', 'all pairs of complex images and all phases', RI+':dftregistration')
p('centers_to_edges returns the edges of the bins around the given centres',
  'For n >= 2 equally spaced centres in ascending order, as produced by the zoom functions, the n+1 returned values are half a step below the first centre, half a step above the last one and halfway between neighbours.  Fewer than two centres raise IndexError.  FALSE for descending centres (all edges can coincide) and for unequally spaced ones (a centre may lie outside its own bin).',
  'all numbers of centres, positions and steps', 'all lists of centres', IZ+':centers_to_edges')
p('A larger upsampling factor of chi2_shift never fits worse',
  'Going to an odd multiple of an integer upsample_factor that is at least the image height, the interpolated chi2 at the returned offset does not increase: the finer grid contains the coarser one.  FALSE for even multiples (a 3 x 1 image moved by half a pixel is matched exactly at factor 3 and not at 6), and FALSE from factors below the image height to factors at or above it: for identical images of odd size without symmetry the call with factor 1 returns exactly (0, 0) with chi2 = 0, and with any factor k >= height it returns an offset with both components non-zero and chi2 > 0.',
  'all image pairs, sizes, error arguments, factors and options', 'all images, sizes and factor pairs', CH+':chi2_shift')
p('chi2_shift and register_images agree on any pair of images with one best roll',
  'Also when neither image is a shifted copy of the other: if one whole-pixel roll has a larger correlation, in modulus, than every other and the correlation is positive, then chi2_shift (upsample_factor=1, constant error, odd sizes) and register_images (usfac=1) both return that roll, reduced to the centred range, x first.  FALSE if the correlation is negative: for every image without (anti)symmetry, register_images of an image and its negative returns (0, 0), and chi2_shift a roll that is not the identity.',
  'all image pairs with NaNs anywhere, odd sizes, options', 'all pairs of images', CH+':chi2_shift', RI+':register_images')
p('chi2_shift gives the same answer for integer images as for the same images as floats',
  'Passing images of an integer dtype (whose squares are computed, and may wrap round, in that dtype) to chi2_shift returns the offsets, errors and exceptions that the same images as float arrays return.  TRUE for every pair of dtypes and every option as long as no error map is given (err None or a number): the wrapped squares only add a constant to chi2, and the returned chi2 array, if asked for, differs by that constant.  TRUE with an error map when zeromean is set or all squares fit in the dtype.  FALSE with an error map otherwise: for 2x2 int16 images with one pixel of 182 the float images give the exact roll and the integer images (0, 0).',
  'all integer images, pairs of signed and unsigned dtypes, sizes, factors and options', 'all images, dtypes and options', CH+':chi2_shift', CH+':chi2n_map')
p('iterative_zoom gives the same answer for integer images as for the same images as floats',
  'Passing an image of an integer dtype to iterative_zoom or iterative_zoom_1d returns what the same image as float array returns.  TRUE, for every rank and option, when the differences from the extreme value fit in the dtype: always for unsigned images and minmax=np.min, and for signed images spanning less than half the range of the dtype.  FALSE for unsigned images with minmax=np.max: the differences wrap round, so that the test before the first zoom looks at the faintest pixel; an image holding both 0 and the largest value of its dtype is never zoomed (UnboundLocalError, or offset 0), although the float image is; and images that need no zoom as floats are zoomed as unsigned integers.',
  'all integer images of every rank, dtypes, zoom shapes, steps and options', 'all images and dtypes', IZ+':iterative_zoom', IZ+':iterative_zoom_1d')
p('cross_correlation_shifts gives the same answer for integer images as for the same images as floats',
  'Passing images of an integer dtype returns the offsets and errors of the same images as float arrays.  TRUE for the offsets, under every option; for the errors with zeromean=True (the default), or when the squares of all pixels fit in the dtype and their sums in 63 bits.  FALSE for the errors otherwise: with zeromean=False and return_error=True the squares wrap round, and for every image whose squares all vanish modulo 2^bits (e.g. uint8 pixels that are multiples of 16) the call raises ValueError although the float images give offsets and errors.',
  'all integer images, pairs of dtypes, sizes, error images and options', 'all images and dtypes', CC+':cross_correlation_shifts')
p('Rounding errors in zooming, upsampling and chi2_shift stay bounded and cannot move the answer unless two offsets fit almost equally well',
  'If transforms, complex exponentials and each dot product are off by at most eps times the largest value they could have, then every pixel of zoom1d, zoomnd and zoom_on_pixel is off by at most the sum of |pixels| times (1+eps)^(2 ndim+1)-1, at exactly the same positions, and likewise for upsample_image ((1+eps)^5-1).  The roll chi2_shift starts from and the offset it returns have a chi2 within twice the accumulated rounding error of the best roll and of the best node of the refined grid; the offset is exactly the ideal one when both win by more than that.',
  'all images, sizes, error arguments, explicit factors, options, accuracies eps and operations of that accuracy', 'rounding depends on the FFT library, BLAS, the machine and the number of threads: no finite set of images covers it',
  ZO+':zoomnd', ZO+':zoom1d', UP+':upsample_image', CH+':chi2_shift')
p('In double precision register_images and chi2_shift return the ideal answer unless two offsets fit almost equally well',
  'Let transforms be mixed-radix FFTs computed in double precision, axis by axis, with tabulated twiddle factors, and sums of products be evaluated in any order, with or without fused multiply-add, every operation rounding to nearest, without overflow or underflow.  If an output value passes through m roundings (4 per radix, plus the twiddle errors), transforms are off by at most (1+2^-53)^m - 1 <= 2m 2^-53 times the largest value they could have; hence register_images (usfac=1) and chi2_shift (explicit upsampling factor) return exactly the offset of exact arithmetic whenever the best roll, and the best node of the refined grid, beat all others by more than the resulting explicit bound.  Positions, scalar sums and comparisons are taken as exact.',
  'all images, sizes and their factorisations into radices, evaluation orders, options', 'the order of operations depends on the FFT library, its plan, BLAS, the machine and the number of threads', FF+':get_ffts', RI+':register_images', CH+':chi2_shift', CH+':chi2n_map')
p('With every pixel operation rounded, register_images and chi2_shift return the ideal answer unless two offsets fit almost equally well',
  'As before, but now also the means, differences, squares, quotients, sums over all pixels and moduli are inexact: each operation is off by at most eps times its result, each sum over pixels by at most eps times the sum of the moduli (eps <= 1/2).  Then every value of a chi2n_map, reduced or not, is off by at most (1+eps)^17-1 times an explicit size S (the chi2 of the moduli, where subtracting the mean counts as adding the mean modulus), |chi2| itself is at most S, the peak register_images picks has a correlation within twice (1+eps)^11-1 times the product of the sums of moduli of the best one, and the answers of register_images (usfac=1) and of chi2_shift (explicit factor) are exactly the ideal ones when the best roll, and the best node of the refined grid, win by more than twice the error.  Double precision, with sums over pixels taken in any order, satisfies this with eps = 2m 2^-53 for m the number of roundings.',
  'all images with NaNs anywhere, sizes and factorisations, error arguments, evaluation orders, accuracies and options', 'the order of operations depends on numpy, the FFT library, BLAS, the machine and the number of threads', RI+':register_images', CH+':chi2_shift', CH+':chi2n_map')
p('cross_correlation_shifts(gaussfit=True) reports the position the fitter finds',
  'With gaussfit=True the fitter is given the correlation map over the number of pixels (and, with return_error, a map of its errors); its exceptions are passed on, and the result is the offset between the centre and the fitted position, with the errors the fitter reports.  TRUE: with a fitter that finds the maximum, every whole-pixel roll of images of even size is recovered, also where the default method raises because the peak lies on the border of the map, and rescaling the images changes nothing if the fitter does not mind rescaled data.  Images of odd size get the additional half pixel of the default method.  The error map is the standard error of the correlation when all pixels of the second image have the same error.  FALSE for the error map otherwise: the errors of the second image are taken at the opposite offset (the second correlation has its arguments exchanged).',
  'all images, even and odd sizes, error images, options and behaviours of the fitter', 'all images and all fitters', CC+':cross_correlation_shifts', CO+':correlate2d')
p('The default call of chi2_shift (automatic factor, error bars) survives rounding unless a value is almost at a level',
  "With upsample_factor='auto' (or an explicit factor), chi2_shift with every operation on pixels rounded, including the differences chi2 - chi2.min() compared with the levels, chooses the factor and window of exact arithmetic and returns exactly its offsets, when the best roll and the best node of the refined grid win by more than twice the rounding error and, for 'auto', no pixel of the chi2 map is within that error of the max_nsig level.  The returned chi2 map then has exactly the coordinates of exact arithmetic and values within the error bound, and the returned error bars are exactly those of exact arithmetic if no node is within the error bound of the 1-sigma level.  The same in double precision, with eps = 2m 2^-53.",
  'all images with NaNs anywhere, sizes and factorisations, error arguments, factors, evaluation orders, accuracies and options', 'the order of operations depends on numpy, the FFT library, BLAS, the machine and the number of threads', CH+':chi2_shift', CH+':chi2map_to_errors', CH+':chi2n_map')
p('Registering noisy images with a sub-pixel offset: the corrected image and the offset are right up to noise and half a step of the grid',
  "If the true shift lies in the window that chi2_shift refines (up to whole periods, and half a step beyond its ends), the 2-norm of the difference between the second image and the first one shifted by the returned offset is at most that for the true shift (for odd sizes: the norm of the noise) plus pi/u times the norm of the first image, u being the final upsampling factor.  The same bound holds for the README recipe: shift2d(im2, -xoff, -yoff) differs from im1 by at most that.  The returned offset itself is off by at most what 2|sin(pi*dy/ny)| |F(1,0)| <= sqrt(ny*nx) (2*noise + pi/u*norm), and the same along x, allow, F(1,0) and F(0,1) being the lowest frequencies of the first image.",
  'all images with NaNs anywhere, sizes, true shifts (not only nodes of the grid), noise (any second image), constant errors, explicit and automatic factors, options', 'all images, all real shifts and all noise', CH+':chi2_shift', SH+':shift2d', 'README.md')
p('Registering noisy images with register_images: offset and registered image are right up to noise and half a step of the grid',
  "With usfac > 2, if the true shift is within 3/4 - 3/(2 usfac) pixels (up to whole periods) of the best half-pixel offset, the 2-norm of the difference between the second image, times one number of modulus 1, and the first image shifted by the returned offset is at most that for the true shift plus pi/usfac times the norm of the first image.  The returned offset is off by at most what |sin(2 pi dy/ny)| |F(1,0)| <= sqrt(ny*nx) (2*noise + pi/usfac*norm) allows, and by the sharper bound with sin(pi dy/ny) if the image has flux; the same along x.  The registered image, after exchanging its quadrants (which register_images leaves exchanged), differs from the modulus of the first image by at most the same bound.",
  'all images with NaNs anywhere, sizes, true shifts, noise (any second image), real factors > 2, maxoff, zeromean and other options', 'all images, all real shifts and all noise', RI+':register_images', RI+':dftregistration')
TE='image_registration/tests/registration_testing.py'
p("The package's accuracy tests, for all images, offsets and noise",
  "make_offset_extended returns the image Fourier-shifted by (xsh, ysh) plus the noise (FALSE with noise_taper=True: it always raises).  chi2_shift on an image and its synthetic offset copy, followed by shiftnd with the negated offset (test_issue19), leaves a sum of absolute residuals of at most sqrt(ny*nx) (norm of the noise + pi/u * norm of the image), plus the imaginary part dropped by make_offset_extended for even sizes, if the true offset lies in the refined window.  The helper chi2(im1, im2, dx, dy) is, for whole-pixel offsets, exactly the value of chi2n_map for that offset if im2 has no negative pixels (FALSE otherwise: it compares with |im2|, so that an image need not match itself); with upsample=u > 1 it compares only the corner of ny/u x nx/u pixels of the interpolated images.",
  'all images, sizes, offsets, noise arrays, error maps and factors', 'the tests draw a few random images', TE+':chi2', TE+':make_offset_extended', TE+':edge_weight', TE+':test_issue19', CH+':chi2_shift')
p('The coarse search finds the right neighbourhood unless the image nearly repeats itself',
  "The sub-pixel accuracy of chi2_shift and register_images does not need the true shift to be in the refined window as an assumption: it is enough that every whole-pixel roll of the first image (register_images: every half-pixel offset, times any number of modulus 1) whose window misses the true shift is further from the image at the true shift than some roll is, by more than twice the norm of the noise.  Then the mismatch at the returned offset is at most the noise plus pi/u times the norm of the image, and the returned offset is off by at most what the amplitudes of the image allow.  With upsample_factor='auto' the window always reaches at least one pixel to each side of the best roll (half a pixel lower on axes of even length).",
  'all images with NaNs anywhere, sizes, true shifts, noise (any second image), constant errors, explicit and automatic factors, options', 'all images, all real shifts and all noise', CH+':chi2_shift', RI+':register_images', RI+':dftregistration')
p('cross_correlation_shifts with every operation rounded is off by an explicit bound',
  'If each operation on pixels, derivatives and offsets is off by at most eps times its result and each sum by at most eps times the sum of moduli, cross_correlation_shifts (default peak method) starts from the same correlation peak as exact arithmetic when that peak wins by twice the rounding error and is not lost in it, and both offsets are then off from those of exact arithmetic by at most an explicit bound: the error of the numerators and of the determinant of the second derivatives, over the determinant.  For an image and its roll away from the border the exact offsets are the roll (plus 1/2 on odd axes) and the bound is (1+eps)^2 en/(d-ed) + eps |offset|.  Double precision, sums in any order, satisfies this with eps = 2m 2^-53.',
  'all images with NaNs anywhere, sizes and factorisations, evaluation orders, accuracies, options (boundary wrap, gaussfit=False, return_error=False)', 'the order of operations depends on numpy, the FFT library, the machine and the number of threads', CC+':cross_correlation_shifts', CC+':second_derivative', CO+':correlate2d')
p('The offsets of chi2_shift and register_images converge to the true shift',
  "For an image that shows one wave per axis (its lowest frequencies have amplitudes Fy, Fx > 0), if the coarse search cannot be misled (see the previous accuracy property), the offset of chi2_shift with a given factor u is off, up to whole periods, by at most n/(4F) sqrt(ny*nx) (2*noise + pi/u*norm) along each axis of n pixels; for register_images with usfac=u the factor 1/F becomes 1/F + 1/|flux|, or, for images without flux, the sum of the reciprocals of any two neighbouring amplitudes.  Consequently chi2_shift converges: for every image whose rolls more than a pixel away from the true shift resemble the shifted image less than some roll does, and every tolerance, there are a noise level and a factor such that every integer factor above it and every second image within the noise level of the shifted image give offsets within the tolerance, for all other options.  The same holds for register_images, for all real usfac above the factor, if half-pixel offsets more than half a pixel away resemble the shifted image less than one of them, also up to a number of modulus 1.",
  'all images with NaNs anywhere, sizes >= 3, true shifts, tolerances, noise (any second image), constant errors, factors and options', 'a statement about limits, for all images and all noise', CH+':chi2_shift', RI+':register_images')
p('chi2_shift with every operation rounded, positions included, is off by a few units in the last place of the image size',
  "Now also the centre, the automatic upsampling factor, the half-width of the window, numpy.linspace, the returned offsets and coordinates and the error bars are computed with rounding: each operation is off by at most mu times its result (mu <= 1/4, 1 is exact), everything else as in the previous properties on rounding.  If the best roll and the best node of the refined grid win by more than the rounding error (now with the change of the interpolated chi2 over the error of the positions), no pixel is at the level of the automatic factor, and an explicit factor is not almost the image height, then chi2_shift returns a list of the same form as in exact arithmetic, with offsets and coordinates off by at most (7n+4+2s/u) ((1+mu)^12-1) along an axis of n pixels and s nodes of spacing 1/u, and chi2 values within the bound; error bars are off by at most 3 s/u ((1+mu)^10-1) if no node is at the 1-sigma level.  In double precision these are (7n+4+2s/u) 24 2^-53 and 60 s/u 2^-53 pixels.  With exact operations the function is exactly chi2_shift.",
  'all images with NaNs anywhere, sizes and factorisations, error arguments, explicit and automatic factors, evaluation orders, accuracies and options (boundary wrap, verbose=False)', 'the order of operations depends on numpy, the FFT library, BLAS, the machine and the number of threads', CH+':chi2_shift', CH+':chi2map_to_errors', ZO+':zoom_on_pixel', ZO+':zoomnd')
p('register_images with every operation rounded, sub-pixel search included, finds the same node of the grid',
  "register_images with any upsampling factor, with the half-pixel search, the matrix-multiply Fourier transform around its peak (phases, exponentials, products), the normalisation, the moduli and the offsets computed with rounding: transforms, dot products and exponentials off by at most eps relative to the moduli, scalar operations by at most mu (mu <= 1/4), halves of integers exact.  If rounding does not move the grid (always so in double precision with an integer factor), the offsets are, up to (n/2+4)((1+mu)^3-1) pixels on an axis of n pixels, those of a node of the fine grid whose correlation is within twice an explicit error of the best one, around a half-pixel offset whose correlation is within twice an explicit error of the best one.  If the best half-pixel offset and the best node win by more than that, the node is the one of exact arithmetic; with factors up to 2 the offsets are then exactly those of exact arithmetic.  In double precision the offsets are off by at most (n+8) 3 2^-53 pixels.  With exact operations the function is exactly register_images, and with usfac=1 it is the function of the earlier property on rounding.",
  'all images with NaNs anywhere, sizes and factorisations, real factors, evaluation orders, accuracies, maxoff, zeromean and return_error (return_registered=False)', 'the order of operations depends on numpy, the FFT library, BLAS, the machine and the number of threads', RI+':register_images', RI+':dftregistration', UP+':dftups')
p('convolvend with every operation rounded is the documented convolution up to an explicit bound',
  "The kernel sum and normalisation, the transforms, their product, the smoothed weights and the division by them are computed with rounding: transforms and sums off by at most eps relative to the moduli, scalar operations by at most eps.  TRUE for every combination of boundary, padding, cropping, normalisation, NaN interpolation and edge handling: without reweighting every pixel is off by at most (sum of the moduli of the padded image) (sum of the moduli of the kernel) ((1+eps)^4 q - 1), q being 1, or (1+eps)^2/(1 - eps*condition) with normalize_kernel=True; with reweighting a pixel is NaN if its weight is below min_wt by more than the error of the weights, and value/weight up to an explicit bound if the weight is at least min_wt, and positive, by more than that error; return_fft is off by at most the same with (1+eps)^3.  The same in double precision with eps = 2m 2^-53.  FALSE at a pixel that no valid pixel reaches, with min_wt=0: the documented answer is 0, but any positive error of the transform can leave the quotient of two rounding errors, of the size of the image.  With exact operations the function is exactly convolvend.",
  'all real images and kernels with NaNs anywhere, any rank, sizes, options, normalisation functions with real values, evaluation orders and accuracies', 'the order of operations depends on numpy, the FFT library, the machine and the number of threads', CN+':convolvend')
p('shiftnd and shift2d with every operation rounded are off by an explicit bound',
  "The frequencies, their products with the offsets, the sum over the axes, the phase angle, its exponential, the transforms, their product and the modulus are computed with rounding: transforms, products and exponentials off by at most eps relative to the moduli, scalar operations by at most mu times their result, and the offset itself may be off by d.  shiftnd (any rank) and shift2d then fail exactly when exact arithmetic does, and every pixel is off by at most (sum of the moduli of the image) times (1+eps)^3 (1+k) - 1, k being eps plus (pi * sum of |offsets| + |phase|) ((1+mu)^(rank+7) - 1) plus pi times the sum of the d (with return_abs, up to a factor 1+mu).  For a whole number of pixels the result is the rolled image times cos(phase) up to that.  The same in double precision, with eps = 2m 2^-53.  With exact operations the functions are exactly shiftnd and shift2d.",
  'all images with NaNs anywhere, any rank and size, real offsets and phases, options, evaluation orders and accuracies', 'the order of operations depends on numpy, the FFT library, the machine and the number of threads', SH+':shiftnd', SH+':shift2d')
p('The README recipe with every operation rounded',
  "xoff, yoff, ... = chi2_shift(im1, im2, ...); corrected = shift(im2, -xoff, -yoff), with every operation of both calls rounded: if the best roll and the best node of the refined grid win by more than the rounding error, chi2_shift returns, and if the true shift lies in the refined window the 2-norm of the difference of the corrected image and im1 is at most that for the true shift plus pi/u times the norm of im1 (as in exact arithmetic) plus sqrt(ny*nx) times an explicit rounding error: that of the shift with an offset off by the error of the positions.  The same in double precision, with explicit constants.",
  'all images with NaNs anywhere, sizes and factorisations, true shifts, noise, constant errors, explicit and automatic factors, evaluation orders, accuracies and options', 'the order of operations depends on numpy, the FFT library, BLAS, the machine and the number of threads', CH+':chi2_shift', SH+':shiftnd', 'README.md')
p('The raw Fourier upsampling of the tests against dftups',
  "upsample_ft_raw(F, G, z) pads the centred cross spectrum F conj(G) to z times its size and transforms it back.  TRUE for even sizes and every whole factor z >= 2: it returns, and pixel (r, c) is dftups(F conj(G), z*ny, z*nx, z) at (-r, -c) (cyclically) divided by the number of large pixels and times a unit complex number that depends on r + c only (and is 1 at z = 2), so the moduli agree.  FALSE: with an odd axis of 3 or more pixels (99 and 101, two of the three sizes test_upsample is run on), or z = 1, it raises ValueError; under Python 2 with numpy >= 1.12 it raises TypeError; and test_upsample's comparison with dftus[::-1, ::-1] compares each pixel with its diagonal neighbour: the reversed array is one large pixel off in both axes.",
  'all transforms, sizes and whole factors', 'an identity of two transforms for every array, size and factor; the test only plots it', TE+':upsample_ft_raw', UP+':dftups')
p('The Gaussian image pairs of the tests',
  "make_offset_images(xsh, ysh, ...) returns an image that is exactly a Gaussian of the given amplitude and width at (ycen, xcen), an image that is noiseamp times the random array plus the same Gaussian moved by (ysh, xsh), and the tolerance 3/sqrt(2 pi width^2 amp/noiseamp).  TRUE for whole offsets with both centres at least D pixels from the border: the second image is the first rolled by the offset up to the norm of the noise plus n times the Gaussian's value at distance D; and if the refined window of chi2_shift contains the true shift, then its answer is off by an angle whose sine is at most an explicit multiple of noise, tail and one part in upsample_factor (the claim of test_shifts, quantified).  FALSE: noiseamp=0 raises ZeroDivisionError instead of giving noiseless images, and a float centre (50. for 50) raises TypeError.",
  'all sizes, offsets, widths, amplitudes, noise arrays and levels, centres', 'the tests draw random noise; no draw settles the others', TE+':make_offset_images', TE+':test_shifts', CH+':chi2_shift')
p('The synthetic extended image of the tests',
  "make_extended(n, ny, powerlaw) is the modulus of the inverse transform of random complex amplitudes scaled by distance^(-powerlaw/2), rolled to the centre.  TRUE: the distances are taken from the middle (n/2 - 1 on even axes, the half-integer n/2 on odd ones), only the pixel of distance zero is 0 (there is one only when both sizes are even), rolling the amplitudes does not change the image, pixels are nonnegative, and the sum of their squares is the sum of the squared amplitudes divided by the number of pixels.  FALSE: the power spectrum of the returned image is not the PSD ~ r^(-powerlaw) of the docstring: if a single amplitude is nonzero the image is constant, and its own transform vanishes at every frequency but zero.",
  'all sizes, exponents and random draws', 'identities for every random draw', TE+':make_extended')
p('The example of README.md, end to end',
  "image = make_extended(n); offset_image = make_offset_extended(image, xsh, ysh, noise=s); xoff, yoff, exoff, eyoff = chi2_shift(image, offset_image); corrected = shiftnd(offset_image, (-yoff, -xoff)).  For every size, exponent and random draw all four calls return, chi2_shift returns exactly two positions and two nonnegative errors, and if the window refined by the automatic factor contains the true offset (which it does whenever the coarse minimum is the pixel nearest to it, or for 1x1 and 2x2 images) the 2-norm of corrected - image is at most that of the noise, plus that of the imaginary part lost by make_offset_extended (zero for odd sizes), plus pi/u times sqrt(sum of the squared amplitudes)/n, u being the factor chosen.",
  'all sizes, exponents, offsets, noise levels and random draws', 'the example draws random amplitudes and noise; no run of it settles the others', 'README.md', TE+':make_extended', TE+':make_offset_extended', CH+':chi2_shift', SH+':shiftnd')
p('The experiment drivers of the tests',
  "do_n_fits and do_n_extended_fits: TRUE: row k is the answer of the registration method on the k-th pair of images (the Gaussian pair, or the extended image and its k-th noisy offset copy), in order, and the first exception stops them.  FALSE: gaussfit and maxoff of do_n_extended_fits reach the method (they are ignored), zeropad>0 raises TypeError (Python 3), unsharp_mask=True raises, doplot=True raises UnboundLocalError; run_tests raises at its print for every method; accuracy_plot raises NameError; the amplitude given to plot_tests is passed as gaussfit and never reaches the images; for an image rolled by whole pixels the rows of register_accuracy_test are (y, x), those of register_noise_test (x, y); accuracy_plot_extended plots sqrt(2) |xsh + ysh| as the error of a perfect method; and the last column of do_n_fits_register, meant as the fit residual, compares im1 with a registered image that has lost its mean and signs and is rolled by half its size: up to noise and one part in the upsampling factor it is the distance of im1 from the absolute value of im1 less its mean, rolled by half.",
  'all offsets, sizes, numbers of fits, noise arrays, images, registration methods and options', 'the drivers draw random noise and only plot; no run settles the others', TE+':do_n_fits', TE+':do_n_extended_fits', TE+':do_n_fits_register', TE+':run_tests', TE+':plot_tests', TE+':accuracy_plot', TE+':accuracy_plot_extended', TE+':register_accuracy_test', TE+':register_noise_test')
p('Shifting, zooming and interpolating images of a band-limited scene',
  "If an image samples a scene g (a function on the line, the plane or space that is a finite combination of waves of fewer than half a cycle per pixel along every axis), shiftnd returns exactly the samples of the displaced scene, for every real offset; if it only nearly does (noise, or a scene that is only nearly band-limited), the distance in the 2-norm between the shifted image and the displaced scene is at most that between the image and the scene, and so is the error at every pixel.  zoom1d, zoom_on_pixel, fourier_interp1d, fourier_interp2d and upsample_image return the scene's value at their coordinates up to the same.  So for a function within eps of a band-limited one the shifted samples are within (1+sqrt(N)) eps of the samples of the shifted function.  Every real image whose sizes are all odd samples exactly one band-limited scene.  FALSE at exactly half a cycle per pixel: the samples of sin(pi x) vanish and so does their shift by half a pixel, whose true values are 1 and -1; and with an even size there are images that sample no band-limited scene.",
  'all shapes, real images, scenes, real offsets, coordinates, factors, transforms', 'the tests of the accuracy of shift and zoom try one Gaussian', SH+':shiftnd', SC+':fourier_interp1d', SC+':fourier_interp2d', ZO+':zoom1d', ZO+':zoom_on_pixel', UP+':upsample_image')
p('Registering two images of one scene',
  "Two images, each within some 2-norm distance of the samples of one band-limited scene g, the second displaced by any real (ty, tx): whatever the noise, the true displacement explains the second image up to the sum D of the two distances.  So if the window refined by chi2_shift contains it, the returned offset is off by an angle whose sine times the first wave of the image is at most sqrt(ny*nx)/2 times (2D + pi/u * norm of the image); the image shifted back by the returned offset is within D + pi/u * norm of the first image, and within that plus the first image's distance of the scene; register_images satisfies the analogous bounds.  With noiseless samples of the scene D = 0.",
  'all scenes, displacements, noise arrays, sizes (even and odd), factors and options', 'the true displacement and the noise range over continua', CH+':chi2_shift', RI+':register_images', SH+':shift2d')
p('Two crossed waves, from images to offsets',
  "The first image samples a + b cos(2 pi y/ny - phi) + c cos(2 pi x/nx - psi) (b and c nonzero, at least 3 pixels each way), the second the same scene displaced by any real (ty, tx).  Then, with nothing else assumed about the search, chi2_shift with an explicit factor u whose final window spans at least two pixels (any int factor u of at least the image height, or u at most half of ny and nx) returns offsets within n pi R / (2u |b|) along y and n pi R / (2u |c|) along x of the true displacement, up to whole periods, where n is the size of the axis and R the root mean square of the scene (of its ripples if zeromean), for every error, transform and reporting option.  register_images with a factor of at least 3, if b^2+c^2 <= 4a^2, returns offsets within n pi R (2/|b| + 1/|a|)/(4 usfac).  With a second image any 2-norm distance from the displaced scene, for every tolerance there are a noise level and a factor such that below that level and from that factor on both functions return the true displacement up to the tolerance.",
  'all sizes from 3, amplitudes, phases, real displacements, noise arrays, factors, options', 'the displacement, amplitudes and phases range over continua', CH+':chi2_shift', RI+':register_images')
p('Several shifts in a row, rounded',
  "With every operation of shiftnd rounded, shifting by a and then by b gives at every pixel what one exact shift by a+b gives, up to sqrt(N) times the error bound of the first shift plus that of the second, N being the number of pixels, if all sizes are odd or a or b is whole; shifting by a and back by -a gives the image back up to the same.  A rounded shift keeps the total up to N times its error bound, and the 2-norm of the image grows by at most sqrt(N) times it.  (FALSE for even sizes and fractional offsets already in exact arithmetic.)",
  'all real images, any rank and size, real offsets, evaluation orders and accuracies', 'the order of operations depends on numpy, the FFT library, the machine and the number of threads', SH+':shiftnd')
p('register_images with every operation rounded on noisy images with a sub-pixel offset',
  "No exact answer has to stand out: with usfac = u > 2 and every operation rounded, if half-pixel offsets away from the true shift reproduce the shifted image worse (by more than twice the noise and twice the square root of the error of the correlation peak) than one of them does, register_images returns offsets (dx, dy) with |sin(2 pi (dy-ty)/ny)| |F(1,0)| <= sqrt(ny*nx) (2*noise + pi/u*norm + 2*sqrt(error of the correlation on the fine grid)) + 2 pi/ny * (error of the positions) |F(1,0)|, the same along x, and a sharper bound for images with flux.  For any maxoff the same holds of the true shifts within 3/4 - 3/(2u) pixels of the half-pixel offset found.  In double precision all the errors are explicit; the conclusion is instantiated for a 3x3 image in doubles.",
  'all images with NaNs anywhere, sizes and factorisations, true shifts, noise (any second image), real factors > 2, zeromean, return_error, evaluation orders and accuracies', 'all images, noise and rounding', RI+':register_images', RI+':dftregistration', UP+':dftups')
p('Error bars of an exact shift cover it',
  "If the second image is the first rolled by a whole number of pixels (less than half a period each way), both sizes are odd and no other roll reproduces the image, then with any upsample_factor ('auto', int or float), any constant error and any options chi2_shift(..., return_error=True) returns x, y, ex, ey with |x - dx| <= ex and |y - dy| <= ey: the fine map is symmetric about the true offset, so the pixel mirrored in it is within the one-sigma region too.  FALSE: that the offset is exact with 'auto' and the default max_auto_size (or any even one): no node of the fine grid lies on a whole pixel, so neither offset is ever exact and neither error bar is ever zero.",
  'all images (NaNs allowed), odd sizes, offsets, constant errors, factors, windows and options', 'all images and factors; a test tries one', CH+':chi2_shift', CH+':chi2map_to_errors')
p("The verdicts of the project's own tests",
  "test_extended_shifts, test_shifts (without gaussfit), test_issue19 and test_issue_60, as functions of size, offset, noise and random draws, always reach a verdict (no other exception), and it is: both offsets strictly within nsigma error bars of the true ones; both within 3/sqrt(2 pi 9 1000); the L1 distance of the image shifted back below 2*noise per pixel and below that of the unshifted one; and, for issue 60, with allow_huge the tolerance of test_shifts, without it passing exactly when 16 bytes per pixel exceed the size limit (so it would fail, not pass, on a small image).  When the draws add no noise and the offset is a whole number of pixels test_extended_shifts passes for every odd size, nsigma > 1 and image that no roll reproduces; for odd sizes every nonnegative image is one make_extended can return.  The first assertion of test_issue19 holds whenever the search window holds the true offset and noise, lost imaginary part and resolution stay below the tolerance.  FALSE: with noise_taper=True test_extended_shifts and its low-noise variant raise for every draw.",
  'all sizes, offsets, noise levels and random draws', 'each run of a test draws one noise array', TE+':fit_extended_shifts', TE+':test_extended_shifts', TE+':test_extended_shifts_lownoise', TE+':test_shifts', TE+':test_issue19', TE+':test_issue_60')
p('The gaussfit half of test_shifts and the low-noise test',
  "test_extended_shifts_lownoise always reaches a verdict (nonzero noise, no taper): both offsets strictly within nsigma error bars of the true ones and both error bars within 0.03 of 0.08 times the noise.  FALSE: that test_shifts with gaussfit=True tests the Gaussian fit: it calls cross_correlation_shifts without gaussfit, so its outcome is the same for every fitter and without any.  FALSE: that this half passes whenever the second image is exactly the first moved by the offset under test: for sizes above 50 and offsets that keep the correlation peak off the edge it then passes for every even size (100) and fails for every odd one (99, 101), because of the half-pixel bias; for every such size and offset there are draws that make the second image exactly the first one moved.  FALSE: that the low-noise test can pass for every nonzero noise level chi2_shift accepts: at -0.375 and below it fails for every draw.",
  'all sizes, offsets, noise levels, random draws and fitters', 'each run of a test draws one noise array; a parameter that selects nothing leaves no trace in a passing run', TE+':test_shifts', TE+':test_extended_shifts_lownoise', CC+':cross_correlation_shifts')
